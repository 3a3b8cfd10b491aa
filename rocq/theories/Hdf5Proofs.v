From Coq Require Import Sorted.
From Verif Require Import Base ShapeSpec ShapeProofs Values RandomAccessSetModel RandomAccessSetSpec RandomAccessSetProofs FunctionsModel FunctionsSpec FunctionsProofs FunctionsProps GmModel GmProofs Hdf5Model Hdf5Spec.

(** ** Function types *)
Lemma lift_round : forall T F (inj : F -> fobj T) prj (ft : ftype T F) ok okd, (forall f, prj (inj f) = Some f) -> round_trips ft ok okd ->
  round_trips (lift T inj prj ft) (fun o => exists f, prj o = Some f /\ ok f) (fun o => exists f, prj o = Some f /\ okd f).
Proof.
  intros T F inj prj ft ok okd HI R o dst sh (f & Ef & Hf) (d & Ed & Hd) HS.
  assert (HS' : has_shape ft f sh). { destruct HS as [A B]. cbn in A, B. rewrite Ef in A, B. split; auto. }
  destruct (R f d sh Hf Hd HS') as (ix & vs & S & LI & LV & D). exists ix, vs. cbn [lift ft_serialize ft_indexSequenceSize ft_valueSequenceSize ft_deserialize ft_size ft_call]. rewrite Ef, Ed.
  split; auto. split; auto. split; auto. intros ix' vs'. destruct (D ix' vs') as (f' & E' & SH & SZ & LI' & LV' & C). exists (inj f'). rewrite E'. cbn [bind]. split; auto.
  rewrite HI. split. { destruct SH as [A B]. split; cbn; rewrite HI; auto. } split; auto.
Qed.

Section Proofs.
Variable T : Type.
Variable N : num T.
Variable z : T.
Variable vti : nat.
Notation ops_of := (ops_of T N).
Notation obj_ok := (obj_ok T).

Definition is_kind (k : kind) (o : fobj T) : Prop :=
  match k, o with
  | KExplicit, OExplicit _ | KSparse, OSparse _ | KAbsolute, OFn1 _ | KSquared, OFn1 _ => True
  | KTruncAbsolute, OFn2 _ | KTruncSquared, OFn2 _ | KPotts, OFn2 _ => True
  | KPottsN, OPottsN _ | KConstant, OConstant _ => True
  | KStatic SIZE, OStatic f => length f = SIZE
  | _, _ => False
  end.
Lemma ok_kind : forall k o, obj_ok k o -> is_kind k o.
Proof. intros [] []; cbn; auto. Qed.
Lemma default_kind : forall k, is_kind k (default_of T z k).
Proof. intros []; cbn; auto. apply repeat_length. Qed.

Definition absolute_law : Prop := forall w, n_mul N w (n_abs N (n_sub N (n_of N 0) (n_of N 1))) = w.

Lemma round_weaken : forall F (ft : ftype T F) (ok okd ok' okd' : F -> Prop), (forall f, ok' f -> ok f) -> (forall f, okd' f -> okd f) -> round_trips ft ok okd -> round_trips ft ok' okd'.
Proof. intros F ft ok okd ok' okd' A B R f dst sh Hf Hd HS. apply R; auto. Qed.
Lemma ops_round : absolute_law -> forall k, round_trips (ops_of k) (obj_ok k) (is_kind k).
Proof.
  intros HN k. destruct k; cbn [Hdf5Model.ops_of]; (eapply round_weaken; [| |apply lift_round; [reflexivity|]]).
  3: apply C22_explicit. 5: apply C22_sparse. 7: apply C22_absolute_difference; exact HN. 9: apply C22_truncated_absolute. 11: apply C22_squared_difference.
  13: apply C22_truncated_squared. 15: apply C22_potts. 17: apply C22_pottsn. 19: apply C22_constant. 21: apply C22_static_single_site.
  all: intros [] H; cbn in H; try contradiction; try (eexists; split; [reflexivity|]; try exact I; tauto).
Qed.
Lemma fn_shape : forall F (ft : ftype T F) f a b, ft_dimension ft f = 2 -> (forall i, ft_shape ft f i = Ret (if i =? 0 then a else b)) -> has_shape ft f [a; b].
Proof. intros F ft f a b D S. split; auto. intros i Hi. rewrite S. destruct i as [|[|]]; cbn in *; auto; lia. Qed.
Lemma list_shape : forall F (ft : ftype T F) f l, ft_dimension ft f = length l -> (forall i, ft_shape ft f i = rd l i) -> has_shape ft f l.
Proof. intros. apply (has_shape_list T F ft f l l); auto. Qed.
Lemma obj_shape : forall k o, obj_ok k o -> exists sh, has_shape (ops_of k) o sh.
Proof.
  intros k o H. destruct k, o; cbn in H; try contradiction; (eexists; first [apply list_shape; [reflexivity|intros; reflexivity]|apply fn_shape; [reflexivity|intros; reflexivity]|idtac]).
  instantiate (1 := [SIZE]). split; auto. intros [|i] Hi; cbn in *; auto; lia.
Qed.
Lemma size_of_pos : forall sh, positive sh -> 0 < size_of sh.
Proof. induction 1; cbn; auto. apply Nat.mul_pos_pos; auto. Qed.
Lemma obj_sizes : forall k o, obj_ok k o -> storable k -> 0 < ft_indexSequenceSize (ops_of k) o /\ 0 < ft_valueSequenceSize (ops_of k) o.
Proof.
  intros k o H HS. destruct k, o; cbn in H, HS; try contradiction; cbn [Hdf5Model.ops_of lift ft_indexSequenceSize ft_valueSequenceSize]; cbn; try lia.
  destruct H as [HM HP]. red in HM. rewrite HM. split; [lia|]. apply size_of_pos; auto.
Qed.

(** ** Lists *)
Lemma upd_mid : forall A (a : list A) y c x, upd (a ++ y :: c) (length a) x = a ++ x :: c.
Proof. induction a; intros; cbn; auto. f_equal; auto. Qed.
Lemma put_spec : forall A (xs b a c : list A), length xs = length b -> put (a ++ b ++ c) (length a) xs = Ret (a ++ xs ++ c).
Proof.
  unfold put. induction xs as [|x xs IH]; intros [|y b] a c L; cbn in L; try lia; auto.
  cbn [length seq combine foldM fst snd]. rewrite wr_Ret by (rewrite !app_length; cbn; lia). cbn [bind app]. rewrite upd_mid.
  specialize (IH b (a ++ [x]) c ltac:(lia)). rewrite <- !app_assoc in IH. cbn [app] in IH. rewrite app_length in IH. cbn [length] in IH. rewrite Nat.add_1_r in IH. exact IH.
Qed.
Lemma skipn_front : forall A (a b : list A), skipn (length a) (a ++ b) = b.
Proof. induction a; cbn; auto. Qed.
Lemma fold_sum : forall A (g : A -> nat) l c, fold_left (fun c f => c + g f) l c = c + list_sum (map g l).
Proof. unfold list_sum. induction l as [|a l IH]; intros c; cbn [fold_left map fold_right]; [lia|]. rewrite IH. lia. Qed.
Lemma repeat_plus : forall A (d : A) n m, repeat d (n + m) = repeat d n ++ repeat d m.
Proof. intros. apply repeat_app. Qed.
Lemma index_where_Some : forall A (p : A -> bool) l, (exists a, In a l /\ p a = true) -> exists j a, index_where p l = Some j /\ nth_error l j = Some a /\ p a = true /\
  forall i b, i < j -> nth_error l i = Some b -> p b = false.
Proof.
  intros A p. induction l as [|b l IH]; intros (a & Ha & Pa); [contradiction|]. cbn [index_where]. destruct (p b) eqn:E.
  - exists 0, b. split; auto. split; auto. split; auto. intros; lia.
  - destruct IH as (j & a' & E' & Nj & P' & F). { exists a. split; auto. destruct Ha as [->|]; auto. congruence. }
    exists (S j), a'. rewrite E'. split; auto. split; auto. split; auto. intros [|i] c Hi Hc; cbn in Hc; [congruence|]. eapply F; eauto. lia.
Qed.
Lemma resize_length : forall A (l : list A) n d, length (resize l n d) = n.
Proof. intros. unfold resize. rewrite app_length, firstn_length, repeat_length. lia. Qed.
Lemma Forall_resize : forall A (P : A -> Prop) l n d, Forall P l -> P d -> Forall P (resize l n d).
Proof.
  intros A P l n d HL HD. unfold resize. apply Forall_app. split.
  - rewrite Forall_forall in *. intros x Hx. apply HL. rewrite <- (firstn_skipn n l). apply in_app_iff; auto.
  - apply Forall_forall. intros x Hx. apply repeat_spec in Hx. subst; auto.
Qed.

(** ** Saving the functions of a type *)
Definition written (k : kind) (f : fobj T) (p : list nat * list T) : Prop :=
  ft_serialize (ops_of k) f = Ret p /\ length (fst p) = ft_indexSequenceSize (ops_of k) f /\ length (snd p) = ft_valueSequenceSize (ops_of k) f /\
  forall dst, is_kind k dst -> forall ix' vs', exists f', ft_deserialize (ops_of k) (fst p ++ ix') (snd p ++ vs') dst = Ret f' /\ same_function T N k f f' /\
    ft_indexSequenceSize (ops_of k) f' = length (fst p) /\ ft_valueSequenceSize (ops_of k) f' = length (snd p).
Lemma written_ex : absolute_law -> forall k f, obj_ok k f -> exists p, written k f p.
Proof.
  intros HN k f Hf. destruct (obj_shape k f Hf) as [sh HS]. destruct (ops_round HN k f f sh Hf (ok_kind _ _ Hf) HS) as (ix & vs & S & LI & LV & _). exists (ix, vs).
  split; auto. split; auto. split; auto. intros dst Hd ix' vs'. destruct (ops_round HN k f dst sh Hf Hd HS) as (ix2 & vs2 & S2 & _ & _ & D). rewrite S in S2. injection S2 as <- <-.
  destruct (D ix' vs') as (f' & E & SH & SZ & L1 & L2 & C). exists f'. split; auto. split. { exists sh. auto. } cbn. lia.
Qed.
Lemma written_all : absolute_law -> forall k fs, Forall (obj_ok k) fs -> exists ps, Forall2 (written k) fs ps.
Proof. intros HN k fs H. induction H as [|f fs Hf H [ps IH]]; [exists []; constructor|]. destruct (written_ex HN k f Hf) as [p Hp]. exists (p :: ps). constructor; auto. Qed.
Lemma save_type_spec : forall k fs ps, Forall2 (written k) fs ps -> Forall (obj_ok k) fs -> storable k -> fs <> [] ->
  save_type T N z k fs = Ret (mkGroup (concat (map fst ps)) (concat (map snd ps))).
Proof.
  intros k fs ps W HO HS HF. unfold save_type. rewrite !fold_sum. cbn [plus].
  assert (G : forall fs ps, Forall2 (written k) fs ps -> forall a b, foldM (fun (st : (list nat * nat) * (list T * nat)) f =>
      let '((ib, ip), (vb, vp)) := st in ' (ix, vs) <- ft_serialize (ops_of k) f ;; ib <- put ib ip ix ;; vb <- put vb vp vs ;;
      Ret ((ib, ip + ft_indexSequenceSize (ops_of k) f), (vb, vp + ft_valueSequenceSize (ops_of k) f))) fs
      ((a ++ repeat 0 (list_sum (map (ft_indexSequenceSize (ops_of k)) fs)), length a), (b ++ repeat z (list_sum (map (ft_valueSequenceSize (ops_of k)) fs)), length b)) =
      Ret ((a ++ concat (map fst ps), length (a ++ concat (map fst ps))), (b ++ concat (map snd ps), length (b ++ concat (map snd ps))))).
  { clear. induction 1 as [|f p fs ps Hp H IH]; intros a b. { cbn. rewrite !app_nil_r. auto. }
    destruct p as [ix vs]. destruct Hp as (S & LI & LV & _). cbn [fst snd] in *. cbn [foldM map concat fst snd list_sum fold_right]. rewrite S. cbn [bind]. fold (list_sum (map (ft_indexSequenceSize (ops_of k)) fs)). fold (list_sum (map (ft_valueSequenceSize (ops_of k)) fs)).
    rewrite !repeat_plus, <- LI, <- LV. rewrite put_spec by (rewrite repeat_length; auto). cbn [bind]. rewrite put_spec by (rewrite repeat_length; auto). cbn [bind].
    specialize (IH (a ++ ix) (b ++ vs)). rewrite !app_length in IH. rewrite <- !app_assoc in IH. rewrite !app_length. rewrite IH. rewrite ?app_length, ?Nat.add_assoc. auto. }
  specialize (G fs ps W [] []). cbn [app length] in G. rewrite G. cbn [bind fst snd].
  destruct fs as [|f fs]; [contradiction|]. inversion W as [|? p ? ps' Hp W']; subst. destruct Hp as (_ & LI & LV & _). apply Forall_cons_iff in HO. destruct HO as [Hf _].
  destruct (obj_sizes k f Hf HS) as [P1 P2]. cbn [map concat]. destruct (fst p); [cbn in LI; lia|]. destruct (snd p); [cbn in LV; lia|]. reflexivity.
Qed.
Lemma load_objects_spec : forall k fs ps, Forall2 (written k) fs ps -> forall dsts, length dsts = length fs -> Forall (is_kind k) dsts ->
  exists fs', load_objects T N k (mkGroup (concat (map fst ps)) (concat (map snd ps))) dsts = Ret fs' /\ Forall2 (same_function T N k) fs fs'.
Proof.
  intros k fs ps W dsts L HD. unfold load_objects. cbn [gr_indices gr_values].
  assert (G : forall fs ps, Forall2 (written k) fs ps -> forall dsts a b done, length dsts = length fs -> Forall (is_kind k) dsts -> exists fs' i v,
    foldM (fun (st : list (fobj T) * nat * nat) f => let '(done, ip, vp) := st in
      f <- ft_deserialize (ops_of k) (skipn ip (a ++ concat (map fst ps))) (skipn vp (b ++ concat (map snd ps))) f ;;
      Ret (done ++ [f], ip + ft_indexSequenceSize (ops_of k) f, vp + ft_valueSequenceSize (ops_of k) f)) dsts (done, length a, length b) = Ret (done ++ fs', i, v) /\ Forall2 (same_function T N k) fs fs').
  { clear. induction 1 as [|f p fs ps Hp H IH]; intros [|d dsts] a b done L HD; cbn in L; try lia.
    - exists [], (length a), (length b). cbn. rewrite app_nil_r. auto.
    - apply Forall_cons_iff in HD. destruct HD as [Hd HD]. destruct p as [ix vs]. destruct Hp as (_ & LI & LV & D). cbn [fst snd] in *. cbn [foldM map concat fst snd].
      rewrite !skipn_front. destruct (D d Hd (concat (map fst ps)) (concat (map snd ps))) as (f' & E & SF & L1 & L2). rewrite E. cbn [bind]. rewrite L1, L2.
      destruct (IH dsts (a ++ ix) (b ++ vs) (done ++ [f']) ltac:(lia) HD) as (fs' & i & v & E' & F'). rewrite !app_length in E'. rewrite <- !app_assoc in E'. rewrite E'. exists (f' :: fs'), i, v.
      split; auto. }
  destruct (G fs ps W dsts [] [] [] L HD) as (fs' & i & v & E & F). cbn [app length] in E. rewrite E. cbn. exists fs'. auto.
Qed.

(** ** Saving all functions *)
Lemma regId_inj : forall k k', regId k = regId k' -> storable k -> k = k'.
Proof. intros [] []; cbn; intros; try discriminate; auto; contradiction. Qed.
Lemma find_group_app : forall id gs i (g : group T), find_group T id (gs ++ [(i, g)]) = match find_group T id gs with Some g' => Some g' | None => if i =? id then Some g else None end.
Proof.
  intros id gs i g. unfold find_group. induction gs as [|[j h] gs IH]; cbn [app find fst]; [destruct (i =? id); auto|]. destruct (j =? id); auto.
Qed.
Lemma save_functions_spec : absolute_law -> forall l, NoDup (map fst l) -> Forall (fun p : kind * list (fobj T) => storable (fst p) /\ Forall (obj_ok (fst p)) (snd p)) l ->
  exists gs, save_functions T N z l = Ret gs /\ forall k fs, In (k, fs) l -> fs <> [] -> exists ps, Forall2 (written k) fs ps /\ find_group T (regId k) gs = Some (mkGroup (concat (map fst ps)) (concat (map snd ps))).
Proof.
  intros HN l ND HF. unfold save_functions.
  assert (G : forall l gs0, NoDup (map fst l) -> Forall (fun p : kind * list (fobj T) => storable (fst p) /\ Forall (obj_ok (fst p)) (snd p)) l ->
    (forall k, In k (map fst l) -> find_group T (regId k) gs0 = None) -> exists gs, foldM (fun gs (p : kind * list (fobj T)) =>
    if length (snd p) =? 0 then Ret gs else match find_group T (regId (fst p)) gs with Some _ => Throw | None => g <- save_type T N z (fst p) (snd p) ;; Ret (gs ++ [(regId (fst p), g)]) end) l gs0 = Ret gs /\
    (forall id g, find_group T id gs0 = Some g -> find_group T id gs = Some g) /\
    forall k fs, In (k, fs) l -> fs <> [] -> exists ps, Forall2 (written k) fs ps /\ find_group T (regId k) gs = Some (mkGroup (concat (map fst ps)) (concat (map snd ps)))).
  { clear - HN. induction l as [|[k fs] l IH]; intros gs0 ND HF H0.
    - exists gs0. cbn. split; auto. split; auto. intros; contradiction.
    - cbn [map fst] in ND, H0. apply NoDup_cons_iff in ND. destruct ND as [NI ND]. apply Forall_cons_iff in HF. destruct HF as [[Hs Ho] HF]. cbn [fst snd] in Hs, Ho. cbn [foldM fst snd].
      destruct fs as [|f fs].
      + cbn [length Nat.eqb bind]. destruct (IH gs0 ND HF) as (gs & E & K & F). { intros k' Hk. apply H0. right; auto. } exists gs. split; auto. split; auto. intros k' fs' [Eq|Hin] Hne; [|auto]. injection Eq as <- <-. contradiction.
      + cbn [length Nat.eqb]. rewrite H0 by (left; auto). destruct (written_all HN k (f :: fs) Ho) as [ps W]. rewrite (save_type_spec k (f :: fs) ps W Ho Hs) by discriminate. cbn [bind].
        destruct (IH (gs0 ++ [(regId k, mkGroup (concat (map fst ps)) (concat (map snd ps)))]) ND HF) as (gs & E & K & F).
        { intros k' Hk. rewrite find_group_app, H0 by (right; auto). destruct (Nat.eqb_spec (regId k) (regId k')) as [R|]; auto. apply regId_inj in R; auto. subst. contradiction. }
        exists gs. split; auto. split. { intros id g Hg. apply K. rewrite find_group_app, Hg. auto. } intros k' fs' [Eq|Hin] Hne; [|auto]. injection Eq as <- <-. exists ps. split; auto. apply K.
        rewrite find_group_app, H0 by (left; auto). rewrite Nat.eqb_refl. auto. }
  destruct (G l [] ND HF) as (gs & E & _ & F). { intros; auto. } exists gs. auto.
Qed.

(** ** The header *)
Lemma flat_pairs : forall A (f g : A -> nat) l tail i a, nth_error l i = Some a ->
  nth_error (flat_map (fun p => [f p; g p]) l ++ tail) (2 * i) = Some (f a) /\ nth_error (flat_map (fun p => [f p; g p]) l ++ tail) (2 * i + 1) = Some (g a).
Proof.
  intros A f g. induction l as [|b l IH]; intros tail [|i] a H; try discriminate.
  - injection H as ->. split; auto.
  - cbn [nth_error] in H. destruct (IH tail i a H) as [H1 H2]. replace (2 * S i) with (S (S (2 * i))) by lia. split; auto.
Qed.
Lemma flat_pairs_length : forall A (f g : A -> nat) l, length (flat_map (fun p => [f p; g p]) l) = 2 * length l.
Proof. induction l; cbn [flat_map app length]; auto. cbn [app length] in *. lia. Qed.
Lemma mapM_nth_error : forall A B (f : nat -> outcome B) (h : A -> B) (l : list A), (forall i a, nth_error l i = Some a -> f i = Ret (h a)) -> mapM f (seq 0 (length l)) = Ret (map h l).
Proof.
  intros A B f h l. assert (G : forall l s, (forall i a, nth_error l i = Some a -> f (s + i) = Ret (h a)) -> mapM f (seq s (length l)) = Ret (map h l)).
  { clear. induction l as [|a l IH]; intros s H; auto. cbn [length seq mapM map]. pose proof (H 0 a eq_refl) as H0. rewrite Nat.add_0_r in H0. rewrite H0. cbn [bind]. rewrite IH; auto.
    intros i b Hi. rewrite Nat.add_succ_comm. apply H. auto. }
  intros H. apply (G l 0). auto.
Qed.

(** ** Matching the types *)
Definition first_of (types' : list kind) (k : kind) (j : nat) : Prop := index_where (fun k' => regId k =? regId k') types' = Some j /\ nth_error types' j = Some k.
Lemma first_ex : forall types' k, storable k -> In k types' -> exists j, first_of types' k j.
Proof.
  intros types' k HS HI. destruct (index_where_Some _ (fun k' => regId k =? regId k') types') as (j & a & E & Nj & P & _). { exists k. rewrite Nat.eqb_refl. auto. }
  exists j. split; auto. apply Nat.eqb_eq in P. apply regId_inj in P; auto. subst. auto.
Qed.
Lemma firsts_ex : forall types' types, Forall storable types -> incl types types' -> exists lookup, Forall2 (first_of types') types lookup.
Proof.
  intros types'. induction types as [|k types IH]; intros HS HI; [exists []; constructor|]. apply Forall_cons_iff in HS. destruct HS as [Hk HS].
  destruct (first_ex types' k Hk (HI _ (or_introl eq_refl))) as [j Hj]. destruct IH as [lk Hl]; auto. { intros x Hx. apply HI. right; auto. } exists (j :: lk). constructor; auto.
Qed.
Lemma match_types_spec : forall types' types lookup numbers, Forall2 (first_of types') types lookup -> length numbers = length types ->
  exists use, match_types types' (map regId types) numbers = Ret (lookup, use) /\ length use = length types' /\ forall j, nth_error use j = Some true <-> In j lookup.
Proof.
  intros types' types lookup numbers F L. unfold match_types. rewrite L.
  assert (G : forall types lookup, Forall2 (first_of types') types lookup -> forall tp nb ld use rest, length ld = length tp -> length nb = length tp + length types -> length use = length types' -> rest = length types ->
    exists use', foldM (fun (st : list nat * list bool) i =>
    r <- rd (map regId (tp ++ types)) i ;; n <- rd nb i ;;
    match index_where (fun k => r =? regId k) types' with
    | Some j => lookup <- wr (fst st) i j ;; use <- wr (snd st) j true ;; Ret (lookup, use)
    | None => if n =? 0 then Ret st else Throw
    end) (seq (length tp) (length types)) (ld ++ repeat 0 rest, use) = Ret (ld ++ lookup, use') /\ length use' = length types' /\
    forall j, nth_error use' j = Some true <-> nth_error use j = Some true \/ In j lookup).
  { clear. induction 1 as [|k j types lookup [Hj Nj] H IH]; intros tp nb ld use rest L1 L2 L3 ->.
    - exists use. cbn. split; auto. split; auto. tauto.
    - cbn [length seq foldM]. rewrite (rd_Ret _ _ _ (regId k)) by (rewrite map_app, nth_error_app2; rewrite map_length; auto; rewrite Nat.sub_diag; auto). cbn [bind].
      cbn [length] in L2. destruct (nth_error_lt _ nb (length tp) ltac:(lia)) as [n Hn]. rewrite (rd_Ret _ _ _ _ Hn). cbn [bind]. rewrite Hj. cbn [fst snd repeat].
      rewrite wr_Ret by (rewrite app_length; cbn; lia). cbn [bind]. assert (LJ : j < length use). { rewrite L3. apply nth_error_Some. congruence. }
      rewrite wr_Ret by auto. cbn [bind]. rewrite <- L1, upd_mid. destruct (IH (tp ++ [k]) nb (ld ++ [j]) (upd use j true) (length types)) as (use' & E & LU & U).
      { rewrite !app_length; cbn; lia. } { rewrite app_length; cbn; lia. } { rewrite length_upd; auto. } { auto. }
      rewrite <- !app_assoc in E. cbn [app] in E. rewrite app_length in E. cbn [length] in E. rewrite Nat.add_1_r in E. rewrite L1. rewrite E. exists use'. split; auto. split; auto.
      intros i. rewrite U, nth_error_upd by auto. cbn [In]. destruct (Nat.eq_dec j i); [subst; tauto|]. tauto. }
  destruct (G types lookup F [] numbers [] (repeat false (length types')) (length types)) as (use & E & LU & U); auto. { apply repeat_length. }
  exists use. cbn [app length] in E. split; auto. split; auto. intros j. rewrite U. split; auto. intros [H|]; auto. apply nth_error_In, repeat_spec in H. discriminate.
Qed.

(** ** Loading all functions *)
Lemma fold_upd : forall A (step : list A -> nat -> outcome (list A)) (ok : nat -> A -> Prop) (P : nat -> A -> A -> Prop) n,
  (forall l i a, length l = n -> nth_error l i = Some a -> ok i a -> exists a', step l i = Ret (upd l i a') /\ P i a a') ->
  forall l0, length l0 = n -> (forall i a, nth_error l0 i = Some a -> ok i a) ->
  exists l', foldM step (seq 0 n) l0 = Ret l' /\ length l' = n /\ forall i a, nth_error l0 i = Some a -> exists a', nth_error l' i = Some a' /\ P i a a'.
Proof.
  intros A step ok P n HS l0 L0 OK.
  assert (G : forall r s l, s + r = n -> length l = n -> (forall i, s <= i -> nth_error l i = nth_error l0 i) ->
    exists l', foldM step (seq s r) l = Ret l' /\ length l' = n /\ (forall i, i < s -> nth_error l' i = nth_error l i) /\ forall i a, s <= i -> nth_error l0 i = Some a -> exists a', nth_error l' i = Some a' /\ P i a a').
  { induction r as [|r IH]; intros s l Hs L Same.
    - exists l. cbn. split; auto. split; auto. split; auto. intros i a Hi Ha. assert (i < length l0) by (apply nth_error_Some; congruence). lia.
    - cbn [seq foldM]. destruct (nth_error_lt _ l0 s ltac:(lia)) as [a Ha]. destruct (HS l s a L) as (a' & E & Pa). { rewrite Same; auto. } { apply OK; auto. }
      rewrite E. cbn [bind]. destruct (IH (S s) (upd l s a')) as (l' & E' & L' & Lo & Hi). { lia. } { rewrite length_upd; auto. } { intros i Hi. rewrite nth_error_upd_neq by lia. apply Same. lia. }
      exists l'. split; auto. split; auto. split. { intros i Hi'. rewrite Lo by lia. apply nth_error_upd_neq. lia. }
      intros i b Hi' Hb. destruct (Nat.eq_dec i s) as [->|]; [|apply Hi; auto; lia]. exists a'. split; [|congruence]. rewrite Lo by lia. apply nth_error_upd_eq. lia. }
  destruct (G n 0 l0) as (l' & E & L' & _ & H); auto. exists l'. split; auto. split; auto. intros i a Ha. apply H; auto. lia.
Qed.
Lemma Forall2_nth : forall A B (R : A -> B -> Prop) l l', Forall2 R l l' -> forall i a, nth_error l i = Some a -> exists b, nth_error l' i = Some b /\ R a b.
Proof. induction 1; intros [|i] a H1; cbn in H1; try discriminate; [injection H1 as <-; cbn; eauto|]. cbn. auto. Qed.
Lemma Forall2_nth_r : forall A B (R : A -> B -> Prop) l l', Forall2 R l l' -> forall i b, nth_error l' i = Some b -> exists a, nth_error l i = Some a /\ R a b.
Proof. induction 1; intros [|i] a H1; cbn in H1; try discriminate; [injection H1 as <-; cbn; eauto|]. cbn. auto. Qed.
Lemma Forall2_len : forall A B (R : A -> B -> Prop) l l', Forall2 R l l' -> length l = length l'.
Proof. induction 1; cbn; auto. Qed.
(** What loading leaves of the functions [fs0] of the type number [j]. *)
Definition loaded (types : list kind) (funs : list (list (fobj T))) (lookup : list nat) (j : nat) (fs0 fs' : list (fobj T)) : Prop :=
  (~ In j lookup -> fs' = fs0) /\
  forall i k fs, nth_error lookup i = Some j -> nth_error types i = Some k -> nth_error funs i = Some fs ->
    (fs = [] -> fs' = fs0) /\ (fs <> [] -> Forall2 (same_function T N k) fs fs').
Lemma lookup_inj : forall types' types lookup, Forall2 (first_of types') types lookup -> NoDup types -> forall i i' j, nth_error lookup i = Some j -> nth_error lookup i' = Some j -> i = i'.
Proof.
  intros types' types lookup F ND i i' j H1 H2. destruct (Forall2_nth_r _ _ _ _ _ F _ _ H1) as (k1 & K1 & _ & F1). destruct (Forall2_nth_r _ _ _ _ _ F _ _ H2) as (k2 & K2 & _ & F2).
  rewrite F1 in F2. injection F2 as ->. eapply NoDup_nth_error; eauto; [|congruence]. apply nth_error_Some. congruence.
Qed.
Lemma index_where_nat : forall j (l : list nat), In j l -> exists i, index_where (Nat.eqb j) l = Some i /\ nth_error l i = Some j.
Proof.
  intros j l H. destruct (index_where_Some _ (Nat.eqb j) l) as (i & a & E & Ni & P & _). { exists j. rewrite Nat.eqb_refl. auto. } apply Nat.eqb_eq in P. subst. eauto.
Qed.
Lemma load_types_spec : forall types types' lookup use funs file funs0,
  Forall2 (first_of types') types lookup -> NoDup types -> length funs = length types ->
  length use = length types' -> (forall j, nth_error use j = Some true <-> In j lookup) ->
  (forall k fs, In (k, fs) (combine types funs) -> fs <> [] -> exists ps, Forall2 (written k) fs ps /\ find_group T (regId k) (hf_groups file) = Some (mkGroup (concat (map fst ps)) (concat (map snd ps)))) ->
  length funs0 = length types' -> (forall j k fs, nth_error types' j = Some k -> nth_error funs0 j = Some fs -> Forall (is_kind k) fs) ->
  exists funs', foldM (load_type T N z types' file (map (@length _) funs) lookup use) (seq 0 (length types')) funs0 = Ret funs' /\ length funs' = length types' /\
    forall j fs0, nth_error funs0 j = Some fs0 -> exists fs', nth_error funs' j = Some fs' /\ loaded types funs lookup j fs0 fs'.
Proof.
  intros types types' lookup use funs file funs0 F ND LF LU U GS L0 K0.
  apply (fold_upd _ _ (fun j fs => forall k, nth_error types' j = Some k -> Forall (is_kind k) fs) (loaded types funs lookup) (length types')); auto; [|intros; eapply K0; eauto].
  clear funs0 L0 K0. intros l j fs0 L Hj OK. unfold load_type.
  assert (HJ : j < length types') by (rewrite <- L; apply nth_error_Some; congruence).
  destruct (nth_error_lt _ use j ltac:(lia)) as [u Hu]. rewrite (rd_Ret _ _ _ _ Hu). cbn [bind]. destruct u.
  - apply U in Hu. destruct (index_where_nat j lookup Hu) as (i & E & Ni). rewrite E.
    destruct (Forall2_nth_r _ _ _ _ _ F _ _ Ni) as (k & Hk & _ & Hk'). assert (HI : i < length funs) by (rewrite LF; apply nth_error_Some; congruence).
    destruct (nth_error_lt _ funs i HI) as [fs Hfs]. rewrite (rd_Ret _ _ _ (length fs)) by (rewrite nth_error_map, Hfs; auto). cbn [bind].
    assert (LD : forall fs', (fs = [] -> fs' = fs0) -> (fs <> [] -> Forall2 (same_function T N k) fs fs') -> loaded types funs lookup j fs0 fs').
    { intros fs' A B. split; [contradiction|]. intros i' k' fs'' Hi' Hk'' Hf''. rewrite (lookup_inj _ _ _ F ND i' i j Hi' Ni) in Hk'', Hf''. rewrite Hk in Hk''. rewrite Hfs in Hf''. injection Hk'' as <-. injection Hf'' as <-. auto. }
    destruct fs as [|f fs]; cbn [length Nat.eqb].
    + exists fs0. rewrite upd_same by auto. split; auto. apply LD; auto. contradiction.
    + rewrite (rd_Ret _ _ _ _ Hk'). cbn [bind]. destruct (GS k (f :: fs)) as (ps & W & FG); [|discriminate|].
      { clear - Hk Hfs. revert funs types Hk Hfs. induction i as [|i IH]; intros [|? ?] [|? ?] Hk Hfs; cbn in *; try discriminate; [injection Hk as ->; injection Hfs as ->; auto|]. right; auto. }
      rewrite FG, (rd_Ret _ _ _ _ Hj). cbn [bind].
      destruct (load_objects_spec k (f :: fs) ps W (resize fs0 (S (length fs)) (default_of T z k))) as (fs' & EL & SF). { apply resize_length. } { apply Forall_resize; [apply OK; auto|apply default_kind]. }
      rewrite EL. cbn [bind]. rewrite wr_Ret by lia. exists fs'. split; auto. apply LD; auto. discriminate.
  - exists fs0. rewrite upd_same by auto. split; auto. split; auto. intros i k fs Hi. exfalso. apply nth_error_In in Hi. apply U in Hi. congruence.
Qed.

(** ** Factors *)
Definition fdesc : Type := (nat * nat * list nat)%type.
Definition d_vis (r : fdesc) : list nat := snd r.
Fixpoint layout (s : nat) (recs : list fdesc) : list hfactor :=
  match recs with [] => [] | (i, t, vis) :: rs => mkHf i t s (length vis) :: layout (s + length vis) rs end.
Definition ddata (r : fdesc) : list nat := fst (fst r) :: snd (fst r) :: length (snd r) :: snd r.
Lemma layout_length : forall recs s, length (layout s recs) = length recs.
Proof. induction recs as [|[[i t] vis] recs IH]; intros s; cbn; auto. Qed.
Lemma layout_app : forall recs s r, layout s (recs ++ [r]) = layout s recs ++ [mkHf (fst (fst r)) (snd (fst r)) (s + length (flat_map d_vis recs)) (length (snd r))].
Proof.
  induction recs as [|[[i t] vis] recs IH]; intros s [[i' t'] vis']; cbn [app layout flat_map length fst snd].
  - rewrite Nat.add_0_r. auto.
  - rewrite IH. cbn [fst snd d_vis]. rewrite app_length, Nat.add_assoc. auto.
Qed.
Lemma layout_nth : forall recs s n fc, nth_error (layout s recs) n = Some fc -> exists i t vis pre post, nth_error recs n = Some (i, t, vis) /\
  fc = mkHf i t (s + length pre) (length vis) /\ flat_map d_vis recs = pre ++ vis ++ post.
Proof.
  induction recs as [|[[i t] vis] recs IH]; intros s [|n] fc H; cbn [layout nth_error] in H; try discriminate.
  - injection H as <-. exists i, t, vis, [], (flat_map d_vis recs). cbn. rewrite Nat.add_0_r. auto.
  - destruct (IH _ _ _ H) as (i' & t' & vis' & pre & post & Hn & -> & E). exists i', t', vis', (vis ++ pre), post. split; auto. rewrite app_length, Nat.add_assoc. split; auto.
    cbn [flat_map d_vis snd]. rewrite E. rewrite <- app_assoc. auto.
Qed.
Lemma nth_layout : forall recs s n i t vis, nth_error recs n = Some (i, t, vis) -> exists st, nth_error (layout s recs) n = Some (mkHf i t st (length vis)).
Proof.
  induction recs as [|[[i t] vis] recs IH]; intros s [|n] i' t' vis' H; cbn [layout nth_error] in *; try discriminate; eauto. injection H as <- <- <-. eauto.
Qed.
Lemma mapM_slice : forall A (pre vis post : list A), mapM (fun j => rd (pre ++ vis ++ post) (length pre + j)) (seq 0 (length vis)) = Ret vis.
Proof.
  intros A pre vis post. rewrite (mapM_nth_error _ _ _ (fun a => a) vis); [rewrite map_id; auto|].
  intros i a H. apply rd_Ret. rewrite nth_error_app2 by lia. replace (length pre + i - length pre) with i by lia. rewrite nth_error_app1; auto. apply nth_error_Some. congruence.
Qed.
Lemma factor_variables : forall (m : hgm T) recs, h_vis m = flat_map d_vis recs -> forall n fc, nth_error (layout 0 recs) n = Some fc ->
  exists i t vis, nth_error recs n = Some (i, t, vis) /\ hc_findex fc = i /\ hc_ftype fc = t /\ hc_size fc = length vis /\ h_variables m fc = Ret vis /\
  forall j v, nth_error vis j = Some v -> h_variableIndex m fc j = Ret v.
Proof.
  intros m recs HV n fc H. apply layout_nth in H. destruct H as (i & t & vis & pre & post & Hn & -> & E). exists i, t, vis. split; auto. cbn [hc_findex hc_ftype hc_size]. split; auto. split; auto. split; auto.
  assert (G : forall j v, nth_error vis j = Some v -> h_variableIndex m (mkHf i t (0 + length pre) (length vis)) j = Ret v).
  { intros j v Hj. unfold h_variableIndex. rewrite HV, E. cbn [hc_start]. apply rd_Ret. rewrite nth_error_app2 by lia. replace (0 + length pre + j - length pre) with j by lia. rewrite nth_error_app1; auto. apply nth_error_Some; congruence. }
  split; auto. unfold h_variables. cbn [hc_size]. rewrite (mapM_nth_error _ _ _ (fun a => a) vis); [rewrite map_id; auto|]. auto.
Qed.
Lemma factors_saved : forall (m : hgm T) recs, h_vis m = flat_map d_vis recs -> h_factors m = layout 0 recs -> mapM (factor_data T m) (h_factors m) = Ret (map ddata recs).
Proof.
  intros m recs HV HF. rewrite HF. assert (G : forall l d, (forall n fc, nth_error l n = Some fc -> exists r, nth_error d n = Some r /\ factor_data T m fc = Ret (ddata r)) -> length l = length d -> mapM (factor_data T m) l = Ret (map ddata d)).
  { induction l as [|fc l IH]; intros [|r d] H L; cbn in L; try lia; auto. cbn [mapM map]. destruct (H 0 fc eq_refl) as (r' & Hr & E). injection Hr as <-. rewrite E. cbn [bind]. rewrite IH with (d := d); auto. intros n f Hn. apply (H (S n) f Hn). }
  apply G; [|apply layout_length]. intros n fc Hn. destruct (factor_variables m recs HV n fc Hn) as (i & t & vis & Hr & Hi & Ht & Hs & Hv & _). exists (i, t, vis). split; auto.
  unfold factor_data. rewrite Hv. cbn [bind]. rewrite Hi, Ht, Hs. auto.
Qed.
Definition retype (lookup : list nat) (r : fdesc) : fdesc := (fst (fst r), nth (snd (fst r)) lookup 0, snd r).
Lemma retype_vis : forall lookup recs, flat_map d_vis (map (retype lookup) recs) = flat_map d_vis recs.
Proof. induction recs as [|r recs IH]; cbn; auto. f_equal; auto. Qed.
Lemma load_factors_spec : forall lookup recs order, Forall (fun r : fdesc => snd (fst r) < length lookup) recs -> exists s,
  foldM (load_factor lookup (concat (map ddata recs))) (seq 0 (length recs)) ([], [], order, 0) =
  Ret (layout 0 (map (retype lookup) recs), flat_map d_vis recs, Nat.max order (list_max (map (fun r => length (d_vis r)) recs)), s).
Proof.
  intros lookup recs order HL.
  assert (G : forall rest done order, Forall (fun r : fdesc => snd (fst r) < length lookup) rest -> exists s,
    foldM (load_factor lookup (concat (map ddata done) ++ concat (map ddata rest))) (seq (length done) (length rest)) (layout 0 (map (retype lookup) done), flat_map d_vis done, order, length (concat (map ddata done))) =
    Ret (layout 0 (map (retype lookup) (done ++ rest)), flat_map d_vis (done ++ rest), Nat.max order (list_max (map (fun r => length (d_vis r)) rest)), s)).
  { clear. induction rest as [|[[i t] vis] rest IH]; intros done order HF.
    - eexists. cbn [seq length foldM]. rewrite app_nil_r. cbn. rewrite Nat.max_0_r. reflexivity.
    - apply Forall_cons_iff in HF. destruct HF as [Ht HF]. cbn [fst snd] in Ht. cbn [length seq foldM map concat]. change (ddata (i, t, vis)) with (i :: t :: length vis :: vis). unfold load_factor at 1.
      set (D := concat (map ddata done)). set (R := concat (map ddata rest)).
      assert (E0 : forall x, nth_error (D ++ x :: t :: length vis :: vis ++ R) (length D) = Some x) by (intros; rewrite nth_error_app2, Nat.sub_diag by lia; auto).
      cbn [app]. rewrite (rd_Ret _ _ _ i) by (apply E0). cbn [bind].
      rewrite (rd_Ret _ _ _ t) by (rewrite nth_error_app2 by lia; replace (length D + 1 - length D) with 1 by lia; auto). cbn [bind].
      rewrite (rd_nth _ _ _ 0 Ht). cbn [bind].
      rewrite (rd_Ret _ _ _ (length vis)) by (rewrite nth_error_app2 by lia; replace (length D + 2 - length D) with 2 by lia; auto). cbn [bind].
      assert (EV : mapM (fun j => rd (D ++ i :: t :: length vis :: vis ++ R) (length D + 3 + j)) (seq 0 (length vis)) = Ret vis).
      { pose proof (mapM_slice nat (D ++ [i; t; length vis]) vis R) as M. rewrite app_length in M. rewrite <- !app_assoc in M. cbn [app length] in M. exact M. }
      rewrite EV. cbn [bind]. destruct (IH (done ++ [(i, t, vis)]) (Nat.max order (length vis)) HF) as [s Hs]. exists s.
      rewrite map_app, concat_app in Hs. cbn [map concat] in Hs. change (ddata (i, t, vis)) with (i :: t :: length vis :: vis) in Hs. rewrite app_nil_r in Hs. fold D in Hs. fold R in Hs.
      rewrite <- !app_assoc in Hs. cbn [app] in Hs. rewrite map_app in Hs. cbn [map] in Hs. rewrite layout_app in Hs. rewrite retype_vis in Hs. cbn [retype fst snd] in Hs.
      rewrite flat_map_app in Hs. cbn [flat_map d_vis snd] in Hs. rewrite app_nil_r in Hs. rewrite !app_length in Hs. cbn [length] in Hs. rewrite Nat.add_1_r in Hs.
      replace (length D + 3 + length vis) with (length D + S (S (S (length vis)))) by lia. cbn [plus] in Hs. rewrite Hs. f_equal. f_equal. f_equal. cbn [map list_max fold_right d_vis snd]. fold (list_max (map (fun r : fdesc => length (d_vis r)) rest)). rewrite Nat.max_assoc. auto. }
  destruct (G recs [] order HL) as [s Hs]. exists s. exact Hs.
Qed.

(** ** Adjacency *)
Lemma adj_insert_any : forall adj v s x, nth_error adj v = Some s -> StronglySorted lt s ->
  exists s', adj_insert adj v x = Ret (upd adj v s') /\ StronglySorted lt s' /\ forall y, In y s' <-> y = x \/ In y s.
Proof.
  intros adj v s x Hv HS. unfold adj_insert. rewrite (rd_Ret _ _ _ _ Hv). cbn [bind].
  destruct (insert_spec nat Nat.ltb nat_swo s x (proj2 (ascending_lt s) HS)) as [v' [i [ins [E [A [I1 [_ [I2 [I3 _]]]]]]]]]. rewrite E. cbn [bind]. exists v'.
  rewrite wr_Ret by (apply nth_error_Some; congruence). split; auto. split. { apply ascending_lt; auto. } destruct ins.
  - apply I3; auto.
  - rewrite I2 by auto. intros y. split; auto. intros [->|]; auto. destruct (in_dec Nat.eq_dec x s) as [|NI]; auto. exfalso. assert (false = true); [|discriminate]. apply I1. rewrite nat_contains. auto.
Qed.
Definition adj_ok (nv : nat) (adj : list (list nat)) (P : nat -> nat -> Prop) : Prop :=
  length adj = nv /\ forall v s, nth_error adj v = Some s -> StronglySorted lt s /\ forall x, In x s <-> P v x.
Lemma adj_factor : forall (m : hgm T) fc x vis, (forall j v, nth_error vis j = Some v -> h_variableIndex m fc j = Ret v) -> forall nv adj P, Forall (fun v => v < nv) vis -> adj_ok nv adj P ->
  exists adj', foldM (fun adj j => v <- h_variableIndex m fc j ;; adj_insert adj v x) (seq 0 (length vis)) adj = Ret adj' /\ adj_ok nv adj' (fun v y => P v y \/ y = x /\ In v vis).
Proof.
  intros m fc x vis HV nv adj P HF HA.
  assert (G : forall rest s adj P, (forall j v, nth_error rest j = Some v -> h_variableIndex m fc (s + j) = Ret v) -> Forall (fun v => v < nv) rest -> adj_ok nv adj P ->
    exists adj', foldM (fun adj j => v <- h_variableIndex m fc j ;; adj_insert adj v x) (seq s (length rest)) adj = Ret adj' /\ adj_ok nv adj' (fun v y => P v y \/ y = x /\ In v rest)).
  { clear. induction rest as [|v rest IH]; intros s adj P HV HF [L A].
    - exists adj. cbn. split; auto. split; auto. intros v s0 Hs. destruct (A v s0 Hs) as [SS M]. split; auto. intros y. rewrite M. tauto.
    - apply Forall_cons_iff in HF. destruct HF as [Hv HF]. cbn [length seq foldM]. pose proof (HV 0 v eq_refl) as H0. rewrite Nat.add_0_r in H0. rewrite H0. cbn [bind].
      destruct (nth_error_lt _ adj v ltac:(lia)) as [s0 Hs]. destruct (A v s0 Hs) as [SS M]. destruct (adj_insert_any adj v s0 x Hs SS) as (s' & E & SS' & M'). rewrite E. cbn [bind].
      destruct (IH (S s) (upd adj v s') (fun u y => P u y \/ y = x /\ u = v)) as (adj' & E' & L' & A').
      { intros j u Hj. rewrite Nat.add_succ_comm. apply HV. auto. } { auto. }
      { split. { rewrite length_upd; auto. } intros u s1 Hu. rewrite nth_error_upd in Hu by lia. destruct (Nat.eq_dec v u) as [->|]. { injection Hu as <-. split; auto. intros y. rewrite M', M. intuition. } destruct (A u s1 Hu) as [S1 M1]. split; auto. intros y. rewrite M1. intuition congruence. }
      exists adj'. split; auto. split; auto. intros u s1 Hu. destruct (A' u s1 Hu) as [S1 M1]. split; auto. intros y. rewrite M1. cbn [In]. intuition congruence. }
  apply (G vis 0); auto.
Qed.
Definition touches (recs : list fdesc) (v x : nat) : Prop := exists r, nth_error recs x = Some r /\ In v (d_vis r).
Lemma adj_factors : forall (m : hgm T) recs, h_vis m = flat_map d_vis recs -> forall nv adj P, Forall (fun r => Forall (fun v => v < nv) (d_vis r)) recs -> adj_ok nv adj P ->
  exists adj', foldM (fun adj i => fc <- rd (layout 0 recs) i ;; foldM (fun adj j => v <- h_variableIndex m fc j ;; adj_insert adj v i) (seq 0 (hc_size fc)) adj) (seq 0 (length (layout 0 recs))) adj = Ret adj' /\
    adj_ok nv adj' (fun v x => P v x \/ touches recs v x).
Proof.
  intros m recs HV nv adj P HF HA. rewrite layout_length.
  assert (G : forall n s adj P, s + n = length recs -> adj_ok nv adj P -> exists adj', foldM (fun adj i => fc <- rd (layout 0 recs) i ;; foldM (fun adj j => v <- h_variableIndex m fc j ;; adj_insert adj v i) (seq 0 (hc_size fc)) adj) (seq s n) adj = Ret adj' /\
    adj_ok nv adj' (fun v x => P v x \/ s <= x /\ touches recs v x)).
  { clear adj P HA. induction n as [|n IH]; intros s adj P HL [L A].
    - exists adj. cbn. split; auto. split; auto. intros v s0 Hs. destruct (A v s0 Hs) as [SS M]. split; auto. intros x. rewrite M. split; auto. intros [|[Hx (r & Hr & _)]]; auto. assert (x < length recs) by (apply nth_error_Some; congruence). lia.
    - cbn [seq foldM]. destruct (nth_error_lt _ (layout 0 recs) s) as [fc Hfc]. { rewrite layout_length. lia. } rewrite (rd_Ret _ _ _ _ Hfc). cbn [bind].
      destruct (factor_variables m recs HV s fc Hfc) as (i & t & vis & Hr & _ & _ & Hs & _ & HI). rewrite Hs.
      destruct (adj_factor m fc s vis HI nv adj P) as (adj1 & E1 & A1). { rewrite Forall_forall in HF. apply (HF (i, t, vis)). eapply nth_error_In; eauto. } { split; auto. }
      rewrite E1. cbn [bind]. destruct (IH (S s) adj1 _ ltac:(lia) A1) as (adj' & E' & L' & A'). exists adj'. split; auto. split; auto.
      intros v s0 Hv. destruct (A' v s0 Hv) as [SS M]. split; auto. intros x. rewrite M. split.
      + intros [[|[-> H]]|[H1 H2]]; auto. { right. split; auto. exists (i, t, vis). auto. } right. split; auto. lia.
      + intros [|[H1 (r & H2 & H3)]]; auto. destruct (Nat.eq_dec x s) as [->|]. { rewrite Hr in H2. injection H2 as <-. auto. } right. split; [lia|]. exists r. auto. }
  destruct (G (length recs) 0 adj P eq_refl HA) as (adj' & E & L' & A'). exists adj'. split; auto. split; auto. intros v s Hv. destruct (A' v s Hv) as [SS M]. split; auto. intros x. rewrite M. intuition lia.
Qed.
Lemma nth_ext_error : forall A (a b : list A), (forall i, nth_error a i = nth_error b i) -> a = b.
Proof. induction a as [|x a IH]; intros [|y b] H; auto; try (specialize (H 0); discriminate). pose proof (H 0) as H0. injection H0 as ->. f_equal. apply IH. intros i. apply (H (S i)). Qed.
Lemma adj_ok_unique : forall nv a b P Q, adj_ok nv a P -> adj_ok nv b Q -> (forall v x, P v x <-> Q v x) -> a = b.
Proof.
  intros nv a b P Q [LA A] [LB B] H. apply nth_ext_error. intros v. destruct (nth_error a v) as [s|] eqn:EA.
  - destruct (nth_error_lt _ b v) as [s' EB]. { assert (v < length a) by (apply nth_error_Some; congruence). lia. } rewrite EB. f_equal.
    destruct (A v s EA) as [S1 M1], (B v s' EB) as [S2 M2]. apply sorted_ext; auto. intros x. rewrite M1, M2. auto.
  - symmetry. apply nth_error_None. apply nth_error_None in EA. lia.
Qed.

(** ** Built models *)
Definition desc_ok (types : list kind) (m : hgm T) (r : fdesc) : Prop :=
  StronglySorted lt (d_vis r) /\ Forall (fun v => v < length (h_space m)) (d_vis r) /\
  exists k fs f, nth_error types (snd (fst r)) = Some k /\ nth_error (h_funs m) (snd (fst r)) = Some fs /\ nth_error fs (fst (fst r)) = Some f /\
    has_shape (ops_of k) f (map (fun v => nth v (h_space m) 0) (d_vis r)).
Record valid (types : list kind) (m : hgm T) (recs : list fdesc) : Prop := mkValid {
  v_funs : Forall2 (fun k fs => Forall (obj_ok k) fs) types (h_funs m);
  v_factors : h_factors m = layout 0 recs;
  v_vis : h_vis m = flat_map d_vis recs;
  v_order : h_order m = list_max (map (fun r => length (d_vis r)) recs);
  v_adj : adj_ok (length (h_space m)) (h_adj m) (touches recs);
  v_desc : Forall (desc_ok types m) recs }.
Lemma touches_app : forall recs r v x, touches (recs ++ [r]) v x <-> touches recs v x \/ x = length recs /\ In v (d_vis r).
Proof.
  intros recs r v x. split.
  - intros (r' & H & HI). destruct (Nat.lt_ge_cases x (length recs)) as [|G]. { rewrite nth_error_app1 in H by auto. left. exists r'. auto. }
    rewrite nth_error_app2 in H by auto. destruct (x - length recs) as [|q] eqn:E; [|destruct q; discriminate]. injection H as <-. right. split; auto. lia.
  - intros [(r' & H & HI)|[-> HI]].
    + exists r'. split; auto. rewrite nth_error_app1; auto. apply nth_error_Some. congruence.
    + exists r. rewrite nth_error_app2, Nat.sub_diag by lia. auto.
Qed.
Lemma h_function_inv : forall types (m : hgm T) fc k f, h_function types m fc = Ret (k, f) -> exists fs, nth_error types (hc_ftype fc) = Some k /\ nth_error (h_funs m) (hc_ftype fc) = Some fs /\ nth_error fs (hc_findex fc) = Some f.
Proof.
  intros types m fc k f H. unfold h_function in H. apply bind_inv in H. destruct H as [k' [H1 H]]. apply bind_inv in H. destruct H as [fs [H2 H]]. apply bind_inv in H. destruct H as [f' [H3 H]]. injection H as -> ->.
  exists fs. split; [apply rd_inv; auto|]. split; apply rd_inv; auto.
Qed.
Lemma h_function_eq : forall types (m : hgm T) fc k fs f, nth_error types (hc_ftype fc) = Some k -> nth_error (h_funs m) (hc_ftype fc) = Some fs -> nth_error fs (hc_findex fc) = Some f -> h_function types m fc = Ret (k, f).
Proof. intros types m fc k fs f H1 H2 H3. unfold h_function. rewrite (rd_Ret _ _ _ _ H1). cbn [bind]. rewrite (rd_Ret _ _ _ _ H2). cbn [bind]. rewrite (rd_Ret _ _ _ _ H3). auto. Qed.
Lemma valid_step : forall types m recs o, valid types m recs -> legal T N types m o -> exists m' recs', hstep m o = Ret m' /\ valid types m' recs'.
Proof.
  intros types m recs o [VF VC VV VO VA VD] HL. destruct o as [n|t f|i t vis]; cbn [hstep].
  - eexists. exists recs. split; [reflexivity|]. constructor; cbn [h_funs h_factors h_vis h_order h_adj h_space]; auto.
    + destruct VA as [L A]. split. { rewrite !app_length; cbn; lia. } intros v s Hv. destruct (Nat.lt_ge_cases v (length (h_adj m))) as [|G].
      * rewrite nth_error_app1 in Hv by auto. apply A; auto.
      * rewrite nth_error_app2 in Hv by auto. destruct (v - length (h_adj m)) as [|q]; [|destruct q; discriminate]. injection Hv as <-. split; [constructor|]. intros x. split; [contradiction|]. intros (r & Hr & Hin).
        rewrite Forall_forall in VD. destruct (VD r) as (_ & HB & _). { eapply nth_error_In; eauto. } rewrite Forall_forall in HB. apply HB in Hin. lia.
    + eapply Forall_impl; [|exact VD]. intros r (A & B & k & fs & f & H1 & H2 & H3 & H4). split; auto. cbn [h_space]. rewrite app_length. cbn [length]. split. { eapply Forall_impl; [|exact B]. cbn. intros; lia. }
      exists k, fs, f. cbn [h_funs]. split; auto. split; auto. split; auto. erewrite map_ext_in; [exact H4|]. intros v Hv. cbn. apply app_nth1. rewrite Forall_forall in B. auto.
  - destruct HL as (k & Hk & Ho). destruct (Forall2_nth _ _ _ _ _ VF _ _ Hk) as (fs & Hfs & HO). rewrite (rd_Ret _ _ _ _ Hfs). cbn [bind]. eexists. exists recs. split; [reflexivity|].
    assert (LT : t < length (h_funs m)) by (apply nth_error_Some; congruence).
    constructor; cbn [h_funs h_factors h_vis h_order h_adj h_space]; auto.
    + clear - VF Hk Hfs Ho HO. revert t Hk Hfs. induction VF as [|k' fs' types funs H1 H2 IH]; intros [|t] Hk Hfs; cbn in Hk, Hfs; try discriminate; cbn [upd].
      * injection Hk as ->. injection Hfs as ->. constructor; auto. apply Forall_app. auto.
      * constructor; auto.
    + eapply Forall_impl; [|exact VD]. intros r (A & B & k' & fs' & f' & H1 & H2 & H3 & H4). split; auto. split; auto. cbn [h_funs h_space].
      destruct (Nat.eq_dec t (snd (fst r))) as [Et|Nt].
      * subst t. rewrite Hfs in H2. injection H2 as <-. exists k', (fs ++ [f]), f'. split; auto. rewrite nth_error_upd_eq by auto. split; auto. split; auto. rewrite nth_error_app1; auto. apply nth_error_Some; congruence.
      * exists k', fs', f'. rewrite nth_error_upd_neq by auto. auto.
  - destruct HL as (HS & HB & k & f & HF & HH). apply h_function_inv in HF. destruct HF as (fs & H1 & H2 & H3). cbn [hc_ftype hc_findex] in H1, H2, H3. destruct VA as [L A].
    destruct (addFactor_loop_valid (length (h_space m)) (length (h_factors m)) true vis None (h_adj m)) as (adj & E & L' & A'); auto.
    { intros v s Hv _. destruct (A v s Hv) as [SS M]. split; auto. apply Forall_forall. intros x Hx. apply M in Hx. destruct Hx as (r & Hr & _). rewrite VC, layout_length. apply nth_error_Some. congruence. }
    rewrite E. cbn [bind]. eexists. exists (recs ++ [(i, t, vis)]). split; [reflexivity|]. constructor; cbn [h_funs h_factors h_vis h_order h_adj h_space]; auto.
    + rewrite VC, VV, layout_app. auto.
    + rewrite VV, flat_map_app. cbn. rewrite app_nil_r. auto.
    + rewrite VO, map_app, list_max_app. cbn. lia.
    + split; auto. intros v s Hv. rewrite A' in Hv. destruct (nth_error (h_adj m) v) as [s0|] eqn:E0; [|discriminate]. injection Hv as <-. destruct (A v s0 E0) as [SS M]. cbn [andb].
      rewrite VC, layout_length. destruct (mem v vis) eqn:EM.
      * apply mem_In in EM. split. { apply sorted_snoc; auto. apply Forall_forall. intros x Hx. apply M in Hx. destruct Hx as (r & Hr & _). apply nth_error_Some. congruence. }
        intros x. rewrite in_app_iff, M, touches_app. cbn. intuition.
      * apply mem_false in EM. split; auto. intros x. rewrite M, touches_app. cbn. intuition.
    + apply Forall_app. split; [exact VD|]. constructor; [|constructor]. split; auto. split; auto. exists k, fs, f. auto.
Qed.
Lemma built_valid : forall types m, built T N types m -> exists recs, valid types m recs.
Proof.
  intros types m H. induction H as [|m o m' H [recs V] HL E].
  - exists []. constructor; cbn; auto. { induction types; cbn; constructor; auto. } { split; auto. intros [|v] s; discriminate. }
  - destruct (valid_step types m recs o V HL) as (m'' & recs' & E' & V'). rewrite E in E'. injection E' as <-. exists recs'. auto.
Qed.

(** ** Save and load *)
Definition factors_of (recs : list fdesc) : option (list nat) := match concat (map ddata recs) with [] => None | d => Some d end.
Lemma in_combine_nth : forall A B (l : list A) (l' : list B) a b, In (a, b) (combine l l') -> exists i, nth_error l i = Some a /\ nth_error l' i = Some b.
Proof.
  induction l as [|x l IH]; intros [|y l'] a b H; cbn in H; try contradiction. destruct H as [H|H].
  - injection H as -> ->. exists 0. auto.
  - destruct (IH _ _ _ H) as [i Hi]. exists (S i). auto.
Qed.
Lemma combine_fst : forall A B (l : list A) (l' : list B), length l = length l' -> map fst (combine l l') = l.
Proof. induction l as [|x l IH]; intros [|y l'] H; cbn in H; try lia; auto. cbn. f_equal. apply IH. lia. Qed.
Lemma combine_snd : forall A B (l : list A) (l' : list B), length l = length l' -> map snd (combine l l') = l'.
Proof. induction l as [|x l IH]; intros [|y l'] H; cbn in H; try lia; auto. cbn. f_equal. apply IH. lia. Qed.
Lemma save_ok : absolute_law -> forall types m recs, valid types m recs -> h_space m <> [] -> Forall storable types -> NoDup types ->
  exists gs, h_save T N z vti types m = Ret (mkFile (header_of T vti types m) (h_space m) gs (factors_of recs)) /\
    forall k fs, In (k, fs) (combine types (h_funs m)) -> fs <> [] -> exists ps, Forall2 (written k) fs ps /\ find_group T (regId k) gs = Some (mkGroup (concat (map fst ps)) (concat (map snd ps))).
Proof.
  intros HN types m recs [VF VC VV VO VA VD] HSp HSt ND. unfold h_save. change (save_vector (header_of T vti types m)) with (Ret (header_of T vti types m)). cbn [bind].
  destruct (h_space m) as [|s0 sp] eqn:ESp; [contradiction|]. cbn [save_vector bind]. pose proof (Forall2_len _ _ _ _ _ VF) as LF.
  destruct (save_functions_spec HN (combine types (h_funs m))) as (gs & E & GS). { rewrite combine_fst; auto. }
  { apply Forall_forall. intros [k fs] Hin. apply in_combine_nth in Hin. destruct Hin as (i & H1 & H2). cbn [fst snd]. split. { rewrite Forall_forall in HSt. apply HSt. eapply nth_error_In; eauto. }
    destruct (Forall2_nth _ _ _ _ _ VF _ _ H1) as (fs' & H3 & H4). rewrite H2 in H3. injection H3 as <-. auto. }
  rewrite E. cbn [bind]. rewrite (factors_saved m recs VV VC). cbn [bind]. exists gs. split; auto.
Qed.
Lemma resize_adj : forall nv0 nv adj P, adj_ok nv0 adj P -> (forall v x, P v x -> v < nv0) -> adj_ok nv (resize adj nv []) P.
Proof.
  intros nv0 nv adj P [L A] HP. split. { apply resize_length. } intros v s Hv. assert (HL : v < nv). { rewrite <- (resize_length _ adj nv []). apply nth_error_Some. congruence. }
  unfold resize in Hv. destruct (Nat.lt_ge_cases v (length adj)) as [Lt|Ge].
  - rewrite nth_error_app1 in Hv by (rewrite firstn_length; lia). apply A. rewrite <- (firstn_skipn nv adj), nth_error_app1 by (rewrite firstn_length; lia). auto.
  - rewrite nth_error_app2 in Hv by (rewrite firstn_length; lia). apply nth_error_In, repeat_spec in Hv. subst s. split; [constructor|]. intros x. split; [contradiction|]. intros H. apply HP in H. lia.
Qed.
Lemma touches_lt : forall types m recs, valid types m recs -> forall v x, touches recs v x -> v < length (h_space m).
Proof. intros types m recs V v x (r & Hr & Hin). pose proof (v_desc _ _ _ V) as VD. rewrite Forall_forall in VD. destruct (VD r) as (_ & HB & _). { eapply nth_error_In; eauto. } rewrite Forall_forall in HB. auto. Qed.
Lemma touches_retype : forall lookup recs v x, touches (map (retype lookup) recs) v x <-> touches recs v x.
Proof.
  intros lookup recs v x. split; intros (r & Hr & Hin).
  - rewrite nth_error_map in Hr. destruct (nth_error recs x) as [r0|] eqn:E; [|discriminate]. injection Hr as <-. exists r0. auto.
  - exists (retype lookup r). split; auto. rewrite nth_error_map, Hr. auto.
Qed.
Lemma header_ok : forall types m, length types = length (h_funs m) -> let h := header_of T vti types m in
  length h = 5 + 2 * length types + 1 /\
  h = [2; 0; length (h_space m); length (h_factors m); length types] ++ flat_map (fun p : kind * list (fobj T) => [regId (fst p); length (snd p)]) (combine types (h_funs m)) ++ [vti] /\
  (forall i p, nth_error (combine types (h_funs m)) i = Some p -> rd h (5 + 2 * i) = Ret (regId (fst p)) /\ rd h (5 + 2 * i + 1) = Ret (length (snd p))) /\
  mapM (fun i => rd h (5 + 2 * i)) (seq 0 (length types)) = Ret (map regId types) /\
  mapM (fun i => rd h (5 + 2 * i + 1)) (seq 0 (length types)) = Ret (map (@length _) (h_funs m)).
Proof.
  intros types m LF h.
  assert (LH : length h = 5 + 2 * length types + 1). { unfold h, header_of. cbn [app length]. rewrite app_length, flat_pairs_length, combine_length. cbn [length]. lia. }
  assert (EH : h = [2; 0; length (h_space m); length (h_factors m); length types] ++ flat_map (fun p : kind * list (fobj T) => [regId (fst p); length (snd p)]) (combine types (h_funs m)) ++ [vti]) by reflexivity.
  assert (LC : length types = length (combine types (h_funs m))) by (rewrite combine_length; lia).
  assert (HR : forall i p, nth_error (combine types (h_funs m)) i = Some p -> rd h (5 + 2 * i) = Ret (regId (fst p)) /\ rd h (5 + 2 * i + 1) = Ret (length (snd p))).
  { intros i p Hp. destruct (flat_pairs _ (fun p : kind * list (fobj T) => regId (fst p)) (fun p => length (snd p)) _ [vti] i p Hp) as [H1 H2]. rewrite EH. split; apply rd_Ret.
    - rewrite nth_error_app2 by (cbn; lia). cbn [length]. replace (5 + 2 * i - 5) with (2 * i) by lia. exact H1.
    - rewrite nth_error_app2 by (cbn; lia). cbn [length]. replace (5 + 2 * i + 1 - 5) with (2 * i + 1) by lia. exact H2. }
  split; auto. split; auto. split; auto. split.
  - replace (map regId types) with (map regId (map fst (combine types (h_funs m)))) by (rewrite combine_fst; auto). rewrite map_map, LC. apply mapM_nth_error. intros; apply HR; auto.
  - replace (map (@length _) (h_funs m)) with (map (@length _) (map snd (combine types (h_funs m)))) by (rewrite combine_snd; auto). rewrite map_map, LC. apply mapM_nth_error. intros; apply HR; auto.
Qed.
Lemma load_ok : forall types m recs types' m0 recs0 gs, valid types m recs -> Forall storable types -> NoDup types -> incl types types' -> valid types' m0 recs0 ->
  (forall k fs, In (k, fs) (combine types (h_funs m)) -> fs <> [] -> exists ps, Forall2 (written k) fs ps /\ find_group T (regId k) gs = Some (mkGroup (concat (map fst ps)) (concat (map snd ps)))) ->
  exists lookup m', Forall2 (first_of types') types lookup /\ h_load T N z types' m0 (mkFile (header_of T vti types m) (h_space m) gs (factors_of recs)) = Ret m' /\
    h_space m' = h_space m /\ h_factors m' = layout 0 (map (retype lookup) recs) /\ h_vis m' = flat_map d_vis recs /\ h_order m' = Nat.max (h_order m0) (h_order m) /\
    length (h_funs m') = length types' /\
    (forall j fs0, nth_error (h_funs m0) j = Some fs0 -> exists fs', nth_error (h_funs m') j = Some fs' /\ loaded types (h_funs m) lookup j fs0 fs') /\
    adj_ok (length (h_space m)) (h_adj m') (fun v x => touches recs0 v x \/ touches recs v x).
Proof.
  intros types m recs types' m0 recs0 gs V HSt ND HI V0 GS. destruct (firsts_ex types' types HSt HI) as [lookup FL]. pose proof V as [VF VC VV VO VA VD].
  pose proof (Forall2_len _ _ _ _ _ VF) as LF. pose proof (Forall2_len _ _ _ _ _ FL) as LL. pose proof (Forall2_len _ _ _ _ _ (v_funs _ _ _ V0)) as LF0.
  unfold h_load. cbn [hf_header]. set (h := header_of T vti types m).
  destruct (header_ok types m LF) as (LH & EH & HR & M1 & M2). fold h in LH, EH, HR, M1, M2.
  destruct (Nat.leb_spec (length h) 5) as [Hle|_]; [lia|].
  rewrite (rd_Ret _ h 0 2) by (rewrite EH; auto). cbn [bind]. rewrite (rd_Ret _ h 1 0) by (rewrite EH; auto). cbn [bind Nat.eqb negb orb].
  rewrite (rd_Ret _ h 3 (length (h_factors m))) by (rewrite EH; auto). cbn [bind]. rewrite (rd_Ret _ h 4 (length types)) by (rewrite EH; auto). cbn [bind].
  rewrite M1, bind_Ret, M2, bind_Ret.
  rewrite LH, Nat.eqb_refl. cbn [negb andb].
  destruct (match_types_spec types' types lookup (map (@length _) (h_funs m)) FL) as (use & EM & LU & U). { rewrite map_length; auto. }
  rewrite EM. cbn [bind hf_states].
  set (file := mkFile h (h_space m) gs (factors_of recs)).
  destruct (load_types_spec types types' lookup use (h_funs m) file (h_funs m0) FL ND) as (funs' & EF & LF' & HL); auto.
  { intros j k fs Hk Hfs. destruct (Forall2_nth _ _ _ _ _ (v_funs _ _ _ V0) _ _ Hk) as (fs1 & H1 & H2). rewrite Hfs in H1. injection H1 as <-. eapply Forall_impl; [|exact H2]. apply ok_kind. }
  rewrite EF. cbn [bind hf_factors].
  assert (HT : Forall (fun r : fdesc => snd (fst r) < length lookup) recs). { eapply Forall_impl; [|exact VD]. intros r (_ & _ & k & _ & _ & Hk & _). rewrite <- LL. apply nth_error_Some. congruence. }
  assert (EQ : (if length (h_factors m) =? 0 then Ret ([], [], h_order m0) else match factors_of recs with None => Throw | Some data => st <- foldM (load_factor lookup data) (seq 0 (length (h_factors m))) ([], [], h_order m0, 0) ;; Ret (fst st) end)
    = Ret (layout 0 (map (retype lookup) recs), flat_map d_vis recs, Nat.max (h_order m0) (h_order m))).
  { rewrite VC, layout_length, VO. destruct recs as [|r recs]. { cbn. rewrite Nat.max_0_r. auto. } cbn [length Nat.eqb]. change (factors_of (r :: recs)) with (Some (concat (map ddata (r :: recs)))).
    destruct (load_factors_spec lookup (r :: recs) (h_order m0) HT) as [s Hs]. cbn [length] in Hs. rewrite Hs. auto. }
  change (hf_factors file) with (factors_of recs). rewrite EQ. cbn [bind h_adj h_space]. clear EQ.
  destruct (adj_factors (mkHgm (h_space m) funs' (resize (h_adj m0) (length (h_space m)) []) (layout 0 (map (retype lookup) recs)) (flat_map d_vis recs) (Nat.max (h_order m0) (h_order m))) (map (retype lookup) recs)) with (nv := length (h_space m)) (adj := resize (h_adj m0) (length (h_space m)) []) (P := touches recs0) as (adj' & EA & AO).
  { cbn [h_vis]. rewrite retype_vis. auto. }
  { apply Forall_map. eapply Forall_impl; [|exact VD]. intros r (_ & HB & _). exact HB. }
  { apply resize_adj with (length (h_space m0)). { apply (v_adj _ _ _ V0). } apply (touches_lt _ _ _ V0). }
  rewrite EA. cbn [bind]. exists lookup. eexists. split; auto. split; [reflexivity|]. cbn [h_space h_factors h_vis h_order h_funs h_adj]. split; auto. split; auto. split; auto. split; auto. split; auto. split; auto.
  destruct AO as [L1 A1]. split; auto. intros v s Hv. destruct (A1 v s Hv) as [SS M]. split; auto. intros x. rewrite M, touches_retype. tauto.
Qed.

Lemma index_where_None : forall A (p : A -> bool) l, (forall a, In a l -> p a = false) -> index_where p l = None.
Proof. induction l as [|a l IH]; intros H; auto. cbn. rewrite (H a) by (left; auto). rewrite IH; auto. intros; apply H; right; auto. Qed.
Lemma index_where_lt : forall A (p : A -> bool) l j, index_where p l = Some j -> j < length l.
Proof. induction l as [|a l IH]; intros j H; cbn in H; [discriminate|]. destruct (p a); [injection H as <-; cbn; lia|]. destruct (index_where p l) as [q|]; [|discriminate]. injection H as <-. cbn. specialize (IH q eq_refl). lia. Qed.
Lemma match_unknown : forall types' regs numbers t r n, length regs = length numbers -> nth_error regs t = Some r -> nth_error numbers t = Some n -> n <> 0 ->
  (forall k, In k types' -> r <> regId k) -> match_types types' regs numbers = Throw.
Proof.
  intros types' regs numbers t r n L Hr Hn Hz HK. unfold match_types.
  assert (G : forall q s st, s + q = length numbers -> s <= t -> length (fst st) = length numbers -> length (snd st) = length types' -> foldM (fun (st : list nat * list bool) i =>
    r <- rd regs i ;; n <- rd numbers i ;;
    match index_where (fun k => r =? regId k) types' with
    | Some j => lookup <- wr (fst st) i j ;; use <- wr (snd st) j true ;; Ret (lookup, use)
    | None => if n =? 0 then Ret st else Throw
    end) (seq s q) st = Throw).
  { induction q as [|q IH]; intros s st Hs Ht L1 L2.
    - assert (t < length numbers) by (apply nth_error_Some; congruence). lia.
    - cbn [seq foldM]. destruct (Nat.eq_dec s t) as [->|Ne].
      + rewrite (rd_Ret _ _ _ _ Hr). cbn [bind]. rewrite (rd_Ret _ _ _ _ Hn). cbn [bind]. rewrite index_where_None. { apply Nat.eqb_neq in Hz. rewrite Hz. auto. } intros k Hk. apply Nat.eqb_neq. auto.
      + rewrite (rd_nth _ _ _ 0) by lia. cbn [bind]. rewrite (rd_nth _ _ _ 0) by lia. cbn [bind].
        destruct (index_where (fun k => nth s regs 0 =? regId k) types') as [j|] eqn:E.
        * rewrite wr_Ret by lia. cbn [bind]. rewrite wr_Ret by (rewrite L2; eapply index_where_lt; eauto). cbn [bind]. apply IH; cbn [fst snd]; rewrite ?length_upd; auto; lia.
        * destruct (nth s numbers 0 =? 0); [|reflexivity]. cbn [bind]. apply IH; auto; lia. }
  apply G; cbn [fst snd]; rewrite ?repeat_length; auto; lia.
Qed.
Lemma load_unknown : forall types m recs types' m0 gs t k fs, valid types m recs -> Forall storable types ->
  nth_error types t = Some k -> nth_error (h_funs m) t = Some fs -> fs <> [] -> ~ In k types' ->
  h_load T N z types' m0 (mkFile (header_of T vti types m) (h_space m) gs (factors_of recs)) = Throw.
Proof.
  intros types m recs types' m0 gs t k fs V HSt Ht Hf HF HK. pose proof (Forall2_len _ _ _ _ _ (v_funs _ _ _ V)) as LF.
  unfold h_load. cbn [hf_header]. set (h := header_of T vti types m).
  destruct (header_ok types m LF) as (LH & EH & HR & M1 & M2). fold h in LH, EH, HR, M1, M2.
  destruct (Nat.leb_spec (length h) 5) as [Hle|_]; [lia|].
  rewrite (rd_Ret _ h 0 2) by (rewrite EH; auto). cbn [bind]. rewrite (rd_Ret _ h 1 0) by (rewrite EH; auto). cbn [bind Nat.eqb negb orb].
  rewrite (rd_Ret _ h 3 (length (h_factors m))) by (rewrite EH; auto). cbn [bind]. rewrite (rd_Ret _ h 4 (length types)) by (rewrite EH; auto). cbn [bind].
  rewrite M1, bind_Ret, M2, bind_Ret, LH, Nat.eqb_refl. cbn [negb andb].
  rewrite (match_unknown types' _ _ t (regId k) (length fs)); auto.
  - rewrite !map_length. auto.
  - rewrite nth_error_map, Ht. auto.
  - rewrite nth_error_map, Hf. auto.
  - destruct fs; [contradiction|discriminate].
  - intros k' Hk' E. apply regId_inj in E. { subst. auto. } rewrite Forall_forall in HSt. apply HSt. eapply nth_error_In; eauto.
Qed.

(** ** What users see *)
Lemma eval_same : forall OP types m types' m' x, Forall2 lt x (h_space m) ->
  forall l l', Forall2 (fun fc fc' => exists vis k f f' sh, h_variables m fc = Ret vis /\ h_variables m' fc' = Ret vis /\ Forall (fun v => v < length (h_space m)) vis /\ sh = map (fun v => nth v (h_space m) 0) vis /\
     h_function types m fc = Ret (k, f) /\ h_function types' m' fc' = Ret (k, f') /\ forall c, in_shape sh c -> exists v, ft_call (ops_of k) f c = Ret v /\ ft_call (ops_of k) f' c = Ret v) l l' ->
  forall acc, exists v,
    foldM (fun acc fc => vs <- h_variables m fc ;; c <- mapM (rd x) vs ;; v <- h_value T N types m fc c ;; Ret (o_op OP v acc)) l acc = Ret v /\
    foldM (fun acc fc => vs <- h_variables m' fc ;; c <- mapM (rd x) vs ;; v <- h_value T N types' m' fc c ;; Ret (o_op OP v acc)) l' acc = Ret v.
Proof.
  intros OP types m types' m' x HX l l' H. induction H as [|fc fc' l l' (vis & k & f & f' & sh & H1 & H2 & HB & -> & H3 & H4 & H5) H IH]; intros acc; [exists acc; auto|].
  cbn [foldM]. rewrite H1, H2. cbn [bind].
  assert (EX : mapM (rd x) vis = Ret (map (fun v => nth v x 0) vis)). { apply mapM_Ret. intros v Hv. apply rd_nth. rewrite (Forall2_len _ _ _ _ _ HX). rewrite Forall_forall in HB. auto. }
  rewrite EX. cbn [bind]. unfold h_value. rewrite H3, H4. cbn [bind].
  destruct (H5 (map (fun v => nth v x 0) vis)) as (v & C1 & C2).
  { clear - HB HX. induction vis as [|v vis IH]; cbn [map]; [constructor|]. apply Forall_cons_iff in HB. destruct HB as [Hv HB]. constructor; auto. 2: apply IH; auto.
    destruct (nth_error_lt _ (h_space m) v Hv) as [b Hb]. destruct (Forall2_nth_r _ _ _ _ _ HX _ _ Hb) as (a & Ha & Hlt). rewrite (nth_error_nth _ _ _ Ha), (nth_error_nth _ _ _ Hb). auto. }
  rewrite C1, C2. cbn [bind]. apply IH.
Qed.
Lemma nth_Forall2 : forall A B (R : A -> B -> Prop) l l', length l = length l' -> (forall i a b, nth_error l i = Some a -> nth_error l' i = Some b -> R a b) -> Forall2 R l l'.
Proof. induction l as [|a l IH]; intros [|b l'] L H; cbn in L; try lia; constructor; [apply (H 0); auto|]. apply IH; [lia|]. intros i. apply (H (S i)). Qed.
Lemma has_shape_unique : forall F (ft : ftype T F) f a b, has_shape ft f a -> has_shape ft f b -> a = b.
Proof. intros F ft f a b [D1 S1] [D2 S2]. apply nth_ext with 0 0; [congruence|]. intros i Hi. specialize (S1 i Hi). rewrite S2 in S1 by congruence. congruence. Qed.
Lemma content_ok : forall types m recs types' m' lookup funs0, valid types m recs -> Forall2 (first_of types') types lookup ->
  h_space m' = h_space m -> h_factors m' = layout 0 (map (retype lookup) recs) -> h_vis m' = flat_map d_vis recs ->
  length funs0 = length types' -> (forall j fs0, nth_error funs0 j = Some fs0 -> exists fs', nth_error (h_funs m') j = Some fs' /\ loaded types (h_funs m) lookup j fs0 fs') ->
  same_content T N types m types' m'.
Proof.
  intros types m recs types' m' lookup funs0 V FL ES EF EV L0 HL. pose proof V as [VF VC VV VO VA VD].
  assert (FAC : forall i fc fc', nth_error (h_factors m) i = Some fc -> nth_error (h_factors m') i = Some fc' -> exists vis k f f', h_variables m fc = Ret vis /\ h_variables m' fc' = Ret vis /\ hc_size fc = length vis /\ hc_size fc' = length vis /\
     h_function types m fc = Ret (k, f) /\ h_function types' m' fc' = Ret (k, f') /\ hc_findex fc' = hc_findex fc /\ same_function T N k f f' /\
     Forall (fun v => v < length (h_space m)) vis /\ has_shape (ops_of k) f (map (fun v => nth v (h_space m) 0) vis)).
  { intros i fc fc' H1 H2. rewrite VC in H1. rewrite EF in H2. destruct (factor_variables m recs VV i fc H1) as (fi & t & vis & Hr & E1 & E2 & E3 & E4 & _).
    destruct (factor_variables m' (map (retype lookup) recs) ltac:(rewrite retype_vis; auto) i fc' H2) as (fi' & t' & vis' & Hr' & E1' & E2' & E3' & E4' & _).
    rewrite nth_error_map, Hr in Hr'. cbn in Hr'. injection Hr' as F1 F2 F3.
    rewrite Forall_forall in VD. destruct (VD (fi, t, vis) (nth_error_In _ _ Hr)) as (D1 & D2 & k & fs & f & K1 & K2 & K3 & K4). cbn [fst snd d_vis] in *.
    destruct (Forall2_nth _ _ _ _ _ FL _ _ K1) as (j & Hj & _ & Hj'). assert (t' = j) by (rewrite <- F2; apply nth_error_nth; auto).
    destruct (nth_error_lt _ funs0 j) as [fs0 Hfs0]. { rewrite L0. apply nth_error_Some. congruence. } destruct (HL j fs0 Hfs0) as (fs' & Hfs' & _ & LD).
    destruct (LD t k fs Hj K1 K2) as [_ LD']. assert (NE : fs <> []) by (intros ->; destruct fi; discriminate). destruct (Forall2_nth _ _ _ _ _ (LD' NE) _ _ K3) as (f' & Hf' & SF).
    exists vis, k, f, f'. split; auto. split; [congruence|]. split; auto. split; [congruence|]. split. { apply h_function_eq with fs; congruence. } split. { apply h_function_eq with fs'; congruence. } split; [congruence|]. auto. }
  assert (LE : length (h_factors m') = length (h_factors m)). { rewrite EF, VC, !layout_length, map_length. auto. }
  split; auto. split; auto. split.
  - intros i fc Hi. destruct (nth_error_lt _ (h_factors m') i) as [fc' Hi']. { rewrite LE. apply nth_error_Some. congruence. }
    destruct (FAC i fc fc' Hi Hi') as (vis & k & f & f' & A1 & A2 & A3 & A4 & A5 & A6 & A7 & A8 & _). exists fc', vis, k, f, f'. repeat (split; auto).
  - intros OP x HX. unfold h_evaluate. apply eval_same; auto. apply nth_Forall2; auto. intros i fc fc' Hi Hi'.
    destruct (FAC i fc fc' Hi Hi') as (vis & k & f & f' & A1 & A2 & A3 & A4 & A5 & A6 & A7 & (sh & S1 & S2 & S3 & S4) & A9 & A10).
    exists vis, k, f, f', sh. split; auto. split; auto. split; auto. split. { exact (has_shape_unique _ _ _ _ _ S1 A10). } auto.
Qed.
End Proofs.
