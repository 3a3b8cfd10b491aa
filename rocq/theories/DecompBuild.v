(** Proofs about GraphicalModelDecomposer: decomposeManual, open and closed blocks, k-fans. *)
From Coq Require Import Sorted Permutation.
From Verif Require Import Base DecompModel FactorGraphModel FactorGraphSpec DecompSpec DecompProofs DecompReorder DecompComplete.
#[local] Arguments nth_error : simpl never.

Lemma foldM_seq_ind : forall A T (P : nat -> T -> Prop) (f : T -> A -> outcome T) (l : list A) n s, P n s ->
  (forall i a s, nth_error l i = Some a -> P (n + i) s -> exists s', f s a = Ret s' /\ P (S (n + i)) s') -> exists s', foldM f l s = Ret s' /\ P (n + length l) s'.
Proof.
  intros A T P f l. induction l as [|a l IH]; intros n s H0 HS; cbn [foldM length]. { exists s. rewrite Nat.add_0_r. auto. }
  destruct (HS 0 a s eq_refl) as [s1 [E1 P1]]. { rewrite Nat.add_0_r. auto. } rewrite E1. cbn [bind]. destruct (IH (S n) s1) as [s2 [E2 P2]].
  - rewrite Nat.add_0_r in P1. auto.
  - intros i a' s' Hi Hp. destruct (HS (S i) a' s') as [s2 [E2 P2]]; auto. { rewrite <- plus_n_Sm. auto. } exists s2. split; auto. rewrite <- plus_n_Sm in P2. auto.
  - exists s2. split; auto. rewrite <- plus_n_Sm. auto.
Qed.
Lemma nth_error_seq0 : forall n i a, nth_error (seq 0 n) i = Some a -> a = i /\ i < n.
Proof.
  intros n i a H. assert (L : i < n). { rewrite <- (seq_length n 0). apply nth_error_Some. congruence. } split; auto.
  apply (nth_error_nth _ _ 0) in H. rewrite seq_nth in H by auto. auto.
Qed.

Section B.
Variable nv : nat.
Variable fs : list (list nat).
Hypothesis WF : Forall (fun vs => StronglySorted lt vs /\ Forall (fun v => v < nv) vs) fs.
Notation DC := (decomposes nv fs).
Notation nf := (length fs).

Lemma var_lt : forall f v, In v (nth f fs []) -> v < nv.
Proof. intros f v I. rewrite Forall_forall in WF. destruct (WF (nth f fs [])) as [_ H]. { apply nth_In. eapply nth_In_lt; eauto. } rewrite Forall_forall in H. auto. Qed.

Lemma occurs_add : forall d d' m f k idx, f < length (d_fl d) -> d_fl d' = upd (d_fl d) f (nth f (d_fl d) [] ++ [mkSub m k idx]) ->
  forall g, occurs_in d' g = occurs_in d g ++ (if Nat.eq_dec f g then [m] else []).
Proof.
  intros d d' m f k idx L E g. unfold occurs_in. rewrite E, nth_upd by auto. destruct (Nat.eq_dec f g) as [<-|]; [|rewrite app_nil_r; auto]. rewrite map_app. auto.
Qed.
Lemma occurs_same : forall d d' g, d_fl d' = d_fl d -> occurs_in d' g = occurs_in d g.
Proof. intros d d' g E. unfold occurs_in. rewrite E. auto. Qed.

(** Building submodel [m]; [ids] maps the variables to their copies. *)
Record ST (m : nat) (ids : nat -> option nat) (d : dec) : Prop := {
  st_dc : DC d;
  st_m : m < d_nm d;
  st_ids : forall v k, ids v = Some k <-> copy_of d v m k;
  st_single : single d;
  st_later : forall m' v k, m < m' -> ~ copy_of d v m' k }.

Lemma st_bound : forall m ids d, ST m ids d -> forall v, v < nv -> ids v = None -> nth m (d_nsv d) 0 < nv.
Proof.
  intros m ids d H v Hv N. set (n := nth m (d_nsv d) 0).
  assert (X : forall k, k < n -> exists u, copy_of d u m k). { intros k Hk. destruct (dc_exact _ _ _ (st_dc _ _ _ H) m k (st_m _ _ _ H) Hk) as [u [U _]]. eauto. }
  assert (Y : forall n', n' <= n -> exists l, length l = n' /\ NoDup l /\ forall u, In u l -> exists k, k < n' /\ copy_of d u m k).
  { induction n' as [|n' IH]; intros L. { exists []. repeat split; [constructor|]. intros u []. } destruct (IH ltac:(lia)) as [l [L1 [L2 L3]]]. destruct (X n' ltac:(lia)) as [u U]. exists (u :: l). split; [cbn; lia|]. split.
    - constructor; auto. intros I. destruct (L3 u I) as [k [K1 K2]]. pose proof (st_single _ _ _ H u m k n' K2 U). lia.
    - intros w [<-|I]; [exists n'; auto|]. destruct (L3 w I) as [k [K1 K2]]. exists k. split; auto. }
  destruct (Y n (le_n n)) as [l [L1 [L2 L3]]]. assert (Q : length (v :: l) <= length (seq 0 nv)).
  { apply NoDup_incl_length.
    - constructor; auto. intros I. destruct (L3 v I) as [k [_ K]]. apply (st_ids _ _ _ H) in K. congruence.
    - intros u [<-|I]; apply in_seq; [lia|]. destruct (L3 u I) as [k [_ K]]. apply (dc_range _ _ _ (st_dc _ _ _ H)) in K. lia. }
  rewrite seq_length in Q. cbn in Q. fold n. lia.
Qed.

Lemma st_add : forall m ids d v, ST m ids d -> v < nv -> ids v = None -> exists d', addSubVariable d m v = Ret (d', nth m (d_nsv d) 0) /\
  ST m (fun u => if Nat.eq_dec u v then Some (nth m (d_nsv d) 0) else ids u) d' /\ extends d d' /\ d_fl d' = d_fl d /\ d_nm d' = d_nm d /\ nth m (d_nsv d) 0 < nv.
Proof.
  intros m ids d v H Hv N. pose proof (st_bound _ _ _ H v Hv N) as BD. destruct H as [D M I S L]. destruct (addSubVariable_ok nv fs d m v D M Hv) as [d' [E [D' [X [C [N1 [N2 [N3 [N4 [N5 N6]]]]]]]]]].
  exists d'. split; auto. split; [|auto]. assert (NC : forall k, ~ copy_of d v m k). { intros k Q. apply I in Q. congruence. } split; auto.
  - lia.
  - intros u k. destruct (Nat.eq_dec u v) as [->|NE].
    + split. { intros Q. injection Q as <-. auto. } intros Q. destruct (N6 _ _ _ Q) as [Q1|[_ [_ ->]]]; auto. exfalso. eapply NC; eauto.
    + rewrite I. split; [apply X|]. intros Q. destruct (N6 _ _ _ Q) as [Q1|[Q1 _]]; auto. tauto.
  - intros u m' k l A B. destruct (N6 _ _ _ A) as [A1|[-> [-> ->]]], (N6 _ _ _ B) as [B1|[B1 [B2 B3]]].
    + eapply S; eauto.
    + subst. exfalso. eapply NC; eauto.
    + exfalso. eapply NC; eauto.
    + auto.
  - intros m' u k Hm Q. destruct (N6 _ _ _ Q) as [Q1|[_ [-> _]]]; [eapply L; eauto|lia].
Qed.

Lemma st_factor : forall m ids d f idx, ST m ids d -> f < nf -> copies_of d (nth f fs []) m idx -> exists d' k, addSubFactor d m f idx = Ret (d', k) /\
  ST m ids d' /\ extends d d' /\ d_nm d' = d_nm d /\ forall g, occurs_in d' g = occurs_in d g ++ (if Nat.eq_dec f g then [m] else []).
Proof.
  intros m ids d f idx [D M I S L] Hf C. destruct (addSubFactor_ok nv fs d m f idx D M Hf C) as [d' [k [E [D' [X [V [N1 [N2 [N3 N4]]]]]]]]]. exists d', k. split; auto.
  assert (CE : forall u m' k', copy_of d' u m' k' <-> copy_of d u m' k'). { intros. unfold copy_of. rewrite V. tauto. }
  split; [|split; [auto|split; [auto|]]].
  - split; auto. + lia. + intros. rewrite CE. auto. + intros u m' a b A B. apply CE in A, B. eapply S; eauto. + intros. rewrite CE. auto.
  - intros g. eapply occurs_add; eauto. rewrite (proj2 (dc_nf _ _ _ D)). auto.
Qed.

Lemma st_start : forall d m, DC d -> single d -> m < d_nm d -> (forall m' v k, m <= m' -> ~ copy_of d v m' k) -> ST m (fun _ => None) d.
Proof. intros d m D S M N. split; auto. - intros v k. split; [discriminate|]. intros Q. exfalso. eapply (N m); eauto. - intros. apply N. lia. Qed.

(** ** decomposeManual *)
Definition sentinel (ids : nat -> option nat) (l : list nat) : Prop :=
  length l = nv /\ forall v, v < nv -> match ids v with Some k => nth v l 0 = k /\ k < nv | None => nth v l 0 = nv end.

Lemma manual_variables : forall m vs d l acc ids, ST m ids d -> sentinel ids l -> (forall v, In v vs -> v < nv) ->
  exists d' l' idx ids', foldM (manual_variable nv m) vs (d, l, acc) = Ret (d', l', acc ++ idx) /\ ST m ids' d' /\ sentinel ids' l' /\ copies_of d' vs m idx /\ extends d d' /\ d_fl d' = d_fl d /\ d_nm d' = d_nm d.
Proof.
  intros m. induction vs as [|v vs IH]; intros d l acc ids H T B; cbn [foldM].
  { exists d, l, [], ids. rewrite app_nil_r. split; auto. split; auto. split; auto. split; [constructor|]. split; [apply extends_refl|auto]. }
  assert (Hv : v < nv) by (apply B; cbn; auto). destruct T as [T1 T2]. unfold manual_variable at 1. rewrite (rd_nth _ l v 0) by lia. cbn [bind].
  pose proof (T2 v Hv) as Tv. destruct (ids v) as [k|] eqn:Ei.
  - destruct Tv as [-> Tk]. destruct (Nat.eqb_spec k nv); [lia|]. cbn [bind].
    destruct (IH d l (acc ++ [k]) ids H (conj T1 T2)) as [d' [l' [idx [ids' [E [S' [T' [C [X [F N]]]]]]]]]]. { intros. apply B. cbn. auto. }
    exists d', l', (k :: idx), ids'. rewrite E, <- app_assoc. cbn [app]. repeat (split; auto). constructor; auto. apply X. apply (st_ids _ _ _ H). auto.
  - rewrite Tv, Nat.eqb_refl. destruct (st_add m ids d v H Hv Ei) as [d1 [E1 [S1 [X1 [F1 [N1 B1]]]]]]. rewrite E1. cbn [bind]. rewrite wr_Ret by lia. cbn [bind]. set (k := nth m (d_nsv d) 0) in *.
    destruct (IH d1 (upd l v k) (acc ++ [k]) _ S1) as [d' [l' [idx [ids' [E [S' [T' [C [X [F N]]]]]]]]]].
    { split. { rewrite length_upd. auto. } intros u Hu. rewrite nth_upd by lia. destruct (Nat.eq_dec u v) as [->|NE]. { destruct (Nat.eq_dec v v); [auto|lia]. } destruct (Nat.eq_dec v u); [lia|]. apply T2. auto. }
    { intros. apply B. cbn. auto. }
    exists d', l', (k :: idx), ids'. rewrite E, <- app_assoc. cbn [app]. split; auto. split; auto. split; auto. split; [|split; [eapply extends_trans; eauto|split; congruence]].
    constructor; auto. apply X. apply (st_ids _ _ _ S1). destruct (Nat.eq_dec v v); [auto|lia].
Qed.

Lemma manual_factors : forall m l d t ids, ST m ids d -> sentinel ids t -> (forall f, In f l -> f < nf) ->
  exists d' t' ids', foldM (manual_factor nv fs m) l (d, t) = Ret (d', t') /\ ST m ids' d' /\ extends d d' /\ d_nm d' = d_nm d /\
    forall g, occurs_in d' g = occurs_in d g ++ repeat m (count_occ Nat.eq_dec l g).
Proof.
  intros m. induction l as [|f l IH]; intros d t ids H T B; cbn [foldM].
  { exists d, t, ids. split; auto. split; auto. split; [apply extends_refl|]. split; auto. intros g. cbn. rewrite app_nil_r. auto. }
  assert (Hf : f < nf) by (apply B; cbn; auto). unfold manual_factor at 1. rewrite (rd_nth _ fs f []) by auto. cbn [bind].
  destruct (manual_variables m (nth f fs []) d t [] ids H T (fun v I => var_lt f v I)) as [d1 [t1 [idx [ids1 [E1 [S1 [T1 [C1 [X1 [F1 N1]]]]]]]]]]. rewrite E1. cbn [bind app].
  destruct (st_factor m ids1 d1 f idx S1 Hf C1) as [d2 [k [E2 [S2 [X2 [N2 O2]]]]]]. rewrite E2. cbn [bind].
  destruct (IH d2 t1 ids1 S2 T1) as [d3 [t3 [ids3 [E3 [S3 [X3 [N3 O3]]]]]]]. { intros. apply B. cbn. auto. }
  exists d3, t3, ids3. split; auto. split; auto. split; [eapply extends_trans; eauto; eapply extends_trans; eauto|]. split; [congruence|].
  intros g. rewrite O3, O2, (occurs_same d d1) by auto. rewrite <- app_assoc. f_equal. cbn [count_occ]. destruct (Nat.eq_dec f g); reflexivity.
Qed.

Lemma models_ok : forall n d, DC d -> single d -> DC (models n d) /\ single (models n d) /\ d_nm (models n d) = n + d_nm d /\ d_fl (models n d) = d_fl d /\ d_vl (models n d) = d_vl d.
Proof.
  induction n as [|n IH]; intros d D SG. { cbn. auto. } destruct (IH d D SG) as [D1 [S1 [N1 [F1 V1]]]]. destruct (addSubModel_ok nv fs _ D1) as [D2 [X2 [_ [N2 _]]]].
  change (models (S n) d) with (fst (addSubModel (models n d))). split; auto. split; [|split; [lia|auto]]. intros v m k l A B. apply (S1 v m k l); auto.
Qed.

Lemma occurs_new : forall n g, occurs_in (dec_new nv nf n) g = [].
Proof. intros n g. unfold occurs_in, dec_new. cbn [d_fl]. destruct (Nat.lt_ge_cases g nf). { rewrite nth_repeat. auto. } rewrite nth_overflow; auto. rewrite repeat_length. auto. Qed.
Lemma single_new : forall n, single (dec_new nv nf n).
Proof. intros n v m k l H. exfalso. unfold copy_of, dec_new in H. cbn [d_vl] in H. destruct (Nat.lt_ge_cases v nv). { rewrite nth_repeat in H. auto. } rewrite nth_overflow in H; auto. rewrite repeat_length. auto. Qed.
Lemma copy_new : forall n v m k, ~ copy_of (dec_new nv nf n) v m k.
Proof. intros n v m k H. unfold copy_of, dec_new in H. cbn [d_vl] in H. destruct (Nat.lt_ge_cases v nv). { rewrite nth_repeat in H. auto. } rewrite nth_overflow in H; auto. rewrite repeat_length. auto. Qed.

Lemma renames_occurs : forall ren d d' g, renames ren d d' -> occurs_in d' g = occurs_in d g.
Proof.
  intros ren d d' g [_ [_ [_ [_ [_ [_ [_ [F _]]]]]]]]. unfold occurs_in. rewrite F. change (@nil sub) with (map (fun s => mkSub (s_model s) (s_id s) (map (ren (s_model s)) (s_idx s))) []) at 1. rewrite map_nth, map_map. reflexivity.
Qed.
Lemma renames_copy : forall ren d d' v m k, renames ren d d' -> (copy_of d' v m k <-> exists k0, copy_of d v m k0 /\ k = ren m k0).
Proof.
  intros ren d d' v m k [_ [_ [_ [_ [_ [_ [V _]]]]]]]. unfold copy_of. rewrite V. change (@nil (nat * nat)) with (map (fun p : nat * nat => (fst p, ren (fst p) (snd p))) []) at 1. rewrite map_nth, in_map_iff. split.
  - intros [[m0 k0] [I J]]. cbn in I. injection I as <- <-. exists k0. auto.
  - intros [k0 [J ->]]. exists (m, k0). auto.
Qed.
Lemma renames_single : forall ren d d', renames ren d d' -> single d -> single d'.
Proof. intros ren d d' R S v m k l A B. apply (renames_copy ren d d') in A, B; auto. destruct A as [a [A ->]], B as [b [B ->]]. rewrite (S v m a b A B). auto. Qed.

Lemma manual_ok : forall subs, Forall (Forall (fun f => f < nf)) subs -> exists d, decomposeManual nv fs subs = Ret d /\ DC d /\ ordered d /\ single d /\ d_nm d = length subs /\
  forall f, occurs_in d f = flat_map (fun m => repeat m (count_occ Nat.eq_dec (nth m subs []) f)) (seq 0 (length subs)).
Proof.
  intros subs HS. unfold decomposeManual, DecompModel.nf. set (d0 := models (length subs) (dec_new nv nf 0)).
  destruct (models_ok (length subs) (dec_new nv nf 0) (dec_new_ok nv fs) (single_new 0)) as [D0 [S0 [N0 [F0 V0]]]]. fold d0 in D0, S0, N0, F0, V0.
  destruct (foldM_seq_ind nat dec (fun n d => DC d /\ single d /\ d_nm d = length subs /\ (forall m v k, n <= m -> ~ copy_of d v m k) /\
     forall f, occurs_in d f = flat_map (fun m => repeat m (count_occ Nat.eq_dec (nth m subs []) f)) (seq 0 n))
    (fun d m => l <- rd subs m ;; '(d, _) <- foldM (manual_factor nv fs m) l (d, repeat nv nv) ;; Ret d) (seq 0 (length subs)) 0 d0) as [d [E [D [S [N [_ O]]]]]].
  - split; auto. split; auto. split; [cbn in N0; lia|]. split. + intros m v k _ Q. unfold copy_of in Q. rewrite V0 in Q. eapply copy_new; eauto. + intros f. cbn. rewrite (occurs_same (dec_new nv nf 0)) by auto. apply occurs_new.
  - intros i a d H [D [S [N [Z O]]]]. apply nth_error_seq0 in H. destruct H as [-> Hi]. cbn [plus] in *. rewrite (rd_nth _ subs i []) by auto. cbn [bind].
    destruct (manual_factors i (nth i subs []) d (repeat nv nv) (fun _ => None)) as [d1 [t1 [ids1 [E1 [S1 [X1 [N1 O1]]]]]]].
    + apply st_start; auto. lia.
    + split; [apply repeat_length|]. intros v Hv. rewrite nth_indep with (d' := nv) by (rewrite repeat_length; auto). apply nth_repeat.
    + rewrite Forall_forall in HS. apply Forall_forall. apply HS. apply nth_In. auto.
    + rewrite E1. cbn [bind]. exists d1. split; auto. destruct S1 as [D1 M1 I1 SS L1]. repeat (split; auto). * lia. * intros f. rewrite O1, O, seq_S, flat_map_app. cbn. rewrite app_nil_r. auto.
  - rewrite E. cbn [bind]. rewrite seq_length in O. destruct (reorder_ok nv fs d D) as [ren [d' [E' [R [OR D']]]]]. exists d'. split; auto. split; auto. split; auto. split; [eapply renames_single; eauto|].
    split. { destruct R as [_ [_ [R _]]]. congruence. } intros f. rewrite (renames_occurs ren d d' f R). apply O.
Qed.

(** ** blocks *)
Definition optional (ids : nat -> option nat) (l : list (option nat)) : Prop := length l = nv /\ forall v, v < nv -> nth v l None = ids v.

Lemma block_variables_ok : forall m inner d l ids, ST m ids d -> optional ids l -> NoDup inner -> (forall v, In v inner -> v < nv /\ ids v = None) ->
  exists d' l' ids', foldM (fun st v => let '(d, ids) := st in '(d, k) <- addSubVariable d m v ;; ids <- wr ids v (Some k) ;; Ret (d, ids)) inner (d, l) = Ret (d', l') /\
    ST m ids' d' /\ optional ids' l' /\ extends d d' /\ d_fl d' = d_fl d /\ d_nm d' = d_nm d /\ forall v, ids' v <> None <-> ids v <> None \/ In v inner.
Proof.
  intros m. induction inner as [|v inner IH]; intros d l ids H T ND B; cbn [foldM]. { exists d, l, ids. split; auto. split; auto. split; auto. split; [apply extends_refl|]. cbn. repeat split; auto. tauto. }
  destruct (B v (or_introl eq_refl)) as [Hv Nv]. inversion ND; subst. destruct (st_add m ids d v H Hv Nv) as [d1 [E1 [S1 [X1 [F1 [N1 B1]]]]]]. rewrite E1. cbn [bind]. destruct T as [T1 T2]. rewrite wr_Ret by lia. cbn [bind].
  destruct (IH d1 (upd l v (Some (nth m (d_nsv d) 0))) _ S1) as [d2 [l2 [ids2 [E2 [S2 [T' [X2 [F2 [N2 V2]]]]]]]]]; auto.
  - split. { rewrite length_upd. auto. } intros u Hu. rewrite nth_upd by lia. destruct (Nat.eq_dec u v) as [->|NE]. { destruct (Nat.eq_dec v v); [auto|lia]. } destruct (Nat.eq_dec v u); [lia|]. apply T2. auto.
  - intros u I. destruct (B u (or_intror I)) as [Q1 Q2]. split; auto. destruct (Nat.eq_dec u v) as [->|]; auto. tauto.
  - exists d2, l2, ids2. split; auto. split; auto. split; auto. split; [eapply extends_trans; eauto|]. split; [congruence|]. split; [congruence|]. intros u. rewrite V2. cbn [In]. destruct (Nat.eq_dec u v) as [->|NE].
    + split; auto. intros _. left. discriminate.
    + intuition.
Qed.

Lemma copies_ids : forall m ids d vs, ST m ids d -> Forall (fun v => ids v <> None) vs -> copies_of d vs m (map (fun v => match ids v with Some k => k | None => 0 end) vs).
Proof. intros m ids d vs H F. induction F as [|v vs Fv F IH]; cbn [map]; constructor; auto. destruct (ids v) as [k|] eqn:E; [|tauto]. apply (st_ids _ _ _ H). auto. Qed.

Definition inside (ids : nat -> option nat) (vs : list nat) : bool := forallb (fun v => match ids v with Some _ => true | None => false end) vs.
Lemma inside_true : forall ids vs, inside ids vs = true <-> Forall (fun v => ids v <> None) vs.
Proof. intros ids vs. unfold inside. rewrite forallb_forall, Forall_forall. split; intros H v I; specialize (H v I); destruct (ids v); auto; try discriminate; tauto. Qed.

Lemma open_factor_ok : forall m ids l d f, ST m ids d -> optional ids l -> f < nf -> exists d', open_factor fs m l d f = Ret d' /\ ST m ids d' /\ extends d d' /\ d_nm d' = d_nm d /\
  forall g, occurs_in d' g = occurs_in d g ++ (if Nat.eq_dec f g then (if inside ids (nth f fs []) then [m] else []) else []).
Proof.
  intros m ids l d f H [T1 T2] Hf. unfold open_factor. rewrite (rd_nth _ fs f []) by auto. cbn [bind].
  assert (ADD : Forall (fun v => ids v <> None) (nth f fs []) -> exists d', ('(d, _) <- addSubFactor d m f (map (fun v => match ids v with Some k => k | None => 0 end) (nth f fs [])) ;; Ret d) = Ret d' /\ ST m ids d' /\ extends d d' /\ d_nm d' = d_nm d /\
     forall g, occurs_in d' g = occurs_in d g ++ (if Nat.eq_dec f g then (if inside ids (nth f fs []) then [m] else []) else [])).
  { intros F. destruct (st_factor m ids d f _ H Hf (copies_ids m ids d _ H F)) as [d' [k [E [S [X [N O]]]]]]. rewrite E. cbn [bind]. exists d'. repeat (split; auto). intros g. rewrite (proj2 (inside_true ids (nth f fs []))) by auto. apply O. }
  assert (TS : forall vs b, (forall v, In v vs -> v < nv) -> foldM (fun (test : bool) v => if test then o <- rd l v ;; Ret (match o with Some _ => true | None => false end) else Ret false) vs b = Ret (b && inside ids vs)).
  { induction vs as [|v vs IH]; intros b B; cbn [foldM]. { rewrite andb_true_r. auto. } destruct b; cbn [bind].
    - rewrite (rd_nth _ l v None) by (rewrite T1; apply B; cbn; auto). cbn [bind]. rewrite IH by (intros; apply B; cbn; auto). rewrite T2 by (apply B; cbn; auto). reflexivity.
    - rewrite IH by (intros; apply B; cbn; auto). reflexivity. }
  destruct (nth f fs []) as [|v0 vs0] eqn:Ef. { apply ADD. constructor. } rewrite <- Ef in *. rewrite TS by apply var_lt. cbn [bind andb].
  destruct (inside ids (nth f fs [])) eqn:I.
  - apply inside_true in I. rewrite (mapM_ok _ _ _ (fun v => match ids v with Some k => k | None => 0 end)).
    2:{ intros v Iv. rewrite (rd_nth _ l v None) by (rewrite T1; eapply var_lt; eauto). cbn [bind]. rewrite T2 by (eapply var_lt; eauto). rewrite Forall_forall in I. specialize (I v Iv). destruct (ids v); auto. tauto. }
    cbn [bind]. apply ADD. auto.
  - exists d. split; auto. split; auto. split; [apply extends_refl|]. split; auto. intros g. destruct (Nat.eq_dec f g); rewrite app_nil_r; auto.
Qed.

Definition sets_ok (inners : list (list nat)) : Prop := Forall (fun s => NoDup s /\ Forall (fun v => v < nv) s) inners.
Lemma sets_nth : forall inners i, sets_ok inners -> i < length inners -> NoDup (nth i inners []) /\ forall v, In v (nth i inners []) -> v < nv.
Proof. intros inners i H L. unfold sets_ok in H. rewrite Forall_forall in H. destruct (H (nth i inners []) (nth_In _ _ L)) as [H1 H2]. split; auto. rewrite Forall_forall in H2. auto. Qed.

Lemma occurs_loop : forall m (g : dec -> nat -> outcome dec) (P : dec -> Prop) (c : nat -> list nat),
  (forall d f, P d -> f < nf -> exists d', g d f = Ret d' /\ P d' /\ extends d d' /\ d_nm d' = d_nm d /\ forall h, occurs_in d' h = occurs_in d h ++ (if Nat.eq_dec f h then c f else [])) ->
  forall d, P d -> d_nm d = m -> exists d', foldM g (seq 0 nf) d = Ret d' /\ P d' /\ extends d d' /\ d_nm d' = m /\ forall h, h < nf -> occurs_in d' h = occurs_in d h ++ c h.
Proof.
  intros m g P c H d HP Hm.
  destruct (foldM_seq_ind nat dec (fun n d' => P d' /\ extends d d' /\ d_nm d' = m /\ forall h, occurs_in d' h = occurs_in d h ++ (if h <? n then c h else [])) g (seq 0 nf) 0 d) as [d' [E [P' [X [N O]]]]].
  - split; auto. split; [apply extends_refl|]. split; auto. intros h. cbn. rewrite app_nil_r. auto.
  - intros i a d1 Hi [P1 [X1 [N1 O1]]]. apply nth_error_seq0 in Hi. destruct Hi as [-> Hi]. cbn [plus] in *. destruct (H d1 i P1 Hi) as [d2 [E2 [P2 [X2 [N2 O2]]]]]. exists d2. split; auto. split; auto. split; [eapply extends_trans; eauto|]. split; [lia|].
    intros h. rewrite O2, O1. rewrite <- app_assoc. f_equal. destruct (Nat.eq_dec i h) as [<-|NE].
    + rewrite Nat.ltb_irrefl. destruct (Nat.ltb_spec i (S i)); [auto|lia].
    + destruct (Nat.ltb_spec h i), (Nat.ltb_spec h (S i)); try lia; rewrite ?app_nil_r; auto.
  - exists d'. split; auto. split; auto. split; auto. split; auto. intros h Hh. rewrite O, seq_length. cbn [plus]. destruct (Nat.ltb_spec h nf); [auto|lia].
Qed.

(** The submodels of a decomposition into one submodel for each given set. *)
Lemma blocks_loop : forall (inners : list (list nat)) (g : dec -> nat -> outcome dec) (c : nat -> nat -> list nat) (Q : nat -> dec -> Prop),
  (forall d m, DC d -> single d -> m = d_nm d -> m < length inners -> exists d', g d m = Ret d' /\ DC d' /\ single d' /\ extends d d' /\ d_nm d' = S m /\
     (forall h, h < nf -> occurs_in d' h = occurs_in d h ++ c m h) /\ Q m d') ->
  (forall m d d', extends d d' -> Q m d -> Q m d') ->
  exists d', foldM g (seq 0 (length inners)) (dec_new nv nf 0) = Ret d' /\ DC d' /\ single d' /\ d_nm d' = length inners /\
    (forall h, h < nf -> occurs_in d' h = flat_map (fun m => c m h) (seq 0 (length inners))) /\ forall m, m < length inners -> Q m d'.
Proof.
  intros inners g c Q H HQ.
  destruct (foldM_seq_ind nat dec (fun n d => DC d /\ single d /\ d_nm d = n /\ (forall h, h < nf -> occurs_in d h = flat_map (fun m => c m h) (seq 0 n)) /\ forall m, m < n -> Q m d) g (seq 0 (length inners)) 0 (dec_new nv nf 0)) as [d [E [D [S [N [O QQ]]]]]].
  - split; [apply dec_new_ok|]. split; [exact (single_new 0)|]. split; auto. split; [intros; cbn; apply (occurs_new 0)|intros; lia].
  - intros i a d Hi [D [S [N [O QQ]]]]. apply nth_error_seq0 in Hi. destruct Hi as [-> Hi]. cbn [plus] in *. destruct (H d i D S ltac:(auto) Hi) as [d' [E [D' [S' [X [N' [O' Q']]]]]]]. exists d'. split; auto. split; auto. split; auto. split; auto. split.
    + intros h Hh. rewrite O', O by auto. rewrite seq_S, flat_map_app. cbn. rewrite app_nil_r. auto.
    + intros m Hm. destruct (Nat.eq_dec m i) as [->|]; auto. apply (HQ m d d' X). apply QQ. lia.
  - rewrite seq_length in N, O, QQ. exists d. auto 10.
Qed.

Definition block_has (inners : list (list nat)) (m : nat) (d : dec) : Prop := forall v, In v (nth m inners []) -> exists k, copy_of d v m k.
Lemma block_has_mono : forall inners m d d', extends d d' -> block_has inners m d -> block_has inners m d'.
Proof. intros inners m d d' [X _] H v I. destruct (H v I) as [k K]. exists k. auto. Qed.

Lemma st_fresh : forall d m, DC d -> single d -> m = d_nm d -> ST m (fun _ => None) (fst (addSubModel d)) /\ extends d (fst (addSubModel d)) /\ d_fl (fst (addSubModel d)) = d_fl d /\ d_nm (fst (addSubModel d)) = S m.
Proof.
  intros d m D S ->. destruct (addSubModel_ok nv fs d D) as [D1 [X1 [_ [N1 _]]]]. split; [|auto]. apply st_start; auto. intros m' v k L Q. change (copy_of d v m' k) in Q. apply (dc_range _ _ _ D) in Q. lia.
Qed.
Lemma optional_none : optional (fun _ => None) (repeat None nv).
Proof. split; [apply repeat_length|]. intros v Hv. apply nth_repeat. Qed.
Definition holds (s vs : list nat) : bool := forallb (set_has s) vs.
Lemma set_has_In : forall s v, set_has s v = true <-> In v s.
Proof. intros s v. unfold set_has. rewrite existsb_exists. split. { intros [x [I E]]. apply Nat.eqb_eq in E. subst. auto. } intros I. exists v. split; auto. apply Nat.eqb_refl. Qed.

Lemma open_ok : forall inners, sets_ok inners -> exists d, decomposeIntoOpenBlocks nv fs inners = Ret d /\ DC d /\ single d /\ d_nm d = length inners /\
  (forall f, f < nf -> occurs_in d f = filter (fun m => holds (nth m inners []) (nth f fs [])) (seq 0 (length inners))) /\ forall m, m < length inners -> block_has inners m d.
Proof.
  intros inners HS. unfold decomposeIntoOpenBlocks, DecompModel.nf.
  destruct (blocks_loop inners (fun d m => let d := fst (addSubModel d) in inner <- rd inners m ;; '(d, ids) <- block_variables nv m inner d ;; foldM (open_factor fs m ids) (seq 0 nf) d)
     (fun m f => if holds (nth m inners []) (nth f fs []) then [m] else []) (block_has inners)) as [d [E [D [S [N [O Q]]]]]].
  - intros d m D SG M L. cbn beta zeta. rewrite (rd_nth _ inners m []) by auto. cbn [bind]. destruct (st_fresh d m D SG M) as [T0 [X0 [F0 N0]]].
    destruct (sets_nth inners m HS L) as [ND B].
    destruct (block_variables_ok m (nth m inners []) _ (repeat None nv) _ T0 optional_none ND) as [d1 [l1 [ids1 [E1 [S1 [T1 [X1 [F1 [N1 V1]]]]]]]]]; auto.
    unfold block_variables. rewrite E1. cbn [bind].
    destruct (occurs_loop (S m) (open_factor fs m l1) (ST m ids1) (fun f => if inside ids1 (nth f fs []) then [m] else [])) with (d := d1) as [d2 [E2 [S2 [X2 [N2 O2]]]]]; auto.
    { intros d' f P Hf. apply open_factor_ok; auto. } { lia. }
    exists d2. split; auto. split; [apply S2|]. split; [apply S2|]. split; [eapply extends_trans; [eauto|eapply extends_trans; eauto]|]. split; auto. split.
    + intros h Hh. rewrite O2 by auto. rewrite (occurs_same (fst (addSubModel d)) d1) by auto. rewrite (occurs_same d (fst (addSubModel d))) by auto. f_equal.
      replace (inside ids1 (nth h fs [])) with (holds (nth m inners []) (nth h fs [])); auto. unfold holds. apply eq_true_iff_eq. rewrite inside_true, forallb_forall, Forall_forall. split; intros K v I.
      * apply V1. right. apply set_has_In. auto.
      * apply set_has_In. destruct (proj1 (V1 v) (K v I)); auto. tauto.
    + intros v I. destruct (ids1 v) as [k|] eqn:Ek. { exists k. apply X2. apply (st_ids _ _ _ S1). auto. } exfalso. apply (proj2 (V1 v)); auto.
  - intros m d d'. apply block_has_mono.
  - exists d. split; auto. split; auto. split; auto. split; auto. split; auto. intros f Hf. rewrite O by auto. clear. generalize (seq 0 (length inners)). intros l. induction l as [|m l IH]; auto. cbn [flat_map filter]. rewrite IH. destruct (holds _ _); auto.
Qed.

(** ** closed blocks *)
Lemma closed_variables : forall m vs d l acc ids, ST m ids d -> optional ids l -> (forall v, In v vs -> v < nv) ->
  exists d' l' idx ids', foldM (closed_variable m) vs (d, l, acc) = Ret (d', l', acc ++ idx) /\ ST m ids' d' /\ optional ids' l' /\ copies_of d' vs m idx /\ extends d d' /\ d_fl d' = d_fl d /\ d_nm d' = d_nm d.
Proof.
  intros m. induction vs as [|v vs IH]; intros d l acc ids H T B; cbn [foldM].
  { exists d, l, [], ids. rewrite app_nil_r. split; auto. split; auto. split; auto. split; [constructor|]. split; [apply extends_refl|auto]. }
  assert (Hv : v < nv) by (apply B; cbn; auto). destruct T as [T1 T2]. unfold closed_variable at 1. rewrite (rd_nth _ l v None) by lia. cbn [bind]. rewrite T2 by auto. destruct (ids v) as [k|] eqn:Ei; cbn [bind].
  - destruct (IH d l (acc ++ [k]) ids H (conj T1 T2)) as [d' [l' [idx [ids' [E [S' [T' [C [X [F N]]]]]]]]]]. { intros. apply B. cbn. auto. }
    exists d', l', (k :: idx), ids'. rewrite E, <- app_assoc. cbn [app]. repeat (split; auto). constructor; auto. apply X. apply (st_ids _ _ _ H). auto.
  - destruct (st_add m ids d v H Hv Ei) as [d1 [E1 [S1 [X1 [F1 [N1 B1]]]]]]. rewrite E1. cbn [bind]. rewrite wr_Ret by lia. cbn [bind]. set (k := nth m (d_nsv d) 0) in *.
    destruct (IH d1 (upd l v (Some k)) (acc ++ [k]) _ S1) as [d' [l' [idx [ids' [E [S' [T' [C [X [F N]]]]]]]]]].
    { split. { rewrite length_upd. auto. } intros u Hu. rewrite nth_upd by lia. destruct (Nat.eq_dec u v) as [->|NE]. { destruct (Nat.eq_dec v v); [auto|lia]. } destruct (Nat.eq_dec v u); [lia|]. apply T2. auto. }
    { intros. apply B. cbn. auto. }
    exists d', l', (k :: idx), ids'. rewrite E, <- app_assoc. cbn [app]. split; auto. split; auto. split; auto. split; [|split; [eapply extends_trans; eauto|split; congruence]].
    constructor; auto. apply X. apply (st_ids _ _ _ S1). destruct (Nat.eq_dec v v); [auto|lia].
Qed.

Definition touches (s vs : list nat) : bool := match vs with [] => true | _ => existsb (set_has s) vs end.
Lemma closed_factors : forall m inner n d l ids, n <= nf -> ST m ids d -> optional ids l ->
  exists d' l' ids', foldM (closed_factor fs m inner) (seq 0 n) (d, l) = Ret (d', l') /\ ST m ids' d' /\ optional ids' l' /\ extends d d' /\ d_nm d' = d_nm d /\
    forall h, occurs_in d' h = occurs_in d h ++ (if h <? n then (if touches inner (nth h fs []) then [m] else []) else []).
Proof.
  intros m inner n d l ids. induction n as [|n IH]; intros Hn H T. { exists d, l, ids. cbn [seq foldM]. split; auto. split; auto. split; auto. split; [apply extends_refl|]. split; auto. intros h. cbn. rewrite app_nil_r. auto. }
  destruct (IH ltac:(lia) H T) as [d1 [l1 [ids1 [E1 [S1 [T1 [X1 [N1 O1]]]]]]]]. rewrite seq_S, foldM_app, E1. cbn [bind foldM plus]. unfold closed_factor at 1. rewrite (rd_nth _ fs n []) by lia. cbn [bind].
  assert (LT : forall (a b : list nat) h, (if h <? S n then a else b) = if Nat.eq_dec n h then a else if h <? n then a else b).
  { intros a b h. destruct (Nat.ltb_spec h (S n)), (Nat.eq_dec n h), (Nat.ltb_spec h n); auto; lia. }
  assert (END : forall d2 l2 ids2, ST m ids2 d2 -> optional ids2 l2 -> extends d1 d2 -> d_nm d2 = d_nm d1 -> (forall h, occurs_in d2 h = occurs_in d1 h ++ (if Nat.eq_dec n h then (if touches inner (nth n fs []) then [m] else []) else [])) ->
     exists d' l' ids', Ret (d2, l2) = Ret (d', l') /\ ST m ids' d' /\ optional ids' l' /\ extends d d' /\ d_nm d' = d_nm d /\ forall h, occurs_in d' h = occurs_in d h ++ (if h <? S n then (if touches inner (nth h fs []) then [m] else []) else [])).
  { intros d2 l2 ids2 A B C D O. exists d2, l2, ids2. split; auto. split; auto. split; auto. split; [eapply extends_trans; eauto|]. split; [congruence|]. intros h. rewrite O, O1, LT, <- app_assoc. f_equal. destruct (Nat.eq_dec n h) as [<-|]; [rewrite Nat.ltb_irrefl; auto|rewrite app_nil_r; auto]. }
  destruct (nth n fs []) as [|v0 vs0] eqn:Ef.
  - destruct (st_factor m ids1 d1 n [] S1 ltac:(lia)) as [d2 [k [E2 [S2 [X2 [N2 O2]]]]]]. { rewrite Ef. constructor. } rewrite E2. cbn [bind]. apply END with ids1; auto.
  - rewrite <- Ef in *. replace (existsb (set_has inner) (nth n fs [])) with (touches inner (nth n fs [])) by (rewrite Ef; reflexivity). destruct (touches inner (nth n fs [])) eqn:Et.
    + destruct (closed_variables m (nth n fs []) d1 l1 [] ids1 S1 T1 (fun v I => var_lt n v I)) as [d2 [l2 [idx [ids2 [E2 [S2 [T2 [C2 [X2 [F2 N2]]]]]]]]]]. rewrite E2. cbn [bind app].
      destruct (st_factor m ids2 d2 n idx S2 ltac:(lia) C2) as [d3 [k [E3 [S3 [X3 [N3 O3]]]]]]. rewrite E3. cbn [bind]. apply END with ids2; auto. { eapply extends_trans; eauto. } { congruence. }
      intros h. rewrite O3. rewrite (occurs_same d1 d2) by auto. auto.
    + cbn [bind]. apply END with ids1; auto. { apply extends_refl. } intros h. destruct (Nat.eq_dec n h); rewrite app_nil_r; auto.
Qed.

Lemma closed_ok : forall inners, sets_ok inners -> exists d, decomposeIntoClosedBlocks_sets nv fs inners = Ret d /\ DC d /\ ordered d /\ single d /\ d_nm d = length inners /\
  (forall f, f < nf -> occurs_in d f = filter (fun m => touches (nth m inners []) (nth f fs [])) (seq 0 (length inners))) /\ forall m, m < length inners -> block_has inners m d.
Proof.
  intros inners HS. unfold decomposeIntoClosedBlocks_sets, DecompModel.nf.
  destruct (blocks_loop inners (fun d m => let d := fst (addSubModel d) in inner <- rd inners m ;; st <- block_variables nv m inner d ;; '(d, _) <- foldM (closed_factor fs m inner) (seq 0 nf) st ;; Ret d)
     (fun m f => if touches (nth m inners []) (nth f fs []) then [m] else []) (block_has inners)) as [d [E [D [S [N [O Q]]]]]].
  - intros d m D SG M L. cbn beta zeta. rewrite (rd_nth _ inners m []) by auto. cbn [bind]. destruct (st_fresh d m D SG M) as [T0 [X0 [F0 N0]]].
    destruct (sets_nth inners m HS L) as [ND B].
    destruct (block_variables_ok m (nth m inners []) _ (repeat None nv) _ T0 optional_none ND) as [d1 [l1 [ids1 [E1 [S1 [T1 [X1 [F1 [N1 V1]]]]]]]]]; auto.
    unfold block_variables. rewrite E1. cbn [bind].
    destruct (closed_factors m (nth m inners []) nf d1 l1 ids1 (le_n _) S1 T1) as [d2 [l2 [ids2 [E2 [S2 [T2 [X2 [N2 O2]]]]]]]]. rewrite E2. cbn [bind].
    exists d2. split; auto. split; [apply S2|]. split; [apply S2|]. split; [eapply extends_trans; [eauto|eapply extends_trans; eauto]|]. split; [lia|]. split.
    + intros h Hh. rewrite O2. destruct (Nat.ltb_spec h nf); [|lia]. rewrite (occurs_same (fst (addSubModel d)) d1) by auto. rewrite (occurs_same d (fst (addSubModel d))) by auto. auto.
    + intros v I. destruct (ids1 v) as [k|] eqn:Ek. { exists k. apply X2. apply (st_ids _ _ _ S1). auto. } exfalso. apply (proj2 (V1 v)); auto.
  - intros m d d'. apply block_has_mono.
  - destruct (reorder_ok nv fs d D) as [ren [d' [E' [R [OR D']]]]]. exists d'. split. { rewrite <- E'. change (reorder d) with (bind (Ret d) reorder). rewrite <- E. reflexivity. } split; auto. split; auto. split; [eapply renames_single; eauto|]. split. { destruct R as [_ [_ [R _]]]. congruence. } split.
    + intros f Hf. rewrite (renames_occurs ren d d' f R), O by auto. clear. generalize (seq 0 (length inners)). intros l. induction l as [|m l IH]; auto. cbn [flat_map filter]. rewrite IH. destruct (touches _ _); auto.
    + intros m Hm v I. destruct (Q m Hm v I) as [k K]. exists (ren m k). apply (renames_copy ren d d' v m _ R). eauto.
Qed.
End B.
