(** Reparametrizations: writing, serialization. *)
From Coq Require Import ZArith QArith Qcanon Sorted.
From Verif Require Import Base Values GmView GmViewSpec GmViewProofs ShapeSpec ShapeProofs DualDecompModel LprModel LprSpec LprProofs.
From Verif Require FuseMoves.
Open Scope nat_scope.

Lemma foldM_flat : forall {A B S} (step : S -> B -> outcome S) (h : A -> list B) (l : list A) s,
  foldM step (flat_map h l) s = foldM (fun s a => foldM step (h a) s) l s.
Proof. intros A B S step h l. induction l as [|a l IH]; intros s; cbn [flat_map foldM]; auto. rewrite foldM_app. destruct (foldM step (h a) s); cbn [bind]; auto. Qed.
Lemma foldM_map : forall {A B S} (step : S -> B -> outcome S) (h : A -> B) (l : list A) s, foldM step (map h l) s = foldM (fun s a => step s (h a)) l s.
Proof. intros A B S step h l. induction l as [|a l IH]; intros s; cbn [map foldM]; auto. destruct (step s (h a)); cbn [bind]; auto. Qed.
Lemma foldM_inv : forall {A S} (P : S -> Prop) (s1 s2 : S -> A -> outcome S) (l : list A) s, P s ->
  (forall s a, In a l -> P s -> s1 s a = s2 s a) -> (forall s a s', In a l -> P s -> s2 s a = Ret s' -> P s') -> foldM s1 l s = foldM s2 l s.
Proof.
  intros A S P s1 s2 l. induction l as [|a l IH]; intros s H E Pr; cbn [foldM]; auto. rewrite E by (auto; left; auto).
  destruct (s2 s a) as [s'| | |] eqn:Q; cbn [bind]; auto. apply IH; [eapply Pr; eauto; left; auto| |]; intros; [apply E|eapply Pr]; eauto; right; auto.
Qed.
Lemma foldM_pres : forall {A S} (P : S -> Prop) (st : S -> A -> outcome S) (l : list A) s s', P s ->
  (forall s a s', In a l -> P s -> st s a = Ret s' -> P s') -> foldM st l s = Ret s' -> P s'.
Proof.
  intros A S P st l. induction l as [|a l IH]; intros s s' H Pr E; cbn [foldM] in E; [injection E as <-; auto|].
  apply bind_inv in E. destruct E as (s1 & E1 & E). eapply IH; [|intros; eapply Pr; eauto; right; auto|exact E]. eapply Pr; eauto. left; auto.
Qed.
Lemma flat_map_ext_in {A B} (h1 h2 : A -> list B) (l : list A) : (forall a, In a l -> h1 a = h2 a) -> flat_map h1 l = flat_map h2 l.
Proof. intros H. induction l as [|a l IH]; cbn; auto. rewrite H by (left; auto). rewrite IH; auto. intros; apply H; right; auto. Qed.
Lemma as_nths {A} (l : list A) d : map (fun i => nth i l d) (seq 0 (length l)) = l.
Proof.
  apply (nth_ext _ _ (nth 0 l d) d); rewrite map_length, seq_length; auto. intros i H. rewrite (map_nth (fun i => nth i l d)). rewrite seq_nth; auto.
Qed.

Section S.
Variable g : gmv Qc.
Hypothesis W : wf_gmv g.
Let n := length (v_labels g).
Let nf := length (v_factors g).
Notation pos := (nat * nat * nat)%type.
Definition labs (f k : nat) : nat := nth (nth k (vars_of g f) 0) (v_labels g) 0.
Definition nvs (f : nat) : nat := if 2 <=? length (vars_of g f) then length (vars_of g f) else 0.
Definition poss : list pos := flat_map (fun f => flat_map (fun k => map (fun l => (f, k, l)) (seq 0 (labs f k))) (seq 0 (nvs f))) (seq 0 nf).
Definition at_pos (d : duals) (p : pos) : Qc := let '(f, k, l) := p in dv d f k l.
Definition pos_ok (p : pos) : Prop := let '(f, k, l) := p in in_dual g f k l.

Lemma nvs_ok : forall f k, k < nvs f -> 2 <= length (vars_of g f) /\ k < length (vars_of g f).
Proof. intros f k H. unfold nvs in H. destruct (Nat.leb_spec 2 (length (vars_of g f))); lia. Qed.
Lemma poss_In : forall p, In p poss <-> pos_ok p.
Proof.
  intros [[f k] l]. unfold poss, pos_ok, in_dual. rewrite in_flat_map. split.
  - intros (f' & I1 & I2). apply in_flat_map in I2. destruct I2 as (k' & I2 & I3). apply in_map_iff in I3. destruct I3 as (l' & E & I3). injection E as -> -> ->.
    apply in_seq in I2, I3. destruct (nvs_ok f k) as [A B]; [lia|]. split; [auto|split; auto]. unfold labs in I3. lia.
  - intros (A & B & C). exists f. split; [apply in_seq; pose proof (vars_lt g f); unfold nf; lia|]. apply in_flat_map. exists k. split.
    + apply in_seq. unfold nvs. destruct (Nat.leb_spec 2 (length (vars_of g f))); lia.
    + apply in_map_iff. exists l. split; auto. apply in_seq. unfold labs. lia.
Qed.
Lemma NoDup_flat {A B} (h : A -> list B) (key : B -> A) (l : list A) : NoDup l -> (forall a, In a l -> NoDup (h a)) -> (forall a b, In a l -> In b (h a) -> key b = a) -> NoDup (flat_map h l).
Proof.
  intros ND. induction ND as [|a l NI ND IH]; intros H K; cbn [flat_map]; [constructor|].
  assert (G : forall (x y : list B), NoDup x -> NoDup y -> (forall b, In b x -> ~ In b y) -> NoDup (x ++ y)).
  { clear. intros x y NX NY D. induction NX as [|b x NI NX IH]; cbn; auto. constructor; [|apply IH; intros; apply D; right; auto].
    intros I. apply in_app_or in I. destruct I as [I|I]; [contradiction|]. apply (D b); auto. left; auto. }
  apply G; [apply H; left; auto|apply IH; intros; [apply H|apply K]; auto; right; auto|].
  intros b I1 I2. apply in_flat_map in I2. destruct I2 as (a' & I2 & I3). apply NI. rewrite <- (K a b (or_introl eq_refl) I1). rewrite (K a' b (or_intror I2) I3). auto.
Qed.
Lemma poss_NoDup : NoDup poss.
Proof.
  unfold poss. apply (NoDup_flat _ (fun p : pos => fst (fst p))); [apply seq_NoDup| |].
  - intros f _. apply (NoDup_flat _ (fun p : pos => snd (fst p))); [apply seq_NoDup| |].
    + intros k _. apply FinFun.Injective_map_NoDup; [|apply seq_NoDup]. intros a b E. congruence.
    + intros k b _ I. apply in_map_iff in I. destruct I as (l & <- & _). auto.
  - intros f b _ I. apply in_flat_map in I. destruct I as (k & _ & I). apply in_map_iff in I. destruct I as (l & <- & _). auto.
Qed.

Lemma row_len : forall d f, shaped g d -> length (nth f d []) = nvs f.
Proof.
  intros d f H. pose proof (shaped_row g d f H) as E. unfold nvs. destruct (2 <=? length (vars_of g f)).
  - apply (f_equal (@length nat)) in E. unfold at_vars in E. rewrite !map_length in E. auto.
  - apply (f_equal (@length nat)) in E. rewrite map_length in E. auto.
Qed.
Lemma map_flat {A B C} (h : B -> C) (k : A -> list B) l : map h (flat_map k l) = flat_map (fun a => map h (k a)) l.
Proof. induction l as [|a l IH]; cbn; auto. rewrite map_app, IH. auto. Qed.
Lemma flat_concat {A} (l : list (list A)) d : concat l = flat_map (fun i => nth i l d) (seq 0 (length l)).
Proof. rewrite flat_map_concat_map, as_nths. auto. Qed.
Lemma serialize_at : forall d, shaped g d -> serialize d = map (at_pos d) poss.
Proof.
  intros d H. unfold serialize, poss. rewrite <- flat_map_concat_map. rewrite map_flat.
  transitivity (flat_map (fun f => concat (nth f d [])) (seq 0 (length d))).
  { rewrite <- (as_nths d []) at 1. rewrite !flat_map_concat_map, map_map. auto. }
  rewrite (shaped_len g d H). apply flat_map_ext_in. intros f _. rewrite (flat_concat _ []). rewrite (row_len d f H), map_flat.
  apply flat_map_ext_in. intros k I. apply in_seq in I. destruct (nvs_ok f k) as [A B]; [lia|]. rewrite map_map. cbn [at_pos]. unfold dv, labs. rewrite <- (shaped_col g d f k H A B). symmetry. apply as_nths.
Qed.
Lemma length_flat {A B} (h : A -> list B) l : length (flat_map h l) = list_sum (map (fun a => length (h a)) l).
Proof. induction l as [|a l IH]; cbn; auto. rewrite app_length, IH. auto. Qed.
Lemma poss_size : length poss = dual_size g.
Proof.
  unfold poss, dual_size. rewrite length_flat. f_equal. rewrite <- (as_nths (v_factors g) ([], fun _ => 0%Qc)) at 1. rewrite map_map. apply map_ext_in. intros f I. apply in_seq in I.
  assert (E : nth f (v_factors g) ([], fun _ => 0%Qc) = (vars_of g f, fun_of g f)).
  { unfold vars_of, fun_of. destruct (nth_error (v_factors g) f) as [[vis h]|] eqn:Q; [apply nth_error_nth; auto|]. apply nth_error_None in Q. fold nf in Q. lia. }
  rewrite E. cbn [fst]. rewrite length_flat. unfold nvs. destruct (2 <=? length (vars_of g f)); auto. f_equal. unfold at_vars.
  rewrite <- (FuseMoves.map_nth_seq (vars_of g f)) at 2. rewrite map_map. apply map_ext. intros k. rewrite map_length, seq_length. auto.
Qed.

Lemma duals_eq : forall d d', shaped g d -> shaped g d' -> (forall p, pos_ok p -> at_pos d p = at_pos d' p) -> d = d'.
Proof.
  intros d d' H H' E. apply (nth_ext _ _ [] []); [rewrite (shaped_len g d H), (shaped_len g d' H'); auto|]. intros f Hf.
  apply (nth_ext _ _ [] []); [rewrite !row_len; auto|]. intros k Hk. rewrite row_len in Hk by auto. destruct (nvs_ok f k Hk) as [A B].
  apply (nth_ext _ _ 0%Qc 0%Qc); [rewrite !(shaped_col g) by auto; auto|]. intros l Hl. rewrite (shaped_col g) in Hl by auto. apply (E (f, k, l)). split; auto.
Qed.

(** ** deserialize *)
Definition des_pos (ser : list Qc) (s : duals * nat * bool) (p : pos) : outcome (duals * nat * bool) := let '(f, k, l) := p in des_label ser f k s l.
Definition sh (s : duals * nat * bool) : Prop := shaped g (fst (fst s)).
Lemma des_pos_sh : forall ser s p s', pos_ok p -> sh s -> des_pos ser s p = Ret s' -> sh s'.
Proof.
  intros ser [[d i] ok] [[f k] l] s' P H E. cbn in E, P. unfold sh in *. cbn [fst] in H. destruct ok; cbn [negb] in E; [|injection E as <-; auto].
  destruct (length ser <=? i); [injection E as <-; auto|]. apply bind_inv in E. destruct E as (x & _ & E). rewrite (wr3_ok g) in E by auto. cbn [bind] in E. injection E as <-.
  cbn [fst]. apply put_shaped; auto.
Qed.
Lemma deserialize_flat : forall d ser, shaped g d -> foldM (des_factor g ser) (seq 0 (lnf g)) (d, 0, true) = foldM (des_pos ser) poss (d, 0, true).
Proof.
  intros d ser H. unfold poss. rewrite foldM_flat. apply (foldM_inv sh); auto.
  - intros s f I P. apply in_seq in I. unfold lnf in I. unfold des_factor. rewrite (rd_factor g) by lia. cbn [bind fst]. rewrite foldM_flat.
    destruct (Nat.eqb_spec (length (vars_of g f)) 1) as [E|E].
    + unfold nvs. rewrite E. cbn. auto.
    + assert (L : length (vars_of g f) = nvs f) by (unfold nvs; destruct (Nat.leb_spec 2 (length (vars_of g f))); lia). rewrite L.
      apply (foldM_inv sh); auto.
      * intros [[d' i] ok] k I2 P2. apply in_seq in I2. destruct (nvs_ok f k) as [A B]; [lia|]. unfold des_var. unfold sh in P2. cbn [fst] in P2.
        rewrite (rd_nth _ d' f []) by (rewrite (shaped_len g d' P2); lia). cbn [bind]. rewrite (rd_nth _ (nth f d' []) k []) by (rewrite (shaped_rows g); auto). cbn [bind].
        rewrite (shaped_col g) by auto. fold (labs f k). rewrite foldM_map. auto.
      * intros s1 k s2 I2 P2 E2. revert E2. apply (foldM_pres sh); auto. intros s3 p s4 I3. apply des_pos_sh. apply in_map_iff in I3. destruct I3 as (l & <- & I3).
        apply in_seq in I2, I3. destruct (nvs_ok f k) as [A B]; [lia|]. split; [auto|split; auto]. unfold labs in I3. lia.
  - intros s1 f s2 I P. apply (foldM_pres sh); auto. intros s3 p s4 I3. apply des_pos_sh. apply poss_In. unfold poss. apply in_flat_map. exists f. split; auto. 
Qed.
Lemma des_failed : forall ser ps d i, foldM (des_pos ser) ps (d, i, false) = Ret (d, i, false).
Proof. intros ser ps. induction ps as [|[[f k] l] ps IH]; intros d i; cbn; auto. Qed.
Lemma des_run : forall ser ps d i, shaped g d -> NoDup ps -> Forall pos_ok ps -> i <= length ser -> exists d' i' ok, foldM (des_pos ser) ps (d, i, true) = Ret (d', i', ok) /\
  shaped g d' /\ ok = (length ps <=? length ser - i) /\ (ok = true -> i' = i + length ps /\ (forall p, ~ In p ps -> at_pos d' p = at_pos d p) /\ map (at_pos d') ps = firstn (length ps) (skipn i ser)).
Proof.
  intros ser ps. induction ps as [|[[f k] l] ps IH]; intros d i H ND F HI.
  - exists d, i, true. cbn. repeat split; auto.
  - inversion ND as [|? ? NI ND']; subst. apply Forall_cons_iff in F. destruct F as [P F]. cbn [foldM des_pos]. unfold des_label. cbn [negb].
    destruct (Nat.leb_spec (length ser) i) as [L|L].
    + cbn [bind]. rewrite des_failed. exists d, i, false. split; auto. split; auto. split; [|discriminate]. symmetry. apply Nat.leb_gt. cbn. lia.
    + rewrite (rd_nth _ ser i 0%Qc L). cbn [bind]. rewrite (wr3_ok g) by auto. cbn [bind].
      destruct (IH (put d f k l (nth i ser 0%Qc)) (S i) (put_shaped g _ _ _ _ _ H P) ND' F L) as (d' & i' & ok & E & SH & EO & R).
      exists d', i', ok. split; auto. split; auto. split.
      { rewrite EO. cbn [length]. destruct (Nat.leb_spec (length ps) (length ser - S i)), (Nat.leb_spec (S (length ps)) (length ser - i)); auto; lia. }
      intros O. destruct (R O) as (E1 & E2 & E3). split; [cbn [length]; lia|]. split.
      * intros p NP. rewrite E2 by (intros I; apply NP; right; auto). destruct p as [[f' k'] l']. cbn [at_pos]. rewrite (put_dv g) by auto.
        destruct (Nat.eqb_spec f' f) as [->|]; auto. destruct (Nat.eqb_spec k' k) as [->|]; auto. destruct (Nat.eqb_spec l' l) as [->|]; auto. exfalso. apply NP. left. auto.
      * cbn [map length]. rewrite E3. assert (A0 : at_pos d' (f, k, l) = nth i ser 0%Qc).
        { rewrite E2 by auto. cbn [at_pos]. rewrite (put_dv g) by auto. rewrite !Nat.eqb_refl. auto. }
        rewrite A0. clear - L. revert i L. induction ser as [|a ser IH]; intros [|i] L; cbn in L; try lia; auto. cbn [skipn nth]. apply IH. lia.
Qed.
Lemma deserialize_ok : forall d ser, shaped g d -> exists d' ok, deserialize g d ser = Ret (d', ok) /\ shaped g d' /\ ok = (length ser =? dual_size g) /\ (ok = true -> serialize d' = ser).
Proof.
  intros d ser H. unfold deserialize. rewrite deserialize_flat by auto.
  destruct (des_run ser poss d 0 H poss_NoDup) as (d' & i' & ok & E & SH & EO & R); [apply Forall_forall; intros p I; apply poss_In; auto|lia|].
  rewrite E. cbn [bind]. exists d', (ok && (i' =? length ser)). split; auto. split; auto. rewrite poss_size, Nat.sub_0_r in *. split.
  - destruct ok.
    + destruct (R eq_refl) as (E1 & _ & _). subst i'. cbn [andb plus]. apply Nat.eqb_sym.
    + cbn [andb]. symmetry in EO. apply Nat.leb_gt in EO. symmetry. apply Nat.eqb_neq. lia.
  - intros O. apply andb_prop in O. destruct O as [O O2]. destruct (R O) as (E1 & _ & E3). rewrite serialize_at by auto. rewrite E3. apply Nat.eqb_eq in O2. cbn [skipn].
    cbn [plus] in E1. rewrite <- E1, O2. apply firstn_all.
Qed.
Lemma serialize_inj : forall d d', shaped g d -> shaped g d' -> serialize d = serialize d' -> d = d'.
Proof.
  intros d d' H H' E. apply duals_eq; auto. intros p P. apply poss_In in P. rewrite !serialize_at in E by auto. revert P E. generalize poss.
  intros l. induction l as [|q l IH]; intros I E; [destruct I|]. cbn [map] in E. injection E as E1 E2. destruct I as [->|I]; auto.
Qed.
Lemma run_shaped : forall h d, lpr_run g h = Ret d -> shaped g d.
Proof.
  intros h d E. unfold lpr_run in E. destruct (init_shaped g W) as (d0 & E0 & S0 & _). rewrite E0 in E. cbn [bind] in E. revert E. apply (foldM_pres (shaped g)); auto.
  intros s o s' _ P. destruct o as [f k l x|ser]; cbn [lpr_step].
  - intros Q. pose proof (wr3_in g s f k l x s' P Q) as I. rewrite (wr3_ok g) in Q by auto. injection Q as <-. apply put_shaped; auto.
  - destruct (deserialize_ok s ser P) as (d' & ok & E1 & S1 & _). rewrite E1. cbn [bind]. intros Q. injection Q as <-. auto.
Qed.
End S.
