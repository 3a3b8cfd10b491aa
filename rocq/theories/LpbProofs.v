(** Proofs about PrimalLPBound. *)
From Coq Require Import QArith Qcanon.
From Verif Require Import Base Values GmView GmViewSpec GmViewProofs ConstraintModel DualDecompProofs IcmProofs GgProofs DmcProofs LpbModel LpbSpec.
Open Scope nat_scope.

Lemma unique_filter : forall (A : Type) (P : A -> bool) l i j a b, length (filter P l) <= 1 -> nth_error l i = Some a -> P a = true -> nth_error l j = Some b -> P b = true -> i = j.
Proof.
  intros A P. assert (G : forall l i a, nth_error l i = Some a -> P a = true -> 1 <= length (filter P l)).
  { intros l i a E H. apply nth_error_In in E. assert (X : In a (filter P l)) by (apply filter_In; auto). destruct (filter P l); [contradiction|cbn; lia]. }
  induction l as [|c l IH]; intros [|i] [|j] a b L E1 P1 E2 P2; cbn in *; try discriminate; auto.
  - injection E1 as ->. rewrite P1 in L. cbn in L. pose proof (G l j b E2 P2). lia.
  - injection E2 as ->. rewrite P2 in L. cbn in L. pose proof (G l i a E1 P1). lia.
  - f_equal. apply (IH i j a b); auto. destruct (P c); cbn in L; lia.
Qed.
Lemma single_filter : forall (A : Type) (P : A -> bool) l a, length (filter P l) <= 1 -> In a l -> P a = true -> filter P l = [a].
Proof.
  intros A P l a L I H. assert (X : In a (filter P l)) by (apply filter_In; auto). destruct (filter P l) as [|b [|c r]]; cbn in L; [contradiction| |lia]. destruct X as [->|[]]. auto.
Qed.

Lemma firstn_next : forall (A : Type) (l : list A) k a, nth_error l k = Some a -> firstn (S k) l = firstn k l ++ [a].
Proof. intros A. induction l as [|b l IH]; intros [|k] a H; cbn in H; try discriminate; [injection H as <-; auto|]. change (b :: firstn (S k) l = b :: (firstn k l ++ [a])). f_equal. apply IH. auto. Qed.

Section Proofs.
Variable g : gmv Qc.
Hypothesis W : wf_gmv g.
Variable M : Type.
Variable solve : (list nat -> Qc) -> list Qc -> list Qc -> option (Qc * M).
Notation n := (length (v_labels g)).
Notation nf := (length (v_factors g)).
Let d : list nat * (list nat -> Qc) := ([], fun _ => 0%Qc).

Lemma fac : forall f, f < nf -> exists fc, nth_error (v_factors g) f = Some fc /\ nth f (v_factors g) d = fc /\ rd (v_factors g) f = Ret fc /\ Forall (fun v => v < n) (fst fc).
Proof.
  intros f Hf. exists (nth f (v_factors g) d). assert (E : nth_error (v_factors g) f = Some (nth f (v_factors g) d)) by (apply nth_error_nth'; auto). split; auto. split; auto. split; [apply rd_nth; auto|]. apply (wf_nth _ g f _ W E).
Qed.
Lemma unary_dec : forall fc : list nat * (list nat -> Qc), (length (fst fc) =? 1) = true -> exists v, fst fc = [v].
Proof. intros [[|v [|w l]] t] H; cbn in *; try discriminate. eauto. Qed.
Lemma not_unary : forall (fc : list nat * (list nat -> Qc)) v, (length (fst fc) =? 1) = false -> unary_of v fc = false.
Proof. intros [[|a [|w l]] t] v H; cbn in *; try discriminate; auto. Qed.

Definition map_ok (m : list (option nat)) : Prop := length m = n /\ forall v, v < n -> match nth v m None with Some f => exists fc, nth_error (v_factors g) f = Some fc /\ fst fc = [v] | None => forall f fc, nth_error (v_factors g) f = Some fc -> fst fc <> [v] end.
Lemma mapping_ok : exists m, lb_mapping g = Ret m /\ map_ok m.
Proof.
  unfold lb_mapping. match goal with |- context [foldM ?F _ ?s] => destruct (foldM_upto _ F (fun i m => length m = n /\ forall v, v < n -> match nth v m None with Some f => exists fc, nth_error (v_factors g) f = Some fc /\ fst fc = [v] | None => forall f fc, f < i -> nth_error (v_factors g) f = Some fc -> fst fc <> [v] end) nf s) as (m & E & L & H) end.
  - split; [apply repeat_length|]. intros v Hv. rewrite nth_repeat. intros; lia.
  - intros i m Hi [L H]. destruct (fac i Hi) as (fc & NE & _ & RE & FB). rewrite RE. destruct fc as [vis t]. cbn [bind fst] in *. destruct (length vis =? 1) eqn:EL.
    + destruct (unary_dec (vis, t) EL) as (v & EV). cbn in EV. subst vis. rewrite (rd_nth _ _ 0 0) by (cbn; lia). cbn [bind nth]. assert (Hv : v < n) by (inversion FB; auto). rewrite (rd_nth _ _ v None) by lia. cbn [bind]. pose proof (H v Hv) as HV. destruct (nth v m None) as [f0|] eqn:EM.
      * eexists. split; [reflexivity|]. split; auto. intros w Hw. specialize (H w Hw). destruct (nth w m None) eqn:EW; auto. intros f fc Hf E. destruct (Nat.eq_dec f i) as [->|]; [|apply (H f fc); auto; lia]. rewrite NE in E. injection E as <-. cbn. intros [= ->]. congruence.
      * rewrite wr_Ret by lia. eexists. split; [reflexivity|]. split; [rewrite length_upd; auto|]. intros w Hw. destruct (Nat.eq_dec w v) as [->|D].
        -- rewrite nth_upd_eq by lia. exists ([v], t). auto.
        -- rewrite nth_upd_neq by auto. specialize (H w Hw). destruct (nth w m None) eqn:EW; auto. intros f fc Hf E. destruct (Nat.eq_dec f i) as [->|]; [|apply (H f fc); auto; lia]. rewrite NE in E. injection E as <-. cbn. congruence.
    + eexists. split; [reflexivity|]. split; auto. intros w Hw. specialize (H w Hw). destruct (nth w m None) eqn:EW; auto. intros f fc Hf E. destruct (Nat.eq_dec f i) as [->|]; [|apply (H f fc); auto; lia]. rewrite NE in E. injection E as <-. cbn. intros ->. discriminate.
  - exists m. split; auto. split; auto. intros v Hv. specialize (H v Hv). destruct (nth v m None); auto. intros f fc NE. apply (H f fc); auto. apply nth_error_Some. congruence.
Qed.
Lemma duplicates_ok : exists b : bool, lb_duplicates g = Ret b /\ (b = false <-> single_unaries g).
Proof.
  unfold lb_duplicates. match goal with |- context [foldM ?F _ ?s] => destruct (foldM_upto _ F (fun i c => c = map (fun v => length (filter (unary_of v) (firstn i (v_factors g)))) (seq 0 n)) nf s) as (c & E & H) end.
  - cbn. clear. assert (G : forall m s, repeat 0 m = map (fun _ => 0) (seq s m)) by (induction m; intros; cbn; f_equal; auto). apply G.
  - intros i c Hi ->. destruct (fac i Hi) as (fc & NE & EN & RE & FB). rewrite RE. assert (FS : forall v, filter (unary_of v) (firstn (S i) (v_factors g)) = filter (unary_of v) (firstn i (v_factors g)) ++ (if unary_of v fc then [fc] else [])).
    { intros v. rewrite (firstn_next _ _ _ _ NE), filter_app. auto. }
    destruct fc as [vis t]. cbn [bind fst] in *. destruct (length vis =? 1) eqn:EL.
    + destruct (unary_dec (vis, t) EL) as (v & EV). cbn in EV. subst vis. rewrite (rd_nth _ _ 0 0) by (cbn; lia). cbn [bind nth]. assert (Hv : v < n) by (inversion FB; auto). rewrite (rd_nth _ _ v 0) by (rewrite map_length, seq_length; auto). cbn [bind]. rewrite wr_Ret by (rewrite map_length, seq_length; auto). eexists. split; [reflexivity|].
      rewrite nth_map_seq_any by auto. rewrite upd_map_seq by auto. apply map_ext_in. intros w _. rewrite FS, app_length. unfold unary_of at 4. cbn [fst]. rewrite (Nat.eqb_sym v w). destruct (w =? v) eqn:EW; [apply Nat.eqb_eq in EW; subst; cbn [length]; lia|cbn [length]; lia].
    + eexists. split; [reflexivity|]. apply map_ext. intros v. rewrite FS, (not_unary (vis, t) v EL), app_nil_r. auto.
  - rewrite E. cbn [bind]. eexists. split; [reflexivity|]. rewrite firstn_all in H. subst c. rewrite negb_false_iff, Nat.eqb_eq. unfold single_unaries. split.
    + intros H v. destruct (Nat.lt_ge_cases v n) as [Hv|Hv].
      * destruct (Nat.le_gt_cases (length (filter (unary_of v) (v_factors g))) 1) as [|X]; auto. exfalso. assert (I : In (length (filter (unary_of v) (v_factors g))) (filter (fun k => 1 <? k) (map (fun v => length (filter (unary_of v) (v_factors g))) (seq 0 n)))).
        { apply filter_In. split; [apply in_map_iff; exists v; split; auto; apply in_seq; lia|apply Nat.ltb_lt; auto]. } apply length_zero_iff_nil in H. rewrite H in I. contradiction.
      * destruct (filter (unary_of v) (v_factors g)) as [|fc l] eqn:EF; [cbn; lia|]. exfalso. assert (I : In fc (filter (unary_of v) (v_factors g))) by (rewrite EF; left; auto). apply filter_In in I. destruct I as [I U]. destruct W as [WF _]. rewrite Forall_forall in WF. destruct (WF _ I) as [_ FB].
        destruct fc as [[|w [|? ?]] t]; cbn in U; try discriminate. apply Nat.eqb_eq in U. subst. inversion FB; subst. cbn in *. lia.
    + intros H. apply length_zero_iff_nil. destruct (filter _ _) as [|k l] eqn:EF; auto. exfalso. assert (I : In k (filter (fun k => 1 <? k) (map (fun v => length (filter (unary_of v) (v_factors g))) (seq 0 n)))) by (rewrite EF; left; auto).
      apply filter_In in I. destruct I as [I U]. apply in_map_iff in I. destruct I as (v & <- & _). apply Nat.ltb_lt in U. specialize (H v). lia.
Qed.

Hypothesis SU : single_unaries g.
Definition vec_ok (X : list (list Qc)) : Prop := length X = n /\ forall v, v < n -> length (nth v X []) = nth v (v_labels g) 0.
Definition buf_ok (X : list (list Qc)) (b : list (option Qc)) : Prop := length b = nf /\ forall f fc, nth_error (v_factors g) f = Some fc -> match nth f b None with Some q => contribution solve X fc = Some q | None => True end.
Definition sure : Prop := forall t a b, solve t a b <> None.
Definition solver_ok (s : lpb M) : Prop := sure -> lb_solver s = None -> lb_last s = None /\ forall f, pair_factor g f -> nth f (lb_buf s) None = None.
Definition inv (s : lpb M) (X : list (list Qc)) : Prop := lb_var s = X /\ vec_ok X /\ map_ok (lb_map s) /\ buf_ok X (lb_buf s) /\ solver_ok s.
Definition total_ok (s : lpb M) (X : list (list Qc)) : Prop := lb_total s = None \/ exists q, lb_total s = Some q /\ sum_all (map (contribution solve X) (v_factors g)) = Some q.

Lemma buf_upd : forall X b f fc q, buf_ok X b -> nth_error (v_factors g) f = Some fc -> contribution solve X fc = Some q -> f < length b /\ buf_ok X (upd b f (Some q)).
Proof.
  intros X b f fc q [L H] NE C. assert (Hf : f < nf) by (apply nth_error_Some; congruence). split; [lia|]. split; [rewrite length_upd; auto|]. intros k fk NK. destruct (Nat.eq_dec k f) as [->|D].
  - rewrite nth_upd_eq by lia. congruence.
  - rewrite nth_upd_neq by auto. apply H. auto.
Qed.
Lemma sum_fold : forall (h : nat -> Qc) l a, fold_left (fun s i => s + h i)%Qc l a = (a + qsum h l)%Qc.
Proof. intros h. induction l as [|i l IH]; intros a; cbn [fold_left]; [rewrite qsum_nil; ring|]. rewrite IH, qsum_cons. ring. Qed.

(** getFactorValue *)
Lemma factor_ok : forall s X f fc, inv s X -> nth_error (v_factors g) f = Some fc -> length (fst fc) = 2 -> exists s', lb_getFactorValue g M solve s f = Ret (s', match contribution solve X fc with Some q => LValue q | None => LThrown end) /\ inv s' X /\ lb_total s' = lb_total s /\
  (nth f (lb_buf s) None = None -> match fst fc with [v; w] => match solve (snd fc) (nth v X []) (nth w X []) with Some qm => lb_last s' = Some f /\ lb_solver s' = Some qm | None => True end | _ => False end) /\
  (forall k, k <> f -> nth k (lb_buf s') None = nth k (lb_buf s) None) /\ (lb_last s' = lb_last s \/ lb_last s' = Some f).
Proof.
  intros s X f fc (EV & VO & MO & BO & SO) NE L2. pose proof BO as [LB HB]. assert (Hf : f < nf) by (apply nth_error_Some; congruence). unfold lb_getFactorValue. rewrite (rd_nth _ _ f None) by lia. cbn [bind]. pose proof (HB f fc NE) as HF. destruct (nth f (lb_buf s) None) as [q|] eqn:EB.
  - rewrite HF. exists s. split; auto. split; [repeat split; auto; try apply VO; try apply MO; auto; apply SO; auto|]. split; auto. split; [discriminate|]. split; auto.
  - destruct (fac f Hf) as (fc' & NE' & _ & RE & FB). rewrite NE in NE'. injection NE' as <-. rewrite RE. destruct fc as [[|v [|w [|? ?]]] t]; cbn in L2; try discriminate. cbn [bind fst snd] in *. rewrite (rd_nth _ _ 0 0), (rd_nth _ _ 1 0) by (cbn; lia). cbn [bind nth length Nat.eqb negb]. inversion FB as [|? ? Hv FB2]; subst. inversion FB2 as [|? ? Hw _]; subst.
    rewrite (rd_nth _ _ v []), (rd_nth _ _ w []) by (destruct VO; lia). cbn [bind]. unfold contribution. cbn [fst snd]. destruct (solve t _ _) as [[q m]|] eqn:ES.
    + rewrite wr_Ret by lia. cbn [bind]. eexists. split; [reflexivity|]. destruct (buf_upd (lb_var s) (lb_buf s) f ([v; w], t) q BO NE) as [_ BO']. { unfold contribution. cbn [fst snd]. rewrite ES. auto. }
      split; [split; [auto|]; split; [auto|]; split; [auto|]; split; [auto|]; intros _ X; cbn in X; discriminate|]. split; auto. split; [intros _; auto|]. split; auto. intros k D. cbn. apply nth_upd_neq. auto.
    + eexists. split; [reflexivity|]. split; [split; [auto|]; split; [auto|]; split; [auto|]; split; [auto|]; intros SR; exfalso; apply (SR _ _ _ ES)|]. split; auto.
Qed.
(** getVariableValue *)
Lemma variable_ok : forall s X v, inv s X -> v < n -> exists s', lb_getVariableValue g M s v = Ret (s', LValue (qsum (fun fc => inner (nth v X []) (snd fc)) (filter (unary_of v) (v_factors g)))) /\ inv s' X /\ lb_total s' = lb_total s /\ lb_last s' = lb_last s /\ lb_solver s' = lb_solver s /\
  forall k, pair_factor g k -> nth k (lb_buf s') None = nth k (lb_buf s) None.
Proof.
  intros s X v I Hv. pose proof I as (EV & VO & MO & BO & SO). pose proof BO as [LB HB]. pose proof MO as [LM HM]. unfold lb_getVariableValue. rewrite (rd_nth _ _ v None) by lia. cbn [bind]. specialize (HM v Hv). destruct (nth v (lb_map s) None) as [f|].
  - destruct HM as (fc & NE & EF). assert (Hf : f < nf) by (apply nth_error_Some; congruence). assert (UV : unary_of v fc = true) by (unfold unary_of; rewrite EF; apply Nat.eqb_refl).
    rewrite (single_filter _ _ _ fc (SU v) (nth_error_In _ _ NE) UV). rewrite qsum_cons, qsum_nil, Qcplus_0_r. rewrite (rd_nth _ _ f None) by lia. cbn [bind]. pose proof (HB f fc NE) as HF. assert (CE : contribution solve X fc = Some (inner (nth v X []) (snd fc))) by (unfold contribution; rewrite EF; auto). rewrite CE in HF. destruct (nth f (lb_buf s) None) as [q|] eqn:EB.
    + injection HF as <-. exists s. split; [reflexivity|]. split; [exact I|]. auto.
    + rewrite (rd_nth _ _ v []) by (rewrite EV; destruct VO; lia). cbn [bind]. destruct (fac f Hf) as (fc' & NE' & _ & RE & FB). rewrite NE in NE'. injection NE' as <-. rewrite RE. destruct fc as [vis t]. cbn [bind fst snd] in *. subst vis. rewrite EV. rewrite (sum_fold (fun i => nth i (nth v X []) 0 * t [i])%Qc), Qcplus_0_l. fold (inner (nth v X []) t).
      destruct (buf_upd X (lb_buf s) f ([v], t) _ BO NE CE) as [LF BO']. rewrite wr_Ret by auto. cbn [bind]. eexists. split; [reflexivity|]. assert (PF : forall k, pair_factor g k -> nth k (upd (lb_buf s) f (Some (inner (nth v X []) t))) None = nth k (lb_buf s) None).
      { intros k (fk & NK & LK). apply nth_upd_neq. intros ->. rewrite NE in NK. injection NK as <-. discriminate. }
      split; [|cbn; auto]. split; [auto|]. split; [auto|]. split; [auto|]. split; [auto|]. intros SR Z. destruct (SO SR Z) as [A B]. split; auto. intros k PK. cbn. rewrite PF by auto. auto.
  - assert (EF : filter (unary_of v) (v_factors g) = []). { destruct (filter (unary_of v) (v_factors g)) as [|fc l] eqn:E; auto. exfalso. assert (II : In fc (filter (unary_of v) (v_factors g))) by (rewrite E; left; auto). apply filter_In in II. destruct II as [II U]. destruct (In_nth_error _ _ II) as (f & NE). apply (HM f fc NE). unfold unary_of in U. destruct (fst fc) as [|w [|? ?]]; try discriminate. apply Nat.eqb_eq in U. subst. auto. }
    rewrite EF. exists s. split; [reflexivity|]. split; [exact I|]. auto.
Qed.
(** getTotalValue *)
Lemma sum_ok : forall l pre s X a, v_factors g = pre ++ l -> inv s X -> lb_total s = Some a -> exists s' r, lb_sum g M solve (seq (length pre) (length l)) s = Ret (s', r) /\ inv s' X /\
  match sum_all (map (contribution solve X) l) with Some q => r = LDone /\ lb_total s' = Some (a + q)%Qc | None => r = LThrown end.
Proof.
  induction l as [|fc l IH]; intros pre s X a EF I ET; cbn [length seq lb_sum map sum_all].
  - exists s, LDone. split; auto. split; auto. split; auto. rewrite ET. f_equal. ring.
  - assert (NE : nth_error (v_factors g) (length pre) = Some fc) by (rewrite EF, nth_error_app2, Nat.sub_diag by lia; auto). assert (Hf : length pre < nf) by (apply nth_error_Some; congruence). destruct (fac (length pre) Hf) as (fc' & NE' & _ & RE & FB). rewrite NE in NE'. injection NE' as <-. rewrite RE. destruct fc as [vis t]. cbn [bind fst] in *.
    assert (NX : forall s1 q, inv s1 X -> lb_total s1 = Some a -> contribution solve X (vis, t) = Some q -> exists s' r, lb_sum g M solve (seq (S (length pre)) (length l)) (mkLpb (lb_var s1) (lb_map s1) (lb_buf s1) (lb_last s1) (lb_solver s1) (Some (a + q)%Qc)) = Ret (s', r) /\ inv s' X /\
      match (match sum_all (map (contribution solve X) l) with Some r => Some (q + r)%Qc | None => None end) with Some q => r = LDone /\ lb_total s' = Some (a + q)%Qc | None => r = LThrown end).
    { intros s1 q I1 ET1 C. destruct (IH (pre ++ [(vis, t)]) (mkLpb (lb_var s1) (lb_map s1) (lb_buf s1) (lb_last s1) (lb_solver s1) (Some (a + q)%Qc)) X (a + q)%Qc) as (s' & r & E & I' & H).
      - rewrite <- app_assoc. auto.
      - exact I1.
      - auto.
      - rewrite app_length in E. cbn [length] in E. rewrite Nat.add_1_r in E. exists s', r. split; auto. split; auto. destruct (sum_all _) as [r'|]; auto. destruct H as [-> H]. split; auto. rewrite H. f_equal. ring. }
    destruct (length vis =? 1) eqn:E1.
    + destruct (unary_dec (vis, t) E1) as (v & EV). cbn in EV. subst vis. rewrite (rd_nth _ _ 0 0) by (cbn; lia). cbn [bind nth]. assert (Hv : v < n) by (inversion FB; auto). destruct (variable_ok s X v I Hv) as (s1 & ES & I1 & T1 & _). rewrite ES. cbn [bind]. rewrite T1, ET.
      assert (UV : unary_of v ([v], t) = true) by (unfold unary_of; cbn; apply Nat.eqb_refl). rewrite (single_filter _ _ _ ([v], t) (SU v) (nth_error_In _ _ NE) UV). rewrite qsum_cons, qsum_nil, Qcplus_0_r. cbn [snd]. rewrite ET in T1. unfold contribution at 1. cbn [fst snd]. apply NX; auto.
    + destruct (length vis =? 2) eqn:E2.
      * apply Nat.eqb_eq in E2. destruct (factor_ok s X (length pre) (vis, t) I NE E2) as (s1 & ES & I1 & T1 & _). rewrite ES. cbn [bind]. rewrite T1, ET. destruct (contribution solve X (vis, t)) as [q|] eqn:C.
        -- rewrite ET in T1. apply NX; auto.
        -- exists s1, LThrown. auto.
      * cbn [bind]. exists s, LThrown. split; auto. split; auto. unfold contribution at 1. cbn [fst]. destruct vis as [|? [|? [|? ?]]]; cbn in *; try discriminate; auto.
Qed.
Lemma total_value_ok : forall s X, inv s X -> exists s' r, lb_getTotalValue g M solve s = Ret (s', r) /\ inv s' X /\
  (total_ok s X -> r = match sum_all (map (contribution solve X) (v_factors g)) with Some q => LValue q | None => LThrown end /\ (r <> LThrown -> total_ok s' X)).
Proof.
  intros s X I. unfold lb_getTotalValue. destruct (lb_total s) as [q|] eqn:ET.
  - cbn [bind]. rewrite ET. exists s, (LValue q). split; auto. split; auto. intros [H|(q' & E & H)]; [congruence|]. rewrite ET in E. injection E as <-. rewrite H. split; auto. intros _. right. eauto.
  - destruct (sum_ok (v_factors g) [] (mkLpb (lb_var s) (lb_map s) (lb_buf s) (lb_last s) (lb_solver s) (Some 0%Qc)) X 0%Qc) as (s' & r & E & I' & H); auto. cbn [length] in E. rewrite E. cbn [bind]. destruct (sum_all _) as [q|] eqn:ES.
    + destruct H as [-> H]. rewrite H. exists s', (LValue (0 + q)%Qc). split; auto. split; auto. intros _. split; [f_equal; ring|]. intros _. right. exists q. split; auto. rewrite H. f_equal. ring.
    + subst r. exists s', LThrown. split; auto. split; auto. intros _. split; auto. intros Z. contradiction.
Qed.
(** setVariable *)
Lemma clear_ok : forall l b, (forall f, In f l -> f < length b) -> exists b', foldM (fun b f => wr b f None) l b = Ret b' /\ length b' = length b /\ forall f, nth f b' (@None Qc) = if in_dec Nat.eq_dec f l then None else nth f b None.
Proof.
  induction l as [|f l IH]; intros b H; cbn [foldM]. { exists b. auto. }
  rewrite wr_Ret by (apply H; left; auto). cbn [bind]. destruct (IH (upd b f None)) as (b' & E & L & HB). { intros k Hk. rewrite length_upd. apply H. right. auto. } exists b'. split; auto. split; [rewrite L, length_upd; auto|]. intros k. rewrite HB. destruct (in_dec Nat.eq_dec k l) as [I|I]; destruct (in_dec Nat.eq_dec k (f :: l)) as [J|J]; auto.
  - exfalso. apply J. right. auto.
  - destruct J as [->|J]; [|contradiction]. apply nth_upd_eq. apply H. left. auto.
  - apply nth_upd_neq. intros ->. apply J. left. auto.
Qed.
Lemma contribution_off : forall X v x fc, ~ In v (fst fc) -> contribution solve (upd X v x) fc = contribution solve X fc.
Proof.
  intros X v x [[|a [|b [|? ?]]] t] H; unfold contribution; cbn [fst snd] in *; auto.
  - rewrite nth_upd_neq; auto. intros ->. apply H. left. auto.
  - rewrite !nth_upd_neq; auto; intros ->; apply H; [right; left|left]; auto.
Qed.
Lemma set_ok : forall s X v x, inv s X -> v < n -> length x = nth v (v_labels g) 0 -> exists s', lb_setVariable g M s v x = Ret (s', LDone) /\ inv s' (upd X v x) /\ lb_total s' = None /\ lb_last s' = lb_last s /\ lb_solver s' = lb_solver s /\
  forall f, nth f (lb_buf s') None = if in_dec Nat.eq_dec f (v_adj Qc g v) then None else nth f (lb_buf s) None.
Proof.
  intros s X v x (EV & VO & MO & BO & SO) Hv LX. pose proof VO as [LV HV]. pose proof BO as [LB HB]. unfold lb_setVariable. rewrite (rd_nth _ _ v []) by (rewrite EV; lia). cbn [bind]. rewrite EV, HV, LX, Nat.ltb_irrefl by auto. rewrite wr_Ret by lia. cbn [bind]. rewrite <- LX, firstn_all.
  destruct (clear_ok (v_adj Qc g v) (lb_buf s)) as (b' & E & L & HB'). { intros f H. apply (v_adj_spec Qc g) in H. destruct H as (fc & NE & _). rewrite LB. apply nth_error_Some. congruence. }
  rewrite E. cbn [bind]. eexists. split; [reflexivity|]. split; [|cbn; auto]. split; [auto|]. split.
  - split; [rewrite length_upd; auto|]. intros w Hw. destruct (Nat.eq_dec w v) as [->|D]; [rewrite nth_upd_eq by lia; auto|rewrite nth_upd_neq by auto; auto].
  - split; [exact MO|]. split.
    + split; [cbn; lia|]. intros f fc NE. cbn [lb_buf]. rewrite HB'. destruct (in_dec Nat.eq_dec f (v_adj Qc g v)) as [I|I]; auto. specialize (HB f fc NE). destruct (nth f (lb_buf s) None); auto. rewrite contribution_off; auto. intros Y. apply I. apply (v_adj_spec Qc g). eauto.
    + intros SR Z. destruct (SO SR Z) as [A B]. split; auto. intros f PF. cbn. rewrite HB'. destruct (in_dec _ _ _); auto.
Qed.
(** getFactorVariable *)
Lemma matrix_ok : forall s X f, inv s X -> sure -> pair_factor g f -> exists s' r, lb_getFactorVariable g M solve s f = Ret (s', r) /\ inv s' X /\ lb_total s' = lb_total s /\
  (forall k, k <> f -> nth k (lb_buf s') None = nth k (lb_buf s) None) /\ (lb_last s' = lb_last s \/ lb_last s' = Some f).
Proof.
  intros s X f I SR PF. pose proof PF as (fc & NE & L2). pose proof I as (_ & _ & _ & _ & SO). unfold lb_getFactorVariable. destruct (factor_ok s X f fc I NE L2) as (s1 & E & I1 & T1 & FR & BK & LL). destruct (lb_last s) as [k|] eqn:EL.
  - destruct (k =? f) eqn:EK.
    + cbn [bind]. destruct (lb_solver s) as [[q m]|] eqn:ES; [exists s, (LSolution q m); split; auto|]. destruct (SO SR ES). congruence.
    + rewrite E. cbn [bind]. destruct (contribution solve X fc); [|exists s1, LThrown; auto 7]. destruct (lb_solver s1) as [[q' m]|] eqn:ES; [exists s1, (LSolution q' m); auto 7|]. destruct I1 as (_ & _ & _ & _ & SO1). destruct (SO1 SR ES) as [A _]. destruct LL; congruence.
  - rewrite E. cbn [bind]. destruct (contribution solve X fc) as [q|] eqn:C; [|exists s1, LThrown; auto 7]. destruct (lb_solver s1) as [[q' m]|] eqn:ES; [exists s1, (LSolution q' m); auto 7|]. exfalso.
    pose proof I1 as (_ & _ & _ & _ & SO1). destruct (SO1 SR ES) as [A B]. specialize (B f PF). destruct (nth f (lb_buf s) None) eqn:EB.
    + unfold lb_getFactorValue in E. pose proof I as (_ & _ & _ & (LB & _) & _). rewrite (rd_nth _ _ f None) in E by (rewrite LB; apply nth_error_Some; congruence). cbn [bind] in E. rewrite EB in E. injection E as <-. congruence.
    + specialize (FR eq_refl). destruct fc as [[|v [|w [|? ?]]] t]; cbn in L2; try discriminate. cbn [fst snd] in FR. destruct (solve t _ _) eqn:EQ; [destruct FR; congruence|apply (SR _ _ _ EQ)].
Qed.
(** The solution of a factor that is neither buffered nor the last one *)
Lemma matrix_fresh : forall s X f fc v w, inv s X -> nth_error (v_factors g) f = Some fc -> fst fc = [v; w] -> nth f (lb_buf s) None = None -> lb_last s <> Some f ->
  exists s', lb_getFactorVariable g M solve s f = Ret (s', match solve (snd fc) (nth v X []) (nth w X []) with Some (q, m) => LSolution q m | None => LThrown end).
Proof.
  intros s X f fc v w I NE EF EB NL. unfold lb_getFactorVariable. assert (EC : (match lb_last s with Some k => k =? f | None => false end) = false). { destruct (lb_last s) as [k|]; auto. apply Nat.eqb_neq. congruence. }
  rewrite EC. destruct (factor_ok s X f fc I NE) as (s1 & E & I1 & T1 & FR & _). { rewrite EF. auto. } rewrite E. cbn [bind]. specialize (FR EB). unfold contribution. rewrite EF in *. destruct (solve _ _ _) as [[q m]|]; [|eauto]. destruct FR as [_ ->]. eauto.
Qed.
End Proofs.
