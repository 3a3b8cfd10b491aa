(** Proofs for tentacle elimination: the search for the variables of a tentacle. *)
From Coq Require Import Sorted Relations.
From Verif Require Import Base Values GmView GmViewSpec GmViewProofs ManipulatorModel TentacleModel TentaclePeel.
#[local] Arguments nth_error : simpl never.

Section S.
Variable T : Type.
Variable g : gmv T.
Hypothesis W : wf_gmv g.
Variables ef et ir vs0 : list bool.
Notation n := (length (v_labels g)).
Notation nf := (length (v_factors g)).
Hypothesis LF : length ef = n.
Hypothesis LT : length et = nf.
Hypothesis LR : length ir = n.
Hypothesis LV : length vs0 = n.
Notation fr := (fr ef).
Notation vars := (vars T g).
Notation fvars := (fvars T g ef).
Definition stf (k : nat) : Prop := nth k et false = true.
Definition sshare (a b : nat) : Prop := exists k, stf k /\ In a (fvars k) /\ In b (fvars k).
(** What is visited before is closed. *)
Hypothesis CL : forall a b, sshare a b -> nth a vs0 false = nth b vs0 false.
Variable var : nat.
Hypothesis HV : fr var = true.
Hypothesis NV : nth var vs0 false = false.

Record sinv (i : nat) (s : search) : Prop := {
  si_i : i <= length (s_list s);
  si_nd : NoDup (s_list s);
  si_el : forall v, In v (s_list s) -> fr v = true /\ nth v vs0 false = false /\ clos_refl_sym_trans nat sshare var v;
  si_var : In var (s_list s);
  si_lv : length (s_visited s) = n;
  si_vis : forall v, nth v (s_visited s) false = nth v vs0 false || mem v (s_list s);
  si_cl : forall v k u, In v (firstn i (s_list s)) -> stf k -> In v (fvars k) -> In u (fvars k) -> In u (s_list s);
  si_has : s_hasRoot s = existsb (fun v => nth v ir false) (firstn i (s_list s));
  si_root : s_hasRoot s = true -> In (s_root s) (s_list s) /\ nth (s_root s) ir false = true }.

Lemma rst_vis : forall a b, clos_refl_sym_trans nat sshare a b -> nth a vs0 false = nth b vs0 false.
Proof. intros a b H. induction H; auto; congruence. Qed.

(** One factor: the invariant without the part about what is closed. *)
Record vinv (L : list nat) (h : bool) (r : nat) (s : search) : Prop := {
  vi_ext : exists ext, s_list s = L ++ ext;
  vi_nd : NoDup (s_list s);
  vi_el : forall v, In v (s_list s) -> fr v = true /\ nth v vs0 false = false /\ clos_refl_sym_trans nat sshare var v;
  vi_lv : length (s_visited s) = n;
  vi_vis : forall v, nth v (s_visited s) false = nth v vs0 false || mem v (s_list s);
  vi_has : s_hasRoot s = h; vi_root : s_root s = r }.
Lemma visit_ok : forall L h r s v, vinv L h r s -> v < n -> (fr v = true -> clos_refl_sym_trans nat sshare var v) ->
  exists s', visit ef s v = Ret s' /\ vinv L h r s' /\ (forall u, In u (s_list s) -> In u (s_list s')) /\ (fr v = true -> In v (s_list s')).
Proof.
  intros L h r s v [V1 V2 V3 V4 V5 V6 V7] Hv HC. unfold visit. rewrite (rd_fix_ T g ef LF v Hv). cbn [bind]. destruct (fr v) eqn:F; cbn [negb].
  - rewrite (rd_nth _ (s_visited s) v false) by lia. cbn [bind]. rewrite V5. assert (NV' : nth v vs0 false = false) by (rewrite <- (rst_vis var v); auto). rewrite NV'. cbn [orb]. destruct (mem v (s_list s)) eqn:M.
    + exists s. split; auto. split; [constructor; auto|]. split; auto. intros _. apply mem_In. auto.
    + rewrite wr_Ret by lia. cbn [bind]. eexists. split; [reflexivity|]. cbn [s_list s_visited s_hasRoot s_root]. split.
      * constructor; cbn [s_list s_visited s_hasRoot s_root]; auto.
        -- destruct V1 as (ext & ->). exists (ext ++ [v]). rewrite app_assoc. auto.
        -- apply NoDup_app_intro; auto. { repeat constructor. cbn. tauto. } intros x X1 [<-|[]]. apply mem_false in M. auto.
        -- intros u Hu. apply in_app_iff in Hu. destruct Hu as [Hu|[<-|[]]]; auto.
        -- rewrite length_upd. auto.
        -- intros u. rewrite mem_app. cbn [mem existsb]. rewrite orb_false_r. destruct (Nat.eqb_spec u v) as [->|N]; [rewrite nth_upd_eq by lia; rewrite !orb_true_r; auto|]. rewrite nth_upd_neq, V5, orb_false_r by auto. auto.
      * split; intros; apply in_or_app; cbn; auto.
  - cbn [bind]. exists s. split; auto. split; [constructor; auto|]. split; auto. discriminate.
Qed.
Lemma visits_ok : forall vis L h r s, vinv L h r s -> (forall v, In v vis -> v < n /\ (fr v = true -> clos_refl_sym_trans nat sshare var v)) ->
  exists s', foldM (visit ef) vis s = Ret s' /\ vinv L h r s' /\ (forall u, In u (s_list s) -> In u (s_list s')) /\ (forall v, In v vis -> fr v = true -> In v (s_list s')).
Proof.
  induction vis as [|a vis IH]; intros L h r s V H. { exists s. split; auto. split; auto. split; auto. intros v []. }
  destruct (H a (or_introl eq_refl)) as [Ha Ca]. destruct (visit_ok L h r s a V Ha Ca) as (s1 & E1 & V1 & M1 & A1). cbn [foldM]. rewrite E1. cbn [bind].
  destruct (IH L h r s1 V1) as (s2 & E2 & V2 & M2 & A2). { intros; apply H; right; auto. } exists s2. split; auto. split; auto. split; auto. intros v [->|I] F; auto.
Qed.
Lemma adj_ok : forall v ks L h r s, vinv L h r s -> In v L -> clos_refl_sym_trans nat sshare var v -> fr v = true -> (forall k, In k ks -> In v (vars k)) ->
  exists s', foldM (fun s k => t <- rd et k ;; if t : bool then fc <- rd (v_factors g) k ;; foldM (visit ef) (fst fc) s else Ret s) ks s = Ret s' /\ vinv L h r s' /\
    (forall u, In u (s_list s) -> In u (s_list s')) /\ (forall k u, In k ks -> stf k -> In u (fvars k) -> In u (s_list s')).
Proof.
  intros v ks. induction ks as [|k ks IH]; intros L h r s V IL CV F H. { exists s. split; auto. split; auto. split; auto. intros k u []. }
  pose proof (H k (or_introl eq_refl)) as IK. destruct (vars_lt T g W k v IK) as [Hv Hk]. cbn [foldM]. rewrite (rd_nth _ et k false) by lia. cbn [bind].
  assert (exists s1, (if nth k et false then fc <- rd (v_factors g) k ;; foldM (visit ef) (fst fc) s else Ret s) = Ret s1 /\ vinv L h r s1 /\ (forall u, In u (s_list s) -> In u (s_list s1)) /\ (forall u, stf k -> In u (fvars k) -> In u (s_list s1))) as (s1 & E1 & V1 & M1 & A1).
  { destruct (nth k et false) eqn:K.
    - destruct (rd_fac T g k Hk) as (fc & -> & FC). cbn [bind]. rewrite FC. destruct (visits_ok (vars k) L h r s V) as (s1 & E1 & V1 & M1 & A1).
      + intros u Iu. split; [apply (vars_lt T g W k u Iu)|]. intros Fu. eapply rst_trans; [exact CV|]. apply rst_step. exists k. split; [exact K|]. rewrite !fvars_In. auto.
      + exists s1. split; auto. split; auto. split; auto. intros u _ Iu. apply fvars_In in Iu. apply A1; tauto.
    - exists s. split; auto. split; auto. split; auto. intros u K'. unfold stf in K'. congruence. }
  rewrite E1. cbn [bind]. destruct (IH L h r s1 V1 IL CV F) as (s2 & E2 & V2 & M2 & A2). { intros; apply H; right; auto. }
  exists s2. split; auto. split; auto. split; auto. intros k' u [<-|I] K Iu; eauto.
Qed.

Lemma firstn_S_nth : forall A (l : list A) i a, nth_error l i = Some a -> firstn (S i) l = firstn i l ++ [a].
Proof.
  intros A l. induction l as [|x l IH]; intros [|i] a H; try discriminate.
  - injection H as ->. auto.
  - cbn [firstn app]. f_equal. apply IH. auto.
Qed.
Lemma firstn_ext_app : forall A (l e : list A) i, i <= length l -> firstn i (l ++ e) = firstn i l.
Proof. intros A l e i H. rewrite firstn_app. replace (i - length l) with 0 by lia. cbn. apply app_nil_r. Qed.
Lemma search_loop_ok : forall fuel i s, sinv i s -> n < fuel + i -> exists s', search_loop T g ef ir et fuel i s = Ret s' /\ sinv (length (s_list s')) s'.
Proof.
  induction fuel as [|fuel IH]; intros i s I HF.
  - exfalso. assert (length (s_list s) <= n); [|pose proof (si_i _ _ I); lia]. apply NoDup_bounded_length; [apply (si_nd _ _ I)|]. intros x Hx. apply (fr_lt T g ef LF). apply (si_el _ _ I x Hx).
  - cbn [search_loop]. destruct (Nat.ltb_spec i (length (s_list s))) as [G|G].
    2:{ exists s. split; auto. replace (length (s_list s)) with i by (pose proof (si_i _ _ I); lia). auto. }
    destruct I as [I1 I2 I3 I4 I5 I6 I7 I8 I9]. destruct (nth_error_lt _ _ _ G) as (v & EV). rewrite (rd_Ret _ _ _ _ EV). cbn [bind]. assert (IV : In v (s_list s)) by (eapply nth_error_In; eauto). destruct (I3 v IV) as (Fv & Vv & Cv). pose proof (fr_lt T g ef LF v Fv) as Hv.
    rewrite (rd_nth _ ir v false) by lia. cbn [bind]. set (s0 := if nth v ir false then _ else s).
    assert (S0 : s_list s0 = s_list s /\ s_visited s0 = s_visited s /\ s_hasRoot s0 = (s_hasRoot s || nth v ir false)%bool /\ (s_hasRoot s0 = true -> In (s_root s0) (s_list s) /\ nth (s_root s0) ir false = true)).
    { unfold s0. destruct (nth v ir false) eqn:RV; cbn [s_list s_visited s_hasRoot s_root]; rewrite ?orb_true_r, ?orb_false_r; auto. }
    destruct S0 as (S1 & S2 & S3 & S4).
    destruct (adj_ok v (v_adj T g v) (s_list s) (s_hasRoot s0) (s_root s0) s0) as (s1 & E1 & [V1 V2 V3 V4 V5 V6 V7] & M1 & A1); auto.
    { constructor; auto; rewrite ?S1, ?S2; auto. exists []. rewrite app_nil_r. auto. }
    { intros k Hk. apply (adj_In T g ef LF). auto. }
    rewrite E1. cbn [bind]. rewrite S1 in M1. destruct V1 as (ext & V1). apply IH; [|lia].
    assert (LL : S i <= length (s_list s)) by lia.
    constructor; auto.
    + rewrite V1, app_length. lia.
    + intros w k u Hw K Iw Iu. rewrite V1, firstn_ext_app, (firstn_S_nth _ _ _ _ EV) in Hw by lia. apply in_app_iff in Hw. destruct Hw as [Hw|[<-|[]]]; [apply M1; eauto|]. eapply A1; eauto. apply (adj_In T g ef LF). apply fvars_In in Iw. tauto.
    + rewrite V6, S3, V1, firstn_ext_app, (firstn_S_nth _ _ _ _ EV), existsb_app by lia. cbn [existsb]. rewrite orb_false_r, I8. auto.
    + rewrite V6, V7. intros X. destruct (S4 X) as [A B]. split; auto.
Qed.
Theorem search_ok : exists s, search_loop T g ef ir et (S n) 0 (mkSearch [var] (upd vs0 var true) false 0) = Ret s /\
  NoDup (s_list s) /\ In var (s_list s) /\ length (s_visited s) = n /\ (forall v, nth v (s_visited s) false = nth v vs0 false || mem v (s_list s)) /\
  (forall v, In v (s_list s) -> fr v = true /\ nth v vs0 false = false /\ clos_refl_sym_trans nat sshare var v) /\
  (forall v k u, In v (s_list s) -> stf k -> In v (fvars k) -> In u (fvars k) -> In u (s_list s)) /\
  s_hasRoot s = existsb (fun v => nth v ir false) (s_list s) /\ (s_hasRoot s = true -> In (s_root s) (s_list s) /\ nth (s_root s) ir false = true).
Proof.
  pose proof (fr_lt T g ef LF var HV) as Hv.
  destruct (search_loop_ok (S n) 0 (mkSearch [var] (upd vs0 var true) false 0)) as (s & E & [I1 I2 I3 I4 I5 I6 I7 I8 I9]); [|lia|].
  - constructor; cbn [s_list s_visited s_hasRoot s_root]; auto.
    + cbn. lia.
    + repeat constructor. cbn. tauto.
    + intros v [<-|[]]. split; auto. split; auto. apply rst_refl.
    + left. auto.
    + rewrite length_upd. auto.
    + intros v. cbn [mem existsb]. rewrite orb_false_r. destruct (Nat.eqb_spec v var) as [->|N]; [rewrite nth_upd_eq by lia; rewrite orb_true_r; auto|rewrite nth_upd_neq, orb_false_r by auto; auto].
    + intros v k u [].
    + discriminate.
  - rewrite firstn_all in I7, I8. exists s. auto 12.
Qed.
End S.
