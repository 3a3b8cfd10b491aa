(** From messages to tables of marginals, and histories of an object. *)
From Coq Require Import Sorted Permutation Relations.
From Verif Require Import Base Values GmView GmViewSpec ShapeSpec ShapeProofs FactorOpsSpec FactorOpsProofs FactorGraphModel FactorGraphSpec FactorGraphProofs FactorGraphAcyclic MpModel MpSpec MpSum MpGraph MpState MpMessages MpSchedule MpInfer.

Lemma Forall2_maps : forall (A B C : Type) (P : B -> C -> Prop) (f : A -> B) (h : A -> C) l, (forall a, In a l -> P (f a) (h a)) -> Forall2 P (map f l) (map h l).
Proof. induction l as [|a l IH]; intros H; cbn [map]; constructor; [apply H; left; auto|apply IH; intros; apply H; right; auto]. Qed.
Lemma Forall2_imp : forall (A B : Type) (P Q : A -> B -> Prop) l k, (forall a b, In b k -> P a b -> Q a b) -> Forall2 P l k -> Forall2 Q l k.
Proof. intros A B P Q l k H F. induction F; constructor; [apply H; auto; left; auto|apply IHF; intros; apply H; auto; right; auto]. Qed.
Lemma Forall2_map_right : forall (A B C : Type) (P : A -> C -> Prop) (h : B -> C) l k, Forall2 (fun a b => P a (h b)) l k -> Forall2 P l (map h k).
Proof. intros A B C P h l k F. induction F; cbn [map]; constructor; auto. Qed.

Section Tables.
Variable T : Type.
Variable fin : T -> Prop.
Variable OP : oper T.
Variable ACC : accum T.
Variable mult : bool.
Variable small : T -> bool.
Hypothesis SL : semiring_laws fin OP ACC.
Variable g : gmv T.
Hypothesis WF : wf_gmv g.
Hypothesis FG : fin_gmv fin g.
Notation n := (length (v_labels g)).
Notation m := (length (v_factors g)).
Notation nl := (labels_at g).
Notation one := (o_neutral OP).
Notation op := (o_op OP).
Notation ac := (a_op ACC).
Notation facs := (facs_of T g).
Notation vars := (vars T OP g).
Notation fval := (fval T OP g).
Notation okl := (okl T g).
Notation fine := (fine T fin g).
Notation inside := (inside T g).
Notation msum := (msum T ACC g).
Notation oprod := (oprod T OP).
Notation asum := (asum T ACC).
Notation set := MpSum.set.
Notation bV := (bV T g).
Notation bF := (bF T OP g).
Notation ok := (ok T OP g).
Notation normalize := (normalize T OP ACC mult small).
Notation inv := (invertible fin OP).
Let P0 : positive (v_labels g) := POS T g WF.

Lemma okl_legal : forall x, legal_at g x <-> okl x.
Proof. intros x. split; intros H v Hv; [apply (H v); apply in_seq; lia|apply H; apply in_seq in Hv; lia]. Qed.

(** The accumulation of a table of marginals. *)
Lemma table_mass : forall S out c x, NoDup S -> inside S -> fin c -> Forall fin out -> legal_at g x -> marginal_table OP ACC g S out c ->
  marginal_of OP ACC g [] x = op c (asum out).
Proof.
  intros S out c x NS IS FC FO LX H. apply okl_legal in LX. rewrite (marginal_msum T fin OP ACC SL g WF FG) by auto.
  assert (IO : inside (outside g S)) by (intros u Hu; apply outside_in in Hu; apply Hu).
  rewrite (msum_set T fin OP ACC SL g P0 (outside g []) (S ++ outside g S)); auto.
  - rewrite msum_app. rewrite (msum_enum T fin OP ACC SL g P0 S); auto.
    + rewrite (asum_perm T fin OP ACC SL (map (fun c0 => msum (outside g S) (value_at OP g) (override x S c0)) (enum T g S)) (map (fun c0 => msum (outside g S) (value_at OP g) (override x S c0)) (tuples nl S))).
      * assert (Q : map (fun c0 => msum (outside g S) (value_at OP g) (override x S c0)) (tuples nl S) = map (op c) out).
        { unfold marginal_table in H. assert (SH : forall lab, In lab (tuples nl S) -> in_shape (map nl S) lab) by (intros; apply (tuples_in T g P0); auto). clear - H SH NS SL WF FG LX.
          induction H as [|lab value l k H1 H2 IH]; cbn [map]; auto. f_equal; [|apply IH; intros; apply SH; right; auto].
          pose proof (SH lab (or_introl eq_refl)) as SHl. pose proof (in_shape_length _ _ SHl) as Ll. rewrite map_length in Ll. pose proof (okl_override T g S lab x NS SHl LX) as OK.
          rewrite <- (marginal_msum T fin OP ACC SL g WF FG) by auto. apply H1; [apply okl_legal; auto|]. apply override_in; auto. }
        rewrite Q. symmetry. apply (asum_dist T fin OP ACC SL); auto. intros ->. inversion H as [E|]. 
        assert (L : length (tuples nl S) = 0) by (rewrite <- E; auto). unfold tuples in L. rewrite map_length, seq_length in L.
        assert (size_of (map nl S) > 0); [|lia]. clear - IS P0. induction S as [|v S IH]; cbn [map size_of fold_right]; [lia|]. apply Nat.mul_pos_pos; [apply (nl_pos T g P0); apply IS; left; auto|apply IH; intros u Hu; apply IS; right; auto].
      * apply Permutation_map. apply (enum_tuples T g P0); auto.
      * apply Forall_forall. intros t Ht. apply in_map_iff in Ht. destruct Ht as (c0 & <- & Hc). apply enum_in in Hc. apply (msum_fin T fin OP ACC SL g P0); auto; try apply (value_fine T fin OP ACC SL g WF FG); apply okl_override; auto.
    + intros y Y. apply (msum_fin T fin OP ACC SL g P0); auto; apply (value_fine T fin OP ACC SL g WF FG).
    + apply msum_ext_at. apply value_ext.
  - apply NoDup_filter, seq_NoDup.
  - apply NoDup_app_intro; auto; [apply NoDup_filter, seq_NoDup|]. intros u Hu Hu'. apply outside_in in Hu'. tauto.
  - intros u. rewrite in_app_iff, !outside_in. split; [|intros [A|A]]; cbn [In].
    + intros [A _]. destruct (in_dec Nat.eq_dec u S); auto.
    + split; auto.
    + tauto.
  - intros u Hu. apply outside_in in Hu. apply Hu.
  - apply (value_fine T fin OP ACC SL g WF FG).
  - apply value_ext.
Qed.

Lemma inv_op : forall a b, inv a -> inv b -> inv (op a b).
Proof.
  intros a b [Fa (a' & Fa' & Ea)] [Fb (b' & Fb' & Eb)]. split; [apply (sl_op _ _ _ SL); auto|]. exists (op a' b'). split; [apply (sl_op _ _ _ SL); auto|].
  rewrite <- (sl_assoc _ _ _ SL a b) by (auto; apply (sl_op _ _ _ SL); auto). rewrite (sl_assoc _ _ _ SL b a' b') by auto. rewrite (sl_comm _ _ _ SL b a') by auto. rewrite <- (sl_assoc _ _ _ SL a' b b') by auto. rewrite Eb. rewrite (unit_r T fin OP ACC SL) by auto. auto.
Qed.
Lemma inv_one : inv one.
Proof. split; [apply (sl_neutral _ _ _ SL)|]. exists one. split; [apply (sl_neutral _ _ _ SL)|]. apply (sl_unit _ _ _ SL). apply (sl_neutral _ _ _ SL). Qed.
Lemma inv_left : forall a b, fin a -> fin b -> inv (op a b) -> inv a.
Proof. intros a b Fa Fb [_ (k & Fk & Ek)]. split; auto. exists (op b k). split; [apply (sl_op _ _ _ SL); auto|]. rewrite (sl_assoc _ _ _ SL) by auto. auto. Qed.

(** The factors by which a message may differ from a sum. *)
Variable un : bool.
Hypothesis DL : un = true -> division_laws fin OP mult small.
Definition K (k : T) : Prop := if un then inv k else k = one.
Lemma K_inv : forall k, K k -> inv k.
Proof. unfold K. intros k H. destruct un; auto. subst k. apply inv_one. Qed.
Lemma K_one : K one.
Proof. unfold K. destruct un; [apply inv_one|auto]. Qed.
Lemma K_op : forall a b, K a -> K b -> K (op a b).
Proof. unfold K. intros a b H1 H2. destruct un; [apply inv_op; auto|]. subst a b. apply (sl_unit _ _ _ SL). apply (sl_neutral _ _ _ SL). Qed.
Lemma K_fin : forall a, K a -> fin a.
Proof. intros a H. apply K_inv in H. apply H. Qed.
Lemma K_norm : norm_ok T fin OP mult small K un.
Proof.
  intros U v Fv E. destruct (DL U v Fv E) as (k & Fk & Ek & Hk). exists k. split; auto. unfold K. rewrite U. split; auto. exists v. auto.
Qed.
Lemma normalize_map : forall a, a <> [] -> Forall fin a -> exists k h, K k /\ (forall x, fin x -> h x = op k x) /\ (if un then normalize a else a) = map h a /\
  (un = true -> asum (map h a) = one \/ mult && small (asum (map h a)) = true).
Proof.
  intros a NE F. assert (I : exists k h, K k /\ (forall x, fin x -> h x = op k x) /\ a = map h a). { exists one, (fun x => x). split; [apply K_one|]. split; [intros x Fx; symmetry; apply (sl_unit _ _ _ SL); auto|]. symmetry. apply map_id. }
  destruct un eqn:U.
  - unfold MpModel.normalize. rewrite (fold_asum T ACC). destruct (mult && small (asum a)) eqn:E.
    + destruct I as (k & h & Kk & Hh & Em). exists k, h. split; auto. split; auto. split; auto. intros _. right. rewrite <- Em. auto.
    + destruct (DL eq_refl (asum a) (asum_fin T fin OP ACC SL a NE F) E) as (k & Fk & Ek & Hk). exists k, (o_iop OP (asum a)). split; [|split; [auto|split; auto]].
      * unfold K. rewrite U. split; auto. exists (asum a). split; auto. apply (asum_fin T fin OP ACC SL); auto.
      * intros _. left. rewrite (map_ext_in _ (op k)). { rewrite <- (asum_dist T fin OP ACC SL) by auto. auto. } intros x Hx. rewrite Forall_forall in F. auto.
  - destruct I as (k & h & Kk & Hh & Em). exists k, h. split; auto. split; auto. split; auto. discriminate.
Qed.

(** A table of values that are right up to [k], after normalization. *)
Lemma table_normalize : forall S out0 k C, NoDup S -> inside S -> out0 <> [] -> Forall fin out0 -> K k -> fin C -> (connected g -> C = one) ->
  Forall2 (fun lab value => forall x, okl x -> map x S = lab -> exists b, fin b /\ value = op k b /\ marginal_of OP ACC g S x = op C b) (tuples nl S) out0 ->
  exists c, let out := (if un then normalize out0 else out0) in fin c /\ Forall fin out /\ marginal_table OP ACC g S out c /\
    (forall x, legal_at g x -> inv (marginal_of OP ACC g [] x) -> inv c) /\
    (connected g -> inv c) /\ (un = false -> connected g -> c = one) /\
    (un = true -> asum out = one \/ mult && small (asum out) = true) /\
    (asum out = one -> forall x, legal_at g x -> marginal_table OP ACC g S out (marginal_of OP ACC g [] x)).
Proof.
  intros S out0 k C NS IS NE FO Kk FC HC H. destruct (normalize_map out0 NE FO) as (k1 & h & Kk1 & Hh & Em & Hn). rewrite Em. cbv zeta.
  pose proof (K_op _ _ Kk1 Kk) as KK. destruct (K_inv _ KK) as [FK (k' & Fk' & Ek')]. exists (op C k').
  pose proof (K_fin _ Kk1) as Fk1. pose proof (K_fin _ Kk) as Fk. assert (Fc : fin (op C k')) by (apply (sl_op _ _ _ SL); auto).
  assert (Ik' : inv k'). { split; auto. exists (op k1 k). split; auto. rewrite (sl_comm _ _ _ SL) by auto. auto. }
  assert (FO' : Forall fin (map h out0)). { apply Forall_forall. intros t Ht. apply in_map_iff in Ht. destruct Ht as (a & <- & Ha). rewrite Forall_forall in FO. rewrite Hh by auto. apply (sl_op _ _ _ SL); auto. }
  assert (MT : marginal_table OP ACC g S (map h out0) (op C k')).
  { unfold marginal_table. apply Forall2_map_right. refine (Forall2_imp _ _ _ _ _ _ _ H). intros lab value Hin HP x LX Ex. apply okl_legal in LX. destruct (HP x LX Ex) as (b & Fb & Ev & Em'). rewrite Em'.
    rewrite Forall_forall in FO. rewrite Hh by auto. rewrite Ev. rewrite (sl_assoc _ _ _ SL k1 k b) by auto. rewrite <- (sl_assoc _ _ _ SL C k') by (auto; apply (sl_op _ _ _ SL); auto). rewrite (sl_assoc _ _ _ SL k' (op k1 k) b) by auto.
    rewrite (sl_comm _ _ _ SL k') by auto. rewrite Ek'. rewrite (sl_unit _ _ _ SL) by auto. auto. }
  assert (NEh : map h out0 <> []) by (destruct out0; [congruence|discriminate]).
  assert (FAS : fin (asum (map h out0))) by (apply (asum_fin T fin OP ACC SL); auto).
  split; auto. split; auto. split; auto. split; [|split; [|split; [|split]]].
  - intros x LX I. rewrite (table_mass S _ _ x NS IS Fc FO' LX MT) in I. eapply inv_left; eauto.
  - intros Cn. rewrite HC by auto. apply inv_op; auto. apply inv_one.
  - intros U Cn. rewrite HC by auto. rewrite (sl_unit _ _ _ SL) by auto. unfold K in KK. rewrite U in KK. rewrite KK in Ek'. rewrite (sl_unit _ _ _ SL) in Ek' by auto. auto.
  - auto.
  - intros E x LX. pose proof (table_mass S _ _ x NS IS Fc FO' LX MT) as M. rewrite E in M. rewrite (unit_r T fin OP ACC SL) in M by auto. rewrite M. auto.
Qed.

(** ** The two kinds of marginals *)
Notation vmsg := (vmsg T OP ACC g K).
Notation fmsg := (fmsg T OP ACC g K).
Definition good (S : list nat) (out : list T) (c : T) : Prop :=
  fin c /\ Forall fin out /\ marginal_table OP ACC g S out c /\
    (forall x, legal_at g x -> inv (marginal_of OP ACC g [] x) -> inv c) /\
    (connected g -> inv c) /\ (un = false -> connected g -> c = one) /\
    (un = true -> asum out = one \/ mult && small (asum out) = true) /\
    (asum out = one -> forall x, legal_at g x -> marginal_table OP ACC g S out (marginal_of OP ACC g [] x)).
Hypothesis AC : acyclic g.
Lemma variable_table : forall s v, ok s -> v < n -> tri_bool (m_norm s) = un -> (forall f, f < m -> In v (vars f) -> fmsg f v (current (bV s v f))) ->
  exists out c, mp_marginal T OP ACC mult small g s v = Ret out /\ length out = nl v /\ good [v] out c.
Proof.
  intros s v KS Hv U HM. rewrite marginal_eq by auto. rewrite U. pose proof (nl_pos T g P0 v Hv) as Lp.
  set (out0 := map (prod_at T OP (bV s v) (facs v)) (seq 0 (nl v))).
  assert (HM' : forall h, In h (facs v) -> fmsg h v (current (bV s v h))) by (intros h Hh; apply (facs_in T OP g) in Hh; apply HM; apply Hh).
  destruct (variable_marginal T fin OP ACC SL g WF FG AC K K_one K_op K_fin v (fun h => current (bV s v h)) Hv HM') as (k & C & Kk & FC & HC & H).
  assert (FM : forall l, l < nl v -> forall h, In h (facs v) -> fin (nth l (current (bV s v h)) one)). { intros l L h Hh. apply (fmsg_fin T fin OP ACC SL g WF FG K K_fin v h); auto. }
  destruct (table_normalize [v] out0 k C) as (c & Hc); auto.
  - constructor; [intros []|constructor].
  - intros u [<-|[]]. auto.
  - unfold out0. destruct (nl v); [lia|]. discriminate.
  - apply Forall_forall. intros t Ht. apply in_map_iff in Ht. destruct Ht as (l & <- & Hl). apply in_seq in Hl. rewrite (prod_oprod T fin OP ACC SL) by (apply FM; lia). apply (oprod_fin T fin OP ACC SL). apply Forall_forall. intros t Ht. apply in_map_iff in Ht. destruct Ht as (h & <- & Hh). apply FM; auto. lia.
  - unfold tuples, out0. cbn [map size_of fold_right]. rewrite Nat.mul_1_r. apply Forall2_maps. intros l Hl. apply in_seq in Hl. intros x X Ex. cbn [coord_of] in Ex. rewrite Nat.mod_small in Ex by lia. injection Ex as Ex.
    destruct (H x X) as (b & Fb & E1 & E2). exists b. split; auto. split; auto. rewrite <- E1, Ex. apply (prod_oprod T fin OP ACC SL). apply FM. lia.
  - exists (if un then normalize out0 else out0), c. split; auto. split; [|auto]. destruct un; [rewrite normalize_length|]; unfold out0; rewrite map_length, seq_length; auto.
Qed.
Lemma factor_table : forall s f, ok s -> f < m -> tri_bool (m_norm s) = un -> (forall v, In v (vars f) -> vmsg v f (current (bF s f v))) ->
  exists out c, mp_factorMarginal T OP ACC mult small g s f = Ret out /\ length out = size_of (map nl (vars f)) /\ good (vars f) out c.
Proof.
  intros s f KS Hf U HM. rewrite factorMarginal_eq by auto. rewrite U.
  set (out0 := map (fun c => weigh T OP (bF s f) (vars f) (lab_at T OP g f c) (snd (fac T OP g f) c)) (tuples nl (vars f))).
  destruct (factor_marginal T fin OP ACC SL g WF FG AC K K_one K_op K_fin f (fun u => current (bF s f u)) Hf HM) as (k & C & Kk & FC & HC & H).
  pose proof (vars_nodup T OP g WF f) as NV. assert (IV : inside (vars f)) by (intros u Hu; apply (vars_lt T OP g WF f); auto).
  assert (VAL : forall lab x, okl x -> map x (vars f) = lab -> weigh T OP (bF s f) (vars f) (lab_at T OP g f lab) (snd (fac T OP g f) lab) = op (fval f x) (oprod (map (fun u => nth (x u) (current (bF s f u)) one) (vars f)))).
  { intros lab x X Ex. assert (EF : snd (fac T OP g f) lab = fval f x) by (unfold MpState.fval; rewrite Ex; auto). rewrite EF.
    rewrite (weigh_ext T OP _ _ _ x). 2:{ intros u Hu. unfold lab_at. rewrite (override_lab 0) by (auto; rewrite <- Ex; apply map_length). rewrite <- Ex. rewrite (nth_map_in _ _ _ _ _ 0) by (apply pos_lt; auto). rewrite (nth_error_nth _ _ 0 (pos_in _ _ Hu)). auto. }
    apply (weigh_oprod T fin OP ACC SL).
    - apply (fval_fine T fin OP g WF FG); auto.
    - intros u Hu. apply (vmsg_fin T fin OP ACC SL g WF FG K K_fin u f); auto. }
  assert (NE : tuples nl (vars f) <> []).
  { assert (Z0 : in_shape (map nl (vars f)) (map (fun _ => 0) (vars f))). { apply map_in_shape. intros u Hu. apply (nl_pos T g P0); auto. } apply (tuples_in T g P0 _ IV) in Z0. destruct (tuples nl (vars f)); [destruct Z0|discriminate]. }
  assert (EX : forall lab, In lab (tuples nl (vars f)) -> exists x, okl x /\ map x (vars f) = lab).
  { intros lab Hl. apply (tuples_in T g P0 _ IV) in Hl. pose proof (in_shape_length _ _ Hl) as Ll. rewrite map_length in Ll. exists (override (fun _ => 0) (vars f) lab). split; [apply okl_override; auto; apply okl_0; auto|apply override_in; auto]. }
  destruct (table_normalize (vars f) out0 k C) as (c & Hc); auto.
  - unfold out0. destruct (tuples nl (vars f)); [congruence|discriminate].
  - apply Forall_forall. intros t Ht. apply in_map_iff in Ht. destruct Ht as (lab & <- & Hl). destruct (EX lab Hl) as (x & X & Ex). rewrite (VAL lab x X Ex). destruct (H x X) as (b & Fb & E1 & E2). rewrite E1. apply (sl_op _ _ _ SL); auto. apply K_fin. auto.
  - unfold out0. rewrite <- (map_id (tuples nl (vars f))) at 1. apply Forall2_maps. intros lab Hl x X Ex. destruct (H x X) as (b & Fb & E1 & E2). exists b. split; auto. split; auto. rewrite <- E1. apply VAL; auto.
  - exists (if un then normalize out0 else out0), c. split; auto. split; [|auto]. assert (L : length out0 = size_of (map nl (vars f))) by (unfold out0, tuples; rewrite !map_length, seq_length; auto). destruct un; [rewrite normalize_length|]; auto.
Qed.
End Tables.
