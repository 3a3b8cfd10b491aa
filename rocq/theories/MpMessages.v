(** What the messages are in an acyclic model: sums over the part of the model behind them. *)
From Coq Require Import Sorted Permutation Relations.
From Verif Require Import Base Values GmView GmViewSpec ShapeSpec ShapeProofs FactorOpsSpec FactorOpsProofs FactorGraphModel FactorGraphSpec FactorGraphProofs FactorGraphAcyclic MpModel MpSpec MpSum MpGraph MpState.

Lemma list_choice : forall A B (P : A -> B -> Prop) l, (forall a, In a l -> exists b, P a b) -> exists h : list B, Forall2 P l h.
Proof.
  intros A B P. induction l as [|a l IH]; intros H; [exists []; constructor|]. destruct (H a (or_introl eq_refl)) as [b Hb]. destruct IH as [h Hh]; [intros; apply H; right; auto|]. exists (b :: h). constructor; auto.
Qed.

Section Messages.
Variable T : Type.
Variable fin : T -> Prop.
Variable OP : oper T.
Variable ACC : accum T.
Hypothesis SL : semiring_laws fin OP ACC.
Variable g : gmv T.
Hypothesis WF : wf_gmv g.
Hypothesis FG : fin_gmv fin g.
Notation n := (length (v_labels g)).
Notation m := (length (v_factors g)).
Notation nl := (labels_at g).
Notation one := (o_neutral OP).
Notation op := (o_op OP).
Notation ac := (a_op ACC).
Notation facs := (facs_of T g).
Notation vars := (vars T OP g).
Notation fval := (fval T OP g).
Notation okl := (okl T g).
Notation fine := (fine T fin g).
Notation inside := (inside T g).
Notation only := (only T).
Notation msum := (msum T ACC g).
Notation oprod := (oprod T OP).
Notation set := MpSum.set.
Notation asum := (asum T ACC).

Lemma POS : positive (v_labels g).
Proof. destruct WF; auto. Qed.

(** ** Factors as functions *)
Lemma okl_labeling : forall x, okl x -> labeling g (map x (seq 0 n)).
Proof.
  intros x X. unfold labeling, in_shape. unfold okl, labels_at in X. clear - X.
  assert (G : forall p q, v_labels g = p ++ q -> Forall2 lt (map x (seq (length p) (length q))) q).
  { intros p q. revert p. induction q as [|a q IH]; intros p E; cbn [length seq map]; constructor.
    - specialize (X (length p)). rewrite E in X. rewrite app_length, app_nth2, Nat.sub_diag in X by lia. apply X. cbn [length]. lia.
    - specialize (IH (p ++ [a])). rewrite app_length, Nat.add_1_r in IH. apply IH. rewrite <- app_assoc. auto. }
  apply (G []). auto.
Qed.
Lemma at_vars_map : forall x vs, (forall v, In v vs -> v < n) -> at_vars (map x (seq 0 n)) vs = map x vs.
Proof.
  intros x vs H. unfold at_vars. apply map_ext_in. intros v Hv. apply H in Hv. rewrite (nth_map_in _ _ _ _ v 0) by (rewrite seq_length; auto). rewrite seq_nth by auto. auto.
Qed.
Lemma fval_fine : forall f, f < m -> fine (fval f).
Proof.
  intros f H x X. unfold MpState.fval. rewrite <- at_vars_map by (apply (vars_lt T OP g WF)). unfold MpState.vars. unfold fin_gmv in FG. rewrite Forall_forall in FG. apply FG; [apply nth_In; auto|apply okl_labeling; auto].
Qed.
Lemma fval_only : forall f, only (fun u => In u (vars f)) (fval f).
Proof. intros f x y E. unfold MpState.fval. f_equal. apply map_ext_in. auto. Qed.
Definition fprod (fs : list nat) (x : nat -> nat) : T := oprod (map (fun f => fval f x) fs).
Lemma fprod_fine : forall fs, (forall f, In f fs -> f < m) -> fine (fprod fs).
Proof. intros fs H x X. apply (oprod_fin T fin OP ACC SL). apply Forall_forall. intros t Ht. apply in_map_iff in Ht. destruct Ht as (f & <- & Hf). apply fval_fine; auto. Qed.
Lemma fprod_only : forall fs, only (fun u => exists f, In f fs /\ In u (vars f)) (fprod fs).
Proof. intros fs x y E. unfold fprod. f_equal. apply map_ext_in. intros f Hf. apply fval_only. intros u Hu. apply E. eauto. Qed.
Lemma fprod_app : forall fs hs x, okl x -> (forall f, In f fs -> f < m) -> (forall f, In f hs -> f < m) -> fprod (fs ++ hs) x = op (fprod fs x) (fprod hs x).
Proof.
  intros fs hs x X H H'. unfold fprod. rewrite map_app. apply (oprod_app T fin OP ACC SL); apply Forall_forall; intros t Ht; apply in_map_iff in Ht; destruct Ht as (f & <- & Hf); apply fval_fine; auto.
Qed.
Lemma fprod_concat : forall fss x, okl x -> (forall fs f, In fs fss -> In f fs -> f < m) -> fprod (concat fss) x = oprod (map (fun fs => fprod fs x) fss).
Proof.
  induction fss as [|fs fss IH]; intros x X H; cbn [concat map MpSum.oprod fold_right]; auto. rewrite fprod_app; auto.
  - f_equal. apply IH; auto. intros hs f Hh. apply H. right. auto.
  - intros f. apply H. left. auto.
  - intros f Hf. apply in_concat in Hf. destruct Hf as (hs & Hh & Hf). apply (H hs f); auto. right. auto.
Qed.
Lemma fprod_set : forall fs hs x, okl x -> NoDup fs -> NoDup hs -> (forall f, In f fs <-> In f hs) -> (forall f, In f fs -> f < m) -> fprod fs x = fprod hs x.
Proof.
  intros fs hs x X N N' H I. unfold fprod. apply (oprod_perm T fin OP ACC SL).
  - apply Permutation_map. apply NoDup_Permutation; auto.
  - apply Forall_forall. intros t Ht. apply in_map_iff in Ht. destruct Ht as (f & <- & Hf). apply fval_fine; auto.
Qed.
Lemma value_fprod : forall x, okl x -> value_at OP g x = fprod (seq 0 m) x.
Proof.
  intros x X. unfold value_at, total.
  assert (E : map (fun f => fval f x) (seq 0 m) = map (fun fc => snd fc (at_vars (map x (seq 0 n)) (fst fc))) (v_factors g)).
  { rewrite <- (map_seq_nth _ (v_factors g) ([], fun _ => one)) at 2. rewrite map_map. apply map_ext_in. intros f Hf. rewrite at_vars_map by (apply (vars_lt T OP g WF f)). reflexivity. }
  unfold fprod. rewrite E. assert (F : Forall fin (map (fun fc => snd fc (at_vars (map x (seq 0 n)) (fst fc))) (v_factors g))).
  { rewrite <- E. apply Forall_forall. intros t Ht. apply in_map_iff in Ht. destruct Ht as (f & <- & Hf). apply in_seq in Hf. apply fval_fine; auto. lia. }
  assert (G : forall l a, fin a -> Forall fin (map (fun fc => snd fc (at_vars (map x (seq 0 n)) (fst fc))) l) ->
    fold_left (fun acc fc => op (snd fc (at_vars (map x (seq 0 n)) (fst fc))) acc) l a = op (oprod (map (fun fc : list nat * (list nat -> T) => snd fc (at_vars (map x (seq 0 n)) (fst fc))) l)) a).
  { induction l as [|fc l IH]; intros a A F0; cbn [fold_left map MpSum.oprod fold_right]; [symmetry; apply (sl_unit _ _ _ SL); auto|]. cbn [map] in F0. inversion F0 as [|? ? ? H2]; subst. fold (oprod (map (fun fc : list nat * (list nat -> T) => snd fc (at_vars (map x (seq 0 n)) (fst fc))) l)).
    pose proof (oprod_fin T fin OP ACC SL _ H2) as OF. rewrite IH by (auto; apply (sl_op _ _ _ SL); auto). rewrite (sl_assoc _ _ _ SL) by auto. f_equal. apply (sl_comm _ _ _ SL); auto. }
  rewrite G; [apply (unit_r T fin OP ACC SL); apply (oprod_fin T fin OP ACC SL)|apply (sl_neutral _ _ _ SL)|].
  all: apply Forall_forall; intros t Ht; apply in_map_iff in Ht; destruct Ht as (fc & <- & Hf); unfold fin_gmv in FG; rewrite Forall_forall in FG; apply FG; auto; apply okl_labeling; auto.
Qed.

(** ** The graph *)
Notation E := (edge (fgraph_of T g)).
Lemma E_iff : forall v f, E (NV v) (NF f) <-> f < m /\ In v (vars f).
Proof.
  intros v f. cbn [edge]. unfold incident, fgraph_of. cbn [g_fac]. split.
  - intros (vs & Hn & Hv). rewrite nth_error_map in Hn. destruct (Nat.lt_ge_cases f m) as [H|H]; [|apply nth_error_None in H; rewrite H in Hn; discriminate].
    rewrite (fac_nth T OP g f H) in Hn. injection Hn as <-. auto.
  - intros [H Hv]. exists (vars f). split; auto. rewrite nth_error_map, (fac_nth T OP g f H). reflexivity.
Qed.
Lemma E_iff' : forall v f, E (NF f) (NV v) <-> f < m /\ In v (vars f).
Proof. intros v f. rewrite <- E_iff. split; apply edge_sym. Qed.
Lemma E_valid : forall a b, E a b -> In a (map NV (seq 0 n) ++ map NF (seq 0 m)).
Proof.
  intros [v|f] [v'|f'] H; try (destruct H; fail); apply in_app_iff.
  - apply E_iff in H. destruct H as [H1 H2]. left. apply in_map. apply in_seq. apply (vars_lt T OP g WF) in H2. lia.
  - apply E_iff' in H. destruct H as [H1 H2]. right. apply in_map. apply in_seq. lia.
Qed.
Lemma E_sym : forall a b, E a b -> E b a.
Proof. apply edge_sym. Qed.
Lemma E_irr : forall a, ~ E a a.
Proof. apply edge_irrefl. Qed.
Hypothesis AC : acyclic g.
Notation sd := (side node E).
Definition no_ret := no_return node node_dec E E_sym E_irr AC.
Definition sd_disj := side_disjoint node node_dec E E_sym E_irr AC.
Definition sd_sub := side_sub node node_dec E E_sym E_irr AC.
Definition sd_cases := side_cases node node_dec E E_sym E_irr AC.

(** The variables of a factor behind factor h, seen from variable v. *)
Lemma closed_F : forall h v f' u, E (NF h) (NV v) -> sd (NF h) (NV v) (NF f') -> f' < m -> In u (vars f') -> u = v \/ sd (NF h) (NV v) (NV u).
Proof.
  intros h v f' u Eh S Hf Hu. destruct (Nat.eq_dec u v) as [->|N]; auto. right. eapply side_step; [exact S|]. split; [apply E_iff'; auto|]. split; intros [A B]; [injection B as ->; auto|discriminate].
Qed.
Lemma closed_V : forall v f f' u, E (NV v) (NF f) -> sd (NV v) (NF f) (NF f') -> f' < m -> In u (vars f') -> sd (NV v) (NF f) (NV u).
Proof.
  intros v f f' u Eh S Hf Hu. eapply side_step; [exact S|]. split; [apply E_iff'; auto|]. split; intros [A B]; [discriminate|]. injection A as ->. apply (no_ret (NV v) (NF f)); auto.
Qed.

(** The admissible constants. *)
Variable K : T -> Prop.
Hypothesis K_one : K one.
Hypothesis K_op : forall a b, K a -> K b -> K (op a b).
Hypothesis K_fin : forall a, K a -> fin a.

Definition vset (P : node -> Prop) (vs : list nat) : Prop := NoDup vs /\ forall u, In u vs <-> u < n /\ P (NV u).
Definition fset (P : node -> Prop) (fs : list nat) : Prop := NoDup fs /\ forall h, In h fs <-> h < m /\ P (NF h).
(** The message from variable v to factor f: the sum over everything on the side of v. *)
Definition vmsg (v f : nat) (a : list T) : Prop :=
  length a = nl v /\ exists k vs fs, K k /\ vset (fun x => x <> NV v /\ sd (NV v) (NF f) x) vs /\ fset (sd (NV v) (NF f)) fs /\
    forall x, okl x -> nth (x v) a one = op k (msum vs (fprod fs) x).
Definition fmsg (f v : nat) (a : list T) : Prop :=
  length a = nl v /\ exists k vs fs, K k /\ vset (sd (NF f) (NV v)) vs /\ fset (sd (NF f) (NV v)) fs /\
    forall x, okl x -> nth (x v) a one = op k (msum vs (fprod fs) x).

Lemma okl_0 : okl (fun _ => 0).
Proof. intros v H. apply (nl_pos T g POS); auto. Qed.
Lemma msum_fine : forall vs fs, inside vs -> (forall f, In f fs -> f < m) -> fine (msum vs (fprod fs)).
Proof. intros vs fs I H. apply (msum_fin T fin OP ACC SL g POS); auto. apply fprod_fine. auto. Qed.
Lemma fset_lt : forall P fs, fset P fs -> forall f, In f fs -> f < m.
Proof. intros P fs [_ H] f Hf. apply H in Hf. apply Hf. Qed.
Lemma vset_in : forall P vs, vset P vs -> inside vs.
Proof. intros P vs [_ H] f Hf. apply H in Hf. apply Hf. Qed.
Lemma vmsg_fin : forall v f a l, v < n -> vmsg v f a -> l < nl v -> fin (nth l a one).
Proof.
  intros v f a l Hv (_ & k & vs & fs & HK & HV & HF & H) L. specialize (H (set (fun _ => 0) v l) (okl_set T g _ v l okl_0 L)). unfold MpSum.set at 1 in H. rewrite Nat.eqb_refl in H. rewrite H.
  apply (sl_op _ _ _ SL); auto. apply msum_fine; [eapply vset_in; eauto|eapply fset_lt; eauto|apply okl_set; auto; apply okl_0].
Qed.
Lemma fmsg_fin : forall v f a l, v < n -> fmsg f v a -> l < nl v -> fin (nth l a one).
Proof.
  intros v f a l Hv (_ & k & vs & fs & HK & HV & HF & H) L. specialize (H (set (fun _ => 0) v l) (okl_set T g _ v l okl_0 L)). unfold MpSum.set at 1 in H. rewrite Nat.eqb_refl in H. rewrite H.
  apply (sl_op _ _ _ SL); auto. apply msum_fine; [eapply vset_in; eauto|eapply fset_lt; eauto|apply okl_set; auto; apply okl_0].
Qed.

Lemma combine_two : forall k k' vs ws fs hs S S' x, K k -> K k' -> okl x -> inside vs -> inside ws -> (forall f, In f fs -> f < m) -> (forall f, In f hs -> f < m) ->
  only S (fprod fs) -> only S' (fprod hs) -> (forall u, S u -> ~ In u ws) -> (forall u, S' u -> ~ In u vs) ->
  op (op k (msum vs (fprod fs) x)) (op k' (msum ws (fprod hs) x)) = op (op k k') (msum (vs ++ ws) (fprod (fs ++ hs)) x).
Proof.
  intros k k' vs ws fs hs S S' x HK HK' X I I' H H' O O' D D'. rewrite (op4 T fin OP ACC SL) by (auto; apply msum_fine; auto). f_equal.
  rewrite (msum_prod T fin OP ACC SL g POS vs ws S S') by (auto; apply fprod_fine; auto). apply (msum_ext T ACC g); auto.
  - intros u Hu. apply in_app_iff in Hu. destruct Hu; auto.
  - intros y Y. symmetry. apply fprod_app; auto.
Qed.

(** The product of the messages of several factors to a variable. *)
Lemma join_v : forall v (M : nat -> list T) hs, v < n -> NoDup hs -> (forall h, In h hs -> In h (facs v) /\ fmsg h v (M h)) ->
  exists k vs fs, K k /\ vset (fun x => exists h, In h hs /\ sd (NF h) (NV v) x) vs /\ fset (fun x => exists h, In h hs /\ sd (NF h) (NV v) x) fs /\
    forall x, okl x -> oprod (map (fun h => nth (x v) (M h) one) hs) = op k (msum vs (fprod fs) x).
Proof.
  intros v M hs Hv. induction hs as [|h hs IH]; intros N H.
  - exists one, [], []. split; auto. split; [split; [constructor|]; intros u; cbn [In]; split; [tauto|intros (_ & h & [] & _)]|].
    split; [split; [constructor|]; intros u; cbn [In]; split; [tauto|intros (_ & h & [] & _)]|]. intros x X. cbn. symmetry. apply (sl_unit _ _ _ SL). apply (sl_neutral _ _ _ SL).
  - inversion N; subst. destruct IH as (k' & ws & gs & HK' & HV' & HF' & HM'); auto; [intros; apply H; right; auto|].
    destruct (H h (or_introl eq_refl)) as (Hh & (Lh & k & vs & fs & HK & HV & HF & HM)).
    pose proof (proj1 (facs_in T OP g v h) Hh) as Eh. apply E_iff in Eh.
    assert (Eo : forall h', In h' hs -> E (NV v) (NF h')) by (intros h' Hh'; apply E_iff, (facs_in T OP g); apply H; right; auto).
    assert (DV : forall u, sd (NF h) (NV v) u -> (exists h', In h' hs /\ sd (NF h') (NV v) u) -> False).
    { intros u S (h' & Ih' & S'). apply (sd_disj (NV v) (NF h) (NF h') u); auto. intros X. injection X as ->. auto. }
    assert (NB : forall h', E (NV v) (NF h') -> ~ sd (NF h') (NV v) (NV v)) by (intros h' Eh'; apply (no_ret (NF h') (NV v)); apply E_sym; auto).
    exists (op k k'), (vs ++ ws), (fs ++ gs). split; auto. split; [|split].
    + split; [apply NoDup_app_intro; [apply HV|apply HV'|]; intros u U1 U2; apply HV in U1; apply HV' in U2; apply (DV (NV u)); [apply U1|apply U2]|].
      intros u. rewrite in_app_iff. rewrite (proj2 HV u), (proj2 HV' u). split.
      * intros [[A B]|[A (h' & B & C)]]; split; auto; [exists h; split; [left|]; auto|exists h'; split; [right|]; auto].
      * intros [A (h' & [<-|B] & C)]; [left|right]; eauto.
    + split; [apply NoDup_app_intro; [apply HF|apply HF'|]; intros u U1 U2; apply HF in U1; apply HF' in U2; apply (DV (NF u)); [apply U1|apply U2]|].
      intros u. rewrite in_app_iff. rewrite (proj2 HF u), (proj2 HF' u). split.
      * intros [[A B]|[A (h' & B & C)]]; split; auto; [exists h; split; [left|]; auto|exists h'; split; [right|]; auto].
      * intros [A (h' & [<-|B] & C)]; [left|right]; eauto.
    + intros x X. cbn [map MpSum.oprod fold_right]. fold (oprod (map (fun h => nth (x v) (M h) one) hs)). rewrite HM, HM' by auto.
      apply (combine_two k k' vs ws fs gs (fun u => u = v \/ sd (NF h) (NV v) (NV u)) (fun u => u = v \/ exists h', In h' hs /\ sd (NF h') (NV v) (NV u))); auto; try (eapply vset_in; eauto; fail); try (eapply fset_lt; eauto; fail).
      * eapply only_mono; [|apply fprod_only]. intros u (f' & Hf' & Hu). apply HF in Hf'. apply (closed_F h v f' u); auto; try apply Hf'; auto.
      * eapply only_mono; [|apply fprod_only]. intros u (f' & Hf' & Hu). apply HF' in Hf'. destruct Hf' as (Hm & h' & Ih' & S'). destruct (closed_F h' v f' u) as [->|S2]; auto; [apply E_sym; auto|right; eauto].
      * intros u [->|S] Hu; apply HV' in Hu; destruct Hu as (_ & h' & Ih' & S'); [apply (NB h'); auto|apply (DV (NV u)); eauto].
      * intros u [->|S] Hu; apply HV in Hu; destruct Hu as (_ & S'); [apply (NB h); auto|apply (DV (NV u)); eauto].
Qed.
Lemma vmsg_step : forall v f (M : nat -> list T) a, v < n -> In f (facs v) -> length a = nl v ->
  (forall h, In h (facs v) -> h <> f -> fmsg h v (M h)) ->
  (forall l, l < nl v -> nth l a one = oprod (map (fun h => nth l (M h) one) (filter (fun z => negb (z =? f)) (facs v)))) -> vmsg v f a.
Proof.
  intros v f M a Hv Hf La HM HA. split; auto.
  assert (FI : forall h, In h (filter (fun z => negb (z =? f)) (facs v)) <-> In h (facs v) /\ h <> f).
  { intros h. rewrite filter_In. destruct (Nat.eqb_spec h f); cbn [negb]; intuition congruence. }
  destruct (join_v v M (filter (fun z => negb (z =? f)) (facs v))) as (k & vs & fs & HK & HV & HF & H); auto.
  { apply NoDup_filter. apply facs_nodup. } { intros h Hh. apply FI in Hh. split; [apply Hh|]. apply HM; apply Hh. }
  assert (Ef : E (NV v) (NF f)) by (apply E_iff, (facs_in T OP g); auto).
  assert (IFF : forall x, (x <> NV v /\ sd (NV v) (NF f) x) <-> (exists h, In h (filter (fun z => negb (z =? f)) (facs v)) /\ sd (NF h) (NV v) x)).
  { intros x. split.
    - intros [NX S]. destruct (sd_cases _ _ _ Ef S) as [->|([u|h] & Eh & NE & S')]; [congruence|destruct Eh|]. exists h. split; auto. apply FI. split; [apply (facs_in T OP g), E_iff; auto|congruence].
    - intros (h & Hh & S). apply FI in Hh. destruct Hh as [Hh NE]. apply (facs_in T OP g), E_iff in Hh. split; [intros ->; apply (no_ret (NF h) (NV v)); auto; apply E_sym; auto|].
      apply (sd_sub (NV v) (NF f) (NF h)); auto. congruence. }
  exists k, vs, fs. split; auto. split; [|split].
  - split; [apply HV|]. intros u. rewrite (proj2 HV u), <- IFF. tauto.
  - split; [apply HF|]. intros u. rewrite (proj2 HF u), <- IFF. split; [tauto|]. intros [A B]. split; auto. split; [discriminate|auto].
  - intros x X. rewrite HA by (apply X; auto). auto.
Qed.

(** The product of the messages of several variables to a factor. *)
Lemma join_f : forall f (M : nat -> list T) us, f < m -> NoDup us -> (forall u, In u us -> In u (vars f) /\ vmsg u f (M u)) ->
  exists k vs fs, K k /\ vset (fun x => exists u, In u us /\ x <> NV u /\ sd (NV u) (NF f) x) vs /\ fset (fun x => exists u, In u us /\ sd (NV u) (NF f) x) fs /\
    forall x, okl x -> oprod (map (fun u => nth (x u) (M u) one) us) = op k (msum vs (fprod fs) x).
Proof.
  intros f M us Hf. induction us as [|h hs IH]; intros N H.
  - exists one, [], []. split; auto. split; [split; [constructor|]; intros u; cbn [In]; split; [tauto|intros (_ & h & [] & _)]|].
    split; [split; [constructor|]; intros u; cbn [In]; split; [tauto|intros (_ & h & [] & _)]|]. intros x X. cbn. symmetry. apply (sl_unit _ _ _ SL). apply (sl_neutral _ _ _ SL).
  - inversion N; subst. destruct IH as (k' & ws & gs & HK' & HV' & HF' & HM'); auto; [intros; apply H; right; auto|].
    destruct (H h (or_introl eq_refl)) as (Hh & (Lh & k & vs & fs & HK & HV & HF & HM)).
    assert (Eh : E (NV h) (NF f)) by (apply E_iff; auto).
    assert (Eo : forall h', In h' hs -> E (NV h') (NF f)) by (intros h' Hh'; apply E_iff; split; auto; apply H; right; auto).
    assert (DV : forall u, sd (NV h) (NF f) u -> (exists h', In h' hs /\ sd (NV h') (NF f) u) -> False).
    { intros u S (h' & Ih' & S'). apply (sd_disj (NF f) (NV h) (NV h') u); auto; try (apply E_sym; auto). intros X. injection X as ->. auto. }
    exists (op k k'), (vs ++ ws), (fs ++ gs). split; auto. split; [|split].
    + split; [apply NoDup_app_intro; [apply HV|apply HV'|]; intros u U1 U2; apply HV in U1; apply HV' in U2; destruct U2 as (_ & h' & A & B & C); apply (DV (NV u)); [apply U1|eauto]|].
      intros u. rewrite in_app_iff. rewrite (proj2 HV u), (proj2 HV' u). split.
      * intros [[A B]|[A (h' & B & C)]]; split; auto; [exists h; split; [left|]; auto|exists h'; split; [right|]; auto].
      * intros [A (h' & [<-|B] & C)]; [left|right]; eauto.
    + split; [apply NoDup_app_intro; [apply HF|apply HF'|]; intros u U1 U2; apply HF in U1; apply HF' in U2; apply (DV (NF u)); [apply U1|apply U2]|].
      intros u. rewrite in_app_iff. rewrite (proj2 HF u), (proj2 HF' u). split.
      * intros [[A B]|[A (h' & B & C)]]; split; auto; [exists h; split; [left|]; auto|exists h'; split; [right|]; auto].
      * intros [A (h' & [<-|B] & C)]; [left|right]; eauto.
    + intros x X. cbn [map MpSum.oprod fold_right]. fold (oprod (map (fun h => nth (x h) (M h) one) hs)). rewrite HM, HM' by auto.
      apply (combine_two k k' vs ws fs gs (fun u => sd (NV h) (NF f) (NV u)) (fun u => exists h', In h' hs /\ sd (NV h') (NF f) (NV u))); auto; try (eapply vset_in; eauto; fail); try (eapply fset_lt; eauto; fail).
      * eapply only_mono; [|apply fprod_only]. intros u (f' & Hf' & Hu). apply HF in Hf'. apply (closed_V h f f' u); auto; apply Hf'.
      * eapply only_mono; [|apply fprod_only]. intros u (f' & Hf' & Hu). apply HF' in Hf'. destruct Hf' as (Hm & h' & Ih' & S'). exists h'. split; auto. apply (closed_V h' f f' u); auto.
      * intros u S Hu; apply HV' in Hu; destruct Hu as (_ & h' & Ih' & _ & S'). apply (DV (NV u)); eauto.
      * intros u (h' & Ih' & S) Hu; apply HV in Hu; destruct Hu as (_ & _ & S'). apply (DV (NV u)); eauto.
Qed.
(** The same with the factor itself. *)
Lemma join_f2 : forall f (M : nat -> list T) us, f < m -> NoDup us -> (forall u, In u us -> In u (vars f) /\ vmsg u f (M u)) ->
  exists k vs fs, K k /\ vset (fun x => exists u, In u us /\ x <> NV u /\ sd (NV u) (NF f) x) vs /\ fset (fun x => x = NF f \/ exists u, In u us /\ sd (NV u) (NF f) x) fs /\
    forall x, okl x -> op (fval f x) (oprod (map (fun u => nth (x u) (M u) one) us)) = op k (msum vs (fprod fs) x).
Proof.
  intros f M us Hf N H. destruct (join_f f M us Hf N H) as (k & vs & fs & HK & HV & HF & HM).
  assert (Eu : forall u, In u us -> E (NV u) (NF f)) by (intros u Hu; apply E_iff; split; auto; apply H; auto).
  exists k, vs, (f :: fs). split; auto. split; auto. split.
  - split.
    + constructor; [|apply HF]. intros Hi. apply HF in Hi. destruct Hi as (_ & u & Hu & S). apply (no_ret (NV u) (NF f)); auto.
    + intros h. cbn [In]. rewrite (proj2 HF h). split; [intros [<-|[A B]]; auto|]. intros [A [B|B]]; [injection B as ->; auto|auto].
  - intros x X. rewrite HM by auto. rewrite (sl_assoc _ _ _ SL); [|apply fval_fine; auto|auto|apply msum_fine; auto; [eapply vset_in; eauto|eapply fset_lt; eauto]].
    rewrite (sl_comm _ _ _ SL (fval f x)); [|apply fval_fine; auto|auto]. rewrite <- (sl_assoc _ _ _ SL); [|auto|apply fval_fine; auto|apply msum_fine; auto; [eapply vset_in; eauto|eapply fset_lt; eauto]].
    f_equal. rewrite (msum_dist_fun T fin OP ACC SL g POS vs (fun u => In u (vars f)) (fprod fs) (fval f) x); auto; try apply fval_only.
    + apply fprod_fine. eapply fset_lt; eauto.
    + apply fval_fine; auto.
    + eapply vset_in; eauto.
    + intros w Hw Hi. apply HV in Hi. destruct Hi as (_ & u & Hu & NE & S). apply (sd_disj (NF f) (NV u) (NV w) (NV w)); auto; try (apply E_sym; auto).
      * apply E_iff. auto.
      * apply side_self.
Qed.
Lemma fmsg_step : forall f v (M : nat -> list T) a, f < m -> In v (vars f) -> length a = nl v ->
  (forall u, In u (vars f) -> u <> v -> vmsg u f (M u)) ->
  (forall x, okl x -> nth (x v) a one = msum (filter (fun z => negb (z =? v)) (vars f)) (fun y => op (fval f y) (oprod (map (fun u => nth (y u) (M u) one) (filter (fun z => negb (z =? v)) (vars f))))) x) ->
  fmsg f v a.
Proof.
  intros f v M a Hf Hv La HM HA. split; auto. set (us := filter (fun z => negb (z =? v)) (vars f)) in *.
  assert (FI : forall u, In u us <-> In u (vars f) /\ u <> v).
  { intros h. unfold us. rewrite filter_In. destruct (Nat.eqb_spec h v); cbn [negb]; intuition congruence. }
  assert (NU : NoDup us) by (apply NoDup_filter; apply (vars_nodup T OP g WF)).
  destruct (join_f2 f M us Hf NU) as (k & vs & fs & HK & HV & HF & H). { intros u Hu. apply FI in Hu. split; [apply Hu|]. apply HM; apply Hu. }
  assert (Ef : E (NF f) (NV v)) by (apply E_iff'; auto).
  assert (Eu : forall u, In u us -> E (NV u) (NF f)) by (intros u Hu; apply E_iff; split; auto; apply FI; auto).
  assert (IFF : forall x, sd (NF f) (NV v) x <-> x = NF f \/ exists u, In u us /\ sd (NV u) (NF f) x).
  { intros x. split.
    - intros S. destruct (sd_cases _ _ _ Ef S) as [->|([u|h] & Eh & NE & S')]; auto; [|destruct Eh]. right. exists u. split; auto. apply FI. split; [apply E_iff' in Eh; apply Eh|congruence].
    - intros [->|(u & Hu & S)]; [apply side_self|]. apply (sd_sub (NF f) (NV v) (NV u)); auto; [apply E_sym; auto|]. apply FI in Hu. intros X. injection X as ->. tauto. }
  assert (IU : inside us) by (intros u Hu; apply FI in Hu; apply (vars_lt T OP g WF f); apply Hu).
  exists k, (us ++ vs), fs. split; auto. split; [|split].
  - split.
    + apply NoDup_app_intro; auto; [apply HV|]. intros w Hw Hi. apply HV in Hi. destruct Hi as (_ & u & Hu & NE & S).
      apply (sd_disj (NF f) (NV u) (NV w) (NV w)); auto; try (apply E_sym; auto). apply side_self.
    + intros w. rewrite in_app_iff, (proj2 HV w), IFF. split.
      * intros [A|(A & u & Hu & NE & S)]; [split; [apply IU; auto|]; right; exists w; split; auto; apply side_self|split; auto; right; eauto].
      * intros [A [B|(u & Hu & S)]]; [discriminate|]. destruct (Nat.eq_dec w u) as [->|NE]; auto. right. split; auto. exists u. split; auto. split; auto. congruence.
  - split; [apply HF|]. intros h. rewrite (proj2 HF h), IFF. tauto.
  - intros x X. rewrite HA by auto. rewrite (msum_ext T ACC g us _ (fun y => op k (msum vs (fprod fs) y)) x); auto. rewrite <- (msum_dist T fin OP ACC SL g POS); auto.
    + f_equal. symmetry. apply msum_app.
    + apply msum_fine; [eapply vset_in; eauto|eapply fset_lt; eauto].
Qed.

(** ** Marginals *)
Lemma value_ext : ext_at T (value_at OP g).
Proof. intros x y H. unfold value_at. f_equal. apply map_ext. auto. Qed.
Lemma value_fine : fine (value_at OP g).
Proof. intros x X. rewrite value_fprod by auto. apply fprod_fine; auto. intros f Hf. apply in_seq in Hf. lia. Qed.
Lemma existsb_in : forall v l, existsb (Nat.eqb v) l = true <-> In v l.
Proof. intros v l. rewrite existsb_exists. split; [intros (u & H & E0); apply Nat.eqb_eq in E0; subst; auto|]. intros H. exists v. split; auto. apply Nat.eqb_refl. Qed.
Lemma outside_in : forall S u, In u (outside g S) <-> u < n /\ ~ In u S.
Proof.
  intros S u. unfold outside. rewrite filter_In, in_seq, negb_true_iff. rewrite <- existsb_in. destruct (existsb (Nat.eqb u) S); intuition (try congruence; lia).
Qed.
Lemma marginal_msum : forall S x, okl x -> marginal_of OP ACC g S x = msum (outside g S) (value_at OP g) x.
Proof.
  intros S x X. unfold marginal_of. symmetry. apply (msum_values T fin OP ACC SL g POS); auto.
  - apply NoDup_filter. apply seq_NoDup.
  - intros u Hu. apply outside_in in Hu. apply Hu.
  - apply value_fine.
  - apply value_ext.
Qed.
Lemma marginal_split : forall S vs fs, NoDup vs -> NoDup fs -> inside vs -> (forall f, In f fs -> f < m) -> (forall u, In u S -> ~ In u vs) ->
  (forall f u, In f fs -> In u (vars f) -> In u S \/ In u vs) -> (forall f u, f < m -> ~ In f fs -> In u (vars f) -> ~ In u S /\ ~ In u vs) ->
  exists C, fin C /\ (forall x, okl x -> marginal_of OP ACC g S x = op C (msum vs (fprod fs) x)) /\
    ((forall u, u < n -> In u S \/ In u vs) -> (forall f, f < m -> In f fs) -> C = one).
Proof.
  intros S vs fs NV NF I IF DS CL CO.
  set (rest := filter (fun u => negb (existsb (Nat.eqb u) vs)) (outside g S)). set (hs := filter (fun f => negb (existsb (Nat.eqb f) fs)) (seq 0 m)).
  assert (RI : forall u, In u rest <-> u < n /\ ~ In u S /\ ~ In u vs).
  { intros u. unfold rest. rewrite filter_In, outside_in, negb_true_iff, <- (existsb_in u vs). destruct (existsb (Nat.eqb u) vs); intuition congruence. }
  assert (HI : forall f, In f hs <-> f < m /\ ~ In f fs).
  { intros u. unfold hs. rewrite filter_In, in_seq, negb_true_iff, <- (existsb_in u fs). destruct (existsb (Nat.eqb u) fs); intuition (try congruence; lia). }
  assert (NR : NoDup rest) by (apply NoDup_filter; apply NoDup_filter; apply seq_NoDup). assert (NH : NoDup hs) by (apply NoDup_filter; apply seq_NoDup).
  assert (IR : inside rest) by (intros u Hu; apply RI in Hu; apply Hu). assert (IH : forall f, In f hs -> f < m) by (intros f Hf; apply HI in Hf; apply Hf).
  assert (CN : forall x y, msum rest (fprod hs) x = msum rest (fprod hs) y).
  { intros x y. apply (msum_only T ACC g rest _ _ (fprod_only hs)). intros u [(f & Hf & Hu) NI]. exfalso. apply NI. apply HI in Hf. apply RI. split; [eapply (vars_lt T OP g WF); eauto|]. apply (CO f u); auto; apply Hf. }
  exists (msum rest (fprod hs) (fun _ => 0)). split; [apply msum_fine; auto; apply okl_0|]. split.
  - intros x X. rewrite marginal_msum by auto. rewrite (sl_comm _ _ _ SL) by (apply msum_fine; auto; apply okl_0). rewrite <- (CN x).
    rewrite (msum_prod T fin OP ACC SL g POS vs rest (fun u => In u S \/ In u vs) (fun u => In u rest)); auto; try (apply fprod_fine; auto; fail).
    + rewrite (msum_set T fin OP ACC SL g POS (outside g S) (vs ++ rest)); auto.
      * apply (msum_ext T ACC g); auto; [intros u Hu; apply in_app_iff in Hu; destruct Hu; auto|]. intros y Y. rewrite value_fprod by auto. rewrite <- fprod_app by auto. apply fprod_set; auto.
        -- apply seq_NoDup.
        -- apply NoDup_app_intro; auto. intros f F1 F2. apply HI in F2. tauto.
        -- intros f. rewrite in_app_iff, HI, in_seq. split; [|intros [A|A]; [apply IF in A; lia|lia]]. intros A. destruct (in_dec Nat.eq_dec f fs); auto. right. split; auto. lia.
        -- intros f Hf. apply in_seq in Hf. lia.
      * apply NoDup_filter. apply seq_NoDup.
      * apply NoDup_app_intro; auto. intros u U1 U2. apply RI in U2. tauto.
      * intros u. rewrite in_app_iff, RI, outside_in. split; [|intros [A|A]; [split; [apply I; auto|]; intros B; apply (DS u); auto|tauto]]. intros [A B]. destruct (in_dec Nat.eq_dec u vs); auto.
      * intros u Hu. apply outside_in in Hu. apply Hu.
      * apply value_fine.
      * apply value_ext.
    + eapply only_mono; [|apply fprod_only]. intros u (f & Hf & Hu). eapply CL; eauto.
    + eapply only_mono; [|apply fprod_only]. intros u (f & Hf & Hu). apply HI in Hf. apply RI. split; [eapply (vars_lt T OP g WF); eauto|]. apply (CO f u); auto; apply Hf.
    + intros u A B. apply RI in B. tauto.
    + intros u A. apply RI in A. tauto.
  - intros A B. assert (R0 : rest = []). { destruct rest as [|u r]; auto. exfalso. destruct (proj1 (RI u) (or_introl eq_refl)) as (C1 & C2 & C3). destruct (A u C1); auto. }
    assert (H0 : hs = []). { destruct hs as [|u r]; auto. exfalso. destruct (proj1 (HI u) (or_introl eq_refl)) as (C1 & C2). auto. }
    rewrite R0, H0. reflexivity.
Qed.

Notation conn := (clos_refl_trans node E).
Lemma conn_iff : forall a x, conn a x <-> x = a \/ exists c, E a c /\ sd c a x.
Proof. apply (conn_cases node node_dec E E_sym E_irr AC). Qed.
Lemma conn_vars : forall a f u, conn a (NF f) -> f < m -> In u (vars f) -> conn a (NV u).
Proof. intros a f u C Hf Hu. eapply rt_trans; [exact C|]. apply rt_step. apply E_iff'. auto. Qed.
Lemma conn_facs : forall a f u, conn a (NV u) -> f < m -> In u (vars f) -> conn a (NF f).
Proof. intros a f u C Hf Hu. eapply rt_trans; [exact C|]. apply rt_step. apply E_iff. auto. Qed.

(** The product of all messages to a variable is its marginal, up to a constant. *)
Lemma variable_marginal : forall v (M : nat -> list T), v < n -> (forall h, In h (facs v) -> fmsg h v (M h)) ->
  exists k C, K k /\ fin C /\ (connected g -> C = one) /\ forall x, okl x -> exists b, fin b /\
    oprod (map (fun h => nth (x v) (M h) one) (facs v)) = op k b /\ marginal_of OP ACC g [v] x = op C b.
Proof.
  intros v M Hv HM. destruct (join_v v M (facs v)) as (k & vs & fs & HK & HV & HF & H); auto. { apply facs_nodup. }
  assert (CV : forall u, In u vs <-> u < n /\ u <> v /\ conn (NV v) (NV u)).
  { intros u. rewrite (proj2 HV u), conn_iff. split.
    - intros (A & h & Hh & S). apply (facs_in T OP g), E_iff in Hh. split; auto. split; [intros ->; apply (no_ret (NF h) (NV v)); auto; apply E_sym; auto|]. right. exists (NF h). auto.
    - intros (A & NE & [B|([w|h] & Eh & S)]); [congruence|destruct Eh|]. split; auto. exists h. split; auto. apply (facs_in T OP g), E_iff. auto. }
  assert (CF : forall f, In f fs <-> f < m /\ conn (NV v) (NF f)).
  { intros f. rewrite (proj2 HF f), conn_iff. split.
    - intros (A & h & Hh & S). apply (facs_in T OP g), E_iff in Hh. split; auto. right. exists (NF h). auto.
    - intros (A & [B|([w|h] & Eh & S)]); [congruence|destruct Eh|]. split; auto. exists h. split; auto. apply (facs_in T OP g), E_iff. auto. }
  destruct (marginal_split [v] vs fs) as (C & FC & HC & H1); auto.
  - apply HV.
  - apply HF.
  - eapply vset_in; eauto.
  - eapply fset_lt; eauto.
  - intros u [<-|[]] A. apply CV in A. tauto.
  - intros f u Hf Hu. apply CF in Hf. destruct Hf as [A B]. destruct (Nat.eq_dec u v) as [->|NE]; [left; left; auto|right]. apply CV. split; [eapply (vars_lt T OP g WF); eauto|]. split; auto. eapply conn_vars; eauto.
  - intros f u Hf NI Hu. assert (NC : ~ conn (NV v) (NV u)). { intros C0. apply NI. apply CF. split; auto. eapply conn_facs; eauto. }
    split; [intros [<-|[]]; apply NC; apply rt_refl|]. intros A. apply CV in A. tauto.
  - exists k, C. split; auto. split; auto. split.
    + intros CN. apply H1.
      * intros u Hu. destruct (Nat.eq_dec u v) as [->|NE]; [left; left; auto|right]. apply CV. split; [auto|]. split; [auto|apply (CN (NV v) (NV u)); auto].
      * intros f Hf. apply CF. split; [auto|apply (CN (NV v) (NF f)); auto].
    + intros x X. exists (msum vs (fprod fs) x). split; [apply msum_fine; auto; [eapply vset_in; eauto|eapply fset_lt; eauto]|]. auto.
Qed.
Lemma factor_marginal : forall f (M : nat -> list T), f < m -> (forall u, In u (vars f) -> vmsg u f (M u)) ->
  exists k C, K k /\ fin C /\ (connected g -> C = one) /\ forall x, okl x -> exists b, fin b /\
    op (fval f x) (oprod (map (fun u => nth (x u) (M u) one) (vars f))) = op k b /\ marginal_of OP ACC g (vars f) x = op C b.
Proof.
  intros f M Hf HM. destruct (join_f2 f M (vars f)) as (k & vs & fs & HK & HV & HF & H); auto. { apply (vars_nodup T OP g WF). }
  assert (CV : forall u, In u vs <-> u < n /\ ~ In u (vars f) /\ conn (NF f) (NV u)).
  { intros w. rewrite (proj2 HV w), conn_iff. split.
    - intros (A & u & Hu & NE & S). split; auto. split.
      + intros Hw. apply (sd_disj (NF f) (NV u) (NV w) (NV w)); auto; try (apply E_iff'; auto; fail). apply side_self.
      + right. exists (NV u). split; auto. apply E_iff'. auto.
    - intros (A & NE & [B|([w'|h] & Eh & S)]); [congruence| |destruct Eh]. split; auto. apply E_iff' in Eh. exists w'. split; [apply Eh|]. split; auto. intros X. injection X as ->. apply NE. apply Eh. }
  assert (CF : forall h, In h fs <-> h < m /\ conn (NF f) (NF h)).
  { intros h. rewrite (proj2 HF h), conn_iff. split.
    - intros (A & [B|(u & Hu & S)]); split; auto. right. exists (NV u). split; auto. apply E_iff'. auto.
    - intros (A & [B|([w'|h'] & Eh & S)]); [auto| |destruct Eh]. split; auto. right. apply E_iff' in Eh. exists w'. split; [apply Eh|auto]. }
  destruct (marginal_split (vars f) vs fs) as (C & FC & HC & H1); auto.
  - apply HV.
  - apply HF.
  - eapply vset_in; eauto.
  - eapply fset_lt; eauto.
  - intros u A B. apply CV in B. tauto.
  - intros h u Hh Hu. apply CF in Hh. destruct Hh as [A B]. destruct (in_dec Nat.eq_dec u (vars f)) as [HI|NE]; auto. right. apply CV. split; [eapply (vars_lt T OP g WF); eauto|]. split; auto. eapply conn_vars; eauto.
  - intros h u Hh NI Hu. assert (NC : ~ conn (NF f) (NV u)). { intros C0. apply NI. apply CF. split; auto. eapply conn_facs; eauto. }
    split; [intros A; apply NC; apply rt_step; apply E_iff'; auto|]. intros A. apply CV in A. tauto.
  - exists k, C. split; auto. split; auto. split.
    + intros CN. apply H1.
      * intros u Hu. destruct (in_dec Nat.eq_dec u (vars f)) as [HI|NE]; auto. right. apply CV. split; [auto|]. split; [auto|apply (CN (NF f) (NV u)); auto].
      * intros h Hh. apply CF. split; [auto|apply (CN (NF f) (NF h)); auto].
    + intros x X. exists (msum vs (fprod fs) x). split; [apply msum_fine; auto; [eapply vset_in; eauto|eapply fset_lt; eauto]|]. auto.
Qed.
End Messages.
