(** The schedule for acyclic models: it ends, and sends every message at most once. *)
From Coq Require Import Sorted Permutation Relations.
From Verif Require Import Base Values GmView GmViewSpec ShapeSpec ShapeProofs FactorOpsSpec FactorOpsProofs FactorGraphModel FactorGraphSpec FactorGraphProofs FactorGraphAcyclic MpModel MpSpec MpSum MpGraph MpState MpMessages MpSchedule.

Section Send.
Variable T : Type.
Variable OP : oper T.
Variable ACC : accum T.
Variable mult : bool.
Variable small : T -> bool.
Variable wmean : T -> T -> T -> T.
Variable nonzero : T -> bool.
Variable zero : T.
Variable g : gmv T.
Hypothesis WF : wf_gmv g.
Notation n := (length (v_labels g)).
Notation m := (length (v_factors g)).
Notation nl := (labels_at g).
Notation one := (o_neutral OP).
Notation facs := (facs_of T g).
Notation vars := (vars T OP g).
Notation bV := (bV T g).
Notation bF := (bF T OP g).
Notation ok := (ok T OP g).
Variable un : bool.
(** What is known of the messages. *)
Variables PV PF : nat -> nat -> list T -> Prop.
Hypothesis VS : forall s v i f, ok s -> v < n -> nth_error (facs v) i = Some f ->
  exists s', vhull_propagate T OP ACC mult small wmean nonzero v i zero false s = Ret s' /\ ok s' /\ same_params T s s' /\ only_F T OP g s s' f v /\
    ((forall h, In h (facs v) -> h <> f -> PF h v (current (bV s v h))) -> PV v f (current (bF s' f v))).
Hypothesis FS : forall s f i v, ok s -> f < m -> nth_error (vars f) i = Some v ->
  exists s', fhull_propagate T OP ACC mult small wmean nonzero g f i zero un s = Ret s' /\ ok s' /\ same_params T s s' /\ only_V T g s s' v f /\
    ((forall u, In u (vars f) -> u <> v -> PV u f (current (bF s f u))) -> PF f v (current (bV s' v f))).

(** ** The state while the messages are sent *)
Definition swap (p : nat * nat) : nat * nat := (snd p, fst p).
Definition ND_v : forall x, x < n -> NoDup (facs x) := fun x _ => facs_nodup T g x.
Definition ND_f : forall x, x < m -> NoDup (vars x) := fun x _ => vars_nodup T OP g WF x.
Record INV (st : sched T) (SV SF : list (nat * nat)) : Prop := {
  in_ok : ok (c_mp T st);
  in_norm : tri_bool (m_norm (c_mp T st)) = un;
  in_cv : CI n facs (c_cv T st) (c_rv T st) (map swap SF) SV;
  in_cf : CI m vars (c_cf T st) (c_rf T st) (map swap SV) SF;
  in_mv : forall v f, In (v, f) SV -> PV v f (current (bF (c_mp T st) f v));
  in_mf : forall f v, In (f, v) SF -> PF f v (current (bV (c_mp T st) v f)) }.
Lemma in_swap : forall a b l, In (a, b) (map swap l) <-> In (b, a) l.
Proof. intros a b l. rewrite in_map_iff. split; [intros ([c d] & E & H); cbn in E; injection E as <- <-; auto|]. intros H. exists (b, a). auto. Qed.

Lemma send_var_step : forall st SV SF v i rest, INV st SV SF -> c_rv T st = (v, i) :: rest ->
  exists f s cf rf, rd (facs v) i = Ret f /\ f < m /\ vhull_propagate T OP ACC mult small wmean nonzero v i zero false (c_mp T st) = Ret s /\
    notify f v (vars f) (c_cf T st) (c_rf T st) = Ret (cf, rf) /\ m_acyclic s = m_acyclic (c_mp T st) /\ m_norm s = m_norm (c_mp T st) /\
    INV (mkSched T s (c_cv T st) cf rest rf) ((v, f) :: SV) SF.
Proof.
  intros st SV SF v i rest [I1 I2 I3 I4 I5 I6] E. rewrite E in I3. destruct (ci_ok _ _ _ _ _ _ I3 v i (or_introl eq_refl)) as [Hv Hi].
  destruct (nth_error_lt _ (facs v) i Hi) as [f Ef]. assert (If : In f (facs v)) by (eapply nth_error_In; eauto). pose proof (proj1 (facs_in T OP g v f) If) as [Hf Iv].
  destruct (pop_ok n facs _ _ _ _ _ _ f I3 Ef) as (I3' & NI & RC).
  destruct (VS (c_mp T st) v i f I1 Hv Ef) as (s & Es & Ks & [Sp1 Sp2] & [OF1 OF2] & Vs).
  destruct (notify_ok m vars ND_f _ _ _ _ f v I4 Hf Iv) as (cf & rf & En & I4'). { rewrite in_swap. auto. }
  exists f, s, cf, rf. split; [apply rd_Ret; auto|]. split; auto. split; auto. split; auto. split; auto. split; auto. constructor; cbn [c_mp c_cv c_cf c_rv c_rf map]; auto; try congruence.
  - intros v' f' [H|H].
    + injection H as <- <-. apply Vs. intros h Hh NE. apply I6. apply in_swap. apply RC; auto.
    + rewrite OF2; auto.
      * destruct (ci_sent _ _ _ _ _ _ I3' v' f' (or_intror H)) as [_ X]. apply (facs_in T OP g) in X. apply X.
      * destruct (ci_sent _ _ _ _ _ _ I3' v' f' (or_intror H)) as [_ X]. apply (facs_in T OP g) in X. apply X.
      * intros X. injection X as -> ->. auto.
  - intros f' v' H. unfold MpState.bV. rewrite OF1. apply I6. auto.
Qed.

Lemma send_fac_step : forall st SV SF f i rest, INV st SV SF -> c_rf T st = (f, i) :: rest ->
  exists v s cv rv, f < m /\ rd (vars f) i = Ret v /\ fhull_propagate T OP ACC mult small wmean nonzero g f i zero un (c_mp T st) = Ret s /\
    notify v f (facs v) (c_cv T st) (c_rv T st) = Ret (cv, rv) /\ m_acyclic s = m_acyclic (c_mp T st) /\ m_norm s = m_norm (c_mp T st) /\
    INV (mkSched T s cv (c_cf T st) rv rest) SV ((f, v) :: SF).
Proof.
  intros st SV SF f i rest [I1 I2 I3 I4 I5 I6] E. rewrite E in I4. destruct (ci_ok _ _ _ _ _ _ I4 f i (or_introl eq_refl)) as [Hf Hi].
  destruct (nth_error_lt _ (vars f) i Hi) as [v Ev]. assert (Iv : In v (vars f)) by (eapply nth_error_In; eauto). assert (Hv : v < n) by (apply (vars_lt T OP g WF f); auto). assert (If : In f (facs v)) by (apply (facs_in T OP g); auto).
  destruct (pop_ok m vars _ _ _ _ _ _ v I4 Ev) as (I4' & NI & RC).
  destruct (FS (c_mp T st) f i v I1 Hf Ev) as (s & Es & Ks & [Sp1 Sp2] & [OF1 OF2] & Vs).
  destruct (notify_ok n facs ND_v _ _ _ _ v f I3 Hv If) as (cv & rv & En & I3'). { rewrite in_swap. auto. }
  exists v, s, cv, rv. split; auto. split; [apply rd_Ret; auto|]. split; auto. split; auto. split; auto. split; auto. constructor; cbn [c_mp c_cv c_cf c_rv c_rf map]; auto; try congruence.
  - intros v' f' H. unfold MpState.bF. rewrite OF1. apply I5. auto.
  - intros f' v' [H|H].
    + injection H as <- <-. apply Vs. intros u Hu NE. apply I5. apply in_swap. apply RC; auto.
    + rewrite OF2; auto.
      * destruct (ci_sent _ _ _ _ _ _ I4' f' v' (or_intror H)) as [_ X]. apply (vars_lt T OP g WF f'); auto.
      * destruct (ci_sent _ _ _ _ _ _ I4' f' v' (or_intror H)) as [X1 X]. apply (facs_in T OP g). auto.
      * intros X. injection X as -> ->. auto.
Qed.

(** ** It ends *)
Lemma edges_eq : edges T g = length (flat_map (fun f => map (pair f) (vars f)) (seq 0 m)).
Proof.
  unfold edges. transitivity (list_sum (map (fun f => length (vars f)) (seq 0 m))).
  - rewrite <- (map_seq_nth _ (v_factors g) ([], fun _ => one)) at 1. rewrite map_map. reflexivity.
  - induction (seq 0 m) as [|f l IH]; cbn [map flat_map list_sum fold_right]; auto. rewrite app_length, map_length. unfold list_sum in IH. rewrite IH. auto.
Qed.
Lemma CI_f_bound : forall cs ready recv sent, CI m vars cs ready recv sent -> length ready + length sent <= edges T g.
Proof.
  intros cs ready recv sent C. rewrite edges_eq. rewrite <- (map_length (ev vars) ready). rewrite <- app_length. apply NoDup_incl_length; [apply (ci_nodup _ _ _ _ _ _ C)|].
  intros [x y] H. assert (X : x < m /\ In y (vars x)).
  { apply in_app_iff in H. destruct H as [H|H]; [|apply (ci_sent _ _ _ _ _ _ C); auto]. apply in_map_iff in H. destruct H as ([x' i] & E & H). destruct (ci_ok _ _ _ _ _ _ C _ _ H) as [A B]. unfold ev in E. cbn [fst snd] in E. injection E as <- <-. split; auto. apply nth_In. auto. }
  apply in_flat_map. exists x. split; [apply in_seq; lia|]. apply in_map. apply X.
Qed.
Lemma CI_v_bound : forall cs ready recv sent, CI n facs cs ready recv sent -> length ready + length sent <= edges T g.
Proof.
  intros cs ready recv sent C. rewrite edges_eq. rewrite <- (map_length (ev facs) ready). rewrite <- app_length. rewrite <- (map_length swap). apply NoDup_incl_length.
  - apply FinFun.Injective_map_NoDup; [intros [a b] [c d] E; unfold swap in E; cbn [fst snd] in E; injection E as -> ->; auto|apply (ci_nodup _ _ _ _ _ _ C)].
  - intros [y x] H. apply (proj1 (in_swap _ _ _)) in H. assert (X : x < n /\ In y (facs x)).
    { apply in_app_iff in H. destruct H as [H|H]; [|apply (ci_sent _ _ _ _ _ _ C); auto]. apply in_map_iff in H. destruct H as ([x' i] & E & H). destruct (ci_ok _ _ _ _ _ _ C _ _ H) as [A B]. unfold ev in E. cbn [fst snd] in E. injection E as <- <-. split; auto. apply nth_In. auto. }
    destruct X as [X1 X2]. apply (facs_in T OP g) in X2. apply in_flat_map. exists y. split; [apply in_seq; lia|]. apply in_map. apply X2.
Qed.

Notation send_vars := (send_vars T OP ACC mult small wmean nonzero zero g).
Notation send_facs := (send_facs T OP ACC mult small wmean nonzero zero g).
Notation send_all := (send_all T OP ACC mult small wmean nonzero zero g).
Definition keeps (st st' : sched T) : Prop := m_acyclic (c_mp T st') = m_acyclic (c_mp T st) /\ m_norm (c_mp T st') = m_norm (c_mp T st).

Lemma send_vars_ok : forall fuel st SV SF, INV st SV SF -> length (c_rv T st) <= fuel ->
  exists st' SV', send_vars fuel st = Ret st' /\ INV st' SV' SF /\ keeps st st' /\ c_rv T st' = [] /\ length SV' = length (c_rv T st) + length SV /\ length (c_rf T st) <= length (c_rf T st').
Proof.
  induction fuel as [|fuel IH]; intros st SV SF I L.
  - destruct (c_rv T st) as [|p r] eqn:E; [|cbn [length] in L; lia]. exists st, SV. cbn [MpModel.send_vars]. rewrite E. split; auto. split; auto. split; [split; auto|]. split; auto.
  - cbn [MpModel.send_vars]. destruct (c_rv T st) as [|[v i] rest] eqn:E.
    + exists st, SV. split; auto. split; auto. split; [split; auto|]. split; auto.
    + destruct (send_var_step st SV SF v i rest I E) as (f & s & cf & rf & E1 & Hf & E2 & E3 & E4 & E5 & I'). rewrite E1. cbn [bind]. rewrite E2. cbn [bind]. rewrite (rd_fac T OP g f Hf). cbn [bind].
      change (fst (fac T OP g f)) with (vars f). rewrite E3. cbn [bind].
      destruct (IH _ _ _ I') as (st' & SV' & R1 & R2 & [R3 R3'] & R4 & R5 & R6). { cbn [c_rv]. cbn [length] in L. lia. }
      exists st', SV'. split; auto. split; auto. split; [split; cbn [c_mp] in *; congruence|]. split; auto. cbn [c_rv c_rf length] in *. split; [lia|].
      assert (LE : length (c_rf T st) <= length rf); [|lia]. destruct I as [_ _ _ I4 _ _]. destruct I' as [_ _ _ I4' _ _]. cbn [c_cf c_rf] in I4'. clear - E3.
      unfold notify in E3. assert (Q : forall l a b a' b', foldM (fun (st : list (list Z) * list (nat * nat)) i => y <- rd (vars f) i ;; (if negb (y =? v) then c <- rd2 (fst st) f i ;; cs <- wr2 (fst st) f i (c - 1)%Z ;;
          Ret (cs, if (c - 1 =? 0)%Z then (f, i) :: snd st else snd st) else Ret st)) l (a, b) = Ret (a', b') -> length b <= length b').
      { induction l as [|i l IH]; intros a b a' b' H; cbn [foldM] in H; [injection H as <- <-; auto|]. apply bind_inv in H. destruct H as ([a1 b1] & H1 & H2). apply IH in H2. apply bind_inv in H1. destruct H1 as (y & _ & H1).
        destruct (negb (y =? v)); [|injection H1 as <- <-; auto]. apply bind_inv in H1. destruct H1 as (c & _ & H1). apply bind_inv in H1. destruct H1 as (cs & _ & H1). injection H1 as <- <-. cbn [snd] in H2. destruct (c - 1 =? 0)%Z; cbn [length] in H2; lia. }
      eapply Q; eauto.
Qed.
Lemma send_facs_ok : forall fuel st SV SF, INV st SV SF -> length (c_rf T st) <= fuel ->
  exists st' SF', send_facs fuel st = Ret st' /\ INV st' SV SF' /\ keeps st st' /\ c_rf T st' = [] /\ length SF' = length (c_rf T st) + length SF.
Proof.
  induction fuel as [|fuel IH]; intros st SV SF I L.
  - destruct (c_rf T st) as [|p r] eqn:E; [|cbn [length] in L; lia]. exists st, SF. cbn [MpModel.send_facs]. rewrite E. split; auto. split; auto. split; [split; auto|]. split; auto.
  - cbn [MpModel.send_facs]. destruct (c_rf T st) as [|[f i] rest] eqn:E.
    + exists st, SF. split; auto. split; auto. split; [split; auto|]. split; auto.
    + destruct (send_fac_step st SV SF f i rest I E) as (v & s & cv & rv & Hf & E1 & E2 & E3 & E4 & E5 & I'). rewrite (rd_fac T OP g f Hf). cbn [bind]. change (fst (fac T OP g f)) with (vars f). rewrite E1. cbn [bind].
      rewrite (in_norm _ _ _ I), E2. cbn [bind]. rewrite E3. cbn [bind].
      destruct (IH _ _ _ I') as (st' & SF' & R1 & R2 & [R3 R3'] & R4 & R5). { cbn [c_rf]. cbn [length] in L. lia. }
      exists st', SF'. split; auto. split; auto. split; [split; cbn [c_mp] in *; congruence|]. split; auto. cbn [c_rv c_rf length] in *. lia.
Qed.
Lemma send_all_ok : forall stop fuel calls st SV SF, INV st SV SF -> edges T g + edges T g < fuel + length SV + length SF ->
  exists st' SV' SF', send_all stop (S (edges T g)) fuel calls st = Ret st' /\ INV st' SV' SF' /\ keeps st st' /\
    ((forall i, stop i = false) -> c_rv T st' = [] /\ c_rf T st' = []).
Proof.
  intros stop. induction fuel as [|fuel IH]; intros calls st SV SF I L.
  - exfalso. pose proof (CI_v_bound _ _ _ _ (in_cv _ _ _ I)). pose proof (CI_f_bound _ _ _ _ (in_cf _ _ _ I)). lia.
  - cbn [MpModel.send_all]. destruct ((length (c_rv T st) =? 0) && (length (c_rf T st) =? 0)) eqn:E0.
    + exists st, SV, SF. split; auto. split; auto. split; [split; auto|]. intros _. apply andb_true_iff in E0. rewrite !Nat.eqb_eq in E0. destruct E0 as [A B]. apply length_zero_iff_nil in A, B. auto.
    + destruct (send_vars_ok (S (edges T g)) st SV SF I) as (st1 & SV1 & E1 & I1 & [K1 K1'] & R1 & L1 & M1). { pose proof (CI_v_bound _ _ _ _ (in_cv _ _ _ I)). lia. }
      rewrite E1. cbn [bind]. destruct (send_facs_ok (S (edges T g)) st1 SV1 SF I1) as (st2 & SF2 & E2 & I2 & [K2 K2'] & R2 & L2). { pose proof (CI_f_bound _ _ _ _ (in_cf _ _ _ I1)). lia. }
      rewrite E2. cbn [bind]. destruct (stop calls) eqn:ES.
      * exists st2, SV1, SF2. split; auto. split; auto. split; [split; congruence|]. intros H. rewrite H in ES. discriminate.
      * destruct (IH (S calls) st2 SV1 SF2 I2) as (st' & SV' & SF' & E' & I' & [K3 K3'] & D').
        { rewrite andb_false_iff, !Nat.eqb_neq in E0. lia. }
        exists st', SV', SF'. split; auto. split; auto. split; [split; congruence|auto].
Qed.

(** ** All messages are sent *)
Lemma all_sent : acyclic g -> forall st SV SF, INV st SV SF -> c_rv T st = [] -> c_rf T st = [] ->
  (forall v f, v < n -> In f (facs v) -> In (v, f) SV) /\ (forall f v, f < m -> In v (vars f) -> In (f, v) SF).
Proof.
  intros AC st SV SF I RV RF. pose proof (in_cv _ _ _ I) as CV. pose proof (in_cf _ _ _ I) as CF. rewrite RV in CV. rewrite RF in CF.
  set (P := fun a b => match a, b with NV v, NF f => In (v, f) SV | NF f, NV v => In (f, v) SF | _, _ => True end).
  assert (A : forall a b, edge (fgraph_of T g) a b -> P a b).
  { apply (edge_ind node node_dec (edge (fgraph_of T g)) (E_sym T g) (E_irr T g) AC (map NV (seq 0 n) ++ map NF (seq 0 m)) (E_valid T OP g WF)).
    intros [v|f] [v'|f'] Eab H; try (destruct Eab; fail); cbn [P].
    - apply (E_iff T OP g) in Eab. destruct Eab as [Hf Iv]. assert (Hv : v < n) by (apply (vars_lt T OP g WF f'); auto). assert (If : In f' (facs v)) by (apply (facs_in T OP g); auto).
      change (In (v, f') (map (ev facs) [] ++ SV)). apply (ci_ready _ _ _ _ _ _ CV v f' Hv If). apply cnt_0. intros z Hz NE. apply in_swap.
      specialize (H (NF z)). cbn [P] in H. apply H; [apply (E_iff' T OP g), (facs_in T OP g); auto|congruence].
    - apply (E_iff' T OP g) in Eab. destruct Eab as [Hf Iv]. 
      change (In (f, v') (map (ev vars) [] ++ SF)). apply (ci_ready _ _ _ _ _ _ CF f v' Hf Iv). apply cnt_0. intros z Hz NE. apply in_swap.
      specialize (H (NV z)). cbn [P] in H. apply H; [apply (E_iff T OP g); auto|congruence]. }
  split.
  - intros v f Hv If. apply (A (NV v) (NF f)). apply (E_iff T OP g), (facs_in T OP g); auto.
  - intros f v Hf Iv. apply (A (NF f) (NV v)). apply (E_iff' T OP g); auto.
Qed.

Lemma nth_rep : forall (A : Type) (a d : A) k l, l < k -> nth l (repeat a k) d = a.
Proof. intros A a d. induction k as [|k IH]; intros [|l] H; cbn [repeat nth]; auto; try lia. apply IH. lia. Qed.
Lemma counters_v_ok : shaped n facs (counters_v T g) /\ forall x y, x < n -> In y (facs x) -> get 0%Z facs (counters_v T g) x y = (Z.of_nat (length (facs x)) - 1)%Z.
Proof.
  unfold counters_v. change (nvars T g) with n. assert (R : forall x, x < n -> nth x (map (fun v => repeat (Z.of_nat (length (facs v)) - 1)%Z (length (facs v))) (seq 0 n)) [] = repeat (Z.of_nat (length (facs x)) - 1)%Z (length (facs x))).
  { intros x Hx. rewrite (nth_map_in _ _ _ _ x 0) by (rewrite seq_length; auto). rewrite seq_nth by auto. auto. }
  split; [split; [rewrite map_length, seq_length; auto|intros x Hx; rewrite R by auto; apply repeat_length]|].
  intros x y Hx Hy. unfold get. rewrite R by auto. apply pos_lt in Hy. apply nth_rep. auto.
Qed.
Lemma counters_f_ok : shaped m vars (counters_f T g) /\ forall x y, x < m -> In y (vars x) -> get 0%Z vars (counters_f T g) x y = (Z.of_nat (length (vars x)) - 1)%Z.
Proof.
  unfold counters_f. assert (R : forall x, x < m -> nth x (map (fun fc : list nat * (list nat -> T) => repeat (Z.of_nat (length (fst fc)) - 1)%Z (length (fst fc))) (v_factors g)) [] = repeat (Z.of_nat (length (vars x)) - 1)%Z (length (vars x))).
  { intros x Hx. rewrite (nth_map_in _ _ _ _ x ([], fun _ => one)) by auto. auto. }
  split; [split; [rewrite map_length; auto|intros x Hx; rewrite R by auto; apply repeat_length]|].
  intros x y Hx Hy. unfold get. rewrite R by auto. apply pos_lt in Hy. apply nth_rep. auto.
Qed.

Lemma inferAcyclic_ok : forall stop s, ok s -> tri_bool (m_norm s) = un ->
  exists s', inferAcyclic T OP ACC mult small wmean nonzero zero g stop s = Ret s' /\ ok s' /\ m_acyclic s' = m_acyclic s /\ m_norm s' = m_norm s /\
    (acyclic g -> (forall i, stop i = false) -> (forall v f, v < n -> In f (facs v) -> PV v f (current (bF s' f v))) /\ (forall f v, f < m -> In v (vars f) -> PF f v (current (bV s' v f)))).
Proof.
  intros stop s KS U. unfold inferAcyclic. destruct counters_v_ok as [SV GV]. destruct counters_f_ok as [SF GF].
  destruct (find_ready_ok n facs ND_v _ SV GV) as (cv & rv & E1 & C1). destruct (find_ready_ok m vars ND_f _ SF GF) as (cf & rf & E2 & C2). rewrite E1. cbn [bind]. rewrite E2. cbn [bind].
  destruct (send_all_ok stop (S (edges T g + edges T g)) 0 (mkSched T s cv cf rv rf) [] []) as (st & SV' & SF' & E & I & [K1 K2] & D).
  - constructor; cbn [c_mp c_cv c_cf c_rv c_rf map]; auto; intros; destruct H.
  - cbn [length]. lia.
  - rewrite E. cbn [bind]. exists (c_mp T st). split; auto. split; [apply (in_ok _ _ _ I)|]. split; auto. split; auto. intros AC H. destruct (D H) as [D1 D2]. destruct (all_sent AC _ _ _ I D1 D2) as [A1 A2].
    split; [intros v f Hv If; apply (in_mv _ _ _ I); auto|intros f v Hf Iv; apply (in_mf _ _ _ I); auto].
Qed.
End Send.
