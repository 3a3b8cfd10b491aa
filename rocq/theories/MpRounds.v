(** The parallel and the sequential schedule. *)
From Coq Require Import Sorted Permutation Relations.
From Verif Require Import Base Values GmView GmViewSpec ShapeSpec ShapeProofs FactorOpsSpec FactorOpsProofs FactorGraphModel FactorGraphSpec FactorGraphProofs FactorGraphAcyclic MpModel MpSpec MpSum MpGraph MpState MpMessages MpSchedule.

Section Rounds.
Variable T : Type.
Variable OP : oper T.
Variable ACC : accum T.
Variable mult : bool.
Variable small : T -> bool.
Variable wmean : T -> T -> T -> T.
Variable nonzero : T -> bool.
Variable dist : list T -> list T -> T.
Variable gtv : T -> T -> bool.
Variable zero : T.
Variable g : gmv T.
Hypothesis WF : wf_gmv g.
Notation n := (length (v_labels g)).
Notation m := (length (v_factors g)).
Notation nl := (labels_at g).
Notation one := (o_neutral OP).
Notation facs := (facs_of T g).
Notation vars := (vars T OP g).
Notation bV := (bV T g).
Notation bF := (bF T OP g).
Notation ok := (ok T OP g).
Notation vprop := (vhull_propagate T OP ACC mult small wmean nonzero).
Notation fprop := (fhull_propagate T OP ACC mult small wmean nonzero g).
Variable un : bool.
Variables PV PF : nat -> nat -> list T -> Prop.
Definition VSd (d : T) : Prop := forall s v i f, ok s -> v < n -> nth_error (facs v) i = Some f ->
  exists s', vprop v i d false s = Ret s' /\ ok s' /\ same_params T s s' /\ only_F T OP g s s' f v /\
    ((forall h, In h (facs v) -> h <> f -> PF h v (current (bV s v h))) -> PV v f (current (bF s' f v))).
Definition FSd (d : T) : Prop := forall s f i v, ok s -> f < m -> nth_error (vars f) i = Some v ->
  exists s', fprop f i d un s = Ret s' /\ ok s' /\ same_params T s s' /\ only_V T g s s' v f /\
    ((forall u, In u (vars f) -> u <> v -> PV u f (current (bF s f u))) -> PF f v (current (bV s' v f))).
Definition okn (s : mp T) : Prop := ok s /\ tri_bool (m_norm s) = un.

Lemma nodup_inj : forall (l : list nat) i j x, NoDup l -> nth_error l i = Some x -> nth_error l j = Some x -> i = j.
Proof. intros l i j x N Hi Hj. eapply NoDup_nth_error; eauto; [apply nth_error_Some; congruence|congruence]. Qed.
Lemma same_trans : forall s s1 s2, same_params T s s1 -> same_params T s1 s2 -> same_params T s s2.
Proof. intros s s1 s2 [A B] [C D]. split; congruence. Qed.

(** All messages from a variable. *)
Lemma vall : forall d s v, VSd d -> ok s -> v < n ->
  exists s', vhull_propagateAll T OP ACC mult small wmean nonzero v d s = Ret s' /\ ok s' /\ same_params T s s' /\ m_vin s' = m_vin s /\
    (forall f u, f < m -> In u (vars f) -> u <> v -> bF s' f u = bF s f u) /\
    (forall f, In f (facs v) -> (forall h, In h (facs v) -> h <> f -> PF h v (current (bV s v h))) -> PV v f (current (bF s' f v))).
Proof.
  intros d s v VS KS Hv. unfold vhull_propagateAll. rewrite (rd_row None n facs (facs_nd T g) _ _ (ok_vout _ _ _ _ KS) Hv). cbn [bind]. rewrite map_length.
  assert (Q : forall j, j <= length (facs v) -> exists s', foldM (fun s i => vprop v i d false s) (seq 0 j) s = Ret s' /\ ok s' /\ same_params T s s' /\ m_vin s' = m_vin s /\
    (forall f u, f < m -> In u (vars f) -> u <> v -> bF s' f u = bF s f u) /\
    (forall i f, i < j -> nth_error (facs v) i = Some f -> (forall h, In h (facs v) -> h <> f -> PF h v (current (bV s v h))) -> PV v f (current (bF s' f v)))).
  { induction j as [|j IH]; intros Hj.
    - exists s. cbn [seq foldM]. split; auto. split; auto. split; [split; auto|]. split; auto. split; auto. intros i f Hi. lia.
    - destruct IH as (s1 & E1 & K1 & P1 & V1 & O1 & R1); [lia|]. destruct (nth_error_lt _ (facs v) j) as [f Ef]; [lia|]. destruct (VS s1 v j f K1 Hv Ef) as (s2 & E2 & K2 & P2 & [V2 O2] & R2).
      assert (If : In f (facs v)) by (eapply nth_error_In; eauto). pose proof (proj1 (facs_in T OP g v f) If) as [Hf Iv].
      exists s2. rewrite seq_S, foldM_app, E1. cbn [bind foldM Nat.add]. rewrite E2. cbn [bind]. split; auto. split; auto. split; [eapply same_trans; eauto|]. split; [congruence|]. split.
      + intros f' u Hf' Hu NE. rewrite O2; auto. congruence.
      + intros i f' Hi Ef' H. destruct (Nat.eq_dec i j) as [->|NE].
        * assert (f' = f) by congruence. subst f'. apply R2. intros h Hh NE. unfold MpState.bV. rewrite V1. apply H; auto.
        * assert (If' : In f' (facs v)) by (eapply nth_error_In; eauto). pose proof (proj1 (facs_in T OP g v f') If') as [Hf' Iv']. rewrite O2; auto; [apply (R1 i); auto; lia|].
          intros X. injection X as ->. apply NE. eapply nodup_inj; eauto. apply facs_nodup. }
  destruct (Q (length (facs v)) (le_n _)) as (s' & E & K' & P' & V' & O' & R'). exists s'. split; auto. split; auto. split; auto. split; auto. split; auto.
  intros f Hf H. destruct (In_nth_error _ _ Hf) as [i Ei]. apply (R' i); auto. apply nth_error_Some. congruence.
Qed.
(** All messages from a factor. *)
Lemma fall : forall d s f, FSd d -> ok s -> f < m ->
  exists s', fhull_propagateAll T OP ACC mult small wmean nonzero g f d un s = Ret s' /\ ok s' /\ same_params T s s' /\ m_fin s' = m_fin s /\
    (forall v h, v < n -> In h (facs v) -> h <> f -> bV s' v h = bV s v h) /\
    (forall v, In v (vars f) -> (forall u, In u (vars f) -> u <> v -> PV u f (current (bF s f u))) -> PF f v (current (bV s' v f))).
Proof.
  intros d s f FS KS Hf. unfold fhull_propagateAll. rewrite (rd_row buf0 m vars (vars_nd T OP g WF) _ _ (ok_fin _ _ _ _ KS) Hf). cbn [bind]. rewrite map_length.
  assert (Q : forall j, j <= length (vars f) -> exists s', foldM (fun s i => fprop f i d un s) (seq 0 j) s = Ret s' /\ ok s' /\ same_params T s s' /\ m_fin s' = m_fin s /\
    (forall v h, v < n -> In h (facs v) -> h <> f -> bV s' v h = bV s v h) /\
    (forall i v, i < j -> nth_error (vars f) i = Some v -> (forall u, In u (vars f) -> u <> v -> PV u f (current (bF s f u))) -> PF f v (current (bV s' v f)))).
  { induction j as [|j IH]; intros Hj.
    - exists s. cbn [seq foldM]. split; auto. split; auto. split; [split; auto|]. split; auto. split; auto. intros i v Hi. lia.
    - destruct IH as (s1 & E1 & K1 & P1 & V1 & O1 & R1); [lia|]. destruct (nth_error_lt _ (vars f) j) as [v Ev]; [lia|]. destruct (FS s1 f j v K1 Hf Ev) as (s2 & E2 & K2 & P2 & [V2 O2] & R2).
      assert (Iv : In v (vars f)) by (eapply nth_error_In; eauto).
      exists s2. rewrite seq_S, foldM_app, E1. cbn [bind foldM Nat.add]. rewrite E2. cbn [bind]. split; auto. split; auto. split; [eapply same_trans; eauto|]. split; [congruence|]. split.
      + intros v' h Hv' Hh NE. rewrite O2; auto. congruence.
      + intros i v' Hi Ev' H. destruct (Nat.eq_dec i j) as [->|NE].
        * assert (v' = v) by congruence. subst v'. apply R2. intros u Hu NE. unfold MpState.bF. rewrite V1. apply H; auto.
        * assert (Iv' : In v' (vars f)) by (eapply nth_error_In; eauto). rewrite O2; auto; [apply (R1 i); auto; lia|apply (vars_lt T OP g WF f); auto|apply (facs_in T OP g); auto|].
          intros X. injection X as ->. apply NE. eapply nodup_inj; eauto. apply vars_nodup; auto. }
  destruct (Q (length (vars f)) (le_n _)) as (s' & E & K' & P' & V' & O' & R'). exists s'. split; auto. split; auto. split; auto. split; auto. split; auto.
  intros v Hv H. destruct (In_nth_error _ _ Hv) as [i Ei]. apply (R' i); auto. apply nth_error_Some. congruence.
Qed.

(** ** The levels: how many rounds a message needs *)
Fixpoint LV (k v f : nat) : Prop := match k with
  | 0 => False
  | S k => forall h, In h (facs v) -> h <> f -> forall u, In u (vars h) -> u <> v -> LV k u h
  end.
Definition LF (k h v : nat) : Prop := forall u, In u (vars h) -> u <> v -> LV k u h.
Lemma LV_S : forall k v f, LV k v f -> LV (S k) v f.
Proof. induction k as [|k IH]; intros v f H; [destruct H|]. intros h Hh NE u Hu NE'. apply IH. apply (H h Hh NE u Hu NE'). Qed.
Lemma LV_le : forall k k' v f, k <= k' -> LV k v f -> LV k' v f.
Proof. intros k k' v f L H. induction L; auto. apply LV_S. auto. Qed.
Definition rightV (k : nat) (s : mp T) : Prop := forall v f, v < n -> In f (facs v) -> LV k v f -> PV v f (current (bF s f v)).
Definition rightF (k : nat) (s : mp T) : Prop := forall f v, f < m -> In v (vars f) -> LF k f v -> PF f v (current (bV s v f)).

Lemma LV_all : acyclic g -> forall v f, v < n -> In f (facs v) -> LV n v f.
Proof.
  intros AC.
  set (P := fun a b => match a, b with
    | NV v, NF f => exists vs, NoDup vs /\ (forall u, In u vs -> u < n /\ side node (edge (fgraph_of T g)) (NV v) (NF f) (NV u)) /\ LV (length vs) v f
    | NF h, NV v => exists vs, NoDup vs /\ (forall u, In u vs -> u < n /\ side node (edge (fgraph_of T g)) (NF h) (NV v) (NV u)) /\ LF (length vs) h v
    | _, _ => True end).
  assert (SYM := E_sym T g). assert (IRR := E_irr T g).
  assert (A : forall a b, edge (fgraph_of T g) a b -> P a b).
  { apply (edge_ind node node_dec (edge (fgraph_of T g)) SYM IRR AC (map NV (seq 0 n) ++ map NF (seq 0 m)) (E_valid T OP g WF)).
    intros [v|f] [v'|f'] Eab H; try (destruct Eab; fail); cbn [P].
    - pose proof Eab as Eab0. apply (E_iff T OP g) in Eab. destruct Eab as [Hf Iv]. assert (Hv : v < n) by (apply (vars_lt T OP g WF f'); auto).
      assert (Q : forall l, (forall h, In h l -> In h (facs v) /\ h <> f') -> exists vs, NoDup vs /\ (forall u, In u vs -> u < n /\ u <> v /\ side node (edge (fgraph_of T g)) (NV v) (NF f') (NV u)) /\ forall h, In h l -> LF (length vs) h v).
      { induction l as [|h l IH]; intros HL; [exists []; split; [constructor|]; split; [intros u []|intros h []]|].
        destruct IH as (vs & N1 & S1 & L1); [intros; apply HL; right; auto|]. destruct (HL h (or_introl eq_refl)) as [Hh NE]. apply (facs_in T OP g) in Hh. assert (Eh : edge (fgraph_of T g) (NF h) (NV v)) by (apply (E_iff' T OP g); auto).
        pose proof (H (NF h) Eh) as (ws & N2 & S2 & L2); [congruence|].
        assert (S2' : forall u, In u ws -> u < n /\ u <> v /\ side node (edge (fgraph_of T g)) (NV v) (NF f') (NV u)).
        { intros u Hu. destruct (S2 u Hu) as [X1 X2]. split; auto. split.
          - intros ->. apply (side_not_back node node_dec (edge (fgraph_of T g)) SYM IRR AC (NV v) (NF h)); auto.
          - apply (side_sub node node_dec (edge (fgraph_of T g)) SYM IRR AC (NV v) (NF f') (NF h)); auto. congruence. }
        destruct (le_lt_dec (length vs) (length ws)) as [LE|LT].
        - exists ws. split; auto. split; auto. intros h' [<-|Hh']; auto. intros u Hu NEu. apply (LV_le (length vs)); auto. apply (L1 h' Hh' u Hu NEu).
        - exists vs. split; auto. split; auto. intros h' [<-|Hh']; auto. intros u Hu NEu. apply (LV_le (length ws)); [lia|]. apply (L2 u Hu NEu). }
      destruct (Q (filter (fun h => negb (h =? f')) (facs v))) as (vs & N1 & S1 & L1).
      { intros h Hh. apply filter_In in Hh. destruct Hh as [Hh NE]. apply negb_true_iff, Nat.eqb_neq in NE. auto. }
      exists (v :: vs). split; [constructor; auto; intros X; apply (S1 v X); auto|]. split.
      + intros u [<-|Hu]; [split; auto; apply side_self|]. destruct (S1 u Hu) as (X1 & _ & X2). auto.
      + intros h Hh NE. apply L1. apply filter_In. split; auto. apply negb_true_iff, Nat.eqb_neq. auto.
    - pose proof Eab as Eab0. apply (E_iff' T OP g) in Eab. destruct Eab as [Hf Iv].
      assert (Q : forall l, (forall u, In u l -> In u (vars f) /\ u <> v') -> exists vs, NoDup vs /\ (forall u, In u vs -> u < n /\ side node (edge (fgraph_of T g)) (NF f) (NV v') (NV u)) /\ forall u, In u l -> LV (length vs) u f).
      { induction l as [|u l IH]; intros HL; [exists []; split; [constructor|]; split; [intros u []|intros h []]|].
        destruct IH as (vs & N1 & S1 & L1); [intros; apply HL; right; auto|]. destruct (HL u (or_introl eq_refl)) as [Hu NE]. assert (Eh : edge (fgraph_of T g) (NV u) (NF f)) by (apply (E_iff T OP g); auto).
        pose proof (H (NV u) Eh) as (ws & N2 & S2 & L2); [congruence|].
        assert (S2' : forall w, In w ws -> w < n /\ side node (edge (fgraph_of T g)) (NF f) (NV v') (NV w)).
        { intros w Hw. destruct (S2 w Hw) as [X1 X2]. split; auto. apply (side_sub node node_dec (edge (fgraph_of T g)) SYM IRR AC (NF f) (NV v') (NV u)); auto. congruence. }
        destruct (le_lt_dec (length vs) (length ws)) as [LE|LT].
        - exists ws. split; auto. split; auto. intros u' [<-|Hu']; auto. apply (LV_le (length vs)); auto.
        - exists vs. split; auto. split; auto. intros u' [<-|Hu']; auto. apply (LV_le (length ws)); [lia|auto]. }
      destruct (Q (filter (fun u => negb (u =? v')) (vars f))) as (vs & N1 & S1 & L1).
      { intros u Hu. apply filter_In in Hu. destruct Hu as [Hu NE]. apply negb_true_iff, Nat.eqb_neq in NE. auto. }
      exists vs. split; auto. split; auto. intros u Hu NE. apply L1. apply filter_In. split; auto. apply negb_true_iff, Nat.eqb_neq. auto. }
  intros v f Hv If. destruct (A (NV v) (NF f)) as (vs & N1 & S1 & L1). { apply (E_iff T OP g), (facs_in T OP g). auto. }
  apply (LV_le (length vs)); auto. rewrite <- (seq_length n 0). apply NoDup_incl_length; auto. intros u Hu. apply in_seq. destruct (S1 u Hu). lia.
Qed.

(** ** Sweeps over all variables and all factors *)
Lemma sweep_vars : forall d s, VSd d -> ok s ->
  exists s', foldM (fun s v => vhull_propagateAll T OP ACC mult small wmean nonzero v d s) (seq 0 n) s = Ret s' /\ ok s' /\ same_params T s s' /\ m_vin s' = m_vin s /\
    (forall v f, v < n -> In f (facs v) -> (forall h, In h (facs v) -> h <> f -> PF h v (current (bV s v h))) -> PV v f (current (bF s' f v))).
Proof.
  intros d s VS KS.
  assert (Q : forall j, j <= n -> exists s', foldM (fun s v => vhull_propagateAll T OP ACC mult small wmean nonzero v d s) (seq 0 j) s = Ret s' /\ ok s' /\ same_params T s s' /\ m_vin s' = m_vin s /\
    (forall v f, v < j -> In f (facs v) -> (forall h, In h (facs v) -> h <> f -> PF h v (current (bV s v h))) -> PV v f (current (bF s' f v)))).
  { induction j as [|j IH]; intros Hj.
    - exists s. cbn [seq foldM]. split; auto. split; auto. split; [split; auto|]. split; auto. intros v f Hv. lia.
    - destruct IH as (s1 & E1 & K1 & P1 & V1 & R1); [lia|]. destruct (vall d s1 j VS K1) as (s2 & E2 & K2 & P2 & V2 & O2 & R2); [lia|].
      exists s2. rewrite seq_S, foldM_app, E1. cbn [bind foldM Nat.add]. rewrite E2. cbn [bind]. split; auto. split; auto. split; [eapply same_trans; eauto|]. split; [congruence|].
      intros v f Hv If H. destruct (Nat.eq_dec v j) as [->|NE].
      + apply R2; auto. intros h Hh NE. unfold MpState.bV. rewrite V1. apply H; auto.
      + pose proof (proj1 (facs_in T OP g v f) If) as [Hf Iv]. rewrite O2; auto. apply R1; auto. lia. }
  apply (Q n (le_n _)).
Qed.
(** The factors for which [sel] holds. *)
Lemma sweep_facs : forall d (sel : nat -> bool) (body : mp T -> nat -> outcome (mp T)) s, FSd d -> okn s ->
  (forall s f, f < m -> okn s -> body s f = if sel (length (vars f)) then fhull_propagateAll T OP ACC mult small wmean nonzero g f d un s else Ret s) ->
  exists s', foldM body (seq 0 m) s = Ret s' /\ okn s' /\ same_params T s s' /\ m_fin s' = m_fin s /\
    (forall f v, f < m -> In v (vars f) -> sel (length (vars f)) = false -> bV s' v f = bV s v f) /\
    (forall f v, f < m -> In v (vars f) -> sel (length (vars f)) = true -> (forall u, In u (vars f) -> u <> v -> PV u f (current (bF s f u))) -> PF f v (current (bV s' v f))).
Proof.
  intros d sel body s FS KS HB.
  assert (Q : forall j, j <= m -> exists s', foldM body (seq 0 j) s = Ret s' /\ okn s' /\ same_params T s s' /\ m_fin s' = m_fin s /\
    (forall f v, f < m -> In v (vars f) -> sel (length (vars f)) = false -> bV s' v f = bV s v f) /\
    (forall f v, f < j -> In v (vars f) -> sel (length (vars f)) = true -> (forall u, In u (vars f) -> u <> v -> PV u f (current (bF s f u))) -> PF f v (current (bV s' v f)))).
  { induction j as [|j IH]; intros Hj.
    - exists s. cbn [seq foldM]. split; auto. split; auto. split; [split; auto|]. split; auto. split; auto. intros f v Hf. lia.
    - destruct IH as (s1 & E1 & K1 & P1 & V1 & U1 & R1); [lia|]. rewrite seq_S, foldM_app, E1. cbn [bind foldM Nat.add]. rewrite HB by (auto; lia). destruct (sel (length (vars j))) eqn:SE.
      + destruct (fall d s1 j FS (proj1 K1)) as (s2 & E2 & K2 & P2 & V2 & O2 & R2); [lia|]. rewrite E2. cbn [bind]. exists s2. split; auto.
        split; [split; auto; destruct P2 as [_ P2]; rewrite P2; apply K1|]. split; [eapply same_trans; eauto|]. split; [congruence|]. split.
        * intros f v Hf Iv SF. rewrite O2; [apply U1; auto|apply (vars_lt T OP g WF f); auto|apply (facs_in T OP g); auto|congruence].
        * intros f v Hf Iv SF H. destruct (Nat.eq_dec f j) as [->|NE].
          -- apply R2; auto. intros u Hu NE. unfold MpState.bF. rewrite V1. apply H; auto.
          -- rewrite O2; auto; [apply R1; auto; lia|apply (vars_lt T OP g WF f); auto|apply (facs_in T OP g); split; auto; lia].
      + exists s1. cbn [bind]. split; auto. split; auto. split; auto. split; auto. split; auto. intros f v Hf Iv SF H. apply R1; auto. destruct (Nat.eq_dec f j) as [->|]; [congruence|lia]. }
  apply (Q m (le_n _)).
Qed.

Variable damping : T.
Hypothesis VS : VSd damping.
Hypothesis FS : FSd damping.
Hypothesis FZ : FSd zero.

Lemma rightF_S : forall k s, rightF k s -> forall v f, v < n -> In f (facs v) -> LV (S k) v f -> forall h, In h (facs v) -> h <> f -> PF h v (current (bV s v h)).
Proof.
  intros k s R v f Hv If L h Hh NE. pose proof (proj1 (facs_in T OP g v h) Hh) as [Hh' Iv]. apply R; auto. intros u Hu NEu. apply (L h Hh NE u Hu NEu).
Qed.
Lemma row_len : forall s f, ok s -> f < m -> exists row, rd (m_fin s) f = Ret row /\ length row = length (vars f).
Proof. intros s f K H. rewrite (rd_row buf0 m vars (vars_nd T OP g WF) _ _ (ok_fin _ _ _ _ K) H). eexists. split; [reflexivity|]. apply map_length. Qed.

Lemma low_ok : forall s, okn s -> exists s', low_order T OP ACC mult small wmean nonzero zero g s = Ret s' /\ okn s' /\ same_params T s s' /\ rightF 0 s'.
Proof.
  intros s KS. unfold low_order. replace (length (m_fin s)) with m by (symmetry; apply (ok_fin _ _ _ _ (proj1 KS))).
  assert (Q : forall j, j <= m -> exists s', foldM (fun s f => row <- rd (m_fin s) f ;; if length row <? 2 then s <- fhull_propagateAll T OP ACC mult small wmean nonzero g f zero (tri_bool (m_norm s)) s ;; fhull_propagateAll T OP ACC mult small wmean nonzero g f zero (tri_bool (m_norm s)) s else Ret s) (seq 0 j) s = Ret s' /\ okn s' /\ same_params T s s' /\
    forall f v, f < j -> In v (vars f) -> LF 0 f v -> PF f v (current (bV s' v f))).
  { induction j as [|j IH]; intros Hj.
    - exists s. cbn [seq foldM]. split; auto. split; auto. split; [split; auto|]. intros f v Hf. lia.
    - destruct IH as (s1 & E1 & K1 & P1 & R1); [lia|]. rewrite seq_S, foldM_app, E1. cbn [bind foldM Nat.add].
      destruct (row_len s1 j (proj1 K1)) as (row & Er & Lr); [lia|]. rewrite Er. cbn [bind]. rewrite Lr. destruct (Nat.ltb_spec (length (vars j)) 2) as [LT|GE].
      + replace (tri_bool (m_norm s1)) with un by (symmetry; apply K1).
        destruct (fall zero s1 j FZ (proj1 K1)) as (s2 & E2 & K2 & P2 & V2 & O2 & R2); [lia|]. rewrite E2. cbn [bind].
        assert (U2 : tri_bool (m_norm s2) = un) by (destruct P2 as [_ P2]; rewrite P2; apply K1). rewrite U2.
        destruct (fall zero s2 j FZ K2) as (s3 & E3 & K3 & P3 & V3 & O3 & R3); [lia|]. rewrite E3. cbn [bind]. exists s3. split; auto.
        split; [split; auto; destruct P3 as [_ P3]; rewrite P3; auto|]. split; [eapply same_trans; [eauto|eapply same_trans; eauto]|].
        intros f v Hf Iv H. destruct (Nat.eq_dec f j) as [->|NE].
        * apply R3; auto. intros u Hu NE. exfalso. apply (H u Hu NE).
        * assert (Hv : v < n) by (apply (vars_lt T OP g WF f); auto). assert (If : In f (facs v)) by (apply (facs_in T OP g); split; auto; lia). rewrite O3, O2; auto. apply R1; auto. lia.
      + cbn [bind]. exists s1. split; auto. split; auto. split; auto. intros f v Hf Iv H. apply R1; auto. destruct (Nat.eq_dec f j) as [->|]; [|lia]. exfalso.
        destruct (vars j) as [|a [|b l]] eqn:EV; cbn [length] in GE; try lia. pose proof (vars_nodup T OP g WF j) as ND. rewrite EV in ND. inversion ND as [|? ? NI ND']; subst.
        destruct (Nat.eq_dec a v) as [->|NE]; [apply (H b); [rewrite EV; right; left; auto|intros ->; apply NI; left; auto]|apply (H a); [rewrite EV; left; auto|auto]]. }
  destruct (Q m (le_n _)) as (s' & E & K' & P' & R'). exists s'. split; auto.
Qed.

Lemma parallel_ok : forall i s, okn s -> exists s', parallel_step T OP ACC mult small wmean nonzero g damping i s = Ret s' /\ okn s' /\ same_params T s s' /\
  forall k, rightF k s -> rightF (S k) s' /\ rightV (S k) s'.
Proof.
  intros i s KS. unfold parallel_step. replace (length (m_vin s)) with n by (symmetry; apply (ok_vin _ _ _ _ (proj1 KS))).
  destruct (sweep_vars damping s VS (proj1 KS)) as (s1 & E1 & K1 & P1 & V1 & R1). rewrite E1. cbn [bind]. replace (length (m_fin s1)) with m by (symmetry; apply (ok_fin _ _ _ _ K1)).
  assert (K1n : okn s1) by (split; auto; destruct P1 as [_ P1]; rewrite P1; apply KS).
  match goal with |- context [foldM ?b (seq 0 m) s1] => destruct (sweep_facs damping (Nat.leb 2) b s1 FS K1n) as (s2 & E2 & K2 & P2 & V2 & U2 & R2) end.
  { intros s0 f Hf K0. destruct (row_len s0 f (proj1 K0) Hf) as (row & Er & Lr). rewrite Er. cbn [bind]. rewrite Lr. replace (tri_bool (m_norm s0)) with un by (symmetry; apply K0). auto. }
  exists s2. split; auto. split; auto. split; [eapply same_trans; eauto|]. intros k RF.
  assert (RV : rightV (S k) s1). { intros v f Hv If L. apply R1; auto. apply (rightF_S k); auto. }
  split.
  - intros f v Hf Iv L. destruct (2 <=? length (vars f)) eqn:SE.
    + apply R2; auto. intros u Hu NE. apply RV; [apply (vars_lt T OP g WF f); auto|apply (facs_in T OP g); auto|apply L; auto].
    + rewrite U2; auto. unfold MpState.bV. rewrite V1. apply RF; auto. apply Nat.leb_gt in SE. intros u Hu NE. exfalso.
      destruct (vars f) as [|a [|b l]]; cbn [length] in SE; try lia; [destruct Iv|]. destruct Iv as [<-|[]], Hu as [<-|[]]. auto.
  - intros v f Hv If L. unfold MpState.bF. rewrite V2. apply RV; auto.
Qed.

(** ** The steps *)
Variable stop : nat -> bool.
Variable maxSteps : nat.
Variable bound : T.
Lemma bound_never : gtv bound zero = false -> (forall l1 l2, gtv bound (dist l1 l2) = false) -> forall s, gtv bound (convergence T dist gtv zero s) = false.
Proof.
  intros H0 H1 s. unfold convergence.
  assert (Q : forall row r, gtv bound r = false -> gtv bound (fold_left (fun r b => let d := dist (mb_1 b) (mb_2 b) in if gtv d r then d else r) row r) = false).
  { induction row as [|b row IH]; intros r H; cbn [fold_left]; auto. apply IH. cbn zeta. destruct (gtv (dist (mb_1 b) (mb_2 b)) r); auto. }
  generalize (m_fin s). intros t. revert H0. generalize zero. induction t as [|row t IH]; intros r H; cbn [fold_left]; auto.
Qed.
Lemma steps_all : forall body (J : nat -> mp T -> Prop), (forall i s, okn s -> exists s', body i s = Ret s' /\ okn s' /\ same_params T s s' /\ forall k, J k s -> J (S k) s') ->
  forall rem i s, okn s -> exists s', steps T dist gtv zero stop bound body rem i s = Ret s' /\ okn s' /\ same_params T s s' /\
    ((forall i, stop i = false) -> (forall s, gtv bound (convergence T dist gtv zero s) = false) -> forall k, J k s -> J (rem + k) s').
Proof.
  intros body J HB. induction rem as [|rem IH]; intros i s KS; cbn [steps].
  - exists s. split; auto. split; auto. split; [split; auto|auto].
  - destruct (HB i s KS) as (s1 & E1 & K1 & P1 & J1). rewrite E1. cbn [bind]. destruct (stop i) eqn:ES; [exists s1; split; auto; split; auto; split; auto; intros X; congruence|].
    destruct (gtv bound _) eqn:EB; [exists s1; split; auto; split; auto; split; auto; intros _ X; rewrite X in EB; discriminate|].
    destruct (IH (S i) s1 K1) as (s2 & E2 & K2 & P2 & J2). exists s2. split; auto. split; auto. split; [eapply same_trans; eauto|]. intros A B k H. replace (S rem + k) with (rem + S k) by lia. auto.
Qed.
Definition all_right (s : mp T) : Prop :=
  (forall v f, v < n -> In f (facs v) -> PV v f (current (bF s f v))) /\ (forall f v, f < m -> In v (vars f) -> PF f v (current (bV s v f))).
Lemma inferParallel_ok : forall s, okn s -> exists s', inferParallel T OP ACC mult small wmean nonzero dist gtv zero g stop maxSteps bound damping s = Ret s' /\ okn s' /\ same_params T s s' /\
  (acyclic g -> (forall i, stop i = false) -> (forall s, gtv bound (convergence T dist gtv zero s) = false) -> n <= maxSteps -> all_right s').
Proof.
  intros s KS. unfold inferParallel. destruct (low_ok s KS) as (s1 & E1 & K1 & P1 & R1). rewrite E1. cbn [bind].
  destruct (steps_all (parallel_step T OP ACC mult small wmean nonzero g damping) (fun k s => rightF k s /\ (k = 0 \/ rightV k s))) with (rem := maxSteps) (i := 0) (s := s1) as (s2 & E2 & K2 & P2 & J2); auto.
  { intros i s0 K0. destruct (parallel_ok i s0 K0) as (s' & E' & K' & P' & J'). exists s'. split; auto. split; auto. split; auto. intros k [H _]. destruct (J' k H). auto. }
  exists s2. split; auto. split; auto. split; [eapply same_trans; eauto|]. intros AC ST BD L. destruct (J2 ST BD 0) as [RF RV]; [auto|]. rewrite Nat.add_0_r in *.
  assert (LA : forall v f, v < n -> In f (facs v) -> LV maxSteps v f) by (intros; apply (LV_le n); auto; apply LV_all; auto). split.
  - intros v f Hv If. destruct RV as [Z|RV]; [lia|]. apply RV; auto.
  - intros f v Hf Iv. apply RF; auto. intros u Hu _. apply LA; [apply (vars_lt T OP g WF f); auto|apply (facs_in T OP g); auto].
Qed.

(** ** The sequential schedule *)
Lemma inverse_ok : forall v, v < n -> inverse_positions T g v = Ret (map (fun f => pos (vars f) v) (facs v)).
Proof.
  intros v Hv. unfold inverse_positions. rewrite (mapM_Ret _ _ _ (fun f => [pos (vars f) v])).
  - cbn [bind]. f_equal. induction (facs v); cbn [map concat app]; congruence.
  - intros f Hf. apply (facs_in T OP g) in Hf. destruct Hf as [Hf Iv]. rewrite (rd_fac T OP g f Hf). cbn [bind]. fold (vars f). change (fst (fac T OP g f)) with (vars f). rewrite buffer_number_pos by auto. auto.
Qed.
Definition invs : list (list nat) := map (fun v => map (fun f => pos (vars f) v) (facs v)) (seq 0 n).
Lemma inverses_ok : mapM (inverse_positions T g) (seq 0 (nvars T g)) = Ret invs.
Proof. apply mapM_Ret. intros v Hv. apply in_seq in Hv. unfold nvars in Hv. apply inverse_ok. lia. Qed.
Lemma invs_rd : forall v i f, v < n -> nth_error (facs v) i = Some f -> rd2 invs v i = Ret (pos (vars f) v).
Proof.
  intros v i f Hv Ef. unfold rd2, invs. rewrite (rd_nth _ _ v []) by (rewrite map_length, seq_length; auto). cbn [bind]. rewrite (nth_map_in _ _ _ _ _ 0) by (rewrite seq_length; auto). rewrite seq_nth by auto. cbn [Nat.add].
  apply rd_Ret. rewrite nth_error_map, Ef. auto.
Qed.
(** One variable: every message to it, then every message from it. *)
Lemma seqvar_ok : forall s v, okn s -> v < n -> exists s', sequential_variable T OP ACC mult small wmean nonzero g damping invs s v = Ret s' /\ okn s' /\ same_params T s s' /\
  (forall w h, w < n -> In h (facs w) -> w <> v -> bV s' w h = bV s w h) /\
  (forall f u, f < m -> In u (vars f) -> u <> v -> bF s' f u = bF s f u) /\
  (forall h, In h (facs v) -> (forall u, In u (vars h) -> u <> v -> PV u h (current (bF s h u))) -> PF h v (current (bV s' v h))) /\
  (forall f, In f (facs v) -> (forall h, In h (facs v) -> h <> f -> PF h v (current (bV s' v h))) -> PV v f (current (bF s' f v))).
Proof.
  intros s v KS Hv. unfold sequential_variable.
  match goal with |- context [foldM ?b (seq 0 (length (facs v))) s] => set (body := b) end.
  assert (Q : forall j, j <= length (facs v) -> exists s', foldM body (seq 0 j) s = Ret s' /\ okn s' /\ same_params T s s' /\ m_fin s' = m_fin s /\
    (forall w h, w < n -> In h (facs w) -> w <> v -> bV s' w h = bV s w h) /\
    (forall i h, i < j -> nth_error (facs v) i = Some h -> (forall u, In u (vars h) -> u <> v -> PV u h (current (bF s h u))) -> PF h v (current (bV s' v h)))).
  { induction j as [|j IH]; intros Hj.
    - exists s. cbn [seq foldM]. split; auto. split; auto. split; [split; auto|]. split; auto. split; auto. intros i h Hi. lia.
    - destruct IH as (s1 & E1 & K1 & P1 & V1 & O1 & R1); [lia|]. rewrite seq_S, foldM_app, E1. cbn [bind foldM Nat.add]. unfold body.
      destruct (nth_error_lt _ (facs v) j) as [f Ef]; [lia|]. rewrite (rd_Ret _ _ _ _ Ef). cbn [bind]. rewrite (invs_rd v j f) by auto. cbn [bind]. replace (tri_bool (m_norm s1)) with un by (symmetry; apply K1).
      assert (If : In f (facs v)) by (eapply nth_error_In; eauto). pose proof (proj1 (facs_in T OP g v f) If) as [Hf Iv].
      destruct (FS s1 f (pos (vars f) v) v (proj1 K1) Hf (pos_in _ _ Iv)) as (s2 & E2 & K2 & P2 & [V2 O2] & R2). rewrite E2. cbn [bind]. exists s2. split; auto.
      split; [split; auto; destruct P2 as [_ P2]; rewrite P2; apply K1|]. split; [eapply same_trans; eauto|]. split; [congruence|]. split.
      + intros w h Hw Hh NE. rewrite O2; auto. congruence.
      + intros i h Hi Eh H. destruct (Nat.eq_dec i j) as [->|NE].
        * assert (h = f) by congruence. subst h. apply R2. intros u Hu NE. unfold MpState.bF. rewrite V1. apply H; auto.
        * assert (Ih : In h (facs v)) by (eapply nth_error_In; eauto). rewrite O2; auto; [apply (R1 i); auto; lia|]. intros X. injection X as ->. apply NE. eapply nodup_inj; eauto. apply facs_nodup. }
  destruct (Q (length (facs v)) (le_n _)) as (s1 & E1 & K1 & P1 & V1 & O1 & R1). rewrite E1. cbn [bind].
  destruct (vall damping s1 v VS (proj1 K1) Hv) as (s2 & E2 & K2 & P2 & V2 & O2 & R2). exists s2. split; auto. split; [split; auto; destruct P2 as [_ P2]; rewrite P2; apply K1|]. split; [eapply same_trans; eauto|].
  assert (X : forall w h, bV s2 w h = bV s1 w h) by (intros; unfold MpState.bV; rewrite V2; auto).
  split; [intros w h Hw Hh NE; rewrite X; auto|]. split; [intros f u Hf Hu NE; rewrite O2; auto; unfold MpState.bF; rewrite V1; auto|]. split.
  - intros h Hh H. rewrite X. destruct (In_nth_error _ _ Hh) as [i Ei]. apply (R1 i); auto. apply nth_error_Some. congruence.
  - intros f If H. apply R2; auto. intros h Hh NE. rewrite <- X. auto.
Qed.
(** A list of variables that holds every variable: all messages get one level better. *)
Lemma seqlist_ok : forall l s, okn s -> Forall (fun v => v < n) l -> exists s', foldM (sequential_variable T OP ACC mult small wmean nonzero g damping invs) l s = Ret s' /\ okn s' /\ same_params T s s' /\
  forall k, rightV k s -> rightV k s' /\
    (forall v f, In v l -> In f (facs v) -> LV (S k) v f -> PV v f (current (bF s' f v))) /\
    (forall h v, In v l -> In h (facs v) -> LF k h v -> PF h v (current (bV s' v h))) /\
    (forall w h, w < n -> In h (facs w) -> LF k h w -> PF h w (current (bV s w h)) -> PF h w (current (bV s' w h))) /\
    (forall w f, w < n -> In f (facs w) -> LV (S k) w f -> PV w f (current (bF s f w)) -> PV w f (current (bF s' f w))).
Proof.
  induction l as [|v l IH]; intros s KS HL; cbn [foldM].
  - exists s. split; auto. split; auto. split; [split; auto|]. intros k H. split; auto. split; [intros v f []|]. split; [intros h v []|]. auto.
  - inversion HL as [|? ? Hv HL']; subst. destruct (seqvar_ok s v KS Hv) as (s1 & E1 & K1 & P1 & O1 & O2 & RF & RV). rewrite E1. cbn [bind].
    destruct (IH s1 K1 HL') as (s2 & E2 & K2 & P2 & J2). exists s2. split; auto. split; auto. split; [eapply same_trans; eauto|]. intros k R.
    assert (F1 : forall h, In h (facs v) -> LF k h v -> PF h v (current (bV s1 v h))).
    { intros h Hh L. apply RF; auto. intros u Hu NE. apply (facs_in T OP g) in Hh. destruct Hh as [Hh Iv]. apply R; [apply (vars_lt T OP g WF h); auto|apply (facs_in T OP g); auto|apply L; auto]. }
    assert (V1 : forall f, In f (facs v) -> LV (S k) v f -> PV v f (current (bF s1 f v))).
    { intros f If L. apply RV; auto. intros h Hh NE. apply F1; auto. exact (L h Hh NE). }
    assert (R1 : rightV k s1).
    { intros w f Hw If L. destruct (Nat.eq_dec w v) as [->|NE]; [apply V1; auto; apply LV_S; auto|]. pose proof (proj1 (facs_in T OP g w f) If) as [Hf Iw]. rewrite O2; auto. }
    destruct (J2 k R1) as (A & B & C & D & E). split; auto. split; [|split; [|split]].
    + intros w f [->|Hw] If L; [|apply B; auto]. apply E; auto.
    + intros h w [->|Hw] Hh L; [|apply C; auto]. apply D; auto.
    + intros w h Hw Hh L H. destruct (Nat.eq_dec w v) as [->|NE]; [apply D; auto|]. apply D; auto. rewrite O1; auto.
    + intros w f Hw If L H. destruct (Nat.eq_dec w v) as [->|NE]; [apply E; auto|]. apply E; auto. pose proof (proj1 (facs_in T OP g w f) If) as [Hf Iw]. rewrite O2; auto.
Qed.
Variable order : list nat.
Hypothesis OL : length order = n.
Hypothesis OB : Forall (fun v => v < n) order.
Lemma order_ok : forall i, exists l, mapM (fun o => rd order (if Nat.even i then o else nvars T g - 1 - o)) (seq 0 (nvars T g)) = Ret l /\ Forall (fun v => v < n) l /\
  (forall v, In v order -> In v l).
Proof.
  intros i. set (p := fun o => if Nat.even i then o else nvars T g - 1 - o). assert (HP : forall o, o < n -> p o < n) by (intros o Ho; unfold p, nvars; destruct (Nat.even i); lia).
  exists (map (fun o => nth (p o) order 0) (seq 0 n)). split; [|split].
  - apply mapM_Ret. intros o Ho. apply in_seq in Ho. unfold nvars in Ho. apply rd_nth. rewrite OL. apply HP. lia.
  - apply Forall_forall. intros v Hv. apply in_map_iff in Hv. destruct Hv as (o & <- & Ho). apply in_seq in Ho. rewrite Forall_forall in OB. apply OB. apply nth_In. rewrite OL. apply HP. lia.
  - intros v Hv. destruct (In_nth _ _ 0 Hv) as (j & Hj & E). rewrite OL in Hj. apply in_map_iff. exists (p j). split.
    + rewrite <- E. f_equal. unfold p, nvars. destruct (Nat.even i); lia.
    + apply in_seq. specialize (HP j Hj). lia.
Qed.
Lemma sequential_ok : forall i s, okn s -> exists s', sequential_step T OP ACC mult small wmean nonzero g damping order invs i s = Ret s' /\ okn s' /\ same_params T s s' /\
  ((forall v, v < n -> In v order) -> forall k, rightV k s -> rightV (S k) s' /\ rightF k s').
Proof.
  intros i s KS. unfold sequential_step. destruct (order_ok i) as (l & E & HL & I). rewrite E. cbn [bind]. destruct (seqlist_ok l s KS HL) as (s' & E' & K' & P' & J').
  exists s'. split; auto. split; auto. split; auto. intros A k R. destruct (J' k R) as (_ & B & C & _). split.
  - intros v f Hv If L. apply B; auto.
  - intros f v Hf Iv L. apply C; auto; [apply I, A, (vars_lt T OP g WF f); auto|apply (facs_in T OP g); auto].
Qed.
Lemma inferSequential_ok : forall s, okn s -> exists s', inferSequential T OP ACC mult small wmean nonzero dist gtv zero g stop maxSteps bound damping order s = Ret s' /\ okn s' /\ same_params T s s' /\
  (acyclic g -> (forall i, stop i = false) -> (forall s, gtv bound (convergence T dist gtv zero s) = false) -> (forall v, v < n -> In v order) -> n < maxSteps -> all_right s').
Proof.
  intros s KS. unfold inferSequential. destruct (low_ok s KS) as (s1 & E1 & K1 & P1 & R1). rewrite E1. cbn [bind]. rewrite inverses_ok. cbn [bind].
  destruct (steps_all (sequential_step T OP ACC mult small wmean nonzero g damping order invs) (fun k s => (forall v, v < n -> In v order) -> rightV k s /\ (k = 0 \/ rightF (k - 1) s))) with (rem := maxSteps) (i := 0) (s := s1) as (s2 & E2 & K2 & P2 & J2); auto.
  { intros i s0 K0. destruct (sequential_ok i s0 K0) as (s' & E' & K' & P' & J'). exists s'. split; auto. split; auto. split; auto. intros k H A. destruct (H A) as [H1 _]. destruct (J' A k H1). split; auto. right. replace (S k - 1) with k by lia. auto. }
  exists s2. split; auto. split; auto. split; [eapply same_trans; eauto|]. intros AC ST BD A L. destruct (J2 ST BD 0) as [RV RF]; auto. { intros _. split; auto. intros v f Hv If []. }
  rewrite Nat.add_0_r in *. split.
  - intros v f Hv If. apply RV; auto. apply (LV_le n); [lia|]. apply LV_all; auto.
  - intros f v Hf Iv. destruct RF as [X|RF]; [lia|]. apply RF; auto. intros u Hu _. apply (LV_le n); [lia|]. apply LV_all; auto; [apply (vars_lt T OP g WF f); auto|apply (facs_in T OP g); auto].
Qed.
End Rounds.
