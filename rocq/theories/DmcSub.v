(** Proofs about DMC: the submodels, and putting their labelings together. *)
From Coq Require Import QArith Qcanon Sorted Permutation.
From Verif Require Import Base Values GmView GmViewSpec ShapeSpec ShapeProofs GmViewProofs GmViewProps ConstraintModel DualDecompModel DualDecompSpec DualDecompProofs FmProps DmcModel DmcSpec DmcProofs.
From Verif Require LprProofs DualDecompInv.
Open Scope nat_scope.

Lemma qsum_perm : forall (A : Type) (f : A -> Qc) l l', Permutation l l' -> qsum f l = qsum f l'.
Proof. intros A f l l' H. induction H; [reflexivity|rewrite !qsum_cons, IHPermutation; reflexivity|rewrite !qsum_cons; ring|congruence]. Qed.

Section Sub.
Variable gm : gmv Qc.
Variable solve : gmv Qc -> outcome (list nat).
Hypothesis MC : multicut gm.
Hypothesis SL : dm_labels solve.
Variable comp : nat -> nat.
Notation n := (length (v_labels gm)).
Notation F := (length (v_factors gm)).
Notation fac := (fac gm). Notation ia := (ia gm). Notation ja := (ja gm). Notation wt := (wt gm).
Definition scls (k : nat) : list nat := filter (fun v => comp v =? k) (seq 0 n).
Definition inside (k f : nat) : bool := (comp (ia f) =? k) && (comp (ja f) =? k).
(** the cost of the cut factors *)
Definition cutc (x : list nat) (f : nat) : Qc := if nth (ia f) x 0 =? nth (ja f) x 0 then 0%Qc else wt f.

Lemma scls_In : forall k v, In v (scls k) <-> v < n /\ comp v = k.
Proof. intros k v. unfold scls. rewrite filter_In, in_seq, Nat.eqb_eq. intuition lia. Qed.
Lemma scls_NoDup : forall k, NoDup (scls k).
Proof. intros k. apply NoDup_filter, seq_NoDup. Qed.
Lemma total_cut : forall x, length x = n -> total AdderQ gm x = (qsum (fun f => snd (fac f) [0; 0]%nat) (seq 0 F) + qsum (cutc x) (seq 0 F))%Qc.
Proof.
  intros x LX. change (total AdderQ gm x) with (energy gm x). rewrite energy_sum, <- qsum_plus. rewrite <- (DualDecompInv.qsum_nth _ _ (v_factors gm) dflt). apply qsum_ext. intros f I. apply in_seq in I.
  destruct (fac_ok gm MC f) as (E & L & a & b & V); [lia|]. change (nth f (v_factors gm) dflt) with (fac f). rewrite E. unfold at_vars. cbn [map]. unfold cutc, DmcProofs.wt, cut_weight. rewrite !V.
  change (0 =? 0) with true. change (0 =? 1) with false. cbv iota. destruct (_ =? _); ring.
Qed.

(** ** The factors of a submodel *)
Section Model.
Variable k : nat.
Variable g2l : list nat.
Notation vars := (scls k).
Hypothesis LG : length g2l = n.
Hypothesis GL : forall l, l < length vars -> nth (nth l vars 0) g2l 0 = l.
Lemma g2l_lt : forall v, v < n -> comp v = k -> nth v g2l 0 < length vars /\ nth (nth v g2l 0) vars 0 = v.
Proof. intros v H C. assert (I : In v vars) by (apply scls_In; auto). apply (In_nth _ _ 0) in I. destruct I as (l & Hl & <-). rewrite GL by exact Hl. auto. Qed.
Lemma g2l_inj : forall v w, v < n -> w < n -> comp v = k -> comp w = k -> nth v g2l 0 = nth w g2l 0 -> v = w.
Proof. intros v w H1 H2 C1 C2 E. rewrite <- (proj2 (g2l_lt v H1 C1)), <- (proj2 (g2l_lt w H2 C2)), E. reflexivity. Qed.
Definition subfac (f : nat) : list nat * (list nat -> Qc) :=
  ([Nat.min (nth (ia f) g2l 0) (nth (ja f) g2l 0); Nat.max (nth (ia f) g2l 0) (nth (ja f) g2l 0)], fun l => if nth 0 l 0 =? nth 1 l 0 then 0%Qc else wt f).
Lemma factor_ok : forall f, f < F -> dm_factor gm g2l (fac f) = Ret (subfac f).
Proof.
  intros f H. unfold dm_factor. rewrite (weight_ok gm MC f H). cbn [bind]. destruct (rd_vars gm MC f H) as [R0 R1]. rewrite R0, R1. cbn [bind]. destruct (fac_ok gm MC f H) as (_ & L & _).
  rewrite !(rd_nth _ g2l _ 0) by lia. reflexivity.
Qed.
(** visits of factors, some of them used before *)
Lemma visits_ok : forall vs used L, length used = F -> NoDup L -> Forall (fun f => f < F) vs -> (forall f, In f L -> nth f used false = true) ->
  exists used' L', foldM (dm_visit gm g2l) vs (used, map subfac L) = Ret (used', map subfac L') /\ length used' = F /\ NoDup L' /\ (forall f, In f L' -> nth f used' false = true) /\
    (forall f, In f L' <-> In f L \/ In f vs /\ nth f used false = false) /\ (forall f, f < F -> nth f used' false = true <-> nth f used false = true \/ In f vs).
Proof.
  induction vs as [|f vs IH]; intros used L LU ND FV HL; cbn [foldM].
  - exists used, L. split; [reflexivity|]. split; [exact LU|]. split; [exact ND|]. split; [exact HL|]. split; intros f; cbn [In]; intuition.
  - inversion FV as [|? ? Hf FV']; subst. unfold dm_visit at 1. rewrite (rd_nth _ used _ false) by lia. cbn [bind]. destruct (nth f used false) eqn:U.
    + cbn [bind]. destruct (IH used L LU ND FV' HL) as (used' & L' & E & A & B & C & D & G). exists used', L'. split; [exact E|]. split; [exact A|]. split; [exact B|]. split; [exact C|]. split.
      * intros f'. rewrite D. cbn [In]. split; [intuition|]. intros [X|[[<-|X] Y]]; [auto|congruence|auto].
      * intros f' Hf'. rewrite G by exact Hf'. cbn [In]. split; [intuition|]. intros [X|[<-|X]]; auto.
    + rewrite wr_Ret by lia. cbn [bind]. rewrite (fac_rd gm f Hf). cbn [bind]. rewrite (factor_ok f Hf). cbn [bind].
      assert (NI : ~ In f L) by (intros X; apply HL in X; congruence).
      destruct (IH (upd used f true) (L ++ [f])) as (used' & L' & E & A & B & C & D & G).
      * rewrite len_upd. exact LU.
      * apply (Permutation_NoDup (Permutation_cons_append L f)). constructor; assumption.
      * exact FV'.
      * intros f' I. apply in_app_or in I. destruct (Nat.eq_dec f f') as [<-|NE]; [apply nth_upd_eq; lia|]. rewrite nth_upd_neq by exact NE. destruct I as [I|[I|[]]]; [apply HL; exact I|congruence].
      * rewrite map_app in E. exists used', L'. split; [exact E|]. split; [exact A|]. split; [exact B|]. split; [exact C|]. split.
        -- intros f'. rewrite D. rewrite in_app_iff. cbn [In]. destruct (Nat.eq_dec f f') as [<-|NE]; [intuition|]. rewrite nth_upd_neq by exact NE. intuition congruence.
        -- intros f' Hf'. rewrite G by exact Hf'. cbn [In]. destruct (Nat.eq_dec f f') as [<-|NE]; [rewrite nth_upd_eq by lia; intuition|]. rewrite nth_upd_neq by exact NE. intuition congruence.
Qed.
Lemma adj_In : forall v f, In f (v_adj Qc gm v) <-> f < F /\ (v = ia f \/ v = ja f).
Proof.
  intros v f. unfold v_adj. rewrite filter_In, in_seq. split.
  - intros [H X]. split; [lia|]. destruct (nth_error (v_factors gm) f) as [[vis h]|] eqn:E; [|discriminate X]. assert (EF : fac f = (vis, h)) by (apply nth_error_nth; exact E).
    destruct (fac_ok gm MC f) as (EV & _); [lia|]. rewrite EF in EV. cbn [fst] in EV. rewrite EV in X. cbn [existsb] in X. rewrite !orb_true_iff, !Nat.eqb_eq in X. intuition congruence.
  - intros [H X]. split; [lia|]. rewrite (nth_error_nth' _ dflt) by exact H. change (nth f (v_factors gm) dflt) with (fac f). destruct (fac_ok gm MC f H) as (EV & _). destruct (fac f) as [vis h]. cbn [fst] in EV. rewrite EV. cbn [existsb].
    rewrite !orb_true_iff, !Nat.eqb_eq. intuition.
Qed.
(** [used] marks the factors between sets, and none inside this one *)
Definition marked (used : list bool) : Prop := forall f, f < F -> (comp (ia f) <> comp (ja f) -> nth f used false = true) /\ (inside k f = true -> nth f used false = false).
Lemma subModel_ok : forall used, length used = F -> marked used -> exists used' L, dm_subModel gm g2l vars used = Ret (used', mkGmv (repeat (length vars) (length vars)) (map subfac L)) /\ length used' = F /\
  Permutation L (filter (inside k) (seq 0 F)) /\ (forall f, f < F -> nth f used' false = true <-> nth f used false = true \/ comp (ia f) = k \/ comp (ja f) = k).
Proof.
  intros used LU MK. unfold dm_subModel.
  destruct (foldM_upto _ (fun st lvi => gvi <- rd vars lvi ;; l <- rd g2l gvi ;; if lvi =? l then foldM (dm_visit gm g2l) (v_adj Qc gm gvi) st else Throw)
    (fun m st => exists u L, st = (u, map subfac L) /\ length u = F /\ NoDup L /\ (forall f, In f L -> nth f u false = true) /\
      (forall f, In f L <-> f < F /\ nth f used false = false /\ exists l, l < m /\ (nth l vars 0 = ia f \/ nth l vars 0 = ja f)) /\
      (forall f, f < F -> nth f u false = true <-> nth f used false = true \/ exists l, l < m /\ (nth l vars 0 = ia f \/ nth l vars 0 = ja f))) (length vars) (used, [])) as (st & E & u & L & -> & A & B & C & D & G).
  - exists used, []. split; [reflexivity|]. split; [exact LU|]. split; [constructor|]. split; [intros f []|]. split.
    + intros f. split; [intros []|]. intros (_ & _ & l & H & _). lia.
    + intros f H. split; [auto|]. intros [X|(l & Y & _)]; [exact X|lia].
  - intros l st Hl (u & L & -> & A & B & C & D & G). rewrite (rd_nth _ vars _ 0) by exact Hl. cbn [bind]. assert (IV : In (nth l vars 0) vars) by (apply nth_In; exact Hl). apply scls_In in IV.
    rewrite (rd_nth _ g2l _ 0) by lia. cbn [bind]. rewrite GL by exact Hl. rewrite Nat.eqb_refl.
    destruct (visits_ok (v_adj Qc gm (nth l vars 0)) u L A B) as (u' & L' & E & A' & B' & C' & D' & G').
    { apply Forall_forall. intros f I. apply adj_In in I. apply I. } { exact C. }
    exists (u', map subfac L'). split; [exact E|]. exists u', L'. split; [reflexivity|]. split; [exact A'|]. split; [exact B'|]. split; [exact C'|]. split.
    + intros f. rewrite D', adj_In. split.
      * intros [X|[[X1 X2] X3]]; [apply D in X; destruct X as (Y1 & Y2 & l' & Y3 & Y4); split; [exact Y1|]; split; [exact Y2|]; exists l'; split; [lia|exact Y4]|].
        split; [exact X1|]. split; [|exists l; split; [lia|exact X2]]. destruct (nth f used false) eqn:U; [|reflexivity]. rewrite (proj2 (G f X1) (or_introl U)) in X3. discriminate X3.
      * intros (X1 & X2 & l' & X3 & X4). destruct (nth f u false) eqn:U.
        -- left. apply D. split; [exact X1|]. split; [exact X2|]. apply (G f X1) in U. destruct U as [U|U]; [congruence|exact U].
        -- right. destruct (Nat.eq_dec l' l) as [->|NE]; [auto|]. exfalso. rewrite (proj2 (G f X1)) in U; [discriminate U|]. right. exists l'. split; [lia|exact X4].
    + intros f Hf. rewrite G' by exact Hf. rewrite G by exact Hf. rewrite adj_In. split.
      * intros [[X|(l' & X1 & X2)]|[X1 X2]]; [auto|right; exists l'; split; [lia|exact X2]|right; exists l; split; [lia|exact X2]].
      * intros [X|(l' & X1 & X2)]; [auto|]. destruct (Nat.eq_dec l' l) as [->|NE]; [auto|]. left. right. exists l'. split; [lia|exact X2].
  - rewrite E. cbn [bind]. exists u, L. split; [reflexivity|]. split; [exact A|]. split.
    + apply NoDup_Permutation; [exact B|apply NoDup_filter, seq_NoDup|]. intros f. rewrite D, filter_In, in_seq. split.
      * intros (X1 & X2 & l & X3 & X4). split; [lia|]. destruct (MK f X1) as [M1 _]. assert (IV : In (nth l vars 0) vars) by (apply nth_In; exact X3). apply scls_In in IV.
        assert (EQ : comp (ia f) = comp (ja f)) by (destruct (Nat.eq_dec (comp (ia f)) (comp (ja f))) as [Y|Y]; [exact Y|rewrite (M1 Y) in X2; discriminate X2]).
        unfold inside. rewrite <- EQ. assert (EK : comp (ia f) = k) by (destruct X4 as [X4|X4]; rewrite X4 in IV; destruct IV; congruence). rewrite EK, Nat.eqb_refl. reflexivity.
      * intros [X1 X2]. split; [lia|]. assert (X1' : f < F) by lia. split; [apply MK; assumption|]. unfold inside in X2. apply andb_true_iff in X2. destruct X2 as [X2 _]. apply Nat.eqb_eq in X2. destruct (fac_ok gm MC f X1') as (_ & L2 & _).
        assert (I : In (ia f) vars) by (apply scls_In; lia). apply (In_nth _ _ 0) in I. destruct I as (l & Hl & EL). exists l. split; [exact Hl|]. left. exact EL.
    + intros f Hf. rewrite G by exact Hf. destruct (fac_ok gm MC f Hf) as (_ & L2 & _). split.
      * intros [X|(l & X1 & X2)]; [auto|]. right. assert (IV : In (nth l vars 0) vars) by (apply nth_In; exact X1). apply scls_In in IV. destruct X2 as [X2|X2]; rewrite X2 in IV; [left|right]; apply IV.
      * intros [X|X]; [auto|]. right. assert (Z : exists v, (v = ia f \/ v = ja f) /\ In v vars) by (destruct X as [X|X]; [exists (ia f)|exists (ja f)]; (split; [auto|apply scls_In; lia])).
        destruct Z as (v & Z1 & Z2). apply (In_nth _ _ 0) in Z2. destruct Z2 as (l & Hl & EL). exists l. split; [exact Hl|]. rewrite EL. destruct Z1; auto.
Qed.
Variable L : list nat.
Hypothesis PL : Permutation L (filter (inside k) (seq 0 F)).
Notation sub := (mkGmv (repeat (length vars) (length vars)) (map subfac L)).
Lemma L_In : forall f, In f L -> f < F /\ comp (ia f) = k /\ comp (ja f) = k.
Proof. intros f I. apply (Permutation_in _ PL) in I. apply filter_In in I. destruct I as [I1 I2]. apply in_seq in I1. unfold inside in I2. apply andb_true_iff in I2. rewrite !Nat.eqb_eq in I2. split; [lia|exact I2]. Qed.
Lemma sub_multicut : multicut sub.
Proof.
  split; cbn [v_labels v_factors]; rewrite repeat_length; [reflexivity|]. apply Forall_forall. intros fc I. apply in_map_iff in I. destruct I as (f & <- & I). destruct (L_In f I) as (Hf & C1 & C2). destruct (fac_ok gm MC f Hf) as (_ & L2 & _).
  assert (A := g2l_lt (ia f)). assert (B := g2l_lt (ja f)). assert (D := g2l_inj (ia f) (ja f)). exists (Nat.min (nth (ia f) g2l 0) (nth (ja f) g2l 0)), (Nat.max (nth (ia f) g2l 0) (nth (ja f) g2l 0)), 0%Qc, (wt f). split; [reflexivity|]. split; [|intros; reflexivity].
  specialize (A ltac:(lia) C1). specialize (B ltac:(lia) C2). assert (nth (ia f) g2l 0 <> nth (ja f) g2l 0) by (intros X; apply D in X; auto; lia). lia.
Qed.
Lemma sub_total : forall z, total AdderQ sub z = qsum (fun f => if nth (nth (ia f) g2l 0) z 0 =? nth (nth (ja f) g2l 0) z 0 then 0%Qc else wt f) (filter (inside k) (seq 0 F)).
Proof.
  intros z. change (total AdderQ sub z) with (energy sub z). rewrite energy_sum. cbn [v_factors]. rewrite qsum_map. rewrite <- (qsum_perm _ _ _ _ PL). apply qsum_ext. intros f _. unfold subfac. cbn [fst snd at_vars map nth].
  destruct (Nat.le_ge_cases (nth (ia f) g2l 0) (nth (ja f) g2l 0)) as [H|H]; [rewrite Nat.min_l, Nat.max_r by exact H; reflexivity|]. rewrite Nat.min_r, Nat.max_l by exact H. rewrite Nat.eqb_sym. reflexivity.
Qed.
(** a labeling of all variables as one of the submodel: a label is the first position with it *)
Fixpoint first_at (y : list nat) (vs : list nat) (a : nat) : nat := match vs with [] => 0 | v :: vs => if nth v y 0 =? a then 0 else S (first_at y vs a) end.
Lemma first_at_ok : forall y vs v, In v vs -> first_at y vs (nth v y 0) < length vs /\ nth (nth (first_at y vs (nth v y 0)) vs 0) y 0 = nth v y 0.
Proof.
  intros y. induction vs as [|w vs IH]; intros v I; [destruct I|]. cbn [first_at length]. destruct (Nat.eqb_spec (nth w y 0) (nth v y 0)) as [E|E]; [cbn [nth]; split; [lia|exact E]|].
  destruct I as [<-|I]; [congruence|]. destruct (IH v I) as [A B]. cbn [nth]. split; [lia|exact B].
Qed.
Definition relabel (y : list nat) : list nat := map (fun v => first_at y vars (nth v y 0)) vars.
Lemma relabel_ok : forall y, labeling sub (relabel y).
Proof.
  intros y. unfold labeling, in_shape, relabel. cbn [v_labels]. assert (X : forall m vs, Forall (fun v => first_at y vars (nth v y 0) < m) vs -> Forall2 lt (map (fun v => first_at y vars (nth v y 0)) vs) (repeat m (length vs))).
  { intros m. induction vs as [|v vs IH]; intros H; cbn; constructor; inversion H; auto. }
  apply X. apply Forall_forall. intros v I. apply first_at_ok. exact I.
Qed.
Lemma relabel_total : forall y, total AdderQ sub (relabel y) = qsum (cutc y) (filter (inside k) (seq 0 F)).
Proof.
  intros y. rewrite sub_total. apply qsum_ext. intros f I. apply (Permutation_in _ (Permutation_sym PL)) in I. destruct (L_In f I) as (Hf & C1 & C2). destruct (fac_ok gm MC f Hf) as (_ & L2 & _).
  destruct (g2l_lt (ia f)) as [A1 A2]; [lia|exact C1|]. destruct (g2l_lt (ja f)) as [B1 B2]; [lia|exact C2|]. unfold relabel, cutc.
  set (h := fun v => first_at y vars (nth v y 0)). assert (NT : forall v, v < n -> comp v = k -> nth (nth v g2l 0) (map h vars) 0 = h v).
  { intros v H C. destruct (g2l_lt v H C) as [D1 D2]. rewrite (nth_indep _ 0 (h 0)) by (rewrite map_length; exact D1). rewrite map_nth, D2. reflexivity. }
  rewrite !NT by (assumption || lia). unfold h.
  assert (X : (first_at y vars (nth (ia f) y 0) =? first_at y vars (nth (ja f) y 0)) = (nth (ia f) y 0 =? nth (ja f) y 0)); [|rewrite X; reflexivity].
  destruct (Nat.eqb_spec (nth (ia f) y 0) (nth (ja f) y 0)) as [E|E]; [rewrite E; apply Nat.eqb_refl|]. apply Nat.eqb_neq. intros X. apply E.
  assert (I1 : In (ia f) vars) by (apply scls_In; lia). assert (I2 : In (ja f) vars) by (apply scls_In; lia). rewrite <- (proj2 (first_at_ok y vars _ I1)), <- (proj2 (first_at_ok y vars _ I2)), X. reflexivity.
Qed.
End Model.
End Sub.
