(** From the invariant of constrainedOptimum to its result and to that of modeFromFactorMarginal. *)
From Coq Require Import Sorted Permutation Relations.
From Verif Require Import Base Values GmView GmViewSpec ShapeSpec ShapeProofs IndexingProofs GmProofs FactorOpsModel FactorOpsSpec FactorOpsProofs FactorOpsAcc MpModel MpSpec MpSum MpState MpMessages MpTables ModeModel ModeSpec ModeSelect ModeLabel ModeTree ModeProofs.

Section Run.
Variable T : Type.
Variable fin : T -> Prop.
Variable OP : oper T.
Variable ACC : accum T.
Hypothesis SL : semiring_laws fin OP ACC.
Hypothesis AL : acc_laws fin OP ACC.
Hypothesis SE : acc_select fin ACC.
Variable close : T -> T -> bool.
Variable g : gmv T.
Hypothesis WF : wf_gmv g.
Hypothesis FG : fin_gmv fin g.
Variables vone v0 vzero : T.
Hypothesis F1 : fin vone.
Variable maxLabel : nat.
Notation n := (length (v_labels g)).
Notation m := (length (v_factors g)).
Notation nl := (labels_at g).
Hypothesis ML : forall v, v < n -> nl v <= maxLabel.
Notation op := (o_op OP).
Notation bop := (a_bop ACC).
Notation vars := (vars T OP g).
Notation okl := (okl T g).
Notation E := (value_at OP g).
Notation best_in := (best_in T OP ACC g).
Notation un := (un T g maxLabel).
Notation nun := (nun T g maxLabel).
Notation clegal := (clegal T g maxLabel).
Variable marginal : nat -> outcome (ifactor T).
Variable factorMarginal : nat -> outcome (ifactor T).
Hypothesis HM : forall v, v < n -> holds T fin OP ACC g [v] (marginal v).
Hypothesis HF : forall f, f < m -> vars f <> [] -> holds T fin OP ACC g (vars f) (factorMarginal f).
Let P0 : positive (v_labels g) := POS T g WF.

(** ** Lists and functions *)
Lemma list_okl : forall x, labeling g x <-> length x = n /\ okl (fun v => nth v x 0).
Proof.
  intros x. unfold labeling, in_shape. split.
  - intros H. split; [clear - H; induction H; cbn [length]; auto|]. intros v Hv. unfold labels_at. clear - H Hv. revert v Hv. induction H as [|a b x l A B IH]; intros [|v] Hv; cbn [length nth] in *; try lia. apply IH. lia.
  - intros [L H]. assert (X := okl_labeling T g (fun v => nth v x 0) H). unfold labeling, in_shape in X. rewrite <- L in X. rewrite map_seq_nth in X. auto.
Qed.
Lemma list_total : forall x, length x = n -> total OP g x = E (fun v => nth v x 0).
Proof. intros x L. unfold value_at. f_equal. rewrite <- L. symmetry. apply map_seq_nth. Qed.
Lemma fun_list : forall (x : nat -> nat) v, v < n -> nth v (map x (seq 0 n)) 0 = x v.
Proof. intros x v Hv. rewrite nth_map_in with (d := 0) by (rewrite seq_length; auto). rewrite seq_nth; auto. Qed.

(** ** Given labels *)
Definition start : cstate := mkC (repeat maxLabel n) [] 0.
Definition put_given (vs ls : list nat) (st : cstate) (i : nat) : outcome cstate :=
  v <- rd vs i ;; l <- rd ls i ;; conf <- wr (c_conf st) v l ;; Ret (mkC conf (v :: c_wait st) (S (c_fixed st))).
Lemma givens : forall vs ls, NoDup vs -> length vs = length ls -> (forall i, i < length vs -> nth i vs 0 < n /\ nth i ls 0 < nl (nth i vs 0)) ->
  exists c, foldM (put_given vs ls) (seq 0 (length ls)) start = Ret (mkC c (rev vs) (length vs)) /\ clegal c /\
    (forall v, v < n -> un c v = false <-> In v vs) /\ (forall i, i < length vs -> nth (nth i vs 0) c 0 = nth i ls 0) /\ nun c + length vs = n.
Proof.
  intros vs ls ND LL H.
  assert (G : forall k, k <= length vs -> exists c, foldM (put_given vs ls) (seq 0 k) start = Ret (mkC c (rev (firstn k vs)) k) /\ clegal c /\
    (forall v, v < n -> un c v = false <-> In v (firstn k vs)) /\ (forall i, i < k -> nth (nth i vs 0) c 0 = nth i ls 0) /\ nun c + k = n).
  { induction k as [|k IH]; intros Hk.
    - exists (repeat maxLabel n). cbn [seq foldM firstn rev]. split; auto.
      assert (U : forall v, v < n -> un (repeat maxLabel n) v = true). { intros v Hv. apply un_true; auto. clear - Hv. revert v Hv. induction n as [|k IHk]; intros [|v] Hv; cbn [repeat nth]; try lia; auto. apply IHk. lia. }
      split; [split; [apply repeat_length|intros v Hv Q; apply (U v) in Hv as Hv'; apply un_true in Hv'; auto; congruence]|].
      split; [intros v Hv; rewrite (U v Hv); split; [discriminate|intros []]|]. split; [lia|].
      unfold ModeProofs.nun. rewrite Nat.add_0_r. transitivity (length (seq 0 n)); [|apply seq_length]. f_equal.
      assert (X : forall l, (forall v, In v l -> v < n) -> filter (un (repeat maxLabel n)) l = l). { induction l as [|a l IHl]; intros B; auto. cbn [filter]. rewrite U by (apply B; left; auto). f_equal. apply IHl. intros; apply B; right; auto. }
      apply X. intros v Hv. apply in_seq in Hv. lia.
    - destruct IH as (c & Ec & CL & US & VS & NU); [lia|]. rewrite foldM_seq_S, Ec. cbn [bind]. unfold put_given at 1. cbn [Nat.add]. destruct (H k) as [Hv Hl]; [lia|].
      rewrite (rd_nth _ vs k 0), (rd_nth _ ls k 0) by lia. cbn [bind c_conf c_wait c_fixed]. set (v := nth k vs 0) in *. set (l := nth k ls 0) in *.
      assert (LC : length c = n) by apply CL. rewrite wr_Ret by lia. cbn [bind].
      assert (NI : ~ In v (firstn k vs)).
      { intros I. apply (In_nth _ _ 0) in I. destruct I as (j & Hj & Ej). rewrite firstn_length in Hj. assert (Hj' : j < k) by lia. clear Hj.
        assert (X : nth j (firstn k vs) 0 = nth j vs 0). { rewrite <- (firstn_skipn k vs) at 2. rewrite app_nth1; auto. rewrite firstn_length. lia. }
        rewrite X in Ej. assert (j = k); [|lia]. apply (proj1 (NoDup_nth vs 0) ND); auto; lia. }
      assert (Uv : un c v = true). { destruct (un c v) eqn:Q; auto. exfalso. apply NI. apply US; auto. }
      assert (FS : firstn (S k) vs = firstn k vs ++ [v]). { apply firstn_S_nth. unfold v. apply nth_error_nth'. lia. }
      exists (upd c v l). split; [rewrite FS, rev_app_distr; reflexivity|]. split; [apply clegal_upd; auto|].
      split; [|split].
      + intros w Hw. rewrite un_upd_false, (US w Hw), FS, in_app_iff by auto. cbn [In]. intuition congruence.
      + intros i Hi. destruct (Nat.eq_dec i k) as [->|N]; [apply nth_upd_eq; lia|]. rewrite nth_upd_neq; [apply VS; lia|]. intros Q. apply N. apply (proj1 (NoDup_nth vs 0) ND); auto; lia.
      + pose proof (nun_upd T g maxLabel ML c v l CL Uv Hl). lia. }
  destruct (G (length vs)) as (c & Ec & R); auto. rewrite firstn_all in *. exists c. rewrite <- LL. auto.
Qed.

(** ** The whole function *)
Hypothesis AC : acyclic g.
Lemma constrained_ok : forall (Opt : (nat -> nat) -> Prop) (G : nat -> Prop) vs ls ds ps c,
  (forall x z, Opt x -> okl z -> (forall v, G v -> x v = z v) -> bop (E x) (E z) = false -> Opt z) ->
  foldM (put_given vs ls) (seq 0 (length ls)) start = Ret (mkC c (ds ++ ps) (length vs)) ->
  inv T OP ACC g maxLabel Opt G c ds ps [] (length vs) -> length (ds ++ ps) + nun c <= n ->
  exists r, constrainedOptimum T OP ACC vone v0 vzero maxLabel g marginal factorMarginal vs ls = Ret r /\ labeling g r /\ exists x, okl x /\ Opt x /\ forall v, v < n -> x v = nth v r 0.
Proof.
  intros Opt G vs ls ds ps c O1 Ec I M. unfold constrainedOptimum.
  change (foldM _ (seq 0 (length ls)) (mkC (repeat maxLabel (nvars T g)) [] 0)) with (foldM (put_given vs ls) (seq 0 (length ls)) start). rewrite Ec. cbn [bind].
  destruct (settle_ok T fin OP ACC SL AL SE g WF FG AC vone v0 vzero F1 maxLabel ML marginal factorMarginal HM HF Opt G O1 (seq 0 (nvars T g)) c ds ps (length vs) I M) as (c' & w & f' & x & E2 & CL & US & X & OX & FX).
  - intros v Hv. apply in_seq in Hv. unfold nvars in Hv. lia.
  - intros v Uv. apply in_seq. pose proof (un_lt T g maxLabel c v Uv). unfold nvars. lia.
  - rewrite E2. cbn [bind c_conf]. exists c'. split; auto. split.
    + apply list_okl. split; [apply CL|]. intros v Hv. apply CL; auto. apply (un_false T g maxLabel c' v Hv); auto.
    + exists x. split; auto.
Qed.

Definition opt_at (x : nat -> nat) : Prop := okl x /\ forall z, okl z -> bop (E z) (E x) = false.
Lemma E_fin' : forall x, okl x -> fin (E x).
Proof. apply (E_fin T fin OP ACC SL g WF FG). Qed.
Lemma opt_exists : exists x, opt_at x.
Proof.
  assert (X0 : okl (fun _ => 0)) by (intros w Hw; apply (nl_pos T g P0); auto).
  destruct (marg_best T fin OP ACC SL AL SE g WF FG [] (fun _ => 0)) as (y & (Y1 & Y2 & Y3) & _); auto; [intros v []|]. exists y. split; auto. intros z Z. apply Y3; auto. intros v [].
Qed.
Lemma opt_up : forall x z, opt_at x -> okl z -> bop (E x) (E z) = false -> opt_at z.
Proof. intros x z [X OX] Z B. split; auto. intros y Y. apply (al_negtrans _ _ _ AL _ (E x)); auto; apply E_fin'; auto. Qed.
Lemma opt_list : forall r x, labeling g r -> opt_at x -> (forall v, v < n -> x v = nth v r 0) -> optimal OP ACC g r.
Proof.
  intros r x LR [X OX] H. pose proof (proj1 (list_okl r) LR) as [L R]. split; auto. intros y LY. pose proof (proj1 (list_okl y) LY) as [L' Y].
  rewrite !list_total by auto. rewrite (E_ext T OP g (fun v => nth v r 0) x) by (intros; symmetry; auto). apply OX. auto.
Qed.

(** With labels that all best labelings have, the result is a best labeling. *)
Lemma known_optimal : forall vs ls, NoDup vs -> length vs = length ls -> (forall i, i < length vs -> nth i vs 0 < n) ->
  (forall i x, i < length vs -> opt_at x -> x (nth i vs 0) = nth i ls 0) ->
  exists r, constrainedOptimum T OP ACC vone v0 vzero maxLabel g marginal factorMarginal vs ls = Ret r /\ optimal OP ACC g r.
Proof.
  intros vs ls ND LL HV HO. destruct opt_exists as (x0 & OX0).
  destruct (givens vs ls ND LL) as (c & Ec & CL & US & VS & NU).
  { intros i Hi. split; [apply HV; auto|]. rewrite <- (HO i x0 Hi OX0). apply OX0. apply HV; auto. }
  assert (IR : forall v, In v (rev vs) <-> In v vs) by (intros v; symmetry; apply in_rev).
  assert (LT : forall v, In v vs -> v < n) by (intros v Hv; apply (In_nth _ _ 0) in Hv; destruct Hv as (i & Hi & <-); auto).
  destruct (constrained_ok opt_at (fun _ => False) vs ls [] (rev vs) c) as (r & Er & LR & x & X & OX & FX).
  - intros x z OX Z _ B. eapply opt_up; eauto.
  - exact Ec.
  - assert (NP : forall d, un c d = false -> ~ In d (rev vs) -> forall h, In d (vars h) -> False).
    { intros d D P h Dh. apply P. apply IR. apply US; auto. apply (vars_lt T OP g WF h); auto. }
    constructor; auto.
    + cbn [app]. apply NoDup_rev. auto.
    + cbn [app]. intros v Hv. apply IR in Hv. split; auto. apply US; auto.
    + intros u d1 h1 d2 h2 Uu D1 P1 D2 P2 T1 T2. exfalso. apply (NP d1 D1 P1 h1). apply T1.
    + intros d h w D P Hh Dh. exfalso. apply (NP d D P h Dh).
    + exists x0. split; [apply OX0|]. split; auto. intros v Hv Q. apply US in Q; auto. apply (In_nth _ _ 0) in Q. destruct Q as (i & Hi & <-). rewrite VS by auto. apply HO; auto.
    + intros v [].
    + intros d Hd x y OX Y B. apply IR in Hd. apply (In_nth _ _ 0) in Hd. destruct Hd as (i & Hi & <-). rewrite (HO i x), (HO i y); auto. eapply opt_up; eauto.
    + lia.
  - cbn [app]. rewrite rev_length. lia.
  - exists r. split; auto. eapply opt_list; eauto.
Qed.

(** With one given label, the result is best among the labelings with that label. *)
Lemma one_given : forall v l, v < n -> l < nl v ->
  exists r, constrainedOptimum T OP ACC vone v0 vzero maxLabel g marginal factorMarginal [v] [l] = Ret r /\ optimal_given OP ACC g [(v, l)] r.
Proof.
  intros v l Hv Hl. destruct (givens [v] [l]) as (c & Ec & CL & US & VS & NU).
  { repeat constructor; auto. } { auto. } { intros [|i] Hi; cbn [length nth] in *; [auto|lia]. }
  assert (X0 : okl (set (fun _ => 0) v l)) by (apply okl_set; auto; intros w Hw; apply (nl_pos T g P0); auto).
  assert (IV : inside T g [v]) by (intros w [<-|[]]; auto).
  destruct (marg_best T fin OP ACC SL AL SE g WF FG [v] (set (fun _ => 0) v l) IV X0) as (y & BY & _).
  set (Opt := fun x => best_in (fun w => w = v) (fun _ => l) x).
  assert (OY : Opt y). { unfold Opt. eapply best_ext; [| |exact BY]; [intros w; cbn; intuition|]. intros w [<-|[]]. unfold set. rewrite Nat.eqb_refl. auto. }
  assert (UV : un c v = false) by (apply US; auto; left; auto).
  destruct (constrained_ok Opt (fun w => w = v) [v] [l] [v] [] c) as (r & Er & LR & x & X & OX & FX).
  - intros x z (X1 & X2 & X3) Z A B. split; auto. split; [intros w ->; rewrite <- A by auto; apply X2; auto|]. intros w W AW. apply (al_negtrans _ _ _ AL _ (E x)); auto; apply E_fin'; auto.
  - exact Ec.
  - assert (NV : forall d h, un c d = false -> In d (vars h) -> d = v).
    { intros d h D Dh. apply US in D; [destruct D as [|[]]; auto|]. apply (vars_lt T OP g WF h); auto. }
    constructor; auto.
    + repeat constructor. auto.
    + intros w [<-|[]]. auto.
    + intros u d1 h1 d2 h2 Uu D1 P1 D2 P2 T1 T2. assert (d1 = v) as -> by (apply (NV d1 h1); auto; apply T1). assert (d2 = v) as -> by (apply (NV d2 h2); auto; apply T2).
      apply (touch_one T OP g AC (un c) v h1 h2 u); auto.
    + intros d h w D P Hh Dh Wh Uw. left. exists v. split; [left; auto|]. rewrite <- (NV d h); auto.
    + exists y. split; [apply BY|]. split; auto. intros w Hw Q. apply US in Q; auto. destruct Q as [<-|[]]. pose proof (VS 0) as V0. cbn [length nth] in V0. rewrite V0 by lia. symmetry. apply OY. auto.
    + intros w ->. auto.
    + intros d [].
    + cbn [length] in *. lia.
  - cbn [app length] in *. lia.
  - exists r. split; auto. pose proof (proj1 (list_okl r) LR) as [L R]. destruct OX as (O1 & O2 & O3). split; auto. split.
    + repeat constructor. cbn [fst snd]. rewrite (nth_error_nth' r 0) by lia. f_equal. rewrite <- FX by auto. symmetry. apply O2. auto.
    + intros z LZ GZ. pose proof (proj1 (list_okl z) LZ) as [L' Z]. inversion GZ as [|? ? G1 _]; subst. cbn [fst snd] in G1.
      rewrite !list_total by auto. rewrite (E_ext T OP g (fun v => nth v r 0) x) by (intros; symmetry; auto). apply O3; auto. intros w ->. symmetry. apply nth_error_nth. auto.
Qed.

(** ** Labels that are uniquely best *)
Hypothesis CLO : close_laws fin ACC close.
Lemma marginal_values : forall v, v < n -> exists out h, marginal v = Ret out /\ (forall k, k < nl v -> out_at T out k = Ret (h k)) /\ (forall k, k < nl v -> fin (h k)) /\
  (forall x, opt_at x -> forall k, k < nl v -> bop (h k) (h (x v)) = false) /\
  (forall k, k < nl v -> (forall j, j < nl v -> bop (h j) (h k) = false) -> exists x, opt_at x /\ x v = k).
Proof.
  intros v Hv. destruct (HM v Hv) as (out & c & Eo & LO & FC & FO & M). eexists _, (fun k => nth k out vone). split; [exact Eo|].
  assert (L : length out = nl v) by (rewrite LO; cbn [map size_of fold_right]; unfold size_of; cbn; lia).
  assert (IS : inside T g [v]) by (intros w [<-|[]]; auto). assert (SS : StronglySorted lt [v]) by (repeat constructor).
  assert (FH : forall k, fin (nth k out vone)). { intros k. destruct (nth_in_or_default k out vone) as [H|H]; [|rewrite H; auto]. rewrite Forall_forall in FO. auto. }
  assert (TV : forall w, tab T g vone [v] out w = nth (w v) out vone). { intros w. unfold tab. cbn [map]. f_equal. cbn [index_of]. rewrite Nat.mul_0_r. lia. }
  split; [|split; [auto|split]].
  - intros k Hk. unfold out_at, t_readn. cbn [if_fn t_data]. apply rd_nth. lia.
  - intros x [X OX] k Hk. set (z := set x v k). assert (Z : okl z) by (apply okl_set; auto).
    assert (ZV : z v = k) by (unfold z, set; rewrite Nat.eqb_refl; auto).
    destruct (marg_best T fin OP ACC SL AL SE g WF FG [v] x IS X) as (y & (Y1 & Y2 & Y3) & EY). destruct (marg_best T fin OP ACC SL AL SE g WF FG [v] z IS Z) as (w & (W1 & W2 & W3) & EW).
    rewrite (tab_marginal T OP ACC g WF vone [v] out c) in EY, EW by auto. rewrite TV in EY, EW. rewrite ZV in EW.
    rewrite <- (al_mono _ _ _ AL _ _ c) by auto. rewrite EW, EY. apply (al_negtrans _ _ _ AL _ (E x)); auto; try (apply E_fin'; auto). apply Y3; auto. intros u _; auto.
  - intros k Hk B. set (z := set (fun _ => 0) v k). assert (Z : okl z) by (apply okl_set; auto; intros w Hw; apply (nl_pos T g P0); auto).
    destruct (marg_best T fin OP ACC SL AL SE g WF FG [v] z IS Z) as (y & (Y1 & Y2 & Y3) & EY).
    assert (ZV : z v = k) by (unfold z, set; rewrite Nat.eqb_refl; auto). exists y. split; [|rewrite <- (Y2 v (or_introl eq_refl)); auto]. split; auto. intros w W.
    destruct (marg_best T fin OP ACC SL AL SE g WF FG [v] w IS W) as (t & (T1 & T2 & T3) & ET).
    rewrite (tab_marginal T OP ACC g WF vone [v] out c) in EY, ET by auto. rewrite TV in EY, ET. rewrite ZV in EY.
    specialize (B (w v) (W v Hv)). rewrite <- (al_mono _ _ _ AL _ _ c) in B by auto. rewrite EY, ET in B.
    apply (al_negtrans _ _ _ AL _ (E t)); auto; try (apply E_fin'; auto). apply T3; auto. intros u _; auto.
Qed.

Lemma unique_ok : forall v, v < n -> exists state unique, unique_label T ACC close g marginal v = Ret (state, unique) /\ (unique = true -> forall x, opt_at x -> x v = state).
Proof.
  intros v Hv. destruct (marginal_values v Hv) as (out & h & Eo & HO & FH & BO & _). unfold unique_label. rewrite Eo. cbn [bind]. pose proof (nl_pos T g P0 v Hv) as LP.
  rewrite (HO 0) by auto. cbn [bind]. rewrite (rd_labels T g v Hv). cbn [bind].
  match goal with |- context[foldM ?b _ _] => set (body := b) end.
  assert (G : forall k, k < nl v -> exists s q, foldM body (seq 1 k) (h 0, 0, true) = Ret (h s, s, q) /\ s <= k /\
     forall j, j <= k -> j <> s -> bop (h s) (h j) = true \/ (q = false /\ close (h j) (h s) = true)).
  { induction k as [|k IH]; intros Hk.
    - exists 0, true. split; auto. split; auto. intros j Hj N. lia.
    - destruct IH as (s & q & Es & Ls & B); [lia|]. rewrite seq_S, foldM_app, Es. cbn [bind foldM Nat.add]. unfold body at 1. rewrite (HO (S k)) by auto. cbn [bind].
      assert (Fs : fin (h s)) by (apply FH; lia). assert (Fk : fin (h (S k))) by (apply FH; auto).
      destruct (close (h (S k)) (h s)) eqn:C1; [|destruct (bop (h (S k)) (h s)) eqn:C2].
      + exists s, false. split; auto. split; [lia|]. intros j Hj N. destruct (Nat.eq_dec j (S k)) as [->|]; auto. destruct (B j) as [|[_ ?]]; auto. lia.
      + exists (S k), true. split; auto. split; [lia|]. intros j Hj N. left. assert (Fj : fin (h j)) by (apply FH; lia). destruct (Nat.eq_dec j s) as [->|NS]; auto. destruct (B j) as [B1|[_ B1]]; auto; [lia| |].
        * apply (al_trans _ _ _ AL _ (h s)); auto.
        * apply (cl_beats _ _ _ CLO _ _ (h s)); auto.
      + exists s, q. split; auto. split; [lia|]. intros j Hj N. destruct (Nat.eq_dec j (S k)) as [->|]; [left; apply (cl_worse _ _ _ CLO); auto|]. apply B; auto. lia. }
  destruct (G (nl v - 1)) as (s & q & Es & Ls & B); [lia|]. rewrite Es. cbn [bind]. exists s, q. split; auto. intros -> x OX.
  destruct (Nat.eq_dec (x v) s) as [|N]; auto. exfalso. assert (XV : x v < nl v) by (apply OX; auto). destruct (B (x v)) as [B1|[B1 _]]; [lia|auto| |discriminate].
  rewrite (BO x OX s) in B1 by lia. discriminate.
Qed.

Theorem mode_optimal : exists r, modeFromFactorMarginal T OP ACC close vone v0 vzero maxLabel g marginal factorMarginal = Ret r /\ optimal OP ACC g r.
Proof.
  unfold modeFromFactorMarginal.
  assert (G : forall k, k <= n -> exists kv ks, foldM (fun (st : list nat * list nat) v => '(state, unique) <- unique_label T ACC close g marginal v ;; Ret (if unique : bool then (fst st ++ [v], snd st ++ [state]) else st)) (seq 0 k) ([], []) = Ret (kv, ks) /\
     NoDup kv /\ length kv = length ks /\ (forall v, In v kv -> v < k) /\ forall i x, i < length kv -> opt_at x -> x (nth i kv 0) = nth i ks 0).
  { induction k as [|k IH]; intros Hk.
    - exists [], []. cbn [seq foldM]. split; auto. split; [constructor|]. split; auto. split; [intros v []|]. intros i x Hi. cbn in Hi. lia.
    - destruct IH as (kv & ks & Ek & ND & LL & LT & B); [lia|]. rewrite foldM_seq_S, Ek. cbn [bind Nat.add]. destruct (unique_ok k) as (s & q & Eu & U); [lia|]. rewrite Eu. cbn [bind fst snd]. destruct q.
      + exists (kv ++ [k]), (ks ++ [s]). split; auto. split; [apply NoDup_app_intro; auto; [repeat constructor; auto|intros y Hy [<-|[]]; apply LT in Hy; lia]|]. split; [rewrite !app_length; cbn; lia|]. split; [intros v Hv; apply in_app_iff in Hv; destruct Hv as [Hv|[<-|[]]]; auto; apply LT in Hv; lia|].
        intros i x Hi OX. rewrite app_length in Hi. cbn [length] in Hi. destruct (Nat.eq_dec i (length kv)) as [->|N].
        * rewrite app_nth2, Nat.sub_diag by lia. rewrite LL, app_nth2, Nat.sub_diag by lia. cbn [nth]. auto.
        * rewrite !app_nth1 by lia. apply B; auto. lia.
      + exists kv, ks. split; auto. split; auto. split; auto. split; auto. intros v Hv. apply LT in Hv. lia. }
  destruct (G (nvars T g)) as (kv & ks & Ek & ND & LL & LT & B); [unfold nvars; lia|]. rewrite Ek. cbn [bind]. apply known_optimal; auto. intros i Hi. apply LT. apply nth_In. auto.
Qed.

(** modeFromMarginal: every label belongs to some best labeling. *)
Lemma mode_label_ok : forall v, v < n -> exists l x, mode_label T ACC g marginal v = Ret l /\ opt_at x /\ x v = l.
Proof.
  intros v Hv. destruct (marginal_values v Hv) as (out & h & Eo & HO & FH & _ & BO). unfold mode_label. rewrite Eo. cbn [bind]. pose proof (nl_pos T g P0 v Hv) as LP.
  rewrite (HO 0) by auto. cbn [bind]. rewrite (rd_labels T g v Hv). cbn [bind].
  match goal with |- context[foldM ?b _ _] => set (body := b) end.
  assert (G : forall k, k < nl v -> exists s, foldM body (seq 1 k) (h 0, 0) = Ret (h s, s) /\ s <= k /\ forall j, j <= k -> bop (h j) (h s) = false).
  { induction k as [|k IH]; intros Hk.
    - exists 0. split; auto. split; auto. intros j Hj. replace j with 0 by lia. apply (al_irrefl _ _ _ AL). auto.
    - destruct IH as (s & Es & Ls & B); [lia|]. rewrite seq_S, foldM_app, Es. cbn [bind foldM Nat.add]. unfold body at 1. rewrite (HO (S k)) by auto. cbn [bind fst].
      assert (Fs : fin (h s)) by (apply FH; lia). assert (Fk : fin (h (S k))) by (apply FH; auto).
      destruct (bop (h (S k)) (h s)) eqn:Q.
      + exists (S k). split; auto. split; auto. intros j Hj. destruct (Nat.eq_dec j (S k)) as [->|]; [apply (al_irrefl _ _ _ AL); auto|]. assert (Fj : fin (h j)) by (apply FH; lia).
        apply (al_negtrans _ _ _ AL _ (h s)); auto; [apply B; lia|]. apply (not_both T fin OP ACC AL); auto.
      + exists s. split; auto. split; [lia|]. intros j Hj. destruct (Nat.eq_dec j (S k)) as [->|]; auto. apply B. lia. }
  destruct (G (nl v - 1)) as (s & Es & Ls & B); [lia|]. rewrite Es. cbn [bind]. destruct (BO s) as (x & OX & XV); [lia|intros j Hj; apply B; lia|]. exists s, x. auto.
Qed.
End Run.
