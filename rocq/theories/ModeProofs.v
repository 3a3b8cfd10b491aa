(** constrainedOptimum in an acyclic model: the labels it has set always belong to a best labeling. *)
From Coq Require Import Sorted Permutation Relations.
From Verif Require Import Base Values GmView GmViewSpec ShapeSpec FactorOpsModel FactorOpsSpec MpModel MpSpec MpSum MpState MpMessages ModeModel ModeSelect ModeLabel ModeTree.

Section Mode.
Variable T : Type.
Variable fin : T -> Prop.
Variable OP : oper T.
Variable ACC : accum T.
Hypothesis SL : semiring_laws fin OP ACC.
Hypothesis AL : acc_laws fin OP ACC.
Hypothesis SE : acc_select fin ACC.
Variable g : gmv T.
Hypothesis WF : wf_gmv g.
Hypothesis FG : fin_gmv fin g.
Hypothesis AC : acyclic g.
Variables vone v0 vzero : T.
Hypothesis F1 : fin vone.
Variable maxLabel : nat.
Notation n := (length (v_labels g)).
Notation m := (length (v_factors g)).
Notation nl := (labels_at g).
Hypothesis ML : forall v, v < n -> nl v <= maxLabel.
Notation op := (o_op OP).
Notation bop := (a_bop ACC).
Notation vars := (vars T OP g).
Notation okl := (okl T g).
Notation E := (value_at OP g).
Notation best_in := (best_in T OP ACC g).
Notation touch := (touch T OP g).
Notation reach := (reach T OP g).
Variable marginal : nat -> outcome (ifactor T).
Variable factorMarginal : nat -> outcome (ifactor T).
Hypothesis HM : forall v, v < n -> holds T fin OP ACC g [v] (marginal v).
Hypothesis HF : forall f, f < m -> vars f <> [] -> holds T fin OP ACC g (vars f) (factorMarginal f).
Notation visit_factor := (visit_factor T OP ACC vone v0 vzero maxLabel g factorMarginal).
Notation drain := (drain T OP ACC vone v0 vzero maxLabel g factorMarginal).
Notation set_root := (set_root T ACC maxLabel marginal).
Notation settle := (settle T OP ACC vone v0 vzero maxLabel g marginal factorMarginal).

(** ** Labels set so far *)
Definition un (c : list nat) (v : nat) : bool := (v <? n) && (nth v c 0 =? maxLabel).
Definition clegal (c : list nat) : Prop := length c = n /\ forall v, v < n -> nth v c 0 <> maxLabel -> nth v c 0 < nl v.
Definition nun (c : list nat) : nat := length (filter (un c) (seq 0 n)).
Lemma un_lt : forall c v, un c v = true -> v < n.
Proof. intros c v H. apply andb_true_iff in H. destruct H as [H _]. apply Nat.ltb_lt. auto. Qed.
Lemma un_true : forall c v, v < n -> un c v = true <-> nth v c 0 = maxLabel.
Proof. intros c v H. unfold un. apply Nat.ltb_lt in H. rewrite H. cbn [andb]. apply Nat.eqb_eq. Qed.
Lemma un_false : forall c v, v < n -> un c v = false <-> nth v c 0 <> maxLabel.
Proof. intros c v H. rewrite <- (un_true c v H). destruct (un c v); intuition congruence. Qed.

Section Upd.
Variables (c : list nat) (u l : nat).
Hypothesis CL : clegal c.
Hypothesis Uu : un c u = true.
Hypothesis Hl : l < nl u.
Let Hu : u < n := un_lt c u Uu.
Lemma un_upd : forall v, un (upd c u l) v = un c v && negb (v =? u).
Proof.
  intros v. destruct CL as [LC _]. unfold un. destruct (Nat.eqb_spec v u) as [->|N]; cbn [negb].
  - rewrite nth_upd_eq by lia. rewrite !andb_false_r. apply andb_false_iff. right. apply Nat.eqb_neq. pose proof (ML u Hu). lia.
  - rewrite nth_upd_neq by auto. rewrite andb_true_r. auto.
Qed.
Lemma un_upd_mono : forall v, un (upd c u l) v = true -> un c v = true.
Proof. intros v. rewrite un_upd. intros H. apply andb_true_iff in H. apply H. Qed.
Lemma un_upd_false : forall v, un (upd c u l) v = false <-> un c v = false \/ v = u.
Proof. intros v. rewrite un_upd. destruct (Nat.eqb_spec v u), (un c v); cbn; intuition congruence. Qed.
Lemma clegal_upd : clegal (upd c u l).
Proof.
  destruct CL as [LC LG]. split; [rewrite length_upd; auto|]. intros v Hv. destruct (Nat.eq_dec v u) as [->|N].
  - rewrite nth_upd_eq by lia. auto.
  - rewrite nth_upd_neq by auto. apply LG; auto.
Qed.
Lemma filter_less : forall (p : nat -> bool) ls, NoDup ls -> In u ls -> p u = true -> length (filter p ls) = S (length (filter (fun v => p v && negb (v =? u)) ls)).
Proof.
  intros p ls N I P. induction ls as [|a ls IH]; [destruct I|]. inversion N as [|? ? NI N']; subst. cbn [filter].
  destruct (Nat.eqb_spec a u) as [->|NE]; cbn [negb].
  - rewrite P, andb_false_r. cbn [length]. f_equal. f_equal. apply filter_ext_in. intros v Hv. destruct (Nat.eqb_spec v u) as [->|]; [contradiction|]. cbn [negb]. rewrite andb_true_r. auto.
  - rewrite andb_true_r. destruct I as [|I]; [congruence|]. specialize (IH N' I). destruct (p a); cbn [length]; lia.
Qed.
Lemma nun_upd : nun c = S (nun (upd c u l)).
Proof.
  unfold nun. rewrite (filter_less (un c)); auto; [|apply seq_NoDup|apply in_seq; lia]. f_equal. f_equal. apply filter_ext. intros v. symmetry. apply un_upd.
Qed.
End Upd.
Lemma nun_zero : forall c, nun c = 0 -> forall v, v < n -> un c v = false.
Proof.
  intros c H v Hv. destruct (un c v) eqn:Q; auto. exfalso. assert (X : In v (filter (un c) (seq 0 n))) by (apply filter_In; split; auto; apply in_seq; lia). unfold nun in H. destruct (filter (un c) (seq 0 n)); [destruct X|discriminate].
Qed.

(** ** Best labelings *)
Variable Opt : (nat -> nat) -> Prop.
Variable G : nat -> Prop.
Hypothesis O1 : forall x z, Opt x -> okl z -> (forall v, G v -> x v = z v) -> bop (E x) (E z) = false -> Opt z.
Definition fits (c : list nat) (x : nat -> nat) : Prop := forall v, v < n -> un c v = false -> x v = nth v c 0.
(** All best labelings give [d] the same label. *)
Definition fixed_by (d : nat) : Prop := forall x y, Opt x -> okl y -> bop (E x) (E y) = false -> y d = x d.

Lemma opt_step : forall c u (K : nat -> Prop) x y, clegal c -> un c u = true -> (forall v, G v -> v < n /\ un c v = false) ->
  (forall v, K v -> v < n /\ un c v = false) -> okl x -> Opt x -> fits c x ->
  best_in K (fun v => nth v c 0) y ->
  (forall d h, h < m -> un c d = false -> touch (un c) d h u -> x d = y d) ->
  exists z, okl z /\ Opt z /\ fits (upd c u (y u)) z.
Proof.
  intros c u K x y CL Uu GS KS X OX FX (Y1 & Y2 & Y3) B. destruct (region T OP g (un c) u (un_lt c) Uu) as (R & Ru & R1 & R2).
  assert (NR : forall v, un c v = false -> ~ In v R) by (intros v V I; apply R1 in I; destruct I; congruence).
  assert (Hl : y u < nl u) by (apply Y1; eapply un_lt; eauto).
  exists (mix R y x). assert (Z : okl (mix R y x)) by (apply mix_okl; auto). split; auto. split.
  - apply (O1 x); auto.
    + intros v Gv. rewrite mix_out; auto. apply NR. apply GS. auto.
    + apply (exchange T OP g WF fin ACC SL AL FG); auto.
      * intros h v d Hh Iv Vh Dh ND. apply (B d h Hh).
        -- destruct (un c d) eqn:Q; auto. destruct ND. eapply R2; eauto.
        -- split; auto. split; auto. exists v. destruct (R1 v Iv). auto.
      * apply Y3; [apply mix_okl; auto|]. intros v Kv. rewrite mix_out by (apply NR; apply KS; auto). apply Y2. auto.
  - intros v Hv. rewrite un_upd_false by auto. intros [V|V].
    + rewrite mix_out by auto. destruct CL as [LC _]. rewrite nth_upd_neq by (intros ->; congruence). apply FX; auto.
    + rewrite V, mix_in by auto. destruct CL as [LC _]. rewrite nth_upd_eq; auto. rewrite LC. eapply un_lt; eauto.
Qed.

(** ** The invariant *)
(** [ds] are waiting variables, [ps] waiting variables whose label is the same in all best labelings, [cur] the factors of
    the current variable still to be visited. *)
Record inv (c ds ps cur : list nat) (fixed : nat) : Prop := {
  i_legal : clegal c;
  i_nodup : NoDup (ds ++ ps);
  i_set : forall v, In v (ds ++ ps) -> v < n /\ un c v = false;
  i_one : forall u d1 h1 d2 h2, un c u = true -> un c d1 = false -> ~ In d1 ps -> un c d2 = false -> ~ In d2 ps ->
            touch (un c) d1 h1 u -> touch (un c) d2 h2 u -> h1 = h2;
  i_cover : forall d h w, un c d = false -> ~ In d ps -> h < m -> In d (vars h) -> In w (vars h) -> un c w = true ->
            (exists d', In d' ds /\ In d' (vars h)) \/ In h cur;
  i_opt : exists x, okl x /\ Opt x /\ fits c x;
  i_given : forall v, G v -> v < n /\ un c v = false;
  i_same : forall d, In d ps -> fixed_by d;
  i_count : fixed + nun c <= n }.

Lemma find_unset_spec : forall c vs var, (forall v, In v vs -> v < n) -> length c = n ->
  (find_unset maxLabel c vs var = Ret var /\ forall v, In v vs -> un c v = false) \/
  (exists u, find_unset maxLabel c vs var = Ret u /\ In u vs /\ un c u = true).
Proof.
  intros c vs var I L. induction vs as [|v vs IH]; cbn [find_unset]; [left; split; auto; intros v []|].
  assert (Hv : v < n) by (apply I; left; auto). rewrite (rd_nth _ c v 0) by lia. cbn [bind]. destruct (Nat.eqb_spec (nth v c 0) maxLabel) as [Q|Q].
  - right. exists v. split; auto. split; [left; auto|]. apply un_true; auto.
  - destruct IH as [[A B]|(u & A & B & C)]; [intros w Hw; apply I; right; auto| |].
    + left. split; auto. intros w [<-|Hw]; auto. apply un_false; auto.
    + right. exists u. split; auto. split; [right; auto|auto].
Qed.

(** Setting [u] through the factor [f] of the variable [var]. *)
Lemma inv_step : forall c ds ps cur fixed var f u l, inv c ds ps (f :: cur) fixed -> un c var = false -> ~ In var ps -> f < m -> In var (vars f) -> In u (vars f) -> un c u = true ->
  l < nl u -> (exists z, okl z /\ Opt z /\ fits (upd c u l) z) -> inv (upd c u l) (u :: ds) ps cur (S fixed).
Proof.
  intros c ds ps cur fixed var f u l I Vs Vp Hf Vf Uf Uu Hl OZ. pose proof (i_legal _ _ _ _ _ I) as CL. pose proof (un_lt _ _ Uu) as Hu.
  assert (MO := un_upd_mono c u l CL Uu Hl). assert (UF := un_upd_false c u l CL Uu Hl).
  assert (SF : forall v, un c v = false -> un (upd c u l) v = false) by (intros v V; apply UF; auto).
  constructor.
  - apply clegal_upd; auto.
  - cbn [app]. constructor; [|apply I]. intros K. apply (i_set _ _ _ _ _ I) in K. destruct K. congruence.
  - cbn [app]. intros v [<-|Hv]; [split; auto; apply UF; auto|]. destruct (i_set _ _ _ _ _ I v Hv). auto.
  - intros u' d1 h1 d2 h2 Uu' D1 P1 D2 P2 T1 T2.
    assert (MIX : forall h d k, un (upd c u l) u' = true -> un c d = false -> ~ In d ps -> touch (un (upd c u l)) u h u' -> touch (un (upd c u l)) d k u' -> h = k).
    { clear d1 h1 d2 h2 D1 P1 D2 P2 T1 T2. intros h d k _ Dd Pd Th Tk. destruct (Th) as (Hh & Uh & w & Ww & Rw & Wh).
      assert (RU : reach (un c) u u').
      { eapply rt_trans; [|apply reach_sym; eapply reach_mono; [exact MO|exact Rw]]. apply rt_step. split; auto. split; auto. eauto. }
      assert (k = f) as ->.
      { apply (i_one _ _ _ _ _ I u d k var f); auto.
        - eapply touch_reach; [apply reach_sym; exact RU|]. eapply touch_mono; [exact MO|exact Tk].
        - split; auto. split; auto. exists u. split; auto. split; auto. apply rt_refl. }
      apply (touch_one T OP g AC (un (upd c u l)) u h f u'); auto; [apply UF; auto|]. destruct Tk as (K1 & K2 & K3). split; auto. }
    apply UF in D1. apply UF in D2. destruct D1 as [D1|D1], D2 as [D2|D2].
    + apply (i_one _ _ _ _ _ I u' d1 h1 d2 h2); auto; eapply touch_mono; eauto.
    + subst d2. symmetry. apply (MIX h2 d1 h1); auto.
    + subst d1. apply (MIX h1 d2 h2); auto.
    + subst d1 d2. apply (touch_one T OP g AC (un (upd c u l)) u h1 h2 u'); auto. apply UF; auto.
  - intros d h w D P Hh Dh Wh Uw. apply UF in D. destruct D as [D|D].
    + destruct (i_cover _ _ _ _ _ I d h w D P Hh Dh Wh (MO w Uw)) as [(d' & A & B)|[<-|A]]; [left; exists d'; split; auto; right; auto|left; exists u; split; auto; left; auto|right; auto].
    + subst d. left. exists u. split; auto. left; auto.
  - auto.
  - intros v Gv. destruct (i_given _ _ _ _ _ I v Gv). split; auto.
  - apply I.
  - pose proof (i_count _ _ _ _ _ I). pose proof (nun_upd c u l CL Uu Hl). lia.
Qed.

Lemma visit_ok : forall c ds ps cur fixed var f, inv c ds ps (f :: cur) fixed -> un c var = false -> ~ In var ps -> f < m -> In var (vars f) ->
  exists c' ds' fixed', visit_factor var (mkC c (ds ++ ps) fixed) f = Ret (mkC c' (ds' ++ ps) fixed') /\ inv c' ds' ps cur fixed' /\
    length ds' + nun c' = length ds + nun c /\ forall v, un c v = false -> un c' v = false.
Proof.
  intros c ds ps cur fixed var f I Vs Vp Hf Vf. pose proof (i_legal _ _ _ _ _ I) as CL. destruct CL as [LC LG] eqn:QCL. clear QCL.
  unfold ModeModel.visit_factor. rewrite (rd_fac T OP g f Hf). cbn [bind c_conf]. change (fst (fac T OP g f)) with (vars f).
  destruct (find_unset_spec c (vars f) var) as [[E0 AS]|(u & E0 & Uf & Uu)]; auto; [apply (vars_lt T OP g WF f)| |]; rewrite E0; cbn [bind].
  - rewrite Nat.eqb_refl. exists c, ds, fixed. split; auto. split; [|split; auto]. destruct I. constructor; auto.
    intros d h w D P Hh Dh Wh Uw. destruct (i_cover0 d h w D P Hh Dh Wh Uw) as [A|[<-|A]]; auto. rewrite (AS w Wh) in Uw. discriminate.
  - destruct (Nat.eqb_spec u var) as [->|NV]; [congruence|]. pose proof (un_lt _ _ Uu) as Hu.
    assert (LG' : forall v, v < n -> nth v c 0 <> maxLabel -> nth v c 0 < nl v) by apply LG.
    destruct (next_label T fin OP ACC SL AL SE g WF FG vone v0 vzero F1 maxLabel ML factorMarginal HF c LC LG' u f Hu Hf Uf (proj1 (un_true c u Hu) Uu)) as (l & y & El & BY & Yu).
    rewrite El. cbn [bind]. rewrite wr_Ret by lia. cbn [bind]. subst l.
    assert (Hl : y u < nl u) by (apply BY; auto).
    exists (upd c u (y u)), (u :: ds), (S fixed). split; [reflexivity|].
    assert (CL' : clegal c) by (split; auto).
    assert (OZ : exists z, okl z /\ Opt z /\ fits (upd c u (y u)) z).
    { destruct (i_opt _ _ _ _ _ I) as (x & X & OX & FX).
      assert (KS : forall v, known T OP g maxLabel c f v -> v < n /\ un c v = false).
      { intros v [K1 K2]. assert (Hv : v < n) by (apply (vars_lt T OP g WF f); auto). split; auto. apply un_false; auto. }
      assert (YO : bop (E x) (E y) = false).
      { apply BY; auto. intros v Kv. symmetry. apply FX; apply KS; auto. }
      apply (opt_step c u (known T OP g maxLabel c f) x y); auto; [apply I|].
      intros d h Hh Dd Td. assert (Hd : d < n) by (destruct Td as (_ & K & _); apply (vars_lt T OP g WF h); auto).
      destruct (in_dec Nat.eq_dec d ps) as [Pd|Pd].
      - symmetry. apply (i_same _ _ _ _ _ I d Pd); auto. apply BY.
      - assert (h = f) as ->.
        { apply (i_one _ _ _ _ _ I u d h var f); auto. split; auto. split; auto. exists u. split; auto. split; auto. apply rt_refl. }
        rewrite (FX d Hd Dd). apply BY. split; [apply Td|apply un_false; auto]. }
    split; [apply (inv_step c ds ps cur fixed var f u (y u)); auto|]. split.
    + cbn [length]. pose proof (nun_upd c u (y u) CL' Uu Hl). lia.
    + intros v V. apply un_upd_false; auto.
Qed.

Lemma visits_ok : forall cur c ds ps fixed var, inv c ds ps cur fixed -> un c var = false -> ~ In var ps -> (forall f, In f cur -> f < m /\ In var (vars f)) ->
  exists c' ds' fixed', foldM (visit_factor var) cur (mkC c (ds ++ ps) fixed) = Ret (mkC c' (ds' ++ ps) fixed') /\ inv c' ds' ps [] fixed' /\
    length ds' + nun c' = length ds + nun c /\ forall v, un c v = false -> un c' v = false.
Proof.
  induction cur as [|f cur IH]; intros c ds ps fixed var I Vs Vp H; cbn [foldM].
  - exists c, ds, fixed. auto.
  - destruct (H f (or_introl eq_refl)) as [Hf Vf]. destruct (visit_ok c ds ps cur fixed var f I Vs Vp Hf Vf) as (c1 & ds1 & fixed1 & E1 & I1 & M1 & S1). rewrite E1. cbn [bind].
    destruct (IH c1 ds1 ps fixed1 var I1 (S1 _ Vs) Vp) as (c2 & ds2 & fixed2 & E2 & I2 & M2 & S2); [intros; apply H; right; auto|].
    exists c2, ds2, fixed2. split; auto. split; auto. split; [lia|auto].
Qed.

(** Popping the next variable. *)
Lemma pop_ok : forall c ds ps fixed var rest, inv c ds ps [] fixed -> ds ++ ps = var :: rest ->
  exists ds' ps', rest = ds' ++ ps' /\ inv c ds' ps' (facs_of T g var) fixed /\ un c var = false /\ ~ In var ps' /\ length (ds' ++ ps') + 1 = length (ds ++ ps).
Proof.
  intros c ds ps fixed var rest I Q. assert (ND := i_nodup _ _ _ _ _ I). assert (ST := i_set _ _ _ _ _ I).
  assert (Vs : un c var = false) by (apply ST; rewrite Q; left; auto).
  destruct ds as [|d ds].
  - cbn [app] in Q. subst ps. exists [], rest. cbn [app] in *. inversion ND as [|? ? NI ND']; subst. split; auto.
    split; [|split; auto; split; auto; cbn [length]; lia].
    assert (NT : forall d h u, un c u = true -> un c d = false -> ~ In d (var :: rest) -> touch (un c) d h u -> False).
    { intros d h u Uu D P (Hh & Dh & w & Uw & _ & Wh). destruct (i_cover _ _ _ _ _ I d h w D P Hh Dh Wh Uw) as [(d' & [] & _)|[]]. }
    constructor; try apply I; auto.
    + intros v Hv. apply ST. right; auto.
    + intros u d1 h1 d2 h2 Uu D1 P1 D2 P2 T1 T2.
      destruct (Nat.eq_dec d1 var) as [->|N1]; [|exfalso; apply (NT d1 h1 u); auto; intros [|]; auto].
      destruct (Nat.eq_dec d2 var) as [->|N2]; [|exfalso; apply (NT d2 h2 u); auto; intros [|]; auto].
      apply (touch_one T OP g AC (un c) var h1 h2 u); auto.
    + intros d h w D P Hh Dh Wh Uw. right. destruct (Nat.eq_dec d var) as [->|N]; [apply (facs_in T OP g); auto|].
      exfalso. destruct (i_cover _ _ _ _ _ I d h w D) as [(d' & [] & _)|[]]; auto. intros [|]; auto.
    + intros d Hd. apply (i_same _ _ _ _ _ I). right; auto.
  - cbn [app] in Q. injection Q as -> Q. subst rest. exists ds, ps. cbn [app] in *. inversion ND as [|? ? NI ND']; subst. split; auto.
    split; [|split; auto; split; [intros K; apply NI; apply in_or_app; auto|cbn [length]; lia]].
    constructor; try apply I; auto.
    + intros v Hv. apply ST. right; auto.
    + intros d h w D P Hh Dh Wh Uw. destruct (i_cover _ _ _ _ _ I d h w D P Hh Dh Wh Uw) as [(d' & [<-|Hd'] & A)|[]]; [right; apply (facs_in T OP g); auto|left; eauto].
Qed.

Lemma drain_ok : forall fuel c ds ps fixed, inv c ds ps [] fixed -> length (ds ++ ps) + nun c <= fuel ->
  exists c' ds' ps' fixed', drain fuel (mkC c (ds ++ ps) fixed) = Ret (mkC c' (ds' ++ ps') fixed') /\ inv c' ds' ps' [] fixed' /\
    (ds' ++ ps' = [] \/ n <= fixed') /\ length (ds' ++ ps') + nun c' <= length (ds ++ ps) + nun c /\ forall v, un c v = false -> un c' v = false.
Proof.
  induction fuel as [|fuel IH]; intros c ds ps fixed I M.
  - assert (Q : ds ++ ps = []) by (destruct (ds ++ ps); auto; cbn [length] in M; lia). cbn [ModeModel.drain c_wait]. rewrite Q. exists c, ds, ps, fixed. rewrite Q. auto.
  - cbn [ModeModel.drain c_wait]. destruct (ds ++ ps) as [|var rest] eqn:Q.
    + exists c, ds, ps, fixed. rewrite Q. auto.
    + cbn [c_fixed c_conf]. destruct (Nat.ltb_spec fixed (nvars T g)) as [L|L].
      * destruct (pop_ok c ds ps fixed var rest I Q) as (ds1 & ps1 & -> & I1 & Vs & Vp & L1).
        destruct (visits_ok (facs_of T g var) c ds1 ps1 fixed var I1 Vs Vp) as (c2 & ds2 & fixed2 & E2 & I2 & M2 & S2).
        { intros f Hf. apply (facs_in T OP g) in Hf. auto. }
        rewrite E2. cbn [bind]. assert (ML2 : length (ds2 ++ ps1) + nun c2 + 1 = length (var :: ds1 ++ ps1) + nun c) by (cbn [length]; rewrite !app_length in *; lia).
        destruct (IH c2 ds2 ps1 fixed2 I2) as (c3 & ds3 & ps3 & fixed3 & E3 & I3 & W3 & M3 & S3); [lia|].
        exists c3, ds3, ps3, fixed3. split; auto. split; auto. split; auto. split; [lia|auto].
      * exists c, ds, ps, fixed. rewrite Q. auto 6.
Qed.

(** A variable without labeled neighbours. *)
Lemma set_root_ok : forall c fixed v, inv c [] [] [] fixed -> v < n ->
  exists c' ds', set_root (mkC c [] fixed) v = Ret (mkC c' ds' fixed) /\ inv c' ds' [] [] fixed /\ length ds' + nun c' = nun c /\ un c' v = false /\ forall w, un c w = false -> un c' w = false.
Proof.
  intros c fixed v I Hv. pose proof (i_legal _ _ _ _ _ I) as CL. pose proof CL as [LC LG]. unfold ModeModel.set_root. cbn [c_conf]. rewrite (rd_nth _ c v 0) by lia. cbn [bind].
  destruct (Nat.eqb_spec (nth v c 0) maxLabel) as [Q|Q].
  2: { exists c, []. split; auto. split; auto. split; auto. split; auto. apply un_false; auto. }
  assert (Uv : un c v = true) by (apply un_true; auto).
  destruct (root_label T fin OP ACC SL AL SE g WF FG vone F1 marginal HM v Hv) as (out & value & l & y & Eo & Ea & BY & Yl).
  rewrite Eo. cbn [bind]. rewrite Ea. cbn [bind]. rewrite (rd_nth _ [l] 0 0) by (cbn; lia). cbn [bind nth]. rewrite wr_Ret by lia. cbn [bind c_wait c_fixed]. subst l.
  assert (Hl : y v < nl v) by (apply BY; auto).
  assert (UF := un_upd_false c v (y v) CL Uv Hl). assert (MO := un_upd_mono c v (y v) CL Uv Hl).
  exists (upd c v (y v)), [v]. split; auto. split; [|split; [cbn [length]; pose proof (nun_upd c v (y v) CL Uv Hl); lia|split; [apply UF; auto|intros w W; apply UF; auto]]].
  assert (NT : forall d h w, un c d = false -> h < m -> In d (vars h) -> In w (vars h) -> un c w = true -> False).
  { intros d h w D Hh Dh Wh Uw. destruct (i_cover _ _ _ _ _ I d h w D (fun K => K) Hh Dh Wh Uw) as [(d' & [] & _)|[]]. }
  constructor.
  - apply clegal_upd; auto.
  - cbn [app]. repeat constructor. auto.
  - cbn [app]. intros w [<-|[]]. split; auto. apply UF; auto.
  - intros u d1 h1 d2 h2 Uu D1 _ D2 _ T1 T2.
    assert (DV : forall d h, un (upd c v (y v)) d = false -> touch (un (upd c v (y v))) d h u -> d = v).
    { intros d h D (Hh & Dh & w & Uw & _ & Wh). apply UF in D. destruct D as [D|D]; auto. exfalso. apply (NT d h w); auto. }
    pose proof (DV d1 h1 D1 T1). pose proof (DV d2 h2 D2 T2). subst d1 d2. apply (touch_one T OP g AC (un (upd c v (y v))) v h1 h2 u); auto.
  - intros d h w D _ Hh Dh Wh Uw. left. exists v. split; [left; auto|]. apply UF in D. destruct D as [D|D]; [|congruence]. exfalso. apply (NT d h w); auto.
  - destruct (i_opt _ _ _ _ _ I) as (x & X & OX & FX). apply (opt_step c v (fun _ => False) x y); auto.
    + apply I.
    + intros w [].
    + eapply best_ext; [| |exact BY]; [tauto|intros w []].
    + intros d h Hh D (_ & Dh & w & Uw & _ & Wh). exfalso. apply (NT d h w); auto.
  - intros w Gw. destruct (i_given _ _ _ _ _ I w Gw). split; auto. apply UF; auto.
  - intros d [].
  - pose proof (i_count _ _ _ _ _ I). pose proof (nun_upd c v (y v) CL Uv Hl). lia.
Qed.

Lemma settle_ok : forall ids c ds ps fixed, inv c ds ps [] fixed -> length (ds ++ ps) + nun c <= n -> (forall v, In v ids -> v < n) -> (forall v, un c v = true -> In v ids) ->
  exists c' wait fixed' x, settle ids (mkC c (ds ++ ps) fixed) = Ret (mkC c' wait fixed') /\ clegal c' /\ (forall v, v < n -> un c' v = false) /\ okl x /\ Opt x /\ fits c' x.
Proof.
  induction ids as [|v ids IH]; intros c ds ps fixed I M HI HU; cbn [ModeModel.settle].
  - destruct (i_opt _ _ _ _ _ I) as (x & X & OX & FX). exists c, (ds ++ ps), fixed, x. split; auto. split; [apply I|]. split; auto. intros v Hv. destruct (un c v) eqn:Q; auto. destruct (HU v Q).
  - cbn [c_fixed]. destruct (Nat.ltb_spec fixed (nvars T g)) as [L|L].
    2: { destruct (i_opt _ _ _ _ _ I) as (x & X & OX & FX). exists c, (ds ++ ps), fixed, x. split; auto. split; [apply I|]. split; auto. apply nun_zero. pose proof (i_count _ _ _ _ _ I). unfold nvars in L. lia. }
    destruct (drain_ok (nvars T g) c ds ps fixed I) as (c1 & ds1 & ps1 & fixed1 & E1 & I1 & W1 & M1 & S1); [unfold nvars; lia|]. rewrite E1. cbn [bind].
    assert (HV : v < n) by (apply HI; left; auto).
    assert (Z : exists c2 ds2 ps2 fixed2, set_root (mkC c1 (ds1 ++ ps1) fixed1) v = Ret (mkC c2 (ds2 ++ ps2) fixed2) /\ inv c2 ds2 ps2 [] fixed2 /\ length (ds2 ++ ps2) + nun c2 <= n /\ un c2 v = false /\ forall w, un c1 w = false -> un c2 w = false).
    { destruct (un c1 v) eqn:Q.
      - destruct W1 as [W1|W1].
        + destruct ds1; [|discriminate]. cbn [app] in W1. subst ps1. destruct (set_root_ok c1 fixed1 v I1 HV) as (c2 & ds2 & E2 & I2 & M2 & S2 & S3).
          exists c2, ds2, [], fixed1. rewrite !(app_nil_r ds2). cbn [app] in *. split; auto. split; auto. split; [cbn [length] in M1; lia|]. split; auto.
        + exfalso. assert (X : un c1 v = false) by (apply nun_zero; auto; pose proof (i_count _ _ _ _ _ I1); lia). congruence.
      - exists c1, ds1, ps1, fixed1. split; [|split; auto; split; [lia|auto]]. unfold ModeModel.set_root. cbn [c_conf]. pose proof (i_legal _ _ _ _ _ I1) as [LC _].
        rewrite (rd_nth _ c1 v 0) by lia. cbn [bind]. apply un_false in Q; auto. apply Nat.eqb_neq in Q. rewrite Q. auto. }
    destruct Z as (c2 & ds2 & ps2 & fixed2 & E2 & I2 & M2 & S2 & S3). rewrite E2. cbn [bind]. apply IH; auto; [intros; apply HI; right; auto|].
    intros w Uw. destruct (HU w) as [<-|]; auto; [|congruence]. destruct (un c w) eqn:Q; auto. rewrite (S3 w (S1 w Q)) in Uw. discriminate.
Qed.
End Mode.
