(** Proofs about FusionBasedInf. *)
From Coq Require Import Sorting.Sorted Permutation.
From Verif Require Import Base Values GmView GmViewSpec ShapeSpec AlphaBetaSwapSpec GmViewProofs FuseSpec FuseMoves FmModel FmSpec FmProofs FmProps FbiModel FbiSpec.

Lemma fused_same x y : fused x x y -> y = x.
Proof. intros [L H]. apply (nth_ext _ _ 0 0); [exact L|]. intros i _. destruct (H i); assumption. Qed.
Section Fbi.
Variables (T : Type) (fin : T -> Prop) (OP : oper T) (ACC : accum T) (g : gmv T) (gen : propgen) (solvers : hlsolvers T) (kind : fusionSolver) (p : fbparam) (d : nat).
Let n := length (v_labels g).
Hypothesis OL : op_laws fin OP.
Hypothesis AL : acc_laws fin OP ACC.
Hypothesis AT : acc_total fin ACC.
Hypothesis W : wf_gmv g.
Hypothesis FG : fin_gmv fin g.
Hypothesis HD : order_at_most d g.
Hypothesis SO : solvers_ok d solvers kind.

Lemma evaluate_ok x : labeling g x -> fb_evaluate T OP g x = Ret (total OP g x).
Proof.
  intros L. pose proof L as L'. apply labeling_nth in L'. destruct L' as [LL LX]. unfold fb_evaluate. replace (forallb _ (v_factors g)) with true; [apply v_evaluate_total; auto|]. symmetry. apply forallb_forall. intros fc Hfc. apply forallb_forall. intros v Hv. apply Nat.ltb_lt. apply LX. rewrite LL.
  destruct W as [WF _]. rewrite Forall_forall in WF. destruct (WF fc Hfc) as [_ F]. rewrite Forall_forall in F. apply F. exact Hv.
Qed.
Lemma tot_fin x : labeling g x -> fin (total OP g x). Proof. intros. apply total_fin; auto. Qed.
Lemma good_refl x : labeling g x -> as_good OP ACC g x x. Proof. intros. apply (al_irrefl _ _ _ AL). apply tot_fin. assumption. Qed.
Lemma good_trans x y z : labeling g x -> labeling g y -> labeling g z -> as_good OP ACC g x y -> as_good OP ACC g y z -> as_good OP ACC g x z.
Proof. unfold as_good. intros. apply (al_negtrans _ _ _ AL _ (total OP g y)); auto using tot_fin. Qed.

(** One fusion in the loop. *)
Lemma fuse_step x y fused0 : labeling g x -> labeling g y -> length fused0 = n ->
  exists r z, hl_fuse T OP ACC g solvers kind (fm_vectors0 T g) x y fused0 (total OP g x) (total OP g y) = Ret (r, z) /\ length z = n /\
    match r with
    | None => x = y
    | Some v => v = total OP g z /\ labeling g z /\ as_good OP ACC g z x /\ (a_bop ACC v (total OP g x) = false -> v = total OP g x) /\
                (solvers_exact fin OP ACC d solvers kind -> a_bop ACC v (total OP g x) = false -> forall y', FuseSpec.fused x y y' -> as_good OP ACC g x y')
    end.
Proof.
  intros Lx Ly Lf. assert (LV : length (fst (fm_vectors0 T g)) = n /\ length (snd (fm_vectors0 T g)) = n) by (split; apply repeat_length).
  destruct (C57_hl T fin OP ACC g x y (fm_vectors0 T g) fused0 OL AL W FG Lx Ly (proj1 LV) (proj2 LV) Lf solvers kind d HD SO) as [H1 H2].
  destruct (list_eq_dec Nat.eq_dec x y) as [E|E].
  - rewrite (H1 E). exists None, x. split; [reflexivity|]. split; [apply (labeling_length T g x Lx)|exact E].
  - destruct (H2 E) as (v & z & E1 & (G1 & G2 & G3 & G4 & G5) & B). cbn [fst snd] in *. exists (Some v), z. split; [exact E1|]. split; [apply (labeling_length T g z G2)|]. split; [exact G1|]. split; [exact G2|]. split; [exact G4|]. split.
    + intros NB. apply AT; [rewrite G1; apply tot_fin; exact G2|apply tot_fin; exact Lx|exact NB|]. rewrite G1. exact G4.
    + intros [X1 X2] NB y' Hy. destruct (B X1 X2) as [_ BB]. assert (Ly' : labeling g y') by (apply (fused_labeling T g x y Lx Ly); exact Hy). apply good_trans with z; auto. unfold as_good. rewrite <- G1. exact NB.
Qed.

(** The object: a labeling with its value. *)
Definition consistent (s : fbi T gen) : Prop := labeling g (fb_arg s) /\ fb_val s = total OP g (fb_arg s).
Section Any.
Variable I : pg_state gen -> Prop.
Hypothesis I0 : I (pg_init gen).
Hypothesis IN : forall s x, I s -> labeling g x -> exists s' y, pg_next gen s x = Ret (s', y) /\ I s' /\ labeling g y.
Lemma loop_ok stop : forall steps calls s fused0 count, consistent s -> I (fb_gen s) -> length fused0 = n ->
  exists s' e, fb_loop T OP ACC g gen solvers kind stop steps calls s fused0 count = Ret (s', e) /\ consistent s' /\ I (fb_gen s') /\ as_good OP ACC g (fb_arg s') (fb_arg s) /\ fb_stop s' = fb_stop s.
Proof.
  induction steps as [|steps IH]; intros calls s fused0 count [C1 C2] HI Lf; cbn [fb_loop].
  - exists s, EndIterations. split; [reflexivity|]. split; [split; assumption|]. split; [exact HI|]. split; [apply good_refl; exact C1|reflexivity].
  - destruct (IN (fb_gen s) (fb_arg s) HI C1) as (gs & y & En & HI' & Ly). rewrite En. cbn [bind]. rewrite (evaluate_ok y Ly). cbn [bind]. rewrite C2. destruct (fuse_step (fb_arg s) y fused0 C1 Ly Lf) as (r & z & E & Lz & R). rewrite E. cbn [bind].
    destruct r as [v|].
    + destruct R as (R1 & R2 & R3 & R4 & _).
      match goal with |- context [mkFbi (if ?b then z else fb_arg s) v gs (fb_stop s)] => set (s1 := mkFbi (if b then z else fb_arg s) v gs (fb_stop s)) end.
      assert (C' : consistent s1 /\ as_good OP ACC g (fb_arg s1) (fb_arg s)).
      { unfold consistent, s1. cbn [fb_arg fb_val]. destruct (a_bop ACC v (total OP g (fb_arg s))) eqn:B; [auto|]. split; [split; [exact C1|apply R4; reflexivity]|apply good_refl; exact C1]. }
      destruct C' as [C' G']. destruct (stop calls); [exists s1, EndVisitor; split; [reflexivity|]; split; [exact C'|]; split; [exact HI'|]; split; [exact G'|reflexivity]|].
      change (fb_stop s1) with (fb_stop s). destruct (_ && _); [exists s1, EndConverged; split; [reflexivity|]; split; [exact C'|]; split; [exact HI'|]; split; [exact G'|reflexivity]|].
      match goal with |- context [fb_loop _ _ _ _ _ _ _ _ _ _ _ _ ?c] => destruct (IH (S calls) s1 z c C' HI' Lz) as (s' & e & E' & A1 & A2 & A3 & A4) end. exists s', e. split; [exact E'|]. split; [exact A1|]. split; [exact A2|]. split; [|exact A4].
      apply good_trans with (fb_arg s1); auto; [apply A1|apply C'].
    + cbn [fb_stop]. match goal with |- context [mkFbi (fb_arg s) ?v gs (fb_stop s)] => set (s1 := mkFbi (fb_arg s) v gs (fb_stop s)) end.
      assert (C' : consistent s1) by (split; [exact C1|reflexivity]). destruct (_ && _); [exists s1, EndConverged; split; [reflexivity|]; split; [exact C'|]; split; [exact HI'|]; split; [apply good_refl; exact C1|reflexivity]|].
      destruct (IH calls s1 z (S count) C' HI' Lz) as (s' & e & E' & A1 & A2 & A3 & A4). exists s', e. split; [exact E'|]. split; [exact A1|]. split; [exact A2|]. split; [exact A3|exact A4].
Qed.
Lemma infer_ok stop s : consistent s -> I (fb_gen s) -> exists s' e, fb_infer T OP ACC g gen solvers kind p stop s = Ret (s', e) /\ consistent s' /\ I (fb_gen s') /\ as_good OP ACC g (fb_arg s') (fb_arg s) /\ fb_stop s' = (if fb_stop s =? 0 then pg_stop gen else fb_stop s).
Proof.
  intros [C1 C2] HI. unfold fb_infer. rewrite (evaluate_ok _ C1). cbn [bind].
  match goal with |- context [fb_loop _ _ _ _ _ _ _ _ _ _ ?s0 _ _] => destruct (loop_ok stop (fb_numIt p) 0 s0 (repeat 0 n) 0) as (s' & e & E & A1 & A2 & A3 & A4) end; [split; [exact C1|reflexivity]|exact HI|apply repeat_length|].
  exists s', e. split; [exact E|]. split; [exact A1|]. split; [exact A2|]. split; [exact A3|exact A4].
Qed.
Lemma set_ok s x : labeling g x -> exists s', fb_setStart T OP g gen s x = Ret s' /\ consistent s' /\ fb_arg s' = x /\ fb_gen s' = fb_gen s /\ fb_stop s' = fb_stop s.
Proof.
  intros L. unfold fb_setStart. fold n. rewrite <- (labeling_length T g x L : length x = n). rewrite (mapM_Ret _ (fun i => nth i x 0)) by (intros i Hi; apply in_seq in Hi; apply rd_nth; lia). rewrite map_nth_seq. cbn [bind]. rewrite (evaluate_ok x L). cbn [bind].
  eexists. split; [reflexivity|]. cbn. repeat split; assumption.
Qed.
End Any.

(** The default start. *)
Definition scan (fc : list nat * (list nat -> T)) (k conf : nat) : nat * T :=
  fold_left (fun (st : nat * T) l => let x := snd fc [l] in if a_bop ACC x (snd st) then (l, x) else st) (seq 0 k) (conf, a_neutral ACC).
Lemma scan_lt fc k conf : conf < k -> fst (scan fc k conf) < k.
Proof.
  intros H. unfold scan. assert (G : forall l (st : nat * T), fst st < k -> (forall a, In a l -> a < k) -> fst (fold_left (fun (st : nat * T) l => let x := snd fc [l] in if a_bop ACC x (snd st) then (l, x) else st) l st) < k).
  { induction l as [|a l IH]; intros st Hs Hl; cbn [fold_left]; [exact Hs|]. apply IH; [|intros; apply Hl; right; assumption]. cbn. destruct (a_bop ACC _ _); [cbn; apply Hl; left; reflexivity|exact Hs]. }
  apply G; [exact H|]. intros a Ha. apply in_seq in Ha. lia.
Qed.
Lemma startLabel_ok i k : nth_error (v_labels g) i = Some k -> 0 < k -> exists a, fb_startLabel T ACC g i = Ret a /\ a < k /\
  forall fs fi rest fc, v_adj T g i = fs ++ fi :: rest -> nth_error (v_factors g) fi = Some fc -> length (fst fc) = 1 ->
     (forall fj fcj, In fj rest -> nth_error (v_factors g) fj = Some fcj -> length (fst fcj) <> 1) -> exists conf, conf < k /\ a = fst (scan fc k conf).
Proof.
  intros Ek Pk. unfold fb_startLabel. unfold rd at 1. rewrite Ek. cbn [bind].
  set (f := fun conf fi => _).
  assert (G : forall l conf, conf < k -> (forall fi, In fi l -> fi < length (v_factors g)) -> exists a, foldM f l conf = Ret a /\ a < k).
  { induction l as [|fi l IH]; intros conf Hc Hl; cbn [foldM]; [exists conf; auto|]. destruct (nth_error (v_factors g) fi) as [fc|] eqn:E; [|apply nth_error_None in E; specialize (Hl fi (or_introl eq_refl)); lia].
    unfold f at 1. unfold rd. rewrite E. cbn [bind]. destruct (length (fst fc) =? 1); cbn [bind]; apply IH; try (intros; apply Hl; right; assumption); [apply (scan_lt fc k conf Hc)|exact Hc]. }
  assert (AB : forall fi, In fi (v_adj T g i) -> fi < length (v_factors g)) by (intros fi H; apply filter_In in H; destruct H as [H _]; apply in_seq in H; lia).
  destruct (G (v_adj T g i) 0 Pk AB) as (a & E & Ha). exists a. split; [exact E|]. split; [exact Ha|]. intros fs fi rest fc EA Ef L1 NR. rewrite EA in E, AB. rewrite foldM_app in E.
  destruct (G fs 0 Pk) as (c1 & E1 & Hc1); [intros; apply AB; apply in_or_app; left; assumption|]. rewrite E1 in E. cbn [bind foldM] in E. unfold f at 1 in E. unfold rd at 1 in E. rewrite Ef in E. cbn [bind] in E. rewrite L1 in E. cbn [Nat.eqb bind] in E. fold (scan fc k c1) in E.
  exists c1. split; [exact Hc1|]. assert (K : forall l c, (forall fj, In fj l -> fj < length (v_factors g)) -> (forall fj fcj, In fj l -> nth_error (v_factors g) fj = Some fcj -> length (fst fcj) <> 1) -> foldM f l c = Ret c).
  { induction l as [|fj l IH]; intros c Hl Hn; cbn [foldM]; [reflexivity|]. destruct (nth_error (v_factors g) fj) as [fcj|] eqn:Ej; [|apply nth_error_None in Ej; specialize (Hl fj (or_introl eq_refl)); lia]. unfold f at 1. unfold rd at 1. rewrite Ej. cbn [bind]. rewrite (proj2 (Nat.eqb_neq _ _) (Hn fj fcj (or_introl eq_refl) Ej)). cbn [bind]. apply IH; intros; [apply Hl; right; assumption|eapply Hn; [right; eassumption|eassumption]]. }
  rewrite K in E by (try exact NR; intros; apply AB; apply in_or_app; right; right; assumption). injection E as <-. reflexivity.
Qed.
Lemma startLabel_none i k : nth_error (v_labels g) i = Some k -> (forall fj fcj, In fj (v_adj T g i) -> nth_error (v_factors g) fj = Some fcj -> length (fst fcj) <> 1) -> fb_startLabel T ACC g i = Ret 0.
Proof.
  intros Ek NU. unfold fb_startLabel. unfold rd at 1. rewrite Ek. cbn [bind].
  assert (AB : forall fi, In fi (v_adj T g i) -> fi < length (v_factors g)) by (intros fi H; apply filter_In in H; destruct H as [H _]; apply in_seq in H; lia).
  revert NU AB. generalize (v_adj T g i). induction l as [|fj l IH]; intros NU AB; cbn [foldM]; [reflexivity|]. destruct (nth_error (v_factors g) fj) as [fcj|] eqn:Ej; [|apply nth_error_None in Ej; specialize (AB fj (or_introl eq_refl)); lia].
  unfold rd at 1. rewrite Ej. cbn [bind]. rewrite (proj2 (Nat.eqb_neq _ _) (NU fj fcj (or_introl eq_refl) Ej)). cbn [bind]. apply IH; intros; [eapply NU; [right; eassumption|eassumption]|apply AB; right; assumption].
Qed.
Lemma scan_best fc k conf : acc_select fin ACC -> (forall l, l < k -> fin (snd fc [l])) -> forall l, l < k -> a_bop ACC (snd fc [l]) (snd fc [fst (scan fc k conf)]) = false.
Proof.
  intros AS FN.
  assert (G : forall m, m <= k -> let st := fold_left (fun (st : nat * T) l => let x := snd fc [l] in if a_bop ACC x (snd st) then (l, x) else st) (seq 0 m) (conf, a_neutral ACC) in
    (0 < m -> fst st < k /\ snd st = snd fc [fst st]) /\ (m = 0 -> snd st = a_neutral ACC) /\ forall l, l < m -> a_bop ACC (snd fc [l]) (snd fc [fst st]) = false).
  { induction m as [|m IH]; intros Hm; [cbn; repeat split; intros; lia|]. rewrite seq_S, fold_left_app. cbn [fold_left Nat.add]. specialize (IH ltac:(lia)). cbv zeta in IH |- *. set (st := fold_left _ _ _) in *. destruct IH as (I1 & I2 & I3).
    destruct m as [|m].
    - rewrite I2 by reflexivity. rewrite (proj1 (al_neutral _ _ AS _ (FN 0 ltac:(lia)))). cbn [fst snd]. split; [intros _; split; [lia|reflexivity]|]. split; [discriminate|]. intros l Hl. replace l with 0 by lia. apply (al_irrefl _ _ _ AL). apply FN. lia.
    - destruct (I1 ltac:(lia)) as [J1 J2]. destruct (a_bop ACC (snd fc [S m]) (snd st)) eqn:B; cbn [fst snd].
      + split; [intros _; split; [lia|reflexivity]|]. split; [discriminate|]. intros l Hl. destruct (Nat.eq_dec l (S m)) as [->|NE]; [apply (al_irrefl _ _ _ AL); apply FN; lia|].
        destruct (a_bop ACC (snd fc [l]) (snd fc [S m])) eqn:C; [|reflexivity]. rewrite J2 in B. pose proof (al_trans _ _ _ AL _ _ _ (FN l ltac:(lia)) (FN (S m) ltac:(lia)) (FN _ J1) C B) as D. rewrite I3 in D by lia. discriminate D.
      + split; [intros _; split; [exact J1|exact J2]|]. split; [discriminate|]. intros l Hl. destruct (Nat.eq_dec l (S m)) as [->|NE]; [rewrite <- J2; exact B|apply I3; lia]. }
  intros l Hl. apply (G k (Nat.le_refl k)). exact Hl.
Qed.
Lemma new_ok : exists s, fb_new T OP ACC g gen p = Ret s /\ consistent s /\ fb_gen s = pg_init gen /\ fb_stop s = fb_numStopIt p /\ mapM (fb_startLabel T ACC g) (seq 0 n) = Ret (fb_arg s).
Proof.
  unfold fb_new. fold n.
  assert (X : exists conf, mapM (fb_startLabel T ACC g) (seq 0 n) = Ret conf /\ labeling g conf).
  { assert (Y : forall i, i < n -> exists a, fb_startLabel T ACC g i = Ret a /\ a < nth i (v_labels g) 0).
    { intros i Hi. destruct (nth_error (v_labels g) i) as [k|] eqn:E; [|apply nth_error_None in E; unfold n in Hi; lia]. rewrite (nth_error_nth _ _ 0 E). destruct (startLabel_ok i k E) as (a & H1 & H2 & _); [|exists a; auto].
      destruct W as [_ WP]. unfold positive in WP. rewrite Forall_forall in WP. apply WP. eapply nth_error_In; eauto. }
    pose (h := fun i => match fb_startLabel T ACC g i with Ret a => a | _ => 0 end). exists (map h (seq 0 n)). split.
    - apply mapM_Ret. intros i Hi. apply in_seq in Hi. destruct (Y i ltac:(lia)) as (a & E & _). unfold h. rewrite E. reflexivity.
    - apply labeling_nth. rewrite map_length, seq_length. split; [reflexivity|]. intros i Hi. rewrite nth_map_seq by exact Hi. destruct (Y i Hi) as (a & E & La). unfold h. rewrite E. exact La. }
  destruct X as (conf & E & L). rewrite E. cbn [bind]. destruct (set_ok (mkFbi (repeat 0 n) (a_neutral ACC) (pg_init gen) (fb_numStopIt p)) conf L) as (s & E1 & C & A & G & S). exists s. rewrite A. auto.
Qed.
End Fbi.
