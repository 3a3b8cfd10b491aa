(** InfAndFlip. *)
From Coq Require Import ZArith.
From Verif Require Import Base Values GmView GmViewSpec ShapeSpec GmViewProofs GmViewProps OperationsModel IcmSpec FuseMoves LazyFlipperModel LazyFlipperSpec LazyFlipperProps FmSpec IafModel IafSpec.
Open Scope nat_scope.

Section Props.
Variables (T : Type) (fin : T -> Prop) (OP : oper T) (mult : bool) (recompute : T -> bool) (ACC : accum T) (g : gmv T) (inner : option (list nat) -> outcome (list nat * T)) (max : nat) (warm : bool).
Hypothesis OL : op_laws fin OP.
Hypothesis AL : acc_laws fin OP ACC.
Hypothesis W : wf_gmv g.
Hypothesis FG : fin_gmv fin g.
Hypothesis NV : v_labels g <> [].
Hypothesis MF : mode_fits g None.
Hypothesis IO : inner_ok g inner.
Notation n := (length (v_labels g)).
Notation run := (ifrun OP mult recompute ACC g inner max warm).
Notation infer := (if_infer T OP mult recompute ACC g inner max warm).

(** The state after some calls. *)
Let okay (o : option (list nat)) (s : iaf T) : Prop :=
  match o with None => if_sp s = [] /\ if_spval s = None | Some x => labeling g x /\ if_sp s = x /\ if_spval s = Some (total OP g x) end.
(** What one infer achieves. *)
Let result (o : option (list nat)) (stop : bool) (s' : iaf T) : Prop := exists y b x,
  inner (if warm then o else None) = Ret (y, b) /\ labeling g y /\ if_arg T g s' = Ret x /\ labeling g x /\ if_value s' = total OP g x /\ if_bound s' = b /\ as_good OP ACC g x y /\
  (max = 0 \/ stop = true -> x = y) /\
  (0 < max -> stop = false -> (forall z, o = Some z -> as_good OP ACC g x z) /\ forall z, labeling g z -> distance x z <= max -> as_good OP ACC g x z).
Lemma tf : forall x, labeling g x -> fin (total OP g x).
Proof. intros x L. apply total_fin; assumption. Qed.
Lemma nw : forall x y, labeling g x -> labeling g y -> not_worse OP ACC g x y -> as_good OP ACC g y x.
Proof.
  intros x y LX LY [->|H]; unfold as_good; [apply (al_irrefl _ _ _ AL), tf, LX|]. destruct (a_bop ACC (total OP g x) (total OP g y)) eqn:B; [|reflexivity].
  rewrite <- (al_irrefl _ _ _ AL (total OP g x) (tf x LX)). symmetry. eapply (al_trans _ _ _ AL); [| | |exact B|exact H]; apply tf; assumption.
Qed.
Lemma chain : forall x y z, labeling g x -> labeling g y -> labeling g z -> as_good OP ACC g x y -> as_good OP ACC g y z -> as_good OP ACC g x z.
Proof. intros x y z LX LY LZ H1 H2. unfold as_good in *. eapply (al_negtrans _ _ _ AL); [| | |exact H2|exact H1]; apply tf; assumption. Qed.
Lemma arg_state : forall s, labeling g (if_state s) -> if_arg T g s = Ret (if_state s).
Proof.
  intros s L. unfold if_arg. rewrite (mapM_Ret _ (fun v => nth v (if_state s) 0)); [f_equal; rewrite <- (labeling_length T g _ L); apply map_nth_seq|].
  intros v I. apply in_seq in I. apply rd_nth. rewrite (labeling_length T g _ L). lia.
Qed.
Lemma infer_ok : forall o s stop, okay o s -> exists F s', (forall fuel, F <= fuel -> infer fuel s stop = Ret s') /\ okay o s' /\ result o stop s'.
Proof.
  intros o s stop K. set (o' := if warm && negb (length (if_sp s) =? 0) then Some (if_sp s) else None).
  assert (EO : o' = if warm then o else None).
  { unfold o'. destruct warm; cbn [andb]; [|reflexivity]. destruct o as [x|]; cbn in K.
    - destruct K as (L & -> & _). pose proof (labeling_length T g x L) as E. destruct x; [|reflexivity]. destruct NV. destruct (v_labels g); [reflexivity|discriminate E].
    - destruct K as [-> _]. reflexivity. }
  destruct (IO o') as (y & b & EI & LY). { intros x E. rewrite EO in E. destruct warm; [|discriminate E]. rewrite E in K. apply K. }
  assert (EV : v_evaluate T OP g y = Ret (total OP g y)) by (apply v_evaluate_total; [exact W|exact (labeling_length T g y LY)]).
  destruct (C39_neighbourhood T OP mult recompute ACC fin OL AL g W FG 2 [] None [] (fun _ => false)) as (F0 & l0 & l9 & x9 & N0 & _);
    [lia|exact NV|intros H; destruct NV; destruct (v_labels g); [reflexivity|discriminate H]|exact MF|constructor|constructor|reflexivity|].
  destruct (N0 F0 (le_n _)) as [N1 _]. unfold lfrun in N1. cbn [foldM] in N1. clear N0.
  assert (E0 : lf_new T OP g 2 [] None = Ret l0). { destruct (lf_new T OP g 2 [] None); cbn [bind] in N1; try discriminate N1. exact N1. } clear N1.
  assert (SH : forall fuel, infer fuel s stop = (let s := mkIaf y (total OP g y) b (if_spval s) (if_sp s) in
      if stop then Ret s else if 0 <? max then
        lf <- lf_setMax T l0 max ;;
        lf <- (if negb (length (if_sp s) =? n) then lf_setStart T OP g lf (if_state s)
               else match if_spval s with None => Undef | Some spValue => if a_bop ACC (if_val s) spValue then lf_setStart T OP g lf (if_state s) else lf_setStart T OP g lf (if_sp s) end) ;;
        lf <- lf_infer T OP mult recompute ACC g (fun _ => false) fuel lf ;; x <- lf_arg T g lf ;; v <- v_evaluate T OP g x ;; Ret (mkIaf x v (if_bnd s) (if_spval s) (if_sp s))
      else Ret s)). { intros fuel. unfold if_infer. rewrite E0. cbn [bind]. fold o'. rewrite EI. cbn [bind]. rewrite EV. reflexivity. }
  set (s1 := mkIaf y (total OP g y) b (if_spval s) (if_sp s)) in *. cbv zeta in SH.
  assert (K1 : okay o s1) by (destruct o; exact K).
  assert (QUICK : max = 0 \/ stop = true -> result o stop s1).
  { intros Q. exists y, b, y. rewrite <- EO. split; [exact EI|]. split; [exact LY|]. split; [apply (arg_state s1); exact LY|]. split; [exact LY|]. split; [reflexivity|]. split; [reflexivity|].
    split; [apply (al_irrefl _ _ _ AL), tf, LY|]. split; [reflexivity|]. intros H1 H2. destruct Q; [lia|congruence]. }
  destruct stop. { exists 0, s1. split; [intros fuel _; apply SH|]. split; [exact K1|]. apply QUICK. right. reflexivity. }
  destruct (Nat.ltb_spec 0 max) as [M|M]; [|exists 0, s1; split; [intros fuel _; apply SH|]; split; [exact K1|]; apply QUICK; left; lia].
  set (st := match o with None => y | Some z => if a_bop ACC (total OP g y) (total OP g z) then y else z end).
  assert (LS : labeling g st) by (unfold st; destruct o as [z|]; [destruct (a_bop _ _ _); [exact LY|apply K]|exact LY]).
  assert (S1 : as_good OP ACC g st y).
  { unfold st, as_good. destruct o as [z|]; [|apply (al_irrefl _ _ _ AL), tf, LY]. destruct (a_bop ACC (total OP g y) (total OP g z)) eqn:B; [apply (al_irrefl _ _ _ AL), tf, LY|exact B]. }
  assert (S2 : forall z, o = Some z -> as_good OP ACC g st z).
  { intros z ->. unfold st. destruct K as [LZ _]. destruct (a_bop ACC (total OP g y) (total OP g z)) eqn:B; [|apply (al_irrefl _ _ _ AL), tf, LZ].
    apply nw; [exact LZ|exact LY|right; exact B]. }
  destruct (C39_neighbourhood T OP mult recompute ACC fin OL AL g W FG 2 [] None [LfSetMax max; LfSetStart st] (fun _ => false)) as (F & l1 & l2 & x & N & A1 & A2 & LX & NW & D);
    [lia|exact NV|intros H; destruct NV; destruct (v_labels g); [reflexivity|discriminate H]|exact MF|repeat constructor; [exact M|exact LS]|repeat constructor|reflexivity|].
  cbn [max_after start_after fold_left] in NW, D.
  exists F, (mkIaf x (total OP g x) b (if_spval s) (if_sp s)). split; [|split; [destruct o; exact K|]].
  - intros fuel H. rewrite SH. destruct (N fuel H) as [N1 N2]. unfold lfrun in N1. rewrite E0 in N1. cbn [bind foldM lfstep] in N1.
    destruct (lf_setMax T l0 max) as [l0'| | |] eqn:EM; try discriminate N1. cbn [bind] in N1 |- *.
    destruct (lf_setStart T OP g l0' st) as [l1'| | |] eqn:ES; try discriminate N1. cbn [bind] in N1. injection N1 as ->.
    replace (if negb (length (if_sp s1) =? n) then lf_setStart T OP g l0' (if_state s1) else match if_spval s1 with None => Undef | Some v => if a_bop ACC (if_val s1) v then lf_setStart T OP g l0' (if_state s1) else lf_setStart T OP g l0' (if_sp s1) end)
      with (lf_setStart T OP g l0' st).
    + rewrite ES. cbn [bind]. rewrite N2. cbn [bind]. rewrite A2. cbn [bind]. rewrite (v_evaluate_total T OP g x W (labeling_length T g x LX)). reflexivity.
    + unfold st, s1. cbn [if_sp if_spval if_val if_state]. destruct o as [z|].
      * destruct K as (LZ & -> & ->). rewrite (labeling_length T g z LZ), Nat.eqb_refl. cbn [negb]. destruct (a_bop _ _ _); reflexivity.
      * destruct K as [-> ->]. cbn [length]. destruct (Nat.eqb_spec 0 n) as [Z|Z]; [|reflexivity]. destruct NV. destruct (v_labels g); [reflexivity|discriminate Z].
  - exists y, b, x. rewrite <- EO. split; [exact EI|]. split; [exact LY|]. split; [rewrite arg_state; [reflexivity|exact LX]|]. split; [exact LX|]. split; [reflexivity|]. split; [reflexivity|].
    pose proof (nw st x LS LX NW) as XS. split; [exact (chain x st y LX LS LY XS S1)|]. split; [intros [Q|Q]; [lia|discriminate Q]|]. intros _ _. split.
    + intros z E. apply (chain x st z LX LS); [rewrite E in K; apply K|exact XS|exact (S2 z E)].
    + intros z LZ H. apply D; assumption.
Qed.
Lemma steps_ok : forall ops o s, okay o s -> Forall (iflegal g) ops -> exists F s', (forall fuel, F <= fuel -> foldM (ifstep OP mult recompute ACC g inner max warm fuel) ops s = Ret s') /\
  okay (fold_left (fun l o => match o with IfSetStart x => Some x | IfInfer _ => l end) ops o) s'.
Proof.
  induction ops as [|op ops IH]; intros o s K FL; [exists 0, s; split; [reflexivity|exact K]|]. inversion FL as [|? ? L1 L2]; subst. destruct op as [x|stop]; cbn [fold_left foldM ifstep].
  - cbn in L1. assert (E : if_setStart T OP g s x = Ret (mkIaf (if_state s) (if_val s) (if_bnd s) (Some (total OP g x)) x)).
    { unfold if_setStart. pose proof (labeling_length T g x L1) as LX. rewrite LX, Nat.ltb_irrefl. rewrite <- LX, firstn_all. rewrite (v_evaluate_total T OP g x W LX). reflexivity. }
    destruct (IH (Some x) (mkIaf (if_state s) (if_val s) (if_bnd s) (Some (total OP g x)) x)) as (F & s' & H & K'); [split; [exact L1|split; reflexivity]|exact L2|].
    exists F, s'. split; [|exact K']. intros fuel HF. rewrite E. cbn [bind]. auto.
  - destruct (infer_ok o s stop K) as (F1 & s1 & H1 & K1 & _). destruct (IH o s1 K1 L2) as (F & s' & H & K'). exists (Nat.max F1 F), s'. split; [|exact K']. intros fuel HF. rewrite H1 by lia. cbn [bind]. apply H. lia.
Qed.

(** C66.  After every history of calls, infer() succeeds: the result is a labeling with its value and the bound of the inference, as good as the
    labeling of the inference; unless stopped by the visitor or maxSubgraphSize is 0, it is as good as the starting point set last and as every
    labeling that differs from it in at most maxSubgraphSize variables. *)
Theorem C66_infer : forall ops stop, Forall (iflegal g) ops -> exists F s s' y b x,
  (forall fuel, F <= fuel -> run fuel ops = Ret s /\ infer fuel s stop = Ret s') /\
  inner (if warm then last_start ops else None) = Ret (y, b) /\ labeling g y /\ if_arg T g s' = Ret x /\ labeling g x /\ if_value s' = total OP g x /\ if_bound s' = b /\ as_good OP ACC g x y /\
  (max = 0 \/ stop = true -> x = y) /\
  (0 < max -> stop = false -> (forall z, last_start ops = Some z -> as_good OP ACC g x z) /\ forall z, labeling g z -> distance x z <= max -> as_good OP ACC g x z).
Proof.
  intros ops stop FL. destruct (steps_ok ops None (mkIaf [] (a_neutral ACC) (a_ineutral ACC) None []) (conj eq_refl eq_refl) FL) as (F1 & s & H1 & K). fold (last_start ops) in K.
  destruct (infer_ok _ s stop K) as (F2 & s' & H2 & _ & y & b & x & R). exists (Nat.max F1 F2), s, s', y, b, x. split; [|exact R]. intros fuel HF. split; [|apply H2; lia].
  unfold ifrun, if_new. destruct (Nat.eqb_spec n 0) as [Z|Z]; [destruct NV; destruct (v_labels g); [reflexivity|discriminate Z]|]. cbn [bind]. apply H1. lia.
Qed.
(** With maxSubgraphSize at least the number of variables the result is optimal. *)
Theorem C66_exact : forall ops, Forall (iflegal g) ops -> n <= max -> exists F s s' x,
  (forall fuel, F <= fuel -> run fuel ops = Ret s /\ infer fuel s false = Ret s') /\ if_arg T g s' = Ret x /\ optimal OP ACC g x.
Proof.
  intros ops FL M. destruct (C66_infer ops false FL) as (F & s & s' & y & b & x & R & _ & _ & A & L & _ & _ & _ & _ & N).
  exists F, s, s', x. split; [exact R|]. split; [exact A|]. split; [exact L|]. intros z LZ. apply N; [|reflexivity|exact LZ|].
  - destruct (v_labels g); [congruence|]. cbn [length] in M. lia.
  - etransitivity; [|exact M]. unfold distance. rewrite <- (labeling_length _ g _ L). rewrite <- (seq_length (length x) 0) at 2. generalize (seq 0 (length x)). intros l. induction l as [|a l IH]; cbn [filter length]; auto.
    destruct (negb _); cbn [length]; lia.
Qed.
End Props.
Print Assumptions C66_infer.
Print Assumptions C66_exact.

(** A model without variables is refused; arg() before infer() reads an empty vector. *)
Theorem C66_no_variables : forall (T : Type) (ACC : accum T) (g : gmv T), v_labels g = [] -> if_new T ACC g = Throw.
Proof. intros T ACC g E. unfold if_new. rewrite E. reflexivity. Qed.
Theorem C66_before_refuted : forall (T : Type) (ACC : accum T) (g : gmv T) s, if_new T ACC g = Ret s -> if_arg T g s = Undef.
Proof.
  intros T ACC g s H. unfold if_new in H. unfold if_arg. destruct (Nat.eqb_spec (length (v_labels g)) 0) as [Z|Z]; [discriminate H|]. injection H as <-. cbn [if_state].
  destruct (length (v_labels g)); [congruence|]. cbn [seq mapM]. destruct n; reflexivity.
Qed.
Print Assumptions C66_no_variables.
Print Assumptions C66_before_refuted.

(** ** Examples *)
(** The inference always returns the zero labeling. *)
Definition zero_inner (g : gmv ext) : option (list nat) -> outcome (list nat * ext) := fun _ => Ret (repeat 0 (length (v_labels g)), NInf).
Example C66_case : wf_gmv lfx /\ fin_gmv finite lfx /\ v_labels lfx <> [] /\ mode_fits lfx None /\ inner_ok lfx (zero_inner lfx) /\
  Forall (iflegal lfx) [IfInfer false; IfSetStart [1; 1; 0]] /\
  exists s s', ifrun AdderE false (fun _ => false) MinimizerE lfx (zero_inner lfx) 1 true 60 [IfInfer false; IfSetStart [1; 1; 0]] = Ret s /\
    if_infer ext AdderE false (fun _ => false) MinimizerE lfx (zero_inner lfx) 1 true 60 s false = Ret s' /\ if_arg ext lfx s = Ret [0; 0; 0] /\ if_value s = Fin 4 /\ if_arg ext lfx s' = Ret [1; 1; 2] /\ if_value s' = Fin 3.
Proof.
  destruct C39_case as (A & B & C & _ & D & _). split; [exact A|]. split; [exact B|]. split; [exact C|]. split; [exact D|]. split.
  { intros o _. eexists. eexists. split; [reflexivity|]. repeat constructor. }
  split; [repeat constructor|]. eexists. eexists. split; [vm_compute; reflexivity|]. split; [vm_compute; reflexivity|]. vm_compute. auto.
Qed.
(** Refuted: the result is as good as the starting point.  With maxSubgraphSize 0 the starting point is not looked at. *)
Theorem C66_start_refuted : exists x s s', labeling lfx x /\ inner_ok lfx (zero_inner lfx) /\ ifrun AdderE false (fun _ => false) MinimizerE lfx (zero_inner lfx) 0 false 60 [IfSetStart x] = Ret s /\
  if_infer ext AdderE false (fun _ => false) MinimizerE lfx (zero_inner lfx) 0 false 60 s false = Ret s' /\ a_bop MinimizerE (total AdderE lfx x) (if_value s') = true.
Proof.
  exists [1; 1; 2]. eexists. eexists. split; [repeat constructor|]. split; [intros o _; eexists; eexists; split; [reflexivity|repeat constructor]|]. split; [vm_compute; reflexivity|]. split; [vm_compute; reflexivity|]. reflexivity.
Qed.
Print Assumptions C66_start_refuted.
