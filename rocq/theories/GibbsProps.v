(** Gibbs sampling: the properties. [eqv] is == of the values. *)
From Coq Require Import ZArith.
From Verif Require Import Base Values GmView GmViewSpec GmViewProofs GmViewProps ShapeSpec OperationsModel MovemakerModel MovemakerSpec MovemakerProofs GibbsModel GibbsSpec GibbsProofs.
Open Scope nat_scope.

Section Props.
Variable T : Type.
Variable OP : oper T.
Variable mult : bool.
Variable ACC : accum T.
Variable eqv : T -> T -> bool.
Variable fin : T -> Prop.
Hypothesis OL : op_laws fin OP.
Hypothesis AL : acc_laws fin OP ACC.
Hypothesis EQ : forall a b, eqv a b = true -> a = b.
Variable g : gmv T.
Hypothesis W : wf_gmv g.
Hypothesis FG : fin_gmv fin g.
Hypothesis NV : v_labels g <> [].
Variable par : gpar.
Hypothesis SO : gstart_ok g par.
Notation run := (gb_run T OP mult ACC eqv g par).
Notation infer := (gb_infer T OP mult ACC eqv g par).
Notation n := (length (v_labels g)).
Lemma nv : 0 < n.
Proof. destruct (v_labels g); [contradiction|cbn; lia]. Qed.

(** After any calls arg() and the state of the chain are labelings, and the value of the chain is that of its state. During inference a visitor
    sees labelings only. *)
Theorem C62_valid : forall h, Forall (glegal g) h -> exists s, run h = Ret s /\ labeling g (gb_arg s) /\ labeling g (mm_state (gb_mm s)) /\ mm_value (gb_mm s) = total OP g (mm_state (gb_mm s)) /\
  forall dr, exists s' seen, infer dr s = Ret (s', seen) /\ Forall (labeling g) seen /\ labeling g (gb_arg s').
Proof.
  intros h FL. destruct (run_ok T OP mult ACC eqv fin OL AL EQ g W FG nv par SO h FL) as (s & E & GO & GI & _). exists s. split; auto. pose proof GO as ((_ & LS & _ & EN) & LB). unfold gb_arg. rewrite GI. split; auto. split; auto. split; auto.
  intros dr. destruct (infer_ok T OP mult ACC eqv fin OL AL EQ g W FG nv par dr s GO) as (s' & seen & E' & GO' & GI' & _ & FS & _). exists s', seen. split; auto. split; auto. rewrite GI'. apply GO'.
Qed.
(** If there is a starting point, the best value is the value of arg(), and after inference arg() is the best of the former arg() and all labelings the
    chain has visited. *)
Theorem C62_best : forall h, Forall (glegal g) h -> started par h = true -> exists s, run h = Ret s /\ gb_value s = total OP g (gb_arg s) /\
  forall dr, exists s' seen, infer dr s = Ret (s', seen) /\ gb_value s' = total OP g (gb_arg s') /\ best_among OP ACC g (gb_arg s') (gb_arg s :: seen).
Proof.
  intros h FL ST. destruct (run_ok T OP mult ACC eqv fin OL AL EQ g W FG nv par SO h FL) as (s & E & GO & GI & TR & _). specialize (TR ST). exists s. split; auto. unfold gb_arg. rewrite GI. split; [apply TR|].
  intros dr. destruct (infer_ok T OP mult ACC eqv fin OL AL EQ g W FG nv par dr s GO) as (s' & seen & E' & GO' & GI' & _ & FS & _ & TN & _). exists s', seen. split; auto. rewrite GI'. destruct (TN TR) as [[T1 _] T2]. auto.
Qed.
(** At most every second iteration proposes a change. *)
Theorem C62_steps : forall h dr s s' seen, Forall (glegal g) h -> run h = Ret s -> infer dr s = Ret (s', seen) -> 2 * length seen <= gp_steps par + gp_burn par + 1.
Proof.
  intros h dr s s' seen FL R I. destruct (run_ok T OP mult ACC eqv fin OL AL EQ g W FG nv par SO h FL) as (s1 & E & GO & _). rewrite R in E. injection E as <-.
  destruct (infer_ok T OP mult ACC eqv fin OL AL EQ g W FG nv par dr s GO) as (s2 & seen2 & E' & _ & _ & L & _). rewrite I in E'. injection E' as <- <-. lia.
Qed.
(** Without a starting point arg() is all zero whatever is sampled. *)
Theorem C62_no_start_refuted : (forall a, fin a -> a_bop ACC a (a_ineutral ACC) = false) -> gp_start par = [] ->
  forall h, Forall (fun o => match o with GStart _ => False | _ => True end) h -> exists s, run h = Ret s /\ gb_arg s = repeat 0 n /\ gb_value s = a_ineutral ACC.
Proof.
  intros NB Z h F. assert (FL : Forall (glegal g) h) by (rewrite Forall_forall in *; intros o IN; specialize (F o IN); destruct o; [exact I|contradiction|exact I]).
  destruct (run_ok T OP mult ACC eqv fin OL AL EQ g W FG nv par SO h FL) as (s & E & GO & GI & _ & NO). exists s. split; auto. unfold gb_arg. rewrite GI. apply NO; auto.
Qed.
(** With the cyclic proposal only the variable with index one is ever changed. *)
Theorem C62_cyclic_refuted : gp_cyclic par = true -> 2 <= n -> forall h dr s s' seen, Forall (glegal g) h -> run h = Ret s -> infer dr s = Ret (s', seen) ->
  Forall (fun x => forall v, v <> 1 -> nth v x 0 = nth v (mm_state (gb_mm s)) 0) (mm_state (gb_mm s') :: seen).
Proof.
  intros C N h dr s s' seen FL R I. destruct (run_ok T OP mult ACC eqv fin OL AL EQ g W FG nv par SO h FL) as (s1 & E & GO & _). rewrite R in E. injection E as <-.
  destruct (infer_ok T OP mult ACC eqv fin OL AL EQ g W FG nv par dr s GO) as (s2 & seen2 & E' & _ & _ & _ & _ & CY & _). rewrite I in E'. injection E' as <- <-. auto.
Qed.
End Props.
Print Assumptions C62_valid.
Print Assumptions C62_best.
Print Assumptions C62_steps.
Print Assumptions C62_no_start_refuted.
Print Assumptions C62_cyclic_refuted.

(** ** Marginals *)
(** The numbers of samples, of accepted and of rejected ones are those of the calls after burn-in, and each marginal has counted for all labels
    of its variables the samples since it was added. *)
Theorem C62_marginals : forall n h, Forall (vlegal n) h -> exists s, gv_run h = Ret s /\ gv_samples s = samples h /\ gv_accepted s = accepted_samples h /\ gv_accepted s + gv_rejected s = gv_samples s /\
  length (gv_marginals s) = added h /\ (forall vis, snd (gv_addMarginal s vis) = added h) /\
  forall h1 vis h2, h = h1 ++ VAdd vis :: h2 -> exists tab, nth_error (gv_marginals s) (added h1) = Some (vis, tab) /\ forall c, tab c = sampled vis c h2.
Proof.
  intros n h FL. destruct (marg_ok n h FL) as (s & E & E1 & E2 & E3 & F2 & FM). exists s. split; auto. split; auto. split; auto. split; auto.
  assert (LA : length (gv_marginals s) = added h).
  { transitivity (length (adds h)); [clear - F2; induction F2; cbn; auto|]. unfold added. clear. induction h as [|o h IH]; cbn; auto. destruct o; cbn; auto. }
  split; auto. split; [intros vis; cbn; rewrite app_length; cbn; lia|]. intros h1 vis h2 ->.
  pose proof (adds_split _ h1 vis h2 eq_refl) as NA. clear - F2 NA. revert NA. generalize (added h1) as j. induction F2 as [|m a ms l [C1 C2] F2 IH]; intros j NA; [destruct j; discriminate|].
  destruct j as [|j]; cbn in *; [|auto]. injection NA as ->. destruct m as [mv tab]. cbn in *. subst mv. exists tab. split; auto.
Qed.
Print Assumptions C62_marginals.
Example C62_marginals_case : let h := [VAdd [0; 2]; VCall [1; 0; 1] true false; VCall [1; 1; 1] false true; VAdd [1]; VCall [1; 1; 1] false false; VCall [0; 1; 1] true false] in
  Forall (vlegal 3) h /\ (s <- gv_run h ;; Ret (gv_samples s, gv_accepted s, gv_rejected s, map (fun m => (snd m [1; 1], snd m [0; 1], snd m [1], snd m [0])) (gv_marginals s))) = Ret (3, 2, 1, [(2, 1, 0, 0); (0, 0, 2, 0)]).
Proof. split; [repeat constructor|vm_compute; reflexivity]. Qed.

(** ** Cases *)
Definition ext_eqb (a b : ext) : bool := match a, b with Fin x, Fin y => Z.eqb x y | PInf, PInf => true | NInf, NInf => true | _, _ => false end.
Lemma ext_eqb_ok : forall a b, ext_eqb a b = true -> a = b.
Proof. intros [x| | |] [y| | |]; cbn; intros H; try discriminate; auto. apply Z.eqb_eq in H. congruence. Qed.
Definition gi_g : gmv ext := mkGmv [2; 3] [([0], fun l => match l with [1] => Fin 4 | _ => Fin 0 end); ([1], fun l => match l with [1] => Fin (-2) | [2] => Fin 3 | _ => Fin 1 end); ([0; 1], fun l => match l with [0; 1] => Fin 5 | _ => Fin 0 end)].
Lemma gi_wf : wf_gmv gi_g.
Proof. split; [|repeat constructor]. unfold gi_g. cbn [v_factors v_labels]. repeat (apply Forall_cons; [split; repeat constructor|]). apply Forall_nil. Qed.
Lemma gi_fin : fin_gmv finite gi_g.
Proof. unfold fin_gmv, gi_g. cbn [v_factors]. repeat (apply Forall_cons; [intros x _; cbn [snd]; repeat match goal with |- finite (match ?l with _ => _ end) => destruct l end; eexists; reflexivity|]). apply Forall_nil. Qed.
Definition gi_dr (vars labs : list nat) (flip : bool) : draws ext := mkDraws (fun k => nth k vars 0) (fun k => nth k labs 0) (fun _ _ _ => flip).
Definition gi_run (par : gpar) := gb_run ext AdderE false MinimizerE ext_eqb gi_g par.
Definition gi_obs (par : gpar) (h : list (gop ext)) (dr : draws ext) : outcome (list nat * ext * list (list nat)) :=
  s <- gi_run par h ;; r <- gb_infer ext AdderE false MinimizerE ext_eqb gi_g par dr s ;; Ret (gb_arg (fst r), gb_value (fst r), snd r).
(** The chain goes over a worse labeling to a better one. *)
Example C62_case : gstart_ok gi_g (mkGpar 4 2 false [0; 2]) /\ started (T := ext) (mkGpar 4 2 false [0; 2]) [] = true /\
  gi_obs (mkGpar 4 2 false [0; 2]) [] (gi_dr [0; 9; 1; 9; 0; 9] [1; 9; 1; 9; 0; 9] true) = Ret ([1; 1], Fin 2, [[1; 2]; [1; 1]; [0; 1]]) /\
  (forall a, finite a -> a_bop MinimizerE a (a_ineutral MinimizerE) = false).
Proof. split; [right; repeat constructor|]. split; auto. split; [vm_compute; reflexivity|]. intros a [z ->]. reflexivity. Qed.
(** The same run without a starting point *)
Example C62_no_start_case : gi_obs (mkGpar 4 2 false []) [] (gi_dr [0; 9; 1; 9; 0; 9] [1; 9; 1; 9; 0; 9] true) = Ret ([0; 0], NInf, [[1; 0]; [1; 1]; [0; 1]]).
Proof. vm_compute. reflexivity. Qed.

(** So the result can be worse than labelings that were visited. *)
Theorem C62_best_refuted : ~ (forall (g : gmv ext) par dr s s' seen, wf_gmv g -> fin_gmv finite g -> v_labels g <> [] -> gstart_ok g par -> gb_run ext AdderE false MinimizerE ext_eqb g par [] = Ret s ->
  gb_infer ext AdderE false MinimizerE ext_eqb g par dr s = Ret (s', seen) -> forall y, In y seen -> a_bop MinimizerE (total AdderE g y) (total AdderE g (gb_arg s')) = false).
Proof.
  intros H. set (g := mkGmv [2] [([0], fun l => match l with [1] => Fin (-7) | _ => Fin 0 end)]). set (par := mkGpar 1 0 false []).
  destruct (gb_run ext AdderE false MinimizerE ext_eqb g par []) as [s| | |] eqn:R; [|vm_compute in R; discriminate R..].
  destruct (gb_infer ext AdderE false MinimizerE ext_eqb g par (gi_dr [0] [1] false) s) as [[s' seen]| | |] eqn:I; [|vm_compute in R; injection R as <-; vm_compute in I; discriminate I..].
  assert (B : a_bop MinimizerE (total AdderE g [1]) (total AdderE g (gb_arg s')) = false).
  { apply (H g par (gi_dr [0] [1] false) s s' seen); auto.
    - split; [|repeat constructor]. repeat (apply Forall_cons; [split; repeat constructor|]). apply Forall_nil.
    - unfold fin_gmv, g. cbn [v_factors]. repeat (apply Forall_cons; [intros x _; cbn [snd]; repeat match goal with |- finite (match ?l with _ => _ end) => destruct l end; eexists; reflexivity|]). apply Forall_nil.
    - discriminate.
    - left. auto.
    - vm_compute in R. injection R as <-. vm_compute in I. injection I as <- <-. left. auto. }
  vm_compute in R. injection R as <-. vm_compute in I. injection I as <- <-. vm_compute in B. discriminate B.
Qed.
Print Assumptions C62_best_refuted.

(** After reset() without a starting point in the parameter the best value is still the one from before. *)
Theorem C62_reset_refuted : ~ (forall (g : gmv ext) par h s, wf_gmv g -> fin_gmv finite g -> v_labels g <> [] -> gstart_ok g par -> Forall (glegal g) h -> (exists x, In (GStart x) h) ->
  gb_run ext AdderE false MinimizerE ext_eqb g par h = Ret s -> gb_value s = total AdderE g (gb_arg s)).
Proof.
  intros H. destruct (gi_run (mkGpar 4 2 false []) [GStart [1; 1]; GReset]) as [s| | |] eqn:R; [|vm_compute in R; discriminate R..].
  assert (B : gb_value s = total AdderE gi_g (gb_arg s)).
  { apply (H gi_g (mkGpar 4 2 false []) [GStart [1; 1]; GReset]); auto; [apply gi_wf|apply gi_fin|discriminate|left; auto|repeat constructor|exists [1; 1]; left; auto]. }
  vm_compute in R. injection R as <-. vm_compute in B. discriminate B.
Qed.
Print Assumptions C62_reset_refuted.

(** A model without variables: the behaviour is undefined. *)
Theorem C62_empty_refuted : forall cyclic steps dr, exists s, gb_run ext AdderE false MinimizerE ext_eqb (mkGmv [] []) (mkGpar (S steps) 0 cyclic []) [] = Ret s /\
  gb_infer ext AdderE false MinimizerE ext_eqb (mkGmv [] []) (mkGpar (S steps) 0 cyclic []) dr s = Undef.
Proof. intros cyclic steps dr. eexists. split; [reflexivity|]. destruct cyclic; reflexivity. Qed.
Print Assumptions C62_empty_refuted.
