(** Specification for FusionBasedInf; with FmSpec.v. *)
From Verif Require Import Base Values GmView GmViewSpec FuseSpec FmModel FmSpec FbiModel.

(** Equally good values are equal. *)
Definition acc_total {T : Type} (fin : T -> Prop) (ACC : accum T) : Prop := forall a b, fin a -> fin b -> a_bop ACC a b = false -> a_bop ACC b a = false -> a = b.
(** A generator whose proposals for labelings are labelings, in all states it reaches. *)
Definition proposes_labelings {T : Type} (g : gmv T) (gen : propgen) : Prop :=
  exists I : pg_state gen -> Prop, I (pg_init gen) /\ forall s x, I s -> labeling g x -> exists s' y, pg_next gen s x = Ret (s', y) /\ I s' /\ labeling g y.
(** The solver of the binary models that the mover uses: for factors of at most two variables QPBO, which may return any
    labels; otherwise one that returns labelings. *)
Definition the_solver {T : Type} (s : hlsolvers T) (kind : fusionSolver) : bsolver T := match kind with QpboFusion => hl_hqpbo s | LazyFlipperFusion => hl_lf s | CplexFusion => hl_cplex s end.
Definition solvers_ok {T : Type} (d : nat) (s : hlsolvers T) (kind : fusionSolver) : Prop := returns_labelings d (the_solver s kind) \/ kind = QpboFusion /\ d = 2.
Definition solvers_exact {T : Type} (fin : T -> Prop) (OP : oper T) (ACC : accum T) (d : nat) (s : hlsolvers T) (kind : fusionSolver) : Prop :=
  exact_solver fin OP ACC d (the_solver s kind) /\ qp_exact OP ACC (hl_qpbo s).
Definition fb_legal {T : Type} (g : gmv T) (o : fbop) : Prop := match o with BInfer _ => True | BStart x => labeling g x end.
