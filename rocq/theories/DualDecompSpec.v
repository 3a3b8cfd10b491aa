(** Vocabulary for statements about dual decomposition. *)
From Coq Require Import ZArith QArith Qcanon.
From Verif Require Import Base Values GmView GmViewSpec ShapeSpec ConstraintModel DecompModel DecompSpec DualDecompModel.
Open Scope nat_scope.

(** [b] is a bound for [v]: a lower bound when minimizing, an upper bound when maximizing ([mx]). *)
Definition bounds (mx : bool) (b v : Qc) : Prop := if mx then (v <= b)%Qc else (b <= v)%Qc.
(** The value of a labeling of a model with the operation Adder *)
Definition energy (g : gmv Qc) (x : list nat) : Qc := total AdderQ g x.
(** A best labeling *)
Definition best (mx : bool) (g : gmv Qc) (x : list nat) : Prop := labeling g x /\ forall y, labeling g y -> bounds mx (energy g x) (energy g y).

(** The solver of the submodels always returns a labeling; it always returns a best labeling. *)
Definition valid_solver (c : call) : Prop := forall it m g, wf_gmv g -> exists x, c_solve c it m g = Ret x /\ labeling g x.
Definition exact_solver (mx : bool) (c : call) : Prop := forall it m g, wf_gmv g -> exists x, c_solve c it m g = Ret x /\ best mx g x.

(** The labeling of submodel [m] in which every copy has the label that [x] gives to its variable *)
Definition restricts (d : dec) (m : nat) (x y : list nat) : Prop :=
  length y = nth m (d_nsv d) 0 /\ forall v k, copy_of d v m k -> nth k y 0 = nth v x 0.

(** A decomposition that dual decomposition can use: there is a submodel, and every factor occurs in one. *)
Definition usable (gm : gmv Qc) (d : dec) : Prop :=
  decomposes (length (v_labels gm)) (map fst (v_factors gm)) d /\ ordered d /\ 0 < d_nm d /\
  forall f, f < length (v_factors gm) -> occurs_in d f <> [].

(** ** The labelings of the model that an iteration tries, given labelings [states] of the submodels *)
(** How many copies of variable [v] have label [l]; the label of most copies, the smallest one if there are several. *)
Definition votes (d : dec) (states : list (list nat)) (v l : nat) : nat :=
  length (filter (fun p => nth (snd p) (nth (fst p) states []) 0 =? l) (nth v (d_vl d) [])).
Definition majority (d : dec) (states : list (list nat)) (v l : nat) : Prop :=
  (nth v (d_vl d) [] = [] /\ l = 0) \/
  (0 < votes d states v l /\ forall l', votes d states v l' <= votes d states v l /\ (votes d states v l' = votes d states v l -> l <= l')).
Definition elected (gm : gmv Qc) (d : dec) (states : list (list nat)) (z : list nat) : Prop :=
  length z = length (v_labels gm) /\ forall v, v < length (v_labels gm) -> majority d states v (nth v z 0).
(** Submodel [m] has all variables of the model, with the same numbers. *)
Definition all_variables (gm : gmv Qc) (d : dec) (m : nat) : Prop :=
  nth m (d_nsv d) 0 = length (v_labels gm) /\ forall v k, copy_of d v m k -> k = v.
(** [z] is [def] with the labels of submodel [m] for the variables that have a copy in it (for several copies, that of the last one). *)
Definition overlays (d : dec) (m : nat) (y def z : list nat) : Prop :=
  length z = length def /\ forall v,
    (exists k, copy_of d v m k /\ (forall k', copy_of d v m k' -> k' <= k) /\ nth v z 0 = nth k y 0) \/
    ((forall k, ~ copy_of d v m k) /\ nth v z 0 = nth v def 0).
Definition primal (fill : bool) (gm : gmv Qc) (d : dec) (states : list (list nat)) (z : list nat) : Prop :=
  elected gm d states z \/
  exists m, m < d_nm d /\ ((all_variables gm d m /\ z = nth m states []) \/
    (fill = true /\ ~ all_variables gm d m /\ exists def, elected gm d states def /\ overlays d m (nth m states []) def z)).

(** ** Choices of the decomposition, and of the sets of factors or variables, that cover the model *)
Definition var_sets (nv : nat) (sets : list (list nat)) : Prop := sets <> [] /\ Forall (fun s => NoDup s /\ Forall (fun v => v < nv) s) sets.
Definition sensible (gm : gmv Qc) (i : decomposition_id) : Prop :=
  let nv := length (v_labels gm) in
  match i with
  | TREE => True
  | SPANNINGTREES => v_factors gm <> []
  | BLOCKS n => 0 < n
  | KFANS k => 0 < k /\ 0 < nv /\ Forall (fun fc => length (fst fc) <= 2) (v_factors gm)
  | MANUAL subs => subs <> [] /\ Forall (Forall (fun f => f < length (v_factors gm))) subs /\
      forall f, f < length (v_factors gm) -> exists l, In l subs /\ In f l
  | MANUALVARCLOSE sets => var_sets nv sets /\ forall v, v < nv -> exists l, In l sets /\ In v l
  | MANUALVAROPEN sets => var_sets nv sets /\ Forall (fun fc => exists l, In l sets /\ incl (fst fc) l) (v_factors gm)
  end.

(** The sum of the values of labelings [y] of the submodels that the solver has built *)
Definition total_of (gm : gmv Qc) (st : dd) (y : nat -> list nat) : Qc :=
  fold_right Qcplus 0%Qc (map (fun m => energy (sub_model gm st m) (y m)) (seq 0 (d_nm (dd_dec st)))).
(** All copies of every variable have the same label. *)
Definition agree (d : dec) (states : list (list nat)) : Prop :=
  forall v m k m' k', copy_of d v m k -> copy_of d v m' k' -> nth k (nth m states []) 0 = nth k' (nth m' states []) 0.

(** ** Other dual variables: tables of the same form that cancel, like those of the solver *)
Definition sumq {A : Type} (f : A -> Qc) (l : list A) : Qc := fold_right Qcplus 0%Qc (map f l).
Definition like (B B' : block) : Prop :=
  b_subs B' = b_subs B /\ b_shape B' = b_shape B /\ length (b_duals B') = length (b_duals B) /\
  Forall (fun t => length t = size_of (b_shape B)) (b_duals B') /\ forall o, sumq (fun t => nth o t 0%Qc) (b_duals B') = 0%Qc.
Definition with_duals (st : dd) (bs : list block) : dd :=
  mkDD (dd_dec st) (dd_labels st) (dd_factors st) bs (dd_same st) (dd_states st) (dd_upper st) (dd_neg_lower st).
(** The square of their distance, and the number of tables *)
Definition square (a : Qc) : Qc := (a * a)%Qc.
Definition distance2 (bs bs' : list block) : Qc :=
  sumq (fun P => sumq (fun i => sumq (fun o => square (nth o (nth i (b_duals (snd P)) []) 0 - nth o (nth i (b_duals (fst P)) []) 0)%Qc)
    (seq 0 (size_of (b_shape (fst P))))) (seq 0 (length (b_duals (fst P))))) (combine bs bs').
Definition tables (bs : list block) : Qc := sumq (fun B => Qc_of (length (b_duals B))) bs.
