(** Vocabulary for statements about LPCplex. *)
From Coq Require Import ZArith QArith Qcanon.
From Verif Require Import Base Values GmView GmViewSpec ShapeSpec DualDecompModel LprSpec LpcModel.
Open Scope nat_scope.

(** The value of a linear form at a point *)
Definition dot (row p : list Qc) : Qc := sum_over (seq 0 (length row)) (fun i => nth i row 0 * nth i p 0)%Qc.
(** The points a linear program admits *)
Definition feasible (L : lp) (p : list Qc) : Prop :=
  length p = length (lp_obj L) /\
  (forall i, i < length p -> (0 <= nth i p 0)%Qc /\ (nth i p 0 <= 1)%Qc) /\
  (forall i, i < lp_bools L -> nth i p 0%Qc = 0%Qc \/ nth i p 0%Qc = 1%Qc) /\
  Forall (fun r : Qc * Qc * list Qc => let '(lo, hi, row) := r in (lo <= dot row p)%Qc /\ (dot row p <= hi)%Qc) (lp_rows L).
(** No admitted point is better than [b]. *)
Definition bounds (mx : bool) (L : lp) (b : Qc) : Prop := forall q, feasible L q -> better mx (dot (lp_obj L) q) b = false.
(** A solver that tells the truth: its solution is admitted, with that value; its bound is one; without boolean variables its solution is best. *)
Definition truthful (mx : bool) (solve : lp -> sres) : Prop :=
  forall L sol objv best, solve L = SSol sol objv best ->
    feasible L sol /\ objv = dot (lp_obj L) sol /\ bounds mx L best /\ (lp_bools L = 0 -> bounds mx L objv).

Section S.
Variable g : gmv Qc.
(** A point of the linear program is that of a labeling: an entry is one if its labels are those of the labeling, and zero if not. *)
Definition point_of (s : lpc) (x : list nat) (p : list Qc) : Prop :=
  length p = length (lp_obj (lc_lp s)) /\
  (forall v l, v < length (v_labels g) -> l < nth v (v_labels g) 0 ->
    exists i, lpNodeVi s v l = Ret i /\ nth_error p i = Some (if l =? nth v x 0 then 1%Qc else 0%Qc)) /\
  (forall f fc c, nth_error (v_factors g) f = Some fc -> fst fc <> [] -> in_shape (at_vars (v_labels g) (fst fc)) c ->
    exists i, lpFactorVi g s f c = Ret i /\ nth_error p i = Some (if list_eq_dec Nat.eq_dec c (at_vars x (fst fc)) then 1%Qc else 0%Qc)).
(** An added constraint: the indices of LP variables, coefficients, a lower and an upper bound *)
Definition constr : Type := list nat * list Qc * Qc * Qc.
Definition holds (p : list Qc) (c : constr) : Prop :=
  let '(idx, coefs, lo, hi) := c in
  let t := sum_over (combine idx coefs) (fun e => snd e * nth (fst e) p 0)%Qc in (lo <= t)%Qc /\ (t <= hi)%Qc.
(** The constraints a sequence of calls adds *)
Definition added (h : list lpc_op) : list constr := flat_map (fun o => match o with OAdd idx coefs lo hi => [(idx, coefs, lo, hi)] | OInfer _ => [] end) h.
(** Every constraint names existing LP variables, each at most once. *)
Definition legal (n : nat) (cs : list constr) : Prop :=
  Forall (fun c : constr => let '(idx, coefs, _, _) := c in NoDup idx /\ Forall (fun i => i < n) idx /\ length coefs = length idx) cs.
(** A labeling meets the added constraints. *)
Definition meets (s : lpc) (cs : list constr) (x : list nat) : Prop := labeling g x /\ exists p, point_of s x p /\ Forall (holds p) cs.
(** No labeling that meets the constraints is better. *)
Definition best_meeting (mx : bool) (s : lpc) (cs : list constr) (b : Qc) : Prop :=
  forall y, meets s cs y -> better mx (total AdderQ g y) b = false.
(** The number of LP variables: one for each label of each variable and each labeling of each factor with several variables *)
Definition lp_size : nat :=
  list_sum (v_labels g) +
  list_sum (map (fun fc : list nat * (list nat -> Qc) => if 2 <=? length (fst fc) then size_of (at_vars (v_labels g) (fst fc)) else 0) (v_factors g)).
End S.
