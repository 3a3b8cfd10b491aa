(** Vocabulary for statements about expansion moves. *)
From Coq Require Import Permutation.
From Verif Require Import Base Values GmView GmViewSpec ShapeSpec GraphCutModel GraphCutSpec AlphaBetaSwapModel AlphaBetaSwapSpec AlphaExpansionModel.
Local Open Scope Z_scope.

(** Pairwise factors are of Potts type: one value for all pairs of different labels, which is not better than zero, and
    a value not worse than it for each pair of equal labels. *)
Definition potts_like (maxi : bool) (k : nat) (g : gmv Z) : Prop :=
  Forall (fun fc : factor => length (fst fc) = 2%nat -> exists c, at_least_as_good maxi 0 c /\
    (forall a b, (a < k)%nat -> (b < k)%nat -> a <> b -> snd fc [a; b] = c) /\
    (forall a, (a < k)%nat -> at_least_as_good maxi (snd fc [a; a]) c)) (v_factors g).
(** [y] arises from [x] by giving some variables the label [a]. *)
Definition expansion_of (a : nat) (x y : list nat) : Prop :=
  length y = length x /\ forall v, (v < length x)%nat -> nth v y 0%nat = a \/ nth v y 0%nat = nth v x 0%nat.
(** Which parameters are legal: the order contains every label once; initial labels from unary factors need factors
    that can be mistaken for variables; the scale is positive. *)
Definition order_legal (k : nat) (p : aeparam) : Prop :=
  match ap_order p with DEFAULT_ORDER => True | RANDOM_ORDER => Permutation (ap_shuffled p) (seq 0 k) | EXPLICIT_ORDER o => Permutation o (seq 0 k) end.
Definition init_legal (g : gmv Z) (p : aeparam) : Prop :=
  match ap_init p with
  | LOCALOPT_LABEL => forall i fc, nth_error (v_factors g) i = Some fc -> length (fst fc) = 1%nat -> (i < length (v_labels g))%nat
  | _ => True
  end.
Definition aelegal (g : gmv Z) (o : aeop) : Prop := match o with AStart x => labeling g x | AState x => labeling g x | _ => True end.
