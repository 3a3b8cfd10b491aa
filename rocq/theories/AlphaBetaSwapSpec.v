(** Vocabulary for statements about swap moves. *)
From Verif Require Import Base Values GmView GmViewSpec ShapeSpec GraphCutModel GraphCutSpec AlphaBetaSwapModel.
Local Open Scope Z_scope.

(** All variables have [k] labels. *)
Definition same_labels {T : Type} (k : nat) (g : gmv T) : Prop := Forall (fun l => l = k) (v_labels g).
(** Factors have at most two variables. *)
Definition second_order {T : Type} (g : gmv T) : Prop := Forall (fun fc => (length (fst fc) <= 2)%nat) (v_factors g).
(** Restricted to two labels, a factor is submodular (supermodular for maximization). *)
Definition swap_submodular (maxi : bool) (k : nat) (g : gmv Z) : Prop :=
  Forall (fun fc : factor => length (fst fc) = 2%nat -> forall a b, (a < k)%nat -> (b < k)%nat ->
    at_least_as_good maxi (snd fc [a; a] + snd fc [b; b]) (snd fc [a; b] + snd fc [b; a])) (v_factors g).
(** [y] arises from [x] by giving each variable labeled [a] or [b] one of these labels. *)
Definition swap_of (a b : nat) (x y : list nat) : Prop :=
  length y = length x /\ forall v, (v < length x)%nat ->
    (nth v x 0%nat = a \/ nth v x 0%nat = b) /\ (nth v y 0%nat = a \/ nth v y 0%nat = b) \/ nth v y 0%nat = nth v x 0%nat.
(** Which calls are legal. *)
Definition swlegal (g : gmv Z) (o : swop) : Prop := match o with SStart x => labeling g x | _ => True end.
