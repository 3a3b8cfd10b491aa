(** What a user of InfAndFlip relies on. *)
From Verif Require Import Base Values GmView GmViewSpec IafModel.

(** The inference returns a labeling, from every starting point it is given. *)
Definition inner_ok {T : Type} (g : gmv T) (inner : option (list nat) -> outcome (list nat * T)) : Prop :=
  forall o, (forall x, o = Some x -> labeling g x) -> exists y b, inner o = Ret (y, b) /\ labeling g y.
(** Starting points are labelings. *)
Definition iflegal {T : Type} (g : gmv T) (o : ifop) : Prop := match o with IfSetStart x => labeling g x | IfInfer _ => True end.
(** The starting point set last. *)
Definition last_start (ops : list ifop) : option (list nat) := fold_left (fun l o => match o with IfSetStart x => Some x | IfInfer _ => l end) ops None.
