(** What a user of SelfFusion relies on. *)
From Verif Require Import Base Values GmView GmViewSpec FmModel SfModel.

(** The inference shows labelings with their values. *)
Definition truthful {T : Type} (OP : oper T) (g : gmv T) (shows : list (list nat * T * T)) : Prop :=
  Forall (fun sh => labeling g (fst (fst sh)) /\ snd (fst sh) = total OP g (fst (fst sh))) shows.
(** The labelings used: every [nth] of the first [k]. *)
Definition used {T : Type} (nth k : nat) (shows : list (list nat * T * T)) (x : list nat) : Prop :=
  exists j sh, j < k /\ j mod nth = 0 /\ nth_error shows j = Some sh /\ fst (fst sh) = x.
