(** Vocabulary for statements about moves. *)
From Verif Require Import Base Values GmView GmViewSpec ShapeSpec MovemakerModel.

(** The labeling after giving the listed variables the listed labels, in order. *)
Definition relabel (x vars dest : list nat) : list nat :=
  fold_left (fun x p => upd x (fst p) (snd p)) (combine vars dest) x.

(** The label counts of some variables. *)
Definition labels_of {T : Type} (g : gmv T) (vars : list nat) : list nat := map (fun v => nth v (v_labels g) 0) vars.

(** A list of different variables of the model. *)
Definition distinct_vars {T : Type} (g : gmv T) (vars : list nat) : Prop :=
  NoDup vars /\ Forall (fun v => v < length (v_labels g)) vars.

(** What the interface asks of a caller.  A move of no variables by optimal search is excluded: it does not
    end (C16_empty_refuted).  All labels can change only if there are two labels (C15_early_return_refuted). *)
Definition mlegal {T : Type} (g : gmv T) (o : mop) : Prop :=
  match o with
  | MValueAfterMove vars dest | MMove vars dest => distinct_vars g vars /\ in_shape (labels_of g vars) dest
  | MInitialize x => labeling g x
  | MReset => True
  | MMoveOptimally vars => distinct_vars g vars /\ vars <> []
  | MMoveAllChanging vars => distinct_vars g vars /\ vars <> [] /\ Forall (fun n => 2 <= n) (labels_of g vars)
  end.

(** Enough rounds for the search over all labels of at most all variables. *)
Definition rounds {T : Type} (g : gmv T) : nat := size_of (v_labels g).
