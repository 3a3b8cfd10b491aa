(** Specification for C22, C25 and C36: function objects as users see them. *)
From Verif Require Import Base ShapeSpec FunctionsModel.

(** The function [f] reports the extents [sh]. *)
Definition has_shape {T F : Type} (ft : ftype T F) (f : F) (sh : list nat) : Prop :=
  ft_dimension ft f = length sh /\ forall i, i < length sh -> ft_shape ft f i = Ret (nth i sh 0).

(** Every function [f] of the kind [ok] can be written to an index and a value sequence of exactly the announced lengths;
    reading them back into any object [dst] of the kind [okd], whatever follows in the sequences, gives a function with
    the same dimension, extents, size and values, which announces the same lengths. *)
Definition round_trips {T F : Type} (ft : ftype T F) (ok okd : F -> Prop) : Prop :=
  forall f dst sh, ok f -> okd dst -> has_shape ft f sh ->
  exists ix vs, ft_serialize ft f = Ret (ix, vs) /\
    length ix = ft_indexSequenceSize ft f /\ length vs = ft_valueSequenceSize ft f /\
    forall ix' vs', exists f', ft_deserialize ft (ix ++ ix') (vs ++ vs') dst = Ret f' /\
      has_shape ft f' sh /\ ft_size ft f' = ft_size ft f /\
      ft_indexSequenceSize ft f' = ft_indexSequenceSize ft f /\ ft_valueSequenceSize ft f' = ft_valueSequenceSize ft f /\
      forall c, in_shape sh c -> exists v, ft_call ft f c = Ret v /\ ft_call ft f' c = Ret v.

(** The value first inserted at [c], the default value [d] if there is none. *)
Definition inserted {T : Type} (d : T) (ins : list (list nat * T)) (c : list nat) : T :=
  match find (fun p => if list_eq_dec Nat.eq_dec (fst p) c then true else false) ins with Some p => snd p | None => d end.
(** A sparse function made by a history of insertions. *)
Definition sparse_run {T : Type} (sh : list nat) (d : T) (ins : list (list nat * T)) : outcome (sparsef T) :=
  foldM (fun f p => sparse_insert T f (fst p) (snd p)) ins (sparse_new T sh d).
