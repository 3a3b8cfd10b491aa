(** Vocabulary for statements about LazyFlipper. *)
From Verif Require Import Base Values GmView GmViewSpec LazyFlipperModel.

(** A starting point of another length is ignored by the constructor; one of the right length must be a labeling. *)
Definition lfstart_legal {T : Type} (g : gmv T) (sp : list nat) : Prop := length sp = length (v_labels g) -> labeling g sp.
Definition lfstart {T : Type} (g : gmv T) (sp : list nat) : list nat :=
  if length sp =? length (v_labels g) then sp else repeat 0 (length (v_labels g)).

(** Every variable has at least two labels; in binary mode (multiLabel = false) exactly two. *)
Definition mode_fits {T : Type} (g : gmv T) (mode : option bool) : Prop :=
  Forall (fun k => match mode with Some false => k = 2 | _ => 2 <= k end) (v_labels g).

(** Calls the interface allows. *)
Definition lflegal {T : Type} (g : gmv T) (o : lfop) : Prop :=
  match o with LfSetStart x => labeling g x | LfSetMax k => 1 <= k | _ => True end.
Definition not_infer (o : lfop) : Prop := match o with LfInfer _ => False | _ => True end.

(** The bound on the size of subgraphs, and the labeling, set last before the first infer. *)
Definition max_after (k : nat) (ops : list lfop) : nat := fold_left (fun k o => match o with LfSetMax j => j | _ => k end) ops k.
Definition start_after (x : list nat) (ops : list lfop) : list nat := fold_left (fun x o => match o with LfSetStart y => y | _ => x end) ops x.

(** The number of variables on which two labelings differ. *)
Definition distance (x y : list nat) : nat := length (filter (fun v => negb (nth v x 0 =? nth v y 0)) (seq 0 (length x))).
