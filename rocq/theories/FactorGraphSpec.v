(** Vocabulary for statements about factor graphs: plain graph theory over lists of variable sets. *)
From Coq Require Import Sorted Permutation Relations.
From Verif Require Import Base FactorGraphModel.

(** [f] is a factor, [v] is one of its variables. *)
Definition incident (g : fgraph) (f v : nat) : Prop := exists vs, nth_error (g_fac g) f = Some vs /\ In v vs.

(** What graphical models guarantee (C12): the variables of a factor are strictly increasing and exist, and
    the factors of a variable are exactly the factors that contain it, in increasing order. *)
Definition wf_fgraph (g : fgraph) : Prop :=
  (forall f vs, nth_error (g_fac g) f = Some vs -> StronglySorted lt vs /\ forall v, In v vs -> v < length (g_adj g)) /\
  (forall v fs, nth_error (g_adj g) v = Some fs -> StronglySorted lt fs /\ forall f, In f fs <-> incident g f v).

(** The bipartite graph: its nodes are variables and factors. *)
Inductive node := NV (v : nat) | NF (f : nat).
Definition edge (g : fgraph) (a b : node) : Prop :=
  match a, b with
  | NV v, NF f | NF f, NV v => incident g f v
  | _, _ => False
  end.

(** Each entry is related to the next one. *)
Fixpoint path {A : Type} (R : A -> A -> Prop) (l : list A) : Prop :=
  match l with
  | x :: ((y :: _) as t) => R x y /\ path R t
  | _ => True
  end.

(** A cycle: at least three different nodes, each joined to the next one and the last one to the first one. *)
Definition cycle {A : Type} (R : A -> A -> Prop) (l : list A) : Prop :=
  NoDup l /\ 3 <= length l /\ path R l /\
  forall a t, l = a :: t -> R (last t a) a.

(** Two variables share a factor / are joined by a sequence of factors. *)
Definition share (g : fgraph) (u v : nat) : Prop := exists f, incident g f u /\ incident g f v.
Definition joined (g : fgraph) : nat -> nat -> Prop := clos_refl_sym_trans nat (share g).

(** The sets {c0,c1}, {c1,c2}, ... of a sequence, as strictly increasing lists. *)
Definition sorted_pair (p : nat * nat) : list nat :=
  if fst p <? snd p then [fst p; snd p] else [snd p; fst p].
Definition links (c : list nat) : list (list nat) := map sorted_pair (combine c (tl c)).

(** The graph is the chain [c]: every variable occurs once in [c], no factor has more than two variables,
    and the factors with two variables are one for each pair of neighbours in [c]. *)
Definition is_chain (g : fgraph) (c : list nat) : Prop :=
  c <> [] /\ NoDup c /\ (forall v, In v c <-> v < length (g_adj g)) /\
  Forall (fun vs => length vs <= 2) (g_fac g) /\
  Permutation (filter (fun vs => length vs =? 2) (g_fac g)) (links c).
