(** Model of opengm::Partition (include/opengm/datastructures/partition.hxx).
    [T] (value_type) is modelled by [nat]; wrap-around of T is not modelled. *)
From Verif Require Import Base.

(** partition.hxx:34-38, the data members. *)
Record partition := mkPartition {
  parents : list nat;
  ranks : list nat;
  numberOfElements : nat;
  numberOfSets : nat }.

(** partition.hxx:54-68, Partition(size): vectors of [size] zeros, then parents_[j]=j. *)
Definition part_init (size : nat) : partition :=
  mkPartition (seq 0 size) (repeat 0 size) size size.

(** partition.hxx:74-89, reset(size): resize both vectors and overwrite every entry below size. *)
Definition part_reset (p : partition) (size : nat) : partition :=
  mkPartition (seq 0 size) (repeat 0 size) size size.

(** partition.hxx:104-109 and 125-129, the root loop
    [while(parents_[root] != root) root = parents_[root];].
    [fuel] bounds the number of loop tests; running out is [Diverge]. *)
Fixpoint find_root (fuel : nat) (ps : list nat) (root : nat) : outcome nat :=
  match fuel with
  | 0 => Diverge
  | S fuel' =>
      q <- rd ps root ;;
      if Nat.eqb q root then Ret root else find_root fuel' ps q
  end.

(** partition.hxx:130-135, path compression loop of the non-const find. *)
Fixpoint compress (fuel : nat) (ps : list nat) (element root : nat) : outcome (list nat) :=
  match fuel with
  | 0 => Diverge
  | S fuel' =>
      if Nat.eqb element root then Ret ps
      else
        tmp <- rd ps element ;;
        ps' <- wr ps element root ;;
        compress fuel' ps' tmp root
  end.

(** Loop budget: a cycle-free parent chain visits every element at most once. *)
Definition part_fuel (ps : list nat) : nat := S (length ps).

(** partition.hxx:97-110, find const (no path compression). *)
Definition part_find_const (p : partition) (element : nat) : outcome nat :=
  find_root (part_fuel (parents p)) (parents p) element.

(** partition.hxx:118-137, find with path compression. *)
Definition part_find (p : partition) (element : nat) : outcome (partition * nat) :=
  root <- find_root (part_fuel (parents p)) (parents p) element ;;
  ps' <- compress (part_fuel (parents p)) (parents p) element root ;;
  Ret (mkPartition ps' (ranks p) (numberOfElements p) (numberOfSets p), root).

(** partition.hxx:144-168, merge by rank. *)
Definition part_merge (p : partition) (element1 element2 : nat) : outcome partition :=
  '(p1, e1) <- part_find p element1 ;;
  '(p2, e2) <- part_find p1 element2 ;;
  r1 <- rd (ranks p2) e1 ;;
  r2 <- rd (ranks p2) e2 ;;
  if Nat.ltb r1 r2 then
    ps' <- wr (parents p2) e1 e2 ;;
    Ret (mkPartition ps' (ranks p2) (numberOfElements p2) (pred (numberOfSets p2)))
  else if Nat.ltb r2 r1 then
    ps' <- wr (parents p2) e2 e1 ;;
    Ret (mkPartition ps' (ranks p2) (numberOfElements p2) (pred (numberOfSets p2)))
  else if negb (Nat.eqb e1 e2) then
    ps' <- wr (parents p2) e2 e1 ;;
    rs' <- wr (ranks p2) e1 (S r1) ;;
    Ret (mkPartition ps' rs' (numberOfElements p2) (pred (numberOfSets p2)))
  else Ret p2.

(** partition.hxx:174-188, insert(number): append zeros, then parents_[j]=j for the new j. *)
Definition part_insert (p : partition) (number : nat) : outcome partition :=
  ps' <- foldM (fun ps j => wr ps j j)
               (seq (numberOfElements p) number)
               (parents p ++ repeat 0 number) ;;
  Ret (mkPartition ps' (ranks p ++ repeat 0 number)
         (numberOfElements p + number) (numberOfSets p + number)).

(** partition.hxx:194-208, representatives: the sequence of values written through [it]. *)
Definition part_representatives (p : partition) : outcome (list nat) :=
  foldM (fun out j =>
           q <- rd (parents p) j ;;
           Ret (if Nat.eqb q j then out ++ [j] else out))
        (seq 0 (numberOfElements p)) [].

(** std::map<T,T> as an association list with unique keys: operator[] = v. *)
Fixpoint map_put (m : list (nat * nat)) (k v : nat) : list (nat * nat) :=
  match m with
  | [] => [(k, v)]
  | (k', v') :: t => if Nat.eqb k k' then (k, v) :: t else (k', v') :: map_put t k v
  end.

(** std::map operator[] read: a missing key is created with value 0. *)
Fixpoint map_at (m : list (nat * nat)) (k : nat) : nat :=
  match m with
  | [] => 0
  | (k', v') :: t => if Nat.eqb k k' then v' else map_at t k
  end.

(** partition.hxx:214-227, representativeLabeling: [r] has numberOfSets() entries;
    writing more representatives than that through r.begin() is out of bounds. *)
Definition part_representativeLabeling (p : partition) : outcome (list (nat * nat)) :=
  reps <- part_representatives p ;;
  if Nat.leb (length reps) (numberOfSets p) then
    let r := reps ++ repeat 0 (numberOfSets p - length reps) in
    foldM (fun out j => k <- rd r j ;; Ret (map_put out k j)) (seq 0 (numberOfSets p)) []
  else Undef.

(** partition.hxx:233-247, elementLabeling: the sequence written through [out]. *)
Definition part_elementLabeling (p : partition) : outcome (list nat) :=
  rl <- part_representativeLabeling p ;;
  mapM (fun j => r <- part_find_const p j ;; Ret (map_at rl r)) (seq 0 (numberOfElements p)).

(** The public mutating interface, for histories of calls. *)
Inductive part_op :=
| PReset (size : nat)
| PInsert (number : nat)
| PMerge (a b : nat)
| PFind (a : nat).

Definition part_step (p : partition) (o : part_op) : outcome partition :=
  match o with
  | PReset n => Ret (part_reset p n)
  | PInsert k => part_insert p k
  | PMerge a b => part_merge p a b
  | PFind a => '(p', _) <- part_find p a ;; Ret p'
  end.

Definition part_run (n : nat) (ops : list part_op) : outcome partition :=
  foldM part_step ops (part_init n).
