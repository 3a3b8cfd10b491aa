(** Model of opengm::disjoint_set (include/opengm/datastructures/disjoint-set.hxx).
    [T] is modelled by [nat] (wrap-around of T is not modelled). The array of structs
    [elements_] is modelled by three parallel lists (one per struct member). *)
From Verif Require Import Base PartitionModel.

(** disjoint-set.hxx:17-21 and 33-35, the data members. *)
Record dset := mkDset {
  ds_rank : list nat;
  ds_p : list nat;
  ds_size : list nat;
  ds_numberOfElements : nat;
  ds_numberOfSets : nat }.

(** disjoint-set.hxx:46-57, constructor. *)
Definition ds_init (n : nat) : dset :=
  mkDset (repeat 0 n) (seq 0 n) (repeat 1 n) n n.

(** disjoint-set.hxx:59-67, find: root loop (same loop as [find_root]), then
    [elements_[x].p = y] - only the queried element is compressed. *)
Definition ds_find (d : dset) (x : nat) : outcome (dset * nat) :=
  y <- find_root (part_fuel (ds_p d)) (ds_p d) x ;;
  ps' <- wr (ds_p d) x y ;;
  Ret (mkDset (ds_rank d) ps' (ds_size d) (ds_numberOfElements d) (ds_numberOfSets d), y).

(** disjoint-set.hxx:40-44, size(i). *)
Definition ds_sizeOf (d : dset) (i : nat) : outcome (dset * nat) :=
  '(d', r) <- ds_find d i ;;
  s <- rd (ds_size d') r ;;
  Ret (d', s).

(** disjoint-set.hxx:69-92, join. *)
Definition ds_join (d : dset) (x y : nat) : outcome dset :=
  '(d1, x) <- ds_find d x ;;
  '(d2, y) <- ds_find d1 y ;;
  if negb (Nat.eqb x y) then
    rx <- rd (ds_rank d2) x ;;
    ry <- rd (ds_rank d2) y ;;
    sx <- rd (ds_size d2) x ;;
    sy <- rd (ds_size d2) y ;;
    if Nat.ltb ry rx then
      ps' <- wr (ds_p d2) y x ;;
      ss' <- wr (ds_size d2) x (sx + sy) ;;
      Ret (mkDset (ds_rank d2) ps' ss' (ds_numberOfElements d2) (pred (ds_numberOfSets d2)))
    else
      ps' <- wr (ds_p d2) x y ;;
      ss' <- wr (ds_size d2) y (sy + sx) ;;
      if Nat.eqb rx ry then
        rs' <- wr (ds_rank d2) y (S ry) ;;
        Ret (mkDset rs' ps' ss' (ds_numberOfElements d2) (pred (ds_numberOfSets d2)))
      else Ret (mkDset (ds_rank d2) ps' ss' (ds_numberOfElements d2) (pred (ds_numberOfSets d2)))
  else Ret d2.

(** disjoint-set.hxx:99-111, representativeLabeling (non-const: find compresses). *)
Definition ds_representativeLabeling (d : dset) : outcome (dset * list (nat * nat)) :=
  '(d', repL, _) <- foldM (fun st i =>
      let '(d, repL, n) := st in
      '(d', x) <- ds_find d i ;;
      Ret (if Nat.eqb i x then (d', map_put repL i n, S n) else (d', repL, n)))
    (seq 0 (ds_numberOfElements d)) (d, [], 0) ;;
  Ret (d', repL).

(** The public interface, for histories of calls. *)
Inductive ds_op :=
| DJoin (x y : nat)
| DFind (x : nat)
| DSize (x : nat)
| DLabeling.

Definition ds_step (d : dset) (o : ds_op) : outcome dset :=
  match o with
  | DJoin x y => ds_join d x y
  | DFind x => '(d', _) <- ds_find d x ;; Ret d'
  | DSize x => '(d', _) <- ds_sizeOf d x ;; Ret d'
  | DLabeling => '(d', _) <- ds_representativeLabeling d ;; Ret d'
  end.

Definition ds_run (n : nat) (ops : list ds_op) : outcome dset :=
  foldM ds_step ops (ds_init n).
