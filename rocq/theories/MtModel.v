(** Model of utilities/modelTrees.hxx (modelTrees).
    Simplified: a set is its list of elements; the last leaf is the head of the list of leafs; the loop of treeOfVariable gets as much fuel as there are variables and
    diverges without it. *)
From Verif Require Import Base GmView IcmModel.

Section Mt.
Variable T : Type.
Variable g : gmv T.
Notation n := (length (v_labels g)).

(** 61-67 *)
Record peel : Type := mkPeel { pl_nb : list (list nat); pl_deg : list nat; pl_leafs : list nat; pl_par : list nat; pl_root : list bool }.

(** 68-76 *)
Definition mt_start (nb : list (list nat)) : outcome peel :=
  ' (deg, par, leafs) <- foldM (fun (st : list nat * list nat * list nat) i =>
      let ' (deg, par, leafs) := st in
      a <- rd nb i ;;
      deg <- wr deg i (length a) ;;
      par <- wr par i n ;;
      Ret (deg, par, if length a =? 1 then i :: leafs else leafs))
    (seq 0 n) (repeat 0 n, repeat 0 n, []) ;;
  Ret (mkPeel nb deg leafs par (repeat false n)).
(** 80-92, for the leaf l, which is no longer on the list *)
Definition mt_leaf (s : peel) (l : nat) : outcome peel :=
  d <- rd (pl_deg s) l ;;
  if 0 <? d then
    a <- rd (pl_nb s) l ;;
    match a with
    | [] => Undef
    | it :: _ =>
      root <- wr (pl_root s) it true ;;
      root <- wr root l false ;;
      par <- wr (pl_par s) l it ;;
      par <- wr par it it ;;
      d <- rd (pl_deg s) it ;;
      deg <- wr (pl_deg s) it (d - 1) ;;
      b <- rd (pl_nb s) it ;;
      if existsb (Nat.eqb l) b then
        nb <- wr (pl_nb s) it (filter (fun v => negb (v =? l)) b) ;;
        d <- rd deg it ;;
        Ret (mkPeel nb deg (if d =? 1 then it :: pl_leafs s else pl_leafs s) par root)
      else Undef
    end
  else Ret s.
(** 77-93 *)
Fixpoint mt_loop (fuel : nat) (s : peel) : outcome peel :=
  match pl_leafs s with
  | [] => Ret s
  | l :: leafs =>
    match fuel with
    | O => Diverge
    | S fuel =>
      s <- mt_leaf (mkPeel (pl_nb s) (pl_deg s) leafs (pl_par s) (pl_root s)) l ;;
      mt_loop fuel s
    end
  end.
(** 43-48: representatives, as a list with an entry for each variable *)
Record mt : Type := mkMt { mt_rep : list (option nat); mt_par : list nat; mt_broot : list bool; mt_count : nat }.
(** 54-103 *)
Definition mt_new : outcome mt :=
  nb <- variableAdjacencyList T g ;;
  s <- mt_start nb ;;
  s <- mt_loop n s ;;
  ' (rep, k) <- foldM (fun (st : list (option nat) * nat) i =>
      r <- rd (pl_root s) i ;;
      if r : bool then rep <- wr (fst st) i (Some (snd st)) ;; Ret (rep, S (snd st)) else Ret st)
    (seq 0 n) (repeat None n, 0) ;;
  Ret (mkMt rep (pl_par s) (pl_root s) k).

(** 105-109 *)
Definition mt_numberOfTrees (t : mt) : nat := mt_count t.
(** 118-122 *)
Fixpoint mt_climb (fuel : nat) (par : list nat) (r : nat) : outcome nat :=
  p <- rd par r ;;
  if p =? r then Ret r
  else match fuel with O => Diverge | S fuel => mt_climb fuel par p end.
(** 111-124 *)
Definition mt_treeOfVariable (t : mt) (i : nat) : outcome nat :=
  p <- rd (mt_par t) i ;;
  if p =? n then Ret n else mt_climb n (mt_par t) i.
(** 140-149 *)
Definition mt_parentOfVariable (t : mt) (i : nat) : outcome nat :=
  p <- rd (mt_par t) i ;;
  if p =? n then Ret n else Ret p.
(** operator[] of the map of representatives: zero if there is no entry.  (The entry that is then made is not modelled.) *)
Definition mt_lookup (t : mt) (r : nat) : outcome nat := e <- rd (mt_rep t) r ;; Ret (match e with Some k => k | None => 0 end).
(** 126-138 *)
Definition mt_roots (t : mt) : outcome (list nat) :=
  ' (roots, _) <- foldM (fun (st : list nat * nat) i =>
      r <- rd (mt_broot t) i ;;
      if r : bool then roots <- wr (fst st) (snd st) i ;; Ret (roots, S (snd st)) else Ret st)
    (seq 0 n) (repeat 0 (mt_count t), 0) ;;
  Ret roots.
(** 151-162; the vector is resized, not emptied *)
Definition mt_nodes (t : mt) (nodes : list (list nat)) : outcome (list (list nat)) :=
  foldM (fun nodes i =>
    p <- rd (mt_par t) i ;;
    if p =? n then Ret nodes
    else
      r <- mt_treeOfVariable t i ;;
      k <- mt_lookup t r ;;
      a <- rd nodes k ;;
      wr nodes k (a ++ [i]))
  (seq 0 n) (firstn (mt_count t) nodes ++ repeat [] (mt_count t - length nodes)).
(** 163-172 *)
Definition mt_treeOfRoot (t : mt) (i : nat) : outcome nat :=
  p <- rd (mt_par t) i ;;
  if p =? n then Ret n else r <- mt_treeOfVariable t i ;; mt_lookup t r.
End Mt.
