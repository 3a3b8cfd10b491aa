(** Model of inference/trws/trws_decomposition.hxx (Decomposition, MonotoneChainsDecomposition, GridDecomposition, EdgeDecomposition).
    Simplified: the two vectors of lists of a decomposition are one list of pairs; loops get as much fuel as there are factors and diverge without it. *)
From Verif Require Import Base GmView.

Section Td.
Variable T : Type.
Variable g : gmv T.
Notation n := (length (v_labels g)).
Notation nf := (length (v_factors g)).

(** 59-60: the variables and the factors of a sub-model *)
Definition sub : Type := (list nat * list nat)%type.

(** 397-410 *)
Definition td_unaries : outcome unit :=
  c <- foldM (fun c i =>
         ' (vis, _) <- rd (v_factors g) i ;;
         if negb (length vis =? 1) then Ret c else v <- rd vis 0 ;; k <- rd c v ;; wr c v (S k))
       (seq 0 nf) (repeat 0 n) ;;
  if length (filter (fun k => k =? 1) c) =? length c then Ret tt else Throw.
(** 413-430 *)
Definition td_isolated : outcome (list sub) :=
  foldM (fun subs v =>
    iso <- foldM (fun iso f => ' (vis, _) <- rd (v_factors g) f ;; Ret (if 1 <? length vis then false else iso)) (v_adj T g v) true ;;
    Ret (if iso : bool then subs ++ [([v], [])] else subs))
  (seq 0 n) [].
(** 314-332 *)
Definition td_nodes : outcome (list (list (nat * nat))) :=
  foldM (fun l f =>
    ' (vis, _) <- rd (v_factors g) f ;;
    if 2 <? length vis then Throw
    else if length vis =? 1 then Ret l
    else
      a <- rd vis 0 ;; b <- rd vis 1 ;;
      if a <? b then e <- rd l a ;; wr l a (e ++ [(f, b)]) else e <- rd l b ;; wr l b (e ++ [(f, a)]))
  (seq 0 nf) (repeat [] n).
(** 364-372 *)
Fixpoint td_walk (fuel : nat) (l : list (list (nat * nat))) (start : nat) : outcome (list nat * list nat * list (list (nat * nat))) :=
  es <- rd l start ;;
  match es with
  | [] => Ret ([], [], l)
  | (f, w) :: es =>
    match fuel with
    | O => Diverge
    | S fuel =>
      l <- wr l start es ;;
      ' (vs, fs, l) <- td_walk fuel l w ;;
      Ret (w :: vs, f :: fs, l)
    end
  end.
(** 210-215 with 335-362: the condition of the loop makes the test of 360 true *)
Fixpoint td_from (fuel : nat) (l : list (list (nat * nat))) (start : nat) : outcome (list sub * list (list (nat * nat))) :=
  es <- rd l start ;;
  match es with
  | [] => Ret ([], l)
  | _ :: _ =>
    match fuel with
    | O => Diverge
    | S fuel =>
      ' (vs, fs, l) <- td_walk nf l start ;;
      ' (subs, l) <- td_from fuel l start ;;
      Ret ((start :: vs, fs) :: subs, l)
    end
  end.
(** 203-216: MonotoneChainsDecomposition *)
Definition td_chains : outcome (list sub) :=
  _ <- td_unaries ;;
  subs <- td_isolated ;;
  l <- td_nodes ;;
  ' (subs, l) <- foldM (fun (st : list sub * list (list (nat * nat))) start => ' (s, l) <- td_from nf (snd st) start ;; Ret (fst st ++ s, l)) (seq 0 n) (subs, l) ;;
  Ret subs.

(** 131-153: EdgeDecomposition; the exception of 145 is made but not thrown *)
Definition td_edges : outcome (list sub) :=
  _ <- td_unaries ;;
  ' (subs, _) <- foldM (fun (st : list sub * nat) f =>
      ' (vis, _) <- rd (v_factors g) f ;;
      if length vis =? 1 then Ret st
      else
        a <- rd vis 0 ;; b <- rd vis 1 ;;
        subs <- wr (fst st) (snd st) ([a; b], [f]) ;;
        Ret (subs, S (snd st)))
    (seq 0 nf) (repeat ([0; 0], [0]) (nf - n), 0) ;;
  Ret subs.

(** 236-263, from the factors fs; None: the sizes are not set *)
Fixpoint td_sizes (fs : list nat) : outcome (option (nat * nat)) :=
  match fs with
  | [] => Ret None
  | f :: fs =>
    ' (vis, _) <- rd (v_factors g) f ;;
    match vis with
    | [a; b] =>
      if b <=? a then Throw
      else if negb (b - a =? 1) then (if n mod (b - a) =? 0 then Ret (Some (b - a, n / (b - a))) else Throw)
      else if f =? nf - 1 then Ret (Some (n, 1))
      else td_sizes fs
    | _ => Throw
    end
  end.
(** 109-110, 442-449 *)
Definition td_pwRow (xs ys x y : nat) : nat :=
  if (y =? ys - 1) && negb (x =? 0) then xs * ys + y * (2 * xs - 1) + x
  else xs * ys + y * (2 * xs - 1) + 2 * x.
(** 451-456 *)
Definition td_pwCol (xs ys x y : nat) : nat :=
  if x =? xs - 1 then td_pwRow xs ys (x - 1) y + 1 + 1 else td_pwRow xs ys x y + 1.
(** 230-233 *)
Definition td_depends (f v : nat) : outcome bool := ' (vis, _) <- rd (v_factors g) f ;; Ret (existsb (Nat.eqb v) vis).
(** 279, 286 *)
Definition td_joins (f v w : nat) : outcome bool := a <- td_depends f v ;; if negb a then Ret false else td_depends f w.
(** 269-293 *)
Definition td_check (xs ys : nat) : outcome unit :=
  foldM (fun _ y =>
    foldM (fun _ x =>
      c <- (if y <? ys - 1 then td_joins (td_pwCol xs ys x y) (x + xs * y) (x + xs * (y + 1)) else Ret true) ;;
      r <- (if x <? xs - 1 then td_joins (td_pwRow xs ys x y) (x + xs * y) (x + 1 + xs * y) else Ret true) ;;
      if c && r then Ret tt else Throw)
    (seq 0 xs) tt)
  (seq 0 ys) tt.
(** k numbers, from a in steps of d: 463-465, 473-475, 485-489, 500-502 *)
Fixpoint td_steps (a d k : nat) : list nat := match k with O => [] | S k => a :: td_steps (a + d) d k end.
(** 297-312, 459-503: columns, then rows *)
Definition td_col (xs ys x : nat) : sub := (td_steps (x + xs * 0) xs ys, td_steps (td_pwCol xs ys x 0) (2 * xs - 1) (ys - 1)).
Definition td_row (xs ys y : nat) : sub := (td_steps (0 + xs * y) 1 xs, td_steps (td_pwRow xs ys 0 y) (if y =? ys - 1 then 1 else 2) (xs - 1)).
(** 219-227: GridDecomposition; reading sizes that are not set is undefined *)
Definition td_grid : outcome (nat * nat * list sub) :=
  s <- td_sizes (seq n (nf - n)) ;;
  match s with
  | None => Undef
  | Some (xs, ys) =>
    _ <- td_check xs ys ;;
    Ret (xs, ys, map (td_col xs ys) (seq 0 xs) ++ map (td_row xs ys) (seq 0 ys))
  end.
End Td.

(** 433-439; the vector is resized, not emptied *)
Definition td_variables (n : nat) (subs : list sub) (init : list (list (nat * nat))) : outcome (list (list (nat * nat))) :=
  foldM (fun out m =>
    vars <- rd (map fst subs) m ;;
    foldM (fun out i => v <- rd vars i ;; a <- rd out v ;; wr out v (a ++ [(m, i)])) (seq 0 (length vars)) out)
  (seq 0 (length subs)) (firstn n init ++ repeat [] (n - length init)).
