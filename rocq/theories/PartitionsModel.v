(** Model of opengm::Partitions<size_t,size_t> (include/opengm/utilities/partitions.hxx).
    EdgeLabelType = size_t is modelled by [N] with explicit wrap-around modulo 2^64; node labels
    by [nat]; the process-wide static vector [partitions] is the state [t]. *)
From Verif Require Import Base.

(** partitions.hxx:141, the Bell table. *)
Definition BellTable : list N :=
  [1; 1; 2; 5; 15; 52; 203; 877; 4140; 21147; 115975; 678570; 4213597; 27644437; 190899322; 1382958545]%N.

(** size_t arithmetic. *)
Definition wrap64 (x : N) : N := N.modulo x (2 ^ 64).

(** partitions.hxx:62-74 and 76-87, label2Number (both overloads run the same loops);
    [l[v1]], [l[v2]] are in bounds because v2 < v1 < l.size(). *)
Definition bool2N (b : bool) : N := if b then 1%N else 0%N.
Definition label2Number (l : list nat) : N :=
  fst (fold_left (fun st v1 =>
         fold_left (fun (st : N * N) v2 =>
             let '(indicator, base) := st in
             (wrap64 (indicator + base * bool2N (Nat.eqb (nth v1 l 0) (nth v2 l 0))),
              wrap64 (base * 2)))
           (seq 0 v1) st)
       (seq 1 (length l - 1)) (0%N, 1%N)).

(** partitions.hxx:96-98, maxV: maxV[N]=0, maxV[i-1] = max(maxV[i], l[i-1]). *)
Fixpoint maxV (l : list nat) : list nat :=
  match l with
  | [] => [0]
  | x :: t => Nat.max (hd 0 (maxV t)) x :: maxV t
  end.

(** partitions.hxx:101-105, position to increment; None is the case p==N. *)
Definition incr_pos (l : list nat) : option nat :=
  let n := length l in
  find (fun p => Nat.ltb (nth p l 0) (n - 1 - p) &&
                 (Nat.eqb p (n - 1) || Nat.leb (nth p l 0) (nth (S p) (maxV l) 0)))
       (seq 0 n).

(** partitions.hxx:93-115, increment (the writes to the local maxV after the search are dead). *)
Definition increment (l : list nat) : option (list nat) :=
  match incr_pos l with
  | None => None
  | Some p => Some (fold_left (fun l q => upd l (q - 1) 0) (rev (seq 1 p))
                              (upd l p (S (nth p l 0))))
  end.

(** partitions.hxx:129-131, the while loop; [fuel] bounds the number of increments. *)
Fixpoint enum_loop (fuel : nat) (l : list nat) : outcome (list N) :=
  match fuel with
  | 0 => Diverge
  | S fuel' =>
      match increment l with
      | None => Ret []
      | Some l' => rest <- enum_loop fuel' l' ;; Ret (label2Number l' :: rest)
      end
  end.

(** std::sort on integers: the ascending rearrangement, here by insertion. *)
Fixpoint ins (x : N) (l : list N) : list N :=
  match l with
  | [] => [x]
  | y :: t => if N.leb x y then x :: l else y :: ins x t
  end.
Definition std_sort (l : list N) : list N := fold_right ins [] l.

(** partitions.hxx:118-137, buildPartitions. The throw happens before the table is touched.
    Reading Bell[N] with N >= 16 is out of bounds. N*(N-1)/2 is computed without wrap-around
    (N <= 15 here). *)
Definition buildPartitions (t : list N) (n : nat) : outcome (list N) :=
  bn <- rd BellTable n ;;
  if N.leb bn (N.of_nat (length t)) then Ret t
  else if Nat.ltb 64 (Nat.div2 (n * (n - 1))) then Throw
  else
    let l0 := repeat 0 n in
    rest <- enum_loop (S (n ^ n)) l0 ;;
    Ret (std_sort (label2Number l0 :: rest)).

(** partitions.hxx:38-47, number2Index: std::find; None is the return value -1. *)
Fixpoint find_index (el : N) (t : list N) : option nat :=
  match t with
  | [] => None
  | x :: r => if N.eqb x el then Some 0 else option_map S (find_index el r)
  end.
Definition number2Index (t : list N) (el : N) : option nat := find_index el t.

(** partitions.hxx:49-60, label2Index (both overloads). *)
Definition label2Index (t : list N) (l : list nat) : outcome (list N * option nat) :=
  t' <- buildPartitions t (length l) ;;
  Ret (t', number2Index t' (label2Number l)).

(** partitions.hxx:21-36, getPartition(n,l): [l] is overwritten, only its length matters. *)
Definition getPartition (t : list N) (n : nat) (l : list nat) : outcome (list nat) :=
  el <- rd t n ;;
  l0 <- wr l 0 0 ;;
  '(l', _) <- foldM (fun st v1 =>
      let '(l, base) := st in
      l1 <- wr l v1 v1 ;;
      foldM (fun st v2 =>
          let '(l, base) := st in
          l' <- (if N.eqb (N.land el base) base then x <- rd l v2 ;; wr l v1 x else Ret l) ;;
          Ret (l', wrap64 (base * 2)))
        (seq 0 v1) (l1, base))
    (seq 1 (length l - 1)) (l0, 1%N) ;;
  Ret l'.

(** partitions.hxx:17-18, resize and BellNumber. *)
Definition parts_resize (t : list N) (n : nat) : outcome (list N) := buildPartitions t n.
Definition BellNumber (n : nat) : outcome N := rd BellTable n.

(** Requests made anywhere in the process; a request that throws leaves the table unchanged. *)
Inductive parts_op :=
| OResize (n : nat)
| OLabel2Index (l : list nat).

Definition parts_step (t : list N) (o : parts_op) : outcome (list N) :=
  match o with
  | OResize n => match parts_resize t n with Throw => Ret t | r => r end
  | OLabel2Index l => match label2Index t l with
                      | Throw => Ret t
                      | Ret (t', _) => Ret t'
                      | Undef => Undef
                      | Diverge => Diverge
                      end
  end.

(** The static vector starts empty. *)
Definition parts_run (ops : list parts_op) : outcome (list N) := foldM parts_step ops [].
