(** Model of small utilities: unsigned_integer_pow.hxx, accumulation.hxx, sorting.hxx and
    functors.hxx (include/opengm/utilities/). *)
From Verif Require Import Base Values.

(** ** unsigned_integer_pow.hxx *)
Definition mul64 (a b : N) : N := N.modulo (a * b) (2 ^ 64).

(** unsigned_integer_pow.hxx:14-25, the while loop; [fuel] bounds the number of iterations. *)
Fixpoint pow_loop (fuel : nat) (exponent base result : N) : outcome N :=
  if N.eqb exponent 0 then Ret result
  else match fuel with
       | O => Diverge
       | S fuel' =>
           let result' := if N.eqb (N.modulo exponent 2) 1 then mul64 result base else result in
           pow_loop fuel' (N.div exponent 2) (mul64 base base) result'
       end.
(** unsigned_integer_pow.hxx:6-28. A 64-bit exponent is halved at most 64 times. *)
Definition unsignedIntegerPow (base exponent : N) : outcome N :=
  if N.eqb base 1 then Ret 1%N
  else if N.eqb base 0 && N.ltb 0 exponent then Ret 0%N
  else pow_loop 64 exponent base 1%N.

(** ** accumulation.hxx, class Accumulation *)
Section Accumulation.
Variables (T : Type) (neutral : T) (bop : T -> T -> bool) (op3 : T -> T -> T).
(** accumulation.hxx:31-33, members value_ and state_ *)
Record accumulation := mkAcc { acc_value : T; acc_state : list nat }.
(** accumulation.hxx:36-41, constructor; 98-104, clear *)
Definition acc_init : accumulation := mkAcc neutral [].
Definition acc_clear (a : accumulation) : accumulation := mkAcc neutral [].
(** accumulation.hxx:106-119 and 121-138, operator()(value,state); both overloads copy the state *)
Definition acc_feed (a : accumulation) (value : T) (state : list nat) : accumulation :=
  let st := if bop value (acc_value a) then state else acc_state a in
  mkAcc (op3 value (acc_value a)) st.
(** accumulation.hxx:140-148, operator()(value) *)
Definition acc_feed_value (a : accumulation) (value : T) : accumulation :=
  mkAcc (op3 value (acc_value a)) (acc_state a).
(** accumulation.hxx:50-55, size() *)
Definition acc_size (a : accumulation) : nat := length (acc_state a).
(** accumulation.hxx:57-62, neutral(): returns state_.size() converted to the value type *)
Variable of_nat : nat -> T.
Definition acc_neutral (a : accumulation) : T := of_nat (length (acc_state a)).
(** feeding a sequence *)
Definition acc_run (l : list (T * list nat)) : accumulation :=
  fold_left (fun a p => acc_feed a (fst p) (snd p)) l acc_init.
End Accumulation.
Arguments acc_value {T}. Arguments acc_state {T}. Arguments mkAcc {T}.

(** ** functors.hxx *)
Section Functors.
Variables (T : Type) (T0 : T) (lt : T -> T -> bool).
(** functors.hxx:35-79, MinMaxFunctor *)
Record minmax := mkMinMax { mm_first : bool; mm_min : T; mm_max : T }.
Definition mm_init : minmax := mkMinMax true T0 T0.
Definition mm_init2 (a b : T) : minmax := mkMinMax false a b.
Definition mm_feed (m : minmax) (v : T) : minmax :=
  if mm_first m then mkMinMax false v v
  else mkMinMax false (if lt v (mm_min m) then v else mm_min m) (if lt (mm_max m) v then v else mm_max m).
Definition mm_run (m : minmax) (l : list T) : minmax := fold_left mm_feed l m.
(** functors.hxx:11-33, AccumulationFunctor; [op2 v acc] is ACC::op(v,accValue_) *)
Variable op2 : T -> T -> T.
Definition accf_run (init : T) (l : list T) : T := fold_left (fun acc v => op2 v acc) l init.
End Functors.
Arguments mm_first {T}. Arguments mm_min {T}. Arguments mm_max {T}. Arguments mkMinMax {T}.

(** ** sorting.hxx (keys are integers) *)

(** sorting.hxx:22-29, the loop *)
Fixpoint fiss_loop (seqn : list Z) (toFind : Z) (p : nat) : option nat :=
  match seqn with
  | [] => None
  | x :: r => if Z.ltb toFind x then None
              else if Z.eqb toFind x then Some p
              else fiss_loop r toFind (S p)
  end.
(** sorting.hxx:11-31, findInSortedSequence: Some p is [position = p; return true]. The last
    element is read first, so an empty sequence is out of bounds. *)
Definition findInSortedSequence (seqn : list Z) (toFind : Z) : outcome (option nat) :=
  match seqn with
  | [] => Undef
  | _ => l <- rd seqn (length seqn - 1) ;;
         if Z.ltb l toFind then Ret None else Ret (fiss_loop seqn toFind 0)
  end.

(** sorting.hxx:39-45 *)
Fixpoint isSorted_loop (l : list Z) (tmp : Z) : bool :=
  match l with
  | [] => true
  | x :: r => if Z.ltb x tmp then false else isSorted_loop r x
  end.
(** sorting.hxx:33-48, isSorted *)
Definition isSorted (l : list Z) : bool :=
  if Nat.ltb 1 (length l) then match l with [] => true | x :: _ => isSorted_loop l x end else true.

(** sorting.hxx:80-107, doubleSort. [sort] is std::sort with sortPairByFirst (its contract is a
    hypothesis of the theorem). Reading or writing behind the second sequence is undefined. *)
Section DoubleSort.
Variables (B : Type) (sort : list (Z * B) -> list (Z * B)).
Definition doubleSort (a : list Z) (b : list B) : outcome (list Z * list B) :=
  pairs <- mapM (fun i => x <- rd a i ;; y <- rd b i ;; Ret (x, y)) (seq 0 (length a)) ;;
  let sorted := sort pairs in
  foldM (fun (st : list Z * list B) i =>
      let '(a, b) := st in
      p <- rd sorted i ;;
      a' <- wr a i (fst p) ;;
      b' <- wr b i (snd p) ;;
      Ret (a', b')) (seq 0 (length a)) (a, b).
End DoubleSort.
