(** Model of unsignedIntegerPow (utilities/unsigned_integer_pow.hxx 6-28) with the arithmetic of size_t of 64 bits, and of
    UnaryLossFunction (functions/unary_loss_function.hxx 31-151).
    Simplified: values of the loss are exact integers; the multipliers of labels are a list or a list of rows; labels fit into int. *)
From Verif Require Import Base.
Open Scope Z_scope.

(** size_t *)
Definition up_word : Z := 2 ^ 64.
(** 12-26; a round of the loop for each unit of [fuel] *)
Fixpoint up_loop (fuel : nat) (base exponent result : Z) : outcome Z :=
  match fuel with
  | O => Diverge
  | S fuel =>
      if exponent =? 0 then Ret result
      else
        let result := if exponent mod 2 =? 1 then (result * base) mod up_word else result in
        up_loop fuel ((base * base) mod up_word) (exponent / 2) result
  end.
(** 6-28 *)
Definition up_pow (base exponent : Z) : outcome Z :=
  if base =? 1 then Ret 1
  else if (base =? 0) && (0 <? exponent) then Ret 0
  else up_loop 65 base exponent 1.

(** unary_loss_function.hxx 34-41 *)
Inductive loss := HammingLoss | LabelVectorConf | LabelVectorGt | LabelMatrix | L1Loss | L2Loss.
(** 92-126; [vec] and [mat] are labelMult_ with one and with two dimensions *)
Definition ul_value (t : loss) (gt : nat) (m : Z) (vec : list Z) (mat : list (list Z)) (l : nat) : outcome Z :=
  let isDifferent := if Nat.eqb l gt then 0 else 1 in
  match t with
  | HammingLoss => Ret (-1 * m * isDifferent)
  | LabelVectorConf => v <- rd vec l ;; Ret (m * isDifferent * v)
  | LabelVectorGt => v <- rd vec gt ;; Ret (m * isDifferent * v)
  | LabelMatrix => r <- rd mat l ;; v <- rd r gt ;; Ret (m * isDifferent * v)
  | L1Loss => Ret (m * Z.abs (Z.of_nat l - Z.of_nat gt))
  | L2Loss => Ret (m * (Z.of_nat l - Z.of_nat gt) ^ 2)
  end.
