(** A read-only view of a graphical model, as inference algorithms use it: label counts and, for each
    factor, its variables and its values.  GmViewProps.v proves that every model built by a legal history
    of calls (GmModel.v) answers the queries of the algorithms as its view does. *)
From Verif Require Import Base Values.

Section View.
Variable T : Type.
Record gmv : Type := mkGmv { v_labels : list nat; v_factors : list (list nat * (list nat -> T)) }.

Definition v_numberOfVariables (g : gmv) : nat := length (v_labels g).
Definition v_numberOfFactors (g : gmv) : nat := length (v_factors g).

(** gm[f](labels of its variables), reading the labels from a vector. *)
Definition fvalue (fc : list nat * (list nat -> T)) (x : list nat) : outcome T :=
  l <- mapM (rd x) (fst fc) ;; Ret (snd fc l).

(** graphicalmodel.hxx 445-474, evaluate; see GmModel.evaluate for the buffer. *)
Definition v_evaluate (OP : oper T) (g : gmv) (x : list nat) : outcome T :=
  foldM (fun acc fc => v <- fvalue fc x ;; Ret (o_op OP v acc)) (v_factors g) (o_neutral OP).

(** The factors of a variable: graphicalmodel.hxx 243-308 (factorOfVariable), see C12. *)
Definition v_adj (g : gmv) (v : nat) : list nat :=
  filter (fun k => match nth_error (v_factors g) k with
                   | Some (vis, _) => existsb (Nat.eqb v) vis | None => false end)
         (seq 0 (length (v_factors g))).
End View.
Arguments mkGmv {T}. Arguments v_labels {T}. Arguments v_factors {T}.
