(** HigherOrderEnergy: include/opengm/inference/fix-fusion/higher-order-energy.hpp 56-327, and the interface of the quadratic
    solver it fills: include/opengm/inference/fix-fusion/quadratic-rep.hpp 15-42.

    Simplified: the values are exact rational numbers; VarId is a natural number; the counters of a VarRecord, which only
    serve to reserve memory (SetMaxEdgeNum), are left out.  The degree of a term is the length of its list of variables.
    The quadratic solver (QPBO, an external library) is represented by the terms that were added to it. *)
From Coq Require Import QArith Qcanon.
From Verif Require Import Base.
Open Scope nat_scope.

Definition qzero (c : Qc) : bool := if Qc_eq_dec c 0%Qc then true else false.
Definition qpos (c : Qc) : bool := if Qclt_le_dec 0%Qc c then true else false.
Definition q_of_Z (z : Z) : Qc := Q2Qc (inject_Z z).

(** Lines 94-112, 118-131, 133, 148 and 150-151. *)
Record term : Type := mkTerm { t_coeff : Qc; t_vars : list nat }.
Record vrec : Type := mkVrec { r_id : nat; r_terms : list term; r_coeff : Qc }.
Record hoe : Type := mkHoe { h_const : Qc; h_count : nat; h_recs : list vrec }.

(** Lines 154-157. *)
Definition hoe_new : hoe := mkHoe 0%Qc 0 [].
(** Lines 159-166; it returns the old value of the counter. *)
Definition AddVar (h : hoe) : hoe := mkHoe (h_const h) (S (h_count h)) (h_recs h ++ [mkVrec (h_count h) [] 0%Qc]).
(** Lines 324-327. *)
Definition Clear (h : hoe) : hoe := mkHoe (h_const h) (h_count h) [].
(** Lines 168-175. *)
Fixpoint AddVars (n : nat) (h : hoe) : hoe := match n with 0 => h | S n => AddVars n (AddVar h) end.

(** Lines 311-322. *)
Fixpoint lex (l1 l2 : list nat) : comparison :=
  match l1, l2 with
  | a :: l1, b :: l2 => if a =? b then lex l1 l2 else if a <? b then Lt else Gt
  | _, _ => Eq
  end.
Definition Compare (v1 v2 : list nat) : comparison :=
  if length v1 <? length v2 then Lt else if length v2 <? length v1 then Gt else lex v1 v2.

Section Degree.
(** The template parameter D: a Term has an array of D variables. *)
Variable D : nat.

(** Lines 100-105: the constructor of Term copies the variables into the array. *)
Definition new_term (c : Qc) (vars : list nat) : outcome term := if length vars <=? D then Ret (mkTerm c vars) else Undef.
(** Lines 190-212. *)
Fixpoint insert_term (c : Qc) (vars : list nat) (l : list term) : outcome (list term) :=
  match l with
  | [] => t <- new_term c vars ;; Ret [t]
  | t :: l' =>
      match Compare vars (t_vars t) with
      | Eq => Ret (mkTerm (t_coeff t + c)%Qc (t_vars t) :: l')
      | Lt => t' <- new_term c vars ;; Ret (t' :: t :: l')
      | Gt => l'' <- insert_term c vars l' ;; Ret (t :: l'')
      end
  end.
(** Lines 219-222. *)
Definition AddUnaryTerm (v : nat) (c : Qc) (h : hoe) : outcome hoe :=
  r <- rd (h_recs h) v ;; rs <- wr (h_recs h) v (mkVrec (r_id r) (r_terms r) (r_coeff r + c)%Qc) ;; Ret (mkHoe (h_const h) (h_count h) rs).
(** Lines 177-217. *)
Definition AddTerm (c : Qc) (vars : list nat) (h : hoe) : outcome hoe :=
  if qzero c then Ret h
  else match vars with
  | [] => Ret (mkHoe (h_const h + c)%Qc (h_count h) (h_recs h))
  | [v] => AddUnaryTerm v c h
  | v :: _ =>
      r <- rd (h_recs h) v ;;
      ts <- insert_term c vars (r_terms r) ;;
      rs <- wr (h_recs h) v (mkVrec (r_id r) ts (r_coeff r)) ;;
      Ret (mkHoe (h_const h) (h_count h) rs)
  end.

(** Lines 235-258, one term of the variable [i].  The terms of [i] are held apart: a term that repeats [i] would be added
    to the list that is being traversed, which is not modelled (Undef). *)
Definition elim_term (i newPos : nat) (st : hoe * Qc * list term) (t : term) : outcome (hoe * Qc * list term) :=
  let '(h, sum, kept) := st in
  if qpos (t_coeff t) then
    match t_vars t with
    | _ :: v1 :: vs =>
        if v1 =? i then Undef
        else
          h <- AddTerm (t_coeff t) (v1 :: vs) h ;;
          h <- AddTerm (- t_coeff t)%Qc ((v1 :: vs) ++ [newPos]) h ;;
          Ret (h, (sum + t_coeff t)%Qc, kept)
    | _ => Undef
    end
  else Ret (h, sum, kept ++ [t]).
(** Lines 227-263, one variable. *)
Definition elim_var (h : hoe) (i : nat) : outcome hoe :=
  let newPos := h_count h in
  let h := AddVar h in
  r <- rd (h_recs h) i ;;
  rs <- wr (h_recs h) i (mkVrec (r_id r) [] (r_coeff r)) ;;
  ' (h, sum, kept) <- foldM (elim_term i newPos) (r_terms r) (mkHoe (h_const h) (h_count h) rs, 0%Qc, []) ;;
  r <- rd (h_recs h) i ;;
  rs <- wr (h_recs h) i (mkVrec (r_id r) kept (r_coeff r)) ;;
  AddTerm sum [r_id r; newPos] (mkHoe (h_const h) (h_count h) rs).
(** Lines 224-264. *)
Definition EliminatePositiveTerms (h : hoe) : outcome hoe := foldM elim_var (seq 0 (length (h_recs h))) h.
End Degree.

(** *** The quadratic solver, quadratic-rep.hpp 25-34: its nodes, unary and pairwise terms. *)
Record quad : Type := mkQuad { q_nodes : nat; q_un : list (nat * (Qc * Qc)); q_pw : list (nat * nat * (Qc * Qc * Qc * Qc)) }.
Definition quad_new : quad := mkQuad 0 [] [].
Definition qr_AddNode (n : nat) (q : quad) : quad := mkQuad (q_nodes q + n) (q_un q) (q_pw q).
Definition qr_AddUnaryTerm (v : nat) (e0 e1 : Qc) (q : quad) : outcome quad :=
  if v <? q_nodes q then Ret (mkQuad (q_nodes q) (q_un q ++ [(v, (e0, e1))]) (q_pw q)) else Undef.
Definition qr_AddPairwiseTerm (u v : nat) (e00 e01 e10 e11 : Qc) (q : quad) : outcome quad :=
  if (u <? q_nodes q) && (v <? q_nodes q) && negb (u =? v)
  then Ret (mkQuad (q_nodes q) (q_un q) (q_pw q ++ [(u, v, (e00, e01, e10, e11))])) else Undef.

(** Lines 286-297, one term; a stored term has at least two variables. *)
Definition reduce_term (q : quad) (t : term) : outcome quad :=
  match t_vars t with
  | [v0; v1] => qr_AddPairwiseTerm v0 v1 0%Qc 0%Qc 0%Qc (t_coeff t) q
  | vs =>
      let w := q_nodes q in
      let q := qr_AddNode 1 q in
      q <- foldM (fun q v => qr_AddPairwiseTerm v w 0%Qc 0%Qc 0%Qc (t_coeff t) q) vs q ;;
      qr_AddUnaryTerm w 0%Qc (t_coeff t * q_of_Z (1 - Z.of_nat (length vs)))%Qc q
  end.
(** Lines 266-302. *)
Definition ReduceNegativeTerms (h : hoe) (q : quad) : outcome quad :=
  let q := qr_AddNode (h_count h) q in
  q <- foldM (fun q r => foldM reduce_term (r_terms r) q) (h_recs h) q ;;
  foldM (fun q r => qr_AddUnaryTerm (r_id r) 0%Qc (r_coeff r) q) (h_recs h) q.
(** Lines 304-309; the energy is changed, too. *)
Definition ToQuadratic (D : nat) (h : hoe) (q : quad) : outcome (hoe * quad) :=
  h <- EliminatePositiveTerms D h ;; q <- ReduceNegativeTerms h q ;; Ret (h, q).

(** Histories of calls. *)
Inductive hoecall : Type := CVars (n : nat) | CTerm (c : Qc) (vars : list nat) | CUnary (v : nat) (c : Qc) | CClear.
Definition hoe_step (D : nat) (h : hoe) (c : hoecall) : outcome hoe :=
  match c with CVars n => Ret (AddVars n h) | CTerm c vars => AddTerm D c vars h | CUnary v c => AddUnaryTerm v c h | CClear => Ret (Clear h) end.
Definition hoe_run (D : nat) (cs : list hoecall) : outcome hoe := foldM (hoe_step D) cs hoe_new.
(** HigherOrderEnergy f; calls; QR qr; f.ToQuadratic(qr). *)
Definition hoe_quadratic (D : nat) (cs : list hoecall) : outcome quad :=
  h <- hoe_run D cs ;; ' (_, q) <- ToQuadratic D h quad_new ;; Ret q.
(** f.ToQuadratic(qr1); ...; f.ToQuadratic(qr(k+1)), each time with a new solver; the last one is the result. *)
Fixpoint hoe_requadratic (D k : nat) (h : hoe) : outcome quad :=
  ' (h, q) <- ToQuadratic D h quad_new ;; match k with 0 => Ret q | S k => hoe_requadratic D k h end.
