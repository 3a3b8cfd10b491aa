(** HQPBO: include/opengm/inference/hqpbo.hxx, with the energy of FuseModel.v.  A model with two labels per variable; the
    labels of a factor are checked against its shape.  constV_ and bound_ are private and never returned; they are left
    out.  The visitor has no influence. *)
From Coq Require Import QArith Qcanon.
From Verif Require Import Base GmView HoeModel FuseModel.
Open Scope nat_scope.

(** gm_[f](labels): reading a factor outside of its shape is undefined. *)
Definition factor_at (g : gmv Qc) (c : clique) (l : list nat) : outcome Qc :=
  if forallb (fun p => snd p <? nth (fst p) (v_labels g) 0) (combine (fst c) l) then Ret (snd c l) else Undef.

(** Lines 64-66. *)
Record hq : Type := mkHq { hq_hoe : hoe; hq_conf : list nat }.
(** Lines 81-167. *)
Definition hq_new (g : gmv Qc) : outcome hq :=
  h <- setup_energy 10 (factor_at g) (fun _ => Ret 0) (fun _ => Ret 1) (length (v_labels g)) (v_factors g) ;;
  Ret (mkHq h (repeat 0 (length (v_labels g)))).
(** Lines 71-79. *)
Definition hq_setStart (g : gmv Qc) (s : hq) (x : list nat) : outcome hq :=
  conf <- mapM (rd x) (seq 0 (length (v_labels g))) ;; Ret (mkHq (hq_hoe s) conf).
(** Lines 190-219. *)
Definition hq_infer (g : gmv Qc) (solve : qsolver) (s : hq) : outcome hq :=
  ' (h, q) <- ToQuadratic 10 (hq_hoe s) quad_new ;;
  conf <- foldM (fun conf i => match solve q i with Some false => wr conf i 0 | Some true => wr conf i 1 | None => Ret conf end)
            (seq 0 (length (v_labels g))) (hq_conf s) ;;
  Ret (mkHq h conf).
(** Lines 221-238 for n = 1. *)
Definition hq_arg (s : hq) : list nat := hq_conf s.

(** Calls on an HQPBO object. *)
Inductive hqop : Type := HInfer | HStart (x : list nat).
Definition hq_step (g : gmv Qc) (solve : qsolver) (s : hq) (o : hqop) : outcome hq :=
  match o with HInfer => hq_infer g solve s | HStart x => hq_setStart g s x end.
Definition hq_run (g : gmv Qc) (solve : qsolver) (ops : list hqop) : outcome hq := s <- hq_new g ;; foldM (hq_step g solve) ops s.
