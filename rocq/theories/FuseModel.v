(** The energy of a fusion move as a polynomial, and moves by it:
    include/opengm/inference/fix-fusion/fusion-move.hpp 123-251 (FusionMove, SetupFusionEnergy, GetFusedImage), and the same
    code in include/opengm/inference/hqpbo.hxx, alphaexpansionfusion.hxx and reducedinference.hxx.

    Simplified: exact rational numbers; unsigned int has no bound (1 << size is undefined from 31 variables on, but the
    array of variables overflows before, which is Undef here); coeffs[0], which is neither set nor read, is 0. *)
From Coq Require Import QArith Qcanon.
From Verif Require Import Base GmView HoeModel TentacleModel.
Open Scope nat_scope.

(** A clique or factor: its variables and its energy (fix-fusion/clique.hpp; a factor of a model). *)
Definition clique : Type := list nat * (list nat -> Qc).

Section Setup.
(** The order D of the energy, how a clique is evaluated at labels, and the two labels of each variable. *)
Variable D : nat.
Variable eval : clique -> list nat -> outcome Qc.
Variables lab0 lab1 : nat -> outcome nat.

(** fusion-move.hpp 195-201, hqpbo.hxx 122-132, alphaexpansionfusion.hxx 333-341: cliqueLabels. *)
Definition clique_labels (a : nat) (vis : list nat) : outcome (list nat) :=
  mapM (fun p => if Nat.testbit a (fst p) then lab1 (snd p) else lab0 (snd p)) (combine (seq 0 (length vis)) vis).
(** fusion-move.hpp 210-214, hqpbo.hxx 142-146, alphaexpansionfusion.hxx 350-353: parity. *)
Definition parity (size a s : nat) : bool := fold_left (fun p b => xorb p (Nat.testbit (Nat.lxor a s) b)) (seq 0 size) false.
(** fusion-move.hpp 183-218, hqpbo.hxx 109-150, alphaexpansionfusion.hxx 324-357: the coefficients of all subsets. *)
Definition coefficients (size : nat) (energy : nat -> outcome Qc) : outcome (list Qc) :=
  foldM (fun coeffs a =>
           e <- energy a ;;
           foldM (fun coeffs s => if Nat.ldiff a s =? 0
                                  then c <- rd coeffs s ;; wr coeffs s (c + (if parity size a s then - e else e))%Qc
                                  else Ret coeffs)
             (seq 1 (2 ^ size - 1)) coeffs)
    (seq 0 (2 ^ size)) (repeat 0%Qc (2 ^ size)).
(** fusion-move.hpp 219-226, hqpbo.hxx 151-161, alphaexpansionfusion.hxx 358-365: the array vars of size D. *)
Definition subset_vars (s : nat) (vis : list nat) : outcome (list nat) :=
  foldM (fun vars p => if Nat.testbit s (fst p) then if length vars <? D then Ret (vars ++ [snd p]) else Undef else Ret vars)
    (combine (seq 0 (length vis)) vis) [].
(** fusion-move.hpp 172-231, hqpbo.hxx 90-166, alphaexpansionfusion.hxx 312-370: one clique; the calls it makes. *)
Definition clique_calls (c : clique) : outcome (list hoecall) :=
  match fst c with
  | [] => Ret []
  | [v] => l0 <- lab0 v ;; e0 <- eval c [l0] ;; l1 <- lab1 v ;; e1 <- eval c [l1] ;; Ret [CUnary v (e1 - e0)%Qc]
  | vis =>
      coeffs <- coefficients (length vis) (fun a => l <- clique_labels a vis ;; eval c l) ;;
      mapM (fun s => vars <- subset_vars s vis ;; k <- rd coeffs s ;; Ret (CTerm k (nat_sort vars))) (seq 1 (2 ^ length vis - 1))
  end.
(** fusion-move.hpp 159-232: SetupFusionEnergy; the calls are collected first and made then. *)
Definition setup_energy (n : nat) (cliques : list clique) : outcome hoe :=
  css <- mapM clique_calls cliques ;; hoe_run D (CVars n :: concat css).
End Setup.

(** QPBO: Solve and GetLabel of an external solver, a function from the energy to labels; None is unlabeled. *)
Definition qsolver : Type := quad -> nat -> option bool.

(** fusion-move.hpp 123-140 and 234-251; current and proposed are arrays with [size] entries.  CliqueEnergy::operator() is
    user code that knows its labels. *)
Definition FusionMove (D size : nat) (current proposed : list nat) (cliques : list clique) (solve : qsolver) : outcome (list nat) :=
  h <- setup_energy D (fun c l => Ret (snd c l)) (rd current) (rd proposed) size cliques ;;
  ' (_, q) <- ToQuadratic D h quad_new ;;
  mapM (fun i => match solve q i with Some true => rd proposed i | _ => rd current i end) (seq 0 size).
