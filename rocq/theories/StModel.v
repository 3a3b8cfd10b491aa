(** Model of startFromThreshold (inference/cgc/generate_starting_point.hxx 16-52), with the Partition of PartitionModel.v.
    Simplified: values are exact rationals; of the model only the number of variables and the variables of the factors are used. *)
From Coq Require Import QArith Qcanon.
From Verif Require Import Base PartitionModel ConstraintModel.
Open Scope nat_scope.

(** 30-40 *)
Definition st_merge (n : nat) (factors : list (list nat)) (lambdas : list Qc) (threshold : Qc) : outcome partition :=
  foldM (fun ufd fi =>
    vis <- rd factors fi ;;
    if length vis =? 2 then
      vi0 <- rd vis 0 ;; vi1 <- rd vis 1 ;; lam <- rd lambdas fi ;;
      if Qc_lt threshold lam then part_merge ufd vi0 vi1 else Ret ufd
    else Throw)
  (seq 0 (length factors)) (part_init n).
(** 46-50 *)
Definition st_write (n : nat) (repr : list (nat * nat)) (ufd : partition) (res : list nat) : outcome (partition * list nat) :=
  foldM (fun '(ufd, res) vi => ' (ufd, r) <- part_find ufd vi ;; res <- wr res vi (map_at repr r) ;; Ret (ufd, res)) (seq 0 n) (ufd, res).
(** 16-52; [res] is the argument resultArg, which is resized at 26 *)
Definition st_start (n : nat) (factors : list (list nat)) (lambdas : list Qc) (res : list nat) (threshold : Qc) : outcome (list nat) :=
  let res := firstn n res ++ repeat 0 (n - length res) in
  ufd <- st_merge n factors lambdas threshold ;;
  repr <- part_representativeLabeling ufd ;;
  ' (_, res) <- st_write n repr ufd res ;;
  Ret res.
