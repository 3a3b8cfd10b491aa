(** Model of inference/trws/trws_subproblemsolver.hxx: SequenceStorage, FunctionParameters, and DynamicProgramming and MaxSumSolver with ACC = Minimizer.
    Simplified: exact rational numbers; the smoothing value _rho is 1, which is all that MaxSumSolver sets; the copy of a table of two variables (705-715, and utilities2.hxx
    190-244) is a function of the label at which a step starts and of the one at which it ends; the normalization of that copy (745-751), which nothing reads, is not made;
    the neutral value of 419, which is infinite, is no value.  Not modelled: IncreaseUnaryWeights, SumProdSolver, the calls of single steps, output. *)
From Coq Require Import QArith Qcanon.
From Verif Require Import Base Values GmView ConstraintModel LpbModel PmModel.
Open Scope nat_scope.

Section Ts.
Variable g : gmv Qc.

(** 72-79; true is Direct *)
Record store : Type := mkStore { st_vars : list nat; st_pw : list nat; st_un : list (list Qc); st_dir : list bool }.

(** 541-565; size()-1 wraps around for no variables, and there is no list of that length *)
Definition ts_check (vars pws : list nat) : outcome (list bool) :=
  if (length vars =? 0) || negb (length vars - 1 =? length pws) then Throw
  else mapM (fun i =>
    f <- rd pws i ;; ' (vis, _) <- rd (v_factors g) f ;;
    if length vis =? 2 then
      v0 <- rd vis 0 ;; v1 <- rd vis 1 ;; a <- rd vars i ;; b <- rd vars (S i) ;;
      if v0 =? a then if v1 =? b then Ret true else Throw
      else if v0 =? b then if v1 =? a then Ret false else Throw
      else Throw
    else Throw) (seq 0 (length vars - 1)).
(** 574-582; the division by no sequences is not modelled *)
Definition ts_unary (m : list (option nat)) (v k : nat) : outcome (list Qc) :=
  e <- rd m v ;;
  match e with
  | None => Undef
  | Some f => ' (_, t) <- rd (v_factors g) f ;; n <- rd (v_labels g) v ;; if k =? 0 then Undef else Ret (map (fun l => t [l] * / Qc_of k)%Qc (seq 0 n))
  end.
(** 525-539, 567-572, 584-590 *)
Definition ts_new (vars pws nums : list nat) : outcome store :=
  dirs <- ts_check vars pws ;; m <- lb_mapping g ;;
  un <- mapM (fun i => v <- rd vars i ;; k <- rd nums i ;; ts_unary m v k) (seq 0 (length vars)) ;;
  Ret (mkStore vars pws un dirs).
(** 601-625; a factor is called with an iterator to the labels, of which it reads two *)
Definition ts_evaluate (st : store) (labeling : list nat) : outcome Qc :=
  foldM (fun value i =>
    u <- rd (st_un st) i ;; l <- rd labeling i ;; q <- rd u l ;; let value := (value + q)%Qc in
    if i <? length (st_vars st) - 1 then
      d <- rd (st_dir st) i ;; f <- rd (st_pw st) i ;; ' (_, t) <- rd (v_factors g) f ;; l' <- rd labeling (S i) ;;
      if d : bool then Ret (value + t [l; l'])%Qc else Ret (value + t [l; l'])%Qc
    else Ret value) (seq 0 (length (st_vars st))) 0%Qc.

(** 148-162 *)
Definition ts_potts (fc : list nat * (list nat -> Qc)) : outcome (Qc * Qc) :=
  v0 <- rd (fst fc) 0 ;; v1 <- rd (fst fc) 1 ;; n0 <- rd (v_labels g) v0 ;; n1 <- rd (v_labels g) v1 ;; let t := snd fc in
  let p1 := if (0 <? n0) && (0 <? n1) then t [0; 0] else 0%Qc in
  let p0 := if 1 <? n0 then (t [1; 0]%nat - t [0; 0]%nat)%Qc else if 1 <? n1 then (t [0; 1]%nat - t [0; 0]%nat)%Qc else 0%Qc in
  Ret (p0, p1).
(** 118-134; None is GENERAL *)
Definition ts_params : outcome (list (option (Qc * Qc))) :=
  mapM (fun fc => if length (fst fc) =? 2 then b <- pm_isPotts g fc ;; if b then p <- ts_potts fc ;; Ret (Some p) else Ret None else Ret None) (v_factors g).

(** std::max_element with Minimizer::ibop, which is >: the first of the smallest, and its position *)
Fixpoint best_from (l : list Qc) (i b : nat) (v : Qc) : nat * Qc :=
  match l with
  | [] => (b, v)
  | x :: l => if Qc_lt x v then best_from l (S i) i x else best_from l (S i) b v
  end.
Definition ts_best (l : list Qc) : outcome (nat * Qc) :=
  match l with [] => Undef | x :: l => Ret (best_from l 1 0 x) end.
(** Minimizer::op *)
Definition ts_min (a b : Qc) : Qc := if Qc_lt a b then a else b.
(** 405-443 *)
Definition ts_transform (u : list Qc) (newSize : nat) (p0 p1 : Qc) : outcome (list Qc) :=
  ' (bi, bv) <- ts_best u ;;
  let u1 := map (fun x => if Qc_lt x (bv + p0)%Qc then x else (bv + p0)%Qc) u in
  let u2 := if Qc_lt p0 0 then
              upd u1 bi (match firstn bi u ++ skipn (S bi) u with
                         | [] => bv
                         | x :: l => ts_min (snd (best_from l 1 0 x) + p0)%Qc bv
                         end)
            else u1 in
  let u3 := if Qc_eq_bool p1 0 then u2 else map (fun x => p1 + x)%Qc u2 in
  Ret (if newSize <? length u3 then firstn newSize u3 else u3 ++ repeat (p0 + p1 + bv)%Qc (newSize - length u3)).

Section Solver.
Variable st : store.
Variable params : list (option (Qc * Qc)).
Variable fast : bool.
Let size := length (st_vars st).

(** 276-295, 341-346; the index is the size where the code has NaN, outside all vectors too; a label is None where the code has NaN *)
Record solver : Type := mkSolver { so_dir : bool; so_need : bool; so_idx : nat; so_cur : list Qc; so_marg : list (list Qc); so_lab : list (option nat); so_obj : Qc }.
(** 630-643, 322-327 *)
Definition so_new : solver := mkSolver true true size [] (map (fun u => repeat 0%Qc (length u)) (st_un st)) (repeat None size) 0%Qc.

(** 661-675 *)
Definition ts_next (d : bool) (i : nat) : outcome nat := if d then Ret (S i) else if i =? 0 then Undef else Ret (i - 1).
(** 694-702 *)
Definition ts_pwIndex (d : bool) (i : nat) : outcome nat := if d then Ret i else if i =? 0 then Undef else Ret (i - 1).
(** 705-751, 774-808, 445-460: the next index and the next buffer *)
Definition ts_push (d : bool) (i : nat) (cur : list Qc) : outcome (nat * list Qc) :=
  k <- ts_pwIndex d i ;; f <- rd (st_pw st) k ;; p <- rd params f ;; j <- ts_next d i ;; un <- rd (st_un st) j ;;
  match (if fast then p else None) with
  | Some (p0, p1) =>
    c <- ts_transform cur (length un) p0 p1 ;;
    c <- mapM (fun y => a <- rd c y ;; u <- rd un y ;; Ret (a + u)%Qc) (seq 0 (length c)) ;; Ret (j, c)
  | None =>
    ' (_, t) <- rd (v_factors g) f ;; dk <- rd (st_dir st) k ;;
    let pw := fun s e => if Bool.eqb d dk then t [s; e] else t [e; s] in
    c <- mapM (fun y =>
           l <- mapM (fun x => a <- rd cur x ;; Ret (pw x y + a)%Qc) (seq 0 (length cur)) ;;
           ' (_, b) <- ts_best l ;; u <- rd un y ;; Ret (u + b)%Qc) (seq 0 (length un)) ;;
    Ret (j, c)
  end.
(** 810-814 *)
Definition ts_update (s : solver) : outcome solver :=
  m <- wr (so_marg s) (so_idx s) (so_cur s) ;; Ret (mkSolver (so_dir s) (so_need s) (so_idx s) (so_cur s) m (so_lab s) (so_obj s)).
(** 816-822 *)
Definition ts_sumUp (s : solver) : outcome solver :=
  m <- rd (so_marg s) (so_idx s) ;; un <- rd (st_un st) (so_idx s) ;;
  c <- mapM (fun y => a <- rd (so_cur s) y ;; b <- rd m y ;; u <- rd un y ;; Ret (b + a - u)%Qc) (seq 0 (length m)) ;;
  m <- wr (so_marg s) (so_idx s) c ;; Ret (mkSolver (so_dir s) (so_need s) (so_idx s) (so_cur s) m (so_lab s) (so_obj s)).
(** 872-886, 736-743 *)
Definition ts_coreInit (d : bool) (s : solver) : outcome solver :=
  let i := if d then 0 else size - 1 in
  un <- rd (st_un st) i ;; Ret (mkSolver d false i un (so_marg s) (so_lab s) (so_obj s)).
(** 887-893 *)
Definition ts_init (d : bool) (s : solver) : outcome solver := s <- ts_coreInit d s ;; ts_update s.
Definition ts_step (s : solver) : outcome solver :=
  ' (j, c) <- ts_push (so_dir s) (so_idx s) (so_cur s) ;; Ret (mkSolver (so_dir s) (so_need s) j c (so_marg s) (so_lab s) (so_obj s)).
(** 967-998 with 912-922: the marginals of variable i and the factor to the variable before it in direction d *)
Definition ts_backward (d : bool) (i : nat) (u : list Qc) (fixedLabel : nat) : outcome (list Qc) :=
  k <- (if d then if i =? 0 then Undef else Ret (i - 1) else if i =? size - 1 then Undef else Ret i) ;;
  f <- rd (st_pw st) k ;; p <- rd params f ;;
  match (if fast then p else None) with
  | Some (p0, _) => if fixedLabel <? length u then a <- rd u fixedLabel ;; wr u fixedLabel (a - p0)%Qc else Ret u
  | None =>
    ' (vis, t) <- rd (v_factors g) f ;; v <- rd (st_vars st) i ;; v0 <- rd vis 0 ;;
    mapM (fun j => a <- rd u j ;; Ret (a + (if (v =? v0)%nat then t [j; fixedLabel] else t [fixedLabel; j]))%Qc) (seq 0 (length u))
  end.
(** 349-376 *)
Definition ts_estimate (s : solver) : outcome solver :=
  let d := negb (so_dir s) in
  o <- rd (so_lab s) (so_idx s) ;;
  match o with
  | None => Undef
  | Some opt =>
    ' (_, lab, _) <- foldM (fun '(i, lab, opt) _ =>
        j <- ts_next d i ;; m <- rd (so_marg s) j ;; u <- ts_backward d j m opt ;; ' (b, _) <- ts_best u ;;
        lab <- wr lab j (Some b) ;; Ret (j, lab, b)) (seq 1 (size - 1)) (so_idx s, so_lab s, opt) ;;
    Ret (mkSolver (so_dir s) (so_need s) (so_idx s) (so_cur s) (so_marg s) lab (so_obj s))
  end.
(** 378-394, 895-900 *)
Definition ts_finalize (s : solver) : outcome solver :=
  m <- rd (so_marg s) (so_idx s) ;; ' (b, v) <- ts_best m ;; lab <- wr (so_lab s) (so_idx s) (Some b) ;;
  ts_estimate (mkSolver (so_dir s) true (so_idx s) (so_cur s) (so_marg s) lab v).
(** 824-842 *)
Definition ts_move (s : solver) : outcome solver :=
  s <- (if so_need s then ts_init (negb (so_dir s)) s else Ret s) ;;
  s <- foldM (fun s _ => s <- ts_step s ;; ts_update s) (seq 0 (size - 1)) s ;;
  ts_finalize s.
(** 844-870 *)
Definition ts_moveBack (s : solver) : outcome solver :=
  s <- foldM (fun s _ => s <- (if so_need s then ts_coreInit (negb (so_dir s)) s else Ret s) ;; s <- ts_step s ;; ts_sumUp s) (seq 0 (size - 1)) s ;;
  ts_finalize s.

(** The calls of a user *)
Inductive top := TInit (d : bool) | TMove | TBack.
Definition ts_call (s : solver) (o : top) : outcome solver := match o with TInit d => ts_init d s | TMove => ts_move s | TBack => ts_moveBack s end.
Definition ts_run (h : list top) : outcome solver := foldM ts_call h so_new.
End Solver.
End Ts.
