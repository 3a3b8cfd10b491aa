(** Model of inference/greedygremlin.hxx (GreedyGremlin).  The values are of any type; [stop k] tells whether the visitor
    ends the inference at its call number k. *)
From Verif Require Import Base Values GmView.

Section Gg.
Variable T : Type.
Variable OP : oper T.
Variable ACC : accum T.
Variable gm : gmv T.
Variable stop : nat -> bool.
Let numVar := length (v_labels gm).

(** 93-100: conf_ after the constructor *)
Definition gg_new : list nat := repeat 0 numVar.
(** 143-149: the loop ends at the first variable that is not coloured *)
Fixpoint gg_useIt (color : list bool) (vs : list nat) : outcome bool :=
  match vs with
  | [] => Ret true
  | v :: vs => c <- rd color v ;; if c : bool then gg_useIt color vs else Ret false
  end.
(** 151-158: the labels l and the position p, which is not initialised *)
Fixpoint gg_labels (var : nat) (conf : list nat) (vs : list nat) (i : nat) (l : list nat) (p : option nat) : outcome (list nat * option nat) :=
  match vs with
  | [] => Ret (l, p)
  | v :: vs =>
    if v =? var then gg_labels var conf vs (S i) l (Some i)
    else c <- rd conf v ;; l <- wr l i c ;; gg_labels var conf vs (S i) l p
  end.
(** 142-164, one factor *)
Definition gg_factor (var : nat) (color : list bool) (conf : list nat) (vals : list T) (f : nat) : outcome (list T) :=
  fc <- rd (v_factors gm) f ;;
  useIt <- gg_useIt color (fst fc) ;;
  if useIt : bool then
    ' (l, p) <- gg_labels var conf (fst fc) 0 (repeat 0 (length (fst fc))) None ;;
    match p with
    | None => Undef
    | Some p =>
      k <- rd (v_labels gm) var ;;
      foldM (fun vals a => l <- wr l p a ;; w <- rd vals a ;; wr vals a (o_op OP (snd fc l) w)) (seq 0 k) vals
    end
  else Ret vals.
(** 167-170 *)
Definition gg_best (var : nat) (vals : list T) (conf : list nat) : outcome (list nat) :=
  foldM (fun conf i => w <- rd vals i ;; c <- rd conf var ;; b <- rd vals c ;; if a_bop ACC w b then wr conf var i else Ret conf)
    (seq 0 (length vals)) conf.
(** the state: nodeColor, waitingList, waitingListLast, conf_ *)
Record gg : Type := mkGg { gg_color : list bool; gg_wait : list nat; gg_last : nat; gg_conf : list nat }.
(** 175-178, one variable of one factor *)
Definition gg_push (s : gg) (v : nat) : outcome gg :=
  c <- rd (gg_color s) v ;;
  if c : bool then Ret s
  else color <- wr (gg_color s) v true ;; wait <- wr (gg_wait s) (S (gg_last s)) v ;; Ret (mkGg color wait (S (gg_last s)) (gg_conf s)).
(** 139-180, one round *)
Definition gg_round (first : nat) (s : gg) : outcome gg :=
  var <- rd (gg_wait s) first ;;
  k <- rd (v_labels gm) var ;;
  vals <- foldM (gg_factor var (gg_color s) (gg_conf s)) (v_adj T gm var) (repeat (o_neutral OP) k) ;;
  conf <- gg_best var vals (gg_conf s) ;;
  foldM (fun s f => fc <- rd (v_factors gm) f ;; foldM gg_push (fst fc) s) (v_adj T gm var) (mkGg (gg_color s) (gg_wait s) (gg_last s) conf).
(** 137-184: [k] rounds remain, the next one is number [first] *)
Fixpoint gg_rounds (k first : nat) (s : gg) : outcome gg :=
  match k with
  | 0 => Ret s
  | S k => s <- gg_round first s ;; if stop first then Ret s else gg_rounds k (S first) s
  end.
(** 127-188, infer(): conf_ afterwards *)
Definition gg_infer (conf : list nat) : outcome (list nat) :=
  wait <- wr (repeat 0 numVar) 0 0 ;;
  color <- wr (repeat false numVar) 0 true ;;
  s <- gg_rounds numVar 0 (mkGg color wait 0 conf) ;;
  Ret (gg_conf s).
(** 190-202, arg for n = 1 *)
Definition gg_arg (conf : list nat) : list nat := conf.
End Gg.
