(** LazyFlipper: include/opengm/inference/lazyflipper.hxx.

    The model is read through its view (GmView.v) and changed labels go through the Movemaker (MovemakerModel.v).
    NONODE is [None].  A loop over nodes takes fuel; running out of it stands for not having finished, and the
    theorems show that it does not happen.  Visitors are an oracle that says, for each call of the visitor during
    one infer, whether inference stops (begin and end of a visitor have no effect).  Not modelled: testInvariant and
    OPENGM_ASSERT (off in release builds), asString, name, graphicalModel. *)
From Verif Require Import Base Values GmView MovemakerModel.

(** Tagging<bool>, lines 24-44 and 225-307: the tags and the indices tagged so far. *)
Record tagging : Type := mkTagging { tg_tags : list bool; tg_indices : list nat }.
(** Lines 225-239, the constructor with size 0 followed by append. *)
Definition tg_append (t : tagging) (number : nat) : tagging := mkTagging (tg_tags t ++ repeat false number) (tg_indices t).
(** Lines 242-250. *)
Definition tg_get (t : tagging) (i : nat) : outcome bool := rd (tg_tags t) i.
(** Lines 253-266, with the tag true. *)
Definition tg_set (t : tagging) (i : nat) : outcome tagging :=
  b <- rd (tg_tags t) i ;;
  tags <- wr (tg_tags t) i true ;;
  Ret (mkTagging tags (if b : bool then tg_indices t else tg_indices t ++ [i])).
(** Lines 271-279. *)
Definition tg_untag (t : tagging) : outcome tagging :=
  tags <- foldM (fun tags i => wr tags i false) (tg_indices t) (tg_tags t) ;; Ret (mkTagging tags []).

(** Adjacency, lines 47-62 and 309-390: a sorted list of neighbours for each vertex.  Lines 325-334. *)
Definition connect (a : list (list nat)) (j k : nat) : outcome (list (list nat)) :=
  s <- rd a j ;; a <- wr a j (sins k s) ;; s <- rd a k ;; wr a k (sins j s).
(** Lines 336-358. *)
Definition connected (a : list (list nat)) (j k : nat) : outcome bool :=
  sj <- rd a j ;; sk <- rd a k ;;
  Ret (if length sj <? length sk then existsb (Nat.eqb k) sj else existsb (Nat.eqb j) sk).

(** Forest<size_t>, lines 71-109 and 394-605. *)
Record node : Type := mkNode { nd_value : nat; nd_parent : option nat; nd_children : list nat; nd_level : nat; nd_succ : option nat }.
Record forest : Type := mkForest { fo_nodes : list node; fo_anchors : list nat }.
(** Lines 394-398. *)
Definition fo_empty : forest := mkForest [] [].
(** Lines 400-483: levels, levelAnchor, value, level, parent, levelOrderSuccessor, numberOfChildren and child. *)
Definition fo_levels (f : forest) : nat := length (fo_anchors f).
Definition fo_levelAnchor (f : forest) (l : nat) : outcome nat := rd (fo_anchors f) l.
Definition fo_value (f : forest) (p : nat) : outcome nat := nd <- rd (fo_nodes f) p ;; Ret (nd_value nd).
Definition fo_level (f : forest) (p : nat) : outcome nat := nd <- rd (fo_nodes f) p ;; Ret (nd_level nd).
Definition fo_parent (f : forest) (p : nat) : outcome (option nat) := nd <- rd (fo_nodes f) p ;; Ret (nd_parent nd).
Definition fo_succ (f : forest) (p : nat) : outcome (option nat) := nd <- rd (fo_nodes f) p ;; Ret (nd_succ nd).
Definition fo_numberOfChildren (f : forest) (p : nat) : outcome nat := nd <- rd (fo_nodes f) p ;; Ret (length (nd_children nd)).
Definition fo_child (f : forest) (p j : nat) : outcome nat := nd <- rd (fo_nodes f) p ;; rd (nd_children nd) j.

(** push_back, lines 485-511. *)
Definition fo_push (f : forest) (value : nat) (parent : option nat) : outcome (forest * nat) :=
  let i := length (fo_nodes f) in
  let nodes := fo_nodes f ++ [mkNode value None [] 0 None] in
  nodes <- match parent with
           | None => Ret nodes
           | Some q =>
               nd <- rd nodes i ;;
               nodes <- wr nodes i (mkNode (nd_value nd) (Some q) (nd_children nd) (nd_level nd) (nd_succ nd)) ;;
               pn <- rd nodes q ;;
               nodes <- wr nodes q (mkNode (nd_value pn) (nd_parent pn) (nd_children pn ++ [i]) (nd_level pn) (nd_succ pn)) ;;
               pn <- rd nodes q ;; nd <- rd nodes i ;;
               wr nodes i (mkNode (nd_value nd) (nd_parent nd) (nd_children nd) (S (nd_level pn)) (nd_succ nd))
           end ;;
  nd <- rd nodes i ;;
  Ret (mkForest nodes (if length (fo_anchors f) <=? nd_level nd then fo_anchors f ++ [i] else fo_anchors f), i).
(** Lines 596-605. *)
Definition fo_setSucc (f : forest) (p s : nat) : outcome forest :=
  nd <- rd (fo_nodes f) p ;;
  nodes <- wr (fo_nodes f) p (mkNode (nd_value nd) (nd_parent nd) (nd_children nd) (nd_level nd) (Some s)) ;;
  Ret (mkForest nodes (fo_anchors f)).

(** The values of [k] nodes from [p] upwards: lines 1009-1018, 1240-1250, 1262-1272 and 1283-1289 (NONODE is out of bounds). *)
Fixpoint walk_up (f : forest) (k : nat) (p : option nat) : outcome (list nat) :=
  match k with
  | 0 => Ret []
  | S k => match p with
           | None => Undef
           | Some q => v <- fo_value f q ;; p <- fo_parent f q ;; r <- walk_up f k p ;; Ret (v :: r)
           end
  end.
(** The values on the whole way from [p] upwards, while(q != NONODE): lines 1034-1044, 1156-1163. *)
Fixpoint walk_root (f : forest) (fuel : nat) (p : option nat) : outcome (list nat) :=
  match p with
  | None => Ret []
  | Some q => match fuel with
              | 0 => Diverge
              | S fuel => v <- fo_value f q ;; p <- fo_parent f q ;; r <- walk_root f fuel p ;; Ret (v :: r)
              end
  end.

(** The first element with a property; later ones are not examined. *)
Fixpoint existsM (A : Type) (h : A -> outcome bool) (l : list A) : outcome bool :=
  match l with
  | [] => Ret false
  | a :: l => b <- h a ;; if b : bool then Ret true else existsM A h l
  end.

(** Lines 1058-1073: a variable that could have been added earlier, instead of a larger one. *)
Definition cheaper (adj : list (list nat)) (path : list nat) (w : nat) : outcome bool :=
  existsM _ (fun j =>
    u <- rd path (j - 1) ;; c <- connected adj u w ;;
    if c : bool then existsM _ (fun k => x <- rd path k ;; Ret (w <? x)) (seq j (length path - j))
    else Ret false) (seq 1 (length path - 1)).

(** The loop over the candidates, lines 1046-1081. *)
Fixpoint first_candidate (adj : list (list nat)) (path : list nat) (minVI maxVI : nat) (cands : list nat) : outcome (option nat) :=
  match cands with
  | [] => Ret None
  | w :: rest =>
      if (minVI <? w) && negb (existsb (Nat.eqb w) path) then
        if maxVI <? w then Ret (Some w)
        else c <- cheaper adj path w ;;
             if c : bool then first_candidate adj path minVI maxVI rest else Ret (Some w)
      else first_candidate adj path minVI maxVI rest
  end.

(** appendVariableToPath, lines 1002-1082. *)
Definition appendVariableToPath (adj : list (list nat)) (fuel : nat) (f : forest) (p : nat) : outcome (forest * option nat) :=
  lvl <- fo_level f p ;;
  up <- walk_up f (S lvl) (Some p) ;;
  let path := rev up in
  minVI <- rd path 0 ;;
  let maxVI := fold_left (fun m v => if m <? v then v else m) (tl path) minVI in
  nc <- fo_numberOfChildren f p ;;
  minVI <- (if 0 <? nc then c <- fo_child f p (nc - 1) ;; fo_value f c else Ret minVI) ;;
  vs <- walk_root f fuel (Some p) ;;
  cands <- foldM (fun s v => ns <- rd adj v ;; Ret (sunion s ns)) vs [] ;;
  w <- first_candidate adj path minVI maxVI cands ;;
  match w with
  | None => Ret (f, None)
  | Some w => ' (f, i) <- fo_push f w (Some p) ;; Ret (f, Some i)
  end.

(** Appending to the first possible node from [p] on, along the level: lines 1101-1111 and 1135-1144. *)
Fixpoint append_along (adj : list (list nat)) (fuel : nat) (f : forest) (p : option nat) : outcome (forest * option nat) :=
  match p with
  | None => Ret (f, None)
  | Some q =>
      match fuel with
      | 0 => Diverge
      | S fuel' =>
          ' (f, r) <- appendVariableToPath adj fuel f q ;;
          match r with
          | Some i => Ret (f, Some i)
          | None => p <- fo_succ f q ;; append_along adj fuel' f p
          end
      end
  end.

(** generateFirstPathOfLength, lines 1084-1114; [n] is the number of variables. *)
Definition generateFirst (adj : list (list nat)) (n fuel : nat) (f : forest) (len : nat) : outcome (forest * option nat) :=
  if n <? len then Ret (f, None)
  else if len =? 1 then ' (f, i) <- fo_push f 0 None ;; Ret (f, Some i)
  else p <- fo_levelAnchor f (len - 2) ;; append_along adj fuel f (Some p).

(** generateNextPathOfSameLength, lines 1116-1146. *)
Definition generateNext (adj : list (list nat)) (n fuel : nat) (f : forest) (pred : nat) : outcome (forest * option nat) :=
  l <- fo_level f pred ;;
  if l =? 0 then
    v <- fo_value f pred ;;
    if S v <? n then ' (f, i) <- fo_push f (S v) None ;; f <- fo_setSucc f pred i ;; Ret (f, Some i)
    else Ret (f, None)
  else
    p <- fo_parent f pred ;;
    ' (f, r) <- append_along adj fuel f p ;;
    match r with
    | Some i => f <- fo_setSucc f pred i ;; Ret (f, Some i)
    | None => Ret (f, None)
    end.

(** firstActivePath, lines 1176-1196: the search among the roots. *)
Fixpoint first_active (act : tagging) (fuel : nat) (f : forest) (p : option nat) : outcome (option nat) :=
  match p with
  | None => Ret None
  | Some q =>
      match fuel with
      | 0 => Diverge
      | S fuel =>
          v <- fo_value f q ;; b <- tg_get act v ;;
          if b : bool then Ret (Some q) else p <- fo_succ f q ;; first_active act fuel f p
      end
  end.
Definition firstActivePath (act : tagging) (fuel : nat) (f : forest) : outcome (option nat) :=
  if fo_levels f =? 0 then Ret None else a <- fo_levelAnchor f 0 ;; first_active act fuel f (Some a).

(** Lines 1223-1230: a tagged variable on the way from [p] upwards. *)
Fixpoint path_active (act : tagging) (fuel : nat) (f : forest) (p : option nat) : outcome bool :=
  match p with
  | None => Ret false
  | Some q =>
      match fuel with
      | 0 => Diverge
      | S fuel =>
          v <- fo_value f q ;; b <- tg_get act v ;;
          if b : bool then Ret true else p <- fo_parent f q ;; path_active act fuel f p
      end
  end.
(** nextActivePath, lines 1201-1232. *)
Fixpoint nextActivePath (act : tagging) (fuel : nat) (f : forest) (pred : nat) : outcome (option nat) :=
  match fuel with
  | 0 => Diverge
  | S fuel' =>
      s <- fo_succ f pred ;;
      p <- match s with
           | Some q => Ret (Some q)
           | None => l <- fo_level f pred ;;
                     if S l <? fo_levels f then q <- fo_levelAnchor f (S l) ;; Ret (Some q) else Ret None
           end ;;
      match p with
      | None => Ret None
      | Some q => b <- path_active act fuel f (Some q) ;;
                  if b : bool then Ret (Some q) else nextActivePath act fuel' f q
      end
  end.

(** activateInfluencedVariables, lines 1148-1164. *)
Definition activate (adj : list (list nat)) (fuel : nat) (f : forest) (p : nat) (act : tagging) : outcome tagging :=
  vs <- walk_root f fuel (Some p) ;;
  foldM (fun t v => t <- tg_set t v ;; ns <- rd adj v ;; foldM tg_set ns t) vs act.

Section LazyFlipper.
Variable T : Type.
Variable OP : oper T.
Variable mult : bool.
Variable recompute : T -> bool.
Variable ACC : accum T.
Variable g : gmv T.

(** The members, lines 213-220; the parameter inferMultilabel_ is a Tribool: [None] is Maybe. *)
Record lf : Type := mkLf { lf_adj : list (list nat); lf_mm : mm T; lf_act0 : tagging; lf_act1 : tagging;
  lf_forest : forest; lf_max : nat; lf_multi : option bool }.

(** Lines 661-669. *)
Definition lf_adjacency : outcome (list (list nat)) :=
  foldM (fun a j =>
    ' (vis, _) <- rd (v_factors g) j ;;
    foldM (fun a m =>
      foldM (fun a k => v1 <- rd vis m ;; v2 <- rd vis k ;; connect a v1 v2)
      (seq (S m) (length vis - S m)) a)
    (seq 0 (length vis)) a)
  (seq 0 (length (v_factors g))) (repeat [] (length (v_labels g))).

(** setMaxSubgraphSize, lines 744-756. *)
Definition lf_setMax (s : lf) (k : nat) : outcome lf :=
  if k <? 1 then Throw
  else Ret (mkLf (lf_adj s) (lf_mm s) (lf_act0 s) (lf_act1 s) (lf_forest s) k (lf_multi s)).

(** The constructor, lines 641-673: a starting point of another length is ignored. *)
Definition lf_new (maxSubgraphSize : nat) (startingPoint : list nat) (multi : option bool) : outcome lf :=
  let n := length (v_labels g) in
  m <- mm_new T OP g ;;
  if n =? 0 then Throw
  else
    s <- lf_setMax (mkLf (repeat [] n) m (mkTagging [] []) (mkTagging [] []) fo_empty maxSubgraphSize multi) maxSubgraphSize ;;
    adj <- lf_adjacency ;;
    m <- (if length startingPoint =? n then mm_initialize T OP g m startingPoint else Ret m) ;;
    Ret (mkLf adj m (tg_append (lf_act0 s) n) (tg_append (lf_act1 s) n) (lf_forest s) (lf_max s) (lf_multi s)).

Definition with_mm (s : lf) (m : mm T) : lf := mkLf (lf_adj s) m (lf_act0 s) (lf_act1 s) (lf_forest s) (lf_max s) (lf_multi s).
Definition with_forest (s : lf) (f : forest) : lf := mkLf (lf_adj s) (lf_mm s) (lf_act0 s) (lf_act1 s) f (lf_max s) (lf_multi s).
Definition lf_act (s : lf) (i : bool) : tagging := if i then lf_act1 s else lf_act0 s.
Definition with_act (s : lf) (i : bool) (t : tagging) : lf :=
  if i then mkLf (lf_adj s) (lf_mm s) (lf_act0 s) t (lf_forest s) (lf_max s) (lf_multi s)
  else mkLf (lf_adj s) (lf_mm s) t (lf_act1 s) (lf_forest s) (lf_max s) (lf_multi s).

(** setStartingPoint, lines 715-721, and reset, lines 675-678. *)
Definition lf_setStart (s : lf) (x : list nat) : outcome lf := m <- mm_initialize T OP g (lf_mm s) x ;; Ret (with_mm s m).
Definition lf_reset (s : lf) : lf := s.

(** 1 - state: for a state above 1 the difference wraps around to a huge label, on which no function is defined. *)
Definition flipped (b : nat) : outcome nat := if 1 <? b then Undef else Ret (1 - b).
(** The variables and the flipped labels, lines 1239-1250 and 1261-1272. *)
Definition flip_args (s : lf) (p : nat) : outcome (list nat * list nat) :=
  l <- fo_level (lf_forest s) p ;;
  vars <- walk_up (lf_forest s) (S l) (Some p) ;;
  dest <- mapM (fun v => b <- rd (mm_state (lf_mm s)) v ;; flipped b) vars ;;
  Ret (vars, dest).
(** energyAfterFlip, lines 1234-1254. *)
Definition energyAfterFlip (s : lf) (p : nat) : outcome (lf * T) :=
  ' (vars, dest) <- flip_args s p ;;
  ' (m, e) <- valueAfterMove T OP mult g (lf_mm s) vars dest ;;
  Ret (with_mm s m, e).
(** flip, lines 1256-1275. *)
Definition flip (s : lf) (p : nat) : outcome lf :=
  ' (vars, dest) <- flip_args s p ;;
  ' (m, e) <- move T OP mult g (lf_mm s) vars dest ;;
  Ret (with_mm s m).
(** flipMultiLabel, lines 1277-1299. *)
Definition flipMultiLabel (fuel : nat) (s : lf) (p : nat) : outcome (lf * bool) :=
  l <- fo_level (lf_forest s) p ;;
  vars <- walk_up (lf_forest s) (S l) (Some p) ;;
  let energy := mm_value (lf_mm s) in
  ' (m, _) <- moveOptimallyWithAllLabelsChanging T OP recompute ACC fuel g (lf_mm s) vars ;;
  Ret (with_mm s m, a_bop ACC (mm_value m) energy).

(** One attempt: lines 824-825 and 844-845 (binary), 911-912 and 931-932 (multi-label). *)
Definition attempt (multi : bool) (fuel : nat) (s : lf) (p : nat) : outcome (lf * bool) :=
  if multi then flipMultiLabel fuel s p
  else
    ' (s, e) <- energyAfterFlip s p ;;
    if a_bop ACC e (mm_value (lf_mm s)) then s <- flip s p ;; Ret (s, true) else Ret (s, false).

Variable stop : nat -> bool.

Definition lf_activate (fuel : nat) (s : lf) (p : nat) (i : bool) : outcome lf :=
  t <- activate (lf_adj s) fuel (lf_forest s) p (lf_act s i) ;; Ret (with_act s i t).

(** The loop over new paths, lines 823-834 and 910-921.  Results: the object, the number of visitor calls so far,
    and continueInf. *)
Fixpoint new_paths (multi : bool) (fuel : nat) (s : lf) (p : option nat) (calls : nat) : outcome (lf * nat * bool) :=
  match p with
  | None => Ret (s, calls, true)
  | Some q =>
      match fuel with
      | 0 => Diverge
      | S fuel' =>
          ' (s, fl) <- attempt multi fuel s q ;;
          ' (s, calls, cont) <-
            (if fl : bool then s <- lf_activate fuel s q false ;; Ret (s, S calls, negb (stop calls)) else Ret (s, calls, true)) ;;
          if cont : bool then
            ' (f, p) <- generateNext (lf_adj s) (length (v_labels g)) fuel (lf_forest s) q ;;
            new_paths multi fuel' (with_forest s f) p calls
          else Ret (s, calls, false)
      end
  end.

(** One round over the active paths, lines 843-854 and 930-941; [cur] is currentActivationList. *)
Fixpoint active_paths (multi : bool) (fuel : nat) (cur : bool) (s : lf) (p : option nat) (calls : nat) : outcome (lf * nat * bool) :=
  match p with
  | None => Ret (s, calls, true)
  | Some q =>
      match fuel with
      | 0 => Diverge
      | S fuel' =>
          ' (s, fl) <- attempt multi fuel s q ;;
          ' (s, calls, cont) <-
            (if fl : bool then s <- lf_activate fuel s q (negb cur) ;; Ret (s, S calls, negb (stop calls)) else Ret (s, calls, true)) ;;
          if cont : bool then
            p <- nextActivePath (lf_act s cur) fuel (lf_forest s) q ;;
            active_paths multi fuel' cur s p calls
          else Ret (s, calls, false)
      end
  end.

(** The rounds, lines 835-860 and 922-947. *)
Fixpoint active_rounds (multi : bool) (fuel : nat) (cur : bool) (s : lf) (calls : nat) : outcome (lf * nat * bool) :=
  match fuel with
  | 0 => Diverge
  | S fuel' =>
      p <- firstActivePath (lf_act s cur) fuel (lf_forest s) ;;
      match p with
      | None => Ret (s, calls, true)
      | Some q =>
          ' (s, calls, cont) <- active_paths multi fuel cur s (Some q) calls ;;
          t <- tg_untag (lf_act s cur) ;;
          let s := with_act s cur t in
          if cont : bool then active_rounds multi fuel' (negb cur) s calls else Ret (s, calls, false)
      end
  end.

(** The loop over the lengths, lines 808-868 and 895-955. *)
Fixpoint lengths (multi : bool) (fuel : nat) (s : lf) (len : nat) (calls : nat) : outcome lf :=
  match fuel with
  | 0 => Diverge
  | S fuel' =>
      if stop calls then Ret s
      else
        ' (f, p) <- generateFirst (lf_adj s) (length (v_labels g)) fuel (lf_forest s) len ;;
        let s := with_forest s f in
        match p with
        | None => Ret s
        | Some q =>
            ' (s, calls, cont) <- new_paths multi fuel s (Some q) (S calls) ;;
            ' (s, calls, cont) <- (if cont : bool then active_rounds multi fuel false s calls else Ret (s, calls, false)) ;;
            if len =? lf_max s then Ret s
            else if cont : bool then lengths multi fuel' s (S len) calls else Ret s
        end
  end.

(** infer, lines 758-789. *)
Definition multiLabel (s : lf) : bool :=
  match lf_multi s with Some b => b | None => existsb (fun k => negb (k =? 2)) (v_labels g) end.
Definition lf_infer (fuel : nat) (s : lf) : outcome lf := lengths (multiLabel s) fuel s 1 0.

(** arg, lines 974-991 (for n = 1), and value, lines 993-998. *)
Definition lf_arg (s : lf) : outcome (list nat) := mapM (rd (mm_state (lf_mm s))) (seq 0 (length (v_labels g))).
Definition lf_value (s : lf) : T := mm_value (lf_mm s).
End LazyFlipper.
Arguments mkLf {T}. Arguments lf_adj {T}. Arguments lf_mm {T}. Arguments lf_act0 {T}. Arguments lf_act1 {T}.
Arguments lf_forest {T}. Arguments lf_max {T}. Arguments lf_multi {T}. Arguments lf_value {T}.

(** A client's calls on one object. *)
Inductive lfop : Type := LfInfer (stop : nat -> bool) | LfReset | LfSetStart (x : list nat) | LfSetMax (k : nat).
Definition lfstep {T : Type} (OP : oper T) (mult : bool) (recompute : T -> bool) (ACC : accum T) (g : gmv T) (fuel : nat)
  (s : lf T) (o : lfop) : outcome (lf T) :=
  match o with
  | LfInfer stop => lf_infer T OP mult recompute ACC g stop fuel s
  | LfReset => Ret (lf_reset T s)
  | LfSetStart x => lf_setStart T OP g s x
  | LfSetMax k => lf_setMax T s k
  end.
