(** Model of inference/swendsenwang.hxx (SwendsenWang).
    Simplified: rand() gives any numbers; probabilities are exact rational numbers, a quotient by zero is zero, and the conversion of a value to a
    probability (28-47) is any function; the local table of 488-495 is evaluated entry by entry; Partition::find is read without its path compression,
    which does not change any answer (C09). *)
From Coq Require Import QArith Qcanon.
From Verif Require Import Base Values GmView ShapeSpec MovemakerModel IcmModel PartitionModel ConstraintModel GibbsModel.
Open Scope nat_scope.

Section Sw.
Variable T : Type.
Variable OP : oper T.
Variable mult : bool.
Variable ACC : accum T.
(** ValueToProbability::convert *)
Variable prob : T -> Qc.
Variable g : gmv T.

(** 125-145 *)
Record swpar : Type := mkSwpar { sp_steps : nat; sp_burn : nat; sp_lowest : Qc; sp_start : list nat }.
Variable par : swpar.
(** 167-173 *)
Record sw : Type := mkSw { sw_mm : mm T; sw_adj : list (list nat); sw_ep : list (list Qc); sw_best : list nat; sw_value : T }.

(** The labels of a tuple of 504-516, as a vector over all variables *)
Definition sw_scatter (conn c : list nat) : list nat :=
  fold_left (fun x p => upd x (fst p) (snd p)) (combine conn c) (repeat 0 (length (v_labels g))).
(** 455-529, for one pair of variables *)
Definition sw_edge (u v : nat) : outcome Qc :=
  let factors := sunion (sunion [] (v_adj T g u)) (v_adj T g v) in
  conn <- foldM (fun s f => ' (vis, _) <- rd (v_factors g) f ;; Ret (sunion s vis)) (v_adj T g u ++ v_adj T g v) [] ;;
  shape <- mapM (rd (v_labels g)) conn ;;
  ' (pe, pu) <- foldM (fun (p : Qc * Qc) k =>
                  let x := sw_scatter conn (coord_of shape k) in
                  value <- evaluateFactors T OP g factors x ;;
                  lu <- rd x u ;; lv <- rd x v ;;
                  Ret (if lu =? lv then (fst p + prob value, snd p)%Qc else (fst p, snd p + prob value)%Qc))
                (seq 0 (size_of shape)) (0, 0)%Qc ;;
  let sum := (pe + pu)%Qc in
  if Qc_eq_dec sum 0%Qc then Throw
  else
    let pe := (pe / sum)%Qc in
    let pu := (pu / sum)%Qc in
    if Qc_lt pe (sp_lowest par) || Qc_lt pu (sp_lowest par) then Throw else Ret pu.
(** 440-534 *)
Definition sw_edges (adj : list (list nat)) (ep : list (list Qc)) : outcome (list (list Qc)) :=
  foldM (fun ep u =>
    a <- rd adj u ;;
    foldM (fun ep j =>
      v <- rd a j ;; ku <- rd (v_labels g) u ;; kv <- rd (v_labels g) v ;;
      if ku =? kv then q <- sw_edge u v ;; row <- rd ep u ;; row <- wr row j q ;; wr ep u row
      else Ret ep)
    (seq 0 (length a)) ep)
  (seq 0 (length (v_labels g))) ep.

(** 176-200 *)
Definition sw_new : outcome sw :=
  m <- (if length (sp_start par) =? length (v_labels g) then mm_new_at T OP g (sp_start par) else mm_new T OP g) ;;
  if negb (length (sp_start par) =? 0) && negb (length (sp_start par) =? length (v_labels g)) then Throw
  else
    adj <- variableAdjacencyList T g ;;
    ep <- sw_edges adj (map (fun a => repeat 0%Qc (length a)) adj) ;;
    Ret (mkSw m adj ep (repeat 0 (length (v_labels g))) (mm_value m)).
(** 202-220 *)
Definition sw_reset (s : sw) : outcome sw :=
  ' (m, best) <- (if length (sp_start par) =? length (v_labels g) then
                    m <- mm_initialize T OP g (sw_mm s) (sp_start par) ;; Ret (m, sp_start par)
                  else if negb (length (sp_start par) =? 0) then Throw
                  else m <- mm_reset T OP g (sw_mm s) ;; Ret (m, repeat 0 (length (sw_best s)))) ;;
  ep <- sw_edges (sw_adj s) (sw_ep s) ;;
  Ret (mkSw m (sw_adj s) ep best (mm_value m)).

(** What is drawn in an iteration: a number for the edge at a position of the adjacency of a variable, for the cluster, for the label, and for the acceptance *)
Record swdraws : Type := mkSwdraws { sd_edge : nat -> nat -> nat -> Qc; sd_cluster : nat -> nat; sd_label : nat -> nat; sd_accept : nat -> Qc }.
Variable dr : swdraws.

(** 536-559 *)
Definition sw_cluster (s : sw) (it : nat) (p : partition) : outcome partition :=
  foldM (fun p u =>
    a <- rd (sw_adj s) u ;;
    foldM (fun p j =>
      v <- rd a j ;;
      if u <? v then
        lu <- rd (mm_state (sw_mm s)) u ;; lv <- rd (mm_state (sw_mm s)) v ;;
        if lu =? lv then
          row <- rd (sw_ep s) u ;; q <- rd row j ;;
          if Qc_lt (sd_edge dr it u j) q then part_merge p u v else Ret p
        else Ret p
      else Ret p)
    (seq 0 (length a)) p)
  (seq 0 (length (v_labels g))) (part_reset p (length (v_labels g))).

(** 264-276, the neighbours of one variable; the top of the stack is the head of the list *)
Definition sw_neighbours (s : sw) (p : partition) (rep : nat) (a : list nat) (st : list bool * list nat * list nat) : outcome (list bool * list nat * list nat) :=
  foldM (fun (st : list bool * list nat * list nat) w =>
    let ' (visited, stack, around) := st in
    b <- rd visited w ;;
    if b : bool then Ret st
    else
      visited <- wr visited w true ;; r <- part_find_const p w ;;
      Ret (if r =? rep then (visited, w :: stack, around) else (visited, stack, around ++ [w])))
  a st.
(** 260-277 *)
Fixpoint sw_collect (fuel : nat) (s : sw) (p : partition) (rep : nat) (visited : list bool) (stack inside around : list nat)
    : outcome (list bool * list nat * list nat) :=
  match stack with
  | [] => Ret (visited, inside, around)
  | v :: stack =>
    match fuel with
    | O => Diverge
    | S fuel =>
      a <- rd (sw_adj s) v ;;
      ' (visited, stack, around) <- sw_neighbours s p rep a (visited, stack, around) ;;
      sw_collect fuel s p rep visited stack (inside ++ [v]) around
    end
  end.
(** 280-285 *)
Definition sw_clean (visited : list bool) (l : list nat) : outcome (list bool) := foldM (fun visited v => wr visited v false) l visited.

(** 323-329 and 331-337 *)
Definition sw_cut (s : sw) (p : partition) (rep w : nat) (q : Qc) : outcome Qc :=
  a <- rd (sw_adj s) w ;;
  foldM (fun q k =>
    v <- rd a k ;; r <- part_find_const p v ;;
    if r =? rep then row <- rd (sw_ep s) w ;; e <- rd row k ;; Ret (q * (1 - e))%Qc else Ret q)
  (seq 0 (length a)) q.
(** 319-339 *)
Definition sw_proposal (s : sw) (p : partition) (rep target : nat) (around : list nat) : outcome (Qc * Qc) :=
  foldM (fun (qs : Qc * Qc) w =>
    lw <- rd (mm_state (sw_mm s)) w ;; lr <- rd (mm_state (sw_mm s)) rep ;;
    if lw =? lr then q <- sw_cut s p rep w (fst qs) ;; Ret (q, snd qs)
    else if lw =? target then q <- sw_cut s p rep w (snd qs) ;; Ret (fst qs, q)
    else Ret qs)
  around (1, 1)%Qc.

(** 420-438 *)
Definition sw_move (burnedIn : bool) (s : sw) (vars dest : list nat) : outcome sw :=
  ' (m, _) <- move T OP mult g (sw_mm s) vars dest ;;
  if burnedIn && a_bop ACC (mm_value m) (sw_value s) then
    best <- foldM (fun b v => l <- rd (mm_state m) v ;; wr b v l) (seq 0 (length (v_labels g))) (sw_best s) ;;
    Ret (mkSw m (sw_adj s) (sw_ep s) best (mm_value m))
  else Ret (mkSw m (sw_adj s) (sw_ep s) (sw_best s) (sw_value s)).

(** What a visitor is told: the iteration, the size of the cluster, whether the move was accepted, whether the chain is burning in; and the state of the chain, which it can ask for *)
Record swcall : Type := mkSwcall { sc_iteration : nat; sc_size : nat; sc_accepted : bool; sc_burning : bool; sc_state : list nat }.

(** 249-355, one iteration *)
Definition sw_step (c : sw * partition * list bool) (it : nat) : outcome (sw * partition * list bool * swcall) :=
  let ' (s, p, visited) := c in
  p <- sw_cluster s it p ;;
  reps <- part_representatives p ;;
  r <- random (sd_cluster dr it) (numberOfSets p) ;;
  rep <- rd reps r ;;
  visited <- wr visited rep true ;;
  ' (visited, inside, around) <- sw_collect (length (v_labels g)) s p rep visited [rep] [] [] ;;
  visited <- sw_clean visited inside ;;
  visited <- sw_clean visited around ;;
  k <- rd (v_labels g) rep ;;
  target <- random (sd_label dr it) k ;;
  let targets := repeat target (length inside) in
  if it <? sp_burn par then
    s <- sw_move false s inside targets ;;
    Ret (s, p, visited, mkSwcall it (length inside) true true (mm_state (sw_mm s)))
  else
    let currentPDF := prob (mm_value (sw_mm s)) in
    ' (m, value) <- valueAfterMove T OP mult g (sw_mm s) inside targets ;;
    let s := mkSw m (sw_adj s) (sw_ep s) (sw_best s) (sw_value s) in
    let targetPDF := prob value in
    ' (currentProposal, targetProposal) <- sw_proposal s p rep target around ;;
    let ratio := ((targetProposal / currentProposal) * (targetPDF / currentPDF))%Qc in
    if negb (Qc_lt ratio 1) || negb (Qc_lt ratio (sd_accept dr it)) then
      s <- sw_move true s inside targets ;;
      Ret (s, p, visited, mkSwcall it (length inside) true false (mm_state (sw_mm s)))
    else Ret (s, p, visited, mkSwcall it (length inside) false false (mm_state (sw_mm s))).
(** 234-358 *)
Definition sw_infer (s : sw) : outcome (sw * list swcall) :=
  ' (c, calls) <- foldM (fun (st : sw * partition * list bool * list swcall) it =>
                    ' (c, call) <- sw_step (fst st) it ;; Ret (c, snd st ++ [call]))
                  (seq 0 (sp_burn par + sp_steps par))
                  (s, part_init (length (v_labels g)), repeat false (length (v_labels g)), []) ;;
  Ret (fst (fst c), calls).
(** 368-383 *)
Definition sw_arg (s : sw) : list nat := sw_best s.
End Sw.
Arguments mkSw {T}. Arguments sw_mm {T}. Arguments sw_adj {T}. Arguments sw_ep {T}. Arguments sw_best {T}. Arguments sw_value {T}. Arguments sw_arg {T}.

Section History.
Variable T : Type.
Variable OP : oper T.
Variable mult : bool.
Variable ACC : accum T.
Variable prob : T -> Qc.
Variable g : gmv T.
Variable par : swpar.
(** The calls of a user *)
Inductive swop : Type := SReset | SInfer (dr : swdraws).
(** The state and what visitors were told since the object was made or reset *)
Definition sw_do (c : sw T * list swcall) (o : swop) : outcome (sw T * list swcall) :=
  match o with
  | SReset => s <- sw_reset T OP prob g par (fst c) ;; Ret (s, [])
  | SInfer dr => ' (s, calls) <- sw_infer T OP mult ACC prob g par dr (fst c) ;; Ret (s, snd c ++ calls)
  end.
Definition sw_run (h : list swop) : outcome (sw T * list swcall) := s <- sw_new T OP prob g par ;; foldM sw_do h (s, []).
End History.
