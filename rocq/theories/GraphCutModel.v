(** GraphCut: include/opengm/inference/graphcut.hxx.

    The max-flow libraries behind the template parameter MINSTCUT are not modelled: they are an oracle [cut] that
    gets the number of nodes and the edges added so far (node 0 is the source, node 1 the sink) and returns the
    segmentation.  Values and capacities are integers, so the conversion of line 332 is exact; a conversion that
    rounds (MINSTCUT::ValueType coarser than ValueType) is not modelled.  The flag [maxi] says whether the accumulation is
    Maximizer (other accumulations are refused by the constructor, lines 128-130).  A factor is its variables and its
    values; all its variables have two labels (OPENGM_ASSERT in line 175, off in release builds).  In ~GraphCut nothing
    is modelled.  An edge to a node that does not exist is undefined behaviour. *)
From Verif Require Import Base Values GmView.
Local Open Scope Z_scope.

Definition edge : Type := (nat * nat * Z)%type.
Definition factor : Type := (list nat * (list nat -> Z))%type.

(** The operation the value of a model is computed with: operations/adder.hxx lines 32-51, on integers. *)
Definition AdderZ : oper Z := mkOper 0 (fun a out => out + a) (fun a out => out - a).

Section GraphCut.
Variable maxi : bool.
Variable cut : nat -> list edge -> list bool.

(** The members, lines 68-78; [gc_nodes] and [gc_edges] are the graph inside minStCut_, [gc_dim3] is numFacDim_[3]. *)
Record gc : Type := mkGc { gc_scale : Z; gc_tol : Z; gc_numVar : nat; gc_dim3 : nat; gc_nodes : nat; gc_edges : list edge; gc_s : list Z; gc_t : list Z;
  gc_triples : list (list nat); gc_state : list bool; gc_done : bool }.

(** The constructor from a number of variables, lines 93-116 (numFacDim_ is extended to four entries, the others are
    only hints for the max-flow library). *)
Definition gc_create (numVariables : nat) (numFacDim : list nat) (scale tolerance : Z) : gc :=
  let dim3 := nth 3 numFacDim 0%nat in
  mkGc scale (Z.abs tolerance) numVariables dim3 (2 + numVariables + dim3) [] (repeat 0 (numVariables + dim3)) (repeat 0 (numVariables + dim3)) [] [] false.

(** addEdgeCapacity, lines 320-342. *)
Definition addEdgeCapacity (s : gc) (v w : nat) (val : Z) : outcome gc :=
  let cost := gc_scale s * val in
  if (v =? 0)%nat then
    if (w <? 2)%nat then Undef
    else c <- rd (gc_s s) (w - 2) ;; l <- wr (gc_s s) (w - 2) (c + cost) ;;
         Ret (mkGc (gc_scale s) (gc_tol s) (gc_numVar s) (gc_dim3 s) (gc_nodes s) (gc_edges s) l (gc_t s) (gc_triples s) (gc_state s) (gc_done s))
  else if (w =? 1)%nat then
    if (v <? 2)%nat then Undef
    else c <- rd (gc_t s) (v - 2) ;; l <- wr (gc_t s) (v - 2) (c + cost) ;;
         Ret (mkGc (gc_scale s) (gc_tol s) (gc_numVar s) (gc_dim3 s) (gc_nodes s) (gc_edges s) (gc_s s) l (gc_triples s) (gc_state s) (gc_done s))
  else if ((v <? gc_nodes s) && (w <? gc_nodes s))%nat then
    Ret (mkGc (gc_scale s) (gc_tol s) (gc_numVar s) (gc_dim3 s) (gc_nodes s) (gc_edges s ++ [(v, w, cost)]) (gc_s s) (gc_t s) (gc_triples s) (gc_state s) (gc_done s))
  else Undef.

(** tripleId, lines 344-363: the counter returned is not advanced, numVariables_ is. *)
Fixpoint tripleId_loop (triple : list nat) (l : list (list nat)) (numVar : nat) : nat * bool :=
  match l with
  | [] => (numVar, false)
  | t :: l => if list_eq_dec Nat.eq_dec triple t then (numVar, true) else tripleId_loop triple l (S numVar)
  end.
Definition tripleId (s : gc) (triple : list nat) : gc * nat :=
  let counter := gc_numVar s in
  let (numVar, found) := tripleId_loop triple (gc_triples s) counter in
  (mkGc (gc_scale s) (gc_tol s) numVar (gc_dim3 s) (gc_nodes s) (gc_edges s) (gc_s s) (gc_t s)
     (if found : bool then gc_triples s else gc_triples s ++ [triple]) (gc_state s) (gc_done s), counter).

(** if(c >= 0) ... else ..., as in lines 277-282 and 294-299. *)
Definition branch (c : Z) (a b : outcome gc) : outcome gc := if 0 <=? c then a else b.

(** addFactor with one variable, lines 181-203. *)
Definition addUnaryFactor (s : gc) (var : nat) (v0 v1 : Z) : outcome gc :=
  if maxi then
    if v1 <=? v0 then addEdgeCapacity s 0 (var + 2) (- v1 + v0) else addEdgeCapacity s (var + 2) 1 (- v0 + v1)
  else
    if v0 <=? v1 then addEdgeCapacity s 0 (var + 2) (v1 - v0) else addEdgeCapacity s (var + 2) 1 (v0 - v1).
(** With two variables, lines 204-252. *)
Definition addPairFactor (s : gc) (var0 var1 : nat) (A B C D : Z) : outcome gc :=
  if maxi then
    s <- (if C <? A then addEdgeCapacity s 0 (var0 + 2) (- C + A) else if A <? C then addEdgeCapacity s (var0 + 2) 1 (- A + C) else Ret s) ;;
    s <- (if D <? C then addEdgeCapacity s 0 (var1 + 2) (- D + C) else if C <? D then addEdgeCapacity s (var1 + 2) 1 (- C + D) else Ret s) ;;
    let term := B + C - A - D in
    let term := if (0 <? term) && (term <=? gc_tol s) then 0 else term in
    addEdgeCapacity s (var0 + 2) (var1 + 2) (- term)
  else
    s <- (if A <? C then addEdgeCapacity s 0 (var0 + 2) (C - A) else if C <? A then addEdgeCapacity s (var0 + 2) 1 (A - C) else Ret s) ;;
    s <- (if C <? D then addEdgeCapacity s 0 (var1 + 2) (D - C) else if D <? C then addEdgeCapacity s (var1 + 2) 1 (C - D) else Ret s) ;;
    let term := B + C - A - D in
    let term := if (term <? 0) && (- gc_tol s <=? term) then 0 else term in
    addEdgeCapacity s (var0 + 2) (var1 + 2) term.
(** With three variables, lines 253-314: line 256 reads the second variable twice, line 282 uses node 0 instead of 1
    and line 291 id instead of id+2. *)
Definition addTripleFactor (s : gc) (var0 var1 : nat) (f : list nat -> Z) : outcome gc :=
  let var2 := var1 in
  let A := f [0; 0; 0]%nat in let B := f [0; 0; 1]%nat in let C := f [0; 1; 0]%nat in let D := f [0; 1; 1]%nat in
  let E := f [1; 0; 0]%nat in let F := f [1; 0; 1]%nat in let G := f [1; 1; 0]%nat in let H := f [1; 1; 1]%nat in
  if maxi then Throw
  else
    let (s, id) := tripleId s [var0; var1; var2] in
    let P := (A + D + F + G) - (B + C + E + H) in
    if 0 <=? P then
      s <- branch (F - B) (addEdgeCapacity s 0 (var0 + 2) (F - B)) (addEdgeCapacity s (var0 + 2) 1 (B - F)) ;;
      s <- branch (G - E) (addEdgeCapacity s 0 (var1 + 2) (G - E)) (addEdgeCapacity s (var1 + 2) 1 (E - G)) ;;
      s <- branch (D - C) (addEdgeCapacity s 0 (var2 + 2) (D - C)) (addEdgeCapacity s (var2 + 2) 0 (C - D)) ;;
      s <- addEdgeCapacity s (var1 + 2) (var2 + 2) (B + C - A - D) ;;
      s <- addEdgeCapacity s (var2 + 2) (var0 + 2) (B + E - A - F) ;;
      s <- addEdgeCapacity s (var0 + 2) (var1 + 2) (C + E - A - G) ;;
      s <- addEdgeCapacity s (var0 + 2) (id + 2) P ;;
      s <- addEdgeCapacity s (var1 + 2) (id + 2) P ;;
      s <- addEdgeCapacity s (var2 + 2) (id + 2) P ;;
      addEdgeCapacity s id 1 P
    else
      s <- branch (C - G) (addEdgeCapacity s (var0 + 2) 1 (C - G)) (addEdgeCapacity s 0 (var0 + 2) (G - C)) ;;
      s <- branch (B - D) (addEdgeCapacity s (var1 + 2) 1 (B - D)) (addEdgeCapacity s 0 (var1 + 2) (D - B)) ;;
      s <- branch (E - F) (addEdgeCapacity s (var2 + 2) 1 (E - F)) (addEdgeCapacity s 0 (var2 + 2) (F - E)) ;;
      s <- addEdgeCapacity s (var2 + 2) (var1 + 2) (F + G - E - H) ;;
      s <- addEdgeCapacity s (var0 + 2) (var2 + 2) (D + G - C - H) ;;
      s <- addEdgeCapacity s (var1 + 2) (var0 + 2) (D + F - B - H) ;;
      s <- addEdgeCapacity s (id + 2) (var0 + 2) (- P) ;;
      s <- addEdgeCapacity s (id + 2) (var1 + 2) (- P) ;;
      s <- addEdgeCapacity s (id + 2) (var2 + 2) (- P) ;;
      addEdgeCapacity s 0 (id + 2) (- P).

(** addFactor, lines 167-318. *)
Definition gc_addFactor (s : gc) (fc : factor) : outcome gc :=
  let f := snd fc in
  match fst fc with
  | [] => Ret s
  | [var] => addUnaryFactor s var (f [0%nat]) (f [1%nat])
  | [var0; var1] => addPairFactor s var0 var1 (f [0; 0]%nat) (f [0; 1]%nat) (f [1; 0]%nat) (f [1; 1]%nat)
  | [var0; var1; _] => addTripleFactor s var0 var1 f
  | _ => Throw
  end.

(** The constructor from a graphical model, lines 118-158. *)
Definition gc_new (g : gmv Z) (scale tolerance : Z) : outcome gc :=
  if existsb (fun k => negb (k =? 2)%nat) (v_labels g) then Throw
  else if existsb (fun fc : factor => (3 <? length (fst fc))%nat) (v_factors g) then Throw
  else
    let dim3 := length (filter (fun fc : factor => (length (fst fc) =? 3)%nat) (v_factors g)) in
    foldM gc_addFactor (v_factors g) (gc_create (length (v_labels g)) [0; 0; 0; dim3]%nat scale tolerance).

(** infer, lines 372-385 (the visitor has no influence): the terminal edges are added at every call. *)
Definition terminal_edges (s : gc) : list edge :=
  flat_map (fun i => [(0%nat, (i + 2)%nat, nth i (gc_s s) 0); ((i + 2)%nat, 1%nat, nth i (gc_t s) 0)]) (seq 0 (length (gc_s s))).
Definition gc_infer (s : gc) : gc :=
  let edges := gc_edges s ++ terminal_edges s in
  mkGc (gc_scale s) (gc_tol s) (gc_numVar s) (gc_dim3 s) (gc_nodes s) edges (gc_s s) (gc_t s) (gc_triples s) (cut (gc_nodes s) edges) true.

(** arg for an empty vector and n = 1, lines 387-414. *)
Definition gc_arg (s : gc) : outcome (list nat) :=
  if gc_done s then
    let k := if (2 + gc_dim3 s <? length (gc_state s))%nat then (length (gc_state s) - 2 - gc_dim3 s)%nat else 0%nat in
    mapM (fun j => b <- rd (gc_state s) (j + 2) ;; Ret (if b : bool then 1%nat else 0%nat)) (seq 0 k)
  else Ret (repeat 0%nat (gc_numVar s)).
End GraphCut.
