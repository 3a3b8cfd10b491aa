(** Model of opengm::FactorGraph (include/opengm/graphicalmodel/graphviews/factorgraph.hxx).
    The class is an interface over an object of type S that knows, for each factor, its variables and, for
    each variable, its factors (lines 27-33); these two lists of lists are the model's [fgraph].
    size_t is [nat] (no wrap-around); the value [infinity] = numeric_limits<size_t>::max() is [None].
    OPENGM_ASSERT is inactive (release build). *)
From Verif Require Import Base PartitionModel RandomAccessSetModel.

Record fgraph := mkFgraph { g_fac : list (list nat); g_adj : list (list nat) }.

(** Lines 134-139. *)
Definition numberOfVariables (g : fgraph) : nat := length (g_adj g).
(** Lines 156-161. *)
Definition numberOfFactors (g : fgraph) : nat := length (g_fac g).
(** Lines 141-151. *)
Definition orderOf (g : fgraph) (factor : nat) : outcome nat := l <- rd (g_fac g) factor ;; Ret (length l).
(** Lines 166-174. *)
Definition degreeOf (g : fgraph) (variable : nat) : outcome nat := l <- rd (g_adj g) variable ;; Ret (length l).
(** Lines 180-189. *)
Definition variableOfFactor (g : fgraph) (factor j : nat) : outcome nat := l <- rd (g_fac g) factor ;; rd l j.
(** Lines 195-204. *)
Definition factorOfVariable (g : fgraph) (variable j : nat) : outcome nat := l <- rd (g_adj g) variable ;; rd l j.

(** Lines 206-260 (accessors 77-122): an iterator pair is walked as the list of the entries it visits. *)
Definition variablesOfFactor (g : fgraph) (factor : nat) : outcome (list nat) :=
  n <- orderOf g factor ;; mapM (variableOfFactor g factor) (seq 0 n).
Definition factorsOfVariable (g : fgraph) (variable : nat) : outcome (list nat) :=
  n <- degreeOf g variable ;; mapM (factorOfVariable g variable) (seq 0 n).

(** Lines 262-284, variableFactorConnection: std::binary_search = lower_bound, then one comparison. *)
Definition variableFactorConnection (g : fgraph) (variable factor : nat) : outcome bool :=
  l <- variablesOfFactor g factor ;;
  i <- ras_lower_bound nat Nat.ltb l variable ;;
  if i =? length l then Ret false else x <- rd l i ;; Ret (negb (variable <? x)).

(** Lines 290-301. *)
Definition factorVariableConnection (g : fgraph) (factor variable : nat) : outcome bool :=
  variableFactorConnection g variable factor.

(** Lines 316-330 and 811-825: the two-pointer loop over two iterator ranges. *)
Fixpoint common (fuel : nat) (l1 l2 : list nat) : outcome bool :=
  match fuel with
  | 0 => Diverge
  | S fuel =>
    match l1, l2 with
    | x :: t1, y :: t2 => if x <? y then common fuel t1 l2 else if x =? y then Ret true else common fuel l1 t2
    | _, _ => Ret false
    end
  end.

(** Lines 307-333, variableVariableConnection. *)
Definition variableVariableConnection (g : fgraph) (variable1 variable2 : nat) : outcome bool :=
  if negb (variable1 =? variable2) then
    l1 <- factorsOfVariable g variable1 ;; l2 <- factorsOfVariable g variable2 ;;
    common (S (length l1 + length l2)) l1 l2
  else Ret false.

(** Lines 799-826, factorFactorConnection. *)
Definition factorFactorConnection (g : fgraph) (factor1 factor2 : nat) : outcome bool :=
  if negb (factor1 =? factor2) then
    l1 <- variablesOfFactor g factor1 ;; l2 <- variablesOfFactor g factor2 ;;
    common (S (length l1 + length l2)) l1 l2
  else Ret false.

(** A loop that may leave the function with [return false] ([None]). *)
Fixpoint foldO {A S : Type} (f : S -> A -> outcome (option S)) (l : list A) (s : S) : outcome (option S) :=
  match l with
  | [] => Ret (Some s)
  | a :: t => o <- f s a ;; match o with Some s' => foldO f t s' | None => Ret None end
  end.

Section Acyclic.
Variable g : fgraph.
(** Lines 341-343. *)
Definition NO_FACTOR := numberOfFactors g.
Definition NO_VARIABLE := numberOfVariables g.
Definition ROOT_FACTOR := numberOfVariables g + 1.

(** Lines 344-345: factorFathers, variableFathers; the third component is the queue being filled. *)
Definition bfs : Type := (list nat * list nat * list nat)%type.

(** Lines 354-365: one factor [f] taken from factorQueue. *)
Definition bfs_factor (st : bfs) (f : nat) : outcome (option bfs) :=
  n <- orderOf g f ;;
  foldO (fun (st : bfs) j =>
    let '(ff, vf, q) := st in
    v <- variableOfFactor g f j ;;
    x <- rd vf v ;;
    if x =? NO_FACTOR then vf <- wr vf v f ;; Ret (Some (ff, vf, q ++ [v]))
    else y <- rd ff f ;; if negb (y =? v) then Ret None else Ret (Some (ff, vf, q)))
    (seq 0 n) st.

(** Lines 368-379: one variable [v] taken from variableQueue. *)
Definition bfs_variable (st : bfs) (v : nat) : outcome (option bfs) :=
  n <- degreeOf g v ;;
  foldO (fun (st : bfs) j =>
    let '(ff, vf, q) := st in
    f <- factorOfVariable g v j ;;
    x <- rd ff f ;;
    if x =? NO_VARIABLE then ff <- wr ff f v ;; Ret (Some (ff, vf, q ++ [f]))
    else y <- rd vf v ;; if negb (y =? f) then Ret None else Ret (Some (ff, vf, q)))
    (seq 0 n) st.

(** Lines 352-381: the two inner loops empty one queue each without pushing to it, so each is a loop over
    the content of its queue; [fuel] bounds the rounds of the outer loop. *)
Fixpoint bfs_rounds (fuel : nat) (ff vf factorQueue : list nat) : outcome (option (list nat * list nat)) :=
  match factorQueue with
  | [] => Ret (Some (ff, vf))
  | _ =>
    match fuel with
    | 0 => Diverge
    | S fuel =>
      o <- foldO bfs_factor factorQueue (ff, vf, []) ;;
      match o with
      | None => Ret None
      | Some (ff, vf, variableQueue) =>
        o <- foldO bfs_variable variableQueue (ff, vf, []) ;;
        match o with
        | None => Ret None
        | Some (ff, vf, factorQueue) => bfs_rounds fuel ff vf factorQueue
        end
      end
    end
  end.

(** Lines 337-386, isAcyclic. *)
Definition isAcyclic : outcome bool :=
  o <- foldO (fun (st : list nat * list nat) F =>
         let '(ff, vf) := st in
         x <- rd ff F ;;
         if x =? NO_VARIABLE then ff <- wr ff F ROOT_FACTOR ;; bfs_rounds (S (numberOfFactors g)) ff vf [F]
         else Ret (Some (ff, vf)))
       (seq 0 (numberOfFactors g))
       (repeat NO_VARIABLE (numberOfFactors g), repeat NO_FACTOR (numberOfVariables g)) ;;
  Ret (match o with Some _ => true | None => false end).
End Acyclic.

(** Lines 390-425, isConnected: the result and the content of [representatives] ([] stands for "not
    assigned").  [variablesBegin + 1] of a factor without variables lies behind [variablesEnd], the loop
    then reads outside of the factor. *)
Definition isConnected (g : fgraph) : outcome (bool * list nat) :=
  if numberOfVariables g =? 0 then Ret (false, []) else
  p <- foldM (fun p i =>
         n <- orderOf g i ;;
         if n =? 0 then Undef else
         foldM (fun p j => a <- variableOfFactor g i (j - 1) ;; b <- variableOfFactor g i j ;; part_merge p a b)
               (seq 1 (n - 1)) p)
       (seq 0 (numberOfFactors g)) (part_init (numberOfVariables g)) ;;
  r <- part_representatives p ;;
  (* the vector has numberOfSets() entries *)
  if length r <=? numberOfSets p then Ret (numberOfSets p =? 1, r ++ repeat 0 (numberOfSets p - length r)) else Undef.

(** Lines 712-722. *)
Definition maxFactorOrder (g : fgraph) : outcome nat :=
  foldM (fun m i => n <- orderOf g i ;; Ret (if m <? n then n else m)) (seq 0 (numberOfFactors g)) 0.

(** Lines 727-736. *)
Definition maxFactorOrderLe (g : fgraph) (maxOrder : nat) : outcome bool :=
  o <- foldO (fun (_ : unit) i => n <- orderOf g i ;; Ret (if maxOrder <? n then None else Some tt))
             (seq 0 (numberOfFactors g)) tt ;;
  Ret (match o with Some _ => true | None => false end).

(** Lines 742-753. *)
Definition numberOfNthOrderFactorsOfVariable (g : fgraph) (variable n : nat) : outcome nat :=
  l <- factorsOfVariable g variable ;;
  foldM (fun c f => k <- orderOf g f ;; Ret (if k =? n then S c else c)) l 0.

(** Lines 760-775: the overload that also stores the factors (from the back of the vector). *)
Definition nthOrderFactorsOfVariable (g : fgraph) (variable n : nat) : outcome (list nat) :=
  c <- numberOfNthOrderFactorsOfVariable g variable n ;;
  l <- factorsOfVariable g variable ;;
  p <- foldM (fun (p : nat * list nat) f =>
         k <- orderOf g f ;;
         if k =? n then ids <- wr (snd p) (fst p - 1) f ;; Ret (fst p - 1, ids) else Ret p) l (c, repeat 0 c) ;;
  Ret (snd p).

(** Lines 781-794. *)
Definition secondVariableOfSecondOrderFactor (g : fgraph) (variable factor : nat) : outcome nat :=
  l <- variablesOfFactor g factor ;;
  Ret (match find (fun x => negb (x =? variable)) l with Some x => x | None => variable end).

(** Lines 488-510 of isChain: the walk from ends[0] to ends[1]; returns chainIDs and
    countTraversedVariables, [None] for [return false].  A step whose two candidates both equal the
    predecessor leaves predecessor and successor unchanged. *)
Fixpoint chain_walk (fuel : nat) (g : fgraph) (end1 predecessor successor count : nat) (ids : list nat)
  : outcome (option (list nat * nat)) :=
  if successor =? end1 then Ret (Some (ids, count)) else
  match fuel with
  | 0 => Diverge
  | S fuel =>
    fs <- nthOrderFactorsOfVariable g successor 2 ;;
    if 2 <? length fs then Ret None else
    ids <- wr ids count successor ;;
    f0 <- rd fs 0 ;; s0 <- secondVariableOfSecondOrderFactor g successor f0 ;;
    if negb (s0 =? predecessor) then chain_walk fuel g end1 successor s0 (S count) ids else
    f1 <- rd fs 1 ;; s1 <- secondVariableOfSecondOrderFactor g successor f1 ;;
    if negb (s1 =? predecessor) then chain_walk fuel g end1 successor s1 (S count) ids else
    chain_walk fuel g end1 predecessor successor (S count) ids
  end.

(** Lines 429-522, isChain: [Some chainIDs] when it returns true. *)
Definition isChain (g : fgraph) : outcome (option (list nat)) :=
  let n := numberOfVariables g in
  if n =? 0 then Ret None else
  b <- maxFactorOrderLe g 2 ;;
  if negb b then Ret None else
  if n =? 1 then Ret (Some [0]) else
  o <- foldO (fun (p : list nat * nat) i =>
         c <- numberOfNthOrderFactorsOfVariable g i 2 ;;
         if c =? 1 then
           if 1 <? snd p then Ret None else e <- wr (fst p) (snd p) i ;; Ret (Some (e, S (snd p)))
         else Ret (Some p)) (seq 0 n) (repeat 0 2, 0) ;;
  match o with
  | None => Ret None
  | Some (ends, detectedEnds) =>
    if negb (detectedEnds =? 2) then Ret None else
    e0 <- rd ends 0 ;; e1 <- rd ends 1 ;;
    ids <- wr (repeat 0 n) 0 e0 ;; ids <- wr ids (n - 1) e1 ;;
    l <- factorsOfVariable g e0 ;;
    s <- foldM (fun s f => k <- orderOf g f ;;
                 if k =? 2 then x <- secondVariableOfSecondOrderFactor g e0 f ;; Ret (Some x) else Ret s) l None ;;
    match s with
    | None => Undef (* successor = infinity is used as a variable *)
    | Some s =>
      o <- chain_walk n g e1 e0 s 1 ids ;;
      match o with
      | None => Ret None
      | Some (ids, count) => Ret (if count =? n - 1 then Some ids else None)
      end
    end
  end.

(** Lines 830-848, variableAdjacencyMatrix; the matrix is the list of its rows. *)
Definition mat_set (m : list (list bool)) (i j : nat) : outcome (list (list bool)) :=
  r <- rd m i ;; r <- wr r j true ;; wr m i r.
Definition variableAdjacencyMatrix (g : fgraph) : outcome (list (list bool)) :=
  foldM (fun m f =>
    n <- orderOf g f ;;
    foldM (fun m j => foldM (fun m k =>
       v1 <- variableOfFactor g f j ;; v2 <- variableOfFactor g f k ;;
       m <- mat_set m v1 v2 ;; mat_set m v2 v1) (seq (j + 1) (n - (j + 1))) m) (seq 0 n) m)
    (seq 0 (numberOfFactors g)) (repeat (repeat false (numberOfVariables g)) (numberOfVariables g)).

(** out[i].insert(x) for RandomAccessSet; std::set::insert has the same effect on the sorted content. *)
Definition set_at (out : list (list nat)) (i x : nat) : outcome (list (list nat)) :=
  s <- rd out i ;; r <- ras_insert nat Nat.ltb s x ;; wr out i (fst (fst r)).

(** Lines 876-895, templatedVariableAdjacencyList (850-873 call it). *)
Definition variableAdjacencyList (g : fgraph) : outcome (list (list nat)) :=
  foldM (fun out f =>
    n <- orderOf g f ;;
    foldM (fun out j => foldM (fun out k =>
       v1 <- variableOfFactor g f j ;; v2 <- variableOfFactor g f k ;;
       out <- set_at out v1 v2 ;; set_at out v2 v1) (seq (j + 1) (n - (j + 1))) out) (seq 0 n) out)
    (seq 0 (numberOfFactors g)) (repeat [] (numberOfVariables g)).

(** Lines 918-938, templatedFactorAdjacencyList: [v] is a position in the factor and is used as a variable. *)
Definition factorAdjacencyList (g : fgraph) : outcome (list (list nat)) :=
  foldM (fun out f =>
    n <- orderOf g f ;;
    foldM (fun out v =>
      d <- degreeOf g v ;;
      foldM (fun out k =>
        x <- factorOfVariable g v k ;;
        if negb (f =? x) then set_at out f x else Ret out) (seq 0 d) out) (seq 0 n) out)
    (seq 0 (numberOfFactors g)) (repeat [] (numberOfFactors g)).

(** ** isGrid *)

(** distances[a] < distances[b] with infinity. *)
Definition dlt (a b : option nat) : bool :=
  match a, b with Some x, Some y => x <? y | Some _, None => true | None, _ => false end.

(** Lines 967-972 and 1023-1028: the first position of Q with the smallest distance. *)
Fixpoint dij_min (dist : list (option nat)) (q : list nat) (cur : nat) : outcome nat :=
  match q with
  | [] => Ret cur
  | i :: q => a <- rd dist i ;; b <- rd dist cur ;; dij_min dist q (if dlt a b then i else cur)
  end.

(** Position of an element in a list: actual2localIDs.find. *)
Fixpoint index_of (x : nat) (l : list nat) : option nat :=
  match l with
  | [] => None
  | y :: l => if x =? y then Some 0 else option_map S (index_of x l)
  end.

(** Lines 1022-1056 (and 966-993, where every variable is allowed and local and actual indices coincide):
    the main loop.  [allowed] is local2actualIDs.  Returns [previous], [None] for [return false]. *)
Fixpoint dijkstra (fuel : nat) (g : fgraph) (allowed : list nat) (t : nat) (dist prev : list (option nat)) (q : list nat)
  : outcome (option (list (option nat))) :=
  match q with
  | [] => Ret (Some prev)
  | i :: _ =>
    match fuel with
    | 0 => Diverge
    | S fuel =>
      cur <- dij_min dist q i ;;
      d <- rd dist cur ;;
      match d with
      | None => Ret None
      | Some d =>
        a <- rd allowed cur ;;
        if a =? t then Ret (Some prev) else
        let q := remove Nat.eq_dec cur q in
        fs <- factorsOfVariable g a ;;
        st <- foldM (fun st f =>
                vs <- variablesOfFactor g f ;;
                foldM (fun (st : list (option nat) * list (option nat)) v =>
                  match index_of v allowed with
                  | None => Ret st
                  | Some l =>
                    if existsb (Nat.eqb l) q then
                      x <- rd (fst st) l ;;
                      if dlt (Some (d + 1)) x then
                        ds <- wr (fst st) l (Some (d + 1)) ;; ps <- wr (snd st) l (Some cur) ;; Ret (ds, ps)
                      else Ret st
                    else Ret st
                  end) vs st) fs (dist, prev) ;;
        dijkstra fuel g allowed t (fst st) (snd st) q
      end
    end
  end.

(** Lines 1058-1065 (995-1001): the path from the predecessors. *)
Fixpoint walk_back (fuel : nat) (allowed : list nat) (prev : list (option nat)) (u : nat) (path : list nat) : outcome (list nat) :=
  match fuel with
  | 0 => Diverge
  | S fuel =>
    p <- rd prev u ;;
    match p with
    | None => Ret path
    | Some w => a <- rd allowed u ;; walk_back fuel allowed prev w (a :: path)
    end
  end.

(** Lines 945-1070, shortestPath. *)
Definition shortestPath (g : fgraph) (s t : nat) (allowedVariables : list nat) : outcome (option (list nat)) :=
  let n := numberOfVariables g in
  let allowed := if (length allowedVariables =? 0) || (length allowedVariables =? n) then seq 0 n else allowedVariables in
  let m := length allowed in
  match index_of s allowed, index_of t allowed with
  | Some ls, Some lt =>
    dist <- wr (repeat None m) ls (Some 0) ;;
    o <- dijkstra (S m) g allowed t dist (repeat None m) (seq 0 m) ;;
    match o with
    | None => Ret None
    | Some prev => p <- walk_back (S m) allowed prev lt [] ;; Ret (Some (s :: p))
    end
  | _, _ => Undef
  end.

(** Lines 1074-1097, twoHopConnected: the list of one-hop variables (false iff it is empty). *)
Definition twoHopConnected (g : fgraph) (variable1 variable2 : nat) : outcome (list nat) :=
  if negb (variable1 =? variable2) then
    fs <- factorsOfVariable g variable1 ;;
    foldM (fun out f =>
      vs <- variablesOfFactor g f ;;
      foldM (fun out v =>
        if negb (v =? variable1) || negb (v =? variable2) then
          b <- variableVariableConnection g v variable2 ;; Ret (if b : bool then out ++ [v] else out)
        else Ret out) vs out) fs []
  else Ret [].

(** marray::Matrix: extents and rows. *)
Definition mat : Type := (nat * nat * list (list nat))%type.
Definition mat_new (r c : nat) : mat := (r, c, repeat (repeat 0 c) r).
Definition mat_put (m : mat) (i j x : nat) : outcome mat :=
  row <- rd (snd m) i ;; row <- wr row j x ;; d <- wr (snd m) i row ;; Ret (fst m, d).
Definition mat_at (m : mat) (i j : nat) : outcome nat := row <- rd (snd m) i ;; rd row j.

(** Lines 527-708, isGrid: [Some gridIDs] when it returns true. *)
Definition isGrid (g : fgraph) : outcome (option mat) :=
  let n := numberOfVariables g in
  if n =? 0 then Ret None else
  b <- maxFactorOrderLe g 2 ;;
  if negb b then Ret None else
  if n =? 1 then m <- mat_put (mat_new 1 1) 0 0 0 ;; Ret (Some m) else
  ch <- isChain g ;;
  match ch with
  | Some c => m <- foldM (fun m i => x <- rd c i ;; mat_put m 0 i x) (seq 0 (length c)) (mat_new 1 (length c)) ;; Ret (Some m)
  | None =>
    o <- foldO (fun (st : list nat * list nat) i =>
           c <- numberOfNthOrderFactorsOfVariable g i 2 ;;
           if c =? 2 then if 3 <? length (fst st) then Ret None else Ret (Some (fst st ++ [i], snd st ++ [i]))
           else if c =? 3 then Ret (Some (fst st, snd st ++ [i]))
           else if 4 <? c then Ret None else Ret (Some st)) (seq 0 n) ([], []) ;;
    match o with
    | None => Ret None
    | Some (corner, hull) =>
      if length corner <? 4 then Ret None else
      c0 <- rd corner 0 ;;
      (* lines 590-602 *)
      ps <- foldO (fun ps i => ci <- rd corner i ;; p <- shortestPath g c0 ci hull ;;
                               Ret (match p with Some p => Some (ps ++ [p]) | None => None end)) (seq 1 3) [] ;;
      match ps with
      | None => Ret None
      | Some ps =>
        (* lines 604-610 *)
        diag <- foldM (fun diag i => a <- rd ps (i - 1) ;; b <- rd ps diag ;;
                        Ret (if length b <? length a then i else diag)) (seq 1 3) 1 ;;
        cd <- rd corner diag ;;
        let others := filter (fun i => negb (i =? diag)) (seq 1 3) in
        (* lines 612-622 *)
        as_ <- foldO (fun as_ i => ci <- rd corner i ;; p <- shortestPath g ci cd hull ;;
                        Ret (match p with Some p => Some (as_ ++ [p]) | None => None end)) others [] ;;
        match as_ with
        | None => Ret None
        | Some as_ =>
          (* lines 625-642 *)
          i0 <- rd others 0 ;; i1 <- rd others 1 ;;
          p0 <- rd ps (i0 - 1) ;; p1 <- rd ps (i1 - 1) ;; a0 <- rd as_ 0 ;; a1 <- rd as_ 1 ;;
          let d0 := length p0 in let d1 := length p1 in
          if negb (d0 =? length a1) then Ret None else
          if negb (d1 =? length a0) then Ret None else
          (* lines 644-685 *)
          m <- foldM (fun m k => x <- rd p0 k ;; mat_put m k 0 x) (seq 0 (length p0)) (mat_new d0 d1) ;;
          m <- foldM (fun m k => x <- rd p1 k ;; mat_put m 0 k x) (seq 0 (length p1)) m ;;
          m <- foldM (fun m k => x <- rd a0 k ;; mat_put m (d0 - 1) k x) (seq 0 (length a0)) m ;;
          m <- foldM (fun m k => x <- rd a1 k ;; mat_put m k (d1 - 1) x) (seq 0 (length a1)) m ;;
          (* lines 687-705 *)
          foldO (fun m i =>
            foldO (fun m j =>
              u <- mat_at m (i - 1) j ;; l <- mat_at m i (j - 1) ;; ul <- mat_at m (i - 1) (j - 1) ;;
              hops <- twoHopConnected g u l ;;
              if length hops <? 2 then Ret None else
              h0 <- rd hops 0 ;; h1 <- rd hops 1 ;;
              m <- mat_put m i j (if negb (h0 =? ul) then h0 else h1) ;; Ret (Some m))
              (seq 1 (d1 - 2)) m) (seq 1 (d0 - 2)) m
        end
      end
    end
  end.
