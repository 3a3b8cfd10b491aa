(** Model of graphicalmodel/decomposition/graphicalmodeldecomposition.hxx and graphicalmodeldecomposer.hxx.
    A graphical model enters only through its number of variables [nv] and the variables of its factors [fs].
    Simplified: size_t and int are unbounded; std::numeric_limits<size_t>::max(), used as "none", is [None]; the double
    arithmetic of decomposeIntoClosedBlocks(gm, numBlocks) and decomposeIntoKFans(gm, k) is exact; OPENGM_ASSERT is not modelled. *)
From Verif Require Import Base PartitionModel.

(** graphicalmodeldecomposition.hxx 17-24, SubFactor; [None]: subFactorId_ is not initialised (lines 93-101). *)
Record sub : Type := mkSub { s_model : nat; s_id : option nat; s_idx : list nat }.

(** Lines 72-80, the data members; a SubVariable is a pair (subModelId_, subVariableId_); the std::map is a list sorted by key. *)
Record dec : Type := mkDec { d_nv : nat; d_nf : nat; d_nm : nat; d_nsf : list nat; d_nsv : list nat;
  d_fl : list (list sub); d_vl : list (list (nat * nat)); d_el : list (list nat * list sub) }.
Definition set_nm (d : dec) x := mkDec (d_nv d) (d_nf d) x (d_nsf d) (d_nsv d) (d_fl d) (d_vl d) (d_el d).
Definition set_nsf (d : dec) x := mkDec (d_nv d) (d_nf d) (d_nm d) x (d_nsv d) (d_fl d) (d_vl d) (d_el d).
Definition set_nsv (d : dec) x := mkDec (d_nv d) (d_nf d) (d_nm d) (d_nsf d) x (d_fl d) (d_vl d) (d_el d).
Definition set_fl (d : dec) x := mkDec (d_nv d) (d_nf d) (d_nm d) (d_nsf d) (d_nsv d) x (d_vl d) (d_el d).
Definition set_vl (d : dec) x := mkDec (d_nv d) (d_nf d) (d_nm d) (d_nsf d) (d_nsv d) (d_fl d) x (d_el d).
Definition set_el (d : dec) x := mkDec (d_nv d) (d_nf d) (d_nm d) (d_nsf d) (d_nsv d) (d_fl d) (d_vl d) x.

(** Lines 112-119 (default: dec_new 0 0 0) and 121-136, constructors. *)
Definition dec_new (nv nf nm : nat) : dec := mkDec nv nf nm (repeat 0 nm) (repeat 0 nm) (repeat [] nf) (repeat [] nv) [].

(** Lines 138-144, addSubModel. *)
Definition addSubModel (d : dec) : dec * nat :=
  (mkDec (d_nv d) (d_nf d) (S (d_nm d)) (d_nsf d ++ [0]) (d_nsv d ++ [0]) (d_fl d) (d_vl d) (d_el d), d_nm d).

(** numberOfSubFactors_[subModel]++ (lines 163, 182) *)
Definition count_factor (d : dec) (m : nat) : outcome (dec * nat) :=
  k <- rd (d_nsf d) m ;; nsf <- wr (d_nsf d) m (S k) ;; Ret (set_nsf d nsf, k).
(** Lines 146-164, addSubFactor for a factor of the model. *)
Definition addSubFactor (d : dec) (m f : nat) (idx : list nat) : outcome (dec * nat) :=
  k <- rd (d_nsf d) m ;; l <- rd (d_fl d) f ;; fl <- wr (d_fl d) f (l ++ [mkSub m (Some k) idx]) ;;
  count_factor (set_fl d fl) m.

(** operator< of std::vector<size_t> *)
Fixpoint lex (a b : list nat) : bool :=
  match a, b with
  | [], [] => false | [], _ :: _ => true | _ :: _, [] => false
  | x :: a', y :: b' => if x <? y then true else if y <? x then false else lex a' b'
  end.
(** emptySubFactorLists_[key].push_back(s), and emptySubFactorLists_[key] alone (which inserts an empty list) *)
Fixpoint el_push (e : list (list nat * list sub)) (key : list nat) (s : list sub) : list (list nat * list sub) :=
  match e with
  | [] => [(key, s)]
  | (k, l) :: t => if lex key k then (key, s) :: e else if lex k key then (k, l) :: el_push t key s else (k, l ++ s) :: t
  end.
Fixpoint el_at (e : list (list nat * list sub)) (key : list nat) : list sub :=
  match e with [] => [] | (k, l) :: t => if lex key k then [] else if lex k key then el_at t key else l end.
(** Lines 166-183, addSubFactor for variables without a factor. *)
Definition addSubFactor_empty (d : dec) (m : nat) (indices idx : list nat) : outcome (dec * nat) :=
  count_factor (set_el d (el_push (d_el d) indices [mkSub m None idx])) m.

(** Lines 185-195, addSubVariable. *)
Definition addSubVariable (d : dec) (m v : nat) : outcome (dec * nat) :=
  k <- rd (d_nsv d) m ;; l <- rd (d_vl d) v ;; vl <- wr (d_vl d) v (l ++ [(m, k)]) ;;
  nsv <- wr (d_nsv d) m (S k) ;; Ret (set_nsv (set_vl d vl) nsv, k).

(** t[m][k] and t[m][k] = v *)
Definition rd2 {A : Type} (t : list (list A)) (m k : nat) : outcome A := r <- rd t m ;; rd r k.
Definition wr2 {A : Type} (t : list (list A)) (m k : nat) (v : A) : outcome (list (list A)) :=
  r <- rd t m ;; r' <- wr r k v ;; wr t m r'.
(** Lines 204-207 and 279-282: a table with an entry 0 for every variable of every submodel. *)
Definition sub_table (d : dec) : outcome (list (list nat)) :=
  mapM (fun m => n <- rd (d_nsv d) m ;; Ret (repeat 0 n)) (seq 0 (d_nm d)).

(** std::set<size_t> as a strictly increasing list *)
Fixpoint set_insert (l : list nat) (x : nat) : list nat :=
  match l with [] => [x] | y :: t => if x <? y then x :: l else if y <? x then y :: set_insert t x else l end.
Definition set_erase (l : list nat) (x : nat) : list nat := filter (fun y => negb (y =? x)) l.
Definition set_has (l : list nat) (x : nat) : bool := existsb (Nat.eqb x) l.

(** Lines 208-214: (subModel, subVariable) -> realVariable *)
Definition real_table (d : dec) : outcome (list (list nat)) :=
  t0 <- sub_table d ;;
  foldM (fun t v => l <- rd (d_vl d) v ;; foldM (fun t p => wr2 t (fst p) (snd p) v) l t) (seq 0 (d_nv d)) t0.
(** Lines 216-225: realVariable -> realUnaryFactor *)
Definition unary_table (d : dec) (real : list (list nat)) : outcome (list (option nat)) :=
  foldM (fun u f => l <- rd (d_fl d) f ;;
           match l with
           | s :: _ => match s_idx s with
                       | [k] => v <- rd2 real (s_model s) k ;; wr u v (Some f)
                       | _ => Ret u end
           | [] => Ret u end) (seq 0 (d_nf d)) (repeat None (d_nv d)).
(** required[m].insert(k), required[m].erase(k) *)
Definition req_insert (r : list (list nat)) (p : nat * nat) : outcome (list (list nat)) :=
  s <- rd r (fst p) ;; wr r (fst p) (set_insert s (snd p)).
Definition req_erase (r : list (list nat)) (s : sub) : outcome (list (list nat)) :=
  k <- rd (s_idx s) 0 ;; l <- rd r (s_model s) ;; wr r (s_model s) (set_erase l k).
(** Lines 227-270, the body for one variable *)
Definition complete_variable (un : list (option nat)) (d : dec) (v : nat) : outcome dec :=
  copies <- rd (d_vl d) v ;;
  if 1 <? length copies then
    req <- foldM req_insert copies (repeat [] (d_nm d)) ;;
    o <- rd un v ;;
    match o with
    | Some f =>
        l <- rd (d_fl d) f ;; req <- foldM req_erase l req ;;
        foldM (fun d m => s <- rd req m ;; foldM (fun d k => '(d, _) <- addSubFactor d m f [k] ;; Ret d) s d) (seq 0 (d_nm d)) d
    | None =>
        req <- foldM req_erase (el_at (d_el d) [v]) req ;;
        foldM (fun d m => s <- rd req m ;; foldM (fun d k => '(d, _) <- addSubFactor_empty d m [v] [k] ;; Ret d) s d) (seq 0 (d_nm d))
              (set_el d (el_push (d_el d) [v] []))
    end
  else Ret d.
(** Lines 197-271, complete. *)
Definition complete (d : dec) : outcome dec :=
  real <- real_table d ;; un <- unary_table d real ;; foldM (complete_variable un) (seq 0 (d_nv d)) d.

(** Lines 284-292: renumber the copies of the variables in the order of the variables. *)
Definition renumber_copy (st : list (list nat) * list nat * list (nat * nat)) (p : nat * nat) : outcome (list (list nat) * list nat * list (nat * nat)) :=
  let '(map_, count, out) := st in
  c <- rd count (fst p) ;; map_ <- wr2 map_ (fst p) (snd p) c ;; count <- wr count (fst p) (S c) ;; Ret (map_, count, out ++ [(fst p, c)]).
Definition renumber (d : dec) : outcome (list (list nat) * list (list (nat * nat))) :=
  t0 <- sub_table d ;;
  '(map_, _, out) <- foldM (fun st v => let '(map_, count, out) := st in
      l <- rd (d_vl d) v ;;
      '(map_, count, l') <- foldM renumber_copy l (map_, count, []) ;;
      Ret (map_, count, out ++ [l'])) (seq 0 (d_nv d)) (t0, repeat 0 (d_nm d), []) ;;
  Ret (map_, out).
(** Lines 294-319: the indices of one subfactor *)
Definition relabel (map_ : list (list nat)) (s : sub) : outcome sub :=
  idx <- mapM (rd2 map_ (s_model s)) (s_idx s) ;; Ret (mkSub (s_model s) (s_id s) idx).
(** Lines 273-321, reorder. *)
Definition reorder (d : dec) : outcome dec :=
  '(map_, vl) <- renumber d ;;
  fl <- mapM (mapM (relabel map_)) (d_fl d) ;;
  el <- mapM (fun e => l <- mapM (relabel map_) (snd e) ;; Ret (fst e, l)) (d_el d) ;;
  Ret (set_el (set_fl (set_vl d vl) fl) el).

(** Lines 323-392, isValid (without the assertions). *)
Definition isValid (d : dec) (nv : nat) (fs : list (list nat)) : outcome bool :=
  let ret := (length (d_vl d) =? nv) && (length (d_fl d) =? length fs) in
  ret <- foldM (fun ret i => l <- rd (d_vl d) i ;; Ret (ret && negb (length l =? 0))) (seq 0 nv) ret ;;
  foldM (fun ret i => l <- rd (d_fl d) i ;; vs <- rd fs i ;;
           Ret (ret && negb (length l =? 0) && forallb (fun s => length (s_idx s) =? length vs) l)) (seq 0 (length fs)) ret.

(** ** graphicalmodeldecomposer.hxx *)
Section Decomposer.
Variable nv : nat.
Variable fs : list (list nat).
Definition nf : nat := length fs.
Definition models (n : nat) (d : dec) : dec := Nat.iter n (fun d => fst (addSubModel d)) d.

(** Lines 58-88, decomposeManual. *)
Definition manual_variable (m : nat) (st : dec * list nat * list nat) (v : nat) : outcome (dec * list nat * list nat) :=
  let '(d, ids, idx) := st in
  k <- rd ids v ;;
  if k =? nv then '(d, k) <- addSubVariable d m v ;; ids <- wr ids v k ;; Ret (d, ids, idx ++ [k])
  else Ret (d, ids, idx ++ [k]).
Definition manual_factor (m : nat) (st : dec * list nat) (f : nat) : outcome (dec * list nat) :=
  let '(d, ids) := st in
  vs <- rd fs f ;;
  '(d, ids, idx) <- foldM (manual_variable m) vs (d, ids, []) ;;
  '(d, _) <- addSubFactor d m f idx ;; Ret (d, ids).
Definition decomposeManual (subs : list (list nat)) : outcome dec :=
  d <- foldM (fun d m => l <- rd subs m ;; '(d, _) <- foldM (manual_factor m) l (d, repeat nv nv) ;; Ret d)
             (seq 0 (length subs)) (models (length subs) (dec_new nv nf 0)) ;;
  reorder d.

(** ++counters[key], std::map<size_t,size_t>: the new count *)
Fixpoint bump (c : list (nat * nat)) (key : nat) : list (nat * nat) * nat :=
  match c with
  | [] => ([(key, 1)], 1)
  | (k, n) :: t => if k =? key then ((k, S n) :: t, S n) else let '(t', r) := bump t key in ((k, n) :: t', r)
  end.
(** Lines 112-114 and 180-182: merge the variables of a factor. *)
Definition merge_all (p : partition) (vs : list nat) : outcome partition :=
  foldM (fun p j => a <- rd vs (j - 1) ;; b <- rd vs j ;; part_merge p a b) (seq 1 (length vs - 1)) p.

(** Lines 90-118, decomposeIntoTree. *)
Definition tree_variable (st : dec * partition * list (nat * nat) * list nat) (v : nat) : outcome (dec * partition * list (nat * nat) * list nat) :=
  let '(d, p, c, idx) := st in
  '(p, r) <- part_find p v ;;
  let '(c, n) := bump c r in
  if 1 <? n then '(d, k) <- addSubVariable d 0 v ;; Ret (d, p, c, idx ++ [k]) else Ret (d, p, c, idx ++ [v]).
Definition tree_factor (st : dec * partition) (f : nat) : outcome (dec * partition) :=
  let '(d, p) := st in
  vs <- rd fs f ;;
  '(d, p, _, idx) <- foldM tree_variable vs (d, p, [], []) ;;
  '(d, _) <- addSubFactor d 0 f idx ;; p <- merge_all p vs ;; Ret (d, p).
Definition decomposeIntoTree : outcome dec :=
  let d := fst (addSubModel (dec_new nv nf 0)) in
  d <- foldM (fun d v => '(d, _) <- addSubVariable d 0 v ;; Ret d) (seq 0 nv) d ;;
  '(d, _) <- foldM tree_factor (seq 0 nf) (d, part_init nv) ;;
  reorder d.

(** Lines 154-163: can the factor be inserted? *)
Fixpoint fits_in (p : partition) (c : list (nat * nat)) (vs : list nat) : outcome (partition * bool) :=
  match vs with
  | [] => Ret (p, true)
  | v :: t => '(p, r) <- part_find p v ;; let '(c, n) := bump c r in if 1 <? n then Ret (p, false) else fits_in p c t
  end.
(** Lines 151-187: one factor of the current list; [white]: it is the white list.  The factors that stay in the list are collected in
    [kept], those that move to the gray list in [gray]. *)
Definition span_factor (white : bool) (m : nat) (st : dec * partition * list nat * list nat) (f : nat) : outcome (dec * partition * list nat * list nat) :=
  let '(d, p, kept, gray) := st in
  vs <- rd fs f ;;
  '(p, ins) <- fits_in p [] vs ;;
  if ins then
    '(d, _) <- addSubFactor d m f vs ;; p <- merge_all p vs ;;
    if white then Ret (d, p, kept, gray ++ [f]) else Ret (d, p, kept ++ [f], gray)
  else Ret (d, p, kept ++ [f], gray).
(** Lines 132-191, the while loop. *)
Fixpoint span_loop (fuel : nat) (d : dec) (white black : list nat) : outcome dec :=
  match white with
  | [] => Ret d
  | _ :: _ =>
    match fuel with
    | 0 => Diverge
    | S fuel' =>
        let '(d, m) := addSubModel d in
        d <- foldM (fun d v => '(d, _) <- addSubVariable d m v ;; Ret d) (seq 0 nv) d ;;
        '(d, p, white, gray) <- foldM (span_factor true m) white (d, part_init nv, [], []) ;;
        '(d, _, black, gray) <- foldM (span_factor false m) black (d, p, [], gray) ;;
        span_loop fuel' d white (black ++ gray)
    end
  end.
(** Lines 120-193, decomposeIntoSpanningTrees; every round is proved to insert a factor, so the fuel is enough. *)
Definition decomposeIntoSpanningTrees : outcome dec := span_loop (S nf) (dec_new nv nf 0) (seq 0 nf) [].

(** gm.factorsOfVariableBegin(v) ... End(v), see C12. *)
Definition factors_of (v : nat) : list nat := filter (fun f => existsb (Nat.eqb v) (nth f fs [])) (seq 0 nf).
(** Lines 233-243, the variables of the inner fan and their neighbours *)
Definition fan_included (inner : list nat) : outcome (list bool) :=
  foldM (fun inc v => inc <- wr inc v true ;;
           foldM (fun inc f => vs <- rd fs f ;; foldM (fun inc u => wr inc u true) vs inc) (factors_of v) inc)
        inner (repeat false nv).
(** Lines 251-280, one factor *)
Definition fan_factor (m : nat) (inner : list nat) (inc : list bool) (ids : list nat) (d : dec) (f : nat) : outcome dec :=
  vs <- rd fs f ;;
  match vs with
  | [] => if m =? 0 then '(d, _) <- addSubFactor d m f [] ;; Ret d else Ret d
  | [u] => b <- rd inc u ;; if b : bool then k <- rd ids u ;; '(d, _) <- addSubFactor d m f [k] ;; Ret d else Ret d
  | [u; v] =>
      b <- rd inc u ;;
      c <- (if b : bool then rd inc v else Ret false) ;;
      if c : bool then
        if set_has inner u || set_has inner v then
          k <- rd ids u ;; l <- rd ids v ;; '(d, _) <- addSubFactor d m f [k; l] ;; Ret d
        else Ret d
      else Ret d
  | _ => Throw
  end.
(** Lines 217-284, decomposeIntoKFans(gm, innerFanVariables). *)
Definition fan_model (inners : list (list nat)) (d : dec) (m : nat) : outcome dec :=
  let d := fst (addSubModel d) in
  inner <- rd inners m ;; inc <- fan_included inner ;;
  '(d, ids) <- foldM (fun st v => let '(d, ids) := st in
                        b <- rd inc v ;;
                        if b : bool then '(d, k) <- addSubVariable d m v ;; ids <- wr ids v k ;; Ret (d, ids) else Ret (d, ids))
                     (seq 0 nv) (d, repeat 0 nv) ;;
  foldM (fan_factor m inner inc ids) (seq 0 nf) d.
Definition decomposeIntoKFans_sets (inners : list (list nat)) : outcome dec :=
  foldM (fan_model inners) (seq 0 (length inners)) (dec_new nv nf 0).
(** Lines 195-215, decomposeIntoKFans(gm, k); k = 0: the conversion of an infinite double to size_t. *)
Definition fan_sets (k : nat) : outcome (list (list nat)) :=
  let number := (nv + (k - 1)) / k in
  '(out, _) <- foldM (fun st _ => let '(out, counter) := st in
      '(s, counter) <- foldM (fun st _ => let '(s, counter) := st in
           if nv =? 0 then Undef else Ret (set_insert s counter, (counter + 1) mod nv)) (seq 0 k) ([], counter) ;;
      Ret (out ++ [s], counter)) (seq 0 number) ([], 0) ;;
  Ret out.
Definition decomposeIntoKFans (k : nat) : outcome dec :=
  if k =? 0 then Undef else sets <- fan_sets k ;; decomposeIntoKFans_sets sets.

(** Lines 296-303 and 364-371: the variables of a block *)
Definition block_variables (m : nat) (inner : list nat) (d : dec) : outcome (dec * list (option nat)) :=
  foldM (fun st v => let '(d, ids) := st in '(d, k) <- addSubVariable d m v ;; ids <- wr ids v (Some k) ;; Ret (d, ids))
        inner (d, repeat None nv).
(** Lines 305-326, one factor of an open block *)
Definition open_factor (m : nat) (ids : list (option nat)) (d : dec) (f : nat) : outcome dec :=
  vs <- rd fs f ;;
  match vs with
  | [] => '(d, _) <- addSubFactor d m f [] ;; Ret d
  | _ =>
      test <- foldM (fun (test : bool) v => if test then o <- rd ids v ;; Ret (match o with Some _ => true | None => false end) else Ret false) vs true ;;
      if test : bool then
        idx <- mapM (fun v => o <- rd ids v ;; match o with Some k => Ret k | None => Undef end) vs ;;
        '(d, _) <- addSubFactor d m f idx ;; Ret d
      else Ret d
  end.
(** Lines 286-329, decomposeIntoOpenBlocks. *)
Definition decomposeIntoOpenBlocks (inners : list (list nat)) : outcome dec :=
  foldM (fun d m => let d := fst (addSubModel d) in
           inner <- rd inners m ;; '(d, ids) <- block_variables m inner d ;;
           foldM (open_factor m ids) (seq 0 nf) d) (seq 0 (length inners)) (dec_new nv nf 0).

(** Lines 373-400, one factor of a closed block *)
Definition closed_variable (m : nat) (st : dec * list (option nat) * list nat) (v : nat) : outcome (dec * list (option nat) * list nat) :=
  let '(d, ids, idx) := st in
  o <- rd ids v ;;
  match o with
  | Some k => Ret (d, ids, idx ++ [k])
  | None => '(d, k) <- addSubVariable d m v ;; ids <- wr ids v (Some k) ;; Ret (d, ids, idx ++ [k])
  end.
Definition closed_factor (m : nat) (inner : list nat) (st : dec * list (option nat)) (f : nat) : outcome (dec * list (option nat)) :=
  let '(d, ids) := st in
  vs <- rd fs f ;;
  match vs with
  | [] => '(d, _) <- addSubFactor d m f [] ;; Ret (d, ids)
  | _ => if existsb (set_has inner) vs then
           '(d, ids, idx) <- foldM (closed_variable m) vs (d, ids, []) ;; '(d, _) <- addSubFactor d m f idx ;; Ret (d, ids)
         else Ret (d, ids)
  end.
(** Lines 352-406, decomposeIntoClosedBlocks(gm, innerVariables). *)
Definition decomposeIntoClosedBlocks_sets (inners : list (list nat)) : outcome dec :=
  d <- foldM (fun d m => let d := fst (addSubModel d) in
           inner <- rd inners m ;; st <- block_variables m inner d ;;
           '(d, _) <- foldM (closed_factor m inner) (seq 0 nf) st ;; Ret d) (seq 0 (length inners)) (dec_new nv nf 0) ;;
  reorder d.
(** Lines 338-343, the while loop: var < nv / blocks * (i + 1) + 0.0000001 && var < nv *)
Definition below (blocks i var : nat) : bool :=
  (Z.of_nat var * Z.of_nat blocks * 10000000 <? Z.of_nat nv * Z.of_nat (i + 1) * 10000000 + Z.of_nat blocks)%Z && (var <? nv).
Fixpoint block_set (fuel blocks i var : nat) (s : list nat) : nat * list nat :=
  match fuel with
  | 0 => (var, s)
  | S fuel' => if below blocks i var then block_set fuel' blocks i (S var) (set_insert s var) else (var, s)
  end.
(** Lines 331-350, decomposeIntoClosedBlocks(gm, numBlocks); the loop inserts at most [nv] variables; --var at 0 would wrap around. *)
Definition block_sets (blocks : nat) : outcome (list (list nat)) :=
  '(out, _) <- foldM (fun st i => let '(out, var) := st in
      let '(var, s) := block_set nv blocks i var [] in
      if var =? nv then Ret (out ++ [s], var) else if var =? 0 then Undef else Ret (out ++ [s], var - 1)) (seq 0 blocks) ([], 0) ;;
  Ret out.
Definition decomposeIntoClosedBlocks (blocks : nat) : outcome dec := sets <- block_sets blocks ;; decomposeIntoClosedBlocks_sets sets.
End Decomposer.
