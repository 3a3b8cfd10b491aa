(** Saving and loading graphical models: include/opengm/graphicalmodel/graphicalmodel_hdf5.hxx, with the parts of
    include/opengm/datastructures/marray/marray_hdf5.hxx it uses.

    A file is the record of the datasets below one group; the HDF5 library is taken to give back what was written.  Index
    sequences are 64 bit numbers that do not overflow.  The value type is the same when saving and loading, and converting
    it to the storage type and back is exact.  Registration numbers are given relative to FUNCTION_TYPE_ID_OFFSET.  A model
    is modelled as in GmModel.v but without pointers: there is one model, and its factors refer to it. *)
From Verif Require Import Base Values FunctionsModel GmModel.

Section Hdf5.
Variable T : Type.
Variable N : num T.
(** ValueType(), and the number StoredValueTypeInfo of the value type, lines 46-53 and 344-371. *)
Variable z : T.
Variable valueTypeInfo : nat.

(** The function types of a type list; StaticSingleSiteFunction has its size as a template argument. *)
Inductive kind : Type := KExplicit | KSparse | KAbsolute | KTruncAbsolute | KSquared | KTruncSquared | KPotts | KPottsN | KConstant | KStatic (SIZE : nat).
(** FunctionRegistration<...>::Id: explicit_function.hxx 68, sparsemarray.hxx 15, absolute_difference.hxx 41,
    truncated_absolute_difference.hxx 42, squared_difference.hxx 41, truncated_squared_difference.hxx 43, potts.hxx 63,
    pottsn.hxx 51, constant.hxx 64, singlesitefunction.hxx 285. *)
Definition regId (k : kind) : nat :=
  match k with KExplicit => 0 | KSparse => 1 | KAbsolute => 2 | KTruncAbsolute => 3 | KSquared => 4 | KTruncSquared => 5
             | KPotts => 6 | KPottsN => 7 | KConstant => 8 | KStatic _ => 9 end.
(** Function objects. *)
Inductive fobj : Type := OExplicit (f : explicitf T) | OSparse (f : sparsef T) | OFn1 (f : fn1 T) | OFn2 (f : fn2 T)
  | OPottsN (f : pottsn T) | OConstant (f : constf T) | OStatic (f : list T).
(** The members of a function type, applied to function objects. *)
Definition lift {F : Type} (inj : F -> fobj) (prj : fobj -> option F) (ft : ftype T F) : ftype T fobj := mkFt
  (fun o => match prj o with Some f => ft_dimension ft f | None => 0 end)
  (fun o i => match prj o with Some f => ft_shape ft f i | None => Undef end)
  (fun o => match prj o with Some f => ft_size ft f | None => 0%Z end)
  (fun o c => match prj o with Some f => ft_call ft f c | None => Undef end)
  (fun o => match prj o with Some f => ft_indexSequenceSize ft f | None => 0 end)
  (fun o => match prj o with Some f => ft_valueSequenceSize ft f | None => 0 end)
  (fun o => match prj o with Some f => ft_serialize ft f | None => Undef end)
  (fun ix vs o => match prj o with Some f => f <- ft_deserialize ft ix vs f ;; Ret (inj f) | None => Undef end).
Definition ops_of (k : kind) : ftype T fobj :=
  match k with
  | KExplicit => lift OExplicit (fun o => match o with OExplicit f => Some f | _ => None end) (explicit T)
  | KSparse => lift OSparse (fun o => match o with OSparse f => Some f | _ => None end) (sparse T)
  | KAbsolute => lift OFn1 (fun o => match o with OFn1 f => Some f | _ => None end) (absdiff T N)
  | KTruncAbsolute => lift OFn2 (fun o => match o with OFn2 f => Some f | _ => None end) (truncabs T N)
  | KSquared => lift OFn1 (fun o => match o with OFn1 f => Some f | _ => None end) (sqdiff T N)
  | KTruncSquared => lift OFn2 (fun o => match o with OFn2 f => Some f | _ => None end) (truncsq T N)
  | KPotts => lift OFn2 (fun o => match o with OFn2 f => Some f | _ => None end) (potts T)
  | KPottsN => lift OPottsN (fun o => match o with OPottsN f => Some f | _ => None end) (pottsN T)
  | KConstant => lift OConstant (fun o => match o with OConstant f => Some f | _ => None end) (constant T)
  | KStatic SIZE => lift OStatic (fun o => match o with OStatic f => Some f | _ => None end) (staticsite T SIZE)
  end.
(** Default constructed function objects. *)
Definition default_of (k : kind) : fobj :=
  match k with
  | KExplicit => OExplicit (mkExplicit [] [])
  | KSparse => OSparse (mkSparse z [] [] [])
  | KAbsolute | KSquared => OFn1 (mkFn1 0 0 z)
  | KTruncAbsolute | KTruncSquared | KPotts => OFn2 (mkFn2 0 0 z z)
  | KPottsN => OPottsN (pottsn_default T z)
  | KConstant => OConstant (const_default T z)
  | KStatic SIZE => OStatic (repeat z SIZE)
  end.

(** The members of a factor and of a model, graphicalmodel_factor.hxx 229-235, graphicalmodel.hxx 185-190; the type list
    is an argument of the functions below. *)
Record hfactor : Type := mkHf { hc_findex : nat; hc_ftype : nat; hc_start : nat; hc_size : nat }.
Record hgm : Type := mkHgm { h_space : list nat; h_funs : list (list fobj); h_adj : list (list nat); h_factors : list hfactor; h_vis : list nat; h_order : nat }.

(** ** Building and reading a model, simplified from GmModel.v *)
Definition h_new (types : list kind) : hgm := mkHgm [] (map (fun _ => []) types) [] [] [] 0.
Inductive hop : Type := HVariable (n : nat) | HFunction (t : nat) (f : fobj) | HFactor (i t : nat) (vis : list nat).
(** graphicalmodel.hxx 373-385 (addVariable), 520-550 (addFunction), 653-696 (addFactor). *)
Definition hstep (m : hgm) (o : hop) : outcome hgm :=
  match o with
  | HVariable n => Ret (mkHgm (h_space m ++ [n]) (h_funs m) (h_adj m ++ [[]]) (h_factors m) (h_vis m) (h_order m))
  | HFunction t f => fs <- rd (h_funs m) t ;; Ret (mkHgm (h_space m) (upd (h_funs m) t (fs ++ [f])) (h_adj m) (h_factors m) (h_vis m) (h_order m))
  | HFactor i t vis =>
      ' (adj, thrown) <- addFactor_loop (length (h_space m)) (length (h_factors m)) true None vis (h_adj m) ;;
      if thrown : bool then Throw
      else Ret (mkHgm (h_space m) (h_funs m) adj (h_factors m ++ [mkHf i t (length (h_vis m)) (length vis)]) (h_vis m ++ vis) (Nat.max (h_order m) (length vis)))
  end.
(** graphicalmodel_factor.hxx 536-544. *)
Definition h_variableIndex (m : hgm) (fc : hfactor) (j : nat) : outcome nat := rd (h_vis m) (hc_start fc + j).
Definition h_variables (m : hgm) (fc : hfactor) : outcome (list nat) := mapM (h_variableIndex m fc) (seq 0 (hc_size fc)).
(** The function of a factor and its type (see GmModel.v and C33 for the dispatch). *)
Definition h_function (types : list kind) (m : hgm) (fc : hfactor) : outcome (kind * fobj) :=
  k <- rd types (hc_ftype fc) ;; fs <- rd (h_funs m) (hc_ftype fc) ;; f <- rd fs (hc_findex fc) ;; Ret (k, f).
Definition h_value (types : list kind) (m : hgm) (fc : hfactor) (c : list nat) : outcome T :=
  ' (k, f) <- h_function types m fc ;; ft_call (ops_of k) f c.
(** graphicalmodel.hxx 445-474, evaluate. *)
Definition h_evaluate (OP : oper T) (types : list kind) (m : hgm) (x : list nat) : outcome T :=
  foldM (fun acc fc => vs <- h_variables m fc ;; c <- mapM (rd x) vs ;; v <- h_value types m fc c ;; Ret (o_op OP v acc)) (h_factors m) (o_neutral OP).

(** ** The file *)
Record group : Type := mkGroup { gr_indices : list nat; gr_values : list T }.
Record hfile : Type := mkFile { hf_header : list nat; hf_states : list nat; hf_groups : list (nat * group); hf_factors : option (list nat) }.
(** marray_hdf5.hxx 313-394 and 422-434: &in(0) is evaluated, which does not exist in an empty vector. *)
Definition save_vector {A : Type} (l : list A) : outcome (list A) := match l with [] => Undef | _ => Ret l end.
(** Writing a sequence through an iterator. *)
Definition put {A : Type} (buf : list A) (pos : nat) (xs : list A) : outcome (list A) :=
  foldM (fun b (p : nat * A) => wr b (fst p) (snd p)) (combine (seq pos (length xs)) xs) buf.
Definition find_group (id : nat) (gs : list (nat * group)) : option group :=
  match find (fun p => fst p =? id) gs with Some p => Some (snd p) | None => None end.

(** SaveAndLoadFunctions::save, lines 87-170, for the type [k]. *)
Definition save_type (k : kind) (fs : list fobj) : outcome group :=
  let ft := ops_of k in
  let indexCounter := fold_left (fun c f => c + ft_indexSequenceSize ft f) fs 0 in
  let valueCounter := fold_left (fun c f => c + ft_valueSequenceSize ft f) fs 0 in
  st <- foldM (fun (st : (list nat * nat) * (list T * nat)) f =>
      let '((ib, ip), (vb, vp)) := st in
      ' (ix, vs) <- ft_serialize ft f ;;
      ib <- put ib ip ix ;; vb <- put vb vp vs ;;
      Ret ((ib, ip + ft_indexSequenceSize ft f), (vb, vp + ft_valueSequenceSize ft f))) fs ((repeat 0 indexCounter, 0), (repeat z valueCounter, 0)) ;;
  ix <- save_vector (fst (fst st)) ;; vs <- save_vector (fst (snd st)) ;; Ret (mkGroup ix vs).
(** The recursion over the type list, lines 172-174; createGroup (marray_hdf5.hxx 897-910) throws if the group exists. *)
Definition save_functions (l : list (kind * list fobj)) : outcome (list (nat * group)) :=
  foldM (fun gs (p : kind * list fobj) =>
    if length (snd p) =? 0 then Ret gs
    else match find_group (regId (fst p)) gs with
         | Some _ => Throw
         | None => g <- save_type (fst p) (snd p) ;; Ret (gs ++ [(regId (fst p), g)])
         end) l [].
(** The header, lines 373-394. *)
Definition header_of (types : list kind) (m : hgm) : list nat :=
  [2; 0; length (h_space m); length (h_factors m); length types] ++
  flat_map (fun p : kind * list fobj => [regId (fst p); length (snd p)]) (combine types (h_funs m)) ++ [valueTypeInfo].
(** The factors, lines 412-425. *)
Definition factor_data (m : hgm) (fc : hfactor) : outcome (list nat) :=
  vs <- h_variables m fc ;; Ret (hc_findex fc :: hc_ftype fc :: hc_size fc :: vs).
(** save, lines 327-427. *)
Definition h_save (types : list kind) (m : hgm) : outcome hfile :=
  header <- save_vector (header_of types m) ;;
  states <- save_vector (h_space m) ;;
  groups <- save_functions (combine types (h_funs m)) ;;
  data <- mapM (factor_data m) (h_factors m) ;;
  Ret (mkFile header states groups (match concat data with [] => None | d => Some d end)).

(** std::vector::resize. *)
Definition resize {A : Type} (l : list A) (n : nat) (d : A) : list A := firstn n l ++ repeat d (n - length l).
Fixpoint index_where {A : Type} (p : A -> bool) (l : list A) : option nat :=
  match l with [] => None | a :: l => if p a then Some 0 else option_map S (index_where p l) end.
(** SaveAndLoadFunctions::load, lines 177-284, for the type number [IX]. *)
Definition load_objects (k : kind) (g : group) (fs : list fobj) : outcome (list fobj) :=
  let ft := ops_of k in
  st <- foldM (fun (st : list fobj * nat * nat) f =>
      let '(done, ip, vp) := st in
      f <- ft_deserialize ft (skipn ip (gr_indices g)) (skipn vp (gr_values g)) f ;;
      Ret (done ++ [f], ip + ft_indexSequenceSize ft f, vp + ft_valueSequenceSize ft f)) fs ([], 0, 0) ;;
  Ret (fst (fst st)).
Definition load_type (types : list kind) (file : hfile) (numbers lookup : list nat) (use : list bool) (funs : list (list fobj)) (IX : nat) : outcome (list (list fobj)) :=
  u <- rd use IX ;;
  if u : bool then
    match index_where (Nat.eqb IX) lookup with
    | None => Throw
    | Some mappedIndex =>
        n <- rd numbers mappedIndex ;;
        if n =? 0 then Ret funs
        else
          k <- rd types IX ;;
          match find_group (regId k) (hf_groups file) with
          | None => Throw
          | Some g => fs <- rd funs IX ;; fs <- load_objects k g (resize fs n (default_of k)) ;; wr funs IX fs
          end
    end
  else Ret funs.
(** Matching the types in the file with those of the model, lines 463-464 and 484-505: the lookup table starts with zeros. *)
Definition match_types (types : list kind) (regs numbers : list nat) : outcome (list nat * list bool) :=
  foldM (fun (st : list nat * list bool) i =>
    r <- rd regs i ;; n <- rd numbers i ;;
    match index_where (fun k => r =? regId k) types with
    | Some j => lookup <- wr (fst st) i j ;; use <- wr (snd st) j true ;; Ret (lookup, use)
    | None => if n =? 0 then Ret st else Throw
    end) (seq 0 (length numbers)) (repeat 0 (length numbers), repeat false (length types)).
(** The factors, lines 516-551: factors, variable indices, order and position in the data. *)
Definition load_factor (lookup data : list nat) (st : list hfactor * list nat * nat * nat) (_ : nat) : outcome (list hfactor * list nat * nat * nat) :=
  let '(fcs, vis, order, s) := st in
  fi <- rd data s ;; t <- rd data (s + 1) ;; t <- rd lookup t ;; size <- rd data (s + 2) ;;
  vs <- mapM (fun j => rd data (s + 3 + j)) (seq 0 size) ;;
  Ret (fcs ++ [mkHf fi t (length vis) size], vis ++ vs, Nat.max order size, s + 3 + size).
(** load, lines 429-566, into the model [m].  The old file format (a header without the value type) is read the same way. *)
Definition h_load (types : list kind) (m : hgm) (file : hfile) : outcome hgm :=
  let h := hf_header file in
  if length h <=? 5 then Throw
  else
    major <- rd h 0 ;; minor <- rd h 1 ;;
    if negb (major =? 2) || negb (minor =? 0) then Throw
    else
      nfac <- rd h 3 ;; nt <- rd h 4 ;;
      regs <- mapM (fun i => rd h (5 + 2 * i)) (seq 0 nt) ;;
      numbers <- mapM (fun i => rd h (5 + 2 * i + 1)) (seq 0 nt) ;;
      if negb (length h =? 5 + 2 * nt + 1) && negb (length h =? 5 + 2 * nt) then Throw
      else
        ' (lookup, use) <- match_types types regs numbers ;;
        let space := hf_states file in
        funs <- foldM (load_type types file numbers lookup use) (seq 0 (length types)) (h_funs m) ;;
        ' (fcs, vis, order) <- (if nfac =? 0 then Ret ([], [], h_order m)
            else match hf_factors file with
                 | None => Throw
                 | Some data => st <- foldM (load_factor lookup data) (seq 0 nfac) ([], [], h_order m, 0) ;; Ret (fst st)
                 end) ;;
        let m' := mkHgm space funs (resize (h_adj m) (length space) []) fcs vis order in
        adj <- foldM (fun adj i => fc <- rd fcs i ;;
                 foldM (fun adj j => v <- h_variableIndex m' fc j ;; adj_insert adj v i) (seq 0 (hc_size fc)) adj) (seq 0 (length fcs)) (h_adj m') ;;
        Ret (mkHgm space funs adj fcs vis order).
End Hdf5.
Arguments OExplicit {T}. Arguments OSparse {T}. Arguments OFn1 {T}. Arguments OFn2 {T}. Arguments OPottsN {T}. Arguments OConstant {T}. Arguments OStatic {T}.
Arguments mkHgm {T}. Arguments h_space {T}. Arguments h_funs {T}. Arguments h_adj {T}. Arguments h_factors {T}. Arguments h_vis {T}. Arguments h_order {T}.
Arguments HVariable {T}. Arguments HFunction {T}. Arguments HFactor {T}. Arguments h_new {T}. Arguments hstep {T}. Arguments h_variables {T}.
Arguments h_variableIndex {T}. Arguments h_function {T}. Arguments mkGroup {T}. Arguments gr_indices {T}. Arguments gr_values {T}.
Arguments mkFile {T}. Arguments hf_header {T}. Arguments hf_states {T}. Arguments hf_groups {T}. Arguments hf_factors {T}.
