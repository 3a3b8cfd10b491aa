(** FastSequence and BufferVector: include/opengm/datastructures/fast_sequence.hxx, buffer_vector.hxx.

    Memory is modelled: [heap] holds every block ever allocated with new[], [None] once it has been freed with
    delete[]; cells are [None] until they are written.  Accesses outside a block, through a pointer that is null or
    not initialised or to freed memory, and freeing anything but a live block or null, are undefined.  Simplified:
    copying a cell that was never written is allowed (T is a plain type); allocation does not fail; sizes are
    unbounded; a range passed to assign is not a part of the sequence itself. *)
From Verif Require Import Base.

Section Seq.
Variable A : Type.

Inductive ptr : Type := PNull | PUninit | PStack | PHeap (a : nat).
Notation cells := (list (option A)).
Notation heap := (list (option cells)).
(** The data members: fast_sequence.hxx 56-59; buffer_vector.hxx 56-58 (where [q_stack] is not used). *)
Record sq : Type := mkSq { q_size : nat; q_cap : nat; q_stack : cells; q_ptr : ptr }.

(** new T[n] *)
Definition new_block (h : heap) (n : nat) : heap * nat := (h ++ [Some (repeat None n)], length h).
(** delete[] p *)
Definition delete_block (h : heap) (p : ptr) : outcome heap :=
  match p with
  | PNull => Ret h
  | PHeap a => b <- rd h a ;; match b with Some _ => Ret (upd h a None) | None => Undef end
  | _ => Undef
  end.
(** pointerToSequence_[k], data_[k] *)
Definition ld (h : heap) (o : sq) (k : nat) : outcome (option A) :=
  match q_ptr o with
  | PStack => rd (q_stack o) k
  | PHeap a => b <- rd h a ;; match b with Some blk => rd blk k | None => Undef end
  | _ => Undef
  end.
(** p[k] = c for the pointer of [o] *)
Definition stc (h : heap) (o : sq) (k : nat) (c : option A) : outcome (heap * sq) :=
  match q_ptr o with
  | PStack => s <- wr (q_stack o) k c ;; Ret (h, mkSq (q_size o) (q_cap o) s (q_ptr o))
  | PHeap a => b <- rd h a ;; match b with Some blk => blk <- wr blk k c ;; Ret (upd h a (Some blk), o) | None => Undef end
  | _ => Undef
  end.
(** std::copy of [n] elements from [src] to a new block [a]. *)
Definition copy_to (h : heap) (src : sq) (n a : nat) : outcome heap :=
  foldM (fun h k => c <- ld h src k ;; p <- stc h (mkSq 0 0 [] (PHeap a)) k c ;; Ret (fst p)) (seq 0 n) h.
(** std::copy of [n] elements from [src] into [o]. *)
Definition copy_in (h : heap) (src o : sq) (n : nat) : outcome (heap * sq) :=
  foldM (fun (p : heap * sq) k => c <- ld (fst p) src k ;; stc (fst p) (snd p) k c) (seq 0 n) (h, o).
(** std::copy of a range of values into [o]; std::fill. *)
Definition put_range (h : heap) (o : sq) (l : list A) : outcome (heap * sq) :=
  foldM (fun (p : heap * sq) (kv : nat * A) => stc (fst p) (snd p) (fst kv) (Some (snd kv))) (combine (seq 0 (length l)) l) (h, o).

(** Both classes: size() (178-183; 157-162), operator[] for reading and writing (218-238; 198-219); reading a cell that
    was never written is undefined.  front (362-373; 344-355) and back (348-359; 330-341) are [at_] at 0 and size_-1. *)
Definition at_ (h : heap) (o : sq) (k : nat) : outcome A :=
  c <- ld h o k ;; match c with Some v => Ret v | None => Undef end.
Definition set_ (h : heap) (o : sq) (k : nat) (v : A) : outcome (heap * sq) := stc h o k (Some v).

(** *** FastSequence *)
Section Fast.
Variable MAX : nat.

(** Lines 63-69. *)
Definition fs_default (h : heap) : outcome (heap * sq) := Ret (h, mkSq 0 MAX (repeat None MAX) PStack).
(** Lines 73-88. *)
Definition fs_sized (h : heap) (n : nat) : outcome (heap * sq) :=
  let cap := if MAX <? n then n else MAX in
  if MAX <? n then let '(h, a) := new_block h n in Ret (h, mkSq n cap (repeat None MAX) (PHeap a))
  else Ret (h, mkSq n cap (repeat None MAX) PStack).
(** Lines 93-110. *)
Definition fs_filled (h : heap) (n : nat) (v : A) : outcome (heap * sq) :=
  ' (h, o) <- fs_sized h n ;; put_range h o (repeat v n).
(** Lines 114-131. *)
Definition fs_copy (h : heap) (other : sq) : outcome (heap * sq) :=
  let '(h, p) := if MAX <? q_size other then let '(h, a) := new_block h (q_size other) in (h, PHeap a) else (h, PStack) in
  copy_in h other (mkSq (q_size other) (q_cap other) (repeat None MAX) p) (q_size other).
(** Lines 134-140. *)
Definition fs_destroy (h : heap) (o : sq) : outcome heap :=
  if MAX <? q_cap o then delete_block h (q_ptr o) else Ret h.
(** Lines 144-175, for two different objects. *)
Definition fs_assign (h : heap) (o other : sq) : outcome (heap * sq) :=
  if MAX <? q_size other then
    h <- (if MAX <? q_size o then delete_block h (q_ptr o) else Ret h) ;;
    let '(h, a) := new_block h (q_size other) in
    copy_in h other (mkSq (q_size other) (q_size other) (q_stack o) (PHeap a)) (q_size other)
  else copy_in h other (mkSq (q_size other) (q_cap o) (q_stack o) PStack) (q_size other).
(** The reallocation of lines 250-257, 275-282 and 299-306. *)
Definition fs_grow (h : heap) (o : sq) (n : nat) : outcome (heap * sq) :=
  let '(h, a) := new_block h n in
  h <- copy_to h o (q_size o) a ;;
  h <- (if MAX <? q_cap o then delete_block h (q_ptr o) else Ret h) ;;
  Ret (h, mkSq (q_size o) n (q_stack o) (PHeap a)).
(** Lines 242-263. *)
Definition fs_push (h : heap) (o : sq) (v : A) : outcome (heap * sq) :=
  ' (h, o) <- (if q_cap o =? q_size o then fs_grow h o (q_cap o * 2) else Ret (h, o)) ;;
  ' (h, o) <- stc h o (q_size o) (Some v) ;;
  Ret (h, mkSq (S (q_size o)) (q_cap o) (q_stack o) (q_ptr o)).
(** Lines 291-311. *)
Definition fs_reserve (h : heap) (o : sq) (n : nat) : outcome (heap * sq) :=
  if q_cap o <? n then fs_grow h o n else Ret (h, o).
(** Lines 267-287. *)
Definition fs_resize (h : heap) (o : sq) (n : nat) : outcome (heap * sq) :=
  ' (h, o) <- fs_reserve h o n ;; Ret (h, mkSq n (q_cap o) (q_stack o) (q_ptr o)).
(** Lines 314-327. *)
Definition fs_clear (h : heap) (o : sq) : outcome (heap * sq) :=
  h <- (if MAX <? q_cap o then delete_block h (q_ptr o) else Ret h) ;;
  Ret (h, mkSq 0 MAX (q_stack o) PStack).
(** Lines 339-345. *)
Definition fs_range (h : heap) (o : sq) (l : list A) : outcome (heap * sq) :=
  ' (h, o) <- fs_resize h o (length l) ;; put_range h o l.
End Fast.

(** *** BufferVector *)
(** Lines 61-66. *)
Definition bv_default (h : heap) : outcome (heap * sq) := Ret (h, mkSq 0 0 [] PNull).
(** Lines 70-80. *)
Definition bv_sized (h : heap) (n : nat) : outcome (heap * sq) :=
  if n =? 0 then Ret (h, mkSq 0 0 [] PUninit)
  else let '(h, a) := new_block h n in Ret (h, mkSq n n [] (PHeap a)).
(** Lines 85-95. *)
Definition bv_filled (h : heap) (n : nat) (v : A) : outcome (heap * sq) :=
  let '(h, a) := new_block h n in put_range h (mkSq n n [] (PHeap a)) (repeat v n).
(** Lines 99-112. *)
Definition bv_copy (h : heap) (other : sq) : outcome (heap * sq) :=
  if q_size other =? 0 then Ret (h, mkSq 0 0 [] PUninit)
  else let '(h, a) := new_block h (q_size other) in copy_in h other (mkSq (q_size other) (q_size other) [] (PHeap a)) (q_size other).
(** Lines 128-135. *)
Definition bv_destroy (h : heap) (o : sq) : outcome heap := if q_cap o =? 0 then Ret h else delete_block h (q_ptr o).
(** Lines 138-154, for two different objects. *)
Definition bv_assign (h : heap) (o other : sq) : outcome (heap * sq) :=
  ' (h, o) <- (if q_cap o <? q_size other then
                 h <- delete_block h (q_ptr o) ;;
                 let '(h, a) := new_block h (q_size other) in Ret (h, mkSq (q_size other) (q_size other) [] (PHeap a))
               else Ret (h, mkSq (q_size other) (q_cap o) [] (q_ptr o))) ;;
  copy_in h other o (q_size other).
(** The reallocation of lines 230-243, 258-270 and 284-297. *)
Definition bv_grow (h : heap) (o : sq) (n : nat) : outcome (heap * sq) :=
  let '(h, a) := new_block h n in
  h <- (if q_size o =? 0 then Ret h else h <- copy_to h o (q_size o) a ;; delete_block h (q_ptr o)) ;;
  Ret (h, mkSq (q_size o) n [] (PHeap a)).
(** Lines 223-247. *)
Definition bv_push (h : heap) (o : sq) (v : A) : outcome (heap * sq) :=
  ' (h, o) <- (if q_cap o =? q_size o then bv_grow h o (if q_size o =? 0 then 2 else q_cap o * 2) else Ret (h, o)) ;;
  ' (h, o) <- stc h o (q_size o) (Some v) ;;
  Ret (h, mkSq (S (q_size o)) (q_cap o) (q_stack o) (q_ptr o)).
(** Lines 251-273. *)
Definition bv_resize (h : heap) (o : sq) (n : nat) : outcome (heap * sq) :=
  ' (h, o) <- (if q_cap o <? n then bv_grow h o n else Ret (h, o)) ;; Ret (h, mkSq n (q_cap o) (q_stack o) (q_ptr o)).
(** Lines 277-299: where memory is allocated, the size changes too. *)
Definition bv_reserve (h : heap) (o : sq) (n : nat) : outcome (heap * sq) :=
  if q_cap o <? n then ' (h, o) <- bv_grow h o n ;; Ret (h, mkSq n (q_cap o) (q_stack o) (q_ptr o)) else Ret (h, o).
(** Lines 304-309. *)
Definition bv_clear (h : heap) (o : sq) : outcome (heap * sq) := Ret (h, mkSq 0 (q_cap o) (q_stack o) (q_ptr o)).
(** Lines 321-327. *)
Definition bv_range (h : heap) (o : sq) (l : list A) : outcome (heap * sq) :=
  ' (h, o) <- bv_resize h o (length l) ;; put_range h o l.

(** *** Histories of several sequences *)
Inductive sop : Type :=
| SDefault | SSized (n : nat) | SFilled (n : nat) (v : A) | SCopy (i : nat)
| SAssign (i j : nat) | SRange (i : nat) (l : list A) | SPush (i : nat) (v : A) | SResize (i n : nat) | SReserve (i n : nat)
| SClear (i : nat) | SSet (i k : nat) (v : A) | SDestroy (i : nat).
(** Objects are numbered in the order of construction; [None] after destruction. *)
Notation world := (heap * list (option sq))%type.
Definition obj (w : world) (i : nat) : outcome sq := o <- rd (snd w) i ;; match o with Some o => Ret o | None => Undef end.
Definition make (w : world) (f : heap -> outcome (heap * sq)) : outcome world :=
  ' (h, o) <- f (fst w) ;; Ret (h, snd w ++ [Some o]).
Definition change (w : world) (i : nat) (f : heap -> sq -> outcome (heap * sq)) : outcome world :=
  o <- obj w i ;; ' (h, o) <- f (fst w) o ;; Ret (h, upd (snd w) i (Some o)).
Definition finish (w : world) (i : nat) (f : heap -> sq -> outcome heap) : outcome world :=
  o <- obj w i ;; h <- f (fst w) o ;; Ret (h, upd (snd w) i None).
Definition fs_step (MAX : nat) (w : world) (p : sop) : outcome world :=
  match p with
  | SDefault => make w (fs_default MAX)
  | SSized n => make w (fun h => fs_sized MAX h n)
  | SFilled n v => make w (fun h => fs_filled MAX h n v)
  | SCopy i => o <- obj w i ;; make w (fun h => fs_copy MAX h o)
  | SAssign i j => other <- obj w j ;; change w i (fun h o => if i =? j then Ret (h, o) else fs_assign MAX h o other)
  | SRange i l => change w i (fun h o => fs_range MAX h o l)
  | SPush i v => change w i (fun h o => fs_push MAX h o v)
  | SResize i n => change w i (fun h o => fs_resize MAX h o n)
  | SReserve i n => change w i (fun h o => fs_reserve MAX h o n)
  | SClear i => change w i (fs_clear MAX)
  | SSet i k v => change w i (fun h o => set_ h o k v)
  | SDestroy i => finish w i (fs_destroy MAX)
  end.
Definition bv_step (w : world) (p : sop) : outcome world :=
  match p with
  | SDefault => make w bv_default
  | SSized n => make w (fun h => bv_sized h n)
  | SFilled n v => make w (fun h => bv_filled h n v)
  | SCopy i => o <- obj w i ;; make w (fun h => bv_copy h o)
  | SAssign i j => other <- obj w j ;; change w i (fun h o => if i =? j then Ret (h, o) else bv_assign h o other)
  | SRange i l => change w i (fun h o => bv_range h o l)
  | SPush i v => change w i (fun h o => bv_push h o v)
  | SResize i n => change w i (fun h o => bv_resize h o n)
  | SReserve i n => change w i (fun h o => bv_reserve h o n)
  | SClear i => change w i bv_clear
  | SSet i k v => change w i (fun h o => set_ h o k v)
  | SDestroy i => finish w i bv_destroy
  end.
End Seq.
