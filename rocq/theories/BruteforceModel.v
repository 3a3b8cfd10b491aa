(** Bruteforce: include/opengm/inference/bruteforce.hxx.  Visitors are modelled by an oracle that says, for
    each call, whether inference stops; timing visitors and printing have no other effect. *)
From Verif Require Import Base Values GmView MovemakerModel.

Section Bruteforce.
Variable T : Type.
Variable OP : oper T.
Variable mult : bool.
Variable ACC : accum T.
Variable g : gmv T.

(** The members, lines 58-61. *)
Record bf : Type := mkBf { bf_mm : mm T; bf_states : list nat; bf_energy : T }.

(** Lines 63-73 (the other constructor, 84-95, leaves energy_ value-initialised; infer overwrites it). *)
Definition bf_new : outcome bf :=
  m <- mm_new T OP g ;; Ret (mkBf m (repeat 0 (length (v_labels g))) (a_neutral ACC)).

(** Lines 75-82. *)
Definition bf_reset (b : bf) : outcome bf :=
  m <- mm_reset T OP g (bf_mm b) ;; Ret (mkBf m (repeat 0 (length (bf_states b))) (a_neutral ACC)).

(** The next labeling, lines 125-135; [true]: overflow. *)
Fixpoint bf_next (j rem : nat) (states : list nat) : outcome (list nat * bool) :=
  match rem with
  | 0 => Ret (states, true)
  | S rem =>
      s <- rd states j ;; n <- rd (v_labels g) j ;;
      if S s <? n then
        states <- wr states j (S s) ;;
        states <- foldM (fun st k => wr st k 0) (seq 0 j) states ;;
        Ret (states, false)
      else bf_next (S j) rem states
  end.

(** The loop, lines 115-139.  The last component collects the labelings the visitor sees, in order. *)
Fixpoint bf_loop (fuel : nat) (stop : nat -> bool) (calls : nat) (b : bf) (states : list nat) (trace : list (list nat))
    : outcome (bf * list (list nat)) :=
  match fuel with
  | 0 => Diverge
  | S fuel =>
      ' (m, e) <- move T OP mult g (bf_mm b) (seq 0 (length (v_labels g))) states ;;
      let best := if a_bop ACC e (bf_energy b) then states else bf_states b in
      let b := mkBf m best (a_op ACC e (bf_energy b)) in
      let trace := trace ++ [states] in
      let exitInf := stop calls in
      ' (states, overflow) <- bf_next 0 (length (v_labels g)) states ;;
      if overflow || exitInf then Ret (b, trace)
      else bf_loop fuel stop (S calls) b states trace
  end.

(** Lines 97-142. *)
Definition bf_infer (fuel : nat) (stop : nat -> bool) (b : bf) : outcome (bf * list (list nat)) :=
  bf_loop fuel stop 0 (mkBf (bf_mm b) (bf_states b) (a_neutral ACC)) (repeat 0 (length (v_labels g))) [].

(** Lines 144-159 and 161-167. *)
Definition bf_arg (b : bf) : list nat := bf_states b.
Definition bf_value (b : bf) : T := bf_energy b.
End Bruteforce.
Arguments mkBf {T}. Arguments bf_mm {T}. Arguments bf_states {T}. Arguments bf_energy {T}. Arguments bf_arg {T}. Arguments bf_value {T}.
