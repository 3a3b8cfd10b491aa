(** Function views: include/opengm/functions/{view,view_fix_variables_function,scaled_view,modelviewfunction,
    view_convert_function}.hxx.

    The viewed factor is a record of its extents and its values; reading it at a sequence of the wrong length is
    undefined.  Simplified: ValueToProbability (exp and division of view_convert_function.hxx 14-60) is a parameter;
    null factor pointers of default constructed views are the outcome Undef. *)
From Verif Require Import Base Values ShapeSpec.

(** view_fix_variables_function.hxx 9-15, PositionAndLabel. *)
Notation pal := (nat * nat)%type.

Section Views.
Variable T : Type.

(** What a view reads of a factor (graphicalmodel_factor.hxx): numberOfLabels(i), numberOfVariables(), size() and
    operator(). *)
Record facv : Type := mkFacv { fa_shape : list nat; fa_value : list nat -> T }.
Definition fa_call (f : facv) (x : list nat) : outcome T :=
  if length x =? length (fa_shape f) then Ret (fa_value f x) else Undef.
(** graphicalmodel_factor.hxx size(); see GmModel.fc_sizeof and C11. *)
Definition fa_size (f : facv) : nat := size_of (fa_shape f).

(** view.hxx 50-80: every query is forwarded. *)
Definition view_value (f : facv) (x : list nat) : outcome T := fa_call f x.
Definition view_shape (f : facv) (i : nat) : outcome nat := rd (fa_shape f) i.
Definition view_dimension (f : facv) : nat := length (fa_shape f).
Definition view_size (f : facv) : nat := fa_size f.

(** Lines 89-97 and 124-132 (constructors) and 161-168 (shape): how many positions to skip. *)
Definition vf_skip (pl : list pal) (ind : nat) : nat :=
  fold_left (fun add p => if fst p <=? ind + add then S add else add) pl 0.

(** The members, lines 43-48. *)
Record viewfix : Type := mkVf { vf_factor : facv; vf_pal : list pal; vf_buf : list nat; vf_sz : option nat; vf_lookUp : list nat }.

(** Lines 70-98 and 104-133.  The length numberOfVariables() - positionAndLabels.size() of lookUp_ wraps below zero;
    the allocation then fails with an exception. *)
Definition vf_new (f : facv) (pl : list pal) : outcome viewfix :=
  if length (fa_shape f) <? length pl then Throw
  else Ret (mkVf f pl (repeat 0 (length (fa_shape f))) None
              (map (fun ind => ind + vf_skip pl ind) (seq 0 (length (fa_shape f) - length pl)))).

(** Lines 135-153; iteratorBuffer_ is mutable. *)
Definition vf_call (v : viewfix) (x : list nat) : outcome (viewfix * T) :=
  buf <- foldM (fun b ind => i <- rd (vf_lookUp v) ind ;; l <- rd x ind ;; wr b i l) (seq 0 (length (vf_lookUp v))) (vf_buf v) ;;
  buf <- foldM (fun b p => wr b (fst p) (snd p)) (vf_pal v) buf ;;
  r <- fa_call (vf_factor v) buf ;;
  Ret (mkVf (vf_factor v) (vf_pal v) buf (vf_sz v) (vf_lookUp v), r).

(** Lines 155-171. *)
Definition vf_shape (v : viewfix) (i : nat) : outcome nat := rd (fa_shape (vf_factor v)) (i + vf_skip (vf_pal v) i).
(** Lines 173-179. *)
Definition vf_dimension (v : viewfix) : nat := length (fa_shape (vf_factor v)) - length (vf_pal v).
(** Lines 181-194; division by zero is undefined. *)
Definition vf_size (v : viewfix) : outcome (viewfix * nat) :=
  match vf_sz v with
  | Some s => Ret (v, s)
  | None =>
      s <- foldM (fun s p => n <- rd (fa_shape (vf_factor v)) (fst p) ;; if n =? 0 then Undef else Ret (s / n))
             (vf_pal v) (fa_size (vf_factor v)) ;;
      Ret (mkVf (vf_factor v) (vf_pal v) (vf_buf v) (Some s) (vf_lookUp v), s)
  end.

(** scaled_view.hxx 30-35; no factor stands for gm_ == NULL. *)
Variable mul : T -> T -> T.
Variable neutral : T.
Record scaledview : Type := mkSv { sv_factor : option facv; sv_scale : T; sv_shape : list nat; sv_size : nat }.
(** Lines 42-60. *)
Definition sv_new (f : facv) (scale : T) : scaledview :=
  mkSv (Some f) scale (map (fun i => nth i (fa_shape f) 0) (seq 0 (length (fa_shape f))))
    (fold_left (fun s i => s * nth i (fa_shape f) 0) (seq 0 (length (fa_shape f))) 1).
(** Lines 63-79. *)
Definition sv_new_shape (scale : T) (shape : list nat) : scaledview :=
  mkSv None scale shape (fold_left (fun s i => s * nth i shape 0) (seq 0 (length shape)) 1).
(** Lines 88-103. *)
Definition sv_call (v : scaledview) (x : list nat) : outcome T :=
  match sv_factor v with None => Ret neutral | Some f => r <- fa_call f x ;; Ret (mul (sv_scale v) r) end.

(** modelviewfunction.hxx 39-52: VIEWOFFSET, VIEW, OFFSET. *)
Variable add : T -> T -> T.
Inductive modelview : Type := MvViewOffset (f : facv) (scale : T) (o : facv) | MvView (f : facv) (scale : T) | MvOffset (o : facv).
(** Lines 113-131. *)
Definition mv_call (v : modelview) (x : list nat) : outcome T :=
  match v with
  | MvViewOffset f s o => a <- fa_call f x ;; b <- fa_call o x ;; Ret (add (mul s a) b)
  | MvView f s => a <- fa_call f x ;; Ret (mul s a)
  | MvOffset o => fa_call o x
  end.
(** Lines 133-184: shape, size and dimension. *)
Definition mv_array (v : modelview) : facv := match v with MvViewOffset _ _ o => o | MvView f _ => f | MvOffset o => o end.

(** view_convert_function.hxx 117-148. *)
Variable S : Type.
Variable convert : T -> S -> S.
Definition vc_call (f : facv) (invT : S) (x : list nat) : outcome S := r <- fa_call f x ;; Ret (convert r invT).
End Views.
Arguments mkFacv {T}. Arguments fa_shape {T}. Arguments fa_value {T}. Arguments fa_call {T}. Arguments fa_size {T}.
Arguments vf_new {T}. Arguments vf_call {T}. Arguments vf_shape {T}. Arguments vf_dimension {T}. Arguments vf_size {T}.
Arguments vf_factor {T}. Arguments vf_pal {T}. Arguments vf_buf {T}. Arguments vf_sz {T}. Arguments vf_lookUp {T}. Arguments mkVf {T}.
