(** Common vocabulary of the model: C++ outcomes, vectors, small list facts. *)
From Coq Require Export List Arith ZArith Lia Bool.
Export ListNotations.

(** What a C++ call can do: return, throw an exception, run into undefined
    behaviour (out-of-bounds access, bad pointer, ...), or exhaust the loop budget of the
    model (no theorem ever relies on that outcome being anything but "did not finish"). *)
Inductive outcome (A : Type) : Type :=
| Ret (a : A)
| Throw
| Undef
| Diverge.
Arguments Ret {A} a.
Arguments Throw {A}.
Arguments Undef {A}.
Arguments Diverge {A}.

Definition bind {A B : Type} (m : outcome A) (k : A -> outcome B) : outcome B :=
  match m with
  | Ret a => k a
  | Throw => Throw
  | Undef => Undef
  | Diverge => Diverge
  end.

Declare Scope outcome_scope.
Delimit Scope outcome_scope with outcome.
Notation "x <- m ;; k" := (bind m (fun x => k))
  (at level 61, m at next level, right associativity) : outcome_scope.
Notation "' p <- m ;; k" := (bind m (fun p => k))
  (at level 61, p pattern, m at next level, right associativity) : outcome_scope.
Open Scope outcome_scope.

(** [v[i]] on a std::vector / raw array: out of bounds is undefined behaviour. *)
Definition rd {A : Type} (l : list A) (i : nat) : outcome A :=
  match nth_error l i with
  | Some a => Ret a
  | None => Undef
  end.

Fixpoint upd {A : Type} (l : list A) (i : nat) (v : A) : list A :=
  match l, i with
  | [], _ => []
  | _ :: t, 0 => v :: t
  | h :: t, S j => h :: upd t j v
  end.

(** [v[i] = x]. *)
Definition wr {A : Type} (l : list A) (i : nat) (v : A) : outcome (list A) :=
  if i <? length l then Ret (upd l i v) else Undef.

(** Monadic left fold: a C++ [for] loop over a sequence. *)
Fixpoint foldM {A S : Type} (f : S -> A -> outcome S) (l : list A) (s : S) : outcome S :=
  match l with
  | [] => Ret s
  | a :: t => bind (f s a) (fun s' => foldM f t s')
  end.

Fixpoint mapM {A B : Type} (f : A -> outcome B) (l : list A) : outcome (list B) :=
  match l with
  | [] => Ret []
  | a :: t => bind (f a) (fun b => bind (mapM f t) (fun bs => Ret (b :: bs)))
  end.

(** * Facts *)

Lemma bind_Ret : forall A B (a : A) (k : A -> outcome B), bind (Ret a) k = k a.
Proof. reflexivity. Qed.

Lemma bind_inv : forall A B (m : outcome A) (k : A -> outcome B) b,
  bind m k = Ret b -> exists a, m = Ret a /\ k a = Ret b.
Proof. intros A B m k b H. destruct m; simpl in H; try discriminate. eauto. Qed.

Lemma bind_assoc : forall A B C (m : outcome A) (f : A -> outcome B) (g : B -> outcome C),
  bind (bind m f) g = bind m (fun a => bind (f a) g).
Proof. intros. destruct m; reflexivity. Qed.

Lemma length_upd : forall A (l : list A) i v, length (upd l i v) = length l.
Proof. induction l as [|h t IH]; intros [|i] v; simpl; auto. Qed.

Lemma nth_error_upd_eq : forall A (l : list A) i v,
  i < length l -> nth_error (upd l i v) i = Some v.
Proof.
  induction l as [|h t IH]; intros [|i] v H; simpl in *; try lia; auto.
  apply IH; lia.
Qed.

Lemma nth_error_upd_neq : forall A (l : list A) i j v,
  i <> j -> nth_error (upd l i v) j = nth_error l j.
Proof.
  induction l as [|h t IH]; intros [|i] [|j] v H; simpl; auto; try lia.
Qed.

Lemma nth_error_upd : forall A (l : list A) i j v,
  i < length l ->
  nth_error (upd l i v) j = if Nat.eq_dec i j then Some v else nth_error l j.
Proof.
  intros A l i j v H. destruct (Nat.eq_dec i j) as [->|N].
  - apply nth_error_upd_eq; auto.
  - apply nth_error_upd_neq; auto.
Qed.

Lemma nth_upd_eq : forall A (l : list A) i v d, i < length l -> nth i (upd l i v) d = v.
Proof.
  induction l as [|h t IH]; intros [|i] v d H; simpl in *; try lia; auto. apply IH; lia.
Qed.

Lemma nth_upd_neq : forall A (l : list A) i j v d, i <> j -> nth j (upd l i v) d = nth j l d.
Proof. induction l as [|h t IH]; intros [|i] [|j] v d H; simpl; auto; try lia. Qed.

Lemma upd_same : forall A (l : list A) i v, nth_error l i = Some v -> upd l i v = l.
Proof.
  induction l as [|h t IH]; intros [|i] v H; simpl in *; try discriminate.
  - congruence.
  - f_equal; auto.
Qed.

Lemma upd_upd_eq : forall A (l : list A) i v w, upd (upd l i v) i w = upd l i w.
Proof. induction l as [|h t IH]; intros [|i] v w; simpl; auto. f_equal; auto. Qed.

Lemma rd_Ret : forall A (l : list A) i a, nth_error l i = Some a -> rd l i = Ret a.
Proof. intros A l i a H. unfold rd. rewrite H. reflexivity. Qed.

Lemma rd_inv : forall A (l : list A) i a, rd l i = Ret a -> nth_error l i = Some a.
Proof. intros A l i a. unfold rd. destruct (nth_error l i); congruence. Qed.

Lemma rd_nth : forall A (l : list A) i d, i < length l -> rd l i = Ret (nth i l d).
Proof.
  intros A l i d H. apply rd_Ret. apply nth_error_nth'. exact H.
Qed.

Lemma wr_Ret : forall A (l : list A) i v, i < length l -> wr l i v = Ret (upd l i v).
Proof. intros A l i v H. unfold wr. apply Nat.ltb_lt in H. rewrite H. reflexivity. Qed.

Lemma wr_inv : forall A (l l' : list A) i v,
  wr l i v = Ret l' -> i < length l /\ l' = upd l i v.
Proof.
  intros A l l' i v. unfold wr. destruct (Nat.ltb_spec i (length l)); [|discriminate].
  intro H0. inversion H0. auto.
Qed.

Lemma nth_error_lt : forall A (l : list A) i, i < length l -> exists a, nth_error l i = Some a.
Proof.
  intros A l i H. destruct (nth_error l i) eqn:E; [eauto|].
  apply nth_error_None in E. lia.
Qed.

Lemma foldM_app : forall A S (f : S -> A -> outcome S) l1 l2 s,
  foldM f (l1 ++ l2) s = bind (foldM f l1 s) (foldM f l2).
Proof.
  induction l1 as [|a l1 IH]; intros l2 s; simpl; auto.
  destruct (f s a); simpl; auto.
Qed.

Lemma mapM_Ret : forall A B (f : A -> outcome B) (g : A -> B) l,
  (forall a, In a l -> f a = Ret (g a)) -> mapM f l = Ret (map g l).
Proof.
  induction l as [|a l IH]; intros H; simpl; auto.
  rewrite H by (left; auto). simpl. rewrite IH by (intros; apply H; right; auto). reflexivity.
Qed.

Lemma In_nth_error_iff : forall A (l : list A) x, In x l <-> exists i, nth_error l i = Some x.
Proof.
  intros. split.
  - apply In_nth_error.
  - intros [i Hi]. eapply nth_error_In; eauto.
Qed.

Lemma NoDup_bounded_length : forall (l : list nat) n,
  NoDup l -> (forall x, In x l -> x < n) -> length l <= n.
Proof.
  intros l n Hnd Hlt.
  rewrite <- (seq_length n 0).
  apply NoDup_incl_length; auto.
  intros x Hx. apply in_seq. specialize (Hlt x Hx). lia.
Qed.

Lemma NoDup_app_intro : forall A (l1 l2 : list A), NoDup l1 -> NoDup l2 ->
  (forall x, In x l1 -> In x l2 -> False) -> NoDup (l1 ++ l2).
Proof.
  intros A l1 l2 H1 H2 H3. induction H1 as [|a l1 Ha H1 IH]; simpl; auto.
  constructor.
  - rewrite in_app_iff. intros [H|H]; auto. apply (H3 a); simpl; auto.
  - apply IH. intros x Hx. apply H3. simpl; auto.
Qed.

Lemma NoDup_same_length : forall (A : Type) (l1 l2 : list A), NoDup l1 -> NoDup l2 ->
  (forall x, In x l1 <-> In x l2) -> length l1 = length l2.
Proof.
  intros A l1 l2 N1 N2 H. apply Nat.le_antisymm; apply NoDup_incl_length; auto; intros x Hx; apply H; auto.
Qed.

Lemma NoDup_map_in : forall (A B : Type) (f : A -> B) l, NoDup l ->
  (forall x y, In x l -> In y l -> f x = f y -> x = y) -> NoDup (map f l).
Proof.
  intros A B f l. induction l as [|a l IH]; intros ND Hinj; cbn [map]; [constructor|].
  inversion ND; subst. constructor.
  - intro Hin. apply in_map_iff in Hin. destruct Hin as [y [E Hy]].
    assert (y = a) by (apply Hinj; simpl; auto). subst. contradiction.
  - apply IH; auto. intros x y Hx Hy. apply Hinj; simpl; auto.
Qed.

Lemma skipn_split : forall A (l : list A) n, n < length l -> exists w, skipn n l = w :: skipn (S n) l.
Proof.
  induction l as [|z l IH]; intros [|n] H; try (cbn in H; lia).
  - exists z. reflexivity.
  - destruct (IH n) as [w E]; [cbn in H; lia|]. exists w. exact E.
Qed.
