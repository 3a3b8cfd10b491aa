(** C28: FastSequence and BufferVector. *)
From Verif Require Import Base SequencesModel SequencesSpec SequencesProofs SequencesFast SequencesBuffer.

(** FastSequence without copy construction and assignment between sequences: every history that std::vector allows runs
    without any access outside the buffers, shows the contents std::vector would have, and frees what it allocates. *)
Theorem C28_fast_single : forall (A : Type) (MAX : nat) (ops : list (sop A)) w,
  0 < MAX -> vector_history A ops w -> Forall (no_copies A) ops ->
  exists st, foldM (fs_step A MAX) ops ([], []) = Ret st /\ shows A st w.
Proof.
  intros A MAX ops w HM H NC.
  assert (X : exists cs, fast_history A MAX ops w cs).
  { induction H as [|ops w p w' H IH V]; [eexists; constructor|]. apply Forall_app in NC. destruct NC as [NC1 NC2]. destruct (IH NC1) as [cs F]. eexists. eapply fh_snoc; eauto. inversion NC2; subst. destruct p; cbn in *; auto; contradiction. }
  destruct X as [cs F]. destruct (fast_run A MAX HM ops w cs F) as (st & sw & R & W & T). exists st. split; auto. eapply fast_shows; eauto.
Qed.
Print Assumptions C28_fast_single.

(** With them, as far as [fast_legal] allows.  Missing: copies of a sequence whose capacity exceeds what its size needs,
    and assignments that drop or free the wrong buffer; these are false of the code, see below. *)
Theorem C28_fast_partial : forall (A : Type) (MAX : nat) (ops : list (sop A)) w cs,
  0 < MAX -> fast_history A MAX ops w cs ->
  exists st, foldM (fs_step A MAX) ops ([], []) = Ret st /\ shows A st w.
Proof. intros A MAX ops w cs HM F. destruct (fast_run A MAX HM ops w cs F) as (st & sw & R & W & T). exists st. split; auto. eapply fast_shows; eauto. Qed.
Print Assumptions C28_fast_partial.

(** BufferVector, as far as [buf_legal] allows. *)
Theorem C28_buffer_partial : forall (A : Type) (ops : list (sop A)) w cs,
  buf_history A ops w cs ->
  exists st, foldM (bv_step A) ops ([], []) = Ret st /\ shows A st w.
Proof. intros A ops w cs F. destruct (buf_run A ops w cs F) as (st & sw & R & W & T). exists st. split; auto. eapply buf_shows; eauto. Qed.
Print Assumptions C28_buffer_partial.

(** *** A history that meets the hypotheses *)
Fixpoint v_run (A : Type) (ops : list (sop A)) (w : list (option (list (option A)))) : option (list (option (list (option A)))) :=
  match ops with [] => Some w | p :: ops => match v_step A w p with Some w => v_run A ops w | None => None end end.
Lemma vector_history_run : forall A ops0 w0 ops w, vector_history A ops0 w0 -> v_run A ops w0 = Some w -> vector_history A (ops0 ++ ops) w.
Proof.
  intros A ops0 w0 ops. revert ops0 w0. induction ops as [|p ops IH]; intros ops0 w0 w H R; cbn in R; [injection R as <-; rewrite app_nil_r; auto|]. destruct (v_step A w0 p) as [w1|] eqn:V; [|discriminate].
  replace (ops0 ++ p :: ops) with ((ops0 ++ [p]) ++ ops) by (rewrite <- app_assoc; auto). eapply IH; eauto. eapply vh_snoc; eauto.
Qed.
(** Six pushes leave the stack buffer of two elements twice; one sequence is destroyed. *)
Definition seq_ops : list (sop nat) :=
  [SDefault nat; SPush nat 0 1; SPush nat 0 2; SPush nat 0 3; SFilled nat 4 9; SPush nat 0 4; SPush nat 0 5; SResize nat 0 2; SResize nat 0 7; SSet nat 0 4 8; SRange nat 1 [6]; SClear nat 1; SPush nat 1 3; SSized nat 3; SDestroy nat 2].
Definition seq_end : list (option (list (option nat))) := [Some [Some 1; Some 2; None; None; Some 8; None; None]; Some [Some 3]; None].
Example C28_single_case : vector_history nat seq_ops seq_end /\ Forall (no_copies nat) seq_ops.
Proof. split; [|repeat constructor]. apply (vector_history_run nat [] [] seq_ops); [constructor|vm_compute; reflexivity]. Qed.

Fixpoint fast_chain (A : Type) MAX (ops : list (sop A)) w cs w' cs' : Prop :=
  match ops with [] => w = w' /\ cs = cs' | p :: ops => match v_step A w p with Some w1 => fast_legal A MAX w cs p /\ fast_chain A MAX ops w1 (fast_caps A MAX w cs p) w' cs' | None => False end end.
Lemma fast_chain_history : forall A MAX ops ops0 w cs w' cs', fast_history A MAX ops0 w cs -> fast_chain A MAX ops w cs w' cs' -> fast_history A MAX (ops0 ++ ops) w' cs'.
Proof.
  intros A MAX. induction ops as [|p ops IH]; intros ops0 w cs w' cs' H R; cbn in R; [destruct R as [<- <-]; rewrite app_nil_r; auto|]. destruct (v_step A w p) as [w1|] eqn:V; [|destruct R]. destruct R as [L R].
  replace (ops0 ++ p :: ops) with ((ops0 ++ [p]) ++ ops) by (rewrite <- app_assoc; auto). eapply IH; eauto. eapply fh_snoc; eauto.
Qed.
Fixpoint buf_chain (A : Type) (ops : list (sop A)) w cs w' cs' : Prop :=
  match ops with [] => w = w' /\ cs = cs' | p :: ops => match v_step A w p with Some w1 => buf_legal A w cs p /\ buf_chain A ops w1 (buf_caps A w cs p) w' cs' | None => False end end.
Lemma buf_chain_history : forall A ops ops0 w cs w' cs', buf_history A ops0 w cs -> buf_chain A ops w cs w' cs' -> buf_history A (ops0 ++ ops) w' cs'.
Proof.
  intros A. induction ops as [|p ops IH]; intros ops0 w cs w' cs' H R; cbn in R; [destruct R as [<- <-]; rewrite app_nil_r; auto|]. destruct (v_step A w p) as [w1|] eqn:V; [|destruct R]. destruct R as [L R].
  replace (ops0 ++ p :: ops) with ((ops0 ++ [p]) ++ ops) by (rewrite <- app_assoc; auto). eapply IH; eauto. eapply bh_snoc; eauto.
Qed.

(** Copies and assignments on both sides of the stack limit. *)
Example C28_fast_case : exists cs, fast_history nat 2 [SSized nat 3; SSet nat 0 2 7; SCopy nat 0; SDefault nat; SAssign nat 2 1; SFilled nat 4 5; SAssign nat 2 3; SDestroy nat 0]
  [None; Some [None; None; Some 7]; Some [Some 5; Some 5; Some 5; Some 5]; Some [Some 5; Some 5; Some 5; Some 5]] cs.
Proof. eexists. apply (fast_chain_history nat 2 _ [] [] []); [constructor|]. cbn. repeat split; auto; right; right; lia. Qed.
Example C28_buffer_case : exists cs, buf_history nat [SDefault nat; SPush nat 0 4; SCopy nat 0; SResize nat 1 3; SAssign nat 0 1; SClear nat 1; SDestroy nat 1] [Some [Some 4; None; None]; None] cs.
Proof. eexists. apply (buf_chain_history nat _ [] [] []); [constructor|]. cbn. repeat split; auto. Qed.

(** *** What is false of the code *)
Lemma hist : forall A ops w, v_run A ops [] = Some w -> vector_history A ops w.
Proof. intros A ops w R. apply (vector_history_run A [] [] ops w); [constructor|auto]. Qed.

(** FastSequence, the default stack capacity 5.  (1) A sequence that was shrunk is copied: destroying the copy frees its
    stack buffer.  (2) A sequence with spare capacity is copied: push_back on the copy writes behind its buffer.
    (3) A short sequence is assigned to a long one: the destructor frees the stack buffer.  (4) A long one is assigned to
    one that was shrunk: the old buffer is never freed. *)
Theorem C28_fast_refuted :
  (exists ops w, vector_history nat ops w /\ ops = [SSized nat 6; SResize nat 0 2; SCopy nat 0; SDestroy nat 1] /\ foldM (fs_step nat 5) ops ([], []) = Undef) /\
  (exists ops w, vector_history nat ops w /\ ops = [SSized nat 6; SPush nat 0 1; SCopy nat 0; SPush nat 1 2] /\ foldM (fs_step nat 5) ops ([], []) = Undef) /\
  (exists ops w, vector_history nat ops w /\ ops = [SSized nat 6; SDefault nat; SAssign nat 0 1; SDestroy nat 0] /\ foldM (fs_step nat 5) ops ([], []) = Undef) /\
  (exists ops st, vector_history nat ops [None; None] /\ ops = [SSized nat 6; SResize nat 0 2; SSized nat 7; SAssign nat 0 1; SDestroy nat 0; SDestroy nat 1] /\
     foldM (fs_step nat 5) ops ([], []) = Ret st /\ exists a b, nth_error (fst st) a = Some (Some b)).
Proof.
  repeat match goal with |- _ /\ _ => split end.
  - eexists; eexists. split; [apply hist|split; [reflexivity|]]; vm_compute; reflexivity.
  - eexists; eexists. split; [apply hist|split; [reflexivity|]]; vm_compute; reflexivity.
  - eexists; eexists. split; [apply hist|split; [reflexivity|]]; vm_compute; reflexivity.
  - eexists; eexists. split; [apply hist|split; [reflexivity|split]]; [vm_compute; reflexivity|vm_compute; reflexivity|]. exists 0; eexists. vm_compute. reflexivity.
Qed.
Print Assumptions C28_fast_refuted.

(** BufferVector.  (1) reserve changes the size.  (2) Assigning to BufferVector(0) frees an uninitialised pointer.
    (3) BufferVector(0, v) never frees its buffer.  (4) clear followed by a larger resize never frees the old one. *)
Theorem C28_buffer_refuted :
  (exists ops st o, vector_history nat ops [Some []] /\ ops = [SDefault nat; SReserve nat 0 4] /\ foldM (bv_step nat) ops ([], []) = Ret st /\ nth_error (snd st) 0 = Some (Some o) /\ q_size nat o = 4) /\
  (exists ops w, vector_history nat ops w /\ ops = [SSized nat 0; SSized nat 1; SAssign nat 0 1] /\ foldM (bv_step nat) ops ([], []) = Undef) /\
  (exists ops st, vector_history nat ops [None] /\ ops = [SFilled nat 0 1; SDestroy nat 0] /\ foldM (bv_step nat) ops ([], []) = Ret st /\ exists a b, nth_error (fst st) a = Some (Some b)) /\
  (exists ops st, vector_history nat ops [None] /\ ops = [SSized nat 1; SClear nat 0; SResize nat 0 2; SDestroy nat 0] /\ foldM (bv_step nat) ops ([], []) = Ret st /\ exists a b, nth_error (fst st) a = Some (Some b)).
Proof.
  repeat match goal with |- _ /\ _ => split end.
  - eexists; eexists; eexists. split; [apply hist|split; [reflexivity|split; [|split]]]; vm_compute; reflexivity.
  - eexists; eexists. split; [apply hist|split; [reflexivity|]]; vm_compute; reflexivity.
  - eexists; eexists. split; [apply hist|split; [reflexivity|split]]; [vm_compute; reflexivity|vm_compute; reflexivity|]. exists 0; eexists. vm_compute. reflexivity.
  - eexists; eexists. split; [apply hist|split; [reflexivity|split]]; [vm_compute; reflexivity|vm_compute; reflexivity|]. exists 0; eexists. vm_compute. reflexivity.
Qed.
Print Assumptions C28_buffer_refuted.
