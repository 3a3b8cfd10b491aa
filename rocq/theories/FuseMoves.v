(** Fusion moves never make the labeling worse. *)
From Coq Require Import QArith Qcanon Sorting.Sorted Permutation.
From Verif Require Import Base Values GmView GmViewSpec ShapeSpec DualDecompModel HoeModel HoeSpec HoeProofs HoeElim HoeReduce HoeProps FuseModel FuseProofs FuseSpec HqpboModel.
Open Scope nat_scope.

Lemma total_qsum (g : gmv Qc) x : menergy g x = clique_energy (v_factors g) x.
Proof.
  unfold menergy, total, clique_energy. cbn [AdderQ o_op o_neutral].
  assert (G : forall l acc, fold_left (fun acc (fc : list nat * (list nat -> Qc)) => (snd fc (at_vars x (fst fc)) + acc)%Qc) l acc = (acc + qsum (map (fun c => snd c (at_vars x (fst c))) l))%Qc).
  { induction l as [|c l IH]; intros acc; cbn [fold_left map qsum]; [qring|]. rewrite IH. qring. }
  rewrite G. qring.
Qed.

(** *** What the energy object stands for *)
Definition represents (D n : nat) (h : hoe) (e : (nat -> bool) -> Qc) : Prop := wf_hoe D h /\ n <= length (h_recs h) /\ min_over n (sem h) e.
Lemma represents_step D n h e : represents D n h e -> exists h' q, ToQuadratic D h quad_new = Ret (h', q) /\ represents D n h' e /\ q_closed q /\ n <= q_nodes q /\ min_over n (q_value q) e.
Proof.
  intros (W & L & M). destruct (to_quadratic_ok D h W) as (h' & q & E & W' & _ & LL & C & M1 & M2). exists h', q. split; [exact E|].
  assert (M3 : min_over n (sem h') e) by exact (min_over_trans _ _ _ _ _ L M1 M).
  split; [split; [exact W'|]; split; [lia|exact M3]|]. split; [exact C|]. split; [lia|]. refine (min_over_trans _ _ _ _ _ _ M2 M3). lia.
Qed.
Lemma persist_transfer n e' e ps : min_over n e' e -> (forall x y, (forall v, v < n -> y v = x v) -> e y = e x) -> persistent e' ps -> persistent e ps.
Proof.
  intros [A B] X P x. destruct (B x) as (z & Zx & Z). specialize (P z). specialize (A (patch ps z)). rewrite Z in P.
  replace (e (patch ps x)) with (e (patch ps z)); [qlra|]. apply X. intros v Hv. unfold patch. destruct (ps v); [reflexivity|]. apply Zx. exact Hv.
Qed.

Lemma poly_false cs : poly cs (fun _ => false) = poly_const cs.
Proof. unfold poly, poly_const. f_equal. apply map_ext. intros [m|c [|v vs]|v c|]; reflexivity. Qed.

Section Setup.
Variables (D n : nat) (eval : clique -> list nat -> outcome Qc) (lab0 lab1 : nat -> outcome nat) (A B : nat -> nat) (cliques : list clique).
Hypothesis L0 : forall v, v < n -> lab0 v = Ret (A v).
Hypothesis L1 : forall v, v < n -> lab1 v = Ret (B v).
Hypothesis OK : cliques_ok D n cliques.
Hypothesis EV : forall c l, In c cliques -> Forall2 (fun v a => a = A v \/ a = B v) (fst c) l -> eval c l = Ret (snd c l).

Definition fenergy (x : nat -> bool) : Qc := (qsum (map (fun c => snd c (map (mix A B x) (fst c))) cliques) - qsum (map (fun c => snd c (map A (fst c))) cliques))%Qc.
Lemma fenergy_ext x y : (forall v, v < n -> y v = x v) -> fenergy y = fenergy x.
Proof.
  intros H. unfold fenergy. f_equal. f_equal. apply map_ext_in. intros c Hc. f_equal. apply map_ext_in. intros v Hv. unfold mix. rewrite H; [reflexivity|].
  unfold cliques_ok in OK. rewrite Forall_forall in OK. destruct (OK c Hc) as (_ & F & _). rewrite Forall_forall in F. apply F. exact Hv.
Qed.
Lemma setup_ok : exists h, setup_energy D eval lab0 lab1 n cliques = Ret h /\ represents D n h fenergy.
Proof.
  destruct (setup_calls_ok D n eval lab0 lab1 A B L0 L1 cliques) as (cs & E & CO & PV & V).
  { unfold cliques_ok in OK. apply Forall_forall. intros c Hc. rewrite Forall_forall in OK. destruct (OK c Hc) as (F1 & F2 & F3). repeat (split; [assumption|]). intros l Hl. apply EV; assumption. }
  destruct (run_ok D cs hoe_new (wf_new D) CO) as (h & Eh & W & L & _ & M). exists h. split; [apply E; exact Eh|]. split; [exact W|]. cbn in L. split; [lia|].
  assert (PC : poly_const cs = 0%Qc).
  { rewrite <- poly_false, V. change (mix A B (fun _ => false)) with (fun v => A v). change (fun v => A v) with A. qring. }
  apply min_over_refl. intros x. rewrite M, PC, V. unfold sem. cbn. unfold fenergy. qring.
Qed.
(** One move with a solver that keeps its contract. *)
Variable solve : qsolver.
Hypothesis QP : qpbo_solver solve.
Lemma move_ok h : represents D n h fenergy -> exists h' q, ToQuadratic D h quad_new = Ret (h', q) /\ represents D n h' fenergy /\ q_closed q /\ n <= q_nodes q /\ persistent fenergy (solve q).
Proof.
  intros R. destruct (represents_step D n h _ R) as (h' & q & E & R' & C & N & M). exists h', q. split; [exact E|]. split; [exact R'|]. split; [exact C|]. split; [exact N|].
  apply (persist_transfer n (q_value q)); [exact M|exact fenergy_ext|apply QP; exact C].
Qed.
End Setup.

(** *** FusionMove *)
Lemma mapM_Ret {X Y} (f : X -> outcome Y) (h : X -> Y) : forall l, (forall a, In a l -> f a = Ret (h a)) -> mapM f l = Ret (map h l).
Proof. induction l as [|a l IH]; intros H; cbn [mapM map]; [reflexivity|]. rewrite H by (left; reflexivity). cbn [bind]. rewrite IH by (intros; apply H; right; assumption). reflexivity. Qed.
Lemma rd_nth (l : list nat) i : i < length l -> rd l i = Ret (nth i l 0).
Proof. intros H. unfold rd. rewrite (nth_error_nth' l 0) by exact H. reflexivity. Qed.
Lemma nth_map_seq {X} (h : nat -> X) d n i : i < n -> nth i (map h (seq 0 n)) d = h i.
Proof. intros H. rewrite (nth_indep _ d (h 0)) by (rewrite map_length, seq_length; exact H). rewrite map_nth. rewrite seq_nth by exact H. reflexivity. Qed.
Lemma energy_at (cliques : list clique) D n h : cliques_ok D n cliques -> clique_energy cliques (map h (seq 0 n)) = qsum (map (fun c => snd c (map h (fst c))) cliques).
Proof.
  intros OK. unfold clique_energy. f_equal. apply map_ext_in. intros c Hc. f_equal. unfold at_vars. apply map_ext_in. intros v Hv. apply nth_map_seq.
  unfold cliques_ok in OK. rewrite Forall_forall in OK. destruct (OK c Hc) as (_ & F & _). rewrite Forall_forall in F. apply F. exact Hv.
Qed.
Lemma map_nth_seq (l : list nat) : map (fun i => nth i l 0) (seq 0 (length l)) = l.
Proof. apply (nth_ext _ _ 0 0); rewrite map_length, seq_length; [reflexivity|]. intros i Hi. apply (nth_map_seq (fun i => nth i l 0)). exact Hi. Qed.
(** Every fusion of x and y is a mixture. *)
Lemma fused_mix x y z : length y = length x -> fused x y z -> exists b, z = map (mix (fun v => nth v x 0) (fun v => nth v y 0) b) (seq 0 (length x)).
Proof.
  intros L [LZ F]. exists (fun v => negb (nth v z 0 =? nth v x 0)). apply (nth_ext _ _ 0 0); [rewrite map_length, seq_length; exact LZ|]. intros i Hi. rewrite nth_map_seq by lia.
  unfold mix. destruct (Nat.eqb_spec (nth i z 0) (nth i x 0)) as [E|N]; cbn [negb]; [exact E|]. destruct (F i) as [E|E]; [contradiction|exact E].
Qed.

(** *** Loops that set labels *)
Lemma foldM_ext {X S} (f h : S -> X -> outcome S) : (forall s a, f s a = h s a) -> forall l s, foldM f l s = foldM h l s.
Proof. intros H. induction l as [|a l IH]; intros s; cbn [foldM]; [reflexivity|]. rewrite H. destruct (h s a); cbn [bind]; auto. Qed.
Lemma wr_nth (l : list nat) i v : i < length l -> wr l i v = Ret (map (fun j => if j =? i then v else nth j l 0) (seq 0 (length l))).
Proof. intros H. rewrite <- (map_nth_seq l) at 1. apply (wr_map (fun j => nth j l 0)). exact H. Qed.
Lemma foldM_set (f : nat -> option nat) : forall m k l, k + m <= length l ->
  foldM (fun l i => match f i with Some v => wr l i v | None => Ret l end) (seq k m) l =
  Ret (map (fun i => if (k <=? i) && (i <? k + m) then match f i with Some v => v | None => nth i l 0 end else nth i l 0) (seq 0 (length l))).
Proof.
  induction m as [|m IH]; intros k l H; cbn [seq foldM].
  - rewrite <- (map_nth_seq l) at 1. f_equal. apply map_ext. intros i. destruct (Nat.leb_spec k i), (Nat.ltb_spec i (k + 0)); try reflexivity. lia.
  - assert (X : match f k with Some v => wr l k v | None => Ret l end = Ret (map (fun i => if i =? k then match f k with Some v => v | None => nth i l 0 end else nth i l 0) (seq 0 (length l)))).
    { destruct (f k) as [v|]; [apply wr_nth; lia|]. rewrite <- (map_nth_seq l) at 1. f_equal. apply map_ext. intros i. destruct (i =? k); reflexivity. }
    rewrite X. cbn [bind]. rewrite IH by (rewrite map_length, seq_length; lia). rewrite map_length, seq_length. f_equal. apply map_ext_in. intros i Hi. apply in_seq in Hi. rewrite nth_map_seq by lia.
    destruct (Nat.eqb_spec i k) as [->|N].
    + rewrite (proj2 (Nat.leb_gt (S k) k)) by lia. rewrite (proj2 (Nat.leb_le k k)) by lia. rewrite (proj2 (Nat.ltb_lt k (k + S m))) by lia. reflexivity.
    + replace (S k <=? i) with (k <=? i) by (destruct (Nat.leb_spec k i), (Nat.leb_spec (S k) i); try reflexivity; lia). replace (i <? S k + m) with (i <? k + S m) by (f_equal; lia). reflexivity.
Qed.
Lemma foldM_set_all f l : foldM (fun l i => match f i with Some v => wr l i v | None => Ret l end) (seq 0 (length l)) l = Ret (map (fun i => match f i with Some v => v | None => nth i l 0 end) (seq 0 (length l))).
Proof. rewrite foldM_set by lia. f_equal. apply map_ext_in. intros i Hi. apply in_seq in Hi. rewrite (proj2 (Nat.ltb_lt i (0 + length l))) by lia. reflexivity. Qed.

(** *** Models *)
Lemma labeling_nth {T} (g : gmv T) x : labeling g x <-> length x = length (v_labels g) /\ forall v, v < length x -> nth v x 0 < nth v (v_labels g) 0.
Proof.
  unfold labeling, in_shape. split.
  - intros H. split; [clear - H; induction H; cbn; congruence|]. induction H as [|a b x l Hab _ IH]; intros [|v] Hv; cbn in *; try lia; auto. apply IH. lia.
  - intros [L H]. revert L H. generalize (v_labels g). induction x as [|a x IH]; intros [|b l] L H; cbn in L; try discriminate; constructor; [apply (H 0); cbn; lia|]. apply IH; [lia|]. intros v Hv. apply (H (S v)). cbn. lia.
Qed.
Lemma wf_cliques_ok {d} (g : gmv Qc) : wf_gmv g -> order_at_most d g -> cliques_ok d (length (v_labels g)) (v_factors g).
Proof.
  intros [W _] O. unfold cliques_ok, order_at_most in *. apply Forall_forall. intros c Hc. rewrite Forall_forall in W, O. destruct (W c Hc) as [S F]. split; [|split; [exact F|apply O; exact Hc]].
  clear - S. induction S as [|a l _ IH F]; constructor; auto. intros H. rewrite Forall_forall in F. specialize (F a H). lia.
Qed.
Lemma factor_at_ok (g : gmv Qc) (c : clique) l : Forall2 (fun v a => a < nth v (v_labels g) 0) (fst c) l -> factor_at g c l = Ret (snd c l).
Proof.
  intros H. unfold factor_at. replace (forallb _ _) with true; [reflexivity|]. symmetry. apply forallb_forall. intros [v a] Hp. cbn [fst snd]. apply Nat.ltb_lt.
  induction H as [|v' a' vs l' Hva _ IH]; [destruct Hp|]. destruct Hp as [E|Hp]; [injection E as <- <-; exact Hva|apply IH; exact Hp].
Qed.

Section ModelMove.
(** A move of a model between labels A and B that exist. *)
Variables (g : gmv Qc) (lab0 lab1 : nat -> outcome nat) (A B : nat -> nat).
Let n := length (v_labels g).
Hypothesis W : wf_gmv g.
Hypothesis O : order_at_most 10 g.
Hypothesis LA : forall v, v < n -> lab0 v = Ret (A v) /\ A v < nth v (v_labels g) 0.
Hypothesis LB : forall v, v < n -> lab1 v = Ret (B v) /\ B v < nth v (v_labels g) 0.
Lemma model_setup : exists h, setup_energy 10 (factor_at g) lab0 lab1 n (v_factors g) = Ret h /\ represents 10 n h (fenergy A B (v_factors g)).
Proof.
  apply setup_ok; [intros; apply LA; assumption|intros; apply LB; assumption|apply wf_cliques_ok; assumption|].
  intros c l Hc Hl. apply factor_at_ok. pose proof (@wf_cliques_ok 10 g W O) as K. unfold cliques_ok in K. rewrite Forall_forall in K. destruct (K c Hc) as (_ & F & _). clear Hc K.
  induction Hl as [|v a vs l Hva _ IH]; constructor; inversion F; subst; auto. destruct Hva as [E|E]; rewrite E; [apply LA|apply LB]; assumption.
Qed.
Lemma model_energy b : menergy g (map (mix A B b) (seq 0 n)) = (fenergy A B (v_factors g) b + qsum (map (fun c => snd c (map A (fst c))) (v_factors g)))%Qc.
Proof. rewrite total_qsum. unfold n. rewrite (energy_at _ 10 _ _ (@wf_cliques_ok 10 g W O)). unfold fenergy. qring. Qed.
Lemma model_labeling b : labeling g (map (mix A B b) (seq 0 n)).
Proof. apply labeling_nth. rewrite map_length, seq_length. split; [reflexivity|]. intros v Hv. rewrite nth_map_seq by exact Hv. unfold mix. destruct (b v); [apply LB|apply LA]; exact Hv. Qed.
End ModelMove.
