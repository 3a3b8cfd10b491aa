(** The forest of the lazy flipper: which paths are generated, in any state of the forest. *)
From Verif Require Import Base GmProofs MovemakerModel MovemakerProofs LazyFlipperModel.
From Coq Require Import Sorted.
#[local] Arguments nth_error : simpl never.

Definition dnode : node := mkNode 0 None [] 0 None.
Notation nd f i := (nth i (fo_nodes f) dnode).
Notation size f := (length (fo_nodes f)).
Notation vl f i := (nd_value (nd f i)).
Notation par f i := (nd_parent (nd f i)).
Notation chn f i := (nd_children (nd f i)).
Notation lvl f i := (nd_level (nd f i)).
Notation suc f i := (nd_succ (nd f i)).

(** The values on the way from a node to its root. *)
Inductive path (f : forest) : option nat -> list nat -> Prop :=
| path_nil : path f None []
| path_cons : forall i P, i < size f -> path f (par f i) P -> path f (Some i) (vl f i :: P).

(** The nodes of a level from one on, in order of succession. *)
Inductive chain (f : forest) : option nat -> list nat -> Prop :=
| chain_nil : chain f None []
| chain_cons : forall i l, i < size f -> chain f (suc f i) l -> chain f (Some i) (i :: l).

Lemma path_det : forall f p P Q, path f p P -> path f p Q -> P = Q.
Proof. intros f p P Q H. revert Q. induction H as [|i P Hi H IH]; intros Q HQ; inversion HQ; subst; auto. f_equal. auto. Qed.
Lemma chain_det : forall f p P Q, chain f p P -> chain f p Q -> P = Q.
Proof. intros f p P Q H. revert Q. induction H as [|i P Hi H IH]; intros Q HQ; inversion HQ; subst; auto. f_equal. auto. Qed.

(** ** The pure operations *)
Definition push (f : forest) (v : nat) (p : option nat) : forest :=
  let i := size f in
  match p with
  | None => mkForest (fo_nodes f ++ [mkNode v None [] 0 None]) (if fo_levels f <=? 0 then fo_anchors f ++ [i] else fo_anchors f)
  | Some q => mkForest (upd (fo_nodes f) q (mkNode (vl f q) (par f q) (chn f q ++ [i]) (lvl f q) (suc f q)) ++ [mkNode v (Some q) [] (S (lvl f q)) None])
                       (if fo_levels f <=? S (lvl f q) then fo_anchors f ++ [i] else fo_anchors f)
  end.
Definition setSucc (f : forest) (p s : nat) : forest :=
  mkForest (upd (fo_nodes f) p (mkNode (vl f p) (par f p) (chn f p) (lvl f p) (Some s))) (fo_anchors f).

Lemma upd_app_l : forall A (l r : list A) i v, i < length l -> upd (l ++ r) i v = upd l i v ++ r.
Proof. induction l as [|a l IH]; intros r [|i] v H; cbn in *; try lia; auto. f_equal. apply IH. lia. Qed.
Lemma upd_app_last : forall A (l : list A) a v, upd (l ++ [a]) (length l) v = l ++ [v].
Proof. induction l as [|x l IH]; intros; cbn; auto. f_equal. auto. Qed.

Lemma rd_nd : forall f i, i < size f -> rd (fo_nodes f) i = Ret (nd f i).
Proof. intros. apply rd_nth. auto. Qed.
Lemma fo_push_ret : forall f v p, match p with None => True | Some q => q < size f end -> fo_push f v p = Ret (push f v p, size f).
Proof.
  intros f v [q|] H; unfold fo_push, push, fo_levels.
  - rewrite (rd_nth _ _ (size f) dnode) by (rewrite app_length; cbn; lia). rewrite app_nth2, Nat.sub_diag by lia. cbn [bind nth nd_value nd_parent nd_children nd_level nd_succ].
    rewrite wr_Ret by (rewrite app_length; cbn; lia). rewrite upd_app_last. cbn [bind].
    rewrite (rd_nth _ _ q dnode) by (rewrite app_length; cbn; lia). rewrite app_nth1 by auto. cbn [bind].
    rewrite wr_Ret by (rewrite app_length; cbn; lia). rewrite upd_app_l by auto. cbn [bind].
    rewrite (rd_nth _ _ q dnode) by (rewrite app_length, length_upd; cbn; lia). rewrite app_nth1, nth_upd_eq by (rewrite ?length_upd; auto). cbn [bind nd_level].
    rewrite (rd_nth _ _ (size f) dnode) by (rewrite app_length, length_upd; cbn; lia).
    rewrite app_nth2 by (rewrite length_upd; lia). rewrite length_upd, Nat.sub_diag. cbn [bind nth nd_value nd_parent nd_children nd_level nd_succ].
    rewrite wr_Ret by (rewrite app_length, length_upd; cbn; lia).
    set (X := mkNode (vl f q) _ _ _ _). rewrite <- (length_upd _ (fo_nodes f) q X) at 1. rewrite upd_app_last. cbn [bind].
    rewrite (rd_nth _ _ (size f) dnode) by (rewrite app_length, length_upd; cbn; lia).
    rewrite app_nth2 by (rewrite length_upd; lia). rewrite length_upd, Nat.sub_diag. cbn [bind nth nd_level]. reflexivity.
  - cbn [bind]. rewrite (rd_nth _ _ (size f) dnode) by (rewrite app_length; cbn; lia). rewrite app_nth2, Nat.sub_diag by lia. cbn [bind nth nd_level]. reflexivity.
Qed.
Lemma fo_setSucc_ret : forall f p s, p < size f -> fo_setSucc f p s = Ret (setSucc f p s).
Proof. intros f p s H. unfold fo_setSucc. rewrite rd_nd by auto. cbn [bind]. rewrite wr_Ret by auto. reflexivity. Qed.

Lemma push_size : forall f v p, size (push f v p) = S (size f).
Proof. intros f v [q|]; unfold push; cbn [fo_nodes]; rewrite app_length, ?length_upd; cbn; lia. Qed.
Lemma push_new : forall f v p, nd (push f v p) (size f) = mkNode v p [] (match p with None => 0 | Some q => S (lvl f q) end) None.
Proof.
  intros f v [q|]; unfold push; cbn [fo_nodes].
  - rewrite app_nth2 by (rewrite length_upd; lia). rewrite length_upd, Nat.sub_diag. auto.
  - rewrite app_nth2 by lia. rewrite Nat.sub_diag. auto.
Qed.
Lemma push_old : forall f v p i, i < size f -> p <> Some i -> nd (push f v p) i = nd f i.
Proof.
  intros f v [q|] i H N; unfold push; cbn [fo_nodes].
  - rewrite app_nth1 by (rewrite length_upd; lia). apply nth_upd_neq. congruence.
  - rewrite app_nth1 by lia. auto.
Qed.
Lemma push_parent : forall f v q, q < size f -> nd (push f v (Some q)) q = mkNode (vl f q) (par f q) (chn f q ++ [size f]) (lvl f q) (suc f q).
Proof. intros f v q H. unfold push; cbn [fo_nodes]. rewrite app_nth1 by (rewrite length_upd; lia). apply nth_upd_eq. auto. Qed.
(** What is kept of the nodes by a push. *)
Lemma push_same : forall f v p i, i < size f ->
  vl (push f v p) i = vl f i /\ par (push f v p) i = par f i /\ lvl (push f v p) i = lvl f i /\ suc (push f v p) i = suc f i /\
  chn (push f v p) i = chn f i ++ (match p with Some q => if q =? i then [size f] else [] | None => [] end).
Proof.
  intros f v p i H. destruct p as [q|].
  - destruct (Nat.eqb_spec q i) as [->|N].
    + rewrite push_parent by auto. auto.
    + rewrite push_old by (auto; congruence). rewrite app_nil_r. auto.
  - rewrite push_old by (auto; congruence). rewrite app_nil_r. auto.
Qed.
Lemma push_anchors : forall f v p, fo_anchors (push f v p) =
  if fo_levels f <=? match p with None => 0 | Some q => S (lvl f q) end then fo_anchors f ++ [size f] else fo_anchors f.
Proof. intros f v [q|]; auto. Qed.

Lemma setSucc_size : forall f p s, size (setSucc f p s) = size f.
Proof. intros. unfold setSucc. cbn [fo_nodes]. apply length_upd. Qed.
Lemma setSucc_at : forall f p s, p < size f -> nd (setSucc f p s) p = mkNode (vl f p) (par f p) (chn f p) (lvl f p) (Some s).
Proof. intros. unfold setSucc. cbn [fo_nodes]. apply nth_upd_eq. auto. Qed.
Lemma setSucc_off : forall f p s i, i <> p -> nd (setSucc f p s) i = nd f i.
Proof. intros. unfold setSucc. cbn [fo_nodes]. apply nth_upd_neq. auto. Qed.
Lemma setSucc_same : forall f p s i, p < size f ->
  vl (setSucc f p s) i = vl f i /\ par (setSucc f p s) i = par f i /\ lvl (setSucc f p s) i = lvl f i /\ chn (setSucc f p s) i = chn f i /\
  suc (setSucc f p s) i = (if i =? p then Some s else suc f i).
Proof.
  intros f p s i H. destruct (Nat.eqb_spec i p) as [->|N].
  - rewrite setSucc_at by auto. auto.
  - rewrite setSucc_off by auto. auto 10.
Qed.

Lemma path_frame : forall f f', size f <= size f' -> (forall i, i < size f -> vl f' i = vl f i /\ par f' i = par f i) ->
  forall p P, path f p P -> path f' p P.
Proof.
  intros f f' HS H p P HP. induction HP as [|i P Hi HP IH]; [constructor|]. destruct (H i Hi) as [H1 H2]. rewrite <- H1.
  constructor; [lia|]. rewrite H2. auto.
Qed.
Lemma chain_frame : forall f f', size f <= size f' -> (forall i, i < size f -> suc f' i = suc f i) -> forall p l, chain f p l -> chain f' p l.
Proof.
  intros f f' HS H p P HP. induction HP as [|i P Hi HP IH]; [constructor|]. constructor; [lia|]. rewrite H by auto. auto.
Qed.
Lemma path_push : forall f v q p P, path f p P -> path (push f v q) p P.
Proof. intros f v q. apply path_frame; [rewrite push_size; lia|]. intros i Hi. destruct (push_same f v q i Hi) as (A & B & _). auto. Qed.
Lemma path_setSucc : forall f q s p P, q < size f -> path f p P -> path (setSucc f q s) p P.
Proof. intros f q s p P Hq. apply path_frame; [rewrite setSucc_size; lia|]. intros i Hi. destruct (setSucc_same f q s i Hq) as (A & B & _). auto. Qed.
Lemma chain_push : forall f v q p P, chain f p P -> chain (push f v q) p P.
Proof. intros f v q. apply chain_frame; [rewrite push_size; lia|]. intros i Hi. apply push_same. auto. Qed.

(** ** Which variable may be appended to a path *)
Section F.
Variable n : nat.
Variable adj : list (list nat).
Hypothesis LA : length adj = n.
Notation nbr u w := (In w (nth u adj [])).
Hypothesis NB : forall u w, nbr u w -> w < n.
Hypothesis NS : forall u w, nbr u w -> nbr w u.

(** [R] is the path from the root on.  The new variable is adjacent to the path, greater than the root, and could
    not have been appended earlier instead of a greater one. *)
Definition ok (R : list nat) (w : nat) : Prop :=
  ~ In w R /\ (exists u, In u R /\ nbr u w) /\ hd 0 R < w /\
  forall j k, j < k -> k < length R -> nbr (nth j R 0) w -> nth k R 0 < w.

Record wf (f : forest) : Prop := mkWf {
  wf_root : forall i, i < size f -> par f i = None -> lvl f i = 0 /\ vl f i < n;
  wf_child : forall i q, i < size f -> par f i = Some q -> q < i /\ lvl f i = S (lvl f q) /\ In i (chn f q) /\
               forall P, path f (Some q) P -> ok (rev P) (vl f i);
  wf_succ : forall i s, i < size f -> suc f i = Some s -> i < s < size f /\ lvl f s = lvl f i;
  wf_children : forall i c, i < size f -> In c (chn f i) -> i < c < size f /\ par f c = Some i;
  wf_sorted : forall i, i < size f -> StronglySorted lt (map (fun c => vl f c) (chn f i));
  wf_level : forall i, i < size f -> lvl f i < fo_levels f;
  wf_anchor : forall l a, nth_error (fo_anchors f) l = Some a -> a < size f /\ lvl f a = l }.

Lemma wf_empty : wf fo_empty.
Proof. split; cbn; intros; try lia. destruct l; discriminate. Qed.

Lemma ok_lt : forall R w, ok R w -> w < n.
Proof. intros R w (_ & (u & _ & H) & _). eauto. Qed.

Lemma path_ex : forall f, wf f -> forall i, i < size f -> exists P, path f (Some i) P /\ length P = S (lvl f i) /\ NoDup P /\ Forall (fun v => v < n) P.
Proof.
  intros f WF i. induction i as [i IH] using lt_wf_ind. intros Hi. destruct (par f i) as [q|] eqn:E.
  - destruct (wf_child f WF i q Hi E) as (Hq & HL & _ & HO). destruct (IH q Hq ltac:(lia)) as (P & HP & LP & ND & FB). specialize (HO P HP).
    exists (vl f i :: P). split; [constructor; auto; rewrite E; auto|]. split; [cbn; lia|]. split.
    + constructor; auto. intros X. apply in_rev in X. apply HO in X. auto.
    + constructor; auto. eapply ok_lt; eauto.
  - destruct (wf_root f WF i Hi E) as [H0 HV]. exists [vl f i]. split; [constructor; auto; rewrite E; constructor|]. rewrite H0. split; auto.
    split; [repeat constructor; auto|repeat constructor; auto].
Qed.
Lemma path_facts : forall f i P, wf f -> path f (Some i) P -> i < size f /\ length P = S (lvl f i) /\ NoDup P /\ Forall (fun v => v < n) P /\ length P <= n.
Proof.
  intros f i P WF H. assert (i < size f) as Hi by (inversion H; auto). destruct (path_ex f WF i Hi) as (Q & HQ & A & B & C).
  rewrite (path_det _ _ _ _ H HQ). repeat split; auto. apply NoDup_bounded_length; auto. rewrite Forall_forall in C. auto.
Qed.

Lemma walk_root_ok : forall f p P, path f p P -> forall fuel, length P <= fuel -> walk_root f fuel p = Ret P.
Proof.
  intros f p P H. induction H as [|i P Hi H IH]; intros fuel Hf; [destruct fuel; auto|]. destruct fuel as [|fuel]; cbn [length] in Hf; [lia|].
  cbn [walk_root]. unfold fo_value, fo_parent. rewrite rd_nd by auto. cbn [bind]. rewrite IH by lia. auto.
Qed.
Lemma walk_up_ok : forall f p P, path f p P -> walk_up f (length P) p = Ret P.
Proof.
  intros f p P H. induction H as [|i P Hi H IH]; auto. cbn [length walk_up]. unfold fo_value, fo_parent. rewrite rd_nd by auto. cbn [bind]. rewrite IH. auto.
Qed.

(** ** The choice of the variable to append *)
Lemma existsM_ok : forall A (h : A -> outcome bool) (b : A -> bool) l, (forall a, In a l -> h a = Ret (b a)) -> existsM A h l = Ret (existsb b l).
Proof.
  intros A h b. induction l as [|a l IH]; intros H; auto. cbn [existsM existsb]. rewrite (H a) by (left; auto). cbn [bind].
  destruct (b a); auto. apply IH. intros. apply H. right. auto.
Qed.
Lemma connected_ok : forall u w, u < n -> w < n -> connected adj u w = Ret (existsb (Nat.eqb w) (nth u adj [])).
Proof.
  intros u w Hu Hw. unfold connected. rewrite (rd_nth _ adj u []) by lia. rewrite (rd_nth _ adj w []) by lia. cbn [bind]. f_equal.
  destruct (_ <? _); auto. apply Bool.eq_true_iff_eq. rewrite !(mem_In _ _ : existsb _ _ = true <-> _). split; apply NS.
Qed.
Lemma cheaper_ok : forall R w, Forall (fun v => v < n) R -> w < n -> exists b, cheaper adj R w = Ret b /\
  (b = true <-> exists j k, j < k /\ k < length R /\ nbr (nth j R 0) w /\ w < nth k R 0).
Proof.
  intros R w HB Hw. rewrite Forall_forall in HB. unfold cheaper.
  rewrite (existsM_ok _ _ (fun j => existsb (Nat.eqb w) (nth (nth (j-1) R 0) adj []) && existsb (fun k => w <? nth k R 0) (seq j (length R - j)))).
  - eexists. split; [reflexivity|]. rewrite existsb_exists. split.
    + intros (j & Hj & H). apply in_seq in Hj. apply andb_prop in H. destruct H as [H1 H2]. apply mem_In in H1. apply existsb_exists in H2.
      destruct H2 as (k & Hk & H2). apply in_seq in Hk. apply Nat.ltb_lt in H2. exists (j-1), k. repeat split; auto; lia.
    + intros (j & k & H1 & H2 & H3 & H4). exists (S j). split; [apply in_seq; lia|]. cbn [Nat.sub]. rewrite Nat.sub_0_r. apply andb_true_intro.
      split; [apply mem_In; auto|]. apply existsb_exists. exists k. split; [apply in_seq; lia|]. apply Nat.ltb_lt. auto.
  - intros j Hj. apply in_seq in Hj. rewrite (rd_nth _ R (j-1) 0) by lia. cbn [bind].
    rewrite connected_ok by (auto; apply HB, nth_In; lia). cbn [bind].
    destruct (existsb (Nat.eqb w) _); auto. cbn [andb]. apply existsM_ok. intros k Hk. apply in_seq in Hk. rewrite (rd_nth _ R k 0) by lia. auto.
Qed.

Lemma first_candidate_ok : forall R minVI maxVI, Forall (fun v => v < n) R -> (forall k, k < length R -> nth k R 0 <= maxVI) ->
  forall cands, StronglySorted lt cands -> Forall (fun w => w < n) cands ->
  exists o, first_candidate adj R minVI maxVI cands = Ret o /\
  let good w := In w cands /\ minVI < w /\ ~ In w R /\ forall j k, j < k -> k < length R -> nbr (nth j R 0) w -> nth k R 0 < w in
  match o with Some w => good w /\ forall w', good w' -> w <= w' | None => forall w, ~ good w end.
Proof.
  intros R minVI maxVI HB HM. induction cands as [|w cands IH]; intros HS HC.
  - exists None. split; auto. intros good w [[] _].
  - apply StronglySorted_inv in HS. destruct HS as [HS HF]. apply Forall_cons_iff in HC. destruct HC as [Hw HC].
    destruct (IH HS HC) as (o & E & HO). rewrite Forall_forall in HF.
    assert (SK : ~ (minVI < w /\ ~ In w R /\ forall j k, j < k -> k < length R -> nbr (nth j R 0) w -> nth k R 0 < w) ->
      exists o, first_candidate adj R minVI maxVI cands = Ret o /\
      let good w0 := In w0 (w :: cands) /\ minVI < w0 /\ ~ In w0 R /\ forall j k, j < k -> k < length R -> nbr (nth j R 0) w0 -> nth k R 0 < w0 in
      match o with Some w0 => good w0 /\ forall w', good w' -> w0 <= w' | None => forall w0, ~ good w0 end).
    { intros NW. exists o. split; auto. cbv zeta in *. destruct o as [w0|].
      - destruct HO as [(H1 & H2 & H3) H4]. split; [split; [right; auto|split; auto]|]. intros w' ([<-|X] & Y); [exfalso; tauto|]. apply H4. auto.
      - intros w' ([<-|X] & Y); [tauto|]. apply (HO w'). auto. }
    assert (TK : minVI < w -> ~ In w R -> (forall j k, j < k -> k < length R -> nbr (nth j R 0) w -> nth k R 0 < w) ->
      exists o, Ret (Some w) = Ret o /\
      let good w0 := In w0 (w :: cands) /\ minVI < w0 /\ ~ In w0 R /\ forall j k, j < k -> k < length R -> nbr (nth j R 0) w0 -> nth k R 0 < w0 in
      match o with Some w0 => good w0 /\ forall w', good w' -> w0 <= w' | None => forall w0, ~ good w0 end).
    { intros A B C. exists (Some w). split; auto. cbv zeta. split; [split; [left; auto|auto]|]. intros w' ([<-|X] & _); auto. apply HF in X. lia. }
    cbn [first_candidate].
    assert (ND : forall k, k < length R -> ~ In w R -> nth k R 0 <> w) by (intros k Hk NI <-; apply NI, nth_In; auto).
    destruct ((minVI <? w) && negb (existsb (Nat.eqb w) R)) eqn:C1.
    + apply andb_prop in C1. destruct C1 as [C1 C2]. apply Nat.ltb_lt in C1. apply Bool.negb_true_iff in C2.
      assert (NI : ~ In w R). { intros X. apply mem_In in X. unfold mem in X. congruence. }
      destruct (Nat.ltb_spec maxVI w) as [C3|C3].
      * apply TK; auto. intros j k Hjk Hk _. specialize (HM k Hk). lia.
      * destruct (cheaper_ok R w HB Hw) as (b & Eb & Hb). rewrite Eb. cbn [bind]. destruct b.
        -- apply SK. intros (_ & _ & X). destruct (proj1 Hb eq_refl) as (j & k & J1 & J2 & J3 & J4). specialize (X j k J1 J2 J3). lia.
        -- apply TK; auto. intros j k Hjk Hk Hn. specialize (ND k Hk NI). destruct (Nat.lt_ge_cases (nth k R 0) w); auto. exfalso.
           assert (false = true); [|congruence]. apply Hb. exists j, k. repeat split; auto. lia.
    + apply SK. intros (A & B & _). apply Bool.andb_false_iff in C1. destruct C1 as [C1|C1].
      * apply Nat.ltb_ge in C1. lia.
      * apply Bool.negb_false_iff in C1. apply B, mem_In. exact C1.
Qed.

Lemma max_ok : forall l m, let M := fold_left (fun m v => if m <? v then v else m) l m in m <= M /\ forall v, In v l -> v <= M.
Proof.
  induction l as [|a l IH]; intros m; cbn [fold_left]; [split; auto; intros ? []|].
  destruct (IH (if m <? a then a else m)) as [H1 H2]. destruct (Nat.ltb_spec m a); split; intros; try lia.
  - destruct H0 as [<-|X]; [lia|auto].
  - destruct H0 as [<-|X]; [lia|auto].
Qed.

Lemma candidates_ok : forall vs s, Forall (fun v => v < n) vs -> StronglySorted lt s -> Forall (fun w => w < n) s ->
  exists c, foldM (fun s v => ns <- rd adj v ;; Ret (sunion s ns)) vs s = Ret c /\ StronglySorted lt c /\ Forall (fun w => w < n) c /\
    forall w, In w c <-> In w s \/ exists u, In u vs /\ nbr u w.
Proof.
  induction vs as [|v vs IH]; intros s HB HS HF.
  - exists s. split; auto. split; auto. split; auto. intros w. split; auto. intros [X|(u & [] & _)]; auto.
  - apply Forall_cons_iff in HB. destruct HB as [Hv HB]. cbn [foldM]. rewrite (rd_nth _ adj v []) by lia. cbn [bind].
    destruct (sunion_spec (nth v adj []) s HS) as [S1 S2].
    destruct (IH (sunion s (nth v adj [])) HB S1) as (c & E & C1 & C2 & C3).
    { apply Forall_forall. intros w Hw. apply S2 in Hw. rewrite Forall_forall in HF. destruct Hw as [X|X]; eauto. }
    exists c. split; auto. split; auto. split; auto. intros w. rewrite C3, S2. split.
    + intros [[X|X]|(u & X & Y)]; eauto. right. exists v. split; [left|]; auto. right. exists u. split; [right|]; auto.
    + intros [X|(u & [<-|X] & Y)]; auto. right. eauto.
Qed.

(** A node can be extended by [w]: [w] is admissible and above all children so far. *)
Definition fits (f : forest) (i w : nat) : Prop :=
  (exists P, path f (Some i) P /\ ok (rev P) w) /\ forall c, In c (chn f i) -> vl f c < w.

Lemma sorted_last : forall l a, StronglySorted lt (l ++ [a]) -> forall x, In x l -> x < a.
Proof.
  induction l as [|b l IH]; intros a H x Hx; [destruct Hx|]. cbn in H. apply StronglySorted_inv in H. destruct H as [H HF].
  destruct Hx as [<-|Hx]; auto. rewrite Forall_forall in HF. apply HF. apply in_app_iff. right. left. auto.
Qed.

Lemma append_ok : forall f i fuel, wf f -> i < size f -> n <= fuel ->
  (appendVariableToPath adj fuel f i = Ret (f, None) /\ forall w, ~ fits f i w) \/
  exists w, appendVariableToPath adj fuel f i = Ret (push f w (Some i), Some (size f)) /\ fits f i w /\ forall w', fits f i w' -> w <= w'.
Proof.
  intros f i fuel WF Hi Hf. destruct (path_ex f WF i Hi) as (P & HP & LP & ND & FB). unfold appendVariableToPath, fo_level.
  rewrite rd_nd by auto. cbn [bind]. rewrite <- LP, (walk_up_ok f (Some i) P HP). cbn [bind].
  set (R := rev P). assert (LR : length R = length P) by apply rev_length.
  assert (FR : Forall (fun v => v < n) R) by (apply Forall_rev; auto).
  rewrite (rd_nth _ R 0 0) by lia. cbn [bind].
  unfold fo_numberOfChildren, fo_child, fo_value. rewrite rd_nd by auto. cbn [bind].
  rewrite (walk_root_ok f (Some i) P HP fuel) by (assert (length P <= n) by (apply path_facts with (f := f) (i := i); auto); lia).
  set (m0 := nth 0 R 0). set (M := fold_left (fun m v => if m <? v then v else m) (tl R) m0).
  destruct (candidates_ok P [] FB ltac:(constructor) ltac:(constructor)) as (c & Ec & C1 & C2 & C3).
  assert (HM : forall k, k < length R -> nth k R 0 <= M).
  { intros k Hk. unfold M. destruct (max_ok (tl R) m0) as [X Y]. destruct k as [|k]; [exact X|]. apply Y.
    destruct R as [|r R']; cbn in *; [lia|]. apply nth_In. lia. }
  assert (FC : forall minVI, (forall w, (exists P, path f (Some i) P /\ ok (rev P) w) -> (minVI < w <-> (forall c, In c (chn f i) -> vl f c < w))) -> m0 <= minVI ->
    (w <- first_candidate adj R minVI M c ;; match w with None => Ret (f, None) | Some w => ' (f, i) <- fo_push f w (Some i) ;; Ret (f, Some i) end) = Ret (f, None) /\ (forall w, ~ fits f i w) \/
    exists w, (w <- first_candidate adj R minVI M c ;; match w with None => Ret (f, None) | Some w => ' (f, i) <- fo_push f w (Some i) ;; Ret (f, Some i) end) = Ret (push f w (Some i), Some (size f)) /\ fits f i w /\ forall w', fits f i w' -> w <= w').
  { intros minVI HMin Hm0. destruct (first_candidate_ok R minVI M FR HM c C1 C2) as (o & Eo & HO). rewrite Eo. cbn [bind].
    assert (EQ : forall w, fits f i w <-> In w c /\ minVI < w /\ ~ In w R /\ forall j k, j < k -> k < length R -> nbr (nth j R 0) w -> nth k R 0 < w).
    { intros w. unfold fits. split.
      - intros [X Y]. pose proof (proj2 (HMin w X) Y) as Z. destruct X as (Q & HQ & A & (u & B1 & B2) & C & D). rewrite <- (path_det _ _ _ _ HP HQ) in *.
        split; [apply C3; right; exists u; split; auto; apply in_rev; auto|]. auto.
      - intros (A & B & C & D). apply C3 in A. destruct A as [[]|(u & A1 & A2)].
        assert (X : exists P, path f (Some i) P /\ ok (rev P) w).
        { exists P. split; auto. split; [exact C|]. split; [exists u; split; auto; apply in_rev; rewrite rev_involutive; auto|]. split; [|exact D].
          fold R. replace (hd 0 R) with m0 by (unfold m0; destruct R; auto). lia. }
        split; auto. apply (HMin w X). auto. }
    destruct o as [w|]; [right; exists w|left].
    - rewrite fo_push_ret by auto. cbn [bind]. split; auto. destruct HO as [H1 H2]. split; [apply EQ; auto|]. intros w' Hw'. apply H2, EQ. auto.
    - split; auto. intros w Hw. apply (HO w). apply EQ. auto. }
  pose proof (wf_sorted f WF i Hi) as SO. pose proof (fun cc => wf_children f WF i cc Hi) as CH.
  assert (OKR : forall w, (exists P, path f (Some i) P /\ ok (rev P) w) -> m0 < w).
  { intros w (Q & HQ & _ & _ & C & _). rewrite <- (path_det _ _ _ _ HP HQ) in C. fold R in C. unfold m0. destruct R; auto. }
  destruct (chn f i) as [|c0 cs] eqn:ECh.
  - cbn [length Nat.ltb Nat.leb]. cbn [bind]. rewrite Ec. cbn [bind]. apply FC; auto. intros w X. split; [intros _ ? []|intros _; auto].
  - replace (0 <? length (c0 :: cs)) with true by auto. destruct (@exists_last _ (c0 :: cs) ltac:(discriminate)) as (l & z & El). rewrite El in *.
    rewrite app_length. cbn [length]. rewrite Nat.add_sub. rewrite (rd_nth _ (l ++ [z]) (length l) 0) by (rewrite app_length; cbn; lia).
    rewrite app_nth2, Nat.sub_diag by lia. cbn [nth bind]. assert (IZ : In z (l ++ [z])) by (apply in_app_iff; right; left; auto).
    destruct (CH z IZ) as [HZ PZ]. rewrite rd_nd by lia. cbn [bind]. rewrite Ec. cbn [bind]. apply FC.
    + intros w X. split; [|auto]. intros Y cc Hcc. apply in_app_iff in Hcc. destruct Hcc as [Hcc|[<-|[]]]; auto.
      rewrite map_app in SO. cbn in SO. pose proof (sorted_last _ _ SO (vl f cc) ltac:(apply in_map_iff; eauto)). lia.
    + destruct (wf_child f WF z i ltac:(lia) PZ) as (_ & _ & _ & HO). specialize (HO P HP). destruct HO as (_ & _ & C & _). fold R in C. unfold m0.
      destruct R; cbn in *; lia.
Qed.

(** ** The operations keep the forest well-formed *)
Lemma path_new_inv : forall f v p i P, wf f -> i < size f -> path (push f v p) (Some i) P -> path f (Some i) P.
Proof.
  intros f v p i P WF Hi H. destruct (path_ex f WF i Hi) as (Q & HQ & _). rewrite (path_det _ _ _ _ H (path_push _ v p _ _ HQ)). auto.
Qed.
Lemma levels_push : forall f v p, fo_levels f <= fo_levels (push f v p) /\ (match p with None => 0 | Some q => S (lvl f q) end) < fo_levels (push f v p) \/ fo_levels f < match p with None => 0 | Some q => S (lvl f q) end.
Proof.
  intros f v p. unfold fo_levels at 2 3. rewrite push_anchors. destruct (Nat.leb_spec (fo_levels f) (match p with None => 0 | Some q => S (lvl f q) end)).
  - rewrite app_length. cbn. unfold fo_levels in *. lia.
  - unfold fo_levels in *. lia.
Qed.

Lemma wf_push_child : forall f i w, wf f -> i < size f -> fits f i w -> wf (push f w (Some i)).
Proof.
  intros f i w WF Hi ((P & HP & HO) & HC). pose proof (wf_level f WF i Hi) as HL.
  assert (LV : fo_levels f <= fo_levels (push f w (Some i)) /\ S (lvl f i) < fo_levels (push f w (Some i))).
  { destruct (levels_push f w (Some i)) as [X|X]; auto. lia. }
  split.
  - intros k Hk E. rewrite push_size in Hk. destruct (Nat.eq_dec k (size f)) as [->|N].
    + rewrite push_new in E. discriminate.
    + destruct (push_same f w (Some i) k ltac:(lia)) as (A & B & C & _). rewrite B in E. rewrite A, C. apply (wf_root f WF); auto. lia.
  - intros k q Hk E. rewrite push_size in Hk. destruct (Nat.eq_dec k (size f)) as [->|N].
    + rewrite push_new in E. cbn in E. injection E as <-. split; auto. rewrite push_new. cbn [nd_level nd_value].
      destruct (push_same f w (Some i) i Hi) as (A & B & C & D & F). rewrite C, F, Nat.eqb_refl. split; auto.
      split; [apply in_app_iff; right; left; auto|]. intros Q HQ. apply path_new_inv in HQ; auto. rewrite (path_det _ _ _ _ HQ HP). auto.
    + destruct (push_same f w (Some i) k ltac:(lia)) as (A & B & C & _). rewrite B in E. destruct (wf_child f WF k q ltac:(lia) E) as (H1 & H2 & H3 & H4).
      destruct (push_same f w (Some i) q ltac:(lia)) as (A' & B' & C' & D' & F'). rewrite A, C, C', F'. split; auto. split; auto.
      split; [apply in_app_iff; auto|]. intros Q HQ. apply path_new_inv in HQ; auto. lia.
  - intros k s Hk E. rewrite push_size in *. destruct (Nat.eq_dec k (size f)) as [->|N].
    + rewrite push_new in E. discriminate.
    + destruct (push_same f w (Some i) k ltac:(lia)) as (A & B & C & D & _). rewrite D in E. destruct (wf_succ f WF k s ltac:(lia) E) as [H1 H2].
      destruct (push_same f w (Some i) s ltac:(lia)) as (_ & _ & C' & _). rewrite C, C'. split; solve [auto|lia].
  - intros k c Hk Hc. rewrite push_size in *. destruct (Nat.eq_dec k (size f)) as [->|N].
    + rewrite push_new in Hc. destruct Hc.
    + destruct (push_same f w (Some i) k ltac:(lia)) as (_ & _ & _ & _ & F). rewrite F in Hc. apply in_app_iff in Hc. destruct Hc as [Hc|Hc].
      * destruct (wf_children f WF k c ltac:(lia) Hc) as [H1 H2]. destruct (push_same f w (Some i) c ltac:(lia)) as (_ & B' & _). rewrite B'. split; solve [auto|lia].
      * destruct (Nat.eqb_spec i k) as [->|]; [|destruct Hc]. destruct Hc as [<-|[]]. rewrite push_new. cbn. split; [lia|auto].
  - intros k Hk. rewrite push_size in *. destruct (Nat.eq_dec k (size f)) as [->|N].
    + rewrite push_new. constructor.
    + destruct (push_same f w (Some i) k ltac:(lia)) as (_ & _ & _ & _ & F). rewrite F, map_app.
      assert (EM : map (fun c => vl (push f w (Some i)) c) (chn f k) = map (fun c => vl f c) (chn f k)).
      { apply map_ext_in. intros c Hc. apply push_same. apply (wf_children f WF k c); auto. lia. }
      rewrite EM. destruct (Nat.eqb_spec i k) as [->|]; [|cbn; rewrite app_nil_r; apply (wf_sorted f WF); lia].
      cbn [map]. rewrite push_new. cbn [nd_value]. apply sorted_snoc; [apply (wf_sorted f WF); lia|]. apply Forall_forall. intros x Hx. apply in_map_iff in Hx.
      destruct Hx as (c & <- & Hc). auto.
  - intros k Hk. rewrite push_size in *. destruct (Nat.eq_dec k (size f)) as [->|N].
    + rewrite push_new. cbn [nd_level]. lia.
    + destruct (push_same f w (Some i) k ltac:(lia)) as (_ & _ & C & _). rewrite C. pose proof (wf_level f WF k ltac:(lia)). lia.
  - intros l a E. rewrite push_anchors in E. rewrite push_size. destruct (Nat.leb_spec (fo_levels f) (S (lvl f i))) as [X|X].
    + destruct (Nat.lt_ge_cases l (fo_levels f)) as [Y|Y].
      * rewrite nth_error_app1 in E by auto. destruct (wf_anchor f WF l a E) as [H1 H2]. destruct (push_same f w (Some i) a H1) as (_ & _ & C & _). rewrite C. split; solve [auto|lia].
      * rewrite nth_error_app2 in E by auto. unfold fo_levels in *. destruct (l - length (fo_anchors f)) as [|d] eqn:Ed; [|destruct d; discriminate].
        cbn in E. injection E as <-. rewrite push_new. cbn [nd_level]. split; lia.
    + destruct (wf_anchor f WF l a E) as [H1 H2]. destruct (push_same f w (Some i) a H1) as (_ & _ & C & _). rewrite C. split; solve [auto|lia].
Qed.

Lemma wf_push_root : forall f v, wf f -> v < n -> wf (push f v None).
Proof.
  intros f v WF Hv.
  assert (LV : fo_levels f <= fo_levels (push f v None) /\ 0 < fo_levels (push f v None)).
  { destruct (levels_push f v None) as [X|X]; auto. lia. }
  split.
  - intros k Hk E. rewrite push_size in Hk. destruct (Nat.eq_dec k (size f)) as [->|N].
    + rewrite push_new. auto.
    + destruct (push_same f v None k ltac:(lia)) as (A & B & C & _). rewrite B in E. rewrite A, C. apply (wf_root f WF); auto. lia.
  - intros k q Hk E. rewrite push_size in Hk. destruct (Nat.eq_dec k (size f)) as [->|N].
    + rewrite push_new in E. discriminate.
    + destruct (push_same f v None k ltac:(lia)) as (A & B & C & _). rewrite B in E. destruct (wf_child f WF k q ltac:(lia) E) as (H1 & H2 & H3 & H4).
      destruct (push_same f v None q ltac:(lia)) as (A' & B' & C' & D' & F'). rewrite A, C, C', F'. split; auto. split; auto.
      split; [apply in_app_iff; auto|]. intros Q HQ. apply path_new_inv in HQ; auto. lia.
  - intros k s Hk E. rewrite push_size in *. destruct (Nat.eq_dec k (size f)) as [->|N].
    + rewrite push_new in E. discriminate.
    + destruct (push_same f v None k ltac:(lia)) as (A & B & C & D & _). rewrite D in E. destruct (wf_succ f WF k s ltac:(lia) E) as [H1 H2].
      destruct (push_same f v None s ltac:(lia)) as (_ & _ & C' & _). rewrite C, C'. split; solve [auto|lia].
  - intros k c Hk Hc. rewrite push_size in *. destruct (Nat.eq_dec k (size f)) as [->|N].
    + rewrite push_new in Hc. destruct Hc.
    + destruct (push_same f v None k ltac:(lia)) as (_ & _ & _ & _ & F). rewrite F, app_nil_r in Hc.
      destruct (wf_children f WF k c ltac:(lia) Hc) as [H1 H2]. destruct (push_same f v None c ltac:(lia)) as (_ & B' & _). rewrite B'. split; solve [auto|lia].
  - intros k Hk. rewrite push_size in *. destruct (Nat.eq_dec k (size f)) as [->|N].
    + rewrite push_new. constructor.
    + destruct (push_same f v None k ltac:(lia)) as (_ & _ & _ & _ & F). rewrite F, app_nil_r.
      assert (EM : map (fun c => vl (push f v None) c) (chn f k) = map (fun c => vl f c) (chn f k)).
      { apply map_ext_in. intros c Hc. apply push_same. apply (wf_children f WF k c); auto. lia. }
      rewrite EM. apply (wf_sorted f WF); lia.
  - intros k Hk. rewrite push_size in *. destruct (Nat.eq_dec k (size f)) as [->|N].
    + rewrite push_new. cbn [nd_level]. lia.
    + destruct (push_same f v None k ltac:(lia)) as (_ & _ & C & _). rewrite C. pose proof (wf_level f WF k ltac:(lia)). lia.
  - intros l a E. rewrite push_anchors in E. rewrite push_size. destruct (Nat.leb_spec (fo_levels f) 0) as [X|X].
    + unfold fo_levels in X. destruct (fo_anchors f) as [|]; cbn in X; [|lia]. cbn in E. destruct l as [|l]; [|destruct l; discriminate].
      cbn in E. injection E as <-. rewrite push_new. cbn [nd_level]. split; lia.
    + destruct (wf_anchor f WF l a E) as [H1 H2]. destruct (push_same f v None a H1) as (_ & _ & C & _). rewrite C. split; solve [auto|lia].
Qed.

Lemma wf_setSucc : forall f p s, wf f -> p < s < size f -> lvl f s = lvl f p -> wf (setSucc f p s).
Proof.
  intros f p s WF Hp HL.
  assert (SS : forall i, vl (setSucc f p s) i = vl f i /\ par (setSucc f p s) i = par f i /\ lvl (setSucc f p s) i = lvl f i /\ chn (setSucc f p s) i = chn f i /\
    suc (setSucc f p s) i = (if i =? p then Some s else suc f i)) by (intros; apply setSucc_same; lia).
  assert (PI : forall i P, i < size f -> path (setSucc f p s) (Some i) P -> path f (Some i) P).
  { intros i P Hi H. destruct (path_ex f WF i Hi) as (Q & HQ & _). rewrite (path_det _ _ _ _ H (path_setSucc f p s _ _ ltac:(lia) HQ)). auto. }
  split; rewrite ?setSucc_size.
  - intros i Hi E. destruct (SS i) as (A & B & C & D & F). rewrite A, C. rewrite B in E. apply (wf_root f WF); auto.
  - intros i q Hi E. destruct (SS i) as (A & B & C & D & F). rewrite A, C. rewrite B in E. destruct (SS q) as (A' & B' & C' & D' & F'). rewrite C', D'.
    destruct (wf_child f WF i q Hi E) as (H1 & H2 & H3 & H4). split; auto. split; auto. split; auto. intros P HP. apply H4. apply PI; auto. lia.
  - intros i t Hi E. destruct (SS i) as (A & B & C & D & F). rewrite F in E. destruct (SS t) as (A' & B' & C' & D' & F'). rewrite C, C'.
    destruct (Nat.eqb_spec i p) as [->|N]; [injection E as <-; auto|]. apply (wf_succ f WF); auto.
  - intros i c Hi Hc. destruct (SS i) as (A & B & C & D & F). rewrite D in Hc. destruct (SS c) as (A' & B' & C' & D' & F'). rewrite B'. apply (wf_children f WF); auto.
  - intros i Hi. destruct (SS i) as (A & B & C & D & F). rewrite D. erewrite map_ext; [apply (wf_sorted f WF); auto|]. intros c. apply SS.
  - intros i Hi. destruct (SS i) as (A & B & C & D & F). rewrite C. apply (wf_level f WF); auto.
  - intros l a E. destruct (SS a) as (A & B & C & D & F). rewrite C. apply (wf_anchor f WF); auto.
Qed.
End F.
