(** Proofs about modelTrees. *)
From Coq Require Import Sorting.Sorted.
From Verif Require Import Base GmView GmViewSpec GmViewProofs MovemakerModel MovemakerProofs IcmModel IcmProofs GgProofs DmcProofs SwSpec MtModel MtSpec.

Lemma foldM_kept : forall (A B : Type) (f : B -> A -> outcome B) (I : B -> Prop), (forall s a s', I s -> f s a = Ret s' -> I s') -> forall l s t, I s -> foldM f l s = Ret t -> I t.
Proof.
  intros A B f I H. induction l as [|a l IH]; intros s t Is E; cbn [foldM] in E; [injection E as <-; auto|]. destruct (f s a) as [s'| | |] eqn:E1; cbn [bind] in E; try discriminate. exact (IH s' t (H _ _ _ Is E1) E).
Qed.
Lemma without : forall l (b : list nat), NoDup b -> In l b -> S (length (filter (fun v => negb (v =? l)) b)) = length b.
Proof.
  intros l b ND. induction ND as [|a b N ND IH]; intros H; [contradiction|]. cbn. destruct (a =? l) eqn:E; cbn.
  - apply Nat.eqb_eq in E. subst a. f_equal. clear - N. induction b as [|c b IH]; auto. cbn. destruct (c =? l) eqn:E; cbn; [apply Nat.eqb_eq in E; subst; exfalso; apply N; left; auto|]. f_equal. apply IH. intros H. apply N. right. auto.
  - apply Nat.eqb_neq in E. destruct H as [->|H]; [contradiction|]. f_equal. auto.
Qed.
Lemma nodup_lt : forall m l, NoDup l -> (forall v, In v l -> v < m) -> length l <= m.
Proof. intros m l ND H. rewrite <- (seq_length m 0). apply NoDup_incl_length; auto. intros v Hv. apply in_seq. specialize (H v Hv). lia. Qed.

Section Proofs.
Variable T : Type.
Variable g : gmv T.
Hypothesis W : wf_gmv g.
Notation n := (length (v_labels g)).

Lemma touching_sym : forall u v, touching g u v -> touching g v u.
Proof. intros u v (D & fc & I & A & B). split; auto. exists fc. auto. Qed.
Lemma touching_lt : forall u v, touching g u v -> u < n /\ v < n.
Proof. intros u v (D & fc & I & A & B). destruct W as [WF _]. rewrite Forall_forall in WF. destruct (WF _ I) as [_ F]. rewrite Forall_forall in F. auto. Qed.
Lemma adjacency : exists nb, variableAdjacencyList T g = Ret nb /\ length nb = n /\ forall v, v < n -> NoDup (nth v nb []) /\ forall w, In w (nth v nb []) <-> touching g v w.
Proof.
  destruct (variableAdjacencyList_ok T g W (fun _ => true)) as (nb & E & L & H). exists nb. split; auto. split; auto.
  assert (SS : Forall (StronglySorted lt) nb).
  { unfold variableAdjacencyList in E. revert E. apply foldM_kept. 2:{ apply Forall_forall. intros s Hs. apply repeat_spec in Hs. subst. constructor. }
    intros out f out' I0 E0. destruct (rd (v_factors g) f) as [[vis t]| | |]; cbn [bind] in E0; try discriminate. revert E0. apply foldM_kept; auto. intros o1 j o2 I1. apply foldM_kept; auto. clear. intros out k out' I E.
    destruct (rd vis j) as [v1| | |]; cbn [bind] in E; try discriminate. destruct (rd vis k) as [v2| | |]; cbn [bind] in E; try discriminate.
    assert (ST : forall o v w s, Forall (StronglySorted lt) o -> rd o v = Ret s -> forall o', wr o v (sins w s) = Ret o' -> Forall (StronglySorted lt) o').
    { intros o v w s F R o' E'. unfold rd in R. destruct (nth_error o v) as [s'|] eqn:NE; [injection R as ->|discriminate]. assert (Hv : v < length o) by (apply nth_error_Some; congruence). rewrite wr_Ret in E' by auto. injection E' as <-. rewrite Forall_forall in *. intros x Hx. apply In_nth with (d := []) in Hx. destruct Hx as (i & Hi & <-). rewrite length_upd in Hi. destruct (Nat.eq_dec i v) as [->|D]; [rewrite nth_upd_eq by auto; apply sins_sorted; apply F; eapply nth_error_In; eauto|rewrite nth_upd_neq by auto; apply F; apply nth_In; auto]. }
    destruct (rd out v1) as [s1| | |] eqn:E1; cbn [bind] in E; try discriminate. destruct (wr out v1 (sins v2 s1)) as [o1| | |] eqn:E2; cbn [bind] in E; try discriminate. destruct (rd o1 v2) as [s2| | |] eqn:E3; cbn [bind] in E; try discriminate. eapply ST; [|exact E3|exact E]. eapply ST; [|exact E1|exact E2]. auto. }
  intros v Hv. split.
  - rewrite Forall_forall in SS. assert (X : In (nth v nb []) nb) by (apply nth_In; lia). specialize (SS _ X). clear X. clear - SS. induction SS as [|a l S IH F]; constructor; auto. rewrite Forall_forall in F. intros X. specialize (F _ X). lia.
  - intros w. rewrite (H v (nth v nb [])) by (apply nth_error_nth'; lia). unfold neighbours, touching. split.
    + intros [(k & fc & NE & A & B) D]. split; auto. exists fc. split; auto. eapply nth_error_In; eauto.
    + intros (D & fc & I & A & B). split; auto. destruct (In_nth_error _ _ I) as (k & NE). exists k, fc. auto.
Qed.

Definition par (s : peel) (v : nat) : nat := nth v (pl_par s) 0.
Definition nbr (s : peel) (v : nat) : list nat := nth v (pl_nb s) [].
Definition deg (s : peel) (v : nat) : nat := nth v (pl_deg s) 0.
Definition root (s : peel) (v : nat) : bool := nth v (pl_root s) false.
(** P are the variables that were peeled off, the last first, and Q those that were taken from the leafs *)
Record inv (s : peel) (P Q : list nat) : Prop := {
  i_nb : length (pl_nb s) = n; i_deg : length (pl_deg s) = n; i_par : length (pl_par s) = n; i_root : length (pl_root s) = n;
  i_NP : NoDup P; i_P : forall v, In v P -> v < n /\ In v Q;
  i_alive : forall v, v < n -> ~ In v P -> NoDup (nbr s v) /\ (forall w, In w (nbr s v) <-> touching g v w /\ ~ In w P) /\ deg s v = length (nbr s v);
  i_leafs : forall v, In v (pl_leafs s) -> v < n /\ ~ In v P /\ deg s v <= 1;
  i_all : forall v, v < n -> ~ In v P -> deg s v = 1 -> In v (pl_leafs s);
  i_nodup : NoDup (Q ++ pl_leafs s);
  i_Q : forall v, In v Q -> v < n /\ (In v P \/ deg s v = 0);
  i_peeled : forall v, In v P -> touching g v (par s v) /\ root s v = false;
  i_order : forall l1 v l2, P = l1 ++ v :: l2 -> ~ In (par s v) (v :: l2);
  i_rest : forall v, v < n -> ~ In v P -> (root s v = true /\ par s v = v /\ exists c, In c P /\ par s c = v) \/ (root s v = false /\ par s v = n /\ forall c, In c P -> par s c <> v);
  i_edge : forall v w, touching g v w -> In v P -> w = par s v \/ (In w P /\ par s w = v);
  i_cyclic : forall S, cyclic g S -> forall v, S v -> ~ In v P }.

Lemma leaf_ok : forall s l leafs P Q, inv s P Q -> pl_leafs s = l :: leafs -> exists s' P', mt_leaf (mkPeel (pl_nb s) (pl_deg s) leafs (pl_par s) (pl_root s)) l = Ret s' /\ inv s' P' (Q ++ [l]).
Proof.
  intros s l leafs P Q I EL. destruct (i_leafs _ _ _ I l) as (Hl & NP & DL); [rewrite EL; left; auto|]. unfold mt_leaf. cbn [pl_nb pl_deg pl_leafs pl_par pl_root]. rewrite (rd_nth _ _ l 0) by (rewrite (i_deg _ _ _ I); auto). cbn [bind]. fold (deg s l).
  pose proof (i_nodup _ _ _ I) as ND. rewrite EL in ND. assert (ND' : NoDup ((Q ++ [l]) ++ leafs)) by (rewrite <- app_assoc; auto). destruct (0 <? deg s l) eqn:ED.
  2:{ apply Nat.ltb_ge in ED. assert (D0 : deg s l = 0) by lia. eexists _, P. split; [reflexivity|]. constructor; cbn [pl_nb pl_deg pl_leafs pl_par pl_root]; try apply I; auto.
      - intros v Hv. destruct (i_P _ _ _ I v Hv). split; auto. apply in_or_app. auto.
      - intros v Hv. apply (i_leafs _ _ _ I). rewrite EL. right. auto.
      - intros v Hv NV D1. pose proof (i_all _ _ _ I v Hv NV D1) as X. rewrite EL in X. destruct X as [<-|X]; auto. unfold deg in *. cbn in *. lia.
      - intros v Hv. apply in_app_or in Hv. destruct Hv as [Hv|[<-|[]]]; [apply (i_Q _ _ _ I); auto|]. auto. }
  apply Nat.ltb_lt in ED. assert (D1 : deg s l = 1) by lia. destruct (i_alive _ _ _ I l Hl NP) as (NDL & HL & EDL). rewrite (rd_nth _ _ l []) by (rewrite (i_nb _ _ _ I); auto). cbn [bind]. fold (nbr s l). destruct (nbr s l) as [|it [|x r]] eqn:EN; cbn in EDL; try lia. clear EDL NDL.
  assert (TI : touching g l it /\ ~ In it P) by (apply HL; left; auto). destruct TI as [TI NI]. destruct (touching_lt _ _ TI) as [_ Hi]. assert (DI : it <> l) by (intros ->; destruct TI; auto).
  destruct (i_alive _ _ _ I it Hi NI) as (NDI & HI & EDI). assert (IL : In l (nbr s it)) by (apply HI; split; auto; apply touching_sym; auto).
  rewrite wr_Ret by (rewrite (i_root _ _ _ I); auto). cbn [bind]. rewrite wr_Ret by (rewrite length_upd, (i_root _ _ _ I); auto). cbn [bind]. rewrite wr_Ret by (rewrite (i_par _ _ _ I); auto). cbn [bind]. rewrite wr_Ret by (rewrite length_upd, (i_par _ _ _ I); auto). cbn [bind].
  rewrite (rd_nth _ _ it 0) by (rewrite (i_deg _ _ _ I); auto). cbn [bind]. fold (deg s it). rewrite wr_Ret by (rewrite (i_deg _ _ _ I); auto). cbn [bind]. rewrite (rd_nth _ _ it []) by (rewrite (i_nb _ _ _ I); auto). cbn [bind]. fold (nbr s it).
  assert (EX : existsb (Nat.eqb l) (nbr s it) = true) by (apply existsb_exists; exists l; split; auto; apply Nat.eqb_refl). rewrite EX. rewrite wr_Ret by (rewrite (i_nb _ _ _ I); auto). cbn [bind]. rewrite (rd_nth _ _ it 0) by (rewrite length_upd, (i_deg _ _ _ I); auto). rewrite nth_upd_eq by (rewrite (i_deg _ _ _ I); auto). cbn [bind].
  pose proof (without l (nbr s it) NDI IL) as LW. set (b' := filter (fun v => negb (v =? l)) (nbr s it)) in *. assert (EDI' : deg s it - 1 = length b') by lia. rewrite EDI'.
  set (s' := mkPeel (upd (pl_nb s) it b') (upd (pl_deg s) it (length b')) (if length b' =? 1 then it :: leafs else leafs) (upd (upd (pl_par s) l it) it it) (upd (upd (pl_root s) it true) l false)). exists s', (l :: P). split; [reflexivity|].
  assert (PL : par s' l = it). { unfold par, s'. cbn. rewrite nth_upd_neq by auto. apply nth_upd_eq. rewrite (i_par _ _ _ I). auto. }
  assert (PI : par s' it = it). { unfold par, s'. cbn. apply nth_upd_eq. rewrite length_upd, (i_par _ _ _ I). auto. }
  assert (PO : forall v, v <> l -> v <> it -> par s' v = par s v). { intros v A B. unfold par, s'. cbn. rewrite !nth_upd_neq by auto. auto. }
  assert (PP : forall v, In v P -> par s' v = par s v). { intros v Hv. apply PO; intros ->; contradiction. }
  assert (DO : forall v, v <> it -> deg s' v = deg s v). { intros v A. unfold deg, s'. cbn. apply nth_upd_neq. auto. }
  assert (DN : deg s' it = length b'). { unfold deg, s'. cbn. apply nth_upd_eq. rewrite (i_deg _ _ _ I). auto. }
  assert (NO : forall v, v <> it -> nbr s' v = nbr s v). { intros v A. unfold nbr, s'. cbn. apply nth_upd_neq. auto. }
  assert (NN : nbr s' it = b'). { unfold nbr, s'. cbn. apply nth_upd_eq. rewrite (i_nb _ _ _ I). auto. }
  assert (RL : root s' l = false). { unfold root, s'. cbn. apply nth_upd_eq. rewrite length_upd, (i_root _ _ _ I). auto. }
  assert (RI : root s' it = true). { unfold root, s'. cbn. rewrite nth_upd_neq by auto. apply nth_upd_eq. rewrite (i_root _ _ _ I). auto. }
  assert (RO : forall v, v <> l -> v <> it -> root s' v = root s v). { intros v A B. unfold root, s'. cbn. rewrite !nth_upd_neq by auto. auto. }
  assert (LI : In it leafs -> deg s it = 1). { intros X. destruct (i_leafs _ _ _ I it) as (_ & _ & Y); [rewrite EL; right; auto|]. lia. }
  constructor.
  - unfold s'. cbn. rewrite length_upd. apply I.
  - unfold s'. cbn. rewrite length_upd. apply I.
  - unfold s'. cbn. rewrite !length_upd. apply I.
  - unfold s'. cbn. rewrite !length_upd. apply I.
  - constructor; auto. apply (i_NP _ _ _ I).
  - intros v [<-|Hv]; [split; auto; apply in_or_app; right; left; auto|]. destruct (i_P _ _ _ I v Hv). split; auto. apply in_or_app. auto.
  - intros v Hv NV. assert (VL : v <> l) by (intros ->; apply NV; left; auto). assert (VP : ~ In v P) by (intros X; apply NV; right; auto). destruct (i_alive _ _ _ I v Hv VP) as (A & B & C). destruct (Nat.eq_dec v it) as [->|D].
    + rewrite NN, DN. split; [apply NoDup_filter; auto|]. split; auto. intros w. unfold b'. rewrite filter_In, negb_true_iff, Nat.eqb_neq, HI. split; [intros [[X Y] Z]; split; auto; intros [Q1|Q1]; auto|]. intros [X Y]. split; [split; auto; intros Z; apply Y; right; auto|intros ->; apply Y; left; auto].
    + rewrite NO, DO by auto. split; auto. split; auto. intros w. rewrite B. split; intros [X Y]; split; auto; [|intros Z; apply Y; right; auto]. intros [<-|Z]; auto. assert (Z : In v (nbr s l)) by (rewrite EN; apply HL; split; auto; apply touching_sym; auto). rewrite EN in Z. destruct Z as [Z|[]]; auto.
  - assert (G : forall v, In v leafs -> v < n /\ ~ In v (l :: P) /\ deg s' v <= 1).
    { intros v Hv. destruct (i_leafs _ _ _ I v) as (A & B & C); [rewrite EL; right; auto|]. split; auto. split; [intros [<-|X]; auto; apply NoDup_remove_2 in ND; apply ND; apply in_or_app; auto|]. destruct (Nat.eq_dec v it) as [->|D]; [rewrite DN; lia|rewrite DO by auto; auto]. }
    intros v Hv. unfold s' in Hv. cbn [pl_leafs] in Hv. destruct (length b' =? 1) eqn:E1; [|auto]. apply Nat.eqb_eq in E1. destruct Hv as [<-|Hv]; auto. split; auto. split; [intros [X|X]; auto|]. lia.
  - intros v Hv NV DV. assert (VL : v <> l) by (intros ->; apply NV; left; auto). assert (VP : ~ In v P) by (intros X; apply NV; right; auto). unfold s'. cbn [pl_leafs]. destruct (Nat.eq_dec v it) as [->|D].
    + rewrite DN in DV. rewrite DV. cbn. auto.
    + rewrite DO in DV by auto. pose proof (i_all _ _ _ I v Hv VP DV) as X. rewrite EL in X. destruct X as [->|X]; [contradiction|]. destruct (length b' =? 1); auto. right. auto.
  - unfold s'. cbn [pl_leafs]. destruct (length b' =? 1) eqn:E1; auto. apply Nat.eqb_eq in E1. apply NoDup_Add with (a := it) (l := (Q ++ [l]) ++ leafs); [apply Add_app|]. split; auto. intros X. apply in_app_or in X. destruct X as [X|X]; [|specialize (LI X); lia]. apply in_app_or in X. destruct X as [X|[X|[]]]; auto. destruct (i_Q _ _ _ I it X) as [_ [Y|Y]]; auto. lia.
  - intros v Hv. apply in_app_or in Hv. destruct Hv as [Hv|[<-|[]]]; [|split; auto; left; left; auto]. destruct (i_Q _ _ _ I v Hv) as [A [B|B]]; split; auto; [left; right; auto|]. right. rewrite DO; auto. intros ->. lia.
  - intros v [<-|Hv]; [rewrite PL; auto|]. rewrite PP by auto. destruct (i_peeled _ _ _ I v Hv) as [A B]. split; auto. rewrite RO; auto; intros ->; contradiction.
  - intros l1 v l2 E. destruct l1 as [|a l1]; cbn in E; injection E as <- E.
    + rewrite PL. subst l2. intros [X|X]; auto.
    + rewrite PP by (rewrite E; apply in_or_app; right; left; auto). apply (i_order _ _ _ I l1). auto.
  - intros v Hv NV. assert (VL : v <> l) by (intros ->; apply NV; left; auto). assert (VP : ~ In v P) by (intros X; apply NV; right; auto). destruct (Nat.eq_dec v it) as [->|D].
    + left. split; auto. split; auto. exists l. split; auto. left. auto.
    + rewrite RO, PO by auto. destruct (i_rest _ _ _ I v Hv VP) as [(A & B & c & C & E)|(A & B & C)]; [left|right]; split; auto; split; auto.
      * exists c. split; [right; auto|]. rewrite PP; auto.
      * intros c [<-|HC]; [rewrite PL; auto|rewrite PP by auto; auto].
  - intros v w TV [<-|Hv].
    + rewrite PL. destruct (in_dec Nat.eq_dec w P) as [X|X].
      * right. split; [right; auto|]. rewrite PP by auto. destruct (i_edge _ _ _ I w l (touching_sym _ _ TV) X) as [Y|[Y _]]; [auto|contradiction].
      * left. assert (Z : In w (nbr s l)) by (rewrite EN; apply HL; auto). rewrite EN in Z. destruct Z as [Z|[]]; auto.
    + rewrite PP by auto. destruct (i_edge _ _ _ I v w TV Hv) as [A|[A B]]; auto. right. split; [right; auto|]. rewrite PP; auto.
  - intros S CS v SV [<-|X]; [|apply (i_cyclic _ _ _ I S CS v SV X)]. destruct (CS l SV) as (_ & a & b & D & SA & SB & TA & TB). assert (ZA : In a [it]) by (apply HL; split; auto; apply (i_cyclic _ _ _ I S CS a SA)). assert (ZB : In b [it]) by (apply HL; split; auto; apply (i_cyclic _ _ _ I S CS b SB)). destruct ZA as [<-|[]]. destruct ZB as [<-|[]]. auto.
Qed.
Lemma loop_ok : forall fuel s P Q, inv s P Q -> n <= fuel + length Q -> exists s' P' Q', mt_loop fuel s = Ret s' /\ inv s' P' Q' /\ pl_leafs s' = [].
Proof.
  induction fuel as [|fuel IH]; intros s P Q I F; cbn [mt_loop]; destruct (pl_leafs s) as [|l leafs] eqn:EL; eauto 6.
  - exfalso. pose proof (i_nodup _ _ _ I) as ND. rewrite EL in ND. assert (X : length (Q ++ l :: leafs) <= n). { apply nodup_lt; auto. intros v Hv. apply in_app_or in Hv. destruct Hv as [Hv|Hv]; [apply (i_Q _ _ _ I v Hv)|]. apply (i_leafs _ _ _ I). rewrite EL. auto. } rewrite app_length in X. cbn in X. lia.
  - destruct (leaf_ok s l leafs P Q I EL) as (s1 & P1 & E & I1). rewrite E. cbn [bind]. apply (IH s1 P1 (Q ++ [l]) I1). rewrite app_length. cbn. lia.
Qed.
Lemma start_ok : forall nb, length nb = n -> (forall v, v < n -> NoDup (nth v nb []) /\ forall w, In w (nth v nb []) <-> touching g v w) -> exists s, mt_start T g nb = Ret s /\ inv s [] [].
Proof.
  intros nb LN HN. unfold mt_start.
  match goal with |- context [foldM ?F _ ?s] => destruct (foldM_upto _ F (fun i st => let ' (deg, par, leafs) := st in length deg = n /\ length par = n /\ NoDup leafs /\ (forall v, v < i -> nth v deg 0 = length (nth v nb []) /\ nth v par 0 = n) /\ forall v, In v leafs <-> v < i /\ length (nth v nb []) = 1) n s) as ([[deg1 par1] leafs] & E & LD & LP & NL & HD & HL) end.
  - split; [apply repeat_length|]. split; [apply repeat_length|]. split; [constructor|]. split; [intros; lia|]. intros v. cbn. split; [contradiction|lia].
  - intros i [[deg1 par1] leafs] Hi (LD & LP & NL & HD & HL). rewrite (rd_nth _ _ i []) by lia. cbn [bind]. rewrite !wr_Ret by lia. cbn [bind]. eexists. split; [reflexivity|]. split; [rewrite length_upd; auto|]. split; [rewrite length_upd; auto|]. split.
    { destruct (_ =? 1); auto. constructor; auto. intros X. apply HL in X. lia. } split.
    { intros v Hv. destruct (Nat.eq_dec v i) as [->|D]; [rewrite !nth_upd_eq by lia; auto|rewrite !nth_upd_neq by auto; apply HD; lia]. }
    intros v. destruct (length (nth i nb []) =? 1) eqn:E1.
    + apply Nat.eqb_eq in E1. cbn. rewrite HL. split; [intros [<-|[A B]]; split; auto; lia|]. intros [A B]. destruct (Nat.eq_dec i v); auto. right. split; auto. lia.
    + apply Nat.eqb_neq in E1. rewrite HL. split; intros [A B]; split; auto. destruct (Nat.eq_dec v i) as [->|]; [contradiction|lia].
  - rewrite E. cbn [bind]. eexists. split; [reflexivity|]. constructor; unfold nbr, deg, par, root; cbn [pl_nb pl_deg pl_leafs pl_par pl_root In app]; auto; try contradiction; try (intros; contradiction).
    + apply repeat_length.
    + constructor.
    + intros v Hv _. destruct (HN v Hv) as [A B]. split; auto. split; [|apply HD; auto]. intros w. rewrite B. tauto.
    + intros v Hv. apply HL in Hv. destruct Hv as [A B]. split; auto. split; auto. destruct (HD v A) as [-> _]. lia.
    + intros v Hv _ D1. apply HL. split; auto. destruct (HD v Hv) as [X _]. lia.
    + intros l1 v l2 X. destruct l1; discriminate.
    + intros v Hv _. right. split; [apply nth_repeat|]. split; [apply HD; auto|]. auto.
Qed.

Section Final.
Variable s : peel.
Variables P Q : list nat.
Hypothesis I : inv s P Q.
Lemma par_rd : forall v, v < n -> rd (pl_par s) v = Ret (par s v).
Proof. intros v Hv. apply rd_nth. rewrite (i_par _ _ _ I). auto. Qed.
Lemma P_len : length P <= n.
Proof. apply nodup_lt; apply I. Qed.
Lemma root_par : forall v, v < n -> root s v = (par s v =? v).
Proof.
  intros v Hv. destruct (in_dec Nat.eq_dec v P) as [X|X].
  - destruct (i_peeled _ _ _ I v X) as [A ->]. symmetry. apply Nat.eqb_neq. intros E. rewrite E in A. destruct A. auto.
  - destruct (i_rest _ _ _ I v Hv X) as [(-> & B & _)|(-> & B & _)]; symmetry; [apply Nat.eqb_eq; auto|]. apply Nat.eqb_neq. lia.
Qed.
Lemma climb_root : forall fuel v, v < n -> par s v = v -> mt_climb fuel (pl_par s) v = Ret v.
Proof. intros [|fuel] v Hv E; cbn [mt_climb]; rewrite par_rd by auto; cbn [bind]; rewrite E, Nat.eqb_refl; auto. Qed.
Lemma climb_ok : forall k l1 v l2, length l1 <= k -> P = l1 ++ v :: l2 -> exists r, r < n /\ par s r = r /\ leads (par s) v r /\ forall fuel, S (length l1) <= fuel -> mt_climb fuel (pl_par s) v = Ret r.
Proof.
  induction k as [|k IH]; intros l1 v l2 L E.
  all: assert (VP : In v P) by (rewrite E; apply in_or_app; right; left; auto). all: destruct (i_peeled _ _ _ I v VP) as [TV _]. all: destruct (touching_lt _ _ TV) as [Hv Hp]. all: assert (D : par s v <> v) by (intros X; rewrite X in TV; destruct TV; auto).
  all: pose proof (i_order _ _ _ I _ _ _ E) as O.
  all: destruct (in_dec Nat.eq_dec (par s v) P) as [X|X].
  - exfalso. destruct l1; [|cbn in L; lia]. rewrite E in X. auto.
  - exists (par s v). destruct (i_rest _ _ _ I _ Hp X) as [(_ & B & _)|(_ & _ & B)]; [|exfalso; exact (B v VP eq_refl)]. split; auto. split; auto. split; [apply leads_up; auto; apply leads_root; auto|]. intros [|fuel] F; [lia|]. cbn [mt_climb]. rewrite par_rd by auto. cbn [bind]. apply Nat.eqb_neq in D. rewrite D. apply climb_root; auto.
  - assert (Y : In (par s v) l1) by (rewrite E in X; apply in_app_or in X; destruct X; auto; contradiction). apply in_split in Y. destruct Y as (a & b & EY). destruct (IH a (par s v) (b ++ v :: l2)) as (r & A & B & C & F0).
    + rewrite EY, app_length in L. cbn in L. lia.
    + rewrite E, EY, <- app_assoc. reflexivity.
    + exists r. split; auto. split; auto. split; [apply leads_up; auto|]. intros [|fuel] F; [lia|]. cbn [mt_climb]. rewrite par_rd by auto. cbn [bind]. apply Nat.eqb_neq in D. rewrite D. apply F0. rewrite EY, app_length in F. cbn in F. lia.
  - exists (par s v). destruct (i_rest _ _ _ I _ Hp X) as [(_ & B & _)|(_ & _ & B)]; [|exfalso; exact (B v VP eq_refl)]. split; auto. split; auto. split; [apply leads_up; auto; apply leads_root; auto|]. intros [|fuel] F; [lia|]. cbn [mt_climb]. rewrite par_rd by auto. cbn [bind]. apply Nat.eqb_neq in D. rewrite D. apply climb_root; auto.
Qed.
Definition tree (v : nat) : nat := if par s v =? n then n else match mt_climb n (pl_par s) v with Ret r => r | _ => 0 end.
Lemma tree_ok : forall v, v < n -> par s v <> n -> mt_climb n (pl_par s) v = Ret (tree v) /\ tree v < n /\ par s (tree v) = tree v /\ leads (par s) v (tree v).
Proof.
  intros v Hv D. unfold tree. pose proof D as D'. apply Nat.eqb_neq in D'. rewrite D'. destruct (in_dec Nat.eq_dec v P) as [X|X].
  - pose proof (in_split _ _ X) as (l1 & l2 & E). destruct (climb_ok (length l1) l1 v l2 (le_n _) E) as (r & A & B & C & F). rewrite F; auto. pose proof P_len as PL. rewrite E, app_length in PL. cbn in PL. lia.
  - destruct (i_rest _ _ _ I v Hv X) as [(_ & B & _)|(_ & B & _)]; [|contradiction]. rewrite climb_root by auto. split; auto. split; auto. split; auto. apply leads_root. auto.
Qed.
Lemma in_P : forall v, v < n -> par s v <> n -> par s v <> v -> In v P.
Proof. intros v Hv A B. destruct (in_dec Nat.eq_dec v P) as [X|X]; auto. destruct (i_rest _ _ _ I v Hv X) as [(_ & C & _)|(_ & C & _)]; contradiction. Qed.
Lemma forest_ok : forest g (par s) tree.
Proof.
  intros v Hv. destruct (in_dec Nat.eq_dec v P) as [X|X].
  - right. right. destruct (i_peeled _ _ _ I v X) as [TV _]. destruct (touching_lt _ _ TV) as [_ Hp]. destruct (tree_ok v Hv) as (_ & A & _ & B); [lia|]. auto.
  - destruct (i_rest _ _ _ I v Hv X) as [(_ & B & c & C & E)|(_ & B & C)].
    + right. left. split; auto. split; [|exists c; split; [apply (i_P _ _ _ I c C)|]; split; auto; intros ->; auto]. destruct (tree_ok v Hv) as (_ & _ & A & L); [lia|]. inversion L; subst; auto. congruence.
    + left. split; auto. split; [unfold tree; rewrite B, Nat.eqb_refl; auto|]. intros w Hw E. assert (WP : In w P) by (apply in_P; auto; intros Z; [lia|]; rewrite E in Z; subst w; lia). apply (C w WP E).
Qed.
Lemma leads_unique : forall p v r, leads p v r -> forall q, leads p v q -> q = r.
Proof. intros p v r L. induction L as [r E|v r D L IH]; intros q M; inversion M; subst; auto; contradiction. Qed.
Lemma linked_tree : forall v w, v < n -> w < n -> v <> w -> par s v = w -> tree v = tree w /\ tree v < n.
Proof.
  intros v w Hv Hw D E. destruct (tree_ok v Hv) as (_ & A & _ & L); [lia|]. split; auto.
  assert (WN : par s w <> n). { intros X. destruct (forest_ok w Hw) as [(_ & _ & Y)|[(Y & _)|(Y & _)]]; [apply (Y v Hv E)|lia|lia]. }
  destruct (tree_ok w Hw WN) as (_ & _ & _ & M). apply (leads_unique (par s) v (tree w)); auto. apply leads_up; [congruence|]. rewrite E. auto.
Qed.
Hypothesis done : pl_leafs s = [].
Lemma links : forall v w, touching g v w -> ((par s v = w \/ par s w = v) <-> ~ exists S, cyclic g S /\ S v /\ S w).
Proof.
  assert (G : forall v w, touching g v w -> par s v = w -> In v P). { intros v w TV E. destruct (touching_lt _ _ TV) as [Hv Hw]. apply in_P; auto; [lia|]. rewrite E. destruct TV as [D _]. auto. }
  intros v w TV. split.
  - intros [E|E] (S & CS & SV & SW); [apply (i_cyclic _ _ _ I S CS v SV)|apply (i_cyclic _ _ _ I S CS w SW)]; [apply (G v w)|apply (G w v)]; auto. apply touching_sym. auto.
  - intros N. destruct (in_dec Nat.eq_dec v P) as [X|X]; [destruct (i_edge _ _ _ I v w TV X) as [->|[_ ->]]; auto|]. destruct (in_dec Nat.eq_dec w P) as [Y|Y]; [destruct (i_edge _ _ _ I w v (touching_sym _ _ TV) Y) as [->|[_ ->]]; auto|]. exfalso. apply N.
    exists (fun a => a < n /\ ~ In a P /\ exists b, touching g a b /\ ~ In b P). destruct (touching_lt _ _ TV) as [Hv Hw]. split; [|split; split; auto; split; auto; [exists w|exists v]; split; auto; apply touching_sym; auto].
    intros a (Ha & NA & b & TB & NB). split; auto. destruct (i_alive _ _ _ I a Ha NA) as (ND & HN & ED). assert (IB : In b (nbr s a)) by (apply HN; auto).
    assert (D1 : deg s a <> 1). { intros D1. pose proof (i_all _ _ _ I a Ha NA D1) as Z. rewrite done in Z. contradiction. }
    destruct (nbr s a) as [|c [|d r]] eqn:EN; [contradiction|cbn in ED; lia|]. exists c, d. assert (HC : touching g a c /\ ~ In c P) by (apply HN; left; auto). assert (HD : touching g a d /\ ~ In d P) by (apply HN; right; left; auto). destruct HC as [TC NC]. destruct HD as [TD ND']. destruct (touching_lt _ _ TC) as [_ HC]. destruct (touching_lt _ _ TD) as [_ HD].
    split; [intros ->; inversion ND as [|? ? Z _]; apply Z; left; auto|]. split; [split; auto; split; auto; exists a; split; auto; apply touching_sym; auto|]. split; [split; auto; split; auto; exists a; split; auto; apply touching_sym; auto|]. auto.
Qed.
Lemma joined_tr : forall u v w, joined g u v -> joined g v w -> joined g u w.
Proof. intros u v w A B. induction A; [eapply joined_more; eauto|eapply joined_more; [eassumption|]; auto]. Qed.
Lemma joined_sym : forall u v, joined g u v -> joined g v u.
Proof. intros u v A. induction A as [u v TV|u v w TV A IH]; [apply joined_one, touching_sym; auto|]. eapply joined_tr; [exact IH|]. apply joined_one, touching_sym; auto. Qed.
Lemma leads_joined : forall v r, leads (par s) v r -> v < n -> par s v <> n -> v = r \/ joined g v r.
Proof.
  intros v r L. induction L as [r E|v r D L IH]; intros Hv DN; auto. right. assert (X := in_P v Hv DN D). destruct (i_peeled _ _ _ I v X) as [TV _]. destruct (touching_lt _ _ TV) as [_ Hp].
  assert (PN : par s (par s v) <> n). { intros Z. destruct (forest_ok _ Hp) as [(_ & _ & Y)|[(Y & _)|(Y & _)]]; [apply (Y v Hv eq_refl)|lia|lia]. }
  destruct (IH Hp PN) as [<-|J]; [apply joined_one; auto|]. eapply joined_more; eauto.
Qed.
Lemma same_tree_joined : forall u v, u < n -> v < n -> tree u = tree v -> tree u < n -> u = v \/ joined g u v.
Proof.
  intros u v Hu Hv E HT. assert (PN : forall w, tree w < n -> par s w <> n). { intros w H Z. unfold tree in H. rewrite Z, Nat.eqb_refl in H. lia. }
  destruct (tree_ok u Hu (PN u HT)) as (_ & _ & _ & LU). destruct (tree_ok v Hv (PN v ltac:(lia))) as (_ & _ & _ & LV). destruct (leads_joined u _ LU Hu (PN u HT)) as [EU|JU]; destruct (leads_joined v _ LV Hv (PN v ltac:(lia))) as [EV|JV].
  - left. congruence.
  - right. apply joined_sym. rewrite EU, E. auto.
  - right. rewrite EV, <- E. auto.
  - right. eapply joined_tr; [exact JU|]. rewrite E. apply joined_sym. auto.
Qed.
Lemma joined_same_tree : (forall S v, cyclic g S -> ~ S v) -> forall u v, joined g u v -> tree u = tree v /\ tree u < n.
Proof.
  intros NC. assert (G : forall u v, touching g u v -> tree u = tree v /\ tree u < n).
  { intros u v TV. destruct (touching_lt _ _ TV) as [Hu Hv]. assert (D : u <> v) by (destruct TV; auto). assert (X : par s u = v \/ par s v = u) by (apply links; auto; intros (S & CS & SV & _); apply (NC S u CS SV)). destruct X as [X|X]; [apply linked_tree; auto|]. destruct (linked_tree v u Hv Hu) as [A B]; auto. split; [auto|lia]. }
  intros u v J. induction J as [u v TV|u v w TV J [A B]]; auto. destruct (G u v TV). split; lia.
Qed.

(** numbering *)
Definition rts (i : nat) : list nat := filter (fun r => par s r =? r) (seq 0 i).
Lemma rts_S : forall i, rts (S i) = rts i ++ (if par s i =? i then [i] else []).
Proof. intros i. unfold rts. rewrite seq_S, filter_app. cbn. destruct (par s i =? i); auto. Qed.
Lemma rts_le : forall i j, i <= j -> length (rts i) <= length (rts j).
Proof. intros i j H. induction H; auto. rewrite rts_S, app_length. lia. Qed.
Lemma rts_nth : forall i v, v < i -> par s v = v -> nth_error (rts i) (length (rts v)) = Some v.
Proof.
  intros i v Hv E. unfold rts. replace i with (v + S (i - S v)) by lia. rewrite seq_app, filter_app. cbn [seq filter Nat.add]. rewrite E, Nat.eqb_refl. rewrite nth_error_app2 by lia. rewrite Nat.sub_diag. auto.
Qed.
Lemma rts_In : forall i v, In v (rts i) <-> v < i /\ par s v = v.
Proof. intros i v. unfold rts. rewrite filter_In, in_seq, Nat.eqb_eq. split; intros [A B]; split; auto; lia. Qed.
Lemma rts_NoDup : forall i, NoDup (rts i).
Proof. intros i. apply NoDup_filter, seq_NoDup. Qed.
Lemma numbering : exists rep, foldM (fun (st : list (option nat) * nat) i =>
      r <- rd (pl_root s) i ;;
      if r : bool then rep <- wr (fst st) i (Some (snd st)) ;; Ret (rep, S (snd st)) else Ret st) (seq 0 n) (repeat None n, 0) = Ret (rep, length (rts n)) /\ length rep = n /\ forall v, v < n -> par s v = v -> nth v rep None = Some (length (rts v)).
Proof.
  match goal with |- context [foldM ?F _ ?s0] => destruct (foldM_upto _ F (fun i st => snd st = length (rts i) /\ length (fst st) = n /\ forall v, v < i -> par s v = v -> nth v (fst st) None = Some (length (rts v))) n s0) as ([rep k] & E & A & B & C) end.
  - cbn [fst snd]. split; auto. split; [apply repeat_length|]. intros; lia.
  - intros i [rep k] Hi (A & B & C). cbn [fst snd] in *. rewrite (rd_nth _ _ i false) by (rewrite (i_root _ _ _ I); auto). cbn [bind]. fold (root s i). rewrite root_par by auto. rewrite rts_S. destruct (par s i =? i) eqn:E.
    + rewrite wr_Ret by lia. cbn [bind]. eexists. split; [reflexivity|]. cbn [fst snd]. rewrite app_length. cbn. split; [lia|]. split; [rewrite length_upd; auto|]. intros v Hv EV. destruct (Nat.eq_dec v i) as [->|D]; [rewrite nth_upd_eq by lia; congruence|rewrite nth_upd_neq by auto; apply C; auto; lia].
    + eexists. split; [reflexivity|]. cbn [fst snd]. rewrite app_nil_r. split; auto. split; auto. intros v Hv EV. destruct (Nat.eq_dec v i) as [->|D]; [apply Nat.eqb_neq in E; contradiction|]. apply C; auto. lia.
  - cbn [fst snd] in *. exists rep. subst k. auto.
Qed.
Lemma upd_app : forall (A : Type) (a : list A) x y r, upd (a ++ x :: r) (length a) y = a ++ y :: r.
Proof. intros A a x y r. induction a as [|b a IH]; cbn; auto. f_equal. auto. Qed.
Variable rep : list (option nat).
Hypothesis L_rep : length rep = n.
Hypothesis H_rep : forall v, v < n -> par s v = v -> nth v rep None = Some (length (rts v)).
Notation t := (mkMt rep (pl_par s) (pl_root s) (length (rts n))).
Lemma parentOf : forall v, v < n -> mt_parentOfVariable T g t v = Ret (par s v).
Proof. intros v Hv. unfold mt_parentOfVariable. cbn [mt_par]. rewrite par_rd by auto. cbn [bind]. destruct (par s v =? n) eqn:E; auto. apply Nat.eqb_eq in E. congruence. Qed.
Lemma treeOf : forall v, v < n -> mt_treeOfVariable T g t v = Ret (tree v).
Proof. intros v Hv. unfold mt_treeOfVariable. cbn [mt_par]. rewrite par_rd by auto. cbn [bind]. destruct (par s v =? n) eqn:E; [unfold tree; rewrite E; auto|]. apply Nat.eqb_neq in E. apply tree_ok; auto. Qed.
Lemma roots_ok : mt_roots T g t = Ret (rts n).
Proof.
  unfold mt_roots. cbn [mt_broot mt_count].
  match goal with |- context [foldM ?F _ ?s0] => destruct (foldM_upto _ F (fun i st => st = (rts i ++ repeat 0 (length (rts n) - length (rts i)), length (rts i))) n s0) as (st & E & A) end.
  - cbn. rewrite Nat.sub_0_r. auto.
  - intros i st Hi ->. rewrite (rd_nth _ _ i false) by (rewrite (i_root _ _ _ I); auto). cbn [bind]. fold (root s i). rewrite root_par by auto. pose proof (rts_le (S i) n Hi) as LE. rewrite rts_S in *. destruct (par s i =? i) eqn:E; rewrite app_length in *; cbn [length fst snd] in *.
    + rewrite wr_Ret by (rewrite app_length, repeat_length; lia). cbn [bind]. replace (length (rts n) - length (rts i)) with (S (length (rts n) - (length (rts i) + 1))) by lia. cbn [repeat]. rewrite upd_app. eexists. split; [reflexivity|]. rewrite <- app_assoc. cbn. f_equal. lia.
    + eexists. split; [reflexivity|]. rewrite app_nil_r, Nat.add_0_r. auto.
  - rewrite E. cbn [bind]. rewrite A. rewrite Nat.sub_diag. cbn. rewrite app_nil_r. auto.
Qed.
Lemma lookup_ok : forall v, v < n -> par s v = v -> mt_lookup t v = Ret (length (rts v)).
Proof. intros v Hv E. unfold mt_lookup. cbn [mt_rep]. rewrite (rd_nth _ _ v None) by lia. cbn [bind]. rewrite H_rep; auto. Qed.
Lemma treeOfRoot_ok : forall v, v < n -> (tree v = n /\ mt_treeOfRoot T g t v = Ret n) \/ (tree v < n /\ exists k, mt_treeOfRoot T g t v = Ret k /\ nth_error (rts n) k = Some (tree v)).
Proof.
  intros v Hv. unfold mt_treeOfRoot. rewrite treeOf by auto. cbn [mt_par]. rewrite par_rd by auto. cbn [bind]. destruct (par s v =? n) eqn:E; [left; split; auto; unfold tree; rewrite E; auto|]. apply Nat.eqb_neq in E. destruct (tree_ok v Hv E) as (_ & A & B & _). right. split; auto. rewrite lookup_ok by auto. eexists. split; [reflexivity|]. apply rts_nth; auto.
Qed.
Lemma nodes_ok : forall init, exists out, mt_nodes T g t init = Ret out /\ length out = length (rts n) /\ forall k, k < length (rts n) -> nth k out [] = nth k init [] ++ filter (fun v => tree v =? nth k (rts n) 0) (seq 0 n).
Proof.
  intros init. unfold mt_nodes. cbn [mt_count mt_par]. set (c := length (rts n)).
  match goal with |- context [foldM ?F _ ?s0] => destruct (foldM_upto _ F (fun i out => length out = c /\ forall k, k < c -> nth k out [] = nth k init [] ++ filter (fun v => tree v =? nth k (rts n) 0) (seq 0 i)) n s0) as (out & E & A) end.
  - split; [rewrite app_length, firstn_length, repeat_length; lia|]. intros k Hk. cbn. rewrite app_nil_r. destruct (Nat.lt_ge_cases k (length init)) as [X|X].
    + rewrite app_nth1 by (rewrite firstn_length; lia). rewrite <- (firstn_skipn c init) at 2. rewrite app_nth1 by (rewrite firstn_length; lia). auto.
    + rewrite app_nth2 by (rewrite firstn_length; lia). rewrite (nth_overflow init) by auto. apply nth_repeat.
  - intros i out Hi (A & B). rewrite par_rd by auto. cbn [bind]. assert (RT : forall k, k < c -> nth k (rts n) 0 < n) by (intros k Hk; apply (rts_In n); apply nth_In; auto). destruct (par s i =? n) eqn:E.
    + eexists. split; [reflexivity|]. split; auto. intros k Hk. rewrite B by auto. rewrite seq_S, filter_app. cbn. assert (ET : tree i = n) by (unfold tree; rewrite E; auto). assert (X : (tree i =? nth k (rts n) 0) = false) by (apply Nat.eqb_neq; specialize (RT k Hk); lia). rewrite X, app_nil_r. auto.
    + rewrite treeOf by auto. cbn [bind]. apply Nat.eqb_neq in E. destruct (tree_ok i Hi E) as (_ & HT & HR & _). rewrite lookup_ok by auto. cbn [bind]. pose proof (rts_nth n (tree i) HT HR) as NT. assert (Hk0 : length (rts (tree i)) < c) by (apply nth_error_Some; rewrite NT; discriminate). set (k0 := length (rts (tree i))) in *. rewrite (rd_nth _ _ k0 []) by lia. cbn [bind]. rewrite wr_Ret by lia. eexists. split; [reflexivity|]. split; [rewrite length_upd; auto|]. intros k Hk. rewrite seq_S, filter_app. cbn [Nat.add filter]. destruct (Nat.eq_dec k k0) as [->|D].
      * rewrite nth_upd_eq by lia. rewrite B by auto. rewrite (nth_error_nth _ _ 0 NT), Nat.eqb_refl. rewrite <- app_assoc. auto.
      * rewrite nth_upd_neq by auto. rewrite B by auto. assert (X : (tree i =? nth k (rts n) 0) = false). { apply Nat.eqb_neq. intros X. apply D. apply (proj1 (NoDup_nth (rts n) 0) (rts_NoDup n) k k0 Hk Hk0). rewrite (nth_error_nth _ _ 0 NT). auto. } rewrite X, app_nil_r. auto.
  - exists out. auto.
Qed.
End Final.

Theorem mt_ok : exists t parent tree, mt_new T g = Ret t /\ (forall v, v < n -> mt_parentOfVariable T g t v = Ret (parent v) /\ mt_treeOfVariable T g t v = Ret (tree v)) /\
  forest g parent tree /\
  (forall v w, touching g v w -> ((parent v = w \/ parent w = v) <-> ~ exists S, cyclic g S /\ S v /\ S w)) /\
  (forall u v, u < n -> v < n -> tree u = tree v -> tree u < n -> u = v \/ joined g u v) /\
  ((forall S v, cyclic g S -> ~ S v) -> forall u v, joined g u v -> tree u = tree v /\ tree u < n) /\
  (let roots := filter (fun r => parent r =? r) (seq 0 n) in
   mt_numberOfTrees t = length roots /\ mt_roots T g t = Ret roots /\
   (forall v, v < n -> (tree v = n /\ mt_treeOfRoot T g t v = Ret n) \/ (tree v < n /\ exists k, mt_treeOfRoot T g t v = Ret k /\ nth_error roots k = Some (tree v))) /\
   (forall init, exists out, mt_nodes T g t init = Ret out /\ length out = length roots /\ forall k, k < length roots -> nth k out [] = nth k init [] ++ filter (fun v => tree v =? nth k roots 0) (seq 0 n))).
Proof.
  destruct adjacency as (nb & EA & LA & HA). destruct (start_ok nb LA HA) as (s0 & E0 & I0). destruct (loop_ok n s0 [] [] I0 ltac:(lia)) as (s & P & Q & E1 & I & D). destruct (numbering s P Q I) as (rep & E2 & L2 & H2).
  exists (mkMt rep (pl_par s) (pl_root s) (length (rts s n))), (par s), (tree s). split; [unfold mt_new; rewrite EA; cbn [bind]; rewrite E0; cbn [bind]; rewrite E1; cbn [bind]; rewrite E2; reflexivity|].
  split; [intros v Hv; split; [eapply parentOf; eauto|eapply treeOf; eauto]|]. split; [eapply forest_ok; eauto|]. split; [eapply links; eauto|]. split; [eapply same_tree_joined; eauto|]. split; [eapply joined_same_tree; eauto|]. cbv zeta. split; [reflexivity|]. split; [eapply roots_ok; eauto|]. split; [eapply treeOfRoot_ok; eauto|]. eapply nodes_ok; eauto.
Qed.
End Proofs.
