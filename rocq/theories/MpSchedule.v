(** The schedule for acyclic models sends every message once, after all the messages that it is made of. *)
From Coq Require Import Sorted Permutation Relations.
From Verif Require Import Base Values GmView GmViewSpec ShapeSpec ShapeProofs FactorOpsSpec FactorOpsProofs FactorGraphModel FactorGraphSpec FactorGraphProofs FactorGraphAcyclic MpModel MpSpec MpSum MpGraph MpState MpMessages.

Lemma filter_none : forall A (p : A -> bool) l, (forall a, In a l -> p a = false) -> filter p l = [].
Proof. intros A p. induction l as [|a l IH]; intros H; auto. cbn [filter]. rewrite H by (left; auto). apply IH. intros; apply H; right; auto. Qed.
Lemma filter_ext_in' : forall A (p q : A -> bool) l, (forall a, In a l -> p a = q a) -> filter p l = filter q l.
Proof. intros A p q. induction l as [|a l IH]; intros H; auto. cbn [filter]. rewrite H by (left; auto). rewrite IH by (intros; apply H; right; auto). auto. Qed.

(** ** Counters *)
Section Counters.
Variable N : nat.
Variable rows : nat -> list nat.
Hypothesis ND : forall x, x < N -> NoDup (rows x).
Definition pmem (p : nat * nat) (l : list (nat * nat)) : bool := existsb (fun q => (fst q =? fst p) && (snd q =? snd p)) l.
Lemma pmem_in : forall p l, pmem p l = true <-> In p l.
Proof.
  intros [a b] l. unfold pmem. rewrite existsb_exists. split.
  - intros ([c d] & H & E). cbn [fst snd] in E. apply andb_true_iff in E. rewrite !Nat.eqb_eq in E. destruct E; subst. auto.
  - intros H. exists (a, b). split; auto. cbn [fst snd]. rewrite !Nat.eqb_refl. auto.
Qed.
Definition ev (p : nat * nat) : nat * nat := (fst p, nth (snd p) (rows (fst p)) 0).
(** The messages to x, other than that from y, that have not arrived. *)
Definition cnt (recv : list (nat * nat)) (x y : nat) : nat := length (filter (fun z => negb (z =? y) && negb (pmem (x, z) recv)) (rows x)).
Record CI (cs : list (list Z)) (ready recv sent : list (nat * nat)) : Prop := {
  ci_shape : shaped N rows cs;
  ci_val : forall x y, x < N -> In y (rows x) -> 0 < cnt recv x y -> get 0%Z rows cs x y = Z.of_nat (cnt recv x y);
  ci_ready : forall x y, x < N -> In y (rows x) -> (In (x, y) (map ev ready ++ sent) <-> cnt recv x y = 0);
  ci_nodup : NoDup (map ev ready ++ sent);
  ci_ok : forall x i, In (x, i) ready -> x < N /\ i < length (rows x);
  ci_sent : forall x y, In (x, y) sent -> x < N /\ In y (rows x) }.

Lemma cnt_other : forall recv x from x' y, x' <> x -> cnt ((x, from) :: recv) x' y = cnt recv x' y.
Proof.
  intros recv x from x' y H. unfold cnt. f_equal. apply filter_ext. intros z. cbn [pmem existsb fst snd]. rewrite (proj2 (Nat.eqb_neq x x')) by auto. reflexivity.
Qed.
Lemma cnt_from : forall recv x from, cnt ((x, from) :: recv) x from = cnt recv x from.
Proof.
  intros recv x from. unfold cnt. f_equal. apply filter_ext. intros z. destruct (Nat.eqb_spec z from) as [->|NE]; auto. cbn [negb andb pmem existsb fst snd]. rewrite Nat.eqb_refl.
  rewrite (proj2 (Nat.eqb_neq from z)) by auto. reflexivity.
Qed.
Lemma cnt_less : forall recv x from y, x < N -> In from (rows x) -> ~ In (x, from) recv -> y <> from -> cnt recv x y = S (cnt ((x, from) :: recv) x y).
Proof.
  intros recv x from y Hx Hf NI NE. unfold cnt. destruct (in_split _ _ Hf) as (l1 & l2 & E). pose proof (ND x Hx) as D. rewrite E in *. apply NoDup_remove in D. destruct D as [_ D]. rewrite in_app_iff in D.
  rewrite !filter_app. cbn [filter]. rewrite (proj2 (Nat.eqb_neq from y)) by auto. cbn [negb andb].
  assert (P : pmem (x, from) recv = false). { destruct (pmem (x, from) recv) eqn:P; auto. apply pmem_in in P. tauto. } rewrite P. cbn [negb].
  assert (P2 : pmem (x, from) ((x, from) :: recv) = true) by (apply pmem_in; left; auto). rewrite P2. cbn [negb].
  assert (Q : forall l, ~ In from l -> filter (fun z => negb (z =? y) && negb (pmem (x, z) ((x, from) :: recv))) l = filter (fun z => negb (z =? y) && negb (pmem (x, z) recv)) l).
  { intros l NL. apply filter_ext_in'. intros z Hz. cbn [pmem existsb fst snd]. rewrite (proj2 (Nat.eqb_neq from z)) by (intros ->; auto). rewrite andb_false_r. reflexivity. }
  rewrite !Q by tauto. rewrite !app_length. cbn [length]. lia.
Qed.
Lemma cnt_0 : forall recv x y, cnt recv x y = 0 <-> forall z, In z (rows x) -> z <> y -> In (x, z) recv.
Proof.
  intros recv x y. unfold cnt. rewrite length_zero_iff_nil. split.
  - intros H z Hz NE. destruct (pmem (x, z) recv) eqn:P; [apply pmem_in; auto|]. exfalso. assert (I : In z (filter (fun z => negb (z =? y) && negb (pmem (x, z) recv)) (rows x))).
    { apply filter_In. split; auto. rewrite P. rewrite (proj2 (Nat.eqb_neq z y)) by auto. auto. } rewrite H in I. destruct I.
  - intros H. apply filter_none. intros z Hz. destruct (Nat.eqb_spec z y); auto. cbn [negb andb]. rewrite (proj2 (pmem_in _ _)); auto.
Qed.

Lemma ev_inj : forall p q, fst p < N -> fst q < N -> snd p < length (rows (fst p)) -> snd q < length (rows (fst q)) -> ev p = ev q -> p = q.
Proof.
  intros [x i] [x' i'] H H' L L' E. unfold ev in E. cbn [fst snd] in *. injection E as <- E. f_equal. apply (NoDup_nth (rows x) 0); auto.
Qed.

(** Lines 345-351: a message from [from] has arrived at x. *)
Lemma notify_ok : forall cs ready recv sent x from, CI cs ready recv sent -> x < N -> In from (rows x) -> ~ In (x, from) recv ->
  exists cs' ready', notify x from (rows x) cs ready = Ret (cs', ready') /\ CI cs' ready' ((x, from) :: recv) sent.
Proof.
  intros cs ready recv sent x from C Hx Hf NI. unfold notify.
  match goal with |- exists _ _, foldM ?F _ _ = _ /\ _ => set (F0 := F) end.
  assert (Q : forall j, j <= length (rows x) -> exists cs' added, foldM F0 (seq 0 j) (cs, ready) = Ret (cs', added ++ ready) /\ shaped N rows cs' /\
    (forall x' y', x' < N -> In y' (rows x') -> get 0%Z rows cs' x' y' = if (x' =? x) && (pos (rows x') y' <? j) && negb (y' =? from) then (get 0%Z rows cs x' y' - 1)%Z else get 0%Z rows cs x' y') /\
    NoDup added /\ (forall x' i, In (x', i) added <-> x' = x /\ i < j /\ nth i (rows x) 0 <> from /\ (get 0 rows cs x (nth i (rows x) 0%nat) - 1 = 0)%Z)).
  { induction j as [|j IH]; intros Hj.
    - exists cs, []. split; [reflexivity|]. split; [apply C|]. split; [|split; [constructor|intros x' i; cbn [In]; intuition lia]].
      intros x' y' _ _. rewrite andb_false_r. reflexivity.
    - destruct IH as (cs1 & added & E & S1 & G1 & N1 & A1); [lia|]. rewrite seq_S, foldM_app, E. cbn [Nat.add foldM bind]. unfold F0 at 1. cbn [fst snd].
      destruct (nth_error_lt _ (rows x) j) as [y Ey]; [lia|]. rewrite (rd_Ret _ _ _ _ Ey). cbn [bind]. pose proof (nth_error_nth _ _ 0 Ey) as Ny. assert (Iy : In y (rows x)) by (eapply nth_error_In; eauto).
      pose proof (pos_nth _ _ _ (ND x Hx) Ey) as Py.
      destruct (Nat.eqb_spec y from) as [->|NE]; cbn [negb].
      + cbn [bind]. exists cs1, added. split; [reflexivity|]. split; auto. split; [|split; auto].
        * intros x' y' Hx' Iy'. rewrite G1 by auto. destruct (Nat.eqb_spec x' x) as [->|]; auto. cbn [andb]. destruct (Nat.eqb_spec y' from) as [->|NE]; [rewrite !andb_false_r; auto|]. cbn [negb]. rewrite !andb_true_r.
          replace (pos (rows x) y' <? S j) with (pos (rows x) y' <? j); auto. apply eq_true_iff_eq. rewrite !Nat.ltb_lt. assert (pos (rows x) y' <> j); [|lia]. intros P. pose proof (pos_in _ _ Iy') as Q. rewrite P in Q. congruence.
        * intros x' i. rewrite A1. split; [intuition lia|]. intros (B1 & B2 & B3 & B4). split; auto. split; auto. assert (i <> j) by (intros ->; congruence). lia.
      + rewrite (rd2_get 0%Z N rows ND cs1 x j y S1 Hx Ey). cbn [bind].
        destruct (wr2_get 0%Z N rows ND cs1 x j y (get 0%Z rows cs1 x y - 1)%Z S1 Hx Ey) as (cs2 & E2 & S2 & G2 & O2). rewrite E2. cbn [bind].
        assert (V : get 0%Z rows cs1 x y = get 0%Z rows cs x y). { rewrite G1 by auto. rewrite Py, Nat.ltb_irrefl, andb_false_r. reflexivity. }
        exists cs2, (if (get 0 rows cs1 x y - 1 =? 0)%Z then (x, j) :: added else added). split; [destruct (_ =? 0)%Z; reflexivity|]. split; auto. split; [|split].
        * intros x' y' Hx' Iy'. destruct (Nat.eq_dec x' x) as [->|NX].
          -- rewrite Nat.eqb_refl. cbn [andb]. destruct (Nat.eq_dec y' y) as [->|NY].
             ++ rewrite G2, V, Py. rewrite (proj2 (Nat.eqb_neq y from)) by auto. rewrite (proj2 (Nat.ltb_lt j (S j))) by lia. reflexivity.
             ++ rewrite O2 by (auto; congruence). rewrite G1 by auto. rewrite Nat.eqb_refl. cbn [andb]. replace (pos (rows x) y' <? S j) with (pos (rows x) y' <? j); auto. apply eq_true_iff_eq. rewrite !Nat.ltb_lt.
                assert (pos (rows x) y' <> j); [|lia]. intros P. pose proof (pos_in _ _ Iy') as Q. rewrite P in Q. congruence.
          -- rewrite O2 by (auto; congruence). rewrite G1 by auto. rewrite (proj2 (Nat.eqb_neq x' x)) by auto. reflexivity.
        * destruct (_ =? 0)%Z; auto. constructor; auto. rewrite A1. lia.
        * intros x' i. rewrite V. destruct (Z.eqb_spec (get 0%Z rows cs x y - 1) 0) as [Z0|Z0].
          -- cbn [In]. rewrite A1. split.
             ++ intros [X|X]; [injection X as <- <-; rewrite Ny; repeat split; auto|intuition lia].
             ++ intros (B1 & B2 & B3 & B4). destruct (Nat.eq_dec i j) as [->|]; [left; subst; auto|right; repeat split; auto; lia].
          -- rewrite A1. split; [intuition lia|]. intros (B1 & B2 & B3 & B4). destruct (Nat.eq_dec i j) as [->|]; [exfalso; rewrite Ny in B4; auto|repeat split; auto; lia]. }
  destruct (Q (length (rows x)) (le_n _)) as (cs' & added & E & S1 & G1 & N1 & A1). clear Q. exists cs', (added ++ ready). split; auto. clear E F0. destruct C as [C1 C2 C3 C4 C5 C6].
  assert (GX : forall y, In y (rows x) -> y <> from -> get 0%Z rows cs' x y = (get 0 rows cs x y - 1)%Z).
  { intros y Iy NE. rewrite G1 by auto. rewrite Nat.eqb_refl, (proj2 (Nat.ltb_lt _ _)) by (apply pos_lt; auto). rewrite (proj2 (Nat.eqb_neq y from)) by auto. reflexivity. }
  assert (GO : forall x' y, x' < N -> In y (rows x') -> (x' <> x \/ y = from) -> get 0%Z rows cs' x' y = get 0%Z rows cs x' y).
  { intros x' y Hx' Iy [H| ->]; rewrite G1 by auto; [rewrite (proj2 (Nat.eqb_neq x' x)) by auto; reflexivity|]. rewrite Nat.eqb_refl, andb_false_r. reflexivity. }
  assert (AE : forall p, In p (map ev added) <-> exists y, p = (x, y) /\ In y (rows x) /\ y <> from /\ cnt ((x, from) :: recv) x y = 0).
  { intros p. rewrite in_map_iff. split.
    - intros ([x' i] & <- & H). apply A1 in H. destruct H as (-> & H1 & H2 & H3). exists (nth i (rows x) 0). unfold ev. cbn [fst snd]. split; auto. assert (I : In (nth i (rows x) 0) (rows x)) by (apply nth_In; auto). split; auto. split; auto.
      pose proof (cnt_less recv x from _ Hx Hf NI H2) as L. rewrite C2 in H3 by (auto; lia). lia.
    - intros (y & -> & H1 & H2 & H3). exists (x, pos (rows x) y). unfold ev. cbn [fst snd]. pose proof (pos_in _ _ H1) as P. rewrite (nth_error_nth _ _ 0 P). split; auto. apply A1. split; auto. split; [apply pos_lt; auto|].
      rewrite (nth_error_nth _ _ 0 P). split; auto. pose proof (cnt_less recv x from _ Hx Hf NI H2) as L. rewrite C2 by (auto; lia). lia. }
  constructor; auto.
  - intros x' y Hx' Iy P. destruct (Nat.eq_dec x' x) as [->|NX].
    + destruct (Nat.eq_dec y from) as [->|NE].
      * rewrite cnt_from in *. rewrite GO by auto. auto.
      * rewrite GX by auto. pose proof (cnt_less recv x from _ Hx Hf NI NE) as L. rewrite C2 by (auto; lia). lia.
    + rewrite cnt_other in * by auto. rewrite GO by auto. auto.
  - intros x' y Hx' Iy. rewrite map_app, <- app_assoc, in_app_iff. rewrite (C3 x' y Hx' Iy), AE. destruct (Nat.eq_dec x' x) as [->|NX].
    + destruct (Nat.eq_dec y from) as [->|NE].
      * rewrite cnt_from. split; [intros [(y' & H & _ & H' & _)|H]; auto; congruence|auto].
      * pose proof (cnt_less recv x from _ Hx Hf NI NE) as L. split; [intros [(y' & H & _ & _ & H')|H]; [injection H as <-; auto|lia]|]. intros H. left. eauto.
    + rewrite cnt_other by auto. split; [intros [(y' & H & _)|H]; auto; congruence|auto].
  - rewrite map_app, <- app_assoc. apply NoDup_app_intro; auto.
    + apply NoDup_map_in; auto. intros [a i] [b j] Ha Hb. apply A1 in Ha, Hb. destruct Ha as (-> & Ha & _), Hb as (-> & Hb & _). apply ev_inj; auto.
    + intros p P1 P2. apply AE in P1. destruct P1 as (y & -> & H1 & H2 & H3). apply C3 in P2; auto. pose proof (cnt_less recv x from _ Hx Hf NI H2). lia.
  - intros x' i H. apply in_app_iff in H. destruct H as [H|H]; auto. apply A1 in H. destruct H as (-> & H & _). auto.
Qed.

(** Lines 319-334. *)
Lemma find_ready_ok : forall cs, shaped N rows cs -> (forall x y, x < N -> In y (rows x) -> get 0%Z rows cs x y = (Z.of_nat (length (rows x)) - 1)%Z) ->
  exists cs' ready, find_ready cs = Ret (cs', ready) /\ CI cs' ready [] [].
Proof.
  intros cs S G. unfold find_ready.
  match goal with |- exists _ _, foldM ?F _ _ = _ /\ _ => set (F0 := F) end.
  assert (Q : forall k, k <= N -> exists cs' rd', foldM F0 (seq 0 k) (cs, []) = Ret (cs', rd') /\ shaped N rows cs' /\
    (forall x y, x < N -> In y (rows x) -> get 0%Z rows cs' x y = if (x <? k) && (length (rows x) =? 1) then (-1)%Z else (Z.of_nat (length (rows x)) - 1)%Z) /\
    NoDup rd' /\ (forall x i, In (x, i) rd' <-> x < k /\ length (rows x) = 1 /\ i = 0)).
  { induction k as [|k IH]; intros Hk.
    - exists cs, []. split; [reflexivity|]. split; auto. split; [intros; cbn; auto|]. split; [constructor|]. intros; cbn [In]; intuition lia.
    - destruct IH as (cs1 & rd1 & E & S1 & G1 & N1 & A1); [lia|]. rewrite seq_S, foldM_app, E. cbn [Nat.add foldM bind]. unfold F0 at 1. rewrite (rd_row 0%Z N rows ND cs k S) by lia. cbn [bind]. rewrite map_length.
      match goal with |- context [foldM ?F (seq 0 (length (rows k))) _] => set (F1 := F) end.
      destruct (Nat.eq_dec (length (rows k)) 1) as [L1|L1].
      + destruct (rows k) as [|y [|]] eqn:Ek; try discriminate. cbn [length seq foldM]. unfold F1 at 1. cbn [fst snd].
        assert (Ey : nth_error (rows k) 0 = Some y) by (rewrite Ek; auto). assert (Iy : In y (rows k)) by (rewrite Ek; left; auto).
        rewrite (rd2_get 0%Z N rows ND cs1 k 0 y S1 ltac:(lia) Ey). cbn [bind]. rewrite G1 by (auto; lia). rewrite Nat.ltb_irrefl. cbn [andb]. rewrite Ek. cbn [length]. change (Z.of_nat 1 - 1 =? 0)%Z with true. cbv iota.
        change (Z.of_nat 1 - 1 - 1)%Z with (-1)%Z.
        destruct (wr2_get 0%Z N rows ND cs1 k 0 y (-1)%Z S1 ltac:(lia) Ey) as (cs2 & E2 & S2 & G2 & O2). rewrite E2. cbn [bind].
        exists cs2, ((k, 0) :: rd1). split; [reflexivity|]. split; auto. split; [|split].
        * intros x y' Hx Iy'. destruct (Nat.eq_dec x k) as [->|NX].
          -- rewrite Ek in Iy'. destruct Iy' as [<-|[]]. rewrite G2, Ek. rewrite (proj2 (Nat.ltb_lt k (Datatypes.S k))) by lia. reflexivity.
          -- rewrite O2 by (auto; congruence). rewrite G1 by auto. replace (x <? Datatypes.S k) with (x <? k); auto. apply eq_true_iff_eq. rewrite !Nat.ltb_lt. lia.
        * constructor; auto. rewrite A1. lia.
        * intros x i. cbn [In]. rewrite A1. split; [intros [X|X]; [injection X as <- <-; rewrite Ek; repeat split; auto|intuition lia]|]. intros (B1 & B2 & B3). destruct (Nat.eq_dec x k) as [->|]; [left; subst; auto|right; repeat split; auto; lia].
      + assert (FF : forall j, j <= length (rows k) -> foldM F1 (seq 0 j) (cs1, rd1) = Ret (cs1, rd1)).
        { induction j as [|j IHj]; intros Hj; auto. rewrite seq_S, foldM_app, IHj by lia. cbn [Nat.add foldM bind]. unfold F1. cbn [fst snd].
          destruct (nth_error_lt _ (rows k) j) as [y Ey]; [lia|]. rewrite (rd2_get 0%Z N rows ND cs1 k j y S1 ltac:(lia) Ey). cbn [bind]. rewrite G1 by (try lia; eapply nth_error_In; eauto).
          rewrite Nat.ltb_irrefl. cbn [andb]. destruct (Z.eqb_spec (Z.of_nat (length (rows k)) - 1) 0); [lia|]. reflexivity. }
        rewrite FF by lia. cbn [bind]. exists cs1, rd1. split; [reflexivity|]. split; auto. split; [|split; auto].
        * intros x y Hx Iy. rewrite G1 by auto. destruct (Nat.eq_dec x k) as [->|].
          -- rewrite (proj2 (Nat.eqb_neq (length (rows k)) 1)) by auto. rewrite !andb_false_r. auto.
          -- replace (x <? Datatypes.S k) with (x <? k); auto. apply eq_true_iff_eq. rewrite !Nat.ltb_lt. lia.
        * intros x i. rewrite A1. split; [intuition lia|]. intros (B1 & B2 & B3). repeat split; auto. destruct (Nat.eq_dec x k) as [->|]; [congruence|lia]. }
  assert (LN : length cs = N) by apply S. destruct (Q N (le_n _)) as (cs' & rd' & E & S1 & G1 & N1 & A1). clear Q. rewrite LN. exists cs', rd'. split; auto.
  assert (CT : forall x y, x < N -> In y (rows x) -> cnt [] x y = length (rows x) - 1).
  { intros x y Hx Iy. unfold cnt. pose proof (ND x Hx) as D. destruct (in_split _ _ Iy) as (l1 & l2 & EQ). rewrite EQ in *. apply NoDup_remove in D. destruct D as [_ D]. rewrite in_app_iff in D.
    rewrite !filter_app, !app_length. cbn [filter]. rewrite Nat.eqb_refl. cbn [negb andb length].
    assert (FA : forall l, ~ In y l -> length (filter (fun z => negb (z =? y) && negb (pmem (x, z) [])) l) = length l).
    { induction l as [|z l IH]; intros NI; auto. cbn [filter]. rewrite (proj2 (Nat.eqb_neq z y)) by (intros ->; apply NI; left; auto). cbn. f_equal. apply IH. intros H. apply NI. right. auto. }
    rewrite !FA by tauto. lia. }
  constructor; auto.
  - intros x y Hx Iy P. rewrite G1, CT in * by auto. rewrite (proj2 (Nat.eqb_neq (length (rows x)) 1)) by lia. rewrite andb_false_r. lia.
  - intros x y Hx Iy. rewrite app_nil_r, in_map_iff, CT by auto. split.
    + intros ([x' i] & E1 & H). apply A1 in H. destruct H as (H1 & H2 & ->). unfold ev in E1. cbn [fst snd] in E1. injection E1 as -> _. lia.
    + intros L. assert (L1 : length (rows x) = 1). { destruct (rows x); [destruct Iy|]. cbn [length] in *. lia. } exists (x, 0). split; [|apply A1; auto]. unfold ev. cbn [fst snd]. destruct (rows x) as [|z [|]]; try discriminate. destruct Iy as [->|[]]. auto.
  - rewrite app_nil_r. apply NoDup_map_in; auto. intros [a i] [b j] Ha Hb. apply A1 in Ha, Hb. apply ev_inj; cbn [fst snd]; intuition lia.
  - intros x i H. apply A1 in H. destruct H as (H1 & H2 & ->). split; auto. lia.
  - intros x y [].
Qed.

(** The message that is sent next. *)
Lemma pop_ok : forall cs x i ready recv sent y, CI cs ((x, i) :: ready) recv sent -> nth_error (rows x) i = Some y ->
  CI cs ready recv ((x, y) :: sent) /\ ~ In (x, y) sent /\ (forall z, In z (rows x) -> z <> y -> In (x, z) recv).
Proof.
  intros cs x i ready recv sent y [C1 C2 C3 C4 C5 C6] Ey. cbn [map app] in *. assert (EV : ev (x, i) = (x, y)). { unfold ev. cbn [fst snd]. rewrite (nth_error_nth _ _ _ Ey). auto. }
  rewrite EV in *. destruct (C5 x i (or_introl eq_refl)) as [Hx _]. assert (Iy : In y (rows x)) by (eapply nth_error_In; eauto).
  pose proof (Permutation_middle (map ev ready) sent (x, y)) as PM. inversion C4; subst. split; [|split].
  - constructor; auto.
    + intros x' y' Hx' Iy'. rewrite <- (C3 x' y' Hx' Iy'). split; apply Permutation_in; [symmetry|]; auto.
    + eapply Permutation_NoDup; eauto.
    + intros x' i' H. apply C5. right. auto.
    + intros x' y' [H|H]; [injection H as <- <-; auto|auto].
  - intros H. apply H1. apply in_app_iff. auto.
  - apply cnt_0. apply (C3 x y Hx Iy). left. auto.
Qed.
End Counters.
