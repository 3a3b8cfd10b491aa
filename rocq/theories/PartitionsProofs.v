(** Proofs about the partition table. *)
From Coq Require Import Sorted Permutation NArith Nnat.
From Verif Require Import Base PartitionsModel PartitionsSpec.

#[local] Arguments N.mul : simpl never.
#[local] Arguments N.add : simpl never.
#[local] Arguments N.pow : simpl never.

(** ** label2Number as a bit vector *)
Definition pairs (n : nat) : list (nat * nat) := flat_map (fun i => map (pair i) (seq 0 i)) (seq 1 (n - 1)).
Definition bits (n : nat) (l : list nat) : list bool :=
  map (fun ij => Nat.eqb (nth (fst ij) l 0) (nth (snd ij) l 0)) (pairs n).
Fixpoint val (bs : list bool) : N :=
  match bs with [] => 0 | b :: t => bool2N b + 2 * val t end%N.

Lemma pairs_S : forall n, pairs (S n) = pairs n ++ map (pair n) (seq 0 n).
Proof.
  intros [|n]; auto. unfold pairs. replace (S (S n) - 1) with (S (S n - 1)) by lia.
  rewrite seq_S, flat_map_app. f_equal. cbn [flat_map]. rewrite app_nil_r.
  replace (1 + (S n - 1)) with (S n) by lia. auto.
Qed.

Lemma pairs_In : forall n i j, In (i, j) (pairs n) <-> j < i < n.
Proof.
  induction n as [|n IH]; intros i j.
  - cbn. lia.
  - rewrite pairs_S, in_app_iff, IH, in_map_iff. split.
    + intros [H|[k [E H]]]; [lia|]. injection E as <- <-. apply in_seq in H. lia.
    + intro H. destruct (Nat.eq_dec i n) as [->|N]; [|left; lia].
      right. exists j. split; auto. apply in_seq. lia.
Qed.

Lemma val_lt : forall bs, (val bs < 2 ^ N.of_nat (length bs))%N.
Proof.
  induction bs as [|b bs IH]; cbn [val length]; [reflexivity|].
  rewrite Nat2N.inj_succ, N.pow_succ_r'. destruct b; cbn [bool2N]; lia.
Qed.

Lemma val_app : forall a b, val (a ++ b) = (val a + 2 ^ N.of_nat (length a) * val b)%N.
Proof.
  induction a as [|x a IH]; intro b; cbn [app val length].
  - change (2 ^ N.of_nat 0)%N with 1%N. lia.
  - rewrite IH, Nat2N.inj_succ, N.pow_succ_r'. lia.
Qed.

Lemma val_inj : forall a b, length a = length b -> val a = val b -> a = b.
Proof.
  induction a as [|x a IH]; intros [|y b] L E; cbn in L; try discriminate; auto.
  cbn [val] in E. assert (x = y /\ val a = val b) as [-> Hv].
  { destruct x, y; cbn [bool2N] in E; split; auto; lia. }
  f_equal. apply IH; auto.
Qed.

Lemma val_zero : forall bs, val bs = 0%N -> forall b, In b bs -> b = false.
Proof.
  induction bs as [|x bs IH]; intros E b H; [destruct H|].
  cbn [val] in E. destruct H as [<-|H].
  - destruct x; auto. cbn [bool2N] in E. lia.
  - apply IH; auto. destruct x; cbn [bool2N] in E; lia.
Qed.

Lemma val_all_false : forall bs, (forall b, In b bs -> b = false) -> val bs = 0%N.
Proof.
  induction bs as [|x bs IH]; intro H; auto. cbn [val]. rewrite IH by (intros; apply H; simpl; auto).
  rewrite (H x); simpl; auto.
Qed.

Definition tri (n : nat) : nat := length (pairs n).

Lemma tri_mono : forall n m, n <= m -> tri n <= tri m.
Proof.
  intros n m H. induction H; auto. unfold tri in *. rewrite pairs_S, app_length. lia.
Qed.

Lemma tri_11 : forall n, n <= 11 -> tri n <= 55.
Proof. intros n H. apply tri_mono in H. replace (tri 11) with 55 in H by reflexivity. auto. Qed.

Lemma tri_div2 : forall n, Nat.div2 (n * (n - 1)) = tri n.
Proof.
  induction n as [|n IH]; auto. unfold tri in *. rewrite pairs_S, app_length, map_length, seq_length, <- IH.
  replace (S n - 1) with n by lia. destruct n as [|n]; auto.
  replace (S (S n) * S n) with (S n * (S n - 1) + 2 * S n) by (replace (S n - 1) with n by lia; ring).
  rewrite !Nat.div2_div. rewrite Nat.mul_comm with (n := 2). rewrite Nat.div_add by lia. auto.
Qed.

Lemma fold_left_flat_map : forall A B C (f : A -> list B) (g : C -> B -> C) l s,
  fold_left g (flat_map f l) s = fold_left (fun s a => fold_left g (f a) s) l s.
Proof. induction l as [|a l IH]; intro s; cbn; auto. rewrite fold_left_app. auto. Qed.

Lemma fold_left_map : forall A B C (f : A -> B) (g : C -> B -> C) l s,
  fold_left g (map f l) s = fold_left (fun s a => g s (f a)) l s.
Proof. induction l as [|a l IH]; intro s; cbn; auto. Qed.

Definition bitstep (st : N * N) (b : bool) : N * N :=
  (wrap64 (fst st + snd st * bool2N b), wrap64 (snd st * 2)).

Lemma bitfold : forall bs ind k, (ind < 2 ^ N.of_nat k)%N -> k + length bs <= 63 ->
  fold_left bitstep bs (ind, 2 ^ N.of_nat k)%N =
  (ind + 2 ^ N.of_nat k * val bs, 2 ^ N.of_nat (k + length bs))%N.
Proof.
  induction bs as [|b bs IH]; intros ind k H1 H2; cbn [fold_left val length].
  - f_equal; [lia|]. rewrite Nat.add_0_r. auto.
  - cbn [length] in H2. unfold bitstep at 2. cbn [fst snd].
    assert (HP : (2 ^ N.of_nat (S k) < 2 ^ 64)%N) by (apply N.pow_lt_mono_r; lia).
    assert (HS : (2 ^ N.of_nat (S k) = 2 * 2 ^ N.of_nat k)%N) by (rewrite Nat2N.inj_succ, N.pow_succ_r'; auto).
    assert (HB : (ind + 2 ^ N.of_nat k * bool2N b < 2 ^ N.of_nat (S k))%N).
    { rewrite HS. destruct b; cbn [bool2N]; lia. }
    unfold wrap64. rewrite (N.mod_small (ind + _)) by lia.
    rewrite (N.mod_small (_ * 2)) by lia.
    replace (2 ^ N.of_nat k * 2)%N with (2 ^ N.of_nat (S k))%N by lia.
    rewrite IH by (auto; lia). f_equal; [rewrite HS; lia|]. f_equal. f_equal. lia.
Qed.

Definition code (n : nat) (l : list nat) : N := val (bits n l).

Lemma label2Number_code : forall l, tri (length l) <= 63 -> label2Number l = code (length l) l.
Proof.
  intros l H. unfold label2Number, code.
  transitivity (fst (fold_left bitstep (bits (length l) l) (0, 1)%N)).
  - f_equal. unfold bits, pairs. rewrite fold_left_map, fold_left_flat_map.
    generalize (seq 1 (length l - 1)) as L, (0%N, 1%N) as st.
    induction L as [|a L IH]; intro st; cbn [fold_left]; auto. rewrite IH. f_equal.
    rewrite fold_left_map. cbn [fst snd]. clear IH. generalize (seq 0 a) as M. revert st.
    intros st M. revert st. induction M as [|b M IHM]; intro st; cbn [fold_left]; auto.
    rewrite IHM. f_equal. destruct st as [x y]. unfold bitstep. auto.
  - change (0, 1)%N with (0, 2 ^ N.of_nat 0)%N. rewrite bitfold.
    + cbn [fst]. change (2 ^ N.of_nat 0)%N with 1%N. lia.
    + reflexivity.
    + unfold bits. rewrite map_length. auto.
Qed.

Lemma bits_length : forall n l, length (bits n l) = tri n.
Proof. intros. unfold bits. rewrite map_length. auto. Qed.

Lemma code_ext : forall n l l', (forall i, i < n -> nth i l 0 = nth i l' 0) -> code n l = code n l'.
Proof.
  intros n l l' H. unfold code, bits. f_equal. apply map_ext_in. intros [i j] Hij.
  apply pairs_In in Hij. cbn [fst snd]. rewrite !H by lia. auto.
Qed.

Lemma code_eq_iff : forall n l l', code n l = code n l' <->
  (forall i j, i < n -> j < n -> (nth i l 0 = nth j l 0 <-> nth i l' 0 = nth j l' 0)).
Proof.
  intros n l l'. split.
  - intro E. apply val_inj in E; [|rewrite !bits_length; auto].
    assert (P : forall i j, j < i < n -> (nth i l 0 = nth j l 0 <-> nth i l' 0 = nth j l' 0)).
    { intros i j Hij. apply pairs_In in Hij. unfold bits in E.
      assert (G : forall A B (f g : A -> B) L, map f L = map g L -> forall x, In x L -> f x = g x).
      { induction L as [|a L IH]; intros E0 x Hx; [destruct Hx|]. injection E0 as E1 E2.
        destruct Hx as [<-|Hx]; auto. }
      apply G with (x := (i, j)) in E; auto. cbn [fst snd] in E.
      destruct (Nat.eqb_spec (nth i l 0) (nth j l 0)), (Nat.eqb_spec (nth i l' 0) (nth j l' 0)); try discriminate; tauto. }
    intros i j Hi Hj. destruct (Nat.lt_trichotomy i j) as [C|[->|C]].
    + specialize (P j i ltac:(lia)). split; intro E2; symmetry; apply P; auto.
    + tauto.
    + apply P. lia.
  - intro H. unfold code, bits. f_equal. apply map_ext_in. intros [i j] Hij.
    apply pairs_In in Hij. cbn [fst snd].
    specialize (H i j ltac:(lia) ltac:(lia)).
    destruct (Nat.eqb_spec (nth i l 0) (nth j l 0)), (Nat.eqb_spec (nth i l' 0) (nth j l' 0)); tauto.
Qed.

Lemma code_lt : forall n l, (code n l < 2 ^ N.of_nat (tri n))%N.
Proof. intros. unfold code. rewrite <- (bits_length n l). apply val_lt. Qed.

Lemma bits_split : forall n m l, n <= m -> exists rest, bits m l = bits n l ++ rest /\
  (forall b, In b rest <-> exists i j, n <= i < m /\ j < i /\ b = Nat.eqb (nth i l 0) (nth j l 0)).
Proof.
  intros n m l H. induction H as [|m H IH].
  - exists []. rewrite app_nil_r. split; auto. intro b. split; [intros []|]. intros [i [j Hij]]. lia.
  - destruct IH as [rest [E HR]].
    exists (rest ++ map (fun j => Nat.eqb (nth m l 0) (nth j l 0)) (seq 0 m)). split.
    + unfold bits in *. rewrite pairs_S, map_app, E, <- app_assoc. f_equal. f_equal.
      rewrite map_map. auto.
    + intro b. rewrite in_app_iff, HR, in_map_iff. split.
      * intros [[i [j Hij]]|[j [E2 Hj]]].
        -- exists i, j. intuition lia.
        -- apply in_seq in Hj. exists m, j. split; [lia|]. split; [lia|auto].
      * intros [i [j [H1 [H2 H3]]]]. destruct (Nat.eq_dec i m) as [->|N].
        -- right. exists j. split; auto. apply in_seq. lia.
        -- left. exists i, j. split; [lia|]. auto.
Qed.

(** Codes of labelings of length n. *)
Definition Codes (n : nat) (c : N) : Prop := exists l, length l = n /\ c = code n l.

Lemma list_max_nth : forall l i, nth i l 0 <= list_max l.
Proof.
  induction l as [|a l IH]; intros [|i]; cbn; try lia.
  specialize (IH i). change (fold_right Nat.max 0 l) with (list_max l). lia.
Qed.

Lemma Codes_prefix : forall n m c, n <= m -> (Codes n c <-> Codes m c /\ (c < 2 ^ N.of_nat (tri n))%N).
Proof.
  intros n m c Hnm. split.
  - intros [l [L ->]]. split; [|apply code_lt].
    exists (l ++ seq (S (list_max l)) (m - n)). split; [rewrite app_length, seq_length; lia|].
    set (l' := l ++ seq (S (list_max l)) (m - n)).
    destruct (bits_split n m l' Hnm) as [rest [E HR]].
    unfold code at 2. rewrite E, val_app, (val_all_false rest), N.mul_0_r, N.add_0_r.
    + apply code_ext. intros i Hi. unfold l'. rewrite app_nth1 by lia. auto.
    + intros b Hb. apply HR in Hb. destruct Hb as [i [j [H1 [H2 ->]]]]. apply Nat.eqb_neq.
      unfold l'. rewrite app_nth2 by lia. rewrite seq_nth by lia.
      destruct (Nat.lt_ge_cases j (length l)) as [C|C].
      * rewrite app_nth1 by lia. pose proof (list_max_nth l j). lia.
      * rewrite app_nth2 by lia. rewrite seq_nth by lia. lia.
  - intros [[l [L ->]] Hlt]. exists (firstn n l). split; [rewrite firstn_length; lia|].
    destruct (bits_split n m l Hnm) as [rest [E HR]].
    unfold code at 1. rewrite E, val_app. 
    assert (Hz : val rest = 0%N).
    { unfold code in Hlt. rewrite E, val_app, bits_length in Hlt. 
      destruct (val rest) as [|p] eqn:Ev; auto. exfalso.
      assert (2 ^ N.of_nat (tri n) * 1 <= 2 ^ N.of_nat (tri n) * N.pos p)%N by (apply N.mul_le_mono_l; lia). lia. }
    rewrite Hz, N.mul_0_r, N.add_0_r. apply code_ext. intros i Hi.
    rewrite <- (firstn_skipn n l) at 1. rewrite app_nth1; auto. rewrite firstn_length. lia.
Qed.

(** ** The enumeration *)
(** Number of labels used. *)
Definition nl (l : list nat) : nat := match l with [] => 0 | _ => S (list_max l) end.

Fixpoint RG (l : list nat) : Prop :=
  match l with [] => True | x :: t => x <= nl t /\ RG t end.

Fixpoint succ (l : list nat) : option (list nat) :=
  match l with
  | [] => None
  | x :: t => if Nat.ltb x (nl t) then Some (S x :: t) else option_map (cons 0) (succ t)
  end.

Lemma list_max_cons : forall x t, list_max (x :: t) = Nat.max x (list_max t).
Proof. reflexivity. Qed.

Lemma nl_cons : forall x t, x <= nl t -> nl (x :: t) = if Nat.eqb x (nl t) then S (nl t) else nl t.
Proof.
  intros x t H. unfold nl at 1. rewrite list_max_cons. destruct t as [|y t].
  - cbn in *. assert (x = 0) by lia. subst. auto.
  - unfold nl in *. destruct (Nat.eqb_spec x (S (list_max (y :: t)))); lia.
Qed.

Lemma nl_le : forall l, RG l -> nl l <= length l.
Proof.
  induction l as [|x t IH]; intro H; auto. destruct H as [H1 H2]. rewrite nl_cons by auto.
  cbn [length]. specialize (IH H2). destruct (Nat.eqb_spec x (nl t)); lia.
Qed.

Lemma maxV_hd : forall l, hd 0 (maxV l) = list_max l.
Proof. induction l as [|x t IH]; auto. cbn [maxV hd]. rewrite IH, list_max_cons. lia. Qed.

Lemma find_map : forall A B (f : B -> bool) (g : A -> B) l,
  find f (map g l) = option_map g (find (fun a => f (g a)) l).
Proof. induction l as [|a l IH]; cbn; auto. destruct (f (g a)); auto. Qed.

Lemma find_ext : forall A (f g : A -> bool) l, (forall a, In a l -> f a = g a) -> find f l = find g l.
Proof.
  induction l as [|a l IH]; intro H; cbn; auto. rewrite H by (simpl; auto). destruct (g a); auto.
  apply IH. intros; apply H; simpl; auto.
Qed.

Lemma incr_pos_cons : forall x t, RG (x :: t) ->
  incr_pos (x :: t) = if Nat.ltb x (nl t) then Some 0 else option_map S (incr_pos t).
Proof.
  intros x t [H1 H2]. unfold incr_pos. cbn [length seq find nth maxV].
  replace (S (length t) - 1 - 0) with (length t) by lia. 
  assert (E0 : Nat.ltb x (length t) && (Nat.eqb 0 (S (length t) - 1) || Nat.leb x (nth 0 (maxV t) 0)) = Nat.ltb x (nl t)).
  { replace (nth 0 (maxV t) 0) with (list_max t) by (rewrite <- maxV_hd; destruct t; auto).
    pose proof (nl_le t H2) as Hl. destruct t as [|y t]; [reflexivity|].
    unfold nl in *. cbn [length] in *. 
    replace (Nat.eqb 0 (S (S (length t)) - 1)) with false by (symmetry; apply Nat.eqb_neq; lia).
    cbn [orb]. destruct (Nat.ltb_spec x (S (list_max (y :: t)))), (Nat.ltb_spec x (S (length t))), (Nat.leb_spec x (list_max (y :: t))); auto; lia. }
  rewrite E0. destruct (Nat.ltb x (nl t)); auto.
  rewrite <- seq_shift, find_map. f_equal. apply find_ext. intros p Hp. apply in_seq in Hp.
  replace (S (length t) - 1 - S p) with (length t - 1 - p) by lia.
  replace (Nat.eqb (S p) (S (length t) - 1)) with (Nat.eqb p (length t - 1)); auto.
  destruct (Nat.eqb_spec p (length t - 1)), (Nat.eqb_spec (S p) (S (length t) - 1)); auto; lia.
Qed.

Lemma zero_loop : forall p l,
  fold_left (fun l q => upd l (q - 1) 0) (rev (seq 1 p)) l = repeat 0 (Nat.min p (length l)) ++ skipn p l.
Proof.
  induction p as [|p IH]; intro l; auto.
  rewrite seq_S, rev_app_distr. cbn [rev app fold_left plus]. rewrite IH, length_upd.
  replace (S p - 1) with p by lia. 
  destruct (Nat.lt_ge_cases p (length l)) as [C|C].
  - replace (Nat.min p (length l)) with p by lia. replace (Nat.min (S p) (length l)) with (S p) by lia.
    replace (skipn p (upd l p 0)) with (0 :: skipn (S p) l).
    + replace (S p) with (p + 1) at 2 by lia. rewrite repeat_app, <- app_assoc. auto.
    + clear IH. revert l C. induction p as [|p IH]; intros [|a l] C; cbn in C; try lia; auto.
      cbn [upd skipn]. apply IH. lia.
  - rewrite !Nat.min_r by lia. rewrite !skipn_all2; auto; rewrite ?length_upd; lia.
Qed.

Lemma incr_pos_lt : forall l p, incr_pos l = Some p -> p < length l.
Proof. intros l p H. unfold incr_pos in H. apply find_some in H. destruct H as [H _]. apply in_seq in H. lia. Qed.

Lemma increment_succ : forall l, RG l -> increment l = succ l.
Proof.
  induction l as [|x t IH]; intro H; auto.
  unfold increment. rewrite incr_pos_cons by auto. cbn [succ].
  destruct (Nat.ltb x (nl t)); auto. rewrite <- IH by apply H.
  unfold increment. destruct (incr_pos t) as [p|] eqn:E; auto. cbn [option_map]. f_equal.
  rewrite !zero_loop, !length_upd. pose proof (incr_pos_lt _ _ E).
  cbn [length nth upd skipn]. replace (Nat.min (S p) (S (length t))) with (S (Nat.min p (length t))) by lia.
  cbn [repeat app]. auto.
Qed.

Definition step (L : list (list nat)) : list (list nat) :=
  flat_map (fun l => map (fun x => x :: l) (seq 0 (S (nl l)))) L.
Fixpoint enum (n : nat) : list (list nat) := match n with 0 => [[]] | S n => step (enum n) end.

Lemma enum_In : forall n l, In l (enum n) <-> length l = n /\ RG l.
Proof.
  induction n as [|n IH]; intro l; cbn [enum].
  - split; [intros [<-|[]]; cbn; auto|]. intros [H _]. destruct l; [left; auto|discriminate].
  - unfold step. rewrite in_flat_map. split.
    + intros [t [Ht Hl]]. apply in_map_iff in Hl. destruct Hl as [x [<- Hx]]. apply in_seq in Hx.
      apply IH in Ht. destruct Ht. cbn. split; [lia|]. split; [lia|auto].
    + intros [H1 H2]. destruct l as [|x t]; [discriminate|]. destruct H2 as [H2 H3].
      exists t. split; [apply IH; cbn in H1; auto|]. apply in_map_iff. exists x. split; auto. apply in_seq. lia.
Qed.

Lemma enum_NoDup : forall n, NoDup (enum n).
Proof.
  induction n as [|n IH]; cbn [enum]; [repeat constructor; auto|].
  unfold step. induction IH as [|l L Hl HL IHL]; cbn [flat_map]; [constructor|].
  apply NoDup_app_intro; auto.
  - apply NoDup_map_in; [apply seq_NoDup|]. intros x y _ _ E. injection E. auto.
  - intros x Hx Hx2. apply in_map_iff in Hx. destruct Hx as [a [<- Ha]].
    apply in_flat_map in Hx2. destruct Hx2 as [l2 [H2 H3]]. apply in_map_iff in H3.
    destruct H3 as [b [E Hb]]. injection E as _ <-. contradiction.
Qed.

(** Consecutive elements are successors; the last one has none. *)
Fixpoint chain (l : list nat) (L : list (list nat)) : Prop :=
  match L with [] => succ l = None | l' :: L' => succ l = Some l' /\ chain l' L' end.

Lemma chain_step : forall L l, chain l L -> 
  exists L', step (l :: L) = (0 :: l) :: L' /\ chain (0 :: l) L'.
Proof.
  assert (Hblock : forall l rest k x, x + k = nl l ->
     (forall y, succ l = y -> match rest with [] => y = None | r :: rest' => exists l', y = Some l' /\ r = 0 :: l' /\ chain r rest' end) ->
     chain (x :: l) (map (fun x => x :: l) (seq (S x) k) ++ rest)).
  { intros l rest k. induction k as [|k IH]; intros x E Hrest.
    - cbn [seq map app]. specialize (Hrest _ eq_refl).
      assert (Hx : Nat.ltb x (nl l) = false) by (apply Nat.ltb_ge; lia).
      destruct rest as [|r rest]; cbn [chain succ]; rewrite Hx.
      + rewrite Hrest. auto.
      + destruct Hrest as [l' [E1 [E2 E3]]]. rewrite E1. cbn [option_map]. split; [congruence|auto].
    - cbn [seq map app chain succ]. split.
      + replace (Nat.ltb x (nl l)) with true; auto. symmetry. apply Nat.ltb_lt. lia.
      + apply IH; auto. lia. }
  induction L as [|l1 L IH]; intros l H.
  - exists (map (fun x => x :: l) (seq 1 (nl l)) ++ []). split.
    + unfold step. cbn [flat_map seq map app]. auto.
    + apply Hblock; auto. intros y <-. auto.
  - destruct H as [H1 H2]. destruct (IH l1 H2) as [L' [E1 E2]].
    exists (map (fun x => x :: l) (seq 1 (nl l)) ++ (0 :: l1) :: L'). split.
    + unfold step in *. cbn [flat_map seq map app]. cbn [flat_map seq map app] in E1. rewrite <- E1. auto.
    + apply Hblock; auto. intros y <-. exists l1. auto.
Qed.

Lemma enum_chain : forall n, exists L, enum n = repeat 0 n :: L /\ chain (repeat 0 n) L.
Proof.
  induction n as [|n [L [E H]]].
  - exists []. split; auto. reflexivity.
  - cbn [enum repeat]. rewrite E. destruct (chain_step L _ H) as [L' [E1 E2]]. exists L'. auto.
Qed.

Lemma enum_loop_chain : forall L l fuel, chain l L -> (forall x, In x (l :: L) -> RG x) -> length L < fuel ->
  enum_loop fuel l = Ret (map label2Number L).
Proof.
  induction L as [|l1 L IH]; intros l fuel H HR Hf.
  - destruct fuel; [cbn in Hf; lia|]. cbn [enum_loop]. rewrite increment_succ by (apply HR; simpl; auto).
    cbn in H. rewrite H. auto.
  - destruct fuel; [cbn in Hf; lia|]. destruct H as [H1 H2]. cbn [enum_loop].
    rewrite increment_succ by (apply HR; simpl; auto). rewrite H1.
    rewrite IH; auto.
    + intros x Hx. apply HR. simpl in *. tauto.
    + cbn in Hf. lia.
Qed.

Lemma enum_length_bound : forall n, length (enum n) <= n ^ n.
Proof.
  assert (G : forall n b, n <= b -> length (enum n) <= b ^ n).
  { induction n as [|n IH]; intros b Hb; cbn [enum Nat.pow]; [cbn; lia|].
    specialize (IH b ltac:(lia)).
    assert (HL : forall L, (forall l, In l L -> S (nl l) <= b) -> length (step L) <= b * length L).
    { induction L as [|l L IHL]; intro H; unfold step in *; cbn [flat_map length]; [lia|].
      rewrite app_length, map_length, seq_length.
      assert (S (nl l) <= b) by (apply H; simpl; auto).
      specialize (IHL ltac:(intros; apply H; simpl; auto)). unfold step in IHL. lia. }
    transitivity (b * length (enum n)).
    - apply HL. intros l Hl. apply enum_In in Hl. destruct Hl as [L1 L2]. apply nl_le in L2. lia.
    - apply Nat.mul_le_mono_l. auto. }
  intro n. apply G. auto.
Qed.

(** ** Counting *)
Fixpoint cnt (k : nat) (m : N) : N :=
  match k with O => 1%N | S k => (m * cnt k m + cnt k (m + 1))%N end.
Fixpoint sumN (l : list N) : N := match l with [] => 0%N | x :: t => (x + sumN t)%N end.

Fixpoint ext (k : nat) (L : list (list nat)) : list (list nat) :=
  match k with 0 => L | S k => ext k (step L) end.

Lemma ext_step : forall k L, ext k (step L) = step (ext k L).
Proof. induction k; intro L; cbn; auto. Qed.
Lemma enum_ext : forall n, enum n = ext n [[]].
Proof. induction n; cbn [enum ext]; auto. rewrite IHn, ext_step. auto. Qed.

Lemma sumN_app : forall a b, sumN (a ++ b) = (sumN a + sumN b)%N.
Proof. induction a as [|x a IH]; intro b; cbn [app sumN]; auto. rewrite IH. lia. Qed.

Lemma ext_count : forall k L, (forall l, In l L -> RG l) ->
  N.of_nat (length (ext k L)) = sumN (map (fun l => cnt k (N.of_nat (nl l))) L).
Proof.
  induction k as [|k IH]; intros L HL; cbn [ext].
  - induction L as [|l L IHL]; auto. cbn [length map sumN cnt].
    rewrite Nat2N.inj_succ, IHL by (intros; apply HL; simpl; auto). cbn [cnt]. lia.
  - rewrite IH.
    + clear IH. induction L as [|l L IHL]; auto.
      unfold step in *. cbn [flat_map map sumN]. rewrite map_app, sumN_app.
      rewrite IHL by (intros; apply HL; simpl; auto).
      f_equal. rewrite map_map. rewrite seq_S, map_app, sumN_app. cbn [map plus].
      rewrite nl_cons, Nat.eqb_refl by auto. 
      assert (E : forall s, (forall x, In x s -> x < nl l) ->
        sumN (map (fun x => cnt k (N.of_nat (nl (x :: l)))) s) = (N.of_nat (length s) * cnt k (N.of_nat (nl l)))%N).
      { induction s as [|x s IHs]; intro Hs; auto. cbn [map sumN length].
        rewrite nl_cons by (specialize (Hs x ltac:(simpl; auto)); lia).
        destruct (Nat.eqb_spec x (nl l)); [specialize (Hs x ltac:(simpl; auto)); lia|].
        rewrite IHs by (intros; apply Hs; simpl; auto). lia. }
      rewrite E by (intros x Hx; apply in_seq in Hx; lia). rewrite seq_length.
      cbn [sumN cnt]. replace (N.of_nat (S (nl l))) with (N.of_nat (nl l) + 1)%N by lia. lia.
    + intros l Hl. unfold step in Hl. apply in_flat_map in Hl. destruct Hl as [t [Ht Hl]].
      apply in_map_iff in Hl. destruct Hl as [x [<- Hx]]. apply in_seq in Hx. split; [lia|auto].
Qed.

Lemma enum_count : forall n, N.of_nat (length (enum n)) = cnt n 0.
Proof.
  intro n. rewrite enum_ext, ext_count.
  - cbn. lia.
  - intros l [<-|[]]. exact I.
Qed.

Lemma cnt_Bell : forall n, n <= 15 -> nth_error BellTable n = Some (cnt n 0).
Proof.
  intros n H. do 16 (destruct n as [|n]; [vm_compute; reflexivity|]). lia.
Qed.

(** ** Canonical labelings *)
Lemma RG_labels : forall l, RG l -> forall x, x < nl l -> In x l.
Proof.
  induction l as [|y t IH]; intros H x Hx; [cbn in Hx; lia|].
  destruct H as [H1 H2]. rewrite nl_cons in Hx by auto.
  destruct (Nat.eqb_spec y (nl t)) as [->|N].
  - destruct (Nat.eq_dec x (nl t)) as [->|Nx]; [left; auto|right; apply IH; auto; lia].
  - right. apply IH; auto.
Qed.

Lemma In_lt_nl : forall l x, In x l -> x < nl l.
Proof.
  intros l x H. destruct l as [|y t]; [destruct H|]. unfold nl.
  apply (In_nth _ _ 0) in H. destruct H as [i [_ <-]]. pose proof (list_max_nth (y :: t) i). lia.
Qed.

Lemma nth_lt_nl : forall l i, i < length l -> nth i l 0 < nl l.
Proof. intros l i H. apply In_lt_nl, nth_In, H. Qed.

Definition pat (l l' : list nat) : Prop :=
  forall i j, i < length l -> j < length l -> (nth i l 0 = nth j l 0 <-> nth i l' 0 = nth j l' 0).

Lemma canon_exists : forall l, exists r, length r = length l /\ RG r /\ pat l r.
Proof.
  induction l as [|x t [r [L [HR HP]]]].
  - exists []. split; auto. split; [exact I|]. intros i j Hi. cbn in Hi. lia.
  - destruct (in_dec Nat.eq_dec x t) as [Hin|Hin].
    + apply (In_nth _ _ 0) in Hin. destruct Hin as [k [Hk Ek]].
      exists (nth k r 0 :: r). split; [cbn; lia|]. split.
      * split; auto. pose proof (nth_lt_nl r k ltac:(lia)). lia.
      * intros [|i] [|j] Hi Hj; cbn [nth length] in *; try tauto.
        -- rewrite <- Ek. apply HP; lia.
        -- rewrite <- Ek. apply HP; lia.
        -- apply HP; lia.
    + exists (nl r :: r). split; [cbn; lia|]. split; [split; auto|].
      assert (N1 : forall i, i < length t -> nth i t 0 <> x) by (intros i Hi E; apply Hin; rewrite <- E; apply nth_In; auto).
      assert (N2 : forall i, i < length t -> nth i r 0 <> nl r).
      { intros i Hi E. pose proof (nth_lt_nl r i ltac:(lia)). lia. }
      intros [|i] [|j] Hi Hj; cbn [nth length] in *; try tauto.
      * split; intro E; exfalso; [apply (N1 j)|apply (N2 j)]; auto; lia.
      * split; intro E; exfalso; [apply (N1 i)|apply (N2 i)]; auto; lia.
      * apply HP; lia.
Qed.

Lemma canon_unique : forall r r', length r = length r' -> RG r -> RG r' -> pat r r' -> r = r'.
Proof.
  induction r as [|x t IH]; intros [|x' t'] L H H' HP; cbn in L; try discriminate; auto.
  destruct H as [H1 H2], H' as [H1' H2'].
  assert (t = t').
  { apply IH; auto. intros i j Hi Hj. apply (HP (S i) (S j)); cbn; lia. }
  subst t'. f_equal.
  assert (G : forall k, k < length t -> (x = nth k t 0 <-> x' = nth k t 0)).
  { intros k Hk. apply (HP 0 (S k)); cbn; lia. }
  destruct (Nat.eq_dec x (nl t)) as [E|N].
  - destruct (Nat.eq_dec x' (nl t)) as [E'|N']; [congruence|].
    exfalso. assert (Hin : In x' t) by (apply RG_labels; auto; lia).
    apply (In_nth _ _ 0) in Hin. destruct Hin as [k [Hk Ek]].
    symmetry in Ek. apply G in Ek; auto. subst x. 
    pose proof (nth_lt_nl t k Hk). lia.
  - assert (Hin : In x t) by (apply RG_labels; auto; lia).
    apply (In_nth _ _ 0) in Hin. destruct Hin as [k [Hk Ek]].
    symmetry in Ek. pose proof (proj1 (G k Hk) Ek). congruence.
Qed.

Lemma Codes_enum : forall n c, Codes n c <-> In c (map (code n) (enum n)).
Proof.
  intros n c. rewrite in_map_iff. split.
  - intros [l [L ->]]. destruct (canon_exists l) as [r [Lr [HR HP]]].
    exists r. split; [|apply enum_In; split; auto; lia].
    symmetry. apply code_eq_iff. rewrite <- L. auto.
  - intros [l [<- Hl]]. apply enum_In in Hl. exists l. tauto.
Qed.

Lemma codes_NoDup : forall n, NoDup (map (code n) (enum n)).
Proof.
  intro n. apply NoDup_map_in; [apply enum_NoDup|]. intros x y Hx Hy E.
  apply enum_In in Hx. apply enum_In in Hy. apply canon_unique; try tauto; [lia|].
  unfold pat. replace (length x) with n by (symmetry; tauto). apply code_eq_iff. auto.
Qed.

(** ** The table *)
Record Tab (m : nat) (t : list N) : Prop := {
  tab_sorted : StronglySorted N.lt t;
  tab_codes : forall c, In c t <-> Codes m c;
  tab_len : N.of_nat (length t) = cnt m 0 }.

Lemma ins_perm : forall x l, Permutation (ins x l) (x :: l).
Proof.
  induction l as [|y t IH]; cbn; auto. destruct (N.leb x y); auto.
  transitivity (y :: x :: t); [constructor; auto|constructor].
Qed.
Lemma std_sort_perm : forall l, Permutation (std_sort l) l.
Proof.
  induction l as [|x l IH]; cbn; auto. transitivity (x :: std_sort l); [apply ins_perm|constructor; auto].
Qed.
Lemma ins_sorted : forall x l, StronglySorted N.le l -> StronglySorted N.le (ins x l).
Proof.
  induction l as [|y t IH]; intro H; cbn.
  - repeat constructor.
  - inversion H as [|? ? H1 H2]; subst. destruct (N.leb_spec x y) as [C|C].
    + constructor; auto. constructor; auto. rewrite Forall_forall in *. intros z Hz. specialize (H2 z Hz). lia.
    + constructor; auto. rewrite Forall_forall in *. intros z Hz.
      apply (Permutation_in _ (ins_perm x t)) in Hz. destruct Hz as [<-|Hz]; [lia|auto].
Qed.
Lemma std_sort_sorted : forall l, StronglySorted N.le (std_sort l).
Proof. induction l as [|x l IH]; cbn; [constructor|apply ins_sorted; auto]. Qed.
Lemma sorted_strict : forall l, StronglySorted N.le l -> NoDup l -> StronglySorted N.lt l.
Proof.
  induction 1 as [|x l H1 IH H2]; intro ND; constructor; inversion ND; subst; auto.
  rewrite Forall_forall in *. intros y Hy. specialize (H2 y Hy).
  assert (x <> y) by (intros ->; contradiction). lia.
Qed.

Lemma build_new : forall n t, n <= 11 -> (N.of_nat (length t) < cnt n 0)%N ->
  exists t', buildPartitions t n = Ret t' /\ Tab n t'.
Proof.
  intros n t Hn Ht. unfold buildPartitions.
  rewrite (rd_Ret _ _ _ _ (cnt_Bell n ltac:(lia))). cbn [bind].
  replace (N.leb (cnt n 0) (N.of_nat (length t))) with false by (symmetry; apply N.leb_gt; auto).
  pose proof (tri_11 n Hn) as Htri.
  rewrite tri_div2. replace (Nat.ltb 64 (tri n)) with false by (symmetry; apply Nat.ltb_ge; lia).
  destruct (enum_chain n) as [L [E HC]].
  assert (HRG : forall x, In x (repeat 0 n :: L) -> RG x).
  { intros x Hx. rewrite <- E in Hx. apply enum_In in Hx. tauto. }
  rewrite (enum_loop_chain L); auto.
  2:{ pose proof (enum_length_bound n) as B. rewrite E in B. cbn [length] in B. lia. }
  cbn [bind]. eexists. split; [reflexivity|].
  change (label2Number (repeat 0 n) :: map label2Number L) with (map label2Number (repeat 0 n :: L)).
  rewrite <- E.
  assert (EC : map label2Number (enum n) = map (code n) (enum n)).
  { apply map_ext_in. intros l Hl. apply enum_In in Hl. destruct Hl as [<- _].
    apply label2Number_code. lia. }
  rewrite EC. pose proof (std_sort_perm (map (code n) (enum n))) as HP. constructor.
  - apply sorted_strict; [apply std_sort_sorted|].
    apply (Permutation_NoDup (Permutation_sym HP)). apply codes_NoDup.
  - intro c. rewrite Codes_enum. split; apply Permutation_in; auto. apply Permutation_sym. auto.
  - rewrite (Permutation_length HP), map_length. apply enum_count.
Qed.

Lemma cnt_mono : forall n m, n <= 11 -> m <= 11 -> (cnt n 0 <= cnt m 0)%N -> n <= m \/ (n = 1 /\ m = 0).
Proof.
  intros n m Hn Hm H.
  destruct (Nat.le_gt_cases n m) as [C|C]; auto.
  destruct (Nat.eq_dec m 0) as [->|Nm].
  - destruct (Nat.eq_dec n 1) as [->|Nn]; auto. exfalso.
    do 12 (destruct n as [|n]; [try lia; vm_compute in H; congruence|]). lia.
  - exfalso. assert (G : forall k, 1 <= k -> k < 11 -> (cnt k 0 < cnt (S k) 0)%N).
    { intros k H1 H2. do 11 (destruct k as [|k]; [try lia; vm_compute; reflexivity|]). lia. }
    assert (GG : forall k, m < k -> k <= 11 -> (cnt m 0 < cnt k 0)%N).
    { induction k as [|k IHk]; intros H1 H2; [lia|].
      destruct (Nat.eq_dec k m) as [->|Nk]; [apply G; lia|].
      specialize (IHk ltac:(lia) ltac:(lia)). specialize (G k ltac:(lia) ltac:(lia)). lia. }
    specialize (GG n C Hn). lia.
Qed.

Lemma Tab_0_1 : forall t, Tab 0 t -> Tab 1 t.
Proof.
  intros t [H1 H2 H3]. constructor; auto.
  intro c. rewrite H2. split; intros [l [L ->]].
  - exists [0]. auto.
  - exists []. auto.
Qed.

(** States of the static table. *)
Definition TInv (t : list N) : Prop := t = [] \/ exists m, m <= 11 /\ Tab m t.

Definition Covers (n : nat) (t : list N) : Prop := exists m, n <= m /\ m <= 11 /\ Tab m t.

Lemma cnt_pos : forall k m, (1 <= cnt k m)%N.
Proof. induction k as [|k IH]; intro m; cbn [cnt]; [lia|]. specialize (IH (m + 1)%N). lia. Qed.

Lemma build_spec : forall n t, TInv t -> n <= 11 -> exists t', buildPartitions t n = Ret t' /\ Covers n t'.
Proof.
  intros n t HT Hn. destruct (N.lt_ge_cases (N.of_nat (length t)) (cnt n 0)) as [C|C].
  - destruct (build_new n t Hn C) as [t' [E HT']]. exists t'. split; auto. exists n. auto.
  - destruct HT as [->|[m [Hm HT]]].
    + cbn in C. pose proof (cnt_pos n 0). lia.
    + exists t. split.
      * unfold buildPartitions. rewrite (rd_Ret _ _ _ _ (cnt_Bell n ltac:(lia))). cbn [bind].
        replace (N.leb (cnt n 0) (N.of_nat (length t))) with true by (symmetry; apply N.leb_le; auto). auto.
      * rewrite (tab_len _ _ HT) in C. destruct (cnt_mono n m Hn Hm C) as [D|[-> ->]].
        -- exists m. auto.
        -- exists 1. split; auto. split; auto. apply Tab_0_1. auto.
Qed.

Lemma build_big : forall n t, TInv t -> 12 <= n <= 15 -> buildPartitions t n = Throw.
Proof.
  intros n t HT Hn. unfold buildPartitions. rewrite (rd_Ret _ _ _ _ (cnt_Bell n ltac:(lia))). cbn [bind].
  assert (HB : (N.of_nat (length t) < cnt n 0)%N).
  { assert (H11 : (N.of_nat (length t) <= 678570)%N).
    { destruct HT as [->|[m [Hm HT]]]; [cbn; lia|]. rewrite (tab_len _ _ HT).
      clear HT Hn. do 12 (destruct m as [|m]; [vm_compute; congruence|]). lia. }
    assert (H12 : (678570 < cnt n 0)%N).
    { clear H11 HT. do 16 (destruct n as [|n]; [try lia; vm_compute; reflexivity|]). lia. }
    lia. }
  replace (N.leb (cnt n 0) (N.of_nat (length t))) with false by (symmetry; apply N.leb_gt; auto).
  rewrite tri_div2. assert (tri 12 <= tri n) by (apply tri_mono; lia).
  replace (tri 12) with 66 in H by reflexivity.
  replace (Nat.ltb 64 (tri n)) with true; auto. symmetry. apply Nat.ltb_lt. lia.
Qed.

Lemma Covers_TInv : forall n t, Covers n t -> TInv t.
Proof. intros n t [m H]. right. exists m. tauto. Qed.

Lemma TInv_step : forall t o, TInv t -> op_order o <= 15 -> exists t', parts_step t o = Ret t' /\ TInv t'.
Proof.
  intros t o HT Ho.
  assert (HB : (exists t', buildPartitions t (op_order o) = Ret t' /\ TInv t') \/ buildPartitions t (op_order o) = Throw).
  { destruct (Nat.le_gt_cases (op_order o) 11) as [C|C].
    - destruct (build_spec _ t HT C) as [t' [E HC]]. left. exists t'. split; auto. eapply Covers_TInv; eauto.
    - right. apply build_big; auto. }
  destruct o as [n|l]; cbn [op_order] in HB; cbn [parts_step].
  - unfold parts_resize. destruct HB as [[t' [E H]]|E]; rewrite E; eauto.
  - unfold label2Index. destruct HB as [[t' [E H]]|E]; rewrite E; cbn [bind]; eauto.
Qed.

Lemma reachable_TInv : forall t, parts_reachable t -> TInv t.
Proof.
  intros t [ops [Hops E]]. unfold parts_run in E.
  assert (G : forall ops s, TInv s -> (forall o, In o ops -> op_order o <= 15) -> foldM parts_step ops s = Ret t -> TInv t).
  { clear. induction ops as [|o ops IH]; intros s Hs H E; cbn [foldM] in E.
    - injection E as <-. auto.
    - destruct (TInv_step s o Hs) as [s' [E1 H1]]; [apply H; simpl; auto|].
      rewrite E1 in E. cbn [bind] in E. apply (IH s'); auto. intros; apply H; simpl; auto. }
  apply (G ops []); auto. left. auto.
Qed.

Lemma reachable_step : forall t o t', parts_reachable t -> op_order o <= 15 -> parts_step t o = Ret t' -> parts_reachable t'.
Proof.
  intros t o t' [ops [Hops E]] Ho Es. exists (ops ++ [o]). split.
  - intros x Hx. apply in_app_iff in Hx. destruct Hx as [Hx|[<-|[]]]; auto.
  - unfold parts_run in *. rewrite foldM_app, E. cbn [bind foldM]. rewrite Es. auto.
Qed.

(** ** The index *)
Definition rank (c : N) (t : list N) : nat := length (filter (fun x => N.ltb x c) t).

Lemma find_index_sorted : forall t c, StronglySorted N.lt t -> In c t -> find_index c t = Some (rank c t).
Proof.
  induction 1 as [|x t H1 IH H2]; intro Hin; [destruct Hin|]. cbn [find_index].
  destruct (N.eqb_spec x c) as [->|Nx].
  - unfold rank. cbn [filter]. rewrite N.ltb_irrefl.
    assert (E : filter (fun y => N.ltb y c) t = []).
    { clear -H2. induction t as [|y t IHt]; auto. inversion H2; subst. cbn [filter].
      replace (N.ltb y c) with false by (symmetry; apply N.ltb_ge; lia). auto. }
    rewrite E. auto.
  - destruct Hin as [E|Hin]; [congruence|]. rewrite IH by auto. cbn [option_map]. f_equal.
    unfold rank. cbn [filter]. rewrite Forall_forall in H2. specialize (H2 c Hin).
    replace (N.ltb x c) with true by (symmetry; apply N.ltb_lt; auto). auto.
Qed.

Lemma SS_lt_NoDup : forall t, StronglySorted N.lt t -> NoDup t.
Proof.
  induction 1 as [|x t H1 IH H2]; constructor; auto. intro Hin.
  rewrite Forall_forall in H2. specialize (H2 x Hin). lia.
Qed.

Lemma rank_indep : forall n c t1 t2, Covers n t1 -> Covers n t2 -> Codes n c -> rank c t1 = rank c t2.
Proof.
  intros n c t1 t2 [m1 [A1 [A2 A3]]] [m2 [B1 [B2 B3]]] Hc. unfold rank.
  assert (Hlt : (c < 2 ^ N.of_nat (tri n))%N) by (destruct Hc as [l [_ ->]]; apply code_lt).
  apply NoDup_same_length.
  - apply NoDup_filter, SS_lt_NoDup, A3.
  - apply NoDup_filter, SS_lt_NoDup, B3.
  - intro x. rewrite !filter_In, !N.ltb_lt, (tab_codes _ _ A3), (tab_codes _ _ B3).
    split; intros [H1 H2]; split; auto.
    + apply (Codes_prefix n m2 x B1). apply (Codes_prefix n m1 x A1). split; auto. lia.
    + apply (Codes_prefix n m1 x A1). apply (Codes_prefix n m2 x B1). split; auto. lia.
Qed.

Lemma sorted_rank_lt : forall t a b, StronglySorted N.lt t -> In a t -> (a < b)%N -> rank a t < rank b t.
Proof.
  intros t a b Hs Ha Hab. unfold rank. induction Hs as [|x t H1 IH H2]; [destruct Ha|].
  assert (Hle : length (filter (fun y => N.ltb y a) t) <= length (filter (fun y => N.ltb y b) t)).
  { clear -Hab. induction t as [|y t IHt]; auto. cbn [filter].
    destruct (N.ltb_spec y a), (N.ltb_spec y b); cbn [length]; lia. }
  cbn [filter]. destruct Ha as [->|Ha].
  - rewrite N.ltb_irrefl. replace (N.ltb a b) with true by (symmetry; apply N.ltb_lt; auto). cbn [length]. lia.
  - specialize (IH Ha). destruct (N.ltb_spec x a), (N.ltb_spec x b); cbn [length]; lia.
Qed.

Lemma rank_inj : forall t a b, StronglySorted N.lt t -> In a t -> In b t -> rank a t = rank b t -> a = b.
Proof.
  intros t a b Hs Ha Hb E. destruct (N.lt_trichotomy a b) as [C|[C|C]]; auto.
  - pose proof (sorted_rank_lt t a b Hs Ha C). lia.
  - pose proof (sorted_rank_lt t b a Hs Hb C). lia.
Qed.

Lemma rank_nth : forall t k c, StronglySorted N.lt t -> nth_error t k = Some c -> rank c t = k.
Proof.
  intros t k c Hs. revert k. induction Hs as [|x t H1 IH H2]; intros k Hk; [destruct k; discriminate|].
  destruct k as [|k].
  - injection Hk as ->. 
    pose proof (find_index_sorted (c :: t) c (SSorted_cons _ H1 H2) (or_introl eq_refl)) as E.
    cbn [find_index] in E. rewrite N.eqb_refl in E. injection E. auto.
  - cbn [nth_error] in Hk. unfold rank in *. cbn [filter].
    rewrite Forall_forall in H2. specialize (H2 c (nth_error_In _ _ Hk)).
    replace (N.ltb x c) with true by (symmetry; apply N.ltb_lt; auto). cbn [length]. f_equal. apply IH. auto.
Qed.

(** The first Bell(n) entries of a larger table are the codes of order n. *)
Lemma Covers_nth : forall n t, Covers n t -> n <= 11 -> forall k, (N.of_nat k < cnt n 0)%N ->
  exists c, nth_error t k = Some c /\ Codes n c.
Proof.
  intros n t HC Hn k Hk. pose proof HC as [m [H1 [H2 H3]]].
  destruct (build_new n [] Hn) as [t0 [_ HT0]]; [pose proof (cnt_pos n 0); cbn; lia|].
  assert (HC0 : Covers n t0) by (exists n; auto).
  destruct (nth_error t0 k) as [c|] eqn:E.
  - assert (Hc : Codes n c) by (apply (tab_codes _ _ HT0); eapply nth_error_In; eauto).
    exists c. split; auto. apply rank_nth in E; [|apply HT0].
    rewrite (rank_indep n c t0 t HC0 HC Hc) in E.
    assert (Hin : In c t) by (apply (tab_codes _ _ H3); apply (Codes_prefix n m c H1); auto).
    apply In_nth_error in Hin. destruct Hin as [k' Hk']. 
    pose proof (rank_nth t k' c (tab_sorted _ _ H3) Hk'). congruence.
  - apply nth_error_None in E. rewrite <- (tab_len _ _ HT0) in Hk. lia.
Qed.

(** ** Decoding *)
Definition firstidx (l : list nat) (v : nat) : nat :=
  match find (fun j => Nat.eqb (nth j l 0) (nth v l 0)) (seq 0 (S v)) with Some j => j | None => v end.

Lemma find_seq_first : forall f n j, find f (seq 0 n) = Some j -> f j = true /\ j < n /\ forall i, i < j -> f i = false.
Proof.
  intros f n j.
  assert (G : forall n s, find f (seq s n) = Some j -> f j = true /\ s <= j < s + n /\ forall i, s <= i < j -> f i = false).
  { clear n. induction n as [|n IH]; intros s H; cbn [seq find] in H; [discriminate|].
    destruct (f s) eqn:Es.
    - injection H as <-. split; auto. split; [lia|]. intros; lia.
    - apply IH in H. destruct H as [A [B C]]. split; auto. split; [lia|].
      intros i Hi. destruct (Nat.eq_dec i s) as [->|N]; auto. apply C. lia. }
  intro H. apply G in H. destruct H as [A [B C]]. split; auto. split; [lia|]. intros; apply C; lia.
Qed.

Lemma firstidx_spec : forall l v, nth (firstidx l v) l 0 = nth v l 0 /\ firstidx l v <= v /\
  forall i, i < firstidx l v -> nth i l 0 <> nth v l 0.
Proof.
  intros l v. unfold firstidx. destruct (find _ _) as [j|] eqn:E.
  - apply find_seq_first in E. destruct E as [A [B C]]. apply Nat.eqb_eq in A. split; auto. split; [lia|].
    intros i Hi. apply Nat.eqb_neq. auto.
  - exfalso. pose proof (find_none _ _ E v ltac:(apply in_seq; lia)) as F. cbn beta in F. rewrite Nat.eqb_refl in F. discriminate.
Qed.

Lemma firstidx_eq : forall l u v, nth u l 0 = nth v l 0 -> firstidx l u = firstidx l v.
Proof.
  intros l u v E. destruct (firstidx_spec l u) as [A1 [A2 A3]]. destruct (firstidx_spec l v) as [B1 [B2 B3]].
  destruct (Nat.lt_trichotomy (firstidx l u) (firstidx l v)) as [C|[C|C]]; auto; exfalso.
  - apply (B3 _ C). congruence.
  - apply (A3 _ C). congruence.
Qed.

Lemma firstidx_iff : forall l u v, firstidx l u = firstidx l v <-> nth u l 0 = nth v l 0.
Proof.
  intros l u v. split; [|apply firstidx_eq]. intro E.
  destruct (firstidx_spec l u) as [A1 _]. destruct (firstidx_spec l v) as [B1 _]. congruence.
Qed.

Lemma val_testbit : forall bs k, N.testbit (val bs) (N.of_nat k) = nth k bs false.
Proof.
  induction bs as [|b bs IH]; intro k.
  - cbn [val]. rewrite N.bits_0. destruct k; auto.
  - cbn [val]. replace (bool2N b + 2 * val bs)%N with (2 * val bs + N.b2n b)%N by (unfold bool2N, N.b2n; lia).
    destruct k as [|k].
    + apply N.testbit_0_r.
    + rewrite Nat2N.inj_succ, N.testbit_succ_r. apply IH.
Qed.

Lemma bits_nth : forall n l i j, j < i < n -> nth (tri i + j) (bits n l) false = Nat.eqb (nth i l 0) (nth j l 0).
Proof.
  intros n l i j H. destruct (bits_split (S i) n l ltac:(lia)) as [rest [-> _]].
  assert (E : bits (S i) l = bits i l ++ map (fun j => Nat.eqb (nth i l 0) (nth j l 0)) (seq 0 i)).
  { unfold bits. rewrite pairs_S, map_app, map_map. auto. }
  rewrite E, <- app_assoc, app_nth2 by (rewrite bits_length; lia). rewrite bits_length.
  replace (tri i + j - tri i) with j by lia.
  rewrite app_nth1 by (rewrite map_length, seq_length; lia).
  rewrite (nth_indep _ false (Nat.eqb (nth i l 0) (nth 0 l 0))) by (rewrite map_length, seq_length; lia).
  rewrite (map_nth (fun j => Nat.eqb (nth i l 0) (nth j l 0)) (seq 0 i) 0). rewrite seq_nth by lia. auto.
Qed.

Lemma land_pow2 : forall a k, N.eqb (N.land a (2 ^ k)) (2 ^ k) = N.testbit a k.
Proof.
  intros a k. destruct (N.testbit a k) eqn:E.
  - apply N.eqb_eq. apply N.bits_inj. intro i. rewrite N.land_spec.
    destruct (N.eq_dec i k) as [->|Ni].
    + rewrite E. auto.
    + rewrite N.pow2_bits_false by auto. apply andb_false_r.
  - apply N.eqb_neq. intro H. apply (f_equal (fun x => N.testbit x k)) in H.
    rewrite N.land_spec, E, N.pow2_bits_true in H. discriminate.
Qed.

Lemma tri_S : forall n, tri (S n) = tri n + n.
Proof. intro n. unfold tri. rewrite pairs_S, app_length, map_length, seq_length. auto. Qed.

Lemma wrap_pow : forall k, k < 63 -> wrap64 (2 ^ N.of_nat k * 2) = (2 ^ N.of_nat (S k))%N.
Proof.
  intros k H. rewrite Nat2N.inj_succ, N.pow_succ_r'. unfold wrap64.
  rewrite N.mod_small; [lia|]. rewrite N.mul_comm, <- N.pow_succ_r'. apply N.pow_lt_mono_r; lia.
Qed.

Lemma getPartition_spec : forall t k n l0 buf, nth_error t k = Some (code n l0) -> 1 <= n <= 11 -> length buf = n ->
  exists l, getPartition t k buf = Ret l /\ length l = n /\ forall i, i < n -> nth i l 0 = firstidx l0 i.
Proof.
  intros t k n l0 buf Hk Hn Hb. unfold getPartition.
  rewrite (rd_Ret _ _ _ _ Hk). cbn [bind]. rewrite wr_Ret by lia. cbn [bind].
  set (el := code n l0).
  match goal with |- context [foldM ?F (seq 1 _) _] => set (F0 := F) end.
  assert (HL : forall c, c <= n - 1 -> exists l, foldM F0 (seq 1 c) (upd buf 0 0, 1%N) = Ret (l, 2 ^ N.of_nat (tri (S c)))%N /\
     length l = n /\ forall i, i < S c -> nth i l 0 = firstidx l0 i).
  { induction c as [|c IH]; intro Hc.
    - exists (upd buf 0 0). split; auto. split; [rewrite length_upd; auto|].
      intros i Hi. assert (i = 0) by lia. subst i. rewrite nth_upd_eq by lia.
      destruct (firstidx_spec l0 0) as [_ [H _]]. lia.
    - destruct IH as [l [E [L Hl]]]; [lia|].
      rewrite seq_S, foldM_app, E. cbn [bind foldM plus]. set (v1 := S c) in *.
      unfold F0 at 1. rewrite wr_Ret by lia. cbn [bind].
      match goal with |- context [foldM ?F (seq 0 _) _] => set (G0 := F) end.
      assert (HI : forall v2, v2 <= v1 -> exists l', foldM G0 (seq 0 v2) (upd l v1 v1, (2 ^ N.of_nat (tri v1))%N) = Ret (l', 2 ^ N.of_nat (tri v1 + v2))%N /\
         length l' = n /\ (forall i, i < v1 -> nth i l' 0 = firstidx l0 i) /\
         (((forall j, j < v2 -> nth j l0 0 <> nth v1 l0 0) /\ nth v1 l' 0 = v1) \/
          nth v1 l' 0 = firstidx l0 v1)).
      { induction v2 as [|v2 IHv]; intro Hv.
        - exists (upd l v1 v1). split; [cbn [seq foldM]; rewrite Nat.add_0_r; auto|].
          split; [rewrite length_upd; auto|]. split.
          + intros i Hi. rewrite nth_upd_neq by lia. apply Hl. lia.
          + left. split; [intros; lia|]. apply nth_upd_eq. lia.
        - destruct IHv as [l' [E' [L' [Hl' Hv1]]]]; [lia|].
          rewrite seq_S, foldM_app, E'. cbn [bind foldM plus]. unfold G0 at 1.
          rewrite land_pow2. unfold el, code. rewrite val_testbit, bits_nth by lia.
          pose proof (tri_11 n ltac:(lia)) as Ht.
          assert (Htv : tri v1 + v2 < 63).
          { pose proof (tri_mono (S v1) n ltac:(lia)) as Hm. rewrite tri_S in Hm. lia. }
          destruct (Nat.eqb_spec (nth v1 l0 0) (nth v2 l0 0)) as [Es|Ns].
          + rewrite (rd_nth _ l' v2 0) by lia. cbn [bind]. rewrite wr_Ret by lia. cbn [bind].
            rewrite wrap_pow by lia.
            exists (upd l' v1 (nth v2 l' 0)). split; [repeat f_equal; lia|].
            split; [rewrite length_upd; auto|]. split.
            * intros i Hi. rewrite nth_upd_neq by lia. auto.
            * right. rewrite nth_upd_eq by lia. rewrite Hl' by lia. apply firstidx_eq. auto.
          + cbn [bind]. rewrite wrap_pow by lia. exists l'. split; [repeat f_equal; lia|].
            split; auto. split; auto. destruct Hv1 as [[A B]|A]; auto. left. split; auto.
            intros j Hj. destruct (Nat.eq_dec j v2) as [->|Nj]; [congruence|]. apply A. lia. }
      destruct (HI v1 ltac:(lia)) as [l' [E' [L' [Hl' Hv1]]]].
      rewrite E'. cbn [bind]. exists l'. split; [rewrite (tri_S v1); auto|]. split; auto.
      intros i Hi. destruct (Nat.eq_dec i v1) as [->|Ni]; [|apply Hl'; lia].
      destruct Hv1 as [[A B]|A]; auto. rewrite B.
      destruct (firstidx_spec l0 v1) as [C1 [C2 C3]].
      destruct (Nat.eq_dec (firstidx l0 v1) v1) as [Ef|Nf]; auto. exfalso.
      apply (A (firstidx l0 v1)); [lia|]. auto. }
  rewrite Hb. destruct (HL (n - 1) ltac:(lia)) as [l [E [L Hl]]]. rewrite E. cbn [bind].
  exists l. split; auto. split; auto. intros i Hi. apply Hl. lia.
Qed.

Lemma C07_main : forall n, n <= 11 -> exists idx : list nat -> nat,
  (forall t l, parts_reachable t -> length l = n ->
     exists t', label2Index t l = Ret (t', Some (idx l)) /\ parts_reachable t') /\
  (exists b, BellNumber n = Ret b /\
     (forall l, length l = n -> (N.of_nat (idx l) < b)%N) /\
     (forall k, (N.of_nat k < b)%N -> exists l, length l = n /\ idx l = k) /\
     (1 <= n -> forall t, parts_reachable t -> exists t', parts_resize t n = Ret t' /\ parts_reachable t' /\
        forall k buf, (N.of_nat k < b)%N -> length buf = n ->
        exists l, getPartition t' k buf = Ret l /\ length l = n /\ idx l = k)) /\
  (forall l l', length l = n -> length l' = n -> (idx l = idx l' <-> same_partition l l')).
Proof.
  intros n Hn.
  destruct (build_new n [] Hn) as [T [_ HT]]; [pose proof (cnt_pos n 0); cbn; lia|].
  assert (HC : Covers n T) by (exists n; auto).
  pose proof (tri_11 n Hn) as Htri.
  assert (HinT : forall l, length l = n -> In (code n l) T) by (intros l L; apply (tab_codes _ _ HT); exists l; auto).
  exists (fun l => rank (code n l) T). split; [|split].
  - intros t l Hr L. destruct (build_spec n t (reachable_TInv t Hr) Hn) as [t' [E HC']].
    exists t'. split.
    + unfold label2Index. rewrite L, E. cbn [bind]. f_equal. f_equal. unfold number2Index.
      rewrite label2Number_code by (rewrite L; lia). rewrite L.
      assert (Hcode : Codes n (code n l)) by (exists l; auto).
      rewrite (rank_indep n (code n l) T t') by auto.
      destruct HC' as [m [M1 [M2 M3]]]. apply find_index_sorted; [apply M3|].
      apply (tab_codes _ _ M3). apply (Codes_prefix n m _ M1). auto.
    + apply (reachable_step t (OResize n) t' Hr); [cbn; lia|]. cbn [parts_step]. unfold parts_resize. rewrite E. auto.
  - exists (cnt n 0). split; [apply rd_Ret, cnt_Bell; lia|]. split; [|split].
    + intros l L. rewrite <- (tab_len _ _ HT). 
      destruct (In_nth_error _ _ (HinT l L)) as [k Hk].
      rewrite (rank_nth _ _ _ (tab_sorted _ _ HT) Hk).
      assert (k < length T) by (apply nth_error_Some; congruence). lia.
    + intros k Hk. destruct (Covers_nth n T HC Hn k Hk) as [c [E [l [L ->]]]].
      exists l. split; auto. apply rank_nth; [apply HT|auto].
    + intros Hn1 t Hr. destruct (build_spec n t (reachable_TInv t Hr) Hn) as [t' [E HC']].
      exists t'. split; auto. split.
      { apply (reachable_step t (OResize n) t' Hr); [cbn; lia|]. cbn [parts_step]. unfold parts_resize. rewrite E. auto. }
      intros k buf Hk Hb. destruct (Covers_nth n t' HC' Hn k Hk) as [c [Ec [l0 [L0 ->]]]].
      destruct (getPartition_spec t' k n l0 buf Ec ltac:(lia) Hb) as [l [El [L Hl]]].
      exists l. split; auto. split; auto.
      assert (Ecode : code n l = code n l0).
      { apply code_eq_iff. intros i j Hi Hj. rewrite !Hl by lia. apply firstidx_iff. }
      rewrite Ecode. assert (Hc0 : Codes n (code n l0)) by (exists l0; auto).
      rewrite (rank_indep n _ T t') by auto. destruct HC' as [m [_ [_ M3]]].
      apply rank_nth; [apply M3|auto].
  - intros l l' L L'. split.
    + intro E. apply rank_inj in E; [|apply HT|apply HinT; auto|apply HinT; auto].
      split; [lia|]. rewrite L. apply code_eq_iff. auto.
    + intros [_ H]. f_equal. apply code_eq_iff. rewrite L in H. auto.
Qed.
