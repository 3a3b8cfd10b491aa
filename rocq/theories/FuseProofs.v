(** Proofs about the set-up of fusion energies: the coefficients of a clique are those of its polynomial. *)
From Coq Require Import QArith Qcanon Sorting.Sorted Permutation.
From Verif Require Import Base GmView HoeModel HoeSpec HoeProofs TentacleModel TentacleGmt FuseModel.
Open Scope nat_scope.

(** *** Sums over masks *)
Definition msum (n : nat) (f : nat -> Qc) : Qc := qsum (map f (seq 0 n)).
Lemma msum_S n f : msum (S n) f = (msum n f + f n)%Qc.
Proof. unfold msum. rewrite seq_S, map_app, qsum_app. cbn. qring. Qed.
Lemma msum_ext n f g : (forall i, i < n -> f i = g i) -> msum n f = msum n g.
Proof. intros H. unfold msum. f_equal. apply map_ext_in. intros i Hi. apply in_seq in Hi. apply H. lia. Qed.
Lemma msum_plus n f g : msum n (fun i => (f i + g i)%Qc) = (msum n f + msum n g)%Qc.
Proof. induction n as [|n IH]; [cbn; qring|]. rewrite !msum_S, IH. qring. Qed.
Lemma msum_opp n f : msum n (fun i => (- f i)%Qc) = (- msum n f)%Qc.
Proof. induction n as [|n IH]; [cbn; qring|]. rewrite !msum_S, IH. qring. Qed.
Lemma msum_zero n : msum n (fun _ => 0%Qc) = 0%Qc.
Proof. induction n as [|n IH]; [reflexivity|]. rewrite msum_S, IH. qring. Qed.
Lemma msum_double n f : msum (2 * n) f = msum n (fun i => (f (2 * i)%nat + f (2 * i + 1)%nat)%Qc).
Proof.
  induction n as [|n IH]; [reflexivity|]. replace (2 * S n) with (S (S (2 * n))) by lia. rewrite !msum_S, IH. replace (S (2 * n)) with (2 * n + 1) by lia. qring.
Qed.
Lemma msum_first n f : msum (S n) f = (f O + qsum (map f (seq 1 n)))%Qc.
Proof. unfold msum. reflexivity. Qed.

(** *** Bits *)
Definition bit (b : bool) (a : nat) : nat := 2 * a + Nat.b2n b.
Definition subs (a s : nat) : bool := Nat.ldiff a s =? 0.
Lemma bit_split a : a = bit (Nat.odd a) (Nat.div2 a).
Proof. apply Nat.div2_odd. Qed.
Lemma bit_0 b a : Nat.testbit (bit b a) 0 = b. Proof. apply Nat.testbit_0_r. Qed.
Lemma bit_S b a i : Nat.testbit (bit b a) (S i) = Nat.testbit a i. Proof. apply Nat.testbit_succ_r. Qed.
Lemma ldiff_bit x a y s : Nat.ldiff (bit x a) (bit y s) = bit (x && negb y) (Nat.ldiff a s).
Proof. apply Nat.bits_inj. intros [|i]; rewrite Nat.ldiff_spec; [rewrite !bit_0|rewrite !bit_S, Nat.ldiff_spec]; reflexivity. Qed.
Lemma lxor_bit x a y s : Nat.lxor (bit x a) (bit y s) = bit (xorb x y) (Nat.lxor a s).
Proof. apply Nat.bits_inj. intros [|i]; rewrite Nat.lxor_spec; [rewrite !bit_0|rewrite !bit_S, Nat.lxor_spec]; reflexivity. Qed.
Lemma subs_bit x a y s : subs (bit x a) (bit y s) = implb x y && subs a s.
Proof. unfold subs. rewrite ldiff_bit. unfold bit. destruct x, y; cbn [negb andb implb Nat.b2n]; destruct (Nat.eqb_spec (Nat.ldiff a s) 0) as [->|N]; try reflexivity; apply Nat.eqb_neq; lia. Qed.
Lemma parity_from z : forall l p, fold_left (fun p b => xorb p (Nat.testbit z b)) l p = xorb p (fold_left (fun p b => xorb p (Nat.testbit z b)) l false).
Proof. induction l as [|b l IH]; intros p; cbn [fold_left]; [destruct p; reflexivity|]. rewrite IH, (IH (xorb false _)). destruct p, (Nat.testbit z b), (fold_left _ l false); reflexivity. Qed.
Lemma parity_bit n x a y s : parity (S n) (bit x a) (bit y s) = xorb (xorb x y) (parity n a s).
Proof.
  unfold parity. rewrite lxor_bit. cbn [seq fold_left]. rewrite bit_0, parity_from. replace (xorb false (xorb x y)) with (xorb x y) by (destruct x, y; reflexivity). f_equal.
  rewrite <- seq_shift. generalize false. generalize (seq 0 n). induction l as [|b l IH]; intros p; cbn [map fold_left]; [reflexivity|]. rewrite bit_S. apply IH.
Qed.

(** *** Moebius inversion *)
Definition inverse (n : nat) (E : nat -> Qc) (s : nat) : Qc := msum (2 ^ n) (fun a => if subs a s then if parity n a s then (- E a)%Qc else E a else 0%Qc).
Lemma pow_S n : 2 ^ S n = 2 * 2 ^ n. Proof. reflexivity. Qed.
Lemma msum_bits n f : msum (2 ^ S n) f = msum (2 ^ n) (fun i => (f (bit false i) + f (bit true i))%Qc).
Proof. rewrite pow_S, msum_double. apply msum_ext. intros i _. unfold bit. cbn [Nat.b2n]. rewrite Nat.add_0_r. reflexivity. Qed.
Lemma inverse_bit n E y s : inverse (S n) E (bit y s) =
  if y then (inverse n (fun a => E (bit true a)) s - inverse n (fun a => E (bit false a)) s)%Qc else inverse n (fun a => E (bit false a)) s.
Proof.
  unfold inverse. rewrite msum_bits. destruct y.
  - unfold Qcminus. rewrite <- msum_opp, <- msum_plus. apply msum_ext. intros a _. rewrite !subs_bit, !parity_bit. cbn [implb andb xorb]. destruct (subs a s), (parity n a s); cbn [xorb]; qring.
  - apply msum_ext. intros a _. rewrite !subs_bit, !parity_bit. cbn [implb andb xorb]. destruct (subs a s), (parity n a s); cbn [xorb]; qring.
Qed.
Lemma moebius n : forall E x, x < 2 ^ n -> msum (2 ^ n) (fun s => if subs s x then inverse n E s else 0%Qc) = E x.
Proof.
  induction n as [|n IH]; intros E x Hx.
  - cbn in Hx. replace x with 0 by lia. unfold inverse, msum. cbn. qring.
  - rewrite msum_bits. rewrite (bit_split x) in Hx |- *. set (d := Nat.odd x) in *. set (x' := Nat.div2 x) in *. assert (Hx' : x' < 2 ^ n) by (rewrite pow_S in Hx; unfold bit in Hx; destruct d; cbn in Hx; lia).
    transitivity (msum (2 ^ n) (fun s => if subs s x' then inverse n (fun a => E (bit d a)) s else 0%Qc)); [|apply (IH (fun a => E (bit d a)) x' Hx')].
    apply msum_ext. intros s _. rewrite !subs_bit, !inverse_bit. cbn [implb andb]. destruct d; cbn [andb]; destruct (subs s x'); qring.
Qed.
Lemma inverse_0 n E : inverse n E 0 = E 0.
Proof.
  revert E. induction n as [|n IH]; intros E; [unfold inverse, msum; cbn; qring|]. change 0 with (bit false 0) at 1. rewrite inverse_bit. rewrite IH. reflexivity.
Qed.

(** *** The loops over assignments and subsets *)
Lemma rd_map {A} (F : nat -> A) N s : s < N -> rd (map F (seq 0 N)) s = Ret (F s).
Proof. intros H. unfold rd. rewrite nth_error_map, (nth_error_nth' _ 0) by (rewrite seq_length; exact H). rewrite seq_nth by exact H. reflexivity. Qed.
Lemma wr_map {A} (F : nat -> A) N s v : s < N -> wr (map F (seq 0 N)) s v = Ret (map (fun i => if i =? s then v else F i) (seq 0 N)).
Proof.
  intros H. unfold wr. rewrite map_length, seq_length. rewrite (proj2 (Nat.ltb_lt s N) H). f_equal. clear H. rewrite <- (Nat.sub_0_r s) at 1. change (upd (map F (seq 0 N)) (s - 0) v) with (upd (map F (seq 0 N)) (s - 0) v).
  assert (G : forall N k, k <= s -> upd (map F (seq k N)) (s - k) v = map (fun i => if i =? s then v else F i) (seq k N)); [|apply G; lia].
  induction N0 as [|m IH]; intros k Hk; [destruct (s - k); reflexivity|]. cbn [seq map]. destruct (Nat.eqb_spec k s) as [->|Nk].
  - rewrite Nat.sub_diag. cbn [upd]. f_equal. apply map_ext_in. intros i Hi. apply in_seq in Hi. rewrite (proj2 (Nat.eqb_neq i s)) by lia. reflexivity.
  - replace (s - k) with (S (s - S k)) by lia. cbn [upd]. f_equal. apply IH. lia.
Qed.
Lemma inner_loop (cond : nat -> bool) (g : nat -> Qc) N : forall m k F, k + m <= N ->
  foldM (fun l s => if cond s then c <- rd l s ;; wr l s (c + g s)%Qc else Ret l) (seq k m) (map F (seq 0 N)) =
  Ret (map (fun s => if (k <=? s) && (s <? k + m) && cond s then (F s + g s)%Qc else F s) (seq 0 N)).
Proof.
  induction m as [|m IH]; intros k F H; cbn [seq foldM].
  - f_equal. apply map_ext. intros s. destruct (k <=? s) eqn:A, (s <? k + 0) eqn:B; try reflexivity. apply Nat.leb_le in A. apply Nat.ltb_lt in B. lia.
  -
    assert (X : (if cond k then c <- rd (map F (seq 0 N)) k ;; wr (map F (seq 0 N)) k (c + g k)%Qc else Ret (map F (seq 0 N))) = Ret (map (fun i => if (i =? k) && cond i then (F i + g i)%Qc else F i) (seq 0 N))).
    { destruct (cond k) eqn:C.
      - rewrite rd_map by lia. cbn [bind]. rewrite wr_map by lia. f_equal. apply map_ext. intros i. destruct (Nat.eqb_spec i k) as [->|Ni]; [rewrite C|]; reflexivity.
      - f_equal. apply map_ext. intros i. destruct (Nat.eqb_spec i k) as [->|Ni]; [rewrite C|]; reflexivity. }
    rewrite X. cbn [bind]. rewrite (IH (S k)) by lia. f_equal. apply map_ext. intros s.
    destruct (cond s) eqn:C; rewrite ?andb_false_r; [|reflexivity]. rewrite !andb_true_r.
    destruct (Nat.eqb_spec s k) as [->|Ns].
    + rewrite (proj2 (Nat.leb_gt (S k) k)) by lia. rewrite (proj2 (Nat.leb_le k k)) by lia. rewrite (proj2 (Nat.ltb_lt k (k + S m))) by lia. reflexivity.
    + replace (S k <=? s) with (k <=? s); [replace (s <? S k + m) with (s <? k + S m) by (f_equal; lia); reflexivity|].
      destruct (Nat.leb_spec k s), (Nat.leb_spec (S k) s); try reflexivity; lia.
Qed.
Lemma coefficients_ok size energy E : (forall a, a < 2 ^ size -> energy a = Ret (E a)) ->
  coefficients size energy = Ret (map (fun s => if s =? 0 then 0%Qc else inverse size E s) (seq 0 (2 ^ size))).
Proof.
  intros HE. unfold coefficients. set (N := 2 ^ size) in *. assert (NP : 1 <= N) by (unfold N; pose proof (Nat.pow_nonzero 2 size); lia).
  set (t := fun a s => if subs a s then if parity size a s then (- E a)%Qc else E a else 0%Qc).
  replace (repeat 0%Qc N) with (map (fun s => if s =? 0 then 0%Qc else msum 0 (fun a => t a s)) (seq 0 N)).
  2:{ assert (G : forall k, map (fun s : nat => if s =? 0 then 0%Qc else msum 0 (fun a => t a s)) (seq k N) = repeat 0%Qc N); [|apply G]. clear. induction N as [|N IH]; intros k; cbn [seq map repeat]; [reflexivity|]. rewrite IH. destruct (k =? 0); reflexivity. }
  assert (G : forall m k, k + m = N ->
    foldM (fun coeffs a => e <- energy a ;; foldM (fun coeffs s => if Nat.ldiff a s =? 0 then c <- rd coeffs s ;; wr coeffs s (c + (if parity size a s then - e else e))%Qc else Ret coeffs) (seq 1 (N - 1)) coeffs)
      (seq k m) (map (fun s => if s =? 0 then 0%Qc else msum k (fun a => t a s)) (seq 0 N)) = Ret (map (fun s => if s =? 0 then 0%Qc else msum N (fun a => t a s)) (seq 0 N))).
  { induction m as [|m IH]; intros k Hk; cbn [seq foldM]; [replace k with N by lia; reflexivity|]. rewrite HE by lia. cbn [bind].
    pose proof (inner_loop (fun s => subs k s) (fun s => if parity size k s then (- E k)%Qc else E k) N (N - 1) 1 (fun s => if s =? 0 then 0%Qc else msum k (fun a => t a s)) ltac:(lia)) as I.
    unfold subs in I. cbv beta in I. rewrite I. cbn [bind]. rewrite <- (IH (S k)) by lia. f_equal. apply map_ext_in. intros s Hs. apply in_seq in Hs. fold (subs k s).
    destruct s as [|s]; [reflexivity|]. rewrite (proj2 (Nat.leb_le 1 (S s))) by lia. rewrite (proj2 (Nat.ltb_lt (S s) (1 + (N - 1)))) by lia. cbn [andb]. change (S s =? 0) with false. cbn iota. rewrite msum_S. unfold t. destruct (subs k (S s)); qring. }
  rewrite (G N 0) by lia. reflexivity.
Qed.

(** *** One clique *)
Definition mix (A B : nat -> nat) (x : nat -> bool) (v : nat) : nat := if x v then B v else A v.
Fixpoint bits_labels (A B : nat -> nat) (m : nat) (vis : list nat) : list nat :=
  match vis with [] => [] | v :: vis => (if Nat.odd m then B v else A v) :: bits_labels A B (Nat.div2 m) vis end.
Fixpoint bits_vars (m : nat) (vis : list nat) : list nat :=
  match vis with [] => [] | v :: vis => (if Nat.odd m then [v] else []) ++ bits_vars (Nat.div2 m) vis end.
Fixpoint mask (x : nat -> bool) (vis : list nat) : nat := match vis with [] => 0 | v :: vis => bit (x v) (mask x vis) end.
Lemma odd_bit b a : Nat.odd (bit b a) = b.
Proof. rewrite <- Nat.bit0_odd. apply bit_0. Qed.
Lemma div2_bit b a : Nat.div2 (bit b a) = a.
Proof. unfold bit. destruct b; cbn [Nat.b2n]; [rewrite Nat.add_1_r; apply Nat.div2_succ_double|rewrite Nat.add_0_r; apply Nat.div2_double]. Qed.
Lemma mask_lt x vis : mask x vis < 2 ^ length vis.
Proof. induction vis as [|v vis IH]; [cbn; lia|]. cbn [mask length]. rewrite pow_S. unfold bit. destruct (x v); cbn [Nat.b2n]; lia. Qed.
Lemma labels_mask A B x vis : bits_labels A B (mask x vis) vis = map (mix A B x) vis.
Proof. induction vis as [|v vis IH]; [reflexivity|]. cbn [mask bits_labels map]. rewrite odd_bit, div2_bit, IH. reflexivity. Qed.
Lemma labels_0 A B vis : bits_labels A B 0 vis = map A vis.
Proof. induction vis as [|v vis IH]; [reflexivity|]. cbn [bits_labels map]. change (Nat.div2 0) with 0. rewrite IH. reflexivity. Qed.
Lemma subs_mask x : forall vis s, s < 2 ^ length vis -> subs s (mask x vis) = forallb x (bits_vars s vis).
Proof.
  induction vis as [|v vis IH]; intros s Hs.
  - cbn in Hs. replace s with 0 by lia. reflexivity.
  - cbn [mask bits_vars]. rewrite (bit_split s) at 1. rewrite subs_bit, forallb_app. f_equal; [destruct (Nat.odd s); cbn; [destruct (x v)|]; reflexivity|].
    apply IH. cbn [length] in Hs. rewrite pow_S in Hs. rewrite (bit_split s) in Hs. unfold bit in Hs. lia.
Qed.
Lemma bits_vars_incl : forall vis m v, In v (bits_vars m vis) -> In v vis.
Proof. induction vis as [|w vis IH]; intros m v H; [exact H|]. cbn [bits_vars] in H. apply in_app_or in H. destruct H as [H|H]; [destruct (Nat.odd m); [destruct H as [<-|[]]; left; reflexivity|destruct H]|right; eapply IH; exact H]. Qed.
Lemma bits_vars_nodup : forall vis m, NoDup vis -> NoDup (bits_vars m vis).
Proof.
  induction vis as [|w vis IH]; intros m H; [constructor|]. inversion H; subst. cbn [bits_vars]. destruct (Nat.odd m); cbn [app]; [constructor|]; auto. intros X. apply bits_vars_incl in X. auto.
Qed.
Lemma bits_vars_length : forall vis m, length (bits_vars m vis) <= length vis.
Proof. induction vis as [|w vis IH]; intros m; [cbn; lia|]. cbn [bits_vars]. rewrite app_length. specialize (IH (Nat.div2 m)). destruct (Nat.odd m); cbn; lia. Qed.
Lemma bits_labels_in A B : forall vis m, Forall2 (fun v a => a = A v \/ a = B v) vis (bits_labels A B m vis).
Proof. induction vis as [|v vis IH]; intros m; cbn [bits_labels]; constructor; auto. destruct (Nat.odd m); auto. Qed.

Section Clique.
Variables (D n : nat) (eval : clique -> list nat -> outcome Qc) (lab0 lab1 : nat -> outcome nat) (A B : nat -> nat).
Hypothesis L0 : forall v, v < n -> lab0 v = Ret (A v).
Hypothesis L1 : forall v, v < n -> lab1 v = Ret (B v).

Lemma clique_labels_ok : forall vis a, Forall (fun v => v < n) vis -> clique_labels lab0 lab1 a vis = Ret (bits_labels A B a vis).
Proof.
  intros vis a. unfold clique_labels. assert (X : forall i, Nat.testbit a (0 + i) = Nat.testbit a i) by reflexivity. revert X. generalize a at 1 3 as b. generalize 0 as k. revert a.
  induction vis as [|v vis IH]; intros a k b X F; [reflexivity|]. inversion F; subst. cbn [length seq combine mapM fst snd bits_labels].
  rewrite <- Nat.bit0_odd, <- (X 0), Nat.add_0_r. rewrite L0, L1 by assumption. destruct (Nat.testbit b k); cbn [bind]; (rewrite (IH (Nat.div2 a) (S k) b); [reflexivity| |assumption]); intros i; rewrite Nat.add_succ_comm, X; reflexivity.
Qed.
Lemma subset_vars_ok : forall vis s, length vis <= D -> subset_vars D s vis = Ret (bits_vars s vis).
Proof.
  assert (G : forall vis s k b acc, (forall i, Nat.testbit b (k + i) = Nat.testbit s i) -> length acc + length vis <= D ->
    foldM (fun vars p => if Nat.testbit b (fst p) then if length vars <? D then Ret (vars ++ [snd p]) else Undef else Ret vars) (combine (seq k (length vis)) vis) acc = Ret (acc ++ bits_vars s vis)); [|intros vis s H; apply (G vis s 0 s []); [reflexivity|exact H]].
  induction vis as [|v vis IH]; intros s k b acc X H; cbn [length seq combine foldM bits_vars]; [rewrite app_nil_r; reflexivity|].
  cbn [fst snd]. rewrite <- Nat.bit0_odd, <- (X 0), Nat.add_0_r. cbn [length] in H.
  assert (X' : forall i, Nat.testbit b (S k + i) = Nat.testbit (Nat.div2 s) i) by (intros i; rewrite Nat.add_succ_comm, X; reflexivity).
  destruct (Nat.testbit b k); cbn [bind app].
  - rewrite (proj2 (Nat.ltb_lt (length acc) D)) by lia. cbn [bind]. rewrite (IH (Nat.div2 s) (S k) b (acc ++ [v]) X') by (rewrite app_length; cbn; lia). rewrite <- app_assoc. reflexivity.
  - apply (IH (Nat.div2 s) (S k) b acc X'). lia.
Qed.

Definition call_ok (c : hoecall) : Prop :=
  match c with CTerm _ vs => StronglySorted lt vs /\ Forall (fun v => v < n) vs /\ length vs <= D | CUnary v _ => v < n | _ => False end.
Lemma calls_ok_all : forall cs, Forall call_ok cs -> calls_ok D n cs /\ poly_vars cs = 0.
Proof. induction cs as [|c cs IH]; intros F; [split; [exact I|reflexivity]|]. inversion F as [|? ? Fc Fs]; subst. destruct (IH Fs) as [K V]. destruct c; cbn in Fc |- *; try destruct Fc as (F1 & F2 & F3); auto; try destruct Fc. Qed.
Lemma forallb_perm (f : nat -> bool) l l' : Permutation l l' -> forallb f l = forallb f l'.
Proof. induction 1; cbn; try congruence. destruct (f x), (f y); reflexivity. Qed.

Lemma clique_calls_ok (c : clique) : NoDup (fst c) -> Forall (fun v => v < n) (fst c) -> length (fst c) <= D ->
  (forall l, Forall2 (fun v a => a = A v \/ a = B v) (fst c) l -> eval c l = Ret (snd c l)) ->
  exists cs, clique_calls D eval lab0 lab1 c = Ret cs /\ Forall call_ok cs /\ forall x, poly cs x = (snd c (map (mix A B x) (fst c)) - snd c (map A (fst c)))%Qc.
Proof.
  intros ND F LD EV. unfold clique_calls. set (vis := fst c) in *. assert (V : vis = vis) by reflexivity. destruct vis as [|v [|w vs]] eqn:Hv.
  - exists []. split; [reflexivity|]. split; [constructor|]. intros x. unfold poly. cbn. qring.
  - inversion F; subst. rewrite L0, L1 by assumption. cbn [bind]. rewrite !EV by (repeat constructor; auto). cbn [bind]. eexists. split; [reflexivity|]. split; [repeat constructor; assumption|].
    intros x. unfold poly. cbn [map qsum call_value]. unfold mono, mix. cbn. destruct (x v); cbn; qring.
  - rewrite <- Hv in *. clear V. set (N := 2 ^ length vis). assert (NP : 1 <= N) by (unfold N; pose proof (Nat.pow_nonzero 2 (length vis)); lia).
    pose (E := fun m => snd c (bits_labels A B m vis)).
    rewrite (coefficients_ok (length vis) _ E). 2:{ intros a _. rewrite clique_labels_ok by exact F. cbn [bind]. apply EV. apply bits_labels_in. }
    cbn [bind]. fold N.
    assert (M : forall ss, (forall s, In s ss -> 1 <= s < N) -> mapM (fun s => vars <- subset_vars D s vis ;; k <- rd (map (fun s => if s =? 0 then 0%Qc else inverse (length vis) E s) (seq 0 N)) s ;; Ret (CTerm k (nat_sort vars))) ss =
      Ret (map (fun s => CTerm (inverse (length vis) E s) (nat_sort (bits_vars s vis))) ss)).
    { induction ss as [|s ss IH]; intros H; cbn [mapM map]; [reflexivity|]. rewrite subset_vars_ok by exact LD. cbn [bind]. rewrite rd_map by (apply (H s); left; reflexivity). cbn [bind].
      rewrite (proj2 (Nat.eqb_neq s 0)) by (specialize (H s (or_introl eq_refl)); lia). rewrite IH by (intros; apply H; right; assumption). reflexivity. }
    rewrite M by (intros s Hs; apply in_seq in Hs; lia). eexists. split; [reflexivity|]. split.
    + apply Forall_forall. intros k Hk. apply in_map_iff in Hk. destruct Hk as (s & <- & _). cbn [call_ok]. pose proof (nat_sort_perm (bits_vars s vis)) as P.
      split; [apply nat_sort_sorted, bits_vars_nodup, ND|]. split; [|rewrite <- (Permutation_length P); pose proof (bits_vars_length vis s); lia].
      apply Forall_forall. intros u Hu. apply (Permutation_in _ (Permutation_sym P)) in Hu. apply bits_vars_incl in Hu. rewrite Forall_forall in F. apply F. exact Hu.
    + intros x. unfold poly. rewrite map_map.
      rewrite (map_ext_in _ (fun s => if subs s (mask x vis) then inverse (length vis) E s else 0%Qc)).
      2:{ intros s Hs. apply in_seq in Hs. cbn [call_value]. unfold mono. rewrite <- (forallb_perm x _ _ (nat_sort_perm (bits_vars s vis))). rewrite subs_mask by (fold N; lia). reflexivity. }
      pose proof (moebius (length vis) E (mask x vis) (mask_lt x vis)) as Mo. fold N in Mo. replace N with (S (N - 1)) in Mo at 1 by lia. rewrite msum_first in Mo.
      replace (subs 0 (mask x vis)) with true in Mo by (unfold subs; rewrite Nat.ldiff_0_l; reflexivity). rewrite inverse_0 in Mo. unfold E in Mo at 1 3. rewrite labels_mask, labels_0 in Mo. rewrite <- Mo. unfold E. qring.
Qed.
Lemma poly_app cs ds x : poly (cs ++ ds) x = (poly cs x + poly ds x)%Qc.
Proof. unfold poly. rewrite map_app, qsum_app. reflexivity. Qed.

(** The energy of all cliques. *)
Lemma setup_calls_ok : forall cliques,
  Forall (fun c => NoDup (fst c) /\ Forall (fun v => v < n) (fst c) /\ length (fst c) <= D /\ (forall l, Forall2 (fun v a => a = A v \/ a = B v) (fst c) l -> eval c l = Ret (snd c l))) cliques ->
  exists cs, (forall h, setup_energy D eval lab0 lab1 n cliques = Ret h <-> hoe_run D cs = Ret h) /\ calls_ok D 0 cs /\ poly_vars cs = n /\
    forall x, poly cs x = (qsum (map (fun c => snd c (map (mix A B x) (fst c))) cliques) - qsum (map (fun c => snd c (map A (fst c))) cliques))%Qc.
Proof.
  intros cliques F.
  assert (X : exists css, mapM (clique_calls D eval lab0 lab1) cliques = Ret css /\ Forall call_ok (concat css) /\
    forall x, poly (concat css) x = (qsum (map (fun c => snd c (map (mix A B x) (fst c))) cliques) - qsum (map (fun c => snd c (map A (fst c))) cliques))%Qc).
  { induction F as [|c cl (F1 & F2 & F3 & F4) _ IH]; cbn [mapM]; [exists []; split; [reflexivity|]; split; [constructor|]; intros x; unfold poly; cbn; qring|].
    destruct (clique_calls_ok c F1 F2 F3 F4) as (cs & E1 & O1 & V1). destruct IH as (css & E2 & O2 & V2). rewrite E1. cbn [bind]. rewrite E2. cbn [bind]. exists (cs :: css). split; [reflexivity|]. cbn [concat].
    split; [apply Forall_app; split; assumption|]. intros x. rewrite poly_app, V1, V2. cbn [map qsum]. qring. }
  destruct X as (css & E & O & V). exists (CVars n :: concat css). unfold setup_energy. rewrite E. cbn [bind]. split; [reflexivity|]. destruct (calls_ok_all _ O) as [K PV].
  split; [exact K|]. split; [change (poly_vars (CVars n :: concat css)) with (n + poly_vars (concat css)); lia|]. intros x. rewrite <- V. unfold poly. cbn [map qsum call_value]. qring.
Qed.
End Clique.
