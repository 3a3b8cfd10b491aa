(** Proofs for tentacle elimination: taking leafs off. *)
From Coq Require Import Sorted.
From Verif Require Import Base Values GmView GmViewSpec GmViewProofs ManipulatorModel TentacleModel.
#[local] Arguments nth_error : simpl never.

(** ** Lists *)
Lemma foldM_pre : forall A S (P : list A -> S -> Prop) (f : S -> A -> outcome S) l s, P [] s ->
  (forall pre a post s, l = pre ++ a :: post -> P pre s -> exists s', f s a = Ret s' /\ P (pre ++ [a]) s') -> exists s', foldM f l s = Ret s' /\ P l s'.
Proof.
  intros A S P f l s H0 HS. assert (G : forall post pre s, l = pre ++ post -> P pre s -> exists s', foldM f post s = Ret s' /\ P l s').
  { induction post as [|a post IH]; intros pre s' E H. { exists s'. rewrite app_nil_r in E. subst. auto. }
    destruct (HS pre a post s' E H) as (s1 & E1 & P1). cbn [foldM]. rewrite E1. cbn [bind]. apply (IH (pre ++ [a])); auto. rewrite <- app_assoc. auto. }
  apply (G l []); auto.
Qed.
Definition mem (v : nat) (l : list nat) : bool := existsb (Nat.eqb v) l.
Lemma mem_In : forall v l, mem v l = true <-> In v l.
Proof. intros v l. unfold mem. rewrite existsb_exists. split; [intros (u & H & E); apply Nat.eqb_eq in E; subst; auto|intros H; exists v; rewrite Nat.eqb_refl; auto]. Qed.
Lemma mem_false : forall v l, mem v l = false <-> ~ In v l.
Proof. intros v l. rewrite <- mem_In. destruct (mem v l); split; congruence. Qed.
Lemma mem_app : forall v a b, mem v (a ++ b) = mem v a || mem v b.
Proof. intros. apply existsb_app. Qed.
Lemma nodup_mid : forall A (a b : list A) x, NoDup (a ++ x :: b) -> ~ In x a /\ ~ In x b.
Proof. intros A a b x H. apply NoDup_remove_2 in H. rewrite in_app_iff in H. tauto. Qed.
Lemma filter_snoc : forall A (p : A -> bool) l a, filter p (l ++ [a]) = filter p l ++ (if p a then [a] else []).
Proof. intros. rewrite filter_app. auto. Qed.
Lemma count_remove : forall (p q : nat -> bool) l a, NoDup l -> In a l -> p a = true -> q a = false -> (forall x, In x l -> x <> a -> q x = p x) ->
  length (filter p l) = S (length (filter q l)).
Proof.
  intros p q l a ND. induction l as [|b l IH]; intros HI HP HQ HX; [destruct HI|]. apply NoDup_cons_iff in ND. destruct ND as [NI ND]. cbn [filter]. destruct HI as [->|HI].
  - rewrite HP, HQ. cbn [length]. f_equal. f_equal. apply filter_ext_in. intros x Hx. symmetry. apply HX; [right; auto|]. congruence.
  - assert (b <> a) by congruence. rewrite (HX b) by (auto; left; auto). assert (IHx : length (filter p l) = S (length (filter q l))) by (apply IH; auto; intros; apply HX; auto; right; auto). destruct (p b); cbn [length]; lia.
Qed.
Lemma count_ge2 : forall (p : nat -> bool) l, NoDup l -> (2 <= length (filter p l) <-> exists a b, a <> b /\ In a l /\ In b l /\ p a = true /\ p b = true).
Proof.
  intros p l ND. assert (NF : NoDup (filter p l)) by (apply NoDup_filter; auto). split.
  - intros H. destruct (filter p l) as [|a [|b r]] eqn:E; cbn in H; try lia. exists a, b. assert (A : In a (filter p l)) by (rewrite E; left; auto). assert (B : In b (filter p l)) by (rewrite E; right; left; auto).
    apply filter_In in A. apply filter_In in B. inversion NF; subst. split; [|tauto]. intros ->. apply H2. left; auto.
  - intros (a & b & N & A & B & PA & PB). assert (IA : In a (filter p l)) by (apply filter_In; auto). assert (IB : In b (filter p l)) by (apply filter_In; auto).
    destruct (filter p l) as [|x [|y r]]; cbn; try lia; [destruct IA|]. destruct IA as [->|[]], IB as [->|[]]; congruence.
Qed.
Lemma count_le1 : forall (p : nat -> bool) l a b, NoDup l -> length (filter p l) <= 1 -> In a l -> In b l -> p a = true -> p b = true -> a = b.
Proof. intros p l a b ND H A B PA PB. destruct (Nat.eq_dec a b) as [|N]; auto. exfalso. assert (2 <= length (filter p l)); [|lia]. apply count_ge2; auto. eauto 10. Qed.
Lemma count_pos : forall (p : nat -> bool) l, 0 < length (filter p l) <-> exists a, In a l /\ p a = true.
Proof.
  intros p l. split.
  - intros H. destruct (filter p l) as [|a r] eqn:E; cbn in H; [lia|]. exists a. apply filter_In. rewrite E. left; auto.
  - intros (a & A & P). assert (X : In a (filter p l)) by (apply filter_In; auto). destruct (filter p l); [destruct X|cbn; lia].
Qed.

Section S.
Variable T : Type.
Variable g : gmv T.
Hypothesis W : wf_gmv g.
Variable fix_ : list bool.
Notation n := (length (v_labels g)).
Notation nf := (length (v_factors g)).
Hypothesis LF : length fix_ = n.

(** Free variables, and the free variables of a factor. *)
Definition fr (v : nat) : bool := negb (nth v fix_ true).
Definition vars (k : nat) : list nat := match nth_error (v_factors g) k with Some fc => fst fc | None => [] end.
Definition fvars (k : nat) : list nat := filter fr (vars k).
Hypothesis HB : forall v, fr v = true -> v < nf.

Lemma fr_lt : forall v, fr v = true -> v < n.
Proof. intros v H. unfold fr in H. destruct (Nat.lt_ge_cases v n) as [|L]; auto. rewrite nth_overflow in H by lia. discriminate. Qed.
Lemma vars_lt : forall k v, In v (vars k) -> v < n /\ k < nf.
Proof.
  intros k v H. unfold vars in H. destruct (nth_error (v_factors g) k) as [fc|] eqn:E; [|destruct H]. destruct (wf_nth _ _ _ _ W E) as [_ B]. rewrite Forall_forall in B. split; auto. apply nth_error_Some. congruence.
Qed.
Lemma vars_sorted : forall k, StronglySorted lt (vars k).
Proof. intros k. unfold vars. destruct (nth_error (v_factors g) k) as [fc|] eqn:E; [|constructor]. apply (wf_nth _ _ _ _ W E). Qed.
Lemma vars_nodup : forall k, NoDup (vars k).
Proof.
  intros k. pose proof (vars_sorted k) as H. induction H as [|a l H IH F]; constructor; auto. intros I. rewrite Forall_forall in F. specialize (F a I). lia.
Qed.
Lemma fvars_In : forall k v, In v (fvars k) <-> In v (vars k) /\ fr v = true.
Proof. intros. unfold fvars. apply filter_In. Qed.
Lemma fvars_nodup : forall k, NoDup (fvars k).
Proof. intros. apply NoDup_filter, vars_nodup. Qed.
Lemma adj_In : forall k v, In k (v_adj T g v) <-> In v (vars k).
Proof.
  intros k v. unfold v_adj, vars. rewrite filter_In, in_seq. destruct (nth_error (v_factors g) k) as [[vis f]|] eqn:E; cbn [fst].
  - rewrite (mem_In v vis). assert (k < nf) by (apply nth_error_Some; congruence). intuition lia.
  - split; [intros [_ H]; discriminate|intros []].
Qed.
Lemma adj_nodup : forall v, NoDup (v_adj T g v).
Proof. intros. apply NoDup_filter, seq_NoDup. Qed.
Lemma rd_fix_ : forall v, v < n -> rd fix_ v = Ret (negb (fr v)).
Proof. intros v H. rewrite (rd_nth _ fix_ v true) by lia. unfold fr. rewrite negb_involutive. auto. Qed.
Lemma rd_fac : forall k, k < nf -> exists fc, rd (v_factors g) k = Ret fc /\ fst fc = vars k.
Proof. intros k H. destruct (nth_error_lt _ _ _ H) as (fc & E). exists fc. rewrite (rd_Ret _ _ _ _ E). unfold vars. rewrite E. auto. Qed.

(** ** Degrees *)
(** The free variables of a factor that are not taken off, and the factors with another one. *)
Definition left_ (pop : list nat) (k : nat) : nat := length (filter (fun u => negb (mem u pop)) (fvars k)).
Definition deg (pop : list nat) (v : nat) : nat := length (filter (fun k => mem v (fvars k) && (2 <=? left_ pop k)) (seq 0 nf)).

Lemma factor_degree_ok : forall k fd vis, k < length fd -> Forall (fun v => v < n) vis ->
  exists fd', factor_degree fix_ k fd vis = Ret fd' /\ length fd' = length fd /\ forall j, nth j fd' 0 = nth j fd 0 + if j =? k then length (filter fr vis) else 0.
Proof.
  intros k fd vis Hk HV. unfold factor_degree.
  destruct (foldM_pre nat _ (fun pre fd' => length fd' = length fd /\ forall j, nth j fd' 0 = nth j fd 0 + if j =? k then length (filter fr pre) else 0) (fun fd v => b <- rd fix_ v ;; if b : bool then Ret fd else d <- rd fd k ;; wr fd k (S d)) vis fd) as (fd' & E & H).
  - split; auto. intros j. cbn. destruct (j =? k); lia.
  - intros pre v post s -> [L H]. assert (Hv : v < n) by (rewrite Forall_forall in HV; apply HV; apply in_elt). rewrite rd_fix_ by auto. cbn [bind]. rewrite filter_snoc. destruct (fr v); cbn [negb].
    + rewrite (rd_nth _ s k 0) by lia. cbn [bind]. rewrite wr_Ret by lia. eexists. split; [reflexivity|]. split; [rewrite length_upd; auto|].
      intros j. rewrite app_length. cbn [length]. destruct (Nat.eqb_spec j k) as [->|N].
      * rewrite nth_upd_eq by lia. rewrite H, Nat.eqb_refl. lia.
      * rewrite nth_upd_neq by auto. rewrite H. destruct (Nat.eqb_spec j k); [congruence|auto].
    + exists s. split; auto. rewrite app_nil_r. auto.
  - exists fd'. auto.
Qed.
Lemma variable_degree_ok : forall vd vis, length vd = n -> Forall (fun v => v < n) vis -> NoDup vis ->
  exists vd', variable_degree fix_ vd vis = Ret vd' /\ length vd' = n /\ forall u, nth u vd' 0 = nth u vd 0 + if mem u vis && fr u then 1 else 0.
Proof.
  intros vd vis LV HV ND. unfold variable_degree.
  destruct (foldM_pre nat _ (fun pre vd' => length vd' = n /\ forall u, nth u vd' 0 = nth u vd 0 + if mem u pre && fr u then 1 else 0) (fun vd v => b <- rd fix_ v ;; if b : bool then Ret vd else d <- rd vd v ;; wr vd v (S d)) vis vd) as (vd' & E & H).
  - split; auto.
  - intros pre v post s -> [L H]. assert (Hv : v < n) by (rewrite Forall_forall in HV; apply HV; apply in_elt). rewrite rd_fix_ by auto. cbn [bind].
    assert (NP : mem v pre = false) by (apply mem_false; apply (proj1 (nodup_mid _ _ _ _ ND))).
    destruct (fr v) eqn:F; cbn [negb].
    + rewrite (rd_nth _ s v 0) by lia. cbn [bind]. rewrite wr_Ret by lia. eexists. split; [reflexivity|]. split; [rewrite length_upd; auto|].
      intros u. rewrite mem_app. cbn [mem existsb]. destruct (Nat.eqb_spec u v) as [->|N].
      * rewrite nth_upd_eq by lia. rewrite H, NP, F. cbn. lia.
      * rewrite nth_upd_neq by auto. rewrite H. rewrite !orb_false_r. auto.
    + exists s. split; auto. split; auto. intros u. rewrite H, mem_app. cbn [mem existsb]. destruct (Nat.eqb_spec u v) as [->|N]; [rewrite F, !andb_false_r; auto|rewrite !orb_false_r; auto].
  - exists vd'. auto.
Qed.

Lemma left_nil : forall k, left_ [] k = length (fvars k).
Proof. intros k. unfold left_. induction (fvars k) as [|a l IH]; auto. cbn in *. congruence. Qed.

Lemma setup_ok : exists fd vd, foldM (setup_factor T g fix_) (seq 0 nf) (repeat 0 nf, repeat 0 n) = Ret (fd, vd) /\
  length fd = nf /\ length vd = n /\ (forall k, k < nf -> nth k fd 0 = left_ [] k) /\ (forall v, nth v vd 0 = deg [] v).
Proof.
  destruct (foldM_pre nat (list nat * list nat) (fun pre st => length (fst st) = nf /\ length (snd st) = n /\ (forall k, nth k (fst st) 0 = if mem k pre then left_ [] k else 0) /\
    forall v, nth v (snd st) 0 = length (filter (fun k => mem v (fvars k) && (2 <=? left_ [] k)) pre)) (setup_factor T g fix_) (seq 0 nf) (repeat 0 nf, repeat 0 n)) as ((fd & vd) & E & L1 & L2 & H1 & H2).
  - cbn. rewrite !repeat_length. split; auto. split; auto. split; intros; apply nth_repeat.
  - intros pre k post (fd & vd) ES (L1 & L2 & H1 & H2). cbn [fst snd] in *. assert (Hk : k < nf) by (assert (In k (seq 0 nf)) by (rewrite ES; apply in_elt); rewrite in_seq in *; lia).
    assert (NP : mem k pre = false). { apply mem_false. apply (nodup_mid _ pre post k). rewrite <- ES. apply seq_NoDup. }
    unfold setup_factor. destruct (rd_fac k Hk) as (fc & -> & FC). cbn [bind fst snd]. rewrite FC.
    assert (HV : Forall (fun v => v < n) (vars k)) by (apply Forall_forall; intros v Hv; apply (vars_lt k); auto).
    destruct (factor_degree_ok k fd (vars k)) as (fd' & -> & L1' & F1); [lia|auto|]. cbn [bind]. rewrite (rd_nth _ fd' k 0) by lia. cbn [bind].
    assert (FK : nth k fd' 0 = left_ [] k) by (rewrite F1, Nat.eqb_refl, H1, NP, left_nil; auto). rewrite FK.
    assert (FD : forall j, nth j fd' 0 = if mem j (pre ++ [k]) then left_ [] j else 0).
    { intros j. rewrite mem_app. cbn [mem existsb]. rewrite orb_false_r. destruct (Nat.eqb_spec j k) as [->|N]; [rewrite orb_true_r; auto|]. rewrite orb_false_r, F1, H1. destruct (Nat.eqb_spec j k); [congruence|lia]. }
    destruct (Nat.ltb_spec 1 (left_ [] k)) as [G|G].
    + destruct (variable_degree_ok vd (vars k)) as (vd' & -> & L2' & V1); auto; [apply vars_nodup|]. cbn [bind]. eexists. split; [reflexivity|]. cbn [fst snd]. split; [lia|]. split; auto. split; auto.
      intros v. rewrite V1, H2, filter_snoc, app_length. f_equal. replace (mem v (vars k) && fr v) with (mem v (fvars k)).
      * replace (2 <=? left_ [] k) with true by (symmetry; apply Nat.leb_le; lia). rewrite andb_true_r. destruct (mem v (fvars k)); auto.
      * apply eq_true_iff_eq. rewrite andb_true_iff, !mem_In. apply fvars_In.
    + cbn [bind]. eexists. split; [reflexivity|]. cbn [fst snd]. split; [lia|]. split; auto. split; auto.
      intros v. rewrite H2, filter_snoc, app_length. replace (2 <=? left_ [] k) with false by (symmetry; apply Nat.leb_gt; lia). rewrite andb_false_r. cbn. lia.
  - exists fd, vd. cbn [fst snd] in *. split; auto. split; auto. split; auto. split; auto. intros k Hk. rewrite H1. replace (mem k (seq 0 nf)) with true; auto. symmetry. apply mem_In, in_seq. lia.
Qed.

(** ** The invariant of the loop that takes leafs off *)
(** [k] joins [v] with a variable that has not been taken off earlier. *)
Definition open_ (pop : list nat) (v k : nat) : Prop := In v (fvars k) /\ exists u, In u (fvars k) /\ u <> v /\ ~ In u pop.
(** An order, last variable first, in which each variable is joined by at most one factor with a later one. *)
Fixpoint elim_ok (pop : list nat) : Prop :=
  match pop with [] => True | v :: r => elim_ok r /\ forall k1 k2, open_ r v k1 -> open_ r v k2 -> k1 = k2 end.
Definition cut (pop : list nat) (k : nat) : Prop := 2 <= length (fvars k) /\ left_ pop k <= 1.

Record pinv (pop : list nat) (p : peel) : Prop := {
  pi_lfd : length (p_fd p) = nf; pi_lvd : length (p_vd p) = n; pi_ltf : length (p_tf p) = nf; pi_lpu : length (p_pushed p) = nf; pi_lin : length (p_in p) = n;
  pi_nd : NoDup (pop ++ p_leafs p);
  pi_fr : forall v, In v (pop ++ p_leafs p) -> fr v = true;
  pi_fd : forall k, k < nf -> nth k (p_fd p) 0 = left_ pop k;
  pi_tf : forall k, nth k (p_tf p) false = true <-> (left_ pop k <= 1 /\ exists v, In v pop /\ In v (fvars k));
  pi_vd : forall v, fr v = true -> nth v (p_vd p) 0 = deg pop v;
  pi_leaf : forall v, fr v = true -> (In v (pop ++ p_leafs p) <-> deg pop v <= 1);
  pi_pu : forall v, v < nf -> (nth v (p_pushed p) false = true <-> In v (pop ++ p_leafs p));
  pi_in : forall v, nth v (p_in p) false = true <-> (In v (pop ++ p_leafs p) \/ exists k, In v (fvars k) /\ cut pop k);
  pi_el : elim_ok pop }.

Lemma nth_repeat_false : forall m i, nth i (repeat false m) false = false.
Proof. intros. apply nth_repeat. Qed.
Lemma init_ok : exists p, peel_init T g fix_ = Ret p /\ pinv [] p.
Proof.
  unfold peel_init. destruct setup_ok as (fd & vd & -> & L1 & L2 & H1 & H2). cbn [bind].
  set (p0 := mkPeel fd vd (repeat false nf) (repeat false nf) (repeat false n) []).
  destruct (foldM_pre nat peel (fun pre p => p_fd p = fd /\ p_vd p = vd /\ p_tf p = repeat false nf /\ length (p_pushed p) = nf /\ length (p_in p) = n /\ NoDup (p_leafs p) /\
     (forall v, In v (p_leafs p) <-> In v pre /\ fr v = true /\ deg [] v <= 1) /\ (forall v, nth v (p_pushed p) false = true <-> In v (p_leafs p)) /\ (forall v, nth v (p_in p) false = true <-> In v (p_leafs p)))
     (setup_leaf fix_) (seq 0 n) p0) as (p & E & A1 & A2 & A3 & A4 & A5 & A6 & A7 & A8 & A9).
  - cbn [p0 p_fd p_vd p_tf p_pushed p_in p_leafs]. rewrite !repeat_length. do 5 (split; [reflexivity|]). split; [constructor|]. split; [cbn; tauto|]. split; intros v; rewrite nth_repeat; cbn; split; (discriminate || tauto).
  - intros pre v post p ES (A1 & A2 & A3 & A4 & A5 & A6 & A7 & A8 & A9). assert (Hv : v < n) by (assert (In v (seq 0 n)) by (rewrite ES; apply in_elt); rewrite in_seq in *; lia).
    assert (NP : ~ In v pre). { apply (nodup_mid _ pre post v). rewrite <- ES. apply seq_NoDup. }
    unfold setup_leaf. rewrite A2. rewrite (rd_nth _ vd v 0) by lia. cbn [bind]. rewrite H2. rewrite rd_fix_ by auto.
    assert (SAME : (deg [] v <=? 1) && fr v = false -> exists p', Ret p = Ret p' /\ (p_fd p' = fd /\ p_vd p' = vd /\ p_tf p' = repeat false nf /\ length (p_pushed p') = nf /\ length (p_in p') = n /\ NoDup (p_leafs p') /\
     (forall u, In u (p_leafs p') <-> In u (pre ++ [v]) /\ fr u = true /\ deg [] u <= 1) /\ (forall v, nth v (p_pushed p') false = true <-> In v (p_leafs p')) /\ (forall v, nth v (p_in p') false = true <-> In v (p_leafs p')))).
    { intros X. exists p. split; auto. repeat (split; auto); try (apply A8); try (apply A9).
      - apply A7 in H. rewrite in_app_iff. tauto.
      - apply A7 in H. tauto.
      - apply A7 in H. tauto.
      - intros (I & F & D). apply A7. split; auto. apply in_app_iff in I. destruct I as [I|[->|[]]]; auto. apply Nat.leb_le in D. rewrite D, F in X. discriminate. }
    destruct (deg [] v <=? 1) eqn:D; cbn [bind]; [|apply SAME; auto]. rewrite negb_involutive. destruct (fr v) eqn:F; [|apply SAME; auto].
    pose proof (HB v F) as Hvf. rewrite wr_Ret by lia. cbn [bind]. rewrite wr_Ret by lia. cbn [bind]. eexists. split; [reflexivity|]. cbn [p_fd p_vd p_tf p_pushed p_in p_leafs].
    split; auto. split; auto. split; auto. split; [rewrite length_upd; auto|]. split; [rewrite length_upd; auto|]. split; [|split; [|split]].
    + constructor; auto. intros I. apply A7 in I. tauto.
    + intros u. cbn [In]. rewrite A7, in_app_iff. cbn [In]. apply Nat.leb_le in D. split; [intros [->|X]; tauto|]. intros (I & Fu & Du). destruct I as [I|[->|[]]]; auto.
    + intros u. cbn [In]. destruct (Nat.eq_dec v u) as [->|N]; [rewrite nth_upd_eq by lia; tauto|]. rewrite nth_upd_neq, A8 by auto. tauto.
    + intros u. cbn [In]. destruct (Nat.eq_dec v u) as [->|N]; [rewrite nth_upd_eq by lia; tauto|]. rewrite nth_upd_neq, A9 by auto. tauto.
  - exists p. split; auto. assert (LE : forall v, In v (p_leafs p) <-> fr v = true /\ deg [] v <= 1).
    { intros v. rewrite A7. rewrite in_seq. split; [tauto|]. intros [F D]. split; auto. pose proof (fr_lt v F). lia. }
    constructor; cbn [app]; try congruence; auto.
    + rewrite A3. apply repeat_length.
    + intros v Hv. apply LE in Hv. tauto.
    + intros k Hk. rewrite A1. auto.
    + intros k. rewrite A3, nth_repeat. split; [discriminate|]. intros (_ & v & [] & _).
    + intros v Fv. rewrite LE. tauto.
    + intros v. rewrite A9. split; [auto|]. intros [X|(k & _ & C1 & C2)]; auto. rewrite left_nil in C2. lia.
    + exact I.
Qed.
(** ** One leaf *)
Lemma reduce_factors_ok : forall L fd tf, NoDup L -> (forall k, In k L -> k < nf /\ 1 <= nth k fd 0) -> length fd = nf -> length tf = nf ->
  exists fd' tf', foldM reduce_factor L (fd, tf) = Ret (fd', tf') /\ length fd' = nf /\ length tf' = nf /\
    (forall k, nth k fd' 0 = nth k fd 0 - if mem k L then 1 else 0) /\ (forall k, nth k tf' false = nth k tf false || (mem k L && (nth k fd 0 <=? 2))).
Proof.
  intros L fd tf ND HL L1 L2.
  destruct (foldM_pre nat (list nat * list bool) (fun pre st => length (fst st) = nf /\ length (snd st) = nf /\ (forall k, nth k (fst st) 0 = nth k fd 0 - if mem k pre then 1 else 0) /\
     (forall k, nth k (snd st) false = nth k tf false || (mem k pre && (nth k fd 0 <=? 2)))) reduce_factor L (fd, tf)) as ((fd' & tf') & E & A1 & A2 & A3 & A4).
  - cbn [fst snd]. split; auto. split; auto. split; intros k; cbn; [lia|rewrite orb_false_r; auto].
  - intros pre k post (fd1 & tf1) -> (A1 & A2 & A3 & A4). cbn [fst snd] in *. destruct (HL k) as [Hk Pk]; [apply in_elt|].
    assert (NP : mem k pre = false) by (apply mem_false; apply (proj1 (nodup_mid _ _ _ _ ND))).
    unfold reduce_factor. cbn [fst snd]. rewrite (rd_nth _ fd1 k 0) by lia. cbn [bind]. assert (FK : nth k fd1 0 = nth k fd 0) by (rewrite A3, NP; lia). rewrite FK.
    destruct (nth k fd 0) as [|d] eqn:D; [lia|]. rewrite wr_Ret by lia. cbn [bind].
    assert (FD : forall j, nth j (upd fd1 k d) 0 = nth j fd 0 - if mem j (pre ++ [k]) then 1 else 0).
    { intros j. rewrite mem_app. cbn [mem existsb]. rewrite orb_false_r. destruct (Nat.eqb_spec j k) as [->|N]; [rewrite nth_upd_eq by lia; rewrite orb_true_r, D; lia|]. rewrite nth_upd_neq, A3, orb_false_r by auto. auto. }
    destruct (Nat.leb_spec d 1) as [G|G].
    + rewrite wr_Ret by lia. cbn [bind]. eexists. split; [reflexivity|]. cbn [fst snd]. split; [rewrite length_upd; auto|]. split; [rewrite length_upd; auto|]. split; auto.
      intros j. rewrite mem_app. cbn [mem existsb]. rewrite orb_false_r. destruct (Nat.eqb_spec j k) as [->|N].
      * rewrite nth_upd_eq by lia. rewrite orb_true_r. cbn. rewrite D. replace (S d <=? 2) with true by (symmetry; apply Nat.leb_le; lia). rewrite orb_true_r. auto.
      * rewrite nth_upd_neq, A4, orb_false_r by auto. auto.
    + cbn [bind]. eexists. split; [reflexivity|]. cbn [fst snd]. split; [rewrite length_upd; auto|]. split; auto. split; auto.
      intros j. rewrite mem_app. cbn [mem existsb]. rewrite orb_false_r, A4. destruct (Nat.eqb_spec j k) as [->|N].
      * rewrite NP, D. replace (S d <=? 2) with false by (symmetry; apply Nat.leb_gt; lia). rewrite !andb_false_r. auto.
      * rewrite orb_false_r. auto.
  - exists fd', tf'. auto.
Qed.

Lemma reduce_vars_ok : forall vis p, NoDup vis -> (forall u, In u vis -> u < n /\ (fr u = true -> 1 <= nth u (p_vd p) 0)) ->
  length (p_vd p) = n -> length (p_pushed p) = nf -> length (p_in p) = n ->
  exists p' new, foldM (reduce_variable fix_) vis p = Ret p' /\ p_fd p' = p_fd p /\ p_tf p' = p_tf p /\
    length (p_vd p') = n /\ length (p_pushed p') = nf /\ length (p_in p') = n /\
    (forall u, nth u (p_vd p') 0 = nth u (p_vd p) 0 - if mem u vis && fr u then 1 else 0) /\
    (forall u, nth u (p_in p') false = nth u (p_in p) false || (mem u vis && fr u)) /\
    p_leafs p' = new ++ p_leafs p /\ NoDup new /\
    (forall u, In u new <-> In u vis /\ fr u = true /\ nth u (p_vd p) 0 = 2 /\ nth u (p_pushed p) false = false) /\
    (forall u, nth u (p_pushed p') false = true <-> nth u (p_pushed p) false = true \/ In u new).
Proof.
  intros vis p ND HV LV LP LI.
  destruct (foldM_pre nat peel (fun pre p' => exists new, p_fd p' = p_fd p /\ p_tf p' = p_tf p /\
    length (p_vd p') = n /\ length (p_pushed p') = nf /\ length (p_in p') = n /\
    (forall u, nth u (p_vd p') 0 = nth u (p_vd p) 0 - if mem u pre && fr u then 1 else 0) /\
    (forall u, nth u (p_in p') false = nth u (p_in p) false || (mem u pre && fr u)) /\
    p_leafs p' = new ++ p_leafs p /\ NoDup new /\
    (forall u, In u new <-> In u pre /\ fr u = true /\ nth u (p_vd p) 0 = 2 /\ nth u (p_pushed p) false = false) /\
    (forall u, nth u (p_pushed p') false = true <-> nth u (p_pushed p) false = true \/ In u new)) (reduce_variable fix_) vis p) as (p' & E & new & H).
  - exists []. do 5 (split; auto). split; [intros; cbn; lia|]. split; [intros; cbn; rewrite orb_false_r; auto|]. split; auto. split; [constructor|]. split; intros u; cbn; tauto.
  - intros pre v post q -> (new & A1 & A2 & A3 & A4 & A5 & A6 & A7 & A8 & A9 & A10 & A11). destruct (HV v) as [Hv Pv]; [apply in_elt|].
    assert (NI : ~ In v pre) by apply (proj1 (nodup_mid _ _ _ _ ND)). assert (NP : mem v pre = false) by (apply mem_false; auto).
    assert (NN : ~ In v new) by (rewrite A10; tauto).
    unfold reduce_variable. rewrite rd_fix_ by auto. cbn [bind]. destruct (fr v) eqn:F; cbn [negb].
    2:{ exists q. split; auto. exists new. do 5 (split; auto). split; [|split; [|split; [auto|split; [auto|split; [|auto]]]]].
        - intros u. rewrite A6, mem_app. cbn [mem existsb]. rewrite orb_false_r. destruct (Nat.eqb_spec u v) as [->|]; [rewrite F, !andb_false_r; auto|rewrite orb_false_r; auto].
        - intros u. rewrite A7, mem_app. cbn [mem existsb]. rewrite orb_false_r. destruct (Nat.eqb_spec u v) as [->|]; [rewrite F, !andb_false_r; auto|rewrite orb_false_r; auto].
        - intros u. rewrite A10, in_app_iff. cbn [In]. split; [tauto|]. intros ([I|[->|[]]] & X); [tauto|]. destruct X. congruence. }
    pose proof (HB v F) as Hvf. specialize (Pv eq_refl). rewrite (rd_nth _ (p_vd q) v 0) by lia. cbn [bind]. assert (VQ : nth v (p_vd q) 0 = nth v (p_vd p) 0) by (rewrite A6, NP; cbn; lia). rewrite VQ.
    destruct (nth v (p_vd p) 0) as [|d] eqn:D; [lia|]. rewrite wr_Ret by lia. cbn [bind].
    assert (VD : forall u, nth u (upd (p_vd q) v d) 0 = nth u (p_vd p) 0 - if mem u (pre ++ [v]) && fr u then 1 else 0).
    { intros u. rewrite mem_app. cbn [mem existsb]. rewrite orb_false_r. destruct (Nat.eqb_spec u v) as [->|N]; [rewrite nth_upd_eq by lia; rewrite orb_true_r, F, D; cbn; lia|]. rewrite nth_upd_neq, A6, orb_false_r by auto. auto. }
    assert (IN : forall u, nth u (upd (p_in q) v true) false = nth u (p_in p) false || (mem u (pre ++ [v]) && fr u)).
    { intros u. rewrite mem_app. cbn [mem existsb]. rewrite orb_false_r. destruct (Nat.eqb_spec u v) as [->|N]; [rewrite nth_upd_eq by lia; rewrite orb_true_r, F; cbn; rewrite orb_true_r; auto|]. rewrite nth_upd_neq, A7, orb_false_r by auto. auto. }
    assert (PQ : nth v (p_pushed q) false = nth v (p_pushed p) false). { apply eq_true_iff_eq. rewrite A11. tauto. }
    assert (KEEP : (d =? 1) && negb (nth v (p_pushed p) false) = false -> exists s', (p0 <- Ret (mkPeel (p_fd q) (upd (p_vd q) v d) (p_tf q) (p_pushed q) (p_in q) (p_leafs q));; in_ <- wr (p_in p0) v true;; Ret (mkPeel (p_fd p0) (p_vd p0) (p_tf p0) (p_pushed p0) in_ (p_leafs p0))) = Ret s' /\ exists new0, p_fd s' = p_fd p /\ p_tf s' = p_tf p /\
    length (p_vd s') = n /\ length (p_pushed s') = nf /\ length (p_in s') = n /\
    (forall u, nth u (p_vd s') 0 = nth u (p_vd p) 0 - if mem u (pre ++ [v]) && fr u then 1 else 0) /\
    (forall u, nth u (p_in s') false = nth u (p_in p) false || (mem u (pre ++ [v]) && fr u)) /\
    p_leafs s' = new0 ++ p_leafs p /\ NoDup new0 /\
    (forall u, In u new0 <-> In u (pre ++ [v]) /\ fr u = true /\ nth u (p_vd p) 0 = 2 /\ nth u (p_pushed p) false = false) /\
    (forall u, nth u (p_pushed s') false = true <-> nth u (p_pushed p) false = true \/ In u new0)).
    { intros C. cbn [bind p_in p_fd p_vd p_tf p_pushed p_leafs]. rewrite wr_Ret by lia. cbn [bind]. eexists. split; [reflexivity|]. exists new. cbn [p_in p_fd p_vd p_tf p_pushed p_leafs]. rewrite !length_upd. do 5 (split; auto). split; auto. split; auto. split; auto. split; auto. split; auto.
      intros u. rewrite A10, in_app_iff. cbn [In]. split; [tauto|]. intros ([I|[->|[]]] & X1 & X2 & X3); [tauto|]. rewrite D in X2. assert (d = 1) by lia. subst d. rewrite X3 in C. discriminate. }
    destruct (Nat.eqb_spec d 1) as [->|Nd]; cbn [bind]; [|apply KEEP; auto]. rewrite (rd_nth _ (p_pushed q) v false) by lia. cbn [bind]. rewrite PQ. destruct (nth v (p_pushed p) false) eqn:PU; cbn [negb]; [apply KEEP; auto|].
    rewrite wr_Ret by lia. cbn [bind p_in p_fd p_vd p_tf p_pushed p_leafs]. rewrite wr_Ret by lia. cbn [bind]. eexists. split; [reflexivity|]. exists (v :: new). cbn [p_in p_fd p_vd p_tf p_pushed p_leafs]. rewrite !length_upd. do 5 (split; auto).
    split; auto. split; auto. split; [rewrite A8; auto|]. split; [constructor; auto|]. split.
    + intros u. cbn [In]. rewrite A10, in_app_iff. cbn [In]. split.
      * intros [->|X]; [|tauto]. auto 10.
      * intros ([I|[->|[]]] & X); [tauto|auto].
    + intros u. cbn [In]. destruct (Nat.eq_dec v u) as [->|N]; [rewrite nth_upd_eq by lia; tauto|]. rewrite nth_upd_neq, A11 by auto. tauto.
  - exists p', new. tauto.
Qed.

Lemma left_cons : forall pop v k, ~ In v pop -> left_ (v :: pop) k = left_ pop k - if mem v (fvars k) then 1 else 0.
Proof.
  intros pop v k NI. unfold left_. destruct (mem v (fvars k)) eqn:M.
  - apply mem_In in M. rewrite (count_remove (fun u => negb (mem u pop)) (fun u => negb (mem u (v :: pop))) (fvars k) v); [lia|apply fvars_nodup|auto| | |].
    + apply negb_true_iff. apply mem_false. auto.
    + apply negb_false_iff. apply mem_In. left; auto.
    + intros x _ N. cbn [mem existsb]. destruct (Nat.eqb_spec x v); [congruence|auto].
  - rewrite Nat.sub_0_r. f_equal. apply filter_ext_in. intros x Hx. cbn [mem existsb]. destruct (Nat.eqb_spec x v) as [->|]; auto. apply mem_false in M. contradiction.
Qed.
Lemma left_pos : forall pop v k, ~ In v pop -> In v (fvars k) -> 1 <= left_ pop k.
Proof. intros pop v k N H. apply count_pos. exists v. split; auto. apply negb_true_iff, mem_false. auto. Qed.
Lemma left_le : forall pop k, left_ pop k <= length (fvars k).
Proof. intros. unfold left_. induction (fvars k) as [|a l IH]; cbn; auto. destruct (negb (mem a pop)); cbn; lia. Qed.
Lemma open_left : forall pop v k, ~ In v pop -> (open_ pop v k <-> In v (fvars k) /\ 2 <= left_ pop k).
Proof.
  intros pop v k N. unfold open_. split; intros [H1 H2]; split; auto.
  - destruct H2 as (u & A & B & C). apply count_ge2; [apply fvars_nodup|]. exists v, u. rewrite !negb_true_iff, !mem_false. auto 10.
  - apply count_ge2 in H2; [|apply fvars_nodup]. destruct H2 as (a & b & AB & A & B & PA & PB). rewrite negb_true_iff, mem_false in *. destruct (Nat.eq_dec a v) as [->|]; eauto.
Qed.
Lemma fvars_lt : forall k v, In v (fvars k) -> k < nf.
Proof. intros k v H. apply fvars_In in H. apply (vars_lt k v). tauto. Qed.
Lemma deg_unique : forall pop v k1 k2, deg pop v <= 1 -> In v (fvars k1) -> In v (fvars k2) -> 2 <= left_ pop k1 -> 2 <= left_ pop k2 -> k1 = k2.
Proof.
  intros pop v k1 k2 D A B L1 L2. apply (count_le1 _ (seq 0 nf) k1 k2 (seq_NoDup _ _) D).
  - apply in_seq. pose proof (fvars_lt k1 v A). lia.
  - apply in_seq. pose proof (fvars_lt k2 v B). lia.
  - apply andb_true_iff. split; [apply mem_In; auto|apply Nat.leb_le; auto].
  - apply andb_true_iff. split; [apply mem_In; auto|apply Nat.leb_le; auto].
Qed.
Lemma check_none : forall L p, (forall k, In k L -> k < length (p_fd p) /\ nth k (p_fd p) 0 <> 1) -> foldM (check_factor T g fix_) L p = Ret p.
Proof.
  intros L p. induction L as [|k L IH]; intros H; auto. cbn [foldM]. destruct (H k (or_introl eq_refl)) as [A B]. unfold check_factor at 1. rewrite (rd_nth _ (p_fd p) k 0) by auto. cbn [bind]. destruct (Nat.eqb_spec (nth k (p_fd p) 0) 1); [contradiction|]. cbn [bind]. apply IH. intros; apply H; right; auto.
Qed.

Lemma peel_step : forall pop p v leafs, pinv pop p -> p_leafs p = v :: leafs ->
  exists fd tf p', foldM reduce_factor (v_adj T g v) (p_fd p, p_tf p) = Ret (fd, tf) /\
    foldM (check_factor T g fix_) (v_adj T g v) (mkPeel fd (p_vd p) tf (p_pushed p) (p_in p) leafs) = Ret p' /\ pinv (v :: pop) p'.
Proof.
  intros pop p v leafs [I1 I2 I3 I4 I5 IN IF IFD ITF IVD IL IPU II IE] EL. rewrite EL in *.
  assert (IV : In v (pop ++ v :: leafs)) by apply in_elt. pose proof (IF v IV) as Fv. assert (NV : ~ In v pop) by apply (proj1 (nodup_mid _ _ _ _ IN)).
  pose proof (proj1 (IL v Fv) IV) as Dv.
  assert (ADJ : forall k, In k (v_adj T g v) <-> In v (fvars k)). { intros k. rewrite adj_In, fvars_In. tauto. }
  assert (MADJ : forall k, mem k (v_adj T g v) = mem v (fvars k)). { intros k. apply eq_true_iff_eq. rewrite !mem_In. apply ADJ. }
  destruct (reduce_factors_ok (v_adj T g v) (p_fd p) (p_tf p)) as (fd & tf & E1 & L1 & L2 & FD & TF); auto; [apply adj_nodup| |].
  { intros k Hk. apply ADJ in Hk. pose proof (fvars_lt _ _ Hk). split; auto. rewrite IFD by auto. apply (left_pos _ v); auto. }
  exists fd, tf. assert (FD' : forall k, k < nf -> nth k fd 0 = left_ (v :: pop) k). { intros k Hk. rewrite FD, MADJ, IFD, left_cons by auto. auto. }
  assert (LB : forall k, nf <= k -> left_ (v :: pop) k = 0 /\ left_ pop k = 0).
  { intros k Hk. unfold left_, fvars, vars. rewrite (proj2 (nth_error_None _ _)) by lia. auto. }
  assert (TF' : forall k, nth k tf false = true <-> (left_ (v :: pop) k <= 1 /\ exists w, In w (v :: pop) /\ In w (fvars k))).
  { intros k. rewrite TF, MADJ, orb_true_iff, andb_true_iff, ITF, mem_In, Nat.leb_le, left_cons by auto. destruct (mem v (fvars k)) eqn:M.
    - apply mem_In in M. pose proof (fvars_lt _ _ M). rewrite IFD by auto. split; [|intros [X _]; right; split; auto; lia]. intros X. split; [destruct X as [[X _]|[_ X]]; lia|]. exists v. cbn. auto.
    - apply mem_false in M. rewrite Nat.sub_0_r. split.
      + intros [[A (w & B & C)]|[A _]]; [|contradiction]. split; auto. exists w. cbn. auto.
      + intros [A (w & [->|B] & C)]; [contradiction|]. left. split; auto. eauto. }
  assert (EL' : elim_ok (v :: pop)). { split; auto. intros k1 k2 O1 O2. apply open_left in O1; auto. apply open_left in O2; auto. apply (deg_unique pop v); tauto. }
  set (q := mkPeel fd (p_vd p) tf (p_pushed p) (p_in p) leafs).
  assert (DK : (forall k, In v (fvars k) -> left_ pop k <> 2) \/ exists k, In v (fvars k) /\ left_ pop k = 2).
  { destruct (existsb (fun k => left_ pop k =? 2) (v_adj T g v)) eqn:X.
    - right. apply existsb_exists in X. destruct X as (k & A & B). apply ADJ in A. apply Nat.eqb_eq in B. eauto.
    - left. intros k Hk E. apply not_true_iff_false in X. apply X. apply existsb_exists. exists k. split; [apply ADJ; auto|apply Nat.eqb_eq; auto]. }
  assert (CUT : forall k, cut (v :: pop) k -> cut pop k \/ (In v (fvars k) /\ left_ pop k = 2)).
  { intros k [C1 C2]. rewrite left_cons in C2 by auto. destruct (mem v (fvars k)) eqn:M.
    - apply mem_In in M. destruct (Nat.le_gt_cases (left_ pop k) 1); [left; split; auto|right; split; auto; lia].
    - left. split; auto. lia. }
  assert (CUT0 : forall k, cut pop k -> cut (v :: pop) k) by (intros k [C1 C2]; split; auto; rewrite left_cons by auto; lia).
  destruct DK as [NK|(ks & KV & K2)].
  - exists q. split; auto. split.
    { apply check_none. cbn [q p_fd]. intros k Hk. apply ADJ in Hk. pose proof (fvars_lt _ _ Hk) as Hkf. split; [lia|]. rewrite FD', left_cons by auto. rewrite (proj2 (mem_In v (fvars k)) Hk).
      pose proof (left_pos pop v k NV Hk). specialize (NK k Hk). lia. }
    assert (DEG : forall u, deg (v :: pop) u = deg pop u).
    { intros u. unfold deg. f_equal. apply filter_ext. intros k. f_equal. rewrite left_cons by auto. destruct (mem v (fvars k)) eqn:M; [|rewrite Nat.sub_0_r; auto]. apply mem_In in M. specialize (NK k M). destruct (Nat.leb_spec 2 (left_ pop k)), (Nat.leb_spec 2 (left_ pop k - 1)); auto; lia. }
    assert (SAME : forall u, In u ((v :: pop) ++ leafs) <-> In u (pop ++ v :: leafs)). { intros u. cbn [app In]. rewrite !in_app_iff. cbn [In]. tauto. }
    constructor; cbn [q p_fd p_vd p_tf p_pushed p_in p_leafs]; auto.
    + apply NoDup_cons_iff. apply NoDup_remove in IN. tauto.
    + intros u Hu. apply IF, SAME, Hu.
    + intros u Fu. rewrite DEG. auto.
    + intros u Fu. rewrite DEG, SAME. auto.
    + intros u Hu. rewrite SAME. auto.
    + intros u. rewrite II, SAME. split; (intros [X|(k & A & B)]; [auto|right]); [eauto|]. destruct (CUT k B) as [|[C1 C2]]; [eauto|]. exfalso. eapply NK; eauto.
  - assert (UK : forall k, In v (fvars k) -> left_ pop k = 2 -> k = ks). { intros k A B. apply (deg_unique pop v); auto; lia. }
    pose proof (fvars_lt _ _ KV) as Hks.
    assert (KA : In ks (v_adj T g v)) by (apply ADJ; auto). apply in_split in KA. destruct KA as (LA & LB' & EA).
    destruct (rd_fac ks Hks) as (fc & RF & FC).
    assert (SD : forall u, In u (fvars ks) -> 1 <= deg pop u).
    { intros u Hu. apply count_pos. exists ks. split; [apply in_seq; lia|]. apply andb_true_iff. split; [apply mem_In; auto|apply Nat.leb_le; lia]. }
    destruct (reduce_vars_ok (vars ks) q) as (p' & new & E2 & B1 & B2 & B3 & B4 & B5 & B6 & B7 & B8 & B9 & B10 & B11); cbn [q p_vd p_pushed p_in]; auto; [apply vars_nodup| |].
    { intros u Hu. split; [apply (vars_lt ks); auto|]. intros Fu. rewrite IVD by auto. apply SD. apply fvars_In. auto. }
    cbn [q p_fd p_vd p_tf p_pushed p_in p_leafs] in B1, B2, B6, B7, B8, B10, B11.
    exists p'. split; auto.
    assert (NO : forall k, In k (v_adj T g v) -> k <> ks -> k < nf /\ nth k fd 0 <> 1).
    { intros k Hk Nk. apply ADJ in Hk. pose proof (fvars_lt _ _ Hk) as Hkf. split; [lia|]. rewrite FD', left_cons by auto. rewrite (proj2 (mem_In v (fvars k)) Hk). pose proof (left_pos pop v k NV Hk). intros X. apply Nk. apply UK; auto. lia. }
    pose proof (adj_nodup v) as NDA. rewrite EA in NDA. destruct (nodup_mid _ _ _ _ NDA) as [NA1 NA2].
    split.
    { rewrite EA, foldM_app. rewrite check_none.
      2:{ cbn [q p_fd]. intros k Hk. rewrite L1. apply NO; [rewrite EA; apply in_or_app; auto|congruence]. }
      cbn [bind foldM]. unfold check_factor at 1. change (p_fd q) with fd. rewrite (rd_nth _ fd ks 0) by lia. cbn [bind]. rewrite FD', left_cons, (proj2 (mem_In v (fvars ks)) KV), K2 by auto. cbn [Nat.sub Nat.eqb].
      rewrite RF. cbn [bind]. rewrite FC, E2. cbn [bind]. apply check_none. rewrite B1. intros k Hk. rewrite L1. apply NO; [rewrite EA; apply in_or_app; cbn; auto|congruence]. }
    assert (MV : forall u, mem u (vars ks) && fr u = mem u (fvars ks)). { intros u. apply eq_true_iff_eq. rewrite andb_true_iff, !mem_In, fvars_In. tauto. }
    assert (DEG : forall u, deg (v :: pop) u = deg pop u - if mem u (fvars ks) then 1 else 0).
    { intros u. unfold deg. destruct (mem u (fvars ks)) eqn:M.
      - rewrite (count_remove (fun k => mem u (fvars k) && (2 <=? left_ pop k)) (fun k => mem u (fvars k) && (2 <=? left_ (v :: pop) k)) (seq 0 nf) ks); [lia|apply seq_NoDup|apply in_seq; lia| | |].
        + rewrite M, K2. auto.
        + rewrite left_cons, (proj2 (mem_In v (fvars ks)) KV), K2, M by auto. auto.
        + intros k _ Nk. f_equal. rewrite left_cons by auto. destruct (mem v (fvars k)) eqn:MK; [|rewrite Nat.sub_0_r; auto]. apply mem_In in MK.
          destruct (Nat.leb_spec 2 (left_ pop k)), (Nat.leb_spec 2 (left_ pop k - 1)); auto; try lia. exfalso. apply Nk. apply UK; auto. lia.
      - rewrite Nat.sub_0_r. f_equal. apply filter_ext. intros k. destruct (Nat.eq_dec k ks) as [->|Nk]; [rewrite M; auto|]. f_equal.
        rewrite left_cons by auto. destruct (mem v (fvars k)) eqn:MK; [|rewrite Nat.sub_0_r; auto]. apply mem_In in MK.
        destruct (Nat.leb_spec 2 (left_ pop k)), (Nat.leb_spec 2 (left_ pop k - 1)); auto; try lia. exfalso. apply Nk. apply UK; auto. lia. }
    assert (NEW : forall u, In u new <-> In u (fvars ks) /\ deg pop u = 2).
    { intros u. rewrite B10, fvars_In. split.
      - intros (X1 & X2 & X3 & X4). rewrite IVD in X3 by auto. auto.
      - intros ((X1 & X2) & X3). split; auto. split; auto. split; [rewrite IVD; auto|]. apply not_true_iff_false. rewrite IPU by (apply HB; auto). rewrite IL by auto. lia. }
    assert (SAME : forall u, In u ((v :: pop) ++ new ++ leafs) <-> In u (pop ++ v :: leafs) \/ In u new). { intros u. cbn [app In]. rewrite !in_app_iff. cbn [In]. tauto. }
    constructor; auto.
    + congruence.
    + congruence.
    + rewrite B8. cbn [app]. apply NoDup_cons_iff. apply NoDup_remove in IN. destruct IN as [IN1 IN2].
      assert (OLD : forall u, In u new -> ~ In u (pop ++ v :: leafs)). { intros u Hu X. apply NEW in Hu. destruct Hu as [H1 H2]. apply fvars_In in H1. apply IL in X; [lia|tauto]. }
      split.
      * rewrite !in_app_iff. rewrite in_app_iff in IN2. intros [X|[X|X]]; try tauto. apply (OLD v X). auto.
      * assert (N1 : NoDup pop) by (clear - IN1; induction pop as [|a l IH]; [constructor|]; cbn in IN1; apply NoDup_cons_iff in IN1; destruct IN1 as [X Y]; constructor; [rewrite in_app_iff in X; tauto|auto]).
        assert (N2 : NoDup leafs) by (clear - IN1; induction pop as [|a l IH]; auto; cbn in IN1; apply NoDup_cons_iff in IN1; tauto).
        assert (N3 : forall x, In x pop -> In x leafs -> False) by (clear - IN1; induction pop as [|a l IH]; intros x [] H2; cbn in IN1; apply NoDup_cons_iff in IN1; destruct IN1 as [X Y]; [subst; apply X; apply in_or_app; auto|eapply IH; eauto]).
        apply NoDup_app_intro; auto.
        -- apply NoDup_app_intro; auto. intros x X1 X2. apply (OLD x X1). apply in_or_app. cbn. auto.
        -- intros x X1 X2. apply in_app_iff in X2. destruct X2 as [X2|X2]; [apply (OLD x X2); apply in_or_app; auto|eauto].
    + intros u. rewrite B8, SAME. intros [X|X]; auto. apply NEW in X. destruct X as [X _]. apply fvars_In in X. tauto.
    + intros k Hk. rewrite B1. auto.
    + rewrite B2. auto.
    + intros u Fu. rewrite B6, MV, IVD, DEG by auto. auto.
    + intros u Fu. rewrite B8, SAME, NEW, IL, DEG by auto. destruct (mem u (fvars ks)) eqn:M.
      * apply mem_In in M. pose proof (SD u M). split; [intros [X|[_ X]]; lia|]. intros X. destruct (Nat.eq_dec (deg pop u) 2); [right; auto|left; lia].
      * apply mem_false in M. rewrite Nat.sub_0_r. tauto.
    + intros u Hu. rewrite B11, B8, SAME, IPU by auto. tauto.
    + intros u. rewrite B7, B8, SAME, orb_true_iff, II, MV, mem_In. split.
      * intros [[X|(k & A & B)]|X]; auto; right; [eauto|]. exists ks. split; auto. split; [pose proof (left_le pop ks); lia|]. rewrite left_cons, (proj2 (mem_In v (fvars ks)) KV), K2 by auto. lia.
      * intros [[X|X]|(k & A & B)]; auto.
        -- apply NEW in X. tauto.
        -- destruct (CUT k B) as [C|[C1 C2]]; [eauto 6|]. rewrite <- (UK k C1 C2). auto.
Qed.

Lemma peel_loop_ok : forall fuel pop p, pinv pop p -> n < fuel + length pop -> exists pop' p', peel_loop T g fix_ fuel p = Ret p' /\ pinv pop' p' /\ p_leafs p' = [].
Proof.
  induction fuel as [|fuel IH]; intros pop p I L.
  - exfalso. assert (length pop <= n); [|lia]. apply NoDup_bounded_length.
    + pose proof (pi_nd _ _ I) as X. clear - X. induction pop as [|a l IH]; [constructor|]. cbn in X. apply NoDup_cons_iff in X. destruct X as [X Y]. constructor; [rewrite in_app_iff in X; tauto|auto].
    + intros x Hx. apply fr_lt. apply (pi_fr _ _ I). apply in_or_app. auto.
  - cbn [peel_loop]. destruct (p_leafs p) as [|v leafs] eqn:EL; [exists pop, p; auto|].
    destruct (peel_step pop p v leafs I EL) as (fd & tf & p' & E1 & E2 & I'). rewrite E1. cbn [bind]. rewrite E2. cbn [bind]. apply (IH (v :: pop)); auto. cbn. lia.
Qed.
End S.
