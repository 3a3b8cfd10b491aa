(** Proofs about PmModel.v: pairs of sets, splits, rounds, termination. *)
From Coq Require Import QArith Qround Qcanon Permutation Lqa.
From Verif Require Import Base Values GmView GmViewSpec ConstraintModel DualDecompModel DualDecompProofs HoeProofs AStarSearch FunctionBaseModel PmModel PmSpec PmProofs.
Import DualDecompProofs.
Open Scope nat_scope.

Lemma eps10_pos : (0 < pm_eps10)%Qc. Proof. reflexivity. Qed.
Lemma eps_le : (pm_eps10 <= pm_eps8)%Qc. Proof. vm_compute. discriminate. Qed.
Lemma eps8_lt1 : (pm_eps8 < 1)%Qc. Proof. reflexivity. Qed.

Lemma sorted_insert_In : forall k l x, In x (sorted_insert k l) <-> x = k \/ In x l.
Proof.
  intros k l x. induction l as [|a l IH].
  - cbn. intuition (subst; auto).
  - cbn [sorted_insert]. destruct (k <? a); [cbn; intuition (subst; auto)|]. destruct (Nat.eqb_spec k a) as [->|NE]; [cbn; intuition (subst; auto)|]. cbn [In]. rewrite IH. tauto.
Qed.
(** Removing the empty sets. *)
Definition nonempty (s : list nat) : bool := negb (length s =? 0).
Lemma vec_erase_app : forall X (l t : list X) k, k < length l -> exists l', vec_erase (l ++ t) k = Ret (l' ++ t) /\ vec_erase l k = Ret l'.
Proof.
  intros X l t. induction l as [|a l IH]; intros k H; cbn in H; [lia|]. destruct k as [|k]; cbn [app vec_erase]. { exists l. auto. }
  destruct (IH k ltac:(lia)) as (l' & E1 & E2). rewrite E1, E2. cbn [bind]. exists (a :: l'). auto.
Qed.
Lemma vec_erase_last : forall X (l : list X) a t, vec_erase (l ++ a :: t) (length l) = Ret (l ++ t).
Proof. intros X. induction l as [|b l IH]; intros a t; [reflexivity|]. cbn [app vec_erase length]. rewrite IH. reflexivity. Qed.
Definition empties (l : list (list nat)) (k : nat) : list nat := filter (fun i => length (nth i l []) =? 0) (seq 0 k).
Lemma prune_ok : forall l t, pm_prune (l ++ t) (empties l (length l)) = Ret (filter nonempty l ++ t).
Proof.
  intros l. induction l as [|a l IH] using rev_ind; intros t; [reflexivity|]. rewrite app_length. cbn [length]. rewrite Nat.add_1_r. unfold empties. rewrite seq_S, filter_app. cbn [plus filter].
  assert (E : filter (fun i => length (nth i (l ++ [a]) []) =? 0) (seq 0 (length l)) = empties l (length l)).
  { unfold empties. apply filter_ext_in. intros i I. apply in_seq in I. rewrite app_nth1 by lia. reflexivity. }
  rewrite E. rewrite app_nth2, Nat.sub_diag by lia. cbn [nth]. rewrite filter_app. cbn [filter]. unfold nonempty at 2. rewrite <- !app_assoc. cbn [app].
  unfold pm_prune in *. destruct (length a =? 0); cbn [negb app].
  - rewrite rev_app_distr. cbn [rev app foldM]. rewrite vec_erase_last. cbn [bind]. apply IH.
  - rewrite app_nil_r. apply IH.
Qed.
(** Sets without common elements. *)
Definition disj (l : list (list nat)) : Prop := ForallOrdPairs (fun s t => forall v, In v s -> ~ In v t) l.
Lemma disj_intro : forall l, (forall i j s t v, nth_error l i = Some s -> nth_error l j = Some t -> In v s -> In v t -> i = j) -> disj l.
Proof.
  induction l as [|a l IH]; intros H; [constructor|]. constructor.
  - apply Forall_forall. intros t I v Ia It. apply In_nth_error in I. destruct I as [j E]. specialize (H 0 (S j) a t v eq_refl E Ia It). discriminate.
  - apply IH. intros i j s t v E1 E2 I1 I2. specialize (H (S i) (S j) s t v E1 E2 I1 I2). lia.
Qed.
Lemma disj_elim : forall l, disj l -> forall i j s t v, nth_error l i = Some s -> nth_error l j = Some t -> In v s -> In v t -> i = j.
Proof.
  induction 1 as [|a l F H IH]; intros i j s t v E1 E2 I1 I2; [destruct i; discriminate|]. rewrite Forall_forall in F. destruct i as [|i], j as [|j]; cbn in E1, E2.
  - reflexivity.
  - injection E1 as <-. exfalso. exact (F t (nth_error_In _ _ E2) v I1 I2).
  - injection E2 as <-. exfalso. exact (F s (nth_error_In _ _ E1) v I2 I1).
  - f_equal. eapply IH; eauto.
Qed.
Lemma disj_filter : forall f l, disj l -> disj (filter f l).
Proof.
  intros f l H. induction H as [|a l F H IH]; cbn; [constructor|]. destruct (f a); [|exact IH]. constructor; [|exact IH]. rewrite Forall_forall in *. intros t I. apply filter_In in I. apply F. tauto.
Qed.

Section Run.
Variable order : list nat -> list nat.
Hypothesis ORD : iterates order.
Variable gm : gmv Qc.
Notation n := (length (v_labels gm)).
Variable G : graph.
Variable es : list (nat * nat * nat).
Hypothesis GO : graph_ok gm G es.
Notation col := (col gm). Notation cost := (cost G es). Notation gain := (gain G es). Notation nb := (nb es). Notation FG := (FG G es). Notation wt := (wt G).

(** The sets are the colours. *)
Definition cols (c : nat -> nat) (sets : list (list nat)) : Prop := (forall k s, nth_error sets k = Some s -> col c k s) /\ forall v, v < n -> c v < length sets.
Lemma cols_nth : forall c sets k, cols c sets -> k < length sets -> col c k (nth k sets []).
Proof. intros c sets k [H _] L. apply H. apply nth_error_nth'. exact L. Qed.
Definition integ : Prop := forall c1 c2, (cost c1 < cost c2)%Qc -> (cost c1 <= cost c2 - 1)%Qc.
Definition LOC (c : nat -> nat) (p q : nat) : Prop := (exists u, u < n /\ c u = p) -> (exists u, u < n /\ c u = q) -> forall v, v < n -> ab p q c v -> (- pm_eps10 < FG p q c v)%Qc.
(** The state of the loop over pairs. *)
Definition PS (c0 : nat -> nat) (sets0 : list (list nat)) (done : nat -> nat -> Prop) (st : list (list nat) * bool) : Prop :=
  exists c, cols c (fst st) /\ length (fst st) = length sets0 /\ (cost c <= cost c0)%Qc /\ (snd st = true -> (cost c <= cost c0 - pm_eps8)%Qc) /\
    (integ -> snd st = false -> fst st = sets0 /\ c = c0 /\ forall p q, done p q -> LOC c0 p q).
Lemma pair_ok : forall c0 sets0 done st p q, PS c0 sets0 done st -> p < q -> q < length sets0 ->
  exists st', pm_pair order gm G p st q = Ret st' /\ PS c0 sets0 (fun a b => done a b \/ a = p /\ b = q) st'.
Proof.
  intros c0 sets0 done [sets ch] p q (c & CS & LE & CO & CH & QU) PQ QL. cbn [fst snd] in *. unfold pm_pair. rewrite (rd_nth _ sets p []) by lia. rewrite (rd_nth _ sets q []) by lia. cbn [bind].
  pose proof (cols_nth c sets p CS ltac:(lia)) as CP. pose proof (cols_nth c sets q CS ltac:(lia)) as CQ.
  destruct ((length (nth p sets []) =? 0) || (length (nth q sets []) =? 0)) eqn:EM.
  - exists (sets, ch). split; [reflexivity|]. exists c. cbn [fst snd]. split; [exact CS|]. split; [exact LE|]. split; [exact CO|]. split; [exact CH|]. intros IG F. destruct (QU IG F) as (E1 & E2 & E3). split; [exact E1|]. split; [exact E2|].
    intros a b [D|[-> ->]]; [apply E3; exact D|]. subst c. intros (u & Lu & U) (w & Lw & W). exfalso. apply orb_true_iff in EM. rewrite !Nat.eqb_eq in EM.
    assert (I1 : In u (nth p sets [])) by (apply CP; auto). assert (I2 : In w (nth q sets [])) by (apply CQ; auto).
    destruct EM as [EM|EM]; apply length_zero_iff_nil in EM; rewrite EM in *; [destruct I1|destruct I2].
  - destruct (solve_ok order ORD gm G es GO p q ltac:(lia) pm_outer 0%Qc _ _ c CP CQ) as (imp & a & b & c' & E & CA & CB & OUT & KEEP & CC & DI). rewrite E. cbn [bind]. rewrite wr_Ret by lia. cbn [bind]. rewrite wr_Ret by (rewrite length_upd; lia). cbn [bind].
    eexists. split; [reflexivity|]. exists c'. cbn [fst snd].
    assert (CS' : cols c' (upd (upd sets p a) q b)).
    { split; [|intros v Hv; rewrite !length_upd; destruct (Nat.eq_dec (c v) p) as [V|V]; [destruct (KEEP v (or_introl V)); lia|]; destruct (Nat.eq_dec (c v) q) as [V'|V']; [destruct (KEEP v (or_intror V')); lia|]; rewrite OUT; [apply CS; exact Hv|exact Hv|unfold ab; tauto]].
      intros k s Ek. destruct (Nat.eq_dec k q) as [->|Nq]; [rewrite nth_error_upd_eq in Ek by (rewrite length_upd; lia); injection Ek as <-; exact CB|]. rewrite nth_error_upd_neq in Ek by auto.
      destruct (Nat.eq_dec k p) as [->|Np]; [rewrite nth_error_upd_eq in Ek by lia; injection Ek as <-; exact CA|]. rewrite nth_error_upd_neq in Ek by auto. intros v. rewrite (proj1 CS k s Ek v).
      destruct (Nat.eq_dec (c v) p) as [V|V]; [pose proof (KEEP v (or_introl V)) as [X|X]; lia|]. destruct (Nat.eq_dec (c v) q) as [V'|V']; [pose proof (KEEP v (or_intror V')) as [X|X]; lia|].
      split; intros [Hv Y]; (split; [exact Hv|]); [rewrite OUT; [exact Y|exact Hv|unfold ab; tauto]|rewrite OUT in Y; [exact Y|exact Hv|unfold ab; tauto]]. }
    split; [exact CS'|]. split; [rewrite !length_upd; exact LE|].
    assert (IM : (imp <= 0)%Qc). { destruct DI as [(-> & _)|DI]; [apply Qcle_refl|]. pose proof eps10_pos. qlra. }
    split; [qlra|]. split.
    + intros T. apply orb_true_iff in T. destruct T as [T|T]; [specialize (CH T); qlra|]. apply Qc_lt_true in T. qlra.
    + intros IG F. apply orb_false_iff in F. destruct F as [F1 F2]. apply Qc_lt_false in F2. destruct (QU IG F1) as (E1 & E2 & E3). subst c sets.
      destruct DI as [(-> & -> & -> & -> & LO)|DI].
      * split; [|split; [reflexivity|]].
        { rewrite (Base.upd_same _ sets0 p) by (apply nth_error_nth'; lia). apply Base.upd_same. apply nth_error_nth'. lia. }
        intros x y [D|[-> ->]]; [apply E3; exact D|]. intros _ _ v Hv AV. apply LO; [unfold pm_outer; lia|exact Hv|exact AV].
      * exfalso. assert (LT : (cost c' < cost c0)%Qc) by (pose proof eps10_pos; qlra). apply IG in LT. pose proof eps8_lt1. qlra.
Qed.
Lemma touching_ok : forall states p s, length states = n -> (forall v, In v s -> v < n) ->
  exists ts, pm_touching order G states p s = Ret ts /\ forall q, In q ts <-> exists v u e, In v s /\ In (u, e) (nb v) /\ nth u states 0 = q /\ p < q.
Proof.
  intros states p s LS HS. unfold pm_touching.
  assert (IN : forall m l, (forall u e, In (u, e) m -> u < n) -> exists l', foldM (fun l '(node2, _) => pp <- rd states node2 ;; Ret (if p <? pp then sorted_insert pp l else l)) m l = Ret l' /\
     forall q, In q l' <-> In q l \/ exists u (e : nat), In (u, e) m /\ nth u states 0 = q /\ p < q).
  { induction m as [|[u e] m IH]; intros l H; cbn [foldM]. { exists l. split; [reflexivity|]. intros q. split; [auto|intros [I|(u & e & [] & _)]; exact I]. }
    pose proof (H u e (or_introl eq_refl)) as Lu. rewrite (rd_nth _ states u 0) by lia. cbn [bind]. destruct (IH (if p <? nth u states 0 then sorted_insert (nth u states 0) l else l)) as (l' & E & P); [intros u' e' I'; apply (H u' e'); right; exact I'|].
    exists l'. split; [exact E|]. intros q. rewrite P. assert (X : In q (if p <? nth u states 0 then sorted_insert (nth u states 0) l else l) <-> In q l \/ nth u states 0 = q /\ p < q).
    { destruct (Nat.ltb_spec p (nth u states 0)); [rewrite sorted_insert_In; intuition (subst; auto)|intuition (subst; auto; lia)]. }
    rewrite X. split.
    - intros [[Y|[Y1 Y2]]|(u' & e' & I' & Y)]; [left; exact Y|right; exists u, e; split; [left; reflexivity|auto]|right; exists u', e'; split; [right; exact I'|exact Y]].
    - intros [Y|(u' & e' & [I'|I'] & Y)]; [left; left; exact Y|inversion I'; subst; left; right; exact Y|right; exists u', e'; auto]. }
  assert (OUT : forall vs l, (forall v, In v vs -> v < n) -> exists l', foldM (fun l node => m <- rd (neighbours G) node ;; foldM (fun l '(node2, _) => pp <- rd states node2 ;; Ret (if p <? pp then sorted_insert pp l else l)) m l) vs l = Ret l' /\
     forall q, In q l' <-> In q l \/ exists v u e, In v vs /\ In (u, e) (nb v) /\ nth u states 0 = q /\ p < q).
  { induction vs as [|v vs IH]; intros l H; cbn [foldM]. { exists l. split; [reflexivity|]. intros q. split; [auto|intros [I|(v & u & e & [] & _)]; exact I]. }
    rewrite (rd_nb gm G es GO v (H v (or_introl eq_refl))). cbn [bind]. destruct (IN (nb v) l) as (l1 & E1 & P1); [intros u e I; apply (nb_ok gm G es GO) in I; tauto|]. rewrite E1. cbn [bind].
    destruct (IH l1) as (l2 & E2 & P2); [intros; apply H; right; assumption|]. exists l2. split; [exact E2|]. intros q. rewrite P2, P1. split.
    - intros [[Y|(u & e & Y)]|(w & u & e & I & Y)]; [left; exact Y|right; exists v, u, e; split; [left; reflexivity|exact Y]|right; exists w, u, e; split; [right; exact I|exact Y]].
    - intros [Y|(w & u & e & [<-|I] & Y)]; [left; left; exact Y|left; right; exists u, e; exact Y|right; exists w, u, e; auto]. }
  destruct (OUT (order s) []) as (ts & E & P). { intros v I. apply (proj1 (order_In order ORD _ _)) in I. auto. } exists ts. split; [exact E|]. intros q. rewrite P. split.
  - intros [[]|(v & u & e & I & Y)]. apply (proj1 (order_In order ORD _ _)) in I. exists v, u, e. auto.
  - intros (v & u & e & I & Y). right. exists v, u, e. split; [apply (proj2 (order_In order ORD _ _)); exact I|exact Y].
Qed.
Definition touch (c : nat -> nat) (p q : nat) : Prop := p < q /\ exists v u e, v < n /\ c v = p /\ In (u, e) (nb v) /\ c u = q.
Lemma PS_weaken : forall c0 sets0 (d d' : nat -> nat -> Prop) st, (forall p q, d' p q -> d p q) -> PS c0 sets0 d st -> PS c0 sets0 d' st.
Proof. intros c0 sets0 d d' st H (c & P1 & P2 & P3 & P4 & P5). exists c. split; [exact P1|]. split; [exact P2|]. split; [exact P3|]. split; [exact P4|]. intros I F. destruct (P5 I F) as (Q1 & Q2 & Q3). auto. Qed.
Lemma pairs_ok : forall c0 sets0 states, cols c0 sets0 -> length states = n -> (forall v, v < n -> nth v states 0 = c0 v) ->
  exists st, pm_pairs order gm G states (length sets0) sets0 = Ret st /\ PS c0 sets0 (touch c0) st.
Proof.
  intros c0 sets0 states CS LS SV. unfold pm_pairs.
  destruct (foldM_ind nat (list (list nat) * bool) (fun st part0 => set0 <- rd (fst st) part0 ;; ts <- pm_touching order G states part0 set0 ;; foldM (pm_pair order gm G part0) ts st)
    (fun k st => PS c0 sets0 (fun p q => p < k /\ touch c0 p q) st) (seq 0 (length sets0)) (sets0, false)) as (st & E & P).
  - exists c0. cbn [fst snd]. split; [exact CS|]. split; [reflexivity|]. split; [apply Qcle_refl|]. split; [discriminate|]. intros _ _. split; [reflexivity|]. split; [reflexivity|]. intros p q [H _]. lia.
  - intros k a st Ek P. assert (a = k /\ k < length sets0) as [-> Hk]. { assert (k < length sets0) by (rewrite <- (seq_length (length sets0) 0); apply nth_error_Some; congruence). split; [|assumption]. rewrite (nth_error_nth' _ 0) in Ek by (rewrite seq_length; assumption). injection Ek as <-. rewrite seq_nth by assumption. reflexivity. }
    destruct st as [sets ch]. pose proof P as (c & C1 & LE & _ & _ & QU). cbn [fst snd] in *. rewrite (rd_nth _ sets k []) by lia. cbn [bind].
    pose proof (cols_nth c sets k C1 ltac:(lia)) as CK. destruct (touching_ok states k (nth k sets []) LS) as (ts & ET & PT). { intros v I. apply CK in I. tauto. } rewrite ET. cbn [bind].
    assert (QL : forall q, In q ts -> k < q /\ q < length sets0). { intros q I. apply PT in I. destruct I as (v & u & e & _ & I & <- & L). split; [exact L|]. apply (nb_ok gm G es GO) in I. rewrite SV by tauto. apply CS. tauto. }
    assert (IN : forall l (done : nat -> nat -> Prop) st, (forall q, In q l -> k < q /\ q < length sets0) -> PS c0 sets0 done st -> exists st', foldM (pm_pair order gm G k) l st = Ret st' /\ PS c0 sets0 (fun a b => done a b \/ a = k /\ In b l) st').
    { induction l as [|q l IH]; intros done st H PP; cbn [foldM]. { exists st. split; [reflexivity|]. eapply PS_weaken; [|exact PP]. intros x y [D|[_ []]]. exact D. }
      destruct (H q (or_introl eq_refl)) as [H1 H2]. destruct (pair_ok c0 sets0 done st k q PP H1 H2) as (st1 & E1 & P1). rewrite E1. cbn [bind]. destruct (IH _ st1 (fun q' I => H q' (or_intror I)) P1) as (st2 & E2 & P2). exists st2. split; [exact E2|].
      eapply PS_weaken; [|exact P2]. cbn. intros x y [D|[-> [<-|I]]]; auto. }
    destruct (IN ts _ (sets, ch) QL P) as (st' & E' & P'). exists st'. split; [exact E'|]. destruct P' as (c' & R1 & R2 & R3 & R4 & R5). exists c'. split; [exact R1|]. split; [exact R2|]. split; [exact R3|]. split; [exact R4|].
    intros IG F. destruct (R5 IG F) as (S1 & S2 & S3). split; [exact S1|]. split; [exact S2|]. intros p q [Hp TO]. destruct (Nat.eq_dec p k) as [->|NE]; [|apply S3; left; split; [lia|exact TO]].
    (* the sets are the initial ones when set k is looked at *)
    apply S3. right. split; [reflexivity|]. apply PT. destruct TO as (PQ & v & u & e & Hv & CV & I & CU).
    assert (CH0 : ch = false).
    { destruct ch; [|reflexivity]. exfalso. clear - E' F. revert E'. assert (X : forall l st st', snd st = true -> foldM (pm_pair order gm G k) l st = Ret st' -> snd st' = true).
      { induction l as [|q l IH]; intros [s b] st9 T E; cbn [foldM] in E; [injection E as <-; exact T|]. cbn in T. subst b. apply bind_inv in E. destruct E as (st1 & E1 & E2). apply (IH st1 st9); [|exact E2].
        unfold pm_pair in E1. apply bind_inv in E1. destruct E1 as (s0 & _ & E1). apply bind_inv in E1. destruct E1 as (s1 & _ & E1). destruct (_ || _) in E1; [injection E1 as <-; reflexivity|].
        apply bind_inv in E1. destruct E1 as ([[im a] b] & _ & E1). apply bind_inv in E1. destruct E1 as (x & _ & E1). apply bind_inv in E1. destruct E1 as (y & _ & E1). injection E1 as <-. reflexivity. }
      intros E'. rewrite (X ts (sets, true) st' eq_refl E') in F. discriminate. }
    destruct (QU IG CH0) as (U1 & U2 & _). subst c. exists v, u, e. split; [apply CK; auto|]. split; [exact I|]. split; [rewrite SV; [exact CU|]; apply (nb_ok gm G es GO) in I; tauto|exact PQ].
  - exists st. split; [exact E|]. eapply PS_weaken; [|exact P]. intros p q T. split; [|exact T]. rewrite seq_length. destruct T as (_ & v & u & e & Hv & <- & _). apply CS. exact Hv.
Qed.

(** The change of the cost when a variable gets a colour of its own. *)
Definition iso (c : nat -> nat) (v : nat) : Qc := qsum (fun '(u, e) => if c u =? c v then wt e else 0%Qc) (nb v).
Lemma iso_gain : forall c v k, (forall u e, In (u, e) (nb v) -> c u <> k) -> gain c v k = iso c v.
Proof.
  intros c v k H. unfold PmProofs.gain, iso. apply qsum_ext. intros [u e] I. destruct (c u =? c v); [reflexivity|]. destruct (Nat.eqb_spec (c u) k) as [E|]; [|reflexivity]. destruct (H u e I E).
Qed.
Lemma iso_same : forall c c' v, v < n -> (forall a b, a < n -> b < n -> (c a = c b <-> c' a = c' b)) -> iso c v = iso c' v.
Proof.
  intros c c' v Hv H. unfold iso. apply qsum_ext. intros [u e] I. apply (nb_ok gm G es GO) in I. specialize (H u v ltac:(tauto) Hv). destruct (Nat.eqb_spec (c u) (c v)), (Nat.eqb_spec (c' u) (c' v)); try reflexivity; tauto.
Qed.
Lemma empties_ext : forall l l' k, (forall i, i < k -> (length (nth i l []) =? 0) = (length (nth i l' []) =? 0)) -> empties l k = empties l' k.
Proof. intros l l' k H. unfold empties. apply filter_ext_in. intros i I. apply in_seq in I. apply H. lia. Qed.
(** The state of the loop that splits the sets. *)
Definition SS (c1 : nat -> nat) (sets1 : list (list nat)) (ch1 : bool) (k : nat) (st : list (list nat) * list nat * bool) : Prop :=
  let '(sets, prune, ch) := st in
  exists c, cols c sets /\ length sets1 <= length sets /\ (forall i, length sets1 <= i < length sets -> nth i sets [] <> []) /\ prune = empties sets k /\
    (cost c <= cost c1)%Qc /\ (ch = true -> ch1 = true \/ (cost c <= cost c1 - pm_eps10)%Qc) /\
    (ch = false -> ch1 = false /\ sets = sets1 /\ c = c1 /\ forall v, v < n -> c v < k -> (- pm_eps10 < iso c v)%Qc).
Lemma split_ok : forall c1 sets1 ch1 k st, SS c1 sets1 ch1 k st -> k < length sets1 -> exists st', pm_split order gm G st k = Ret st' /\ SS c1 sets1 ch1 (S k) st'.
Proof.
  intros c1 sets1 ch1 k [[sets prune] ch] (c & CS & LE & NE & PR & CO & CH & QU) Hk. unfold pm_split. rewrite (rd_nth _ sets k []) by lia. cbn [bind].
  pose proof (cols_nth c sets k CS ltac:(lia)) as CK. assert (ES : forall l, empties l (S k) = empties l k ++ (if length (nth k l []) =? 0 then [k] else [])). { intros l. unfold empties. rewrite seq_S, filter_app. reflexivity. }
  destruct (length (nth k sets []) =? 0) eqn:Z.
  - eexists. split; [reflexivity|]. exists c. split; [exact CS|]. split; [exact LE|]. split; [exact NE|]. split; [rewrite ES, Z, PR; reflexivity|]. split; [exact CO|]. split; [exact CH|]. intros F. destruct (QU F) as (Q1 & Q2 & Q3 & Q4).
    split; [exact Q1|]. split; [exact Q2|]. split; [exact Q3|]. intros v Hv Hc. apply Q4; [exact Hv|]. assert (c v <> k); [|lia]. intros X. assert (I : In v (nth k sets [])) by (apply CK; auto). apply Nat.eqb_eq, length_zero_iff_nil in Z. rewrite Z in I. destruct I.
  - destruct (Nat.ltb_spec 1 (length (nth k sets []))) as [L1|L1].
    + set (B := length sets). assert (CB : col c B []). { intros v. split; [intros []|]. intros [Hv X]. pose proof (proj2 CS v Hv). unfold B in X. lia. }
      assert (AB : k <> B) by (unfold B; lia).
      destruct (solve_ok order ORD gm G es GO k B AB pm_outer 0%Qc _ _ c CK CB) as (imp & a & b & c' & E & CA & CB' & OUT & KEEP & CC & DI). rewrite E. cbn [bind]. rewrite wr_Ret by lia. cbn [bind].
      destruct (Nat.ltb_spec 0 (length b)) as [LB|LB].
      * (* a set is split off *)
        eexists. split; [reflexivity|]. exists c'.
        assert (DI' : (imp <= - pm_eps10)%Qc). { destruct DI as [(_ & _ & X & _)|DI]; [subst b; cbn in LB; lia|]. qlra. }
        assert (AN : a <> []).
        { intros X. subst a. assert (SAME : cost c' = cost c).
          { apply (cost_same gm G es GO). intros u v Hu Hv. assert (R : forall w, w < n -> c' w = if c w =? k then B else c w).
            { intros w Hw. destruct (Nat.eqb_spec (c w) k) as [W|W].
              - destruct (KEEP w (or_introl W)) as [Y|Y]; [|exact Y]. destruct (proj2 (CA w) (conj Hw Y)).
              - apply OUT; [exact Hw|]. intros [Y|Y]; [exact (W Y)|]. pose proof (proj2 CS w Hw). unfold B in Y. lia. }
            rewrite !R by assumption. pose proof (proj2 CS u Hu). pose proof (proj2 CS v Hv). unfold B. destruct (Nat.eqb_spec (c u) k), (Nat.eqb_spec (c v) k); lia. }
          rewrite SAME in CC. pose proof eps10_pos. qlra. }
        assert (NTH : forall i, i <> k -> i < length sets -> nth i (upd sets k a ++ [b]) [] = nth i sets []). { intros i Hi Li. rewrite app_nth1 by (rewrite length_upd; exact Li). apply nth_upd_neq. auto. }
        assert (NTK : nth k (upd sets k a ++ [b]) [] = a) by (rewrite app_nth1 by (rewrite length_upd; lia); apply nth_upd_eq; lia).
        split.
        { split.
          - intros j s Ej. destruct (Nat.lt_ge_cases j (length sets)) as [Lj|Lj].
            + rewrite nth_error_app1 in Ej by (rewrite length_upd; exact Lj). destruct (Nat.eq_dec j k) as [->|Nj]; [rewrite nth_error_upd_eq in Ej by lia; injection Ej as <-; exact CA|]. rewrite nth_error_upd_neq in Ej by auto.
              intros v. rewrite (proj1 CS j s Ej v). destruct (Nat.eq_dec (c v) k) as [V|V]; [pose proof (KEEP v (or_introl V)) as [X|X]; unfold B in X; lia|].
              split; intros [Hv Y]; (split; [exact Hv|]); [rewrite OUT; [exact Y|exact Hv|]|rewrite OUT in Y; [exact Y|exact Hv|]]; pose proof (proj2 CS v Hv); unfold ab, B; lia.
            + rewrite nth_error_app2 in Ej by (rewrite length_upd; exact Lj). rewrite length_upd in Ej. destruct (j - length sets) as [|d] eqn:Ed; [|cbn in Ej; destruct d; discriminate]. injection Ej as <-. replace j with B by (unfold B; lia). exact CB'.
          - intros v Hv. rewrite app_length, length_upd. cbn [length]. destruct (Nat.eq_dec (c v) k) as [V|V]; [destruct (KEEP v (or_introl V)) as [X|X]; unfold B in X; lia|]. rewrite OUT; [pose proof (proj2 CS v Hv); lia|exact Hv|]. pose proof (proj2 CS v Hv). unfold ab, B. lia. }
        split; [rewrite app_length, length_upd; lia|]. split.
        { intros i Hi. rewrite app_length, length_upd in Hi. cbn [length] in Hi. destruct (Nat.eq_dec i (length sets)) as [->|Ni]; [rewrite app_nth2, length_upd, Nat.sub_diag by (rewrite length_upd; lia); cbn; intros ->; cbn in LB; lia|]. rewrite NTH by lia. apply NE. lia. }
        split. { rewrite ES, NTK. destruct a as [|x a']; [congruence|]. cbn [length Nat.eqb]. rewrite app_nil_r, PR. apply empties_ext. intros i Hi. rewrite NTH by lia. reflexivity. }
        split; [pose proof eps10_pos; qlra|]. split; [intros _; right; qlra|discriminate].
      * (* no change *)
        assert (b = []) as -> by (destruct b; [reflexivity|cbn in LB; lia]). clear LB.
        assert (R : forall w, w < n -> c' w = c w).
        { intros w Hw. pose proof (proj2 CS w Hw) as LW. destruct (Nat.eq_dec (c w) k) as [W|W].
          - destruct (KEEP w (or_introl W)) as [Y|Y]; [congruence|]. destruct (proj2 (CB' w) (conj Hw Y)).
          - apply OUT; [exact Hw|]. unfold ab, B. lia. }
        pose proof (cost_ext gm G es GO c' c R) as SAME.
        destruct DI as [(_ & -> & _ & -> & LO)|DI]; [|exfalso; rewrite SAME in CC; pose proof eps10_pos; qlra].
        rewrite (Base.upd_same _ sets k) by (apply nth_error_nth'; lia). eexists. split; [reflexivity|]. exists c. split; [exact CS|]. split; [exact LE|]. split; [exact NE|]. split; [rewrite ES, Z, PR, app_nil_r; reflexivity|]. split; [exact CO|]. split; [exact CH|].
        intros F. destruct (QU F) as (Q1 & Q2 & Q3 & Q4). split; [exact Q1|]. split; [exact Q2|]. split; [exact Q3|]. intros v Hv Hc. destruct (Nat.eq_dec (c v) k) as [V|V]; [|apply Q4; [exact Hv|lia]].
        specialize (LO ltac:(unfold pm_outer; lia) v Hv (or_introl V)). unfold PmProofs.FG, oth in LO. rewrite V, Nat.eqb_refl in LO. rewrite (iso_gain c v B) in LO; [exact LO|]. intros u e I X. apply (nb_ok gm G es GO) in I. pose proof (proj2 CS u ltac:(tauto)). unfold B in X. lia.
    + (* a single variable *)
      eexists. split; [reflexivity|]. exists c. split; [exact CS|]. split; [exact LE|]. split; [exact NE|]. split; [rewrite ES, Z, PR, app_nil_r; reflexivity|]. split; [exact CO|]. split; [exact CH|].
      intros F. destruct (QU F) as (Q1 & Q2 & Q3 & Q4). split; [exact Q1|]. split; [exact Q2|]. split; [exact Q3|]. intros v Hv Hc. destruct (Nat.eq_dec (c v) k) as [V|V]; [|apply Q4; [exact Hv|lia]].
      assert (I : In v (nth k sets [])) by (apply CK; auto). destruct (nth k sets []) as [|x [|y r]] eqn:EN; [destruct I| |cbn in L1; lia]. destruct I as [<-|[]].
      assert (X : iso c x = 0%Qc). { unfold iso. apply qsum_zero. intros [u e] J. destruct (Nat.eqb_spec (c u) (c x)) as [U|]; [|reflexivity]. apply (nb_ok gm G es GO) in J. assert (K : In u [x]) by (apply CK; split; [tauto|congruence]). destruct K as [<-|[]]. tauto. }
      rewrite X. pose proof eps10_pos. qlra.
Qed.
Lemma splits_ok : forall c1 sets1 ch1, cols c1 sets1 -> exists st, foldM (pm_split order gm G) (seq 0 (length sets1)) (sets1, [], ch1) = Ret st /\ SS c1 sets1 ch1 (length sets1) st.
Proof.
  intros c1 sets1 ch1 CS.
  destruct (foldM_ind nat _ (pm_split order gm G) (fun k st => SS c1 sets1 ch1 k st) (seq 0 (length sets1)) (sets1, [], ch1)) as (st & E & P).
  - exists c1. split; [exact CS|]. split; [lia|]. split; [intros; lia|]. split; [reflexivity|]. split; [apply Qcle_refl|]. split; [auto|]. intros F. split; [exact F|]. split; [reflexivity|]. split; [reflexivity|]. intros; lia.
  - intros k a st Ek P. assert (a = k /\ k < length sets1) as [-> Hk]. { assert (k < length sets1) by (rewrite <- (seq_length (length sets1) 0); apply nth_error_Some; congruence). split; [|assumption]. rewrite (nth_error_nth' _ 0) in Ek by (rewrite seq_length; assumption). injection Ek as <-. rewrite seq_nth by assumption. reflexivity. }
    apply split_ok; assumption.
  - rewrite seq_length in P. eauto.
Qed.
(** Writing the labels of disjoint sets. *)
Lemma relabel_ok : forall sets states, length states = n -> disj sets -> (forall s v, In s sets -> In v s -> v < n) ->
  exists states', pm_relabel order sets states = Ret states' /\ length states' = n /\ forall k s v, nth_error sets k = Some s -> In v s -> nth v states' 0 = k.
Proof.
  intros sets states LS DJ HL. unfold pm_relabel.
  assert (IN : forall part vs st, length st = n -> (forall v, In v vs -> v < n) -> exists st', foldM (fun states v => wr states v part) vs st = Ret st' /\ length st' = n /\ forall v, nth v st' 0 = if mem v vs then part else nth v st 0).
  { intros part. induction vs as [|a vs IH]; intros st L H; cbn [foldM]; [exists st; auto|]. pose proof (H a (or_introl eq_refl)). rewrite wr_Ret by lia. cbn [bind]. destruct (IH (upd st a part)) as (st' & E & L' & V); [rewrite length_upd; exact L|intros; apply H; right; assumption|].
    exists st'. split; [exact E|]. split; [exact L'|]. intros v. rewrite V. unfold mem. cbn [existsb]. destruct (Nat.eqb_spec v a) as [->|NE]; cbn [orb]; [rewrite nth_upd_eq by lia; destruct (existsb _ vs); reflexivity|rewrite nth_upd_neq by auto; reflexivity]. }
  destruct (foldM_ind nat (list nat) (fun states part => s <- rd sets part ;; foldM (fun states v => wr states v part) (order s) states)
    (fun m st => length st = n /\ forall k s v, k < m -> nth_error sets k = Some s -> In v s -> nth v st 0 = k) (seq 0 (length sets)) states) as (st & E & L & P).
  - split; [exact LS|]. intros; lia.
  - intros k a st Ek [L P]. assert (a = k /\ k < length sets) as [-> Hk]. { assert (k < length sets) by (rewrite <- (seq_length (length sets) 0); apply nth_error_Some; congruence). split; [|assumption]. rewrite (nth_error_nth' _ 0) in Ek by (rewrite seq_length; assumption). injection Ek as <-. rewrite seq_nth by assumption. reflexivity. }
    rewrite (rd_nth _ sets k []) by exact Hk. cbn [bind]. destruct (IN k (order (nth k sets [])) st L) as (st' & E' & L' & V). { intros v I. apply (proj1 (order_In order ORD _ _)) in I. apply (HL (nth k sets [])); [apply nth_In; exact Hk|exact I]. }
    exists st'. split; [exact E'|]. split; [exact L'|]. intros j s v Hj Es I. rewrite V. destruct (mem v (order (nth k sets []))) eqn:M.
    + apply mem_In in M. apply (proj1 (order_In order ORD _ _)) in M. symmetry. eapply (disj_elim sets DJ j k s (nth k sets []) v); [exact Es|apply nth_error_nth'; exact Hk|exact I|exact M].
    + apply (P j s v); [|exact Es|exact I]. assert (j <> k); [|lia]. intros ->. apply mem_false in M. apply M. apply (proj2 (order_In order ORD _ _)). rewrite (nth_error_nth _ _ [] Es). exact I.
  - rewrite seq_length in P. exists st. split; [exact E|]. split; [exact L|]. intros k s v Es. apply P; [|exact Es]. apply nth_error_Some. congruence.
Qed.
Definition labs (states : list nat) : nat -> nat := fun v => nth v states 0.
Definition single_move (c : nat -> nat) : Prop := forall v k, v < n -> (cost c <= cost (recol c v k))%Qc.
(** The labels are those of non-empty sets. *)
Definition good (sets : list (list nat)) (states : list nat) : Prop := length states = n /\ cols (labs states) sets.
Lemma round_ok : forall sets states, good sets states ->
  exists sets' states' ch, pm_round order gm G sets states = Ret (sets', states', ch) /\ good sets' states' /\ Forall (fun s => s <> []) sets' /\ (cost (labs states') <= cost (labs states))%Qc /\
    (ch = true -> (cost (labs states') <= cost (labs states) - pm_eps10)%Qc) /\
    (ch = false -> (forall v, v < n -> (- pm_eps10 < iso (labs states') v)%Qc) /\ (integ -> single_move (labs states'))).
Proof.
  intros sets states [LS CS]. unfold pm_round. destruct (pairs_ok (labs states) sets states CS LS (fun v _ => eq_refl)) as ([sets1 ch1] & E1 & c1 & CS1 & LE1 & CO1 & CH1 & QU1). rewrite E1. cbn [bind]. cbn [fst snd] in *. rewrite <- LE1.
  destruct (splits_ok c1 sets1 ch1 CS1) as ([[sets2 prune] ch] & E2 & c2 & CS2 & LE2 & NE2 & PR & CO2 & CH2 & QU2). rewrite E2. cbn [bind].
  assert (PP : pm_prune sets2 prune = Ret (filter nonempty sets2)).
  { rewrite PR. rewrite <- (firstn_skipn (length sets1) sets2) at 1 2. set (f := firstn (length sets1) sets2). set (t := skipn (length sets1) sets2).
    assert (LF : length f = length sets1) by (unfold f; rewrite firstn_length; lia). rewrite <- LF at 1. replace (empties (f ++ t) (length f)) with (empties f (length f)).
    2: { apply empties_ext. intros i Hi. rewrite app_nth1 by exact Hi. reflexivity. }
    rewrite prune_ok. f_equal. rewrite <- (firstn_skipn (length sets1) sets2). fold f t. rewrite filter_app. f_equal. symmetry.
    assert (X : forall l, (forall s, In s l -> s <> []) -> filter nonempty l = l). { induction l as [|s l IH]; intros H; [reflexivity|]. cbn. destruct s; [destruct (H [] (or_introl eq_refl) eq_refl)|]. cbn. f_equal. apply IH. intros; apply H; right; assumption. }
    apply X. intros s I. apply (In_nth _ _ []) in I. destruct I as (j & Hj & <-). unfold t. assert (Y : nth j (skipn (length sets1) sets2) [] = nth (length sets1 + j) sets2 []).
    { rewrite <- (firstn_skipn (length sets1) sets2) at 2. fold f. rewrite app_nth2 by lia. f_equal. lia. }
    unfold t in Hj. rewrite skipn_length in Hj. rewrite Y. apply NE2. lia. }
  rewrite PP. cbn [bind]. set (sets3 := filter nonempty sets2).
  assert (DJ : disj sets3). { apply disj_filter. apply disj_intro. intros i j s t v Ei Ej Ii Ij. apply (proj1 CS2 i s Ei) in Ii. apply (proj1 CS2 j t Ej) in Ij. lia. }
  assert (IN3 : forall s, In s sets3 -> exists k, nth_error sets2 k = Some s) by (intros s I; apply filter_In in I; apply In_nth_error; tauto).
  destruct (relabel_ok sets3 states LS DJ) as (states' & E3 & L3 & V3). { intros s v I J. destruct (IN3 s I) as [k Ek]. apply (proj1 CS2 k s Ek) in J. tauto. } rewrite E3. cbn [bind].
  assert (AT : forall v, v < n -> exists j s, nth_error sets3 j = Some s /\ In v s /\ nth_error sets2 (c2 v) = Some s).
  { intros v Hv. pose proof (proj2 CS2 v Hv) as LV. destruct (nth_error_lt _ _ _ LV) as [s Es]. assert (I : In v s) by (apply (proj1 CS2 _ s Es); auto). assert (I3 : In s sets3). { apply filter_In. split; [eapply nth_error_In; exact Es|]. unfold nonempty. destruct s; [destruct I|reflexivity]. }
    apply In_nth_error in I3. destruct I3 as [j Ej]. eauto. }
  assert (SAME : forall a b, a < n -> b < n -> (c2 a = c2 b <-> labs states' a = labs states' b)).
  { intros a b Ha Hb. destruct (AT a Ha) as (ja & sa & Ja & Ia & Ka). destruct (AT b Hb) as (jb & sb & Jb & Ib & Kb). unfold labs. rewrite (V3 ja sa a Ja Ia), (V3 jb sb b Jb Ib). split; intros X.
    - rewrite X in Ka. rewrite Ka in Kb. injection Kb as <-. eapply (disj_elim sets3 DJ); eauto.
    - subst jb. rewrite Ja in Jb. injection Jb as <-. apply (proj1 CS2 _ sa Ka) in Ib. lia. }
  pose proof (cost_same gm G es GO c2 (labs states') SAME) as CE.
  exists sets3, states', ch. split; [reflexivity|]. split.
  { split; [exact L3|]. split.
    - intros k s Ek v. split.
      + intros I. split; [destruct (IN3 s (nth_error_In _ _ Ek)) as [j Ej]; apply (proj1 CS2 j s Ej) in I; tauto|]. apply (V3 k s v Ek I).
      + intros [Hv X]. destruct (AT v Hv) as (j & s' & Ej & I & _). unfold labs in X. rewrite (V3 j s' v Ej I) in X. subst j. rewrite Ek in Ej. injection Ej as <-. exact I.
    - intros v Hv. destruct (AT v Hv) as (j & s' & Ej & I & _). unfold labs. rewrite (V3 j s' v Ej I). apply nth_error_Some. congruence. }
  split. { apply Forall_forall. intros s I ->. apply filter_In in I. destruct I as [_ I]. discriminate. }
  split; [rewrite <- CE; qlra|]. split.
  { intros T. rewrite <- CE. destruct (CH2 T) as [T1|T1]; [specialize (CH1 T1); pose proof eps_le; qlra|qlra]. }
  intros F. destruct (QU2 F) as (F1 & -> & -> & IS). assert (ISO : forall v, v < n -> (- pm_eps10 < iso (labs states') v)%Qc). { intros v Hv. rewrite <- (iso_same c1 (labs states') v Hv SAME). apply IS; [exact Hv|]. apply CS1. exact Hv. }
  split; [exact ISO|]. intros IG v k Hv. destruct (QU1 IG F1) as (-> & -> & LOCs). set (c := labs states) in *. set (c' := labs states') in *.
  destruct (Nat.eq_dec k (c' v)) as [->|NK]. { rewrite (cost_ext gm G es GO (recol c' v (c' v)) c'); [apply Qcle_refl|]. intros u _. unfold recol. destruct (Nat.eqb_spec u v) as [->|]; reflexivity. }
  assert (GN : (- pm_eps10 < gain c' v k)%Qc).
  { destruct (existsb (fun '(u, e) => c' u =? k) (nb v)) eqn:EX.
    - apply existsb_exists in EX. destruct EX as ([u e] & I & U). apply Nat.eqb_eq in U. pose proof (nb_ok gm G es GO v u e I) as (_ & Lu & _).
      assert (NC : c u <> c v) by (intros X; apply SAME in X; [congruence|exact Lu|exact Hv]).
      assert (GE : gain c' v k = gain c v (c u)).
      { unfold PmProofs.gain. apply qsum_ext. intros [x d] J. apply (nb_ok gm G es GO) in J. destruct J as (_ & Lx & _). pose proof (SAME x v Lx Hv) as S1. pose proof (SAME x u Lx Lu) as S2. rewrite U in S2.
        destruct (Nat.eqb_spec (c' x) (c' v)), (Nat.eqb_spec (c x) (c v)), (Nat.eqb_spec (c' x) k), (Nat.eqb_spec (c x) (c u)); try reflexivity; tauto. }
      rewrite GE. destruct (Nat.lt_ge_cases (c v) (c u)) as [LT|LT].
      + specialize (LOCs (c v) (c u)). assert (T : touch c (c v) (c u)) by (split; [exact LT|]; exists v, u, e; auto). specialize (LOCs T (ex_intro _ v (conj Hv eq_refl)) (ex_intro _ u (conj Lu eq_refl)) v Hv (or_introl eq_refl)).
        unfold PmProofs.FG, oth in LOCs. rewrite Nat.eqb_refl in LOCs. exact LOCs.
      + specialize (LOCs (c u) (c v)). assert (T : touch c (c u) (c v)) by (split; [lia|]; exists u, v, e; split; [exact Lu|]; split; [reflexivity|]; split; [apply (nb_sym gm G es GO); exact I|reflexivity]). specialize (LOCs T (ex_intro _ u (conj Lu eq_refl)) (ex_intro _ v (conj Hv eq_refl)) v Hv (or_intror eq_refl)).
        unfold PmProofs.FG, oth in LOCs. destruct (Nat.eqb_spec (c v) (c u)); [congruence|]. exact LOCs.
    - rewrite iso_gain; [apply ISO; exact Hv|]. intros u e I X. assert (existsb (fun '(u, e) => c' u =? k) (nb v) = true) as Y; [|congruence]. apply existsb_exists. exists (u, e). split; [exact I|]. apply Nat.eqb_eq. exact X. }
  apply Qcnot_lt_le. intros LT. pose proof (recol_cost gm G es GO c' v k NK) as RC. apply IG in LT. pose proof eps8_lt1. pose proof eps_le. qlra.
Qed.
(** Termination: the cost is bounded from below. *)
Definition lower : Qc := qsum (fun '(a, b, e) => if Qc_lt (wt e) 0 then wt e else 0%Qc) es.
Lemma lower_le : forall c, (lower <= cost c)%Qc.
Proof.
  intros c. unfold lower, PmProofs.cost. apply qsum_le. intros [[a b] e] _. destruct (Qc_lt (wt e) 0) eqn:Q; destruct (c a =? c b); try apply Qcle_refl.
  - apply Qc_lt_true in Q. apply Qclt_le_weak. exact Q.
  - apply Qc_lt_false in Q. exact Q.
Qed.
Definition result (c0 : nat -> nat) (x : list nat) : Prop :=
  (exists sets, good sets x /\ Forall (fun s => s <> []) sets) /\ (cost (labs x) <= cost c0)%Qc /\ (forall v, v < n -> (- pm_eps10 < iso (labs x) v)%Qc) /\ (integ -> single_move (labs x)).
Lemma loop_ok : forall m sets states, good sets states -> (cost (labs states) < lower + Qc_of m * pm_eps10)%Qc -> exists x, result (labs states) x /\ forall fuel, m <= fuel -> pm_loop order gm G fuel sets states = Ret x.
Proof.
  induction m as [|m IH]; intros sets states GS LT.
  - exfalso. pose proof (lower_le (labs states)) as L. change (Qc_of 0) with 0%Qc in LT. replace (lower + 0 * pm_eps10)%Qc with lower in LT by ring. exact (Qclt_not_le _ _ LT L).
  - destruct (round_ok sets states GS) as (sets' & states' & ch & E & GS' & NE & CO & CH & FI). destruct ch.
    + specialize (CH eq_refl). destruct (IH sets' states' GS') as (x & (R1 & R2 & R3) & EX).
      { rewrite Qc_of_S in LT. replace (lower + (1 + Qc_of m) * pm_eps10)%Qc with (lower + Qc_of m * pm_eps10 + pm_eps10)%Qc in LT by ring. set (z := (lower + Qc_of m * pm_eps10)%Qc) in *. qlra. }
      exists x. split; [split; [exact R1|]; split; [eapply Qcle_trans; [exact R2|exact CO]|exact R3]|]. intros [|fuel] HF; [lia|]. cbn [pm_loop]. rewrite E. cbn [bind]. apply EX. lia.
    + exists states'. destruct (FI eq_refl) as [F1 F2]. split; [split; [exists sets'; auto|auto]|]. intros [|fuel] HF; [lia|]. cbn [pm_loop]. rewrite E. reflexivity.
Qed.
Lemma archimedes : forall q : Qc, exists m, (q < Qc_of m * pm_eps10)%Qc.
Proof.
  intros q. set (z := (this q * (10000000000 # 1))%Q). set (w := Z.max 0 (Qfloor z + 1)). exists (Z.to_nat w).
  assert (E : (this (Qc_of (Z.to_nat w) * pm_eps10)%Qc == inject_Z w * (1 # 10000000000))%Q).
  { unfold Qc_of, pm_eps10, Qcmult, Q2Qc. cbn [this]. rewrite !Qred_correct. rewrite Z2Nat.id by (unfold w; lia). reflexivity. }
  unfold Qclt. rewrite E. pose proof (Qlt_floor z) as H.
  assert (Y : (inject_Z (Qfloor z + 1) <= inject_Z w)%Q) by (rewrite <- Zle_Qle; unfold w; lia). assert (T : (z < inject_Z w)%Q) by (eapply Qlt_le_trans; [exact H|exact Y]).
  clearbody w. unfold z in T. lra.
Qed.
(** The sets of the labels. *)
Lemma sets_ok : forall states, length states = n -> exists sets, pm_sets states = Ret sets /\ good sets states.
Proof.
  intros states LS. unfold pm_sets. set (np := fold_left (fun k s => if k <? s + 1 then s + 1 else k) states 0).
  assert (MX : forall l a, a <= fold_left (fun k s => if k <? s + 1 then s + 1 else k) l a /\ forall s, In s l -> s < fold_left (fun k s => if k <? s + 1 then s + 1 else k) l a).
  { induction l as [|b l IH]; intros a; cbn [fold_left]; [split; [lia|intros s []]|]. destruct (IH (if a <? b + 1 then b + 1 else a)) as [I1 I2]. destruct (Nat.ltb_spec a (b + 1)); (split; [lia|]); intros s [<-|I]; try (apply I2; exact I); lia. }
  assert (LT : forall v, v < n -> nth v states 0 < np). { intros v Hv. apply (proj2 (MX states 0)). apply nth_In. lia. }
  destruct (foldM_ind nat (list (list nat)) (fun sets i => k <- rd states i ;; s <- rd sets k ;; wr sets k (set_insert i s)) (fun m sets => length sets = np /\ forall k v, k < np -> (In v (nth k sets []) <-> v < m /\ nth v states 0 = k)) (seq 0 (length states)) (repeat [] np)) as (sets & E & L & P).
  - split; [apply repeat_length|]. intros k v Hk. rewrite nth_repeat. cbn. lia.
  - intros m a sets Em [L P]. assert (a = m /\ m < length states) as [-> Hm]. { assert (m < length states) by (rewrite <- (seq_length (length states) 0); apply nth_error_Some; congruence). split; [|assumption]. rewrite (nth_error_nth' _ 0) in Em by (rewrite seq_length; assumption). injection Em as <-. rewrite seq_nth by assumption. reflexivity. }
    pose proof (LT m ltac:(lia)) as Hk. set (k := nth m states 0) in *. rewrite (rd_nth _ states m 0) by exact Hm. fold k. cbn [bind]. rewrite (rd_nth _ sets k []) by lia. cbn [bind]. rewrite wr_Ret by lia. eexists. split; [reflexivity|]. split; [rewrite length_upd; exact L|].
    intros j v Hj. assert (IN : forall x s, In x (set_insert m s) <-> In x s \/ x = m). { intros x s. unfold set_insert. destruct (mem m s) eqn:M; [apply mem_In in M; split; [auto|intros [H| ->]; assumption]|]. cbn. intuition congruence. }
    destruct (Nat.eq_dec j k) as [->|NE].
    + rewrite nth_upd_eq by lia. rewrite IN, (P k v Hj). fold k. split; [intros [[H1 H2]| ->]; [split; [lia|exact H2]|split; [lia|reflexivity]]|]. intros [H1 H2]. destruct (Nat.eq_dec v m) as [->|]; [right; reflexivity|left; split; [lia|exact H2]].
    + rewrite nth_upd_neq by auto. rewrite (P j v Hj). split; [intros [H1 H2]; split; [lia|exact H2]|]. intros [H1 H2]. split; [|exact H2]. destruct (Nat.eq_dec v m) as [->|]; [fold k in H2; lia|lia].
  - rewrite seq_length in P. exists sets. split; [exact E|]. split; [exact LS|]. split.
    + intros k s Ek v. assert (Hk : k < np) by (rewrite <- L; apply nth_error_Some; congruence). rewrite <- (nth_error_nth _ _ [] Ek). rewrite (P k v Hk), LS. reflexivity.
    + intros v Hv. rewrite L. apply LT. exact Hv.
Qed.
Lemma infer_ok : forall states, length states = n -> exists x m, result (labs states) x /\ forall fuel, m <= fuel -> pm_infer order gm G fuel states = Ret x.
Proof.
  intros states LS. destruct (sets_ok states LS) as (sets & E & GS). destruct (archimedes (cost (labs states) - lower)%Qc) as [m Hm]. destruct (loop_ok m sets states GS) as (x & R & EX). { set (z := (Qc_of m * pm_eps10)%Qc) in *. qlra. }
  exists x, m. split; [exact R|]. intros fuel HF. unfold pm_infer. rewrite E. cbn [bind]. apply EX. exact HF.
Qed.
(** The number of sets is at most the number of variables. *)
Lemma result_lt : forall c0 x v, result c0 x -> v < n -> nth v x 0 < n.
Proof.
  intros c0 x v ((sets & [LX [CX CL]] & NE) & _) Hv. eapply Nat.lt_le_trans; [apply (CL v Hv)|]. rewrite <- (map_length (hd 0) sets). apply NoDup_bounded_length.
  - apply (NoDup_nth _ 0). intros i j Hi Hj E. rewrite map_length in Hi, Hj. change 0 with (hd 0 (@nil nat)) in E. rewrite !map_nth in E. rewrite Forall_forall in NE.
    assert (X : forall k, k < length sets -> labs x (hd 0 (nth k sets [])) = k). { intros k Hk. assert (I : In (hd 0 (nth k sets [])) (nth k sets [])). { specialize (NE _ (nth_In sets [] Hk)). destruct (nth k sets []); [congruence|left; reflexivity]. } apply (CX k (nth k sets []) (nth_error_nth' _ _ Hk)) in I. tauto. }
    rewrite <- (X i Hi), <- (X j Hj), E. reflexivity.
  - intros y I. apply in_map_iff in I. destruct I as (s & <- & I). rewrite Forall_forall in NE. specialize (NE s I). apply In_nth_error in I. destruct I as [k Ek]. assert (J : In (hd 0 s) s) by (destruct s; [congruence|left; reflexivity]). apply (CX k s Ek) in J. tauto.
Qed.
End Run.
