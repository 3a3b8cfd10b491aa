(** The constructor of DynamicProgramming orders the variables of a forest from the roots downwards. *)
From Verif Require Import Base Values GmView GmViewSpec GmProofs GmViewProofs IcmProofs DpModel DpSpec.
From Coq Require Import Relations.Relation_Operators Sorted.
#[local] Arguments nth_error : simpl never.

Section Order.
Variable T : Type.
Variable g : gmv T.
Hypothesis W : wf_gmv g.
Let n := length (v_labels g).

Lemma edge_sym : forall k u v, edge g k u v -> edge g k v u.
Proof. intros k u v (fc & E & [H|H]); exists fc; auto. Qed.
Lemma edge_bound : forall k u v, edge g k u v -> u < n /\ v < n /\ u <> v.
Proof.
  intros k u v (fc & E & H). destruct (wf_nth _ _ _ _ W E) as [HS HB].
  assert (G : forall a b, fst fc = [a; b] -> a < n /\ b < n /\ a <> b).
  { intros a b X. rewrite X in *. apply Forall_cons_iff in HB. destruct HB as [HA HB]. apply Forall_cons_iff in HB. destruct HB as [HB _].
    inversion HS as [|? ? _ HF]; subst. apply Forall_cons_iff in HF. destruct HF as [HF _]. fold n in HA, HB. lia. }
  destruct H as [H|H]; apply G in H; intuition.
Qed.
Lemma linked_sym : forall u v, linked g u v -> linked g v u.
Proof.
  intros u v H. induction H as [a b [k Hk]|a|a b c H1 IH1 H2 IH2]; [|apply rt_refl|eapply rt_trans; eauto].
  apply rt_step. exists k. apply edge_sym. auto.
Qed.
Lemma linked_trans : forall u v w, linked g u v -> linked g v w -> linked g u w.
Proof. intros. eapply rt_trans; eauto. Qed.
Lemma edge_linked : forall k u v, edge g k u v -> linked g u v.
Proof. intros. apply rt_step. exists k. auto. Qed.
Lemma edge_adj : forall k u v, edge g k u v -> In k (v_adj T g u).
Proof. intros k u v (fc & E & H). apply v_adj_spec. exists fc. split; auto. destruct H as [-> | ->]; cbn; auto. Qed.

Notation entry := (nat * nat * nat)%type.
Record oinv (R : list nat) (E : list entry) (vs : list nat) (c : ctor) : Prop := {
  oi_len : length (c_order c) = n;
  oi_chlen : length (c_children c) = n;
  oi_count : c_count c = length vs;
  oi_nodup : NoDup vs;
  oi_bound : Forall (fun v => v < n) vs;
  oi_some : forall i v, nth_error vs i = Some v -> nth_error (c_order c) v = Some (Some i);
  oi_none : forall v, v < n -> ~ In v vs -> nth_error (c_order c) v = Some None;
  oi_stack : forall v, In v (c_stack c) -> In v vs;
  oi_root : forall r, In r R -> In r vs;
  oi_cover : forall v, In v vs -> In v R \/ exists k p, In (k, p, v) E;
  oi_edge : forall k p v, In (k, p, v) E -> edge g k p v /\ ~ In v R /\ exists i j, nth_error vs i = Some p /\ nth_error vs j = Some v /\ i < j;
  oi_enodup : NoDup (map snd E);
  oi_children : forall p, p < n -> nth_error (c_children c) p = Some (length (filter (fun e : entry => snd (fst e) =? p) E)) }.

Definition closed_but (S vs : list nat) : Prop := forall u k w, In u vs -> ~ In u S -> edge g k u w -> In w vs.

Lemma oinv_is_none : forall R E vs c v, oinv R E vs c -> v < n -> exists o, nth_error (c_order c) v = Some o /\ (is_none o = true <-> ~ In v vs).
Proof.
  intros R E vs c v O Hv. destruct (in_dec Nat.eq_dec v vs) as [H|H].
  - pose proof H as H'. apply In_nth_error in H'. destruct H' as [i Hi]. exists (Some i). split; [eapply oi_some; eauto|]. cbn. split; [discriminate|tauto].
  - exists None. split; [eapply oi_none; eauto|]. cbn. tauto.
Qed.
Lemma nth_error_snoc : forall (l : list nat) a i v, nth_error (l ++ [a]) i = Some v -> nth_error l i = Some v \/ (i = length l /\ v = a).
Proof.
  intros l a i v H. destruct (Nat.lt_ge_cases i (length l)) as [L|L].
  - rewrite nth_error_app1 in H by auto. auto.
  - rewrite nth_error_app2 in H by auto. destruct (i - length l) as [|q] eqn:Q; [|change (nth_error (@nil nat) q = Some v) in H; destruct q; discriminate].
    change (Some a = Some v) in H. injection H as ->. right. split; auto. lia.
Qed.
Lemma nth_error_snoc_eq : forall (l : list nat) a, nth_error (l ++ [a]) (length l) = Some a.
Proof. intros. rewrite nth_error_app2, Nat.sub_diag by auto. reflexivity. Qed.

Lemma discover_ok : forall R E vs c k node other, oinv R E vs c -> In node vs -> edge g k node other -> ~ In other vs ->
  exists c', discover node other c = Ret c' /\ oinv R (E ++ [(k, node, other)]) (vs ++ [other]) c' /\ c_stack c' = other :: c_stack c.
Proof.
  intros R E vs c k node other O Hn HE HO. destruct (edge_bound _ _ _ HE) as (Bn & Bo & _). unfold discover.
  rewrite wr_Ret by (rewrite (oi_len _ _ _ _ O); auto). cbn [bind]. rewrite (rd_Ret _ _ _ _ (oi_children _ _ _ _ O node Bn)). cbn [bind].
  rewrite wr_Ret by (rewrite (oi_chlen _ _ _ _ O); auto). cbn [bind]. eexists. split; [reflexivity|]. split; [|reflexivity].
  assert (NV : forall i v, nth_error vs i = Some v -> v <> other) by (intros i v Hi ->; apply HO; eapply nth_error_In; eauto).
  constructor; cbn [c_order c_count c_stack c_children].
  - rewrite length_upd. apply (oi_len _ _ _ _ O).
  - rewrite length_upd. apply (oi_chlen _ _ _ _ O).
  - rewrite app_length, (oi_count _ _ _ _ O). cbn. lia.
  - apply NoDup_app_intro; [apply (oi_nodup _ _ _ _ O)|repeat constructor; auto|intros a H1 [<-|[]]; auto].
  - apply Forall_app. split; [apply (oi_bound _ _ _ _ O)|repeat constructor; auto].
  - intros i v Hi. apply nth_error_snoc in Hi. destruct Hi as [Hi|[-> ->]].
    + rewrite nth_error_upd_neq; [eapply oi_some; eauto|]. apply not_eq_sym. eapply NV; eauto.
    + rewrite nth_error_upd_eq by (rewrite (oi_len _ _ _ _ O); auto). rewrite (oi_count _ _ _ _ O). auto.
  - intros v Hv NI. rewrite in_app_iff in NI. cbn in NI. rewrite nth_error_upd_neq; [apply (oi_none _ _ _ _ O); tauto|intros ->; tauto].
  - intros v [<-|Hv]; apply in_app_iff; [right; left; auto|left; eapply oi_stack; eauto].
  - intros r Hr. apply in_app_iff. left. eapply oi_root; eauto.
  - intros v Hv. apply in_app_iff in Hv. destruct Hv as [Hv|[<-|[]]].
    + destruct (oi_cover _ _ _ _ O v Hv) as [H|(k' & p & H)]; auto. right. exists k', p. apply in_app_iff. auto.
    + right. exists k, node. apply in_app_iff. right. left. auto.
  - intros k' p v Hv. apply in_app_iff in Hv. destruct Hv as [Hv|[Hv|[]]].
    + destruct (oi_edge _ _ _ _ O _ _ _ Hv) as (A & B & i & j & H1 & H2 & H3). split; auto. split; auto. exists i, j.
      rewrite !nth_error_app1; auto; apply nth_error_Some; congruence.
    + injection Hv as <- <- <-. split; auto. split; [intros X; apply HO; eapply oi_root; eauto|].
      apply In_nth_error in Hn. destruct Hn as [i Hi]. assert (i < length vs) by (apply nth_error_Some; congruence).
      exists i, (length vs). rewrite nth_error_app1 by auto. rewrite nth_error_snoc_eq. auto.
  - rewrite map_app. cbn [map snd]. apply NoDup_app_intro; [apply (oi_enodup _ _ _ _ O)|repeat constructor; auto|].
    intros a H1 [<-|[]]. apply in_map_iff in H1. destruct H1 as ([[k' p] v] & X & H1). cbn in X. subst v.
    destruct (oi_edge _ _ _ _ O _ _ _ H1) as (_ & _ & i & j & _ & H2 & _). apply HO. eapply nth_error_In; eauto.
  - intros p Hp. rewrite filter_app, app_length. cbn [filter snd fst]. destruct (Nat.eqb_spec node p) as [->|N].
    + rewrite nth_error_upd_eq by (rewrite (oi_chlen _ _ _ _ O); auto). cbn. f_equal. lia.
    + rewrite nth_error_upd_neq by auto. rewrite (oi_children _ _ _ _ O p Hp). cbn. f_equal. lia.
Qed.

Lemma order_factor_ok : forall R E vs c node k, oinv R E vs c -> In node vs -> In k (v_adj T g node) ->
  exists E' vs' c', order_factor T g node c k = Ret c' /\ oinv R E' vs' c' /\ (exists new, c_stack c' = new ++ c_stack c /\ vs' = vs ++ rev new) /\
    (forall w, edge g k node w -> In w vs').
Proof.
  intros R E vs c node k O Hn Hk. unfold order_factor. apply v_adj_spec in Hk. destruct Hk as (fc & Ek & Hin). rewrite (rd_Ret _ _ _ _ Ek). cbn [bind].
  assert (NOOP : (forall a b, fst fc <> [a; b]) -> forall w, edge g k node w -> In w vs).
  { intros X w (fc' & E' & H). exfalso. rewrite Ek in E'. injection E' as <-. destruct H as [H|H]; eapply X; eauto. }
  assert (ID : (forall w, edge g k node w -> In w vs) -> exists E' vs' c', Ret c = Ret c' /\ oinv R E' vs' c' /\ (exists new, c_stack c' = new ++ c_stack c /\ vs' = vs ++ rev new) /\ (forall w, edge g k node w -> In w vs')).
  { intros X. exists E, vs, c. split; auto. split; auto. split; auto. exists []. cbn. rewrite app_nil_r. auto. }
  destruct (fst fc) as [|v0 [|v1 [|v2 l]]] eqn:Ef; try (apply ID, NOOP; intros a b X; discriminate).
  assert (HE : edge g k v0 v1) by (exists fc; auto). destruct (edge_bound _ _ _ HE) as (B0 & B1 & ND).
  assert (UN : forall w, edge g k node w -> (v0 = node /\ w = v1) \/ (v1 = node /\ w = v0)).
  { intros w (fc' & E' & H). rewrite Ek in E'. injection E' as <-. rewrite Ef in H. destruct H as [H|H]; injection H as -> ->; auto. }
  destruct (oinv_is_none _ _ _ _ v0 O B0) as (o0 & E0 & I0). rewrite (rd_Ret _ _ _ _ E0). cbn [bind].
  assert (DISC : forall other, edge g k node other -> ~ In other vs -> exists E' vs' c', discover node other c = Ret c' /\ oinv R E' vs' c' /\ (exists new, c_stack c' = new ++ c_stack c /\ vs' = vs ++ rev new) /\ In other vs').
  { intros other HO NI. destruct (discover_ok R E vs c k node other O Hn HO NI) as (c' & D1 & D2 & D3). eexists. exists (vs ++ [other]), c'. split; [exact D1|]. split; [exact D2|].
    split; [exists [other]; rewrite D3; auto|]. apply in_app_iff. right. left. auto. }
  destruct Hin as [<-|[<-|[]]].
  - destruct (Nat.eqb_spec v1 v0) as [X|_]; [congruence|]. cbn [andb bind].
    destruct (oinv_is_none _ _ _ _ v1 O B1) as (o1 & E1 & I1). rewrite (rd_Ret _ _ _ _ E1). cbn [bind]. rewrite Nat.eqb_refl. cbn [andb].
    destruct (is_none o1) eqn:N1.
    + destruct (DISC v1 HE (proj1 I1 eq_refl)) as (E' & vs' & c' & D1 & D2 & D3 & D4). exists E', vs', c'. split; auto. split; auto. split; auto.
      intros w Hw. destruct (UN w Hw) as [[_ ->]|[X _]]; [auto|congruence].
    + apply ID. intros w Hw. destruct (UN w Hw) as [[_ ->]|[X _]]; [|congruence]. destruct (in_dec Nat.eq_dec v1 vs) as [H|H]; auto. apply I1 in H. discriminate.
  - rewrite Nat.eqb_refl. cbn [andb]. destruct (is_none o0) eqn:N0.
    + destruct (DISC v0 (edge_sym _ _ _ HE) (proj1 I0 eq_refl)) as (E' & vs' & c' & D1 & D2 & D3 & D4). rewrite D1. cbn [bind].
      destruct (oinv_is_none _ _ _ _ v1 D2 B1) as (o1 & E1 & I1). rewrite (rd_Ret _ _ _ _ E1). cbn [bind].
      destruct (Nat.eqb_spec v0 v1) as [X|_]; [congruence|]. cbn [andb]. exists E', vs', c'. split; auto. split; auto. split; auto.
      intros w Hw. destruct (UN w Hw) as [[X _]|[_ ->]]; [congruence|auto].
    + cbn [bind]. destruct (oinv_is_none _ _ _ _ v1 O B1) as (o1 & E1 & I1). rewrite (rd_Ret _ _ _ _ E1). cbn [bind].
      destruct (Nat.eqb_spec v0 v1) as [X|_]; [congruence|]. cbn [andb]. apply ID. intros w Hw. destruct (UN w Hw) as [[X _]|[_ ->]]; [congruence|].
      destruct (in_dec Nat.eq_dec v0 vs) as [H|H]; auto. apply I0 in H. discriminate.
Qed.

Lemma order_node_ok : forall node l R E vs c, oinv R E vs c -> In node vs -> incl l (v_adj T g node) ->
  exists E' vs' c', foldM (order_factor T g node) l c = Ret c' /\ oinv R E' vs' c' /\ (exists new, c_stack c' = new ++ c_stack c /\ vs' = vs ++ rev new) /\
    (forall k w, In k l -> edge g k node w -> In w vs').
Proof.
  intros node l. induction l as [|k l IH]; intros R E vs c O Hn HL.
  - exists E, vs, c. split; auto. split; auto. split; [exists []; cbn; rewrite app_nil_r; auto|intros k w []].
  - cbn [foldM]. destruct (order_factor_ok R E vs c node k O Hn (HL k (or_introl eq_refl))) as (E1 & vs1 & c1 & A1 & A2 & (new & A3 & A4) & A5). rewrite A1. cbn [bind].
    destruct (IH R E1 vs1 c1 A2) as (E2 & vs2 & c2 & B1 & B2 & (new2 & B3 & B4) & B5).
    { rewrite A4. apply in_app_iff. auto. } { intros q Hq. apply HL. right. auto. }
    exists E2, vs2, c2. split; auto. split; auto. split.
    + exists (new2 ++ new). rewrite B3, A3, app_assoc. split; auto. rewrite B4, A4, rev_app_distr, app_assoc. auto.
    + intros q w [<-|Hq] Hw; [|eapply B5; eauto]. rewrite B4. apply in_app_iff. left. eapply A5; eauto.
Qed.

Lemma visited_bound : forall R E vs c, oinv R E vs c -> length vs <= n.
Proof. intros R E vs c O. apply NoDup_bounded_length; [apply (oi_nodup _ _ _ _ O)|]. intros v Hv. pose proof (oi_bound _ _ _ _ O) as H. rewrite Forall_forall in H. auto. Qed.

Lemma order_loop_ok : forall fuel R E vs c, oinv R E vs c -> closed_but (c_stack c) vs -> (n - length vs) + length (c_stack c) < fuel ->
  exists E' vs' c', order_loop T g fuel c = Ret c' /\ oinv R E' vs' c' /\ c_stack c' = [] /\ closed_but [] vs' /\ incl vs vs'.
Proof.
  induction fuel as [|fuel IH]; intros R E vs c O HC HF; [lia|]. cbn [order_loop]. destruct (c_stack c) as [|node stack] eqn:ES.
  - exists E, vs, c. split; auto. split; auto. split; auto. split; auto. apply incl_refl.
  - assert (Hn : In node vs) by (apply (oi_stack _ _ _ _ O); rewrite ES; left; auto).
    assert (O' : oinv R E vs (mkC (c_order c) (c_count c) stack (c_children c))).
    { destruct O as [O1 O2 O3 O4 O5 O6 O7 O8 O9 O10 O11 O12 O13]. constructor; auto. cbn. intros v Hv. apply O8. rewrite ES. right. auto. }
    destruct (order_node_ok node (v_adj T g node) R E vs _ O' Hn (incl_refl _)) as (E1 & vs1 & c1 & A1 & A2 & (new & A3 & A4) & A5). rewrite A1. cbn [bind].
    cbn [c_stack] in A3. pose proof (visited_bound _ _ _ _ A2) as VB.
    assert (LV : length vs1 = length vs + length new) by (rewrite A4, app_length, rev_length; auto).
    destruct (IH R E1 vs1 c1 A2) as (E2 & vs2 & c2 & B1 & B2 & B3 & B4 & B5).
    { intros u k w Hu NS He. rewrite A3 in NS. rewrite A4 in Hu. apply in_app_iff in Hu. destruct Hu as [Hu|Hu].
      - destruct (Nat.eq_dec u node) as [->|N]; [eapply A5; eauto; eapply edge_adj; eauto|]. rewrite A4. apply in_app_iff. left.
        eapply HC; eauto. intros [X|X]; [congruence|]. apply NS. apply in_app_iff. auto.
      - exfalso. apply NS. apply in_app_iff. left. apply in_rev. auto. }
    { rewrite A3, app_length. cbn [length] in HF. lia. }
    exists E2, vs2, c2. split; auto. split; auto. split; auto. split; auto. intros v Hv. apply B5. rewrite A4. apply in_app_iff. auto.
Qed.

Lemma closed_linked : forall vs u v, closed_but [] vs -> In u vs -> linked g u v -> In v vs.
Proof. intros vs u v HC Hu H. induction H as [a b [k Hk]|a|a b c H1 IH1 H2 IH2]; auto. eapply HC; eauto. Qed.

(** Every visited variable is linked to a root. *)
Lemma visited_root : forall R E vs c, oinv R E vs c -> forall i v, nth_error vs i = Some v -> exists r, In r R /\ linked g r v.
Proof.
  intros R E vs c O i. induction i as [i IH] using lt_wf_ind. intros v Hi. destruct (oi_cover _ _ _ _ O v (nth_error_In _ _ Hi)) as [H|(k & p & H)].
  - exists v. split; auto. apply rt_refl.
  - destruct (oi_edge _ _ _ _ O _ _ _ H) as (He & _ & a & b & Ha & Hb & L).
    assert (b = i). { apply (proj1 (NoDup_nth_error vs) (oi_nodup _ _ _ _ O)); [apply nth_error_Some; congruence|congruence]. } subst b.
    destruct (IH a L p Ha) as (r & Hr & HL). exists r. split; auto. eapply linked_trans; eauto. eapply edge_linked; eauto.
Qed.

(** A new root. *)
Lemma new_root_ok : forall R E vs c r, oinv R E vs c -> r < n -> ~ In r vs -> c_stack c = [] ->
  wr (c_order c) r (Some (c_count c)) = Ret (upd (c_order c) r (Some (c_count c))) /\
  oinv (r :: R) E (vs ++ [r]) (mkC (upd (c_order c) r (Some (c_count c))) (S (c_count c)) (r :: c_stack c) (c_children c)).
Proof.
  intros R E vs c r O Hr NI ES. split; [apply wr_Ret; rewrite (oi_len _ _ _ _ O); auto|].
  constructor; cbn [c_order c_count c_stack c_children].
  - rewrite length_upd. apply (oi_len _ _ _ _ O).
  - apply (oi_chlen _ _ _ _ O).
  - rewrite app_length, (oi_count _ _ _ _ O). cbn. lia.
  - apply NoDup_app_intro; [apply (oi_nodup _ _ _ _ O)|repeat constructor; auto|intros a H1 [<-|[]]; auto].
  - apply Forall_app. split; [apply (oi_bound _ _ _ _ O)|repeat constructor; auto].
  - intros i v Hi. apply nth_error_snoc in Hi. destruct Hi as [Hi|[-> ->]].
    + rewrite nth_error_upd_neq; [eapply oi_some; eauto|]. intros ->. apply NI. eapply nth_error_In; eauto.
    + rewrite nth_error_upd_eq by (rewrite (oi_len _ _ _ _ O); auto). rewrite (oi_count _ _ _ _ O). auto.
  - intros v Hv X. rewrite in_app_iff in X. cbn in X. rewrite nth_error_upd_neq; [apply (oi_none _ _ _ _ O); tauto|intros ->; tauto].
  - intros v [<-|Hv]; apply in_app_iff; [right; left; auto|left; eapply oi_stack; eauto].
  - intros q [<-|Hq]; apply in_app_iff; [right; left; auto|left; eapply oi_root; eauto].
  - intros v Hv. apply in_app_iff in Hv. destruct Hv as [Hv|[<-|[]]]; [|left; left; auto].
    destruct (oi_cover _ _ _ _ O v Hv) as [H|H]; [left; right; auto|auto].
  - intros k' p v Hv. destruct (oi_edge _ _ _ _ O _ _ _ Hv) as (A & B & i & j & H1 & H2 & H3). split; auto.
    split; [intros [<-|X]; [apply NI; eapply nth_error_In; eauto|auto]|]. exists i, j. rewrite !nth_error_app1; auto; apply nth_error_Some; congruence.
  - apply (oi_enodup _ _ _ _ O).
  - apply (oi_children _ _ _ _ O).
Qed.

Definition unlinked (R : list nat) : Prop := forall r r', In r R -> In r' R -> linked g r r' -> r = r'.
Lemma unlinked_cons : forall R r, unlinked R -> (forall q, In q R -> ~ linked g q r) -> unlinked (r :: R).
Proof.
  intros R r H HN a b [<-|Ha] [<-|Hb] L; auto.
  - exfalso. apply (HN b Hb). apply linked_sym. auto.
  - exfalso. apply (HN a Ha). auto.
Qed.

(** State between two iterations of the outer loop: [done] requested roots are used, [vc] is varCount. *)
Record outer (all done rest : list nat) (vc : nat) (R : list nat) (E : list entry) (vs : list nat) (c : ctor) : Prop := {
  ou_inv : oinv R E vs c;
  ou_stack : c_stack c = [];
  ou_closed : closed_but [] vs;
  ou_unlinked : unlinked R;
  ou_split : all = done ++ rest;
  ou_vc : rest <> [] -> vc = length done /\ R = rev done;
  ou_le : length done <= vc;
  ou_done : incl done R;
  ou_vars : forall v, length done <= v < vc -> In v vs }.

Lemma order_all_ok : forall all left done rest R E vs c, roots_ok g all -> left <= n -> outer all done rest (n - left) R E vs c ->
  exists R' E' vs' c', order_all T g (S n) left rest c = Ret c' /\ oinv R' E' vs' c' /\ unlinked R' /\ (forall v, v < n -> In v vs').
Proof.
  intros all left. induction left as [|left IH]; intros done rest R E vs c (RB & RP & RC) HL O; destruct O as [O1 O2 O3 O4 O5 O6 O7 O8 O9].
  - cbn [order_all]. exists R, E, vs, c. split; auto. split; auto. split; auto. intros v Hv. rewrite Nat.sub_0_r in *.
    assert (RN : rest = [] \/ rest <> []) by (destruct rest; [left; auto|right; discriminate]).
    destruct (Nat.lt_ge_cases v (length done)) as [L|L]; [|apply O9; lia].
    destruct (RC v) as (r & Hr & Lr). { rewrite O5, app_length. lia. }
    assert (rest = []).
    { destruct RN as [X|X]; auto. exfalso. destruct (O6 X) as [LD RD].
      (* n different roots of different trees and one more *)
      assert (LR : length (rev done ++ rest) <= n).
      { apply NoDup_bounded_length.
        - assert (ND : NoDup all).
          { clear - RP. induction RP as [|a l H RP IH]; constructor; auto. intros X. rewrite Forall_forall in H. apply (H a X). apply rt_refl. }
          rewrite O5 in ND. eapply Permutation.Permutation_NoDup; [|exact ND]. apply Permutation.Permutation_app_tail, Permutation.Permutation_rev.
        - rewrite O5 in RB. rewrite Forall_forall in RB. intros q Hq. apply RB. rewrite in_app_iff in *. rewrite <- in_rev in Hq. auto. }
      rewrite app_length, rev_length in LR. destruct rest; [congruence|]. cbn [length] in LR. fold n in LD. lia. }
    subst rest. rewrite app_nil_r in O5. subst all. eapply closed_linked; eauto. eapply oi_root; eauto.
  - cbn [order_all]. fold n. destruct (Nat.leb_spec n (c_count c)) as [LC|LC].
    { exists R, E, vs, c. split; auto. split; auto. split; auto. intros v Hv. rewrite (oi_count _ _ _ _ O1) in LC.
      assert (X : incl (seq 0 n) vs).
      { apply NoDup_length_incl; [apply (oi_nodup _ _ _ _ O1)|rewrite seq_length; auto|]. intros q Hq. apply in_seq. pose proof (oi_bound _ _ _ _ O1) as B. rewrite Forall_forall in B. specialize (B q Hq). lia. }
      apply X, in_seq. lia. }
    assert (ROOT : forall r done' rest', r < n -> ~ In r vs -> (forall q, In q R -> ~ linked g q r) ->
       (forall E' vs' c', oinv (r :: R) E' vs' c' -> incl (vs ++ [r]) vs' -> c_stack c' = [] -> closed_but [] vs' -> outer all done' rest' (n - left) (r :: R) E' vs' c') ->
       exists R' E' vs' c', (ord <- wr (c_order c) r (Some (c_count c)) ;; c <- order_loop T g (S n) (mkC ord (S (c_count c)) (r :: c_stack c) (c_children c)) ;; order_all T g (S n) left rest' c) = Ret c' /\
          oinv R' E' vs' c' /\ unlinked R' /\ (forall v, v < n -> In v vs')).
    { intros r done' rest' Hr NI NL HK. destruct (new_root_ok R E vs c r O1 Hr NI O2) as [WR OR]. rewrite WR. cbn [bind].
      destruct (order_loop_ok (S n) _ _ _ _ OR) as (E1 & vs1 & c1 & A1 & A2 & A3 & A4 & A5).
      { cbn [c_stack]. rewrite O2. intros u k w Hu NS He. apply in_app_iff. apply in_app_iff in Hu. destruct Hu as [Hu|[<-|[]]]; [left; eapply O3; eauto|exfalso; apply NS; left; auto]. }
      { cbn [c_stack]. rewrite O2. pose proof (visited_bound _ _ _ _ OR) as VB. rewrite app_length in *. cbn [length] in *. lia. }
      rewrite A1. cbn [bind]. apply (IH done' rest' (r :: R) E1 vs1 c1); [split; auto|lia|]. apply HK; auto. }
    destruct rest as [|r rest].
    + assert (Hv : n - S left < n) by lia. set (v := n - S left) in *.
      destruct (oinv_is_none _ _ _ _ v O1 Hv) as (o & Eo & Io). rewrite (rd_Ret _ _ _ _ Eo). cbn [bind].
      destruct (is_none o) eqn:No.
      * assert (NI : ~ In v vs) by (apply Io; auto).
        destruct (ROOT v done [] Hv NI) as (R' & E' & vs' & c' & X1 & X2 & X3 & X4).
        { intros q Hq L. apply NI. eapply closed_linked; eauto. eapply oi_root; eauto. }
        { intros E' vs' c' P1 P2 P3 P4. constructor; auto.
          - apply unlinked_cons; auto. intros q Hq L. apply NI. eapply closed_linked; eauto. eapply oi_root; eauto.
          - congruence.
          - lia.
          - intros q Hq. right. auto.
          - intros u Hu. apply P2, in_app_iff. destruct (Nat.eq_dec u v) as [->|N]; [right; left; auto|left]. apply O9. unfold v in N. lia. }
        exists R', E', vs', c'. split; auto. rewrite wr_Ret in X1 |- * by (rewrite (oi_len _ _ _ _ O1); auto). cbn [bind] in X1 |- *. exact X1.
      * cbn [bind]. destruct (order_loop_ok (S n) _ _ _ _ O1) as (E1 & vs1 & c1 & A1 & A2 & A3 & A4 & A5).
        { rewrite O2. auto. } { rewrite O2. cbn. lia. }
        rewrite A1. cbn [bind]. apply (IH done [] R E1 vs1 c1); [split; auto|lia|]. constructor; auto; [congruence|lia|].
        intros u Hu. apply A5. destruct (Nat.eq_dec u v) as [->|N]; [|apply O9; unfold v in N; lia].
        destruct (in_dec Nat.eq_dec v vs) as [H|H]; auto. apply Io in H. congruence.
    + destruct O6 as [LD RD]; [discriminate|]. assert (Hr : r < n) by (rewrite O5 in RB; apply Forall_app in RB; destruct RB as [_ RB]; apply Forall_cons_iff in RB; apply RB).
      assert (NL : forall q, In q R -> ~ linked g q r).
      { intros q Hq. rewrite RD in Hq. apply in_rev in Hq. rewrite O5 in RP. clear - RP Hq. induction done as [|a d IH]; [destruct Hq|].
        inversion RP as [|? ? HF RP']; subst. destruct Hq as [->|Hq]; [|apply IH; auto]. rewrite Forall_forall in HF. apply HF. apply in_app_iff. right. left. auto. }
      assert (NI : ~ In r vs).
      { intros X. apply In_nth_error in X. destruct X as [i Hi]. destruct (visited_root _ _ _ _ O1 i r Hi) as (q & Hq & L). apply (NL q); auto. }
      destruct (ROOT r (done ++ [r]) rest Hr NI NL) as (R' & E' & vs' & c' & X1 & X2 & X3 & X4).
      { intros E' vs' c' P1 P2 P3 P4. constructor; auto.
        - apply unlinked_cons; auto.
        - rewrite <- app_assoc. auto.
        - intros _. rewrite app_length, rev_app_distr, RD. cbn. split; auto. lia.
        - rewrite app_length. cbn. lia.
        - intros q Hq. apply in_app_iff in Hq. destruct Hq as [Hq|[<-|[]]]; [right; auto|left; auto].
        - intros u Hu. rewrite app_length in Hu. cbn in Hu. lia. }
      exists R', E', vs', c'. split; auto. rewrite wr_Ret in X1 |- * by (rewrite (oi_len _ _ _ _ O1); auto). cbn [bind] in X1 |- *. exact X1.
Qed.

Lemma mapM_get : forall (A : Type) (l : list (option A)) (r : list A), l = map Some r -> mapM get l = Ret r.
Proof. intros A l r ->. induction r as [|a r IH]; auto. cbn [map mapM get bind]. rewrite IH. auto. Qed.

(** The ordering as a function. *)
Definition ord_of (order : list nat) (v : nat) : nat := nth v order 0.
(** What the constructor establishes. *)
Record ordered (order nodes : list nat) (st : list (list (option nat))) : Prop := {
  od_len : length order = n;
  od_nodes : length nodes = n;
  od_nth : forall v, v < n -> ord_of order v < n /\ nth_error nodes (ord_of order v) = Some v;
  od_node : forall i, i < n -> exists v, nth_error nodes i = Some v /\ v < n /\ ord_of order v = i;
  od_parent : forall v k1 u1 k2 u2, edge g k1 v u1 -> edge g k2 v u2 -> ord_of order u1 < ord_of order v -> ord_of order u2 < ord_of order v -> k1 = k2;
  od_st : length st = n;
  od_row : forall v row (ks : list nat), v < n -> nth_error st v = Some row -> NoDup ks ->
     (forall k, In k ks <-> exists c, edge g k v c /\ ord_of order v < ord_of order c) ->
     length row = nth v (v_labels g) 0 * length ks }.

Lemma tree_path : forall R E vs c, oinv R E vs c -> forall i v, nth_error vs i = Some v ->
  exists r, In r R /\ (exists j, nth_error vs j = Some r /\ j <= i) /\
    clos_refl_trans nat (fun a b => exists q ia ib, edge g q a b /\ nth_error vs ia = Some a /\ nth_error vs ib = Some b /\ ia <= i /\ ib <= i) r v.
Proof.
  intros R E vs c O i. induction i as [i IH] using lt_wf_ind. intros v Hi. destruct (oi_cover _ _ _ _ O v (nth_error_In _ _ Hi)) as [H|(k & p & H)].
  - exists v. split; auto. split; [exists i; auto|apply rt_refl].
  - destruct (oi_edge _ _ _ _ O _ _ _ H) as (He & _ & a & b & Ha & Hb & L).
    assert (b = i). { apply (proj1 (NoDup_nth_error vs) (oi_nodup _ _ _ _ O)); [apply nth_error_Some; congruence|congruence]. } subst b.
    destruct (IH a L p Ha) as (r & Hr & (j & Hj & Lj) & HP). exists r. split; auto. split; [exists j; split; auto; lia|].
    eapply rt_trans; [|apply rt_step; exists k, a, i; repeat split; eauto; lia].
    clear - HP L. induction HP as [x y (q & ia & ib & ? & ? & ? & ? & ?)|x|x y z H1 IH1 H2 IH2]; [|apply rt_refl|eapply rt_trans; eauto].
    apply rt_step. exists q, ia, ib. repeat split; auto; lia.
Qed.

Lemma rt_mono : forall (P Q : nat -> nat -> Prop), (forall a b, P a b -> Q a b) -> forall a b, clos_refl_trans nat P a b -> clos_refl_trans nat Q a b.
Proof. intros P Q H a b X. induction X; [apply rt_step; auto|apply rt_refl|eapply rt_trans; eauto]. Qed.
Lemma rt_sym' : forall (P : nat -> nat -> Prop), (forall a b, P a b -> P b a) -> forall a b, clos_refl_trans nat P a b -> clos_refl_trans nat P b a.
Proof. intros P H a b X. induction X; [apply rt_step; auto|apply rt_refl|eapply rt_trans; eauto]. Qed.

Lemma parent_unique : forall R E vs c, oinv R E vs c -> unlinked R -> forest g ->
  forall v k1 u1 k2 u2 i1 i2 i, edge g k1 v u1 -> edge g k2 v u2 -> nth_error vs i = Some v -> nth_error vs i1 = Some u1 -> nth_error vs i2 = Some u2 ->
    i1 < i -> i2 < i -> k1 = k2.
Proof.
  intros R E vs c O UL FO v k1 u1 k2 u2 i1 i2 i E1 E2 Hv H1 H2 L1 L2. destruct (Nat.eq_dec k1 k2) as [|NK]; auto. exfalso.
  destruct (tree_path _ _ _ _ O i1 u1 H1) as (r1 & R1 & _ & P1). destruct (tree_path _ _ _ _ O i2 u2 H2) as (r2 & R2 & _ & P2).
  assert (Q : forall j a b, j < i -> clos_refl_trans nat (fun a b => exists q ia ib, edge g q a b /\ nth_error vs ia = Some a /\ nth_error vs ib = Some b /\ ia <= j /\ ib <= j) a b ->
     clos_refl_trans nat (fun a b => exists q, q <> k1 /\ edge g q a b) a b /\ linked g a b).
  { intros j a b Lj HP. split.
    - eapply rt_mono; [|exact HP]. cbn. intros x y (q & ia & ib & He & Ha & Hb & La & Lb). exists q. split; auto. intros ->.
      assert (X : v = x \/ v = y).
      { destruct E1 as (f1 & F1 & G1). destruct He as (f2 & F2 & G2). rewrite F1 in F2. injection F2 as <-.
        destruct G1 as [G1|G1], G2 as [G2|G2]; rewrite G1 in G2; injection G2; auto. }
      assert (UN : forall z iz, nth_error vs iz = Some z -> iz <= j -> v <> z).
      { intros z iz Hz Lz <-. assert (iz = i); [|lia]. apply (proj1 (NoDup_nth_error vs) (oi_nodup _ _ _ _ O)); [apply nth_error_Some; congruence|congruence]. }
      destruct X as [X|X]; [apply (UN x ia)|apply (UN y ib)]; auto.
    - eapply rt_mono; [|exact HP]. cbn. intros x y (q & ? & ? & ? & _). eauto. }
  destruct (Q _ _ _ L1 P1) as [A1 B1]. destruct (Q _ _ _ L2 P2) as [A2 B2].
  assert (r1 = r2).
  { apply UL; auto. eapply linked_trans; [exact B1|]. eapply linked_trans; [apply edge_linked with (k := k1); apply edge_sym; exact E1|].
    eapply linked_trans; [eapply edge_linked; exact E2|]. apply linked_sym. auto. }
  subst r2. apply (FO k1 u1 v (edge_sym _ _ _ E1)). eapply rt_trans; [eapply rt_sym'; [|exact A1]; cbn; intros x y (q & ? & ?); exists q; split; auto; apply edge_sym; auto|].
  eapply rt_trans; [exact A2|]. apply rt_step. exists k2. split; auto. apply edge_sym. auto.
Qed.

(** A child is never a root and was discovered from its parent. *)
Lemma child_entry : forall R E vs c, oinv R E vs c -> unlinked R -> forest g ->
  forall k v c' i j, edge g k v c' -> nth_error vs i = Some v -> nth_error vs j = Some c' -> i < j -> In (k, v, c') E.
Proof.
  intros R E vs c O UL FO k v c' i j He Hi Hj L. destruct (oi_cover _ _ _ _ O c' (nth_error_In _ _ Hj)) as [H|(k' & p & H)].
  - exfalso. destruct (tree_path _ _ _ _ O i v Hi) as (r & Hr & (q & Hq & Lq) & HP).
    assert (r = c'). { apply UL; auto. eapply linked_trans; [|eapply edge_linked; eauto]. eapply rt_mono; [|exact HP]. cbn. intros x y (z & ? & ? & ? & _). eauto. }
    subst r. assert (q = j); [|lia]. apply (proj1 (NoDup_nth_error vs) (oi_nodup _ _ _ _ O)); [apply nth_error_Some; congruence|congruence].
  - destruct (oi_edge _ _ _ _ O _ _ _ H) as (He' & _ & a & b & Ha & Hb & Lab).
    assert (b = j). { apply (proj1 (NoDup_nth_error vs) (oi_nodup _ _ _ _ O)); [apply nth_error_Some; congruence|congruence]. } subst b.
    assert (k = k'). { eapply (parent_unique _ _ _ _ O UL FO c' k v k' p i a j); eauto; apply edge_sym; auto. } subst k'.
    assert (p = v); [|subst; auto]. destruct He as (f1 & F1 & G1). destruct He' as (f2 & F2 & G2). rewrite F1 in F2. injection F2 as <-.
    destruct (edge_bound k p c') as (_ & _ & ND); [exists f1; auto|]. destruct G1 as [G1|G1], G2 as [G2|G2]; rewrite G1 in G2; injection G2; congruence.
Qed.

Theorem dp_new_ok : forall roots, roots_ok g roots -> forest g ->
  exists order nodes st, dp_new T g roots = Ret (mkDp order nodes (map (fun i => repeat None (nth i (v_labels g) 0)) (seq 0 n)) st false) /\
    ordered order nodes st.
Proof.
  intros roots RO FO. unfold dp_new. fold n.
  assert (INIT : outer roots [] roots (n - n) [] [] [] (mkC (repeat None n) 0 [] (repeat 0 n))).
  { constructor; cbn [c_stack]; auto.
    - constructor; cbn [c_order c_count c_stack c_children]; auto.
      all: try (apply repeat_length); try (intros ? []; fail); try (intros ? ? ? []; fail); try (apply NoDup_nil).
      + intros [|i] v X; discriminate.
      + intros v Hv _. apply nth_error_repeat. auto.
      + intros p Hp. cbn. apply nth_error_repeat. auto.
    - intros u k w [].
    - intros r r' [].
    - intros _. split; auto. cbn [length]. lia.
    - cbn. lia.
    - intros q [].
    - intros v Hv. cbn in Hv. lia. }
  destruct (order_all_ok roots n [] roots [] [] [] _ RO (le_n _) INIT) as (R & E & vs & c & A1 & O & UL & ALL). rewrite A1. cbn [bind].
  (* the order *)
  assert (LV : length vs = n).
  { apply Nat.le_antisymm; [eapply visited_bound; eauto|]. rewrite <- (seq_length n 0). apply NoDup_incl_length; [apply seq_NoDup|]. intros v Hv. apply in_seq in Hv. apply ALL. lia. }
  assert (IDX : forall v, v < n -> exists i, nth_error vs i = Some v /\ i < n /\ nth_error (c_order c) v = Some (Some i)).
  { intros v Hv. pose proof (ALL v Hv) as X. apply In_nth_error in X. destruct X as [i Hi]. exists i. split; auto. split; [rewrite <- LV; apply nth_error_Some; congruence|eapply oi_some; eauto]. }
  set (order := map (fun o => match o with Some i => i | None => 0 end) (c_order c)).
  assert (EO : c_order c = map Some order).
  { unfold order. rewrite map_map. rewrite <- (map_id (c_order c)) at 1. apply map_ext_in. intros o Ho. apply In_nth_error in Ho. destruct Ho as [v Hv].
    assert (v < n) by (rewrite <- (oi_len _ _ _ _ O); apply nth_error_Some; congruence). destruct (IDX v H) as (i & _ & _ & X). rewrite X in Hv. injection Hv as <-. auto. }
  rewrite (mapM_get _ _ _ EO). cbn [bind].
  assert (LO : length order = n) by (unfold order; rewrite map_length; apply (oi_len _ _ _ _ O)).
  assert (ON : forall i v, nth_error vs i = Some v <-> v < n /\ ord_of order v = i).
  { intros i v. split.
    - intros H. pose proof (oi_some _ _ _ _ O _ _ H) as X. split; [pose proof (oi_bound _ _ _ _ O) as B; rewrite Forall_forall in B; apply B; eapply nth_error_In; eauto|].
      unfold ord_of. rewrite EO, nth_error_map in X. destruct (nth_error order v) as [q|] eqn:Q; [|discriminate]. injection X as ->. apply nth_error_nth. auto.
    - intros [Hv H]. destruct (IDX v Hv) as (q & Hq & _ & X). rewrite EO, nth_error_map in X. destruct (nth_error order v) as [z|] eqn:Z; [|discriminate]. injection X as ->.
      unfold ord_of in H. rewrite (nth_error_nth _ _ 0 Z) in H. subst. auto. }
  (* orderedNodes_ *)
  assert (G : forall j, j <= n -> exists nodes, foldM (fun l i => o <- rd order i ;; wr l o (Some i)) (seq 0 j) (repeat None n) = Ret nodes /\ length nodes = n /\
     forall i v, nth_error vs i = Some v -> v < j -> nth_error nodes i = Some (Some v)).
  { induction j as [|j IH]; intros Hj; [exists (repeat None n); split; auto; split; [apply repeat_length|lia]|].
    destruct IH as (nodes & F1 & F2 & F3); [lia|]. rewrite seq_S, foldM_app, F1. cbn [bind foldM]. rewrite Nat.add_0_l.
    destruct (IDX j) as (i & Hi & Bi & _); [lia|]. pose proof (proj1 (ON i j) Hi) as [_ OJ]. rewrite (rd_nth _ order j 0) by lia. cbn [bind].
    fold (ord_of order j). rewrite OJ. rewrite wr_Ret by lia. cbn [bind]. eexists. split; [reflexivity|]. split; [rewrite length_upd; auto|].
    intros i' v' Hi' Hv'. destruct (Nat.eq_dec v' j) as [->|N].
    - assert (i' = i) by (apply ON in Hi'; apply ON in Hi; destruct Hi', Hi; congruence). subst. apply nth_error_upd_eq. lia.
    - rewrite nth_error_upd_neq; [apply F3; auto; lia|]. intros ->. rewrite Hi in Hi'. congruence. }
  destruct (G n (le_n _)) as (nodes & F1 & F2 & F3). rewrite F1. cbn [bind].
  assert (EN : nodes = map Some vs).
  { apply (nth_ext _ _ None None); [rewrite map_length; lia|]. intros i Hi. rewrite F2 in Hi. destruct (nth_error vs i) as [v|] eqn:Hv; [|apply nth_error_None in Hv; lia].
    rewrite (nth_error_nth _ _ None (F3 i v Hv ltac:(apply ON in Hv; apply Hv))). symmetry. apply nth_error_nth. rewrite nth_error_map, Hv. auto. }
  rewrite (mapM_get _ _ _ EN). cbn [bind]. exists order, vs. eexists. split; [reflexivity|]. constructor.
  - auto. - auto.
  - intros v Hv. destruct (IDX v Hv) as (i & Hi & Bi & _). pose proof (proj1 (ON i v) Hi) as [_ <-]. auto.
  - intros i Hi. destruct (nth_error vs i) as [v|] eqn:Hv; [|apply nth_error_None in Hv; lia]. exists v. split; auto. apply ON. auto.
  - intros v k1 u1 k2 u2 E1 E2 L1 L2. destruct (edge_bound _ _ _ E1) as (Bv & B1 & _). destruct (edge_bound _ _ _ E2) as (_ & B2 & _).
    apply (parent_unique _ _ _ _ O UL FO v k1 u1 k2 u2 (ord_of order u1) (ord_of order u2) (ord_of order v)); auto; apply ON; auto.
  - rewrite map_length, seq_length. auto.
  - intros v row ks Hv Hr ND HK. rewrite nth_error_map in Hr. rewrite (nth_error_nth' _ 0) in Hr by (rewrite seq_length; auto). rewrite seq_nth in Hr by auto. cbn in Hr.
    injection Hr as <-. rewrite repeat_length. f_equal. rewrite (nth_error_nth _ _ 0 (oi_children _ _ _ _ O v Hv)).
    rewrite <- (map_length (fun e : entry => fst (fst e)) (filter _ E)). apply NoDup_same_length; auto.
    + apply NoDup_map_in. { apply NoDup_filter. pose proof (oi_enodup _ _ _ _ O) as X. eapply NoDup_map_inv; eauto. }
      intros [[ka pa] ca] [[kb pb] cb] Ha Hb X. cbn in X. subst kb. apply filter_In in Ha. apply filter_In in Hb. cbn in Ha, Hb.
      destruct Ha as [Ha Pa], Hb as [Hb Pb]. apply Nat.eqb_eq in Pa, Pb. subst pa pb.
      destruct (oi_edge _ _ _ _ O _ _ _ Ha) as (Ea & _). destruct (oi_edge _ _ _ _ O _ _ _ Hb) as (Eb & _).
      f_equal. destruct Ea as (f1 & G1 & H1). destruct Eb as (f2 & G2 & H2). rewrite G1 in G2. injection G2 as <-.
      destruct (edge_bound ka v ca) as (_ & _ & N1); [exists f1; auto|]. destruct H1 as [H1|H1], H2 as [H2|H2]; rewrite H1 in H2; injection H2; congruence.
    + intros k. rewrite HK, in_map_iff. split.
      * intros ([[k' p] c'] & X & Hf). cbn in X. subst k'. apply filter_In in Hf. cbn in Hf. destruct Hf as [Hf P]. apply Nat.eqb_eq in P. subst p.
        destruct (oi_edge _ _ _ _ O _ _ _ Hf) as (Ee & _ & i & j & Hi & Hj & L). exists c'. split; auto. apply ON in Hi, Hj. destruct Hi as [_ ->], Hj as [_ ->]. auto.
      * intros (c' & Ee & L). exists (k, v, c'). split; auto. apply filter_In. cbn. rewrite Nat.eqb_refl. split; auto.
        destruct (edge_bound _ _ _ Ee) as (_ & Bc & _). apply (child_entry _ _ _ _ O UL FO k v c' (ord_of order v) (ord_of order c')); auto; apply ON; auto.
Qed.
End Order.
