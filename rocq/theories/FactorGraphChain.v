(** Proofs about FactorGraph::isChain. *)
From Coq Require Import Sorted Permutation.
From Verif Require Import Base FactorGraphModel FactorGraphSpec FactorGraphProofs.
#[local] Arguments nth_error : simpl never.

Section C.
Variable g : fgraph.
Hypothesis WF : wf_fgraph g.
Notation nv := (length (g_adj g)).
Notation nf := (length (g_fac g)).
Notation vars := (vars g).
Notation facs := (facs g).

(** Second order factors. *)
Definition inc2 (f v : nat) : Prop := f < nf /\ length (vars f) = 2 /\ In v (vars f).
Definition E2 (v : nat) : list nat := nth_facs g v 2.
Definition other (v f : nat) : nat := match find (fun x => negb (x =? v)) (vars f) with Some x => x | None => v end.

Lemma E2_iff : forall v f, v < nv -> (In f (E2 v) <-> inc2 f v).
Proof.
  intros v f H. unfold E2, nth_facs, inc2. rewrite filter_In, (facs_iff g WF) by auto. rewrite incident_iff, Nat.eqb_eq. tauto.
Qed.
Lemma E2_NoDup : forall v, NoDup (E2 v).
Proof. intros v. apply NoDup_filter, sorted_NoDup, facs_sorted, WF. Qed.
Lemma inc2_lt : forall f v, inc2 f v -> v < nv.
Proof. intros f v [_ [_ H]]. eapply vars_lt; eauto. Qed.

Lemma two_vars : forall f, length (vars f) = 2 -> exists a b, vars f = [a; b] /\ a < b.
Proof.
  intros f H. pose proof (vars_sorted g WF f) as S. destruct (vars f) as [|a [|b [|c l]]] eqn:E; cbn in H; try lia.
  exists a, b. split; auto. apply StronglySorted_inv in S. destruct S as [_ S]. inversion S. auto.
Qed.
Lemma other_spec : forall f v, inc2 f v -> inc2 f (other v f) /\ other v f <> v /\ (forall w, inc2 f w -> w = v \/ w = other v f) /\
  secondVariableOfSecondOrderFactor g v f = Ret (other v f).
Proof.
  intros f v [H1 [H2 H3]]. unfold secondVariableOfSecondOrderFactor. rewrite variablesOfFactor_Ret by auto. cbn [bind].
  unfold inc2, other. destruct (two_vars f H2) as [a [b [E L]]]. rewrite E in *. cbn [find]. destruct H3 as [<-|[<-|[]]].
  - rewrite Nat.eqb_refl. cbn [negb]. destruct (Nat.eqb_spec b a); [lia|]. cbn [negb].
    split; [repeat split; auto; right; left; auto|]. split; [auto|]. split; auto. intros w [_ [_ [W|[W|[]]]]]; auto.
  - destruct (Nat.eqb_spec a b); [lia|]. cbn [negb].
    split; [repeat split; auto; left; auto|]. split; [auto|]. split; auto. intros w [_ [_ [W|[W|[]]]]]; auto.
Qed.
Lemma inc2_vars : forall f a b, inc2 f a -> inc2 f b -> a <> b -> vars f = sorted_pair (a, b).
Proof.
  intros f a b [_ [H Ha]] [_ [_ Hb]] N. destruct (two_vars f H) as [x [y [E L]]]. rewrite E in *. unfold sorted_pair. cbn [fst snd].
  destruct Ha as [<-|[<-|[]]]; destruct Hb as [<-|[<-|[]]]; try congruence.
  - destruct (Nat.ltb_spec x y); [auto|lia]. - destruct (Nat.ltb_spec y x); [lia|auto].
Qed.

(** es are second order factors between neighbours of the sequence. *)
Fixpoint linked (es l : list nat) : Prop :=
  match es, l with
  | [], [_] => True
  | e :: es', a :: ((b :: _) as t) => inc2 e a /\ inc2 e b /\ a <> b /\ linked es' t
  | _, _ => False
  end.
Lemma linked_snoc : forall es l cur f w, linked es (l ++ [cur]) -> inc2 f cur -> inc2 f w -> cur <> w -> linked (es ++ [f]) ((l ++ [cur]) ++ [w]).
Proof.
  induction es as [|e es IH]; intros l cur f w H1 H2 H3 H4.
  - destruct l as [|a [|b l]]; cbn in H1; try tauto. cbn. tauto.
  - destruct l as [|a l]; [cbn in H1; tauto|]. destruct l as [|b l].
    + cbn in H1. destruct es; [|destruct H1 as [_ [_ [_ []]]]]. cbn. tauto.
    + cbn [app linked] in H1. destruct H1 as [A1 [A2 [A3 A4]]]. change ((e :: es) ++ [f]) with (e :: (es ++ [f])).
      cbn [app linked]. repeat split; auto; try apply A1; try apply A2. apply (IH (b :: l)); auto.
Qed.
Lemma linked_in : forall es l f, linked es l -> In f es -> exists es1 es2 l1 l2 a b,
  es = es1 ++ f :: es2 /\ l = l1 ++ a :: b :: l2 /\ length es2 = length l2 /\ inc2 f a /\ inc2 f b.
Proof.
  induction es as [|e es IH]; intros l f H I; [destruct I|]. destruct l as [|a [|b l]]; cbn [linked] in H; try tauto.
  destruct H as [A1 [A2 [A3 A4]]]. destruct I as [->|I].
  - exists [], es, [], l, a, b. repeat split; auto; try apply A1; try apply A2. clear -A4. revert b l A4.
    induction es as [|e es IH]; intros b l H; destruct l as [|c l]; cbn [linked length] in *; try tauto. f_equal. apply (IH c l). tauto.
  - destruct (IH (b :: l) f A4 I) as [es1 [es2 [l1 [l2 [x [y [B1 [B2 [B3 [B4 B5]]]]]]]]]]. exists (e :: es1), es2, (a :: l1), l2, x, y.
    subst. split; auto. split; [cbn [app]; rewrite B2; auto|]. auto.
Qed.
Lemma linked_length : forall es l, linked es l -> length l = S (length es).
Proof. induction es as [|e es IH]; intros [|a [|b l]] H; cbn [linked length] in *; try tauto. f_equal. apply (IH (b :: l)). tauto. Qed.
Lemma linked_links : forall es l, linked es l -> map vars es = links l.
Proof.
  induction es as [|e es IH]; intros [|a [|b l]] H; cbn [linked] in H; try tauto; auto.
  destruct H as [A1 [A2 [A3 A4]]]. unfold links. cbn [tl combine map]. f_equal. { apply inc2_vars; auto. } apply (IH (b :: l)). auto.
Qed.

Section Walk.
Variables e0 e1 : nat.
Hypothesis ends : e0 <> e1 /\ e0 < nv /\ e1 < nv.
Hypothesis only_ends : forall v, v < nv -> length (E2 v) = 1 -> v = e0 \/ v = e1.

Record Walk (vs es : list nat) (cur : nat) : Prop := {
  w_nodup : NoDup (vs ++ [cur]);
  w_linked : linked es (vs ++ [cur]);
  w_closed : forall v f, In v vs -> In f (E2 v) -> In f es;
  w_start : In e0 vs;
  w_end : ~ In e1 vs;
  w_cur : cur < nv;
  w_vs : forall v, In v vs -> v < nv }.

(** The factor that led to [cur]. *)
Lemma last_factor : forall vs es cur, Walk vs es cur -> exists es0 el l0 pred,
  es = es0 ++ [el] /\ vs = l0 ++ [pred] /\ inc2 el pred /\ inc2 el cur /\ forall f, In f es -> inc2 f cur -> f = el.
Proof.
  intros vs es cur W. destruct (exists_last (l := es)) as [es0 [el Ee]].
  { intros ->. pose proof (linked_length _ _ (w_linked _ _ _ W)) as L. rewrite app_length in L. destruct vs; [destruct (w_start _ _ _ W)|cbn in L; lia]. }
  assert (Q : forall f, In f es -> inc2 f cur -> exists l1 a es1, vs = l1 ++ [a] /\ inc2 f a /\ inc2 f cur /\ es = es1 ++ [f]).
  { intros f If Ic. destruct (linked_in es (vs ++ [cur]) f (w_linked _ _ _ W) If) as [es1 [es2 [l1 [l2 [a [b [B1 [B2 [B3 [B4 B5]]]]]]]]]].
    destruct l2 as [|z l2].
    - replace (l1 ++ [a; b]) with ((l1 ++ [a]) ++ [b]) in B2 by (rewrite <- app_assoc; auto). apply app_inj_tail in B2. destruct B2 as [B2 <-].
      destruct es2; [|discriminate]. exists l1, a, es1. auto.
    - exfalso. destruct (exists_last (l := z :: l2)) as [l3 [w E3]]; [discriminate|]. rewrite E3 in B2.
      replace (l1 ++ a :: b :: l3 ++ [w]) with ((l1 ++ a :: b :: l3) ++ [w]) in B2 by (rewrite <- app_assoc; auto). apply app_inj_tail in B2. destruct B2 as [B2 <-].
      pose proof (w_nodup _ _ _ W) as ND. apply NoDup_remove_2 in ND. apply ND. rewrite app_nil_r, B2. apply in_app_iff. right.
      destruct (other_spec f a B4) as [_ [_ [X _]]]. assert (a <> b).
      { intros ->. pose proof (w_nodup _ _ _ W) as ND2. rewrite B2 in ND2. rewrite <- app_assoc in ND2. cbn [app] in ND2. apply NoDup_remove_2 in ND2. apply ND2. apply in_app_iff. right. left. auto. }
      apply X in Ic as X1. apply X in B5 as X2. destruct X1 as [->|X1]; [left; auto|]. destruct X2 as [->|X2]; [tauto|]. right. left. congruence. }
  destruct (linked_in es (vs ++ [cur]) el (w_linked _ _ _ W)) as [es1 [es2 [l1 [l2 [a [b [B1 [B2 [B3 [B4 B5]]]]]]]]]].
  { rewrite Ee. apply in_app_iff. right. left. auto. }
  pose proof (w_linked _ _ _ W) as Lk. apply linked_length in Lk.
  (* the last factor contains cur *)
  assert (Ic : inc2 el cur).
  { clear -Ee W. destruct W as [_ Lk _ _ _ _ _]. revert vs Lk Ee. revert es0. induction es as [|e es IH]; intros es0 vs Lk Ee; [destruct es0; discriminate|].
    destruct vs as [|a vs]; [cbn in Lk; tauto|]. destruct es as [|e' es].
    - destruct vs as [|b vs]; [|cbn [app linked] in Lk; destruct Lk as [_ [_ [_ Lk]]]; destruct (vs ++ [cur]) eqn:X; [destruct vs; discriminate|destruct Lk]].
      cbn [app linked] in Lk. destruct es0 as [|? [|]]; cbn [app] in Ee; inversion Ee; subst. tauto.
    - destruct vs as [|b vs]; [cbn in Lk; tauto|]. destruct es0 as [|x es0]; [destruct es; discriminate|]. cbn [app] in Ee. injection Ee as <- Ee.
      apply (IH es0 (b :: vs)); auto. cbn [app linked] in Lk |- *. tauto. }
  destruct (Q el) as [l0 [pred [es1' [Q1 [Q2 [Q3 Q4]]]]]]; auto. { rewrite Ee. apply in_app_iff. right. left. auto. }
  exists es0, el, l0, pred. repeat split; auto; try apply Q2; try apply Ic. intros f If Icf. destruct (Q f If Icf) as [? [? [es2' [_ [_ [_ Q5]]]]]].
  rewrite Ee in Q5. apply app_inj_tail in Q5. symmetry. tauto.
Qed.

Lemma walk_fresh : forall vs es cur f, Walk vs es cur -> inc2 f cur -> ~ In f es -> ~ In (other cur f) (vs ++ [cur]).
Proof.
  intros vs es cur f W I N H. destruct (other_spec f cur I) as [O1 [O2 [O3 O4]]]. apply in_app_iff in H. destruct H as [H|[H|[]]].
  - apply N. apply (w_closed _ _ _ W) with (other cur f); auto. apply E2_iff; auto. apply inc2_lt in O1. auto.
  - congruence.
Qed.

Lemma walk_bound : forall vs es cur, Walk vs es cur -> cur <> e1 -> length vs + 2 <= nv.
Proof.
  intros vs es cur W N. destruct ends as [_ [_ B]]. pose proof (NoDup_bounded_length (vs ++ [cur] ++ [e1]) nv) as X. rewrite !app_length in X. cbn [length] in X.
  assert (length vs + (1 + 1) <= nv); [|lia]. apply X.
  - rewrite app_assoc. apply NoDup_app_intro; [apply (w_nodup _ _ _ W)|constructor; [intros []|constructor]|].
    intros x Hx [<-|[]]. apply in_app_iff in Hx. destruct Hx as [Hx|[Hx|[]]]; [apply (w_end _ _ _ W Hx)|congruence].
  - intros x Hx. apply in_app_iff in Hx. destruct Hx as [Hx|[<-|[<-|[]]]]; auto; [eapply w_vs; eauto|eapply w_cur; eauto].
Qed.

Lemma walk_step : forall vs es cur f el, Walk vs es cur -> cur <> e1 -> inc2 f cur -> ~ In f es -> In el es ->
  (forall h, In h (E2 cur) -> h = f \/ h = el) -> Walk (vs ++ [cur]) (es ++ [f]) (other cur f).
Proof.
  intros vs es cur f el W N I Nf Il HE. destruct (other_spec f cur I) as [O1 [O2 [O3 O4]]]. pose proof (walk_fresh vs es cur f W I Nf) as F. destruct W. split.
  - apply NoDup_app_intro; auto. { constructor; [intros []|constructor]. } intros x Hx [<-|[]]. auto.
  - apply linked_snoc; auto.
  - intros v h Hv Hh. apply in_app_iff in Hv. apply in_app_iff. destruct Hv as [Hv|[<-|[]]]; [left; eauto|]. apply HE in Hh. destruct Hh as [->| ->]; [right; left; auto|left; auto].
  - apply in_app_iff. auto.
  - intro H. apply in_app_iff in H. destruct H as [H|[H|[]]]; auto.
  - apply inc2_lt in O1. auto.
  - intros v Hv. apply in_app_iff in Hv. destruct Hv as [Hv|[<-|[]]]; auto.
Qed.

Lemma walk_loop : forall fuel vs es cur pred ids, Walk vs es cur -> last vs 0 = pred -> nv < fuel + length vs + 1 ->
  length ids = nv -> firstn (length vs) ids = vs -> nth (nv - 1) ids 0 = e1 ->
  exists o, chain_walk fuel g e1 pred cur (length vs) ids = Ret o /\
    match o with
    | None => exists v, v < nv /\ 2 < length (E2 v)
    | Some (ids', count) => exists vs' es', Walk vs' es' e1 /\ count = length vs' /\ length ids' = nv /\ firstn (length vs') ids' = vs' /\ nth (nv - 1) ids' 0 = e1
    end.
Proof.
  induction fuel as [|fuel IH]; intros vs es cur pred ids W Hp Hf L1 L2 L3.
  - cbn [chain_walk]. destruct (Nat.eqb_spec cur e1) as [->|N].
    + eexists. split; [reflexivity|]. exists vs, es. auto.
    + pose proof (walk_bound _ _ _ W N). lia.
  - cbn [chain_walk]. destruct (Nat.eqb_spec cur e1) as [->|N].
    { eexists. split; [reflexivity|]. exists vs, es. auto. }
    pose proof (walk_bound _ _ _ W N) as B. pose proof (w_cur _ _ _ W) as Hc. rewrite nthOrder_ids by auto. cbn [bind]. rewrite rev_length. fold (E2 cur).
    destruct (Nat.ltb_spec 2 (length (E2 cur))) as [C|C]. { eexists. split; [reflexivity|]. exists cur. auto. }
    rewrite wr_Ret by lia. cbn [bind].
    destruct (last_factor _ _ _ W) as [es0 [el [l0 [pd [A1 [A2 [A3 [A4 A5]]]]]]]].
    assert (Ep : pred = pd). { rewrite <- Hp, A2. apply last_last. } subst pd.
    assert (Iel : In el (E2 cur)) by (apply E2_iff; auto).
    assert (Nc : cur <> e0). { intros ->. pose proof (w_nodup _ _ _ W) as ND. apply NoDup_remove_2 in ND. apply ND. rewrite app_nil_r. apply (w_start _ _ _ W). }
    assert (Two : length (E2 cur) = 2).
    { destruct (E2 cur) as [|x [|y [|z l]]] eqn:EE; cbn [length] in *; auto; try lia; [destruct Iel|].
      destruct (only_ends cur Hc); [rewrite EE; auto| |]; congruence. }
    pose proof (E2_NoDup cur) as ND. destruct (E2 cur) as [|x [|y [|z l]]] eqn:EE; try discriminate. cbn [rev app].
    assert (Nxy : x <> y). { inversion ND as [|? ? H1]. intros ->. apply H1. left; auto. }
    assert (Ix : inc2 x cur) by (apply E2_iff; auto; rewrite EE; left; auto).
    assert (Iy : inc2 y cur) by (apply E2_iff; auto; rewrite EE; right; left; auto).
    change (rd [y; x] 0) with (Ret y). change (rd [y; x] 1) with (Ret x). cbn [bind].
    assert (Nes : forall f, inc2 f cur -> f <> el -> ~ In f es). { intros f H1 H2 H3. apply H2. apply A5; auto. }
    assert (Iel' : In el es) by (rewrite A1; apply in_app_iff; right; left; auto).
    assert (Oel : other cur el = pred).
    { destruct (other_spec el cur A4) as [_ [_ [X _]]]. destruct (X pred A3) as [X1|X1]; auto. exfalso.
      pose proof (w_nodup _ _ _ W) as ND2. apply NoDup_remove_2 in ND2. apply ND2. rewrite app_nil_r, A2, X1. apply in_app_iff. right. left. auto. }
    assert (Next : forall f, inc2 f cur -> f <> el -> (forall h, In h (E2 cur) -> h = f \/ h = el) -> other cur f <> pred /\
      exists o, chain_walk fuel g e1 cur (other cur f) (S (length vs)) (upd ids (length vs) cur) = Ret o /\
      match o with
      | None => exists v, v < nv /\ 2 < length (E2 v)
      | Some (ids', count) => exists vs' es', Walk vs' es' e1 /\ count = length vs' /\ length ids' = nv /\ firstn (length vs') ids' = vs' /\ nth (nv - 1) ids' 0 = e1
      end).
    { intros f If Nf HE. pose proof (walk_fresh _ _ _ f W If (Nes f If Nf)) as Fr. split.
      - intros X. apply Fr. rewrite X, A2. apply in_app_iff. left. apply in_app_iff. right. left. auto.
      - pose proof (walk_step vs es cur f el W N If (Nes f If Nf) Iel' HE) as W'.
        assert (EL : S (length vs) = length (vs ++ [cur])) by (rewrite app_length; cbn; lia). rewrite EL.
        apply (IH (vs ++ [cur]) (es ++ [f])); auto.
        + apply last_last.
        + lia.
        + rewrite length_upd. auto.
        + rewrite <- EL. clear -L2 L1 B. rewrite <- L1 in B. clear L1. revert ids L2 B. induction vs as [|v vs IH]; intros [|i ids] L2 B; cbn [length] in *; try lia; auto.
          cbn [firstn] in L2. injection L2 as -> L2. cbn [upd]. change (firstn (S (S (length vs))) (v :: upd ids (length vs) cur)) with (v :: firstn (S (length vs)) (upd ids (length vs) cur)).
          cbn [app]. f_equal. apply IH; auto. lia.
        + rewrite nth_upd_neq by lia. auto. }
    destruct (other_spec y cur Iy) as [_ [_ [_ Sy]]]. destruct (other_spec x cur Ix) as [_ [_ [_ Sx]]]. rewrite Sy. cbn [bind].
    assert (HE : forall h, In h (E2 cur) -> h = x \/ h = y). { intros h Hh. rewrite EE in Hh. destruct Hh as [H|[H|[]]]; auto. }
    destruct (Nat.eq_dec y el) as [->|Ny].
    + rewrite Oel, Nat.eqb_refl. cbn [negb]. rewrite Sx. cbn [bind]. destruct (Next x) as [X1 X2]; auto.
      destruct (Nat.eqb_spec (other cur x) pred); [congruence|]. cbn [negb]. auto.
    + assert (x = el). { apply E2_iff in A4; auto. apply HE in A4. destruct A4; congruence. } subst x.
      destruct (Next y) as [X1 X2]; auto. { intros h Hh. apply HE in Hh. tauto. }
      destruct (Nat.eqb_spec (other cur y) pred); [congruence|]. cbn [negb]. auto.
Qed.
End Walk.

(** ** Degrees in a chain *)
Definition cnt (v : nat) (L : list (list nat)) : nat := length (filter (existsb (Nat.eqb v)) L).

Lemma filter_length_map : forall A B (h : A -> B) p l, length (filter p (map h l)) = length (filter (fun a => p (h a)) l).
Proof. clear. intros A B h p l. induction l as [|a l IH]; auto. cbn [map filter]. destruct (p (h a)); cbn [length]; auto. Qed.
Lemma fac_map : g_fac g = map vars (seq 0 nf).
Proof.
  apply (nth_ext _ _ [] []). { rewrite map_length, seq_length. auto. } intros n Hn.
  rewrite (nth_indep (map vars (seq 0 nf)) [] (vars 0)) by (rewrite map_length, seq_length; auto). rewrite map_nth, seq_nth by auto. reflexivity.
Qed.
Definition second_order : list nat := filter (fun f => length (vars f) =? 2) (seq 0 nf).
Lemma second_order_map : filter (fun vs => length vs =? 2) (g_fac g) = map vars second_order.
Proof.
  unfold second_order. rewrite fac_map at 1. generalize (seq 0 nf) as l. induction l as [|f l IH]; auto. cbn [map filter]. destruct (length (vars f) =? 2); cbn [map]; congruence.
Qed.
Lemma second_order_iff : forall f, In f second_order <-> f < nf /\ length (vars f) = 2.
Proof. intros f. unfold second_order. rewrite filter_In, in_seq, Nat.eqb_eq. lia. Qed.
Lemma second_order_NoDup : NoDup second_order.
Proof. apply NoDup_filter, seq_NoDup. Qed.

Lemma degree_cnt : forall v, v < nv -> length (E2 v) = cnt v (filter (fun vs => length vs =? 2) (g_fac g)).
Proof.
  intros v H. rewrite second_order_map. unfold cnt. rewrite filter_length_map. apply NoDup_same_length.
  - apply E2_NoDup. - apply NoDup_filter, second_order_NoDup.
  - intros f. rewrite E2_iff by auto. rewrite filter_In, second_order_iff. unfold inc2. rewrite existsb_exists. split.
    + intros [A1 [A2 A3]]. split; auto. exists v. split; auto. apply Nat.eqb_refl.
    + intros [[A1 A2] [w [A3 A4]]]. apply Nat.eqb_eq in A4. subst. auto.
Qed.

Lemma cnt_perm : forall v L1 L2, Permutation L1 L2 -> cnt v L1 = cnt v L2.
Proof.
  clear. intros v L1 L2 H. unfold cnt. induction H as [|x l l' _ IH|x y l|l1 l2 l3 _ IH1 _ IH2]; auto; cbn [filter].
  - destruct (existsb (Nat.eqb v) x); cbn [length]; congruence.
  - destruct (existsb (Nat.eqb v) y), (existsb (Nat.eqb v) x); auto.
  - congruence.
Qed.
Lemma pair_mem : forall v a b, existsb (Nat.eqb v) (sorted_pair (a, b)) = (v =? a) || (v =? b).
Proof. clear. intros v a b. unfold sorted_pair. cbn [fst snd]. destruct (a <? b); cbn [existsb]; destruct (v =? a), (v =? b); auto. Qed.
Lemma links_cons : forall a b c, links (a :: b :: c) = sorted_pair (a, b) :: links (b :: c).
Proof. reflexivity. Qed.
Lemma cnt_links_out : forall c v, ~ In v c -> cnt v (links c) = 0.
Proof.
  clear. induction c as [|a c IH]; intros v H; auto. destruct c as [|b c]; auto. rewrite links_cons. unfold cnt. cbn [filter]. rewrite pair_mem.
  destruct (Nat.eqb_spec v a); [exfalso; apply H; left; auto|]. destruct (Nat.eqb_spec v b); [exfalso; apply H; right; left; auto|]. cbn [orb].
  apply IH. intro X. apply H. right. auto.
Qed.
Lemma cnt_links : forall c v d, NoDup c -> In v c ->
  cnt v (links c) = (if hd d c =? v then 0 else 1) + (if last c d =? v then 0 else 1).
Proof.
  clear. induction c as [|a c IH]; intros v d ND I; [destruct I|]. destruct c as [|b c].
  - destruct I as [->|[]]. cbn. rewrite Nat.eqb_refl. auto.
  - rewrite links_cons. unfold cnt. cbn [filter]. rewrite pair_mem. change (length (filter (existsb (Nat.eqb v)) (links (b :: c)))) with (cnt v (links (b :: c))).
    inversion ND as [|? ? N1 N2]; subst. change (last (a :: b :: c) d) with (last (b :: c) d). cbn [hd].
    assert (La : In (last (b :: c) d) (b :: c)). { clear. revert b. induction c as [|x c IH]; intros b; [left; auto|]. right. apply (IH x). }
    destruct (Nat.eqb_spec v a) as [->|Na].
    + cbn [orb length]. change (length (filter (existsb (Nat.eqb a)) (links (b :: c)))) with (cnt a (links (b :: c))). rewrite cnt_links_out by auto.
      rewrite Nat.eqb_refl. destruct (Nat.eqb_spec (last (b :: c) d) a); [congruence|]. auto.
    + destruct I as [I|I]; [congruence|]. destruct (Nat.eqb_spec a v); [congruence|].
      destruct (Nat.eqb_spec v b) as [->|Nb]; cbn [orb length].
      * change (length (filter (existsb (Nat.eqb b)) (links (b :: c)))) with (cnt b (links (b :: c))). rewrite (IH b d) by auto. cbn [hd]. rewrite Nat.eqb_refl. auto.
      * change (length (filter (existsb (Nat.eqb v)) (links (b :: c)))) with (cnt v (links (b :: c))). rewrite (IH v d) by auto. cbn [hd]. destruct (Nat.eqb_spec b v); [congruence|]. auto.
Qed.

(** ** Detection of the ends *)
Definition ends_of : list nat := filter (fun v => length (E2 v) =? 1) (seq 0 nv).

Lemma detect : forall k a l, a + k = nv -> length l <= 2 ->
  foldO (fun (p : list nat * nat) i =>
         c <- numberOfNthOrderFactorsOfVariable g i 2 ;;
         if c =? 1 then
           if 1 <? snd p then Ret None else e <- wr (fst p) (snd p) i ;; Ret (Some (e, S (snd p)))
         else Ret (Some p)) (seq a k) (l ++ repeat 0 (2 - length l), length l)
  = Ret (let r := l ++ filter (fun v => length (E2 v) =? 1) (seq a k) in
         if length r <=? 2 then Some (r ++ repeat 0 (2 - length r), length r) else None).
Proof.
  induction k as [|k IH]; intros a l Ha Hl.
  - cbn [seq foldO filter]. rewrite app_nil_r. cbv zeta. destruct (Nat.leb_spec (length l) 2); [auto|lia].
  - cbn [seq foldO]. rewrite nthOrder_count by (auto; lia). cbn [bind snd fst]. fold (E2 a). cbn [filter]. destruct (length (E2 a) =? 1).
    + destruct (Nat.ltb_spec 1 (length l)) as [C|C].
      * cbv zeta. cbn [bind]. rewrite app_length. cbn [length]. destruct (Nat.leb_spec (length l + S (length (filter (fun v => length (E2 v) =? 1) (seq (S a) k)))) 2); [lia|auto].
      * rewrite wr_Ret by (rewrite app_length, repeat_length; lia). cbn [bind].
        assert (U : upd (l ++ repeat 0 (2 - length l)) (length l) a = (l ++ [a]) ++ repeat 0 (2 - length (l ++ [a]))).
        { destruct l as [|x [|y l]]; cbn [length] in C; try lia; reflexivity. }
        rewrite U. replace (S (length l)) with (length (l ++ [a])) by (rewrite app_length; cbn; lia).
        rewrite IH; [|lia|rewrite app_length; cbn; lia]. rewrite <- app_assoc. reflexivity.
    + cbn [bind]. apply IH; auto. lia.
Qed.

Lemma first_successor : forall v f, v < nv -> E2 v = [f] ->
  foldM (fun s f => k <- orderOf g f ;; if k =? 2 then x <- secondVariableOfSecondOrderFactor g v f ;; Ret (Some x) else Ret s) (facs v) None = Ret (Some (other v f)).
Proof.
  intros v f Hv E.
  assert (Q : forall l s, (forall x, In x l -> incident g x v) ->
    foldM (fun s f => k <- orderOf g f ;; if k =? 2 then x <- secondVariableOfSecondOrderFactor g v f ;; Ret (Some x) else Ret s) l s
    = Ret (fold_left (fun s f => Some (other v f)) (filter (fun f => length (vars f) =? 2) l) s)).
  { induction l as [|x l IH]; intros s H; auto. cbn [foldM filter]. assert (Ix : incident g x v) by (apply H; left; auto). apply incident_iff in Ix. destruct Ix as [I1 I2].
    rewrite orderOf_Ret by auto. cbn [bind]. destruct (Nat.eqb_spec (length (vars x)) 2) as [C|C].
    - destruct (other_spec x v) as [_ [_ [_ S]]]; [split; auto|]. rewrite S. cbn [bind]. rewrite IH by (intros; apply H; right; auto). reflexivity.
    - cbn [bind]. apply IH. intros; apply H; right; auto. }
  rewrite Q by (intros x Hx; apply (facs_iff g WF); auto). unfold E2, nth_facs in E. rewrite E. reflexivity.
Qed.

(** ** isChain *)
Lemma nth_firstn_lt : forall A (l : list A) n i d, i < n -> nth i (firstn n l) d = nth i l d.
Proof. clear. intros A l. induction l as [|a l IH]; intros [|n] [|i] d H; cbn; auto; try lia. apply IH. lia. Qed.

Lemma neighbours_closed : forall c (S : nat -> Prop), (forall l1 a b l2, c = l1 ++ a :: b :: l2 -> (S a <-> S b)) ->
  (exists x, In x c /\ S x) -> forall y, In y c -> S y.
Proof.
  clear. intros c S H [x [Hx Sx]].
  assert (Q : forall l r, c = l ++ r -> (exists x, In x r /\ S x) -> forall y, In y r -> S y).
  { intros l r. revert l. induction r as [|a r IH]; intros l E [z [Hz Sz]] y Hy; [destruct Hz|].
    destruct r as [|b r]. { destruct Hz as [<-|[]]. destruct Hy as [<-|[]]. auto. }
    assert (AB : S a <-> S b) by (apply (H l a b r); auto).
    assert (Hb : S b). { destruct Hz as [->|Hz]; [tauto|]. apply (IH (l ++ [a])); [rewrite <- app_assoc; auto|eauto|left; auto]. }
    destruct Hy as [<-|Hy]; [tauto|]. apply (IH (l ++ [a])); [rewrite <- app_assoc; auto| |auto]. exists b. split; [left; auto|auto]. }
  intros y Hy. apply (Q [] c); eauto.
Qed.
Lemma links_in : forall l1 a b l2, In (sorted_pair (a, b)) (links (l1 ++ a :: b :: l2)).
Proof.
  clear. induction l1 as [|x l1 IH]; intros a b l2. { left. auto. }
  destruct l1 as [|y l1]; cbn [app]; rewrite links_cons; right. - apply (IH a b l2). - apply (IH a b l2).
Qed.

Lemma isChain_spec : exists o, isChain g = Ret o /\
  match o with Some c => is_chain g c | None => forall c, ~ is_chain g c end.
Proof.
  unfold isChain. change (numberOfVariables g) with nv. destruct (Nat.eqb_spec nv 0) as [Z|Z].
  { exists None. split; auto. intros [|v c] [H1 [_ [H2 _]]]; [congruence|]. destruct (H2 v) as [H _]. specialize (H (or_introl eq_refl)). lia. }
  destruct (maxFactorOrderLe_spec g 2) as [b [Eb Hb]]. rewrite Eb. cbn [bind].
  destruct b; cbn [negb]; [|exists None; split; auto; intros c [_ [_ [_ [H _]]]]; apply Hb in H; discriminate].
  assert (Ord : Forall (fun vs => length vs <= 2) (g_fac g)) by (apply Hb; auto). clear Hb Eb.
  destruct (Nat.eqb_spec nv 1) as [O|O].
  { eexists. split; [reflexivity|]. split; [discriminate|]. split; [constructor; [intros []|constructor]|]. split.
    - intros v. rewrite O. cbn [In]. lia.
    - split; auto. rewrite second_order_map. assert (second_order = []) as ->; [|apply Permutation_refl].
      destruct second_order as [|f l] eqn:E; auto. exfalso. assert (I : In f second_order) by (rewrite E; left; auto). apply second_order_iff in I. destruct I as [I1 I2].
      destruct (two_vars f I2) as [a [b [Ev L]]]. assert (b < nv) by (apply (vars_lt g WF f); rewrite Ev; right; left; auto). lia. }
  pose proof (detect nv 0 [] ltac:(lia) ltac:(cbn; lia)) as D. cbn [app length Nat.sub] in D. rewrite D. clear D. cbn [bind]. cbv zeta. fold ends_of.
  (* a chain has exactly two ends *)
  assert (Ch : forall c, is_chain g c -> exists a b, hd 0 c = a /\ last c 0 = b /\ a <> b /\
     (forall v, In v ends_of <-> v = a \/ v = b) /\ forall v, v < nv -> length (E2 v) <= 2).
  { intros c [H1 [H2 [H3 [H4 H5]]]]. exists (hd 0 c), (last c 0). split; auto. split; auto.
    assert (Lc : length c = nv). { rewrite (NoDup_same_length _ c (seq 0 nv)); auto; [apply seq_length|apply seq_NoDup|]. intros v. rewrite H3, in_seq. lia. }
    assert (Ne : hd 0 c <> last c 0).
    { destruct c as [|x [|y c]]; cbn [length] in Lc; [lia|lia|]. cbn [hd]. intro X. inversion H2 as [|? ? N1 N2]. apply N1. rewrite X. change (last (x :: y :: c) 0) with (last (y :: c) 0).
      clear. revert y. induction c as [|z c IH]; intros y; [left; auto|]. right. apply (IH z). }
    assert (Dg : forall v, v < nv -> length (E2 v) = (if hd 0 c =? v then 0 else 1) + (if last c 0 =? v then 0 else 1)).
    { intros v Hv. rewrite degree_cnt by auto. rewrite (cnt_perm v _ _ H5). apply cnt_links; auto. apply H3. auto. }
    split; auto. split.
    - intros v. unfold ends_of. rewrite filter_In, in_seq, Nat.eqb_eq. split.
      + intros [A1 A2]. rewrite Dg in A2 by lia. destruct (Nat.eqb_spec (hd 0 c) v); [auto|]. destruct (Nat.eqb_spec (last c 0) v); [auto|]. lia.
      + intros A. assert (v < nv).
        { apply H3. destruct A as [->| ->]; destruct c as [|x c]; try congruence; [left; auto|]. clear. revert x. induction c as [|z c IH]; intros y; [left; auto|]. right. apply (IH z). }
        split; [lia|]. rewrite Dg by auto. destruct (Nat.eqb_spec (hd 0 c) v), (Nat.eqb_spec (last c 0) v); try congruence; auto. exfalso. destruct A; congruence.
    - intros v Hv. rewrite Dg by auto. destruct (hd 0 c =? v), (last c 0 =? v); lia. }
  assert (NDe : NoDup ends_of) by (apply NoDup_filter, seq_NoDup).
  assert (Ch2 : forall c, is_chain g c -> length ends_of = 2).
  { intros c Hc. destruct (Ch c Hc) as [a [b [_ [_ [N [X _]]]]]]. rewrite (NoDup_same_length _ ends_of [a; b]); auto.
    - constructor; [intros [|[]]; congruence|constructor; [intros []|constructor]].
    - intros v. rewrite X. cbn [In]. intuition. }
  destruct (Nat.leb_spec (length ends_of) 2) as [L2|L2].
  2: { exists None. split; auto. intros c Hc. apply Ch2 in Hc. lia. }
  destruct (Nat.eqb_spec (length ends_of) 2) as [L|L]; cbn [negb].
  2: { exists None. split; auto. intros c Hc. apply Ch2 in Hc. lia. }
  clear L2 Ch2. rewrite L. cbn [Nat.sub repeat]. rewrite app_nil_r. assert (Em : forall v, In v ends_of <-> v < nv /\ length (E2 v) = 1).
  { intros v. unfold ends_of. rewrite filter_In, in_seq, Nat.eqb_eq. lia. }
  destruct ends_of as [|e0 [|e1 [|? ?]]] eqn:EE; try discriminate. clear L.
  assert (N01 : e0 <> e1). { inversion NDe as [|? ? N1]. intros ->. apply N1. left; auto. }
  destruct (proj1 (Em e0)) as [B0 D0]; [left; auto|]. destruct (proj1 (Em e1)) as [B1 D1]; [right; left; auto|].
  change (rd [e0; e1] 0) with (Ret e0). change (rd [e0; e1] 1) with (Ret e1). cbn [bind].
  rewrite wr_Ret by (rewrite repeat_length; lia). cbn [bind]. rewrite wr_Ret by (rewrite length_upd, repeat_length; lia). cbn [bind].
  rewrite factorsOfVariable_Ret by auto. cbn [bind].
  destruct (E2 e0) as [|f0 [|? ?]] eqn:Ef; try discriminate. rewrite (first_successor e0 f0) by auto. cbn [bind].
  assert (I0 : inc2 f0 e0) by (apply E2_iff; auto; rewrite Ef; left; auto). destruct (other_spec f0 e0 I0) as [O1 [O2 [O3 O4]]].
  assert (OE : forall v, v < nv -> length (E2 v) = 1 -> v = e0 \/ v = e1). { intros v H1 H2. destruct (proj2 (Em v)) as [X|[X|[]]]; auto. }
  assert (W0 : Walk e0 e1 [e0] [f0] (other e0 f0)).
  { split.
    - cbn [app]. constructor; [intros [X|[]]; congruence|constructor; [intros []|constructor]].
    - cbn. repeat split; auto; try apply I0; try apply O1.
    - intros v f [<-|[]] Hf. rewrite Ef in Hf. auto.
    - left; auto.
    - intros [X|[]]; congruence.
    - eapply inc2_lt; eauto.
    - intros v [<-|[]]. auto. }
  set (ids := upd (upd (repeat 0 nv) 0 e0) (nv - 1) e1).
  destruct (walk_loop e0 e1 (conj N01 (conj B0 B1)) OE nv [e0] [f0] (other e0 f0) e0 ids W0) as [o [Eo Po]].
  { auto. } { cbn [length]. lia. } { unfold ids. rewrite !length_upd, repeat_length. auto. }
  { unfold ids. destruct nv as [|[|m]] eqn:En; try lia. reflexivity. }
  { unfold ids. rewrite nth_upd_eq; auto. rewrite length_upd, repeat_length. lia. }
  cbn [length] in Eo. rewrite Eo. cbn [bind]. destruct o as [[ids' count]|].
  2: { exists None. split; auto. intros c Hc. destruct (Ch c Hc) as [a [b [_ [_ [_ [_ X]]]]]]. destruct Po as [v [V1 V2]]. apply X in V1. lia. }
  destruct Po as [vs [es [W [-> [P1 [P2 P3]]]]]].
  (* the visited variables are closed under second order factors *)
  assert (Cl : forall f v, inc2 f v -> In v (vs ++ [e1]) -> In f es).
  { intros f v I H. apply in_app_iff in H. destruct H as [H|[<-|[]]].
    - apply (w_closed _ _ _ _ _ W v); auto. apply E2_iff; auto. eapply inc2_lt; eauto.
    - destruct (last_factor e0 e1 (conj N01 (conj B0 B1)) _ _ _ W) as [es0 [el [l0 [pd [A1 [A2 [A3 [A4 A5]]]]]]]].
      apply E2_iff in I; auto. apply E2_iff in A4; auto. destruct (E2 e1) as [|z [|? ?]]; try discriminate. destruct I as [<-|[]]. destruct A4 as [->|[]].
      rewrite A1. apply in_app_iff. right. left. auto. }
  assert (Cl2 : forall f v, In f es -> inc2 f v -> In v (vs ++ [e1])).
  { intros f v I H. destruct (linked_in _ _ f (w_linked _ _ _ _ _ W) I) as [es1 [es2 [l1 [l2 [a [b [A1 [A2 [A3 [A4 A5]]]]]]]]]].
    rewrite A2. apply in_app_iff. right. destruct (other_spec f a A4) as [_ [_ [X _]]]. assert (a <> b).
    { intros ->. pose proof (w_nodup _ _ _ _ _ W) as ND2. rewrite A2 in ND2. apply NoDup_remove_2 in ND2. apply ND2. apply in_app_iff. right. left. auto. }
    destruct (X v H) as [->|X1]; [left; auto|]. destruct (X b A5) as [->|X2]; [tauto|]. right. left. congruence. }
  assert (Lv : forall v, In v (vs ++ [e1]) -> v < nv).
  { intros v Hv. apply in_app_iff in Hv. destruct Hv as [Hv|[<-|[]]]; auto. eapply w_vs; eauto. }
  destruct (Nat.eqb_spec (length vs) (nv - 1)) as [C|C].
  - exists (Some ids'). split; auto.
    assert (Ei : ids' = vs ++ [e1]).
    { apply (nth_ext _ _ 0 0). { rewrite app_length. cbn [length]. lia. } intros n Hn. destruct (Nat.eq_dec n (nv - 1)) as [->|Nn].
      - rewrite P3. rewrite app_nth2 by lia. rewrite C, Nat.sub_diag. auto.
      - rewrite app_nth1 by lia. rewrite <- P2. rewrite nth_firstn_lt by lia. auto. }
    subst ids'. pose proof (w_nodup _ _ _ _ _ W) as ND.
    assert (Al : forall v, In v (vs ++ [e1]) <-> v < nv).
    { intros v. split; [apply Lv|]. intros Hv.
      assert (Inc : incl (seq 0 nv) (vs ++ [e1])).
      { apply NoDup_length_incl; auto; [rewrite seq_length; lia|]. intros x Hx. apply in_seq. apply Lv in Hx. lia. }
      apply Inc. apply in_seq. lia. }
    split; [destruct vs; discriminate|]. split; auto. split; auto. split; auto.
    rewrite second_order_map, <- (linked_links es) by apply (w_linked _ _ _ _ _ W). apply Permutation_map. apply NoDup_Permutation.
    + apply second_order_NoDup.
    + pose proof (w_linked _ _ _ _ _ W) as Lk. clear -WF Lk ND. revert Lk ND. generalize (vs ++ [e1]) as l. induction es as [|e es IH]; intros l Lk ND; [constructor|].
      destruct l as [|a [|b l]]; cbn [linked] in Lk; try tauto. destruct Lk as [A1 [A2 [A3 A4]]]. inversion ND as [|? ? N1 N2]; subst. constructor; [|apply (IH (b :: l)); auto].
      intros I. destruct (linked_in _ _ e A4 I) as [es1 [es2 [l1 [l2 [x [y [B1 [B2 [B3 [B4 B5]]]]]]]]]].
      destruct (other_spec e a A1) as [_ [_ [X _]]]. destruct (X x B4) as [->|X1]. { apply N1. rewrite B2. apply in_app_iff. right. left. auto. }
      destruct (X y B5) as [->|X2]. { apply N1. rewrite B2. apply in_app_iff. right. right. left. auto. }
      rewrite B2 in N2. apply NoDup_remove_2 in N2. apply N2. apply in_app_iff. right. left. congruence.
    + intros f. rewrite second_order_iff. split.
      * intros [F1 F2]. destruct (two_vars f F2) as [a [b [Ev _]]]. assert (I : inc2 f a) by (split; auto; split; auto; rewrite Ev; left; auto). apply (Cl f a); auto. apply Al. eapply inc2_lt; eauto.
      * intros I. destruct (linked_in _ _ f (w_linked _ _ _ _ _ W) I) as [? [? [? [? [? [? [_ [_ [_ [[Q1 [Q2 _]] _]]]]]]]]]]. auto.
  - exists None. split; auto. intros c Hc. apply C. destruct Hc as [H1 [H2 [H3 [H4 H5]]]].
    assert (All : forall v, In v c -> In v (vs ++ [e1])).
    { apply neighbours_closed.
      - intros l1 a b l2 E. assert (Hin : In (sorted_pair (a, b)) (filter (fun vs => length vs =? 2) (g_fac g))).
        { eapply Permutation_in; [symmetry; exact H5|]. rewrite E. apply links_in. }
        rewrite second_order_map in Hin. apply in_map_iff in Hin. destruct Hin as [f [F1 F2]]. apply second_order_iff in F2. destruct F2 as [F2 F3].
        assert (Ia : inc2 f a). { split; auto. split; auto. rewrite F1. unfold sorted_pair. cbn [fst snd]. destruct (a <? b); cbn; auto. }
        assert (Ib : inc2 f b). { split; auto. split; auto. rewrite F1. unfold sorted_pair. cbn [fst snd]. destruct (a <? b); cbn; auto. }
        split; intros X; (eapply Cl2; [eapply Cl; [|exact X]|]); eauto.
      - exists e0. split; [apply H3; auto|]. apply in_app_iff. left. apply (w_start _ _ _ _ _ W). }
    assert (length (vs ++ [e1]) = nv).
    { rewrite (NoDup_same_length _ (vs ++ [e1]) (seq 0 nv)); [apply seq_length|apply (w_nodup _ _ _ _ _ W)|apply seq_NoDup|].
      intros v. split; [intro Hv; apply in_seq; apply Lv in Hv; lia|]. intros Hv. apply in_seq in Hv. apply All. apply H3. lia. }
    rewrite app_length in H. cbn [length] in H. lia.
Qed.
End C.
