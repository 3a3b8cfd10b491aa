(** Proofs about the decompositions of TRWS: chains and edges. *)
From Coq Require Import Permutation Sorting.Sorted.
From Verif Require Import Base GmView GmViewSpec IcmProofs DmcProofs SwSpec TdModel TdSpec.

Lemma firstn_S_nth : forall (A : Type) (l : list A) k x, nth_error l k = Some x -> firstn (S k) l = firstn k l ++ [x].
Proof. induction l as [|a l IH]; intros [|k] x E; cbn in *; try discriminate; [injection E as ->; auto|]. f_equal. auto. Qed.
Lemma concat_push : forall (A : Type) (l : list (list A)) a x, a < length l -> Permutation (concat (upd l a (nth a l [] ++ [x]))) (concat l ++ [x]).
Proof.
  induction l as [|h l IH]; intros [|a] x H; cbn in *; try lia.
  - rewrite <- !app_assoc. apply Permutation_app_head. apply Permutation_app_comm.
  - rewrite <- app_assoc. apply Permutation_app_head. apply IH. lia.
Qed.
Lemma concat_pop : forall (A : Type) (l : list (list A)) a x es, a < length l -> nth a l [] = x :: es -> Permutation (x :: concat (upd l a es)) (concat l).
Proof.
  induction l as [|h l IH]; intros [|a] x es H E; cbn in *; try lia.
  - subst h. auto.
  - etransitivity; [apply Permutation_middle|]. apply Permutation_app_head. apply IH; auto. lia.
Qed.
Lemma concat_nils : forall (A : Type) (l : list (list A)), (forall a, a < length l -> nth a l [] = []) -> concat l = [].
Proof. induction l as [|h l IH]; intros H; auto. cbn. pose proof (H 0 ltac:(cbn; lia)) as E. cbn in E. subst h. apply IH. intros a Ha. apply (H (S a)). cbn. lia. Qed.
Lemma filter_all : forall (A : Type) (p : A -> bool) l, length (filter p l) = length l <-> forall a, In a l -> p a = true.
Proof.
  intros A p l. assert (LE : forall m, length (filter p m) <= length m) by (induction m as [|b m IHm]; cbn; auto; destruct (p b); cbn; lia). induction l as [|a l IH]; cbn; [split; auto; contradiction|]. destruct (p a) eqn:E; cbn.
  - split; [intros H b [<-|Hb]; auto; apply IH; auto; lia|]. intros H. f_equal. apply IH. auto.
  - split; [intros H; specialize (LE l); lia|]. intros H. rewrite (H a) in E by auto. discriminate.
Qed.

Section Proofs.
Variable T : Type.
Variable g : gmv T.
Hypothesis W : wf_gmv g.
Notation n := (length (v_labels g)).
Notation nf := (length (v_factors g)).

Lemma wf_fac : forall f vis t, nth_error (v_factors g) f = Some (vis, t) -> StronglySorted lt vis /\ forall v, In v vis -> v < n.
Proof. intros f vis t E. destruct W as [WF _]. rewrite Forall_forall in WF. destruct (WF _ (nth_error_In _ _ E)) as [A B]. split; auto. rewrite Forall_forall in B. auto. Qed.
Lemma rd_fac : forall f, f < nf -> exists vis t, nth_error (v_factors g) f = Some (vis, t) /\ rd (v_factors g) f = Ret (vis, t).
Proof. intros f Hf. destruct (nth_error (v_factors g) f) as [[vis t]|] eqn:E; [|apply nth_error_None in E; lia]. exists vis, t. split; auto. unfold rd. rewrite E. auto. Qed.

Definition single (v : nat) (fc : list nat * (list nat -> T)) : bool := match fst fc with [w] => w =? v | _ => false end.
Lemma unaries_ok : td_unaries T g = if forallb (fun v => unaries g v =? 1) (seq 0 n) then Ret tt else Throw.
Proof.
  unfold td_unaries.
  match goal with |- context [foldM ?F _ ?s] => destruct (foldM_upto _ F (fun k c => length c = n /\ forall v, v < n -> nth v c 0 = length (filter (single v) (firstn k (v_factors g)))) nf s) as (c & E & L & H) end.
  - split; [apply repeat_length|]. intros v Hv. cbn. apply nth_repeat.
  - intros f c Hf (L & H). destruct (rd_fac f Hf) as (vis & t & E & ->). cbn [bind]. destruct (wf_fac f vis t E) as [_ HV]. destruct (length vis =? 1) eqn:EL; cbn [negb].
    + apply Nat.eqb_eq in EL. destruct vis as [|w [|? ?]]; try discriminate. change (rd [w] 0) with (Ret w). cbn [bind]. specialize (HV w (or_introl eq_refl)). rewrite (rd_nth _ _ w 0) by lia. cbn [bind]. rewrite wr_Ret by lia. eexists. split; [reflexivity|]. split; [rewrite length_upd; auto|]. intros v Hv. rewrite (firstn_S_nth _ _ _ _ E), filter_app, app_length. cbn [filter]. change (single v ([w], t)) with (w =? v). destruct (Nat.eq_dec v w) as [->|D].
      * rewrite nth_upd_eq by lia. rewrite Nat.eqb_refl. rewrite H by auto. cbn. lia.
      * rewrite nth_upd_neq by auto. replace (w =? v) with false by (symmetry; apply Nat.eqb_neq; auto). rewrite H by auto. cbn. lia.
    + eexists. split; [reflexivity|]. split; auto. intros v Hv. rewrite (firstn_S_nth _ _ _ _ E), filter_app, app_length. rewrite H by auto. cbn [filter]. change (single v (vis, t)) with (match vis with [w] => w =? v | _ => false end). destruct vis as [|w [|? ?]]; [cbn; lia|discriminate|cbn; lia].
  - rewrite E. cbn [bind]. rewrite firstn_all in H. destruct (length (filter (fun k => k =? 1) c) =? length c) eqn:EL.
    + apply Nat.eqb_eq in EL. rewrite filter_all in EL. assert (X : forallb (fun v => unaries g v =? 1) (seq 0 n) = true). { apply forallb_forall. intros v Hv. apply in_seq in Hv. cbn in Hv. change (unaries g v) with (length (filter (single v) (v_factors g))). rewrite <- H by lia. apply EL. apply nth_In. lia. } rewrite X. auto.
    + destruct (forallb (fun v => unaries g v =? 1) (seq 0 n)) eqn:X; auto. exfalso. apply Nat.eqb_neq in EL. apply EL. apply filter_all. intros k Hk. destruct (In_nth _ _ 0 Hk) as (v & Hv & <-). rewrite H by lia. rewrite forallb_forall in X. apply (X v). apply in_seq. lia.
Qed.

Definition lonely (v : nat) : bool := forallb (fun f => match nth_error (v_factors g) f with Some (vis, _) => negb (1 <? length vis) | None => true end) (v_adj T g v).
Lemma lonely_spec : forall v, lonely v = true <-> forall w, ~ touching g v w.
Proof.
  intros v. unfold lonely. rewrite forallb_forall. split.
  - intros H w (D & [vis t] & I & A & B). destruct (In_nth_error _ _ I) as (f & E). assert (X : In f (v_adj T g v)) by (apply v_adj_spec; exists (vis, t); auto). specialize (H f X). rewrite E in H. cbn in *. destruct vis as [|x [|y r]]; cbn in *; [contradiction| |discriminate]. destruct A; [|contradiction]. destruct B; [|contradiction]. congruence.
  - intros H f Hf. apply v_adj_spec in Hf. destruct Hf as ([vis t] & E & I). rewrite E. destruct (1 <? length vis) eqn:L; auto. exfalso. cbn in I. destruct (wf_fac f vis t E) as [SS _]. destruct vis as [|x [|y r]]; cbn in L; try discriminate. inversion SS as [|? ? _ F]; subst. inversion F as [|? ? XY _]; subst.
    destruct (Nat.eq_dec x v) as [EX|D].
    + subst x. apply (H y). split; [lia|]. exists (v :: y :: r, t). split; [eapply nth_error_In; eauto|]. cbn. auto.
    + apply (H x). split; [auto|]. exists (x :: y :: r, t). split; [eapply nth_error_In; eauto|]. cbn. auto.
Qed.
Lemma isolated_ok : td_isolated T g = Ret (map (fun v => ([v], [])) (filter lonely (seq 0 n))).
Proof.
  unfold td_isolated. match goal with |- foldM ?F _ ?s = _ => destruct (foldM_upto _ F (fun k subs => subs = map (fun v => ([v], [])) (filter lonely (seq 0 k))) n s) as (subs & E & H) end; [reflexivity| |rewrite E, H; auto].
  intros v subs Hv ->. assert (G : forall l b, (forall f, In f l -> f < nf) -> foldM (fun iso f => ' (vis, _) <- rd (v_factors g) f ;; Ret (if 1 <? length vis then false else iso)) l b = Ret (b && forallb (fun f => match nth_error (v_factors g) f with Some (vis, _) => negb (1 <? length vis) | None => true end) l)).
  { induction l as [|f l IH]; intros b HL; cbn [foldM forallb]; [rewrite andb_true_r; auto|]. destruct (rd_fac f (HL f (or_introl eq_refl))) as (vis & t & E & ->). cbn [bind]. rewrite IH by (intros; apply HL; right; auto). rewrite E. destruct (1 <? length vis); cbn; auto. rewrite andb_false_r. auto. }
  rewrite G by (intros f Hf; apply v_adj_spec in Hf; destruct Hf as (fc & E & _); apply nth_error_Some; congruence). cbn [bind andb]. fold (lonely v). eexists. split; [reflexivity|]. rewrite seq_S, filter_app, map_app. cbn. destruct (lonely v); cbn; auto. rewrite app_nil_r. auto.
Qed.

Definition edges_ok (l : list (list (nat * nat))) : Prop := length l = n /\ forall a f b, a < n -> In (f, b) (nth a l []) -> exists t, nth_error (v_factors g) f = Some ([a; b], t).
Definition is_pair (f : nat) : bool := match nth_error (v_factors g) f with Some ([_; _], _) => true | _ => false end.
Hypothesis O : forall fc, In fc (v_factors g) -> 1 <= length (fst fc).
Lemma nodes_ok : (forall fc, In fc (v_factors g) -> length (fst fc) <= 2) -> exists l, td_nodes T g = Ret l /\ edges_ok l /\ Permutation (map fst (concat l)) (pairwise g).
Proof.
  intros O2. unfold td_nodes. match goal with |- context [foldM ?F _ ?s] => destruct (foldM_upto _ F (fun k l => edges_ok l /\ Permutation (map fst (concat l)) (filter is_pair (seq 0 k))) nf s) as (l & E & A & B) end.
  - split; [|cbn; rewrite concat_nils; [constructor|intros a Ha; apply nth_repeat]]. split; [apply repeat_length|]. intros a f b Ha H. rewrite nth_repeat in H. contradiction.
  - intros f l Hf ((L & H) & P). destruct (rd_fac f Hf) as (vis & t & E & ->). cbn [bind]. destruct (wf_fac f vis t E) as [SS HV]. specialize (O _ (nth_error_In _ _ E)). specialize (O2 _ (nth_error_In _ _ E)). cbn in O, O2. rewrite seq_S, filter_app. cbn [filter Nat.add]. unfold is_pair at 2. rewrite E.
    destruct vis as [|a [|b [|? ?]]]; cbn in O, O2; try lia.
    + change (2 <? length [a]) with false. change (length [a] =? 1) with true. cbv iota. eexists. split; [reflexivity|]. rewrite app_nil_r. split; auto. split; auto.
    + change (2 <? length [a; b]) with false. change (length [a; b] =? 1) with false. cbv iota. change (rd [a; b] 0) with (Ret a). change (rd [a; b] 1) with (Ret b). cbn [bind]. inversion SS as [|? ? _ F]; subst. inversion F as [|? ? AB _]; subst. assert (X : (a <? b) = true) by (apply Nat.ltb_lt; auto). rewrite X. assert (Ha : a < n) by (apply HV; left; auto). rewrite (rd_nth _ _ a []) by lia. cbn [bind]. rewrite wr_Ret by lia. eexists. split; [reflexivity|]. split.
      * split; [rewrite length_upd; auto|]. intros a' f' b' Ha' I. destruct (Nat.eq_dec a' a) as [->|D]; [|rewrite nth_upd_neq in I by auto; eauto]. rewrite nth_upd_eq in I by lia. apply in_app_or in I. destruct I as [I|[I|[]]]; [eauto|]. injection I as <- <-. eauto.
      * etransitivity; [apply Permutation_map; apply concat_push; lia|]. rewrite map_app. cbn. apply Permutation_app_tail. auto.
  - exists l. auto.
Qed.

Lemma walk_ok : forall fuel l start, length (concat l) <= fuel -> edges_ok l -> start < n -> exists vs fs l', td_walk fuel l start = Ret (vs, fs, l') /\ edges_ok l' /\ Permutation (fs ++ map fst (concat l')) (map fst (concat l)) /\ chain g start vs fs /\ (nth start l [] <> [] -> fs <> []) /\ forall a, nth a l [] = [] -> nth a l' [] = [].
Proof.
  induction fuel as [|fuel IH]; intros l start LF EO Hs; pose proof EO as [L H]; cbn [td_walk]; rewrite (rd_nth _ _ start []) by lia; cbn [bind]; destruct (nth start l []) as [|[f w] es] eqn:E.
  - exists [], [], l. repeat split; auto.
  - exfalso. pose proof (Permutation_length (concat_pop _ l start _ es ltac:(lia) E)) as X. cbn in X. lia.
  - exists [], [], l. repeat split; auto.
  - destruct (H start f w Hs) as (t & EF); [rewrite E; left; auto|]. destruct (wf_fac f _ _ EF) as [SS HV]. inversion SS as [|? ? _ F]; subst. inversion F as [|? ? AB _]; subst. pose proof (concat_pop _ l start _ es ltac:(lia) E) as PP. rewrite wr_Ret by lia. cbn [bind].
    destruct (IH (upd l start es) w) as (vs & fs & l' & E1 & EO' & P & C & _ & N).
    + pose proof (Permutation_length PP) as X. cbn in X. lia.
    + split; [rewrite length_upd; auto|]. intros a f' b Ha I. destruct (Nat.eq_dec a start) as [->|D]; [rewrite nth_upd_eq in I by lia; apply (H start f' b Hs); rewrite E; right; auto|rewrite nth_upd_neq in I by auto; eauto].
    + apply HV. right. left. auto.
    + rewrite E1. cbn [bind]. exists (w :: vs), (f :: fs), l'. split; auto. split; auto. split; [|split; [cbn; eauto|split; [discriminate|]]].
      * etransitivity; [|apply Permutation_map; exact PP]. cbn. apply perm_skip. auto.
      * intros a Ea. apply N. destruct (Nat.eq_dec a start) as [->|D]; [rewrite E in Ea; discriminate|]. rewrite nth_upd_neq by auto. auto.
Qed.
Lemma from_ok : forall fuel l start, length (concat l) <= fuel -> length (concat l) <= nf -> edges_ok l -> start < n -> exists subs l', td_from T g fuel l start = Ret (subs, l') /\ edges_ok l' /\ Permutation (concat (map snd subs) ++ map fst (concat l')) (map fst (concat l)) /\ Forall (is_chain g) subs /\ nth start l' [] = [] /\ forall a, nth a l [] = [] -> nth a l' [] = [].
Proof.
  induction fuel as [|fuel IH]; intros l start LF LN EO Hs; pose proof EO as [L H]; cbn [td_from]; rewrite (rd_nth _ _ start []) by lia; cbn [bind]; destruct (nth start l []) as [|[f w] es] eqn:E.
  - exists [], l. repeat split; auto.
  - exfalso. pose proof (Permutation_length (concat_pop _ l start _ es ltac:(lia) E)) as X. cbn in X. lia.
  - exists [], l. repeat split; auto.
  - destruct (walk_ok nf l start LN EO Hs) as (vs & fs & l1 & E1 & EO1 & P1 & C1 & N1 & K1). rewrite E1. cbn [bind]. destruct fs as [|f1 fs]; [exfalso; apply N1; auto; rewrite E; discriminate|]. pose proof (Permutation_length P1) as PL. rewrite app_length, !map_length in PL. cbn in PL.
    destruct (IH l1 start ltac:(lia) ltac:(lia) EO1 Hs) as (subs & l' & E2 & EO2 & P2 & C2 & N2 & K2). rewrite E2. cbn [bind]. exists ((start :: vs, f1 :: fs) :: subs), l'. split; auto. split; auto. split; [|split; [constructor; auto; exists start, vs, f1, fs; auto|split; auto]].
    cbn [map concat snd]. rewrite <- app_assoc. etransitivity; [apply Permutation_app_head; exact P2|]. exact P1.
Qed.
Theorem chains_ok : (forall v, v < n -> unaries g v = 1) -> (forall fc, In fc (v_factors g) -> length (fst fc) <= 2) ->
  exists lones chains, td_chains T g = Ret (map (fun v => ([v], [])) lones ++ chains) /\ StronglySorted lt lones /\ (forall v, In v lones <-> v < n /\ forall w, ~ touching g v w) /\ Forall (is_chain g) chains /\ Permutation (concat (map snd chains)) (pairwise g).
Proof.
  intros U O2. unfold td_chains. rewrite unaries_ok. assert (X : forallb (fun v => unaries g v =? 1) (seq 0 n) = true) by (apply forallb_forall; intros v Hv; apply in_seq in Hv; apply Nat.eqb_eq; apply U; lia). rewrite X. cbn [bind]. rewrite isolated_ok. cbn [bind]. destruct (nodes_ok O2) as (l & -> & EO & PL). cbn [bind]. set (lones := filter lonely (seq 0 n)).
  match goal with |- context [foldM ?F _ ?s] => destruct (foldM_upto _ F (fun k st => exists chains, fst st = map (fun v => ([v], [])) lones ++ chains /\ edges_ok (snd st) /\ Forall (is_chain g) chains /\ Permutation (concat (map snd chains) ++ map fst (concat (snd st))) (pairwise g) /\ forall a, a < k -> nth a (snd st) [] = []) n s) as ([subs l'] & E & chains & A & B & C & D & N) end.
  - exists []. cbn [fst snd map concat app]. rewrite app_nil_r. split; auto. split; auto. split; auto. split; auto. intros; lia.
  - intros k [subs l0] Hk (chains & A & B & C & D & N). cbn [fst snd] in *. assert (LN : length (concat l0) <= nf). { pose proof (Permutation_length D) as PD. rewrite app_length, map_length in PD. assert (LE : length (pairwise g) <= nf). { unfold pairwise. rewrite <- (seq_length nf 0) at 2. generalize (seq 0 nf). clear. intros m. induction m as [|a m IH]; cbn; auto. destruct (nth_error _ a) as [[[|? [|? [|? ?]]] ?]|]; cbn; lia. } lia. }
    destruct (from_ok nf l0 k LN LN B Hk) as (s1 & l1 & E1 & B1 & P1 & C1 & N1 & K1). rewrite E1. cbn [bind]. eexists. split; [reflexivity|]. cbn [fst snd]. exists (chains ++ s1). split; [rewrite A, app_assoc; auto|]. split; auto. split; [apply Forall_app; auto|]. split.
    + rewrite map_app, concat_app, <- app_assoc. etransitivity; [apply Permutation_app_head; exact P1|]. auto.
    + intros a Ha. destruct (Nat.eq_dec a k) as [->|Dk]; auto. apply K1. apply N. lia.
  - rewrite E. cbn [bind fst snd] in *. exists lones, chains. split; [rewrite A; auto|]. split; [|split; [|split; auto]].
    + unfold lones. assert (SS : forall m i, StronglySorted lt (filter lonely (seq i m))). { induction m as [|m IH]; intros i; cbn; [constructor|]. destruct (lonely i); auto. constructor; auto. apply Forall_forall. intros v Hv. apply filter_In in Hv. destruct Hv as [Hv _]. apply in_seq in Hv. lia. } apply SS.
    + intros v. unfold lones. rewrite filter_In, in_seq, lonely_spec. split; intros [Y Z]; split; auto; lia.
    + rewrite (concat_nils _ l') in D; [cbn in D; rewrite app_nil_r in D; auto|]. destruct B as [B _]. intros a Ha. apply N. lia.
Qed.

Theorem variables_ok : forall subs init, (forall s v, In s subs -> In v (fst s) -> v < n) -> exists out, td_variables n subs init = Ret out /\ length out = n /\
  forall v, v < n -> nth v out [] = nth v init [] ++ filter (fun p => nth (snd p) (nth (fst p) (map fst subs) []) 0 =? v) (positions subs).
Proof.
  intros subs init HV. unfold td_variables.
  match goal with |- context [foldM ?F _ ?s] => destruct (foldM_upto _ F (fun m out => length out = n /\ forall v, v < n -> nth v out [] = nth v init [] ++ filter (fun p => nth (snd p) (nth (fst p) (map fst subs) []) 0 =? v) (concat (map (fun m => map (pair m) (seq 0 (length (nth m (map fst subs) [])))) (seq 0 m)))) (length subs) s) as (out & E & A) end; [| |exists out; auto].
  - split; [rewrite app_length, firstn_length, repeat_length; lia|]. intros k Hk. cbn. rewrite app_nil_r. destruct (Nat.lt_ge_cases k (length init)) as [X|X].
    + rewrite app_nth1 by (rewrite firstn_length; lia). rewrite <- (firstn_skipn n init) at 2. rewrite app_nth1 by (rewrite firstn_length; lia). auto.
    + rewrite app_nth2 by (rewrite firstn_length; lia). rewrite (nth_overflow init) by auto. apply nth_repeat.
  - intros m out Hm (L & H). rewrite (rd_nth _ _ m []) by (rewrite map_length; auto). cbn [bind]. set (vars := nth m (map fst subs) []) in *.
    assert (VV : forall v, In v vars -> v < n). { intros v Hv. assert (X : In vars (map fst subs)) by (apply nth_In; rewrite map_length; auto). apply in_map_iff in X. destruct X as (s & <- & Hs). eauto. }
    match goal with |- context [foldM ?F _ ?s] => destruct (foldM_upto _ F (fun i o => length o = n /\ forall v, v < n -> nth v o [] = nth v out [] ++ filter (fun p => nth (snd p) (nth (fst p) (map fst subs) []) 0 =? v) (map (pair m) (seq 0 i))) (length vars) s) as (out' & E & L' & A) end.
    + split; auto. intros v Hv. cbn. rewrite app_nil_r. auto.
    + intros i o Hi (LO & HO). rewrite (rd_nth _ _ i 0) by auto. cbn [bind]. assert (Hw : nth i vars 0 < n) by (apply VV; apply nth_In; auto). set (w := nth i vars 0) in *. rewrite (rd_nth _ _ w []) by lia. cbn [bind]. rewrite wr_Ret by lia. eexists. split; [reflexivity|]. split; [rewrite length_upd; auto|]. intros v Hv. rewrite seq_S, map_app, filter_app. cbn. fold vars. fold w. destruct (Nat.eq_dec v w) as [->|D].
      * rewrite nth_upd_eq by lia. rewrite Nat.eqb_refl. rewrite HO by auto. rewrite <- app_assoc. auto.
      * rewrite nth_upd_neq by auto. replace (w =? v) with false by (symmetry; apply Nat.eqb_neq; auto). rewrite HO by auto. rewrite app_nil_r. auto.
    + rewrite E. eexists. split; [reflexivity|]. split; auto. intros v Hv. rewrite A, H by auto. rewrite seq_S, map_app, concat_app, filter_app. cbn. rewrite app_nil_r. fold vars. rewrite <- app_assoc. auto.
Qed.
End Proofs.
