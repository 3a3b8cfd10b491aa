(** Proofs about the decompositions of TRWS: exceptions, edges and grids. *)
From Coq Require Import Permutation Sorting.Sorted.
From Verif Require Import Base GmView GmViewSpec DmcProofs SwEdge TdModel TdSpec TdProofs.

Lemma filter_index : forall (A : Type) (p : A -> bool) (l : list A), length (filter (fun i => match nth_error l i with Some x => p x | None => false end) (seq 0 (length l))) = length (filter p l).
Proof.
  intros A p l. induction l as [|x l IH] using rev_ind; auto. rewrite app_length. cbn [length]. rewrite Nat.add_1_r, seq_S, !filter_app, !app_length. cbn [Nat.add filter]. rewrite nth_error_app2 by lia. rewrite Nat.sub_diag. cbn [nth_error]. rewrite <- IH. f_equal; [|destruct (p x); auto].
  f_equal. apply filter_ext_in. intros i Hi. apply in_seq in Hi. rewrite nth_error_app1 by lia. auto.
Qed.
Lemma sum_one : forall w (h : nat -> nat) m i, list_sum (map (fun v => (if w =? v then 1 else 0) + h v) (seq i m)) = (if (i <=? w) && (w <? i + m) then 1 else 0) + list_sum (map h (seq i m)).
Proof.
  intros w h. induction m as [|m IH]; intros i; cbn [seq map list_sum fold_right].
  - destruct (Nat.leb_spec i w); destruct (Nat.ltb_spec w (i + 0)); cbn; auto; lia.
  - change (fold_right Nat.add 0) with list_sum. rewrite IH. destruct (Nat.eqb_spec w i); destruct (Nat.leb_spec (S i) w); destruct (Nat.ltb_spec w (S i + m)); destruct (Nat.leb_spec i w); destruct (Nat.ltb_spec w (i + S m)); cbn; lia.
Qed.
Lemma foldM_unit : forall (A : Type) (h : A -> outcome unit) l, foldM (fun _ a => h a) l tt = Ret tt -> forall a, In a l -> h a = Ret tt.
Proof.
  intros A h. induction l as [|b l IH]; intros E a Ha; [contradiction|]. cbn [foldM] in E. destruct (h b) as [[]| | |] eqn:EB; cbn [bind] in E; try discriminate. destruct Ha as [<-|Ha]; auto.
Qed.
Lemma foldM_unit_ok : forall (A : Type) (h : A -> outcome unit) l, (forall a, In a l -> h a = Ret tt) -> foldM (fun _ a => h a) l tt = Ret tt.
Proof. intros A h. induction l as [|b l IH]; intros H; auto. cbn [foldM]. rewrite (H b) by (left; auto). cbn [bind]. apply IH. intros a Ha. apply H. right. auto. Qed.
Lemma steps_map : forall k a d, td_steps a d k = map (fun i => a + i * d) (seq 0 k).
Proof. induction k as [|k IH]; intros a d; cbn [td_steps seq map]; auto. f_equal; [lia|]. rewrite IH, <- seq_shift, map_map. apply map_ext. intros i. cbn. lia. Qed.
Lemma concat_const : forall (A B : Type) (f : A -> list B) k l, (forall a, In a l -> length (f a) = k) -> length (concat (map f l)) = length l * k.
Proof. intros A B f k. induction l as [|a l IH]; intros H; auto. cbn. rewrite app_length, IH by (intros; apply H; right; auto). rewrite (H a) by (left; auto). auto. Qed.
Lemma nth_map_seq0 : forall (f : nat -> nat) k i, i < k -> nth i (map f (seq 0 k)) 0 = f i.
Proof. intros f k i H. rewrite nth_indep with (d' := f 0) by (rewrite map_length, seq_length; auto). rewrite map_nth, seq_nth by auto. auto. Qed.

Section Proofs.
Variable T : Type.
Variable g : gmv T.
Hypothesis W : wf_gmv g.
Notation n := (length (v_labels g)).
Notation nf := (length (v_factors g)).

Lemma unaries_throw : forall v, v < n -> unaries g v <> 1 -> td_unaries T g = Throw.
Proof. intros v Hv D. rewrite (unaries_ok T g W). destruct (forallb _ _) eqn:E; auto. rewrite forallb_forall in E. exfalso. apply D. apply Nat.eqb_eq. apply E. apply in_seq. lia. Qed.
Lemma unaries_ret : (forall v, v < n -> unaries g v = 1) -> td_unaries T g = Ret tt.
Proof. intros U. rewrite (unaries_ok T g W). assert (X : forallb (fun v => unaries g v =? 1) (seq 0 n) = true) by (apply forallb_forall; intros v Hv; apply in_seq in Hv; apply Nat.eqb_eq; apply U; lia). rewrite X. auto. Qed.
Theorem chains_throw : (forall fc, In fc (v_factors g) -> 1 <= length (fst fc)) -> ((exists v, v < n /\ unaries g v <> 1) \/ exists fc, In fc (v_factors g) /\ 2 < length (fst fc)) -> td_chains T g = Throw.
Proof.
  intros O H. unfold td_chains. destruct (forallb (fun v => unaries g v =? 1) (seq 0 n)) eqn:E.
  2:{ rewrite (unaries_ok T g W), E. auto. }
  destruct H as [(v & Hv & D)|(fc & I & L)]. { rewrite (unaries_throw v Hv D). auto. }
  rewrite (unaries_ok T g W), E. cbn [bind]. rewrite (isolated_ok T g). cbn [bind]. assert (X : td_nodes T g = Throw); [|rewrite X; auto]. unfold td_nodes.
  match goal with |- foldM ?F _ ?s = _ => destruct (foldM_throw _ F (fun k l => length l = n /\ forall f fc, f < k -> nth_error (v_factors g) f = Some fc -> length (fst fc) <= 2) True nf s) as [[E1 _]|(l & E1 & _ & H)] end; auto.
  - split; [apply repeat_length|]. intros; lia.
  - intros f l Hf (LL & H). destruct (rd_fac T g f Hf) as (vis & t & EF & ->). cbn [bind]. destruct (wf_fac T g W f vis t EF) as [_ HV]. specialize (O _ (nth_error_In _ _ EF)). cbn in O. destruct (2 <? length vis) eqn:E2; [left; auto|]. apply Nat.ltb_ge in E2. right.
    assert (H' : forall f' fc', f' < S f -> nth_error (v_factors g) f' = Some fc' -> length (fst fc') <= 2). { intros f' fc' Hf' E'. destruct (Nat.eq_dec f' f) as [->|D]; [rewrite EF in E'; injection E' as <-; auto|apply (H f'); auto; lia]. }
    destruct vis as [|a [|b [|? ?]]]; cbn in O, E2; try lia. { eexists. split; [reflexivity|]. auto. }
    change (length [a; b] =? 1) with false. cbv iota. change (rd [a; b] 0) with (Ret a). change (rd [a; b] 1) with (Ret b). cbn [bind]. assert (Ha : a < n) by (apply HV; left; auto). assert (Hb : b < n) by (apply HV; right; left; auto). destruct (a <? b).
    + rewrite (rd_nth _ _ a []) by lia. cbn [bind]. rewrite wr_Ret by lia. eexists. split; [reflexivity|]. rewrite length_upd. auto.
    + rewrite (rd_nth _ _ b []) by lia. cbn [bind]. rewrite wr_Ret by lia. eexists. split; [reflexivity|]. rewrite length_upd. auto.
  - exfalso. destruct (In_nth_error _ _ I) as (f & EF). assert (Hf : f < nf) by (apply nth_error_Some; congruence). specialize (H f fc Hf EF). lia.
Qed.

Lemma counting : (forall v, v < n -> unaries g v = 1) -> (forall fc, In fc (v_factors g) -> 1 <= length (fst fc) <= 2) -> nf = n + length (pairwise g).
Proof.
  intros U O. destruct W as [WF _]. rewrite Forall_forall in WF. assert (P : length (pairwise g) = length (filter (fun fc => match fst fc with [_; _] => true | _ => false end) (v_factors g))).
  { rewrite <- filter_index. unfold pairwise. f_equal. apply filter_ext_in. intros f _. destruct (nth_error (v_factors g) f) as [[vis t]|]; auto. }
  assert (S1 : list_sum (map (unaries g) (seq 0 n)) = n). { rewrite (map_ext_in _ (fun _ => 1)) by (intros v Hv; apply in_seq in Hv; apply U; lia). assert (Z : forall m i, list_sum (map (fun _ : nat => 1) (seq i m)) = m) by (induction m as [|m IHm]; intros i; cbn; auto; f_equal; apply IHm). apply Z. }
  rewrite P. rewrite <- S1 at 1. unfold unaries. clear P S1 U. revert WF O. induction (v_factors g) as [|[vis t] L IH]; intros WF O.
  - cbn. assert (Z : forall m i, list_sum (map (fun _ : nat => 0) (seq i m)) = 0) by (induction m; intros; cbn; auto). rewrite Z. auto.
  - specialize (IH (fun fc H => WF fc (or_intror H)) (fun fc H => O fc (or_intror H))). destruct (WF _ (or_introl eq_refl)) as [_ F]. specialize (O _ (or_introl eq_refl)). cbn in O, F. rewrite Forall_forall in F. destruct vis as [|w [|w' [|? ?]]]; cbn in O; try lia.
    + cbn [filter fst]. rewrite (map_ext _ (fun v => (if w =? v then 1 else 0) + length (filter (fun fc => match fst fc with [w0] => w0 =? v | _ => false end) L))) by (intros v; destruct (w =? v); auto). rewrite sum_one. assert (Hw : w < n) by (apply F; left; auto). replace ((0 <=? w) && (w <? 0 + n)) with true by (symmetry; apply andb_true_iff; split; [apply Nat.leb_le; lia|apply Nat.ltb_lt; lia]). cbn [length]. lia.
    + cbn [filter fst length]. lia.
Qed.
Theorem edges_ret : (forall v, v < n -> unaries g v = 1) -> (forall fc, In fc (v_factors g) -> 1 <= length (fst fc) <= 2) -> exists subs, td_edges T g = Ret subs /\ Forall (is_chain g) subs /\ map snd subs = map (fun f => [f]) (pairwise g).
Proof.
  intros U O. unfold td_edges. rewrite unaries_ret by auto. cbn [bind]. pose proof (counting U O) as C. set (edge := fun f => (match nth_error (v_factors g) f with Some (vis, _) => vis | None => [] end, [f])). set (pw := fun k => filter (is_pair T g) (seq 0 k)). assert (PW : pairwise g = pw nf) by reflexivity.
  assert (PS : forall k, pw (S k) = pw k ++ if is_pair T g k then [k] else []) by (intros k; unfold pw; rewrite seq_S, filter_app; cbn; destruct (is_pair T g k); auto).
  assert (PLE : forall i j, i <= j -> length (pw i) <= length (pw j)) by (intros i j H; induction H; auto; rewrite PS, app_length; lia).
  assert (UA : forall (A : Type) (a : list A) x y r k, k = length a -> upd (a ++ x :: r) k y = a ++ y :: r) by (clear; intros A a x y r k ->; induction a as [|b a IH]; cbn; auto; f_equal; auto).
  replace (nf - n) with (length (pw nf)) by (rewrite <- PW; lia).
  match goal with |- context [foldM ?F _ ?s] => destruct (foldM_upto _ F (fun k st => st = (map edge (pw k) ++ repeat ([0; 0], [0]) (length (pw nf) - length (pw k)), length (pw k))) nf s) as (st & E & A) end.
  - cbn. rewrite Nat.sub_0_r. auto.
  - intros f st Hf ->. destruct (rd_fac T g f Hf) as (vis & t & EF & ->). cbn [bind]. specialize (O _ (nth_error_In _ _ EF)). cbn in O. pose proof (PLE (S f) nf Hf) as LE. rewrite PS in *. unfold is_pair in *. rewrite EF in *. destruct vis as [|a [|b [|? ?]]]; cbn in O; try lia.
    + rewrite app_nil_r in *. eexists. split; reflexivity.
    + change (length [a; b] =? 1) with false. cbv iota. change (rd [a; b] 0) with (Ret a). change (rd [a; b] 1) with (Ret b). cbn [bind fst snd]. rewrite app_length in *. cbn [length] in *. rewrite wr_Ret by (rewrite app_length, map_length, repeat_length; lia). cbn [bind]. replace (length (pw nf) - length (pw f)) with (S (length (pw nf) - (length (pw f) + 1))) by lia. cbn [repeat]. rewrite UA by (rewrite map_length; auto). eexists. split; [reflexivity|]. rewrite map_app, <- app_assoc. cbn [map app]. replace (edge f) with ([a; b], [f]) by (unfold edge; rewrite EF; auto). f_equal. lia.
  - rewrite E, A. cbn [bind]. rewrite Nat.sub_diag. cbn [repeat]. rewrite app_nil_r. exists (map edge (pw nf)). split; auto. split; [|rewrite map_map, PW; auto].
    apply Forall_forall. intros s Hs. apply in_map_iff in Hs. destruct Hs as (f & <- & Hf). unfold pw in Hf. apply filter_In in Hf. destruct Hf as [_ Hf]. unfold is_pair in Hf. unfold edge. destruct (nth_error (v_factors g) f) as [[[|a [|b [|? ?]]] t]|] eqn:EF; try discriminate. exists a, [b], f, []. split; auto. cbn. destruct (wf_fac T g W f _ _ EF) as [SS _]. inversion SS as [|? ? _ F]; subst. inversion F; subst. split; auto. split; auto. exists t. auto.
Qed.

Lemma sizes_ok : forall fs xs ys, td_sizes T g fs = Ret (Some (xs, ys)) -> n = xs * ys /\ 2 <= xs /\ 1 <= ys.
Proof.
  induction fs as [|f fs IH]; intros xs ys E; cbn [td_sizes] in E; [discriminate|]. destruct (rd (v_factors g) f) as [[vis t]| | |] eqn:EF; cbn [bind] in E; try discriminate. unfold rd in EF. destruct (nth_error (v_factors g) f) as [fc|] eqn:EN; [injection EF as ->|discriminate]. destruct (wf_fac T g W f vis t EN) as [_ HV]. destruct vis as [|a [|b [|? ?]]]; try discriminate. assert (Hb : b < n) by (apply HV; right; left; auto). destruct (Nat.leb_spec b a); try discriminate. destruct (Nat.eqb_spec (b - a) 1) as [B1|B1]; cbn [negb] in E.
  - destruct (f =? nf - 1); auto. injection E as <- <-. lia.
  - destruct (Nat.eqb_spec (n mod (b - a)) 0) as [M|]; try discriminate. injection E as <- <-. assert (D := Nat.div_exact n (b - a) ltac:(lia)). apply D in M. split; auto. split; [lia|]. destruct (n / (b - a)); lia.
Qed.
Lemma joins_ok : forall f v w, td_joins T g f v w = Ret true -> exists fc, nth_error (v_factors g) f = Some fc /\ In v (fst fc) /\ In w (fst fc).
Proof.
  intros f v w E. unfold td_joins, td_depends, rd in E. destruct (nth_error (v_factors g) f) as [[vis t]|]; cbn [bind] in E; try discriminate. exists (vis, t). split; auto. assert (M : forall u, existsb (Nat.eqb u) vis = true -> In u vis). { intros u H. apply existsb_exists in H. destruct H as (z & I & X). apply Nat.eqb_eq in X. subst. auto. }
  destruct (existsb (Nat.eqb v) vis) eqn:EV; cbn [negb] in E; try discriminate. injection E as E. cbn. auto.
Qed.
Lemma joins_ret : forall f v w vis t, nth_error (v_factors g) f = Some (vis, t) -> In v vis -> In w vis -> td_joins T g f v w = Ret true.
Proof.
  intros f v w vis t E IV IW. unfold td_joins, td_depends, rd. rewrite E. cbn [bind]. assert (M : forall u, In u vis -> existsb (Nat.eqb u) vis = true) by (intros u H; apply existsb_exists; exists u; split; auto; apply Nat.eqb_refl). rewrite M by auto. cbn [negb]. rewrite M; auto.
Qed.
Lemma check_ok : forall xs ys, td_check T g xs ys = Ret tt -> forall x y, x < xs -> y < ys ->
  (y < ys - 1 -> td_joins T g (td_pwCol xs ys x y) (x + xs * y) (x + xs * (y + 1)) = Ret true) /\ (x < xs - 1 -> td_joins T g (td_pwRow xs ys x y) (x + xs * y) (x + 1 + xs * y) = Ret true).
Proof.
  intros xs ys E x y Hx Hy. unfold td_check in E. pose proof (foldM_unit _ _ _ E y ltac:(apply in_seq; lia)) as E1. cbv beta in E1. pose proof (foldM_unit _ _ _ E1 x ltac:(apply in_seq; lia)) as E2. cbv beta in E2. clear E E1.
  destruct (Nat.ltb_spec y (ys - 1)) as [Y|Y]; destruct (Nat.ltb_spec x (xs - 1)) as [X|X].
  - destruct (td_joins T g (td_pwCol xs ys x y) _ _) as [[|]| | |]; destruct (td_joins T g (td_pwRow xs ys x y) _ _) as [[|]| | |]; cbn in E2; try discriminate. auto.
  - destruct (td_joins T g (td_pwCol xs ys x y) _ _) as [[|]| | |]; cbn in E2; try discriminate. split; auto. lia.
  - destruct (td_joins T g (td_pwRow xs ys x y) _ _) as [[|]| | |]; cbn in E2; try discriminate. split; auto. lia.
  - lia.
Qed.
Lemma pwRow_eq : forall xs ys x y, td_pwRow xs ys x y = xs * ys + y * (2 * xs - 1) + (if y =? ys - 1 then x else 2 * x).
Proof. intros. unfold td_pwRow. destruct (y =? ys - 1); cbn; auto. destruct (Nat.eqb_spec x 0); cbn; lia. Qed.
Lemma pwCol_eq : forall xs ys x y, 2 <= xs -> x < xs -> y < ys - 1 -> td_pwCol xs ys x y = xs * ys + y * (2 * xs - 1) + (if x =? xs - 1 then 2 * x else 2 * x + 1).
Proof. intros xs ys x y H1 H2 H3. unfold td_pwCol. rewrite !pwRow_eq. replace (y =? ys - 1) with false by (symmetry; apply Nat.eqb_neq; lia). destruct (Nat.eqb_spec x (xs - 1)); lia. Qed.
Theorem grid_ret : forall xs ys subs, td_grid T g = Ret (xs, ys, subs) -> n = xs * ys /\ 2 <= xs /\ 1 <= ys /\ length subs = xs + ys /\
  (forall x, x < xs -> fst (nth x subs ([], [])) = map (fun y => x + xs * y) (seq 0 ys)) /\ (forall y, y < ys -> fst (nth (xs + y) subs ([], [])) = map (fun x => x + xs * y) (seq 0 xs)) /\
  Forall (path g) subs /\ Permutation (concat (map snd subs)) (seq n ((xs - 1) * ys + xs * (ys - 1))).
Proof.
  intros xs ys subs E. unfold td_grid in E. destruct (td_sizes T g (seq n (nf - n))) as [[[xs' ys']|]| | |] eqn:ES; cbn [bind] in E; try discriminate. destruct (td_check T g xs' ys') as [[]| | |] eqn:EC; cbn [bind] in E; try discriminate. injection E as -> -> <-. destruct (sizes_ok _ _ _ ES) as (EN & HX & HY). pose proof (check_ok _ _ EC) as CK. clear ES EC.
  split; auto. split; auto. split; auto. split; [rewrite app_length, !map_length, !seq_length; auto|]. split; [|split; [|split]].
  - intros x Hx. rewrite app_nth1 by (rewrite map_length, seq_length; auto). rewrite nth_indep with (d' := td_col xs ys 0) by (rewrite map_length, seq_length; auto). rewrite map_nth, seq_nth by auto. cbn [td_col fst Nat.add]. rewrite steps_map. apply map_ext. intros y. lia.
  - intros y Hy. rewrite app_nth2 by (rewrite map_length, seq_length; lia). rewrite map_length, seq_length. replace (xs + y - xs) with y by lia. rewrite nth_indep with (d' := td_row xs ys 0) by (rewrite map_length, seq_length; auto). rewrite map_nth, seq_nth by auto. cbn [td_row fst Nat.add]. rewrite steps_map. apply map_ext. intros x. lia.
  - apply Forall_app. split; apply Forall_forall; intros s Hs; apply in_map_iff in Hs; destruct Hs as (k & <- & Hk); apply in_seq in Hk.
    + unfold path, td_col. cbn [fst snd]. rewrite !steps_map, !map_length, !seq_length. split; [lia|]. intros i Hi. rewrite !nth_map_seq0 by lia. destruct (CK k i ltac:(lia) ltac:(lia)) as [C _]. specialize (C Hi). apply joins_ok in C. destruct C as (fc & A & B & C). exists fc. rewrite pwCol_eq in * by lia. split; [rewrite <- A; f_equal; lia|]. split; [replace (k + xs * 0 + i * xs) with (k + xs * i) by lia; auto|replace (k + xs * 0 + S i * xs) with (k + xs * (i + 1)) by lia; auto].
    + unfold path, td_row. cbn [fst snd]. rewrite !steps_map, !map_length, !seq_length. split; [lia|]. intros i Hi. rewrite !nth_map_seq0 by lia. destruct (CK i k ltac:(lia) ltac:(lia)) as [_ C]. specialize (C Hi). apply joins_ok in C. destruct C as (fc & A & B & C). exists fc. rewrite pwRow_eq in *. split; [rewrite <- A; f_equal; destruct (k =? ys - 1); lia|]. split; [replace (0 + xs * k + i * 1) with (i + xs * k) by lia; auto|replace (0 + xs * k + S i * 1) with (i + 1 + xs * k) by lia; auto].
  - apply Permutation_sym. apply NoDup_Permutation_bis; [apply seq_NoDup| |].
    + rewrite seq_length, map_app, concat_app, app_length, !map_map. rewrite (concat_const _ _ _ (ys - 1)) by (intros; unfold td_col; cbn [snd]; rewrite steps_map, map_length, seq_length; auto). rewrite (concat_const _ _ _ (xs - 1)) by (intros; unfold td_row; cbn [snd]; rewrite steps_map, map_length, seq_length; auto). rewrite !seq_length. lia.
    + intros j Hj. apply in_seq in Hj. rewrite map_app, concat_app, !map_map. set (R := 2 * xs - 1) in *. assert (HR : R <> 0) by lia. pose proof (Nat.div_mod_eq (j - n) R) as DM. pose proof (Nat.mod_upper_bound (j - n) R HR) as HM. set (q := (j - n) / R) in *. set (r := (j - n) mod R) in *.
      assert (EQ : (xs - 1) * ys + xs * (ys - 1) = (ys - 1) * R + (xs - 1)) by (unfold R; destruct xs as [|xs0]; [lia|]; destruct ys as [|ys0]; [lia|]; cbn [Nat.sub]; rewrite !Nat.sub_0_r; nia).
      assert (HQ : q <= ys - 1). { destruct (Nat.le_gt_cases q (ys - 1)) as [|G]; auto. exfalso. assert (X : S (ys - 1) * R <= q * R) by (apply Nat.mul_le_mono_r; lia). lia. }
      assert (INC : forall x i, x < xs -> i < ys - 1 -> In (td_pwCol xs ys x 0 + i * R) (concat (map (fun x => snd (td_col xs ys x)) (seq 0 xs)))). { intros x i Hx Hi. apply in_concat. exists (snd (td_col xs ys x)). split; [apply in_map_iff; exists x; split; auto; apply in_seq; lia|]. unfold td_col. cbn [snd]. rewrite steps_map. apply in_map_iff. exists i. split; auto. apply in_seq. lia. }
      assert (INR : forall y i, y < ys -> i < xs - 1 -> In (td_pwRow xs ys 0 y + i * (if y =? ys - 1 then 1 else 2)) (concat (map (fun y => snd (td_row xs ys y)) (seq 0 ys)))). { intros y i Hy Hi. apply in_concat. exists (snd (td_row xs ys y)). split; [apply in_map_iff; exists y; split; auto; apply in_seq; lia|]. unfold td_row. cbn [snd]. rewrite steps_map. apply in_map_iff. exists i. split; auto. apply in_seq. lia. }
      apply in_or_app. destruct (Nat.eq_dec q (ys - 1)) as [Q|Q].
      * right. assert (HR' : r < xs - 1) by (rewrite Q in DM; lia). specialize (INR q r ltac:(lia) HR'). rewrite pwRow_eq in INR. fold R in INR. rewrite Q, Nat.eqb_refl in INR. replace j with (xs * ys + (ys - 1) * R + 0 + r * 1) by lia. auto.
      * assert (Q' : q < ys - 1) by lia. pose proof (Nat.div_mod_eq r 2) as D2. pose proof (Nat.mod_upper_bound r 2 ltac:(lia)) as H2. set (x := r / 2) in *. destruct (Nat.eq_dec (r mod 2) 0) as [M|M].
        { destruct (Nat.eq_dec x (xs - 1)) as [X|X].
          - left. specialize (INC x q ltac:(lia) Q'). rewrite pwCol_eq in INC by lia. rewrite X, Nat.eqb_refl in INC. replace j with (xs * ys + 0 * (2 * xs - 1) + 2 * (xs - 1) + q * R) by lia. auto.
          - right. specialize (INR q x ltac:(lia) ltac:(lia)). rewrite pwRow_eq in INR. fold R in INR. replace (q =? ys - 1) with false in INR by (symmetry; apply Nat.eqb_neq; auto). replace j with (xs * ys + q * R + 2 * 0 + x * 2) by lia. auto. }
        { left. specialize (INC x q ltac:(lia) Q'). rewrite pwCol_eq in INC by lia. replace (x =? xs - 1) with false in INC by (symmetry; apply Nat.eqb_neq; lia). replace j with (xs * ys + 0 * (2 * xs - 1) + (2 * x + 1) + q * R) by lia. auto. }
Qed.
Theorem grid_accepted : forall xs ys, grid g xs ys -> exists subs, td_grid T g = Ret (xs, ys, subs).
Proof.
  intros xs ys (EN & HX & HY & EF & H). unfold td_grid. assert (ES : td_sizes T g (seq n (nf - n)) = Ret (Some (xs, ys))).
  { destruct (Nat.eq_dec ys 1) as [Y|Y].
    - assert (G : forall k i, i + S k = xs - 1 -> td_sizes T g (seq (n + i) (S k)) = Ret (Some (xs, ys))).
      { induction k as [|k IH]; intros i Hi; change (seq (n + i) (S ?m)) with ((n + i) :: seq (S (n + i)) m); cbn [td_sizes]; destruct (H i 0 ltac:(lia) ltac:(lia)) as [A _]; destruct (A ltac:(lia)) as (t & E); replace (0 + 1 =? ys) with true in E by (symmetry; apply Nat.eqb_eq; lia); replace (n + 0 * (2 * xs - 1) + i) with (n + i) in E by lia; unfold rd; rewrite E; cbn [bind].
        all: destruct (Nat.leb_spec (i + 1 + xs * 0) (i + xs * 0)); [lia|]; replace (i + 1 + xs * 0 - (i + xs * 0)) with 1 by lia; change (negb (1 =? 1)) with false; cbv iota.
        - replace (n + i =? nf - 1) with true by (symmetry; apply Nat.eqb_eq; lia). do 3 f_equal; lia.
        - replace (n + i =? nf - 1) with false by (symmetry; apply Nat.eqb_neq; lia). replace (S (n + i)) with (n + S i) by lia. apply IH. lia. }
      replace (nf - n) with (S (xs - 2)) by lia. specialize (G (xs - 2) 0 ltac:(lia)). rewrite Nat.add_0_r in G. auto.
    - assert (L2 : 2 <= nf - n) by (rewrite EF; destruct xs as [|[|xs0]]; try lia; destruct ys as [|[|ys0]]; try lia; cbn [Nat.sub]; nia). replace (nf - n) with (S (S (nf - n - 2))) by lia. cbn [seq td_sizes]. destruct (H 0 0 ltac:(lia) ltac:(lia)) as [A B]. destruct (A ltac:(lia)) as (t & E). destruct (B ltac:(lia)) as (t' & E'). replace (0 + 1 =? ys) with false in E by (symmetry; apply Nat.eqb_neq; lia). replace (0 + 1 =? xs) with false in E' by (symmetry; apply Nat.eqb_neq; lia).
      replace (n + 0 * (2 * xs - 1) + 2 * 0) with n in E by lia. replace (n + 0 * (2 * xs - 1) + (2 * 0 + 1)) with (S n) in E' by lia. unfold rd. rewrite E, E'. cbn [bind]. replace (0 + 1 + xs * 0) with 1 by lia. replace (0 + xs * 0) with 0 by lia. replace (0 + xs * (0 + 1)) with xs by lia. change (1 <=? 0) with false. change (negb (1 - 0 =? 1)) with false. cbv iota. replace (n =? nf - 1) with false by (symmetry; apply Nat.eqb_neq; lia).
      destruct (Nat.leb_spec xs 0); [lia|]. rewrite Nat.sub_0_r. replace (xs =? 1) with false by (symmetry; apply Nat.eqb_neq; lia). cbn [negb]. rewrite EN. rewrite Nat.mul_comm, Nat.mod_mul by lia. cbn [Nat.eqb]. rewrite Nat.div_mul by lia. auto. }
  rewrite ES. cbn [bind]. assert (EC : td_check T g xs ys = Ret tt).
  { unfold td_check. apply foldM_unit_ok. intros y Hy. apply in_seq in Hy. apply foldM_unit_ok. intros x Hx. apply in_seq in Hx. destruct (H x y ltac:(lia) ltac:(lia)) as [A B].
    assert (C1 : (if y <? ys - 1 then td_joins T g (td_pwCol xs ys x y) (x + xs * y) (x + xs * (y + 1)) else Ret true) = Ret true).
    { destruct (Nat.ltb_spec y (ys - 1)); auto. destruct (B ltac:(lia)) as (t & E). rewrite pwCol_eq by lia. rewrite <- EN. eapply joins_ret; [replace (x =? xs - 1) with (x + 1 =? xs); [exact E|]|left; auto|right; left; auto]. destruct (Nat.eqb_spec (x + 1) xs); symmetry; [apply Nat.eqb_eq|apply Nat.eqb_neq]; lia. }
    assert (C2 : (if x <? xs - 1 then td_joins T g (td_pwRow xs ys x y) (x + xs * y) (x + 1 + xs * y) else Ret true) = Ret true).
    { destruct (Nat.ltb_spec x (xs - 1)); auto. destruct (A ltac:(lia)) as (t & E). rewrite pwRow_eq. rewrite <- EN. eapply joins_ret; [replace (y =? ys - 1) with (y + 1 =? ys); [exact E|]|left; auto|right; left; auto]. destruct (Nat.eqb_spec (y + 1) ys); symmetry; [apply Nat.eqb_eq|apply Nat.eqb_neq]; lia. }
    rewrite C1, C2. auto. }
  rewrite EC. cbn [bind]. eauto.
Qed.
End Proofs.
