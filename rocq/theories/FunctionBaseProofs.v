(** Lemmas for C23, C24 and operator== (C36). *)
From Verif Require Import Base ShapeSpec ShapeProofs IndexingModel IndexingProofs UtilModel FunctionsModel FunctionsProofs FunctionBaseModel.
From Coq Require Import Permutation.

Definition coords (sh : list nat) : list (list nat) := map (coord_of sh) (seq 0 (size_of sh)).
Definition coords_switched (sh : list nat) : list (list nat) := map (fun k => rev (coord_of (rev sh) k)) (seq 0 (size_of sh)).

Lemma in_coords : forall sh c, positive sh -> (In c (coords sh) <-> in_shape sh c).
Proof.
  intros sh c HP. unfold coords. rewrite in_map_iff. split.
  - intros (k & <- & _). apply coord_of_in_shape; auto.
  - intros H. exists (index_of sh c). rewrite coord_of_index by auto. split; auto. apply in_seq. pose proof (index_of_lt _ _ H). lia.
Qed.
Lemma nodup_coords : forall sh, positive sh -> NoDup (coords sh).
Proof.
  intros sh HP. unfold coords. apply NoDup_map_in; [apply seq_NoDup|]. intros a b Ha Hb E. apply in_seq in Ha, Hb.
  rewrite <- (index_of_coord sh a), <- (index_of_coord sh b) by (auto; lia). congruence.
Qed.
Lemma in_shape_positive : forall sh c, in_shape sh c -> positive sh.
Proof. intros sh c H. induction H; constructor; auto; lia. Qed.

Lemma sw_loop_total : forall dim shape ds c, length shape = dim -> length c = dim -> (forall d, In d ds -> d < dim) ->
  exists c', sw_loop dim shape ds c = Ret c' /\ length c' = dim.
Proof.
  intros dim shape ds. induction ds as [|d ds IH]; intros c HS HC HD; cbn [sw_loop]; eauto.
  assert (d < dim) by (apply HD; left; auto).
  rewrite (rd_nth _ c d 0), (rd_nth _ shape d 0) by lia. cbn [bind].
  destruct (negb (S (nth d c 0) =? nth d shape 0)); [|destruct (negb (S d =? dim))]; rewrite wr_Ret by lia; cbn [bind].
  - eexists; split; eauto. rewrite length_upd; auto.
  - apply IH; auto. { rewrite length_upd; auto. } intros; apply HD; right; auto.
  - eexists; split; eauto. rewrite length_upd; auto.
Qed.
Lemma sw_next_total : forall shape c, length c = length shape -> exists c', sw_next shape c (length shape) = Ret c'.
Proof. intros shape c H. destruct (sw_loop_total (length shape) shape (seq 0 (length shape)) c) as (c' & E & _); eauto. intros d Hd. apply in_seq in Hd. lia. Qed.
Lemma so_loop_total : forall shape d c, length c = length shape -> d < length shape -> exists c', so_loop shape d c = Ret c'.
Proof.
  intros shape d. induction d as [|d IH]; intros c HL Hd; cbn [so_loop]; rewrite (rd_nth _ c _ 0), (rd_nth _ shape _ 0) by lia; cbn [bind].
  - destruct (negb _); rewrite wr_Ret by lia; eauto.
  - destruct (negb _); rewrite wr_Ret by lia; eauto. cbn [bind]. apply IH; [rewrite length_upd; auto|lia].
Qed.

Lemma in_shape_rev : forall sh c, in_shape sh c -> in_shape (rev sh) (rev c).
Proof. intros sh c H. induction H; cbn; [constructor|]. apply Forall2_app; auto. Qed.

Section Walk.
Context {T : Type} (f : gfun T) (v : list nat -> T).
Hypothesis HP : positive (gf_shape f).
Hypothesis HV : forall c, in_shape (gf_shape f) c -> gf_call f c = Ret (v c).

Lemma sweep_generic : forall St (nxt : list nat -> outcome (list nat)) (co : nat -> list nat) (functor : St -> T -> list nat -> St),
  (forall k, k < gf_size f -> in_shape (gf_shape f) (co k)) ->
  (forall k, S k < gf_size f -> nxt (co k) = Ret (co (S k))) ->
  (forall k, k < gf_size f -> exists c, nxt (co k) = Ret c) -> forall n s, n <= gf_size f ->
  exists c, (n < gf_size f -> c = co n) /\ foldM (fun (p : list nat * St) (_ : nat) =>
      v <- gf_call f (fst p) ;; let s := functor (snd p) v (fst p) in
      c <- nxt (fst p) ;; Ret (c, s)) (seq 0 n) (co 0, s) = Ret (c, fold_left (fun s c => functor s (v c) c) (map co (seq 0 n)) s).
Proof.
  intros St nxt co functor H1 H2 H3 n s. induction n as [|n IH]; intros Hn. { exists (co 0). split; auto. }
  destruct IH as (c & Hc & E); [lia|]. rewrite seq_S, foldM_app, E, map_app, fold_left_app. cbn [bind foldM plus map fold_left fst snd].
  rewrite Hc by lia. rewrite HV by (apply H1; lia). cbn [bind]. destruct (H3 n) as [c' Hc']; [lia|]. exists c'. split.
  - intros Hl. rewrite H2 in Hc' by lia. congruence.
  - rewrite Hc'. auto.
Qed.
Lemma gf_size_pos : 0 < gf_size f. Proof. apply size_of_pos; auto. Qed.
Lemma for_values_coord_spec : forall St (functor : St -> T -> list nat -> St) s,
  for_values_coord f functor s = Ret (fold_left (fun s c => functor s (v c) c) (coords (gf_shape f)) s).
Proof.
  intros St functor s. unfold for_values_coord, coords, sw_init. unfold gf_dim. rewrite <- coord_of_0 by auto.
  destruct (sweep_generic St (fun c => sw_next (gf_shape f) c (length (gf_shape f))) (coord_of (gf_shape f)) functor) with (n := gf_size f) (s := s) as (c & _ & E); auto.
  - intros; apply coord_of_in_shape; auto.
  - intros; apply sw_next_spec; auto.
  - intros; apply sw_next_total. apply coord_of_length.
  - cbv zeta in E. rewrite E. auto.
Qed.
Lemma fold_left_map : forall A B St (g : A -> B) (functor : St -> B -> St) l s, fold_left functor (map g l) s = fold_left (fun s a => functor s (g a)) l s.
Proof. intros A B St g functor l. induction l; intros s; cbn; auto. Qed.
Lemma for_values_spec : forall St (functor : St -> T -> St) s,
  for_values f functor s = Ret (fold_left functor (map v (coords (gf_shape f))) s).
Proof.
  intros St functor s. pose proof (for_values_coord_spec St (fun s x _ => functor s x) s) as E. unfold for_values_coord in E. unfold for_values. rewrite E.
  rewrite fold_left_map. auto.
Qed.
Lemma for_values_switched_spec : forall St (functor : St -> T -> St) s, gf_shape f <> [] ->
  for_values_switched f functor s = Ret (fold_left functor (map v (coords_switched (gf_shape f))) s).
Proof.
  intros St functor s HN. unfold for_values_switched, coords_switched, sw_init. unfold gf_dim.
  assert (E0 : repeat 0 (length (gf_shape f)) = rev (coord_of (rev (gf_shape f)) 0)).
  { rewrite coord_of_0 by (apply positive_rev; auto). rewrite rev_length. clear. induction (length (gf_shape f)) as [|n IH]; auto.
    cbn [repeat rev]. rewrite <- IH. clear. induction n; cbn; congruence. }
  rewrite E0.
  destruct (sweep_generic St (fun c => so_next (gf_shape f) c (length (gf_shape f))) (fun k => rev (coord_of (rev (gf_shape f)) k)) (fun s x _ => functor s x)) with (n := gf_size f) (s := s) as (c & _ & E); auto.
  - intros. pose proof (in_shape_rev _ _ (coord_of_in_shape (rev (gf_shape f)) k (positive_rev _ HP))) as Q. rewrite rev_involutive in Q. exact Q.
  - intros; apply so_next_spec; auto.
  - intros. unfold so_next. destruct (gf_shape f) as [|a l] eqn:ES; [contradiction|]. cbn [length]. apply so_loop_total; [|cbn [length]; lia].
    rewrite rev_length, coord_of_length, rev_length. auto.
  - cbv zeta in E. rewrite E. cbn [bind]. rewrite (fold_left_map _ _ _ v). auto.
Qed.
Lemma walk_all_spec : forall (test : list nat -> outcome bool) (t : list nat -> bool), (forall c, in_shape (gf_shape f) c -> test c = Ret (t c)) ->
  forall n k c, k + n = gf_size f -> (0 < n -> c = coord_of (gf_shape f) k) -> walk_all (gf_shape f) n c test = Ret (forallb t (map (coord_of (gf_shape f)) (seq k n))).
Proof.
  intros test t HT. induction n as [|n IH]; intros k c Hk Hc; cbn [walk_all seq map forallb]; auto.
  rewrite Hc by lia. rewrite HT by (apply coord_of_in_shape; auto). cbn [bind]. destruct (t (coord_of (gf_shape f) k)); cbn [andb]; auto.
  destruct (sw_next_total (gf_shape f) (coord_of (gf_shape f) k)) as [c' Hc']. { apply coord_of_length. } rewrite Hc'. cbn [bind]. apply IH; [lia|].
  intros Hn. rewrite sw_next_spec in Hc'; auto. { congruence. } unfold gf_size in Hk. lia.
Qed.
End Walk.

Lemma allM_spec : forall A (l : list A) test t, (forall a, In a l -> test a = Ret (t a)) -> allM l test = Ret (forallb t l).
Proof.
  intros A l test t H. induction l as [|a l IH]; cbn; auto. rewrite H by (left; auto). cbn. destruct (t a); cbn; auto. apply IH. intros; apply H; right; auto.
Qed.
