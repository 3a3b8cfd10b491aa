(** FusionBasedInf with generators that try their moves in turn: if the rounds without improvement cover all moves, no
    move improves. *)
From Coq Require Import Sorting.Sorted Permutation.
From Verif Require Import Base Values GmView GmViewSpec ShapeSpec AlphaBetaSwapSpec GmViewProofs FuseSpec FuseMoves FmModel FmSpec FmProofs FmProps FbiModel FbiSpec FbiProofs.

Section Cyclic.
Variables (T : Type) (fin : T -> Prop) (OP : oper T) (ACC : accum T) (g : gmv T) (gen : propgen) (solvers : hlsolvers T) (kind : fusionSolver) (p : fbparam) (d : nat).
Let n := length (v_labels g).
Hypothesis OL : op_laws fin OP.
Hypothesis AL : acc_laws fin OP ACC.
Hypothesis AT : acc_total fin ACC.
Hypothesis W : wf_gmv g.
Hypothesis FG : fin_gmv fin g.
Hypothesis HD : order_at_most d g.
Hypothesis SO : solvers_ok d solvers kind.
Hypothesis SE : solvers_exact fin OP ACC d solvers kind.
(** The moves 0 to M-1; [J s i]: move i is next. *)
Variables (M : nat) (move : nat -> list nat -> list nat) (J : pg_state gen -> nat -> Prop).
Hypothesis JL : forall s i, J s i -> i < M.
Hypothesis JN : forall s i x, J s i -> labeling g x -> exists s', pg_next gen s x = Ret (s', move i x) /\ J s' (if S i =? M then 0 else S i) /\ labeling g (move i x).
Definition no_gain (x : list nat) (j : nat) : Prop := forall y, FuseSpec.fused x (move j x) y -> as_good OP ACC g x y.
Definition dist (j i : nat) : nat := if j <? i then i - j else i + M - j.
Definition covered (x : list nat) (i count : nat) : Prop := forall j, j < M -> dist j i <= count -> no_gain x j.
Lemma covered_0 x i : i < M -> covered x i 0.
Proof. intros Hi j Hj. unfold dist. destruct (Nat.ltb_spec j i); lia. Qed.
Lemma covered_S x i count : i < M -> covered x i count -> no_gain x i -> covered x (if S i =? M then 0 else S i) (S count).
Proof.
  intros Hi C NG j Hj HD'. destruct (Nat.eq_dec j i) as [->|N]; [exact NG|]. apply C; [exact Hj|]. unfold dist in *. destruct (Nat.eqb_spec (S i) M); repeat match goal with |- context [?a <? ?b] => destruct (Nat.ltb_spec a b) | H : context [?a <? ?b] |- _ => destruct (Nat.ltb_spec a b) end; lia.
Qed.
Lemma cyclic_loop stop : forall steps calls s fused0 count i s', consistent T OP g gen s -> J (fb_gen s) i -> length fused0 = n -> covered (fb_arg s) i count -> M <= fb_stop s ->
  fb_loop T OP ACC g gen solvers kind stop steps calls s fused0 count = Ret (s', EndConverged) -> forall j, j < M -> no_gain (fb_arg s') j.
Proof.
  induction steps as [|steps IH]; intros calls s fused0 count i s' [C1 C2] HJ Lf CV HM; cbn [fb_loop]; [discriminate|].
  destruct (JN (fb_gen s) i (fb_arg s) HJ C1) as (gs & En & HJ' & Ly). rewrite En. cbn [bind]. rewrite (evaluate_ok T OP g W _ Ly). cbn [bind]. rewrite C2.
  destruct (fuse_step T fin OP ACC g solvers kind d OL AL AT W FG HD SO (fb_arg s) (move i (fb_arg s)) fused0 C1 Ly Lf) as (r & z & E & Lz & R). rewrite E. cbn [bind]. pose proof (JL _ _ HJ) as Hi.
  assert (Hi' : (if S i =? M then 0 else S i) < M) by (apply (JL _ _ HJ')).
  assert (DONE : forall x i count, i < M -> M <= count -> covered x i count -> forall j, j < M -> no_gain x j).
  { intros x k c Hk Hc C j Hj. apply C; [exact Hj|]. unfold dist. destruct (Nat.ltb_spec j k); lia. }
  destruct r as [v|].
  - destruct R as (R1 & R2 & R3 & R4 & R5). specialize (R5 SE). destruct (a_bop ACC v (total OP g (fb_arg s))) eqn:B.
    + destruct (stop calls); [discriminate|]. cbn [fb_stop]. destruct (fb_stop s) as [|st] eqn:ST; [lia|]. cbn [Nat.eqb andb].
      intros HL j Hj. eapply IH; [..|exact HL|exact Hj]; [split; [exact R2|exact R1]|exact HJ'|exact Lz|apply covered_0; exact Hi'|cbn; lia].
    + specialize (R4 eq_refl). specialize (R5 eq_refl). assert (CV' : covered (fb_arg s) (if S i =? M then 0 else S i) (S count)) by (apply covered_S; auto).
      destruct (stop calls); [discriminate|]. cbn [fb_stop]. destruct ((S count =? fb_stop s) && negb (fb_stop s =? 0)) eqn:Q.
      * intros HL. injection HL as <-. cbn [fb_arg]. apply andb_true_iff in Q. destruct Q as [Q _]. apply Nat.eqb_eq in Q. eapply DONE; [exact Hi'| |exact CV']; lia.
      * intros HL. eapply IH; [..|exact HL]; [split; [exact C1|exact R4]|exact HJ'|exact Lz|exact CV'|exact HM].
  - assert (NG : no_gain (fb_arg s) i). { intros y Hy. rewrite <- R in Hy. apply fused_same in Hy. subst y. apply (good_refl T fin OP ACC g OL AL W FG); exact C1. }
    assert (CV' : covered (fb_arg s) (if S i =? M then 0 else S i) (S count)) by (apply covered_S; auto). cbn [fb_stop]. destruct ((S count =? fb_stop s) && negb (fb_stop s =? 0)) eqn:Q.
    + intros HL. injection HL as <-. cbn [fb_arg]. apply andb_true_iff in Q. destruct Q as [Q _]. apply Nat.eqb_eq in Q. eapply DONE; [exact Hi'| |exact CV']; lia.
    + intros HL. eapply IH; [..|exact HL]; [split; [exact C1|reflexivity]|exact HJ'|exact Lz|exact CV'|exact HM].
Qed.
Lemma cyclic_infer stop s i s' : consistent T OP g gen s -> J (fb_gen s) i -> M <= (if fb_stop s =? 0 then pg_stop gen else fb_stop s) ->
  fb_infer T OP ACC g gen solvers kind p stop s = Ret (s', EndConverged) -> forall j, j < M -> no_gain (fb_arg s') j.
Proof.
  intros [C1 C2] HJ HM. unfold fb_infer. rewrite (evaluate_ok T OP g W _ C1). cbn [bind]. intros E. eapply cyclic_loop; [..|exact E]; [split; [exact C1|reflexivity]|exact HJ|apply repeat_length|apply covered_0; apply (JL _ _ HJ)|exact HM].
Qed.
End Cyclic.

Section Gens.
Variables (T : Type) (g : gmv T).
Let n := length (v_labels g).
Let M := pg_maxLabel T g.
Lemma maxLabel_ge v : v < n -> nth v (v_labels g) 0 <= M.
Proof.
  intros H. unfold M, pg_maxLabel. assert (G : forall l a, a <= fold_left (fun m k => if m <? k then k else m) l a /\ forall k, In k l -> k <= fold_left (fun m k => if m <? k then k else m) l a).
  { induction l as [|k l IH]; intros a; cbn [fold_left]; [split; [lia|intros k []]|]. destruct (IH (if a <? k then k else a)) as [I1 I2]. assert (a <= (if a <? k then k else a) /\ k <= (if a <? k then k else a)) as [X1 X2] by (destruct (Nat.ltb_spec a k); lia). split; [lia|]. intros j [<-|Hj]; [lia|apply I2; exact Hj]. }
  apply G. apply nth_In. exact H.
Qed.
Lemma rdl v : v < n -> rd (v_labels g) v = Ret (nth v (v_labels g) 0). Proof. intros H. apply rd_nth. exact H. Qed.
(** AlphaExpansionGen. *)
Definition ae_move (a : nat) (x : list nat) : list nat := map (fun v => if a <? nth v (v_labels g) 0 then a else nth v x 0) (seq 0 n).
Lemma ae_move_labeling a x : labeling g x -> labeling g (ae_move a x).
Proof. intros L. apply labeling_nth in L. destruct L as [LL LX]. apply labeling_nth. unfold ae_move. rewrite map_length, seq_length. split; [reflexivity|]. intros v Hv. rewrite nth_map_seq by exact Hv. destruct (Nat.ltb_spec a (nth v (v_labels g) 0)); [assumption|apply LX; unfold n in Hv; lia]. Qed.
Lemma ae_next_ok a x : a < M -> labeling g x -> exists s', pg_next (AlphaExpansionGen T g) a x = Ret (s', ae_move a x) /\ s' = (if S a =? M then 0 else S a) /\ labeling g (ae_move a x).
Proof.
  intros Ha L. cbn [pg_next AlphaExpansionGen]. unfold ae_next. fold n. rewrite (mapM_Ret _ (fun v => if a <? nth v (v_labels g) 0 then a else nth v x 0)).
  2:{ intros v Hv. apply in_seq in Hv. rewrite rdl by lia. cbn [bind]. destruct (_ <? _); [reflexivity|]. apply rd_nth. rewrite (labeling_length T g x L). fold n. lia. }
  cbn [bind]. eexists. split; [reflexivity|]. split; [|apply ae_move_labeling; exact L]. fold M. replace (a + 1) with (S a) by lia. destruct (Nat.leb_spec M (S a)), (Nat.eqb_spec (S a) M); try reflexivity; lia.
Qed.
Lemma ae_move_fused a x y : labeling g x -> labeling g y -> expansion_of a x y -> FuseSpec.fused x (ae_move a x) y.
Proof.
  intros Lx Ly [L H]. split; [exact L|]. intros v. destruct (Nat.lt_ge_cases v n) as [Hv|Hv].
  - destruct (H v) as [E|E]; [rewrite (labeling_length T g x Lx); exact Hv|left; exact E|]. right. unfold ae_move. rewrite nth_map_seq by exact Hv. apply labeling_nth in Ly. destruct Ly as [L1 L2]. specialize (L2 v ltac:(unfold n in Hv; lia)). rewrite E in *. rewrite (proj2 (Nat.ltb_lt _ _) L2). reflexivity.
  - left. rewrite !nth_overflow; [reflexivity|rewrite (labeling_length T g x Lx); exact Hv|rewrite (labeling_length T g y Ly); exact Hv].
Qed.
(** RandomGen and Random2Gen. *)
Lemma rg_ok rnd s x : wf_gmv g -> exists y, pg_next (RandomGen T g rnd) s x = Ret (S s, y) /\ labeling g y.
Proof.
  intros [_ WP]. cbn [pg_next RandomGen]. unfold rg_next. fold n. rewrite (mapM_Ret _ (fun v => rnd (s + v) mod nth v (v_labels g) 0)) by (intros v Hv; apply in_seq in Hv; rewrite rdl by lia; reflexivity). cbn [bind]. eexists. split; [reflexivity|].
  apply labeling_nth. rewrite map_length, seq_length. split; [reflexivity|]. intros v Hv. rewrite nth_map_seq by exact Hv. apply Nat.mod_upper_bound. unfold positive in WP. rewrite Forall_forall in WP. specialize (WP (nth v (v_labels g) 0) ltac:(apply nth_In; exact Hv)). lia.
Qed.
Lemma r2_ok rnd s x : Forall (fun k => 2 <= k) (v_labels g) -> exists y, pg_next (Random2Gen T g rnd) s x = Ret (S s, y) /\ labeling g y.
Proof.
  intros F. cbn [pg_next Random2Gen]. unfold r2_next. fold n. rewrite (mapM_Ret _ (fun v => Nat.min (rnd (s + v) mod 3) 1)) by reflexivity. cbn [bind]. eexists. split; [reflexivity|].
  apply labeling_nth. rewrite map_length, seq_length. split; [reflexivity|]. intros v Hv. rewrite nth_map_seq by exact Hv. rewrite Forall_forall in F. specialize (F (nth v (v_labels g) 0) ltac:(apply nth_In; exact Hv)). lia.
Qed.
(** UpDownGen. *)
Lemma ud_ok x : Forall (fun k => 2 <= k) (v_labels g) -> labeling g x -> forall s, length (fst s) = n -> length (snd s) = n ->
  exists s' y, ud_next T g s x = Ret (s', y) /\ length (fst s') = n /\ length (snd s') = n /\ labeling g y /\ forall v, v < n -> nth v y 0 = nth v x 0 + 1 \/ nth v y 0 + 1 = nth v x 0.
Proof.
  intros F L s L1 L2. pose proof (labeling_length T g x L) as LX. apply labeling_nth in L. destruct L as [_ L]. unfold ud_next. fold n.
  assert (G : forall k, k <= n -> exists ab dr y, foldM (ud_var T g x) (seq 0 k) (s, []) = Ret (ab, dr, y) /\ length ab = n /\ length dr = n /\ length y = k /\ forall v, v < k -> (nth v y 0 = nth v x 0 + 1 \/ nth v y 0 + 1 = nth v x 0) /\ nth v y 0 < nth v (v_labels g) 0).
  { induction k as [|k IH]; intros Hk; [destruct s as [ab dr]; exists ab, dr, []; split; [reflexivity|]; repeat split; auto; intros; lia|].
    destruct IH as (ab & dr & y & E & A1 & A2 & A3 & A4); [lia|]. rewrite seq_S, foldM_app, E. cbn [bind foldM Nat.add].
    assert (F2 : 2 <= nth k (v_labels g) 0) by (rewrite Forall_forall in F; apply F, nth_In; fold n; lia). specialize (L k ltac:(fold n in LX; lia)). fold n in LX.
    destruct (nth_error dr k) as [db|] eqn:ED; [|apply nth_error_None in ED; lia].
    assert (WD : forall b, exists dr', wr dr k b = Ret dr' /\ length dr' = n).
    { intros b. rewrite wr_Ret by lia. eexists. split; [reflexivity|]. rewrite length_upd. exact A2. }
    unfold ud_var at 1. rewrite rdl by lia. cbn [bind]. rewrite rd_nth by lia. cbn [bind]. rewrite rd_nth by lia. cbn [bind]. unfold rd at 1. rewrite ED. cbn [bind].
    assert (FIN : forall b u, (u = nth k x 0 + 1 \/ u + 1 = nth k x 0) -> u < nth k (v_labels g) 0 ->
      exists ab' dr' y', bind (bind (wr dr k b) (fun dr' => Ret (x, dr', y ++ [u]))) (fun s' => Ret s') = Ret (ab', dr', y') /\ length ab' = n /\ length dr' = n /\ length y' = S k /\ forall v, v < S k -> (nth v y' 0 = nth v x 0 + 1 \/ nth v y' 0 + 1 = nth v x 0) /\ nth v y' 0 < nth v (v_labels g) 0).
    { intros b u Hu Hu'. destruct (WD b) as (dr' & Ew & Ld). rewrite Ew. cbn [bind]. exists x, dr', (y ++ [u]). split; [reflexivity|]. split; [exact LX|]. split; [exact Ld|]. split; [rewrite app_length; cbn; lia|].
      intros v Hv. destruct (Nat.eq_dec v k) as [->|N]; [rewrite app_nth2 by lia; rewrite A3, Nat.sub_diag; cbn; auto|]. rewrite app_nth1 by lia. apply A4. lia. }
    destruct (if nth k ab 0 =? nth k x 0 then negb db else db).
    - destruct (Nat.ltb_spec (nth k x 0 + 1) (nth k (v_labels g) 0)); [apply FIN; [left; reflexivity|assumption]|]. destruct (Nat.leb_spec 1 (nth k x 0)); [apply FIN; lia|lia].
    - destruct (Nat.leb_spec 1 (nth k x 0)); apply FIN; lia. }
  destruct (G n (Nat.le_refl n)) as (ab & dr & y & E & A1 & A2 & A3 & A4). exists (ab, dr), y. split; [exact E|]. split; [exact A1|]. split; [exact A2|]. split; [|intros v Hv; apply A4; exact Hv]. apply labeling_nth. split; [exact A3|]. intros v Hv. apply A4. lia.
Qed.
End Gens.

(** AlphaBetaSwapGen: the positions of the walker; those off the diagonal are the moves. *)
Section Swap.
Variable k : nat.
Hypothesis K2 : 2 <= k.
Let A := map (fun q => q mod k) (seq 0 (k * k)).
Let B := map (fun q => q / k) (seq 0 (k * k)).
Definition pair_at (q : nat) : nat * nat := (q mod k, q / k).
Lemma off_free q : q < k * k -> free A B q = negb (fst (pair_at q) =? snd (pair_at q)).
Proof. intros H. unfold free, A, B. rewrite !nth_map_seq by exact H. reflexivity. Qed.
Lemma walk2_at q : walk2 k (pair_at q) = pair_at (S q).
Proof.
  unfold walk2, pair_at. cbn [fst snd]. pose proof (Nat.div_mod q k ltac:(lia)) as D. pose proof (Nat.mod_upper_bound q k ltac:(lia)) as U. destruct (Nat.eqb_spec (q mod k) (k - 1)) as [E|E].
  - assert (X : S q = 0 + (q / k + 1) * k) by nia. rewrite X. rewrite Nat.mod_add, Nat.div_add by lia. rewrite (Nat.mod_small 0), (Nat.div_small 0) by lia. reflexivity.
  - assert (X : S q = (q mod k + 1) + (q / k) * k) by nia. rewrite X. rewrite Nat.mod_add, Nat.div_add by lia. rewrite (Nat.mod_small (q mod k + 1)), (Nat.div_small (q mod k + 1)) by lia. reflexivity.
Qed.
Lemma pair_code a b : a < k -> pair_at (a + b * k) = (a, b).
Proof. intros H. unfold pair_at. rewrite Nat.mod_add, Nat.div_add by lia. rewrite Nat.mod_small, Nat.div_small by lia. reflexivity. Qed.
Lemma code_pair q : q = q mod k + (q / k) * k.
Proof. pose proof (Nat.div_mod q k ltac:(lia)). nia. Qed.
Definition moves : nat := pos A B (k * k).
Lemma block b j : b < k -> j <= k -> pos A B (b * k + j) = pos A B (b * k) + (j - (if b <? j then 1 else 0)).
Proof.
  intros Hb. induction j as [|j IH]; intros Hj; [rewrite !Nat.add_0_r; cbn; lia|]. replace (b * k + S j) with (S (b * k + j)) by lia. rewrite pos_S, IH by lia. rewrite off_free by nia. replace (b * k + j) with (j + b * k) by lia. rewrite pair_code by lia. cbn [fst snd].
  destruct (Nat.ltb_spec b j), (Nat.ltb_spec b (S j)), (Nat.eqb_spec j b); cbn [negb]; lia.
Qed.
Lemma moves_eq : moves = k * k - k.
Proof.
  assert (G : forall b, b <= k -> pos A B (b * k) = b * (k - 1)).
  { induction b as [|b IH]; intros Hb; [reflexivity|]. replace (S b * k) with (b * k + k) by lia. rewrite block by lia. rewrite IH by lia. destruct (Nat.ltb_spec b k); [nia|lia]. }
  unfold moves. rewrite G by lia. nia.
Qed.
(** The position of the walker after which move i comes. *)
Definition at_move (s : nat * nat) (i : nat) : Prop := exists q, s = pair_at q /\ S q < k * k /\ i = (if pos A B (S q) =? moves then 0 else pos A B (S q)).
Definition swap_pair (i : nat) : nat * nat := pair_at (nth i (frees A B (k * k)) 0).
Lemma at_move_lt s i : at_move s i -> i < moves.
Proof. intros (q & _ & Hq & ->). pose proof (pos_le A B (S q) (k * k) ltac:(lia)) as P. fold moves in P. destruct (Nat.eqb_spec (pos A B (S q)) moves); [rewrite moves_eq; nia|lia]. Qed.
Lemma at_move_init : at_move (0, 0) 0.
Proof.
  exists 0. split; [unfold pair_at; rewrite Nat.mod_small, Nat.div_small by lia; reflexivity|]. split; [nia|]. rewrite pos_S. change (pos A B 0) with 0. rewrite off_free by nia. unfold pair_at. cbn [fst snd]. rewrite Nat.mod_small, Nat.div_small by lia. cbn [negb Nat.add]. destruct moves; reflexivity.
Qed.
Lemma diag_next q : fst (pair_at q) = snd (pair_at q) -> S q < k * k -> fst (pair_at (S q)) <> snd (pair_at (S q)).
Proof.
  intros H Hq. rewrite <- walk2_at. unfold walk2. unfold pair_at in *. cbn [fst snd] in *. destruct (Nat.eqb_spec (q mod k) (k - 1)) as [E|E]; cbn [fst snd]; [lia|lia].
Qed.
Lemma last_diag : pos A B (k * k) = pos A B (k * k - 1).
Proof. replace (pos A B (k * k)) with (pos A B (S (k * k - 1))) by (f_equal; nia). rewrite pos_S, off_free by nia. assert (X : k * k - 1 = (k - 1) + (k - 1) * k) by nia. rewrite X at 2 3. rewrite pair_code by lia. cbn [fst snd]. rewrite Nat.eqb_refl. cbn. lia. Qed.
Lemma ab_step_ok s i : at_move s i -> exists s', ab_step k s = Ret s' /\ s' = swap_pair i /\ at_move s' (if S i =? moves then 0 else S i).
Proof.
  intros (q & -> & Hq & ->). unfold ab_step. rewrite walk2_at.
  assert (OFF : forall r, r < k * k - 1 -> fst (pair_at r) <> snd (pair_at r) -> at_move (pair_at r) (if S (pos A B r) =? moves then 0 else S (pos A B r)) /\ pair_at r = swap_pair (pos A B r) /\ pos A B r < moves).
  { intros r Hr NE. assert (Fr : free A B r = true) by (rewrite off_free by lia; apply negb_true_iff, Nat.eqb_neq; exact NE). split; [exists r; split; [reflexivity|]; split; [lia|]; rewrite pos_S, Fr, Nat.add_1_r; reflexivity|]. split; [unfold swap_pair; rewrite frees_pos by (auto; lia); reflexivity|]. unfold moves. apply pos_lt; [exact Fr|lia]. }
  assert (FIRST : off_diagonal 2 k (0, 0) = Ret (pair_at 1) /\ fst (pair_at 1) <> snd (pair_at 1) /\ pos A B 1 = 0).
  { assert (P0 : pair_at 0 = (0, 0)) by (unfold pair_at; rewrite Nat.mod_small, Nat.div_small by lia; reflexivity). assert (N1 : fst (pair_at 1) <> snd (pair_at 1)) by (apply diag_next; [rewrite P0; reflexivity|nia]). split; [|split; [exact N1|]].
    - rewrite <- P0. cbn [off_diagonal]. rewrite P0 at 1 2. cbn [fst snd Nat.eqb]. rewrite walk2_at. rewrite (proj2 (Nat.eqb_neq _ _) N1). reflexivity.
    - rewrite pos_S. change (pos A B 0) with 0. rewrite off_free by nia. rewrite P0. reflexivity. }
  assert (LASTQ : forall r, r < k * k -> (fst (pair_at r) + 1 =? k) && (snd (pair_at r) + 1 =? k) = (r =? k * k - 1)).
  { intros r Hr. pose proof (code_pair r) as CR. unfold pair_at. cbn [fst snd]. destruct (Nat.eqb_spec r (k * k - 1)) as [->|N].
    - assert (X : k * k - 1 = (k - 1) + (k - 1) * k) by nia. rewrite X. rewrite Nat.mod_add, Nat.div_add by lia. rewrite Nat.mod_small, Nat.div_small by lia. rewrite !(proj2 (Nat.eqb_eq _ _)) by lia. reflexivity.
    - apply andb_false_iff. destruct (Nat.eqb_spec (r mod k + 1) k) as [E1|]; [|left; reflexivity]. destruct (Nat.eqb_spec (r / k + 1) k) as [E2|]; [|right; reflexivity]. exfalso. apply N. rewrite CR. replace (r mod k) with (k - 1) by lia. replace (r / k) with (k - 1) by lia. nia. }
  rewrite LASTQ by lia. destruct (Nat.eqb_spec (S q) (k * k - 1)) as [E|E].
  - destruct FIRST as (F1 & F2 & F3). rewrite F1. eexists. split; [reflexivity|]. assert (PQ : pos A B (S q) = moves) by (rewrite E; unfold moves; symmetry; apply last_diag). rewrite PQ, Nat.eqb_refl.
    assert (K1 : 1 < k * k - 1) by nia. destruct (OFF 1 K1 F2) as (O1 & O2 & O3). rewrite F3 in *. auto.
  - assert (PL : pos A B (S q) < moves).
    { destruct (Nat.eq_dec (fst (pair_at (S q))) (snd (pair_at (S q)))) as [D|D].
      - assert (E2 : S (S q) <> k * k - 1 \/ S (S q) = k * k - 1) by lia. pose proof (diag_next (S q) D ltac:(lia)) as ND. assert (Fr : free A B (S (S q)) = true) by (rewrite off_free by lia; apply negb_true_iff, Nat.eqb_neq; exact ND). pose proof (pos_lt A B _ (k * k) Fr ltac:(lia)) as P1. pose proof (pos_le A B (S q) (S (S q)) ltac:(lia)). fold moves in P1. lia.
      - assert (Fr : free A B (S q) = true) by (rewrite off_free by lia; apply negb_true_iff, Nat.eqb_neq; exact D). apply (pos_lt A B _ (k * k) Fr). lia. }
    rewrite (proj2 (Nat.eqb_neq (pos A B (S q)) moves)) by lia. cbn [off_diagonal]. destruct (Nat.eqb_spec (fst (pair_at (S q))) (snd (pair_at (S q)))) as [D|D].
    + rewrite walk2_at. pose proof (diag_next (S q) D ltac:(lia)) as ND. rewrite (proj2 (Nat.eqb_neq _ _) ND). eexists. split; [reflexivity|].
      assert (PE : pos A B (S (S q)) = pos A B (S q)) by (rewrite (pos_S A B (S q)), off_free, D, Nat.eqb_refl by lia; cbn; lia).
      assert (LT : S (S q) < k * k - 1). { assert (S (S q) <> k * k - 1); [|lia]. intros X. apply ND. rewrite X. assert (Y : k * k - 1 = (k - 1) + (k - 1) * k) by nia. rewrite Y, pair_code by lia. reflexivity. }
      destruct (OFF _ LT ND) as (O1 & O2 & O3). rewrite PE in *. auto.
    + eexists. split; [reflexivity|]. destruct (OFF (S q) ltac:(lia) D) as (O1 & O2 & O3). auto.
Qed.
Lemma swap_pair_lt i : i < moves -> fst (swap_pair i) < k /\ snd (swap_pair i) < k /\ fst (swap_pair i) <> snd (swap_pair i).
Proof.
  intros H. destruct (pos_frees A B (k * k) i H) as (P1 & P2 & _). unfold swap_pair. set (q := nth i _ 0) in *. rewrite off_free in P2 by exact P1. apply negb_true_iff, Nat.eqb_neq in P2. split; [apply Nat.mod_upper_bound; lia|]. split; [|exact P2]. cbn. apply Nat.div_lt_upper_bound; lia.
Qed.
Lemma swap_pair_all a b : a < k -> b < k -> a <> b -> exists i, i < moves /\ swap_pair i = (a, b).
Proof.
  intros Ha Hb N. assert (Q : a + b * k < k * k) by nia. assert (Fr : free A B (a + b * k) = true) by (rewrite off_free by exact Q; rewrite pair_code by exact Ha; apply negb_true_iff, Nat.eqb_neq; exact N).
  exists (pos A B (a + b * k)). split; [apply pos_lt; [exact Fr|exact Q]|]. unfold swap_pair. rewrite frees_pos by assumption. apply pair_code. exact Ha.
Qed.
End Swap.
Section SwapGen.
Variables (T : Type) (g : gmv T).
Let n := length (v_labels g).
Let k := pg_maxLabel T g.
Definition swap_move (p : nat * nat) (x : list nat) : list nat :=
  map (fun v => if (nth v x 0 =? fst p) && (snd p <? nth v (v_labels g) 0) then snd p else if (nth v x 0 =? snd p) && (fst p <? nth v (v_labels g) 0) then fst p else nth v x 0) (seq 0 n).
Lemma swap_move_labeling p x : labeling g x -> labeling g (swap_move p x).
Proof.
  intros L. apply labeling_nth in L. destruct L as [LL LX]. apply labeling_nth. unfold swap_move. rewrite map_length, seq_length. split; [reflexivity|]. intros v Hv. rewrite nth_map_seq by exact Hv. specialize (LX v ltac:(unfold n in Hv; lia)).
  destruct (Nat.ltb_spec (snd p) (nth v (v_labels g) 0)), (Nat.ltb_spec (fst p) (nth v (v_labels g) 0)), (nth v x 0 =? fst p), (nth v x 0 =? snd p); cbn [andb]; assumption.
Qed.
Lemma ab_next_ok s i x : 2 <= k -> at_move k s i -> labeling g x -> exists s', pg_next (AlphaBetaSwapGen T g) s x = Ret (s', swap_move (swap_pair k i) x) /\ at_move k s' (if S i =? moves k then 0 else S i) /\ labeling g (swap_move (swap_pair k i) x).
Proof.
  intros K HA L. cbn [pg_next AlphaBetaSwapGen]. unfold ab_next. fold k. rewrite (proj2 (Nat.ltb_ge k 2)) by exact K. destruct (ab_step_ok k K s i HA) as (s' & E & E' & HA'). rewrite E. cbn [bind]. rewrite E' in *. fold n.
  rewrite (mapM_Ret _ (fun v => if (nth v x 0 =? fst (swap_pair k i)) && (snd (swap_pair k i) <? nth v (v_labels g) 0) then snd (swap_pair k i) else if (nth v x 0 =? snd (swap_pair k i)) && (fst (swap_pair k i) <? nth v (v_labels g) 0) then fst (swap_pair k i) else nth v x 0)).
  2:{ intros v Hv. apply in_seq in Hv. rewrite rd_nth by (rewrite (labeling_length T g x L); fold n; lia). cbn [bind]. rewrite rdl by (fold n; lia). reflexivity. }
  cbn [bind]. eexists. split; [reflexivity|]. split; [exact HA'|]. apply swap_move_labeling. exact L.
Qed.
Lemma swap_fused a b x y : a <> b -> labeling g x -> labeling g y -> swap_of a b x y -> FuseSpec.fused x (swap_move (a, b) x) y.
Proof.
  intros N Lx Ly [L H]. split; [exact L|]. intros v. pose proof (labeling_length T g x Lx) as LX. destruct (Nat.lt_ge_cases v n) as [Hv|Hv].
  - unfold swap_move. rewrite nth_map_seq by exact Hv. cbn [fst snd]. apply labeling_nth in Ly. destruct Ly as [L1 L2]. specialize (L2 v ltac:(unfold n in Hv; lia)).
    destruct (H v ltac:(fold n in LX; lia)) as [[H1 H2]|H1]; [|left; exact H1]. destruct H1 as [H1|H1], H2 as [H2|H2]; rewrite H1, H2 in *; try (left; reflexivity); right; rewrite Nat.eqb_refl.
    + rewrite (proj2 (Nat.ltb_lt _ _) L2). reflexivity.
    + rewrite (proj2 (Nat.eqb_neq b a)) by congruence. rewrite (proj2 (Nat.ltb_lt _ _) L2). reflexivity.
  - left. rewrite !nth_overflow; [reflexivity|rewrite LX; exact Hv|rewrite (labeling_length T g y Ly); exact Hv].
Qed.
End SwapGen.
