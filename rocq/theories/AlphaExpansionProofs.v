From Coq Require Import Permutation.
From Verif Require Import Base Values GmView GmViewSpec ShapeSpec ShapeProofs GmViewProofs GraphCutModel GraphCutSpec GraphCutProofs GraphCutProps
  AlphaBetaSwapModel AlphaBetaSwapSpec AlphaBetaSwapProofs AlphaExpansionModel AlphaExpansionSpec.
Local Open Scope Z_scope.

Lemma alag_add : forall maxi a b c d, at_least_as_good maxi a b -> at_least_as_good maxi c d -> at_least_as_good maxi (a + c) (b + d).
Proof. intros []; cbn; lia. Qed.
Lemma alag_cancel : forall maxi a b c, at_least_as_good maxi (a + c) (b + c) -> at_least_as_good maxi a b.
Proof. intros []; cbn; lia. Qed.

Lemma filter_length_bound : forall (A : Type) (f : A -> bool) l, (length (filter f l) <= length l)%nat.
Proof. induction l as [|a l IH]; cbn; auto. destruct (f a); cbn; lia. Qed.

Lemma small_weaken : forall m m' fs, (m <= m')%nat -> small_factors m fs -> small_factors m' fs.
Proof. intros m m' fs H F. eapply Forall_impl; [|exact F]. intros fc [A B]. split; auto. eapply Forall_impl; [|exact B]. cbn. lia. Qed.

Lemma filter_full : forall (A : Type) (f : A -> bool) l, (length l <= length (filter f l))%nat -> Forall (fun a => f a = true) l.
Proof.
  induction l as [|a l IH]; cbn; constructor; destruct (f a) eqn:E; auto; pose proof (filter_length_bound A f l); cbn in *; try lia. apply IH. lia.
Qed.
(** What the construction needs of pairwise factors. *)
Definition expandable (maxi : bool) (k : nat) (g : gmv Z) : Prop :=
  Forall (fun fc : factor => length (fst fc) = 2%nat -> let f := snd fc in
    (forall a x, (a < k)%nat -> (x < k)%nat -> a <> x -> at_least_as_good maxi (f [a; a] + f [x; x]) (f [a; x] + f [x; a])) /\
    (forall a x y, (a < k)%nat -> (x < k)%nat -> (y < k)%nat -> x <> a -> y <> a -> x <> y ->
      at_least_as_good maxi 0 (f [a; y]) /\ at_least_as_good maxi 0 (f [x; a]) /\
      at_least_as_good maxi (f [a; y]) (f [x; y]) /\ at_least_as_good maxi (f [x; a]) (f [x; y]) /\ at_least_as_good maxi (f [a; a]) (f [x; y]))) (v_factors g).
Lemma potts_expandable : forall maxi k g, potts_like maxi k g -> expandable maxi k g.
Proof.
  intros maxi k g H. eapply Forall_impl; [|exact H]. intros fc P L. destruct (P L) as (c & C0 & C1 & C2). cbv zeta. split.
  - intros a x Ha Hx N. rewrite (C1 a x), (C1 x a) by auto. apply alag_add; auto.
  - intros a x y Ha Hx Hy N1 N2 N3. rewrite (C1 a y), (C1 x a), (C1 x y) by auto. repeat split; auto; apply alag_refl.
Qed.
Lemma binary_expandable : forall maxi g, swap_submodular maxi 2 g -> expandable maxi 2 g.
Proof.
  intros maxi g H. eapply Forall_impl; [|exact H]. intros fc P L. cbv zeta. split.
  - intros a x Ha Hx _. apply P; auto.
  - intros a x y Ha Hx Hy N1 N2 N3. lia.
Qed.

Section Proofs.
Variable maxi : bool.
Variable cut : nat -> list edge -> list bool.
Variable g : gmv Z.
Variable k : nat.
Variable infinity : Z.
Variable scale : Z.
Hypothesis HC : min_cut_solver cut.
Hypothesis W : wf_gmv g.
Hypothesis SL : same_labels k g.
Hypothesis SO : second_order g.
Hypothesis EX : expandable maxi k g.
Hypothesis HS : 0 < scale.
Local Notation n := (length (v_labels g)).

Section Move.
Variable a : nat.
Hypothesis Ha : (a < k)%nat.
Variable x : list nat.
Hypothesis Hx : labeling g x.
Local Notation X v := (nth v x 0%nat).
Local Notation isa v := (X v =? a)%nat.

Lemma Lx' : length x = n. Proof. apply labeling_length. auto. Qed.
Lemma X_lt' : forall v, (v < n)%nat -> (X v < k)%nat.
Proof. intros v Hv. apply (same_labeling k g x SL) in Hx. destruct Hx as [L F]. rewrite Forall_forall in F. apply F. apply nth_In. lia. Qed.

(** A factor that gets an auxiliary node. *)
Definition disp (fc : factor) : bool := match fst fc with [v; w] => negb (X v =? X w)%nat && negb (isa v) && negb (isa w) | _ => false end.
Definition naux (fs : list factor) : nat := length (filter disp fs).
Definition econv (q : nat) (fc : factor) : list factor :=
  let f := snd fc in
  match fst fc with
  | [v] => if isa v then [] else [unary2 v (f [a]) (f [X v])]
  | [v; w] => if isa v && isa w then []
              else if isa v then [unary2 w (f [a; a]) (f [a; X w])]
              else if isa w then [unary2 v (f [a; a]) (f [X v; a])]
              else if (X v =? X w)%nat then [pair2 v w (f [a; a]) (f [a; X w]) (f [X v; a]) (f [X v; X w])]
              else [pair2 v q 0 (f [a; X w]) 0 0; pair2 w q 0 (f [X v; a]) 0 0; unary2 q (f [a; a]) (f [X v; X w])]
  | _ => []
  end.
Fixpoint econvs (q : nat) (fs : list factor) : list factor :=
  match fs with [] => [] | fc :: fs => econv q fc ++ econvs (q + if disp fc then 1 else 0) fs end.
Lemma count_ok : count_auxiliary g a x = Ret (naux (v_factors g)).
Proof.
  unfold count_auxiliary, naux. assert (G : forall fs c, (forall fc, In fc fs -> In fc (v_factors g)) -> foldM (fun c (fc : factor) =>
    match fst fc with
    | [var1; var2] => l1 <- rd x var1 ;; l2 <- rd x var2 ;; Ret (if negb (l1 =? l2)%nat && negb (l1 =? a)%nat && negb (l2 =? a)%nat then S c else c)
    | _ => Ret c
    end) fs c = Ret (c + length (filter disp fs))%nat).
  { induction fs as [|fc fs IH]; intros c H; cbn [foldM filter length]; [f_equal; lia|]. pose proof (factor_vars g W fc (H fc (or_introl eq_refl))) as V.
    assert (E : (match fst fc with
      | [var1; var2] => l1 <- rd x var1 ;; l2 <- rd x var2 ;; Ret (if negb (l1 =? l2)%nat && negb (l1 =? a)%nat && negb (l2 =? a)%nat then S c else c)
      | _ => Ret c end) = Ret (if disp fc then S c else c)).
    { unfold disp. destruct (fst fc) as [|v [|w [|z vis]]]; auto. inversion V as [|? ? V1 V']; inversion V' as [|? ? V2 _]; subst. rewrite !(rd_nth _ x _ 0%nat) by (rewrite Lx'; lia). auto. }
    rewrite E. cbn [bind]. rewrite IH by (intros; apply H; right; auto). destruct (disp fc); cbn [length]; f_equal; lia. }
  rewrite G; auto.
Qed.
Definition aunaries : list factor := flat_map (fun v => if isa v then [unary2 v 0 infinity] else []) (seq 0 n).
Lemma alpha_graph_ok : forall s0, gc_create (ae_numVar g + naux (v_factors g)) [0; 0; 0; 0]%nat scale 0 = s0 -> forall s1, foldM (gc_addFactor maxi) aunaries s0 = Ret s1 ->
  alpha_graph maxi g infinity a x scale (naux (v_factors g)) = Ret (s1, length (filter (fun v => isa v) (seq 0 n))).
Proof.
  intros s0 <- s1. unfold alpha_graph, aunaries, ae_numVar. set (s0 := gc_create _ _ _ _). clearbody s0.
  assert (G : forall l s c, (forall v, In v l -> (v < n)%nat) -> forall s', foldM (gc_addFactor maxi) (flat_map (fun v => if isa v then [unary2 v 0 infinity] else []) l) s = Ret s' ->
    foldM (fun (st : gc * nat) k => l <- rd x k ;; if (l =? a)%nat then inf <- gc_addFactor maxi (fst st) (unary2 k 0 infinity) ;; Ret (inf, S (snd st)) else Ret st) l (s, c) =
    Ret (s', (c + length (filter (fun v => isa v) l))%nat)).
  { induction l as [|v l IH]; intros s c H s' E; cbn [foldM filter length flat_map] in *; [injection E as <-; f_equal; f_equal; lia|].
    rewrite (rd_nth _ x _ 0%nat) by (rewrite Lx'; apply H; left; auto). cbn [bind]. destruct (isa v).
    - cbn [app foldM] in E. cbn [fst snd]. destruct (gc_addFactor maxi s (unary2 v 0 infinity)) as [s2| | |]; try discriminate E. cbn [bind] in *.
      rewrite (IH s2 (S c)) with (s' := s') by (auto; intros; apply H; right; auto). cbn [length]. f_equal. f_equal. lia.
    - cbn [app bind] in *. rewrite (IH s c) with (s' := s') by (auto; intros; apply H; right; auto). auto. }
  intros E. rewrite (G (seq 0 n) s0 0%nat) with (s' := s1); auto. intros v Hv. apply in_seq in Hv. lia.
Qed.
Lemma expand_factor_ok : forall q fc, In fc (v_factors g) -> expand_factor g a x q fc = Ret (econv q fc, (q + if disp fc then 1 else 0)%nat).
Proof.
  intros q fc H. pose proof (factor_vars g W fc H) as V. unfold expand_factor, econv, disp. destruct fc as [[|v [|w [|z vis]]] f]; cbn [fst snd] in *; rewrite ?Nat.add_0_r; auto.
  - inversion V; subst. pose proof (X_lt' v ltac:(auto)). rewrite !(rd_nth _ _ _ 0%nat) by (rewrite ?Lx'; lia). cbn [bind]. destruct (isa v); cbn [negb]; auto.
    rewrite !(fread_ok g k W SL) by (auto; repeat constructor; auto). auto.
  - inversion V as [|? ? V1 V']; inversion V' as [|? ? V2 _]; subst. pose proof (X_lt' v ltac:(auto)). pose proof (X_lt' w ltac:(auto)). rewrite !(rd_nth _ x _ 0%nat) by (rewrite Lx'; lia). cbn [bind].
    destruct (isa v), (isa w), (X v =? X w)%nat; cbn [andb negb]; rewrite ?(fread_ok g k W SL) by (auto; repeat constructor; auto); cbn [bind]; do 2 f_equal; lia.
Qed.
Lemma expand_graph_ok : forall fs q s s', (forall fc, In fc fs -> In fc (v_factors g)) -> foldM (gc_addFactor maxi) (econvs q fs) s = Ret s' ->
  exists q', foldM (fun (st : gc * nat) fc => p <- expand_factor g a x (snd st) fc ;; inf <- foldM (gc_addFactor maxi) (fst p) (fst st) ;; Ret (inf, snd p)) fs (s, q) = Ret (s', q').
Proof.
  induction fs as [|fc fs IH]; intros q s s' H E; cbn [foldM econvs] in *; [injection E as <-; eauto|]. rewrite foldM_app in E. cbn [snd].
  rewrite expand_factor_ok by (apply H; left; auto). cbn [bind fst snd]. destruct (foldM (gc_addFactor maxi) (econv q fc) s) as [s2| | |]; try discriminate E. cbn [bind] in *.
  apply IH; auto. intros; apply H; right; auto.
Qed.
Lemma econvs_small : forall fs q, (forall fc, In fc fs -> In fc (v_factors g)) -> (n <= q)%nat -> small_factors (q + naux fs) (econvs q fs).
Proof.
  induction fs as [|fc fs IH]; intros q H Hq; cbn [econvs]; [constructor|]. unfold naux in *. cbn [filter]. apply Forall_app. split.
  - pose proof (factor_vars g W fc (H fc (or_introl eq_refl))) as V. unfold econv, disp. destruct fc as [[|v [|w [|z vis]]] f]; cbn [fst snd] in *; try constructor.
    + inversion V; subst. destruct (isa v); repeat constructor. lia.
    + inversion V as [|? ? V1 V']; inversion V' as [|? ? V2 _]; subst. destruct (isa v), (isa w), (X v =? X w)%nat; cbn [andb negb length]; repeat constructor; lia.
  - specialize (IH (q + if disp fc then 1 else 0)%nat ltac:(intros; apply H; right; auto) ltac:(lia)).
    refine (small_weaken _ _ _ _ IH). destruct (disp fc); cbn [length]; lia.
Qed.
Lemma econvs_submodular : forall fs q, (forall fc, In fc fs -> In fc (v_factors g)) -> submodular maxi (econvs q fs).
Proof.
  induction fs as [|fc fs IH]; intros q H; cbn [econvs]; [constructor|]. apply Forall_app. split; [|apply IH; intros; apply H; right; auto].
  assert (Hf := H fc (or_introl eq_refl)). pose proof (factor_vars g W fc Hf) as V. unfold expandable in EX. rewrite Forall_forall in EX. specialize (EX fc Hf).
  unfold econv. destruct fc as [[|v [|w [|z vis]]] f]; cbn [fst snd] in *; try constructor.
  - destruct (isa v); repeat constructor.
  - destruct (EX eq_refl) as [E1 E2]. inversion V as [|? ? V1 V']; inversion V' as [|? ? V2 _]; subst. pose proof (X_lt' v ltac:(auto)). pose proof (X_lt' w ltac:(auto)).
    destruct (Nat.eqb_spec (X v) a), (Nat.eqb_spec (X w) a); cbn [andb]; repeat constructor. destruct (Nat.eqb_spec (X v) (X w)) as [E|E]; repeat constructor; unfold excess; cbn [fst snd pair2 nth Nat.eqb].
    + specialize (E1 a (X v) Ha ltac:(auto) ltac:(auto)). rewrite <- E. unfold at_least_as_good in E1. destruct maxi; lia.
    + destruct (E2 a (X v) (X w) Ha ltac:(auto) ltac:(auto) ltac:(auto) ltac:(auto) E) as (F1 & F2 & _). unfold at_least_as_good in F1. destruct maxi; lia.
    + destruct (E2 a (X v) (X w) Ha ltac:(auto) ltac:(auto) ltac:(auto) ltac:(auto) E) as (F1 & F2 & _). unfold at_least_as_good in F2. destruct maxi; lia.
Qed.

(** ** What the graph says about a labeling *)
Definition Zof (y : nat -> nat) (v : nat) : nat := if isa v then X v else if (y v =? 0)%nat then a else X v.
Definition erest (fc : factor) : Z := match econv 0 fc with [] => snd fc (map (fun v => X v) (fst fc)) | _ => 0 end.
(** The factor as the graph sees it. *)
Definition seen (fc : factor) (z : nat -> nat) : Z := if disp fc then snd fc [a; a] else snd fc (map z (fst fc)).
Fixpoint seens (fs : list factor) (z : nat -> nat) : Z := match fs with [] => 0 | fc :: fs => seen fc z + seens fs z end.
Fixpoint erests (fs : list factor) : Z := match fs with [] => 0 | fc :: fs => erest fc + erests fs end.
Lemma econv_seen : forall y q fc, In fc (v_factors g) ->
  at_least_as_good maxi (seen fc (Zof y)) (esum (econv q fc) y + erest fc) /\ (y q = 0%nat -> seen fc (Zof y) = esum (econv q fc) y + erest fc).
Proof.
  intros y q fc Hf. unfold second_order in SO. rewrite Forall_forall in SO. specialize (SO fc Hf). unfold expandable in EX. rewrite Forall_forall in EX. specialize (EX fc Hf).
  pose proof (factor_vars g W fc Hf) as V. unfold seen, erest, econv, disp. destruct fc as [[|v [|w [|z vis]]] f]; cbn [fst snd] in *; [| | |cbn in SO; lia].
  - cbn. split; [apply alag_refl|auto].
  - cbn [map]. unfold Zof at 1 2. destruct (isa v); unfold esum; cbn [map sumZ fst snd unary2 nth]; [split; [apply alag_refl|auto]|].
    assert (E : f [if (y v =? 0)%nat then a else X v] = (if (y v =? 0)%nat then f [a] else f [X v]) + 0 + 0) by (destruct (y v =? 0)%nat; lia). rewrite E. split; [apply alag_refl|auto].
  - destruct (EX eq_refl) as [E1 E2]. inversion V as [|? ? V1 V']; inversion V' as [|? ? V2 _]; subst. pose proof (X_lt' v ltac:(auto)) as B1. pose proof (X_lt' w ltac:(auto)) as B2.
    cbn [map]. unfold Zof. destruct (Nat.eqb_spec (X v) a) as [A1|A1], (Nat.eqb_spec (X w) a) as [A2|A2]; cbn [andb negb]; rewrite ?andb_false_r; unfold esum; cbn [andb map sumZ fst snd unary2 pair2 nth].
    + split; [apply alag_refl|auto].
    + rewrite A1. match goal with |- at_least_as_good _ ?l ?r /\ _ => assert (E : l = r) by (destruct (y w =? 0)%nat; lia) end. rewrite E. split; [apply alag_refl|auto].
    + rewrite A2. match goal with |- at_least_as_good _ ?l ?r /\ _ => assert (E : l = r) by (destruct (y v =? 0)%nat; lia) end. rewrite E. split; [apply alag_refl|auto].
    + destruct (Nat.eqb_spec (X v) (X w)) as [A3|A3]; cbn [andb negb map sumZ fst snd unary2 pair2 nth].
      * match goal with |- at_least_as_good _ ?l ?r /\ _ => assert (E : l = r) by (destruct (y v =? 0)%nat, (y w =? 0)%nat; lia) end. rewrite E. split; [apply alag_refl|auto].
      * destruct (E2 a (X v) (X w) Ha B1 B2 A1 A2 A3) as (F1 & F2 & F3 & F4 & F5). split; [|intros ->; cbn [Nat.eqb]; destruct (y v =? 0)%nat, (y w =? 0)%nat; lia].
        unfold at_least_as_good in *. destruct (y q =? 0)%nat, (y v =? 0)%nat, (y w =? 0)%nat, maxi; lia.
Qed.
Lemma econvs_seen : forall y fs q, (forall fc, In fc fs -> In fc (v_factors g)) ->
  at_least_as_good maxi (seens fs (Zof y)) (esum (econvs q fs) y + erests fs) /\ ((forall j, (q <= j)%nat -> y j = 0%nat) -> seens fs (Zof y) = esum (econvs q fs) y + erests fs).
Proof.
  intros y. induction fs as [|fc fs IH]; intros q H; cbn [seens econvs erests]; [cbn; split; [apply alag_refl|auto]|]. rewrite esum_app.
  destruct (econv_seen y q fc (H fc (or_introl eq_refl))) as [P1 P2]. destruct (IH (q + if disp fc then 1 else 0)%nat ltac:(intros; apply H; right; auto)) as [Q1 Q2]. split.
  - unfold at_least_as_good in *. destruct maxi; lia.
  - intros Y. rewrite P2 by (apply Y; lia). rewrite Q2 by (intros; apply Y; lia). lia.
Qed.
(** The unary factors for variables labeled [a]. *)
Definition ubest : Z := if maxi then Z.max 0 infinity else Z.min 0 infinity.
Definition uchoice : nat := if bopZ maxi infinity 0 then 1%nat else 0%nat.
Lemma aunaries_seen : forall y l, at_least_as_good maxi (Z.of_nat (length (filter (fun v => isa v) l)) * ubest) (esum (flat_map (fun v => if isa v then [unary2 v 0 infinity] else []) l) y) /\
  ((forall v, In v l -> isa v = true -> y v = uchoice) -> Z.of_nat (length (filter (fun v => isa v) l)) * ubest = esum (flat_map (fun v => if isa v then [unary2 v 0 infinity] else []) l) y).
Proof.
  intros y. induction l as [|v l [IH1 IH2]]; cbn [flat_map filter]; [cbn; split; [apply alag_refl|auto]|]. rewrite esum_app. destruct (isa v) eqn:I.
  - cbn [length]. rewrite Nat2Z.inj_succ. unfold esum at 1 3. cbn [map sumZ fst snd unary2 nth]. split.
    + unfold at_least_as_good, ubest in *. destruct (y v =? 0)%nat, maxi; lia.
    + intros Y. assert (E := IH2 ltac:(intros; apply Y; auto; right; auto)). rewrite (Y v (or_introl eq_refl) I).
      match goal with |- ?lhs = _ => replace lhs with (ubest + Z.of_nat (length (filter (fun v => isa v) l)) * ubest) by lia end. rewrite E.
      match goal with |- ubest + ?e = ?t + ?e => replace t with ubest; auto end. unfold ubest, uchoice, bopZ. destruct maxi; [destruct (Z.ltb_spec 0 infinity)|destruct (Z.ltb_spec infinity 0)]; cbn [Nat.eqb]; lia.
  - split; [auto|]. intros Y. rewrite IH2 by (intros; apply Y; auto; right; auto). auto.
Qed.
Lemma aunaries_small : small_factors n aunaries /\ submodular maxi aunaries.
Proof.
  split; apply Forall_forall; intros q Hq; unfold aunaries in Hq; apply in_flat_map in Hq; destruct Hq as (v & Hv & Hq); apply in_seq in Hv; (destruct (isa v); [destruct Hq as [<-|[]]|destruct Hq]); cbn; auto.
  split; [lia|]. repeat constructor. lia.
Qed.

Lemma expand_ok : exists x', expand maxi cut g infinity a x scale = Ret x' /\ labeling g x' /\ expansion_of a x x' /\
  forall y, expansion_of a x y -> at_least_as_good maxi (seens (v_factors g) (fun v => nth v x' 0%nat)) (seens (v_factors g) (fun v => nth v y 0%nat)).
Proof.
  set (A := naux (v_factors g)). set (FS := aunaries ++ econvs n (v_factors g)). destruct aunaries_small as [US UM].
  assert (SM : small_factors (n + A) FS). { apply Forall_app. split; [apply (small_weaken n); auto; lia|apply econvs_small; auto]. }
  assert (SB : submodular maxi FS). { apply Forall_app. split; auto. apply econvs_submodular. auto. }
  destruct (C40_factors maxi cut (n + A) [0; 0; 0; 0]%nat scale 0 FS HC HS eq_refl SM SB) as (s & st & E1 & E2 & LS & OPT). apply binary_labeling in LS. destruct LS as [LS BS].
  unfold FS in E1. rewrite foldM_app in E1. destruct (foldM (gc_addFactor maxi) aunaries (gc_create (n + A) [0; 0; 0; 0]%nat scale 0)) as [s1| | |] eqn:E0; try discriminate E1. cbn [bind] in E1.
  unfold expand. rewrite count_ok. cbn [bind]. rewrite (alpha_graph_ok _ eq_refl s1 E0). cbn [bind snd fst]. unfold ae_numVar.
  destruct (Nat.ltb_spec (length (filter (fun v => isa v) (seq 0 n))) n) as [C|C].
  - destruct (expand_graph_ok (v_factors g) n s1 s ltac:(auto) E1) as (q' & E3). rewrite E3. cbn [bind fst]. rewrite E2. cbn [bind].
    set (yst := fun j => nth j st 0%nat). exists (map (Zof yst) (seq 0 n)). set (x' := map (Zof yst) (seq 0 n)).
    assert (LL : length x' = n) by (unfold x'; rewrite map_length, seq_length; auto).
    assert (Nx : forall v, (v < n)%nat -> nth v x' 0%nat = Zof yst v).
    { intros v Hv. unfold x'. rewrite (nth_indep _ 0%nat (Zof yst 0)) by (rewrite map_length, seq_length; auto). rewrite map_nth, seq_nth by auto. auto. }
    split.
    { unfold expand_labels, ae_numVar. apply mapM_Ret. intros v Hv. apply in_seq in Hv. rewrite (rd_nth _ x _ 0%nat) by (rewrite Lx'; lia). cbn [bind]. unfold Zof.
      destruct (isa v); cbn [negb]; auto. rewrite (rd_nth _ st _ 0%nat) by lia. auto. }
    split.
    { apply (same_labeling k g x' SL). split; auto. apply Forall_forall. intros l Hl. apply (In_nth _ _ 0%nat) in Hl. destruct Hl as (v & Hv & <-). rewrite LL in Hv. rewrite Nx by auto. unfold Zof.
      pose proof (X_lt' v Hv). destruct (isa v); auto. destruct (_ =? 0)%nat; auto. }
    split.
    { split; [rewrite Lx', LL; auto|]. intros v Hv. rewrite Lx' in Hv. rewrite Nx by auto. unfold Zof. destruct (isa v); auto. destruct (_ =? 0)%nat; auto. }
    assert (SX : forall z z' : nat -> nat, (forall v, (v < n)%nat -> z v = z' v) -> seens (v_factors g) z = seens (v_factors g) z').
    { intros z z' Hz. assert (G : forall fs, (forall fc, In fc fs -> In fc (v_factors g)) -> seens fs z = seens fs z').
      { induction fs as [|fc fs IH]; intros H; auto. cbn [seens]. rewrite IH by (intros; apply H; right; auto). f_equal. unfold seen. destruct (disp fc); auto. f_equal.
        apply map_ext_in. intros v Hv. apply Hz. pose proof (factor_vars g W fc (H fc (or_introl eq_refl))) as V. rewrite Forall_forall in V. auto. }
      apply G. auto. }
    intros y [Ly Sy]. rewrite (SX _ (Zof yst)) by auto.
    set (yb := map (fun v => if isa v then uchoice else if (nth v y 0 =? a)%nat then 0%nat else 1%nat) (seq 0 n) ++ repeat 0%nat A).
    assert (LB : length yb = (n + A)%nat) by (unfold yb; rewrite app_length, map_length, seq_length, repeat_length; auto).
    assert (NB : forall v, (v < n)%nat -> nth v yb 0%nat = if isa v then uchoice else if (nth v y 0 =? a)%nat then 0%nat else 1%nat).
    { intros v Hv. unfold yb. rewrite app_nth1 by (rewrite map_length, seq_length; auto). set (h := fun v => _). rewrite (nth_indep _ 0%nat (h 0%nat)) by (rewrite map_length, seq_length; auto). rewrite map_nth, seq_nth by auto. auto. }
    assert (NZ : forall j, (n <= j)%nat -> nth j yb 0%nat = 0%nat).
    { intros j Hj. unfold yb. rewrite app_nth2; rewrite map_length, seq_length; auto. apply nth_repeat. }
    rewrite (SX (fun v => nth v y 0%nat) (Zof (fun j => nth j yb 0%nat))).
    2:{ intros v Hv. unfold Zof. rewrite NB by auto. specialize (Sy v ltac:(rewrite Lx'; auto)). destruct (Nat.eqb_spec (X v) a) as [I|I].
        - destruct Sy as [Sy|Sy]; congruence.
        - destruct (Nat.eqb_spec (nth v y 0%nat) a); cbn [Nat.eqb]; auto. destruct Sy; congruence. }
    assert (LY : labeling (mkGmv (repeat 2%nat (n + A)) FS) yb).
    { apply binary_labeling. split; auto. apply Forall_forall. intros l Hl. unfold yb in Hl. apply in_app_iff in Hl. destruct Hl as [Hl|Hl]; [|apply repeat_spec in Hl; lia].
      apply in_map_iff in Hl. destruct Hl as (v & <- & _). unfold uchoice. destruct (isa v), (bopZ maxi infinity 0), (nth v y 0 =? a)%nat; lia. }
    specialize (OPT yb LY). rewrite !energy_sum in OPT. cbn [v_factors] in OPT. unfold FS in OPT. rewrite !esum_app in OPT. fold yst in OPT. set (yyb := fun j => nth j yb 0%nat) in *.
    destruct (econvs_seen yst (v_factors g) n ltac:(auto)) as [P1 _]. destruct (econvs_seen yyb (v_factors g) n ltac:(auto)) as [_ P2]. specialize (P2 NZ).
    destruct (aunaries_seen yst (seq 0 n)) as [Q1 _]. destruct (aunaries_seen yyb (seq 0 n)) as [_ Q2]. fold aunaries in Q1, Q2.
    assert (Q2' := Q2 ltac:(intros v Hv I; apply in_seq in Hv; unfold yyb; rewrite NB by lia; rewrite I; auto)).
    unfold at_least_as_good in *. destruct maxi; lia.
  - exists x. split; auto. split; auto. split; [split; auto|].
    intros y [Ly Sy]. assert (y = x); [|subst y; apply alag_refl]. apply nth_ext with (d := 0%nat) (d' := 0%nat); auto. intros v Hv.
    assert (I : isa v = true).
    { assert (F : Forall (fun v => isa v = true) (seq 0 n)).
      { apply filter_full. rewrite seq_length. auto. }
      rewrite Forall_forall in F. apply F. apply in_seq. rewrite Ly, Lx' in Hv. lia. }
    apply Nat.eqb_eq in I. destruct (Sy v ltac:(congruence)); congruence.
Qed.
End Move.

(** Reading factors at an expansion. *)
Lemma lab_lt : forall z, labeling g z -> forall v, (v < n)%nat -> (nth v z 0 < k)%nat.
Proof.
  intros z Hz v Hv. apply (same_labeling k g _ SL) in Hz. destruct Hz as [L F]. rewrite Forall_forall in F. apply F, nth_In. lia.
Qed.
Lemma hidden_ok : forall a x x', (a < k)%nat -> labeling g x -> expansion_of a x x' -> forall fs, (forall fc, In fc fs -> In fc (v_factors g)) ->
  at_least_as_good maxi (esum fs (fun v => nth v x' 0%nat) + seens a x fs (fun v => nth v x 0%nat)) (esum fs (fun v => nth v x 0%nat) + seens a x fs (fun v => nth v x' 0%nat)).
Proof.
  intros a x x' Ha Hx [Lx1 Sx]. induction fs as [|fc fs IH]; intros H; [apply alag_refl|]. specialize (IH ltac:(intros; apply H; right; auto)). unfold esum. cbn [map sumZ seens]. fold (esum fs (fun v => nth v x' 0%nat)) (esum fs (fun v => nth v x 0%nat)).
  assert (P : at_least_as_good maxi (snd fc (map (fun v => nth v x' 0%nat) (fst fc)) + seen a x fc (fun v => nth v x 0%nat)) (snd fc (map (fun v => nth v x 0%nat) (fst fc)) + seen a x fc (fun v => nth v x' 0%nat))).
  { assert (Hf := H fc (or_introl eq_refl)). unfold seen. destruct (disp a x fc) eqn:D; [|unfold at_least_as_good; destruct maxi; lia].
    unfold disp in D. destruct fc as [[|v [|w [|z vis]]] f]; try discriminate D. cbn [fst snd map] in *. apply andb_true_iff in D. destruct D as [D D3]. apply andb_true_iff in D. destruct D as [D1 D2].
    apply negb_true_iff, Nat.eqb_neq in D1, D2, D3. pose proof (factor_vars g W _ Hf) as V. cbn [fst] in V. inversion V as [|? ? V1 V']; inversion V' as [|? ? V2 _]; subst.
    pose proof (lab_lt x Hx v V1). pose proof (lab_lt x Hx w V2). unfold expandable in EX. rewrite Forall_forall in EX. destruct (EX _ Hf eq_refl) as [_ E2]. cbn [snd] in E2.
    destruct (E2 a (nth v x 0%nat) (nth w x 0%nat) Ha ltac:(eassumption) ltac:(eassumption) D2 D3 D1) as (_ & _ & F3 & F4 & F5). assert (LX := labeling_length _ g x Hx).
    destruct (Sx v ltac:(lia)) as [-> | ->], (Sx w ltac:(lia)) as [-> | ->]; unfold at_least_as_good in *; destruct maxi; lia. }
  unfold at_least_as_good in *. destruct maxi; lia.
Qed.
Lemma move_ok : forall a x, (a < k)%nat -> labeling g x -> exists x', expand maxi cut g infinity a x scale = Ret x' /\ labeling g x' /\ expansion_of a x x' /\
  at_least_as_good maxi (energy g x') (energy g x) /\ (k = 2%nat -> forall y, expansion_of a x y -> at_least_as_good maxi (energy g x') (energy g y)).
Proof.
  intros a x Ha Hx. destruct (expand_ok a Ha x Hx) as (x' & E & L & X & O). exists x'. split; auto. split; auto. split; auto. split.
  - pose proof (O x ltac:(split; auto)) as P. pose proof (hidden_ok a x x' Ha Hx X (v_factors g) ltac:(auto)) as Q. rewrite !energy_sum. unfold at_least_as_good in *. destruct maxi; lia.
  - intros K y Hy. specialize (O y Hy). rewrite !energy_sum. pose proof (lab_lt x Hx) as LT.
    assert (G : forall z fs, (forall fc, In fc fs -> In fc (v_factors g)) -> seens a x fs z = esum fs z).
    { intros z. induction fs as [|fc fs IH]; intros H; auto. cbn [seens]. rewrite IH by (intros; apply H; right; auto). unfold esum. cbn [map sumZ]. f_equal. unfold seen.
      replace (disp a x fc) with false; auto. symmetry. unfold disp. pose proof (factor_vars g W _ (H fc (or_introl eq_refl))) as V. destruct (fst fc) as [|v [|w [|u vis]]]; auto.
      inversion V as [|? ? V1 V']; inversion V' as [|? ? V2 _]; subst. pose proof (LT v V1). pose proof (LT w V2).
      destruct (Nat.eqb_spec (nth v x 0%nat) (nth w x 0%nat)), (Nat.eqb_spec (nth v x 0%nat) a), (Nat.eqb_spec (nth w x 0%nat) a); auto. lia. }
    rewrite !G in O by auto. auto.
Qed.

(** ** Two moves of a binary model *)
Lemma two_moves : forall a b x x1 x2, k = 2%nat -> (a < k)%nat -> (b < k)%nat -> a <> b -> labeling g x -> labeling g x1 -> expansion_of a x x1 ->
  (forall y, expansion_of a x y -> at_least_as_good maxi (energy g x1) (energy g y)) ->
  (forall y, expansion_of b x1 y -> at_least_as_good maxi (energy g x2) (energy g y)) ->
  forall y, labeling g y -> at_least_as_good maxi (energy g x2) (energy g y).
Proof.
  intros a b x x1 x2 K Ha Hb N Hx H1 X1 O1 O2 y Hy. assert (Lx := labeling_length _ g _ Hx). assert (L1 := labeling_length _ g _ H1). assert (Ly := labeling_length _ g _ Hy).
  set (mf := fun v => if (nth v x1 0 =? a)%nat || (nth v y 0 =? a)%nat then a else b). set (jf := fun v => if (nth v x1 0 =? b)%nat || (nth v y 0 =? b)%nat then b else a).
  assert (NM : forall (h : nat -> nat) v, (v < n)%nat -> nth v (map h (seq 0 n)) 0%nat = h v).
  { intros h v Hv. rewrite (nth_indep _ 0%nat (h 0%nat)) by (rewrite map_length, seq_length; auto). rewrite map_nth, seq_nth by auto. auto. }
  assert (AB : forall z, labeling g z -> forall v, (v < n)%nat -> nth v z 0%nat = a \/ nth v z 0%nat = b).
  { intros z Hz v Hv. pose proof (lab_lt z Hz v Hv). lia. }
  assert (E1 : at_least_as_good maxi (energy g x1) (energy g (map mf (seq 0 n)))).
  { apply O1. split; [rewrite map_length, seq_length; auto|]. intros v Hv. rewrite Lx in Hv. rewrite NM by auto. unfold mf. destruct X1 as [_ X1]. specialize (X1 v ltac:(lia)).
    destruct (Nat.eqb_spec (nth v x1 0%nat) a); cbn [orb]; auto. destruct (nth v y 0 =? a)%nat; auto. right. destruct X1; [contradiction|]. destruct (AB x1 H1 v Hv); congruence. }
  assert (E2 : at_least_as_good maxi (energy g x2) (energy g (map jf (seq 0 n)))).
  { apply O2. split; [rewrite map_length, seq_length; auto|]. intros v Hv. rewrite L1 in Hv. rewrite NM by auto. unfold jf.
    destruct (Nat.eqb_spec (nth v x1 0%nat) b); cbn [orb]; auto. destruct (nth v y 0 =? b)%nat; auto. right. destruct (AB x1 H1 v Hv); congruence. }
  assert (E3 : at_least_as_good maxi (energy g (map mf (seq 0 n)) + energy g (map jf (seq 0 n))) (energy g x1 + energy g y)).
  { rewrite !energy_sum. assert (G : forall fs, (forall fc, In fc fs -> In fc (v_factors g)) ->
      at_least_as_good maxi (esum fs (fun v => nth v (map mf (seq 0 n)) 0%nat) + esum fs (fun v => nth v (map jf (seq 0 n)) 0%nat)) (esum fs (fun v => nth v x1 0%nat) + esum fs (fun v => nth v y 0%nat))).
    { induction fs as [|fc fs IH]; intros H; [apply alag_refl|]. specialize (IH ltac:(intros; apply H; right; auto)). assert (Hf := H fc (or_introl eq_refl)).
      unfold esum in *. cbn [map sumZ].
      match goal with |- at_least_as_good _ (?p + ?P + (?q + ?Q)) (?r + ?R + (?s + ?S)) => assert (PF : at_least_as_good maxi (p + q) (r + s)) end.
      { pose proof (factor_vars g W _ Hf) as V. unfold second_order in SO. rewrite Forall_forall in SO. specialize (SO fc Hf). unfold expandable in EX. rewrite Forall_forall in EX. specialize (EX fc Hf).
        destruct fc as [[|v [|w [|u vis]]] f]; cbn [fst snd map] in *; [apply alag_refl| | |cbn in SO; lia].
        - inversion V; subst. rewrite !NM by auto. unfold mf, jf. destruct (AB x1 H1 v ltac:(auto)) as [-> | ->], (AB y Hy v ltac:(auto)) as [-> | ->]; rewrite ?Nat.eqb_refl; destruct (Nat.eqb_spec a b), (Nat.eqb_spec b a); try congruence; cbn [orb]; unfold at_least_as_good; destruct maxi; lia.
        - destruct (EX eq_refl) as [F _]. specialize (F a b Ha Hb N). inversion V as [|? ? V1 V']; inversion V' as [|? ? V2 _]; subst. rewrite !NM by auto. unfold mf, jf.
          destruct (AB x1 H1 v V1) as [-> | ->], (AB y Hy v V1) as [-> | ->], (AB x1 H1 w V2) as [-> | ->], (AB y Hy w V2) as [-> | ->]; rewrite ?Nat.eqb_refl; destruct (Nat.eqb_spec a b), (Nat.eqb_spec b a); try congruence; cbn [orb]; unfold at_least_as_good in *; destruct maxi; lia. }
      unfold at_least_as_good in *. destruct maxi; lia. }
    apply G. auto. }
  unfold at_least_as_good in *. destruct maxi; lia.
Qed.

(** ** The loop *)
Hypothesis NV : (0 < n)%nat.
Lemma maxState_eq : ae_maxState g = k. Proof. apply (maxState_ok g k SL NV). Qed.
Definition aeinv (s : ae) : Prop := labeling g (ae_label s) /\ Permutation (ae_list s) (seq 0 k) /\ (ae_counter s < k)%nat /\ nth (ae_counter s) (ae_list s) 0%nat = ae_alpha s.
Lemma perm_nth : forall l c, Permutation l (seq 0 k) -> (c < k)%nat -> (nth c l 0 < k)%nat /\ length l = k.
Proof.
  intros l c P Hc. assert (L : length l = k) by (rewrite (Permutation_length P), seq_length; auto). split; auto.
  assert (I : In (nth c l 0%nat) (seq 0 k)) by (apply (Permutation_in _ P), nth_In; lia). apply in_seq in I. lia.
Qed.
Lemma increment_ok' : forall s x, aeinv s -> labeling g x -> exists s', incrementAlpha g (mkAe x (ae_list s) (ae_alpha s) (ae_counter s)) = Ret s' /\ aeinv s' /\ ae_label s' = x /\
  (2 <= k -> ae_alpha s' <> ae_alpha s)%nat.
Proof.
  intros s x (A & B & C & D) Hx. unfold incrementAlpha. cbn [ae_counter ae_list ae_label]. rewrite maxState_eq. set (c := ((ae_counter s + 1) mod k)%nat).
  assert (Hc : (c < k)%nat) by (apply Nat.mod_upper_bound; lia). destruct (perm_nth _ _ B Hc) as [P1 P2]. rewrite (rd_nth _ _ _ 0%nat) by lia. cbn [bind]. eexists. split; [reflexivity|].
  split; [split; [auto|split; [auto|split; auto]]|]. split; auto. cbn [ae_alpha]. intros K E. rewrite <- D in E.
  assert (ND : NoDup (ae_list s)) by (eapply Permutation_NoDup; [apply Permutation_sym; exact B|apply seq_NoDup]).
  rewrite NoDup_nth in ND. specialize (ND c (ae_counter s) ltac:(lia) ltac:(lia) E). unfold c in ND.
  destruct (Nat.eq_dec (ae_counter s + 1) k) as [Q|Q]; [rewrite Q, Nat.mod_same in ND by lia; lia|rewrite Nat.mod_small in ND by lia; lia].
Qed.
Variable stop : nat -> bool.
Lemma ae_loop_ok : forall steps calls s unch ex, aeinv s ->
  exists s', ae_loop maxi cut g infinity stop scale steps calls s (energy g (ae_label s)) unch ex = Ret s' /\ aeinv s' /\
    at_least_as_good maxi (energy g (ae_label s')) (energy g (ae_label s)) /\
    (k = 2%nat -> (2 <= steps)%nat -> unch = 0%nat -> ex = false -> stop calls = false -> forall y, labeling g y -> at_least_as_good maxi (energy g (ae_label s')) (energy g y)) /\
    (k = 2%nat -> (1 <= steps)%nat -> (unch < 2)%nat -> ex = false -> forall y, expansion_of (ae_alpha s) (ae_label s) y -> at_least_as_good maxi (energy g (ae_label s')) (energy g y)).
Proof.
  induction steps as [|steps IH]; intros calls s unch ex I; cbn [ae_loop].
  { exists s. split; auto. split; auto. split; [apply alag_refl|]. split; intros; lia. }
  rewrite maxState_eq. destruct (Nat.ltb_spec unch k) as [U|U]; cbn [andb].
  2:{ exists s. split; auto. split; auto. split; [apply alag_refl|]. split; intros; lia. }
  destruct ex; cbn [negb]. { exists s. split; auto. split; auto. split; [apply alag_refl|]. split; intros; discriminate. }
  pose proof I as (HL & HP & Hc & HA). destruct (perm_nth _ _ HP Hc) as [Ha _]. rewrite HA in Ha.
  destruct (move_ok (ae_alpha s) (ae_label s) Ha HL) as (x' & E & L & X & NW & O). rewrite E. cbn [bind].
  rewrite (v_evaluate_total Z AdderZ g x' W (labeling_length _ g _ L)). cbn [bind]. fold (energy g x').
  destruct (increment_ok' s x' I L) as (s1 & E1 & I1 & X1 & N1). rewrite E1. cbn [bind].
  assert (R : exists u1 s', (u1 < 2 \/ u1 = S unch)%nat /\ (if bopZ maxi (energy g x') (energy g (ae_label s)) then ae_loop maxi cut g infinity stop scale steps (S calls) s1 (energy g x') 0 (stop calls)
      else ae_loop maxi cut g infinity stop scale steps (S calls) s1 (energy g (ae_label s)) (S unch) (stop calls)) = Ret s' /\ aeinv s' /\
      at_least_as_good maxi (energy g (ae_label s')) (energy g x') /\
      (k = 2%nat -> (1 <= steps)%nat -> (u1 < 2)%nat -> stop calls = false -> forall y, expansion_of (ae_alpha s1) x' y -> at_least_as_good maxi (energy g (ae_label s')) (energy g y))).
  { rewrite <- X1. destruct (bopZ maxi (energy g (ae_label s1)) (energy g (ae_label s))) eqn:BO.
    - destruct (IH (S calls) s1 0%nat (stop calls) I1) as (s' & E' & D1 & D2 & _ & D3). exists 0%nat, s'. split; [lia|]. auto.
    - rewrite X1 in BO. rewrite <- (bopZ_false maxi _ _ BO NW). rewrite <- X1. destruct (IH (S calls) s1 (S unch) (stop calls) I1) as (s' & E' & D1 & D2 & _ & D3). exists (S unch), s'. split; [lia|]. auto. }
  destruct R as (u1 & s' & U1 & E' & D1 & D2 & D3). exists s'. split; auto. split; auto. split; [eapply alag_trans; eauto|]. split.
  - intros K St U0 _ SF y Hy. subst unch. eapply two_moves with (a := ae_alpha s) (b := ae_alpha s1) (x := ae_label s) (x1 := x'); eauto.
    + destruct I1 as (_ & HP1 & Hc1 & HA1). destruct (perm_nth _ _ HP1 Hc1) as [Hb _]. lia.
    + intros Q. apply N1; [lia|]. auto.
    + apply D3; auto; lia.
  - intros K _ _ _ y Hy. eapply alag_trans; [exact D2|]. auto.
Qed.
Lemma ae_infer_ok : forall steps s, aeinv s -> exists s', ae_infer maxi cut g infinity stop scale steps s = Ret s' /\ aeinv s' /\
    at_least_as_good maxi (energy g (ae_label s')) (energy g (ae_label s)) /\
    (k = 2%nat -> (2 <= steps)%nat -> stop 0%nat = false -> best_labeling maxi g (ae_label s')).
Proof.
  intros steps s I. unfold ae_infer. rewrite (v_evaluate_total Z AdderZ g _ W (labeling_length _ g _ (proj1 I))). cbn [bind]. fold (energy g (ae_label s)).
  destruct (ae_loop_ok steps 0 s 0 false I) as (s' & E & A & B & C & _). exists s'. split; auto. split; auto. split; auto. intros. split; [apply A|]. apply C; auto.
Qed.
End Proofs.
