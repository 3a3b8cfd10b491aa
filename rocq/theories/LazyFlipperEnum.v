(** The paths the lazy flipper generates: termination in every forest, completeness from the empty forest. *)
From Verif Require Import Base GmProofs MovemakerModel MovemakerProofs LazyFlipperModel LazyFlipperForest.
From Coq Require Import Sorted.
#[local] Arguments nth_error : simpl never.

Lemma Ret_pair : forall A B (a c : A) (b d : B), Ret (a, b) = Ret (c, d) -> c = a /\ d = b.
Proof. intros A B a c b d H. injection H as -> ->. auto. Qed.

Section E.
Variable n : nat.
Variable adj : list (list nat).
Hypothesis LA : length adj = n.
Notation nbr u w := (In w (nth u adj [])).
Hypothesis NB : forall u w, nbr u w -> w < n.
Hypothesis NS : forall u w, nbr u w -> nbr w u.
Notation wf := (wf n adj).
Notation ok := (ok adj).
Notation fits := (fits adj).

Lemma chain_ex : forall f, wf f -> forall d i, size f - i <= d -> i < size f -> exists l, chain f (Some i) l /\ length l <= d /\
  Forall (fun j => i <= j < size f /\ lvl f j = lvl f i) l.
Proof.
  intros f WF. induction d as [|d IH]; intros i Hd Hi; [lia|]. destruct (suc f i) as [s|] eqn:E.
  - destruct (wf_succ _ _ f WF i s Hi E) as [Hs HL]. destruct (IH s ltac:(lia) ltac:(lia)) as (l & Hl & LL & FL).
    exists (i :: l). split; [constructor; auto; rewrite E; auto|]. split; [cbn; lia|]. constructor; [auto|]. eapply Forall_impl; [|exact FL].
    intros j [A B]. cbn beta. split; [lia|congruence].
  - exists [i]. split; [constructor; auto; rewrite E; constructor|]. split; [cbn; lia|]. constructor; auto.
Qed.
Lemma chain_facts : forall f i l, wf f -> chain f (Some i) l -> length l <= size f /\ Forall (fun j => i <= j < size f /\ lvl f j = lvl f i) l.
Proof.
  intros f i l WF H. assert (Hi : i < size f) by (inversion H; auto). destruct (chain_ex f WF (size f - i) i ltac:(lia) Hi) as (l' & H' & A & B).
  rewrite (chain_det _ _ _ _ H H'). split; [lia|auto].
Qed.
Lemma chain_sorted : forall f p l, wf f -> chain f p l -> StronglySorted lt l.
Proof.
  intros f p l WF H. induction H as [|i l Hi H IH]; constructor; auto. destruct (suc f i) as [s|] eqn:E; [|inversion H; subst; constructor].
  destruct (wf_succ _ _ f WF i s Hi E) as [Hs _]. destruct (chain_facts f s l WF H) as [_ F]. eapply Forall_impl; [|exact F]. cbn beta. intros. lia.
Qed.

Lemma append_along_ok : forall f, wf f -> forall p l, chain f p l -> forall fuel, n + length l <= fuel ->
  (append_along adj fuel f p = Ret (f, None) /\ forall i w, In i l -> ~ fits f i w) \/
  exists l1 i l2 w, l = l1 ++ i :: l2 /\ append_along adj fuel f p = Ret (push f w (Some i), Some (size f)) /\
    (forall j w', In j l1 -> ~ fits f j w') /\ fits f i w /\ forall w', fits f i w' -> w <= w'.
Proof.
  intros f WF p l H. induction H as [|i l Hi H IH]; intros fuel Hf.
  - left. split; [destruct fuel; auto|intros i w []].
  - cbn [length] in Hf. destruct fuel as [|fuel]; [lia|]. cbn [append_along].
    destruct (append_ok n adj LA NB NS f i (S fuel) WF Hi ltac:(lia)) as [[E N]|(w & E & A & B)]; rewrite E; cbn [bind].
    + unfold fo_succ. rewrite rd_nd by auto. cbn [bind]. destruct (IH fuel ltac:(lia)) as [[E' N']|(l1 & j & l2 & w & -> & E' & A & B & C)].
      * left. split; auto. intros k w [<-|Hk]; auto.
      * right. exists (i :: l1), j, l2, w. split; auto. split; auto. split; [|auto]. intros k w' [<-|Hk]; auto.
    + right. exists [], i, l, w. split; [auto|split; [auto|split; [intros ? ? []|auto]]].
Qed.

(** What a later forest keeps of an earlier one when level [L] is being filled. *)
Record ext (L : nat) (f fe : forest) : Prop := mkExt {
  ex_path : forall p P, path f p P -> path fe p P;
  ex_chain : forall p C, chain f p C -> (forall i, In i C -> lvl f i <> L) -> chain fe p C;
  ex_size : size f <= size fe;
  ex_node : forall i, i < size f -> vl fe i = vl f i /\ par fe i = par f i /\ lvl fe i = lvl f i;
  ex_anchor : forall l a, nth_error (fo_anchors f) l = Some a -> nth_error (fo_anchors fe) l = Some a;
  ex_new : forall i, size f <= i < size fe -> lvl fe i = L }.

Lemma ext_refl : forall L f, ext L f f.
Proof. intros. split; auto. lia. Qed.
Lemma ext_trans : forall L a b c, ext L a b -> ext L b c -> ext L a c.
Proof.
  intros L a b c [A1 A2 A3 A4 A5 A6] [B1 B2 B3 B4 B5 B6]. split; auto; try lia.
  - intros p C H X. apply B2; auto. intros i Hi. assert (i < size a). { clear - H Hi. induction H; [destruct Hi|]. destruct Hi as [<-|Hi]; auto. }
    destruct (A4 i H0) as (_ & _ & ->). auto.
  - intros i Hi. destruct (A4 i Hi) as (<- & <- & <-). apply B4. lia.
  - intros i Hi. destruct (Nat.lt_ge_cases i (size b)); [|apply B6; lia]. destruct (B4 i H) as (_ & _ & ->). apply A6. lia.
Qed.
Lemma ext_push : forall f v p, ext (match p with None => 0 | Some q => S (lvl f q) end) f (push f v p).
Proof.
  intros f v p. split.
  - intros. apply path_push. auto.
  - intros. apply chain_push. auto.
  - rewrite push_size. lia.
  - intros i Hi. destruct (push_same f v p i Hi) as (A & B & C & _). auto.
  - intros l a H. rewrite push_anchors. destruct (_ <=? _); auto. rewrite nth_error_app1; auto. apply nth_error_Some. congruence.
  - intros i Hi. rewrite push_size in Hi. replace i with (size f) by lia. rewrite push_new. auto.
Qed.
Lemma ext_setSucc : forall f p s, p < size f -> ext (lvl f p) f (setSucc f p s).
Proof.
  intros f p s Hp. split.
  - intros. apply path_setSucc; auto.
  - intros q C H X. induction H as [|i l Hi H IH]; [constructor|]. constructor; [rewrite setSucc_size; auto|].
    destruct (setSucc_same f p s i Hp) as (_ & _ & _ & _ & ->). destruct (Nat.eqb_spec i p) as [->|N]; [exfalso; apply (X p); [left; auto|auto]|].
    apply IH. intros j Hj. apply X. right. auto.
  - rewrite setSucc_size. lia.
  - intros i Hi. destruct (setSucc_same f p s i Hp) as (A & B & C & _). auto.
  - auto.
  - intros i Hi. rewrite setSucc_size in Hi. lia.
Qed.

(** One call of generateNextPathOfSameLength on any well-formed forest. *)
Lemma next_root_ok : forall f q, wf f -> q < size f -> lvl f q = 0 -> forall fuel,
  (n <= S (vl f q) /\ generateNext adj n fuel f q = Ret (f, None)) \/
  (S (vl f q) < n /\ generateNext adj n fuel f q = Ret (setSucc (push f (S (vl f q)) None) q (size f), Some (size f))).
Proof.
  intros f q WF Hq HL fuel. unfold generateNext, fo_level, fo_value. rewrite rd_nd by auto. cbn [bind]. rewrite HL. cbn [Nat.eqb bind].
  destruct (Nat.ltb_spec (S (vl f q)) n); [right|left; auto]. split; auto. rewrite fo_push_ret by auto. cbn [bind]. rewrite fo_setSucc_ret by (rewrite push_size; lia). auto.
Qed.
Lemma next_child_ok : forall f q b B, wf f -> q < size f -> lvl f q <> 0 -> par f q = Some b -> chain f (Some b) B -> forall fuel, n + size f <= fuel ->
  (generateNext adj n fuel f q = Ret (f, None) /\ forall i w, In i B -> ~ fits f i w) \/
  exists l1 i l2 w, B = l1 ++ i :: l2 /\ generateNext adj n fuel f q = Ret (setSucc (push f w (Some i)) q (size f), Some (size f)) /\
    (forall j w', In j l1 -> ~ fits f j w') /\ fits f i w /\ forall w', fits f i w' -> w <= w'.
Proof.
  intros f q b B WF Hq HL HP HB fuel Hf. unfold generateNext, fo_level, fo_parent. rewrite rd_nd by auto. cbn [bind]. apply Nat.eqb_neq in HL. rewrite HL.
  rewrite HP. destruct (chain_facts f b B WF HB) as [LB _].
  destruct (append_along_ok f WF (Some b) B HB fuel ltac:(lia)) as [[E N]|(l1 & i & l2 & w & EB & E & A & C & D)]; rewrite E; cbn [bind].
  - left. auto.
  - right. exists l1, i, l2, w. split; auto. rewrite fo_setSucc_ret by (rewrite push_size; lia). auto.
Qed.

(** The forest after a root or child is appended behind [q]. *)
Lemma wf_next_root : forall f q, wf f -> q < size f -> lvl f q = 0 -> S (vl f q) < n ->
  let f' := setSucc (push f (S (vl f q)) None) q (size f) in wf f' /\ ext 0 f f' /\ size f' = S (size f) /\ lvl f' (size f) = 0 /\ vl f' (size f) = S (vl f q) /\ par f' (size f) = None.
Proof.
  intros f q WF Hq HL Hv f'. pose proof (wf_push_root n adj LA NB f (S (vl f q)) WF Hv) as W1.
  set (f1 := push f (S (vl f q)) None) in *. destruct (push_same f (S (vl f q)) None q Hq) as (A & B & C & D & _). fold f1 in A, B, C, D.
  assert (N1 : nd f1 (size f) = mkNode (S (vl f q)) None [] 0 None) by apply push_new.
  assert (S1 : size f1 = S (size f)) by apply push_size.
  destruct (setSucc_same f1 q (size f) (size f) ltac:(lia)) as (A' & B' & C' & D' & F'). fold f' in A', B', C', D', F'. rewrite N1 in *. cbn [nd_value nd_parent nd_level nd_succ nd_children] in A', B', C'.
  split; [apply wf_setSucc; auto; [lia|rewrite N1, C, HL; auto]|].
  split. { apply ext_trans with (b := f1); [apply (ext_push f (S (vl f q)) None)|]. rewrite <- HL, <- C. apply ext_setSucc. lia. }
  split; [unfold f'; rewrite setSucc_size; auto|]. auto.
Qed.
Lemma wf_next_child : forall f q i w L, wf f -> q < size f -> lvl f q = S L -> i < size f -> lvl f i = L -> fits f i w ->
  let f' := setSucc (push f w (Some i)) q (size f) in wf f' /\ ext (S L) f f' /\ size f' = S (size f) /\ lvl f' (size f) = S L /\ vl f' (size f) = w /\ par f' (size f) = Some i /\
    suc f' (size f) = None /\ forall k, k < size f -> chn f' k = chn f k ++ (if i =? k then [size f] else []).
Proof.
  intros f q i w L WF Hq HL Hi HLi HF f'. pose proof (wf_push_child n adj LA NB f i w WF Hi HF) as W1.
  set (f1 := push f w (Some i)) in *. destruct (push_same f w (Some i) q Hq) as (A & B & C & D & _). fold f1 in A, B, C, D.
  assert (N1 : nd f1 (size f) = mkNode w (Some i) [] (S (lvl f i)) None) by apply push_new.
  assert (S1 : size f1 = S (size f)) by apply push_size.
  destruct (setSucc_same f1 q (size f) (size f) ltac:(lia)) as (A' & B' & C' & D' & F'). fold f' in A', B', C', D', F'. rewrite N1 in *. cbn [nd_value nd_parent nd_level nd_succ nd_children] in A', B', C', F'. rewrite HLi in C'.
  split; [apply wf_setSucc; auto; [lia|rewrite N1; cbn [nd_level]; rewrite C, HL, HLi; reflexivity]|].
  split. { apply ext_trans with (b := f1); [rewrite <- HLi; apply (ext_push f w (Some i))|]. rewrite <- HL, <- C. apply ext_setSucc. lia. }
  split; [unfold f'; rewrite setSucc_size; auto|]. split; auto. split; auto. split; auto. split.
  - rewrite F'. destruct (Nat.eqb_spec (size f) q); auto. lia.
  - intros k Hk. destruct (setSucc_same f1 q (size f) k ltac:(lia)) as (_ & _ & _ & X & _). fold f' in X. rewrite X. apply push_same. auto.
Qed.

(** The paths enumerated from [p] on by generateNextPathOfSameLength. *)
Inductive gen (F : nat) : forest -> option nat -> list nat -> forest -> Prop :=
| gen_nil : forall f, gen F f None [] f
| gen_cons : forall f q f' p l fe, wf f -> q < size f -> (forall fuel, F <= fuel -> generateNext adj n fuel f q = Ret (f', p)) ->
    ext (lvl f q) f f' -> gen F f' p l fe -> gen F f (Some q) (q :: l) fe.
Lemma gen_mono : forall F F' f p l fe, F <= F' -> gen F f p l fe -> gen F' f p l fe.
Proof. intros F F' f p l fe H G. induction G; econstructor; eauto. intros. apply H2. lia. Qed.
Lemma fits_lt : forall f i w, fits f i w -> w < n.
Proof. intros f i w ((P & _ & H) & _). eapply ok_lt; eauto. Qed.

Lemma gen_roots : forall d f q, wf f -> q < size f -> lvl f q = 0 -> n - vl f q <= d ->
  exists F l fe, gen F f (Some q) l fe /\ wf fe /\ ext 0 f fe /\ Forall (fun j => j < size fe /\ lvl fe j = 0) l.
Proof.
  induction d as [|d IH]; intros f q WF Hq HL Hd.
  - destruct (path_ex n adj LA NB f WF q Hq) as (P & HP & _ & _ & FB). inversion HP; subst. apply Forall_cons_iff in FB. destruct FB. lia.
  - destruct (next_root_ok f q WF Hq HL 0) as [[Hv _]|[Hv _]].
    + exists 0, [q], f. split; [|split; auto; split; [apply ext_refl|repeat constructor; auto]]. econstructor; auto.
      * intros fuel _. destruct (next_root_ok f q WF Hq HL fuel) as [[_ E]|[E _]]; [exact E|lia].
      * apply ext_refl.
      * constructor.
    + destruct (wf_next_root f q WF Hq HL Hv) as (W1 & X1 & S1 & L1 & V1 & _). set (f' := setSucc _ _ _) in *.
      destruct (IH f' (size f) W1 ltac:(lia) L1 ltac:(lia)) as (F & l & fe & G & W2 & X2 & FL). exists F, (q :: l), fe. split; [|split; auto; split; [apply ext_trans with (b := f'); auto|]].
      * econstructor; auto; [| |exact G].
        -- intros fuel _. destruct (next_root_ok f q WF Hq HL fuel) as [[E _]|[_ E]]; [lia|exact E].
        -- rewrite HL. auto.
      * constructor; auto. split; [destruct X1, X2; lia|]. destruct (ex_node _ _ _ X1 q Hq) as (_ & _ & A). destruct (ex_node _ _ _ X2 q ltac:(lia)) as (_ & _ & B). congruence.
Qed.

Lemma gen_children : forall d f q b L N, wf f -> q < size f -> lvl f q = S L -> par f q = Some b -> (forall i, i < size f -> lvl f i = L -> i < N) ->
  (N - b) * S n + (n - vl f q) <= d ->
  exists F l fe, gen F f (Some q) l fe /\ wf fe /\ ext (S L) f fe /\ Forall (fun j => j < size fe /\ lvl fe j = S L) l.
Proof.
  induction d as [|d IH]; intros f q b L N WF Hq HL HP HN Hd.
  - destruct (wf_child _ _ f WF q b Hq HP) as (Hb & HLb & _). assert (b < N) by (apply HN; lia). exfalso. assert (1 <= N - b) by lia. nia.
  - destruct (wf_child _ _ f WF q b Hq HP) as (Hb & HLb & HC & _). assert (HLb' : lvl f b = L) by lia.
    destruct (chain_ex f WF (size f) b ltac:(lia) ltac:(lia)) as (B & HB & LB & FB).
    pose proof (next_child_ok f q b B WF Hq ltac:(lia) HP HB) as NC.
    assert (D : (forall fuel, n + size f <= fuel -> generateNext adj n fuel f q = Ret (f, None)) \/
                exists i w, (forall fuel, n + size f <= fuel -> generateNext adj n fuel f q = Ret (setSucc (push f w (Some i)) q (size f), Some (size f))) /\ In i B /\ fits f i w).
    { destruct (NC (n + size f) ltac:(lia)) as [[E N0]|(l1 & i & l2 & w & EB & E & A & C & D)].
      - left. intros fuel Hf. destruct (NC fuel Hf) as [[E' _]|(l1 & i & l2 & w & EB & E' & A & C & D)]; auto.
        exfalso. apply (N0 i w); auto. rewrite EB. apply in_app_iff. right. left. auto.
      - right. exists i, w. split; [|split; [rewrite EB; apply in_app_iff; right; left; auto|auto]]. intros fuel Hf.
        destruct (NC fuel Hf) as [[E' N']|(l1' & i' & l2' & w' & EB' & E' & A' & C' & D')].
        + exfalso. apply (N' i w); auto. rewrite EB. apply in_app_iff. right. left. auto.
        + assert (i' = i).
          { clear - EB EB' A A' C C'. assert (forall a1 x a2 b1 y b2, a1 ++ x :: a2 = b1 ++ y :: b2 -> (forall j, In j a1 -> j <> y) -> (forall j, In j b1 -> j <> x) -> x = y :> nat).
            { induction a1 as [|h a1 IH]; intros x a2 [|k b1] y b2 H H1 H2; cbn in H; injection H as ? ?; auto.
              - exfalso. apply (H2 k); [left|]; auto.
              - exfalso. apply (H1 h); [left|]; auto.
              - eapply IH; eauto; intros j Hj; [apply H1|apply H2]; right; auto. }
            apply (H l1' i' l2' l1 i l2); [congruence| |].
            + intros j Hj ->. apply (A' i w); auto.
            + intros j Hj ->. apply (A i' w'); auto. }
          subst i'. assert (w' = w) by (apply Nat.le_antisymm; auto). subst. auto. }
    destruct D as [D|(i & w & E & Ii & Fi)].
    + exists (n + size f), [q], f. split; [|split; auto; split; [apply ext_refl|repeat constructor; auto]]. econstructor; eauto; [apply ext_refl|constructor].
    + rewrite Forall_forall in FB. destruct (FB i Ii) as [Hi HLi]. rewrite HLb' in HLi.
      destruct (wf_next_child f q i w L WF Hq HL ltac:(lia) HLi Fi) as (W1 & X1 & S1 & L1 & V1 & P1 & _). set (f' := setSucc _ _ _) in *.
      assert (HN' : forall k, k < size f' -> lvl f' k = L -> k < N).
      { intros k Hk HLk. destruct (Nat.eq_dec k (size f)) as [->|Nk]; [lia|]. destruct (ex_node _ _ _ X1 k ltac:(lia)) as (_ & _ & X). apply HN; [lia|congruence]. }
      assert (M : (N - i) * S n + (n - vl f' (size f)) <= d).
      { rewrite V1. pose proof (fits_lt _ _ _ Fi). assert (i < N) by (apply HN; auto; lia). destruct (Nat.eq_dec i b) as [->|Nb].
        - assert (vl f q < w) by (apply Fi; auto). lia.
        - assert (S (N - i) <= N - b) by lia. nia. }
      destruct (IH f' (size f) i L N W1 ltac:(lia) L1 P1 HN' M) as (F & l & fe & G & W2 & X2 & FL).
      exists (Nat.max F (n + size f)), (q :: l), fe. split; [|split; auto; split; [apply ext_trans with (b := f'); auto|]].
      * econstructor; auto; [| |eapply gen_mono; [|exact G]; lia].
        -- intros fuel Hf. apply E. lia.
        -- rewrite HL. auto.
      * constructor; auto. split; [destruct X1, X2; lia|]. destruct (ex_node _ _ _ X1 q Hq) as (_ & _ & A). destruct (ex_node _ _ _ X2 q ltac:(lia)) as (_ & _ & Bq). congruence.
Qed.

(** From any node, in any well-formed forest, the enumeration ends. *)
Lemma gen_ex : forall f q, wf f -> q < size f ->
  exists F l fe, gen F f (Some q) l fe /\ wf fe /\ ext (lvl f q) f fe /\ Forall (fun j => j < size fe /\ lvl fe j = lvl f q) l.
Proof.
  intros f q WF Hq. destruct (par f q) as [b|] eqn:E.
  - destruct (wf_child _ _ f WF q b Hq E) as (Hb & HL & _). rewrite HL. eapply gen_children; eauto.
  - destruct (wf_root _ _ f WF q Hq E) as (HL & _). rewrite HL. eapply gen_roots; eauto.
Qed.

(** ** Completeness *)
(** The sequences that are generated. *)
Inductive canon : list nat -> Prop :=
| canon_root : forall v, v < n -> canon [v]
| canon_snoc : forall R w, canon R -> ok R w -> canon (R ++ [w]).
Definition okat (f : forest) (i w : nat) : Prop := exists P, path f (Some i) P /\ ok (rev P) w.
Definition covered (f : forest) (D : list nat) (i w : nat) : Prop := exists c, In c D /\ par f c = Some i /\ vl f c = w.

Lemma chain_size : forall f p l, chain f p l -> forall i, In i l -> i < size f.
Proof. intros f p l H. induction H as [|i l Hi H IH]; intros j Hj; [destruct Hj|]. destruct Hj as [<-|Hj]; auto. Qed.
Lemma chain_last : forall f D q p, chain f p (D ++ [q]) -> suc f q = None.
Proof.
  intros f. induction D as [|d D IH]; intros q p H; cbn in H; inversion H; subst.
  - match goal with X : chain f (suc f q) [] |- _ => inversion X; auto end.
  - eapply IH; eauto.
Qed.
Lemma chain_extend : forall f v p q, wf f -> forall D a, chain f a (D ++ [q]) ->
  let f' := setSucc (push f v p) q (size f) in chain f' a (D ++ [q; size f]).
Proof.
  intros f v p q WF D a H f'. pose proof (chain_sorted f a _ WF H) as SO. pose proof (chain_size f a _ H) as HS.
  assert (Hq : q < size f) by (apply HS; apply in_app_iff; right; left; auto).
  assert (S1 : size f' = S (size f)) by (unfold f'; rewrite setSucc_size; apply push_size).
  assert (SS : forall i, i < size f -> suc f' i = if i =? q then Some (size f) else suc f i).
  { intros i Hi. unfold f'. destruct (setSucc_same (push f v p) q (size f) i ltac:(rewrite push_size; lia)) as (_ & _ & _ & _ & ->). destruct (i =? q); auto.
    apply push_same. auto. }
  assert (SN : suc f' (size f) = None).
  { unfold f'. destruct (setSucc_same (push f v p) q (size f) (size f) ltac:(rewrite push_size; lia)) as (_ & _ & _ & _ & ->).
    destruct (Nat.eqb_spec (size f) q); [lia|]. rewrite push_new. auto. }
  revert a H HS SO. induction D as [|d D IH]; intros a H HS SO.
  - cbn in H. inversion H; subst. constructor; [lia|]. rewrite SS by auto. rewrite Nat.eqb_refl. constructor; [lia|]. rewrite SN. constructor.
  - cbn in H. inversion H; subst. cbn [app] in *. constructor; [lia|]. rewrite SS by auto. apply StronglySorted_inv in SO. destruct SO as [SO FD].
    rewrite Forall_forall in FD. assert (d < q) by (apply FD; apply in_app_iff; right; left; auto). destruct (Nat.eqb_spec d q); [lia|].
    apply IH; auto. intros i Hi. apply HS. right. auto.
Qed.

Lemma okat_old : forall L f fe i w, wf f -> ext L f fe -> i < size f -> (okat fe i w <-> okat f i w).
Proof.
  intros L f fe i w WF X Hi. destruct (path_ex n adj LA NB f WF i Hi) as (P & HP & _). pose proof (ex_path _ _ _ X _ _ HP) as HP'.
  split; intros (Q & HQ & HO).
  - rewrite (path_det _ _ _ _ HQ HP') in HO. exists P. auto.
  - rewrite (path_det _ _ _ _ HQ HP) in HO. exists P. auto.
Qed.
Lemma covered_old : forall L f fe D i w, ext L f fe -> (forall c, In c D -> c < size f) -> covered f D i w -> covered fe D i w.
Proof. intros L f fe D i w X HD (c & Hc & H1 & H2). exists c. destruct (ex_node _ _ _ X c (HD c Hc)) as (-> & -> & _). auto. Qed.

(** The state of the enumeration of level [S L], see generateNextPathOfSameLength: [D ++ [q]] has been generated, the
    parents [A] are done, the first of [B] is the parent of [q]. *)
Record filling (f : forest) (L a q : nat) (D A B : list nat) : Prop := mkFilling {
  fi_level : lvl f q = S L;
  fi_chain : chain f (Some a) (D ++ [q]);
  fi_parent : exists b B2, B = b :: B2 /\ par f q = Some b /\ chain f (Some b) B /\ lvl f b = L /\
    (forall w, okat f b w -> w <= vl f q -> covered f (D ++ [q]) b w) /\
    (forall c, In c (chn f b) -> vl f c <= vl f q) /\
    (forall i, In i B2 -> chn f i = []);
  fi_done : forall i w, In i A -> i < size f /\ (okat f i w -> covered f (D ++ [q]) i w) }.

Lemma filling_gen : forall F f p l fe, gen F f p l fe -> forall L a q D A B, p = Some q -> filling f L a q D A B ->
  chain fe (Some a) (D ++ l) /\ forall i w, In i (A ++ B) -> okat fe i w -> covered fe (D ++ l) i w.
Proof.
  intros F f p l fe G. induction G as [f|f q0 f' p l fe WF Hq E X G IH]; intros L a q D A B EQ FI; [discriminate|]. injection EQ as ->.
  destruct FI as [HL HC (b & B2 & -> & HP & HB & HLb & H1 & H2 & H3) H4]. specialize (E (Nat.max F (n + size f)) ltac:(lia)).
  pose proof (chain_size f _ _ HB) as SB. pose proof (chain_size f _ _ HC) as SD.
  destruct (next_child_ok f q b (b :: B2) WF Hq ltac:(lia) HP HB (Nat.max F (n + size f)) ltac:(lia)) as [[E' N]|(l1 & i & l2 & w & EB & E' & NF & FT & MN)]; rewrite E' in E; apply Ret_pair in E; destruct E as [-> ->].
  - inversion G; subst. split; auto. intros i w Hi Ho. apply in_app_iff in Hi. destruct Hi as [Hi|[<-|Hi]].
    + apply (H4 i w Hi). auto.
    + destruct (Nat.le_gt_cases w (vl fe q)) as [Hw|Hw]; auto. exfalso. apply (N b w); [left; auto|]. split; auto. intros c Hc. specialize (H2 c Hc). lia.
    + exfalso. apply (N i w); [right; auto|]. split; auto. rewrite H3 by auto. intros ? [].
  - assert (Ii : In i (b :: B2)) by (rewrite EB; apply in_app_iff; right; left; auto). pose proof (SB i Ii) as Hi.
    destruct (chain_facts f b (b :: B2) WF HB) as [_ FB]. rewrite Forall_forall in FB.
    assert (HLi : lvl f i = L) by (destruct (FB i Ii); congruence).
    destruct (wf_next_child f q i w L WF Hq HL Hi HLi FT) as (W1 & X1 & S1 & L1 & V1 & P1 & N1 & C1). pose proof (chain_extend f w (Some i) q WF D (Some a) HC) as CE. cbv zeta in CE.
    set (f' := setSucc (push f w (Some i)) q (size f)) in *.
    assert (COV : forall j u, covered f (D ++ [q]) j u -> covered f' ((D ++ [q]) ++ [size f]) j u).
    { intros j u (c & Hc & Y1 & Y2). exists c. split; [apply in_app_iff; auto|]. destruct (ex_node _ _ _ X1 c (SD c Hc)) as (-> & -> & _). auto. }
    assert (OKF : forall j u, j < size f -> (okat f' j u <-> okat f j u)) by (intros; eapply okat_old; eauto).
    assert (FI' : filling f' L a (size f) (D ++ [q]) (A ++ l1) (i :: l2)).
    { assert (SUB : chain f (Some i) (i :: l2)).
      { clear - HB EB. rewrite EB in HB. clear EB. revert HB. generalize (Some b). induction l1 as [|x l1 IH]; intros p H; cbn in H; inversion H; subst.
        - constructor; auto.
        - eapply IH; eauto. }
      split.
      - auto.
      - rewrite <- app_assoc. exact CE.
      - exists i, l2. split; auto. split; auto. split; [|split; [|split; [|split]]].
        + apply (ex_chain _ _ _ X1); auto. intros j Hj. assert (Ij : In j (b :: B2)) by (rewrite EB; apply in_app_iff; auto). destruct (FB j Ij). lia.
        + destruct (ex_node _ _ _ X1 i Hi) as (_ & _ & ->). auto.
        + intros u Hu Hle. rewrite V1 in Hle. apply OKF in Hu; auto. destruct (Nat.eq_dec u w) as [->|Nu].
          * exists (size f). split; [apply in_app_iff; right; left; auto|]. auto.
          * destruct l1 as [|x l1].
            -- cbn in EB. injection EB as -> ->. destruct (Nat.le_gt_cases u (vl f q)) as [Hle'|Hgt]; [apply COV, H1; auto|].
               exfalso. assert (w <= u); [|lia]. apply MN. split; auto. intros c Hc. specialize (H2 c Hc). lia.
            -- cbn in EB. injection EB as -> EB. assert (In i B2) by (rewrite EB; apply in_app_iff; right; left; auto).
               exfalso. assert (w <= u); [|lia]. apply MN. split; auto. rewrite H3 by auto. intros ? [].
        + intros c Hc. rewrite V1. rewrite C1, Nat.eqb_refl in Hc by auto. apply in_app_iff in Hc. destruct Hc as [Hc|[<-|[]]]; [|lia].
          pose proof (wf_children _ _ f WF i c Hi Hc) as [Hcc _]. destruct (ex_node _ _ _ X1 c ltac:(lia)) as (-> & _). apply Nat.lt_le_incl. apply FT. auto.
        + intros j Hj. assert (In j (b :: B2)) by (rewrite EB; apply in_app_iff; right; right; auto). rewrite C1 by auto.
          assert (NDj : NoDup (i :: l2)) by (apply sorted_nodup; apply (chain_sorted f (Some i)); auto).
          apply NoDup_cons_iff in NDj. destruct NDj as [NI _]. destruct (Nat.eqb_spec i j) as [->|]; [contradiction|]. rewrite app_nil_r.
          destruct l1 as [|x l1]; cbn in EB; injection EB as -> EB; apply H3; rewrite EB; auto. apply in_app_iff. right. right. auto.
      - intros j u Hj. apply in_app_iff in Hj. destruct Hj as [Hj|Hj].
        + destruct (H4 j u Hj) as [Y1 Y2]. split; [lia|]. intros Ho. apply COV, Y2, OKF; auto.
        + assert (IB : In j (b :: B2)) by (rewrite EB; apply in_app_iff; auto). split; [specialize (SB j IB); lia|]. intros Ho. apply OKF in Ho; auto.
          destruct l1 as [|x l1]; [destruct Hj|]. cbn in EB. injection EB as -> EB. destruct Hj as [<-|Hj].
          * destruct (Nat.le_gt_cases u (vl f q)) as [Hle|Hgt]; [apply COV, H1; auto|]. exfalso. apply (NF x u); [left; auto|]. split; auto. intros c Hc. specialize (H2 c Hc). lia.
          * exfalso. apply (NF j u); [right; auto|]. split; auto. rewrite H3 by (rewrite EB; apply in_app_iff; auto). intros ? []. }
    destruct (IH L a (size f) (D ++ [q]) (A ++ l1) (i :: l2) eq_refl FI') as [R1 R2]. rewrite <- (app_assoc D [q] l) in R1, R2. split; auto. intros j u Hj. apply R2.
    rewrite <- app_assoc, <- EB. auto.
Qed.

Lemma roots_gen : forall F f p l fe, gen F f p l fe -> forall a q D, p = Some q -> lvl f q = 0 -> chain f (Some a) (D ++ [q]) ->
  (forall v, v <= vl f q -> exists i, In i (D ++ [q]) /\ par f i = None /\ vl f i = v) -> par f q = None ->
  chain fe (Some a) (D ++ l) /\ forall v, v < n -> exists i, In i (D ++ l) /\ par fe i = None /\ vl fe i = v.
Proof.
  intros F f p l fe G. induction G as [f|f q0 f' p l fe WF Hq E X G IH]; intros a q D EQ HL HC HV HP; [discriminate|]. injection EQ as ->.
  specialize (E F ltac:(lia)). pose proof (chain_size f _ _ HC) as SD.
  destruct (next_root_ok f q WF Hq HL F) as [[Hn E']|[Hn E']]; rewrite E' in E; apply Ret_pair in E; destruct E as [-> ->].
  - inversion G; subst. split; auto. intros v Hv. apply HV. lia.
  - destruct (wf_next_root f q WF Hq HL Hn) as (W1 & X1 & S1 & L1 & V1 & P1). pose proof (chain_extend f (S (vl f q)) None q WF D (Some a) HC) as CE. cbv zeta in CE.
    set (f' := setSucc (push f (S (vl f q)) None) q (size f)) in *.
    destruct (IH a (size f) (D ++ [q]) eq_refl L1) as [R1 R2].
    + rewrite <- app_assoc. exact CE.
    + intros v Hv. rewrite V1 in Hv. destruct (Nat.eq_dec v (S (vl f q))) as [->|Nv].
      * exists (size f). split; [apply in_app_iff; right; left; auto|auto].
      * destruct (HV v ltac:(lia)) as (i & Hi & A1 & A2). exists i. split; [apply in_app_iff; auto|]. destruct (ex_node _ _ _ X1 i (SD i Hi)) as (-> & -> & _). auto.
    + auto.
    + rewrite <- app_assoc in R1, R2. auto.
Qed.

(** All generated sequences of length [S l] are paths of level [l]. *)
Definition has_level (f : forest) (l : nat) : Prop :=
  exists a C, nth_error (fo_anchors f) l = Some a /\ chain f (Some a) C /\
    forall R, canon R -> length R = S l -> exists i, In i C /\ path f (Some i) (rev R).
Definition complete (f : forest) (L : nat) : Prop := fo_levels f = L /\ forall l, l < L -> has_level f l.

Lemma complete_empty : complete fo_empty 0.
Proof. split; auto. intros. lia. Qed.

Lemma has_level_ext : forall L f fe l, wf f -> ext L f fe -> l <> L -> has_level f l -> has_level fe l.
Proof.
  intros L f fe l WF X Hl (a & C & H1 & H2 & H3). exists a, C. split; [apply (ex_anchor _ _ _ X); auto|]. destruct (wf_anchor _ _ f WF l a H1) as [Ha HLa].
  destruct (chain_facts f a C WF H2) as [_ FC]. rewrite Forall_forall in FC. split.
  - apply (ex_chain _ _ _ X); auto. intros i Hi. destruct (FC i Hi) as [_ E]. congruence.
  - intros R HR LR. destruct (H3 R HR LR) as (i & Hi & Hp). exists i. split; auto. apply (ex_path _ _ _ X). auto.
Qed.

Lemma canon_length : forall R, canon R -> 1 <= length R.
Proof. clear LA NB NS. intros R H. inversion H; subst; rewrite ?app_length; cbn; lia. Qed.
Lemma canon_prefix : forall R, canon R -> forall k, 1 <= k <= length R -> canon (firstn k R).
Proof.
  intros R H. induction H as [v Hv|R w H IH HO]; intros k Hk.
  - cbn in Hk. replace k with 1 by lia. constructor. auto.
  - rewrite app_length in Hk. cbn in Hk. destruct (Nat.eq_dec k (length R + 1)) as [->|N].
    + rewrite firstn_all2 by (rewrite app_length; cbn; lia). constructor; auto.
    + rewrite firstn_app. replace (k - length R) with 0 by lia. rewrite firstn_O, app_nil_r. apply IH. lia.
Qed.
Lemma canon_fit : forall R, canon R -> NoDup R /\ Forall (fun v => v < n) R.
Proof.
  intros R H. induction H as [v Hv|R w H [IH1 IH2] HO]; [split; repeat constructor; auto|]. split.
  - apply NoDup_app_intro; auto; [repeat constructor; auto|]. intros x Hx [<-|[]]. apply HO. auto.
  - apply Forall_app. split; auto. constructor; auto. eapply ok_lt; eauto.
Qed.
Lemma canon_short : forall R, canon R -> length R <= n.
Proof. intros R H. destruct (canon_fit R H) as [A B]. apply NoDup_bounded_length; auto. rewrite Forall_forall in B. auto. Qed.
Lemma canon_unsnoc : forall R l, canon R -> length R = S (S l) -> exists R0 w, R = R0 ++ [w] /\ canon R0 /\ length R0 = S l /\ ok R0 w.
Proof. intros R l H E. inversion H; subst; cbn in E; [lia|]. rewrite app_length in E. cbn in E. exists R0, w. repeat split; auto; try lia; apply H1. Qed.

(** generateFirstPathOfLength: in every forest with enough levels. *)
Lemma first_ok : forall f len, wf f -> 1 <= len -> (2 <= len -> len - 2 < fo_levels f) -> exists F f' p, (forall fuel, F <= fuel -> generateFirst adj n fuel f len = Ret (f', p)) /\ wf f' /\ ext (len - 1) f f' /\
  (forall q, p = Some q -> q < size f' /\ lvl f' q = len - 1 /\ len - 1 < fo_levels f') /\ (p = None -> f' = f) /\
  (complete f (len - 1) -> match p with
     | None => forall R, canon R -> length R < len
     | Some q => if len =? 1 then nth_error (fo_anchors f') 0 = Some q /\ chain f' (Some q) [q] /\ vl f' q = 0 /\ par f' q = None
                 else exists A B a C, nth_error (fo_anchors f') (len - 1) = Some q /\ filling f' (len - 2) q q [] A B /\
                      nth_error (fo_anchors f') (len - 2) = Some a /\ chain f' (Some a) C /\ C = A ++ B
     end).
Proof.
  intros f len WF H1 H2. unfold generateFirst. destruct (Nat.ltb_spec n len) as [Hn|Hn].
  - exists 0, f, None. split; [auto|]. split; auto. split; [apply ext_refl|]. split; [discriminate|]. split; auto. intros _ R HR. pose proof (canon_short R HR). lia.
  - destruct (Nat.eqb_spec len 1) as [->|N1].
    + exists 0, (push f 0 None), (Some (size f)). split; [intros; rewrite fo_push_ret by auto; auto|]. split; [apply wf_push_root; auto; lia|]. split; [apply (ext_push f 0 None)|].
      split; [intros q E; injection E as <-; rewrite push_size, push_new; cbn [nd_level]; split; [lia|split; auto]; destruct (levels_push n adj LA f 0 None) as [X|X]; cbn in *; lia|].
      split; [discriminate|]. intros [HC _]. cbn in HC. assert (EA : fo_anchors f = []) by (apply length_zero_iff_nil; auto).
      assert (ES : size f = 0). { destruct (size f) as [|k] eqn:E; auto. pose proof (wf_level _ _ f WF 0 ltac:(lia)) as X. rewrite HC in X. lia. }
      rewrite push_anchors, EA. unfold fo_levels. rewrite EA. cbn [length Nat.leb app]. split; auto. rewrite push_new. cbn [nd_value nd_parent]. split; auto. constructor; [rewrite push_size; lia|].
      rewrite push_new. cbn. constructor.
    + assert (HL : len - 2 < fo_levels f) by (apply H2; lia). unfold fo_levelAnchor.
      destruct (nth_error (fo_anchors f) (len - 2)) as [a|] eqn:EA; [|apply nth_error_None in EA; unfold fo_levels in HL; lia].
      destruct (wf_anchor _ _ f WF _ _ EA) as [Ha HLa]. destruct (chain_ex f WF (size f) a ltac:(lia) Ha) as (C & HC & LC & FC).
      pose proof (append_along_ok f WF (Some a) C HC) as AA. rewrite Forall_forall in FC.
      destruct (AA (n + size f) ltac:(lia)) as [[E N]|(l1 & i & l2 & w & EC & E & A & Fi & M)].
      * exists (n + size f), f, None. split.
        { intros fuel Hf. rewrite (rd_Ret _ _ _ _ EA). cbn [bind]. destruct (AA fuel ltac:(lia)) as [[E' _]|(l1 & i & l2 & w & EC & E' & A & Fi & M)]; auto.
          exfalso. apply (N i w); auto. rewrite EC. apply in_app_iff. right. left. auto. }
        split; auto. split; [apply ext_refl|]. split; [discriminate|]. split; auto. intros [HLV HCM] R HR. destruct (Nat.lt_ge_cases (length R) len) as [|HR2]; auto. exfalso.
        pose proof (canon_prefix R HR len ltac:(lia)) as HP. assert (LP : length (firstn len R) = S (S (len - 2))) by (rewrite firstn_length; lia).
        destruct (canon_unsnoc _ _ HP LP) as (R0 & w & ER & CR & LR & OR). destruct (HCM (len - 2) ltac:(lia)) as (a' & C' & EA' & HC' & HR').
        rewrite EA in EA'. injection EA' as <-. rewrite (chain_det _ _ _ _ HC' HC) in HR'. destruct (HR' R0 CR LR) as (i & Hi & Hp).
        apply (N i w Hi). split; [exists (rev R0); split; auto; rewrite rev_involutive; auto|]. intros c Hc. exfalso. destruct (FC i Hi) as [Hsi Hli].
        destruct (wf_children _ _ f WF i c ltac:(lia) Hc) as [Hcs Hcp]. destruct (wf_child _ _ f WF c i ltac:(lia) Hcp) as (_ & Hlc & _).
        pose proof (wf_level _ _ f WF c ltac:(lia)) as Hlv. rewrite HLV, Hlc in Hlv. lia.
      * assert (Ii : In i C) by (rewrite EC; apply in_app_iff; right; left; auto). destruct (FC i Ii) as [Hsi Hli].
        exists (n + size f), (push f w (Some i)), (Some (size f)). split.
        { intros fuel Hf. rewrite (rd_Ret _ _ _ _ EA). cbn [bind]. destruct (AA fuel ltac:(lia)) as [[E' N']|(l1' & i' & l2' & w' & EC' & E' & A' & Fi' & M')].
          - exfalso. apply (N' i w); auto.
          - assert (i' = i).
            { clear - EC EC' A A' Fi Fi'. assert (H : forall a1 x a2 b1 y b2, a1 ++ x :: a2 = b1 ++ y :: b2 -> (forall j, In j a1 -> j <> y) -> (forall j, In j b1 -> j <> x) -> x = y :> nat).
              { induction a1 as [|h a1 IH]; intros x a2 [|k b1] y b2 H H1 H2; cbn in H; injection H as ? ?; auto.
                - exfalso. apply (H2 k); [left|]; auto.
                - exfalso. apply (H1 h); [left|]; auto.
                - eapply IH; eauto; intros j Hj; [apply H1|apply H2]; right; auto. }
              apply (H l1' i' l2' l1 i l2); [congruence| |].
              + intros j Hj ->. apply (A' i w); auto.
              + intros j Hj ->. apply (A i' w'); auto. }
            subst i'. assert (w' = w) by (apply Nat.le_antisymm; auto). subst. auto. }
        assert (HLn : S (lvl f i) = len - 1) by lia.
        split; [apply wf_push_child; auto; lia|]. split; [rewrite <- HLn; apply (ext_push f w (Some i))|].
        split. { intros q Eq. injection Eq as <-. rewrite push_size, push_new. cbn [nd_level]. split; [lia|]. split; auto.
          destruct (levels_push n adj LA f w (Some i)) as [X|X]; [lia|]. pose proof (wf_level _ _ f WF i ltac:(lia)). lia. }
        split; [discriminate|]. intros [HLV HCM]. exists l1, (i :: l2), a, C.
        assert (NC : forall j, In j C -> chn f j = []).
        { intros j Hj. destruct (chn f j) as [|c cs] eqn:Ech; auto. exfalso. destruct (FC j Hj) as [Hsj Hlj]. assert (Hc : In c (chn f j)) by (rewrite Ech; left; auto).
          destruct (wf_children _ _ f WF j c ltac:(lia) Hc) as [Hcs Hcp]. destruct (wf_child _ _ f WF c j ltac:(lia) Hcp) as (_ & Hlc & _).
          pose proof (wf_level _ _ f WF c ltac:(lia)) as Hlv. rewrite HLV, Hlc in Hlv. lia. }
        assert (X : ext (S (lvl f i)) f (push f w (Some i))) by apply (ext_push f w (Some i)).
        assert (OKF : forall j u, j < size f -> (okat (push f w (Some i)) j u <-> okat f j u)) by (intros; eapply okat_old; eauto).
        assert (NDC : NoDup C) by (apply sorted_nodup; apply (chain_sorted f (Some a)); auto).
        split.
        { rewrite push_anchors. destruct (Nat.leb_spec (fo_levels f) (S (lvl f i))); [|lia]. rewrite nth_error_app2 by (unfold fo_levels in *; lia).
          replace (len - 1 - length (fo_anchors f)) with 0 by (unfold fo_levels in *; lia). auto. }
        split; [|split; [apply (ex_anchor _ _ _ X); auto|split; [apply chain_push; auto|auto]]].
        split.
        -- rewrite push_new. cbn [nd_level]. lia.
        -- cbn [app]. constructor; [rewrite push_size; lia|]. rewrite push_new. cbn. constructor.
        -- exists i, l2. split; auto. rewrite push_new. cbn [nd_parent nd_value]. split; auto. split; [|split; [|split; [|split]]].
           ++ apply chain_push. clear - HC EC. rewrite EC in HC. clear EC. revert HC. generalize (Some a). induction l1 as [|x l1 IH]; intros p H; cbn in H; inversion H; subst.
              ** constructor; auto.
              ** eapply IH; eauto.
           ++ destruct (ex_node _ _ _ X i ltac:(lia)) as (_ & _ & ->). lia.
           ++ intros u Hu Hle. apply OKF in Hu; [|lia]. assert (w <= u) by (apply M; split; auto; rewrite NC by auto; intros ? []).
              exists (size f). split; [left; auto|]. rewrite push_new. cbn. split; auto. lia.
           ++ intros c Hc. destruct (push_same f w (Some i) i ltac:(lia)) as (_ & _ & _ & _ & Y). rewrite Y, Nat.eqb_refl, NC in Hc by auto.
              destruct Hc as [<-|[]]. rewrite push_new. cbn. lia.
           ++ intros j Hj. assert (Ij : In j C) by (rewrite EC; apply in_app_iff; right; right; auto). destruct (FC j Ij) as [Hsj _].
              destruct (push_same f w (Some i) j ltac:(lia)) as (_ & _ & _ & _ & Y). rewrite Y, NC by auto.
              destruct (Nat.eqb_spec i j) as [->|]; auto. exfalso. rewrite EC in NDC. apply NoDup_remove_2 in NDC. apply NDC. apply in_app_iff. auto.
        -- intros j u Hj. assert (Ij : In j C) by (rewrite EC; apply in_app_iff; auto). destruct (FC j Ij) as [Hsj _]. rewrite push_size. split; [lia|].
           intros Ho. exfalso. apply (A j u Hj). split; [apply OKF; auto; lia|]. rewrite NC by auto. intros ? [].
Qed.

(** A whole level from the empty forest on: after the enumeration the level is complete. *)
Lemma level_complete : forall f len f' q F l fe, wf f -> 1 <= len -> complete f (len - 1) ->
  (if len =? 1 then nth_error (fo_anchors f') 0 = Some q /\ chain f' (Some q) [q] /\ vl f' q = 0 /\ par f' q = None
   else exists A B a C, nth_error (fo_anchors f') (len - 1) = Some q /\ filling f' (len - 2) q q [] A B /\
        nth_error (fo_anchors f') (len - 2) = Some a /\ chain f' (Some a) C /\ C = A ++ B) ->
  wf f' -> ext (len - 1) f f' -> lvl f' q = len - 1 -> gen F f' (Some q) l fe -> wf fe -> ext (len - 1) f' fe -> fo_levels fe = len ->
  complete fe len /\ nth_error (fo_anchors fe) (len - 1) = Some q /\ chain fe (Some q) l.
Proof.
  intros f len f' q F l fe WF H1 [HLV HCM] HS W' X HLq G WE XE HLE.
  assert (ANC : nth_error (fo_anchors fe) (len - 1) = Some q /\ chain fe (Some q) l).
  { destruct (Nat.eqb_spec len 1) as [->|N1].
    - destruct HS as (A1 & A2 & A3 & A4). destruct (roots_gen F f' (Some q) l fe G q q [] eq_refl HLq A2) as [R1 R2]; auto.
      { intros v Hv. exists q. split; [left; auto|]. split; auto. lia. }
      split; auto. apply (ex_anchor _ _ _ XE); auto.
    - destruct HS as (A & B & a & C & E1 & FI & E2 & HC & EC). destruct (filling_gen F f' (Some q) l fe G (len - 2) q q [] A B eq_refl FI) as [R1 R2].
      split; auto. apply (ex_anchor _ _ _ XE); auto. }
  split; auto. split; auto. intros l0 Hl0.
  assert (X2 : ext (len - 1) f fe) by (eapply ext_trans; eauto).
  destruct (Nat.eq_dec l0 (len - 1)) as [->|N]; [|apply (has_level_ext (len - 1) f); auto; apply HCM; lia].
  destruct (Nat.eqb_spec len 1) as [->|N1].
  - destruct HS as (A1 & A2 & A3 & A4). destruct (roots_gen F f' (Some q) l fe G q q [] eq_refl HLq A2) as [R1 R2]; auto.
    { intros v Hv. exists q. split; [left; auto|]. split; auto. lia. }
    exists q, l. split; [apply (ex_anchor _ _ _ XE); auto|]. split; auto. intros R HR LR. inversion HR; subst; [|rewrite app_length in LR; pose proof (canon_length _ H); cbn in LR; lia].
    destruct (R2 v H) as (i & Hi & B1 & B2). exists i. split; auto. cbn. rewrite <- B2. constructor; [apply (chain_size fe _ _ R1); auto|]. rewrite B1. constructor.
  - destruct HS as (A & B & a & C & E1 & FI & E2 & HC & EC). destruct (filling_gen F f' (Some q) l fe G (len - 2) q q [] A B eq_refl FI) as [R1 R2].
    exists q, l. split; [apply (ex_anchor _ _ _ XE); auto|]. split; auto. intros R HR LR.
    destruct (canon_unsnoc R (len - 2) HR ltac:(lia)) as (R0 & w & -> & CR & LR0 & OR).
    assert (HLV2 : has_level fe (len - 2)) by (apply (has_level_ext (len - 1) f); auto; try lia; apply HCM; lia).
    destruct HLV2 as (a' & C' & E2' & HC' & HR'). pose proof (ex_anchor _ _ _ XE _ _ E2) as E2''. rewrite E2' in E2''. injection E2'' as ->.
    assert (HCe : chain fe (Some a) C).
    { apply (ex_chain _ _ _ XE); auto. intros i Hi. destruct (wf_anchor _ _ f' W' _ _ E2) as [Ha HLa]. destruct (chain_facts f' a C W' HC) as [_ FC].
      rewrite Forall_forall in FC. destruct (FC i Hi). lia. }
    rewrite (chain_det _ _ _ _ HC' HCe) in HR'. destruct (HR' R0 CR LR0) as (i & Hi & Hp). rewrite EC in Hi.
    destruct (R2 i w Hi) as (c & Hc & P1 & V1); [exists (rev R0); split; auto; rewrite rev_involutive; auto|].
    exists c. split; auto. rewrite rev_app_distr. cbn. rewrite <- V1. constructor; [apply (chain_size fe _ _ R1); auto|]. rewrite P1. auto.
Qed.

(** The number of levels does not change while a level is being filled. *)
Lemma gen_nlevels : forall F f p l fe, gen F f p l fe -> forall q, p = Some q -> fo_levels fe = fo_levels f.
Proof.
  intros F f p l fe G. induction G as [f|f q0 f' p l fe WF Hq E X G IH]; intros q EQ; [discriminate|]. injection EQ as ->.
  assert (EL : fo_levels f' = fo_levels f).
  { specialize (E (Nat.max F (n + size f)) ltac:(lia)). pose proof (wf_level _ _ f WF q Hq) as HL. destruct (par f q) as [b|] eqn:EP.
    - destruct (wf_child _ _ f WF q b Hq EP) as (Hb & HLb & _). destruct (chain_ex f WF (size f) b ltac:(lia) ltac:(lia)) as (B & HB & LB & FB).
      destruct (next_child_ok f q b B WF Hq ltac:(lia) EP HB (Nat.max F (n + size f)) ltac:(lia)) as [[E' N]|(l1 & i & l2 & w & EB & E' & NF & FT & MN)]; rewrite E' in E; apply Ret_pair in E; destruct E as [-> ->]; auto.
      assert (Ii : In i B) by (rewrite EB; apply in_app_iff; right; left; auto). rewrite Forall_forall in FB. destruct (FB i Ii) as [_ HLi].
      unfold fo_levels at 1. cbn [setSucc fo_anchors]. rewrite push_anchors. destruct (Nat.leb_spec (fo_levels f) (S (lvl f i))); [lia|]. auto.
    - destruct (wf_root _ _ f WF q Hq EP) as [HL0 _]. destruct (next_root_ok f q WF Hq HL0 (Nat.max F (n + size f))) as [[Hn E']|[Hn E']]; rewrite E' in E; apply Ret_pair in E; destruct E as [-> ->]; auto.
      unfold fo_levels at 1. cbn [setSucc fo_anchors]. rewrite push_anchors. destruct (Nat.leb_spec (fo_levels f) 0); [lia|]. auto. }
  destruct p as [q'|]; [rewrite (IH q') by auto; auto|]. inversion G; subst. auto.
Qed.
End E.
