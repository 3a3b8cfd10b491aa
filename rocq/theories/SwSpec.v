(** Vocabulary for statements about Swendsen-Wang sampling. *)
From Coq Require Import QArith Qcanon Relations.
From Verif Require Import Base Values GmView GmViewSpec ConstraintModel MovemakerModel MovemakerSpec GgSpec SwModel.
Open Scope nat_scope.

(** Two variables of the model with a common factor *)
Definition touching {T : Type} (g : gmv T) (u v : nat) : Prop := u <> v /\ exists fc, In fc (v_factors g) /\ In u (fst fc) /\ In v (fst fc).
(** No initial state, or a labeling of the model *)
Definition swstart_ok {T : Type} (g : gmv T) (par : swpar) : Prop := sp_start par = [] \/ labeling g (sp_start par).
(** Numbers that can be drawn from [0, 1) *)
Definition draws_ok (dr : swdraws) : Prop := forall it u j, (0 <= sd_edge dr it u j)%Qc /\ (sd_edge dr it u j < 1)%Qc.

Section Spec.
Context {T : Type}.
(** At position j of the adjacency of u there is v, and the probability of the edge is q. *)
Definition edge_at (s : sw T) (u j v : nat) (q : Qc) : Prop :=
  nth_error (nth u (sw_adj s) []) j = Some v /\ nth_error (nth u (sw_ep s) []) j = Some q.
(** An edge between variables with the same label is turned on if the number drawn for it is less than its probability. *)
Definition turned_on (s : sw T) (dr : swdraws) (it u v : nat) : Prop :=
  u < v /\ nth u (mm_state (sw_mm s)) 0 = nth v (mm_state (sw_mm s)) 0 /\ exists j q, edge_at s u j v q /\ (sd_edge dr it u j < q)%Qc.
(** Linked by edges that are turned on *)
Definition linked (s : sw T) (dr : swdraws) (it : nat) : nat -> nat -> Prop := clos_refl_sym_trans nat (turned_on s dr it).

Definition qprod (l : list Qc) : Qc := fold_right Qcmult 1%Qc l.
(** The probability that no edge between a set of variables and the variables outside it that have a certain label is turned on *)
Definition cut (s : sw T) (x : list nat) (C : list nat) (l : nat) : Qc :=
  qprod (map (fun w =>
    if negb (member w C) && (nth w x 0 =? l) then
      qprod (map (fun e : nat * Qc => if member (fst e) C then (1 - snd e)%Qc else 1%Qc) (combine (nth w (sw_adj s) []) (nth w (sw_ep s) [])))
    else 1%Qc) (seq 0 (length x))).
(** All variables of a set get one label. *)
Definition recolour (x C : list nat) (t : nat) : list nat := relabel x C (repeat t (length C)).
(** The Metropolis-Hastings ratio of moving the set C from its label to the label t *)
Definition mh_ratio (OP : oper T) (prob : T -> Qc) (g : gmv T) (s : sw T) (x C : list nat) (from t : nat) : Qc :=
  ((if t =? from then 1 else cut s x C t) / cut s x C from * (prob (total OP g (recolour x C t)) / prob (total OP g x)))%Qc.
(** A number drawn is accepted. *)
Definition accepts (ratio u : Qc) : Prop := (1 <= ratio)%Qc \/ (u <= ratio)%Qc.
(** The probability of acceptance *)
Definition min1 (r : Qc) : Qc := if Qclt_le_dec r 1 then r else 1%Qc.
End Spec.
(** The states of the chain that were accepted after burn-in *)
Definition accepted_states (calls : list swcall) : list (list nat) :=
  map sc_state (filter (fun c => sc_accepted c && negb (sc_burning c)) calls).

Section Chain.
Context {T : Type}.
Variable OP : oper T.
Variable ACC : accum T.
Variable prob : T -> Qc.
Variable g : gmv T.
Variable par : swpar.
Variable dr : swdraws.
(** One iteration from the state s to the state s': all variables linked to some variable get one label of that variable, if the iteration is one of the
    burn-in or the number drawn is accepted; the best state is replaced by the new one if that is better, but not during burn-in.  The call is what a visitor is told. *)
Definition iteration (it : nat) (s : sw T) (call : swcall) (s' : sw T) : Prop :=
  let x := mm_state (sw_mm s) in
  exists rep C t, rep < length (v_labels g) /\ NoDup C /\ (forall w, In w C <-> linked s dr it rep w) /\ t < nth rep (v_labels g) 0 /\
  sc_iteration call = it /\ sc_size call = length C /\ sc_burning call = (it <? sp_burn par) /\
  (sc_accepted call = true <-> it < sp_burn par \/ accepts (mh_ratio OP prob g s x C (nth rep x 0) t) (sd_accept dr it)) /\
  mm_state (sw_mm s') = (if sc_accepted call then recolour x C t else x) /\ sc_state call = mm_state (sw_mm s') /\ sw_adj s' = sw_adj s /\ sw_ep s' = sw_ep s /\
  (sw_best s', sw_value s') = if sc_accepted call && negb (sc_burning call) && a_bop ACC (total OP g (recolour x C t)) (sw_value s) then (recolour x C t, total OP g (recolour x C t)) else (sw_best s, sw_value s).
(** Successive iterations *)
Inductive chain : nat -> sw T -> list swcall -> sw T -> Prop :=
| chain_nil : forall it s, chain it s [] s
| chain_cons : forall it s call s1 calls s2, iteration it s call s1 -> chain (S it) s1 calls s2 -> chain it s (call :: calls) s2.
End Chain.
(** The initial state: that of the parameter, or all zero *)
Definition start_state {T : Type} (g : gmv T) (par : swpar) : list nat := match sp_start par with [] => repeat 0 (length (v_labels g)) | x => x end.

(** The value of the factors of two variables *)
Definition local_value {T : Type} (OP : oper T) (g : gmv T) (u v : nat) (x : list nat) : T :=
  total OP (mkGmv (v_labels g) (filter (fun fc => member u (fst fc) || member v (fst fc)) (v_factors g))) x.
(** All labelings that are zero at the variables without a common factor with u or v, each once *)
Definition local_labelings {T : Type} (g : gmv T) (u v : nat) (L : list (list nat)) : Prop :=
  NoDup L /\ forall x, In x L <-> labeling g x /\ forall w, nth w x 0 <> 0 -> exists fc, In fc (v_factors g) /\ In w (fst fc) /\ (In u (fst fc) \/ In v (fst fc)).
Definition sumq (l : list Qc) : Qc := fold_right Qcplus 0%Qc l.
(** The sum of the probabilities of those local labelings that satisfy P *)
Definition local_weight {T : Type} (OP : oper T) (prob : T -> Qc) (g : gmv T) (u v : nat) (L : list (list nat)) (P : list nat -> bool) : Qc := sumq (map (fun x => prob (local_value OP g u v x)) (filter P L)).
Definition same_label (u v : nat) (x : list nat) : bool := Nat.eqb (nth u x O) (nth v x O).
Definition other_label (u v : nat) (x : list nat) : bool := negb (same_label u v x).
Definition any_label (x : list nat) : bool := true.
(** The local probabilities of equal or of different labels are not defined or less than the allowed minimum *)
Definition too_unlikely {T : Type} (OP : oper T) (prob : T -> Qc) (g : gmv T) (par : swpar) (u v : nat) : Prop := exists L, local_labelings g u v L /\
  let w := local_weight OP prob g u v L in (w any_label = 0 \/ w (same_label u v) / w any_label < sp_lowest par \/ w (other_label u v) / w any_label < sp_lowest par)%Qc.
