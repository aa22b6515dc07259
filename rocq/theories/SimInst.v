(** * The contract of the concrete encodings, and of the simulators around them *)

From Coq Require Import List Bool NArith ZArith Lia Arith Permutation.
From Coq Require Import ZifyBool ZifyNat ZifyN.
From Verif Require Import Spec BoundSpec BoundExec Types Maps NodeDb TotDb Totalizer Gte Base TotalizerProofs GteProofs Simulators SimProofs.
Import ListNotations.

(** ** Contracts restrict to fewer histories *)
Section Sub.
Context {A S : Type} (E : encoder A S) (ilit : A -> lit) (iok : A -> Prop) (allow allow' : hop A -> Prop) (value : asg -> list A -> nat) (total : list A -> nat).
Hypothesis Hsub : forall op, allow op -> allow' op.

Lemma sub_valid w op : valid_op ilit iok allow w op -> valid_op ilit iok allow' w op.
Proof. intros (H1 & H2). split; auto. Qed.
Lemma sub_reach w s : reachable E ilit iok allow w s -> reachable E ilit iok allow' w s.
Proof. induction 1 as [|w s op w' s' R IH V Es]; [apply reach_init|]. eapply reach_step; [exact IH|apply sub_valid; exact V|exact Es]. Qed.

Lemma sub_upper : upper_contract E ilit iok allow' value total -> upper_contract E ilit iok allow value total.
Proof.
  intros [H1 H2 H3 H4 H5 H6 H7 H8 H9 H10]. constructor.
  - intros w s ub ls a R. apply H1. now apply sub_reach.
  - intros w s a R. apply H2. now apply sub_reach.
  - intros w s r w' s' ub R V. apply (H3 w s r w' s'); [now apply sub_reach|now apply sub_valid].
  - intros w s r w' s' ub R V. apply (H4 w s r w' s'); [now apply sub_reach|now apply sub_valid].
  - intros w s ub R. apply (H5 w). now apply sub_reach.
  - intros w s b R. apply (H6 w). now apply sub_reach.
  - intros w s R. apply (H7 w). now apply sub_reach.
  - intros w s c l R. apply (H8 w s). now apply sub_reach.
  - intros w s b ls l R. apply (H9 w s). now apply sub_reach.
  - intros w s op w' s' R V. apply (H10 w s op w' s'); [now apply sub_reach|now apply sub_valid].
Qed.
Lemma sub_lower : lower_contract E ilit iok allow' value total -> lower_contract E ilit iok allow value total.
Proof.
  intros [H1 H2 H3 H4 H5 H6 H7 H8 H9 H10]. constructor.
  - intros w s ub ls a R. apply H1. now apply sub_reach.
  - intros w s a R. apply H2. now apply sub_reach.
  - intros w s r w' s' ub R V. apply (H3 w s r w' s'); [now apply sub_reach|now apply sub_valid].
  - intros w s r w' s' ub R V. apply (H4 w s r w' s'); [now apply sub_reach|now apply sub_valid].
  - intros w s R. apply (H5 w). now apply sub_reach.
  - intros w s b R. apply (H6 w). now apply sub_reach.
  - intros w s R. apply (H7 w). now apply sub_reach.
  - intros w s c l R. apply (H8 w s). now apply sub_reach.
  - intros w s b ls l R. apply (H9 w s). now apply sub_reach.
  - intros w s op w' s' R V. apply (H10 w s op w' s'); [now apply sub_reach|now apply sub_valid].
Qed.
Lemma sub_no_panic : no_panic E ilit iok allow' -> no_panic E ilit iok allow.
Proof. intros H w s op R V. apply H; [now apply sub_reach|now apply sub_valid]. Qed.
End Sub.

(** ** The totalizer and the generalized totalizer *)
Theorem tot_upper : upper_contract totalizer (fun l => l) any_lit any_op count_true (@length lit).
Proof.
  constructor; [exact tot_ub_sound|exact tot_complete|apply tot_encodes_ub|apply tot_encodes_ub|exact tot_ub_trivial|exact tot_unsat_above|exact tot_enforce_total|exact tot_clauses_local|exact tot_assumps_local|exact tot_vars_grow].
Qed.
Theorem tot_lower : lower_contract totalizer (fun l => l) any_lit any_op count_true (@length lit).
Proof.
  constructor; [exact tot_lb_sound|exact tot_complete|apply tot_encodes_lb|apply tot_encodes_lb|exact tot_lb_trivial|exact tot_unsat_above|exact tot_enforce_total|exact tot_clauses_local|exact tot_assumps_local|exact tot_vars_grow].
Qed.
Theorem gte_upper ord : iter_order ord -> upper_contract (gte_enc ord) fst pos_weight ub_only wsum total_weight.
Proof.
  intros H. constructor; [exact (gte_ub_sound ord H)|exact (gte_complete ord H)|apply (gte_encodes_ub ord H)|apply (gte_encodes_ub ord H)|exact (gte_ub_trivial ord H)|exact (gte_unsat_above ord H)
    |exact (gte_enforce_total ord H)|exact (gte_clauses_local ord H)|exact (gte_assumps_local ord H)|exact (gte_vars_grow ord H)].
Qed.

(** ** [Inverted<GeneralizedTotalizer>] and the default encoding [Double<GeneralizedTotalizer, Inverted<GeneralizedTotalizer>>] *)
Lemma swap_lb_ub {A} (op op' : hop A) : same_method (swap_op op) op' -> lb_only op -> ub_only op'.
Proof. destruct op, op'; cbn; auto. Qed.
Lemma swap_ub_lb {A} (op op' : hop A) : same_method (swap_op op) op' -> ub_only op -> lb_only op'.
Proof. destruct op, op'; cbn; auto. Qed.

Theorem inv_gte_lower ord ord' : iter_order ord -> iter_order ord' ->
  lower_contract (pb_inverted ord (gte_enc ord')) fst pos_weight (both_allow lb_only distinct_inputs) wsum total_weight.
Proof.
  intros H H'. apply pb_inverted_lower with (allow' := ub_only); auto.
  - intros op op' Hs (Hl & _). eapply swap_lb_ub; eauto.
  - intros op (_ & Hd). exact Hd.
  - now apply gte_upper.
Qed.
Theorem inv_gte_no_panic ord ord' : iter_order ord -> iter_order ord' ->
  forall w s op, reachable (pb_inverted ord (gte_enc ord')) fst pos_weight (both_allow lb_only distinct_inputs) w s ->
    valid_op fst pos_weight (both_allow lb_only distinct_inputs) w op -> range_ok total_weight w op -> step (pb_inverted ord (gte_enc ord')) w s op <> None.
Proof.
  intros H H'. apply pb_inverted_no_panic with (allow' := ub_only); auto.
  - intros op op' Hs (Hl & _). eapply swap_lb_ub; eauto.
  - intros op (_ & Hd). exact Hd.
  - now apply gte_no_panic.
Qed.

Definition dgte ord1 ord2 ord3 ord4 := pb_double ord1 (gte_enc ord2) (pb_inverted ord3 (gte_enc ord4)).

Theorem double_gte ord1 ord2 ord3 ord4 : iter_order ord1 -> iter_order ord2 -> iter_order ord3 -> iter_order ord4 ->
  upper_contract (dgte ord1 ord2 ord3 ord4) fst pos_weight distinct_inputs wsum total_weight /\
  lower_contract (dgte ord1 ord2 ord3 ord4) fst pos_weight distinct_inputs wsum total_weight /\
  encodes_ub (dgte ord1 ord2 ord3 ord4) fst pos_weight distinct_inputs HBoth /\ encodes_lb (dgte ord1 ord2 ord3 ord4) fst pos_weight distinct_inputs HBoth.
Proof.
  intros H1 H2 H3 H4. apply pb_double_contracts; [auto| |now apply inv_gte_lower].
  apply sub_upper with (allow' := ub_only); [intros op (H & _); exact H|now apply gte_upper].
Qed.
Theorem double_gte_no_panic ord1 ord2 ord3 ord4 : iter_order ord1 -> iter_order ord2 -> iter_order ord3 -> iter_order ord4 ->
  forall w s op, reachable (dgte ord1 ord2 ord3 ord4) fst pos_weight distinct_inputs w s -> valid_op fst pos_weight distinct_inputs w op ->
    match op with HLb r | HLbChange r | HBoth r => snd r <> Excl 0 | _ => True end -> step (dgte ord1 ord2 ord3 ord4) w s op <> None.
Proof.
  intros H1 H2 H3 H4. apply pb_double_no_panic; [auto| |now apply inv_gte_lower| |now apply inv_gte_no_panic].
  - apply sub_upper with (allow' := ub_only); [intros op (H & _); exact H|now apply gte_upper].
  - apply sub_no_panic with (allow' := ub_only); [intros op (H & _); exact H|now apply gte_no_panic].
Qed.

(** ** [next_higher] and [next_lower] of inverted encodings *)
Section Next.
Context {S : Type} (ord : wmap -> wmap) (E : encoder (lit * nat) S) (iok : lit * nat -> Prop) (allow allow' : hop (lit * nat) -> Prop).
Hypothesis Hord : iter_order ord.
Hypothesis Hiok : forall x, iok x -> iok (negw x).
Hypothesis Hallow : forall op op', same_method (swap_op op) op' -> allow op -> allow' op'.
Hypothesis Hdist : forall op, allow op -> distinct_inputs op.

Let J := pb_inverted ord E.
Let ireach := inner_reach E (fun xs => ord (map_collect (map negw xs))) weights false fst iok allow allow' negw total_weight (fun _ => eq_refl) Hiok (pb_coll ord allow Hord Hdist) Hallow
  weights_total total_weight_perm total_weight_app total_negw eq_refl.

(** the inner state of a reachable state is reached by the inner encoding with the negated inputs *)
Lemma inv_inner w s : reachable J fst iok allow w s -> exists w', reachable E fst iok allow' w' (fst s) /\ snd s = total_weight (w_in w) /\
  forall a, (wsum a (w_in w) + wsum a (w_in w') = total_weight (w_in w))%nat.
Proof.
  intros R. destruct (ireach _ _ R) as (w' & Rel & R' & Hn). exists w'. split; [auto|]. split; [auto|]. intros a.
  eapply irel_value; eauto using wsum_perm, wsum_inv.
Qed.

Lemma inv_next_higher_ok (f : S -> nat -> option nat) w s val : reachable J fst iok allow w s -> (val < total_weight (w_in w))%nat ->
  (forall w' v, reachable E fst iok allow' w' (fst s) -> (1 <= v)%nat -> lower_right wsum f w' (fst s) v) ->
  higher_right wsum (inv_next_higher f) w s val.
Proof.
  intros R Hv Hf. destruct (inv_inner _ _ R) as (w' & R' & Hn & Hsum). destruct (Hf w' (snd s - val)%nat R' ltac:(lia)) as (v & Ev & Hlt & Hall).
  exists (snd s - v)%nat. unfold inv_next_higher, assertb. rewrite Hn in *. replace (val <=? total_weight (w_in w))%nat with true by lia. cbn [obind]. rewrite Ev. cbn [obind].
  replace (v <=? total_weight (w_in w))%nat with true by lia. split; [reflexivity|]. split; [lia|]. intros a Ha. specialize (Hall a). specialize (Hsum a). lia.
Qed.

Lemma inv_next_lower_ok (f : S -> nat -> option nat) w s val : reachable J fst iok allow w s -> (1 <= val <= total_weight (w_in w))%nat ->
  (exists a, wsum a (w_in w) = 0%nat) ->
  (forall w' v, reachable E fst iok allow' w' (fst s) -> higher_right wsum f w' (fst s) v) ->
  lower_right wsum (inv_next_lower f) w s val.
Proof.
  intros R Hv (a0 & Ha0) Hf. destruct (inv_inner _ _ R) as (w' & R' & Hn & Hsum). destruct (Hf w' (snd s - val)%nat R') as (v & Ev & Hlt & Hall).
  assert (v <= total_weight (w_in w))%nat by (specialize (Hall a0); specialize (Hsum a0); lia).
  exists (snd s - v)%nat. unfold inv_next_lower, assertb. rewrite Hn in *. replace (val <=? total_weight (w_in w))%nat with true by lia. cbn [obind]. rewrite Ev. cbn [obind].
  replace (v <=? total_weight (w_in w))%nat with true by lia. split; [reflexivity|]. split; [lia|]. intros a Ha. specialize (Hall a). specialize (Hsum a). lia.
Qed.
End Next.

Theorem inv_gte_next ord ord' w s val : iter_order ord -> iter_order ord' ->
  reachable (pb_inverted ord (gte_enc ord')) fst pos_weight (both_allow lb_only distinct_inputs) w s -> gt_buf (fst s) = [] ->
  ((val < total_weight (w_in w))%nat -> higher_right wsum (inv_next_higher gte_next_lower) w s val) /\
  ((1 <= val <= total_weight (w_in w))%nat -> (exists a, wsum a (w_in w) = 0%nat) -> lower_right wsum (inv_next_lower gte_next_higher) w s val).
Proof.
  intros H H' R Hb. split; intros Hv; [|intros Ha].
  - apply inv_next_higher_ok with (ord := ord) (E := gte_enc ord') (iok := pos_weight) (allow := both_allow lb_only distinct_inputs) (allow' := ub_only); try assumption.
    + intros x Hx. exact Hx.
    + intros op op' Hs (Hl & _). eapply swap_lb_ub; eauto.
    + intros op (_ & Hd). exact Hd.
    + intros w' v R' Hle. exact (gte_next_lower_ok ord' H' w' (fst s) v R' Hb Hle).
  - apply inv_next_lower_ok with (ord := ord) (E := gte_enc ord') (iok := pos_weight) (allow := both_allow lb_only distinct_inputs) (allow' := ub_only); try assumption.
    + intros x Hx. exact Hx.
    + intros op op' Hs (Hl & _). eapply swap_lb_ub; eauto.
    + intros op (_ & Hd). exact Hd.
    + intros w' v R'. exact (gte_next_higher_ok ord' H' w' (fst s) v R' Hb).
Qed.
