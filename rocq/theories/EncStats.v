(** * Numbers of variables reported by the totalizers *)

From Coq Require Import List Bool NArith Arith Lia.
From Coq Require Import ZifyBool ZifyNat ZifyN.
From Verif Require Import Spec BoundSpec StatSpec Maps NodeDb TotDb Totalizer Gte Base TotDbInv TotalizerProofs.
Import ListNotations.

(** ** The totalizer *)

Lemma extend_tree_vars t t1 : extend_tree t = Some t1 -> to_vars t1 = to_vars t.
Proof.
  unfold extend_tree. intros H. apply obind_some in H as ((d & o) & _ & H). destruct o as [new|]; [|now injection H as <-].
  apply obind_some in H as ((d' & root) & _ & H). now injection H as <-.
Qed.
Lemma define_root_vars t idxs sem next t' cs n : define_root t idxs sem next = Some (t', cs, n) -> to_vars t' = (to_vars t + (n - next))%N.
Proof.
  unfold define_root. destruct (to_root t) as [id|]; [|intros [= <- <- <-]; cbn; lia].
  intros H. apply obind_some in H as (st & _ & H). injection H as <- <- <-. reflexivity.
Qed.
Lemma ub_change_vars t r next t' cs n : tot_encode_ub_change t r next = Some (t', cs, n) -> to_vars t' = (to_vars t + (n - next))%N.
Proof.
  unfold tot_encode_ub_change. intros H. apply obind_some in H as (k & _ & H). destruct (prepare_ub_range k r) as [lo hi].
  apply obind_some in H as (u & _ & H). destruct (_ <=? _)%nat; [injection H as <- <- <-; cbn; lia|].
  apply obind_some in H as (t1 & E1 & H). apply define_root_vars in H. now rewrite H, (extend_tree_vars _ _ E1).
Qed.
Lemma lb_change_vars t r next t' cs n : tot_encode_lb_change t r next = Some (t', cs, n) -> to_vars t' = (to_vars t + (n - next))%N.
Proof.
  unfold tot_encode_lb_change. intros H. apply obind_some in H as (k & _ & H). destruct (prepare_lb_range k r) as [lo hi].
  apply obind_some in H as (u & _ & H). destruct (_ <=? _)%nat; [injection H as <- <- <-; cbn; lia|].
  apply obind_some in H as (t1 & E1 & H). apply define_root_vars in H. now rewrite H, (extend_tree_vars _ _ E1).
Qed.

Lemma tot_vars allow w t : reachable totalizer (fun l => l) any_lit allow w t ->
  reach_tot w t /\ (to_vars t <= aux_count (w_aux w))%N /\ ((forall op, allow op -> op <> HReserve) -> to_vars t = aux_count (w_aux w)).
Proof.
  induction 1 as [|w s op w' s' R (R0 & I1 & I2) V E]; [split; [apply reach_init|split; [apply N.le_0_l|reflexivity]]|].
  assert (V0 : valid_op (fun l => l) any_lit any_op w op) by (destruct V as (_ & V); exact (conj I V)).
  split; [eapply reach_step; eauto|]. pose proof (reach_tinv _ _ R0) as T.
  assert (K : forall b1 b2 cs n, (w_next w <= n)%N -> to_vars s' = (to_vars s + (n - w_next w))%N -> w' = log_call w b1 b2 cs n ->
    (to_vars s' <= aux_count (w_aux w'))%N /\ ((forall op, allow op -> op <> HReserve) -> to_vars s' = aux_count (w_aux w'))).
  { intros b1 b2 cs n Hn Hs ->. cbn [log_call w_aux aux_count fold_right fst snd]. fold (aux_count (w_aux w)). split; [lia|]. intros H. rewrite Hs, (I2 H). lia. }
  destruct op as [xs|k| |r|r|r|r|r]; cbn [step totalizer en_extend en_reserve en_ub en_ub_change en_lb en_lb_change en_both] in E.
  - injection E as <- <-. auto.
  - injection E as <- <-. auto.
  - destruct (tot_reserve s (w_next w)) as [[t1 n1]|] eqn:Er; [|discriminate]. injection E as <- <-. cbn [log_call w_aux aux_count fold_right fst snd]. fold (aux_count (w_aux w)).
    assert (Hv : to_vars t1 = to_vars s).
    { unfold tot_reserve in Er. apply obind_some in Er as (t2 & E2 & Er). apply extend_tree_vars in E2. destruct (to_root t2); [|injection Er as <- <-; auto].
      apply obind_some in Er as (st & _ & Er). injection Er as <- <-. exact E2. }
    rewrite Hv. split; [lia|]. intros H. exfalso. exact (H _ (proj1 V) eq_refl).
  - destruct (encode_ub_ok w s r T) as (t' & cs & n' & E' & T' & N' & _). rewrite E' in E. cbn in E. injection E as <- <-. unfold tot_encode_ub in E'. apply ub_change_vars in E'. eapply K; eauto.
  - destruct (encode_ub_change_ok w s r T) as (t' & cs & n' & E' & (N' & T' & _) & _). rewrite E' in E. cbn in E. injection E as <- <-. apply ub_change_vars in E'. eapply K; eauto.
  - destruct (encode_lb_ok w s r T) as (t' & cs & n' & E' & T' & N' & _). rewrite E' in E. cbn in E. injection E as <- <-. unfold tot_encode_lb in E'. apply lb_change_vars in E'. eapply K; eauto.
  - destruct (encode_lb_change_ok w s r T) as (t' & cs & n' & E' & (N' & T' & _) & _). rewrite E' in E. cbn in E. injection E as <- <-. apply lb_change_vars in E'. eapply K; eauto.
  - unfold tot_encode_both in E. destruct (encode_ub_change_ok w s r T) as (t1 & c1 & n1 & E1 & (N1 & T1 & K1) & R1). rewrite E1 in E. cbn [obind] in E.
    destruct (encode_lb_change_ok _ _ r T1) as (t2 & c2 & n2 & E2 & (N2 & T2 & K2) & R2). cbn [log_call w_next] in E2, N2. rewrite E2 in E. cbn in E. injection E as <- <-.
    apply ub_change_vars in E1. apply lb_change_vars in E2. eapply K; [|rewrite E2, E1|reflexivity]; lia.
Qed.

(** ** The generalized totalizer *)

Section Gte.
Context (ord : wmap -> wmap).

Lemma gte_tree_vars t mw t1 : gte_extend_tree ord t mw = Some t1 -> gt_vars t1 = gt_vars t.
Proof.
  unfold gte_extend_tree. destruct (filter _ _) as [|x new]; [intros [= <-]; auto|]. intros H. apply obind_some in H as ((d1 & cs) & _ & H).
  apply obind_some in H as ((d2 & o) & _ & H). destruct o; [|discriminate]. now injection H as <-.
Qed.
Lemma gte_change_vars t r next t' cs n : gte_encode_ub_change ord t r next = Some (t', cs, n) -> gt_vars t' = (gt_vars t + (n - next))%N.
Proof.
  unfold gte_encode_ub_change. intros H. apply obind_some in H as (ws & _ & H). destruct (prepare_ub_range ws r) as [lo hi]. destruct (hi <=? lo)%nat; [injection H as <- <- <-; cbn; lia|].
  apply obind_some in H as (t1 & E1 & H). apply gte_tree_vars in E1. destruct (gt_root t1) as [con|]; [|injection H as <- <- <-; cbn; lia].
  apply obind_some in H as (nd & _ & H). apply obind_some in H as (st & _ & H). injection H as <- <- <-. cbn. lia.
Qed.

Lemma gte_vars (allow : hop (lit * nat) -> Prop) w t : (forall op, allow op -> ub_only op) -> reachable (gte_enc ord) fst pos_weight allow w t ->
  (gt_vars t <= aux_count (w_aux w))%N /\ ((forall op, allow op -> op <> HReserve) -> gt_vars t = aux_count (w_aux w)).
Proof.
  intros Hub. induction 1 as [|w s op w' s' R (I1 & I2) V E]; [split; [apply N.le_0_l|reflexivity]|].
  assert (K : forall b1 b2 cs n, gt_vars s' = (gt_vars s + (n - w_next w))%N -> w' = log_call w b1 b2 cs n ->
    (gt_vars s' <= aux_count (w_aux w'))%N /\ ((forall op, allow op -> op <> HReserve) -> gt_vars s' = aux_count (w_aux w'))).
  { intros b1 b2 cs n Hs ->. cbn [log_call w_aux aux_count fold_right fst snd]. fold (aux_count (w_aux w)). split; [lia|]. intros H. rewrite Hs, (I2 H). lia. }
  pose proof (Hub _ (proj1 V)) as Ha.
  destruct op as [xs|k| |r|r|r|r|r]; cbn in Ha; try tauto; cbn [step gte_enc en_extend en_reserve en_ub en_ub_change] in E.
  - injection E as <- <-. auto.
  - injection E as <- <-. auto.
  - destruct (gte_reserve ord s (w_next w)) as [[t1 n1]|] eqn:Er; [|discriminate]. injection E as <- <-. cbn [log_call w_aux aux_count fold_right fst snd]. fold (aux_count (w_aux w)).
    assert (Hv : gt_vars t1 = gt_vars s).
    { unfold gte_reserve in Er. apply obind_some in Er as (t2 & E2 & Er). apply gte_tree_vars in E2. destruct (gt_root t2); [|injection Er as <- <-; auto].
      apply obind_some in Er as (st & _ & Er). injection Er as <- <-. exact E2. }
    rewrite Hv. split; [lia|]. intros H. exfalso. exact (H _ (proj1 V) eq_refl).
  - unfold gte_encode_ub in E. destruct (gte_encode_ub_change _ _ _ _) as [[[t1 c1] n1]|] eqn:Er; [|discriminate]. cbn in E. injection E as <- <-. apply gte_change_vars in Er. eapply K; eauto.
  - destruct (gte_encode_ub_change _ _ _ _) as [[[t1 c1] n1]|] eqn:Er; [|discriminate]. cbn in E. injection E as <- <-. apply gte_change_vars in Er. eapply K; eauto.
Qed.
End Gte.
