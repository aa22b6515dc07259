(** * Proofs about the atomic encodings *)

From Coq Require Import List Bool NArith ZArith Lia.
From Coq Require Import ZifyBool ZifyNat ZifyN.
From Verif Require Import Spec Types Constraints ConstrSpec Base ConstrProofs Atomics.
Import ListNotations.

Lemma sat_clause_2 a x y : sat_clause a [x; y] = lit_true a x || lit_true a y.
Proof. cbn. now rewrite orb_false_r. Qed.

Lemma lit_impl_lit_sat a x y : sat_clause a (lit_impl_lit x y) = implb (lit_true a x) (lit_true a y).
Proof. unfold lit_impl_lit. rewrite sat_clause_2, lit_true_neg. now destruct (lit_true a x). Qed.

Lemma lit_impl_clause_sat a x c : sat_clause a (lit_impl_clause x c) = implb (lit_true a x) (sat_clause a c).
Proof.
  unfold lit_impl_clause. rewrite sat_clause_app. cbn [sat_clause existsb]. rewrite lit_true_neg, orb_false_r.
  destruct (lit_true a x), (sat_clause a c); reflexivity.
Qed.

Lemma cube_impl_lit_sat a c y : sat_clause a (cube_impl_lit c y) = implb (sat_cube a c) (lit_true a y).
Proof.
  unfold cube_impl_lit. rewrite sat_clause_app, sat_clause_map_neg. cbn [sat_clause existsb]. rewrite orb_false_r.
  now destruct (sat_cube a c).
Qed.

Lemma cube_impl_clause_sat a c d : sat_clause a (cube_impl_clause c d) = implb (sat_cube a c) (sat_clause a d).
Proof.
  unfold cube_impl_clause. rewrite sat_clause_app, sat_clause_map_neg.
  destruct (sat_cube a c), (sat_clause a d); reflexivity.
Qed.

Lemma lit_impl_cube_sat a x c : sat_cnf a (lit_impl_cube x c) = implb (lit_true a x) (sat_cube a c).
Proof.
  induction c as [|y c IH]; cbn [lit_impl_cube map].
  - cbn. now destruct (lit_true a x).
  - rewrite sat_cnf_cons. unfold lit_impl_cube in IH. rewrite IH. cbn [sat_cube forallb].
    fold (sat_cube a c). rewrite sat_clause_2, lit_true_neg. destruct (lit_true a x), (lit_true a y); reflexivity.
Qed.

Lemma clause_impl_lit_sat a c y : sat_cnf a (clause_impl_lit c y) = implb (sat_clause a c) (lit_true a y).
Proof.
  induction c as [|x c IH]; cbn [clause_impl_lit map]; [reflexivity|].
  rewrite sat_cnf_cons, (sat_clause_cons a x c). unfold clause_impl_lit in IH. rewrite IH.
  rewrite sat_clause_2, lit_true_neg. destruct (lit_true a x), (lit_true a y), (sat_clause a c); reflexivity.
Qed.

Lemma clause_impl_clause_sat a c d : sat_cnf a (clause_impl_clause c d) = implb (sat_clause a c) (sat_clause a d).
Proof.
  induction c as [|x c IH]; cbn [clause_impl_clause map]; [reflexivity|].
  rewrite sat_cnf_cons, (sat_clause_cons a x c). unfold clause_impl_clause in IH. rewrite IH.
  change (d ++ [neg x]) with (lit_impl_clause x d). rewrite lit_impl_clause_sat.
  destruct (lit_true a x), (sat_clause a c), (sat_clause a d); reflexivity.
Qed.

Lemma clause_impl_cube_sat a c d : sat_cnf a (clause_impl_cube c d) = implb (sat_clause a c) (sat_cube a d).
Proof.
  induction c as [|x c IH]; cbn [clause_impl_cube flat_map]; [reflexivity|].
  rewrite sat_cnf_app, (sat_clause_cons a x c). unfold clause_impl_cube in IH. rewrite IH.
  change (map (fun bi => [neg x; bi]) d) with (lit_impl_cube x d). rewrite lit_impl_cube_sat.
  destruct (lit_true a x), (sat_clause a c), (sat_cube a d); reflexivity.
Qed.

Lemma cube_impl_cube_sat a c d : sat_cnf a (cube_impl_cube c d) = implb (sat_cube a c) (sat_cube a d).
Proof.
  induction d as [|y d IH]; cbn [cube_impl_cube map].
  - cbn. now destruct (sat_cube a c).
  - rewrite sat_cnf_cons. unfold cube_impl_cube in IH. rewrite IH. cbn [sat_cube forallb]. fold (sat_cube a d).
    change (map neg c ++ [y]) with (cube_impl_lit c y). rewrite cube_impl_lit_sat. fold (sat_cube a c).
    destruct (sat_cube a c), (lit_true a y), (sat_cube a d); reflexivity.
Qed.

(** ** Constraints *)

Lemma wsum_unit_weights a ls : wsum a (unit_weights ls) = count_true a ls.
Proof. apply wsum_unit. Qed.

Lemma lit_impl_card_sound l c r a :
  lit_impl_card l c = Some r -> (pb_holds a r <-> (lit_true a l = true -> card_holds a c)).
Proof.
  unfold lit_impl_card. destruct (card_is_unsat c) eqn:Eu; [discriminate|]. intros H.
  pose proof (count_true_le a (c_lits c)) as Hle.
  unfold card_holds. destruct (c_kind c); inv H; unfold pb_holds; cbn [pb_new_unsigned p_kind p_lits p_b];
    rewrite wsum_app, wsum_unit_weights; cbn [wsum]; rewrite ?lit_true_neg;
    destruct (lit_true a l); cbn [negb]; split; intros; try lia; try discriminate; intuition lia.
Qed.

Lemma lit_impl_card_total l c :
  (lit_impl_card l c = None <-> card_is_unsat c = true \/ c_kind c = KEq).
Proof.
  unfold lit_impl_card. destruct (card_is_unsat c); [tauto|]. destruct (c_kind c); split; intros H; try discriminate;
    try (destruct H; discriminate); auto.
Qed.

Lemma card_impl_lit_sound c l r a :
  card_is_tautology c = false \/ c_kind c = KLb ->
  card_impl_lit c l = Some r -> (pb_holds a r <-> (card_holds a c -> lit_true a l = true)).
Proof.
  intros Ht. unfold card_impl_lit. destruct (card_is_unsat c) eqn:Eu; [discriminate|]. intros H.
  pose proof (count_true_le a (c_lits c)) as Hle. unfold card_is_unsat, card_is_tautology in *.
  unfold card_holds. destruct (c_kind c); [| |discriminate].
  - destruct (c_b c + 1 <=? 2 * length (c_lits c))%nat eqn:E; [|discriminate].
    assert (Hnt : (length (c_lits c) <=? c_b c)%nat = false) by (destruct Ht; [assumption|discriminate]).
    inv H. unfold pb_holds; cbn [pb_new_unsigned p_kind p_lits p_b];
    rewrite wsum_app, wsum_unit_weights, count_true_map_neg; cbn [wsum]; rewrite ?lit_true_neg;
    destruct (lit_true a l); cbn [negb]; split; intros; try lia; try reflexivity.
    all: destruct (le_lt_dec (count_true a (c_lits c)) (c_b c)) as [Hc|Hc]; [specialize (H Hc); discriminate|exfalso; lia].
  - inv H. unfold pb_holds; cbn [pb_new_unsigned p_kind p_lits p_b];
    rewrite wsum_app, wsum_unit_weights, count_true_map_neg; cbn [wsum];
    destruct (lit_true a l); cbn [negb]; split; intros; try lia; try reflexivity.
    all: destruct (le_lt_dec (c_b c) (count_true a (c_lits c))) as [Hc|Hc]; [specialize (H Hc); discriminate|exfalso; lia].
Qed.

Lemma zwsum_1 a l w : zwsum a [(l, w)] = (if lit_true a l then w else 0)%Z.
Proof. cbn. destruct (lit_true a l); lia. Qed.

Lemma pb_add_kind c ls : p_kind (pb_add c ls) = p_kind c.
Proof. unfold pb_add. destruct (convert_input_lits ls) as [[r s] b]. reflexivity. Qed.

Lemma lit_impl_pb_sound l c r a :
  pb_wf c -> lit_impl_pb l c = Some r ->
  pb_wf r /\ (pb_holds a r <-> (lit_true a l = true -> pb_holds a c)).
Proof.
  intros Hwf. unfold lit_impl_pb. destruct (pb_is_unsat c) eqn:Eu; [discriminate|]. intros H.
  destruct (p_kind c) eqn:Ek; [| |discriminate]; inv H.
  - destruct (pb_add_general c [(l, Z.of_nat (p_wsum c))] a Hwf) as [Hwf' Hs].
    split; [exact Hwf'|]. unfold pb_wf in Hwf. rewrite sum_weights_total in Hwf.
    pose proof (wsum_le a (p_lits c)).
    unfold pb_holds in *. unfold pb_set_bound; cbn [p_kind p_lits p_b].
    rewrite pb_add_kind, Ek in *. rewrite zwsum_1 in Hs. cbn [rel_holds] in Hs.
    unfold pb_add in Hs |- *. destruct (convert_input_lits [(l, Z.of_nat (p_wsum c))]) as [[r s] bb] eqn:Ec.
    cbn [p_lits p_b] in Hs |- *. cbn in Ec. destruct (0 <=? Z.of_nat (p_wsum c))%Z eqn:E0; [|lia]. inv Ec.
    rewrite wsum_app in *. cbn [wsum] in *.
    unfold pb_is_unsat in Eu. rewrite Ek in Eu. rewrite Zabs2Nat.id in *.
    destruct (lit_true a l); split; intros; try lia; try discriminate.
    all: intuition lia.
  - destruct (pb_add_general c [(neg l, p_b c)] a Hwf) as [Hwf' Hs]. split; [exact Hwf'|].
    rewrite Hs, Ek, zwsum_1, lit_true_neg. unfold rel_holds, pb_holds. rewrite Ek.
    destruct (lit_true a l); cbn [negb]; split; intros; try lia; try discriminate.
    all: intuition lia.
Qed.

Lemma pb_impl_lit_sound c l r a :
  pb_wf c -> pb_is_tautology c = false \/ p_kind c = KLb ->
  pb_impl_lit c l = Some r ->
  pb_wf r /\ (pb_holds a r <-> (pb_holds a c -> lit_true a l = true)).
Proof.
  intros Hwf Ht. unfold pb_impl_lit. destruct (pb_is_unsat c) eqn:Eu; [discriminate|]. intros H.
  pose proof (wsum_le a (p_lits c)). pose proof Hwf as Hwf'. unfold pb_wf in Hwf'. rewrite sum_weights_total in Hwf'.
  unfold pb_is_unsat, pb_is_tautology in *.
  destruct (p_kind c) eqn:Ek; [| |discriminate]; inv H.
  - split; [reflexivity|]. destruct Ht as [Ht|]; [|discriminate].
    unfold pb_holds at 1; cbn [pb_new_unsigned p_kind p_lits p_b]. rewrite wsum_app, wsum_map_neg. cbn [wsum].
    rewrite lit_true_neg. unfold pb_holds; rewrite Ek. rewrite Eu in Ht.
    destruct (lit_true a l); cbn [negb]; split; intros; try lia; try reflexivity.
    all: destruct (Z_le_gt_dec (Z.of_nat (wsum a (p_lits c))) (p_b c)) as [Hc|Hc]; [specialize (H0 Hc); discriminate|exfalso; lia].
  - split; [apply pb_new_wf|]. unfold pb_new_lb. rewrite pb_new_spec. cbn [rel_holds].
    assert (Hz : forall ls x, zwsum a (map (fun lw => (neg (fst lw), Z.of_nat (snd lw))) ls ++ [x]) =
                 (Z.of_nat (total_weight ls) - Z.of_nat (wsum a ls) + zwsum a [x])%Z).
    { clear. induction ls as [|[y w] ls IH]; intros x; cbn [map app fst snd]; [cbn; lia|].
      cbn [zwsum] in *. rewrite IH. cbn [wsum total_weight]. rewrite lit_true_neg. destruct (lit_true a y); cbn [negb]; lia. }
    rewrite Hz, zwsum_1. unfold pb_holds; rewrite Ek.
    assert (Hb : (p_b c <= Z.of_nat (p_wsum c))%Z) by (destruct (p_b c <? 0)%Z eqn:E; lia).
    destruct (lit_true a l); split; intros; try lia; try reflexivity.
    all: destruct (Z_le_gt_dec (p_b c) (Z.of_nat (wsum a (p_lits c)))) as [Hc|Hc]; [specialize (H0 Hc); discriminate|exfalso; lia].
Qed.
