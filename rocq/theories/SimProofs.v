(** * Proofs about the encoding simulators *)

From Coq Require Import List Bool NArith ZArith Lia Arith Permutation.
From Coq Require Import ZifyBool ZifyNat ZifyN.
From Verif Require Import Spec BoundSpec BoundExec Types Maps NodeDb TotDb Totalizer Base TotDbInv Simulators.
Import ListNotations.

Lemma assertb_some b x : assertb b = Some x -> b = true.
Proof. unfold assertb. destruct b; [auto|discriminate]. Qed.

Lemma convert_some n lo hi : (1 <= hi)%nat -> (hi - 1 <= n)%nat ->
  convert_encoding_range n (lo, hi) = Some (Incl (n - (hi - 1))%nat, Excl (if (lo <=? n)%nat then n - lo + 1 else 0)%nat).
Proof.
  intros H1 H2. unfold convert_encoding_range, assertb. replace (1 <=? hi)%nat with true by lia. cbn [obind]. replace (hi - 1 <=? n)%nat with true by lia. reflexivity.
Qed.

Lemma convert_inv n lo hi r : convert_encoding_range n (lo, hi) = Some r -> (1 <= hi)%nat /\ (hi - 1 <= n)%nat /\
  r = (Incl (n - (hi - 1))%nat, Excl (if (lo <=? n)%nat then n - lo + 1 else 0)%nat).
Proof.
  unfold convert_encoding_range. intros H. apply obind_some in H as (x & H1 & H). apply assertb_some in H1. apply obind_some in H as (y & H2 & H). apply assertb_some in H2.
  injection H as <-. split; [lia|]. split; [lia|auto].
Qed.

(** a bound in the range becomes its complement in the converted range *)
Lemma convert_in n lo hi r b : convert_encoding_range n (lo, hi) = Some r -> (lo <= b < hi)%nat -> (b <= n)%nat -> in_rng (n - b) r.
Proof.
  intros H Hb Hn. apply convert_inv in H as (H1 & H2 & ->). unfold in_rng. cbn [fst snd]. replace (lo <=? n)%nat with true by lia. lia.
Qed.

(** encoding does not change the inputs *)
Lemma step_in {A S} (E : encoder A S) w s op w' s' : step E w s op = Some (w', s') ->
  w_in w' = match op with HExtend xs => w_in w ++ xs | _ => w_in w end.
Proof.
  destruct op; cbn [step]; intros H.
  - destruct (en_extend _ _ _); [|discriminate]. injection H as <- <-. reflexivity.
  - injection H as <- <-. reflexivity.
  - destruct (en_reserve _ _ _) as [[? ?]|]; [|discriminate]. injection H as <- <-. reflexivity.
  - unfold encode_step in H. destruct (en_ub _ _ _ _) as [[[? ?] ?]|]; [|discriminate]. injection H as <- <-. reflexivity.
  - unfold encode_step in H. destruct (en_ub_change _ _ _ _) as [[[? ?] ?]|]; [|discriminate]. injection H as <- <-. reflexivity.
  - unfold encode_step in H. destruct (en_lb _ _ _ _) as [[[? ?] ?]|]; [|discriminate]. injection H as <- <-. reflexivity.
  - unfold encode_step in H. destruct (en_lb_change _ _ _ _) as [[[? ?] ?]|]; [|discriminate]. injection H as <- <-. reflexivity.
  - unfold encode_step in H. destruct (en_both _ _ _ _) as [[[? ?] ?]|]; [|discriminate]. injection H as <- <-. reflexivity.
Qed.

(** ** Inverted *)
Section Inv.
Context {A S : Type} (E : encoder A S) (coll : list A -> list A) (tot : list A -> nat) (unreach : bool).
Context (ilit : A -> lit) (iok : A -> Prop) (allow allow' : hop A -> Prop) (inv : A -> A) (value : asg -> list A -> nat).
Context (total : list A -> nat).
Hypothesis Hilit : forall x, lvar (ilit (inv x)) = lvar (ilit x).
Hypothesis Hiok : forall x, iok x -> iok (inv x).
Hypothesis Hcoll : forall xs, allow (HExtend xs) -> Permutation (coll xs) (map inv xs).
Hypothesis Hallow : forall op op', same_method (swap_op op) op' -> allow op -> allow' op'.
Hypothesis Htot : forall xs, tot xs = total xs.
Hypothesis Htotal_perm : forall xs ys, Permutation xs ys -> total xs = total ys.
Hypothesis Htotal_app : forall xs ys, total (xs ++ ys) = (total xs + total ys)%nat.
Hypothesis Htotal_inv : forall xs, total (map inv xs) = total xs.
Hypothesis Htotal_nil : total [] = 0%nat.
Hypothesis Hval_perm : forall a xs ys, Permutation xs ys -> value a xs = value a ys.
Hypothesis Hval_inv : forall a xs, (value a xs + value a (map inv xs))%nat = total xs.

Let I := inverted E coll tot unreach.

Record irel (w w' : world A) : Prop := mkIrel {
  ir_in : Permutation (w_in w') (map inv (w_in w));
  ir_next : w_next w' = w_next w;
  ir_aux : w_aux w' = w_aux w;
  ir_all : w_all w' = w_all w;
  ir_ub : w_ub w' = w_lb w;
  ir_lb : w_lb w' = w_ub w
}.

Definition inner_op (n : nat) (op : hop A) : option (hop A) :=
  match op with
  | HExtend xs => Some (HExtend (coll xs))
  | HUserVars k => Some (HUserVars k)
  | HReserve => Some HReserve
  | HUb r => option_map HLb (convert_encoding_range n (prepare_ub_range n r))
  | HUbChange r => option_map HLbChange (convert_encoding_range n (prepare_ub_range n r))
  | HLb r => option_map HUb (convert_encoding_range n (prepare_lb_range n r))
  | HLbChange r => option_map HUbChange (convert_encoding_range n (prepare_lb_range n r))
  | HBoth r => option_map HBoth (convert_encoding_range n (prepare_both_range n r))
  end.

Lemma irel_call w w' a b cs next : irel w w' -> irel (log_call w a b cs next) (log_call w' b a cs next).
Proof.
  intros [H1 H2 H3 H4 H5 H6]. constructor; cbn [log_call w_in w_next w_aux w_all w_ub w_lb]; auto; try congruence.
  - destruct b; congruence.
  - destruct a; congruence.
Qed.

Lemma inner_method n op op' : inner_op n op = Some op' -> same_method (swap_op op) op'.
Proof.
  destruct op; cbn [inner_op swap_op]; intros H; try (injection H as <-; exact Logic.I); destruct (convert_encoding_range _ _); cbn in H; try discriminate; injection H as <-; exact Logic.I.
Qed.

Lemma inner_valid w w' n op op' : irel w w' -> valid_op ilit iok allow w op -> inner_op n op = Some op' -> valid_op ilit iok allow' w' op'.
Proof.
  intros R (Ha & Hv) Ho. split; [eapply Hallow; [eapply inner_method; eauto|auto]|]. pose proof (inner_method _ _ _ Ho) as Hm.
  destruct op; cbn [inner_op] in Ho; cbn [swap_op] in Hm; destruct op'; cbn in Hm; try tauto; try exact Logic.I. injection Ho as <-.
  intros x Hx. eapply Permutation_in in Hx; [|apply Hcoll; auto]. apply in_map_iff in Hx as (y & <- & Hy). rewrite (ir_next _ _ R), (ir_aux _ _ R), Hilit. destruct (Hv y Hy) as (H1 & H2). auto.
Qed.

(** one call is one call of the inner encoder *)
Lemma inner_step w w' s n op w1 s1 n1 : irel w w' -> valid_op ilit iok allow w op -> n = total (w_in w) ->
  step I w (s, n) op = Some (w1, (s1, n1)) ->
  exists op' w1', inner_op n op = Some op' /\ step E w' s op' = Some (w1', s1) /\ irel w1 w1' /\ n1 = total (w_in w1).
Proof.
  intros R V Hn Es. pose proof (ir_next _ _ R) as Nx. destruct op as [xs|k| |r|r|r|r|r]; cbn [step inner_op] in *; unfold I in Es;
    cbn [inverted en_extend en_reserve en_ub en_ub_change en_lb en_lb_change en_both fst snd] in Es.
  - unfold inv_extend in Es. cbn [fst snd] in Es. destruct (en_extend E s (coll xs)) as [s'|] eqn:Ex; [|discriminate]. cbn [obind] in Es. injection Es as <- <- <-.
    eexists _, _. split; [reflexivity|]. cbn [step]. rewrite Ex. split; [reflexivity|]. split.
    + destruct R as [H1 H2 H3 H4 H5 H6]. constructor; cbn [w_in w_next w_aux w_all w_ub w_lb]; auto. rewrite map_app. apply Permutation_app; [auto|apply Hcoll; apply V].
    + cbn [w_in]. rewrite Htotal_app, Htot, (Htotal_perm _ _ (Hcoll xs (proj1 V))), Htotal_inv. congruence.
  - injection Es as <- <- <-. eexists _, _. split; [reflexivity|]. split; [reflexivity|]. split; [|exact Hn].
    destruct R as [H1 H2 H3 H4 H5 H6]. constructor; cbn [w_in w_next w_aux w_all w_ub w_lb]; auto. congruence.
  - unfold inv_reserve in Es. cbn [fst snd] in Es. destruct (en_reserve E s (w_next w)) as [[s' n']|] eqn:Ex; [|discriminate]. cbn [obind fst snd] in Es. injection Es as <- <- <-.
    eexists _, _. split; [reflexivity|]. cbn [step]. rewrite Nx, Ex. split; [reflexivity|]. split; [|exact Hn]. now apply irel_call.
  - unfold inv_call in Es. cbn [fst snd] in Es. destruct (convert_encoding_range n _) as [r'|]; [|discriminate]. cbn [obind] in Es.
    destruct (en_lb E s r' (w_next w)) as [[[s' cs] n']|] eqn:Ex; [|discriminate]. cbn [obind encode_step] in Es. injection Es as <- <- <-.
    eexists _, _. split; [reflexivity|]. cbn [step]. rewrite Nx, Ex. split; [reflexivity|]. split; [|exact Hn]. now apply irel_call.
  - unfold inv_call in Es. cbn [fst snd] in Es. destruct (convert_encoding_range n _) as [r'|]; [|discriminate]. cbn [obind] in Es.
    destruct (en_lb_change E s r' (w_next w)) as [[[s' cs] n']|] eqn:Ex; [|discriminate]. cbn [obind encode_step] in Es. injection Es as <- <- <-.
    eexists _, _. split; [reflexivity|]. cbn [step]. rewrite Nx, Ex. split; [reflexivity|]. split; [|exact Hn]. now apply irel_call.
  - unfold inv_call in Es. cbn [fst snd] in Es. destruct (convert_encoding_range n _) as [r'|]; [|discriminate]. cbn [obind] in Es.
    destruct (en_ub E s r' (w_next w)) as [[[s' cs] n']|] eqn:Ex; [|discriminate]. cbn [obind encode_step] in Es. injection Es as <- <- <-.
    eexists _, _. split; [reflexivity|]. cbn [step]. rewrite Nx, Ex. split; [reflexivity|]. split; [|exact Hn]. now apply irel_call.
  - unfold inv_call in Es. cbn [fst snd] in Es. destruct (convert_encoding_range n _) as [r'|]; [|discriminate]. cbn [obind] in Es.
    destruct (en_ub_change E s r' (w_next w)) as [[[s' cs] n']|] eqn:Ex; [|discriminate]. cbn [obind encode_step] in Es. injection Es as <- <- <-.
    eexists _, _. split; [reflexivity|]. cbn [step]. rewrite Nx, Ex. split; [reflexivity|]. split; [|exact Hn]. now apply irel_call.
  - unfold inv_call in Es. cbn [fst snd] in Es. destruct (convert_encoding_range n _) as [r'|]; [|discriminate]. cbn [obind] in Es.
    destruct (en_both E s r' (w_next w)) as [[[s' cs] n']|] eqn:Ex; [|discriminate]. cbn [obind encode_step] in Es. injection Es as <- <- <-.
    eexists _, _. split; [reflexivity|]. cbn [step]. rewrite Nx, Ex. split; [reflexivity|]. split; [|exact Hn]. now apply irel_call.
Qed.

Lemma inner_reach w sn : reachable I ilit iok allow w sn ->
  exists w', irel w w' /\ reachable E ilit iok allow' w' (fst sn) /\ snd sn = total (w_in w).
Proof.
  induction 1 as [|w s op w1 s1 R IH V Es].
  - exists world0. split; [constructor; reflexivity|]. split; [apply reach_init|]. symmetry. exact Htotal_nil.
  - destruct IH as (w' & Hr & Hre & Hn). destruct s as [s n], s1 as [s1 n1]. cbn [fst snd] in *.
    destruct (inner_step _ _ _ _ _ _ _ _ Hr V Hn Es) as (op' & w1' & Ho & Es' & Hr' & Hn'). exists w1'. split; [auto|]. split; [|auto].
    apply (reach_step _ _ _ _ w' s op'); [auto|eapply inner_valid; eauto|auto].
Qed.

(** values and totals of related histories *)
Lemma irel_total w w' : irel w w' -> total (w_in w') = total (w_in w).
Proof. intros R. rewrite (Htotal_perm _ _ (ir_in _ _ R)). apply Htotal_inv. Qed.
Lemma irel_value w w' a : irel w w' -> (value a (w_in w) + value a (w_in w') = total (w_in w))%nat.
Proof. intros R. rewrite (Hval_perm a _ _ (ir_in _ _ R)). apply Hval_inv. Qed.

Lemma enforce_ub_inv s n ub ls : en_enforce_ub I (s, n) ub = Some (EOk ls) -> (n <= ub)%nat \/ (ub < n)%nat /\ en_enforce_lb E s (n - ub) = Some (EOk ls).
Proof.
  intros He. unfold I in He. cbn [inverted en_enforce_ub] in He. unfold inv_enforce_ub in He. cbn [fst snd] in He.
  destruct (Nat.ltb_spec ub n) as [L|L]; [right|auto]. split; [auto|].
  destruct (en_enforce_lb E s (n - ub)) as [[ls'| |]|] eqn:Ee; cbn [obind] in He; try discriminate; [congruence|destruct unreach; discriminate].
Qed.
Lemma enforce_lb_inv s n lb ls : en_enforce_lb I (s, n) lb = Some (EOk ls) -> (lb <= n)%nat /\ en_enforce_ub E s (n - lb) = Some (EOk ls).
Proof.
  intros He. unfold I in He. cbn [inverted en_enforce_lb] in He. unfold inv_enforce_lb in He. cbn [fst snd] in He.
  destruct (Nat.leb_spec lb n) as [L|L]; [auto|discriminate].
Qed.

Lemma inv_ub_sound : lb_sound E ilit iok allow' value -> ub_sound I ilit iok allow value.
Proof.
  intros H w [s n] ub ls a R He Sf Sc. destruct (inner_reach _ _ R) as (w' & Rel & R' & Hn). cbn [fst snd] in *. pose proof (irel_value _ _ a Rel) as Hv.
  destruct (enforce_ub_inv _ _ _ _ He) as [L|(L & Ee)]; [lia|]. rewrite <- (ir_lb _ _ Rel) in Sf. specialize (H _ _ _ _ a R' Ee Sf Sc). lia.
Qed.

Lemma inv_lb_sound : ub_sound E ilit iok allow' value -> lb_sound I ilit iok allow value.
Proof.
  intros H w [s n] lb ls a R He Sf Sc. destruct (inner_reach _ _ R) as (w' & Rel & R' & Hn). cbn [fst snd] in *. pose proof (irel_value _ _ a Rel) as Hv.
  destruct (enforce_lb_inv _ _ _ _ He) as (L & Ee). rewrite <- (ir_ub _ _ Rel) in Sf. specialize (H _ _ _ _ a R' Ee Sf Sc). lia.
Qed.

Lemma inv_complete : bounds_complete E ilit iok allow' value -> bounds_complete I ilit iok allow value.
Proof.
  intros H w [s n] a R. destruct (inner_reach _ _ R) as (w' & Rel & R' & Hn). cbn [fst snd] in *. pose proof (irel_value _ _ a Rel) as Hv.
  destruct (H _ _ a R') as (a' & H1 & H2 & H3 & H4). exists a'. rewrite (ir_aux _ _ Rel) in H1. rewrite (ir_all _ _ Rel) in H2. split; [auto|]. split; [auto|]. split.
  - intros ub ls He Hle. unfold I in He. cbn [inverted en_enforce_ub] in He. unfold inv_enforce_ub in He. cbn [fst snd] in He.
    destruct (Nat.ltb_spec ub n) as [L|L]; [|injection He as <-; reflexivity].
    destruct (en_enforce_lb E s (n - ub)) as [[ls'| |]|] eqn:Ee; cbn [obind] in He; try discriminate; [|destruct unreach; discriminate].
    injection He as <-. apply (H4 _ _ Ee). lia.
  - intros lb ls He Hle. destruct (enforce_lb_inv _ _ _ _ He) as (L & Ee). apply (H3 _ _ Ee). lia.
Qed.

Lemma inv_enforce_total : enforce_total E ilit iok allow' -> unsat_above E ilit iok allow' total -> enforce_total I ilit iok allow.
Proof.
  intros H HU w [s n] R. destruct (inner_reach _ _ R) as (w' & Rel & R' & Hn). cbn [fst snd] in *. destruct (H _ _ R') as (H1 & H2). pose proof (irel_total _ _ Rel) as Ht.
  split; intros b; unfold I; cbn [inverted en_enforce_ub en_enforce_lb]; unfold inv_enforce_ub, inv_enforce_lb; cbn [fst snd].
  - destruct (Nat.ltb_spec b n) as [L|L]; [|discriminate]. specialize (H2 (n - b)%nat). destruct (en_enforce_lb E s (n - b)) as [[ls'| |]|] eqn:Ee; cbn [obind]; try congruence.
    apply (HU _ _ _ R') in Ee. lia.
  - destruct (b <=? n)%nat; [apply H1|discriminate].
Qed.

Lemma inv_unsat_above : unsat_above E ilit iok allow' total -> unsat_above I ilit iok allow total.
Proof.
  intros H w [s n] b R. destruct (inner_reach _ _ R) as (w' & Rel & R' & Hn). cbn [fst snd] in *. pose proof (irel_total _ _ Rel) as Ht.
  unfold I; cbn [inverted en_enforce_ub en_enforce_lb]; unfold inv_enforce_ub, inv_enforce_lb; cbn [fst snd]. split.
  - destruct (Nat.leb_spec b n) as [L|L]; [|lia]. intros He. destruct (H _ _ (n - b)%nat R') as (_ & Hx). congruence.
  - destruct (Nat.ltb_spec b n) as [L|L]; [|discriminate]. destruct (en_enforce_lb E s (n - b)) as [[ls'| |]|] eqn:Ee; cbn [obind]; try discriminate.
    apply (H _ _ _ R') in Ee. lia.
Qed.

Lemma inv_ub_trivial : ub_trivial I ilit iok allow total.
Proof.
  intros w [s n] ub R Hle. destruct (inner_reach _ _ R) as (w' & Rel & R' & Hn). cbn [fst snd] in *.
  unfold I; cbn [inverted en_enforce_ub]; unfold inv_enforce_ub; cbn [fst snd]. replace (ub <? n)%nat with false by lia. eauto.
Qed.

Lemma inv_lb_trivial : ub_trivial E ilit iok allow' total -> lb_trivial I ilit iok allow.
Proof.
  intros H w [s n] R. destruct (inner_reach _ _ R) as (w' & Rel & R' & Hn). cbn [fst snd] in *. pose proof (irel_total _ _ Rel) as Ht.
  unfold I; cbn [inverted en_enforce_lb]; unfold inv_enforce_lb; cbn [fst snd]. replace (0 <=? n)%nat with true by lia. rewrite Nat.sub_0_r.
  apply (H w'); [auto|lia].
Qed.

(** what the converted ranges contain *)
Lemma ub_conv n r r' ub : convert_encoding_range n (prepare_ub_range n r) = Some r' -> in_rng ub r -> (ub < n)%nat -> in_rng (n - ub) r'.
Proof.
  intros H Hin L. destruct (prepare_ub_range n r) as [lo hi] eqn:Ep. eapply convert_in; [exact H| |lia].
  unfold prepare_ub_range in Ep. injection Ep as <- <-. destruct r as [[]  []]; unfold in_rng in Hin; cbn [fst snd] in *; lia.
Qed.
Lemma lb_conv n r r' lb : convert_encoding_range n (prepare_lb_range n r) = Some r' -> in_rng lb r -> (1 <= lb <= n)%nat -> in_rng (n - lb) r'.
Proof.
  intros H Hin L. destruct (prepare_lb_range n r) as [lo hi] eqn:Ep. eapply convert_in; [exact H| |lia].
  unfold prepare_lb_range in Ep. injection Ep as <- <-. destruct r as [[]  []]; unfold in_rng in Hin; cbn [fst snd] in *; lia.
Qed.
Lemma both_conv n r r' b : convert_encoding_range n (prepare_both_range n r) = Some r' -> in_rng b r -> fst r <> Unb \/ (1 <= b)%nat -> (b <= n)%nat -> in_rng (n - b) r'.
Proof.
  intros H Hin Hs L. destruct (prepare_both_range n r) as [lo hi] eqn:Ep. eapply convert_in; [exact H| |lia].
  unfold prepare_both_range in Ep. injection Ep as <- <-. destruct r as [[]  []]; unfold in_rng in Hin; cbn [fst snd] in *; try lia; destruct Hs; try congruence; lia.
Qed.

Lemma inv_ub_after (w w' : world A) s n ub r' : irel w w' -> n = total (w_in w) -> reachable E ilit iok allow' w' s -> unsat_above E ilit iok allow' total ->
  ((ub < n)%nat -> in_rng (n - ub) r') ->
  (forall lb, in_rng lb r' -> (exists ls, en_enforce_lb E s lb = Some (EOk ls)) \/ en_enforce_lb E s lb = Some EUnsat) ->
  exists ls, en_enforce_ub I (s, n) ub = Some (EOk ls).
Proof.
  intros Rel Hn R' HU Hr H. pose proof (irel_total _ _ Rel) as Ht. unfold I; cbn [inverted en_enforce_ub]; unfold inv_enforce_ub; cbn [fst snd].
  destruct (Nat.ltb_spec ub n) as [L|L]; [|eauto]. destruct (H _ (Hr L)) as [(ls & He)|He]; [rewrite He; cbn [obind]; eauto|]. apply (HU _ _ _ R') in He. lia.
Qed.

Lemma inv_lb_after (w w' : world A) s n lb r' : irel w w' -> n = total (w_in w) -> reachable E ilit iok allow' w' s -> ub_trivial E ilit iok allow' total ->
  ((1 <= lb <= n)%nat -> in_rng (n - lb) r') ->
  (forall ub, in_rng ub r' -> exists ls, en_enforce_ub E s ub = Some (EOk ls)) ->
  (exists ls, en_enforce_lb I (s, n) lb = Some (EOk ls)) \/ en_enforce_lb I (s, n) lb = Some EUnsat.
Proof.
  intros Rel Hn R' HT Hr H. pose proof (irel_total _ _ Rel) as Ht. unfold I; cbn [inverted en_enforce_lb]; unfold inv_enforce_lb; cbn [fst snd].
  destruct (Nat.leb_spec lb n) as [L|L]; [left|auto]. destruct lb as [|lb]; [rewrite Nat.sub_0_r; eapply HT; [eauto|lia]|]. apply H, Hr. lia.
Qed.

Lemma inv_encodes_ub : unsat_above E ilit iok allow' total ->
  (encodes_lb E ilit iok allow' HLb -> encodes_ub I ilit iok allow HUb) /\
  (encodes_lb E ilit iok allow' HLbChange -> encodes_ub I ilit iok allow HUbChange).
Proof.
  intros HU. split; intros H w [s n] r w1 [s1 n1] ub R V Es Hin; destruct (inner_reach _ _ R) as (w' & Rel & R' & Hn); cbn [fst snd] in *;
    destruct (inner_step _ _ _ _ _ _ _ _ Rel V Hn Es) as (op' & w1' & Ho & Es' & Rel' & Hn'); pose proof (inner_valid _ _ _ _ _ Rel V Ho) as V';
    cbn [inner_op] in Ho; destruct (convert_encoding_range n (prepare_ub_range n r)) as [r'|] eqn:Ec; try discriminate; cbn [option_map] in Ho; injection Ho as <-.
  - assert (n1 = n) as -> by (pose proof (step_in _ _ _ _ _ _ Es) as Hin'; cbn in Hin'; congruence).
    eapply (inv_ub_after w1 w1' s1 n ub r'); eauto; [eapply (reach_step _ _ _ _ w' s); eauto|intros L; eapply ub_conv; eauto].
  - assert (n1 = n) as -> by (pose proof (step_in _ _ _ _ _ _ Es) as Hin'; cbn in Hin'; congruence).
    eapply (inv_ub_after w1 w1' s1 n ub r'); eauto; [eapply (reach_step _ _ _ _ w' s); eauto|intros L; eapply ub_conv; eauto].
Qed.

Lemma inv_encodes_lb : ub_trivial E ilit iok allow' total ->
  (encodes_ub E ilit iok allow' HUb -> encodes_lb I ilit iok allow HLb) /\
  (encodes_ub E ilit iok allow' HUbChange -> encodes_lb I ilit iok allow HLbChange).
Proof.
  intros HU. split; intros H w [s n] r w1 [s1 n1] lb R V Es Hin; destruct (inner_reach _ _ R) as (w' & Rel & R' & Hn); cbn [fst snd] in *;
    destruct (inner_step _ _ _ _ _ _ _ _ Rel V Hn Es) as (op' & w1' & Ho & Es' & Rel' & Hn'); pose proof (inner_valid _ _ _ _ _ Rel V Ho) as V';
    cbn [inner_op] in Ho; destruct (convert_encoding_range n (prepare_lb_range n r)) as [r'|] eqn:Ec; try discriminate; cbn [option_map] in Ho; injection Ho as <-.
  - assert (n1 = n) as -> by (pose proof (step_in _ _ _ _ _ _ Es) as Hin'; cbn in Hin'; congruence).
    eapply (inv_lb_after w1 w1' s1 n lb r'); eauto; [eapply (reach_step _ _ _ _ w' s); eauto|intros L; eapply lb_conv; eauto].
  - assert (n1 = n) as -> by (pose proof (step_in _ _ _ _ _ _ Es) as Hin'; cbn in Hin'; congruence).
    eapply (inv_lb_after w1 w1' s1 n lb r'); eauto; [eapply (reach_step _ _ _ _ w' s); eauto|intros L; eapply lb_conv; eauto].
Qed.

(** [encode_both]: an unbounded range of bounds starts at one, so the upper bound zero may be left out *)
Lemma inv_encodes_both : unsat_above E ilit iok allow' total -> ub_trivial E ilit iok allow' total ->
  encodes_lb E ilit iok allow' HBoth -> encodes_ub E ilit iok allow' HBoth ->
  encodes_lb I ilit iok allow HBoth /\
  (forall w s r w' s' ub, reachable I ilit iok allow w s -> valid_op ilit iok allow w (HBoth r) -> step I w s (HBoth r) = Some (w', s') ->
     in_rng ub r -> fst r <> Unb \/ (1 <= ub)%nat -> exists ls, en_enforce_ub I s' ub = Some (EOk ls)).
Proof.
  intros HU HT HL HUB. split; [intros w [s n] r w1 [s1 n1] b R V Es Hin|intros w [s n] r w1 [s1 n1] b R V Es Hin Hs]; destruct (inner_reach _ _ R) as (w' & Rel & R' & Hn); cbn [fst snd] in *;
    destruct (inner_step _ _ _ _ _ _ _ _ Rel V Hn Es) as (op' & w1' & Ho & Es' & Rel' & Hn'); pose proof (inner_valid _ _ _ _ _ Rel V Ho) as V';
    cbn [inner_op] in Ho; destruct (convert_encoding_range n (prepare_both_range n r)) as [r'|] eqn:Ec; try discriminate; cbn [option_map] in Ho; injection Ho as <-.
  - assert (n1 = n) as -> by (pose proof (step_in _ _ _ _ _ _ Es) as Hin'; cbn in Hin'; congruence).
    eapply (inv_lb_after w1 w1' s1 n b r'); eauto; [eapply (reach_step _ _ _ _ w' s); eauto|intros L; eapply both_conv; eauto; lia].
  - assert (n1 = n) as -> by (pose proof (step_in _ _ _ _ _ _ Es) as Hin'; cbn in Hin'; congruence).
    eapply (inv_ub_after w1 w1' s1 n b r'); eauto; [eapply (reach_step _ _ _ _ w' s); eauto|intros L; eapply both_conv; eauto; lia].
Qed.

Lemma inv_ub_persists : lb_persists E ilit iok allow' -> ub_persists I ilit iok allow.
Proof.
  intros H w [s n] op w1 [s1 n1] ub ls R V Es Hop He. destruct (inner_reach _ _ R) as (w' & Rel & R' & Hn). cbn [fst snd] in *.
  destruct (inner_step _ _ _ _ _ _ _ _ Rel V Hn Es) as (op' & w1' & Ho & Es' & Rel' & Hn'). pose proof (inner_valid _ _ _ _ _ Rel V Ho) as V'.
  assert (n1 = n) as -> by (pose proof (step_in _ _ _ _ _ _ Es) as Hin'; destruct op; cbn in Hin'; try tauto; congruence).
  assert (K : match op' with HExtend _ | HLb _ => False | _ => True end) by (apply inner_method in Ho; destruct op; cbn in Ho; destruct op'; tauto).
  unfold I in *; cbn [inverted en_enforce_ub] in *; unfold inv_enforce_ub in *; cbn [fst snd] in *.
  destruct (Nat.ltb_spec ub n) as [L|L]; [|auto]. destruct (en_enforce_lb E s (n - ub)) as [[ls'| |]|] eqn:Ee; cbn [obind] in *; try discriminate; [|destruct unreach; discriminate].
  rewrite (H _ _ _ _ _ _ _ R' V' Es' K Ee). exact He.
Qed.

Lemma inv_lb_persists : ub_persists E ilit iok allow' -> lb_persists I ilit iok allow.
Proof.
  intros H w [s n] op w1 [s1 n1] lb ls R V Es Hop He. destruct (inner_reach _ _ R) as (w' & Rel & R' & Hn). cbn [fst snd] in *.
  destruct (inner_step _ _ _ _ _ _ _ _ Rel V Hn Es) as (op' & w1' & Ho & Es' & Rel' & Hn'). pose proof (inner_valid _ _ _ _ _ Rel V Ho) as V'.
  assert (n1 = n) as -> by (pose proof (step_in _ _ _ _ _ _ Es) as Hin'; destruct op; cbn in Hin'; try tauto; congruence).
  assert (K : match op' with HExtend _ | HUb _ => False | _ => True end) by (apply inner_method in Ho; destruct op; cbn in Ho; destruct op'; tauto).
  destruct (enforce_lb_inv _ _ _ _ He) as (L & Ee). unfold I; cbn [inverted en_enforce_lb]; unfold inv_enforce_lb; cbn [fst snd].
  replace (lb <=? n)%nat with true by lia. apply (H _ _ _ _ _ _ _ R' V' Es' K Ee).
Qed.

Lemma irel_in w w' v : irel w w' -> (exists x, In x (w_in w') /\ lvar (ilit x) = v) -> exists x, In x (w_in w) /\ lvar (ilit x) = v.
Proof.
  intros Rel (x & Hx & <-). eapply Permutation_in in Hx; [|apply (ir_in _ _ Rel)]. apply in_map_iff in Hx as (y & <- & Hy). exists y. split; [auto|]. symmetry. apply Hilit.
Qed.

Lemma inv_clauses_local : clauses_local E ilit iok allow' -> clauses_local I ilit iok allow.
Proof.
  intros H w [s n] c l R Hc Hl. destruct (inner_reach _ _ R) as (w' & Rel & R' & Hn). cbn [fst snd] in *.
  rewrite <- (ir_all _ _ Rel) in Hc. destruct (H _ _ _ _ R' Hc Hl) as [Hx|Hx]; [left; eapply irel_in; eauto|right; rewrite <- (ir_aux _ _ Rel); auto].
Qed.

Lemma inv_assumps_local : assumps_local E ilit iok allow' -> assumps_local I ilit iok allow.
Proof.
  intros H w [s n] b ls l R He Hl. destruct (inner_reach _ _ R) as (w' & Rel & R' & Hn). cbn [fst snd] in *.
  assert (K : In l [] \/ exists b', en_enforce_ub E s b' = Some (EOk ls) \/ en_enforce_lb E s b' = Some (EOk ls)).
  { destruct He as [He|He].
    - unfold I in *; cbn [inverted en_enforce_ub] in *; unfold inv_enforce_ub in *; cbn [fst snd] in *.
      destruct (Nat.ltb_spec b n) as [L|L]; [|injection He as <-; auto]. destruct (en_enforce_lb E s (n - b)) as [[ls'| |]|] eqn:Ee; cbn [obind] in *; try discriminate; [|destruct unreach; discriminate].
      right. exists (n - b)%nat. injection He as <-. auto.
    - apply enforce_lb_inv in He as (_ & He). right. eauto. }
  destruct K as [[]|(b' & K)]. destruct (H _ _ _ _ _ R' K Hl) as [Hx|Hx]; [left; eapply irel_in; eauto|right; rewrite <- (ir_aux _ _ Rel); auto].
Qed.

Lemma inv_vars_grow : vars_grow E ilit iok allow' -> vars_grow I ilit iok allow.
Proof.
  intros H w [s n] op w1 [s1 n1] R V Es. destruct (inner_reach _ _ R) as (w' & Rel & R' & Hn). cbn [fst snd] in *.
  destruct (inner_step _ _ _ _ _ _ _ _ Rel V Hn Es) as (op' & w1' & Ho & Es' & Rel' & Hn'). pose proof (inner_valid _ _ _ _ _ Rel V Ho) as V'.
  rewrite <- (ir_next _ _ Rel), <- (ir_next _ _ Rel'). eapply H; eauto.
Qed.

(** no call panics, except with ranges that end below every bound *)
Lemma inv_no_panic : no_panic E ilit iok allow' ->
  forall w s op, reachable I ilit iok allow w s -> valid_op ilit iok allow w op ->
    match op with HUb r | HUbChange r => snd r <> Excl 0 /\ total (w_in w) <> 0%nat | HLb r | HLbChange r | HBoth r => snd r <> Excl 0 | _ => True end ->
    step I w s op <> None.
Proof.
  intros H w [s n] op R V Hr. destruct (inner_reach _ _ R) as (w' & Rel & R' & Hn). cbn [fst snd] in *. pose proof (ir_next _ _ Rel) as Nx.
  assert (Hu : forall r, snd r <> Excl 0 -> total (w_in w) <> 0%nat -> exists r', convert_encoding_range n (prepare_ub_range n r) = Some r').
  { intros r H1 H2. destruct (prepare_ub_range n r) as [lo hi] eqn:Ep. eexists. apply convert_some; unfold prepare_ub_range in Ep; injection Ep as <- <-; destruct r as [b1 [k|k|]]; cbn [fst snd] in *; try lia.
    assert (k <> 0%nat) by congruence. lia. }
  assert (Hl : forall r, snd r <> Excl 0 -> exists r', convert_encoding_range n (prepare_lb_range n r) = Some r').
  { intros r H1. destruct (prepare_lb_range n r) as [lo hi] eqn:Ep. eexists. apply convert_some; unfold prepare_lb_range in Ep; injection Ep as <- <-; destruct r as [b1 [k|k|]]; cbn [fst snd] in *; try lia.
    assert (k <> 0%nat) by congruence. lia. }
  assert (Hb : forall r, snd r <> Excl 0 -> exists r', convert_encoding_range n (prepare_both_range n r) = Some r').
  { intros r H1. destruct (prepare_both_range n r) as [lo hi] eqn:Ep. eexists. apply convert_some; unfold prepare_both_range in Ep; injection Ep as <- <-; destruct r as [b1 [k|k|]]; cbn [fst snd] in *; try lia.
    assert (k <> 0%nat) by congruence. lia. }
  assert (Hop : exists op', inner_op n op = Some op').
  { destruct op as [xs|k| |r|r|r|r|r]; cbn [inner_op]; eauto; try destruct Hr as (Hr & Ht).
    - destruct (Hu r Hr Ht) as (r' & ->). cbn. eauto.
    - destruct (Hu r Hr Ht) as (r' & ->). cbn. eauto.
    - destruct (Hl r Hr) as (r' & ->). cbn. eauto.
    - destruct (Hl r Hr) as (r' & ->). cbn. eauto.
    - destruct (Hb r Hr) as (r' & ->). cbn. eauto. }
  destruct Hop as (op' & Ho). pose proof (inner_valid _ _ _ _ _ Rel V Ho) as V'. specialize (H _ _ _ R' V'). intros Es. apply H. clear H Hr Hu Hl Hb V V'.
  destruct op as [xs|k| |r|r|r|r|r]; cbn [inner_op] in Ho; unfold I in Es; cbn [step inverted en_extend en_reserve en_ub en_ub_change en_lb en_lb_change en_both] in Es;
    unfold inv_extend, inv_reserve, inv_call in Es; cbn [fst snd] in Es.
  - injection Ho as <-. cbn [step]. destruct (en_extend E s (coll xs)); [discriminate|reflexivity].
  - discriminate.
  - injection Ho as <-. cbn [step]. rewrite Nx. destruct (en_reserve E s (w_next w)); [discriminate|reflexivity].
  - destruct (convert_encoding_range _ _) as [r'|]; [|discriminate]. injection Ho as <-. cbn [step obind] in *. rewrite Nx. destruct (en_lb _ _ _ _) as [[[? ?] ?]|]; [discriminate|reflexivity].
  - destruct (convert_encoding_range _ _) as [r'|]; [|discriminate]. injection Ho as <-. cbn [step obind] in *. rewrite Nx. destruct (en_lb_change _ _ _ _) as [[[? ?] ?]|]; [discriminate|reflexivity].
  - destruct (convert_encoding_range _ _) as [r'|]; [|discriminate]. injection Ho as <-. cbn [step obind] in *. rewrite Nx. destruct (en_ub _ _ _ _) as [[[? ?] ?]|]; [discriminate|reflexivity].
  - destruct (convert_encoding_range _ _) as [r'|]; [|discriminate]. injection Ho as <-. cbn [step obind] in *. rewrite Nx. destruct (en_ub_change _ _ _ _) as [[[? ?] ?]|]; [discriminate|reflexivity].
  - destruct (convert_encoding_range _ _) as [r'|]; [|discriminate]. injection Ho as <-. cbn [step obind] in *. rewrite Nx. destruct (en_both _ _ _ _) as [[[? ?] ?]|]; [discriminate|reflexivity].
Qed.

Lemma inv_lower_contract : upper_contract E ilit iok allow' value total -> lower_contract I ilit iok allow value total.
Proof.
  intros [H1 H2 H3 H4 H5 H6 H7 H8 H9 H10]. constructor.
  - now apply inv_lb_sound.
  - now apply inv_complete.
  - now apply inv_encodes_lb.
  - now apply inv_encodes_lb.
  - now apply inv_lb_trivial.
  - now apply inv_unsat_above.
  - now apply inv_enforce_total.
  - now apply inv_clauses_local.
  - now apply inv_assumps_local.
  - now apply inv_vars_grow.
Qed.
Lemma inv_upper_contract : lower_contract E ilit iok allow' value total -> upper_contract I ilit iok allow value total.
Proof.
  intros [H1 H2 H3 H4 H5 H6 H7 H8 H9 H10]. constructor.
  - now apply inv_ub_sound.
  - now apply inv_complete.
  - now apply inv_encodes_ub.
  - now apply inv_encodes_ub.
  - apply inv_ub_trivial.
  - now apply inv_unsat_above.
  - now apply inv_enforce_total.
  - now apply inv_clauses_local.
  - now apply inv_assumps_local.
  - now apply inv_vars_grow.
Qed.
End Inv.

(** ** Double *)
Section Dbl.
Context {A S T : Type} (U : encoder A S) (L : encoder A T) (coll : list A -> list A).
Context (ilit : A -> lit) (iok : A -> Prop) (allow allow1 allow2 : hop A -> Prop) (value : asg -> list A -> nat) (total : list A -> nat).
Hypothesis Hcoll : forall xs, allow (HExtend xs) -> Permutation (coll xs) xs.
Hypothesis Hallow1 : forall op op', ub_only op' -> match op, op' with HExtend xs, HExtend ys => ys = coll xs | _, HExtend _ => False | _, _ => True end -> allow op -> allow1 op'.
Hypothesis Hallow2 : forall op op', lb_only op' -> match op, op' with HExtend xs, HExtend ys => ys = coll xs | _, HExtend _ => False | _, _ => True end -> allow op -> allow2 op'.
Hypothesis Htotal_perm : forall xs ys, Permutation xs ys -> total xs = total ys.
Hypothesis Hval_perm : forall a xs ys, Permutation xs ys -> value a xs = value a ys.
Hypothesis HgU : vars_grow U ilit iok allow1.
Hypothesis HgL : vars_grow L ilit iok allow2.

Let D := double U L coll.

Record drel (w w1 w2 : world A) : Prop := mkDrel {
  dr_in1 : Permutation (w_in w1) (w_in w);
  dr_in2 : Permutation (w_in w2) (w_in w);
  dr_next1 : w_next w1 = w_next w;
  dr_next2 : w_next w2 = w_next w;
  dr_aux : forall v, in_aux (w_aux w) v <-> in_aux (w_aux w1) v \/ in_aux (w_aux w2) v;
  dr_disj : forall v, in_aux (w_aux w1) v -> in_aux (w_aux w2) v -> False;
  dr_below : forall v, in_aux (w_aux w) v -> (v < w_next w)%N;
  dr_lits : forall x, In x (w_in w) -> (lvar (ilit x) < w_next w)%N /\ ~ in_aux (w_aux w) (lvar (ilit x));
  dr_ub : incl (w_ub w1) (w_ub w);
  dr_lb : incl (w_lb w2) (w_lb w);
  dr_all : incl (w_all w) (w_all w1 ++ w_all w2)
}.

Lemma in_aux_cons lo hi aux v : in_aux ((lo, hi) :: aux) v <-> (lo <= v < hi)%N \/ in_aux aux v.
Proof.
  unfold in_aux. split.
  - intros (lo' & hi' & [E|Hin] & Hv); [injection E as <- <-; auto|right; eauto].
  - intros [H|(lo' & hi' & Hin & Hv)]; [exists lo, hi; split; [left; auto|auto]|exists lo', hi'; split; [right; auto|auto]].
Qed.

Lemma incl_if_app {B} (b : bool) (x y : list B) cs : incl x y -> incl (if b then cs else x ++ cs) (if b then cs else y ++ cs).
Proof. intros H. destruct b; [apply incl_refl|]. apply incl_app; [now apply incl_appl|apply incl_appr, incl_refl]. Qed.

(** a call of the upper bounding encoder; the lower bounding one sees variables being taken *)
Definition take {X} (w : world X) (next : N) : world X := mkWorld (w_in w) next (w_aux w) (w_all w) (w_ub w) (w_lb w).

Lemma drel_upper w w1 w2 a b b' cs next : (w_next w <= next)%N -> (a = true -> b = true) -> drel w w1 w2 ->
  drel (log_call w a b' cs next) (log_call w1 b false cs next) (take w2 next) \/ b' = true.
Proof.
  intros N Hab R. destruct b'; [auto|left]. destruct R as [H1 H2 H3 H4 H5 H6 H7 H8 H9 H10 H11].
  constructor; cbn [log_call take w_in w_next w_aux w_all w_ub w_lb]; auto.
  - intros v. rewrite H3, !in_aux_cons, H5. tauto.
  - intros v Hv. rewrite in_aux_cons in Hv. intros Hv2. destruct Hv as [Hv|Hv]; [|eauto]. assert (v < w_next w)%N by (apply H7, H5; auto). lia.
  - intros v Hv. apply in_aux_cons in Hv as [Hv|Hv]; [lia|]. apply H7 in Hv. lia.
  - intros x Hx. destruct (H8 x Hx) as (K1 & K2). split; [lia|]. rewrite in_aux_cons. intros [Hv|Hv]; [lia|auto].
  - destruct a; [rewrite Hab by auto; apply incl_refl|]. destruct b; [apply incl_appr, incl_refl|]. apply incl_app; [now apply incl_appl|apply incl_appr, incl_refl].
  - now apply incl_appl.
  - intros c Hc. apply in_app_or in Hc as [Hc|Hc]; [|apply in_or_app; left; apply in_or_app; auto].
    apply H11 in Hc. apply in_app_or in Hc as [Hc|Hc]; apply in_or_app; [left; apply in_or_app; auto|auto].
Qed.

Lemma drel_lower w w1 w2 a b b' cs next : (w_next w <= next)%N -> (a = true -> b = true) -> drel w w1 w2 ->
  drel (log_call w b' a cs next) (take w1 next) (log_call w2 false b cs next) \/ b' = true.
Proof.
  intros N Hab R. destruct b'; [auto|left]. destruct R as [H1 H2 H3 H4 H5 H6 H7 H8 H9 H10 H11].
  constructor; cbn [log_call take w_in w_next w_aux w_all w_ub w_lb]; auto.
  - intros v. rewrite H4, !in_aux_cons, H5. tauto.
  - intros v Hv1 Hv. rewrite in_aux_cons in Hv. destruct Hv as [Hv|Hv]; [|eauto]. assert (v < w_next w)%N by (apply H7, H5; auto). lia.
  - intros v Hv. apply in_aux_cons in Hv as [Hv|Hv]; [lia|]. apply H7 in Hv. lia.
  - intros x Hx. destruct (H8 x Hx) as (K1 & K2). split; [lia|]. rewrite in_aux_cons. intros [Hv|Hv]; [lia|auto].
  - now apply incl_appl.
  - destruct a; [rewrite Hab by auto; apply incl_refl|]. destruct b; [apply incl_appr, incl_refl|]. apply incl_app; [now apply incl_appl|apply incl_appr, incl_refl].
  - intros c Hc. apply in_app_or in Hc as [Hc|Hc]; [|apply in_or_app; right; apply in_or_app; auto].
    apply H11 in Hc. apply in_app_or in Hc as [Hc|Hc]; apply in_or_app; [auto|right; apply in_or_app; auto].
Qed.

Lemma drel_two w w1 w2 a c1 n1 c2 n2 : (w_next w <= n1)%N -> (n1 <= n2)%N ->
  drel (log_call (log_call w a false c1 n1) false false c2 n2) w1 w2 -> drel (log_call w a false (c1 ++ c2) n2) w1 w2.
Proof.
  intros N1 N2 [H1 H2 H3 H4 H5 H6 H7 H8 H9 H10 H11]. cbn [log_call w_in w_next w_aux w_all w_ub w_lb] in *.
  assert (Hx : forall v, in_aux ((w_next w, n2) :: w_aux w) v <-> in_aux ((n1, n2) :: (w_next w, n1) :: w_aux w) v).
  { intros v. rewrite !in_aux_cons. split; [|intuition lia]. intros [H|H]; [|auto]. destruct (N.lt_ge_cases v n1); [right; left; lia|left; lia]. }
  constructor; cbn [log_call w_in w_next w_aux w_all w_ub w_lb]; auto.
  - intros v. rewrite Hx. auto.
  - intros v Hv. apply Hx in Hv. auto.
  - intros x Hin. rewrite Hx. auto.
  - destruct a; [auto|]. now rewrite app_assoc.
  - now rewrite app_assoc.
  - now rewrite app_assoc.
Qed.

Definition both_reach (w w1 w2 : world A) (s : S * T) : Prop :=
  drel w w1 w2 /\ reachable U ilit iok allow1 w1 (fst s) /\ reachable L ilit iok allow2 w2 (snd s).

Lemma take_step {X Y} (E : encoder X Y) (w : world X) s next : (w_next w <= next)%N -> step E w s (HUserVars (next - w_next w)) = Some (take w next, s).
Proof. intros H. cbn [step]. unfold take. repeat f_equal. lia. Qed.

(** one method call of the upper encoder *)
Lemma upper_call w w1 w2 s op opU resets cs next u : both_reach w w1 w2 s -> valid_op ilit iok allow w op ->
  match op with HExtend _ => False | _ => True end -> opU = HReserve \/ (exists r, opU = HUb r) \/ (exists r, opU = HUbChange r) ->
  step U w1 (fst s) opU = Some (log_call w1 resets false cs next, u) ->
  (w_next w <= next)%N /\ forall a, (a = true -> resets = true) -> both_reach (log_call w a false cs next) (log_call w1 resets false cs next) (take w2 next) (u, snd s).
Proof.
  intros (R & R1 & R2) (Ha & _) Hop Ho Es.
  assert (V1 : valid_op ilit iok allow1 w1 opU).
  { split; [eapply (Hallow1 op); [|destruct op; destruct Ho as [-> |[(? & ->)|(? & ->)]]; tauto|auto]|]; destruct Ho as [-> |[(? & ->)|(? & ->)]]; exact I. }
  assert (N1 : (w_next w <= next)%N) by (rewrite <- (dr_next1 _ _ _ R); exact (HgU _ _ _ _ _ R1 V1 Es)).
  split; [auto|]. intros a Hab. split; [destruct (drel_upper w w1 w2 a resets false cs next N1 Hab R); [auto|discriminate]|]. cbn [fst snd]. split.
  - apply (reach_step _ _ _ _ w1 (fst s) opU); auto.
  - apply (reach_step _ _ _ _ w2 (snd s) (HUserVars (next - w_next w2))); [auto|split; [|exact I]|apply take_step; rewrite (dr_next2 _ _ _ R); auto].
    apply (Hallow2 op); [exact I|destruct op; tauto|auto].
Qed.

Lemma lower_call w w1 w2 s op opL resets cs next l : both_reach w w1 w2 s -> valid_op ilit iok allow w op ->
  match op with HExtend _ => False | _ => True end -> opL = HReserve \/ (exists r, opL = HLb r) \/ (exists r, opL = HLbChange r) ->
  step L w2 (snd s) opL = Some (log_call w2 false resets cs next, l) ->
  (w_next w <= next)%N /\ forall a, (a = true -> resets = true) -> both_reach (log_call w false a cs next) (take w1 next) (log_call w2 false resets cs next) (fst s, l).
Proof.
  intros (R & R1 & R2) (Ha & _) Hop Ho Es.
  assert (V2 : valid_op ilit iok allow2 w2 opL).
  { split; [eapply (Hallow2 op); [|destruct op; destruct Ho as [-> |[(? & ->)|(? & ->)]]; tauto|auto]|]; destruct Ho as [-> |[(? & ->)|(? & ->)]]; exact I. }
  assert (N1 : (w_next w <= next)%N) by (rewrite <- (dr_next2 _ _ _ R); exact (HgL _ _ _ _ _ R2 V2 Es)).
  split; [auto|]. intros a Hab. split; [destruct (drel_lower w w1 w2 a resets false cs next N1 Hab R); [auto|discriminate]|]. cbn [fst snd]. split.
  - apply (reach_step _ _ _ _ w1 (fst s) (HUserVars (next - w_next w1))); [auto|split; [|exact I]|apply take_step; rewrite (dr_next1 _ _ _ R); auto].
    apply (Hallow1 op); [exact I|destruct op; tauto|auto].
  - apply (reach_step _ _ _ _ w2 (snd s) opL); auto.
Qed.

(** adding inputs *)
Lemma extend_call w w1 w2 s xs u l : both_reach w w1 w2 s -> valid_op ilit iok allow w (HExtend xs) ->
  en_extend U (fst s) (coll xs) = Some u -> en_extend L (snd s) (coll xs) = Some l ->
  both_reach (mkWorld (w_in w ++ xs) (w_next w) (w_aux w) (w_all w) (w_ub w) (w_lb w))
    (mkWorld (w_in w1 ++ coll xs) (w_next w1) (w_aux w1) (w_all w1) (w_ub w1) (w_lb w1))
    (mkWorld (w_in w2 ++ coll xs) (w_next w2) (w_aux w2) (w_all w2) (w_ub w2) (w_lb w2)) (u, l).
Proof.
  intros (R & R1 & R2) (Ha & Hv) Eu El. pose proof (Hcoll xs Ha) as P.
  assert (Hc : forall x, In x (coll xs) -> iok x /\ (lvar (ilit x) < w_next w)%N /\ ~ in_aux (w_aux w) (lvar (ilit x))) by (intros x Hx; apply Hv; eapply Permutation_in; eauto).
  split; [|cbn [fst snd]; split].
  - destruct R as [H1 H2 H3 H4 H5 H6 H7 H8 H9 H10 H11]. constructor; cbn [w_in w_next w_aux w_all w_ub w_lb]; auto.
    + now apply Permutation_app.
    + now apply Permutation_app.
    + intros x Hx. apply in_app_or in Hx as [Hx|Hx]; [auto|]. apply Hv in Hx. tauto.
  - apply (reach_step _ _ _ _ w1 (fst s) (HExtend (coll xs))); [auto| |cbn [step]; now rewrite Eu].
    split; [apply (Hallow1 (HExtend xs)); [exact I|reflexivity|auto]|]. intros x Hx. destruct (Hc x Hx) as (K1 & K2 & K3). rewrite (dr_next1 _ _ _ R).
    split; [auto|]. split; [auto|]. intros K. apply K3, (dr_aux _ _ _ R). auto.
  - apply (reach_step _ _ _ _ w2 (snd s) (HExtend (coll xs))); [auto| |cbn [step]; now rewrite El].
    split; [apply (Hallow2 (HExtend xs)); [exact I|reflexivity|auto]|]. intros x Hx. destruct (Hc x Hx) as (K1 & K2 & K3). rewrite (dr_next2 _ _ _ R).
    split; [auto|]. split; [auto|]. intros K. apply K3, (dr_aux _ _ _ R). auto.
Qed.

(** what a call does to the two encoders *)
Definition did {X Y} (E : encoder X Y) (il : X -> lit) (io : X -> Prop) (al : hop X -> Prop) (op : hop X) (s s' : Y) : Prop :=
  exists w w', reachable E il io al w s /\ valid_op il io al w op /\ step E w s op = Some (w', s').
Let didU := did U ilit iok allow1.
Let didL := did L ilit iok allow2.

Definition dfacts (op : hop A) (s s' : S * T) : Prop :=
  match op with
  | HExtend xs => True
  | HUserVars _ => s' = s
  | HReserve => didU HReserve (fst s) (fst s') /\ didL HReserve (snd s) (snd s')
  | HUb r => didU (HUb r) (fst s) (fst s') /\ snd s' = snd s
  | HUbChange r => didU (HUbChange r) (fst s) (fst s') /\ snd s' = snd s
  | HLb r => didL (HLb r) (snd s) (snd s') /\ fst s' = fst s
  | HLbChange r => didL (HLbChange r) (snd s) (snd s') /\ fst s' = fst s
  | HBoth r => didU (HUb r) (fst s) (fst s') /\ didL (HLb r) (snd s) (snd s')
  end.

Lemma didU_ok w w1 w2 s op opU w1' u : both_reach w w1 w2 s -> valid_op ilit iok allow w op -> match op with HExtend _ => False | _ => True end ->
  opU = HReserve \/ (exists r, opU = HUb r) \/ (exists r, opU = HUbChange r) -> step U w1 (fst s) opU = Some (w1', u) -> didU opU (fst s) u.
Proof.
  intros (R & R1 & R2) (Ha & _) Hop Ho Es. exists w1, w1'. split; [auto|]. split; [|auto].
  split; [eapply (Hallow1 op); [|destruct op; destruct Ho as [-> |[(? & ->)|(? & ->)]]; tauto|auto]|]; destruct Ho as [-> |[(? & ->)|(? & ->)]]; exact I.
Qed.
Lemma didL_ok w w1 w2 s op opL w2' l : both_reach w w1 w2 s -> valid_op ilit iok allow w op -> match op with HExtend _ => False | _ => True end ->
  opL = HReserve \/ (exists r, opL = HLb r) \/ (exists r, opL = HLbChange r) -> step L w2 (snd s) opL = Some (w2', l) -> didL opL (snd s) l.
Proof.
  intros (R & R1 & R2) (Ha & _) Hop Ho Es. exists w2, w2'. split; [auto|]. split; [|auto].
  split; [eapply (Hallow2 op); [|destruct op; destruct Ho as [-> |[(? & ->)|(? & ->)]]; tauto|auto]|]; destruct Ho as [-> |[(? & ->)|(? & ->)]]; exact I.
Qed.

Lemma dbl_step w w1 w2 s op w' s' : both_reach w w1 w2 s -> valid_op ilit iok allow w op -> step D w s op = Some (w', s') ->
  (exists w1' w2', both_reach w' w1' w2' s') /\ dfacts op s s'.
Proof.
  intros B V Es. pose proof B as (R & R1 & R2). pose proof (dr_next1 _ _ _ R) as Nx1. pose proof (dr_next2 _ _ _ R) as Nx2.
  destruct op as [xs|k| |r|r|r|r|r]; cbn [step] in Es; unfold D in Es;
    cbn [double en_extend en_reserve en_ub en_ub_change en_lb en_lb_change en_both] in Es.
  - unfold dbl_extend in Es. destruct (en_extend U (fst s) (coll xs)) as [u|] eqn:Eu; [|discriminate]. cbn [obind] in Es.
    destruct (en_extend L (snd s) (coll xs)) as [l|] eqn:El; [|discriminate]. cbn [obind] in Es. injection Es as <- <-. split; [|exact I].
    eexists _, _. eapply extend_call; eauto.
  - injection Es as <- <-. split; [|reflexivity]. exists (take w1 (w_next w + k)), (take w2 (w_next w + k)). split; [|split].
    + destruct R as [H1 H2 H3 H4 H5 H6 H7 H8 H9 H10 H11]. constructor; cbn [take w_in w_next w_aux w_all w_ub w_lb]; auto.
      * intros v Hv. apply H7 in Hv. lia.
      * intros x Hx. destruct (H8 x Hx). split; [lia|auto].
    + apply (reach_step _ _ _ _ w1 (fst s) (HUserVars (w_next w + k - w_next w1))); [auto| |apply take_step; lia].
      split; [apply (Hallow1 (HUserVars k)); [exact I|exact I|apply V]|exact I].
    + apply (reach_step _ _ _ _ w2 (snd s) (HUserVars (w_next w + k - w_next w2))); [auto| |apply take_step; lia].
      split; [apply (Hallow2 (HUserVars k)); [exact I|exact I|apply V]|exact I].
  - unfold dbl_reserve in Es. destruct (en_reserve U (fst s) (w_next w)) as [[u n1]|] eqn:Eu; [|discriminate]. cbn [obind fst snd] in Es.
    destruct (en_reserve L (snd s) n1) as [[l n2]|] eqn:El; [|discriminate]. cbn [obind fst snd] in Es. injection Es as <- <-.
    assert (SU : step U w1 (fst s) HReserve = Some (log_call w1 false false [] n1, u)) by (cbn [step]; now rewrite Nx1, Eu).
    destruct (upper_call _ _ _ _ HReserve HReserve false [] n1 u B V I (or_introl eq_refl) SU) as (N1 & B1). specialize (B1 false ltac:(auto)).
    assert (SL : step L (take w2 n1) (snd s) HReserve = Some (log_call (take w2 n1) false false [] n2, l)) by (cbn [step take w_next]; now rewrite El).
    assert (V1 : valid_op ilit iok allow (log_call w false false [] n1) HReserve) by (split; [apply V|exact I]).
    destruct (lower_call _ _ _ _ HReserve HReserve false [] n2 l B1 V1 I (or_introl eq_refl) SL) as (N2 & B2). specialize (B2 false ltac:(auto)).
    cbn [log_call w_next] in N2. split.
    + destruct B2 as (R' & R1' & R2'). eexists _, _. split; [|split; [exact R1'|exact R2']]. apply (drel_two w _ _ false [] n1 [] n2) in R'; auto.
    + cbn [dfacts]. split; [eapply didU_ok; [exact B|exact V|exact I|eauto|exact SU]|]. exact (didL_ok _ _ _ (u, snd s) HReserve HReserve _ l B1 V1 I (or_introl eq_refl) SL).
  - unfold dbl_upper in Es. destruct (en_ub U (fst s) r (w_next w)) as [[[u cs] n1]|] eqn:Eu; [|discriminate]. cbn [obind encode_step] in Es. injection Es as <- <-.
    assert (SU : step U w1 (fst s) (HUb r) = Some (log_call w1 true false cs n1, u)) by (cbn [step]; now rewrite Nx1, Eu).
    destruct (upper_call _ _ _ _ (HUb r) (HUb r) true cs n1 u B V I (or_intror (or_introl (ex_intro _ r eq_refl))) SU) as (N1 & B1). split.
    + eexists _, _. apply B1. auto.
    + split; [eapply didU_ok; [exact B|exact V|exact I|eauto|exact SU]|reflexivity].
  - unfold dbl_upper in Es. destruct (en_ub_change U (fst s) r (w_next w)) as [[[u cs] n1]|] eqn:Eu; [|discriminate]. cbn [obind encode_step] in Es. injection Es as <- <-.
    assert (SU : step U w1 (fst s) (HUbChange r) = Some (log_call w1 false false cs n1, u)) by (cbn [step]; now rewrite Nx1, Eu).
    destruct (upper_call _ _ _ _ (HUbChange r) (HUbChange r) false cs n1 u B V I (or_intror (or_intror (ex_intro _ r eq_refl))) SU) as (N1 & B1). split.
    + eexists _, _. apply B1. auto.
    + split; [eapply didU_ok; [exact B|exact V|exact I|eauto|exact SU]|reflexivity].
  - unfold dbl_lower in Es. destruct (en_lb L (snd s) r (w_next w)) as [[[l cs] n1]|] eqn:El; [|discriminate]. cbn [obind encode_step] in Es. injection Es as <- <-.
    assert (SL : step L w2 (snd s) (HLb r) = Some (log_call w2 false true cs n1, l)) by (cbn [step]; now rewrite Nx2, El).
    destruct (lower_call _ _ _ _ (HLb r) (HLb r) true cs n1 l B V I (or_intror (or_introl (ex_intro _ r eq_refl))) SL) as (N1 & B1). split.
    + eexists _, _. apply B1. auto.
    + split; [eapply didL_ok; [exact B|exact V|exact I|eauto|exact SL]|reflexivity].
  - unfold dbl_lower in Es. destruct (en_lb_change L (snd s) r (w_next w)) as [[[l cs] n1]|] eqn:El; [|discriminate]. cbn [obind encode_step] in Es. injection Es as <- <-.
    assert (SL : step L w2 (snd s) (HLbChange r) = Some (log_call w2 false false cs n1, l)) by (cbn [step]; now rewrite Nx2, El).
    destruct (lower_call _ _ _ _ (HLbChange r) (HLbChange r) false cs n1 l B V I (or_intror (or_intror (ex_intro _ r eq_refl))) SL) as (N1 & B1). split.
    + eexists _, _. apply B1. auto.
    + split; [eapply didL_ok; [exact B|exact V|exact I|eauto|exact SL]|reflexivity].
  - unfold dbl_both, dbl_upper, dbl_lower in Es. destruct (en_ub U (fst s) r (w_next w)) as [[[u c1] n1]|] eqn:Eu; [|discriminate]. cbn [obind fst snd] in Es.
    destruct (en_lb L (snd s) r n1) as [[[l c2] n2]|] eqn:El; [|discriminate]. cbn [obind encode_step] in Es. injection Es as <- <-.
    assert (SU : step U w1 (fst s) (HUb r) = Some (log_call w1 true false c1 n1, u)) by (cbn [step]; now rewrite Nx1, Eu).
    destruct (upper_call _ _ _ _ (HBoth r) (HUb r) true c1 n1 u B V I (or_intror (or_introl (ex_intro _ r eq_refl))) SU) as (N1 & B1). specialize (B1 false ltac:(auto)).
    assert (SL : step L (take w2 n1) (snd s) (HLb r) = Some (log_call (take w2 n1) false true c2 n2, l)) by (cbn [step take w_next]; now rewrite El).
    assert (V1 : valid_op ilit iok allow (log_call w false false c1 n1) (HBoth r)) by (split; [apply V|exact I]).
    destruct (lower_call _ _ _ _ (HBoth r) (HLb r) true c2 n2 l B1 V1 I (or_intror (or_introl (ex_intro _ r eq_refl))) SL) as (N2 & B2). specialize (B2 false ltac:(auto)).
    cbn [log_call w_next] in N2. split.
    + destruct B2 as (R' & R1' & R2'). eexists _, _. split; [|split; [exact R1'|exact R2']]. apply (drel_two w _ _ false c1 n1 c2 n2) in R'; auto.
    + cbn [dfacts]. split; [eapply didU_ok; [exact B|exact V|exact I|eauto|exact SU]|]. exact (didL_ok _ _ _ (u, snd s) (HBoth r) (HLb r) _ l B1 V1 I (or_intror (or_introl (ex_intro _ r eq_refl))) SL).
Qed.

Lemma dbl_reach w s : reachable D ilit iok allow w s -> exists w1 w2, both_reach w w1 w2 s.
Proof.
  induction 1 as [|w s op w' s' R IH V Es].
  - exists world0, world0. split; [|split; apply reach_init].
    assert (Hn : forall v, ~ in_aux [] v) by (intros v (lo & hi & [] & _)).
    constructor; cbn [world0 w_in w_next w_aux w_all w_ub w_lb]; auto.
    + intros v. split; [auto|tauto].
    + intros v H. exfalso. now apply (Hn v).
    + intros v H. exfalso. now apply (Hn v).
    + intros x [].
    + apply incl_refl.
    + apply incl_refl.
    + apply incl_nil_l.
  - destruct IH as (w1 & w2 & B). apply (dbl_step _ _ _ _ _ _ _ B V Es).
Qed.

Lemma sat_incl a (c1 c2 : cnf) : incl c1 c2 -> sat_cnf a c2 = true -> sat_cnf a c1 = true.
Proof. unfold sat_cnf. rewrite !forallb_forall. auto. Qed.

Lemma dbl_ub_sound : ub_sound U ilit iok allow1 value -> ub_sound D ilit iok allow value.
Proof.
  intros H w s ub ls a R He Sf Sc. destruct (dbl_reach _ _ R) as (w1 & w2 & Rel & R1 & R2). rewrite <- (Hval_perm a _ _ (dr_in1 _ _ _ Rel)).
  eapply H; eauto. eapply sat_incl; [apply (dr_ub _ _ _ Rel)|auto].
Qed.
Lemma dbl_lb_sound : lb_sound L ilit iok allow2 value -> lb_sound D ilit iok allow value.
Proof.
  intros H w s lb ls a R He Sf Sc. destruct (dbl_reach _ _ R) as (w1 & w2 & Rel & R1 & R2). rewrite <- (Hval_perm a _ _ (dr_in2 _ _ _ Rel)).
  eapply H; eauto. eapply sat_incl; [apply (dr_lb _ _ _ Rel)|auto].
Qed.

Lemma forallb_ext_in {X} (f g : X -> bool) xs : (forall x, In x xs -> f x = g x) -> forallb f xs = forallb g xs.
Proof. induction xs as [|x xs IH]; intros H; [reflexivity|]. cbn [forallb]. rewrite (H x), IH; auto; [intros y Hy; apply H; now right|now left]. Qed.

Lemma sat_cnf_agree_on a a' (f : cnf) : (forall c l, In c f -> In l c -> a' (lvar l) = a (lvar l)) -> sat_cnf a' f = sat_cnf a f.
Proof.
  intros H. unfold sat_cnf. apply forallb_ext_in. intros c Hc. unfold sat_clause.
  assert (E : forall l, In l c -> lit_true a' l = lit_true a l) by (intros l Hl; unfold lit_true; now rewrite (H c l)).
  clear -E. induction c as [|x c IH]; [reflexivity|]. cbn [existsb]. rewrite E by now left. f_equal. apply IH. intros l Hl. apply E. now right.
Qed.
Lemma sat_cube_agree_on a a' ls : (forall l, In l ls -> a' (lvar l) = a (lvar l)) -> sat_cube a' ls = sat_cube a ls.
Proof.
  intros H. unfold sat_cube. apply forallb_ext_in. intros l Hl. unfold lit_true. now rewrite H.
Qed.

Lemma dbl_complete : bounds_complete U ilit iok allow1 value -> bounds_complete L ilit iok allow2 value ->
  clauses_local U ilit iok allow1 -> clauses_local L ilit iok allow2 -> assumps_local U ilit iok allow1 -> assumps_local L ilit iok allow2 ->
  bounds_complete D ilit iok allow value.
Proof.
  intros CU CL KU KL AU AL w s a R. destruct (dbl_reach _ _ R) as (w1 & w2 & Rel & R1 & R2).
  destruct (CU _ _ a R1) as (a1 & P1 & Q1 & B1 & _). destruct (CL _ _ a R2) as (a2 & P2 & Q2 & _ & B2).
  set (a' := fun v => if in_auxb (w_aux w1) v then a1 v else a2 v).
  assert (Hout : forall v, ~ in_aux (w_aux w) v -> a' v = a v).
  { intros v Hv. unfold a'. assert (~ in_aux (w_aux w1) v) by (intros H; apply Hv, (dr_aux _ _ _ Rel); auto). assert (~ in_aux (w_aux w2) v) by (intros H'; apply Hv, (dr_aux _ _ _ Rel); auto).
    destruct (in_auxb (w_aux w1) v); [now apply P1|now apply P2]. }
  assert (H1 : forall v, (exists x, In x (w_in w1) /\ lvar (ilit x) = v) \/ in_aux (w_aux w1) v -> a' v = a1 v).
  { intros v [(x & Hx & <-)|Hv].
    - eapply Permutation_in in Hx; [|apply (dr_in1 _ _ _ Rel)]. destruct (dr_lits _ _ _ Rel x Hx) as (_ & Hn). rewrite Hout by auto. symmetry. apply P1. intros H. apply Hn, (dr_aux _ _ _ Rel). auto.
    - unfold a'. now rewrite (in_auxb_in _ _ Hv). }
  assert (H2 : forall v, (exists x, In x (w_in w2) /\ lvar (ilit x) = v) \/ in_aux (w_aux w2) v -> a' v = a2 v).
  { intros v [(x & Hx & <-)|Hv].
    - eapply Permutation_in in Hx; [|apply (dr_in2 _ _ _ Rel)]. destruct (dr_lits _ _ _ Rel x Hx) as (_ & Hn). rewrite Hout by auto. symmetry. apply P2. intros H. apply Hn, (dr_aux _ _ _ Rel). auto.
    - unfold a'. destruct (in_auxb (w_aux w1) v) eqn:E1; [|reflexivity]. exfalso. apply (dr_disj _ _ _ Rel v); [|auto].
      unfold in_auxb in E1. apply existsb_exists in E1 as ([lo hi] & Hin & E1). exists lo, hi. split; [auto|lia]. }
  exists a'. split; [auto|]. split; [|split].
  - eapply sat_incl; [apply (dr_all _ _ _ Rel)|]. rewrite sat_cnf_app. apply andb_true_intro. split.
    + rewrite (sat_cnf_agree_on a1 a'); [auto|]. intros c l Hc Hl. apply H1. eapply KU; eauto.
    + rewrite (sat_cnf_agree_on a2 a'); [auto|]. intros c l Hc Hl. apply H2. eapply KL; eauto.
  - intros ub ls He Hle. rewrite <- (Hval_perm a _ _ (dr_in1 _ _ _ Rel)) in Hle. assert (K : forall l, In l ls -> a' (lvar l) = a1 (lvar l)) by (intros l Hl; apply H1; exact (AU _ _ ub ls l R1 (or_introl He) Hl)). rewrite (sat_cube_agree_on a1 a' ls K). exact (B1 ub ls He Hle).
  - intros lb ls He Hle. rewrite <- (Hval_perm a _ _ (dr_in2 _ _ _ Rel)) in Hle. assert (K : forall l, In l ls -> a' (lvar l) = a2 (lvar l)) by (intros l Hl; apply H2; exact (AL _ _ lb ls l R2 (or_intror He) Hl)). rewrite (sat_cube_agree_on a2 a' ls K). exact (B2 lb ls He Hle).
Qed.

Lemma dbl_enforce_total : enforce_total U ilit iok allow1 -> enforce_total L ilit iok allow2 -> enforce_total D ilit iok allow.
Proof.
  intros HU HL w s R. destruct (dbl_reach _ _ R) as (w1 & w2 & Rel & R1 & R2). split; [apply (HU _ _ R1)|apply (HL _ _ R2)].
Qed.
Lemma dbl_unsat_above : unsat_above U ilit iok allow1 total -> unsat_above L ilit iok allow2 total -> unsat_above D ilit iok allow total.
Proof.
  intros HU HL w s b R. destruct (dbl_reach _ _ R) as (w1 & w2 & Rel & R1 & R2). split; [|apply (HU _ _ b R1)].
  intros He. rewrite <- (Htotal_perm _ _ (dr_in2 _ _ _ Rel)). now apply (HL _ _ b R2).
Qed.
Lemma dbl_trivial : (ub_trivial U ilit iok allow1 total -> ub_trivial D ilit iok allow total) /\ (lb_trivial L ilit iok allow2 -> lb_trivial D ilit iok allow).
Proof.
  split.
  - intros H w s ub R Hle. destruct (dbl_reach _ _ R) as (w1 & w2 & Rel & R1 & R2). rewrite <- (Htotal_perm _ _ (dr_in1 _ _ _ Rel)) in Hle. exact (H _ _ _ R1 Hle).
  - intros H w s R. destruct (dbl_reach _ _ R) as (w1 & w2 & Rel & R1 & R2). exact (H _ _ R2).
Qed.

Lemma dbl_encodes_ub : (encodes_ub U ilit iok allow1 HUb -> encodes_ub D ilit iok allow HUb /\ encodes_ub D ilit iok allow HBoth) /\
  (encodes_ub U ilit iok allow1 HUbChange -> encodes_ub D ilit iok allow HUbChange).
Proof.
  split; [intros H; split|intros H]; intros w s r w' s' ub R V Es Hin; destruct (dbl_reach _ _ R) as (w1 & w2 & B); destruct (dbl_step _ _ _ _ _ _ _ B V Es) as (_ & F);
    destruct F as ((x & x' & F1 & F2 & F3) & _); exact (H _ _ _ _ _ _ F1 F2 F3 Hin).
Qed.
Lemma dbl_encodes_lb : (encodes_lb L ilit iok allow2 HLb -> encodes_lb D ilit iok allow HLb /\ encodes_lb D ilit iok allow HBoth) /\
  (encodes_lb L ilit iok allow2 HLbChange -> encodes_lb D ilit iok allow HLbChange).
Proof.
  split; [intros H; split|intros H]; intros w s r w' s' ub R V Es Hin; destruct (dbl_reach _ _ R) as (w1 & w2 & B); destruct (dbl_step _ _ _ _ _ _ _ B V Es) as (_ & F).
  - destruct F as ((x & x' & F1 & F2 & F3) & _); exact (H _ _ _ _ _ _ F1 F2 F3 Hin).
  - destruct F as (_ & (x & x' & F1 & F2 & F3)); exact (H _ _ _ _ _ _ F1 F2 F3 Hin).
  - destruct F as ((x & x' & F1 & F2 & F3) & _); exact (H _ _ _ _ _ _ F1 F2 F3 Hin).
Qed.

Lemma dbl_clauses_local : clauses_local U ilit iok allow1 -> clauses_local L ilit iok allow2 -> clauses_local D ilit iok allow.
Proof.
  intros KU KL w s c l R Hc Hl. destruct (dbl_reach _ _ R) as (w1 & w2 & Rel & R1 & R2). apply (dr_all _ _ _ Rel) in Hc. apply in_app_or in Hc as [Hc|Hc].
  - destruct (KU _ _ _ _ R1 Hc Hl) as [(x & Hx & E)|H]; [left; exists x; split; [eapply Permutation_in; [apply (dr_in1 _ _ _ Rel)|auto]|auto]|right; apply (dr_aux _ _ _ Rel); auto].
  - destruct (KL _ _ _ _ R2 Hc Hl) as [(x & Hx & E)|H]; [left; exists x; split; [eapply Permutation_in; [apply (dr_in2 _ _ _ Rel)|auto]|auto]|right; apply (dr_aux _ _ _ Rel); auto].
Qed.
Lemma dbl_assumps_local : assumps_local U ilit iok allow1 -> assumps_local L ilit iok allow2 -> assumps_local D ilit iok allow.
Proof.
  intros KU KL w s b ls l R He Hl. destruct (dbl_reach _ _ R) as (w1 & w2 & Rel & R1 & R2). destruct He as [He|He].
  - destruct (KU _ _ _ _ _ R1 (or_introl He) Hl) as [(x & Hx & E)|H]; [left; exists x; split; [eapply Permutation_in; [apply (dr_in1 _ _ _ Rel)|auto]|auto]|right; apply (dr_aux _ _ _ Rel); auto].
  - destruct (KL _ _ _ _ _ R2 (or_intror He) Hl) as [(x & Hx & E)|H]; [left; exists x; split; [eapply Permutation_in; [apply (dr_in2 _ _ _ Rel)|auto]|auto]|right; apply (dr_aux _ _ _ Rel); auto].
Qed.

Lemma dbl_no_panic :
  (forall w s op, reachable U ilit iok allow1 w s -> valid_op ilit iok allow1 w op -> step U w s op <> None) ->
  (forall w s op, reachable L ilit iok allow2 w s -> valid_op ilit iok allow2 w op -> match op with HLb r | HLbChange r => snd r <> Excl 0 | _ => True end -> step L w s op <> None) ->
  forall w s op, reachable D ilit iok allow w s -> valid_op ilit iok allow w op -> match op with HLb r | HLbChange r | HBoth r => snd r <> Excl 0 | _ => True end -> step D w s op <> None.
Proof.
  intros HU HL w s op R V Hr Es. destruct (dbl_reach _ _ R) as (w1 & w2 & B). pose proof B as (Rel & R1 & R2).
  pose proof (dr_next1 _ _ _ Rel) as Nx1. pose proof (dr_next2 _ _ _ Rel) as Nx2.
  destruct op as [xs|k| |r|r|r|r|r]; cbn [step] in Es; unfold D in Es;
    cbn [double en_extend en_reserve en_ub en_ub_change en_lb en_lb_change en_both] in Es; unfold dbl_extend, dbl_reserve, dbl_both, dbl_upper, dbl_lower in Es.
  - destruct V as (Ha & Hv). assert (Hc : forall x, In x (coll xs) -> iok x /\ (lvar (ilit x) < w_next w)%N /\ ~ in_aux (w_aux w) (lvar (ilit x))) by (intros x Hx; apply Hv; eapply Permutation_in; [apply Hcoll; auto|auto]).
    destruct (en_extend U (fst s) (coll xs)) as [u|] eqn:Eu; [cbn [obind] in Es; destruct (en_extend L (snd s) (coll xs)) as [l|] eqn:El; [discriminate|]|].
    + apply (HL w2 (snd s) (HExtend (coll xs)) R2); [|exact I|cbn [step]; now rewrite El]. split; [apply (Hallow2 (HExtend xs)); [exact I|reflexivity|auto]|].
      intros x Hx. destruct (Hc x Hx) as (K1 & K2 & K3). rewrite Nx2. split; [auto|]. split; [auto|]. intros K. apply K3, (dr_aux _ _ _ Rel). auto.
    + apply (HU w1 (fst s) (HExtend (coll xs)) R1); [|cbn [step]; now rewrite Eu]. split; [apply (Hallow1 (HExtend xs)); [exact I|reflexivity|auto]|].
      intros x Hx. destruct (Hc x Hx) as (K1 & K2 & K3). rewrite Nx1. split; [auto|]. split; [auto|]. intros K. apply K3, (dr_aux _ _ _ Rel). auto.
  - discriminate.
  - destruct (en_reserve U (fst s) (w_next w)) as [[u n1]|] eqn:Eu; cbn [obind fst snd] in Es.
    + assert (SU : step U w1 (fst s) HReserve = Some (log_call w1 false false [] n1, u)) by (cbn [step]; now rewrite Nx1, Eu).
      destruct (upper_call _ _ _ _ HReserve HReserve false [] n1 u B V I (or_introl eq_refl) SU) as (N1 & B1). specialize (B1 false ltac:(auto)). destruct B1 as (_ & _ & R2').
      destruct (en_reserve L (snd s) n1) as [[l n2]|] eqn:El; [discriminate|]. apply (HL _ _ HReserve R2'); [|exact I|cbn [step take w_next snd]; now rewrite El].
      split; [apply (Hallow2 HReserve); [exact I|exact I|apply V]|exact I].
    + apply (HU _ _ HReserve R1); [|cbn [step]; now rewrite Nx1, Eu]. split; [apply (Hallow1 HReserve); [exact I|exact I|apply V]|exact I].
  - destruct (en_ub U (fst s) r (w_next w)) as [[[u cs] n1]|] eqn:Eu; [discriminate|]. apply (HU _ _ (HUb r) R1); [|cbn [step]; now rewrite Nx1, Eu]. split; [apply (Hallow1 (HUb r)); [exact I|exact I|apply V]|exact I].
  - destruct (en_ub_change U (fst s) r (w_next w)) as [[[u cs] n1]|] eqn:Eu; [discriminate|]. apply (HU _ _ (HUbChange r) R1); [|cbn [step]; now rewrite Nx1, Eu]. split; [apply (Hallow1 (HUbChange r)); [exact I|exact I|apply V]|exact I].
  - destruct (en_lb L (snd s) r (w_next w)) as [[[u cs] n1]|] eqn:Eu; [discriminate|]. apply (HL _ _ (HLb r) R2); [|auto|cbn [step]; now rewrite Nx2, Eu]. split; [apply (Hallow2 (HLb r)); [exact I|exact I|apply V]|exact I].
  - destruct (en_lb_change L (snd s) r (w_next w)) as [[[u cs] n1]|] eqn:Eu; [discriminate|]. apply (HL _ _ (HLbChange r) R2); [|auto|cbn [step]; now rewrite Nx2, Eu]. split; [apply (Hallow2 (HLbChange r)); [exact I|exact I|apply V]|exact I].
  - destruct (en_ub U (fst s) r (w_next w)) as [[[u c1] n1]|] eqn:Eu; cbn [obind fst snd] in Es.
    + assert (SU : step U w1 (fst s) (HUb r) = Some (log_call w1 true false c1 n1, u)) by (cbn [step]; now rewrite Nx1, Eu).
      destruct (upper_call _ _ _ _ (HBoth r) (HUb r) true c1 n1 u B V I (or_intror (or_introl (ex_intro _ r eq_refl))) SU) as (N1 & B1). specialize (B1 false ltac:(auto)). destruct B1 as (_ & _ & R2').
      destruct (en_lb L (snd s) r n1) as [[[l c2] n2]|] eqn:El; [discriminate|]. apply (HL _ _ (HLb r) R2'); [|exact Hr|cbn [step take w_next snd]; now rewrite El].
      split; [apply (Hallow2 (HBoth r)); [exact I|exact I|apply V]|exact I].
    + apply (HU _ _ (HUb r) R1); [|cbn [step]; now rewrite Nx1, Eu]. split; [apply (Hallow1 (HBoth r)); [exact I|exact I|apply V]|exact I].
Qed.

Lemma dbl_vars_grow : vars_grow D ilit iok allow.
Proof.
  intros w s op w' s' R V Es. destruct (dbl_reach _ _ R) as (w1 & w2 & B). pose proof B as (Rel & R1 & R2).
  pose proof (dr_next1 _ _ _ Rel) as Nx1. pose proof (dr_next2 _ _ _ Rel) as Nx2.
  destruct op as [xs|k| |r|r|r|r|r]; cbn [step] in Es; unfold D in Es;
    cbn [double en_extend en_reserve en_ub en_ub_change en_lb en_lb_change en_both] in Es; unfold dbl_extend, dbl_reserve, dbl_both, dbl_upper, dbl_lower in Es.
  - destruct (en_extend U (fst s) (coll xs)) as [u|] eqn:Eu; [|discriminate]. cbn [obind] in Es.
    destruct (en_extend L (snd s) (coll xs)) as [l|] eqn:El; [|discriminate]. cbn [obind] in Es. injection Es as <- <-. cbn [w_next]. lia.
  - injection Es as <- <-. cbn [w_next]. lia.
  - destruct (en_reserve U (fst s) (w_next w)) as [[u n1]|] eqn:Eu; [|discriminate]. cbn [obind fst snd] in Es.
    destruct (en_reserve L (snd s) n1) as [[l n2]|] eqn:El; [|discriminate]. cbn [obind fst snd] in Es. injection Es as <- <-. cbn [log_call w_next].
    assert (SU : step U w1 (fst s) HReserve = Some (log_call w1 false false [] n1, u)) by (cbn [step]; now rewrite Nx1, Eu).
    destruct (upper_call _ _ _ _ HReserve HReserve false [] n1 u B V I (or_introl eq_refl) SU) as (N1 & B1). specialize (B1 false ltac:(auto)).
    assert (SL : step L (take w2 n1) (snd s) HReserve = Some (log_call (take w2 n1) false false [] n2, l)) by (cbn [step take w_next]; now rewrite El).
    assert (V1 : valid_op ilit iok allow (log_call w false false [] n1) HReserve) by (split; [apply V|exact I]).
    destruct (lower_call _ _ _ _ HReserve HReserve false [] n2 l B1 V1 I (or_introl eq_refl) SL) as (N2 & _). cbn [log_call w_next] in N2. lia.
  - destruct (en_ub U (fst s) r (w_next w)) as [[[u cs] n1]|] eqn:Eu; [|discriminate]. cbn [obind encode_step] in Es. injection Es as <- <-.
    assert (SU : step U w1 (fst s) (HUb r) = Some (log_call w1 true false cs n1, u)) by (cbn [step]; now rewrite Nx1, Eu).
    exact (proj1 (upper_call _ _ _ _ (HUb r) (HUb r) true cs n1 u B V I (or_intror (or_introl (ex_intro _ r eq_refl))) SU)).
  - destruct (en_ub_change U (fst s) r (w_next w)) as [[[u cs] n1]|] eqn:Eu; [|discriminate]. cbn [obind encode_step] in Es. injection Es as <- <-.
    assert (SU : step U w1 (fst s) (HUbChange r) = Some (log_call w1 false false cs n1, u)) by (cbn [step]; now rewrite Nx1, Eu).
    exact (proj1 (upper_call _ _ _ _ (HUbChange r) (HUbChange r) false cs n1 u B V I (or_intror (or_intror (ex_intro _ r eq_refl))) SU)).
  - destruct (en_lb L (snd s) r (w_next w)) as [[[l cs] n1]|] eqn:El; [|discriminate]. cbn [obind encode_step] in Es. injection Es as <- <-.
    assert (SL : step L w2 (snd s) (HLb r) = Some (log_call w2 false true cs n1, l)) by (cbn [step]; now rewrite Nx2, El).
    exact (proj1 (lower_call _ _ _ _ (HLb r) (HLb r) true cs n1 l B V I (or_intror (or_introl (ex_intro _ r eq_refl))) SL)).
  - destruct (en_lb_change L (snd s) r (w_next w)) as [[[l cs] n1]|] eqn:El; [|discriminate]. cbn [obind encode_step] in Es. injection Es as <- <-.
    assert (SL : step L w2 (snd s) (HLbChange r) = Some (log_call w2 false false cs n1, l)) by (cbn [step]; now rewrite Nx2, El).
    exact (proj1 (lower_call _ _ _ _ (HLbChange r) (HLbChange r) false cs n1 l B V I (or_intror (or_intror (ex_intro _ r eq_refl))) SL)).
  - destruct (en_ub U (fst s) r (w_next w)) as [[[u c1] n1]|] eqn:Eu; [|discriminate]. cbn [obind fst snd] in Es.
    destruct (en_lb L (snd s) r n1) as [[[l c2] n2]|] eqn:El; [|discriminate]. cbn [obind encode_step] in Es. injection Es as <- <-. cbn [log_call w_next].
    assert (SU : step U w1 (fst s) (HUb r) = Some (log_call w1 true false c1 n1, u)) by (cbn [step]; now rewrite Nx1, Eu).
    destruct (upper_call _ _ _ _ (HBoth r) (HUb r) true c1 n1 u B V I (or_intror (or_introl (ex_intro _ r eq_refl))) SU) as (N1 & B1). specialize (B1 false ltac:(auto)).
    assert (SL : step L (take w2 n1) (snd s) (HLb r) = Some (log_call (take w2 n1) false true c2 n2, l)) by (cbn [step take w_next]; now rewrite El).
    assert (V1 : valid_op ilit iok allow (log_call w false false c1 n1) (HBoth r)) by (split; [apply V|exact I]).
    destruct (lower_call _ _ _ _ (HBoth r) (HLb r) true c2 n2 l B1 V1 I (or_intror (or_introl (ex_intro _ r eq_refl))) SL) as (N2 & _). cbn [log_call w_next] in N2. lia.
Qed.

Lemma dbl_contracts : upper_contract U ilit iok allow1 value total -> lower_contract L ilit iok allow2 value total ->
  upper_contract D ilit iok allow value total /\ lower_contract D ilit iok allow value total /\
  encodes_ub D ilit iok allow HBoth /\ encodes_lb D ilit iok allow HBoth.
Proof.
  intros [U1 U2 U3 U4 U5 U6 U7 U8 U9 U10] [L1 L2 L3 L4 L5 L6 L7 L8 L9 L10].
  split; [constructor|split; [constructor|split]].
  - now apply dbl_ub_sound.
  - now apply dbl_complete.
  - now apply dbl_encodes_ub.
  - now apply dbl_encodes_ub.
  - now apply dbl_trivial.
  - now apply dbl_unsat_above.
  - now apply dbl_enforce_total.
  - now apply dbl_clauses_local.
  - now apply dbl_assumps_local.
  - apply dbl_vars_grow.
  - now apply dbl_lb_sound.
  - now apply dbl_complete.
  - now apply dbl_encodes_lb.
  - now apply dbl_encodes_lb.
  - now apply dbl_trivial.
  - now apply dbl_unsat_above.
  - now apply dbl_enforce_total.
  - now apply dbl_clauses_local.
  - now apply dbl_assumps_local.
  - apply dbl_vars_grow.
  - now apply dbl_encodes_ub.
  - now apply dbl_encodes_lb.
Qed.

Lemma dbl_persists :
  (ub_persists U ilit iok allow1 -> forall w s op w' s' b ls, reachable D ilit iok allow w s -> valid_op ilit iok allow w op -> step D w s op = Some (w', s') ->
    match op with HExtend _ | HUb _ | HBoth _ => False | _ => True end -> en_enforce_ub D s b = Some (EOk ls) -> en_enforce_ub D s' b = Some (EOk ls)) /\
  (lb_persists L ilit iok allow2 -> forall w s op w' s' b ls, reachable D ilit iok allow w s -> valid_op ilit iok allow w op -> step D w s op = Some (w', s') ->
    match op with HExtend _ | HLb _ | HBoth _ => False | _ => True end -> en_enforce_lb D s b = Some (EOk ls) -> en_enforce_lb D s' b = Some (EOk ls)).
Proof.
  split; intros H w s op w' s' b ls R V Es Hop He; destruct (dbl_reach _ _ R) as (w1 & w2 & B); destruct (dbl_step _ _ _ _ _ _ _ B V Es) as (_ & F);
    unfold D in *; cbn [double en_enforce_ub en_enforce_lb] in *; destruct op; try tauto; cbn [dfacts] in F.
  - now subst.
  - destruct F as ((x & x' & F1 & F2 & F3) & _). exact (H _ _ _ _ _ _ _ F1 F2 F3 Logic.I He).
  - destruct F as ((x & x' & F1 & F2 & F3) & _). exact (H _ _ _ _ _ _ _ F1 F2 F3 Logic.I He).
  - destruct F as (_ & ->). auto.
  - destruct F as (_ & ->). auto.
  - now subst.
  - destruct F as (_ & (x & x' & F1 & F2 & F3)). exact (H _ _ _ _ _ _ _ F1 F2 F3 Logic.I He).
  - destruct F as (_ & ->). auto.
  - destruct F as (_ & ->). auto.
  - destruct F as ((x & x' & F1 & F2 & F3) & _). exact (H _ _ _ _ _ _ _ F1 F2 F3 Logic.I He).
Qed.
End Dbl.

(** ** Card *)
Section Crd.
Context {S : Type} (E : encoder lit S) (iok : lit * nat -> Prop) (allow : hop (lit * nat) -> Prop) (allow' : hop lit -> Prop).
Definition card_op (op : hop (lit * nat)) : hop lit :=
  match op with
  | HExtend xs => HExtend (mult_lits xs) | HUserVars k => HUserVars k | HReserve => HReserve
  | HUb r => HUb r | HUbChange r => HUbChange r | HLb r => HLb r | HLbChange r => HLbChange r | HBoth r => HBoth r
  end.
Hypothesis Hallow : forall op, allow op -> allow' (card_op op).
Let C := pb_card E.

Definition card_world (w : world (lit * nat)) : world lit :=
  mkWorld (mult_lits (w_in w)) (w_next w) (w_aux w) (w_all w) (w_ub w) (w_lb w).

Lemma mult_app xs ys : mult_lits (xs ++ ys) = mult_lits xs ++ mult_lits ys.
Proof. apply flat_map_app. Qed.
Lemma mult_in xs l : In l (mult_lits xs) -> exists k, In (l, k) xs.
Proof.
  unfold mult_lits. intros H. apply in_flat_map in H as ([l' k] & Hin & H). apply repeat_spec in H. cbn in H. subst. eauto.
Qed.
Lemma mult_len xs : length (mult_lits xs) = total_weight xs.
Proof. induction xs as [|[l k] xs IH]; [reflexivity|]. cbn [mult_lits flat_map total_weight fst snd] in *. rewrite app_length, repeat_length. unfold mult_lits in IH. lia. Qed.
Lemma count_repeat a l k : count_true a (repeat l k) = if lit_true a l then k else 0%nat.
Proof. induction k as [|k IH]; cbn [repeat count_true]; [now destruct (lit_true a l)|]. rewrite IH. destruct (lit_true a l); lia. Qed.
Lemma mult_count a xs : count_true a (mult_lits xs) = wsum a xs.
Proof.
  induction xs as [|[l k] xs IH]; [reflexivity|]. cbn [mult_lits flat_map wsum fst snd] in *. rewrite count_true_app, count_repeat. unfold mult_lits in IH. rewrite IH.
  destruct (lit_true a l); lia.
Qed.

Lemma card_step w s op : step E (card_world w) s (card_op op) = match step C w s op with Some (w', s') => Some (card_world w', s') | None => None end.
Proof.
  destruct op as [xs|k| |r|r|r|r|r]; cbn [step card_op]; unfold C; cbn [pb_card en_extend en_reserve en_ub en_ub_change en_lb en_lb_change en_both].
  - destruct (en_extend E s (mult_lits xs)); [|reflexivity]. unfold card_world. cbn [w_in w_next w_aux w_all w_ub w_lb]. now rewrite mult_app.
  - reflexivity.
  - cbn [card_world w_next]. destruct (en_reserve E s (w_next w)) as [[? ?]|]; reflexivity.
  - cbn [card_world w_next]. destruct (en_ub E s r (w_next w)) as [[[? ?] ?]|]; reflexivity.
  - cbn [card_world w_next]. destruct (en_ub_change E s r (w_next w)) as [[[? ?] ?]|]; reflexivity.
  - cbn [card_world w_next]. destruct (en_lb E s r (w_next w)) as [[[? ?] ?]|]; reflexivity.
  - cbn [card_world w_next]. destruct (en_lb_change E s r (w_next w)) as [[[? ?] ?]|]; reflexivity.
  - cbn [card_world w_next]. destruct (en_both E s r (w_next w)) as [[[? ?] ?]|]; reflexivity.
Qed.

Lemma card_valid w op : valid_op fst iok allow w op -> valid_op (fun l => l) any_lit allow' (card_world w) (card_op op).
Proof.
  intros (Ha & Hv). split; [auto|]. destruct op as [xs| | | | | | |]; cbn [card_op]; auto. intros l Hl. apply mult_in in Hl as (k & Hk). apply Hv in Hk as (_ & Hk). cbn [card_world w_next w_aux fst] in *. split; [exact Logic.I|auto].
Qed.

Lemma card_reach w s : reachable C fst iok allow w s -> reachable E (fun l => l) any_lit allow' (card_world w) s.
Proof.
  induction 1 as [|w s op w' s' R IH V Es]; [exact (reach_init E (fun l => l) any_lit allow')|]. apply (reach_step _ _ _ _ (card_world w) s (card_op op)); [auto|now apply card_valid|].
  now rewrite card_step, Es.
Qed.

Lemma card_local w v : (exists x, In x (w_in (card_world w)) /\ lvar x = v) \/ in_aux (w_aux w) v -> (exists x : lit * nat, In x (w_in w) /\ lvar (fst x) = v) \/ in_aux (w_aux w) v.
Proof. intros [(x & Hx & E1)|H]; [left|auto]. apply mult_in in Hx as (k & Hk). eauto. Qed.

Lemma card_sound :
  (ub_sound E (fun l => l) any_lit allow' count_true -> ub_sound C fst iok allow wsum) /\
  (lb_sound E (fun l => l) any_lit allow' count_true -> lb_sound C fst iok allow wsum).
Proof.
  split; intros H w s b ls a R He Sf Sc; specialize (H _ _ b ls a (card_reach _ _ R) He Sf Sc); cbn [card_world w_in] in H; now rewrite mult_count in H.
Qed.
Lemma card_complete : bounds_complete E (fun l => l) any_lit allow' count_true -> bounds_complete C fst iok allow wsum.
Proof. intros H w s a R. specialize (H _ _ a (card_reach _ _ R)). cbn [card_world w_in w_aux w_all] in H. now rewrite mult_count in H. Qed.
Lemma card_encodes (mk : forall X, rng -> hop X) : (forall r, card_op (mk _ r) = mk _ r) ->
  (encodes_ub E (fun l => l) any_lit allow' (mk _) -> encodes_ub C fst iok allow (mk _)) /\
  (encodes_lb E (fun l => l) any_lit allow' (mk _) -> encodes_lb C fst iok allow (mk _)).
Proof.
  intros Hm. split; intros H w s r w' s' b R V Es Hin; specialize (H (card_world w) s r (card_world w') s' b (card_reach _ _ R)); rewrite <- Hm in H; apply H; auto; try now apply card_valid.
  - now rewrite card_step, Es.
  - now rewrite card_step, Es.
Qed.
Lemma card_trivial : (ub_trivial E (fun l => l) any_lit allow' (@length lit) -> ub_trivial C fst iok allow total_weight) /\
  (lb_trivial E (fun l => l) any_lit allow' -> lb_trivial C fst iok allow) /\
  (unsat_above E (fun l => l) any_lit allow' (@length lit) -> unsat_above C fst iok allow total_weight) /\
  (enforce_total E (fun l => l) any_lit allow' -> enforce_total C fst iok allow).
Proof.
  split; [|split; [|split]].
  - intros H w s b R Hb. apply (H _ _ b (card_reach _ _ R)). cbn [card_world w_in]. now rewrite mult_len.
  - intros H w s R. apply (H _ _ (card_reach _ _ R)).
  - intros H w s b R. specialize (H _ _ b (card_reach _ _ R)). cbn [card_world w_in] in H. now rewrite mult_len in H.
  - intros H w s R. apply (H _ _ (card_reach _ _ R)).
Qed.
Lemma card_locals : (clauses_local E (fun l => l) any_lit allow' -> clauses_local C fst iok allow) /\
  (assumps_local E (fun l => l) any_lit allow' -> assumps_local C fst iok allow) /\ (vars_grow E (fun l => l) any_lit allow' -> vars_grow C fst iok allow) /\
  (no_panic E (fun l => l) any_lit allow' -> no_panic C fst iok allow).
Proof.
  split; [|split; [|split]].
  - intros H w s c l R Hc Hl. apply card_local. exact (H _ _ c l (card_reach _ _ R) Hc Hl).
  - intros H w s b ls l R He Hl. apply card_local. exact (H _ _ b ls l (card_reach _ _ R) He Hl).
  - intros H w s op w' s' R V Es. apply (H (card_world w) s (card_op op) (card_world w') s' (card_reach _ _ R) (card_valid _ _ V)). now rewrite card_step, Es.
  - intros H w s op R V Es. apply (H _ _ _ (card_reach _ _ R) (card_valid _ _ V)). now rewrite card_step, Es.
Qed.
Lemma card_persists : (ub_persists E (fun l => l) any_lit allow' -> ub_persists C fst iok allow) /\ (lb_persists E (fun l => l) any_lit allow' -> lb_persists C fst iok allow).
Proof.
  split; intros H w s op w' s' b ls R V Es Hop He; apply (H (card_world w) s (card_op op) (card_world w') s' b ls (card_reach _ _ R) (card_valid _ _ V)); auto;
    try (now rewrite card_step, Es); destruct op; auto.
Qed.
Lemma card_upper_contract : upper_contract E (fun l => l) any_lit allow' count_true (@length lit) -> upper_contract C fst iok allow wsum total_weight.
Proof.
  intros [H1 H2 H3 H4 H5 H6 H7 H8 H9 H10]. constructor.
  - now apply card_sound.
  - now apply card_complete.
  - now apply (card_encodes (@HUb)).
  - now apply (card_encodes (@HUbChange)).
  - now apply card_trivial.
  - now apply card_trivial.
  - now apply card_trivial.
  - now apply card_locals.
  - now apply card_locals.
  - now apply card_locals.
Qed.
Lemma card_lower_contract : lower_contract E (fun l => l) any_lit allow' count_true (@length lit) -> lower_contract C fst iok allow wsum total_weight.
Proof.
  intros [H1 H2 H3 H4 H5 H6 H7 H8 H9 H10]. constructor.
  - now apply card_sound.
  - now apply card_complete.
  - now apply (card_encodes (@HLb)).
  - now apply (card_encodes (@HLbChange)).
  - now apply card_trivial.
  - now apply card_trivial.
  - now apply card_trivial.
  - now apply card_locals.
  - now apply card_locals.
  - now apply card_locals.
Qed.
End Crd.

(** ** Instances *)
Lemma map_insert_new m l w : ~ In l (map fst m) -> map_insert m l w = m ++ [(l, w)].
Proof.
  induction m as [|[k x] m IH]; cbn [map_insert map fst In]; intros H; [reflexivity|]. destruct (lit_eqb k l) eqn:E.
  - exfalso. apply H. left. now apply lit_eqb_eq.
  - cbn [app]. rewrite IH; auto.
Qed.
Lemma map_collect_nodup xs : NoDup (map fst xs) -> map_collect xs = xs.
Proof.
  unfold map_collect. intros H. change xs with ([] ++ xs) at 2. revert H. change (map fst xs) with (map fst (@nil (lit * nat)) ++ map fst xs). generalize (@nil (lit * nat)) as m.
  induction xs as [|[l w] xs IH]; intros m H; cbn [fold_left map fst] in *; [now rewrite app_nil_r|].
  rewrite map_insert_new.
  - rewrite IH; [now rewrite <- app_assoc|]. rewrite map_app. cbn [map fst]. now rewrite <- app_assoc.
  - apply NoDup_remove_2 in H. intros Hin. apply H. apply in_or_app. auto.
Qed.
Lemma map_insert_keys m l w k : In k (map fst (map_insert m l w)) <-> In k (map fst m) \/ k = l.
Proof.
  induction m as [|[k' x] m IH]; cbn [map_insert map fst In]; [intuition congruence|]. destruct (lit_eqb k' l) eqn:E; cbn [map fst In].
  - apply lit_eqb_eq in E. subst. intuition congruence.
  - rewrite IH. tauto.
Qed.
Lemma map_insert_nodup m l w : NoDup (map fst m) -> NoDup (map fst (map_insert m l w)).
Proof.
  induction m as [|[k' x] m IH]; cbn [map_insert map fst]; intros H; [repeat constructor; auto|]. apply NoDup_cons_iff in H as (H1 & H2). destruct (lit_eqb k' l) eqn:E; cbn [map fst].
  - now constructor.
  - constructor; [|auto]. rewrite map_insert_keys. intros [K|K]; [auto|]. subst. rewrite (proj2 (lit_eqb_eq l l) eq_refl) in E. discriminate.
Qed.
Lemma map_collect_keys xs : NoDup (map fst (map_collect xs)).
Proof.
  unfold map_collect. assert (H : NoDup (map fst (@nil (lit * nat)))) by constructor. revert H. generalize (@nil (lit * nat)) as m.
  induction xs as [|[l w] xs IH]; intros m H; cbn [fold_left]; auto using map_insert_nodup.
Qed.
Lemma negw_keys xs : NoDup (map fst xs) -> NoDup (map fst (map negw xs)).
Proof.
  rewrite map_map. intros H. apply (FinFun.Injective_map_NoDup (f := neg)) in H; [|intros x y; apply neg_inj]. rewrite map_map in H. exact H.
Qed.

Lemma count_inv a xs : (count_true a xs + count_true a (map neg xs) = length xs)%nat.
Proof. rewrite count_true_map_neg. pose proof (count_true_le a xs). lia. Qed.
Lemma wsum_inv a xs : (wsum a xs + wsum a (map negw xs) = total_weight xs)%nat.
Proof. unfold negw. rewrite wsum_map_neg. pose proof (wsum_le a xs). lia. Qed.
Lemma weights_total xs : weights xs = total_weight xs.
Proof. unfold weights. rewrite sum_weights_acc. lia. Qed.
Lemma total_negw xs : total_weight (map negw xs) = total_weight xs.
Proof. induction xs as [|[l w] xs IH]; [reflexivity|]. cbn [map negw fst snd total_weight]. now rewrite IH. Qed.

Section card_inverted.
Context {S : Type} (E : encoder lit S) (allow allow' : hop lit -> Prop).
Hypothesis Hallow : forall op op', same_method (swap_op op) op' -> allow op -> allow' op'.
Lemma card_inverted_lower : upper_contract E (fun l => l) any_lit allow' count_true (@length lit) -> lower_contract (card_inverted E) (fun l => l) any_lit allow count_true (@length lit).
Proof. exact (inv_lower_contract E (map neg) (@length lit) true (fun l => l) any_lit allow allow' neg count_true (@length lit) (fun _ => eq_refl) (fun _ H => H) (fun _ _ => Permutation_refl _) Hallow (fun _ => eq_refl) (fun xs ys P => Permutation_length P) (@app_length lit) (map_length neg) eq_refl count_true_perm count_inv). Qed.
Lemma card_inverted_upper : lower_contract E (fun l => l) any_lit allow' count_true (@length lit) -> upper_contract (card_inverted E) (fun l => l) any_lit allow count_true (@length lit).
Proof. exact (inv_upper_contract E (map neg) (@length lit) true (fun l => l) any_lit allow allow' neg count_true (@length lit) (fun _ => eq_refl) (fun _ H => H) (fun _ _ => Permutation_refl _) Hallow (fun _ => eq_refl) (fun xs ys P => Permutation_length P) (@app_length lit) (map_length neg) eq_refl count_true_perm count_inv). Qed.
Lemma card_inverted_both : upper_contract E (fun l => l) any_lit allow' count_true (@length lit) ->
  encodes_lb E (fun l => l) any_lit allow' HBoth -> encodes_ub E (fun l => l) any_lit allow' HBoth ->
  encodes_lb (card_inverted E) (fun l => l) any_lit allow HBoth /\
  (forall w s r w' s' ub, reachable (card_inverted E) (fun l => l) any_lit allow w s -> valid_op (fun l => l) any_lit allow w (HBoth r) -> step ((card_inverted E)) w s (HBoth r) = Some (w', s') ->
     in_rng ub r -> fst r <> Unb \/ (1 <= ub)%nat -> exists ls, en_enforce_ub ((card_inverted E)) s' ub = Some (EOk ls)).
Proof. intros H. exact (inv_encodes_both E (map neg) (@length lit) true (fun l => l) any_lit allow allow' neg (@length lit) (fun _ => eq_refl) (fun _ H => H) (fun _ _ => Permutation_refl _) Hallow (fun _ => eq_refl) (fun xs ys P => Permutation_length P) (@app_length lit) (map_length neg) eq_refl (uc_unsat _ _ _ _ _ _ H) (uc_trivial _ _ _ _ _ _ H)). Qed.
Lemma card_inverted_no_panic : no_panic E (fun l => l) any_lit allow' ->
  forall w s op, reachable (card_inverted E) (fun l => l) any_lit allow w s -> valid_op (fun l => l) any_lit allow w op -> range_ok (@length lit) w op -> step ((card_inverted E)) w s op <> None.
Proof. exact (inv_no_panic E (map neg) (@length lit) true (fun l => l) any_lit allow allow' neg (@length lit) (fun _ => eq_refl) (fun _ H => H) (fun _ _ => Permutation_refl _) Hallow (fun _ => eq_refl) (fun xs ys P => Permutation_length P) (@app_length lit) (map_length neg) eq_refl). Qed.
Lemma card_inverted_persists :
  (ub_persists E (fun l => l) any_lit allow' -> lb_persists (card_inverted E) (fun l => l) any_lit allow) /\
  (lb_persists E (fun l => l) any_lit allow' -> ub_persists (card_inverted E) (fun l => l) any_lit allow).
Proof. split; [exact (inv_lb_persists E (map neg) (@length lit) true (fun l => l) any_lit allow allow' neg (@length lit) (fun _ => eq_refl) (fun _ H => H) (fun _ _ => Permutation_refl _) Hallow (fun _ => eq_refl) (fun xs ys P => Permutation_length P) (@app_length lit) (map_length neg) eq_refl)|exact (inv_ub_persists E (map neg) (@length lit) true (fun l => l) any_lit allow allow' neg (@length lit) (fun _ => eq_refl) (fun _ H => H) (fun _ _ => Permutation_refl _) Hallow (fun _ => eq_refl) (fun xs ys P => Permutation_length P) (@app_length lit) (map_length neg) eq_refl)]. Qed.
End card_inverted.

Section pb_inverted.
Context {S : Type} (ord : wmap -> wmap) (E : encoder (lit * nat) S) (iok : lit * nat -> Prop) (allow allow' : hop (lit * nat) -> Prop).
Hypothesis Hord : iter_order ord.
Hypothesis Hiok : forall x, iok x -> iok (negw x).
Hypothesis Hallow : forall op op', same_method (swap_op op) op' -> allow op -> allow' op'.
Hypothesis Hdist : forall op, allow op -> distinct_inputs op.

Lemma pb_coll xs : allow (HExtend xs) -> Permutation (ord (map_collect (map negw xs))) (map negw xs).
Proof. intros H. apply Hdist in H. rewrite (Hord _), map_collect_nodup; [reflexivity|now apply negw_keys]. Qed.

Lemma pb_inverted_lower : upper_contract E fst iok allow' wsum total_weight -> lower_contract (pb_inverted ord E) fst iok allow wsum total_weight.
Proof. exact (inv_lower_contract E (fun xs => ord (map_collect (map negw xs))) weights false fst iok allow allow' negw wsum total_weight (fun _ => eq_refl) Hiok pb_coll Hallow weights_total total_weight_perm total_weight_app total_negw eq_refl wsum_perm wsum_inv). Qed.
Lemma pb_inverted_upper : lower_contract E fst iok allow' wsum total_weight -> upper_contract (pb_inverted ord E) fst iok allow wsum total_weight.
Proof. exact (inv_upper_contract E (fun xs => ord (map_collect (map negw xs))) weights false fst iok allow allow' negw wsum total_weight (fun _ => eq_refl) Hiok pb_coll Hallow weights_total total_weight_perm total_weight_app total_negw eq_refl wsum_perm wsum_inv). Qed.
Lemma pb_inverted_both : upper_contract E fst iok allow' wsum total_weight ->
  encodes_lb E fst iok allow' HBoth -> encodes_ub E fst iok allow' HBoth ->
  encodes_lb (pb_inverted ord E) fst iok allow HBoth /\
  (forall w s r w' s' ub, reachable (pb_inverted ord E) fst iok allow w s -> valid_op fst iok allow w (HBoth r) -> step ((pb_inverted ord E)) w s (HBoth r) = Some (w', s') ->
     in_rng ub r -> fst r <> Unb \/ (1 <= ub)%nat -> exists ls, en_enforce_ub ((pb_inverted ord E)) s' ub = Some (EOk ls)).
Proof. intros H. exact (inv_encodes_both E (fun xs => ord (map_collect (map negw xs))) weights false fst iok allow allow' negw total_weight (fun _ => eq_refl) Hiok pb_coll Hallow weights_total total_weight_perm total_weight_app total_negw eq_refl (uc_unsat _ _ _ _ _ _ H) (uc_trivial _ _ _ _ _ _ H)). Qed.
Lemma pb_inverted_no_panic : no_panic E fst iok allow' ->
  forall w s op, reachable (pb_inverted ord E) fst iok allow w s -> valid_op fst iok allow w op -> range_ok total_weight w op -> step ((pb_inverted ord E)) w s op <> None.
Proof. exact (inv_no_panic E (fun xs => ord (map_collect (map negw xs))) weights false fst iok allow allow' negw total_weight (fun _ => eq_refl) Hiok pb_coll Hallow weights_total total_weight_perm total_weight_app total_negw eq_refl). Qed.
Lemma pb_inverted_persists :
  (ub_persists E fst iok allow' -> lb_persists (pb_inverted ord E) fst iok allow) /\
  (lb_persists E fst iok allow' -> ub_persists (pb_inverted ord E) fst iok allow).
Proof. split; [exact (inv_lb_persists E (fun xs => ord (map_collect (map negw xs))) weights false fst iok allow allow' negw total_weight (fun _ => eq_refl) Hiok pb_coll Hallow weights_total total_weight_perm total_weight_app total_negw eq_refl)|exact (inv_ub_persists E (fun xs => ord (map_collect (map negw xs))) weights false fst iok allow allow' negw total_weight (fun _ => eq_refl) Hiok pb_coll Hallow weights_total total_weight_perm total_weight_app total_negw eq_refl)]. Qed.
End pb_inverted.

Section card_double.
Context {S T : Type} (U : encoder lit S) (L : encoder lit T).
Let id_lit := fun l : lit => l.
Hypothesis HU : upper_contract U id_lit any_lit ub_only count_true (@length lit).
Hypothesis HL : lower_contract L id_lit any_lit lb_only count_true (@length lit).
Let D := card_double U L.

Lemma card_double_contracts : upper_contract D id_lit any_lit any_op count_true (@length lit) /\ lower_contract D id_lit any_lit any_op count_true (@length lit) /\
  encodes_ub D id_lit any_lit any_op HBoth /\ encodes_lb D id_lit any_lit any_op HBoth.
Proof.
  eapply dbl_contracts with (allow1 := ub_only) (allow2 := lb_only); auto; try (intros; reflexivity); try (intros; now apply Permutation_length); try (intros; now apply count_true_perm).
  - apply HU.
  - apply HL.
Qed.

Lemma card_double_no_panic :
  no_panic U id_lit any_lit ub_only ->
  (forall w s op, reachable L id_lit any_lit lb_only w s -> valid_op id_lit any_lit lb_only w op -> range_ok (@length lit) w op -> step L w s op <> None) ->
  forall w s op, reachable D id_lit any_lit any_op w s -> valid_op id_lit any_lit any_op w op ->
    match op with HLb r | HLbChange r | HBoth r => snd r <> Excl 0 | _ => True end -> step D w s op <> None.
Proof.
  intros NU NL. eapply dbl_no_panic with (allow1 := ub_only) (allow2 := lb_only); auto; try (intros; reflexivity); try (intros; now apply count_true_perm).
  - apply HU.
  - apply HL.
  - intros w s op R V Hr. apply NL; auto. destruct op; cbn [range_ok]; auto; destruct V as ([] & _).
Qed.

Lemma card_double_persists :
  (ub_persists U id_lit any_lit ub_only -> forall w s op w' s' b ls, reachable D id_lit any_lit any_op w s -> valid_op id_lit any_lit any_op w op -> step D w s op = Some (w', s') ->
    match op with HExtend _ | HUb _ | HBoth _ => False | _ => True end -> en_enforce_ub D s b = Some (EOk ls) -> en_enforce_ub D s' b = Some (EOk ls)) /\
  (lb_persists L id_lit any_lit lb_only -> forall w s op w' s' b ls, reachable D id_lit any_lit any_op w s -> valid_op id_lit any_lit any_op w op -> step D w s op = Some (w', s') ->
    match op with HExtend _ | HLb _ | HBoth _ => False | _ => True end -> en_enforce_lb D s b = Some (EOk ls) -> en_enforce_lb D s' b = Some (EOk ls)).
Proof.
  eapply dbl_persists with (allow1 := ub_only) (allow2 := lb_only); auto; try (intros; reflexivity); try (intros; now apply count_true_perm).
  - apply HU.
  - apply HL.
Qed.
End card_double.

Section pb_double.
Context {S T : Type} (ord : wmap -> wmap) (U : encoder (lit * nat) S) (L : encoder (lit * nat) T) (iok : lit * nat -> Prop).
Hypothesis Hord : iter_order ord.
Hypothesis HU : upper_contract U fst iok (both_allow ub_only distinct_inputs) wsum total_weight.
Hypothesis HL : lower_contract L fst iok (both_allow lb_only distinct_inputs) wsum total_weight.
Let D := pb_double ord U L.

Lemma coll_nodup xs : NoDup (map fst (ord (map_collect xs))).
Proof. eapply Permutation_NoDup; [apply Permutation_map, Permutation_sym, Hord|apply map_collect_keys]. Qed.

Ltac dbl_side :=
  auto; try (intros; reflexivity); try (intros; now apply wsum_perm); try (intros; now apply total_weight_perm);
  try (intros xs H; rewrite (Hord _), map_collect_nodup by exact H; reflexivity);
  try (intros op op' H1 H2 H3; split; [exact H1|]; destruct op'; try exact I; destruct op; try tauto; subst; apply coll_nodup);
  try apply HU; try apply HL.

Lemma pb_double_contracts : upper_contract D fst iok distinct_inputs wsum total_weight /\ lower_contract D fst iok distinct_inputs wsum total_weight /\
  encodes_ub D fst iok distinct_inputs HBoth /\ encodes_lb D fst iok distinct_inputs HBoth.
Proof.
  eapply dbl_contracts with (allow1 := both_allow ub_only distinct_inputs) (allow2 := both_allow lb_only distinct_inputs); dbl_side.
Qed.

Lemma pb_double_no_panic :
  no_panic U fst iok (both_allow ub_only distinct_inputs) ->
  (forall w s op, reachable L fst iok (both_allow lb_only distinct_inputs) w s -> valid_op fst iok (both_allow lb_only distinct_inputs) w op ->
     range_ok total_weight w op -> step L w s op <> None) ->
  forall w s op, reachable D fst iok distinct_inputs w s -> valid_op fst iok distinct_inputs w op ->
    match op with HLb r | HLbChange r | HBoth r => snd r <> Excl 0 | _ => True end -> step D w s op <> None.
Proof.
  intros NU NL. eapply dbl_no_panic with (allow1 := both_allow ub_only distinct_inputs) (allow2 := both_allow lb_only distinct_inputs); dbl_side.
  intros w s op R V Hr. apply NL; auto. destruct op; cbn [range_ok]; auto; destruct V as (([] & _) & _).
Qed.
End pb_double.
