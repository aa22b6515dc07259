(** * The C interface to the binary adder *)

From Coq Require Import List Bool NArith ZArith Lia ZifyBool ZifyN ZifyNat.
From Verif Require Import Spec BoundSpec BoundExec Types NodeDb Maps Gte Base SimInst Adder AdderHist CapiSpec Capi CapiProofs CapiInst.
Import ListNotations.

Lemma all_hallow : (forall x : lit * nat, any_op (HExtend [x])) /\ (forall k, any_op (@HUserVars (lit * nat) k)) /\ any_op (@HReserve (lit * nat)) /\
  (forall r, any_op (@HUbChange (lit * nat) r)) /\ (true = true -> forall r, any_op (@HLbChange (lit * nat) r)).
Proof. repeat split. Qed.

Section AdderC.
Context (ord : wmap -> wmap) (Ho : iter_order ord).
Notation E := (adder_enc ord).
Definition add_f := capi E pair false.
Definition add_h lower := chist add_f (en_init E) lower (fun w => (1 <= w)%nat).
Let grow allow : vars_grow E fst pos_weight allow := proj2 (proj2 (adder_local ord Ho allow)).

Lemma up_rel w s : add_h false w s -> exists W, rel E fst pos_weight ub_only pair (fun w => (1 <= w)%nat) w s W.
Proof. exact (hist_rel E fst pos_weight ub_only pair false false _ gte_hmk gte_hok gte_hallow (grow _) w s). Qed.
Lemma all_rel w s : add_h true w s -> exists W, rel E fst pos_weight any_op pair (fun w => (1 <= w)%nat) w s W.
Proof. exact (hist_rel E fst pos_weight any_op pair false true _ gte_hmk gte_hok all_hallow (grow _) w s). Qed.

(** assumptions for bounds can be passed on as integers *)
Lemma add_hone : false = true -> forall W (s : adder) b ls, reachable E fst pos_weight ub_only W s ->
  (en_enforce_ub E s b = Some (EOk ls) -> (b < total_weight (w_in W))%nat -> exists l, ls = [l]) /\
  (en_enforce_lb E s b = Some (EOk ls) -> (1 <= b)%nat -> exists l, ls = [l]).
Proof. discriminate. Qed.
Lemma assumps_ints w s W b ls : rel E fst pos_weight ub_only pair (fun w => (1 <= w)%nat) w s W -> add_enforce_ub s b = Some (EOk ls) ->
  (s_used w <= 2147483647)%N -> exists xs, lits_ints ls = Some xs.
Proof.
  intros R El Hn. pose proof (rl_reach _ _ _ _ _ _ _ _ _ R) as HR. apply lits_ints_some. intros l Hl.
  pose proof (rl_used _ _ _ _ _ _ _ _ _ R) as Hu. destruct (proj1 (proj2 (adder_local ord Ho ub_only)) W s b ls l HR (or_introl El) Hl) as [(x & Hx & Hv)|Hv].
  - pose proof (in_below E fst pos_weight ub_only total_weight pair false false _ gte_hmk gte_hok add_hone W s w R x Hx). lia.
  - pose proof (aux_below E fst pos_weight ub_only total_weight false false gte_hallow (grow _) add_hone W s HR _ Hv). lia.
Qed.

Lemma adder_capi_upper w s lo hi s' n r : add_h false w s -> (lo <= hi)%nat -> add_f s (s_used w) (FEncodeUb lo hi) = Some (s', n, r) -> (n <= 2147483647)%N ->
  let w' := see w (FEncodeUb lo hi) n r in
  r_code r = Fine /\ forall b, (lo <= b <= hi)%nat -> exists r', add_f s' n (FEnforceUb b) = Some (s', n, r') /\ r_code r' = Fine /\
    (forall a, ints_hold a (s_ints w') -> forallb (int_holds a) (r_assumps r') = true -> (int_sum a (s_in w') <= b)%nat) /\
    (forall a, (int_sum a (s_in w') <= b)%nat -> exists a', (forall v, ~ in_aux (s_own w') v -> a' v = a v) /\ ints_hold a' (s_ints w') /\ forallb (int_holds a') (r_assumps r') = true).
Proof.
  intros H L Ef Hn w'. assert (H' : add_h false w' s') by (eapply ch_call; [exact H|exact L|exact Ef]).
  destruct (up_rel w s H) as [W R]. destruct (up_rel w' s' H') as [W' R']. pose proof (rl_reach _ _ _ _ _ _ _ _ _ R) as HR. pose proof (rl_reach _ _ _ _ _ _ _ _ _ R') as HR'.
  cbn [add_f capi] in Ef. unfold add_f, capi, capi_encode in Ef. rewrite (proj2 (Nat.leb_le lo hi) L) in Ef.
  destruct (en_ub_change E s (Incl lo, Incl hi) (s_used w)) as [[[s1 cs] n1]|] eqn:Ee; [|discriminate Ef].
  destruct (cnf_ints cs) as [xs|] eqn:Ex; cbn [obind] in Ef; [|discriminate Ef]. injection Ef as E1 E2 E3. subst s1 n1 r. split; [reflexivity|]. intros b Hb.
  assert (Es : step E W s (HUbChange (Incl lo, Incl hi)) = Some (log_call W false false cs n, s')) by (cbn [step]; now rewrite (rl_used _ _ _ _ _ _ _ _ _ R), Ee).
  assert (V : valid_op fst pos_weight ub_only W (HUbChange (Incl lo, Incl hi))) by (split; exact I).
  destruct (adder_encodes_ub ord Ho ub_only HUbChange ltac:(tauto) W s (Incl lo, Incl hi) _ s' b HR V Es Hb) as (ls & El).
  destruct (assumps_ints w' s' W' b ls R' El Hn) as (ys & Ey).
  exists (mkReply Fine [] ys). split; [unfold add_f, capi, capi_enforce; rewrite El; cbn [obind]; now rewrite Ey|]. split; [reflexivity|]. cbn [r_assumps].
  assert (Hin : s_in w' = s_in w) by reflexivity.
  assert (Ev : forall a, wsum a (w_in W') = int_sum a (s_in w')) by (intros a; rewrite (rl_in _ _ _ _ _ _ _ _ _ R'); apply gte_hval, (rl_ok _ _ _ _ _ _ _ _ _ R')). split.
  - intros a Ha Hs. destruct (Nat.le_gt_cases (total_weight (w_in W)) b) as [T|T].
    + assert (EW : w_in W' = w_in W) by (rewrite (rl_in _ _ _ _ _ _ _ _ _ R'), (rl_in _ _ _ _ _ _ _ _ _ R), Hin; reflexivity). rewrite <- Ev, EW. pose proof (wsum_le_total a (w_in W)). lia.
    + assert (Hset : ad_buf s' = []) by (apply (adder_settled ord Ho ub_only W s (HUbChange (Incl lo, Incl hi)) _ s' HR V Es); exists b; split; [exact Hb|exact T]).
      rewrite <- Ev. apply (adder_ub_sound ord Ho W' s' b ls a HR' Hset El); [now apply (ints_sat a _ _ (rl_ints _ _ _ _ _ _ _ _ _ R'))|now rewrite <- (ints_cube a ls _ Ey)].
  - intros a Ha. destruct (adder_complete ord Ho _ _ _ a HR') as (a' & C1 & C2 & C3 & _). exists a'. split; [intros v Hv; apply C1; now rewrite <- (rl_own _ _ _ _ _ _ _ _ _ R')|].
    split; [now apply (ints_sat a' _ _ (rl_ints _ _ _ _ _ _ _ _ _ R'))|]. rewrite (ints_cube a' ls _ Ey). apply (C3 b ls El). now rewrite Ev.
Qed.

Lemma adder_capi_bounds w s : add_h true w s ->
  (exists cls, int_clauses [] (s_ints w) = Some cls) /\
  (forall b s' n r a, add_f s (s_used w) (FEnforceLb b) = Some (s', n, r) -> r_code r = Fine ->
    ints_hold a (s_ints w) -> forallb (int_holds a) (r_assumps r) = true -> (b <= int_sum a (s_in w))%nat) /\
  (forall a, exists a', (forall v, ~ in_aux (s_own w) v -> a' v = a v) /\ ints_hold a' (s_ints w) /\
    (forall b s' n r, add_f s (s_used w) (FEnforceUb b) = Some (s', n, r) -> r_code r = Fine -> (int_sum a (s_in w) <= b)%nat -> forallb (int_holds a') (r_assumps r) = true)).
Proof.
  intros H. destruct (all_rel w s H) as [W R]. pose proof (rl_reach _ _ _ _ _ _ _ _ _ R) as HR.
  assert (Ev : forall a, wsum a (w_in W) = int_sum a (s_in w)) by (intros a; rewrite (rl_in _ _ _ _ _ _ _ _ _ R); apply gte_hval, (rl_ok _ _ _ _ _ _ _ _ _ R)). split; [|split].
  - destruct (read_ints (fun _ => true) _ _ (rl_ints _ _ _ _ _ _ _ _ _ R)) as [cls [Ec _]]. eauto.
  - intros b s' n r a Ef Hr Ha Hs. unfold add_f, capi in Ef. apply enforce_fine in Ef as (_ & _ & _ & Hf & _). destruct (Hf Hr) as (ls & El & Ey). rewrite <- Ev.
    apply (adder_lb_sound ord Ho any_op W s b ls a HR El); [now apply (ints_sat a _ _ (rl_ints _ _ _ _ _ _ _ _ _ R))|now rewrite <- (ints_cube a ls _ Ey)].
  - intros a. destruct (adder_complete ord Ho _ _ _ a HR) as (a' & C1 & C2 & C3 & _). exists a'. split; [intros v Hv; apply C1; now rewrite <- (rl_own _ _ _ _ _ _ _ _ _ R)|].
    split; [now apply (ints_sat a' _ _ (rl_ints _ _ _ _ _ _ _ _ _ R))|]. intros b s' n r Ef Hr Hb. unfold add_f, capi in Ef. apply enforce_fine in Ef as (_ & _ & _ & Hf & _).
    destruct (Hf Hr) as (ls & El & Ey). rewrite (ints_cube a' ls _ Ey). apply (C3 b ls El). now rewrite Ev.
Qed.

Lemma adder_capi_lower w s lo hi s' n r : add_h true w s -> (lo <= hi)%nat -> add_f s (s_used w) (FEncodeLb lo hi) = Some (s', n, r) ->
  let w' := see w (FEncodeLb lo hi) n r in
  r_code r = Fine /\ forall a, exists a', (forall v, ~ in_aux (s_own w') v -> a' v = a v) /\ ints_hold a' (s_ints w') /\
    forall b s'' n' r', (lo <= b <= hi)%nat -> add_f s' n (FEnforceLb b) = Some (s'', n', r') -> r_code r' = Fine -> (b <= int_sum a (s_in w'))%nat -> forallb (int_holds a') (r_assumps r') = true.
Proof.
  intros H L Ef w'. assert (H' : add_h true w' s') by (eapply ch_call; [exact H|split; [reflexivity|exact L]|exact Ef]).
  destruct (all_rel w s H) as [W R]. destruct (all_rel w' s' H') as [W' R']. pose proof (rl_reach _ _ _ _ _ _ _ _ _ R) as HR. pose proof (rl_reach _ _ _ _ _ _ _ _ _ R') as HR'.
  unfold add_f, capi, capi_encode in Ef. rewrite (proj2 (Nat.leb_le lo hi) L) in Ef.
  destruct (en_lb_change E s (Incl lo, Incl hi) (s_used w)) as [[[s1 cs] n1]|] eqn:Ee; [|discriminate Ef].
  destruct (cnf_ints cs) as [xs|] eqn:Ex; cbn [obind] in Ef; [|discriminate Ef]. injection Ef as E1 E2 E3. subst s1 n1 r. split; [reflexivity|]. intros a.
  assert (Es : step E W s (HLbChange (Incl lo, Incl hi)) = Some (log_call W false false cs n, s')) by (cbn [step]; now rewrite (rl_used _ _ _ _ _ _ _ _ _ R), Ee).
  assert (V : valid_op fst pos_weight any_op W (HLbChange (Incl lo, Incl hi))) by (split; exact I).
  assert (Ev : forall a, wsum a (w_in W') = int_sum a (s_in w')) by (intros a0; rewrite (rl_in _ _ _ _ _ _ _ _ _ R'); apply gte_hval, (rl_ok _ _ _ _ _ _ _ _ _ R')).
  destruct (adder_complete ord Ho _ _ _ a HR') as (a' & C1 & C2 & _ & C4). exists a'. split; [intros v Hv; apply C1; now rewrite <- (rl_own _ _ _ _ _ _ _ _ _ R')|].
  split; [now apply (ints_sat a' _ _ (rl_ints _ _ _ _ _ _ _ _ _ R'))|]. intros b s'' n' r' Hb Eg Hr Hle. unfold add_f, capi in Eg. apply enforce_fine in Eg as (_ & _ & _ & Hf & _).
  destruct (Hf Hr) as (ls & El & Ey). rewrite (ints_cube a' ls _ Ey). rewrite <- Ev in Hle. destruct (Nat.eq_dec b 0) as [->|B0].
  - destruct (proj1 (proj2 (adder_trivial ord Ho any_op)) W' s' HR') as (ls0 & E0). cbn [adder_enc en_enforce_lb] in E0, El. unfold add_enforce_lb in El. 
    destruct (add_weight_sum s' <? 0)%nat eqn:X; [apply Nat.ltb_lt in X; lia|]. cbn in El. injection El as <-. reflexivity.
  - apply (C4 b ls); [|exact El|exact Hle]. apply (adder_settled ord Ho any_op W s (HLbChange (Incl lo, Incl hi)) _ s' HR V Es). exists b. split; [exact Hb|].
    assert (EW : w_in W' = w_in W) by (rewrite (rl_in _ _ _ _ _ _ _ _ _ R'), (rl_in _ _ _ _ _ _ _ _ _ R); reflexivity). rewrite EW in Hle. pose proof (wsum_le_total a (w_in W)). lia.
Qed.
End AdderC.
