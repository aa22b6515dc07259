(** * Proofs about the binary adder used from Python *)

From Coq Require Import List Bool NArith Arith Lia ZifyBool ZifyNat ZifyN.
From Verif Require Import Spec BoundSpec Types Constraints Maps NodeDb Gte Adder AdderHist SimProofs SimInst ConstrEncProofs Base PySpec PyEnc PyEncProofs PyPb PyAdder.
Import ListNotations.

Section B.
Context (ord : wmap -> wmap) (Hord : iter_order ord) (low : bool).
Let E := adder_enc ord.
Definition ballow : hop (lit * nat) -> Prop := if low then any_op else ub_only.
Let breach := reachable E fst pos_weight ballow.

Definition bworld (w : world (lit * nat)) (ins : list (lit * nat)) (n : N) (own : list (N * N)) (F : cnf) : Prop :=
  w_in w = ins /\ w_next w = n /\ w_all w = F /\ forall v, in_aux own v <-> in_aux (w_aux w) v.

Lemma allow_up (op : hop (lit * nat)) : ub_only op -> ballow op.
Proof. unfold ballow. destruct low; [intros _; exact I|auto]. Qed.
Lemma allow_low (op : hop (lit * nat)) : low = true -> ballow op.
Proof. unfold ballow. intros ->. exact I. Qed.

Lemma b_ub w t ins n own F lo hi t' cs n' : breach w t -> bworld w ins n own F -> pyadd_encode_ub ord t lo hi n = Some (t', cs, n') ->
  exists w', step E w t (HUbChange (Incl lo, Incl hi)) = Some (w', t') /\ breach w' t' /\ bworld w' ins n' ((n, n') :: own) (F ++ cs).
Proof.
  intros R (Wi & Wn & Wa & Wx) Ee. exists (log_call w false false cs n').
  assert (S : step E w t (HUbChange (Incl lo, Incl hi)) = Some (log_call w false false cs n', t')).
  { unfold E. cbn [step adder_enc en_ub_change]. unfold pyadd_encode_ub in Ee. rewrite Wn, Ee. reflexivity. }
  split; [exact S|]. split; [apply (reach_step _ _ _ _ w t (HUbChange (Incl lo, Incl hi)) _ _ R); [split; [apply allow_up; exact I|exact I]|exact S]|].
  unfold log_call, bworld. cbn [w_in w_next w_aux w_all]. repeat split; try congruence.
  - intros H. apply in_aux_cons in H. apply in_aux_cons. rewrite Wn, <- Wx. exact H.
  - intros H. apply in_aux_cons in H. apply in_aux_cons. rewrite Wn, <- Wx in H. exact H.
Qed.
Lemma b_lb w t ins n own F lo hi t' cs n' : low = true -> breach w t -> bworld w ins n own F -> pyadd_encode_lb ord t lo hi n = Some (t', cs, n') ->
  exists w', step E w t (HLbChange (Incl lo, Incl hi)) = Some (w', t') /\ breach w' t' /\ bworld w' ins n' ((n, n') :: own) (F ++ cs).
Proof.
  intros L R (Wi & Wn & Wa & Wx) Ee.
  assert (S : exists w', step E w t (HLbChange (Incl lo, Incl hi)) = Some (w', t') /\ w_in w' = w_in w /\ w_next w' = n' /\ w_all w' = w_all w ++ cs /\ w_aux w' = (w_next w, n') :: w_aux w).
  { unfold E. cbn [step adder_enc en_lb_change]. unfold pyadd_encode_lb in Ee. rewrite Wn, Ee. eexists. split; [reflexivity|]. unfold log_call. cbn [w_in w_next w_aux w_all]. rewrite Wn. repeat split. }
  destruct S as (w' & S & S1 & S2 & S3 & S4). exists w'. split; [exact S|]. split; [apply (reach_step _ _ _ _ w t (HLbChange (Incl lo, Incl hi)) _ _ R); [split; [apply allow_low; exact L|exact I]|exact S]|].
  unfold bworld. rewrite S4. repeat split; try congruence.
  - intros H. apply in_aux_cons in H. apply in_aux_cons. rewrite Wn, <- Wx. exact H.
  - intros H. apply in_aux_cons in H. apply in_aux_cons. rewrite Wn, <- Wx in H. exact H.
Qed.

Lemma b_grow w t op w' t' : breach w t -> valid_op fst pos_weight ballow w op -> step E w t op = Some (w', t') -> (w_next w <= w_next w')%N.
Proof. intros R V S. exact (proj2 (proj2 (adder_local ord Hord ballow)) _ _ _ _ _ R V S). Qed.

Lemma pyadd_new_extend xs : NoDup (map fst xs) -> pyadd_new xs = add_extend add_new xs.
Proof. intros H. unfold pyadd_new, add_extend, add_from_iter, add_new. cbn [ad_buf ad_struct ad_sum ad_nodes]. rewrite (map_collect_nodup xs H), (map_adds_nodup xs [] H). reflexivity. Qed.

Lemma b_reach ins n own F t : b_hist ord low ins n own F t -> exists w, breach w t /\ bworld w ins n own F.
Proof.
  intros H. induction H as [xs n D V|ins n own F t c t' cs n' H IH V Ec].
  - eexists. split.
    + eapply reach_step with (op := HExtend xs).
      * eapply reach_step with (op := HUserVars n); [apply reach_init|split; [apply allow_up; exact I|exact I]|reflexivity].
      * split; [apply allow_up; exact I|]. cbn [w_next w_aux world0]. intros x Hx. destruct (V x Hx) as [V1 V2]. split; [exact V1|]. split; [lia|]. intros (? & ? & [] & _).
      * unfold E. cbn [step adder_enc en_extend en_init]. rewrite (pyadd_new_extend xs D). reflexivity.
    + unfold bworld. cbn [w_in w_next w_aux w_all world0 app]. repeat split; auto.
  - destruct IH as (w & R & W). pose proof W as (Wi & Wn & Wa & Wx). destruct V as [V VL].
    destruct c as [xs|k|lo hi|lo hi|lo hi]; cbn [pyadd_call b_inputs b_own app] in *; rewrite ?app_nil_r.
    + injection Ec as <- <- <-. eexists. split.
      * eapply reach_step with (op := HExtend xs); [exact R| |reflexivity]. split; [apply allow_up; exact I|]. intros x Hx. destruct (V x Hx) as (V1 & V2 & V3). split; [exact V1|]. split; [lia|rewrite <- Wx; exact V3].
      * unfold bworld. cbn [w_in w_next w_aux w_all]. rewrite ?app_nil_r. repeat split; try congruence; apply Wx.
    + injection Ec as <- <- <-. eexists. split.
      * eapply reach_step with (op := HUserVars k); [exact R|split; [apply allow_up; exact I|exact I]|reflexivity].
      * unfold bworld. cbn [w_in w_next w_aux w_all]. rewrite ?app_nil_r. repeat split; try congruence; apply Wx.
    + destruct (b_ub _ _ _ _ _ _ _ _ _ _ _ R W Ec) as (w' & _ & R' & W'). exists w'. split; assumption.
    + destruct (b_lb _ _ _ _ _ _ _ _ _ _ _ VL R W Ec) as (w' & _ & R' & W'). exists w'. split; assumption.
    + unfold pyadd_encode_both in Ec. destruct (pyadd_encode_ub ord t lo hi n) as [[[t1 cs1] n1]|] eqn:E1; [|discriminate Ec]. cbn [obind] in Ec.
      destruct (pyadd_encode_lb ord t1 lo hi n1) as [[[t2 cs2] n2]|] eqn:E2; [|discriminate Ec]. cbn [obind] in Ec. injection Ec as <- <- <-.
      destruct (b_ub _ _ _ _ _ _ _ _ _ _ _ R W E1) as (w1 & S1 & R1 & W1). destruct (b_lb _ _ _ _ _ _ _ _ _ _ _ VL R1 W1 E2) as (w2 & S2 & R2 & W2). exists w2. split; [exact R2|].
      assert (L1 : (w_next w <= w_next w1)%N) by (apply (b_grow _ _ _ _ _ R (conj (allow_up (HUbChange _) I) I) S1)).
      assert (L2 : (w_next w1 <= w_next w2)%N) by (apply (b_grow _ _ _ _ _ R1 (conj (allow_low (HLbChange _) VL) I) S2)).
      destruct W1 as (_ & N1 & _ & _). destruct W2 as (Wi2 & Wn2 & Wa2 & Wx2). unfold bworld. rewrite app_assoc. split; [exact Wi2|]. split; [exact Wn2|]. split; [exact Wa2|].
      intros v. rewrite <- Wx2, !in_aux_cons. split; [intros [G|G]|intros [G|[G|G]]]; try (now auto); try (left; lia).
      destruct (N.lt_ge_cases v n1); [right; left; lia|left; lia].
Qed.

Lemma bub_ok t b ls : pyadd_enforce_ub t b = PyOne ls <-> add_enforce_ub t b = Some (EOk ls).
Proof. unfold pyadd_enforce_ub, py_result. destruct (add_enforce_ub t b) as [[| |]|]; split; intros X; try discriminate X; injection X as <-; reflexivity. Qed.
Lemma blb_ok t b ls : pyadd_enforce_lb t b = PyOne ls <-> add_enforce_lb t b = Some (EOk ls).
Proof. unfold pyadd_enforce_lb, py_result. destruct (add_enforce_lb t b) as [[| |]|]; split; intros X; try discriminate X; injection X as <-; reflexivity. Qed.

Lemma pyadd_lb_sound ins n own F t : b_hist ord low ins n own F t -> forall b ls a,
  pyadd_enforce_lb t b = PyOne ls -> sat_cnf a F = true -> sat_cube a ls = true -> b <= wsum a ins.
Proof.
  intros H b ls a X SF SL. destruct (b_reach _ _ _ _ _ H) as (w & R & <- & Wn & <- & Wx). apply blb_ok in X. exact (adder_lb_sound ord Hord ballow w t b ls a R X SF SL).
Qed.
Lemma pyadd_complete ins n own F t : b_hist ord low ins n own F t -> forall a, exists a',
  (forall v, ~ in_aux own v -> a' v = a v) /\ sat_cnf a' F = true /\
  forall b ls, pyadd_enforce_ub t b = PyOne ls -> wsum a ins <= b -> sat_cube a' ls = true.
Proof.
  intros H a. destruct (b_reach _ _ _ _ _ H) as (w & R & <- & Wn & <- & Wx). destruct (adder_complete ord Hord ballow w t a R) as (a' & A1 & A2 & A3 & _).
  exists a'. split; [intros v Hv; apply A1; rewrite <- Wx; exact Hv|]. split; [exact A2|]. intros b ls X B. apply bub_ok in X. exact (A3 _ _ X B).
Qed.
Lemma pyadd_local ins n own F t : b_hist ord low ins n own F t ->
  forall c l, In c F -> In l c -> (exists x, In x ins /\ lvar (fst x) = lvar l) \/ in_aux own (lvar l).
Proof.
  intros H c l Hc Hl. destruct (b_reach _ _ _ _ _ H) as (w & R & <- & Wn & <- & Wx).
  destruct (proj1 (adder_local ord Hord ballow) w t c l R Hc Hl) as [G|G]; [left; exact G|right; apply Wx; exact G].
Qed.
(** after a call for lower bounds, alone or with upper bounds, all lower bounds that can be enforced are kept by the assignments that meet them *)
Lemma pyadd_lb_complete ins n own F t : b_hist ord low ins n own F t -> low = true -> forall lo hi t' cs n', (1 <= hi /\ lo <= hi /\ lo <= total_weight ins) ->
  pyadd_encode_lb ord t lo hi n = Some (t', cs, n') ->
  forall a, exists a', (forall v, ~ in_aux ((n, n') :: own) v -> a' v = a v) /\ sat_cnf a' (F ++ cs) = true /\
  forall b ls, pyadd_enforce_lb t' b = PyOne ls -> b <= wsum a ins -> sat_cube a' ls = true.
Proof.
  intros H L lo hi t' cs n' (B1 & B2 & B3) X a. destruct (b_reach _ _ _ _ _ H) as (w & R & W). destruct (b_lb _ _ _ _ _ _ _ _ _ _ _ L R W X) as (w' & S & R' & W').
  destruct W as (Wi & _ & _ & _). destruct W' as (Wi' & Wn' & Wa' & Wx'). destruct (adder_complete ord Hord ballow w' t' a R') as (a' & A1 & A2 & _ & A4).
  exists a'. split; [intros v Hv; apply A1; rewrite <- Wx'; exact Hv|]. split; [congruence|]. intros b ls Y Hb. apply blb_ok in Y. destruct (Nat.eq_dec (total_weight ins) 0) as [Z|Z].
  - assert (b = 0) by (pose proof (wsum_le_total a ins); lia). subst b. cbn in Y. unfold add_enforce_lb in Y. cbn in Y. injection Y as <-. reflexivity.
  - apply (A4 b ls); [|exact Y|congruence]. apply (adder_settled ord Hord ballow w t (HLbChange (Incl lo, Incl hi)) w' t' R (conj (allow_low _ L) I) S).
    rewrite Wi. destruct lo as [|lo]; [exists 1|exists (1 + lo)]; (split; [split; cbn [fst snd]; lia|lia]).
Qed.
End B.

Section Up.
Context (ord : wmap -> wmap) (Hord : iter_order ord).
(** programs without lower bounds: after encoding a range, all its bounds are enforced exactly *)
Lemma pyadd_upper ins n own F t : b_hist ord false ins n own F t -> forall lo hi t' cs n' b, pyadd_encode_ub ord t lo hi n = Some (t', cs, n') -> lo <= b <= hi ->
  exists ls, pyadd_enforce_ub t' b = PyOne ls /\
  (forall a, sat_cnf a (F ++ cs) = true -> sat_cube a ls = true -> wsum a ins <= b) /\
  (forall a, wsum a ins <= b -> exists a', (forall v, ~ in_aux ((n, n') :: own) v -> a' v = a v) /\ sat_cnf a' (F ++ cs) = true /\ sat_cube a' ls = true).
Proof.
  intros H lo hi t' cs n' b X B. destruct (b_reach ord Hord false _ _ _ _ _ H) as (w & R & W). destruct (b_ub ord false _ _ _ _ _ _ _ _ _ _ _ R W X) as (w' & S & R' & W').
  destruct W as (Wi & _ & _ & _). destruct W' as (Wi' & Wn' & Wa' & Wx').
  destruct (adder_encodes_ub ord Hord (ballow false) HUbChange ltac:(tauto) w t (Incl lo, Incl hi) w' t' b R (conj I I) S B) as (ls & G). cbn [adder_enc en_enforce_ub] in G.
  exists ls. split; [apply bub_ok; exact G|]. split.
  - intros a SF SL. destruct (Nat.le_gt_cases (total_weight ins) b) as [T|T]; [pose proof (wsum_le_total a ins); lia|]. rewrite <- Wi'.
    assert (Hs : ad_buf t' = []) by (apply (adder_settled ord Hord (ballow false) w t (HUbChange (Incl lo, Incl hi)) w' t' R (conj I I) S); exists b; split; [exact B|rewrite Wi; exact T]).
    apply (adder_ub_sound ord Hord w' t' b ls a R' Hs G); congruence.
  - intros a Hb. destruct (adder_complete ord Hord (ballow false) w' t' a R') as (a' & A1 & A2 & A3 & _). exists a'. split; [intros v Hv; apply A1; rewrite <- Wx'; exact Hv|]. split; [congruence|].
    apply (A3 b ls G). congruence.
Qed.

Lemma reach_all w t : reachable (adder_enc ord) fst pos_weight (ballow false) w t -> reachable (adder_enc ord) fst pos_weight any_op w t.
Proof. induction 1 as [|w t op w' t' R IH V S]; [apply reach_init|]. exact (reach_step _ _ _ _ w t op w' t' IH (any_valid _ _ _ V) S). Qed.
Lemma pyadd_errors low ins n own F t : b_hist ord low ins n own F t ->
  (forall c, b_valid low n own c -> pyadd_call ord t n c <> None) /\ (forall b, pyadd_enforce_ub t b <> PyPanic /\ pyadd_enforce_lb t b <> PyPanic).
Proof.
  intros H. destruct (b_reach ord Hord low _ _ _ _ _ H) as (w & R & W). pose proof W as (Wi & Wn & Wa & Wx).
  assert (RA : forall w t, reachable (adder_enc ord) fst pos_weight (ballow low) w t -> reachable (adder_enc ord) fst pos_weight any_op w t) by (intros ? ?; destruct low; [auto|apply reach_all]).
  assert (U : forall t n w, reachable (adder_enc ord) fst pos_weight (ballow low) w t -> w_next w = n -> forall lo hi, pyadd_encode_ub ord t lo hi n <> None).
  { intros t0 n0 w0 R0 N0 lo hi X. apply (adder_no_panic ord Hord w0 t0 (HUbChange (Incl lo, Incl hi)) (RA _ _ R0)); [split; exact I|discriminate|]. cbn [step adder_enc en_ub_change]. unfold pyadd_encode_ub in X. rewrite N0, X. reflexivity. }
  assert (Lo : forall t n w, reachable (adder_enc ord) fst pos_weight (ballow low) w t -> w_next w = n -> forall lo hi, pyadd_encode_lb ord t lo hi n <> None).
  { intros t0 n0 w0 R0 N0 lo hi X. apply (adder_no_panic ord Hord w0 t0 (HLbChange (Incl lo, Incl hi)) (RA _ _ R0)); [split; exact I|discriminate|]. cbn [step adder_enc en_lb_change]. unfold pyadd_encode_lb in X. rewrite N0, X. reflexivity. }
  split.
  - intros c [V VL] X. destruct c as [xs|k|lo hi|lo hi|lo hi]; cbn [pyadd_call] in X; try discriminate X.
    + exact (U _ _ _ R Wn _ _ X).
    + exact (Lo _ _ _ R Wn _ _ X).
    + unfold pyadd_encode_both in X. destruct (pyadd_encode_ub ord t lo hi n) as [[[t1 cs1] n1]|] eqn:E1; [|exact (U _ _ _ R Wn _ _ E1)]. cbn [obind] in X.
      destruct (b_ub ord low _ _ _ _ _ _ _ _ _ _ _ R W E1) as (w1 & _ & R1 & W1). destruct W1 as (_ & N1 & _ & _).
      destruct (pyadd_encode_lb ord t1 lo hi n1) as [[[t2 cs2] n2]|] eqn:E2; [discriminate X|]. exact (Lo _ _ _ R1 N1 _ _ E2).
  - intros b. pose proof (adder_enforce_total ord (ballow low) w t R) as [T1 T2]. specialize (T1 b). specialize (T2 b). cbn [adder_enc en_enforce_ub en_enforce_lb] in T1, T2.
    unfold pyadd_enforce_ub, pyadd_enforce_lb, py_result. split; [destruct (add_enforce_ub t b) as [[| |]|]|destruct (add_enforce_lb t b) as [[| |]|]]; congruence.
Qed.
End Up.
