(** * The dynamic polynomial watchdog: announced precisions and statistics *)

From Coq Require Import List Bool NArith ZArith Lia Arith Sorted Permutation.
From Coq Require Import ZifyBool ZifyNat ZifyN.
From Verif Require Import Spec BoundSpec StatSpec Types Atomics NodeDb TreeSpec TotDb Totalizer Maps Base TotDbInv TotDbUnit TotDbDefine TotDbGeneral TotDbBuild TotDbGrow TotDbMerge TotWeighted TotDbHist TotalizerProofs DbWorld Dpw DpwSpec DpwRef DpwBuild DpwBuckets DpwStruct DpwIf DpwInv DpwExtend DpwChain DpwLink DpwSem DpwMerge DpwHist DpwProofs.
Import ListNotations.

Section Refine.
Context (ord : wmap -> wmap) (Hord : iter_order ord).
Context (srt : list node -> list nodecon -> list nodecon) (Hsrt : forall ns l, Permutation (srt ns l) l).
Context (m : list (lit * nat)) (Hm : inputs_ok m).

(** what is encoded is at the current precision *)
Lemma encoded_at d w t R r ub : pinv m d w t R -> (2 <= length m)%nat -> In r R -> in_rng ub r -> (ub < total_weight m)%nat -> exists st, dp_struct t = Some st /\ must_not t d.
Proof.
  intros I H2 Hin Hr Hlt. pose proof (pv_struct _ _ _ _ _ I) as Ps. destruct (dp_struct t) as [st|] eqn:Es.
  - destruct Ps as (_ & P1 & g & ow & wv & s & s0 & HP & V & Hle & Hd & M & P3). destruct (P3 r ub Hin Hr Hlt) as (H & _). eauto.
  - destruct Ps as (_ & Hrs). specialize (Hrs H2 r Hin). pose proof (ub_range_in _ _ _ Hr Hlt). lia.
Qed.

Lemma total_strict (l : list (lit * nat)) s s' : (2 ^ (s - s') * total_weight (map (fun x => (fst x, (snd x / 2 ^ s)%nat)) l) < total_weight (map (fun x => (fst x, (snd x / 2 ^ s')%nat)) l))%nat ->
  exists x, In x l /\ (2 ^ (s - s') * (snd x / 2 ^ s) < snd x / 2 ^ s')%nat.
Proof.
  induction l as [|y l IH]; cbn [map total_weight]; [intros H; exfalso; clear - H; lia|]. rewrite Nat.mul_add_distr_l. cbn [fst snd]. intros H.
  destruct (Nat.lt_ge_cases (2 ^ (s - s') * (snd y / 2 ^ s)) (snd y / 2 ^ s')) as [L|L]; [exists y; split; [now left|auto]|].
  destruct IH as (x & Hx & K); [revert H L; generalize (2 ^ (s - s') * (snd y / 2 ^ s))%nat (snd y / 2 ^ s')%nat (2 ^ (s - s') * total_weight (map (fun x : lit * nat => (fst x, (snd x / 2 ^ s)%nat)) l))%nat; intros; lia|]. exists x. split; [now right|auto].
Qed.

Lemma next_spec d w t R r ub : dpw_phist ord srt m d w t R -> (2 <= length m)%nat -> In r R -> in_rng ub r -> (ub < total_weight m)%nat ->
  if dpw_is_max_precision t then forall x, In x m -> (snd x = Nat.max d 1 * (snd x / Nat.max d 1))%nat
  else exists k, dpw_next_precision t = (2 ^ k)%nat /\ (2 ^ k < d)%nat /\
    (forall k', (2 ^ k < 2 ^ k' <= d)%nat -> forall x, In x m -> (snd x / 2 ^ k' = d / 2 ^ k' * (snd x / d))%nat) /\
    exists x, In x m /\ (d / 2 ^ k * (snd x / d) < snd x / 2 ^ k)%nat.
Proof.
  intros H H2 Hin Hr Hlt. pose proof (phist_inv ord Hord srt Hsrt m Hm d w t R H) as I. destruct (encoded_at d w t R r ub I H2 Hin Hr Hlt) as (st & Es & Hq).
  pose proof (pv_struct _ _ _ _ _ I) as Ps. rewrite Es in Ps. destruct Ps as (_ & P1 & g & ow & wv & s & s0 & HP & V & Hle & Hd & M & P3).
  assert (Hs : (s <= s0)%nat) by exact (prec_mono _ _ _ _ HP (vl_prec _ _ _ _ _ _ V) Hle).
  destruct (vals_sum m g _ st _ s0 s d V Hs HP Hq) as (_ & Td).
  assert (Low : forall s', (s' <= s)%nat -> (forall e, In e (dp_queue t) -> (fst e < 2 ^ s')%nat) -> forall x, In x m -> (snd x / 2 ^ s' = 2 ^ (s - s') * (snd x / 2 ^ s))%nat).
  { intros s' Hs' Hl. destruct (vl_sum _ _ _ _ _ _ V s' ltac:(lia)) as (_ & T). rewrite (qsum_low _ _ _ Hl) in T.
    assert (T' : total_weight (sc m s') = (2 ^ (s - s') * total_weight (sc m s))%nat).
    { rewrite <- T, Td, Nat.mul_assoc, <- Nat.pow_add_r. replace (s - s' + (s0 - s))%nat with (s0 - s')%nat by lia. reflexivity. }
    exact (total_termwise m s' s Hs' T'). }
  assert (Em : Nat.max d 1 = (2 ^ s)%nat) by (pose proof (pow2_pos s); destruct HP as [->|(-> & ->)]; [lia|reflexivity]).
  unfold dpw_is_max_precision, dpw_next_precision. destruct (dp_queue t) as [|(maxw & cs) q] eqn:Eq.
  - intros x Hx. pose proof (Low 0%nat (Nat.le_0_l s) ltac:(intros e []) x Hx) as L. rewrite Nat.sub_0_r, Nat.pow_0_r, Nat.div_1_r in L. rewrite Em. exact L.
  - pose proof (Hq (maxw, cs)) as Hmw. unfold must_not in Hq. rewrite Eq in Hq, Hmw. specialize (Hmw (or_introl eq_refl)). cbn [fst] in Hmw.
    pose proof (vl_q _ _ _ _ _ _ V) as Q. pose proof (qk_cons _ _ Q) as F. apply Forall_inv in F. destruct F as (Hm1 & Hne & U). cbn [fst snd] in Hm1, Hne, U.
    assert (Ed : d = (2 ^ s)%nat) by lia. set (k := Nat.log2 maxw). pose proof (Nat.log2_spec maxw ltac:(lia)) as (L1 & L2). fold k in L1, L2.
    exists k. split; [unfold digits; f_equal; fold k; lia|]. split; [lia|].
    assert (Hks : (k < s)%nat) by (apply (Nat.pow_lt_mono_r_iff 2); lia).
    assert (Ddiv : forall k', (k' <= s)%nat -> (d / 2 ^ k' = 2 ^ (s - k'))%nat).
    { intros k' Hk. rewrite Ed. replace s with (s - k' + k')%nat at 1 by lia. rewrite Nat.pow_add_r. apply Nat.div_mul. apply Nat.pow_nonzero. lia. }
    split.
    + intros k' (K1 & K2) x Hx. rewrite Ed in K2. apply Nat.pow_lt_mono_r_iff in K1; [|lia]. apply Nat.pow_le_mono_r_iff in K2; [|lia]. rewrite Ddiv by auto. rewrite Ed. apply Low; [auto| |auto].
      intros e He. apply Nat.le_lt_trans with maxw.
      * pose proof (qk_sorted _ _ Q) as So. apply StronglySorted_inv in So as (_ & F). rewrite Forall_forall in F. destruct He as [<-|He]; [apply le_n|]. specialize (F _ He). cbn [fst] in F. lia.
      * apply Nat.lt_le_trans with (2 ^ S k)%nat; [exact L2|]. apply Nat.pow_le_mono_r; lia.
    + destruct (vl_sum _ _ _ _ _ _ V k ltac:(lia)) as (_ & T). rewrite Ddiv by lia. rewrite Ed. apply total_strict. fold (sc m s). fold (sc m k).
      rewrite Td, Nat.mul_assoc, <- Nat.pow_add_r. replace (s - k + (s0 - s))%nat with (s0 - k)%nat by lia. rewrite <- T.
      enough (1 <= qsum (cmax (d_nodes (dp_db t))) k ((maxw, cs) :: q))%nat by (clear - H0; generalize dependent (2 ^ (s0 - k) * total_weight (sc m s0))%nat; intros; lia).
      unfold qsum. cbn [map fst snd]. change (list_sum (?x :: ?y)) with (x + list_sum y)%nat. destruct cs as [|c cs]; [congruence|]. apply Forall_inv in U.
      pose proof (ucon_max _ _ _ (proj1 (md_built _ _ _ _ _ _ _ _ _ M)) U) as C1. unfold tsum. cbn [map]. change (list_sum (?x :: ?y)) with (x + list_sum y)%nat.
      assert (1 <= maxw / 2 ^ k)%nat by (apply Nat.div_le_lower_bound; [pose proof (pow2_pos k); lia|lia]). clear - C1 H0. nia.
Qed.

Lemma wsum_scale a (l : list (lit * nat)) c p q : (forall x, In x l -> (snd x / p = c * (snd x / q))%nat) ->
  wsum a (map (fun x => (fst x, (snd x / p)%nat)) l) = (c * wsum a (map (fun x => (fst x, (snd x / q)%nat)) l))%nat.
Proof.
  induction l as [|y l IH]; intros H; [cbn; lia|]. cbn [map wsum fst snd]. rewrite IH by (intros; apply H; now right). rewrite (H y (or_introl eq_refl)). destruct (lit_true a (fst y)); lia.
Qed.

Lemma announced0 d w t R r ub : dpw_phist ord srt m d w t R -> (2 <= length m)%nat -> In r R -> in_rng ub r -> (ub < total_weight m)%nat ->
  if dpw_is_max_precision t then forall a, wsum a m = (Nat.max d 1 * wsum a (scaled d m))%nat
  else exists k, dpw_next_precision t = (2 ^ k)%nat /\ (2 ^ k < d)%nat /\ (exists t', dpw_set_precision t (2 ^ k) = inl t') /\
    (forall k' a, (2 ^ k < 2 ^ k' <= d)%nat -> wsum a (scaled (2 ^ k') m) = (d / 2 ^ k' * wsum a (scaled d m))%nat) /\
    exists x, In x m /\ (d / 2 ^ k * (snd x / d) < snd x / 2 ^ k)%nat.
Proof.
  intros H H2 Hin Hr Hlt. pose proof (next_spec d w t R r ub H H2 Hin Hr Hlt) as N. destruct (dpw_is_max_precision t).
  - intros a. unfold scaled. rewrite <- (wsum_scale a m _ 1 (Nat.max d 1)).
    + f_equal. rewrite <- (map_id m) at 1. apply map_ext. intros [l v]. cbn [fst snd]. now rewrite Nat.div_1_r.
    + intros x Hx. rewrite Nat.div_1_r. now apply N.
  - destruct N as (k & N1 & N2 & N3 & N4). exists k. split; [auto|]. split; [auto|]. split.
    + apply (dpw_set_prec ord Hord srt Hsrt m Hm d w t R (2 ^ k) H). split; [right; eauto|right; lia].
    + split; [|auto]. intros k' a Hk. unfold scaled. replace (Nat.max (2 ^ k') 1) with (2 ^ k')%nat by (pose proof (pow2_pos k'); lia).
      replace (Nat.max d 1) with d by (pose proof (pow2_pos k'); lia). apply wsum_scale. intros x Hx. now apply N3.
Qed.

(** ** Statistics *)
Lemma change_stats t r next t' cs next' : dpw_encode_ub_change srt t r next = Some (t', cs, next') -> dp_cls t' = (dp_cls t + length cs)%nat /\ dp_vars t' = (dp_vars t + (next' - next))%N.
Proof.
  unfold dpw_encode_ub_change. destruct (prepare_ub_range (dp_sum t) r) as [lo hi]. destruct (_ || _); [intros [= <- <- <-]; cbn [length]; split; lia|].
  assert (K : forall t1 cs1 n1, match dp_struct t with None => do r <- dpw_build srt t next; let '(t1, next1) := r in Some (t1, [], next1) | Some _ => dpw_extend srt t next end = Some (t1, cs1, n1) ->
    dp_cls t1 = dp_cls t /\ dp_vars t1 = dp_vars t /\ dp_struct t1 <> None).
  { intros t1 cs1 n1. unfold dpw_build, dpw_extend. destruct (dp_struct t) as [st|] eqn:Es.
    - destruct (must_extend t); [|intros [= <- <- <-]; split; [auto|]; split; [auto|congruence]].
      destruct (build_structure _ _ _ _ _ _) as [(((top & d0) & q0) & n0)|]; [|discriminate]. cbn [obind]. destruct (merge_structures _ _ _ _) as [(((st' & d') & c') & n')|]; [|discriminate]. cbn [obind].
      intros [= <- <- <-]. split; [auto|]. split; [auto|discriminate].
    - destruct (build_structure _ _ _ _ _ _) as [(((top & d0) & q0) & n0)|]; [|discriminate]. cbn [obind]. intros [= <- <- <-]. split; [auto|]. split; [auto|discriminate]. }
  destruct (match dp_struct t with None => _ | Some _ => _ end) as [((t1 & cs1) & n1)|]; [|discriminate]. destruct (K t1 cs1 n1 eq_refl) as (K1 & K2 & K3). cbn [obind].
  destruct (dp_struct t1) as [st|]; [|congruence]. destruct (sr_root st) as [root|]; [|discriminate]. cbn [obind]. destruct (foldM _ _ _) as [s|]; [|discriminate]. cbn [obind]. intros [= <- <- <-].
  cbn [dp_cls dp_vars]. rewrite K1, K2. auto.
Qed.

Lemma stats_ok d w t R : dpw_phist ord srt m d w t R -> dp_cls t = length (w_all w) /\ (dp_vars t <= aux_count (w_aux w))%N.
Proof.
  intros H. induction H as [d next t0 t Hn E0 Et|d w t R op w' t' H IH Hop Es|d w t R d' t' H IH Hd Et].
  - unfold dpw_from in E0. destruct (foldM _ _ _) as [(d0 & q)|]; [|discriminate]. cbn [obind] in E0. injection E0 as <-. unfold dpw_set_precision in Et. destruct (negb _); [discriminate|]. cbn [dp_struct andb] in Et. injection Et as <-. cbn. split; [auto|lia].
  - destruct IH as (I1 & I2). destruct op as [xs|k| |r|r|r|r|r]; cbn [dpw_op] in Hop; try tauto; cbn [step dpw_enc en_reserve en_ub en_ub_change encode_step] in Es.
    + injection Es as <- <-. auto.
    + destruct (dpw_reserve srt t (w_next w)) as [(t2 & n)|] eqn:E; [|discriminate]. injection Es as <- <-. cbn [log_call w_all w_aux aux_count fold_right fst snd]. fold (aux_count (w_aux w)). rewrite app_nil_r.
      enough (dp_cls t2 = dp_cls t /\ dp_vars t2 = dp_vars t) as (-> & ->) by (split; [auto|lia]). revert E. unfold dpw_reserve, dpw_build. destruct (_ <=? _)%nat; [now intros [= <- <-]|].
      destruct (dp_struct t) as [st|] eqn:E1.
      * cbn [obind]. rewrite E1. destruct (sr_root st); [|discriminate]. cbn [obind]. destruct (reserve_vars _ _ _); [|discriminate]. cbn [obind]. now intros [= <- <-].
      * destruct (build_structure _ _ _ _ _ _) as [(((top & d0) & q0) & n0)|]; [|discriminate]. cbn [obind dp_struct]. destruct (sr_root top); [|discriminate]. cbn [obind]. destruct (reserve_vars _ _ _); [|discriminate]. cbn [obind]. now intros [= <- <-].
    + unfold dpw_encode_ub in Es. destruct (dpw_encode_ub_change srt (dpw_reset t) r (w_next w)) as [((t2 & cs) & n)|] eqn:E; [|discriminate]. injection Es as <- <-. apply change_stats in E as (-> & ->).
      unfold dpw_reset. cbn [dp_cls dp_vars log_call w_all w_aux aux_count fold_right fst snd]. fold (aux_count (w_aux w)). rewrite app_length, I1. split; [auto|lia].
    + destruct (dpw_encode_ub_change srt t r (w_next w)) as [((t2 & cs) & n)|] eqn:E; [|discriminate]. injection Es as <- <-. apply change_stats in E as (-> & ->).
      cbn [log_call w_all w_aux aux_count fold_right fst snd]. fold (aux_count (w_aux w)). rewrite app_length, I1. split; [auto|lia].
  - unfold dpw_set_precision in Et. destruct (negb _); [discriminate|]. destruct (_ && _); [discriminate|]. injection Et as <-. exact IH.
Qed.

Lemma stats_incr d b w t R : dpw_pincr ord srt m d b w t R -> dp_vars t = aux_count (w_aux w).
Proof.
  intros H. induction H as [d next t0 t Hn E0 Et|d b w t R k H IH|d b w t R r w' t' H IH Es|d w t R r w' t' H IH Es|d b w t R d' t' H IH Hd Et].
  - unfold dpw_from in E0. destruct (foldM _ _ _) as [(d0 & q)|]; [|discriminate]. cbn [obind] in E0. injection E0 as <-. unfold dpw_set_precision in Et. destruct (negb _); [discriminate|]. cbn [dp_struct andb] in Et. injection Et as <-. reflexivity.
  - exact IH.
  - cbn [step dpw_enc en_ub_change encode_step] in Es. destruct (dpw_encode_ub_change srt t r (w_next w)) as [((t2 & cs) & n)|] eqn:E; [|discriminate]. injection Es as <- <-. apply change_stats in E as (_ & ->).
    cbn [log_call w_aux aux_count fold_right fst snd]. fold (aux_count (w_aux w)). rewrite IH. lia.
  - cbn [step dpw_enc en_ub encode_step] in Es. unfold dpw_encode_ub in Es. destruct (dpw_encode_ub_change srt (dpw_reset t) r (w_next w)) as [((t2 & cs) & n)|] eqn:E; [|discriminate]. injection Es as <- <-. apply change_stats in E as (_ & ->).
    unfold dpw_reset. cbn [dp_vars log_call w_aux aux_count fold_right fst snd]. fold (aux_count (w_aux w)). rewrite IH. lia.
  - unfold dpw_set_precision in Et. destruct (negb _); [discriminate|]. destruct (_ && _); [discriminate|]. injection Et as <-. exact IH.
Qed.
End Refine.

Definition announced ord srt m Hord Hsrt Hm := announced0 ord Hord srt Hsrt m Hm.
