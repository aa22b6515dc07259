(** * Property theorems: the dynamic polynomial watchdog (C32, C62, C71, C72)

    Bounds at precision [d] refer to the weights divided by [d], rounding down ([scaled], in [DpwSpec]). The theorems hold
    for every iteration order [ord] of the hash map of inputs and every outcome [srt] of sorting connections that is a
    permutation of them. [dpw_hist] are the histories at one precision, [dpw_phist] those in which the precision is changed
    on the way, and [dpw_pincr] those of the latter in which no variables are reserved and nothing is encoded twice. *)

From Coq Require Import List Bool NArith Lia Arith Permutation.
From Verif Require Import Spec BoundSpec StatSpec Types NodeDb Maps Dpw DpwSpec Base DpwProofs DpwRefine.
Import ListNotations.

Definition sort_order (srt : list node -> list nodecon -> list nodecon) : Prop := forall ns l, Permutation (srt ns l) l.

(** ** C32 *)

(** In histories in which no variables are reserved and nothing is encoded twice, whenever a bound is enforced it is
    enforced exactly, at the current precision and however often the precision was changed before. *)
Theorem C32_enforced_bound_exact : forall ord srt m, iter_order ord -> sort_order srt -> inputs_ok m ->
  forall d b w t R ub ls, dpw_pincr ord srt m d b w t R -> precision_ok d m -> dpw_enforce_ub t ub = Some (EOk ls) ->
  (forall a, sat_cnf a (w_ub w) = true -> sat_cube a ls = true -> (wsum a (scaled d m) <= ub)%nat) /\
  (forall a, (wsum a (scaled d m) <= ub)%nat ->
     exists a', (forall v, ~ in_aux (w_aux w) v -> a' v = a v) /\ sat_cnf a' (w_all w) = true /\ sat_cube a' ls = true).
Proof. intros. eapply dpw_exact; eauto. Qed.
Print Assumptions C32_enforced_bound_exact.

(** In all histories at one precision, bounds in the ranges encoded since the last non-incremental call can be enforced and
    then hold. *)
Theorem C32_encoded_bound_enforced : forall ord srt m d, iter_order ord -> sort_order srt -> inputs_ok m -> precision_ok d m ->
  forall w t R r ub, dpw_hist ord srt m d w t R -> In r R -> in_rng ub r -> (ub < total_weight m \/ d <= 1)%nat ->
  exists ls, dpw_enforce_ub t ub = Some (EOk ls) /\
    forall a, sat_cnf a (w_ub w) = true -> sat_cube a ls = true -> (wsum a (scaled d m) <= ub)%nat.
Proof. intros. eapply dpw_encoded_fixed; eauto. Qed.
Print Assumptions C32_encoded_bound_enforced.

(** The same after changes of the precision, for ranges starting at 0 or if some weight is odd after dividing. *)
Theorem C32_refined_bound_enforced_partial : forall ord srt m, iter_order ord -> sort_order srt -> inputs_ok m ->
  forall d w t R r ub, dpw_phist ord srt m d w t R -> precision_ok d m ->
  (in_rng 0 r \/ exists x, In x m /\ Nat.odd (snd x / Nat.max d 1) = true) ->
  In r R -> in_rng ub r -> (ub < total_weight m \/ d <= 1)%nat ->
  exists ls, dpw_enforce_ub t ub = Some (EOk ls) /\
    forall a, sat_cnf a (w_ub w) = true -> sat_cube a ls = true -> (wsum a (scaled d m) <= ub)%nat.
Proof. intros. eapply dpw_encoded; eauto. Qed.
Print Assumptions C32_refined_bound_enforced_partial.

(** In all histories, a bound that is enforced keeps every assignment meeting it. *)
Theorem C32_enforced_bound_complete : forall ord srt m, iter_order ord -> sort_order srt -> inputs_ok m ->
  forall d w t R ub ls a, dpw_phist ord srt m d w t R -> precision_ok d m -> dpw_enforce_ub t ub = Some (EOk ls) -> (wsum a (scaled d m) <= ub)%nat ->
  exists a', (forall v, ~ in_aux (w_aux w) v -> a' v = a v) /\ sat_cnf a' (w_all w) = true /\ sat_cube a' ls = true.
Proof. intros. eapply dpw_complete; eauto. Qed.
Print Assumptions C32_enforced_bound_complete.

Theorem C32_no_panic : forall ord srt m, iter_order ord -> sort_order srt -> inputs_ok m ->
  forall d w t R, dpw_phist ord srt m d w t R -> precision_ok d m ->
  (forall op, dpw_op op -> exists w' t', step (dpw_enc srt t) w t op = Some (w', t') /\ (w_next w <= w_next w')%N) /\
  (forall ub, dpw_enforce_ub t ub <> None /\ dpw_enforce_ub t ub <> Some EUnsat).
Proof. intros. eapply dpw_no_panic; eauto. Qed.
Print Assumptions C32_no_panic.

Theorem C32_clauses_local : forall ord srt m, iter_order ord -> sort_order srt -> inputs_ok m ->
  forall d w t R c l, dpw_phist ord srt m d w t R -> In c (w_all w) -> In l c ->
  (exists x, In x m /\ lvar (fst x) = lvar l) \/ in_aux (w_aux w) (lvar l).
Proof. intros. eapply dpw_local; eauto. Qed.
Print Assumptions C32_clauses_local.

(** construction succeeds, and so does setting the precision to 0, 1 or a power of two *)
Theorem C32_set_precision : forall ord m d, iter_order ord -> inputs_ok m -> exists t0, dpw_from ord m = Some t0 /\
  ((exists t, dpw_set_precision t0 d = inl t) <-> (d <= 1 \/ exists k, d = 2 ^ k)%nat).
Proof.
  intros ord m d Ho Hm. destruct (dpw_from_total ord Ho m Hm) as (t0 & E). exists t0. split; [auto|].
  exact (dpw_start_ok ord m d t0 E).
Qed.
Print Assumptions C32_set_precision.

(** later, changing the precision succeeds if in addition nothing is encoded yet or the precision is not made coarser *)
Theorem C32_change_precision : forall ord srt m, iter_order ord -> sort_order srt -> inputs_ok m ->
  forall d w t R d', dpw_phist ord srt m d w t R ->
  ((exists t', dpw_set_precision t d' = inl t') <-> (d' <= 1 \/ exists k, d' = 2 ^ k)%nat /\ (dp_struct t = None \/ d' <= d)%nat).
Proof. intros. eapply dpw_set_prec; eauto. Qed.
Print Assumptions C32_change_precision.

(** Coarse bounds are the numbers [k * W - 1]. Rounding a bound of at least [W] yields the largest coarse bound that is not
    above it, and coarse bounds need at most one assumption. This holds at one precision, or if some weight is odd after
    dividing. *)
Theorem C32_coarse_ub : forall ord srt m, iter_order ord -> sort_order srt -> inputs_ok m ->
  forall d w t R, dpw_hist ord srt m d w t R \/ (dpw_phist ord srt m d w t R /\ exists x, In x m /\ Nat.odd (snd x / Nat.max d 1) = true) ->
  exists W, (1 <= W)%nat /\ forall ub,
  (dpw_coarse_ub t ub <= ub)%nat /\
  ((ub < W)%nat -> dpw_coarse_ub t ub = ub) /\
  ((W <= ub)%nat -> (exists k, dpw_coarse_ub t ub = k * W - 1)%nat /\
     (forall k, (k * W - 1 <= ub)%nat -> (k * W - 1 <= dpw_coarse_ub t ub)%nat)) /\
  ((W <= ub)%nat -> forall ls, dpw_enforce_ub t (dpw_coarse_ub t ub) = Some (EOk ls) -> (length ls <= 1)%nat).
Proof. intros ord srt m Ho Hs Hm d w t R H. destruct (hist_cur ord Ho srt Hs m Hm d w t R H) as (I & C). eapply coarse_ok; eauto. Qed.
Print Assumptions C32_coarse_ub.

Definition idm : wmap -> wmap := fun m => m.
Definition idn : list node -> list nodecon -> list nodecon := fun _ l => l.
Lemma idm_ok : iter_order idm. Proof. intros m. apply Permutation_refl. Qed.
Lemma idn_ok : sort_order idn. Proof. intros ns l. apply Permutation_refl. Qed.

(** four inputs encoded in two steps, at full precision and at precision 2 *)
Definition ex_in : list (lit * nat) := [(pos 0, 1); (negl 1, 2); (pos 2, 3); (pos 3, 6)]%nat.
Definition ex_ops : list (hop (lit * nat)) :=
  [HUserVars 2; HUbChange (Incl 2%nat, Excl 5%nat); HUserVars 1; HUbChange (Incl 7%nat, Incl 8%nat)].

Lemma ex_in_ok : inputs_ok ex_in.
Proof. intros x Hx. cbn in Hx. destruct Hx as [<-|[<-|[<-|[<-|[]]]]]; cbn; lia. Qed.

Example C32_history_ex : exists w t R, (exists b, dpw_pincr idm idn ex_in 1 b w t R) /\ precision_ok 1 ex_in /\ length (w_all w) = 29%nat /\
  R = [(Incl 7%nat, Incl 8%nat); (Incl 2%nat, Excl 5%nat)] /\
  dpw_enforce_ub t 3 = Some (EOk [negl 18]) /\ dpw_enforce_ub t 8 = Some (EOk [negl 25; pos 7; pos 6]) /\
  dpw_enforce_ub t 12 = Some (EOk []) /\ map (dpw_coarse_ub t) [2; 3; 6; 7; 12]%nat = [2; 3; 3; 7; 11]%nat.
Proof.
  eexists _, _, _. split; [apply (dpw_run_incr idm idn ex_in 1 4 ex_ops); vm_compute; reflexivity|].
  split; [left; lia|]. repeat split; vm_compute; reflexivity.
Qed.

Example C32_precision_ex : exists w t R, (exists b, dpw_pincr idm idn ex_in 2 b w t R) /\ precision_ok 2 ex_in /\ length (w_all w) = 16%nat /\
  map snd (scaled 2 ex_in) = [0; 1; 1; 3]%nat /\
  dpw_enforce_ub t 1 = Some ENotEncoded /\ dpw_enforce_ub t 2 = Some (EOk [negl 16; pos 6]) /\ dpw_enforce_ub t 3 = Some (EOk [negl 16]).
Proof.
  eexists _, _, _. split; [apply (dpw_run_incr idm idn ex_in 2 4 ex_ops); vm_compute; reflexivity|].
  split; [right; split; [cbn; lia|exists (pos 3, 6%nat); split; [cbn; tauto|cbn; lia]]|]. repeat split; vm_compute; reflexivity.
Qed.

(** a history with reserved variables and a second, non-incremental encoding *)
Example C32_reencode_ex : exists w t R, dpw_hist idm idn ex_in 1 w t R /\ R = [(Unb, Incl 4%nat)] /\ length (w_ub w) < length (w_all w) /\
  (exists ls, dpw_enforce_ub t 4 = Some (EOk ls) /\ length ls = 3%nat).
Proof.
  eexists _, _, _. split; [apply (dpw_run_hist idm idn ex_in 1 4 [HReserve; HUb (Unb, Unb); HUb (Unb, Incl 4%nat)]); vm_compute; reflexivity|].
  split; [reflexivity|]. split; [vm_compute; lia|]. eexists. split; [vm_compute; reflexivity|reflexivity].
Qed.

(** a range is encoded at precision 4; then the precision is refined to 1 and another range is encoded *)
Definition ex_refine : list pop := [inl (HUserVars 2); inl (HUbChange (Unb, Excl 5%nat)); inl (HUserVars 1); inr 1%nat; inl (HUbChange (Incl 2%nat, Incl 8%nat))].
Example C32_refine_ex : exists w t R, (exists b, dpw_pincr idm idn ex_in 1 b w t R) /\ precision_ok 1 ex_in /\ length (w_all w) = 29%nat /\
  R = [(Incl 2%nat, Incl 8%nat)] /\ w_aux w = [(8, 26); (6, 7)]%N /\ Nat.odd (snd (pos 0, 1%nat) / Nat.max 1 1) = true /\
  dpw_enforce_ub t 0 = Some (EOk [negl 6; pos 9; pos 8]) /\ dpw_enforce_ub t 3 = Some (EOk [negl 6]) /\
  dpw_enforce_ub t 8 = Some (EOk [negl 25; pos 9; pos 8]) /\ dpw_enforce_ub t 12 = Some (EOk []) /\
  map (dpw_coarse_ub t) [2; 3; 6; 7; 12]%nat = [2; 3; 3; 7; 11]%nat /\ (exists t', dpw_set_precision t 1 = inl t') /\ dpw_set_precision t 2 = inr PrecisionDecreased.
Proof.
  eexists _, _, _. split; [apply (dpw_prun_incr idm idn ex_in 4 4 ex_refine); vm_compute; reflexivity|].
  split; [left; lia|]. repeat (split; [vm_compute; reflexivity|]). split; [eexists; vm_compute; reflexivity|]. vm_compute. reflexivity.
Qed.

(** *** Where C32 fails *)

(** After refining the precision, bounds of an encoded range cannot be enforced if all weights are even: the clauses cover
    the range as if it referred to the coarser precision. *)
Definition ex_even : list (lit * nat) := [(pos 0, 4); (pos 1, 4); (pos 2, 4); (pos 3, 4)]%nat.
Theorem C32_refined_range_refuted : exists w t R r ub, (exists b, dpw_pincr idm idn ex_even 1 b w t R) /\ In r R /\ in_rng ub r /\
  (ub < total_weight ex_even)%nat /\ dpw_enforce_ub t ub = Some ENotEncoded.
Proof.
  eexists _, _, _, (Incl 8%nat, Incl 9%nat), 8%nat.
  split; [apply (dpw_prun_incr idm idn ex_even 4 4 [inl (HUbChange (Incl 0%nat, Incl 0%nat)); inr 1%nat; inl (HUbChange (Incl 8%nat, Incl 9%nat))]); vm_compute; reflexivity|].
  split; [left; reflexivity|]. split; [unfold in_rng; cbn [fst snd]; lia|]. split; [vm_compute; lia|]. vm_compute. reflexivity.
Qed.
Print Assumptions C32_refined_range_refuted.

(** Once something is encoded, precision 0 is accepted but makes the next call to encode panic. *)
Theorem C32_zero_precision_refuted : exists w t R t', dpw_hist idm idn [(pos 0, 1%nat); (pos 1, 2%nat); (pos 2, 3%nat)] 2 w t R /\
  dpw_set_precision t 0 = inl t' /\ step (dpw_enc idn t') w t' (HUbChange (Unb, Unb)) = None.
Proof.
  eexists _, _, _, _. split; [apply (dpw_run_hist idm idn [(pos 0, 1%nat); (pos 1, 2%nat); (pos 2, 3%nat)] 2 3 [HUbChange (Unb, Unb)]); vm_compute; reflexivity|].
  split; [vm_compute; reflexivity|]. vm_compute. reflexivity.
Qed.
Print Assumptions C32_zero_precision_refuted.

(** After refining to a precision at which all weights are even, bounds rounded to coarse ones need two assumptions. *)
Definition ex_two : list (lit * nat) := [(pos 0, 2); (pos 1, 4)]%nat.
Definition ex_two_ops : list pop := [inl (HUbChange (Unb, Unb)); inr 1%nat; inl (HUbChange (Unb, Unb))].
Theorem C32_coarse_ub_refined_refuted : exists w t R ub ls, (exists b, dpw_pincr idm idn ex_two 1 b w t R) /\
  (ub < total_weight ex_two)%nat /\ dpw_enforce_ub t (dpw_coarse_ub t ub) = Some (EOk ls) /\ length ls = 2%nat /\ dpw_coarse_ub t 4 = 3%nat /\ (4 < ub)%nat.
Proof.
  eexists _, _, _, 5%nat, _. split; [apply (dpw_prun_incr idm idn ex_two 2 2 ex_two_ops); vm_compute; reflexivity|].
  split; [vm_compute; lia|]. split; [vm_compute; reflexivity|]. split; [reflexivity|]. split; [vm_compute; reflexivity|lia].
Qed.
Print Assumptions C32_coarse_ub_refined_refuted.

(** After [reserve], bounds that have not been encoded are "enforced" by literals without clauses. *)
Theorem C32_reserved_bound_refuted : exists w t R ub ls a, dpw_hist idm idn [(pos 0, 1%nat); (pos 1, 2%nat)] 1 w t R /\
  dpw_enforce_ub t ub = Some (EOk ls) /\ sat_cnf a (w_all w) = true /\ sat_cube a ls = true /\
  (ub < wsum a [(pos 0, 1%nat); (pos 1, 2%nat)])%nat.
Proof.
  eexists _, _, _, 1%nat, _, (fun v => (v <? 2)%N).
  split; [apply (dpw_run_hist idm idn [(pos 0, 1%nat); (pos 1, 2%nat)] 1 2 [HReserve]); vm_compute; reflexivity|].
  split; [vm_compute; reflexivity|]. split; [vm_compute; reflexivity|]. split; [vm_compute; reflexivity|]. vm_compute. lia.
Qed.
Print Assumptions C32_reserved_bound_refuted.

(** After a second [encode_ub], bounds encoded only by the first one are "enforced" although their clauses are not among
    those of the second. *)
Theorem C32_reencoded_bound_refuted : exists w t R ub ls a, dpw_hist idm idn [(pos 0, 1%nat); (pos 1, 2%nat)] 1 w t R /\
  dpw_enforce_ub t ub = Some (EOk ls) /\ sat_cnf a (w_ub w) = true /\ sat_cube a ls = true /\
  (ub < wsum a [(pos 0, 1%nat); (pos 1, 2%nat)])%nat.
Proof.
  eexists _, _, _, 2%nat, _, (fun v => (v <? 5)%N).
  split; [apply (dpw_run_hist idm idn [(pos 0, 1%nat); (pos 1, 2%nat)] 1 2 [HUb (Unb, Unb); HUb (Unb, Incl 0%nat)]); vm_compute; reflexivity|].
  split; [vm_compute; reflexivity|]. split; [vm_compute; reflexivity|]. split; [vm_compute; reflexivity|]. vm_compute. lia.
Qed.
Print Assumptions C32_reencoded_bound_refuted.

(** Adding the assumptions for two bounds at the same time excludes assignments that meet both bounds. *)
Definition ex_joint : list (lit * nat) := [(pos 0, 1%nat); (pos 1, 4%nat)].
Theorem C32_joint_bounds_refuted : exists w t R ub1 ub2 ls1 ls2 a, (exists b, dpw_pincr idm idn ex_joint 1 b w t R) /\
  dpw_enforce_ub t ub1 = Some (EOk ls1) /\ dpw_enforce_ub t ub2 = Some (EOk ls2) /\
  (wsum a ex_joint <= ub1)%nat /\ (wsum a ex_joint <= ub2)%nat /\
  forall a', (forall v, ~ in_aux (w_aux w) v -> a' v = a v) -> sat_cnf a' (w_all w) = true -> sat_cube a' (ls1 ++ ls2) = false.
Proof.
  eexists _, _, _, 1%nat, 2%nat, _, _, (fun v => (v <? 1)%N).
  split; [apply (dpw_run_incr idm idn ex_joint 1 2 [HUbChange (Unb, Incl 3%nat)]); vm_compute; reflexivity|].
  split; [vm_compute; reflexivity|]. split; [vm_compute; reflexivity|]. split; [vm_compute; lia|]. split; [vm_compute; lia|].
  intros a' Hv.
  assert (H0 : a' 0%N = true /\ a' 1%N = false).
  { split; (rewrite Hv; [reflexivity|]); intros (lo & hi & Hin & Hb); vm_compute in Hin; destruct Hin as [[= <- <-]|[]]; lia. }
  destruct H0 as (H0 & H1). revert H0 H1.
  match goal with |- _ -> _ -> sat_cnf _ ?f = true -> sat_cube _ ?g = false => let f' := eval vm_compute in f in let g' := eval vm_compute in g in
    change f with f'; change g with g' end.
  unfold sat_cnf, sat_clause, sat_cube, lit_true. cbn [forallb existsb lvar lneg]. intros H0 H1. rewrite H0, H1.
  repeat match goal with |- context [a' ?v] => destruct (a' v) end; cbn; congruence.
Qed.
Print Assumptions C32_joint_bounds_refuted.

(** A precision above all weights makes encoding panic. *)
Theorem C32_large_precision_refuted : exists w t R, dpw_hist idm idn [(pos 0, 1%nat); (pos 1, 2%nat)] 4 w t R /\
  step (dpw_enc idn t) w t (HUb (Unb, Unb)) = None.
Proof.
  eexists _, _, _. split; [apply (dpw_run_hist idm idn [(pos 0, 1%nat); (pos 1, 2%nat)] 4 2 []); vm_compute; reflexivity|]. vm_compute. reflexivity.
Qed.
Print Assumptions C32_large_precision_refuted.

(** Without inputs and at a precision above 1, enforcing a bound panics. *)
Theorem C32_empty_precision_refuted : exists w t R, dpw_hist idm idn [] 2 w t R /\ forall ub, dpw_enforce_ub t ub = None.
Proof.
  eexists _, _, _. split; [apply (dpw_run_hist idm idn [] 2 0 []); vm_compute; reflexivity|]. intros ub. destruct ub; vm_compute; reflexivity.
Qed.
Print Assumptions C32_empty_precision_refuted.

(** With a single input the bound is not compared with the divided weight, so that allowed assignments are excluded. *)
Theorem C32_single_precision_refuted : exists w t R ub ls a, dpw_hist idm idn [(pos 0, 4%nat)] 4 w t R /\
  dpw_enforce_ub t ub = Some (EOk ls) /\ (wsum a (scaled 4 [(pos 0, 4%nat)]) <= ub)%nat /\
  forall a', (forall v, ~ in_aux (w_aux w) v -> a' v = a v) -> sat_cube a' ls = false.
Proof.
  eexists _, _, _, 1%nat, _, (fun _ => true). split; [apply (dpw_run_hist idm idn [(pos 0, 4%nat)] 4 1 [HUb (Unb, Unb)]); vm_compute; reflexivity|].
  split; [vm_compute; reflexivity|]. split; [vm_compute; lia|]. intros a' Hv. cbn. rewrite Hv; [reflexivity|].
  intros (lo & hi & Hin & Hb). vm_compute in Hin. destruct Hin as [[= <- <-]|[]]; lia.
Qed.
Print Assumptions C32_single_precision_refuted.

(** ** C62 *)

(** At full precision, limiting the outputs to a range keeps every assignment whose weighted sum is in the range, together
    with the assumptions for every bound in the range that it meets, as long as the bound is below the sum of weights. This
    holds if the precision was never changed, or if some weight is odd. *)
Theorem C62_limit_range_keeps_partial : forall ord srt m, iter_order ord -> sort_order srt -> inputs_ok m ->
  forall d w t R r, (d <= 1)%nat ->
  dpw_hist ord srt m d w t R \/ (dpw_phist ord srt m d w t R /\ exists x, In x m /\ Nat.odd (snd x / Nat.max d 1) = true) ->
  dpw_is_max_precision t = true ->
  exists hs, dpw_limit_range t r = Some hs /\
  forall ub ls a, dpw_enforce_ub t ub = Some (EOk ls) -> in_rng (wsum a m) r -> (wsum a m <= ub)%nat -> in_rng ub r -> (ub < total_weight m)%nat ->
  exists a', (forall v, ~ in_aux (w_aux w) v -> a' v = a v) /\ sat_cnf a' (w_all w) = true /\ sat_cube a' ls = true /\ sat_cnf a' hs = true.
Proof.
  intros ord srt m Ho Hs Hm d w t R r Hd H Hq. destruct (hist_cur ord Ho srt Hs m Hm d w t R H) as (I & C).
  destruct (limit_total m d w t R r I Hq) as (hs & E). exists hs. split; [auto|]. intros. eapply limit_keeps; eauto.
Qed.
Print Assumptions C62_limit_range_keeps_partial.

(** after refining the precision of the inputs of [C32_refine_ex] *)
Example C62_refine_ex : exists w t R, dpw_phist idm idn ex_in 1 w t R /\ Nat.odd (snd (pos 0, 1%nat) / Nat.max 1 1) = true /\ dpw_is_max_precision t = true /\
  exists hs, dpw_limit_range t (Incl 5%nat, Excl 8%nat) = Some hs /\ hs <> [].
Proof.
  eexists _, _, _. split; [apply (dpw_prun_hist idm idn ex_in 4 4 ex_refine); vm_compute; reflexivity|].
  split; [reflexivity|]. split; [vm_compute; reflexivity|]. eexists. split; [vm_compute; reflexivity|discriminate].
Qed.

Example C62_limit_range_ex : exists w t R, dpw_hist idm idn ex_in 1 w t R /\ dpw_is_max_precision t = true /\
  dpw_limit_range t (Incl 5%nat, Excl 8%nat) = Some [[pos 16]; [negl 21]; [negl 22]] /\
  dpw_enforce_ub t 6 = Some (EOk [negl 21; pos 4]) /\ total_weight ex_in = 12%nat /\
  exists a, wsum a ex_in = 5%nat.
Proof.
  eexists _, _, _. split; [apply (dpw_run_hist idm idn ex_in 1 4 [HUb (Unb, Unb)]); vm_compute; reflexivity|].
  split; [reflexivity|]. split; [vm_compute; reflexivity|]. split; [vm_compute; reflexivity|]. split; [reflexivity|]. exists (fun v => (v =? 2)%N). reflexivity.
Qed.

(** The range is cut off below the sum of the weights, so that limiting to all values excludes an assignment. *)
Theorem C62_full_range_refuted : exists w t R hs a, dpw_hist idm idn [(pos 0, 1%nat); (pos 1, 1%nat)] 1 w t R /\
  dpw_limit_range t (Unb, Unb) = Some hs /\
  forall a', (forall v, ~ in_aux (w_aux w) v -> a' v = a v) -> sat_cnf a' (w_all w ++ hs) = false.
Proof.
  eexists _, _, _, _, (fun _ => true). split; [apply (dpw_run_hist idm idn [(pos 0, 1%nat); (pos 1, 1%nat)] 1 2 [HUb (Unb, Unb)]); vm_compute; reflexivity|].
  split; [vm_compute; reflexivity|]. intros a' Hv.
  assert (H0 : a' 0%N = true /\ a' 1%N = true).
  { split; (rewrite Hv; [reflexivity|]); intros (lo & hi & Hin & Hb); vm_compute in Hin; destruct Hin as [[= <- <-]|[]]; lia. }
  destruct H0 as (H0 & H1). match goal with |- sat_cnf _ ?f = false => let f' := eval vm_compute in f in change f with f' end.
  unfold sat_cnf, sat_clause, lit_true. cbn [forallb existsb lvar lneg]. rewrite H0, H1.
  repeat match goal with |- context [a' ?v] => destruct (a' v) end; reflexivity.
Qed.
Print Assumptions C62_full_range_refuted.

(** Below the maximum precision, limiting the range forces inputs that need not be set. *)
Theorem C62_lower_precision_refuted : exists w t R hs a, dpw_hist idm idn [(pos 0, 4%nat); (pos 1, 8%nat); (pos 2, 5%nat)] 4 w t R /\
  dpw_limit_range t (Incl 8%nat, Unb) = Some hs /\ wsum a [(pos 0, 4%nat); (pos 1, 8%nat); (pos 2, 5%nat)] = 9%nat /\
  forall a', (forall v, ~ in_aux (w_aux w) v -> a' v = a v) -> sat_cnf a' hs = false.
Proof.
  eexists _, _, _, _, (fun v => negb (v =? 1)%N).
  split; [apply (dpw_run_hist idm idn [(pos 0, 4%nat); (pos 1, 8%nat); (pos 2, 5%nat)] 4 3 [HUb (Unb, Unb)]); vm_compute; reflexivity|].
  split; [vm_compute; reflexivity|]. split; [reflexivity|]. intros a' Hv.
  assert (H1 : a' 1%N = false). { rewrite Hv; [reflexivity|]. intros (lo & hi & Hin & Hb); vm_compute in Hin; destruct Hin as [[= <- <-]|[]]; lia. }
  match goal with |- sat_cnf _ ?f = false => let f' := eval vm_compute in f in change f with f' end.
  unfold sat_cnf, sat_clause, lit_true. cbn [forallb existsb lvar lneg]. rewrite H1.
  repeat match goal with |- context [a' ?v] => destruct (a' v) end; reflexivity.
Qed.
Print Assumptions C62_lower_precision_refuted.

(** At the maximum precision but with a divisor above 1, the range is not divided by it: the assignment of sum 4 meets the
    range and the bound (1 after dividing) but is excluded. *)
Theorem C62_divisor_refuted : exists w t R hs ls a, dpw_hist idm idn [(pos 0, 4%nat); (pos 1, 8%nat)] 4 w t R /\ dpw_is_max_precision t = true /\
  dpw_limit_range t (Incl 4%nat, Excl 12%nat) = Some hs /\ dpw_enforce_ub t 1 = Some (EOk ls) /\
  wsum a [(pos 0, 4%nat); (pos 1, 8%nat)] = 4%nat /\ wsum a (scaled 4 [(pos 0, 4%nat); (pos 1, 8%nat)]) = 1%nat /\
  forall a', sat_cnf a' hs = true -> sat_cube a' ls = false.
Proof.
  eexists _, _, _, _, _, (fun v => (v =? 0)%N).
  split; [apply (dpw_run_hist idm idn [(pos 0, 4%nat); (pos 1, 8%nat)] 4 2 [HUb (Unb, Unb)]); vm_compute; reflexivity|].
  split; [reflexivity|]. split; [vm_compute; reflexivity|]. split; [vm_compute; reflexivity|]. split; [reflexivity|]. split; [reflexivity|].
  intros a'. unfold sat_cnf, sat_cube, sat_clause, lit_true. cbn [forallb existsb lvar lneg]. 
  repeat match goal with |- context [a' ?v] => destruct (a' v) end; cbn; congruence.
Qed.
Print Assumptions C62_divisor_refuted.

(** After refining the precision, limiting the range excludes an assignment in it together with a bound it meets if all
    weights are even. *)
Theorem C62_refined_refuted : exists w t R hs ub ls a, (exists b, dpw_pincr idm idn ex_two 1 b w t R) /\ dpw_is_max_precision t = true /\
  dpw_limit_range t (Incl 2%nat, Incl 3%nat) = Some hs /\ dpw_enforce_ub t ub = Some (EOk ls) /\ in_rng (wsum a ex_two) (Incl 2%nat, Incl 3%nat) /\
  (wsum a ex_two <= ub)%nat /\ in_rng ub (Incl 2%nat, Incl 3%nat) /\ (ub < total_weight ex_two)%nat /\
  forall a', sat_cnf a' hs = true -> sat_cube a' ls = false.
Proof.
  eexists _, _, _, _, 3%nat, _, (fun v => (v =? 0)%N).
  split; [apply (dpw_prun_incr idm idn ex_two 2 2 ex_two_ops); vm_compute; reflexivity|].
  split; [reflexivity|]. split; [vm_compute; reflexivity|]. split; [vm_compute; reflexivity|]. split; [unfold in_rng; change (wsum _ _) with 2%nat; cbn [fst snd]; lia|]. split; [vm_compute; lia|]. split; [unfold in_rng; cbn [fst snd]; lia|]. split; [vm_compute; lia|].
  intros a'. unfold sat_cnf, sat_cube, sat_clause, lit_true. cbn [forallb existsb lvar lneg].
  repeat match goal with |- context [a' ?v] => destruct (a' v) end; cbn; congruence.
Qed.
Print Assumptions C62_refined_refuted.

(** ** C71 *)

(** Assume that a range with a bound below the sum of the weights is encoded at precision [d]. If the encoding says that the
    maximum precision is reached, the weights divided by [d] determine all weighted sums exactly. Otherwise it announces the
    next precision at which there is something new: it is a smaller power of two that is accepted, all powers of two in
    between determine the same sums as [d] does, and at the announced one some weight is known better. *)
Theorem C71_next_precision : forall ord srt m, iter_order ord -> sort_order srt -> inputs_ok m ->
  forall d w t R r ub, dpw_phist ord srt m d w t R -> (2 <= length m)%nat -> In r R -> in_rng ub r -> (ub < total_weight m)%nat ->
  if dpw_is_max_precision t then forall a, wsum a m = (Nat.max d 1 * wsum a (scaled d m))%nat
  else exists k, dpw_next_precision t = (2 ^ k)%nat /\ (2 ^ k < d)%nat /\ (exists t', dpw_set_precision t (2 ^ k) = inl t') /\
    (forall k' a, (2 ^ k < 2 ^ k' <= d)%nat -> wsum a (scaled (2 ^ k') m) = (d / 2 ^ k' * wsum a (scaled d m))%nat) /\
    exists x, In x m /\ (d / 2 ^ k * (snd x / d) < snd x / 2 ^ k)%nat.
Proof. exact announced. Qed.
Print Assumptions C71_next_precision.

Example C71_next_precision_ex : exists w t R, dpw_phist idm idn ex_in 4 w t R /\ R = [(Unb, Excl 5%nat)] /\ dpw_is_max_precision t = false /\ dpw_next_precision t = 2%nat.
Proof.
  eexists _, _, _. split; [apply (dpw_prun_hist idm idn ex_in 4 4 [inl (HUserVars 2); inl (HUbChange (Unb, Excl 5%nat))]); vm_compute; reflexivity|].
  split; [reflexivity|]. split; vm_compute; reflexivity.
Qed.

(** at precision 8 nothing is new at precision 4 *)
Example C71_skip_ex : exists w t R, dpw_phist idm idn [(pos 0, 8%nat); (pos 1, 26%nat)] 8 w t R /\ R = [(Unb, Unb)] /\
  dpw_is_max_precision t = false /\ dpw_next_precision t = 2%nat.
Proof.
  eexists _, _, _. split; [apply (dpw_prun_hist idm idn [(pos 0, 8%nat); (pos 1, 26%nat)] 8 2 [inl (HUbChange (Unb, Unb))]); vm_compute; reflexivity|].
  split; [reflexivity|]. split; vm_compute; reflexivity.
Qed.

(** before anything is encoded, the announced precision need not be smaller than the current one *)
Theorem C71_unencoded_refuted : exists w t R, dpw_phist idm idn ex_in 1 w t R /\ dpw_is_max_precision t = false /\ dpw_next_precision t = 4%nat.
Proof.
  eexists _, _, _. split; [apply (dpw_prun_hist idm idn ex_in 1 4 []); vm_compute; reflexivity|]. split; vm_compute; reflexivity.
Qed.
Print Assumptions C71_unencoded_refuted.

(** ** C72 *)

(** The reported number of clauses is the number of clauses handed out over the whole history. The reported number of
    variables is that of the variables taken from the variable manager if none were reserved, and never above it. *)
Theorem C72_dpw_statistics : forall ord srt m, iter_order ord -> sort_order srt -> inputs_ok m ->
  forall d w t R, dpw_phist ord srt m d w t R -> dp_cls t = length (w_all w) /\ (dp_vars t <= aux_count (w_aux w))%N.
Proof. intros. eapply stats_ok; eauto. Qed.
Print Assumptions C72_dpw_statistics.

Theorem C72_dpw_variables : forall ord srt m, iter_order ord -> sort_order srt -> inputs_ok m ->
  forall d b w t R, dpw_pincr ord srt m d b w t R -> dp_vars t = aux_count (w_aux w).
Proof. intros. eapply stats_incr; eauto. Qed.
Print Assumptions C72_dpw_variables.

Example C72_dpw_ex : exists w t R, (exists b, dpw_pincr idm idn ex_in 1 b w t R) /\ dp_cls t = 29%nat /\ dp_vars t = 19%N.
Proof.
  eexists _, _, _. split; [apply (dpw_prun_incr idm idn ex_in 4 4 ex_refine); vm_compute; reflexivity|]. split; vm_compute; reflexivity.
Qed.

(** reserved variables are not counted *)
Theorem C72_dpw_reserved_refuted : exists w t R, dpw_hist idm idn ex_in 1 w t R /\ dp_vars t = 0%N /\ (1 <= aux_count (w_aux w))%N.
Proof.
  eexists _, _, _. split; [apply (dpw_run_hist idm idn ex_in 1 4 [HReserve]); vm_compute; reflexivity|]. split; [vm_compute; reflexivity|vm_compute; discriminate].
Qed.
Print Assumptions C72_dpw_reserved_refuted.
