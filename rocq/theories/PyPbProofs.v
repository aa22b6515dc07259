(** * Proofs about the generalized totalizer used from Python *)

From Coq Require Import List Bool NArith Arith Lia ZifyBool ZifyNat ZifyN.
From Verif Require Import Spec BoundSpec Types Constraints Maps NodeDb TotDb Totalizer Gte GteProofs SimProofs SimInst ConstrEncProofs Base PySpec PyEnc PyEncProofs PyPb.
Import ListNotations.

Section G.
Context (ord : wmap -> wmap) (Hord : iter_order ord).
Let greach := reachable (gte_enc ord) fst pos_weight ub_only.

Definition gworld (w : world (lit * nat)) (ins : list (lit * nat)) (n : N) (own : list (N * N)) (F : cnf) : Prop :=
  w_in w = ins /\ w_next w = n /\ w_all w = F /\ w_ub w = F /\ forall v, in_aux own v <-> in_aux (w_aux w) v.

Lemma g_change w g ins n own F lo hi g' cs n' : greach w g -> gworld w ins n own F -> pygte_encode_ub ord g lo hi n = Some (g', cs, n') ->
  exists w', step (gte_enc ord) w g (HUbChange (Incl lo, Incl hi)) = Some (w', g') /\ greach w' g' /\ gworld w' ins n' ((n, n') :: own) (F ++ cs).
Proof.
  intros R (Wi & Wn & Wa & Wu & Wx) E. exists (log_call w false false cs n').
  assert (S : step (gte_enc ord) w g (HUbChange (Incl lo, Incl hi)) = Some (log_call w false false cs n', g')).
  { cbn [step gte_enc en_ub_change]. unfold pygte_encode_ub in E. rewrite Wn, E. reflexivity. }
  split; [exact S|]. split; [apply (reach_step _ _ _ _ w g (HUbChange (Incl lo, Incl hi)) _ _ R); [split; exact I|exact S]|].
  unfold log_call, gworld. cbn [w_in w_next w_aux w_all w_ub]. repeat split; try congruence.
  - intros H. apply in_aux_cons in H. apply in_aux_cons. rewrite Wn, <- Wx. exact H.
  - intros H. apply in_aux_cons in H. apply in_aux_cons. rewrite Wn, <- Wx in H. exact H.
Qed.

Lemma pygte_new_extend xs : NoDup (map fst xs) -> pygte_new xs = gte_extend gte_new xs.
Proof.
  intros H. unfold pygte_new, gte_extend, gte_from_iter, gte_from_map, gte_new. cbn [gt_buf gt_root gt_maxw gt_vars gt_cls gt_db].
  rewrite (map_collect_nodup xs H), (map_adds_nodup xs [] H). reflexivity.
Qed.

Lemma g_hist_reach ins n own F g : g_hist ord ins n own F g -> exists w, greach w g /\ gworld w ins n own F.
Proof.
  intros H. induction H as [xs n D V|ins n own F g c g' cs n' H IH V E].
  - eexists. split.
    + eapply reach_step with (op := HExtend xs).
      * eapply reach_step with (op := HUserVars n); [apply reach_init|split; exact I|reflexivity].
      * split; [exact I|]. cbn [w_next w_aux world0]. intros x Hx. destruct (V x Hx) as [V1 V2]. split; [exact V1|]. split; [lia|]. intros (? & ? & [] & _).
      * cbn [step gte_enc en_extend en_init]. rewrite (pygte_new_extend xs D). reflexivity.
    + unfold gworld. cbn [w_in w_next w_aux w_all w_ub world0 app]. repeat split; auto.
  - destruct IH as (w & R & W). pose proof W as (Wi & Wn & Wa & Wu & Wx).
    destruct c as [xs|k|lo hi]; cbn [pygte_call g_inputs g_own app] in *.
    + injection E as <- <- <-. eexists. split.
      * eapply reach_step with (op := HExtend xs); [exact R| |reflexivity]. split; [exact I|]. intros x Hx. destruct (V x Hx) as (V1 & V2 & V3). split; [exact V1|]. split; [lia|rewrite <- Wx; exact V3].
      * unfold gworld. cbn [w_in w_next w_aux w_all w_ub]. rewrite app_nil_r. repeat split; try congruence; apply Wx.
    + injection E as <- <- <-. eexists. split.
      * eapply reach_step with (op := HUserVars k); [exact R|split; exact I|reflexivity].
      * unfold gworld. cbn [w_in w_next w_aux w_all w_ub]. rewrite !app_nil_r. repeat split; try congruence; apply Wx.
    + destruct (g_change _ _ _ _ _ _ _ _ _ _ _ R W E) as (w' & _ & R' & W'). exists w'. rewrite app_nil_r. split; assumption.
Qed.

Lemma gub_ok g b ls : pygte_enforce_ub ord g b = PyOne ls <-> gte_enforce_ub ord g b = Some (EOk ls).
Proof. unfold pygte_enforce_ub, py_result. destruct (gte_enforce_ub ord g b) as [[| |]|]; split; intros E; try discriminate E; injection E as <-; reflexivity. Qed.

Lemma pygte_sound ins n own F g : g_hist ord ins n own F g -> forall b ls a,
  pygte_enforce_ub ord g b = PyOne ls -> sat_cnf a F = true -> sat_cube a ls = true -> wsum a ins <= b.
Proof.
  intros H b ls a E SF SL. destruct (g_hist_reach _ _ _ _ _ H) as (w & R & <- & Wn & Wa & Wu & Wx). apply gub_ok in E.
  apply (uc_sound _ _ _ _ _ _ (gte_upper ord Hord) w g b ls a R E); congruence.
Qed.

Lemma pygte_complete ins n own F g : g_hist ord ins n own F g -> forall a, exists a',
  (forall v, ~ in_aux own v -> a' v = a v) /\ sat_cnf a' F = true /\
  forall b ls, pygte_enforce_ub ord g b = PyOne ls -> wsum a ins <= b -> sat_cube a' ls = true.
Proof.
  intros H a. destruct (g_hist_reach _ _ _ _ _ H) as (w & R & <- & Wn & Wa & Wu & Wx).
  destruct (uc_complete _ _ _ _ _ _ (gte_upper ord Hord) w g a R) as (a' & A1 & A2 & A3 & _). exists a'. split; [intros v Hv; apply A1; rewrite <- Wx; exact Hv|]. split; [congruence|].
  intros b ls E B. apply gub_ok in E. exact (A3 _ _ E B).
Qed.

Lemma pygte_errors ins n own F g : g_hist ord ins n own F g ->
  (forall c, g_valid n own c -> pygte_call ord g n c <> None) /\
  forall b, pygte_enforce_ub ord g b = PyRuntimeError /\ b < total_weight ins \/ exists ls, pygte_enforce_ub ord g b = PyOne ls.
Proof.
  intros H. destruct (g_hist_reach _ _ _ _ _ H) as (w & R & <- & Wn & Wa & Wu & Wx). split.
  - intros c V E. destruct c as [xs|k|lo hi]; cbn [pygte_call] in E; try discriminate E.
    apply (gte_no_panic ord Hord w g (HUbChange (Incl lo, Incl hi)) R); [split; exact I|]. cbn [step gte_enc en_ub_change]. unfold pygte_encode_ub in E. rewrite Wn, E. reflexivity.
  - intros b. pose proof (proj1 (uc_enforce _ _ _ _ _ _ (gte_upper ord Hord) w g R) b) as T. pose proof (proj2 (uc_unsat _ _ _ _ _ _ (gte_upper ord Hord) w g b R)) as U.
    pose proof (fun L => uc_trivial _ _ _ _ _ _ (gte_upper ord Hord) w g b R L) as V. cbn [gte_enc en_enforce_ub] in T, U, V.
    unfold pygte_enforce_ub, py_result. destruct (gte_enforce_ub ord g b) as [[ls| |]|]; try congruence; [right; exists ls; reflexivity|].
    left. split; [reflexivity|]. destruct (Nat.lt_ge_cases b (total_weight (w_in w))) as [L|L]; [exact L|]. destruct (V L) as (ls & E). discriminate E.
Qed.

Lemma pygte_encode ins n own F g : g_hist ord ins n own F g -> forall lo hi g' cs n' b, pygte_encode_ub ord g lo hi n = Some (g', cs, n') -> lo <= b <= hi ->
  exists ls, pygte_enforce_ub ord g' b = PyOne ls.
Proof.
  intros H lo hi g' cs n' b E B. destruct (g_hist_reach _ _ _ _ _ H) as (w & R & W). destruct (g_change _ _ _ _ _ _ _ _ _ _ _ R W E) as (w' & S & _).
  destruct (uc_encodes_change _ _ _ _ _ _ (gte_upper ord Hord) w g (Incl lo, Incl hi) w' g' b R) as (ls & G); [split; exact I|exact S|exact B|]. exists ls. apply gub_ok. exact G.
Qed.

Lemma pygte_local ins n own F g : g_hist ord ins n own F g ->
  forall c l, In c F -> In l c -> (exists x, In x ins /\ lvar (fst x) = lvar l) \/ in_aux own (lvar l).
Proof.
  intros H c l Hc Hl. destruct (g_hist_reach _ _ _ _ _ H) as (w & R & <- & Wn & Wa & Wu & Wx). subst F.
  destruct (uc_clauses _ _ _ _ _ _ (gte_upper ord Hord) w g c l R Hc Hl) as [G|G]; [left; exact G|right; apply Wx; exact G].
Qed.
End G.
