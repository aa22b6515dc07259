(** * The dynamic polynomial watchdog: bounds, hardening, histories *)

From Coq Require Import List Bool NArith ZArith Lia Arith Sorted Permutation.
From Coq Require Import ZifyBool ZifyNat ZifyN.
From Verif Require Import Spec BoundSpec Types Atomics NodeDb TreeSpec TotDb Totalizer Maps Base TotDbInv TotDbUnit TotDbDefine TotDbGeneral TotDbBuild TotDbGrow TotDbMerge TotWeighted TotDbHist TotalizerProofs DbWorld Dpw DpwSpec DpwRef DpwBuild DpwBuckets DpwStruct DpwIf DpwInv DpwExtend DpwChain DpwLink DpwSem DpwMerge DpwHist.
Import ListNotations.

Definition set_bits (tares L : list lit) (a : asg) : asg :=
  fun v => if existsb (fun t => N.eqb (lvar t) v) tares then existsb (fun t => N.eqb (lvar t) v) L else a v.

(** ** Hardening *)
Lemma harden_ok (sgn : lit -> lit) ns id n vals : nth_error ns id = Some n -> is_unitlike n -> (forall v, In v vals -> 1 <= v <= node_max_val n)%nat ->
  exists cs, harden sgn n vals = Some cs /\ forall c, In c cs -> exists v l, In v vals /\ c = [sgn l] /\ lit_at ns id v l.
Proof.
  intros Hn U Hv. unfold harden.
  assert (K : exists os, mapM (node_lit n) vals = Some os /\ forall l, In (Some l) os -> exists v, In v vals /\ lit_at ns id v l).
  { induction vals as [|v vals IH]; cbn [mapM]; [exists []; split; [auto|intros l []]|].
    destruct IH as (os & E & K); [intros; apply Hv; now right|].
    destruct (node_lit_at ns id n v Hn U ltac:(apply Hv; now left)) as [(l & El & Hl)|(El & _)]; rewrite El; cbn [obind]; rewrite E; cbn [obind]; eexists; (split; [reflexivity|]).
    - intros l' [[= <-]|H]; [exists v; split; [now left|auto]|]. destruct (K _ H) as (v' & H1 & H2). exists v'. split; [now right|auto].
    - intros l' [[=]|H]. destruct (K _ H) as (v' & H1 & H2). exists v'. split; [now right|auto]. }
  destruct K as (os & E & K). rewrite E. cbn [obind]. eexists. split; [reflexivity|]. intros c Hc. apply in_flat_map in Hc as ([l|] & Ho & Hc); [|destruct Hc].
  destruct Hc as [<-|[]]. destruct (K _ Ho) as (v & H1 & H2). eauto.
Qed.

Lemma node_vals_bounds n lo hi v : is_unitlike n -> In v (node_vals n lo hi) -> (1 <= v <= node_max_val n /\ lo <= v /\ match hi with Some h => v < h | None => True end)%nat.
Proof.
  intros U. destruct n as [l|lits l r|?|]; cbn in U; try tauto; cbn [node_vals node_max_val].
  - destruct (_ && _) eqn:E; [|intros []]. intros [<-|[]]. destruct hi; lia.
  - intros H. apply in_range_excl in H. destruct hi; lia.
Qed.

Lemma div_ceil_spec a b : (1 <= b)%nat -> (a <= div_ceil a b * b /\ (forall k, a <= k * b -> div_ceil a b <= k))%nat.
Proof.
  intros Hb. unfold div_ceil. pose proof (Nat.div_mod_eq a b). pose proof (Nat.mod_upper_bound a b ltac:(lia)).
  destruct (Nat.eqb_spec (a mod b) 0) as [E|E]; (split; [nia|]); intros k Hk.
  - rewrite Nat.add_0_r. apply Nat.div_le_upper_bound; nia.
  - apply Nat.nlt_ge. intros K. assert (k * b <= a / b * b)%nat by (apply Nat.mul_le_mono_r; lia). lia.
Qed.

Section Dpw.
Context (ord : wmap -> wmap) (Hord : iter_order ord).
Context (srt : list node -> list nodecon -> list nodecon) (Hsrt : forall ns l, Permutation (srt ns l) l).
Context (m : list (lit * nat)) (Hm : inputs_ok m).

(** ** Histories *)
Lemma phist_inv d w t R : dpw_phist ord srt m d w t R -> pinv m d w t R.
Proof.
  intros H. induction H as [d next t0 t Hn E0 Et|d w t R op w' t' H IH Hop Es|d w t R d' t' H IH Hd Et].
  - destruct (start_ok ord Hord m Hm next d Hn) as (t0' & E0' & _ & K). rewrite E0 in E0'. injection E0' as <-. now apply K.
  - exact (proj1 (step_inv srt Hsrt m Hm d w t R op w' t' IH Hop Es)).
  - exact (pinv_prec m d w t R d' t' IH Et (fun _ => Hd)).
Qed.

Lemma hist_inv d w t R : dpw_hist ord srt m d w t R -> pinv m d w t R /\ current t.
Proof.
  intros H. induction H as [next t0 t Hn E0 Et|w t R op w' t' H IH Hop Es].
  - destruct (start_ok ord Hord m Hm next d Hn) as (t0' & E0' & _ & K). rewrite E0 in E0'. injection E0' as <-. destruct (K t Et) as (I & E). split; [auto|]. intros st Hst. congruence.
  - destruct IH as (I & C). destruct (step_inv srt Hsrt m Hm d w t R op w' t' I Hop Es) as (I' & C'). auto.
Qed.
Lemma hist_phist d w t R : dpw_hist ord srt m d w t R -> dpw_phist ord srt m d w t R.
Proof. induction 1; [econstructor; eauto|eapply ph_step; eauto]. Qed.

(** ** Histories in which every literal of an output comes with its clauses *)
Lemma change_inv d w t R r t' cs next' : pinv m d w t R -> dpw_encode_ub_change srt t r (w_next w) = Some (t', cs, next') ->
  pinv m d (log_call w false false cs next') t' (r :: R) /\ (sem_ok t -> sem_ok t').
Proof.
  intros I E. destruct (dp_struct t) as [st|] eqn:Es; [|destruct (precision_dec m d) as [P|P]; [|destruct (le_dec (length m) 1) as [L|L]]].
  - destruct (change_case srt Hsrt m Hm d w t R r I ltac:(congruence)) as (t2 & cs2 & n2 & E2 & _ & I2 & S2 & _). rewrite E in E2. injection E2 as <- <- <-. auto.
  - destruct (change_case srt Hsrt m Hm d w t R r I ltac:(auto)) as (t2 & cs2 & n2 & E2 & _ & I2 & S2 & _). rewrite E in E2. injection E2 as <- <- <-. auto.
  - destruct (change_case srt Hsrt m Hm d w t R r I ltac:(auto)) as (t2 & cs2 & n2 & E2 & _ & I2 & S2 & _). rewrite E in E2. injection E2 as <- <- <-. auto.
  - assert (Est : step (dpw_enc srt t) w t (HUbChange r) = Some (log_call w false false cs next', t')) by (cbn [step dpw_enc en_ub_change encode_step]; rewrite E; reflexivity).
    destruct (bad_precision srt Hsrt m d w t R (HUbChange r) _ t' I Es P ltac:(lia) Logic.I Est) as (I2 & E2). split; [exact I2|]. intros _ st Hst. congruence.
Qed.

Lemma set_precision_struct t d t' : dpw_set_precision t d = inl t' -> dp_struct t' = dp_struct t /\ dp_db t' = dp_db t.
Proof. unfold dpw_set_precision. destruct (negb _); [discriminate|]. destruct (_ && _); [discriminate|]. intros [= <-]. auto. Qed.

Lemma pincr_inv d b w t R : dpw_pincr ord srt m d b w t R -> pinv m d w t R /\ sem_ok t /\ (b = false -> dp_struct t = None).
Proof.
  intros H. induction H as [d next t0 t Hn E0 Et|d b w t R k H IH|d b w t R r w' t' H IH Es|d w t R r w' t' H IH Es|d b w t R d' t' H IH Hd Et].
  - destruct (start_ok ord Hord m Hm next d Hn) as (t0' & E0' & _ & K). rewrite E0 in E0'. injection E0' as <-. destruct (K t Et) as (I & E). split; [auto|]. split; [|auto]. intros st Hst. congruence.
  - destruct IH as (I & S & N). split; [now apply pinv_user|auto].
  - destruct IH as (I & S & N). cbn [step dpw_enc en_ub_change encode_step] in Es. destruct (dpw_encode_ub_change srt t r (w_next w)) as [((t2 & cs) & n)|] eqn:E; [|discriminate]. injection Es as <- <-.
    destruct (change_inv d w t R r t2 cs n I E) as (I2 & S2). split; [exact I2|]. split; [auto|discriminate].
  - destruct IH as (I & S & N). specialize (N eq_refl).
    assert (S0 : sem_ok (dpw_reset t)) by (intros st Hst; unfold dpw_reset in Hst; cbn [dp_struct] in Hst; congruence).
    cbn [step dpw_enc en_ub encode_step] in Es. unfold dpw_encode_ub in Es. destruct (dpw_encode_ub_change srt (dpw_reset t) r (w_next w)) as [((t2 & cs) & n)|] eqn:E; [|discriminate]. injection Es as <- <-.
    destruct (change_inv d _ _ _ r t2 cs n (pinv_reset m d w t R I) E) as (I2 & S2). split; [exact I2|]. split; [auto|discriminate].
  - destruct IH as (I & S & N). destruct (set_precision_struct _ _ _ Et) as (E1 & E2). split; [exact (pinv_prec m d w t R d' t' I Et (fun _ => Hd))|]. split.
    + intros st Hst. rewrite E2. rewrite E1 in Hst. eauto.
    + intros Hb. rewrite E1. auto.
Qed.
Lemma pincr_phist d b w t R : dpw_pincr ord srt m d b w t R -> dpw_phist ord srt m d w t R.
Proof.
  induction 1 as [d next t0 t Hn E0 Et|d b w t R k H IH|d b w t R r w' t' H IH Es|d w t R r w' t' H IH Es|d b w t R d' t' H IH Hd Et].
  - econstructor; eauto.
  - change R with (ranges_after R (HUserVars k)). eapply ph_step; [exact IH|exact Logic.I|reflexivity].
  - change (r :: R) with (ranges_after R (HUbChange r)). eapply ph_step; [exact IH|exact Logic.I|exact Es].
  - change [r] with (ranges_after R (HUb r)). eapply ph_step; [exact IH|exact Logic.I|exact Es].
  - eapply ph_prec; eauto.
Qed.

(** ** Enforcing bounds *)
Definition within (d : nat) (a : asg) (ub : nat) : Prop := (wsum a (scaled d m) <= ub)%nat.

Lemma scaled_one d : (d <= 1)%nat -> scaled d m = m.
Proof. intros H. unfold scaled. replace (Nat.max d 1) with 1%nat by lia. rewrite <- map_id. apply map_ext. intros (l & x). cbn [fst snd]. now rewrite Nat.div_1_r. Qed.

Lemma tare_vars w wv b st g ow : mid m w wv b st g ow (w_next w) [] -> forall t0, In t0 (sr_tares st) -> in_aux (w_aux w) (lvar t0) /\ ~ in_aux (w_aux wv) (lvar t0) /\ lneg t0 = false.
Proof.
  intros M t0 Ht. destruct (md_tares _ _ _ _ _ _ _ _ _ M t0 Ht) as (H1 & H2). pose proof (md_next _ _ _ _ _ _ _ _ _ M) as Hn.
  split; [destruct H2 as [H2|H2]; [auto|lia]|]. split; [|auto]. destruct (md_tin _ _ _ _ _ _ _ _ _ M t0 Ht) as (x & Hx & <-). apply (md_lits _ _ _ _ _ _ _ _ _ M x Hx).
Qed.

Lemma set_bits_sum d w t R wv b st g ow L a s : pinv m d w t R -> mid m w wv b st g ow (w_next w) [] -> wsum (set_bits (sr_tares st) L a) (sc m s) = wsum a (sc m s).
Proof.
  intros I M. apply wsum_agree. intros l x Hl. unfold sc in Hl. apply in_map_iff in Hl as (y & [= <- <-] & Hy). unfold set_bits.
  replace (existsb _ (sr_tares st)) with false; [reflexivity|]. symmetry. apply not_true_is_false. intros Hx. apply existsb_exists in Hx as (t0 & Ht & Hx).
  apply N.eqb_eq in Hx. destruct (tare_vars _ _ _ _ _ _ M t0 Ht) as (K & _). rewrite Hx in K. destruct (pv_lits _ _ _ _ _ I y Hy) as (_ & K'). auto.
Qed.

Lemma within_shift d s s0 g b st q a ub : vals m g b st q s0 -> prec_ok d s -> (s <= s0)%nat -> (forall e, In e q -> (fst e < d)%nat) ->
  within d a ub <-> (wsum a (sc m s0) <= ub / 2 ^ shift st d)%nat.
Proof.
  intros V HP Hs Hq. unfold within. rewrite (scaled_pow _ _ m HP). fold (sc m s). destruct (vals_sum m g b st q s0 s d V Hs HP Hq) as (H & _). rewrite H.
  rewrite (shift_ok st d s s0 HP (vl_prec _ _ _ _ _ _ V)). pose proof (pow2_pos (s0 - s)) as P. generalize dependent (2 ^ (s0 - s))%nat. intros K _ P. generalize (wsum a (sc m s0)). intros x. split; intros Hx.
  - apply Nat.div_le_lower_bound; lia.
  - pose proof (Nat.mul_div_le ub K ltac:(lia)). nia.
Qed.

Definition must_not (t : dpw) (d : nat) : Prop := forall e, In e (dp_queue t) -> (fst e < d)%nat.
Lemma must_extend_spec d t ns : qok ns (dp_queue t) -> dp_prec t = d -> must_extend t = false <-> must_not t d.
Proof.
  intros Q Hp. unfold must_extend, must_not. rewrite Hp. pose proof (qk_sorted _ _ Q) as Hs. destruct (dp_queue t) as [|(k & cs) q]; [split; [intros _ e []|auto]|].
  apply StronglySorted_inv in Hs as (_ & F). rewrite Forall_forall in F. split.
  - intros E e [<-|He]; [cbn [fst]; lia|]. specialize (F _ He). cbn [fst] in F. lia.
  - intros H. specialize (H _ (or_introl eq_refl)). cbn [fst] in H. lia.
Qed.

Lemma enforce_cases d w t R st g ow wv s s0 ub : pinv m d w t R -> dp_struct t = Some st -> prec_ok d s -> vals m g (dp_db t) st (dp_queue t) s0 -> (d <= sr_prec st)%nat -> mid m w wv (dp_db t) st g ow (w_next w) [] ->
  let ub' := (ub / 2 ^ shift st d)%nat in
  (dpw_enforce_ub t ub = Some (EOk []) /\ forall a, within d a ub) \/
  (dpw_enforce_ub t ub = Some ENotEncoded /\ (d <= 1 -> ub < total_weight m)%nat /\ (must_not t d -> ~ has_out (d_nodes (dp_db t)) st ub')) \/
  (must_not t d /\ exists root rest o L, sr_bottoms st = root :: rest /\ dpw_enforce_ub t ub = Some (EOk (neg o :: L)) /\ lit_at (d_nodes (dp_db t)) root (ub' / 2 ^ sr_power st + 1) o /\
     (forall l, In l L -> In l (sr_tares st)) /\
     (forall a, sat_cube a L = true -> (gV g a root < ub' / 2 ^ sr_power st + 1)%nat -> within d a ub) /\
     (forall a, within d a ub -> (gV g (set_bits (sr_tares st) L a) root < ub' / 2 ^ sr_power st + 1)%nat)).
Proof.
  intros I Es HP V Hle M ub'. unfold dpw_enforce_ub. rewrite (pv_sum _ _ _ _ _ I), (pv_prec _ _ _ _ _ I), Es.
  assert (Hs : (s <= s0)%nat) by exact (prec_mono _ _ _ _ HP (vl_prec _ _ _ _ _ _ V) Hle).
  destruct ((total_weight m <=? ub)%nat && (d <=? 1)%nat) eqn:E0.
  { left. split; [reflexivity|]. intros a. unfold within. rewrite scaled_one by lia. pose proof (wsum_le a m). lia. }
  pose proof (must_extend_spec d t _ (vl_q _ _ _ _ _ _ V) (pv_prec _ _ _ _ _ I)) as Hme. destruct (must_extend t) eqn:Em.
  { right. left. split; [reflexivity|]. split; [lia|]. intros H. apply Hme in H. discriminate. }
  assert (Hq : must_not t d) by (apply Hme; reflexivity). clear Hme.
  assert (Hwi : forall a, within d a ub <-> (wsum a (sc m s0) <= ub')%nat) by (intros a; exact (within_shift d s s0 g (dp_db t) st _ a ub V HP Hs Hq)).
  replace (d <=? sr_prec st)%nat with true by lia. cbn [assertb obind]. fold (shift st d). fold ub'. unfold enforce_structure, sr_root.
  destruct (vl_shape _ _ _ _ _ _ V) as (root & rest & k & nb & A1 & A2 & A3 & A4 & A5 & A6 & A7 & A8). rewrite A1. cbn [nth_error obind]. rewrite A2. cbn [obind].
  set (p := sr_power st) in *. pose proof (pow2_pos p) as Pp. clearbody ub'.
  destruct (Nat.leb_spec (node_max_val nb) (ub' / 2 ^ p)) as [L|L].
  { left. split; [reflexivity|]. intros a. apply Hwi. pose proof (wsum_le a (sc m s0)) as Hw. rewrite A8 in L. pose proof (bound_max _ k p ub' A4 A6 L). lia. }
  right. destruct (node_lit_at (d_nodes (dp_db t)) root nb (ub' / 2 ^ p + 1) A2 A3 ltac:(split; [apply Nat.le_add_l|rewrite Nat.add_1_r; exact L])) as [(o & Eo & Ho)|(Eo & Ho)]; rewrite Eo; cbn [obind].
  2:{ left. split; [reflexivity|]. split; [lia|]. intros _ K. destruct (K root rest nb A1 A2 L) as (l & Hl). apply (Ho l). eapply lit_has_at; eauto. }
  right. split; [auto|]. set (M0 := ((ub' / 2 ^ p + 1) * 2 ^ p - 1)%nat).
  assert (HM : (ub' <= M0 < ub' + 2 ^ p)%nat).
  { unfold M0. pose proof (Nat.div_mod_eq ub' (2 ^ p)). pose proof (Nat.mod_upper_bound ub' (2 ^ p) ltac:(lia)). nia. }
  assert (Lt : length (sr_tares st) = p) by reflexivity.
  destruct (set_tares_ok (sr_tares st) p ub' M0 ltac:(lia) HM) as (Ls & sel & E1 & H01 & HL & Hv). rewrite E1. cbn [obind fst snd]. rewrite Nat.eqb_refl. cbn [assertb obind].
  exists root, rest, o, Ls. split; [auto|]. split; [reflexivity|]. split; [exact Ho|].
  assert (HLs : forall l, In l Ls -> In l (sr_tares st)).
  { intros l Hl. apply HL in Hl as (j & _ & _ & Hj). eapply nth_error_In; eauto. }
  split; [exact HLs|]. specialize (Hv k A4). split.
  - intros a Ha Hlt. rewrite A7 in Hlt. apply Hwi.
    eapply (bound_sound _ (tv (bit a (sr_tares st)) k p) (tv sel k p) k p ub' M0); auto; [apply tv_div| |lia].
    apply tv_mono. intros j Hj. destruct (H01 j ltac:(lia)) as [->|E]; [lia|]. rewrite E. unfold bit.
    destruct (nth_error (sr_tares st) j) as [l|] eqn:El; [|apply nth_error_None in El; lia].
    rewrite sat_cube_true in Ha. rewrite (Ha l); [lia|]. apply HL. exists j. split; [lia|auto].
  - intros a Ha. apply Hwi in Ha. rewrite A7. set (a0 := set_bits (sr_tares st) Ls a).
    assert (E2 : wsum a0 (sc m s0) = wsum a (sc m s0)) by exact (set_bits_sum d w t R wv _ st g ow Ls a s0 I M).
    rewrite E2. apply (bound_complete _ _ p ub' M0); [reflexivity|exact Ha|].
    assert (E3 : tv (bit a0 (sr_tares st)) k p = tv sel k p); [|lia].
    assert (Inj : forall i j li lj, nth_error (sr_tares st) i = Some li -> nth_error (sr_tares st) j = Some lj -> lvar li = lvar lj -> i = j).
    { intros i j li lj Hi Hj E. pose proof (md_nodup _ _ _ _ _ _ _ _ _ M) as Nd. rewrite NoDup_nth_error in Nd. apply Nd; [eapply nth_error_lt; eauto|]. rewrite Hi, Hj. f_equal.
      pose proof (tare_vars _ _ _ _ _ _ M li (nth_error_In _ _ Hi)) as (_ & _ & Ni). pose proof (tare_vars _ _ _ _ _ _ M lj (nth_error_In _ _ Hj)) as (_ & _ & Nj). destruct li, lj. cbn in *. congruence. }
    apply tv_ext. intros j Hj. unfold bit. destruct (nth_error (sr_tares st) j) as [l|] eqn:El; [|apply nth_error_None in El; lia].
    destruct (tare_vars _ _ _ _ _ _ M l (nth_error_In _ _ El)) as (_ & _ & Nl).
    assert (Ht : lit_true a0 l = existsb (fun t => N.eqb (lvar t) (lvar l)) Ls).
    { unfold lit_true. rewrite Nl. unfold a0, set_bits. replace (existsb _ (sr_tares st)) with true; [now destruct (existsb _ Ls)|].
      symmetry. apply existsb_exists. exists l. split; [eapply nth_error_In; eauto|]. apply N.eqb_refl. }
    rewrite Ht. destruct (H01 j ltac:(lia)) as [E|E]; rewrite E.
    + replace (existsb _ Ls) with false; [reflexivity|]. symmetry. apply not_true_is_false. intros Hx. apply existsb_exists in Hx as (t0 & Ht0 & Hx).
      apply HL in Ht0 as (i & Hi & Hse & Hn). apply N.eqb_eq in Hx. assert (i = j) as -> by (eapply Inj; eauto). lia.
    + replace (existsb _ Ls) with true; [reflexivity|]. symmetry. apply existsb_exists. exists l. split; [|apply N.eqb_refl]. apply HL. exists j. split; [lia|auto].
Qed.

(** with at most one input there is no structure *)
Lemma enforce_small d w t R ub : pinv m d w t R -> precision_ok d m -> dp_struct t = None -> (length m <= 1)%nat -> exists ls, dpw_enforce_ub t ub = Some (EOk ls) /\
  (forall a, sat_cube a ls = true <-> within d a ub) /\ (forall l, In l ls -> exists x, In x m /\ lvar (fst x) = lvar l).
Proof.
  intros I Hprec Es H1. unfold dpw_enforce_ub. rewrite (pv_sum _ _ _ _ _ I), (pv_prec _ _ _ _ _ I), Es, (pv_in _ _ _ _ _ I).
  assert (Hp : (d <= 1)%nat) by (destruct Hprec as [H|(H & _)]; lia).
  unfold within. rewrite (scaled_one d Hp). assert (Hw : forall a, (wsum a m <= total_weight m)%nat) by (intros a; apply wsum_le).
  replace (1 <? length m)%nat with false by lia. replace (d <=? 1)%nat with true by lia. rewrite andb_true_r.
  destruct (Nat.leb_spec (total_weight m) ub) as [L|L].
  - exists []. split; [reflexivity|]. split; [|intros l []]. intros a. specialize (Hw a). cbn. split; [lia|reflexivity].
  - pose proof (Hm) as Hpos. unfold inputs_ok in Hpos. destruct m as [|(l & x) [|? ?]] eqn:Em; [cbn in L; lia| |cbn in H1; lia].
    cbn [total_weight] in L. specialize (Hpos (l, x) (or_introl eq_refl)). cbn [snd] in Hpos. exists [neg l]. split.
    + replace (x <=? ub * Nat.min d 1)%nat with false; [reflexivity|]. symmetry. apply Nat.leb_gt. destruct (Nat.min_spec d 1); nia.
    + split; [|intros y [<-|[]]; exists (l, x); split; [now left|destruct l; reflexivity]].
      intros a. cbn [sat_cube forallb wsum]. rewrite lit_true_neg, andb_true_r. destruct (lit_true a l); cbn [negb]; split; try lia; try discriminate; reflexivity.
Qed.

Lemma not_built d w t R ub : pinv m d w t R -> dp_struct t = None -> (2 <= length m)%nat -> 
  (dpw_enforce_ub t ub = Some (EOk []) /\ (d <= 1)%nat /\ forall a, within d a ub) \/ dpw_enforce_ub t ub = Some ENotEncoded /\ ((d <= 1)%nat -> (ub < total_weight m)%nat).
Proof.
  intros I Es H2. unfold dpw_enforce_ub. rewrite (pv_sum _ _ _ _ _ I), (pv_prec _ _ _ _ _ I), Es, (pv_in _ _ _ _ _ I). replace (1 <? length m)%nat with true by lia.
  destruct ((total_weight m <=? ub)%nat && (d <=? 1)%nat) eqn:E0; [left|right; split; [auto|lia]].
  split; [reflexivity|]. split; [lia|]. intros a. unfold within. rewrite scaled_one by lia. pose proof (wsum_le a m) as Hw. lia.
Qed.

(** every bound that is enforced keeps the assignments that meet it *)
Lemma enforce_complete d w t R ub ls a : pinv m d w t R -> precision_ok d m -> dpw_enforce_ub t ub = Some (EOk ls) -> within d a ub ->
  exists a', (forall v, ~ in_aux (w_aux w) v -> a' v = a v) /\ sat_cnf a' (w_all w) = true /\ sat_cube a' ls = true.
Proof.
  intros I Hprec E Ha. pose proof (pv_struct _ _ _ _ _ I) as Ps. destruct (dp_struct t) as [st|] eqn:Es.
  - destruct Ps as (H2 & P1 & g & ow & wv & s & s0 & HP & V & Hle & Hd & M & P3). pose proof (mid_dinv m w wv _ st g ow M) as D.
    pose proof (tare_vars _ _ _ _ _ _ M) as Tv.
    assert (Hoff : forall L v, ~ in_aux (w_aux w) v -> set_bits (sr_tares st) L a v = a v).
    { intros L v Hv. unfold set_bits. replace (existsb _ (sr_tares st)) with false; [reflexivity|]. symmetry. apply not_true_is_false. intros Hx.
      apply existsb_exists in Hx as (t0 & Ht & Hx). apply N.eqb_eq in Hx. subst v. apply Hv. now apply Tv. }
    destruct (enforce_cases d w t R st g ow wv s s0 ub I Es HP V Hle M) as [(E' & _)|[(E' & _)|(Hq & root & rest & o & L & A1 & E' & Ho & HL & _ & Hc)]]; rewrite E in E'; [|discriminate|].
    + injection E' as ->. destruct (dinv_canon fst wv (dp_db t) g ow a D) as (_ & _ & C3 & C4). exists (canonize g ow a).
      split; [intros v Hv; apply C3; intros H; apply Hv; exact (md_waux _ _ _ _ _ _ _ _ _ M _ H)|]. split; [now rewrite <- (md_all _ _ _ _ _ _ _ _ _ M)|reflexivity].
    + injection E' as ->. set (a0 := set_bits (sr_tares st) L a). destruct (dinv_canon fst wv (dp_db t) g ow a0 D) as (C1 & C2 & C3 & C4). exists (canonize g ow a0).
      split. { intros v Hv. rewrite C3 by (intros H; apply Hv; exact (md_waux _ _ _ _ _ _ _ _ _ M _ H)). now apply Hoff. }
      split; [now rewrite <- (md_all _ _ _ _ _ _ _ _ _ M)|].
      apply sat_cube_true. intros l [<-|Hl].
      * rewrite lit_true_neg, (lit_at_canon fst wv (dp_db t) g ow _ root _ o D C1 Ho).
        assert (Hr : (root < length (d_nodes (dp_db t)))%nat). { destruct (vl_shape _ _ _ _ _ _ V) as (root' & rest' & _ & nb & B1 & B2 & _). rewrite A1 in B1. injection B1 as <- <-. eapply nth_error_lt; eauto. }
        rewrite C2 by auto. specialize (Hc a Ha). fold a0 in Hc. replace (_ <=? _)%nat with false by lia. reflexivity.
      * destruct (Tv l (HL l Hl)) as (K1 & K2 & K3). unfold lit_true. rewrite K3. rewrite C3 by auto. unfold a0, set_bits.
        replace (existsb _ (sr_tares st)) with true by (symmetry; apply existsb_exists; exists l; split; [auto|apply N.eqb_refl]).
        replace (existsb _ L) with true by (symmetry; apply existsb_exists; exists l; split; [auto|apply N.eqb_refl]). reflexivity.
  - destruct Ps as ((g & ow & D & _) & _). apply qd_dinv in D. destruct (dinv_canon fst w (dp_db t) g ow a D) as (_ & _ & C3 & C4).
    destruct (Nat.le_gt_cases (length m) 1) as [L|L].
    + destruct (enforce_small d w t R ub I Hprec Es L) as (ls' & E' & Hs & Hx). rewrite E in E'. injection E' as <-. exists (canonize g ow a). split; [auto|]. split; [auto|].
      apply Hs in Ha. rewrite <- Ha. apply sat_cube_agree. intros l Hl. destruct (Hx l Hl) as (x & Hxm & <-). apply C3. now apply (pv_lits _ _ _ _ _ I).
    + destruct (not_built d w t R ub I Es ltac:(lia)) as [(E' & _)|(E' & _)]; rewrite E in E'; [|discriminate]. injection E' as ->. exists (canonize g ow a). auto.
Qed.

(** the structure is at the current precision unless it must be extended *)
Definition cur (t : dpw) (d : nat) : Prop := forall st, dp_struct t = Some st -> must_not t d -> sr_prec st = d.

Lemma cur_current d w t R : pinv m d w t R -> current t -> cur t d.
Proof. intros I C st Es _. rewrite (C st Es). apply I. Qed.

Lemma total_termwise (l : list (lit * nat)) s s0 : (s <= s0)%nat ->
  total_weight (map (fun x => (fst x, (snd x / 2 ^ s)%nat)) l) = (2 ^ (s0 - s) * total_weight (map (fun x => (fst x, (snd x / 2 ^ s0)%nat)) l))%nat ->
  forall x, In x l -> (snd x / 2 ^ s = 2 ^ (s0 - s) * (snd x / 2 ^ s0))%nat.
Proof.
  intros Hs. assert (T : forall x : lit * nat, (2 ^ (s0 - s) * (snd x / 2 ^ s0) <= snd x / 2 ^ s)%nat).
  { intros x. apply Nat.div_le_lower_bound; [apply Nat.pow_nonzero; lia|]. rewrite Nat.mul_assoc, <- Nat.pow_add_r. replace (s + (s0 - s))%nat with s0 by lia. apply Nat.mul_div_le. apply Nat.pow_nonzero; lia. }
  assert (G : forall l, (2 ^ (s0 - s) * total_weight (map (fun x => (fst x, (snd x / 2 ^ s0)%nat)) l) <= total_weight (map (fun x : lit * nat => (fst x, (snd x / 2 ^ s)%nat)) l))%nat).
  { intros l0. induction l0 as [|y l' IH]; [cbn [map total_weight]; rewrite Nat.mul_0_r; apply le_n|]. cbn [map total_weight]. rewrite Nat.mul_add_distr_l. specialize (T y). apply Nat.add_le_mono; assumption. }
  induction l as [|y l IH]; [intros _ x []|]. cbn [map total_weight]. rewrite Nat.mul_add_distr_l. intros E. specialize (G l). pose proof (T y) as Ty.
  intros x Hx. assert (K : (snd y / 2 ^ s = 2 ^ (s0 - s) * (snd y / 2 ^ s0))%nat /\ total_weight (map (fun x : lit * nat => (fst x, (snd x / 2 ^ s)%nat)) l) = (2 ^ (s0 - s) * total_weight (map (fun x : lit * nat => (fst x, (snd x / 2 ^ s0)%nat)) l))%nat).
  { revert E G Ty. cbn [snd fst]. generalize (2 ^ (s0 - s) * (snd y / 2 ^ s0))%nat (snd y / 2 ^ s)%nat. generalize (total_weight (map (fun x : lit * nat => (fst x, (snd x / 2 ^ s)%nat)) l)) (2 ^ (s0 - s) * total_weight (map (fun x : lit * nat => (fst x, (snd x / 2 ^ s0)%nat)) l))%nat. clear. intros; lia. }
  destruct K as (K1 & K2). destruct Hx as [<-|Hx]; [auto|]. apply IH; auto.
Qed.

(** which is so when some weight is odd after dividing *)
Lemma cur_odd d w t R x : pinv m d w t R -> In x m -> Nat.odd (snd x / Nat.max d 1) = true -> cur t d.
Proof.
  intros I Hx Hodd st Es Hq. pose proof (pv_struct _ _ _ _ _ I) as Ps. rewrite Es in Ps. destruct Ps as (H2 & P1 & g & ow & wv & s & s0 & HP & V & Hle & Hd & M & P3).
  destruct Hd as [Hd|Hd]; [|auto]. assert (Hs : (s <= s0)%nat) by exact (prec_mono _ _ _ _ HP (vl_prec _ _ _ _ _ _ V) Hle).
  destruct (vals_sum m g _ st _ s0 s d V Hs HP Hq) as (_ & Ht). pose proof (total_termwise m s s0 Hs Ht x Hx) as E.
  assert (Ed : d = (2 ^ s)%nat) by (destruct HP as [->|(-> & _)]; lia). assert (E0 : sr_prec st = (2 ^ s0)%nat) by (destruct (vl_prec _ _ _ _ _ _ V) as [?|(? & _)]; lia).
  replace (Nat.max d 1) with (2 ^ s)%nat in Hodd by lia. rewrite E in Hodd. destruct (s0 - s)%nat as [|k] eqn:Ek.
  - rewrite E0, Ed. f_equal. lia.
  - exfalso. rewrite Nat.pow_succ_r', <- Nat.mul_assoc in Hodd. rewrite Nat.odd_mul in Hodd. discriminate.
Qed.

(** bounds in the encoded ranges can be enforced *)
Lemma enforce_encoded d w t R r ub : pinv m d w t R -> precision_ok d m -> (cur t d \/ in_rng 0 r) -> In r R -> in_rng ub r -> (ub < total_weight m \/ d <= 1)%nat ->
  exists ls, dpw_enforce_ub t ub = Some (EOk ls) /\ forall a, sat_cnf a (w_ub w) = true -> sat_cube a ls = true -> within d a ub.
Proof.
  intros I Hprec Hcur Hin Hr Hub. pose proof (pv_struct _ _ _ _ _ I) as Ps. destruct (dp_struct t) as [st|] eqn:Es.
  - destruct Ps as (H2 & P1 & g & ow & wv & s & s0 & HP & V & Hle & Hd & M & P3). pose proof (mid_dinv m w wv _ st g ow M) as D.
    destruct (enforce_cases d w t R st g ow wv s s0 ub I Es HP V Hle M) as [(E' & H)|[(E' & H & Hn)|(Hq & root & rest & o & L & A1 & E' & Ho & HL & Hs & _)]].
    + exists []. split; [auto|]. intros; auto.
    + exfalso. destruct (P3 r ub Hin Hr ltac:(lia)) as (Hq & Ho). apply (Hn Hq), Ho. destruct Hcur as [Hcur|Hcur]; [left; now apply Hcur|now right].
    + exists (neg o :: L). split; [auto|]. intros a Ha Hc. cbn [sat_cube forallb] in Hc. apply andb_true_iff in Hc as (Hc1 & Hc2). fold (sat_cube a L) in Hc2.
      set (ub' := (ub / 2 ^ shift st d)%nat) in *. apply Hs; [auto|]. apply Nat.nle_gt. intros Hge.
      destruct (vl_shape _ _ _ _ _ _ V) as (root' & rest' & _ & nb & B1 & B2 & B3 & _). assert (B1' := B1). rewrite A1 in B1'. injection B1' as <- <-.
      assert (Hout : exists l, lit_has (d_nodes (dp_db t)) root (ub' / 2 ^ sr_power st + 1) SIf l).
      { destruct (Nat.lt_ge_cases ub (total_weight m)) as [Lt|Ge].
        - destruct (P3 r ub Hin Hr Lt) as (_ & Ho'). apply Ho' with (rest := rest) (nb := nb); [destruct Hcur as [Hcur|Hcur]; [left; now apply Hcur|now right]|auto|auto|]. fold ub'. pose proof (wf_max _ _ (proj1 (di_built _ _ _ _ _ D)) a _ _ (nth_skel _ _ _ B2)) as Hx. rewrite node_max_val_erase in Hx. lia.
        - exfalso. unfold dpw_enforce_ub in E'. rewrite (pv_sum _ _ _ _ _ I), (pv_prec _ _ _ _ _ I) in E'. replace ((total_weight m <=? ub)%nat && (d <=? 1)%nat) with true in E' by lia. discriminate. }
      destruct Hout as (l & Hl). assert (l = o) as -> by (eapply lit_at_fun; [eapply lit_has_at; eauto|exact Ho]).
      assert (T : gT g a root (ub' / 2 ^ sr_power st + 1)).
      { pose proof (wf_node _ _ (proj1 (di_built _ _ _ _ _ D)) _ _ (nth_skel _ _ _ B2)) as N. destruct nb as [y|lits yl yr|?|]; cbn in B3; try tauto; cbn [erase node_ok] in N.
        - destruct N as (_ & _ & N). apply N. lia.
        - destruct N as (_ & _ & _ & _ & _ & _ & _ & _ & _ & N). apply N. lia. }
      rewrite <- (md_ub _ _ _ _ _ _ _ _ _ M) in Ha. pose proof (dinv_if fst wv (dp_db t) g ow a root _ o D Ha Hl T) as Ht. rewrite lit_true_neg, Ht in Hc1. discriminate.
  - destruct Ps as ((g & ow & D & _) & Hrs). apply qd_dinv in D. destruct (Nat.le_gt_cases (length m) 1) as [L|L].
    + destruct (enforce_small d w t R ub I Hprec Es L) as (ls' & E' & Hs & Hx). exists ls'. split; [auto|]. intros a _ Ha. now apply Hs.
    + destruct (not_built d w t R ub I Es ltac:(lia)) as [(E' & _ & H)|(E' & H)]; [exists []; auto|]. exfalso.
      destruct (Nat.lt_ge_cases ub (total_weight m)) as [Lt|Ge]; [|lia]. specialize (Hrs ltac:(lia) r Hin). pose proof (ub_range_in _ _ _ Hr Lt). lia.
Qed.

(** without literals that lack their clauses, every bound that is enforced holds *)
Lemma enforce_sound d w t R ub ls a : pinv m d w t R -> precision_ok d m -> sem_ok t -> dpw_enforce_ub t ub = Some (EOk ls) -> sat_cnf a (w_ub w) = true -> sat_cube a ls = true -> within d a ub.
Proof.
  intros I Hprec So E Ha Hc. pose proof (pv_struct _ _ _ _ _ I) as Ps. destruct (dp_struct t) as [st|] eqn:Es.
  - destruct Ps as (H2 & P1 & g & ow & wv & s & s0 & HP & V & Hle & Hd & M & P3). pose proof (mid_dinv m w wv _ st g ow M) as D.
    destruct (enforce_cases d w t R st g ow wv s s0 ub I Es HP V Hle M) as [(E' & H)|[(E' & H & Hn)|(Hq & root & rest & o & L & A1 & E' & Ho & HL & Hs & _)]]; [auto|congruence|].
    rewrite E in E'. injection E' as ->. cbn [sat_cube forallb] in Hc. apply andb_true_iff in Hc as (Hc1 & Hc2). fold (sat_cube a L) in Hc2.
    set (ub' := (ub / 2 ^ shift st d)%nat) in *. apply Hs; [auto|]. apply Nat.nle_gt. intros Hge.
    destruct (vl_shape _ _ _ _ _ _ V) as (root' & rest' & _ & nb & B1 & B2 & B3 & _). assert (B1' := B1). rewrite A1 in B1'. injection B1' as <- <-.
    assert (Hl : lit_has (d_nodes (dp_db t)) root (ub' / 2 ^ sr_power st + 1) SIf o).
    { destruct Ho as [H|(sm & Hdd)]; [left; exact H|right]. exists sm. split; [auto|]. split; [intros _; eapply So; eauto|discriminate]. }
    assert (T : gT g a root (ub' / 2 ^ sr_power st + 1)).
    { pose proof (wf_node _ _ (proj1 (di_built _ _ _ _ _ D)) _ _ (nth_skel _ _ _ B2)) as N. destruct nb as [y|lits yl yr|?|]; cbn in B3; try tauto; cbn [erase node_ok] in N.
      - destruct N as (_ & _ & N). apply N. lia.
      - destruct N as (_ & _ & _ & _ & _ & _ & _ & _ & _ & N). apply N. lia. }
    rewrite <- (md_ub _ _ _ _ _ _ _ _ _ M) in Ha. pose proof (dinv_if fst wv (dp_db t) g ow a root _ o D Ha Hl T) as Ht. rewrite lit_true_neg, Ht in Hc1. discriminate.
  - destruct Ps as ((g & ow & D & _) & Hrs). apply qd_dinv in D. destruct (Nat.le_gt_cases (length m) 1) as [L|L].
    + destruct (enforce_small d w t R ub I Hprec Es L) as (ls' & E' & Hs & Hx). rewrite E in E'. injection E' as <-. now apply Hs.
    + destruct (not_built d w t R ub I Es ltac:(lia)) as [(E' & _ & H)|(E' & H)]; [auto|congruence].
Qed.

(** no panic, and nothing is called unsatisfiable *)
Lemma enforce_total_ok d w t R ub : pinv m d w t R -> precision_ok d m -> dpw_enforce_ub t ub <> None /\ dpw_enforce_ub t ub <> Some EUnsat.
Proof.
  intros I Hprec. pose proof (pv_struct _ _ _ _ _ I) as Ps. destruct (dp_struct t) as [st|] eqn:Es.
  - destruct Ps as (H2 & P1 & g & ow & wv & s & s0 & HP & V & Hle & Hd & M & P3).
    destruct (enforce_cases d w t R st g ow wv s s0 ub I Es HP V Hle M) as [(E' & _)|[(E' & _)|(Hq & root & rest & o & L & A1 & E' & _)]]; rewrite E'; split; discriminate.
  - destruct (Nat.le_gt_cases (length m) 1) as [L|L].
    + destruct (enforce_small d w t R ub I Hprec Es L) as (ls' & E' & _). rewrite E'. split; discriminate.
    + destruct (not_built d w t R ub I Es ltac:(lia)) as [(E' & _)|(E' & _)]; rewrite E'; split; discriminate.
Qed.

(** clauses mention inputs and variables taken only *)
Lemma clauses_local_ok d w t R c l : pinv m d w t R -> In c (w_all w) -> In l c -> (exists x, In x m /\ lvar (fst x) = lvar l) \/ in_aux (w_aux w) (lvar l).
Proof.
  intros I Hc Hl. pose proof (pv_struct _ _ _ _ _ I) as Ps. destruct (dp_struct t) as [st|] eqn:Es.
  - destruct Ps as (H2 & P1 & g & ow & wv & s & s0 & HP & V & Hle & Hd & M & P3). rewrite <- (md_all _ _ _ _ _ _ _ _ _ M) in Hc.
    destruct (dinv_local fst wv _ g ow c l (mid_dinv m w wv _ st g ow M) Hc Hl) as [(x & Hx & E)|H]; [|right; exact (md_waux _ _ _ _ _ _ _ _ _ M _ H)].
    destruct (md_in _ _ _ _ _ _ _ _ _ M x Hx) as [Hx'|Hx']; [left; eauto|right]. rewrite <- E. now apply (tare_vars _ _ _ _ _ _ M).
  - destruct Ps as ((g & ow & D & _) & Hrs). apply qd_dinv in D. destruct (dinv_local fst w _ g ow c l D Hc Hl) as [(x & Hx & E)|H]; [|auto]. rewrite (pv_win _ _ _ _ _ I) in Hx. eauto.
Qed.

(** ** Hardening *)
Lemma limit_total d w t R r : pinv m d w t R -> dpw_is_max_precision t = true -> exists hs, dpw_limit_range t r = Some hs.
Proof.
  intros I Hq. unfold dpw_limit_range. destruct (prepare_ub_range _ r) as [lo hi]. pose proof (pv_struct _ _ _ _ _ I) as Ps. destruct (dp_struct t) as [st|] eqn:Es; [|eauto].
  destruct Ps as (H2 & P1 & g & ow & wv & s & s0 & HP & V & Hle & Hd & M & P3). rewrite Hq. unfold sr_root.
  destruct (vl_shape _ _ _ _ _ _ V) as (root & rest & _ & nb & B1 & B2 & B3 & _). rewrite B1. cbn [nth_error obind]. rewrite B2. cbn [obind].
  destruct (harden_ok (fun l => l) _ _ _ (node_vals nb 0 (Some (lo / 2 ^ sr_power st + 1))) B2 B3) as (c1 & E1 & _); [intros v Hv; eapply node_vals_bounds; eauto|]. rewrite E1. cbn [obind].
  destruct (harden_ok neg _ _ _ (node_vals nb (div_ceil hi (2 ^ sr_power st)) None) B2 B3) as (c2 & E2 & _); [intros v Hv; eapply node_vals_bounds; eauto|]. rewrite E2. cbn [obind]. eauto.
Qed.

Lemma limit_keeps d w t R r hs ub ls a : pinv m d w t R -> (d <= 1)%nat -> cur t d -> dpw_is_max_precision t = true -> dpw_limit_range t r = Some hs ->
  dpw_enforce_ub t ub = Some (EOk ls) -> in_rng (wsum a m) r -> (wsum a m <= ub)%nat -> in_rng ub r -> (ub < total_weight m)%nat ->
  exists a', (forall v, ~ in_aux (w_aux w) v -> a' v = a v) /\ sat_cnf a' (w_all w) = true /\ sat_cube a' ls = true /\ sat_cnf a' hs = true.
Proof.
  intros I Hp Hcur Hq El E Hra Hau Hrub Hlt. pose proof (pv_struct _ _ _ _ _ I) as Ps.
  assert (Ha : within d a ub) by (unfold within; now rewrite (scaled_one d Hp)).
  unfold dpw_limit_range in El. rewrite (pv_sum _ _ _ _ _ I) in El. destruct (prepare_ub_range (total_weight m) r) as [lo hi] eqn:Er.
  destruct (dp_struct t) as [st|] eqn:Es.
  2:{ injection El as <-. destruct (enforce_complete d w t R ub ls a I (or_introl Hp) E Ha) as (a' & H1 & H2 & H3). exists a'. repeat (split; [auto|]). reflexivity. }
  assert (Hlo : (lo <= wsum a m)%nat) by (pose proof (ub_range_in _ _ _ Hra (Nat.le_lt_trans _ _ _ Hau Hlt)) as H; rewrite Er in H; cbn [fst] in H; lia).
  assert (Hhi : (ub < hi)%nat) by (pose proof (ub_range_in _ _ _ Hrub Hlt) as H; rewrite Er in H; cbn [snd] in H; lia).
  rewrite Hq in El. destruct Ps as (H2 & P1 & g & ow & wv & s & s0 & HP & V & Hle & Hd & M & P3). pose proof (mid_dinv m w wv _ st g ow M) as D. unfold sr_root in El.
  destruct (vl_shape _ _ _ _ _ _ V) as (root & rest & k & nb & B1 & B2 & B3 & B4 & B5 & B6 & B7 & B8). rewrite B1 in El. cbn [nth_error obind] in El. rewrite B2 in El. cbn [obind] in El.
  assert (Hsp : sr_prec st = d) by (apply Hcur; [auto|]; unfold must_not; unfold dpw_is_max_precision in Hq; destruct (dp_queue t); [intros e []|discriminate]).
  assert (Hsh : shift st d = 0%nat) by (unfold shift; rewrite Hsp; apply Nat.sub_diag).
  assert (Hsc : sc m s0 = m) by (pose proof (vl_prec _ _ _ _ _ _ V) as P0; rewrite Hsp in P0; unfold sc; rewrite <- (scaled_pow d s0 m P0); now apply scaled_one).
  set (W := (2 ^ sr_power st)%nat) in *. pose proof (pow2_pos (sr_power st)) as Pp. fold W in Pp.
  destruct (harden_ok (fun l => l) _ _ _ (node_vals nb 0 (Some (lo / W + 1))) B2 B3) as (c1 & E1 & K1); [intros v Hv; eapply node_vals_bounds; eauto|]. rewrite E1 in El. cbn [obind] in El.
  destruct (harden_ok neg _ _ _ (node_vals nb (div_ceil hi W) None) B2 B3) as (c2 & E2 & K2); [intros v Hv; eapply node_vals_bounds; eauto|]. rewrite E2 in El. cbn [obind] in El.
  injection El as <-.
  destruct (div_ceil_spec hi W Pp) as (C1 & C2).
  assert (Hr : (root < length (d_nodes (dp_db t)))%nat) by (eapply nth_error_lt; eauto).
  pose proof (tare_vars _ _ _ _ _ _ M) as Tv.
  assert (Hsb : forall L, wsum (set_bits (sr_tares st) L a) m = wsum a m).
  { intros L. rewrite <- Hsc. exact (set_bits_sum d w t R wv _ st g ow L a s0 I M). }
  (* a setting of the tares for which the outputs are between the bounds *)
  assert (Key : forall L, (forall l, In l L -> In l (sr_tares st)) -> let a0 := set_bits (sr_tares st) L a in (gV g a0 root * W < div_ceil hi W * W)%nat ->
    forall c, In c (c1 ++ c2) -> sat_clause (canonize g ow a0) c = true).
  { intros L HL a0 Hg c Hc. destruct (dinv_canon fst wv (dp_db t) g ow a0 D) as (N1 & N2 & _). apply in_app_or in Hc as [Hc|Hc].
    - destruct (K1 c Hc) as (v & l & Hv & -> & Hl). cbn [sat_clause existsb]. rewrite (lit_at_canon fst wv _ g ow _ root v l D N1 Hl), N2 by auto.
      apply node_vals_bounds in Hv as (_ & _ & Hv); [|auto]. replace (v <=? gV g a0 root)%nat with true; [reflexivity|]. symmetry. apply Nat.leb_le.
      rewrite B7. fold W. rewrite Hsc. unfold a0 at 1. rewrite Hsb. transitivity (lo / W)%nat; [lia|]. apply Nat.div_le_mono; lia.
    - destruct (K2 c Hc) as (v & l & Hv & -> & Hl). cbn [sat_clause existsb]. rewrite lit_true_neg, (lit_at_canon fst wv _ g ow _ root v l D N1 Hl), N2 by auto.
      apply node_vals_bounds in Hv as (_ & Hv & _); [|auto]. replace (v <=? gV g a0 root)%nat with false; [reflexivity|]. symmetry. apply Nat.leb_gt. nia. }
  assert (Hoff : forall L v, ~ in_aux (w_aux w) v -> set_bits (sr_tares st) L a v = a v).
  { intros L v Hv. unfold set_bits. replace (existsb _ (sr_tares st)) with false; [reflexivity|]. symmetry. apply not_true_is_false. intros Hx.
    apply existsb_exists in Hx as (t0 & Ht & Hx). apply N.eqb_eq in Hx. subst v. apply Hv. now apply Tv. }
  assert (Hlow : forall G, (G < ub / W + 1)%nat -> (G * W < div_ceil hi W * W)%nat).
  { intros G HG. apply Nat.mul_lt_mono_pos_r; [lia|]. assert (ub / W < div_ceil hi W)%nat; [|lia]. apply Nat.div_lt_upper_bound; [lia|]. nia. }
  pose proof (enforce_cases d w t R st g ow wv s s0 ub I Es HP V Hle M) as EC. cbv zeta in EC. rewrite Hsh in EC. cbn [Nat.pow] in EC. rewrite Nat.div_1_r in EC.
  destruct EC as [(E' & _)|[(E' & _)|(Hq' & root' & rest' & o & L & A1 & E' & Ho & HL & _ & Hc)]]; rewrite E in E'; [|discriminate|].
  - injection E' as ->. set (a0 := set_bits (sr_tares st) [] a). destruct (dinv_canon fst wv (dp_db t) g ow a0 D) as (_ & _ & C3 & C4). exists (canonize g ow a0).
    split; [intros v Hv; rewrite C3 by (intros H; apply Hv; exact (md_waux _ _ _ _ _ _ _ _ _ M _ H)); now apply Hoff|]. split; [now rewrite <- (md_all _ _ _ _ _ _ _ _ _ M)|]. split; [reflexivity|].
    apply forallb_forall. apply (Key []); [intros l []|]. fold a0. apply Hlow. rewrite B7. fold W. rewrite Hsc. unfold a0 at 1. rewrite Hsb.
    assert (Tz : tv (bit a0 (sr_tares st)) k (sr_power st) = 0%nat).
    { transitivity (tv (fun _ => 0%nat) k (sr_power st)).
      - apply tv_ext. intros j Hj. unfold bit. destruct (nth_error (sr_tares st) j) as [l|] eqn:Ej; [|reflexivity]. apply nth_error_In in Ej. destruct (Tv l Ej) as (_ & _ & K3). unfold lit_true. rewrite K3.
        unfold a0, set_bits. cbn [existsb]. now destruct (existsb _ (sr_tares st)) eqn:Ex; [|exfalso; enough (true = false) by discriminate; rewrite <- Ex; symmetry; apply existsb_exists; exists l; split; [auto|apply N.eqb_refl]].
      - clear. induction (sr_power st) as [|p IH]; cbn [tv]; [reflexivity|]. rewrite ?IH. destruct (k <=? p)%nat; lia. }
    rewrite Tz, Nat.add_0_r, Nat.add_1_r. apply Nat.lt_succ_r. apply Nat.div_le_mono; lia.
  - injection E' as ->. rewrite B1 in A1. injection A1 as <- <-. set (a0 := set_bits (sr_tares st) L a). destruct (dinv_canon fst wv (dp_db t) g ow a0 D) as (N1 & N2 & N3 & N4). exists (canonize g ow a0).
    specialize (Hc a Ha). fold a0 W in Hc.
    split. { intros v Hv. rewrite N3 by (intros H; apply Hv; exact (md_waux _ _ _ _ _ _ _ _ _ M _ H)). now apply Hoff. }
    split; [now rewrite <- (md_all _ _ _ _ _ _ _ _ _ M)|]. split.
    + apply sat_cube_true. intros l [<-|Hl].
      * rewrite lit_true_neg, (lit_at_canon fst wv (dp_db t) g ow _ root _ o D N1 Ho), N2 by auto. fold W. replace (_ <=? _)%nat with false by lia. reflexivity.
      * destruct (Tv l (HL l Hl)) as (K3 & K4 & K5). unfold lit_true. rewrite K5. rewrite N3 by auto. unfold a0, set_bits.
        replace (existsb _ (sr_tares st)) with true by (symmetry; apply existsb_exists; exists l; split; [auto|apply N.eqb_refl]).
        replace (existsb _ L) with true by (symmetry; apply existsb_exists; exists l; split; [auto|apply N.eqb_refl]). reflexivity.
    + apply forallb_forall. apply (Key L HL). fold a0. apply Hlow. exact Hc.
Qed.

(** ** Results *)
Lemma dpw_exact d b w t R ub ls : dpw_pincr ord srt m d b w t R -> precision_ok d m -> dpw_enforce_ub t ub = Some (EOk ls) ->
  (forall a, sat_cnf a (w_ub w) = true -> sat_cube a ls = true -> (wsum a (scaled d m) <= ub)%nat) /\
  (forall a, (wsum a (scaled d m) <= ub)%nat -> exists a', (forall v, ~ in_aux (w_aux w) v -> a' v = a v) /\ sat_cnf a' (w_all w) = true /\ sat_cube a' ls = true).
Proof.
  intros H Hp E. destruct (pincr_inv d b w t R H) as (I & So & _). split.
  - intros a Ha Hc. eapply enforce_sound; eauto.
  - intros a Ha. eapply enforce_complete; eauto.
Qed.

Lemma dpw_encoded_fixed d w t R r ub : dpw_hist ord srt m d w t R -> precision_ok d m -> In r R -> in_rng ub r -> (ub < total_weight m \/ d <= 1)%nat ->
  exists ls, dpw_enforce_ub t ub = Some (EOk ls) /\ forall a, sat_cnf a (w_ub w) = true -> sat_cube a ls = true -> (wsum a (scaled d m) <= ub)%nat.
Proof. intros H Hp Hin Hr Hub. destruct (hist_inv d w t R H) as (I & C). exact (enforce_encoded d w t R r ub I Hp (or_introl (cur_current d w t R I C)) Hin Hr Hub). Qed.

Lemma dpw_encoded d w t R r ub : dpw_phist ord srt m d w t R -> precision_ok d m -> (in_rng 0 r \/ exists x, In x m /\ Nat.odd (snd x / Nat.max d 1) = true) ->
  In r R -> in_rng ub r -> (ub < total_weight m \/ d <= 1)%nat ->
  exists ls, dpw_enforce_ub t ub = Some (EOk ls) /\ forall a, sat_cnf a (w_ub w) = true -> sat_cube a ls = true -> (wsum a (scaled d m) <= ub)%nat.
Proof.
  intros H Hp Hc Hin Hr Hub. pose proof (phist_inv d w t R H) as I. apply (enforce_encoded d w t R r ub I Hp); auto.
  destruct Hc as [Hc|(x & Hx & Ho)]; [auto|left]. exact (cur_odd d w t R x I Hx Ho).
Qed.

Lemma dpw_complete d w t R ub ls a : dpw_phist ord srt m d w t R -> precision_ok d m -> dpw_enforce_ub t ub = Some (EOk ls) -> (wsum a (scaled d m) <= ub)%nat ->
  exists a', (forall v, ~ in_aux (w_aux w) v -> a' v = a v) /\ sat_cnf a' (w_all w) = true /\ sat_cube a' ls = true.
Proof. intros H Hp E Ha. exact (enforce_complete d w t R ub ls a (phist_inv d w t R H) Hp E Ha). Qed.

Lemma dpw_no_panic d w t R : dpw_phist ord srt m d w t R -> precision_ok d m ->
  (forall op, dpw_op op -> exists w' t', step (dpw_enc srt t) w t op = Some (w', t') /\ (w_next w <= w_next w')%N) /\
  (forall ub, dpw_enforce_ub t ub <> None /\ dpw_enforce_ub t ub <> Some EUnsat).
Proof.
  intros H Hp. pose proof (phist_inv d w t R H) as I. split.
  - intros op Hop. destruct (step_ok srt Hsrt m Hm d w t R op I ltac:(auto) Hop) as (w' & t' & E & _ & Hn & _). eauto.
  - intros ub. eapply enforce_total_ok; eauto.
Qed.

Lemma dpw_from_total : exists t0, dpw_from ord m = Some t0.
Proof.
  unfold dpw_from. destruct (queue_init (ord m)) as (d & q & g & E & _).
  - intros x Hx. apply Hm. eapply Permutation_in; [apply Hord|auto].
  - rewrite E. cbn [obind]. eauto.
Qed.

Lemma dpw_local d w t R c l : dpw_phist ord srt m d w t R -> In c (w_all w) -> In l c ->
  (exists x, In x m /\ lvar (fst x) = lvar l) \/ in_aux (w_aux w) (lvar l).
Proof. intros H. eapply clauses_local_ok. exact (phist_inv d w t R H). Qed.

(** setting the precision *)
Lemma dpw_set_prec d w t R d' : dpw_phist ord srt m d w t R ->
  (exists t', dpw_set_precision t d' = inl t') <-> ((d' <= 1 \/ exists k, d' = 2 ^ k) /\ (dp_struct t = None \/ d' <= d))%nat.
Proof.
  intros H. pose proof (phist_inv d w t R H) as I. split.
  - intros (t' & E). split; [destruct (set_precision_pow _ _ _ E) as (s & [->|(-> & _)]); [right; eauto|left; lia]|].
    unfold dpw_set_precision in E. destruct (negb _); [discriminate|]. destruct (dp_struct t); [right|auto]. cbn [andb] in E. rewrite (pv_prec _ _ _ _ _ I) in E. destruct (Nat.ltb_spec d d'); [discriminate|lia].
  - intros (H1 & H2). unfold dpw_set_precision. assert (K : ((d' <=? 1)%nat || is_pow2 d') = true).
    { destruct H1 as [H1|(k & ->)]; [apply orb_true_iff; left; now apply Nat.leb_le|]. apply orb_true_iff; right. unfold is_pow2. rewrite Nat.log2_pow2 by lia. apply Nat.eqb_refl. }
    rewrite K. cbn [negb]. replace (_ && _) with false; [eauto|]. symmetry. rewrite (pv_prec _ _ _ _ _ I). destruct H2 as [->|H2]; [reflexivity|]. apply andb_false_iff. right. now apply Nat.ltb_ge.
Qed.

Lemma coarse_ok d w t R : pinv m d w t R -> cur t d -> exists W, (1 <= W)%nat /\ forall ub,
  (dpw_coarse_ub t ub <= ub)%nat /\
  ((ub < W)%nat -> dpw_coarse_ub t ub = ub) /\
  ((W <= ub)%nat -> (exists k, dpw_coarse_ub t ub = k * W - 1)%nat /\ (forall k, (k * W - 1 <= ub)%nat -> (k * W - 1 <= dpw_coarse_ub t ub)%nat)) /\
  ((W <= ub)%nat -> forall ls, dpw_enforce_ub t (dpw_coarse_ub t ub) = Some (EOk ls) -> (length ls <= 1)%nat).
Proof.
  intros I Hcur. pose proof (pv_struct _ _ _ _ _ I) as Ps. destruct (dp_struct t) as [st|] eqn:Es.
  - exists (2 ^ sr_power st)%nat. pose proof (pow2_pos (sr_power st)) as Pp. split; [lia|]. intros ub. unfold dpw_coarse_ub. rewrite Es. set (W := (2 ^ sr_power st)%nat) in *.
    assert (C : (if (W =? 1)%nat then ub else if (ub <? W)%nat then ub else ((ub + 1) / W * W - 1)%nat) = (if (ub <? W)%nat then ub else ((ub + 1) / W * W - 1)%nat)).
    { destruct (Nat.eqb_spec W 1) as [->|]; [|reflexivity]. rewrite Nat.div_1_r. destruct (Nat.ltb_spec ub 1); lia. }
    rewrite C. pose proof (Nat.div_mod_eq (ub + 1) W) as Dm. pose proof (Nat.mod_upper_bound (ub + 1) W ltac:(lia)) as Mb.
    destruct (Nat.ltb_spec ub W) as [L|L].
    + split; [lia|]. split; [auto|]. split; intros; lia.
    + split; [nia|]. split; [lia|]. split; intros _.
      * split; [eauto|]. intros k Hk. assert (k <= (ub + 1) / W)%nat; [apply Nat.div_le_lower_bound; nia|]. nia.
      * intros ls E. unfold dpw_enforce_ub in E. rewrite Es in E. destruct (_ && _); [injection E as <-; cbn; lia|].
        destruct Ps as (_ & _ & g & ow & wv & s & s0 & HP & V & Hle & Hd & M & P3).
        pose proof (must_extend_spec d t _ (vl_q _ _ _ _ _ _ V) (pv_prec _ _ _ _ _ I)) as Hme. destruct (must_extend t); [discriminate|]. destruct (assertb _); [|discriminate]. cbn [obind] in E.
        rewrite (Hcur st Es (proj1 Hme eq_refl)), (pv_prec _ _ _ _ _ I), Nat.sub_diag in E. cbn [Nat.pow] in E. rewrite Nat.div_1_r in E. unfold enforce_structure in E. fold W in E.
        destruct (sr_root st); [|discriminate]. cbn [obind] in E. destruct (nth_error _ n); [|discriminate]. cbn [obind] in E. destruct (_ <=? _)%nat; [injection E as <-; cbn; lia|].
        destruct (node_lit _ _) as [[o|]|]; try discriminate. cbn [obind] in E.
        assert (K1 : (1 <= (ub + 1) / W)%nat) by (apply Nat.div_le_lower_bound; lia).
        set (k := ((ub + 1) / W)%nat) in *.
        assert (Eq : ((k * W - 1) / W + 1 = k)%nat).
        { assert ((k * W - 1) / W = k - 1)%nat; [|lia]. symmetry. apply (Nat.div_unique _ _ _ (W - 1)); [lia|]. clear - K1 Pp. nia. }
        rewrite Eq in E. assert (Z : forall tares p e, set_tares tares p e e = Some ([], e)).
        { clear. intros tares p. induction p as [|p IH]; intros e; cbn [set_tares]; [reflexivity|]. pose proof (pow2_pos p). replace (e + 2 ^ p <=? e)%nat with false by lia. apply IH. }
        rewrite Z in E. cbn [obind fst snd] in E. rewrite Nat.eqb_refl in E. cbn [assertb obind] in E. injection E as <-. cbn; lia.
  - exists 1%nat. split; [lia|]. intros ub. unfold dpw_coarse_ub. rewrite Es. split; [lia|]. split; [auto|]. split; intros _.
    + split; [exists (ub + 1)%nat; lia|]. intros k Hk. lia.
    + intros ls E. destruct (Nat.le_gt_cases (length m) 1) as [L|L].
      * unfold dpw_enforce_ub in E. rewrite Es in E. destruct (_ && _); [injection E as <-; cbn; lia|]. destruct (1 <? _)%nat; [discriminate|]. destruct (dp_in t) as [|(l & x) [|? ?]]; try discriminate.
        injection E as <-. destruct (_ <=? _)%nat; cbn; lia.
      * destruct (not_built d w t R ub I Es ltac:(lia)) as [(E' & _)|(E' & _)]; rewrite E in E'; [|discriminate]. injection E' as ->. cbn; lia.
Qed.

(** the structure is at the current precision *)
Lemma hist_cur d w t R : dpw_hist ord srt m d w t R \/ (dpw_phist ord srt m d w t R /\ exists x, In x m /\ Nat.odd (snd x / Nat.max d 1) = true) -> pinv m d w t R /\ cur t d.
Proof.
  intros [H|(H & x & Hx & Ho)].
  - destruct (hist_inv d w t R H) as (I & C). split; [auto|]. exact (cur_current d w t R I C).
  - pose proof (phist_inv d w t R H) as I. split; [auto|]. exact (cur_odd d w t R x I Hx Ho).
Qed.
End Dpw.

Lemma dpw_start_ok (ord : wmap -> wmap) m prec t0 : dpw_from ord m = Some t0 ->
  (exists t, dpw_set_precision t0 prec = inl t) <-> (prec <= 1 \/ exists k, prec = 2 ^ k)%nat.
Proof.
  intros E. unfold dpw_from in E. destruct (foldM _ _ _) as [(d & q)|]; [|discriminate]. cbn [obind] in E. injection E as <-. split.
  - intros (t & H). destruct (set_precision_pow _ _ _ H) as (s & [->|(-> & _)]); [right; eauto|left; lia].
  - intros H. unfold dpw_set_precision. cbn [dp_struct andb]. assert (K : ((prec <=? 1)%nat || is_pow2 prec) = true).
    { destruct H as [H|(k & ->)]; [apply orb_true_iff; left; now apply Nat.leb_le|]. apply orb_true_iff; right. unfold is_pow2. rewrite Nat.log2_pow2 by lia. apply Nat.eqb_refl. }
    rewrite K. cbn [negb]. eauto.
Qed.

(** running a list of calls, for concrete cases; [inr d] sets the precision *)
Definition dpw_opb (op : hop (lit * nat)) : bool := match op with HUserVars _ | HReserve | HUb _ | HUbChange _ => true | _ => false end.
Definition pop : Type := hop (lit * nat) + nat.
Fixpoint dpw_steps (srt : list node -> list nodecon -> list nodecon) (ops : list pop) (s : nat * world (lit * nat) * dpw * list rng) : option (nat * world (lit * nat) * dpw * list rng) :=
  match ops with
  | [] => Some s
  | inl op :: ops' => let '(d, w, t, R) := s in
      if dpw_opb op then match step (dpw_enc srt t) w t op with Some (w', t') => dpw_steps srt ops' (d, w', t', ranges_after R op) | None => None end else None
  | inr d' :: ops' => let '(d, w, t, R) := s in
      if (1 <=? d')%nat then match dpw_set_precision t d' with inl t' => dpw_steps srt ops' (d', w, t', []) | inr _ => None end else None
  end.
Definition dpw_prun (ord : wmap -> wmap) (srt : list node -> list nodecon -> list nodecon) m d next ops :=
  if forallb (fun x => (lvar (fst x) <? next)%N) m then
    match dpw_from ord m with
    | Some t0 => match dpw_set_precision t0 d with inl t => dpw_steps srt ops (d, mkWorld m next [] [] [] [], t, []) | inr _ => None end
    | None => None
    end
  else None.
Definition dpw_run ord srt m d next (ops : list (hop (lit * nat))) : option (world (lit * nat) * dpw * list rng) :=
  match dpw_prun ord srt m d next (map inl ops) with Some (_, w, t, R) => Some (w, t, R) | None => None end.

Lemma dpw_prun_hist ord srt m d next ops d' w t R : dpw_prun ord srt m d next ops = Some (d', w, t, R) -> dpw_phist ord srt m d' w t R.
Proof.
  unfold dpw_prun. destruct (forallb _ m) eqn:Ef; [|discriminate]. destruct (dpw_from ord m) as [t0|] eqn:E0; [|discriminate]. destruct (dpw_set_precision t0 d) as [t1|] eqn:E1; [|discriminate].
  assert (H0 : dpw_phist ord srt m d (mkWorld m next [] [] [] []) t1 []).
  { econstructor; eauto. intros x Hx. rewrite forallb_forall in Ef. apply N.ltb_lt. now apply Ef. }
  revert H0. generalize (@mkWorld (lit * nat) m next [] [] [] []) as w0. generalize (@nil rng) as R0. generalize t1 as u. generalize d as e. clear.
  induction ops as [|[op|d2] ops IH]; intros e u R0 w0 H0; cbn [dpw_steps]; [intros [= <- <- <- <-]; auto| |].
  - destruct (dpw_opb op) eqn:Eo; [|discriminate]. destruct (step _ w0 u op) as [(w1 & u1)|] eqn:Es; [|discriminate]. apply IH. eapply ph_step; eauto. destruct op; cbn in *; try discriminate; exact Logic.I.
  - destruct (Nat.leb_spec 1 d2) as [L|L]; [|discriminate]. destruct (dpw_set_precision u d2) as [u'|] eqn:Eu; [|discriminate]. apply IH. eapply ph_prec; eauto.
Qed.
Lemma dpw_run_hist ord srt m d next ops w t R : dpw_run ord srt m d next ops = Some (w, t, R) -> dpw_hist ord srt m d w t R.
Proof.
  unfold dpw_run, dpw_prun. destruct (forallb _ m) eqn:Ef; [|discriminate]. destruct (dpw_from ord m) as [t0|] eqn:E0; [|discriminate]. destruct (dpw_set_precision t0 d) as [t1|] eqn:E1; [|discriminate].
  assert (H0 : dpw_hist ord srt m d (mkWorld m next [] [] [] []) t1 []).
  { econstructor; eauto. intros x Hx. rewrite forallb_forall in Ef. apply N.ltb_lt. now apply Ef. }
  revert H0. generalize (@mkWorld (lit * nat) m next [] [] [] []) as w0. generalize (@nil rng) as R0. generalize t1 as u. clear.
  induction ops as [|op ops IH]; intros u R0 w0 H0; cbn [map dpw_steps]; [intros [= <- <- <-]; auto|].
  destruct (dpw_opb op) eqn:Eo; [|discriminate]. destruct (step _ w0 u op) as [(w1 & u1)|] eqn:Es; [|discriminate]. apply IH. eapply dh_step; eauto. destruct op; cbn in *; try discriminate; exact Logic.I.
Qed.
Definition incr_pop (o : pop) : bool := match o with inl (HUserVars _) | inl (HUbChange _) | inr _ => true | _ => false end.
Lemma dpw_prun_incr ord srt m d next ops d' w t R : dpw_prun ord srt m d next ops = Some (d', w, t, R) ->
  forallb incr_pop ops = true -> exists b, dpw_pincr ord srt m d' b w t R.
Proof.
  unfold dpw_prun. destruct (forallb (fun x => (lvar (fst x) <? next)%N) m) eqn:Ef; [|discriminate]. destruct (dpw_from ord m) as [t0|] eqn:E0; [|discriminate]. destruct (dpw_set_precision t0 d) as [t1|] eqn:E1; [|discriminate].
  assert (H0 : dpw_pincr ord srt m d false (mkWorld m next [] [] [] []) t1 []).
  { econstructor; eauto. intros x Hx. rewrite forallb_forall in Ef. apply N.ltb_lt. now apply Ef. }
  revert H0. generalize (@mkWorld (lit * nat) m next [] [] [] []) as w0. generalize (@nil rng) as R0. generalize t1 as u. generalize false as b. generalize d as e. clear.
  induction ops as [|[op|d2] ops IH]; intros e b u R0 w0 H0; cbn [dpw_steps forallb]; [intros [= <- <- <- <-]; eauto| |].
  - destruct (dpw_opb op) eqn:Eo; [|discriminate]. destruct (step _ w0 u op) as [(w1 & u1)|] eqn:Es; [|discriminate]. intros Hr Hops. apply andb_true_iff in Hops as (Ho & Hops). revert Hr Hops.
    destruct op as [xs|k| |r|r|r|r|r]; try discriminate; cbn [ranges_after].
    + cbn in Es. injection Es as <- <-. apply (IH e b). now apply pi_user.
    + apply (IH e true). eapply pi_change; eauto.
  - destruct (Nat.leb_spec 1 d2) as [L|L]; [|discriminate]. destruct (dpw_set_precision u d2) as [u'|] eqn:Eu; [|discriminate]. cbn [andb]. apply (IH d2 b). eapply pi_prec; eauto.
Qed.
Lemma dpw_run_incr ord srt m d next ops w t R : dpw_run ord srt m d next ops = Some (w, t, R) ->
  forallb (fun op => match op with HUserVars _ | HUbChange _ => true | _ => false end) ops = true -> exists b, dpw_pincr ord srt m d b w t R.
Proof.
  unfold dpw_run. destruct (dpw_prun ord srt m d next (map inl ops)) as [(((d' & w') & t') & R')|] eqn:E; [|discriminate]. intros [= -> -> ->] Hops.
  assert (d' = d) as ->.
  { clear Hops. revert E. unfold dpw_prun. destruct (forallb _ m); [|discriminate]. destruct (dpw_from ord m) as [t0|]; [|discriminate]. destruct (dpw_set_precision t0 d) as [t1|]; [|discriminate].
    generalize (@mkWorld (lit * nat) m next [] [] [] []) as w0. generalize (@nil rng) as R0. generalize t1 as u. clear. induction ops as [|op ops IH]; intros u R0 w0; cbn [map dpw_steps]; [now intros [= <- _ _ _]|].
    destruct (dpw_opb op); [|discriminate]. destruct (step _ w0 u op) as [(w1 & u1)|]; [|discriminate]. apply IH. }
  apply (dpw_prun_incr ord srt m d next (map inl ops) d w t R E). rewrite forallb_forall in *. intros x Hx. apply in_map_iff in Hx as (op & <- & Hop). specialize (Hops op Hop). destruct op; auto.
Qed.
