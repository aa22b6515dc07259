(** * Certified encoding of the outputs of a generalized totalizer *)

From Coq Require Import List Bool NArith ZArith Lia Arith.
From Coq Require Import ZifyBool ZifyNat ZifyN.
From Verif Require Import Spec BoundSpec Types Constraints Maps Atomics NodeDb TreeSpec TotDb Totalizer Gte Base TotDbInv TotDbUnit TotDbGeneral.
From Verif Require Import CertSpec CertBase CertSound Cert CertW CertDefs CertSem CertStep CertProofs CertTot CertWTree CertWStep.
Import ListNotations.
Open Scope nat_scope.

(** ** Values of nodes *)

Definition childval (ns : list node) (id v : nat) : Prop := exists n, nth_error ns id = Some n /\ In v (node_vals n 1 None).

Lemma childval_skel ns ns' id v : skel ns' = skel ns -> childval ns id v -> childval ns' id v.
Proof.
  intros E (n & Hn & Hv). pose proof (nth_skel _ _ _ Hn) as H. rewrite <- E in H. apply nth_skel_inv in H as (n' & Hn' & H).
  exists n'. split; [auto|]. rewrite <- node_vals_erase, <- H, node_vals_erase. exact Hv.
Qed.

Lemma childval_max ns id L v : cov ns -> gtree ns id L -> childval ns id v -> 1 <= v <= total_weight L.
Proof. intros C G (n & Hn & Hv). eapply vals_max; eauto. Qed.

Lemma define_weighted_range f st id val r L : gtree (t_nodes st) id L -> define_weighted f st id val = Some r -> 1 <= val <= total_weight L.
Proof.
  intros G. destruct (gtree_node _ _ _ G) as (n & Hn & _ & Hm). destruct f as [|f]; [discriminate|]. cbn [define_weighted]. rewrite Hn. cbn [obind].
  destruct ((val <=? node_max_val n) && (0 <? val)) eqn:E; [|discriminate]. lia.
Qed.

Lemma max_val_tree ns id L : gtree ns id L -> max_val_at ns id = Some (total_weight L).
Proof. intros G. destruct (gtree_node _ _ _ G) as (n & Hn & _ & Hm). unfold max_val_at. rewrite Hn. cbn [obind]. now rewrite Hm. Qed.

Lemma go_skel k p k' p' : go k p k' p' -> skel (t_nodes (c_t k')) = skel (t_nodes (c_t k)).
Proof. intros G. apply G. Qed.
Lemma go_olit k p k' p' id v o : go k p k' p' -> olit (t_nodes (c_t k)) id v = Some o -> olit (t_nodes (c_t k')) id v = Some o.
Proof. intros G. apply G. Qed.

Lemma go_emit k p k' p' cls : names (t_nodes (c_t k)) (t_next (c_t k)) -> adv k p k' p' -> c_t k' = emit (c_t k) cls -> go k p k' p'.
Proof.
  intros N A E. constructor; auto.
  - rewrite E. apply more_refl.
  - rewrite E. intros v H. exact H.
  - rewrite E. exact N.
  - intros M j v o s D. rewrite E in D. cbn [emit t_nodes] in *.
    specialize (M _ _ _ _ D). destruct (defs_get (c_defs k) j v) as [d|] eqn:Ed; [|congruence]. rewrite (ad_defs _ _ _ _ A _ _ _ Ed). discriminate.
Qed.

(** ** The statement *)

Definition wcert_spec (f : nat) : Prop := forall k p id val L buf init need ol st',
  CInv k p -> names (t_nodes (c_t k)) (t_next (c_t k)) -> gtree (t_nodes (c_t k)) id L -> no_compl (map fst L) -> cov (t_nodes (c_t k)) ->
  length buf = length L -> (init = true -> buf = L) -> define_weighted f (c_t k) id val = Some (ol, st') ->
  exists r k' p' buf', define_weighted_cert f k id val buf init need = Some (r, k', buf') /\ c_t k' = st' /\ go k p k' p' /\
    length buf' = length L /\ (init = true -> buf' = L) /\
    match ol with
    | None => r = None /\ ~ childval (t_nodes (c_t k)) id val
    | Some l => exists i, r = Some (l, i) /\ (i = true -> buf' = L) /\ (need = true -> i = true) /\ (init = true -> i = true) /\ olit (t_nodes st') id val = Some l
    end.

Section Gen.
Variable f : nat.
Hypothesis IH : wcert_spec f.

(** with the buffer asked for *)
Lemma define_child_ok k p con v L buf init ol st' :
  CInv k p -> names (t_nodes (c_t k)) (t_next (c_t k)) -> gtree (t_nodes (c_t k)) (nc_id con) L -> no_compl (map fst L) -> cov (t_nodes (c_t k)) ->
  length buf = length L -> (init = true -> buf = L) -> define_weighted f (c_t k) (nc_id con) v = Some (ol, st') ->
  exists k' p' buf', define_child (define_weighted_cert f) k con v buf init = Some (ol, k', buf') /\ c_t k' = st' /\ go k p k' p' /\
    length buf' = length L /\ (init = true -> buf' = L) /\
    match ol with
    | None => ~ childval (t_nodes (c_t k)) (nc_id con) v
    | Some l => buf' = L /\ olit (t_nodes (c_t k')) (nc_id con) v = Some l
    end.
Proof.
  intros C N G NC Cv Lb Hb H. destruct (IH k p (nc_id con) v L buf init true ol st' C N G NC Cv Lb Hb H) as (r & k' & p' & buf' & E & T & Go & Lb' & Hb' & Q).
  unfold define_child. rewrite E. cbn [obind]. destruct ol as [l|].
  - destruct Q as (i & -> & Q1 & Q2 & Q3 & Q4). rewrite (Q2 eq_refl). cbn [assertb obind]. subst st'. exists k', p', buf'. auto 10.
  - destruct Q as (-> & Q). exists k', p', buf'. auto 10.
Qed.

Variables (k0 : cst) (p0 : pstate) (id val : nat) (o : lit) (lits : list (nat * litdata)) (m : nat) (lcon rcon : nodecon) (xs ys : wts).
Hypothesis HN0 : names (t_nodes (c_t k0)) (t_next (c_t k0)).
Hypothesis Hnode : nth_error (t_nodes (c_t k0)) id = Some (NGeneral lits m lcon rcon).
Hypothesis HG : gtree (t_nodes (c_t k0)) id (scale (nc_mult lcon) xs ++ scale (nc_mult rcon) ys).
Hypotheses (HPl : plain_con lcon) (HPr : plain_con rcon).
Hypotheses (HMl : 1 <= nc_mult lcon) (HMr : 1 <= nc_mult rcon).
Hypotheses (HUl : gtree (t_nodes (c_t k0)) (nc_id lcon) xs) (HUr : gtree (t_nodes (c_t k0)) (nc_id rcon) ys).
Hypothesis HNC : no_compl (map fst xs ++ map fst ys).
Hypothesis Hcov : cov (t_nodes (c_t k0)).
Hypothesis Ho : olit (t_nodes (c_t k0)) id val = Some o.
Hypothesis Hr : 1 <= val <= total_weight (scale (nc_mult lcon) xs ++ scale (nc_mult rcon) ys).

Lemma HNCl : no_compl (map fst xs).
Proof. eapply no_compl_sub; [|exact HNC]; intros; apply in_or_app; auto. Qed.
Lemma HNCr : no_compl (map fst ys).
Proof. eapply no_compl_sub; [|exact HNC]; intros; apply in_or_app; auto. Qed.

(** the state during the derivation *)
Definition sok (s : wst) (st : tst) : Prop := let '(k, (lls, li), (rls, ri)) := s in
  c_t k = st /\ (exists p, go k0 p0 k p) /\ length lls = length xs /\ (li = true -> lls = xs) /\ length rls = length ys /\ (ri = true -> rls = ys).
Definition flags (s : wst) : Prop := let '(_, (_, li), (_, ri)) := s in li = true /\ ri = true.
(** the output has a definition *)
Definition defd (s : wst) : Prop := let '(k, _, _) := s in defs_get (c_defs k) id val <> None.

Lemma go_defd k p k' p' : go k p k' p' -> defs_get (c_defs k) id val <> None -> defs_get (c_defs k') id val <> None.
Proof. intros G H. destruct (defs_get (c_defs k) id val) as [d|] eqn:E; [|congruence]. rewrite (ad_defs _ _ _ _ (go_adv _ _ _ _ G) _ _ _ E). discriminate. Qed.

(** one clause *)
Lemma clause_step k p lval rval X1 X2 : go k0 p0 k p ->
  (lval = 0 /\ X1 = [] \/ exists x, X1 = [x] /\ 1 <= lval <= total_weight xs /\ olit (t_nodes (c_t k)) (nc_id lcon) lval = Some x) ->
  (rval = 0 /\ X2 = [] \/ exists x, X2 = [x] /\ 1 <= rval <= total_weight ys /\ olit (t_nodes (c_t k)) (nc_id rcon) rval = Some x) ->
  val = lval * nc_mult lcon + rval * nc_mult rcon ->
  exists k', wstep id val lcon rcon k lval rval xs ys (cube_impl_lit (X1 ++ X2) o) = Some k' /\ sok (k', (xs, true), (ys, true)) (emit (c_t k) [cube_impl_lit (X1 ++ X2) o]) /\
    defs_get (c_defs k') id val <> None.
Proof.
  intros G H1 H2 Hv. pose proof (go_skel _ _ _ _ G) as Sk. destruct (gen_same_skel _ _ _ _ _ _ _ Sk Hnode) as (lits' & Hn' & _).
  destruct (wstep_ok (t_nodes (c_t k)) (t_next (c_t k)) id lits' m lcon rcon xs ys (go_names _ _ _ _ G) Hn' (go_gtree _ _ _ _ _ _ G HG) HMl HMr
              (go_gtree _ _ _ _ _ _ G HUl) (go_gtree _ _ _ _ _ _ G HUr) HNC k p val o lval rval X1 X2 (go_inv _ _ _ _ G) eq_refl eq_refl (go_olit _ _ _ _ _ _ _ G Ho))
    as (k' & p' & E & T & A & Df); [| |exact Hv|exact Hr|].
  - destruct H1 as [H1|(x & E & B & Ex)]; [now left|right; eauto].
  - destruct H2 as [H2|(x & E & B & Ex)]; [now left|right; eauto].
  - exists k'. split; [exact E|]. split; [|exact Df]. unfold sok. split; [exact T|]. split; [|auto]. exists p'. eapply go_trans; [exact G|]. eapply go_emit; [apply G|exact A|exact T].
Qed.

Definition usum (rmax : nat) (s : tst) (lval : nat) : option tst :=
  do _ <- assertb (nc_map lcon lval <? val)%nat;
  let rval := (val - nc_map lcon lval)%nat in
  let rval_rev := nc_rev_map rcon rval in
  if nc_is_possible rcon rval && (rval_rev <=? rmax)%nat then
    do rr <- define_weighted f s (nc_id rcon) rval_rev;
    match rr with
    | (None, s1) => Some s1
    | (Some rlit, s1) =>
        do _ <- assertb (match nc_limit lcon with None => true | Some _ => (nc_offset lcon + 1 =? lval)%nat end);
        do lr <- define_weighted f s1 (nc_id lcon) lval;
        match lr with
        | (None, _) => None
        | (Some llit, s2) => Some (emit s2 [cube_impl_lit [llit; rlit] o])
        end
    end
  else Some s.

Definition sumcase (lval : nat) : Prop := exists y, childval (t_nodes (c_t k0)) (nc_id rcon) y /\ val = lval * nc_mult lcon + y * nc_mult rcon.

Lemma sum_step_ok s st lval st' : sok s st -> usum (total_weight ys) st lval = Some st' ->
  exists s', sum_step (define_weighted_cert f) id val o lcon rcon (total_weight ys) s lval = Some s' /\ sok s' st' /\ (flags s \/ sumcase lval -> flags s') /\ (defd s \/ sumcase lval -> defd s').
Proof.
  destruct s as ((k, (lls, li)), (rls, ri)). intros (T & (p & G) & Ll & Hl & Lr & Hr') H. subst st. unfold usum in H. unfold sum_step.
  rewrite (plain_map lcon) in * by auto. destruct (Nat.ltb_spec (lval * nc_mult lcon) val) as [Hlt|]; [|discriminate]. cbn [assertb obind] in *. cbv zeta in *.
  rewrite (plain_revw rcon) in * by auto. rewrite (plain_revw_nl rcon) by auto. set (rval := val - lval * nc_mult lcon) in *.
  destruct (nc_is_possible rcon rval && (rval / nc_mult rcon <=? total_weight ys)) eqn:Ep.
  - apply andb_true_iff in Ep as (Ep & Ele). pose proof (plain_possible _ _ HPr HMr Ep) as Erv.
    destruct (define_weighted f (c_t k) (nc_id rcon) (rval / nc_mult rcon)) as [(orl, s1)|] eqn:Er; [|discriminate]. cbn [obind] in H.
    destruct (define_child_ok k p rcon (rval / nc_mult rcon) ys rls ri orl s1 (go_inv _ _ _ _ G) (go_names _ _ _ _ G) (go_gtree _ _ _ _ _ _ G HUr) HNCr (go_cov _ _ _ _ G Hcov) Lr Hr' Er)
      as (k1 & p1 & rls1 & E1 & T1 & G1 & Lr1 & Hr1 & Q1).
    rewrite E1. cbn [obind]. assert (G01 := go_trans _ _ _ _ _ _ G G1).
    pose proof (define_weighted_range _ _ _ _ _ _ (go_gtree _ _ _ _ _ _ G HUr) Er) as Rr.
    destruct orl as [rlit|].
    + destruct Q1 as (-> & Or). destruct (match nc_limit lcon with None => true | Some _ => _ end); [|discriminate]. cbn [assertb obind] in H.
      destruct (define_weighted f s1 (nc_id lcon) lval) as [(oll, s2)|] eqn:El; [|discriminate]. cbn [obind] in H. subst s1.
      destruct (define_child_ok k1 p1 lcon lval xs lls li oll s2 (go_inv _ _ _ _ G1) (go_names _ _ _ _ G1) (go_gtree _ _ _ _ _ _ G01 HUl) HNCl (go_cov _ _ _ _ G01 Hcov) Ll Hl El)
        as (k2 & p2 & lls2 & E2 & T2 & G2 & Ll2 & Hl2 & Q2).
      rewrite E2. cbn [obind]. destruct oll as [llit|]; [|discriminate]. destruct Q2 as (-> & Ol). injection H as <-. subst s2.
      pose proof (define_weighted_range _ _ _ _ _ _ (go_gtree _ _ _ _ _ _ G01 HUl) El) as Rl.
      destruct (clause_step k2 p2 lval (rval / nc_mult rcon) [llit] [rlit] (go_trans _ _ _ _ _ _ G01 G2)) as (k3 & E3 & S3 & Df3).
      { right. exists llit. auto. } { right. exists rlit. split; [auto|]. split; [auto|]. eapply go_olit; eauto. } { rewrite Erv. subst rval. lia. }
      cbn [app] in E3, S3. rewrite E3. cbn [obind]. eexists. split; [reflexivity|]. split; [exact S3|]. split; intros _; [split; reflexivity|exact Df3].
    + injection H as <-. enough (Nc : ~ sumcase lval) by (eexists; split; [reflexivity|]; split; [unfold sok; eauto 10|]; split; (intros [F|F]; [|contradiction]); [exact F|exact (go_defd _ _ _ _ G1 F)]).
      intros (y & Hy & Ev). apply Q1.
      replace (rval / nc_mult rcon) with y; [eapply childval_skel; [exact (go_skel _ _ _ _ G)|exact Hy]|]. subst rval. replace (val - lval * nc_mult lcon) with (y * nc_mult rcon) by lia. now rewrite Nat.div_mul by lia.
  - injection H as <-. enough (Nc : ~ sumcase lval) by (eexists; split; [reflexivity|]; split; [unfold sok; eauto 10|]; split; (intros [F|F]; [|contradiction]); exact F).
    intros (y & Hy & Ev).
    replace rval with (y * nc_mult rcon) in Ep by (subst rval; lia). rewrite possible_mul in Ep by auto. rewrite Nat.div_mul in Ep by lia.
    pose proof (childval_max _ _ _ _ Hcov HUr Hy). lia.
Qed.

Lemma sum_loop_ok vals : forall s st st', sok s st -> foldM (usum (total_weight ys)) vals st = Some st' ->
  exists s', foldM (sum_step (define_weighted_cert f) id val o lcon rcon (total_weight ys)) vals s = Some s' /\ sok s' st' /\
    (flags s \/ (exists v, In v vals /\ sumcase v) -> flags s') /\ (defd s \/ (exists v, In v vals /\ sumcase v) -> defd s').
Proof.
  induction vals as [|v vals IHv]; intros s st st' S H; cbn [foldM] in *.
  - injection H as <-. exists s. split; [auto|]. split; [auto|]. split; intros [F|(v & [] & _)]; exact F.
  - destruct (usum (total_weight ys) st v) as [st1|] eqn:E; [|discriminate]. cbn [obind] in H.
    destruct (sum_step_ok _ _ _ _ S E) as (s1 & E1 & S1 & F1 & D1). rewrite E1. cbn [obind].
    destruct (IHv _ _ _ S1 H) as (s' & E2 & S2 & F2 & D2). exists s'. split; [auto|]. split; [auto|]. split; intros [F|(w & [->|Hw] & Hc)]; (apply F2 || apply D2); [left; auto|left; auto|right; eauto|left; auto|left; auto|right; eauto].
Qed.

Definition uleft (st : tst) : option tst :=
  do lmax <- max_val_at (t_nodes st) (nc_id lcon);
  if nc_is_possible lcon val && (nc_rev_map lcon val <=? lmax)%nat then
    do lr <- define_weighted f st (nc_id lcon) (nc_rev_map lcon val);
    match lr with (None, s) => Some s | (Some llit, s) => Some (emit s [lit_impl_lit llit o]) end
  else Some st.
Definition uright (st : tst) : option tst :=
  do rmax <- max_val_at (t_nodes st) (nc_id rcon);
  if nc_is_possible rcon val && (nc_rev_map rcon val <=? rmax)%nat then
    do rr <- define_weighted f st (nc_id rcon) (nc_rev_map rcon val);
    match rr with (None, s) => Some s | (Some rlit, s) => Some (emit s [lit_impl_lit rlit o]) end
  else Some st.

Definition sidecase (con : nodecon) : Prop := exists x, childval (t_nodes (c_t k0)) (nc_id con) x /\ val = x * nc_mult con.

Lemma left_step_ok s st st' : sok s st -> uleft st = Some st' ->
  exists s', left_step (define_weighted_cert f) id val o lcon rcon s = Some s' /\ sok s' st' /\ (flags s \/ sidecase lcon -> flags s') /\ (defd s \/ sidecase lcon -> defd s').
Proof.
  destruct s as ((k, (lls, li)), (rls, ri)). intros (T & (p & G) & Ll & Hl & Lr & Hr') H. subst st. unfold uleft in H. unfold left_step.
  rewrite (max_val_tree _ _ _ (go_gtree _ _ _ _ _ _ G HUl)) in *. cbn [obind] in *. rewrite (plain_revw lcon) in * by auto. rewrite (plain_revw_nl lcon) by auto.
  destruct (nc_is_possible lcon val && (val / nc_mult lcon <=? total_weight xs)) eqn:Ep.
  - apply andb_true_iff in Ep as (Ep & Ele). pose proof (plain_possible _ _ HPl HMl Ep) as Erv.
    destruct (define_weighted f (c_t k) (nc_id lcon) (val / nc_mult lcon)) as [(oll, s1)|] eqn:Er; [|discriminate]. cbn [obind] in H.
    destruct (define_child_ok k p lcon (val / nc_mult lcon) xs lls li oll s1 (go_inv _ _ _ _ G) (go_names _ _ _ _ G) (go_gtree _ _ _ _ _ _ G HUl) HNCl (go_cov _ _ _ _ G Hcov) Ll Hl Er)
      as (k1 & p1 & lls1 & E1 & T1 & G1 & Ll1 & Hl1 & Q1).
    rewrite E1. cbn [obind]. assert (G01 := go_trans _ _ _ _ _ _ G G1).
    pose proof (define_weighted_range _ _ _ _ _ _ (go_gtree _ _ _ _ _ _ G HUl) Er) as Rr.
    destruct oll as [llit|].
    + destruct Q1 as (-> & Ol). injection H as <-. subst s1.
      assert (Ey : (if ri then Some rls else populate k1 (nc_id rcon)) = Some ys).
      { destruct ri; [now rewrite Hr'|]. apply populate_ok. eapply go_gtree; eauto. }
      rewrite Ey. cbn [obind]. rewrite Lr, Nat.eqb_refl. cbn [assertb obind].
      destruct (clause_step k1 p1 (val / nc_mult lcon) 0 [llit] [] G01) as (k3 & E3 & S3 & Df3).
      { right. exists llit. auto. } { now left. } { lia. }
      change (lit_impl_lit llit o) with (cube_impl_lit ([llit] ++ []) o). rewrite E3. cbn [obind]. eexists. split; [reflexivity|]. split; [exact S3|]. split; intros _; [split; reflexivity|exact Df3].
    + injection H as <-. enough (Nc : ~ sidecase lcon) by (eexists; split; [reflexivity|]; split; [unfold sok; eauto 10|]; split; (intros [F|F]; [|contradiction]); [exact F|exact (go_defd _ _ _ _ G1 F)]).
      intros (x & Hx & Ev). apply Q1.
      rewrite Ev, Nat.div_mul by lia. eapply childval_skel; [exact (go_skel _ _ _ _ G)|exact Hx].
  - injection H as <-. enough (Nc : ~ sidecase lcon) by (eexists; split; [reflexivity|]; split; [unfold sok; eauto 10|]; split; (intros [F|F]; [|contradiction]); exact F).
    intros (y & Hy & Ev).
    rewrite Ev, possible_mul, Nat.div_mul in Ep by (auto; lia). pose proof (childval_max _ _ _ _ Hcov HUl Hy). lia.
Qed.

Lemma right_step_ok s st st' : sok s st -> uright st = Some st' ->
  exists s', right_step (define_weighted_cert f) id val o lcon rcon s = Some s' /\ sok s' st' /\ (flags s \/ sidecase rcon -> flags s') /\ (defd s \/ sidecase rcon -> defd s').
Proof.
  destruct s as ((k, (lls, li)), (rls, ri)). intros (T & (p & G) & Ll & Hl & Lr & Hr') H. subst st. unfold uright in H. unfold right_step.
  rewrite (max_val_tree _ _ _ (go_gtree _ _ _ _ _ _ G HUr)) in *. cbn [obind] in *. rewrite (plain_revw rcon) in * by auto. rewrite (plain_revw_nl rcon) by auto.
  destruct (nc_is_possible rcon val && (val / nc_mult rcon <=? total_weight ys)) eqn:Ep.
  - apply andb_true_iff in Ep as (Ep & Ele). pose proof (plain_possible _ _ HPr HMr Ep) as Erv.
    destruct (define_weighted f (c_t k) (nc_id rcon) (val / nc_mult rcon)) as [(oll, s1)|] eqn:Er; [|discriminate]. cbn [obind] in H.
    destruct (define_child_ok k p rcon (val / nc_mult rcon) ys rls ri oll s1 (go_inv _ _ _ _ G) (go_names _ _ _ _ G) (go_gtree _ _ _ _ _ _ G HUr) HNCr (go_cov _ _ _ _ G Hcov) Lr Hr' Er)
      as (k1 & p1 & rls1 & E1 & T1 & G1 & Ll1 & Hl1 & Q1).
    rewrite E1. cbn [obind]. assert (G01 := go_trans _ _ _ _ _ _ G G1).
    pose proof (define_weighted_range _ _ _ _ _ _ (go_gtree _ _ _ _ _ _ G HUr) Er) as Rr.
    destruct oll as [rlit|].
    + destruct Q1 as (-> & Ol). injection H as <-. subst s1.
      assert (Ey : (if li then Some lls else populate k1 (nc_id lcon)) = Some xs).
      { destruct li; [now rewrite Hl|]. apply populate_ok. eapply go_gtree; eauto. }
      rewrite Ey. cbn [obind]. rewrite Ll, Nat.eqb_refl. cbn [assertb obind].
      destruct (clause_step k1 p1 0 (val / nc_mult rcon) [] [rlit] G01) as (k3 & E3 & S3 & Df3).
      { now left. } { right. exists rlit. auto. } { lia. }
      change (lit_impl_lit rlit o) with (cube_impl_lit ([] ++ [rlit]) o). rewrite E3. cbn [obind]. eexists. split; [reflexivity|]. split; [exact S3|]. split; intros _; [split; reflexivity|exact Df3].
    + injection H as <-. enough (Nc : ~ sidecase rcon) by (eexists; split; [reflexivity|]; split; [unfold sok; eauto 10|]; split; (intros [F|F]; [|contradiction]); [exact F|exact (go_defd _ _ _ _ G1 F)]).
      intros (x & Hx & Ev). apply Q1.
      rewrite Ev, Nat.div_mul by lia. eapply childval_skel; [exact (go_skel _ _ _ _ G)|exact Hx].
  - injection H as <-. enough (Nc : ~ sidecase rcon) by (eexists; split; [reflexivity|]; split; [unfold sok; eauto 10|]; split; (intros [F|F]; [|contradiction]); exact F).
    intros (y & Hy & Ev).
    rewrite Ev, possible_mul, Nat.div_mul in Ep by (auto; lia). pose proof (childval_max _ _ _ _ Hcov HUr Hy). lia.
Qed.
End Gen.

Lemma firstn_scale m r xs ys : firstn (length xs) (scale m xs ++ scale r ys) = scale m xs.
Proof. rewrite firstn_app, scale_length, Nat.sub_diag. cbn [firstn]. rewrite app_nil_r. apply firstn_all2. now rewrite scale_length. Qed.
Lemma skipn_scale m r xs ys : skipn (length xs) (scale m xs ++ scale r ys) = scale r ys.
Proof. rewrite skipn_app, scale_length, Nat.sub_diag. cbn [skipn]. rewrite skipn_all2 by now rewrite scale_length. reflexivity. Qed.

Theorem define_wcert_ok : forall f, wcert_spec f.
Proof.
  induction f as [|f IH]; intros k p id val L buf init need ol st' C N G NC Cv Lb Hb H; [discriminate|].
  pose proof (define_weighted_range _ _ _ _ _ _ G H) as Hr.
  destruct (gtree_node _ _ _ G) as (n & Hn & Hd & Hm). cbn [define_weighted] in H. cbn [define_weighted_cert]. rewrite Hn in *. cbn [obind] in *.
  rewrite Hm in *. replace ((val <=? total_weight L) && (0 <? val)) with true in * by lia. cbn [assertb obind] in *.
  destruct n as [l|lits lc rc|lits m lcon rcon|]; [| | |discriminate].
  - (* leaf *)
    assert (L = [(l, 1)]) as ->.
    { destruct (gtree_unit_inv _ _ _ _ G Hn Logic.I) as (ls & -> & U). inversion U; subst; [|congruence]. assert (l0 = l) as -> by congruence. reflexivity. }
    destruct (Nat.eqb_spec val 1) as [->|]; [|discriminate]. cbn [assertb obind] in *. injection H as <- <-. rewrite Lb. cbn [length Nat.eqb assertb obind].
    exists (Some (l, true)), k, p, (if init then buf else [(l, 1)]). split; [reflexivity|]. split; [auto|]. split; [now apply go_refl|].
    split; [destruct init; auto|]. split; [intros ->; auto|]. exists true. split; [auto|]. split; [intros _; destruct init; auto|]. split; [auto|]. split; [auto|]. unfold olit. rewrite Hn. reflexivity.
  - (* unit node *)
    rewrite (n_wleaves_ok _ _ _ G). cbn [obind]. rewrite Lb, Nat.eqb_refl. cbn [assertb obind].
    destruct (gtree_unit_inv _ _ _ _ G Hn Logic.I) as (ls & -> & U). cbn [node_max_val] in Hm. rewrite total_ones in *. rewrite ones_length in *. rewrite fst_ones in NC.
    replace ((length lits <? val) || (val =? 0)) with false in * by lia.
    destruct (define_unweighted (S f) (c_t k) id (val - 1) SIf) as [(l, st1)|] eqn:E; [|discriminate]. cbn [obind] in H. injection H as <- <-.
    destruct (define_cert_ok (S f) k p id (val - 1) SIf ls (map fst buf) init need l st1 C N U NC) as (k' & p' & ub & ui & E1 & T1 & G1 & L1 & B1 & Nd & Ni & O1); [now rewrite map_length|intros Hi; rewrite (Hb Hi); apply fst_ones|exact E|].
    rewrite E1. cbn [obind]. replace (val - 1 + 1) with val in O1 by lia. destruct (need && negb init) eqn:Eni.
    + apply andb_true_iff in Eni as (-> & Eni). destruct init; [discriminate|]. rewrite (B1 (Nd eq_refl)). exists (Some (l, true)), k', p', (ones ls).
      split; [reflexivity|]. split; [auto|]. split; [auto|]. split; [apply ones_length|]. split; [auto|]. exists true. auto 8.
    + exists (Some (l, init)), k', p', buf. split; [reflexivity|]. split; [auto|]. split; [auto|]. split; [auto|]. split; [auto|]. exists init. split; [auto|]. split; [auto|].
      split; [intros ->; destruct init; [auto|discriminate]|]. auto.
  - (* weighted node *)
    rewrite (n_wleaves_ok _ _ _ G). cbn [obind]. rewrite Lb, Nat.eqb_refl. cbn [assertb obind].
    destruct (lit_data lits val) as [dat|] eqn:Ed.
    2:{ injection H as <- <-. exists None, k, p, buf. split; [reflexivity|]. split; [auto|]. split; [now apply go_refl|]. split; [auto|]. split; [auto|]. split; [auto|].
        intros (n & Hn' & Hv). assert (n = NGeneral lits m lcon rcon) as -> by congruence. cbn [node_vals] in Hv. apply filter_In in Hv as (Hv & _).
        apply lit_data_In in Hv as (d & Hv). congruence. }
    destruct (ld_has_if dat) as [l|] eqn:Ehas.
    { injection H as <- <-. assert (Ol : olit (t_nodes (c_t k)) id val = Some l).
      { unfold olit. rewrite Hn. cbn [obind node_lit]. rewrite Ed. destruct dat as [|x [s|]]; cbn [ld_has_if] in Ehas; try discriminate. destruct (has_if s); [|discriminate]. cbn [obind ld_lit]. congruence. }
      destruct (need && negb init) eqn:Eni.
      - rewrite (populate_ok _ _ _ G). cbn [obind]. rewrite Nat.eqb_refl. cbn [assertb obind]. exists (Some (l, true)), k, p, L.
        split; [reflexivity|]. split; [auto|]. split; [now apply go_refl|]. split; [auto|]. split; [auto|]. exists true. auto 8.
      - exists (Some (l, init)), k, p, buf. split; [reflexivity|]. split; [auto|]. split; [now apply go_refl|]. split; [auto|]. split; [auto|]. exists init. split; [auto|]. split; [auto|].
        split; [intros ->; destruct init; [auto|discriminate]|]. auto. }
    destruct (get_olit_general (c_t k) id val) as [(o, st0)|] eqn:Eg; [|discriminate]. cbn [obind] in *.
    destruct (get_olit_general_go k p id lits m lcon rcon val o st0 C N Hn Eg) as (G0 & Ho).
    destruct (gtree_gen_inv _ _ _ _ _ _ _ G Hn) as (xs & ys & -> & Pl & Pr & Ml & Mr & Gl & Gr).
    rewrite (plain_conb_ok _ Pl), (plain_conb_ok _ Pr). cbn [andb assertb obind]. rewrite (n_wleaves_ok _ _ _ Gl). cbn [obind].
    pose proof (app_length (scale (nc_mult lcon) xs) (scale (nc_mult rcon) ys)) as Hal. rewrite !scale_length in Hal.
    replace (length xs <=? _) with true by lia. cbn [assertb obind]. rewrite map_app, !fst_scale in NC.
    set (k0 := with_t k st0) in *.
    destruct (gen_same_skel _ (t_nodes st0) _ _ _ _ _ (go_skel _ _ _ _ G0) Hn) as (lits0 & Hn0 & Ef0).
    assert (GG0 := go_gtree _ _ _ _ _ _ G0 G). assert (Gl0 := go_gtree _ _ _ _ _ _ G0 Gl). assert (Gr0 := go_gtree _ _ _ _ _ _ G0 Gr). assert (Cv0 := go_cov _ _ _ _ G0 Cv).
    change st0 with (c_t k0) in Hn0, Ho, H. change (t_nodes st0) with (t_nodes (c_t k0)).
    set (lls := if init then unscale (nc_mult lcon) (firstn (length xs) buf) else firstn (length xs) buf).
    set (rls := if init then unscale (nc_mult rcon) (skipn (length xs) buf) else skipn (length xs) buf).
    assert (S0 : sok k0 p xs ys (k0, (lls, init), (rls, init)) (c_t k0)).
    { unfold sok. split; [reflexivity|]. split; [exists p; apply go_refl; [apply (go_inv _ _ _ _ G0)|apply G0]|].
      assert (Hi : init = true -> lls = xs /\ rls = ys).
      { intros Hi. subst lls rls. rewrite (Hb Hi), Hi, firstn_scale, skipn_scale, !unscale_scale by auto. auto. }
      assert (Hs : length lls = length xs /\ length rls = length ys).
      { destruct init; [destruct Hi as (-> & ->); auto|]. subst lls rls. rewrite firstn_length, skipn_length, Lb. lia. }
      split; [apply Hs|]. split; [intros; now apply Hi|]. split; [apply Hs|intros; now apply Hi]. }
    assert (Po : nc_offset lcon = 0) by apply Pl. rewrite Po in *. rewrite (plain_map lcon) in * by auto. cbn [Nat.add] in *. rewrite Nat.mul_1_l in *.
    rewrite (max_val_tree _ _ _ Gr0) in *. destruct (gtree_node _ _ _ Gl0) as (ln & Hln & _ & Hlm). rewrite Hln in *. cbn [obind] in *.
    (* the sums *)
    destruct (if nc_mult lcon <? val then _ else Some (c_t k0)) as [st1|] eqn:E1 in H; [|discriminate]. cbn [obind] in H.
    assert (Q1 : exists s1, (if nc_mult lcon <? val then foldM (sum_step (define_weighted_cert f) id val o lcon rcon (total_weight ys)) (node_vals ln 1 (Some (nc_rev_map_round_up lcon val))) (k0, (lls, init), (rls, init))
                   else Some (k0, (lls, init), (rls, init))) = Some s1 /\ sok k0 p xs ys s1 st1 /\
                 ((init = true \/ exists v, childval (t_nodes (c_t k0)) (nc_id lcon) v /\ sumcase k0 val lcon rcon v) -> flags s1) /\
                 ((exists v, childval (t_nodes (c_t k0)) (nc_id lcon) v /\ sumcase k0 val lcon rcon v) -> defd id val s1)).
    { destruct (Nat.ltb_spec (nc_mult lcon) val) as [Hlt|Hge].
      - rewrite (foldM_ext _ (usum f val o lcon rcon (total_weight ys))) in E1 by (intros; unfold usum; rewrite Po; reflexivity).
        destruct (sum_loop_ok f IH k0 p id val o lits0 m lcon rcon xs ys Hn0 GG0 Pl Pr Ml Mr Gl0 Gr0 NC Cv0 Ho Hr _ _ _ _ S0 E1) as (s1 & F1 & S1 & X1 & Y1).
        exists s1. split; [exact F1|]. split; [exact S1|].
        assert (Hw : (exists v, childval (t_nodes (c_t k0)) (nc_id lcon) v /\ sumcase k0 val lcon rcon v) -> exists v, In v (node_vals ln 1 (Some (nc_rev_map_round_up lcon val))) /\ sumcase k0 val lcon rcon v).
        { intros (v & (n & Hn' & Hv) & Hc). exists v. split; [|auto].
          assert (n = ln) as -> by congruence. apply vals_below. split; [auto|]. apply plain_round; auto. destruct Hc as (y & Hy & ->). pose proof (childval_max _ _ _ _ Cv0 Gr0 Hy). nia. }
        split; [intros [Hi|Hc]; apply X1; [left; cbn; auto|right; auto]|intros Hc; apply Y1; right; auto].
      - injection E1 as <-. eexists. split; [reflexivity|]. split; [exact S0|].
        assert (Hw : ~ (exists v, childval (t_nodes (c_t k0)) (nc_id lcon) v /\ sumcase k0 val lcon rcon v)).
        { intros (v & Hv & y & Hy & Ev). pose proof (childval_max _ _ _ _ Cv0 Gr0 Hy). pose proof (childval_max _ _ _ _ Cv0 Gl0 Hv). nia. }
        split; [intros [Hi|Hc]; [cbn; auto|contradiction]|intros Hc; contradiction]. }
    destruct Q1 as (s1 & F1 & S1 & X1 & Y1). rewrite F1. cbn [obind].
    fold (uleft f val o lcon st1) in H. destruct (uleft f val o lcon st1) as [st2|] eqn:E2; [|discriminate]. cbn [obind] in H.
    fold (uright f val o rcon st2) in H. destruct (uright f val o rcon st2) as [st3|] eqn:E3; [|discriminate]. cbn [obind] in H.
    destruct (left_step_ok f IH k0 p id val o lits0 m lcon rcon xs ys Hn0 GG0 Pl Ml Mr Gl0 Gr0 NC Cv0 Ho Hr _ _ _ S1 E2) as (s2 & F2 & S2 & X2 & Y2). rewrite F2. cbn [obind].
    destruct (right_step_ok f IH k0 p id val o lits0 m lcon rcon xs ys Hn0 GG0 Pr Ml Mr Gl0 Gr0 NC Cv0 Ho Hr _ _ _ S2 E3) as (s3 & F3 & S3 & X3 & Y3). rewrite F3. cbn [obind].
    destruct (mark_general st3 id val) as [st4|] eqn:Em; [|discriminate]. cbn [obind] in H. injection H as <- <-.
    destruct s3 as ((k3, (lls3, li3)), (rls3, ri3)). destruct S3 as (T3 & (p3 & G3) & Ll3 & Hl3 & Lr3 & Hr3). subst st3. rewrite Em. cbn [obind].
    assert (Fl : (li3 = true /\ ri3 = true) /\ defs_get (c_defs k3) id val <> None).
    { enough (Fl : flags (k3, (lls3, li3), (rls3, ri3)) /\ defd id val (k3, (lls3, li3), (rls3, ri3))) by exact Fl. destruct (Cv0 _ _ _ _ _ Hn0) as (Cov0 & _). assert (Hv : In val (map fst lits0)) by (rewrite Ef0; apply lit_data_In; eauto).
      destruct (Cov0 _ Hv) as (nl & nr & El & Er & Q). destruct Q as [(x & Hx & Ev)|[(y & Hy & Ev)|(x & y & Hx & Hy & Ev)]].
      - assert (Sc : sidecase k0 val lcon) by (exists x; split; [exists nl; auto|auto]). split; [apply X3; left; apply X2; now right|apply Y3; left; apply Y2; now right].
      - assert (Sc : sidecase k0 val rcon) by (exists y; split; [exists nr; auto|auto]). split; [apply X3; now right|apply Y3; now right].
      - assert (Sc : exists v, childval (t_nodes (c_t k0)) (nc_id lcon) v /\ sumcase k0 val lcon rcon v) by (exists x; split; [exists nl; auto|]; exists y; split; [exists nr; auto|auto]).
        split; [apply X3; left; apply X2; left; apply X1; now right|apply Y3; left; apply Y2; left; apply Y1; exact Sc]. }
    destruct Fl as ((-> & ->) & Df). cbn [andb]. rewrite orb_true_r. cbn [assertb obind].
    assert (G03 := go_trans _ _ _ _ _ _ G0 G3). destruct (gen_same_skel _ (t_nodes (c_t k3)) _ _ _ _ _ (go_skel _ _ _ _ G3) Hn0) as (lits3 & Hn3 & Ef3).
    pose proof (mark_general_go k3 p3 id lits3 m lcon rcon val o st4 (go_inv _ _ _ _ G3) (go_names _ _ _ _ G3) Hn3 (go_olit _ _ _ _ _ _ _ G3 Ho) Em Df) as G4.
    rewrite (Hl3 eq_refl), (Hr3 eq_refl). exists (Some (o, true)), (with_t k3 st4), p3, (scale (nc_mult lcon) xs ++ scale (nc_mult rcon) ys).
    split; [reflexivity|]. split; [reflexivity|]. split; [exact (go_trans _ _ _ _ _ _ G03 G4)|]. split; [auto|]. split; [auto|]. exists true.
    split; [auto|]. split; [auto|]. split; [auto|]. split; [auto|]. apply (go_olit _ _ _ _ _ _ _ G4). apply (go_olit _ _ _ _ _ _ _ G3). exact Ho.
Qed.
