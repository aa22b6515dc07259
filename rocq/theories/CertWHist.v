(** * Histories of certified calls on a generalized totalizer *)

From Coq Require Import List Bool NArith ZArith Lia Arith Permutation.
From Coq Require Import ZifyBool ZifyNat ZifyN.
From Verif Require Import Spec BoundSpec Types Constraints Maps Atomics NodeDb TreeSpec TotDb Totalizer Gte Base TotDbInv TotDbUnit TotDbDefine TotDbGeneral TotDbBuild TotDbGrow TotDbMerge TotWeighted TotDbHist TotalizerProofs DbWorld.
From Verif Require Import CertSpec CertBase CertSound Cert CertWorld CertW CertPbWorld CertDefs CertSem CertStep CertProofs CertTot CertHist CertWTree CertWStep CertWProofs.
From Verif Require Import GteProofs.
Import ListNotations.
Open Scope nat_scope.

(** ** The certified state between calls *)

Definition wbase (cg : cgte) (next : N) (p : pstate) : cst :=
  mkC (mkTst (d_nodes (gt_db (cg_gte cg))) next []) [] (cg_defs cg) (ps_next p) [].

Lemma wcinv_append cg cg1 next p new : CInv (wbase cg next p) p -> marked (wbase cg next p) -> cg_defs cg1 = cg_defs cg ->
  d_nodes (gt_db (cg_gte cg1)) = d_nodes (gt_db (cg_gte cg)) ++ new -> Forall node_none new ->
  CInv (wbase cg1 next p) p /\ marked (wbase cg1 next p).
Proof.
  intros C K Ed En F. unfold wbase. rewrite Ed, En. split.
  - destruct C as [C1 C2 C3 C4 C5 C6]. constructor; cbn [wbase c_t c_ids c_defs c_pid t_nodes t_next t_cls] in *; auto.
    + intros id val d H. apply def_ok_app; auto.
    + intros id val o s H. apply data_app in H as (H & _); eauto.
  - intros id val o s Hd. cbn [c_t c_defs t_nodes] in *. apply data_app in Hd as (Hd & L); [|auto]. eapply K; eauto.
Qed.

(** ** The literals of the tree *)

Lemma leaf_counts GF GU GL g ow st id L a l : inv GF GU GL g ow st -> tree_leaves (t_nodes st) id L -> In l (map fst L) -> lit_true a l = true -> 1 <= wsum a L.
Proof.
  intros I T. assert (Sc : forall k M, wsum a (scale k M) = wsum a M * k).
  { intros k M. unfold scale. induction M as [|(x, w) M IH]; [reflexivity|]. cbn [map wsum]. rewrite IH. destruct (lit_true a x); lia. }
  induction T as [id x H|id n x r ls rs H Hc Pl Pr Tl IHl Tr IHr]; intros Hl Ha.
  - destruct Hl as [Hl|[]]. cbn [fst] in Hl. subst x. cbn [wsum]. rewrite Ha. lia.
  - assert (M : 1 <= nc_mult x /\ 1 <= nc_mult r).
    { destruct n as [|lits l' r'|lits m l' r'|]; cbn [children] in Hc; try discriminate; injection Hc as -> ->.
      + destruct (child_facts _ _ _ _ _ _ _ _ _ _ I H) as (nl & nr & ll & lr & El & Er & Gl & Gr & _ & Ml & Mr & _). lia.
      + destruct (general_facts _ _ _ _ _ _ _ _ _ _ _ I H) as (nl & nr & El & Er & Gl & Gr & _ & _ & Ml & Mr & _). auto. }
    rewrite wsum_app, !Sc. rewrite map_app, !fst_scale in Hl. apply in_app_or in Hl as [Hl|Hl]; [specialize (IHl Hl Ha)|specialize (IHr Hl Ha)]; nia.
Qed.

Lemma wsum_none a (L : list (lit * nat)) : (forall l, In l (map fst L) -> lit_true a l = false) -> wsum a L = 0.
Proof.
  induction L as [|(l, w) L IH]; intros H; [reflexivity|]. cbn [wsum]. rewrite (H l) by now left. apply IH. intros x Hx. apply H. now right.
Qed.

Lemma root_leaves U w t g ow rls con : ginv_with U w t g ow rls -> gt_root t = Some con -> no_compl (map fst (w_in w)) ->
  exists L, gtree (d_nodes (gt_db t)) (nc_id con) L /\ no_compl (map fst L) /\ rls = scale (nc_mult con) L.
Proof.
  intros I Er NC. assert (R := gi_root _ _ _ _ _ _ I). rewrite Er in R.
  destruct (wt_leaves _ _ _ _ R) as (Pl & L & TL & El). destruct (wt_good _ _ _ _ R) as (_ & M & _).
  pose proof (di_inv _ _ _ _ _ (gi_d _ _ _ _ _ _ I)) as Iv.
  assert (NL : no_compl (map fst L)).
  { intros l l' Hl Hl' E. destruct (no_compl_model _ (no_compl_neg _ NC)) as (a & Ha).
    assert (Z0 : wsum a (w_in w) = 0).
    { apply wsum_none. intros x Hx. specialize (Ha (neg x) (in_map neg _ _ Hx)). rewrite lit_true_neg in Ha. now destruct (lit_true a x). }
    rewrite (gi_sum _ _ _ _ _ _ I), El in Z0.
    assert (Sc : wsum a (scale (nc_mult con) L) = wsum a L * nc_mult con).
    { unfold scale. clear. induction L as [|(x, w) L IH]; [reflexivity|]. cbn [map wsum]. rewrite IH. destruct (lit_true a x); lia. }
    assert (1 <= wsum a L); [|rewrite Sc in Z0; nia].
    destruct (lit_true a l) eqn:Al; [exact (leaf_counts _ _ _ _ _ _ _ _ _ _ Iv TL Hl Al)|].
    apply (leaf_counts _ _ _ _ _ _ _ _ a l' Iv TL Hl'). rewrite E, lit_true_neg, Al. reflexivity. }
  exists L. split; [|exact (conj NL El)]. exact (gtree_of _ _ _ _ _ _ _ _ Iv TL NL).
Qed.

Lemma ginv_names U w t : ginv U w t -> names (d_nodes (gt_db t)) (w_next w).
Proof. intros (g & ow & rls & I). exact (names_of_inv _ _ _ _ _ _ (di_inv _ _ _ _ _ (gi_d _ _ _ _ _ _ I))). Qed.
Lemma ginv_cov U w t : ginv U w t -> cov (d_nodes (gt_db t)).
Proof. intros (g & ow & rls & I). exact (cov_of_inv _ _ _ _ _ _ (di_inv _ _ _ _ _ (gi_d _ _ _ _ _ _ I))). Qed.
Lemma ginv_root U w t con : ginv U w t -> gt_root t = Some con -> no_compl (map fst (w_in w)) ->
  exists L, gtree (d_nodes (gt_db t)) (nc_id con) L /\ no_compl (map fst L).
Proof. intros (g & ow & rls & I) Er NC. destruct (root_leaves _ _ _ _ _ _ _ I Er NC) as (L & G & NL & _). eauto. Qed.

Section Order.
Context (ord : wmap -> wmap) (Hord : iter_order ord).

Lemma wextend_nodes U w t mw t1 : ginv U w t -> gte_extend_tree ord t mw = Some t1 ->
  exists new, d_nodes (gt_db t1) = d_nodes (gt_db t) ++ new /\ Forall node_none new.
Proof.
  intros (g & ow & rls & I) H. unfold gte_extend_tree in H.
  set (p := fun lw : lit * nat => weight_le (snd lw) mw) in *. set (new := filter p (ord (gt_buf t))) in *.
  assert (Pn : Permutation new (filter p (gt_buf t))) by (apply filter_perm, Hord).
  destruct new as [|x0 new0] eqn:En; [injection H as <-; exists []; rewrite app_nil_r; auto|]. rewrite <- En in *.
  assert (Hne : new <> []) by (rewrite En; discriminate). clear x0 new0 En.
  set (srt := sort_by (fun x y => (snd x <=? snd y)%nat) new) in *.
  assert (Ps : Permutation srt new) by apply sort_by_perm.
  assert (Hin : forall l x, In (l, x) srt -> In (l, x) (gt_buf t)).
  { intros l x Hx. eapply Permutation_in in Hx; [|exact Ps]. eapply Permutation_in in Hx; [|exact Pn]. apply filter_In in Hx. tauto. }
  assert (D := gi_d _ _ _ _ _ _ I).
  destruct (add_segments_ok (segments srt) g (gt_db t) [] [] (di_built _ _ _ _ _ D) (Forall2_nil _) (segments_nonempty srt)) as (d1 & cs & g1 & E1 & B1 & G1 & F1).
  { intros s Hs. apply segments_weights in Hs as (l & Hl). eapply (gi_pos _ _ _ _ _ _ I). eauto. }
  cbn [app] in *. rewrite E1 in H. cbn [obind] in H.
  set (cs2 := cs ++ match gt_root t with Some con => [con] | None => [] end) in *.
  assert (Hgood : Forall (con_good (d_nodes d1)) cs2).
  { unfold cs2. apply Forall_app. split.
    - clear - F1. induction F1; constructor; auto. apply (wt_good _ _ _ _ H).
    - pose proof (gi_root _ _ _ _ _ _ I) as R. destruct (gt_root t); constructor; [|constructor]. eapply con_good_grow; [exact G1|]. apply (wt_good _ _ _ _ R). }
  destruct (merge_balanced_ok g1 d1 cs2 B1 Hgood) as (d2 & con & g2 & E2 & B2 & G2 & M2).
  { intros Hc. assert (cs = []) as -> by (unfold cs2 in Hc; destruct cs; [auto|discriminate]). inversion F1.
    assert (Hs : srt <> []) by (intros Hs; rewrite Hs in Ps; apply Permutation_nil in Ps; auto). apply (segments_ne srt Hs). destruct (segments srt); [auto|discriminate]. }
  rewrite E2 in H. cbn [obind] in H. injection H as <-. cbn [gt_db].
  destruct G1 as ((x & Ex & Fx) & _), G2 as ((y & Ey & Fy) & _). exists (x ++ y). split; [now rewrite Ey, Ex, app_assoc|]. now apply Forall_app.
Qed.

(** ** What a certified call gives *)

Record wcres (aux : list (N * N)) (p : pstate) (t' : gte) (cs : cnf) (next' : N) (o : wout) (p' : pstate) : Prop := mkWcres {
  wr_tot : cg_gte (wo_enc o) = t';
  wr_cls : wo_cls o = cs;
  wr_next : wo_next o = next';
  wr_run : ps_run p (wo_log o) p';
  wr_pid : ps_next p' = wo_pid o;
  wr_grows : grows p p';
  wr_ids : Forall2 (fun cl i => ps_get p' i = Some (clause_con cl)) cs (wo_ids o);
  wr_inv : CInv (wbase (wo_enc o) next' p') p';
  wr_marked : marked (wbase (wo_enc o) next' p');
  wr_wit : forall v, In v (wit_vars (wo_log o)) -> out_var (d_nodes (gt_db t')) v }.

Lemma wcres_noop aux cg next p : CInv (wbase cg next p) p -> marked (wbase cg next p) ->
  wcres aux p (cg_gte cg) [] next (mkWout cg [] next [] [] (ps_next p)) p.
Proof. intros C K. constructor; cbn [wo_enc wo_cls wo_next wo_ids wo_log wo_pid]; auto; [constructor|apply grows_refl|intros v []]. Qed.

Lemma define_vals_fold id L vals : forall k p buf init st',
  CInv k p -> names (t_nodes (c_t k)) (t_next (c_t k)) -> gtree (t_nodes (c_t k)) id L -> no_compl (map fst L) -> cov (t_nodes (c_t k)) ->
  length buf = length L -> (init = true -> buf = L) -> define_vals (c_t k) id vals = Some st' ->
  exists k' p' buf' init', foldM (fun '(k, ls, init) v =>
             do r <- define_weighted_cert (S (length (t_nodes (c_t k)))) k id v ls init false;
             match r with
             | (Some (_, i), k', ls') => Some (k', ls', i)
             | (None, _, _) => None
             end) vals (k, buf, init) = Some (k', buf', init') /\
    c_t k' = st' /\ go k p k' p'.
Proof.
  induction vals as [|v vals IH]; intros k p buf init st' C N G NC Cv Lb Hb H; unfold define_vals in H; cbn [foldM] in *.
  - injection H as <-. exists k, p, buf, init. split; [reflexivity|]. split; [auto|now apply go_refl].
  - destruct (define_weighted (S (length (t_nodes (c_t k)))) (c_t k) id v) as [([l|], st1)|] eqn:E; [|discriminate|discriminate]. cbn [obind] in H.
    destruct (define_wcert_ok _ k p id v L buf init false (Some l) st1 C N G NC Cv Lb Hb E) as (r & k1 & p1 & b1 & E1 & T1 & G1 & L1 & B1 & i & Er & Bi & _).
    rewrite E1, Er. cbn [obind]. subst st1.
    destruct (IH k1 p1 b1 i st' (go_inv _ _ _ _ G1) (go_names _ _ _ _ G1) (go_gtree _ _ _ _ _ _ G1 G) NC (go_cov _ _ _ _ G1 Cv) L1 Bi H) as (k' & p' & b' & i' & E2 & T2 & G2).
    exists k', p', b', i'. split; [exact E2|]. split; [exact T2|]. eapply go_trans; eauto.
Qed.

Lemma wafter_extend w cg p mw t1 : ginv [] w (cg_gte cg) -> CInv (wbase cg (w_next w) p) p -> marked (wbase cg (w_next w) p) -> gte_extend_tree ord (cg_gte cg) mw = Some t1 ->
  ginv [] w t1 /\ CInv (wbase (mkCg t1 (cg_defs cg)) (w_next w) p) p /\ marked (wbase (mkCg t1 (cg_defs cg)) (w_next w) p).
Proof.
  intros T C K E. destruct (extend_tree_ok ord Hord [] w _ mw T) as (t2 & E2 & T2 & _). rewrite E in E2. injection E2 as <-.
  destruct (wextend_nodes _ _ _ _ _ T E) as (new & En & F). split; [auto|]. eapply wcinv_append; eauto.
Qed.

Lemma wub_change_cert_ok w cg r p t' cs next' : ginv [] w (cg_gte cg) -> no_compl (map fst (w_in w)) -> CInv (wbase cg (w_next w) p) p -> marked (wbase cg (w_next w) p) ->
  gte_encode_ub_change ord (cg_gte cg) r (w_next w) = Some (t', cs, next') ->
  exists o p', cg_ub_change ord cg r (w_next w) (ps_next p) = Some o /\ wcres (w_aux w) p t' cs next' o p'.
Proof.
  intros T NC C K H. unfold gte_encode_ub_change in H. unfold cg_ub_change. cbv zeta.
  destruct (gte_weight_sum (cg_gte cg)) as [n|]; [|discriminate]. cbn [obind] in *. destruct (prepare_ub_range n r) as (lo, hi).
  destruct (hi <=? lo).
  - injection H as <- <- <-. eexists _, p. split; [reflexivity|]. now apply wcres_noop.
  - destruct (gte_extend_tree ord (cg_gte cg) (Some (hi - 1))) as [t1|] eqn:E; [|discriminate]. cbn [obind] in *.
    destruct (wafter_extend w cg p _ t1 T C K E) as (T1 & C1 & K1). destruct (gt_root t1) as [con|] eqn:Er.
    + destruct (nth_error (d_nodes (gt_db t1)) (nc_id con)) as [nd|]; [|discriminate]. cbn [obind] in *.
      destruct (ginv_root _ _ _ _ T1 Er NC) as (L & G & NL). rewrite (n_wleaves_ok _ _ _ G). cbn [obind].
      set (vals := node_vals _ _ _) in *.
      destruct (define_vals (mkTst (d_nodes (gt_db t1)) (w_next w) []) (nc_id con) vals) as [st|] eqn:Ev; [|discriminate]. cbn [obind] in H. injection H as <- <- <-.
      destruct (define_vals_fold (nc_id con) L vals (wbase (mkCg t1 (cg_defs cg)) (w_next w) p) p (repeat (pos 0, 0) (length L)) false st C1 (ginv_names _ _ _ T1) G NL (ginv_cov _ _ _ T1) (repeat_length _ _) ltac:(discriminate) Ev) as (k' & p' & b' & i' & E' & T' & Go).
      unfold define_vals_cert. unfold wbase in E'. cbn [cg_gte cg_defs] in E'. rewrite E'. cbn [obind]. eexists _, p'. split; [reflexivity|].
      pose proof (go_adv _ _ _ _ Go) as A. destruct (ad_log _ _ _ _ A) as (new & Lg & R & W). cbn [wbase c_log app] in Lg. pose proof (ad_inv _ _ _ _ A) as C'.
      subst st. constructor; cbn [wo_enc wo_cls wo_next wo_ids wo_log wo_pid cg_gte cg_defs gt_db set_nodes_db d_nodes].
      * reflexivity.
      * reflexivity.
      * reflexivity.
      * rewrite Lg. exact R.
      * symmetry. apply C'.
      * apply A.
      * apply C'.
      * destruct C' as [X1 X2 X3 X4 X5 X6]. constructor; cbn [wbase c_t c_ids c_defs c_pid t_nodes t_next t_cls cg_gte cg_defs gt_db set_nodes_db d_nodes]; auto.
      * intros j v o s Hd. exact (go_marked _ _ _ _ Go K1 j v o s Hd).
      * intros v Hv. rewrite Lg in Hv. apply W, Hv.
    + injection H as <- <- <-. eexists _, p. split; [reflexivity|]. exact (wcres_noop (w_aux w) (mkCg t1 (cg_defs cg)) (w_next w) p C1 K1).
Qed.

(** starting over *)
Lemma wreset_cert cg next p : CInv (wbase cg next p) p -> marked (wbase cg next p) -> CInv (wbase (cg_reset cg) next p) p /\ marked (wbase (cg_reset cg) next p).
Proof.
  intros C K. set (ns := d_nodes (gt_db (cg_gte cg))).
  assert (Q : forall id val o x, data (reset_encoded ns SIf) id val = Some (LLit o x) -> exists x', data ns id val = Some (LLit o x') /\ (x <> None -> x' <> None)).
  { intros id val o x H. rewrite data_reset in H. destruct (data ns id val) as [[|o' x']|]; cbn [option_map] in H; try discriminate.
    destruct x' as [x'|]; cbn in H; injection H as <- E; exists (Some x') || exists None; (split; [reflexivity|]); [discriminate|congruence]. }
  assert (M : more ns (reset_encoded ns SIf)) by apply reset_more.
  split.
  - destruct C as [C1 C2 C3 C4 C5 C6]. constructor; cbn [wbase cg_reset gte_reset cg_gte cg_defs gt_db set_nodes_db d_nodes c_t c_ids c_defs c_pid t_nodes t_next t_cls] in *; auto.
    + intros id val d H. eapply def_ok_more; [exact M|apply grows_refl|apply C3; auto].
    + intros id val o x H. destruct (Q _ _ _ _ H) as (x' & H' & _). eapply C4; eauto.
  - intros id val o x Hd. cbn [wbase cg_reset gte_reset cg_gte cg_defs gt_db set_nodes_db d_nodes c_t c_ids c_defs c_pid t_nodes] in *.
    destruct (Q _ _ _ _ Hd) as (x' & Hd' & Hx). destruct x' as [x'|]; [|exfalso; now apply Hx]. eapply K; eauto.
Qed.

Lemma wub_cert_ok w cg r p t' cs next' : ginv [] w (cg_gte cg) -> no_compl (map fst (w_in w)) -> CInv (wbase cg (w_next w) p) p -> marked (wbase cg (w_next w) p) ->
  gte_encode_ub ord (cg_gte cg) r (w_next w) = Some (t', cs, next') ->
  exists o p', cg_ub ord cg r (w_next w) (ps_next p) = Some o /\ wcres (w_aux w) p t' cs next' o p'.
Proof.
  intros T NC C K H. destruct (wreset_cert cg (w_next w) p C K) as (C' & K').
  exact (wub_change_cert_ok (mkWorld (w_in w) (w_next w) (w_aux w) (w_all w) [] (w_lb w)) (cg_reset cg) r p t' cs next' (ginv_reset _ _ _ T) NC C' K' H).
Qed.

(** ** Reserving variables *)

Lemma wreserve_val_go k p id L val st' : CInv k p -> names (t_nodes (c_t k)) (t_next (c_t k)) -> gtree (t_nodes (c_t k)) id L ->
  reserve_val (c_t k) id val = Some st' -> go k p (with_t k st') p.
Proof.
  intros C N G H. unfold reserve_val in H. destruct (nth_error (t_nodes (c_t k)) id) as [n|] eqn:Hn; [|discriminate]. cbn [obind] in H.
  destruct n as [x|lits l r|lits m l r|].
  - injection H as <-. rewrite with_t_self. now apply go_refl.
  - destruct (val =? 0).
    + injection H as <-. rewrite with_t_self. now apply go_refl.
    + destruct (get_olit (c_t k) id (val - 1)) as [(o, st)|] eqn:E; [|discriminate]. cbn [obind snd] in H. injection H as <-. eapply get_olit_go; eauto.
  - destruct (get_olit_general (c_t k) id val) as [(o, st)|] eqn:E; [|discriminate]. cbn [obind snd] in H. injection H as <-. eapply get_olit_general_go; eauto.
  - injection H as <-. rewrite with_t_self. now apply go_refl.
Qed.

Lemma wreserve_fold_go id L vs : forall k p st', CInv k p -> names (t_nodes (c_t k)) (t_next (c_t k)) -> gtree (t_nodes (c_t k)) id L ->
  foldM (fun s v => reserve_val s id v) vs (c_t k) = Some st' -> go k p (with_t k st') p.
Proof.
  induction vs as [|v vs IH]; intros k p st' C N G H; cbn [foldM] in H.
  - injection H as <-. rewrite with_t_self. now apply go_refl.
  - destruct (reserve_val (c_t k) id v) as [st1|] eqn:E; [|discriminate]. cbn [obind] in H.
    pose proof (wreserve_val_go k p id L v st1 C N G E) as G1.
    eapply go_trans; [exact G1|]. rewrite <- (with_with k st1 st').
    apply IH; [exact (go_inv _ _ _ _ G1)|exact (go_names _ _ _ _ G1)|exact (go_gtree _ _ _ _ _ _ G1 G)|exact H].
Qed.

Lemma gtree_children ns id L n l r : gtree ns id L -> nth_error ns id = Some n -> children n = Some (l, r) -> (exists A, gtree ns (nc_id l) A) /\ (exists B, gtree ns (nc_id r) B).
Proof.
  intros G Hn Hc. inversion G as [? us U|? lits m l' r' xs ys Hn' Pl Pr Ml Mr Gl Gr]; subst.
  - inversion U as [? x Hx|? lits l' r' la lb Hn' Hpl Hpr HL HR Ul Ur Len]; subst.
    + assert (n = NLeaf x) as -> by congruence. discriminate.
    + assert (n = NUnit lits l' r') as -> by congruence. cbn [children] in Hc. injection Hc as -> ->. split; eexists; constructor; eauto.
  - assert (n = NGeneral lits (total_weight (scale (nc_mult l') xs ++ scale (nc_mult r') ys)) l' r') as -> by congruence. cbn [children] in Hc. injection Hc as -> ->. eauto.
Qed.

Lemma wreserve_go f : forall k p con L st', CInv k p -> names (t_nodes (c_t k)) (t_next (c_t k)) -> gtree (t_nodes (c_t k)) (nc_id con) L ->
  reserve_vars f (c_t k) con = Some st' -> go k p (with_t k st') p.
Proof.
  induction f as [|f IH]; intros k p con L st' C N G H; [discriminate|]. cbn [reserve_vars] in H.
  destruct (nth_error (t_nodes (c_t k)) (nc_id con)) as [n|] eqn:Hn; [|discriminate]. cbn [obind] in H.
  assert (Q : forall l r, children n = Some (l, r) ->
    (do st1 <- reserve_vars f (c_t k) l; do st2 <- reserve_vars f st1 r; do _ <- assertb ((nc_div con =? 1)%nat || negb (is_general n));
     foldM (fun s v => reserve_val s (nc_id con) v) (reserve_vals n con) st2) = Some st' -> go k p (with_t k st') p).
  { intros l r Hc E. destruct (gtree_children _ _ _ _ _ _ G Hn Hc) as ((A & Gl) & (B & Gr)).
    destruct (reserve_vars f (c_t k) l) as [st1|] eqn:E1; [|discriminate]. cbn [obind] in E.
    destruct (reserve_vars f st1 r) as [st2|] eqn:E2; [|discriminate]. cbn [obind] in E.
    destruct (assertb _); [|discriminate]. cbn [obind] in E.
    pose proof (IH k p l A st1 C N Gl E1) as G1.
    pose proof (IH (with_t k st1) p r B st2 (go_inv _ _ _ _ G1) (go_names _ _ _ _ G1) (go_gtree _ _ _ _ _ _ G1 Gr) E2) as G2. rewrite with_with in G2.
    pose proof (go_trans _ _ _ _ _ _ G1 G2) as G12. eapply go_trans; [exact G12|]. rewrite <- (with_with k st2 st').
    eapply wreserve_fold_go; [exact (go_inv _ _ _ _ G12)|exact (go_names _ _ _ _ G12)|exact (go_gtree _ _ _ _ _ _ G12 G)|exact E]. }
  destruct n as [x|lits l r|lits m l r|]; try (apply (Q l r); [reflexivity|exact H]); injection H as <-; rewrite with_t_self; now apply go_refl.
Qed.

Lemma wreserve_cert_ok w cg p t' next' : ginv [] w (cg_gte cg) -> no_compl (map fst (w_in w)) -> CInv (wbase cg (w_next w) p) p -> marked (wbase cg (w_next w) p) ->
  gte_reserve ord (cg_gte cg) (w_next w) = Some (t', next') ->
  exists cg', cg_reserve ord cg (w_next w) = Some (cg', next') /\ cg_gte cg' = t' /\ CInv (wbase cg' next' p) p /\ marked (wbase cg' next' p).
Proof.
  intros T NC C K H. unfold cg_reserve. rewrite H. cbn [obind]. eexists. split; [reflexivity|]. split; [reflexivity|]. unfold gte_reserve in H.
  destruct (gte_extend_tree ord (cg_gte cg) None) as [t1|] eqn:E; [|discriminate]. cbn [obind] in H.
  destruct (wafter_extend w cg p _ t1 T C K E) as (T1 & C1 & K1). destruct (gt_root t1) as [con|] eqn:Er.
  - destruct (reserve_vars _ _ _) as [st|] eqn:Ev; [|discriminate]. cbn [obind] in H. injection H as <- <-.
    destruct (ginv_root _ _ _ _ T1 Er NC) as (L & G & _).
    pose proof (wreserve_go _ (wbase (mkCg t1 (cg_defs cg)) (w_next w) p) p con L st C1 (ginv_names _ _ _ T1) G Ev) as Go.
    pose proof (go_inv _ _ _ _ Go) as [D1 D2 D3 D4 D5 D6]. pose proof (go_marked _ _ _ _ Go K1) as K2. split.
    + constructor; cbn [wbase with_t c_t c_ids c_defs c_pid t_nodes t_next t_cls cg_gte cg_defs gt_db set_nodes_db d_nodes] in *; auto.
    + intros j v o s Hd. exact (K2 j v o s Hd).
  - injection H as <- <-. split; [exact C1|exact K1].
Qed.

(** ** Every call of a history *)

Record whinv (w : world (lit * nat)) (cg : cgte) (p : pstate) (ids : list nat) : Prop := mkWhinv {
  wh_ginv : ginv [] w (cg_gte cg);
  wh_nc : no_compl (map fst (w_in w));
  wh_cinv : CInv (wbase cg (w_next w) p) p;
  wh_marked : marked (wbase cg (w_next w) p);
  wh_ids : Forall2 (fun cl i => ps_get p i = Some (clause_con cl)) (w_all w) ids }.

Lemma wcinv_next cg cg' n n' p : d_nodes (gt_db (cg_gte cg')) = d_nodes (gt_db (cg_gte cg)) -> cg_defs cg' = cg_defs cg -> (n <= n')%N ->
  CInv (wbase cg n p) p -> CInv (wbase cg' n' p) p.
Proof.
  intros Ed En L [D1 D2 D3 D4 D5 D6]. unfold wbase in *. rewrite Ed, En. constructor; cbn [c_t c_ids c_defs c_pid t_nodes t_next t_cls] in *; auto.
  intros i c v H1 H2. specialize (D5 i c v H1 H2). lia.
Qed.

Lemma wout_aux ru w t cs next v : ginv [] (log_call w ru false cs next) t -> out_var (d_nodes (gt_db t)) v -> in_aux ((w_next w, next) :: w_aux w) v.
Proof.
  intros (g & ow & rls & I) (id & val & o & s & H & <-). pose proof (gi_d _ _ _ _ _ _ I) as D.
  destruct (i_own _ _ _ _ _ _ (di_inv _ _ _ _ _ D) _ _ _ _ H) as (u & -> & O). exact (di_ow _ _ _ _ _ D _ _ O).
Qed.

Lemma wcall_ok w cg p ids op : whinv w cg p ids -> wcvalid w op ->
  exists w' o p', wcstep ord w cg (ps_next p) op = Some (w', o) /\ BoundSpec.step (gte_enc ord) w (cg_gte cg) op = Some (w', cg_gte (wo_enc o)) /\ ps_run p (wo_log o) p' /\ ps_next p' = wo_pid o /\ grows p p' /\ whinv w' (wo_enc o) p' (ids ++ wo_ids o) /\ w_all w' = w_all w ++ wo_cls o /\ w_next w' = wo_next o /\ (forall v, In v (wit_vars (wo_log o)) -> in_aux (w_aux w') v).
Proof.
  intros [T NC C K F] (V & V').
  assert (Fin : forall ru t' cs n' o p' r, ginv [] (log_call w ru false cs n') t' -> wcres (w_aux w) p t' cs n' o p' -> r = Some o ->
    exists w' o p', wcertified w ru r = Some (w', o) /\ encode_step w ru false (Some (t', cs, n')) = Some (w', cg_gte (wo_enc o)) /\ ps_run p (wo_log o) p' /\ ps_next p' = wo_pid o /\ grows p p' /\ whinv w' (wo_enc o) p' (ids ++ wo_ids o) /\ w_all w' = w_all w ++ wo_cls o /\ w_next w' = wo_next o /\ (forall v, In v (wit_vars (wo_log o)) -> in_aux (w_aux w') v)).
  { intros ru t' cs n' o p' r T' [A1 A2 A3 A4 A5 A6 A7 A8 A9 A10] ->. subst t' cs n'. eexists _, o, p'. split; [reflexivity|]. split; [reflexivity|].
    split; [exact A4|]. split; [exact A5|]. split; [exact A6|]. split; [|split; [reflexivity|split; [reflexivity|]]].
    - constructor; cbn [log_call w_in w_next w_all]; auto. apply Forall2_app; [|auto]. eapply Forall2_mono'; [|exact F]. intros cl i Hi. now apply A6.
    - intros v Hv. cbn [log_call w_aux]. eapply wout_aux; [exact T'|]. now apply A10. }
  destruct op as [xs|k| |r|r|r|r|r]; cbn [wcstep BoundSpec.step gte_enc en_extend en_reserve en_ub en_ub_change en_lb en_lb_change en_both]; try (exfalso; exact (proj1 V)).
  - eexists _, _, p. split; [reflexivity|]. cbn [wo_enc wo_log wo_pid wo_ids wo_cls wo_next cg_extend cg_gte w_all w_next w_aux]. split; [reflexivity|]. split; [constructor|]. split; [reflexivity|].
    split; [apply grows_refl|]. split; [|rewrite app_nil_r; repeat split; intros v []].
    rewrite app_nil_r. constructor; cbn [w_in w_next w_all cg_gte]; auto.
    apply ginv_extend; [auto|]. intros x Hx. destruct V as (_ & V). apply V in Hx. tauto.
  - eexists _, _, p. split; [reflexivity|]. cbn [wo_enc wo_log wo_pid wo_ids wo_cls wo_next w_all w_next w_aux]. split; [reflexivity|]. split; [constructor|]. split; [reflexivity|].
    split; [apply grows_refl|]. split; [|rewrite app_nil_r; repeat split; intros v []].
    rewrite app_nil_r. constructor; cbn [w_in w_next w_all]; auto; [apply ginv_user; auto|eapply wcinv_next; [reflexivity|reflexivity| |exact C]; lia].
  - destruct (reserve_ok ord Hord [] w (cg_gte cg) T) as (t' & n' & E & (_ & T' & _)). destruct (wreserve_cert_ok w cg p t' n' T NC C K E) as (cg' & E' & <- & C' & K').
    rewrite E, E'. eexists _, _, p. split; [reflexivity|]. cbn [wo_enc wo_log wo_pid wo_ids wo_cls wo_next w_all w_next w_aux log_call]. split; [reflexivity|]. split; [constructor|]. split; [reflexivity|].
    split; [apply grows_refl|]. rewrite !app_nil_r. split; [|repeat split; intros v []]. constructor; cbn [w_in w_next w_all log_call]; auto. now rewrite app_nil_r.
  - destruct (encode_ub_ok ord Hord [] w (cg_gte cg) r T) as (t' & cs & n' & E & _ & T' & _). destruct (wub_cert_ok w cg r p t' cs n' T NC C K E) as (o & p' & E' & R). rewrite E.
    exact (Fin true t' cs n' o p' _ T' R E').
  - destruct (encode_ub_change_ok ord Hord [] w (cg_gte cg) r T) as (t' & cs & n' & E & (_ & T' & _) & _). destruct (wub_change_cert_ok w cg r p t' cs n' T NC C K E) as (o & p' & E' & R). rewrite E.
    exact (Fin false t' cs n' o p' _ T' R E').
Qed.

Lemma whinv_init n p : ps_ok p -> (forall i c v, ps_get p i = Some c -> mentions c v -> (v < n)%N) -> whinv (mkWorld [] n [] [] [] []) cgte_new p [].
Proof.
  intros Hp Hm.
  assert (D : forall id val, data [] id val = None) by (intros [|id] val; reflexivity).
  constructor; cbn [w_in w_next w_all cgte_new cg_gte].
  - exact (ginv_user [] world0 gte_new n (ginv_init [] eq_refl)).
  - intros l l' [].
  - constructor; cbn [wbase cgte_new cg_gte cg_defs gte_new gt_db db_empty d_nodes c_t c_ids c_defs c_pid t_nodes t_next t_cls]; auto.
    + discriminate.
    + intros id val o s H. rewrite D in H. discriminate.
  - intros id val o s Hn. cbn [wbase cgte_new cg_gte gte_new gt_db db_empty d_nodes c_t t_nodes] in Hn. rewrite D in Hn. discriminate.
  - constructor.
Qed.

Lemma whinv_others w cg p ids p' : whinv w cg p ids -> wothers w p p' -> whinv w cg p' ids.
Proof.
  intros [T NC C K F] (Hp & G & O). constructor; auto.
  - destruct C as [D1 D2 D3 D4 D5 D6]. constructor; cbn [wbase c_t c_ids c_defs c_pid t_nodes t_next t_cls] in *; auto.
    + intros id val d H. eapply def_ok_more; [apply more_refl|exact G|]. apply D3; auto.
    + intros id val o s H Hn i c Hi Hm. destruct (O i c (lvar o) Hi Hm) as (_ & Q). destruct Q as (j & d & Hj & Hd).
      { destruct T as (g & ow & rls & I). pose proof (gi_d _ _ _ _ _ _ I) as D. destruct (i_own _ _ _ _ _ _ (di_inv _ _ _ _ _ D) _ _ _ _ H) as (u & -> & Ow). exact (di_ow _ _ _ _ _ D _ _ Ow). }
      eapply D4; eauto.
    + intros i c v Hi Hm. now apply (O i c v).
  - eapply Forall2_mono'; [|exact F]. intros cl i Hi. now apply G.
Qed.

Lemma wcreach_hinv w cg p ids : wcreach ord w cg p ids -> whinv w cg p ids.
Proof.
  induction 1 as [n p Hp Hm|w cg p ids op w' o p' R IH V E Rn|w cg p ids p' R IH O].
  - now apply whinv_init.
  - destruct (wcall_ok w cg p ids op IH V) as (w1 & o1 & p1 & E1 & _ & R1 & _ & _ & H1 & _). rewrite E in E1. injection E1 as <- <-.
    rewrite (ps_run_det _ _ _ Rn _ R1). exact H1.
  - eapply whinv_others; eauto.
Qed.

Lemma wcreach_reach w cg p ids : wcreach ord w cg p ids -> reachable (gte_enc ord) (@fst lit nat) pos_weight ub_only w (cg_gte cg).
Proof.
  intros H. induction H as [n p Hp Hm|w cg p ids op w' o p' R IH V E Rn|w cg p ids p' R IH O]; [| |exact IH].
  - apply (reach_step (gte_enc ord) fst pos_weight ub_only world0 gte_new (HUserVars n)); [apply reach_init|split; cbn; auto; exact Logic.I|reflexivity].
  - destruct (wcall_ok w cg p ids op (wcreach_hinv _ _ _ _ R) V) as (w1 & o1 & p1 & E1 & S1 & _). rewrite E in E1. injection E1 as <- <-.
    eapply reach_step; [exact IH|exact (proj1 V)|exact S1].
Qed.

Lemma wcreach_sound w cg p ids op w' o p' : wcreach ord w cg p ids -> wcvalid w op -> wcstep ord w cg (ps_next p) op = Some (w', o) -> ps_run p (wo_log o) p' ->
  forall a, ps_holds a p -> exists a', (forall v, ~ in_aux (w_aux w') v -> a' v = a v) /\ ps_holds a' p'.
Proof.
  intros R V E Rn a Ha. destruct (wcall_ok w cg p ids op (wcreach_hinv _ _ _ _ R) V) as (w1 & o1 & p1 & E1 & S1 & R1 & _ & _ & _ & _ & _ & W).
  rewrite E in E1. injection E1 as <- <-.
  destruct (ps_run_sound p _ p' (ci_ok _ _ (wh_cinv _ _ _ _ (wcreach_hinv _ _ _ _ R))) Rn) as (_ & Q). destruct (Q a Ha) as (a' & A & B).
  exists a'. split; [|exact B]. intros v Hv. apply A. intros Hw. apply Hv, W, Hw.
Qed.
End Order.
