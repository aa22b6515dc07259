(** * The certified calls of the totalizer *)

From Coq Require Import List Bool NArith ZArith Lia Arith.
From Coq Require Import ZifyBool ZifyNat ZifyN.
From Verif Require Import Spec BoundSpec Types Constraints Atomics NodeDb TreeSpec TotDb Totalizer Base TotDbInv TotDbUnit TotDbDefine TotDbGeneral TotDbBuild TotDbGrow TotDbMerge TotWeighted TotDbHist TotalizerProofs.
From Verif Require Import CertSpec CertBase CertSound Cert CertDefs CertSem CertStep CertProofs.
Import ListNotations.
Open Scope nat_scope.

(** ** The tree below the root *)

Lemma ones_app ls rs : ones (ls ++ rs) = ones ls ++ ones rs.
Proof. apply map_app. Qed.

Lemma utree_of GF GU GL g ow st id L : inv GF GU GL g ow st -> tree_leaves (t_nodes st) id L ->
  (forall n, nth_error (t_nodes st) id = Some n -> is_unitlike n) -> exists ls, L = ones ls /\ utree (t_nodes st) id ls.
Proof.
  intros I T. induction T as [id l H|id n l r ls rs H Hc Pl Pr Tl IHl Tr IHr]; intros Hu.
  - exists [l]. split; [reflexivity|]. now constructor.
  - specialize (Hu _ H). destruct n as [|lits l' r'| |]; cbn in Hu, Hc; try tauto; try discriminate. injection Hc as -> ->.
    destruct (child_facts _ _ _ _ _ _ _ _ _ _ I H) as (nl & nr & ll & lr & El & Er & Gl & Gr & _ & Ml & Mr & _ & _ & CL & CR & Len & _).
    assert (Nd : forall c L n, tree_leaves (t_nodes st) c L -> nth_error (t_nodes st) c = Some n -> is_dummy n = false).
    { intros c L n T E. inversion T; subst; [replace n with (NLeaf l0) by congruence; reflexivity|]. assert (n0 = n) as -> by congruence. destruct n; auto; discriminate. }
    destruct IHl as (a & -> & Ua). { intros n Hn. assert (n = nl) as -> by congruence. exact (unitlike_of _ Gl (Nd _ _ _ Tl El)). }
    destruct IHr as (b & -> & Ub). { intros n Hn. assert (n = nr) as -> by congruence. exact (unitlike_of _ Gr (Nd _ _ _ Tr Er)). }
    exists (a ++ b). rewrite Ml, Mr, !scale_1, ones_app. split; [reflexivity|]. eapply ut_unit; eauto.
    rewrite (con_len_utree _ _ _ Pl Ua) in CL. rewrite (con_len_utree _ _ _ Pr Ub) in CR. injection CL as <-. injection CR as <-. exact Len.
Qed.

Lemma ones_inj xs ys : ones xs = ones ys -> xs = ys.
Proof.
  unfold ones. intros H. apply (f_equal (map fst)) in H. rewrite !map_map in H. cbn [fst] in H. now rewrite !map_id in H.
Qed.

Lemma tinv_utree Us w t g ow rooted id : tinv_with Us w t g ow rooted -> to_root t = Some id -> utree (d_nodes (to_db t)) id rooted.
Proof.
  intros I Er. assert (R := ti_root _ _ _ _ _ I). rewrite Er in R. destruct R as (n & Hn & U & _ & _ & _ & Lv).
  destruct (utree_of _ _ _ _ _ _ _ _ (ti_inv _ _ _ _ _ I) Lv) as (ls & E & Ut); [cbn [t_nodes]; intros m Hm; congruence|].
  apply ones_inj in E. now subst ls.
Qed.

Lemma tinv_names Us w t : tinv Us w t -> names (d_nodes (to_db t)) (w_next w).
Proof. intros (g & ow & rooted & I). exact (names_of_inv _ _ _ _ _ _ (ti_inv _ _ _ _ _ I)). Qed.

(** ** The certified state between calls *)

Definition base (ct : ctot) (next : N) (p : pstate) : cst :=
  mkC (mkTst (d_nodes (to_db (ct_tot ct))) next []) [] (ct_defs ct) (ps_next p) [].

Lemma utree_app ns new id ls : utree ns id ls -> utree (ns ++ new) id ls.
Proof.
  assert (Q : forall j (n : node), nth_error ns j = Some n -> nth_error (ns ++ new) j = Some n).
  { intros j n H. rewrite nth_error_app1; [auto|]. apply nth_error_Some. congruence. }
  induction 1; [apply ut_leaf; auto|eapply ut_unit; eauto].
Qed.

Lemma olit_app ns new id val : id < length ns -> olit (ns ++ new) id val = olit ns id val.
Proof. intros H. unfold olit. rewrite nth_error_app1 by auto. reflexivity. Qed.
Lemma utree_lt ns id ls : utree ns id ls -> id < length ns.
Proof. intros U. apply nth_error_Some. destruct (utree_node _ _ _ U) as (n & -> & _). discriminate. Qed.

Lemma gtree_app ns new id L : gtree ns id L -> gtree (ns ++ new) id L.
Proof.
  assert (Q : forall j (n : node), nth_error ns j = Some n -> nth_error (ns ++ new) j = Some n).
  { intros j n H. rewrite nth_error_app1; [auto|]. apply nth_error_Some. congruence. }
  induction 1; [apply wt_unit, utree_app; auto|eapply wt_gen; eauto].
Qed.
Lemma gtree_lt ns id L : gtree ns id L -> id < length ns.
Proof. intros U. apply nth_error_Some. destruct (gtree_node _ _ _ U) as (n & -> & _). discriminate. Qed.

Lemma def_ok_app ns new p id val d : def_ok ns p id val d -> def_ok (ns ++ new) p id val d.
Proof.
  intros (L & U & V & O & A & B & D). pose proof (gtree_lt _ _ _ U) as Lt. exists L. split; [now apply gtree_app|]. split; [auto|].
  split; [intros Hv; rewrite olit_app by auto; auto|]. split; [|split; [|auto]].
  - intros H. destruct (A H) as (i & E & C). exists i. split; [auto|]. eapply con_is_ext; [|exact C]. intros a. unfold wif. now rewrite olit_app.
  - intros H. destruct (B H) as (i & E & C). exists i. split; [auto|]. eapply con_is_ext; [|exact C]. intros a. unfold woif. now rewrite olit_app.
Qed.

Lemma data_app ns new id val o s : Forall node_none new -> data (ns ++ new) id val = Some (LLit o s) -> data ns id val = Some (LLit o s) /\ id < length ns.
Proof.
  intros F H. unfold data in *. destruct (Nat.lt_ge_cases id (length ns)) as [L|L]; [rewrite nth_error_app1 in H by auto; auto|].
  rewrite nth_error_app2 in H by auto. destruct (nth_error new (id - length ns)) as [n|] eqn:E; [|discriminate].
  apply nth_error_In in E. rewrite Forall_forall in F. apply F in E as (E & _). now apply E in H.
Qed.

(** ** Extending the tree *)

Lemma extend_tree_nodes Us w t t1 : tinv Us w t -> extend_tree t = Some t1 -> exists new, d_nodes (to_db t1) = d_nodes (to_db t) ++ new /\ Forall node_none new.
Proof.
  intros (g & ow & rooted & I) H. unfold extend_tree in H. destruct (to_buf t) as [|b bs] eqn:Eb.
  - cbn [lit_tree insert_leaves merge obind] in H. injection H as <-. exists []. rewrite app_nil_r. auto.
  - assert (Hne : to_buf t <> []) by (rewrite Eb; discriminate). rewrite <- Eb in *. clear Eb.
    destruct (lit_tree_ok g (to_db t) (to_buf t) (ti_built _ _ _ _ _ I) Hne) as (d1 & new & g1 & n1 & E1 & B1 & G1 & N1 & U1 & C1 & V1 & M1 & In1 & Lv1).
    rewrite E1 in H. cbn [obind] in H. assert (Root := ti_root _ _ _ _ _ I). destruct (to_root t) as [old|].
    + rewrite (ti_off _ _ _ _ _ I) in H. cbn [con_offset_weighted Nat.eqb obind] in H. fold (con_full old) in H.
      destruct Root as (no & No & Uo & Lo & Vo & Co & Lvo). pose proof (con_good_grow _ _ _ _ _ _ G1 Co) as Co1.
      destruct (merge_ok g1 d1 [con_full old; con_full new] B1) as (d2 & con & g2 & E2 & B2 & G2 & _).
      { constructor; [exact Co1|constructor; [exact C1|constructor]]. } { discriminate. }
      match type of H with context [merge d1 ?L] => replace (merge d1 L) with (Some (d2, Some con)) in H by (symmetry; exact E2) end.
      cbn [obind] in H. injection H as <-. cbn [to_db].
      destruct G1 as ((x & Ex & Fx) & _), G2 as ((y & Ey & Fy) & _). exists (x ++ y). split; [now rewrite Ey, Ex, app_assoc|]. now apply Forall_app.
    + cbn [obind] in H. injection H as <-. cbn [to_db]. destruct G1 as ((x & Ex & Fx) & _). eauto.
Qed.

Lemma cinv_append ct ct1 next p new : CInv (base ct next p) p -> marked (base ct next p) -> ct_defs ct1 = ct_defs ct ->
  d_nodes (to_db (ct_tot ct1)) = d_nodes (to_db (ct_tot ct)) ++ new -> Forall node_none new ->
  CInv (base ct1 next p) p /\ marked (base ct1 next p).
Proof.
  intros C K Ed En F. unfold base. rewrite Ed, En. split.
  - destruct C as [C1 C2 C3 C4 C5 C6]. constructor; cbn [base c_t c_ids c_defs c_pid t_nodes t_next t_cls] in *; auto.
    + intros id val d H. apply def_ok_app; auto.
    + intros id val o s H. apply data_app in H as (H & _); eauto.
  - intros id val o s Hd. cbn [c_t c_defs t_nodes] in *. apply data_app in Hd as (Hd & L); [|auto]. eapply K; eauto.
Qed.

(** ** What a certified call gives *)

Record cres (w : world lit) (p : pstate) (t' : tot) (cs : cnf) (next' : N) (o : cout) (p' : pstate) : Prop := mkCres {
  cr_tot : ct_tot (o_tot o) = t';
  cr_cls : o_cls o = cs;
  cr_next : o_next o = next';
  cr_run : ps_run p (o_log o) p';
  cr_pid : ps_next p' = o_pid o;
  cr_grows : grows p p';
  cr_ids : Forall2 (fun cl i => ps_get p' i = Some (clause_con cl)) cs (o_ids o);
  cr_inv : CInv (base (o_tot o) next' p') p';
  cr_marked : marked (base (o_tot o) next' p');
  cr_wit : forall v, In v (wit_vars (o_log o)) -> out_var (d_nodes (to_db t')) v }.

Lemma define_all_cert id ls sem idxs : forall k p buf init st',
  CInv k p -> names (t_nodes (c_t k)) (t_next (c_t k)) -> utree (t_nodes (c_t k)) id ls -> no_compl ls ->
  length buf = length ls -> (init = true -> buf = ls) -> define_all (c_t k) id idxs sem = Some st' ->
  exists k' p' buf' init', foldM (fun '(k, leaves, init) idx =>
                       do r <- define_unweighted_cert (S (length (t_nodes (c_t k)))) k id idx sem leaves init false;
                       let '(_, k', leaves', init') := r in Some (k', leaves', init')) idxs (k, buf, init) = Some (k', buf', init') /\
    c_t k' = st' /\ go k p k' p'.
Proof.
  induction idxs as [|i idxs IH]; intros k p buf init st' C N U NC Lb Hb H; unfold define_all in H; cbn [foldM] in *.
  - injection H as <-. exists k, p, buf, init. split; [reflexivity|]. split; [auto|now apply go_refl].
  - destruct (define_unweighted (S (length (t_nodes (c_t k)))) (c_t k) id i sem) as [(l, st1)|] eqn:E; [|discriminate]. cbn [obind snd] in H.
    destruct (define_cert_ok _ k p id i sem ls buf init false l st1 C N U NC Lb Hb E) as (k1 & p1 & b1 & i1 & E1 & T1 & G1 & L1 & B1 & _).
    rewrite E1. cbn [obind]. subst st1.
    destruct (IH k1 p1 b1 i1 st' (go_inv _ _ _ _ G1) (go_names _ _ _ _ G1) (go_utree _ _ _ _ _ _ G1 U) NC L1 B1 H) as (k' & p' & b' & i' & E2 & T2 & G2).
    exists k', p', b', i'. split; [exact E2|]. split; [exact T2|]. eapply go_trans; eauto.
Qed.

Lemma define_root_cert_ok w ct idxs sem p t' cs next' : tinv [] w (ct_tot ct) -> to_buf (ct_tot ct) = [] -> no_compl (w_in w) ->
  CInv (base ct (w_next w) p) p -> marked (base ct (w_next w) p) -> define_root (ct_tot ct) idxs sem (w_next w) = Some (t', cs, next') ->
  exists o p', define_root_cert ct idxs sem (w_next w) (ps_next p) = Some o /\ cres w p t' cs next' o p'.
Proof.
  intros T Hb NC C K H. pose proof (tinv_names _ _ _ T) as N. destruct T as (g & ow & rooted & I). unfold define_root in H. unfold define_root_cert.
  destruct (to_root (ct_tot ct)) as [id|] eqn:Er.
  - pose proof (tinv_utree _ _ _ _ _ _ _ I Er) as U.
    assert (NCr : no_compl rooted) by (eapply no_compl_sub; [|exact NC]; intros l Hl; rewrite (ti_in _ _ _ _ _ I); apply in_or_app; auto).
    destruct (define_all (mkTst (d_nodes (to_db (ct_tot ct))) (w_next w) []) id idxs sem) as [st|] eqn:E; [|discriminate]. cbn [obind] in H. injection H as <- <- <-.
    rewrite (n_leaves_ok _ _ _ U). cbn [obind].
    destruct (define_all_cert id rooted sem idxs (base ct (w_next w) p) p (repeat (pos 0) (length rooted)) false st C N U NCr (repeat_length _ _) ltac:(discriminate) E) as (k' & p' & b' & i' & E' & T' & G).
    unfold base in E'. rewrite E'. cbn [obind]. eexists _, p'. split; [reflexivity|].
    pose proof (go_adv _ _ _ _ G) as A. destruct (ad_log _ _ _ _ A) as (new & L & R & W). cbn [base c_log app] in L. pose proof (ad_inv _ _ _ _ A) as C'.
    subst st. constructor; cbn [o_tot o_cls o_next o_ids o_log o_pid ct_tot ct_defs to_db set_nodes_db d_nodes].
    + reflexivity.
    + reflexivity.
    + reflexivity.
    + rewrite L. exact R.
    + symmetry. apply C'.
    + apply A.
    + apply C'.
    + destruct C' as [C1 C2 C3 C4 C5 C6]. constructor; cbn [base c_t c_ids c_defs c_pid t_nodes t_next t_cls ct_tot ct_defs to_db set_nodes_db d_nodes]; auto.
    + intros j v o s Hd. exact (go_marked _ _ _ _ G K j v o s Hd).
    + intros v Hv. rewrite L in Hv. apply W, Hv.
  - injection H as <- <- <-. eexists _, p. split; [reflexivity|]. constructor; cbn [o_tot o_cls o_next o_ids o_log o_pid]; auto; [constructor|apply grows_refl|intros v []].
Qed.

Lemma cres_noop w ct p : CInv (base ct (w_next w) p) p -> marked (base ct (w_next w) p) ->
  cres w p (ct_tot ct) [] (w_next w) (mkOut ct [] (w_next w) [] [] (ps_next p)) p.
Proof. intros C K. constructor; cbn [o_tot o_cls o_next o_ids o_log o_pid]; auto; [constructor|apply grows_refl|intros v []]. Qed.

Definition extended (ct : ctot) (t1 : tot) : ctot := mkCt t1 (ct_defs ct).

Lemma after_extend w ct p t1 : tinv [] w (ct_tot ct) -> CInv (base ct (w_next w) p) p -> marked (base ct (w_next w) p) -> extend_tree (ct_tot ct) = Some t1 ->
  tinv [] w t1 /\ to_buf t1 = [] /\ CInv (base (extended ct t1) (w_next w) p) p /\ marked (base (extended ct t1) (w_next w) p).
Proof.
  intros T C K E. destruct (extend_tree_ok _ w _ T) as (t2 & E2 & T2 & B2 & _). rewrite E in E2. injection E2 as <-.
  destruct (extend_tree_nodes _ _ _ _ T E) as (new & En & F). split; [auto|]. split; [auto|]. eapply cinv_append; eauto.
Qed.

Lemma ub_change_cert_ok w ct r p t' cs next' : tinv [] w (ct_tot ct) -> no_compl (w_in w) -> CInv (base ct (w_next w) p) p -> marked (base ct (w_next w) p) ->
  tot_encode_ub_change (ct_tot ct) r (w_next w) = Some (t', cs, next') ->
  exists o p', ct_ub_change ct r (w_next w) (ps_next p) = Some o /\ cres w p t' cs next' o p'.
Proof.
  intros T NC C K H. unfold tot_encode_ub_change in H. unfold ct_ub_change. cbv zeta.
  destruct (tot_n_lits (ct_tot ct)) as [n|]; [|discriminate]. cbn [obind] in *. destruct (prepare_ub_range n r) as (lo, hi).
  destruct (assertb (to_off (ct_tot ct) <=? n)); [|discriminate]. cbn [obind] in *.
  destruct (Nat.min hi (n - to_off (ct_tot ct)) <=? lo).
  - injection H as <- <- <-. eexists _, p. split; [reflexivity|]. now apply cres_noop.
  - destruct (extend_tree (ct_tot ct)) as [t1|] eqn:E; [|discriminate]. cbn [obind] in *.
    destruct (after_extend w ct p t1 T C K E) as (T1 & B1 & C1 & K1). exact (define_root_cert_ok w (extended ct t1) _ SIf p _ _ _ T1 B1 NC C1 K1 H).
Qed.

Lemma lb_change_cert_ok w ct r p t' cs next' : tinv [] w (ct_tot ct) -> no_compl (w_in w) -> CInv (base ct (w_next w) p) p -> marked (base ct (w_next w) p) ->
  tot_encode_lb_change (ct_tot ct) r (w_next w) = Some (t', cs, next') ->
  exists o p', ct_lb_change ct r (w_next w) (ps_next p) = Some o /\ cres w p t' cs next' o p'.
Proof.
  intros T NC C K H. unfold tot_encode_lb_change in H. unfold ct_lb_change. cbv zeta.
  destruct (tot_n_lits (ct_tot ct)) as [n|]; [|discriminate]. cbn [obind] in *. destruct (prepare_lb_range n r) as (lo, hi).
  destruct (assertb (to_off (ct_tot ct) <=? n)); [|discriminate]. cbn [obind] in *.
  destruct (Nat.min hi (n - to_off (ct_tot ct) + 1) <=? lo).
  - injection H as <- <- <-. eexists _, p. split; [reflexivity|]. now apply cres_noop.
  - destruct (extend_tree (ct_tot ct)) as [t1|] eqn:E; [|discriminate]. cbn [obind] in *.
    destruct (after_extend w ct p t1 T C K E) as (T1 & B1 & C1 & K1). exact (define_root_cert_ok w (extended ct t1) _ SOnlyIf p _ _ _ T1 B1 NC C1 K1 H).
Qed.

(** starting over *)
Lemma reset_more ns s : more ns (reset_encoded ns s).
Proof.
  split; [apply reset_skel|]. intros id val o. unfold olit. rewrite nth_reset. destruct (nth_error ns id) as [[l|lits l r|lits m l r|]|]; cbn [option_map obind reset_node node_lit]; auto.
  - destruct (val =? 0); [auto|]. rewrite nth_error_map. destruct (nth_error lits (val - 1)) as [[|o' [x|]]|]; cbn; auto.
  - rewrite (lit_data_map (fun d => ld_remove d s)). destruct (lit_data lits val) as [[|o' [x|]]|]; cbn; auto.
Qed.
Lemma reset_cert ct s next p : names (d_nodes (to_db (ct_tot ct))) next -> CInv (base ct next p) p -> marked (base ct next p) -> CInv (base (ct_reset ct s) next p) p /\ marked (base (ct_reset ct s) next p).
Proof.
  intros N C K. set (ns := d_nodes (to_db (ct_tot ct))).
  assert (Q : forall id val o x, data (reset_encoded ns s) id val = Some (LLit o x) -> exists x', data ns id val = Some (LLit o x') /\ (x <> None -> x' <> None)).
  { intros id val o x H. rewrite data_reset in H. destruct (data ns id val) as [[|o' x']|]; cbn [option_map] in H; try discriminate.
    destruct x' as [x'|]; cbn in H; injection H as <- E; exists (Some x') || exists None; (split; [reflexivity|]); [discriminate|congruence]. }
  assert (M : more ns (reset_encoded ns s)).
  { apply reset_more. }
  split.
  - destruct C as [C1 C2 C3 C4 C5 C6]. constructor; cbn [base ct_reset tot_reset ct_tot ct_defs to_db set_nodes_db d_nodes c_t c_ids c_defs c_pid t_nodes t_next t_cls] in *; auto.
    + intros id val d H. eapply def_ok_more; [exact M|apply grows_refl|apply C3; auto].
    + intros id val o x H. destruct (Q _ _ _ _ H) as (x' & H' & _). eapply C4; eauto.
  - intros id val o x Hd. cbn [base ct_reset tot_reset ct_tot ct_defs to_db set_nodes_db d_nodes c_t c_ids c_defs c_pid t_nodes] in *.
    destruct (Q _ _ _ _ Hd) as (x' & Hd' & Hx). destruct x' as [x'|]; [|exfalso; now apply Hx]. eapply K; eauto.
Qed.

Lemma ub_cert_ok w ct r p t' cs next' : tinv [] w (ct_tot ct) -> no_compl (w_in w) -> CInv (base ct (w_next w) p) p -> marked (base ct (w_next w) p) ->
  tot_encode_ub (ct_tot ct) r (w_next w) = Some (t', cs, next') ->
  exists o p', ct_ub ct r (w_next w) (ps_next p) = Some o /\ cres w p t' cs next' o p'.
Proof.
  intros T NC C K H. destruct (reset_cert ct SIf (w_next w) p (tinv_names _ _ _ T) C K) as (C' & K').
  destruct (ub_change_cert_ok (w_clear_ub w) (ct_reset ct SIf) r p t' cs next' (tinv_reset_if _ _ _ T) NC C' K' H) as (o & p' & E & R).
  exists o, p'. split; [exact E|]. destruct R. constructor; auto.
Qed.

Lemma lb_cert_ok w ct r p t' cs next' : tinv [] w (ct_tot ct) -> no_compl (w_in w) -> CInv (base ct (w_next w) p) p -> marked (base ct (w_next w) p) ->
  tot_encode_lb (ct_tot ct) r (w_next w) = Some (t', cs, next') ->
  exists o p', ct_lb ct r (w_next w) (ps_next p) = Some o /\ cres w p t' cs next' o p'.
Proof.
  intros T NC C K H. destruct (reset_cert ct SOnlyIf (w_next w) p (tinv_names _ _ _ T) C K) as (C' & K').
  destruct (lb_change_cert_ok (w_clear_lb w) (ct_reset ct SOnlyIf) r p t' cs next' (tinv_reset_oif _ _ _ T) NC C' K' H) as (o & p' & E & R).
  exists o, p'. split; [exact E|]. destruct R. constructor; auto.
Qed.
