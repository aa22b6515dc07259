(** * Trees with weights below a node of a certified generalized totalizer *)

From Coq Require Import List Bool NArith ZArith Lia Arith.
From Coq Require Import ZifyBool ZifyNat ZifyN.
From Verif Require Import Spec BoundSpec Types Constraints Maps Atomics NodeDb TreeSpec TotDb Totalizer Gte Base TotDbInv TotDbUnit TotDbDefine TotDbGeneral TotDbBuild TotDbGrow TotDbMerge TotWeighted TotDbHist.
From Verif Require Import CertSpec CertBase CertSound Cert CertW CertDefs CertSem CertStep CertProofs CertTot.
Import ListNotations.
Open Scope nat_scope.

(** ** Connections without offset and limit *)

Lemma plain_map con v : plain_con con -> nc_map con v = v * nc_mult con.
Proof. intros P. exact (simple_con_map con v P). Qed.
Lemma plain_revw con v : plain_con con -> nc_rev_map con v = v / nc_mult con.
Proof. intros (A & B & C). unfold nc_rev_map. rewrite A, B, C. lia. Qed.
Lemma plain_revw_nl con v : plain_con con -> nc_rev_map_no_limit con v = v / nc_mult con.
Proof. intros (A & B & C). unfold nc_rev_map_no_limit. rewrite A, B. lia. Qed.
Lemma plain_possible con v : plain_con con -> 1 <= nc_mult con -> nc_is_possible con v = true -> v / nc_mult con * nc_mult con = v.
Proof.
  intros (A & B & C) M. unfold nc_is_possible, is_multiple_of. rewrite C. intros H. apply Nat.eqb_eq in H.
  pose proof (Nat.div_mod_eq v (nc_mult con)). lia.
Qed.
Lemma possible_mul con x : plain_con con -> 1 <= nc_mult con -> nc_is_possible con (x * nc_mult con) = true.
Proof. intros (A & B & C) M. unfold nc_is_possible, is_multiple_of. rewrite C, Nat.mod_mul by lia. reflexivity. Qed.
Lemma plain_round con x v : plain_con con -> 1 <= nc_mult con -> x * nc_mult con < v -> x < nc_rev_map_round_up con v.
Proof.
  intros P M H. unfold nc_rev_map_round_up. rewrite plain_revw by auto. destruct P as (A & B & ->). unfold is_multiple_of.
  pose proof (Nat.div_mod_eq v (nc_mult con)) as E. pose proof (Nat.mod_upper_bound v (nc_mult con) ltac:(lia)).
  destruct (Nat.eqb_spec (v mod nc_mult con) 0) as [E0|E0]; [nia|].
  replace (v + nc_mult con) with (v + 1 * nc_mult con) by lia. rewrite Nat.div_add by lia. nia.
Qed.

Lemma vals_below n h x : In x (node_vals n 1 (Some h)) <-> In x (node_vals n 1 None) /\ x < h.
Proof.
  destruct n as [l|lits l r|lits m l r|]; cbn [node_vals].
  - change ((1 <=? 1) && true) with true. cbn [In]. destruct (Nat.leb_spec 1 1); [|lia]. cbn [andb].
    destruct (Nat.ltb_spec 1 h); cbn [In]; lia.
  - rewrite !in_range_excl. lia.
  - rewrite !filter_In, !andb_true_iff, Nat.ltb_lt. tauto.
  - cbn [In]. tauto.
Qed.

(** ** The leaves of a node *)

Lemma ones_length ls : length (ones ls) = length ls.
Proof. apply map_length. Qed.
Lemma scale_length k L : length (scale k L) = length L.
Proof. apply map_length. Qed.

Lemma gtree_len ns id L : gtree ns id L -> 1 <= length L.
Proof.
  induction 1 as [id ls U|id lits m l r xs ys H _ _ Ml Mr _ IHl _ IHr _]; [rewrite ones_length; eapply utree_pos; eauto|].
  rewrite app_length, !scale_length. lia.
Qed.

Definition wider (ns : list node) (path : list nat) (n : nat) : Prop :=
  forall j, In j path -> j < length ns /\ exists Lj, gtree ns j Lj /\ n < length Lj.

Lemma path_step ns id L path : gtree ns id L -> NoDup path -> wider ns path (length L) ->
  NoDup (id :: path) /\ length (id :: path) <= length ns /\ forall n, n < length L -> wider ns (id :: path) n.
Proof.
  intros G ND W. pose proof (gtree_lt _ _ _ G) as Lt.
  assert (ND' : NoDup (id :: path)).
  { constructor; [|auto]. intros Hin. destruct (W _ Hin) as (_ & Lj & Gj & Hl). rewrite (gtree_fun _ _ _ G _ Gj) in Hl. lia. }
  split; [auto|]. split.
  - rewrite <- (seq_length (length ns) 0). apply NoDup_incl_length; [auto|]. intros j [<-|Hj]; apply in_seq; [lia|]. destruct (W _ Hj). lia.
  - intros n Hn j [<-|Hj]; [eauto|]. destruct (W _ Hj) as (A & Lj & Gj & Hl). split; [auto|]. exists Lj. split; [auto|lia].
Qed.

Lemma leaf_wlits_u ns id ls : utree ns id ls -> forall fuel path, NoDup path -> wider ns path (length ls) ->
  length ns < fuel + length path -> leaf_wlits fuel ns id = Some (ones ls).
Proof.
  intros U. assert (G0 := wt_unit _ _ _ U). revert G0. induction U as [id l H|id lits l r ls rs H Pl Pr Ml Mr Ul IHl Ur IHr Hlen]; intros G0 fuel path ND W Hf.
  - destruct (path_step ns id (ones [l]) path G0 ND W) as (ND' & Le & _). cbn [length] in Le.
    destruct fuel; [lia|]. cbn [leaf_wlits]. rewrite H. reflexivity.
  - assert (W' : wider ns path (length (ones (ls ++ rs)))) by (rewrite ones_length; exact W).
    destruct (path_step ns id _ path G0 ND W') as (ND' & Le & Hw). pose proof (utree_pos _ _ _ Ul). pose proof (utree_pos _ _ _ Ur).
    rewrite ones_length, app_length in Hw. cbn [length] in Le.
    destruct fuel; [lia|]. cbn [leaf_wlits]. rewrite H. cbn [obind]. rewrite (plain_conb_ok _ Pl), (plain_conb_ok _ Pr). cbn [andb assertb obind].
    rewrite (IHl (wt_unit _ _ _ Ul) fuel (id :: path)); [|auto|apply Hw; lia|cbn [length]; lia]. cbn [obind].
    rewrite (IHr (wt_unit _ _ _ Ur) fuel (id :: path)); [|auto|apply Hw; lia|cbn [length]; lia]. cbn [obind].
    rewrite Ml, Mr, !scale_1, ones_app. reflexivity.
Qed.

Lemma leaf_wlits_path ns id L : gtree ns id L -> forall fuel path, NoDup path -> wider ns path (length L) ->
  length ns < fuel + length path -> leaf_wlits fuel ns id = Some L.
Proof.
  intros G. induction G as [id ls U|id lits m l r xs ys H Pl Pr Ml Mr Gl IHl Gr IHr Hm]; intros fuel path ND W Hf.
  - rewrite ones_length in W. eapply leaf_wlits_u; eauto.
  - assert (G0 : gtree ns id (scale (nc_mult l) xs ++ scale (nc_mult r) ys)) by (eapply wt_gen; eauto).
    destruct (path_step ns id _ path G0 ND W) as (ND' & Le & Hw). pose proof (gtree_len _ _ _ Gl). pose proof (gtree_len _ _ _ Gr).
    rewrite app_length, !scale_length in Hw. cbn [length] in Le.
    destruct fuel; [lia|]. cbn [leaf_wlits]. rewrite H. cbn [obind]. rewrite (plain_conb_ok _ Pl), (plain_conb_ok _ Pr). cbn [andb assertb obind].
    rewrite (IHl fuel (id :: path)); [|auto|apply Hw; lia|cbn [length]; lia]. cbn [obind].
    rewrite (IHr fuel (id :: path)); [|auto|apply Hw; lia|cbn [length]; lia]. reflexivity.
Qed.

Lemma leaf_wlits_ok ns id L : gtree ns id L -> leaf_wlits (S (length ns)) ns id = Some L.
Proof. intros G. apply (leaf_wlits_path _ _ _ G _ []); [constructor|intros j []|cbn [length]; lia]. Qed.
Lemma n_wleaves_ok ns id L : gtree ns id L -> n_wleaves ns id = Some (length L).
Proof. intros G. unfold n_wleaves. rewrite (leaf_wlits_ok _ _ _ G). reflexivity. Qed.
Lemma populate_ok k id L : gtree (t_nodes (c_t k)) id L -> populate k id = Some L.
Proof. apply leaf_wlits_ok. Qed.

Lemma unscale_scale m L : 1 <= m -> unscale m (scale m L) = L.
Proof.
  intros H. unfold unscale, scale. rewrite map_map. rewrite <- (map_id L) at 2. apply map_ext. intros (l, w). now rewrite Nat.div_mul by lia.
Qed.

(** ** The kinds of nodes of a tree *)

Lemma gtree_gen_inv ns id L lits m l r : gtree ns id L -> nth_error ns id = Some (NGeneral lits m l r) ->
  exists xs ys, L = scale (nc_mult l) xs ++ scale (nc_mult r) ys /\ plain_con l /\ plain_con r /\ 1 <= nc_mult l /\ 1 <= nc_mult r /\
    gtree ns (nc_id l) xs /\ gtree ns (nc_id r) ys.
Proof.
  intros G Hn. inversion G as [? ls U|? lits' m' l' r' xs ys H Pl Pr Ml Mr Gl Gr Hm]; subst.
  - exfalso. eapply utree_not_gen; eauto.
  - assert (Q : (l', r') = (l, r)) by congruence. injection Q as -> ->. exists xs, ys. auto 8.
Qed.

Lemma gtree_unit_inv ns id L n : gtree ns id L -> nth_error ns id = Some n -> is_unitlike n -> exists ls, L = ones ls /\ utree ns id ls.
Proof.
  intros G Hn Hu. inversion G as [? ls U|? lits' m' l' r' xs ys H Pl Pr Ml Mr Gl Gr Hm]; subst; [eauto|].
  assert (n = NGeneral lits' (total_weight (scale (nc_mult l') xs ++ scale (nc_mult r') ys)) l' r') as -> by congruence. destruct Hu.
Qed.

(** ** The values of weighted nodes *)

Definition cov (ns : list node) : Prop := forall id lits m l r, nth_error ns id = Some (NGeneral lits m l r) ->
  covered ns (map fst lits) l r /\ forall v, In v (map fst lits) -> 1 <= v <= m.

Lemma covered_skel ns vals l r : covered (skel ns) vals l r -> covered ns vals l r.
Proof.
  intros H v Hv. destruct (H v Hv) as (nl & nr & El & Er & Q). apply nth_skel_inv in El as (nl' & El & ->). apply nth_skel_inv in Er as (nr' & Er & ->).
  rewrite !node_vals_erase in Q. exists nl', nr'. auto.
Qed.
Lemma covered_unskel ns vals l r : covered ns vals l r -> covered (skel ns) vals l r.
Proof.
  intros H v Hv. destruct (H v Hv) as (nl & nr & El & Er & Q). exists (erase nl), (erase nr). rewrite !node_vals_erase. split; [now apply nth_skel|]. split; [now apply nth_skel|exact Q].
Qed.

Lemma cov_of_inv GF GU GL g ow st : inv GF GU GL g ow st -> cov (t_nodes st).
Proof.
  intros I id lits m l r Hn. pose proof (wf_node _ _ (i_shape _ _ _ _ _ _ I) _ _ (nth_skel _ _ _ Hn)) as N. cbn [erase node_ok] in N.
  destruct N as (_ & _ & _ & _ & _ & _ & _ & Hb & _ & _ & _ & _ & _ & Hc). rewrite map_map in Hb, Hc. cbn [fst] in Hb, Hc. split; [now apply covered_skel|exact Hb].
Qed.

Lemma cov_skel ns ns' : skel ns' = skel ns -> cov ns -> cov ns'.
Proof.
  intros E C id lits m l r Hn. destruct (gen_same_skel _ ns _ _ _ _ _ (eq_sym E) Hn) as (lits' & Hn' & Ef). destruct (C _ _ _ _ _ Hn') as (A & B).
  rewrite Ef in A, B. split; [|exact B]. apply covered_skel. rewrite E. now apply covered_unskel.
Qed.

Lemma vals_max ns id n L x : cov ns -> nth_error ns id = Some n -> gtree ns id L -> In x (node_vals n 1 None) -> 1 <= x <= total_weight L.
Proof.
  intros C Hn G H. destruct (gtree_node _ _ _ G) as (n' & Hn' & _ & Hm). assert (n' = n) as -> by congruence. rewrite <- Hm.
  destruct n as [l|lits l r|lits m l r|]; cbn [node_vals node_max_val] in *.
  - change ((1 <=? 1) && true) with true in H. destruct H as [<-|[]]. lia.
  - apply in_range_excl in H. lia.
  - apply filter_In in H as (H & _). destruct (C _ _ _ _ _ Hn) as (_ & B). auto.
  - destruct H.
Qed.

(** ** The tree below the root of a database *)

Lemma gV_leaves GF GU GL g ow st id L : inv GF GU GL g ow st -> tree_leaves (t_nodes st) id L -> forall a, gV g a id = wsum a L.
Proof.
  intros I T a. induction T as [id l H|id n l r ls rs H Hc Pl Pr Tl IHl Tr IHr].
  - pose proof (wf_node _ _ (i_shape _ _ _ _ _ _ I) _ _ (nth_skel _ _ _ H)) as N. cbn [erase node_ok] in N. destruct N as (_ & -> & _).
    cbn [wsum]. destruct (lit_true a l); lia.
  - assert (Sc : forall k L, wsum a (scale k L) = wsum a L * k).
    { intros k L. unfold scale. induction L as [|(x, w) L IH]; [reflexivity|]. cbn [map wsum]. rewrite IH. destruct (lit_true a x); lia. }
    rewrite wsum_app, !Sc, <- IHl, <- IHr. destruct n as [|lits l' r'|lits m l' r'|]; cbn [children] in Hc; try discriminate; injection Hc as -> ->.
    + destruct (child_facts _ _ _ _ _ _ _ _ _ _ I H) as (nl & nr & ll & lr & El & Er & Gl & Gr & _ & Ml & Mr & _ & _ & CL & CR & Len & V & _).
      rewrite V, !plain_map by auto. reflexivity.
    + destruct (general_facts _ _ _ _ _ _ _ _ _ _ _ I H) as (nl & nr & El & Er & Gl & Gr & _ & _ & Ml & Mr & _ & _ & _ & V & _). rewrite V. lia.
Qed.

Lemma wsum_all a L : (forall l, In l (map fst L) -> lit_true a l = true) -> wsum a L = total_weight L.
Proof.
  induction L as [|(l, w) L IH]; intros H; [reflexivity|]. cbn [wsum total_weight]. rewrite (H l) by now left. rewrite IH; [lia|]. intros x Hx. apply H. now right.
Qed.

Lemma gtree_of GF GU GL g ow st id L : inv GF GU GL g ow st -> tree_leaves (t_nodes st) id L -> no_compl (map fst L) -> gtree (t_nodes st) id L.
Proof.
  intros I T. assert (T0 := T). revert T0. induction T as [id l H|id n l r ls rs H Hc Pl Pr Tl IHl Tr IHr]; intros T0 NC.
  - apply (wt_unit _ _ [l]). now constructor.
  - destruct n as [|lits l' r'|lits m l' r'|]; cbn [children] in Hc; try discriminate; injection Hc as -> ->.
    + destruct (utree_of _ _ _ _ _ _ _ _ I T0) as (us & -> & U); [intros n Hn; assert (n = NUnit lits l r) as -> by congruence; exact Logic.I|]. now apply wt_unit.
    + destruct (general_facts _ _ _ _ _ _ _ _ _ _ _ I H) as (nl & nr & El & Er & Gl & Gr & _ & _ & Ml & Mr & _ & _ & Hb & V & _).
      assert (NC' := NC). rewrite map_app, !fst_scale in NC'.
      assert (Gxl : gtree (t_nodes st) (nc_id l) ls) by (apply IHl; [auto|]; eapply no_compl_sub; [|exact NC']; intros; apply in_or_app; auto).
      assert (Gxr : gtree (t_nodes st) (nc_id r) rs) by (apply IHr; [auto|]; eapply no_compl_sub; [|exact NC']; intros; apply in_or_app; auto).
      eapply wt_gen; eauto. apply Nat.le_antisymm.
      * pose proof (wf_node _ _ (i_shape _ _ _ _ _ _ I) _ _ (nth_skel _ _ _ H)) as N. cbn [erase node_ok] in N.
        destruct N as (_ & _ & _ & _ & _ & _ & _ & _ & _ & _ & _ & _ & Hm & _). rewrite map_map in Hm. cbn [fst] in Hm.
        pose proof (cov_of_inv _ _ _ _ _ _ I) as C. destruct (C _ _ _ _ _ H) as (Cv & _).
        destruct (Cv _ Hm) as (nl' & nr' & El' & Er' & Q). rewrite total_weight_app, !total_scale.
        assert (Xl := fun x => vals_max _ _ _ _ x C El' Gxl). assert (Xr := fun x => vals_max _ _ _ _ x C Er' Gxr).
        destruct Q as [(x & Hx & ->)|[(y & Hy & ->)|(x & y & Hx & Hy & ->)]].
        -- specialize (Xl _ Hx). nia.
        -- specialize (Xr _ Hy). nia.
        -- specialize (Xl _ Hx). specialize (Xr _ Hy). nia.
      * destruct (no_compl_model _ NC) as (a & Ha). rewrite <- (wsum_all a) by exact Ha. rewrite <- (gV_leaves _ _ _ _ _ _ _ _ I T0 a).
        pose proof (wf_max _ _ (i_shape _ _ _ _ _ _ I) a _ _ (nth_skel _ _ _ H)) as X. rewrite node_max_val_erase in X. exact X.
Qed.

(** ** Changing the outputs of weighted nodes *)

Lemma go_gtree k p k' p' id L : go k p k' p' -> gtree (t_nodes (c_t k)) id L -> gtree (t_nodes (c_t k')) id L.
Proof. intros G. apply gtree_skel. apply G. Qed.
Lemma go_cov k p k' p' : go k p k' p' -> cov (t_nodes (c_t k)) -> cov (t_nodes (c_t k')).
Proof. intros G. apply cov_skel. apply G. Qed.

Lemma olit_gen ns id lits m l r val o s : nth_error ns id = Some (NGeneral lits m l r) -> data ns id val = Some (LLit o s) -> olit ns id val = Some o.
Proof. intros Hn. unfold data, olit. rewrite Hn. cbn [node_data obind node_lit]. intros ->. reflexivity. Qed.

Lemma upd_more_gen ns id val d ns' lits m l r : nth_error ns id = Some (NGeneral lits m l r) -> upd_data ns id val d ns' ->
  (forall o s, data ns id val = Some (LLit o s) -> exists s', d = LLit o s') -> more ns ns' /\ keeps_out ns ns'.
Proof.
  intros Hn (S & D & Oth & Nth) Hd. split.
  - split; [auto|]. intros j v o Ho. destruct (Nat.eq_dec j id) as [->|Hj].
    + destruct (olit_inner _ _ _ _ _ Hn ltac:(discriminate) Ho) as (s & Ds). destruct (gen_same_skel _ _ _ _ _ _ _ S Hn) as (lits' & Hn' & _).
      assert (X : exists s', data ns' id v = Some (LLit o s')).
      { destruct (Nat.eq_dec v val) as [->|Hne]; [|exists s; rewrite Oth by auto; auto]. destruct (Hd _ _ Ds) as (s' & ->). eauto. }
      destruct X as (s' & X). eapply olit_gen; eauto.
    + unfold olit in *. rewrite (Nth _ Hj). exact Ho.
  - intros v (j & w & o & s & Ds & E). destruct (Nat.eq_dec j id) as [->|Hj]; [destruct (Nat.eq_dec w val) as [->|Hne]|].
    + destruct (Hd _ _ Ds) as (s' & ->). exists id, val, o, s'. auto.
    + exists id, w, o, s. rewrite Oth by auto. auto.
    + exists j, w, o, s. rewrite Oth by auto. auto.
Qed.

Lemma names_upd_gen ns next id val o s ns' next' : names ns next -> upd_data ns id val (LLit o s) ns' -> (next <= next')%N ->
  ((exists s', data ns id val = Some (LLit o s')) \/ (o = pos next /\ (next < next')%N)) -> names ns' next'.
Proof.
  intros [A B C] (S & D & Oth & Nth) L Hd.
  assert (Q : forall j v x sx, data ns' j v = Some (LLit x sx) -> (exists s', data ns j v = Some (LLit x s')) \/ (j = id /\ v = val /\ x = pos next /\ (next < next')%N)).
  { intros j v x sx H. destruct (Nat.eq_dec j id) as [->|]; [destruct (Nat.eq_dec v val) as [->|]|]; try (left; exists sx; rewrite <- Oth by auto; auto).
    rewrite D in H. injection H as <- <-. destruct Hd as [(s' & H')|(-> & Hl)]; [left; eauto|right; auto]. }
  assert (Lf : forall j x, nth_error ns' j = Some (NLeaf x) -> nth_error ns j = Some (NLeaf x)).
  { intros j x H. apply (nth_leaf_skel ns' ns j x (eq_sym S) H). }
  constructor.
  - intros j v x sx H. destruct (Q _ _ _ _ H) as [(s' & H')|(-> & -> & -> & Hl)]; [destruct (A _ _ _ _ H') as (A1 & A2); split; [auto|lia]|]. cbn [pos lneg lvar]. auto.
  - intros j v x sx j' v' x' sx' H H' E. destruct (Q _ _ _ _ H) as [(s1 & H1)|(-> & -> & -> & Hl)], (Q _ _ _ _ H') as [(s2 & H2)|(-> & -> & -> & Hl')].
    + exact (B _ _ _ _ _ _ _ _ H1 H2 E).
    + cbn [pos lvar] in E. apply A in H1. lia.
    + cbn [pos lvar] in E. apply A in H2. lia.
    + auto.
  - intros j x H. apply Lf in H. destruct (C _ _ H) as (C1 & C2). split; [lia|]. intros j' v o' s' H' E.
    destruct (Q _ _ _ _ H') as [(s1 & H1)|(-> & -> & -> & Hl)]; [exact (C2 _ _ _ _ H1 E)|]. cbn [pos lvar] in E. lia.
Qed.

Lemma marked_upd_gen k st id lits m l r val d : nth_error (t_nodes (c_t k)) id = Some (NGeneral lits m l r) -> upd_data (t_nodes (c_t k)) id val d (t_nodes st) ->
  ((forall o s, d <> LLit o (Some s)) \/ defs_get (c_defs k) id val <> None) -> marked k -> marked (with_t k st).
Proof.
  intros Hn (S & D & Oth & Nth) Hd K j v o s X. cbn [with_t c_t c_defs] in *.
  destruct (Nat.eq_dec j id) as [->|Hne]; [destruct (Nat.eq_dec v val) as [->|Hv]|].
  - rewrite D in X. injection X as ->. destruct Hd as [Hd|Hd]; [now destruct (Hd o s)|exact Hd].
  - rewrite Oth in X by auto. eapply K; eauto.
  - rewrite Oth in X by auto. eapply K; eauto.
Qed.

Lemma get_olit_general_go k p id lits m l r val o st : CInv k p -> names (t_nodes (c_t k)) (t_next (c_t k)) ->
  nth_error (t_nodes (c_t k)) id = Some (NGeneral lits m l r) -> get_olit_general (c_t k) id val = Some (o, st) ->
  go k p (with_t k st) p /\ olit (t_nodes st) id val = Some o.
Proof.
  intros C N Hn H. unfold get_olit_general in H. rewrite Hn in H. cbn [obind] in H. destruct (lit_data lits val) as [[|x s]|] eqn:E; [| |discriminate]; cbn [obind] in H.
  - injection H as <- <-. set (st := mkTst _ _ _).
    assert (D0 : data (t_nodes (c_t k)) id val = Some LNone) by (unfold data; rewrite Hn; exact E).
    pose proof (upd_data_general (t_nodes (c_t k)) id lits m l r val (LLit (pos (t_next (c_t k))) None) _ Hn E) as U.
    destruct (upd_more_gen _ _ _ _ _ _ _ _ _ Hn U ltac:(intros o s X; congruence)) as (M & O).
    assert (Nn : names (t_nodes st) (t_next st)).
    { eapply names_upd_gen; [exact N|exact U|cbn; lia|]. right. split; [auto|]. cbn. lia. }
    split.
    + apply go_db; auto; [cbn; lia| |].
      * intros j v o s X. destruct U as (_ & D & Oth & _). destruct (Nat.eq_dec j id) as [->|]; [destruct (Nat.eq_dec v val) as [->|]|]; try (left; exists s; rewrite <- Oth by auto; exact X).
        cbn [st t_nodes] in X. rewrite D in X. injection X as <- <-. right. cbn [pos lvar]. lia.
      * eapply marked_upd_gen; [exact Hn|exact U|left; intros; congruence].
    + destruct (gen_same_skel _ _ _ _ _ _ _ (proj1 U) Hn) as (lits' & Hn' & _). destruct U as (S & D & _). eapply olit_gen; eauto.
  - injection H as <- <-. rewrite with_t_self. split; [now apply go_refl|]. unfold olit. rewrite Hn. cbn [obind node_lit]. rewrite E. reflexivity.
Qed.

Lemma mark_general_go k p id lits m l r val o st : CInv k p -> names (t_nodes (c_t k)) (t_next (c_t k)) ->
  nth_error (t_nodes (c_t k)) id = Some (NGeneral lits m l r) -> olit (t_nodes (c_t k)) id val = Some o -> mark_general (c_t k) id val = Some st ->
  defs_get (c_defs k) id val <> None -> go k p (with_t k st) p.
Proof.
  intros C N Hn Ho H Hdef. unfold mark_general in H. rewrite Hn in H. cbn [obind] in H. destruct (lit_data lits val) as [dat|] eqn:E; [|discriminate]. cbn [obind] in H.
  destruct (ld_add dat SIf) as [dat'|] eqn:Ed; [|discriminate]. cbn [obind] in H. injection H as <-.
  destruct (olit_inner _ _ _ _ _ Hn ltac:(discriminate) Ho) as (s & Ds).
  assert (Dd : dat = LLit o s) by (unfold data in Ds; rewrite Hn in Ds; cbn [node_data] in Ds; congruence).
  subst dat. assert (Dd' : exists s', dat' = LLit o s') by (cbn [ld_add] in Ed; destruct s; injection Ed as <-; eauto). destruct Dd' as (s' & ->).
  pose proof (upd_data_general (t_nodes (c_t k)) id lits m l r val (LLit o s') _ Hn E) as U.
  destruct (upd_more_gen _ _ _ _ _ _ _ _ _ Hn U ltac:(intros o2 s2 X; rewrite Ds in X; injection X as <- <-; eauto)) as (M & O).
  assert (Nn : names (upd id (NGeneral (lit_data_set lits val (LLit o s')) m l r) (t_nodes (c_t k))) (t_next (c_t k))).
  { eapply names_upd_gen; [exact N|exact U|lia|]. left. eauto. }
  apply go_db; cbn [set_nodes t_nodes t_next t_cls]; auto; [lia| |].
  - intros j v o2 s2 X. left. destruct U as (_ & D & Oth & _). destruct (Nat.eq_dec j id) as [->|]; [destruct (Nat.eq_dec v val) as [->|]|]; try (exists s2; rewrite <- Oth by auto; exact X).
    rewrite D in X. injection X as <- <-. eauto.
  - eapply marked_upd_gen; [exact Hn|exact U|now right].
Qed.
