(** * Certified encodings of single pseudo-Boolean constraints with general weights *)

From Coq Require Import List Bool NArith ZArith Lia Arith Permutation Sorted.
From Coq Require Import ZifyBool ZifyNat ZifyN.
From Verif Require Import Spec BoundSpec Types Constraints ConstrSpec ConstrProofs Maps Atomics NodeDb TreeSpec TotDb Totalizer Gte Base ConstrEnc TotDbInv TotDbUnit TotDbDefine TotDbGeneral TotDbBuild TotDbGrow TotDbMerge TotWeighted TotDbHist TotalizerProofs DbWorld Simulators.
From Verif Require Import CertSpec CertBase CertSound Cert CertWorld CertW CertPbWorld CertPbSpec CertDefs CertSem CertStep CertProofs CertTot CertHist CertTally CertConstr CertPb CertWTree CertWStep CertWProofs CertWHist.
From Verif Require SimProofs ConstrEncProofs.
From Verif Require Import GteProofs.
Import ListNotations.
Open Scope nat_scope.

(** ** The root over literals of different weights *)

Lemma nodup_app_split {A} (xs ys : list A) : NoDup (xs ++ ys) -> NoDup xs /\ NoDup ys.
Proof.
  induction xs as [|x xs IH]; cbn [app]; intros H; [split; [constructor|auto]|]. inversion H as [|? ? X Y]; subst. destruct (IH Y) as (A1 & A2).
  split; [|auto]. constructor; [|auto]. intros Hx. apply X, in_or_app. auto.
Qed.

Lemma merge_rec_mult f : forall d cs cum off d' con, merge_balanced_rec f d cs cum off = Some (d', con) -> NoDup (map nc_mult cs) ->
  cs = [con] \/ nc_mult con = 1.
Proof.
  induction f as [|f IH]; intros d cs cum off d' con H ND; [discriminate|]. cbn [merge_balanced_rec] in H.
  destruct cs as [|c0 [|c1 cs]]; [discriminate|injection H as _ <-; auto|].
  set (all := c0 :: c1 :: cs) in *. right.
  destruct (find_from _ _ _) as [split|]; [|discriminate]. cbn [obind] in H.
  destruct (merge_balanced_rec f d (firstn split all) _ _) as [(d1, lc)|] eqn:E1; [|discriminate]. cbn [obind] in H.
  destruct (nth_error cum _) as [o'|]; [|discriminate]. cbn [obind] in H.
  destruct (merge_balanced_rec f d1 (skipn split all) _ _) as [(d2, rc)|] eqn:E2; [|discriminate]. cbn [obind] in H.
  assert (ND' := ND). rewrite <- (firstn_skipn split all), map_app in ND'.
  destruct (nodup_app_split _ _ ND') as (N1 & N2).
  pose proof (IH _ _ _ _ _ _ E1 N1) as L. pose proof (IH _ _ _ _ _ _ E2 N2) as R. unfold merge_two in H.
  destruct (Nat.ltb_spec 1 (nc_mult lc)); destruct (Nat.eqb_spec (nc_mult lc) (nc_mult rc)) as [E|E]; cbn [andb] in H.
  - exfalso. destruct L as [L|L]; [|lia]. destruct R as [R|R]; [|lia]. rewrite L, R in ND'. cbn in ND'. inversion ND' as [|? ? X _]; subst. apply X. left. congruence.
  - destruct (node_internal _ _ _) as [n|]; [|discriminate]. cbn [obind] in H. destruct (db_insert d2 n). injection H as _ <-. reflexivity.
  - destruct (node_internal _ _ _) as [n|]; [|discriminate]. cbn [obind] in H. destruct (db_insert d2 n). injection H as _ <-. reflexivity.
  - destruct (node_internal _ _ _) as [n|]; [|discriminate]. cbn [obind] in H. destruct (db_insert d2 n). injection H as _ <-. reflexivity.
Qed.

Lemma segments_sorted ls : sorted_by (fun x y : lit * nat => (snd x <=? snd y) = true) ls -> StronglySorted lt (map snd (segments ls)).
Proof.
  induction 1 as [|[l w] ls H S IH]; [constructor|]. cbn [segments]. pose proof (segments_weights ls) as SW.
  destruct (segments ls) as [|[seg w'] rest]; [repeat constructor|]. cbn [map snd] in IH.
  assert (Hge : forall s, In s ((seg, w') :: rest) -> w <= snd s).
  { intros s Hs. destruct (SW s Hs) as (x & Hx). specialize (H _ Hx). cbn [snd] in H. lia. }
  inversion IH as [|? ? IH1 IH2]; subst. destruct (Nat.eqb_spec w w') as [<-|Ne]; cbn [map snd].
  - constructor; auto.
  - constructor; [constructor; auto|]. assert (w <= w') by (apply (Hge (seg, w')); now left). constructor; [lia|].
    rewrite Forall_forall in *. intros x Hx. specialize (IH2 x Hx). lia.
Qed.

Lemma sorted_nodup xs : StronglySorted lt xs -> NoDup xs.
Proof.
  induction 1 as [|x xs S IH F]; constructor; [|auto]. intros Hx. rewrite Forall_forall in F. specialize (F x Hx). lia.
Qed.

Lemma add_segments_mult segs : forall d cs d' cs', foldM add_segment segs (d, cs) = Some (d', cs') -> map nc_mult cs' = map nc_mult cs ++ map snd segs.
Proof.
  induction segs as [|s segs IH]; intros d cs d' cs' H; cbn [foldM] in H; [injection H as _ <-; now rewrite app_nil_r|].
  cbn [add_segment] in H. destruct (lit_tree d (fst s)) as [(d1, [id|])|]; cbn [obind] in H; try discriminate.
  unfold con_weighted in H. destruct (snd s =? 0); [discriminate|]. cbn [obind] in H. apply IH in H. rewrite H, map_app, <- app_assoc. reflexivity.
Qed.

Lemma extend_root ord t ub t1 x y : iter_order ord -> gt_root t = None -> gte_extend_tree ord t (Some ub) = Some t1 ->
  In x (gt_buf t) -> In y (gt_buf t) -> snd x <= ub -> snd y <= ub -> snd x <> snd y ->
  gt_buf t1 = filter (fun lw => negb (weight_le (snd lw) (Some ub))) (gt_buf t) /\ exists con, gt_root t1 = Some con /\ nc_mult con = 1.
Proof.
  intros Ho Er H Hx Hy Lx Ly Ne. unfold gte_extend_tree in H. rewrite Er in H.
  set (new := filter (fun lw => weight_le (snd lw) (Some ub)) (ord (gt_buf t))) in *.
  assert (Hin : forall z, In z (gt_buf t) -> snd z <= ub -> In z new).
  { intros z Hz Lz. apply filter_In. split; [|cbn [weight_le]; lia]. eapply Permutation_in; [symmetry; apply Ho|auto]. }
  pose proof (Hin x Hx Lx) as Nx. pose proof (Hin y Hy Ly) as Ny. destruct new as [|z0 zs] eqn:En; [destruct Nx|]. rewrite <- En in *. clear Hin.
  destruct (foldM add_segment _ _) as [(d1, cs)|] eqn:E1; [|discriminate]. cbn [obind] in H. apply add_segments_mult in E1. cbn [map app] in E1.
  rewrite app_nil_r in H. unfold merge_balanced in H. destruct cs as [|c0 cs]; [discriminate|].
  destruct (cum_weights _ _ _) as [cum|]; [|discriminate]. cbn [obind] in H.
  destruct (merge_balanced_rec _ _ _ _ _) as [(d2, con)|] eqn:E2; [|discriminate]. cbn [obind] in H. injection H as <-. cbn [gt_root gt_buf].
  split; [reflexivity|]. exists con. split; [reflexivity|]. set (srt := sort_by _ new) in *. assert (Ps : Permutation srt new) by apply sort_by_perm.
  assert (Ss : sorted_by (fun x y : lit * nat => (snd x <=? snd y) = true) srt) by (apply sort_by_sorted; intros; lia).
  destruct (merge_rec_mult _ _ _ _ _ _ _ E2) as [Q|Q]; [rewrite E1; apply sorted_nodup, segments_sorted, Ss| |exact Q].
  exfalso. apply Ne. rewrite Q in E1. cbn [map] in E1. pose proof (segments_concat srt) as C.
  destruct (segments srt) as [|s [|s' segs]]; cbn [map] in E1; try discriminate. cbn [map concat] in C. rewrite app_nil_r in C.
  assert (A : forall z, In z new -> snd z = snd s).
  { intros z Hz. assert (Hz' : In z srt) by (eapply Permutation_in; [symmetry; exact Ps|auto]). rewrite <- C in Hz'. unfold seg_lits in Hz'. apply in_map_iff in Hz' as (q & <- & _). reflexivity. }
  rewrite (A x Nx), (A y Ny). reflexivity.
Qed.

(** ** The identifiers used by the weighted code *)

Lemma wstep_spent id val lc rc k lv rv ls rs c k' : wstep id val lc rc k lv rv ls rs c = Some k' -> spent k k'.
Proof.
  unfold wstep. intros H. somes H.
  match goal with E : write_ops ?k3 (seq_sat ?s) = Some _ |- _ => assert (D : derive k3 DNone DNone DNone c = derive k3 DNone DNone DNone c) by reflexivity; clear D end.
  eapply spent_trans; [eapply semantics_spent; eassumption|]. eapply spent_trans; [eapply semantics_spent; eassumption|].
  eapply spent_trans; [eapply semantics_spent; eassumption|].
  match goal with E : write_ops _ ?s = Some _ |- _ => unfold write_ops in E; destruct s as [|x ops]; [discriminate E|]; cbn [write] in E; injection E as <- <- end.
  injection H as <-. eexists [SPol (x :: ops)]. cbn [collect c_log c_pid c_defs c_ids length seq]. split; [auto|]. split; [repeat constructor|]. split; [lia|]. now rewrite app_assoc.
Qed.

Section Rec.
Variable define : cst -> nat -> nat -> list (lit * nat) -> bool -> bool -> option wres.
Hypothesis Hdef : forall k id v ls i n r k' ls', define k id v ls i n = Some (r, k', ls') -> spent k k'.

Lemma child_spent k con v ls i r k' ls' : define_child define k con v ls i = Some (r, k', ls') -> spent k k'.
Proof.
  unfold define_child. intros H. destruct (define _ _ _ _ _ _) as [((q, k1), ls1)|] eqn:E; [|discriminate]. cbn [obind] in H. apply Hdef in E.
  destruct q as [(l, b)|]; [destruct (assertb b); [|discriminate]|]; injection H as _ <- _; exact E.
Qed.

Definition wspent (s s' : wst) : Prop := spent (fst (fst s)) (fst (fst s')).

Lemma sum_spent id val o lc rc rm s v s' : sum_step define id val o lc rc rm s v = Some s' -> wspent s s'.
Proof.
  destruct s as ((k, (lls, li)), (rls, ri)). unfold sum_step. intros H. destruct (assertb _); [|discriminate]. cbn [obind] in H. cbv zeta in H.
  destruct (_ && _); [|injection H as <-; apply spent_refl].
  destruct (define_child define k _ _ _ _) as [((q, k1), l1)|] eqn:E1; [|discriminate]. cbn [obind] in H. apply child_spent in E1.
  destruct q as [rl|]; [|injection H as <-; exact E1].
  destruct (define_child define k1 _ _ _ _) as [((q2, k2), l2)|] eqn:E2; [|discriminate]. cbn [obind] in H. apply child_spent in E2.
  destruct q2 as [ll|]; [|discriminate]. destruct (wstep _ _ _ _ _ _ _ _ _ _) as [k3|] eqn:E3; [|discriminate]. cbn [obind] in H. injection H as <-.
  unfold wspent. cbn [fst]. eapply spent_trans; [exact E1|]. eapply spent_trans; [exact E2|]. eapply wstep_spent; eauto.
Qed.

Lemma left_spent id val o lc rc s s' : left_step define id val o lc rc s = Some s' -> wspent s s'.
Proof.
  destruct s as ((k, (lls, li)), (rls, ri)). unfold left_step. intros H. destruct (max_val_at _ _); [|discriminate]. cbn [obind] in H.
  destruct (_ && _); [|injection H as <-; apply spent_refl].
  destruct (define_child define k _ _ _ _) as [((q, k1), l1)|] eqn:E1; [|discriminate]. cbn [obind] in H. apply child_spent in E1.
  destruct q as [ll|]; [|injection H as <-; exact E1]. destruct (if ri then _ else _); [|discriminate]. cbn [obind] in H. destruct (assertb _); [|discriminate]. cbn [obind] in H.
  destruct (wstep _ _ _ _ _ _ _ _ _ _) as [k3|] eqn:E3; [|discriminate]. cbn [obind] in H. injection H as <-. unfold wspent. cbn [fst].
  eapply spent_trans; [exact E1|]. eapply wstep_spent; eauto.
Qed.

Lemma right_spent id val o lc rc s s' : right_step define id val o lc rc s = Some s' -> wspent s s'.
Proof.
  destruct s as ((k, (lls, li)), (rls, ri)). unfold right_step. intros H. destruct (max_val_at _ _); [|discriminate]. cbn [obind] in H.
  destruct (_ && _); [|injection H as <-; apply spent_refl].
  destruct (define_child define k _ _ _ _) as [((q, k1), l1)|] eqn:E1; [|discriminate]. cbn [obind] in H. apply child_spent in E1.
  destruct q as [ll|]; [|injection H as <-; exact E1]. destruct (if li then _ else _); [|discriminate]. cbn [obind] in H. destruct (assertb _); [|discriminate]. cbn [obind] in H.
  destruct (wstep _ _ _ _ _ _ _ _ _ _) as [k3|] eqn:E3; [|discriminate]. cbn [obind] in H. injection H as <-. unfold wspent. cbn [fst].
  eapply spent_trans; [exact E1|]. eapply wstep_spent; eauto.
Qed.
End Rec.

Lemma weighted_spent f : forall k id v ls i n r k' ls', define_weighted_cert f k id v ls i n = Some (r, k', ls') -> spent k k'.
Proof.
  induction f as [|f IH]; intros k id v ls i n r k' ls' H; [discriminate|]. cbn [define_weighted_cert] in H.
  destruct (nth_error _ id) as [nd|]; [|discriminate]. cbn [obind] in H. destruct (assertb _); [|discriminate]. cbn [obind] in H.
  destruct nd as [l|lits l rr|lits m l rr|].
  - destruct (assertb _); [|discriminate]. cbn [obind] in H. destruct (assertb _); [|discriminate]. cbn [obind] in H. injection H as _ <- _. apply spent_refl.
  - destruct (n_wleaves _ _); [|discriminate]. cbn [obind] in H. destruct (assertb _); [|discriminate]. cbn [obind] in H.
    destruct (_ || _); [injection H as _ <- _; apply spent_refl|].
    destruct (define_unweighted_cert _ _ _ _ _ _ _ _) as [(((x, k1), ul), b)|] eqn:E; [|discriminate]. cbn [obind] in H. apply define_spent in E.
    destruct (_ && _); injection H as _ <- _; exact E.
  - destruct (n_wleaves _ _); [|discriminate]. cbn [obind] in H. destruct (assertb _); [|discriminate]. cbn [obind] in H.
    destruct (lit_data lits v) as [dat|]; [|injection H as _ <- _; apply spent_refl]. destruct (ld_has_if dat) as [x|].
    + destruct (_ && _); [|injection H as _ <- _; apply spent_refl]. destruct (populate _ _); [|discriminate]. cbn [obind] in H. destruct (assertb _); [|discriminate]. cbn [obind] in H.
      injection H as _ <- _. apply spent_refl.
    + destruct (get_olit_general _ _ _) as [(o, st0)|]; [|discriminate]. cbn [obind] in H. destruct (assertb _); [|discriminate]. cbn [obind] in H.
      destruct (n_wleaves _ (nc_id l)) as [nl|]; [|discriminate]. cbn [obind] in H. destruct (assertb _); [|discriminate]. cbn [obind] in H. cbv zeta in H.
      match type of H with obind ?x _ = _ => destruct x as [s1|] eqn:E1; [|discriminate] end. cbn [obind] in H.
      destruct (left_step _ _ _ _ _ _ _) as [s2|] eqn:E2; [|discriminate]. cbn [obind] in H.
      destruct (right_step _ _ _ _ _ _ _) as [s3|] eqn:E3; [|discriminate]. cbn [obind] in H. destruct s3 as ((k3, (l3, li3)), (r3, ri3)).
      destruct (mark_general _ _ _) as [st4|]; [|discriminate]. cbn [obind] in H. destruct (assertb _); [|discriminate]. cbn [obind] in H. injection H as _ <- _.
      apply (left_spent _ IH) in E2. apply (right_spent _ IH) in E3.
      assert (A1 : spent k (fst (fst s1))).
      { destruct (_ <? _); [|injection E1 as <-; apply spent_with_t]. destruct (nth_error _ _); [|discriminate]. cbn [obind] in E1. destruct (max_val_at _ _); [|discriminate]. cbn [obind] in E1.
        eapply spent_trans; [exact (spent_with_t k st0)|].
        match type of E1 with foldM _ _ ?s0 = _ => change (wspent s0 s1) end.
        refine (foldM_rel wspent _ (fun a => spent_refl _) (fun a b c => spent_trans _ _ _) _ _ _ _ E1).
        intros a x b Ex. eapply sum_spent; eauto. }
      eapply spent_trans; [exact A1|]. eapply spent_trans; [exact E2|]. eapply spent_trans; [exact E3|]. apply spent_with_t.
  - injection H as _ <- _. apply spent_refl.
Qed.

(** a call seen as one of the unweighted encoding, for the lemmas about identifiers *)
Definition conv (o : wout) : cout := mkOut (mkCt (tot_from []) (cg_defs (wo_enc o))) (wo_cls o) (wo_next o) (wo_ids o) (wo_log o) (wo_pid o).

Lemma wub_tally ord g r next pid o : cg_ub ord (mkCg g []) r next pid = Some o -> tally (ctot_from []) pid (conv o).
Proof.
  unfold cg_ub, cg_ub_change. intros H. cbv zeta in H. destruct (gte_weight_sum _); [|discriminate]. cbn [obind] in H. destruct (prepare_ub_range _ _).
  destruct (_ <=? _); [injection H as <-; repeat split; cbn; auto|]. destruct (gte_extend_tree _ _ _) as [t1|]; [|discriminate]. cbn [obind] in H.
  destruct (gt_root t1) as [con|]; [|injection H as <-; repeat split; cbn; auto]. destruct (nth_error _ _); [|discriminate]. cbn [obind] in H. destruct (n_wleaves _ _); [|discriminate]. cbn [obind] in H.
  unfold define_vals_cert in H. destruct (foldM _ _ _) as [((k, lv), i)|] eqn:E; [|discriminate]. cbn [obind] in H. injection H as <-.
  match type of E with foldM _ _ (?k0, ?l0, _) = _ => assert (Q : spent k0 k) end.
  { match type of E with foldM _ _ (?k0, ?l0, _) = _ => change (spent (fst (fst (k0, l0, false))) (fst (fst (k, lv, i)))) end.
    refine (foldM_rel (fun s s' : cst * list (lit * nat) * bool => spent (fst (fst s)) (fst (fst s'))) _ (fun a => spent_refl _) (fun a b c => spent_trans _ _ _) _ _ _ _ E).
    intros ((k0, lv0), i0) x ((k1, lv1), i1) E1. cbn [fst]. destruct (define_weighted_cert _ _ _ _ _ _ _) as [((q, k2), lv2)|] eqn:Ed; [|discriminate].
    cbn [obind] in E1. destruct q as [(y, b)|]; [|discriminate]. injection E1 as <- _ _. eapply weighted_spent; eauto. }
  destruct Q as (new & Lg & F & P & Q). cbn [cg_reset cg_defs fst c_log c_pid c_defs c_ids app def_ids flat_map] in *. subst new.
  split; [exact F|]. split; [exact P|]. cbn [conv o_tot ct_defs wo_enc wo_ids wo_log o_ids o_log cg_defs ctot_from def_ids flat_map app]. exact Q.
Qed.

(** ** The output literals of the root *)

Lemma data_olit ns id v l s : data ns id v = Some (LLit l s) -> olit ns id v = Some l.
Proof.
  unfold data, olit. destruct (nth_error ns id) as [[]|]; cbn [obind node_data node_lit]; try discriminate; [destruct (v =? 0); [discriminate|]|]; intros H; rewrite H; reflexivity.
Qed.

Lemma defs_get_ids ds id v d j : defs_get ds id v = Some d -> sd_only_if d = Some j -> In j (def_ids ds).
Proof.
  intros Ed Ej. induction ds as [|((a, b), d') ds IH]; [discriminate|]. cbn [defs_get] in Ed. cbn [def_ids flat_map]. fold (def_ids ds). apply in_or_app.
  destruct ((a =? id) && (b =? v)); [injection Ed as ->; left; rewrite Ej; apply in_or_app; right; now left|right; auto].
Qed.

Lemma wcnt_wsum a (L : list (lit * nat)) : wcnt a L = Z.of_nat (wsum a L).
Proof.
  unfold wcnt, zw. induction L as [|[l w] L IH]; [reflexivity|]. cbn [map wsum]. rewrite zwsum_cons', IH. unfold lv. destruct (lit_true a l); lia.
Qed.

Lemma scale_1 (L : list (lit * nat)) : scale 1 L = L.
Proof. unfold scale. induction L as [|[l w] L IH]; [reflexivity|]. cbn [map]. rewrite IH. f_equal. f_equal. lia. Qed.

Lemma nc_rev_1 con v : simple_con con -> nc_mult con = 1 -> nc_rev_map con v = v.
Proof. intros (O & D & L) M. unfold nc_rev_map. rewrite L, D, O, M, Nat.div_1_r. lia. Qed.
Lemma nc_up_1 con v : simple_con con -> nc_mult con = 1 -> nc_rev_map_round_up con v = v.
Proof.
  intros C M. pose proof (plain_round_up con v v C ltac:(lia)) as A. pose proof (plain_round_up con (v - 1) v C ltac:(lia)) as B. rewrite M in *.
  pose proof (plain_round_up con (nc_rev_map_round_up con v) v C ltac:(lia)) as D. rewrite M in D. lia.
Qed.

Section Root.
Variables (w : world (lit * nat)) (cg : cgte) (p : pstate) (con : nodecon).
Hypothesis T : ginv [] w (cg_gte cg).
Hypothesis NC : no_compl (map fst (w_in w)).
Hypothesis C : CInv (wbase cg (w_next w) p) p.
Hypothesis K : marked (wbase cg (w_next w) p).
Hypothesis Eb : gt_buf (cg_gte cg) = [].
Hypothesis Er : gt_root (cg_gte cg) = Some con.
Hypothesis M1 : nc_mult con = 1.
Hypothesis Ht : 2 <= total_weight (w_in w).

Let ns := d_nodes (gt_db (cg_gte cg)).

Lemma root_facts : exists g n L, wf_shape (skel ns) g /\ nth_error ns (nc_id con) = Some n /\ is_dummy n = false /\ gtree ns (nc_id con) L /\ simple_con con /\
  (forall a, wsum a L = wsum a (w_in w)) /\ total_weight L = total_weight (w_in w) /\ node_max_val n = total_weight L.
Proof.
  destruct T as (g & ow & rls & I). destruct (root_leaves _ _ _ _ _ _ _ I Er NC) as (L & G & _ & Er').
  pose proof (gi_root _ _ _ _ _ _ I) as R. rewrite Er in R. destruct (wt_good _ _ _ _ R) as (Sc & _).
  rewrite M1, scale_1 in Er'. subst rls. destruct (gtree_node _ _ _ G) as (n & Hn & D & Mx). exists g, n, L.
  split; [exact (proj1 (di_built _ _ _ _ _ (gi_d _ _ _ _ _ _ I)))|]. split; [exact Hn|]. split; [exact D|]. split; [exact G|]. split; [exact Sc|]. split; [|split; [|exact Mx]].
  - intros a. rewrite (gi_sum _ _ _ _ _ _ I), Eb. cbn [wsum]. lia.
  - rewrite (gi_total _ _ _ _ _ _ I), Eb. cbn [total_weight]. lia.
Qed.

Lemma wdetails n v l : nth_error ns (nc_id con) = Some n -> In v (node_vals n 1 None) -> lit_has ns (nc_id con) v SIf l ->
  exists d j, gte_output_details cg v = Some (l, d) /\ sd_only_if d = Some j /\ In j (def_ids (cg_defs cg)) /\
    con_is p j (fun a => Z.of_nat (wsum a (w_in w)) - Z.of_nat v * lv a l)%Z.
Proof.
  intros Hn Hv Hl. destruct root_facts as (g & n' & L & W & Hn' & D & G & Sc & Sm & Tt & Mx). assert (n' = n) as -> by congruence.
  pose proof (vals_pos _ _ _ _ _ W Hn Hv) as Bv.
  destruct Hl as [(Hlf & ->)|(s & Hd & Hs & _)].
  { exfalso. rewrite Hn in Hlf. injection Hlf as ->. cbn [node_max_val] in Mx. lia. }
  destruct s as [s|]; [|specialize (Hs eq_refl); discriminate].
  pose proof (K _ _ _ _ Hd) as Kd. cbn [wbase c_defs] in Kd. destruct (defs_get (cg_defs cg) (nc_id con) v) as [d|] eqn:Ed; [|congruence].
  destruct (ci_defs _ _ C _ _ _ Ed) as (L' & G' & V & O & A & B & _). cbn [wbase c_t t_nodes] in *. fold ns in G', O, A, B.
  pose proof (gtree_fun _ _ _ G _ G'). subst L'. destruct (B ltac:(lia)) as (j & Ej & Cj).
  pose proof (data_olit _ _ _ _ _ Hd) as Eo. exists d, j. split; [|split; [exact Ej|split; [exact (defs_get_ids _ _ _ _ _ Ed Ej)|]]].
  - unfold gte_output_details. cbv zeta. rewrite Er. cbn [obind]. rewrite nc_rev_1 by auto.
    assert (nc_is_possible con v = true) as ->.
    { destruct Sc as (_ & _ & Lm). unfold nc_is_possible, is_multiple_of. rewrite Lm, M1, Nat.mod_1_r. reflexivity. }
    cbn [assertb obind]. rewrite Ed. cbn [obind]. fold ns. rewrite Hn. cbn [obind]. unfold olit in Eo. rewrite Hn in Eo. cbn [obind] in Eo. rewrite Eo. reflexivity.
  - eapply con_is_ext; [|exact Cj]. intros a. unfold woif, outT. rewrite Eo, wcnt_wsum, Sm. destruct (Nat.eqb_spec v 0); [lia|]. destruct (Nat.ltb_spec (total_weight L) v); [lia|reflexivity].
Qed.

Lemma next_is n x y : nth_error ns (nc_id con) = Some n -> In y (node_vals n 1 None) -> x < y -> (forall z, In z (node_vals n 1 None) -> x < z -> y <= z) ->
  gte_next_higher (cg_gte cg) x = Some y.
Proof.
  intros Hn Hy L Hz. destruct root_facts as (g & n' & L' & W & Hn' & D & G & Sc & _). assert (n' = n) as -> by congruence.
  unfold gte_next_higher. rewrite Er. fold ns. rewrite Hn. cbn [obind]. rewrite nc_up_1 by auto.
  pose proof (fun v => node_vals_above g ns (nc_id con) n (x + 1) v W Hn ltac:(lia)) as Ab.
  pose proof (vals_sorted_any g ns (nc_id con) n (x + 1) None W Hn) as S.
  destruct (node_vals n (x + 1) None) as [|z zs]; [exfalso; apply (proj2 (Ab y)); split; [auto|lia]|].
  assert (Hz0 : In z (node_vals n 1 None) /\ x + 1 <= z) by (apply Ab; now left).
  assert (In y (z :: zs)) as [<-|Hin] by (apply Ab; split; [auto|lia]).
  - rewrite (simple_con_map _ _ Sc), M1. f_equal. lia.
  - inversion S as [|? ? _ F]; subst. rewrite Forall_forall in F. specialize (F y Hin). specialize (Hz z (proj1 Hz0) ltac:(lia)). lia.
Qed.

Lemma next_some x : exists y, gte_next_higher (cg_gte cg) x = Some y.
Proof.
  destruct root_facts as (g & n & L & W & Hn & _). unfold gte_next_higher. rewrite Er. fold ns. rewrite Hn. cbn [obind]. eauto.
Qed.
End Root.

(** the values the loop goes through *)
Fixpoint linked (t : gte) (vals : list nat) : Prop :=
  match vals with
  | [] => True
  | v :: vs => (exists y, gte_next_higher t v = Some y /\ match vs with [] => True | x :: _ => y = x end) /\ linked t vs
  end.

Lemma linked_of t (NV : list nat) : (forall x, exists y, gte_next_higher t x = Some y) ->
  (forall x y, In y NV -> x < y -> (forall z, In z NV -> x < z -> y <= z) -> gte_next_higher t x = Some y) ->
  forall vals, StronglySorted lt vals -> (forall v, In v vals -> In v NV) -> (forall x z v, In x vals -> In v vals -> In z NV -> x < z <= v -> In z vals) -> linked t vals.
Proof.
  intros Hs Hn. induction vals as [|v vs IH]; intros S Hin Hc; [exact Logic.I|]. inversion S as [|? ? S1 F]; subst. rewrite Forall_forall in F. cbn [linked]. split.
  - destruct vs as [|x vs]; [destruct (Hs v) as (y & E); eauto|]. exists x. split; [|reflexivity]. apply Hn; [apply Hin; right; now left|apply F; now left|].
    intros z Hz L. destruct (Nat.le_gt_cases x z) as [G|G]; [exact G|]. exfalso.
    assert (Q : In z (v :: x :: vs)) by (apply (Hc v z x); [now left|right; now left|auto|lia]). inversion S1 as [|? ? _ F1]; subst. rewrite Forall_forall in F1.
    destruct Q as [<-|[<-|Q]]; [lia|lia|]. specialize (F1 z Q). lia.
  - apply IH; [auto|intros; apply Hin; now right|]. intros x z u Hx Hu Hz L. assert (Q : In z (v :: vs)) by (apply (Hc x z u); [now right|now right|auto|auto]).
    destruct Q as [<-|Q]; [|exact Q]. specialize (F x Hx). lia.
Qed.

(** ** The loop over the assumptions *)

Lemma div_unit p id j f1 f2 v ub l : ps_ok p -> con_is p id f1 -> con_is p j f2 -> ub < v -> (forall a, f1 a + f2 a = Z.of_nat ub - Z.of_nat v * lv a l)%Z ->
  pol_result p [OId id; OId j; OAdd; ODiv v] = Some (clause_con [neg l]).
Proof.
  intros Hp H1 H2 L Hf.
  assert (K1 : computes p [OId id] f1).
  { destruct (operand p (DId id) f1 Hp H1) as [(E & _)|(op & c & E & R & W & D & S)]; [discriminate|]. cbn [def_seq] in E. injection E as <-.
    exists c. split; [discriminate|]. split; [intros st; cbn [rpn_run]; now rewrite R|auto]. }
  assert (Ha : exists a, (f1 a + f2 a <= 0)%Z).
  { destruct (no_compl_model [l]) as (a & A). { intros x y [<-|[]] [<-|[]]. apply neg_ne. }
    exists a. rewrite Hf. unfold lv. rewrite (A l (or_introl eq_refl)). lia. }
  destruct (computes_add p [OId id] f1 (DId j) f2 Hp K1 H2 Ha) as (c & _ & R & W & D & S). cbn [seq_add def_seq app] in R.
  assert (Ec : c = ([(neg l, Z.of_nat v)], Z.of_nat v - Z.of_nat ub)%Z).
  { apply slack_ext; [auto| |].
    - cbn [fst]. apply wf_cons; [lia|intros ? ? []|apply wf_nil].
    - intros a. rewrite S, Hf. unfold slack. cbn [fst snd]. rewrite zwsum_cons', lv_neg. cbn [zwsum]. lia. }
  assert (Ek : clause_con [neg l] = ([(neg l, 1)], 1)%Z).
  { assert (En : norm (clause_raw [neg l]) = ([(neg l, 1)], 1)%Z).
    { apply slack_ext; [apply norm_wf|cbn [fst]; apply wf_cons; [lia|intros ? ? []|apply wf_nil]|]. intros a. rewrite norm_slack. reflexivity. }
    unfold clause_con. rewrite En. reflexivity. }
  assert (Ed : cp_div (Z.of_nat v) c = ([(neg l, 1)], 1)%Z).
  { subst c. unfold cp_div. cbn [fst snd map]. assert (Q : forall x, (0 < x <= Z.of_nat v)%Z -> zceil x (Z.of_nat v) = 1%Z).
    { intros x Hx. pose proof (zceil_le x (Z.of_nat v) ltac:(lia)). pose proof (zceil_lub x (Z.of_nat v) 1 ltac:(lia) ltac:(lia)). nia. }
    rewrite !Q by lia. reflexivity. }
  unfold pol_result. change [OId id; OId j; OAdd; ODiv v] with ([OId id; OId j; OAdd] ++ [ODiv v]).
  assert (App : forall xs ys st st', rpn_run p xs st = Some st' -> rpn_run p (xs ++ ys) st = rpn_run p ys st').
  { induction xs as [|x xs IH]; intros ys st st' H; cbn [rpn_run app] in *; [now injection H as ->|]. destruct (rpn_step p x st); [auto|discriminate]. }
  rewrite (App _ _ _ _ (R [])). cbn [rpn_run rpn_step]. destruct (Nat.eqb_spec v 0); [lia|]. rewrite Ed, Ek. reflexivity.
Qed.

(** an output whose definition is in the proof *)
Definition unit_ok (cg : cgte) (ls : list (lit * nat)) (ub : nat) (p : pstate) (v : nat) (l : lit) : Prop :=
  ub < v /\ exists d j, gte_output_details cg v = Some (l, d) /\ sd_only_if d = Some j /\ con_is p j (fun a => Z.of_nat (wsum a ls) - Z.of_nat v * lv a l)%Z.

Lemma unit_ok_grows cg ls ub p p' v l : grows p p' -> unit_ok cg ls ub p v l -> unit_ok cg ls ub p' v l.
Proof. intros G (L & d & j & E1 & E2 & Cj). split; [auto|]. exists d, j. split; [auto|]. split; [auto|]. eapply con_is_grows; eauto. Qed.

Lemma Forall2_nil_l {A B} (R : A -> B -> Prop) ys : Forall2 R [] ys -> ys = [].
Proof. inversion 1. reflexivity. Qed.
Lemma Forall2_cons_l {A B} (R : A -> B -> Prop) x xs ys : Forall2 R (x :: xs) ys -> exists y ys', ys = y :: ys' /\ R x y /\ Forall2 R xs ys'.
Proof. inversion 1; subst; eauto. Qed.

Lemma unit_loops cg ls ub id vals outs : forall o p val,
  Forall2 (unit_ok cg ls ub p) vals outs -> linked (cg_gte cg) vals -> match vals with [] => True | v :: _ => val = v end ->
  wo_enc o = cg -> ps_ok p -> ps_next p = wo_pid o -> con_is p id (fun a => Z.of_nat ub - Z.of_nat (wsum a ls))%Z ->
  exists o' p' val' log ids, foldM unit_loop (map neg outs) (o, id, val) = Some (o', id, val') /\ wo_enc o' = cg /\
    wo_cls o' = wo_cls o ++ units (map neg outs) /\ wo_next o' = wo_next o /\ wo_log o' = wo_log o ++ log /\ ps_run p log p' /\ wit_vars log = [] /\
    ps_next p' = wo_pid o' /\ grows p p' /\ wo_ids o' = wo_ids o ++ ids /\ Forall2 (fun cl i => ps_get p' i = Some (clause_con cl)) (units (map neg outs)) ids /\
    (forall pid, tally (ctot_from []) pid (conv o) -> tally (ctot_from []) pid (conv o')).
Proof.
  revert outs. induction vals as [|v vals IH]; intros outs o p val F Lk Hv Ee Hp Hn Hid; [apply Forall2_nil_l in F as ->|apply Forall2_cons_l in F as (l & outs' & -> & U & F')]; cbn [map foldM].
  - exists o, p, val, [], []. rewrite !app_nil_r. split; [reflexivity|]. split; [auto|]. split; [auto|]. split; [auto|]. split; [auto|]. split; [constructor|]. split; [auto|].
    split; [auto|]. split; [apply grows_refl|]. split; [auto|]. split; [constructor|auto].
  - subst val. destruct U as (L & d & j & E1 & E2 & Cj). cbn [linked] in Lk. destruct Lk as ((y & Ey & Hy) & Lk).
    assert (Pr : pol_result p [OId id; OId j; OAdd; ODiv v] = Some (clause_con [neg l])) by (eapply (div_unit p id j _ _ v ub l Hp Hid Cj L); intros a; ring).
    set (p1 := ps_add p (clause_con [neg l])). destruct (clause_con_wf [neg l]) as (Wc & Dc). assert (Hp1 : ps_ok p1) by now apply ps_ok_add. assert (G1 : grows p p1) by now apply grows_add.
    set (o1 := mkWout (wo_enc o) (wo_cls o ++ [[neg l]]) (wo_next o) (wo_ids o ++ [wo_pid o]) (wo_log o ++ [SPol [OId id; OId j; OAdd; ODiv v]]) (S (wo_pid o))).
    assert (Es : unit_loop (o, id, v) (neg l) = Some (o1, id, y)).
    { unfold unit_loop. rewrite Ee, E1. cbn [obind]. assert (N.ltb (lvar (neg l)) (lvar l) = false) as -> by (cbn [neg lvar]; lia).
      assert (lit_eqb (neg (neg l)) l = true) as -> by (apply lit_eqb_eq, neg_neg). cbn [assertb obind]. rewrite E2. cbn [obind]. unfold seq_div. cbn [seq_add app]. destruct v as [|v]; [lia|].
      cbn [obind]. rewrite Ey. cbn [obind]. unfold o1. rewrite Ee. reflexivity. }
    rewrite Es. cbn [obind].
    destruct (IH outs' o1 p1 y (Forall2_mono' _ _ _ _ (fun v l => unit_ok_grows cg ls ub p p1 v l G1) F') Lk) as (o' & p' & val' & log & ids & H1 & H2 & H3 & H4 & H5 & H6 & H7 & H8 & H9 & H10 & H11 & H12).
    { destruct vals; auto. }
    { exact Ee. }
    { exact Hp1. }
    { cbn [o1 wo_pid p1 ps_add ps_next]. lia. }
    { eapply con_is_grows; eauto. }
    exists o', p', val', (SPol [OId id; OId j; OAdd; ODiv v] :: log), (wo_pid o :: ids). cbn [o1 wo_cls wo_next wo_log wo_ids] in *. rewrite <- app_assoc in H3, H5, H10.
    split; [exact H1|]. split; [exact H2|]. split; [exact H3|]. split; [exact H4|]. split; [exact H5|].
    split; [econstructor; [constructor; exact Pr|exact H6]|].
    split; [exact H7|]. split; [exact H8|]. split; [eapply grows_trans; eauto|]. split; [exact H10|]. split.
    + cbn [units map]. constructor; [|exact H11]. apply H9. rewrite <- Hn. unfold p1. rewrite ps_get_add, Nat.eqb_refl. reflexivity.
    + intros pid Ht. apply H12. destruct Ht as (F1 & P1 & Q1). unfold tally, conv, o1 in *. cbn [o_tot o_log o_ids o_pid wo_enc wo_log wo_ids wo_pid] in *. rewrite app_length. cbn [length].
      split; [apply Forall_app; split; [auto|repeat constructor]|]. split; [lia|]. rewrite seq_app, !app_assoc. cbn [seq]. rewrite P1. apply Permutation_app_tail. exact Q1.
Qed.

Lemma Forall2_in_left {A B} (R R' : A -> B -> Prop) xs ys : (forall x y, In x xs -> R x y -> R' x y) -> Forall2 R xs ys -> Forall2 R' xs ys.
Proof. intros H F. induction F as [|x y xs ys Hr F IH]; constructor; [apply H; [now left|auto]|apply IH; intros; apply H; [now right|auto]]. Qed.
Lemma Forall2_in_r {A B} (R : A -> B -> Prop) xs ys y : Forall2 R xs ys -> In y ys -> exists x, In x xs /\ R x y.
Proof. induction 1 as [|a b xs ys Hr F IH]; intros H; [destruct H|]. destruct H as [<-|H]; [exists a; split; [now left|auto]|]. destruct (IH H) as (x & ? & ?). exists x. split; [now right|auto]. Qed.

(** ** An upper bound over literals of different weights *)

Lemma ord_nil ord : iter_order ord -> ord [] = [].
Proof. intros H. specialize (H []). apply Permutation_sym, Permutation_nil in H. exact H. Qed.

Lemma wub_shape ord ls ub next t' cs n' x y : iter_order ord -> In x ls -> In y ls -> snd x <> snd y -> (forall l w, In (l, w) ls -> w <= ub) -> ub < total_weight ls ->
  gte_encode_ub ord (mkGte ls None 0 0%N 0 db_empty) (Incl ub, Incl ub) next = Some (t', cs, n') ->
  gt_buf t' = [] /\ exists con, gt_root t' = Some con /\ nc_mult con = 1.
Proof.
  intros Ho Hx Hy Ne Hw Hu H. unfold gte_encode_ub, gte_encode_ub_change in H. cbn [gte_reset gt_buf gt_root gt_db set_nodes_db gte_weight_sum obind] in H.
  rewrite sum_weights_acc in H.
  assert (Er : prepare_ub_range (total_weight ls) (Incl ub, Incl ub) = (ub, ub + 1)).
  { unfold prepare_ub_range. cbn. f_equal. lia. }
  rewrite !Nat.add_0_r, ?Nat.add_0_l, Er in H. destruct (Nat.leb_spec (ub + 1) ub); [lia|]. rewrite Nat.add_sub in H.
  destruct (gte_extend_tree _ _ _) as [t1|] eqn:E1; [|discriminate]. cbn [obind] in H.
  destruct x as (lx, wx), y as (ly, wy).
  destruct (extend_root ord (gte_reset (mkGte ls None 0 0%N 0 db_empty)) ub t1 (lx, wx) (ly, wy) Ho eq_refl E1 Hx Hy (Hw _ _ Hx) (Hw _ _ Hy) Ne) as (Eb & con & Er1 & M1). cbn [gte_reset gt_buf] in Eb.
  assert (Eb' : gt_buf t1 = []).
  { rewrite Eb. clear - Hw. induction ls as [|(l, w) ls IH]; [reflexivity|]. cbn [filter snd weight_le]. assert (w <= ub) by (eapply Hw; left; eauto).
    assert ((w <=? ub) = true) as -> by lia. cbn [negb]. apply IH. intros; eapply Hw; right; eauto. }
  rewrite Er1 in H. destruct (nth_error _ _); [|discriminate]. cbn [obind] in H. destruct (define_vals _ _ _); [|discriminate]. cbn [obind] in H. injection H as <- _ _.
  cbn [gt_buf gt_root]. split; [exact Eb'|]. eauto.
Qed.

Lemma run_ok p l p' : ps_ok p -> ps_run p l p' -> ps_ok p'.
Proof. intros H R. exact (proj1 (ps_run_sound p l p' H R)). Qed.

Section Constr.
Context (ord : wmap -> wmap) (Hord : iter_order ord) (dord : list nat -> list nat) (Hdord : forall xs, Permutation (dord xs) xs).

Lemma wub_case (c : pb) (ls : list (lit * nat)) ub id next p x y : ps_ok p -> (forall i d v, ps_get p i = Some d -> mentions d v -> (v < next)%N) ->
  p_lits c = ls -> p_b c = Z.of_nat ub -> NoDup (map fst ls) -> (forall l w, In (l, w) ls -> 1 <= w <= ub /\ (lvar l < next)%N) -> no_compl (map fst ls) ->
  ub < total_weight ls -> In x ls -> In y ls -> snd x <> snd y -> con_is p id (fun a => Z.of_nat ub - Z.of_nat (wsum a ls))%Z ->
  exists o p', gte_ub_constr_cert ord dord c id next (ps_next p) = Some (Some o) /\
    encode_ub_at (gte_enc ord) (fun xs => Some (gte_from_iter xs)) ls ub next = Some (COk (wo_cls o) (wo_next o)) /\ kfinal p next (of_wout o) p' /\
    (next <= wo_next o)%N /\ ps_ok p' /\ (forall i d v, ps_get p' i = Some d -> mentions d v -> (v < wo_next o)%N).
Proof.
  intros Hp Hb Hl Hub ND Hw NC Hu Hx Hy Ne Hid.
  set (w0 := mkWorld (@nil (lit * nat)) next [] [] [] []). pose proof (whinv_init next p Hp Hb) as H0. fold w0 in H0.
  assert (V1 : wcvalid w0 (HExtend ls)).
  { split; [|exact NC]. split; [exact Logic.I|]. intros (l, w) Hlw. cbn [fst snd]. destruct (Hw l w Hlw). split; [unfold pos_weight; cbn [snd]; lia|]. split; [auto|]. intros (lo & hi & [] & _). }
  destruct (wcall_ok ord Hord _ _ _ _ _ H0 V1) as (w1 & o1 & p1 & E1 & S1 & R1 & _ & _ & H1 & _).
  pose proof (wr_call ord _ _ _ _ _ _ _ _ (wr_init ord next p Hp Hb) V1 E1 R1) as W1.
  cbn [wcstep] in E1. injection E1 as Ew1 <-. cbn [wo_log wo_enc wo_ids app] in *. inversion R1; subst p1. clear R1 S1. rename H into Hpp. clear Hpp.
  assert (Eg : gte_from_iter ls = mkGte ls None 0 0%N 0 db_empty) by (unfold gte_from_iter, gte_from_map; now rewrite SimProofs.map_collect_nodup).
  assert (Ex : cg_extend cgte_new ls = mkCg (gte_from_iter ls) []).
  { rewrite Eg. unfold cg_extend, cgte_new, gte_extend. cbn [cg_gte cg_defs gte_new gt_buf gt_root gt_maxw gt_vars gt_cls gt_db]. rewrite ConstrEncProofs.map_adds_nodup by exact ND. reflexivity. }
  rewrite Ex in *. set (r := (Incl ub, Incl ub)).
  assert (V2 : wcvalid w1 (HUb r)) by (split; [split; exact Logic.I|exact Logic.I]).
  destruct (wcall_ok ord Hord _ _ _ _ _ H1 V2) as (w2 & o & p1 & E2 & S2 & R2 & P2 & G2 & H2 & A2 & N2 & Wt).
  pose proof (wr_call ord _ _ _ _ _ _ _ _ W1 V2 E2 R2) as W2. pose proof (wcreach_reach ord Hord _ _ _ _ W2) as Rc.
  destruct (encode_ub_ok ord Hord [] w1 _ r (wh_ginv _ _ _ _ H1)) as (t' & cs & n' & Ee & Ln & _ & Rd).
  assert (Nx1 : w_next w1 = next) by (subst w1; reflexivity). rewrite Nx1 in *.
  cbn [BoundSpec.step gte_enc en_ub cg_gte] in S2, Ee. rewrite Nx1, Ee in S2. cbn [encode_step] in S2. injection S2 as Ew2 Et. 
  cbn [wcstep] in E2. rewrite Nx1 in E2. destruct (cg_ub ord (mkCg (gte_from_iter ls) []) r next (ps_next p)) as [o'|] eqn:Ec; [|discriminate]. cbn [wcertified] in E2. injection E2 as Ew2' ->.
  assert (Ecs : cs = wo_cls o) by (rewrite <- Ew2 in A2; cbn [log_call w_all] in A2; now apply app_inv_head in A2).
  assert (Enx : n' = wo_next o) by (rewrite <- Ew2 in N2; exact N2).
  subst t' cs n'. assert (Win : w_in w2 = ls) by (rewrite <- Ew2; subst w1; reflexivity). assert (Wnx : w_next w2 = wo_next o) by auto.
  rewrite Eg in Ee. destruct (wub_shape ord ls ub next _ _ _ x y Hord Hx Hy Ne ltac:(intros l w Hlw; apply (Hw l w Hlw)) Hu Ee) as (Eb & con & Er & M1). rewrite <- Eg in Ee.
  set (cg := wo_enc o) in *. destruct H2 as [T2 NC2 C2 K2 F2].
  assert (Ht2 : 2 <= total_weight (w_in w2)) by (rewrite Win; destruct x as (lx, wx); pose proof (Hw _ _ Hx); lia).
  destruct (root_facts w2 cg con T2 NC2 Eb Er M1 Ht2) as (g & n & L & W & Hn & Dn & G & Sc & Sm & Tt & Mx).
  set (ns := d_nodes (gt_db (cg_gte cg))) in *.
  set (vals := node_vals n (ub + 1) (Some (ub + gt_maxw (cg_gte cg) + 1))).
  assert (Hvals : forall v, In v vals <-> In v (node_vals n 1 None) /\ ub + 1 <= v < ub + gt_maxw (cg_gte cg) + 1).
  { intros v. unfold vals. rewrite (node_vals_range g _ _ _ _ _ _ W Hn). cbn beta iota. tauto. }
  (* what enforcing gives *)
  assert (exists outs, gte_enforce_ub ord (cg_gte cg) ub = Some (EOk (map neg outs)) /\ Forall2 (fun v l => lit_has ns (nc_id con) v SIf l) vals outs) as (outs & Eo & Fo).
  { destruct (Rd ub) as (us & Eu); [unfold in_rng, r; cbn [fst snd]; lia|]. rewrite Eu. unfold gte_enforce_ub in Eu. rewrite (weight_sum_ok _ _ _ T2), Win in Eu. cbn [obind] in Eu.
    destruct (Nat.leb_spec (total_weight ls) ub); [lia|]. rewrite Eb, (ord_nil ord Hord) in Eu. cbn [buf_assumps] in Eu. rewrite Er in Eu. fold ns in Eu. rewrite Hn in Eu. cbn [obind] in Eu.
    rewrite nc_up_1, nc_rev_1 in Eu by auto. fold vals in Eu.
    destruct (out_assumps_spec g ns (nc_id con) n vals W Hn Dn) as [(outs & E' & F)|(E' & _)]; [intros v Hv; now apply Hvals| |]; rewrite E' in Eu; cbn [obind app] in Eu; [|discriminate].
    injection Eu as <-. exists outs. auto. }
  assert (Hne : vals <> []).
  { intros Ez. rewrite Ez in Fo. apply Forall2_nil_l in Fo. subst outs. cbn [map] in Eo.
    destruct (no_compl_model (map fst ls) NC) as (a & Ha). destruct (gte_complete ord Hord w2 (cg_gte cg) a Rc) as (a' & A' & Sa & _).
    assert (Sub : w_ub w2 = wo_cls o /\ w_all w2 = wo_cls o) by (rewrite <- Ew2; subst w1; split; reflexivity). destruct Sub as (Su & Sl).
    pose proof (gte_ub_sound ord Hord w2 (cg_gte cg) ub [] a' Rc Eo) as Q. rewrite Su in Q. rewrite Sl in Sa. specialize (Q Sa eq_refl). rewrite Win in Q.
    assert (wsum a' ls = total_weight ls); [|lia].
    assert (Tr : forall l w, In (l, w) ls -> lit_true a' l = true).
    { intros l w Hlw. rewrite <- (Ha l (in_map fst _ _ Hlw)). unfold lit_true. rewrite A'; [reflexivity|]. rewrite <- Ew2. subst w1. cbn [log_call w_aux w_next w0]. rewrite in_aux_cons.
      intros [B|(lo & hi & [] & _)]. destruct (Hw l w Hlw). lia. }
    clear - Tr. induction ls as [|(l, w) ls IH]; [reflexivity|]. cbn [wsum total_weight]. rewrite (Tr l w (or_introl eq_refl)), IH; [reflexivity|]. intros; eapply Tr; right; eauto. }
  pose proof (vals_sorted_any g ns (nc_id con) n (ub + 1) (Some (ub + gt_maxw (cg_gte cg) + 1)) W Hn) as Ss. fold vals in Ss.
  assert (Hlinked : linked (cg_gte cg) vals).
  { apply (linked_of (cg_gte cg) (node_vals n 1 None)); auto.
    - intros q. exact (next_some w2 cg con T2 NC2 Eb Er M1 Ht2 q).
    - intros q z Hz Lq Hm. exact (next_is w2 cg con T2 NC2 Eb Er M1 Ht2 n q z Hn Hz Lq Hm).
    - intros v Hv. now apply Hvals.
    - intros q z v Hq Hv Hz Lq. apply Hvals. apply Hvals in Hq, Hv. split; [auto|lia]. }
  destruct vals as [|v0 vs] eqn:Ev; [congruence|]. rewrite <- Ev in *.
  assert (Hnx : gte_next_higher (cg_gte cg) ub = Some v0).
  { assert (V0 : In v0 vals) by (rewrite Ev; now left). apply Hvals in V0 as (V0 & B0). apply (next_is w2 cg con T2 NC2 Eb Er M1 Ht2 n ub v0 Hn V0); [lia|].
    intros z Hz Lz. destruct (Nat.le_gt_cases v0 z) as [?|Lv]; [auto|]. assert (Hzv : In z vals) by (apply Hvals; split; [auto|lia]).
    rewrite Ev in Ss, Hzv. inversion Ss as [|? ? _ Fs]; subst. rewrite Forall_forall in Fs. destruct Hzv as [<-|Hzv]; [lia|]. specialize (Fs z Hzv). lia. }
  assert (Fu : Forall2 (unit_ok cg ls ub p1) vals outs).
  { eapply Forall2_in_left; [|exact Fo]. intros v l Hv Hlh. apply Hvals in Hv as (Hv & Bv). split; [lia|].
    destruct (wdetails w2 cg p1 con T2 NC2 C2 K2 Eb Er M1 Ht2 n v l Hn Hv Hlh) as (d & j & D1 & D2 & _ & D4). rewrite Win in D4. exists d, j. auto. }
  assert (Hne2 : def_ids (cg_defs cg) <> []).
  { rewrite Ev in Fo. apply Forall2_cons_l in Fo as (l & outs' & -> & Hlh & _). assert (V0 : In v0 vals) by (rewrite Ev; now left). apply Hvals in V0 as (V0 & B0).
    destruct (wdetails w2 cg p1 con T2 NC2 C2 K2 Eb Er M1 Ht2 n v0 l Hn V0 Hlh) as (d & j & _ & _ & D3 & _). intros Ez. rewrite Ez in D3. destruct D3. }
  assert (Hp1 : ps_ok p1) by (eapply run_ok; eauto).
  destruct (unit_loops cg ls ub id vals outs o p1 v0 Fu Hlinked) as (o' & p2 & val' & log & ids & U1 & U2 & U3 & U4 & U5 & U6 & U7 & U8 & U9 & U10 & U11 & U12); auto.
  { rewrite Ev. reflexivity. }
  { eapply con_is_grows; [exact G2|exact Hid]. }
  assert (Fids : Forall2 (fun cl i => ps_get p1 i = Some (clause_con cl)) (wo_cls o) (wo_ids o)).
  { assert (w_all w2 = wo_cls o) as Q by (rewrite <- Ew2; subst w1; reflexivity). rewrite Q in F2. exact F2. }
  destruct (delete_final dord [] p (conv o') p2 Hdord Hp) as (p3 & [D1 D2 D3 D4 D5]).
  { apply U12. apply (wub_tally ord _ _ _ _ _ Ec). }
  { cbn [conv o_log]. rewrite U5. eapply ps_run_app; eauto. }
  { cbn [conv o_cls o_ids]. rewrite U3, U10. apply Forall2_app; [|exact U11]. eapply Forall2_mono'; [|exact Fids]. intros cl i Hi. now apply U9. }
  { cbn [conv o_tot ct_defs]. rewrite U2. exact Hne2. }
  cbn [delete_semantics conv o_log o_pid o_cls o_ids o_tot ct_defs] in *.
  exists (wdelete_semantics dord o'), p3. split; [|split; [|split; [|split; [|split]]]].
  - unfold gte_ub_constr_cert. rewrite Hub, Hl. destruct (Z.ltb_spec (Z.of_nat ub) 0); [lia|]. rewrite Zabs2Nat.id. rewrite sum_weights_total.
    destruct (Nat.ltb_spec (total_weight ls) ub); [lia|]. fold r. rewrite Ec. cbn [obind]. fold cg. rewrite Hnx. cbn [obind]. rewrite Eo. cbn [obind]. rewrite U1. reflexivity.
  - unfold encode_ub_at. cbn [obind gte_enc en_ub en_enforce_ub]. fold r. rewrite Ee. cbn [obind]. rewrite Eo. cbn [add_units obind wdelete_semantics wo_cls wo_next]. rewrite U3, U4. reflexivity.
  - constructor; cbn [of_wout wdelete_semantics ko_log ko_pid ko_cls ko_ids ko_next wo_log wo_pid wo_cls wo_ids wo_next]; auto.
    intros v Hv. rewrite wit_app_del, U5, wit_vars_app, U7, app_nil_r in Hv. apply Wt in Hv. rewrite <- Ew2 in Hv. subst w1. cbn [log_call w_aux w_next w0] in Hv. rewrite in_aux_cons in Hv. rewrite U4.
    destruct Hv as [Q|(? & ? & [] & _)]. exact Q.
  - cbn [wdelete_semantics wo_next]. rewrite U4. exact Ln.
  - exact (run_ok _ _ _ Hp D1).
  - cbn [wdelete_semantics wo_next]. rewrite U4. intros i d v Hi Hm. destruct (D5 i d Hi) as [Hlt|Hin].
    + rewrite D4 in Hi by auto. specialize (Hb i d v Hi Hm). lia.
    + assert (Hc : exists cl, In cl (wo_cls o') /\ d = clause_con cl).
      { clear - D3 Hin Hi. induction D3 as [|cl k cls ks Hk F IH]; [destruct Hin|]. destruct Hin as [->|Hin]; [exists cl; split; [now left|congruence]|]. destruct (IH Hin) as (q & Hq & ?). exists q. split; [now right|auto]. }
      destruct Hc as (cl & Hcl & ->). rewrite U3 in Hcl. apply in_app_or in Hcl as [Hcl|Hcl].
      * clear - Fids Hcl Hm C2 Wnx. induction Fids as [|q k cls ks Hk F IH]; [destruct Hcl|]. destruct Hcl as [->|Hcl]; [|auto]. pose proof (ci_below _ _ C2 k _ v Hk Hm) as Q. cbn [wbase c_t t_next] in Q. lia.
      * apply in_map_iff in Hcl as (u & <- & Hu'). apply in_map_iff in Hu' as (l & <- & Hl'). apply clause_con_mentions in Hm as (u & [<-|[]] & <-).
        destruct (Forall2_in_r _ _ _ _ Fo Hl') as (z & Hz & Hlh). pose proof (ginv_names _ _ _ T2) as Nm. cbn [neg lvar]. destruct Hlh as [(Hlf & _)|(s & Hd & _)].
        -- exfalso. fold ns in Hlf. rewrite Hn in Hlf. injection Hlf as ->. cbn [node_max_val] in Mx. lia.
        -- destruct (nm_out _ _ Nm _ _ _ _ Hd) as (_ & Q). lia.
Qed.

(** ** Constraints *)

Lemma map_collect_negw (ls : list (lit * nat)) : NoDup (map fst ls) -> NoDup (map fst (map negw ls)).
Proof.
  intros H. rewrite map_map. change (fun q : lit * nat => fst (negw q)) with (fun q : lit * nat => neg (fst q)). rewrite <- (map_map fst neg). apply FinFun.Injective_map_NoDup; [|exact H]. intros x y E. rewrite <- (neg_neg x), <- (neg_neg y). now rewrite E.
Qed.
Lemma total_negw (ls : list (lit * nat)) : total_weight (map negw ls) = total_weight ls.
Proof. induction ls as [|[l w] ls IH]; [reflexivity|]. cbn [map negw fst snd total_weight]. now rewrite IH. Qed.
Lemma wsum_negw a (ls : list (lit * nat)) : wsum a (map negw ls) + wsum a ls = total_weight ls.
Proof. induction ls as [|[l w] ls IH]; [reflexivity|]. cbn [map negw fst snd wsum total_weight]. rewrite lit_true_neg'. destruct (lit_true a l); cbn [negb]; lia. Qed.
Lemma negw_in (ls : list (lit * nat)) l w : In (l, w) (map negw ls) -> In (neg l, w) ls.
Proof. intros H. apply in_map_iff in H as ([x y] & E & H). unfold negw in E. cbn [fst snd] in E. injection E as <- <-. now rewrite neg_neg. Qed.

Lemma two_weights (ls : list (lit * nat)) : find_unit_weight ls = None -> ls <> [] -> exists x y, In x ls /\ In y ls /\ snd x <> snd y.
Proof.
  intros H Hne. destruct ls as [|(l, w) ls]; [congruence|]. unfold find_unit_weight in H. cbn [find_unit_weight_from] in H.
  enough (Q : exists y, In y ls /\ snd y <> w) by (destruct Q as (y & Hy & N); exists (l, w), y; split; [now left|]; split; [now right|cbn [snd]; auto]).
  clear Hne. induction ls as [|(l', w') ls IH]; cbn [find_unit_weight_from] in H; [discriminate|]. destruct (Nat.eqb_spec w w') as [<-|N].
  - destruct (IH H) as (y & Hy & N). exists y. split; [now right|auto].
  - exists (l', w'). split; [now left|cbn [snd]; auto].
Qed.

Lemma unit_weight_all (ls : list (lit * nat)) u : find_unit_weight ls = Some u -> forall l w, In (l, w) ls -> w = u.
Proof.
  destruct ls as [|(l0, w0) ls]; [discriminate|]. unfold find_unit_weight. cbn [find_unit_weight_from]. intros H l w [[= <- <-]|Hl]; revert H.
  - clear. induction ls as [|(l', w') ls IH]; cbn [find_unit_weight_from]; [congruence|]. destruct (Nat.eqb_spec w0 w'); [auto|discriminate].
  - revert Hl. induction ls as [|(l', w') ls IH]; [intros []|]. cbn [find_unit_weight_from]. intros [E|Hl] G; [injection E as <- <-|].
    + destruct (Nat.eqb_spec w0 w') as [<-|]; [|discriminate]. clear - G. induction ls as [|(l', w') ls IH]; cbn [find_unit_weight_from] in G; [congruence|]. destruct (Nat.eqb_spec w0 w'); [auto|discriminate].
    + destruct (Nat.eqb_spec w0 w'); [auto|discriminate].
Qed.
Lemma not_card c l w l' w' : In (l, w) (p_lits c) -> In (l', w') (p_lits c) -> w <> w' -> pb_is_card c = false.
Proof.
  intros H H' N. unfold pb_is_card. destruct (find_unit_weight (p_lits c)) as [u|] eqn:E; [|reflexivity]. exfalso. apply N.
  rewrite (unit_weight_all _ _ E _ _ H). symmetry. now apply (unit_weight_all _ _ E _ _ H').
Qed.

Lemma run_mono p l p' : ps_run p l p' -> ps_next p <= ps_next p'.
Proof. induction 1 as [p|p s q l p1 S R IH]; [lia|]. inversion S; subst; cbn [ps_add ps_del ps_next] in *; lia. Qed.

(** the encodings without a proof *)
Notation dgte o1 o3 := (pb_double o1 (gte_enc ord) (pb_inverted o3 (gte_enc ord))).
Lemma ub_plain o0 o1 o3 ls ub next r : encode_ub_at (gte_enc ord) (fun xs => Some (gte_from_iter xs)) ls ub next = Some r ->
  encode_ub_at (dgte o1 o3) (dgte_from_iter o0) ls ub next = Some r.
Proof.
  unfold encode_ub_at, dgte_from_iter, pb_double, double. cbn [obind en_ub en_enforce_ub gte_enc fst snd dbl_upper]. unfold dbl_upper. cbn [fst snd].
  change (gte_from_map (map_collect ls)) with (gte_from_iter ls).
  destruct (gte_encode_ub ord (gte_from_iter ls) _ next) as [((t, cs), n)|]; [|discriminate]. cbn [obind]. auto.
Qed.

Lemma lb_plain o1 o3 ls b next r : NoDup (map fst ls) -> 1 <= b <= total_weight ls ->
  encode_ub_at (gte_enc ord) (fun xs => Some (gte_from_iter xs)) (map negw ls) (total_weight ls - b) next = Some r ->
  encode_lb_at (dgte o1 o3) (dgte_from_iter (fun m => m)) ls b next = Some r.
Proof.
  intros ND Lb. unfold encode_ub_at, encode_lb_at, dgte_from_iter, pb_double, double, pb_inverted, inverted. cbn [obind en_ub en_lb en_enforce_ub en_enforce_lb gte_enc fst snd]. unfold dbl_lower, inv_call. cbn [fst snd].
  rewrite (SimProofs.map_collect_nodup ls ND). change (gte_from_map (map_collect (map negw ls))) with (gte_from_iter (map negw ls)).
  assert (Ew : weights ls = total_weight ls) by (unfold weights; rewrite sum_weights_acc; lia). rewrite Ew.
  set (n := total_weight ls) in *.
  assert (Ep : prepare_lb_range n (Incl b, Incl b) = (b, b + 1)).
  { unfold prepare_lb_range. cbn. f_equal; lia. }
  rewrite Ep. unfold convert_encoding_range. destruct (Nat.leb_spec 1 (b + 1)); [|lia]. cbn [assertb obind]. destruct (Nat.leb_spec (b + 1 - 1) n); [|lia]. cbn [assertb obind].
  destruct (Nat.leb_spec b n); [|lia]. rewrite Nat.add_sub.
  assert (Eq : gte_encode_ub ord (gte_from_iter (map negw ls)) (Incl (n - b), Excl (n - b + 1)) next = gte_encode_ub ord (gte_from_iter (map negw ls)) (Incl (n - b), Incl (n - b)) next).
  { unfold gte_encode_ub, gte_encode_ub_change. destruct (gte_weight_sum _) as [ws|]; [|reflexivity]. cbn [obind].
    assert (prepare_ub_range ws (Incl (n - b), Excl (n - b + 1)) = prepare_ub_range ws (Incl (n - b), Incl (n - b))) as -> by (unfold prepare_ub_range; cbn; f_equal; lia). reflexivity. }
  rewrite Eq. destruct (gte_encode_ub ord (gte_from_iter (map negw ls)) _ next) as [((t, cs), n')|]; [|discriminate]. cbn [obind fst snd]. unfold inv_enforce_lb. cbn [fst snd].
  destruct (Nat.leb_spec b n); [|lia]. auto.
Qed.

(** no literal is heavier than the bound of an upper bound, respectively than what a lower bound leaves *)
Definition light (c : pb) : Prop := forall l w, In (l, w) (p_lits c) ->
  (p_kind c <> KLb -> Z.of_nat w <= p_b c)%Z /\ (p_kind c <> KUb -> Z.of_nat w + p_b c <= Z.of_nat (sum_weights (p_lits c)))%Z.

Section Weighted.
Variables (c : pb) (next : N).
Let ls := p_lits c.
Hypothesis Hv : forall l w, In (l, w) ls -> (lvar l < next)%N.
Hypothesis Hpos : forall l w, In (l, w) ls -> 0 < w.
Hypothesis NC : no_compl (map fst ls).
Hypothesis ND : NoDup (map fst ls).
Hypothesis Hwf : pb_wf c.
Variables (x y : lit * nat).
Hypothesis Hx : In x ls.
Hypothesis Hy : In y ls.
Hypothesis Ne : snd x <> snd y.

Definition wres_ok (p : pstate) (nx : N) (o : wout) (p' : pstate) : Prop :=
  kfinal p nx (of_wout o) p' /\ (nx <= wo_next o)%N /\ ps_ok p' /\ (forall i d v, ps_get p' i = Some d -> mentions d v -> (v < wo_next o)%N).

Lemma upper_case p id nx c' : (next <= nx)%N -> ps_ok p -> (forall i d v, ps_get p i = Some d -> mentions d v -> (v < nx)%N) ->
  p_lits c' = ls -> p_b c' = p_b c -> (forall l w, In (l, w) ls -> Z.of_nat w <= p_b c)%Z -> (0 <= p_b c < Z.of_nat (total_weight ls))%Z ->
  ps_get p id = Some (pb_at_most_con ls (p_b c)) ->
  exists o p', gte_ub_constr_cert ord dord c' id nx (ps_next p) = Some (Some o) /\
    (forall o0 o1 o3, encode_ub_at (dgte o1 o3) (dgte_from_iter o0) ls (Z.abs_nat (p_b c)) nx = Some (COk (wo_cls o) (wo_next o))) /\ wres_ok p nx o p'.
Proof.
  intros Lx Hp Hb El Ebd Hl Hbd Hid.
  destruct (wub_case c' ls (Z.abs_nat (p_b c)) id nx p x y Hp Hb El ltac:(lia) ND) as (o & p' & E1 & E2 & F & Q); auto.
  - intros l w Hlw. pose proof (Hl l w Hlw). pose proof (Hpos l w Hlw). pose proof (Hv l w Hlw). split; lia.
  - lia.
  - eapply con_is_base; [exact Hid|]. intros a. rewrite pb_at_most_slack. lia.
  - exists o, p'. split; [exact E1|]. split; [|exact (conj F Q)]. intros o0 o1 o3. now apply ub_plain.
Qed.

Lemma lower_case p id nx c' : (next <= nx)%N -> ps_ok p -> (forall i d v, ps_get p i = Some d -> mentions d v -> (v < nx)%N) ->
  p_lits c' = ls -> p_b c' = p_b c -> p_wsum c' = p_wsum c -> (forall l w, In (l, w) ls -> Z.of_nat w + p_b c <= Z.of_nat (total_weight ls))%Z -> (0 < p_b c <= Z.of_nat (total_weight ls))%Z ->
  ps_get p id = Some (pb_at_least_con ls (p_b c)) ->
  exists o p', igte_lb_constr_cert ord dord c' id nx (ps_next p) = Some (Some o) /\
    (forall o1 o3, encode_lb_at (dgte o1 o3) (dgte_from_iter (fun m => m)) ls (Z.abs_nat (p_b c)) nx = Some (COk (wo_cls o) (wo_next o))) /\ wres_ok p nx o p'.
Proof.
  intros Lx Hp Hb El Ebd Ews Hl Hbd Hid. unfold pb_wf in Hwf. rewrite sum_weights_total in Hwf. fold ls in Hwf.
  assert (Ab : Z.of_nat (Z.abs_nat (p_b c)) = p_b c) by lia. set (b := Z.abs_nat (p_b c)) in *.
  destruct (wub_case (pb_invert c') (map negw ls) (total_weight ls - b) id nx p (negw x) (negw y) Hp Hb) as (o & p' & E1 & E2 & F & Q).
  - cbn [pb_invert p_lits]. rewrite El. reflexivity.
  - cbn [pb_invert p_b]. rewrite Ebd, Ews, Hwf. lia.
  - now apply map_collect_negw.
  - intros l w Hlw. apply negw_in in Hlw. pose proof (Hl _ w Hlw). pose proof (Hpos _ w Hlw). pose proof (Hv _ w Hlw) as V. cbn [neg lvar] in V. split; lia.
  - rewrite map_map. change (fun q : lit * nat => fst (negw q)) with (fun q : lit * nat => neg (fst q)). rewrite <- (map_map fst neg). now apply no_compl_neg.
  - rewrite total_negw. lia.
  - now apply in_map.
  - now apply in_map.
  - exact Ne.
  - eapply con_is_base; [exact Hid|]. intros a. rewrite pb_at_least_slack. pose proof (wsum_negw a ls). lia.
  - exists o, p'. split; [exact E1|]. split; [|exact (conj F Q)]. intros o1 o3. apply lb_plain; [exact ND|lia|exact E2].
Qed.
End Weighted.

Theorem encode_pb_cert_weighted c id next p : ps_ok p -> (forall i d v, ps_get p i = Some d -> mentions d v -> (v < next)%N) ->
  (forall l w, In (l, w) (p_lits c) -> (lvar l < next)%N) -> (forall l w, In (l, w) (p_lits c) -> 0 < w) -> no_compl (map fst (p_lits c)) -> NoDup (map fst (p_lits c)) ->
  pb_wf c -> pb_in_proof p id c -> light c -> simplifies c = false -> pb_is_card c = false ->
  exists o p', encode_pb_constraint_cert ord dord c id next (ps_next p) = Some o /\ kfinal p next o p' /\
    match p_kind c with
    | KEq => exists cs1 next1 cs2, ko_cls o = cs1 ++ cs2 /\ forall o1 o3,
        pb_encode_constr (dgte o1 o3) (dgte_from_iter (fun m => m)) (fst (pb_eq_split c)) next = Some (COk cs1 next1) /\
        pb_encode_constr (dgte o1 o3) (dgte_from_iter (fun m => m)) (snd (pb_eq_split c)) next1 = Some (COk cs2 (ko_next o))
    | _ => forall o1 o3, default_encode_pb_constraint (fun m => m) o1 ord o3 ord c next = Some (ko_cls o, ko_next o)
    end.
Proof.
  intros Hp Hb Hv Hpos NC ND Hwf Hin Hl Hs Hc. unfold simplifies in Hs.
  destruct (pb_is_tautology c) eqn:Et; [discriminate|]. destruct (pb_is_unsat c) eqn:Eu; [discriminate|]. destruct (pb_is_positive_assignment c) eqn:Ep; [discriminate|].
  destruct (pb_is_negative_assignment c) eqn:En; [discriminate|]. destruct (pb_is_clause c) eqn:Ec; [discriminate|]. clear Hs.
  assert (Hlen : p_lits c <> []).
  { intros Ez. unfold pb_wf in Hwf. rewrite Ez in Hwf. cbn in Hwf. unfold pb_is_tautology, pb_is_unsat, pb_is_positive_assignment in Et, Eu, Ep. rewrite Hwf in *. destruct (p_kind c).
    - destruct (Z.ltb_spec (p_b c) 0); [discriminate|]. apply Nat.leb_gt in Et. lia.
    - apply Z.leb_gt in Et. destruct (Z.ltb_spec (p_b c) 0); [lia|]. apply Nat.ltb_ge in Eu. lia.
    - destruct (Z.ltb_spec (p_b c) 0); [discriminate|]. apply Nat.ltb_ge in Eu. apply Nat.eqb_neq in Ep. lia. }
  unfold pb_is_card in Hc. destruct (find_unit_weight (p_lits c)) eqn:Ef; [discriminate|]. destruct (two_weights _ Ef Hlen) as (x & y & Hx & Hy & Ne).
  assert (Ew := Hwf). unfold pb_wf in Ew. rewrite sum_weights_total in Ew.
  unfold encode_pb_constraint_cert, default_encode_pb_constraint, encode_pb_constraint, pb_is_card. rewrite Et, Eu, Ep, En, Ec, Ef. unfold pb_constr_cert, pb_encode_constr.
  unfold pb_in_proof in Hin. unfold light in Hl. unfold pb_is_tautology, pb_is_unsat in Et, Eu. destruct x as (lx, wx). pose proof (Hl lx wx Hx) as Hlx. rewrite sum_weights_total in *.
  pose proof (Hpos lx wx Hx) as Px. rewrite Ew in *.
  destruct (p_kind c) eqn:Ek.
  - assert (Bd : (0 <= p_b c < Z.of_nat (total_weight (p_lits c)))%Z) by (apply Z.ltb_ge in Eu; destruct (Z.ltb_spec (p_b c) 0); [lia|]; apply Nat.leb_gt in Et; lia).
    destruct (upper_case c next Hv Hpos NC ND (lx, wx) y Hx Hy Ne p id next c) as (o & p' & E1 & E2 & (F & _)); auto.
    + lia.
    + intros l w Hlw. now apply (Hl l w Hlw).
    + rewrite E1. cbn [obind option_map]. exists (of_wout o), p'. split; [reflexivity|]. split; [exact F|]. intros o1 o3. destruct (Z.ltb_spec (p_b c) 0); [lia|]. rewrite E2. reflexivity.
  - assert (Bd : (0 < p_b c <= Z.of_nat (total_weight (p_lits c)))%Z) by (apply Z.leb_gt in Et; destruct Hlx as (_ & Q); specialize (Q ltac:(discriminate)); lia).
    destruct (lower_case c next Hv Hpos NC ND Hwf (lx, wx) y Hx Hy Ne p id next c) as (o & p' & E1 & E2 & (F & _)); auto.
    + lia.
    + intros l w Hlw. now apply (Hl l w Hlw).
    + rewrite E1. cbn [obind option_map]. exists (of_wout o), p'. split; [reflexivity|]. split; [exact F|]. intros o1 o3.
      destruct (Z.ltb_spec (p_b c) 0); [lia|]. destruct (Nat.ltb_spec (total_weight (p_lits c)) (Z.abs_nat (p_b c))); [lia|]. rewrite E2. reflexivity.
  - destruct Hin as (Hlo & Hhi). destruct Hlx as (Q1 & Q2). specialize (Q1 ltac:(discriminate)). specialize (Q2 ltac:(discriminate)).
    cbn [pb_eq_split fst snd p_kind p_lits p_b].
    destruct (lower_case c next Hv Hpos NC ND Hwf (lx, wx) y Hx Hy Ne p id next (mkPb KLb (p_lits c) (p_wsum c) (p_b c))) as (o & p1 & E1 & E2 & (F & Ln & Hp1 & Hb1)); auto.
    { lia. } { intros l w Hlw. now apply (Hl l w Hlw). } { lia. }
    assert (Pn : wo_pid o = ps_next p1) by (symmetry; apply (kf_pid _ _ _ _ F)).
    assert (Hhi1 : ps_get p1 (id + 1) = Some (pb_at_most_con (p_lits c) (p_b c))) by (rewrite (kf_old _ _ _ _ F); [exact Hhi|now apply (ps_ok_get _ _ _ Hp Hhi)]).
    destruct (upper_case c next Hv Hpos NC ND (lx, wx) y Hx Hy Ne p1 (id + 1) (wo_next o) (mkPb KUb (p_lits c) (p_wsum c) (p_b c))) as (o2 & p2 & E3 & E4 & (F2 & Ln2 & _)); auto.
    { intros l w Hlw. now apply (Hl l w Hlw). } { lia. }
    rewrite E1. cbn [obind]. rewrite Pn, E3. cbn [obind]. eexists _, p2. split; [reflexivity|]. split.
    + pose proof (run_mono _ _ _ (kf_run _ _ _ _ F)) as Mo. destruct F as [A1 A2 A3 A4 A5 A6], F2 as [B1 B2 B3 B4 B5 B6].
      cbn [of_wout ko_log ko_pid ko_cls ko_ids ko_next] in *. constructor; cbn [ko_log ko_pid ko_cls ko_ids ko_next].
      * eapply ps_run_app; eauto.
      * exact B2.
      * apply Forall2_app; [|exact B3]. eapply Forall2_mono'; [|exact A3]. intros cl i Hi. rewrite B4; [exact Hi|]. now apply (ps_ok_get _ _ _ Hp1 Hi).
      * intros i Hi. rewrite B4 by lia. now apply A4.
      * intros i d Hi. destruct (B5 i d Hi) as [Li|Hi2]; [|right; apply in_or_app; auto]. rewrite B4 in Hi by auto. destruct (A5 i d Hi); [auto|right; apply in_or_app; auto].
      * intros v Hvw. rewrite wit_vars_app in Hvw. apply in_app_or in Hvw as [Hvw|Hvw]; [specialize (A6 v Hvw)|specialize (B6 v Hvw)]; lia.
    + exists (wo_cls o), (wo_next o), (wo_cls o2). split; [reflexivity|]. intros o1 o3. cbn [ko_next]. destruct (Z.ltb_spec (p_b c) 0); [lia|].
      rewrite sum_weights_total. destruct (Nat.ltb_spec (total_weight (p_lits c)) (Z.abs_nat (p_b c))); [lia|]. rewrite E2, E4. auto.
Qed.
End Constr.
