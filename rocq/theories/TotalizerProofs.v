(** * The totalizer meets the specification of bound encodings *)

From Coq Require Import List Bool NArith ZArith Lia Arith Sorted.
From Coq Require Import ZifyBool ZifyNat ZifyN.
From Verif Require Import Spec BoundSpec Types Atomics NodeDb TreeSpec TotDb Totalizer Base TotDbInv TotDbUnit TotDbDefine TotDbGeneral TotDbBuild TotDbGrow TotDbMerge TotWeighted TotDbHist.
Import ListNotations.

Definition root_ok (g : ghost) (ns : list node) (root : option nat) (rooted : list lit) : Prop :=
  match root with
  | None => rooted = []
  | Some id => exists n, nth_error ns id = Some n /\ is_unitlike n /\ node_len n = length rooted /\
                 (forall a, gV g a id = count_true a rooted) /\ con_good ns (con_full id) /\
                 tree_leaves ns id (map (fun l => (l, 1%nat)) rooted)
  end.

Definition aux_below (aux : list (N * N)) (next : N) : Prop := forall v, in_aux aux v -> (v < next)%N.

Section Units.
(** upper bounds asked for in the past and the literals returned for them *)
Context (Us : list (nat * list lit)).

Record tinv_with (w : world lit) (t : tot) (g : ghost) (ow : owner) (rooted : list lit) : Prop := mkTinv {
  ti_inv : inv (w_all w) (w_ub w) (w_lb w) g ow (mkTst (d_nodes (to_db t)) (w_next w) []);
  ti_built : built g (to_db t);
  ti_nodummy : forall id, nth_error (d_nodes (to_db t)) id <> Some NDummy;
  ti_in : w_in w = rooted ++ to_buf t;
  ti_off : to_off t = 0%nat;
  ti_add : to_add t = 0%nat;
  ti_root : root_ok g (d_nodes (to_db t)) (to_root t) rooted;
  ti_ow : forall v x, ow v = Some x -> in_aux (w_aux w) v;
  ti_lits : forall l, In l (w_in w) -> (lvar l < w_next w)%N /\ ~ in_aux (w_aux w) (lvar l);
  ti_gin : forall v, gin g v = true -> exists l, In l (w_in w) /\ lvar l = v;
  ti_aux : aux_below (w_aux w) (w_next w);
  ti_units : forall ub ls l, In (ub, ls) Us -> In l ls -> (lvar l < w_next w)%N /\ forall a, (count_true a (w_in w) <= ub)%nat -> lit_true (canonize g ow a) l = true
}.

Definition tinv (w : world lit) (t : tot) : Prop := exists g ow rooted, tinv_with w t g ow rooted.

(** ** Sizes *)
Lemma n_lits_with w t g ow rooted : tinv_with w t g ow rooted -> tot_n_lits t = Some (length (w_in w)) /\ root_len t = Some (length rooted).
Proof.
  intros I. assert (R := ti_root _ _ _ _ _ I). unfold tot_n_lits, root_len. destruct (to_root t) as [id|].
  - destruct R as (n & Hn & _ & HL & _). rewrite Hn. cbn [obind]. rewrite HL, (ti_in _ _ _ _ _ I), (ti_add _ _ _ _ _ I), app_length. split; f_equal; lia.
  - cbn in R. subst. cbn [obind]. rewrite (ti_in _ _ _ _ _ I), (ti_add _ _ _ _ _ I), app_length. cbn. split; f_equal; lia.
Qed.

Lemma n_lits_ok w t : tinv w t -> tot_n_lits t = Some (length (w_in w)).
Proof. intros (g & ow & rooted & I). eapply n_lits_with; eauto. Qed.

(** ** What [enforce_ub] and [enforce_lb] answer *)
Lemma unit_lit_has ns id lits l r idx sem :
  nth_error ns id = Some (NUnit lits l r) ->
  forall x s, nth_error lits idx = Some (LLit x s) -> (has_if sem = true -> sem_le_if s = true) -> (has_only_if sem = true -> sem_le_oif s = true) ->
  lit_has ns id (idx + 1) sem x.
Proof.
  intros Hn x s Hx H1 H2. right. exists s. split; [|auto]. unfold data. rewrite Hn. cbn [node_data].
  replace (idx + 1 =? 0)%nat with false by lia. replace (idx + 1 - 1)%nat with idx by lia. auto.
Qed.

Lemma lit_has_unit_inv ns id lits l r idx sem x : nth_error ns id = Some (NUnit lits l r) -> lit_has ns id (idx + 1) sem x ->
  exists s, nth_error lits idx = Some (LLit x s) /\ (has_if sem = true -> sem_le_if s = true) /\ (has_only_if sem = true -> sem_le_oif s = true).
Proof.
  intros Hn [(H & _)|(s & Hd & H)]; [congruence|]. unfold data in Hd. rewrite Hn in Hd. cbn [node_data] in Hd.
  replace (idx + 1 =? 0)%nat with false in Hd by lia. replace (idx + 1 - 1)%nat with idx in Hd by lia. exists s. auto.
Qed.

Lemma enforce_ub_cases w t g ow rooted ub : tinv_with w t g ow rooted ->
  (length (w_in w) <= ub /\ tot_enforce_ub t ub = Some (EOk []))%nat \/
  (ub < length (w_in w) /\ to_buf t <> [] /\ tot_enforce_ub t ub = Some ENotEncoded)%nat \/
  (ub < length (w_in w) /\ to_buf t = [] /\ exists id, to_root t = Some id /\
     ((exists l, lit_has (d_nodes (to_db t)) id (ub + 1) SIf l /\ tot_enforce_ub t ub = Some (EOk [neg l])) \/
      ((forall l, ~ lit_has (d_nodes (to_db t)) id (ub + 1) SIf l) /\ tot_enforce_ub t ub = Some ENotEncoded)))%nat.
Proof.
  intros I. destruct (n_lits_with _ _ _ _ _ I) as (HN & HR). assert (R := ti_root _ _ _ _ _ I). pose proof (ti_in _ _ _ _ _ I) as Hin.
  unfold tot_enforce_ub. rewrite HN. cbn [obind]. rewrite (ti_off _ _ _ _ _ I). cbn [Nat.leb assertb obind]. rewrite Nat.sub_0_r.
  destruct (Nat.leb_spec (length (w_in w)) ub) as [L|L]; [left; auto|right].
  destruct (to_buf t) as [|b bs] eqn:Eb; [right|left; split; [auto|]; split; [discriminate|reflexivity]].
  split; [auto|]. split; [auto|]. destruct (to_root t) as [id|]; [|cbn in R; subst; rewrite Hin in L; cbn in L; lia].
  exists id. split; [auto|]. destruct R as (n & Hn & U & HL & _). rewrite Hn. cbn [obind].
  assert (HL' : node_len n = length (w_in w)) by (rewrite Hin, app_nil_r; auto).
  destruct n as [l|lits l r| |]; cbn in U; try tauto.
  - cbn [node_len] in HL'. replace (ub =? 0)%nat with true by lia. cbn [assertb obind]. left. exists l. split; [|reflexivity]. left. split; [auto|lia].
  - cbn [node_len] in HL'. rewrite Nat.add_0_r. destruct (nth_error lits ub) as [dat|] eqn:E; [|apply nth_error_None in E; lia]. cbn [obind].
    assert (Hno : (forall x s, dat = LLit x s -> sem_le_if s = false) -> forall x, ~ lit_has (d_nodes (to_db t)) id (ub + 1) SIf x).
    { intros H x Hx. destruct (lit_has_unit_inv _ _ _ _ _ _ _ _ Hn Hx) as (s & Hs & H1 & _). rewrite E in Hs. injection Hs as ->.
      rewrite (H x s eq_refl) in H1. discriminate (H1 eq_refl). }
    destruct dat as [|x [s|]].
    + right. split; [apply Hno; discriminate|reflexivity].
    + destruct (has_if s) eqn:Es.
      * left. exists x. split; [|reflexivity]. apply (unit_lit_has _ _ _ _ _ _ _ Hn x (Some s)); auto. cbn. discriminate.
      * right. split; [|reflexivity]. apply Hno. intros x' s' [= -> <-]. exact Es.
    + right. split; [|reflexivity]. apply Hno. intros x' s' [= -> <-]. reflexivity.
Qed.

Lemma enforce_lb_cases w t g ow rooted lb : tinv_with w t g ow rooted ->
  (lb = 0 /\ tot_enforce_lb t lb = Some (EOk []))%nat \/
  (length (w_in w) < lb /\ tot_enforce_lb t lb = Some EUnsat)%nat \/
  (1 <= lb <= length (w_in w) /\ to_buf t <> [] /\ tot_enforce_lb t lb = Some ENotEncoded)%nat \/
  (1 <= lb <= length (w_in w) /\ to_buf t = [] /\ exists id, to_root t = Some id /\
     ((exists l, lit_has (d_nodes (to_db t)) id lb SOnlyIf l /\ tot_enforce_lb t lb = Some (EOk [l])) \/
      ((forall l, ~ lit_has (d_nodes (to_db t)) id lb SOnlyIf l) /\ tot_enforce_lb t lb = Some ENotEncoded)))%nat.
Proof.
  intros I. destruct (n_lits_with _ _ _ _ _ I) as (HN & HR). assert (R := ti_root _ _ _ _ _ I). pose proof (ti_in _ _ _ _ _ I) as Hin.
  unfold tot_enforce_lb. rewrite (ti_off _ _ _ _ _ I).
  destruct (Nat.leb_spec lb 0) as [L0|L0]; [left; split; [lia|auto]|right].
  rewrite HN. cbn [obind]. rewrite Nat.add_0_r.
  destruct (Nat.ltb_spec (length (w_in w)) lb) as [L|L]; [left; auto|right].
  destruct (to_buf t) as [|b bs] eqn:Eb; [right|left; split; [lia|]; split; [discriminate|reflexivity]].
  split; [lia|]. split; [auto|]. destruct (to_root t) as [id|]; [|cbn in R; subst; rewrite Hin in L; cbn in L; lia].
  exists id. split; [auto|]. destruct R as (n & Hn & U & HL & _). rewrite Hn. cbn [obind].
  assert (HL' : node_len n = length (w_in w)) by (rewrite Hin, app_nil_r; auto).
  assert (Elb : lb = (lb - 1 + 1)%nat) by lia.
  destruct n as [l|lits l r| |]; cbn in U; try tauto.
  - cbn [node_len] in HL'. replace (lb =? 1)%nat with true by lia. cbn [assertb obind]. left. exists l. split; [|reflexivity]. left. split; [auto|lia].
  - cbn [node_len] in HL'. rewrite Nat.add_0_r. destruct (nth_error lits (lb - 1)) as [dat|] eqn:E; [|apply nth_error_None in E; lia]. cbn [obind].
    assert (Hno : (forall x s, dat = LLit x s -> sem_le_oif s = false) -> forall x, ~ lit_has (d_nodes (to_db t)) id lb SOnlyIf x).
    { intros H x Hx. rewrite Elb in Hx. destruct (lit_has_unit_inv _ _ _ _ _ _ _ _ Hn Hx) as (s & Hs & _ & H1). rewrite E in Hs. injection Hs as ->.
      rewrite (H x s eq_refl) in H1. discriminate (H1 eq_refl). }
    destruct dat as [|x [s|]].
    + right. split; [apply Hno; discriminate|reflexivity].
    + destruct (has_only_if s) eqn:Es.
      * left. exists x. split; [|reflexivity]. rewrite Elb. apply (unit_lit_has _ _ _ _ _ _ _ Hn x (Some s)); auto. cbn. discriminate.
      * right. split; [|reflexivity]. apply Hno. intros x' s' [= -> <-]. exact Es.
    + right. split; [|reflexivity]. apply Hno. intros x' s' [= -> <-]. reflexivity.
Qed.

(** an output literal of the root, and what a bound says *)
Lemma lit_has_enforce_ub w t g ow rooted id ub l : tinv_with w t g ow rooted -> to_root t = Some id -> to_buf t = [] ->
  (ub < length (w_in w))%nat -> lit_has (d_nodes (to_db t)) id (ub + 1) SIf l -> tot_enforce_ub t ub = Some (EOk [neg l]).
Proof.
  intros I Hr Hb Hu Hl. destruct (enforce_ub_cases _ _ _ _ _ ub I) as [(H & _)|[(_ & H & _)|(_ & _ & id' & Hid & [(l' & Hl' & E)|(H & _)])]]; [lia|congruence| |].
  - assert (id' = id) as -> by congruence.
    assert (l' = l) as ->; [|auto]. destruct Hl as [(N1 & _)|(s & D & _)], Hl' as [(N2 & _)|(s' & D' & _)]; try congruence.
    + unfold data in D'. rewrite N1 in D'. discriminate.
    + unfold data in D. rewrite N2 in D. discriminate.
  - assert (id' = id) as -> by congruence. exfalso. eapply H; eauto.
Qed.

Lemma lit_has_enforce_lb w t g ow rooted id lb l : tinv_with w t g ow rooted -> to_root t = Some id -> to_buf t = [] ->
  (1 <= lb <= length (w_in w))%nat -> lit_has (d_nodes (to_db t)) id lb SOnlyIf l -> tot_enforce_lb t lb = Some (EOk [l]).
Proof.
  intros I Hr Hb Hu Hl. destruct (enforce_lb_cases _ _ _ _ _ lb I) as [(H & _)|[(H & _)|[(_ & H & _)|(_ & _ & id' & Hid & [(l' & Hl' & E)|(H & _)])]]]; [lia|lia|congruence| |].
  - assert (id' = id) as -> by congruence.
    assert (l' = l) as ->; [|auto]. destruct Hl as [(N1 & _)|(s & D & _)], Hl' as [(N2 & _)|(s' & D' & _)]; try congruence.
    + unfold data in D'. rewrite N1 in D'. discriminate.
    + unfold data in D. rewrite N2 in D. discriminate.
  - assert (id' = id) as -> by congruence. exfalso. eapply H; eauto.
Qed.

(** ** Extending the tree *)
Lemma no_dummy_grow vs d g d' g' : grow vs d g d' g' -> (forall id, nth_error (d_nodes d) id <> Some NDummy) -> forall id, nth_error (d_nodes d') id <> Some NDummy.
Proof.
  intros ((new & -> & F) & _) H id E. destruct (Nat.lt_ge_cases id (length (d_nodes d))) as [L|L].
  - rewrite nth_error_app1 in E by auto. now apply H in E.
  - rewrite nth_error_app2 in E by auto. apply nth_error_In in E. rewrite Forall_forall in F. apply F in E. destruct E as (_ & E). discriminate.
Qed.

Lemma node_len_unitlike n : is_unitlike n -> node_len n = node_max_val n.
Proof. destruct n; cbn; tauto. Qed.

Lemma extend_tree_ok w t : tinv w t ->
  exists t1, extend_tree t = Some t1 /\ tinv w t1 /\ to_buf t1 = [] /\ (to_buf t = [] -> t1 = t).
Proof.
  intros (g & ow & rooted & I). unfold extend_tree. destruct (to_buf t) as [|b bs] eqn:Eb.
  - cbn [lit_tree insert_leaves merge obind]. exists (mkTot [] (to_root t) (to_vars t) (to_cls t) (to_db t) (to_off t) (to_add t)).
    assert (E : mkTot [] (to_root t) (to_vars t) (to_cls t) (to_db t) (to_off t) (to_add t) = t) by (destruct t; cbn in *; subst; reflexivity).
    split; [reflexivity|]. rewrite E. split; [exists g, ow, rooted; auto|]. auto.
  - assert (Hne : to_buf t <> []) by (rewrite Eb; discriminate). rewrite <- Eb in *. clear Eb.
    destruct (lit_tree_ok g (to_db t) (to_buf t) (ti_built _ _ _ _ _ I) Hne) as (d1 & new & g1 & n1 & E1 & B1 & G1 & N1 & U1 & C1 & V1 & M1 & In1 & Lv1).
    rewrite E1. cbn [obind].
    assert (Hv : forall v, In v (map lvar (to_buf t)) -> (v < w_next w)%N /\ ow v = None).
    { intros v H. apply in_map_iff in H as (l & <- & Hl). destruct (ti_lits _ _ _ _ _ I l) as (H1 & H2); [rewrite (ti_in _ _ _ _ _ I); apply in_or_app; auto|].
      split; [auto|]. destruct (ow (lvar l)) eqn:E; [|reflexivity]. exfalso. apply H2. eapply ti_ow; eauto. }
    assert (Hgin : forall g', (forall v, gin g' v = true -> gin g v = true \/ In v (map lvar (to_buf t))) -> forall v, gin g' v = true -> exists l, In l (w_in w) /\ lvar l = v).
    { intros g' H v H'. apply H in H' as [H'|H']; [eapply ti_gin; eauto|]. apply in_map_iff in H' as (l & <- & Hl). exists l. split; [|auto].
      rewrite (ti_in _ _ _ _ _ I). apply in_or_app; auto. }
    assert (HC1 : (nc_id (con_full new) < length (d_nodes d1))%nat) by (apply con_good_lt in C1; exact C1).
    assert (Root := ti_root _ _ _ _ _ I). destruct (to_root t) as [old|].
    + rewrite (ti_off _ _ _ _ _ I). cbn [con_offset_weighted Nat.eqb obind]. fold (con_full old).
      destruct Root as (no & No & Uo & Lo & Vo & Co & Lvo).
      pose proof (con_good_grow _ _ _ _ _ _ G1 Co) as Co1.
      assert (Uo1 : unit_con (d_nodes d1) (con_full old)) by (split; [reflexivity|]; exists no; split; [eapply grow_nth; eauto|auto]).
      assert (Un1 : unit_con (d_nodes d1) (con_full new)) by (split; [reflexivity|]; exists n1; auto).
      destruct (merge_ok g1 d1 [con_full old; con_full new] B1) as (d2 & con & g2 & E2 & B2 & G2 & Q1 & Q2 & Q3 & _ & Q5 & Q6).
      { constructor; [exact Co1|constructor; [exact C1|constructor]]. }
      { discriminate. }
      match goal with |- context [merge d1 ?L] => replace (merge d1 L) with (Some (d2, Some con)) by (symmetry; exact E2) end.
      cbn [obind]. assert (G12 : grow (map lvar (to_buf t)) (to_db t) g d2 g2).
      { eapply grow_trans; [exact G1|]. eapply grow_incl; [|exact G2]. intros x []. }
      destruct (Q5 ltac:(constructor; [exact Uo1|constructor; [exact Un1|constructor]])) as (Mu & n & En & Un).
      destruct Q1 as (S1 & _ & n' & En' & Dn & In'). assert (n' = n) as -> by congruence.
      eexists. split; [reflexivity|]. split; [|split; [reflexivity|intros; congruence]].
      exists g2, ow, (rooted ++ to_buf t). constructor; cbn [to_buf to_root to_db to_off to_add].
      * eapply inv_grow; [exact (ti_inv _ _ _ _ _ I)|exact B2|exact G12|exact Hv].
      * exact B2.
      * eapply no_dummy_grow; [exact G12|exact (ti_nodummy _ _ _ _ _ I)].
      * rewrite app_nil_r. exact (ti_in _ _ _ _ _ I).
      * reflexivity.
      * rewrite (ti_add _ _ _ _ _ I). reflexivity.
      * cbn [root_ok]. exists n. split; [auto|]. split; [auto|]. split; [|split].
        -- unfold cmax in Q3. rewrite En, simple_con_map in Q3 by auto. rewrite Mu in Q3. cbn [map list_sum fold_right con_full nc_id] in Q3.
           rewrite N1, (grow_nth _ _ _ _ _ _ _ G1 No) in Q3. rewrite !simple_con_map in Q3 by (repeat split). cbn [con_full nc_mult] in Q3.
           rewrite node_len_unitlike, app_length by auto. rewrite node_len_unitlike in Lo by auto. lia.
        -- intros a. specialize (Q2 a). unfold cval in Q2. rewrite simple_con_map in Q2 by auto. rewrite Mu in Q2. cbn [map list_sum fold_right con_full nc_id] in Q2.
           rewrite !simple_con_map in Q2 by (repeat split). cbn [con_full nc_mult] in Q2. rewrite V1 in Q2.
           destruct G1 as (_ & (GV1 & _) & _). rewrite GV1 in Q2 by (eapply nth_error_lt; eauto). rewrite Vo in Q2. rewrite count_true_app. lia.
        -- split; [split; [repeat split|]; split; [cbn; lia|]; exists n; auto|].
           assert (Fl : Forall2 (con_leaves (d_nodes d1)) [con_full old; con_full new] [map (fun l => (l, 1%nat)) rooted; map (fun l => (l, 1%nat)) (to_buf t)]).
           { assert (Lvo1 : tree_leaves (d_nodes d1) old (map (fun l => (l, 1%nat)) rooted)) by (destruct G1 as ((x & -> & _) & _); now apply tree_leaves_app).
             repeat constructor; eexists; (split; [eassumption|]); symmetry; apply scale_1. }
           apply Q6 in Fl. destruct Fl as (_ & l0 & Tl0 & El0). rewrite Mu, scale_1 in El0. subst l0. cbn [concat] in Tl0. rewrite app_nil_r in Tl0.
           rewrite map_app. exact Tl0.
      * exact (ti_ow _ _ _ _ _ I).
      * exact (ti_lits _ _ _ _ _ I).
      * apply Hgin. destruct G12 as (_ & _ & H). exact H.
      * exact (ti_aux _ _ _ _ _ I).
      * intros ub ls l H1 H2. destruct (ti_units _ _ _ _ _ I ub ls l H1 H2) as (L & K). split; [auto|]. intros a Ha. specialize (K a Ha).
        unfold lit_true in *. now rewrite (canonize_grow _ _ _ _ _ _ _ _ _ _ a (lvar l) (ti_inv _ _ _ _ _ I) G12).
    + cbn in Root. subst rooted. cbn [obind]. eexists. split; [reflexivity|]. split; [|split; [reflexivity|intros; congruence]].
      exists g1, ow, (to_buf t). constructor; cbn [to_buf to_root to_db to_off to_add].
      * eapply inv_grow; [exact (ti_inv _ _ _ _ _ I)|exact B1|exact G1|exact Hv].
      * exact B1.
      * eapply no_dummy_grow; [exact G1|exact (ti_nodummy _ _ _ _ _ I)].
      * rewrite app_nil_r. rewrite (ti_in _ _ _ _ _ I). reflexivity.
      * reflexivity.
      * rewrite (ti_add _ _ _ _ _ I), (ti_off _ _ _ _ _ I). reflexivity.
      * cbn [root_ok]. exists n1. split; [auto|]. split; [auto|]. split; [rewrite node_len_unitlike; auto|]. split; [auto|]. split; auto.
      * exact (ti_ow _ _ _ _ _ I).
      * exact (ti_lits _ _ _ _ _ I).
      * apply Hgin. destruct G1 as (_ & _ & H). exact H.
      * exact (ti_aux _ _ _ _ _ I).
      * intros ub ls l H1 H2. destruct (ti_units _ _ _ _ _ I ub ls l H1 H2) as (L & K). split; [auto|]. intros a Ha. specialize (K a Ha).
        unfold lit_true in *. now rewrite (canonize_grow _ _ _ _ _ _ _ _ _ _ a (lvar l) (ti_inv _ _ _ _ _ I) G1).
Qed.

(** ** Defining outputs of the root *)
Lemma define_all_ok GF GU GL g ow st id n idxs sem : inv GF GU GL g ow st -> nth_error (t_nodes st) id = Some n -> is_unitlike n ->
  (forall i, In i idxs -> (i < node_len n)%nat) ->
  exists st' ow', define_all st id idxs sem = Some st' /\ inv GF GU GL g ow' st' /\ ext ow st ow' st' /\
    (forall i, In i idxs -> exists l, lit_has (t_nodes st') id (i + 1) sem l).
Proof.
  unfold define_all. revert ow st n. induction idxs as [|i idxs IH]; intros ow st n I Hn U Hi; cbn [foldM].
  - exists st, ow. split; [auto|]. split; [auto|]. split; [apply ext_refl|]. intros i [].
  - destruct (define_unweighted_ok GF GU GL g (S (length (t_nodes st))) st ow id i sem n I Hn U) as (l & st1 & ow1 & E1 & I1 & X1 & L1 & _).
    { apply Hi. now left. }
    { pose proof (wf_rk _ _ (i_shape _ _ _ _ _ _ I) id) as H. rewrite skel_length in H. specialize (H (nth_error_lt _ _ _ Hn)). lia. }
    rewrite E1. cbn [obind snd].
    destruct (unitlike_same_skel _ (t_nodes st1) _ _ (e_skel _ _ _ _ X1) Hn U) as (n' & Hn' & U' & L').
    destruct (IH ow1 st1 n' I1 Hn' U') as (st2 & ow2 & E2 & I2 & X2 & L2).
    { intros j Hj. rewrite L'. apply Hi. now right. }
    exists st2, ow2. split; [exact E2|]. split; [auto|]. split; [eapply ext_trans; eauto|].
    intros j [<-|Hj]; [|auto]. exists l. eapply lit_has_ext; eauto.
Qed.

(** a later state in which the bounds that could be enforced still can *)
Definition keeps (t t' : tot) : Prop :=
  (forall ub ls, tot_enforce_ub t ub = Some (EOk ls) -> tot_enforce_ub t' ub = Some (EOk ls)) /\
  (forall lb ls, tot_enforce_lb t lb = Some (EOk ls) -> tot_enforce_lb t' lb = Some (EOk ls)).

Lemma keeps_refl t : keeps t t.
Proof. split; auto. Qed.
Lemma keeps_trans t1 t2 t3 : keeps t1 t2 -> keeps t2 t3 -> keeps t1 t3.
Proof. intros (A & B) (C & D). split; auto. Qed.

Lemma keeps_buf w t w' t' : tinv w t -> tinv w' t' -> w_in w' = w_in w -> to_buf t <> [] -> keeps t t'.
Proof.
  intros (g & ow & r & I) (g' & ow' & r' & I') Hin Hb. split.
  - intros ub ls H. destruct (enforce_ub_cases _ _ _ _ _ ub I) as [(L & E)|[(_ & _ & E)|(_ & E & _)]]; [|congruence|congruence].
    destruct (enforce_ub_cases _ _ _ _ _ ub I') as [(L' & E')|[(L' & _)|(L' & _)]]; rewrite ?Hin in *; try lia. congruence.
  - intros lb ls H. destruct (enforce_lb_cases _ _ _ _ _ lb I) as [(L & E)|[(_ & E)|[(_ & _ & E)|(_ & E & _)]]]; [|congruence|congruence|congruence].
    destruct (enforce_lb_cases _ _ _ _ _ lb I') as [(L' & E')|[(L' & _)|[(L' & _)|(L' & _)]]]; rewrite ?Hin in *; try lia. congruence.
Qed.

Lemma keeps_ext w t w' t' ow st ow' st' : tinv w t -> tinv w' t' -> w_in w' = w_in w -> to_buf t' = to_buf t -> to_root t' = to_root t ->
  t_nodes st = d_nodes (to_db t) -> t_nodes st' = d_nodes (to_db t') -> ext ow st ow' st' -> keeps t t'.
Proof.
  intros (g & o & r & I) (g' & o' & r' & I') Hin Hb Hr En En' X.
  assert (HX : forall id val sem l, lit_has (d_nodes (to_db t)) id val sem l -> lit_has (d_nodes (to_db t')) id val sem l).
  { intros id val sem l. rewrite <- En, <- En'. eapply lit_has_ext; eauto. }
  split.
  - intros ub ls H. destruct (enforce_ub_cases _ _ _ _ _ ub I) as [(L & E)|[(_ & _ & E)|(L & Eb & id & Er & [(l & Hl & E)|(_ & E)])]]; [|congruence| |congruence].
    + destruct (enforce_ub_cases _ _ _ _ _ ub I') as [(L' & E')|[(L' & _)|(L' & _)]]; rewrite ?Hin in *; try lia. congruence.
    + replace ls with [neg l] by congruence. eapply lit_has_enforce_ub; eauto; try congruence.
  - intros lb ls H. destruct (enforce_lb_cases _ _ _ _ _ lb I) as [(L & E)|[(_ & E)|[(_ & _ & E)|(L & Eb & id & Er & [(l & Hl & E)|(_ & E)])]]]; [|congruence|congruence| |congruence].
    + destruct (enforce_lb_cases _ _ _ _ _ lb I') as [(L' & E')|[(L' & _)|[(L' & _)|(L' & _)]]]; rewrite ?Hin in *; try lia. congruence.
    + replace ls with [l] by congruence. eapply lit_has_enforce_lb; eauto; try congruence.
Qed.

Lemma in_aux_cons lo hi aux v : in_aux ((lo, hi) :: aux) v <-> (lo <= v < hi)%N \/ in_aux aux v.
Proof.
  unfold in_aux. split.
  - intros (l & h & [H|H] & Hv); [left; congruence|right; eauto].
  - intros [H|(l & h & H & Hv)]; [exists lo, hi|exists l, h]; cbn; auto.
Qed.

(** bookkeeping for a call that emitted [t_cls st'] *)
Lemma tinv_call w t g ow rooted ow' st' : tinv_with w t g ow rooted ->
  inv (w_all w) (w_ub w) (w_lb w) g ow' st' -> ext ow (mkTst (d_nodes (to_db t)) (w_next w) []) ow' st' ->
  forall nv nc, tinv (log_call w false false (t_cls st') (t_next st'))
    (mkTot (to_buf t) (to_root t) nv nc (set_nodes_db (to_db t) (t_nodes st')) (to_off t) (to_add t)).
Proof.
  intros I I' X nv nc. exists g, ow', rooted.
  assert (Hsk : skel (t_nodes st') = skel (d_nodes (to_db t))) by exact (e_skel _ _ _ _ X).
  assert (Hnx : (w_next w <= t_next st')%N) by exact (e_next _ _ _ _ X).
  constructor; cbn [to_buf to_root to_db to_off to_add set_nodes_db d_nodes log_call w_in w_next w_aux w_all w_ub w_lb].
  - apply inv_commit. exact I'.
  - apply built_skel; [exact (ti_built _ _ _ _ _ I)|auto].
  - intros id H. apply nth_skel in H. rewrite Hsk in H. apply nth_skel_inv in H as (n & Hn & He).
    destruct n; cbn in He; try discriminate. now apply (ti_nodummy _ _ _ _ _ I) in Hn.
  - exact (ti_in _ _ _ _ _ I).
  - exact (ti_off _ _ _ _ _ I).
  - exact (ti_add _ _ _ _ _ I).
  - assert (R := ti_root _ _ _ _ _ I). destruct (to_root t) as [id|]; [|exact R]. cbn [root_ok] in *.
    destruct R as (n & Hn & U & L & V & (S & M & m & Em & Dm & Im) & Lv).
    destruct (unitlike_same_skel _ (t_nodes st') _ _ Hsk Hn U) as (n' & Hn' & U' & L'). exists n'. split; [auto|]. split; [auto|]. split; [congruence|]. split; [auto|].
    split; [|eapply tree_leaves_skel; eauto]. split; [auto|]. split; [auto|]. exists n'. cbn [con_full nc_id] in *. split; [auto|].
    assert (m = n) as -> by congruence. destruct (node_same_skel _ (t_nodes st') _ _ Hsk Hn) as (n2 & Hn2 & He). assert (n2 = n') as -> by congruence.
    split; [rewrite <- is_dummy_erase, He, is_dummy_erase; auto|].
    rewrite <- (node_max_val_erase n'), <- (node_vals_erase n'), He, node_max_val_erase, node_vals_erase. auto.
  - intros v x H. apply in_aux_cons. destruct (e_ow_new _ _ _ _ X v x H) as [H'|H']; [right; eapply ti_ow; eauto|left; exact H'].
  - intros l Hl. destruct (ti_lits _ _ _ _ _ I l Hl) as (H1 & H2). split; [lia|]. intros H. apply in_aux_cons in H as [H|H]; [lia|auto].
  - exact (ti_gin _ _ _ _ _ I).
  - intros v H. apply in_aux_cons in H as [H|H]; [lia|]. apply (ti_aux _ _ _ _ _ I) in H. lia.
  - intros ub ls l H1 H2. destruct (ti_units _ _ _ _ _ I ub ls l H1 H2) as (L & K). split; [lia|]. intros a Ha. specialize (K a Ha).
    unfold lit_true in *. now rewrite (canonize_ext g _ _ _ _ a (lvar l) X).
Qed.

Lemma tinv_noop w t : tinv w t -> tinv (log_call w false false [] (w_next w)) t.
Proof.
  intros (g & ow & rooted & I). exists g, ow, rooted. assert (I' := I). destruct I' as [J1 J2 J3 J4 J5 J6 J7 J8 J9 J10 J11 J12].
  constructor; cbn [log_call w_in w_next w_aux w_all w_ub w_lb]; auto.
  - rewrite !app_nil_r. auto.
  - intros v x H. apply in_aux_cons. right. eauto.
  - intros l Hl. destruct (J9 l Hl) as (H1 & H2). split; [auto|]. intros H. apply in_aux_cons in H as [H|H]; [lia|auto].
  - intros v H. apply in_aux_cons in H as [H|H]; [lia|auto].
Qed.

(** ** The encoding calls *)
Definition encoded w t (t' : tot) (cs : cnf) (next' : N) : Prop :=
  (w_next w <= next')%N /\ tinv (log_call w false false cs next') t' /\ keeps t t'.

Lemma define_root_ok w t idxs sem : tinv w t -> to_buf t = [] -> (forall i, In i idxs -> (i < length (w_in w))%nat) ->
  exists t' cs next', define_root t idxs sem (w_next w) = Some (t', cs, next') /\ encoded w t t' cs next' /\ to_buf t' = [] /\ to_root t' = to_root t /\
    (forall id i, to_root t = Some id -> In i idxs -> exists l, lit_has (d_nodes (to_db t')) id (i + 1) sem l).
Proof.
  intros T Hb Hi. assert (T' := T). destruct T' as (g & ow & rooted & I). unfold define_root. destruct (to_root t) as [id|] eqn:Er.
  - assert (R := ti_root _ _ _ _ _ I). rewrite Er in R. destruct R as (n & Hn & U & L & _).
    assert (Hlen : length (w_in w) = length rooted) by (rewrite (ti_in _ _ _ _ _ I), Hb, app_nil_r; auto).
    destruct (define_all_ok _ _ _ _ _ _ id n idxs sem (ti_inv _ _ _ _ _ I) Hn U) as (st' & ow' & E & I' & X & HL).
    { intros i H. specialize (Hi i H). lia. }
    rewrite E. cbn [obind].
    pose proof (tinv_call _ _ _ _ _ _ _ I I' X (to_vars t + (t_next st' - w_next w))%N (to_cls t + length (t_cls st'))%nat) as TI. rewrite Er in TI.
    eexists _, _, _. split; [reflexivity|]. split; [split; [exact (e_next _ _ _ _ X)|]; split; [exact TI|]|].
    + eapply keeps_ext; [exact T|exact TI| | | | | |exact X]; try reflexivity. cbn. auto.
    + split; [cbn; auto|]. split; [reflexivity|]. intros id' i [= <-] H. cbn [to_db set_nodes_db d_nodes]. auto.
  - exists t, [], (w_next w). split; [reflexivity|]. split; [split; [lia|]; split; [apply tinv_noop; auto|apply keeps_refl]|]. split; [auto|]. split; [auto|]. discriminate.
Qed.

Definition ub_ready (t : tot) (r : rng) : Prop := forall ub, in_rng ub r -> exists ls, tot_enforce_ub t ub = Some (EOk ls).
Definition lb_ready (t : tot) (r : rng) : Prop :=
  forall lb, in_rng lb r -> (exists ls, tot_enforce_lb t lb = Some (EOk ls)) \/ tot_enforce_lb t lb = Some EUnsat.

Lemma ub_range_in n r ub : in_rng ub r -> (ub < n)%nat ->
  (fst (prepare_ub_range n r) <= ub < Nat.min (snd (prepare_ub_range n r)) n)%nat.
Proof. destruct r as [[lo|lo|] [hi|hi|]]; unfold in_rng, prepare_ub_range; cbn [fst snd]; lia. Qed.

Lemma ub_range_le n r : (snd (prepare_ub_range n r) <= n)%nat.
Proof. destruct r as [lo [hi|hi|]]; cbn; lia. Qed.

Lemma lb_range_in n r lb : in_rng lb r -> (1 <= lb <= n)%nat ->
  (fst (prepare_lb_range n r) <= lb < Nat.min (snd (prepare_lb_range n r)) (n + 1))%nat.
Proof. destruct r as [[lo|lo|] [hi|hi|]]; unfold in_rng, prepare_lb_range; cbn [fst snd]; lia. Qed.

Lemma lb_range_pos n r : (1 <= fst (prepare_lb_range n r))%nat.
Proof. destruct r as [[lo|lo|] hi]; cbn; lia. Qed.

Lemma encode_ub_change_ok w t r : tinv w t ->
  exists t' cs next', tot_encode_ub_change t r (w_next w) = Some (t', cs, next') /\ encoded w t t' cs next' /\ ub_ready t' r.
Proof.
  intros T. unfold tot_encode_ub_change. rewrite (n_lits_ok _ _ T). cbn [obind]. set (n := length (w_in w)).
  destruct (prepare_ub_range n r) as [lo hi] eqn:Er. assert (T' := T). destruct T' as (g & ow & rooted & I). rewrite (ti_off _ _ _ _ _ I). cbn [Nat.leb assertb obind]. rewrite Nat.sub_0_r.
  assert (Hrin : forall ub, in_rng ub r -> (ub < n)%nat -> (lo <= ub < Nat.min hi n)%nat) by (intros ub H1 H2; pose proof (ub_range_in n r ub H1 H2) as H; rewrite Er in H; exact H).
  destruct (Nat.leb_spec (Nat.min hi n) lo) as [L|L].
  - exists t, [], (w_next w). split; [reflexivity|]. split; [split; [lia|]; split; [apply tinv_noop; auto|apply keeps_refl]|].
    intros ub H. exists []. destruct (enforce_ub_cases _ _ _ _ _ ub I) as [(_ & E)|[(L' & _)|(L' & _)]]; [auto| |]; exfalso; specialize (Hrin ub H L'); lia.
  - destruct (extend_tree_ok w t T) as (t1 & E1 & T1 & B1 & K1). rewrite E1. cbn [obind].
    assert (T1' := T1). destruct T1' as (g1 & ow1 & rooted1 & I1). rewrite (ti_off _ _ _ _ _ I1).
    destruct (define_root_ok w t1 (map (fun idx => idx + 0)%nat (range_excl lo (Nat.min hi n))) SIf T1 B1) as (t' & cs & next' & E2 & (N2 & T2 & K2) & B2 & R2 & L2).
    { intros i H. apply in_map_iff in H as (j & <- & Hj). apply in_range_excl in Hj. fold n. lia. }
    exists t', cs, next'. split; [exact E2|]. split; [split; [auto|]; split; [auto|]|].
    + destruct (to_buf t) as [|b bs] eqn:Eb.
      * rewrite (K1 eq_refl) in K2. exact K2.
      * eapply keeps_buf; [exact T|exact T2|reflexivity|]. rewrite Eb. discriminate.
    + intros ub H. assert (T2' := T2). destruct T2' as (g2 & ow2 & rooted2 & I2).
      destruct (enforce_ub_cases _ _ _ _ _ ub I2) as [(_ & E)|[(_ & Hb & _)|(L' & _ & id & Hid & [(l & _ & E)|(Hno & _)])]]; [eauto|congruence|eauto|].
      exfalso. cbn [log_call w_in] in L'. specialize (Hrin ub H L').
      destruct (L2 id ub) as (l & Hl); [congruence|apply in_map_iff; exists ub; split; [lia|apply in_range_excl; lia]|]. eapply Hno; eauto.
Qed.

Lemma encode_lb_change_ok w t r : tinv w t ->
  exists t' cs next', tot_encode_lb_change t r (w_next w) = Some (t', cs, next') /\ encoded w t t' cs next' /\ lb_ready t' r.
Proof.
  intros T. unfold tot_encode_lb_change. rewrite (n_lits_ok _ _ T). cbn [obind]. set (n := length (w_in w)).
  destruct (prepare_lb_range n r) as [lo hi] eqn:Er. assert (T' := T). destruct T' as (g & ow & rooted & I). rewrite (ti_off _ _ _ _ _ I). cbn [Nat.leb assertb obind]. rewrite Nat.sub_0_r.
  assert (Hrin : forall lb, in_rng lb r -> (1 <= lb <= n)%nat -> (lo <= lb < Nat.min hi (n + 1))%nat) by (intros lb H1 H2; pose proof (lb_range_in n r lb H1 H2) as H; rewrite Er in H; exact H).
  assert (Hlo : (1 <= lo)%nat) by (pose proof (lb_range_pos n r) as H; rewrite Er in H; exact H).
  destruct (Nat.leb_spec (Nat.min hi (n + 1)) lo) as [L|L].
  - exists t, [], (w_next w). split; [reflexivity|]. split; [split; [lia|]; split; [apply tinv_noop; auto|apply keeps_refl]|].
    intros lb H. destruct (enforce_lb_cases _ _ _ _ _ lb I) as [(_ & E)|[(_ & E)|[(L' & _)|(L' & _)]]]; [eauto|eauto| |]; exfalso; specialize (Hrin lb H L'); lia.
  - destruct (extend_tree_ok w t T) as (t1 & E1 & T1 & B1 & K1). rewrite E1. cbn [obind].
    assert (T1' := T1). destruct T1' as (g1 & ow1 & rooted1 & I1). rewrite (ti_off _ _ _ _ _ I1).
    destruct (define_root_ok w t1 (map (fun idx => idx - 1 + 0)%nat (range_excl lo (Nat.min hi (n + 1)))) SOnlyIf T1 B1) as (t' & cs & next' & E2 & (N2 & T2 & K2) & B2 & R2 & L2).
    { intros i H. apply in_map_iff in H as (j & <- & Hj). apply in_range_excl in Hj. fold n. lia. }
    exists t', cs, next'. split; [exact E2|]. split; [split; [auto|]; split; [auto|]|].
    + destruct (to_buf t) as [|b bs] eqn:Eb.
      * rewrite (K1 eq_refl) in K2. exact K2.
      * eapply keeps_buf; [exact T|exact T2|reflexivity|]. rewrite Eb. discriminate.
    + intros lb H. assert (T2' := T2). destruct T2' as (g2 & ow2 & rooted2 & I2).
      destruct (enforce_lb_cases _ _ _ _ _ lb I2) as [(_ & E)|[(_ & E)|[(_ & Hb & _)|(L' & _ & id & Hid & [(l & _ & E)|(Hno & _)])]]]; [eauto|eauto|congruence|eauto|].
      exfalso. cbn [log_call w_in] in L'. specialize (Hrin lb H L').
      destruct (L2 id (lb - 1)%nat) as (l & Hl); [congruence|apply in_map_iff; exists lb; split; [lia|apply in_range_excl; lia]|].
      replace (lb - 1 + 1)%nat with lb in Hl by lia. eapply Hno; eauto.
Qed.

Definition w_clear_ub (w : world lit) := mkWorld (w_in w) (w_next w) (w_aux w) (w_all w) [] (w_lb w).
Definition w_clear_lb (w : world lit) := mkWorld (w_in w) (w_next w) (w_aux w) (w_all w) (w_ub w) [].

Lemma reset_facts t s g rooted : root_ok g (d_nodes (to_db t)) (to_root t) rooted -> 
  root_ok g (reset_encoded (d_nodes (to_db t)) s) (to_root t) rooted.
Proof.
  intros R. destruct (to_root t) as [id|]; [|exact R]. cbn [root_ok] in *. pose proof (reset_skel (d_nodes (to_db t)) s) as Hsk.
  destruct R as (n & Hn & U & L & V & (S & M & m & Em & Dm & Im) & Lv).
  destruct (unitlike_same_skel _ (reset_encoded (d_nodes (to_db t)) s) _ _ Hsk Hn U) as (n' & Hn' & U' & L'). exists n'. split; [auto|]. split; [auto|]. split; [congruence|]. split; [auto|].
  split; [|eapply tree_leaves_skel; eauto]. split; [auto|]. split; [auto|]. exists n'. cbn [con_full nc_id] in *. split; [auto|].
  assert (m = n) as -> by congruence. destruct (node_same_skel _ (reset_encoded (d_nodes (to_db t)) s) _ _ Hsk Hn) as (n2 & Hn2 & He). assert (n2 = n') as -> by congruence.
  split; [rewrite <- is_dummy_erase, He, is_dummy_erase; auto|].
  rewrite <- (node_max_val_erase n'), <- (node_vals_erase n'), He, node_max_val_erase, node_vals_erase. auto.
Qed.

Lemma reset_dummy ns s id : nth_error (reset_encoded ns s) id = Some NDummy -> nth_error ns id = Some NDummy.
Proof. rewrite nth_reset. destruct (nth_error ns id) as [[]|]; cbn; try discriminate; auto. Qed.

Lemma tinv_reset_if w t : tinv w t -> tinv (w_clear_ub w) (tot_reset t SIf).
Proof.
  intros (g & ow & rooted & [J1 J2 J3 J4 J5 J6 J7 J8 J9 J10 J11 J12]). exists g, ow, rooted.
  constructor; cbn [tot_reset w_clear_ub w_in w_next w_aux w_all w_ub w_lb to_buf to_root to_db to_off to_add set_nodes_db d_nodes]; auto.
  - eapply inv_reset_if; eauto.
  - apply built_skel; [auto|apply reset_skel].
  - intros id H. now apply reset_dummy, J3 in H.
  - apply reset_facts; auto.
Qed.

Lemma tinv_reset_oif w t : tinv w t -> tinv (w_clear_lb w) (tot_reset t SOnlyIf).
Proof.
  intros (g & ow & rooted & [J1 J2 J3 J4 J5 J6 J7 J8 J9 J10 J11 J12]). exists g, ow, rooted.
  constructor; cbn [tot_reset w_clear_lb w_in w_next w_aux w_all w_ub w_lb to_buf to_root to_db to_off to_add set_nodes_db d_nodes]; auto.
  - eapply inv_reset_oif; eauto.
  - apply built_skel; [auto|apply reset_skel].
  - intros id H. now apply reset_dummy, J3 in H.
  - apply reset_facts; auto.
Qed.

(** resetting one direction leaves the other's bounds enforceable *)
Lemma reset_has ns id val l : (lit_has ns id val SOnlyIf l -> lit_has (reset_encoded ns SIf) id val SOnlyIf l) /\
  (lit_has ns id val SIf l -> lit_has (reset_encoded ns SOnlyIf) id val SIf l).
Proof.
  split; (intros [(Hn & ->)|(s & Hd & H1 & H2)]; [left; split; [rewrite nth_reset, Hn; reflexivity|reflexivity]|right]);
    rewrite data_reset, Hd; cbn [option_map ld_remove].
  - destruct s as [[]|]; cbn in *; try (now discriminate H2); eexists; (split; [reflexivity|]); cbn; auto.
  - destruct s as [[]|]; cbn in *; try (now discriminate H1); eexists; (split; [reflexivity|]); cbn; auto.
Qed.

Lemma keeps_reset_if w t : tinv w t -> forall lb ls, tot_enforce_lb t lb = Some (EOk ls) -> tot_enforce_lb (tot_reset t SIf) lb = Some (EOk ls).
Proof.
  intros T lb ls H. pose proof (tinv_reset_if _ _ T) as T'. destruct T as (g & ow & r & I), T' as (g' & ow' & r' & I').
  destruct (enforce_lb_cases _ _ _ _ _ lb I) as [(L & E)|[(_ & E)|[(_ & _ & E)|(L & Eb & id & Er & [(l & Hl & E)|(_ & E)])]]]; [|congruence|congruence| |congruence].
  - destruct (enforce_lb_cases _ _ _ _ _ lb I') as [(L' & E')|[(L' & _)|[(L' & _)|(L' & _)]]]; cbn [w_clear_ub w_in] in *; try lia. congruence.
  - replace ls with [l] by congruence. eapply lit_has_enforce_lb; eauto. cbn [tot_reset to_db set_nodes_db d_nodes]. now apply reset_has.
Qed.

Lemma keeps_reset_oif w t : tinv w t -> forall ub ls, tot_enforce_ub t ub = Some (EOk ls) -> tot_enforce_ub (tot_reset t SOnlyIf) ub = Some (EOk ls).
Proof.
  intros T ub ls H. pose proof (tinv_reset_oif _ _ T) as T'. destruct T as (g & ow & r & I), T' as (g' & ow' & r' & I').
  destruct (enforce_ub_cases _ _ _ _ _ ub I) as [(L & E)|[(_ & _ & E)|(L & Eb & id & Er & [(l & Hl & E)|(_ & E)])]]; [|congruence| |congruence].
  - destruct (enforce_ub_cases _ _ _ _ _ ub I') as [(L' & E')|[(L' & _)|(L' & _)]]; cbn [w_clear_lb w_in] in *; try lia. congruence.
  - replace ls with [neg l] by congruence. eapply lit_has_enforce_ub; eauto. cbn [tot_reset to_db set_nodes_db d_nodes]. now apply reset_has.
Qed.

Lemma encode_ub_ok w t r : tinv w t ->
  exists t' cs next', tot_encode_ub t r (w_next w) = Some (t', cs, next') /\ tinv (log_call w true false cs next') t' /\ (w_next w <= next')%N /\
    ub_ready t' r /\ (forall lb ls, tot_enforce_lb t lb = Some (EOk ls) -> tot_enforce_lb t' lb = Some (EOk ls)).
Proof.
  intros T. unfold tot_encode_ub. destruct (encode_ub_change_ok _ _ r (tinv_reset_if _ _ T)) as (t' & cs & next' & E & (N & T' & K) & R).
  exists t', cs, next'. split; [exact E|]. split; [exact T'|]. split; [exact N|]. split; [auto|]. intros lb ls H. apply K. eapply keeps_reset_if; eauto.
Qed.

Lemma encode_lb_ok w t r : tinv w t ->
  exists t' cs next', tot_encode_lb t r (w_next w) = Some (t', cs, next') /\ tinv (log_call w false true cs next') t' /\ (w_next w <= next')%N /\
    lb_ready t' r /\ (forall ub ls, tot_enforce_ub t ub = Some (EOk ls) -> tot_enforce_ub t' ub = Some (EOk ls)).
Proof.
  intros T. unfold tot_encode_lb. destruct (encode_lb_change_ok _ _ r (tinv_reset_oif _ _ T)) as (t' & cs & next' & E & (N & T' & K) & R).
  exists t', cs, next'. split; [exact E|]. split; [exact T'|]. split; [exact N|]. split; [auto|]. intros lb ls H. apply K. eapply keeps_reset_oif; eauto.
Qed.

Lemma tinv_log_two w t c1 n1 c2 n2 : (w_next w <= n1)%N -> (n1 <= n2)%N ->
  tinv (log_call (log_call w false false c1 n1) false false c2 n2) t -> tinv (log_call w false false (c1 ++ c2) n2) t.
Proof.
  intros H1 H2 (g & ow & rooted & [J1 J2 J3 J4 J5 J6 J7 J8 J9 J10 J11 J12]). exists g, ow, rooted. cbn [log_call w_in w_next w_aux w_all w_ub w_lb] in *.
  assert (Hx : forall v, in_aux ((w_next w, n2) :: w_aux w) v <-> in_aux ((n1, n2) :: (w_next w, n1) :: w_aux w) v).
  { intros v. rewrite !in_aux_cons. split; intros H; [|destruct H as [H|[H|H]]; [left; lia|left; lia|auto]].
    destruct H as [H|H]; [|auto]. destruct (N.lt_ge_cases v n1); [right; left; lia|left; lia]. }
  rewrite <- !app_assoc in J1. constructor; cbn [log_call w_in w_next w_aux w_all w_ub w_lb]; auto.
  - intros v x H. apply Hx. eauto.
  - intros l Hl. destruct (J9 l Hl) as (A & B). split; [auto|]. rewrite Hx. auto.
  - intros v H. apply Hx in H. auto.
Qed.

Lemma encode_both_ok w t r : tinv w t ->
  exists t' cs next', tot_encode_both t r (w_next w) = Some (t', cs, next') /\ encoded w t t' cs next' /\ ub_ready t' r /\ lb_ready t' r.
Proof.
  intros T. unfold tot_encode_both. destruct (encode_ub_change_ok w t r T) as (t1 & c1 & n1 & E1 & (N1 & T1 & K1) & R1). rewrite E1. cbn [obind].
  destruct (encode_lb_change_ok _ _ r T1) as (t2 & c2 & n2 & E2 & (N2 & T2 & K2) & R2). cbn [log_call w_next] in E2, N2. rewrite E2. cbn [obind].
  exists t2, (c1 ++ c2), n2. split; [reflexivity|]. split; [split; [lia|]; split; [eapply tinv_log_two; eauto|eapply keeps_trans; eauto]|].
  split; [|auto]. intros ub H. destruct (R1 ub H) as (ls & Hls). exists ls. apply K2. auto.
Qed.

Lemma reserve_ok w t : tinv w t ->
  exists t' next', tot_reserve t (w_next w) = Some (t', next') /\ encoded w t t' [] next'.
Proof.
  intros T. unfold tot_reserve. destruct (extend_tree_ok w t T) as (t1 & E1 & T1 & B1 & K1). rewrite E1. cbn [obind].
  assert (Hk : forall w' t', tinv w' t' -> w_in w' = w_in w -> keeps t1 t' -> keeps t t').
  { intros w' t' T' Hin K. destruct (to_buf t) as [|b bs] eqn:Eb; [rewrite (K1 eq_refl) in K; exact K|]. eapply keeps_buf; [exact T|exact T'|auto|congruence]. }
  assert (T1' := T1). destruct T1' as (g1 & ow1 & rooted1 & I1). destruct (to_root t1) as [id|] eqn:Er.
  - assert (R := ti_root _ _ _ _ _ I1). rewrite Er in R. destruct R as (n & Hn & U & L & V & C & Lv).
    destruct (reserve_vars_ok _ _ _ _ (S (length (d_nodes (to_db t1)))) _ _ (con_full id) (ti_inv _ _ _ _ _ I1)) as (st' & ow' & E & I' & X & Ec).
    { apply con_good_ok. exact C. }
    { left. reflexivity. }
    { pose proof (wf_rk _ _ (i_shape _ _ _ _ _ _ (ti_inv _ _ _ _ _ I1)) id) as H. rewrite skel_length in H. cbn [t_nodes con_full nc_id] in *. specialize (H (nth_error_lt _ _ _ Hn)). lia. }
    rewrite E. cbn [obind]. eexists _, _. split; [reflexivity|].
    pose proof (tinv_call _ _ _ _ _ _ _ I1 I' X (to_vars t1) (to_cls t1)) as TI. rewrite Er, Ec in TI.
    split; [exact (e_next _ _ _ _ X)|]. split; [exact TI|]. eapply Hk; [exact TI|reflexivity|].
    eapply keeps_ext; [exact T1|exact TI| | | | | |exact X]; try reflexivity. cbn. auto.
  - exists t1, (w_next w). split; [reflexivity|]. split; [lia|]. split; [apply tinv_noop; auto|]. eapply Hk; [exact T1|reflexivity|apply keeps_refl].
Qed.

(** ** Histories *)

Lemma tinv_init : Us = [] -> tinv world0 tot_new.
Proof.
  intros HU.  exists ghost0, (fun _ => None), [].
  assert (Hn : forall id : nat, nth_error (@nil node) id = None) by (intros []; reflexivity).
  assert (W : wf_shape (skel []) ghost0) by exact (proj1 built_empty).
  constructor; cbn [tot_new world0 to_db to_buf to_root to_off to_add w_in w_next w_aux w_all w_ub w_lb db_empty d_nodes root_ok].
  - constructor; cbn [t_nodes t_next t_cls app gin]; try discriminate; auto;
      try (intros; unfold data in *; rewrite Hn in *; discriminate); try (intros; cbn in *; tauto).
  - split; [exact W|]. split; cbn; discriminate.
  - intros id. rewrite Hn. discriminate.
  - reflexivity.
  - reflexivity.
  - reflexivity.
  - reflexivity.
  - discriminate.
  - intros l [].
  - discriminate.
  - intros v (lo & hi & [] & _).
  - rewrite HU. intros ub ls l [].
Qed.

Lemma tinv_extend w t ls : tinv w t -> (forall l, In l ls -> (lvar l < w_next w)%N /\ ~ in_aux (w_aux w) (lvar l)) ->
  tinv (mkWorld (w_in w ++ ls) (w_next w) (w_aux w) (w_all w) (w_ub w) (w_lb w)) (tot_extend t ls).
Proof.
  intros (g & ow & rooted & [J1 J2 J3 J4 J5 J6 J7 J8 J9 J10 J11 J12]) H. exists g, ow, rooted.
  constructor; cbn [tot_extend to_db to_buf to_root to_off to_add w_in w_next w_aux w_all w_ub w_lb]; auto.
  - rewrite J4, app_assoc. reflexivity.
  - intros l Hl. apply in_app_or in Hl as [Hl|Hl]; auto.
  - intros v Hv. destruct (J10 v Hv) as (l & Hl & E). exists l. split; [apply in_or_app; auto|auto].
  - intros ub us l H1 H2. destruct (J12 ub us l H1 H2) as (L & K). split; [auto|]. intros a Ha. apply K. rewrite count_true_app in Ha. lia.
Qed.

Lemma tinv_user w t k : tinv w t -> tinv (mkWorld (w_in w) (w_next w + k)%N (w_aux w) (w_all w) (w_ub w) (w_lb w)) t.
Proof.
  intros (g & ow & rooted & [J1 J2 J3 J4 J5 J6 J7 J8 J9 J10 J11 J12]). exists g, ow, rooted.
  constructor; cbn [w_in w_next w_aux w_all w_ub w_lb]; auto.
  - eapply inv_next; [|exact J1]. lia.
  - intros l Hl. destruct (J9 l Hl). split; [lia|auto].
  - intros v Hv. apply J11 in Hv. lia.
  - intros ub us l H1 H2. destruct (J12 ub us l H1 H2) as (L & K). split; [lia|auto].
Qed.

Definition valid_tot (w : world lit) (op : hop lit) : Prop := valid_op (fun l => l) any_lit any_op w op.
Definition reach_tot : world lit -> tot -> Prop := reachable totalizer (fun l => l) any_lit any_op.

Lemma step_ok w t op : tinv w t -> valid_tot w op -> exists w' t', step totalizer w t op = Some (w', t') /\ tinv w' t'.
Proof.
  intros T (_ & Hv). destruct op as [xs|k| |r|r|r|r|r]; cbn [step totalizer en_extend en_reserve en_ub en_ub_change en_lb en_lb_change en_both].
  - eexists _, _. split; [reflexivity|]. apply tinv_extend; [auto|]. intros l Hl. apply Hv in Hl. tauto.
  - eexists _, _. split; [reflexivity|]. apply tinv_user; auto.
  - destruct (reserve_ok w t T) as (t' & n' & E & (_ & T' & _)). rewrite E. eauto.
  - destruct (encode_ub_ok w t r T) as (t' & cs & n' & E & T' & _). rewrite E. cbn. eauto.
  - destruct (encode_ub_change_ok w t r T) as (t' & cs & n' & E & (_ & T' & _) & _). rewrite E. cbn. eauto.
  - destruct (encode_lb_ok w t r T) as (t' & cs & n' & E & T' & _). rewrite E. cbn. eauto.
  - destruct (encode_lb_change_ok w t r T) as (t' & cs & n' & E & (_ & T' & _) & _). rewrite E. cbn. eauto.
  - destruct (encode_both_ok w t r T) as (t' & cs & n' & E & (_ & T' & _) & _). rewrite E. cbn. eauto.
Qed.

End Units.
Arguments ti_inv {Us}. Arguments ti_built {Us}. Arguments ti_nodummy {Us}. Arguments ti_in {Us}. Arguments ti_off {Us}. Arguments ti_add {Us}. Arguments ti_root {Us}. Arguments ti_ow {Us}. Arguments ti_lits {Us}. Arguments ti_gin {Us}. Arguments ti_aux {Us}. Arguments ti_units {Us}. Arguments enforce_ub_cases {Us}. Arguments enforce_lb_cases {Us}. Arguments step_ok {Us}. Arguments encode_ub_ok {Us}. Arguments encode_lb_ok {Us}. Arguments encode_ub_change_ok {Us}. Arguments encode_lb_change_ok {Us}. Arguments encode_both_ok {Us}. Arguments reserve_ok {Us}. Arguments n_lits_with {Us}. Arguments n_lits_ok {Us}. 

Lemma reach_tinv w t : reach_tot w t -> tinv [] w t.
Proof.
  induction 1 as [|w s op w' s' R IH V E]; [now apply tinv_init|].
  destruct (step_ok w s op IH V) as (w2 & t2 & E2 & T2). change (en_init totalizer) with tot_new in *. congruence.
Qed.

Theorem tot_no_panic : no_panic totalizer (fun l => l) any_lit any_op.
Proof. intros w s op R V. destruct (step_ok w s op (reach_tinv _ _ R) V) as (w2 & t2 & E2 & T2). congruence. Qed.

Theorem tot_enforce_total : enforce_total totalizer (fun l => l) any_lit any_op.
Proof.
  intros w s R. apply reach_tinv in R as (g & ow & r & I). split; intros b; cbn [totalizer en_enforce_ub en_enforce_lb].
  - destruct (enforce_ub_cases _ _ _ _ _ b I) as [(_ & E)|[(_ & _ & E)|(_ & _ & id & _ & [(l & _ & E)|(_ & E)])]]; congruence.
  - destruct (enforce_lb_cases _ _ _ _ _ b I) as [(_ & E)|[(_ & E)|[(_ & _ & E)|(_ & _ & id & _ & [(l & _ & E)|(_ & E)])]]]; congruence.
Qed.

Lemma root_T Us w t g ow rooted id : tinv_with Us w t g ow rooted -> to_root t = Some id ->
  (id < length (d_nodes (to_db t)))%nat /\ (forall a, gV g a id = count_true a rooted) /\ (forall a v, gT g a id v <-> (v <= gV g a id)%nat).
Proof.
  intros I Hr. assert (R := ti_root _ _ _ _ _ I). rewrite Hr in R. destruct R as (n & Hn & U & L & V & _).
  split; [eapply nth_error_lt; eauto|]. split; [auto|]. pose proof (wf_node _ _ (proj1 (ti_built _ _ _ _ _ I)) _ _ (nth_skel _ _ _ Hn)) as N.
  destruct n; cbn in U; try tauto; cbn [erase node_ok] in N; tauto.
Qed.

Theorem tot_ub_sound : ub_sound totalizer (fun l => l) any_lit any_op count_true.
Proof.
  intros w s ub ls a R E Sf Sc. apply reach_tinv in R as (g & ow & r & I). cbn [totalizer en_enforce_ub] in E.
  destruct (enforce_ub_cases _ _ _ _ _ ub I) as [(L & _)|[(_ & _ & E')|(L & Eb & id & Er & [(l & Hl & E')|(_ & E')])]]; try congruence.
  - pose proof (count_true_le a (w_in w)). lia.
  - assert (ls = [neg l]) as -> by congruence. destruct (root_T _ _ _ _ _ _ _ I Er) as (_ & V & T).
    assert (Hin : w_in w = r) by (rewrite (ti_in _ _ _ _ _ I), Eb; apply app_nil_r).
    destruct (Nat.le_gt_cases (count_true a (w_in w)) ub) as [G|G]; [auto|]. exfalso.
    pose proof (lit_has_if _ _ _ _ _ _ a id (ub + 1)%nat l (ti_inv _ _ _ _ _ I)) as H. cbn [t_cls t_nodes] in H. rewrite app_nil_r in H.
    assert (lit_true a l = true) by (apply H; auto; apply T; rewrite V, <- Hin; lia).
    unfold sat_cube in Sc. cbn [forallb] in Sc. rewrite lit_true_neg, H0 in Sc. discriminate.
Qed.

Theorem tot_lb_sound : lb_sound totalizer (fun l => l) any_lit any_op count_true.
Proof.
  intros w s lb ls a R E Sf Sc. apply reach_tinv in R as (g & ow & r & I). cbn [totalizer en_enforce_lb] in E.
  destruct (enforce_lb_cases _ _ _ _ _ lb I) as [(-> & _)|[(_ & E')|[(_ & _ & E')|(L & Eb & id & Er & [(l & Hl & E')|(_ & E')])]]]; try congruence.
  - lia.
  - assert (ls = [l]) as -> by congruence. destruct (root_T _ _ _ _ _ _ _ I Er) as (_ & V & T).
    assert (Hin : w_in w = r) by (rewrite (ti_in _ _ _ _ _ I), Eb; apply app_nil_r).
    pose proof (lit_has_oif _ _ _ _ _ _ a id lb l (ti_inv _ _ _ _ _ I)) as H. cbn [t_cls t_nodes] in H. rewrite app_nil_r in H.
    unfold sat_cube in Sc. cbn [forallb] in Sc. rewrite andb_true_r in Sc.
    specialize (H Sf (ti_nodummy _ _ _ _ _ I) Hl Sc). rewrite V in H. rewrite Hin. exact H.
Qed.

Lemma enforce_canon Us w s g ow r ub ls : tinv_with Us w s g ow r -> tot_enforce_ub s ub = Some (EOk ls) ->
  forall a, (count_true a (w_in w) <= ub)%nat -> sat_cube (canonize g ow a) ls = true.
Proof.
  intros I E a Hc. pose proof (ti_inv _ _ _ _ _ I) as J. destruct (canonize_canon _ _ _ _ _ _ a J) as (C & V).
    destruct (enforce_ub_cases _ _ _ _ _ ub I) as [(_ & E')|[(_ & _ & E')|(L & Eb & id & Er & [(l & Hl & E')|(_ & E')])]]; try congruence.
    + assert (ls = []) as -> by congruence. reflexivity.
    + assert (ls = [neg l]) as -> by congruence. destruct (root_T _ _ _ _ _ _ _ I Er) as (Hid & VV & T).
      assert (Hin : w_in w = r) by (rewrite (ti_in _ _ _ _ _ I), Eb; apply app_nil_r).
      unfold sat_cube. cbn [forallb]. rewrite lit_true_neg. rewrite (lit_has_canon _ _ _ _ _ _ _ _ _ _ _ J C Hl). rewrite V by auto. rewrite VV, <- Hin.
      replace (ub + 1 <=? count_true a (w_in w))%nat with false by lia. reflexivity.
Qed.

Theorem tot_complete : bounds_complete totalizer (fun l => l) any_lit any_op count_true.
Proof.
  intros w s a R. apply reach_tinv in R as (g & ow & r & I). pose proof (ti_inv _ _ _ _ _ I) as J.
  destruct (canonize_canon _ _ _ _ _ _ a J) as (C & V). exists (canonize g ow a).
  split; [|split; [|split]].
  - intros v Hv. unfold canonize. destruct (ow v) as [x|] eqn:E; [|reflexivity]. exfalso. apply Hv. eapply ti_ow; eauto.
  - pose proof (i_comp _ _ _ _ _ _ J _ C) as H. cbn [t_cls] in H. now rewrite app_nil_r in H.
  - intros ub ls E Hc. cbn [totalizer en_enforce_ub] in E.
    exact (enforce_canon _ _ _ _ _ _ _ _ I E a Hc).
  - intros lb ls E Hc. cbn [totalizer en_enforce_lb] in E.
    destruct (enforce_lb_cases _ _ _ _ _ lb I) as [(_ & E')|[(_ & E')|[(_ & _ & E')|(L & Eb & id & Er & [(l & Hl & E')|(_ & E')])]]]; try congruence.
    + assert (ls = []) as -> by congruence. reflexivity.
    + assert (ls = [l]) as -> by congruence. destruct (root_T _ _ _ _ _ _ _ I Er) as (Hid & VV & T).
      assert (Hin : w_in w = r) by (rewrite (ti_in _ _ _ _ _ I), Eb; apply app_nil_r).
      unfold sat_cube. cbn [forallb]. rewrite (lit_has_canon _ _ _ _ _ _ _ _ _ _ _ J C Hl). rewrite V by auto. rewrite VV, <- Hin.
      replace (lb <=? count_true a (w_in w))%nat with true by lia. reflexivity.
Qed.

Theorem tot_unsat_right : unsat_right totalizer (fun l => l) any_lit any_op count_true.
Proof.
  intros w s b R. apply reach_tinv in R as (g & ow & r & I). cbn [totalizer en_enforce_ub en_enforce_lb]. split.
  - intros E a. pose proof (count_true_le a (w_in w)).
    destruct (enforce_lb_cases _ _ _ _ _ b I) as [(_ & E')|[(L & E')|[(_ & _ & E')|(_ & _ & id & _ & [(l & _ & E')|(_ & E')])]]]; try congruence. lia.
  - destruct (enforce_ub_cases _ _ _ _ _ b I) as [(_ & E)|[(_ & _ & E)|(_ & _ & id & _ & [(l & _ & E)|(_ & E)])]]; congruence.
Qed.

Theorem tot_encodes_ub : encodes_ub totalizer (fun l => l) any_lit any_op HUb /\ encodes_ub totalizer (fun l => l) any_lit any_op HUbChange /\
  encodes_ub totalizer (fun l => l) any_lit any_op HBoth.
Proof.
  split; [|split]; intros w s r w' s' ub R V E Hin; apply reach_tinv in R; cbn [step totalizer en_ub en_ub_change en_both en_enforce_ub] in *.
  - destruct (encode_ub_ok w s r R) as (t' & cs & n' & E1 & _ & _ & H & _). rewrite E1 in E. cbn in E. injection E as <- <-. auto.
  - destruct (encode_ub_change_ok w s r R) as (t' & cs & n' & E1 & _ & H). rewrite E1 in E. cbn in E. injection E as <- <-. auto.
  - destruct (encode_both_ok w s r R) as (t' & cs & n' & E1 & _ & H & _). rewrite E1 in E. cbn in E. injection E as <- <-. auto.
Qed.

Theorem tot_encodes_lb : encodes_lb totalizer (fun l => l) any_lit any_op HLb /\ encodes_lb totalizer (fun l => l) any_lit any_op HLbChange /\
  encodes_lb totalizer (fun l => l) any_lit any_op HBoth.
Proof.
  split; [|split]; intros w s r w' s' lb R V E Hin; apply reach_tinv in R; cbn [step totalizer en_lb en_lb_change en_both en_enforce_lb] in *.
  - destruct (encode_lb_ok w s r R) as (t' & cs & n' & E1 & _ & _ & H & _). rewrite E1 in E. cbn in E. injection E as <- <-. auto.
  - destruct (encode_lb_change_ok w s r R) as (t' & cs & n' & E1 & _ & H). rewrite E1 in E. cbn in E. injection E as <- <-. auto.
  - destruct (encode_both_ok w s r R) as (t' & cs & n' & E1 & _ & _ & H). rewrite E1 in E. cbn in E. injection E as <- <-. auto.
Qed.

Theorem tot_persists : ub_persists totalizer (fun l => l) any_lit any_op /\ lb_persists totalizer (fun l => l) any_lit any_op.
Proof.
  split; intros w s op w' s' b ls R V E Hop H; apply reach_tinv in R; destruct op as [xs|k| |r|r|r|r|r]; try tauto;
    cbn [step totalizer en_extend en_reserve en_ub en_ub_change en_lb en_lb_change en_both en_enforce_ub en_enforce_lb] in *.
  all: try (injection E as <- <-; auto; fail).
  - destruct (reserve_ok w s R) as (t' & n' & E1 & (_ & _ & K)). rewrite E1 in E. injection E as <- <-. now apply K.
  - destruct (encode_ub_change_ok w s r R) as (t' & cs & n' & E1 & (_ & _ & K) & _). rewrite E1 in E. cbn in E. injection E as <- <-. now apply K.
  - destruct (encode_lb_ok w s r R) as (t' & cs & n' & E1 & _ & _ & _ & K). rewrite E1 in E. cbn in E. injection E as <- <-. now apply K.
  - destruct (encode_lb_change_ok w s r R) as (t' & cs & n' & E1 & (_ & _ & K) & _). rewrite E1 in E. cbn in E. injection E as <- <-. now apply K.
  - destruct (encode_both_ok w s r R) as (t' & cs & n' & E1 & (_ & _ & K) & _). rewrite E1 in E. cbn in E. injection E as <- <-. now apply K.
  - destruct (reserve_ok w s R) as (t' & n' & E1 & (_ & _ & K)). rewrite E1 in E. injection E as <- <-. now apply K.
  - destruct (encode_ub_ok w s r R) as (t' & cs & n' & E1 & _ & _ & _ & K). rewrite E1 in E. cbn in E. injection E as <- <-. now apply K.
  - destruct (encode_ub_change_ok w s r R) as (t' & cs & n' & E1 & (_ & _ & K) & _). rewrite E1 in E. cbn in E. injection E as <- <-. now apply K.
  - destruct (encode_lb_change_ok w s r R) as (t' & cs & n' & E1 & (_ & _ & K) & _). rewrite E1 in E. cbn in E. injection E as <- <-. now apply K.
  - destruct (encode_both_ok w s r R) as (t' & cs & n' & E1 & (_ & _ & K) & _). rewrite E1 in E. cbn in E. injection E as <- <-. now apply K.
Qed.

Theorem tot_clauses_local : clauses_local totalizer (fun l => l) any_lit any_op.
Proof.
  intros w s c l R Hc Hl. apply reach_tinv in R as (g & ow & r & I).
  pose proof (i_vars _ _ _ _ _ _ (ti_inv _ _ _ _ _ I) c l) as H. cbn [t_cls] in H. rewrite app_nil_r in H.
  destruct (H Hc Hl) as [H'|(x & H')].
  - left. destruct (ti_gin _ _ _ _ _ I _ H') as (x & Hx & E). eauto.
  - right. eapply ti_ow; eauto.
Qed.

(** ** The tree contains exactly the inputs; statistics *)
Theorem tot_tree w t : reach_tot w t ->
  match to_root t with
  | None => w_in w = to_buf t
  | Some id => exists rooted, w_in w = rooted ++ to_buf t /\ tree_leaves (d_nodes (to_db t)) id (map (fun l => (l, 1%nat)) rooted)
  end.
Proof.
  intros R. apply reach_tinv in R as (g & ow & r & I). assert (Ro := ti_root _ _ _ _ _ I). pose proof (ti_in _ _ _ _ _ I) as Hin.
  destruct (to_root t) as [id|].
  - exists r. split; [auto|]. destruct Ro as (n & _ & _ & _ & _ & _ & Lv). auto.
  - cbn in Ro. subst r. auto.
Qed.

Theorem tot_enforce_eq w t b ls a : reach_tot w t -> enforce_eq tot_enforce_ub tot_enforce_lb t b = Some (EOk ls) ->
  sat_cnf a (w_ub w) = true -> sat_cnf a (w_lb w) = true -> sat_cube a ls = true -> count_true a (w_in w) = b.
Proof.
  intros R E S1 S2 Sc. unfold enforce_eq in E. apply obind_some in E as (r1 & E1 & E). destruct r1 as [l1| |]; try discriminate.
  apply obind_some in E as (r2 & E2 & E). destruct r2 as [l2| |]; try discriminate. injection E as <-.
  unfold sat_cube in Sc. rewrite forallb_app in Sc. apply andb_true_iff in Sc as (Sc1 & Sc2).
  pose proof (tot_ub_sound w t b l1 a R E1 S1 Sc1). pose proof (tot_lb_sound w t b l2 a R E2 S2 Sc2). lia.
Qed.

Theorem tot_enforce_eq_complete w t a : reach_tot w t -> exists a',
  (forall v, ~ in_aux (w_aux w) v -> a' v = a v) /\ sat_cnf a' (w_all w) = true /\
  (forall ls, enforce_eq tot_enforce_ub tot_enforce_lb t (count_true a (w_in w)) = Some (EOk ls) -> sat_cube a' ls = true).
Proof.
  intros R. destruct (tot_complete w t a R) as (a' & H1 & H2 & H3 & H4). exists a'. split; [auto|]. split; [auto|]. intros ls E.
  unfold enforce_eq in E. apply obind_some in E as (r1 & E1 & E). destruct r1 as [l1| |]; try discriminate.
  apply obind_some in E as (r2 & E2 & E). destruct r2 as [l2| |]; try discriminate. injection E as <-.
  unfold sat_cube. rewrite forallb_app. apply andb_true_iff. split; [apply (H3 _ _ E1)|apply (H4 _ _ E2)]; lia.
Qed.

Lemma extend_tree_cls t t1 : extend_tree t = Some t1 -> to_cls t1 = to_cls t.
Proof.
  unfold extend_tree. intros H. apply obind_some in H as ((d & o) & _ & H). destruct o as [new|]; [|now injection H as <-].
  apply obind_some in H as ((d' & root) & _ & H). now injection H as <-.
Qed.
Lemma define_root_cls t idxs sem next t' cs n : define_root t idxs sem next = Some (t', cs, n) -> to_cls t' = (to_cls t + length cs)%nat.
Proof.
  unfold define_root. destruct (to_root t) as [id|]; [|intros [= <- <- <-]; cbn; lia].
  intros H. apply obind_some in H as (st & _ & H). injection H as <- <- <-. reflexivity.
Qed.
Lemma encode_ub_change_cls t r next t' cs n : tot_encode_ub_change t r next = Some (t', cs, n) -> to_cls t' = (to_cls t + length cs)%nat.
Proof.
  unfold tot_encode_ub_change. intros H. apply obind_some in H as (k & _ & H). destruct (prepare_ub_range k r) as [lo hi].
  apply obind_some in H as (u & _ & H). destruct (_ <=? _)%nat; [injection H as <- <- <-; cbn; lia|].
  apply obind_some in H as (t1 & E1 & H). apply define_root_cls in H. now rewrite H, (extend_tree_cls _ _ E1).
Qed.
Lemma encode_lb_change_cls t r next t' cs n : tot_encode_lb_change t r next = Some (t', cs, n) -> to_cls t' = (to_cls t + length cs)%nat.
Proof.
  unfold tot_encode_lb_change. intros H. apply obind_some in H as (k & _ & H). destruct (prepare_lb_range k r) as [lo hi].
  apply obind_some in H as (u & _ & H). destruct (_ <=? _)%nat; [injection H as <- <- <-; cbn; lia|].
  apply obind_some in H as (t1 & E1 & H). apply define_root_cls in H. now rewrite H, (extend_tree_cls _ _ E1).
Qed.

Theorem tot_n_clauses w t : reach_tot w t -> to_cls t = length (w_all w).
Proof.
  induction 1 as [|w s op w' s' R IH V E]; [reflexivity|]. destruct op as [xs|k| |r|r|r|r|r]; cbn [step totalizer en_extend en_reserve en_ub en_ub_change en_lb en_lb_change en_both] in E.
  - injection E as <- <-. exact IH.
  - injection E as <- <-. exact IH.
  - destruct (tot_reserve s (w_next w)) as [[t1 n1]|] eqn:Er; [|discriminate]. injection E as <- <-. cbn [log_call w_all]. rewrite app_nil_r, <- IH.
    unfold tot_reserve in Er. apply obind_some in Er as (t2 & E2 & Er). apply extend_tree_cls in E2. destruct (to_root t2); [|injection Er as <- <-; auto].
    apply obind_some in Er as (st & _ & Er). injection Er as <- <-. exact E2.
  - unfold tot_encode_ub in E. destruct (tot_encode_ub_change _ _ _) as [[[t1 c1] n1]|] eqn:Er; [|discriminate]. cbn in E. injection E as <- <-. cbn [log_call w_all]. rewrite app_length, <- IH.
    now apply encode_ub_change_cls in Er.
  - destruct (tot_encode_ub_change _ _ _) as [[[t1 c1] n1]|] eqn:Er; [|discriminate]. cbn in E. injection E as <- <-. cbn [log_call w_all]. rewrite app_length, <- IH.
    now apply encode_ub_change_cls in Er.
  - unfold tot_encode_lb in E. destruct (tot_encode_lb_change _ _ _) as [[[t1 c1] n1]|] eqn:Er; [|discriminate]. cbn in E. injection E as <- <-. cbn [log_call w_all]. rewrite app_length, <- IH.
    now apply encode_lb_change_cls in Er.
  - destruct (tot_encode_lb_change _ _ _) as [[[t1 c1] n1]|] eqn:Er; [|discriminate]. cbn in E. injection E as <- <-. cbn [log_call w_all]. rewrite app_length, <- IH.
    now apply encode_lb_change_cls in Er.
  - unfold tot_encode_both in E. destruct (tot_encode_ub_change _ _ _) as [[[t1 c1] n1]|] eqn:Er; [|discriminate]. cbn [obind] in E.
    destruct (tot_encode_lb_change _ _ _) as [[[t2 c2] n2]|] eqn:Er2; [|discriminate]. cbn in E. injection E as <- <-. cbn [log_call w_all]. rewrite !app_length, <- IH.
    apply encode_ub_change_cls in Er. apply encode_lb_change_cls in Er2. lia.
Qed.

(** ** Further parts of the contract *)
Theorem tot_unsat_above : unsat_above totalizer (fun l => l) any_lit any_op (@length lit).
Proof.
  intros w s b R. apply reach_tinv in R as (g & ow & r & I). cbn [totalizer en_enforce_ub en_enforce_lb]. split.
  - intros E. destruct (enforce_lb_cases _ _ _ _ _ b I) as [(_ & E')|[(L & E')|[(_ & _ & E')|(_ & _ & id & _ & [(l & _ & E')|(_ & E')])]]]; congruence.
  - destruct (enforce_ub_cases _ _ _ _ _ b I) as [(_ & E)|[(_ & _ & E)|(_ & _ & id & _ & [(l & _ & E)|(_ & E)])]]; congruence.
Qed.

Theorem tot_ub_trivial : ub_trivial totalizer (fun l => l) any_lit any_op (@length lit).
Proof.
  intros w s b R Hb. apply reach_tinv in R as (g & ow & r & I). cbn [totalizer en_enforce_ub].
  destruct (enforce_ub_cases _ _ _ _ _ b I) as [(_ & E)|[(L & _)|(L & _)]]; [eauto|lia|lia].
Qed.

Theorem tot_lb_trivial : lb_trivial totalizer (fun l => l) any_lit any_op.
Proof.
  intros w s R. apply reach_tinv in R as (g & ow & r & I). cbn [totalizer en_enforce_lb].
  destruct (enforce_lb_cases _ _ _ _ _ 0 I) as [(_ & E)|[(L & _)|[(L & _)|(L & _)]]]; [eauto|lia|lia|lia].
Qed.

Lemma assumps_ok Us w s g ow r b ls : tinv_with Us w s g ow r -> tot_enforce_ub s b = Some (EOk ls) \/ tot_enforce_lb s b = Some (EOk ls) -> forall x, In x ls ->
  (exists y, In y (w_in w) /\ lvar y = lvar x) \/ in_aux (w_aux w) (lvar x).
Proof.
  intros I H x Hx.
  assert (K : forall id v sem l, lit_has (d_nodes (to_db s)) id v sem l -> (exists y, In y (w_in w) /\ lvar y = lvar l) \/ in_aux (w_aux w) (lvar l)).
  { intros id v sem l Hl. destruct (lit_has_var _ _ _ _ _ _ _ _ _ _ (ti_inv _ _ _ _ _ I) Hl) as [Hg|(o & Ho)]; [left; eapply ti_gin; eauto|right; eapply ti_ow; eauto]. }
  destruct H as [H|H].
  - destruct (enforce_ub_cases _ _ _ _ _ b I) as [(_ & E)|[(_ & _ & E)|(_ & _ & id & _ & [(l & Hl & E)|(_ & E)])]]; try congruence.
    + assert (ls = []) as -> by congruence. destruct Hx.
    + assert (ls = [neg l]) as -> by congruence. destruct Hx as [<-|[]]. exact (K _ _ _ _ Hl).
  - destruct (enforce_lb_cases _ _ _ _ _ b I) as [(_ & E)|[(_ & E)|[(_ & _ & E)|(_ & _ & id & _ & [(l & Hl & E)|(_ & E)])]]]; try congruence.
    + assert (ls = []) as -> by congruence. destruct Hx.
    + assert (ls = [l]) as -> by congruence. destruct Hx as [<-|[]]. exact (K _ _ _ _ Hl).
Qed.

Theorem tot_assumps_local : assumps_local totalizer (fun l => l) any_lit any_op.
Proof.
  intros w s b ls x R H Hx. apply reach_tinv in R as (g & ow & r & I). cbn [totalizer en_enforce_ub en_enforce_lb] in H. exact (assumps_ok _ _ _ _ _ _ _ _ I H x Hx).
Qed.

(** ** Monotonicity *)
Lemma tinv_ask Us w s ub ls : tinv Us w s -> tot_enforce_ub s ub = Some (EOk ls) -> tinv ((ub, ls) :: Us) w s.
Proof.
  intros (g & ow & rls & I) E. exists g, ow, rls. pose proof (enforce_canon Us w s g ow rls ub ls I E) as C. pose proof (assumps_ok Us w s g ow rls ub ls I (or_introl E)) as A.
  destruct I as [J1 J2 J3 J4 J5 J6 J7 J8 J9 J10 J11 J12]. constructor; auto. intros ub' ls' l [[= <- <-]|H] Hl; [|eauto]. split.
  - destruct (A l Hl) as [(x & Hx & <-)|H]; [now apply J9|]. now apply J11.
  - intros a Ha. specialize (C a Ha). unfold sat_cube in C. rewrite forallb_forall in C. auto.
Qed.
Lemma enforced_tinv w s Us : enforced totalizer (fun l => l) any_lit any_op w s Us -> tinv Us w s.
Proof.
  induction 1 as [|w s U op w' s' R IH V E|w s U ub ls R IH E]; [now apply tinv_init| |].
  - destruct (step_ok w s op IH V) as (w2 & t2 & E2 & T2). congruence.
  - now apply tinv_ask.
Qed.
Theorem tot_monotone : monotone totalizer (fun l => l) any_lit any_op count_true.
Proof.
  intros w s U a R. apply enforced_tinv in R as (g & ow & rls & I). pose proof (ti_inv _ _ _ _ _ I) as J.
  destruct (canonize_canon _ _ _ _ _ _ a J) as (C & V). exists (canonize g ow a). split; [|split].
  - intros v Hv. unfold canonize. destruct (ow v) as [x|] eqn:E; [|reflexivity]. exfalso. apply Hv. eapply ti_ow; eauto.
  - pose proof (i_comp _ _ _ _ _ _ J _ C) as H. cbn [t_cls] in H. now rewrite app_nil_r in H.
  - intros ub ls Hin Ha. apply forallb_forall. intros l Hl. now apply (ti_units _ _ _ _ _ I ub ls l).
Qed.


Theorem tot_vars_grow : vars_grow totalizer (fun l => l) any_lit any_op.
Proof.
  intros w s op w' s' R V E. apply reach_tinv in R. destruct op as [xs|k| |r|r|r|r|r]; cbn [step totalizer en_extend en_reserve en_ub en_ub_change en_lb en_lb_change en_both] in E.
  - injection E as <- <-. cbn. lia.
  - injection E as <- <-. cbn [w_next]. lia.
  - destruct (reserve_ok w s R) as (t' & n' & E1 & N & _). rewrite E1 in E. injection E as <- <-. exact N.
  - destruct (encode_ub_ok w s r R) as (t' & cs & n' & E1 & _ & N & _). rewrite E1 in E. injection E as <- <-. exact N.
  - destruct (encode_ub_change_ok w s r R) as (t' & cs & n' & E1 & (N & _) & _). rewrite E1 in E. injection E as <- <-. exact N.
  - destruct (encode_lb_ok w s r R) as (t' & cs & n' & E1 & _ & N & _). rewrite E1 in E. injection E as <- <-. exact N.
  - destruct (encode_lb_change_ok w s r R) as (t' & cs & n' & E1 & (N & _) & _). rewrite E1 in E. injection E as <- <-. exact N.
  - destruct (encode_both_ok w s r R) as (t' & cs & n' & E1 & (N & _) & _). rewrite E1 in E. injection E as <- <-. exact N.
Qed.
