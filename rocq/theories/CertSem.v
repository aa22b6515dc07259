(** * The invariant of a certified totalizer, and that its definitions and derivations are accepted *)

From Coq Require Import List Bool NArith ZArith Lia Arith.
From Coq Require Import ZifyBool ZifyNat ZifyN.
From Verif Require Import Spec Types Constraints Atomics NodeDb TotDb Base TotDbInv TotDbUnit TreeSpec CertSpec CertBase CertSound Cert CertDefs.
Import ListNotations.
Open Scope nat_scope.

Lemma Forall2_mono' {A B} (R R' : A -> B -> Prop) l1 l2 : (forall x y, R x y -> R' x y) -> Forall2 R l1 l2 -> Forall2 R' l1 l2.
Proof. intros H. induction 1; constructor; auto. Qed.

(** ** Names of output literals *)

Record names (ns : list node) (next : N) : Prop := mkNames {
  nm_out : forall id val l s, data ns id val = Some (LLit l s) -> lneg l = false /\ (lvar l < next)%N;
  nm_inj : forall id val l s id' val' l' s', data ns id val = Some (LLit l s) -> data ns id' val' = Some (LLit l' s') ->
             lvar l = lvar l' -> id = id' /\ val = val';
  nm_leaf : forall j l, nth_error ns j = Some (NLeaf l) -> (lvar l < next)%N /\
              forall id val o s, data ns id val = Some (LLit o s) -> lvar o <> lvar l }.

Lemma names_of_inv GF GU GL g ow st : inv GF GU GL g ow st -> names (t_nodes st) (t_next st).
Proof.
  intros I. constructor.
  - intros id val l s H. destruct (i_own _ _ _ _ _ _ I _ _ _ _ H) as (v & -> & O). destruct (i_ow _ _ _ _ _ _ I _ _ _ O). auto.
  - intros id val l s id' val' l' s' H H' E. destruct (i_own _ _ _ _ _ _ I _ _ _ _ H) as (v & -> & O).
    destruct (i_own _ _ _ _ _ _ I _ _ _ _ H') as (v' & -> & O'). cbn in E. subst v'. rewrite O in O'. injection O' as <- <-. auto.
  - intros j l Hj. pose proof (wf_node _ _ (i_shape _ _ _ _ _ _ I) _ _ (nth_skel _ _ _ Hj)) as Hn. cbn [erase node_ok] in Hn.
    assert (G : gin g (lvar l) = true) by apply Hn.
    split; [apply (i_in _ _ _ _ _ _ I _ G)|]. intros id val o s Ho E. destruct (i_own _ _ _ _ _ _ I _ _ _ _ Ho) as (v & -> & O).
    destruct (i_ow _ _ _ _ _ _ I _ _ _ O) as (_ & G' & _). cbn in E. congruence.
Qed.

Lemma utree_leaf_in ns id ls : utree ns id ls -> forall l, In l ls -> exists j, nth_error ns j = Some (NLeaf l).
Proof.
  induction 1 as [id l H|id lits l r ls rs H _ _ _ _ _ IHl _ IHr _]; intros x Hx; [destruct Hx as [<-|[]]; eauto|].
  apply in_app_or in Hx as [Hx|Hx]; auto.
Qed.

Lemma gtree_leaf_in ns id L : gtree ns id L -> forall l, In l (map fst L) -> exists j, nth_error ns j = Some (NLeaf l).
Proof.
  induction 1 as [id ls U|id lits m l r xs ys H _ _ _ _ _ IHl _ IHr _]; intros x Hx; [rewrite fst_ones in Hx; eapply utree_leaf_in; eauto|].
  rewrite map_app, !fst_scale in Hx. apply in_app_or in Hx as [Hx|Hx]; auto.
Qed.

(** ** The invariant *)

Record CInv (k : cst) (p : pstate) : Prop := mkCInv {
  ci_pid : c_pid k = ps_next p;
  ci_ok : ps_ok p;
  ci_defs : forall id val d, defs_get (c_defs k) id val = Some d -> def_ok (t_nodes (c_t k)) p id val d;
  ci_fresh : forall id val o s, data (t_nodes (c_t k)) id val = Some (LLit o s) -> defs_get (c_defs k) id val = None ->
               forall i c, ps_get p i = Some c -> ~ mentions c (lvar o);
  ci_below : forall i c v, ps_get p i = Some c -> mentions c v -> (v < t_next (c_t k))%N;
  ci_cls : Forall2 (fun cl i => ps_get p i = Some (clause_con cl)) (t_cls (c_t k)) (c_ids k) }.

Definition defs_le (ds ds' : deftab) : Prop := forall id val d, defs_get ds id val = Some d -> defs_get ds' id val = Some d.

Definition out_var (ns : list node) (v : N) : Prop := exists id val o s, data ns id val = Some (LLit o s) /\ lvar o = v.

(** what a part of a certified call does *)
Record adv (k : cst) (p : pstate) (k' : cst) (p' : pstate) : Prop := mkAdv {
  ad_log : exists new, c_log k' = c_log k ++ new /\ ps_run p new p' /\ forall v, In v (wit_vars new) -> out_var (t_nodes (c_t k')) v;
  ad_grows : grows p p';
  ad_defs : defs_le (c_defs k) (c_defs k');
  ad_inv : CInv k' p' }.

Lemma wit_vars_app l l' : wit_vars (l ++ l') = wit_vars l ++ wit_vars l'.
Proof. apply flat_map_app. Qed.

Lemma adv_refl k p : CInv k p -> adv k p k p.
Proof.
  intros C. constructor; [|apply grows_refl|intros ? ? ? H; exact H|auto]. exists []. rewrite app_nil_r. split; [auto|]. split; [constructor|intros ? []].
Qed.

Definition keeps_out (ns ns' : list node) : Prop := forall v, out_var ns v -> out_var ns' v.

Lemma adv_trans k p k1 p1 k2 p2 : keeps_out (t_nodes (c_t k1)) (t_nodes (c_t k2)) -> adv k p k1 p1 -> adv k1 p1 k2 p2 -> adv k p k2 p2.
Proof.
  intros Ho [(n1 & L1 & R1 & W1) G1 D1 C1] [(n2 & L2 & R2 & W2) G2 D2 C2]. constructor.
  - exists (n1 ++ n2). split; [rewrite L2, L1, app_assoc; auto|]. split; [eapply ps_run_app; eauto|].
    intros v Hv. rewrite wit_vars_app in Hv. apply in_app_or in Hv as [Hv|Hv]; [apply Ho|]; auto.
  - eapply grows_trans; eauto.
  - intros id val d H. apply D2, D1, H.
  - auto.
Qed.

(** ** Single steps *)

Lemma red_ok p c w f : ps_ok p -> (forall a, slack c a = f a) -> (exists a, (f a <= 0)%Z) ->
  (forall a, (f a < 0)%Z -> (0 <= f (apply_wit w a))%Z) ->
  (forall i d, ps_get p i = Some d -> (exists v, In v (map fst w) /\ mentions d v) -> forall a, (f a < 0)%Z -> (0 <= slack d (apply_wit w a))%Z) ->
  ps_step p (SRed c w) (ps_add p (norm c)) /\ ps_ok (ps_add p (norm c)) /\ con_is (ps_add p (norm c)) (ps_next p) f.
Proof.
  intros Hp Hs (a0 & Ha0) H1 H2.
  assert (S : forall a, slack (norm c) a = f a) by (intros a; rewrite norm_slack; auto).
  assert (D : (0 <= snd (norm c))%Z) by (eapply deg_nonneg with (a := a0); [apply norm_wf|rewrite S; auto]).
  assert (N : forall a, ~ raw_holds a (norm c) -> (f a < 0)%Z) by (intros a H; rewrite holds_slack, S in H; lia).
  split; [|split].
  - constructor; [auto| |].
    + intros a Ha. rewrite holds_slack, S. auto.
    + intros i d Hi Hm a Ha. rewrite holds_slack. eauto.
  - apply ps_ok_add; auto. apply norm_wf.
  - exists (norm c). split; [rewrite ps_get_add, Nat.eqb_refl; auto|auto].
Qed.

Lemma apply_wit_one v b a x : apply_wit [(v, b)] a x = if N.eqb x v then b else a x.
Proof. reflexivity. Qed.

(** adding a constraint and a definition *)
Lemma cinv_add k p c k' :
  CInv k p -> wf (fst c) -> (0 <= snd c)%Z -> c_t k' = c_t k -> c_ids k' = c_ids k -> c_pid k' = S (c_pid k) -> c_defs k' = c_defs k ->
  (forall v, mentions c v -> (v < t_next (c_t k))%N) ->
  (forall v id val o s, mentions c v -> data (t_nodes (c_t k)) id val = Some (LLit o s) -> lvar o = v -> defs_get (c_defs k) id val <> None) ->
  CInv k' (ps_add p c).
Proof.
  intros C Hw Hd Et Ei Ep Ed Hb Hf. pose proof (grows_add p c (ci_ok _ _ C)) as G.
  assert (M : more (t_nodes (c_t k)) (t_nodes (c_t k))) by (split; auto).
  constructor.
  - rewrite Ep, (ci_pid _ _ C). reflexivity.
  - apply ps_ok_add; [apply C|auto|auto].
  - rewrite Et, Ed. intros id val d H. eapply def_ok_more; [exact M|exact G|]. apply C; auto.
  - rewrite Et, Ed. intros id val o s H Hn i c' Hi Hm. rewrite ps_get_add in Hi. destruct (Nat.eqb_spec i (ps_next p)).
    + injection Hi as <-. eapply Hf; eauto.
    + eapply (ci_fresh _ _ C); eauto.
  - rewrite Et. intros i c' v Hi Hm. rewrite ps_get_add in Hi. destruct (Nat.eqb_spec i (ps_next p)).
    + injection Hi as <-. auto.
    + eapply (ci_below _ _ C); eauto.
  - rewrite Et, Ei. eapply Forall2_mono'; [|apply C]. intros cl i H. apply G, H.
Qed.

Lemma defs_get_cons ds i v d id val : defs_get ((i, v, d) :: ds) id val = if (i =? id) && (v =? val) then Some d else defs_get ds id val.
Proof. reflexivity. Qed.

Lemma defs_le_cons ds id val d : defs_get ds id val = None -> defs_le ds ((id, val, d) :: ds).
Proof.
  intros H i v d' H'. rewrite defs_get_cons. destruct (Nat.eqb_spec id i); destruct (Nat.eqb_spec val v); cbn [andb]; auto. subst. congruence.
Qed.

Lemma cinv_def k p k' p' id value d L :
  CInv k p -> names (t_nodes (c_t k)) (t_next (c_t k)) -> gtree (t_nodes (c_t k)) id L -> grows p p' -> ps_ok p' ->
  c_pid k' = ps_next p' -> c_t k' = c_t k -> c_ids k' = c_ids k -> c_defs k' = (id, value, d) :: c_defs k ->
  defs_get (c_defs k) id value = None -> def_ok (t_nodes (c_t k)) p' id value d ->
  (forall i c, ps_get p' i = Some c -> ps_get p i = Some c \/
     forall v, mentions c v -> (exists l, In l (map fst L) /\ lvar l = v) \/ (exists o s, data (t_nodes (c_t k)) id value = Some (LLit o s) /\ lvar o = v)) ->
  CInv k' p'.
Proof.
  intros C N U G Hp Ep Et Ei Ed Hnone Hd Hm.
  assert (M : more (t_nodes (c_t k)) (t_nodes (c_t k))) by (split; auto).
  constructor.
  - auto.
  - auto.
  - rewrite Et, Ed. intros i v d' H. rewrite defs_get_cons in H. destruct (Nat.eqb_spec id i); destruct (Nat.eqb_spec value v); cbn [andb] in H;
      try solve [eapply def_ok_more; [exact M|exact G|apply C; assumption]]. injection H as <-. subst. auto.
  - rewrite Et, Ed. intros i v o s Ho Hn j c Hj Hmen. rewrite defs_get_cons in Hn.
    destruct ((id =? i) && (value =? v)) eqn:E; [discriminate|]. destruct (Hm _ _ Hj) as [H|H].
    + eapply (ci_fresh _ _ C); eauto.
    + destruct (H _ Hmen) as [(l & Hl & El)|(o' & s' & Ho' & El)].
      * destruct (gtree_leaf_in _ _ _ U _ Hl) as (j' & Hj'). apply (nm_leaf _ _ N) in Hj' as (_ & Hj'). eapply Hj'; eauto.
      * destruct (nm_inj _ _ N _ _ _ _ _ _ _ _ Ho Ho' ltac:(congruence)) as (-> & ->). rewrite !Nat.eqb_refl in E. discriminate.
  - rewrite Et. intros j c v Hj Hmen. destruct (Hm _ _ Hj) as [H|H]; [eapply (ci_below _ _ C); eauto|].
    destruct (H _ Hmen) as [(l & Hl & <-)|(o' & s' & Ho' & <-)].
    + destruct (gtree_leaf_in _ _ _ U _ Hl) as (j' & Hj'). apply (nm_leaf _ _ N _ _ Hj').
    + apply (nm_out _ _ N _ _ _ _ Ho').
  - rewrite Et, Ei. eapply Forall2_mono'; [|apply C]. intros cl i H. apply G, H.
Qed.

(** ** Definitions *)

Lemma witness_cnt v b a ls : (forall l, In l ls -> lvar l <> v) -> cnt (apply_wit [(v, b)] a) ls = cnt a ls.
Proof.
  intros H. apply cnt_ext. intros l Hl. rewrite apply_wit_one. destruct (N.eqb_spec (lvar l) v) as [E|]; [|auto]. exfalso. eapply H; eauto.
Qed.

Lemma witness_lv b a o : lneg o = false -> lv (apply_wit [(lvar o, b)] a) o = if b then 1%Z else 0%Z.
Proof. intros H. unfold lv, lit_true. rewrite apply_wit_one, N.eqb_refl, H. destruct b; reflexivity. Qed.

Lemma witness_wcnt v b a L : (forall l, In l (map fst L) -> lvar l <> v) -> wcnt (apply_wit [(v, b)] a) L = wcnt a L.
Proof.
  intros H. apply wcnt_ext. intros l Hl. rewrite apply_wit_one. destruct (N.eqb_spec (lvar l) v) as [E|]; [|auto]. exfalso. eapply H; eauto.
Qed.

Lemma define_real_ok k p id value L :
  CInv k p -> names (t_nodes (c_t k)) (t_next (c_t k)) -> gtree (t_nodes (c_t k)) id L -> 2 <= total_weight L -> no_compl (map fst L) ->
  value <= total_weight L + 1 -> has_out (t_nodes (c_t k)) id (total_weight L) value -> defs_get (c_defs k) id value = None ->
  exists d k' p', define_real_semantics k id value L = Some (d, k') /\ c_t k' = c_t k /\ c_ids k' = c_ids k /\
    adv k p k' p' /\ defs_get (c_defs k') id value = Some d.
Proof.
  intros C N U L2 NC Hv HO Hnone. pose proof (ci_ok _ _ C) as Hp. unfold define_real_semantics.
  assert (Hlt : ps_inputs p < ps_next p) by apply Hp.
  destruct (gtree_node _ _ _ U) as (n & Hn & Hu & Hmv). rewrite Hn. cbn [obind].
  destruct (no_compl_model _ NC) as (aT & HT).
  destruct (no_compl_model _ (no_compl_neg _ NC)) as (aF & HF).
  assert (HF' : forall l, In l (map fst L) -> lit_true aF l = false).
  { intros l Hl. specialize (HF (neg l) (in_map neg _ _ Hl)). rewrite lit_true_neg' in HF. now destruct (lit_true aF l). }
  destruct (Nat.eqb_spec value 0) as [->|Hv0].
  - (* the trivial definition of the value zero *)
    destruct (sum_raw L) as (r & Er & Sr & Mr). change (Z.of_nat 0) with 0%Z. rewrite Er. cbn [obind write].
    destruct (red_ok p r [] (fun a => wcnt a L) Hp Sr) as (R1 & R2 & R3).
    { exists aF. rewrite wcnt_none by auto. lia. }
    { intros a Ha. pose proof (wcnt_bound a L). lia. }
    { intros i d _ (v & [] & _). }
    cbn [c_defs]. rewrite Hnone. cbn [assertb obind]. eexists _, _, (ps_add p (norm r)). split; [reflexivity|]. cbn [c_t c_ids c_defs].
    split; [auto|]. split; [auto|]. split; [|rewrite defs_get_cons, !Nat.eqb_refl; reflexivity].
    constructor.
    + exists [SRed r []]. cbn [c_log]. split; [auto|]. split; [econstructor; [exact R1|constructor]|intros v []].
    + now apply grows_add.
    + now apply defs_le_cons.
    + eapply cinv_def with (k := k) (L := L); [exact C|exact N|exact U| |assumption| |reflexivity|reflexivity|cbn [c_defs]; reflexivity|exact Hnone| |]; cbn [c_pid c_t c_ids c_defs].
      * now apply grows_add.
      * cbn [ps_add ps_next]. now rewrite (ci_pid _ _ C).
      * exists L. split; [auto|]. split; [lia|]. split; [auto|]. split; [intros H; now destruct H|]. split.
        -- intros _. exists (c_pid k). split; [reflexivity|]. rewrite (ci_pid _ _ C). eapply con_is_ext; [|exact R3].
           intros a. unfold woif. lia.
        -- cbn [def_ids flat_map sd_if sd_only_if app In]. intros i [<-|[]]. rewrite (ci_pid _ _ C). cbn [ps_add ps_inputs]. split; [exact Hlt|].
           rewrite ps_get_add, Nat.eqb_refl. discriminate.
      * intros i c Hi. rewrite ps_get_add in Hi. destruct (Nat.eqb_spec i (ps_next p)); [|auto]. injection Hi as <-. right.
        intros v Hm. left. apply Mr, norm_mentions, Hm.
  - rewrite Hmv. destruct (Nat.ltb_spec (total_weight L) value) as [Hgt|Hle].
    + (* the trivial definition of the value above the greatest *)
      destruct (neg_sum_raw L) as (r & Er & Sr & Mr). rewrite Er. cbn [obind write].
      destruct (red_ok p r [] (fun a => wlen L - wcnt a L)%Z Hp Sr) as (R1 & R2 & R3).
      { exists aT. rewrite wcnt_all by auto. lia. }
      { intros a Ha. pose proof (wcnt_bound a L). lia. }
      { intros i d _ (v & [] & _). }
      cbn [c_defs]. rewrite Hnone. cbn [assertb obind]. eexists _, _, (ps_add p (norm r)). split; [reflexivity|]. cbn [c_t c_ids c_defs].
      split; [auto|]. split; [auto|]. split; [|rewrite defs_get_cons, !Nat.eqb_refl; reflexivity].
      constructor.
      * exists [SRed r []]. cbn [c_log]. split; [auto|]. split; [econstructor; [exact R1|constructor]|intros v []].
      * now apply grows_add.
      * now apply defs_le_cons.
      * eapply cinv_def with (k := k) (L := L); [exact C|exact N|exact U| |assumption| |reflexivity|reflexivity|cbn [c_defs]; reflexivity|exact Hnone| |]; cbn [c_pid c_t c_ids c_defs].
        -- now apply grows_add.
        -- cbn [ps_add ps_next]. now rewrite (ci_pid _ _ C).
        -- exists L. split; [auto|]. split; [lia|]. split; [auto|]. split; [|split].
           ++ intros _. exists (c_pid k). split; [reflexivity|]. rewrite (ci_pid _ _ C). eapply con_is_ext; [|exact R3].
              intros a. unfold wif. assert (wlen L - Z.of_nat value + 1 = 0)%Z as -> by (unfold wlen; lia). lia.
           ++ intros H. lia.
           ++ cbn [def_ids flat_map sd_if sd_only_if app In]. intros i [<-|[]]. rewrite (ci_pid _ _ C). cbn [ps_add ps_inputs]. split; [exact Hlt|].
              rewrite ps_get_add, Nat.eqb_refl. discriminate.
        -- intros i c Hi. rewrite ps_get_add in Hi. destruct (Nat.eqb_spec i (ps_next p)); [|auto]. injection Hi as <-. right.
           intros v Hm. left. apply Mr, norm_mentions, Hm.
    + (* a proper output *)
      destruct (HO ltac:(lia)) as (o & Ho).
      destruct (olit_inner _ _ _ _ _ Hn ltac:(intros l ->; cbn in Hmv; lia) Ho) as (s & Hdat).
      destruct (nm_out _ _ N _ _ _ _ Hdat) as (Hpos & Hbel).
      assert (Hol : forall l, In l (map fst L) -> lvar l <> lvar o).
      { intros l Hl E. destruct (gtree_leaf_in _ _ _ U _ Hl) as (j & Hj). apply (nm_leaf _ _ N) in Hj as (_ & Hj). eapply Hj; eauto. }
      unfold olit in Ho. rewrite Hn in Ho. cbn [obind] in Ho. rewrite Ho. cbn [obind].
      destruct (impl_raw L value o ltac:(lia)) as (c1 & r1 & Ec1 & Er1 & S1 & M1). rewrite Ec1. cbn [obind]. rewrite Er1. cbn [obind write].
      destruct (implied_raw L value o ltac:(lia)) as (c2 & r2 & Ec2 & Er2 & S2 & M2). rewrite Ec2. cbn [obind]. rewrite Er2. cbn [obind write].
      assert (Hfr := ci_fresh _ _ C _ _ _ _ Hdat Hnone).
      assert (NCT : no_compl (neg o :: map fst L)).
      { apply no_compl_cons; [|auto]. intros l Hl E. rewrite neg_neg in E. apply (Hol l Hl). now subst. }
      assert (NCF : no_compl (o :: map neg (map fst L))).
      { apply no_compl_cons; [|now apply no_compl_neg]. intros l Hl E. apply in_map_iff in Hl as (x & <- & Hx).
        apply (Hol x Hx). apply (f_equal lvar) in E. exact E. }
      destruct (no_compl_model _ NCT) as (a1 & HA1). destruct (no_compl_model _ NCF) as (a2 & HA2).
      destruct (red_ok p r1 [(lvar o, true)] _ Hp S1) as (R1 & R2 & R3).
      { exists a1. rewrite wcnt_all by (intros; apply HA1; now right). pose proof (HA1 (neg o) (or_introl eq_refl)) as Hx.
        rewrite lit_true_neg' in Hx. unfold lv. destruct (lit_true a1 o); [discriminate|]. unfold wlen. lia. }
      { intros a Ha. rewrite witness_wcnt by auto. rewrite witness_lv by auto. pose proof (wcnt_bound a L). lia. }
      { intros i d Hi (v & [<-|[]] & Hm). exfalso. eapply Hfr; eauto. }
      set (p1 := ps_add p (norm r1)) in *.
      destruct (red_ok p1 r2 [(lvar o, false)] _ R2 S2) as (Q1 & Q2 & Q3).
      { exists a2. rewrite wcnt_none.
        - unfold lv. rewrite (HA2 o) by now left. lia.
        - intros l Hl. assert (Hx : lit_true a2 (neg l) = true) by (apply HA2; right; now apply in_map). rewrite lit_true_neg' in Hx.
          now destruct (lit_true a2 l). }
      { intros a Ha. rewrite witness_wcnt by auto. rewrite witness_lv by auto. pose proof (wcnt_bound a L). lia. }
      { intros i d Hi (v & [<-|[]] & Hm) a Ha. subst p1. rewrite ps_get_add in Hi. destruct (Nat.eqb_spec i (ps_next p)) as [->|Hne].
        - injection Hi as <-. rewrite norm_slack, S1, witness_wcnt by auto. rewrite witness_lv by auto.
          unfold lv in Ha. unfold wlen. destruct (lit_true a o); pose proof (wcnt_bound a L); lia.
        - exfalso. eapply Hfr; eauto. }
      set (p2 := ps_add p1 (norm r2)) in *.
      assert (G1 : grows p p1) by now apply grows_add.
      assert (G2 : grows p1 p2) by now apply grows_add.
      cbn [c_defs]. rewrite Hnone. cbn [assertb obind]. eexists _, _, p2. split; [reflexivity|]. cbn [c_t c_ids c_defs c_pid].
      split; [auto|]. split; [auto|]. split; [|rewrite defs_get_cons, !Nat.eqb_refl; reflexivity].
      assert (Epid : ps_next p1 = S (c_pid k)) by (subst p1; cbn [ps_add ps_next]; now rewrite (ci_pid _ _ C)).
      constructor.
      * exists [SRed r1 [(lvar o, true)]; SRed r2 [(lvar o, false)]]. cbn [c_log]. split; [rewrite <- app_assoc; reflexivity|].
        split; [econstructor; [exact R1|]; econstructor; [exact Q1|constructor]|].
        cbn [c_t]. intros v [<-|[<-|[]]]; exists id, value, o, s; auto.
      * eapply grows_trans; eauto.
      * now apply defs_le_cons.
      * eapply cinv_def with (k := k) (L := L); [exact C|exact N|exact U| |assumption| |reflexivity|reflexivity|cbn [c_defs]; reflexivity|exact Hnone| |]; cbn [c_pid c_t c_ids c_defs].
        -- eapply grows_trans; eauto.
        -- change (ps_next p2) with (S (ps_next p1)). now rewrite Epid.
        -- exists L. split; [auto|]. split; [lia|]. split; [auto|].
           assert (EO : forall a, outT (olit (t_nodes (c_t k)) id value) (total_weight L) value a = lv a o).
           { intros a. unfold outT, olit. rewrite Hn. cbn [obind]. rewrite Ho. replace (value =? 0) with false by lia. replace (total_weight L <? value) with false by lia. reflexivity. }
           split; [|split].
           ++ intros _. exists (c_pid k). split; [reflexivity|]. rewrite (ci_pid _ _ C). eapply con_is_grows; [exact G2|].
              eapply con_is_ext; [|exact R3]. intros a. unfold wif. rewrite EO. reflexivity.
           ++ intros _. exists (S (c_pid k)). split; [reflexivity|]. rewrite <- Epid. eapply con_is_ext; [|exact Q3]. intros a. unfold woif. rewrite EO. reflexivity.
           ++ cbn [def_ids flat_map sd_if sd_only_if app In]. change (ps_inputs p2) with (ps_inputs p). intros i [<-|[<-|[]]].
              ** split; [rewrite (ci_pid _ _ C); exact Hlt|]. destruct R3 as (cc & Hcc & _). rewrite (ci_pid _ _ C). rewrite (proj2 G2 _ _ Hcc). discriminate.
              ** split; [rewrite (ci_pid _ _ C); lia|]. rewrite <- Epid. destruct Q3 as (cc & Hcc & _). rewrite Hcc. discriminate.
        -- intros i c Hi. subst p2 p1. rewrite ps_get_add in Hi. destruct (Nat.eqb_spec i (ps_next (ps_add p (norm r1)))).
           ++ injection Hi as <-. right. intros v Hm. apply norm_mentions, M2 in Hm as [->|Hm]; [right; eauto|auto].
           ++ rewrite ps_get_add in Hi. destruct (Nat.eqb_spec i (ps_next p)); [|auto]. injection Hi as <-. right.
              intros v Hm. apply norm_mentions, M1 in Hm as [->|Hm]; [right; eauto|auto].
Qed.

(** a definition whose constraint has the given slack *)
Definition sem_ok (p : pstate) (d : semdef) (f : asg -> Z) : Prop :=
  match d with DNone => forall a, f a = 0%Z | DId i => con_is p i f | DAx l => forall a, f a = lv a l end.

Lemma sem_ok_grows p p' d f : grows p p' -> sem_ok p d f -> sem_ok p' d f.
Proof. intros G. destruct d; cbn [sem_ok]; auto. apply con_is_grows, G. Qed.

Definition sem_range (ty : semtype) (n value : nat) : Prop := match ty with TIf => 1 <= value <= n + 1 | TOnlyIf => value <= n end.

Lemma sem_ok_ext p d f f' : (forall a, f a = f' a) -> sem_ok p d f -> sem_ok p d f'.
Proof. intros E. destruct d; cbn [sem_ok]; [intros H a; now rewrite <- E|now apply con_is_ext|intros H a; now rewrite <- E]. Qed.

Lemma wdefine_semantics_ok k p id value ty L :
  CInv k p -> names (t_nodes (c_t k)) (t_next (c_t k)) -> gtree (t_nodes (c_t k)) id L -> no_compl (map fst L) ->
  sem_range ty (total_weight L) value -> has_out (t_nodes (c_t k)) id (total_weight L) value ->
  exists d k' p', define_semantics k id value ty L = Some (d, k') /\ c_t k' = c_t k /\ c_ids k' = c_ids k /\
    adv k p k' p' /\ sem_ok p' d (wdef ty (t_nodes (c_t k)) id value L) /\
    (2 <= total_weight L -> defs_get (c_defs k') id value <> None /\ exists i, d = DId i).
Proof.
  intros C N U NC HR HO. destruct (gtree_node _ _ _ U) as (n & Hn & Hu & Hmv). unfold define_semantics.
  rewrite Hn. cbn [obind]. rewrite Hmv. replace (value <=? total_weight L + 1) with true by (destruct ty; cbn [sem_range] in HR; lia).
  cbn [assertb obind]. destruct (defs_get (c_defs k) id value) as [d|] eqn:Ed.
  - destruct (ci_defs _ _ C _ _ _ Ed) as (L' & U' & V & O & A & B & _). rewrite (gtree_fun _ _ _ U _ U') in *. clear U'.
    assert (exists i, sem_get d ty = Some i /\ con_is p i (wdef ty (t_nodes (c_t k)) id value L)) as (i & Ei & Hi).
    { destruct ty; cbn [sem_get wdef sem_range] in *; [apply A; lia|apply B; lia]. }
    rewrite Ei. cbn [obind]. exists (DId i), k, p. split; [reflexivity|]. split; [auto|]. split; [auto|]. split; [now apply adv_refl|].
    split; [exact Hi|]. intros _. split; [congruence|eauto].
  - destruct (Nat.leb_spec (total_weight L) 1) as [H1|H1].
    + destruct (gtree_one _ _ _ U H1) as (l & Hl & ->). assert (n = NLeaf l) as -> by congruence.
      assert (Ho : olit (t_nodes (c_t k)) id 1 = Some l) by (unfold olit; rewrite Hl; reflexivity).
      cbn [total_weight Nat.add] in *. cbn [node_lit Nat.eqb].
      assert (exists d, (match value, ty with 0, TOnlyIf => do olit <- Some l; Some (DAx olit, k)
                | 2, TIf => do olit <- Some l; Some (DAx (neg olit), k) | _, _ => Some (DNone, k) end) = Some (d, k) /\
                sem_ok p d (wdef ty (t_nodes (c_t k)) id value [(l, 1)])) as (d & Ed' & Hd).
      { destruct ty; cbn [sem_range] in HR.
        - destruct value as [|[|[|]]]; try lia.
          + exists DNone. split; [reflexivity|]. intros a. cbn [wdef]. unfold wif. rewrite Ho. change (outT (Some l) (total_weight [(l, 1)]) 1 a) with (lv a l). change (wlen [(l, 1)]) with 1%Z. rewrite wcnt_cons. change (wcnt a []) with 0%Z. lia.
          + exists (DAx (neg l)). split; [reflexivity|]. intros a. cbn [wdef]. unfold wif. change (wlen [(l, 1)]) with 1%Z. rewrite wcnt_cons, lv_neg. change (wcnt a []) with 0%Z. lia.
        - destruct value as [|[|]]; try lia.
          + exists (DAx l). split; [reflexivity|]. intros a. cbn [wdef]. unfold woif. rewrite wcnt_cons. change (wcnt a []) with 0%Z. lia.
          + exists DNone. split; [reflexivity|]. intros a. cbn [wdef]. unfold woif. rewrite Ho. change (outT (Some l) (total_weight [(l, 1)]) 1 a) with (lv a l). change (wlen [(l, 1)]) with 1%Z. rewrite wcnt_cons. change (wcnt a []) with 0%Z. lia. }
      exists d, k, p. split; [exact Ed'|]. split; [auto|]. split; [auto|]. split; [now apply adv_refl|]. split; [exact Hd|]. lia.
    + destruct (define_real_ok k p id value L C N U ltac:(lia) NC) as (d & k' & p' & E & Et & Ei & A & Hd); auto.
      { destruct ty; cbn [sem_range] in HR; lia. }
      rewrite E. cbn [obind].
      destruct (ci_defs _ _ (ad_inv _ _ _ _ A) _ _ _ Hd) as (L' & U' & V & O & A1 & B1 & _). rewrite Et in *. rewrite (gtree_fun _ _ _ U _ U') in *. clear U'.
      assert (exists i, sem_get d ty = Some i /\ con_is p' i (wdef ty (t_nodes (c_t k)) id value L)) as (i & Hg & Hi).
      { destruct ty; cbn [sem_get wdef sem_range] in *; [apply A1; lia|apply B1; lia]. }
      rewrite Hg. cbn [obind]. exists (DId i), k', p'. split; [reflexivity|]. split; [auto|]. split; [auto|]. split; [auto|]. split; [exact Hi|].
      intros _. split; [congruence|eauto].
Qed.

Lemma define_semantics_ok k p id value ty ls :
  CInv k p -> names (t_nodes (c_t k)) (t_next (c_t k)) -> utree (t_nodes (c_t k)) id ls -> no_compl ls ->
  sem_range ty (length ls) value -> has_out (t_nodes (c_t k)) id (length ls) value ->
  exists d k' p', define_semantics k id value ty (ones ls) = Some (d, k') /\ c_t k' = c_t k /\ c_ids k' = c_ids k /\
    adv k p k' p' /\ sem_ok p' d (fdef ty (t_nodes (c_t k)) id value ls) /\
    (2 <= length ls -> defs_get (c_defs k') id value <> None /\ exists i, d = DId i).
Proof.
  intros C N U NC HR HO. destruct (wdefine_semantics_ok k p id value ty (ones ls) C N (wt_unit _ _ _ U)) as (d & k' & p' & E & Et & Ei & A & S & D).
  { now rewrite fst_ones. } { now rewrite total_ones. } { now rewrite total_ones. }
  exists d, k', p'. split; [exact E|]. split; [exact Et|]. split; [exact Ei|]. split; [exact A|]. split; [|rewrite total_ones in D; exact D].
  eapply sem_ok_ext; [|exact S]. intros a. apply wdef_ones.
Qed.

(** ** Deriving a clause *)

Lemma rpn_run_app p xs ys st : rpn_run p (xs ++ ys) st = match rpn_run p xs st with Some st' => rpn_run p ys st' | None => None end.
Proof. revert st; induction xs as [|x xs IH]; intros st; cbn [app rpn_run]; [reflexivity|]. destruct (rpn_step p x st); auto. Qed.

(** pushing a definition *)
Lemma operand p d f : ps_ok p -> sem_ok p d f ->
  (def_seq d = [] /\ forall a, f a = 0%Z) \/
  (exists op c, def_seq d = [op] /\ (forall st, rpn_step p op st = Some (c :: st)) /\ wf (fst c) /\ (0 <= snd c)%Z /\ forall a, slack c a = f a).
Proof.
  intros Hp H. destruct d as [|i|l]; cbn [sem_ok def_seq] in *.
  - left. auto.
  - right. destruct H as (c & Hc & S). exists (OId i), c. destruct (ps_ok_get _ _ _ Hp Hc) as (_ & W & D). split; [auto|].
    split; [|auto]. intros st. cbn [rpn_step]. rewrite Hc. unfold push. now replace (0 <=? snd c)%Z with true by lia.
  - right. exists (OAx l), ([(l, 1%Z)], 0%Z). split; [auto|]. split; [reflexivity|]. cbn [fst snd]. split; [constructor; [lia|intros ? ? []|constructor]|].
    split; [lia|]. intros a. rewrite H. unfold slack, lv. cbn [fst snd zwsum]. lia.
Qed.

(** a sequence computing a constraint with the given slack *)
Definition computes (p : pstate) (ops : opseq) (f : asg -> Z) : Prop :=
  exists c, ops <> [] /\ (forall st, rpn_run p ops st = Some (c :: st)) /\ wf (fst c) /\ (0 <= snd c)%Z /\ forall a, slack c a = f a.

Lemma computes_add p ops f d f2 : ps_ok p -> computes p ops f -> sem_ok p d f2 -> (exists a, (f a + f2 a <= 0)%Z) ->
  computes p (seq_add ops (def_seq d)) (fun a => f a + f2 a)%Z.
Proof.
  intros Hp (c & Hne & R & W & D & S) H (a0 & Ha). destruct (operand p d f2 Hp H) as [(E & Z0)|(op & c2 & E & R2 & W2 & D2 & S2)]; rewrite E.
  - destruct ops as [|o ops]; [congruence|]. cbn [seq_add]. exists c. split; [discriminate|]. split; [auto|]. split; [auto|]. split; [auto|].
    intros a. rewrite S, Z0. lia.
  - destruct ops as [|o ops]; [congruence|]. cbn [seq_add]. exists (cp_add c c2). split; [discriminate|].
    assert (S' : forall a, slack (cp_add c c2) a = (f a + f2 a)%Z) by (intros a; rewrite cp_add_slack, S, S2; auto).
    assert (D' : (0 <= snd (cp_add c c2))%Z) by (eapply deg_nonneg with (a := a0); [now apply cp_add_wf|rewrite S'; auto]).
    split; [|split; [now apply cp_add_wf|split; auto]]. intros st.
    rewrite (rpn_run_app p (o :: ops)), R. cbn [rpn_run app]. rewrite R2. cbn [rpn_step]. unfold push.
    now replace (0 <=? snd (cp_add c c2))%Z with true by lia.
Qed.

Lemma pol_clause p ops f us cl : computes p ops f -> (forall a, f a = zwsum a us - 1)%Z ->
  (forall l w, In (l, w) us -> (0 < w)%Z) -> no_compl (map fst us) -> (forall l, In l cl <-> In l (map fst us)) ->
  pol_result p (seq_sat ops) = Some (clause_con cl) /\ seq_sat ops <> [].
Proof.
  intros (c & Hne & R & W & D & S) Hf Hpos NC Hset.
  assert (Ec : c = norm (us, 1%Z)).
  { apply slack_ext; [auto|apply norm_wf|]. intros a. rewrite S, Hf, norm_slack. reflexivity. }
  assert (Ed : snd (norm (us, 1%Z)) = 1%Z).
  { destruct (norm_no_compl us ([], 1%Z) Hpos) as (X & _); [constructor|exact NC|exact X]. }
  destruct ops as [|o ops]; [congruence|]. cbn [seq_sat]. split; [|destruct ops; discriminate].
  unfold pol_result. rewrite rpn_run_app, R. cbn [rpn_run rpn_step]. rewrite Ec, Ed. cbn [Z.ltb Z.compare].
  rewrite (sat_clause_form us cl Hpos NC Hset). unfold push. destruct (clause_con_wf cl) as (_ & X). now replace (0 <=? snd (clause_con cl))%Z with true by lia.
Qed.

Lemma derive_ok k p i d2 d3 f1 f2 f3 cl us : CInv k p -> con_is p i f1 -> sem_ok p d2 f2 -> sem_ok p d3 f3 ->
  (exists a, (f1 a + f2 a <= 0)%Z) -> (forall a, f1 a + f2 a + f3 a = zwsum a us - 1)%Z ->
  (forall l w, In (l, w) us -> (0 < w)%Z) -> no_compl (map fst us) -> (forall l, In l cl <-> In l (map fst us)) ->
  (forall l, In l cl -> (lvar l < t_next (c_t k))%N) ->
  (forall l id val o s, In l cl -> data (t_nodes (c_t k)) id val = Some (LLit o s) -> lvar o = lvar l -> defs_get (c_defs k) id val <> None) ->
  exists k' p', derive k (DId i) d2 d3 cl = Some k' /\ c_t k' = emit (c_t k) [cl] /\ c_defs k' = c_defs k /\ adv k p k' p'.
Proof.
  intros C H1 H2 H3 Ha Hf Hpos NC Hset Hb Hd. pose proof (ci_ok _ _ C) as Hp.
  assert (K1 : computes p [OId i] f1).
  { destruct (operand p (DId i) f1 Hp H1) as [(E & _)|(op & c & E & R & W & D & S)]; [discriminate|]. cbn [def_seq] in E. injection E as <-.
    exists c. split; [discriminate|]. split; [intros st; cbn [rpn_run]; now rewrite R|auto]. }
  pose proof (computes_add _ _ _ _ _ Hp K1 H2 Ha) as K2.
  assert (Hneg : exists a, (f1 a + f2 a + f3 a <= 0)%Z).
  { destruct (no_compl_model _ (no_compl_neg _ NC)) as (a & HA). exists a. rewrite Hf.
    assert (E : zwsum a us = 0%Z); [|lia]. clear - HA. induction us as [|[l w] us IH]; [reflexivity|]. cbn [zwsum].
    rewrite IH by (intros x Hx; apply HA; now right). pose proof (HA (neg l) (or_introl eq_refl)) as X. rewrite lit_true_neg' in X.
    destruct (lit_true a l); [discriminate|reflexivity]. }
  pose proof (computes_add _ _ _ _ _ Hp K2 H3 Hneg) as K3.
  destruct (pol_clause p _ _ us cl K3 Hf Hpos NC Hset) as (P & Hne).
  unfold derive, write_ops. change (def_seq (DId i)) with [OId i]. destruct (seq_sat _) as [|op ops] eqn:Eops; [congruence|]. cbn [obind write].
  eexists _, (ps_add p (clause_con cl)). split; [reflexivity|]. cbn [collect c_t c_defs c_ids]. split; [reflexivity|]. split; [reflexivity|].
  destruct (clause_con_wf cl) as (Wc & Dc). constructor.
  - exists [SPol (op :: ops)]. cbn [c_log]. split; [auto|]. split; [|intros v []]. econstructor; [constructor; exact P|constructor].
  - now apply grows_add.
  - intros ? ? ? X. exact X.
  - pose (k0 := mkC (c_t k) (c_ids k) (c_defs k) (S (c_pid k)) (c_log k ++ [SPol (op :: ops)])).
    assert (C0 : CInv k0 (ps_add p (clause_con cl))).
    { eapply cinv_add with (k := k); eauto.
      - intros v Hm. apply clause_con_mentions in Hm as (l & Hl & <-). auto.
      - intros v id val o s Hm Ho E. apply clause_con_mentions in Hm as (l & Hl & <-). eauto. }
    destruct C0 as [X1 X2 X3 X4 X5 X6]. constructor; auto. cbn [c_t c_ids emit t_cls]. apply Forall2_app; [exact X6|]. constructor; [|constructor].
    rewrite (ci_pid _ _ C), ps_get_add, Nat.eqb_refl. reflexivity.
Qed.
