(** * Transporting the invariant between calls *)

From Coq Require Import List Bool NArith ZArith Lia Arith Sorted.
From Coq Require Import ZifyBool ZifyNat ZifyN.
From Verif Require Import Spec Types Atomics NodeDb TotDb Base TotDbInv TotDbUnit TotDbDefine TotDbGeneral TotDbBuild TotDbGrow TotDbMerge.
Import ListNotations.

(** the clauses of a finished call become history *)
Lemma inv_commit GF GU GL g ow st : inv GF GU GL g ow st ->
  inv (GF ++ t_cls st) (GU ++ t_cls st) (GL ++ t_cls st) g ow (mkTst (t_nodes st) (t_next st) []).
Proof.
  intros [W O1 O2 I1 C If Oif Vs]. constructor; cbn [t_nodes t_next t_cls]; auto; rewrite ?app_nil_r; auto.
Qed.

Lemma inv_next GF GU GL g ow ns next next' : (next <= next')%N -> inv GF GU GL g ow (mkTst ns next []) -> inv GF GU GL g ow (mkTst ns next' []).
Proof.
  intros H [W O1 O2 I1 C If Oif Vs]. constructor; cbn [t_nodes t_next t_cls] in *; auto.
  - intros v id val Hv. destruct (O2 v id val Hv) as (? & ? & ?). split; [lia|auto].
  - intros v Hv. specialize (I1 v Hv). lia.
Qed.

(** resetting the semantics flags starts a new collection *)
Lemma reset_skel ns s : skel (reset_encoded ns s) = skel ns.
Proof.
  unfold skel, reset_encoded. rewrite map_map. apply map_ext. intros [l|lits l r|lits m l r|]; cbn [reset_node erase]; auto.
  - f_equal. rewrite map_map. reflexivity.
  - f_equal. rewrite map_map. apply map_ext. now intros [v d].
Qed.

Lemma lit_data_map (f : litdata -> litdata) lits v :
  lit_data (map (fun '(v, d) => (v, f d)) lits) v = option_map f (lit_data lits v).
Proof. induction lits as [|[x d] lits IH]; [reflexivity|]. cbn [map lit_data]. destruct (x =? v)%nat; auto. Qed.

Lemma nth_reset ns s id : nth_error (reset_encoded ns s) id = option_map (reset_node s) (nth_error ns id).
Proof. apply nth_error_map. Qed.

Lemma data_reset ns s id v : data (reset_encoded ns s) id v = option_map (fun d => ld_remove d s) (data ns id v).
Proof.
  unfold data. rewrite nth_reset. destruct (nth_error ns id) as [[l|lits l r|lits m l r|]|]; cbn [option_map reset_node node_data]; auto.
  - destruct (v =? 0)%nat; [reflexivity|]. apply nth_error_map.
  - apply lit_data_map.
Qed.


Lemma data_reset_lit ns s id v l s' : data (reset_encoded ns s) id v = Some (LLit l s') ->
  exists s0, data ns id v = Some (LLit l s0) /\
    (s = SIf -> sem_le_if s' = false /\ (sem_le_oif s' = true -> sem_le_oif s0 = true)) /\
    (s = SOnlyIf -> sem_le_oif s' = false /\ (sem_le_if s' = true -> sem_le_if s0 = true)).
Proof.
  rewrite data_reset. destruct (data ns id v) as [[|l0 [s0|]]|]; cbn [option_map ld_remove]; try discriminate; intros H; injection H as <- <-; [exists (Some s0)|exists None]; (split; [reflexivity|]); [destruct s0, s|]; cbn; repeat split; auto; discriminate.
Qed.

Lemma inv_reset_if GF GU GL g ow ns next : inv GF GU GL g ow (mkTst ns next []) -> inv GF [] GL g ow (mkTst (reset_encoded ns SIf) next []).
Proof.
  intros [W O1 O2 I1 C If Oif Vs]. constructor; cbn [t_nodes t_next t_cls] in *; auto.
  - now rewrite reset_skel.
  - intros id val l s H. apply data_reset_lit in H as (s0 & H & _). eauto.
  - intros v id val H. destruct (O2 v id val H) as (? & ? & ?). split; [auto|]. split; [auto|]. unfold reset_encoded. now rewrite map_length.
  - intros a id val l s _ H HA. apply data_reset_lit in H as (s0 & H & H1 & _). destruct (H1 eq_refl). congruence.
  - intros ND a id val l s S H HA. apply data_reset_lit in H as (s0 & H & H1 & _). destruct (H1 eq_refl) as (_ & H2).
    apply (Oif) with (s := s0); auto. intros i Hi. apply (ND i). rewrite nth_reset, Hi. reflexivity.
Qed.

Lemma inv_reset_oif GF GU GL g ow ns next : inv GF GU GL g ow (mkTst ns next []) -> inv GF GU [] g ow (mkTst (reset_encoded ns SOnlyIf) next []).
Proof.
  intros [W O1 O2 I1 C If Oif Vs]. constructor; cbn [t_nodes t_next t_cls] in *; auto.
  - now rewrite reset_skel.
  - intros id val l s H. apply data_reset_lit in H as (s0 & H & _). eauto.
  - intros v id val H. destruct (O2 v id val H) as (? & ? & ?). split; [auto|]. split; [auto|]. unfold reset_encoded. now rewrite map_length.
  - intros a id val l s S H HA. apply data_reset_lit in H as (s0 & H & _ & H1). destruct (H1 eq_refl) as (_ & H2). eauto.
  - intros ND a id val l s S H HA. apply data_reset_lit in H as (s0 & H & _ & H1). destruct (H1 eq_refl). congruence.
Qed.

(** growing the tree *)
Lemma data_app ns new id v : (id < length ns)%nat -> data (ns ++ new) id v = data ns id v.
Proof. intros H. unfold data. now rewrite nth_error_app1. Qed.

Lemma data_new ns new id v l s : Forall node_none new -> data (ns ++ new) id v = Some (LLit l s) -> (id < length ns)%nat /\ data ns id v = Some (LLit l s).
Proof.
  intros F H. destruct (Nat.lt_ge_cases id (length ns)) as [L|L]; [rewrite data_app in H by auto; auto|].
  exfalso. unfold data in H. rewrite nth_error_app2 in H by auto.
  destruct (nth_error new (id - length ns)) as [n|] eqn:E; [|discriminate]. apply nth_error_In in E. rewrite Forall_forall in F.
  destruct (F n E) as (F1 & _). now apply F1 in H.
Qed.

Lemma inv_grow GF GU GL g ow next vs d g' d' : inv GF GU GL g ow (mkTst (d_nodes d) next []) -> built g' d' -> grow vs d g d' g' ->
  (forall v, In v vs -> (v < next)%N /\ ow v = None) ->
  inv GF GU GL g' ow (mkTst (d_nodes d') next []).
Proof.
  intros [W O1 O2 I1 C If Oif Vs] (W' & L1' & L2') ((new & En & Fn) & (AV & AT & AR & AI) & GI) Hv.
  cbn [t_nodes t_next t_cls] in *. rewrite app_nil_r in *. constructor; cbn [t_nodes t_next t_cls]; rewrite ?app_nil_r, ?En in *; auto.
  - intros id val l s H. apply data_new in H as (_ & H); auto. eauto.
  - intros v id val H. destruct (O2 v id val H) as (H1 & H2 & H3). split; [auto|]. split; [|rewrite app_length; lia].
    destruct (gin g' v) eqn:E; [|reflexivity]. apply GI in E as [E|E]; [congruence|]. apply Hv in E. destruct E. congruence.
  - intros v H. apply GI in H as [H|H]; [auto|]. now apply Hv.
  - intros a Ha. apply C. intros v id val H. rewrite (Ha v id val H). rewrite AV; [auto|]. now apply O2 in H.
  - intros a id val l s S H HA HT. apply data_new in H as (Hl & H); auto. apply (If a id val l s); auto. apply AT; auto.
  - intros ND a id val l s S H HA HT. apply data_new in H as (Hl & H); auto. rewrite AV by auto. apply (Oif) with (l := l) (s := s); auto.
    intros i Hi. apply (ND i). rewrite nth_error_app1; [auto|]. eapply nth_error_lt; eauto.
  - intros c l Hc Hl. destruct (Vs c l Hc Hl) as [H|H]; auto.
Qed.

(** [built] only depends on the skeleton and the leaves *)
Lemma built_skel g d ns : built g d -> skel ns = skel (d_nodes d) -> built g (mkDb ns (d_lookup d) (d_dummy d)).
Proof.
  intros (W & L1 & L2) E. split; [cbn [d_nodes]; now rewrite E|]. split; cbn [d_lookup d_dummy d_nodes].
  - intros l id H. apply L1 in H. eapply nth_leaf_skel; eauto.
  - intros id H. apply L2 in H. apply nth_skel in H. rewrite <- E in H. apply nth_skel_inv in H as (n & Hn & He). destruct n; cbn in He; try discriminate; auto.
Qed.

(** canonical extension of an assignment *)
Definition canonize (g : ghost) (ow : owner) (a : asg) : asg :=
  fun v => match ow v with Some (id, val) => (val <=? gV g a id)%nat | None => a v end.

Lemma canonize_canon GF GU GL g ow st a : inv GF GU GL g ow st ->
  canon g ow (canonize g ow a) /\ (forall id, (id < length (t_nodes st))%nat -> gV g (canonize g ow a) id = gV g a id).
Proof.
  intros I. assert (H : forall id, (id < length (t_nodes st))%nat -> gV g (canonize g ow a) id = gV g a id).
  { intros id Hid. apply (wf_indep _ _ (i_shape _ _ _ _ _ _ I)); [|now rewrite skel_length].
    intros v Hv. unfold canonize. destruct (ow v) as [[i x]|] eqn:E; [|reflexivity]. apply (i_ow _ _ _ _ _ _ I) in E. destruct E as (_ & E & _). congruence. }
  split; [|exact H]. intros v id val E. unfold canonize at 1. rewrite E. rewrite H; [reflexivity|]. apply (i_ow _ _ _ _ _ _ I) in E. tauto.
Qed.

(** the canonical values of variables already there never change *)
Lemma canonize_grow GF GU GL g ow next vs d d' g' a v : inv GF GU GL g ow (mkTst (d_nodes d) next []) -> grow vs d g d' g' -> canonize g' ow a v = canonize g ow a v.
Proof.
  intros I (_ & (AV & _) & _). unfold canonize. destruct (ow v) as [[id val]|] eqn:E; [|reflexivity]. apply (i_ow _ _ _ _ _ _ I) in E as (_ & _ & L). now rewrite AV.
Qed.
Lemma canonize_ext g ow st ow' st' a v : ext ow st ow' st' -> (v < t_next st)%N -> canonize g ow' a v = canonize g ow a v.
Proof.
  intros X L. unfold canonize. destruct (ow v) as [x|] eqn:E; [now rewrite (e_ow _ _ _ _ X _ _ E)|]. destruct (ow' v) as [x|] eqn:E'; [|reflexivity].
  destruct (e_ow_new _ _ _ _ X _ _ E') as [H|H]; [congruence|lia].
Qed.

(** Reserving variables *)
Section Reserve.
Variables GF GU GL : cnf.
Variable g : ghost.
Notation Inv := (inv GF GU GL g).

Lemma reserve_val_ok ow st id val n : Inv ow st -> nth_error (t_nodes st) id = Some n -> (val = 0%nat /\ is_general n = false \/ In val (node_vals n 1 None)) ->
  exists st' ow', reserve_val st id val = Some st' /\ Inv ow' st' /\ ext ow st ow' st' /\ t_cls st' = t_cls st.
Proof.
  intros I Hn Hv. unfold reserve_val. rewrite Hn. cbn [obind]. destruct n as [l|lits l r|lits m l r|].
  - exists st, ow. split; [auto|]. split; [auto|]. split; [apply ext_refl|auto].
  - destruct (Nat.eqb_spec val 0) as [->|Hz]; [exists st, ow; split; [auto|]; split; [auto|]; split; [apply ext_refl|auto]|].
    destruct Hv as [Hv|Hv]; [lia|]. cbn [node_vals] in Hv. apply in_range_excl in Hv.
    destruct (nth_error lits (val - 1)) as [dat|] eqn:E; [|apply nth_error_None in E; lia].
    destruct (get_olit_ok _ _ _ _ _ _ _ _ _ _ _ _ I Hn E) as (ol & st' & ow' & R & I' & X & _ & C & _). rewrite R. cbn [obind snd].
    exists st', ow'. auto.
  - destruct Hv as [(_ & Hv)|Hv]; [discriminate|]. cbn [node_vals] in Hv. apply filter_In in Hv as (Hv & _).
    apply lit_data_In in Hv as (dat & E).
    destruct (get_olit_general_ok _ _ _ _ _ _ _ _ _ _ _ _ _ I Hn E) as (ol & st' & ow' & R & I' & X & _ & C & _). rewrite R. cbn [obind snd].
    exists st', ow'. auto.
  - exists st, ow. split; [auto|]. split; [auto|]. split; [apply ext_refl|auto].
Qed.

Lemma reserve_fold_ok ow st id n vs : Inv ow st -> nth_error (t_nodes st) id = Some n ->
  (forall v, In v vs -> v = 0%nat /\ is_general n = false \/ In v (node_vals n 1 None)) ->
  exists st' ow', foldM (fun s v => reserve_val s id v) vs st = Some st' /\ Inv ow' st' /\ ext ow st ow' st' /\ t_cls st' = t_cls st.
Proof.
  revert ow st n. induction vs as [|v vs IH]; intros ow st n I Hn Hv; cbn [foldM].
  - exists st, ow. split; [auto|]. split; [auto|]. split; [apply ext_refl|auto].
  - destruct (reserve_val_ok ow st id v n I Hn) as (st1 & ow1 & R1 & I1 & X1 & C1); [apply Hv; now left|]. rewrite R1. cbn [obind].
    destruct (node_same_skel _ _ _ _ (e_skel _ _ _ _ X1) Hn) as (n' & Hn' & He).
    assert (Hvals : node_vals n' 1 None = node_vals n 1 None) by (rewrite <- (node_vals_erase n'), He; apply node_vals_erase).
    assert (Hgen : is_general n' = is_general n) by (rewrite <- (is_general_erase n'), He; apply is_general_erase).
    destruct (IH ow1 st1 n' I1 Hn') as (st2 & ow2 & R2 & I2 & X2 & C2).
    { intros w Hw. rewrite Hvals, Hgen. apply Hv. now right. }
    exists st2, ow2. split; [exact R2|]. split; [auto|]. split; [eapply ext_trans; eauto|congruence].
Qed.

Lemma node_vals_0 n : node_vals n 0 None = node_vals n 1 None \/ exists lits m l r, n = NGeneral lits m l r.
Proof. destruct n; cbn [node_vals]; auto. right. eauto. Qed.

Lemma node_vals_from n k v : (forall lits m l r, n = NGeneral lits m l r -> forall x, In x (map fst lits) -> (1 <= x)%nat) ->
  In v (node_vals n k None) -> In v (node_vals n 1 None).
Proof.
  intros Hg H. destruct n as [l|lits l r|lits m l r|]; cbn [node_vals] in *.
  - destruct ((k <=? 1)%nat && true); [|destruct H]. destruct H as [<-|[]]. left; reflexivity.
  - apply in_range_excl in H. apply in_range_excl. lia.
  - apply filter_In in H as (H & _). apply filter_In. split; [auto|]. specialize (Hg lits m l r eq_refl v H). lia.
  - destruct H.
Qed.

Lemma firstn_In {A} k (l : list A) x : In x (firstn k l) -> In x l.
Proof. revert l; induction k as [|k IH]; intros [|y l] H; cbn in *; try tauto. destruct H; auto. Qed.

Lemma reserve_vars_ok fuel : forall ow st con, Inv ow st -> con_ok (t_nodes st) con ->
  (nc_div con = 1%nat \/ forall n, nth_error (t_nodes st) (nc_id con) = Some n -> is_general n = false) -> (grk g (nc_id con) < fuel)%nat ->
  exists st' ow', reserve_vars fuel st con = Some st' /\ Inv ow' st' /\ ext ow st ow' st' /\ t_cls st' = t_cls st.
Proof.
  induction fuel as [|f IH]; intros ow st con I (Hp & n & Hn & _) Hdiv Hf; [lia|]. cbn [reserve_vars]. rewrite Hn. cbn [obind].
  pose proof (wf_node _ _ (i_shape _ _ _ _ _ _ I) _ _ (nth_skel _ _ _ Hn)) as N.
  assert (Hvals : forall v, In v (reserve_vals n con) -> In v (node_vals n 1 None)).
  { assert (Hg : forall lits m l r, n = NGeneral lits m l r -> forall x, In x (map fst lits) -> (1 <= x)%nat).
    { intros lits m l r -> x Hx. cbn [erase node_ok] in N. destruct N as (_ & _ & _ & _ & _ & _ & _ & Hb & _). rewrite map_map in Hb. now apply Hb in Hx. }
    intros v Hv. unfold reserve_vals in Hv. destruct (nc_div con =? 1)%nat.
    - destruct (nc_limit con); [apply firstn_In in Hv|]; eapply node_vals_from; eauto.
    - apply filter_In in Hv as (Hv & _). eapply node_vals_from; eauto. }
  assert (Hrec : forall l r, con_ok (skel (t_nodes st)) l -> con_ok (skel (t_nodes st)) r -> (grk g (nc_id l) < grk g (nc_id con))%nat -> (grk g (nc_id r) < grk g (nc_id con))%nat ->
     (nc_div l = 1%nat \/ forall n, nth_error (t_nodes st) (nc_id l) = Some n -> is_general n = false) ->
     (nc_div r = 1%nat \/ forall n, nth_error (t_nodes st) (nc_id r) = Some n -> is_general n = false) ->
     exists st' ow', (do st1 <- reserve_vars f st l; do st2 <- reserve_vars f st1 r; do _ <- assertb ((nc_div con =? 1)%nat || negb (is_general n));
        foldM (fun s v => reserve_val s (nc_id con) v) (reserve_vals n con) st2) = Some st' /\ Inv ow' st' /\ ext ow st ow' st' /\ t_cls st' = t_cls st).
  { intros l r (Pl & nl & El & Ol) (Pr & nr & Er & Or) Rl Rr Dl Dr.
    apply nth_skel_inv in El as (nl0 & El & ->). apply nth_skel_inv in Er as (nr0 & Er & ->). rewrite node_len_erase in *.
    destruct (IH ow st l I) as (st1 & ow1 & R1 & I1 & X1 & C1); [split; [auto|]; eauto|auto|lia|]. rewrite R1. cbn [obind].
    destruct (node_same_skel _ _ _ _ (e_skel _ _ _ _ X1) Er) as (nr' & Er' & Her).
    destruct (IH ow1 st1 r I1) as (st2 & ow2 & R2 & I2 & X2 & C2).
    { split; [auto|]. exists nr'. split; [auto|]. rewrite <- (node_len_erase nr'), Her, node_len_erase. auto. }
    { destruct Dr as [Dr|Dr]; [auto|right]. intros m Hm. rewrite Er' in Hm. injection Hm as <-. rewrite <- is_general_erase, Her, is_general_erase. auto. }
    { lia. }
    rewrite R2. cbn [obind].
    assert (Has : (nc_div con =? 1)%nat || negb (is_general n) = true).
    { destruct Hdiv as [->|Hd]; [reflexivity|]. rewrite (Hd n Hn). apply orb_true_r. }
    rewrite Has. cbn [assertb obind].
    assert (X12 : ext ow st ow2 st2) by (eapply ext_trans; eauto).
    destruct (node_same_skel _ _ _ _ (e_skel _ _ _ _ X12) Hn) as (n' & Hn' & He).
    destruct (reserve_fold_ok ow2 st2 (nc_id con) n' (reserve_vals n con) I2 Hn') as (st3 & ow3 & R3 & I3 & X3 & C3).
    { intros v Hv. right. rewrite <- (node_vals_erase n'), He, node_vals_erase. auto. }
    exists st3, ow3. split; [exact R3|]. split; [auto|]. split; [eapply ext_trans; eauto|congruence]. }
  destruct n as [l|lits l r|lits m l r|].
  - exists st, ow. split; [auto|]. split; [auto|]. split; [apply ext_refl|auto].
  - cbn [erase node_ok] in N. destruct N as (C1 & C2 & _ & _ & R1 & R2 & (nl & nr & E1 & E2 & G1 & G2 & _) & _).
    apply nth_skel_inv in E1 as (nl0 & E1 & ->). apply nth_skel_inv in E2 as (nr0 & E2 & ->). rewrite is_general_erase in *.
    apply Hrec; auto; right; intros x Hx; congruence.
  - cbn [erase node_ok] in N. destruct N as (C1 & C2 & (_ & S1 & _) & (_ & S2 & _) & R1 & R2 & _). apply Hrec; auto.
  - exists st, ow. split; [auto|]. split; [auto|]. split; [apply ext_refl|auto].
Qed.
End Reserve.
