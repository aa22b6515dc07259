(** * Extending a bottom bucket of the dynamic polynomial watchdog after its right child has grown *)

From Coq Require Import List Bool NArith ZArith Lia Arith Sorted Permutation.
From Coq Require Import ZifyBool ZifyNat ZifyN.
From Verif Require Import Spec BoundSpec Types Atomics AtomicsProofs NodeDb TreeSpec TotDb Totalizer Maps Base TotDbInv TotDbUnit TotDbDefine TotDbGeneral TotDbBuild TotDbGrow TotDbMerge TotWeighted TotDbHist TotalizerProofs DbWorld Dpw DpwRef DpwBuild DpwBuckets DpwIf DpwInv.
Import ListNotations.

Lemma half_map b v : nc_map (half b) v = (v / 2)%nat.
Proof. unfold nc_map, half. cbn [nc_offset nc_limit nc_div nc_mult]. rewrite Nat.sub_0_r, Nat.mul_1_r. destruct (Nat.leb_spec v 0); [replace v with 0%nat by lia; reflexivity|reflexivity]. Qed.
Lemma half_rev b w : nc_rev_map (half b) w = (w * 2)%nat.
Proof. unfold nc_rev_map, half. cbn [nc_offset nc_limit nc_div nc_mult]. rewrite Nat.div_1_r. lia. Qed.
Lemma half_len ns b n : nth_error ns b = Some n -> con_len ns (half b) = Some (node_len n / 2)%nat.
Proof. intros H. unfold con_len, half. cbn [nc_id nc_offset nc_limit nc_div]. rewrite H. cbn [obind]. now rewrite Nat.sub_0_r. Qed.
Lemma simple_rev lc w : simple_con lc -> nc_mult lc = 1%nat -> nc_rev_map lc w = w.
Proof. intros (O & D & L) M. unfold nc_rev_map. rewrite L, M, D, O, Nat.div_1_r. lia. Qed.

Lemma pair_ext GU ow st ow' st' l r ol lv rv : ext ow st ow' st' -> pair_done GU (t_nodes st) (t_cls st) l r ol lv rv -> pair_done GU (t_nodes st') (t_cls st') l r ol lv rv.
Proof.
  intros X. apply pair_mono; [intros; eapply lit_has_ext; eauto|]. destruct (e_cls _ _ _ _ X) as (new & ->). intros c Hc. apply in_or_app; auto.
Qed.

Lemma combine_at {A B} (xs : list A) (ys : list B) : forall k x y, nth_error xs k = Some x -> nth_error ys k = Some y -> nth_error (combine xs ys) k = Some (x, y).
Proof. revert ys. induction xs as [|a xs IH]; intros [|b ys] [|k] x y; cbn [combine nth_error]; try discriminate; [intros [= ->] [= ->]; auto|apply IH]. Qed.
Lemma map_upd {A B} (f : A -> B) k v (xs : list A) : map f (upd k v xs) = upd k (f v) (map f xs).
Proof. revert k. induction xs as [|a xs IH]; intros [|k]; cbn [upd map]; auto. now rewrite IH. Qed.

Section Extend.
Variables (GF GU : cnf) (gi : N -> bool) (cap : nat -> option nat) (rk : nat -> nat) (C : nat -> Prop).
Notation Q := (qinv GF GU gi cap).
Variables (bb : nat) (lits : list litdata) (lc : nodecon) (x : nat).
Notation rc := (half x).
Variables (NL NR : nat).
Hypothesis (Slc : simple_con lc) (Mlc : nc_mult lc = 1%nat) (Cbb : ~ C bb) (Cl : C (nc_id lc)) (Cx : C x).

Record ready_st (st : tst) : Prop := mkReady {
  rs_sh : sh (t_nodes st) rk C;
  rs_rk : forall j, (j < length (t_nodes st))%nat -> (rk j < S (length (t_nodes st)))%nat;
  rs_bb : nth_error (t_nodes st) bb = Some (NUnit lits lc rc);
  rs_l : exists nl, nth_error (t_nodes st) (nc_id lc) = Some nl /\ is_unitlike nl /\ node_len nl = NL;
  rs_r : exists nr, nth_error (t_nodes st) x = Some nr /\ is_unitlike nr /\ node_len nr = NR
}.

Definition keeps (ow : owner) (st : tst) (ow' : owner) (st' : tst) : Prop :=
  Q ow' st' /\ ext ow st ow' st' /\ ready_st st' /\ forall j, ~ C j -> nth_error (t_nodes st') j = nth_error (t_nodes st) j.

Lemma ready_same st st' : ready_st st -> skel (t_nodes st') = skel (t_nodes st) -> (forall j, ~ C j -> nth_error (t_nodes st') j = nth_error (t_nodes st) j) -> ready_st st'.
Proof.
  intros [H1 H2 H3 (nl & H4 & U4 & L4) (nr & H5 & U5 & L5)] Sk Hj.
  assert (Hlen : length (t_nodes st') = length (t_nodes st)) by (rewrite <- (skel_length (t_nodes st')), Sk; apply skel_length).
  constructor.
  - eapply sh_skel; eauto.
  - rewrite Hlen. auto.
  - rewrite Hj by auto. auto.
  - destruct (unitlike_same_skel _ (t_nodes st') _ _ Sk H4 U4) as (n' & A1 & A2 & A3). exists n'. split; [auto|]. split; [auto|]. lia.
  - destruct (unitlike_same_skel _ (t_nodes st') _ _ Sk H5 U5) as (n' & A1 & A2 & A3). exists n'. split; [auto|]. split; [auto|]. lia.
Qed.

Lemma keeps_refl ow st : Q ow st -> ready_st st -> keeps ow st ow st.
Proof. intros I R. split; [auto|]. split; [apply ext_refl|]. auto. Qed.
Lemma keeps_trans ow st ow1 st1 ow2 st2 : keeps ow st ow1 st1 -> keeps ow1 st1 ow2 st2 -> keeps ow st ow2 st2.
Proof. intros (A1 & A2 & A3 & A4) (B1 & B2 & B3 & B4). split; [auto|]. split; [eapply ext_trans; eauto|]. split; [auto|]. intros j Hj. rewrite B4, A4; auto. Qed.

Lemma define_keeps ow st id idx n : Q ow st -> ready_st st -> C id -> nth_error (t_nodes st) id = Some n -> is_unitlike n -> (idx < node_len n)%nat ->
  exists l st' ow', define_unweighted (S (length (t_nodes st))) st id idx SIf = Some (l, st') /\ keeps ow st ow' st' /\ lit_has (t_nodes st') id (idx + 1) SIf l.
Proof.
  intros I R HC Hn U Hi. destruct (define_if_q GF GU gi cap rk C (S (length (t_nodes st))) st ow id idx n I (rs_sh _ R) HC Hn U Hi) as (l & st' & ow' & E & I' & X & L & K).
  { apply (rs_rk _ R). eapply nth_error_lt; eauto. }
  assert (Hj : forall j, ~ C j -> nth_error (t_nodes st') j = nth_error (t_nodes st) j) by (intros j H; apply K; now right).
  exists l, st', ow'. split; [exact E|]. split; [|exact L]. split; [auto|]. split; [auto|]. split; [|auto]. eapply ready_same; eauto. apply X.
Qed.

Lemma extend_clause_q ow st ol s val rval : Q ow st -> ready_st st -> data (t_nodes st) bb val = Some (LLit ol s) ->
  (2 <= rval <= NR)%nat -> (rval / 2 <= val)%nat -> (val - rval / 2 <= NL)%nat ->
  exists st' ow', extend_clause lc rc ol val st rval = Some st' /\ keeps ow st ow' st' /\
    (forall rv, (rval = rv * 2)%nat -> pair_done GU (t_nodes st') (t_cls st') lc rc ol (val - rv) rv).
Proof.
  intros I R Hd Hr Hv Hl. unfold extend_clause. rewrite half_map. replace (rval / 2 <=? val)%nat with true by lia. cbn [assertb obind].
  set (lval := (val - rval / 2)%nat) in *.
  assert (Hp : nc_is_possible lc lval = true) by (unfold nc_is_possible, is_multiple_of; destruct Slc as (_ & _ & ->); rewrite Mlc, Nat.mod_1_r; reflexivity).
  rewrite Hp. replace (1 <=? rval)%nat with true by lia. cbn [assertb obind].
  destruct (rs_r _ R) as (nr & Er & Ur & Lr).
  destruct (define_keeps ow st x (rval - 1) nr I R Cx Er Ur ltac:(lia)) as (rlit & s1 & ow1 & E1 & K1 & L1). replace (rval - 1 + 1)%nat with rval in L1 by lia.
  change (nc_id rc) with x. rewrite E1. cbn [obind]. destruct K1 as (I1 & X1 & R1 & J1).
  assert (Hd1 : exists s1', data (t_nodes s1) bb val = Some (LLit ol s1')) by (destruct (e_data _ _ _ _ X1 _ _ _ _ Hd) as (s' & H & _); eauto). destruct Hd1 as (s1' & Hd1).
  assert (Hhalf : forall v, (rval <= v -> rval / 2 <= nc_map rc v)%nat) by (intros v H; rewrite half_map; apply Nat.div_le_mono; lia).
  destruct (Nat.eqb_spec lval 0) as [Hz|Hz].
  - (* the right output alone *)
    destruct (qinv_emit GF GU gi cap ow1 s1 [lit_impl_lit rlit ol] I1) as (I2 & X2).
    { intros a V Sa Da. unfold sat_cnf. cbn [forallb]. rewrite andb_true_r. change (lit_impl_lit rlit ol) with (cube_impl_lit [rlit] ol). apply sat_clause_two_intro. intros Ht.
      eapply q_data_true; [exact I1|exact Da|exact Hd1|]. pose proof (Sa _ _ (rs_bb _ R1)) as HS. cbn in HS.
      pose proof (q_lit_true _ _ _ _ _ _ _ _ _ _ _ I1 Sa Da L1 (Ht _ (or_introl eq_refl))) as Hv1. apply Hhalf in Hv1. change (nc_map (half x) (V x)) with (nc_map rc (V (nc_id rc))) in Hv1. cbn [half nc_id] in *. lia. }
    { intros c z [<-|[]] [<-|[<-|[]]]; [rewrite lvar_neg; eapply q_lit_var; eauto|eapply q_data_var; eauto]. }
    eexists _, ow1. split; [reflexivity|]. split.
    + split; [exact I2|]. split; [eapply ext_trans; eauto|]. split; [|exact J1]. eapply ready_same; [exact R1|reflexivity|reflexivity].
    + intros rv Hrv. assert (rval / 2 = rv)%nat by (rewrite Hrv; apply Nat.div_mul; lia). assert (val - rv = 0)%nat as Hv0 by lia. rewrite Hv0. exists [], [rlit]. split; [left; auto|].
      split. { right. exists rlit. split; [auto|]. split; [lia|]. rewrite half_rev, <- Hrv. cbn [emit t_nodes half nc_id]. exact L1. }
      intros a Ha Ht. apply sat_cnf_app_iff in Ha as (_ & Ha). cbn [emit t_cls] in Ha. apply sat_cnf_app_iff in Ha as (_ & Ha).
      eapply (sat_clause_two a [rlit] ol); [eapply sat_cnf_In; [exact Ha|now left]|]. intros y Hy. now apply Ht.
  - assert (Hdiv : nc_div lc = 1%nat) by apply Slc. rewrite Hdiv. cbn [Nat.eqb assertb obind].
    destruct (rs_l _ R1) as (nl & El & Ul & Ll).
    destruct (define_keeps ow1 s1 (nc_id lc) (lval - 1) nl I1 R1 Cl El Ul ltac:(lia)) as (llit & s2 & ow2 & E2 & K2 & L2). replace (lval - 1 + 1)%nat with lval in L2 by lia.
    rewrite E2. cbn [obind]. destruct K2 as (I2 & X2 & R2 & J2).
    assert (Hd2 : exists s2', data (t_nodes s2) bb val = Some (LLit ol s2')) by (destruct (e_data _ _ _ _ X2 _ _ _ _ Hd1) as (s' & H & _); eauto). destruct Hd2 as (s2' & Hd2).
    pose proof (lit_has_ext _ _ _ _ _ _ _ _ X2 L1) as L1'.
    destruct (qinv_emit GF GU gi cap ow2 s2 [cube_impl_lit [rlit; llit] ol] I2) as (I3 & X3).
    { intros a V Sa Da. unfold sat_cnf. cbn [forallb]. rewrite andb_true_r. apply sat_clause_two_intro. intros Ht.
      eapply q_data_true; [exact I2|exact Da|exact Hd2|]. pose proof (Sa _ _ (rs_bb _ R2)) as HS. cbn in HS.
      pose proof (q_lit_true _ _ _ _ _ _ _ _ _ _ _ I2 Sa Da L1' (Ht _ (or_introl eq_refl))) as Hv1. apply Hhalf in Hv1.
      pose proof (q_lit_true _ _ _ _ _ _ _ _ _ _ _ I2 Sa Da L2 (Ht _ (or_intror (or_introl eq_refl)))) as Hv2. rewrite simple_con_map in HS by auto. rewrite Mlc in HS. cbn [half nc_id] in *. lia. }
    { intros c z [<-|[]] Hz'. unfold cube_impl_lit in Hz'. cbn [map app] in Hz'. destruct Hz' as [<-|[<-|[<-|[]]]]; rewrite ?lvar_neg; [eapply q_lit_var; eauto|eapply q_lit_var; eauto|eapply q_data_var; eauto]. }
    eexists _, ow2. split; [reflexivity|]. split.
    + split; [exact I3|]. split; [eapply ext_trans; [exact X1|]; eapply ext_trans; eauto|]. split; [eapply ready_same; [exact R2|reflexivity|reflexivity]|]. intros j Hj. cbn [emit t_nodes]. rewrite J2, J1; auto.
    + intros rv Hrv. assert (rval / 2 = rv)%nat by (rewrite Hrv; apply Nat.div_mul; lia). assert (val - rv = lval)%nat as -> by lia. exists [llit], [rlit].
      split. { right. exists llit. split; [auto|]. split; [auto|]. rewrite simple_rev by auto. cbn [emit t_nodes]. exact L2. }
      split. { right. exists rlit. split; [auto|]. split; [lia|]. rewrite half_rev, <- Hrv. cbn [emit t_nodes half nc_id]. exact L1'. }
      intros a Ha Ht. apply sat_cnf_app_iff in Ha as (_ & Ha). cbn [emit t_cls] in Ha. apply sat_cnf_app_iff in Ha as (_ & Ha).
      eapply (sat_clause_two a [rlit; llit] ol); [eapply sat_cnf_In; [exact Ha|now left]|]. intros y Hy. apply Ht. cbn in *. tauto.
Qed.

Lemma extend_vals_q vals ol s val : forall ow st, Q ow st -> ready_st st -> data (t_nodes st) bb val = Some (LLit ol s) ->
  (forall rval, In rval vals -> (2 <= rval <= NR /\ rval / 2 <= val /\ val - rval / 2 <= NL)%nat) ->
  exists st' ow', foldM (extend_clause lc rc ol val) vals st = Some st' /\ keeps ow st ow' st' /\
    (forall rv, In (rv * 2)%nat vals -> pair_done GU (t_nodes st') (t_cls st') lc rc ol (val - rv) rv).
Proof.
  induction vals as [|v vals IH]; intros ow st I R Hd Hv; cbn [foldM].
  - exists st, ow. split; [auto|]. split; [now apply keeps_refl|]. intros rv [].
  - destruct (Hv v (or_introl eq_refl)) as (V1 & V2 & V3). destruct (extend_clause_q ow st ol s val v I R Hd V1 V2 V3) as (s1 & ow1 & E1 & K1 & P1). rewrite E1. cbn [obind].
    assert (K1' := K1). destruct K1' as (I1 & X1 & R1 & J1).
    assert (Hd1 : data (t_nodes s1) bb val = Some (LLit ol s)) by (unfold data; rewrite J1 by auto; exact Hd).
    destruct (IH ow1 s1 I1 R1 Hd1) as (s2 & ow2 & E2 & K2 & P2); [intros; apply Hv; now right|]. exists s2, ow2. split; [exact E2|]. split; [eapply keeps_trans; eauto|].
    intros rv [Hrv|Hrv]; [|auto]. eapply pair_ext; [apply K2|]. apply P1. auto.
Qed.

Lemma extend_lit_q orm rmax ow st ol s val : Q ow st -> ready_st st -> data (t_nodes st) bb val = Some (LLit ol s) -> rmax = (NR / 2)%nat -> (val <= NL + orm)%nat ->
  exists st' ow', extend_lit lc rc orm rmax st (ol, val) = Some st' /\ keeps ow st ow' st' /\
    (forall rv, (orm < rv <= rmax)%nat -> (rv <= val)%nat -> pair_done GU (t_nodes st') (t_cls st') lc rc ol (val - rv) rv).
Proof.
  intros I R Hd Hmax Hval. unfold extend_lit. destruct (rs_r _ R) as (nr & Er & Ur & Lr). change (nc_id rc) with x. rewrite Er. cbn [obind]. rewrite !half_rev.
  set (vals := node_vals nr ((orm + 1) * 2) (Some (Nat.min (rmax + 1) val * 2 + 1)%nat)).
  assert (Hin : forall v, In v vals <-> ((orm + 1) * 2 <= v <= Nat.min (rmax + 1) val * 2 /\ v <= NR)%nat).
  { intros v. unfold vals. destruct nr as [y|ls yl yr|?|]; cbn in Ur; try tauto; cbn [node_vals node_len] in *.
    - split.
      + destruct (_ && _) eqn:E; [|intros []]. intros [<-|[]]. lia.
      + intros H. lia.
    - rewrite in_range_excl. lia. }
  destruct (extend_vals_q vals ol s val ow st I R Hd) as (st' & ow' & E & K & P).
  { intros rval H. apply Hin in H as (H1 & H2).
    assert (orm + 1 <= rval / 2)%nat by (apply Nat.div_le_lower_bound; lia).
    assert (rval / 2 <= val)%nat by (apply Nat.div_le_upper_bound; lia). lia. }
  exists st', ow'. split; [exact E|]. split; [exact K|]. intros rv H1 H2. apply P. apply Hin.
  assert (rv * 2 <= NR)%nat; [|lia]. pose proof (Nat.mul_div_le NR 2). lia.
Qed.

Lemma if_lits_In orm ol val : In (ol, val) (if_lits lits orm) -> (1 <= val <= length lits)%nat /\ exists s, nth_error lits (val - 1) = Some (LLit ol s).
Proof.
  unfold if_lits. intros H. apply in_flat_map in H as ((idx & d) & Hin & H). apply In_nth_error in Hin as (k & Hk).
  assert (Hk' : nth_error (seq 0 (length lits)) k = Some idx /\ nth_error lits k = Some d).
  { clear - Hk. revert Hk. generalize (seq 0 (length lits)) as xs. revert k. induction lits as [|y ys IH]; intros k xs; [destruct xs, k; discriminate|].
    destruct xs as [|z xs]; [destruct k; discriminate|]. destruct k; cbn [combine nth_error]; [intros [= <- <-]; auto|]. apply IH. }
  destruct Hk' as (K1 & K2). apply nth_error_seq in K1 as (-> & K1). cbn [Nat.add] in *. destruct d as [|y [s|]]; cbn [ld_has_if] in H; try destruct H.
  destruct (has_if s); [|destruct H]. destruct (orm <=? k + 1)%nat; [|destruct H]. destruct H as [[= <- <-]|[]]. split; [lia|]. exists (Some s). replace (k + 1 - 1)%nat with k by lia. exact K2.
Qed.

Lemma if_lits_mem orm ol val s : nth_error lits (val - 1) = Some (LLit ol s) -> sem_le_if s = true -> (1 <= val)%nat -> (orm <= val)%nat -> In (ol, val) (if_lits lits orm).
Proof.
  intros H Hs H1 H2. unfold if_lits. apply in_flat_map. exists ((val - 1)%nat, LLit ol s). split.
  - assert (Hl : (val - 1 < length lits)%nat) by (eapply nth_error_lt; eauto).
    assert (K : nth_error (combine (seq 0 (length lits)) lits) (val - 1) = Some ((val - 1)%nat, LLit ol s)).
    { assert (Hq : nth_error (seq 0 (length lits)) (val - 1) = Some (val - 1)%nat).
      { rewrite (nth_error_nth' _ 0%nat) by (rewrite seq_length; auto). now rewrite seq_nth. }
      now apply combine_at. }
    eapply nth_error_In; eauto.
  - destruct s as [s|]; [|discriminate]. cbn [ld_has_if]. cbn in Hs. rewrite Hs. replace (val - 1 + 1)%nat with val by lia. replace (orm <=? val)%nat with true by lia. now left.
Qed.

Lemma extend_lits_q orm rmax xs : forall ow st, Q ow st -> ready_st st -> rmax = (NR / 2)%nat -> (length lits <= NL + orm)%nat ->
  (forall ol val, In (ol, val) xs -> (1 <= val <= length lits)%nat /\ exists s, nth_error lits (val - 1) = Some (LLit ol s)) ->
  exists st' ow', foldM (extend_lit lc rc orm rmax) xs st = Some st' /\ keeps ow st ow' st' /\
    (forall ol val rv, In (ol, val) xs -> (orm < rv <= rmax)%nat -> (rv <= val)%nat -> pair_done GU (t_nodes st') (t_cls st') lc rc ol (val - rv) rv).
Proof.
  induction xs as [|(ol & val) xs IH]; intros ow st I R Hmax Hlen Hx; cbn [foldM].
  - exists st, ow. split; [auto|]. split; [now apply keeps_refl|]. intros ? ? ? [].
  - destruct (Hx ol val (or_introl eq_refl)) as (Hv & s & Hs).
    assert (Hd : data (t_nodes st) bb val = Some (LLit ol s)) by (unfold data; rewrite (rs_bb _ R); cbn [node_data]; replace (val =? 0)%nat with false by lia; exact Hs).
    destruct (extend_lit_q orm rmax ow st ol s val I R Hd Hmax ltac:(lia)) as (s1 & ow1 & E1 & K1 & P1). rewrite E1. cbn [obind].
    destruct K1 as (I1 & X1 & R1 & J1).
    destruct (IH ow1 s1 I1 R1 Hmax Hlen) as (s2 & ow2 & E2 & K2 & P2); [intros; apply Hx; now right|]. exists s2, ow2. split; [exact E2|].
    split; [eapply keeps_trans; [|exact K2]; split; [auto|]; auto|].
    intros ol' val' rv [[= <- <-]|Hin] H1 H2; [|now apply P2]. eapply pair_ext; [apply K2|]. now apply P1.
Qed.
End Extend.

(** what stays of [ext] when nodes are changed *)
Record ext0 (ow : owner) (st : tst) (ow' : owner) (st' : tst) : Prop := mkExt0 {
  z_next : (t_next st <= t_next st')%N;
  z_cls : exists new, t_cls st' = t_cls st ++ new;
  z_ow : forall v x, ow v = Some x -> ow' v = Some x;
  z_new : forall v x, ow' v = Some x -> ow v = Some x \/ (t_next st <= v < t_next st')%N }.
Lemma ext0_of_ext ow st ow' st' : ext ow st ow' st' -> ext0 ow st ow' st'.
Proof. intros [A1 A2 A3 A4 A5 A6]. constructor; auto. Qed.
Lemma ext0_refl ow st : ext0 ow st ow st.
Proof. apply ext0_of_ext, ext_refl. Qed.
Lemma ext0_trans ow1 st1 ow2 st2 ow3 st3 : ext0 ow1 st1 ow2 st2 -> ext0 ow2 st2 ow3 st3 -> ext0 ow1 st1 ow3 st3.
Proof.
  intros [N1 [c1 C1] O1 P1] [N2 [c2 C2] O2 P2]. constructor; auto; try lia.
  - exists (c1 ++ c2). now rewrite C2, C1, app_assoc.
  - intros v x H. destruct (P2 v x H) as [H'|H']; [|right; lia]. destruct (P1 v x H') as [H''|H'']; [auto|right; lia].
Qed.

Definition capat (bb c : nat) : nat -> option nat := fun j => if (j =? bb)%nat then Some c else None.

Lemma extend_bottom_q GF GU gi rk (C : nat -> Prop) ow st bb lits lc x orm NL NR capF :
  qinv GF GU gi (capat bb orm) ow st -> simple_con lc -> nc_mult lc = 1%nat -> ~ C bb -> C (nc_id lc) -> C x ->
  ready_st rk C bb lits lc x NL NR st -> length lits = (NL + orm)%nat -> (orm <= NR / 2)%nat ->
  (forall p lp cl cr, nth_error (t_nodes st) p = Some (NUnit lp cl cr) -> nc_id cl <> bb /\ (nc_id cr = bb -> cr = half bb /\ capF p = Some (length lits / 2)%nat)) ->
  exists st' ow', extend_bottom (st, orm) bb = Some (st', (length lits / 2)%nat) /\ qinv GF GU gi capF ow' st' /\ ext0 ow st ow' st' /\
    skel (t_nodes st') = skel (upd bb (NUnit (lits ++ repeat LNone (NL + NR / 2 - length lits)) lc (half x)) (t_nodes st)) /\
    (forall j, ~ C j -> j <> bb -> nth_error (t_nodes st') j = nth_error (t_nodes st) j).
Proof.
  intros I Slc Mlc Cbb Cl Cx R Hlen Horm Hp. unfold extend_bottom. rewrite (rs_bb _ _ _ _ _ _ _ _ _ R). cbn [obind].
  destruct (rs_r _ _ _ _ _ _ _ _ _ R) as (nr & Er & Ur & Lr). destruct (rs_l _ _ _ _ _ _ _ _ _ R) as (nl & El & Ul & Ll).
  rewrite (half_len _ _ _ Er), Lr. cbn [obind].
  assert (CL : forall ns n, nth_error ns (nc_id lc) = Some n -> con_len ns lc = Some (node_len n)).
  { intros ns n Hn. unfold con_len. rewrite Hn. cbn [obind]. destruct Slc as (-> & -> & ->). now rewrite Nat.sub_0_r, Nat.div_1_r. }
  rewrite (CL _ _ El), Ll. cbn [obind half nc_div Nat.eqb assertb]. fold (half x).
  destruct (extend_lits_q GF GU gi (capat bb orm) rk C bb lits lc x NL NR Slc Mlc Cbb Cl Cx orm (NR / 2) (if_lits lits orm) ow st I R eq_refl ltac:(lia)) as (st1 & ow1 & E1 & K1 & P1).
  { intros ol val Hin. eapply if_lits_In; eauto. }
  rewrite E1. cbn [obind]. destruct K1 as (I1 & X1 & R1 & J1). assert (Hbb := rs_bb _ _ _ _ _ _ _ _ _ R1). rewrite Hbb. cbn [obind].
  replace (length lits <=? NR / 2 + NL)%nat with true by lia. cbn [assertb obind].
  set (k := (NR / 2 + NL - length lits)%nat).
  eexists _, ow1. split; [reflexivity|].
  assert (I2 : qinv GF GU gi nocap ow1 st1).
  { eapply (qinv_uncap _ _ _ _ _ _ _ bb); [exact I1| |].
    - intros j Hj. unfold capat, nocap. destruct (Nat.eqb_spec j bb); [contradiction|reflexivity].
    - intros lits' l' r' val ol s ll lr lv rv c Hn Hd HA E2 E3 E4 E5 E6 E7 E8. rewrite Hbb in Hn. injection Hn as <- <- <-.
      unfold capat in E7. rewrite Nat.eqb_refl in E7. injection E7 as <-.
      assert (Hd' := Hd). unfold data in Hd'. rewrite Hbb in Hd'. cbn [node_data] in Hd'. destruct (Nat.eqb_spec val 0) as [|Hz]; [discriminate|].
      destruct (rs_r _ _ _ _ _ _ _ _ _ R1) as (nr1 & Er1 & _ & Lr1). rewrite (half_len _ _ _ Er1), Lr1 in E3. injection E3 as <-.
      replace lv with (val - rv)%nat by lia. apply P1; [eapply if_lits_mem; eauto; lia|lia|lia]. }
  assert (I3 : qinv GF GU gi capF ow1 st1) by (eapply qinv_cap; [exact I2|]; intros; discriminate).
  assert (Hsk : skel (t_nodes st1) = skel (t_nodes st)) by exact (e_skel _ _ _ _ X1).
  split; [|split; [|split]].
  - unfold set_nodes. apply qinv_resize; [destruct st1; exact I3|exact Hbb|]. intros p lp cl cr Hn.
    destruct (unit_same_skel _ (t_nodes st) _ _ _ _ (eq_sym Hsk) Hn) as (lp0 & Hn0 & _). destruct (Hp _ _ _ _ Hn0) as (A1 & A2). split; [auto|].
    intros E. destruct (A2 E) as (-> & A3). exists (length lits / 2)%nat, (length lits / 2)%nat. split; [auto|]. split; [|lia]. rewrite (half_len _ _ _ Hbb). reflexivity.
  - eapply ext0_trans; [apply ext0_of_ext; exact X1|]. constructor; cbn [set_nodes t_next t_cls]; auto; [lia|exists []; now rewrite app_nil_r].
  - cbn [set_nodes t_nodes]. replace (NL + NR / 2 - length lits)%nat with k by (subst k; lia). unfold skel in *. rewrite !map_upd. now rewrite Hsk.
  - intros j Hj Hne. cbn [set_nodes t_nodes]. rewrite nth_error_upd. destruct (Nat.eqb_spec bb j); [congruence|]. auto.
Qed.
