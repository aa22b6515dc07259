(** * Merging structures of the dynamic polynomial watchdog *)

From Coq Require Import List Bool NArith ZArith Lia Arith Sorted Permutation.
From Coq Require Import ZifyBool ZifyNat ZifyN.
From Verif Require Import Spec BoundSpec Types Atomics NodeDb TreeSpec TotDb Totalizer Maps Base TotDbInv TotDbUnit TotDbDefine TotDbGeneral TotDbBuild TotDbGrow TotDbMerge TotWeighted TotDbHist TotalizerProofs DbWorld Dpw DpwSpec DpwRef DpwBuild DpwBuckets DpwStruct DpwIf DpwInv DpwExtend DpwChain DpwLink DpwSem OptConv.
Import ListNotations.

Lemma chv_mono f z z' bc : (z <= z')%nat -> (chv f z bc <= chv f z' bc)%nat.
Proof.
  intros H. induction bc as [|(b & c) bc IH]; cbn [chv]; [lia|]. destruct bc; [lia|]. apply Nat.add_le_mono_l. now apply Nat.div_le_mono.
Qed.

Lemma NoDup_app_disj {A} (xs ys : list A) x : NoDup (xs ++ ys) -> In x xs -> ~ In x ys.
Proof.
  induction xs as [|y xs IH]; cbn [app]; intros H; [intros []|]. apply NoDup_cons_iff in H as (H1 & H2). intros [->|Hx] Hy; [|now apply IH].
  apply H1, in_or_app. now right.
Qed.

Lemma NoDup_app_r {A} (xs ys : list A) : NoDup (xs ++ ys) -> NoDup ys.
Proof. induction xs as [|x xs IH]; cbn [app]; [auto|]. intros H. apply NoDup_cons_iff in H as (_ & H). auto. Qed.

Definition rightof (fb : nat) (bc' : list (nat * nodecon)) : nodecon := match bc' with (b', _) :: _ => half b' | [] => half fb end.

Section Part.
Variables (D : list node) (g : ghost) (bc : list (nat * nodecon)) (fb : nat) (nfb : node).
Notation bs := (map fst bc).
Notation z := (node_len nfb / 2)%nat.
Hypothesis W : wf_shape D g.
Hypothesis ND : NoDup bs.
Hypothesis HR : nref bs D.
Hypothesis Hc : Forall (fun x => ucon D (snd x) /\ outside bs (snd x)) bc.
Hypothesis Hfb : ~ In fb bs.
Hypothesis Nfb : nth_error D fb = Some nfb.
Hypothesis Ufb : is_unitlike nfb.
Definition prk : nat -> nat := crk (length D) (rk0 D g bc).

Lemma sh_part S pend dn : bc = pend ++ dn -> length S = length D -> (forall j, ~ In j bs -> nth_error S j = nth_error D j) ->
  (forall pre b c bc', dn = pre ++ (b, c) :: bc' -> exists lits, nth_error S b = Some (NUnit lits c (rightof fb bc')) /\ length lits = chv (cmax D) z ((b, c) :: bc')) ->
  sh S prk (fun j => ~ In j (map fst pend)).
Proof.
  intros E Hlen Hsame Hdn id lits l r HC Hn.
  assert (Hlt : forall c, con_ok D c -> (nc_id c < length D)%nat) by (intros c (_ & n & En & _); eapply nth_error_lt; eauto).
  assert (Hpend : forall j, ~ In j bs -> ~ In j (map fst pend)) by (intros j Hj X; apply Hj; rewrite E, map_app; apply in_or_app; now left).
  assert (Cok : forall c, ~ In (nc_id c) bs -> con_ok D c -> con_ok S c) by (intros c O (P & n & En & L); split; [auto|]; exists n; split; [now rewrite Hsame|auto]).
  assert (Cl : forall c, ~ In (nc_id c) bs -> con_len S c = con_len D c) by (intros c O; unfold con_len; now rewrite Hsame).
  destruct (in_dec Nat.eq_dec id bs) as [Hin|Hout].
  - assert (Hd : In id (map fst dn)) by (rewrite E, map_app in Hin; apply in_app_or in Hin as [X|X]; [contradiction|auto]).
    apply map_fst_split in Hd as (pre & c & bc' & Ed). destruct (Hdn _ _ _ _ Ed) as (lits0 & Hn0 & Hl). rewrite Hn in Hn0. injection Hn0 as <- -> ->.
    assert (Eb : bc = (pend ++ pre) ++ (id, c) :: bc') by (rewrite E, Ed, app_assoc; reflexivity).
    assert (Hic : In (id, c) bc) by (rewrite Eb; apply in_or_app; right; now left).
    destruct (left_facts D bc Hc _ _ Hic) as (U & O). assert (U' := U). destruct U' as (G & M & nl & Enl & Ul). pose proof (con_good_ok _ _ G) as Pl.
    assert (Dl : is_dummy nl = false) by (destruct nl; cbn in Ul |- *; tauto). assert (Gl : is_general nl = false) by (destruct nl; cbn in Ul |- *; tauto).
    assert (Lrk : (prk (nc_id c) < prk id)%nat).
    { apply crk_mono; [now apply Hlt|]. rewrite (rk_out D g bc (nc_id c) O), (rk_in D g bc ND _ _ _ _ Eb). pose proof (wf_rk _ _ W _ (Hlt _ Pl)). lia. }
    assert (Right : con_ok S (rightof fb bc') /\ nc_mult (rightof fb bc') = 1%nat /\ (prk (nc_id (rightof fb bc')) < prk id)%nat /\ ~ In (nc_id (rightof fb bc')) (map fst pend) /\
      (exists nr, nth_error S (nc_id (rightof fb bc')) = Some nr /\ is_general nr = false) /\
      con_len S (rightof fb bc') = Some (match bc' with [] => z | _ => (chv (cmax D) z bc' / 2)%nat end)).
    { destruct bc' as [|(b' & c') bc']; cbn [rightof].
      - assert (Ns : nth_error S fb = Some nfb) by (rewrite Hsame; auto). assert (Lfb : (fb < length D)%nat) by (eapply nth_error_lt; eauto).
        split; [split; [unfold con_params, half; cbn; lia|]; exists nfb; cbn; split; [exact Ns|lia]|]. split; [reflexivity|]. cbn [half nc_id].
        split. { apply crk_mono; [auto|]. rewrite (rk_out D g bc fb Hfb), (rk_in D g bc ND _ _ _ _ Eb). pose proof (wf_rk _ _ W _ Lfb). lia. }
        split; [auto|]. split; [exists nfb; split; [auto|destruct nfb; cbn in Ufb |- *; tauto]|]. now rewrite (half_len _ _ _ Ns).
      - assert (Ed' : dn = (pre ++ [(id, c)]) ++ (b', c') :: bc') by (rewrite Ed, <- app_assoc; reflexivity).
        assert (Eb' : bc = (pend ++ pre ++ [(id, c)]) ++ (b', c') :: bc') by (rewrite E, Ed', app_assoc; reflexivity).
        destruct (Hdn _ _ _ _ Ed') as (lits1 & Hn1 & Hl1).
        split; [split; [unfold con_params, half; cbn; lia|]; eexists; cbn; split; [exact Hn1|lia]|]. split; [reflexivity|]. cbn [half nc_id].
        split. { apply crk_mono; [rewrite <- Hlen; eapply nth_error_lt; eauto|]. rewrite (rk_in D g bc ND _ _ _ _ Eb'), (rk_in D g bc ND _ _ _ _ Eb). cbn [length]. lia. }
        split. { intros X. rewrite E, Ed', !map_app in ND. apply (NoDup_app_disj _ _ b' ND X). apply in_or_app. right. now left. }
        split; [eexists; split; [exact Hn1|reflexivity]|]. rewrite (half_len _ _ _ Hn1). cbn [node_len]. now rewrite Hl1. }
    destruct Right as (R1 & R2 & R3 & R4 & (nr & R5 & R6) & R7).
    split; [now apply Cok|]. split; [exact R1|]. split; [exact M|]. split; [exact R2|]. split; [exact Lrk|]. split; [exact R3|]. split; [now apply Hpend|]. split; [exact R4|].
    split; [exists nl, nr; split; [now rewrite Hsame|]; auto|].
    exists (cmax D c). eexists. split; [rewrite Cl by auto; now apply ucon_con_len|]. split; [exact R7|]. rewrite Hl. cbn [chv]. reflexivity.
  - rewrite Hsame in Hn by auto. destruct (HR _ _ _ _ Hn eq_refl Hout) as (O1 & O2). pose proof (wf_node _ _ W _ _ Hn) as N. cbn [node_ok] in N.
    destruct N as (P1 & P2 & M1 & M2 & K1 & K2 & (nl & nr & E1 & E2 & X) & (ll & lr & L1 & L2 & L3) & _).
    assert (Lrk : forall c, ~ In (nc_id c) bs -> con_ok D c -> (grk g (nc_id c) < grk g id)%nat -> (prk (nc_id c) < prk id)%nat).
    { intros c O P L. apply crk_mono; [now apply Hlt|]. now rewrite !rk_out by auto. }
    split; [now apply Cok|]. split; [now apply Cok|]. split; [auto|]. split; [auto|]. split; [auto|]. split; [auto|]. split; [auto|]. split; [auto|].
    split; [exists nl, nr; rewrite !Hsame by auto; auto|]. exists ll, lr. rewrite !Cl by auto. auto.
Qed.
End Part.

Lemma split_uniq (l1 l2 l1' l2' : list (nat * nodecon)) b c c' : NoDup (map fst (l1 ++ (b, c) :: l2)) -> l1 ++ (b, c) :: l2 = l1' ++ (b, c') :: l2' -> l1 = l1' /\ c = c' /\ l2 = l2'.
Proof.
  revert l1'. induction l1 as [|(b0 & c0) l1 IH]; intros l1' ND E.
  - destruct l1' as [|x l1']; cbn [app] in E; [injection E as -> ->; auto|]. injection E as <- ->. exfalso. cbn [app map fst] in ND. apply NoDup_cons_iff in ND as (N & _).
    apply N. rewrite map_app. apply in_or_app. right. now left.
  - destruct l1' as [|x l1']; cbn [app] in E.
    + injection E as -> -> <-. exfalso. cbn [app map fst] in ND. apply NoDup_cons_iff in ND as (N & _). apply N. rewrite map_app. apply in_or_app. right. now left.
    + injection E as <- E. cbn [app map] in ND. apply NoDup_cons_iff in ND as (_ & ND). destruct (IH _ ND E) as (-> & -> & ->). auto.
Qed.

Lemma erase_unit_inv ns id lits l r : nth_error (skel ns) id = Some (NUnit lits l r) -> exists lits', nth_error ns id = Some (NUnit lits' l r) /\ length lits' = length lits.
Proof. intros H. apply (unit_same_skel (skel ns)); [symmetry; apply skel_idem|exact H]. Qed.

(** ** The loop that extends the bottom buckets, from the lowest one *)
Section Loop.
Variables (GF GU : cnf) (gi : N -> bool).
Variables (D : list node) (g : ghost) (bc : list (nat * nodecon)) (fb : nat) (nfb : node) (ns0 : list node).
Notation bs := (map fst bc).
Notation z := (node_len nfb / 2)%nat.
Notation cm := (cmax D).
Hypothesis W : wf_shape D g.
Hypothesis ND : NoDup bs.
Hypothesis HR : nref bs D.
Hypothesis Hc : Forall (fun x => ucon D (snd x) /\ outside bs (snd x)) bc.
Hypothesis Hfb : ~ In fb bs.
Hypothesis Nfb : nth_error D fb = Some nfb.
Hypothesis Ufb : is_unitlike nfb.
Hypothesis Hold : forall pre b c bc', bc = pre ++ (b, c) :: bc' -> exists lits, nth_error ns0 b = Some (NUnit lits c (rightof fb bc')) /\ length lits = chv cm 0 ((b, c) :: bc').

Definition capof (rp : list (nat * nodecon)) (orm : nat) : nat -> option nat := match rp with [] => nocap | (b, _) :: _ => capat b orm end.
Record loop (rp dn : list (nat * nodecon)) (st : tst) (ow : owner) (orm : nat) : Prop := mkLoop {
  lp_inv : qinv GF GU gi (capof rp orm) ow st;
  lp_len : length (t_nodes st) = length D;
  lp_out : forall j, ~ In j bs -> nth_error (skel (t_nodes st)) j = nth_error D j;
  lp_pend : forall j, In j (map fst rp) -> nth_error (t_nodes st) j = nth_error ns0 j;
  lp_done : forall pre b c bc', dn = pre ++ (b, c) :: bc' -> exists lits, nth_error (skel (t_nodes st)) b = Some (NUnit lits c (rightof fb bc')) /\ length lits = chv cm z ((b, c) :: bc');
  lp_orm : orm = match dn with [] => 0 | _ => (chv cm 0 dn / 2)%nat end
}.

Lemma loop_nodes rp dn st ow orm : bc = rev rp ++ dn -> loop rp dn st ow orm -> forall pre p cp bc', bc = pre ++ (p, cp) :: bc' ->
  exists lits, nth_error (t_nodes st) p = Some (NUnit lits cp (rightof fb bc')).
Proof.
  intros E L pre p cp bc' Ep. assert (Hp : In p bs) by (rewrite Ep, map_app; apply in_or_app; right; now left). rewrite E, map_app in Hp. apply in_app_or in Hp as [Hp|Hp].
  - destruct (Hold _ _ _ _ Ep) as (lits & Hn & _). exists lits. rewrite (lp_pend _ _ _ _ _ L); [auto|]. rewrite map_rev in Hp. now apply in_rev in Hp.
  - apply map_fst_split in Hp as (pre' & c' & bc2 & Ed). destruct (lp_done _ _ _ _ _ L _ _ _ _ Ed) as (lits & Hn & _).
    assert (X : pre ++ (p, cp) :: bc' = (rev rp ++ pre') ++ (p, c') :: bc2) by (rewrite <- Ep, E, Ed, app_assoc; reflexivity).
    apply split_uniq in X as (_ & -> & ->); [|now rewrite <- Ep]. apply erase_unit_inv in Hn as (lits' & Hn & _). eauto.
Qed.

Lemma loop_step b c rp dn st ow orm : bc = rev ((b, c) :: rp) ++ dn -> loop ((b, c) :: rp) dn st ow orm ->
  exists st' orm' ow', extend_bottom (st, orm) b = Some (st', orm') /\ loop rp ((b, c) :: dn) st' ow' orm' /\ ext0 ow st ow' st'.
Proof.
  intros E L. pose proof L as [I Hlen Hout Hpend Hdone Horm]. assert (E' : bc = rev rp ++ (b, c) :: dn) by (rewrite E; cbn [rev]; rewrite <- app_assoc; reflexivity).
  destruct (Hold _ _ _ _ E') as (lits & Hb0 & Hl). assert (Hb : nth_error (t_nodes st) b = Some (NUnit lits c (rightof fb dn))) by (rewrite Hpend by (now left); exact Hb0).
  assert (Hic : In (b, c) bc) by (rewrite E'; apply in_or_app; right; now left).
  destruct (left_facts D bc Hc _ _ Hic) as (U & O). assert (U' := U). destruct U' as ((Sc & Mc & nl & Enl & Dl & _) & M1 & nl' & Enl' & Ul). assert (nl' = nl) as -> by congruence.
  set (C := fun j => ~ In j (map fst (rev ((b, c) :: rp)))).
  assert (Cout : forall j, ~ In j bs -> C j) by (intros j Hj X; apply Hj; rewrite E, map_app; apply in_or_app; now left).
  set (x := match dn with (b', _) :: _ => b' | [] => fb end).
  set (NR := match dn with [] => node_len nfb | _ => chv cm z dn end).
  assert (Er : rightof fb dn = half x) by (subst x; destruct dn as [|(b' & c') dn']; reflexivity).
  assert (Cx : C x).
  { subst x C. destruct dn as [|(b' & c') dn']; cbn [rightof]; [apply Cout; auto|]. intros X. rewrite E, map_app in ND. apply (NoDup_app_disj _ _ b' ND X). now left. }
  assert (Rx : exists nr, nth_error (t_nodes st) x = Some nr /\ is_unitlike nr /\ node_len nr = NR).
  { subst x NR. destruct dn as [|(b' & c') dn'].
    - assert (X : nth_error (skel (t_nodes st)) fb = Some nfb) by (rewrite Hout; auto).
      exact (unitlike_same_skel (skel (t_nodes st)) (t_nodes st) fb nfb (eq_sym (skel_idem _)) X Ufb).
    - destruct (Hdone [] b' c' dn' eq_refl) as (lits' & Hn & Hl'). apply erase_unit_inv in Hn as (l2 & Hn & Hl2). eexists. split; [exact Hn|]. split; [exact Logic.I|]. cbn [node_len]. congruence. }
  assert (Lx : exists nl0, nth_error (t_nodes st) (nc_id c) = Some nl0 /\ is_unitlike nl0 /\ node_len nl0 = cm c).
  { assert (X : nth_error (skel (t_nodes st)) (nc_id c) = Some nl) by (rewrite Hout; auto).
    destruct (unitlike_same_skel (skel (t_nodes st)) (t_nodes st) _ nl (eq_sym (skel_idem _)) X Ul) as (n' & A1 & A2 & A3). exists n'. split; [auto|]. split; [auto|]. rewrite A3.
    pose proof (ucon_con_len D c U) as CL. unfold con_len in CL. rewrite Enl in CL. cbn [obind] in CL. destruct Sc as (S1 & S2 & S3). rewrite S1, S2, S3, Nat.sub_0_r, Nat.div_1_r in CL. congruence. }
  assert (R : ready_st (prk D g bc) C b lits c x (cm c) NR st).
  { constructor; [|intros j Hj; rewrite Hlen in *; pose proof (crk_lt (length D) (rk0 D g bc) j Hj); unfold prk; lia|now rewrite <- Er|exact Lx|exact Rx].
    apply (sh_skel (skel (t_nodes st))); [symmetry; apply skel_idem|]. eapply (sh_part D g bc fb nfb W ND HR Hc Hfb Nfb Ufb) with (dn := dn); [exact E|rewrite skel_length; exact Hlen|exact Hout|exact Hdone]. }
  assert (Hl1 : length lits = (cm c + orm)%nat) by (rewrite Hl, Horm; cbn [chv]; destruct dn; reflexivity).
  assert (Ho : (orm <= NR / 2)%nat).
  { rewrite Horm. subst NR. destruct dn as [|y dn']; [lia|]. apply Nat.div_le_mono; [lia|]. apply chv_mono. lia. }
  destruct (extend_bottom_q GF GU gi (prk D g bc) C ow st b lits c x orm (cm c) NR (capof rp (length lits / 2))) as (st' & ow' & X1 & X2 & X3 & X4 & X5); auto.
  - subst C. cbn [rev]. intros X. apply X. rewrite map_app. apply in_or_app. right. now left.
  - intros p lp cl cr Hp. destruct (in_dec Nat.eq_dec p bs) as [Hin|Hnin].
    + apply map_fst_split in Hin as (pre & cp & bc' & Ep). destruct (loop_nodes _ _ _ _ _ E L _ _ _ _ Ep) as (lits' & Hn). rewrite Hp in Hn. injection Hn as <- -> ->.
      assert (Hip : In (p, cp) bc) by (rewrite Ep; apply in_or_app; right; now left). destruct (left_facts D bc Hc _ _ Hip) as (_ & Op).
      split; [intros X; apply Op; rewrite X; now apply (in_map fst) in Hic|]. intros X. destruct bc' as [|(b' & c') bc']; cbn [rightof half nc_id] in X.
      * exfalso. apply Hfb. rewrite X. now apply (in_map fst) in Hic.
      * subst b'. split; [reflexivity|]. assert (Y : (pre ++ [(p, cp)]) ++ (b, c') :: bc' = rev rp ++ (b, c) :: dn) by (rewrite <- E', Ep, <- app_assoc; reflexivity).
        apply split_uniq in Y as (Y & _); [|rewrite <- app_assoc; cbn [app]; rewrite <- Ep; exact ND].
        assert (Z : rp = (p, cp) :: rev pre) by (rewrite <- (rev_involutive rp), <- Y, rev_app_distr; reflexivity). rewrite Z. cbn [capof]. unfold capat. now rewrite Nat.eqb_refl.
    + apply nth_skel in Hp. rewrite Hout in Hp by auto. cbn [erase] in Hp. destruct (HR _ _ _ _ Hp eq_refl Hnin) as (O1 & O2). apply (in_map fst) in Hic. cbn [fst] in Hic.
      split; [intros X; apply O1; now rewrite X|intros X; exfalso; apply O2; now rewrite X].
  - exists st', (length lits / 2)%nat, ow'. split; [exact X1|]. split; [|exact X3].
    assert (NDb : forall j, In j (map fst rp) -> j <> b).
    { intros j Hj ->. rewrite E', map_app in ND. apply (NoDup_app_disj _ _ b ND); [|now left]. rewrite map_rev. now apply in_rev in Hj. }
    assert (Hb' : In b bs) by (now apply (in_map fst) in Hic).
    assert (Nd : forall j, nth_error (skel (t_nodes st')) j = if (b =? j)%nat then match nth_error (skel (t_nodes st)) j with Some _ => Some (erase (NUnit (lits ++ repeat LNone (cm c + NR / 2 - length lits)) c (half x))) | None => None end else nth_error (skel (t_nodes st)) j).
    { intros j. rewrite X4. unfold skel. rewrite map_upd, nth_error_upd. reflexivity. }
    constructor.
    + exact X2.
    + rewrite <- (skel_length (t_nodes st')), X4, skel_length, upd_length. exact Hlen.
    + intros j Hj. rewrite Nd. destruct (Nat.eqb_spec b j) as [<-|_]; [contradiction|auto].
    + intros j Hj. rewrite X5; [apply Hpend; now right| |now apply NDb]. subst C. cbn beta. cbn [rev]. intros X. apply X. rewrite map_app, map_rev. apply in_or_app. left. now apply in_rev in Hj.
    + intros pre b1 c1 bc' Ed. destruct pre as [|y pre]; cbn [app] in Ed.
      * injection Ed as <- <- <-. rewrite Nd, Nat.eqb_refl. rewrite (nth_skel _ _ _ Hb). rewrite Er. eexists. split; [reflexivity|]. rewrite map_length, app_length, repeat_length.
        cbn [chv]. subst NR. destruct dn; lia.
      * injection Ed as <- Ed. destruct (Hdone _ _ _ _ Ed) as (l2 & Hn & Hl2). exists l2. split; [|auto]. rewrite Nd. destruct (Nat.eqb_spec b b1) as [<-|_]; [|auto]. exfalso.
        rewrite E', map_app in ND. apply NoDup_app_r in ND. cbn [map fst] in ND. apply NoDup_cons_iff in ND as (N & _). apply N. rewrite Ed, map_app. apply in_or_app. right. now left.
    + now rewrite Hl.
Qed.

Lemma loop_all rp : forall dn st ow orm, bc = rev rp ++ dn -> loop rp dn st ow orm ->
  exists st' orm' ow', foldM extend_bottom (map fst rp) (st, orm) = Some (st', orm') /\ loop [] bc st' ow' orm' /\ ext0 ow st ow' st'.
Proof.
  induction rp as [|(b & c) rp IH]; intros dn st ow orm E L; cbn [map fst foldM].
  - cbn [rev app] in E. subst dn. exists st, orm, ow. split; [auto|]. split; [auto|apply ext0_refl].
  - destruct (loop_step _ _ _ _ _ _ _ E L) as (st1 & orm1 & ow1 & E1 & L1 & X1). rewrite E1. cbn [obind].
    destruct (IH ((b, c) :: dn) st1 ow1 orm1) as (st2 & orm2 & ow2 & E2 & L2 & X2); [rewrite E; cbn [rev]; rewrite <- app_assoc; reflexivity|exact L1|].
    exists st2, orm2, ow2. split; [exact E2|]. split; [exact L2|eapply ext0_trans; eauto].
Qed.
End Loop.

Lemma chain_of_nodes ns rl bc : (forall pre b c bc', bc = pre ++ (b, c) :: bc' -> exists lits, nth_error ns b = Some (NUnit lits c (match bc' with (b', _) :: _ => half b' | [] => rl end))) -> chain ns bc rl.
Proof.
  induction bc as [|(b & c) bc IH]; intros H; cbn [chain]; [auto|]. split; [apply (H [] b c bc eq_refl)|]. apply IH. intros pre b' c' bc' E. apply (H ((b, c) :: pre)). now rewrite E.
Qed.

(** the nodes outside [B] keep their shape and their values *)
Record kept (B : list nat) (ns : list node) (g : ghost) (ns' : list node) (g' : ghost) : Prop := mkKept {
  kp_len : length ns' = length ns;
  kp_nth : forall j, ~ In j B -> nth_error (skel ns') j = nth_error (skel ns) j;
  kp_val : forall a j, ~ In j B -> gV g' a j = gV g a j;
  kp_gin : gin g' = gin g
}.

Lemma ucon_kept B ns g ns' g' c : kept B ns g ns' g' -> ucon ns c -> outside B c -> ucon ns' c /\ (forall a, cval g' a c = cval g a c) /\ cmax ns' c = cmax ns c.
Proof.
  intros K U O. assert (U1 : ucon (skel ns) c) by (eapply ucon_skel; [apply skel_idem|exact U]).
  assert (U2 : ucon (skel ns') c).
  { destruct U1 as ((S & M & n & En & X) & M1 & n1 & En1 & X1). split; [split; [auto|]; split; [auto|]; exists n; split; [now rewrite (kp_nth _ _ _ _ _ K)|auto]|]. split; [auto|]. exists n1. split; [now rewrite (kp_nth _ _ _ _ _ K)|auto]. }
  split; [eapply ucon_skel; [symmetry; apply skel_idem|exact U2]|]. split; [intros a; unfold cval; now rewrite (kp_val _ _ _ _ _ K)|].
  rewrite (cmax_skel (skel ns') ns' c) by (try (symmetry; apply skel_idem); apply U2). rewrite (cmax_skel (skel ns) ns c) by (try (symmetry; apply skel_idem); apply U1).
  unfold cmax. now rewrite (kp_nth _ _ _ _ _ K).
Qed.

Lemma kept_lookup B d g ns' g' : built g d -> inner B (d_nodes d) -> kept B (d_nodes d) g ns' g' -> lookup_ok (set_nodes_db d ns').
Proof.
  intros (_ & L1 & L2) IB K. assert (Nin : forall j n, nth_error (d_nodes d) j = Some n -> children n = None -> ~ In j B) by (intros j n Hn C X; destruct (IB _ X) as (m & x & Hm & Cm); congruence).
  split; cbn [set_nodes_db d_lookup d_dummy d_nodes].
  - intros l id H. apply L1 in H. pose proof (Nin _ _ H eq_refl) as O. apply nth_skel in H. rewrite <- (kp_nth _ _ _ _ _ K) in H by auto. apply nth_skel_inv in H as (m & Hm & E). destruct m; try discriminate. cbn [erase] in E. now rewrite E.
  - intros id H. apply L2 in H. pose proof (Nin _ _ H eq_refl) as O. apply nth_skel in H. rewrite <- (kp_nth _ _ _ _ _ K) in H by auto. apply nth_skel_inv in H as (m & Hm & E). destruct m; try discriminate. exact Hm.
Qed.

Lemma nref_kept B B1 ns g ns' g' : kept B ns g ns' g' -> nref (B ++ B1) ns -> nref (B ++ B1) ns'.
Proof.
  intros K H id n l r Hn C Hid. assert (O : ~ In id B) by (intros X; apply Hid, in_or_app; now left).
  apply nth_skel in Hn. rewrite (kp_nth _ _ _ _ _ K) in Hn by auto. apply nth_skel_inv in Hn as (m & Hm & E). eapply H; [exact Hm| |exact Hid].
  destruct n, m; try discriminate; cbn [erase children] in *; congruence.
Qed.

Lemma inner_kept B B1 ns g ns' g' : kept B ns g ns' g' -> (forall x, In x B1 -> ~ In x B) -> inner B1 ns -> inner B1 ns'.
Proof.
  intros K HB H b Hb. destruct (H b Hb) as (n & x & Hn & C). apply nth_skel in Hn. rewrite <- (kp_nth _ _ _ _ _ K) in Hn by auto. apply nth_skel_inv in Hn as (m & Hm & E).
  exists m, x. split; [auto|]. destruct n, m; try discriminate; cbn [erase children] in *; congruence.
Qed.

Lemma old_lens ns g bc du : wf_shape (skel ns) g -> nth_error ns du = Some NDummy -> chain ns bc (con_full du) -> Forall (fun x => ucon ns (snd x)) bc ->
  forall pre b c bc', bc = pre ++ (b, c) :: bc' -> exists lits, nth_error ns b = Some (NUnit lits c (match bc' with (b', _) :: _ => half b' | [] => con_full du end)) /\ length lits = chv (cmax ns) 0 ((b, c) :: bc').
Proof.
  intros W Hdu. induction bc as [|(b0 & c0) bc IH]; intros Ch F pre b c bc' E; [destruct pre; discriminate|].
  cbn [chain] in Ch. destruct Ch as ((lits & Hn) & Ch). apply Forall_cons_iff in F as (U & F). cbn [snd] in U. specialize (IH Ch F).
  destruct pre as [|y pre]; cbn [app] in E; [injection E as <- <- <-|injection E as <- E; now apply (IH pre)]. rename bc into bc'.
  exists lits. split; [exact Hn|]. destruct (wf_unit_lens _ _ _ _ _ _ W Hn) as (ll & lr & E1 & E2 & ->). rewrite (ucon_con_len _ _ U) in E1. injection E1 as <-. cbn [chv]. f_equal.
  destruct bc' as [|(b' & c') bc'].
  - unfold con_len in E2. cbn [con_full nc_id] in E2. rewrite Hdu in E2. injection E2 as <-. reflexivity.
  - destruct (IH [] b' c' bc' eq_refl) as (l2 & Hn2 & Hl2). rewrite (half_len _ _ _ Hn2) in E2. cbn [node_len] in E2. rewrite Hl2 in E2. congruence.
Qed.

Lemma extend_ok GF GU ow next next' B1 g d bc fb nfb : linked B1 g d bc -> bc <> [] -> qinv GF GU (gin g) nocap ow (mkTst (d_nodes d) next []) -> (next <= next')%N ->
  ~ In fb (map fst bc) -> nth_error (d_nodes d) fb = Some nfb -> is_unitlike nfb ->
  exists lb ns st' orm' ow' g', last_bottom (map fst bc) = Some lb /\ patch_right (d_nodes d) lb (mkCon fb 0 2 1 None) = Some ns /\
    foldM extend_bottom (rev (map fst bc)) (mkTst ns next' [], 0%nat) = Some (st', orm') /\
    qinv GF GU (gin g') nocap ow' st' /\ ext0 ow (mkTst ns next' []) ow' st' /\ built g' (set_nodes_db d (t_nodes st')) /\
    kept (map fst bc) (d_nodes d) g (t_nodes st') g' /\ chain (t_nodes st') bc (half fb) /\
    (forall pre b c bc', bc = pre ++ (b, c) :: bc' -> (forall a, gV g' a b = chv (cval g a) (gV g a fb / 2) ((b, c) :: bc')) /\
       exists lits r, nth_error (t_nodes st') b = Some (NUnit lits c r) /\ length lits = chv (cmax (d_nodes d)) (node_len nfb / 2) ((b, c) :: bc')).
Proof.
  intros [LB (_ & LND & (du & Hdu & LC) & LF) LR LR1 LI LO] Hne I Hnx Hfb Nfb Ufb. set (bs := map fst bc) in *.
  assert (Ndu : nth_error (d_nodes d) du = Some NDummy) by (apply LB; auto).
  assert (IBs : inner bs (d_nodes d)) by (eapply chain_inner; eauto).
  destruct (snoc_cases bc Hne) as (pre & (lb & lc) & Ebc).
  assert (Ebs : bs = map fst pre ++ [lb]) by (unfold bs; rewrite Ebc, map_app; reflexivity).
  assert (Hlb : In lb bs) by (rewrite Ebs; apply in_or_app; right; now left).
  assert (Npre : ~ In lb (map fst pre)) by (rewrite Ebs in LND; apply NoDup_remove_2 in LND; rewrite app_nil_r in LND; exact LND).
  assert (Elast : last_bottom bs = Some lb) by (rewrite Ebs; apply last_bottom_snoc).
  assert (Hold := old_lens (d_nodes d) g bc du (proj1 LB) Ndu LC (Forall_impl _ (fun x H => proj1 H) LF)).
  destruct (Hold pre lb lc [] Ebc) as (lits & Nlb & Llb).
  set (ns0 := upd lb (NUnit lits lc (half fb)) (d_nodes d)).
  assert (Ep : patch_right (d_nodes d) lb (mkCon fb 0 2 1 None) = Some ns0).
  { unfold patch_right. rewrite Nlb. cbn [obind con_full nc_id]. rewrite Ndu. reflexivity. }
  set (D := skel (d_nodes d)).
  assert (Cm : forall c, ucon (d_nodes d) c -> cmax D c = cmax (d_nodes d) c) by (intros c U; apply cmax_skel; [apply skel_idem|apply U]).
  assert (FD : Forall (fun x => ucon D (snd x) /\ outside bs (snd x)) bc).
  { eapply Forall_impl; [|exact LF]. intros x (U & O). split; [eapply ucon_skel; [apply skel_idem|exact U]|exact O]. }
  assert (CmE : forall z l, incl l bc -> chv (cmax D) z l = chv (cmax (d_nodes d)) z l).
  { intros z l Hl. apply chv_ext. intros x Hx. apply Cm. apply Hl in Hx. rewrite Forall_forall in LF. now apply LF. }
  destruct (unitlike_same_skel (d_nodes d) D fb nfb (skel_idem _) Nfb Ufb) as (nfb' & Nfb' & Ufb' & Lfb').
  assert (Ch0 : chain ns0 bc (half fb)) by (rewrite Ebc; unfold ns0; eapply chain_redirect; [rewrite <- Ebc; exact LC|exact Nlb|exact Npre]).
  assert (Hold0 : forall pre b c bc', bc = pre ++ (b, c) :: bc' -> exists lits, nth_error ns0 b = Some (NUnit lits c (rightof fb bc')) /\ length lits = chv (cmax D) 0 ((b, c) :: bc')).
  { intros pre0 b c bc' E. assert (Ch1 := Ch0). rewrite E in Ch1. apply chain_at in Ch1 as ((l1 & Hn1) & _). exists l1. split; [exact Hn1|].
    rewrite CmE by (rewrite E; intros x Hx; apply in_or_app; now right). destruct (Hold _ _ _ _ E) as (l2 & Hn2 & <-). unfold ns0 in Hn1. rewrite nth_error_upd in Hn1.
    destruct (Nat.eqb_spec lb b) as [<-|Hb]; [rewrite Nlb in Hn1; injection Hn1 as <- _ _|]; [rewrite Nlb in Hn2|rewrite Hn1 in Hn2]; congruence. }
  assert (Q0 : qinv GF GU (gin g) (capat lb 0) ow (mkTst ns0 next' [])).
  { apply (qinv_next _ _ _ _ _ _ next); [exact Hnx|]. unfold ns0. eapply qinv_patch; [exact I|exact Nlb|exact Ndu|reflexivity|unfold capat; now rewrite Nat.eqb_refl|]. intros j Hj. unfold capat, nocap. destruct (Nat.eqb_spec j lb); [contradiction|reflexivity]. }
  assert (Erev : rev bc = (lb, lc) :: rev pre) by (rewrite Ebc, rev_app_distr; reflexivity).
  assert (L0 : loop GF GU (gin g) D bc fb nfb' ns0 (rev bc) [] (mkTst ns0 next' []) ow 0).
  { constructor; cbn [t_nodes].
    - rewrite Erev. cbn [capof]. exact Q0.
    - unfold ns0, D. now rewrite upd_length, skel_length.
    - intros j Hj. apply skel_nth_eq. unfold ns0. rewrite nth_error_upd. destruct (Nat.eqb_spec lb j) as [<-|]; [contradiction|reflexivity].
    - auto.
    - intros p b c bc' E. destruct p; discriminate.
    - reflexivity. }
  destruct (loop_all GF GU (gin g) D g bc fb nfb' ns0 (proj1 LB) LND (nref_skel _ _ LR) FD Hfb Nfb' Ufb' Hold0 (rev bc) [] _ _ _ ltac:(rewrite rev_involutive, app_nil_r; reflexivity) L0) as (st' & orm' & ow' & E1 & L1 & X1).
  rewrite map_rev in E1. destruct L1 as [I1 Hlen1 Hout1 _ Hdone1 _]. cbn [capof] in I1.
  assert (Hlen1' : length (t_nodes st') = length (d_nodes d)) by (rewrite Hlen1; apply skel_length).
  assert (Ch1 : chain (t_nodes st') bc (half fb)).
  { apply chain_of_nodes. intros p b c bc' E. destruct (Hdone1 _ _ _ _ E) as (l1 & Hn1 & _). apply erase_unit_inv in Hn1 as (l2 & Hn2 & _). exists l2. exact Hn2. }
  destruct (rechain_db (d_nodes d) (t_nodes st') g bc (half fb) (proj1 LB) LND LR Hlen1' Hout1 Ch1 LF) as (g' & W' & Gi & Vo & Vi).
  { split; [unfold con_params, half; cbn; lia|]. split; [reflexivity|]. split; [exact Hfb|]. exists nfb. split; [exact Nfb|]. split; [destruct nfb; cbn in Ufb |- *; tauto|cbn; lia]. }
  { intros b c ls r Hic Hn. apply in_split in Hic as (p & bc' & E). destruct (Hdone1 _ _ _ _ E) as (l1 & Hn1 & Hl1). apply nth_skel in Hn. rewrite Hn in Hn1. cbn [erase] in Hn1. injection Hn1 as <- ->. rewrite map_length in Hl1.
    assert (Hic : In (b, c) bc) by (rewrite E; apply in_or_app; right; now left). rewrite Forall_forall in FD. destruct (FD _ Hic) as (U & O). cbn [snd] in U, O.
    exists (cmax D c). rewrite <- !(con_len_skel (t_nodes st')). unfold con_len at 1. rewrite Hout1 by exact O. fold (con_len D c). rewrite (ucon_con_len _ _ U).
    destruct bc' as [|(b' & c') bc']; cbn [rightof].
    - assert (Ns : nth_error (skel (t_nodes st')) fb = Some nfb') by (rewrite Hout1; auto). rewrite (half_len _ _ _ Ns). eexists. split; [reflexivity|]. split; [reflexivity|]. cbn [chv] in Hl1. exact Hl1.
    - assert (E' : bc = (p ++ [(b, c)]) ++ (b', c') :: bc') by (rewrite <- app_assoc; exact E). destruct (Hdone1 _ _ _ _ E') as (l2 & Hn2 & Hl2). rewrite (half_len _ _ _ Hn2). eexists. split; [reflexivity|]. split; [reflexivity|]. cbn [node_len]. rewrite Hl2. exact Hl1. }
  assert (K : kept bs (d_nodes d) g (t_nodes st') g') by (constructor; auto).
  exists lb, ns0, st', orm', ow', g'. split; [exact Elast|]. split; [exact Ep|]. split; [exact E1|]. split; [rewrite Gi; exact I1|]. split; [exact X1|].
  split; [split; [exact W'|eapply kept_lookup; eauto]|]. split; [exact K|]. split; [exact Ch1|].
  intros p b c bc' E. split; [intros a; rewrite (Vi a p b c bc' E), half_map; reflexivity|].
  destruct (Hdone1 _ _ _ _ E) as (l1 & Hn1 & Hl1). apply erase_unit_inv in Hn1 as (l2 & Hn2 & Hl2). exists l2. eexists. split; [exact Hn2|]. rewrite Hl2, Hl1, Lfb'. apply CmE. rewrite E. intros x Hx. apply in_or_app. now right.
Qed.

(** ** Numbers *)
Lemma chv_hsum f z bc : bc <> [] -> chv f z bc = ((hsum f bc + z) / 2 ^ (length bc - 1))%nat.
Proof.
  induction bc as [|(b & c) bc IH]; intros H; [contradiction|]. cbn [chv hsum length]. replace (S (length bc) - 1)%nat with (length bc) by lia.
  destruct bc as [|y bc]; [cbn [length hsum Nat.pow]; rewrite Nat.div_1_r; lia|]. rewrite IH by discriminate. set (bc1 := y :: bc) in *.
  assert (Hl : (1 <= length bc1)%nat) by (subst bc1; cbn; lia). rewrite (div_step _ _ _ Hl). f_equal. lia.
Qed.

Lemma tv_split b lo mid hi : (lo <= mid)%nat -> (mid <= hi)%nat -> (tv b lo mid + tv b mid hi = tv b lo hi)%nat.
Proof.
  intros H1 H2. induction hi as [|hi IH].
  - replace mid with 0%nat by lia. reflexivity.
  - destruct (Nat.eq_dec mid (S hi)) as [->|Hne]; [rewrite (tv_low _ (S hi) (S hi)) by lia; lia|]. specialize (IH ltac:(lia)). cbn [tv]. replace (mid <=? hi)%nat with true by lia. replace (lo <=? hi)%nat with true by lia. lia.
Qed.

Lemma tv_shift b k i m : (tv b (k + m) (i + m) = 2 ^ m * tv (fun j => b (j + m)) k i)%nat.
Proof.
  induction i as [|i IH]; cbn [Nat.add].
  - rewrite tv_low by lia. cbn [tv]. lia.
  - cbn [tv]. rewrite IH. replace (k + m <=? i + m)%nat with (k <=? i)%nat by lia. destruct (k <=? i)%nat; rewrite ?Nat.pow_add_r; [|lia].
    clear. generalize (2 ^ i)%nat (2 ^ m)%nat (b (i + m)%nat) (tv (fun j => b (j + m)%nat) k i). intros. lia.
Qed.

Lemma hsum_bits (f : nodecon -> nat) (val : lit -> nat) us : forall ex, Forall2 (fun t x => f (snd x) = val t) (rev us) ex ->
  hsum f ex = tv (fun j => match nth_error us j with Some t => val t | None => 0 end)%nat 0 (length us) /\ length ex = length us.
Proof.
  induction us as [|u us IH] using rev_ind; intros ex H.
  - inversion H. split; reflexivity.
  - rewrite rev_app_distr in H. cbn [rev app] in H. inversion H as [|t x ts ex' H1 H2 E1 E2]. subst. destruct x as (b & c). cbn [snd] in H1. destruct (IH _ H2) as (A1 & A2).
    rewrite app_length. cbn [length hsum]. rewrite A2. split; [|lia]. rewrite Nat.add_1_r. cbn [tv Nat.leb]. rewrite nth_error_app2, Nat.sub_diag by lia. cbn [nth_error]. rewrite H1, A1.
    rewrite Nat.add_comm. f_equal. apply tv_ext. intros j Hj. rewrite nth_error_app1 by lia. reflexivity.
Qed.

Lemma merge_value b (k p nt bt k' V S : nat) (H : nat) (HB : nat) (X : nat) : (k <= p)%nat -> (k' <= nt)%nat ->
  (V + tv (fun j => b (j + (nt + bt))) k p = 2 ^ k * HB)%nat ->
  (H = 2 ^ (bt + k) * HB + tv (fun j => b (j + nt)) 0 (bt + k))%nat -> (X = S + tv b k' nt)%nat ->
  (2 ^ nt * H + X = 2 ^ (nt + bt) * V + S + tv b k' (nt + bt + p))%nat.
Proof.
  intros Hk Hk' E1 E2 E3.
  assert (E4 : (2 ^ bt * (2 ^ k * HB) = 2 ^ bt * V + tv (fun j => b (j + nt)) (bt + k) (bt + p))%nat).
  { rewrite <- E1, Nat.mul_add_distr_l. f_equal. rewrite (Nat.add_comm bt k), (Nat.add_comm bt p), tv_shift. f_equal. apply tv_ext. intros j _. f_equal. lia. }
  assert (E5 : (H = 2 ^ bt * V + tv (fun j => b (j + nt)) 0 (bt + p))%nat).
  { rewrite E2, Nat.pow_add_r, <- Nat.mul_assoc, E4. rewrite <- (tv_split _ 0 (bt + k) (bt + p)) by lia. lia. }
  assert (E6 : (2 ^ nt * tv (fun j => b (j + nt)) 0 (bt + p) = tv b nt (nt + bt + p))%nat).
  { pose proof (tv_shift b 0 (bt + p) nt) as Ts. cbn [Nat.add] in Ts. rewrite <- Ts. f_equal. lia. }
  rewrite E5, E3, Nat.mul_add_distr_l, E6, Nat.mul_assoc, <- Nat.pow_add_r. rewrite <- (tv_split b k' nt (nt + bt + p)) by lia. lia.
Qed.

Lemma merge_root H X p bt nt : (1 <= nt)%nat -> ((H + X / 2 ^ (nt - 1) / 2) / 2 ^ (p + bt) = (2 ^ nt * H + X) / 2 ^ (nt + bt + p))%nat.
Proof.
  intros Hn. rewrite Nat.div_div by (try apply Nat.pow_nonzero; lia). replace (2 ^ (nt - 1) * 2)%nat with (2 ^ nt)%nat by (replace nt with (S (nt - 1)) at 1 by lia; cbn [Nat.pow]; lia).
  assert (P : (2 ^ nt <> 0)%nat) by (apply Nat.pow_nonzero; lia).
  replace (nt + bt + p)%nat with (nt + (p + bt))%nat by lia. rewrite (Nat.pow_add_r 2 nt (p + bt)). rewrite <- Nat.div_div by (try apply Nat.pow_nonzero; lia).
  f_equal. rewrite Nat.add_comm, (Nat.mul_comm (2 ^ nt)). rewrite (Nat.add_comm (H * 2 ^ nt)). rewrite Nat.div_add by auto. reflexivity.
Qed.

Lemma tares_from_app next i j : tares_from next i ++ tares_from (next + N.of_nat i) j = tares_from next (i + j).
Proof.
  unfold tares_from. rewrite seq_app, map_app. f_equal. cbn [Nat.add]. apply nth_error_ext. intros n.
  rewrite !nth_error_map.
  destruct (Nat.lt_ge_cases n j) as [L|L].
  - rewrite !(nth_error_nth' _ 0%nat) by (rewrite seq_length; lia). rewrite !seq_nth by lia. cbn [option_map]. do 2 f_equal. lia.
  - rewrite !(proj2 (nth_error_None _ _)) by (rewrite seq_length; lia). reflexivity.
Qed.

(** ** Building a structure keeps the dummy node *)
Section Dummy.
Context (srt : list node -> list nodecon -> list nodecon).

Lemma distribute_dummy prec fuel : forall d tops q d' tops' q', distribute fuel prec d tops q = Some (d', tops', q') -> d_dummy d' = d_dummy d.
Proof.
  induction fuel as [|fuel IH]; intros d tops q d' tops' q' H; cbn [distribute] in H.
  - destruct q as [|(w & cs) q]; [now injection H as <- _ _|]. destruct (w <? prec)%nat; [now injection H as <- _ _|discriminate].
  - destruct q as [|(w & cs) q]; [now injection H as <- _ _|]. destruct (w <? prec)%nat; [now injection H as <- _ _|].
    apply obind_some in H as ((d1 & r) & E & H). destruct r as [con|]; [|discriminate]. apply obind_some in H as (u & _ & H). apply obind_some in H as (tops1 & _ & H).
    apply IH in H. apply merge_balanced_dummy in E. congruence.
Qed.

Lemma add_bucket_dummy tp tares n more du d bs o x d' bs' o' : d_dummy d = Some du -> add_bucket srt tp tares n more (d, bs, o) x = Some (d', bs', o') -> d_dummy d' = Some du.
Proof.
  intros Hd. unfold add_bucket. destruct x as (idx & cs). intros H. apply obind_some in H as (((d1 & cs1) & ht) & E1 & H).
  assert (H1 : d_dummy d1 = Some du).
  { destruct (tp && (idx =? n - 1)%nat); [now injection E1 as <- _ _|]. apply obind_some in E1 as (t & _ & E1). destruct (db_insert d (NLeaf t)) as (d0 & id) eqn:Ei. injection E1 as <- _ _. apply insert_leaf_dummy in Ei. congruence. }
  apply obind_some in H as ((d2 & r) & E2 & H). apply merge_balanced_dummy in E2. destruct r as [con|]; [|discriminate]. destruct bs as [|last bs].
  - apply obind_some in H as (len & _ & H). destruct (ht && (len =? 1)%nat); [injection H as <- _ _; congruence|]. apply obind_some in H as (u & _ & H).
    destruct more; [|injection H as <- _ _; congruence]. destruct (db_insert d2 NDummy) as (d3 & dm) eqn:Ei. apply obind_some in H as (nd & En & H).
    destruct (db_insert d3 nd) as (d4 & bt) eqn:Ej. injection H as <- _ _. cbn [db_insert] in Ei. rewrite E2, H1 in Ei. injection Ei as <- <-.
    pose proof (node_internal_children _ _ _ _ En) as C. rewrite (insert_children _ _ _ _ C) in Ej. injection Ej as <- _. cbn [d_dummy]. congruence.
  - apply obind_some in H as (nd & En & H). destruct (db_insert d2 nd) as (d4 & bt) eqn:Ej. injection H as <- _ _.
    pose proof (node_internal_children _ _ _ _ En) as C. rewrite (insert_children _ _ _ _ C) in Ej. injection Ej as <- _. cbn [d_dummy]. congruence.
Qed.

Lemma add_buckets_dummy tp tares n more du xs : forall d bs o d' bs' o', d_dummy d = Some du -> foldM (add_bucket srt tp tares n more) xs (d, bs, o) = Some (d', bs', o') -> d_dummy d' = Some du.
Proof.
  induction xs as [|x xs IH]; intros d bs o d' bs' o' Hd H; [injection H as <- _ _; exact Hd|]. cbn [foldM] in H. apply obind_some in H as (((d1 & bs1) & o1) & E & H).
  eapply IH; [|exact H]. eapply add_bucket_dummy; eauto.
Qed.

Lemma build_dummy tp q prec d next st d' q' next' du : build_structure srt tp q prec d next = Some (st, d', q', next') -> d_dummy d = Some du -> d_dummy d' = Some du.
Proof.
  unfold build_structure. intros H Hd. destruct q as [|(maxw & cs) q]; [discriminate|]. apply obind_some in H as (u & _ & H). apply obind_some in H as (((d1 & tops) & q1) & E1 & H).
  apply distribute_dummy in E1. destruct (tp && (digits maxw =? 1)%nat).
  - apply obind_some in H as (cs1 & _ & H). apply obind_some in H as (u1 & _ & H). apply obind_some in H as (con & _ & H). apply obind_some in H as (u2 & _ & H). injection H as _ <- _ _. congruence.
  - apply obind_some in H as (u1 & _ & H). apply obind_some in H as (((d2 & bs) & o) & E2 & H). injection H as _ <- _ _. eapply add_buckets_dummy; [|exact E2]. congruence.
Qed.
End Dummy.

Lemma chain_app ns x b c y rl : chain ns x (half b) -> chain ns ((b, c) :: y) rl -> chain ns (x ++ (b, c) :: y) rl.
Proof.
  induction x as [|(b0 & c0) x IH]; intros H1 H2; cbn [app]; [exact H2|]. cbn [chain] in H1. destruct H1 as ((lits & Hn) & H1). cbn [chain]. split; [|auto].
  exists lits. destruct x as [|(b1 & c1) x]; exact Hn.
Qed.

Lemma chain_growd vs d g d' g' bc rl : growd vs d g d' g' -> chain (d_nodes d) bc rl -> chain (d_nodes d') bc rl.
Proof. intros ((new & E & _) & _) H. rewrite E. now apply chain_app_nodes. Qed.

Lemma chain_kept B ns g ns' g' bc rl : kept B ns g ns' g' -> (forall b, In b (map fst bc) -> ~ In b B) -> chain ns bc rl -> chain ns' bc rl.
Proof.
  intros K. induction bc as [|(b & c) bc IH]; intros HB H; [exact H|]. cbn [chain] in *. destruct H as ((lits & Hn) & H). split; [|apply IH; [intros; apply HB; now right|auto]].
  apply nth_skel in Hn. rewrite <- (kp_nth _ _ _ _ _ K) in Hn by (apply HB; now left). cbn [erase] in Hn. apply erase_unit_inv in Hn as (l2 & Hn & _). eauto.
Qed.

Lemma chain_moved vs B d g d' g' bc rl : moved vs B d g d' g' -> inner (map fst bc) (d_nodes d) -> (forall b, In b (map fst bc) -> ~ In b B) -> chain (d_nodes d) bc rl -> chain (d_nodes d') bc rl.
Proof.
  intros M. induction bc as [|(b & c) bc IH]; intros HI HB H; [exact H|]. cbn [chain] in *. destruct H as ((lits & Hn) & H). split; [|apply IH; [intros x Hx; apply HI; now right|intros; apply HB; now right|auto]].
  exists lits. rewrite (mv_nth _ _ _ _ _ _ M); [auto|eapply nth_error_lt; eauto|apply HB; now left].
Qed.

(** ** The structure while weights are left in the queue *)
Record crep (g : ghost) (d : db) (st : structure) (V : asg -> nat) (W k : nat) (bc : list (nat * nodecon)) : Prop := mkCrep {
  cr_chain : chain_ok d bc (sr_bottoms st);
  cr_nref : nref (sr_bottoms st) (d_nodes d);
  cr_k : (k <= sr_power st)%nat;
  cr_len : length bc = (S (sr_power st) - k)%nat;
  cr_dv : forall a, Nat.divide (2 ^ k) (V a);
  cr_dw : Nat.divide (2 ^ k) W;
  cr_v : forall a, (V a + tv (bit a (sr_tares st)) k (sr_power st) = 2 ^ k * hsum (cval g a) bc)%nat;
  cr_w : (W + tv (fun _ => 1) k (sr_power st) = 2 ^ k * hsum (cmax (d_nodes d)) bc)%nat
}.

Lemma qok_map ns ns' q : qok ns q -> (forall w cs c, In (w, cs) q -> In c cs -> ucon ns c -> ucon ns' c) -> qok ns' q.
Proof.
  intros [H1 H2] H. constructor; [|auto]. rewrite Forall_forall in *. intros (w & cs) Hin. destruct (H1 _ Hin) as (A & B & C). split; [auto|]. split; [auto|]. cbn [snd] in *.
  unfold uok in *. rewrite Forall_forall in *. intros c Hc. eapply H; eauto.
Qed.

Lemma qok_ucon ns q w cs c : qok ns q -> In (w, cs) q -> In c cs -> ucon ns c.
Proof. intros [H _] Hin Hc. rewrite Forall_forall in H. destruct (H _ Hin) as (_ & _ & U). unfold uok in U. rewrite Forall_forall in U. now apply U. Qed.

Lemma skipn_len_app {A} (xs ys : list A) n : length xs = n -> skipn n (xs ++ ys) = ys.
Proof. intros <-. rewrite skipn_app, skipn_all, Nat.sub_diag. reflexivity. Qed.

Lemma links_dummy du ts : forall d bs d' bs', foldM link_tare ts (d, bs) = Some (d', bs') -> d_dummy d = Some du -> d_dummy d' = Some du.
Proof.
  induction ts as [|t ts IH]; intros d bs d' bs' H Hd; [injection H as <- _; exact Hd|]. cbn [foldM] in H. apply obind_some in H as ((dd & bb) & E & H). eapply IH; [exact H|]. clear H IH.
  unfold link_tare in E. cbn [db_insert] in E. rewrite Hd in E. destruct (lookup_lit (d_lookup d) t); cbv beta iota zeta in E.
  all: apply obind_some in E as (nd & En & E); pose proof (node_internal_children _ _ _ _ En) as C; rewrite (insert_children _ _ _ _ C) in E; apply obind_some in E as (x1 & _ & E); apply obind_some in E as (x2 & _ & E); injection E as <- _; exact Hd.
Qed.

Section Merge.
Context (srt : list node -> list nodecon -> list nodecon).
Context (Hsrt : forall ns l, Permutation (srt ns l) l).

Lemma merge_ok GF GU ow next g d st q V W k bc s s' maxw cs0 q0 :
  built g d -> qinv GF GU (gin g) nocap ow (mkTst (d_nodes d) next []) -> qok (d_nodes d) q -> q = (maxw, cs0) :: q0 ->
  (2 ^ s' <= maxw)%nat -> (maxw < 2 ^ s)%nat -> sr_prec st = (2 ^ s)%nat -> crep g d st V W k bc ->
  Forall (fun e => Forall (outside (sr_bottoms st)) (snd e)) q -> (forall t, In t (sr_tares st) -> (lvar t < next)%N /\ ow (lvar t) = None) ->
  exists top d1 q' next1 st' d' cs next' ow' g',
    build_structure srt false q (2 ^ s') d next = Some (top, d1, q', next1) /\ merge_structures st top d1 next1 = Some (st', d', cs, next') /\
    (s' <= s)%nat /\ sr_prec st' = (2 ^ s')%nat /\ sr_tares st' = tares_from next (s - s') ++ sr_tares st /\
    built g' d' /\ qinv GF GU (gin g') nocap ow' (mkTst (d_nodes d') next' cs) /\ (next + N.of_nat (s - s') <= next')%N /\
    (forall v x, ow v = Some x -> ow' v = Some x) /\ (forall v x, ow' v = Some x -> ow v = Some x \/ (next + N.of_nat (s - s') <= v < next')%N) /\
    (forall v, gin g' v = true -> gin g v = true \/ In v (map lvar (sr_tares st'))) /\
    (sem_all (d_nodes d) -> sem_all (d_nodes d')) /\
    qok (d_nodes d') q' /\ (forall e, In e q' -> (fst e < 2 ^ s')%nat) /\
    (forall s'', (s'' <= s')%nat ->
       (forall a, qsum (cval g a) s'' q = 2 ^ (s' - s'') * qsum (cval g a) s' q + qsum (cval g' a) s'' q')%nat /\
       qsum (cmax (d_nodes d)) s'' q = (2 ^ (s' - s'') * qsum (cmax (d_nodes d)) s' q + qsum (cmax (d_nodes d')) s'' q')%nat) /\
    shape g' (d_nodes d') st' (fun a => 2 ^ (s - s') * V a + qsum (cval g a) s' q)%nat (2 ^ (s - s') * W + qsum (cmax (d_nodes d)) s' q)%nat /\
    (q' <> [] -> (exists k' bc', crep g' d' st' (fun a => 2 ^ (s - s') * V a + qsum (cval g a) s' q)%nat (2 ^ (s - s') * W + qsum (cmax (d_nodes d)) s' q)%nat k' bc') /\
       Forall (fun e => Forall (outside (sr_bottoms st')) (snd e)) q').
Proof.
  intros B I Q Eq Hmx Hlt Hsp [CC CR Ck CL CV CW Cv Cw] HQ HT. set (bs := sr_bottoms st) in *. set (T := sr_tares st) in *. set (p := sr_power st) in *.
  destruct CC as (Ebs & NDb & (du & Hdu & Ch) & Fc).
  assert (IB : inner bs (d_nodes d)) by (rewrite <- Ebs; eapply chain_inner; eauto).
  assert (HP : prec_ok (2 ^ s') s') by (now left).
  destruct (build_gen srt Hsrt false bs g d q maxw cs0 q0 (2 ^ s') s' next B Q Eq HP Hmx CR IB HQ) as (top & d1 & q' & g1 & E1 & B1 & G1 & P1 & T1 & L1 & Q1 & Low & Hs' & Spl & fb & frest & k' & nfb & Ebt & Nfb & Ufb & Hk' & Dv & Dw & Vf & Xf & R1 & Ofb & More).
  rewrite Nat.sub_0_r in L1. set (nt := length (sr_tares top)) in *.
  assert (Hm1 : (1 <= maxw)%nat) by (pose proof (pow2_pos s'); lia).
  assert (Hdig : (digits maxw <= s)%nat). { unfold digits. assert (Nat.log2 maxw < s)%nat by (apply Nat.log2_lt_pow2; lia). lia. }
  assert (Hnt : (1 <= nt)%nat) by (rewrite L1; unfold digits; lia).
  assert (Hk'' : (k' <= nt)%nat) by (rewrite L1; lia).
  set (bt := (s - digits maxw)%nat). assert (HD : (s - s' = nt + bt)%nat) by (subst bt; rewrite L1; unfold digits in *; lia).
  assert (Hss : (s' <= s)%nat) by (unfold digits in *; lia).
  pose (next1 := (next + N.of_nat nt)%N).
  (* the database after building *)
  assert (Hdu1 : d_dummy d1 = Some du) by (eapply build_dummy; eauto).
  set (B1l := match q' with [] => [] | _ => sr_bottoms top end).
  assert (Len1 : (length (d_nodes d) <= length (d_nodes d1))%nat) by (destruct G1 as ((new & E & _) & _); rewrite E, app_length; lia).
  assert (HB1 : inner B1l (d_nodes d1) /\ nref (bs ++ B1l) (d_nodes d1) /\ Forall (fun b => (length (d_nodes d) <= b)%nat) B1l).
  { subst B1l. destruct q' as [|e q']; [split; [intros ? []|]; split; [now rewrite app_nil_r|constructor]|]. destruct (More ltac:(discriminate)) as (bct & (A1 & A2 & (du' & A3 & A4) & A5) & A6 & A7 & A8 & _). rewrite Ebt.
    split; [rewrite <- A1; eapply chain_inner; eauto|]. split; [|exact A7]. eapply nref_eq; [|exact A8]. intros x. rewrite !in_app_iff. tauto. }
  destruct HB1 as (IB1 & NR1 & GB1). rewrite Forall_forall in GB1.
  assert (DisB : forall x, In x B1l -> ~ In x bs) by (intros x Hx X; apply GB1 in Hx; pose proof (inner_lt _ _ _ IB X); lia).
  assert (Lk : linked B1l g1 d1 bc).
  { rewrite <- Ebs in *. constructor; auto.
    - split; [reflexivity|]. split; [auto|]. split; [exists du; split; [auto|eapply chain_growd; eauto]|]. eapply Forall_impl; [|exact Fc]. intros x (U & O). split; [eapply ucon_growd; eauto|auto].
    - eapply Forall_impl; [|exact Fc]. intros x (U & O) X. apply GB1 in X. apply ucon_lt in U. lia. }
  assert (Hne : bc <> []) by (intros ->; cbn [length] in CL; lia).
  (* the new variables *)
  assert (Hge : forall v, (next <= v)%N -> ow v = None). { intros v Hv. destruct (ow v) as [(i & j)|] eqn:E; [|reflexivity]. apply (q_ow _ _ _ _ _ _ I) in E. cbn [t_next] in E. lia. }
  assert (I1 : qinv GF GU (gin g1) nocap ow (mkTst (d_nodes d1) (next1 + N.of_nat bt) [])).
  { eapply qinv_growd; [exact (proj1 B)|eapply qinv_next; [|exact I]; unfold next1; lia|exact B1|exact G1|].
    intros v Hv. rewrite T1 in Hv. fold nt in Hv. unfold tares_from in Hv. rewrite map_map in Hv. apply in_map_iff in Hv as (i & <- & Hi). apply in_seq in Hi. cbn [pos lvar]. split; [unfold next1; lia|apply Hge; lia]. }
  set (new := tares_from next1 bt).
  assert (Lnew : length new = bt) by (subst new; apply tares_from_length).
  assert (LT : length T = p) by reflexivity.
  set (us := firstn (bt + k) (new ++ T)).
  assert (Eus : us = new ++ firstn k T). { subst us. rewrite firstn_app, Lnew, firstn_all2 by lia. do 2 f_equal. lia. }
  assert (Lus : length us = (bt + k)%nat) by (rewrite Eus, app_length, Lnew, firstn_length, LT; lia).
  destruct (links_ok GF GU ow (next1 + N.of_nat bt)%N B1l (rev us) g1 d1 bc Lk Hne I1) as (d2 & ex & g2 & E2 & Lk2 & I2 & M2 & Fex & Vex).
  { intros t Ht. apply in_rev in Ht. rewrite Eus in Ht. apply in_app_or in Ht as [Ht|Ht].
    - subst new. unfold tares_from in Ht. apply in_map_iff in Ht as (i & <- & Hi). apply in_seq in Hi. cbn [pos lvar]. split; [lia|apply Hge; unfold next1; lia].
    - assert (Hin : In t T) by (rewrite <- (firstn_skipn k T); apply in_or_app; now left). destruct (HT t Hin). split; [unfold next1; lia|auto]. }
  { rewrite Ebs. exact DisB. }
  rewrite Ebs in E2, M2. set (bcx := bc ++ ex) in *.
  assert (Lex : length ex = (bt + k)%nat). { destruct (hsum_bits (cmax (d_nodes d2)) (fun _ => 1%nat) us ex) as (_ & H); [|lia]. clear - Vex. induction Vex as [|x y xs ys (_ & H) _ IH]; constructor; auto. }
  assert (Lbcx : length bcx = (p + 1 + bt)%nat) by (subst bcx; rewrite app_length, CL, Lex; lia).
  pose proof (mv_len _ _ _ _ _ _ M2) as Len2.
  assert (Exid : forall x, In x (map fst ex) -> (length (d_nodes d1) <= x)%nat). { intros x Hx. apply in_map_iff in Hx as (y & <- & Hy). rewrite Forall_forall in Fex. now apply Fex. }
  assert (Ebx : map fst bcx = bs ++ map fst ex) by (subst bcx; rewrite map_app, Ebs; reflexivity).
  assert (Lfb : (fb < length (d_nodes d1))%nat) by (eapply nth_error_lt; eauto).
  assert (Onew : forall x, (x < length (d_nodes d1))%nat -> ~ In x bs -> ~ In x (map fst bcx)). { intros x Hx O X. rewrite Ebx in X. apply in_app_or in X as [X|X]; [auto|]. apply Exid in X. lia. }
  assert (Hfb2 : ~ In fb (map fst bcx)) by (apply Onew; auto).
  assert (Nfb2 : nth_error (d_nodes d2) fb = Some nfb) by (rewrite (mv_nth _ _ _ _ _ _ M2); auto).
  assert (Hne2 : bcx <> []) by (intros X; rewrite X in Lbcx; cbn in Lbcx; lia).
  destruct (extend_ok GF GU ow (next1 + N.of_nat bt) (next1 + N.of_nat bt) B1l g2 d2 bcx fb nfb Lk2 Hne2 I2 (N.le_refl _) Hfb2 Nfb2 Ufb) as (lb & ns & st3 & orm & ow3 & g3 & E3 & E4 & E5 & I3 & X3 & B3 & K3 & Ch3 & V3).
  set (d3 := set_nodes_db d2 (t_nodes st3)) in *.
  set (st' := mkStr (map fst bcx ++ sr_bottoms top) (sr_tares top ++ new ++ T) (2 ^ s')).
  assert (Em : merge_structures st top d1 next1 = Some (st', d3, t_cls st3, t_next st3)).
  { unfold merge_structures. fold nt bs T. rewrite Hsp, P1. replace (1 <=? nt)%nat with true by lia.
    replace (2 ^ s' * 2 ^ (nt - 1) <=? 2 ^ s)%nat with true by (symmetry; apply Nat.leb_le; rewrite <- Nat.pow_add_r; apply Nat.pow_le_mono_r; lia).
    cbn [andb assertb obind]. replace (2 ^ s' =? 0)%nat with false by (pose proof (pow2_pos s'); lia). cbn [negb assertb obind].
    assert (Ebw : (digits (2 ^ s / (2 ^ s' * 2 ^ nt)) - 1 = bt)%nat).
    { rewrite <- Nat.pow_add_r. replace (2 ^ s)%nat with (2 ^ bt * 2 ^ (s' + nt))%nat by (rewrite <- Nat.pow_add_r; f_equal; lia). rewrite Nat.div_mul by (apply Nat.pow_nonzero; lia).
      unfold digits. rewrite Nat.log2_pow2 by lia. lia. }
    rewrite Ebw. change (map (fun i => pos (next1 + N.of_nat i)) (seq 0 bt)) with new.
    assert (Lbs : length bs = (S p - k)%nat) by (rewrite <- Ebs, map_length; exact CL).
    fold p in LT. rewrite Lbs, LT. replace (S p - k - 1 <=? p + bt)%nat with true by lia. cbn [assertb obind].
    rewrite (skipn_len_app (sr_tares top)) by reflexivity. replace (p + bt - (S p - k - 1))%nat with (bt + k)%nat by lia. fold us. rewrite E2. cbn [obind].
    rewrite map_length, Lbcx, !app_length, Lnew, LT. fold nt. replace (p + 1 + bt =? nt + (bt + p) - nt + 1)%nat with true by lia. cbn [assertb obind].
    rewrite E3. cbn [obind]. unfold sr_root. rewrite Ebt. cbn [nth_error obind]. rewrite E4. cbn [obind]. rewrite E5. cbn [obind fst]. unfold st'. rewrite Ebt. reflexivity. }
  assert (Tst : sr_tares st' = tares_from next (s - s') ++ T).
  { cbn [st' sr_tares]. rewrite app_assoc. f_equal. rewrite HD, <- tares_from_app. fold next1. rewrite T1 at 1. reflexivity. }
  assert (Pst : sr_power st' = (nt + bt + p)%nat) by (unfold sr_power; rewrite Tst, app_length, tares_from_length, HD, LT; lia).
  (* connections keep their values *)
  assert (Tr : forall c, ucon (d_nodes d1) c -> outside bs c -> ucon (d_nodes d3) c /\ (forall a, cval g3 a c = cval g1 a c) /\ cmax (d_nodes d3) c = cmax (d_nodes d1) c).
  { intros c U O. destruct (ucon_moved _ _ _ _ _ _ _ M2 U O) as (U2 & V2 & X2). assert (O2 : outside (map fst bcx) c) by (apply Onew; [now apply ucon_lt|exact O]).
    destruct (ucon_kept _ _ _ _ _ _ K3 U2 O2) as (U3 & V4 & X4). cbn [d3 set_nodes_db d_nodes]. split; [exact U3|]. split; [intros a; now rewrite V4|congruence]. }
  assert (Q3 : qok (d_nodes d3) q' /\ (forall sx, (forall a, qsum (cval g3 a) sx q' = qsum (cval g1 a) sx q') /\ qsum (cmax (d_nodes d3)) sx q' = qsum (cmax (d_nodes d1)) sx q')).
  { assert (Oq : forall w cs c, In (w, cs) q' -> In c cs -> outside bs c).
    { intros w cs c Hw Hc. destruct q' as [|e q']; [destruct Hw|]. destruct (More ltac:(discriminate)) as (bct & _ & _ & _ & _ & A & _). rewrite Forall_forall in A. specialize (A _ Hw). rewrite Forall_forall in A. specialize (A _ Hc). cbn [snd] in A.
      intros X. apply A. apply in_or_app. now right. }
    assert (Uq : forall w cs c, In (w, cs) q' -> In c cs -> ucon (d_nodes d1) c) by (intros; eapply qok_ucon; eauto).
    split; [eapply qok_map; [exact Q1|]; intros w cs c Hw Hc _; apply Tr; eauto|]. intros sx. split; [intros a|]; apply qsum_ext; intros w cs c Hw Hc; apply Tr; eauto. }
  destruct Q3 as (Q3 & QS3).
  (* values along the chain *)
  assert (Hval : forall f f2 fT bf, (forall x, In x bc -> f2 (snd x) = f (snd x)) -> Forall2 (fun t x => f2 (snd x) = fT t) (rev us) ex ->
            (forall j t, nth_error (sr_tares st') j = Some t -> bf j = fT t) -> hsum f2 bcx = (2 ^ (bt + k) * hsum f bc + tv (fun j => bf (j + nt)) 0 (bt + k))%nat).
  { intros f f2 fT bf Hf HF Hb. subst bcx. rewrite hsum_app. destruct (hsum_bits _ _ _ _ HF) as (-> & _). rewrite Lex, Lus, (hsum_ext f2 f bc Hf). f_equal. apply tv_ext. intros j Hj.
    assert (Hn : nth_error us j = nth_error (sr_tares st') (j + nt)).
    { cbn [st' sr_tares]. rewrite nth_error_app2 by (fold nt; lia). fold nt. replace (j + nt - nt)%nat with j by lia. subst us.
      rewrite <- (firstn_skipn (bt + k) (new ++ T)) at 2. symmetry. rewrite nth_error_app1; [reflexivity|]. rewrite Lus. lia. }
    destruct (nth_error us j) as [t|] eqn:Et; [symmetry; apply Hb; now symmetry|]. apply nth_error_None in Et. lia. }
  assert (LF : forall x, In x bc -> ucon (d_nodes d1) (snd x) /\ outside bs (snd x)).
  { intros x Hx. rewrite Forall_forall in Fc. destruct (Fc _ Hx) as (U & O). split; [eapply ucon_growd; eauto|exact O]. }
  assert (LFg : forall x, In x bc -> (forall a, cval g2 a (snd x) = cval g a (snd x)) /\ cmax (d_nodes d2) (snd x) = cmax (d_nodes d) (snd x)).
  { intros x Hx. destruct (LF _ Hx) as (U & O). destruct (ucon_moved _ _ _ _ _ _ _ M2 U O) as (_ & V2 & X2). rewrite Forall_forall in Fc. destruct (Fc _ Hx) as (U0 & _). apply ucon_lt in U0.
    split; [intros a; rewrite V2; eapply cval_growd; eauto|rewrite X2; eapply cmax_growd; eauto]. }
  assert (HvA : forall a, hsum (cval g2 a) bcx = (2 ^ (bt + k) * hsum (cval g a) bc + tv (fun j => bit a (sr_tares st') (j + nt)) 0 (bt + k))%nat).
  { intros a. apply (Hval (cval g a) (cval g2 a) (fun t => if lit_true a t then 1 else 0)%nat (bit a (sr_tares st'))); [intros x Hx; now apply LFg| |intros j t Hj; unfold bit; now rewrite Hj].
    clear - Vex. induction Vex as [|x y xs ys (H & _) _ IH]; constructor; auto. }
  assert (HvM : hsum (cmax (d_nodes d2)) bcx = (2 ^ (bt + k) * hsum (cmax (d_nodes d)) bc + tv (fun j => (fun _ => 1) (j + nt)) 0 (bt + k))%nat).
  { apply (Hval (cmax (d_nodes d)) (cmax (d_nodes d2)) (fun _ => 1%nat) (fun _ => 1%nat)); [intros x Hx; now apply LFg| |auto]. clear - Vex. induction Vex as [|x y xs ys (_ & H) _ IH]; constructor; auto. }
  set (V' := fun a => (2 ^ (s - s') * V a + qsum (cval g a) s' q)%nat). set (W' := (2 ^ (s - s') * W + qsum (cmax (d_nodes d)) s' q)%nat).
  assert (Tot : forall a, (2 ^ nt * hsum (cval g2 a) bcx + (qsum (cval g a) s' q + tv (bit a (sr_tares top)) k' nt) = V' a + tv (bit a (sr_tares st')) k' (nt + bt + p))%nat).
  { intros a. unfold V'. rewrite HD. eapply (merge_value (bit a (sr_tares st')) k p nt bt k'); [exact Ck|exact Hk''| |apply HvA|].
    - rewrite <- Cv. f_equal. apply tv_ext. intros j Hj. unfold bit. rewrite Tst. rewrite nth_error_app2 by (rewrite tares_from_length, HD; lia). rewrite tares_from_length, HD. rewrite Nat.add_sub. reflexivity.
    - f_equal. apply tv_ext. intros j Hj. unfold bit. cbn [st' sr_tares]. rewrite nth_error_app1; [reflexivity|]. fold nt. lia. }
  assert (TotM : (2 ^ nt * hsum (cmax (d_nodes d2)) bcx + (qsum (cmax (d_nodes d)) s' q + tv (fun _ => 1) k' nt) = W' + tv (fun _ => 1) k' (nt + bt + p))%nat).
  { unfold W'. rewrite HD. eapply (merge_value (fun _ => 1%nat) k p nt bt k'); [exact Ck|exact Hk''|exact Cw|exact HvM|reflexivity]. }
  assert (DvV : forall a, Nat.divide (2 ^ k') (V' a)).
  { intros a. apply Nat.divide_add_r; [|apply Dv]. apply Nat.divide_mul_l. exists (2 ^ (s - s' - k'))%nat. rewrite <- Nat.pow_add_r. f_equal. clear - HD Hk''. lia. }
  assert (DvW : Nat.divide (2 ^ k') W').
  { apply Nat.divide_add_r; [|apply Dw]. apply Nat.divide_mul_l. exists (2 ^ (s - s' - k'))%nat. rewrite <- Nat.pow_add_r. f_equal. clear - HD Hk''. lia. }
  assert (Hdg : (digits maxw - s' - 1 = nt - 1)%nat) by (rewrite L1; reflexivity).
  exists top, d1, q', next1, st', d3, (t_cls st3), (t_next st3), ow3, g3.
  split; [exact E1|]. split; [exact Em|]. split; [exact Hss|]. split; [reflexivity|]. split; [exact Tst|]. split; [exact B3|].
  split; [destruct st3; exact I3|].
  assert (Hnx : (next1 + N.of_nat bt = next + N.of_nat (s - s'))%N) by (clear - HD; unfold next1; lia).
  split. { pose proof (z_next _ _ _ _ X3) as Z. cbn [t_next] in Z. clear - Z Hnx. lia. }
  split; [exact (z_ow _ _ _ _ X3)|].
  split. { intros v x Hv. apply (z_new _ _ _ _ X3) in Hv. cbn [t_next] in Hv. destruct Hv as [Hv|Hv]; [now left|right; clear - Hv Hnx; lia]. }
  split. { intros v Hv. rewrite (kp_gin _ _ _ _ _ K3) in Hv. apply (mv_gin _ _ _ _ _ _ M2) in Hv. cbn [st' sr_tares]. rewrite !map_app.
    destruct Hv as [Hv|Hv]; [destruct G1 as (_ & _ & G); apply G in Hv as [Hv|Hv]; [now left|right; apply in_or_app; now left]|].
    right. apply in_or_app. right. rewrite <- map_app. apply in_map_iff in Hv as (t & <- & Ht). apply in_map. apply in_rev in Ht. rewrite <- (firstn_skipn (bt + k) (new ++ T)). apply in_or_app. now left. }
  split. { intros Hs. apply (growd_sem _ _ _ _ _ G1) in Hs. apply (data_sub_sem _ (d_nodes d2)) in Hs; [|exact (mv_data _ _ _ _ _ _ M2)].
    apply (data_sub_sem _ _ (patch_sub _ _ _ _ E4)) in Hs. exact (extend_bottoms_sem _ _ _ E5 Hs). }
  split; [exact Q3|]. split; [exact Low|].
  split. { intros sx Hsx. destruct (Spl sx Hsx) as (S1 & S2). destruct (QS3 sx) as (S3 & S4). split; [intros a; rewrite S1, S3; reflexivity|rewrite S2, S4; reflexivity]. }
  split.
  { (* the root *)
    assert (Ex : exists root c bcx', bcx = (root, c) :: bcx') by (clear - Hne2; destruct bcx as [|(root & c) bcx']; [now destruct Hne2|eauto]). destruct Ex as (root & c & bcx' & Ex). destruct (V3 [] root c bcx' Ex) as (Vr & lits & r & Nr & Lr).
    exists root, (map fst bcx' ++ sr_bottoms top), k', (NUnit lits c r). split; [cbn [st' sr_bottoms]; rewrite Ex; reflexivity|]. split; [exact Nr|]. split; [exact Logic.I|]. rewrite Pst. split; [clear - Hk''; lia|]. split; [exact DvV|]. split; [exact DvW|].
    rewrite <- Ex in Vr, Lr. split.
    - intros a. rewrite Vr, (chv_hsum _ _ _ Hne2), Lbcx. rewrite (mv_val _ _ _ _ _ _ M2) by auto. rewrite Vf, Hdg. replace (p + 1 + bt - 1)%nat with (p + bt)%nat by (clear; lia). rewrite merge_root by exact Hnt. now rewrite Tot.
    - cbn [node_max_val]. rewrite Lr, (chv_hsum _ _ _ Hne2), Lbcx. replace (node_len nfb) with (node_max_val nfb) by (destruct nfb; cbn in Ufb |- *; tauto). rewrite Xf, Hdg. replace (p + 1 + bt - 1)%nat with (p + bt)%nat by (clear; lia). rewrite merge_root by exact Hnt. now rewrite TotM. }
  intros Hq'. destruct (More Hq') as (bct & (A1 & A2 & (du' & A3 & A4) & A5) & A6 & A7 & A8 & A9 & A10 & A11 & A12).
  assert (EB1 : B1l = sr_bottoms top) by (subst B1l; destruct q'; [contradiction|reflexivity]). rewrite Ebt in EB1.
  assert (du' = du) as -> by congruence.
  assert (Dt : forall b, In b (map fst bct) -> ~ In b (map fst bcx)). { intros b Hb. apply Onew; [eapply inner_lt; [eapply chain_inner; exact A4|exact Hb]|]. apply DisB. rewrite EB1, <- A1. exact Hb. }
  assert (Lct : length bct = (nt - k')%nat) by (rewrite A10, L1; lia).
  assert (Ht1 : forall x, In x bct -> ucon (d_nodes d1) (snd x) /\ outside bs (snd x) /\ outside (map fst bct) (snd x)).
  { intros x Hx. rewrite Forall_forall in A5, A6. destruct (A5 _ Hx) as (U & O). rewrite A1. split; [exact U|]. split; [exact (A6 _ Hx)|exact O]. }
  assert (Hx3 : forall x, In x bcx -> ucon (d_nodes d3) (snd x) /\ (forall a, cval g3 a (snd x) = cval g2 a (snd x)) /\ cmax (d_nodes d3) (snd x) = cmax (d_nodes d2) (snd x) /\ outside (map fst bcx) (snd x) /\ outside (map fst bct) (snd x)).
  { intros x Hx. destruct (lk_chain _ _ _ _ Lk2) as (_ & _ & _ & F). rewrite Forall_forall in F. destruct (F _ Hx) as (U & O). destruct (ucon_kept _ _ _ _ _ _ K3 U O) as (U3 & V4 & X4).
    split; [exact U3|]. split; [exact V4|]. split; [exact X4|]. split; [exact O|]. pose proof (lk_out _ _ _ _ Lk2) as F2. rewrite Forall_forall in F2. rewrite A1, <- EB1. now apply F2. }
  assert (Hdu3 : d_dummy d3 = Some du) by (cbn [d3 set_nodes_db d_dummy]; exact (links_dummy _ _ _ _ _ _ E2 Hdu1)).
  split.
  - exists k', (bcx ++ bct). assert (Emap : map fst (bcx ++ bct) = sr_bottoms st') by (cbn [st' sr_bottoms]; rewrite map_app, A1, Ebt; reflexivity).
    constructor.
    + rewrite <- Emap. split; [reflexivity|]. split. { rewrite map_app. apply NoDup_app_intro; [apply (lk_chain _ _ _ _ Lk2)|rewrite A1; exact A2|]. intros x Hx Hy. exact (Dt x Hy Hx). }
      split.
      * exists du. split; [exact Hdu3|]. destruct bct as [|(b0 & c0) bct']; [discriminate A1|]. assert (b0 = fb) as -> by (cbn in A1; congruence).
        apply chain_app; [exact Ch3|]. cbn [d3 set_nodes_db d_nodes]. eapply chain_kept; [exact K3|exact Dt|]. eapply chain_moved; [exact M2|eapply chain_inner; exact A4| |exact A4]. intros b Hb. apply DisB. rewrite EB1, <- A1. exact Hb.
      * apply Forall_app. rewrite !Forall_forall. split; intros x Hx.
        -- destruct (Hx3 x Hx) as (U & _ & _ & O1 & O2). split; [exact U|]. intros X. rewrite map_app in X. apply in_app_or in X as [X|X]; auto.
        -- destruct (Ht1 x Hx) as (U & O1 & O2). destruct (Tr _ U O1) as (U3 & _). split; [exact U3|]. intros X. rewrite map_app in X. apply in_app_or in X as [X|X]; [|auto]. exact (Onew _ (ucon_lt _ _ U) O1 X).
    + rewrite <- Emap, map_app. cbn [d3 set_nodes_db d_nodes]. eapply nref_kept; [exact K3|]. rewrite A1, <- EB1. apply (lk_nref1 _ _ _ _ Lk2).
    + rewrite Pst. clear - Hk''. lia.
    + rewrite app_length, Lbcx, Lct, Pst. clear - Hk''. lia.
    + exact DvV.
    + exact DvW.
    + intros a. rewrite Pst, hsum_app, Lct. rewrite (hsum_ext (cval g3 a) (cval g2 a) bcx) by (intros x Hx; now apply Hx3). rewrite (hsum_ext (cval g3 a) (cval g1 a) bct) by (intros x Hx; apply Tr; now apply Ht1).
      fold (V' a). rewrite <- Tot. specialize (A11 a). fold nt in A11. rewrite A11. rewrite Nat.mul_add_distr_l, Nat.mul_assoc, <- Nat.pow_add_r. replace (k' + (nt - k'))%nat with nt by (clear - Hk''; lia). reflexivity.
    + rewrite Pst, hsum_app, Lct. rewrite (hsum_ext (cmax (d_nodes d3)) (cmax (d_nodes d2)) bcx) by (intros x Hx; now apply Hx3). rewrite (hsum_ext (cmax (d_nodes d3)) (cmax (d_nodes d1)) bct) by (intros x Hx; apply Tr; now apply Ht1).
      fold W'. rewrite <- TotM. fold nt in A12. rewrite A12. rewrite Nat.mul_add_distr_l, Nat.mul_assoc, <- Nat.pow_add_r. replace (k' + (nt - k'))%nat with nt by (clear - Hk''; lia). reflexivity.
  - cbn [st' sr_bottoms]. rewrite Ebt. rewrite Forall_forall in A9 |- *. intros (w & cs) Hw. specialize (A9 _ Hw). cbn [snd] in *. rewrite Forall_forall in A9 |- *. intros c Hc. specialize (A9 _ Hc).
    pose proof (qok_ucon _ _ _ _ _ Q1 Hw Hc) as U. intros X. apply in_app_or in X as [X|X]; [|apply A9, in_or_app; now left]. revert X. apply Onew; [now apply ucon_lt|]. intros X. apply A9, in_or_app. now right.
Qed.
End Merge.
