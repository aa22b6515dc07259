(** * Correctness of [define_unweighted] *)

From Coq Require Import List Bool NArith ZArith Lia Arith.
From Coq Require Import ZifyBool ZifyNat ZifyN.
From Verif Require Import Spec Types Atomics AtomicsProofs NodeDb TotDb Base TotDbInv TotDbUnit.
Import ListNotations.

Section D.
Variables GF GU GL : cnf.
Variable g : ghost.
Notation Inv := (inv GF GU GL g).

Definition defined (st : tst) (ow : owner) (id val : nat) (sem : semantics) (l : lit) (st' : tst) (ow' : owner) : Prop :=
  Inv ow' st' /\ ext ow st ow' st' /\ lit_has (t_nodes st') id val sem l /\
  (forall j, (grk g id < grk g j)%nat -> nth_error (t_nodes st') j = nth_error (t_nodes st) j).

Lemma unitlike_same_skel ns ns' id n : skel ns' = skel ns -> nth_error ns id = Some n -> is_unitlike n ->
  exists n', nth_error ns' id = Some n' /\ is_unitlike n' /\ node_len n' = node_len n.
Proof.
  intros E H U. destruct (node_same_skel _ _ _ _ E H) as (n' & Hn' & He). exists n'. split; [auto|].
  split; [|rewrite <- node_len_erase, He; apply node_len_erase].
  destruct n, n'; cbn in *; try tauto; discriminate.
Qed.

(** a list of calls on nodes of smaller rank *)
Lemma calls_ok (call : tst -> nat -> nat -> semantics -> option (lit * tst)) rank calls ow st :
  Inv ow st ->
  (forall ow s i x sm, In (i, x, sm) calls -> Inv ow s -> skel (t_nodes s) = skel (t_nodes st) ->
     exists l s' ow', call s i x sm = Some (l, s') /\ defined s ow i (x + 1) sm l s' ow') ->
  (forall i x sm, In (i, x, sm) calls -> (grk g i < rank)%nat) ->
  exists st' ow', foldM (fun s '(i, x, sm) => do r <- call s i x sm; Some (snd r)) calls st = Some st' /\
    Inv ow' st' /\ ext ow st ow' st' /\
    (forall i x sm, In (i, x, sm) calls -> exists l, lit_has (t_nodes st') i (x + 1) sm l) /\
    (forall j, (rank <= grk g j)%nat -> nth_error (t_nodes st') j = nth_error (t_nodes st) j).
Proof.
  intros I Hcall Hrk.
  destruct (foldM_ind (fun s '(i, x, sm) => do r <- call s i x sm; Some (snd r))
    (fun done s' => exists ow', Inv ow' s' /\ ext ow st ow' s' /\
       (forall i x sm, In (i, x, sm) done -> exists l, lit_has (t_nodes s') i (x + 1) sm l) /\
       (forall j, (rank <= grk g j)%nat -> nth_error (t_nodes s') j = nth_error (t_nodes st) j)) calls st) as (st' & E & ow' & H).
  - exists ow. split; [auto|]. split; [apply ext_refl|]. split; [intros ? ? ? []|auto].
  - intros done [[i x] sm] s' (rest & Hl) (ow1 & I1 & E1 & D1 & R1).
    assert (Hin : In (i, x, sm) calls) by (rewrite Hl; apply in_or_app; right; now left).
    destruct (Hcall ow1 s' i x sm Hin I1 (e_skel _ _ _ _ E1)) as (l & s2 & ow2 & Ec & I2 & E2 & L2 & R2).
    exists s2. rewrite Ec. cbn [obind snd]. split; [reflexivity|]. exists ow2.
    split; [auto|]. split; [eapply ext_trans; eauto|]. split.
    + intros i' x' sm' H. apply in_app_or in H as [H|[H|[]]].
      * destruct (D1 _ _ _ H) as (l' & Hl'). exists l'. eapply lit_has_ext; eauto.
      * injection H as <- <- <-. eauto.
    + intros j Hj. rewrite R2; [apply R1; auto|]. pose proof (Hrk _ _ _ Hin). lia.
  - exists st', ow'. auto.
Qed.

Lemma slice_of_lits ns id n val sl : (exists l sem, lit_has ns id val sem l) -> nth_error ns id = Some n -> is_unitlike n ->
  lit_slice ns id = Some sl -> forall l sem, lit_has ns id val sem l -> slice_lit sl (val - 1) = Some l.
Proof.
  intros _ Hn Hu Hs l sem H. destruct (lit_has_slice _ _ _ _ _ H) as (sl' & E & S); [eauto|]. congruence.
Qed.

Theorem define_unweighted_ok : forall fuel st ow id idx sem n,
  Inv ow st -> nth_error (t_nodes st) id = Some n -> is_unitlike n -> (idx < node_len n)%nat -> (grk g id < fuel)%nat ->
  exists l st' ow', define_unweighted fuel st id idx sem = Some (l, st') /\ defined st ow id (idx + 1) sem l st' ow'.
Proof.
  induction fuel as [|f IH]; intros st ow id idx sem n I Hn Hu Hidx Hf; [lia|].
  cbn [define_unweighted]. unfold precond_unweighted. rewrite Hn. cbn [obind].
  assert (Hmv : (idx <? node_max_val n)%nat = true).
  { destruct n; cbn in *; try lia; tauto. }
  rewrite Hmv. cbn [assertb obind]. destruct n as [l|lits lcon rcon|?|]; cbn in Hu; try tauto.
  - (* leaf *)
    cbn [node_len] in Hidx. replace (idx =? 0)%nat with true by lia. cbn [assertb obind].
    exists l, st, ow. split; [reflexivity|]. split; [auto|]. split; [apply ext_refl|]. split; [|auto].
    left. split; [auto|lia].
  - (* unit node *)
    cbn [node_len] in Hidx.
    destruct (child_facts _ _ _ _ _ _ _ _ _ _ I Hn) as (nl & nr & ll & lr & El & Er & Gl & Gr & Dd & Ml & Mr & Rl & Rr & CL & CR & Len & HV & HT & Bl & Br & Al & Ar & Nl & Nr & Dl & Dr).
    rewrite El, Er. cbn [obind]. rewrite Gl, Gr, Ml, Mr. cbn [negb andb Nat.eqb assertb obind].
    destruct (nth_error lits idx) as [dat|] eqn:Hd; [|apply nth_error_None in Hd; lia]. cbn [obind].
    destruct (ld_missing dat sem) as [new|] eqn:Emiss.
    2:{ destruct dat as [|l s]; [discriminate|]. cbn [obind].
      exists l, st, ow. split; [reflexivity|]. split; [auto|]. split; [apply ext_refl|]. split; [|auto].
      right. exists s. split; [|apply ld_missing_none with (l := l); auto].
      unfold data. rewrite Hn. cbn [node_data]. replace (idx + 1 =? 0)%nat with false by lia.
      replace (idx + 1 - 1)%nat with idx by lia. auto. }
    destruct (ld_missing_some _ _ _ Emiss) as (Mif & Moif).
    destruct (is_dummy nl || is_dummy nr) eqn:Edum.
    + (* passthrough *)
      set (con := if is_dummy nl then rcon else lcon).
      set (rn := if is_dummy nl then nr else nl).
      set (L := (ll + lr)%nat).
      assert (Hreal : is_dummy rn = false) by (subst rn; destruct (is_dummy nl) eqn:?; destruct Dd; congruence).
      assert (Hcon : nth_error (t_nodes st) (nc_id con) = Some rn) by (subst con rn; destruct (is_dummy nl); auto).
      assert (Hgen : is_general rn = false) by (subst rn; destruct (is_dummy nl); auto).
      assert (Hrkc : (grk g (nc_id con) < grk g id)%nat) by (subst con; destruct (is_dummy nl); auto).
      assert (Hadj : forall w v, (1 <= w <= L)%nat -> (w <= nc_map con v <-> nc_rev_map con w <= v)%nat).
      { subst con L. destruct (is_dummy nl) eqn:E1; intros w v Hw.
        - apply Ar. rewrite (Dl eq_refl) in Hw. lia.
        - apply Al. destruct (is_dummy nr) eqn:E2; [|discriminate]. rewrite (Dr eq_refl) in Hw. lia. }
      assert (Hrange : forall w, (1 <= w <= L)%nat -> (1 <= nc_rev_map con w <= node_len rn)%nat).
      { subst con L rn. destruct (is_dummy nl) eqn:E1; intros w Hw.
        - apply Nr. rewrite (Dl eq_refl) in Hw. lia.
        - apply Nl. destruct (is_dummy nr) eqn:E2; [|discriminate]. rewrite (Dr eq_refl) in Hw. lia. }
      assert (HVc : forall a, gV g a id = nc_map con (gV g a (nc_id con))).
      { intros a. rewrite HV. pose proof (Bl a). pose proof (Br a). subst con. destruct (is_dummy nl) eqn:E1.
        - rewrite (Dl eq_refl) in *. lia.
        - destruct (is_dummy nr) eqn:E2; [|discriminate]. rewrite (Dr eq_refl) in *. lia. }
      fold rn. rewrite Hreal. cbn [negb assertb obind]. fold con.
      specialize (Hrange (idx + 1)%nat ltac:(subst L; lia)). specialize (fun v => Hadj (idx + 1)%nat v ltac:(subst L; lia)).
      destruct (IH st ow (nc_id con) (con_idx idx con) sem rn I Hcon (unitlike_of _ Hgen Hreal)) as (ilit & st1 & ow1 & E1 & I1 & X1 & L1 & R1).
      { unfold con_idx. lia. } { lia. }
      rewrite E1. cbn [obind].
      replace (con_idx idx con + 1)%nat with (nc_rev_map con (idx + 1)) in L1 by (unfold con_idx; lia).
      assert (Hn1 : nth_error (t_nodes st1) id = Some (NUnit lits lcon rcon)) by (rewrite R1; auto).
      destruct (get_olit_ok _ _ _ _ _ _ _ _ _ _ _ _ I1 Hn1 Hd) as (ol & st2 & ow2 & E2 & I2 & X2 & D2 & C2 & R2).
      rewrite E2. cbn [obind].
      pose proof (lit_has_ext _ _ _ _ _ _ _ _ X2 L1) as L2.
      assert (Hemit : Inv ow2 (emit st2 [lit_impl_lit ilit ol]) /\ ext ow2 st2 ow2 (emit st2 [lit_impl_lit ilit ol])).
      { apply inv_emit; [auto| |].
        - intros a Ca. unfold sat_cnf. cbn [forallb]. rewrite lit_impl_lit_sat, andb_true_r.
          rewrite (lit_has_canon _ _ _ _ _ _ a _ _ _ _ I2 Ca L2), (data_canon _ _ _ _ _ _ a _ _ _ _ I2 Ca D2), HVc.
          destruct (Nat.leb_spec (nc_rev_map con (idx + 1)) (gV g a (nc_id con))) as [H|H]; [|reflexivity].
          apply Hadj in H. cbn [implb]. lia.
        - intros c x [<-|[]] Hx. unfold lit_impl_lit in Hx. destruct Hx as [<-|[<-|[]]].
          + rewrite lvar_neg. eapply lit_has_var; eauto.
          + eapply data_var; eauto. }
      destruct Hemit as (I3 & X3).
      destruct (unit_same_skel _ (t_nodes st2) _ _ _ _ (e_skel _ _ _ _ X2) Hn1) as (lits2 & Hn2 & Hlen2).
      destruct (mark_unit_ok GF GU GL g ow2 (emit st2 [lit_impl_lit ilit ol]) id lits2 lcon rcon idx ol (old_sem dat) sem I3 Hn2 D2) as (st4 & E4 & I4 & X4 & L4 & R4).
      { intros Hif _ a S Ht. cbn [emit t_cls] in S. rewrite app_assoc, sat_cnf_app_iff in S. destruct S as (S & Sc).
        unfold sat_cnf in Sc. cbn [forallb] in Sc. rewrite lit_impl_lit_sat, andb_true_r in Sc.
        enough (lit_true a ilit = true) as X by (rewrite X in Sc; exact Sc).
        apply (lit_has_if _ _ _ _ _ _ a (nc_id con) (nc_rev_map con (idx + 1)) _ I2 S).
        - destruct L2 as [L2|(s & L2 & La & Lb)]; [left; exact L2|right; exists s]. split; [exact L2|]. split; [intros _; apply La, Hif|discriminate].
        - destruct (unitlike_same_skel _ (t_nodes st2) _ _ (eq_trans (e_skel _ _ _ _ X2) (e_skel _ _ _ _ X1)) Hcon (unitlike_of _ Hgen Hreal)) as (rn' & Hcon' & Hu' & _).
          rewrite (gT_unitlike _ _ _ _ _ _ _ _ I2 Hcon' Hu'). apply Hadj. rewrite <- HVc. apply HT. exact Ht. }
      { intros _ _ ND. exfalso. destruct (node_same_skel _ (t_nodes st2) (if is_dummy nl then nc_id lcon else nc_id rcon) NDummy (eq_trans (e_skel _ _ _ _ X2) (e_skel _ _ _ _ X1))) as (d & Hdn & He).
        - destruct (is_dummy nl) eqn:Enl; [destruct nl; try discriminate; auto|]. destruct nr; try discriminate. auto.
        - apply (ND (if is_dummy nl then nc_id lcon else nc_id rcon)). cbn [emit t_nodes]. rewrite Hdn. f_equal. destruct d; try discriminate. reflexivity. }
      rewrite E4. cbn [obind]. exists ol, st4, ow2. split; [reflexivity|].
      split; [exact I4|]. split; [|split; [exact L4|]].
      * eapply ext_trans; [exact X1|]. eapply ext_trans; [exact X2|]. eapply ext_trans; [exact X3|exact X4].
      * intros j Hj. assert (j <> id) by (intros ->; lia). rewrite R4, <- (R1 j) by (auto; lia). cbn [emit t_nodes]. auto.
    + (* regular node *)
      rewrite CL, CR. cbn [obind].
      set (lis := if has_if new then range_incl (idx + 1 - Nat.min lr (idx + 1)) (Nat.min ll (idx + 1)) else []).
      set (ris := if has_if new then range_incl (idx + 1 - Nat.min ll (idx + 1)) (Nat.min lr (idx + 1)) else []).
      set (los := if has_only_if new then range_incl (idx - Nat.min lr idx) (Nat.min ll idx) else []).
      set (ros := if has_only_if new then range_incl (idx - Nat.min ll idx) (Nat.min lr idx) else []).
      set (p := mkPre lcon rcon lis ris los ros).
      unfold recurse_calls. cbn [u_lcon u_rcon u_left_if u_right_if u_left_only_if u_right_only_if p].
      rewrite CL, CR. cbn [obind].
      apply orb_false_iff in Edum as (Ednl & Ednr).
      assert (Ul : is_unitlike nl) by (apply unitlike_of; auto).
      assert (Ur : is_unitlike nr) by (apply unitlike_of; auto).
      set (c1 := map (fun v => (nc_id lcon, con_idx (v - 1) lcon, SIf)) (filter (fun v => negb (v =? 0)%nat) lis)).
      set (c2 := map (fun v => (nc_id rcon, con_idx (v - 1) rcon, SIf)) (filter (fun v => negb (v =? 0)%nat) ris)).
      set (c3 := map (fun v => (nc_id lcon, con_idx v lcon, SOnlyIf)) (filter (fun v => negb (v =? ll)%nat) los)).
      set (c4 := map (fun v => (nc_id rcon, con_idx v rcon, SOnlyIf)) (filter (fun v => negb (v =? lr)%nat) ros)).
      assert (Hcalls : forall i x sm, In (i, x, sm) (c1 ++ c2 ++ c3 ++ c4) ->
         (i = nc_id lcon /\ x < node_len nl)%nat \/ (i = nc_id rcon /\ x < node_len nr)%nat).
      { intros i x sm H. rewrite !in_app_iff in H. destruct H as [H|[H|[H|H]]];
          apply in_map_iff in H as (w & Hw & Hin); injection Hw as <- <- <-; apply filter_In in Hin as (Hin & Hne);
          [left|right|left|right]; (split; [reflexivity|]); unfold con_idx.
        - unfold lis in Hin. destruct (has_if new); [|destruct Hin]. apply in_range_incl in Hin.
          replace (w - 1 + 1)%nat with w by lia. pose proof (Nl w ltac:(lia)). lia.
        - unfold ris in Hin. destruct (has_if new); [|destruct Hin]. apply in_range_incl in Hin.
          replace (w - 1 + 1)%nat with w by lia. pose proof (Nr w ltac:(lia)). lia.
        - unfold los in Hin. destruct (has_only_if new); [|destruct Hin]. apply in_range_incl in Hin.
          pose proof (Nl (w + 1)%nat ltac:(lia)). lia.
        - unfold ros in Hin. destruct (has_only_if new); [|destruct Hin]. apply in_range_incl in Hin.
          pose proof (Nr (w + 1)%nat ltac:(lia)). lia. }
      destruct (calls_ok (define_unweighted f) (grk g id) (c1 ++ c2 ++ c3 ++ c4) ow st I) as (st1 & ow1 & E1 & I1 & X1 & L1 & R1).
      { intros ow0 s i x sm Hin Is Hsk. destruct (Hcalls _ _ _ Hin) as [(-> & Hx)|(-> & Hx)].
        - destruct (unitlike_same_skel _ (t_nodes s) _ _ Hsk El Ul) as (n' & Hn' & Hu' & Hl').
          apply (IH s ow0 _ x sm n' Is Hn' Hu'); lia.
        - destruct (unitlike_same_skel _ (t_nodes s) _ _ Hsk Er Ur) as (n' & Hn' & Hu' & Hl').
          apply (IH s ow0 _ x sm n' Is Hn' Hu'); lia. }
      { intros i x sm Hin. destruct (Hcalls _ _ _ Hin) as [(-> & _)|(-> & _)]; lia. }
      cbn [obind] in E1. rewrite E1. cbn [obind].
      assert (Hn1 : nth_error (t_nodes st1) id = Some (NUnit lits lcon rcon)) by (rewrite R1; auto).
      destruct (get_olit_ok _ _ _ _ _ _ _ _ _ _ _ _ I1 Hn1 Hd) as (ol & st2 & ow2 & E2 & I2 & X2 & D2 & C2 & R2).
      rewrite E2. cbn [obind].
      destruct (unit_same_skel _ (t_nodes st2) _ _ _ _ (e_skel _ _ _ _ X2) Hn1) as (lits2 & Hn2 & Hlen2).
      assert (Hdat2 : nth_error lits2 idx = Some (LLit ol (old_sem dat))).
      { unfold data in D2. rewrite Hn2 in D2. cbn [node_data] in D2. replace (idx + 1 =? 0)%nat with false in D2 by lia.
        replace (idx + 1 - 1)%nat with idx in D2 by lia. auto. }
      (* the children in st2 *)
      assert (Hsk2 : skel (t_nodes st2) = skel (t_nodes st)) by (rewrite (e_skel _ _ _ _ X2); apply X1).
      destruct (unitlike_same_skel _ _ _ _ Hsk2 El Ul) as (nl2 & El2 & Ul2 & Lenl2).
      destruct (unitlike_same_skel _ _ _ _ Hsk2 Er Ur) as (nr2 & Er2 & Ur2 & Lenr2).
      assert (exists llits, lit_slice (t_nodes st2) (nc_id lcon) = Some llits) as (llits & Sl).
      { unfold lit_slice. rewrite El2. cbn [obind]. destruct nl2; cbn in *; try tauto; eauto. }
      assert (exists rlits, lit_slice (t_nodes st2) (nc_id rcon) = Some rlits) as (rlits & Sr).
      { unfold lit_slice. rewrite Er2. cbn [obind]. destruct nr2; cbn in *; try tauto; eauto. }
      assert (CL2 : con_len (t_nodes st2) lcon = Some ll) by (rewrite <- con_len_skel, Hsk2, con_len_skel; auto).
      assert (CR2 : con_len (t_nodes st2) rcon = Some lr) by (rewrite <- con_len_skel, Hsk2, con_len_skel; auto).
      (* child literals *)
      assert (HLI : forall w, In w lis -> w <> 0%nat -> exists x, lit_has (t_nodes st2) (nc_id lcon) (nc_rev_map lcon w) SIf x /\ slice_lit llits (con_idx (w - 1) lcon) = Some x).
      { intros w Hw Hne. assert (Hin : In (nc_id lcon, con_idx (w - 1) lcon, SIf) (c1 ++ c2 ++ c3 ++ c4)).
        { rewrite !in_app_iff. left. apply in_map_iff. exists w. split; [reflexivity|]. apply filter_In. split; [auto|lia]. }
        destruct (L1 _ _ _ Hin) as (x & Hx). apply (lit_has_ext _ _ _ _ _ _ _ _ X2) in Hx.
        destruct (lit_has_slice _ _ _ _ _ Hx) as (sl & Es & Ex); [eauto|].
        exists x. replace (con_idx (w - 1) lcon + 1 - 1)%nat with (con_idx (w - 1) lcon) in Ex by lia.
        assert (sl = llits) as -> by congruence. split; [|auto].
        unfold lis in Hw. destruct (has_if new); [|destruct Hw]. apply in_range_incl in Hw.
        pose proof (Nl w ltac:(lia)). unfold con_idx in Hx. replace (w - 1 + 1)%nat with w in Hx by lia.
        replace (nc_rev_map lcon w - 1 + 1)%nat with (nc_rev_map lcon w) in Hx by lia. auto. }
      assert (HRI : forall w, In w ris -> w <> 0%nat -> exists x, lit_has (t_nodes st2) (nc_id rcon) (nc_rev_map rcon w) SIf x /\ slice_lit rlits (con_idx (w - 1) rcon) = Some x).
      { intros w Hw Hne. assert (Hin : In (nc_id rcon, con_idx (w - 1) rcon, SIf) (c1 ++ c2 ++ c3 ++ c4)).
        { rewrite !in_app_iff. right; left. apply in_map_iff. exists w. split; [reflexivity|]. apply filter_In. split; [auto|lia]. }
        destruct (L1 _ _ _ Hin) as (x & Hx). apply (lit_has_ext _ _ _ _ _ _ _ _ X2) in Hx.
        destruct (lit_has_slice _ _ _ _ _ Hx) as (sl & Es & Ex); [eauto|].
        exists x. replace (con_idx (w - 1) rcon + 1 - 1)%nat with (con_idx (w - 1) rcon) in Ex by lia.
        assert (sl = rlits) as -> by congruence. split; [|auto].
        unfold ris in Hw. destruct (has_if new); [|destruct Hw]. apply in_range_incl in Hw.
        pose proof (Nr w ltac:(lia)). unfold con_idx in Hx. replace (w - 1 + 1)%nat with w in Hx by lia.
        replace (nc_rev_map rcon w - 1 + 1)%nat with (nc_rev_map rcon w) in Hx by lia. auto. }
      assert (HLO : forall w, In w los -> w <> ll -> exists x, lit_has (t_nodes st2) (nc_id lcon) (nc_rev_map lcon (w + 1)) SOnlyIf x /\ slice_lit llits (con_idx w lcon) = Some x).
      { intros w Hw Hne. assert (Hin : In (nc_id lcon, con_idx w lcon, SOnlyIf) (c1 ++ c2 ++ c3 ++ c4)).
        { rewrite !in_app_iff. right; right; left. apply in_map_iff. exists w. split; [reflexivity|]. apply filter_In. split; [auto|lia]. }
        destruct (L1 _ _ _ Hin) as (x & Hx). apply (lit_has_ext _ _ _ _ _ _ _ _ X2) in Hx.
        destruct (lit_has_slice _ _ _ _ _ Hx) as (sl & Es & Ex); [eauto|].
        exists x. replace (con_idx w lcon + 1 - 1)%nat with (con_idx w lcon) in Ex by lia.
        assert (sl = llits) as -> by congruence. split; [|auto].
        unfold los in Hw. destruct (has_only_if new); [|destruct Hw]. apply in_range_incl in Hw.
        pose proof (Nl (w + 1)%nat ltac:(lia)). unfold con_idx in Hx.
        replace (nc_rev_map lcon (w + 1) - 1 + 1)%nat with (nc_rev_map lcon (w + 1)) in Hx by lia. auto. }
      assert (HRO : forall w, In w ros -> w <> lr -> exists x, lit_has (t_nodes st2) (nc_id rcon) (nc_rev_map rcon (w + 1)) SOnlyIf x /\ slice_lit rlits (con_idx w rcon) = Some x).
      { intros w Hw Hne. assert (Hin : In (nc_id rcon, con_idx w rcon, SOnlyIf) (c1 ++ c2 ++ c3 ++ c4)).
        { rewrite !in_app_iff. right; right; right. apply in_map_iff. exists w. split; [reflexivity|]. apply filter_In. split; [auto|lia]. }
        destruct (L1 _ _ _ Hin) as (x & Hx). apply (lit_has_ext _ _ _ _ _ _ _ _ X2) in Hx.
        destruct (lit_has_slice _ _ _ _ _ Hx) as (sl & Es & Ex); [eauto|].
        exists x. replace (con_idx w rcon + 1 - 1)%nat with (con_idx w rcon) in Ex by lia.
        assert (sl = rlits) as -> by congruence. split; [|auto].
        unfold ros in Hw. destruct (has_only_if new); [|destruct Hw]. apply in_range_incl in Hw.
        pose proof (Nr (w + 1)%nat ltac:(lia)). unfold con_idx in Hx.
        replace (nc_rev_map rcon (w + 1) - 1 + 1)%nat with (nc_rev_map rcon (w + 1)) in Hx by lia. auto. }
      assert (exists cs, mapM (if_clause p idx ol llits rlits) lis = Some cs /\
        (forall a, canon g ow2 a -> sat_cnf a cs = true) /\
        (forall c x, In c cs -> In x c -> gin g (lvar x) = true \/ exists y, ow2 (lvar x) = Some y) /\
        (has_if new = true -> forall a, sat_cnf a (GU ++ t_cls st2) = true -> sat_cnf a cs = true -> gT g a id (idx + 1) -> lit_true a ol = true)) as (cs1 & M1 & K1 & V1 & S1).
      { destruct (has_if new) eqn:Eif.
        - destruct (if_clauses_ok GF GU GL g ow2 st2 id lits2 lcon rcon ll lr idx ol (old_sem dat) llits rlits lis ris I2 Hn2 CL2 CR2 D2 ltac:(lia) eq_refl eq_refl HLI HRI p eq_refl eq_refl) as (cs & ? & ? & ? & ?).
          exists cs. auto.
        - exists []. split; [reflexivity|]. split; [reflexivity|]. split; [intros ? ? []|discriminate]. }
      assert (exists cs, mapM (only_if_clause p idx ol llits rlits ll lr) los = Some cs /\
        (forall a, canon g ow2 a -> sat_cnf a cs = true) /\
        (forall c x, In c cs -> In x c -> gin g (lvar x) = true \/ exists y, ow2 (lvar x) = Some y) /\
        (has_only_if new = true -> (forall i, nth_error (t_nodes st2) i <> Some NDummy) ->
           forall a, sat_cnf a (GL ++ t_cls st2) = true -> sat_cnf a cs = true -> lit_true a ol = true -> (idx + 1 <= gV g a id)%nat)) as (cs2 & M2 & K2 & V2 & S2).
      { destruct (has_only_if new) eqn:Eif.
        - destruct (only_if_clauses_ok GF GU GL g ow2 st2 id lits2 lcon rcon ll lr idx ol (old_sem dat) llits rlits los ros I2 Hn2 CL2 CR2 D2 ltac:(lia) eq_refl eq_refl HLO HRO p eq_refl eq_refl) as (cs & ? & ? & ? & ?).
          exists cs. auto.
        - exists []. split; [reflexivity|]. split; [reflexivity|]. split; [intros ? ? []|discriminate]. }
      destruct (mark_emit_ok GF GU GL g ow2 st2 id lits2 lcon rcon idx ol (old_sem dat) sem (cs1 ++ cs2) I2 Hn2 D2) as (st3 & E3 & I3 & X3 & L3 & Sk3 & R3).
      { intros a Ca. apply sat_cnf_app_iff. auto. }
      { intros c x Hc Hx. apply in_app_or in Hc as [Hc|Hc]; eauto. }
      { intros A B a S Sc. apply sat_cnf_app_iff in Sc as (Sc & _). apply S1; auto. }
      { intros A B ND a S Sc. apply sat_cnf_app_iff in Sc as (_ & Sc). apply S2; auto. }
      unfold encode_unweighted. rewrite Hn2. cbn [obind]. rewrite Hdat2. cbn [obind].
      assert (exists new', ld_missing (LLit ol (old_sem dat)) sem = Some new') as (new' & Enew').
      { destruct dat as [|? s]; cbn [old_sem]; [exists sem; reflexivity|]. exists new. exact Emiss. }
      rewrite Enew'. cbn [obind]. rewrite E3. cbn [obind].
      assert (Hch : forall j, j <> id -> lit_slice (t_nodes st3) j = lit_slice (t_nodes st2) j).
      { intros j Hj. unfold lit_slice. now rewrite R3. }
      cbn [p u_lcon u_rcon u_left_if u_left_only_if].
      rewrite (Hch (nc_id lcon)) by (intros HH; rewrite HH in Rl; lia). rewrite Sl. cbn [obind].
      rewrite (Hch (nc_id rcon)) by (intros HH; rewrite HH in Rr; lia). rewrite Sr. cbn [obind].
      rewrite <- (con_len_skel (t_nodes st3) lcon), <- (con_len_skel (t_nodes st3) rcon), Sk3, !con_len_skel, CL2, CR2. cbn [obind].
      fold p. rewrite M1, M2. cbn [obind].
      eexists _, _, ow2. split; [reflexivity|]. split; [exact I3|]. split; [|split; [exact L3|]].
      * eapply ext_trans; [exact X1|]. eapply ext_trans; [exact X2|exact X3].
      * intros j Hj. cbn [emit t_nodes]. assert (j <> id) by (intros ->; lia). rewrite R3, R2, R1 by (auto; lia). reflexivity.
Qed.

End D.
