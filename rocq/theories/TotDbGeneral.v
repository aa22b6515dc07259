(** * Correctness of [define_weighted] *)

From Coq Require Import List Bool NArith ZArith Lia Arith.
From Coq Require Import ZifyBool ZifyNat ZifyN.
From Verif Require Import Spec Types Atomics AtomicsProofs NodeDb TotDb Base TotDbInv TotDbUnit TotDbDefine.
Import ListNotations.

Lemma lit_data_In lits val : In val (map fst lits) <-> exists d, lit_data lits val = Some d.
Proof.
  induction lits as [|[v d] lits IH]; cbn [map fst In lit_data].
  - split; [intros []|intros (? & ?); discriminate].
  - destruct (Nat.eqb_spec v val) as [->|Hne]; [split; eauto|]. rewrite <- IH. split; [intros [|]; [congruence|auto]|auto].
Qed.

Section G.
Variables GF GU GL : cnf.
Variable g : ghost.
Notation Inv := (inv GF GU GL g).

Lemma general_facts ow st id lits m l r : Inv ow st -> nth_error (t_nodes st) id = Some (NGeneral lits m l r) ->
  exists nl nr,
    nth_error (t_nodes st) (nc_id l) = Some nl /\ nth_error (t_nodes st) (nc_id r) = Some nr /\
    is_dummy nl = false /\ is_dummy nr = false /\
    simple_con l /\ simple_con r /\ (1 <= nc_mult l)%nat /\ (1 <= nc_mult r)%nat /\
    (grk g (nc_id l) < grk g id)%nat /\ (grk g (nc_id r) < grk g id)%nat /\
    (forall v, In v (map fst lits) -> 1 <= v <= m)%nat /\
    (forall a, gV g a id = nc_mult l * gV g a (nc_id l) + nc_mult r * gV g a (nc_id r))%nat /\
    (forall a v, gT g a id v -> exists vl vr, gT g a (nc_id l) vl /\ gT g a (nc_id r) vr /\
                                              v = (nc_mult l * vl + nc_mult r * vr)%nat).
Proof.
  intros I Hn. pose proof (i_shape _ _ _ _ _ _ I) as W.
  pose proof (wf_node _ _ W _ _ (nth_skel _ _ _ Hn)) as N. cbn [erase node_ok] in N.
  destruct N as (((_ & Ml & _) & ml & El & Ol) & ((_ & Mr & _) & mr & Er & Or) & Sl & Sr & Rl & Rr & (nl0 & nr0 & E1 & E2 & D1 & D2) & Hb & HV & HT & HIn).
  assert (nl0 = ml) as -> by congruence. assert (nr0 = mr) as -> by congruence.
  apply nth_skel_inv in El as (nl & El & ->). apply nth_skel_inv in Er as (nr & Er & ->).
  rewrite is_dummy_erase in D1, D2. exists nl, nr.
  repeat (split; [solve [auto]|]).
  split; [|split].
  - intros v Hv. apply Hb. rewrite map_map. exact Hv.
  - intros a. rewrite HV, !simple_con_map by auto. lia.
  - intros a v Hv. apply HT in Hv as (vl & vr & Hvl & Hvr & ->). exists vl, vr. rewrite !simple_con_map by auto.
    repeat split; auto. lia.
Qed.

Lemma T_vals ow st id n : Inv ow st -> nth_error (t_nodes st) id = Some n ->
  forall a v, gT g a id v -> (1 <= v)%nat -> In v (node_vals n 1 None) /\ (v <= node_max_val n)%nat.
Proof.
  intros I Hn a v Ht Hv. pose proof (i_shape _ _ _ _ _ _ I) as W.
  pose proof (wf_node _ _ W _ _ (nth_skel _ _ _ Hn)) as N.
  assert (Hle : (v <= node_max_val n)%nat).
  { pose proof (wf_T _ _ W a id v) as H1. rewrite skel_length in H1.
    pose proof (wf_max _ _ W a id _ (nth_skel _ _ _ Hn)) as H2. rewrite node_max_val_erase in H2.
    assert (id < length (t_nodes st))%nat by (apply nth_error_Some; congruence).
    specialize (H1 ltac:(assumption) Ht). lia. }
  split; [|auto].
  destruct n; cbn [erase node_ok node_vals node_max_val] in *.
  - destruct (Nat.leb_spec 1 1); [|lia]. cbn. left. lia.
  - apply in_range_excl. lia.
  - destruct N as (_ & _ & _ & _ & _ & _ & _ & _ & _ & _ & HIn & _). specialize (HIn a v Ht Hv). rewrite map_map in HIn.
    apply filter_In. split; [exact HIn|]. lia.
  - destruct N as (_ & N). apply N in Ht. lia.
Qed.

Definition wdefined (st : tst) (ow : owner) (id val : nat) (n : node) (o : option lit) (st' : tst) (ow' : owner) : Prop :=
  Inv ow' st' /\ ext ow st ow' st' /\
  (forall j, (grk g id < grk g j)%nat -> nth_error (t_nodes st') j = nth_error (t_nodes st) j) /\
  match o with
  | Some l => In val (node_vals n 1 None) /\ lit_has (t_nodes st') id val SIf l
  | None => ~ In val (node_vals n 1 None)
  end.

Lemma get_olit_general_ok ow st id lits m l r val dat : Inv ow st -> nth_error (t_nodes st) id = Some (NGeneral lits m l r) ->
  lit_data lits val = Some dat ->
  exists ol st' ow', get_olit_general st id val = Some (ol, st') /\ Inv ow' st' /\ ext ow st ow' st' /\
    data (t_nodes st') id val = Some (LLit ol (old_sem dat)) /\ t_cls st' = t_cls st /\
    (forall j, j <> id -> nth_error (t_nodes st') j = nth_error (t_nodes st) j).
Proof.
  intros I Hn Hd. unfold get_olit_general. rewrite Hn. cbn [obind]. rewrite Hd. cbn [obind].
  assert (Hdat : data (t_nodes st) id val = Some dat) by (unfold data; rewrite Hn; exact Hd).
  assert (Hid : (id < length (t_nodes st))%nat) by (apply nth_error_Some; congruence).
  destruct dat as [|ol s].
  - pose proof (upd_data_general _ _ _ _ _ _ _ (LLit (pos (t_next st)) None) _ Hn Hd) as U.
    destruct (inv_reserve _ _ _ _ _ _ _ _ _ I Hid Hdat U) as (I' & E').
    eexists _, _, _. split; [reflexivity|]. split; [exact I'|]. split; [exact E'|]. cbn [t_nodes t_cls old_sem].
    destruct U as (_ & U2 & _ & U4). auto.
  - exists ol, st, ow. split; [reflexivity|]. split; [auto|]. split; [apply ext_refl|]. auto.
Qed.

Lemma mark_general_ok ow st id lits m l r val ol s : Inv ow st -> nth_error (t_nodes st) id = Some (NGeneral lits m l r) ->
  data (t_nodes st) id val = Some (LLit ol s) ->
  (forall a, sat_cnf a (GU ++ t_cls st) = true -> gT g a id val -> lit_true a ol = true) ->
  exists st', mark_general st id val = Some st' /\ Inv ow st' /\ ext ow st ow st' /\
    lit_has (t_nodes st') id val SIf ol /\
    (forall j, j <> id -> nth_error (t_nodes st') j = nth_error (t_nodes st) j).
Proof.
  intros I Hn Hd HA. unfold mark_general. rewrite Hn. cbn [obind].
  assert (Hdat : lit_data lits val = Some (LLit ol s)) by (unfold data in Hd; rewrite Hn in Hd; exact Hd).
  rewrite Hdat. cbn [obind].
  assert (Ha : ld_add (LLit ol s) SIf = Some (LLit ol (Some (sem_join s SIf)))) by (destruct s; reflexivity).
  rewrite Ha. cbn [obind].
  pose proof (upd_data_general _ _ _ _ _ _ _ (LLit ol (Some (sem_join s SIf))) _ Hn Hdat) as U.
  destruct (inv_mark _ _ _ _ _ _ _ _ _ _ _ _ I Hd U) as (I' & E'); [auto|discriminate|].
  eexists. split; [reflexivity|]. split; [exact I'|]. split; [exact E'|].
  destruct U as (_ & U2 & _ & U4). split; [|exact U4].
  right. exists (Some (sem_join s SIf)). split; [exact U2|]. cbn [sem_le_if sem_le_oif].
  rewrite sem_join_if. split; [intros _; apply orb_true_r|discriminate].
Qed.

Lemma vals_transfer ns ns' id n n' : skel ns' = skel ns -> nth_error ns id = Some n -> nth_error ns' id = Some n' ->
  (forall lo hi, node_vals n' lo hi = node_vals n lo hi) /\ node_max_val n' = node_max_val n /\ is_dummy n' = is_dummy n.
Proof.
  intros E H H'. destruct (node_same_skel _ _ _ _ E H) as (n2 & H2 & He). assert (n2 = n') as -> by congruence.
  split; [|split].
  - intros. rewrite <- node_vals_erase, He. apply node_vals_erase.
  - rewrite <- node_max_val_erase, He. apply node_max_val_erase.
  - rewrite <- is_dummy_erase, He. apply is_dummy_erase.
Qed.

Theorem define_weighted_ok : forall fuel st ow id val n,
  Inv ow st -> nth_error (t_nodes st) id = Some n -> is_dummy n = false -> (1 <= val <= node_max_val n)%nat -> (grk g id < fuel)%nat ->
  exists o st' ow', define_weighted fuel st id val = Some (o, st') /\ wdefined st ow id val n o st' ow'.
Proof.
  induction fuel as [|f IH]; intros st ow id val n I Hn Hnd Hval Hf; [lia|].
  cbn [define_weighted]. rewrite Hn. cbn [obind].
  replace ((val <=? node_max_val n) && (0 <? val))%nat with true by lia. cbn [assertb obind].
  destruct n as [l|lits lcon rcon|lits m lcon rcon|]; [| | |discriminate].
  - cbn [node_max_val] in Hval. replace (val =? 1)%nat with true by lia. cbn [assertb obind].
    exists (Some l), st, ow. split; [reflexivity|]. split; [auto|]. split; [apply ext_refl|]. split; [auto|].
    split; [cbn; left; lia|left; split; [auto|lia]].
  - cbn [node_max_val] in Hval. replace ((length lits <? val) || (val =? 0))%nat with false by lia.
    destruct (define_unweighted_ok GF GU GL g (S f) st ow id (val - 1) SIf _ I Hn) as (l & st' & ow' & E & I' & X & L & R).
    { exact Logic.I. } { cbn [node_len]; lia. } { lia. }
    rewrite E. cbn [obind]. exists (Some l), st', ow'. split; [reflexivity|].
    split; [auto|]. split; [auto|]. split; [auto|]. split.
    + cbn [node_vals]. apply in_range_excl. lia.
    + replace (val - 1 + 1)%nat with val in L by lia. auto.
  - destruct (lit_data lits val) as [dat|] eqn:Hd.
    2:{ exists None, st, ow. split; [reflexivity|]. split; [auto|]. split; [apply ext_refl|]. split; [auto|].
        cbn [node_vals]. intros H. apply filter_In in H as (H & _). apply lit_data_In in H as (d & H). congruence. }
    assert (Hin : In val (node_vals (NGeneral lits m lcon rcon) 1 None)).
    { cbn [node_vals]. apply filter_In. split; [apply lit_data_In; eauto|lia]. }
    assert (Hdat : data (t_nodes st) id val = Some dat) by (unfold data; rewrite Hn; exact Hd).
    destruct (ld_has_if dat) as [l|] eqn:Eif.
    { exists (Some l), st, ow. split; [reflexivity|]. split; [auto|]. split; [apply ext_refl|]. split; [auto|].
      split; [auto|]. right. destruct dat as [|l' [s|]]; cbn [ld_has_if] in Eif; try discriminate.
      destruct (has_if s) eqn:Es; [|discriminate]. injection Eif as <-. exists (Some s). split; [auto|]. cbn. split; [auto|discriminate]. }
    destruct (general_facts _ _ _ _ _ _ _ I Hn) as (nl & nr & El & Er & Dl & Dr & Sl & Sr & Ml & Mr & Rl & Rr & Hb & HV & HT).
    cbn [node_max_val] in Hval.
    destruct (get_olit_general_ok _ _ _ _ _ _ _ _ _ I Hn Hd) as (olit & st0 & ow0 & E0 & I0 & X0 & D0 & C0 & R0).
    rewrite E0. cbn [obind].
    assert (Hlid : nc_id lcon <> id) by (intros HH; rewrite HH in Rl; lia).
    assert (Hrid : nc_id rcon <> id) by (intros HH; rewrite HH in Rr; lia).
    rewrite <- (R0 _ Hlid) in El. rewrite <- (R0 _ Hrid) in Er.
    (* recursive calls on the children, in any later state of the same shape *)
    assert (Lcall : forall s o v, Inv o s -> skel (t_nodes s) = skel (t_nodes st0) -> (1 <= v <= node_max_val nl)%nat ->
       exists ol s' o', define_weighted f s (nc_id lcon) v = Some (ol, s') /\ wdefined s o (nc_id lcon) v nl ol s' o').
    { intros s o v Is Hsk Hv. destruct (node_same_skel _ (t_nodes s) _ _ Hsk El) as (n' & Hn' & He).
      destruct (vals_transfer _ _ _ _ _ Hsk El Hn') as (Hvals & Hmax & Hdum).
      destruct (IH s o (nc_id lcon) v n' Is Hn' ltac:(congruence) ltac:(lia) ltac:(lia)) as (ol & s' & o' & E & Iw & Xw & Rw & Pw).
      exists ol, s', o'. split; [auto|]. split; [auto|]. split; [auto|]. split; [auto|]. now rewrite <- Hvals. }
    assert (Rcall : forall s o v, Inv o s -> skel (t_nodes s) = skel (t_nodes st0) -> (1 <= v <= node_max_val nr)%nat ->
       exists ol s' o', define_weighted f s (nc_id rcon) v = Some (ol, s') /\ wdefined s o (nc_id rcon) v nr ol s' o').
    { intros s o v Is Hsk Hv. destruct (node_same_skel _ (t_nodes s) _ _ Hsk Er) as (n' & Hn' & He).
      destruct (vals_transfer _ _ _ _ _ Hsk Er Hn') as (Hvals & Hmax & Hdum).
      destruct (IH s o (nc_id rcon) v n' Is Hn' ltac:(congruence) ltac:(lia) ltac:(lia)) as (ol & s' & o' & E & Iw & Xw & Rw & Pw).
      exists ol, s', o'. split; [auto|]. split; [auto|]. split; [auto|]. split; [auto|]. now rewrite <- Hvals. }
    assert (Hmaxr : forall s, skel (t_nodes s) = skel (t_nodes st0) -> max_val_at (t_nodes s) (nc_id rcon) = Some (node_max_val nr)).
    { intros s Hsk. destruct (node_same_skel _ (t_nodes s) _ _ Hsk Er) as (n' & Hn' & He).
      destruct (vals_transfer _ _ _ _ _ Hsk Er Hn') as (_ & Hmax & _). unfold max_val_at. rewrite Hn'. cbn. congruence. }
    assert (Hmaxl : forall s, skel (t_nodes s) = skel (t_nodes st0) -> max_val_at (t_nodes s) (nc_id lcon) = Some (node_max_val nl)).
    { intros s Hsk. destruct (node_same_skel _ (t_nodes s) _ _ Hsk El) as (n' & Hn' & He).
      destruct (vals_transfer _ _ _ _ _ Hsk El Hn') as (_ & Hmax & _). unfold max_val_at. rewrite Hn'. cbn. congruence. }
    (* the output literal under canonical assignments of later states *)
    assert (Hol : forall s o, ext ow0 st0 o s -> exists s', data (t_nodes s) id val = Some (LLit olit s')).
    { intros s o X. destruct (e_data _ _ _ _ X _ _ _ _ D0) as (s' & H & _). eauto. }
    (* Phase 1: sums *)
    set (sum_ok := fun (s : tst) lval => forall rv, In rv (node_vals nr 1 None) -> (nc_mult lcon * lval + nc_mult rcon * rv = val)%nat ->
        exists llit rlit, lit_has (t_nodes s) (nc_id lcon) lval SIf llit /\ lit_has (t_nodes s) (nc_id rcon) rv SIf rlit /\
          In (cube_impl_lit [llit; rlit] olit) (t_cls s)).
    assert (P1 : exists st1 ow1,
      (if (nc_map lcon (nc_offset lcon + 1) <? val)%nat then
         do ln <- nth_error (t_nodes st0) (nc_id lcon);
         do rmax <- max_val_at (t_nodes st0) (nc_id rcon);
         foldM (fun s lval =>
           do _ <- assertb (nc_map lcon lval <? val)%nat;
           let rval := (val - nc_map lcon lval)%nat in
           let rval_rev := nc_rev_map rcon rval in
           if nc_is_possible rcon rval && (rval_rev <=? rmax)%nat then
             do rr <- define_weighted f s (nc_id rcon) rval_rev;
             match rr with
             | (None, s1) => Some s1
             | (Some rlit, s1) =>
                 do _ <- assertb (match nc_limit lcon with None => true | Some _ => (nc_offset lcon + 1 =? lval)%nat end);
                 do lr <- define_weighted f s1 (nc_id lcon) lval;
                 match lr with
                 | (None, _) => None
                 | (Some llit, s2) => Some (emit s2 [cube_impl_lit [llit; rlit] olit])
                 end
             end
           else Some s)
           (node_vals ln (nc_offset lcon + 1) (Some (nc_rev_map_round_up lcon val))) st0
       else Some st0) = Some st1 /\
      Inv ow1 st1 /\ ext ow0 st0 ow1 st1 /\
      (forall j, (grk g id <= grk g j)%nat -> nth_error (t_nodes st1) j = nth_error (t_nodes st0) j) /\
      (forall lval, In lval (node_vals nl 1 None) -> (nc_mult lcon * lval < val)%nat -> sum_ok st1 lval)).
    { assert (Sl' := Sl). destruct Sl' as (Ol & Dvl & Liml).
      rewrite (simple_con_map _ _ Sl), Ol. cbn [Nat.add].
      destruct (Nat.ltb_spec (1 * nc_mult lcon) val) as [Hlt|Hge].
      2:{ exists st0, ow0. split; [reflexivity|]. split; [auto|]. split; [apply ext_refl|]. split; [auto|].
          intros lval Hl Hlt. exfalso. assert (1 <= lval)%nat; [|nia].
          clear -Hl. destruct nl; cbn [node_vals] in Hl; try (apply filter_In in Hl as (_ & Hl)); try apply in_range_excl in Hl; try lia.
          - destruct Hl as [<-|[]]; lia.
          - destruct Hl. }
      rewrite El. cbn [obind]. rewrite (Hmaxr st0 eq_refl). cbn [obind].
      assert (Hvals : forall v, In v (node_vals nl 1 (Some (nc_rev_map_round_up lcon val))) <-> In v (node_vals nl 1 None) /\ (nc_mult lcon * v < val)%nat).
      { intros v. assert (Hru : (v < nc_rev_map_round_up lcon val <-> nc_mult lcon * v < val)%nat).
        { rewrite (simple_con_round_up _ v val Sl Ml). lia. }
        destruct nl; cbn [node_vals].
        - destruct (Nat.leb_spec 1 1); [|lia]. cbn [andb]. destruct (Nat.ltb_spec 1 (nc_rev_map_round_up lcon val)); cbn [In].
          + split; [intros [<-|[]]; split; [auto|apply Hru; auto]|tauto].
          + split; [tauto|intros ([<-|[]] & H1)]. apply Hru in H1. lia.
        - rewrite !in_range_excl. rewrite <- Hru. lia.
        - rewrite !filter_In, <- Hru. rewrite !andb_true_iff, Nat.ltb_lt. tauto.
        - cbn [In]. tauto. }
      match goal with |- exists st1 ow1, foldM ?F ?L st0 = _ /\ _ =>
        destruct (foldM_ind F (fun done s => exists o, Inv o s /\ ext ow0 st0 o s /\
          (forall j, (grk g id <= grk g j)%nat -> nth_error (t_nodes s) j = nth_error (t_nodes st0) j) /\
          (forall lval, In lval done -> sum_ok s lval)) L st0) as (st1 & E1 & ow1 & I1 & X1 & R1 & S1) end.
      - exists ow0. split; [auto|]. split; [apply ext_refl|]. split; [auto|]. intros ? [].
      - intros done lval s (rest & Hl) (o & Is & Xs & Rs & Ss).
        assert (Hlv : In lval (node_vals nl 1 (Some (nc_rev_map_round_up lcon val)))).
        { rewrite Hl. apply in_or_app. right. now left. }
        apply Hvals in Hlv as (Hlv & Hlvlt).
        rewrite !(simple_con_map lcon _ Sl).
        replace (lval * nc_mult lcon <? val)%nat with true by lia. cbn [assertb obind]. cbv zeta.
        set (rval := (val - lval * nc_mult lcon)%nat).
        assert (Hnos : (nc_is_possible rcon rval && (nc_rev_map rcon rval <=? node_max_val nr))%nat = false -> forall s', sum_ok s' lval).
        { intros Hf' s' rv Hrv Heq. exfalso. assert (rval = rv * nc_mult rcon)%nat as Er' by lia.
          rewrite Er', (simple_con_possible _ _ Sr Mr) in Hf'. cbn [andb] in Hf'.
          pose proof (simple_con_rev _ _ Sr Mr (simple_con_possible _ rv Sr Mr)) as H.
          assert (nc_rev_map rcon (rv * nc_mult rcon) = rv) as H' by nia. rewrite H' in Hf'.
          assert (rv <= node_max_val nr)%nat; [|lia].
          clear -Hrv I0 Er. destruct nr; cbn [node_vals node_max_val] in *.
          - destruct Hrv as [<-|[]]; lia.
          - apply in_range_excl in Hrv. lia.
          - apply filter_In in Hrv as (Hrv & _). destruct (general_facts _ _ _ _ _ _ _ I0 Er) as (? & ? & _ & _ & _ & _ & _ & _ & _ & _ & _ & _ & Hb & _). apply Hb in Hrv. lia.
          - destruct Hrv. }
        destruct (nc_is_possible rcon rval && (nc_rev_map rcon rval <=? node_max_val nr)%nat) eqn:Epos.
        2:{ exists s. split; [reflexivity|]. exists o. split; [auto|]. split; [auto|]. split; [auto|].
            intros lv Hlv'. apply in_app_or in Hlv' as [H|[<-|[]]]; [auto|]. apply (Hnos eq_refl). }
        apply andb_true_iff in Epos as (Epos & Emax).
        pose proof (simple_con_rev _ _ Sr Mr Epos) as Hrev.
        set (rr := nc_rev_map rcon rval) in *.
        assert (Hrr : (1 <= rr <= node_max_val nr)%nat) by (subst rval; nia).
        destruct (Rcall s o rr Is (e_skel _ _ _ _ Xs) Hrr) as (orl & s1 & o1 & Ec1 & I1 & X1 & Rk1 & P1).
        rewrite Ec1. cbn [obind].
        destruct orl as [rlit|].
        2:{ exists s1. split; [reflexivity|]. exists o1. split; [auto|]. split; [eapply ext_trans; eauto|]. split.
            { intros j Hj. rewrite Rk1 by lia. auto. }
            intros lv Hlv'. apply in_app_or in Hlv' as [H|[<-|[]]].
            - intros rv Hrv Heq. destruct (Ss lv H rv Hrv Heq) as (x & y & Hx & Hy & Hc). exists x, y.
              split; [eapply lit_has_ext; eauto|]. split; [eapply lit_has_ext; eauto|eapply ext_incl; eauto].
            - intros rv Hrv Heq. exfalso. apply P1. replace rr with rv by (subst rval; nia). auto. }
        destruct P1 as (Hrin & Hrlit).
        rewrite Liml. cbn [assertb obind].
        assert (Hlr : (1 <= lval <= node_max_val nl)%nat).
        { clear -Hlv I0 El. destruct nl; cbn [node_vals node_max_val] in *.
          - destruct Hlv as [<-|[]]; lia.
          - apply in_range_excl in Hlv. lia.
          - apply filter_In in Hlv as (Hlv & _). destruct (general_facts _ _ _ _ _ _ _ I0 El) as (? & ? & _ & _ & _ & _ & _ & _ & _ & _ & _ & _ & Hb & _). apply Hb in Hlv. lia.
          - destruct Hlv. }
        assert (Xs1 : ext ow0 st0 o1 s1) by (eapply ext_trans; eauto).
        destruct (Lcall s1 o1 lval I1 (e_skel _ _ _ _ Xs1) Hlr) as (oll & s2 & o2 & Ec2 & I2 & X2 & Rk2 & P2).
        rewrite Ec2. cbn [obind]. destruct oll as [llit|]; [|exfalso; apply P2; auto].
        destruct P2 as (_ & Hllit).
        assert (Xs2 : ext ow0 st0 o2 s2) by (eapply ext_trans; eauto).
        pose proof (lit_has_ext _ _ _ _ _ _ _ _ X2 Hrlit) as Hrlit2.
        destruct (Hol s2 o2 Xs2) as (so & Ho2).
        destruct (inv_emit GF GU GL g o2 s2 [cube_impl_lit [llit; rlit] olit] I2) as (I3 & X3).
        { intros a Ca. unfold sat_cnf. cbn [forallb]. rewrite andb_true_r. apply sat_clause_two_intro. intros Ht.
          rewrite (data_canon _ _ _ _ _ _ a _ _ _ _ I2 Ca Ho2), HV.
          assert (lit_true a llit = true) as H1 by (apply Ht; now left).
          assert (lit_true a rlit = true) as H2 by (apply Ht; right; now left).
          rewrite (lit_has_canon _ _ _ _ _ _ a _ _ _ _ I2 Ca Hllit) in H1.
          rewrite (lit_has_canon _ _ _ _ _ _ a _ _ _ _ I2 Ca Hrlit2) in H2.
          apply Nat.leb_le in H1, H2. apply Nat.leb_le. subst rval. nia. }
        { intros c x [<-|[]] Hx. unfold cube_impl_lit in Hx. cbn [map app In] in Hx.
          destruct Hx as [<-|[<-|[<-|[]]]]; rewrite ?lvar_neg; [eapply lit_has_var|eapply lit_has_var|eapply data_var]; eauto. }
        exists (emit s2 [cube_impl_lit [llit; rlit] olit]). split; [reflexivity|]. exists o2.
        split; [auto|]. split; [eapply ext_trans; eauto|]. split.
        { intros j Hj. cbn [emit t_nodes]. rewrite Rk2, Rk1 by lia. auto. }
        intros lv Hlv'. apply in_app_or in Hlv' as [H|[<-|[]]].
        + intros rv Hrv Heq. destruct (Ss lv H rv Hrv Heq) as (x & y & Hx & Hy & Hc). exists x, y.
          pose proof (ext_trans _ _ _ _ _ _ X1 (ext_trans _ _ _ _ _ _ X2 X3)) as X123.
          split; [eapply lit_has_ext; eauto|]. split; [eapply lit_has_ext; eauto|eapply ext_incl; eauto].
        + intros rv Hrv Heq. assert (rv = rr) as -> by (subst rval; nia). exists llit, rlit.
          split; [exact Hllit|]. split; [exact Hrlit2|]. cbn [emit t_cls]. apply in_or_app. right; now left.
      - exists st1, ow1. split; [exact E1|]. split; [auto|]. split; [auto|]. split; [auto|].
        intros lval Hl Hlt'. apply S1. apply Hvals. auto. }
    destruct P1 as (st1 & ow1 & E1 & I1 & X1 & R1 & S1). 
    match goal with |- context [obind ?X _] => replace X with (Some st1) by (symmetry; exact E1) end. cbn [obind]. clear E1.
    (* Phase 2: the left value alone *)
    assert (P2 : exists st2 ow2,
      (do lmax <- max_val_at (t_nodes st1) (nc_id lcon);
       if nc_is_possible lcon val && (nc_rev_map lcon val <=? lmax)%nat then
         do lr <- define_weighted f st1 (nc_id lcon) (nc_rev_map lcon val);
         match lr with
         | (None, s) => Some s
         | (Some llit, s) => Some (emit s [lit_impl_lit llit olit])
         end
       else Some st1) = Some st2 /\ Inv ow2 st2 /\ ext ow1 st1 ow2 st2 /\
      (forall j, (grk g id <= grk g j)%nat -> nth_error (t_nodes st2) j = nth_error (t_nodes st1) j) /\
      (forall v, In v (node_vals nl 1 None) -> (v <= node_max_val nl)%nat -> (nc_mult lcon * v = val)%nat ->
         exists x, lit_has (t_nodes st2) (nc_id lcon) v SIf x /\ In (lit_impl_lit x olit) (t_cls st2))).
    { rewrite (Hmaxl st1 (e_skel _ _ _ _ X1)). cbn [obind].
      destruct (nc_is_possible lcon val && (nc_rev_map lcon val <=? node_max_val nl)%nat) eqn:Epos.
      2:{ exists st1, ow1. split; [reflexivity|]. split; [auto|]. split; [apply ext_refl|]. split; [auto|].
          intros v Hv Hle Heq. exfalso. replace val with (v * nc_mult lcon)%nat in Epos by lia.
          rewrite (simple_con_possible _ _ Sl Ml) in Epos. cbn [andb] in Epos.
          pose proof (simple_con_rev _ _ Sl Ml (simple_con_possible _ v Sl Ml)). nia. }
      apply andb_true_iff in Epos as (Epos & Emax). pose proof (simple_con_rev _ _ Sl Ml Epos) as Hrev.
      set (rv := nc_rev_map lcon val) in *.
      destruct (Lcall st1 ow1 rv I1 (e_skel _ _ _ _ X1) ltac:(nia)) as (o & s2 & o2 & Ec & I2 & X2 & Rk2 & P2).
      rewrite Ec. cbn [obind]. destruct o as [x|].
      2:{ exists s2, o2. split; [reflexivity|]. split; [auto|]. split; [auto|]. split; [intros j Hj; apply Rk2; lia|].
          intros v Hv _ Heq. exfalso. apply P2. replace rv with v by nia. auto. }
      destruct P2 as (_ & Hx).
      destruct (Hol s2 o2 (ext_trans _ _ _ _ _ _ X1 X2)) as (so & Ho2).
      destruct (inv_emit GF GU GL g o2 s2 [lit_impl_lit x olit] I2) as (I3 & X3).
      { intros a Ca. unfold sat_cnf. cbn [forallb]. rewrite andb_true_r, lit_impl_lit_sat.
        rewrite (data_canon _ _ _ _ _ _ a _ _ _ _ I2 Ca Ho2), HV, (lit_has_canon _ _ _ _ _ _ a _ _ _ _ I2 Ca Hx).
        destruct (Nat.leb_spec rv (gV g a (nc_id lcon))); [|reflexivity]. cbn [implb]. apply Nat.leb_le. nia. }
      { intros c y [<-|[]] Hy. unfold lit_impl_lit in Hy. destruct Hy as [<-|[<-|[]]]; rewrite ?lvar_neg; [eapply lit_has_var|eapply data_var]; eauto. }
      eexists _, o2. split; [reflexivity|]. split; [exact I3|]. split; [eapply ext_trans; eauto|].
      split; [intros j Hj; cbn [emit t_nodes]; apply Rk2; lia|].
      intros v Hv _ Heq. exists x. replace v with rv by nia. split; [exact Hx|]. cbn [emit t_cls]. apply in_or_app; right; now left. }
    destruct P2 as (st2 & ow2 & E2 & I2 & X2 & R2 & S2). 
    match goal with |- context [obind ?X _] => replace X with (Some st2) by (symmetry; exact E2) end. cbn [obind]. clear E2.
    (* Phase 3: the right value alone *)
    assert (P3 : exists st3 ow3,
      (do rmax <- max_val_at (t_nodes st2) (nc_id rcon);
       if nc_is_possible rcon val && (nc_rev_map rcon val <=? rmax)%nat then
         do rr <- define_weighted f st2 (nc_id rcon) (nc_rev_map rcon val);
         match rr with
         | (None, s) => Some s
         | (Some rlit, s) => Some (emit s [lit_impl_lit rlit olit])
         end
       else Some st2) = Some st3 /\ Inv ow3 st3 /\ ext ow2 st2 ow3 st3 /\
      (forall j, (grk g id <= grk g j)%nat -> nth_error (t_nodes st3) j = nth_error (t_nodes st2) j) /\
      (forall v, In v (node_vals nr 1 None) -> (v <= node_max_val nr)%nat -> (nc_mult rcon * v = val)%nat ->
         exists x, lit_has (t_nodes st3) (nc_id rcon) v SIf x /\ In (lit_impl_lit x olit) (t_cls st3))).
    { pose proof (ext_trans _ _ _ _ _ _ X1 X2) as X02.
      rewrite (Hmaxr st2 (e_skel _ _ _ _ X02)). cbn [obind].
      destruct (nc_is_possible rcon val && (nc_rev_map rcon val <=? node_max_val nr)%nat) eqn:Epos.
      2:{ exists st2, ow2. split; [reflexivity|]. split; [auto|]. split; [apply ext_refl|]. split; [auto|].
          intros v Hv Hle Heq. exfalso. replace val with (v * nc_mult rcon)%nat in Epos by lia.
          rewrite (simple_con_possible _ _ Sr Mr) in Epos. cbn [andb] in Epos.
          pose proof (simple_con_rev _ _ Sr Mr (simple_con_possible _ v Sr Mr)). nia. }
      apply andb_true_iff in Epos as (Epos & Emax). pose proof (simple_con_rev _ _ Sr Mr Epos) as Hrev.
      set (rv := nc_rev_map rcon val) in *.
      destruct (Rcall st2 ow2 rv I2 (e_skel _ _ _ _ X02) ltac:(nia)) as (o & s2 & o2 & Ec & I3 & X3 & Rk2 & P2).
      rewrite Ec. cbn [obind]. destruct o as [x|].
      2:{ exists s2, o2. split; [reflexivity|]. split; [auto|]. split; [auto|]. split; [intros j Hj; apply Rk2; lia|].
          intros v Hv _ Heq. exfalso. apply P2. replace rv with v by nia. auto. }
      destruct P2 as (_ & Hx).
      destruct (Hol s2 o2 (ext_trans _ _ _ _ _ _ X02 X3)) as (so & Ho2).
      destruct (inv_emit GF GU GL g o2 s2 [lit_impl_lit x olit] I3) as (I4 & X4).
      { intros a Ca. unfold sat_cnf. cbn [forallb]. rewrite andb_true_r, lit_impl_lit_sat.
        rewrite (data_canon _ _ _ _ _ _ a _ _ _ _ I3 Ca Ho2), HV, (lit_has_canon _ _ _ _ _ _ a _ _ _ _ I3 Ca Hx).
        destruct (Nat.leb_spec rv (gV g a (nc_id rcon))); [|reflexivity]. cbn [implb]. apply Nat.leb_le. nia. }
      { intros c y [<-|[]] Hy. unfold lit_impl_lit in Hy. destruct Hy as [<-|[<-|[]]]; rewrite ?lvar_neg; [eapply lit_has_var|eapply data_var]; eauto. }
      eexists _, o2. split; [reflexivity|]. split; [exact I4|]. split; [eapply ext_trans; eauto|].
      split; [intros j Hj; cbn [emit t_nodes]; apply Rk2; lia|].
      intros v Hv _ Heq. exists x. replace v with rv by nia. split; [exact Hx|]. cbn [emit t_cls]. apply in_or_app; right; now left. }
    destruct P3 as (st3 & ow3 & E3 & I3 & X3 & R3 & S3). 
    match goal with |- context [obind ?X _] => replace X with (Some st3) by (symmetry; exact E3) end. cbn [obind]. clear E3.
    pose proof (ext_trans _ _ _ _ _ _ X1 (ext_trans _ _ _ _ _ _ X2 X3)) as X03.
    pose proof (ext_trans _ _ _ _ _ _ X2 X3) as X13.
    assert (D3 : data (t_nodes st3) id val = Some (LLit olit (old_sem dat))).
    { unfold data in *. rewrite R3, R2, R1 by lia. auto. }
    destruct (general_same_skel _ (t_nodes st3) _ _ _ _ _ (eq_trans (e_skel _ _ _ _ X03) (e_skel _ _ _ _ X0)) Hn) as (lits3 & Hn3 & _).
    destruct (mark_general_ok ow3 st3 id lits3 m lcon rcon val olit (old_sem dat) I3 Hn3 D3) as (st4 & E4 & I4 & X4 & L4 & R4).
    { intros a S Ht. destruct (HT a val Ht) as (vl & vr & Tl & Tr & Hv).
      destruct (Nat.eq_dec vl 0) as [->|Hvl].
      - (* right alone *)
        assert (1 <= vr)%nat by nia. destruct (T_vals _ _ _ _ I0 Er a vr Tr ltac:(lia)) as (Hin' & Hle).
        destruct (S3 vr Hin' Hle ltac:(lia)) as (x & Hx & Hc).
        assert (Sx : sat_clause a (lit_impl_lit x olit) = true) by (apply (sat_cnf_In a (GU ++ t_cls st3)); [auto|apply in_or_app; auto]).
        rewrite lit_impl_lit_sat, (lit_has_if _ _ _ _ _ _ a _ _ _ I3 S Hx Tr) in Sx. exact Sx.
      - destruct (T_vals _ _ _ _ I0 El a vl Tl ltac:(lia)) as (Hinl & Hlel).
        destruct (Nat.eq_dec vr 0) as [->|Hvr].
        + destruct (S2 vl Hinl Hlel ltac:(lia)) as (x & Hx & Hc).
          apply (lit_has_ext _ _ _ _ _ _ _ _ X3) in Hx. apply (ext_incl _ _ _ _ _ X3) in Hc.
          assert (Sx : sat_clause a (lit_impl_lit x olit) = true) by (apply (sat_cnf_In a (GU ++ t_cls st3)); [auto|apply in_or_app; auto]).
          rewrite lit_impl_lit_sat, (lit_has_if _ _ _ _ _ _ a _ _ _ I3 S Hx Tl) in Sx. exact Sx.
        + destruct (T_vals _ _ _ _ I0 Er a vr Tr ltac:(lia)) as (Hinr & Hler).
          destruct (S1 vl Hinl ltac:(nia) vr Hinr ltac:(lia)) as (x & y & Hx & Hy & Hc).
          apply (lit_has_ext _ _ _ _ _ _ _ _ X13) in Hx, Hy. apply (ext_incl _ _ _ _ _ X13) in Hc.
          apply (sat_clause_two a [x; y] olit); [apply (sat_cnf_In a (GU ++ t_cls st3)); [auto|apply in_or_app; auto]|].
          intros z [<-|[<-|[]]].
          * exact (lit_has_if _ _ _ _ _ _ a _ _ _ I3 S Hx Tl).
          * exact (lit_has_if _ _ _ _ _ _ a _ _ _ I3 S Hy Tr). }
    rewrite E4. cbn [obind]. exists (Some olit), st4, ow3. split; [reflexivity|].
    split; [exact I4|]. split; [|split; [|split; [exact Hin|exact L4]]].
    + eapply ext_trans; [exact X0|]. eapply ext_trans; [exact X03|exact X4].
    + intros j Hj. assert (j <> id) by (intros ->; lia). rewrite R4, R3, R2, R1, R0 by (auto; lia). reflexivity.
Qed.

End G.
