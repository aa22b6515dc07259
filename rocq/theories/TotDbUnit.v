(** * [define_unweighted] preserves the database invariant and defines the requested output *)

From Coq Require Import List Bool NArith ZArith Lia Arith.
From Coq Require Import ZifyBool ZifyNat ZifyN.
From Verif Require Import Spec Types Atomics AtomicsProofs NodeDb TotDb Base TotDbInv.
Import ListNotations.

Lemma unit_skel_inv ns id lits l r m : nth_error ns id = Some m -> erase m = NUnit lits l r ->
  exists lits', m = NUnit lits' l r /\ length lits' = length lits.
Proof. destruct m; cbn [erase]; intros _ [= <- <- <-]. rewrite map_length. eauto. Qed.

Lemma unit_same_skel ns ns' id lits l r : skel ns' = skel ns -> nth_error ns id = Some (NUnit lits l r) ->
  exists lits', nth_error ns' id = Some (NUnit lits' l r) /\ length lits' = length lits.
Proof.
  intros E H. apply nth_skel in H. rewrite <- E in H. apply nth_skel_inv in H as (m & Hm & He).
  cbn [erase] in He. symmetry in He. destruct (unit_skel_inv _ _ _ _ _ _ Hm He) as (lits' & -> & Hl).
  rewrite map_length in Hl. eauto.
Qed.

Lemma general_same_skel ns ns' id lits m l r : skel ns' = skel ns -> nth_error ns id = Some (NGeneral lits m l r) ->
  exists lits', nth_error ns' id = Some (NGeneral lits' m l r) /\ map fst lits' = map fst lits.
Proof.
  intros E H. apply nth_skel in H. rewrite <- E in H. apply nth_skel_inv in H as (m' & Hm & He).
  destruct m'; cbn [erase] in He; inversion He; subst. eexists. split; [eassumption|].
  match goal with [H : map _ _ = map _ _ |- _] => rename H into HM end.
  apply (f_equal (map fst)) in HM. rewrite !map_map in HM. symmetry. exact HM.
Qed.

Lemma node_same_skel ns ns' id n : skel ns' = skel ns -> nth_error ns id = Some n ->
  exists n', nth_error ns' id = Some n' /\ erase n' = erase n.
Proof.
  intros E H. apply nth_skel in H. rewrite <- E in H. apply nth_skel_inv in H as (m & Hm & He). eauto.
Qed.

Section U.
Variables GF GU GL : cnf.
Variable g : ghost.
Notation Inv := (inv GF GU GL g).

Definition old_sem (d : litdata) : option semantics := match d with LLit _ s => s | LNone => None end.

Lemma get_olit_ok ow st id lits l r idx dat : Inv ow st -> nth_error (t_nodes st) id = Some (NUnit lits l r) ->
  nth_error lits idx = Some dat ->
  exists ol st' ow', get_olit st id idx = Some (ol, st') /\ Inv ow' st' /\ ext ow st ow' st' /\
    data (t_nodes st') id (idx + 1) = Some (LLit ol (old_sem dat)) /\ t_cls st' = t_cls st /\
    (forall j, j <> id -> nth_error (t_nodes st') j = nth_error (t_nodes st) j).
Proof.
  intros I Hn Hd. unfold get_olit. rewrite Hn. cbn [obind]. rewrite Hd. cbn [obind].
  assert (Hdat : data (t_nodes st) id (idx + 1) = Some dat).
  { unfold data. rewrite Hn. cbn [node_data]. replace (idx + 1 =? 0)%nat with false by lia.
    replace (idx + 1 - 1)%nat with idx by lia. auto. }
  assert (Hid : (id < length (t_nodes st))%nat) by (apply nth_error_Some; congruence).
  destruct dat as [|ol s].
  - pose proof (upd_data_unit _ _ _ _ _ _ (LLit (pos (t_next st)) None) _ Hn Hd) as U.
    destruct (inv_reserve _ _ _ _ _ _ _ _ _ I Hid Hdat U) as (I' & E').
    eexists _, _, _. split; [reflexivity|]. split; [exact I'|]. split; [exact E'|]. cbn [t_nodes t_cls old_sem].
    destruct U as (_ & U2 & _ & U4). auto.
  - exists ol, st, ow. split; [reflexivity|]. split; [auto|]. split; [apply ext_refl|]. auto.
Qed.

Lemma mark_unit_ok ow st id lits l r idx ol s sem : Inv ow st -> nth_error (t_nodes st) id = Some (NUnit lits l r) ->
  data (t_nodes st) id (idx + 1) = Some (LLit ol s) ->
  (has_if sem = true -> sem_le_if s = false -> forall a, sat_cnf a (GU ++ t_cls st) = true -> gT g a id (idx + 1) -> lit_true a ol = true) ->
  (has_only_if sem = true -> sem_le_oif s = false -> (forall i, nth_error (t_nodes st) i <> Some NDummy) ->
     forall a, sat_cnf a (GL ++ t_cls st) = true -> lit_true a ol = true -> (idx + 1 <= gV g a id)%nat) ->
  exists st', mark_unit st id idx sem = Some st' /\ Inv ow st' /\ ext ow st ow st' /\
    lit_has (t_nodes st') id (idx + 1) sem ol /\
    (forall j, j <> id -> nth_error (t_nodes st') j = nth_error (t_nodes st) j).
Proof.
  intros I Hn Hd HA HB. unfold mark_unit. rewrite Hn. cbn [obind].
  assert (Hdat : nth_error lits idx = Some (LLit ol s)).
  { unfold data in Hd. rewrite Hn in Hd. cbn [node_data] in Hd. replace (idx + 1 =? 0)%nat with false in Hd by lia.
    replace (idx + 1 - 1)%nat with idx in Hd by lia. auto. }
  rewrite Hdat. cbn [obind].
  assert (Ha : ld_add (LLit ol s) sem = Some (LLit ol (Some (sem_join s sem)))) by (destruct s; reflexivity).
  rewrite Ha. cbn [obind].
  pose proof (upd_data_unit _ _ _ _ _ _ (LLit ol (Some (sem_join s sem))) _ Hn Hdat) as U.
  destruct (inv_mark _ _ _ _ _ _ _ _ _ _ _ _ I Hd U HA HB) as (I' & E').
  eexists. split; [reflexivity|]. split; [exact I'|]. split; [exact E'|].
  destruct U as (_ & U2 & _ & U4). split; [|exact U4].
  right. exists (Some (sem_join s sem)). split; [exact U2|]. cbn [sem_le_if sem_le_oif].
  rewrite sem_join_if, sem_join_oif. split; intros ->; apply orb_true_r.
Qed.

(** the same, but only the node update: used where the clauses are emitted after marking *)
Lemma mark_emit_ok ow st id lits l r idx ol s sem cs : Inv ow st -> nth_error (t_nodes st) id = Some (NUnit lits l r) ->
  data (t_nodes st) id (idx + 1) = Some (LLit ol s) ->
  (forall a, canon g ow a -> sat_cnf a cs = true) ->
  (forall c l, In c cs -> In l c -> gin g (lvar l) = true \/ exists x, ow (lvar l) = Some x) ->
  (has_if sem = true -> sem_le_if s = false -> forall a, sat_cnf a (GU ++ t_cls st) = true -> sat_cnf a cs = true ->
     gT g a id (idx + 1) -> lit_true a ol = true) ->
  (has_only_if sem = true -> sem_le_oif s = false -> (forall i, nth_error (t_nodes st) i <> Some NDummy) ->
     forall a, sat_cnf a (GL ++ t_cls st) = true -> sat_cnf a cs = true -> lit_true a ol = true -> (idx + 1 <= gV g a id)%nat) ->
  exists st', mark_unit st id idx sem = Some st' /\ Inv ow (emit st' cs) /\ ext ow st ow (emit st' cs) /\
    lit_has (t_nodes st') id (idx + 1) sem ol /\ skel (t_nodes st') = skel (t_nodes st) /\
    (forall j, j <> id -> nth_error (t_nodes st') j = nth_error (t_nodes st) j).
Proof.
  intros I Hn Hd Hc Hv HA HB.
  destruct (inv_emit _ _ _ _ _ _ cs I Hc Hv) as (I1 & E1).
  destruct (mark_unit_ok _ _ _ _ _ _ _ _ _ sem I1 Hn Hd) as (st' & M & I' & E' & L & O).
  - cbn [emit t_cls]. intros X Y a S. rewrite app_assoc, sat_cnf_app_iff in S. destruct S. eauto.
  - cbn [emit t_cls t_nodes]. intros X Y Z a S. rewrite app_assoc, sat_cnf_app_iff in S. destruct S. eauto.
  - unfold mark_unit in *. cbn [emit t_nodes t_next t_cls] in M. rewrite Hn in *. cbn [obind] in *.
    destruct (nth_error lits idx) as [d|]; [|discriminate]. cbn [obind] in *.
    destruct (ld_add d sem) as [d'|]; [|discriminate]. cbn [obind] in *. injection M as M.
    eexists. split; [reflexivity|]. subst st'. cbn [set_nodes emit t_nodes t_next t_cls] in *.
    pose proof (ext_trans _ _ _ _ _ _ E1 E') as E2.
    split; [exact I'|]. split; [exact E2|]. split; [exact L|]. split; [apply E'|]. exact O.
Qed.

Lemma ld_missing_none l s sem : ld_missing (LLit l s) sem = None ->
  (has_if sem = true -> sem_le_if s = true) /\ (has_only_if sem = true -> sem_le_oif s = true).
Proof. destruct s as [[]|], sem; cbn; intros; split; congruence. Qed.

Lemma ld_missing_some d sem new : ld_missing d sem = Some new ->
  (has_if sem = true -> sem_le_if (old_sem d) = false -> has_if new = true) /\
  (has_only_if sem = true -> sem_le_oif (old_sem d) = false -> has_only_if new = true).
Proof. destruct d as [|l [[]|]], sem, new; cbn; intros; split; congruence. Qed.

Lemma lit_has_slice ns id val sem l : lit_has ns id val sem l ->
  (exists n, nth_error ns id = Some n /\ is_unitlike n) ->
  exists sl, lit_slice ns id = Some sl /\ slice_lit sl (val - 1) = Some l.
Proof.
  intros [[Hn ->]|(s & Hd & _)] (n & En & Hu); unfold lit_slice, slice_lit.
  - rewrite Hn. cbn. eauto.
  - unfold data in Hd. rewrite En in *. cbn [obind]. destruct n; cbn in *; try discriminate; try tauto.
    destruct (Nat.eqb_spec val 0); [discriminate|]. eexists. split; [reflexivity|]. rewrite Hd. reflexivity.
Qed.

Definition call_done (ns : list node) (c : nat * nat * semantics) : Prop :=
  let '(i, x, sm) := c in exists l, lit_has ns i (x + 1) sm l.

Lemma sat_clause_two a (xs : list lit) y : sat_clause a (cube_impl_lit xs y) = true ->
  (forall x, In x xs -> lit_true a x = true) -> lit_true a y = true.
Proof.
  intros H Hx. rewrite cube_impl_lit_sat in H. destruct (sat_cube a xs) eqn:E; [exact H|].
  exfalso. unfold sat_cube in E. assert (forallb (lit_true a) xs = true) by (apply forallb_forall; auto). congruence.
Qed.

Lemma sat_clause_two_intro a (xs : list lit) y : ((forall x, In x xs -> lit_true a x = true) -> lit_true a y = true) ->
  sat_clause a (cube_impl_lit xs y) = true.
Proof.
  intros H. rewrite cube_impl_lit_sat. destruct (sat_cube a xs) eqn:E; [|reflexivity].
  apply H. unfold sat_cube in E. rewrite forallb_forall in E. auto.
Qed.


(** facts about one child of a unit node *)
Lemma child_facts ow st id lits l r : Inv ow st -> nth_error (t_nodes st) id = Some (NUnit lits l r) ->
  exists nl nr ll lr,
    nth_error (t_nodes st) (nc_id l) = Some nl /\ nth_error (t_nodes st) (nc_id r) = Some nr /\
    is_general nl = false /\ is_general nr = false /\ (is_dummy nl = false \/ is_dummy nr = false) /\
    nc_mult l = 1%nat /\ nc_mult r = 1%nat /\
    (grk g (nc_id l) < grk g id)%nat /\ (grk g (nc_id r) < grk g id)%nat /\
    con_len (t_nodes st) l = Some ll /\ con_len (t_nodes st) r = Some lr /\ length lits = (ll + lr)%nat /\
    (forall a, gV g a id = nc_map l (gV g a (nc_id l)) + nc_map r (gV g a (nc_id r)))%nat /\
    (forall a v, gT g a id v <-> (v <= gV g a id)%nat) /\
    (forall a, nc_map l (gV g a (nc_id l)) <= ll)%nat /\ (forall a, nc_map r (gV g a (nc_id r)) <= lr)%nat /\
    (forall w v, (1 <= w <= ll)%nat -> (w <= nc_map l v <-> nc_rev_map l w <= v)%nat) /\
    (forall w v, (1 <= w <= lr)%nat -> (w <= nc_map r v <-> nc_rev_map r w <= v)%nat) /\
    (forall w, (1 <= w <= ll)%nat -> (1 <= nc_rev_map l w <= node_len nl)%nat) /\
    (forall w, (1 <= w <= lr)%nat -> (1 <= nc_rev_map r w <= node_len nr)%nat) /\
    (is_dummy nl = true -> ll = 0%nat) /\ (is_dummy nr = true -> lr = 0%nat).
Proof.
  intros I Hn. pose proof (i_shape _ _ _ _ _ _ I) as W.
  pose proof (wf_node _ _ W _ _ (nth_skel _ _ _ Hn)) as N. cbn [erase node_ok] in N.
  destruct N as ((Pl & ml & El & Ol) & (Pr & mr & Er & Or) & Ml & Mr & Rl & Rr & (nl0 & nr0 & E1 & E2 & G1 & G2 & D) & (ll & lr & L1 & L2 & Len) & HV & HT).
  rewrite map_length in Len. rewrite con_len_skel in L1, L2.
  assert (nl0 = ml) as -> by congruence. assert (nr0 = mr) as -> by congruence.
  apply nth_skel_inv in El as (nl & El & ->). apply nth_skel_inv in Er as (nr & Er & ->).
  rewrite ?is_general_erase, ?is_dummy_erase, ?node_len_erase in *.
  exists nl, nr, ll, lr.
  assert (Vl : forall a, (gV g a (nc_id l) <= node_len nl)%nat).
  { intros a. pose proof (wf_max _ _ W a _ _ (nth_skel _ _ _ El)) as H. rewrite node_max_val_erase in H.
    destruct nl; cbn in *; try lia; discriminate. }
  assert (Vr : forall a, (gV g a (nc_id r) <= node_len nr)%nat).
  { intros a. pose proof (wf_max _ _ W a _ _ (nth_skel _ _ _ Er)) as H. rewrite node_max_val_erase in H.
    destruct nr; cbn in *; try lia; discriminate. }
  repeat (split; [solve [auto]|]).
  split; [intros a; exact (unit_con_le _ _ _ _ _ Pl Ml El L1 (Vl a))|].
  split; [intros a; exact (unit_con_le _ _ _ _ _ Pr Mr Er L2 (Vr a))|].
  split; [intros w v Hw; apply (unit_con_adj _ _ _ _ w v Pl Ml El Ol L1 Hw)|].
  split; [intros w v Hw; apply (unit_con_adj _ _ _ _ w v Pr Mr Er Or L2 Hw)|].
  split; [intros w Hw; apply (unit_con_adj _ _ _ _ w 0%nat Pl Ml El Ol L1 Hw)|].
  split; [intros w Hw; apply (unit_con_adj _ _ _ _ w 0%nat Pr Mr Er Or L2 Hw)|].
  unfold con_len in L1, L2. rewrite El in L1. rewrite Er in L2. cbn [obind] in L1, L2.
  destruct Pl as (? & _ & _), Pr as (? & _ & _).
  split; intros HD.
  - destruct nl; try discriminate. cbn in L1. rewrite Nat.div_0_l in L1 by lia. destruct (nc_limit l); injection L1; lia.
  - destruct nr; try discriminate. cbn in L2. rewrite Nat.div_0_l in L2 by lia. destruct (nc_limit r); injection L2; lia.
Qed.

Lemma unitlike_of n : is_general n = false -> is_dummy n = false -> is_unitlike n.
Proof. destruct n; cbn; auto; discriminate. Qed.

Lemma gT_unitlike ow st id n : Inv ow st -> nth_error (t_nodes st) id = Some n -> is_unitlike n ->
  forall a v, gT g a id v <-> (v <= gV g a id)%nat.
Proof.
  intros I Hn Hu. pose proof (wf_node _ _ (i_shape _ _ _ _ _ _ I) _ _ (nth_skel _ _ _ Hn)) as N.
  destruct n; cbn in *; try tauto.
Qed.

(** the "if" clauses of one output *)
Lemma if_clauses_ok ow st id lits l r ll lr idx olit os llits rlits lis ris :
  Inv ow st -> nth_error (t_nodes st) id = Some (NUnit lits l r) ->
  con_len (t_nodes st) l = Some ll -> con_len (t_nodes st) r = Some lr ->
  data (t_nodes st) id (idx + 1) = Some (LLit olit os) -> (idx < length lits)%nat ->
  lis = range_incl (idx + 1 - Nat.min lr (idx + 1)) (Nat.min ll (idx + 1)) ->
  ris = range_incl (idx + 1 - Nat.min ll (idx + 1)) (Nat.min lr (idx + 1)) ->
  (forall w, In w lis -> w <> 0%nat -> exists x, lit_has (t_nodes st) (nc_id l) (nc_rev_map l w) SIf x /\ slice_lit llits (con_idx (w - 1) l) = Some x) ->
  (forall w, In w ris -> w <> 0%nat -> exists x, lit_has (t_nodes st) (nc_id r) (nc_rev_map r w) SIf x /\ slice_lit rlits (con_idx (w - 1) r) = Some x) ->
  forall p, u_lcon p = l -> u_rcon p = r ->
  exists cs, mapM (if_clause p idx olit llits rlits) lis = Some cs /\
    (forall a, canon g ow a -> sat_cnf a cs = true) /\
    (forall c x, In c cs -> In x c -> gin g (lvar x) = true \/ exists y, ow (lvar x) = Some y) /\
    (forall a, sat_cnf a (GU ++ t_cls st) = true -> sat_cnf a cs = true -> gT g a id (idx + 1) -> lit_true a olit = true).
Proof.
  intros I Hn CL CR Hd Hidx -> -> HL HR p Pl Pr.
  destruct (child_facts _ _ _ _ _ _ I Hn) as (nl & nr & ll' & lr' & El & Er & Gl & Gr & Dd & Ml & Mr & Rl & Rr & CL' & CR' & Len & HV & HT & Bl & Br & Al & Ar & Nl & Nr & _).
  assert (ll' = ll) as -> by congruence. assert (lr' = lr) as -> by congruence.
  assert (Hcl : forall lval, In lval (range_incl (idx + 1 - Nat.min lr (idx + 1)) (Nat.min ll (idx + 1))) ->
     exists xs ys, if_clause p idx olit llits rlits lval = Some (cube_impl_lit (xs ++ ys) olit) /\
       ((lval = 0%nat /\ xs = []) \/ exists x, xs = [x] /\ lval <> 0%nat /\ lit_has (t_nodes st) (nc_id l) (nc_rev_map l lval) SIf x) /\
       ((idx + 1 - lval = 0%nat /\ ys = [])%nat \/ exists y, ys = [y] /\ (idx + 1 - lval <> 0)%nat /\ lit_has (t_nodes st) (nc_id r) (nc_rev_map r (idx + 1 - lval)) SIf y)).
  { intros lval Hlv. unfold if_clause. rewrite Pl, Pr.
    assert (Hr : In (idx + 1 - lval)%nat (range_incl (idx + 1 - Nat.min ll (idx + 1)) (Nat.min lr (idx + 1)))).
    { apply in_range_incl. apply in_range_incl in Hlv. lia. }
    destruct (Nat.ltb_spec 0 lval) as [H1|H1].
    - destruct (HL lval Hlv ltac:(lia)) as (x & Hx & Sx). rewrite Sx. cbn [obind].
      destruct (Nat.ltb_spec 0 (idx + 1 - lval)) as [H2|H2].
      + destruct (HR _ Hr ltac:(lia)) as (y & Hy & Sy). rewrite Sy. cbn [obind].
        exists [x], [y]. split; [reflexivity|]. split; right; eexists; (split; [reflexivity|]); (split; [lia|auto]).
      + cbn [obind]. exists [x], []. split; [reflexivity|]. split; [right; eexists; (split; [reflexivity|]); (split; [lia|auto])|left; split; [lia|reflexivity]].
    - cbn [obind]. destruct (Nat.ltb_spec 0 (idx + 1 - lval)) as [H2|H2].
      + destruct (HR _ Hr ltac:(lia)) as (y & Hy & Sy). rewrite Sy. cbn [obind].
        exists [], [y]. split; [reflexivity|]. split; [left; split; [lia|reflexivity]|right; eexists; (split; [reflexivity|]); (split; [lia|auto])].
      + lia. }
  destruct (mapM_spec (if_clause p idx olit llits rlits) (range_incl (idx + 1 - Nat.min lr (idx + 1)) (Nat.min ll (idx + 1)))) as (cs & E & M1 & M2).
  { intros x Hx. destruct (Hcl x Hx) as (xs & ys & E & _). eauto. }
  exists cs. split; [exact E|]. split; [|split].
  - (* completeness *)
    intros a Ca. unfold sat_cnf. apply forallb_forall. intros c Hc. destruct (M2 c Hc) as (lval & Hlv & Ec).
    destruct (Hcl lval Hlv) as (xs & ys & Ec' & Hxs & Hys). rewrite Ec' in Ec. injection Ec as <-.
    apply in_range_incl in Hlv. apply sat_clause_two_intro. intros Ht.
    rewrite (data_canon _ _ _ _ _ _ a _ _ _ _ I Ca Hd), HV. apply Nat.leb_le.
    assert (lval <= nc_map l (gV g a (nc_id l)))%nat.
    { destruct Hxs as [[-> ->]|(x & -> & Hne & Hx)]; [lia|]. apply Al; [lia|].
      rewrite <- Nat.leb_le, <- (lit_has_canon _ _ _ _ _ _ a _ _ _ _ I Ca Hx). apply Ht. now left. }
    assert (idx + 1 - lval <= nc_map r (gV g a (nc_id r)))%nat.
    { destruct Hys as [[-> ->]|(y & -> & Hne & Hy)]; [lia|]. apply Ar; [lia|].
      rewrite <- Nat.leb_le, <- (lit_has_canon _ _ _ _ _ _ a _ _ _ _ I Ca Hy). apply Ht, in_or_app. right; now left. }
    lia.
  - intros c x Hc Hx. destruct (M2 c Hc) as (lval & Hlv & Ec).
    destruct (Hcl lval Hlv) as (xs & ys & Ec' & Hxs & Hys). rewrite Ec' in Ec. injection Ec as <-.
    unfold cube_impl_lit in Hx. apply in_app_or in Hx as [Hx|[<-|[]]]; [|eapply data_var; eauto].
    apply in_map_iff in Hx as (z & <- & Hz). rewrite lvar_neg. apply in_app_or in Hz as [Hz|Hz].
    + destruct Hxs as [[_ ->]|(x & -> & _ & Hx)]; [destruct Hz|]. destruct Hz as [<-|[]]. eapply lit_has_var; eauto.
    + destruct Hys as [[_ ->]|(x & -> & _ & Hx)]; [destruct Hz|]. destruct Hz as [<-|[]]. eapply lit_has_var; eauto.
  - (* soundness *)
    intros a S Sc Ht. apply HT in Ht. rewrite HV in Ht.
    set (cl := nc_map l (gV g a (nc_id l))) in *. set (cr := nc_map r (gV g a (nc_id r))) in *.
    pose proof (Bl a) as Bl'. pose proof (Br a) as Br'. fold cl in Bl'. fold cr in Br'.
    set (lval := Nat.min cl (idx + 1)).
    assert (Hlv : In lval (range_incl (idx + 1 - Nat.min lr (idx + 1)) (Nat.min ll (idx + 1)))) by (apply in_range_incl; lia).
    destruct (Hcl lval Hlv) as (xs & ys & Ec' & Hxs & Hys). destruct (M1 lval Hlv) as (c & Ec & Hc).
    rewrite Ec' in Ec. injection Ec as <-.
    apply (sat_clause_two a _ _ (sat_cnf_In _ _ _ Sc Hc)). intros x Hx. apply in_app_or in Hx as [Hx|Hx].
    + destruct Hxs as [[_ ->]|(z & -> & Hne & Hz)]; [destruct Hx|]. destruct Hx as [<-|[]].
      apply (lit_has_if _ _ _ _ _ _ a _ _ _ I S Hz). assert (ND : is_dummy nl = false).
      { destruct nl; try reflexivity. destruct Hz as [[Hz _]|(sx & Hz & _)]; [congruence|]. unfold data in Hz. rewrite El in Hz. discriminate. }
      rewrite (gT_unitlike _ _ _ _ I El (unitlike_of _ Gl ND)). apply Al; [lia|]. fold cl. lia.
    + destruct Hys as [[_ ->]|(z & -> & Hne & Hz)]; [destruct Hx|]. destruct Hx as [<-|[]].
      apply (lit_has_if _ _ _ _ _ _ a _ _ _ I S Hz). assert (ND : is_dummy nr = false).
      { destruct nr; try reflexivity. destruct Hz as [[Hz _]|(sx & Hz & _)]; [congruence|]. unfold data in Hz. rewrite Er in Hz. discriminate. }
      rewrite (gT_unitlike _ _ _ _ I Er (unitlike_of _ Gr ND)). apply Ar; [lia|]. fold cr. lia.
Qed.

(** the "only if" clauses of one output *)
Lemma only_if_clauses_ok ow st id lits l r ll lr idx olit os llits rlits lis ris :
  Inv ow st -> nth_error (t_nodes st) id = Some (NUnit lits l r) ->
  con_len (t_nodes st) l = Some ll -> con_len (t_nodes st) r = Some lr ->
  data (t_nodes st) id (idx + 1) = Some (LLit olit os) -> (idx < length lits)%nat ->
  lis = range_incl (idx - Nat.min lr idx) (Nat.min ll idx) ->
  ris = range_incl (idx - Nat.min ll idx) (Nat.min lr idx) ->
  (forall w, In w lis -> w <> ll -> exists x, lit_has (t_nodes st) (nc_id l) (nc_rev_map l (w + 1)) SOnlyIf x /\ slice_lit llits (con_idx w l) = Some x) ->
  (forall w, In w ris -> w <> lr -> exists x, lit_has (t_nodes st) (nc_id r) (nc_rev_map r (w + 1)) SOnlyIf x /\ slice_lit rlits (con_idx w r) = Some x) ->
  forall p, u_lcon p = l -> u_rcon p = r ->
  exists cs, mapM (only_if_clause p idx olit llits rlits ll lr) lis = Some cs /\
    (forall a, canon g ow a -> sat_cnf a cs = true) /\
    (forall c x, In c cs -> In x c -> gin g (lvar x) = true \/ exists y, ow (lvar x) = Some y) /\
    ((forall i, nth_error (t_nodes st) i <> Some NDummy) ->
     forall a, sat_cnf a (GL ++ t_cls st) = true -> sat_cnf a cs = true -> lit_true a olit = true -> (idx + 1 <= gV g a id)%nat).
Proof.
  intros I Hn CL CR Hd Hidx -> -> HL HR p Pl Pr.
  destruct (child_facts _ _ _ _ _ _ I Hn) as (nl & nr & ll' & lr' & El & Er & Gl & Gr & Dd & Ml & Mr & Rl & Rr & CL' & CR' & Len & HV & HT & Bl & Br & Al & Ar & Nl & Nr & _).
  assert (ll' = ll) as -> by congruence. assert (lr' = lr) as -> by congruence.
  assert (Hcl : forall lval, In lval (range_incl (idx - Nat.min lr idx) (Nat.min ll idx)) ->
     exists xs ys, only_if_clause p idx olit llits rlits ll lr lval = Some (cube_impl_lit (xs ++ ys) (neg olit)) /\
       ((lval = ll /\ xs = []) \/ exists x, xs = [neg x] /\ (lval < ll)%nat /\ lit_has (t_nodes st) (nc_id l) (nc_rev_map l (lval + 1)) SOnlyIf x) /\
       ((idx - lval = lr /\ ys = [])%nat \/ exists y, ys = [neg y] /\ (idx - lval < lr)%nat /\ lit_has (t_nodes st) (nc_id r) (nc_rev_map r (idx - lval + 1)) SOnlyIf y)).
  { intros lval Hlv. unfold only_if_clause. rewrite Pl, Pr.
    assert (Hr : In (idx - lval)%nat (range_incl (idx - Nat.min ll idx) (Nat.min lr idx))).
    { apply in_range_incl. apply in_range_incl in Hlv. lia. }
    assert (Hlv' := Hlv). assert (Hr' := Hr). apply in_range_incl in Hlv', Hr'.
    destruct (Nat.ltb_spec lval ll) as [H1|H1].
    - destruct (HL lval Hlv ltac:(lia)) as (x & Hx & Sx). rewrite Sx. cbn [obind].
      destruct (Nat.ltb_spec (idx - lval) lr) as [H2|H2].
      + destruct (HR _ Hr ltac:(lia)) as (y & Hy & Sy). rewrite Sy. cbn [obind].
        exists [neg x], [neg y]. split; [reflexivity|]. split; right; eexists; (split; [reflexivity|]); (split; [lia|auto]).
      + cbn [obind]. exists [neg x], []. split; [reflexivity|]. split; [right; eexists; (split; [reflexivity|]); (split; [lia|auto])|left; split; [lia|reflexivity]].
    - cbn [obind]. destruct (Nat.ltb_spec (idx - lval) lr) as [H2|H2].
      + destruct (HR _ Hr ltac:(lia)) as (y & Hy & Sy). rewrite Sy. cbn [obind].
        exists [], [neg y]. split; [reflexivity|]. split; [left; split; [lia|reflexivity]|right; eexists; (split; [reflexivity|]); (split; [lia|auto])].
      + lia. }
  destruct (mapM_spec (only_if_clause p idx olit llits rlits ll lr) (range_incl (idx - Nat.min lr idx) (Nat.min ll idx))) as (cs & E & M1 & M2).
  { intros x Hx. destruct (Hcl x Hx) as (xs & ys & E & _). eauto. }
  exists cs. split; [exact E|]. split; [|split].
  - (* completeness *)
    intros a Ca. unfold sat_cnf. apply forallb_forall. intros c Hc. destruct (M2 c Hc) as (lval & Hlv & Ec).
    destruct (Hcl lval Hlv) as (xs & ys & Ec' & Hxs & Hys). rewrite Ec' in Ec. injection Ec as <-.
    apply in_range_incl in Hlv. apply sat_clause_two_intro. intros Ht.
    rewrite lit_true_neg, (data_canon _ _ _ _ _ _ a _ _ _ _ I Ca Hd), HV. apply negb_true_iff, Nat.leb_gt.
    pose proof (Bl a) as Bl'. pose proof (Br a) as Br'.
    assert (nc_map l (gV g a (nc_id l)) <= lval)%nat.
    { destruct Hxs as [[-> ->]|(x & -> & Hne & Hx)]; [lia|].
      assert (H : lit_true a (neg x) = true) by (apply Ht; now left).
      rewrite lit_true_neg, (lit_has_canon _ _ _ _ _ _ a _ _ _ _ I Ca Hx) in H.
      apply negb_true_iff, Nat.leb_gt in H.
      enough (~ (lval + 1 <= nc_map l (gV g a (nc_id l)))%nat) by lia. rewrite Al by lia. lia. }
    assert (nc_map r (gV g a (nc_id r)) <= idx - lval)%nat.
    { destruct Hys as [[-> ->]|(x & -> & Hne & Hx)]; [lia|].
      assert (H' : lit_true a (neg x) = true) by (apply Ht, in_or_app; right; now left).
      rewrite lit_true_neg, (lit_has_canon _ _ _ _ _ _ a _ _ _ _ I Ca Hx) in H'.
      apply negb_true_iff, Nat.leb_gt in H'.
      enough (~ (idx - lval + 1 <= nc_map r (gV g a (nc_id r)))%nat) by lia. rewrite Ar by lia. lia. }
    lia.
  - intros c x Hc Hx. destruct (M2 c Hc) as (lval & Hlv & Ec).
    destruct (Hcl lval Hlv) as (xs & ys & Ec' & Hxs & Hys). rewrite Ec' in Ec. injection Ec as <-.
    unfold cube_impl_lit in Hx. apply in_app_or in Hx as [Hx|[<-|[]]]; [|rewrite lvar_neg; eapply data_var; eauto].
    apply in_map_iff in Hx as (z & <- & Hz). rewrite lvar_neg. apply in_app_or in Hz as [Hz|Hz].
    + destruct Hxs as [[_ ->]|(x & -> & _ & Hx)]; [destruct Hz|]. destruct Hz as [<-|[]]. rewrite lvar_neg. eapply lit_has_var; eauto.
    + destruct Hys as [[_ ->]|(x & -> & _ & Hx)]; [destruct Hz|]. destruct Hz as [<-|[]]. rewrite lvar_neg. eapply lit_has_var; eauto.
  - (* soundness *)
    intros ND a S Sc Ht. rewrite HV.
    set (cl := nc_map l (gV g a (nc_id l))) in *. set (cr := nc_map r (gV g a (nc_id r))) in *.
    pose proof (Bl a) as Bl'. pose proof (Br a) as Br'. fold cl in Bl'. fold cr in Br'.
    destruct (Nat.le_gt_cases (idx + 1) (cl + cr)) as [|Hlt]; [assumption|exfalso].
    set (lval := Nat.max cl (idx - Nat.min lr idx)).
    assert (Hlv : In lval (range_incl (idx - Nat.min lr idx) (Nat.min ll idx))) by (apply in_range_incl; lia).
    destruct (Hcl lval Hlv) as (xs & ys & Ec' & Hxs & Hys). destruct (M1 lval Hlv) as (c & Ec & Hc).
    rewrite Ec' in Ec. injection Ec as <-.
    enough (lit_true a (neg olit) = true) as X by (rewrite lit_true_neg, Ht in X; discriminate).
    apply (sat_clause_two a _ _ (sat_cnf_In _ _ _ Sc Hc)). intros x Hx. apply in_app_or in Hx as [Hx|Hx].
    + destruct Hxs as [[_ ->]|(z & -> & Hne & Hz)]; [destruct Hx|]. destruct Hx as [<-|[]].
      rewrite lit_true_neg. destruct (lit_true a z) eqn:Ez; [exfalso|reflexivity].
      apply (lit_has_oif _ _ _ _ _ _ a _ _ _ I S ND Hz) in Ez.
      apply Al in Ez; [|lia]. fold cl in Ez. lia.
    + destruct Hys as [[_ ->]|(z & -> & Hne & Hz)]; [destruct Hx|]. destruct Hx as [<-|[]].
      rewrite lit_true_neg. destruct (lit_true a z) eqn:Ez; [exfalso|reflexivity].
      apply (lit_has_oif _ _ _ _ _ _ a _ _ _ I S ND Hz) in Ez.
      apply Ar in Ez; [|lia]. fold cr in Ez. lia.
Qed.

End U.
