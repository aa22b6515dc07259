(** * Totalizer databases with "if" semantics only: an invariant that does not mention the values of nodes

    The invariant [inv] of [TotDbInv] fixes the value of every node. When the dynamic polynomial watchdog raises its
    precision it redirects connections of existing nodes, which changes their values after clauses have been emitted.
    The invariant here only speaks about the clauses: they hold for all values that are large enough at every node, and
    every output literal marked "if" is implied by each pair of child outputs that reaches its value. *)

From Coq Require Import List Bool NArith ZArith Lia Arith.
From Coq Require Import ZifyBool ZifyNat ZifyN.
From Verif Require Import Spec Types Atomics AtomicsProofs NodeDb TotDb Base TotDbInv TotDbUnit TotDbDefine.
Import ListNotations.

(** values that are at least the sum of the children *)
Definition supadd (ns : list node) (a : asg) (V : nat -> nat) : Prop := forall id n, nth_error ns id = Some n ->
  match n with
  | NLeaf l => lit_true a l = true -> (1 <= V id)%nat
  | NUnit _ l r => (nc_map l (V (nc_id l)) + nc_map r (V (nc_id r)) <= V id)%nat
  | NGeneral _ _ _ _ => True
  | NDummy => V id = 0%nat
  end.

Definition downed (ow : owner) (a : asg) (V : nat -> nat) : Prop := forall v id val, ow v = Some (id, val) -> a v = (val <=? V id)%nat.

Lemma supadd_skel ns ns' a V : skel ns' = skel ns -> supadd ns a V -> supadd ns' a V.
Proof.
  intros E H id n Hn. destruct (node_same_skel _ ns _ _ (eq_sym E) Hn) as (n' & Hn' & He). specialize (H id n' Hn').
  destruct n, n'; cbn [erase] in He; inversion He; subst; auto.
Qed.

(** the literals that make a connection reach a value: none for 0 *)
Definition side (ns : list node) (con : nodecon) (w : nat) (xs : list lit) : Prop :=
  (w = 0%nat /\ xs = []) \/ exists x, xs = [x] /\ w <> 0%nat /\ lit_has ns (nc_id con) (nc_rev_map con w) SIf x.

(** the clauses imply the literal from the outputs [lv] and [rv] of the children *)
Definition pair_done (GU : cnf) (ns : list node) (cls : cnf) (l r : nodecon) (ol : lit) (lv rv : nat) : Prop :=
  exists xs ys, side ns l lv xs /\ side ns r rv ys /\
    forall a, sat_cnf a (GU ++ cls) = true -> (forall x, In x (xs ++ ys) -> lit_true a x = true) -> lit_true a ol = true.

Record qinv (GF GU : cnf) (gi : N -> bool) (cap : nat -> option nat) (ow : owner) (st : tst) : Prop := mkQinv {
  q_own : forall id val l s, data (t_nodes st) id val = Some (LLit l s) -> exists v, l = pos v /\ ow v = Some (id, val);
  q_ow : forall v id val, ow v = Some (id, val) -> (v < t_next st)%N /\ gi v = false /\ (id < length (t_nodes st))%nat;
  q_in : forall v, gi v = true -> (v < t_next st)%N;
  q_leaf : forall id l, nth_error (t_nodes st) id = Some (NLeaf l) -> gi (lvar l) = true;
  q_gen : forall id lits m l r val x s, nth_error (t_nodes st) id = Some (NGeneral lits m l r) -> data (t_nodes st) id val <> Some (LLit x s);
  q_comp : forall a V, supadd (t_nodes st) a V -> downed ow a V -> sat_cnf a (GF ++ t_cls st) = true;
  q_if : forall id lits l r val ol s, nth_error (t_nodes st) id = Some (NUnit lits l r) -> data (t_nodes st) id val = Some (LLit ol s) -> sem_le_if s = true ->
      forall ll lr lv rv, con_len (t_nodes st) l = Some ll -> con_len (t_nodes st) r = Some lr -> (lv + rv = val)%nat -> (lv <= ll)%nat -> (rv <= lr)%nat ->
      (forall c, cap id = Some c -> (rv <= c)%nat) -> pair_done GU (t_nodes st) (t_cls st) l r ol lv rv;
  q_oif : forall id val l s, data (t_nodes st) id val = Some (LLit l s) -> sem_le_oif s = false;
  q_vars : forall c l, In c (GF ++ t_cls st) -> In l c -> gi (lvar l) = true \/ exists x, ow (lvar l) = Some x
}.

(** the nodes of a child-closed set are well-formed unit nodes, leaves and dummies *)
Definition sh (ns : list node) (rk : nat -> nat) (C : nat -> Prop) : Prop :=
  forall id lits l r, C id -> nth_error ns id = Some (NUnit lits l r) ->
    con_ok ns l /\ con_ok ns r /\ nc_mult l = 1%nat /\ nc_mult r = 1%nat /\
    (rk (nc_id l) < rk id)%nat /\ (rk (nc_id r) < rk id)%nat /\ C (nc_id l) /\ C (nc_id r) /\
    (exists nl nr, nth_error ns (nc_id l) = Some nl /\ nth_error ns (nc_id r) = Some nr /\
       is_general nl = false /\ is_general nr = false /\ (is_dummy nl = false \/ is_dummy nr = false)) /\
    (exists ll lr, con_len ns l = Some ll /\ con_len ns r = Some lr /\ length lits = (ll + lr)%nat).

Lemma con_ok_skel_iff ns con : con_ok (skel ns) con -> con_ok ns con.
Proof. intros (P & n & E & O). split; [auto|]. apply nth_skel_inv in E as (n0 & E & ->). exists n0. rewrite node_len_erase in O. auto. Qed.
Lemma con_ok_same ns ns' con : skel ns' = skel ns -> con_ok ns con -> con_ok ns' con.
Proof.
  intros E (P & n & En & O). split; [auto|]. destruct (node_same_skel _ ns' _ _ E En) as (n' & Hn' & He). exists n'. split; [auto|].
  rewrite <- (node_len_erase n'), He, node_len_erase. exact O.
Qed.

Lemma sh_skel ns ns' rk C : skel ns' = skel ns -> sh ns rk C -> sh ns' rk C.
Proof.
  intros E H id lits l r HC Hn. destruct (unit_same_skel _ ns _ _ _ _ (eq_sym E) Hn) as (lits0 & Hn0 & Hl).
  destruct (H id lits0 l r HC Hn0) as (A1 & A2 & A3 & A4 & A5 & A6 & A7 & A8 & (nl & nr & B1 & B2 & B3 & B4 & B5) & (ll & lr & C1 & C2 & C3)).
  destruct (node_same_skel _ ns' _ _ E B1) as (nl' & B1' & El). destruct (node_same_skel _ ns' _ _ E B2) as (nr' & B2' & Er).
  split; [eapply con_ok_same; eauto|]. split; [eapply con_ok_same; eauto|]. repeat (split; [solve [auto]|]). split.
  - exists nl', nr'. split; [auto|]. split; [auto|]. rewrite <- (is_general_erase nl'), <- (is_general_erase nr'), <- (is_dummy_erase nl'), <- (is_dummy_erase nr'), El, Er, !is_general_erase, !is_dummy_erase. auto.
  - exists ll, lr. rewrite <- (con_len_skel ns' l), <- (con_len_skel ns' r), E, !con_len_skel. repeat split; auto. lia.
Qed.

(** facts about the children of a unit node *)
Lemma sh_facts ns rk C id lits l r : sh ns rk C -> C id -> nth_error ns id = Some (NUnit lits l r) ->
  exists nl nr ll lr,
    nth_error ns (nc_id l) = Some nl /\ nth_error ns (nc_id r) = Some nr /\
    is_general nl = false /\ is_general nr = false /\ (is_dummy nl = false \/ is_dummy nr = false) /\
    nc_mult l = 1%nat /\ nc_mult r = 1%nat /\
    (rk (nc_id l) < rk id)%nat /\ (rk (nc_id r) < rk id)%nat /\ C (nc_id l) /\ C (nc_id r) /\
    con_len ns l = Some ll /\ con_len ns r = Some lr /\ length lits = (ll + lr)%nat /\
    (forall w v, (1 <= w <= ll)%nat -> (w <= nc_map l v <-> nc_rev_map l w <= v)%nat) /\
    (forall w v, (1 <= w <= lr)%nat -> (w <= nc_map r v <-> nc_rev_map r w <= v)%nat) /\
    (forall w, (1 <= w <= ll)%nat -> (1 <= nc_rev_map l w <= node_len nl)%nat) /\
    (forall w, (1 <= w <= lr)%nat -> (1 <= nc_rev_map r w <= node_len nr)%nat) /\
    (is_dummy nl = true -> ll = 0%nat) /\ (is_dummy nr = true -> lr = 0%nat).
Proof.
  intros H HC Hn. destruct (H id lits l r HC Hn) as ((Pl & ml & El & Ol) & (Pr & mr & Er & Or) & Ml & Mr & Rl & Rr & Cl & Cr & (nl & nr & E1 & E2 & G1 & G2 & D) & (ll & lr & L1 & L2 & Len)).
  assert (ml = nl) as -> by congruence. assert (mr = nr) as -> by congruence.
  exists nl, nr, ll, lr. repeat (split; [solve [auto]|]).
  split; [intros w v Hw; apply (unit_con_adj _ _ _ _ w v Pl Ml El Ol L1 Hw)|].
  split; [intros w v Hw; apply (unit_con_adj _ _ _ _ w v Pr Mr Er Or L2 Hw)|].
  split; [intros w Hw; apply (unit_con_adj _ _ _ _ w 0%nat Pl Ml El Ol L1 Hw)|].
  split; [intros w Hw; apply (unit_con_adj _ _ _ _ w 0%nat Pr Mr Er Or L2 Hw)|].
  unfold con_len in L1, L2. rewrite El in L1. rewrite Er in L2. cbn [obind] in L1, L2.
  destruct Pl as (? & _ & _), Pr as (? & _ & _).
  split; intros HD.
  - destruct nl; try discriminate. cbn in L1. rewrite Nat.div_0_l in L1 by lia. destruct (nc_limit l); injection L1; lia.
  - destruct nr; try discriminate. cbn in L2. rewrite Nat.div_0_l in L2 by lia. destruct (nc_limit r); injection L2; lia.
Qed.

Section Q.
Variables GF GU : cnf.
Variable gi : N -> bool.
Variable cap : nat -> option nat.
Notation Q := (qinv GF GU gi cap).

Lemma q_lit_true ow st a V id val l : Q ow st -> supadd (t_nodes st) a V -> downed ow a V ->
  lit_has (t_nodes st) id val SIf l -> lit_true a l = true -> (val <= V id)%nat.
Proof.
  intros I S D [[Hn ->]|(s & Hd & _)] Ht.
  - exact (S _ _ Hn Ht).
  - destruct (q_own _ _ _ _ _ _ I _ _ _ _ Hd) as (v & -> & Ho). unfold lit_true in Ht. cbn in Ht. rewrite (D _ _ _ Ho) in Ht. destruct (Nat.leb_spec val (V id)); [auto|discriminate].
Qed.

Lemma q_data_true ow st a V id val l s : Q ow st -> downed ow a V -> data (t_nodes st) id val = Some (LLit l s) -> (val <= V id)%nat -> lit_true a l = true.
Proof.
  intros I D Hd Hv. destruct (q_own _ _ _ _ _ _ I _ _ _ _ Hd) as (v & -> & Ho). unfold lit_true. cbn. rewrite (D _ _ _ Ho). destruct (Nat.leb_spec val (V id)); [auto|lia].
Qed.

Lemma q_lit_var ow st id val sem l : Q ow st -> lit_has (t_nodes st) id val sem l -> gi (lvar l) = true \/ exists x, ow (lvar l) = Some x.
Proof.
  intros I [[Hn ->]|(s & Hd & _)].
  - left. exact (q_leaf _ _ _ _ _ _ I _ _ Hn).
  - right. destruct (q_own _ _ _ _ _ _ I _ _ _ _ Hd) as (v & -> & Ho). eauto.
Qed.

Lemma q_data_var ow st id val s l : Q ow st -> data (t_nodes st) id val = Some (LLit l s) -> gi (lvar l) = true \/ exists x, ow (lvar l) = Some x.
Proof. intros I Hd. right. destruct (q_own _ _ _ _ _ _ I _ _ _ _ Hd) as (v & -> & Ho). eauto. Qed.

Lemma side_mono (ns ns' : list node) con w xs : (forall id val l, lit_has ns id val SIf l -> lit_has ns' id val SIf l) -> side ns con w xs -> side ns' con w xs.
Proof. intros M [H|(x & E & Hw & H)]; [left; auto|right; exists x; auto]. Qed.

Lemma pair_mono ns ns' cls cls' l r ol lv rv : (forall id val l, lit_has ns id val SIf l -> lit_has ns' id val SIf l) ->
  (forall c, In c cls -> In c cls') -> pair_done GU ns cls l r ol lv rv -> pair_done GU ns' cls' l r ol lv rv.
Proof.
  intros M Hc (xs & ys & A & B & C). exists xs, ys. split; [eapply side_mono; eauto|]. split; [eapply side_mono; eauto|].
  intros a Ha. apply C. unfold sat_cnf in *. rewrite forallb_forall in *. intros c Hin. apply Ha. rewrite in_app_iff in *. destruct Hin; auto.
Qed.

Lemma qinv_emit ow st cs : Q ow st ->
  (forall a V, supadd (t_nodes st) a V -> downed ow a V -> sat_cnf a cs = true) ->
  (forall c l, In c cs -> In l c -> gi (lvar l) = true \/ exists x, ow (lvar l) = Some x) ->
  Q ow (emit st cs) /\ ext ow st ow (emit st cs).
Proof.
  intros [O1 O2 I1 Lf Gn C If Oif Vs] Hc Hv. split.
  - constructor; cbn [emit t_nodes t_next t_cls]; auto.
    + intros a V Ha Hd. rewrite app_assoc, sat_cnf_app_iff. eauto.
    + intros. eapply pair_mono; [intros ? ? ? X; exact X| |eapply If; eauto]. intros c Hin. apply in_or_app; auto.
    + intros c l H. rewrite app_assoc in H. apply in_app_or in H as [H|H]; eauto.
  - constructor; cbn [emit t_nodes t_next t_cls]; eauto. lia.
Qed.

Lemma qinv_reserve ow st id val lits0 l0 r0 ns' : Q ow st -> nth_error (t_nodes st) id = Some (NUnit lits0 l0 r0) ->
  data (t_nodes st) id val = Some LNone -> upd_data (t_nodes st) id val (LLit (pos (t_next st)) None) ns' ->
  let st' := mkTst ns' (t_next st + 1)%N (t_cls st) in
  let ow' := own_set ow (t_next st) (id, val) in
  Q ow' st' /\ ext ow st ow' st'.
Proof.
  intros [O1 O2 I1 Lf Gn C If Oif Vs] Hid Hd0 (Us & Ud & Uo & Un) st' ow'.
  assert (Hfresh : ow (t_next st) = None).
  { destruct (ow (t_next st)) as [[i v]|] eqn:E; [|reflexivity]. apply O2 in E. lia. }
  assert (Hmono : forall v x, ow v = Some x -> ow' v = Some x).
  { intros v x H. unfold ow', own_set. destruct (N.eqb_spec v (t_next st)); [subst; congruence|auto]. }
  assert (Hlen : length ns' = length (t_nodes st)) by (rewrite <- (skel_length ns'), Us; apply skel_length).
  assert (Hdata : forall j v, data ns' j v = if ((j =? id) && (v =? val))%nat then Some (LLit (pos (t_next st)) None) else data (t_nodes st) j v).
  { intros j v. destruct ((j =? id) && (v =? val))%nat eqn:E.
    - replace j with id by lia. replace v with val by lia. exact Ud.
    - apply Uo. lia. }
  assert (X : ext ow st ow' st').
  { constructor; unfold st'; cbn [t_nodes t_next t_cls].
    + exact Us.
    + lia.
    + exists []. now rewrite app_nil_r.
    + exact Hmono.
    + intros v x H. unfold ow', own_set in H. destruct (N.eqb_spec v (t_next st)) as [->|]; [right; lia|auto].
    + intros j v l s H. rewrite Hdata. destruct ((j =? id) && (v =? val))%nat eqn:E; [|eauto].
      replace j with id in H by lia. replace v with val in H by lia. congruence. }
  split; [|exact X].
  constructor; unfold st'; cbn [t_nodes t_next t_cls].
  - intros j v l s H. rewrite Hdata in H. destruct ((j =? id) && (v =? val))%nat eqn:E.
    + injection H as <- <-. exists (t_next st). split; [reflexivity|].
      unfold ow', own_set. rewrite N.eqb_refl. repeat f_equal; lia.
    + destruct (O1 _ _ _ _ H) as (w & -> & Hw). eauto.
  - intros v j w H. unfold ow', own_set in H. destruct (N.eqb_spec v (t_next st)) as [->|].
    + injection H as <- <-. split; [lia|]. split; [|rewrite Hlen; apply nth_error_Some; congruence].
      destruct (gi (t_next st)) eqn:E; [|reflexivity]. apply I1 in E. lia.
    + apply O2 in H. rewrite Hlen. split; [lia|]. tauto.
  - intros v H. apply I1 in H. lia.
  - intros j l H. eapply (Lf j). eapply nth_leaf_skel; [|exact H]. auto.
  - intros j lits m l r v x s H HD. destruct (general_same_skel _ (t_nodes st) _ _ _ _ _ (eq_sym Us) H) as (lits' & H' & _).
    rewrite Hdata in HD. destruct ((j =? id) && (v =? val))%nat eqn:E; [|eapply Gn; eauto]. assert (j = id) as -> by lia. congruence.
  - intros a V Ha Hd. apply C with (V := V).
    + eapply supadd_skel; [|exact Ha]. auto.
    + intros v j w H. apply Hd. auto.
  - intros j lits l r v ol s Hn HD Hs ll lr lv rv Ell Elr. rewrite <- con_len_skel, Us, con_len_skel in Ell, Elr.
    destruct (unit_same_skel _ (t_nodes st) _ _ _ _ (eq_sym Us) Hn) as (lits1 & Hn1 & _).
    rewrite Hdata in HD. destruct ((j =? id) && (v =? val))%nat eqn:E; [injection HD as <- <-; discriminate|].
    intros. eapply pair_mono; [| |eapply If; eauto]; [|auto]. intros ? ? ? HL. apply (lit_has_ext _ _ _ _ _ _ _ _ X HL).
  - intros j v l s H. rewrite Hdata in H. destruct ((j =? id) && (v =? val))%nat eqn:E; [injection H as <- <-; reflexivity|eauto].
  - intros c l H1 H2. destruct (Vs c l H1 H2) as [?|(x & Hx)]; eauto.
Qed.

Lemma qinv_mark ow st id val lits0 l0 r0 ol s ns' : Q ow st -> nth_error (t_nodes st) id = Some (NUnit lits0 l0 r0) ->
  data (t_nodes st) id val = Some (LLit ol s) ->
  upd_data (t_nodes st) id val (LLit ol (Some (sem_join s SIf))) ns' ->
  (sem_le_if s = false -> forall ll lr lv rv, con_len (t_nodes st) l0 = Some ll -> con_len (t_nodes st) r0 = Some lr -> (lv + rv = val)%nat -> (lv <= ll)%nat -> (rv <= lr)%nat ->
      (forall c, cap id = Some c -> (rv <= c)%nat) -> pair_done GU (t_nodes st) (t_cls st) l0 r0 ol lv rv) ->
  Q ow (set_nodes st ns') /\ ext ow st ow (set_nodes st ns').
Proof.
  intros [O1 O2 I1 Lf Gn C If Oif Vs] Hid Hd0 (Us & Ud & Uo & Un) HIf.
  assert (Hlen : length ns' = length (t_nodes st)) by (rewrite <- (skel_length ns'), Us; apply skel_length).
  assert (Hdata : forall j v, data ns' j v = if ((j =? id) && (v =? val))%nat then Some (LLit ol (Some (sem_join s SIf))) else data (t_nodes st) j v).
  { intros j v. destruct ((j =? id) && (v =? val))%nat eqn:E.
    - replace j with id by lia. replace v with val by lia. exact Ud.
    - apply Uo. lia. }
  assert (X : ext ow st ow (set_nodes st ns')).
  { constructor; cbn [set_nodes t_nodes t_next t_cls]; auto.
    + lia.
    + exists []. now rewrite app_nil_r.
    + intros j v l' s' H. rewrite Hdata. destruct ((j =? id) && (v =? val))%nat eqn:E; [|eauto].
      replace j with id in H by lia. replace v with val in H by lia. rewrite Hd0 in H. injection H as <- <-.
      exists (Some (sem_join s SIf)). cbn [sem_le_if sem_le_oif]. rewrite sem_join_if, sem_join_oif.
      split; [reflexivity|]. split; intros ->; reflexivity. }
  split; [|exact X].
  constructor; cbn [set_nodes t_nodes t_next t_cls]; auto.
  - intros j v l' s' H. rewrite Hdata in H. destruct ((j =? id) && (v =? val))%nat eqn:E; [|eauto].
    injection H as <- <-. replace j with id by lia. replace v with val by lia. eauto.
  - intros v j w H. rewrite Hlen. eauto.
  - intros j l H. eapply (Lf j). eapply nth_leaf_skel; [|exact H]. auto.
  - intros j lits m l r v x s1 H HD. destruct (general_same_skel _ (t_nodes st) _ _ _ _ _ (eq_sym Us) H) as (lits' & H' & _).
    rewrite Hdata in HD. destruct ((j =? id) && (v =? val))%nat eqn:E; [|eapply Gn; eauto]. assert (j = id) as -> by lia. congruence.
  - intros a V Ha Hd. apply C with (V := V); [|auto]. eapply supadd_skel; [|exact Ha]. auto.
  - intros j lits l r v ol1 s1 Hn HD Hs ll lr lv rv Ell Elr E1 E2 E3 E4. rewrite <- con_len_skel, Us, con_len_skel in Ell, Elr.
    destruct (unit_same_skel _ (t_nodes st) _ _ _ _ (eq_sym Us) Hn) as (lits1 & Hn1 & _).
    apply pair_mono with (ns := t_nodes st) (cls := t_cls st); [intros ? ? ? HL; apply (lit_has_ext _ _ _ _ _ _ _ _ X HL)|auto|].
    rewrite Hdata in HD. destruct ((j =? id) && (v =? val))%nat eqn:E; [|eapply If; eauto].
    assert (j = id) as -> by lia. assert (v = val) as -> by lia. injection HD as <- <-. rewrite Hid in Hn1. injection Hn1 as -> -> ->.
    destruct (sem_le_if s) eqn:Es; [eapply If; eauto|]. eapply HIf; eauto.
  - intros j v l s1 H. rewrite Hdata in H. destruct ((j =? id) && (v =? val))%nat eqn:E; [|eauto]. injection H as <- <-.
    cbn [sem_le_oif]. rewrite sem_join_oif, (Oif _ _ _ _ Hd0). reflexivity.
Qed.

Lemma get_olit_q ow st id lits l r idx dat : Q ow st -> nth_error (t_nodes st) id = Some (NUnit lits l r) ->
  nth_error lits idx = Some dat ->
  exists ol st' ow', get_olit st id idx = Some (ol, st') /\ Q ow' st' /\ ext ow st ow' st' /\
    data (t_nodes st') id (idx + 1) = Some (LLit ol (old_sem dat)) /\ t_cls st' = t_cls st /\
    (forall j, j <> id -> nth_error (t_nodes st') j = nth_error (t_nodes st) j).
Proof.
  intros I Hn Hd. unfold get_olit. rewrite Hn. cbn [obind]. rewrite Hd. cbn [obind].
  assert (Hdat : data (t_nodes st) id (idx + 1) = Some dat).
  { unfold data. rewrite Hn. cbn [node_data]. replace (idx + 1 =? 0)%nat with false by lia.
    replace (idx + 1 - 1)%nat with idx by lia. auto. }
  destruct dat as [|ol s].
  - pose proof (upd_data_unit _ _ _ _ _ _ (LLit (pos (t_next st)) None) _ Hn Hd) as U.
    destruct (qinv_reserve _ _ _ _ _ _ _ _ I Hn Hdat U) as (I' & E').
    eexists _, _, _. split; [reflexivity|]. split; [exact I'|]. split; [exact E'|]. cbn [t_nodes t_cls old_sem].
    destruct U as (_ & U2 & _ & U4). auto.
  - exists ol, st, ow. split; [reflexivity|]. split; [auto|]. split; [apply ext_refl|]. auto.
Qed.

(** emitting clauses and marking the output they imply *)
Lemma mark_emit_q ow st id lits l r idx ol s cs : Q ow st -> nth_error (t_nodes st) id = Some (NUnit lits l r) ->
  data (t_nodes st) id (idx + 1) = Some (LLit ol s) ->
  (forall a V, supadd (t_nodes st) a V -> downed ow a V -> sat_cnf a cs = true) ->
  (forall c l, In c cs -> In l c -> gi (lvar l) = true \/ exists x, ow (lvar l) = Some x) ->
  (forall ll lr lv rv, con_len (t_nodes st) l = Some ll -> con_len (t_nodes st) r = Some lr -> (lv + rv = idx + 1)%nat -> (lv <= ll)%nat -> (rv <= lr)%nat ->
      pair_done GU (t_nodes st) (t_cls st ++ cs) l r ol lv rv) ->
  exists st', mark_unit st id idx SIf = Some st' /\ Q ow (emit st' cs) /\ ext ow st ow (emit st' cs) /\
    lit_has (t_nodes st') id (idx + 1) SIf ol /\ skel (t_nodes st') = skel (t_nodes st) /\ mark_unit (emit st cs) id idx SIf = Some (emit st' cs) /\
    (forall j, j <> id -> nth_error (t_nodes st') j = nth_error (t_nodes st) j).
Proof.
  intros I Hn Hd Hc Hv HP.
  destruct (qinv_emit _ _ cs I Hc Hv) as (I1 & E1). unfold mark_unit. cbn [emit t_nodes]. rewrite Hn. cbn [obind].
  assert (Hdat : nth_error lits idx = Some (LLit ol s)).
  { unfold data in Hd. rewrite Hn in Hd. cbn [node_data] in Hd. replace (idx + 1 =? 0)%nat with false in Hd by lia.
    replace (idx + 1 - 1)%nat with idx in Hd by lia. auto. }
  rewrite Hdat. cbn [obind].
  assert (Ha : ld_add (LLit ol s) SIf = Some (LLit ol (Some (sem_join s SIf)))) by (destruct s; reflexivity).
  rewrite Ha. cbn [obind].
  pose proof (upd_data_unit _ _ _ _ _ _ (LLit ol (Some (sem_join s SIf))) _ Hn Hdat) as U.
  destruct (qinv_mark _ _ _ _ _ _ _ _ _ _ I1 Hn Hd U) as (I' & E').
  { intros _ ll lr lv rv E2 E3 E4 E5 E6 _. cbn [emit t_nodes t_cls]. eapply HP; eauto. }
  eexists. split; [reflexivity|]. split; [exact I'|]. split; [eapply ext_trans; eassumption|].
  destruct U as (U1 & U2 & _ & U4). split; [|split; [exact U1|split; [reflexivity|exact U4]]].
  right. exists (Some (sem_join s SIf)). split; [exact U2|]. cbn [sem_le_if sem_le_oif].
  rewrite sem_join_if, sem_join_oif. split; [intros _; apply orb_true_r|discriminate].
Qed.

(** one clause: the literals of a pair imply an output whose value they reach *)
Lemma pair_clause ow st id lits l r ll lr lv rv ol s val xs ys : Q ow st -> nth_error (t_nodes st) id = Some (NUnit lits l r) ->
  data (t_nodes st) id val = Some (LLit ol s) -> (val <= lv + rv)%nat ->
  (forall w v, (1 <= w <= ll)%nat -> (w <= nc_map l v <-> nc_rev_map l w <= v)%nat) ->
  (forall w v, (1 <= w <= lr)%nat -> (w <= nc_map r v <-> nc_rev_map r w <= v)%nat) -> (lv <= ll)%nat -> (rv <= lr)%nat ->
  side (t_nodes st) l lv xs -> side (t_nodes st) r rv ys ->
  (forall a V, supadd (t_nodes st) a V -> downed ow a V -> sat_clause a (cube_impl_lit (xs ++ ys) ol) = true) /\
  (forall z, In z (cube_impl_lit (xs ++ ys) ol) -> gi (lvar z) = true \/ exists x, ow (lvar z) = Some x).
Proof.
  intros I Hn Hd Hval Al Ar Hl Hr Sx Sy. split.
  - intros a V S D. apply sat_clause_two_intro. intros Ht. eapply q_data_true; [exact I|exact D|exact Hd|].
    pose proof (S _ _ Hn) as HS. cbn in HS.
    assert (lv <= nc_map l (V (nc_id l)))%nat.
    { destruct Sx as [[-> ->]|(x & -> & Hne & Hx)]; [lia|]. apply Al; [lia|]. eapply q_lit_true; eauto. apply Ht. now left. }
    assert (rv <= nc_map r (V (nc_id r)))%nat.
    { destruct Sy as [[-> ->]|(x & -> & Hne & Hx)]; [lia|]. apply Ar; [lia|]. eapply q_lit_true; eauto. apply Ht, in_or_app. right; now left. }
    lia.
  - intros z Hz. unfold cube_impl_lit in Hz. apply in_app_or in Hz as [Hz|[<-|[]]]; [|eapply q_data_var; eauto].
    apply in_map_iff in Hz as (y & <- & Hy). rewrite lvar_neg. apply in_app_or in Hy as [Hy|Hy].
    + destruct Sx as [[_ ->]|(x & -> & _ & Hx)]; [destruct Hy|]. destruct Hy as [<-|[]]. eapply q_lit_var; eauto.
    + destruct Sy as [[_ ->]|(x & -> & _ & Hx)]; [destruct Hy|]. destruct Hy as [<-|[]]. eapply q_lit_var; eauto.
Qed.

Lemma pair_from_clause ns cls l r ol lv rv xs ys : side ns l lv xs -> side ns r rv ys -> In (cube_impl_lit (xs ++ ys) ol) cls -> pair_done GU ns cls l r ol lv rv.
Proof.
  intros A B H. exists xs, ys. split; [auto|]. split; [auto|]. intros a Ha Ht. apply sat_cnf_app_iff in Ha as (_ & Ha).
  eapply sat_clause_two; [eapply sat_cnf_In; eauto|auto].
Qed.

Section Def.
Variable rk : nat -> nat.
Variable C : nat -> Prop.

Definition qdefined (st : tst) (ow : owner) (id val : nat) (l : lit) (st' : tst) (ow' : owner) : Prop :=
  Q ow' st' /\ ext ow st ow' st' /\ lit_has (t_nodes st') id val SIf l /\
  (forall j, (rk id < rk j)%nat \/ ~ C j -> nth_error (t_nodes st') j = nth_error (t_nodes st) j).

Lemma calls_q (call : tst -> nat -> nat -> semantics -> option (lit * tst)) rank calls ow st :
  Q ow st ->
  (forall ow s i x sm, In (i, x, sm) calls -> Q ow s -> skel (t_nodes s) = skel (t_nodes st) ->
     exists l s' ow', call s i x sm = Some (l, s') /\ qdefined s ow i (x + 1) l s' ow') ->
  (forall i x sm, In (i, x, sm) calls -> (rk i < rank)%nat) ->
  exists st' ow', foldM (fun s '(i, x, sm) => do r <- call s i x sm; Some (snd r)) calls st = Some st' /\
    Q ow' st' /\ ext ow st ow' st' /\
    (forall i x sm, In (i, x, sm) calls -> exists l, lit_has (t_nodes st') i (x + 1) SIf l) /\
    (forall j, (rank <= rk j)%nat \/ ~ C j -> nth_error (t_nodes st') j = nth_error (t_nodes st) j).
Proof.
  intros I Hcall Hrk.
  destruct (foldM_ind (fun s '(i, x, sm) => do r <- call s i x sm; Some (snd r))
    (fun done s' => exists ow', Q ow' s' /\ ext ow st ow' s' /\
       (forall i x sm, In (i, x, sm) done -> exists l, lit_has (t_nodes s') i (x + 1) SIf l) /\
       (forall j, (rank <= rk j)%nat \/ ~ C j -> nth_error (t_nodes s') j = nth_error (t_nodes st) j)) calls st) as (st' & E & ow' & H).
  - exists ow. split; [auto|]. split; [apply ext_refl|]. split; [intros ? ? ? []|auto].
  - intros done [[i x] sm] s' (rest & Hl) (ow1 & I1 & E1 & D1 & R1).
    assert (Hin : In (i, x, sm) calls) by (rewrite Hl; apply in_or_app; right; now left).
    destruct (Hcall ow1 s' i x sm Hin I1 (e_skel _ _ _ _ E1)) as (l & s2 & ow2 & Ec & I2 & E2 & L2 & R2).
    exists s2. rewrite Ec. cbn [obind snd]. split; [reflexivity|]. exists ow2.
    split; [auto|]. split; [eapply ext_trans; eauto|]. split.
    + intros i' x' sm' H. apply in_app_or in H as [H|[H|[]]].
      * destruct (D1 _ _ _ H) as (l' & Hl'). exists l'. eapply lit_has_ext; eauto.
      * injection H as <- <- <-. eauto.
    + intros j Hj. rewrite R2; [apply R1; auto|]. pose proof (Hrk _ _ _ Hin). destruct Hj; [left; lia|auto].
  - exists st', ow'. auto.
Qed.

Theorem define_if_q : forall fuel st ow id idx n,
  Q ow st -> sh (t_nodes st) rk C -> C id -> nth_error (t_nodes st) id = Some n -> is_unitlike n -> (idx < node_len n)%nat -> (rk id < fuel)%nat ->
  exists l st' ow', define_unweighted fuel st id idx SIf = Some (l, st') /\ qdefined st ow id (idx + 1) l st' ow'.
Proof.
  induction fuel as [|f IH]; intros st ow id idx n I HS HC Hn Hu Hidx Hf; [lia|].
  cbn [define_unweighted]. unfold precond_unweighted. rewrite Hn. cbn [obind].
  assert (Hmv : (idx <? node_max_val n)%nat = true).
  { destruct n; cbn in *; try lia; tauto. }
  rewrite Hmv. cbn [assertb obind]. destruct n as [l|lits lcon rcon|?|]; cbn in Hu; try tauto.
  - (* leaf *)
    cbn [node_len] in Hidx. replace (idx =? 0)%nat with true by lia. cbn [assertb obind].
    exists l, st, ow. split; [reflexivity|]. split; [auto|]. split; [apply ext_refl|]. split; [|auto].
    left. split; [auto|lia].
  - (* unit node *)
    cbn [node_len] in Hidx.
    destruct (sh_facts _ _ _ _ _ _ _ HS HC Hn) as (nl & nr & ll & lr & El & Er & Gl & Gr & Dd & Ml & Mr & Rl & Rr & Cl & Cr & CL & CR & Len & Al & Ar & Nl & Nr & Dl & Dr).
    rewrite El, Er. cbn [obind]. rewrite Gl, Gr, Ml, Mr. cbn [negb andb Nat.eqb assertb obind].
    destruct (nth_error lits idx) as [dat|] eqn:Hd; [|apply nth_error_None in Hd; lia]. cbn [obind].
    destruct (ld_missing dat SIf) as [new|] eqn:Emiss.
    2:{ destruct dat as [|l s]; [discriminate|]. cbn [obind].
      exists l, st, ow. split; [reflexivity|]. split; [auto|]. split; [apply ext_refl|]. split; [|auto].
      right. exists s. split; [|apply ld_missing_none with (l := l); auto].
      unfold data. rewrite Hn. cbn [node_data]. replace (idx + 1 =? 0)%nat with false by lia.
      replace (idx + 1 - 1)%nat with idx by lia. auto. }
    assert (new = SIf) as -> by (destruct dat as [|? [[]|]]; cbn in Emiss; congruence).
    destruct (is_dummy nl || is_dummy nr) eqn:Edum.
    + (* passthrough *)
      set (con := if is_dummy nl then rcon else lcon).
      set (rn := if is_dummy nl then nr else nl).
      set (L := (ll + lr)%nat).
      assert (Hreal : is_dummy rn = false) by (subst rn; destruct (is_dummy nl) eqn:?; destruct Dd; congruence).
      assert (Hcon : nth_error (t_nodes st) (nc_id con) = Some rn) by (subst con rn; destruct (is_dummy nl); auto).
      assert (Hgen : is_general rn = false) by (subst rn; destruct (is_dummy nl); auto).
      assert (Hrkc : (rk (nc_id con) < rk id)%nat) by (subst con; destruct (is_dummy nl); auto).
      assert (HCc : C (nc_id con)) by (subst con; destruct (is_dummy nl); auto).
      assert (Hrange : forall w, (1 <= w <= L)%nat -> (1 <= nc_rev_map con w <= node_len rn)%nat).
      { subst con L rn. destruct (is_dummy nl) eqn:E1; intros w Hw.
        - apply Nr. rewrite (Dl eq_refl) in Hw. lia.
        - apply Nl. destruct (is_dummy nr) eqn:E2; [|discriminate]. rewrite (Dr eq_refl) in Hw. lia. }
      fold rn. rewrite Hreal. cbn [negb assertb obind]. fold con.
      specialize (Hrange (idx + 1)%nat ltac:(subst L; lia)).
      destruct (IH st ow (nc_id con) (con_idx idx con) rn I HS HCc Hcon (unitlike_of _ Hgen Hreal)) as (ilit & st1 & ow1 & E1 & I1 & X1 & L1 & R1).
      { unfold con_idx. lia. } { lia. }
      rewrite E1. cbn [obind].
      replace (con_idx idx con + 1)%nat with (nc_rev_map con (idx + 1)) in L1 by (unfold con_idx; lia).
      assert (Hn1 : nth_error (t_nodes st1) id = Some (NUnit lits lcon rcon)) by (rewrite R1; auto).
      destruct (get_olit_q _ _ _ _ _ _ _ _ I1 Hn1 Hd) as (ol & st2 & ow2 & E2 & I2 & X2 & D2 & C2 & R2).
      rewrite E2. cbn [obind].
      pose proof (lit_has_ext _ _ _ _ _ _ _ _ X2 L1) as L2.
      destruct (unit_same_skel _ (t_nodes st2) _ _ _ _ (e_skel _ _ _ _ X2) Hn1) as (lits2 & Hn2 & Hlen2).
      assert (Hsk2 : skel (t_nodes st2) = skel (t_nodes st)) by (rewrite (e_skel _ _ _ _ X2); apply X1).
      assert (HP : exists lv rv xs ys, (lv + rv = idx + 1)%nat /\ (lv <= ll)%nat /\ (rv <= lr)%nat /\ side (t_nodes st2) lcon lv xs /\ side (t_nodes st2) rcon rv ys /\
                 xs ++ ys = [ilit] /\ (forall lv' rv', (lv' + rv' = idx + 1)%nat -> (lv' <= ll)%nat -> (rv' <= lr)%nat -> lv' = lv /\ rv' = rv)).
      { subst con L. destruct (is_dummy nl) eqn:E1'.
        - rewrite (Dl eq_refl) in *. exists 0%nat, (idx + 1)%nat, [], [ilit]. split; [lia|]. split; [lia|]. split; [lia|]. split; [left; auto|].
          split; [right; exists ilit; split; [auto|]; split; [lia|exact L2]|]. split; [reflexivity|lia].
        - destruct (is_dummy nr) eqn:E2'; [|discriminate]. rewrite (Dr eq_refl) in *. exists (idx + 1)%nat, 0%nat, [ilit], []. split; [lia|]. split; [lia|]. split; [lia|].
          split; [right; exists ilit; split; [auto|]; split; [lia|exact L2]|]. split; [left; auto|]. split; [reflexivity|lia]. }
      destruct HP as (lv & rv & xs & ys & Hlr & Hlv & Hrv & Sx & Sy & Exy & Huni).
      destruct (pair_clause ow2 st2 id lits2 lcon rcon ll lr lv rv ol (old_sem dat) (idx + 1) xs ys I2 Hn2 D2 ltac:(lia) Al Ar Hlv Hrv Sx Sy) as (K1 & K2).
      assert (Eci : lit_impl_lit ilit ol = cube_impl_lit (xs ++ ys) ol) by (rewrite Exy; reflexivity).
      rewrite Eci.
      destruct (mark_emit_q ow2 st2 id lits2 lcon rcon idx ol (old_sem dat) [cube_impl_lit (xs ++ ys) ol] I2 Hn2 D2) as (st4 & _ & I4 & X4 & L4 & Sk4 & E4 & R4).
      { intros a V S D. unfold sat_cnf. cbn [forallb]. rewrite (K1 a V S D). reflexivity. }
      { intros c z [<-|[]] Hz. apply K2. exact Hz. }
      { intros ll' lr' lv' rv' F1 F2 F3 F4 F5. rewrite <- con_len_skel, Hsk2, con_len_skel in F1, F2.
        assert (ll' = ll) as -> by congruence. assert (lr' = lr) as -> by congruence.
        destruct (Huni lv' rv' F3 F4 F5) as (-> & ->). eapply pair_from_clause; [exact Sx|exact Sy|]. apply in_or_app. right. now left. }
      rewrite E4. cbn [obind]. exists ol, (emit st4 [cube_impl_lit (xs ++ ys) ol]), ow2. split; [reflexivity|].
      split; [exact I4|]. split; [|split; [exact L4|]].
      * eapply ext_trans; [exact X1|]. eapply ext_trans; [exact X2|exact X4].
      * intros j Hj. assert (j <> id) by (intros ->; destruct Hj; [lia|auto]). cbn [emit t_nodes]. rewrite R4, R2, R1; auto. destruct Hj; [left; lia|auto].
    + (* regular node *)
      rewrite CL, CR. cbn [obind has_if has_only_if].
      set (lis := range_incl (idx + 1 - Nat.min lr (idx + 1)) (Nat.min ll (idx + 1))).
      set (ris := range_incl (idx + 1 - Nat.min ll (idx + 1)) (Nat.min lr (idx + 1))).
      set (p := mkPre lcon rcon lis ris [] []).
      unfold recurse_calls. cbn [u_lcon u_rcon u_left_if u_right_if u_left_only_if u_right_only_if p].
      rewrite CL, CR. cbn [obind filter map]. rewrite app_nil_r.
      apply orb_false_iff in Edum as (Ednl & Ednr).
      assert (Ul : is_unitlike nl) by (apply unitlike_of; auto).
      assert (Ur : is_unitlike nr) by (apply unitlike_of; auto).
      set (c1 := map (fun v => (nc_id lcon, con_idx (v - 1) lcon, SIf)) (filter (fun v => negb (v =? 0)%nat) lis)).
      set (c2 := map (fun v => (nc_id rcon, con_idx (v - 1) rcon, SIf)) (filter (fun v => negb (v =? 0)%nat) ris)).
      assert (Hcalls : forall i x sm, In (i, x, sm) (c1 ++ c2) ->
         sm = SIf /\ ((i = nc_id lcon /\ x < node_len nl)%nat \/ (i = nc_id rcon /\ x < node_len nr)%nat)).
      { intros i x sm H. rewrite !in_app_iff in H. destruct H as [H|H];
          apply in_map_iff in H as (w & Hw & Hin); injection Hw as <- <- <-; apply filter_In in Hin as (Hin & Hne); (split; [reflexivity|]);
          [left|right]; (split; [reflexivity|]); unfold con_idx.
        - apply in_range_incl in Hin. replace (w - 1 + 1)%nat with w by lia. pose proof (Nl w ltac:(lia)). lia.
        - apply in_range_incl in Hin. replace (w - 1 + 1)%nat with w by lia. pose proof (Nr w ltac:(lia)). lia. }
      destruct (calls_q (define_unweighted f) (rk id) (c1 ++ c2) ow st I) as (st1 & ow1 & E1 & I1 & X1 & L1 & R1).
      { intros ow0 s i x sm Hin Is Hsk. assert (HSs := sh_skel _ (t_nodes s) rk C Hsk HS). destruct (Hcalls _ _ _ Hin) as (-> & [(-> & Hx)|(-> & Hx)]).
        - destruct (unitlike_same_skel _ (t_nodes s) _ _ Hsk El Ul) as (n' & Hn' & Hu' & Hl').
          apply (IH s ow0 _ x n' Is HSs Cl Hn' Hu'); lia.
        - destruct (unitlike_same_skel _ (t_nodes s) _ _ Hsk Er Ur) as (n' & Hn' & Hu' & Hl').
          apply (IH s ow0 _ x n' Is HSs Cr Hn' Hu'); lia. }
      { intros i x sm Hin. destruct (Hcalls _ _ _ Hin) as (_ & [(-> & _)|(-> & _)]); lia. }
      cbn [obind] in E1. rewrite E1. cbn [obind].
      assert (Hn1 : nth_error (t_nodes st1) id = Some (NUnit lits lcon rcon)) by (rewrite R1; auto).
      destruct (get_olit_q _ _ _ _ _ _ _ _ I1 Hn1 Hd) as (ol & st2 & ow2 & E2 & I2 & X2 & D2 & C2 & R2).
      rewrite E2. cbn [obind].
      destruct (unit_same_skel _ (t_nodes st2) _ _ _ _ (e_skel _ _ _ _ X2) Hn1) as (lits2 & Hn2 & Hlen2).
      assert (Hdat2 : nth_error lits2 idx = Some (LLit ol (old_sem dat))).
      { unfold data in D2. rewrite Hn2 in D2. cbn [node_data] in D2. replace (idx + 1 =? 0)%nat with false in D2 by lia.
        replace (idx + 1 - 1)%nat with idx in D2 by lia. auto. }
      assert (Hsk2 : skel (t_nodes st2) = skel (t_nodes st)) by (rewrite (e_skel _ _ _ _ X2); apply X1).
      destruct (unitlike_same_skel _ _ _ _ Hsk2 El Ul) as (nl2 & El2 & Ul2 & Lenl2).
      destruct (unitlike_same_skel _ _ _ _ Hsk2 Er Ur) as (nr2 & Er2 & Ur2 & Lenr2).
      assert (exists llits, lit_slice (t_nodes st2) (nc_id lcon) = Some llits) as (llits & Sl).
      { unfold lit_slice. rewrite El2. cbn [obind]. destruct nl2; cbn in *; try tauto; eauto. }
      assert (exists rlits, lit_slice (t_nodes st2) (nc_id rcon) = Some rlits) as (rlits & Sr).
      { unfold lit_slice. rewrite Er2. cbn [obind]. destruct nr2; cbn in *; try tauto; eauto. }
      assert (CL2 : con_len (t_nodes st2) lcon = Some ll) by (rewrite <- con_len_skel, Hsk2, con_len_skel; auto).
      assert (CR2 : con_len (t_nodes st2) rcon = Some lr) by (rewrite <- con_len_skel, Hsk2, con_len_skel; auto).
      assert (HLI : forall w, In w lis -> w <> 0%nat -> exists x, lit_has (t_nodes st2) (nc_id lcon) (nc_rev_map lcon w) SIf x /\ slice_lit llits (con_idx (w - 1) lcon) = Some x).
      { intros w Hw Hne. assert (Hin : In (nc_id lcon, con_idx (w - 1) lcon, SIf) (c1 ++ c2)).
        { rewrite !in_app_iff. left. apply in_map_iff. exists w. split; [reflexivity|]. apply filter_In. split; [auto|lia]. }
        destruct (L1 _ _ _ Hin) as (x & Hx). apply (lit_has_ext _ _ _ _ _ _ _ _ X2) in Hx.
        destruct (lit_has_slice _ _ _ _ _ Hx) as (sl & Es & Ex); [eauto|].
        exists x. replace (con_idx (w - 1) lcon + 1 - 1)%nat with (con_idx (w - 1) lcon) in Ex by lia.
        assert (sl = llits) as -> by congruence. split; [|auto].
        apply in_range_incl in Hw.
        pose proof (Nl w ltac:(lia)). unfold con_idx in Hx. replace (w - 1 + 1)%nat with w in Hx by lia.
        replace (nc_rev_map lcon w - 1 + 1)%nat with (nc_rev_map lcon w) in Hx by lia. auto. }
      assert (HRI : forall w, In w ris -> w <> 0%nat -> exists x, lit_has (t_nodes st2) (nc_id rcon) (nc_rev_map rcon w) SIf x /\ slice_lit rlits (con_idx (w - 1) rcon) = Some x).
      { intros w Hw Hne. assert (Hin : In (nc_id rcon, con_idx (w - 1) rcon, SIf) (c1 ++ c2)).
        { rewrite !in_app_iff. right. apply in_map_iff. exists w. split; [reflexivity|]. apply filter_In. split; [auto|lia]. }
        destruct (L1 _ _ _ Hin) as (x & Hx). apply (lit_has_ext _ _ _ _ _ _ _ _ X2) in Hx.
        destruct (lit_has_slice _ _ _ _ _ Hx) as (sl & Es & Ex); [eauto|].
        exists x. replace (con_idx (w - 1) rcon + 1 - 1)%nat with (con_idx (w - 1) rcon) in Ex by lia.
        assert (sl = rlits) as -> by congruence. split; [|auto].
        apply in_range_incl in Hw.
        pose proof (Nr w ltac:(lia)). unfold con_idx in Hx. replace (w - 1 + 1)%nat with w in Hx by lia.
        replace (nc_rev_map rcon w - 1 + 1)%nat with (nc_rev_map rcon w) in Hx by lia. auto. }
      assert (Hcl : forall lval, In lval lis ->
         exists xs ys, if_clause p idx ol llits rlits lval = Some (cube_impl_lit (xs ++ ys) ol) /\
           (lval <= ll)%nat /\ (idx + 1 - lval <= lr)%nat /\ (lval <= idx + 1)%nat /\
           side (t_nodes st2) lcon lval xs /\ side (t_nodes st2) rcon (idx + 1 - lval) ys).
      { intros lval Hlv. unfold if_clause. cbn [p u_lcon u_rcon].
        assert (Hr : In (idx + 1 - lval)%nat ris) by (apply in_range_incl; apply in_range_incl in Hlv; lia).
        assert (Hb := Hlv). apply in_range_incl in Hb.
        destruct (Nat.ltb_spec 0 lval) as [H1|H1].
        - destruct (HLI lval Hlv ltac:(lia)) as (x & Hx & Sx). rewrite Sx. cbn [obind].
          destruct (Nat.ltb_spec 0 (idx + 1 - lval)) as [H2|H2].
          + destruct (HRI _ Hr ltac:(lia)) as (y & Hy & Sy). rewrite Sy. cbn [obind].
            exists [x], [y]. repeat (split; [solve [reflexivity|lia]|]). split; right; eexists; (split; [reflexivity|]); (split; [lia|auto]).
          + cbn [obind]. exists [x], []. repeat (split; [solve [reflexivity|lia]|]). split; [right; eexists; (split; [reflexivity|]); (split; [lia|auto])|left; split; [lia|reflexivity]].
        - cbn [obind]. destruct (Nat.ltb_spec 0 (idx + 1 - lval)) as [H2|H2].
          + destruct (HRI _ Hr ltac:(lia)) as (y & Hy & Sy). rewrite Sy. cbn [obind].
            exists [], [y]. repeat (split; [solve [reflexivity|lia]|]). split; [left; split; [lia|reflexivity]|right; eexists; (split; [reflexivity|]); (split; [lia|auto])].
          + lia. }
      destruct (mapM_spec (if_clause p idx ol llits rlits) lis) as (cs & Ecs & M1 & M2).
      { intros x Hx. destruct (Hcl x Hx) as (xs & ys & E & _). eauto. }
      destruct (mark_emit_q ow2 st2 id lits2 lcon rcon idx ol (old_sem dat) cs I2 Hn2 D2) as (st3 & E3 & I3 & X3 & L3 & Sk3 & _ & R3).
      { intros a V S D. unfold sat_cnf. apply forallb_forall. intros c Hc. destruct (M2 c Hc) as (lval & Hlv & Ec).
        destruct (Hcl lval Hlv) as (xs & ys & Ec' & B1 & B2 & B3 & Hxs & Hys). rewrite Ec' in Ec. injection Ec as <-.
        eapply (pair_clause ow2 st2 id lits2 lcon rcon ll lr lval (idx + 1 - lval) ol (old_sem dat) (idx + 1) xs ys I2 Hn2 D2 ltac:(lia) Al Ar B1 B2 Hxs Hys); eauto. }
      { intros c z Hc Hz. destruct (M2 c Hc) as (lval & Hlv & Ec).
        destruct (Hcl lval Hlv) as (xs & ys & Ec' & B1 & B2 & B3 & Hxs & Hys). rewrite Ec' in Ec. injection Ec as <-.
        eapply (pair_clause ow2 st2 id lits2 lcon rcon ll lr lval (idx + 1 - lval) ol (old_sem dat) (idx + 1) xs ys I2 Hn2 D2 ltac:(lia) Al Ar B1 B2 Hxs Hys); eauto. }
      { intros ll' lr' lv' rv' F1 F2 F3 F4 F5. assert (ll' = ll) as -> by congruence. assert (lr' = lr) as -> by congruence.
        assert (Hlv : In lv' lis) by (apply in_range_incl; lia).
        destruct (Hcl lv' Hlv) as (xs & ys & Ec' & B1 & B2 & B3 & Hxs & Hys). destruct (M1 lv' Hlv) as (c & Ec & Hc).
        rewrite Ec' in Ec. injection Ec as <-. assert (rv' = idx + 1 - lv')%nat as -> by lia.
        eapply pair_from_clause; [exact Hxs|exact Hys|]. apply in_or_app. auto. }
      unfold encode_unweighted. rewrite Hn2. cbn [obind]. rewrite Hdat2. cbn [obind].
      assert (exists new', ld_missing (LLit ol (old_sem dat)) SIf = Some new') as (new' & Enew').
      { destruct dat as [|? s]; cbn [old_sem]; [exists SIf; reflexivity|]. exists SIf. exact Emiss. }
      rewrite Enew'. cbn [obind]. rewrite E3. cbn [obind].
      assert (Hch : forall j, j <> id -> lit_slice (t_nodes st3) j = lit_slice (t_nodes st2) j).
      { intros j Hj. unfold lit_slice. now rewrite R3. }
      cbn [p u_lcon u_rcon u_left_if u_left_only_if].
      rewrite (Hch (nc_id lcon)) by (intros HH; rewrite HH in Rl; lia). rewrite Sl. cbn [obind].
      rewrite (Hch (nc_id rcon)) by (intros HH; rewrite HH in Rr; lia). rewrite Sr. cbn [obind].
      rewrite <- (con_len_skel (t_nodes st3) lcon), <- (con_len_skel (t_nodes st3) rcon), Sk3, !con_len_skel, CL2, CR2. cbn [obind].
      fold p. rewrite Ecs. cbn [mapM obind]. rewrite app_nil_r.
      eexists _, _, ow2. split; [reflexivity|]. split; [exact I3|]. split; [|split; [exact L3|]].
      * eapply ext_trans; [exact X1|]. eapply ext_trans; [exact X2|exact X3].
      * intros j Hj. cbn [emit t_nodes]. assert (j <> id) by (intros ->; destruct Hj; [lia|auto]). rewrite R3, R2, R1; auto. destruct Hj; [left; lia|auto].
Qed.
End Def.
End Q.
