(** * The "if" invariant under the operations on databases: growing, committing, resetting, reserving, redirecting *)

From Coq Require Import List Bool NArith ZArith Lia Arith Sorted Permutation.
From Coq Require Import ZifyBool ZifyNat ZifyN.
From Verif Require Import Spec BoundSpec Types Atomics AtomicsProofs NodeDb TreeSpec TotDb Totalizer Base TotDbInv TotDbUnit TotDbDefine TotDbGeneral TotDbBuild TotDbGrow TotDbMerge TotWeighted TotDbHist TotalizerProofs DbWorld DpwRef DpwBuild DpwIf.
Import ListNotations.

Definition nocap : nat -> option nat := fun _ => None.

(** ** From clauses to values *)
Lemma wf_supadd ns g a : wf_shape (skel ns) g -> supadd ns a (gV g a).
Proof.
  intros W id n Hn. pose proof (wf_node _ _ W _ _ (nth_skel _ _ _ Hn)) as N. destruct n as [l|lits l r|lits m l r|]; cbn [erase node_ok] in N.
  - destruct N as (_ & N & _). intros H. rewrite N, H. lia.
  - destruct N as (_ & _ & _ & _ & _ & _ & _ & _ & N & _). rewrite N. lia.
  - exact Logic.I.
  - apply N.
Qed.

Lemma wf_sh ns g (C : nat -> Prop) : wf_shape (skel ns) g -> (forall id lits l r, C id -> nth_error ns id = Some (NUnit lits l r) -> C (nc_id l) /\ C (nc_id r)) -> sh ns (grk g) C.
Proof.
  intros W HC id lits l r Hid Hn. pose proof (wf_node _ _ W _ _ (nth_skel _ _ _ Hn)) as N. cbn [erase node_ok] in N.
  destruct N as (C1 & C2 & M1 & M2 & R1 & R2 & (nl & nr & E1 & E2 & G1 & G2 & D) & (ll & lr & L1 & L2 & Len) & _).
  destruct (HC id lits l r Hid Hn) as (K1 & K2).
  apply con_ok_skel_iff in C1, C2. apply nth_skel_inv in E1 as (nl0 & E1 & ->). apply nth_skel_inv in E2 as (nr0 & E2 & ->).
  rewrite con_len_skel in L1, L2. rewrite map_length in Len. rewrite !is_general_erase, !is_dummy_erase in *.
  repeat (split; [solve [auto]|]). split; eauto 10.
Qed.

Lemma inv_of_qinv GF GU GL g ow st : wf_shape (skel (t_nodes st)) g -> qinv GF GU (gin g) nocap ow st -> inv GF GU GL g ow st.
Proof.
  intros W [O1 O2 I1 Lf Gn C If Oif Vs]. constructor; auto.
  - intros a Ha. apply (C a (gV g a)); [now apply wf_supadd|exact Ha].
  - intros a.
    assert (Q : sh (t_nodes st) (grk g) (fun _ => True)) by (apply wf_sh; auto).
    assert (K : forall k id val l, (grk g id < k)%nat -> sat_cnf a (GU ++ t_cls st) = true -> lit_has (t_nodes st) id val SIf l -> (val <= gV g a id)%nat -> lit_true a l = true).
    { induction k as [|k IH]; intros id val l Hk Sa Hl Hv; [lia|].
      destruct Hl as [(Hn & ->)|(s & Hd & HA & _)].
      - pose proof (wf_node _ _ W _ _ (nth_skel _ _ _ Hn)) as N. cbn [erase node_ok] in N. destruct N as (_ & N & _). rewrite N in Hv. destruct (lit_true a l); [auto|lia].
      - specialize (HA eq_refl). assert (Hd' := Hd). unfold data in Hd'. destruct (nth_error (t_nodes st) id) as [n|] eqn:Hn; [|discriminate].
        destruct n as [y|lits lc rc|lits m lc rc|]; try discriminate; [|exfalso; eapply Gn; eauto].
        assert (Hz : val <> 0%nat) by (intros ->; discriminate).
        destruct (sh_facts _ _ _ _ _ _ _ Q Logic.I Hn) as (nl & nr & ll & lr & E1 & E2 & G1 & G2 & D & M1 & M2 & R1 & R2 & _ & _ & L1 & L2 & Len & A1 & A2 & B1 & B2 & _ & _).
        pose proof (wf_node _ _ W _ _ (nth_skel _ _ _ Hn)) as N. cbn [erase node_ok] in N. destruct N as (Pl & Pr & _ & _ & _ & _ & _ & _ & NV & _).
        assert (Hm : forall id0 n0, nth_error (t_nodes st) id0 = Some n0 -> is_general n0 = false -> (gV g a id0 <= node_len n0)%nat).
        { intros id0 n0 Hn0 Hg. pose proof (wf_max _ _ W a _ _ (nth_skel _ _ _ Hn0)) as H. rewrite node_max_val_erase in H. destruct n0; try discriminate; exact H. }
        pose proof (unit_con_le _ _ _ _ _ (proj1 Pl) M1 E1 L1 (Hm _ _ E1 G1)) as U1.
        pose proof (unit_con_le _ _ _ _ _ (proj1 Pr) M2 E2 L2 (Hm _ _ E2 G2)) as U2.
        rewrite NV in Hv. set (VL := nc_map lc (gV g a (nc_id lc))) in *. set (VR := nc_map rc (gV g a (nc_id rc))) in *.
        destruct (If id lits lc rc val l s Hn Hd HA ll lr (Nat.min val VL) (val - Nat.min val VL)%nat L1 L2) as (xs & ys & Sx & Sy & Himp); [lia|lia|lia|intros c Hc; discriminate|].
        apply Himp; [auto|]. intros x Hx. apply in_app_or in Hx as [Hx|Hx].
        + destruct Sx as [(_ & ->)|(x0 & -> & Hne & Hx0)]; [destruct Hx|]. destruct Hx as [<-|[]]. eapply (IH (nc_id lc)); [lia|auto|exact Hx0|]. apply A1; [lia|]. fold VL. lia.
        + destruct Sy as [(_ & ->)|(x0 & -> & Hne & Hx0)]; [destruct Hx|]. destruct Hx as [<-|[]]. eapply (IH (nc_id rc)); [lia|auto|exact Hx0|]. apply A2; [lia|]. fold VR. lia. }
    intros id val l s Sa Hd HA HT. apply (K (S (grk g id)) id val l); [lia|auto| |].
    + right. exists s. split; [auto|]. split; [auto|discriminate].
    + eapply wf_T; [exact W| |exact HT]. rewrite skel_length. unfold data in Hd. destruct (nth_error (t_nodes st) id) eqn:E; [|discriminate]. eapply nth_error_lt; eauto.
  - intros _ a id val l s _ Hd HA. rewrite (Oif _ _ _ _ Hd) in HA. discriminate.
Qed.

(** ** Operations on the whole database *)
Lemma qinv_empty ns next gi cap : (forall v, gi v = true -> (v < next)%N) -> (forall id l, nth_error ns id = Some (NLeaf l) -> gi (lvar l) = true) ->
  (forall id val l s, data ns id val <> Some (LLit l s)) -> qinv [] [] gi cap (fun _ => None) (mkTst ns next []).
Proof.
  intros H1 H2 H3. constructor; cbn [t_nodes t_next t_cls]; auto; try discriminate; try (intros; exfalso; eapply H3; eauto; fail).
Qed.

Lemma qinv_commit GF GU gi cap ow st : qinv GF GU gi cap ow st -> qinv (GF ++ t_cls st) (GU ++ t_cls st) gi cap ow (mkTst (t_nodes st) (t_next st) []).
Proof.
  intros [O1 O2 I1 Lf Gn C If Oif Vs]. constructor; cbn [t_nodes t_next t_cls]; auto; rewrite ?app_nil_r; auto.
  intros id lits l r val ol s Hn Hd HA ll lr lv rv E1 E2 E3 E4 E5 E6.
  destruct (If id lits l r val ol s Hn Hd HA ll lr lv rv E1 E2 E3 E4 E5 E6) as (xs & ys & A & B & K). exists xs, ys. rewrite app_nil_r. auto.
Qed.

Lemma qinv_next GF GU gi cap ow ns next next' cs : (next <= next')%N -> qinv GF GU gi cap ow (mkTst ns next cs) -> qinv GF GU gi cap ow (mkTst ns next' cs).
Proof.
  intros H [O1 O2 I1 Lf Gn C If Oif Vs]. constructor; cbn [t_nodes t_next t_cls] in *; auto.
  - intros v id val Hv. destruct (O2 v id val Hv) as (? & ? & ?). split; [lia|auto].
  - intros v Hv. specialize (I1 v Hv). lia.
Qed.

Lemma qinv_reset GF GU gi cap ow ns next : qinv GF GU gi cap ow (mkTst ns next []) -> qinv GF [] gi cap ow (mkTst (reset_encoded ns SIf) next []).
Proof.
  intros [O1 O2 I1 Lf Gn C If Oif Vs]. constructor; cbn [t_nodes t_next t_cls] in *; auto.
  - intros id val l s H. apply data_reset_lit in H as (s0 & H & _). eauto.
  - intros v id val H. destruct (O2 v id val H) as (? & ? & ?). split; [auto|]. split; [auto|]. unfold reset_encoded. now rewrite map_length.
  - intros id l H. eapply Lf. eapply nth_leaf_skel; [|exact H]. symmetry. apply reset_skel.
  - intros id lits m l r val x s H HD. apply data_reset_lit in HD as (s0 & HD & _).
    destruct (general_same_skel _ ns _ _ _ _ _ (eq_sym (reset_skel ns SIf)) H) as (lits' & H' & _). eapply Gn; eauto.
  - intros a V Ha Hd. apply C with (V := V); [|auto]. eapply supadd_skel; [|exact Ha]. symmetry. apply reset_skel.
  - intros id lits l r val ol s _ H HA. apply data_reset_lit in H as (s0 & H & H1 & _). destruct (H1 eq_refl). congruence.
  - intros id val l s H. apply data_reset_lit in H as (s0 & H & H1 & _). destruct (H1 eq_refl) as (_ & H2). specialize (Oif _ _ _ _ H). destruct (sem_le_oif s); [|reflexivity]. specialize (H2 eq_refl). congruence.
Qed.

Lemma lit_has_app ns new id val sem l : lit_has ns id val sem l -> lit_has (ns ++ new) id val sem l.
Proof.
  intros [(H & E)|(s & H & K)].
  - left. split; [|auto]. rewrite nth_error_app1; [auto|eapply nth_error_lt; eauto].
  - right. exists s. split; [|auto]. unfold data in *. destruct (nth_error ns id) eqn:E; [|discriminate]. now rewrite nth_error_app1, E by (eapply nth_error_lt; eauto).
Qed.

Lemma qinv_growd GF GU cap g ow next vs d g' d' : wf_shape (skel (d_nodes d)) g -> qinv GF GU (gin g) cap ow (mkTst (d_nodes d) next []) -> built g' d' -> growd vs d g d' g' ->
  (forall v, In v vs -> (v < next)%N /\ ow v = None) ->
  qinv GF GU (gin g') cap ow (mkTst (d_nodes d') next []).
Proof.
  intros W [O1 O2 I1 Lf Gn C If Oif Vs] (W' & L1' & L2') ((new & En & Fn) & (AV & AT & AR & AI) & GI) Hv.
  cbn [t_nodes t_next t_cls] in *. rewrite app_nil_r in *. constructor; cbn [t_nodes t_next t_cls]; rewrite ?app_nil_r; rewrite En in *.
  - intros id val l s H. apply data_newd in H as (_ & H); auto. eauto.
  - intros v id val H. destruct (O2 v id val H) as (H1 & H2 & H3). split; [auto|]. split; [|rewrite app_length; lia].
    destruct (gin g' v) eqn:E; [|reflexivity]. apply GI in E as [E|E]; [congruence|]. apply Hv in E. destruct E. congruence.
  - intros v H. apply GI in H as [H|H]; [auto|]. now apply Hv.
  - intros id l H. pose proof (wf_node _ _ W' _ _ (nth_skel _ _ _ H)) as N. apply N.
  - intros id lits m l r val x s H HD. apply data_newd in HD as (Hl & HD); auto. rewrite nth_error_app1 in H by auto. eapply Gn; eauto.
  - intros a V Ha Hd. apply C with (V := V); [|auto]. intros id n Hn. apply (Ha id n). rewrite nth_error_app1; [auto|eapply nth_error_lt; eauto].
  - intros id lits l r val ol s Hn Hd HA ll lr lv rv E1 E2 E3 E4 E5 E6. apply data_newd in Hd as (Hl & Hd); auto. rewrite nth_error_app1 in Hn by auto.
    pose proof (wf_node _ _ W _ _ (nth_skel _ _ _ Hn)) as N. cbn [erase node_ok] in N. destruct N as ((_ & nl & N1 & _) & (_ & nr & N2 & _) & _).
    apply nth_error_lt in N1, N2. rewrite skel_length in N1, N2. rewrite con_len_app in E1, E2 by auto.
    eapply pair_mono; [|intros c Hc; exact Hc|eapply If; eauto]. intros. now apply lit_has_app.
  - intros id val l s H. apply data_newd in H as (_ & H); auto. eauto.
  - intros c l Hc Hl. destruct (Vs c l Hc Hl) as [H|H]; auto.
Qed.

(** ** Changing single nodes *)
Lemma qinv_cap GF GU gi cap cap' ow st : qinv GF GU gi cap ow st ->
  (forall id lits l r lr rv, nth_error (t_nodes st) id = Some (NUnit lits l r) -> con_len (t_nodes st) r = Some lr -> (rv <= lr)%nat ->
     (forall c, cap' id = Some c -> (rv <= c)%nat) -> (forall c, cap id = Some c -> (rv <= c)%nat)) ->
  qinv GF GU gi cap' ow st.
Proof.
  intros [O1 O2 I1 Lf Gn C If Oif Vs] H. constructor; auto. intros. eapply If; eauto.
Qed.

(** the missing pairs of one node are implied *)
Lemma qinv_uncap GF GU gi cap cap' ow st bb : qinv GF GU gi cap ow st -> (forall j, j <> bb -> cap' j = cap j) ->
  (forall lits l r val ol s ll lr lv rv c, nth_error (t_nodes st) bb = Some (NUnit lits l r) -> data (t_nodes st) bb val = Some (LLit ol s) -> sem_le_if s = true ->
     con_len (t_nodes st) l = Some ll -> con_len (t_nodes st) r = Some lr -> (lv + rv = val)%nat -> (lv <= ll)%nat -> (rv <= lr)%nat -> cap bb = Some c -> (c < rv)%nat ->
     pair_done GU (t_nodes st) (t_cls st) l r ol lv rv) ->
  qinv GF GU gi cap' ow st.
Proof.
  intros [O1 O2 I1 Lf Gn C If Oif Vs] H1 H2. constructor; auto.
  intros id lits l r val ol s Hn Hd HA ll lr lv rv E1 E2 E3 E4 E5 E6. destruct (Nat.eq_dec id bb) as [->|Hne].
  - destruct (cap bb) as [c|] eqn:Ec; [destruct (Nat.le_gt_cases rv c) as [L|L]|].
    + eapply If; eauto. intros c' Hc'. assert (c' = c) as -> by congruence. auto.
    + eapply H2; eauto.
    + eapply If; eauto. intros c' Hc'. congruence.
  - eapply If; eauto. rewrite <- H1 by auto. auto.
Qed.

Lemma lit_has_upd ns id n n' i val sem l : nth_error ns id = Some n -> is_unitlike n -> is_unitlike n' -> (forall y, n <> NLeaf y) -> (forall v l s, node_data n v = Some (LLit l s) -> node_data n' v = Some (LLit l s)) ->
  lit_has ns i val sem l -> lit_has (upd id n' ns) i val sem l.
Proof.
  intros Hn U U' NL Hd [(H & E)|(s & H & K)].
  - left. split; [|auto]. rewrite nth_error_upd. destruct (Nat.eqb_spec id i) as [->|]; [|auto]. rewrite Hn in H. injection H as ->. exfalso. eapply NL; eauto.
  - right. exists s. split; [|auto]. unfold data in *. rewrite nth_error_upd. destruct (Nat.eqb_spec id i) as [->|]; [|auto]. rewrite Hn in *. auto.
Qed.

Lemma con_len_upd ns id n n' con : nth_error ns id = Some n -> node_len n' = node_len n -> con_len (upd id n' ns) con = con_len ns con.
Proof.
  intros Hn Hl. unfold con_len. rewrite nth_error_upd. destruct (Nat.eqb_spec id (nc_id con)) as [->|]; [|reflexivity]. rewrite Hn. cbn [obind]. now rewrite Hl.
Qed.

(** redirecting the right connection of a node from the dummy *)
Lemma qinv_patch GF GU gi cap cap' ow ns next cs lb lits l r con : qinv GF GU gi cap ow (mkTst ns next cs) ->
  nth_error ns lb = Some (NUnit lits l r) -> nth_error ns (nc_id r) = Some NDummy -> nc_map r 0 = 0%nat ->
  cap' lb = Some 0%nat -> (forall j, j <> lb -> cap' j = cap j) ->
  qinv GF GU gi cap' ow (mkTst (upd lb (NUnit lits l con) ns) next cs).
Proof.
  intros [O1 O2 I1 Lf Gn C If Oif Vs] Hn Hr Hrm K1 K2. cbn [t_nodes t_next t_cls] in *.
  assert (Hdata : forall j v, data (upd lb (NUnit lits l con) ns) j v = data ns j v).
  { intros j v. unfold data. rewrite nth_error_upd. destruct (Nat.eqb_spec lb j) as [<-|]; [|reflexivity]. rewrite Hn. reflexivity. }
  assert (Hlh : forall id val x, lit_has ns id val SIf x -> lit_has (upd lb (NUnit lits l con) ns) id val SIf x).
  { intros id val x. eapply lit_has_upd; [exact Hn|exact Logic.I|exact Logic.I|discriminate|]. cbn [node_data]. auto. }
  assert (Hcl : forall c, con_len (upd lb (NUnit lits l con) ns) c = con_len ns c) by (intros c; eapply con_len_upd; [exact Hn|reflexivity]).
  constructor; cbn [t_nodes t_next t_cls]; auto.
  - intros id val x s H. rewrite Hdata in H. eauto.
  - intros v id val H. rewrite upd_length. eauto.
  - intros id x H. rewrite nth_error_upd in H. destruct (Nat.eqb_spec lb id) as [->|]; [rewrite Hn in H; discriminate|eauto].
  - intros id lits' m l' r' val x s H HD. rewrite Hdata in HD. rewrite nth_error_upd in H. destruct (Nat.eqb_spec lb id) as [->|]; [rewrite Hn in H; discriminate|]. eapply Gn; eauto.
  - intros a V Ha Hd. apply C with (V := V); [|auto].
    assert (Hoth : forall id n, lb <> id -> nth_error ns id = Some n -> nth_error (upd lb (NUnit lits l con) ns) id = Some n).
    { intros id n Hne H. rewrite nth_error_upd. destruct (Nat.eqb_spec lb id); [contradiction|auto]. }
    intros id n Hid. destruct (Nat.eqb_spec lb id) as [<-|Hne]; [|exact (Ha id n (Hoth id n Hne Hid))].
    rewrite Hn in Hid. injection Hid as <-. specialize (Ha lb (NUnit lits l con)) as Ha1. rewrite nth_error_upd, Nat.eqb_refl, Hn in Ha1. specialize (Ha1 eq_refl). cbn in Ha1.
    assert (Vz : V (nc_id r) = 0%nat) by (apply (Ha (nc_id r) NDummy); apply Hoth; [intros E; rewrite <- E, Hn in Hr; discriminate|auto]).
    rewrite Vz, Hrm. lia.
  - intros id lits' l' r' val ol s H HD HA ll lr lv rv E1 E2 E3 E4 E5 E6. rewrite Hdata in HD. rewrite Hcl in E1, E2. rewrite nth_error_upd in H.
    destruct (Nat.eqb_spec lb id) as [<-|Hne].
    + rewrite Hn in H. injection H as <- <- <-. specialize (E6 _ K1). assert (rv = 0%nat) as -> by lia.
      assert (exists lr0, con_len ns r = Some lr0) as (lr0 & Elr) by (unfold con_len; rewrite Hr; cbn [obind]; eauto).
      destruct (If lb lits l r val ol s Hn HD HA ll lr0 lv 0%nat E1 Elr E3 E4 ltac:(lia)) as (xs & ys & Sx & Sy & Himp); [lia|].
      exists xs, ys. split; [eapply side_mono; eauto|]. split; [|auto]. destruct Sy as [(_ & ->)|(y & _ & K & _)]; [|lia]. left. auto.
    + eapply pair_mono; [exact Hlh|intros c Hc; exact Hc|]. eapply If; eauto. rewrite <- K2 by auto. auto.
  - intros id val x s H. rewrite Hdata in H. eauto.
Qed.

(** appending outputs without literals to a node *)
Lemma qinv_resize GF GU gi cap ow ns next cs bb lits l r k : qinv GF GU gi cap ow (mkTst ns next cs) ->
  nth_error ns bb = Some (NUnit lits l r) ->
  (forall p lp cl cr, nth_error ns p = Some (NUnit lp cl cr) -> nc_id cl <> bb /\ (nc_id cr = bb -> exists c lr, cap p = Some c /\ con_len ns cr = Some lr /\ (c <= lr)%nat)) ->
  qinv GF GU gi cap ow (mkTst (upd bb (NUnit (lits ++ repeat LNone k) l r) ns) next cs).
Proof.
  intros [O1 O2 I1 Lf Gn C If Oif Vs] Hn Hp. cbn [t_nodes t_next t_cls] in *. set (n' := NUnit (lits ++ repeat LNone k) l r).
  assert (Hd1 : forall v x s, node_data n' v = Some (LLit x s) <-> node_data (NUnit lits l r) v = Some (LLit x s)).
  { intros v x s. cbn [n' node_data]. destruct (v =? 0)%nat; [reflexivity|]. destruct (Nat.lt_ge_cases (v - 1) (length lits)) as [L|L].
    - rewrite nth_error_app1 by auto. reflexivity.
    - rewrite nth_error_app2 by auto. split; intros H; [|apply nth_error_lt in H; lia]. apply nth_error_In, repeat_spec in H. discriminate. }
  assert (Hdata : forall j v x s, data (upd bb n' ns) j v = Some (LLit x s) -> data ns j v = Some (LLit x s)).
  { intros j v x s. unfold data. rewrite nth_error_upd. destruct (Nat.eqb_spec bb j) as [<-|]; [|auto]. rewrite Hn. apply Hd1. }
  assert (Hlh : forall id val x, lit_has ns id val SIf x -> lit_has (upd bb n' ns) id val SIf x).
  { intros id val x. eapply lit_has_upd; [exact Hn|exact Logic.I|exact Logic.I|discriminate|]. intros v y s. apply Hd1. }
  assert (Hnth : forall j n, nth_error (upd bb n' ns) j = Some n -> exists n0, nth_error ns j = Some n0 /\ (n = n0 \/ (j = bb /\ n = n'))).
  { intros j n. rewrite nth_error_upd. destruct (Nat.eqb_spec bb j) as [<-|]; [rewrite Hn; intros [= <-]; eauto|eauto]. }
  constructor; cbn [t_nodes t_next t_cls]; auto.
  - intros id val x s H. apply Hdata in H. eauto.
  - intros v id val H. rewrite upd_length. eauto.
  - intros id x H. apply Hnth in H as (n0 & H & [<-|(_ & E)]); [eauto|discriminate].
  - intros id lits' m l' r' val x s H HD. apply Hdata in HD. apply Hnth in H as (n0 & H & [<-|(_ & E)]); [|discriminate]. eapply Gn; eauto.
  - intros a V Ha Hd. apply C with (V := V); [|auto]. intros id n Hid. destruct (Nat.eq_dec bb id) as [<-|Hne].
    + rewrite Hn in Hid. injection Hid as <-. specialize (Ha bb n'). rewrite nth_error_upd, Nat.eqb_refl, Hn in Ha. exact (Ha eq_refl).
    + apply (Ha id n). rewrite nth_error_upd. destruct (Nat.eqb_spec bb id); [contradiction|auto].
  - intros id lits' l' r' val ol s H HD HA ll lr lv rv E1 E2 E3 E4 E5 E6. apply Hdata in HD. 
    assert (Hold : exists lits0, nth_error ns id = Some (NUnit lits0 l' r')).
    { apply Hnth in H as (n0 & H & [<-|(-> & E)]); [eauto|]. injection E as -> -> ->. eauto. }
    destruct Hold as (lits0 & Hold). destruct (Hp _ _ _ _ Hold) as (P1 & P2).
    assert (E1' : con_len ns l' = Some ll).
    { rewrite <- E1. unfold con_len. rewrite nth_error_upd. destruct (Nat.eqb_spec bb (nc_id l')); [congruence|reflexivity]. }
    assert (E2' : exists lr0, con_len ns r' = Some lr0 /\ (rv <= lr0)%nat).
    { destruct (Nat.eq_dec (nc_id r') bb) as [E|E].
      - destruct (P2 E) as (c & lr0 & Q1 & Q2 & Q3). exists lr0. split; [auto|]. specialize (E6 _ Q1). lia.
      - exists lr. split; [|auto]. rewrite <- E2. unfold con_len. rewrite nth_error_upd. destruct (Nat.eqb_spec bb (nc_id r')); [congruence|reflexivity]. }
    destruct E2' as (lr0 & E2' & E5'). eapply pair_mono; [exact Hlh|intros c Hc; exact Hc|]. eapply If; eauto.
  - intros id val x s H. apply Hdata in H. eauto.
Qed.

(** ** Reserving *)
Section Reserve.
Variables (GF GU : cnf) (gi : N -> bool) (cap : nat -> option nat).
Notation Q := (qinv GF GU gi cap).

Lemma reserve_val_q ow st id val n : Q ow st -> nth_error (t_nodes st) id = Some n -> is_general n = false -> In val (node_vals n 1 None) ->
  exists st' ow', reserve_val st id val = Some st' /\ Q ow' st' /\ ext ow st ow' st' /\ t_cls st' = t_cls st.
Proof.
  intros I Hn Hg Hv. unfold reserve_val. rewrite Hn. cbn [obind]. destruct n as [l|lits l r|lits m l r|]; try discriminate.
  - exists st, ow. split; [auto|]. split; [auto|]. split; [apply ext_refl|auto].
  - destruct (Nat.eqb_spec val 0) as [->|Hz]; [exists st, ow; split; [auto|]; split; [auto|]; split; [apply ext_refl|auto]|].
    cbn [node_vals] in Hv. apply in_range_excl in Hv.
    destruct (nth_error lits (val - 1)) as [dat|] eqn:E; [|apply nth_error_None in E; lia].
    destruct (get_olit_q _ _ _ _ _ _ _ _ _ _ _ _ I Hn E) as (ol & st' & ow' & R & I' & X & _ & C & _). rewrite R. cbn [obind snd].
    exists st', ow'. auto.
  - exists st, ow. split; [auto|]. split; [auto|]. split; [apply ext_refl|auto].
Qed.

Lemma reserve_fold_q ow st id n vs : Q ow st -> nth_error (t_nodes st) id = Some n -> is_general n = false ->
  (forall v, In v vs -> In v (node_vals n 1 None)) ->
  exists st' ow', foldM (fun s v => reserve_val s id v) vs st = Some st' /\ Q ow' st' /\ ext ow st ow' st' /\ t_cls st' = t_cls st.
Proof.
  revert ow st n. induction vs as [|v vs IH]; intros ow st n I Hn Hg Hv; cbn [foldM].
  - exists st, ow. split; [auto|]. split; [auto|]. split; [apply ext_refl|auto].
  - destruct (reserve_val_q ow st id v n I Hn Hg) as (st1 & ow1 & R1 & I1 & X1 & C1); [apply Hv; now left|]. rewrite R1. cbn [obind].
    destruct (node_same_skel _ _ _ _ (e_skel _ _ _ _ X1) Hn) as (n' & Hn' & He).
    assert (Hvals : node_vals n' 1 None = node_vals n 1 None) by (rewrite <- (node_vals_erase n'), He; apply node_vals_erase).
    assert (Hgen : is_general n' = is_general n) by (rewrite <- (is_general_erase n'), He; apply is_general_erase).
    destruct (IH ow1 st1 n' I1 Hn') as (st2 & ow2 & R2 & I2 & X2 & C2); [congruence| |].
    { intros w Hw. rewrite Hvals. apply Hv. now right. }
    exists st2, ow2. split; [exact R2|]. split; [auto|]. split; [eapply ext_trans; eauto|congruence].
Qed.

Lemma reserve_vars_q g fuel : forall ow st con, wf_shape (skel (t_nodes st)) g -> Q ow st -> 
  (exists n, nth_error (t_nodes st) (nc_id con) = Some n /\ is_general n = false) -> (grk g (nc_id con) < fuel)%nat ->
  exists st' ow', reserve_vars fuel st con = Some st' /\ Q ow' st' /\ ext ow st ow' st' /\ t_cls st' = t_cls st.
Proof.
  induction fuel as [|f IH]; intros ow st con W I (n & Hn & Hg) Hf; [lia|]. cbn [reserve_vars]. rewrite Hn. cbn [obind].
  pose proof (wf_node _ _ W _ _ (nth_skel _ _ _ Hn)) as N.
  assert (Hvals : forall v, In v (reserve_vals n con) -> In v (node_vals n 1 None)).
  { assert (Hg' : forall lits m l r, n = NGeneral lits m l r -> forall x, In x (map fst lits) -> (1 <= x)%nat) by (intros lits m l r ->; discriminate).
    intros v Hv. unfold reserve_vals in Hv. destruct (nc_div con =? 1)%nat.
    - destruct (nc_limit con); [apply firstn_In in Hv|]; eapply node_vals_from; eauto.
    - apply filter_In in Hv as (Hv & _). eapply node_vals_from; eauto. }
  destruct n as [l|lits l r|lits m l r|]; try discriminate.
  - exists st, ow. split; [auto|]. split; [auto|]. split; [apply ext_refl|auto].
  - cbn [erase node_ok] in N. destruct N as (C1 & C2 & _ & _ & R1 & R2 & (nl & nr & E1 & E2 & G1 & G2 & _) & _).
    apply nth_skel_inv in E1 as (nl0 & E1 & ->). apply nth_skel_inv in E2 as (nr0 & E2 & ->). rewrite is_general_erase in *.
    destruct (IH ow st l W I) as (st1 & ow1 & Q1 & I1 & X1 & Cl1); [eauto|lia|]. rewrite Q1. cbn [obind].
    destruct (node_same_skel _ _ _ _ (e_skel _ _ _ _ X1) E2) as (nr' & Er' & Her).
    destruct (IH ow1 st1 r) as (st2 & ow2 & Q2 & I2 & X2 & Cl2); [rewrite (e_skel _ _ _ _ X1); auto|auto| |lia|].
    { exists nr'. split; [auto|]. rewrite <- is_general_erase, Her, is_general_erase. auto. }
    rewrite Q2. cbn [obind is_general negb]. rewrite orb_true_r. cbn [assertb obind].
    assert (X12 : ext ow st ow2 st2) by (eapply ext_trans; eauto).
    destruct (node_same_skel _ _ _ _ (e_skel _ _ _ _ X12) Hn) as (n' & Hn' & He).
    destruct (reserve_fold_q ow2 st2 (nc_id con) n' (reserve_vals (NUnit lits l r) con) I2 Hn') as (st3 & ow3 & R3 & I3 & X3 & C3).
    { rewrite <- is_general_erase, He. reflexivity. }
    { intros v Hv. rewrite <- (node_vals_erase n'), He, node_vals_erase. auto. }
    exists st3, ow3. split; [exact R3|]. split; [auto|]. split; [eapply ext_trans; eauto|congruence].
  - exists st, ow. split; [auto|]. split; [auto|]. split; [apply ext_refl|auto].
Qed.
End Reserve.

(** ** The bookkeeping of [dinv] for this invariant *)
Section World.
Context {A : Type} (ilit : A -> lit).

Record qd (w : world A) (d : db) (g : ghost) (ow : owner) : Prop := mkQd {
  qd_inv : qinv (w_all w) (w_ub w) (gin g) nocap ow (mkTst (d_nodes d) (w_next w) []);
  qd_built : built g d;
  qd_ow : forall v x, ow v = Some x -> in_aux (w_aux w) v;
  qd_lits : forall x, In x (w_in w) -> (lvar (ilit x) < w_next w)%N /\ ~ in_aux (w_aux w) (lvar (ilit x));
  qd_gin : forall v, gin g v = true -> exists x, In x (w_in w) /\ lvar (ilit x) = v;
  qd_aux : aux_below (w_aux w) (w_next w)
}.

Lemma qd_dinv w d g ow : qd w d g ow -> dinv ilit w d g ow.
Proof. intros [J1 J2 J3 J4 J5 J6]. constructor; auto. apply inv_of_qinv; [exact (proj1 J2)|auto]. Qed.

Lemma qd_call w d g ow ow' st' : qd w d g ow ->
  qinv (w_all w) (w_ub w) (gin g) nocap ow' st' -> ext ow (mkTst (d_nodes d) (w_next w) []) ow' st' ->
  qd (log_call w false false (t_cls st') (t_next st')) (set_nodes_db d (t_nodes st')) g ow'.
Proof.
  intros I I' X.
  assert (Hsk : skel (t_nodes st') = skel (d_nodes d)) by exact (e_skel _ _ _ _ X).
  assert (Hnx : (w_next w <= t_next st')%N) by exact (e_next _ _ _ _ X).
  constructor; cbn [set_nodes_db d_nodes log_call w_in w_next w_aux w_all w_ub w_lb].
  - apply qinv_commit. exact I'.
  - apply built_skel; [exact (qd_built _ _ _ _ I)|auto].
  - intros v x H. apply in_aux_cons. destruct (e_ow_new _ _ _ _ X v x H) as [H'|H']; [right; eapply qd_ow; eauto|left; exact H'].
  - intros l Hl. destruct (qd_lits _ _ _ _ I l Hl) as (H1 & H2). split; [lia|]. intros H. apply in_aux_cons in H as [H|H]; [lia|auto].
  - exact (qd_gin _ _ _ _ I).
  - intros v H. apply in_aux_cons in H as [H|H]; [lia|]. apply (qd_aux _ _ _ _ I) in H. lia.
Qed.

Lemma qd_noop w d g ow : qd w d g ow -> qd (log_call w false false [] (w_next w)) d g ow.
Proof.
  intros [J1 J2 J8 J9 J10 J11].
  constructor; cbn [log_call w_in w_next w_aux w_all w_ub w_lb]; auto.
  - rewrite !app_nil_r. auto.
  - intros v x H. apply in_aux_cons. right. eauto.
  - intros l Hl. destruct (J9 l Hl) as (H1 & H2). split; [auto|]. intros H. apply in_aux_cons in H as [H|H]; [lia|auto].
  - intros v H. apply in_aux_cons in H as [H|H]; [lia|auto].
Qed.

Lemma qd_user w d g ow k : qd w d g ow -> qd (mkWorld (w_in w) (w_next w + k)%N (w_aux w) (w_all w) (w_ub w) (w_lb w)) d g ow.
Proof.
  intros [J1 J2 J8 J9 J10 J11]. constructor; cbn [w_in w_next w_aux w_all w_ub w_lb]; auto.
  - eapply qinv_next; [|exact J1]. lia.
  - intros l Hl. destruct (J9 l Hl). split; [lia|auto].
  - intros v Hv. apply J11 in Hv. lia.
Qed.

Lemma qd_extend w d g ow ls : qd w d g ow -> (forall l, In l ls -> (lvar (ilit l) < w_next w)%N /\ ~ in_aux (w_aux w) (lvar (ilit l))) ->
  qd (mkWorld (w_in w ++ ls) (w_next w) (w_aux w) (w_all w) (w_ub w) (w_lb w)) d g ow.
Proof.
  intros [J1 J2 J8 J9 J10 J11] H. constructor; cbn [w_in w_next w_aux w_all w_ub w_lb]; auto.
  - intros l Hl. apply in_app_or in Hl as [Hl|Hl]; auto.
  - intros v Hv. destruct (J10 v Hv) as (l & Hl & E). exists l. split; [apply in_or_app; auto|auto].
Qed.

Lemma qd_reset w d g ow : qd w d g ow ->
  qd (mkWorld (w_in w) (w_next w) (w_aux w) (w_all w) [] (w_lb w)) (set_nodes_db d (reset_encoded (d_nodes d) SIf)) g ow.
Proof.
  intros [J1 J2 J8 J9 J10 J11]. constructor; cbn [set_nodes_db d_nodes w_in w_next w_aux w_all w_ub w_lb]; auto.
  - eapply qinv_reset; eauto.
  - apply built_skel; [auto|]. apply reset_skel.
Qed.

Lemma qd_growd w d g ow vs d' g' : qd w d g ow -> built g' d' -> growd vs d g d' g' ->
  (forall v, In v vs -> exists x, In x (w_in w) /\ lvar (ilit x) = v) -> qd w d' g' ow.
Proof.
  intros [J1 J2 J8 J9 J10 J11] B G Hv. constructor; auto.
  - eapply qinv_growd; [exact (proj1 J2)|exact J1|exact B|exact G|]. intros v H. apply Hv in H as (x & Hx & <-). destruct (J9 x Hx) as (H1 & H2). split; [auto|].
    destruct (ow (lvar (ilit x))) eqn:E; [|reflexivity]. exfalso. eauto.
  - intros v H. destruct G as (_ & _ & G). apply G in H as [H|H]; eauto.
Qed.
End World.
