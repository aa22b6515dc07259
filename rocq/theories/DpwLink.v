(** * Bottom buckets for tares that were not needed before *)

From Coq Require Import List Bool NArith ZArith Lia Arith Sorted Permutation.
From Coq Require Import ZifyBool ZifyNat ZifyN.
From Verif Require Import Spec BoundSpec Types Atomics NodeDb TreeSpec TotDb Totalizer Maps Base TotDbInv TotDbUnit TotDbDefine TotDbGeneral TotDbBuild TotDbGrow TotDbMerge TotWeighted TotDbHist TotalizerProofs DbWorld Dpw DpwSpec DpwRef DpwBuild DpwBuckets DpwStruct DpwIf DpwInv DpwExtend DpwChain OptConv.
Import ListNotations.

Lemma nref_eq B B' ns : (forall x, In x B <-> In x B') -> nref B ns -> nref B' ns.
Proof. intros E H id n l r Hn C Hid. rewrite <- !E in *. eapply H; eauto. Qed.

Lemma skel_nth_eq ns ns' j : nth_error ns' j = nth_error ns j -> nth_error (skel ns') j = nth_error (skel ns) j.
Proof. unfold skel. rewrite !nth_error_map. now intros ->. Qed.

Lemma chain_skel ns bc rl : chain ns bc rl -> chain (skel ns) bc rl.
Proof.
  induction bc as [|(b & c) bc IH]; cbn [chain]; [auto|]. intros ((lits & E) & H). split; [|auto]. eexists. apply (nth_skel _ _ _ E).
Qed.
Lemma nref_skel B ns : nref B ns -> nref B (skel ns).
Proof.
  intros H id n l r Hn C Hid. apply nth_skel_inv in Hn as (n0 & Hn & ->). eapply H; eauto. destruct n0; cbn in *; auto.
Qed.
Lemma erase_idem n : erase (erase n) = erase n.
Proof. destruct n; cbn [erase]; try reflexivity; rewrite map_map; reflexivity. Qed.
Lemma skel_idem ns : skel (skel ns) = skel ns.
Proof. unfold skel. rewrite map_map. apply map_ext. apply erase_idem. Qed.
Lemma ucon_skel ns ns' c : skel ns' = skel ns -> ucon ns c -> ucon ns' c.
Proof.
  intros E (H1 & H2). split; [eapply con_good_skel; eauto|]. destruct H2 as (M & n & Hn & U). split; [auto|].
  destruct (unitlike_same_skel _ _ _ _ E Hn U) as (n' & Hn' & U' & _). eauto.
Qed.

Lemma chain_snoc ns bc nb c rl lits : chain ns bc (half nb) -> nth_error ns nb = Some (NUnit lits c rl) -> chain ns (bc ++ [(nb, c)]) rl.
Proof.
  induction bc as [|(b0 & c0) bc IH]; cbn [app chain]; intros H Hn; [split; [eauto|exact Logic.I]|].
  destruct H as (H1 & H2). split; [|auto]. destruct bc as [|(b1 & c1) bc]; exact H1.
Qed.
Lemma chain_other ns bc rl j n : chain ns bc rl -> ~ In j (map fst bc) -> chain (upd j n ns) bc rl.
Proof.
  induction bc as [|(b0 & c0) bc IH]; cbn [map fst chain]; intros H Hn; [auto|]. destruct H as ((lits & E) & H2). split; [|apply IH; auto; intros X; apply Hn; now right].
  exists lits. rewrite nth_error_upd. destruct (Nat.eqb_spec j b0) as [->|]; [exfalso; apply Hn; now left|auto].
Qed.
Lemma chain_redirect ns pre lb lc rl0 rl1 lits lits' : chain ns (pre ++ [(lb, lc)]) rl0 -> nth_error ns lb = Some (NUnit lits lc rl0) -> ~ In lb (map fst pre) ->
  chain (upd lb (NUnit lits' lc rl1) ns) (pre ++ [(lb, lc)]) rl1.
Proof.
  induction pre as [|(b0 & c0) pre IH]; cbn [app chain map fst]; intros H Hn Hin.
  - split; [|exact Logic.I]. exists lits'. rewrite nth_error_upd, Nat.eqb_refl, Hn. reflexivity.
  - destruct H as ((l0 & E) & H2). split; [|apply IH; auto; intros X; apply Hin; now right]. exists l0. rewrite nth_error_upd. destruct (Nat.eqb_spec lb b0) as [->|]; [exfalso; apply Hin; now left|].
    destruct pre as [|(b1 & c1) pre]; exact E.
Qed.

(** the re-evaluated chain, with literals *)
Lemma rechain_db ns ns' g bc rl : wf_shape (skel ns) g -> NoDup (map fst bc) -> nref (map fst bc) ns -> length ns' = length ns ->
  (forall j, ~ In j (map fst bc) -> nth_error (skel ns') j = nth_error (skel ns) j) -> chain ns' bc rl ->
  Forall (fun x => ucon ns (snd x) /\ outside (map fst bc) (snd x)) bc ->
  (con_params rl /\ nc_mult rl = 1%nat /\ ~ In (nc_id rl) (map fst bc) /\ exists n, nth_error ns (nc_id rl) = Some n /\ is_general n = false /\ (nc_offset rl <= node_len n)%nat) ->
  (forall b c lits r, In (b, c) bc -> nth_error ns' b = Some (NUnit lits c r) -> exists ll lr, con_len ns' c = Some ll /\ con_len ns' r = Some lr /\ length lits = (ll + lr)%nat) ->
  exists g', wf_shape (skel ns') g' /\ gin g' = gin g /\ (forall a id, ~ In id (map fst bc) -> gV g' a id = gV g a id) /\
    (forall a pre b c bc', bc = pre ++ (b, c) :: bc' -> gV g' a b = chv (cval g a) (nc_map rl (gV g a (nc_id rl))) ((b, c) :: bc')).
Proof.
  intros W ND HR Hl Hs Hch Hc (P & M & O & n & En & Gn & Ln) Hlens. exists (rg (skel ns) g bc rl). split; [|split; [reflexivity|split]].
  - apply rechain; auto.
    + now apply nref_skel.
    + now rewrite !skel_length.
    + now apply chain_skel.
    + eapply Forall_impl; [|exact Hc]. intros x (U & Ox). split; [|auto]. eapply ucon_skel; [|exact U]. apply skel_idem.
    + split; [auto|]. split; [auto|]. split; [auto|]. exists (erase n). split; [now apply nth_skel|]. rewrite is_general_erase. split; [auto|]. destruct n; cbn in *; rewrite ?map_length; auto.
    + intros b c lits r Hin Hn. apply nth_skel_inv in Hn as (n0 & Hn & E). destruct n0 as [|lits0 c0 r0|? ? ? ?|]; cbn [erase] in E; try discriminate. injection E as -> -> ->.
      destruct (Hlens _ _ _ _ Hin Hn) as (ll & lr & E1 & E2 & E3). exists ll, lr. rewrite !con_len_skel, map_length. auto.
  - intros a id Hid. cbn [rg gV]. now apply rV_out.
  - intros a pre b c bc' E. cbn [rg gV]. eapply rV_in; eauto.
Qed.

(** ** What the changes leave alone *)
Record moved (vs : list N) (B : list nat) (d : db) (g : ghost) (d' : db) (g' : ghost) : Prop := mkMoved {
  mv_len : (length (d_nodes d) <= length (d_nodes d'))%nat;
  mv_nth : forall j, (j < length (d_nodes d))%nat -> ~ In j B -> nth_error (d_nodes d') j = nth_error (d_nodes d) j;
  mv_val : forall a j, (j < length (d_nodes d))%nat -> ~ In j B -> gV g' a j = gV g a j;
  mv_data : forall j v l s, data (d_nodes d') j v = Some (LLit l s) -> data (d_nodes d) j v = Some (LLit l s);
  mv_gin : forall v, gin g' v = true -> gin g v = true \/ In v vs
}.

Lemma moved_growd vs B d g d' g' : growd vs d g d' g' -> moved vs B d g d' g'.
Proof.
  intros ((new & En & Fn) & (AV & _) & GI). constructor; auto.
  - rewrite En, app_length. lia.
  - intros j Hj _. rewrite En. now rewrite nth_error_app1.
  - intros j v l s H. rewrite En in H. apply data_newd in H as (_ & H); auto.
Qed.
Lemma moved_trans vs vs' B B' d g d1 g1 d2 g2 : (forall x, In x B' -> In x B \/ (length (d_nodes d) <= x)%nat) -> moved vs B d g d1 g1 -> moved vs' B' d1 g1 d2 g2 -> moved (vs ++ vs') B d g d2 g2.
Proof.
  intros HB [L1 N1 V1 D1 G1] [L2 N2 V2 D2 G2].
  assert (K : forall j, (j < length (d_nodes d))%nat -> ~ In j B -> (j < length (d_nodes d1))%nat /\ ~ In j B') by (intros j Hj Hn; split; [lia|]; intros X; apply HB in X as [X|X]; [auto|lia]).
  constructor; auto; try lia.
  - intros j Hj Hn. destruct (K j Hj Hn). rewrite N2, N1; auto.
  - intros a j Hj Hn. destruct (K j Hj Hn). rewrite V2, V1; auto.
  - intros v Hv. apply G2 in Hv as [Hv|Hv]; [apply G1 in Hv as [Hv|Hv]|]; auto; right; apply in_or_app; auto.
Qed.
Lemma ucon_moved vs B d g d' g' c : moved vs B d g d' g' -> ucon (d_nodes d) c -> outside B c -> ucon (d_nodes d') c /\ (forall a, cval g' a c = cval g a c) /\ cmax (d_nodes d') c = cmax (d_nodes d) c.
Proof.
  intros M U O. pose proof (ucon_lt _ _ U) as Lt. pose proof (mv_nth _ _ _ _ _ _ M _ Lt O) as E. destruct U as ((S & Mu & n & En & X) & M' & n' & En' & U).
  split; [|split].
  - split; [split; [auto|]; split; [auto|]; exists n; split; [congruence|auto]|]. split; [auto|]. exists n'. split; [congruence|auto].
  - intros a. unfold cval. now rewrite (mv_val _ _ _ _ _ _ M).
  - unfold cmax. now rewrite E.
Qed.

Lemma built_upd g d lb n n' : built g d -> nth_error (d_nodes d) lb = Some n -> is_dummy n = false -> (forall l, n <> NLeaf l) -> forall g', wf_shape (skel (upd lb n' (d_nodes d))) g' -> built g' (set_nodes_db d (upd lb n' (d_nodes d))).
Proof.
  intros (_ & L1 & L2) Hn D Hl g' W. split; [exact W|]. split; cbn [set_nodes_db d_lookup d_dummy d_nodes].
  - intros l id H. apply L1 in H. rewrite nth_error_upd. destruct (Nat.eqb_spec lb id) as [->|]; [|auto]. rewrite Hn in H. injection H as ->. exfalso. eapply Hl; eauto.
  - intros id H. apply L2 in H. rewrite nth_error_upd. destruct (Nat.eqb_spec lb id) as [->|]; [|auto]. rewrite Hn in H. injection H as ->. discriminate.
Qed.

(** ** Chains that can be linked on *)
Record linked (B1 : list nat) (g : ghost) (d : db) (bc : list (nat * nodecon)) : Prop := mkLinked {
  lk_built : built g d;
  lk_chain : chain_ok d bc (map fst bc);
  lk_nref : nref (map fst bc) (d_nodes d);
  lk_nref1 : nref (map fst bc ++ B1) (d_nodes d);
  lk_inner : inner B1 (d_nodes d);
  lk_out : Forall (fun x => outside B1 (snd x)) bc
}.

Lemma snoc_cases {A} (xs : list A) : xs <> [] -> exists pre x, xs = pre ++ [x].
Proof. intros H. destruct (exists_last H) as (pre & x & E). eauto. Qed.

Lemma last_bottom_snoc pre x : last_bottom (pre ++ [x]) = Some x.
Proof. unfold last_bottom. rewrite app_length. cbn [length]. rewrite nth_error_app2 by lia. replace (length pre + 1 - 1 - length pre)%nat with 0%nat by lia. reflexivity. Qed.

Lemma wf_unit_lens ns g b lits c r : wf_shape (skel ns) g -> nth_error ns b = Some (NUnit lits c r) -> exists ll lr, con_len ns c = Some ll /\ con_len ns r = Some lr /\ length lits = (ll + lr)%nat.
Proof.
  intros W Hn. pose proof (wf_node _ _ W _ _ (nth_skel _ _ _ Hn)) as N. cbn [erase node_ok] in N. destruct N as (_ & _ & _ & _ & _ & _ & _ & (ll & lr & L1 & L2 & Len) & _).
  rewrite con_len_skel in L1, L2. rewrite map_length in Len. eauto.
Qed.

Section Link.
Variables (GF GU : cnf) (ow : owner) (next : N) (B1 : list nat).
Notation QD g d := (qinv GF GU (gin g) nocap ow (mkTst (d_nodes d) next [])).

Lemma link_ok g d bc tare : linked B1 g d bc -> bc <> [] -> QD g d -> (lvar tare < next)%N -> ow (lvar tare) = None -> (forall x, In x B1 -> ~ In x (map fst bc)) ->
  exists d' nb tn g', link_tare (d, map fst bc) tare = Some (d', map fst bc ++ [nb]) /\ linked B1 g' d' (bc ++ [(nb, con_full tn)]) /\ QD g' d' /\
    moved [lvar tare] (map fst bc) d g d' g' /\ (length (d_nodes d) <= nb)%nat /\
    (forall a, cval g' a (con_full tn) = if lit_true a tare then 1%nat else 0%nat) /\ cmax (d_nodes d') (con_full tn) = 1%nat.
Proof.
  intros [LB (_ & LND & (du & Hdu & LC) & LF) LR LR1 LI LO] Hne I Hv Ho HB1. set (bs := map fst bc) in *.
  assert (Ndu : nth_error (d_nodes d) du = Some NDummy) by (apply LB; auto).
  assert (Ed : db_insert d NDummy = (d, du)) by (cbn [db_insert]; now rewrite Hdu).
  unfold link_tare. rewrite Ed.
  destruct (insert_leaf g d tare LB) as (d2 & tn & g2 & Ei & B2 & G2 & N2 & C2 & V2 & _). apply growd_of_grow in G2. 
  pose proof (insert_leaf_dummy _ _ _ _ Ei) as Hdu2. rewrite Hdu in Hdu2.
  assert (IBs : inner bs (d_nodes d)) by (eapply chain_inner; eauto).
  assert (IBs1 : inner (bs ++ B1) (d_nodes d)) by (intros b Hb; apply in_app_or in Hb as [Hb|Hb]; auto).
  destruct (insert_leaf_ref bs _ _ _ _ Ei LR IBs N2) as (R1 & R2 & R3).
  destruct (insert_leaf_ref (bs ++ B1) _ _ _ _ Ei LR1 IBs1 N2) as (S1 & S2 & S3).
  rewrite Ei.
  assert (Ndu2 : nth_error (d_nodes d2) du = Some NDummy) by (apply B2; auto).
  assert (Uc : unit_con (d_nodes d2) (con_full tn)) by (split; [reflexivity|]; exists (NLeaf tare); split; [exact N2|exact Logic.I]).
  destruct (internal_div g2 d2 (con_full tn) (con_full du) NDummy B2 C2 Uc) as (n & g3 & En & I1 & B3 & G3 & N3 & U3 & V3 & M3); try reflexivity; [exact Ndu2|].
  rewrite En. cbn [obind]. rewrite I1. set (d3 := mkDb (d_nodes d2 ++ [n]) (d_lookup d2) (d_dummy d2)) in *. set (nb := length (d_nodes d2)) in *.
  destruct (snoc_cases bc Hne) as (pre & (lb & lc) & Ebc).
  assert (Ebs : bs = map fst pre ++ [lb]) by (unfold bs; rewrite Ebc, map_app; reflexivity).
  assert (Hlb : In lb bs) by (rewrite Ebs; apply in_or_app; right; now left).
  assert (Npre : ~ In lb (map fst pre)).
  { rewrite Ebs in LND. apply NoDup_remove_2 in LND. rewrite app_nil_r in LND. exact LND. }
  assert (G13 : growd [lvar tare] d g d3 g3) by (eapply growd_trans; [exact G2|eapply growd_incl; [|exact G3]; intros ? []]).
  assert (Hnodes3 : exists new, d_nodes d3 = d_nodes d ++ new) by (destruct G13 as ((new & E & _) & _); eauto). destruct Hnodes3 as (new3 & Enew3).
  assert (LC3 : chain (d_nodes d3) bc (con_full du)) by (rewrite Enew3; now apply chain_app_nodes).
  assert (Nlb : exists lits, nth_error (d_nodes d3) lb = Some (NUnit lits lc (con_full du))).
  { rewrite Ebc in LC3. apply (chain_at _ pre lb lc [] _) in LC3 as (H & _). exact H. }
  destruct Nlb as (lits & Nlb).
  assert (Elast : last_bottom bs = Some lb) by (rewrite Ebs; apply last_bottom_snoc). rewrite Elast. cbn [obind]. unfold patch_right. rewrite Nlb. cbn [obind con_full nc_id].
  assert (Ndu3 : nth_error (d_nodes d3) du = Some NDummy) by (apply B3; cbn [d3 d_dummy]; auto).
  rewrite Ndu3. cbn [obind is_dummy assertb]. change (mkCon nb 0 2 1 None) with (half nb).
  set (ns' := upd lb (NUnit lits lc (half nb)) (d_nodes d3)).
  assert (Hnb : (length (d_nodes d) <= nb)%nat) by (destruct G2 as ((new & E & _) & _); unfold nb; rewrite E, app_length; lia).
  assert (Blt : forall b, In b bs -> (b < length (d_nodes d))%nat) by (intros b Hb; exact (inner_lt _ _ _ IBs Hb)).
  assert (Nnb : ~ In nb bs) by (intros X; apply Blt in X; lia).
  assert (En' : exists lits0, n = NUnit lits0 (con_full tn) (con_full du)) by (apply unit_of_internal; [auto|]; eapply node_internal_children; eauto). destruct En' as (lits0 & ->).
  set (bc' := bc ++ [(nb, con_full tn)]). assert (Ebs' : map fst bc' = bs ++ [nb]) by (unfold bc'; rewrite map_app; reflexivity).
  assert (Utn : ucon (d_nodes d3) (con_full tn)) by (eapply ucon_growd; [exact G3|]; split; auto).
  assert (Otn : ~ In tn (bs ++ [nb])). { intros X. apply in_app_or in X as [X|[X|[]]]; [auto|]. apply nth_error_lt in N2; unfold nb in X; clear - X N2; lia. }
  assert (Odu : ~ In du (bs ++ [nb])). { intros X. apply in_app_or in X as [X|[X|[]]]; [exact (nref_dummy _ _ _ R2 Ndu2 X)|]. apply nth_error_lt in Ndu2; unfold nb in X; clear - X Ndu2; lia. }
  assert (ND' : NoDup (map fst bc')).
  { rewrite Ebs'. apply (NoDup_app_intro _ [nb]); [auto|repeat constructor; intros []|]. intros x Hx [<-|[]]. auto. }
  assert (Hch3 : forall id m l r, nth_error (d_nodes d2) id = Some m -> children m = Some (l, r) -> (nc_id l < length (d_nodes d2) /\ nc_id r < length (d_nodes d2))%nat) by (intros; eapply wf_children_lt; eauto; apply B2).
  assert (NR3 : nref (bs ++ [nb]) (d_nodes d3)).
  { eapply nref_eq; [|exact (nref_join bs (d_nodes d2) (NUnit lits0 (con_full tn) (con_full du)) R1 R2 Hch3)]. intros x. fold nb. cbn [In]. rewrite in_app_iff. cbn [In]. tauto. }
  assert (NR31 : nref ((bs ++ [nb]) ++ B1) (d_nodes d3)).
  { eapply nref_eq; [|exact (nref_join (bs ++ B1) (d_nodes d2) (NUnit lits0 (con_full tn) (con_full du)) S1 S2 Hch3)]. intros x. fold nb. cbn [In]. rewrite !in_app_iff. cbn [In]. tauto. }
  assert (Hlen' : length ns' = length (d_nodes d3)) by apply upd_length.
  assert (Hlb3 : lb <> nb) by (intros ->; auto).
  assert (Nnb' : nth_error ns' nb = Some (NUnit lits0 (con_full tn) (con_full du))).
  { unfold ns'. rewrite nth_error_upd. destruct (Nat.eqb_spec lb nb); [contradiction|exact N3]. }
  assert (Ch' : chain ns' bc' (con_full du)).
  { eapply chain_snoc; [|exact Nnb']. rewrite Ebc. unfold ns'. eapply chain_redirect; [rewrite <- Ebc; exact LC3|exact Nlb|exact Npre]. }
  assert (Fc : Forall (fun x => ucon (d_nodes d3) (snd x) /\ outside (map fst bc') (snd x)) bc').
  { rewrite Ebs'. apply Forall_app. split; [|constructor; [|constructor]; cbn [snd]; split; [exact Utn|exact Otn]].
    eapply Forall_impl; [|exact LF]. intros x (U & O). split; [eapply ucon_growd; eauto|]. intros X. apply in_app_or in X as [X|[X|[]]]; [auto|]. apply ucon_lt in U. lia. }
  assert (CL : forall c, con_len ns' c = con_len (d_nodes d3) c) by (intros c; eapply con_len_upd; [exact Nlb|reflexivity]).
  assert (Cdu : con_len (d_nodes d3) (con_full du) = Some 0%nat) by (unfold con_len; cbn [con_full nc_id]; rewrite Ndu3; reflexivity).
  assert (Lits0 : length lits0 = 1%nat).
  { cbn [node_max_val con_full nc_div] in M3. unfold cmax in M3. cbn [con_full nc_id] in M3. rewrite N2 in M3. exact M3. }
  assert (Chalf : con_len (d_nodes d3) (half nb) = Some 0%nat) by (rewrite (half_len _ _ _ N3); cbn [node_len]; now rewrite Lits0).
  assert (Lens : forall b c lits r, In (b, c) bc' -> nth_error ns' b = Some (NUnit lits c r) -> exists ll lr, con_len ns' c = Some ll /\ con_len ns' r = Some lr /\ length lits = (ll + lr)%nat).
  { intros b c ls r _ Hn. rewrite !CL. unfold ns' in Hn. rewrite nth_error_upd in Hn. destruct (Nat.eqb_spec lb b) as [->|Hb]; [|eapply wf_unit_lens; [apply B3|exact Hn]].
    rewrite Nlb in Hn. injection Hn as <- <- <-. destruct (wf_unit_lens _ _ _ _ _ _ (proj1 B3) Nlb) as (ll & lr & E1 & E2 & E3). exists ll, 0%nat. split; [auto|]. split; [auto|]. rewrite Cdu in E2. injection E2 as <-. exact E3. }
  destruct (rechain_db (d_nodes d3) ns' g3 bc' (con_full du) (proj1 B3) ND') as (g' & W' & Gi & Vo & _).
  { now rewrite Ebs'. }
  { exact Hlen'. }
  { intros j Hj. apply skel_nth_eq. unfold ns'. rewrite nth_error_upd. destruct (Nat.eqb_spec lb j) as [<-|]; [|reflexivity]. exfalso. apply Hj. rewrite Ebs'. apply in_or_app. now left. }
  { exact Ch'. }
  { exact Fc. }
  { rewrite Ebs'. split; [unfold con_params; cbn; lia|]. split; [reflexivity|]. split; [exact Odu|]. exists NDummy. split; [exact Ndu3|]. split; [reflexivity|cbn; lia]. }
  { exact Lens. }
  rewrite Ebs' in Vo.
  exists (set_nodes_db d3 ns'), nb, tn, g'. split; [reflexivity|].
  assert (Hsame : forall j, j <> lb -> nth_error ns' j = nth_error (d_nodes d3) j) by (intros j Hj; unfold ns'; rewrite nth_error_upd; destruct (Nat.eqb_spec lb j); [congruence|reflexivity]).
  assert (Mv : moved [lvar tare] bs d g (set_nodes_db d3 ns') g').
  { pose proof (moved_growd _ bs _ _ _ _ G13) as [m1 m2 m3 m4 m5]. constructor; cbn [set_nodes_db d_nodes].
    - rewrite Hlen'. exact m1.
    - intros j Hj Hn. rewrite Hsame by (intros ->; auto). auto.
    - intros a j Hj Hn. rewrite Vo; [auto|]. intros X. apply in_app_or in X as [X|[X|[]]]; [auto|]. lia.
    - intros j v l s H. apply m4. unfold ns', data in *. rewrite nth_error_upd in H. destruct (Nat.eqb_spec lb j) as [<-|]; [|auto]. rewrite Nlb in *. exact H.
    - rewrite Gi. exact m5. }
  assert (B' : built g' (set_nodes_db d3 ns')) by (eapply built_upd; eauto; discriminate).
  assert (Cmx : forall c, cmax ns' c = cmax (d_nodes d3) c).
  { intros c. unfold cmax. unfold ns'. rewrite nth_error_upd. destruct (Nat.eqb_spec lb (nc_id c)) as [<-|]; [|reflexivity]. rewrite Nlb. reflexivity. }
  split; [|split; [|split; [exact Mv|split; [exact Hnb|split]]]].
  - fold bc'. constructor; cbn [set_nodes_db d_nodes]; auto.
    + split; [reflexivity|]. split; [auto|]. split; [exists du; split; [exact Hdu2|exact Ch']|].
      eapply Forall_impl; [|exact Fc]. intros x (U & O). split; [|exact O]. destruct U as ((S & Mu & m & Em & X) & M' & m' & Em' & U').
      assert (nc_id (snd x) <> lb) by (intros X'; apply O; rewrite Ebs', X'; apply in_or_app; now left).
      split; [split; [auto|]; split; [auto|]; exists m; split; [now rewrite Hsame|auto]|]. split; [auto|]. exists m'. split; [now rewrite Hsame|auto].
    + rewrite Ebs'. intros id m l r Hm Cm Hid. unfold ns' in Hm. rewrite nth_error_upd in Hm. destruct (Nat.eqb_spec lb id) as [<-|]; [exfalso; apply Hid; apply in_or_app; now left|]. eapply NR3; eauto.
    + rewrite Ebs'. intros id m l r Hm Cm Hid. unfold ns' in Hm. rewrite nth_error_upd in Hm. destruct (Nat.eqb_spec lb id) as [<-|]; [exfalso; apply Hid; apply in_or_app; left; apply in_or_app; now left|]. eapply NR31; eauto.
    + intros b Hb. destruct (LI b Hb) as (m & x & Hm & Cm). exists m, x. split; [|auto]. rewrite Hsame by (intros ->; exact (HB1 _ Hb Hlb)). rewrite Enew3, nth_error_app1; [auto|eapply nth_error_lt; eauto].
    + apply Forall_app. split; [exact LO|]. constructor; [|constructor]. cbn [snd]. unfold outside. cbn [con_full nc_id]. intros X. apply S3, in_or_app. now right.
  - rewrite Gi. assert (Q3 : qinv GF GU (gin g3) nocap ow (mkTst (d_nodes d3) next [])).
    { eapply qinv_growd; [exact (proj1 LB)|exact I|exact B3|exact G13|]. intros v [<-|[]]. auto. }
    assert (Q4 : qinv GF GU (gin g3) (capat lb 0) ow (mkTst ns' next [])).
    { unfold ns'. eapply qinv_patch; [exact Q3|exact Nlb|exact Ndu3|reflexivity|unfold capat; now rewrite Nat.eqb_refl|]. intros j Hj. unfold capat, nocap. destruct (Nat.eqb_spec j lb); [contradiction|reflexivity]. }
    eapply qinv_cap; [exact Q4|]. cbn [t_nodes]. intros id ls l r lr rv Hn El Hrv _ c Hc. unfold capat in Hc. destruct (Nat.eqb_spec id lb) as [->|]; [|discriminate]. injection Hc as <-.
    cbn [t_nodes set_nodes_db d_nodes] in Hn, El; unfold ns' in Hn. rewrite nth_error_upd, Nat.eqb_refl, Nlb in Hn. injection Hn as <- <- <-. rewrite CL, Chalf in El. injection El as <-. exact Hrv.
  - intros a. unfold cval. rewrite Vo by exact Otn. change (nc_map (con_full tn) (gV g3 a (nc_id (con_full tn)))) with (cval g3 a (con_full tn)).
    rewrite (cval_growd _ _ _ _ _ _ _ G3); [apply V2|]. cbn [con_full nc_id]. eapply nth_error_lt; eauto.
  - cbn [set_nodes_db d_nodes]. rewrite Cmx. unfold cmax. cbn [con_full nc_id d3 d_nodes]. rewrite nth_error_app1 by (eapply nth_error_lt; eauto). rewrite N2. reflexivity.
Qed.

Lemma links_ok ts : forall g d bc, linked B1 g d bc -> bc <> [] -> QD g d -> (forall t, In t ts -> (lvar t < next)%N /\ ow (lvar t) = None) -> (forall x, In x B1 -> ~ In x (map fst bc)) ->
  exists d' ex g', foldM link_tare ts (d, map fst bc) = Some (d', map fst (bc ++ ex)) /\ linked B1 g' d' (bc ++ ex) /\ QD g' d' /\
    moved (map lvar ts) (map fst bc) d g d' g' /\ Forall (fun x => (length (d_nodes d) <= fst x)%nat) ex /\
    Forall2 (fun t x => (forall a, cval g' a (snd x) = if lit_true a t then 1%nat else 0%nat) /\ cmax (d_nodes d') (snd x) = 1%nat) ts ex.
Proof.
  induction ts as [|t ts IH]; intros g d bc L Hne I Ht HB; cbn [foldM].
  - exists d, [], g. rewrite app_nil_r. split; [auto|]. split; [auto|]. split; [auto|]. split; [|split; constructor]. apply (moved_growd []). apply growd_refl.
  - destruct (Ht t (or_introl eq_refl)) as (T1 & T2). destruct (link_ok g d bc t L Hne I T1 T2 HB) as (d1 & nb & tn & g1 & E1 & L1 & I1 & M1 & Hnb & V1 & X1).
    rewrite E1. cbn [obind]. replace (map fst bc ++ [nb]) with (map fst (bc ++ [(nb, con_full tn)])) by (rewrite map_app; reflexivity).
    assert (IBx : forall x, In x B1 -> (x < length (d_nodes d))%nat) by (intros x Hx; exact (inner_lt _ _ _ (lk_inner _ _ _ _ L) Hx)).
    destruct (IH g1 d1 (bc ++ [(nb, con_full tn)]) L1) as (d2 & ex & g2 & E2 & L2 & I2 & M2 & F2 & V2); [destruct bc; discriminate|auto|intros; apply Ht; now right| |].
    { intros x Hx X. rewrite map_app in X. apply in_app_or in X as [X|[X|[]]]; [exact (HB x Hx X)|]. cbn [fst] in X. specialize (IBx x Hx). lia. }
    exists d2, ((nb, con_full tn) :: ex), g2. rewrite <- app_assoc in E2, L2. cbn [app] in *. split; [exact E2|]. split; [exact L2|]. split; [exact I2|].
    split. { apply (moved_trans [lvar t] _ _ (map fst (bc ++ [(nb, con_full tn)])) _ _ d1 g1); [|exact M1|exact M2]. intros x Hx. rewrite map_app in Hx. apply in_app_or in Hx as [Hx|[<-|[]]]; [auto|right; exact Hnb]. }
    pose proof (mv_len _ _ _ _ _ _ M1) as Ln. split; [constructor; [exact Hnb|]; eapply Forall_impl; [|exact F2]; intros x Hx; cbn beta in Hx |- *; lia|]. constructor; [|exact V2]. cbn [snd].
    destruct (lk_chain _ _ _ _ L1) as (_ & _ & _ & Fx). apply Forall_app in Fx as (_ & Fx). apply Forall_inv in Fx as (Ux & Ox). cbn [snd] in Ux, Ox.
    destruct (ucon_moved _ _ _ _ _ _ _ M2 Ux Ox) as (_ & A1 & A2). split; [intros a; rewrite A1; auto|congruence].
Qed.
End Link.
