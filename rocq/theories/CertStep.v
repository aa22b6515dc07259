(** * The clauses of one output are derived as the encoder claims *)

From Coq Require Import List Bool NArith ZArith Lia Arith.
From Coq Require Import ZifyBool ZifyNat ZifyN.
From Verif Require Import Spec Types Constraints Atomics NodeDb TotDb Base TotDbInv TotDbUnit TreeSpec CertSpec CertBase CertSound Cert CertDefs CertSem.
Import ListNotations.
Open Scope nat_scope.

Lemma zwsum_cons' a l w ts : zwsum a ((l, w) :: ts) = (w * lv a l + zwsum a ts)%Z.
Proof. cbn [zwsum]. unfold lv. destruct (lit_true a l); lia. Qed.

Lemma map_fst_scaled {A B} (w : B) (X : list A) : map fst (map (fun x => (x, w)) X) = X.
Proof. rewrite map_map. cbn [fst]. apply map_id. Qed.

Lemma plain_rev con v : plain_con con -> nc_mult con = 1 -> nc_rev_map con v = v.
Proof. intros (A & B & C) M. unfold nc_rev_map. rewrite A, B, C, M. cbn. rewrite Nat.div_1_r. lia. Qed.
Lemma plain_rev_nl con v : plain_con con -> nc_mult con = 1 -> nc_rev_map_no_limit con v = v.
Proof. intros (A & B & C) M. unfold nc_rev_map_no_limit. rewrite A, B, M, Nat.div_1_r. lia. Qed.
Lemma plain_idx con v : plain_con con -> nc_mult con = 1 -> con_idx v con = v.
Proof. intros P M. unfold con_idx. rewrite plain_rev by auto. lia. Qed.

Lemma slice_olit ns id sl v l : lit_slice ns id = Some sl -> slice_lit sl (v - 1) = Some l -> 1 <= v -> olit ns id v = Some l.
Proof.
  unfold lit_slice, slice_lit, olit. destruct (nth_error ns id) as [n|]; [|discriminate]. cbn [obind].
  destruct n as [x|lits lc rc|?|]; try discriminate; intros [= <-] H Hv; cbn [node_lit].
  - destruct (v - 1) as [|m] eqn:E.
    + cbn [nth_error obind ld_lit] in H. replace v with 1 by lia. exact H.
    + destruct m; discriminate.
  - replace (v =? 0) with false by lia. exact H.
Qed.

Section Node.
Variables (ns : list node) (next : N) (id : nat) (lits : list litdata) (lcon rcon : nodecon) (ls rs : list lit).
Hypothesis HN : names ns next.
Hypothesis Hnode : nth_error ns id = Some (NUnit lits lcon rcon).
Hypotheses (HPl : plain_con lcon) (HPr : plain_con rcon) (HMl : nc_mult lcon = 1) (HMr : nc_mult rcon = 1).
Hypotheses (HUl : utree ns (nc_id lcon) ls) (HUr : utree ns (nc_id rcon) rs).
Hypothesis Hlen : length lits = length ls + length rs.
Hypothesis HNC : no_compl (ls ++ rs).

Let HU : utree ns id (ls ++ rs).
Proof. eapply ut_unit; eauto. Qed.

(** literals of the children *)
Definition clit (x : lit) : Prop := In x (ls ++ rs) \/ exists cid v s, cid <> id /\ data ns cid v = Some (LLit x s).

Lemma child_ne : nc_id lcon <> id /\ nc_id rcon <> id.
Proof.
  pose proof (utree_pos _ _ _ HUl). pose proof (utree_pos _ _ _ HUr).
  split; intros E; [pose proof HUl as X|pose proof HUr as X]; rewrite E in X; apply (utree_fun _ _ _ HU) in X;
    apply (f_equal (@length _)) in X; rewrite app_length in X; lia.
Qed.

Lemma clit_nc X : (forall x, In x X -> clit x) -> no_compl X.
Proof.
  intros H x y Hx Hy E. destruct (H _ Hx) as [Ix|(c & v & s & _ & Dx)], (H _ Hy) as [Iy|(c' & v' & s' & _ & Dy)].
  - exact (HNC x y Ix Iy E).
  - destruct (utree_leaf_in _ _ _ HU _ Ix) as (j & Hj). apply (proj2 (nm_leaf _ _ HN _ _ Hj) _ _ _ _ Dy). now rewrite E.
  - destruct (utree_leaf_in _ _ _ HU _ Iy) as (j & Hj). apply (proj2 (nm_leaf _ _ HN _ _ Hj) _ _ _ _ Dx). now rewrite E.
  - apply (nm_out _ _ HN) in Dx as (Dx & _). apply (nm_out _ _ HN) in Dy as (Dy & _). rewrite E in Dy. cbn [neg lneg] in Dy. rewrite Dx in Dy. discriminate.
Qed.

Lemma clit_below x : clit x -> (lvar x < next)%N.
Proof.
  intros [I|(c & v & s & _ & D)].
  - destruct (utree_leaf_in _ _ _ HU _ I) as (j & Hj). apply (nm_leaf _ _ HN _ _ Hj).
  - apply (nm_out _ _ HN _ _ _ _ D).
Qed.

(** an output of a child: its literal, and its definition's constraint *)
Lemma child_out cid cls v x : utree ns cid cls -> (forall l, In l cls -> In l (ls ++ rs)) -> cid <> id -> olit ns cid v = Some x ->
  clit x /\ (forall i w o' s, data ns i w = Some (LLit o' s) -> lvar o' = lvar x -> 2 <= length cls /\ i = cid /\ w = v).
Proof.
  intros U Hin Hne Hx. destruct (utree_node _ _ _ U) as (n & Hn & Hu & Hmv & _). destruct n as [l|lits' a b|?|]; cbn in Hu; try tauto.
  - unfold olit in Hx. rewrite Hn in Hx. cbn [obind node_lit] in Hx. destruct (v =? 1); [|discriminate]. injection Hx as <-.
    inversion U; subst; [|congruence]. assert (l0 = l) as -> by congruence. split; [left; apply Hin; now left|].
    intros i w o' s D E. exfalso. apply (proj2 (nm_leaf _ _ HN _ _ Hn) _ _ _ _ D E).
  - destruct (olit_unit _ _ _ _ _ _ _ Hn Hx) as (s & D). split; [right; eauto 6|]. intros i w o' s' D' E.
    destruct (nm_inj _ _ HN _ _ _ _ _ _ _ _ D' D E) as (-> & ->). split; [|auto].
    inversion U; subst; [congruence|]. rewrite app_length. pose proof (utree_pos _ _ _ H4). pose proof (utree_pos _ _ _ H5). lia.
Qed.

Lemma outT_in cid (cls : list lit) v x a : olit ns cid v = Some x -> 1 <= v <= length cls -> outT (olit ns cid v) (length cls) v a = lv a x.
Proof. intros E H. unfold outT. rewrite E. replace (v =? 0) with false by lia. replace (length cls <? v) with false by lia. reflexivity. Qed.

Section Out.
Variables (val : nat) (o : lit).
Hypothesis (Ho : olit ns id val = Some o).

Lemma out_data : exists s, data ns id val = Some (LLit o s).
Proof. exact (olit_unit _ _ _ _ _ _ _ Hnode Ho). Qed.

Lemma clit_out x : clit x -> lvar x <> lvar o.
Proof.
  destruct out_data as (s & D). intros [I|(c & v & s' & Hne & D')] E.
  - destruct (utree_leaf_in _ _ _ HU _ I) as (j & Hj). eapply (nm_leaf _ _ HN _ _ Hj); eauto.
  - destruct (nm_inj _ _ HN _ _ _ _ _ _ _ _ D D' (eq_sym E)). congruence.
Qed.

Lemma out_nc b X : (forall x, In x X -> clit x) -> lvar b = lvar o -> no_compl (b :: X) /\ no_compl (b :: map neg X).
Proof.
  intros H E. pose proof (clit_nc X H) as NC. split; apply no_compl_cons; auto.
  - intros l Hl El. apply (clit_out l (H _ Hl)). rewrite El, <- E. reflexivity.
  - intros l Hl El. apply in_map_iff in Hl as (x & <- & Hx). apply (clit_out x (H _ Hx)). rewrite <- E. apply (f_equal lvar) in El. exact El.
  - now apply no_compl_neg.
Qed.

End Out.

Lemma same_t k k' : c_t k' = c_t k -> t_nodes (c_t k) = ns -> t_next (c_t k) = next -> t_nodes (c_t k') = ns /\ t_next (c_t k') = next.
Proof. intros ->. auto. Qed.

(** the three definitions of a clause *)
Lemma three k p lv1 t1 rv1 t2 v t3 : CInv k p -> t_nodes (c_t k) = ns -> t_next (c_t k) = next ->
  sem_range t1 (length ls) lv1 -> has_out ns (nc_id lcon) (length ls) lv1 ->
  sem_range t2 (length rs) rv1 -> has_out ns (nc_id rcon) (length rs) rv1 ->
  sem_range t3 (length (ls ++ rs)) v -> has_out ns id (length (ls ++ rs)) v ->
  exists d1 k1 d2 k2 i k3 p3, define_semantics k (nc_id lcon) lv1 t1 (ones ls) = Some (d1, k1) /\
    define_semantics k1 (nc_id rcon) rv1 t2 (ones rs) = Some (d2, k2) /\
    define_semantics k2 id v t3 (ones (ls ++ rs)) = Some (DId i, k3) /\
    c_t k3 = c_t k /\ adv k p k3 p3 /\
    sem_ok p3 d1 (fdef t1 ns (nc_id lcon) lv1 ls) /\ sem_ok p3 d2 (fdef t2 ns (nc_id rcon) rv1 rs) /\
    con_is p3 i (fdef t3 ns id v (ls ++ rs)) /\
    (2 <= length ls -> defs_get (c_defs k3) (nc_id lcon) lv1 <> None) /\
    (2 <= length rs -> defs_get (c_defs k3) (nc_id rcon) rv1 <> None) /\
    defs_get (c_defs k3) id v <> None.
Proof.
  intros C En Ex R1 O1 R2 O2 R3 O3. assert (NCl : no_compl ls) by (eapply no_compl_sub; [|exact HNC]; intros; apply in_or_app; auto).
  assert (NCr : no_compl rs) by (eapply no_compl_sub; [|exact HNC]; intros; apply in_or_app; auto).
  assert (L2 : 2 <= length (ls ++ rs)) by (rewrite app_length; pose proof (utree_pos _ _ _ HUl); pose proof (utree_pos _ _ _ HUr); lia).
  destruct (define_semantics_ok k p (nc_id lcon) lv1 t1 ls C) as (d1 & k1 & p1 & E1 & T1 & I1 & A1 & S1 & D1); try (rewrite ?En, ?Ex; assumption).
  destruct (same_t _ _ T1 En Ex) as (En1 & Ex1).
  destruct (define_semantics_ok k1 p1 (nc_id rcon) rv1 t2 rs (ad_inv _ _ _ _ A1)) as (d2 & k2 & p2 & E2 & T2 & I2 & A2 & S2 & D2); try (rewrite ?En1, ?Ex1; assumption).
  destruct (same_t _ _ T2 En1 Ex1) as (En2 & Ex2).
  destruct (define_semantics_ok k2 p2 id v t3 (ls ++ rs) (ad_inv _ _ _ _ A2)) as (d3 & k3 & p3 & E3 & T3 & I3 & A3 & S3 & D3); try (rewrite ?En2, ?Ex2; assumption).
  destruct (D3 L2) as (D3' & i & ->). rewrite En in S1. rewrite En1 in S2. rewrite En2 in S3.
  assert (Mono : forall kk kk', defs_le (c_defs kk) (c_defs kk') -> forall i v, defs_get (c_defs kk) i v <> None -> defs_get (c_defs kk') i v <> None).
  { intros kk kk' H i' v' Hd. destruct (defs_get (c_defs kk) i' v') as [d|] eqn:E; [|congruence]. rewrite (H _ _ _ E). discriminate. }
  exists d1, k1, d2, k2, i, k3, p3. split; [exact E1|]. split; [exact E2|]. split; [exact E3|]. split; [congruence|].
  assert (Q : forall kk kk', c_t kk' = c_t kk -> keeps_out (t_nodes (c_t kk)) (t_nodes (c_t kk'))) by (intros kk kk' -> w Hw; exact Hw).
  split; [|split; [|split; [|split; [|split; [|split]]]]].
  - eapply adv_trans; [|eapply adv_trans; [|exact A1|exact A2]|exact A3]; apply Q; auto.
  - eapply sem_ok_grows; [eapply grows_trans; [apply A2|apply A3]|exact S1].
  - eapply sem_ok_grows; [apply A3|exact S2].
  - exact S3.
  - intros H. eapply Mono; [apply A3|]. eapply Mono; [apply A2|]. apply D1, H.
  - intros H. eapply Mono; [apply A3|]. apply D2, H.
  - exact D3'.
Qed.

Section If.
Variables (pre : upre) (idx : nat) (o : lit) (llits rlits : list litdata).
Hypotheses (Pl : u_lcon pre = lcon) (Pr : u_rcon pre = rcon) (Hidx : idx < length lits) (Ho : olit ns id (idx + 1) = Some o).
Hypotheses (Sl : lit_slice ns (nc_id lcon) = Some llits) (Sr : lit_slice ns (nc_id rcon) = Some rlits).

Lemma n_eq : length (ls ++ rs) = length lits.
Proof. rewrite app_length. lia. Qed.

(** literal of a child, if its value is not trivial *)
Definition part (cid cn v : nat) (X : list lit) : Prop :=
  (v = 0 /\ X = []) \/ (cn < v /\ X = []) \/ (1 <= v <= cn /\ exists x, X = [x] /\ olit ns cid v = Some x).

Lemma part_lit con slots (cls : list lit) v : plain_con con -> nc_mult con = 1 -> lit_slice ns (nc_id con) = Some slots -> v <= length cls -> forall X,
  (if 0 <? v then do l <- slice_lit slots (con_idx (v - 1) con); Some [l] else Some []) = Some X -> part (nc_id con) (length cls) v X.
Proof.
  intros P M S Hv X. destruct (Nat.ltb_spec 0 v) as [H|H].
  - rewrite plain_idx by auto. destruct (slice_lit slots (v - 1)) as [l|] eqn:E; [|discriminate]. cbn [obind]. intros [= <-]. right; right. split; [lia|].
    exists l. split; [auto|]. eapply slice_olit; eauto.
  - intros [= <-]. left. split; [lia|auto].
Qed.

Lemma part_lit_oif con slots (cls : list lit) v n : plain_con con -> nc_mult con = 1 -> lit_slice ns (nc_id con) = Some slots -> n = length cls -> forall X,
  (if v <? n then do l <- slice_lit slots (con_idx v con); Some [neg l] else Some []) = Some X ->
  exists X', X = map neg X' /\ part (nc_id con) (length cls) (v + 1) X'.
Proof.
  intros P M S -> X. destruct (Nat.ltb_spec v (length cls)) as [H|H].
  - rewrite plain_idx by auto. destruct (slice_lit slots v) as [l|] eqn:E; [|discriminate]. cbn [obind]. intros [= <-]. exists [l]. split; [reflexivity|].
    right; right. split; [lia|]. exists l. split; [auto|]. eapply slice_olit; [exact S|replace (v + 1 - 1) with v by lia; exact E|lia].
  - intros [= <-]. exists []. split; [reflexivity|]. right; left. split; [lia|auto].
Qed.

Lemma part_facts cid cls v X : part cid (length cls) v X -> utree ns cid cls -> (forall l, In l cls -> In l (ls ++ rs)) -> cid <> id ->
  has_out ns cid (length cls) v /\ (forall x, In x X -> clit x) /\
  (forall x i w o' s, In x X -> data ns i w = Some (LLit o' s) -> lvar o' = lvar x -> 2 <= length cls /\ i = cid /\ w = v) /\
  (forall a, v <= length cls -> (Z.of_nat v * outT (olit ns cid v) (length cls) v a = Z.of_nat v * cnt a X)%Z) /\
  (forall a, 1 <= v <= length cls + 1 -> ((len cls - Z.of_nat v + 1) * (1 - outT (olit ns cid v) (length cls) v a) = (len cls - Z.of_nat v + 1) * (len X - cnt a X))%Z).
Proof.
  intros P U Hin Hne. destruct P as [(-> & ->)|[(Hv & ->)|(Hv & x & -> & Hx)]].
  - split; [intros H; lia|]. split; [intros x []|]. split; [intros x ? ? ? ? []|]. split; [intros; lia|]. intros; lia.
  - split; [intros H; lia|]. split; [intros x []|]. split; [intros x ? ? ? ? []|]. split; [intros; lia|]. intros a Hv'. unfold len. replace (Z.of_nat (length cls) - Z.of_nat v + 1)%Z with 0%Z by lia. lia.
  - destruct (child_out cid cls v x U Hin Hne Hx) as (Hc & Hd). split; [intros _; eauto|]. split; [intros y [<-|[]]; auto|].
    split; [intros y i w o' s [<-|[]]; eauto|]. split; intros a Ha; rewrite (outT_in _ _ _ _ a Hx Hv), cnt_cons; change (cnt a []) with 0%Z; change (len [x]) with 1%Z; lia.
Qed.

Lemma zwsum_scaled a w X : (0 <= w)%Z -> zwsum a (map (fun x => (x, w)) X) = (w * cnt a X)%Z.
Proof. intros H. induction X as [|x X IH]; [cbn; lia|]. cbn [map]. rewrite zwsum_cons', IH, cnt_cons. lia. Qed.

Lemma part_pos cid cn v X w : part cid cn v X -> In w X -> 1 <= v <= cn.
Proof. intros [(-> & ->)|[(_ & ->)|(H & _)]]; try intros []; auto. Qed.

Lemma if_step_ok k p lval c : CInv k p -> t_nodes (c_t k) = ns -> t_next (c_t k) = next ->
  lval <= length ls -> lval <= idx + 1 -> idx + 1 - lval <= length rs -> if_clause pre idx o llits rlits lval = Some c ->
  exists k' p', if_step pre id idx o ls rs (ls ++ rs) k lval = Some k' /\ c_t k' = emit (c_t k) [c] /\ adv k p k' p' /\
    defs_get (c_defs k') id (idx + 1) <> None.
Proof.
  intros C En Ex H1 H2 H3 Hc. unfold if_step. rewrite Pl, Pr, En, Sl, Sr. cbn [obind]. rewrite Hc. cbn [obind].
  rewrite !plain_rev_nl by auto. unfold if_clause in Hc. rewrite Pl, Pr in Hc. set (rval := idx + 1 - lval) in *.
  destruct (if 0 <? lval then _ else _) as [X1|] eqn:E1; [|discriminate]. cbn [obind] in Hc.
  destruct (if 0 <? rval then _ else _) as [X2|] eqn:E2; [|discriminate]. cbn [obind] in Hc. injection Hc as <-.
  pose proof (part_lit lcon llits ls lval HPl HMl Sl H1 _ E1) as P1. pose proof (part_lit rcon rlits rs rval HPr HMr Sr H3 _ E2) as P2.
  destruct child_ne as (NEl & NEr).
  destruct (part_facts _ _ _ _ P1 HUl ltac:(intros; apply in_or_app; auto) NEl) as (O1 & K1 & D1 & F1 & _).
  destruct (part_facts _ _ _ _ P2 HUr ltac:(intros; apply in_or_app; auto) NEr) as (O2 & K2 & D2 & F2 & _).
  destruct (three k p lval TOnlyIf rval TOnlyIf (idx + 1) TIf C En Ex H1 O1 H3 O2) as (d1 & k1 & d2 & k2 & i & k3 & p3 & G1 & G2 & G3 & T3 & A & S1 & S2 & S3 & N1 & N2 & N3).
  { cbn [sem_range]. rewrite n_eq. lia. } { intros _. eauto. }
  rewrite G1. cbn [obind]. rewrite G2. cbn [obind]. rewrite G3. cbn [obind].
  assert (KX : forall x, In x (X1 ++ X2) -> clit x) by (intros x Hx; apply in_app_or in Hx as [Hx|Hx]; auto).
  pose proof n_eq as Hn.
  set (us := (o, (len (ls ++ rs) - Z.of_nat (idx + 1) + 1)%Z) :: map (fun x => (x, Z.of_nat lval)) (map neg X1) ++ map (fun x => (x, Z.of_nat rval)) (map neg X2)).
  destruct (derive_ok k3 p3 i d1 d2 _ _ _ (cube_impl_lit (X1 ++ X2) o) us (ad_inv _ _ _ _ A) S3 S1 S2) as (k' & p' & E & Et & Ed & A').
  - (* the first sum *)
    destruct (no_compl_model (neg o :: X1 ++ rs)) as (a & Ha).
    { apply (out_nc (idx + 1) o Ho (neg o)); [|reflexivity]. intros x Hx. apply in_app_or in Hx as [Hx|Hx]; [auto|]. left. apply in_or_app. auto. }
    exists a. cbn [fdef]. unfold fif, foif. rewrite F1 by auto. rewrite (outT_in _ (ls ++ rs) _ _ a Ho ltac:(lia)).
    assert (Lo : lv a o = 0%Z). { pose proof (Ha (neg o) (or_introl eq_refl)) as X. rewrite lit_true_neg' in X. unfold lv. destruct (lit_true a o); [discriminate|auto]. }
    rewrite Lo, cnt_app, len_app. rewrite (cnt_all a rs) by (intros; apply Ha; right; apply in_or_app; auto).
    assert (Q : (Z.of_nat lval * cnt a X1 = Z.of_nat lval)%Z).
    { destruct P1 as [(-> & ->)|[(Hv & ->)|(Hv & x & -> & _)]]; [lia|lia|]. rewrite (cnt_all a [x]) by (intros y [<-|[]]; apply Ha; right; left; auto). unfold len. cbn [length]. lia. }
    rewrite Q. unfold len. lia.
  - intros a. cbn [fdef]. unfold fif, foif. rewrite F1, F2 by auto. rewrite (outT_in _ (ls ++ rs) _ _ a Ho ltac:(lia)).
    subst us. rewrite zwsum_cons', zwsum_app, !zwsum_scaled by lia. rewrite !cnt_neg, cnt_app, len_app.
    assert (Q1 : (Z.of_nat lval * len X1 = Z.of_nat lval)%Z) by (destruct P1 as [(-> & ->)|[(Hv & ->)|(Hv & x & -> & _)]]; unfold len; cbn [length]; lia).
    assert (Q2 : (Z.of_nat rval * len X2 = Z.of_nat rval)%Z) by (destruct P2 as [(-> & ->)|[(Hv & ->)|(Hv & x & -> & _)]]; unfold len; cbn [length]; lia).
    rewrite !Z.mul_sub_distr_l, Q1, Q2. assert (Z.of_nat (idx + 1) = Z.of_nat lval + Z.of_nat rval)%Z as -> by (subst rval; lia). lia.
  - intros l w Hin. subst us. destruct Hin as [Hin|Hin].
    + injection Hin as _ <-. unfold len. rewrite Hn. lia.
    + apply in_app_or in Hin as [Hin|Hin]; apply in_map_iff in Hin as (x & [= <- <-] & Hx); apply in_map_iff in Hx as (y & _ & Hy); first [apply (part_pos _ _ _ _ _ P1) in Hy|apply (part_pos _ _ _ _ _ P2) in Hy]; lia.
  - subst us. cbn [map fst]. rewrite map_app, !map_fst_scaled. rewrite <- map_app. apply (out_nc (idx + 1) o Ho o); auto.
  - intros l. subst us. cbn [map fst]. rewrite map_app, !map_fst_scaled, <- map_app. unfold cube_impl_lit. rewrite in_app_iff. cbn [In]. tauto.
  - intros l Hl. rewrite T3, Ex. unfold cube_impl_lit in Hl. apply in_app_or in Hl as [Hl|[<-|[]]].
    + apply in_map_iff in Hl as (x & <- & Hx). rewrite lvar_neg'. apply clit_below, KX, Hx.
    + destruct (out_data _ _ Ho) as (s & D). apply (nm_out _ _ HN _ _ _ _ D).
  - intros l i' w o' s Hl D E. rewrite T3, En in D. unfold cube_impl_lit in Hl. apply in_app_or in Hl as [Hl|[<-|[]]].
    + apply in_map_iff in Hl as (x & <- & Hx). rewrite lvar_neg' in E. apply in_app_or in Hx as [Hx|Hx].
      * destruct (D1 _ _ _ _ _ Hx D E) as (L & -> & ->). auto.
      * destruct (D2 _ _ _ _ _ Hx D E) as (L & -> & ->). auto.
    + destruct (out_data _ _ Ho) as (s' & D'). destruct (nm_inj _ _ HN _ _ _ _ _ _ _ _ D D' E) as (-> & ->). auto.
  - rewrite E. exists k', p'. split; [reflexivity|]. split; [rewrite Et, T3; auto|]. split; [|rewrite Ed; auto].
    eapply adv_trans; [|exact A|exact A']. rewrite Et. intros v Hv. exact Hv.
Qed.

Lemma only_if_step_ok k p lval ll lr c : CInv k p -> t_nodes (c_t k) = ns -> t_next (c_t k) = next ->
  con_len ns lcon = Some ll -> con_len ns rcon = Some lr -> ll = length ls -> lr = length rs ->
  lval <= length ls -> lval <= idx -> idx - lval <= length rs -> only_if_clause pre idx o llits rlits ll lr lval = Some c ->
  exists k' p', only_if_step pre id idx o ls rs (ls ++ rs) k lval = Some k' /\ c_t k' = emit (c_t k) [c] /\ adv k p k' p' /\
    defs_get (c_defs k') id (idx + 1) <> None.
Proof.
  intros C En Ex Cl Cr Ell Elr H1 H2 H3 Hc. unfold only_if_step. rewrite Pl, Pr, En, Sl, Sr. cbn [obind]. rewrite Cl, Cr. cbn [obind]. rewrite Hc. cbn [obind].
  rewrite !plain_rev_nl by auto. unfold only_if_clause in Hc. rewrite Pl, Pr in Hc. set (rval := idx - lval) in *.
  destruct (if lval <? ll then _ else _) as [Y1|] eqn:E1; [|discriminate]. cbn [obind] in Hc.
  destruct (if rval <? lr then _ else _) as [Y2|] eqn:E2; [|discriminate]. cbn [obind] in Hc. injection Hc as <-.
  destruct (part_lit_oif lcon llits ls lval ll HPl HMl Sl Ell _ E1) as (X1 & -> & P1).
  destruct (part_lit_oif rcon rlits rs rval lr HPr HMr Sr Elr _ E2) as (X2 & -> & P2).
  destruct child_ne as (NEl & NEr).
  destruct (part_facts _ _ _ _ P1 HUl ltac:(intros; apply in_or_app; auto) NEl) as (O1 & K1 & D1 & _ & F1).
  destruct (part_facts _ _ _ _ P2 HUr ltac:(intros; apply in_or_app; auto) NEr) as (O2 & K2 & D2 & _ & F2).
  destruct (three k p (lval + 1) TIf (rval + 1) TIf (idx + 1) TOnlyIf C En Ex) as (d1 & k1 & d2 & k2 & i & k3 & p3 & G1 & G2 & G3 & T3 & A & S1 & S2 & S3 & N1 & N2 & N3).
  { cbn [sem_range]. lia. } { auto. } { cbn [sem_range]. lia. } { auto. } { cbn [sem_range]. rewrite n_eq. lia. } { intros _. eauto. }
  rewrite G1. cbn [obind]. rewrite G2. cbn [obind]. rewrite G3. cbn [obind].
  assert (KX : forall x, In x (X1 ++ X2) -> clit x) by (intros x Hx; apply in_app_or in Hx as [Hx|Hx]; auto).
  pose proof n_eq as Hn. pose proof (app_length ls rs) as Hn2.
  assert (Q1 : ((len ls - Z.of_nat lval) * len X1 = len ls - Z.of_nat lval)%Z).
  { destruct P1 as [(? & ->)|[(Hv & ->)|(Hv & x & -> & _)]]; [lia| |]; unfold len; cbn [length]; [replace (length ls) with lval by lia; lia|lia]. }
  assert (Q2 : ((len rs - Z.of_nat rval) * len X2 = len rs - Z.of_nat rval)%Z).
  { destruct P2 as [(? & ->)|[(Hv & ->)|(Hv & x & -> & _)]]; [lia| |]; unfold len; cbn [length]; [replace (length rs) with rval by lia; lia|lia]. }
  assert (F1' : forall a, ((len ls - Z.of_nat lval) * (1 - outT (olit ns (nc_id lcon) (lval + 1)) (length ls) (lval + 1) a) = (len ls - Z.of_nat lval) - (len ls - Z.of_nat lval) * cnt a X1)%Z).
  { intros a. specialize (F1 a ltac:(lia)). replace (len ls - Z.of_nat (lval + 1) + 1)%Z with (len ls - Z.of_nat lval)%Z in F1 by lia. rewrite F1, Z.mul_sub_distr_l, Q1. reflexivity. }
  assert (F2' : forall a, ((len rs - Z.of_nat rval) * (1 - outT (olit ns (nc_id rcon) (rval + 1)) (length rs) (rval + 1) a) = (len rs - Z.of_nat rval) - (len rs - Z.of_nat rval) * cnt a X2)%Z).
  { intros a. specialize (F2 a ltac:(lia)). replace (len rs - Z.of_nat (rval + 1) + 1)%Z with (len rs - Z.of_nat rval)%Z in F2 by lia. rewrite F2, Z.mul_sub_distr_l, Q2. reflexivity. }
  set (us := (neg o, Z.of_nat (idx + 1)) :: map (fun x => (x, (len ls - Z.of_nat lval)%Z)) X1 ++ map (fun x => (x, (len rs - Z.of_nat rval)%Z)) X2).
  assert (FI : forall a, (fif ns (nc_id lcon) (lval + 1) ls a = len ls - cnt a ls - (len ls - Z.of_nat lval) + (len ls - Z.of_nat lval) * cnt a X1)%Z).
  { intros a. unfold fif. replace (len ls - Z.of_nat (lval + 1) + 1)%Z with (len ls - Z.of_nat lval)%Z by lia. rewrite F1'. lia. }
  assert (FJ : forall a, (fif ns (nc_id rcon) (rval + 1) rs a = len rs - cnt a rs - (len rs - Z.of_nat rval) + (len rs - Z.of_nat rval) * cnt a X2)%Z).
  { intros a. unfold fif. replace (len rs - Z.of_nat (rval + 1) + 1)%Z with (len rs - Z.of_nat rval)%Z by lia. rewrite F2'. lia. }
  destruct (derive_ok k3 p3 i d1 d2 _ _ _ (cube_impl_lit (map neg X1 ++ map neg X2) (neg o)) us (ad_inv _ _ _ _ A) S3 S1 S2) as (k' & p' & E & Et & Ed & A').
  - destruct (no_compl_model (o :: map neg (X1 ++ rs))) as (a & Ha).
    { apply (out_nc (idx + 1) o Ho o); [|reflexivity]. intros x Hx. apply in_app_or in Hx as [Hx|Hx]; [auto|]. left. apply in_or_app. auto. }
    exists a. cbn [fdef]. rewrite FI. unfold foif. rewrite (outT_in _ (ls ++ rs) _ _ a Ho ltac:(lia)).
    assert (Lo : lv a o = 1%Z) by (unfold lv; rewrite (Ha o (or_introl eq_refl)); reflexivity).
    assert (Hf : forall x, In x (X1 ++ rs) -> lit_true a x = false).
    { intros x Hx. pose proof (Ha (neg x) (or_intror (in_map neg _ _ Hx))) as X. rewrite lit_true_neg' in X. now destruct (lit_true a x). }
    rewrite Lo, cnt_app. rewrite (cnt_none a rs), (cnt_none a X1) by (intros; apply Hf, in_or_app; auto). unfold len. lia.
  - intros a. cbn [fdef]. rewrite FI, FJ. unfold foif. rewrite (outT_in _ (ls ++ rs) _ _ a Ho ltac:(lia)).
    subst us. rewrite zwsum_cons', zwsum_app, !zwsum_scaled by (unfold len; lia). rewrite lv_neg, cnt_app.
    assert (Z.of_nat (idx + 1) = Z.of_nat lval + Z.of_nat rval + 1)%Z as -> by (subst rval; lia). lia.
  - intros l w Hin. subst us. destruct Hin as [Hin|Hin].
    + injection Hin as _ <-. lia.
    + apply in_app_or in Hin as [Hin|Hin]; apply in_map_iff in Hin as (x & [= <- <-] & Hx); first [apply (part_pos _ _ _ _ _ P1) in Hx|apply (part_pos _ _ _ _ _ P2) in Hx]; unfold len; lia.
  - subst us. cbn [map fst]. rewrite map_app, !map_fst_scaled. apply (out_nc (idx + 1) o Ho (neg o)); auto.
  - intros l. subst us. cbn [map fst]. rewrite map_app, !map_fst_scaled. unfold cube_impl_lit.
    rewrite map_app, !map_map. rewrite !(map_ext (fun x => neg (neg x)) (fun x => x)) by apply neg_neg. rewrite !map_id, !in_app_iff. cbn [In]. rewrite in_app_iff. tauto.
  - intros l Hl. rewrite T3, Ex. unfold cube_impl_lit in Hl. rewrite <- map_app in Hl. apply in_app_or in Hl as [Hl|[<-|[]]].
    + apply in_map_iff in Hl as (x & <- & Hx). apply in_map_iff in Hx as (y & <- & Hy). rewrite !lvar_neg'. apply clit_below, KX, Hy.
    + rewrite lvar_neg'. destruct (out_data _ _ Ho) as (s & D). apply (nm_out _ _ HN _ _ _ _ D).
  - intros l i' w o' s Hl D E. rewrite T3, En in D. unfold cube_impl_lit in Hl. rewrite <- map_app in Hl. apply in_app_or in Hl as [Hl|[<-|[]]].
    + apply in_map_iff in Hl as (x & <- & Hx). apply in_map_iff in Hx as (y & <- & Hy). rewrite !lvar_neg' in E. apply in_app_or in Hy as [Hx|Hx].
      * destruct (D1 _ _ _ _ _ Hx D E) as (L & -> & ->). auto.
      * destruct (D2 _ _ _ _ _ Hx D E) as (L & -> & ->). auto.
    + rewrite lvar_neg' in E. destruct (out_data _ _ Ho) as (s' & D'). destruct (nm_inj _ _ HN _ _ _ _ _ _ _ _ D D' E) as (-> & ->). auto.
  - rewrite E. exists k', p'. split; [reflexivity|]. split; [rewrite Et, T3; auto|]. split; [|rewrite Ed; auto].
    eapply adv_trans; [|exact A|exact A']. rewrite Et. intros v Hv. exact Hv.
Qed.
End If.
End Node.
