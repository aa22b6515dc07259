(** * The clauses of an output of a weighted node are derived as the encoder claims *)

From Coq Require Import List Bool NArith ZArith Lia Arith.
From Coq Require Import ZifyBool ZifyNat ZifyN.
From Verif Require Import Spec BoundSpec Types Constraints Maps Atomics NodeDb TreeSpec TotDb Totalizer Gte Base TotDbInv TotDbUnit.
From Verif Require Import CertSpec CertBase CertSound Cert CertW CertDefs CertSem CertStep CertProofs CertTot CertWTree.
Import ListNotations.
Open Scope nat_scope.

(** ** Multiplied definitions *)

Definition pushes (p : pstate) (ops : opseq) (f : asg -> Z) : Prop := (ops = [] /\ forall a, f a = 0%Z) \/ computes p ops f.

Lemma seq_mul_pushes p d f m : ps_ok p -> sem_ok p d f -> 1 <= m -> pushes p (seq_mul (def_seq d) m) (fun a => Z.of_nat m * f a)%Z.
Proof.
  intros Hp H Hm. destruct (operand p d f Hp H) as [(E & Z0)|(op & c & E & R & W & D & S)]; rewrite E.
  - left. split; [destruct m as [|[|m]]; reflexivity|]. intros a. rewrite Z0. lia.
  - right. destruct (Nat.eq_dec m 1) as [->|Hne].
    + exists c. split; [discriminate|]. split; [intros st; cbn [seq_mul rpn_run]; now rewrite R|]. split; [auto|]. split; [auto|]. intros a. rewrite S. lia.
    + exists (cp_mul (Z.of_nat m) c). assert (Es : seq_mul [op] m = [op; OMul m]) by (destruct m as [|[|m]]; [lia|lia|reflexivity]). rewrite Es.
      assert (D' : (0 <= snd (cp_mul (Z.of_nat m) c))%Z) by (cbn [cp_mul snd]; nia).
      split; [discriminate|]. split; [|split; [apply cp_mul_wf; [lia|auto]|split; [exact D'|]]].
      * intros st. cbn [rpn_run]. rewrite R. cbn [rpn_step]. replace (m =? 0) with false by lia. unfold push. now replace (0 <=? snd (cp_mul (Z.of_nat m) c))%Z with true by lia.
      * intros a. rewrite cp_mul_slack, S. reflexivity.
Qed.

Lemma seq_add_nil ops : seq_add ops [] = ops.
Proof. destruct ops; reflexivity. Qed.
Lemma seq_add_cons o ops o2 ops2 : seq_add (o :: ops) (o2 :: ops2) = (o :: ops) ++ (o2 :: ops2) ++ [OAdd].
Proof. reflexivity. Qed.

Lemma computes_add' p ops f ops2 f2 : computes p ops f -> pushes p ops2 f2 -> (exists a, (f a + f2 a <= 0)%Z) ->
  computes p (seq_add ops ops2) (fun a => f a + f2 a)%Z.
Proof.
  intros (c & Hne & R & W & D & S) [(-> & Z0)|(c2 & Hne2 & R2 & W2 & D2 & S2)] (a0 & Ha).
  - rewrite seq_add_nil. exists c. split; [auto|]. split; [auto|]. split; [auto|]. split; [auto|]. intros a. rewrite S, Z0. lia.
  - destruct ops as [|o ops]; [congruence|]. destruct ops2 as [|o2 ops2]; [congruence|]. rewrite seq_add_cons. exists (cp_add c c2). split; [discriminate|].
    assert (S' : forall a, slack (cp_add c c2) a = (f a + f2 a)%Z) by (intros a; rewrite cp_add_slack, S, S2; auto).
    assert (D' : (0 <= snd (cp_add c c2))%Z) by (eapply deg_nonneg with (a := a0); [now apply cp_add_wf|rewrite S'; auto]).
    split; [|split; [now apply cp_add_wf|split; auto]]. intros st.
    rewrite rpn_run_app, R, rpn_run_app, R2. cbn [rpn_run rpn_step]. unfold push.
    now replace (0 <=? snd (cp_add c c2))%Z with true by lia.
Qed.

Lemma wderive_ok k p i ops2 ops3 f1 f2 f3 cl us : CInv k p -> con_is p i f1 -> pushes p ops2 f2 -> pushes p ops3 f3 ->
  (exists a, (f1 a + f2 a <= 0)%Z) -> (forall a, f1 a + f2 a + f3 a = zwsum a us - 1)%Z ->
  (forall l w, In (l, w) us -> (0 < w)%Z) -> no_compl (map fst us) -> (forall l, In l cl <-> In l (map fst us)) ->
  (forall l, In l cl -> (lvar l < t_next (c_t k))%N) ->
  (forall l id val o s, In l cl -> data (t_nodes (c_t k)) id val = Some (LLit o s) -> lvar o = lvar l -> defs_get (c_defs k) id val <> None) ->
  exists j k4 p', write_ops k (seq_sat (seq_add (seq_add [OId i] ops2) ops3)) = Some (j, k4) /\
    c_t (collect k4 cl j) = emit (c_t k) [cl] /\ c_defs (collect k4 cl j) = c_defs k /\ adv k p (collect k4 cl j) p'.
Proof.
  intros C H1 H2 H3 Ha Hf Hpos NC Hset Hb Hd. pose proof (ci_ok _ _ C) as Hp.
  assert (K1 : computes p [OId i] f1).
  { destruct (operand p (DId i) f1 Hp H1) as [(E & _)|(op & c & E & R & W & D & S)]; [discriminate|]. cbn [def_seq] in E. injection E as <-.
    exists c. split; [discriminate|]. split; [intros st; cbn [rpn_run]; now rewrite R|auto]. }
  pose proof (computes_add' _ _ _ _ _ K1 H2 Ha) as K2.
  assert (Hneg : exists a, (f1 a + f2 a + f3 a <= 0)%Z).
  { destruct (no_compl_model _ (no_compl_neg _ NC)) as (a & HA). exists a. rewrite Hf.
    assert (E : zwsum a us = 0%Z); [|lia]. clear - HA. induction us as [|[l w] us IH]; [reflexivity|]. cbn [zwsum].
    rewrite IH by (intros x Hx; apply HA; now right). pose proof (HA (neg l) (or_introl eq_refl)) as X. rewrite lit_true_neg' in X.
    destruct (lit_true a l); [discriminate|reflexivity]. }
  pose proof (computes_add' _ _ _ _ _ K2 H3 Hneg) as K3.
  destruct (pol_clause p _ _ us cl K3 Hf Hpos NC Hset) as (P & Hne).
  unfold write_ops. destruct (seq_sat _) as [|op ops] eqn:Eops; [congruence|]. cbn [write].
  eexists _, _, (ps_add p (clause_con cl)). split; [reflexivity|]. cbn [collect c_t c_defs c_ids]. split; [reflexivity|]. split; [reflexivity|].
  destruct (clause_con_wf cl) as (Wc & Dc). constructor.
  - exists [SPol (op :: ops)]. cbn [c_log]. split; [auto|]. split; [|intros v []]. econstructor; [constructor; exact P|constructor].
  - now apply grows_add.
  - intros ? ? ? X. exact X.
  - pose (k0 := mkC (c_t k) (c_ids k) (c_defs k) (S (c_pid k)) (c_log k ++ [SPol (op :: ops)])).
    assert (C0 : CInv k0 (ps_add p (clause_con cl))).
    { eapply cinv_add with (k := k); eauto.
      - intros v Hm. apply clause_con_mentions in Hm as (l & Hl & <-). auto.
      - intros v id val o s Hm Ho E. apply clause_con_mentions in Hm as (l & Hl & <-). eauto. }
    destruct C0 as [X1 X2 X3 X4 X5 X6]. constructor; auto. cbn [c_t c_ids emit t_cls]. apply Forall2_app; [exact X6|]. constructor; [|constructor].
    rewrite (ci_pid _ _ C), ps_get_add, Nat.eqb_refl. reflexivity.
Qed.

Lemma wzwsum_scaled a w X : zwsum a (map (fun x => (x, w)) X) = (w * cnt a X)%Z.
Proof. induction X as [|x X IH]; [cbn; lia|]. cbn [map]. rewrite zwsum_cons', IH, cnt_cons. lia. Qed.

Section Node.
Variables (ns : list node) (next : N) (id : nat) (lits : list (nat * litdata)) (m : nat) (lcon rcon : nodecon) (xs ys : wts).
Hypothesis HN : names ns next.
Hypothesis Hnode : nth_error ns id = Some (NGeneral lits m lcon rcon).
Hypothesis HG : gtree ns id (scale (nc_mult lcon) xs ++ scale (nc_mult rcon) ys).
Hypotheses (HMl : 1 <= nc_mult lcon) (HMr : 1 <= nc_mult rcon).
Hypotheses (HUl : gtree ns (nc_id lcon) xs) (HUr : gtree ns (nc_id rcon) ys).
Hypothesis HNC : no_compl (map fst xs ++ map fst ys).

Let L : wts := scale (nc_mult lcon) xs ++ scale (nc_mult rcon) ys.
Lemma fstL : map fst L = map fst xs ++ map fst ys.
Proof. subst L. now rewrite map_app, !fst_scale. Qed.

(** literals of the children *)
Definition wclit (x : lit) : Prop := In x (map fst xs ++ map fst ys) \/ exists cid v s, cid <> id /\ data ns cid v = Some (LLit x s).

Lemma wchild_ne : nc_id lcon <> id /\ nc_id rcon <> id.
Proof.
  pose proof (gtree_len _ _ _ HUl). pose proof (gtree_len _ _ _ HUr).
  split; intros E; [pose proof HUl as X|pose proof HUr as X]; rewrite E in X; apply (gtree_fun _ _ _ HG) in X;
    apply (f_equal (@length _)) in X; rewrite app_length, !scale_length in X; lia.
Qed.

Lemma wleaf_in x : In x (map fst xs ++ map fst ys) -> exists j, nth_error ns j = Some (NLeaf x).
Proof. rewrite <- fstL. apply (gtree_leaf_in _ _ _ HG). Qed.

Lemma wclit_nc X : (forall x, In x X -> wclit x) -> no_compl X.
Proof.
  intros H x y Hx Hy E. destruct (H _ Hx) as [Ix|(c & v & s & _ & Dx)], (H _ Hy) as [Iy|(c' & v' & s' & _ & Dy)].
  - exact (HNC x y Ix Iy E).
  - destruct (wleaf_in _ Ix) as (j & Hj). apply (proj2 (nm_leaf _ _ HN _ _ Hj) _ _ _ _ Dy). now rewrite E.
  - destruct (wleaf_in _ Iy) as (j & Hj). apply (proj2 (nm_leaf _ _ HN _ _ Hj) _ _ _ _ Dx). now rewrite E.
  - apply (nm_out _ _ HN) in Dx as (Dx & _). apply (nm_out _ _ HN) in Dy as (Dy & _). rewrite E in Dy. cbn [neg lneg] in Dy. rewrite Dx in Dy. discriminate.
Qed.

Lemma wclit_below x : wclit x -> (lvar x < next)%N.
Proof.
  intros [I|(c & v & s & _ & D)].
  - destruct (wleaf_in _ I) as (j & Hj). apply (nm_leaf _ _ HN _ _ Hj).
  - apply (nm_out _ _ HN _ _ _ _ D).
Qed.

(** an output of a child: its literal, and its definition's constraint *)
Lemma wchild_out cid cls v x : gtree ns cid cls -> (forall l, In l (map fst cls) -> In l (map fst xs ++ map fst ys)) -> cid <> id -> olit ns cid v = Some x ->
  wclit x /\ (forall i w o' s, data ns i w = Some (LLit o' s) -> lvar o' = lvar x -> 2 <= total_weight cls /\ i = cid /\ w = v).
Proof.
  intros U Hin Hne Hx. destruct (gtree_node _ _ _ U) as (n & Hn & _ & Hmv).
  assert (Cs : (exists l, n = NLeaf l) \/ forall l, n <> NLeaf l) by (destruct n; eauto; right; discriminate). destruct Cs as [(l & ->)|Hnl].
  - assert (Hcls : In l (map fst cls)).
    { inversion U as [? ls U'|]; subst; [|congruence]. inversion U'; subst; [|congruence]. assert (l0 = l) as -> by congruence. now left. }
    unfold olit in Hx. rewrite Hn in Hx. cbn [obind node_lit] in Hx. destruct (v =? 1); [|discriminate]. injection Hx as <-.
    split; [left; now apply Hin|]. intros i w o' s D E. exfalso. apply (proj2 (nm_leaf _ _ HN _ _ Hn) _ _ _ _ D E).
  - destruct (olit_inner _ _ _ _ _ Hn Hnl Hx) as (s & D). split; [right; eauto 6|]. intros i w o' s' D' E.
    destruct (nm_inj _ _ HN _ _ _ _ _ _ _ _ D' D E) as (-> & ->). split; [|auto].
    destruct (le_lt_dec (total_weight cls) 1) as [H1|H1]; [|lia]. destruct (gtree_one _ _ _ U H1) as (l & Hl & _). exfalso. apply (Hnl l). congruence.
Qed.

Lemma woutT_in cid n v x a : olit ns cid v = Some x -> 1 <= v <= n -> outT (olit ns cid v) n v a = lv a x.
Proof. intros E H. unfold outT. rewrite E. replace (v =? 0) with false by lia. replace (n <? v) with false by lia. reflexivity. Qed.

Section Out.
Variables (val : nat) (o : lit).
Hypothesis (Ho : olit ns id val = Some o).

Lemma wout_data : exists s, data ns id val = Some (LLit o s).
Proof. exact (olit_inner _ _ _ _ _ Hnode ltac:(discriminate) Ho). Qed.

Lemma wclit_out x : wclit x -> lvar x <> lvar o.
Proof.
  destruct wout_data as (s & D). intros [I|(c & v & s' & Hne & D')] E.
  - destruct (wleaf_in _ I) as (j & Hj). eapply (nm_leaf _ _ HN _ _ Hj); eauto.
  - destruct (nm_inj _ _ HN _ _ _ _ _ _ _ _ D D' (eq_sym E)). congruence.
Qed.

Lemma wout_nc b X : (forall x, In x X -> wclit x) -> lvar b = lvar o -> no_compl (b :: X) /\ no_compl (b :: map neg X).
Proof.
  intros H E. pose proof (wclit_nc X H) as NC. split; apply no_compl_cons; auto.
  - intros l Hl El. apply (wclit_out l (H _ Hl)). rewrite El, <- E. reflexivity.
  - intros l Hl El. apply in_map_iff in Hl as (x & <- & Hx). apply (wclit_out x (H _ Hx)). rewrite <- E. apply (f_equal lvar) in El. exact El.
  - now apply no_compl_neg.
Qed.
End Out.

(** literal of a child, if its value is not trivial *)
Definition wpart (cid cn v : nat) (X : list lit) : Prop :=
  (v = 0 /\ X = []) \/ (1 <= v <= cn /\ exists x, X = [x] /\ olit ns cid v = Some x).

Lemma wpart_facts cid cls v X : wpart cid (total_weight cls) v X -> gtree ns cid cls -> (forall l, In l (map fst cls) -> In l (map fst xs ++ map fst ys)) -> cid <> id ->
  v <= total_weight cls /\ has_out ns cid (total_weight cls) v /\ (forall x, In x X -> wclit x) /\
  (forall x i w o' s, In x X -> data ns i w = Some (LLit o' s) -> lvar o' = lvar x -> 2 <= total_weight cls /\ i = cid /\ w = v) /\
  (forall a, (Z.of_nat v * outT (olit ns cid v) (total_weight cls) v a = Z.of_nat v * cnt a X)%Z) /\ (Z.of_nat v * len X = Z.of_nat v)%Z /\ (forall x, In x X -> 1 <= v).
Proof.
  intros P U Hin Hne. destruct P as [(-> & ->)|(Hv & x & -> & Hx)].
  - split; [lia|]. split; [intros H; lia|]. split; [intros x []|]. split; [intros x ? ? ? ? []|]. split; [intros; lia|]. split; [lia|]. intros x [].
  - destruct (wchild_out cid cls v x U Hin Hne Hx) as (Hc & Hd). split; [lia|]. split; [intros _; eauto|]. split; [intros y [<-|[]]; auto|].
    split; [intros y i w o' s [<-|[]]; eauto|]. split; [intros a; rewrite (woutT_in _ _ _ _ a Hx Hv), cnt_cons; change (cnt a []) with 0%Z; lia|].
    split; [change (len [x]) with 1%Z; lia|]. intros y _. lia.
Qed.

Lemma wthree k p lv1 rv1 v : CInv k p -> t_nodes (c_t k) = ns -> t_next (c_t k) = next ->
  lv1 <= total_weight xs -> has_out ns (nc_id lcon) (total_weight xs) lv1 ->
  rv1 <= total_weight ys -> has_out ns (nc_id rcon) (total_weight ys) rv1 ->
  1 <= v <= total_weight L + 1 -> has_out ns id (total_weight L) v ->
  exists d1 k1 d2 k2 i k3 p3, define_semantics k (nc_id lcon) lv1 TOnlyIf xs = Some (d1, k1) /\
    define_semantics k1 (nc_id rcon) rv1 TOnlyIf ys = Some (d2, k2) /\
    define_semantics k2 id v TIf L = Some (DId i, k3) /\
    c_t k3 = c_t k /\ adv k p k3 p3 /\
    sem_ok p3 d1 (woif ns (nc_id lcon) lv1 xs) /\ sem_ok p3 d2 (woif ns (nc_id rcon) rv1 ys) /\
    con_is p3 i (wif ns id v L) /\
    (2 <= total_weight xs -> defs_get (c_defs k3) (nc_id lcon) lv1 <> None) /\
    (2 <= total_weight ys -> defs_get (c_defs k3) (nc_id rcon) rv1 <> None) /\
    defs_get (c_defs k3) id v <> None.
Proof.
  intros C En Ex R1 O1 R2 O2 R3 O3. assert (NCl : no_compl (map fst xs)) by (eapply no_compl_sub; [|exact HNC]; intros; apply in_or_app; auto).
  assert (NCr : no_compl (map fst ys)) by (eapply no_compl_sub; [|exact HNC]; intros; apply in_or_app; auto).
  assert (NCL : no_compl (map fst L)) by (rewrite fstL; exact HNC).
  assert (L2 : 2 <= total_weight L) by (subst L; rewrite total_weight_app, !total_scale; pose proof (gtree_pos _ _ _ HUl); pose proof (gtree_pos _ _ _ HUr); nia).
  assert (St : forall kk kk', c_t kk' = c_t kk -> t_nodes (c_t kk) = ns -> t_next (c_t kk) = next -> t_nodes (c_t kk') = ns /\ t_next (c_t kk') = next) by (intros kk kk' ->; auto).
  destruct (wdefine_semantics_ok k p (nc_id lcon) lv1 TOnlyIf xs C) as (d1 & k1 & p1 & E1 & T1 & I1 & A1 & S1 & D1); try (rewrite ?En, ?Ex; assumption).
  destruct (St _ _ T1 En Ex) as (En1 & Ex1).
  destruct (wdefine_semantics_ok k1 p1 (nc_id rcon) rv1 TOnlyIf ys (ad_inv _ _ _ _ A1)) as (d2 & k2 & p2 & E2 & T2 & I2 & A2 & S2 & D2); try (rewrite ?En1, ?Ex1; assumption).
  destruct (St _ _ T2 En1 Ex1) as (En2 & Ex2).
  destruct (wdefine_semantics_ok k2 p2 id v TIf L (ad_inv _ _ _ _ A2)) as (d3 & k3 & p3 & E3 & T3 & I3 & A3 & S3 & D3); try (rewrite ?En2, ?Ex2; assumption).
  destruct (D3 L2) as (D3' & i & ->). rewrite En in S1. rewrite En1 in S2. rewrite En2 in S3.
  assert (Mono : forall kk kk', defs_le (c_defs kk) (c_defs kk') -> forall i v, defs_get (c_defs kk) i v <> None -> defs_get (c_defs kk') i v <> None).
  { intros kk kk' H i' v' Hd. destruct (defs_get (c_defs kk) i' v') as [d|] eqn:E; [|congruence]. rewrite (H _ _ _ E). discriminate. }
  exists d1, k1, d2, k2, i, k3, p3. split; [exact E1|]. split; [exact E2|]. split; [exact E3|]. split; [congruence|].
  assert (Q : forall kk kk', c_t kk' = c_t kk -> keeps_out (t_nodes (c_t kk)) (t_nodes (c_t kk'))) by (intros kk kk' -> w Hw; exact Hw).
  split; [|split; [|split; [|split; [|split; [|split]]]]].
  - eapply adv_trans; [|eapply adv_trans; [|exact A1|exact A2]|exact A3]; apply Q; auto.
  - eapply sem_ok_grows; [eapply grows_trans; [apply A2|apply A3]|exact S1].
  - eapply sem_ok_grows; [apply A3|exact S2].
  - exact S3.
  - intros H. eapply Mono; [apply A3|]. eapply Mono; [apply A2|]. apply D1, H.
  - intros H. eapply Mono; [apply A3|]. apply D2, H.
  - exact D3'.
Qed.

Lemma wstep_ok k p val o lval rval X1 X2 : CInv k p -> t_nodes (c_t k) = ns -> t_next (c_t k) = next -> olit ns id val = Some o ->
  wpart (nc_id lcon) (total_weight xs) lval X1 -> wpart (nc_id rcon) (total_weight ys) rval X2 ->
  val = lval * nc_mult lcon + rval * nc_mult rcon -> 1 <= val <= total_weight L ->
  exists k' p', wstep id val lcon rcon k lval rval xs ys (cube_impl_lit (X1 ++ X2) o) = Some k' /\ c_t k' = emit (c_t k) [cube_impl_lit (X1 ++ X2) o] /\
    adv k p k' p' /\ defs_get (c_defs k') id val <> None.
Proof.
  intros C En Ex Ho P1 P2 Hval Hr. unfold wstep. fold L. destruct wchild_ne as (NEl & NEr).
  destruct (wpart_facts _ _ _ _ P1 HUl ltac:(intros; apply in_or_app; auto) NEl) as (H1 & O1 & K1 & D1 & F1 & Q1 & V1).
  destruct (wpart_facts _ _ _ _ P2 HUr ltac:(intros; apply in_or_app; auto) NEr) as (H2 & O2 & K2 & D2 & F2 & Q2 & V2).
  destruct (wthree k p lval rval val C En Ex H1 O1 H2 O2) as (d1 & k1 & d2 & k2 & i & k3 & p3 & G1 & G2 & G3 & T3 & A & S1 & S2 & S3 & N1 & N2 & N3); [lia|intros _; eauto|].
  rewrite G1. cbn [obind]. rewrite G2. cbn [obind]. rewrite G3. cbn [obind].
  assert (KX : forall x, In x (X1 ++ X2) -> wclit x) by (intros x Hx; apply in_app_or in Hx as [Hx|Hx]; auto).
  assert (Hp3 : ps_ok p3) by apply (ad_inv _ _ _ _ A).
  set (lm := nc_mult lcon) in *. set (rm := nc_mult rcon) in *.
  assert (WL : wlen L = (Z.of_nat lm * wlen xs + Z.of_nat rm * wlen ys)%Z) by (subst L; now rewrite wlen_app, !wlen_scale).
  assert (CL : forall a, wcnt a L = (Z.of_nat lm * wcnt a xs + Z.of_nat rm * wcnt a ys)%Z) by (intros a; subst L; now rewrite wcnt_app, !wcnt_scale).
  assert (ZV : Z.of_nat val = (Z.of_nat lm * Z.of_nat lval + Z.of_nat rm * Z.of_nat rval)%Z) by (rewrite Hval; lia).
  assert (WV : (Z.of_nat val <= wlen L)%Z) by (unfold wlen; lia).
  set (us := (o, (wlen L - Z.of_nat val + 1)%Z) :: map (fun x => (x, (Z.of_nat lm * Z.of_nat lval)%Z)) (map neg X1) ++ map (fun x => (x, (Z.of_nat rm * Z.of_nat rval)%Z)) (map neg X2)).
  assert (B1 : forall a, (Z.of_nat lm * woif ns (nc_id lcon) lval xs a = Z.of_nat lm * wcnt a xs - Z.of_nat lm * Z.of_nat lval * cnt a X1)%Z).
  { intros a. unfold woif. rewrite F1. ring. }
  assert (B2 : forall a, (Z.of_nat rm * woif ns (nc_id rcon) rval ys a = Z.of_nat rm * wcnt a ys - Z.of_nat rm * Z.of_nat rval * cnt a X2)%Z).
  { intros a. unfold woif. rewrite F2. ring. }
  change (def_seq (DId i)) with [OId i].
  destruct (wderive_ok k3 p3 i (seq_mul (def_seq d1) lm) (seq_mul (def_seq d2) rm) _ _ _ (cube_impl_lit (X1 ++ X2) o) us (ad_inv _ _ _ _ A) S3
              (seq_mul_pushes _ _ _ _ Hp3 S1 HMl) (seq_mul_pushes _ _ _ _ Hp3 S2 HMr)) as (j & k4 & p' & E & Et & Ed & A').
  - (* the first sum *)
    destruct (no_compl_model (neg o :: X1 ++ map fst ys)) as (a & Ha).
    { apply (wout_nc val o Ho (neg o)); [|reflexivity]. intros x Hx. apply in_app_or in Hx as [Hx|Hx]; [auto|]. left. apply in_or_app. auto. }
    exists a. rewrite B1. unfold wif. rewrite (woutT_in _ _ _ _ a Ho Hr).
    assert (Lo : lv a o = 0%Z). { pose proof (Ha (neg o) (or_introl eq_refl)) as X. rewrite lit_true_neg' in X. unfold lv. destruct (lit_true a o); [discriminate|auto]. }
    rewrite Lo, CL, WL. rewrite (wcnt_all a ys) by (intros; apply Ha; right; apply in_or_app; auto).
    assert (Q : cnt a X1 = len X1) by (apply cnt_all; intros; apply Ha; right; apply in_or_app; auto). rewrite Q, <- Z.mul_assoc, Q1, ZV.
    assert (0 <= Z.of_nat rm * wlen ys - Z.of_nat rm * Z.of_nat rval)%Z by (unfold wlen; nia). lia.
  - intros a. rewrite B1, B2. unfold wif. rewrite (woutT_in _ _ _ _ a Ho Hr).
    subst us. rewrite zwsum_cons', zwsum_app, !wzwsum_scaled. rewrite !cnt_neg, CL.
    rewrite !Z.mul_sub_distr_l. replace (Z.of_nat lm * Z.of_nat lval * len X1)%Z with (Z.of_nat lm * Z.of_nat lval)%Z by (rewrite <- Z.mul_assoc, Q1; reflexivity).
    replace (Z.of_nat rm * Z.of_nat rval * len X2)%Z with (Z.of_nat rm * Z.of_nat rval)%Z by (rewrite <- Z.mul_assoc, Q2; reflexivity). rewrite ZV. ring.
  - intros l w Hin. subst us. destruct Hin as [Hin|Hin].
    + injection Hin as _ <-. lia.
    + apply in_app_or in Hin as [Hin|Hin]; apply in_map_iff in Hin as (x & [= <- <-] & Hx); apply in_map_iff in Hx as (y & _ & Hy); first [apply V1 in Hy|apply V2 in Hy]; nia.
  - subst us. cbn [map fst]. rewrite map_app, !map_fst_scaled. rewrite <- map_app. apply (wout_nc val o Ho o); auto.
  - intros l. subst us. cbn [map fst]. rewrite map_app, !map_fst_scaled, <- map_app. unfold cube_impl_lit. rewrite in_app_iff. cbn [In]. tauto.
  - intros l Hl. rewrite T3, Ex. unfold cube_impl_lit in Hl. apply in_app_or in Hl as [Hl|[<-|[]]].
    + apply in_map_iff in Hl as (x & <- & Hx). rewrite lvar_neg'. apply wclit_below, KX, Hx.
    + destruct (wout_data _ _ Ho) as (s & D). apply (nm_out _ _ HN _ _ _ _ D).
  - intros l i' w o' s Hl D E. rewrite T3, En in D. unfold cube_impl_lit in Hl. apply in_app_or in Hl as [Hl|[<-|[]]].
    + apply in_map_iff in Hl as (x & <- & Hx). rewrite lvar_neg' in E. apply in_app_or in Hx as [Hx|Hx].
      * destruct (D1 _ _ _ _ _ Hx D E) as (X & -> & ->). auto.
      * destruct (D2 _ _ _ _ _ Hx D E) as (X & -> & ->). auto.
    + destruct (wout_data _ _ Ho) as (s' & D'). destruct (nm_inj _ _ HN _ _ _ _ _ _ _ _ D D' E) as (-> & ->). auto.
  - rewrite E. cbn [obind]. eexists _, p'. split; [reflexivity|]. split; [rewrite Et, T3; auto|]. split; [|rewrite Ed; auto].
    eapply adv_trans; [|exact A|exact A']. rewrite Et. intros v Hv. exact Hv.
Qed.
End Node.
