(** * Encoders built on the node database: bookkeeping common to their invariants *)

From Coq Require Import List Bool NArith ZArith Lia Arith Sorted Permutation.
From Coq Require Import ZifyBool ZifyNat ZifyN.
From Verif Require Import Spec BoundSpec Types Atomics NodeDb TreeSpec TotDb Totalizer Base TotDbInv TotDbUnit TotDbDefine TotDbGeneral TotDbBuild TotDbGrow TotDbMerge TotWeighted TotDbHist TotalizerProofs.
Import ListNotations.

Section World.
Context {A : Type} (ilit : A -> lit).

Record dinv (w : world A) (d : db) (g : ghost) (ow : owner) : Prop := mkDinv {
  di_inv : inv (w_all w) (w_ub w) (w_lb w) g ow (mkTst (d_nodes d) (w_next w) []);
  di_built : built g d;
  di_ow : forall v x, ow v = Some x -> in_aux (w_aux w) v;
  di_lits : forall x, In x (w_in w) -> (lvar (ilit x) < w_next w)%N /\ ~ in_aux (w_aux w) (lvar (ilit x));
  di_gin : forall v, gin g v = true -> exists x, In x (w_in w) /\ lvar (ilit x) = v;
  di_aux : aux_below (w_aux w) (w_next w)
}.

Lemma dinv_call w d g ow ow' st' : dinv w d g ow ->
  inv (w_all w) (w_ub w) (w_lb w) g ow' st' -> ext ow (mkTst (d_nodes d) (w_next w) []) ow' st' ->
  dinv (log_call w false false (t_cls st') (t_next st')) (set_nodes_db d (t_nodes st')) g ow'.
Proof.
  intros I I' X.
  assert (Hsk : skel (t_nodes st') = skel (d_nodes d)) by exact (e_skel _ _ _ _ X).
  assert (Hnx : (w_next w <= t_next st')%N) by exact (e_next _ _ _ _ X).
  constructor; cbn [set_nodes_db d_nodes log_call w_in w_next w_aux w_all w_ub w_lb].
  - apply inv_commit. exact I'.
  - apply built_skel; [exact (di_built _ _ _ _ I)|auto].
  - intros v x H. apply in_aux_cons. destruct (e_ow_new _ _ _ _ X v x H) as [H'|H']; [right; eapply di_ow; eauto|left; exact H'].
  - intros l Hl. destruct (di_lits _ _ _ _ I l Hl) as (H1 & H2). split; [lia|]. intros H. apply in_aux_cons in H as [H|H]; [lia|auto].
  - exact (di_gin _ _ _ _ I).
  - intros v H. apply in_aux_cons in H as [H|H]; [lia|]. apply (di_aux _ _ _ _ I) in H. lia.
Qed.

Lemma dinv_noop w d g ow : dinv w d g ow -> dinv (log_call w false false [] (w_next w)) d g ow.
Proof.
  intros [J1 J2 J8 J9 J10 J11].
  constructor; cbn [log_call w_in w_next w_aux w_all w_ub w_lb]; auto.
  - rewrite !app_nil_r. auto.
  - intros v x H. apply in_aux_cons. right. eauto.
  - intros l Hl. destruct (J9 l Hl) as (H1 & H2). split; [auto|]. intros H. apply in_aux_cons in H as [H|H]; [lia|auto].
  - intros v H. apply in_aux_cons in H as [H|H]; [lia|auto].
Qed.

(** two consecutive calls count as one *)
Lemma dinv_two w d g ow c1 n1 c2 n2 : (w_next w <= n1)%N -> (n1 <= n2)%N ->
  dinv (log_call (log_call w false false c1 n1) false false c2 n2) d g ow -> dinv (log_call w false false (c1 ++ c2) n2) d g ow.
Proof.
  intros N1 N2 [J1 J2 J8 J9 J10 J11]. cbn [log_call w_in w_next w_aux w_all w_ub w_lb] in *.
  assert (Hx : forall v, in_aux ((w_next w, n2) :: w_aux w) v <-> in_aux ((n1, n2) :: (w_next w, n1) :: w_aux w) v).
  { intros v. rewrite !in_aux_cons. split; [|intuition lia]. intros [H|H]; [|auto]. destruct (N.lt_ge_cases v n1); [right; left; lia|left; lia]. }
  rewrite <- !app_assoc in J1. constructor; cbn [log_call w_in w_next w_aux w_all w_ub w_lb]; auto.
  - intros v x H. apply Hx. eauto.
  - intros l Hl. destruct (J9 l Hl) as (H1 & H2). split; [auto|]. rewrite Hx. auto.
  - intros v H. apply Hx in H. auto.
Qed.

Lemma dinv_init : dinv world0 db_empty ghost0 (fun _ => None).
Proof.
  assert (Hn : forall id : nat, nth_error (@nil node) id = None) by (intros []; reflexivity).
  assert (W : wf_shape (skel []) ghost0) by exact (proj1 built_empty).
  constructor; cbn [world0 w_in w_next w_aux w_all w_ub w_lb db_empty d_nodes].
  - constructor; cbn [t_nodes t_next t_cls app gin]; try discriminate; auto;
      try (intros; unfold data in *; rewrite Hn in *; discriminate); try (intros; cbn in *; tauto).
  - split; [exact W|]. split; cbn; discriminate.
  - discriminate.
  - intros l [].
  - discriminate.
  - intros v (lo & hi & [] & _).
Qed.

Lemma dinv_extend w d g ow ls : dinv w d g ow -> (forall l, In l ls -> (lvar (ilit l) < w_next w)%N /\ ~ in_aux (w_aux w) (lvar (ilit l))) ->
  dinv (mkWorld (w_in w ++ ls) (w_next w) (w_aux w) (w_all w) (w_ub w) (w_lb w)) d g ow.
Proof.
  intros [J1 J2 J8 J9 J10 J11] H. constructor; cbn [w_in w_next w_aux w_all w_ub w_lb]; auto.
  - intros l Hl. apply in_app_or in Hl as [Hl|Hl]; auto.
  - intros v Hv. destruct (J10 v Hv) as (l & Hl & E). exists l. split; [apply in_or_app; auto|auto].
Qed.

Lemma dinv_user w d g ow k : dinv w d g ow -> dinv (mkWorld (w_in w) (w_next w + k)%N (w_aux w) (w_all w) (w_ub w) (w_lb w)) d g ow.
Proof.
  intros [J1 J2 J8 J9 J10 J11]. constructor; cbn [w_in w_next w_aux w_all w_ub w_lb]; auto.
  - eapply inv_next; [|exact J1]. lia.
  - intros l Hl. destruct (J9 l Hl). split; [lia|auto].
  - intros v Hv. apply J11 in Hv. lia.
Qed.

Lemma dinv_reset_if w d g ow : dinv w d g ow ->
  dinv (mkWorld (w_in w) (w_next w) (w_aux w) (w_all w) [] (w_lb w)) (set_nodes_db d (reset_encoded (d_nodes d) SIf)) g ow.
Proof.
  intros [J1 J2 J8 J9 J10 J11]. constructor; cbn [set_nodes_db d_nodes w_in w_next w_aux w_all w_ub w_lb]; auto.
  - eapply inv_reset_if; eauto.
  - apply built_skel; [auto|]. apply reset_skel.
Qed.

Lemma dinv_grow w d g ow vs d' g' : dinv w d g ow -> built g' d' -> grow vs d g d' g' ->
  (forall v, In v vs -> exists x, In x (w_in w) /\ lvar (ilit x) = v) -> dinv w d' g' ow.
Proof.
  intros [J1 J2 J8 J9 J10 J11] B G Hv. constructor; auto.
  - eapply inv_grow; [exact J1|exact B|exact G|]. intros v H. apply Hv in H as (x & Hx & <-). destruct (J9 x Hx) as (H1 & H2). split; [auto|].
    destruct (ow (lvar (ilit x))) eqn:E; [|reflexivity]. exfalso. eauto.
  - intros v H. destruct G as (_ & _ & G). apply G in H as [H|H]; eauto.
Qed.

(** clauses mention inputs and auxiliary variables only; every assignment extends *)
Lemma dinv_local w d g ow c l : dinv w d g ow -> In c (w_all w) -> In l c ->
  (exists x, In x (w_in w) /\ lvar (ilit x) = lvar l) \/ in_aux (w_aux w) (lvar l).
Proof.
  intros I Hc Hl. pose proof (i_vars _ _ _ _ _ _ (di_inv _ _ _ _ I) c l) as H. cbn [t_cls] in H. rewrite app_nil_r in H.
  destruct (H Hc Hl) as [H'|(x & H')]; [left; eapply di_gin; eauto|right; eapply di_ow; eauto].
Qed.

Lemma dinv_canon w d g ow a : dinv w d g ow ->
  canon g ow (canonize g ow a) /\ (forall id, (id < length (d_nodes d))%nat -> gV g (canonize g ow a) id = gV g a id) /\
  (forall v, ~ in_aux (w_aux w) v -> canonize g ow a v = a v) /\ sat_cnf (canonize g ow a) (w_all w) = true.
Proof.
  intros I. pose proof (di_inv _ _ _ _ I) as J. destruct (canonize_canon _ _ _ _ _ _ a J) as (C & V).
  split; [auto|]. split; [auto|]. split.
  - intros v Hv. unfold canonize. destruct (ow v) as [x|] eqn:E; [|reflexivity]. exfalso. apply Hv. eapply di_ow; eauto.
  - pose proof (i_comp _ _ _ _ _ _ J _ C) as H. cbn [t_cls] in H. now rewrite app_nil_r in H.
Qed.

Lemma dinv_if w d g ow a id val l : dinv w d g ow -> sat_cnf a (w_ub w) = true -> lit_has (d_nodes d) id val SIf l -> gT g a id val -> lit_true a l = true.
Proof.
  intros I S Hl T. pose proof (lit_has_if _ _ _ _ _ _ a id val l (di_inv _ _ _ _ I)) as H. cbn [t_cls t_nodes] in H. rewrite app_nil_r in H. auto.
Qed.

Lemma dinv_fuel w d g ow id n : dinv w d g ow -> nth_error (d_nodes d) id = Some n -> (grk g id < S (length (d_nodes d)))%nat.
Proof.
  intros I Hn. pose proof (wf_rk _ _ (proj1 (di_built _ _ _ _ I)) id) as H. rewrite skel_length in H.
  specialize (H (nth_error_lt _ _ _ Hn)). lia.
Qed.
End World.

(** a tree survives encoding calls *)
Lemma con_good_skel ns ns' con : skel ns' = skel ns -> con_good ns con -> con_good ns' con.
Proof.
  intros E (S & M & m & Em & Dm & Im). split; [auto|]. split; [auto|].
  destruct (node_same_skel _ ns' _ _ E Em) as (n' & Hn' & He). exists n'. split; [auto|].
  split; [rewrite <- is_dummy_erase, He, is_dummy_erase; auto|].
  rewrite <- (node_max_val_erase n'), <- (node_vals_erase n'), He, node_max_val_erase, node_vals_erase. auto.
Qed.

Lemma cmax_skel ns ns' con : skel ns' = skel ns -> con_good ns con -> cmax ns' con = cmax ns con.
Proof.
  intros E (_ & _ & m & Em & _). unfold cmax. destruct (node_same_skel _ ns' _ _ E Em) as (n' & Hn' & He). rewrite Em, Hn'.
  now rewrite <- (node_max_val_erase n'), He, node_max_val_erase.
Qed.

Lemma con_leaves_skel ns ns' con ls : skel ns' = skel ns -> con_leaves ns con ls -> con_leaves ns' con ls.
Proof. intros E (P & l & T & H). split; [auto|]. exists l. split; [eapply tree_leaves_skel; eauto|auto]. Qed.

Lemma wtree_skel g ns ns' ls con : skel ns' = skel ns -> wtree g ns ls con -> wtree g ns' ls con.
Proof.
  intros E [H1 H2 H3 H4 H5]. constructor; auto.
  - eapply con_good_skel; eauto.
  - rewrite (cmax_skel _ _ _ E H1). auto.
  - eapply con_leaves_skel; eauto.
Qed.

(** the values of a node within bounds *)
Lemma node_vals_range g ns id n lo hi v : wf_shape (skel ns) g -> nth_error ns id = Some n ->
  In v (node_vals n lo (Some hi)) <-> In v (node_vals n 1 None) /\ (lo <= v < hi)%nat.
Proof.
  intros W Hn. assert (Hp := vals_pos ns g id n v W Hn). destruct n as [l|lits l r|lits m l r|]; cbn [node_vals] in *.
  - destruct ((lo <=? 1)%nat && (1 <? hi)%nat) eqn:E; change (if (1 <=? 1)%nat && true then [1%nat] else []) with [1%nat].
    + split; [intros [<-|[]]|intros ([<-|[]] & _)]; [split; [left; reflexivity|lia]|left; reflexivity].
    + split; [intros []|]. intros ([<-|[]] & H). lia.
  - rewrite !in_range_excl. lia.
  - rewrite !filter_In. split; [intros (H1 & H2)|intros ((H1 & H2) & H3)]; (split; [|lia]); [|auto].
    split; [auto|]. cbn [andb]. pose proof (wf_node _ _ W _ _ (nth_skel _ _ _ Hn)) as N. cbn [erase node_ok] in N.
    destruct N as (_ & _ & _ & _ & _ & _ & _ & Hb & _). rewrite map_map in Hb. cbn in Hb.
    specialize (Hb v). rewrite andb_true_r. apply Nat.leb_le. apply Hb. exact H1.
  - cbn [In]. tauto.
Qed.
