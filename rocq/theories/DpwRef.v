(** * Which nodes of the database refer to which: merging refers to nothing but the given connections and new nodes *)

From Coq Require Import List Bool NArith ZArith Lia Arith Sorted.
From Coq Require Import ZifyBool ZifyNat ZifyN.
From Verif Require Import Spec Types Atomics NodeDb TreeSpec TotDb Base TotDbInv TotDbUnit TotDbGeneral TotDbBuild TotDbGrow TotDbMerge.
Import ListNotations.

(** no node outside [B] refers to a node in [B] *)
Definition nref (B : list nat) (ns : list node) : Prop :=
  forall id n l r, nth_error ns id = Some n -> children n = Some (l, r) -> ~ In id B -> ~ In (nc_id l) B /\ ~ In (nc_id r) B.

(** the nodes in [B] are internal nodes *)
Definition inner (B : list nat) (ns : list node) : Prop :=
  forall b, In b B -> exists n x, nth_error ns b = Some n /\ children n = Some x.

Definition outside (B : list nat) (c : nodecon) : Prop := ~ In (nc_id c) B.

Lemma inner_lt B ns b : inner B ns -> In b B -> (b < length ns)%nat.
Proof. intros H Hb. destruct (H b Hb) as (n & x & E & _). eapply nth_error_lt; eauto. Qed.

Lemma inner_app B ns new : inner B ns -> inner B (ns ++ new).
Proof. intros H b Hb. destruct (H b Hb) as (n & x & E & C). exists n, x. split; [|auto]. rewrite nth_error_app1; [auto|eapply nth_error_lt; eauto]. Qed.

Lemma nref_nil ns : nref [] ns.
Proof. intros id n l r _ _ _. split; intros []. Qed.

Lemma nref_snoc B ns n : nref B ns -> (forall l r, children n = Some (l, r) -> outside B l /\ outside B r) -> nref B (ns ++ [n]).
Proof.
  intros H Hn id m l r E C Hid. destruct (Nat.lt_ge_cases id (length ns)) as [L|L].
  - rewrite nth_error_app1 in E by auto. eapply H; eauto.
  - rewrite nth_error_app2 in E by auto. destruct (id - length ns)%nat as [|k]; [|destruct k; discriminate]. injection E as <-. now apply Hn.
Qed.

(** a new node that refers to [B] joins it *)
Lemma nref_join B ns n : nref B ns -> inner B ns ->
  (forall id m l r, nth_error ns id = Some m -> children m = Some (l, r) -> (nc_id l < length ns /\ nc_id r < length ns)%nat) ->
  nref (length ns :: B) (ns ++ [n]).
Proof.
  intros H HI Hc id m l r E C Hid. destruct (Nat.lt_ge_cases id (length ns)) as [L|L].
  - rewrite nth_error_app1 in E by auto. destruct (H id m l r E C ltac:(intros X; apply Hid; now right)) as (A1 & A2).
    destruct (Hc _ _ _ _ E C). split; intros [X|X]; auto; lia.
  - exfalso. apply Hid. left. assert (id < length (ns ++ [n]))%nat by (eapply nth_error_lt; eauto). rewrite app_length in *. cbn [length] in *. lia.
Qed.

Lemma nref_leaf B ns id l : inner B ns -> nth_error ns id = Some (NLeaf l) -> ~ In id B.
Proof. intros H E Hid. destruct (H id Hid) as (n & x & E' & C). rewrite E in E'. injection E' as <-. discriminate. Qed.
Lemma nref_dummy B ns id : inner B ns -> nth_error ns id = Some NDummy -> ~ In id B.
Proof. intros H E Hid. destruct (H id Hid) as (n & x & E' & C). rewrite E in E'. injection E' as <-. discriminate. Qed.

Lemma merge_two_ref B d l r d' con : merge_two d l r = Some (d', con) -> nref B (d_nodes d) -> inner B (d_nodes d) -> outside B l -> outside B r ->
  nref B (d_nodes d') /\ inner B (d_nodes d') /\ outside B con.
Proof.
  unfold merge_two. intros H HR HI Hl Hr. destruct (_ && _).
  - apply obind_some in H as (n & En & H). pose proof (node_internal_children _ _ _ _ En) as C. rewrite (insert_children _ _ _ _ C) in H.
    apply obind_some in H as (c & Ec & H). injection H as <- <-. unfold con_weighted in Ec. destruct (_ =? 0)%nat; [discriminate|]. injection Ec as <-.
    cbn [d_nodes]. split; [|split; [now apply inner_app|]].
    + apply nref_snoc; [auto|]. intros l' r' C'. rewrite C in C'. injection C' as <- <-. split; [exact Hl|exact Hr].
    + unfold outside. cbn [nc_id]. intros X. apply (inner_lt _ _ _ HI) in X. lia.
  - apply obind_some in H as (n & En & H). pose proof (node_internal_children _ _ _ _ En) as C. rewrite (insert_children _ _ _ _ C) in H.
    injection H as <- <-. cbn [d_nodes]. split; [|split; [now apply inner_app|]].
    + apply nref_snoc; [auto|]. intros l' r' C'. rewrite C in C'. injection C' as <- <-. auto.
    + unfold outside. cbn [nc_id con_full]. intros X. apply (inner_lt _ _ _ HI) in X. lia.
Qed.

Lemma merge_balanced_rec_ref B fuel : forall d cs cum off d' con, merge_balanced_rec fuel d cs cum off = Some (d', con) ->
  nref B (d_nodes d) -> inner B (d_nodes d) -> Forall (outside B) cs ->
  nref B (d_nodes d') /\ inner B (d_nodes d') /\ outside B con.
Proof.
  induction fuel as [|fuel IH]; intros d cs cum off d' con H HR HI Hc; cbn [merge_balanced_rec] in H; [discriminate|].
  destruct cs as [|c1 [|c2 cs']]; [discriminate| |].
  - injection H as <- <-. split; [auto|]. split; [auto|]. now apply Forall_inv in Hc.
  - remember (c1 :: c2 :: cs') as cs eqn:Ecs. clear Ecs.
    apply obind_some in H as (k & _ & H). apply obind_some in H as ((d1 & lcon) & E1 & H).
    apply obind_some in H as (off' & _ & H). apply obind_some in H as ((d2 & rcon) & E2 & H).
    rewrite <- (firstn_skipn k cs) in Hc. apply Forall_app in Hc as (Hc1 & Hc2).
    destruct (IH _ _ _ _ _ _ E1 HR HI Hc1) as (HR1 & HI1 & O1).
    destruct (IH _ _ _ _ _ _ E2 HR1 HI1 Hc2) as (HR2 & HI2 & O2).
    eapply merge_two_ref; eauto.
Qed.

Lemma merge_balanced_ref B d cs d' con : merge_balanced d cs = Some (d', Some con) ->
  nref B (d_nodes d) -> inner B (d_nodes d) -> Forall (outside B) cs ->
  nref B (d_nodes d') /\ inner B (d_nodes d') /\ outside B con.
Proof.
  unfold merge_balanced. intros H HR HI Hc. destruct cs as [|c cs']; [discriminate|]. remember (c :: cs') as cs eqn:Ecs. clear Ecs.
  apply obind_some in H as (cum & _ & H). apply obind_some in H as ((d1 & con1) & E & H). injection H as <- <-. eapply merge_balanced_rec_ref; eauto.
Qed.

Lemma insert_leaf_ref B d l d' id : db_insert d (NLeaf l) = (d', id) -> nref B (d_nodes d) -> inner B (d_nodes d) ->
  nth_error (d_nodes d') id = Some (NLeaf l) -> nref B (d_nodes d') /\ inner B (d_nodes d') /\ ~ In id B.
Proof.
  intros H HR HI E. assert (HI' : inner B (d_nodes d')).
  { cbn [db_insert] in H. destruct (lookup_lit _ _); injection H as <- <-; [auto|]. now apply inner_app. }
  split; [|split; [auto|eapply nref_leaf; eauto]]. cbn [db_insert] in H. destruct (lookup_lit _ _); injection H as <- <-; [auto|].
  apply nref_snoc; [auto|]. discriminate.
Qed.
Lemma insert_dummy_ref B d d' id : db_insert d NDummy = (d', id) -> nref B (d_nodes d) -> inner B (d_nodes d) ->
  nth_error (d_nodes d') id = Some NDummy -> nref B (d_nodes d') /\ inner B (d_nodes d') /\ ~ In id B.
Proof.
  intros H HR HI E. assert (HI' : inner B (d_nodes d')).
  { cbn [db_insert] in H. destruct (d_dummy d); injection H as <- <-; [auto|]. now apply inner_app. }
  split; [|split; [auto|eapply nref_dummy; eauto]]. cbn [db_insert] in H. destruct (d_dummy d); injection H as <- <-; [auto|].
  apply nref_snoc; [auto|]. discriminate.
Qed.

(** the children of the nodes of a well-formed database exist *)
Lemma wf_children_lt ns g id n l r : wf_shape (skel ns) g -> nth_error ns id = Some n -> children n = Some (l, r) ->
  (nc_id l < length ns /\ nc_id r < length ns)%nat.
Proof.
  intros W E C. pose proof (wf_node _ _ W _ _ (nth_skel _ _ _ E)) as H. rewrite <- (skel_length ns).
  destruct n; cbn [children] in C; try discriminate; injection C as -> ->; cbn [erase node_ok] in H;
    destruct H as ((_ & n1 & E1 & _) & (_ & n2 & E2 & _) & _); split; eapply nth_error_lt; eauto.
Qed.

(** the dummy node is found again *)
Lemma insert_dummy_id d d' id : db_insert d NDummy = (d', id) -> d_dummy d' = Some id.
Proof. cbn [db_insert]. destruct (d_dummy d) eqn:E; intros [= <- <-]; auto. Qed.
Lemma insert_leaf_dummy d l d' id : db_insert d (NLeaf l) = (d', id) -> d_dummy d' = d_dummy d.
Proof. cbn [db_insert]. destruct (lookup_lit _ _); intros [= <- <-]; auto. Qed.

Lemma merge_two_dummy d l r d' con : merge_two d l r = Some (d', con) -> d_dummy d' = d_dummy d.
Proof.
  unfold merge_two. intros H. destruct (_ && _).
  - apply obind_some in H as (n & En & H). pose proof (node_internal_children _ _ _ _ En) as C. rewrite (insert_children _ _ _ _ C) in H.
    apply obind_some in H as (c & Ec & H). injection H as <- <-. reflexivity.
  - apply obind_some in H as (n & En & H). pose proof (node_internal_children _ _ _ _ En) as C. rewrite (insert_children _ _ _ _ C) in H.
    injection H as <- <-. reflexivity.
Qed.

Lemma merge_balanced_rec_dummy fuel : forall d cs cum off d' con, merge_balanced_rec fuel d cs cum off = Some (d', con) -> d_dummy d' = d_dummy d.
Proof.
  induction fuel as [|fuel IH]; intros d cs cum off d' con H; cbn [merge_balanced_rec] in H; [discriminate|].
  destruct cs as [|c1 [|c2 cs']]; [discriminate|now injection H as <- <-|]. remember (c1 :: c2 :: cs') as cs eqn:Ecs. clear Ecs.
  apply obind_some in H as (k & _ & H). apply obind_some in H as ((d1 & lcon) & E1 & H).
  apply obind_some in H as (off' & _ & H). apply obind_some in H as ((d2 & rcon) & E2 & H).
  apply IH in E1, E2. apply merge_two_dummy in H. congruence.
Qed.

Lemma merge_balanced_dummy d cs d' con : merge_balanced d cs = Some (d', con) -> d_dummy d' = d_dummy d.
Proof.
  unfold merge_balanced. intros H. destruct cs as [|c cs']; [now injection H as <- <-|]. remember (c :: cs') as cs eqn:Ecs. clear Ecs.
  apply obind_some in H as (cum & _ & H). apply obind_some in H as ((d1 & con1) & E & H). injection H as <- <-. eapply merge_balanced_rec_dummy; eauto.
Qed.
