(** * Growing the database: new nodes never disturb old ones *)

From Coq Require Import List Bool NArith ZArith Lia Arith Sorted.
From Coq Require Import ZifyBool ZifyNat ZifyN.
From Verif Require Import Spec Types Atomics NodeDb TotDb Base TotDbInv TotDbUnit TotDbGeneral TotDbBuild.
Import ListNotations.

Definition gset (g : ghost) (k : nat) (V : asg -> nat) (T : asg -> nat -> Prop) (inp : N -> bool) : ghost :=
  mkGhost (fun a i => if (i =? k)%nat then V a else gV g a i)
          (fun a i v => if (i =? k)%nat then T a v else gT g a i v)
          inp (fun i => if (i =? k)%nat then k else grk g i).

Definition gagree (n : nat) (g g' : ghost) : Prop :=
  (forall a i, (i < n)%nat -> gV g' a i = gV g a i) /\ (forall a i v, (i < n)%nat -> gT g' a i v <-> gT g a i v) /\
  (forall i, (i < n)%nat -> grk g' i = grk g i) /\ (forall v, gin g v = true -> gin g' v = true).

Lemma gagree_refl n g : gagree n g g.
Proof. repeat split; auto. Qed.

Lemma gagree_trans n n' g1 g2 g3 : (n <= n')%nat -> gagree n g1 g2 -> gagree n' g2 g3 -> gagree n g1 g3.
Proof.
  intros Hn (A1 & B1 & C1 & D1) (A2 & B2 & C2 & D2). repeat split; intros.
  - rewrite A2, A1; auto; lia.
  - apply B1, B2; auto; lia.
  - apply B2, B1; auto; lia.
  - rewrite C2, C1; auto; lia.
  - auto.
Qed.

Lemma gset_agree g k V T inp : (forall v, gin g v = true -> inp v = true) -> gagree k g (gset g k V T inp).
Proof.
  intros H. repeat split; cbn; intros; auto.
  - replace (i =? k)%nat with false by lia. reflexivity.
  - replace (i =? k)%nat with false in * by lia. auto.
  - replace (i =? k)%nat with false in * by lia. auto.
  - replace (i =? k)%nat with false by lia. reflexivity.
Qed.

Lemma nth_error_lt {A} (l : list A) i x : nth_error l i = Some x -> (i < length l)%nat.
Proof. intros H. apply nth_error_Some. congruence. Qed.

Lemma node_ok_mono ns g ns' g' id n :
  (forall i m, nth_error ns i = Some m -> nth_error ns' i = Some m) -> gagree (length ns) g g' ->
  nth_error ns id = Some n -> node_ok ns g id n -> node_ok ns' g' id n.
Proof.
  intros Hns (HV & HT & HR & HI) Hn. pose proof (nth_error_lt _ _ _ Hn) as Hid.
  assert (Hcon : forall c, con_ok ns c -> con_ok ns' c /\ (nc_id c < length ns)%nat).
  { intros c (P & m & E & O). split; [|eapply nth_error_lt; eauto]. split; [auto|]. exists m. auto. }
  assert (Hlen : forall c L, con_len ns c = Some L -> con_len ns' c = Some L).
  { intros c L. unfold con_len. destruct (nth_error ns (nc_id c)) as [m|] eqn:E; [|discriminate]. rewrite (Hns _ _ E). auto. }
  destruct n as [l|lits l r|lits m l r|]; cbn [node_ok].
  - intros (A & B & C). split; [auto|]. split; intros; rewrite HV by lia; auto. rewrite HT by lia. apply C.
  - intros (C1 & C2 & M1 & M2 & R1 & R2 & (nl & nr & E1 & E2 & X) & (ll & lr & L1 & L2 & Ln) & EV & ET).
    destruct (Hcon _ C1) as (C1' & I1). destruct (Hcon _ C2) as (C2' & I2).
    split; [auto|]. split; [auto|]. split; [auto|]. split; [auto|].
    split; [rewrite !HR by lia; auto|]. split; [rewrite !HR by lia; auto|].
    split; [exists nl, nr; auto|]. split; [exists ll, lr; auto|].
    split; [intros a; rewrite !HV by lia; auto|]. intros a v. rewrite HV, HT by lia. auto.
  - intros (C1 & C2 & S1 & S2 & R1 & R2 & (nl & nr & E1 & E2 & X) & Hb & EV & ET & HIn & Hs & Hm & Hcv).
    destruct (Hcon _ C1) as (C1' & I1). destruct (Hcon _ C2) as (C2' & I2).
    split; [auto|]. split; [auto|]. split; [auto|]. split; [auto|].
    split; [rewrite !HR by lia; auto|]. split; [rewrite !HR by lia; auto|].
    split; [exists nl, nr; auto|]. split; [auto|].
    split; [intros a; rewrite !HV by lia; auto|]. split; [|split; [|split; [auto|split; [auto|]]]].
    3: { intros v Hv. destruct (Hcv v Hv) as (xl & xr & F1 & F2 & F). exists xl, xr. auto. }
    + intros a v. rewrite HT by lia. rewrite ET. split; intros (vl & vr & ? & ? & ?); exists vl, vr; rewrite !HT in * by lia; auto.
    + intros a v. rewrite HT by lia. apply HIn.
  - intros (A & B). split; intros; [rewrite HV by lia; auto|rewrite HT by lia; auto].
Qed.

Lemma wf_append ns g m V T inp : wf_shape ns g -> (forall v, gin g v = true -> inp v = true) ->
  let g' := gset g (length ns) V T inp in
  node_ok (ns ++ [m]) g' (length ns) m ->
  (forall a, (V a <= node_max_val m)%nat) -> (forall a v, T a v -> (v <= V a)%nat) -> (forall a, T a 0%nat) -> (forall a, T a (V a)) ->
  (forall a a', (forall v, inp v = true -> a v = a' v) -> V a = V a') ->
  wf_shape (ns ++ [m]) g'.
Proof.
  intros [Wn Wr Wi Wm Wt W0 WV] Hin g' Hok Hmax HT H0 HTV Hind.
  assert (Hag : gagree (length ns) g g') by (apply gset_agree; auto).
  assert (Hlast : forall id n, nth_error (ns ++ [m]) id = Some n -> (id < length ns /\ nth_error ns id = Some n)%nat \/ (id = length ns /\ n = m)).
  { intros id n H. destruct (Nat.lt_ge_cases id (length ns)) as [L|L].
    - left. rewrite nth_error_app1 in H by lia. auto.
    - right. rewrite nth_error_app2 in H by lia. destruct (id - length ns)%nat as [|k] eqn:E.
      + cbn in H. injection H as <-. split; [lia|auto].
      + cbn in H. destruct k; discriminate. }
  assert (Hl : length (ns ++ [m]) = S (length ns)) by (rewrite app_length; cbn; lia).
  constructor.
  - intros id n H. destruct (Hlast id n H) as [(L & Hn)|(-> & ->)]; [|auto].
    apply (node_ok_mono ns g); auto. intros i x Hi. rewrite nth_error_app1; [auto|]. eapply nth_error_lt; eauto.
  - intros id Hid. rewrite Hl in *. cbn [g' gset grk]. destruct (Nat.eqb_spec id (length ns)); [lia|]. specialize (Wr id ltac:(lia)). lia.
  - intros a a' Ha id Hid. rewrite Hl in Hid. cbn [g' gset gV gin] in *. destruct (Nat.eqb_spec id (length ns)); [auto|].
    apply Wi; [auto|lia].
  - intros a id n H. destruct (Hlast id n H) as [(L & Hn)|(-> & ->)]; cbn [g' gset gV].
    + replace (id =? length ns)%nat with false by lia. auto.
    + rewrite Nat.eqb_refl. auto.
  - intros a id v Hid. rewrite Hl in Hid. cbn [g' gset gT gV]. destruct (Nat.eqb_spec id (length ns)); [auto|]. apply Wt; lia.
  - intros a id Hid. rewrite Hl in Hid. cbn [g' gset gT]. destruct (Nat.eqb_spec id (length ns)); [auto|]. apply W0; lia.
  - intros a id Hid. rewrite Hl in Hid. cbn [g' gset gT gV]. destruct (Nat.eqb_spec id (length ns)); [auto|]. apply WV; lia.
Qed.

(** ** Building states *)

Definition node_none (n : node) : Prop := (forall v l s, node_data n v <> Some (LLit l s)) /\ is_dummy n = false.

Definition lookup_ok (d : db) : Prop :=
  (forall l id, lookup_lit (d_lookup d) l = Some id -> nth_error (d_nodes d) id = Some (NLeaf l)) /\
  (forall id, d_dummy d = Some id -> nth_error (d_nodes d) id = Some NDummy).

Definition built (g : ghost) (d : db) : Prop := wf_shape (skel (d_nodes d)) g /\ lookup_ok d.

(** growth of the database by new nodes, with new input variables among [vs] *)
Definition grow (vs : list N) (d : db) (g : ghost) (d' : db) (g' : ghost) : Prop :=
  (exists new, d_nodes d' = d_nodes d ++ new /\ Forall node_none new) /\
  gagree (length (d_nodes d)) g g' /\
  (forall v, gin g' v = true -> gin g v = true \/ In v vs).

Lemma grow_refl vs d g : grow vs d g d g.
Proof. split; [exists []; split; [now rewrite app_nil_r|constructor]|]. split; [apply gagree_refl|auto]. Qed.

Lemma grow_length vs d g d' g' : grow vs d g d' g' -> (length (d_nodes d) <= length (d_nodes d'))%nat.
Proof. intros ((new & -> & _) & _). rewrite app_length. lia. Qed.

Lemma grow_trans vs d1 g1 d2 g2 d3 g3 : grow vs d1 g1 d2 g2 -> grow vs d2 g2 d3 g3 -> grow vs d1 g1 d3 g3.
Proof.
  intros H1 H2. pose proof (grow_length _ _ _ _ _ H1) as Hlen.
  destruct H1 as ((n1 & E1 & F1) & A1 & I1), H2 as ((n2 & E2 & F2) & A2 & I2). split; [|split].
  - exists (n1 ++ n2). split; [rewrite E2, E1, app_assoc; reflexivity|]. apply Forall_app; auto.
  - eapply gagree_trans; eauto.
  - intros v H. destruct (I2 v H); auto.
Qed.

Lemma grow_incl vs vs' d g d' g' : incl vs vs' -> grow vs d g d' g' -> grow vs' d g d' g'.
Proof. intros Hi (A & B & C). split; [auto|]. split; [auto|]. intros v H. destruct (C v H); auto. Qed.

Lemma grow_nth vs d g d' g' id n : grow vs d g d' g' -> nth_error (d_nodes d) id = Some n -> nth_error (d_nodes d') id = Some n.
Proof. intros ((new & -> & _) & _) H. rewrite nth_error_app1; [auto|]. eapply nth_error_lt; eauto. Qed.

(** connections used when merging: full or weighted connections to real nodes *)
Definition con_good (ns : list node) (con : nodecon) : Prop :=
  simple_con con /\ (1 <= nc_mult con)%nat /\
  exists n, nth_error ns (nc_id con) = Some n /\ is_dummy n = false /\ In (node_max_val n) (node_vals n 1 None).

Lemma con_good_grow vs d g d' g' con : grow vs d g d' g' -> con_good (d_nodes d) con -> con_good (d_nodes d') con.
Proof. intros G (S & M & n & E & X). split; [auto|]. split; [auto|]. exists n. split; [eapply grow_nth; eauto|auto]. Qed.

Lemma con_good_lt ns con : con_good ns con -> (nc_id con < length ns)%nat.
Proof. intros (_ & _ & n & E & _). eapply nth_error_lt; eauto. Qed.

Lemma vals_pos ns g id n v : wf_shape (skel ns) g -> nth_error ns id = Some n -> In v (node_vals n 1 None) -> (1 <= v <= node_max_val n)%nat.
Proof.
  intros W Hn Hv. pose proof (wf_node _ _ W _ _ (nth_skel _ _ _ Hn)) as N.
  destruct n; cbn [node_vals node_max_val] in *.
  - destruct Hv as [<-|[]]; lia.
  - apply in_range_excl in Hv. lia.
  - apply filter_In in Hv as (Hv & _). cbn [erase node_ok] in N. destruct N as (_ & _ & _ & _ & _ & _ & _ & Hb & _).
    apply Hb. rewrite map_map. exact Hv.
  - destruct Hv.
Qed.

Lemma seq_sorted a n : StronglySorted lt (seq a n).
Proof.
  revert a; induction n as [|n IH]; intros a; cbn [seq]; constructor; [auto|].
  apply Forall_forall. intros x Hx. apply in_seq in Hx. lia.
Qed.

Lemma filter_sorted (p : nat -> bool) s : StronglySorted lt s -> StronglySorted lt (filter p s).
Proof.
  induction 1 as [|z s Hs IH Hf]; cbn [filter]; [constructor|]. destruct (p z); [|auto]. constructor; [auto|].
  rewrite Forall_forall in *. intros x Hx. apply filter_In in Hx as (Hx & _). auto.
Qed.

Lemma vals_sorted ns g id n : wf_shape (skel ns) g -> nth_error ns id = Some n -> StronglySorted lt (node_vals n 1 None).
Proof.
  intros W Hn. pose proof (wf_node _ _ W _ _ (nth_skel _ _ _ Hn)) as N. destruct n; cbn [node_vals].
  - repeat constructor.
  - apply seq_sorted.
  - apply filter_sorted. cbn [erase node_ok] in N. destruct N as (_ & _ & _ & _ & _ & _ & _ & _ & _ & _ & _ & N & _).
    rewrite map_map in N. exact N.
  - constructor.
Qed.

Definition cval (g : ghost) (a : asg) (con : nodecon) : nat := nc_map con (gV g a (nc_id con)).
Definition reach (g : ghost) (a : asg) (con : nodecon) (v : nat) : Prop := exists u, gT g a (nc_id con) u /\ v = nc_map con u.

Lemma cval_grow vs d g d' g' con a : grow vs d g d' g' -> (nc_id con < length (d_nodes d))%nat -> cval g' a con = cval g a con.
Proof. intros (_ & (A & _) & _) H. unfold cval. now rewrite A. Qed.
Lemma reach_grow vs d g d' g' con a v : grow vs d g d' g' -> (nc_id con < length (d_nodes d))%nat -> reach g' a con v <-> reach g a con v.
Proof. intros (_ & (_ & A & _) & _) H. unfold reach. split; intros (u & Hu & E); exists u; split; auto; apply A; auto. Qed.

(** *** Inserting an internal node *)
Lemma insert_internal g d n V T : built g d -> (match n with NUnit _ _ _ | NGeneral _ _ _ _ => True | _ => False end) -> node_none n ->
  let g' := gset g (length (d_nodes d)) V T (gin g) in
  node_ok (skel (d_nodes d) ++ [erase n]) g' (length (d_nodes d)) (erase n) ->
  (forall a, (V a <= node_max_val n)%nat) -> (forall a v, T a v -> (v <= V a)%nat) -> (forall a, T a 0%nat) -> (forall a, T a (V a)) ->
  (forall a a', (forall v, gin g v = true -> a v = a' v) -> V a = V a') ->
  db_insert d n = (mkDb (d_nodes d ++ [n]) (d_lookup d) (d_dummy d), length (d_nodes d)) /\
  built g' (mkDb (d_nodes d ++ [n]) (d_lookup d) (d_dummy d)) /\
  grow [] d g (mkDb (d_nodes d ++ [n]) (d_lookup d) (d_dummy d)) g'.
Proof.
  intros (W & L1 & L2) Hk Hnone g' Hok Hmax HT H0 HTV Hind.
  split; [destruct n; cbn in Hk; try tauto; reflexivity|].
  split; [split; [|split]|].
  - cbn [d_nodes]. rewrite skel_app. cbn [skel map].
    assert (E : length (d_nodes d) = length (skel (d_nodes d))) by (symmetry; apply skel_length).
    unfold g' in *. rewrite E in *.
    apply (wf_append (skel (d_nodes d)) g (erase n) V T (gin g)); auto.
    intros a. rewrite node_max_val_erase. auto.
  - cbn [d_nodes d_lookup]. intros l id H. apply L1 in H. rewrite nth_error_app1; [auto|eapply nth_error_lt; eauto].
  - cbn [d_nodes d_dummy]. intros id H. apply L2 in H. rewrite nth_error_app1; [auto|eapply nth_error_lt; eauto].
  - split; [exists [n]; split; [reflexivity|constructor; [auto|constructor]]|]. split; [apply gset_agree; auto|]. cbn. auto.
Qed.

Lemma insert_leaf g d l : built g d ->
  exists d' id g', db_insert d (NLeaf l) = (d', id) /\ built g' d' /\ grow [lvar l] d g d' g' /\
    nth_error (d_nodes d') id = Some (NLeaf l) /\ con_good (d_nodes d') (con_full id) /\
    (forall a, cval g' a (con_full id) = if lit_true a l then 1%nat else 0%nat) /\ gin g' (lvar l) = true.
Proof.
  intros B. assert (B' := B). destruct B' as (W & L1 & L2). cbn [db_insert].
  assert (Hfin : forall d' id g', built g' d' -> nth_error (d_nodes d') id = Some (NLeaf l) ->
     con_good (d_nodes d') (con_full id) /\ (forall a, cval g' a (con_full id) = if lit_true a l then 1%nat else 0%nat) /\ gin g' (lvar l) = true).
  { intros d' id g' (W' & _) Hn. split; [|split].
    - split; [repeat split|]. split; [cbn; lia|]. exists (NLeaf l). cbn. split; [exact Hn|]. split; [reflexivity|]. left; reflexivity.
    - intros a. unfold cval. rewrite simple_con_map by (repeat split). cbn [con_full nc_id nc_mult].
      apply nth_skel in Hn. apply (wf_node _ _ W') in Hn. cbn in Hn. destruct Hn as (_ & HV & _). rewrite HV. destruct (lit_true a l); reflexivity.
    - apply nth_skel in Hn. apply (wf_node _ _ W') in Hn. cbn in Hn. tauto. }
  destruct (lookup_lit (d_lookup d) l) as [id|] eqn:E.
  - exists d, id, g. pose proof (L1 _ _ E) as Hn. destruct (Hfin d id g B Hn) as (F1 & F2 & F3).
    split; [reflexivity|]. split; [auto|]. split; [apply grow_refl|]. auto.
  - set (k := length (d_nodes d)).
    set (V := fun a => if lit_true a l then 1%nat else 0%nat).
    set (g' := gset g k V (fun a v => (v <= V a)%nat) (fun v => gin g v || (v =? lvar l)%N)).
    set (d' := mkDb (d_nodes d ++ [NLeaf l]) ((l, k) :: d_lookup d) (d_dummy d)).
    assert (Hn : nth_error (d_nodes d') k = Some (NLeaf l)) by (cbn [d' d_nodes]; rewrite nth_error_app2 by (subst k; lia); subst k; rewrite Nat.sub_diag; reflexivity).
    assert (B' : built g' d').
    { split; [|split].
      - cbn [d_nodes d']. rewrite skel_app. cbn [skel map erase].
        unfold g', k. replace (length (d_nodes d)) with (length (skel (d_nodes d))) by apply skel_length.
        apply (wf_append (skel (d_nodes d)) g (NLeaf l)); auto.
        + intros v H. now rewrite H.
        + cbn [node_ok gset gin gV gT]. rewrite Nat.eqb_refl, N.eqb_refl, orb_true_r. split; [auto|]. split; [auto|reflexivity].
        + intros a. cbn. unfold V. destruct (lit_true a l); lia.
        + intros a. lia.
        + intros a a' H. unfold V, lit_true. rewrite (H (lvar l)); [reflexivity|]. rewrite N.eqb_refl. apply orb_true_r.
      - cbn [d_lookup lookup_lit d']. intros l' id. destruct (lit_eqb l l') eqn:El.
        + intros [= <-]. apply lit_eqb_eq in El. subst l'. exact Hn.
        + intros H. apply L1 in H. cbn [d' d_nodes]. rewrite nth_error_app1; [auto|eapply nth_error_lt; eauto].
      - cbn [d_dummy d']. intros id H. apply L2 in H. cbn [d' d_nodes]. rewrite nth_error_app1; [auto|eapply nth_error_lt; eauto]. }
    destruct (Hfin d' k g' B' Hn) as (F1 & F2 & F3).
    exists d', k, g'. split; [reflexivity|]. split; [exact B'|]. split; [|auto].
    split; [exists [NLeaf l]; split; [reflexivity|constructor; [split; [intros ? ? ? ?; discriminate|reflexivity]|constructor]]|].
    split; [apply gset_agree; intros v H; now rewrite H|]. cbn. intros v H. apply orb_true_iff in H as [H|H]; [auto|]. right. left. lia.
Qed.

(** *** [node_internal] and [merge_two] *)
Lemma repeat_none k l r : node_none (NUnit (repeat LNone k) l r).
Proof.
  split; [|reflexivity]. intros v x s H. cbn [node_data] in H. destruct (v =? 0)%nat; [discriminate|]. apply nth_error_In, repeat_spec in H. discriminate.
Qed.

Lemma all_none_lit_data lits v d : all_none lits -> lit_data lits v = Some d -> d = LNone.
Proof.
  induction lits as [|[x dx] lits IH]; intros H; cbn [lit_data]; [discriminate|].
  destruct (x =? v)%nat.
  - intros [= <-]. apply (H (x, dx)). now left.
  - apply IH. intros p Hp. apply H. now right.
Qed.

Lemma all_none_node lits m l r : all_none lits -> node_none (NGeneral lits m l r).
Proof. intros H. split; [|reflexivity]. intros v x s E. cbn [node_data] in E. apply (all_none_lit_data _ _ _ H) in E. discriminate. Qed.

Lemma con_good_ok ns con : con_good ns con -> con_ok ns con.
Proof.
  intros ((O & D & L) & M & n & E & _). split; [|exists n; split; [auto|lia]].
  unfold con_params. rewrite D, L. lia.
Qed.

Lemma con_ok_skel ns con : con_ok ns con -> con_ok (skel ns) con.
Proof.
  intros (P & n & E & O). split; [auto|]. exists (erase n). split; [now apply nth_skel|]. now rewrite node_len_erase.
Qed.

Lemma con_ok_app ns ns' con : con_ok ns con -> con_ok (ns ++ ns') con.
Proof.
  intros (P & n & E & O). split; [auto|]. exists n. split; [|auto]. rewrite nth_error_app1; [auto|eapply nth_error_lt; eauto].
Qed.

Lemma con_len_app ns ns' con : (nc_id con < length ns)%nat -> con_len (ns ++ ns') con = con_len ns con.
Proof. intros H. unfold con_len. now rewrite nth_error_app1. Qed.

Definition cmax (ns : list node) (con : nodecon) : nat :=
  match nth_error ns (nc_id con) with Some n => nc_map con (node_max_val n) | None => 0 end.

Definition unit_con (ns : list node) (con : nodecon) : Prop :=
  nc_mult con = 1%nat /\ exists n, nth_error ns (nc_id con) = Some n /\ is_unitlike n.

Lemma cmax_grow vs d g d' g' con : grow vs d g d' g' -> (nc_id con < length (d_nodes d))%nat -> cmax (d_nodes d') con = cmax (d_nodes d) con.
Proof.
  intros G H. unfold cmax. destruct (nth_error (d_nodes d) (nc_id con)) as [n|] eqn:E.
  - now rewrite (grow_nth _ _ _ _ _ _ _ G E).
  - apply nth_error_None in E. lia.
Qed.

Lemma unit_con_grow vs d g d' g' con : grow vs d g d' g' -> unit_con (d_nodes d) con -> unit_con (d_nodes d') con.
Proof. intros G (M & n & E & U). split; [auto|]. exists n. split; [eapply grow_nth; eauto|auto]. Qed.

Lemma ssorted_map_mul s m : (1 <= m)%nat -> StronglySorted lt s -> StronglySorted lt (map (fun v => v * m)%nat s).
Proof.
  intros Hm. induction 1 as [|z s Hs IH Hf]; cbn [map]; constructor; [auto|].
  rewrite Forall_forall in *. intros x Hx. apply in_map_iff in Hx as (y & <- & Hy). specialize (Hf y Hy). nia.
Qed.

(** The node made of two connections: its value is the sum, and every sum of reachable values is reachable *)
Lemma internal_ok g d l r : built g d -> con_good (d_nodes d) l -> con_good (d_nodes d) r -> 
  (nc_mult l = nc_mult r -> nc_mult l = 1%nat) ->
  exists n g', node_internal (d_nodes d) l r = Some n /\
    let d' := mkDb (d_nodes d ++ [n]) (d_lookup d) (d_dummy d) in
    let id := length (d_nodes d) in
    db_insert d n = (d', id) /\ built g' d' /\ grow [] d g d' g' /\ nth_error (d_nodes d') id = Some n /\
    is_dummy n = false /\ In (node_max_val n) (node_vals n 1 None) /\
    (forall a, gV g' a id = cval g a l + cval g a r)%nat /\
    (forall a x y, reach g a l x -> reach g a r y -> gT g' a id (x + y)%nat) /\
    node_max_val n = (cmax (d_nodes d) l + cmax (d_nodes d) r)%nat /\
    (unit_con (d_nodes d) l -> unit_con (d_nodes d) r -> is_unitlike n).
Proof.
  intros B Gl Gr Hm1. assert (B' := B). destruct B' as (W & L1 & L2).
  assert (Gl' := Gl). destruct Gl' as (Sl & Ml & nl & El & Dl & Xl). assert (Gr' := Gr). destruct Gr' as (Sr & Mr & nr & Er & Dr & Xr).
  unfold node_internal. rewrite El, Er. cbn [obind].
  set (k := length (d_nodes d)).
  pose proof (nth_error_lt _ _ _ El) as Kl. pose proof (nth_error_lt _ _ _ Er) as Kr. fold k in Kl, Kr.
  set (V := fun a => (cval g a l + cval g a r)%nat).
  assert (HV : forall a, V a = (nc_mult l * gV g a (nc_id l) + nc_mult r * gV g a (nc_id r))%nat).
  { intros a. unfold V, cval. rewrite !simple_con_map by auto. lia. }
  assert (Hind : forall a a', (forall v, gin g v = true -> a v = a' v) -> V a = V a').
  { intros a a' H. rewrite !HV. rewrite !(wf_indep _ _ W a a' H) by (rewrite skel_length; auto). reflexivity. }
  assert (Vl : forall a, (gV g a (nc_id l) <= node_max_val nl)%nat).
  { intros a. pose proof (wf_max _ _ W a _ _ (nth_skel _ _ _ El)) as H. now rewrite node_max_val_erase in H. }
  assert (Vr : forall a, (gV g a (nc_id r) <= node_max_val nr)%nat).
  { intros a. pose proof (wf_max _ _ W a _ _ (nth_skel _ _ _ Er)) as H. now rewrite node_max_val_erase in H. }
  assert (Cl : cmax (d_nodes d) l = (nc_mult l * node_max_val nl)%nat) by (unfold cmax; rewrite El, simple_con_map by auto; lia).
  assert (Cr : cmax (d_nodes d) r = (nc_mult r * node_max_val nr)%nat) by (unfold cmax; rewrite Er, simple_con_map by auto; lia).
  pose proof (vals_pos _ _ _ _ _ W El Xl) as Pl. pose proof (vals_pos _ _ _ _ _ W Er Xr) as Pr.
  assert (Hnl : nth_error (skel (d_nodes d) ++ [NDummy]) (nc_id l) = Some (erase nl) /\ True) by (split; [rewrite nth_error_app1 by (rewrite skel_length; auto); now apply nth_skel|auto]).
  assert (Rl : (grk g (nc_id l) < k)%nat) by (pose proof (wf_rk _ _ W (nc_id l)) as H; rewrite skel_length in H; apply H; auto).
  assert (Rr : (grk g (nc_id r) < k)%nat) by (pose proof (wf_rk _ _ W (nc_id r)) as H; rewrite skel_length in H; apply H; auto).
  assert (Rest : forall n V0 T, node_none n -> (match n with NUnit _ _ _ | NGeneral _ _ _ _ => True | _ => False end) ->
     (forall a, V0 a = V a) ->
     node_ok (skel (d_nodes d) ++ [erase n]) (gset g k V0 T (gin g)) k (erase n) ->
     node_max_val n = (cmax (d_nodes d) l + cmax (d_nodes d) r)%nat -> In (node_max_val n) (node_vals n 1 None) ->
     (forall a v, T a v -> (v <= V a)%nat) -> (forall a x y, reach g a l x -> reach g a r y -> T a (x + y)%nat) ->
     (unit_con (d_nodes d) l -> unit_con (d_nodes d) r -> is_unitlike n) ->
     exists g', let d' := mkDb (d_nodes d ++ [n]) (d_lookup d) (d_dummy d) in
     db_insert d n = (d', k) /\ built g' d' /\ grow [] d g d' g' /\ nth_error (d_nodes d') k = Some n /\
     is_dummy n = false /\ In (node_max_val n) (node_vals n 1 None) /\
     (forall a, gV g' a k = cval g a l + cval g a r)%nat /\
     (forall a x y, reach g a l x -> reach g a r y -> gT g' a k (x + y)%nat) /\
     node_max_val n = (cmax (d_nodes d) l + cmax (d_nodes d) r)%nat /\
     (unit_con (d_nodes d) l -> unit_con (d_nodes d) r -> is_unitlike n)).
  { intros n V0 T Hnone Hk HV0 Hok Hmax Hin HT1 HT2 Hu.
    assert (Rch0l : forall a, reach g a l 0) by (intros a; exists 0%nat; split; [apply (wf_T0 _ _ W); rewrite skel_length; auto|now rewrite simple_con_map by auto]).
    assert (Rch0r : forall a, reach g a r 0) by (intros a; exists 0%nat; split; [apply (wf_T0 _ _ W); rewrite skel_length; auto|now rewrite simple_con_map by auto]).
    destruct (insert_internal g d n V0 T B Hk Hnone) as (I1 & I2 & I3).
    - exact Hok.
    - intros a. rewrite HV0, HV, Hmax, Cl, Cr. specialize (Vl a). specialize (Vr a). nia.
    - intros a v. rewrite HV0. auto.
    - intros a. apply (HT2 a 0%nat 0%nat); auto.
    - intros a. rewrite HV0. unfold V. apply HT2; eexists; (split; [apply (wf_TV _ _ W); rewrite skel_length; auto|reflexivity]).
    - intros a a' H. rewrite !HV0. auto.
    - exists (gset g k V0 T (gin g)). cbn zeta. split; [exact I1|]. split; [exact I2|]. split; [exact I3|].
      split; [cbn [d_nodes]; rewrite nth_error_app2 by (subst k; lia); subst k; rewrite Nat.sub_diag; reflexivity|].
      split; [destruct n; cbn in *; tauto|]. split; [auto|].
      split; [intros a; cbn [gset gV]; rewrite Nat.eqb_refl; apply HV0|].
      split; [intros a x y Hx Hy; cbn [gset gT]; rewrite Nat.eqb_refl; auto|]. auto. }
  clear Hnl.
  assert (Hok1 : forall e, con_ok (skel (d_nodes d) ++ [e]) l) by (intros; apply con_ok_app, con_ok_skel, con_good_ok; auto).
  assert (Hok2 : forall e, con_ok (skel (d_nodes d) ++ [e]) r) by (intros; apply con_ok_app, con_ok_skel, con_good_ok; auto).
  assert (Hn1 : forall e, nth_error (skel (d_nodes d) ++ [e]) (nc_id l) = Some (erase nl)) by (intros; rewrite nth_error_app1 by (rewrite skel_length; auto); now apply nth_skel).
  assert (Hn2 : forall e, nth_error (skel (d_nodes d) ++ [e]) (nc_id r) = Some (erase nr)) by (intros; rewrite nth_error_app1 by (rewrite skel_length; auto); now apply nth_skel).
  destruct (negb (nc_mult l =? nc_mult r)%nat || is_general nl || is_general nr) eqn:Egen.
  - (* general node *)
    assert (Evl : con_vals nl l = map (fun v => v * nc_mult l)%nat (node_vals nl 1 None)).
    { unfold con_vals. destruct Sl as (O & D & L). rewrite L, O. cbn [Nat.add]. apply map_ext. intros v. apply simple_con_map. repeat split; auto. }
    assert (Evr : con_vals nr r = map (fun v => v * nc_mult r)%nat (node_vals nr 1 None)).
    { unfold con_vals. destruct Sr as (O & D & L). rewrite L, O. cbn [Nat.add]. apply map_ext. intros v. apply simple_con_map. repeat split; auto. }
    pose proof (ssorted_map_mul _ _ Ml (vals_sorted _ _ _ _ W El)) as SSl. rewrite <- Evl in SSl.
    pose proof (ssorted_map_mul _ _ Mr (vals_sorted _ _ _ _ W Er)) as SSr. rewrite <- Evr in SSr.
    rewrite (strictly_sorted_true _ SSl), (strictly_sorted_true _ SSr). cbn [assertb obind].
    destruct (general_new_ok (con_vals nl l) (con_vals nr r) l r SSl SSr) as (lits & m & E & Ss & An & Hm & Hb & Hin).
    { intros v Hv. rewrite Evl in Hv. apply in_map_iff in Hv as (u & <- & Hu). apply (vals_pos _ _ _ _ _ W El) in Hu. nia. }
    { intros v Hv. rewrite Evr in Hv. apply in_map_iff in Hv as (u & <- & Hu). apply (vals_pos _ _ _ _ _ W Er) in Hu. nia. }
    { left. rewrite Evl. destruct (node_vals nl 1 None); [destruct Xl|discriminate]. }
    assert (Inl : forall v, In v (con_vals nl l) <-> exists u, In u (node_vals nl 1 None) /\ v = (u * nc_mult l)%nat).
    { intros v. rewrite Evl, in_map_iff. split; intros (u & H1 & H2); exists u; auto. }
    assert (Inr : forall v, In v (con_vals nr r) <-> exists u, In u (node_vals nr 1 None) /\ v = (u * nc_mult r)%nat).
    { intros v. rewrite Evr, in_map_iff. split; intros (u & H1 & H2); exists u; auto. }
    assert (Hmax : m = (cmax (d_nodes d) l + cmax (d_nodes d) r)%nat).
    { rewrite Cl, Cr. apply Nat.le_antisymm.
      - apply Hin in Hm as [Hm|[Hm|(v & w & Hv & Hw & ->)]].
        + apply Inl in Hm as (u & Hu & ->). apply (vals_pos _ _ _ _ _ W El) in Hu. nia.
        + apply Inr in Hm as (u & Hu & ->). apply (vals_pos _ _ _ _ _ W Er) in Hu. nia.
        + apply Inl in Hv as (u & Hu & ->). apply Inr in Hw as (u' & Hu' & ->).
          apply (vals_pos _ _ _ _ _ W El) in Hu. apply (vals_pos _ _ _ _ _ W Er) in Hu'. nia.
      - apply Hb, Hin. right; right. exists (node_max_val nl * nc_mult l)%nat, (node_max_val nr * nc_mult r)%nat.
        split; [apply Inl; eauto|]. split; [apply Inr; eauto|]. lia. }
    set (T := fun a v => exists vl vr, gT g a (nc_id l) vl /\ gT g a (nc_id r) vr /\ v = (nc_map l vl + nc_map r vr)%nat).
    assert (HTle : forall a v, T a v -> (v <= V a)%nat).
    { intros a v (vl & vr & Tl & Tr & ->). rewrite HV, !simple_con_map by auto.
      apply (wf_T _ _ W) in Tl; [|rewrite skel_length; auto]. apply (wf_T _ _ W) in Tr; [|rewrite skel_length; auto]. nia. }
    destruct (Rest (NGeneral lits m l r) V T) as (g' & R).
    + apply all_none_node; auto.
    + exact Logic.I.
    + auto.
    + cbn [erase node_ok]. set (g' := gset g k V T (gin g)).
      split; [apply Hok1|]. split; [apply Hok2|]. split; [auto|]. split; [auto|].
      assert (El0 : (nc_id l =? k)%nat = false) by lia. assert (Er0 : (nc_id r =? k)%nat = false) by lia.
      split; [cbn [g' gset grk]; rewrite Nat.eqb_refl, El0; lia|].
      split; [cbn [g' gset grk]; rewrite Nat.eqb_refl, Er0; lia|].
      split. { exists (erase nl), (erase nr). split; [apply Hn1|]. split; [apply Hn2|]. rewrite !is_dummy_erase. auto. }
      rewrite map_map. cbn [fst].
      split; [exact Hb|].
      split; [intros a; cbn [g' gset gV]; rewrite Nat.eqb_refl, El0, Er0; reflexivity|].
      split; [intros a v; cbn [g' gset gT]; rewrite Nat.eqb_refl, El0, Er0; reflexivity|].
      split; [|split; [auto|split; [auto|]]].
      2: { intros v Hv. exists (erase nl), (erase nr). split; [apply Hn1|]. split; [apply Hn2|]. rewrite !node_vals_erase.
           apply Hin in Hv as [Hv|[Hv|(x & y & Hx & Hy & ->)]]; [left; now apply Inl|right; left; now apply Inr|].
           apply Inl in Hx as (x' & Hx & ->). apply Inr in Hy as (y' & Hy & ->). right; right. exists x', y'. auto. }
      intros a v Hv Hv1. cbn [g' gset gT] in Hv. rewrite Nat.eqb_refl in Hv. destruct Hv as (vl & vr & Tl & Tr & ->).
      rewrite !simple_con_map in * by auto. apply Hin.
      assert (Hvl : vl = 0%nat \/ In vl (node_vals nl 1 None)).
      { destruct (Nat.eq_dec vl 0); [auto|right]. pose proof (wf_node _ _ W _ _ (nth_skel _ _ _ El)) as N.
        pose proof (wf_T _ _ W a _ _ ltac:(rewrite skel_length; exact Kl) Tl) as HH. specialize (Vl a).
        destruct nl; cbn [erase node_ok node_vals node_max_val] in *.
        - cbn. left. lia.
        - apply in_range_excl. lia.
        - destruct N as (_ & _ & _ & _ & _ & _ & _ & _ & _ & _ & N & _). specialize (N a vl Tl ltac:(lia)). rewrite map_map in N. apply filter_In. split; [exact N|lia].
        - discriminate. }
      assert (Hvr : vr = 0%nat \/ In vr (node_vals nr 1 None)).
      { destruct (Nat.eq_dec vr 0); [auto|right]. pose proof (wf_node _ _ W _ _ (nth_skel _ _ _ Er)) as N.
        pose proof (wf_T _ _ W a _ _ ltac:(rewrite skel_length; exact Kr) Tr) as HH. specialize (Vr a).
        destruct nr; cbn [erase node_ok node_vals node_max_val] in *.
        - cbn. left. lia.
        - apply in_range_excl. lia.
        - destruct N as (_ & _ & _ & _ & _ & _ & _ & _ & _ & _ & N & _). specialize (N a vr Tr ltac:(lia)). rewrite map_map in N. apply filter_In. split; [exact N|lia].
        - discriminate. }
      destruct Hvl as [->|Hvl], Hvr as [->|Hvr]; [lia| | |].
      * right; left. apply Inr. exists vr. auto.
      * left. apply Inl. exists vl. split; [auto|lia].
      * right; right. exists (vl * nc_mult l)%nat, (vr * nc_mult r)%nat. split; [apply Inl; eauto|]. split; [apply Inr; eauto|]. lia.
    + exact Hmax.
    + cbn [node_vals node_max_val]. apply filter_In. split; [exact Hm|]. apply Hb in Hm. lia.
    + exact HTle.
    + intros a x y (u & Hu & ->) (w & Hw & ->). exists u, w. auto.
    + intros (U1 & n1 & E1 & Ul) (U2 & n2 & E2 & Ur). exfalso.
      assert (n1 = nl) as -> by congruence. assert (n2 = nr) as -> by congruence.
      rewrite U1, U2 in Egen. destruct nl, nr; cbn in *; try tauto; discriminate.
    + exists (NGeneral lits m l r), g'. split; [exact E|]. exact R.
  - (* unit node *)
    apply orb_false_iff in Egen as (Egen & G2). apply orb_false_iff in Egen as (Em & G1).
    assert (Em' : nc_mult l = nc_mult r) by (destruct (Nat.eqb_spec (nc_mult l) (nc_mult r)); [auto|discriminate]).
    assert (Ml1 : nc_mult l = 1%nat) by auto. assert (Mr1 : nc_mult r = 1%nat) by congruence.
    rewrite Ml1, Mr1. cbn [Nat.eqb andb assertb obind].
    assert (CLl : con_len (d_nodes d) l = Some (node_max_val nl)).
    { unfold con_len. rewrite El. cbn [obind]. destruct Sl as (O & D & L). rewrite O, D, L, Nat.sub_0_r, Nat.div_1_r.
      f_equal. destruct nl; try reflexivity. discriminate. }
    assert (CLr : con_len (d_nodes d) r = Some (node_max_val nr)).
    { unfold con_len. rewrite Er. cbn [obind]. destruct Sr as (O & D & L). rewrite O, D, L, Nat.sub_0_r, Nat.div_1_r.
      f_equal. destruct nr; try reflexivity. discriminate. }
    rewrite CLl, CLr. cbn [obind].
    set (n := NUnit (repeat LNone (node_max_val nl + node_max_val nr)) l r).
    set (T := fun a v => (v <= V a)%nat).
    assert (Hml : node_max_val n = (cmax (d_nodes d) l + cmax (d_nodes d) r)%nat).
    { cbn [n node_max_val]. rewrite repeat_length, Cl, Cr, Ml1, Mr1. lia. }
    destruct (Rest n V T) as (g' & R).
    + apply repeat_none.
    + exact Logic.I.
    + auto.
    + cbn [n erase node_ok]. set (g' := gset g k V T (gin g)).
      split; [apply Hok1|]. split; [apply Hok2|]. split; [auto|]. split; [auto|].
      assert (El0 : (nc_id l =? k)%nat = false) by lia. assert (Er0 : (nc_id r =? k)%nat = false) by lia.
      split; [cbn [g' gset grk]; rewrite Nat.eqb_refl, El0; lia|].
      split; [cbn [g' gset grk]; rewrite Nat.eqb_refl, Er0; lia|].
      split. { exists (erase nl), (erase nr). split; [apply Hn1|]. split; [apply Hn2|]. rewrite !is_dummy_erase, !is_general_erase. auto. }
      split. { exists (node_max_val nl), (node_max_val nr). rewrite !con_len_app by (rewrite skel_length; auto). rewrite !con_len_skel.
               split; [auto|]. split; [auto|]. rewrite map_length, repeat_length. reflexivity. }
      split; [intros a; cbn [g' gset gV]; rewrite Nat.eqb_refl, El0, Er0; reflexivity|].
      intros a v; cbn [g' gset gT gV]; rewrite Nat.eqb_refl; reflexivity.
    + exact Hml.
    + cbn [n node_vals node_max_val]. apply in_range_excl. rewrite repeat_length. lia.
    + auto.
    + intros a x y (u & Hu & ->) (w & Hw & ->). unfold T, V, cval.
      apply (wf_T _ _ W) in Hu; [|rewrite skel_length; auto]. apply (wf_T _ _ W) in Hw; [|rewrite skel_length; auto].
      rewrite !simple_con_map by auto. nia.
    + intros _ _. exact Logic.I.
    + exists n, g'. split; [reflexivity|]. exact R.
Qed.

Lemma merge_two_ok g d l r : built g d -> con_good (d_nodes d) l -> con_good (d_nodes d) r ->
  exists d' con g', merge_two d l r = Some (d', con) /\ built g' d' /\ grow [] d g d' g' /\ con_good (d_nodes d') con /\
    (forall a, cval g' a con = cval g a l + cval g a r)%nat /\
    (forall a x y, reach g a l x -> reach g a r y -> reach g' a con (x + y)%nat) /\
    cmax (d_nodes d') con = (cmax (d_nodes d) l + cmax (d_nodes d) r)%nat /\
    (unit_con (d_nodes d) l -> unit_con (d_nodes d) r -> unit_con (d_nodes d') con).
Proof.
  intros B Gl Gr. unfold merge_two. assert (Gl' := Gl). destruct Gl' as (Sl & Ml & nl & El & Xl). assert (Gr' := Gr). destruct Gr' as (Sr & Mr & nr & Er & Xr).
  destruct ((1 <? nc_mult l) && (nc_mult l =? nc_mult r))%nat eqn:Eq.
  - apply andb_true_iff in Eq as (E1 & E2). assert (Em : nc_mult l = nc_mult r) by (apply Nat.eqb_eq; auto).
    set (w := nc_mult l) in *.
    set (l1 := con_reweight l 1). set (r1 := con_reweight r 1).
    assert (S1 : simple_con l1) by (destruct Sl; repeat split; tauto).
    assert (S2 : simple_con r1) by (destruct Sr; repeat split; tauto).
    assert (Gl1 : con_good (d_nodes d) l1) by (split; [auto|]; split; [cbn; lia|]; exists nl; auto).
    assert (Gr1 : con_good (d_nodes d) r1) by (split; [auto|]; split; [cbn; lia|]; exists nr; auto).
    destruct (internal_ok g d l1 r1 B Gl1 Gr1 ltac:(auto)) as (n & g' & E & Ei & B' & G' & Hn & Dn & In' & HV & HT & Hmx & Hu).
    rewrite E. cbn [obind]. rewrite Ei. unfold con_weighted. replace (w =? 0)%nat with false by lia. cbn [obind].
    set (k := length (d_nodes d)) in *. set (con := mkCon k 0 1 w None).
    assert (Sc : simple_con con) by (repeat split).
    eexists _, con, g'. split; [reflexivity|]. split; [exact B'|]. split; [exact G'|].
    split; [split; [auto|]; split; [cbn; lia|]; exists n; auto|].
    assert (Cl1 : forall v, nc_map l v = (nc_map l1 v * w)%nat) by (intros v; rewrite !simple_con_map by auto; cbn [l1 con_reweight nc_mult]; unfold w; lia).
    assert (Cr1 : forall v, nc_map r v = (nc_map r1 v * w)%nat) by (intros v; rewrite !simple_con_map by auto; cbn [r1 con_reweight nc_mult]; rewrite Em; lia).
    split; [|split; [|split]].
    + intros a. unfold cval at 1. rewrite (simple_con_map con) by auto. cbn [con nc_id nc_mult]. rewrite HV.
      unfold cval. rewrite Cl1, Cr1. cbn [l1 r1 con_reweight nc_id]. lia.
    + intros a x y (u & Hu' & ->) (v & Hv' & ->). exists (nc_map l1 u + nc_map r1 v)%nat. split.
      * cbn [con nc_id]. apply HT; [exists u|exists v]; auto.
      * rewrite (simple_con_map con) by auto. cbn [con nc_mult]. rewrite Cl1, Cr1. lia.
    + unfold cmax at 1. cbn [con nc_id]. rewrite Hn. rewrite (simple_con_map con) by auto. cbn [con nc_mult]. rewrite Hmx.
      unfold cmax. cbn [l1 r1 con_reweight nc_id]. rewrite El, Er, Cl1, Cr1. lia.
    + intros (U & _). exfalso. cbn in U. lia.
  - destruct (internal_ok g d l r B Gl Gr) as (n & g' & E & Ei & B' & G' & Hn & Dn & In' & HV & HT & Hmx & Hu).
    { intros HH. rewrite HH, Nat.eqb_refl in Eq. lia. }
    rewrite E. cbn [obind]. rewrite Ei. set (k := length (d_nodes d)) in *.
    assert (Sc : simple_con (con_full k)) by (repeat split).
    eexists _, (con_full k), g'. split; [reflexivity|]. split; [exact B'|]. split; [exact G'|].
    split; [split; [auto|]; split; [cbn; lia|]; exists n; auto|].
    split; [|split; [|split]].
    + intros a. unfold cval at 1. rewrite simple_con_map by auto. cbn [con_full nc_id nc_mult]. rewrite HV. lia.
    + intros a x y Hx Hy. exists (x + y)%nat. split; [cbn; apply HT; auto|]. rewrite simple_con_map by auto. cbn [con_full nc_mult]. lia.
    + unfold cmax at 1. cbn [con_full nc_id]. rewrite Hn. rewrite simple_con_map by auto. cbn [con_full nc_mult]. lia.
    + intros U1 U2. split; [reflexivity|]. exists n. cbn. auto.
Qed.
