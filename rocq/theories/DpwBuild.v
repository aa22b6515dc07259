(** * Building the structure of the dynamic polynomial watchdog *)

From Coq Require Import List Bool NArith ZArith Lia Arith Sorted Permutation.
From Coq Require Import ZifyBool ZifyNat ZifyN.
From Verif Require Import Spec BoundSpec Types Atomics NodeDb TreeSpec TotDb Totalizer Maps Base TotDbInv TotDbUnit TotDbDefine TotDbGeneral TotDbBuild TotDbGrow TotDbMerge TotWeighted TotDbHist TotalizerProofs DbWorld Dpw DpwRef.
Import ListNotations.

(** ** Growth of the database that may include dummy nodes *)
Definition growd (vs : list N) (d : db) (g : ghost) (d' : db) (g' : ghost) : Prop :=
  (exists new, d_nodes d' = d_nodes d ++ new /\ Forall (fun n => forall v l s, node_data n v <> Some (LLit l s)) new) /\
  gagree (length (d_nodes d)) g g' /\
  (forall v, gin g' v = true -> gin g v = true \/ In v vs).

Lemma growd_of_grow vs d g d' g' : grow vs d g d' g' -> growd vs d g d' g'.
Proof.
  intros ((new & E & F) & R). split; [|exact R]. exists new. split; [auto|]. eapply Forall_impl; [|exact F]. intros n (H & _). exact H.
Qed.

Lemma growd_refl vs d g : growd vs d g d g.
Proof. apply growd_of_grow, grow_refl. Qed.

Lemma growd_length vs d g d' g' : growd vs d g d' g' -> (length (d_nodes d) <= length (d_nodes d'))%nat.
Proof. intros ((new & -> & _) & _). rewrite app_length. lia. Qed.

Lemma growd_trans vs d1 g1 d2 g2 d3 g3 : growd vs d1 g1 d2 g2 -> growd vs d2 g2 d3 g3 -> growd vs d1 g1 d3 g3.
Proof.
  intros H1 H2. pose proof (growd_length _ _ _ _ _ H1) as Hlen.
  destruct H1 as ((n1 & E1 & F1) & A1 & I1), H2 as ((n2 & E2 & F2) & A2 & I2). split; [|split].
  - exists (n1 ++ n2). split; [rewrite E2, E1, app_assoc; reflexivity|]. apply Forall_app; auto.
  - eapply gagree_trans; eauto.
  - intros v H. destruct (I2 v H); auto.
Qed.

Lemma growd_incl vs vs' d g d' g' : incl vs vs' -> growd vs d g d' g' -> growd vs' d g d' g'.
Proof. intros Hi (A & B & C). split; [auto|]. split; [auto|]. intros v H. destruct (C v H); auto. Qed.

Lemma growd_nth vs d g d' g' id n : growd vs d g d' g' -> nth_error (d_nodes d) id = Some n -> nth_error (d_nodes d') id = Some n.
Proof. intros ((new & -> & _) & _) H. rewrite nth_error_app1; [auto|]. eapply nth_error_lt; eauto. Qed.

Lemma con_good_growd vs d g d' g' con : growd vs d g d' g' -> con_good (d_nodes d) con -> con_good (d_nodes d') con.
Proof. intros G (S & M & n & E & X). split; [auto|]. split; [auto|]. exists n. split; [eapply growd_nth; eauto|auto]. Qed.
Lemma unit_con_growd vs d g d' g' con : growd vs d g d' g' -> unit_con (d_nodes d) con -> unit_con (d_nodes d') con.
Proof. intros G (M & n & E & U). split; [auto|]. exists n. split; [eapply growd_nth; eauto|auto]. Qed.
Lemma gV_growd vs d g d' g' id a : growd vs d g d' g' -> (id < length (d_nodes d))%nat -> gV g' a id = gV g a id.
Proof. intros (_ & (A & _) & _) H. auto. Qed.
Lemma cval_growd vs d g d' g' con a : growd vs d g d' g' -> (nc_id con < length (d_nodes d))%nat -> cval g' a con = cval g a con.
Proof. intros G H. unfold cval. erewrite gV_growd; eauto. Qed.
Lemma cmax_growd vs d g d' g' con : growd vs d g d' g' -> (nc_id con < length (d_nodes d))%nat -> cmax (d_nodes d') con = cmax (d_nodes d) con.
Proof.
  intros G H. unfold cmax. destruct (nth_error (d_nodes d) (nc_id con)) as [n|] eqn:E.
  - now rewrite (growd_nth _ _ _ _ _ _ _ G E).
  - apply nth_error_None in E. lia.
Qed.

Lemma data_newd ns new id val l s : Forall (fun n => forall v l s, node_data n v <> Some (LLit l s)) new ->
  data (ns ++ new) id val = Some (LLit l s) -> (id < length ns)%nat /\ data ns id val = Some (LLit l s).
Proof.
  intros F H. unfold data in *. destruct (Nat.lt_ge_cases id (length ns)) as [L|L].
  - rewrite nth_error_app1 in H by auto. auto.
  - exfalso. rewrite nth_error_app2 in H by auto. destruct (nth_error new (id - length ns)) as [n|] eqn:E; [|discriminate].
    rewrite Forall_forall in F. exact (F n (nth_error_In _ _ E) _ _ _ H).
Qed.

Lemma inv_growd GF GU GL g ow next vs d g' d' : inv GF GU GL g ow (mkTst (d_nodes d) next []) -> built g' d' -> growd vs d g d' g' ->
  (forall v, In v vs -> (v < next)%N /\ ow v = None) ->
  inv GF GU GL g' ow (mkTst (d_nodes d') next []).
Proof.
  intros [W O1 O2 I1 C If Oif Vs] (W' & L1' & L2') ((new & En & Fn) & (AV & AT & AR & AI) & GI) Hv.
  cbn [t_nodes t_next t_cls] in *. rewrite app_nil_r in *. constructor; cbn [t_nodes t_next t_cls]; rewrite ?app_nil_r, ?En in *; auto.
  - intros id val l s H. apply data_newd in H as (_ & H); auto. eauto.
  - intros v id val H. destruct (O2 v id val H) as (H1 & H2 & H3). split; [auto|]. split; [|rewrite app_length; lia].
    destruct (gin g' v) eqn:E; [|reflexivity]. apply GI in E as [E|E]; [congruence|]. apply Hv in E. destruct E. congruence.
  - intros v H. apply GI in H as [H|H]; [auto|]. now apply Hv.
  - intros a Ha. apply C. intros v id val H. rewrite (Ha v id val H). rewrite AV; [auto|]. now apply O2 in H.
  - intros a id val l s S H HA HT. apply data_newd in H as (Hl & H); auto. apply (If a id val l s); auto. apply AT; auto.
  - intros ND a id val l s S H HA HT. apply data_newd in H as (Hl & H); auto. rewrite AV by auto. apply (Oif) with (l := l) (s := s); auto.
    intros i Hi. apply (ND i). rewrite nth_error_app1; [auto|]. eapply nth_error_lt; eauto.
  - intros c l Hc Hl. destruct (Vs c l Hc Hl) as [H|H]; auto.
Qed.

Lemma dinv_growd {A} (ilit : A -> lit) w d g ow vs d' g' : dinv ilit w d g ow -> built g' d' -> growd vs d g d' g' ->
  (forall v, In v vs -> exists x, In x (w_in w) /\ lvar (ilit x) = v) -> dinv ilit w d' g' ow.
Proof.
  intros [J1 J2 J8 J9 J10 J11] B G Hv. constructor; auto.
  - eapply inv_growd; [exact J1|exact B|exact G|]. intros v H. apply Hv in H as (x & Hx & <-). destruct (J9 x Hx) as (H1 & H2). split; [auto|].
    destruct (ow (lvar (ilit x))) eqn:E; [|reflexivity]. exfalso. eauto.
  - intros v H. destruct G as (_ & _ & G). apply G in H as [H|H]; eauto.
Qed.

Lemma insert_dummy g d : built g d -> exists d' id g', db_insert d NDummy = (d', id) /\ built g' d' /\ growd [] d g d' g' /\
  nth_error (d_nodes d') id = Some NDummy.
Proof.
  intros B. assert (B' := B). destruct B' as (W & L1 & L2). cbn [db_insert]. destruct (d_dummy d) as [id|] eqn:E.
  - exists d, id, g. split; [auto|]. split; [auto|]. split; [apply growd_refl|]. auto.
  - set (k := length (d_nodes d)).
    set (g' := gset g k (fun _ => 0%nat) (fun _ v => v = 0%nat) (gin g)).
    exists (mkDb (d_nodes d ++ [NDummy]) (d_lookup d) (Some k)), k, g'.
    assert (Hk : nth_error (d_nodes d ++ [NDummy]) k = Some NDummy) by (rewrite nth_error_app2 by (subst k; lia); subst k; rewrite Nat.sub_diag; reflexivity).
    split; [reflexivity|]. split; [|split].
    + split; [|split]; cbn [d_nodes d_lookup d_dummy].
      * rewrite skel_app. cbn [skel map erase]. unfold g', k. replace (length (d_nodes d)) with (length (skel (d_nodes d))) by apply skel_length.
        apply (wf_append (skel (d_nodes d)) g NDummy); auto; cbn [node_max_val]; try lia; try (intros; lia).
        cbn [node_ok gset gV gT]. rewrite Nat.eqb_refl. split; [auto|reflexivity].
      * intros l id H. apply L1 in H. rewrite nth_error_app1; [auto|eapply nth_error_lt; eauto].
      * intros id [= <-]. exact Hk.
    + split; [exists [NDummy]; split; [reflexivity|constructor; [intros v l s; discriminate|constructor]]|].
      split; [apply gset_agree; auto|]. cbn. auto.
    + exact Hk.
Qed.

(** A unit node whose right connection may divide *)
Lemma internal_div g d l r nr : built g d -> con_good (d_nodes d) l -> unit_con (d_nodes d) l ->
  nc_offset r = 0%nat -> (1 <= nc_div r)%nat -> nc_mult r = 1%nat -> nc_limit r = None ->
  nth_error (d_nodes d) (nc_id r) = Some nr -> is_general nr = false ->
  exists n g', node_internal (d_nodes d) l r = Some n /\
    let d' := mkDb (d_nodes d ++ [n]) (d_lookup d) (d_dummy d) in
    let id := length (d_nodes d) in
    db_insert d n = (d', id) /\ built g' d' /\ growd [] d g d' g' /\ nth_error (d_nodes d') id = Some n /\ is_unitlike n /\
    (forall a, gV g' a id = cval g a l + gV g a (nc_id r) / nc_div r)%nat /\
    node_max_val n = (cmax (d_nodes d) l + node_max_val nr / nc_div r)%nat.
Proof.
  intros B Gl (Ml1 & nl0 & El0 & Ul) Or Dr Mr Lr Er Gnr. assert (B' := B). destruct B' as (W & L1 & L2).
  assert (Gl' := Gl). destruct Gl' as (Sl & Ml & nl & El & Dl & Xl). assert (nl0 = nl) as -> by congruence.
  unfold node_internal. rewrite El, Er. cbn [obind].
  set (k := length (d_nodes d)).
  pose proof (nth_error_lt _ _ _ El) as Kl. pose proof (nth_error_lt _ _ _ Er) as Kr. fold k in Kl, Kr.
  assert (Gnl : is_general nl = false) by (destruct nl; cbn in *; tauto).
  rewrite Ml1, Mr, Gnl, Gnr. cbn [Nat.eqb negb orb andb assertb obind].
  assert (Lnr : node_len nr = node_max_val nr) by (destruct nr; try reflexivity; discriminate).
  assert (CLl : con_len (d_nodes d) l = Some (node_max_val nl)).
  { unfold con_len. rewrite El. cbn [obind]. destruct Sl as (O & D & L). rewrite O, D, L, Nat.sub_0_r, Nat.div_1_r.
    f_equal. destruct nl; try reflexivity. discriminate. }
  assert (CLr : con_len (d_nodes d) r = Some (node_max_val nr / nc_div r)%nat).
  { unfold con_len. rewrite Er. cbn [obind]. rewrite Or, Lr, Nat.sub_0_r, Lnr. reflexivity. }
  rewrite CLl, CLr. cbn [obind].
  assert (Rmap : forall v, nc_map r v = (v / nc_div r)%nat).
  { intros v. unfold nc_map. rewrite Or, Lr, Mr, Nat.sub_0_r, Nat.mul_1_r. destruct (Nat.leb_spec v 0); [|reflexivity].
    replace v with 0%nat by lia. symmetry. apply Nat.div_0_l. lia. }
  set (n := NUnit (repeat LNone (node_max_val nl + node_max_val nr / nc_div r)) l r).
  set (V := fun a => (cval g a l + gV g a (nc_id r) / nc_div r)%nat).
  set (T := fun a v => (v <= V a)%nat).
  assert (Vl : forall a, (gV g a (nc_id l) <= node_max_val nl)%nat).
  { intros a. pose proof (wf_max _ _ W a _ _ (nth_skel _ _ _ El)) as H. now rewrite node_max_val_erase in H. }
  assert (Vr : forall a, (gV g a (nc_id r) <= node_max_val nr)%nat).
  { intros a. pose proof (wf_max _ _ W a _ _ (nth_skel _ _ _ Er)) as H. now rewrite node_max_val_erase in H. }
  assert (Cl : forall a, cval g a l = gV g a (nc_id l)) by (intros a; unfold cval; rewrite simple_con_map by auto; rewrite Ml1; lia).
  assert (Cml : cmax (d_nodes d) l = node_max_val nl) by (unfold cmax; rewrite El, simple_con_map by auto; rewrite Ml1; lia).
  assert (Hmax : node_max_val n = (cmax (d_nodes d) l + node_max_val nr / nc_div r)%nat) by (cbn [n node_max_val]; rewrite repeat_length, Cml; reflexivity).
  assert (Hind : forall a a', (forall v, gin g v = true -> a v = a' v) -> V a = V a').
  { intros a a' H. unfold V. rewrite !Cl. rewrite !(wf_indep _ _ W a a' H) by (rewrite skel_length; auto). reflexivity. }
  set (g' := gset g k V T (gin g)).
  assert (Hok : node_ok (skel (d_nodes d) ++ [erase n]) g' k (erase n)).
  { cbn [n erase node_ok].
    split; [apply con_ok_app, con_ok_skel, con_good_ok; auto|].
    split. { apply con_ok_app, con_ok_skel. split; [unfold con_params; rewrite Mr, Lr; lia|]. exists nr. split; [auto|lia]. }
    split; [auto|]. split; [auto|].
    assert (El1 : (nc_id l =? k)%nat = false) by lia. assert (Er1 : (nc_id r =? k)%nat = false) by lia.
    assert (Rl : (grk g (nc_id l) < k)%nat) by (pose proof (wf_rk _ _ W (nc_id l)) as H; rewrite skel_length in H; apply H; auto).
    assert (Rr : (grk g (nc_id r) < k)%nat) by (pose proof (wf_rk _ _ W (nc_id r)) as H; rewrite skel_length in H; apply H; auto).
    split; [cbn [g' gset grk]; rewrite Nat.eqb_refl, El1; lia|].
    split; [cbn [g' gset grk]; rewrite Nat.eqb_refl, Er1; lia|].
    split. { exists (erase nl), (erase nr). split; [rewrite nth_error_app1 by (rewrite skel_length; auto); now apply nth_skel|].
             split; [rewrite nth_error_app1 by (rewrite skel_length; auto); now apply nth_skel|]. rewrite !is_dummy_erase, !is_general_erase. auto. }
    split. { exists (node_max_val nl), (node_max_val nr / nc_div r)%nat. rewrite !con_len_app by (rewrite skel_length; auto). rewrite !con_len_skel.
             split; [auto|]. split; [auto|]. rewrite map_length, repeat_length. reflexivity. }
    split; [intros a; cbn [g' gset gV]; rewrite Nat.eqb_refl, El1, Er1, Rmap; reflexivity|].
    intros a v; cbn [g' gset gT gV]; rewrite Nat.eqb_refl; reflexivity. }
  destruct (insert_internal g d n V T B Logic.I) as (I1 & I2 & I3).
  - apply repeat_none.
  - exact Hok.
  - intros a. rewrite Hmax, Cml. unfold V. rewrite Cl. specialize (Vl a). specialize (Vr a).
    pose proof (Nat.div_le_mono _ _ (nc_div r) ltac:(lia) Vr). lia.
  - auto.
  - intros a. unfold T. lia.
  - intros a. unfold T. lia.
  - exact Hind.
  - exists n, g'. cbn zeta. split; [reflexivity|]. split; [exact I1|]. split; [exact I2|]. split; [apply growd_of_grow; exact I3|].
    split; [cbn [d_nodes]; rewrite nth_error_app2 by (subst k; lia); subst k; rewrite Nat.sub_diag; reflexivity|].
    split; [exact Logic.I|]. split; [|exact Hmax].
    intros a; cbn [g' gset gV]; fold k; rewrite Nat.eqb_refl; reflexivity.
Qed.

(** ** Sums over connections, top buckets and the queue *)
Definition tsum (f : nodecon -> nat) (cs : list nodecon) : nat := list_sum (map f cs).
Fixpoint bsum (f : nodecon -> nat) (tops : list (list nodecon)) : nat :=
  match tops with [] => 0 | cs :: r => tsum f cs + 2 * bsum f r end.
Definition qsum (f : nodecon -> nat) (s : nat) (q : wqueue) : nat :=
  list_sum (map (fun e => (fst e / 2 ^ s) * tsum f (snd e))%nat q).

Lemma tsum_app f l1 l2 : tsum f (l1 ++ l2) = (tsum f l1 + tsum f l2)%nat.
Proof. unfold tsum. now rewrite map_app, list_sum_app. Qed.
Lemma tsum_ext f h cs : (forall c, In c cs -> f c = h c) -> tsum f cs = tsum h cs.
Proof. intros H. unfold tsum. f_equal. now apply map_ext_in. Qed.
Lemma tsum_perm f l1 l2 : Permutation l1 l2 -> tsum f l1 = tsum f l2.
Proof. unfold tsum. induction 1; cbn [map]; rewrite ?list_sum_app; cbn [list_sum fold_right] in *; unfold list_sum in *; cbn [fold_right]; lia. Qed.
Lemma bsum_ext f h tops : (forall cs c, In cs tops -> In c cs -> f c = h c) -> bsum f tops = bsum h tops.
Proof.
  induction tops as [|cs tops IH]; intros H; cbn [bsum]; [reflexivity|]. rewrite IH by (intros; eapply H; [right|]; eauto).
  rewrite (tsum_ext f h cs); [reflexivity|]. intros c Hc. eapply H; [left; reflexivity|auto].
Qed.
Lemma bsum_app f l1 l2 : bsum f (l1 ++ l2) = (bsum f l1 + 2 ^ length l1 * bsum f l2)%nat.
Proof. induction l1 as [|cs l1 IH]; cbn [app bsum length Nat.pow]; [lia|]. rewrite IH. lia. Qed.
Lemma bsum_repeat f n : bsum f (repeat [] n) = 0%nat.
Proof. induction n as [|n IH]; cbn [repeat bsum]; [reflexivity|]. rewrite IH. reflexivity. Qed.
Lemma qsum_cons f s w cs q : qsum f s ((w, cs) :: q) = ((w / 2 ^ s) * tsum f cs + qsum f s q)%nat.
Proof. reflexivity. Qed.
Lemma qsum_ext f h s q : (forall w cs c, In (w, cs) q -> In c cs -> f c = h c) -> qsum f s q = qsum h s q.
Proof.
  intros H. unfold qsum. f_equal. apply map_ext_in. intros (w & cs) Hw. cbn [fst snd]. f_equal. apply tsum_ext. intros c Hc. eapply H; eauto.
Qed.
Lemma qsum_push f s q w c : qsum f s (q_push q w c) = (qsum f s q + (w / 2 ^ s) * f c)%nat.
Proof.
  induction q as [|(k & cs) q IH]; cbn [q_push].
  - rewrite qsum_cons. unfold tsum, qsum. cbn [map list_sum fold_right]. lia.
  - destruct (Nat.eqb_spec k w) as [->|Hne].
    + rewrite !qsum_cons, tsum_app. unfold tsum at 2. cbn [map list_sum fold_right]. lia.
    + destruct (k <? w)%nat; rewrite !qsum_cons; [unfold tsum at 1; cbn [map list_sum fold_right]; lia|]. rewrite IH. lia.
Qed.

(** connections as they occur while building *)
Definition ucon (ns : list node) (c : nodecon) : Prop := con_good ns c /\ unit_con ns c.
Lemma ucon_growd vs d g d' g' c : growd vs d g d' g' -> ucon (d_nodes d) c -> ucon (d_nodes d') c.
Proof. intros G (H1 & H2). split; [eapply con_good_growd; eauto|eapply unit_con_growd; eauto]. Qed.
Lemma ucon_lt ns c : ucon ns c -> (nc_id c < length ns)%nat.
Proof. intros (H & _). eapply con_good_lt; eauto. Qed.
Lemma ucon_max ns c g : wf_shape (skel ns) g -> ucon ns c -> (1 <= cmax ns c)%nat.
Proof.
  intros W ((S & M & n & E & D & X) & _). unfold cmax. rewrite E, simple_con_map by auto.
  pose proof (vals_pos _ _ _ _ _ W E X). nia.
Qed.
Lemma ucon_con_len ns c : ucon ns c -> con_len ns c = Some (cmax ns c).
Proof.
  intros ((S & M & n & E & D & X) & U1 & n' & E' & U). assert (n' = n) as -> by congruence.
  unfold con_len, cmax. rewrite E. cbn [obind]. rewrite simple_con_map by auto. destruct S as (O & Dv & L). rewrite O, Dv, L, U1, Nat.sub_0_r, Nat.div_1_r, Nat.mul_1_r.
  f_equal. destruct n; cbn in *; try tauto; reflexivity.
Qed.

Definition uok (ns : list node) (cs : list nodecon) : Prop := Forall (ucon ns) cs.
Record qok (ns : list node) (q : wqueue) : Prop := mkQok {
  qk_cons : Forall (fun e => (1 <= fst e)%nat /\ snd e <> [] /\ uok ns (snd e)) q;
  qk_sorted : StronglySorted (fun e e' => fst e' < fst e)%nat q
}.

Lemma uok_growd vs d g d' g' cs : growd vs d g d' g' -> uok (d_nodes d) cs -> uok (d_nodes d') cs.
Proof. intros G. apply Forall_impl. intros c. eapply ucon_growd; eauto. Qed.
Lemma qok_growd vs d g d' g' q : growd vs d g d' g' -> qok (d_nodes d) q -> qok (d_nodes d') q.
Proof.
  intros G [H1 H2]. constructor; [|auto]. eapply Forall_impl; [|exact H1]. intros e (A & B & C). split; [auto|]. split; [auto|]. eapply uok_growd; eauto.
Qed.
Lemma tops_growd vs d g d' g' tops : growd vs d g d' g' -> Forall (uok (d_nodes d)) tops -> Forall (uok (d_nodes d')) tops.
Proof. intros G. apply Forall_impl. intros cs. eapply uok_growd; eauto. Qed.

Lemma tsum_growd vs d g d' g' cs : growd vs d g d' g' -> uok (d_nodes d) cs ->
  (forall a, tsum (cval g' a) cs = tsum (cval g a) cs) /\ tsum (cmax (d_nodes d')) cs = tsum (cmax (d_nodes d)) cs.
Proof.
  intros G H. unfold uok in H. rewrite Forall_forall in H. split; [intros a|]; apply tsum_ext; intros c Hc; [eapply cval_growd|eapply cmax_growd]; eauto; eapply ucon_lt; eauto.
Qed.
Lemma bsum_growd vs d g d' g' tops : growd vs d g d' g' -> Forall (uok (d_nodes d)) tops ->
  (forall a, bsum (cval g' a) tops = bsum (cval g a) tops) /\ bsum (cmax (d_nodes d')) tops = bsum (cmax (d_nodes d)) tops.
Proof.
  intros G H. rewrite Forall_forall in H. split; [intros a|]; apply bsum_ext; intros cs c Hcs Hc; [eapply cval_growd|eapply cmax_growd]; eauto; eapply ucon_lt.
  all: specialize (H cs Hcs); unfold uok in H; rewrite Forall_forall in H; apply H; auto.
Qed.
Lemma qsum_growd vs d g d' g' s q : growd vs d g d' g' -> qok (d_nodes d) q ->
  (forall a, qsum (cval g' a) s q = qsum (cval g a) s q) /\ qsum (cmax (d_nodes d')) s q = qsum (cmax (d_nodes d)) s q.
Proof.
  intros G [H _]. rewrite Forall_forall in H. split; [intros a|]; apply qsum_ext; intros w cs c Hcs Hc; [eapply cval_growd|eapply cmax_growd]; eauto; eapply ucon_lt.
  all: specialize (H (w, cs) Hcs) as (_ & _ & H); cbn [snd] in H; unfold uok in H; rewrite Forall_forall in H; apply H; auto.
Qed.

(** pushing to the queue *)
Lemma q_push_in q w c e : In e (q_push q w c) -> In e q \/ (fst e = w /\ (snd e = [c] \/ exists cs, In (w, cs) q /\ snd e = cs ++ [c])).
Proof.
  induction q as [|(k & cs) q IH]; cbn [q_push].
  - intros [<-|[]]. right. cbn. auto.
  - destruct (Nat.eqb_spec k w) as [->|Hne].
    + intros [<-|H]; [|left; now right]. right. cbn. split; [auto|]. right. exists cs. split; [now left|auto].
    + destruct (k <? w)%nat.
      * intros [<-|H]; [right; cbn; auto|now left].
      * intros [<-|H]; [left; now left|]. apply IH in H as [H|(E & [H|(cs' & H1 & H2)])]; [left; now right|right; auto|].
        right. split; [auto|]. right. exists cs'. split; [now right|auto].
Qed.
Lemma qok_push ns q w c : qok ns q -> (1 <= w)%nat -> ucon ns c -> qok ns (q_push q w c).
Proof.
  intros [H1 H2] Hw Hc. constructor.
  - rewrite Forall_forall in *. intros e He. apply q_push_in in He as [He|(E & He)]; [auto|]. split; [lia|]. destruct He as [->|(cs & Hin & ->)].
    + split; [discriminate|]. constructor; [auto|constructor].
    + destruct (H1 _ Hin) as (_ & _ & U). split; [destruct cs; discriminate|]. apply Forall_app. split; [exact U|]. constructor; [auto|constructor].
  - clear H1. induction H2 as [|(k & cs) q Hs IH Hf]; cbn [q_push].
    + repeat constructor.
    + destruct (Nat.eqb_spec k w) as [->|Hne]; [constructor; auto|]. destruct (Nat.ltb_spec k w) as [L|L].
      * constructor; [constructor; auto|]. constructor; [auto|]. eapply Forall_impl; [|exact Hf]. cbn. intros; lia.
      * constructor; [auto|]. rewrite Forall_forall in *. intros e He. apply q_push_in in He as [He|(E & _)]; [auto|]. cbn. lia.
Qed.
Lemma qok_tail ns e q : qok ns (e :: q) -> qok ns q.
Proof. intros [H1 H2]. inversion H1; inversion H2; subst. constructor; auto. Qed.

Lemma push_at_ok i c tops : (i < length tops)%nat -> exists tops', push_at i c tops = Some tops' /\ length tops' = length tops /\
  (forall f, bsum f tops' = bsum f tops + 2 ^ i * f c)%nat /\
  (forall P, Forall (Forall P) tops -> P c -> Forall (Forall P) tops') /\
  (forall j cs, nth_error tops j = Some cs -> exists cs', nth_error tops' j = Some (cs ++ cs')) /\
  (exists cs, nth_error tops' i = Some (cs ++ [c])).
Proof.
  intros Hi. unfold push_at. destruct (nth_error tops i) as [cs|] eqn:E; [|apply nth_error_None in E; lia]. cbn [obind].
  eexists. split; [reflexivity|]. split; [apply upd_length|]. split; [|split; [|split]].
  - intros f. clear Hi. revert i E. induction tops as [|x tops IH]; intros [|i] E; try discriminate; cbn [upd bsum nth_error] in *.
    + injection E as ->. rewrite tsum_app. unfold tsum at 2. cbn [map list_sum fold_right Nat.pow]. lia.
    + rewrite (IH i E). cbn [Nat.pow]. lia.
  - intros P H Hc. rewrite Forall_forall in *. intros x Hx. apply In_nth_error in Hx as (j & Hj). rewrite nth_error_upd in Hj.
    destruct (Nat.eqb_spec i j) as [->|]; [|eapply H, nth_error_In; eauto].
    rewrite E in Hj. injection Hj as <-. apply Forall_app. split; [eapply H, nth_error_In; eauto|constructor; auto].
  - intros j x Hj. rewrite nth_error_upd. destruct (Nat.eqb_spec i j) as [->|]; [|exists []; rewrite app_nil_r; auto].
    rewrite Hj. exists [c]. congruence.
  - exists cs. rewrite nth_error_upd, Nat.eqb_refl, E. reflexivity.
Qed.

(** ** Distributing the weights *)
Definition prec_ok (prec s : nat) : Prop := prec = (2 ^ s)%nat \/ (prec = 0%nat /\ s = 0%nat).

Lemma prec_digits prec s : prec_ok prec s -> (digits prec - 1 = s)%nat.
Proof. unfold digits. intros [->|(-> & ->)]; [rewrite Nat.log2_pow2 by lia; lia|reflexivity]. Qed.

Lemma pow2_pos n : (1 <= 2 ^ n)%nat.
Proof. pose proof (Nat.pow_nonzero 2 n). lia. Qed.

Lemma top_bit w s : (2 ^ s <= w)%nat -> 
  (s <= Nat.log2 w /\ w / 2 ^ s = 2 ^ (Nat.log2 w - s) + (w - 2 ^ Nat.log2 w) / 2 ^ s /\ 2 ^ Nat.log2 w <= w /\ w - 2 ^ Nat.log2 w < 2 ^ Nat.log2 w)%nat.
Proof.
  intros H. pose proof (pow2_pos s) as P. pose proof (Nat.log2_spec w ltac:(lia)) as (A & B). cbn [Nat.pow] in B.
  assert (L : (s <= Nat.log2 w)%nat) by (rewrite <- (Nat.log2_pow2 s) by lia; now apply Nat.log2_le_mono).
  split; [auto|]. split; [|lia].
  assert (E : (2 ^ Nat.log2 w = 2 ^ (Nat.log2 w - s) * 2 ^ s)%nat) by (rewrite <- Nat.pow_add_r; f_equal; lia).
  rewrite <- Nat.div_add_l by lia. rewrite <- E. f_equal. lia.
Qed.

Lemma digits_lt r w : (1 <= w)%nat -> (r < 2 ^ Nat.log2 w)%nat -> (1 <= r)%nat -> (digits r < digits w)%nat.
Proof. intros Hw H Hr. unfold digits. apply Nat.log2_lt_pow2 in H; lia. Qed.

Lemma list_sum_q_push q w c : list_sum (map (fun e => digits (fst e)) (q_push q w c)) <= list_sum (map (fun e : nat * list nodecon => digits (fst e)) q) + digits w.
Proof.
  induction q as [|(k & cs) q IH]; cbn [q_push map fst].
  - unfold list_sum. cbn [fold_right]. lia.
  - destruct (Nat.eqb_spec k w) as [->|Hne]; [cbn [map fst]; lia|]. destruct (k <? w)%nat; cbn [map fst]; unfold list_sum in *; cbn [fold_right] in *; lia.
Qed.

Lemma distribute_ok prec s : prec_ok prec s -> forall fuel g d tops q, built g d -> qok (d_nodes d) q -> Forall (uok (d_nodes d)) tops ->
  (list_sum (map (fun e => digits (fst e)) q) <= fuel)%nat ->
  (forall e, In e q -> (digits (fst e) <= s + length tops)%nat) ->
  exists d' tops' q' g', distribute fuel prec d tops q = Some (d', tops', q') /\ built g' d' /\ growd [] d g d' g' /\
    qok (d_nodes d') q' /\ Forall (uok (d_nodes d')) tops' /\ length tops' = length tops /\
    (forall e, In e q' -> (fst e < prec)%nat) /\
    (forall a, bsum (cval g' a) tops' = bsum (cval g a) tops + qsum (cval g a) s q)%nat /\
    (bsum (cmax (d_nodes d')) tops' = bsum (cmax (d_nodes d)) tops + qsum (cmax (d_nodes d)) s q)%nat /\
    (forall j cs, nth_error tops j = Some cs -> exists cs', nth_error tops' j = Some (cs ++ cs')) /\
    (forall e q0, q = e :: q0 -> (prec <= fst e)%nat -> exists cs c, nth_error tops' (digits (fst e) - 1 - s) = Some (cs ++ [c]) \/
       exists cs', nth_error tops' (digits (fst e) - 1 - s) = Some (cs ++ [c] ++ cs')) /\
    (forall s', (s' <= s)%nat ->
       (forall a, qsum (cval g a) s' q + 2 ^ (s - s') * bsum (cval g a) tops = 2 ^ (s - s') * bsum (cval g' a) tops' + qsum (cval g' a) s' q')%nat /\
       (qsum (cmax (d_nodes d)) s' q + 2 ^ (s - s') * bsum (cmax (d_nodes d)) tops = 2 ^ (s - s') * bsum (cmax (d_nodes d')) tops' + qsum (cmax (d_nodes d')) s' q')%nat) /\
    (forall B, nref B (d_nodes d) -> inner B (d_nodes d) -> Forall (fun e => Forall (outside B) (snd e)) q -> Forall (Forall (outside B)) tops ->
       nref B (d_nodes d') /\ inner B (d_nodes d') /\ Forall (fun e => Forall (outside B) (snd e)) q' /\ Forall (Forall (outside B)) tops').
Proof.
  intros HP. pose proof (prec_digits _ _ HP) as HS.
  assert (Hlow : forall w, (w < prec)%nat -> (w / 2 ^ s = 0)%nat).
  { intros w Hw. destruct HP as [->|(-> & _)]; [apply Nat.div_small; auto|lia]. }
  assert (Hhigh : forall w, (1 <= w)%nat -> (prec <= w)%nat -> (2 ^ s <= w)%nat).
  { intros w Hw1 Hw. destruct HP as [->|(_ & ->)]; [auto|cbn; lia]. }
  assert (Hzero : forall ns q, qok ns q -> (forall e q0, q = e :: q0 -> (fst e < prec)%nat) ->
            (forall e, In e q -> (fst e < prec)%nat) /\ forall f, qsum f s q = 0%nat).
  { intros ns q [_ Hs] He. destruct q as [|e q]; [split; [intros ? []|reflexivity]|]. specialize (He e q eq_refl).
    assert (A : forall x, In x (e :: q) -> (fst x < prec)%nat).
    { intros x [<-|Hx]; [auto|]. apply StronglySorted_inv in Hs as (_ & H2). rewrite Forall_forall in H2. specialize (H2 _ Hx). lia. }
    split; [exact A|]. intros f. clear -A Hlow. induction (e :: q) as [|(w & cs) r IH]; [reflexivity|]. rewrite qsum_cons.
    rewrite (Hlow w) by (apply (A (w, cs)); now left). rewrite IH by (intros; apply A; now right). reflexivity. }
  induction fuel as [|fuel IH]; intros g d tops q B Q Tp Hf Hd.
  - destruct q as [|(w & cs) q].
    2:{ exfalso. cbn [map fst] in Hf. unfold list_sum, digits in Hf. cbn [fold_right] in Hf. lia. }
    cbn [distribute]. exists d, tops, [], g. split; [reflexivity|]. split; [auto|]. split; [apply growd_refl|]. split; [auto|]. split; [auto|]. split; [auto|].
    split; [intros ? []|]. split; [intros a; unfold qsum; cbn; lia|]. split; [unfold qsum; cbn; lia|].
    split; [intros j cs Hj; exists []; now rewrite app_nil_r|]. split; [discriminate|]. split; [intros s' _; split; [intros a|]; apply Nat.add_comm|]. auto.
  - cbn [distribute]. destruct q as [|(w & cs) q].
    + exists d, tops, [], g. split; [reflexivity|]. split; [auto|]. split; [apply growd_refl|]. split; [auto|]. split; [auto|]. split; [auto|].
      split; [intros ? []|]. split; [intros a; unfold qsum; cbn; lia|]. split; [unfold qsum; cbn; lia|].
      split; [intros j cs Hj; exists []; now rewrite app_nil_r|]. split; [discriminate|]. split; [intros s' _; split; [intros a|]; apply Nat.add_comm|]. auto.
    + destruct (Nat.ltb_spec w prec) as [L|L].
      * destruct (Hzero _ _ Q) as (A & Z); [intros e q0 [= <- _]; auto|].
        exists d, tops, ((w, cs) :: q), g. split; [reflexivity|]. split; [auto|]. split; [apply growd_refl|]. split; [auto|]. split; [auto|]. split; [auto|].
        split; [exact A|]. split; [intros a; rewrite Z; lia|]. split; [rewrite Z; lia|].
        split; [intros j cs' Hj; exists []; now rewrite app_nil_r|]. split; [intros e q0 [= <- _]; cbn [fst]; lia|].
        split; [intros s' _; split; [intros a|]; apply Nat.add_comm|]. auto.
      * assert (Q' := Q). destruct Q' as [Hc Hs]. destruct (Forall_inv Hc) as (W1 & Ne & Uk). cbn [fst snd] in W1, Ne, Uk.
        destruct (merge_balanced_ok g d cs B) as (d1 & con & g1 & E1 & B1 & G1 & M1); [eapply Forall_impl; [|exact Uk]; intros c (H & _); exact H|auto|].
        rewrite E1. cbn [obind]. apply growd_of_grow in G1.
        destruct M1 as (C1 & C2 & C3 & _ & C5 & _).
        assert (Uc : ucon (d_nodes d1) con) by (split; [auto|]; apply C5; eapply Forall_impl; [|exact Uk]; intros c (_ & H); exact H).
        destruct (top_bit w s (Hhigh w W1 L)) as (T1 & T2 & T3 & T4).
        rewrite HS. assert (Hdw : (digits w - 1 = Nat.log2 w)%nat) by (unfold digits; lia). rewrite Hdw.
        replace (s <=? Nat.log2 w)%nat with true by lia. cbn [assertb obind].
        assert (Hidx : (Nat.log2 w - s < length tops)%nat).
        { specialize (Hd (w, cs) (or_introl eq_refl)). cbn [fst] in Hd. unfold digits in Hd. lia. }
        destruct (push_at_ok (Nat.log2 w - s) con tops Hidx) as (tops1 & Ep & Lp & Sp & Fp & Mp & Np). rewrite Ep. cbn [obind].
        set (rem := (w - 2 ^ Nat.log2 w)%nat).
        set (q1 := if (0 <? rem)%nat then q_push q rem con else q).
        assert (Qt : qok (d_nodes d1) q) by (eapply qok_growd; [exact G1|eapply qok_tail; eauto]).
        assert (Q1 : qok (d_nodes d1) q1) by (unfold q1; destruct (Nat.ltb_spec 0 rem); [apply qok_push; auto|auto]).
        assert (Hr : (1 <= rem)%nat -> (digits rem < digits w)%nat) by (intros; apply digits_lt; auto).
        destruct (IH g1 d1 tops1 q1 B1 Q1) as (d2 & tops2 & q2 & g2 & E2 & B2 & G2 & Q2 & Tp2 & L2 & Low & V2 & X2 & Mono & _ & Split & Ref).
        { apply Fp; [eapply tops_growd; eauto|exact Uc]. }
        { cbn [map fst] in Hf. unfold q1. destruct (Nat.ltb_spec 0 rem) as [Lr|Lr].
          - pose proof (list_sum_q_push q rem con). specialize (Hr Lr). change (list_sum (digits w :: map (fun e => digits (fst e)) q)) with (digits w + list_sum (map (fun e : nat * list nodecon => digits (fst e)) q))%nat in Hf. lia.
          - change (list_sum (digits w :: map (fun e => digits (fst e)) q)) with (digits w + list_sum (map (fun e : nat * list nodecon => digits (fst e)) q))%nat in Hf. unfold digits at 1 in Hf. lia. }
        { intros e He. rewrite Lp. unfold q1 in He. destruct (Nat.ltb_spec 0 rem) as [Lr|Lr]; [|apply Hd; now right].
          apply q_push_in in He as [He|(Ee & _)]; [apply Hd; now right|]. rewrite Ee. specialize (Hr Lr). specialize (Hd (w, cs) (or_introl eq_refl)). cbn [fst] in Hd. lia. }
        exists d2, tops2, q2, g2. split; [exact E2|]. split; [auto|]. split; [eapply growd_trans; eauto|]. split; [auto|]. split; [auto|]. split; [congruence|]. split; [auto|].
        assert (Eq0 : forall t f, (qsum f t q1 = qsum f t q + (rem / 2 ^ t) * f con)%nat).
        { intros t f. unfold q1. destruct (Nat.ltb_spec 0 rem) as [Lr|Lr]; [apply qsum_push|]. replace rem with 0%nat by lia. rewrite Nat.div_0_l by (pose proof (pow2_pos t); lia). lia. }
        assert (Eq1 := Eq0 s).
        destruct (bsum_growd _ _ _ _ _ tops G1 Tp) as (Gb1 & Gb2). destruct (qsum_growd _ _ _ _ _ s q G1 (qok_tail _ _ _ Q)) as (Gq1 & Gq2).
        assert (Hsum : forall f, (2 ^ (Nat.log2 w - s) * f con + rem / 2 ^ s * f con = w / 2 ^ s * f con)%nat).
        { intros f. rewrite T2. unfold rem. lia. }
        split; [|split; [|split; [|split; [|split]]]].
        -- intros a. rewrite V2, Sp, Eq1, qsum_cons, Gb1, Gq1. specialize (Hsum (cval g1 a)). rewrite (C2 a) in *. fold (tsum (cval g a) cs) in *. clear - Hsum; lia.
        -- rewrite X2, Sp, Eq1, qsum_cons, Gb2, Gq2. specialize (Hsum (cmax (d_nodes d1))). rewrite C3 in *. fold (tsum (cmax (d_nodes d)) cs) in *. clear - Hsum; lia.
        -- intros j x Hj. destruct (Mp j x Hj) as (y & Hy). destruct (Mono j _ Hy) as (z & Hz). exists (y ++ z). now rewrite app_assoc.
        -- intros e q0 [= <- _] _. cbn [fst]. rewrite Hdw. destruct Np as (x & Hx). destruct (Mono _ _ Hx) as (z & Hz). exists x, con. right. exists z. now rewrite app_assoc.
        -- intros s' Hs'. destruct (Split s' Hs') as (Sv & Sx). destruct (qsum_growd _ _ _ _ _ s' q G1 (qok_tail _ _ _ Q)) as (Gs1 & Gs2).
           assert (H2 : (2 ^ s' <= w)%nat) by (exact (Nat.le_trans _ _ _ (Nat.pow_le_mono_r 2 s' s (Nat.neq_succ_0 1) Hs') (Hhigh w W1 L))).
           destruct (top_bit w s' H2) as (_ & T2' & _). fold rem in T2'.
           assert (Ep2 : (2 ^ (Nat.log2 w - s') = 2 ^ (s - s') * 2 ^ (Nat.log2 w - s))%nat) by (rewrite <- Nat.pow_add_r; f_equal; clear - Hs' T1; lia).
           split; [intros a; specialize (Sv a); rewrite Eq0, Sp, Gs1, Gb1, (C2 a) in Sv; fold (tsum (cval g a) cs) in Sv|rewrite Eq0, Sp, Gs2, Gb2, C3 in Sx; fold (tsum (cmax (d_nodes d)) cs) in Sx].
           all: rewrite qsum_cons, T2', Ep2.
           ++ rewrite <- Sv. clear. ring.
           ++ rewrite <- Sx. clear. ring.
        -- intros B0 HR HI Ho Ht. apply Forall_inv in Ho as Ho1. apply Forall_inv_tail in Ho. cbn [snd] in Ho1.
           destruct (merge_balanced_ref B0 _ _ _ _ E1 HR HI Ho1) as (HR1 & HI1 & O1). apply Ref; auto.
           unfold q1. destruct (0 <? rem)%nat; [|exact Ho]. rewrite Forall_forall in *. intros e He. apply q_push_in in He as [He|(_ & [->|(cs1 & Hi & ->)])]; [auto|auto|].
           apply Forall_app. split; [exact (Ho _ Hi)|auto].
Qed.

(** ** Merging the buckets *)

(** [tv b k i] is the value of the binary number with the bits [b k], ..., [b (i - 1)] at their places *)
Fixpoint tv (b : nat -> nat) (k i : nat) : nat :=
  match i with
  | O => 0
  | S i' => tv b k i' + (if (k <=? i')%nat then 2 ^ i' * b i' else 0)
  end.

Lemma tv_low b k i : (i <= k)%nat -> tv b k i = 0%nat.
Proof. induction i as [|i IH]; intros H; cbn [tv]; [reflexivity|]. rewrite IH by lia. replace (k <=? i)%nat with false by lia. reflexivity. Qed.
Lemma tv_one k i : (k <= i)%nat -> (tv (fun _ => 1) k i + 2 ^ k = 2 ^ i)%nat.
Proof.
  induction i as [|i IH]; intros H.
  - replace k with 0%nat by lia. reflexivity.
  - cbn [tv]. destruct (Nat.leb_spec k i).
    + specialize (IH ltac:(lia)). cbn [Nat.pow]. lia.
    + replace k with (S i) by lia. rewrite tv_low by lia. lia.
Qed.
Lemma tv_div b k i : Nat.divide (2 ^ k) (tv b k i).
Proof.
  induction i as [|i IH]; cbn [tv]; [apply Nat.divide_0_r|]. apply Nat.divide_add_r; [auto|]. destruct (Nat.leb_spec k i); [|apply Nat.divide_0_r].
  exists (2 ^ (i - k) * b i)%nat. replace i with (i - k + k)%nat at 1 by lia. rewrite Nat.pow_add_r. lia.
Qed.
Lemma tv_mono b c k i : (forall j, (k <= j < i)%nat -> (b j <= c j)%nat) -> (tv b k i <= tv c k i)%nat.
Proof.
  induction i as [|i IH]; intros H; cbn [tv]; [lia|]. specialize (IH ltac:(intros; apply H; lia)). destruct (Nat.leb_spec k i); [|lia].
  specialize (H i ltac:(lia)). nia.
Qed.
Lemma tv_ext b c k i : (forall j, (k <= j < i)%nat -> b j = c j) -> tv b k i = tv c k i.
Proof. intros H. apply Nat.le_antisymm; apply tv_mono; intros j Hj; rewrite H by auto; lia. Qed.

Lemma bsum_empty f tops : Forall (fun cs => cs = []) tops -> bsum f tops = 0%nat.
Proof. induction 1 as [|x l -> H IH]; cbn [bsum]; [reflexivity|]. rewrite IH. reflexivity. Qed.

Lemma bsum_div f k tops : Forall (fun cs => cs = []) (firstn k tops) -> Nat.divide (2 ^ k) (bsum f tops).
Proof.
  revert k. induction tops as [|cs tops IH]; intros [|k] H; cbn [bsum firstn Nat.pow] in *; try apply Nat.divide_0_r; try apply Nat.divide_1_l.
  inversion H; subst. specialize (IH k H3) as (z & E). exists z. rewrite E. unfold tsum. cbn. lia.
Qed.

Lemma firstn_snoc {A} i (l : list A) x : nth_error l i = Some x -> firstn (S i) l = firstn i l ++ [x].
Proof. revert i. induction l as [|y l IH]; intros [|i] H; try discriminate; cbn [firstn nth_error app] in *; [congruence|]. f_equal. auto. Qed.

Lemma nth_error_combine {A B} (l : list A) (l' : list B) i x y : nth_error (combine l l') i = Some (x, y) -> nth_error l i = Some x /\ nth_error l' i = Some y.
Proof.
  revert l' i. induction l as [|z l IH]; intros [|z' l'] [|i] H; try discriminate; cbn [combine nth_error] in *; [injection H as -> ->; auto|]. now apply IH.
Qed.

Lemma nth_error_seq n i x s : nth_error (seq s n) i = Some x -> x = (s + i)%nat /\ (i < n)%nat.
Proof.
  revert s i. induction n as [|n IH]; intros s [|i] H; try discriminate; cbn [seq nth_error] in H; [injection H as <-; lia|]. apply IH in H. lia.
Qed.

(** the value of the tares *)
Definition bit (a : asg) (tares : list lit) (j : nat) : nat :=
  match nth_error tares j with Some t => if lit_true a t then 1 else 0 | None => 0 end.

Lemma div_step P X i : (1 <= i)%nat -> (X + P / 2 ^ (i - 1) / 2 = (P + 2 ^ i * X) / 2 ^ i)%nat.
Proof.
  intros Hi. pose proof (pow2_pos (i - 1)). pose proof (pow2_pos i).
  rewrite Nat.div_div by lia. replace (2 ^ (i - 1) * 2)%nat with (2 ^ i)%nat by (replace i with (S (i - 1)) at 1 by lia; cbn [Nat.pow]; lia).
  rewrite (Nat.mul_comm (2 ^ i) X), Nat.div_add by lia. lia.
Qed.

Lemma ucon_gV g d c : built g d -> ucon (d_nodes d) c -> nc_offset c = 0%nat /\ nc_div c = 1%nat /\
  exists nb, nth_error (d_nodes d) (nc_id c) = Some nb /\ is_unitlike nb /\ (forall a, gV g a (nc_id c) = cval g a c) /\ node_max_val nb = cmax (d_nodes d) c.
Proof.
  intros B ((S & M & nb & E & D & X) & U1 & n' & E' & U). assert (n' = nb) as -> by congruence. assert (S' := S). destruct S' as (O & Dv & L).
  split; [auto|]. split; [auto|]. exists nb. split; [auto|]. split; [auto|]. unfold cval, cmax. rewrite E. split; [intros a|]; rewrite simple_con_map by auto; rewrite U1; lia.
Qed.
