(** * The bottom buckets of the dynamic polynomial watchdog *)

From Coq Require Import List Bool NArith ZArith Lia Arith Sorted Permutation.
From Coq Require Import ZifyBool ZifyNat ZifyN.
From Verif Require Import Spec BoundSpec Types Atomics NodeDb TreeSpec TotDb Totalizer Maps Base TotDbInv TotDbUnit TotDbDefine TotDbGeneral TotDbBuild TotDbGrow TotDbMerge TotWeighted TotDbHist TotalizerProofs DbWorld Dpw DpwRef DpwBuild.
Import ListNotations.

(** the connection from a bottom bucket to the next lower one *)
Definition half (b : nat) : nodecon := mkCon b 0 2 1 None.

(** [chain ns bc rl]: the nodes [map fst bc] are the bottom buckets, highest first; each has the given left connection, and
    its right connection is to the next one, or [rl] for the lowest one *)
Fixpoint chain (ns : list node) (bc : list (nat * nodecon)) (rl : nodecon) : Prop :=
  match bc with
  | [] => True
  | (b, c) :: bc' => (exists lits, nth_error ns b = Some (NUnit lits c (match bc' with (b', _) :: _ => half b' | [] => rl end))) /\ chain ns bc' rl
  end.

(** the sum of the left connections, each doubled once more than the next lower one *)
Fixpoint hsum (f : nodecon -> nat) (bc : list (nat * nodecon)) : nat :=
  match bc with [] => 0 | (_, c) :: bc' => 2 ^ length bc' * f c + hsum f bc' end.

Lemma chain_app_nodes ns new bc rl : chain ns bc rl -> chain (ns ++ new) bc rl.
Proof.
  induction bc as [|(b & c) bc IH]; cbn [chain]; [auto|]. intros ((lits & E) & H). split; [|auto]. exists lits. rewrite nth_error_app1; [auto|eapply nth_error_lt; eauto].
Qed.

Lemma chain_inner ns bc rl : chain ns bc rl -> inner (map fst bc) ns.
Proof.
  induction bc as [|(b & c) bc IH]; cbn [chain map fst]; intros H x Hx; [destruct Hx|]. destruct H as ((lits & E) & H). destruct Hx as [<-|Hx]; [|now apply IH].
  eexists _, _. split; [exact E|reflexivity].
Qed.

Lemma hsum_ext f h bc : (forall x, In x bc -> f (snd x) = h (snd x)) -> hsum f bc = hsum h bc.
Proof.
  induction bc as [|(b & c) bc IH]; intros H; cbn [hsum]; [reflexivity|]. rewrite IH by (intros; apply H; now right). specialize (H (b, c) (or_introl eq_refl)). cbn [snd] in H. now rewrite H.
Qed.

Lemma hsum_app f x y : hsum f (x ++ y) = (2 ^ length y * hsum f x + hsum f y)%nat.
Proof.
  induction x as [|(b & c) x IH]; cbn [app hsum]; [lia|]. rewrite IH, app_length, Nat.pow_add_r. lia.
Qed.

Lemma unit_of_internal n l r : is_unitlike n -> children n = Some (l, r) -> exists lits, n = NUnit lits l r.
Proof. destruct n; cbn; try tauto; try discriminate. intros _ [= -> ->]. eauto. Qed.

Section Buckets.
Context (srt : list node -> list nodecon -> list nodecon).
Context (Hsrt : forall ns l, Permutation (srt ns l) l).
Context (g1 : ghost) (d1 : db) (tops : list (list nodecon)) (tares : list lit) (more tp : bool).
Context (B1 : built g1 d1) (T1 : Forall (uok (d_nodes d1)) tops).
Notation n := (length tops).
Context (Ht : length tares = (n - if tp then 1 else 0)%nat).
Context (Hlast : exists cs, nth_error tops (n - 1) = Some cs /\ cs <> []).
Context (B0 : list nat) (RB : nref B0 (d_nodes d1)) (IB : inner B0 (d_nodes d1)) (TB : Forall (Forall (outside B0)) tops).

Definition accv (a : asg) (k i : nat) : nat := (bsum (cval g1 a) (firstn i tops) + tv (bit a tares) k (Nat.min i (length tares)))%nat.
Definition accm (k i : nat) : nat := (bsum (cmax (d_nodes d1)) (firstn i tops) + tv (fun _ => 1) k (Nat.min i (length tares)))%nat.

Definition chained (bottoms : list nat) (k i : nat) (d : db) (g : ghost) : Prop :=
  exists bc du, map fst bc = bottoms /\ chain (d_nodes d) bc (con_full du) /\ d_dummy d = Some du /\
    Forall (fun x => (length (d_nodes d1) <= fst x)%nat /\ ucon (d_nodes d) (snd x) /\ ~ In (nc_id (snd x)) (bottoms ++ B0)) bc /\
    NoDup bottoms /\ length bc = (i - k)%nat /\
    (forall a, accv a k i = 2 ^ k * hsum (cval g a) bc)%nat /\ accm k i = (2 ^ k * hsum (cmax (d_nodes d)) bc)%nat.

Definition bucket_inv (i : nat) (s : db * list nat * nat) : Prop :=
  let '(d, bottoms, off) := s in
  off = 0%nat /\ exists g, built g d /\ growd (map lvar tares) d1 g1 d g /\
  nref ((if more then bottoms else []) ++ B0) (d_nodes d) /\ inner ((if more then bottoms else []) ++ B0) (d_nodes d) /\
  match bottoms with
  | [] => (i < n)%nat /\ Forall (fun cs => cs = []) (firstn i tops)
  | b :: _ => (1 <= i)%nat /\ exists k nb, (k < i)%nat /\ Forall (fun cs => cs = []) (firstn k tops) /\
      nth_error (d_nodes d) b = Some nb /\ is_unitlike nb /\
      (forall a, gV g a b = accv a k i / 2 ^ (i - 1))%nat /\ node_max_val nb = (accm k i / 2 ^ (i - 1))%nat /\
      ~ In b B0 /\ (more = true -> chained bottoms k i d g)
  end.

Lemma bucket_step i cs s : nth_error tops i = Some cs -> bucket_inv i s ->
  exists s', add_bucket srt tp tares n more s (i, cs) = Some s' /\ bucket_inv (S i) s'.
Proof.
  intros Hcs. destruct s as ((d & bottoms) & off). intros (-> & g & B & G & NR & NI & Inv).
  set (BB := (if more then bottoms else []) ++ B0) in *.
  assert (Hi : (i < n)%nat) by (eapply nth_error_lt; eauto).
  assert (Ucs1 : uok (d_nodes d1) cs) by (rewrite Forall_forall in T1; apply T1; eapply nth_error_In; eauto).
  assert (Ucs : uok (d_nodes d) cs) by (eapply uok_growd; eauto).
  destruct (tsum_growd _ _ _ _ _ _ G Ucs1) as (Ts1 & Ts2).
  unfold add_bucket.
  (* the connections of the bucket, with its tare *)
  set (ht := negb (tp && (i =? n - 1)%nat)).
  assert (S1 : exists d2 cs1 g2, (if tp && (i =? n - 1)%nat then Some (d, cs, false)
       else do tare <- nth_error tares i; let '(d', id) := db_insert d (NLeaf tare) in Some (d', cs ++ [con_full id], true)) = Some (d2, cs1, ht) /\
     built g2 d2 /\ growd (map lvar tares) d g d2 g2 /\ uok (d_nodes d2) cs1 /\
     (forall a, tsum (cval g2 a) cs1 = tsum (cval g1 a) cs + (if ht then bit a tares i else 0))%nat /\
     (tsum (cmax (d_nodes d2)) cs1 = tsum (cmax (d_nodes d1)) cs + (if ht then 1 else 0))%nat /\ cs1 <> [] /\
     nref BB (d_nodes d2) /\ inner BB (d_nodes d2) /\ Forall (outside BB) cs1 /\ d_dummy d2 = d_dummy d).
  { assert (Ocs : Forall (outside BB) cs).
    { rewrite Forall_forall. intros c Hc Hin. unfold BB in Hin. apply in_app_or in Hin as [Hin|Hin].
      - assert (Lc : (nc_id c < length (d_nodes d1))%nat) by (unfold uok in Ucs1; rewrite Forall_forall in Ucs1; eapply ucon_lt; eauto).
        destruct more; [|destruct Hin]. destruct bottoms as [|b bs]; [destruct Hin|]. destruct Inv as (_ & k & nb & _ & _ & _ & _ & _ & _ & _ & Hch).
        destruct (Hch eq_refl) as (bc & du & Eb & _ & _ & F & _). rewrite <- Eb in Hin. apply in_map_iff in Hin as (x & Ex & Hx). rewrite Forall_forall in F. destruct (F x Hx) as (F1 & _). lia.
      - rewrite Forall_forall in TB. specialize (TB cs (nth_error_In _ _ Hcs)). rewrite Forall_forall in TB. exact (TB c Hc Hin). }
    subst ht. destruct (tp && (i =? n - 1)%nat) eqn:E; cbn [negb].
    - exists d, cs, g. split; [reflexivity|]. split; [auto|]. split; [apply growd_refl|]. split; [auto|].
      split; [intros a; rewrite Ts1; lia|]. split; [rewrite Ts2; lia|]. split; [|auto]. apply andb_true_iff in E as (_ & E). apply Nat.eqb_eq in E. destruct Hlast as (cs0 & E0 & N0). congruence.
    - destruct (nth_error tares i) as [t|] eqn:Et; [|apply nth_error_None in Et; destruct tp; cbn [andb] in E; lia]. cbn [obind].
      destruct (insert_leaf g d t B) as (d2 & id & g2 & Ei & B2 & G2 & N2 & C2 & V2 & _). apply growd_of_grow in G2.
      destruct (insert_leaf_ref BB _ _ _ _ Ei NR NI N2) as (R1 & R2 & R3). pose proof (insert_leaf_dummy _ _ _ _ Ei) as Hdu. rewrite Ei.
      exists d2, (cs ++ [con_full id]), g2. split; [reflexivity|]. split; [auto|].
      split; [eapply growd_incl; [|exact G2]; intros v [<-|[]]; apply in_map; eapply nth_error_In; eauto|].
      assert (Ul : ucon (d_nodes d2) (con_full id)).
      { split; [auto|]. split; [reflexivity|]. exists (NLeaf t). split; [exact N2|exact Logic.I]. }
      destruct (tsum_growd _ _ _ _ _ _ G2 Ucs) as (Tt1 & Tt2).
      split; [apply Forall_app; split; [eapply uok_growd; eauto|constructor; [auto|constructor]]|].
      split; [intros a; rewrite tsum_app, Tt1, Ts1; unfold tsum at 2, bit; cbn [map list_sum fold_right]; rewrite V2, Et; lia|].
      split; [rewrite tsum_app, Tt2, Ts2; unfold tsum at 2, cmax at 2; cbn [map list_sum fold_right con_full nc_id]; rewrite N2, simple_con_map by (repeat split); cbn [node_max_val nc_mult con_full]; lia|].
      split; [destruct cs; discriminate|]. split; [auto|]. split; [auto|]. split; [|auto]. apply Forall_app. split; [auto|]. constructor; [exact R3|constructor]. }
  destruct S1 as (d2 & cs1 & g2 & -> & B2 & G2 & U1 & V1 & X1 & N1 & NR2 & NI2 & O1 & Du2). cbn [obind].
  (* merging it *)
  assert (Us : uok (d_nodes d2) (srt (d_nodes d2) cs1)).
  { unfold uok in *. rewrite Forall_forall in *. intros c Hc. apply U1. eapply Permutation_in; [apply Hsrt|exact Hc]. }
  destruct (merge_balanced_ok g2 d2 (srt (d_nodes d2) cs1) B2) as (d3 & top & g3 & Em & B3 & G3 & M3).
  { eapply Forall_impl; [|exact Us]. intros c (H & _). exact H. }
  { intros E. apply N1. specialize (Hsrt (d_nodes d2) cs1). rewrite E in Hsrt. now apply Permutation_nil in Hsrt. }
  rewrite Em. cbn [obind]. apply growd_of_grow in G3.
  destruct (merge_balanced_ref BB _ _ _ _ Em NR2 NI2) as (NR3 & NI3 & Otop).
  { rewrite Forall_forall in *. intros c Hc. apply O1. eapply Permutation_in; [apply Hsrt|exact Hc]. }
  assert (Du3 : d_dummy d3 = d_dummy d) by (rewrite <- Du2; eapply merge_balanced_dummy; eauto). destruct M3 as (C1 & C2 & C3 & _ & C5 & _).
  assert (Ut : ucon (d_nodes d3) top) by (split; [auto|]; apply C5; eapply Forall_impl; [|exact Us]; intros c (_ & H); exact H).
  assert (Vt : forall a, (cval g3 a top = tsum (cval g1 a) cs + (if ht then bit a tares i else 0))%nat).
  { intros a. rewrite C2. change (list_sum (map (cval g2 a) (srt (d_nodes d2) cs1))) with (tsum (cval g2 a) (srt (d_nodes d2) cs1)). rewrite (tsum_perm _ _ _ (Hsrt (d_nodes d2) cs1)). apply V1. }
  assert (Xt : (cmax (d_nodes d3) top = tsum (cmax (d_nodes d1)) cs + (if ht then 1 else 0))%nat).
  { rewrite C3. change (list_sum (map (cmax (d_nodes d2)) (srt (d_nodes d2) cs1))) with (tsum (cmax (d_nodes d2)) (srt (d_nodes d2) cs1)). rewrite (tsum_perm _ _ _ (Hsrt (d_nodes d2) cs1)). apply X1. }
  assert (G13 : growd (map lvar tares) d g d3 g3) by (eapply growd_trans; [exact G2|]; eapply growd_incl; [|exact G3]; intros ? []).
  assert (G03 : growd (map lvar tares) d1 g1 d3 g3) by (eapply growd_trans; [exact G|exact G13]).
  clear B2 G2 U1 V1 X1 N1 Us C1 C2 C3 C5 G3 Em NR2 NI2 O1 Du2 d2 g2 cs1.
  assert (Hch3 : forall id m l r, nth_error (d_nodes d3) id = Some m -> children m = Some (l, r) -> (nc_id l < length (d_nodes d3) /\ nc_id r < length (d_nodes d3))%nat) by (intros; eapply wf_children_lt; [apply B3| |]; eauto).
  (* the accumulated sums *)
  assert (Av : forall a k, (k <= i)%nat -> (accv a k (S i) = accv a k i + 2 ^ i * (tsum (cval g1 a) cs + (if ht then bit a tares i else 0)))%nat).
  { intros a k Hk. unfold accv. rewrite (firstn_snoc _ _ _ Hcs), bsum_app, firstn_length, Nat.min_l by lia. cbn [bsum]. subst ht.
    destruct (tp && (i =? n - 1)%nat) eqn:E; cbn [negb].
    - apply andb_true_iff in E as (-> & E). apply Nat.eqb_eq in E. rewrite !Nat.min_r by lia. lia.
    - assert (i < length tares)%nat by (destruct tp; cbn [andb] in E; lia). rewrite !Nat.min_l by lia. cbn [tv]. replace (k <=? i)%nat with true by lia. lia. }
  assert (Am : forall k, (k <= i)%nat -> (accm k (S i) = accm k i + 2 ^ i * (tsum (cmax (d_nodes d1)) cs + (if ht then 1 else 0)))%nat).
  { intros k Hk. unfold accm. rewrite (firstn_snoc _ _ _ Hcs), bsum_app, firstn_length, Nat.min_l by lia. cbn [bsum]. subst ht.
    destruct (tp && (i =? n - 1)%nat) eqn:E; cbn [negb].
    - apply andb_true_iff in E as (-> & E). apply Nat.eqb_eq in E. rewrite !Nat.min_r by lia. lia.
    - assert (i < length tares)%nat by (destruct tp; cbn [andb] in E; lia). rewrite !Nat.min_l by lia. cbn [tv]. replace (k <=? i)%nat with true by lia. lia. }
  pose proof (pow2_pos i) as Pi.
  destruct bottoms as [|last bottoms].
  - destruct Inv as (_ & Hem).
    assert (A0 : (forall a, accv a i i = 0%nat) /\ accm i i = 0%nat).
    { split; [intros a; unfold accv|unfold accm]; rewrite bsum_empty by auto; rewrite tv_low by lia; reflexivity. }
    destruct A0 as (A0 & A0').
    assert (Av' : forall a, (cval g3 a top = accv a i (S i) / 2 ^ (S i - 1))%nat).
    { intros a. rewrite Av, A0, Vt by lia. replace (S i - 1)%nat with i by lia. rewrite Nat.add_0_l, Nat.mul_comm, Nat.div_mul by lia. reflexivity. }
    assert (Am' : (cmax (d_nodes d3) top = accm i (S i) / 2 ^ (S i - 1))%nat).
    { rewrite Am, A0', Xt by lia. replace (S i - 1)%nat with i by lia. rewrite Nat.add_0_l, Nat.mul_comm, Nat.div_mul by lia. reflexivity. }
    rewrite (ucon_con_len _ _ Ut). cbn [obind].
    destruct (ht && (cmax (d_nodes d3) top =? 1)%nat) eqn:E1.
    + eexists. split; [reflexivity|]. split; [reflexivity|]. exists g3. split; [auto|]. split; [auto|]. split; [auto|]. split; [auto|].
      apply andb_true_iff in E1 as (Eh & E1). apply Nat.eqb_eq in E1. rewrite Eh in Xt.
      assert (cs = []) as ->.
      { destruct cs as [|c cs]; [reflexivity|exfalso]. assert (1 <= cmax (d_nodes d1) c)%nat by (eapply ucon_max; [apply B1|]; inversion Ucs1; auto).
        unfold tsum in Xt. cbn [map list_sum fold_right] in Xt. lia. }
      split; [destruct (Nat.eq_dec i (n - 1)) as [->|]; [destruct Hlast as (cs0 & E0 & N0); congruence|lia]|].
      rewrite (firstn_snoc _ _ _ Hcs). apply Forall_app. split; [auto|]. constructor; [reflexivity|constructor].
    + destruct (ucon_gV g3 d3 top B3 Ut) as (O3 & D3 & nb & N3 & U3 & Vb & Xb). rewrite D3. cbn [Nat.eqb assertb obind].
      destruct more eqn:Emore.
      * destruct (insert_dummy g3 d3 B3) as (d4 & du & g4 & Ed & B4 & G4 & N4). rewrite Ed.
        destruct (insert_dummy_ref BB _ _ _ Ed NR3 NI3 N4) as (NR4 & NI4 & Odu). pose proof (insert_dummy_id _ _ _ Ed) as Du4.
        destruct (internal_div g4 d4 top (con_full du) NDummy B4) as (nd & g5 & En & E5 & B5 & G5 & N5 & U5 & V5 & X5); auto.
        { eapply con_good_growd; [exact G4|]. exact (proj1 Ut). }
        { eapply unit_con_growd; [exact G4|]. exact (proj2 Ut). }
        rewrite En. cbn [obind]. rewrite E5. eexists. split; [reflexivity|]. split; [reflexivity|]. exists g5. split; [auto|].
        assert (G15 : growd (map lvar tares) d1 g1 _ g5) by (eapply growd_trans; [exact G03|]; eapply growd_incl; [|eapply growd_trans; [exact G4|exact G5]]; intros ? []).
        split; [exact G15|].
        pose proof (node_internal_children _ _ _ _ En) as Cn. destruct (unit_of_internal _ _ _ U5 Cn) as (lits & Elits).
        rewrite Emore. cbn [app d_nodes]. cbn [app] in BB. subst BB.
        split; [apply (nref_join B0); auto; intros; eapply wf_children_lt; [apply B4| |]; eauto|].
        split. { intros b [<-|Hb]; [|exact (inner_app _ _ _ ltac:(eassumption) b Hb)]. exists nd, (top, con_full du). split; [|auto]. exact N5. }
        split; [lia|]. exists i, nd. split; [lia|]. split; [auto|]. split; [exact N5|]. split; [auto|].
        assert (Z : forall a, gV g4 a du = 0%nat).
        { intros a. pose proof (wf_node _ _ (proj1 B4) _ _ (nth_skel _ _ _ N4)) as H. cbn [erase node_ok] in H. apply H. }
        assert (Ct : forall a, (cval g4 a top = accv a i (S i) / 2 ^ (S i - 1))%nat) by (intros a; rewrite <- Av'; eapply cval_growd; [exact G4|eapply ucon_lt; eauto]).
        assert (Xt4 : (cmax (d_nodes d4) top = accm i (S i) / 2 ^ (S i - 1))%nat) by (rewrite <- Am'; eapply cmax_growd; [exact G4|eapply ucon_lt; eauto]).
        assert (Lt4 : (nc_id top < length (d_nodes d4))%nat) by (pose proof (ucon_lt _ _ Ut); pose proof (growd_length _ _ _ _ _ G4); lia).
        split; [intros a; rewrite V5; cbn [con_full nc_id nc_div]; rewrite Z, Nat.div_1_r, Nat.add_0_r; apply Ct|].
        split; [rewrite X5; cbn [con_full nc_div node_max_val]; rewrite Nat.div_1_r, Nat.add_0_r; exact Xt4|].
        split; [intros X; apply (inner_lt _ _ _ NI4) in X; lia|]. intros _.
        exists [(length (d_nodes d4), top)], du. split; [reflexivity|]. split; [split; [exists lits; rewrite <- Elits; exact N5|exact Logic.I]|].
        split; [exact Du4|]. split.
        { constructor; [|constructor]. cbn [fst snd]. split; [pose proof (growd_length _ _ _ _ _ G03); pose proof (growd_length _ _ _ _ _ G4); lia|].
          split; [eapply ucon_growd; [exact G5|]; eapply ucon_growd; [exact G4|]; exact Ut|]. intros [X|X]; [lia|]. exact (Otop X). }
        split; [constructor; [intros []|constructor]|]. split; [cbn [length]; lia|].
        cbn [hsum length Nat.pow]. split; [intros a|].
        -- rewrite (cval_growd _ _ _ _ _ top a G5 Lt4), (cval_growd _ _ _ _ _ top a G4 (ucon_lt _ _ Ut)), Av, A0, Vt by lia. lia.
        -- rewrite (cmax_growd _ _ _ _ _ top G5 Lt4), (cmax_growd _ _ _ _ _ top G4 (ucon_lt _ _ Ut)), Am, A0', Xt by lia. lia.
      * eexists. split; [reflexivity|]. split; [exact O3|]. exists g3. split; [auto|]. split; [auto|]. rewrite Emore. split; [auto|]. split; [auto|]. split; [lia|].
        exists i, nb. split; [lia|]. split; [auto|]. split; [auto|]. split; [auto|].
        split; [intros a; rewrite Vb; apply Av'|]. split; [rewrite Xb; exact Am'|]. split; [exact Otop|discriminate].
  - destruct Inv as (I1 & k & nb & Hk & Hem & Nb & Ub & Vb & Xb & Ob & Hchain).
    assert (Nb3 : nth_error (d_nodes d3) last = Some nb) by (eapply growd_nth; [exact G13|exact Nb]).
    destruct (internal_div g3 d3 top (mkCon last 0 2 1 None) nb B3) as (nd & g5 & En & E5 & B5 & G5 & N5 & U5 & V5 & X5); auto; try exact (proj1 Ut); try exact (proj2 Ut).
    all: cbn [nc_offset nc_div nc_mult nc_limit]; try lia. { clear - Ub. destruct nb; cbn in *; (reflexivity || tauto). }
    rewrite En. cbn [obind]. rewrite E5. eexists. split; [reflexivity|]. split; [reflexivity|]. exists g5. split; [auto|].
    split; [eapply growd_trans; [exact G03|]; eapply growd_incl; [|exact G5]; intros ? []|].
    pose proof (node_internal_children _ _ _ _ En) as Cn. destruct (unit_of_internal _ _ _ U5 Cn) as (lits & Elits).
    assert (Hb0 : ~ In (length (d_nodes d3)) B0).
    { intros X. assert (In (length (d_nodes d3)) BB) as Y by (apply in_or_app; now right). apply (inner_lt _ _ _ NI3) in Y. lia. }
    split; [|split].
    { cbn [d_nodes]. destruct more eqn:Emore; [cbn [app]; apply (nref_join BB); auto|]. cbn [app] in *. apply nref_snoc; [exact NR3|].
      intros l r Cl. rewrite Cn in Cl. injection Cl as <- <-. split; [exact Otop|exact Ob]. }
    { cbn [d_nodes]. destruct more eqn:Emore; [|cbn [app] in *; apply inner_app; exact NI3]. intros b [<-|Hb]; [|exact (inner_app _ _ _ ltac:(eassumption) b Hb)].
      exists nd, (top, mkCon last 0 2 1 None). split; [exact N5|auto]. }
    split; [lia|]. exists k, nd. split; [lia|]. split; [auto|]. split; [exact N5|]. split; [auto|].
    assert (Ev : forall a, (gV g5 a (length (d_nodes d3)) = accv a k (S i) / 2 ^ (S i - 1))%nat).
    { intros a. replace (S i - 1)%nat with i by lia. rewrite V5. cbn [nc_id nc_div]. rewrite (gV_growd _ _ _ _ _ _ a G13) by (eapply nth_error_lt; eauto). rewrite Vb, Av, Vt by lia. apply div_step. lia. }
    split; [exact Ev|].
    split; [replace (S i - 1)%nat with i by lia; rewrite X5; cbn [nc_div]; rewrite Xb, Am, Xt by lia; apply div_step; lia|].
    split; [exact Hb0|]. intros ->. destruct (Hchain eq_refl) as (bc & du & Eb & Hc & Hdu & F & ND & Lb & Hv & Hx).
    assert (Lbs : forall b, In b (last :: bottoms) -> (b < length (d_nodes d3))%nat).
    { intros b Hb. apply (inner_lt _ _ _ NI3). apply in_or_app. now left. }
    assert (Ns : exists new, d_nodes d3 = d_nodes d ++ new) by (destruct G13 as ((new & E & _) & _); eauto).
    destruct Ns as (new & Ns).
    exists ((length (d_nodes d3), top) :: bc), du. split; [cbn [map fst]; now rewrite Eb|].
    split. { cbn [chain]. split; [|cbn [d_nodes]; rewrite Ns, <- app_assoc; now apply chain_app_nodes].
             exists lits. destruct bc as [|(b' & c') bc']; [discriminate|]. cbn [map fst] in Eb. injection Eb as -> _. fold (half last) in Elits. rewrite <- Elits. exact N5. }
    split; [cbn [d_dummy]; congruence|]. split.
    { constructor; cbn [fst snd].
      - split; [apply (growd_length _ _ _ _ _ G03)|]. split; [eapply ucon_growd; [exact G5|exact Ut]|]. cbn [app]. intros [X|X]; [pose proof (ucon_lt _ _ Ut); lia|]. exact (Otop X).
      - eapply Forall_impl; [|exact F]. intros x (F1 & F2 & F3). split; [auto|]. split; [eapply ucon_growd; [exact G5|]; eapply ucon_growd; [exact G13|exact F2]|].
        cbn [app]. intros [X|X]; [|exact (F3 X)]. pose proof (ucon_lt _ _ F2). pose proof (growd_length _ _ _ _ _ G13). lia. }
    split; [constructor; [intros X; apply Lbs in X; lia|exact ND]|]. split; [cbn [length]; lia|]. cbn [hsum]. rewrite Lb.
    assert (E2 : (2 ^ i = 2 ^ k * 2 ^ (i - k))%nat) by (rewrite <- Nat.pow_add_r; f_equal; lia).
    assert (Fc : forall x, In x bc -> (nc_id (snd x) < length (d_nodes d))%nat) by (rewrite Forall_forall in F; intros x X; destruct (F x X) as (_ & X2 & _); eapply ucon_lt; eauto).
    pose proof (growd_trans _ _ _ _ _ _ _ G13 (growd_incl [] (map lvar tares) _ _ _ _ (fun x (H : In x []) => match H with end) G5)) as Gd5.
    split; [intros a|].
    + rewrite (cval_growd _ _ _ _ _ top a G5 (ucon_lt _ _ Ut)), (hsum_ext (cval g5 a) (cval g a)) by (intros x X; eapply cval_growd; [exact Gd5|auto]).
      rewrite Av, Hv, Vt, E2 by lia. clear. ring.
    + rewrite (cmax_growd _ _ _ _ _ top G5 (ucon_lt _ _ Ut)), (hsum_ext (cmax _) (cmax (d_nodes d))) by (intros x X; eapply cmax_growd; [exact Gd5|auto]).
      rewrite Am, Hx, Xt, E2 by lia. clear. ring.
Qed.

Lemma buckets_ok : exists d bottoms g, foldM (add_bucket srt tp tares n more) (combine (seq 0 n) tops) (d1, [], 0%nat) = Some (d, bottoms, 0%nat) /\
  built g d /\ growd (map lvar tares) d1 g1 d g /\ exists b rest, bottoms = b :: rest /\ exists k nb, (k <= n - 1)%nat /\ Forall (fun cs => cs = []) (firstn k tops) /\
    nth_error (d_nodes d) b = Some nb /\ is_unitlike nb /\
    (forall a, gV g a b = (bsum (cval g1 a) tops + tv (bit a tares) k (length tares)) / 2 ^ (n - 1))%nat /\
    node_max_val nb = ((bsum (cmax (d_nodes d1)) tops + tv (fun _ => 1) k (length tares)) / 2 ^ (n - 1))%nat /\
    nref ((if more then bottoms else []) ++ B0) (d_nodes d) /\ ~ In b B0 /\ (more = true -> chained bottoms k n d g).
Proof.
  assert (Hn : (0 < n)%nat) by (destruct Hlast as (cs & E & _); apply nth_error_lt in E; lia).
  destruct (foldM_ind (add_bucket srt tp tares n more) (fun done s => bucket_inv (length done) s) (combine (seq 0 n) tops) (d1, [], 0%nat)) as (s & E & P).
  - cbn [length bucket_inv]. split; [reflexivity|]. exists g1. split; [auto|]. split; [apply growd_refl|].
    replace (if more then [] else []) with (@nil nat) by (destruct more; reflexivity). cbn [app]. split; [auto|]. split; [auto|]. split; [auto|]. constructor.
  - intros done (idx & cs) s (rest & El) P.
    assert (Hnth : nth_error (combine (seq 0 n) tops) (length done) = Some (idx, cs)) by (rewrite El, nth_error_app2, Nat.sub_diag by lia; reflexivity).
    apply nth_error_combine in Hnth as (H1 & H2). apply nth_error_seq in H1 as (-> & _). rewrite app_length. cbn [length].
    replace (length done + 1)%nat with (S (length done)) by lia. apply bucket_step; auto.
  - rewrite combine_length, seq_length, Nat.min_id in P. destruct s as ((d & bottoms) & off). destruct P as (-> & g & B & G & NR & _ & P).
    exists d, bottoms, g. split; [exact E|]. split; [auto|]. split; [auto|]. destruct bottoms as [|b rest]; [lia|].
    destruct P as (_ & k & nb & Hk & Hem & Nb & Ub & Vb & Xb & Ob & Hch). exists b, rest. split; [reflexivity|]. exists k, nb. split; [lia|]. split; [auto|]. split; [auto|]. split; [auto|].
    assert (Hmin : Nat.min n (length tares) = length tares) by (destruct tp; lia).
    unfold accv, accm in Vb, Xb. rewrite firstn_all, Hmin in Xb. split; [|split; [exact Xb|]; auto]. intros a. rewrite Vb, firstn_all, Hmin. reflexivity.
Qed.
End Buckets.
