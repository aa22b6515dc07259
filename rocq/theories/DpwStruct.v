(** * The structure built for the dynamic polynomial watchdog and the queue it is built from *)

From Coq Require Import List Bool NArith ZArith Lia Arith Sorted Permutation.
From Coq Require Import ZifyBool ZifyNat ZifyN.
From Verif Require Import Spec BoundSpec Types Atomics NodeDb TreeSpec TotDb Totalizer Maps Base TotDbInv TotDbUnit TotDbDefine TotDbGeneral TotDbBuild TotDbGrow TotDbMerge TotWeighted TotDbHist TotalizerProofs DbWorld Dpw DpwSpec DpwRef DpwBuild DpwBuckets.
Import ListNotations.

(** what the root of a structure counts: [V] is the weighted sum of the inputs and [W] the sum of the weights *)
Definition shape (g : ghost) (ns : list node) (st : structure) (V : asg -> nat) (W : nat) : Prop :=
  exists root rest k nb, sr_bottoms st = root :: rest /\ nth_error ns root = Some nb /\ is_unitlike nb /\ (k <= sr_power st)%nat /\
    (forall a, Nat.divide (2 ^ k) (V a)) /\ Nat.divide (2 ^ k) W /\
    (forall a, gV g a root = (V a + tv (bit a (sr_tares st)) k (sr_power st)) / 2 ^ sr_power st)%nat /\
    node_max_val nb = ((W + tv (fun _ => 1) k (sr_power st)) / 2 ^ sr_power st)%nat.

Definition tares_from (next : N) (p : nat) : list lit := map (fun i => pos (next + N.of_nat i)) (seq 0 p).
Lemma tares_from_length next p : length (tares_from next p) = p.
Proof. unfold tares_from. now rewrite map_length, seq_length. Qed.

Lemma prec_log2 prec s : prec_ok prec s -> (2 ^ s = Nat.max prec 1)%nat.
Proof. pose proof (pow2_pos s). intros [->|(-> & ->)]; [lia|reflexivity]. Qed.

Section Build.
Context (srt : list node -> list nodecon -> list nodecon).
Context (Hsrt : forall ns l, Permutation (srt ns l) l).

(** the bottom buckets [bs] form a chain with the left connections [map snd bc] *)
Definition chain_ok (d : db) (bc : list (nat * nodecon)) (bs : list nat) : Prop :=
  map fst bc = bs /\ NoDup bs /\ (exists du, d_dummy d = Some du /\ chain (d_nodes d) bc (con_full du)) /\
  Forall (fun x => ucon (d_nodes d) (snd x) /\ outside bs (snd x)) bc.

Lemma build_gen tp B0 g d q maxw cs0 q0 prec s next : built g d -> qok (d_nodes d) q -> q = (maxw, cs0) :: q0 -> prec_ok prec s -> (prec <= maxw)%nat ->
  nref B0 (d_nodes d) -> inner B0 (d_nodes d) -> Forall (fun e => Forall (outside B0) (snd e)) q ->
  exists st d' q' g', build_structure srt tp q prec d next = Some (st, d', q', (next + N.of_nat (length (sr_tares st)))%N) /\
    built g' d' /\ growd (map lvar (sr_tares st)) d g d' g' /\ sr_prec st = prec /\ sr_tares st = tares_from next (length (sr_tares st)) /\
    length (sr_tares st) = (digits maxw - s - if tp then 1 else 0)%nat /\
    qok (d_nodes d') q' /\ (forall e, In e q' -> (fst e < prec)%nat) /\ (s <= Nat.log2 maxw)%nat /\
    (forall s', (s' <= s)%nat ->
       (forall a, qsum (cval g a) s' q = 2 ^ (s - s') * qsum (cval g a) s q + qsum (cval g' a) s' q')%nat /\
       qsum (cmax (d_nodes d)) s' q = (2 ^ (s - s') * qsum (cmax (d_nodes d)) s q + qsum (cmax (d_nodes d')) s' q')%nat) /\
    exists root rest k nb, sr_bottoms st = root :: rest /\ nth_error (d_nodes d') root = Some nb /\ is_unitlike nb /\ (k <= digits maxw - s - 1)%nat /\
      (forall a, Nat.divide (2 ^ k) (qsum (cval g a) s q)) /\ Nat.divide (2 ^ k) (qsum (cmax (d_nodes d)) s q) /\
      (forall a, gV g' a root = (qsum (cval g a) s q + tv (bit a (sr_tares st)) k (length (sr_tares st))) / 2 ^ (digits maxw - s - 1))%nat /\
      node_max_val nb = ((qsum (cmax (d_nodes d)) s q + tv (fun _ => 1) k (length (sr_tares st))) / 2 ^ (digits maxw - s - 1))%nat /\
      nref B0 (d_nodes d') /\ ~ In root B0 /\
      (q' <> [] -> exists bc, chain_ok d' bc (root :: rest) /\ Forall (fun x => outside B0 (snd x)) bc /\
         Forall (fun b => (length (d_nodes d) <= b)%nat) (root :: rest) /\ nref ((root :: rest) ++ B0) (d_nodes d') /\
         Forall (fun e => Forall (outside ((root :: rest) ++ B0)) (snd e)) q' /\ length bc = (digits maxw - s - k)%nat /\
         (forall a, qsum (cval g a) s q + tv (bit a (sr_tares st)) k (length (sr_tares st)) = 2 ^ k * hsum (cval g' a) bc)%nat /\
         (qsum (cmax (d_nodes d)) s q + tv (fun _ => 1) k (length (sr_tares st)) = 2 ^ k * hsum (cmax (d_nodes d')) bc)%nat).
Proof.
  intros B Q Eq HP Hmax HR HI HQ. pose proof (prec_digits _ _ HP) as HS.
  assert (Q1 : (1 <= maxw)%nat). { pose proof (qk_cons _ _ Q) as H. rewrite Eq in H. apply Forall_inv in H. cbn [fst] in H. lia. }
  assert (Hs : (s <= Nat.log2 maxw)%nat).
  { destruct HP as [->|(_ & ->)]; [|lia]. rewrite <- (Nat.log2_pow2 s) by lia. now apply Nat.log2_le_mono. }
  set (n := (digits maxw - s)%nat).
  assert (Hn : (1 <= n)%nat) by (subst n; unfold digits; lia).
  destruct (distribute_ok prec s HP (distribute_fuel q) g d (repeat [] n) q B Q) as (d1 & tops & q1 & g1 & E1 & B1 & G1 & Q1' & T1 & L1 & Low & V1 & X1 & _ & Head & Split & Ref).
  { apply Forall_forall. intros x Hx. apply repeat_spec in Hx as ->. constructor. }
  { unfold distribute_fuel. lia. }
  { intros e He. rewrite repeat_length. subst n. assert (fst e <= maxw)%nat.
    { pose proof (qk_sorted _ _ Q) as Hsrt'. rewrite Eq in Hsrt'. apply StronglySorted_inv in Hsrt' as (_ & F). rewrite Forall_forall in F.
      rewrite Eq in He. destruct He as [<-|He]; [cbn; lia|]. specialize (F _ He). cbn [fst] in F. lia. }
    pose proof (Nat.log2_le_mono _ _ H). unfold digits in *. lia. }
  rewrite repeat_length in L1. rewrite bsum_repeat in X1.
  assert (V1' : forall a, bsum (cval g1 a) tops = qsum (cval g a) s q) by (intros a; rewrite V1, bsum_repeat; lia). clear V1.
  destruct (Ref B0 HR HI HQ) as (HR1 & HI1 & HQ1 & HT1); [apply Forall_forall; intros x Hx; apply repeat_spec in Hx as ->; constructor|]. clear Ref.
  assert (Spl : forall s', (s' <= s)%nat ->
       (forall a, qsum (cval g a) s' q = 2 ^ (s - s') * qsum (cval g a) s q + qsum (cval g1 a) s' q1)%nat /\
       qsum (cmax (d_nodes d)) s' q = (2 ^ (s - s') * qsum (cmax (d_nodes d)) s q + qsum (cmax (d_nodes d1)) s' q1)%nat).
  { intros s' Hs'. destruct (Split s' Hs') as (Sv & Sx). rewrite Nat.add_0_l in X1. split; [intros a; specialize (Sv a); rewrite V1' in Sv|rewrite X1 in Sx].
    all: rewrite bsum_repeat, Nat.mul_0_r, Nat.add_0_r in *; auto. }
  clear Split.
  unfold build_structure. rewrite Eq. rewrite <- Eq. rewrite HS. replace (s <=? digits maxw)%nat with true by (unfold digits; lia). cbn [assertb obind].
  fold n. rewrite E1. cbn [obind].
  destruct (tp && (digits maxw =? 1)%nat) eqn:Edd.
  - (* a single bucket *)
    apply andb_true_iff in Edd as (-> & Ed). apply Nat.eqb_eq in Ed.
    assert (maxw = 1%nat) as ->.
    { unfold digits in Ed. assert (Hl : Nat.log2 maxw = 0%nat) by lia. apply Nat.log2_null in Hl. lia. }
    assert (s = 0%nat) as -> by (cbn in Hs; lia).
    assert (q0 = []) as ->.
    { destruct q0 as [|e q0]; [reflexivity|exfalso]. pose proof (qk_sorted _ _ Q) as Hsrt'. rewrite Eq in Hsrt'. apply StronglySorted_inv in Hsrt' as (_ & F).
      apply Forall_inv in F. cbn [fst] in F. pose proof (qk_cons _ _ Q) as H. rewrite Eq in H. apply Forall_inv_tail, Forall_inv in H. lia. }
    assert (n = 1%nat) as En by (subst n; reflexivity).
    (* run the loop *)
    pose proof (qk_cons _ _ Q) as Hc. rewrite Eq in Hc. apply Forall_inv in Hc as (_ & Ne & Uk). cbn [snd] in Ne, Uk.
    destruct (merge_balanced_ok g d cs0 B) as (dm & con & gm & Em & Bm & Gm & Mm); [eapply Forall_impl; [|exact Uk]; intros c (H & _); exact H|auto|].
    destruct Mm as (C1 & C2 & C3 & _ & C5 & _).
    assert (Uc : ucon (d_nodes dm) con) by (split; [auto|]; apply C5; eapply Forall_impl; [|exact Uk]; intros c (_ & H); exact H).
    assert (E1' : distribute (distribute_fuel q) prec d (repeat [] n) q = Some (dm, [[con]], [])).
    { rewrite En, Eq. unfold distribute_fuel. cbn [distribute repeat]. replace (1 <? prec)%nat with false by lia. rewrite Em. cbn [obind]. rewrite HS. reflexivity. }
    rewrite E1' in E1. injection E1 as <- <- <-. destruct (merge_balanced_ref B0 _ _ _ _ Em HR HI) as (_ & _ & Oc); [rewrite Eq in HQ; now apply Forall_inv in HQ|]. cbn [nth_error obind length Nat.eqb assertb].
    destruct (ucon_gV gm dm con Bm Uc) as (O3 & D3 & nb & N3 & U3 & Vb & Xb). destruct Uc as (_ & M3 & _). rewrite O3, D3, M3. cbn [Nat.eqb andb assertb obind].
    eexists _, _, _, g1. split; [f_equal; f_equal; cbn [sr_tares length]; lia|]. split; [exact B1|].
    split; [exact G1|]. split; [reflexivity|]. split; [reflexivity|]. split; [cbn [sr_tares length]; lia|]. split; [exact Q1'|]. split; [intros ? []|]. split; [exact Hs|]. split; [exact Spl|].
    exists (nc_id con), [], 0%nat, nb. cbn [sr_bottoms sr_tares length]. split; [auto|]. split; [auto|]. split; [auto|]. split; [lia|].
    split; [intros a; apply Nat.divide_1_l|]. split; [apply Nat.divide_1_l|]. cbn [tv]. fold n. rewrite En. cbn [Nat.sub Nat.pow].
    destruct (ucon_gV g1 dm con B1 (Forall_inv (Forall_inv T1))) as (_ & _ & nb' & N3' & _ & Vb' & Xb'). assert (nb' = nb) as -> by congruence.
    split; [intros a; rewrite Nat.div_1_r, Nat.add_0_r, <- V1', Vb'; unfold bsum, tsum; cbn [map list_sum fold_right]; lia|].
    split; [rewrite Nat.div_1_r, Nat.add_0_r, Xb'; rewrite Nat.add_0_l in X1; rewrite <- X1; unfold bsum, tsum; cbn [map list_sum fold_right]; lia|].
    split; [exact HR1|]. split; [exact Oc|]. intros X. now destruct X.
  - (* several buckets *)
    replace (1 <=? n)%nat with true by lia. rewrite orb_true_r. cbn [assertb obind].
    set (nt := (n - if tp then 1 else 0)%nat).
    change (map (fun i => pos (next + N.of_nat i)) (seq 0 nt)) with (tares_from next nt).
    assert (Hlast : exists cs, nth_error tops (length tops - 1) = Some cs /\ cs <> []).
    { destruct (Head _ _ Eq ltac:(cbn [fst]; lia)) as (cs & c & H). cbn [fst] in H. replace (length tops - 1)%nat with (digits maxw - 1 - s)%nat by (subst n; lia).
      destruct H as [H|(cs' & H)]; eexists; (split; [exact H|]); destruct cs; discriminate. }
    assert (Lt : length (tares_from next nt) = nt) by apply tares_from_length.
    destruct (buckets_ok srt Hsrt g1 d1 tops (tares_from next nt) (match q1 with [] => false | _ => true end) tp B1 T1 ltac:(rewrite Lt; subst nt; now rewrite L1) Hlast B0 HR1 HI1 HT1)
      as (d2 & bottoms & g2 & E2 & B2 & G2 & b & rest & -> & k & nb & Hk & Hem & Nb & Ub & Vb & Xb & NR & Ob & Hch).
    rewrite L1 in *. rewrite E2. cbn [obind]. set (tares := tares_from next nt) in *.
    exists (mkStr (b :: rest) tares prec), d2, q1, g2. cbn [sr_tares sr_prec sr_bottoms]. rewrite Lt in *.
    destruct (Nat.eq_dec n 0) as [Hn0|_]; [lia|].
    split; [reflexivity|]. split; [auto|]. split; [eapply growd_trans; [|exact G2]; eapply growd_incl; [|exact G1]; intros ? []|]. split; [auto|]. split; [auto|]. split; [auto|].
    split; [eapply qok_growd; [exact G2|auto]|]. split; [auto|]. split; [auto|].
    split. { intros s' Hs'. destruct (Spl s' Hs') as (Sv & Sx). destruct (qsum_growd _ _ _ _ _ s' q1 G2 Q1') as (Gs1 & Gs2). rewrite Gs2. split; [intros a; rewrite Gs1; auto|auto]. }
    rewrite Nat.add_0_l in X1. exists b, rest, k, nb. split; [auto|]. split; [auto|]. split; [auto|]. split; [lia|].
    split; [intros a; rewrite <- V1'; now apply bsum_div|]. split; [rewrite <- X1; now apply bsum_div|]. fold n.
    split; [intros a; rewrite Vb, V1'; reflexivity|]. split; [rewrite Xb, X1; reflexivity|].
    destruct q1 as [|e1 q1'] eqn:Eq1; [cbn [app] in NR; split; [exact NR|]; split; [exact Ob|congruence]|]. rewrite <- Eq1 in *. clear Eq1 e1 q1'.
    destruct (Hch eq_refl) as (bc & du & Eb & Hc & Hdu & F & ND & Lb & Hv & Hx).
    assert (Fb : Forall (fun x => (length (d_nodes d1) <= x)%nat) (b :: rest)).
    { rewrite <- Eb. apply Forall_forall. intros x Hx'. apply in_map_iff in Hx' as (y & <- & Hy). rewrite Forall_forall in F. now destruct (F y Hy). }
    assert (Sb : forall x, In x (b :: rest) -> ~ In x B0).
    { intros x X Y. rewrite Forall_forall in Fb. specialize (Fb x X). apply (inner_lt _ _ _ HI1) in Y. lia. }
    assert (Dn : nth_error (d_nodes d2) du = Some NDummy) by (apply B2; auto).
    assert (HI2 : inner B0 (d_nodes d2)) by (destruct G2 as ((new & -> & _) & _); now apply inner_app).
    assert (NRB : nref B0 (d_nodes d2)).
    { intros id m l r Em Cm Hid. destruct (in_dec Nat.eq_dec id (b :: rest)) as [Hin|Hin].
      2:{ destruct (NR id m l r Em Cm) as (A1 & A2); [intros X; apply in_app_or in X as [X|X]; auto|]. split; intros X; [apply A1|apply A2]; apply in_or_app; now right. }
      assert (Hg : forall bc, Forall (fun x => ~ In (nc_id (snd x)) B0) bc -> (forall x, In x (map fst bc) -> ~ In x B0) -> chain (d_nodes d2) bc (con_full du) -> In id (map fst bc) -> ~ In (nc_id l) B0 /\ ~ In (nc_id r) B0).
      { clear - HI2 Dn Em Cm. induction bc as [|(b0 & c0) bc IH]; intros F1 F2 Hc X; [destruct X|]. cbn [chain map fst] in *. destruct Hc as ((lits & El) & Hc). destruct X as [->|X].
        - rewrite Em in El. injection El as ->. cbn [children] in Cm. injection Cm as <- <-. split; [now apply Forall_inv in F1|].
          destruct bc as [|(b1 & c1) bc]; [cbn [con_full nc_id]; eapply nref_dummy; eauto|]. cbn [half nc_id]. apply F2. right. now left.
        - apply IH; auto; [now apply Forall_inv_tail in F1|]. intros y Y. apply F2. now right. }
      apply (Hg bc); auto; [|rewrite Eb; auto|rewrite Eb; auto]. eapply Forall_impl; [|exact F]. intros x (_ & _ & X) Y. apply X, in_or_app. now right. }
    split; [exact NRB|]. split; [exact Ob|]. intros _.
    exists bc. split; [|split; [|split; [|split; [|split; [|split; [|split]]]]]].
    + split; [auto|]. split; [auto|]. split; [exists du; auto|]. eapply Forall_impl; [|exact F]. intros x (_ & X1' & X2). split; [auto|]. intros Y. apply X2, in_or_app. now left.
    + eapply Forall_impl; [|exact F]. intros x (_ & _ & X) Y. apply X, in_or_app. now right.
    + eapply Forall_impl; [|exact Fb]. cbn. intros x X. pose proof (growd_length _ _ _ _ _ G1). lia.
    + exact NR.
    + rewrite Forall_forall in *. intros e He. rewrite Forall_forall. intros c Hcc Y. apply in_app_or in Y as [Y|Y].
      * specialize (Fb _ Y). pose proof (qk_cons _ _ Q1') as Hk1. rewrite Forall_forall in Hk1. destruct (Hk1 e He) as (_ & _ & U). unfold uok in U. rewrite Forall_forall in U. specialize (U c Hcc). apply ucon_lt in U. lia.
      * specialize (HQ1 e He). rewrite Forall_forall in HQ1. exact (HQ1 c Hcc Y).
    + exact Lb.
    + intros a. rewrite <- V1', <- Hv. unfold accv. assert (Hmin : Nat.min n nt = nt) by (subst nt; destruct tp; lia). rewrite Lt, Hmin, <- L1, firstn_all. reflexivity.
    + rewrite <- X1, <- Hx. unfold accm. assert (Hmin : Nat.min n nt = nt) by (subst nt; destruct tp; lia). rewrite Lt, Hmin, <- L1, firstn_all. reflexivity.
Qed.
End Build.

(** ** The initial queue *)
Definition queue_of (g : ghost) (ns : list node) (q : wqueue) (xs : list (lit * nat)) : Prop :=
  (forall a s, qsum (cval g a) s q = wsum a (map (fun x => (fst x, snd x / 2 ^ s)) xs))%nat /\
  (forall s, qsum (cmax ns) s q = total_weight (map (fun x => (fst x, snd x / 2 ^ s)) xs))%nat /\
  (forall x, In x xs -> exists e, In e q /\ fst e = snd x).

Lemma q_push_keys q w c e : (In e q -> exists e', In e' (q_push q w c) /\ fst e' = fst e) /\ exists e', In e' (q_push q w c) /\ fst e' = w.
Proof.
  induction q as [|(k & cs) q (IH1 & IH2)]; cbn [q_push].
  - split; [intros []|]. exists (w, [c]). split; [now left|reflexivity].
  - destruct (Nat.eqb_spec k w) as [->|Hne].
    + split; [|exists (w, cs ++ [c]); split; [now left|reflexivity]].
      intros [<-|H]; [exists (w, cs ++ [c]); split; [now left|reflexivity]|exists e; split; [now right|reflexivity]].
    + destruct (k <? w)%nat.
      * split; [intros H; exists e; split; [now right|reflexivity]|]. exists (w, [c]). split; [now left|reflexivity].
      * split; [|destruct IH2 as (e' & H & E); exists e'; split; [now right|auto]].
        intros [<-|H]; [exists (k, cs); split; [now left|reflexivity]|]. destruct (IH1 H) as (e' & H' & E). exists e'. split; [now right|auto].
Qed.

Lemma queue_init xs : (forall x, In x xs -> (1 <= snd x)%nat) ->
  exists d q g, foldM queue_lit xs (db_empty, []) = Some (d, q) /\ built g d /\ growd (map (fun x => lvar (fst x)) xs) db_empty ghost0 d g /\
    qok (d_nodes d) q /\ queue_of g (d_nodes d) q xs.
Proof.
  intros Hp.
  destruct (foldM_ind queue_lit (fun done s => exists g, built g (fst s) /\ growd (map (fun x => lvar (fst x)) xs) db_empty ghost0 (fst s) g /\
     qok (d_nodes (fst s)) (snd s) /\ queue_of g (d_nodes (fst s)) (snd s) done) xs (db_empty, [])) as ((d & q) & E & g & H).
  - exists ghost0. cbn [fst snd]. split; [apply built_empty|]. split; [apply growd_refl|]. split; [constructor; constructor|].
    split; [reflexivity|]. split; [reflexivity|]. intros x [].
  - intros done (l & w) (d & q) (rest & El) (g & B & G & Q & (H1 & H2 & H3)). cbn [fst snd] in *.
    assert (Hw : (1 <= w)%nat) by (apply (Hp (l, w)); rewrite El; apply in_or_app; right; now left).
    cbn [queue_lit fst snd]. destruct (insert_leaf g d l B) as (d' & id & g' & -> & B' & G' & N' & C' & V' & _). apply growd_of_grow in G'.
    unfold con_weighted. replace (w =? 0)%nat with false by lia. cbn [obind nc_mult con_reweight nc_id nc_offset nc_div nc_limit].
    change (con_reweight (mkCon id 0 1 w None) 1) with (con_full id).
    eexists. split; [reflexivity|]. exists g'. cbn [fst snd]. split; [auto|].
    split; [eapply growd_trans; [exact G|]; eapply growd_incl; [|exact G']; intros v [<-|[]]; apply (in_map (fun x : lit * nat => lvar (fst x)) xs (l, w)); rewrite El; apply in_or_app; right; now left|].
    assert (Ul : ucon (d_nodes d') (con_full id)).
    { split; [auto|]. split; [reflexivity|]. exists (NLeaf l). split; [exact N'|exact Logic.I]. }
    split; [apply qok_push; [eapply qok_growd; eauto|auto|auto]|].
    split; [|split].
    + intros a s. rewrite qsum_push. destruct (qsum_growd _ _ _ _ _ s q G' Q) as (A1 & _). rewrite A1, H1, map_app, wsum_app. cbn [map wsum fst snd]. rewrite V'.
      destruct (lit_true a l); lia.
    + intros s. rewrite qsum_push. destruct (qsum_growd _ _ _ _ _ s q G' Q) as (_ & A2). rewrite A2, H2, map_app, total_weight_app. cbn [map total_weight fst snd].
      unfold cmax. cbn [con_full nc_id]. rewrite N', simple_con_map by (repeat split). cbn [node_max_val nc_mult con_full]. lia.
    + intros x Hx. apply in_app_or in Hx as [Hx|[<-|[]]].
      * destruct (H3 x Hx) as (e & He & <-). apply (q_push_keys q w (con_full id) e). exact He.
      * cbn [snd]. apply (q_push_keys q w (con_full id) (w, [])).
  - exists d, q, g. split; [exact E|exact H].
Qed.

(** ** Assumptions on the tares *)
Lemma set_tares_ok tares : forall p ub e, (p <= length tares)%nat -> (ub <= e < ub + 2 ^ p)%nat ->
  exists L sel, set_tares tares p ub e = Some (L, ub) /\
    (forall j, (j < p)%nat -> sel j = 0%nat \/ sel j = 1%nat) /\
    (forall l, In l L <-> exists j, (j < p)%nat /\ sel j = 1%nat /\ nth_error tares j = Some l) /\
    (forall k, (k <= p)%nat -> tv sel k p <= e - ub < tv sel k p + 2 ^ k)%nat.
Proof.
  induction p as [|p IH]; intros ub e Hp He; cbn [set_tares].
  - cbn [Nat.pow] in He. assert (e = ub) as -> by lia. exists [], (fun _ => 0%nat). split; [reflexivity|]. split; [auto|]. split; [|cbn [tv]; intros k Hk; pose proof (pow2_pos k); lia].
    intros l. split; [intros []|intros (j & H & _); lia].
  - pose proof (pow2_pos p) as P. cbn [Nat.pow] in He.
    assert (Hext : forall sel b k j, (j <= p)%nat -> tv (fun i => if (i =? p)%nat then b else sel i) k j = tv sel k j).
    { intros sel b k j Hj. apply tv_ext. intros i Hi. replace (i =? p)%nat with false by lia. reflexivity. }
    destruct (Nat.leb_spec (ub + 2 ^ p) e) as [L|L].
    + destruct (nth_error tares p) as [t|] eqn:Et; [|apply nth_error_None in Et; lia]. cbn [obind].
      destruct (IH ub (e - 2 ^ p)%nat ltac:(lia) ltac:(lia)) as (Ls & sel & -> & H01 & HL & Hv). cbn [obind fst snd].
      exists (t :: Ls), (fun i => if (i =? p)%nat then 1%nat else sel i). split; [reflexivity|]. split; [|split].
      * intros j Hj. destruct (Nat.eqb_spec j p); [auto|]. apply H01. lia.
      * intros l. cbn [In]. rewrite HL. split.
        -- intros [<-|(j & Hj & Hs & Hn)]; [exists p; rewrite Nat.eqb_refl; auto|]. exists j. replace (j =? p)%nat with false by lia. split; [lia|auto].
        -- intros (j & Hj & Hs & Hn). destruct (Nat.eqb_spec j p) as [->|]; [left; congruence|]. right. exists j. split; [lia|auto].
      * intros k Hk. cbn [tv]. rewrite Hext by lia. rewrite Nat.eqb_refl. destruct (Nat.leb_spec k p) as [K|K].
        -- specialize (Hv k K). lia.
        -- assert (k = S p) as -> by lia. rewrite tv_low by lia. cbn [Nat.pow]. lia.
    + destruct (IH ub e ltac:(lia) ltac:(lia)) as (Ls & sel & -> & H01 & HL & Hv).
      exists Ls, (fun i => if (i =? p)%nat then 0%nat else sel i). split; [reflexivity|]. split; [|split].
      * intros j Hj. destruct (Nat.eqb_spec j p); [auto|]. apply H01. lia.
      * intros l. rewrite HL. split.
        -- intros (j & Hj & Hs & Hn). exists j. replace (j =? p)%nat with false by lia. split; [lia|auto].
        -- intros (j & Hj & Hs & Hn). destruct (Nat.eqb_spec j p) as [->|]; [lia|]. exists j. split; [lia|auto].
      * intros k Hk. cbn [tv]. rewrite Hext by lia. rewrite Nat.eqb_refl. rewrite Nat.mul_0_r. destruct (Nat.leb_spec k p) as [K|K].
        -- specialize (Hv k K). lia.
        -- assert (k = S p) as -> by lia. rewrite tv_low by lia. cbn [Nat.pow]. lia.
Qed.

(** multiples of [2 ^ k] below a multiple of [2 ^ k] *)
Lemma mult_lt k x y : Nat.divide (2 ^ k) x -> Nat.divide (2 ^ k) y -> (x < y)%nat -> (x + 2 ^ k <= y)%nat.
Proof. intros (i & ->) (j & ->) H. pose proof (pow2_pos k). assert (i < j)%nat by nia. nia. Qed.

Lemma pow_divide k p : (k <= p)%nat -> Nat.divide (2 ^ k) (2 ^ p).
Proof. intros H. exists (2 ^ (p - k))%nat. rewrite <- Nat.pow_add_r. f_equal. lia. Qed.

(** the arithmetic of enforcing a bound *)
Lemma bound_sound S T tvs k p ub M : (k <= p)%nat -> Nat.divide (2 ^ k) S -> Nat.divide (2 ^ k) T ->
  (M = (ub / 2 ^ p + 1) * 2 ^ p - 1)%nat -> (tvs <= T)%nat -> (M - ub < tvs + 2 ^ k)%nat ->
  ((S + T) / 2 ^ p < ub / 2 ^ p + 1)%nat -> (S <= ub)%nat.
Proof.
  intros Hk DS DT -> Ht Hd Hlt. pose proof (pow2_pos p) as P. pose proof (pow2_pos k) as PK.
  assert (H : (S + T < (ub / 2 ^ p + 1) * 2 ^ p)%nat).
  { pose proof (Nat.div_mod_eq (S + T) (2 ^ p)). pose proof (Nat.mod_upper_bound (S + T) (2 ^ p) ltac:(lia)). nia. }
  assert (DM : Nat.divide (2 ^ k) ((ub / 2 ^ p + 1) * 2 ^ p)) by (apply Nat.divide_mul_r, pow_divide; auto).
  pose proof (mult_lt k _ _ (Nat.divide_add_r _ _ _ DS DT) DM H).
  assert (ub < (ub / 2 ^ p + 1) * 2 ^ p)%nat.
  { pose proof (Nat.div_mod_eq ub (2 ^ p)). pose proof (Nat.mod_upper_bound ub (2 ^ p) ltac:(lia)). nia. }
  lia.
Qed.
Lemma bound_complete S T p ub M : (M = (ub / 2 ^ p + 1) * 2 ^ p - 1)%nat -> (S <= ub)%nat -> (T <= M - ub)%nat -> ((S + T) / 2 ^ p < ub / 2 ^ p + 1)%nat.
Proof.
  intros -> HS HT. pose proof (pow2_pos p) as P.
  assert (ub < (ub / 2 ^ p + 1) * 2 ^ p)%nat.
  { pose proof (Nat.div_mod_eq ub (2 ^ p)). pose proof (Nat.mod_upper_bound ub (2 ^ p) ltac:(lia)). nia. }
  apply Nat.div_lt_upper_bound; lia.
Qed.
Lemma bound_max W k p ub : (k <= p)%nat -> Nat.divide (2 ^ k) W -> ((W + tv (fun _ => 1) k p) / 2 ^ p <= ub / 2 ^ p)%nat -> (W <= ub)%nat.
Proof.
  intros Hk DW H. pose proof (pow2_pos p) as P. pose proof (pow2_pos k) as PK. pose proof (tv_one k p Hk) as To.
  pose proof (Nat.div_mod_eq (W + tv (fun _ => 1%nat) k p) (2 ^ p)). pose proof (Nat.mod_upper_bound (W + tv (fun _ => 1%nat) k p) (2 ^ p) ltac:(lia)).
  pose proof (Nat.div_mod_eq ub (2 ^ p)). 
  assert (Hx : (W < ub / 2 ^ p * 2 ^ p + 2 ^ k)%nat) by nia.
  assert (D2 : Nat.divide (2 ^ k) (ub / 2 ^ p * 2 ^ p)) by (apply Nat.divide_mul_r, pow_divide; auto).
  destruct (Nat.le_gt_cases W (ub / 2 ^ p * 2 ^ p)) as [L|L]; [nia|]. pose proof (mult_lt k _ _ D2 DW L). lia.
Qed.

Lemma scaled_pow prec s m : prec_ok prec s -> scaled prec m = map (fun x => (fst x, (snd x / 2 ^ s)%nat)) m.
Proof. intros H. unfold scaled. now rewrite (prec_log2 _ _ H). Qed.
