(** * Merging connections into one tree *)

From Coq Require Import List Bool NArith ZArith Lia Arith Sorted.
From Coq Require Import ZifyBool ZifyNat ZifyN.
From Verif Require Import Spec Types Atomics NodeDb TreeSpec TotDb Base TotDbInv TotDbUnit TotDbGeneral TotDbBuild TotDbGrow.
Import ListNotations.

(** ** Leaves *)
Lemma scale_1 ls : scale 1 ls = ls.
Proof. unfold scale. induction ls as [|[l x] ls IH]; cbn [map]; [auto|]. rewrite IH, Nat.mul_1_r. reflexivity. Qed.
Lemma scale_app w l1 l2 : scale w (l1 ++ l2) = scale w l1 ++ scale w l2.
Proof. apply map_app. Qed.

Lemma tree_leaves_app ns ns' id ls : tree_leaves ns id ls -> tree_leaves (ns ++ ns') id ls.
Proof.
  induction 1 as [id l E|id n l r ls rs E C P1 P2 T1 I1 T2 I2].
  - apply tl_leaf. rewrite nth_error_app1; [auto|]. apply nth_error_Some. congruence.
  - eapply tl_node; eauto. rewrite nth_error_app1; [auto|]. apply nth_error_Some. congruence.
Qed.

Lemma con_leaves_grow vs d g d' g' con ls : grow vs d g d' g' -> con_leaves (d_nodes d) con ls -> con_leaves (d_nodes d') con ls.
Proof. intros ((new & -> & _) & _) (P & ls0 & T & E). split; [auto|]. exists ls0. split; [now apply tree_leaves_app|auto]. Qed.

Lemma node_internal_children ns l r n : node_internal ns l r = Some n -> children n = Some (l, r).
Proof.
  unfold node_internal. intros H. apply obind_some in H as (nl & _ & H). apply obind_some in H as (nr & _ & H).
  destruct (_ || _).
  - apply obind_some in H as (u & _ & H). apply obind_some in H as (u' & _ & H). unfold general_new in H.
    destruct (fold_left _ _ _) as [|[v0 x] lits]; [discriminate|].
    apply obind_some in H as (u2 & _ & H). apply obind_some in H as (u3 & _ & H). now injection H as <-.
  - apply obind_some in H as (u & _ & H). apply obind_some in H as (u1 & _ & H). apply obind_some in H as (u2 & _ & H). now injection H as <-.
Qed.

Lemma insert_children d n l r : children n = Some (l, r) -> db_insert d n = (mkDb (d_nodes d ++ [n]) (d_lookup d) (d_dummy d), length (d_nodes d)).
Proof. destruct n; cbn; try discriminate; reflexivity. Qed.

Lemma merge_two_leaves d l r d' con ls rs : merge_two d l r = Some (d', con) -> con_leaves (d_nodes d) l ls -> con_leaves (d_nodes d) r rs ->
  con_leaves (d_nodes d') con (ls ++ rs).
Proof.
  unfold merge_two. intros H (Pl & l0 & Tl & ->) (Pr & r0 & Tr & ->). destruct (_ && _) eqn:Eq.
  - apply obind_some in H as (n & En & H). pose proof (node_internal_children _ _ _ _ En) as C. rewrite (insert_children _ _ _ _ C) in H.
    apply obind_some in H as (c & Ec & H). injection H as <- <-. unfold con_weighted in Ec. destruct (_ =? 0)%nat; [discriminate|]. injection Ec as <-.
    cbn [d_nodes nc_id nc_mult]. split; [repeat split|]. exists (scale 1 l0 ++ scale 1 r0). split.
    + eapply (tl_node _ _ n (con_reweight l 1) (con_reweight r 1)).
      * rewrite nth_error_app2 by (cbn; lia). cbn [nc_id con_full]. rewrite Nat.sub_diag. reflexivity.
      * exact C.
      * destruct Pl as (? & ? & ?). repeat split; auto.
      * destruct Pr as (? & ? & ?). repeat split; auto.
      * apply tree_leaves_app. exact Tl.
      * apply tree_leaves_app. exact Tr.
    + rewrite !scale_1, scale_app. cbn [nc_mult]. replace (nc_mult r) with (nc_mult l) by lia. reflexivity.
  - apply obind_some in H as (n & En & H). pose proof (node_internal_children _ _ _ _ En) as C. rewrite (insert_children _ _ _ _ C) in H.
    injection H as <- <-. cbn [d_nodes con_full nc_id nc_mult]. split; [repeat split|]. exists (scale (nc_mult l) l0 ++ scale (nc_mult r) r0). split.
    + eapply (tl_node _ _ n l r); auto.
      * rewrite nth_error_app2 by (cbn; lia). cbn [nc_id con_full]. rewrite Nat.sub_diag. reflexivity.
      * apply tree_leaves_app. exact Tl.
      * apply tree_leaves_app. exact Tr.
    + cbn [nc_mult con_full]. now rewrite scale_1.
Qed.

(** [con] is a tree over the connections [l] of an earlier state [(g0, ns0)] *)
Definition merged (g0 : ghost) (ns0 : list node) (l : list nodecon) (g : ghost) (ns : list node) (con : nodecon) : Prop :=
  con_good ns con /\
  (forall a, cval g a con = list_sum (map (cval g0 a) l)) /\
  cmax ns con = list_sum (map (cmax ns0) l) /\
  (forall a xs, Forall2 (reach g0 a) l xs -> reach g a con (list_sum xs)) /\
  (Forall (unit_con ns0) l -> unit_con ns con) /\
  (forall lss, Forall2 (con_leaves ns0) l lss -> con_leaves ns con (concat lss)).

Lemma merged_single g ns c : con_good ns c -> merged g ns [c] g ns c.
Proof.
  intros H. split; [auto|]. cbn [map list_sum fold_right]. split; [intros; lia|]. split; [lia|]. split.
  - intros a xs F. inv F. inv H4. cbn [list_sum fold_right]. now rewrite Nat.add_0_r.
  - split; [intros F; now inv F|]. intros lss F. inv F. inv H4. cbn [concat]. now rewrite app_nil_r.
Qed.

Lemma merged_grow vs g0 ns0 l g d con g' d' : grow vs d g d' g' -> merged g0 ns0 l g (d_nodes d) con -> merged g0 ns0 l g' (d_nodes d') con.
Proof.
  intros G (H1 & H2 & H3 & H4 & H5 & H6). pose proof (con_good_lt _ _ H1) as L.
  split; [eapply con_good_grow; eauto|]. split; [intros; rewrite (cval_grow _ _ _ _ _ _ _ G L); auto|].
  split; [now rewrite (cmax_grow _ _ _ _ _ _ G L)|]. split.
  - intros a xs F. apply (reach_grow _ _ _ _ _ _ _ _ G L). auto.
  - split; [intros F; eapply unit_con_grow; eauto|]. intros lss F. eapply con_leaves_grow; eauto.
Qed.

Lemma Forall2_app_inv_l' {A B} (R : A -> B -> Prop) l1 l2 xs : Forall2 R (l1 ++ l2) xs ->
  exists xs1 xs2, xs = xs1 ++ xs2 /\ Forall2 R l1 xs1 /\ Forall2 R l2 xs2.
Proof. intros H. apply Forall2_app_inv_l in H as (x1 & x2 & H1 & H2 & ->). eauto. Qed.

Lemma merged_two g0 ns0 l1 l2 g d c1 c2 : built g d -> merged g0 ns0 l1 g (d_nodes d) c1 -> merged g0 ns0 l2 g (d_nodes d) c2 ->
  exists d' con g', merge_two d c1 c2 = Some (d', con) /\ built g' d' /\ grow [] d g d' g' /\ merged g0 ns0 (l1 ++ l2) g' (d_nodes d') con.
Proof.
  intros B (A1 & A2 & A3 & A4 & A5 & A6) (C1 & C2 & C3 & C4 & C5 & C6).
  destruct (merge_two_ok g d c1 c2 B A1 C1) as (d' & con & g' & E & B' & G & H1 & H2 & H3 & H4 & H5).
  exists d', con, g'. split; [auto|]. split; [auto|]. split; [auto|]. split; [auto|].
  split; [intros a; rewrite H2, A2, C2, map_app, list_sum_app; reflexivity|].
  split; [rewrite H4, A3, C3, map_app, list_sum_app; reflexivity|]. split.
  - intros a xs F. apply Forall2_app_inv_l' in F as (x1 & x2 & -> & F1 & F2). rewrite list_sum_app. apply H3; auto.
  - split; [intros F; apply Forall_app in F as (F1 & F2); auto|].
    intros lss F. apply Forall2_app_inv_l' in F as (x1 & x2 & -> & F1 & F2). rewrite concat_app. eapply merge_two_leaves; eauto.
Qed.

(** ** Widths and reversed bits *)

Definition nk (n k : nat) : nat := (n / 2 ^ k)%nat.
Definition bk (n k : nat) : nat := (nk n k mod 2)%nat.
Fixpoint Rk (n k : nat) : Z := match k with O => 0%Z | S k' => (2 * Rk n k' + Z.of_nat (bk n k'))%Z end.
Definition extw (rev : Z) (i : nat) : nat := if extend_bit (Z.of_nat i) rev then 1%nat else 0%nat.

Lemma nk_S n k : nk n (S k) = (nk n k / 2)%nat.
Proof. unfold nk. rewrite Nat.pow_succ_r', Nat.mul_comm, Nat.div_div by (try apply Nat.pow_nonzero; lia). reflexivity. Qed.
Lemma nk_0 n : nk n 0 = n.
Proof. unfold nk. cbn [Nat.pow]. apply Nat.div_1_r. Qed.
Lemma nk_split n k : nk n k = (2 * nk n (S k) + bk n k)%nat.
Proof. rewrite nk_S. unfold bk. apply Nat.div_mod_eq. Qed.
Lemma bk_lt n k : (bk n k < 2)%nat.
Proof. unfold bk. apply Nat.mod_upper_bound. lia. Qed.
Lemma nk_le n k : (nk n k <= n)%nat.
Proof. unfold nk. apply Nat.div_le_upper_bound; [apply Nat.pow_nonzero; lia|]. pose proof (Nat.pow_nonzero 2 k). nia. Qed.
Lemma Rk_nonneg n k : (0 <= Rk n k)%Z.
Proof. induction k; cbn [Rk]; lia. Qed.

Lemma ext_odd n k i : (1 <= i)%nat -> extw (Rk n (S k)) (2 * i - 1) = bk n k.
Proof.
  intros Hi. unfold extw, extend_bit. set (j := Z.of_nat (2 * i - 1)).
  assert (E : Z.land j (- j) = 1%Z).
  { assert (Ej : j = (2 * Z.of_nat (i - 1) + 1)%Z) by lia.
    assert (En : (- j)%Z = (2 * (- Z.of_nat (i - 1) - 1) + 1)%Z) by lia.
    rewrite En, Ej. set (m := Z.of_nat (i - 1)).
    apply Z.bits_inj'. intros p Hp. rewrite Z.land_spec.
    destruct (Z.eq_dec p 0) as [->|Hp0].
    - rewrite !Z.testbit_odd_0. reflexivity.
    - replace p with (Z.succ (Z.pred p)) by lia. rewrite !Z.testbit_odd_succ by lia.
      replace (Z.testbit 1 (Z.succ (Z.pred p))) with false by (symmetry; change 1%Z with (2 ^ 0)%Z; apply Z.pow2_bits_false; lia).
      replace (- m - 1)%Z with (Z.lnot m) by (unfold Z.lnot; lia). rewrite Z.lnot_spec by lia. apply andb_negb_r. }
  rewrite E. cbn [Rk]. pose proof (bk_lt n k) as Hb.
  assert (E2 : Z.land 1 (2 * Rk n k + Z.of_nat (bk n k)) = Z.of_nat (bk n k)).
  { rewrite Z.land_comm. change 1%Z with (Z.ones 1). rewrite Z.land_ones by lia. change (2 ^ 1)%Z with 2%Z.
    replace (2 * Rk n k + Z.of_nat (bk n k))%Z with (Z.of_nat (bk n k) + Rk n k * 2)%Z by lia. rewrite Z_mod_plus_full, Z.mod_small by lia. reflexivity. }
  rewrite E2. destruct (bk n k) as [|[|]]; [reflexivity|reflexivity|lia].
Qed.

Lemma ext_even n k i : extw (Rk n (S k)) (2 * i) = extw (Rk n k) i.
Proof.
  unfold extw, extend_bit. cbn [Rk]. set (m := Z.of_nat i). replace (Z.of_nat (2 * i)) with (2 * m)%Z by lia.
  assert (E : Z.land (2 * m) (- (2 * m)) = (2 * Z.land m (- m))%Z).
  { replace (- (2 * m))%Z with (2 * (- m))%Z by lia.
    apply Z.bits_inj'. intros p Hp. rewrite Z.land_spec. destruct (Z.eq_dec p 0) as [->|Hp0].
    - rewrite !Z.testbit_even_0. reflexivity.
    - replace p with (Z.succ (Z.pred p)) by lia. rewrite !Z.testbit_even_succ by lia. now rewrite Z.land_spec. }
  rewrite E. pose proof (bk_lt n k) as Hb.
  assert (E2 : Z.land (2 * Z.land m (- m)) (2 * Rk n k + Z.of_nat (bk n k)) = (2 * Z.land (Z.land m (- m)) (Rk n k))%Z).
  { apply Z.bits_inj'. intros p Hp. rewrite Z.land_spec. destruct (Z.eq_dec p 0) as [->|Hp0].
    - rewrite !Z.testbit_even_0. reflexivity.
    - replace p with (Z.succ (Z.pred p)) by lia. rewrite !Z.testbit_even_succ by lia. rewrite (Z.land_spec (Z.land m (- m)) (Rk n k)). f_equal.
      destruct (bk n k) as [|[|]]; [| |lia].
      + rewrite Z.add_0_r. apply Z.testbit_even_succ. lia.
      + apply Z.testbit_odd_succ. lia. }
  rewrite E2. destruct (Z.eqb_spec (2 * Z.land (Z.land m (- m)) (Rk n k)) 0), (Z.eqb_spec (Z.land (Z.land m (- m)) (Rk n k)) 0); auto; lia.
Qed.

Lemma Rk_step n k : Z.lor (Z.shiftl (Rk n k) 1) (Z.land (Z.of_nat (nk n k)) 1) = Rk n (S k).
Proof.
  cbn [Rk]. change 1%Z with (Z.ones 1) at 2. rewrite Z.land_ones by lia. rewrite Z.shiftl_mul_pow2 by lia. change (2 ^ 1)%Z with 2%Z.
  assert (E : (Z.of_nat (nk n k) mod 2 = Z.of_nat (bk n k))%Z) by (unfold bk; rewrite Nat2Z.inj_mod; reflexivity).
  rewrite E. pose proof (bk_lt n k). apply Z.bits_inj'. intros p Hp. rewrite Z.lor_spec. rewrite (Z.mul_comm (Rk n k) 2).
  destruct (bk n k) as [|[|]]; [| |lia]; cbn [Z.of_nat Pos.of_succ_nat].
  - rewrite Z.testbit_0_l, orb_false_r, Z.add_0_r. reflexivity.
  - destruct (Z.eq_dec p 0) as [->|Hp0].
    + rewrite Z.testbit_even_0, Z.testbit_odd_0. reflexivity.
    + replace p with (Z.succ (Z.pred p)) by lia. rewrite Z.testbit_even_succ, Z.testbit_odd_succ by lia.
      replace (Z.testbit 1 (Z.succ (Z.pred p))) with false by (symmetry; change 1%Z with (2 ^ 0)%Z; apply Z.pow2_bits_false; lia).
      apply orb_false_r.
Qed.

Lemma Rk_shiftr n k : Z.shiftr (Rk n (S k)) 1 = Rk n k.
Proof.
  cbn [Rk]. rewrite Z.shiftr_div_pow2 by lia. change (2 ^ 1)%Z with 2%Z. pose proof (bk_lt n k).
  symmetry. apply Z.div_unique with (Z.of_nat (bk n k)); lia.
Qed.

Lemma Rk_low n k : Z.to_nat (Z.land (Rk n (S k)) 1) = bk n k.
Proof.
  cbn [Rk]. change 1%Z with (Z.ones 1). rewrite Z.land_ones by lia. change (2 ^ 1)%Z with 2%Z. pose proof (bk_lt n k).
  replace (2 * Rk n k + Z.of_nat (bk n k))%Z with (Z.of_nat (bk n k) + Rk n k * 2)%Z by lia. rewrite Z_mod_plus_full, Z.mod_small by lia. lia.
Qed.

Lemma rev_width_ok n j fuel : (1 <= nk n j)%nat -> (nk n j <= fuel)%nat ->
  exists k, (k <= n)%nat /\ nk n k = 1%nat /\ rev_width_loop fuel (Rk n j) (nk n j) = (Rk n k, 1%nat).
Proof.
  revert j. induction fuel as [|fuel IH]; intros j H1 H2; [lia|]. cbn [rev_width_loop].
  destruct (Nat.ltb_spec 1 (nk n j)) as [L|L].
  - rewrite Rk_step. replace (nk n j / 2)%nat with (nk n (S j)) by apply nk_S. apply IH.
    + rewrite nk_S. apply Nat.div_le_lower_bound; lia.
    + rewrite nk_S. apply Nat.le_trans with (nk n j / 2)%nat; [lia|]. apply Nat.lt_succ_r. apply Nat.lt_le_trans with (nk n j); [apply Nat.div_lt; lia|lia].
  - assert (E : nk n j = 1%nat) by lia. exists j. split; [|split; [auto|now rewrite E]].
    assert (2 ^ j <= n)%nat.
    { destruct (Nat.le_gt_cases (2 ^ j) n); [auto|]. unfold nk in E. rewrite Nat.div_small in E by lia. lia. }
    pose proof (Nat.pow_gt_lin_r 2 j). lia.
Qed.

(** ** One level *)

Definition seg_ok g0 ns0 cs0 g ns cs (s w : nat) : Prop :=
  w = 0%nat \/ exists con, nth_error cs s = Some con /\ merged g0 ns0 (firstn w (skipn s cs0)) g ns con.

Fixpoint segs g0 ns0 cs0 g ns cs (s : nat) (ws : list nat) : Prop :=
  match ws with [] => True | w :: ws' => seg_ok g0 ns0 cs0 g ns cs s w /\ segs g0 ns0 cs0 g ns cs (s + w) ws' end.

Lemma segs_grow vs g0 ns0 cs0 g d cs g' d' cs' s ws : grow vs d g d' g' ->
  (forall i, (s <= i)%nat -> nth_error cs' i = nth_error cs i) ->
  segs g0 ns0 cs0 g (d_nodes d) cs s ws -> segs g0 ns0 cs0 g' (d_nodes d') cs' s ws.
Proof.
  intros G. revert s. induction ws as [|w ws IH]; intros s Hcs; cbn [segs]; [auto|]. intros (H1 & H2). split.
  - destruct H1 as [->|(con & E & M)]; [now left|right]. exists con. rewrite Hcs by lia. split; [auto|]. eapply merged_grow; eauto.
  - apply IH; [|auto]. intros i Hi. apply Hcs. lia.
Qed.

Lemma firstn_add {A} (l : list A) s w1 w2 : firstn w1 (skipn s l) ++ firstn w2 (skipn (s + w1) l) = firstn (w1 + w2) (skipn s l).
Proof.
  assert (Hsk : forall (q : list A) x y, skipn x (skipn y q) = skipn (y + x) q).
  { intros q x y. revert q. induction y as [|y IH]; intros [|z q]; cbn [skipn Nat.add]; auto. now rewrite skipn_nil. }
  rewrite <- Hsk.
  set (m := skipn s l). clearbody m. revert m. induction w1 as [|w1 IH]; intros m; [cbn; reflexivity|].
  destruct m as [|x m]; cbn [firstn skipn Nat.add app]; [now rewrite firstn_nil|]. now rewrite IH.
Qed.

(** the pairs of child widths of the segments [i], [i+1], ... of a level *)
Fixpoint pairs_ok (width : nat) (rev last : Z) (i : nat) (ps : list (nat * nat)) : Prop :=
  match ps with
  | [] => True
  | (wl, wr) :: ps' =>
      (1 <= wl)%nat /\ (wl + wr = width + extw rev i)%nat /\ (wr = 0%nat -> wl = 1%nat) /\
      ((1 <= wr)%nat -> (if ((wl + wr) mod 2 =? 0)%nat then (wl + wr) / 2 else (wl + wr) / 2 + extw last (2 * i - 1)) = wl)%nat /\
      pairs_ok width rev last (S i) ps'
  end.

Definition flat (ps : list (nat * nat)) : list nat := flat_map (fun p => [fst p; snd p]) ps.
Definition sums (ps : list (nat * nat)) : list nat := map (fun p => fst p + snd p)%nat ps.

Lemma upd_nth_other {A} i j (x : A) l : i <> j -> nth_error (upd i x l) j = nth_error l j.
Proof.
  revert l j; induction i as [|i IH]; intros [|y l] [|j] H; cbn; auto; try congruence.
Qed.

Lemma upd_nth_same {A} i (x : A) l : (i < length l)%nat -> nth_error (upd i x l) i = Some x.
Proof. revert l; induction i as [|i IH]; intros [|y l] H; cbn in *; try lia; auto. apply IH. lia. Qed.

Lemma merge_level_ok g0 ns0 cs0 width rev last ps : forall i start fuel g d cs,
  (1 <= i)%nat -> pairs_ok width rev last i ps -> built g d -> (start + list_sum (sums ps) = length cs)%nat ->
  segs g0 ns0 cs0 g (d_nodes d) cs start (flat ps) -> (length ps < fuel)%nat ->
  exists d' cs' g', merge_level fuel d cs width rev last start (Z.of_nat i) = Some (d', cs') /\ built g' d' /\ grow [] d g d' g' /\
    length cs' = length cs /\ (forall j, (j < start)%nat -> nth_error cs' j = nth_error cs j) /\
    segs g0 ns0 cs0 g' (d_nodes d') cs' start (sums ps).
Proof.
  induction ps as [|(wl, wr) ps IH]; intros i start fuel g d cs Hi Hp B Hlen Hs Hf; (destruct fuel as [|fuel]; [cbn in Hf; lia|]); cbn [merge_level].
  - cbn in Hlen. replace (start <? length cs)%nat with false by lia. exists d, cs, g.
    split; [reflexivity|]. split; [auto|]. split; [apply grow_refl|]. split; [auto|]. split; [auto|]. exact Logic.I.
  - cbn [pairs_ok] in Hp. destruct Hp as (P1 & P2 & P3 & P4 & P5).
    cbn [sums map list_sum fold_right fst snd] in Hlen. fold (sums ps) (list_sum (sums ps)) in Hlen.
    cbn [flat flat_map app fst snd segs] in Hs. fold (flat ps) in Hs. destruct Hs as (S1 & S2 & S3).
    replace (start <? length cs)%nat with true by lia. fold (extw rev i). rewrite <- P2.
    replace (Z.of_nat i + 1)%Z with (Z.of_nat (S i)) by lia.
    destruct (Nat.eqb_spec (wl + wr) 1) as [E1|E1].
    + assert (wr = 0%nat) as -> by lia. assert (wl = 1%nat) as -> by lia.
      destruct (IH (S i) (start + 1)%nat fuel g d cs ltac:(lia) P5 B ltac:(lia)) as (d' & cs' & g' & R1 & R2 & R3 & R4 & R5 & R6).
      { replace (start + 1 + 0)%nat with (start + 1)%nat in S3 by lia. exact S3. }
      { cbn in Hf. lia. }
      exists d', cs', g'. split; [exact R1|]. split; [auto|]. split; [auto|]. split; [auto|]. split; [intros; apply R5; lia|].
      cbn [sums map segs fst snd]. fold (sums ps). rewrite Nat.add_0_r. split; [|exact R6].
      destruct S1 as [S1|(con & E & M)]; [lia|]. right. exists con. rewrite R5 by lia. split; [auto|]. eapply merged_grow; eauto.
    + assert (Hwr : (1 <= wr)%nat) by lia. specialize (P4 Hwr).
      replace ((Z.of_nat i - 1) * 2 + 1)%Z with (Z.of_nat (2 * i - 1)) by lia. fold (extw last (2 * i - 1)).
      match goal with |- context [nth_error cs ?X] => match X with start => fail 1 | _ => replace X with (start + wl)%nat end end.
      2:{ destruct ((wl + wr) mod 2 =? 0)%nat; lia. }
      destruct S1 as [S1|(c1 & E1' & M1)]; [lia|]. destruct S2 as [S2|(c2 & E2 & M2)]; [lia|].
      rewrite E1', E2. cbn [obind].
      destruct (merged_two _ _ _ _ _ _ _ _ B M1 M2) as (d1 & con & g1 & Em & B1 & G1 & M).
      rewrite Em. cbn [obind]. rewrite firstn_add in M.
      destruct (IH (S i) (start + (wl + wr))%nat fuel g1 d1 (upd start con cs) ltac:(lia) P5 B1) as (d' & cs' & g' & R1 & R2 & R3 & R4 & R5 & R6).
      { rewrite upd_length. lia. }
      { eapply segs_grow; [exact G1| |]; [|replace (start + (wl + wr))%nat with (start + wl + wr)%nat by lia; exact S3].
        intros j Hj. apply upd_nth_other. lia. }
      { cbn in Hf. lia. }
      exists d', cs', g'. split; [exact R1|]. split; [auto|]. split; [eapply grow_trans; eauto|]. rewrite upd_length in R4. split; [auto|].
      split. { intros j Hj. rewrite R5 by lia. apply upd_nth_other. lia. }
      cbn [sums map segs fst snd]. fold (sums ps). split; [|exact R6].
      right. exists con. rewrite R5 by lia. split; [apply upd_nth_same; lia|]. eapply merged_grow; eauto.
Qed.

(** ** All levels *)

Definition ws (n k : nat) : list nat := map (fun i => nk n k + extw (Rk n k) i)%nat (seq 1 (2 ^ k)).
Definition ps (n k : nat) : list (nat * nat) := map (fun i => (nk n (S k) + bk n k, nk n (S k) + extw (Rk n k) i)%nat) (seq 1 (2 ^ k)).

Lemma flat_ps n k : flat (ps n k) = ws n (S k).
Proof.
  unfold flat, ps, ws. rewrite flat_map_concat_map, map_map. cbn [fst snd].
  replace (2 ^ S k)%nat with (2 * 2 ^ k)%nat by (cbn [Nat.pow]; lia). set (m := (2 ^ k)%nat). clearbody m.
  assert (H : forall s m, (1 <= s)%nat -> concat (map (fun i => [nk n (S k) + bk n k; nk n (S k) + extw (Rk n k) i]%nat) (seq s m)) =
     map (fun i => nk n (S k) + extw (Rk n (S k)) i)%nat (seq (2 * s - 1) (2 * m))); [|apply (H 1%nat m); lia].
  clear m. intros s m. revert s. induction m as [|m IH]; intros s Hs; [reflexivity|].
  replace (2 * S m)%nat with (S (S (2 * m))) by lia. cbn [seq map concat app]. rewrite ext_odd by lia.
  replace (S (2 * s - 1)) with (2 * s)%nat by lia. rewrite ext_even. f_equal. f_equal.
  rewrite IH by lia. f_equal. f_equal. lia.
Qed.

Lemma sums_ps n k : sums (ps n k) = ws n k.
Proof. unfold sums, ps, ws. rewrite map_map. apply map_ext. intros i. cbn [fst snd]. rewrite (nk_split n k). lia. Qed.

Lemma list_sum_flat l : list_sum (flat l) = list_sum (sums l).
Proof. induction l as [|[x y] l IH]; [reflexivity|]. unfold flat, sums, list_sum in *. cbn [flat_map map app fold_right fst snd] in *. lia. Qed.

Lemma ws_sum n k : list_sum (ws n k) = n.
Proof.
  induction k as [|k IH].
  - unfold ws. cbn [Nat.pow seq map list_sum fold_right Rk]. rewrite nk_0. unfold extw, extend_bit. rewrite Z.land_0_r. cbn. lia.
  - rewrite <- flat_ps, list_sum_flat, sums_ps. exact IH.
Qed.

Lemma ps_ok n k rev last : rev = Rk n k -> (1 <= nk n k)%nat -> (nk n k = 1%nat \/ last = Rk n (S k)) ->
  pairs_ok (nk n k) rev last 1 (ps n k).
Proof.
  intros -> H1 Hl. unfold ps.
  assert (H : forall m s, (1 <= s)%nat -> pairs_ok (nk n k) (Rk n k) last s
     (map (fun i => (nk n (S k) + bk n k, nk n (S k) + extw (Rk n k) i)%nat) (seq s m))); [|apply H; lia].
  induction m as [|m IH]; intros s Hs; cbn [seq map pairs_ok]; [exact Logic.I|].
  pose proof (nk_split n k) as Hn. pose proof (bk_lt n k) as Hb.
  assert (He : (extw (Rk n k) s < 2)%nat) by (unfold extw; destruct (extend_bit _ _); lia).
  split; [lia|]. split; [lia|]. split; [lia|]. split; [|apply IH; lia].
  intros Hwr. set (b := bk n k) in *. set (e := extw (Rk n k) s) in *. set (w := nk n (S k)) in *.
  assert (Hdm := Nat.div_mod_eq (w + b + (w + e)) 2). assert (Hm := Nat.mod_upper_bound (w + b + (w + e)) 2 ltac:(lia)).
  destruct (Nat.eqb_spec ((w + b + (w + e)) mod 2) 0) as [E|E].
  - lia.
  - assert (extw last (2 * s - 1) = b).
    { destruct Hl as [Hl| ->]; [|apply ext_odd; lia]. exfalso. assert (w = 0 /\ b = 1)%nat by lia. lia. }
    lia.
Qed.

Lemma merge_loop_ok g0 ns0 cs0 k : forall fuel g d cs last,
  (1 <= nk (length cs) k)%nat -> (nk (length cs) k = 1%nat \/ last = Rk (length cs) (S k)) -> Z.shiftr last 1 = Rk (length cs) k ->
  built g d -> segs g0 ns0 cs0 g (d_nodes d) cs 0 (ws (length cs) (S k)) -> (S k < fuel)%nat -> (1 <= length cs)%nat -> 
  exists d' cs' g', merge_loop fuel d cs (nk (length cs) k) (Rk (length cs) k) last = Some (d', cs') /\ built g' d' /\ grow [] d g d' g' /\
    length cs' = length cs /\ segs g0 ns0 cs0 g' (d_nodes d') cs' 0 (ws (length cs) 0).
Proof.
  induction k as [|k IH]; intros fuel g d cs last H1 Hl Hsh B Hs Hf Hn; (destruct fuel as [|fuel]; [lia|]); cbn [merge_loop];
    pose proof (nk_le (length cs)) as Hle.
  - replace (nk (length cs) 0 <=? length cs)%nat with true by (specialize (Hle 0%nat); lia).
    destruct (merge_level_ok g0 ns0 cs0 (nk (length cs) 0) (Rk (length cs) 0) last (ps (length cs) 0) 1 0 (S (length cs)) g d cs) as (d' & cs' & g' & R1 & R2 & R3 & R4 & R5 & R6); auto.
    { apply ps_ok; auto. }
    { rewrite sums_ps, ws_sum. lia. }
    { rewrite flat_ps. auto. }
    { cbn. lia. }
    change (Z.of_nat 1) with 1%Z in R1. rewrite R1. cbn [obind]. cbn [Rk].
    destruct fuel as [|fuel]; [lia|]. cbn [merge_loop]. rewrite nk_0. change (Z.to_nat (Z.land 0 1)) with 0%nat.
    replace (2 * length cs + 0 <=? length cs')%nat with false by lia. replace (2 * length cs + 0 =? length cs' * 2)%nat with true by lia. cbn [assertb obind].
    exists d', cs', g'. split; [reflexivity|]. split; [auto|]. split; [auto|]. split; [auto|]. rewrite <- sums_ps. exact R6.
  - replace (nk (length cs) (S k) <=? length cs)%nat with true by (specialize (Hle (S k)); lia).
    destruct (merge_level_ok g0 ns0 cs0 (nk (length cs) (S k)) (Rk (length cs) (S k)) last (ps (length cs) (S k)) 1 0 (S (length cs)) g d cs) as (d1 & cs1 & g1 & R1 & R2 & R3 & R4 & R5 & R6); auto.
    { apply ps_ok; auto. }
    { rewrite sums_ps, ws_sum. lia. }
    { rewrite flat_ps. auto. }
    { unfold ps. rewrite map_length, seq_length.
      assert (2 ^ S k <= length cs)%nat; [|lia].
      destruct (Nat.le_gt_cases (2 ^ S k) (length cs)); [auto|]. unfold nk in H1. rewrite Nat.div_small in H1 by lia. lia. }
    change (Z.of_nat 1) with 1%Z in R1. rewrite R1. cbn [obind]. rewrite Rk_low, Rk_shiftr, Hsh, <- nk_split, <- R4.
    destruct (IH fuel g1 d1 cs1 (Rk (length cs1) (S k))) as (d' & cs' & g' & Q1 & Q2 & Q3 & Q4 & Q5); auto.
    + rewrite R4. rewrite (nk_split (length cs) k). lia.
    + apply Rk_shiftr.
    + rewrite R4. rewrite <- sums_ps. exact R6.
    + lia.
    + lia.
    + exists d', cs', g'. split; [exact Q1|]. split; [auto|]. split; [eapply grow_trans; eauto|]. split; [lia|]. exact Q5.
Qed.

Lemma segs_initial g d cs : Forall (con_good (d_nodes d)) cs -> forall ws s, Forall (fun w => w <= 1)%nat ws -> (s + list_sum ws <= length cs)%nat ->
  segs g (d_nodes d) cs g (d_nodes d) cs s ws.
Proof.
  intros Hg. induction ws0 as [|w ws0 IH]; intros s Hw Hl; cbn [segs]; [exact Logic.I|]. inv Hw. cbn [list_sum fold_right] in Hl. fold (list_sum ws0) in Hl.
  split; [|apply IH; [auto|lia]]. destruct w as [|[|w]]; [now left| |lia]. right.
  destruct (nth_error cs s) as [c|] eqn:E; [|apply nth_error_None in E; lia]. exists c. split; [auto|].
  replace (firstn 1 (skipn s cs)) with [c].
  - apply merged_single. rewrite Forall_forall in Hg. apply Hg. eapply nth_error_In; eauto.
  - clear -E. revert s E. induction cs as [|x cs IH]; intros [|s] E; cbn in *; try discriminate; [congruence|]. auto.
Qed.

Theorem merge_ok g d cs : built g d -> Forall (con_good (d_nodes d)) cs -> cs <> [] ->
  exists d' con g', merge d cs = Some (d', Some con) /\ built g' d' /\ grow [] d g d' g' /\ merged g (d_nodes d) cs g' (d_nodes d') con.
Proof.
  intros B Hg Hne. assert (Hn : (1 <= length cs)%nat) by (destruct cs; [congruence|cbn; lia]).
  unfold merge. destruct cs as [|c0 cs0] eqn:Ecs; [congruence|]. rewrite <- Ecs in *.
  destruct (rev_width_ok (length cs) 0 (length cs)) as (k & Hk & K1 & E); [rewrite nk_0; lia|rewrite nk_0; lia|].
  cbn [Rk] in E. rewrite nk_0 in E. rewrite E. cbn [Nat.eqb assertb obind].
  destruct (merge_loop_ok g (d_nodes d) cs k (S (length cs)) g d cs (Z.shiftl (Rk (length cs) k) 1)) as (d' & cs' & g' & R1 & R2 & R3 & R4 & R5); auto.
  - lia.
  - rewrite Z.shiftr_shiftl_l by lia. cbn [Z.sub]. apply Z.shiftl_0_r.
  - apply segs_initial; auto; [|rewrite ws_sum; lia]. unfold ws. apply Forall_forall. intros w Hw. apply in_map_iff in Hw as (i & <- & _).
    assert (nk (length cs) (S k) = 0)%nat by (rewrite nk_S, K1; reflexivity). unfold extw. destruct (extend_bit _ _); lia.
  - assert (2 ^ k <= length cs)%nat.
    { destruct (Nat.le_gt_cases (2 ^ k) (length cs)); [auto|]. unfold nk in K1. rewrite Nat.div_small in K1 by lia. lia. }
    pose proof (Nat.pow_gt_lin_r 2 k). lia.
  - rewrite K1 in R1. rewrite R1. cbn [obind].
    unfold ws in R5. cbn [Nat.pow seq map segs Rk] in R5. destruct R5 as (R5 & _). rewrite nk_0 in R5.
    assert (E0 : extw 0 1 = 0%nat) by reflexivity. rewrite E0, Nat.add_0_r in R5.
    destruct R5 as [R5|(con & Ec & M)]; [lia|]. rewrite Ec. cbn [obind]. cbn [skipn] in M. rewrite firstn_all in M.
    exists d', con, g'. auto.
Qed.

(** ** Literal trees *)

Lemma insert_leaves_ok ls : forall g d, built g d ->
  exists d' cs g', insert_leaves d ls = (d', cs) /\ built g' d' /\ grow (map lvar ls) d g d' g' /\
    Forall (con_good (d_nodes d')) cs /\ Forall (unit_con (d_nodes d')) cs /\ length cs = length ls /\
    (forall a, map (cval g' a) cs = map (fun l => if lit_true a l then 1 else 0)%nat ls) /\
    map (cmax (d_nodes d')) cs = map (fun _ => 1)%nat ls /\
    (forall l, In l ls -> gin g' (lvar l) = true) /\
    Forall2 (con_leaves (d_nodes d')) cs (map (fun l => [(l, 1%nat)]) ls).
Proof.
  induction ls as [|l ls IH]; intros g d B; cbn [insert_leaves].
  - exists d, [], g. split; [reflexivity|]. split; [auto|]. split; [apply grow_refl|]. cbn. repeat split; auto; try (intros l []); constructor.  
  - destruct (insert_leaf g d l B) as (d1 & id & g1 & E1 & B1 & G1 & N1 & C1 & V1 & I1). rewrite E1.
    destruct (IH g1 d1 B1) as (d2 & cs & g2 & E2 & B2 & G2 & C2 & U2 & L2 & V2 & M2 & I2 & F2). rewrite E2.
    exists d2, (con_full id :: cs), g2. split; [reflexivity|]. split; [auto|].
    split. { eapply grow_trans; (eapply grow_incl; [|eassumption]); cbn [map]; intros x Hx; [|now right]. destruct Hx as [<-|[]]. now left. }
    pose proof (con_good_lt _ _ C1) as Lt.
    split; [constructor; [eapply con_good_grow; eauto|auto]|].
    split. { constructor; [|auto]. split; [reflexivity|]. exists (NLeaf l). split; [apply (grow_nth _ _ _ _ _ _ _ G2 N1)|exact Logic.I]. }
    split; [cbn; lia|].
    split. { intros a. cbn [map]. rewrite V2. f_equal. rewrite (cval_grow _ _ _ _ _ _ _ G2 Lt). apply V1. }
    split. { cbn [map]. rewrite M2. f_equal. rewrite (cmax_grow _ _ _ _ _ _ G2 Lt). unfold cmax. cbn [con_full nc_id]. rewrite N1. reflexivity. }
    split. { intros x [<-|Hx]; [|auto]. destruct G2 as (_ & (_ & _ & _ & Gi) & _). auto. }
    cbn [map]. constructor; [|auto]. split; [repeat split|]. exists [(l, 1%nat)]. split; [|reflexivity].
    apply tl_leaf. apply (grow_nth _ _ _ _ _ _ _ G2 N1).
Qed.

Lemma list_sum_count a ls : list_sum (map (fun l => if lit_true a l then 1 else 0)%nat ls) = count_true a ls.
Proof. induction ls as [|l ls IH]; [reflexivity|]. cbn [map list_sum fold_right]. fold (list_sum (map (fun l => if lit_true a l then 1 else 0)%nat ls)). rewrite IH. cbn [count_true]. reflexivity. Qed.

Lemma list_sum_const {A} (ls : list A) : list_sum (map (fun _ => 1)%nat ls) = length ls.
Proof. induction ls as [|l ls IH]; [reflexivity|]. unfold list_sum in *. cbn [map fold_right length]. now rewrite IH. Qed.

Definition is_root (ns : list node) (id : nat) (n : node) : Prop := nth_error ns id = Some n /\ is_unitlike n.

Theorem lit_tree_ok g d ls : built g d -> ls <> [] ->
  exists d' id g' n, lit_tree d ls = Some (d', Some id) /\ built g' d' /\ grow (map lvar ls) d g d' g' /\
    nth_error (d_nodes d') id = Some n /\ is_unitlike n /\ con_good (d_nodes d') (con_full id) /\
    (forall a, gV g' a id = count_true a ls) /\ node_max_val n = length ls /\ (forall l, In l ls -> gin g' (lvar l) = true) /\
    tree_leaves (d_nodes d') id (map (fun l => (l, 1%nat)) ls).
Proof.
  intros B Hne. unfold lit_tree.
  destruct (insert_leaves_ok ls g d B) as (d1 & cs & g1 & E1 & B1 & G1 & C1 & U1 & L1 & V1 & M1 & I1 & F1). rewrite E1.
  destruct (merge_ok g1 d1 cs B1 C1) as (d2 & con & g2 & E2 & B2 & G2 & (Q1 & Q2 & Q3 & Q4 & Q5 & Q6)).
  { destruct cs; [destruct ls; [congruence|discriminate]|discriminate]. }
  rewrite E2. cbn [obind]. specialize (Q5 U1). destruct Q5 as (Mu & n & En & Un).
  destruct Q1 as (S & _ & n' & En' & Dn & In'). assert (n' = n) as -> by congruence.
  assert (S' := S). destruct S' as (O & D & L). rewrite O, D, Mu. cbn [Nat.eqb andb assertb obind].
  exists d2, (nc_id con), g2, n. split; [reflexivity|]. split; [auto|].
  split. { eapply grow_trans; [exact G1|]. eapply grow_incl; [|exact G2]. intros x []. }
  split; [auto|]. split; [auto|]. split. { split; [repeat split|]. split; [cbn; lia|]. exists n. auto. }
  split; [|split].
  - intros a. specialize (Q2 a). rewrite V1, list_sum_count in Q2. unfold cval in Q2. rewrite simple_con_map in Q2 by auto. rewrite Mu in Q2. lia.
  - rewrite M1, list_sum_const in Q3. unfold cmax in Q3. rewrite En, simple_con_map in Q3 by auto. rewrite Mu in Q3. lia.
  - split; [intros l Hl; destruct G2 as (_ & (_ & _ & _ & Gi) & _); auto|].
    apply Q6 in F1. destruct F1 as (_ & ls0 & T0 & El). rewrite Mu, scale_1 in El. subst ls0.
    replace (map (fun l => (l, 1%nat)) ls) with (concat (map (fun l => [(l, 1%nat)]) ls)); [auto|].
    clear. induction ls; cbn; congruence.
Qed.

(** ** Balanced merging *)

Lemma con_len_good ns g con : wf_shape (skel ns) g -> con_good ns con -> exists w, con_len ns con = Some w /\ (1 <= w)%nat.
Proof.
  intros W ((O & D & L) & M & n & E & Dn & Hin). unfold con_len. rewrite E. cbn [obind]. rewrite O, D, L, Nat.sub_0_r, Nat.div_1_r.
  exists (node_len n). split; [reflexivity|]. destruct n as [l|lits l r|lits m l r|]; cbn [node_len node_vals node_max_val] in *.
  - lia.
  - apply in_range_excl in Hin. lia.
  - apply filter_In in Hin as (Hin & _). destruct lits; [destruct Hin|cbn; lia].
  - destruct Hin.
Qed.

Fixpoint psums (acc : nat) (ws : list nat) : list nat := match ws with [] => [] | w :: r => (acc + w)%nat :: psums (acc + w) r end.

Lemma cum_weights_ok ns g cs acc : wf_shape (skel ns) g -> Forall (con_good ns) cs ->
  exists ws, cum_weights ns cs acc = Some (psums acc ws) /\ length ws = length cs.
Proof.
  intros W. revert acc. induction cs as [|c cs IH]; intros acc H; cbn [cum_weights]; [exists []; auto|]. inv H.
  destruct (con_len_good _ _ _ W H2) as (w & E & _). rewrite E. cbn [obind].
  destruct (IH (acc + w)%nat H3) as (ws0 & E2 & L). rewrite E2. cbn [obind]. exists (w :: ws0). cbn. split; [reflexivity|lia].
Qed.

Lemma find_from_last p l i : l <> [] -> p (last l 0%nat) = true -> exists k, find_from p l i = Some (i + k)%nat /\ (k < length l)%nat.
Proof.
  revert i. induction l as [|x l IH]; intros i Hne Hl; [congruence|]. cbn [find_from]. destruct (p x) eqn:E.
  - exists 0%nat. split; [f_equal; lia|cbn; lia].
  - destruct l as [|y l]; [cbn in Hl; congruence|].
    destruct (IH (i + 1)%nat ltac:(discriminate) Hl) as (k & Ek & Lk). exists (S k). split; [rewrite Ek; f_equal; lia|]. cbn in *. lia.
Qed.

Lemma last_skipn1 (l : list nat) : (2 <= length l)%nat -> last (skipn 1 l) 0%nat = last l 0%nat.
Proof. destruct l as [|x [|y l]]; cbn [length]; try lia. reflexivity. Qed.

Lemma last_skipn (l : list nat) k : (k < length l)%nat -> last (skipn k l) 0%nat = last l 0%nat.
Proof.
  revert k. induction l as [|x l IH]; intros k Hk; [cbn in Hk; lia|]. destruct k; [reflexivity|]. cbn [skipn]. cbn in Hk. rewrite IH by lia.
  destruct l; [cbn in Hk; lia|reflexivity].
Qed.

Lemma merge_balanced_rec_ok g0 ns0 fuel : forall g d cs cum off, built g d -> cs <> [] -> (length cs <= fuel)%nat ->
  length cum = length cs -> (forall i v, nth_error cum i = Some v -> (off <= v)%nat) -> StronglySorted le cum ->
  Forall (fun c => merged g0 ns0 [c] g (d_nodes d) c) cs ->
  exists d' con g', merge_balanced_rec fuel d cs cum off = Some (d', con) /\ built g' d' /\ grow [] d g d' g' /\ merged g0 ns0 cs g' (d_nodes d') con.
Proof.
  induction fuel as [|fuel IH]; intros g d cs cum off B Hne Hf Hlen Hoff Hso Hm; [destruct cs; [congruence|cbn in Hf; lia]|].
  cbn [merge_balanced_rec]. destruct cs as [|c1 [|c2 cs']]; [congruence| |].
  { inv Hm. exists d, c1, g. split; [reflexivity|]. split; [auto|]. split; [apply grow_refl|auto]. }
  set (cs := c1 :: c2 :: cs') in *. set (th := ((last cum 0 - off) / 2 + off)%nat).
  assert (Hlc : (2 <= length cum)%nat) by (rewrite Hlen; cbn; lia).
  assert (Hlast : (off <= last cum 0)%nat).
  { destruct (@exists_last _ cum) as (l' & x & ->); [destruct cum; [cbn in Hlc; lia|discriminate]|]. rewrite last_last.
    apply (Hoff (length l')). rewrite nth_error_app2 by lia. rewrite Nat.sub_diag. reflexivity. }
  destruct (find_from_last (fun v => (th <=? v)%nat) (skipn 1 cum) 1) as (k & Ek & Lk).
  { intros H. apply (f_equal (@length _)) in H. rewrite skipn_length in H. cbn in H. lia. }
  { rewrite last_skipn1 by auto. unfold th. assert (Hd := Nat.div_le_mono (last cum 0 - off) (last cum 0 - off) 2).
    pose proof (Nat.div_le_upper_bound (last cum 0 - off) 2 (last cum 0 - off) ltac:(lia) ltac:(lia)). lia. }
  rewrite Ek. cbn [obind]. set (split := (1 + k)%nat). rewrite skipn_length in Lk.
  assert (Hsp : (1 <= split < length cs)%nat) by (unfold split; lia).
  assert (Hc : firstn split cs ++ skipn split cs = cs) by apply firstn_skipn.
  assert (Hcum : firstn split cum ++ skipn split cum = cum) by apply firstn_skipn.
  assert (Hm' := Hm). rewrite <- Hc in Hm'. apply Forall_app in Hm' as (Hm1 & Hm2).
  assert (Hs1 : StronglySorted le (firstn split cum) /\ StronglySorted le (skipn split cum)).
  { rewrite <- Hcum in Hso. clear -Hso. revert Hso. generalize (skipn split cum) as l2. induction (firstn split cum) as [|x l1 IHl]; intros l2 H; [split; [constructor|auto]|].
    cbn [app] in H. inv H. destruct (IHl l2 H2) as (I1 & I2). split; [|auto]. constructor; [auto|]. rewrite Forall_app in H3. tauto. }
  destruct Hs1 as (Hs1 & Hs2).
  destruct (IH g d (firstn split cs) (firstn split cum) off) as (d1 & lcon & g1 & R1 & R2 & R3 & R4); auto.
  { intros H. apply (f_equal (@length _)) in H. rewrite firstn_length in H. cbn [length] in H. lia. }
  { rewrite firstn_length. lia. }
  { rewrite !firstn_length. lia. }
  { intros i v Hv. apply (Hoff i). destruct (Nat.lt_ge_cases i split) as [L|L].
    - rewrite <- Hcum, nth_error_app1; [auto|]. rewrite firstn_length. lia.
    - exfalso. assert (i < length (firstn split cum))%nat by (apply nth_error_Some; congruence). rewrite firstn_length in H. lia. }
  rewrite R1. cbn [obind].
  destruct (nth_error cum (split - 1)) as [off'|] eqn:Eo; [|apply nth_error_None in Eo; lia]. cbn [obind].
  destruct (IH g1 d1 (skipn split cs) (skipn split cum) off') as (d2 & rcon & g2 & Q1 & Q2 & Q3 & Q4); auto.
  { intros H. apply (f_equal (@length _)) in H. rewrite skipn_length in H. cbn [length] in H. lia. }
  { rewrite skipn_length. lia. }
  { rewrite !skipn_length. lia. }
  { intros i v Hv. assert (Hx : In off' (firstn split cum)).
    { apply nth_error_In with (split - 1)%nat. rewrite <- Hcum, nth_error_app1 in Eo; [auto|]. rewrite firstn_length. lia. }
    apply nth_error_In in Hv. rewrite <- Hcum in Hso. clear -Hso Hx Hv. induction (firstn split cum) as [|x l1 IHl]; [destruct Hx|].
    cbn [app] in Hso. inv Hso. destruct Hx as [->|Hx]; [|auto]. rewrite Forall_app in H2. destruct H2 as (_ & H2). rewrite Forall_forall in H2. auto. }
  { rewrite Forall_forall in *. intros c Hc'. eapply merged_grow; eauto. }
  rewrite Q1. cbn [obind].
  destruct (merged_two g0 ns0 (firstn split cs) (skipn split cs) g2 d2 lcon rcon Q2) as (d3 & con & g3 & P1 & P2 & P3 & P4); auto.
  { eapply merged_grow; eauto. }
  rewrite Hc in P4. exists d3, con, g3. split; [auto|]. split; [auto|]. split; [|auto]. eapply grow_trans; [eauto|]. eapply grow_trans; eauto.
Qed.

Lemma psums_ge acc ws0 : Forall (fun v => acc <= v)%nat (psums acc ws0).
Proof. revert acc. induction ws0 as [|w ws0 IH]; intros acc; cbn; constructor; [lia|]. eapply Forall_impl; [|apply IH]. cbn. lia. Qed.
Lemma psums_sorted acc ws0 : StronglySorted le (psums acc ws0).
Proof. revert acc. induction ws0 as [|w ws0 IH]; intros acc; cbn; constructor; [auto|]. apply psums_ge. Qed.
Lemma psums_length acc ws0 : length (psums acc ws0) = length ws0.
Proof. revert acc. induction ws0 as [|w ws0 IH]; intros acc; cbn; auto. Qed.

Theorem merge_balanced_ok g d cs : built g d -> Forall (con_good (d_nodes d)) cs -> cs <> [] ->
  exists d' con g', merge_balanced d cs = Some (d', Some con) /\ built g' d' /\ grow [] d g d' g' /\ merged g (d_nodes d) cs g' (d_nodes d') con.
Proof.
  intros B Hg Hne. unfold merge_balanced. destruct cs as [|c cs'] eqn:Ecs; [congruence|]. rewrite <- Ecs in *.
  destruct (cum_weights_ok (d_nodes d) g cs 0 (proj1 B) Hg) as (w & E & L). rewrite E. cbn [obind].
  destruct (merge_balanced_rec_ok g (d_nodes d) (length cs) g d cs (psums 0 w) 0) as (d' & con & g' & R1 & R2 & R3 & R4); auto.
  - now rewrite psums_length.
  - intros; lia.
  - apply psums_sorted.
  - eapply Forall_impl; [|exact Hg]. intros x. apply merged_single.
  - rewrite R1. cbn [obind]. exists d', con, g'. auto.
Qed.
