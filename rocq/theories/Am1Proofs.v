(** * Proofs about the at-most-one encodings *)

From Coq Require Import List Bool NArith ZArith Lia Permutation.
From Coq Require Import ZifyBool ZifyNat ZifyN.
From Verif Require Import Spec Types Constraints ConstrSpec Base ConstrProofs Atomics AtomicsProofs Am1.
Import ListNotations.

Ltac Zify.zify_post_hook ::= Z.div_mod_to_equations.

(** ** Positions of true literals *)

Lemma count_true_In a ls l : In l ls -> lit_true a l = true -> (1 <= count_true a ls)%nat.
Proof.
  intros Hin Ht. assert (0 < count_true a ls)%nat; [|lia]. apply count_true_pos. apply sat_clause_true. eauto.
Qed.

Lemma lnth_In i ls : (i < length ls)%nat -> In (lnth i ls) ls.
Proof. intros H. now apply nth_In. Qed.

Lemma In_lnth l ls : In l ls -> exists i, (i < length ls)%nat /\ lnth i ls = l.
Proof. intros H. now apply In_nth. Qed.

Lemma count_le1_positions a ls :
  (count_true a ls <= 1)%nat <->
  forall i j, (i < j)%nat -> (j < length ls)%nat -> lit_true a (lnth i ls) = true -> lit_true a (lnth j ls) = true -> False.
Proof.
  induction ls as [|l ls IH]; cbn [count_true length].
  - split; [intros _ i j; lia|lia].
  - destruct (lit_true a l) eqn:E.
    + split.
      * intros H i j Hij Hj Hi Hjt. destruct j as [|j]; [lia|]. cbn [lnth nth] in Hjt.
        assert (1 <= count_true a ls)%nat; [|lia]. eapply count_true_In; [|exact Hjt]. apply nth_In. lia.
      * intros H. assert (count_true a ls = 0%nat); [|lia]. apply count_true_zero. intros x Hx.
        destruct (lit_true a x) eqn:Ex; [|reflexivity]. exfalso.
        destruct (In_lnth x ls Hx) as (j & Hj & Hjx).
        apply (H 0%nat (S j)); [lia|lia|exact E|]. cbn [lnth nth]. fold (lnth j ls). now rewrite Hjx.
    + cbn [Nat.add]. rewrite IH. split.
      * intros H i j Hij Hj Hi Hjt. destruct i as [|i], j as [|j]; try lia.
        -- cbn in Hi. congruence.
        -- apply (H i j); try lia; assumption.
      * intros H i j Hij Hj Hi Hjt. apply (H (S i) (S j)); try lia; assumption.
Qed.

Lemma count_le1_unique a ls i j :
  (count_true a ls <= 1)%nat -> (i < length ls)%nat -> (j < length ls)%nat ->
  lit_true a (lnth i ls) = true -> lit_true a (lnth j ls) = true -> i = j.
Proof.
  rewrite count_le1_positions. intros H Hi Hj Ti Tj.
  destruct (Nat.lt_trichotomy i j) as [E|[E|E]]; [exfalso; eauto|assumption|exfalso; eauto].
Qed.

(** ** Fresh literals *)

Lemma fresh_lits_length next k : length (fresh_lits next k) = k.
Proof. unfold fresh_lits. now rewrite map_length, seq_length. Qed.

Lemma fresh_lits_nth next k i : (i < k)%nat -> lnth i (fresh_lits next k) = pos (next + N.of_nat i).
Proof.
  intros H. unfold fresh_lits, lnth.
  rewrite (nth_indep _ _ ((fun i => pos (next + N.of_nat i)) 0%nat)) by now rewrite map_length, seq_length.
  rewrite (map_nth (fun i => pos (next + N.of_nat i))), seq_nth by assumption. reflexivity.
Qed.

Lemma fresh_lits_below next k : lits_below (next + N.of_nat k) (fresh_lits next k).
Proof.
  intros l H. unfold fresh_lits in H. apply in_map_iff in H as (i & <- & Hi). apply in_seq in Hi. cbn. lia.
Qed.

Definition set_fresh (a : asg) (next : N) (k : nat) (f : nat -> bool) : asg :=
  fun v => if ((next <=? v) && (v <? next + N.of_nat k))%N then f (N.to_nat (v - next)) else a v.

Lemma set_fresh_changes a next k f : changes_only next (next + N.of_nat k) a (set_fresh a next k f).
Proof. intros v H. unfold set_fresh. destruct ((next <=? v) && (v <? next + N.of_nat k))%N eqn:E; [lia|reflexivity]. Qed.

Lemma set_fresh_var a next k f i : (i < k)%nat -> set_fresh a next k f (next + N.of_nat i)%N = f i.
Proof.
  intros H. unfold set_fresh. destruct ((next <=? next + N.of_nat i) && (next + N.of_nat i <? next + N.of_nat k))%N eqn:E; [|lia].
  f_equal. lia.
Qed.

Lemma set_fresh_nth a next k f i : (i < k)%nat -> lit_true (set_fresh a next k f) (lnth i (fresh_lits next k)) = f i.
Proof. intros H. rewrite fresh_lits_nth by assumption. unfold lit_true, pos; cbn [lneg lvar]. rewrite set_fresh_var by assumption. now destruct (f i). Qed.

Lemma changes_only_lit lo hi a a' l : changes_only lo hi a a' -> (lvar l < lo)%N -> lit_true a' l = lit_true a l.
Proof. intros H Hl. apply lit_true_agree. apply H. now left. Qed.

Lemma changes_only_count lo hi a a' ls : changes_only lo hi a a' -> lits_below lo ls -> count_true a' ls = count_true a ls.
Proof. intros H Hl. apply count_true_agree. intros l Hin. apply H. left. now apply Hl. Qed.

Lemma changes_only_sat lo hi a a' f : changes_only lo hi a a' -> cnf_below lo f -> sat_cnf a' f = sat_cnf a f.
Proof. intros H Hl. apply sat_cnf_agree. intros c l Hc Hin. apply H. left. now apply (Hl c Hc l). Qed.

(** ** What a correct at-most-one encoder is *)

Definition am1_ok (enc : list lit -> N -> cnf * N) : Prop :=
  forall ls next, lits_below next ls ->
    (next <= snd (enc ls next))%N /\ cnf_below (snd (enc ls next)) (fst (enc ls next)) /\
    (forall a, sat_cnf a (fst (enc ls next)) = true -> (count_true a ls <= 1)%nat) /\
    (forall a, (count_true a ls <= 1)%nat ->
       exists a', changes_only next (snd (enc ls next)) a a' /\ sat_cnf a' (fst (enc ls next)) = true).

Lemma trivial_am1 ls next :
  (length ls <= 1)%nat ->
  (next <= next)%N /\ cnf_below next [] /\
  (forall a, sat_cnf a [] = true -> (count_true a ls <= 1)%nat) /\
  (forall a, (count_true a ls <= 1)%nat -> exists a', changes_only next next a a' /\ sat_cnf a' [] = true).
Proof.
  intros H. split; [lia|]. split; [apply cnf_below_nil|]. split.
  - intros a _. pose proof (count_true_le a ls). lia.
  - intros a _. exists a. split; [apply changes_only_refl|reflexivity].
Qed.

(** *** Pairwise *)

Lemma pairwise_sat a ls next :
  sat_cnf a (fst (pairwise_encode ls next)) = true <-> (count_true a ls <= 1)%nat.
Proof.
  cbn [pairwise_encode fst]. rewrite count_le1_positions, sat_cnf_true. split.
  - intros H i j Hij Hj Ti Tj.
    assert (Hs : sat_clause a [neg (lnth i ls); neg (lnth j ls)] = true).
    { apply H. apply in_flat_map. exists i. split; [apply in_seq; lia|].
      apply in_map_iff. exists j. split; [reflexivity|apply in_seq; lia]. }
    rewrite sat_clause_2, !lit_true_neg, Ti, Tj in Hs. discriminate.
  - intros H c Hc. apply in_flat_map in Hc as (i & Hi & Hc). apply in_map_iff in Hc as (j & <- & Hj).
    apply in_seq in Hi. apply in_seq in Hj. rewrite sat_clause_2, !lit_true_neg.
    destruct (lit_true a (lnth i ls)) eqn:Ti; [|reflexivity]. destruct (lit_true a (lnth j ls)) eqn:Tj; [|reflexivity].
    exfalso. apply (H i j); try assumption; lia.
Qed.

Lemma pairwise_ok : am1_ok pairwise_encode.
Proof.
  intros ls next Hb. split; [cbn; lia|]. split; [|split].
  - intros c Hc. cbn [pairwise_encode fst snd] in *. apply in_flat_map in Hc as (i & Hi & Hc).
    apply in_map_iff in Hc as (j & <- & Hj). apply in_seq in Hi. apply in_seq in Hj.
    intros l [<-|[<-|[]]]; rewrite lvar_neg; apply Hb, lnth_In; lia.
  - intros a. apply pairwise_sat.
  - intros a H. exists a. split; [apply changes_only_refl|]. now apply pairwise_sat.
Qed.

(** *** Ladder *)

Lemma ladder_ok : am1_ok ladder_encode.
Proof.
  intros ls next Hb. unfold ladder_encode. destruct (length ls <=? 1)%nat eqn:El; [apply trivial_am1; lia|].
  cbn [fst snd]. set (n := length ls) in *. set (aux := fresh_lits next (n - 1)).
  assert (Hauxlen : length aux = (n - 1)%nat) by apply fresh_lits_length.
  split; [lia|]. split; [|split].
  - apply cnf_below_app. split.
    + intros c Hc. apply in_map_iff in Hc as (i & <- & Hi). apply in_seq in Hi.
      intros l [<-|[<-|[]]]; rewrite ?lvar_neg; unfold aux; rewrite fresh_lits_nth by lia; cbn; lia.
    + intros c Hc. apply in_flat_map in Hc as (i & Hi & Hc). apply in_seq in Hi.
      unfold lit_impl_cube in Hc. apply in_map_iff in Hc as (x & <- & Hx).
      assert (lvar (lnth i ls) < next)%N by (apply Hb, lnth_In; lia).
      intros l [<-|[<-|[]]]; rewrite ?lvar_neg; [lia|].
      unfold ladder_cube in Hx. apply in_app_or in Hx as [Hx|Hx].
      * destruct (0 <? i)%nat eqn:E; [|destruct Hx]. destruct Hx as [<-|[]]. unfold aux. rewrite fresh_lits_nth by lia. cbn. lia.
      * destruct (i <? length aux)%nat eqn:E; [|destruct Hx]. destruct Hx as [<-|[]]. rewrite lvar_neg. unfold aux. rewrite fresh_lits_nth by lia. cbn. lia.
  - intros a H. rewrite sat_cnf_app in H. apply andb_prop in H as [Hv Hc].
    rewrite sat_cnf_true in Hv, Hc. apply count_le1_positions. intros i j Hij Hj Ti Tj.
    assert (Hmono : forall d k, (k + d < n - 1)%nat -> lit_true a (lnth (k + d) aux) = true -> lit_true a (lnth k aux) = true).
    { induction d as [|d IHd]; intros k Hk Ht; [now rewrite Nat.add_0_r in Ht|].
      specialize (IHd (S k) ltac:(lia)). rewrite Nat.add_succ_r in Ht. specialize (IHd Ht).
      assert (Hs : sat_clause a (lit_impl_lit (lnth (k + 1) aux) (lnth k aux)) = true).
      { apply Hv. apply in_map_iff. exists k. split; [reflexivity|]. apply in_seq. lia. }
      rewrite lit_impl_lit_sat in Hs. rewrite Nat.add_1_r, IHd in Hs. now destruct (lit_true a (lnth k aux)). }
    assert (Hcube : forall k x, (k < n)%nat -> lit_true a (lnth k ls) = true -> In x (ladder_cube aux k) -> lit_true a x = true).
    { intros k x Hk Tk Hx.
      assert (Hs : sat_clause a [neg (lnth k ls); x] = true).
      { apply Hc. apply in_flat_map. exists k. split; [apply in_seq; lia|]. unfold lit_impl_cube. apply in_map_iff. exists x. auto. }
      rewrite sat_clause_2, lit_true_neg, Tk in Hs. exact Hs. }
    assert (H1 : lit_true a (neg (lnth i aux)) = true).
    { apply (Hcube i); [lia|assumption|]. unfold ladder_cube. apply in_or_app. right.
      destruct (i <? length aux)%nat eqn:E; [now left|lia]. }
    assert (H2 : lit_true a (lnth (j - 1) aux) = true).
    { apply (Hcube j); [lia|assumption|]. unfold ladder_cube. apply in_or_app. left.
      destruct (0 <? j)%nat eqn:E; [now left|lia]. }
    rewrite lit_true_neg in H1. replace (j - 1)%nat with (i + (j - 1 - i))%nat in H2 by lia.
    apply Hmono in H2; [|lia]. rewrite H2 in H1. discriminate.
  - intros a H.
    set (g := fun i => existsb (fun j => lit_true a (lnth j ls)) (seq (i + 1) (n - (i + 1)))).
    set (a' := set_fresh a next (n - 1) g). exists a'. split; [apply set_fresh_changes|].
    assert (Hg : forall i, (i < n - 1)%nat -> lit_true a' (lnth i aux) = g i) by (intros; unfold a', aux; now apply set_fresh_nth).
    assert (Hl : forall i, (i < n)%nat -> lit_true a' (lnth i ls) = lit_true a (lnth i ls)).
    { intros i Hi. eapply changes_only_lit; [apply set_fresh_changes|]. apply Hb, lnth_In. assumption. }
    assert (Hgspec : forall i, g i = true <-> exists j, (i < j < n)%nat /\ lit_true a (lnth j ls) = true).
    { intros i. unfold g. rewrite existsb_exists. split; intros (j & Hj & Ht); exists j; (split; [|assumption]);
        [apply in_seq in Hj; lia|apply in_seq; lia]. }
    rewrite sat_cnf_app. apply andb_true_intro. split; apply sat_cnf_true.
    + intros c Hc. apply in_map_iff in Hc as (i & <- & Hi). apply in_seq in Hi.
      rewrite lit_impl_lit_sat, !Hg by lia. destruct (g (i + 1)%nat) eqn:E; [|reflexivity]. cbn [implb].
      apply Hgspec in E as (j & Hj & Ht). apply Hgspec. exists j. split; [lia|assumption].
    + intros c Hc. apply in_flat_map in Hc as (i & Hi & Hc). apply in_seq in Hi.
      unfold lit_impl_cube in Hc. apply in_map_iff in Hc as (x & <- & Hx).
      rewrite sat_clause_2, lit_true_neg, Hl by lia. destruct (lit_true a (lnth i ls)) eqn:Ti; [|reflexivity]. cbn [negb orb].
      unfold ladder_cube in Hx. apply in_app_or in Hx as [Hx|Hx].
      * destruct (0 <? i)%nat eqn:E; [|destruct Hx]. destruct Hx as [<-|[]]. rewrite Hg by lia. apply Hgspec.
        exists i. split; [lia|assumption].
      * destruct (i <? length aux)%nat eqn:E; [|destruct Hx]. destruct Hx as [<-|[]]. rewrite lit_true_neg, Hg by lia.
        apply negb_true_iff. destruct (g i) eqn:Eg; [|reflexivity]. exfalso. apply Hgspec in Eg as (j & Hj & Tj).
        apply count_le1_positions with (i := i) (j := j) in H; try assumption; lia.
Qed.

(** *** Bits *)

Lemma land_bit i k : (Nat.land i (Nat.shiftl 1 k) =? 0)%nat = negb (Nat.testbit i k).
Proof.
  destruct (Nat.testbit i k) eqn:E; cbn [negb].
  - apply Nat.eqb_neq. intros H. assert (Ht : Nat.testbit (Nat.land i (Nat.shiftl 1 k)) k = true).
    { rewrite Nat.land_spec, E, Nat.shiftl_spec_high by lia. rewrite Nat.sub_diag. reflexivity. }
    rewrite H, Nat.bits_0 in Ht. discriminate.
  - apply Nat.eqb_eq. apply Nat.bits_inj. intros m. rewrite Nat.land_spec, Nat.bits_0.
    destruct (Nat.eq_dec m k) as [->|Hne]; [now rewrite E|].
    assert (Nat.testbit (Nat.shiftl 1 k) m = false) as ->; [|apply andb_false_r].
    destruct (le_lt_dec k m) as [Hle|Hlt].
    + rewrite Nat.shiftl_spec_high by lia. destruct (m - k)%nat as [|d] eqn:Ed; [lia|].
      apply Nat.bits_above_log2. cbn. lia.
    + apply Nat.shiftl_spec_low. assumption.
Qed.

Lemma bits_determine p i j :
  (i < 2 ^ p)%nat -> (j < 2 ^ p)%nat -> (forall k, (k < p)%nat -> Nat.testbit i k = Nat.testbit j k) -> i = j.
Proof.
  intros Hi Hj H. apply Nat.bits_inj. intros m. destruct (le_lt_dec p m) as [Hle|Hlt]; [|now apply H].
  assert (Hhigh : forall x, (x < 2 ^ p)%nat -> Nat.testbit x m = false).
  { intros x Hx. destruct x as [|x]; [apply Nat.bits_0|]. apply Nat.bits_above_log2.
    apply Nat.log2_lt_pow2; [lia|]. eapply Nat.lt_le_trans; [exact Hx|]. apply Nat.pow_le_mono_r; lia. }
  now rewrite !Hhigh.
Qed.

Lemma digits_loop_bound fuel n : (n <= fuel)%nat -> (n < 2 ^ digits_loop fuel n)%nat.
Proof.
  revert n; induction fuel as [|f IH]; intros n Hn; cbn [digits_loop].
  - cbn. lia.
  - destruct (0 <? n)%nat eqn:E; [|cbn; lia].
    specialize (IH (n / 2)%nat ltac:(lia)). rewrite Nat.pow_succ_r'. lia.
Qed.

Lemma digits2_bound n : (n < 2 ^ digits2 n)%nat.
Proof. unfold digits2. destruct (n =? 0)%nat eqn:E; [cbn; lia|]. now apply digits_loop_bound. Qed.

(** the loop terminates within its fuel: the number of binary digits *)
Lemma digits_loop_log fuel n : (0 < n)%nat -> (n <= fuel)%nat -> digits_loop fuel n = S (Nat.log2 n).
Proof.
  revert n; induction fuel as [|f IH]; intros n Hp Hn; [lia|]. cbn [digits_loop].
  destruct (0 <? n)%nat eqn:E; [|lia]. f_equal.
  destruct (Nat.eq_dec n 1) as [->|Hne]; [destruct f; reflexivity|].
  assert (Hn2 : (0 < n / 2)%nat) by lia.
  rewrite IH by lia. rewrite <- Nat.log2_double by assumption.
  destruct (Nat.Even_or_Odd n) as [[m Hm]|[m Hm]].
  - replace (2 * (n / 2))%nat with n by lia. reflexivity.
  - replace n with (2 * m + 1)%nat at 2 by lia. rewrite Nat.log2_succ_double by lia.
    rewrite <- Nat.log2_double by lia. f_equal. lia.
Qed.

Lemma bit_lit_true a aux i k :
  lneg (lnth k aux) = false ->
  lit_true a (bit_lit aux i k) = Bool.eqb (lit_true a (lnth k aux)) (Nat.testbit i k).
Proof.
  intros Hp. unfold bit_lit, lit_true; cbn [lneg lvar]. rewrite Hp, land_bit.
  destruct (Nat.testbit i k), (a (lvar (lnth k aux))); reflexivity.
Qed.

Lemma fresh_pos next k i : (i < k)%nat -> lneg (lnth i (fresh_lits next k)) = false.
Proof. intros H. now rewrite fresh_lits_nth. Qed.

(** *** Bitwise *)

Lemma bitwise_ok : am1_ok bitwise_encode.
Proof.
  intros ls next Hb. unfold bitwise_encode. destruct (length ls <=? 1)%nat eqn:El; [apply trivial_am1; lia|].
  cbn [fst snd]. set (n := length ls) in *. set (p := digits2 (n - 1)). set (aux := fresh_lits next p).
  assert (Hp : (n <= 2 ^ p)%nat) by (pose proof (digits2_bound (n - 1)); fold p in H; lia).
  split; [lia|]. split; [|split].
  - intros c Hc. apply in_flat_map in Hc as (i & Hi & Hc). apply in_seq in Hi.
    apply in_map_iff in Hc as (k & <- & Hk). apply in_seq in Hk.
    assert (lvar (lnth i ls) < next)%N by (apply Hb, lnth_In; lia).
    intros l [<-|[<-|[]]]; rewrite ?lvar_neg; [lia|]. unfold bit_lit, aux; cbn [lvar]. rewrite fresh_lits_nth by lia. cbn. lia.
  - intros a H. rewrite sat_cnf_true in H.
    assert (Hbit : forall i k, (i < n)%nat -> (k < p)%nat -> lit_true a (lnth i ls) = true -> lit_true a (lnth k aux) = Nat.testbit i k).
    { intros i k Hi Hk Ti.
      assert (Hs : sat_clause a (lit_impl_lit (lnth i ls) (bit_lit aux i k)) = true).
      { apply H. apply in_flat_map. exists i. split; [apply in_seq; lia|]. apply in_map_iff. exists k. split; [reflexivity|apply in_seq; lia]. }
      rewrite lit_impl_lit_sat, Ti, bit_lit_true in Hs by (apply fresh_pos; lia). cbn [implb] in Hs. now apply eqb_prop in Hs. }
    apply count_le1_positions. intros i j Hij Hj Ti Tj.
    assert (i = j); [|lia]. apply (bits_determine p); [lia|lia|]. intros k Hk.
    rewrite <- (Hbit i k), <- (Hbit j k) by (assumption || lia). reflexivity.
  - intros a H.
    (* the bits of the position of the true literal *)
    set (g := fun k => existsb (fun i => lit_true a (lnth i ls) && Nat.testbit i k) (seq 0 n)).
    set (a' := set_fresh a next p g). exists a'. split; [apply set_fresh_changes|].
    apply sat_cnf_true. intros c Hc. apply in_flat_map in Hc as (i & Hi & Hc). apply in_seq in Hi.
    apply in_map_iff in Hc as (k & <- & Hk). apply in_seq in Hk.
    rewrite lit_impl_lit_sat, bit_lit_true by (apply fresh_pos; lia).
    unfold a' at 2, aux. rewrite set_fresh_nth by lia.
    replace (lit_true a' (lnth i ls)) with (lit_true a (lnth i ls)).
    2:{ symmetry. eapply changes_only_lit; [apply set_fresh_changes|]. apply Hb, lnth_In. lia. }
    destruct (lit_true a (lnth i ls)) eqn:Ti; [|reflexivity]. cbn [implb].
    destruct (g k) eqn:Eg; unfold g in Eg.
    + apply existsb_exists in Eg as (j & Hj & Hjt). apply in_seq in Hj. apply andb_prop in Hjt as [Tj Hbit].
      assert (i = j) by (eapply count_le1_unique; eauto; lia). subst j. now rewrite Hbit.
    + destruct (Nat.testbit i k) eqn:Eb; [|reflexivity]. exfalso.
      assert (existsb (fun i => lit_true a (lnth i ls) && Nat.testbit i k) (seq 0 n) = true); [|congruence].
      apply existsb_exists. exists i. split; [apply in_seq; lia|]. now rewrite Ti, Eb.
Qed.

(** *** Splitting *)

Lemma div_ceil_bound n d : (0 < d)%nat -> (n <= div_ceil n d * d)%nat.
Proof. intros H. unfold div_ceil. pose proof (Nat.div_mod (n + d - 1) d ltac:(lia)). pose proof (Nat.mod_upper_bound (n + d - 1) d ltac:(lia)). nia. Qed.

Lemma div_ceil_pos n d : (0 < d)%nat -> (0 < n)%nat -> (0 < div_ceil n d)%nat.
Proof. intros H1 H2. pose proof (div_ceil_bound n d H1). nia. Qed.

Lemma split_lits_eq n ls s : split_lits n ls s = firstn n (skipn (s * n) ls).
Proof.
  unfold split_lits. destruct (le_lt_dec (length ls) (s * n)) as [H|H].
  - rewrite skipn_all2 by lia. now rewrite !firstn_nil.
  - destruct (le_lt_dec ((s + 1) * n) (length ls)) as [H'|H'].
    + f_equal. lia.
    + rewrite (firstn_all2 (n := n)) by (rewrite skipn_length; lia).
      apply firstn_all2. rewrite skipn_length. lia.
Qed.

Lemma skipn_add {A} n m (l : list A) : skipn n (skipn m l) = skipn (m + n) l.
Proof. revert l; induction m as [|m IH]; intros l; [reflexivity|]. destruct l; cbn [skipn Nat.add]; [now rewrite skipn_nil|]. apply IH. Qed.

Lemma splits_concat n ls k s0 :
  flat_map (split_lits n ls) (seq s0 k) = firstn (k * n) (skipn (s0 * n) ls).
Proof.
  revert s0; induction k as [|k IH]; intros s0; cbn [seq flat_map].
  - reflexivity.
  - rewrite IH, split_lits_eq. replace (S s0 * n)%nat with (s0 * n + n)%nat by lia.
    rewrite <- skipn_add. replace (S k * n)%nat with (n + k * n)%nat by lia.
    generalize (skipn (s0 * n) ls). intros l. revert l. induction n as [|n IHn]; intros l; cbn [firstn skipn Nat.add]; [reflexivity|].
    destruct l as [|x l]; cbn [firstn skipn app]; [now rewrite firstn_nil|]. f_equal.
    clear IH IHn. revert l. generalize (k * S n)%nat as m. induction n as [|n IHn]; intros m l; cbn [firstn skipn app Nat.add]; [reflexivity|].
    destruct l as [|y l]; cbn [firstn skipn app]; [now rewrite firstn_nil|]. f_equal. apply IHn.
Qed.

Lemma splits_all n ls : (0 < n)%nat -> flat_map (split_lits n ls) (seq 0 (div_ceil (length ls) n)) = ls.
Proof.
  intros H. rewrite splits_concat. cbn [Nat.mul skipn]. apply firstn_all2. now apply div_ceil_bound.
Qed.

Lemma split_lits_below n m ls s : lits_below m ls -> lits_below m (split_lits n ls s).
Proof.
  intros H l Hl. apply H. rewrite split_lits_eq in Hl.
  assert (Hf : forall (k : nat) (l' : list lit), In l (firstn k l') -> In l l').
  { intros k l' Hi. rewrite <- (firstn_skipn k l'). apply in_or_app. now left. }
  assert (Hs : forall (k : nat) (l' : list lit), In l (skipn k l') -> In l l').
  { intros k l' Hi. rewrite <- (firstn_skipn k l'). apply in_or_app. now right. }
  eapply Hs. eapply Hf. exact Hl.
Qed.

Lemma count_flat_map {A} a (f : A -> list lit) xs :
  count_true a (flat_map f xs) = list_sum (map (fun x => count_true a (f x)) xs).
Proof. induction xs as [|x xs IH]; cbn; [reflexivity|]. now rewrite count_true_app, IH. Qed.

(** *** Commander *)

Lemma commander_loop_ok n sub ls cs next base :
  am1_ok sub -> lits_below base ls -> (base <= next)%N ->
  (forall s c, In (s, c) cs -> (lvar c < next)%N) ->
  let r := commander_loop n sub ls cs next in
  (next <= snd r)%N /\ cnf_below (snd r) (fst r) /\
  (forall a, sat_cnf a (fst r) = true ->
     forall s c, In (s, c) cs -> (count_true a (split_lits n ls s) <= if lit_true a c then 1 else 0)%nat) /\
  (forall a, (forall s c, In (s, c) cs -> (count_true a (split_lits n ls s) <= if lit_true a c then 1 else 0)%nat) ->
     exists a', changes_only next (snd r) a a' /\ sat_cnf a' (fst r) = true).
Proof.
  intros Hsub Hls. revert next; induction cs as [|[s c] cs IH]; intros next Hbase Hcs; cbn [commander_loop].
  - cbn. split; [lia|]. split; [apply cnf_below_nil|]. split; [intros a _ s c []|].
    intros a _. exists a. split; [apply changes_only_refl|reflexivity].
  - set (g := split_lits n ls s).
    assert (Hg : lits_below next g) by (apply lits_below_weaken with (n := base); [assumption|]; now apply split_lits_below).
    destruct (Hsub g next Hg) as (Hn1 & Hb1 & Hs1 & Hc1).
    destruct (sub g next) as [f1 next1]. cbn [fst snd] in Hn1, Hb1, Hs1, Hc1.
    assert (Hcs' : forall s0 c0, In (s0, c0) cs -> (lvar c0 < next1)%N).
    { intros s0 c0 Hin. specialize (Hcs s0 c0 (or_intror Hin)). lia. }
    destruct (IH next1 ltac:(lia) Hcs') as (Hn2 & Hb2 & Hs2 & Hc2).
    destruct (commander_loop n sub ls cs next1) as [f2 next2]. cbn [fst snd] in *.
    assert (Hc : (lvar c < next)%N) by (apply (Hcs s c); now left).
    assert (Hbc : cnf_below next (clause_impl_lit g c)).
    { intros cl Hcl. unfold clause_impl_lit in Hcl. apply in_map_iff in Hcl as (x & <- & Hx).
      intros l [<-|[<-|[]]]; rewrite ?lvar_neg; [now apply Hg|assumption]. }
    split; [lia|]. split; [|split].
    + apply cnf_below_app. split; [eapply cnf_below_weaken; [|exact Hbc]; lia|].
      apply cnf_below_app. split; [eapply cnf_below_weaken; [|exact Hb1]; lia|assumption].
    + intros a H. rewrite !sat_cnf_app in H. apply andb_prop in H as [H0 H]. apply andb_prop in H as [H1 H2].
      intros s0 c0 [E|Hin]; [|now apply (Hs2 a H2)]. inv E. fold g.
      rewrite clause_impl_lit_sat in H0. specialize (Hs1 a H1).
      destruct (lit_true a c0); [assumption|]. destruct (sat_clause a g) eqn:Eg; [discriminate|].
      assert (~ (0 < count_true a g)%nat); [|lia]. rewrite count_true_pos. congruence.
    + intros a H. pose proof (H s c (or_introl eq_refl)) as Hsc. fold g in Hsc.
      destruct (Hc1 a) as (a1 & Hch1 & Hsat1); [destruct (lit_true a c); lia|].
      destruct (Hc2 a1) as (a2 & Hch2 & Hsat2).
      { intros s0 c0 Hin. specialize (H s0 c0 (or_intror Hin)).
        rewrite (changes_only_lit _ _ _ _ c0 Hch1) by (apply (Hcs s0); now right).
        rewrite (changes_only_count _ _ _ _ _ Hch1); [assumption|].
        apply lits_below_weaken with (n := base); [assumption|]. now apply split_lits_below. }
      exists a2. split.
      { apply changes_only_trans with (a' := a1); (eapply changes_only_weaken; [| |eassumption]; lia). }
      rewrite !sat_cnf_app. rewrite Hsat2, (changes_only_sat _ _ _ _ _ Hch2 Hb1), Hsat1, !andb_true_r.
      rewrite (changes_only_sat _ _ _ _ _ Hch2 (cnf_below_weaken _ _ _ Hn1 Hbc)), (changes_only_sat _ _ _ _ _ Hch1 Hbc).
      rewrite clause_impl_lit_sat. destruct (sat_clause a g) eqn:Eg; [|reflexivity].
      apply count_true_pos in Eg. destruct (lit_true a c); [reflexivity|lia].
Qed.

Lemma combine_seq_In k s0 (l : list lit) s c :
  In (s, c) (combine (seq s0 k) l) -> (s0 <= s)%nat /\ (s < s0 + k)%nat /\ (s - s0 < length l)%nat /\ lnth (s - s0) l = c.
Proof.
  revert s0 l; induction k as [|k IH]; intros s0 l; cbn [seq combine]; [intros []|].
  destruct l as [|x l]; [intros []|]. intros [E|Hin].
  - inv E. rewrite Nat.sub_diag. cbn. repeat split; lia.
  - apply IH in Hin as (H1 & H2 & H3 & H4). replace (s - s0)%nat with (S (s - S s0)) by lia. cbn [length lnth nth].
    repeat split; try lia. exact H4.
Qed.

Lemma combine_seq_mem k s0 (l : list lit) s :
  length l = k -> (s0 <= s)%nat -> (s < s0 + k)%nat -> In (s, lnth (s - s0) l) (combine (seq s0 k) l).
Proof.
  revert s0 l; induction k as [|k IH]; intros s0 l Hl H1 H2; [lia|].
  destruct l as [|x l]; [discriminate|]. cbn [seq combine]. cbn [length] in Hl.
  destruct (Nat.eq_dec s s0) as [->|Hne].
  - left. now rewrite Nat.sub_diag.
  - right. replace (s - s0)%nat with (S (s - S s0)) by lia. cbn [lnth nth]. apply IH; lia.
Qed.

Lemma count_as_sum a ls : count_true a ls = list_sum (map (fun i => if lit_true a (lnth i ls) then 1 else 0)%nat (seq 0 (length ls))).
Proof.
  induction ls as [|l ls IH]; [reflexivity|]. cbn [length seq map list_sum count_true fold_right]. 
  rewrite IH. cbn [lnth nth]. f_equal. rewrite <- seq_shift, map_map. reflexivity.
Qed.

Lemma list_sum_map_cons {A} (f : A -> nat) x xs : list_sum (map f (x :: xs)) = (f x + list_sum (map f xs))%nat.
Proof. reflexivity. Qed.

Lemma list_sum_le {A} (f g : A -> nat) xs : (forall x, In x xs -> (f x <= g x)%nat) -> (list_sum (map f xs) <= list_sum (map g xs))%nat.
Proof.
  induction xs as [|x xs IH]; intros H; [cbn; lia|]. rewrite !list_sum_map_cons.
  pose proof (H x (or_introl eq_refl)). assert (forall y, In y xs -> (f y <= g y)%nat) by (intros; apply H; now right).
  specialize (IH H1). lia.
Qed.

Lemma list_sum_In {A} (f : A -> nat) xs x : In x xs -> (f x <= list_sum (map f xs))%nat.
Proof.
  induction xs as [|y xs IH]; [intros []|]. rewrite list_sum_map_cons. intros [->|Hin]; [lia|]. specialize (IH Hin). lia.
Qed.

Lemma commander_ok n sub : (0 < n)%nat -> am1_ok sub -> am1_ok (commander_encode n sub).
Proof.
  intros Hn Hsub ls next Hb. unfold commander_encode. destruct (length ls <=? 1)%nat eqn:El; [apply trivial_am1; lia|].
  set (m := div_ceil (length ls) n). set (cmd := fresh_lits next m). set (next0 := (next + N.of_nat m)%N).
  assert (Hcmd : lits_below next0 cmd) by apply fresh_lits_below.
  assert (Hin : forall s c, In (s, c) (combine (seq 0 m) cmd) -> (s < m)%nat /\ c = lnth s cmd).
  { intros s c Hi. apply combine_seq_In in Hi as (_ & H2 & _ & H4). rewrite Nat.sub_0_r in H4. split; [lia|now symmetry]. }
  assert (Hmem : forall s, (s < m)%nat -> In (s, lnth s cmd) (combine (seq 0 m) cmd)).
  { intros s Hs. pose proof (combine_seq_mem m 0 cmd s (fresh_lits_length _ _) ltac:(lia) ltac:(lia)) as Hi.
    now rewrite Nat.sub_0_r in Hi. }
  assert (Hcs : forall s c, In (s, c) (combine (seq 0 m) cmd) -> (lvar c < next0)%N).
  { intros s c Hi. destruct (Hin s c Hi) as [Hs ->]. apply Hcmd, lnth_In. unfold cmd. now rewrite fresh_lits_length. }
  destruct (commander_loop_ok n sub ls (combine (seq 0 m) cmd) next0 next Hsub Hb ltac:(lia) Hcs) as (Hn1 & Hb1 & Hs1 & Hc1).
  destruct (commander_loop n sub ls (combine (seq 0 m) cmd) next0) as [f1 next1]. cbn [fst snd] in Hn1, Hb1, Hs1, Hc1.
  destruct (Hsub cmd next1 (lits_below_weaken _ _ _ Hn1 Hcmd)) as (Hn2 & Hb2 & Hs2 & Hc2).
  destruct (sub cmd next1) as [f2 next2]. cbn [fst snd] in *.
  split; [lia|]. split; [|split].
  - apply cnf_below_app. split; [eapply cnf_below_weaken; eauto|assumption].
  - intros a H. rewrite sat_cnf_app in H. apply andb_prop in H as [H1 H2]. specialize (Hs2 a H2).
    rewrite <- (splits_all n ls Hn), count_flat_map. fold m. etransitivity; [|exact Hs2].
    rewrite count_as_sum. unfold cmd at 2. rewrite fresh_lits_length. apply list_sum_le.
    intros s Hs. apply in_seq in Hs. apply (Hs1 a H1). apply Hmem. lia.
  - intros a H.
    set (g := fun s => (0 <? count_true a (split_lits n ls s))%nat).
    set (a0 := set_fresh a next m g).
    assert (Hch0 : changes_only next next0 a a0) by apply set_fresh_changes.
    assert (Hcount : list_sum (map (fun s => count_true a (split_lits n ls s)) (seq 0 m)) = count_true a ls).
    { rewrite <- count_flat_map. unfold m. now rewrite splits_all. }
    assert (Hgr : forall s, (s < m)%nat -> (count_true a (split_lits n ls s) <= 1)%nat).
    { intros s Hs. etransitivity; [|exact H]. rewrite <- Hcount.
      apply (list_sum_In (fun s => count_true a (split_lits n ls s))). apply in_seq. lia. }
    destruct (Hc1 a0) as (a1 & Hch1 & Hsat1).
    { intros s c Hi. destruct (Hin s c Hi) as [Hs ->].
      rewrite (changes_only_count _ _ _ _ _ Hch0) by now apply split_lits_below.
      unfold a0, cmd. rewrite set_fresh_nth by assumption. unfold g.
      specialize (Hgr s Hs). destruct (0 <? count_true a (split_lits n ls s))%nat eqn:E; lia. }
    destruct (Hc2 a1) as (a2 & Hch2 & Hsat2).
    { rewrite (changes_only_count _ _ _ _ _ Hch1 Hcmd). etransitivity; [|exact H]. rewrite <- Hcount.
      rewrite count_as_sum. unfold cmd at 2. rewrite fresh_lits_length. apply list_sum_le. intros s Hs. apply in_seq in Hs.
      unfold a0, cmd. rewrite set_fresh_nth by lia. unfold g. destruct (0 <? count_true a (split_lits n ls s))%nat eqn:E; lia. }
    exists a2. split.
    { apply changes_only_trans with (a' := a0); [eapply changes_only_weaken; [| |exact Hch0]; lia|].
      apply changes_only_trans with (a' := a1); (eapply changes_only_weaken; [| |eassumption]; lia). }
    rewrite sat_cnf_app, Hsat2, (changes_only_sat _ _ _ _ _ Hch2 Hb1), Hsat1. reflexivity.
Qed.

(** *** Bimander *)

Lemma bit_clauses_sat a g aux s p :
  (forall k, (k < p)%nat -> lneg (lnth k aux) = false) ->
  sat_cnf a (flat_map (fun k => clause_impl_lit g (bit_lit aux s k)) (seq 0 p)) = true <->
  (sat_clause a g = true -> forall k, (k < p)%nat -> lit_true a (lnth k aux) = Nat.testbit s k).
Proof.
  intros Hp. rewrite sat_cnf_true. split.
  - intros H Hg k Hk.
    assert (Hs : sat_cnf a (clause_impl_lit g (bit_lit aux s k)) = true).
    { apply sat_cnf_true. intros c Hc. apply H. apply in_flat_map. exists k. split; [apply in_seq; lia|assumption]. }
    rewrite clause_impl_lit_sat, Hg, bit_lit_true in Hs by auto. now apply eqb_prop in Hs.
  - intros H c Hc. apply in_flat_map in Hc as (k & Hk & Hc). apply in_seq in Hk.
    assert (Hs : sat_cnf a (clause_impl_lit g (bit_lit aux s k)) = true).
    { rewrite clause_impl_lit_sat, bit_lit_true by (apply Hp; lia). destruct (sat_clause a g) eqn:Eg; [|reflexivity].
      cbn [implb]. rewrite (H eq_refl k) by lia. apply eqb_reflx. }
    rewrite sat_cnf_true in Hs. now apply Hs.
Qed.

Lemma bimander_loop_ok n p sub ls aux ss next base :
  am1_ok sub -> lits_below base ls -> (base <= next)%N ->
  (forall k, (k < p)%nat -> lneg (lnth k aux) = false /\ (lvar (lnth k aux) < next)%N) ->
  let r := bimander_loop n p sub ls aux ss next in
  let good a := forall s, In s ss -> (count_true a (split_lits n ls s) <= 1)%nat /\
                  (sat_clause a (split_lits n ls s) = true -> forall k, (k < p)%nat -> lit_true a (lnth k aux) = Nat.testbit s k) in
  (next <= snd r)%N /\ cnf_below (snd r) (fst r) /\
  (forall a, sat_cnf a (fst r) = true -> good a) /\
  (forall a, good a -> exists a', changes_only next (snd r) a a' /\ sat_cnf a' (fst r) = true).
Proof.
  intros Hsub Hls. revert next; induction ss as [|s ss IH]; intros next Hbase Haux; cbn [bimander_loop].
  - cbn. split; [lia|]. split; [apply cnf_below_nil|]. split; [intros a _ s []|].
    intros a _. exists a. split; [apply changes_only_refl|reflexivity].
  - set (g := split_lits n ls s).
    assert (Hg : lits_below next g) by (apply lits_below_weaken with (n := base); [assumption|]; now apply split_lits_below).
    destruct (Hsub g next Hg) as (Hn1 & Hb1 & Hs1 & Hc1).
    destruct (sub g next) as [f1 next1]. cbn [fst snd] in Hn1, Hb1, Hs1, Hc1.
    assert (Haux' : forall k, (k < p)%nat -> lneg (lnth k aux) = false /\ (lvar (lnth k aux) < next1)%N).
    { intros k Hk. destruct (Haux k Hk). split; [assumption|lia]. }
    destruct (IH next1 ltac:(lia) Haux') as (Hn2 & Hb2 & Hs2 & Hc2).
    destruct (bimander_loop n p sub ls aux ss next1) as [f2 next2]. cbn [fst snd] in *.
    set (f0 := flat_map (fun k => clause_impl_lit g (bit_lit aux s k)) (seq 0 p)).
    assert (Hb0 : cnf_below next f0).
    { intros cl Hcl. unfold f0 in Hcl. apply in_flat_map in Hcl as (k & Hk & Hcl). apply in_seq in Hk.
      unfold clause_impl_lit in Hcl. apply in_map_iff in Hcl as (x & <- & Hx).
      intros l [<-|[<-|[]]]; rewrite ?lvar_neg; [now apply Hg|]. cbn [bit_lit lvar]. apply Haux. lia. }
    assert (Hneg : forall k, (k < p)%nat -> lneg (lnth k aux) = false) by (intros; now apply Haux).
    split; [lia|]. split; [|split].
    + apply cnf_below_app. split; [eapply cnf_below_weaken; [|exact Hb0]; lia|].
      apply cnf_below_app. split; [eapply cnf_below_weaken; [|exact Hb1]; lia|assumption].
    + intros a H. rewrite !sat_cnf_app in H. apply andb_prop in H as [H0 H]. apply andb_prop in H as [H1 H2].
      intros s0 [<-|Hin]; [|now apply (Hs2 a H2)]. fold g. split; [now apply Hs1|].
      now apply bit_clauses_sat.
    + intros a H. destruct (H s (or_introl eq_refl)) as [Hsc Hsb]. fold g in Hsc, Hsb.
      destruct (Hc1 a Hsc) as (a1 & Hch1 & Hsat1).
      destruct (Hc2 a1) as (a2 & Hch2 & Hsat2).
      { intros s0 Hin. destruct (H s0 (or_intror Hin)) as [H1 H2].
        assert (Hg0 : lits_below next (split_lits n ls s0)).
        { apply lits_below_weaken with (n := base); [assumption|]. now apply split_lits_below. }
        rewrite (changes_only_count _ _ _ _ _ Hch1 Hg0). split; [assumption|].
        intros Hsat k Hk. rewrite (changes_only_lit _ _ _ _ _ Hch1) by now apply Haux.
        apply H2; [|assumption]. apply count_true_pos in Hsat. rewrite (changes_only_count _ _ _ _ _ Hch1 Hg0) in Hsat.
        now apply count_true_pos. }
      exists a2. split.
      { apply changes_only_trans with (a' := a1); (eapply changes_only_weaken; [| |eassumption]; lia). }
      rewrite !sat_cnf_app. rewrite Hsat2, (changes_only_sat _ _ _ _ _ Hch2 Hb1), Hsat1, !andb_true_r.
      rewrite (changes_only_sat _ _ _ _ _ Hch2 (cnf_below_weaken _ _ _ Hn1 Hb0)), (changes_only_sat _ _ _ _ _ Hch1 Hb0).
      now apply bit_clauses_sat.
Qed.

(** two distinct splits with a true literal contradict at most one *)
Lemma list_sum_le1 (f : nat -> nat) m :
  (forall s, (s < m)%nat -> (f s <= 1)%nat) ->
  (forall s t, (s < m)%nat -> (t < m)%nat -> (0 < f s)%nat -> (0 < f t)%nat -> s = t) ->
  (list_sum (map f (seq 0 m)) <= 1)%nat.
Proof.
  induction m as [|m IH]; intros H1 H2; [cbn; lia|].
  rewrite seq_S, map_app, list_sum_app. cbn [map list_sum fold_right Nat.add].
  assert (IH' : (list_sum (map f (seq 0 m)) <= 1)%nat) by (apply IH; intros; [apply H1; lia|apply H2; lia]).
  pose proof (H1 m ltac:(lia)).
  destruct (Nat.eq_dec (f m) 0) as [->|Hne]; [lia|].
  assert (Hz : list_sum (map f (seq 0 m)) = 0%nat); [|lia].
  assert (Hall : forall s, (s < m)%nat -> f s = 0%nat).
  { intros s Hs. destruct (Nat.eq_dec (f s) 0) as [|Hs']; [assumption|].
    assert (s = m) by (apply H2; lia). lia. }
  clear - Hall. induction m as [|m IH]; [reflexivity|]. rewrite seq_S, map_app, list_sum_app. cbn.
  rewrite IH by (intros; apply Hall; lia). rewrite (Hall m) by lia. reflexivity.
Qed.

Lemma bimander_ok n sub : (0 < n)%nat -> am1_ok sub -> am1_ok (bimander_encode n sub).
Proof.
  intros Hn Hsub ls next Hb. unfold bimander_encode. destruct (length ls <=? 1)%nat eqn:El; [apply trivial_am1; lia|].
  set (m := div_ceil (length ls) n). set (p := digits2 (m - 1)). set (aux := fresh_lits next p). set (next0 := (next + N.of_nat p)%N).
  assert (Hm : (0 < m)%nat) by (apply div_ceil_pos; lia).
  assert (Hp : (m <= 2 ^ p)%nat) by (pose proof (digits2_bound (m - 1)); fold p in H; lia).
  assert (Haux : forall k, (k < p)%nat -> lneg (lnth k aux) = false /\ (lvar (lnth k aux) < next0)%N).
  { intros k Hk. unfold aux. rewrite fresh_lits_nth by assumption. cbn. split; [reflexivity|unfold next0; lia]. }
  destruct (bimander_loop_ok n p sub ls aux (seq 0 m) next0 next Hsub Hb ltac:(lia) Haux) as (Hn1 & Hb1 & Hs1 & Hc1).
  destruct (bimander_loop n p sub ls aux (seq 0 m) next0) as [f1 next1]. cbn [fst snd] in *.
  assert (Hcount : forall a, list_sum (map (fun s => count_true a (split_lits n ls s)) (seq 0 m)) = count_true a ls).
  { intros a. rewrite <- count_flat_map. unfold m. now rewrite splits_all. }
  split; [lia|]. split; [assumption|]. split.
  - intros a H. specialize (Hs1 a H). rewrite <- Hcount.
    apply (list_sum_le1 (fun s => count_true a (split_lits n ls s))).
    + intros s Hs. apply Hs1. apply in_seq. lia.
    + intros s t Hs Ht Hcs Hct. apply count_true_pos in Hcs, Hct. apply (bits_determine p); [lia|lia|]. intros k Hk.
      destruct (Hs1 s ltac:(apply in_seq; lia)) as [_ H1]. destruct (Hs1 t ltac:(apply in_seq; lia)) as [_ H2].
      rewrite <- H1, <- H2 by assumption. reflexivity.
  - intros a H.
    set (g := fun k => existsb (fun s => sat_clause a (split_lits n ls s) && Nat.testbit s k) (seq 0 m)).
    set (a0 := set_fresh a next p g).
    assert (Hch0 : changes_only next next0 a a0) by apply set_fresh_changes.
    assert (Huniq : forall s t, (s < m)%nat -> (t < m)%nat -> sat_clause a (split_lits n ls s) = true -> sat_clause a (split_lits n ls t) = true -> s = t).
    { intros s t Hs Ht Hcs Hct. apply count_true_pos in Hcs, Hct. rewrite <- Hcount in H.
      destruct (Nat.eq_dec s t) as [|Hne]; [assumption|exfalso].
      assert (Htwo : forall xs, NoDup xs -> In s xs -> In t xs -> (2 <= list_sum (map (fun s => count_true a (split_lits n ls s)) xs))%nat).
      { clear - Hcs Hct Hne. induction xs as [|x xs IH]; intros Hnd Hs Ht; [destruct Hs|]. inv Hnd. rewrite list_sum_map_cons.
        destruct Hs as [->|Hs], Ht as [->|Ht].
        - congruence.
        - pose proof (list_sum_In (fun s => count_true a (split_lits n ls s)) xs t Ht) as Hi. cbn beta in Hi. lia.
        - pose proof (list_sum_In (fun s => count_true a (split_lits n ls s)) xs s Hs) as Hi. cbn beta in Hi. lia.
        - specialize (IH H2 Hs Ht). lia. }
      specialize (Htwo (seq 0 m) (seq_NoDup _ _) ltac:(apply in_seq; lia) ltac:(apply in_seq; lia)). lia. }
    destruct (Hc1 a0) as (a1 & Hch1 & Hsat1).
    { intros s Hs. apply in_seq in Hs.
      assert (Hbs : lits_below next (split_lits n ls s)) by now apply split_lits_below.
      rewrite (changes_only_count _ _ _ _ _ Hch0 Hbs). split.
      - etransitivity; [|exact H]. rewrite <- Hcount. apply (list_sum_In (fun s => count_true a (split_lits n ls s))). apply in_seq. lia.
      - intros Hsat k Hk. apply count_true_pos in Hsat. rewrite (changes_only_count _ _ _ _ _ Hch0 Hbs) in Hsat.
        apply count_true_pos in Hsat. unfold a0, aux. rewrite set_fresh_nth by assumption.
        destruct (g k) eqn:Eg; unfold g in Eg.
        + apply existsb_exists in Eg as (t & Ht & Htt). apply in_seq in Ht. apply andb_prop in Htt as [Tt Hbit].
          assert (s = t) by (apply Huniq; auto; lia). now subst t.
        + destruct (Nat.testbit s k) eqn:Eb; [|reflexivity].
          assert (existsb (fun s => sat_clause a (split_lits n ls s) && Nat.testbit s k) (seq 0 m) = true); [|congruence].
          apply existsb_exists. exists s. split; [apply in_seq; lia|]. now rewrite Hsat, Eb. }
    exists a1. split; [|assumption].
    apply changes_only_trans with (a' := a0); (eapply changes_only_weaken; [| |eassumption]; lia).
Qed.

(** *** Two product *)

Lemma rows_loop_spec fuel p len :
  (p * p <= len)%nat -> (len < (p + fuel + 1) * (p + fuel + 1))%nat -> rows_loop fuel p len = Nat.sqrt len.
Proof.
  revert p; induction fuel as [|f IH]; intros p H1 H2; cbn [rows_loop].
  - symmetry. apply Nat.sqrt_unique. lia.
  - destruct ((p + 1) * (p + 1) <=? len)%nat eqn:E.
    + apply IH; [lia|]. replace (p + 1 + f + 1)%nat with (p + S f + 1)%nat by lia. assumption.
    + symmetry. apply Nat.sqrt_unique. lia.
Qed.

Lemma rows_loop_sqrt len : rows_loop len 0 len = Nat.sqrt len.
Proof. apply rows_loop_spec; nia. Qed.

Lemma twoproduct_ok sub : am1_ok sub -> am1_ok (twoproduct_encode sub).
Proof.
  intros Hsub ls next Hb. unfold twoproduct_encode. destruct (length ls <=? 1)%nat eqn:El; [apply trivial_am1; lia|].
  rewrite rows_loop_sqrt. set (n := length ls) in *. set (p := Nat.sqrt n). set (q := div_ceil n p).
  assert (Hp : (0 < p)%nat).
  { unfold p. destruct (Nat.sqrt n) eqn:E; [|lia]. pose proof (Nat.sqrt_spec n ltac:(lia)). rewrite E in H. lia. }
  assert (Hq : (n <= q * p)%nat) by now apply div_ceil_bound.
  assert (Hqp : (0 < q)%nat) by (apply div_ceil_pos; lia).
  set (rows := fresh_lits next p). set (cols := fresh_lits (next + N.of_nat p) q).
  set (next0 := (next + N.of_nat p + N.of_nat q)%N).
  set (f0 := flat_map _ (seq 0 n)).
  assert (Hrb : lits_below next0 rows) by (eapply lits_below_weaken; [|apply fresh_lits_below]; lia).
  assert (Hcb : lits_below next0 cols) by apply fresh_lits_below.
  destruct (Hsub rows next0 Hrb) as (Hn1 & Hb1 & Hs1 & Hc1).
  destruct (sub rows next0) as [f1 next1]. cbn [fst snd] in Hn1, Hb1, Hs1, Hc1.
  destruct (Hsub cols next1 (lits_below_weaken _ _ _ Hn1 Hcb)) as (Hn2 & Hb2 & Hs2 & Hc2).
  destruct (sub cols next1) as [f2 next2]. cbn [fst snd] in *.
  assert (Hdiv : forall i, (i < n)%nat -> (i / q < p)%nat).
  { intros i Hi. apply Nat.div_lt_upper_bound; lia. }
  assert (Hmod : forall i, (i mod q < q)%nat) by (intros i; apply Nat.mod_upper_bound; lia).
  assert (Hf0 : forall a, sat_cnf a f0 = true <->
     forall i, (i < n)%nat -> lit_true a (lnth i ls) = true -> lit_true a (lnth (i / q) rows) = true /\ lit_true a (lnth (i mod q) cols) = true).
  { intros a. rewrite sat_cnf_true. unfold f0. split.
    - intros H i Hi Ti.
      assert (Hx : forall c, In c [lit_impl_lit (lnth i ls) (lnth (i / q) rows); lit_impl_lit (lnth i ls) (lnth (i mod q) cols)] -> sat_clause a c = true).
      { intros c Hc. apply H. apply in_flat_map. exists i. split; [apply in_seq; lia|assumption]. }
      pose proof (Hx _ (or_introl eq_refl)) as Hr. pose proof (Hx _ (or_intror (or_introl eq_refl))) as Hc.
      rewrite lit_impl_lit_sat, Ti in Hr, Hc. auto.
    - intros H c Hc. apply in_flat_map in Hc as (i & Hi & Hc). apply in_seq in Hi.
      destruct Hc as [<-|[<-|[]]]; rewrite lit_impl_lit_sat; destruct (lit_true a (lnth i ls)) eqn:Ti; try reflexivity;
        destruct (H i ltac:(lia) Ti) as [H1 H2]; cbn [implb]; assumption. }
  assert (Hb0 : cnf_below next0 f0).
  { intros c Hc. unfold f0 in Hc. apply in_flat_map in Hc as (i & Hi & Hc). apply in_seq in Hi.
    assert (lvar (lnth i ls) < next)%N by (apply Hb, lnth_In; lia).
    destruct Hc as [<-|[<-|[]]]; intros l [<-|[<-|[]]]; rewrite ?lvar_neg; try (unfold next0; lia).
    - apply Hrb, lnth_In. unfold rows. rewrite fresh_lits_length. apply Hdiv. lia.
    - apply Hcb, lnth_In. unfold cols. rewrite fresh_lits_length. apply Hmod. }
  split; [lia|]. split; [|split].
  - apply cnf_below_app. split; [eapply cnf_below_weaken; [|exact Hb0]; lia|].
    apply cnf_below_app. split; [eapply cnf_below_weaken; [|exact Hb1]; lia|assumption].
  - intros a H. rewrite !sat_cnf_app in H. apply andb_prop in H as [H0 H]. apply andb_prop in H as [H1 H2].
    specialize (Hs1 a H1). specialize (Hs2 a H2). rewrite Hf0 in H0.
    apply count_le1_positions. intros i j Hij Hj Ti Tj. fold n in Hj.
    destruct (H0 i ltac:(lia) Ti) as [Ri Ci]. destruct (H0 j Hj Tj) as [Rj Cj].
    assert (Er : (i / q)%nat = (j / q)%nat).
    { eapply count_le1_unique; [exact Hs1| | |exact Ri|exact Rj]; unfold rows; rewrite fresh_lits_length; apply Hdiv; lia. }
    assert (Ec : (i mod q)%nat = (j mod q)%nat).
    { eapply count_le1_unique; [exact Hs2| | |exact Ci|exact Cj]; unfold cols; rewrite fresh_lits_length; apply Hmod. }
    pose proof (Nat.div_mod i q ltac:(lia)). pose proof (Nat.div_mod j q ltac:(lia)). rewrite Er, Ec in *. lia.
  - intros a H.
    set (gr := fun r => existsb (fun i => lit_true a (lnth i ls) && (i / q =? r)%nat) (seq 0 n)).
    set (gc := fun c => existsb (fun i => lit_true a (lnth i ls) && (i mod q =? c)%nat) (seq 0 n)).
    set (a0 := set_fresh (set_fresh a next p gr) (next + N.of_nat p) q gc).
    assert (Hch0 : changes_only next next0 a a0).
    { apply changes_only_trans with (a' := set_fresh a next p gr).
      - eapply changes_only_weaken; [| |apply set_fresh_changes]; unfold next0; lia.
      - eapply changes_only_weaken; [| |apply set_fresh_changes]; unfold next0; lia. }
    assert (Hr : forall r, (r < p)%nat -> lit_true a0 (lnth r rows) = gr r).
    { intros r Hr. unfold a0. rewrite (changes_only_lit (next + N.of_nat p) _ _ _ _ (set_fresh_changes _ _ _ _)).
      - unfold rows. now apply set_fresh_nth.
      - unfold rows. rewrite fresh_lits_nth by assumption. cbn. lia. }
    assert (Hc : forall c, (c < q)%nat -> lit_true a0 (lnth c cols) = gc c).
    { intros c Hcc. unfold a0, cols. now apply set_fresh_nth. }
    assert (Hcr : (count_true a0 rows <= 1)%nat).
    { apply count_le1_positions. unfold rows. rewrite fresh_lits_length. fold rows. intros i j Hij Hj Ti Tj.
      rewrite Hr in Ti, Tj by lia. unfold gr in Ti, Tj.
      apply existsb_exists in Ti as (x & Hx & Tx). apply existsb_exists in Tj as (y & Hy & Ty).
      apply in_seq in Hx. apply in_seq in Hy. apply andb_prop in Tx as [Tx Ex]. apply andb_prop in Ty as [Ty Ey].
      assert (x = y) by (eapply count_le1_unique; [exact H| | |exact Tx|exact Ty]; fold n; lia). subst y. lia. }
    assert (Hcc : (count_true a0 cols <= 1)%nat).
    { apply count_le1_positions. unfold cols. rewrite fresh_lits_length. fold cols. intros i j Hij Hj Ti Tj.
      rewrite Hc in Ti, Tj by lia. unfold gc in Ti, Tj.
      apply existsb_exists in Ti as (x & Hx & Tx). apply existsb_exists in Tj as (y & Hy & Ty).
      apply in_seq in Hx. apply in_seq in Hy. apply andb_prop in Tx as [Tx Ex]. apply andb_prop in Ty as [Ty Ey].
      assert (x = y) by (eapply count_le1_unique; [exact H| | |exact Tx|exact Ty]; fold n; lia). subst y. apply Nat.eqb_eq in Ex, Ey. lia. }
    destruct (Hc1 a0 Hcr) as (a1 & Hch1 & Hsat1).
    destruct (Hc2 a1) as (a2 & Hch2 & Hsat2).
    { now rewrite (changes_only_count _ _ _ _ _ Hch1 Hcb). }
    exists a2. split.
    { apply changes_only_trans with (a' := a0); [eapply changes_only_weaken; [| |exact Hch0]; lia|].
      apply changes_only_trans with (a' := a1); (eapply changes_only_weaken; [| |eassumption]; unfold next0; lia). }
    rewrite !sat_cnf_app, Hsat2, (changes_only_sat _ _ _ _ _ Hch2 Hb1), Hsat1, !andb_true_r.
    rewrite (changes_only_sat _ _ _ _ _ Hch2 (cnf_below_weaken _ _ _ Hn1 Hb0)), (changes_only_sat _ _ _ _ _ Hch1 Hb0).
    apply Hf0. intros i Hi Ti.
    rewrite (changes_only_lit _ _ _ _ _ Hch0) in Ti by (apply Hb, lnth_In; lia).
    rewrite Hr by now apply Hdiv. rewrite Hc by apply Hmod. unfold gr, gc. split; apply existsb_exists; exists i;
      (split; [apply in_seq; lia|rewrite Ti; cbn [andb]; apply Nat.eqb_refl]).
Qed.

(** ** All encodings *)

Lemma am1_encode_ok k : am1_params_ok k -> am1_ok (am1_encode k).
Proof.
  induction k; cbn [am1_params_ok am1_encode].
  - intros _. apply pairwise_ok.
  - intros _. apply ladder_ok.
  - intros _. apply bitwise_ok.
  - intros [Hn Hk]. apply commander_ok; auto.
  - intros [Hn Hk]. apply bimander_ok; auto.
  - intros Hk. apply twoproduct_ok; auto.
Qed.
