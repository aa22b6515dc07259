(** * The value maps of a node connection *)

From Coq Require Import List Bool Arith Lia ZifyBool ZifyNat.
From Verif Require Import NodeDb TreeSpec.
Import ListNotations.

Lemma div_ge w x d : 1 <= d -> (w <= x / d <-> w * d <= x).
Proof.
  intros Hd. pose proof (Nat.div_mod_eq x d). pose proof (Nat.mod_upper_bound x d ltac:(lia)). split; intros; nia.
Qed.

(** rounding up *)
Definition ceil (w m : nat) : nat := if (w mod m =? 0) then w / m else w / m + 1.
Lemma ceil_ge w m x : 1 <= m -> (w <= x * m <-> ceil w m <= x).
Proof.
  intros Hm. unfold ceil. pose proof (Nat.div_mod_eq w m). pose proof (Nat.mod_upper_bound w m ltac:(lia)).
  destruct (Nat.eqb_spec (w mod m) 0); split; intros; nia.
Qed.
Lemma ceil_pos w m : 1 <= m -> 1 <= w -> 1 <= ceil w m.
Proof.
  intros Hm Hw. unfold ceil. pose proof (Nat.div_mod_eq w m) as E. destruct (Nat.eqb_spec (w mod m) 0) as [E0|E0]; [|apply Nat.le_add_l].
  rewrite E0 in E. destruct (w / m); [|apply Nat.le_add_l + apply le_n_S, Nat.le_0_l]. rewrite Nat.mul_0_r in E. lia.
Qed.

Lemma round_up_ceil con w : con_valid con -> 1 <= w -> within_limit con w ->
  nc_rev_map_round_up con w = ceil w (nc_mult con) * nc_div con + nc_offset con.
Proof.
  intros (Hd & Hm & Hl) Hw HL. unfold nc_rev_map_round_up, nc_rev_map, is_multiple_of, within_limit in *.
  assert (E : (if w mod nc_mult con =? 0 then w else w + nc_mult con) / nc_mult con = ceil w (nc_mult con)).
  { unfold ceil. destruct (_ =? 0); [reflexivity|]. replace (w + nc_mult con) with (w + 1 * nc_mult con) by lia. rewrite Nat.div_add by lia. reflexivity. }
  rewrite E. pose proof (ceil_pos w _ Hm Hw). destruct (nc_limit con) as [limit|]; [|reflexivity].
  assert (Hc : ceil w (nc_mult con) <= limit) by (apply ceil_ge; auto).
  destruct (Nat.leb_spec limit ((w - 1) / nc_mult con)) as [L|L]; [apply div_ge in L; [nia|auto]|].
  rewrite Nat.min_l by auto. destruct (ceil w (nc_mult con) * nc_div con) eqn:Ex; [nia|reflexivity].
Qed.

Theorem con_adjoint con v w : con_valid con -> 1 <= w -> within_limit con w -> (w <= nc_map con v <-> nc_rev_map_round_up con w <= v).
Proof.
  intros Hc Hw HL. rewrite round_up_ceil by auto. destruct Hc as (Hd & Hm & Hl). pose proof (ceil_pos w _ Hm Hw) as Hp.
  unfold nc_map. destruct (Nat.leb_spec v (nc_offset con)) as [L|L].
  - split; intros; nia.
  - assert (E : w <= (v - nc_offset con) / nc_div con * nc_mult con <-> ceil w (nc_mult con) * nc_div con + nc_offset con <= v).
    { rewrite ceil_ge, div_ge by auto. lia. }
    unfold within_limit in HL. destruct (nc_limit con) as [limit|]; [|exact E].
    rewrite <- E. split; intros H; [nia|]. destruct (Nat.min_dec ((v - nc_offset con) / nc_div con) limit) as [-> | ->]; auto.
Qed.

(** beyond the limit nothing is reached, but the reverse map still returns a value *)
Theorem con_beyond con v w : ~ within_limit con w -> nc_map con v < w.
Proof.
  unfold within_limit, nc_map. destruct (nc_limit con) as [limit|]; [|tauto]. intros H. destruct (_ <=? _); nia.
Qed.

Theorem con_possible con w : con_valid con -> (nc_is_possible con w = true <-> exists v, nc_map con v = w).
Proof.
  intros (Hd & Hm & Hl). unfold nc_is_possible, is_multiple_of.
  assert (M : forall x, (x * nc_mult con) mod nc_mult con = 0) by (intros; apply Nat.mod_mul; lia).
  assert (D : forall x, (x * nc_mult con) / nc_mult con = x) by (intros; apply Nat.div_mul; lia).
  split.
  - intros H. exists (nc_rev_map con w). unfold nc_map, nc_rev_map.
    assert (Hw : w = w / nc_mult con * nc_mult con) by (pose proof (Nat.div_mod_eq w (nc_mult con)); destruct (nc_limit con); lia).
    set (q := w / nc_mult con) in *.
    destruct (nc_limit con) as [limit|].
    + apply andb_true_iff in H as (_ & H). rewrite Nat.min_l by lia. destruct q as [|q'] eqn:Eq.
      * cbn. lia.
      * destruct (S q' * nc_div con) eqn:Ex; [nia|]. rewrite <- Ex.
        replace (S q' * nc_div con + nc_offset con <=? nc_offset con) with false by nia.
        replace (S q' * nc_div con + nc_offset con - nc_offset con) with (S q' * nc_div con) by lia.
        rewrite Nat.div_mul by lia. rewrite Nat.min_l by lia. lia.
    + destruct (Nat.leb_spec (q * nc_div con + nc_offset con) (nc_offset con)) as [L|L]; [nia|].
      replace (q * nc_div con + nc_offset con - nc_offset con) with (q * nc_div con) by lia. rewrite Nat.div_mul by lia. lia.
  - intros (v & <-). unfold nc_map. destruct (Nat.leb_spec v (nc_offset con)).
    + destruct (nc_limit con); rewrite Nat.mod_0_l, ?Nat.div_0_l by lia; reflexivity.
    + destruct (nc_limit con) as [limit|]; rewrite M; [|reflexivity]. rewrite D. cbn. lia.
Qed.

(** mapping a possible value down and up again gives it back *)
Theorem con_round_trip con w : con_valid con -> nc_is_possible con w = true -> nc_map con (nc_rev_map con w) = w.
Proof.
  intros (Hd & Hm & Hl) H. unfold nc_is_possible, is_multiple_of in H. unfold nc_map, nc_rev_map.
  assert (Hw : w = w / nc_mult con * nc_mult con) by (pose proof (Nat.div_mod_eq w (nc_mult con)); destruct (nc_limit con); lia).
  set (q := w / nc_mult con) in *.
  destruct (nc_limit con) as [limit|].
  + apply andb_true_iff in H as (_ & H). rewrite Nat.min_l by lia. destruct q as [|q'] eqn:Eq.
    * cbn. lia.
    * destruct (S q' * nc_div con) eqn:Ex; [nia|]. rewrite <- Ex.
      replace (S q' * nc_div con + nc_offset con <=? nc_offset con) with false by nia.
      replace (S q' * nc_div con + nc_offset con - nc_offset con) with (S q' * nc_div con) by lia.
      rewrite Nat.div_mul by lia. rewrite Nat.min_l by lia. lia.
  + destruct (Nat.leb_spec (q * nc_div con + nc_offset con) (nc_offset con)) as [L|L]; [nia|].
    replace (q * nc_div con + nc_offset con - nc_offset con) with (q * nc_div con) by lia. rewrite Nat.div_mul by lia. lia.
Qed.

(** the downward rounding: the largest inputs whose image does not exceed [w] *)
Theorem con_round_down con v w : con_valid con -> nc_limit con = None ->
  (nc_map con v <= w <-> v < nc_rev_map con w + nc_div con).
Proof.
  intros (Hd & Hm & _) HL. unfold nc_map, nc_rev_map. rewrite HL. destruct (Nat.leb_spec v (nc_offset con)) as [L|L].
  - split; intros; nia.
  - assert (E : (v - nc_offset con) / nc_div con * nc_mult con <= w <-> ~ (w / nc_mult con + 1) * nc_div con <= v - nc_offset con).
    { rewrite <- div_ge by auto. rewrite <- div_ge by auto. lia. }
    rewrite E. lia.
Qed.
