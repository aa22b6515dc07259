(** * Proofs about [Types.v] *)

From Coq Require Import List Bool NArith ZArith Lia.
From Coq Require Import ZifyBool ZifyNat ZifyN.
From Verif Require Import Spec Types Constraints ConstrSpec Base.
Import ListNotations.

Ltac Zify.zify_post_hook ::= Z.div_mod_to_equations.

(** ** Packed literals *)

Lemma represent_arith idx s :
  (idx <= max_var_idx)%N -> represent idx s = pack (mkLit idx s).
Proof.
  intros H. unfold represent, pack; cbn [lvar lneg].
  rewrite N.shiftl_mul_pow2. change (2 ^ 1)%N with 2%N. change (2 ^ 32)%N with 4294967296%N.
  change max_var_idx with 2147483647%N in H.
  rewrite N.mod_small by lia. destruct s; lia.
Qed.

Lemma plit_vidx_pack l : plit_vidx (pack l) = lvar l.
Proof.
  unfold plit_vidx, pack. rewrite N.shiftr_div_pow2. change (2 ^ 1)%N with 2%N.
  destruct (lneg l); lia.
Qed.

Lemma land_1 n : N.land n 1 = (n mod 2)%N.
Proof. change 1%N with (N.ones 1) at 1. rewrite N.land_ones. reflexivity. Qed.

Lemma plit_is_neg_pack l : plit_is_neg (pack l) = lneg l.
Proof. unfold plit_is_neg, pack. rewrite land_1. destruct (lneg l); lia. Qed.

Lemma plit_is_pos_pack l : plit_is_pos (pack l) = negb (lneg l).
Proof. unfold plit_is_pos, pack. rewrite land_1. destruct (lneg l); cbn [negb]; lia. Qed.

Lemma lxor_even n : N.lxor (2 * n) 1 = (2 * n + 1)%N.
Proof. destruct n; reflexivity. Qed.
Lemma lxor_odd n : N.lxor (2 * n + 1) 1 = (2 * n)%N.
Proof. destruct n; reflexivity. Qed.

Lemma plit_not_pack l : plit_not (pack l) = pack (neg l).
Proof.
  unfold plit_not, pack, neg; cbn [lvar lneg]. destruct (lneg l); cbn [negb].
  - rewrite lxor_odd. lia.
  - rewrite N.add_0_r. apply lxor_even.
Qed.

Lemma pack_bound l : (lvar l <= max_var_idx)%N -> (pack l <= u32_max)%N.
Proof.
  unfold pack. change max_var_idx with 2147483647%N. change u32_max with 4294967295%N.
  destruct (lneg l); lia.
Qed.

Lemma pack_surj p : (p <= u32_max)%N -> exists l, (lvar l <= max_var_idx)%N /\ pack l = p.
Proof.
  change max_var_idx with 2147483647%N. change u32_max with 4294967295%N. intros H.
  exists (mkLit (p / 2) (p mod 2 =? 1)%N). unfold pack; cbn [lvar lneg].
  split; [lia|]. destruct (p mod 2 =? 1)%N eqn:E; lia.
Qed.

Lemma plit_round_trip idx s p :
  plit_new_with_error idx s = Some p ->
  (idx <= max_var_idx)%N /\ (p <= u32_max)%N /\ plit_vidx p = idx /\ plit_is_neg p = s /\ plit_is_pos p = negb s.
Proof.
  unfold plit_new_with_error. destruct (max_var_idx <? idx)%N eqn:E; [discriminate|].
  intros H; inversion H; subst; clear H.
  assert (idx <= max_var_idx)%N by lia.
  rewrite represent_arith by lia.
  repeat split; auto.
  - now apply pack_bound.
  - apply plit_vidx_pack.
  - apply plit_is_neg_pack.
  - apply plit_is_pos_pack.
Qed.

Lemma plit_not_spec p :
  (p <= u32_max)%N ->
  (plit_not p <= u32_max)%N /\ plit_vidx (plit_not p) = plit_vidx p /\
  plit_is_neg (plit_not p) = negb (plit_is_neg p) /\ plit_not (plit_not p) = p.
Proof.
  intros H. destruct (pack_surj p H) as (l & Hl & <-).
  rewrite !plit_not_pack, !plit_vidx_pack, !plit_is_neg_pack, neg_neg.
  repeat split; auto. now apply pack_bound.
Qed.

Lemma plit_order p q :
  (p <= u32_max)%N -> (q <= u32_max)%N ->
  ((p < q)%N <-> (plit_vidx p < plit_vidx q)%N \/
               (plit_vidx p = plit_vidx q /\ plit_is_neg p = false /\ plit_is_neg q = true)).
Proof.
  intros Hp Hq. destruct (pack_surj p Hp) as (l & Hl & <-). destruct (pack_surj q Hq) as (k & Hk & <-).
  rewrite !plit_vidx_pack, !plit_is_neg_pack. unfold pack.
  destruct (lneg l), (lneg k); split; intros H; try lia.
Qed.

Lemma plit_eq p q :
  (p <= u32_max)%N -> (q <= u32_max)%N -> plit_vidx p = plit_vidx q -> plit_is_neg p = plit_is_neg q -> p = q.
Proof.
  intros Hp Hq. destruct (pack_surj p Hp) as (l & Hl & <-). destruct (pack_surj q Hq) as (k & Hk & <-).
  rewrite !plit_vidx_pack, !plit_is_neg_pack. destruct l, k; cbn. now intros -> ->.
Qed.

Lemma plit_new_domain idx s :
  (plit_new_with_error idx s = None <-> (max_var_idx < idx)%N) /\
  (plit_new idx s = None <-> (max_var_idx <= idx)%N).
Proof.
  unfold plit_new_with_error, plit_new. split.
  - destruct (max_var_idx <? idx)%N eqn:E; split; intros H; try lia; try discriminate; reflexivity.
  - destruct (idx <? max_var_idx)%N eqn:E; split; intros H; try lia; try discriminate; reflexivity.
Qed.

Lemma plit_new_agrees idx s p : plit_new idx s = Some p -> plit_new_with_error idx s = Some p.
Proof.
  unfold plit_new_with_error, plit_new.
  destruct (idx <? max_var_idx)%N eqn:E; [|discriminate].
  destruct (max_var_idx <? idx)%N eqn:E'; [lia|auto].
Qed.

Lemma plit_add_sub p k q :
  plit_add p k = Some q ->
  (plit_vidx q = plit_vidx p + k)%N /\ plit_is_neg q = plit_is_neg p /\ plit_sub q k = Some p.
Proof.
  unfold plit_add. destruct (p + 2 * k <=? u32_max)%N eqn:E; [|discriminate].
  intros H; inversion H; subst; clear H.
  unfold plit_vidx, plit_is_neg, plit_sub. rewrite !N.shiftr_div_pow2, !land_1.
  change (2 ^ 1)%N with 2%N.
  destruct (2 * k <=? p + 2 * k)%N eqn:E'; [|lia].
  repeat split; try lia. f_equal. lia.
Qed.

(** ** IPASIR *)

Lemma plit_ipasir_lit_round p :
  (p <= u32_max)%N -> (plit_vidx p < max_var_idx)%N ->
  exists z, plit_to_ipasir p = Some z /\ plit_to_ipasir_with_error p = Some z /\ z <> 0%Z /\
            (i32_min <= z <= i32_max)%Z /\ plit_from_ipasir z = Some p.
Proof.
  intros Hp Hv. destruct (pack_surj p Hp) as (l & Hl & <-).
  unfold plit_to_ipasir, plit_to_ipasir_with_error, plit_from_ipasir, plit_new_with_error.
  rewrite plit_vidx_pack in *. rewrite !plit_is_neg_pack.
  change max_var_idx with 2147483647%N in *. change i32_max with 2147483647%Z. change i32_min with (-2147483648)%Z.
  destruct (Z.of_N (lvar l + 1) <=? 2147483647)%Z eqn:E; [|lia].
  eexists; split; [reflexivity|]. split; [reflexivity|].
  set (z := if lneg l then (- Z.of_N (lvar l + 1))%Z else Z.of_N (lvar l + 1)).
  assert (Hz : z <> 0%Z) by (unfold z; destruct (lneg l); lia).
  split; [assumption|]. split; [unfold z; destruct (lneg l); lia|].
  destruct (z =? 0)%Z eqn:Ez; [lia|].
  replace (Z.abs_N z - 1)%N with (lvar l) by (unfold z; destruct (lneg l); lia).
  replace (z <? 0)%Z with (lneg l) by (unfold z; destruct (lneg l); lia).
  destruct (2147483647 <? lvar l)%N eqn:El; [lia|].
  rewrite represent_arith by (change max_var_idx with 2147483647%N; lia).
  now rewrite lit_eta.
Qed.

Lemma plit_ipasir_int_round z :
  (i32_min < z <= i32_max)%Z -> z <> 0%Z ->
  exists p, plit_from_ipasir z = Some p /\ (p <= u32_max)%N /\ plit_to_ipasir p = Some z.
Proof.
  unfold plit_from_ipasir, plit_new_with_error.
  change i32_max with 2147483647%Z. change i32_min with (-2147483648)%Z. intros Hz Hz0.
  destruct (z =? 0)%Z eqn:Ez; [lia|].
  change max_var_idx with 2147483647%N.
  destruct (2147483647 <? Z.abs_N z - 1)%N eqn:E; [lia|].
  eexists; split; [reflexivity|].
  rewrite represent_arith by (change max_var_idx with 2147483647%N; lia).
  split; [apply pack_bound; cbn [lvar]; change max_var_idx with 2147483647%N; lia|].
  unfold plit_to_ipasir. rewrite plit_vidx_pack, plit_is_neg_pack. cbn [lvar lneg].
  change i32_max with 2147483647%Z.
  destruct (Z.of_N (Z.abs_N z - 1 + 1) <=? 2147483647)%Z eqn:E'; [|lia].
  destruct (z <? 0)%Z eqn:Es; f_equal; lia.
Qed.

(** record versions *)
Lemma to_from_ipasir l z : to_ipasir l = Some z -> from_ipasir z = Some l.
Proof.
  unfold to_ipasir, from_ipasir. change i32_max with 2147483647%Z.
  destruct (Z.of_N (lvar l + 1) <=? 2147483647)%Z eqn:E; [|discriminate].
  intros H; inversion H; subst; clear H.
  set (z := if lneg l then (- Z.of_N (lvar l + 1))%Z else Z.of_N (lvar l + 1)).
  destruct (z =? 0)%Z eqn:Ez; [unfold z in Ez; destruct (lneg l); lia|].
  change max_var_idx with 2147483647%N.
  replace (Z.abs_N z - 1)%N with (lvar l) by (unfold z; destruct (lneg l); lia).
  replace (z <? 0)%Z with (lneg l) by (unfold z; destruct (lneg l); lia).
  destruct (2147483647 <? lvar l)%N eqn:El; [lia|]. now rewrite lit_eta.
Qed.

Lemma from_to_ipasir z l : (i32_min < z <= i32_max)%Z -> from_ipasir z = Some l -> to_ipasir l = Some z.
Proof.
  unfold to_ipasir, from_ipasir. change i32_max with 2147483647%Z. change i32_min with (-2147483648)%Z.
  change max_var_idx with 2147483647%N. intros Hz.
  destruct (z =? 0)%Z eqn:Ez; [discriminate|].
  destruct (2147483647 <? Z.abs_N z - 1)%N eqn:E; [discriminate|].
  intros H; inversion H; subst; clear H; cbn [lvar lneg].
  destruct (Z.of_N (Z.abs_N z - 1 + 1) <=? 2147483647)%Z eqn:E'; [|lia].
  destruct (z <? 0)%Z eqn:Es; f_equal; lia.
Qed.

(** ** Assignments *)

Lemma vec_set_some {A} i (x : A) s : (i < length s)%nat ->
  exists s', vec_set i x s = Some s' /\ length s' = length s /\
             (forall j d, nth j s' d = if (j =? i)%nat then x else nth j s d).
Proof.
  revert i; induction s as [|y s IH]; intros i Hi; cbn in Hi; [lia|].
  destruct i as [|i]; cbn.
  - eexists; repeat split. intros [|j] d; reflexivity.
  - destruct (IH i ltac:(lia)) as (s' & E & Hl & Hn). rewrite E.
    eexists; repeat split; cbn; [lia|]. intros [|j] d; [reflexivity|]. apply Hn.
Qed.

Lemma var_value_nth s v : var_value s v = nth (vidx v) s TDontCare.
Proof.
  unfold var_value. destruct (length s <=? vidx v)%nat eqn:E; [|reflexivity].
  rewrite nth_overflow; [reflexivity|lia].
Qed.

Lemma nth_resize s n j : (length s <= n)%nat ->
  nth j (resize n TDontCare s) TDontCare = nth j s TDontCare /\ length (resize n TDontCare s) = n.
Proof.
  intros H. unfold resize. rewrite firstn_all2 by lia. split.
  - destruct (le_lt_dec (length s) j) as [Hj|Hj].
    + rewrite app_nth2 by lia. rewrite nth_repeat. now rewrite nth_overflow by lia.
    + now rewrite app_nth1 by lia.
  - rewrite app_length, repeat_length. lia.
Qed.

Lemma assign_var_spec s v t :
  exists s', assign_var s v t = Some s' /\
    (forall u, var_value s' u = if (u =? v)%N then t else var_value s u) /\
    length s' = Nat.max (length s) (vidx v + 1).
Proof.
  unfold assign_var.
  set (s0 := if (length s <? vidx v + 1)%nat then resize (vidx v + 1) TDontCare s else s).
  assert (H0 : (forall j, nth j s0 TDontCare = nth j s TDontCare) /\ length s0 = Nat.max (length s) (vidx v + 1)).
  { unfold s0. destruct (length s <? vidx v + 1)%nat eqn:E; [|split; auto; lia].
    split; [intros j; apply nth_resize; lia|].
    destruct (nth_resize s (vidx v + 1) 0 ltac:(lia)) as [_ ->]. lia. }
  destruct H0 as [Hn Hl].
  destruct (vec_set_some (vidx v) t s0 ltac:(lia)) as (s' & E & Hl' & Hn').
  exists s'. split; [assumption|]. split; [|lia].
  intros u. rewrite !var_value_nth, Hn', Hn. unfold vidx.
  destruct (N.to_nat u =? N.to_nat v)%nat eqn:E1, (u =? v)%N eqn:E2; try reflexivity; lia.
Qed.

Lemma assign_lit_spec s l :
  exists s', assign_lit s l = Some s' /\
    (forall u, var_value s' u = if (u =? lvar l)%N then tern_of_bool (negb (lneg l)) else var_value s u) /\
    lit_value s' l = TTrue /\ lit_value s' (neg l) = TFalse.
Proof.
  unfold assign_lit. destruct (assign_var_spec s (lvar l) (if lneg l then TFalse else TTrue)) as (s' & E & Hv & _).
  exists s'. split; [assumption|]. split.
  - intros u. rewrite Hv. destruct (lneg l); reflexivity.
  - unfold lit_value. rewrite lvar_neg, Hv, N.eqb_refl. unfold neg; cbn. destruct (lneg l); auto.
Qed.

(** The value a list of literals gives to a variable: the last literal on it decides. *)

Lemma assign_lits_spec ls s :
  exists s', assign_lits s ls = Some s' /\ forall v, var_value s' v = last_value v ls (var_value s v).
Proof.
  revert s; induction ls as [|l ls IH]; intros s; cbn [assign_lits last_value].
  - exists s; split; reflexivity.
  - destruct (assign_lit_spec s l) as (s1 & E & Hv & _). rewrite E.
    destruct (IH s1) as (s' & E' & Hv'). exists s'. split; [assumption|].
    intros v. rewrite Hv', Hv. reflexivity.
Qed.

Lemma truncate_spec s m v :
  var_value (truncate s m) v = if (v <=? m)%N then var_value s v else TDontCare.
Proof.
  rewrite !var_value_nth. unfold truncate, vidx.
  destruct (v <=? m)%N eqn:E.
  - rewrite <- (firstn_skipn (N.to_nat m + 1) s) at 2.
    destruct (le_lt_dec (length (firstn (N.to_nat m + 1) s)) (N.to_nat v)) as [H|H].
    + rewrite nth_overflow by lia.
      rewrite firstn_length in H. rewrite firstn_skipn. now rewrite nth_overflow by lia.
    + now rewrite app_nth1 by lia.
  - apply nth_overflow. rewrite firstn_length. lia.
Qed.

Lemma replace_dont_care_spec s d v :
  (vidx v < length s)%nat ->
  var_value (replace_dont_care s d) v = tern_of_bool (to_bool_with_def (var_value s v) d).
Proof.
  rewrite !var_value_nth. unfold replace_dont_care. generalize (vidx v) as i.
  induction s as [|t s IH]; intros [|i] H; cbn in *; try lia.
  - destruct t, d; reflexivity.
  - apply IH. lia.
Qed.

Lemma replace_dont_care_out s d v :
  (length s <= vidx v)%nat -> var_value (replace_dont_care s d) v = TDontCare.
Proof.
  intros H. rewrite var_value_nth. apply nth_overflow. unfold replace_dont_care. now rewrite map_length.
Qed.

Lemma lit_value_neg s l : lit_value s (neg l) = tern_not (lit_value s l).
Proof.
  unfold lit_value. rewrite lvar_neg. unfold neg; cbn [lneg].
  destruct (lneg l); cbn [negb]; destruct (var_value s (lvar l)); reflexivity.
Qed.

Lemma into_iter_from_spec s i :
  (i + N.of_nat (length s) <= max_var_idx + 1)%N ->
  exists r, assignment_into_iter_from i s = Some r /\
    (forall l, In l r <-> (i <= lvar l)%N /\ nth (N.to_nat (lvar l - i)) s TDontCare = tern_of_bool (negb (lneg l))) /\
    (forall j k, (j < k)%nat -> (k < length r)%nat -> (lvar (nth j r (pos 0)) < lvar (nth k r (pos 0)))%N).
Proof.
  revert i; induction s as [|t s IH]; intros i Hi; cbn [assignment_into_iter_from].
  - exists []. split; [reflexivity|]. split.
    + intros l; split; [intros []|]. intros [_ H]. destruct (N.to_nat (lvar l - i)), (lneg l); discriminate.
    + cbn; lia.
  - cbn [length] in Hi. destruct (IH (i + 1)%N ltac:(lia)) as (r & E & Hin & Hord). rewrite E.
    assert (Hstep : forall l, (i + 1 <= lvar l)%N /\ nth (N.to_nat (lvar l - (i + 1))) s TDontCare = tern_of_bool (negb (lneg l)) <->
                              (i < lvar l)%N /\ nth (N.to_nat (lvar l - i)) (t :: s) TDontCare = tern_of_bool (negb (lneg l))).
    { intros l. split; intros [H1 H2]; (split; [lia|]).
      - replace (N.to_nat (lvar l - i)) with (S (N.to_nat (lvar l - (i + 1)))) by lia. exact H2.
      - replace (N.to_nat (lvar l - i)) with (S (N.to_nat (lvar l - (i + 1)))) in H2 by lia. exact H2. }
    destruct t; [| |].
    1,2: unfold var_new; destruct (i <=? max_var_idx)%N eqn:Ei; [|lia];
         eexists; (split; [reflexivity|]); split.
    1,3: intros l; cbn [In]; rewrite Hin, Hstep; split;
         [ intros [<-|[H1 H2]]; [cbn [lvar lneg]; split; [lia|]; now rewrite N.sub_diag | split; [lia|assumption]]
         | intros [H1 H2]; destruct (N.eq_dec (lvar l) i) as [Heq|Hne];
           [ left; rewrite Heq, N.sub_diag in H2; cbn in H2; destruct l as [v []]; cbn in *; subst; try discriminate; reflexivity
           | right; split; [lia|assumption] ] ].
    1,2: intros [|j] [|k] Hjk Hk; cbn [nth]; try lia; [|cbn in Hk; apply Hord; lia];
         cbn in Hk; assert (Hx : In (nth k r (pos 0)) r) by (apply nth_In; lia);
         apply Hin in Hx; cbn [lvar]; lia.
    exists r. split; [reflexivity|]. split; [|assumption].
    intros l. rewrite Hin, Hstep. split; intros [H1 H2].
    + split; [lia|assumption].
    + destruct (N.eq_dec (lvar l) i) as [Heq|Hne]; [|split; [lia|assumption]].
      rewrite Heq, N.sub_diag in H2. cbn in H2. destruct (lneg l); discriminate.
Qed.

Lemma into_iter_spec s :
  (N.of_nat (length s) <= max_var_idx + 1)%N ->
  exists r, assignment_into_iter s = Some r /\
    (forall l, In l r <-> lit_value s l = TTrue) /\
    (forall j k, (j < k)%nat -> (k < length r)%nat -> (lvar (nth j r (pos 0)) < lvar (nth k r (pos 0)))%N).
Proof.
  intros H. destruct (into_iter_from_spec s 0 ltac:(lia)) as (r & E & Hin & Hord).
  exists r. split; [assumption|]. split; [|assumption].
  intros l. rewrite Hin. unfold lit_value. rewrite var_value_nth, N.sub_0_r. unfold vidx.
  split.
  - intros [_ ->]. destruct (lneg l); reflexivity.
  - intros Hl. split; [lia|]. destruct (lneg l), (nth (N.to_nat (lvar l)) s TDontCare); try discriminate; reflexivity.
Qed.

(** [Assignment::iter] agrees with [into_iter] as long as variable [MAX_IDX] is not assigned. *)
Lemma iter_from_agrees s i :
  (i + N.of_nat (length s) <= max_var_idx)%N ->
  assignment_iter_from i s = assignment_into_iter_from i s.
Proof.
  revert i; induction s as [|t s IH]; intros i Hi; cbn [assignment_into_iter_from assignment_iter_from]; [reflexivity|].
  cbn [length] in Hi. rewrite IH by lia. destruct (assignment_into_iter_from (i + 1) s); [|reflexivity].
  unfold var_new.
  destruct t; auto; destruct (i <? max_var_idx)%N eqn:E1, (i <=? max_var_idx)%N eqn:E2; try lia; reflexivity.
Qed.

(** [pasg_of] and total assignments *)
Lemma lit_value_completes s a l :
  completes a (pasg_of s) ->
  match lit_value s l with
  | TTrue => lit_true a l = true
  | TFalse => lit_true a l = false
  | TDontCare => pasg_of s (lvar l) = None
  end.
Proof.
  intros H. specialize (H (lvar l)). unfold lit_value, lit_true, pasg_of in *.
  destruct (lneg l); destruct (var_value s (lvar l)); try reflexivity;
    rewrite (H _ eq_refl); reflexivity.
Qed.
