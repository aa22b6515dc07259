(** * Proofs about cardinality and pseudo-Boolean constraints *)

From Coq Require Import List Bool NArith ZArith Lia Permutation.
From Coq Require Import ZifyBool ZifyNat ZifyN.
From Verif Require Import Spec Types Constraints ConstrSpec Base TypesProofs ClauseProofs.
Import ListNotations.

Ltac Zify.zify_post_hook ::= Z.div_mod_to_equations.

(** ** Realizing counts *)

Definition set_lit (a : asg) (l : lit) (b : bool) : asg :=
  fun v => if (v =? lvar l)%N then xorb (lneg l) b else a v.

Lemma set_lit_same a l b : lit_true (set_lit a l b) l = b.
Proof. unfold lit_true, set_lit. rewrite N.eqb_refl. destruct (lneg l), b; reflexivity. Qed.

Lemma set_lit_other a l b l' : lvar l' <> lvar l -> lit_true (set_lit a l b) l' = lit_true a l'.
Proof. intros H. unfold lit_true, set_lit. apply N.eqb_neq in H. now rewrite H. Qed.

Lemma set_lit_count a l b ls : ~ In (lvar l) (map lvar ls) -> count_true (set_lit a l b) ls = count_true a ls.
Proof.
  induction ls as [|x ls IH]; cbn; intros H; [reflexivity|].
  rewrite set_lit_other by (intros E; apply H; left; assumption).
  rewrite IH; tauto.
Qed.

Lemma count_realizable ls k :
  NoDup (map lvar ls) -> (k <= length ls)%nat -> exists a, count_true a ls = k.
Proof.
  revert k; induction ls as [|l ls IH]; cbn [map length]; intros k Hnd Hk.
  - exists (fun _ => false). cbn. lia.
  - inv Hnd. destruct k as [|k].
    + destruct (IH 0%nat) as (a & Ha); [assumption|lia|].
      exists (set_lit a l false). cbn [count_true]. rewrite set_lit_same, set_lit_count by assumption. lia.
    + destruct (IH k) as (a & Ha); [assumption|lia|].
      exists (set_lit a l true). cbn [count_true]. rewrite set_lit_same, set_lit_count by assumption. lia.
Qed.

Lemma all_lits_realizable ls b :
  NoDup (map lvar ls) -> exists a, forall l, In l ls -> lit_true a l = b.
Proof.
  induction ls as [|l ls IH]; cbn [map]; intros Hnd.
  - exists (fun _ => false). intros l [].
  - inv Hnd. destruct IH as (a & Ha); [assumption|]. exists (set_lit a l b).
    intros x [<-|Hx]; [apply set_lit_same|]. rewrite set_lit_other; [auto|].
    intros E. apply H1. rewrite <- E. now apply in_map.
Qed.

(** ** Cardinality predicates *)

Lemma card_is_tautology_sound c : card_is_tautology c = true -> forall a, card_holds a c.
Proof.
  intros H a. unfold card_is_tautology, card_holds in *. pose proof (count_true_le a (c_lits c)).
  destruct (c_kind c); [lia|lia|discriminate].
Qed.

Lemma card_is_tautology_complete c :
  NoDup (map lvar (c_lits c)) -> c_lits c <> [] -> (forall a, card_holds a c) -> card_is_tautology c = true.
Proof.
  intros Hnd Hne H. unfold card_is_tautology, card_holds in *.
  destruct (count_realizable (c_lits c) (length (c_lits c)) Hnd (le_n _)) as (a1 & H1).
  destruct (count_realizable (c_lits c) 0 Hnd (Nat.le_0_l _)) as (a0 & H0).
  pose proof (H a0) as Ha0. pose proof (H a1) as Ha1.
  destruct (c_kind c); [lia|lia|].
  destruct (c_lits c); [congruence|]. cbn [length] in *. lia.
Qed.

Lemma card_is_unsat_spec c :
  NoDup (map lvar (c_lits c)) -> (card_is_unsat c = true <-> forall a, ~ card_holds a c).
Proof.
  intros Hnd. unfold card_is_unsat, card_holds. split.
  - intros H a. pose proof (count_true_le a (c_lits c)). destruct (c_kind c); [discriminate|lia|lia].
  - intros H.
    destruct (count_realizable (c_lits c) 0 Hnd (Nat.le_0_l _)) as (a0 & H0).
    destruct (c_kind c).
    + exfalso. apply (H a0). lia.
    + destruct (count_realizable (c_lits c) (length (c_lits c)) Hnd (le_n _)) as (a1 & H1). specialize (H a1). lia.
    + destruct (le_lt_dec (c_b c) (length (c_lits c))) as [Hle|]; [|lia].
      destruct (count_realizable (c_lits c) (c_b c) Hnd Hle) as (a1 & H1). now specialize (H a1).
Qed.

Lemma card_is_unsat_sound c : card_is_unsat c = true -> forall a, ~ card_holds a c.
Proof.
  intros H a. unfold card_is_unsat, card_holds in *. pose proof (count_true_le a (c_lits c)).
  destruct (c_kind c); [discriminate|lia|lia].
Qed.

Lemma card_positive_sound c :
  card_is_positive_assignment c = true ->
  forall a, card_holds a c <-> forall l, In l (c_lits c) -> lit_true a l = true.
Proof.
  intros H a. unfold card_is_positive_assignment, card_holds in *.
  rewrite <- count_true_full. pose proof (count_true_le a (c_lits c)).
  destruct (c_kind c); [discriminate| |]; split; lia.
Qed.

Lemma card_positive_complete c :
  NoDup (map lvar (c_lits c)) -> c_lits c <> [] ->
  (forall a, card_holds a c <-> forall l, In l (c_lits c) -> lit_true a l = true) ->
  card_is_positive_assignment c = true.
Proof.
  intros Hnd Hne H. unfold card_is_positive_assignment, card_holds in *.
  assert (Hlen : (0 < length (c_lits c))%nat) by (destruct (c_lits c); [congruence|cbn; lia]).
  setoid_rewrite <- count_true_full in H.
  destruct (count_realizable (c_lits c) (length (c_lits c)) Hnd (le_n _)) as (a1 & H1).
  destruct (count_realizable (c_lits c) (length (c_lits c) - 1) Hnd ltac:(lia)) as (a2 & H2).
  destruct (count_realizable (c_lits c) 0 Hnd (Nat.le_0_l _)) as (a0 & H0).
  pose proof (H a0). pose proof (H a1). pose proof (H a2).
  destruct (c_kind c); lia.
Qed.

Lemma card_negative_sound c :
  card_is_negative_assignment c = true ->
  forall a, card_holds a c <-> forall l, In l (c_lits c) -> lit_true a l = false.
Proof.
  intros H a. unfold card_is_negative_assignment, card_holds in *.
  rewrite <- count_true_zero.
  destruct (c_kind c); [| discriminate |]; split; lia.
Qed.

Lemma card_negative_complete c :
  NoDup (map lvar (c_lits c)) -> c_lits c <> [] ->
  (forall a, card_holds a c <-> forall l, In l (c_lits c) -> lit_true a l = false) ->
  card_is_negative_assignment c = true.
Proof.
  intros Hnd Hne H. unfold card_is_negative_assignment, card_holds in *.
  assert (Hlen : (0 < length (c_lits c))%nat) by (destruct (c_lits c); [congruence|cbn; lia]).
  setoid_rewrite <- count_true_zero in H.
  destruct (count_realizable (c_lits c) 1 Hnd ltac:(lia)) as (a1 & H1).
  destruct (count_realizable (c_lits c) (length (c_lits c)) Hnd (le_n _)) as (a2 & H2).
  destruct (count_realizable (c_lits c) 0 Hnd (Nat.le_0_l _)) as (a0 & H0).
  pose proof (H a0). pose proof (H a1). pose proof (H a2).
  destruct (c_kind c); lia.
Qed.

Lemma sat_cube_count a ls : sat_cube a ls = true <-> count_true a ls = length ls.
Proof. rewrite count_true_full. apply sat_cube_true. Qed.

Lemma card_into_clause_sound c cl :
  card_into_clause c = Some cl -> forall a, sat_clause a cl = true <-> card_holds a c.
Proof.
  unfold card_into_clause, card_is_clause, card_holds. intros H a.
  destruct (c_kind c).
  - destruct (c_b c + 1 =? length (c_lits c))%nat eqn:E; [|discriminate]. inv H.
    rewrite sat_clause_map_neg. pose proof (sat_cube_count a (c_lits c)). pose proof (count_true_le a (c_lits c)).
    destruct (sat_cube a (c_lits c)); cbn [negb]; split; intros H1; try discriminate; try reflexivity.
    + destruct H as [H _]. specialize (H eq_refl). lia.
    + destruct (Nat.eq_dec (count_true a (c_lits c)) (length (c_lits c))) as [E'|E']; [|lia].
      apply H in E'. discriminate.
  - destruct (c_b c =? 1)%nat eqn:E; [|discriminate]. inv H. rewrite <- count_true_pos. lia.
  - discriminate.
Qed.

Lemma card_into_clause_some c : card_is_clause c = true -> exists cl, card_into_clause c = Some cl.
Proof.
  intros H. unfold card_into_clause. rewrite H. cbn [negb]. unfold card_is_clause in H.
  destruct (c_kind c); eauto. discriminate.
Qed.

Lemma card_normalize_sound c a : card_holds a (card_normalize c) <-> card_holds a c.
Proof.
  unfold card_normalize, card_holds; cbn [c_kind c_lits c_b].
  assert (count_true a (if (length (c_lits c) <=? 1)%nat then c_lits c else sort_by lit_leb (c_lits c)) = count_true a (c_lits c)) as ->.
  { destruct (length (c_lits c) <=? 1)%nat; [reflexivity|]. apply count_true_perm, sort_by_perm. }
  reflexivity.
Qed.

Lemma card_ub_invert_sound ls b ls' b' :
  card_ub_invert ls b = Some (ls', b') ->
  forall a, card_holds a (card_new_lb ls' b') <-> card_holds a (card_new_ub ls b).
Proof.
  unfold card_ub_invert. destruct (b <=? length ls)%nat eqn:E; [|discriminate]. intros H; inv H. intros a.
  unfold card_holds; cbn. rewrite count_true_map_neg. pose proof (count_true_le a ls). lia.
Qed.

Lemma card_lb_invert_sound ls b ls' b' :
  card_lb_invert ls b = Some (ls', b') ->
  forall a, card_holds a (card_new_ub ls' b') <-> card_holds a (card_new_lb ls b).
Proof.
  unfold card_lb_invert. destruct (b <=? length ls)%nat eqn:E; [|discriminate]. intros H; inv H. intros a.
  unfold card_holds; cbn. rewrite count_true_map_neg. pose proof (count_true_le a ls). lia.
Qed.

Lemma card_eq_split_sound ls b a :
  card_holds a (card_new_eq ls b) <->
  card_holds a (fst (card_eq_split ls b)) /\ card_holds a (snd (card_eq_split ls b)).
Proof. unfold card_holds; cbn. lia. Qed.

Lemma card_add_sound c ls a :
  card_holds a (card_add c ls) <->
  match c_kind c with
  | KUb => (count_true a (c_lits c) + count_true a ls <= c_b c)%nat
  | KLb => (c_b c <= count_true a (c_lits c) + count_true a ls)%nat
  | KEq => (count_true a (c_lits c) + count_true a ls = c_b c)%nat
  end.
Proof. unfold card_holds, card_add; cbn [c_kind c_lits c_b]. rewrite count_true_app. reflexivity. Qed.

(** ** Evaluation of cardinality constraints *)

(** number of undetermined literals *)
Definition undetermined (s : assignment) (l : lit) : bool := tern_eqb (lit_value s l) TDontCare.

Lemma card_range_acc s ls st en :
  fold_left (fun '(st, en) l =>
               match lit_value s l with
               | TTrue => (st + 1, en + 1)
               | TFalse => (st, en)
               | TDontCare => (st, en + 1)
               end)%nat ls (st, en) =
  (st + fst (card_range s ls), en + snd (card_range s ls))%nat.
Proof.
  unfold card_range. revert st en.
  induction ls as [|l ls IH]; intros st en; cbn [fold_left]; [cbn; f_equal; lia|].
  destruct (lit_value s l).
  - pose proof (IH (st + 1) (en + 1))%nat as H1. pose proof (IH (0 + 1) (0 + 1))%nat as H2.
    rewrite H1, H2. cbn [fst snd]. f_equal; lia.
  - apply IH.
  - pose proof (IH st (en + 1))%nat as H1. pose proof (IH 0 (0 + 1))%nat as H2.
    rewrite H1, H2. cbn [fst snd]. f_equal; lia.
Qed.

Lemma card_range_cons s l ls :
  card_range s (l :: ls) =
  match lit_value s l with
  | TTrue => (1 + fst (card_range s ls), 1 + snd (card_range s ls))%nat
  | TFalse => card_range s ls
  | TDontCare => (fst (card_range s ls), 1 + snd (card_range s ls))%nat
  end.
Proof.
  unfold card_range at 1. cbn [fold_left]. destruct (lit_value s l); rewrite card_range_acc; cbn [Nat.add]; try reflexivity.
  destruct (card_range s ls); reflexivity.
Qed.

Lemma card_range_bounds s a ls :
  completes a (pasg_of s) ->
  (fst (card_range s ls) <= count_true a ls <= snd (card_range s ls))%nat.
Proof.
  intros Ha. induction ls as [|l ls IH]; [cbn; lia|].
  rewrite card_range_cons. cbn [count_true]. pose proof (lit_value_completes s a l Ha) as Hv.
  destruct (lit_value s l); cbn [fst snd]; [rewrite Hv|rewrite Hv|destruct (lit_true a l)]; lia.
Qed.

Lemma card_range_determined s ls :
  (forall l, In l ls -> lit_value s l <> TDontCare) -> fst (card_range s ls) = snd (card_range s ls).
Proof.
  induction ls as [|l ls IH]; intros H; [reflexivity|]. rewrite card_range_cons.
  pose proof (H l (or_introl eq_refl)). rewrite <- IH by (intros; apply H; now right).
  destruct (lit_value s l); cbn [fst snd]; try congruence. apply IH. intros; apply H; now right.
Qed.

Lemma card_evaluate_determined s c a :
  (forall l, In l (c_lits c) -> lit_value s l <> TDontCare) ->
  completes a (pasg_of s) ->
  (card_evaluate s c = TTrue /\ card_holds a c) \/ (card_evaluate s c = TFalse /\ ~ card_holds a c).
Proof.
  intros Hd Ha. unfold card_evaluate, card_holds.
  pose proof (card_range_bounds s a (c_lits c) Ha). pose proof (card_range_determined s (c_lits c) Hd).
  destruct (card_range s (c_lits c)) as [st en]. cbn [fst snd] in *. subst en.
  destruct ((st <=? c_b c) && (c_b c <? st))%nat eqn:E; [lia|].
  destruct (c_kind c).
  - destruct (st <=? c_b c)%nat eqn:E1; cbn; [left|right]; split; auto; lia.
  - destruct (c_b c <=? st)%nat eqn:E1; cbn; [left|right]; split; auto; lia.
  - destruct (st =? c_b c)%nat eqn:E1; cbn; [left|right]; split; auto; lia.
Qed.

Lemma card_evaluate_ub_sound s c a :
  c_kind c = KUb -> completes a (pasg_of s) ->
  (card_evaluate s c = TTrue -> card_holds a c) /\ (card_evaluate s c = TFalse -> ~ card_holds a c).
Proof.
  intros Hk Ha. unfold card_evaluate, card_holds. rewrite Hk.
  pose proof (card_range_bounds s a (c_lits c) Ha).
  destruct (card_range s (c_lits c)) as [st en]. cbn [fst snd] in *.
  destruct ((st <=? c_b c) && (c_b c <? en))%nat eqn:E; [split; discriminate|].
  destruct (st <=? c_b c)%nat eqn:E1; cbn; split; try discriminate; intros _; lia.
Qed.

Lemma card_evaluate_true_sound s c a :
  completes a (pasg_of s) -> card_evaluate s c = TTrue -> card_holds a c.
Proof.
  intros Ha. unfold card_evaluate, card_holds.
  pose proof (card_range_bounds s a (c_lits c) Ha).
  destruct (card_range s (c_lits c)) as [st en]. cbn [fst snd] in *.
  destruct ((st <=? c_b c) && (c_b c <? en))%nat eqn:E; [discriminate|].
  destruct (c_kind c).
  - destruct (st <=? c_b c)%nat eqn:E1; cbn; try discriminate; lia.
  - destruct (c_b c <=? st)%nat eqn:E1; cbn; try discriminate; lia.
  - destruct (st =? c_b c)%nat eqn:E1; cbn; try discriminate; lia.
Qed.

(** ** Pseudo-Boolean constructors *)

Lemma convert_input_lits_spec ls a :
  let '(r, s, badd) := convert_input_lits ls in
  (Z.of_nat (wsum a r) = zwsum a ls + badd)%Z /\ s = total_weight r.
Proof.
  induction ls as [|[l w] ls IH]; cbn [convert_input_lits]; [split; reflexivity|].
  destruct (convert_input_lits ls) as [[r s] badd]. destruct IH as [IH1 IH2].
  destruct (0 <=? w)%Z eqn:E; cbn [wsum zwsum total_weight]; [|rewrite lit_true_neg];
    destruct (lit_true a l); cbn [negb]; split; lia.
Qed.

Lemma convert_input_lits_pos ls :
  (forall l w, In (l, w) ls -> w <> 0%Z) ->
  forall l w, In (l, w) (fst (fst (convert_input_lits ls))) -> (0 < w)%nat.
Proof.
  induction ls as [|[l w] ls IH]; cbn [convert_input_lits]; intros H x y; [intros []|].
  destruct (convert_input_lits ls) as [[r s] badd]. cbn [fst] in *.
  assert (w <> 0%Z) by (eapply H; left; reflexivity).
  destruct (0 <=? w)%Z eqn:E; cbn [fst In]; intros [Heq|Hin].
  - inv Heq. lia.
  - eapply IH; eauto. intros; eapply H; right; eassumption.
  - inv Heq. lia.
  - eapply IH; eauto. intros; eapply H; right; eassumption.
Qed.

Lemma pb_new_spec k ls b a : pb_holds a (pb_new k ls b) <-> rel_holds k (zwsum a ls) b.
Proof.
  unfold pb_new. pose proof (convert_input_lits_spec ls a) as H.
  destruct (convert_input_lits ls) as [[r s] badd]. destruct H as [H _].
  unfold pb_holds, rel_holds; cbn [p_kind p_lits p_b]. destruct k; lia.
Qed.

Lemma pb_new_wf k ls b : pb_wf (pb_new k ls b).
Proof.
  unfold pb_new, pb_wf. pose proof (convert_input_lits_spec ls (fun _ => false)) as H.
  destruct (convert_input_lits ls) as [[r s] badd]. destruct H as [_ H]. cbn [p_wsum p_lits]. now rewrite sum_weights_total.
Qed.

Lemma pb_add_spec k ls b ls' a :
  pb_holds a (pb_add (pb_new k ls b) ls') <-> rel_holds k (zwsum a (ls ++ ls')) b.
Proof.
  unfold pb_new, pb_add. pose proof (convert_input_lits_spec ls a) as H.
  destruct (convert_input_lits ls) as [[r s] badd]. destruct H as [H _].
  pose proof (convert_input_lits_spec ls' a) as H'.
  destruct (convert_input_lits ls') as [[r' s'] badd']. destruct H' as [H' _].
  assert (Happ : forall l1 l2, zwsum a (l1 ++ l2) = (zwsum a l1 + zwsum a l2)%Z).
  { clear. induction l1 as [|[l w] l1 IH]; intros l2; cbn; [lia|]. rewrite IH. lia. }
  unfold pb_holds, rel_holds; cbn [p_kind p_lits p_b]. rewrite wsum_app, Happ. destruct k; lia.
Qed.

Lemma pb_add_general c ls a :
  pb_wf c -> pb_wf (pb_add c ls) /\
  (pb_holds a (pb_add c ls) <-> rel_holds (p_kind c) (Z.of_nat (wsum a (p_lits c)) + zwsum a ls) (p_b c)).
Proof.
  intros Hwf. unfold pb_add. pose proof (convert_input_lits_spec ls a) as H.
  destruct (convert_input_lits ls) as [[r s] badd]. destruct H as [H Hs]. split.
  - unfold pb_wf in *; cbn [p_wsum p_lits]. rewrite sum_weights_total in *. rewrite total_weight_app. lia.
  - unfold pb_holds, rel_holds; cbn [p_kind p_lits p_b]. rewrite wsum_app. destruct (p_kind c); lia.
Qed.

Lemma pb_new_unsigned_wf k ls b : pb_wf (pb_new_unsigned k ls b).
Proof. reflexivity. Qed.

(** ** Pseudo-Boolean predicates *)

Lemma min_coeff_acc ls m :
  match fold_left (fun m (lw : lit * nat) => match m with None => Some (snd lw) | Some x => Some (Nat.min x (snd lw)) end) ls (Some m) with
  | Some r => (r <= m)%nat /\ forall l w, In (l, w) ls -> (r <= w)%nat
  | None => False
  end.
Proof.
  revert m; induction ls as [|[l w] ls IH]; intros m; cbn [fold_left]; [split; [lia|intros ? ? []]|].
  specialize (IH (Nat.min m (snd (l, w)))). cbn [snd] in *.
  destruct (fold_left _ ls _) as [r|]; [|assumption]. destruct IH as [IH1 IH2]. split; [lia|].
  intros l' w' [E|Hin]; [inv E; lia|eauto].
Qed.

Lemma min_coeff_spec ls :
  match min_coeff ls with
  | Some r => ls <> [] /\ forall l w, In (l, w) ls -> (r <= w)%nat
  | None => ls = []
  end.
Proof.
  unfold min_coeff. destruct ls as [|[l w] ls]; [reflexivity|]. cbn [fold_left snd].
  pose proof (min_coeff_acc ls w) as H. destruct (fold_left _ ls _) as [r|]; [|contradiction].
  destruct H as [H1 H2]. split; [discriminate|]. intros l' w' [E|Hin]; [inv E; lia|eauto].
Qed.


Lemma wsum_all_true a ls : all_true a ls -> wsum a ls = total_weight ls.
Proof.
  unfold all_true. induction ls as [|[l w] ls IH]; cbn; intros H; [reflexivity|].
  rewrite (H l w) by auto. rewrite IH; eauto.
Qed.

Lemma wsum_all_false a ls : all_false a ls -> wsum a ls = 0%nat.
Proof.
  unfold all_false. induction ls as [|[l w] ls IH]; cbn; intros H; [reflexivity|].
  rewrite (H l w) by auto. rewrite IH; eauto.
Qed.

Lemma all_true_dec a ls :
  all_true a ls \/ (exists l w, In (l, w) ls /\ lit_true a l = false /\ (wsum a ls + w <= total_weight ls)%nat).
Proof.
  unfold all_true. induction ls as [|[l w] ls IH]; [left; intros ? ? []|].
  pose proof (wsum_le a ls).
  destruct (lit_true a l) eqn:E.
  - destruct IH as [IH|(l' & w' & Hin & Hf & Hs)].
    + left. intros x y [Heq|Hin]; [inv Heq; assumption|eauto].
    + right. exists l', w'. cbn [wsum total_weight]. rewrite E. repeat split; [now right|assumption|lia].
  - right. exists l, w. cbn [wsum total_weight]. rewrite E. split; [now left|split; [reflexivity|lia]].
Qed.

Lemma all_false_dec a ls :
  all_false a ls \/ (exists l w, In (l, w) ls /\ lit_true a l = true /\ (w <= wsum a ls)%nat).
Proof.
  unfold all_false. induction ls as [|[l w] ls IH]; [left; intros ? ? []|].
  destruct (lit_true a l) eqn:E.
  - right. exists l, w. cbn [wsum]. rewrite E. split; [now left|split; [reflexivity|lia]].
  - destruct IH as [IH|(l' & w' & Hin & Ht & Hs)].
    + left. intros x y [Heq|Hin]; [inv Heq; assumption|eauto].
    + right. exists l', w'. cbn [wsum]. rewrite E. repeat split; [now right|assumption|lia].
Qed.

Lemma pb_is_tautology_sound c : pb_wf c -> pb_is_tautology c = true -> forall a, pb_holds a c.
Proof.
  intros Hwf H a. unfold pb_wf in Hwf. rewrite sum_weights_total in Hwf. unfold pb_is_tautology, pb_holds in *.
  pose proof (wsum_le a (p_lits c)).
  destruct (p_kind c); [destruct (p_b c <? 0)%Z eqn:E; [discriminate|]| |discriminate]; lia.
Qed.

Lemma map_fst_NoDup_realize (ls : list (lit * nat)) b :
  NoDup (map (fun lw => lvar (fst lw)) ls) -> exists a, forall l w, In (l, w) ls -> lit_true a l = b.
Proof.
  intros H. destruct (all_lits_realizable (map fst ls) b) as (a & Ha).
  - now rewrite map_map.
  - exists a. intros l w Hin. apply Ha. change l with (fst (l, w)). now apply in_map.
Qed.

Lemma pb_is_tautology_complete c :
  pb_wf c -> NoDup (map (fun lw => lvar (fst lw)) (p_lits c)) -> p_kind c <> KEq ->
  (forall a, pb_holds a c) -> pb_is_tautology c = true.
Proof.
  intros Hwf Hnd Hk H. unfold pb_wf in Hwf. rewrite sum_weights_total in Hwf.
  unfold pb_is_tautology, pb_holds in *.
  destruct (map_fst_NoDup_realize _ true Hnd) as (a1 & H1). apply wsum_all_true in H1.
  destruct (map_fst_NoDup_realize _ false Hnd) as (a0 & H0). apply wsum_all_false in H0.
  pose proof (H a0). pose proof (H a1).
  destruct (p_kind c); [destruct (p_b c <? 0)%Z eqn:E| |congruence]; lia.
Qed.

Lemma pb_is_unsat_sound c : pb_wf c -> pb_is_unsat c = true -> forall a, ~ pb_holds a c.
Proof.
  intros Hwf H a. unfold pb_wf in Hwf. rewrite sum_weights_total in Hwf. unfold pb_is_unsat, pb_holds in *.
  pose proof (wsum_le a (p_lits c)).
  destruct (p_kind c); [lia| |]; destruct (p_b c <? 0)%Z eqn:E; try discriminate; lia.
Qed.

Lemma pb_is_unsat_complete c :
  pb_wf c -> NoDup (map (fun lw => lvar (fst lw)) (p_lits c)) -> p_kind c <> KEq ->
  (forall a, ~ pb_holds a c) -> pb_is_unsat c = true.
Proof.
  intros Hwf Hnd Hk H. unfold pb_wf in Hwf. rewrite sum_weights_total in Hwf.
  unfold pb_is_unsat, pb_holds in *.
  destruct (map_fst_NoDup_realize _ true Hnd) as (a1 & H1). apply wsum_all_true in H1.
  destruct (map_fst_NoDup_realize _ false Hnd) as (a0 & H0). apply wsum_all_false in H0.
  pose proof (H a0). pose proof (H a1).
  destruct (p_kind c); [lia| |congruence]; destruct (p_b c <? 0)%Z eqn:E; lia.
Qed.

Lemma pb_positive_lb_sound c :
  pb_wf c -> p_kind c = KLb -> pb_is_positive_assignment c = true -> forall a, pb_holds a c <-> all_true a (p_lits c).
Proof.
  intros Hwf Hk H a. unfold pb_is_positive_assignment, pb_is_unsat, pb_holds in *. unfold pb_wf in Hwf.
  rewrite sum_weights_total in Hwf. rewrite Hk in *.
  destruct (p_b c <? 0)%Z eqn:E; [discriminate|]. cbn [orb] in H.
  destruct (p_wsum c <? Z.abs_nat (p_b c))%nat eqn:E2; [discriminate|].
  pose proof (min_coeff_spec (p_lits c)) as Hm.
  destruct (min_coeff (p_lits c)) as [m|].
  - destruct Hm as [_ Hm]. split.
    + intros Hs. destruct (all_true_dec a (p_lits c)) as [|(l & w & Hin & Hf & Hs')]; [assumption|].
      specialize (Hm l w Hin). lia.
    + intros Ht. apply wsum_all_true in Ht. lia.
  - rewrite Hm in *. cbn in *. split; [intros _ l w []|lia].
Qed.

Lemma pb_positive_eq_sound c :
  pb_wf c -> p_kind c = KEq -> pb_is_positive_assignment c = true ->
  (forall l w, In (l, w) (p_lits c) -> (0 < w)%nat) ->
  forall a, pb_holds a c <-> all_true a (p_lits c).
Proof.
  intros Hwf Hk H Hpos a. unfold pb_is_positive_assignment, pb_holds in *. unfold pb_wf in Hwf.
  rewrite sum_weights_total in Hwf. rewrite Hk in *.
  destruct (p_b c <? 0)%Z eqn:E; [discriminate|]. split.
  - intros Hs. destruct (all_true_dec a (p_lits c)) as [|(l & w & Hin & Hf & Hs')]; [assumption|].
    specialize (Hpos l w Hin). lia.
  - intros Ht. apply wsum_all_true in Ht. lia.
Qed.

Lemma pb_positive_sound c :
  pb_wf c -> pb_is_positive_assignment c = true ->
  (forall l w, In (l, w) (p_lits c) -> (0 < w)%nat) ->
  forall a, pb_holds a c <-> all_true a (p_lits c).
Proof.
  intros Hwf H Hpos. destruct (p_kind c) eqn:Hk.
  - unfold pb_is_positive_assignment in H. rewrite Hk in H. discriminate.
  - now apply pb_positive_lb_sound.
  - now apply pb_positive_eq_sound.
Qed.

Lemma pb_negative_ub_sound c :
  p_kind c = KUb -> pb_is_negative_assignment c = true -> forall a, pb_holds a c <-> all_false a (p_lits c).
Proof.
  intros Hk H a. unfold pb_is_negative_assignment, pb_is_unsat, pb_holds in *. rewrite Hk in *.
  destruct (p_b c <? 0)%Z eqn:E; [discriminate|].
  pose proof (min_coeff_spec (p_lits c)) as Hm.
  destruct (min_coeff (p_lits c)) as [m|].
  - destruct Hm as [_ Hm]. split.
    + intros Hs. destruct (all_false_dec a (p_lits c)) as [|(l & w & Hin & Hf & Hs')]; [assumption|].
      specialize (Hm l w Hin). lia.
    + intros Ht. apply wsum_all_false in Ht. lia.
  - rewrite Hm in *. cbn in *. split; [intros _ l w []|lia].
Qed.

Lemma pb_negative_sound c :
  pb_is_negative_assignment c = true ->
  (forall l w, In (l, w) (p_lits c) -> (0 < w)%nat) ->
  forall a, pb_holds a c <-> all_false a (p_lits c).
Proof.
  intros H Hpos. destruct (p_kind c) eqn:Hk.
  - now apply pb_negative_ub_sound.
  - unfold pb_is_negative_assignment in H. rewrite Hk in H. discriminate.
  - intros a. unfold pb_is_negative_assignment, pb_holds in *. rewrite Hk in *.
    destruct (p_b c <? 0)%Z eqn:E; [discriminate|]. split.
    + intros Hs. destruct (all_false_dec a (p_lits c)) as [|(l & w & Hin & Hf & Hs')]; [assumption|].
      specialize (Hpos l w Hin). lia.
    + intros Ht. apply wsum_all_false in Ht. lia.
Qed.

Lemma find_unit_weight_from_spec uw ls u :
  find_unit_weight_from uw ls = Some u ->
  (forall l w, In (l, w) ls -> w = u) /\ (uw = None \/ uw = Some u) /\ (uw = None -> ls <> []).
Proof.
  revert uw; induction ls as [|[l w] ls IH]; intros uw; cbn [find_unit_weight_from].
  - intros ->. repeat split; [intros ? ? []|auto|discriminate].
  - destruct uw as [x|].
    + destruct (x =? w)%nat eqn:E; [|discriminate]. intros H. apply IH in H as (H1 & H2 & _).
      destruct H2 as [|H2]; [discriminate|]. inv H2. repeat split; [|auto|discriminate].
      intros l' w' [Heq|Hin]; [inv Heq; lia|eauto].
    + intros H. apply IH in H as (H1 & H2 & _). destruct H2 as [|H2]; [discriminate|]. inv H2.
      repeat split; [|auto|discriminate]. intros l' w' [Heq|Hin]; [now inv Heq|eauto].
Qed.

Lemma find_unit_weight_spec ls u :
  find_unit_weight ls = Some u -> (forall l w, In (l, w) ls -> w = u) /\ ls <> [].
Proof. intros H. apply find_unit_weight_from_spec in H as (H1 & _ & H3). split; auto. Qed.

Lemma wsum_unit_weight a ls u :
  (forall l w, In (l, w) ls -> w = u) -> wsum a ls = (u * count_true a (map fst ls))%nat.
Proof.
  induction ls as [|[l w] ls IH]; cbn [wsum map count_true fst]; intros H; [lia|].
  rewrite IH by (intros; eapply H; right; eassumption).
  rewrite (H l w) by now left. destruct (lit_true a l); lia.
Qed.

Lemma pb_into_card_sound c r :
  pb_wf c -> pb_into_card_constr c = r ->
  match r with
  | TcOk cc => forall a, card_holds a cc <-> pb_holds a c
  | TcTautology => forall a, pb_holds a c
  | TcUnsat => forall a, ~ pb_holds a c
  | _ => True
  end.
Proof.
  intros Hwf <-. unfold pb_into_card_constr.
  destruct (pb_is_tautology c) eqn:Et; [now apply pb_is_tautology_sound|].
  destruct (pb_is_unsat c) eqn:Eu; [now apply pb_is_unsat_sound|].
  destruct (find_unit_weight (p_lits c)) as [[|u]|] eqn:Eq; [exact I| |exact I].
  apply find_unit_weight_spec in Eq as [Hw _]. unfold pb_is_tautology, pb_is_unsat in *.
  pose proof (fun a => wsum_unit_weight a (p_lits c) (S u) Hw) as Hsum.
  assert (Hb : (0 <= p_b c)%Z) by (destruct (p_kind c); [lia|lia|]; destruct (p_b c <? 0)%Z eqn:E; [discriminate|lia]).
  set (b := Z.abs_nat (p_b c)) in *. assert (Hbz : p_b c = Z.of_nat b) by lia.
  pose proof (Nat.div_mod b (S u) ltac:(lia)) as Hdm.
  pose proof (Nat.mod_upper_bound b (S u) ltac:(lia)) as Hmb.
  unfold pb_holds, card_holds. destruct (p_kind c); cbn [c_kind c_lits c_b card_new_ub card_new_lb card_new_eq].
  - intros a. rewrite Hsum, Hbz. set (k := count_true a (map fst (p_lits c))).
    split; intros H; [nia|]. assert (k < b / S u + 1)%nat; [|lia]. nia.
  - intros a. rewrite Hsum, Hbz. set (k := count_true a (map fst (p_lits c))).
    destruct (b mod S u =? 0)%nat eqn:E; split; intros H; try nia.
  - destruct (b mod S u =? 0)%nat eqn:E.
    + intros a. unfold card_new_eq; cbn [c_kind c_lits c_b]. rewrite Hsum, Hbz. set (k := count_true a (map fst (p_lits c))).
      split; intros H; [nia|]. assert (S u * k = S u * (b / S u))%nat by lia. nia.
    + intros a. rewrite Hsum, Hbz. set (k := count_true a (map fst (p_lits c))). intros H.
      assert (Hb' : b = (S u * k)%nat) by lia. rewrite Hb' in E.
      rewrite Nat.mul_comm, Nat.mod_mul in E by lia. discriminate.
Qed.

Lemma pb_into_card_ok c :
  pb_is_card c = true -> pb_is_tautology c = false -> pb_is_unsat c = false ->
  (forall l w, In (l, w) (p_lits c) -> (0 < w)%nat) ->
  (exists cc, pb_into_card_constr c = TcOk cc) \/ (p_kind c = KEq /\ pb_into_card_constr c = TcUnsat).
Proof.
  intros H Ht Hu Hpos. unfold pb_into_card_constr, pb_is_card in *. rewrite Ht, Hu.
  destruct (find_unit_weight (p_lits c)) as [u|] eqn:E; [|discriminate].
  apply find_unit_weight_spec in E as [E1 E2].
  destruct u as [|u].
  - destruct (p_lits c) as [|[l w] ls]; [congruence|]. specialize (Hpos l w (or_introl eq_refl)).
    rewrite (E1 l w) in Hpos by now left. lia.
  - destruct (p_kind c); eauto. destruct (Z.abs_nat (p_b c) mod S u =? 0)%nat; eauto.
Qed.

Lemma sat_clause_wneg a (ls : list (lit * nat)) :
  sat_clause a (map (fun lw => neg (fst lw)) ls) = true <-> ~ all_true a ls.
Proof.
  rewrite <- (map_map fst neg), sat_clause_map_neg. rewrite negb_true_iff.
  split.
  - intros H Ht. rewrite (proj2 (sat_cube_true a (map fst ls))) in H; [discriminate|].
    intros l Hl. apply in_map_iff in Hl as ([l' w] & <- & Hin). eauto.
  - intros H. destruct (sat_cube a (map fst ls)) eqn:E; [|reflexivity]. exfalso. apply H.
    intros l w Hin. rewrite sat_cube_true in E. apply E. apply in_map_iff. exists (l, w). auto.
Qed.

Lemma sat_clause_wpos a (ls : list (lit * nat)) :
  sat_clause a (map fst ls) = true <-> ~ all_false a ls.
Proof.
  destruct (sat_clause a (map fst ls)) eqn:E.
  - split; [|reflexivity]. intros _ H. apply sat_clause_true in E as (l & Hl & Ht).
    apply in_map_iff in Hl as ([l' w] & <- & Hin). cbn [fst] in Ht. rewrite (H _ _ Hin) in Ht. discriminate.
  - split; [discriminate|]. intros H. exfalso. apply H. intros l w Hin.
    rewrite sat_clause_false in E. apply E. apply in_map_iff. exists (l, w). auto.
Qed.

Lemma pb_into_clause_sound c cl :
  pb_wf c -> pb_into_clause c = Some cl -> forall a, sat_clause a cl = true <-> pb_holds a c.
Proof.
  intros Hwf H a. unfold pb_into_clause in H. destruct (pb_is_clause c) eqn:Ec; [|discriminate]. cbn [negb] in H.
  unfold pb_wf in Hwf. rewrite sum_weights_total in Hwf.
  unfold pb_is_clause, pb_is_tautology, pb_is_unsat, pb_holds in *.
  pose proof (min_coeff_spec (p_lits c)) as Hm.
  destruct (p_kind c); [| |discriminate].
  - inv H. destruct (p_b c <? 0)%Z eqn:Eb; [discriminate|].
    destruct (p_wsum c <=? Z.abs_nat (p_b c))%nat eqn:Et; [discriminate|].
    rewrite sat_clause_wneg.
    destruct (min_coeff (p_lits c)) as [m|]; [|rewrite Hm in *; cbn in *; lia].
    destruct Hm as [_ Hm]. split.
    + intros Hn. destruct (all_true_dec a (p_lits c)) as [|(l & w & Hin & Hf & Hs')]; [contradiction|].
      specialize (Hm l w Hin). lia.
    + intros Hs Ht. apply wsum_all_true in Ht. lia.
  - inv H. destruct (p_b c <=? 0)%Z eqn:Et; [discriminate|]. destruct (p_b c <? 0)%Z eqn:Eb; [lia|].
    destruct (p_wsum c <? Z.abs_nat (p_b c))%nat eqn:Eu; [discriminate|].
    rewrite sat_clause_wpos.
    destruct (min_coeff (p_lits c)) as [m|]; [|rewrite Hm in *; cbn in *; lia].
    destruct Hm as [_ Hm]. split.
    + intros Hn. destruct (all_false_dec a (p_lits c)) as [|(l & w & Hin & Hf & Hs')]; [contradiction|].
      specialize (Hm l w Hin). lia.
    + intros Hs Ht. apply wsum_all_false in Ht. lia.
Qed.

Lemma pb_into_clause_some c : pb_is_clause c = true -> exists cl, pb_into_clause c = Some cl.
Proof.
  intros H. unfold pb_into_clause. rewrite H. cbn [negb]. unfold pb_is_clause in H.
  destruct (p_kind c); eauto. discriminate.
Qed.

(** ** Pseudo-Boolean conversions *)

Lemma merge_from_wsum a ls last :
  wsum a (merge_wlits_from last ls) = wsum a (last :: ls).
Proof.
  revert last; induction ls as [|[l w] ls IH]; intros [l0 w0]; cbn [merge_wlits_from fst snd]; [reflexivity|].
  destruct (lit_eqb_spec l l0) as [->|Hne].
  - rewrite IH. cbn [wsum]. destruct (lit_true a l0); lia.
  - cbn [wsum]. rewrite IH. cbn [wsum]. lia.
Qed.

Lemma merge_wsum a ls : wsum a (merge_wlits ls) = wsum a ls.
Proof. destruct ls; [reflexivity|]. apply merge_from_wsum. Qed.

Lemma merge_from_total ls last :
  total_weight (merge_wlits_from last ls) = total_weight (last :: ls).
Proof.
  revert last; induction ls as [|[l w] ls IH]; intros [l0 w0]; cbn [merge_wlits_from fst snd]; [reflexivity|].
  destruct (lit_eqb_spec l l0) as [->|Hne].
  - rewrite IH. cbn [total_weight]. lia.
  - cbn [total_weight]. rewrite IH. cbn [total_weight]. lia.
Qed.

Lemma pb_normalize_sound c a :
  (pb_holds a (pb_normalize c) <-> pb_holds a c) /\ (pb_wf c -> pb_wf (pb_normalize c)).
Proof.
  unfold pb_normalize, pb_holds, pb_wf; cbn [p_kind p_lits p_b p_wsum].
  assert (wsum a (if (length (p_lits c) <=? 1)%nat then p_lits c else merge_wlits (sort_by wlit_leb (p_lits c))) = wsum a (p_lits c)) as ->.
  { destruct (length (p_lits c) <=? 1)%nat; [reflexivity|]. rewrite merge_wsum. apply wsum_perm, sort_by_perm. }
  split; [reflexivity|]. rewrite !sum_weights_total. intros ->.
  destruct (length (p_lits c) <=? 1)%nat; [reflexivity|].
  transitivity (total_weight (sort_by wlit_leb (p_lits c))).
  - apply total_weight_perm. symmetry. apply sort_by_perm.
  - destruct (sort_by wlit_leb (p_lits c)) as [|x ls]; [reflexivity|]. cbn [merge_wlits]. now rewrite merge_from_total.
Qed.

Lemma wlit_leb_total x y : wlit_leb x y = true \/ wlit_leb y x = true.
Proof.
  unfold wlit_leb, lit_ltb. destruct (lit_eqb_spec (fst x) (fst y)) as [E|E].
  - rewrite E, lit_eqb_refl. lia.
  - assert (pack (fst x) <> pack (fst y)) by (intros H; apply pack_inj in H; contradiction). lia.
Qed.

Lemma wlit_leb_trans x y z : wlit_leb x y = true -> wlit_leb y z = true -> wlit_leb x z = true.
Proof.
  unfold wlit_leb, lit_ltb. intros H1 H2.
  destruct (lit_eqb_spec (fst x) (fst y)) as [E|E], (lit_eqb_spec (fst y) (fst z)) as [E'|E'];
    destruct (lit_eqb_spec (fst x) (fst z)) as [E''|E'']; rewrite ?E, ?E', ?E'' in *; try lia; try congruence.
Qed.

(** after normalization every literal occurs at most once *)
Lemma sorted_by_weaken {A} (R R' : A -> A -> Prop) l :
  (forall x y, R x y -> R' x y) -> sorted_by R l -> sorted_by R' l.
Proof. intros H Hs. induction Hs; constructor; auto. Qed.

Lemma merge_from_distinct ls last :
  sorted_by (fun x y : lit * nat => (pack (fst x) <= pack (fst y))%N) (last :: ls) ->
  NoDup (map fst (merge_wlits_from last ls)) /\
  (forall l, In l (map fst (merge_wlits_from last ls)) -> (pack (fst last) <= pack l)%N).
Proof.
  revert last; induction ls as [|[l w] ls IH]; intros [l0 w0] Hs; cbn [merge_wlits_from fst snd].
  - cbn. split; [constructor; [intros []|constructor]|]. intros l [<-|[]]. lia.
  - inv Hs. destruct (lit_eqb_spec l l0) as [->|Hne].
    + apply IH. inv H2. constructor; assumption.
    + pose proof (H1 (l, w) (or_introl eq_refl)) as Hl. cbn [fst] in Hl.
      destruct (IH (l, w) H2) as [IH1 IH2]. cbn [map fst]. cbn [fst] in IH2.
      assert (Hlt : (pack l0 < pack l)%N).
      { assert (pack l <> pack l0) by (intros E; apply pack_inj in E; contradiction). lia. }
      split.
      * constructor; [|assumption]. intros Hin. apply IH2 in Hin. lia.
      * intros x [<-|Hin]; [lia|]. apply IH2 in Hin. lia.
Qed.

Lemma pb_normalize_distinct c : NoDup (map fst (p_lits (pb_normalize c))).
Proof.
  unfold pb_normalize; cbn [p_lits]. destruct (length (p_lits c) <=? 1)%nat eqn:E.
  - destruct (p_lits c) as [|x [|y ls]]; cbn [length] in E; try lia; cbn; constructor; cbn; auto; constructor.
  - assert (Hs : sorted_by (fun x y => wlit_leb x y = true) (sort_by wlit_leb (p_lits c)))
      by (apply sort_by_sorted; [apply wlit_leb_total|apply wlit_leb_trans]).
    apply (sorted_by_weaken _ (fun x y => (pack (fst x) <= pack (fst y))%N)) in Hs.
    2:{ intros x y. unfold wlit_leb, lit_ltb. destruct (lit_eqb_spec (fst x) (fst y)) as [->|]; lia. }
    destruct (sort_by wlit_leb (p_lits c)) as [|x ls]; cbn [merge_wlits]; [constructor|].
    now apply merge_from_distinct.
Qed.

Lemma pb_invert_sound c a :
  pb_wf c -> p_kind c <> KEq ->
  pb_wf (pb_invert c) /\ (pb_holds a (pb_invert c) <-> pb_holds a c) /\ p_kind (pb_invert c) <> p_kind c.
Proof.
  unfold pb_wf, pb_holds, pb_invert; cbn [p_kind p_lits p_b p_wsum]. rewrite !sum_weights_total. intros Hwf Hk.
  rewrite wsum_map_neg. pose proof (wsum_le a (p_lits c)).
  assert (Ht : total_weight (map (fun lw => (neg (fst lw), snd lw)) (p_lits c)) = total_weight (p_lits c)).
  { generalize (p_lits c). clear. induction l as [|[x w] l IH]; cbn; [reflexivity|]. now rewrite IH. }
  rewrite Ht. split; [assumption|]. destruct (p_kind c); try congruence; split; try discriminate; lia.
Qed.

Lemma pb_eq_split_sound c a :
  p_kind c = KEq ->
  (pb_holds a c <-> pb_holds a (fst (pb_eq_split c)) /\ pb_holds a (snd (pb_eq_split c))).
Proof. unfold pb_holds. intros ->. cbn. lia. Qed.

Lemma count_repeat a ls :
  count_true a (flat_map (fun lw => repeat (fst lw) (snd lw)) ls) = wsum a ls.
Proof.
  induction ls as [|[l w] ls IH]; cbn [flat_map wsum fst snd]; [reflexivity|].
  rewrite count_true_app, IH. f_equal. clear. induction w as [|w IH]; cbn [repeat count_true].
  - now destruct (lit_true a l).
  - rewrite IH. destruct (lit_true a l); lia.
Qed.

Lemma pb_extend_to_card_sound c a :
  (0 <= p_b c)%Z -> (card_holds a (pb_extend_to_card_constr c) <-> pb_holds a c).
Proof.
  intros Hb. unfold card_holds, pb_holds, pb_extend_to_card_constr; cbn [c_kind c_lits c_b].
  rewrite count_repeat. destruct (p_kind c); lia.
Qed.

Lemma zwsum_units a ls : zwsum a (map (fun l => (l, 1%Z)) ls) = Z.of_nat (count_true a ls).
Proof. induction ls as [|l ls IH]; cbn [map zwsum count_true]; [reflexivity|]. rewrite IH. destruct (lit_true a l); lia. Qed.

Lemma pb_of_clause_sound c a : pb_holds a (pb_of_clause c) <-> sat_clause a c = true.
Proof.
  unfold pb_of_clause, pb_new_lb. rewrite pb_new_spec, zwsum_units, <- count_true_pos. cbn. lia.
Qed.

Lemma card_of_clause_sound c a : card_holds a (card_of_clause c) <-> sat_clause a c = true.
Proof. unfold card_holds; cbn. rewrite <- count_true_pos. lia. Qed.

Lemma pb_of_card_sound c a : pb_holds a (pb_of_card c) <-> card_holds a c.
Proof.
  unfold pb_of_card. rewrite pb_new_spec, zwsum_units. unfold card_holds, rel_holds. destruct (c_kind c); lia.
Qed.

(** ** Evaluation of pseudo-Boolean constraints *)

Lemma pb_range_acc s ls st en :
  fold_left (fun '(st, en) lw =>
               match lit_value s (fst lw) with
               | TTrue => (st + snd lw, en + snd lw)
               | TFalse => (st, en)
               | TDontCare => (st, en + snd lw)
               end)%nat ls (st, en) =
  (st + fst (pb_range s ls), en + snd (pb_range s ls))%nat.
Proof.
  unfold pb_range. revert st en.
  induction ls as [|[l w] ls IH]; intros st en; cbn [fold_left fst snd]; [f_equal; lia|].
  destruct (lit_value s l).
  - pose proof (IH (st + w) (en + w))%nat as H1. pose proof (IH (0 + w) (0 + w))%nat as H2.
    rewrite H1, H2. cbn [fst snd]. f_equal; lia.
  - apply IH.
  - pose proof (IH st (en + w))%nat as H1. pose proof (IH 0 (0 + w))%nat as H2.
    rewrite H1, H2. cbn [fst snd]. f_equal; lia.
Qed.

Lemma pb_range_cons s l w ls :
  pb_range s ((l, w) :: ls) =
  match lit_value s l with
  | TTrue => (w + fst (pb_range s ls), w + snd (pb_range s ls))%nat
  | TFalse => pb_range s ls
  | TDontCare => (fst (pb_range s ls), w + snd (pb_range s ls))%nat
  end.
Proof.
  unfold pb_range at 1. cbn [fold_left fst snd]. destruct (lit_value s l); rewrite pb_range_acc; cbn [Nat.add]; try reflexivity.
  destruct (pb_range s ls); reflexivity.
Qed.

Lemma pb_range_bounds s a ls :
  completes a (pasg_of s) -> (fst (pb_range s ls) <= wsum a ls <= snd (pb_range s ls))%nat.
Proof.
  intros Ha. induction ls as [|[l w] ls IH]; [cbn; lia|].
  rewrite pb_range_cons. cbn [wsum]. pose proof (lit_value_completes s a l Ha) as Hv.
  destruct (lit_value s l); cbn [fst snd]; [rewrite Hv|rewrite Hv|destruct (lit_true a l)]; lia.
Qed.

Lemma pb_range_determined s ls :
  (forall l w, In (l, w) ls -> lit_value s l <> TDontCare) -> fst (pb_range s ls) = snd (pb_range s ls).
Proof.
  induction ls as [|[l w] ls IH]; intros H; [reflexivity|]. rewrite pb_range_cons.
  pose proof (H l w (or_introl eq_refl)). rewrite <- IH by (intros; eapply H; right; eassumption).
  destruct (lit_value s l); cbn [fst snd]; try congruence. apply IH. intros; eapply H; right; eassumption.
Qed.

Lemma pb_evaluate_determined s c a :
  (p_b c <= isize_max)%Z ->
  (forall l w, In (l, w) (p_lits c) -> lit_value s l <> TDontCare) ->
  completes a (pasg_of s) ->
  (pb_evaluate s c = TTrue /\ pb_holds a c) \/ (pb_evaluate s c = TFalse /\ ~ pb_holds a c).
Proof.
  intros Hb Hd Ha. unfold pb_evaluate, pb_holds.
  pose proof (pb_range_bounds s a (p_lits c) Ha). pose proof (pb_range_determined s (p_lits c) Hd).
  destruct (pb_range s (p_lits c)) as [st en]. cbn [fst snd] in *. subst en.
  assert (wsum a (p_lits c) = st) as -> by lia.
  destruct (Z.of_nat st <=? isize_max)%Z eqn:Ei.
  - destruct ((Z.of_nat st <=? p_b c) && (p_b c <? Z.of_nat st))%Z eqn:E; [lia|].
    destruct (p_kind c).
    + destruct (Z.of_nat st <=? p_b c)%Z eqn:E1; cbn; [left|right]; split; auto; lia.
    + destruct (p_b c <=? Z.of_nat st)%Z eqn:E1; cbn; [left|right]; split; auto; lia.
    + destruct (Z.of_nat st =? p_b c)%Z eqn:E1; cbn; [left|right]; split; auto; lia.
  - destruct (p_kind c); [right|left|right]; split; auto; lia.
Qed.

Lemma pb_evaluate_ub_sound s c a :
  p_kind c = KUb -> (Z.of_nat (total_weight (p_lits c)) <= isize_max)%Z -> completes a (pasg_of s) ->
  (pb_evaluate s c = TTrue -> pb_holds a c) /\ (pb_evaluate s c = TFalse -> ~ pb_holds a c).
Proof.
  intros Hk Hw Ha. unfold pb_evaluate, pb_holds. rewrite Hk.
  pose proof (pb_range_bounds s a (p_lits c) Ha).
  assert (Hen : (snd (pb_range s (p_lits c)) <= total_weight (p_lits c))%nat).
  { clear. induction (p_lits c) as [|[l w] ls IH]; [cbn; lia|]. rewrite pb_range_cons. cbn [total_weight].
    destruct (lit_value s l); cbn [fst snd]; lia. }
  destruct (pb_range s (p_lits c)) as [st en]. cbn [fst snd] in *.
  destruct (Z.of_nat st <=? isize_max)%Z eqn:Ei; [|lia].
  destruct (Z.of_nat en <=? isize_max)%Z eqn:Ei2; [|lia].
  destruct ((Z.of_nat st <=? p_b c) && (p_b c <? Z.of_nat en))%Z eqn:E; [split; discriminate|].
  destruct (Z.of_nat st <=? p_b c)%Z eqn:E1; cbn; split; try discriminate; intros _; lia.
Qed.

Lemma pb_evaluate_true_sound s c a :
  (Z.of_nat (total_weight (p_lits c)) <= isize_max)%Z -> completes a (pasg_of s) -> pb_evaluate s c = TTrue -> pb_holds a c.
Proof.
  intros Hw Ha. unfold pb_evaluate, pb_holds. pose proof (pb_range_bounds s a (p_lits c) Ha).
  assert (Hen : (snd (pb_range s (p_lits c)) <= total_weight (p_lits c))%nat).
  { clear. induction (p_lits c) as [|[l w] ls IH]; [cbn; lia|]. rewrite pb_range_cons. cbn [total_weight].
    destruct (lit_value s l); cbn [fst snd]; lia. }
  destruct (pb_range s (p_lits c)) as [st en]. cbn [fst snd] in *.
  destruct (Z.of_nat st <=? isize_max)%Z eqn:Ei; [|lia].
  destruct (Z.of_nat en <=? isize_max)%Z eqn:Ei2; [|lia].
  destruct ((Z.of_nat st <=? p_b c) && (p_b c <? Z.of_nat en))%Z eqn:E; [discriminate|].
  destruct (p_kind c).
  - destruct (Z.of_nat st <=? p_b c)%Z eqn:E1; cbn; try discriminate; lia.
  - destruct (p_b c <=? Z.of_nat st)%Z eqn:E1; cbn; try discriminate; lia.
  - destruct (Z.of_nat st =? p_b c)%Z eqn:E1; cbn; try discriminate; lia.
Qed.

Lemma card_clause_complete c :
  NoDup (map lvar (c_lits c)) -> c_lits c <> [] ->
  (c_kind c = KLb /\ (forall a, card_holds a c <-> sat_clause a (c_lits c) = true)) \/
  (c_kind c = KUb /\ (forall a, card_holds a c <-> sat_clause a (map neg (c_lits c)) = true)) ->
  card_is_clause c = true.
Proof.
  intros Hnd Hne. unfold card_holds, card_is_clause.
  assert (Hlen : (0 < length (c_lits c))%nat) by (destruct (c_lits c); [congruence|cbn; lia]).
  intros [[Hk H]|[Hk H]]; rewrite Hk in *.
  - setoid_rewrite <- count_true_pos in H.
    destruct (count_realizable (c_lits c) 0 Hnd ltac:(lia)) as (a0 & H0).
    destruct (count_realizable (c_lits c) 1 Hnd ltac:(lia)) as (a1 & H1).
    pose proof (H a0). pose proof (H a1). lia.
  - destruct (count_realizable (c_lits c) (length (c_lits c)) Hnd ltac:(lia)) as (a0 & H0).
    destruct (count_realizable (c_lits c) (length (c_lits c) - 1) Hnd ltac:(lia)) as (a1 & H1).
    pose proof (H a0) as Ha0. pose proof (H a1) as Ha1.
    rewrite <- count_true_pos, count_true_map_neg in Ha0, Ha1. lia.
Qed.
