(** * The identifiers a certified call uses: each constraint written is a definition or a clause *)

From Coq Require Import List Bool NArith ZArith Lia Arith Permutation.
From Coq Require Import ZifyBool ZifyNat ZifyN.
From Verif Require Import Spec BoundSpec Types Constraints Atomics NodeDb TreeSpec TotDb Totalizer Base.
From Verif Require Import CertSpec CertBase CertSound Cert CertDefs.
Import ListNotations.
Open Scope nat_scope.

Definition not_del (s : pstep) : Prop := match s with SDel _ => False | _ => True end.

Definition spent (k k' : cst) : Prop := exists new,
  c_log k' = c_log k ++ new /\ Forall not_del new /\ c_pid k' = c_pid k + length new /\
  Permutation (def_ids (c_defs k') ++ c_ids k') ((def_ids (c_defs k) ++ c_ids k) ++ seq (c_pid k) (length new)).

Lemma spent_refl k : spent k k.
Proof. exists []. cbn. rewrite !app_nil_r. repeat split; auto. Qed.

Lemma spent_trans a b c : spent a b -> spent b c -> spent a c.
Proof.
  intros (n1 & L1 & F1 & P1 & Q1) (n2 & L2 & F2 & P2 & Q2). exists (n1 ++ n2). rewrite app_length. split; [rewrite L2, L1, app_assoc; auto|].
  split; [now apply Forall_app|]. split; [lia|]. rewrite seq_app, app_assoc. rewrite Q2, P1. apply Permutation_app_tail. exact Q1.
Qed.

Lemma spent_with_t k st : spent k (with_t k st).
Proof. exists []. cbn. rewrite !app_nil_r. repeat split; auto. Qed.

Lemma foldM_rel {A B} (R : A -> A -> Prop) (f : A -> B -> option A) : (forall a, R a a) -> (forall a b c, R a b -> R b c -> R a c) ->
  (forall a x b, f a x = Some b -> R a b) -> forall xs a b, foldM f xs a = Some b -> R a b.
Proof.
  intros Rr Rt H. induction xs as [|x xs IH]; intros a b E; cbn [foldM] in E; [injection E as <-; auto|].
  destruct (f a x) as [c|] eqn:Ex; [|discriminate]. cbn [obind] in E. eauto.
Qed.

Lemma perm_front {A} (xs ys zs : list A) : Permutation (xs ++ ys ++ zs) ((ys ++ zs) ++ xs).
Proof. rewrite (Permutation_app_comm xs). reflexivity. Qed.

Lemma real_spent k id value leaves d k' : define_real_semantics k id value leaves = Some (d, k') -> spent k k'.
Proof.
  unfold define_real_semantics. intros H. destruct (nth_error _ _) as [n|]; [|discriminate]. cbn [obind] in H.
  destruct (value =? 0).
  - destruct (pb_raw _) as [c|]; [|discriminate]. cbn [obind write] in H. destruct (assertb _); [|discriminate]. cbn [obind] in H. injection H as <- <-.
    exists [SRed c []]. cbn [c_log c_pid c_defs c_ids length seq def_ids flat_map sd_if sd_only_if app]. split; [auto|]. split; [repeat constructor|]. split; [lia|].
    apply (perm_front [c_pid k]).
  - destruct (_ <? _).
    + destruct (pb_raw _) as [c|]; [|discriminate]. cbn [obind write] in H. destruct (assertb _); [|discriminate]. cbn [obind] in H. injection H as <- <-.
      exists [SRed c []]. cbn [c_log c_pid c_defs c_ids length seq def_ids flat_map sd_if sd_only_if app]. split; [auto|]. split; [repeat constructor|]. split; [lia|].
      apply (perm_front [c_pid k]).
    + destruct (node_lit n value) as [o|]; [|discriminate]. cbn [obind] in H. destruct (pb_impl_lit _ _) as [c1|]; [|discriminate]. cbn [obind] in H.
      destruct (pb_raw c1) as [r1|]; [|discriminate]. cbn [obind write] in H. destruct (lit_impl_pb _ _) as [c2|]; [|discriminate]. cbn [obind] in H.
      destruct (pb_raw c2) as [r2|]; [|discriminate]. cbn [obind write c_t c_ids c_defs c_pid c_log] in H. destruct (assertb _); [|discriminate]. cbn [obind] in H. injection H as <- <-.
      exists [SRed r1 [(lvar o, true)]; SRed r2 [(lvar o, false)]]. cbn [c_log c_pid c_defs c_ids length seq def_ids flat_map sd_if sd_only_if app]. split; [now rewrite <- app_assoc|].
      split; [repeat constructor|]. split; [lia|]. apply (perm_front [c_pid k; S (c_pid k)]).
Qed.

Lemma semantics_spent k id value ty leaves d k' : define_semantics k id value ty leaves = Some (d, k') -> spent k k'.
Proof.
  unfold define_semantics. intros H. destruct (nth_error _ _) as [n|]; [|discriminate]. cbn [obind] in H. destruct (assertb _); [|discriminate]. cbn [obind] in H.
  destruct (defs_get _ _ _) as [d'|].
  - destruct (sem_get d' ty); [|discriminate]. injection H as _ <-. apply spent_refl.
  - destruct (_ <=? 1).
    + assert (k' = k) as ->; [|apply spent_refl].
      destruct value as [|[|[|v]]], ty; try (injection H as _ <-; reflexivity); destruct (node_lit n 1); try discriminate; injection H as _ <-; reflexivity.
    + destruct (define_real_semantics k id value leaves) as [(d', k1)|] eqn:E; [|discriminate]. cbn [obind] in H. destruct (sem_get d' ty); [|discriminate]. injection H as _ <-.
      eapply real_spent; eauto.
Qed.

Lemma derive_spent k t l r c k' : derive k t l r c = Some k' -> spent k k'.
Proof.
  unfold derive, write_ops. intros H. destruct (seq_sat _) as [|o ops]; [discriminate|]. cbn [obind write] in H. injection H as <-.
  exists [SPol (o :: ops)]. cbn [collect c_log c_pid c_defs c_ids length seq]. split; [auto|]. split; [repeat constructor|]. split; [lia|]. now rewrite app_assoc.
Qed.

Ltac somes H := repeat (match type of H with
  | obind ?x _ = Some _ => let E := fresh "E" in destruct x eqn:E; [|discriminate H]; cbn [obind] in H
  | (let '(_, _) := ?x in _) = Some _ => destruct x
  end).

Lemma if_step_spent pre id idx o ls rs lv k v k' : if_step pre id idx o ls rs lv k v = Some k' -> spent k k'.
Proof.
  unfold if_step. intros H. somes H.
  eapply spent_trans; [eapply semantics_spent; eassumption|]. eapply spent_trans; [eapply semantics_spent; eassumption|].
  eapply spent_trans; [eapply semantics_spent; eassumption|]. eapply derive_spent; eauto.
Qed.

Lemma only_if_step_spent pre id idx o ls rs lv k v k' : only_if_step pre id idx o ls rs lv k v = Some k' -> spent k k'.
Proof.
  unfold only_if_step. intros H. somes H.
  eapply spent_trans; [eapply semantics_spent; eassumption|]. eapply spent_trans; [eapply semantics_spent; eassumption|].
  eapply spent_trans; [eapply semantics_spent; eassumption|]. eapply derive_spent; eauto.
Qed.

Lemma encode_spent k id idx o req pre leaves k' : encode_unweighted_cert k id idx o req pre leaves = Some k' -> spent k k'.
Proof.
  unfold encode_unweighted_cert. intros H. somes H.
  match goal with E : foldM (if_step _ _ _ _ _ _ _) _ (with_t k ?st) = Some ?k1 |- _ =>
    eapply spent_trans; [exact (spent_with_t k st)|]; eapply spent_trans; [|eapply (foldM_rel spent); [apply spent_refl|apply spent_trans|apply only_if_step_spent|exact H]];
    eapply (foldM_rel spent); [apply spent_refl|apply spent_trans|apply if_step_spent|exact E] end.
Qed.

Definition spent3 (s s' : cst * list lit * bool) : Prop := spent (fst (fst s)) (fst (fst s')).

Lemma single_spent def con range sem k lv ini k' lv' ini' :
  (forall k id idx sem lv i n l k' lv' i', def k id idx sem lv i n = Some (l, k', lv', i') -> spent k k') ->
  recurse_single def con range sem k lv ini = Some (k', lv', ini') -> spent k k'.
Proof.
  intros D H. unfold recurse_single in H. destruct (assertb _); [|discriminate]. cbn [obind] in H.
  assert (Q : spent3 (k, lv, ini) (k', lv', ini')); [|exact Q].
  refine (foldM_rel spent3 _ (fun a => spent_refl _) (fun a b c => spent_trans _ _ _) _ _ _ _ H).
  intros ((k0, lv0), i0) x ((k1, lv1), i1) E. unfold spent3. cbn [fst]. destruct (con_len _ _); [|discriminate]. cbn [obind] in E. destruct sem; [| |discriminate].
  - destruct (x =? 0); [injection E as <- _ _; apply spent_refl|]. destruct (def _ _ _ _ _ _ _) as [(((l2, k2), lv2), i2)|] eqn:Ed; [|discriminate]. cbn [obind] in E. injection E as <- _ _. eauto.
  - destruct (x =? _); [injection E as <- _ _; apply spent_refl|]. destruct (def _ _ _ _ _ _ _) as [(((l2, k2), lv2), i2)|] eqn:Ed; [|discriminate]. cbn [obind] in E. injection E as <- _ _. eauto.
Qed.

Lemma define_spent f : forall k id idx sem lv i n l k' lv' i', define_unweighted_cert f k id idx sem lv i n = Some (l, k', lv', i') -> spent k k'.
Proof.
  induction f as [|f IH]; intros k id idx sem lv i n l k' lv' i' H; [discriminate|]. cbn [define_unweighted_cert] in H.
  destruct (n_leaves _ _); [|discriminate]. cbn [obind] in H. destruct (assertb _); [|discriminate]. cbn [obind] in H.
  destruct (precond_unweighted _ _ _ _) as [[x|pre|x]|]; [| | |discriminate]; cbn [obind] in H.
  - destruct (n && negb i).
    + destruct (leaf_lits _ _ _); [|discriminate]. cbn [obind] in H. destruct (assertb _); [|discriminate]. injection H as _ <- _ _. apply spent_refl.
    + injection H as _ <- _ _. apply spent_refl.
  - destruct (assertb _); [|discriminate]. cbn [obind] in H. destruct (n_leaves _ (nc_id _)); [|discriminate]. cbn [obind] in H. destruct (assertb _); [|discriminate]. cbn [obind] in H.
    destruct (recurse_single _ _ _ SIf k _ _) as [((k1, ll1), li1)|] eqn:E1; [|discriminate]. cbn [obind] in H.
    destruct (recurse_single _ _ _ SIf k1 _ _) as [((k2, rl2), ri2)|] eqn:E2; [|discriminate]. cbn [obind] in H.
    destruct (recurse_single _ _ _ SOnlyIf k2 _ _) as [((k3, ll3), li3)|] eqn:E3; [|discriminate]. cbn [obind] in H.
    destruct (recurse_single _ _ _ SOnlyIf k3 _ _) as [((k4, rl4), ri4)|] eqn:E4; [|discriminate]. cbn [obind] in H.
    destruct (assertb _); [|discriminate]. cbn [obind] in H. destruct (get_olit _ _ _) as [(o, st5)|]; [|discriminate]. cbn [obind] in H.
    destruct (encode_unweighted_cert _ _ _ _ _ _ _) as [k6|] eqn:E6; [|discriminate]. cbn [obind] in H. injection H as _ <- _ _.
    apply (single_spent _ _ _ _ _ _ _ _ _ _ IH) in E1, E2, E3, E4. apply encode_spent in E6.
    eapply spent_trans; [exact E1|]. eapply spent_trans; [exact E2|]. eapply spent_trans; [exact E3|]. eapply spent_trans; [exact E4|].
    eapply spent_trans; [apply spent_with_t|exact E6].
  - discriminate.
Qed.

(** ** Calls *)

Definition tally (ct : ctot) (pid : nat) (o : cout) : Prop :=
  Forall not_del (o_log o) /\ o_pid o = pid + length (o_log o) /\
  Permutation (def_ids (ct_defs (o_tot o)) ++ o_ids o) (def_ids (ct_defs ct) ++ seq pid (length (o_log o))).

Lemma tally_none ct n pid : tally ct pid (mkOut ct [] n [] [] pid).
Proof. repeat split; cbn; auto. Qed.

Lemma root_tally ct idxs sem next pid o : define_root_cert ct idxs sem next pid = Some o -> tally ct pid o.
Proof.
  unfold define_root_cert. intros H. destruct (to_root (ct_tot ct)) as [id|]; [|injection H as <-; apply tally_none].
  destruct (n_leaves _ _); [|discriminate]. cbn [obind] in H. destruct (foldM _ _ _) as [((k, lv), i)|] eqn:E; [|discriminate]. cbn [obind] in H. injection H as <-.
  match type of E with foldM _ _ (?k0, ?l0, _) = _ => assert (Q : spent3 (k0, l0, false) (k, lv, i)) end.
  { refine (foldM_rel spent3 _ (fun a => spent_refl _) (fun a b c => spent_trans _ _ _) _ _ _ _ E).
    intros ((k0, lv0), i0) x ((k1, lv1), i1) E1. unfold spent3. cbn [fst]. destruct (define_unweighted_cert _ _ _ _ _ _ _ _) as [(((l2, k2), lv2), i2)|] eqn:Ed; [|discriminate].
    cbn [obind] in E1. injection E1 as <- _ _. eapply define_spent; eauto. }
  destruct Q as (new & L & F & P & Q). cbn [fst c_log c_pid c_defs c_ids app] in *. subst new. rewrite app_nil_r in Q.
  split; [exact F|]. split; [exact P|]. exact Q.
Qed.

Lemma ub_change_tally ct r next pid o : ct_ub_change ct r next pid = Some o -> tally ct pid o.
Proof.
  unfold ct_ub_change. intros H. cbv zeta in H. destruct (tot_n_lits _); [|discriminate]. cbn [obind] in H. destruct (prepare_ub_range _ _).
  destruct (assertb _); [|discriminate]. cbn [obind] in H. destruct (_ <=? _); [injection H as <-; apply tally_none|].
  destruct (extend_tree _) as [t1|]; [|discriminate]. cbn [obind] in H. exact (root_tally _ _ _ _ _ _ H).
Qed.

Lemma lb_change_tally ct r next pid o : ct_lb_change ct r next pid = Some o -> tally ct pid o.
Proof.
  unfold ct_lb_change. intros H. cbv zeta in H. destruct (tot_n_lits _); [|discriminate]. cbn [obind] in H. destruct (prepare_lb_range _ _).
  destruct (assertb _); [|discriminate]. cbn [obind] in H. destruct (_ <=? _); [injection H as <-; apply tally_none|].
  destruct (extend_tree _) as [t1|]; [|discriminate]. cbn [obind] in H. exact (root_tally _ _ _ _ _ _ H).
Qed.

Lemma ub_tally ct r next pid o : ct_ub ct r next pid = Some o -> tally ct pid o.
Proof. exact (ub_change_tally (ct_reset ct SIf) r next pid o). Qed.
Lemma lb_tally ct r next pid o : ct_lb ct r next pid = Some o -> tally ct pid o.
Proof. exact (lb_change_tally (ct_reset ct SOnlyIf) r next pid o). Qed.

Lemma both_tally ct r next pid o : ct_both ct r next pid = Some o -> tally ct pid o.
Proof.
  unfold ct_both. intros H. destruct (ct_ub_change ct r next pid) as [o1|] eqn:E1; [|discriminate]. cbn [obind] in H.
  destruct (ct_lb_change (o_tot o1) r (o_next o1) (o_pid o1)) as [o2|] eqn:E2; [|discriminate]. cbn [obind] in H. injection H as <-.
  apply ub_change_tally in E1 as (F1 & P1 & Q1). apply lb_change_tally in E2 as (F2 & P2 & Q2). unfold tally. cbn [o_tot o_log o_ids o_pid].
  rewrite app_length, seq_app. split; [now apply Forall_app|]. split; [lia|]. rewrite P1 in Q2, P2.
  rewrite (Permutation_app_comm (o_ids o1)), app_assoc, Q2, <- app_assoc, (Permutation_app_comm (seq _ _)), !app_assoc. apply Permutation_app_tail. exact Q1.
Qed.

(** ** Proof states *)

Lemma run_ids p l p' : ps_run p l p' -> Forall not_del l -> ps_ok p -> ps_next p' = ps_next p + length l /\ ps_inputs p' = ps_inputs p /\ ps_ok p' /\
  (forall i, i < ps_next p -> ps_get p' i = ps_get p i) /\ (forall i, ps_next p <= i < ps_next p' -> ps_get p' i <> None).
Proof.
  induction 1 as [p|p s q l p' S R IH]; intros F Hp; cbn [length].
  - split; [lia|]. split; [auto|]. split; [auto|]. split; [auto|lia].
  - inversion F; subst. destruct (ps_step_sound p s q Hp S) as (Hq & _). destruct (IH ltac:(auto) Hq) as (A & B & C & D & E).
    assert (exists c, q = ps_add p c) as (c & ->) by (inversion S; subst; eauto; contradiction).
    cbn [ps_add ps_next ps_inputs] in *. split; [lia|]. split; [auto|]. split; [auto|]. split.
    + intros i Hi. rewrite D by lia. rewrite ps_get_add. destruct (Nat.eqb_spec i (ps_next p)); [lia|auto].
    + intros i Hi. destruct (Nat.eq_dec i (ps_next p)) as [->|]; [|apply E; lia]. rewrite D by lia. rewrite ps_get_add, Nat.eqb_refl. discriminate.
Qed.
