(** * Proofs about CNF formulas and satisfiability instances *)

From Coq Require Import List Bool NArith ZArith Lia Arith Permutation.
From Verif Require Import Spec EncSpec Types Constraints ConstrSpec Base ClauseProofs ConstrProofs Atomics AtomicsProofs NodeDb ConstrEnc ConstrEncProofs
  Maps VarSpec VarMan VarManProofs Inst InstSpec.
Import ListNotations.

(** ** CNF *)
Lemma filter_map_in {A B} (g : A -> option B) xs y : In y (filter_map g xs) <-> exists x, In x xs /\ g x = Some y.
Proof.
  induction xs as [|x xs IH]; cbn; [split; [intros []|intros (? & [] & _)]|]. destruct (g x) as [z|] eqn:E.
  - cbn. rewrite IH. split.
    + intros [<-|(x' & H1 & H2)]; eauto.
    + intros (x' & [<-|H1] & H2); [left; congruence|right; eauto].
  - rewrite IH. split; intros (x' & H1 & H2); [eauto|]. destruct H1 as [<-|H1]; [congruence|eauto].
Qed.

Lemma filter_map_sat g f a : (forall c, g c = None -> sat_clause a c = true) -> (forall c c', g c = Some c' -> sat_clause a c' = sat_clause a c) ->
  sat_cnf a (filter_map g f) = sat_cnf a f.
Proof.
  intros Hn Hs. induction f as [|c f IH]; [reflexivity|]. cbn. destruct (g c) as [c'|] eqn:E.
  - cbn. rewrite (Hs _ _ E). f_equal. exact IH.
  - rewrite (Hn _ E). cbn. exact IH.
Qed.

Lemma sat_cnf_perm a f g : Permutation f g -> sat_cnf a f = sat_cnf a g.
Proof.
  intros H. apply eq_true_iff_eq. rewrite !sat_cnf_true. split; intros X c Hc; apply X; [symmetry in H|]; now apply (Permutation_in _ H).
Qed.

Lemma clause_eqb_eq c : forall d, clause_eqb c d = true <-> c = d.
Proof.
  induction c as [|x c IH]; intros [|y d]; cbn; try (split; congruence). rewrite andb_true_iff, lit_eqb_eq, IH. split; [intros [-> ->]; reflexivity|intros [= -> ->]; auto].
Qed.

Lemma dedup_clauses_in f c : In c (dedup_clauses f) <-> In c f.
Proof.
  induction f as [|d f IH]; [reflexivity|]. cbn [dedup_clauses]. destruct f as [|e f]; [reflexivity|].
  destruct (clause_eqb d e) eqn:E.
  - apply clause_eqb_eq in E as ->. rewrite IH. cbn. tauto.
  - cbn [In]. cbn [In] in IH. rewrite IH. tauto.
Qed.

Lemma clause_leb_total c : forall d, clause_leb c d = true \/ clause_leb d c = true.
Proof.
  induction c as [|x c IH]; intros [|y d]; cbn; auto. destruct (lit_eqb_spec x y) as [->|Hn].
  - rewrite lit_eqb_refl. apply IH.
  - destruct (lit_eqb_spec y x) as [->|_]; [congruence|]. apply lit_leb_total.
Qed.
Lemma clause_leb_trans c : forall d e, clause_leb c d = true -> clause_leb d e = true -> clause_leb c e = true.
Proof.
  induction c as [|x c IH]; intros [|y d] [|z e]; cbn; auto; try discriminate.
  destruct (lit_eqb_spec x y) as [->|H1]; destruct (lit_eqb_spec y z) as [->|H2]; auto.
  - apply IH.
  - intros H _. destruct (lit_eqb_spec x z); [congruence|auto].
  - intros H H'. destruct (lit_eqb_spec x z) as [->|H3]; [|eapply lit_leb_trans; eauto]. exfalso. apply H1. now apply lit_leb_antisym.
Qed.
Lemma clause_leb_antisym c : forall d, clause_leb c d = true -> clause_leb d c = true -> c = d.
Proof.
  induction c as [|x c IH]; intros [|y d]; cbn; auto; try discriminate. destruct (lit_eqb_spec x y) as [->|Hn].
  - rewrite lit_eqb_refl. intros. f_equal. auto.
  - destruct (lit_eqb_spec y x) as [->|_]; [congruence|]. intros H H'. exfalso. apply Hn. now apply lit_leb_antisym.
Qed.

Definition clt (c d : clause) : Prop := clause_leb c d = true /\ c <> d.
Lemma clt_trans c d e : clt c d -> clause_leb d e = true -> clt c e.
Proof. intros [H1 H2] H3. split; [eapply clause_leb_trans; eauto|]. intros ->. apply H2. now apply clause_leb_antisym. Qed.

Lemma dedup_clauses_sorted f : sorted_by (fun x y => clause_leb x y = true) f -> sorted_by clt (dedup_clauses f).
Proof.
  induction 1 as [|c f Hx Hs IH]; [constructor|]. cbn [dedup_clauses]. destruct f as [|d f]; [constructor; [intros ? []|constructor]|].
  destruct (clause_eqb c d) eqn:E; [exact IH|].
  assert (Hcd : clt c d). { split; [apply Hx; now left|]. intros ->. rewrite (proj2 (clause_eqb_eq d d) eq_refl) in E. discriminate. }
  constructor; [|exact IH]. intros e He. apply (proj1 (dedup_clauses_in (d :: f) e)) in He. destruct He as [<-|He]; [exact Hcd|].
  apply (clt_trans c d); [exact Hcd|]. inversion_clear Hs as [|? ? Hd _]. now apply Hd.
Qed.

Lemma clt_sorted_ext f g : sorted_by clt f -> sorted_by clt g -> (forall c, In c f <-> In c g) -> f = g.
Proof.
  intros H1. revert g. induction H1 as [|c f Hx Hs IH]; intros g H2 Heq.
  - destruct g as [|d g]; [reflexivity|]. exfalso. apply (Heq d). now left.
  - destruct g as [|d g]; [exfalso; apply (Heq c); now left|]. inversion_clear H2 as [|? ? Hd Hg].
    assert (c = d).
    { destruct (proj1 (Heq c) (or_introl eq_refl)) as [<-|Hc]; [reflexivity|]. destruct (proj2 (Heq d) (or_introl eq_refl)) as [->|Hdf]; [reflexivity|].
      apply clause_leb_antisym; [now apply Hx|now apply Hd]. }
    subst d. f_equal. apply IH; [exact Hg|]. intros e. specialize (Heq e). cbn in Heq. split; intros He.
    + destruct (proj1 Heq (or_intror He)) as [<-|Hi]; [|exact Hi]. exfalso. now apply (Hx c He).
    + destruct (proj2 Heq (or_intror He)) as [<-|Hi]; [|exact Hi]. exfalso. now apply (Hd c He).
Qed.
Lemma clt_sorted_nodup f : sorted_by clt f -> NoDup f.
Proof. induction 1 as [|c f Hx Hs IH]; constructor; [|exact IH]. intros H. now apply (Hx c H). Qed.

Lemma cnf_normalize_sorted f : sorted_by clt (cnf_normalize f).
Proof. apply dedup_clauses_sorted, sort_by_sorted; [intros; apply clause_leb_total|intros; eapply clause_leb_trans; eauto]. Qed.

Lemma cnf_normalize_in f c : In c (cnf_normalize f) <-> exists d, In d f /\ clause_normalize d = Some c.
Proof.
  unfold cnf_normalize. rewrite dedup_clauses_in. rewrite <- filter_map_in. split; apply Permutation_in; [|symmetry]; apply sort_by_perm.
Qed.

Lemma cnf_normalize_sat a f : sat_cnf a (cnf_normalize f) = sat_cnf a f.
Proof.
  transitivity (sat_cnf a (filter_map clause_normalize f)).
  - apply eq_true_iff_eq. rewrite !sat_cnf_true. split; intros H c Hc; apply H.
    + apply cnf_normalize_in, filter_map_in. exact Hc.
    + apply filter_map_in, cnf_normalize_in. exact Hc.
  - apply filter_map_sat.
    + intros c E. apply complementary_taut. now apply clause_normalize_none.
    + intros c c' E. apply (clause_normalize_sound c c' E).
Qed.

Lemma cnf_normalize_form f : NoDup (cnf_normalize f) /\
  forall c, In c (cnf_normalize f) -> NoDup c /\ sorted_by slt c /\ exists a, sat_clause a c = false.
Proof.
  split; [apply clt_sorted_nodup, cnf_normalize_sorted|]. intros c Hc. apply cnf_normalize_in in Hc as (d & _ & E).
  destruct (clause_normalize_sound _ _ E) as (He & Hn & Hi & Hs). split; [exact Hn|]. split; [exact Hs|].
  assert (Hnc : ~ complementary c).
  { intros (l & H1 & H2). apply (clause_normalize_some _ _ E). exists l. now rewrite <- !Hi. }
  destruct c as [|l c]; [now exists (fun _ => false)|].
  exists (falsify (mkLit (1 + fold_right N.max 0 (map lvar (l :: c)))%N false) (l :: c)). apply falsify_clause; [exact Hnc|].
  assert (forall ls x, In x ls -> (lvar x <= fold_right N.max 0 (map lvar ls))%N).
  { induction ls as [|y ls IH]; intros x []; cbn; [subst; lia|]. specialize (IH _ H). lia. }
  intros Hx. apply H in Hx. cbn [lvar] in Hx. lia.
Qed.

(** the clauses of [f] that are not tautologies, as sets of literals, are among those of [g] *)
Lemma cnf_normalize_canonical f g : cnf_normalize f = cnf_normalize g <-> clause_sets f g.
Proof.
  assert (K : forall f g, (forall c, In c (cnf_normalize f) -> In c (cnf_normalize g)) <->
    (forall c, In c f -> (forall a, sat_clause a c = true) \/ exists d, In d g /\ forall l, In l c <-> In l d)).
  { clear f g. intros f g. split; intros H c Hc.
    - destruct (clause_normalize c) as [c'|] eqn:E; [|left; apply complementary_taut; now apply clause_normalize_none].
      right. assert (H1 : In c' (cnf_normalize f)) by (apply cnf_normalize_in; eauto). apply H in H1. apply cnf_normalize_in in H1 as (d & Hd & Ed).
      exists d. split; [exact Hd|]. intros l. apply clause_normalize_sound in E as (_ & _ & E & _). apply clause_normalize_sound in Ed as (_ & _ & Ed & _). now rewrite <- E, Ed.
    - apply cnf_normalize_in in Hc as (c0 & Hc0 & E). destruct (H c0 Hc0) as [Ht|(d & Hd & Hl)].
      + apply taut_iff_complementary in Ht. apply clause_normalize_none in Ht. congruence.
      + apply cnf_normalize_in. exists d. split; [exact Hd|]. destruct (clause_normalize d) as [d'|] eqn:Ed.
        * f_equal. symmetry. apply (clause_normalize_canonical c0 d c d' E Ed). intros a. now apply sat_clause_ext.
        * apply clause_normalize_none in Ed as (l & H1 & H2). exfalso. apply (clause_normalize_some _ _ E). exists l. now rewrite !Hl. }
  unfold clause_sets. rewrite <- !K. split.
  - intros ->. auto.
  - intros [H1 H2]. apply clt_sorted_ext; try apply cnf_normalize_sorted. intros c. split; auto.
Qed.

Lemma cnf_sanitize_sat a f : sat_cnf a (cnf_sanitize f) = sat_cnf a f.
Proof.
  apply filter_map_sat.
  - intros c E. apply complementary_taut. now apply clause_sanitize_none.
  - intros c c' E. apply clause_sanitize_some in E as ->. apply sat_clause_ext. intros l. rewrite first_occs_In. cbn. tauto.
Qed.
Lemma cnf_sanitize_form f c : In c (cnf_sanitize f) -> NoDup c /\ ~ complementary c.
Proof.
  intros H. apply filter_map_in in H as (d & _ & E). pose proof (clause_sanitize_some _ _ E) as ->. split; [apply first_occs_NoDup|].
  intros (l & H1 & H2). apply first_occs_In in H1, H2. assert (clause_sanitize d = None) by (apply clause_sanitize_none; exists l; tauto). congruence.
Qed.

(** ** Evaluation *)
Lemma eval_loop_none {A} (ev : A -> tern) xs : forall val, eval_loop ev val xs = None <-> exists x, In x xs /\ ev x = TFalse.
Proof.
  induction xs as [|x xs IH]; intros val; cbn; [split; [discriminate|intros (? & [] & _)]|]. destruct (ev x) eqn:E.
  - rewrite IH. split; intros (y & H1 & H2); [eauto|]. destruct H1 as [<-|H1]; [congruence|eauto].
  - split; [eauto|reflexivity].
  - rewrite IH. split; intros (y & H1 & H2); [eauto|]. destruct H1 as [<-|H1]; [congruence|eauto].
Qed.
Lemma eval_loop_some {A} (ev : A -> tern) xs : forall val v, eval_loop ev val xs = Some v -> val <> TFalse ->
  v <> TFalse /\ (v = TTrue <-> val = TTrue /\ forall x, In x xs -> ev x = TTrue).
Proof.
  induction xs as [|x xs IH]; intros val v; cbn.
  - intros [= ->] H. split; [exact H|]. split; [intros ->; split; [auto|intros ? []]|tauto].
  - destruct (ev x) eqn:E; [|discriminate|]; intros H Hv; (destruct (IH _ _ H) as [I1 I2]; [congruence|]); split; auto; rewrite I2.
    + split; intros [H1 H2]; (split; [exact H1|]); [intros y [<-|Hy]; auto|auto].
    + split; [intros [[=] _]|]. intros [_ H2]. specialize (H2 x (or_introl eq_refl)). congruence.
Qed.

Lemma cnf_evaluate_cases s f :
  (cnf_evaluate s f = TTrue <-> forall c, In c f -> clause_evaluate s c = TTrue) /\
  (cnf_evaluate s f = TFalse <-> exists c, In c f /\ clause_evaluate s c = TFalse).
Proof.
  unfold cnf_evaluate. pose proof (eval_loop_none (clause_evaluate s) f TTrue) as Hn. destruct (eval_loop _ _ _) as [v|] eqn:E; cbn.
  - destruct (eval_loop_some _ _ _ _ E ltac:(discriminate)) as [H1 H2]. split; [rewrite H2; tauto|]. rewrite <- Hn. split; [congruence|discriminate].
  - split; [|tauto]. split; [discriminate|]. intros H. apply proj1 in Hn. destruct (Hn eq_refl) as (c & H1 & H2). rewrite H in H2; [discriminate|auto].
Qed.

Lemma cnf_evaluate_sound s f a : completes a (pasg_of s) ->
  (cnf_evaluate s f = TTrue -> sat_cnf a f = true) /\ (cnf_evaluate s f = TFalse -> sat_cnf a f = false).
Proof.
  intros Ha. destruct (cnf_evaluate_cases s f) as [H1 H2]. rewrite H1, H2. split.
  - intros H. apply sat_cnf_true. intros c Hc. apply (eval_true_sound s); auto.
  - intros (c & Hc & E). destruct (sat_cnf a f) eqn:Es; [|reflexivity]. rewrite sat_cnf_true in Es. rewrite <- (Es c Hc). apply (eval_false_sound s); auto.
Qed.

Lemma clause_evaluate_det s c : (forall l, In l c -> lit_value s l <> TDontCare) -> clause_evaluate s c <> TDontCare.
Proof. intros H E. pose proof (clause_evaluate_cases s c) as Hc. rewrite E in Hc. destruct Hc as [(l & Hl & Hd) _]. now apply (H l). Qed.

Lemma cnf_evaluate_total s f a : (forall c l, In c f -> In l c -> lit_value s l <> TDontCare) -> completes a (pasg_of s) ->
  cnf_evaluate s f = tern_of_bool (sat_cnf a f).
Proof.
  intros Hd Ha. destruct (cnf_evaluate_sound s f a Ha) as [S1 S2]. destruct (cnf_evaluate_cases s f) as [C1 C2].
  destruct (cnf_evaluate s f) eqn:E; [now rewrite S1|now rewrite S2|]. exfalso.
  assert (~ exists c, In c f /\ clause_evaluate s c = TFalse) by (rewrite <- C2; discriminate).
  enough (X : TDontCare = TTrue) by discriminate. apply C1. intros c Hc. pose proof (clause_evaluate_det s c ltac:(eauto)) as Hx.
  destruct (clause_evaluate s c) eqn:Ec; [reflexivity|exfalso; eauto|congruence].
Qed.

Lemma inst_evaluate_cases s i :
  (inst_evaluate s i = TTrue <-> (forall c, In c (i_cnf i) -> clause_evaluate s c = TTrue) /\ (forall c, In c (i_cards i) -> card_evaluate s c = TTrue) /\
     (forall p, In p (i_pbs i) -> pb_evaluate s p = TTrue)) /\
  (inst_evaluate s i = TFalse <-> (exists c, In c (i_cnf i) /\ clause_evaluate s c = TFalse) \/ (exists c, In c (i_cards i) /\ card_evaluate s c = TFalse) \/
     (exists p, In p (i_pbs i) /\ pb_evaluate s p = TFalse)).
Proof.
  destruct (cnf_evaluate_cases s (i_cnf i)) as [C1 C2]. rewrite <- C1, <- C2. unfold inst_evaluate. set (v := cnf_evaluate s (i_cnf i)) in *. clearbody v. clear C1 C2.
  pose proof (fun val => eval_loop_none (card_evaluate s) (i_cards i) val) as N1. pose proof (fun val => eval_loop_none (pb_evaluate s) (i_pbs i) val) as N2.
  assert (Hv : v <> TFalse -> let r := or_false (do v1 <- eval_loop (card_evaluate s) v (i_cards i); eval_loop (pb_evaluate s) v1 (i_pbs i)) in
    (r = TTrue <-> v = TTrue /\ (forall c, In c (i_cards i) -> card_evaluate s c = TTrue) /\ (forall p, In p (i_pbs i) -> pb_evaluate s p = TTrue)) /\
    (r = TFalse <-> (exists c, In c (i_cards i) /\ card_evaluate s c = TFalse) \/ (exists p, In p (i_pbs i) /\ pb_evaluate s p = TFalse))).
  { intros Hv. cbn zeta. specialize (N1 v). destruct (eval_loop (card_evaluate s) v (i_cards i)) as [v1|] eqn:E1; cbn [obind].
    - destruct (eval_loop_some _ _ _ _ E1 Hv) as [A1 A2]. specialize (N2 v1). destruct (eval_loop (pb_evaluate s) v1 (i_pbs i)) as [v2|] eqn:E2; cbn [or_false].
      + destruct (eval_loop_some _ _ _ _ E2 A1) as [B1 B2]. rewrite B2, A2, <- N1, <- N2. split; [tauto|]. split; [congruence|intros [|]; discriminate].
      + rewrite <- N1, <- N2. split; [|tauto]. split; [discriminate|]. intros (_ & _ & H). apply proj1 in N2. destruct (N2 eq_refl) as (p & Hp & Ep). rewrite H in Ep; [discriminate|auto].
    - cbn. rewrite <- N1. split; [|tauto]. split; [discriminate|]. intros (_ & H & _). apply proj1 in N1. destruct (N1 eq_refl) as (p & Hp & Ep). rewrite H in Ep; [discriminate|auto]. }
  cbn zeta in Hv. destruct v.
  - destruct (Hv ltac:(discriminate)) as [H1 H2]. rewrite H1, H2. split; [tauto|]. split; [tauto|]. intros [|]; [discriminate|tauto].
  - split; [split; [discriminate|intros [[=] _]]|tauto].
  - destruct (Hv ltac:(discriminate)) as [H1 H2]. rewrite H1, H2. split; [tauto|]. split; [tauto|]. intros [|]; [discriminate|tauto].
Qed.

Lemma inst_lits_cnf i c l : In c (i_cnf i) -> In l c -> In l (inst_lits i).
Proof. intros H1 H2. unfold inst_lits. apply in_or_app. left. apply in_concat. eauto. Qed.
Lemma inst_lits_card i c l : In c (i_cards i) -> In l (c_lits c) -> In l (inst_lits i).
Proof. intros H1 H2. unfold inst_lits. apply in_or_app. right. apply in_or_app. left. apply in_concat. exists (c_lits c). split; [now apply in_map|auto]. Qed.
Lemma inst_lits_pb i p l w : In p (i_pbs i) -> In (l, w) (p_lits p) -> In l (inst_lits i).
Proof.
  intros H1 H2. unfold inst_lits. apply in_or_app. right. apply in_or_app. right. change l with (fst (l, w)). apply in_map. apply in_concat. exists (p_lits p). split; [now apply in_map|auto].
Qed.
Lemma inst_lits_inv i l : In l (inst_lits i) -> (exists c, In c (i_cnf i) /\ In l c) \/ (exists c, In c (i_cards i) /\ In l (c_lits c)) \/
  (exists p w, In p (i_pbs i) /\ In (l, w) (p_lits p)).
Proof.
  unfold inst_lits. rewrite !in_app_iff. intros [H|[H|H]].
  - apply in_concat in H as (c & H1 & H2). eauto.
  - apply in_concat in H as (x & H1 & H2). apply in_map_iff in H1 as (c & <- & H1). eauto.
  - apply in_map_iff in H as ([l' w] & <- & H). apply in_concat in H as (x & H1 & H2). apply in_map_iff in H1 as (p & <- & H1). cbn. eauto 6.
Qed.

Lemma inst_evaluate_total s i a : (forall p, In p (i_pbs i) -> (p_b p <= isize_max)%Z) ->
  (forall l, In l (inst_lits i) -> lit_value s l <> TDontCare) -> completes a (pasg_of s) ->
  (inst_evaluate s i = TTrue /\ inst_holds a i) \/ (inst_evaluate s i = TFalse /\ ~ inst_holds a i).
Proof.
  intros Hb Hd Ha. destruct (inst_evaluate_cases s i) as [T F].
  assert (K1 : forall c, In c (i_cnf i) -> clause_evaluate s c = tern_of_bool (sat_clause a c)).
  { intros c Hc. pose proof (clause_evaluate_det s c) as H. destruct (clause_evaluate s c) eqn:E.
    - now rewrite (eval_true_sound s c a).
    - now rewrite (eval_false_sound s c a).
    - exfalso. apply H; [|reflexivity]. intros l Hl. apply Hd. now apply (inst_lits_cnf i c). }
  assert (K2 : forall c, In c (i_cards i) -> (card_evaluate s c = TTrue /\ card_holds a c) \/ (card_evaluate s c = TFalse /\ ~ card_holds a c)).
  { intros c Hc. apply card_evaluate_determined; [|exact Ha]. intros l Hl. apply Hd. now apply (inst_lits_card i c). }
  assert (K3 : forall p, In p (i_pbs i) -> (pb_evaluate s p = TTrue /\ pb_holds a p) \/ (pb_evaluate s p = TFalse /\ ~ pb_holds a p)).
  { intros p Hp. apply pb_evaluate_determined; auto. intros l w Hl. apply Hd. now apply (inst_lits_pb i p l w). }
  destruct (inst_evaluate s i) eqn:E.
  - left. split; [reflexivity|]. destruct T as [T _]. destruct (T eq_refl) as (T1 & T2 & T3). split; [|split].
    + apply sat_cnf_true. intros c Hc. apply (eval_true_sound s); auto.
    + intros c Hc. destruct (K2 c Hc) as [[_ H]|[H _]]; [exact H|]. rewrite T2 in H; [discriminate|auto].
    + intros c Hc. destruct (K3 c Hc) as [[_ H]|[H _]]; [exact H|]. rewrite T3 in H; [discriminate|auto].
  - right. split; [reflexivity|]. destruct F as [F _]. intros (H1 & H2 & H3). destruct (F eq_refl) as [(c & Hc & Ec)|[(c & Hc & Ec)|(p & Hp & Ep)]].
    + rewrite sat_cnf_true in H1. rewrite (K1 c Hc), (H1 c Hc) in Ec. discriminate.
    + destruct (K2 c Hc) as [[H _]|[_ H]]; [congruence|auto].
    + destruct (K3 p Hp) as [[H _]|[_ H]]; [congruence|auto].
  - exfalso. enough (X : TDontCare = TTrue) by discriminate. apply T.
    assert (NF : ~ ((exists c, In c (i_cnf i) /\ clause_evaluate s c = TFalse) \/ (exists c, In c (i_cards i) /\ card_evaluate s c = TFalse) \/
      (exists p, In p (i_pbs i) /\ pb_evaluate s p = TFalse))) by (rewrite <- F; discriminate).
    split; [|split].
    + intros c Hc. rewrite (K1 c Hc). destruct (sat_clause a c) eqn:Es; [reflexivity|]. exfalso. apply NF. left. exists c. split; [auto|]. rewrite (K1 c Hc), Es. reflexivity.
    + intros c Hc. destruct (K2 c Hc) as [[H _]|[H _]]; [exact H|]. exfalso. apply NF. eauto.
    + intros c Hc. destruct (K3 c Hc) as [[H _]|[H _]]; [exact H|]. exfalso. apply NF. eauto.
Qed.

Lemma tern_eqb_true x y : tern_eqb x y = true <-> x = y.
Proof. destruct x, y; cbn; split; congruence. Qed.
Lemma not_true_false x : negb (tern_eqb x TTrue) = false <-> x = TTrue.
Proof. rewrite negb_false_iff. apply tern_eqb_true. Qed.

Lemma unsat_constraint_spec s i :
  match unsat_constraint s i with
  | None => inst_evaluate s i = TTrue
  | Some (RClause c) => In c (i_cnf i) /\ clause_evaluate s c <> TTrue
  | Some (RCard c) => In c (i_cards i) /\ card_evaluate s c <> TTrue
  | Some (RPb p) => In p (i_pbs i) /\ pb_evaluate s p <> TTrue
  end.
Proof.
  unfold unsat_constraint.
  assert (K : forall A (ev : A -> tern) xs x, find (fun c => negb (tern_eqb (ev c) TTrue)) xs = Some x -> In x xs /\ ev x <> TTrue).
  { intros A ev xs x H. apply find_some in H as [H1 H2]. split; [exact H1|]. intros E. rewrite E in H2. discriminate. }
  destruct (find _ (i_cnf i)) as [c|] eqn:E1; [now apply K in E1|].
  destruct (find _ (i_cards i)) as [c|] eqn:E2; [now apply K in E2|].
  destruct (find _ (i_pbs i)) as [c|] eqn:E3; [now apply K in E3|]. cbn.
  apply (inst_evaluate_cases s i). pose proof (find_none _ _ E1) as F1. pose proof (find_none _ _ E2) as F2. pose proof (find_none _ _ E3) as F3.
  split; [|split]; intros c Hc; apply not_true_false; auto.
Qed.

(** ** Adding constraints *)
Lemma next_increase_max v n : fst (next_increase v n) = N.max n v.
Proof. apply next_increase_spec. Qed.

Lemma marks_spec ls : forall n, (n <= marks n ls)%N /\ lits_below (marks n ls) ls.
Proof.
  unfold marks. induction ls as [|l ls IH]; intros n; cbn; [split; [lia|intros ? []]|]. destruct (IH (mark_used n (lvar l))) as [H1 H2].
  assert (mark_used n (lvar l) = N.max n (lvar l + 1)) by apply next_increase_max. split; [lia|]. intros x [<-|Hx]; [lia|]. now apply H2.
Qed.
Lemma marks_tight ls : forall n m, (n <= m)%N -> lits_below m ls -> (marks n ls <= m)%N.
Proof.
  unfold marks. induction ls as [|l ls IH]; intros n m Hn H; cbn; [exact Hn|]. apply IH; [|intros x Hx; apply H; now right].
  unfold mark_used. rewrite next_increase_max. specialize (H l (or_introl eq_refl)). lia.
Qed.

Lemma holds_app_cnf a f g cards pbs : holds a (f ++ g) cards pbs <-> holds a f cards pbs /\ sat_cnf a g = true.
Proof. unfold holds. rewrite sat_cnf_app, andb_true_iff. tauto. Qed.

Lemma sat_cnf_one a c : sat_cnf a [c] = sat_clause a c.
Proof. cbn. now rewrite andb_true_r. Qed.

Lemma inst_call_holds a i k : keeps_all k -> (inst_holds a (inst_call i k) <-> inst_holds a i /\ call_means k a).
Proof.
  intros Hk. unfold inst_holds.
  destruct k; cbn [inst_call inst_add_clause inst_add_cnf inst_add_card inst_add_pb inst_extend_clauses inst_extend i_cnf i_cards i_pbs call_means cnf_add_clause cnf_extend];
    unfold cnf_add_clause; try rewrite !holds_app_cnf; try rewrite !sat_cnf_one.
  - tauto.
  - cbn. rewrite orb_false_r. tauto.
  - cbn. rewrite orb_false_r, orb_true_iff. tauto.
  - cbn. rewrite orb_false_r, !orb_true_iff. tauto.
  - rewrite lit_impl_lit_sat. destruct (lit_true a x), (lit_true a y); cbn; intuition discriminate.
  - rewrite lit_impl_clause_sat. destruct (lit_true a x), (sat_clause a b); cbn; intuition discriminate.
  - rewrite lit_impl_cube_sat. destruct (lit_true a x), (sat_cube a b); cbn; intuition discriminate.
  - rewrite cube_impl_lit_sat. destruct (sat_cube a b), (lit_true a y); cbn; intuition discriminate.
  - rewrite clause_impl_lit_sat. destruct (sat_clause a b), (lit_true a y); cbn; intuition discriminate.
  - rewrite cube_impl_clause_sat. destruct (sat_cube a b), (sat_clause a d); cbn; intuition discriminate.
  - rewrite clause_impl_clause_sat. destruct (sat_clause a b), (sat_clause a d); cbn; intuition discriminate.
  - rewrite clause_impl_cube_sat. destruct (sat_clause a b), (sat_cube a d); cbn; intuition discriminate.
  - rewrite cube_impl_cube_sat. destruct (sat_cube a b), (sat_cube a d); cbn; intuition discriminate.
  - unfold holds. setoid_rewrite in_app_iff. cbn. split.
    + intros (H1 & H2 & H3). repeat split; auto.
    + intros ((H1 & H2 & H3) & H4). repeat split; auto. intros x [Hx|[<-|[]]]; auto.
  - unfold holds. setoid_rewrite in_app_iff. cbn. split.
    + intros (H1 & H2 & H3). repeat split; auto.
    + intros ((H1 & H2 & H3) & H4). repeat split; auto. intros x [Hx|[<-|[]]]; auto.
  - tauto.
  - cbn in Hk. destruct Hk as [K1 K2]. unfold inst_holds, holds at 3. rewrite K1, K2. cbn. intuition.
Qed.

Lemma lits_below_app n xs ys : lits_below n (xs ++ ys) <-> lits_below n xs /\ lits_below n ys.
Proof. unfold lits_below. setoid_rewrite in_app_iff. split; [intros H; split; auto|intros [H1 H2] l [|]; auto]. Qed.
Lemma lits_below_le n m xs : (n <= m)%N -> lits_below n xs -> lits_below m xs.
Proof. intros H Hx l Hl. apply Hx in Hl. lia. Qed.

Lemma inst_known_call i k : inst_known i -> marks_all k ->
  inst_known (inst_call i k) /\ lits_below (i_next (inst_call i k)) (call_lits k) /\ (i_next i <= i_next (inst_call i k))%N.
Proof.
  intros Hk Hm. unfold inst_known, inst_lits in *.
  assert (KC : forall (ls : list lit) (f : cnf), (forall n, lits_below n ls -> lits_below n (concat f)) ->
    let i' := inst_add_cnf i ls f in inst_known i' /\ lits_below (i_next i') ls /\ (i_next i <= i_next i')%N).
  { intros ls f Hf. cbn. destruct (marks_spec ls (i_next i)) as [M1 M2]. unfold inst_known, inst_lits. cbn [inst_add_cnf i_next i_cnf i_cards i_pbs cnf_extend].
    split; [|split; auto]. rewrite concat_app, <- app_assoc, !lits_below_app in *. destruct Hk as (K1 & K2 & K3).
    split; [now apply (lits_below_le (i_next i))|]. split; [now apply Hf|]. split; now apply (lits_below_le (i_next i)). }
  assert (KL : forall c, inst_add_clause i c = inst_add_cnf i c [c]) by reflexivity.
  assert (HL : forall n c, lits_below n c -> lits_below n (concat [c])) by (intros n c; cbn; now rewrite app_nil_r).
  assert (HN : forall n (ls : list lit), lits_below n ls -> lits_below n (map neg ls)).
  { intros n ls H l Hl. apply in_map_iff in Hl as (x & <- & Hx). cbn. now apply H. }
  destruct k; cbn [inst_call call_lits marks_all] in *; try rewrite KL.
  - apply KC. auto.
  - apply KC. auto.
  - apply KC. auto.
  - apply KC. auto.
  - apply KC. intros n H l. cbn. intros [<-|[<-|[]]]; [apply (H x)|apply (H y)]; cbn; auto.
  - apply KC. intros n H l. cbn. rewrite app_nil_r. unfold lit_impl_clause. rewrite in_app_iff. intros [Hl|[<-|[]]]; [apply H; now right|apply (H x); now left].
  - apply KC. intros n H l Hl. apply in_concat in Hl as (cl & Hcl & Hl). apply in_map_iff in Hcl as (y & <- & Hy). destruct Hl as [<-|[<-|[]]]; [apply (H x); now left|apply H; now right].
  - destruct (KC (b ++ [y]) [cube_impl_lit b y]) as (A1 & A2 & A3).
    { intros n H l. cbn. rewrite app_nil_r. unfold cube_impl_lit. rewrite in_app_iff, in_map_iff. intros [(x & <- & Hx)|[<-|[]]]; cbn; apply H; rewrite in_app_iff; cbn; auto. }
    split; [exact A1|]. split; [|exact A3]. intros l Hl. apply A2. rewrite in_app_iff. cbn in *. tauto.
  - destruct (KC (b ++ [y]) (clause_impl_lit b y)) as (A1 & A2 & A3).
    { intros n H l Hl. apply in_concat in Hl as (cl & Hcl & Hl). apply in_map_iff in Hcl as (x & <- & Hx). destruct Hl as [<-|[<-|[]]]; cbn; apply H; rewrite in_app_iff; cbn; auto. }
    split; [exact A1|]. split; [|exact A3]. intros l Hl. apply A2. rewrite in_app_iff. cbn in *. tauto.
  - apply KC. intros n H l. cbn. rewrite app_nil_r. unfold cube_impl_clause. rewrite in_app_iff, in_map_iff. intros [Hl|(x & <- & Hx)]; cbn; apply H; rewrite in_app_iff; auto.
  - apply KC. intros n H l Hl. apply in_concat in Hl as (cl & Hcl & Hl). apply in_map_iff in Hcl as (x & <- & Hx). apply in_app_iff in Hl as [Hl|[<-|[]]]; cbn; apply H; rewrite in_app_iff; auto.
  - apply KC. intros n H l Hl. apply in_concat in Hl as (cl & Hcl & Hl). apply in_flat_map in Hcl as (x & Hx & Hcl). apply in_map_iff in Hcl as (y & <- & Hy).
    destruct Hl as [<-|[<-|[]]]; cbn; apply H; rewrite in_app_iff; auto.
  - apply KC. intros n H l Hl. apply in_concat in Hl as (cl & Hcl & Hl). apply in_map_iff in Hcl as (x & <- & Hx).
    apply in_app_iff in Hl as [Hl|[<-|[]]]; [apply in_map_iff in Hl as (y & <- & Hy)|]; cbn; apply H; rewrite in_app_iff; auto.
  - unfold inst_known, inst_lits. cbn [inst_add_card i_next i_cnf i_cards i_pbs]. destruct (marks_spec (c_lits c) (i_next i)) as [M1 M2]. split; [|split; auto].
    rewrite map_app, concat_app. cbn [map concat]. rewrite app_nil_r, !lits_below_app in *. destruct Hk as (K1 & K2 & K3). pose proof (lits_below_le _ _ _ M1 K1). pose proof (lits_below_le _ _ _ M1 K2). pose proof (lits_below_le _ _ _ M1 K3). tauto.
  - unfold inst_known, inst_lits. cbn [inst_add_pb i_next i_cnf i_cards i_pbs]. destruct (marks_spec (map fst (p_lits p)) (i_next i)) as [M1 M2]. split; [|split; auto].
    rewrite map_app, concat_app, map_app. cbn [map concat]. rewrite app_nil_r, !lits_below_app in *. destruct Hk as (K1 & K2 & K3). pose proof (lits_below_le _ _ _ M1 K1). pose proof (lits_below_le _ _ _ M1 K2). pose proof (lits_below_le _ _ _ M1 K3). tauto.
  - destruct Hm.
  - unfold inst_known, inst_lits in *. cbn [inst_extend i_next i_cnf i_cards i_pbs cnf_extend]. rewrite next_combine_spec. split; [|split; [|lia]].
    + rewrite concat_app, !lits_below_app in *. destruct Hk as (K1 & K2 & K3), Hm as (J1 & J2 & J3). repeat split; (eapply lits_below_le; [|eassumption]; lia).
    + eapply lits_below_le; [|eassumption]. lia.
Qed.

Lemma inst_calls_holds a ks : Forall keeps_all ks -> forall i, inst_holds a (fold_left inst_call ks i) <-> inst_holds a i /\ forall k, In k ks -> call_means k a.
Proof.
  induction 1 as [|k ks Hk _ IH]; intros i; cbn; [split; [intros H; split; [auto|intros ? []]|tauto]|].
  rewrite IH, (inst_call_holds a i k Hk). split.
  - intros [[H1 H2] H3]. split; [auto|]. intros k' [<-|Hk']; auto.
  - intros [H1 H2]. split; [split; auto|auto].
Qed.
Lemma inst_calls_known ks : Forall marks_all ks -> forall i, inst_known i ->
  inst_known (fold_left inst_call ks i) /\ (forall k, In k ks -> lits_below (i_next (fold_left inst_call ks i)) (call_lits k)) /\ (i_next i <= i_next (fold_left inst_call ks i))%N.
Proof.
  induction 1 as [|k ks Hk _ IH]; intros i Hi; cbn; [split; [auto|split; [intros ? []|lia]]|].
  destruct (inst_known_call i k Hi Hk) as (K1 & K2 & K3). destruct (IH _ K1) as (I1 & I2 & I3). split; [auto|]. split; [|lia].
  intros k' [<-|Hk']; [|auto]. now apply (lits_below_le (i_next (inst_call i k))).
Qed.

Lemma inst_from_clauses_calls f : inst_from_clauses f = fold_left inst_call (map AClause f) (inst_new 0).
Proof. unfold inst_from_clauses. generalize (inst_new 0). induction f as [|c f IH]; intros i; cbn; [reflexivity|]. apply IH. Qed.
Lemma inst_from_cards_calls f : inst_from_cards f = fold_left inst_call (map ACard f) (inst_new 0).
Proof. unfold inst_from_cards. generalize (inst_new 0). induction f as [|c f IH]; intros i; cbn; [reflexivity|]. apply IH. Qed.
Lemma inst_from_pbs_calls f : inst_from_pbs f = fold_left inst_call (map APb f) (inst_new 0).
Proof. unfold inst_from_pbs. generalize (inst_new 0). induction f as [|c f IH]; intros i; cbn; [reflexivity|]. apply IH. Qed.
Lemma inst_from_cnf_known f : inst_known (inst_from_cnf f).
Proof.
  unfold inst_known, inst_lits, inst_from_cnf. cbn [i_next i_cnf i_cards i_pbs map concat]. cbn [app]. rewrite app_nil_r.
  assert (H : forall f n, (n <= fold_left marks f n)%N /\ lits_below (fold_left marks f n) (concat f)).
  { clear f. induction f as [|c f IH]; intros n; cbn; [split; [lia|intros ? []]|]. destruct (IH (marks n c)) as [I1 I2]. destruct (marks_spec c n) as [M1 M2].
    split; [lia|]. apply lits_below_app. split; [|exact I2]. now apply (lits_below_le (marks n c)). }
  apply H.
Qed.
Lemma inst_new_holds a n : inst_holds a (inst_new n).
Proof. split; [reflexivity|split; intros ? []]. Qed.
Lemma inst_new_known n : inst_known (inst_new n).
Proof. intros ? []. Qed.

(** ** Conversion *)
Lemma card_holds_agree a a' c : (forall l, In l (c_lits c) -> a (lvar l) = a' (lvar l)) -> card_holds a c -> card_holds a' c.
Proof. intros H. unfold card_holds. now rewrite (count_true_agree a a' _ H). Qed.
Lemma pb_holds_agree a a' p : (forall l, In l (map fst (p_lits p)) -> a (lvar l) = a' (lvar l)) -> pb_holds a p -> pb_holds a' p.
Proof.
  intros H. unfold pb_holds. rewrite (wsum_agree a a' (p_lits p)); [auto|]. intros l w Hl. apply H. change l with (fst (l, w)). now apply in_map.
Qed.
Lemma sat_clause_agree a a' c : (forall l, In l c -> a (lvar l) = a' (lvar l)) -> sat_clause a c = sat_clause a' c.
Proof.
  intros H. unfold sat_clause. induction c as [|l c IH]; [reflexivity|]. cbn. rewrite (lit_true_agree a a' l) by (apply H; now left). rewrite IH; [reflexivity|]. intros; apply H; now right.
Qed.
Lemma sat_cnf_agree a a' f : (forall c l, In c f -> In l c -> a (lvar l) = a' (lvar l)) -> sat_cnf a f = sat_cnf a' f.
Proof.
  intros H. unfold sat_cnf. induction f as [|c f IH]; [reflexivity|]. cbn. rewrite (sat_clause_agree a a' c) by (intros; apply (H c); [now left|auto]).
  rewrite IH; [reflexivity|]. intros c' l Hc Hl. apply (H c'); [now right|auto].
Qed.

Lemma exact_step ls n0 n n' f cs lx (P Q : asg -> Prop) : lits_below n0 ls -> (forall l, In l lx -> In l ls) ->
  (forall a a', (forall l, In l lx -> a (lvar l) = a' (lvar l)) -> Q a -> Q a') ->
  exact_clauses ls n0 n f P -> exact_clauses lx n n' cs Q -> exact_clauses ls n0 n' (f ++ cs) (fun a => P a /\ Q a).
Proof.
  intros Hb Hs Hq (F1 & F2 & F3 & F4) (G1 & G2 & G3 & G4). split; [lia|]. split; [|split].
  - intros c l Hc Hl. apply in_app_iff in Hc as [Hc|Hc].
    + destruct (F2 c l Hc Hl) as [H|H]; [auto|right; lia].
    + destruct (G2 c l Hc Hl) as [(x & Hx & E)|H]; [left; exists x; auto|right; lia].
  - intros a. rewrite sat_cnf_app, andb_true_iff. intros [H1 H2]. auto.
  - intros a [Hp Hqa]. destruct (F4 a Hp) as (a1 & C1 & S1). destruct (G4 a1) as (a2 & C2 & S2).
    { apply (Hq a); [|exact Hqa]. intros l Hl. symmetry. apply C1. left. apply Hb. auto. }
    exists a2. split.
    + intros v Hv. rewrite C2 by lia. apply C1. lia.
    + rewrite sat_cnf_app, andb_true_iff. split; [|exact S2]. rewrite <- S1. apply sat_cnf_agree. intros c l Hc Hl. apply C2. left.
      destruct (F2 c l Hc Hl) as [(x & Hx & E)|H]; [|lia]. apply Hb in Hx. lia.
Qed.

Lemma conv_fold {A} (enc : A -> N -> option (cnf * N)) (xlits : A -> list lit) (Q : A -> asg -> Prop) ls n0 (Hb : lits_below n0 ls) xs :
  (forall x l, In x xs -> In l (xlits x) -> In l ls) ->
  (forall x a a', In x xs -> (forall l, In l (xlits x) -> a (lvar l) = a' (lvar l)) -> Q x a -> Q x a') ->
  (forall x n, In x xs -> lits_below n (xlits x) -> exists cs n', enc x n = Some (cs, n') /\ exact_clauses (xlits x) n n' cs (Q x)) ->
  forall f n P, exact_clauses ls n0 n f P -> exists f' n', foldM (conv_step enc) xs (f, n) = Some (f', n') /\
    exact_clauses ls n0 n' f' (fun a => P a /\ forall x, In x xs -> Q x a).
Proof.
  induction xs as [|x xs IH]; intros Hl Hq He f n P HP.
  - exists f, n. split; [reflexivity|]. apply (exact_iff ls n0 n f P); [|exact HP]. intros a. split; [intros H; split; [auto|intros ? []]|tauto].
  - assert (Hn : (n0 <= n)%N) by apply HP. destruct (He x n) as (cs & n1 & E & HX); [now left| |].
    { intros l Hx. assert (In l ls) by (apply (Hl x); auto; now left). apply Hb in H. lia. }
    destruct (IH ltac:(intros; eapply Hl; [right|]; eauto) ltac:(intros; eapply Hq; [right| |]; eauto) ltac:(intros; apply He; [right|]; auto) (f ++ cs) n1 (fun a => P a /\ Q x a)) as (f' & n' & E' & H').
    { apply (exact_step ls n0 n n1 f cs (xlits x)); auto; [intros l Hx; apply (Hl x); [now left|auto]|].
      intros a a' Hag. apply Hq; [now left|exact Hag]. }
    exists f', n'. split.
    + cbn [foldM]. unfold conv_step at 1. cbn [snd fst]. rewrite E. cbn. exact E'.
    + eapply exact_iff; [|exact H']. intros a. cbn beta. split.
      * intros [[H1 H2] H3]. split; [auto|]. intros y [<-|Hy]; auto.
      * intros [H1 H2]. split; [split; auto; apply H2; now left|]. intros y Hy. apply H2. now right.
Qed.

Lemma into_cnf_exact card_enc pb_enc i : inst_known i ->
  (forall c n, In c (i_cards i) -> lits_below n (c_lits c) -> exists cs n', card_enc c n = Some (cs, n') /\ exact_clauses (c_lits c) n n' cs (fun a => card_holds a c)) ->
  (forall p n, In p (i_pbs i) -> lits_below n (map fst (p_lits p)) -> exists cs n', pb_enc p n = Some (cs, n') /\ exact_clauses (map fst (p_lits p)) n n' cs (fun a => pb_holds a p)) ->
  exists f n, into_cnf_with_encoders card_enc pb_enc i = Some (f, n) /\ exact_clauses (inst_lits i) (i_next i) n f (fun a => inst_holds a i).
Proof.
  intros Hk Hc Hp.
  assert (H0 : exact_clauses (inst_lits i) (i_next i) (i_next i) (i_cnf i) (fun a => sat_cnf a (i_cnf i) = true)).
  { split; [lia|]. split; [|split].
    - intros c l H1 H2. left. exists l. split; [now apply (inst_lits_cnf i c)|reflexivity].
    - auto.
    - intros a Ha. exists a. split; [intros v _; reflexivity|auto]. }
  destruct (conv_fold card_enc c_lits (fun c a => card_holds a c) (inst_lits i) (i_next i) Hk (i_cards i)) with (3 := Hc) (4 := H0) as (f1 & n1 & E1 & H1).
  { intros c l H1 H2. now apply (inst_lits_card i c). } { intros c a a' _. apply card_holds_agree. }
  destruct (conv_fold pb_enc (fun p => map fst (p_lits p)) (fun p a => pb_holds a p) (inst_lits i) (i_next i) Hk (i_pbs i)) with (3 := Hp) (4 := H1) as (f2 & n2 & E2 & H2).
  { intros p l Hi Hl. apply in_map_iff in Hl as ([l' w] & <- & Hl). cbn. now apply (inst_lits_pb i p l' w). } { intros c a a' _. apply pb_holds_agree. }
  exists f2, n2. split.
  - unfold into_cnf_with_encoders, convert_to_cnf_with_encoders. rewrite E1. cbn [obind]. rewrite E2. reflexivity.
  - eapply exact_iff; [|exact H2]. intros a. unfold inst_holds, holds. tauto.
Qed.

Lemma into_cnf_default ord ord1 ord2 ord3 ord4 i :
  iter_order ord -> iter_order ord1 -> iter_order ord2 -> iter_order ord3 -> iter_order ord4 ->
  inst_known i -> (forall p, In p (i_pbs i) -> pb_plain p /\ ~ indivisible p) ->
  exists f n, into_cnf ord ord1 ord2 ord3 ord4 i = Some (f, n) /\ exact_clauses (inst_lits i) (i_next i) n f (fun a => inst_holds a i).
Proof.
  intros O O1 O2 O3 O4 Hk Hp. apply into_cnf_exact; auto.
  - intros c n _ Hb. now apply default_card_exact.
  - intros p n Hi Hb. destruct (Hp p Hi) as ((H1 & H2 & H3) & H4). now apply default_pb_exact.
Qed.

(** ** Conversion to pseudo-Boolean constraints *)
Lemma into_pbs_holds a i : inst_holds a i <-> forall p, In p (fst (into_pbs i)) -> pb_holds a p.
Proof.
  cbn. setoid_rewrite in_app_iff. setoid_rewrite in_app_iff. setoid_rewrite in_map_iff. split.
  - intros (H1 & H2 & H3) p [Hp|[(c & <- & Hc)|(c & <- & Hc)]]; auto.
    + now apply pb_of_card_sound, H2.
    + apply pb_of_clause_sound. rewrite sat_cnf_true in H1. auto.
  - intros H. split; [|split; auto].
    + apply sat_cnf_true. intros c Hc. apply pb_of_clause_sound. apply H. right. right. eauto.
    + intros c Hc. apply pb_of_card_sound. apply H. eauto.
Qed.

(** ** Sanitization *)
Lemma units_sat a ls : sat_cnf a (map (fun l => [l]) ls) = true <-> forall l, In l ls -> lit_true a l = true.
Proof.
  rewrite sat_cnf_true. split.
  - intros H l Hl. specialize (H [l] (in_map (fun l => [l]) _ _ Hl)). cbn in H. now rewrite orb_false_r in H.
  - intros H c Hc. apply in_map_iff in Hc as (l & <- & Hl). cbn. rewrite orb_false_r. auto.
Qed.
Lemma wunits_sat a (ls : list (lit * nat)) : sat_cnf a (map (fun lw => [fst lw]) ls) = true <-> all_true a ls.
Proof.
  rewrite <- (map_map fst (fun l => [l])), units_sat. unfold all_true. split.
  - intros H l w Hl. apply H. change l with (fst (l, w)). now apply in_map.
  - intros H l Hl. apply in_map_iff in Hl as ([l' w] & <- & Hl). eauto.
Qed.
Lemma wnunits_sat a (ls : list (lit * nat)) : sat_cnf a (map (fun lw => [neg (fst lw)]) ls) = true <-> all_false a ls.
Proof.
  rewrite <- (map_map (fun lw => neg (fst lw)) (fun l => [l])), units_sat. unfold all_false. split.
  - intros H l w Hl. specialize (H (neg l)). rewrite lit_true_neg, negb_true_iff in H. apply H. apply in_map_iff. exists (l, w). auto.
  - intros H l Hl. apply in_map_iff in Hl as ([l' w] & <- & Hl). rewrite lit_true_neg, negb_true_iff. eauto.
Qed.
Lemma nunits_sat a ls : sat_cnf a (map (fun l => [neg l]) ls) = true <-> forall l, In l ls -> lit_true a l = false.
Proof.
  rewrite <- (map_map neg (fun l => [l])), units_sat. split.
  - intros H l Hl. specialize (H (neg l) (in_map _ _ _ Hl)). now rewrite lit_true_neg, negb_true_iff in H.
  - intros H l Hl. apply in_map_iff in Hl as (l' & <- & Hl). rewrite lit_true_neg, negb_true_iff. auto.
Qed.

(** the meaning of the intermediate states *)
Definition pbst_holds a (st : bool * cnf * list card * list pb) : Prop :=
  let '(u, f, cards, pbs) := st in u = false /\ holds a f cards pbs.
Lemma holds_clause a f c cards pbs : holds a (f ++ [c]) cards pbs <-> holds a f cards pbs /\ sat_clause a c = true.
Proof. now rewrite holds_app_cnf, sat_cnf_one. Qed.
Lemma holds_card a f cards c pbs : holds a f (cards ++ [c]) pbs <-> holds a f cards pbs /\ card_holds a c.
Proof.
  unfold holds. setoid_rewrite in_app_iff. cbn. split.
  - intros (H1 & H2 & H3). repeat split; auto.
  - intros ((H1 & H2 & H3) & H4). repeat split; auto. intros x [Hx|[<-|[]]]; auto.
Qed.
Lemma holds_pb a f cards p pbs : holds a f cards (pbs ++ [p]) <-> holds a f cards pbs /\ pb_holds a p.
Proof.
  unfold holds. setoid_rewrite in_app_iff. cbn. split.
  - intros (H1 & H2 & H3). repeat split; auto.
  - intros ((H1 & H2 & H3) & H4). repeat split; auto. intros x [Hx|[<-|[]]]; auto.
Qed.

Lemma sanitize_pb_step p st : pb_wf p -> (forall l w, In (l, w) (p_lits p) -> (0 < w)%nat) -> ~ indivisible p ->
  exists st', sanitize_pb st p = Some st' /\ (forall a, pbst_holds a st' <-> pbst_holds a st /\ pb_holds a p) /\
    (forall q, In q (snd st') -> In q (snd st) \/ (q = p /\ pb_left p)).
Proof.
  intros Hw Hpos Hdiv. destruct st as [[[u f] cards] pbs]. unfold sanitize_pb.
  destruct (pb_is_tautology p) eqn:E1.
  { eexists. split; [reflexivity|]. split; [|auto]. intros a. pose proof (pb_is_tautology_sound p Hw E1 a). tauto. }
  destruct (pb_is_unsat p) eqn:E2.
  { eexists. split; [reflexivity|]. split; [|auto]. intros a. pose proof (pb_is_unsat_sound p Hw E2 a). cbn. split; [intros [[=] _]|tauto]. }
  destruct (pb_is_positive_assignment p) eqn:E3.
  { eexists. split; [reflexivity|]. split; [|auto]. intros a. cbn. rewrite holds_app_cnf, wunits_sat, <- (pb_positive_sound p Hw E3 Hpos). tauto. }
  destruct (pb_is_negative_assignment p) eqn:E4.
  { eexists. split; [reflexivity|]. split; [|auto]. intros a. cbn. rewrite holds_app_cnf, wnunits_sat, <- (pb_negative_sound p E4 Hpos). tauto. }
  destruct (pb_is_clause p) eqn:E5.
  { destruct (pb_into_clause_some p E5) as (cl & Ec). rewrite Ec. cbn [obind]. eexists. split; [reflexivity|]. split; [|auto]. intros a. cbn.
    unfold cnf_add_clause. rewrite holds_clause, (pb_into_clause_sound p cl Hw Ec). tauto. }
  destruct (pb_is_card p) eqn:E6.
  { destruct (pb_into_card_ok p E6 E1 E2 Hpos) as [(cc & Ec)|[Hk Ec]].
    - rewrite Ec. eexists. split; [reflexivity|]. split; [|auto]. intros a. cbn. rewrite holds_card. pose proof (pb_into_card_sound p _ Hw Ec) as Hs. cbn in Hs. rewrite Hs. tauto.
    - exfalso. apply Hdiv. unfold indivisible. split; [exact Hk|]. unfold pb_is_card in E6. destruct (find_unit_weight (p_lits p)) as [u0|] eqn:Eu; [|discriminate].
      pose proof (find_unit_weight_spec _ _ Eu) as [U1 U2].
      assert (Hb : (0 <= p_b p <= Z.of_nat (sum_weights (p_lits p)))%Z).
      { unfold pb_is_unsat in E2. rewrite Hk in E2. unfold pb_wf in Hw. rewrite Hw in E2. destruct (p_b p <? 0)%Z eqn:Eb; [discriminate|]. lia. }
      split; [exact U2|]. split; [exact Hb|]. exists u0. split; [exact U1|].
      unfold pb_into_card_constr in Ec. rewrite E1, E2, Eu, Hk in Ec. destruct u0 as [|u0]; [discriminate|].
      destruct (Z.abs_nat (p_b p) mod S u0 =? 0)%nat eqn:Em; [discriminate|]. intros Hd. apply Nat.mod_divide in Hd; [|lia]. rewrite Hd in Em. discriminate. }
  eexists. split; [reflexivity|]. split.
  - intros a. cbn. rewrite holds_pb. tauto.
  - intros q Hq. cbn in *. apply in_app_iff in Hq as [Hq|[<-|[]]]; [auto|]. right. split; [reflexivity|]. repeat split; assumption.
Qed.

Lemma sanitize_card_step c st : exists st', sanitize_card st c = Some st' /\
  (forall a pbs, pbst_holds a (st', pbs) <-> pbst_holds a (st, pbs) /\ card_holds a c) /\
  (forall q, In q (snd st') -> In q (snd st) \/ (q = c /\ card_left c)).
Proof.
  destruct st as [[u f] cards]. unfold sanitize_card.
  destruct (card_is_tautology c) eqn:E1.
  { eexists. split; [reflexivity|]. split; [|auto]. intros a pbs. pose proof (card_is_tautology_sound c E1 a). tauto. }
  destruct (card_is_unsat c) eqn:E2.
  { eexists. split; [reflexivity|]. split; [|auto]. intros a pbs. pose proof (card_is_unsat_sound c E2 a). cbn. split; [intros [[=] _]|tauto]. }
  destruct (card_is_positive_assignment c) eqn:E3.
  { eexists. split; [reflexivity|]. split; [|auto]. intros a pbs. cbn. rewrite holds_app_cnf, units_sat, <- (card_positive_sound c E3). tauto. }
  destruct (card_is_negative_assignment c) eqn:E4.
  { eexists. split; [reflexivity|]. split; [|auto]. intros a pbs. cbn. rewrite holds_app_cnf, nunits_sat, <- (card_negative_sound c E4). tauto. }
  destruct (card_is_clause c) eqn:E5.
  { destruct (card_into_clause_some c E5) as (cl & Ec). rewrite Ec. cbn [obind]. eexists. split; [reflexivity|]. split; [|auto]. intros a pbs. cbn.
    unfold cnf_add_clause. rewrite holds_clause, (card_into_clause_sound c cl Ec). tauto. }
  eexists. split; [reflexivity|]. split.
  - intros a pbs. cbn. rewrite holds_card. tauto.
  - intros q Hq. cbn in *. apply in_app_iff in Hq as [Hq|[<-|[]]]; [auto|]. right. split; [reflexivity|]. repeat split; assumption.
Qed.

Lemma sanitize_pbs_fold ps : (forall p, In p ps -> pb_wf p /\ (forall l w, In (l, w) (p_lits p) -> (0 < w)%nat) /\ ~ indivisible p) -> forall st,
  exists st', foldM sanitize_pb ps st = Some st' /\ (forall a, pbst_holds a st' <-> pbst_holds a st /\ forall p, In p ps -> pb_holds a p) /\
    (forall q, In q (snd st') -> In q (snd st) \/ pb_left q).
Proof.
  induction ps as [|p ps IH]; intros Hp st; cbn.
  - exists st. split; [reflexivity|]. split; [|auto]. intros a. split; [intros H; split; [auto|intros ? []]|tauto].
  - destruct (Hp p (or_introl eq_refl)) as (P1 & P2 & P3). destruct (sanitize_pb_step p st P1 P2 P3) as (st1 & -> & H1 & L1). cbn [obind].
    destruct (IH ltac:(intros; apply Hp; now right) st1) as (st2 & -> & H2 & L2). exists st2. split; [reflexivity|]. split.
    + intros a. rewrite H2, H1. split; [intros [[A B] C]; split; [auto|intros q [<-|Hq]; auto]|intros [A B]; auto].
    + intros q Hq. destruct (L2 q Hq) as [Hq1|]; [|auto]. destruct (L1 q Hq1) as [|[-> ?]]; auto.
Qed.
Lemma sanitize_cards_fold cs : forall st,
  exists st', foldM sanitize_card cs st = Some st' /\ (forall a pbs, pbst_holds a (st', pbs) <-> pbst_holds a (st, pbs) /\ forall c, In c cs -> card_holds a c) /\
    (forall q, In q (snd st') -> In q (snd st) \/ card_left q).
Proof.
  induction cs as [|c cs IH]; intros st; cbn [foldM].
  - exists st. split; [reflexivity|]. split; [|auto]. intros a pbs. split; [intros H; split; [auto|intros ? []]|tauto].
  - destruct (sanitize_card_step c st) as (st1 & -> & H1 & L1). cbn [obind].
    destruct (IH st1) as (st2 & -> & H2 & L2). exists st2. split; [reflexivity|]. split.
    + intros a pbs. rewrite H2, H1. split; [intros [[A B] C]; split; [auto|intros q [<-|Hq]; auto]|intros [A B]; split; [split; [auto|apply B; now left]|intros q Hq; apply B; now right]].
    + intros q Hq. destruct (L2 q Hq) as [Hq1|]; [|auto]. destruct (L1 q Hq1) as [|[-> ?]]; auto.
Qed.

Lemma inst_sanitize_spec i :
  (forall p, In p (i_pbs i) -> pb_wf p /\ (forall l w, In (l, w) (p_lits p) -> (0 < w)%nat) /\ ~ indivisible p) ->
  exists i', inst_sanitize i = Some i' /\ i_next i' = i_next i /\ (forall a, inst_holds a i' <-> inst_holds a i) /\
    (forall c, In c (i_cards i') -> card_left c) /\ (forall p, In p (i_pbs i') -> pb_left p) /\
    (forall c, In c (i_cnf i') -> NoDup c /\ ~ complementary c).
Proof.
  intros Hp. unfold inst_sanitize. destruct (sanitize_pbs_fold (i_pbs i) Hp (false, i_cnf i, i_cards i, [])) as ([[[u1 f1] cards1] pbs1] & -> & H1 & L1). cbn [obind].
  destruct (sanitize_cards_fold cards1 (u1, f1, [])) as ([[u2 f2] cards2] & E2 & H2 & L2).
  assert (Hall : forall a, pbst_holds a (u2, f2, cards2, pbs1) <-> inst_holds a i).
  { intros a. rewrite (H2 a pbs1). specialize (H1 a). cbn in H1 |- *. unfold inst_holds, holds in *. cbn in *. split.
    - intros [[Hu (A1 & _ & A3)] A2]. destruct H1 as [H1 _]. destruct H1 as [[_ (B1 & B2 & _)] B3]; [tauto|]. tauto.
    - intros (B1 & B2 & B3). destruct H1 as [_ H1]. destruct H1 as [Hu (A1 & A2 & A3)]; [tauto|]. split; [|exact A2]. split; [exact Hu|]. split; [exact A1|]. split; [intros ? []|exact A3]. }
  rewrite E2. cbn [obind]. cbn [snd] in *. destruct u2.
  - eexists. split; [reflexivity|]. split; [reflexivity|]. split; [|split; [intros ? []|split; [intros ? []|]]].
    + intros a. rewrite <- Hall. cbn. unfold inst_holds, holds. cbn. split; [|intros [[=] _]]. intros [H _]. unfold lit_true in H. cbn in H. destruct (a 0%N); discriminate.
    + cbn. intros c [<-|[<-|[]]]; (split; [repeat constructor; intros []|]); intros (l & [<-|[]] & [[=]|[]]).
  - eexists. split; [reflexivity|]. split; [reflexivity|]. split; [|split; [|split]].
    + intros a. rewrite <- Hall. unfold inst_holds, pbst_holds, holds. cbn [i_cnf i_cards i_pbs]. rewrite cnf_sanitize_sat. tauto.
    + cbn. intros c Hc. destruct (L2 c Hc) as [[]|H]. exact H.
    + cbn. intros c Hc. destruct (L1 c Hc) as [[]|H]. exact H.
    + cbn. intros c Hc. now apply (cnf_sanitize_form f2).
Qed.
