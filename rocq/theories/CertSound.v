(** * Proof states: lookups, and soundness of the proof rules *)

From Coq Require Import List Bool NArith ZArith Lia.
From Coq Require Import ZifyBool ZifyNat ZifyN.
From Verif Require Import Spec Base CertSpec CertBase.
Import ListNotations.
Local Open Scope Z_scope.

(** ** Lookups *)

Lemma ps_get_add p c i : ps_get (ps_add p c) i = if (i =? ps_next p)%nat then Some c else ps_get p i.
Proof.
  unfold ps_get, ps_add. cbn [ps_db find fst]. rewrite (Nat.eqb_sym i). destruct (Nat.eqb_spec (ps_next p) i); reflexivity.
Qed.

Lemma ps_get_In p i c : ps_get p i = Some c -> In (i, c) (ps_db p).
Proof.
  unfold ps_get. destruct (find _ _) as [[j d]|] eqn:E; [|discriminate]. intros [= <-].
  apply find_some in E. cbn [fst] in E. destruct E as [H E]. apply Nat.eqb_eq in E. now subst.
Qed.

Lemma ps_In_get p i c : NoDup (map fst (ps_db p)) -> In (i, c) (ps_db p) -> ps_get p i = Some c.
Proof.
  unfold ps_get. induction (ps_db p) as [|[j d] l IH]; [intros _ []|]. cbn [map fst find]. intros H. apply NoDup_cons_iff in H.
  destruct H as [Hn H]. intros [[= -> ->]|Hin]; [now rewrite Nat.eqb_refl|].
  destruct (Nat.eqb_spec j i) as [->|]; [|auto]. exfalso. apply Hn. apply in_map_iff. now exists (i, c).
Qed.

Lemma ps_get_del p is i : ps_get (ps_del p is) i = if existsb (Nat.eqb i) is then None else ps_get p i.
Proof.
  unfold ps_get, ps_del. cbn [ps_db]. induction (ps_db p) as [|[j d] l IH]; cbn [filter find fst].
  - now destruct (existsb _ _).
  - destruct (existsb (Nat.eqb j) is) eqn:Ej; cbn [negb].
    + rewrite IH. destruct (Nat.eqb_spec j i) as [->|]; [now rewrite Ej|reflexivity].
    + cbn [find fst]. destruct (Nat.eqb_spec j i) as [->|]; [now rewrite Ej|]. exact IH.
Qed.

Lemma ps_ok_get p i c : ps_ok p -> ps_get p i = Some c -> (i < ps_next p)%nat /\ wf (fst c) /\ 0 <= snd c.
Proof. intros (_ & H & _) E. apply ps_get_In in E. destruct (H _ _ E) as (? & Hn & ?). apply wf_normal in Hn. auto. Qed.

Lemma ps_ok_add p c : ps_ok p -> wf (fst c) -> 0 <= snd c -> ps_ok (ps_add p c).
Proof.
  intros (H1 & H2 & H3) Hw Hd. unfold ps_ok, ps_add. cbn [ps_db ps_next ps_inputs]. split; [lia|]. split.
  - intros i d [[= <- <-]|Hin]; [split; [lia|split; [now apply wf_normal|auto]]|]. destruct (H2 _ _ Hin) as (? & ? & ?). split; [lia|auto].
  - cbn [map fst]. constructor; [|auto]. intros Hin. apply in_map_iff in Hin. destruct Hin as ([i d] & Ei & Hin). cbn [fst] in Ei.
    destruct (H2 _ _ Hin). lia.
Qed.

Lemma ps_ok_del p is : ps_ok p -> ps_ok (ps_del p is).
Proof.
  intros (H1 & H2 & H3). unfold ps_ok, ps_del. cbn [ps_db ps_next ps_inputs]. split; [auto|]. split.
  - intros i c Hin. apply filter_In in Hin. apply H2, Hin.
  - clear H2. induction (ps_db p) as [|[j d] l IH]; cbn [filter map fst]; [constructor|]. cbn [map fst] in H3. apply NoDup_cons_iff in H3.
    destruct H3 as [Hn H3]. destruct (negb _); [|auto]. cbn [map fst]. constructor; [|auto]. intros Hin. apply Hn.
    apply in_map_iff in Hin. destruct Hin as (x & Ex & Hin). apply filter_In in Hin. apply in_map_iff. exists x. tauto.
Qed.

(** ** Cutting planes *)

Definition stack_ok (st : list raw) : Prop := forall c, In c st -> wf (fst c) /\ 0 <= snd c.

Lemma push_some c st st' : push c st = Some st' -> 0 <= snd c /\ st' = c :: st.
Proof. unfold push. destruct (Z.leb_spec 0 (snd c)); [|discriminate]. intros [= <-]. auto. Qed.

Lemma rpn_step_ok p o st st' : ps_ok p -> stack_ok st -> rpn_step p o st = Some st' ->
  stack_ok st' /\ forall a, ps_holds a p -> (forall c, In c st -> raw_holds a c) -> forall c, In c st' -> raw_holds a c.
Proof.
  intros Hp Hst E.
  assert (X : forall c st0 , push c st0 = Some st' -> wf (fst c) -> (forall x, In x st0 -> In x st) ->
    (forall a, ps_holds a p -> (forall c, In c st -> raw_holds a c) -> raw_holds a c) ->
    stack_ok st' /\ forall a, ps_holds a p -> (forall c, In c st -> raw_holds a c) -> forall c, In c st' -> raw_holds a c).
  { intros c st0 Ep Hwf Hsub Hh. apply push_some in Ep. destruct Ep as [Hd ->]. split.
    - intros x [<-|Hx]; auto.
    - intros a Ha Hs x [<-|Hx]; auto. }
  destruct o as [i|l| |k|k|]; cbn [rpn_step] in E.
  - destruct (ps_get p i) as [c|] eqn:Eg; [|discriminate]. apply (X _ _ E); [now apply (ps_ok_get p i c)|auto|]. intros a Ha _. eauto.
  - apply (X _ _ E); [cbn [fst]; constructor; [lia|intros ? ? []|constructor]|auto|].
    intros a _ _. unfold raw_holds, raw_val. cbn [fst snd zwsum]. destruct (lit_true a l); lia.
  - destruct st as [|c [|d st0]]; try discriminate.
    destruct (Hst c ltac:(now left)) as [Hc _]. destruct (Hst d ltac:(right; now left)) as [Hd _].
    apply (X _ _ E); [now apply cp_add_wf|intros; now right; right|]. intros a _ Hs. apply holds_slack. rewrite cp_add_slack by auto.
    assert (raw_holds a c) as H1 by (apply Hs; now left). assert (raw_holds a d) as H2 by (apply Hs; right; now left).
    apply holds_slack in H1. apply holds_slack in H2. lia.
  - destruct st as [|c st0]; [discriminate|]. destruct (Nat.eqb_spec k 0); [discriminate|].
    destruct (Hst c ltac:(now left)) as [Hc _]. apply (X _ _ E); [apply cp_mul_wf; [lia|auto]|intros; now right|].
    intros a _ Hs. apply holds_slack. rewrite cp_mul_slack. assert (raw_holds a c) as H1 by (apply Hs; now left). apply holds_slack in H1. nia.
  - destruct st as [|c st0]; [discriminate|]. destruct (Nat.eqb_spec k 0); [discriminate|].
    destruct (Hst c ltac:(now left)) as [Hc _]. apply (X _ _ E); [apply cp_div_wf; [lia|auto]|intros; now right|].
    intros a _ Hs. apply cp_div_sound; [lia|]. apply Hs. now left.
  - destruct st as [|c st0]; [discriminate|]. destruct (Z.ltb_spec 0 (snd c)); [|discriminate].
    destruct (Hst c ltac:(now left)) as [Hc _]. apply (X _ _ E); [now apply cp_sat_wf|intros; now right|].
    intros a _ Hs. apply cp_sat_sound; auto. apply Hs. now left.
Qed.

Lemma rpn_run_ok p ops st st' : ps_ok p -> stack_ok st -> rpn_run p ops st = Some st' ->
  stack_ok st' /\ forall a, ps_holds a p -> (forall c, In c st -> raw_holds a c) -> forall c, In c st' -> raw_holds a c.
Proof.
  intros Hp. revert st; induction ops as [|o ops IH]; intros st Hst; cbn [rpn_run].
  - intros [= <-]. auto.
  - destruct (rpn_step p o st) as [st1|] eqn:E; [|discriminate]. intros E'. destruct (rpn_step_ok p o st st1 Hp Hst E) as [H1 H2].
    destruct (IH st1 H1 E') as [H3 H4]. split; [auto|]. intros a Ha Hs. apply H4; [auto|]. now apply H2.
Qed.

Lemma pol_ok p ops c : ps_ok p -> pol_result p ops = Some c -> wf (fst c) /\ 0 <= snd c /\ forall a, ps_holds a p -> raw_holds a c.
Proof.
  intros Hp. unfold pol_result. destruct (rpn_run p ops []) as [[|x [|]]|] eqn:E; try discriminate. intros [= <-].
  destruct (rpn_run_ok p ops [] [x] Hp) as [H1 H2]; [intros ? []|exact E|]. destruct (H1 x); [now left|]. split; [auto|]. split; [auto|].
  intros a Ha. apply (H2 a Ha); [intros ? []|now left].
Qed.

(** ** Clauses *)

Lemma lit_in_iff l c : lit_in l c = true <-> In l c.
Proof.
  unfold lit_in. rewrite existsb_exists. split.
  - intros ([v b] & Hin & E). destruct l as [v' b']. cbn [lvar lneg] in E. apply andb_true_iff in E. destruct E as [E1 E2].
    apply N.eqb_eq in E1. apply Bool.eqb_prop in E2. now subst.
  - intros Hin. exists l. split; [auto|]. now rewrite N.eqb_refl, Bool.eqb_reflx.
Qed.

Lemma clause_raw_val a c : 0 <= zwsum a (map (fun l => (l, 1)) c) /\ (sat_clause a c = true <-> 1 <= zwsum a (map (fun l => (l, 1)) c)).
Proof.
  induction c as [|l c [IH1 IH2]]; cbn [map zwsum sat_clause existsb].
  - split; [lia|]. split; [discriminate|lia].
  - unfold sat_clause in IH2. destruct (lit_true a l); cbn [orb]; split; try lia. rewrite IH2. lia.
Qed.

Lemma clause_sat_iff a c : raw_holds a (norm (clause_raw c)) <-> sat_clause a c = true.
Proof.
  rewrite holds_slack, norm_slack. unfold slack, clause_raw. cbn [fst snd]. destruct (clause_raw_val a c) as [_ ->]. lia.
Qed.

Lemma zwsum_min_le a d ts : 0 <= d -> wf ts -> zwsum a (map (fun '(l, w) => (l, Z.min w d)) ts) <= zwsum a ts.
Proof. intros Hd. induction 1 as [|l w ts Hw _ _ IH]; cbn [map zwsum]; [lia|]. destruct (lit_true a l); lia. Qed.


(** the degree of a clause is at most one, and at least zero unless it has complementary literals *)
Lemma norm_clause_deg c : (forall l, In l c -> ~ In (neg l) c) -> snd (norm (clause_raw c)) = 1.
Proof.
  intros H. unfold norm, clause_raw. cbn [fst snd].
  destruct (norm_no_compl (map (fun l => (l, 1)) c) ([], 1)) as [E _]; [| |  |exact E].
  - intros l w Hin. apply in_map_iff in Hin. destruct Hin as (x & [= <- <-] & _). lia.
  - constructor.
  - cbn [fst map app]. rewrite map_map, map_id. intros l l' Hl Hl' ->. now apply (H l).
Qed.

Lemma clause_con_wf c : wf (fst (clause_con c)) /\ 0 <= snd (clause_con c).
Proof.
  unfold clause_con. pose proof (norm_wf (clause_raw c)) as Hw. destruct (Z.ltb_spec 0 (snd (norm (clause_raw c)))).
  - split; [now apply cp_sat_wf|]. unfold cp_sat. cbn [snd]. lia.
  - cbn [fst snd]. split; [constructor|lia].
Qed.

Lemma clause_con_holds a c : raw_holds a (clause_con c) <-> sat_clause a c = true.
Proof.
  rewrite <- clause_sat_iff. unfold clause_con. pose proof (norm_wf (clause_raw c)) as Hw.
  destruct (Z.ltb_spec 0 (snd (norm (clause_raw c)))) as [Hd|Hd].
  - split; [|now apply cp_sat_sound].
    unfold raw_holds, raw_val, cp_sat. cbn [fst snd]. pose proof (zwsum_min_le a (snd (norm (clause_raw c))) _ ltac:(lia) Hw). lia.
  - unfold raw_holds at 1, raw_val. cbn [fst snd zwsum]. split; [intros _|lia]. unfold raw_holds, raw_val. pose proof (zwsum_nonneg a _ Hw). lia.
Qed.

Lemma sat_mentions c v : mentions (cp_sat c) v -> mentions c v.
Proof.
  intros (l & w & Hin & Ev). unfold cp_sat in Hin. cbn [fst] in Hin. apply in_map_iff in Hin. destruct Hin as ([x y] & [= -> _] & Hin).
  exists l, y. auto.
Qed.

Lemma clause_con_mentions c v : mentions (clause_con c) v -> exists l, In l c /\ lvar l = v.
Proof.
  unfold clause_con. destruct (Z.ltb_spec 0 (snd (norm (clause_raw c)))); [|intros (l & w & [] & _)].
  intros Hm. apply sat_mentions, norm_mentions in Hm. destruct Hm as (l & w & Hin & E). unfold clause_raw in Hin. cbn [fst] in Hin.
  apply in_map_iff in Hin. destruct Hin as (x & [= <- _] & Hin). eauto.
Qed.

(** ** Unit propagation over one constraint is complete *)

Lemma rup_val c a ts : sat_clause a c = false -> wf ts ->
  zwsum a ts <= fold_right Z.add 0 (map snd (filter (fun '(l, _) => negb (lit_in l c)) ts)).
Proof.
  intros Hc. induction 1 as [|l w ts Hw _ _ IH]; cbn [zwsum filter map fold_right]; [lia|].
  destruct (lit_in l c) eqn:El; cbn [negb map snd fold_right].
  - apply lit_in_iff in El. destruct (lit_true a l) eqn:Et; [|lia]. unfold sat_clause in Hc.
    assert (existsb (lit_true a) c = true) by (apply existsb_exists; eauto). congruence.
  - destruct (lit_true a l); lia.
Qed.

(** the assignment that falsifies the clause and satisfies the other literals of the constraint *)
Definition rup_asg (c : clause) (ts : list (lit * Z)) : asg := fun v =>
  if lit_in (pos v) c then false else if lit_in (negl v) c then true
  else existsb (fun '(l, _) => (lvar l =? v)%N && negb (lneg l)) ts.

Lemma rup_asg_clause c ts : (forall l, In l c -> ~ In (neg l) c) -> sat_clause (rup_asg c ts) c = false.
Proof.
  intros H. destruct (sat_clause (rup_asg c ts) c) eqn:E; [|reflexivity]. exfalso. unfold sat_clause in E. apply existsb_exists in E.
  destruct E as ([v b] & Hin & Et). unfold lit_true, rup_asg in Et. cbn [lvar lneg] in Et. destruct b.
  - destruct (lit_in (pos v) c) eqn:E1; [apply lit_in_iff in E1; exact (H _ Hin E1)|].
    assert (lit_in (negl v) c = true) as E2 by now apply lit_in_iff. rewrite E2 in Et. discriminate.
  - assert (lit_in (pos v) c = true) as E2 by now apply lit_in_iff. rewrite E2 in Et. discriminate.
Qed.

Lemma wf_var_unique ts l w l' w' : wf ts -> In (l, w) ts -> In (l', w') ts -> lvar l = lvar l' -> l = l'.
Proof.
  induction 1 as [|l0 w0 ts Hw Hlt Hwf IH]; [intros []|]. intros [[= <- <-]|H1] [[= <- <-]|H2] E; auto.
  - apply Hlt in H2. lia.
  - apply Hlt in H1. lia.
Qed.

Lemma rup_asg_val c ts0 ts : (forall l, In l c -> ~ In (neg l) c) -> wf ts0 -> (forall x, In x ts -> In x ts0) ->
  zwsum (rup_asg c ts0) ts = fold_right Z.add 0 (map snd (filter (fun '(l, _) => negb (lit_in l c)) ts)).
Proof.
  intros H Hwf. induction ts as [|[l w] ts IH]; intros Hsub; cbn [zwsum filter map fold_right]; [reflexivity|].
  rewrite IH by (intros; apply Hsub; now right).
  assert (Hin0 : In (l, w) ts0) by (apply Hsub; now left).
  assert (E : lit_true (rup_asg c ts0) l = negb (lit_in l c)).
  { destruct l as [v b]. unfold lit_true, rup_asg. cbn [lvar lneg].
    destruct (lit_in (pos v) c) eqn:E1; [|destruct (lit_in (negl v) c) eqn:E2].
    - destruct b; [|change (mkLit v false) with (pos v); now rewrite E1]. change (mkLit v true) with (negl v).
      destruct (lit_in (negl v) c) eqn:E2; [|reflexivity]. apply lit_in_iff in E1. apply lit_in_iff in E2. exfalso. exact (H _ E1 E2).
    - destruct b; [change (mkLit v true) with (negl v); now rewrite E2|]. change (mkLit v false) with (pos v). now rewrite E1.
    - destruct b.
      + change (mkLit v true) with (negl v) in *. rewrite E2. cbn [negb xorb].
        destruct (existsb _ ts0) eqn:Ex; [|reflexivity]. apply existsb_exists in Ex. destruct Ex as ([[v' b'] w'] & Hin & Ex). cbn [lvar lneg] in Ex.
        assert (negl v = mkLit v' b') as X by (apply (wf_var_unique ts0 _ w _ w' Hwf Hin0 Hin); cbn [lvar negl]; lia).
        injection X as -> <-. lia.
      + change (mkLit v false) with (pos v) in *. rewrite E1. cbn [negb xorb].
        assert (existsb (fun '(l, _) => (lvar l =? v)%N && negb (lneg l)) ts0 = true) as ->; [|reflexivity].
        apply existsb_exists. exists (pos v, w). split; [auto|]. cbn [lvar lneg pos]. lia. }
  rewrite E. destruct (lit_in l c); cbn [negb map snd fold_right]; lia.
Qed.

(** the check is exact: it accepts the clauses that follow from the constraint *)
Lemma rup_iff c d : wf (fst d) -> rup_ok c d <-> (forall a, raw_holds a d -> sat_clause a c = true).
Proof.
  intros Hw. split.
  - intros [(l & H1 & H2)|H] a Ha.
    + unfold sat_clause. apply existsb_exists. destruct (lit_true a l) eqn:E; [eauto|]. exists (neg l). split; [auto|].
      now rewrite lit_true_neg', E.
    + destruct (sat_clause a c) eqn:E; [reflexivity|]. exfalso. unfold raw_holds, raw_val in Ha. pose proof (rup_val c a (fst d) E Hw). lia.
  - intros H. destruct (existsb (fun l => lit_in (neg l) c) c) eqn:Ex.
    + left. apply existsb_exists in Ex. destruct Ex as (l & H1 & H2). exists l. split; [auto|]. now apply lit_in_iff.
    + right. assert (Hn : forall l, In l c -> ~ In (neg l) c).
      { intros l Hl Hl'. apply lit_in_iff in Hl'. assert (existsb (fun l => lit_in (neg l) c) c = true) by (apply existsb_exists; eauto). congruence. }
      rewrite <- (rup_asg_val c (fst d) (fst d) Hn Hw) by auto.
      destruct (Z.lt_ge_cases (zwsum (rup_asg c (fst d)) (fst d)) (snd d)) as [?|Hge]; [auto|]. exfalso.
      specialize (H (rup_asg c (fst d)) Hge). rewrite rup_asg_clause in H by auto. discriminate.
Qed.

(** ** Soundness *)

Lemma apply_wit_other w a v : ~ In v (map fst w) -> apply_wit w a v = a v.
Proof.
  induction w as [|[x b] w IH]; cbn [apply_wit map fst]; [reflexivity|]. intros H. destruct (N.eqb_spec v x) as [->|]; [exfalso; apply H; now left|].
  apply IH. intros Hin. apply H. now right.
Qed.

Lemma zwsum_agree a a' ts : (forall l w, In (l, w) ts -> a (lvar l) = a' (lvar l)) -> zwsum a ts = zwsum a' ts.
Proof.
  induction ts as [|[l w] ts IH]; intros H; cbn [zwsum]; [reflexivity|]. rewrite IH by (intros; eapply H; right; eauto).
  unfold lit_true. now rewrite (H l w (or_introl eq_refl)).
Qed.

Lemma ps_step_sound p s p' : ps_ok p -> ps_step p s p' ->
  ps_ok p' /\ forall a, ps_holds a p -> exists a', (forall v, ~ In v (wit_vars [s]) -> a' v = a v) /\ ps_holds a' p'.
Proof.
  intros Hp Hs. destruct Hs as [p ops c Hc|p c hint d Hd Hr|p c w Hdeg Hself Hdb|p is Hne Hdel].
  - destruct (pol_ok p ops c Hp Hc) as (H1 & H2 & H3). split; [now apply ps_ok_add|]. intros a Ha. exists a. split; [auto|].
    intros i x. rewrite ps_get_add. destruct (i =? _)%nat; [intros [= <-]; auto|apply Ha].
  - destruct (clause_con_wf c) as [W1 W2]. split; [now apply ps_ok_add|]. intros a Ha. exists a. split; [auto|].
    intros i x. rewrite ps_get_add. destruct (i =? _)%nat; [|apply Ha]. intros [= <-]. apply clause_con_holds.
    destruct (ps_ok_get p hint d Hp Hd) as (_ & Hw & _). apply (proj1 (rup_iff c d Hw) Hr). eauto.
  - split; [apply ps_ok_add; [auto|apply norm_wf|auto]|]. intros a Ha.
    destruct (Z.le_gt_cases 0 (slack (norm c) a)) as [Hh|Hh].
    + exists a. split; [auto|]. intros i x. rewrite ps_get_add. destruct (i =? _)%nat; [|apply Ha]. intros [= <-]. now apply holds_slack.
    + assert (Hn : ~ raw_holds a (norm c)) by (rewrite holds_slack; lia).
      exists (apply_wit w a). split.
      { intros v Hv. apply apply_wit_other. intros Hin. apply Hv. cbn [wit_vars flat_map]. now rewrite app_nil_r. }
      intros i x. rewrite ps_get_add. destruct (i =? _)%nat; [intros [= <-]; auto|]. intros Hx.
      destruct (existsb (fun v => existsb (fun '(l, _) => (lvar l =? v)%N) (fst x)) (map fst w)) eqn:Ex.
      * apply (Hdb i x Hx); [|auto]. apply existsb_exists in Ex. destruct Ex as (v & Hv & Ex). exists v. split; [auto|].
        apply existsb_exists in Ex. destruct Ex as ([l y] & Hin & El). exists l, y. split; [auto|]. now apply N.eqb_eq.
      * unfold raw_holds, raw_val. rewrite (zwsum_agree _ a); [now apply (Ha i)|]. intros l y Hin. apply apply_wit_other. intros Hv.
        assert (existsb (fun v => existsb (fun '(l, _) => (lvar l =? v)%N) (fst x)) (map fst w) = true); [|congruence].
        apply existsb_exists. exists (lvar l). split; [auto|]. apply existsb_exists. exists (l, y). split; [auto|]. apply N.eqb_refl.
  - split; [now apply ps_ok_del|]. intros a Ha. exists a. split; [auto|]. intros i c. rewrite ps_get_del.
    destruct (existsb _ _); [discriminate|apply Ha].
Qed.

Theorem ps_run_sound p l p' : ps_ok p -> ps_run p l p' ->
  ps_ok p' /\ forall a, ps_holds a p -> exists a', (forall v, ~ In v (wit_vars l) -> a' v = a v) /\ ps_holds a' p'.
Proof.
  intros Hp Hr. revert Hp. induction Hr as [p|p s p1 l p2 Hs Hr IH]; intros Hp.
  - split; [auto|]. intros a Ha. exists a. auto.
  - destruct (ps_step_sound p s p1 Hp Hs) as [H1 H2]. destruct (IH H1) as [H3 H4]. split; [auto|]. intros a Ha.
    destruct (H2 a Ha) as (a1 & A1 & A2). destruct (H4 a1 A2) as (a2 & B1 & B2). exists a2. split; [|auto].
    intros v Hv. rewrite B1, A1; [reflexivity| |]; intros Hin; apply Hv; unfold wit_vars in *; cbn [flat_map] in *; apply in_or_app; [left|right; auto].
    now rewrite app_nil_r in Hin.
Qed.

Lemma ps_run_app p l1 p1 l2 p2 : ps_run p l1 p1 -> ps_run p1 l2 p2 -> ps_run p (l1 ++ l2) p2.
Proof. induction 1 as [|p s p' l p'' Hs Hr IH]; intros H2; [exact H2|]. cbn [app]. econstructor; eauto. Qed.
