(** * Encoding single constraints is exact *)

From Coq Require Import List Bool NArith ZArith Lia Arith Permutation.
From Coq Require Import ZifyBool ZifyNat ZifyN.
From Verif Require Import Spec BoundSpec EncSpec Types Constraints ConstrSpec Maps NodeDb TotDb Totalizer Gte Base ConstrProofs
  TotalizerProofs GteProofs Simulators SimProofs SimInst ConstrEnc.
Import ListNotations.

Lemma sat_units a ls : sat_cnf a (units ls) = sat_cube a ls.
Proof. unfold sat_cnf, sat_cube, units. induction ls as [|l ls IH]; cbn [map forallb]; [reflexivity|]. rewrite IH. cbn. now rewrite orb_false_r. Qed.

Section Generic.
Context {A S : Type} (E : encoder A S) (from : list A -> option S) (ilit : A -> lit) (iok : A -> Prop).
Context (allow : hop A -> Prop) (value : asg -> list A -> nat) (total : list A -> nat).
Hypothesis B : bounding E from ilit iok allow value total.

Definition exact_res (xs : list A) (next : N) (r : option cres) (P : asg -> Prop) : Prop :=
  exists cs next', r = Some (COk cs next') /\ exact_clauses (map ilit xs) next next' cs P.

(** after one call the clauses and the assumptions as units are exact *)
Lemma after_call xs next s op s' cs next' ls (P : asg -> Prop) w' :
  reachable E ilit iok allow (mkWorld xs next [] [] [] []) s -> valid_op ilit iok allow (mkWorld xs next [] [] [] []) op ->
  step E (mkWorld xs next [] [] [] []) s op = Some (w', s') ->
  w' = mkWorld xs next' [(next, next')] cs cs cs ->
  (forall b l, In l ls -> (exists x, In x xs /\ lvar (ilit x) = lvar l) \/ in_aux [(next, next')] (lvar l) \/ b) ->
  (forall a, sat_cnf a cs = true -> sat_cube a ls = true -> P a) ->
  (forall a a', P a -> sat_cnf a' cs = true -> (forall v, ~ in_aux [(next, next')] v -> a' v = a v) ->
    (forall ub l, en_enforce_ub E s' ub = Some (EOk l) -> (value a xs <= ub)%nat -> sat_cube a' l = true) ->
    (forall lb l, en_enforce_lb E s' lb = Some (EOk l) -> (lb <= value a xs)%nat -> sat_cube a' l = true) -> sat_cube a' ls = true) ->
  exact_clauses (map ilit xs) next next' (cs ++ units ls) P.
Proof.
  intros R V St -> Hl Hs Hc. pose proof (reach_step E ilit iok allow _ _ _ _ _ R V St) as R'.
  split; [|split].
  - exact (uc_vars _ _ _ _ _ _ (bd_upper _ _ _ _ _ _ _ B) _ _ _ _ _ R V St).
  - intros c l Hin Hlc. apply in_app_or in Hin as [Hin|Hin].
    + destruct (uc_clauses _ _ _ _ _ _ (bd_upper _ _ _ _ _ _ _ B) _ _ _ _ R' Hin Hlc) as [(x & Hx & Ex)|Ha].
      * left. exists (ilit x). split; [now apply in_map|exact Ex].
      * right. destruct Ha as (lo & hi & [[= <- <-]|[]] & H). exact H.
    + unfold units in Hin. apply in_map_iff in Hin as (l' & <- & Hin). destruct Hlc as [->|[]].
      destruct (Hl False _ Hin) as [(x & Hx & Ex)|[Ha|[]]].
      * left. exists (ilit x). split; [now apply in_map|exact Ex].
      * right. destruct Ha as (lo & hi & [[= <- <-]|[]] & H). exact H.
  - split.
    + intros a Ha. rewrite sat_cnf_app, sat_units in Ha. apply andb_prop in Ha as (H1 & H2). auto.
    + intros a Ha. destruct (uc_complete _ _ _ _ _ _ (bd_upper _ _ _ _ _ _ _ B) _ _ a R') as (a' & H1 & H2 & H3 & H4).
      exists a'. split.
      * intros v Hv. apply H1. intros (lo & hi & [[= <- <-]|[]] & Hlh). lia.
      * rewrite sat_cnf_app, sat_units. cbn [w_all] in H2. rewrite H2. cbn. apply (Hc a); auto.
Qed.

Lemma encode_ub_exact xs ub next : allow (HExtend xs) -> (forall x, In x xs -> iok x /\ (lvar (ilit x) < next)%N) ->
  exact_res xs next (encode_ub_at E from xs ub next) (fun a => (value a xs <= ub)%nat).
Proof.
  intros Hal Hx. destruct (bd_from _ _ _ _ _ _ _ B xs next Hal Hx) as (s & Ef & R).
  unfold encode_ub_at. rewrite Ef. cbn [obind].
  destruct (bd_calls _ _ _ _ _ _ _ B _ _ _ ub R) as (Hc & _ & _).
  destruct (en_ub E s (Incl ub, Incl ub) next) as [[[s' cs] next']|] eqn:Ec; [clear Hc|easy]. cbn [obind].
  set (w0 := mkWorld xs next [] [] [] []) in *.
  assert (V : valid_op ilit iok allow w0 (HUb (Incl ub, Incl ub))) by (split; [apply (bd_allow _ _ _ _ _ _ _ B)|exact Logic.I]).
  assert (St : step E w0 s (HUb (Incl ub, Incl ub)) = Some (mkWorld xs next' [(next, next')] cs cs cs, s')).
  { unfold w0, step. cbn [w_next]. rewrite Ec. reflexivity. }
  pose proof (reach_step E ilit iok allow _ _ _ _ _ R V St) as R'.
  destruct (uc_encodes _ _ _ _ _ _ (bd_upper _ _ _ _ _ _ _ B) _ _ _ _ _ ub R V St) as (ls & El); [split; cbn; lia|].
  rewrite El. unfold add_units. exists (cs ++ units ls), next'. split; [reflexivity|].
  eapply after_call; eauto.
  - intros b l Hin. destruct (uc_assumps _ _ _ _ _ _ (bd_upper _ _ _ _ _ _ _ B) _ _ ub ls l R' (or_introl El) Hin); auto.
  - intros a H1 H2. exact (uc_sound _ _ _ _ _ _ (bd_upper _ _ _ _ _ _ _ B) _ _ ub ls a R' El H1 H2).
Qed.

Lemma encode_lb_exact xs lb next : allow (HExtend xs) -> (forall x, In x xs -> iok x /\ (lvar (ilit x) < next)%N) -> (lb <= total xs)%nat ->
  exact_res xs next (encode_lb_at E from xs lb next) (fun a => (lb <= value a xs)%nat).
Proof.
  intros Hal Hx Hle. destruct (bd_from _ _ _ _ _ _ _ B xs next Hal Hx) as (s & Ef & R).
  unfold encode_lb_at. rewrite Ef. cbn [obind].
  destruct (bd_calls _ _ _ _ _ _ _ B _ _ _ lb R) as (_ & Hc & _).
  destruct (en_lb E s (Incl lb, Incl lb) next) as [[[s' cs] next']|] eqn:Ec; [clear Hc|easy]. cbn [obind].
  set (w0 := mkWorld xs next [] [] [] []) in *.
  assert (V : valid_op ilit iok allow w0 (HLb (Incl lb, Incl lb))) by (split; [apply (bd_allow _ _ _ _ _ _ _ B)|exact Logic.I]).
  assert (St : step E w0 s (HLb (Incl lb, Incl lb)) = Some (mkWorld xs next' [(next, next')] cs cs cs, s')).
  { unfold w0, step. cbn [w_next]. rewrite Ec. reflexivity. }
  pose proof (reach_step E ilit iok allow _ _ _ _ _ R V St) as R'.
  destruct (lc_encodes _ _ _ _ _ _ (bd_lower _ _ _ _ _ _ _ B) _ _ _ _ _ lb R V St) as [(ls & El)|El]; [split; cbn; lia| |].
  2:{ apply (proj1 (lc_unsat _ _ _ _ _ _ (bd_lower _ _ _ _ _ _ _ B) _ _ lb R')) in El. cbn [w_in] in El. lia. }
  rewrite El. unfold add_units. exists (cs ++ units ls), next'. split; [reflexivity|].
  eapply after_call; eauto.
  - intros b l Hin. destruct (uc_assumps _ _ _ _ _ _ (bd_upper _ _ _ _ _ _ _ B) _ _ lb ls l R' (or_intror El) Hin); auto.
  - intros a H1 H2. exact (lc_sound _ _ _ _ _ _ (bd_lower _ _ _ _ _ _ _ B) _ _ lb ls a R' El H1 H2).
Qed.

Lemma encode_eq_exact xs b next : allow (HExtend xs) -> (forall x, In x xs -> iok x /\ (lvar (ilit x) < next)%N) -> (b <= total xs)%nat ->
  exact_res xs next (encode_eq_at E from xs b next) (fun a => value a xs = b).
Proof.
  intros Hal Hx Hle. destruct (bd_from _ _ _ _ _ _ _ B xs next Hal Hx) as (s & Ef & R).
  unfold encode_eq_at. rewrite Ef. cbn [obind].
  destruct (bd_calls _ _ _ _ _ _ _ B _ _ _ b R) as (_ & _ & Hc).
  destruct (en_both E s (Incl b, Incl b) next) as [[[s' cs] next']|] eqn:Ec; [clear Hc|easy]. cbn [obind].
  set (w0 := mkWorld xs next [] [] [] []) in *.
  assert (V : valid_op ilit iok allow w0 (HBoth (Incl b, Incl b))) by (split; [apply (bd_allow _ _ _ _ _ _ _ B)|exact Logic.I]).
  assert (St : step E w0 s (HBoth (Incl b, Incl b)) = Some (mkWorld xs next' [(next, next')] cs cs cs, s')).
  { unfold w0, step. cbn [w_next]. rewrite Ec. reflexivity. }
  pose proof (reach_step E ilit iok allow _ _ _ _ _ R V St) as R'.
  destruct (bd_both_ub _ _ _ _ _ _ _ B _ _ _ _ _ b R V St) as (l1 & E1); [split; cbn; lia|].
  destruct (bd_both_lb _ _ _ _ _ _ _ B _ _ _ _ _ b R V St) as [(l2 & E2)|El]; [split; cbn; lia| |].
  2:{ apply (proj1 (lc_unsat _ _ _ _ _ _ (bd_lower _ _ _ _ _ _ _ B) _ _ b R')) in El. cbn [w_in] in El. lia. }
  unfold enforce_eq. rewrite E1. cbn [obind]. rewrite E2. cbn [obind]. unfold add_units. exists (cs ++ units (l1 ++ l2)), next'. split; [reflexivity|].
  eapply after_call; eauto.
  - intros p l Hin. apply in_app_or in Hin as [Hin|Hin].
    + destruct (uc_assumps _ _ _ _ _ _ (bd_upper _ _ _ _ _ _ _ B) _ _ b l1 l R' (or_introl E1) Hin); auto.
    + destruct (uc_assumps _ _ _ _ _ _ (bd_upper _ _ _ _ _ _ _ B) _ _ b l2 l R' (or_intror E2) Hin); auto.
  - intros a H1 H2. rewrite sat_cube_app in H2. apply andb_prop in H2 as (H2 & H3).
    pose proof (uc_sound _ _ _ _ _ _ (bd_upper _ _ _ _ _ _ _ B) _ _ b l1 a R' E1 H1 H2) as K1.
    pose proof (lc_sound _ _ _ _ _ _ (bd_lower _ _ _ _ _ _ _ B) _ _ b l2 a R' E2 H1 H3) as K2. cbn [w_in] in *. lia.
  - intros a a' HP _ _ Hu Hlb. rewrite sat_cube_app. rewrite (Hu b l1 E1), (Hlb b l2 E2) by lia. reflexivity.
Qed.
End Generic.

(** ** Cases that need no encoding *)
Lemma exact_iff ls next next' cs P Q : (forall a, P a <-> Q a) -> exact_clauses ls next next' cs P -> exact_clauses ls next next' cs Q.
Proof.
  intros H (H1 & H2 & H3 & H4). split; [auto|]. split; [auto|]. split.
  - intros a Ha. apply H. auto.
  - intros a Ha. apply H4. now apply H.
Qed.
Lemma exact_direct ls next cs (P : asg -> Prop) :
  (forall c l, In c cs -> In l c -> exists x, In x ls /\ lvar x = lvar l) -> (forall a, sat_cnf a cs = true <-> P a) -> exact_clauses ls next next cs P.
Proof.
  intros Hv H. split; [lia|]. split; [eauto|]. split; [intros a Ha; now apply H|].
  intros a Ha. exists a. split; [intros v _; reflexivity|now apply H].
Qed.

Lemma sat_pos_units a ls : sat_cnf a (map (fun l => [l]) ls) = true <-> forall l, In l ls -> lit_true a l = true.
Proof.
  unfold sat_cnf. rewrite forallb_forall. split.
  - intros H l Hl. specialize (H [l]). cbn in H. rewrite orb_false_r in H. apply H. apply in_map_iff. eauto.
  - intros H c Hc. apply in_map_iff in Hc as (l & <- & Hl). cbn. rewrite orb_false_r. auto.
Qed.
Lemma sat_neg_units a ls : sat_cnf a (map (fun l => [neg l]) ls) = true <-> forall l, In l ls -> lit_true a l = false.
Proof.
  unfold sat_cnf. rewrite forallb_forall. split.
  - intros H l Hl. specialize (H [neg l]). cbn in H. rewrite orb_false_r, lit_true_neg in H. apply negb_true_iff, H. apply in_map_iff. eauto.
  - intros H c Hc. apply in_map_iff in Hc as (l & <- & Hl). cbn. rewrite orb_false_r, lit_true_neg, H; auto.
Qed.

(** ** Cardinality constraints *)
Section Card.
Context {S : Type} (E : encoder lit S) (from : list lit -> option S).
Hypothesis B : bounding E from (fun l => l) any_lit any_op count_true (@length lit).

Lemma card_encode_constr_cases c next : lits_below next (c_lits c) ->
  card_encode_constr E from c next = Some CUnsat /\ card_is_unsat c = true \/
  exists cs next', card_encode_constr E from c next = Some (COk cs next') /\ exact_clauses (c_lits c) next next' cs (fun a => card_holds a c).
Proof.
  intros Hb. assert (Hx : forall x, In x (c_lits c) -> any_lit x /\ (lvar x < next)%N) by (intros x H; split; [exact Logic.I|now apply Hb]).
  unfold card_encode_constr, card_is_unsat. destruct (c_kind c) eqn:Ek.
  - right. destruct (encode_ub_exact _ _ _ _ _ _ _ B (c_lits c) (c_b c) next Logic.I Hx) as (cs & n & -> & H). rewrite map_id in H.
    exists cs, n. split; [reflexivity|]. revert H. apply exact_iff. intros a. unfold card_holds. rewrite Ek. tauto.
  - destruct (length (c_lits c) <? c_b c)%nat eqn:El; [now left|].
    right. destruct (encode_lb_exact _ _ _ _ _ _ _ B (c_lits c) (c_b c) next Logic.I Hx ltac:(lia)) as (cs & n & -> & H). rewrite map_id in H.
    exists cs, n. split; [reflexivity|]. revert H. apply exact_iff. intros a. unfold card_holds. rewrite Ek. tauto.
  - destruct (length (c_lits c) <? c_b c)%nat eqn:El; [now left|].
    right. destruct (encode_eq_exact _ _ _ _ _ _ _ B (c_lits c) (c_b c) next Logic.I Hx ltac:(lia)) as (cs & n & -> & H). rewrite map_id in H.
    exists cs, n. split; [reflexivity|]. revert H. apply exact_iff. intros a. unfold card_holds. rewrite Ek. tauto.
Qed.

Theorem card_encode_constr_exact c next : lits_below next (c_lits c) ->
  (card_encode_constr E from c next = Some CUnsat /\ forall a, ~ card_holds a c) \/
  exists cs next', card_encode_constr E from c next = Some (COk cs next') /\ exact_clauses (c_lits c) next next' cs (fun a => card_holds a c).
Proof.
  intros Hb. destruct (card_encode_constr_cases c next Hb) as [(H & Hu)|H]; [left|now right].
  split; [exact H|]. intros a. now apply card_is_unsat_sound.
Qed.

Theorem encode_card_exact c next : lits_below next (c_lits c) ->
  exists cs next', encode_cardinality_constraint E from c next = Some (cs, next') /\ exact_clauses (c_lits c) next next' cs (fun a => card_holds a c).
Proof.
  intros Hb. unfold encode_cardinality_constraint.
  destruct (card_is_tautology c) eqn:Et.
  { exists [], next. split; [reflexivity|]. apply exact_direct; [intros ? ? []|]. intros a. split; [intros _; now apply card_is_tautology_sound|reflexivity]. }
  destruct (card_is_unsat c) eqn:Eu.
  { exists [[]], next. split; [reflexivity|]. apply exact_direct; [intros ? ? [<-|[]] []|]. intros a. split; [discriminate|].
    intros H. now apply card_is_unsat_sound with (a := a) in Eu. }
  destruct (card_is_positive_assignment c) eqn:Ep.
  { eexists _, next. split; [reflexivity|]. apply exact_direct.
    - intros d l Hd Hl. apply in_map_iff in Hd as (x & <- & Hx). destruct Hl as [->|[]]. eauto.
    - intros a. rewrite sat_pos_units. symmetry. now apply card_positive_sound. }
  destruct (card_is_negative_assignment c) eqn:En.
  { eexists _, next. split; [reflexivity|]. apply exact_direct.
    - intros d l Hd Hl. apply in_map_iff in Hd as (x & <- & Hx). destruct Hl as [<-|[]]. eauto.
    - intros a. rewrite sat_neg_units. symmetry. now apply card_negative_sound. }
  destruct (card_is_clause c) eqn:Ec.
  { destruct (card_into_clause_some c Ec) as (cl & Ecl). rewrite Ecl. cbn [obind]. exists [cl], next. split; [reflexivity|]. apply exact_direct.
    - intros d l [<-|[]] Hl. unfold card_into_clause in Ecl. rewrite Ec in Ecl. cbn [negb] in Ecl. destruct (c_kind c); inversion Ecl; subst.
      + apply in_map_iff in Hl as (x & <- & Hx). eauto.
      + eauto.
    - intros a. cbn. rewrite andb_true_r. now apply card_into_clause_sound. }
  destruct (card_encode_constr_cases c next Hb) as [(_ & Hu)|(cs & n & -> & H)]; [congruence|eauto].
Qed.
End Card.

(** the default cardinality encoding *)
Lemma tot_bounding : bounding totalizer tot_from_iter (fun l => l) any_lit any_op count_true (@length lit).
Proof.
  constructor; [exact tot_upper|exact tot_lower|apply tot_encodes_ub|apply tot_encodes_lb| | |].
  - intros r. split; [exact Logic.I|split; exact Logic.I].
  - intros xs next _ Hx. eexists. split; [reflexivity|].
    apply (reach_step totalizer _ _ _ (mkWorld [] next [] [] [] []) tot_new (HExtend xs)).
    + apply (reach_step totalizer _ _ _ world0 tot_new (HUserVars next)); [apply reach_init|split; exact Logic.I|reflexivity].
    + split; [exact Logic.I|]. intros x H. destruct (Hx x H) as (H1 & H2). split; [auto|]. split; [exact H2|]. intros (lo & hi & [] & _).
    + reflexivity.
  - intros xs next s b R.
    assert (H : forall op, match op with HUb _ | HLb _ | HBoth _ => True | _ => False end -> step totalizer (mkWorld xs next [] [] [] []) s op <> None).
    { intros op Ho. apply tot_no_panic; [exact R|]. split; [exact Logic.I|]. destruct op; easy. }
    pose proof (H (HUb (Incl b, Incl b)) Logic.I) as H1. pose proof (H (HLb (Incl b, Incl b)) Logic.I) as H2. pose proof (H (HBoth (Incl b, Incl b)) Logic.I) as H3.
    unfold step in *. cbn [w_next] in *. repeat split; intros Hn; rewrite Hn in *; auto.
Qed.

Theorem default_card_exact c next : lits_below next (c_lits c) ->
  exists cs next', default_encode_cardinality_constraint c next = Some (cs, next') /\ exact_clauses (c_lits c) next next' cs (fun a => card_holds a c).
Proof. exact (encode_card_exact totalizer tot_from_iter tot_bounding c next). Qed.

(** ** Pseudo-Boolean constraints *)
(** all that is needed of an encoding: encoding a single bound with a fresh encoder is exact *)
Record single_exact {S : Type} (E : encoder (lit * nat) S) (from : list (lit * nat) -> option S) (iok : lit * nat -> Prop)
    (allow : hop (lit * nat) -> Prop) : Prop := mkSingle {
  se_ub : forall xs ub next, allow (HExtend xs) -> (forall x, In x xs -> iok x /\ (lvar (fst x) < next)%N) ->
    exact_res fst xs next (encode_ub_at E from xs ub next) (fun a => (wsum a xs <= ub)%nat);
  se_lb : forall xs lb next, allow (HExtend xs) -> (forall x, In x xs -> iok x /\ (lvar (fst x) < next)%N) -> (lb <= total_weight xs)%nat ->
    exact_res fst xs next (encode_lb_at E from xs lb next) (fun a => (lb <= wsum a xs)%nat);
  se_eq : forall xs b next, allow (HExtend xs) -> (forall x, In x xs -> iok x /\ (lvar (fst x) < next)%N) -> (b <= total_weight xs)%nat ->
    exact_res fst xs next (encode_eq_at E from xs b next) (fun a => wsum a xs = b)
}.
Lemma bounding_single {S : Type} (E : encoder (lit * nat) S) from iok allow : bounding E from fst iok allow wsum total_weight -> single_exact E from iok allow.
Proof.
  intros B. constructor; intros; [apply (encode_ub_exact _ _ _ _ _ _ _ B)|apply (encode_lb_exact _ _ _ _ _ _ _ B)|apply (encode_eq_exact _ _ _ _ _ _ _ B)]; auto.
Qed.

Section Pb.
Context {S : Type} (E : encoder (lit * nat) S) (from : list (lit * nat) -> option S).
Context (iok : lit * nat -> Prop) (allow : hop (lit * nat) -> Prop).
Hypothesis B : single_exact E from iok allow.

Lemma pb_encode_constr_cases c next : pb_wf c -> allow (HExtend (p_lits c)) ->
  (forall x, In x (p_lits c) -> iok x) -> lits_below next (map fst (p_lits c)) ->
  pb_encode_constr E from c next = Some CUnsat /\ pb_is_unsat c = true \/
  exists cs next', pb_encode_constr E from c next = Some (COk cs next') /\ exact_clauses (map fst (p_lits c)) next next' cs (fun a => pb_holds a c).
Proof.
  intros Hwf Hal Hi Hb. assert (Hx : forall x, In x (p_lits c) -> iok x /\ (lvar (fst x) < next)%N) by (intros x H; split; [auto|apply Hb; now apply in_map]).
  unfold pb_wf in Hwf. unfold pb_encode_constr, pb_is_unsat. rewrite <- Hwf. rewrite sum_weights_total in Hwf. destruct (p_kind c) eqn:Ek.
  - destruct (p_b c <? 0)%Z eqn:En; [now left|].
    right. destruct (se_ub _ _ _ _ B (p_lits c) (Z.abs_nat (p_b c)) next Hal Hx) as (cs & n & -> & H).
    exists cs, n. split; [reflexivity|]. revert H. apply exact_iff. intros a. unfold pb_holds. rewrite Ek. lia.
  - destruct (p_b c <? 0)%Z eqn:En.
    { right. exists [], next. split; [reflexivity|]. apply exact_direct; [intros ? ? []|]. intros a. unfold pb_holds. rewrite Ek. split; [lia|reflexivity]. }
    destruct (p_wsum c <? Z.abs_nat (p_b c))%nat eqn:El; [now left|].
    right. destruct (se_lb _ _ _ _ B (p_lits c) (Z.abs_nat (p_b c)) next Hal Hx ltac:(lia)) as (cs & n & -> & H).
    exists cs, n. split; [reflexivity|]. revert H. apply exact_iff. intros a. unfold pb_holds. rewrite Ek. lia.
  - destruct (p_b c <? 0)%Z eqn:En; [now left|].
    destruct (p_wsum c <? Z.abs_nat (p_b c))%nat eqn:El; [now left|].
    right. destruct (se_eq _ _ _ _ B (p_lits c) (Z.abs_nat (p_b c)) next Hal Hx ltac:(lia)) as (cs & n & -> & H).
    exists cs, n. split; [reflexivity|]. revert H. apply exact_iff. intros a. unfold pb_holds. rewrite Ek. lia.
Qed.

Theorem single_constr_exact c next : pb_wf c -> allow (HExtend (p_lits c)) ->
  (forall x, In x (p_lits c) -> iok x) -> lits_below next (map fst (p_lits c)) ->
  (pb_encode_constr E from c next = Some CUnsat /\ forall a, ~ pb_holds a c) \/
  exists cs next', pb_encode_constr E from c next = Some (COk cs next') /\ exact_clauses (map fst (p_lits c)) next next' cs (fun a => pb_holds a c).
Proof.
  intros Hwf Hal Hi Hb. destruct (pb_encode_constr_cases c next Hwf Hal Hi Hb) as [(H & Hu)|H]; [left|now right].
  split; [exact H|]. now apply pb_is_unsat_sound.
Qed.

Theorem single_pb_exact c next : pb_wf c -> allow (HExtend (p_lits c)) ->
  (forall x, In x (p_lits c) -> iok x) -> (forall l w, In (l, w) (p_lits c) -> (0 < w)%nat) ->
  ~ indivisible c -> lits_below next (map fst (p_lits c)) ->
  exists cs next', encode_pb_constraint E from c next = Some (cs, next') /\ exact_clauses (map fst (p_lits c)) next next' cs (fun a => pb_holds a c).
Proof.
  intros Hwf Hal Hi Hpos Hdiv Hb. unfold encode_pb_constraint.
  destruct (pb_is_tautology c) eqn:Et.
  { exists [], next. split; [reflexivity|]. apply exact_direct; [intros ? ? []|]. intros a. split; [intros _; now apply pb_is_tautology_sound|reflexivity]. }
  destruct (pb_is_unsat c) eqn:Eu.
  { exists [[]], next. split; [reflexivity|]. apply exact_direct; [intros ? ? [<-|[]] []|]. intros a. split; [discriminate|].
    intros H. now apply pb_is_unsat_sound with (a := a) in Eu. }
  destruct (pb_is_positive_assignment c) eqn:Ep.
  { eexists _, next. split; [reflexivity|]. apply exact_direct.
    - intros d l Hd Hl. apply in_map_iff in Hd as (x & <- & Hx). destruct Hl as [<-|[]]. exists (fst x). split; [now apply in_map|reflexivity].
    - intros a. rewrite (pb_positive_sound c Hwf Ep Hpos a). rewrite <- map_map with (f := fst) (g := fun l => [l]). rewrite sat_pos_units. split.
      + intros H l w Hin. apply H. now apply (in_map fst) in Hin.
      + intros H l Hl. apply in_map_iff in Hl as ([l' w] & <- & Hin). eapply H; eauto. }
  destruct (pb_is_negative_assignment c) eqn:En.
  { eexists _, next. split; [reflexivity|]. apply exact_direct.
    - intros d l Hd Hl. apply in_map_iff in Hd as (x & <- & Hx). destruct Hl as [<-|[]]. exists (fst x). split; [now apply in_map|reflexivity].
    - intros a. rewrite (pb_negative_sound c En Hpos a). rewrite <- map_map with (f := fst) (g := fun l => [neg l]). rewrite sat_neg_units. split.
      + intros H l w Hin. apply H. now apply (in_map fst) in Hin.
      + intros H l Hl. apply in_map_iff in Hl as ([l' w] & <- & Hin). eapply H; eauto. }
  destruct (pb_is_clause c) eqn:Ec.
  { destruct (pb_into_clause_some c Ec) as (cl & Ecl). rewrite Ecl. cbn [obind]. exists [cl], next. split; [reflexivity|]. apply exact_direct.
    - intros d l [<-|[]] Hl. unfold pb_into_clause in Ecl. rewrite Ec in Ecl. cbn [negb] in Ecl. destruct (p_kind c); inversion Ecl; subst.
      + apply in_map_iff in Hl as (x & <- & Hx). exists (fst x). split; [now apply in_map|reflexivity].
      + eauto.
    - intros a. cbn. rewrite andb_true_r. now apply pb_into_clause_sound. }
  destruct (pb_is_card c) eqn:Ecd.
  { pose proof (pb_into_card_sound c _ Hwf eq_refl) as Hs.
    destruct (pb_into_card_ok c Ecd Et Eu Hpos) as [(cc & Ecc)|(Hk & Hbad)].
    - rewrite Ecc in *. assert (Hl : c_lits cc = map fst (p_lits c)).
      { unfold pb_into_card_constr in Ecc. rewrite Et, Eu in Ecc. destruct (find_unit_weight (p_lits c)) as [[|u]|]; try discriminate.
        destruct (p_kind c); [inversion Ecc; reflexivity|inversion Ecc; reflexivity|]. destruct (_ =? _)%nat; inversion Ecc; reflexivity. }
      destruct (default_card_exact cc next) as (cs & n & Ed & H); [rewrite Hl; exact Hb|].
      exists cs, n. split; [exact Ed|]. rewrite Hl in H. revert H. apply exact_iff. intros a. apply Hs.
    - exfalso. apply Hdiv. unfold pb_into_card_constr in Hbad. rewrite Et, Eu, Hk in Hbad.
      destruct (find_unit_weight (p_lits c)) as [[|u]|] eqn:Ef; try discriminate.
      destruct (_ =? _)%nat eqn:Em in Hbad; [discriminate|]. apply Nat.eqb_neq in Em.
      unfold pb_is_unsat in Eu. rewrite Hk in Eu. unfold pb_wf in Hwf.
      split; [exact Hk|]. split; [intros Hn; rewrite Hn in Ef; discriminate|]. split; [destruct (p_b c <? 0)%Z eqn:Eb; [discriminate|lia]|].
      exists (Datatypes.S u). split; [now apply find_unit_weight_spec|]. intros (q & Hq). apply Em. rewrite Hq. apply Nat.mod_mul. discriminate. }
  destruct (pb_encode_constr_cases c next Hwf Hal Hi Hb) as [(_ & Hu)|(cs & n & -> & H)]; [congruence|eauto].
Qed.
End Pb.

Theorem pb_encode_constr_exact {S} (E : encoder (lit * nat) S) from iok allow : bounding E from fst iok allow wsum total_weight ->
  forall c next, pb_wf c -> allow (HExtend (p_lits c)) -> (forall x, In x (p_lits c) -> iok x) -> lits_below next (map fst (p_lits c)) ->
  (pb_encode_constr E from c next = Some CUnsat /\ forall a, ~ pb_holds a c) \/
  exists cs next', pb_encode_constr E from c next = Some (COk cs next') /\ exact_clauses (map fst (p_lits c)) next next' cs (fun a => pb_holds a c).
Proof. intros B c next. apply (single_constr_exact E from iok allow). now apply bounding_single. Qed.
Theorem encode_pb_exact {S} (E : encoder (lit * nat) S) from iok allow : bounding E from fst iok allow wsum total_weight ->
  forall c next, pb_wf c -> allow (HExtend (p_lits c)) -> (forall x, In x (p_lits c) -> iok x) -> (forall l w, In (l, w) (p_lits c) -> (0 < w)%nat) ->
  ~ indivisible c -> lits_below next (map fst (p_lits c)) ->
  exists cs next', encode_pb_constraint E from c next = Some (cs, next') /\ exact_clauses (map fst (p_lits c)) next next' cs (fun a => pb_holds a c).
Proof. intros B c next. apply (single_pb_exact E from iok allow). now apply bounding_single. Qed.

(** the default pseudo-Boolean encoding, for distinct literals *)
Lemma map_add_new m l w : ~ In l (map fst m) -> map_add m l w = m ++ [(l, w)].
Proof.
  induction m as [|[k x] m IH]; cbn [map_add map fst In app]; [reflexivity|]. intros H.
  destruct (lit_eqb k l) eqn:E; [apply lit_eqb_eq in E; tauto|]. rewrite IH; tauto.
Qed.
Lemma map_adds_nodup xs m : NoDup (map fst (m ++ xs)) -> map_adds m xs = m ++ xs.
Proof.
  unfold map_adds. revert m. induction xs as [|[l w] xs IH]; intros m H; cbn [fold_left]; [now rewrite app_nil_r|].
  rewrite map_add_new.
  - rewrite IH; [now rewrite <- app_assoc|]. now rewrite <- app_assoc.
  - rewrite map_app in H. cbn [map fst] in H. apply NoDup_remove_2 in H. intros Hin. apply H. apply in_or_app. now left.
Qed.

Definition neg_ord (ord : wmap -> wmap) (m : wmap) : wmap := map negw (ord (map negw m)).
Lemma negw_invol m : map negw (map negw m) = m.
Proof. rewrite map_map. rewrite <- (map_id m) at 2. apply map_ext. intros [l w]. unfold negw. cbn [fst snd]. now rewrite neg_neg. Qed.
Lemma neg_ord_iter ord : iter_order ord -> iter_order (neg_ord ord).
Proof. intros H m. unfold neg_ord. rewrite <- (negw_invol m) at 2. apply Permutation_map. apply H. Qed.
Lemma id_iter : iter_order (fun m => m).
Proof. intros m. reflexivity. Qed.

Lemma dgte_bounding ord ord2 ord4 : iter_order ord -> iter_order ord2 -> iter_order ord4 ->
  bounding (dgte (fun m => m) ord2 (neg_ord ord) ord4) (dgte_from_iter ord) fst pos_weight distinct_inputs wsum total_weight.
Proof.
  intros H H2 H4. pose proof (double_gte _ _ _ _ id_iter H2 (neg_ord_iter _ H) H4) as (C1 & C2 & C3 & C4).
  constructor; [exact C1|exact C2|exact C3|exact C4| | |].
  - intros r. split; [exact Logic.I|split; exact Logic.I].
  - intros xs next Hd Hx. eexists. split; [reflexivity|]. cbn [distinct_inputs] in Hd.
    apply (reach_step _ _ _ _ (mkWorld [] next [] [] [] []) (en_init (dgte (fun m => m) ord2 (neg_ord ord) ord4)) (HExtend xs)).
    + apply (reach_step _ _ _ _ world0 (en_init (dgte (fun m => m) ord2 (neg_ord ord) ord4)) (HUserVars next)); [apply reach_init|split; exact Logic.I|reflexivity].
    + split; [exact Hd|]. intros x Hi. destruct (Hx x Hi) as (K1 & K2). split; [auto|]. split; [exact K2|]. intros (lo & hi & [] & _).
    + assert (Hnd : NoDup (map fst (ord xs))).
      { eapply Permutation_NoDup; [|exact Hd]. apply Permutation_map. symmetry. apply H. }
      assert (Hnn : NoDup (map fst (map negw xs))) by now apply negw_keys.
      assert (Hno : NoDup (map fst (map negw (ord xs)))) by now apply negw_keys.
      unfold step, dgte, pb_double, double, dbl_extend. cbn [en_extend en_init].
      unfold pb_inverted, inverted, inv_extend. cbn [en_extend en_init fst snd gte_enc obind].
      rewrite !(map_collect_nodup xs), (map_collect_nodup (map negw xs)), (map_collect_nodup (map negw (ord xs))) by assumption.
      unfold neg_ord. rewrite negw_invol. unfold gte_extend, gte_new, gte_from_map. cbn [gt_buf gt_root gt_maxw gt_vars gt_cls gt_db].
      rewrite !map_adds_nodup by assumption. cbn [app w_in w_next w_aux w_all w_ub w_lb]. repeat f_equal.
      rewrite !weights_total, total_negw. reflexivity.
  - intros xs next s b R.
    assert (K : forall op, match op with HUb _ | HLb (_, Incl _) | HBoth (_, Incl _) => True | _ => False end ->
      step (dgte (fun m => m) ord2 (neg_ord ord) ord4) (mkWorld xs next [] [] [] []) s op <> None).
    { intros op Ho. apply (double_gte_no_panic _ _ _ _ id_iter H2 (neg_ord_iter _ H) H4); [exact R|split; destruct op; try easy; exact Logic.I|].
      destruct op as [| | | | |[? []]| |[? []]]; try exact Logic.I; try contradiction; discriminate. }
    pose proof (K (HUb (Incl b, Incl b)) Logic.I) as K1. pose proof (K (HLb (Incl b, Incl b)) Logic.I) as K2. pose proof (K (HBoth (Incl b, Incl b)) Logic.I) as K3.
    unfold step in *. cbn [w_next] in *. repeat split; intros Hn; rewrite Hn in *; auto.
Qed.

Theorem default_pb_exact ord ord1 ord2 ord3 ord4 c next :
  iter_order ord -> iter_order ord1 -> iter_order ord2 -> iter_order ord3 -> iter_order ord4 ->
  pb_wf c -> NoDup (map fst (p_lits c)) -> (forall l w, In (l, w) (p_lits c) -> (0 < w)%nat) -> ~ indivisible c ->
  lits_below next (map fst (p_lits c)) ->
  exists cs next', default_encode_pb_constraint ord ord1 ord2 ord3 ord4 c next = Some (cs, next') /\
    exact_clauses (map fst (p_lits c)) next next' cs (fun a => pb_holds a c).
Proof.
  intros H H1 H2 H3 H4 Hwf Hnd Hpos Hdiv Hb.
  apply (encode_pb_exact (dgte (fun m => m) ord2 (neg_ord ord) ord4) (dgte_from_iter ord) pos_weight distinct_inputs (dgte_bounding ord ord2 ord4 H H2 H4)); auto.
  intros [l w] Hin. apply Hpos in Hin. unfold pos_weight. cbn [snd]. lia.
Qed.

(** the totalizer with repeated literals; literals need not be distinct *)
Lemma card_tot_bounding : bounding (pb_card totalizer) card_from_iter fst (fun _ => True) any_op wsum total_weight.
Proof.
  constructor.
  - exact (card_upper_contract totalizer (fun _ => True) any_op any_op (fun _ _ => Logic.I) tot_upper).
  - exact (card_lower_contract totalizer (fun _ => True) any_op any_op (fun _ _ => Logic.I) tot_lower).
  - apply (card_encodes totalizer (fun _ => True) any_op any_op (fun _ _ => Logic.I) (@HBoth)); [reflexivity|apply tot_encodes_ub].
  - apply (card_encodes totalizer (fun _ => True) any_op any_op (fun _ _ => Logic.I) (@HBoth)); [reflexivity|apply tot_encodes_lb].
  - intros r. split; [exact Logic.I|split; exact Logic.I].
  - intros xs next _ Hx. eexists. split; [reflexivity|].
    apply (reach_step (pb_card totalizer) _ _ _ (mkWorld [] next [] [] [] []) tot_new (HExtend xs)).
    + apply (reach_step (pb_card totalizer) _ _ _ world0 tot_new (HUserVars next)); [exact (reach_init (pb_card totalizer) fst (fun _ => True) any_op)|split; exact Logic.I|reflexivity].
    + split; [exact Logic.I|]. intros x H. destruct (Hx x H) as (H1 & H2). split; [auto|]. split; [exact H2|]. intros (lo & hi & [] & _).
    + reflexivity.
  - intros xs next s b R.
    assert (H : forall op, match op with HUb _ | HLb _ | HBoth _ => True | _ => False end -> step (pb_card totalizer) (mkWorld xs next [] [] [] []) s op <> None).
    { intros op Ho. apply (proj2 (proj2 (proj2 (card_locals totalizer (fun _ => True) any_op any_op (fun _ _ => Logic.I)))) tot_no_panic); [exact R|]. split; [exact Logic.I|]. destruct op; easy. }
    pose proof (H (HUb (Incl b, Incl b)) Logic.I) as H1. pose proof (H (HLb (Incl b, Incl b)) Logic.I) as H2. pose proof (H (HBoth (Incl b, Incl b)) Logic.I) as H3.
    unfold step in *. cbn [w_next] in *. repeat split; intros Hn; rewrite Hn in *; auto.
Qed.
