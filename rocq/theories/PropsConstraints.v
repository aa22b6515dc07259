(** * Property theorems: cardinality and pseudo-Boolean constraints (C08-C14) *)

From Coq Require Import List Bool NArith ZArith Lia.
From Verif Require Import Spec Types Constraints ConstrSpec Base ConstrProofs.
Import ListNotations.

(** ** C08: predicates of cardinality constraints *)

Theorem C08_tautology_sound : forall c, card_is_tautology c = true -> forall a, card_holds a c.
Proof. exact card_is_tautology_sound. Qed.
Print Assumptions C08_tautology_sound.
Example C08_tautology_ex : card_is_tautology (card_new_ub [pos 0; pos 1] 2) = true.
Proof. reflexivity. Qed.

(** Exactness, over distinct variables and at least one literal. *)
Theorem C08_tautology_complete_partial : forall c,
  NoDup (map lvar (c_lits c)) -> c_lits c <> [] -> (forall a, card_holds a c) -> card_is_tautology c = true.
Proof. exact card_is_tautology_complete. Qed.
Print Assumptions C08_tautology_complete_partial.
Example C08_tautology_complete_ex : forall a, card_holds a (card_new_lb [pos 0; negl 1] 0).
Proof. intros a. unfold card_holds, card_new_lb, c_kind, c_lits, c_b. apply Nat.le_0_l. Qed.

(** Without literals exactness fails: the equality of the empty sum with 0 always holds. *)
Theorem C08_tautology_complete_refuted :
  exists c, NoDup (map lvar (c_lits c)) /\ (forall a, card_holds a c) /\ card_is_tautology c = false.
Proof. exists (card_new_eq [] 0). split; [constructor|]. split; [intros a; reflexivity|reflexivity]. Qed.
Print Assumptions C08_tautology_complete_refuted.

Theorem C08_unsat_exact : forall c,
  NoDup (map lvar (c_lits c)) -> (card_is_unsat c = true <-> forall a, ~ card_holds a c).
Proof. exact card_is_unsat_spec. Qed.
Print Assumptions C08_unsat_exact.
Example C08_unsat_ex : card_is_unsat (card_new_lb [pos 0; pos 1] 3) = true /\ NoDup (map lvar [pos 0; pos 1]).
Proof. split; [reflexivity|]. repeat constructor; cbn; intuition discriminate. Qed.

Theorem C08_unsat_sound : forall c, card_is_unsat c = true -> forall a, ~ card_holds a c.
Proof. exact card_is_unsat_sound. Qed.
Print Assumptions C08_unsat_sound.

Theorem C08_positive_sound : forall c,
  card_is_positive_assignment c = true ->
  forall a, card_holds a c <-> forall l, In l (c_lits c) -> lit_true a l = true.
Proof. exact card_positive_sound. Qed.
Print Assumptions C08_positive_sound.
Example C08_positive_ex : card_is_positive_assignment (card_new_eq [pos 0; pos 1] 2) = true.
Proof. reflexivity. Qed.

Theorem C08_positive_complete : forall c,
  NoDup (map lvar (c_lits c)) -> c_lits c <> [] ->
  (forall a, card_holds a c <-> forall l, In l (c_lits c) -> lit_true a l = true) ->
  card_is_positive_assignment c = true.
Proof. exact card_positive_complete. Qed.
Print Assumptions C08_positive_complete.

Theorem C08_negative_sound : forall c,
  card_is_negative_assignment c = true ->
  forall a, card_holds a c <-> forall l, In l (c_lits c) -> lit_true a l = false.
Proof. exact card_negative_sound. Qed.
Print Assumptions C08_negative_sound.
Example C08_negative_ex : card_is_negative_assignment (card_new_ub [pos 0; pos 1] 0) = true.
Proof. reflexivity. Qed.

Theorem C08_negative_complete : forall c,
  NoDup (map lvar (c_lits c)) -> c_lits c <> [] ->
  (forall a, card_holds a c <-> forall l, In l (c_lits c) -> lit_true a l = false) ->
  card_is_negative_assignment c = true.
Proof. exact card_negative_complete. Qed.
Print Assumptions C08_negative_complete.

(** A constraint reported to be a clause converts to a clause with the same models. *)
Theorem C08_clause : forall c,
  card_is_clause c = true ->
  exists cl, card_into_clause c = Some cl /\ forall a, sat_clause a cl = true <-> card_holds a c.
Proof.
  intros c H. destruct (card_into_clause_some c H) as (cl & E). exists cl. split; [exact E|].
  now apply card_into_clause_sound.
Qed.
Print Assumptions C08_clause.
Example C08_clause_ex : card_into_clause (card_new_ub [pos 0; pos 1; negl 2] 2) = Some [negl 0; negl 1; pos 2].
Proof. reflexivity. Qed.

(** A bound whose models are those of the disjunction of its (negated) literals is reported to be a clause. *)
Theorem C08_clause_complete : forall c,
  NoDup (map lvar (c_lits c)) -> c_lits c <> [] ->
  (c_kind c = KLb /\ (forall a, card_holds a c <-> sat_clause a (c_lits c) = true)) \/
  (c_kind c = KUb /\ (forall a, card_holds a c <-> sat_clause a (map neg (c_lits c)) = true)) ->
  card_is_clause c = true.
Proof. exact card_clause_complete. Qed.
Print Assumptions C08_clause_complete.

(** For equalities the word "exactly" fails: [x = 1] is the unit clause [x] but is not reported as a clause. *)
Theorem C08_clause_complete_refuted :
  exists c, NoDup (map lvar (c_lits c)) /\ (forall a, card_holds a c <-> sat_clause a (c_lits c) = true) /\
            card_is_clause c = false.
Proof.
  exists (card_new_eq [pos 0] 1). split; [repeat constructor; intros []|]. split; [|reflexivity].
  intros a. unfold card_holds; cbn. destruct (a 0%N); cbn; split; intros H; try reflexivity; discriminate.
Qed.
Print Assumptions C08_clause_complete_refuted.

(** ** C09: inverting, splitting, extending and normalizing cardinality constraints *)

Theorem C09_invert_ub_partial : forall ls b,
  (b <= length ls)%nat ->
  exists ls' b', card_ub_invert ls b = Some (ls', b') /\ ls' = map neg ls /\
    forall a, (b' <= count_true a ls')%nat <-> (count_true a ls <= b)%nat.
Proof.
  intros ls b H. unfold card_ub_invert. rewrite (proj2 (Nat.leb_le _ _) H). do 2 eexists. split; [reflexivity|].
  split; [reflexivity|]. apply (card_ub_invert_sound ls b). unfold card_ub_invert. now rewrite (proj2 (Nat.leb_le _ _) H).
Qed.
Print Assumptions C09_invert_ub_partial.
Example C09_invert_ub_ex : card_ub_invert [pos 0; negl 1; pos 2] 1 = Some ([negl 0; pos 1; negl 2], 2%nat).
Proof. reflexivity. Qed.

Theorem C09_invert_lb_partial : forall ls b,
  (b <= length ls)%nat ->
  exists ls' b', card_lb_invert ls b = Some (ls', b') /\ ls' = map neg ls /\
    forall a, (count_true a ls' <= b')%nat <-> (b <= count_true a ls)%nat.
Proof.
  intros ls b H. unfold card_lb_invert. rewrite (proj2 (Nat.leb_le _ _) H). do 2 eexists. split; [reflexivity|].
  split; [reflexivity|]. apply (card_lb_invert_sound ls b). unfold card_lb_invert. now rewrite (proj2 (Nat.leb_le _ _) H).
Qed.
Print Assumptions C09_invert_lb_partial.
Example C09_invert_lb_ex : card_lb_invert [pos 0; negl 1; pos 2] 1 = Some ([negl 0; pos 1; negl 2], 2%nat).
Proof. reflexivity. Qed.

(** For a bound above the number of literals the subtraction underflows. *)
Theorem C09_invert_refuted : exists ls b, card_ub_invert ls b = None /\ card_lb_invert ls b = None.
Proof. exists [pos 0], 2%nat. split; reflexivity. Qed.
Print Assumptions C09_invert_refuted.

Theorem C09_split : forall ls b a,
  card_holds a (card_new_eq ls b) <->
  card_holds a (fst (card_eq_split ls b)) /\ card_holds a (snd (card_eq_split ls b)).
Proof. exact card_eq_split_sound. Qed.
Print Assumptions C09_split.

Theorem C09_add : forall c ls a,
  card_holds a (card_add c ls) <->
  rel_holds (c_kind c) (Z.of_nat (count_true a (c_lits c) + count_true a ls)) (Z.of_nat (c_b c)).
Proof.
  intros c ls a. rewrite card_add_sound. unfold rel_holds. destruct (c_kind c); lia.
Qed.
Print Assumptions C09_add.

Theorem C09_normalize : forall c a, card_holds a (card_normalize c) <-> card_holds a c.
Proof. exact card_normalize_sound. Qed.
Print Assumptions C09_normalize.

(** Unlike for clauses, normal forms of equivalent cardinality constraints need not be equal. *)
Theorem C09_normalize_canonical_refuted :
  exists c1 c2, (forall a, card_holds a c1 <-> card_holds a c2) /\ card_normalize c1 <> card_normalize c2.
Proof.
  exists (card_new_ub [pos 0] 1), (card_new_ub [pos 0] 2). split; [|discriminate].
  intros a. unfold card_holds; cbn. destruct (a 0%N); cbn; lia.
Qed.
Print Assumptions C09_normalize_canonical_refuted.

(** ** C10: evaluation of cardinality constraints *)

(** All literals assigned: the constraint is decided. *)
Theorem C10_total : forall s c a,
  (forall l, In l (c_lits c) -> lit_value s l <> TDontCare) -> completes a (pasg_of s) ->
  (card_evaluate s c = TTrue /\ card_holds a c) \/ (card_evaluate s c = TFalse /\ ~ card_holds a c).
Proof. exact card_evaluate_determined. Qed.
Print Assumptions C10_total.
Example C10_total_ex : card_evaluate [TTrue; TFalse; TTrue] (card_new_eq [pos 0; pos 1; pos 2] 2) = TTrue.
Proof. reflexivity. Qed.

(** Any partial assignment: the answer "true" can be trusted. *)
Theorem C10_true_sound : forall s c a,
  completes a (pasg_of s) -> card_evaluate s c = TTrue -> card_holds a c.
Proof. exact card_evaluate_true_sound. Qed.
Print Assumptions C10_true_sound.
Example C10_true_ex : card_evaluate [TTrue; TDontCare] (card_new_ub [pos 0; pos 1] 2) = TTrue.
Proof. reflexivity. Qed.

(** For upper bounds the answer "false" can be trusted, too. *)
Theorem C10_false_sound_partial : forall s c a,
  c_kind c = KUb -> completes a (pasg_of s) -> card_evaluate s c = TFalse -> ~ card_holds a c.
Proof. exact (fun s c a Hk Ha => proj2 (card_evaluate_ub_sound s c a Hk Ha)). Qed.
Print Assumptions C10_false_sound_partial.

(** For lower bounds it cannot: at least one of one unassigned literal is reported false. *)
Theorem C10_false_sound_refuted :
  exists s c a, card_evaluate s c = TFalse /\ completes a (pasg_of s) /\ card_holds a c.
Proof.
  exists [], (card_new_lb [pos 0] 1), (fun _ => true). split; [reflexivity|]. split; [|unfold card_holds; cbn; lia].
  intros v b H. unfold pasg_of, var_value in H. cbn in H. discriminate.
Qed.
Print Assumptions C10_false_sound_refuted.

(** ** C11: constructors of pseudo-Boolean constraints *)

Theorem C11_new : forall k ls b a,
  pb_wf (pb_new k ls b) /\ (pb_holds a (pb_new k ls b) <-> rel_holds k (zwsum a ls) b).
Proof. exact (fun k ls b a => conj (pb_new_wf k ls b) (pb_new_spec k ls b a)). Qed.
Print Assumptions C11_new.
Example C11_new_ex : pb_new KLb [(pos 0, 2%Z); (pos 1, (-3)%Z)] 0 = mkPb KLb [(pos 0, 2%nat); (negl 1, 3%nat)] 5 3.
Proof. reflexivity. Qed.

Theorem C11_add : forall c ls a,
  pb_wf c -> pb_wf (pb_add c ls) /\
  (pb_holds a (pb_add c ls) <-> rel_holds (p_kind c) (Z.of_nat (wsum a (p_lits c)) + zwsum a ls) (p_b c)).
Proof. exact pb_add_general. Qed.
Print Assumptions C11_add.

Theorem C11_new_then_add : forall k ls b ls' a,
  pb_holds a (pb_add (pb_new k ls b) ls') <-> rel_holds k (zwsum a (ls ++ ls')) b.
Proof. exact pb_add_spec. Qed.
Print Assumptions C11_new_then_add.

Theorem C11_new_unsigned : forall k ls b a,
  pb_wf (pb_new_unsigned k ls b) /\
  (pb_holds a (pb_new_unsigned k ls b) <-> rel_holds k (Z.of_nat (wsum a ls)) b).
Proof. intros k ls b a. split; [reflexivity|]. unfold pb_holds, rel_holds; cbn. destruct k; reflexivity. Qed.
Print Assumptions C11_new_unsigned.

(** ** C12: predicates of pseudo-Boolean constraints *)

Theorem C12_tautology : forall c,
  pb_wf c ->
  (pb_is_tautology c = true -> forall a, pb_holds a c) /\
  (NoDup (map (fun lw => lvar (fst lw)) (p_lits c)) -> p_kind c <> KEq ->
   (forall a, pb_holds a c) -> pb_is_tautology c = true).
Proof. exact (fun c H => conj (pb_is_tautology_sound c H) (pb_is_tautology_complete c H)). Qed.
Print Assumptions C12_tautology.
Example C12_tautology_ex : pb_is_tautology (pb_new_ub [(pos 0, 2%Z); (pos 1, (-3)%Z)] 2) = true.
Proof. reflexivity. Qed.

Theorem C12_unsat : forall c,
  pb_wf c ->
  (pb_is_unsat c = true -> forall a, ~ pb_holds a c) /\
  (NoDup (map (fun lw => lvar (fst lw)) (p_lits c)) -> p_kind c <> KEq ->
   (forall a, ~ pb_holds a c) -> pb_is_unsat c = true).
Proof. exact (fun c H => conj (pb_is_unsat_sound c H) (pb_is_unsat_complete c H)). Qed.
Print Assumptions C12_unsat.
Example C12_unsat_ex : pb_is_unsat (pb_new_lb [(pos 0, 2%Z); (pos 1, (-3)%Z)] 3) = true.
Proof. reflexivity. Qed.

(** With positive weights, assignments are recognized correctly. *)
Theorem C12_positive_partial : forall c,
  pb_wf c -> pb_is_positive_assignment c = true -> (forall l w, In (l, w) (p_lits c) -> (0 < w)%nat) ->
  forall a, pb_holds a c <-> all_true a (p_lits c).
Proof. exact pb_positive_sound. Qed.
Print Assumptions C12_positive_partial.
Example C12_positive_ex : pb_is_positive_assignment (pb_new_lb [(pos 0, 2%Z); (pos 1, 3%Z)] 4) = true.
Proof. reflexivity. Qed.

Theorem C12_negative_partial : forall c,
  pb_is_negative_assignment c = true -> (forall l w, In (l, w) (p_lits c) -> (0 < w)%nat) ->
  forall a, pb_holds a c <-> all_false a (p_lits c).
Proof. exact pb_negative_sound. Qed.
Print Assumptions C12_negative_partial.
Example C12_negative_ex : pb_is_negative_assignment (pb_new_ub [(pos 0, 2%Z); (pos 1, 3%Z)] 1) = true.
Proof. reflexivity. Qed.

(** With a weight of 0 an equality is misjudged: [0 x = 0] always holds but is reported to force [x] both ways. *)
Theorem C12_assignment_refuted :
  exists c a a', pb_wf c /\ pb_is_positive_assignment c = true /\ pb_is_negative_assignment c = true /\
    pb_holds a c /\ ~ all_true a (p_lits c) /\ pb_holds a' c /\ ~ all_false a' (p_lits c).
Proof.
  exists (pb_new_eq [(pos 0, 0%Z)] 0), (fun _ => false), (fun _ => true).
  split; [reflexivity|]. split; [reflexivity|]. split; [reflexivity|]. split; [reflexivity|].
  split; [intros H; specialize (H (pos 0) 0%nat (or_introl eq_refl)); discriminate|]. split; [reflexivity|].
  intros H; specialize (H (pos 0) 0%nat (or_introl eq_refl)); discriminate.
Qed.
Print Assumptions C12_assignment_refuted.

(** The cardinality constraint extracted from a pseudo-Boolean constraint has the same models, and the
    error values describe the constraint. *)
Theorem C12_into_card : forall c,
  pb_wf c ->
  match pb_into_card_constr c with
  | TcOk cc => forall a, card_holds a cc <-> pb_holds a c
  | TcTautology => forall a, pb_holds a c
  | TcUnsat => forall a, ~ pb_holds a c
  | TcNotACard | TcPanicDivByZero => True
  end.
Proof. exact (fun c H => pb_into_card_sound c _ H eq_refl). Qed.
Print Assumptions C12_into_card.
Example C12_into_card_ex :
  pb_into_card_constr (pb_new_lb [(pos 0, 3%Z); (pos 1, 3%Z); (pos 2, 3%Z)] 4) = TcOk (card_new_lb [pos 0; pos 1; pos 2] 2).
Proof. reflexivity. Qed.

(** With positive weights, [is_card] announces that the conversion gives a cardinality constraint (or detects
    an unsatisfiable equality). *)
Theorem C12_is_card_partial : forall c,
  pb_is_card c = true -> pb_is_tautology c = false -> pb_is_unsat c = false ->
  (forall l w, In (l, w) (p_lits c) -> (0 < w)%nat) ->
  (exists cc, pb_into_card_constr c = TcOk cc) \/ (p_kind c = KEq /\ pb_into_card_constr c = TcUnsat).
Proof. exact pb_into_card_ok. Qed.
Print Assumptions C12_is_card_partial.

(** With weights 0 the conversion divides by zero. *)
Theorem C12_is_card_refuted :
  exists c, pb_wf c /\ pb_is_card c = true /\ pb_into_card_constr c = TcPanicDivByZero.
Proof. exists (pb_new_eq [(pos 0, 0%Z)] 0). repeat split. Qed.
Print Assumptions C12_is_card_refuted.

Theorem C12_clause : forall c,
  pb_wf c -> pb_is_clause c = true ->
  exists cl, pb_into_clause c = Some cl /\ forall a, sat_clause a cl = true <-> pb_holds a c.
Proof.
  intros c Hwf H. destruct (pb_into_clause_some c H) as (cl & E). exists cl. split; [exact E|].
  now apply pb_into_clause_sound.
Qed.
Print Assumptions C12_clause.
Example C12_clause_ex : pb_into_clause (pb_new_ub [(pos 0, 3%Z); (pos 1, 4%Z)] 5) = Some [negl 0; negl 1].
Proof. reflexivity. Qed.

(** ** C13: conversions of pseudo-Boolean constraints *)

(** Normalization preserves the models and the stored weight sum, and merges equal literals. *)
Theorem C13_normalize : forall c,
  (forall a, pb_holds a (pb_normalize c) <-> pb_holds a c) /\ (pb_wf c -> pb_wf (pb_normalize c)) /\
  NoDup (map fst (p_lits (pb_normalize c))).
Proof.
  exact (fun c => conj (fun a => proj1 (pb_normalize_sound c a))
                       (conj (proj2 (pb_normalize_sound c (fun _ => false))) (pb_normalize_distinct c))).
Qed.
Print Assumptions C13_normalize.
Example C13_normalize_ex :
  p_lits (pb_normalize (pb_new_ub [(pos 1, 2%Z); (pos 0, 1%Z); (pos 1, 3%Z)] 4)) = [(pos 0, 1%nat); (pos 1, 5%nat)].
Proof. reflexivity. Qed.

Theorem C13_invert : forall c a,
  pb_wf c -> p_kind c <> KEq ->
  pb_wf (pb_invert c) /\ (pb_holds a (pb_invert c) <-> pb_holds a c) /\ p_kind (pb_invert c) <> p_kind c.
Proof. exact pb_invert_sound. Qed.
Print Assumptions C13_invert.
Example C13_invert_ex :
  pb_invert (pb_new_ub [(pos 1, 2%Z); (pos 0, 1%Z)] 2) = mkPb KLb [(negl 1, 2%nat); (negl 0, 1%nat)] 3 1.
Proof. reflexivity. Qed.

Theorem C13_split : forall c a,
  p_kind c = KEq -> (pb_holds a c <-> pb_holds a (fst (pb_eq_split c)) /\ pb_holds a (snd (pb_eq_split c))).
Proof. exact pb_eq_split_sound. Qed.
Print Assumptions C13_split.

(** Repeating literals gives an equivalent cardinality constraint if the bound is not negative. *)
Theorem C13_extend_to_card_partial : forall c a,
  (0 <= p_b c)%Z -> (card_holds a (pb_extend_to_card_constr c) <-> pb_holds a c).
Proof. exact pb_extend_to_card_sound. Qed.
Print Assumptions C13_extend_to_card_partial.
Example C13_extend_to_card_ex :
  pb_extend_to_card_constr (pb_new_ub [(pos 1, 2%Z); (pos 0, 1%Z)] 2) = card_new_ub [pos 1; pos 1; pos 0] 2.
Proof. reflexivity. Qed.

(** For negative bounds it does not: the absolute value is taken. *)
Theorem C13_extend_to_card_refuted :
  exists c a, pb_wf c /\ (forall a', ~ pb_holds a' c) /\ card_holds a (pb_extend_to_card_constr c).
Proof.
  exists (pb_new_ub [(pos 0, 1%Z)] (-2)), (fun _ => false). split; [reflexivity|]. split.
  - intros a. unfold pb_holds; cbn. destruct (a 0%N); cbn; lia.
  - unfold card_holds; vm_compute. repeat constructor.
Qed.
Print Assumptions C13_extend_to_card_refuted.

Theorem C13_from_clause : forall c a,
  (pb_holds a (pb_of_clause c) <-> sat_clause a c = true) /\ (card_holds a (card_of_clause c) <-> sat_clause a c = true).
Proof. exact (fun c a => conj (pb_of_clause_sound c a) (card_of_clause_sound c a)). Qed.
Print Assumptions C13_from_clause.

Theorem C13_from_card : forall c a, pb_holds a (pb_of_card c) <-> card_holds a c.
Proof. exact pb_of_card_sound. Qed.
Print Assumptions C13_from_card.

(** ** C14: evaluation of pseudo-Boolean constraints *)

Theorem C14_total : forall s c a,
  (p_b c <= isize_max)%Z ->
  (forall l w, In (l, w) (p_lits c) -> lit_value s l <> TDontCare) -> completes a (pasg_of s) ->
  (pb_evaluate s c = TTrue /\ pb_holds a c) \/ (pb_evaluate s c = TFalse /\ ~ pb_holds a c).
Proof. exact pb_evaluate_determined. Qed.
Print Assumptions C14_total.
Example C14_total_ex : pb_evaluate [TTrue; TFalse; TTrue] (pb_new_eq [(pos 0, 2%Z); (pos 1, 1%Z); (pos 2, 3%Z)] 5) = TTrue.
Proof. reflexivity. Qed.

(** For upper bounds (and weight sums that fit [isize]) both answers can be trusted on partial assignments. *)
Theorem C14_ub_sound_partial : forall s c a,
  p_kind c = KUb -> (Z.of_nat (sum_weights (p_lits c)) <= isize_max)%Z -> completes a (pasg_of s) ->
  (pb_evaluate s c = TTrue -> pb_holds a c) /\ (pb_evaluate s c = TFalse -> ~ pb_holds a c).
Proof. intros s c a Hk Hw. rewrite sum_weights_total in Hw. exact (pb_evaluate_ub_sound s c a Hk Hw). Qed.
Print Assumptions C14_ub_sound_partial.

Theorem C14_false_sound_refuted :
  exists s c a, pb_wf c /\ pb_evaluate s c = TFalse /\ completes a (pasg_of s) /\ pb_holds a c.
Proof.
  exists [], (pb_new_lb [(pos 0, 2%Z)] 2), (fun _ => true). split; [reflexivity|]. split; [reflexivity|].
  split; [|unfold pb_holds; cbn; lia].
  intros v b H. unfold pasg_of, var_value in H. cbn in H. discriminate.
Qed.
Print Assumptions C14_false_sound_refuted.
