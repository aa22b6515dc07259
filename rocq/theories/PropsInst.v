(** * Property theorems about CNF formulas and satisfiability instances (C38-C41, C58, C59) *)

From Coq Require Import List Bool NArith ZArith Lia Permutation.
From Verif Require Import Spec EncSpec Types Constraints ConstrSpec Base Maps VarSpec VarMan Inst InstSpec InstProofs InstReindex.
Import ListNotations.

Ltac below := intros ? Hl; cbn in Hl; decompose [or] Hl; subst; reflexivity || contradiction.

(** ** C38: operations on formulas *)

(** joining two formulas, adding a clause, appending clauses *)
Theorem C38_join : forall a f g, sat_cnf a (cnf_extend f g) = sat_cnf a f && sat_cnf a g.
Proof. intros a f g. unfold sat_cnf, cnf_extend. apply forallb_app. Qed.
Print Assumptions C38_join.
Theorem C38_add_clause : forall a f c, sat_cnf a (cnf_add_clause f c) = sat_cnf a f && sat_clause a c.
Proof. intros a f c. unfold sat_cnf, cnf_add_clause. rewrite forallb_app. cbn. now rewrite andb_true_r. Qed.
Print Assumptions C38_add_clause.

Theorem C38_normalize : forall a f, sat_cnf a (cnf_normalize f) = sat_cnf a f.
Proof. exact cnf_normalize_sat. Qed.
Print Assumptions C38_normalize.
(** no clause twice; no clause has a literal twice, is unsorted or is satisfied by all assignments *)
Theorem C38_normalize_form : forall f, NoDup (cnf_normalize f) /\
  forall c, In c (cnf_normalize f) -> NoDup c /\ sorted_by slt c /\ exists a, sat_clause a c = false.
Proof. exact cnf_normalize_form. Qed.
Print Assumptions C38_normalize_form.
(** normalizing decides whether two formulas have the same clauses, up to order, repetition and tautologies *)
Theorem C38_normalize_canonical : forall f g, cnf_normalize f = cnf_normalize g <-> clause_sets f g.
Proof. exact cnf_normalize_canonical. Qed.
Print Assumptions C38_normalize_canonical.
Example C38_normalize_ex : cnf_normalize [[pos 2; pos 1]; [pos 0; negl 0]; [pos 1; pos 2; pos 1]; [negl 0]] = [[negl 0]; [pos 1; pos 2]].
Proof. reflexivity. Qed.

Theorem C38_sanitize : forall a f, sat_cnf a (cnf_sanitize f) = sat_cnf a f.
Proof. exact cnf_sanitize_sat. Qed.
Print Assumptions C38_sanitize.
Theorem C38_sanitize_form : forall f c, In c (cnf_sanitize f) -> NoDup c /\ ~ complementary c.
Proof. exact cnf_sanitize_form. Qed.
Print Assumptions C38_sanitize_form.
Example C38_sanitize_ex : cnf_sanitize [[pos 2; pos 1]; [pos 0; negl 0]; [pos 1; pos 2; pos 1]; [negl 0]] = [[pos 2; pos 1]; [pos 1; pos 2]; [negl 0]].
Proof. reflexivity. Qed.

(** shuffling gives some permutation of the clauses *)
Theorem C38_shuffle : forall a f g, Permutation f g -> sat_cnf a f = sat_cnf a g.
Proof. exact sat_cnf_perm. Qed.
Print Assumptions C38_shuffle.

(** Evaluating under a partial assignment: a definite answer is right for all completions; there is one if all variables have a value. *)
Theorem C38_evaluate : forall s f a, completes a (pasg_of s) ->
  (cnf_evaluate s f = TTrue -> sat_cnf a f = true) /\ (cnf_evaluate s f = TFalse -> sat_cnf a f = false).
Proof. exact cnf_evaluate_sound. Qed.
Print Assumptions C38_evaluate.
Theorem C38_evaluate_total : forall s f a, (forall c l, In c f -> In l c -> lit_value s l <> TDontCare) -> completes a (pasg_of s) ->
  cnf_evaluate s f = tern_of_bool (sat_cnf a f).
Proof. exact cnf_evaluate_total. Qed.
Print Assumptions C38_evaluate_total.
Theorem C38_evaluate_cases : forall s f,
  (cnf_evaluate s f = TTrue <-> forall c, In c f -> clause_evaluate s c = TTrue) /\
  (cnf_evaluate s f = TFalse <-> exists c, In c f /\ clause_evaluate s c = TFalse).
Proof. exact cnf_evaluate_cases. Qed.
Print Assumptions C38_evaluate_cases.
Example C38_evaluate_ex : cnf_evaluate [TTrue; TDontCare; TFalse] [[pos 0; pos 1]; [negl 2]] = TTrue /\
  cnf_evaluate [TTrue; TDontCare; TFalse] [[pos 1]; [pos 2]] = TFalse /\ cnf_evaluate [TTrue; TDontCare; TFalse] [[pos 0]; [pos 1]] = TDontCare.
Proof. repeat split. Qed.

(** ** C39: converting an instance to clauses *)

(** with any encoders that encode the constraints of the instance exactly *)
Theorem C39_any_encoders : forall card_enc pb_enc i, inst_known i ->
  (forall c n, In c (i_cards i) -> lits_below n (c_lits c) -> exists cs n', card_enc c n = Some (cs, n') /\ exact_clauses (c_lits c) n n' cs (fun a => card_holds a c)) ->
  (forall p n, In p (i_pbs i) -> lits_below n (map fst (p_lits p)) -> exists cs n', pb_enc p n = Some (cs, n') /\ exact_clauses (map fst (p_lits p)) n n' cs (fun a => pb_holds a p)) ->
  exists f n, into_cnf_with_encoders card_enc pb_enc i = Some (f, n) /\ exact_clauses (inst_lits i) (i_next i) n f (fun a => inst_holds a i).
Proof. exact into_cnf_exact. Qed.
Print Assumptions C39_any_encoders.

(** With the default encoders; missing for the full statement: pseudo-Boolean constraints that repeat a literal, have a weight of zero or are an
    equality [u x1 + ... + u xn = b] with [b] not divisible by [u]. For these the statement is false, see below. *)
Theorem C39_default_partial : forall ord ord1 ord2 ord3 ord4 i,
  iter_order ord -> iter_order ord1 -> iter_order ord2 -> iter_order ord3 -> iter_order ord4 ->
  inst_known i -> (forall p, In p (i_pbs i) -> pb_plain p /\ ~ indivisible p) ->
  exists f n, into_cnf ord ord1 ord2 ord3 ord4 i = Some (f, n) /\ exact_clauses (inst_lits i) (i_next i) n f (fun a => inst_holds a i).
Proof. exact into_cnf_default. Qed.
Print Assumptions C39_default_partial.
Example C39_default_ex : exists i f, i = fold_left inst_call [AUnit (pos 5); ACard (card_new_ub [pos 0; pos 1; pos 2; pos 3] 2);
    APb (pb_new_lb [(pos 0, 1%Z); (pos 1, (-3)%Z); (pos 2, 2%Z)] 1)] (inst_new 0) /\
  inst_known i /\ (forall p, In p (i_pbs i) -> pb_plain p /\ ~ indivisible p) /\
  into_cnf (fun m => m) (fun m => m) (fun m => m) (fun m => m) (fun m => m) i = Some (f, 12%N) /\ length f = 13%nat.
Proof.
  eexists _, _. split; [reflexivity|]. split; [below|]. split; [|split; [vm_compute; reflexivity|reflexivity]].
  intros p Hp. cbn in Hp. destruct Hp as [<-|[]]. split; [split; [reflexivity|split]|].
  - cbn. repeat constructor; cbn; intuition discriminate.
  - intros l w Hl. cbn in Hl. decompose [or] Hl; try contradiction; match goal with H : (_, _) = (_, _) |- _ => injection H as <- <- end; vm_compute; lia.
  - intros (H & _). discriminate.
Qed.

Theorem C39_indivisible_refuted : forall ord ord1 ord2 ord3 ord4, exists i, inst_known i /\
  (forall p, In p (i_pbs i) -> pb_plain p) /\ into_cnf ord ord1 ord2 ord3 ord4 i = None.
Proof.
  intros. exists (inst_call (inst_new 0) (APb (pb_new_eq [(pos 0, 2%Z); (pos 1, 2%Z)] 3))). split; [below|]. split; [|reflexivity].
  intros p Hp. cbn in Hp. destruct Hp as [<-|[]]. split; [reflexivity|split].
  - cbn. repeat constructor; cbn; intuition discriminate.
  - intros l w Hl. cbn in Hl. destruct Hl as [[= <- <-]|[[= <- <-]|[]]]; vm_compute; lia.
Qed.
Print Assumptions C39_indivisible_refuted.
Theorem C39_duplicates_refuted : exists i, inst_known i /\ into_cnf (fun m => m) (fun m => m) (fun m => m) (fun m => m) (fun m => m) i = Some ([], i_next i) /\
  exists a, ~ inst_holds a i.
Proof.
  exists (inst_call (inst_new 0) (APb (pb_new_ub [(pos 0, 2%Z); (pos 0, 2%Z); (pos 1, 1%Z)] 3))). split; [below|]. split; [vm_compute; reflexivity|].
  exists (fun _ => true). intros (_ & _ & H). specialize (H _ (or_introl eq_refl)). vm_compute in H. apply H. reflexivity.
Qed.
Print Assumptions C39_duplicates_refuted.

(** ** C40: adding constraints *)

(** Every call restricts the satisfying assignments by exactly what it says; missing: extending by an instance with cardinality or pseudo-Boolean
    constraints, see below. *)
Theorem C40_adds_partial : forall a i k, keeps_all k -> (inst_holds a (inst_call i k) <-> inst_holds a i /\ call_means k a).
Proof. exact inst_call_holds. Qed.
Print Assumptions C40_adds_partial.
Theorem C40_adds_history_partial : forall a ks, Forall keeps_all ks -> forall i,
  inst_holds a (fold_left inst_call ks i) <-> inst_holds a i /\ forall k, In k ks -> call_means k a.
Proof. exact inst_calls_holds. Qed.
Print Assumptions C40_adds_history_partial.
Example C40_adds_ex : exists i, i = fold_left inst_call [ABinary (pos 0) (negl 1); ACubeLit [pos 1; pos 2] (pos 3); ACard (card_new_ub [pos 0; pos 4] 1);
    APb (pb_new_lb [(pos 0, 2%Z); (pos 5, (-3)%Z)] 1); AInst (inst_from_clauses [[pos 7]]); ACnf [[pos 6]]] (inst_new 0) /\
  i_cnf i = [[pos 0; negl 1]; [negl 1; negl 2; pos 3]; [pos 7]; [pos 6]] /\ length (i_cards i) = 1%nat /\ length (i_pbs i) = 1%nat /\ i_next i = 8%N.
Proof. eexists. split; [reflexivity|]. repeat split. Qed.

(** All variables stay known to the variable manager; missing: adding clauses through [extend], see below. *)
Theorem C40_marks_partial : forall i k, inst_known i -> marks_all k ->
  inst_known (inst_call i k) /\ lits_below (i_next (inst_call i k)) (call_lits k) /\ (i_next i <= i_next (inst_call i k))%N.
Proof. exact inst_known_call. Qed.
Print Assumptions C40_marks_partial.
Theorem C40_marks_history_partial : forall ks, Forall marks_all ks -> forall i, inst_known i ->
  inst_known (fold_left inst_call ks i) /\ (forall k, In k ks -> lits_below (i_next (fold_left inst_call ks i)) (call_lits k)) /\
  (i_next i <= i_next (fold_left inst_call ks i))%N.
Proof. exact inst_calls_known. Qed.
Print Assumptions C40_marks_history_partial.

(** A new instance is satisfied by every assignment and knows its variables. *)
Theorem C40_new : forall n, (forall a, inst_holds a (inst_new n)) /\ inst_known (inst_new n).
Proof. exact (fun n => conj (fun a => inst_new_holds a n) (inst_new_known n)). Qed.
Print Assumptions C40_new.
(** collecting constraints into an instance *)
Theorem C40_from_clauses : forall f, inst_known (inst_from_clauses f) /\ forall a, inst_holds a (inst_from_clauses f) <-> sat_cnf a f = true.
Proof.
  intros f. rewrite inst_from_clauses_calls. split.
  - apply inst_calls_known; [|apply inst_new_known]. apply Forall_forall. intros k Hk. apply in_map_iff in Hk as (c & <- & _). exact I.
  - intros a. rewrite inst_calls_holds.
    + split.
      * intros [_ H]. unfold sat_cnf. apply forallb_forall. intros c Hc. exact (H _ (in_map AClause _ _ Hc)).
      * intros H. split; [apply inst_new_holds|]. intros k Hk. apply in_map_iff in Hk as (c & <- & Hc). unfold sat_cnf in H. rewrite forallb_forall in H. now apply H.
    + apply Forall_forall. intros k Hk. apply in_map_iff in Hk as (c & <- & _). exact I.
Qed.
Print Assumptions C40_from_clauses.
Theorem C40_from_cards : forall cs, inst_known (inst_from_cards cs) /\ forall a, inst_holds a (inst_from_cards cs) <-> forall c, In c cs -> card_holds a c.
Proof.
  intros f. rewrite inst_from_cards_calls. split.
  - apply inst_calls_known; [|apply inst_new_known]. apply Forall_forall. intros k Hk. apply in_map_iff in Hk as (c & <- & _). exact I.
  - intros a. rewrite inst_calls_holds.
    + split.
      * intros [_ H] c Hc. exact (H _ (in_map ACard _ _ Hc)).
      * intros H. split; [apply inst_new_holds|]. intros k Hk. apply in_map_iff in Hk as (c & <- & Hc). now apply H.
    + apply Forall_forall. intros k Hk. apply in_map_iff in Hk as (c & <- & _). exact I.
Qed.
Print Assumptions C40_from_cards.
Theorem C40_from_pbs : forall cs, inst_known (inst_from_pbs cs) /\ forall a, inst_holds a (inst_from_pbs cs) <-> forall c, In c cs -> pb_holds a c.
Proof.
  intros f. rewrite inst_from_pbs_calls. split.
  - apply inst_calls_known; [|apply inst_new_known]. apply Forall_forall. intros k Hk. apply in_map_iff in Hk as (c & <- & _). exact I.
  - intros a. rewrite inst_calls_holds.
    + split.
      * intros [_ H] c Hc. exact (H _ (in_map APb _ _ Hc)).
      * intros H. split; [apply inst_new_holds|]. intros k Hk. apply in_map_iff in Hk as (c & <- & Hc). now apply H.
    + apply Forall_forall. intros k Hk. apply in_map_iff in Hk as (c & <- & _). exact I.
Qed.
Print Assumptions C40_from_pbs.
Theorem C40_from_cnf : forall f, inst_known (inst_from_cnf f) /\ forall a, inst_holds a (inst_from_cnf f) <-> sat_cnf a f = true.
Proof.
  intros f. split; [apply inst_from_cnf_known|]. intros a. unfold inst_holds, holds. cbn [inst_from_cnf i_cnf i_cards i_pbs]. split; [tauto|].
  intros H. split; [exact H|]. split; intros ? [].
Qed.
Print Assumptions C40_from_cnf.

(** Extending an instance by another one loses the cardinality and pseudo-Boolean constraints of the other one. *)
Theorem C40_extend_refuted : exists i j a, inst_known i /\ inst_known j /\ inst_holds a (inst_call i (AInst j)) /\ ~ inst_holds a j.
Proof.
  exists (inst_new 2), (inst_call (inst_new 0) (ACard (card_new_ub [pos 0; pos 1] 1))), (fun _ => true). split; [intros ? []|]. split; [below|]. split.
  - split; [reflexivity|]. split; intros ? [].
  - intros (_ & H & _). specialize (H _ (or_introl eq_refl)). vm_compute in H. lia.
Qed.
Print Assumptions C40_extend_refuted.
(** Extending an instance by clauses does not mark their variables as used. *)
Theorem C40_marks_refuted : exists i f, inst_known i /\ ~ inst_known (inst_call i (ACnf f)) /\ i_next (inst_call i (ACnf f)) = 0%N.
Proof.
  exists (inst_new 0), [[pos 4]]. split; [intros ? []|]. split; [|reflexivity]. intros H. specialize (H (pos 4) (or_introl eq_refl)). discriminate.
Qed.
Print Assumptions C40_marks_refuted.

(** ** C41: sanitizing *)

(** The satisfying assignments do not change, no variables are introduced, and no constraint is left that is decided, an assignment, or of
    a simpler kind. Missing: weights of zero and indivisible equalities, see below. *)
Theorem C41_sanitize_partial : forall i,
  (forall p, In p (i_pbs i) -> pb_wf p /\ (forall l w, In (l, w) (p_lits p) -> (0 < w)%nat) /\ ~ indivisible p) ->
  exists i', inst_sanitize i = Some i' /\ i_next i' = i_next i /\ (forall a, inst_holds a i' <-> inst_holds a i) /\
    (forall c, In c (i_cards i') -> card_left c) /\ (forall p, In p (i_pbs i') -> pb_left p) /\
    (forall c, In c (i_cnf i') -> NoDup c /\ ~ complementary c).
Proof. exact inst_sanitize_spec. Qed.
Print Assumptions C41_sanitize_partial.
Example C41_sanitize_ex : exists i i', i = fold_left inst_call [ABinary (pos 0) (negl 0); ACard (card_new_lb [pos 1; pos 2] 1); ACard (card_new_ub [pos 1; pos 2; pos 3] 0);
    APb (pb_new_lb [(pos 0, 2%Z); (pos 5, 3%Z)] 1); APb (pb_new_ub [(pos 0, 2%Z); (pos 5, 2%Z); (pos 6, 2%Z)] 5); APb (pb_new_ub [(pos 0, 2%Z); (pos 5, 3%Z); (pos 6, 4%Z)] 5)] (inst_new 0) /\
  inst_sanitize i = Some i' /\ i_cnf i' = [[pos 0; pos 5]; [negl 0; negl 5; negl 6]; [pos 1; pos 2]; [negl 1]; [negl 2]; [negl 3]] /\ i_cards i' = [] /\ length (i_pbs i') = 1%nat.
Proof. eexists _, _. split; [reflexivity|]. split; [vm_compute; reflexivity|]. vm_compute. repeat split. Qed.

Theorem C41_into_pbs : forall a i, inst_holds a i <-> forall p, In p (fst (into_pbs i)) -> pb_holds a p.
Proof. exact into_pbs_holds. Qed.
Print Assumptions C41_into_pbs.

(** Sanitizing [2 x + 2 y = 3] panics. *)
Theorem C41_indivisible_refuted : exists i, inst_known i /\ (forall p, In p (i_pbs i) -> pb_plain p) /\ inst_sanitize i = None.
Proof.
  exists (inst_call (inst_new 0) (APb (pb_new_eq [(pos 0, 2%Z); (pos 1, 2%Z)] 3))). split; [below|]. split; [|reflexivity].
  intros p Hp. cbn in Hp. destruct Hp as [<-|[]]. split; [reflexivity|split].
  - cbn. repeat constructor; cbn; intuition discriminate.
  - intros l w Hl. cbn in Hl. destruct Hl as [[= <- <-]|[[= <- <-]|[]]]; vm_compute; lia.
Qed.
Print Assumptions C41_indivisible_refuted.
(** Sanitizing [0 x + 1 y = 1] forces [x]. *)
Theorem C41_zero_weight_refuted : exists i i' a, inst_known i /\ inst_sanitize i = Some i' /\ inst_holds a i /\ ~ inst_holds a i'.
Proof.
  exists (inst_call (inst_new 0) (APb (pb_new_eq [(pos 0, 0%Z); (pos 1, 1%Z)] 1))). eexists. exists (fun v => (v =? 1)%N).
  split; [below|]. split; [vm_compute; reflexivity|]. split.
  - split; [reflexivity|]. split; [intros ? []|]. intros p [<-|[]]. vm_compute. auto.
  - intros (H & _). discriminate.
Qed.
Print Assumptions C41_zero_weight_refuted.
(** If the instance is found unsatisfiable, the result uses variable 0 without marking it as used. *)
Theorem C41_marks_refuted : exists i i', inst_known i /\ inst_sanitize i = Some i' /\ ~ inst_known i'.
Proof.
  exists (inst_call (inst_new 0) (ACard (card_new_lb [] 1))). eexists. split; [intros ? []|]. split; [reflexivity|].
  intros H. specialize (H (pos 0) (or_introl eq_refl)). discriminate.
Qed.
Print Assumptions C41_marks_refuted.

(** ** C58: evaluating instances *)
Theorem C58_evaluate : forall s i a, (forall p, In p (i_pbs i) -> (p_b p <= isize_max)%Z) ->
  (forall l, In l (inst_lits i) -> lit_value s l <> TDontCare) -> completes a (pasg_of s) ->
  (inst_evaluate s i = TTrue /\ inst_holds a i) \/ (inst_evaluate s i = TFalse /\ ~ inst_holds a i).
Proof. exact inst_evaluate_total. Qed.
Print Assumptions C58_evaluate.
(** also under partial assignments: true iff all constraints evaluate to true, false iff one evaluates to false *)
Theorem C58_evaluate_cases : forall s i,
  (inst_evaluate s i = TTrue <-> (forall c, In c (i_cnf i) -> clause_evaluate s c = TTrue) /\ (forall c, In c (i_cards i) -> card_evaluate s c = TTrue) /\
     (forall p, In p (i_pbs i) -> pb_evaluate s p = TTrue)) /\
  (inst_evaluate s i = TFalse <-> (exists c, In c (i_cnf i) /\ clause_evaluate s c = TFalse) \/ (exists c, In c (i_cards i) /\ card_evaluate s c = TFalse) \/
     (exists p, In p (i_pbs i) /\ pb_evaluate s p = TFalse)).
Proof. exact inst_evaluate_cases. Qed.
Print Assumptions C58_evaluate_cases.
(** the reported constraint is in the instance and not satisfied; none is reported iff the instance evaluates to true *)
Theorem C58_unsat_constraint : forall s i,
  match unsat_constraint s i with
  | None => inst_evaluate s i = TTrue
  | Some (RClause c) => In c (i_cnf i) /\ clause_evaluate s c <> TTrue
  | Some (RCard c) => In c (i_cards i) /\ card_evaluate s c <> TTrue
  | Some (RPb p) => In p (i_pbs i) /\ pb_evaluate s p <> TTrue
  end.
Proof. exact unsat_constraint_spec. Qed.
Print Assumptions C58_unsat_constraint.
Example C58_ex : exists i, i = fold_left inst_call [ABinary (pos 0) (negl 1); ACard (card_new_ub [pos 0; pos 1] 1); APb (pb_new_lb [(pos 0, 2%Z); (pos 1, 3%Z)] 3)] (inst_new 0) /\
  (forall l, In l (inst_lits i) -> lit_value [TTrue; TFalse] l <> TDontCare) /\ (forall p, In p (i_pbs i) -> (p_b p <= isize_max)%Z) /\
  inst_evaluate [TTrue; TFalse] i = TFalse /\ unsat_constraint [TTrue; TFalse] i = option_map RPb (nth_error (i_pbs i) 0).
Proof.
  eexists. split; [reflexivity|]. split; [|split].
  - intros l Hl. cbn in Hl. decompose [or] Hl; subst; try contradiction; discriminate.
  - intros p Hp. cbn in Hp. destruct Hp as [<-|[]]. vm_compute. discriminate.
  - split; reflexivity.
Qed.

(** ** C59: re-indexing instances *)

(** In every state of the re-indexing variable manager reached without [combine], the result is the instance with its variables renamed
    injectively, as the variable manager answers and consistently with all earlier answers; its variables are known to the manager. *)
Theorem C59_reindex : forall t f i L U s g cards pbs s', history reindexing re_reindex N.eqb t false f L U s ->
  inst_reindex re_reindex i s = Some (g, cards, pbs, s') ->
  exists r, renamed r i g cards pbs /\ (forall v, inst_vars i v -> re_reindex v s' = Some (r v, s') /\ (r v < m_n_used reindexing s')%N) /\
    forall v u, In (v, u) L -> inst_vars i v -> r v = u.
Proof. exact reindex_renamed. Qed.
Print Assumptions C59_reindex.
(** Such a renamed instance has the same satisfying assignments, renamed. *)
Theorem C59_models : forall r i g cards pbs, renamed r i g cards pbs ->
  (forall a, holds a g cards pbs <-> inst_holds (fun v => a (r v)) i) /\
  (forall a, inst_holds a i -> exists a', holds a' g cards pbs /\ forall v, inst_vars i v -> a' (r v) = a v).
Proof. exact renamed_models. Qed.
Print Assumptions C59_models.
(** In order, re-indexing preserves the order of the variables, uses exactly the next variables, and can be reversed. *)
Theorem C59_ordered : forall i n g cards pbs s', inst_reindex_ordered re_reindex i (re_start n) = Some (g, cards, pbs, s') ->
  exists r, renamed r i g cards pbs /\ (forall v v', inst_vars i v -> inst_vars i v' -> (v < v')%N -> (r v < r v')%N) /\
  (forall u, (n <= u < m_n_used reindexing s')%N <-> exists v, inst_vars i v /\ r v = u) /\
  (forall v, inst_vars i v -> re_reverse (r v) s' = Some v).
Proof. exact reindex_ordered_renamed. Qed.
Print Assumptions C59_ordered.
(** Re-indexing can only fail by running out of variables. *)
Theorem C59_defined : forall i s, (m_n_used reindexing s + N.of_nat (length (inst_lits i)) <= max_var_idx)%N ->
  exists g cards pbs s', inst_reindex re_reindex i s = Some (g, cards, pbs, s').
Proof. exact inst_reindex_def. Qed.
Print Assumptions C59_defined.
Example C59_ex : exists i, i = fold_left inst_call [ABinary (pos 9) (negl 4); ACard (card_new_ub [pos 7; pos 4] 1); APb (pb_new_lb [(pos 9, 2%Z); (pos 2, 3%Z)] 3)] (inst_new 0) /\
  (exists cards pbs s, inst_reindex re_reindex i (re_start 0) = Some ([[pos 0; negl 1]], cards, pbs, s) /\ map c_lits cards = [[pos 2; pos 1]] /\ re_next s = 4%N) /\
  (exists cards pbs s, inst_reindex_ordered re_reindex i (re_start 0) = Some ([[pos 3; negl 1]], cards, pbs, s) /\ map c_lits cards = [[pos 2; pos 1]] /\ re_out s = [2; 4; 7; 9]%N).
Proof. eexists. split; [reflexivity|]. split; eexists _, _, _; vm_compute; repeat split. Qed.
