(** * Property theorems: variables, literals, assignments, clauses (C01-C07) *)

From Coq Require Import List Bool NArith ZArith Permutation.
From Verif Require Import Spec Types Constraints ConstrSpec Base TypesProofs ClauseProofs.
Import ListNotations.

(** ** C01: literals faithfully pack a variable and a sign *)

(** What goes into a literal comes out of it, and the representation fits in 32 bits. *)
Theorem C01_literal_round_trip : forall idx s p,
  plit_new_with_error idx s = Some p ->
  (idx <= max_var_idx)%N /\ (p <= u32_max)%N /\ plit_vidx p = idx /\ plit_is_neg p = s /\ plit_is_pos p = negb s.
Proof. exact plit_round_trip. Qed.
Print Assumptions C01_literal_round_trip.
Example C01_literal_round_trip_ex : plit_new_with_error 5 true = Some 11%N.
Proof. reflexivity. Qed.

(** Construction with error reporting fails exactly for indices above the maximum. *)
Theorem C01_literal_domain : forall idx s, plit_new_with_error idx s = None <-> (max_var_idx < idx)%N.
Proof. exact (fun idx s => proj1 (plit_new_domain idx s)). Qed.
Print Assumptions C01_literal_domain.

(** The documented claim "panics if [idx > Var::MAX_IDX]" read as "only then" is false of [Lit::new]:
    it already panics for the maximum index itself, which [new_with_error] accepts. *)
Theorem C01_new_limit_refuted :
  exists idx s, ~ (max_var_idx < idx)%N /\ plit_new idx s = None /\ plit_new_with_error idx s <> None.
Proof. exists max_var_idx, false. split; [apply N.lt_irrefl|]. split; [reflexivity|discriminate]. Qed.
Print Assumptions C01_new_limit_refuted.

(** Below the maximum the two constructors agree. *)
Theorem C01_new_agrees : forall idx s,
  (idx < max_var_idx)%N -> exists p, plit_new idx s = Some p /\ plit_new_with_error idx s = Some p.
Proof.
  intros idx s H. unfold plit_new. rewrite (proj2 (N.ltb_lt _ _) H). eexists. split; [reflexivity|].
  apply plit_new_agrees. unfold plit_new. rewrite (proj2 (N.ltb_lt _ _) H). reflexivity.
Qed.
Print Assumptions C01_new_agrees.
Example C01_new_agrees_ex : plit_new 2147483645 true = Some 4294967291%N.
Proof. reflexivity. Qed.

(** Negation flips the sign, keeps the variable and is an involution. *)
Theorem C01_negation : forall p,
  (p <= u32_max)%N ->
  (plit_not p <= u32_max)%N /\ plit_vidx (plit_not p) = plit_vidx p /\
  plit_is_neg (plit_not p) = negb (plit_is_neg p) /\ plit_not (plit_not p) = p.
Proof. exact plit_not_spec. Qed.
Print Assumptions C01_negation.
Example C01_negation_ex : plit_not 4294967295 = 4294967294%N.
Proof. reflexivity. Qed.

(** A literal is determined by its variable and sign. *)
Theorem C01_injective : forall p q,
  (p <= u32_max)%N -> (q <= u32_max)%N -> plit_vidx p = plit_vidx q -> plit_is_neg p = plit_is_neg q -> p = q.
Proof. exact plit_eq. Qed.
Print Assumptions C01_injective.

(** The order is by variable first, the positive literal first. *)
Theorem C01_order : forall p q,
  (p <= u32_max)%N -> (q <= u32_max)%N ->
  ((p < q)%N <-> (plit_vidx p < plit_vidx q)%N \/
               (plit_vidx p = plit_vidx q /\ plit_is_neg p = false /\ plit_is_neg q = true)).
Proof. exact plit_order. Qed.
Print Assumptions C01_order.

(** Adding to a literal moves the variable, keeps the sign and is undone by subtracting. *)
Theorem C01_add_sub : forall p k q,
  plit_add p k = Some q ->
  (plit_vidx q = plit_vidx p + k)%N /\ plit_is_neg q = plit_is_neg p /\ plit_sub q k = Some p.
Proof. exact plit_add_sub. Qed.
Print Assumptions C01_add_sub.
Example C01_add_sub_ex : plit_add 5 3 = Some 11%N.
Proof. reflexivity. Qed.

(** The packed literals are exactly the record literals used by the rest of the model. *)
Theorem C01_representation :
  (forall l, (lvar l <= max_var_idx)%N ->
     plit_new_with_error (lvar l) (lneg l) = Some (pack l) /\ plit_vidx (pack l) = lvar l /\
     plit_is_neg (pack l) = lneg l /\ plit_not (pack l) = pack (neg l)) /\
  (forall p, (p <= u32_max)%N -> exists l, (lvar l <= max_var_idx)%N /\ pack l = p).
Proof.
  split; [|exact pack_surj]. intros l H. split; [|split; [|split]].
  - unfold plit_new_with_error. rewrite (proj2 (N.ltb_ge _ _) H). f_equal. rewrite represent_arith by exact H. now destruct l.
  - apply plit_vidx_pack.
  - apply plit_is_neg_pack.
  - apply plit_not_pack.
Qed.
Print Assumptions C01_representation.

(** ** C02: conversion to and from IPASIR integers *)

(** Literal to integer to literal, for every literal but those over the maximum index. *)
Theorem C02_literal_round_trip_partial : forall p,
  (p <= u32_max)%N -> (plit_vidx p < max_var_idx)%N ->
  exists z, plit_to_ipasir p = Some z /\ plit_to_ipasir_with_error p = Some z /\ z <> 0%Z /\
            (i32_min <= z <= i32_max)%Z /\ plit_from_ipasir z = Some p.
Proof. exact plit_ipasir_lit_round. Qed.
Print Assumptions C02_literal_round_trip_partial.
Example C02_literal_round_trip_ex : plit_to_ipasir 11 = Some (-6)%Z /\ plit_from_ipasir (-6) = Some 11%N.
Proof. split; reflexivity. Qed.

(** Integer to literal to integer, for every 32-bit integer but 0 and the minimum. *)
Theorem C02_integer_round_trip_partial : forall z,
  (i32_min < z <= i32_max)%Z -> z <> 0%Z ->
  exists p, plit_from_ipasir z = Some p /\ (p <= u32_max)%N /\ plit_to_ipasir p = Some z.
Proof. exact plit_ipasir_int_round. Qed.
Print Assumptions C02_integer_round_trip_partial.

Theorem C02_zero_rejected : plit_from_ipasir 0 = None.
Proof. reflexivity. Qed.
Print Assumptions C02_zero_rejected.

(** The full statement is false: the minimum integer is accepted but the literal cannot be converted back. *)
Theorem C02_round_trip_refuted :
  exists z p, (i32_min <= z <= i32_max)%Z /\ plit_from_ipasir z = Some p /\ plit_to_ipasir p = None.
Proof. exists i32_min, 4294967295%N. split; [split; discriminate|]. split; reflexivity. Qed.
Print Assumptions C02_round_trip_refuted.

(** The same statements about the record literals used for files and solver output. *)
Theorem C02_records : forall l z,
  (to_ipasir l = Some z -> from_ipasir z = Some l) /\
  ((i32_min < z <= i32_max)%Z -> from_ipasir z = Some l -> to_ipasir l = Some z).
Proof. exact (fun l z => conj (to_from_ipasir l z) (from_to_ipasir z l)). Qed.
Print Assumptions C02_records.
Example C02_records_ex : to_ipasir (negl 6) = Some (-7)%Z.
Proof. reflexivity. Qed.

(** ** C03: assignments remember exactly what was assigned *)

Theorem C03_assign_var : forall s v t,
  exists s', assign_var s v t = Some s' /\
    (forall u, var_value s' u = if (u =? v)%N then t else var_value s u) /\
    length s' = Nat.max (length s) (vidx v + 1).
Proof. exact assign_var_spec. Qed.
Print Assumptions C03_assign_var.

Theorem C03_assign_lit : forall s l,
  exists s', assign_lit s l = Some s' /\
    (forall u, var_value s' u = if (u =? lvar l)%N then tern_of_bool (negb (lneg l)) else var_value s u) /\
    lit_value s' l = TTrue /\ lit_value s' (neg l) = TFalse.
Proof. exact assign_lit_spec. Qed.
Print Assumptions C03_assign_lit.
Example C03_assign_lit_ex : assign_lit [TTrue] (negl 2) = Some [TTrue; TDontCare; TFalse].
Proof. reflexivity. Qed.

(** Collecting (or extending by) literals: each variable has the value of the last literal over it. *)
Theorem C03_assign_lits : forall ls s,
  exists s', assign_lits s ls = Some s' /\ forall v, var_value s' v = last_value v ls (var_value s v).
Proof. exact assign_lits_spec. Qed.
Print Assumptions C03_assign_lits.
Example C03_assign_lits_ex : assignment_from_lits [pos 0; negl 2; negl 0] = Some [TFalse; TDontCare; TFalse].
Proof. reflexivity. Qed.

Theorem C03_truncate : forall s m v,
  var_value (truncate s m) v = if (v <=? m)%N then var_value s v else TDontCare.
Proof. exact truncate_spec. Qed.
Print Assumptions C03_truncate.

Theorem C03_replace_dont_care : forall s d v,
  ((vidx v < length s)%nat -> var_value (replace_dont_care s d) v = tern_of_bool (to_bool_with_def (var_value s v) d)) /\
  ((length s <= vidx v)%nat -> var_value (replace_dont_care s d) v = TDontCare).
Proof. exact (fun s d v => conj (replace_dont_care_spec s d v) (replace_dont_care_out s d v)). Qed.
Print Assumptions C03_replace_dont_care.
Example C03_replace_dont_care_ex : replace_dont_care [TDontCare; TFalse] true = [TTrue; TFalse].
Proof. reflexivity. Qed.

(** Consuming iteration yields exactly the literals that hold, in increasing variable order. *)
Theorem C03_into_iter : forall s,
  (N.of_nat (length s) <= max_var_idx + 1)%N ->
  exists r, assignment_into_iter s = Some r /\
    (forall l, In l r <-> lit_value s l = TTrue) /\
    (forall j k, (j < k)%nat -> (k < length r)%nat -> (lvar (nth j r (pos 0)) < lvar (nth k r (pos 0)))%N).
Proof. exact into_iter_spec. Qed.
Print Assumptions C03_into_iter.
Example C03_into_iter_ex : assignment_into_iter [TTrue; TDontCare; TFalse] = Some [pos 0; negl 2].
Proof. reflexivity. Qed.

(** Borrowing iteration gives the same literals unless the variable of maximum index is assigned. *)
Theorem C03_iter_partial : forall s,
  (N.of_nat (length s) <= max_var_idx)%N -> assignment_iter s = assignment_into_iter s.
Proof. exact (fun s H => iter_from_agrees s 0 H). Qed.
Print Assumptions C03_iter_partial.
Example C03_iter_ex : assignment_iter [TTrue; TDontCare; TFalse] = Some [pos 0; negl 2].
Proof. reflexivity. Qed.

(** From there on it panics: a suffix of an assignment in which index [MAX_IDX] is assigned. *)
Theorem C03_iter_refuted :
  exists i s, (i + N.of_nat (length s) <= max_var_idx + 1)%N /\
    assignment_iter_from i s = None /\ assignment_into_iter_from i s <> None.
Proof. exists max_var_idx, [TTrue]. split; [discriminate|]. split; [reflexivity|discriminate]. Qed.
Print Assumptions C03_iter_refuted.

(** ** C04: clause normalization *)

(** Nothing is returned exactly for clauses true under every assignment. *)
Theorem C04_normalize_tautology : forall c,
  (clause_normalize c = None <-> forall a, sat_clause a c = true) /\
  (clause_normalize c = None <-> complementary c).
Proof.
  intros c. split; [|apply clause_normalize_none]. rewrite taut_iff_complementary. apply clause_normalize_none.
Qed.
Print Assumptions C04_normalize_tautology.
Example C04_normalize_tautology_ex : clause_normalize [pos 3; negl 1; negl 3] = None.
Proof. reflexivity. Qed.

(** Otherwise the result is equivalent, sorted, duplicate free, and over the same literals. *)
Theorem C04_normalize_sound : forall c c',
  clause_normalize c = Some c' ->
  equiv_clause c' c /\ NoDup c' /\ (forall l, In l c' <-> In l c) /\ sorted_by slt c'.
Proof. exact clause_normalize_sound. Qed.
Print Assumptions C04_normalize_sound.
Example C04_normalize_sound_ex : clause_normalize [pos 3; negl 1; pos 3] = Some [negl 1; pos 3].
Proof. reflexivity. Qed.

(** Normal forms coincide exactly for logically equivalent clauses. *)
Theorem C04_normalize_canonical : forall c1 c2 n1 n2,
  clause_normalize c1 = Some n1 -> clause_normalize c2 = Some n2 -> (n1 = n2 <-> equiv_clause c1 c2).
Proof. exact clause_normalize_canonical. Qed.
Print Assumptions C04_normalize_canonical.

(** [is_tautology] of clauses decides complementary literals. *)
Theorem C04_is_tautology : forall c, clause_is_tautology c = true <-> forall a, sat_clause a c = true.
Proof. intros c. rewrite taut_iff_complementary. apply is_tautology_spec. Qed.
Print Assumptions C04_is_tautology.

(** ** C05: clause sanitization *)

Theorem C05_sanitize_tautology : forall c, clause_sanitize c = None <-> exists l, In l c /\ In (neg l) c.
Proof. exact clause_sanitize_none. Qed.
Print Assumptions C05_sanitize_tautology.

(** The first occurrence of each literal is kept, in the original order, and nothing else. *)
Theorem C05_sanitize_stable : forall c c',
  clause_sanitize c = Some c' -> c' = first_occs [] c /\ NoDup c' /\ (forall l, In l c' <-> In l c) /\ equiv_clause c' c.
Proof.
  intros c c' H. apply clause_sanitize_some in H. subst c'. split; [reflexivity|]. split; [apply first_occs_NoDup|].
  assert (HIn : forall l, In l (first_occs [] c) <-> In l c) by (intros l; rewrite first_occs_In; cbn; tauto).
  split; [exact HIn|]. intros a. now apply sat_clause_ext.
Qed.
Print Assumptions C05_sanitize_stable.
Example C05_sanitize_stable_ex : clause_sanitize [pos 3; negl 1; pos 3; pos 2] = Some [pos 3; negl 1; pos 2].
Proof. reflexivity. Qed.

(** ** C06: removing a literal *)

Theorem C06_remove : forall c l,
  (In l c -> snd (clause_remove c l) = true /\ Permutation (l :: fst (clause_remove c l)) c) /\
  (~ In l c -> clause_remove c l = (c, false)).
Proof. exact clause_remove_spec. Qed.
Print Assumptions C06_remove.
Example C06_remove_ex : clause_remove [pos 0; pos 1; pos 0; pos 2] (pos 0) = ([pos 2; pos 1; pos 0], true).
Proof. reflexivity. Qed.

Theorem C06_remove_thorough : forall c l,
  fst (clause_remove_thorough c l) = filter (fun x => negb (lit_eqb x l)) c /\
  (snd (clause_remove_thorough c l) = true <-> In l c).
Proof. intros c l. rewrite clause_remove_thorough_spec. split; [reflexivity|]. apply mem_lit_In. Qed.
Print Assumptions C06_remove_thorough.
Example C06_remove_thorough_ex : clause_remove_thorough [pos 0; pos 1; pos 0; pos 2] (pos 0) = ([pos 1; pos 2], true).
Proof. reflexivity. Qed.

(** ** C07: clause evaluation under partial assignments *)

Theorem C07_true_sound : forall s c a,
  clause_evaluate s c = TTrue -> completes a (pasg_of s) -> sat_clause a c = true.
Proof. exact eval_true_sound. Qed.
Print Assumptions C07_true_sound.
Example C07_true_ex : clause_evaluate [TDontCare; TTrue] [pos 0; pos 1] = TTrue.
Proof. reflexivity. Qed.

Theorem C07_false_sound : forall s c a,
  clause_evaluate s c = TFalse -> completes a (pasg_of s) -> sat_clause a c = false.
Proof. exact eval_false_sound. Qed.
Print Assumptions C07_false_sound.

(** Don't care: some completion satisfies the clause, and some falsifies it unless it contains complementary literals. *)
Theorem C07_dont_care_exact : forall s c,
  clause_evaluate s c = TDontCare ->
  (exists a, completes a (pasg_of s) /\ sat_clause a c = true) /\
  (~ complementary c -> exists a, completes a (pasg_of s) /\ sat_clause a c = false).
Proof. exact (fun s c H => conj (eval_dont_care_true s c H) (eval_dont_care_false s c H)). Qed.
Print Assumptions C07_dont_care_exact.
Example C07_dont_care_ex : clause_evaluate [TDontCare; TFalse] [pos 0; pos 1] = TDontCare.
Proof. reflexivity. Qed.

(** Under an assignment of all its variables the clause is decided. *)
Theorem C07_total : forall s c a,
  (forall l, In l c -> lit_value s l <> TDontCare) -> completes a (pasg_of s) ->
  clause_evaluate s c = tern_of_bool (sat_clause a c).
Proof.
  intros s c a H Ha. pose proof (clause_evaluate_cases s c) as Hc. destruct (clause_evaluate s c) eqn:E.
  - rewrite (eval_true_sound s c a E Ha). reflexivity.
  - rewrite (eval_false_sound s c a E Ha). reflexivity.
  - destruct Hc as [(l & Hl & Hv) _]. exfalso. exact (H l Hl Hv).
Qed.
Print Assumptions C07_total.
Example C07_total_ex : clause_evaluate [TFalse; TTrue] [pos 0; negl 1] = TFalse.
Proof. reflexivity. Qed.
