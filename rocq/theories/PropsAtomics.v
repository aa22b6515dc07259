(** * Property theorems: implication helpers (C15, C16) *)

From Coq Require Import List Bool NArith ZArith Lia.
From Verif Require Import Spec Types Constraints ConstrSpec Base ConstrProofs Atomics AtomicsProofs.
Import ListNotations.

(** ** C15: implications between literals, clauses and cubes *)

Theorem C15_lit_impl_lit : forall a x y,
  sat_clause a (lit_impl_lit x y) = true <-> (lit_true a x = true -> lit_true a y = true).
Proof. intros a x y. rewrite lit_impl_lit_sat. destruct (lit_true a x), (lit_true a y); cbn; intuition discriminate. Qed.
Print Assumptions C15_lit_impl_lit.
Example C15_lit_impl_lit_ex :
  sat_clause (fun _ => true) (lit_impl_lit (pos 0) (negl 1)) = false /\
  sat_clause (fun _ => true) (lit_impl_lit (negl 0) (negl 1)) = true.
Proof. split; reflexivity. Qed.

Theorem C15_lit_impl_clause : forall a x c,
  sat_clause a (lit_impl_clause x c) = true <-> (lit_true a x = true -> sat_clause a c = true).
Proof. intros a x c. rewrite lit_impl_clause_sat. destruct (lit_true a x), (sat_clause a c); cbn; intuition discriminate. Qed.
Print Assumptions C15_lit_impl_clause.
Example C15_lit_impl_clause_ex :
  sat_clause (fun _ => true) (lit_impl_clause (pos 0) [negl 1; negl 2]) = false /\
  sat_clause (fun _ => true) (lit_impl_clause (pos 0) [negl 1; pos 2]) = true.
Proof. split; reflexivity. Qed.

Theorem C15_lit_impl_cube : forall a x c,
  sat_cnf a (lit_impl_cube x c) = true <-> (lit_true a x = true -> sat_cube a c = true).
Proof. intros a x c. rewrite lit_impl_cube_sat. destruct (lit_true a x), (sat_cube a c); cbn; intuition discriminate. Qed.
Print Assumptions C15_lit_impl_cube.
Example C15_lit_impl_cube_ex :
  sat_cnf (fun _ => true) (lit_impl_cube (pos 0) [pos 1; negl 2]) = false /\
  sat_cnf (fun _ => true) (lit_impl_cube (pos 0) [pos 1; pos 2]) = true.
Proof. split; reflexivity. Qed.

Theorem C15_cube_impl_lit : forall a c y,
  sat_clause a (cube_impl_lit c y) = true <-> (sat_cube a c = true -> lit_true a y = true).
Proof. intros a c y. rewrite cube_impl_lit_sat. destruct (sat_cube a c), (lit_true a y); cbn; intuition discriminate. Qed.
Print Assumptions C15_cube_impl_lit.
Example C15_cube_impl_lit_ex :
  sat_clause (fun _ => true) (cube_impl_lit [pos 0; pos 1] (negl 2)) = false /\
  sat_clause (fun _ => true) (cube_impl_lit [pos 0; negl 1] (negl 2)) = true.
Proof. split; reflexivity. Qed.

Theorem C15_cube_impl_clause : forall a c d,
  sat_clause a (cube_impl_clause c d) = true <-> (sat_cube a c = true -> sat_clause a d = true).
Proof. intros a c d. rewrite cube_impl_clause_sat. destruct (sat_cube a c), (sat_clause a d); cbn; intuition discriminate. Qed.
Print Assumptions C15_cube_impl_clause.
Example C15_cube_impl_clause_ex :
  sat_clause (fun _ => true) (cube_impl_clause [pos 0; pos 1] [negl 2; negl 3]) = false /\
  sat_clause (fun _ => true) (cube_impl_clause [pos 0; negl 1] []) = true.
Proof. split; reflexivity. Qed.

Theorem C15_cube_impl_cube : forall a c d,
  sat_cnf a (cube_impl_cube c d) = true <-> (sat_cube a c = true -> sat_cube a d = true).
Proof. intros a c d. rewrite cube_impl_cube_sat. destruct (sat_cube a c), (sat_cube a d); cbn; intuition discriminate. Qed.
Print Assumptions C15_cube_impl_cube.
Example C15_cube_impl_cube_ex :
  sat_cnf (fun _ => true) (cube_impl_cube [pos 0] [pos 1; negl 2]) = false /\
  sat_cnf (fun _ => true) (cube_impl_cube [pos 0; negl 3] [pos 1; negl 2]) = true.
Proof. split; reflexivity. Qed.

Theorem C15_clause_impl_lit : forall a c y,
  sat_cnf a (clause_impl_lit c y) = true <-> (sat_clause a c = true -> lit_true a y = true).
Proof. intros a c y. rewrite clause_impl_lit_sat. destruct (sat_clause a c), (lit_true a y); cbn; intuition discriminate. Qed.
Print Assumptions C15_clause_impl_lit.
Example C15_clause_impl_lit_ex :
  sat_cnf (fun _ => true) (clause_impl_lit [negl 0; pos 1] (negl 2)) = false /\
  sat_cnf (fun _ => true) (clause_impl_lit [negl 0; negl 1] (negl 2)) = true.
Proof. split; reflexivity. Qed.

Theorem C15_clause_impl_clause : forall a c d,
  sat_cnf a (clause_impl_clause c d) = true <-> (sat_clause a c = true -> sat_clause a d = true).
Proof. intros a c d. rewrite clause_impl_clause_sat. destruct (sat_clause a c), (sat_clause a d); cbn; intuition discriminate. Qed.
Print Assumptions C15_clause_impl_clause.
Example C15_clause_impl_clause_ex :
  sat_cnf (fun _ => true) (clause_impl_clause [negl 0; pos 1] [negl 2; negl 3]) = false /\
  sat_cnf (fun _ => true) (clause_impl_clause [negl 0; pos 1] [negl 2; pos 3]) = true.
Proof. split; reflexivity. Qed.

Theorem C15_clause_impl_cube : forall a c d,
  sat_cnf a (clause_impl_cube c d) = true <-> (sat_clause a c = true -> sat_cube a d = true).
Proof. intros a c d. rewrite clause_impl_cube_sat. destruct (sat_clause a c), (sat_cube a d); cbn; intuition discriminate. Qed.
Print Assumptions C15_clause_impl_cube.
Example C15_clause_impl_cube_ex :
  sat_cnf (fun _ => true) (clause_impl_cube [negl 0; pos 1] [pos 2; negl 3]) = false /\
  sat_cnf (fun _ => true) (clause_impl_cube [negl 0; negl 1] [pos 2; negl 3]) = true.
Proof. split; reflexivity. Qed.

(** ** C16: implications between a literal and a constraint *)

Theorem C16_lit_impl_card : forall l c r a,
  lit_impl_card l c = Some r -> (pb_holds a r <-> (lit_true a l = true -> card_holds a c)).
Proof. exact lit_impl_card_sound. Qed.
Print Assumptions C16_lit_impl_card.
Example C16_lit_impl_card_ex :
  lit_impl_card (pos 5) (card_new_ub [pos 0; pos 1; pos 2] 1) =
  Some (pb_new_unsigned KUb [(pos 0, 1); (pos 1, 1); (pos 2, 1); (pos 5, 3)]%nat 4).
Proof. reflexivity. Qed.

(** The helper panics exactly for the documented constraints: unsatisfiable ones and equalities. *)
Theorem C16_lit_impl_card_defined : forall l c,
  (lit_impl_card l c = None <-> card_is_unsat c = true \/ c_kind c = KEq).
Proof. exact lit_impl_card_total. Qed.
Print Assumptions C16_lit_impl_card_defined.

(** Missing from the full statement: upper bounds that always hold. *)
Theorem C16_card_impl_lit_partial : forall c l r a,
  card_is_tautology c = false \/ c_kind c = KLb ->
  card_impl_lit c l = Some r -> (pb_holds a r <-> (card_holds a c -> lit_true a l = true)).
Proof. exact card_impl_lit_sound. Qed.
Print Assumptions C16_card_impl_lit_partial.
Example C16_card_impl_lit_ex :
  exists r, card_impl_lit (card_new_lb [pos 0; pos 1; pos 2] 2) (pos 5) = Some r /\
  ~ pb_holds (fun v => (v <? 2)%N) r /\ pb_holds (fun v => (v <? 1)%N) r.
Proof. eexists. split; [reflexivity|]. vm_compute. split; [intros H; apply H; reflexivity|intros H; discriminate H]. Qed.

(** For an upper bound that always holds the helper constrains more than the implied literal. *)
Theorem C16_card_impl_lit_refuted : exists c l r a,
  card_impl_lit c l = Some r /\ (card_holds a c -> lit_true a l = true) /\ ~ pb_holds a r.
Proof.
  exists (card_new_ub [pos 0] 1), (pos 1). eexists. exists (fun v => (v =? 1)%N).
  split; [reflexivity|]. split; [reflexivity|]. vm_compute. intros H. apply H. reflexivity.
Qed.
Print Assumptions C16_card_impl_lit_refuted.

(** ... and for larger bounds its arithmetic underflows. *)
Theorem C16_card_impl_lit_panics_refuted : exists c l,
  card_is_unsat c = false /\ c_kind c <> KEq /\ card_impl_lit c l = None.
Proof. exists (card_new_ub [pos 0] 2), (pos 1). repeat split. discriminate. Qed.
Print Assumptions C16_card_impl_lit_panics_refuted.

Theorem C16_lit_impl_pb : forall l c r a,
  pb_wf c -> lit_impl_pb l c = Some r ->
  pb_wf r /\ (pb_holds a r <-> (lit_true a l = true -> pb_holds a c)).
Proof. exact lit_impl_pb_sound. Qed.
Print Assumptions C16_lit_impl_pb.
Example C16_lit_impl_pb_ex :
  let c := pb_new_ub [(pos 0, 3); (negl 1, -2); (pos 2, 1)]%Z 1 in
  pb_wf c /\ exists r, lit_impl_pb (pos 5) c = Some r /\ pb_holds (fun _ => false) r /\ ~ pb_holds (fun v => negb (v =? 1)%N || (v =? 1)%N) r.
Proof.
  split; [reflexivity|]. eexists. split; [reflexivity|]. vm_compute.
  split; [intros H; discriminate H|intros H; apply H; reflexivity].
Qed.

(** Missing from the full statement: upper bounds that always hold. *)
Theorem C16_pb_impl_lit_partial : forall c l r a,
  pb_wf c -> pb_is_tautology c = false \/ p_kind c = KLb ->
  pb_impl_lit c l = Some r ->
  pb_wf r /\ (pb_holds a r <-> (pb_holds a c -> lit_true a l = true)).
Proof. exact pb_impl_lit_sound. Qed.
Print Assumptions C16_pb_impl_lit_partial.
Example C16_pb_impl_lit_ex :
  let c := pb_new_ub [(pos 0, 3); (pos 2, 1)]%Z 2 in
  pb_wf c /\ pb_is_tautology c = false /\
  exists r, pb_impl_lit c (pos 5) = Some r /\ pb_holds (fun v => (v =? 0)%N) r /\ ~ pb_holds (fun _ => false) r.
Proof.
  split; [reflexivity|]. split; [reflexivity|]. eexists. split; [reflexivity|]. vm_compute.
  split; [intros H; discriminate H|intros H; apply H; reflexivity].
Qed.

Theorem C16_pb_impl_lit_refuted : exists c l r a,
  pb_wf c /\ pb_impl_lit c l = Some r /\ (pb_holds a c -> lit_true a l = true) /\ ~ pb_holds a r.
Proof.
  exists (pb_new_ub [(pos 0, 1%Z)] 1), (pos 1). eexists. exists (fun v => (v =? 1)%N).
  split; [reflexivity|]. split; [reflexivity|]. split; [reflexivity|]. vm_compute. intros H. apply H. reflexivity.
Qed.
Print Assumptions C16_pb_impl_lit_refuted.
