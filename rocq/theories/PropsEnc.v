(** * Properties C28 and C34: encoding a constraint to clauses *)

From Coq Require Import List Bool NArith ZArith Lia Arith Permutation.
From Verif Require Import Spec BoundSpec EncSpec Types Constraints ConstrSpec Maps NodeDb TotDb Totalizer Gte Base
  Simulators SimInst ConstrEnc ConstrEncProofs.
Import ListNotations.

(** ** C28: encoding cardinality constraints *)

(** Encoding any cardinality constraint with the default encoding never fails and gives clauses satisfied, after choosing
    values for the variables taken during the call, exactly by the assignments that satisfy the constraint. *)
Theorem C28_default : forall c next, lits_below next (c_lits c) ->
  exists cs next', default_encode_cardinality_constraint c next = Some (cs, next') /\
    exact_clauses (c_lits c) next next' cs (fun a => card_holds a c).
Proof. exact default_card_exact. Qed.
Print Assumptions C28_default.

Example C28_default_ex : lits_below 4 [pos 0; negl 1; pos 2; pos 3] /\ exists cs,
  default_encode_cardinality_constraint (card_new_eq [pos 0; negl 1; pos 2; pos 3] 2) 4 = Some (cs, 10%N) /\ length cs = 18%nat.
Proof.
  split.
  - intros l Hl. cbn in Hl. decompose [or] Hl; subst; reflexivity || contradiction.
  - eexists. split; [vm_compute; reflexivity|reflexivity].
Qed.

(** The same for every encoding that meets the contract of upper and lower bounding. *)
Theorem C28_any_encoding : forall S (E : encoder lit S) from,
  bounding E from (fun l => l) any_lit any_op count_true (@length lit) ->
  forall c next, lits_below next (c_lits c) ->
  exists cs next', encode_cardinality_constraint E from c next = Some (cs, next') /\
    exact_clauses (c_lits c) next next' cs (fun a => card_holds a c).
Proof. exact @encode_card_exact. Qed.
Print Assumptions C28_any_encoding.

(** [encode_constr] without the special cases answers "unsatisfiable" only for constraints without solutions. *)
Theorem C28_encode_constr : forall S (E : encoder lit S) from,
  bounding E from (fun l => l) any_lit any_op count_true (@length lit) ->
  forall c next, lits_below next (c_lits c) ->
  (card_encode_constr E from c next = Some CUnsat /\ forall a, ~ card_holds a c) \/
  exists cs next', card_encode_constr E from c next = Some (COk cs next') /\
    exact_clauses (c_lits c) next next' cs (fun a => card_holds a c).
Proof. exact @card_encode_constr_exact. Qed.
Print Assumptions C28_encode_constr.

(** the hypothesis of both is met by the totalizer *)
Example C28_any_encoding_ex : bounding totalizer tot_from_iter (fun l => l) any_lit any_op count_true (@length lit).
Proof. exact tot_bounding. Qed.
Example C28_encode_constr_ex : card_encode_constr totalizer tot_from_iter (card_new_lb [pos 0; pos 0] 3) 1 = Some CUnsat.
Proof. reflexivity. Qed.

(** ** C34: encoding pseudo-Boolean constraints *)

(** For distinct literals with positive weights, encoding with the default encoding never fails and is exact, for every
    iteration order of the hash maps involved, unless the constraint is an equality whose bound is not a multiple of
    the common weight. *)
Theorem C34_default_partial : forall ord ord1 ord2 ord3 ord4,
  iter_order ord -> iter_order ord1 -> iter_order ord2 -> iter_order ord3 -> iter_order ord4 ->
  forall c next, pb_wf c -> NoDup (map fst (p_lits c)) -> (forall l w, In (l, w) (p_lits c) -> (0 < w)%nat) -> ~ indivisible c ->
  lits_below next (map fst (p_lits c)) ->
  exists cs next', default_encode_pb_constraint ord ord1 ord2 ord3 ord4 c next = Some (cs, next') /\
    exact_clauses (map fst (p_lits c)) next next' cs (fun a => pb_holds a c).
Proof. intros ord ord1 ord2 ord3 ord4 H H1 H2 H3 H4 c next. now apply default_pb_exact. Qed.
Print Assumptions C34_default_partial.

Example C34_default_ex : exists c cs, c = pb_new_eq [(pos 0, 1%Z); (pos 1, (-3)%Z); (pos 2, 2%Z)] 1 /\ pb_wf c /\
  NoDup (map fst (p_lits c)) /\ (forall l w, In (l, w) (p_lits c) -> (0 < w)%nat) /\ ~ indivisible c /\ lits_below 3 (map fst (p_lits c)) /\
  default_encode_pb_constraint (@rev _) (fun m => m) (@rev _) (@rev _) (fun m => m) c 3 = Some (cs, 7%N).
Proof.
  eexists _, _. split; [reflexivity|]. split; [reflexivity|]. split; [|split; [|split; [|split]]].
  - cbn. repeat constructor; cbn; intuition discriminate.
  - intros l w H. cbn in H. destruct H as [[= <- <-]|[[= <- <-]|[[= <- <-]|[]]]]; vm_compute; lia.
  - intros (_ & _ & _ & u & Hu & _). cbn in Hu. pose proof (Hu _ _ (or_introl eq_refl)). pose proof (Hu _ _ (or_intror (or_introl eq_refl))). vm_compute in *. congruence.
  - intros l Hl. cbn in Hl. decompose [or] Hl; subst; reflexivity || contradiction.
  - vm_compute. reflexivity.
Qed.

(** Every encoding that meets the contract of upper and lower bounding can be used instead. *)
Theorem C34_any_encoding_partial : forall S (E : encoder (lit * nat) S) from iok allow,
  bounding E from fst iok allow wsum total_weight ->
  forall c next, pb_wf c -> allow (HExtend (p_lits c)) -> (forall x, In x (p_lits c) -> iok x) ->
  (forall l w, In (l, w) (p_lits c) -> (0 < w)%nat) -> ~ indivisible c -> lits_below next (map fst (p_lits c)) ->
  exists cs next', encode_pb_constraint E from c next = Some (cs, next') /\
    exact_clauses (map fst (p_lits c)) next next' cs (fun a => pb_holds a c).
Proof. exact @encode_pb_exact. Qed.
Print Assumptions C34_any_encoding_partial.

(** [encode_constr] without the special cases is exact without the restriction to divisible bounds. *)
Theorem C34_encode_constr_partial : forall S (E : encoder (lit * nat) S) from iok allow,
  bounding E from fst iok allow wsum total_weight ->
  forall c next, pb_wf c -> allow (HExtend (p_lits c)) -> (forall x, In x (p_lits c) -> iok x) -> lits_below next (map fst (p_lits c)) ->
  (pb_encode_constr E from c next = Some CUnsat /\ forall a, ~ pb_holds a c) \/
  exists cs next', pb_encode_constr E from c next = Some (COk cs next') /\
    exact_clauses (map fst (p_lits c)) next next' cs (fun a => pb_holds a c).
Proof. exact @pb_encode_constr_exact. Qed.
Print Assumptions C34_encode_constr_partial.

(** the hypothesis is met by the totalizer adding literals repeatedly, even for repeated literals and weights 0; so with
    it constraints with repeated literals are encoded exactly *)
Example C34_any_encoding_ex : bounding (pb_card totalizer) card_from_iter fst (fun _ => True) any_op wsum total_weight.
Proof. exact card_tot_bounding. Qed.

Theorem C34_card_totalizer_partial : forall c next, pb_wf c ->
  (forall l w, In (l, w) (p_lits c) -> (0 < w)%nat) -> ~ indivisible c -> lits_below next (map fst (p_lits c)) ->
  exists cs next', encode_pb_constraint (pb_card totalizer) card_from_iter c next = Some (cs, next') /\
    exact_clauses (map fst (p_lits c)) next next' cs (fun a => pb_holds a c).
Proof. intros c next H H1. apply (encode_pb_exact (pb_card totalizer) card_from_iter _ _ card_tot_bounding); auto. exact I. Qed.
Print Assumptions C34_card_totalizer_partial.
Example C34_card_totalizer_ex : exists cs,
  encode_pb_constraint (pb_card totalizer) card_from_iter (pb_new_ub [(pos 0, 2%Z); (pos 0, 2%Z); (pos 1, 1%Z)] 3) 2 = Some (cs, 9%N).
Proof. eexists. vm_compute. reflexivity. Qed.

(** An equality whose bound is not a multiple of the common weight runs into [unreachable!]. *)
Theorem C34_indivisible_refuted : forall ord ord1 ord2 ord3 ord4, exists c next,
  pb_wf c /\ NoDup (map fst (p_lits c)) /\ (forall l w, In (l, w) (p_lits c) -> (0 < w)%nat) /\ lits_below next (map fst (p_lits c)) /\
  default_encode_pb_constraint ord ord1 ord2 ord3 ord4 c next = None.
Proof.
  intros. exists (pb_new_eq [(pos 0, 2%Z); (pos 1, 2%Z)] 3), 2%N. split; [reflexivity|]. split; [|split; [|split]].
  - cbn. repeat constructor; cbn; intuition discriminate.
  - intros l w H. cbn in H. destruct H as [[= <- <-]|[[= <- <-]|[]]]; vm_compute; lia.
  - intros l Hl. cbn in Hl. decompose [or] Hl; subst; reflexivity || contradiction.
  - reflexivity.
Qed.
Print Assumptions C34_indivisible_refuted.

(** If a literal is repeated, all but its last weight are lost: [2 x + 2 x + y <= 3] is encoded by no clauses. *)
Theorem C34_duplicates_refuted : exists c next,
  pb_wf c /\ (forall l w, In (l, w) (p_lits c) -> (0 < w)%nat) /\ ~ indivisible c /\ lits_below next (map fst (p_lits c)) /\
  default_encode_pb_constraint (fun m => m) (fun m => m) (fun m => m) (fun m => m) (fun m => m) c next = Some ([], next) /\
  exists a, ~ pb_holds a c.
Proof.
  exists (pb_new_ub [(pos 0, 2%Z); (pos 0, 2%Z); (pos 1, 1%Z)] 3), 2%N. split; [reflexivity|]. split; [|split; [|split; [|split]]].
  - intros l w H. cbn in H. destruct H as [[= <- <-]|[[= <- <-]|[[= <- <-]|[]]]]; vm_compute; lia.
  - intros (H & _). discriminate.
  - intros l Hl. cbn in Hl. decompose [or] Hl; subst; reflexivity || contradiction.
  - vm_compute. reflexivity.
  - exists (fun _ => true). intros H. vm_compute in H. apply H. reflexivity.
Qed.
Print Assumptions C34_duplicates_refuted.

(** With a weight of 0 the clauses are too strong, or the generalized totalizer panics. *)
Theorem C34_zero_weight_refuted :
  (exists c a cs next, pb_wf c /\ NoDup (map fst (p_lits c)) /\ lits_below next (map fst (p_lits c)) /\ pb_holds a c /\
     default_encode_pb_constraint (fun m => m) (fun m => m) (fun m => m) (fun m => m) (fun m => m) c next = Some (cs, next) /\ sat_cnf a cs = false) /\
  (exists c next, pb_wf c /\ NoDup (map fst (p_lits c)) /\ lits_below next (map fst (p_lits c)) /\
     default_encode_pb_constraint (fun m => m) (fun m => m) (fun m => m) (fun m => m) (fun m => m) c next = None).
Proof.
  split.
  - exists (pb_new_eq [(pos 0, 0%Z); (pos 1, 1%Z)] 0), (fun v => (v =? 0)%N), [[negl 0]; [negl 1]], 2%N. split; [reflexivity|]. split; [|split].
    + cbn. repeat constructor; cbn; intuition discriminate.
    + intros l Hl. cbn in Hl. decompose [or] Hl; subst; reflexivity || contradiction.
    + split; [reflexivity|]. split; [vm_compute; reflexivity|reflexivity].
  - exists (pb_new_ub [(pos 0, 0%Z); (pos 1, 1%Z); (pos 2, 2%Z)] 1), 3%N. split; [reflexivity|]. split; [|split].
    + cbn. repeat constructor; cbn; intuition discriminate.
    + intros l Hl. cbn in Hl. decompose [or] Hl; subst; reflexivity || contradiction.
    + vm_compute. reflexivity.
Qed.
Print Assumptions C34_zero_weight_refuted.
