(** * Property theorems about the certified pseudo-Boolean encodings (C80) *)

From Coq Require Import List Bool NArith ZArith Arith Lia Permutation.
From Verif Require Import Spec BoundSpec Types Constraints ConstrSpec Maps NodeDb TotDb Totalizer Gte Simulators ConstrEnc CertSpec CertSound Cert CertW CertPbSpec CertPb.
From Verif Require CertWConstr.
Import ListNotations.

(** for the examples: a proof whose inputs are the given constraints *)
Definition pstate_of (cs : list raw) : pstate := mkPs (combine (seq 1 (length cs)) cs) (S (length cs)) (length cs).
Definition kinds (c : pb) : list raw :=
  match p_kind c with
  | KUb => [pb_at_most_con (p_lits c) (p_b c)]
  | KLb => [pb_at_least_con (p_lits c) (p_b c)]
  | KEq => [pb_at_least_con (p_lits c) (p_b c); pb_at_most_con (p_lits c) (p_b c)]
  end.
Definition proof_of (c : pb) : pstate := Eval cbv [pstate_of kinds] in pstate_of (kinds c).

(** what the theorems below ask of a constraint and the proof it is in *)
Definition good_constraint (c : pb) (id : nat) (next : N) (p : pstate) : Prop :=
  ps_ok p /\ (forall i d v, ps_get p i = Some d -> mentions d v -> (v < next)%N) /\ (forall l w, In (l, w) (p_lits c) -> (lvar l < next)%N) /\
  (forall l w, In (l, w) (p_lits c) -> 0 < w)%nat /\ (forall l l', In l (map fst (p_lits c)) -> In l' (map fst (p_lits c)) -> l' <> neg l) /\
  pb_wf c /\ pb_in_proof p id c.

Ltac good :=
  match goal with |- good_constraint ?c ?id ?next ?p0 =>
    let r := eval vm_compute in p0 in change p0 with r;
    let r := eval vm_compute in c in change c with r end;
  unfold good_constraint; cbn [p_lits p_kind p_b p_wsum]; split; [|split; [|split; [|split; [|split; [|split]]]]];
  [ apply (ps_okb_ok _ 10%N); vm_compute; reflexivity | apply ps_okb_ok; vm_compute; reflexivity
  | cbn; intros l w Hl; repeat destruct Hl as [[= <- <-]|Hl]; try destruct Hl; cbn; lia
  | cbn; intros l w Hl; repeat destruct Hl as [[= <- <-]|Hl]; try destruct Hl; cbn; lia
  | cbn; intros l l' Hl Hl'; repeat destruct Hl as [<-|Hl]; try destruct Hl; repeat destruct Hl' as [<-|Hl']; try destruct Hl'; discriminate
  | vm_compute; reflexivity
  | vm_compute; try split; reflexivity ].

(** Encoding a constraint that is in the proof, when it simplifies or has unit weights: the clauses and variables are those of
    the call without a proof, the steps are valid, the clauses have the identifiers returned, earlier constraints stay, nothing
    else is left in the proof. Partial: weights other than one in constraints that do not simplify; equalities with negative bounds
    (see the refutations below); complementary literals. *)
Theorem C80_simple_constraint_partial ord dord c id next p : (forall xs, Permutation (dord xs) xs) -> good_constraint c id next p ->
  (p_kind c = KEq -> 0 <= p_b c)%Z ->
  pb_is_tautology c = true \/ pb_is_unsat c = true \/ pb_is_positive_assignment c = true \/ pb_is_negative_assignment c = true \/ pb_is_clause c = true \/
    (p_lits c <> [] /\ forall l w, In (l, w) (p_lits c) -> w = 1%nat) ->
  exists o p', encode_pb_constraint_cert ord dord c id next (ps_next p) = Some o /\
    (forall o0 o1 o2 o3 o4, default_encode_pb_constraint o0 o1 o2 o3 o4 c next = Some (ko_cls o, ko_next o)) /\
    ps_run p (ko_log o) p' /\ ps_next p' = ko_pid o /\
    Forall2 (fun cl i => ps_get p' i = Some (clause_con cl)) (ko_cls o) (ko_ids o) /\
    (forall i, (i < ps_next p)%nat -> ps_get p' i = ps_get p i) /\
    (forall i d, ps_get p' i = Some d -> (i < ps_next p)%nat \/ In i (ko_ids o)) /\
    (forall v, In v (wit_vars (ko_log o)) -> (next <= v < ko_next o)%N).
Proof.
  intros Ho (Hp & Hb & Hv & Hpos & NC & Hwf & Hin) Hneg Hs.
  destruct (encode_pb_cert_simple ord dord c id next p Ho Hp Hb Hv Hpos NC Hwf Hneg Hin) as (o & p' & E & D & [F1 F2 F3 F4 F5 F6]).
  { unfold simplifies. destruct Hs as [->|[->|[->|[->|[->|Hs]]]]]; rewrite ?orb_true_r; auto. }
  exists o, p'. exact (conj E (conj D (conj F1 (conj F2 (conj F3 (conj F4 (conj F5 F6))))))).
Qed.
Definition ex_unit : pb := pb_new_unsigned KUb [(pos 0, 1); (pos 1, 1); (negl 2, 1); (pos 3, 1)]%nat 2.
Example C80_simple_applies_unit : good_constraint ex_unit 1 4%N (proof_of ex_unit) /\
  exists o, encode_pb_constraint_cert (fun m => m) (fun m => m) ex_unit 1 4%N 2 = Some o /\ length (ko_cls o) > 5 /\ length (ko_log o) > 10.
Proof. split; [good|]. eexists. split; [vm_compute; reflexivity|]. cbn. lia. Qed.
Definition ex_assign : pb := pb_new_unsigned KEq [(pos 0, 2); (pos 1, 3); (negl 2, 3)]%nat 8.
Example C80_simple_applies_assignment : good_constraint ex_assign 1 3%N (proof_of ex_assign) /\ pb_is_positive_assignment ex_assign = true /\
  exists o, encode_pb_constraint_cert (fun m => m) (fun m => m) ex_assign 1 3%N 3 = Some o /\ length (ko_cls o) = 3%nat.
Proof. split; [good|]. split; [vm_compute; reflexivity|]. eexists. split; [vm_compute; reflexivity|]. reflexivity. Qed.
Print Assumptions C80_simple_constraint_partial.

(** Encoding a constraint with at least two different weights that does not simplify, by way of the generalized totalizer. The clauses
    and variables are those of the call without a proof; for an equality they are those of the two methods for lower and upper bounds,
    one after the other. Partial: no literal may be heavier than the bound of an upper bound, or than what a lower bound leaves of the
    sum of the weights (see the refutations below); complementary or repeated literals. *)
Theorem C80_weighted_constraint_partial ord dord c id next p : iter_order ord -> (forall xs, Permutation (dord xs) xs) -> good_constraint c id next p ->
  NoDup (map fst (p_lits c)) -> (exists l w l' w', In (l, w) (p_lits c) /\ In (l', w') (p_lits c) /\ w <> w') ->
  pb_is_tautology c = false -> pb_is_unsat c = false -> pb_is_positive_assignment c = false -> pb_is_negative_assignment c = false -> pb_is_clause c = false ->
  (forall l w, In (l, w) (p_lits c) -> (p_kind c <> KLb -> Z.of_nat w <= p_b c)%Z /\ (p_kind c <> KUb -> Z.of_nat w + p_b c <= Z.of_nat (sum_weights (p_lits c)))%Z) ->
  exists o p', encode_pb_constraint_cert ord dord c id next (ps_next p) = Some o /\
    match p_kind c with
    | KEq => exists cs1 next1 cs2, ko_cls o = cs1 ++ cs2 /\ forall o1 o3, let e := pb_double o1 (gte_enc ord) (pb_inverted o3 (gte_enc ord)) in
        pb_encode_constr e (dgte_from_iter (fun m => m)) (fst (pb_eq_split c)) next = Some (COk cs1 next1) /\
        pb_encode_constr e (dgte_from_iter (fun m => m)) (snd (pb_eq_split c)) next1 = Some (COk cs2 (ko_next o))
    | _ => forall o1 o3, default_encode_pb_constraint (fun m => m) o1 ord o3 ord c next = Some (ko_cls o, ko_next o)
    end /\
    ps_run p (ko_log o) p' /\ ps_next p' = ko_pid o /\
    Forall2 (fun cl i => ps_get p' i = Some (clause_con cl)) (ko_cls o) (ko_ids o) /\
    (forall i, (i < ps_next p)%nat -> ps_get p' i = ps_get p i) /\
    (forall i d, ps_get p' i = Some d -> (i < ps_next p)%nat \/ In i (ko_ids o)) /\
    (forall v, In v (wit_vars (ko_log o)) -> (next <= v < ko_next o)%N).
Proof.
  intros Hord Ho (Hp & Hb & Hv & Hpos & NC & Hwf & Hin) ND (l & w & l' & w' & H1 & H2 & N) Et Eu Ep En Ec Hl.
  assert (Hs : simplifies c = false) by (unfold simplifies; now rewrite Et, Eu, Ep, En, Ec).
  destruct (CertWConstr.encode_pb_cert_weighted ord Hord dord Ho c id next p Hp Hb Hv Hpos NC ND Hwf Hin Hl Hs (CertWConstr.not_card c l w l' w' H1 H2 N)) as (o & p' & E & [F1 F2 F3 F4 F5 F6] & D).
  exists o, p'. exact (conj E (conj D (conj F1 (conj F2 (conj F3 (conj F4 (conj F5 F6))))))).
Qed.
Definition ex_weighted (k : bound_kind) (b : Z) : pb := pb_new_unsigned k [(pos 0, 1); (pos 1, 2); (negl 2, 3); (pos 3, 3)]%nat b.
Definition weighted_hyps (c : pb) (next : N) : Prop :=
  good_constraint c 1 next (proof_of c) /\ NoDup (map fst (p_lits c)) /\ (exists l w l' w', In (l, w) (p_lits c) /\ In (l', w') (p_lits c) /\ w <> w') /\
  simplifies c = false /\
  (forall l w, In (l, w) (p_lits c) -> (p_kind c <> KLb -> Z.of_nat w <= p_b c)%Z /\ (p_kind c <> KUb -> Z.of_nat w + p_b c <= Z.of_nat (sum_weights (p_lits c)))%Z) /\
  exists o, encode_pb_constraint_cert (fun m => m) (fun m => m) c 1 next (ps_next (proof_of c)) = Some o /\ length (ko_cls o) > 5 /\ length (ko_log o) > 10.
Ltac weighted :=
  unfold weighted_hyps; split; [good|]; split;
  [cbn; repeat (apply NoDup_cons; [cbn; intuition discriminate|]); apply NoDup_nil|]; split;
  [exists (pos 0), 1%nat, (pos 1), 2%nat; cbn; split; [auto|split; [auto|discriminate]]|]; split; [vm_compute; reflexivity|]; split;
  [cbn; intros l w Hl; repeat destruct Hl as [[= <- <-]|Hl]; try destruct Hl; lia|]; eexists; split; [vm_compute; reflexivity|cbn; lia].
Example C80_weighted_applies_upper : weighted_hyps (ex_weighted KUb 5) 4%N.
Proof. weighted. Qed.
Example C80_weighted_applies_lower : weighted_hyps (ex_weighted KLb 4) 4%N.
Proof. weighted. Qed.
Example C80_weighted_applies_equality : weighted_hyps (ex_weighted KEq 5) 4%N.
Proof. weighted. Qed.
Print Assumptions C80_weighted_constraint_partial.

(** ** Where the certified encoding of a constraint does not give a valid proof *)

(** All weights equal but not one: the constraint is encoded as a cardinality constraint, but the last derivation adds the
    pseudo-Boolean constraint itself to a definition over unit weights, which does not give the unit clause it is recorded as *)
Definition ex_two : pb := pb_new_unsigned KLb [(pos 0, 2); (pos 1, 2); (pos 2, 2)]%nat 3.
Theorem C80_equal_weights_refuted : exists c id next p o, good_constraint c id next p /\
  encode_pb_constraint_cert (fun m => m) (fun m => m) c id next (ps_next p) = Some o /\
  forall p', ps_run p (ko_log o) p' -> ~ Forall2 (fun cl i => ps_get p' i = Some (clause_con cl)) (ko_cls o) (ko_ids o).
Proof.
  exists ex_two, 1%nat, 3%N, (proof_of ex_two). eexists. split; [good|]. split; [vm_compute; reflexivity|].
  cbn [ko_log ko_cls ko_ids]. eapply (exec_clauses_wrong _ _ _ _ _ 5); [vm_compute; reflexivity|cbn [nth_error]; reflexivity|cbn [nth_error]; reflexivity|vm_compute; reflexivity|].
  vm_compute. discriminate.
Qed.
Print Assumptions C80_equal_weights_refuted.

(** An equality with a negative bound: the empty clause is claimed to follow from the lower half, which is a tautology *)
Definition ex_negative : pb := pb_new_unsigned KEq [(pos 0, 1); (pos 1, 2); (pos 2, 2)]%nat (-1).
Theorem C80_negative_equality_refuted : exists c id next p o, (forall l w, In (l, w) (p_lits c) -> 0 < w)%nat /\ pb_in_proof p id c /\
  encode_pb_constraint_cert (fun m => m) (fun m => m) c id next (ps_next p) = Some o /\ forall p', ~ ps_run p (ko_log o) p'.
Proof.
  exists ex_negative, 1%nat, 3%N, (proof_of ex_negative). eexists. split; [|split; [vm_compute; split; reflexivity|split; [vm_compute; reflexivity|]]].
  - cbn. intros l w Hl. repeat destruct Hl as [[= <- <-]|Hl]; try destruct Hl; lia.
  - cbn [ko_log]. intros p' R. inversion R as [|q s q' l q'' S R']; subst. inversion S as [|q c h d Hd Hr| |]; subst.
    vm_compute in Hd. injection Hd as <-. destruct Hr as [(l & [] & _)|Hr]. vm_compute in Hr. discriminate.
Qed.
Print Assumptions C80_negative_equality_refuted.

(** A literal heavier than the bound, which the tree does not contain: the certified call panics, the call without a proof encodes
    the constraint *)
Definition ex_heavy : pb := pb_new_unsigned KUb [(pos 0, 5); (pos 1, 1); (pos 2, 1)]%nat 3.
Theorem C80_heavy_literal_refuted : exists c id next p, good_constraint c id next p /\
  encode_pb_constraint_cert (fun m => m) (fun m => m) c id next (ps_next p) = None /\
  default_encode_pb_constraint (fun m => m) (fun m => m) (fun m => m) (fun m => m) (fun m => m) c next = Some ([[negl 0]], next).
Proof. exists ex_heavy, 1%nat, 3%N, (proof_of ex_heavy). split; [good|]. split; vm_compute; reflexivity. Qed.
Print Assumptions C80_heavy_literal_refuted.

(** A tree over literals of one weight other than one, next to a heavier literal: the derivation of the unit clause over the root
    ignores the weight of the root, so that it does not give the clause it is recorded as *)
Definition ex_root : pb := pb_new_unsigned KUb [(pos 0, 3); (pos 1, 3); (pos 2, 3); (pos 3, 5)]%nat 4.
Theorem C80_weighted_root_refuted : exists c id next p o, good_constraint c id next p /\
  encode_pb_constraint_cert (fun m => m) (fun m => m) c id next (ps_next p) = Some o /\
  forall p', ps_run p (ko_log o) p' -> ~ Forall2 (fun cl i => ps_get p' i = Some (clause_con cl)) (ko_cls o) (ko_ids o).
Proof.
  exists ex_root, 1%nat, 4%N, (proof_of ex_root). eexists. split; [good|]. split; [vm_compute; reflexivity|].
  cbn [ko_log ko_cls ko_ids]. eapply (exec_clauses_wrong _ _ _ _ _ 6); [vm_compute; reflexivity|cbn [nth_error]; reflexivity|cbn [nth_error]; reflexivity|vm_compute; reflexivity|].
  vm_compute. discriminate.
Qed.
Print Assumptions C80_weighted_root_refuted.

(** The method for a single upper bound, called with the sum of the weights as bound, writes a deletion without identifiers, which is
    not a step *)
Theorem C80_full_bound_refuted : exists c id next p o, p_kind c = KUb /\ p_b c = Z.of_nat (sum_weights (p_lits c)) /\ good_constraint c id next p /\
  gte_ub_constr_cert (fun m => m) (fun m => m) c id next (ps_next p) = Some (Some o) /\ forall p', ~ ps_run p (wo_log o) p'.
Proof.
  exists (pb_new_unsigned KUb [(pos 0, 1); (pos 1, 2)]%nat 3), 1%nat, 2%N, (proof_of (pb_new_unsigned KUb [(pos 0, 1); (pos 1, 2)]%nat 3)). eexists.
  split; [reflexivity|]. split; [reflexivity|]. split; [good|]. split; [vm_compute; reflexivity|].
  cbn [wo_log]. intros p' R. inversion R as [|q s q' l q'' S R']; subst. inversion S as [| | |q is Hne]; subst. now apply Hne.
Qed.
Print Assumptions C80_full_bound_refuted.

(** The certified lower bound of the inverted generalized totalizer clips the range as for upper bounds: after encoding bound 1, adding
    the largest bound encodes nothing, and enforcing it fails, where the methods without a proof make it possible *)
Definition ex_inputs : list (lit * nat) := [(pos 0, 1); (pos 1, 2)]%nat.
Definition ex_ig : cgte * nat := (cg_extend cgte_new (map negw ex_inputs), weights ex_inputs).
Definition ex_plain : encoder (lit * nat) (gte * nat) := pb_inverted (fun m => m) (gte_enc (fun m => m)).
Theorem C80_lower_bound_range_refuted : exists s b next pid, b = snd s /\
  en_extend ex_plain (en_init ex_plain) ex_inputs = Some (cg_gte (fst s), snd s) /\
  (exists s1 o1 s2 o2, ig_lb (fun m => m) s (Incl 1, Incl 1)%nat next pid = Some (s1, o1) /\
     ig_lb_change (fun m => m) s1 (Incl b, Incl b) (wo_next o1) (wo_pid o1) = Some (s2, o2) /\ wo_cls o2 = [] /\ ig_enforce_lb (fun m => m) s2 b = Some ENotEncoded) /\
  (exists t1 cs1 next1 t2 cs2 next2 us, en_lb ex_plain (cg_gte (fst s), snd s) (Incl 1, Incl 1)%nat next = Some (t1, cs1, next1) /\
     en_lb_change ex_plain t1 (Incl b, Incl b) next1 = Some (t2, cs2, next2) /\ en_enforce_lb ex_plain t2 b = Some (EOk us)).
Proof.
  exists ex_ig, 3%nat, 2%N, 2%nat. split; [reflexivity|]. split; [vm_compute; reflexivity|]. split.
  - eexists _, _, _, _. split; [vm_compute; reflexivity|]. split; [vm_compute; reflexivity|]. split; vm_compute; reflexivity.
  - eexists _, _, _, _, _, _, _. split; [vm_compute; reflexivity|]. split; vm_compute; reflexivity.
Qed.
Print Assumptions C80_lower_bound_range_refuted.
(** without inputs it panics *)
Theorem C80_lower_bound_empty_refuted : exists r next pid, ig_lb (fun m => m) (cgte_new, 0%nat) r next pid = None /\
  exists t cs next', en_lb (pb_inverted (fun m => m) (gte_enc (fun m => m))) (gte_new, 0%nat) r next = Some (t, cs, next').
Proof. exists (Unb, Unb), 0%N, 1%nat. split; [vm_compute; reflexivity|]. eexists _, _, _. vm_compute. reflexivity. Qed.
Print Assumptions C80_lower_bound_empty_refuted.
