(** * Property theorems: the encoding simulators (C33), and next higher and lower values of inverted encodings (C57)

    [upper_contract] and [lower_contract] collect what users of an encoding rely on over all histories of calls. The
    theorems say that the simulators meet these contracts around every inner encoding that meets them. *)

From Coq Require Import List Bool NArith Lia Permutation.
From Verif Require Import Spec BoundSpec BoundExec Maps NodeDb TotDb Totalizer Gte Base Simulators SimProofs SimInst.
Import ListNotations.

(** ** C33: [Inverted] over cardinality encodings *)

Theorem C33_card_inverted_lower : forall S (E : encoder lit S),
  upper_contract E (fun l => l) any_lit ub_only count_true (@length lit) ->
  lower_contract (card_inverted E) (fun l => l) any_lit lb_only count_true (@length lit).
Proof. intros S E. exact (card_inverted_lower E lb_only ub_only swap_lb_ub). Qed.
Print Assumptions C33_card_inverted_lower.

Theorem C33_card_inverted_upper : forall S (E : encoder lit S),
  lower_contract E (fun l => l) any_lit lb_only count_true (@length lit) ->
  upper_contract (card_inverted E) (fun l => l) any_lit ub_only count_true (@length lit).
Proof. intros S E. exact (card_inverted_upper E ub_only lb_only swap_ub_lb). Qed.
Print Assumptions C33_card_inverted_upper.

(** over an encoding that bounds in both directions, histories may mix all calls *)
Theorem C33_card_inverted_all : forall S (E : encoder lit S),
  upper_contract E (fun l => l) any_lit any_op count_true (@length lit) ->
  lower_contract E (fun l => l) any_lit any_op count_true (@length lit) ->
  upper_contract (card_inverted E) (fun l => l) any_lit any_op count_true (@length lit) /\
  lower_contract (card_inverted E) (fun l => l) any_lit any_op count_true (@length lit).
Proof.
  intros S E HU HL. split; [exact (card_inverted_upper E any_op any_op (fun _ _ _ _ => I) HL)|exact (card_inverted_lower E any_op any_op (fun _ _ _ _ => I) HU)].
Qed.
Print Assumptions C33_card_inverted_all.

Theorem C33_card_inverted_persists : forall S (E : encoder lit S),
  (ub_persists E (fun l => l) any_lit any_op -> lb_persists (card_inverted E) (fun l => l) any_lit any_op) /\
  (lb_persists E (fun l => l) any_lit any_op -> ub_persists (card_inverted E) (fun l => l) any_lit any_op).
Proof. intros S E. exact (card_inverted_persists E any_op any_op (fun _ _ _ _ => I)). Qed.
Print Assumptions C33_card_inverted_persists.

(** no call panics, given a range that does not end before zero and, for upper bounds, at least one input *)
Theorem C33_card_inverted_no_panic : forall S (E : encoder lit S), no_panic E (fun l => l) any_lit any_op ->
  forall w s op, reachable (card_inverted E) (fun l => l) any_lit any_op w s -> valid_op (fun l => l) any_lit any_op w op ->
    range_ok (@length lit) w op -> step (card_inverted E) w s op <> None.
Proof. intros S E. exact (card_inverted_no_panic E any_op any_op (fun _ _ _ _ => I)). Qed.
Print Assumptions C33_card_inverted_no_panic.

(** [encode_both] makes every lower bound of the range available, and every upper bound if the range has a start *)
Theorem C33_card_inverted_both : forall S (E : encoder lit S),
  upper_contract E (fun l => l) any_lit any_op count_true (@length lit) ->
  encodes_lb E (fun l => l) any_lit any_op HBoth -> encodes_ub E (fun l => l) any_lit any_op HBoth ->
  encodes_lb (card_inverted E) (fun l => l) any_lit any_op HBoth /\
  (forall w s r w' s' ub, reachable (card_inverted E) (fun l => l) any_lit any_op w s -> valid_op (fun l => l) any_lit any_op w (HBoth r) ->
     step (card_inverted E) w s (HBoth r) = Some (w', s') -> in_rng ub r -> fst r <> Unb \/ (1 <= ub)%nat ->
     exists ls, en_enforce_ub (card_inverted E) s' ub = Some (EOk ls)).
Proof. intros S E. exact (card_inverted_both E any_op any_op (fun _ _ _ _ => I)). Qed.
Print Assumptions C33_card_inverted_both.

(** the totalizer meets the hypotheses *)
Example C33_totalizer_ex :
  upper_contract totalizer (fun l => l) any_lit any_op count_true (@length lit) /\ lower_contract totalizer (fun l => l) any_lit any_op count_true (@length lit).
Proof. split; [exact tot_upper|exact tot_lower]. Qed.

Ltac card_run E ops' :=
  apply (run_reach0 E (fun l => l) (fun _ => true) (fun _ => true)) with (ops := ops');
  [intros; exact I | intros; exact I | vm_compute; reflexivity].

Example C33_inverted_totalizer_ex : exists w s,
  reachable (card_inverted totalizer) (fun l => l) any_lit any_op w s /\ length (w_all w) = 10%nat /\ w_in w = [pos 0; negl 1; pos 2] /\
  en_enforce_lb (card_inverted totalizer) s 2 = Some (EOk [negl 5]) /\ en_enforce_ub (card_inverted totalizer) s 1 = Some (EOk [pos 5]).
Proof.
  eexists _, _. split; [card_run (card_inverted totalizer) [HUserVars 3; HExtend [pos 0; negl 1; pos 2]; HUb (Incl 1%nat, Incl 1%nat); HLbChange (Incl 2%nat, Incl 2%nat)]|].
  vm_compute. repeat split; reflexivity.
Qed.

(** without inputs, or with a range ending at zero, encoding panics *)
Theorem C33_inverted_no_panic_refuted : ~ no_panic (card_inverted totalizer) (fun l => l) any_lit any_op /\
  step (card_inverted totalizer) world0 (en_init (card_inverted totalizer)) (HUb (Incl 0%nat, Incl 0%nat)) = None.
Proof.
  split; [|reflexivity]. intros H. exact (H _ _ (HUb (Incl 0%nat, Incl 0%nat)) (reach_init _ _ _ _) (conj I I) eq_refl).
Qed.
Print Assumptions C33_inverted_no_panic_refuted.

(** [encode_both(..=1)] does not make the upper bound zero available, although it is in the range *)
Theorem C33_inverted_both_refuted : ~ encodes_ub (card_inverted totalizer) (fun l => l) any_lit any_op HBoth.
Proof.
  intros H.
  assert (R : exists w s, reachable (card_inverted totalizer) (fun l => l) any_lit any_op w s /\ exists w' s',
     step (card_inverted totalizer) w s (HBoth (Unb, Incl 1%nat)) = Some (w', s') /\ en_enforce_ub (card_inverted totalizer) s' 0 = Some ENotEncoded).
  { eexists _, _. split; [card_run (card_inverted totalizer) [HUserVars 3; HExtend [pos 0; pos 1; pos 2]]|]. eexists _, _. split; vm_compute; reflexivity. }
  destruct R as (w & s & R & w' & s' & Es & Ee). destruct (H w s (Unb, Incl 1%nat) w' s' 0%nat R (conj I I) Es) as (ls & E'); [|congruence].
  unfold in_rng. cbn. lia.
Qed.
Print Assumptions C33_inverted_both_refuted.

(** ** C33: [Inverted] over pseudo-Boolean encodings; each call adds distinct literals *)

Theorem C33_pb_inverted_lower : forall S ord (E : encoder (lit * nat) S), iter_order ord ->
  upper_contract E fst pos_weight ub_only wsum total_weight ->
  lower_contract (pb_inverted ord E) fst pos_weight (both_allow lb_only distinct_inputs) wsum total_weight.
Proof.
  intros S ord E H. apply (pb_inverted_lower ord E pos_weight (both_allow lb_only distinct_inputs) ub_only H); [auto| |].
  - intros op op' Hs (Hl & _). exact (swap_lb_ub _ _ Hs Hl).
  - intros op (_ & Hd). exact Hd.
Qed.
Print Assumptions C33_pb_inverted_lower.

Theorem C33_pb_inverted_upper : forall S ord (E : encoder (lit * nat) S), iter_order ord ->
  lower_contract E fst pos_weight lb_only wsum total_weight ->
  upper_contract (pb_inverted ord E) fst pos_weight (both_allow ub_only distinct_inputs) wsum total_weight.
Proof.
  intros S ord E H. apply (pb_inverted_upper ord E pos_weight (both_allow ub_only distinct_inputs) lb_only H); [auto| |].
  - intros op op' Hs (Hl & _). exact (swap_ub_lb _ _ Hs Hl).
  - intros op (_ & Hd). exact Hd.
Qed.
Print Assumptions C33_pb_inverted_upper.

Theorem C33_pb_inverted_all : forall S ord (E : encoder (lit * nat) S), iter_order ord ->
  upper_contract E fst pos_weight any_op wsum total_weight -> lower_contract E fst pos_weight any_op wsum total_weight ->
  upper_contract (pb_inverted ord E) fst pos_weight distinct_inputs wsum total_weight /\
  lower_contract (pb_inverted ord E) fst pos_weight distinct_inputs wsum total_weight.
Proof.
  intros S ord E H HU HL. split.
  - apply (pb_inverted_upper ord E pos_weight distinct_inputs any_op H); [auto|intros; exact I|auto|auto].
  - apply (pb_inverted_lower ord E pos_weight distinct_inputs any_op H); [auto|intros; exact I|auto|auto].
Qed.
Print Assumptions C33_pb_inverted_all.

(** ** C33: [Double] *)

Theorem C33_card_double : forall S T (U : encoder lit S) (L : encoder lit T),
  upper_contract U (fun l => l) any_lit ub_only count_true (@length lit) ->
  lower_contract L (fun l => l) any_lit lb_only count_true (@length lit) ->
  upper_contract (card_double U L) (fun l => l) any_lit any_op count_true (@length lit) /\
  lower_contract (card_double U L) (fun l => l) any_lit any_op count_true (@length lit) /\
  encodes_ub (card_double U L) (fun l => l) any_lit any_op HBoth /\ encodes_lb (card_double U L) (fun l => l) any_lit any_op HBoth.
Proof. intros S T U L HU HL. exact (card_double_contracts U L HU HL). Qed.
Print Assumptions C33_card_double.

Theorem C33_pb_double : forall S T ord (U : encoder (lit * nat) S) (L : encoder (lit * nat) T), iter_order ord ->
  upper_contract U fst pos_weight (both_allow ub_only distinct_inputs) wsum total_weight ->
  lower_contract L fst pos_weight (both_allow lb_only distinct_inputs) wsum total_weight ->
  upper_contract (pb_double ord U L) fst pos_weight distinct_inputs wsum total_weight /\
  lower_contract (pb_double ord U L) fst pos_weight distinct_inputs wsum total_weight /\
  encodes_ub (pb_double ord U L) fst pos_weight distinct_inputs HBoth /\ encodes_lb (pb_double ord U L) fst pos_weight distinct_inputs HBoth.
Proof. intros S T ord U L H HU HL. exact (pb_double_contracts ord U L pos_weight H HU HL). Qed.
Print Assumptions C33_pb_double.

Theorem C33_card_double_persists : forall S T (U : encoder lit S) (L : encoder lit T),
  upper_contract U (fun l => l) any_lit ub_only count_true (@length lit) ->
  lower_contract L (fun l => l) any_lit lb_only count_true (@length lit) ->
  ub_persists U (fun l => l) any_lit ub_only -> lb_persists L (fun l => l) any_lit lb_only ->
  forall w s op w' s' b ls, reachable (card_double U L) (fun l => l) any_lit any_op w s -> valid_op (fun l => l) any_lit any_op w op ->
    step (card_double U L) w s op = Some (w', s') ->
    (match op with HExtend _ | HUb _ | HBoth _ => False | _ => True end ->
      en_enforce_ub (card_double U L) s b = Some (EOk ls) -> en_enforce_ub (card_double U L) s' b = Some (EOk ls)) /\
    (match op with HExtend _ | HLb _ | HBoth _ => False | _ => True end ->
      en_enforce_lb (card_double U L) s b = Some (EOk ls) -> en_enforce_lb (card_double U L) s' b = Some (EOk ls)).
Proof.
  intros S T U L HU HL PU PL w s op w' s' b ls R V Es. destruct (card_double_persists U L HU HL) as (H1 & H2). split; intros Hop He.
  - exact (H1 PU w s op w' s' b ls R V Es Hop He).
  - exact (H2 PL w s op w' s' b ls R V Es Hop He).
Qed.
Print Assumptions C33_card_double_persists.

(** ** C33: the default pseudo-Boolean encoding, [Double<GeneralizedTotalizer, Inverted<GeneralizedTotalizer>>] *)

Theorem C33_default_pb : forall ord1 ord2 ord3 ord4, iter_order ord1 -> iter_order ord2 -> iter_order ord3 -> iter_order ord4 ->
  let E := pb_double ord1 (gte_enc ord2) (pb_inverted ord3 (gte_enc ord4)) in
  upper_contract E fst pos_weight distinct_inputs wsum total_weight /\ lower_contract E fst pos_weight distinct_inputs wsum total_weight /\
  encodes_ub E fst pos_weight distinct_inputs HBoth /\ encodes_lb E fst pos_weight distinct_inputs HBoth.
Proof. exact double_gte. Qed.
Print Assumptions C33_default_pb.

Theorem C33_default_pb_no_panic : forall ord1 ord2 ord3 ord4, iter_order ord1 -> iter_order ord2 -> iter_order ord3 -> iter_order ord4 ->
  let E := pb_double ord1 (gte_enc ord2) (pb_inverted ord3 (gte_enc ord4)) in
  forall w s op, reachable E fst pos_weight distinct_inputs w s -> valid_op fst pos_weight distinct_inputs w op ->
    match op with HLb r | HLbChange r | HBoth r => snd r <> Excl 0 | _ => True end -> step E w s op <> None.
Proof. exact double_gte_no_panic. Qed.
Print Assumptions C33_default_pb_no_panic.

Definition dflt := pb_double (fun m => m) (gte_enc (fun m => m)) (pb_inverted (fun m => m) (gte_enc (fun m => m))).

Ltac pb_run E ops' :=
  apply (run_reach0 E fst (fun x => Nat.leb 1 (snd x)) (fun op => match op with HExtend xs => nodupb (map fst xs) | _ => true end)) with (ops := ops');
  [let K := fresh in intros x K; apply PeanoNat.Nat.leb_le in K; exact K | let K := fresh in intros [] K; try exact I; apply nodupb_sound; exact K | vm_compute; reflexivity].

Example C33_default_pb_ex : exists w s, reachable dflt fst pos_weight distinct_inputs w s /\ length (w_all w) = 12%nat /\
  en_enforce_ub dflt s 3 = Some (EOk [negl 5; negl 7]) /\ en_enforce_lb dflt s 3 = Some (EOk [negl 8; negl 10]).
Proof.
  eexists _, _. split; [pb_run dflt [HUserVars 3; HExtend [(pos 0, 1%nat); (negl 1, 2%nat); (pos 2, 2%nat)]; HBoth (Incl 2%nat, Incl 3%nat)]|].
  vm_compute. repeat split; reflexivity.
Qed.

(** adding a literal twice in one call keeps only its last weight: upper bounds are then not enforced, and lower bounds that
    can be met are reported as unsatisfiable *)
Theorem C33_duplicates_refuted : ~ ub_sound dflt fst pos_weight any_op wsum /\ ~ unsat_right dflt fst pos_weight any_op wsum.
Proof.
  assert (R : exists w s, reachable dflt fst pos_weight any_op w s /\ w_ub w = [] /\ w_in w = [(pos 0, 2%nat); (pos 1, 1%nat); (pos 0, 2%nat)] /\
    en_enforce_ub dflt s 3 = Some (EOk []) /\ en_enforce_lb dflt s 4 = Some EUnsat).
  { eexists _, _. split.
    - apply (run_reach0 dflt fst (fun x => Nat.leb 1 (snd x)) (fun _ => true)) with (ops := [HUserVars 3; HExtend [(pos 0, 2%nat); (pos 1, 1%nat); (pos 0, 2%nat)]]);
        [intros x K; apply PeanoNat.Nat.leb_le in K; exact K | intros; exact I | vm_compute; reflexivity].
    - vm_compute. repeat split; reflexivity. }
  destruct R as (w & s & R & E1 & E2 & E3 & E4). split; intros H.
  - specialize (H w s 3%nat [] (fun _ => true) R E3). rewrite E1, E2 in H. specialize (H eq_refl eq_refl). cbn in H. lia.
  - destruct (H w s 4%nat R) as (H1 & _). specialize (H1 E4 (fun _ => true)). rewrite E2 in H1. cbn in H1. lia.
Qed.
Print Assumptions C33_duplicates_refuted.

(** ** C33: [Card], a pseudo-Boolean encoding from a cardinality encoding; any weights, repeated literals included *)

Theorem C33_pb_card : forall S (E : encoder lit S),
  (upper_contract E (fun l => l) any_lit any_op count_true (@length lit) -> upper_contract (pb_card E) fst (fun _ => True) any_op wsum total_weight) /\
  (lower_contract E (fun l => l) any_lit any_op count_true (@length lit) -> lower_contract (pb_card E) fst (fun _ => True) any_op wsum total_weight).
Proof.
  intros S E. split; [exact (card_upper_contract E (fun _ => True) any_op any_op (fun _ _ => I))|exact (card_lower_contract E (fun _ => True) any_op any_op (fun _ _ => I))].
Qed.
Print Assumptions C33_pb_card.

Theorem C33_pb_card_calls : forall S (E : encoder lit S),
  (no_panic E (fun l => l) any_lit any_op -> no_panic (pb_card E) fst (fun _ => True) any_op) /\
  (ub_persists E (fun l => l) any_lit any_op -> ub_persists (pb_card E) fst (fun _ => True) any_op) /\
  (lb_persists E (fun l => l) any_lit any_op -> lb_persists (pb_card E) fst (fun _ => True) any_op).
Proof.
  intros S E. split; [apply (card_locals E (fun _ => True) any_op any_op (fun _ _ => I))|apply (card_persists E (fun _ => True) any_op any_op (fun _ _ => I))].
Qed.
Print Assumptions C33_pb_card_calls.

Theorem C33_pb_card_totalizer :
  upper_contract (pb_card totalizer) fst (fun _ => True) any_op wsum total_weight /\ lower_contract (pb_card totalizer) fst (fun _ => True) any_op wsum total_weight.
Proof. split; [exact (proj1 (C33_pb_card _ totalizer) tot_upper)|exact (proj2 (C33_pb_card _ totalizer) tot_lower)]. Qed.
Print Assumptions C33_pb_card_totalizer.

Example C33_pb_card_ex : exists w s, reachable (pb_card totalizer) fst (fun _ => True) any_op w s /\ total_weight (w_in w) = 6%nat /\
  en_enforce_ub (pb_card totalizer) s 4 = Some (EOk [negl 11]) /\ en_enforce_lb (pb_card totalizer) s 7 = Some EUnsat.
Proof.
  eexists _, _. split.
  - apply (run_reach0 (pb_card totalizer) fst (fun _ => true) (fun _ => true)) with (ops := [HUserVars 3; HExtend [(pos 0, 2%nat); (pos 1, 1%nat); (pos 0, 3%nat)]; HUb (Incl 4%nat, Incl 4%nat)]);
      [intros; exact I | intros; exact I | vm_compute; reflexivity].
  - vm_compute. repeat split; reflexivity.
Qed.

(** ** C57: next higher and lower values of inverted encodings *)

Theorem C57_inverted_next_higher : forall ord ord' w s val, iter_order ord -> iter_order ord' ->
  reachable (pb_inverted ord (gte_enc ord')) fst pos_weight (both_allow lb_only distinct_inputs) w s -> gt_buf (fst s) = [] ->
  (val < total_weight (w_in w))%nat ->
  exists v, inv_next_higher gte_next_lower s val = Some v /\ (val < v)%nat /\ forall a, (val < wsum a (w_in w) -> v <= wsum a (w_in w))%nat.
Proof. intros ord ord' w s val H H' R Hb. exact (proj1 (inv_gte_next ord ord' w s val H H' R Hb)). Qed.
Print Assumptions C57_inverted_next_higher.

Theorem C57_inverted_next_lower : forall ord ord' w s val, iter_order ord -> iter_order ord' ->
  reachable (pb_inverted ord (gte_enc ord')) fst pos_weight (both_allow lb_only distinct_inputs) w s -> gt_buf (fst s) = [] ->
  (1 <= val <= total_weight (w_in w))%nat -> (exists a, wsum a (w_in w) = 0%nat) ->
  exists v, inv_next_lower gte_next_higher s val = Some v /\ (v < val)%nat /\ forall a, (wsum a (w_in w) < val -> wsum a (w_in w) <= v)%nat.
Proof. intros ord ord' w s val H H' R Hb. exact (proj2 (inv_gte_next ord ord' w s val H H' R Hb)). Qed.
Print Assumptions C57_inverted_next_lower.

Definition igte := pb_inverted (fun m => m) (gte_enc (fun m => m)).
Ltac lb_run E ops' :=
  apply (run_reach0 E fst (fun x => Nat.leb 1 (snd x)) (fun op => match op with HExtend xs => nodupb (map fst xs) | HUb _ | HUbChange _ | HBoth _ => false | _ => true end)) with (ops := ops');
  [let K := fresh in intros x K; apply PeanoNat.Nat.leb_le in K; exact K
  |let K := fresh in intros [] K; try discriminate K; (split; [exact I|]); try exact I; apply nodupb_sound; exact K | vm_compute; reflexivity].

Example C57_inverted_ex : exists w s, reachable igte fst pos_weight (both_allow lb_only distinct_inputs) w s /\ gt_buf (fst s) = [] /\
  map (inv_next_higher gte_next_lower s) [0%nat; 3%nat; 5%nat; 8%nat] = [Some 3%nat; Some 5%nat; Some 8%nat; Some 8%nat] /\
  map (inv_next_lower gte_next_higher s) [8%nat; 5%nat; 4%nat; 3%nat; 0%nat] = [Some 5%nat; Some 3%nat; Some 3%nat; Some 0%nat; None].
Proof.
  eexists _, _. split; [lb_run igte [HUserVars 3; HExtend [(pos 0, 3%nat); (pos 1, 5%nat)]; HLb (Unb, Unb)]|].
  vm_compute. repeat split; reflexivity.
Qed.

(** at the ends of the range, [next_lower] panics and [next_higher] returns its argument *)
Theorem C57_inverted_ends_refuted : exists w s, reachable igte fst pos_weight (both_allow lb_only distinct_inputs) w s /\
  total_weight (w_in w) = 8%nat /\ inv_next_lower gte_next_higher s 0 = None /\ inv_next_higher gte_next_lower s 8 = Some 8%nat /\
  inv_next_higher gte_next_lower s 9 = None.
Proof.
  eexists _, _. split; [lb_run igte [HUserVars 3; HExtend [(pos 0, 3%nat); (pos 1, 5%nat)]; HLb (Unb, Unb)]|].
  vm_compute. repeat split; reflexivity.
Qed.
Print Assumptions C57_inverted_ends_refuted.
