(** * Property theorems about objectives and optimization instances (C42-C45, and parts of C58 and C59)

    The iteration orders of the hash maps are the parameters [lord] and [cord]; the theorems hold for all that permute. *)

From Coq Require Import List Bool NArith ZArith Lia Permutation.
From Verif Require Import Spec EncSpec Types Constraints ConstrSpec Base NodeDb ConstrEnc Maps VarSpec VarMan Inst InstSpec InstProofs Opt OptSpec OptProofs OptNorm OptConv OptReindex.
Import ListNotations.

Ltac order := intros m; apply Permutation_refl.
Ltac lits := intros ? Hl; vm_compute in Hl; decompose [or] Hl; try contradiction; subst; reflexivity.

(** ** C42: building, evaluating and converting objectives *)

(** Building an objective never panics, whatever is added. *)
Theorem C42_history : forall ks, exists o, foldM obj_call ks obj_new = Some o /\ obj_wf o.
Proof. exact (fun ks => obj_calls_wf ks obj_new obj_new_wf). Qed.
Print Assumptions C42_history.
(** Each call changes the value under every assignment as described: adding to weights always; setting the weight of a soft
    literal or clause if no soft literal or clause occurs twice. Missing: setting weights after one was increased while the
    objective is unweighted, see below. *)
Theorem C42_calls_partial : forall o k, obj_wf o -> exists o', obj_call o k = Some o' /\ obj_wf o' /\
  ((sets_weight k -> obj_distinct o) -> forall a, obj_value a o' = (obj_value a o + ocall_change a o k)%Z).
Proof. exact obj_call_spec. Qed.
Print Assumptions C42_calls_partial.
(** Setting weights never makes anything occur twice, and weighted objectives have nothing twice. *)
Theorem C42_distinct : (forall o k o', obj_wf o -> obj_distinct o -> sets_weight k -> obj_call o k = Some o' -> obj_distinct o') /\ obj_distinct obj_new /\
  forall z ls cs, obj_wf (OWeighted z ls cs) -> obj_distinct (OWeighted z ls cs).
Proof. split; [exact obj_call_distinct|]. split; [split; constructor|exact wf_distinct]. Qed.
Print Assumptions C42_distinct.
Example C42_calls_ex : exists o, foldM obj_call [OIncLit 2 (pos 0); OIncClause 2 [pos 1; negl 0]; OIncLitInt (-3) (pos 2); OAddLit 5 (pos 0); OAddClause 4 [pos 3]; OAddClause 7 []] obj_new = Some o /\
  obj_wf o /\ obj_distinct o /\ obj_value (fun _ => true) o = 9%Z /\ obj_value (fun _ => false) o = 11%Z.
Proof.
  eexists. split; [reflexivity|]. split; [|split; [|split; reflexivity]].
  - destruct (C42_history [OIncLit 2 (pos 0); OIncClause 2 [pos 1; negl 0]; OIncLitInt (-3) (pos 2); OAddLit 5 (pos 0); OAddClause 4 [pos 3]; OAddClause 7 []]) as (o & E & W). cbv in E. injection E as <-. exact W.
  - split; cbn; repeat constructor; cbn; intuition discriminate.
Qed.
(** Setting a weight to the unit weight, or to 0, of a literal that occurs twice does not give the literal that weight. *)
Theorem C42_set_refuted : exists o, foldM obj_call [OIncLit 1 (pos 0); OIncLit 1 (pos 0)] obj_new = Some o /\
  (exists o', obj_call o (OAddLit 1 (pos 0)) = Some o' /\ obj_value (fun _ => true) o' <> (obj_value (fun _ => true) o + ocall_change (fun _ => true) o (OAddLit 1 (pos 0)))%Z) /\
  (exists o', obj_call o (OAddLit 0 (pos 0)) = Some o' /\ obj_value (fun _ => true) o' <> (obj_value (fun _ => true) o + ocall_change (fun _ => true) o (OAddLit 0 (pos 0)))%Z) /\
  lit_weight (pos 0) o = Some (Some 1%nat) /\ lit_total (pos 0) o = 2%nat.
Proof. eexists. split; [reflexivity|]. split; [|split; [|split; reflexivity]]; (eexists; split; [reflexivity|vm_compute; discriminate]). Qed.
Print Assumptions C42_set_refuted.
(** the returned previous weights *)
Theorem C42_returned_partial : forall o, obj_wf o -> obj_distinct o ->
  (forall w l, exists o', add_soft_lit w l o = Some (o', if (lit_total l o =? 0)%nat then None else Some (lit_total l o)) /\ obj_distinct o') /\
  (forall w c, (1 < length c)%nat -> exists o', add_soft_clause w c o = Some (o', if (clause_total c o =? 0)%nat then None else Some (clause_total c o)) /\ obj_distinct o').
Proof.
  intros o W D. split.
  - intros w l. destruct (add_soft_lit_spec w l o W) as (o' & r & E & _ & H). destruct (H D) as (H1 & -> & _). eauto.
  - intros w c Hc. destruct (add_soft_cls_spec w c o Hc W) as (o' & r & E & _ & H). destruct (H D) as (H1 & -> & _). eauto.
Qed.
Print Assumptions C42_returned_partial.
Theorem C42_lit_weight : forall l o, obj_wf o -> exists r, lit_weight l o = Some r /\ (r = None <-> ~ In l (map fst (obj_lits o))) /\
  (obj_distinct o -> r = if (lit_total l o =? 0)%nat then None else Some (lit_total l o)).
Proof. exact lit_weight_spec. Qed.
Print Assumptions C42_lit_weight.
Theorem C42_clause_weight : forall c o, obj_wf o -> exists r, clause_weight c o = Some r /\ (r = None <-> ~ In c (map fst (obj_cls o))) /\
  (obj_distinct o -> r = if (clause_total c o =? 0)%nat then None else Some (clause_total c o)).
Proof. exact clause_weight_spec. Qed.
Print Assumptions C42_clause_weight.
(** Evaluation: exact if all variables of the objective are assigned, and otherwise a lower bound for every completion. *)
Theorem C42_evaluate : forall s o a, obj_wf o -> completes a (pasg_of s) -> (forall l, In l (obj_vars o) -> lit_value s l <> TDontCare) ->
  obj_evaluate s o = Some (obj_value a o).
Proof. exact evaluate_total. Qed.
Print Assumptions C42_evaluate.
Theorem C42_evaluate_lower : forall s o a, obj_wf o -> completes a (pasg_of s) -> exists v, obj_evaluate s o = Some v /\ (v <= obj_value a o)%Z.
Proof. exact evaluate_le. Qed.
Print Assumptions C42_evaluate_lower.
Example C42_evaluate_ex : let o := OWeighted (-1) [(pos 0, 2%nat); (negl 1, 5%nat)] [([pos 1; negl 2], 3%nat)] in
  obj_wf o /\ obj_evaluate [TTrue; TFalse; TTrue] o = Some 9%Z /\ obj_evaluate [TTrue; TFalse] o = Some 6%Z /\ obj_evaluate [] o = Some (-1)%Z.
Proof.
  split; [|repeat split]. apply wf_weighted. repeat split; try (intros ? ? H; cbn in H; decompose [or] H; try contradiction; match goal with E : _ = _ |- _ => injection E as <- <- end; cbn; lia).
  - cbn in H. destruct H as [[= <- <-]|[]]. lia.
  - cbn in H. destruct H as [[= <- <-]|[]]. cbn. lia.
  - cbn. repeat constructor; cbn; intuition discriminate.
  - cbn. repeat constructor; cbn; intuition discriminate.
Qed.
(** constant and empty objectives, bounds on the value *)
Theorem C42_constant : forall o, (obj_constant o = true <-> obj_lits o = [] /\ obj_cls o = []) /\ (obj_constant o = true -> forall a, obj_value a o = obj_offset o) /\
  (obj_is_empty o = true <-> obj_lits o = [] /\ obj_cls o = [] /\ obj_offset o = 0%Z).
Proof. intros o. split; [apply constant_spec|]. split; [intros H a; now apply constant_value|apply is_empty_spec]. Qed.
Print Assumptions C42_constant.
Theorem C42_bounds : forall a o, (obj_offset o <= obj_value a o <= obj_offset o + Z.of_nat (obj_weight_sum o))%Z.
Proof. exact value_bounds. Qed.
Print Assumptions C42_bounds.
Theorem C42_max_var : forall o, match obj_max_var o with
  | Some m => (exists l, In l (obj_vars o) /\ lvar l = m) /\ forall l, In l (obj_vars o) -> (lvar l <= m)%N
  | None => obj_vars o = [] end.
Proof. exact obj_max_var_spec. Qed.
Print Assumptions C42_max_var.
(** Conversions between the representations and between soft literals and clauses *)
Theorem C42_to_weighted : forall o, obj_wf o -> obj_wf (unweighted_2_weighted o) /\ same_value o (unweighted_2_weighted o) /\ exists z ls cs, unweighted_2_weighted o = OWeighted z ls cs.
Proof. intros o W. split; [now apply u2w_wf|]. split; [apply u2w_value|]. destruct (u2w_weighted o) as (ls & cs & E). eauto. Qed.
Print Assumptions C42_to_weighted.
Theorem C42_to_unweighted : forall lord cord, orders lord cord -> forall o, obj_wf o -> obj_wf (weighted_2_unweighted lord cord o) /\ same_value o (weighted_2_unweighted lord cord o) /\
  exists z u ls cs, weighted_2_unweighted lord cord o = OUnweighted z u ls cs.
Proof. intros lord cord H o W. split; [now apply w2u_wf|]. split; [now apply w2u_value|]. destruct o; cbn; eauto. Qed.
Print Assumptions C42_to_unweighted.
Theorem C42_soft_clauses : forall lord cord, orders lord cord -> forall o, obj_wf o -> exists cs z, into_soft_cls lord cord o = Some (cs, z) /\ forall a, (z + Z.of_nat (cls_cost a cs))%Z = obj_value a o.
Proof. exact into_soft_cls_value. Qed.
Print Assumptions C42_soft_clauses.
Theorem C42_unweighted_soft_clauses : forall lord cord, orders lord cord -> forall o, obj_wf o -> exists cs w z, into_unweighted_soft_cls lord cord o = Some (cs, w, z) /\ (0 < w)%nat /\
  forall a, (z + Z.of_nat (w * count_unsat a cs))%Z = obj_value a o.
Proof. exact into_unweighted_soft_cls_spec. Qed.
Print Assumptions C42_unweighted_soft_clauses.
Theorem C42_iter_soft_lits : forall lord cord, orders lord cord -> forall o, match iter_soft_lits lord o with
  | inr _ => obj_cls o <> []
  | inl ls => obj_cls o = [] /\ Permutation ls (obj_lits o) /\ forall a, (obj_offset o + Z.of_nat (wsum a ls))%Z = obj_value a o end.
Proof.
  intros lord cord H o. pose proof (iter_soft_lits_spec lord cord H o) as S. destruct (iter_soft_lits lord o) as [ls|] eqn:E; [|exact S]. destruct S as [S1 S2]. split; [exact S1|]. split; [exact S2|]. exact (iter_soft_lits_value lord cord H o ls E).
Qed.
Print Assumptions C42_iter_soft_lits.
Theorem C42_iter_soft_clauses : forall lord cord, orders lord cord -> forall o a, (obj_offset o + Z.of_nat (cls_cost a (iter_soft_cls lord cord o)))%Z = obj_value a o.
Proof. exact iter_soft_cls_value. Qed.
Print Assumptions C42_iter_soft_clauses.
(** collecting weighted literals, integer-weighted literals and weighted clauses into an objective *)
Theorem C42_collect : (forall xs, obj_wf (obj_from_lits xs) /\ forall a, obj_value a (obj_from_lits xs) = Z.of_nat (wsum a xs)) /\
  (forall xs, obj_wf (obj_from_ilits xs) /\ forall a, obj_value a (obj_from_ilits xs) = zwsum a xs) /\
  (forall xs, obj_wf (obj_from_cls xs) /\ forall a, obj_value a (obj_from_cls xs) = Z.of_nat (cls_cost a xs)).
Proof. exact (conj from_lits_spec (conj from_ilits_spec from_cls_spec)). Qed.
Print Assumptions C42_collect.
Example C42_convert_ex : let o := OWeighted 4 [(pos 0, 2%nat)] [([pos 1; negl 2], 3%nat)] in
  into_soft_cls (fun m => m) (fun m => m) o = Some ([([pos 1; negl 2], 3%nat); ([negl 0], 2%nat)], 4%Z) /\
  weighted_2_unweighted (fun m => m) (fun m => m) o = OUnweighted 4 (Some 1%nat) [pos 0; pos 0] [[pos 1; negl 2]; [pos 1; negl 2]; [pos 1; negl 2]] /\
  obj_from_ilits [(pos 0, 3%Z); (pos 0, (-2)%Z); (negl 1, 3%Z)] = OWeighted (-2) [(pos 0, 3%nat); (negl 0, 2%nat); (negl 1, 3%nat)] [].
Proof. repeat split. Qed.

(** ** C43: normalizing an objective *)

(** No value changes and no soft clause is left twice, unless all soft constraints vanish, so that the objective was constant (then its offset is lost, see
    below). Missing: empty soft clauses, and unweighted objectives outside [norm_fine], see below. *)
Theorem C43_normalize_partial : forall lord cord, orders lord cord -> forall o, obj_wf o -> obj_nonempty o -> norm_fine o ->
  exists o', obj_normalize lord cord o = Some o' /\ obj_wf o' /\ NoDup (map fst (obj_cls o')) /\ (same_value o o' \/ (o' = obj_new /\ exists v, forall a, obj_value a o = v)).
Proof. intros lord cord H o W N F. destruct (obj_normalize_spec lord cord H o W N F) as (o' & E & R1 & _ & R2). eauto. Qed.
Print Assumptions C43_normalize_partial.
Example C43_normalize_ex : let o := OWeighted 1 [(pos 0, 2%nat); (pos 3, 1%nat)] [([pos 0; pos 0], 5%nat); ([pos 1; negl 1; pos 2], 9%nat); ([pos 2; pos 1], 3%nat); ([pos 1; pos 2; pos 1], 4%nat)] in
  obj_wf o /\ obj_nonempty o /\ norm_fine o /\ obj_normalize (fun m => m) (fun m => m) o = Some (OWeighted 3 [(pos 3, 1%nat); (negl 0, 3%nat)] [([pos 1; pos 2], 7%nat)]).
Proof.
  split; [|split; [|split; reflexivity]].
  - apply wf_weighted. split; [|split; [|split]].
    + intros l w H. cbn in H. decompose [or] H; try contradiction; match goal with E : _ = _ |- _ => injection E as <- <- end; lia.
    + intros l w H. cbn in H. decompose [or] H; try contradiction; match goal with E : _ = _ |- _ => injection E as <- <- end; cbn; lia.
    + cbn. repeat constructor; cbn; intuition discriminate.
    + cbn. repeat constructor; cbn; intuition discriminate.
  - intros w H. cbn in H. decompose [or] H; (contradiction || discriminate).
Qed.
Example C43_normalize_unweighted_ex : let o := OUnweighted 1 (Some 2%nat) [pos 5; pos 0; negl 5] [[negl 0; pos 1]; [pos 2; pos 2]] in
  obj_wf o /\ obj_nonempty o /\ norm_fine o /\ obj_normalize (fun m => m) (fun m => m) o = Some (OUnweighted 3 (Some 2%nat) [pos 0; negl 2] [[negl 0; pos 1]]).
Proof.
  split; [apply wf_some; split; [lia|intros c [<-|[<-|[]]]; discriminate]|]. split; [intros w [H|[H|[]]]; discriminate|]. split; [|reflexivity].
  right. split; [discriminate|]. right. cbn. split; [repeat constructor; cbn; intuition discriminate|]. exists (pos 5). split; [now left|]. split; [auto|]. intros x H. decompose [or] H; subst; cbn; lia || contradiction.
Qed.
(** The offset of an objective without soft constraints is lost. *)
Theorem C43_offset_refuted : exists o, foldM obj_call [OIncLit 2 (pos 0); OIncLit 3 (pos 1); OAddLit 0 (pos 0); OAddLit 0 (pos 1); OIncOffset 4] obj_new = Some o /\
  forall lord cord, orders lord cord -> exists o', obj_normalize lord cord o = Some o' /\ forall a, obj_value a o = 4%Z /\ obj_value a o' = 0%Z.
Proof.
  eexists. split; [vm_compute; reflexivity|]. intros lord cord [H1 H2]. cbn [obj_normalize normalize_weighted]. unfold normalize_weighted.
  assert (cord [] = []) as -> by (apply Permutation_nil, Permutation_sym, H2). cbn [foldM obind]. assert (lord [] = []) as -> by (apply Permutation_nil, Permutation_sym, H1). try assert (cord [] = []) as -> by (apply Permutation_nil, Permutation_sym, H2).
  eexists. split; [reflexivity|]. split; reflexivity.
Qed.
Print Assumptions C43_offset_refuted.
(** An empty soft clause makes normalization panic. *)
Theorem C43_empty_clause_refuted : exists o, foldM obj_call [OIncLit 2 (pos 0); OIncClause 3 []] obj_new = Some o /\ forall lord cord, orders lord cord -> obj_normalize lord cord o = None.
Proof.
  eexists. split; [vm_compute; reflexivity|]. intros lord cord [H1 H2]. cbn [obj_normalize]. unfold normalize_weighted. cbn [app].
  match goal with |- context [cord ?m] => replace (cord m) with m by (symmetry; apply Permutation_length_1_inv, Permutation_sym, H2) end. reflexivity.
Qed.
Print Assumptions C43_empty_clause_refuted.
(** An unweighted objective without soft literals makes normalization panic. *)
Theorem C43_no_literals_refuted : exists o, foldM obj_call [OAddClause 1 [pos 0; pos 1]] obj_new = Some o /\ forall lord cord, obj_normalize lord cord o = None.
Proof. eexists. split; [reflexivity|]. reflexivity. Qed.
Print Assumptions C43_no_literals_refuted.
(** Complementary soft literals of an unweighted objective: the wrong literal is dropped. *)
Theorem C43_truncate_refuted : exists o, foldM obj_call [OAddLit 1 (pos 0); OAddLit 1 (negl 0); OAddLit 1 (pos 1)] obj_new = Some o /\
  forall lord cord, exists o', obj_normalize lord cord o = Some o' /\ exists a, obj_value a o = 1%Z /\ obj_value a o' = 2%Z.
Proof. eexists. split; [reflexivity|]. intros lord cord. eexists. split; [reflexivity|]. exists (fun v => (v =? 0)%N). split; reflexivity. Qed.
Print Assumptions C43_truncate_refuted.
(** Complementary and repeated soft literals: the complementary ones are counted twice. *)
Theorem C43_twice_refuted : exists o, foldM obj_call [OIncLit 1 (pos 0); OIncLit 1 (negl 0); OIncLit 1 (pos 1); OIncLit 1 (pos 1)] obj_new = Some o /\
  exists o', obj_normalize (fun m => m) (fun m => m) o = Some o' /\ forall a, obj_value a o' = (obj_value a o + 1)%Z.
Proof. eexists. split; [reflexivity|]. eexists. split; [vm_compute; reflexivity|]. intros a. unfold obj_value. cbn. unfold lit_true. cbn. destruct (a 0%N), (a 1%N); reflexivity. Qed.
Print Assumptions C43_twice_refuted.

(** ** C44: relaxing soft clauses *)

(** Missing: empty soft clauses, see below. *)
Theorem C44_relax_partial : forall lord cord, orders lord cord -> forall o n, obj_wf o -> obj_nonempty o -> lits_below n (obj_vars o) ->
  exists o' f n', convert_to_soft_lits cord o n = Some (o', f, n') /\ n' = (n + N.of_nat (length (obj_cls o)))%N /\ obj_wf o' /\ obj_cls o' = [] /\ lits_below n' (obj_vars o') /\ cnf_below n' f /\
    relaxed n n' f (fun a => obj_value a o') (fun a => obj_value a o).
Proof.
  intros lord cord H o n W N B. destruct (convert_spec lord cord H o n W N B) as (o' & f & n' & E & En & W' & C' & B' & V' & R & _). exists o', f, n'. repeat (split; [assumption|]).
  split; [|exact R]. intros c Hc l Hl. destruct (V' c l Hc Hl) as [Hv|Hv]; [|lia]. apply in_map_iff in Hv as (l' & <- & Hv). apply B in Hv. lia.
Qed.
Print Assumptions C44_relax_partial.
Theorem C44_soft_lits_partial : forall lord cord, orders lord cord -> forall o n, obj_wf o -> obj_nonempty o -> lits_below n (obj_vars o) ->
  exists f ls z n', into_soft_lits lord cord o n = Some (f, ls, z, n') /\ (n <= n')%N /\ lits_below n' (map fst ls) /\ (forall l w, In (l, w) ls -> (0 < w)%nat) /\ NoDup (map fst ls) /\
    relaxed n n' f (fun a => z + Z.of_nat (wsum a ls))%Z (fun a => obj_value a o).
Proof.
  intros lord cord H o n W N B. destruct (into_soft_lits_spec lord cord H o n W N B) as (f & ls & z & n' & E & H1 & H2 & H3 & H4 & _ & R). exists f, ls, z, n'. repeat (split; [assumption|]). exact R.
Qed.
Print Assumptions C44_soft_lits_partial.
Theorem C44_unweighted_soft_lits_partial : forall lord cord, orders lord cord -> forall o n, obj_wf o -> obj_nonempty o -> lits_below n (obj_vars o) ->
  exists f ls w z n', into_unweighted_soft_lits lord cord o n = Some (f, ls, w, z, n') /\ (n <= n')%N /\ (0 < w)%nat /\
    relaxed n n' f (fun a => z + Z.of_nat (w * count_true a ls))%Z (fun a => obj_value a o).
Proof. exact into_unweighted_soft_lits_spec. Qed.
Print Assumptions C44_unweighted_soft_lits_partial.
Example C44_ex : let o := OWeighted 4 [(pos 0, 2%nat)] [([pos 1; negl 2], 3%nat); ([pos 0; pos 2], 1%nat)] in
  obj_wf o /\ obj_nonempty o /\ lits_below 3 (obj_vars o) /\
  into_soft_lits (fun m => m) (fun m => m) o 3 = Some ([[pos 1; negl 2; pos 3]; [pos 0; pos 2; pos 4]], [(pos 0, 2%nat); (pos 3, 3%nat); (pos 4, 1%nat)], 4%Z, 5%N).
Proof.
  split; [|split; [|split; [lits|reflexivity]]].
  - apply wf_weighted. split; [|split; [|split]].
    + intros l w [[= <- <-]|[]]. lia.
    + intros l w [[= <- <-]|[[= <- <-]|[]]]; cbn; lia.
    + cbn. repeat constructor; cbn; intuition discriminate.
    + cbn. repeat constructor; cbn; intuition discriminate.
  - intros w [H|[H|[]]]; discriminate.
Qed.
Theorem C44_empty_clause_refuted : exists o, foldM obj_call [OIncLit 2 (pos 0); OIncClause 2 []] obj_new = Some o /\ forall lord cord, into_soft_lits lord cord o 1 = None.
Proof. eexists. split; [reflexivity|]. reflexivity. Qed.
Print Assumptions C44_empty_clause_refuted.

(** ** C45: converting optimization instances *)

(** With the default encodings, for every instance whose constraints the encoders accept (C39), with the objective's variables
    known to the instance's variable manager, or with clauses only. Missing: objective variables unknown to the variable
    manager, see below. *)
Theorem C45_soft_cls_partial : forall lord cord, orders lord cord -> forall ord ord1 ord2 ord3 ord4,
  iter_order ord -> iter_order ord1 -> iter_order ord2 -> iter_order ord3 -> iter_order ord4 ->
  forall p, inst_known (o_constrs p) -> (forall c, In c (i_pbs (o_constrs p)) -> pb_plain c /\ ~ indivisible c) ->
  objs_known (o_constrs p) [o_obj p] \/ only_clauses (o_constrs p) -> obj_wf (o_obj p) ->
  exists f s n, into_hard_cls_soft_cls lord cord (into_cnf ord ord1 ord2 ord3 ord4) p = Some (f, s, n) /\ soft_cls_form (o_constrs p) [o_obj p] f [s].
Proof. intros lord cord H ord ord1 ord2 ord3 ord4 O O1 O2 O3 O4 p Hk Hp Ho W. apply (soft_cls_spec lord cord H); [assumption| |assumption]. now apply default_clear. Qed.
Print Assumptions C45_soft_cls_partial.
Theorem C45_soft_lits_partial : forall lord cord, orders lord cord -> forall ord ord1 ord2 ord3 ord4,
  iter_order ord -> iter_order ord1 -> iter_order ord2 -> iter_order ord3 -> iter_order ord4 ->
  forall p, inst_known (o_constrs p) -> (forall c, In c (i_pbs (o_constrs p)) -> pb_plain c /\ ~ indivisible c) ->
  objs_known (o_constrs p) [o_obj p] \/ only_clauses (o_constrs p) -> obj_wf (o_obj p) -> obj_nonempty (o_obj p) ->
  exists f s n, into_hard_cls_soft_lits lord cord (into_cnf ord ord1 ord2 ord3 ord4) p = Some (f, s, n) /\ soft_lits_form (o_constrs p) [o_obj p] f [s].
Proof. intros lord cord H ord ord1 ord2 ord3 ord4 O O1 O2 O3 O4 p Hk Hp Ho W N. apply (soft_lits_spec lord cord H); [assumption| |assumption|assumption]. now apply default_clear. Qed.
Print Assumptions C45_soft_lits_partial.
(** with any encoders that encode each constraint exactly *)
Theorem C45_encoders_partial : forall lord cord, orders lord cord -> forall card_enc pb_enc p, inst_known (o_constrs p) -> objs_known (o_constrs p) [o_obj p] ->
  (forall c n, In c (i_cards (o_constrs p)) -> lits_below n (c_lits c) -> exists cs n', card_enc c n = Some (cs, n') /\ exact_clauses (c_lits c) n n' cs (fun a => card_holds a c)) ->
  (forall c n, In c (i_pbs (o_constrs p)) -> lits_below n (map fst (p_lits c)) -> exists cs n', pb_enc c n = Some (cs, n') /\ exact_clauses (map fst (p_lits c)) n n' cs (fun a => pb_holds a c)) ->
  obj_wf (o_obj p) -> obj_nonempty (o_obj p) ->
  (exists f s n, into_hard_cls_soft_cls lord cord (into_cnf_with_encoders card_enc pb_enc) p = Some (f, s, n) /\ soft_cls_form (o_constrs p) [o_obj p] f [s]) /\
  (exists f s n, into_hard_cls_soft_lits lord cord (into_cnf_with_encoders card_enc pb_enc) p = Some (f, s, n) /\ soft_lits_form (o_constrs p) [o_obj p] f [s]).
Proof.
  intros lord cord H card_enc pb_enc p Hk Ho Hc Hp W N. assert (C : clear_of (into_cnf_with_encoders card_enc pb_enc) (o_constrs p) [o_obj p]).
  { destruct (into_cnf_exact card_enc pb_enc (o_constrs p) Hk Hc Hp) as (f & n & E & X). exists f, n. split; [assumption|]. split; [assumption|]. intros o l H1 H2. left. exact (Ho o H1 l H2). }
  split; [now apply (soft_cls_spec lord cord H)|now apply (soft_lits_spec lord cord H)].
Qed.
Print Assumptions C45_encoders_partial.
(** several objectives *)
Theorem C45_multi_soft_cls_partial : forall lord cord, orders lord cord -> forall ord ord1 ord2 ord3 ord4,
  iter_order ord -> iter_order ord1 -> iter_order ord2 -> iter_order ord3 -> iter_order ord4 ->
  forall p, inst_known (mo_constrs p) -> (forall c, In c (i_pbs (mo_constrs p)) -> pb_plain c /\ ~ indivisible c) ->
  objs_known (mo_constrs p) (mo_objs p) \/ only_clauses (mo_constrs p) -> (forall o, In o (mo_objs p) -> obj_wf o) ->
  exists f ss n, m_into_hard_cls_soft_cls lord cord (into_cnf ord ord1 ord2 ord3 ord4) p = Some (f, ss, n) /\ soft_cls_form (mo_constrs p) (mo_objs p) f ss.
Proof. intros lord cord H ord ord1 ord2 ord3 ord4 O O1 O2 O3 O4 p Hk Hp Ho W. apply (m_soft_cls_spec lord cord H); [assumption| |assumption]. now apply default_clear. Qed.
Print Assumptions C45_multi_soft_cls_partial.
Theorem C45_multi_soft_lits_partial : forall lord cord, orders lord cord -> forall ord ord1 ord2 ord3 ord4,
  iter_order ord -> iter_order ord1 -> iter_order ord2 -> iter_order ord3 -> iter_order ord4 ->
  forall p, inst_known (mo_constrs p) -> (forall c, In c (i_pbs (mo_constrs p)) -> pb_plain c /\ ~ indivisible c) ->
  objs_known (mo_constrs p) (mo_objs p) -> (forall o, In o (mo_objs p) -> obj_wf o /\ obj_nonempty o) ->
  exists f ss n, m_into_hard_cls_soft_lits lord cord (into_cnf ord ord1 ord2 ord3 ord4) p = Some (f, ss, n) /\ soft_lits_form (mo_constrs p) (mo_objs p) f ss.
Proof. intros lord cord H ord ord1 ord2 ord3 ord4 O O1 O2 O3 O4 p Hk Hp Ho W. apply (m_soft_lits_spec lord cord H); [assumption|assumption| |assumption]. now apply into_cnf_default. Qed.
Print Assumptions C45_multi_soft_lits_partial.
(** Composing or decomposing an instance makes the objectives' variables known and keeps the constraints. *)
Theorem C45_compose : (forall i o, inst_known i -> inst_known (o_constrs (opt_compose i o)) /\ objs_known (o_constrs (opt_compose i o)) [o_obj (opt_compose i o)] /\
    o_obj (opt_compose i o) = o /\ forall a, inst_holds a (o_constrs (opt_compose i o)) <-> inst_holds a i) /\
  (forall p i o, inst_known (o_constrs p) -> opt_decompose p = (i, o) -> o = o_obj p /\ inst_known i /\ objs_known i [o] /\ forall a, inst_holds a i <-> inst_holds a (o_constrs p)).
Proof. split; [|exact decompose_known]. intros i o H. destruct (compose_known i o H) as (H1 & H2 & H3). auto. Qed.
Print Assumptions C45_compose.
Theorem C45_multi_compose : (forall os i, inst_known i -> inst_known (mo_constrs (mopt_compose i os)) /\ objs_known (mo_constrs (mopt_compose i os)) (mo_objs (mopt_compose i os)) /\
    mo_objs (mopt_compose i os) = os /\ forall a, inst_holds a (mo_constrs (mopt_compose i os)) <-> inst_holds a i) /\
  (forall p i os, inst_known (mo_constrs p) -> mopt_decompose p = (i, os) -> os = mo_objs p /\ inst_known i /\ objs_known i os /\ forall a, inst_holds a i <-> inst_holds a (mo_constrs p)).
Proof. split; [|exact m_decompose_known]. intros os i H. destruct (m_compose_known os i H) as (H1 & H2 & H3 & _). auto. Qed.
Print Assumptions C45_multi_compose.
Example C45_ex : let p := opt_compose (mkInst [[pos 0; pos 1]] [mkCard KUb [pos 0; pos 1; pos 2] 1] [] 3) (OUnweighted 0 (Some 1%nat) [pos 3; pos 0] [[pos 2; pos 4]]) in
  inst_known (o_constrs p) /\ objs_known (o_constrs p) [o_obj p] /\ obj_wf (o_obj p) /\ obj_nonempty (o_obj p) /\ i_next (o_constrs p) = 5%N /\
  exists f, into_hard_cls_soft_lits (fun m => m) (fun m => m) (into_cnf (fun m => m) (fun m => m) (fun m => m) (fun m => m) (fun m => m)) p = Some (f, ([(pos 3, 1%nat); (pos 0, 1%nat); (pos 8, 1%nat)], 0%Z), 9%N) /\ length f = 8%nat.
Proof.
  split; [lits|]. split; [intros o [<-|[]]; lits|]. split; [apply wf_some; split; [lia|intros c [<-|[]]; discriminate]|]. split; [intros w [H|[]]; discriminate|]. split; [reflexivity|]. eexists. split; vm_compute; reflexivity.
Qed.
(** The variables of the objective need not be known to the variable manager if they were only added to the objective; the
    conversion then uses them as auxiliary variables. *)
Theorem C45_unknown_refuted : exists p, inst_known (o_constrs p) /\ obj_wf (o_obj p) /\ obj_nonempty (o_obj p) /\ i_cards (o_constrs p) = [mkCard KUb [pos 0; pos 1; pos 2] 1] /\ i_pbs (o_constrs p) = [] /\
  exists f s n, into_hard_cls_soft_lits (fun m => m) (fun m => m) (into_cnf (fun m => m) (fun m => m) (fun m => m) (fun m => m) (fun m => m)) p = Some (f, s, n) /\
    exists a, inst_holds a (o_constrs p) /\ obj_value a (o_obj p) = 0%Z /\ forall a', (forall v, opt_var (o_constrs p) [o_obj p] v -> a' v = a v) -> sat_cnf a' f = false.
Proof.
  exists (mkOpt (mkInst [] [mkCard KUb [pos 0; pos 1; pos 2] 1] [] 3) (OUnweighted 0 (Some 1%nat) [pos 3] [])). split; [lits|]. split; [apply wf_some; split; [lia|intros c []]|]. split; [intros w []|]. split; [reflexivity|]. split; [reflexivity|].
  eexists _, _, _. split; [vm_compute; reflexivity|]. exists (fun v => (v =? 0)%N). split; [split; [reflexivity|split; [intros c [<-|[]]; cbn; lia|intros c []]]|]. split; [reflexivity|].
  intros a' H. assert (H0 : a' 0%N = true) by (rewrite H; [reflexivity|]; left; exists (pos 0); split; [cbn; auto|reflexivity]). assert (H3 : a' 3%N = false) by (rewrite H; [reflexivity|]; right; eexists; split; [now left|cbn; auto]).
  unfold sat_cnf, sat_clause. cbn. unfold lit_true. cbn. rewrite H0, H3. cbn. now rewrite !andb_false_r.
Qed.
Print Assumptions C45_unknown_refuted.
(** With several objectives the largest variable of the objectives is used as a relaxation literal. *)
Theorem C45_multi_unknown_refuted : exists p, only_clauses (mo_constrs p) /\ inst_known (mo_constrs p) /\ (forall o, In o (mo_objs p) -> obj_wf o /\ obj_nonempty o) /\
  exists f ss n, m_into_hard_cls_soft_lits (fun m => m) (fun m => m) (into_cnf (fun m => m) (fun m => m) (fun m => m) (fun m => m) (fun m => m)) p = Some (f, ss, n) /\
    exists a, inst_holds a (mo_constrs p) /\ map (obj_value a) (mo_objs p) = [0%Z] /\ forall a', (forall v, opt_var (mo_constrs p) (mo_objs p) v -> a' v = a v) -> map (lits_value a') ss = [1%Z].
Proof.
  exists (mkMopt (mkInst [] [] [] 0) [OUnweighted 0 (Some 1%nat) [] [[pos 0; pos 1]]]). split; [split; reflexivity|]. split; [intros l []|]. split; [intros o [<-|[]]; split; [apply wf_some; split; [lia|intros c [<-|[]]; discriminate]|intros w [H|[]]; discriminate]|].
  eexists _, _, _. split; [vm_compute; reflexivity|]. exists (fun v => (v =? 1)%N). split; [split; [reflexivity|split; intros c []]|]. split; [reflexivity|].
  intros a' H. assert (H1 : a' 1%N = true) by (rewrite H; [reflexivity|]; right; eexists; split; [now left|cbn; auto]). cbn. unfold lits_value. cbn. unfold lit_true. cbn. now rewrite H1.
Qed.
Print Assumptions C45_multi_unknown_refuted.

(** ** C58: the cost of an assignment *)
Theorem C58_cost : forall s p a, (forall c, In c (i_pbs (o_constrs p)) -> (p_b c <= isize_max)%Z) -> obj_wf (o_obj p) ->
  (forall l, In l (inst_lits (o_constrs p)) \/ In l (obj_vars (o_obj p)) -> lit_value s l <> TDontCare) -> completes a (pasg_of s) ->
  (opt_cost s p = Some (Some (obj_value a (o_obj p))) /\ inst_holds a (o_constrs p)) \/ (opt_cost s p = Some None /\ ~ inst_holds a (o_constrs p)).
Proof. exact opt_cost_total. Qed.
Print Assumptions C58_cost.
Theorem C58_multi_cost : forall s p a, (forall c, In c (i_pbs (mo_constrs p)) -> (p_b c <= isize_max)%Z) -> (forall o, In o (mo_objs p) -> obj_wf o) ->
  (forall l, In l (inst_lits (mo_constrs p)) \/ (exists o, In o (mo_objs p) /\ In l (obj_vars o)) -> lit_value s l <> TDontCare) -> completes a (pasg_of s) ->
  (mopt_cost s p = Some (Some (map (obj_value a) (mo_objs p))) /\ inst_holds a (mo_constrs p)) \/ (mopt_cost s p = Some None /\ ~ inst_holds a (mo_constrs p)).
Proof. exact mopt_cost_total. Qed.
Print Assumptions C58_multi_cost.
(** For partial assignments: if a cost is returned, the constraints hold for every completion, whose costs are at least that. *)
Theorem C58_cost_lower : forall s p v a, (forall c, In c (i_pbs (o_constrs p)) -> (Z.of_nat (total_weight (p_lits c)) <= isize_max)%Z) -> obj_wf (o_obj p) ->
  opt_cost s p = Some (Some v) -> completes a (pasg_of s) -> inst_holds a (o_constrs p) /\ (v <= obj_value a (o_obj p))%Z.
Proof. exact opt_cost_lower. Qed.
Print Assumptions C58_cost_lower.
Example C58_cost_lower_ex : let p := mkOpt (mkInst [[pos 0; pos 1]] [mkCard KUb [pos 0; pos 1] 1] [] 2) (OWeighted 3 [(pos 0, 2%nat)] [([pos 1; pos 2], 4%nat)]) in
  opt_cost [TTrue; TFalse; TDontCare] p = Some (Some 5%Z) /\ opt_cost [TTrue; TDontCare; TDontCare] p = Some None.
Proof. split; reflexivity. Qed.
Example C58_cost_ex : let p := mkOpt (mkInst [[pos 0; pos 1]] [mkCard KUb [pos 0; pos 1] 1] [] 2) (OWeighted 3 [(pos 0, 2%nat)] [([pos 1; pos 2], 4%nat)]) in
  opt_cost [TTrue; TFalse; TFalse] p = Some (Some 9%Z) /\ opt_cost [TTrue; TTrue; TFalse] p = Some None.
Proof. split; reflexivity. Qed.

(** ** C59: re-indexing objectives and optimization instances *)
Theorem C59_objectives : forall lord cord, orders lord cord -> forall t f p L U s g cards pbs os s', history reindexing re_reindex N.eqb t false f L U s -> (forall o, In o (mo_objs p) -> obj_wf o) ->
  mopt_reindex re_reindex lord cord p s = Some (g, cards, pbs, os, s') ->
  exists r, renamed r (mo_constrs p) g cards pbs /\ Forall2 (obj_renamed r) (mo_objs p) os /\
    (forall v v', opt_var (mo_constrs p) (mo_objs p) v -> opt_var (mo_constrs p) (mo_objs p) v' -> r v = r v' -> v = v') /\
    (forall v, opt_var (mo_constrs p) (mo_objs p) v -> re_reindex v s' = Some (r v, s') /\ (r v < m_n_used reindexing s')%N) /\
    forall v u, In (v, u) L -> r v = u.
Proof. exact mopt_reindex_renamed. Qed.
Print Assumptions C59_objectives.
(** Costs are kept. *)
Theorem C59_objective_value : forall r o o', obj_renamed r o o' -> forall a, obj_value a o' = obj_value (fun v => a (r v)) o.
Proof. exact renamed_value. Qed.
Print Assumptions C59_objective_value.
Theorem C59_objectives_ordered : forall lord cord, orders lord cord -> forall p n g cards pbs os s', (forall o, In o (mo_objs p) -> obj_wf o) ->
  mopt_reindex_ordered re_reindex lord cord p (re_start n) = Some (g, cards, pbs, os, s') ->
  exists r, renamed r (mo_constrs p) g cards pbs /\ Forall2 (obj_renamed r) (mo_objs p) os /\
    (forall v v', opt_var (mo_constrs p) (mo_objs p) v -> opt_var (mo_constrs p) (mo_objs p) v' -> (v < v')%N -> (r v < r v')%N) /\
    (forall u, (n <= u < m_n_used reindexing s')%N <-> exists v, opt_var (mo_constrs p) (mo_objs p) v /\ r v = u) /\
    (forall v, opt_var (mo_constrs p) (mo_objs p) v -> re_reverse (r v) s' = Some v).
Proof. exact mopt_reindex_ordered_renamed. Qed.
Print Assumptions C59_objectives_ordered.
Example C59_objectives_ex : let p := mkMopt (mkInst [[pos 7; negl 4]] [] [] 8) [OWeighted 1 [(pos 9, 2%nat); (negl 4, 1%nat)] [([pos 9; pos 2], 3%nat)]; OUnweighted 0 (Some 1%nat) [pos 11] []] in
  exists s s', mopt_reindex re_reindex (fun m => m) (fun m => m) p (re_start 0) = Some ([[pos 4; negl 1]], [], [], [OWeighted 1 [(pos 0, 2%nat); (negl 1, 1%nat)] [([pos 0; pos 2], 3%nat)]; OUnweighted 0 (Some 1%nat) [pos 3] []], s) /\
    mopt_reindex_ordered re_reindex (fun m => m) (fun m => m) p (re_start 0) = Some ([[pos 2; negl 1]], [], [], [OWeighted 1 [(pos 3, 2%nat); (negl 1, 1%nat)] [([pos 3; pos 0], 3%nat)]; OUnweighted 0 (Some 1%nat) [pos 4] []], s').
Proof. eexists _, _. split; vm_compute; reflexivity. Qed.
