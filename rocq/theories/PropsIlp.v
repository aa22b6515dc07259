(** * Property theorems about writing instances as 0-1 linear programs (C83) *)

From Coq Require Import List Bool NArith ZArith Ascii String Lia.
From Coq Require Import ZifyBool ZifyNat ZifyN.
From Verif Require Import Spec Types Base ConstrSpec Constraints Inst InstSpec Opt OptSpec Text FioSpec DimacsSpec Dimacs Opb OpbSpec
  Tools ToolSpec ToolText CheckSpec PropsTools PropsCheck IlpSpec Mo2ilp Mo2ilpProofs Mo2ilpTool.
Import ListNotations.
Open Scope list_scope.

(** ** C83 Multi-objective instances as 0-1 linear programs *)

Definition idl (m : list (lit * nat)) := m.
Definition idc (m : list (clause * nat)) := m.
(** An instance with all kinds of constraints, variables that do not occur, negated soft literals, a soft clause and an offset *)
Definition ex_ilp : mopt := mkMopt
  (mkInst [[pos 0; negl 2]] [mkCard KEq [pos 0; pos 4] 1] [mkPb KUb [(negl 2, 2%nat); (pos 4, 3%nat)] 5 4] 6)
  [OWeighted 2 [(negl 0, 3%nat); (pos 4, 1%nat)] [([pos 2; negl 4], 2%nat)]; OUnweighted 0 (Some 1%nat) [pos 2] []].
Lemma ex_ilp_known : inst_known (mo_constrs ex_ilp).
Proof. intros l Hl. cbn in Hl. decompose [or] Hl; subst; try contradiction; cbn; lia. Qed.
Lemma ex_ilp_objs : forall o, In o (mo_objs ex_ilp) -> obj_wf o /\ obj_nonempty o.
Proof.
  intros o [<-|[<-|[]]]; (split; [split; [|split]|]).
  - intros l w [H|[H|[]]]; injection H as <- <-; lia.
  - intros c w [H|[]]; injection H as <- <-. split; [lia|discriminate].
  - cbn. split; repeat (apply NoDup_cons; [cbn; intuition discriminate|]); apply NoDup_nil.
  - intros w [H|[]]; discriminate.
  - intros l w [H|[]]; injection H as <- <-; cbn; lia.
  - intros c w [].
  - discriminate.
  - intros w [].
Qed.
Lemma ex_ilp_small : small_weights ex_ilp.
Proof.
  split; [intros c l w [<-|[]] [H|[H|[]]]; injection H as <- <-; small|]. intros o [<-|[<-|[]]]; split; cbn [obj_lits obj_cls map or_zero].
  - intros l w [H|[H|[]]]; injection H as <- <-; small.
  - intros c w [H|[]]; injection H as <- <-; small.
  - intros l w [H|[]]; injection H as <- <-; small.
  - intros c w [].
Qed.

(** The program that is written can be read; its solutions are solutions of the instance and cost at least as much, and every solution of
    the instance extends to one of the program with the same cost. *)
Theorem C83_program : forall lord cord u nz p, orders lord cord -> u <> URemove -> inst_known (mo_constrs p) -> (forall o, In o (mo_objs p) -> obj_wf o /\ obj_nonempty o) -> small_weights p ->
  exists t I, to_ilp lord cord u nz p = Some t /\ read_ilp nz t = Some I /\
    stands_for (opt_var (mo_constrs p) (mo_objs p)) (fun a => inst_holds a (mo_constrs p)) (fun a => map (obj_value a) (mo_objs p))
      (fun a => ilp_holds a I) (ilp_costs I) (map (fun _ => 0%Z) (mo_objs p)).
Proof. intros lord cord u nz p Ho. exact (to_ilp_spec lord cord Ho u nz p). Qed.
Print Assumptions C83_program.
Example C83_program_ex : inst_known (mo_constrs ex_ilp) /\ (forall o, In o (mo_objs ex_ilp) -> obj_wf o /\ obj_nonempty o) /\ small_weights ex_ilp /\
  to_ilp idl idc UNothing true ex_ilp = Some (line (T "8 5 2 10 4") ++ line [] ++
    line (T "-3 0 0 0 1 0 2 5") ++ line (T "0 0 1 0 0 0 0 0") ++ line [] ++
    line (T "0 0 -2 0 3 0 0 0") ++ line (T "1 0 0 0 1 0 0 0") ++ line (T "1 0 -1 0 0 0 0 0") ++ line (T "0 0 1 0 -1 0 1 0") ++ line (T "0 0 0 0 0 0 0 1") ++ line [] ++
    line (T "1 2") ++ line (T "2 1") ++ line (T "0 0") ++ line (T "0 0") ++ line (T "0 1")).
Proof. split; [exact ex_ilp_known|]. split; [exact ex_ilp_objs|]. split; [exact ex_ilp_small|]. vm_compute. reflexivity. Qed.

(** By default variables that do not occur are 0 in every solution of the program. *)
Theorem C83_assign_zero : forall lord cord nz p, orders lord cord -> inst_known (mo_constrs p) -> (forall o, In o (mo_objs p) -> obj_wf o /\ obj_nonempty o) -> small_weights p ->
  exists t I, to_ilp lord cord UAssignZero nz p = Some t /\ read_ilp nz t = Some I /\
    stands_for (opt_var (mo_constrs p) (mo_objs p)) (fun a => inst_holds a (mo_constrs p)) (fun a => map (obj_value a) (mo_objs p))
      (fun a => ilp_holds a I) (ilp_costs I) (map (fun _ => 0%Z) (mo_objs p)) /\
    forall a v, ilp_holds a I -> (v < i_next (mo_constrs p))%N -> ~ opt_var (mo_constrs p) (mo_objs p) v -> a v = false.
Proof. intros lord cord nz p Ho. exact (assign_zero_spec lord cord Ho nz p). Qed.
Print Assumptions C83_assign_zero.
Example C83_assign_zero_ex : to_ilp idl idc UAssignZero false ex_ilp = Some (line (T "8 8 2") ++ line [] ++ line (T "minsum minsum") ++ line [] ++
    line (T "-3 0 0 0 1 0 2 5") ++ line (T "0 0 1 0 0 0 0 0") ++ line [] ++
    line (T "0 0 -2 0 3 0 0 0") ++ line (T "1 0 0 0 1 0 0 0") ++ line (T "1 0 -1 0 0 0 0 0") ++ line (T "0 -1 0 0 0 0 0 0") ++ line (T "0 0 0 -1 0 0 0 0") ++ line (T "0 0 0 0 0 -1 0 0") ++
    line (T "0 0 1 0 -1 0 1 0") ++ line (T "0 0 0 0 0 0 0 1") ++ line [] ++
    line (T "1 2") ++ line (T "2 1") ++ line (T "0 0") ++ line (T "0 0") ++ line (T "0 0") ++ line (T "0 0") ++ line (T "0 0") ++ line (T "0 1") ++ line [] ++
    line (T "0 0 0 0 0 0 0 0") ++ line (T "1 1 1 1 1 1 1 1")).
Proof. vm_compute. reflexivity. Qed.

(** Variables that do not occur can be removed instead: the other ones are renumbered from 0, in the same order. *)
Theorem C83_remove : forall lord cord nz p, orders lord cord -> (forall o, In o (mo_objs p) -> obj_wf o /\ obj_nonempty o) -> small_weights p ->
  (forall v, opt_var (mo_constrs p) (mo_objs p) v -> (v + 1 < max_var_idx)%N) ->
  exists t I r, to_ilp lord cord URemove nz p = Some t /\ read_ilp nz t = Some I /\
    (forall v v', opt_var (mo_constrs p) (mo_objs p) v -> opt_var (mo_constrs p) (mo_objs p) v' -> (v < v')%N -> (r v < r v')%N) /\
    (forall v u, opt_var (mo_constrs p) (mo_objs p) v -> (u < r v)%N -> exists v', opt_var (mo_constrs p) (mo_objs p) v' /\ r v' = u) /\
    stands_for (fun u => exists v, opt_var (mo_constrs p) (mo_objs p) v /\ r v = u) (fun a => inst_holds (fun v => a (r v)) (mo_constrs p))
      (fun a => map (obj_value (fun v => a (r v))) (mo_objs p)) (fun a => ilp_holds a I) (ilp_costs I) (map (fun _ => 0%Z) (mo_objs p)).
Proof. intros lord cord nz p Ho. exact (remove_spec lord cord Ho nz p). Qed.
Print Assumptions C83_remove.
Example C83_remove_ex : (forall v, opt_var (mo_constrs ex_ilp) (mo_objs ex_ilp) v -> (v + 1 < max_var_idx)%N) /\
  to_ilp idl idc URemove true ex_ilp = Some (line (T "5 5 2 10 4") ++ line [] ++
    line (T "-3 0 1 2 5") ++ line (T "0 1 0 0 0") ++ line [] ++
    line (T "0 -2 3 0 0") ++ line (T "1 0 1 0 0") ++ line (T "1 -1 0 0 0") ++ line (T "0 1 -1 1 0") ++ line (T "0 0 0 0 1") ++ line [] ++
    line (T "1 2") ++ line (T "2 1") ++ line (T "0 0") ++ line (T "0 0") ++ line (T "0 1")).
Proof.
  split; [|vm_compute; reflexivity]. intros v [(l & Hl & <-)|(o & [<-|[<-|[]]] & Hv)].
  - cbn in Hl. decompose [or] Hl; subst; try contradiction; small.
  - cbn in Hv. decompose [or] Hv; subst; try contradiction; small.
  - cbn in Hv. decompose [or] Hv; subst; try contradiction; small.
Qed.

(** The tool on files *)
Theorem C83_mcnf : forall lord cord o t n es u nz, orders lord cord -> mcnf_file n es t -> u <> URemove ->
  (forall k, positive_softs (msofts k es) /\ (forall w, ~ In ([], w) (msofts k es)) /\ (Z.of_nat (list_sum (map snd (msofts k es))) <= isize_max)%Z) ->
  exists out I, mo2ilp lord cord FMcnf o u nz t = ROk out /\ read_ilp nz out = Some I /\
    stands_for (item_var es) (fun a => sat_cnf a (hards es) = true) (mcnf_costs (n_objs es) es) (fun a => ilp_holds a I) (ilp_costs I) (repeat 0%Z (n_objs es)).
Proof. intros lord cord o t n es u nz Ho. exact (mo2ilp_mcnf lord cord Ho o t n es u nz). Qed.
Print Assumptions C83_mcnf.
Example C83_mcnf_ex : mcnf_file 3 ex_mitems ex_mcnf_text /\
  (forall k, positive_softs (msofts k ex_mitems) /\ (forall w, ~ In ([], w) (msofts k ex_mitems)) /\ (Z.of_nat (list_sum (map snd (msofts k ex_mitems))) <= isize_max)%Z) /\
  mo2ilp idl idc FMcnf opb_default UAssignZero true ex_mcnf_text = ROk (line (T "6 4 3 9 3") ++ line [] ++
    line (T "0 0 0 3 0 0") ++ line (T "0 0 0 0 0 0") ++ line (T "2 0 0 0 5 0") ++ line [] ++
    line (T "1 -1 0 0 0 0") ++ line (T "1 1 0 1 0 0") ++ line (T "0 -1 1 0 1 0") ++ line (T "0 0 0 0 0 1") ++ line [] ++
    line (T "0 0") ++ line (T "0 1") ++ line (T "0 0") ++ line (T "0 1")).
Proof.
  split; [exact ex_mcnf_file|]. split; [|vm_compute; reflexivity]. destruct C67_mcnf2opb_ex as (_ & _ & H & _). intros k. destruct (H k) as (H1 & H2 & H3 & _). auto.
Qed.
Theorem C83_opb : forall lord cord o t ss u nz, orders lord cord -> opb_file (first_var_idx o) ss t -> no_less ss -> Forall checkable ss ->
  (forall s ts e, In (SObj s ts) ss -> In e ts -> snd e <> 0%Z) -> u <> URemove ->
  exists out I, mo2ilp lord cord FOpb o u nz t = ROk out /\ read_ilp nz out = Some I /\
    stands_for (stmt_var ss) (fun a => constrs_hold a ss) (opb_costs ss) (fun a => ilp_holds a I) (ilp_costs I) (repeat 0%Z (List.length (objs_of ss))).
Proof. intros lord cord o t ss u nz Ho. exact (mo2ilp_opb lord cord Ho o t ss u nz). Qed.
Print Assumptions C83_opb.
Example C83_opb_ex : problem_file 1 FOpb (put_file 1 ex_checked) (fun a => constrs_hold a ex_checked) (opb_costs ex_checked) (stmt_var ex_checked) /\
  (forall s ts e, In (SObj s ts) ex_checked -> In e ts -> snd e <> 0%Z) /\
  mo2ilp idl idc FOpb opb_default UAssignZero false (put_file 1 ex_checked) = ROk (line (T "5 3 1") ++ line [] ++ line (T "minsum") ++ line [] ++
    line (T "-2 3 0 -1 -3") ++ line [] ++ line (T "2 -1 -3 0 0") ++ line (T "1 0 0 1 0") ++ line (T "0 0 0 0 1") ++ line [] ++
    line (T "0 -1") ++ line (T "2 1") ++ line (T "0 1") ++ line [] ++ line (T "0 0 0 0 0") ++ line (T "1 1 1 1 1")).
Proof.
  split; [exact ex_checked_ok|]. split; [|vm_compute; reflexivity]. intros s ts e H He. cbn in H. decompose [or] H; try discriminate; try contradiction. injection H0 as <- <-. cbn in He. decompose [or] He; subst; try contradiction; discriminate.
Qed.

(** The numbers of non-zero entries written in the header can be wrong, both of the constraint and of the cost matrix. *)
Definition ex_nz : mopt := mkMopt (mkInst [[pos 0; negl 0; pos 1]] [] [] 2) [OWeighted 0 [(negl 0, 3%nat)] []].
Theorem C83_nonzeros_refuted : exists p, inst_known (mo_constrs p) /\ (forall o, In o (mo_objs p) -> obj_wf o /\ obj_nonempty o) /\ small_weights p /\
  forall lord cord u, orders lord cord -> u <> URemove -> exists t I x y, to_ilp lord cord u true p = Some t /\ read_ilp true t = Some I /\ il_said I = Some (x, y) /\
    (nonzeros (map fst (il_rows I)) < x)%nat /\ (y < nonzeros (il_costs I))%nat.
Proof.
  exists ex_nz. split; [intros l Hl; cbn in Hl; decompose [or] Hl; subst; try contradiction; cbn; lia|]. split; [|split].
  - intros o [<-|[]]. split; [split; [|split]|].
    + intros l w [H|[]]; injection H as <- <-; lia.
    + intros c w [].
    + cbn. split; repeat (apply NoDup_cons; [cbn; intuition discriminate|]); apply NoDup_nil.
    + intros w [].
  - split; [intros c l w []|]. intros o [<-|[]]. split; [intros l w [H|[]]; injection H as <- <-; small|intros c w []].
  - intros lord cord u [Hl Hc] Hu.
    assert (E : to_ilp lord cord u true ex_nz = to_ilp idl idc UNothing true ex_nz).
    { assert (E1 : lord [(negl 0, 3%nat)] = [(negl 0, 3%nat)]) by exact (Permutation.Permutation_length_1_inv (Permutation.Permutation_sym (Hl _))).
      assert (E2 : cord [] = []) by exact (Permutation.Permutation_nil (Permutation.Permutation_sym (Hc _))).
      destruct u; [|congruence|]; unfold to_ilp, write_ilp; cbn; unfold obj_row, iter_soft_lits; cbn; rewrite ?E1, ?E2; cbn; rewrite ?E1, ?E2; reflexivity. }
    rewrite E. do 4 eexists. split; [vm_compute; reflexivity|]. split; [vm_compute; reflexivity|]. split; [reflexivity|]. split; vm_compute; lia.
Qed.
Print Assumptions C83_nonzeros_refuted.

(** A soft clause without literals makes the tool panic. *)
Theorem C83_empty_soft_refuted : exists p, inst_known (mo_constrs p) /\ (forall o, In o (mo_objs p) -> obj_wf o) /\ small_weights p /\
  forall lord cord u nz, orders lord cord -> to_ilp lord cord u nz p = None.
Proof.
  exists (mkMopt (mkInst [[pos 0]] [] [] 1) [OWeighted 0 [] [([], 2%nat)]]). split; [intros l [<-|[]]; cbn; lia|]. split; [|split].
  - intros o [<-|[]]. split; [|split].
    + intros l w [].
    + intros c w [H|[]]; injection H as <- <-. split; [lia|discriminate].
    + cbn. split; repeat (apply NoDup_cons; [cbn; intuition discriminate|]); apply NoDup_nil.
  - split; [intros c l w []|]. intros o [<-|[]]. split; [intros l w []|intros c w [H|[]]; injection H as <- <-; small].
  - intros lord cord u nz [Hl Hc].
    assert (E1 : lord [] = []) by exact (Permutation.Permutation_nil (Permutation.Permutation_sym (Hl _))).
    assert (E2 : cord [([], 2%nat)] = [([], 2%nat)]) by exact (Permutation.Permutation_length_1_inv (Permutation.Permutation_sym (Hc _))).
    destruct u; unfold to_ilp.
    2: replace (unused_vars lord cord URemove _) with (Some (mkMopt (mkInst [[pos 0]] [] [] 1) [OWeighted 0 [] [([], 2%nat)]])) by (cbn; rewrite ?E1, ?E2; cbn; rewrite ?E1, ?E2; vm_compute; reflexivity).
    all: unfold write_ilp; cbn; rewrite ?E1, ?E2; cbn; rewrite ?E1, ?E2; reflexivity.
Qed.
Print Assumptions C83_empty_soft_refuted.
