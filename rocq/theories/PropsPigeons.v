(** * C81: what is written to a proof file is what was asked for *)

From Coq Require Import Bool NArith ZArith Ascii String List Lia.
From Verif Require Import Spec Types Text CertSpec PigeonsSpec Pigeons PigeonsHist PigeonsSteps.
Import ListNotations.
Open Scope list_scope.

(** Every history of calls within their contract ([good_calls]) on a new proof runs without a panic. The file it leaves, whether the
    proof is concluded, dropped, or dropped after the default conclusion was changed, can be read: it has the header, the number of
    constraints, exactly the lines the calls ask for, and one output section and conclusion. Every call returns the identifier the checker
    gives to the constraint that the call adds. Missing: definitions of orders, [substitute], weakening, objectives with a constant
    and goals for new objectives. *)
Theorem C81_file_partial short n opt g0 c0 cs : good_calls opt (n + 1) cs ->
  exists p rs ls, calls short (proof_new n opt g0 c0) cs = Some (p, rs) /\ written (n + 1) cs rs ls (pr_next p) /\
    (forall g c, good_conclusion c -> read_text (conclude p g c) = Some (LHeader :: LRule (RCount n) false :: ls ++ [LOutput g; LConclusion c; LEndProof])) /\
    (good_conclusion c0 -> read_text (dropped p) = Some (LHeader :: LRule (RCount n) false :: ls ++ [LOutput g0; LConclusion c0; LEndProof])) /\
    (forall g c, good_conclusion c -> read_text (dropped (set_default p g c)) = Some (LHeader :: LRule (RCount n) false :: ls ++ [LOutput g; LConclusion c; LEndProof])).
Proof. exact (file_ok short n opt g0 c0 cs). Qed.
Print Assumptions C81_file_partial.

Definition ex_con : pcon := ([(3%Z, (false, T "x1")); ((-42)%Z, (true, T "x2"))], 2%Z).
Definition ex_calls : list pcall :=
  [ COperations [PId (IAbs 1); PId (IRel 2); PAdd; PMul 3; PAx (true, T "x2"); PAdd; PDiv 2; PSat];
    CRup ex_con [IRel 1; IAbs 2];
    CComment (T "a comment");
    CRed ex_con [(T "x1", VTrue); (T "x2", VLit (true, T "y_3"))] [EDer (DRup ex_con []); EGoal (GNum 1) [DOps [PId (IRel 1); PSat]; DRup ex_con [IAbs 1]]];
    CExclude [(false, T "x1"); (true, T "x2")];
    CDelRange (BIncl (IRel 2)) (BIncl (IRel 1));
    CDelIds [IAbs 3; IRel 1] [];
    CImpliedAdd ex_con None;
    CObjDiff ([(1%Z, (false, T "x1"))], 0%Z) ].
Example ex_calls_good : good_calls true (2 + 1) ex_calls.
Proof.
  unfold ex_calls. cbn [good_calls]. repeat split; cbn; try discriminate; try (repeat constructor; fail); try (intuition discriminate); try lia.
  - repeat constructor; discriminate.
  - exists 11. unfold in_range. cbn. lia.
Qed.
Example ex_file : exists p, calls false (proof_new 2 true GuNone CoNone) ex_calls = Some (p, [Some 3; Some 4; None; Some 10; Some 11; None; None; Some 12; None]) /\
  conclude p (GuDerivable OFile) (CoBounds 3 (Some (IAbs 4)) 7 None) = flat_map (fun l => T l ++ [nl])
  ["pseudo-Boolean proof version 2.0"; "f 2"; "pol 1 -2 + 3 * ~x2 + 2 d s"; "rup 3 x1 -42 ~x2 >= 2 ; -1 2"; "* a comment";
   "red 3 x1 -42 ~x2 >= 2 ; x1 -> 1 x2 -> ~y_3 ; begin"; "  rup 3 x1 -42 ~x2 >= 2 ; "; "  proofgoal #1"; "    pol -1 s"; "    rup 3 x1 -42 ~x2 >= 2 ; 1"; "  qed -1"; "end";
   "solx x1 ~x2"; "del range -2 12"; "del id 3 -1 ;"; "ia 3 x1 -42 ~x2 >= 2 ;"; "obju diff 1 x1 ;";
   "output DERIVABLE FILE"; "conclusion BOUNDS 3 : 4 7"; "end pseudo-Boolean proof"]%string.
Proof. eexists. split; vm_compute; reflexivity. Qed.

(** A range of identifiers in the contract is refused exactly if there is no identifier in it. *)
Theorem C81_empty_range short p lo hi : 0 < pr_next p -> good_bound (pr_next p) lo -> good_bound (pr_next p) hi ->
  (call short p (CDelRange lo hi) = None <-> ~ exists i, in_range (pr_next p) lo hi i) /\
  (call short p (CCoreRange lo hi) = None <-> ~ exists i, in_range (pr_next p) lo hi i).
Proof.
  intros Hn Hlo Hhi. pose proof (range_none (pr_next p) lo hi Hn Hlo Hhi) as H. cbn [call].
  split; rewrite <- H; destruct (range_ends (pr_next p) lo hi) as [[a b]|]; split; intros E; (reflexivity || discriminate).
Qed.
Print Assumptions C81_empty_range.
Example ex_empty_range : good_bound 3 (BExcl (IAbs 2)) /\ call false (proof_new 2 true GuNone CoNone) (CDelRange (BExcl (IAbs 2)) BOpen) = None /\
  call false (proof_new 2 true GuNone CoNone) (CDelRange (BIncl (IAbs 2)) BOpen) <> None.
Proof. split; [cbn; lia|]. split; [reflexivity|discriminate]. Qed.

(** The sequence of operations built from an expression with [+], [*], [/] and [saturate] derives the constraint the expression stands
    for; an expression that stands for nothing gives the empty sequence. *)
Theorem C81_expressions p e x : means p e = Some x ->
  exists ops, build e = Some ops /\
    match x with None => ops = [] | Some c => ops <> [] /\ exists os, map_opt rpn_of ops = Some os /\ pol_result p os = Some c end.
Proof.
  intros H. destruct x as [c|].
  - destruct (build_pol p e c H) as [ops [os [E [Hn [Eo R]]]]]. eauto 6.
  - destruct (build_ok p e None H) as [ops [E ->]]. eauto.
Qed.
Print Assumptions C81_expressions.
Definition ex_state : pstate := mkPs [(1, ([(pos 0, 3%Z); (pos 1, 2%Z)], 4%Z)); (2, ([(negl 1, 1%Z)], 1%Z))] 3 2.
Definition ex_exp : oexp := XSat (XDiv (XAdd (XAdd XEmpty (XId (IAbs 1))) (XAdd (XMul (XId (IAbs 2)) 2) (XMul (XAx (false, T "x1")) 0))) 2).
Example ex_means : means ex_state ex_exp = Some (Some ([(pos 0, 2%Z)], 2%Z)) /\ build ex_exp = Some [PId (IAbs 1); PId (IAbs 2); PMul 2; PAdd; PDiv 2; PSat].
Proof. split; vm_compute; reflexivity. Qed.

(** The steps of a valid derivation, written after any history of calls, are read back from the file as the same steps, and the checker
    ends with the same next identifier. With C79 and C80, the proofs that the certified encodings write to files are valid. *)
Theorem C81_certified_steps_partial short n opt g0 c0 cs p l p' :
  good_calls opt (n + 1) cs -> ps_get p 0 = None -> ps_next p = n + 1 + list_sum (map uses cs) -> ps_run p l p' ->
  exists P rs ls0 ls, calls short (proof_new n opt g0 c0) (cs ++ map step_call l) = Some (P, rs) /\
    written (n + 1) (cs ++ map step_call l) rs (ls0 ++ ls) (pr_next P) /\ map_opt step_of ls = Some l /\ pr_next P = ps_next p' /\
    forall g c, good_conclusion c -> read_text (conclude P g c) = Some (LHeader :: LRule (RCount n) false :: (ls0 ++ ls) ++ [LOutput g; LConclusion c; LEndProof]).
Proof. exact (steps_ok short n opt g0 c0 cs p l p'). Qed.
Print Assumptions C81_certified_steps_partial.
Definition ex_steps : list pstep := [SPol [OId 1; OId 2; OMul 2; OAdd; ODiv 2; OSat]; SRup [pos 0] 3; SDel [3]].
Example ex_run : ps_get ex_state 0 = None /\ ps_next ex_state = 2 + 1 + list_sum (map uses []) /\ exists p', ps_run ex_state ex_steps p'.
Proof.
  split; [reflexivity|]. split; [reflexivity|]. eexists. unfold ex_steps.
  eapply run_cons; [apply st_pol; vm_compute; reflexivity|].
  eapply run_cons; [eapply st_rup; [vm_compute; reflexivity|right; vm_compute; reflexivity]|].
  eapply run_cons; [apply st_del; [discriminate|intros i [<-|[]]; split; [cbn; lia|vm_compute; discriminate]]|]. apply run_nil.
Qed.

(** Proof-only variables: every call gives a new valid name, and none is the name of a variable of the instance. *)
Theorem C81_proof_variables k p : NoDup (fst (proof_vars k p)) /\ List.length (fst (proof_vars k p)) = k /\
  forall v, In v (fst (proof_vars k p)) -> valid_name v = true /\ forall x, v <> var_name x.
Proof. exact (proof_vars_ok k p). Qed.
Print Assumptions C81_proof_variables.
Example ex_vars : fst (proof_vars 2 (proof_new 2 true GuNone CoNone)) = [T "pv0"; T "pv1"].
Proof. reflexivity. Qed.

(** Objectives lose their constant: the line of [obj_equals] states another objective. *)
Theorem C81_objective_constant_refuted : exists o p, good_sum (fst o) /\ pr_opt p = true /\
  exists p', call false p (CObjEquals o) = Some (p', None) /\
    exists ls o', read_text (conclude p' GuNone CoNone) = Some (LHeader :: LRule (RCount 1) false :: LRule (REqObj o') false :: ls) /\ o' <> o.
Proof.
  exists ([(1%Z, (false, T "x1"))], 5%Z), (proof_new 1 true GuNone CoNone). split; [repeat constructor|]. split; [reflexivity|]. eexists. split; [reflexivity|].
  eexists _, ([(1%Z, (false, T "x1"))], 0%Z). split; [vm_compute; reflexivity|discriminate].
Qed.
Print Assumptions C81_objective_constant_refuted.

(** Goals for a new objective: the identifiers of their constraints are not counted, so that the next call returns an identifier that
    is not the one of the constraint it adds. *)
Theorem C81_objective_goals_refuted : exists o goals c p p1 p2 i, good_sum (fst o) /\ snd o = 0%Z /\ Forall (fun g => good_goal (fst g) /\ Forall good_der (snd g)) goals /\
  call false p (CObjNew o goals) = Some (p1, None) /\ call false p1 (CRup c []) = Some (p2, Some i) /\
  exists ls, read_text (pr_out p2) = Some (LHeader :: LRule (RCount 1) false :: ls) /\
    exists next j, number (pr_next p) None ls = (next, [(RRup c [], j)]) /\ j <> i /\ next <> pr_next p2.
Proof.
  exists ([(1%Z, (false, T "x1"))], 0%Z), [(GNum 1, [DRup ex_con []])], ex_con, (proof_new 1 true GuNone CoNone). eexists _, _, _.
  split; [repeat constructor|]. split; [reflexivity|]. split; [repeat constructor|]. split; [reflexivity|]. split; [reflexivity|].
  eexists. split; [vm_compute; reflexivity|]. eexists _, _. split; [vm_compute; reflexivity|]. split; discriminate.
Qed.
Print Assumptions C81_objective_goals_refuted.

(** Weakening is written without the variable to weaken, which cannot be read. *)
Theorem C81_weaken_refuted : exists p l p' r, good_lit l /\ call false p (COperations [PId (IAbs 1); PWeak l]) = Some (p', r) /\ read_text (pr_out p) <> None /\ read_text (pr_out p') = None.
Proof.
  exists (proof_new 1 true GuNone CoNone), (false, T "x1"). eexists _, _. split; [reflexivity|]. split; [reflexivity|]. split; [vm_compute; discriminate|vm_compute; reflexivity].
Qed.
Print Assumptions C81_weaken_refuted.
