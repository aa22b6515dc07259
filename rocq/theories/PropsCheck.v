(** * Property theorems about checking solutions (C69) *)

From Coq Require Import List Bool NArith ZArith Ascii String Lia.
From Coq Require Import ZifyBool ZifyNat ZifyN.
From Verif Require Import Spec Types Base ConstrSpec Constraints Inst InstSpec Opt OptSpec Text FioSpec DimacsSpec Dimacs Opb OpbSpec Vline VlineSpec
  Tools ToolSpec ToolText CheckSpec CheckProofs PropsTools.
Import ListNotations.
Open Scope list_scope.

(** ** C69 Checking a solution *)

(** For well-formed files there always is a verdict. *)
Theorem C69_verdict : forall o fmt t P cost used ls sol, problem_file (first_var_idx o) fmt t P cost used -> solution_file ls sol ->
  exists v, check_solution fmt o t sol = ROk v.
Proof. intros o fmt t P cost used ls sol H1 H2. destruct (check_spec o fmt t P cost used ls sol H1 H2) as (v & E & _). now exists v. Qed.
Print Assumptions C69_verdict.
(** An accepted solution satisfies the constraints no matter what the values of the other variables are, and no such assignment costs less
    than the values reported. *)
Theorem C69_accepted : forall o fmt t P cost used ls sol vs, problem_file (first_var_idx o) fmt t P cost used -> solution_file ls sol ->
  check_solution fmt o t sol = ROk (Accepted vs) -> forall a, makes_true a ls -> P a /\ Forall2 Z.le vs (cost a).
Proof.
  intros o fmt t P cost used ls sol vs H1 H2 E. destruct (check_spec o fmt t P cost used ls sol H1 H2) as (v & E' & H & _). apply H. congruence.
Qed.
Print Assumptions C69_accepted.
(** The constraint reported for a rejected solution is one that every solution of the file satisfies. *)
Theorem C69_rejected : forall o fmt t P cost used ls sol r, problem_file (first_var_idx o) fmt t P cost used -> solution_file ls sol ->
  check_solution fmt o t sol = ROk (Rejected r) -> forall a, P a -> ref_holds a r.
Proof.
  intros o fmt t P cost used ls sol r H1 H2 E. destruct (check_spec o fmt t P cost used ls sol H1 H2) as (v & E' & _ & H & _). apply H. congruence.
Qed.
Print Assumptions C69_rejected.
(** A solution with values for all variables is accepted exactly if it satisfies the constraints. The values reported are the costs; the
    constraint reported is violated. *)
Theorem C69_total : forall o fmt t P cost used ls sol a, problem_file (first_var_idx o) fmt t P cost used -> solution_file ls sol -> values_all used ls -> makes_true a ls ->
  (P a /\ check_solution fmt o t sol = ROk (Accepted (cost a))) \/ (~ P a /\ exists r, check_solution fmt o t sol = ROk (Rejected r) /\ ~ ref_holds a r).
Proof.
  intros o fmt t P cost used ls sol a H1 H2 H3 H4. destruct (check_spec o fmt t P cost used ls sol H1 H2) as (v & -> & _ & Hr & H). destruct (H H3 a H4) as [[Ha ->]|(r & -> & Hn)]; [now left|].
  right. split; [|now exists r]. intros Ha. apply Hn. now apply (Hr r).
Qed.
Print Assumptions C69_total.

(** Solutions in the three formats *)
Lemma line_last ks lines : Forall2 (fun k l => out_line_text k l /\ (k = LOther -> forall r, l <> "v"%char :: r)) ks lines ->
  ((Forall lits_line ks /\ distinct_vars (out_lits ks)) -> solution_file (out_lits ks) (flat_map (fun l => l ++ [nl]) lines)) /\
  (Forall bits_line ks -> solution_file (bit_lits (out_bits ks)) (flat_map (fun l => l ++ [nl]) lines)).
Proof.
  intros H. assert (Ht : lines_text lines (flat_map (fun l => l ++ [nl]) lines)) by (clear; induction lines as [|l lines IH]; [constructor|]; cbn [flat_map]; rewrite <- app_assoc; constructor; [now left|exact IH]).
  split; [intros [H1 H2]|intros H1]; exists ks, lines; (split; [exact H|]); (split; [exact Ht|]); [left; auto|right; auto].
Qed.
Definition ex_comment : text := T "o 3".
Definition ex_lits_sol : text := line ex_comment ++ line (T "s SATISFIABLE") ++ line (T "v 1 -2 3") ++ line (T "v -4 0").
Lemma blank1 : blanks1 (T " ").
Proof. split; [intros c [<-|[]]; now left|discriminate]. Qed.
Lemma blank0 : blanks [].
Proof. intros c []. Qed.
Lemma ex_lits_ok : solution_file [pos 0; negl 1; pos 2; negl 3] ex_lits_sol.
Proof.
  apply (line_last [LOther; LSat; LSatVals [Some (pos 0); Some (negl 1); Some (pos 2)]; LSatVals [Some (negl 3); None]] [ex_comment; T "s SATISFIABLE"; T "v 1 -2 3"; T "v -4 0"]).
  - apply Forall2_cons; [|apply Forall2_cons; [|apply Forall2_cons; [|apply Forall2_cons; [|apply Forall2_nil]]]].
    + split; [|intros _ r; discriminate]. split; [intros c H; cbn in H; decompose [or] H; subst; try contradiction; split; discriminate|]. split; intros r; discriminate.
    + split; [|discriminate]. exists [], []. split; [exact blank0|]. split; [exact blank0|reflexivity].
    + split; [|discriminate]. split; [eexists; reflexivity|]. exists [T "1"; T "-2"; T "3"], (T " 1 -2 3"). split; [repeat apply Forall2_cons; try apply Forall2_nil; (split; [vm_compute; reflexivity|reflexivity])|]. split; [|reflexivity].
      apply (WWord (T " ") (T "1") _ (T " -2 3") blank1), (WWord (T " ") (T "-2") _ (T " 3") blank1), (WWord (T " ") (T "3") _ [] blank1), WEnd, blank0.
    + split; [|discriminate]. split; [eexists; reflexivity|]. exists [T "-4"; T "0"], (T " -4 0"). split; [apply Forall2_cons; [split; [vm_compute; reflexivity|reflexivity]|apply Forall2_cons; [reflexivity|apply Forall2_nil]]|]. split; [|reflexivity].
      apply (WWord (T " ") (T "-4") _ (T " 0") blank1), (WWord (T " ") (T "0") _ [] blank1), WEnd, blank0.
  - split; [repeat apply Forall_cons; try apply Forall_nil; try exact Logic.I; intros (l & E & _); discriminate|].
    unfold distinct_vars. repeat (apply NoDup_cons; [cbn; intuition discriminate|]). apply NoDup_nil.
Qed.
Lemma ex_bits_ok : solution_file [pos 0; negl 1; pos 2; negl 3] (line (T "v 1010")).
Proof.
  apply (line_last [LBits [true; false; true; false]] [T "v 1010"]).
  - apply Forall2_cons; [|apply Forall2_nil]. split; [|discriminate]. split; [eexists; reflexivity|]. split; [|reflexivity]. apply (WWord (T " ") (T "1010") _ [] blank1), WEnd, blank0.
  - apply Forall_cons; [|apply Forall_nil]. split; discriminate.
Qed.
Lemma ex_pb_ok : solution_file [pos 0; negl 1; pos 2; negl 3] (line (T "v x1 -x2 x3 -x4")).
Proof.
  apply (line_last [LPbVals [pos 0; negl 1; pos 2; negl 3]] [T "v x1 -x2 x3 -x4"]).
  - apply Forall2_cons; [|apply Forall2_nil]. split; [|discriminate]. split; [eexists; reflexivity|]. split; [discriminate|]. exists [T "x1"; T "-x2"; T "x3"; T "-x4"], (T " x1 -x2 x3 -x4").
    split; [|split; [|reflexivity]].
    + repeat apply Forall2_cons; try apply Forall2_nil; (split; [small|split; [small|]]); [exists []; split; reflexivity|exists (T "-"); split; [now right|reflexivity]|exists []; split; reflexivity|exists (T "-"); split; [now right|reflexivity]].
    + apply (WWord (T " ") (T "x1") _ (T " -x2 x3 -x4") blank1), (WWord (T " ") (T "-x2") _ (T " x3 -x4") blank1), (WWord (T " ") (T "x3") _ (T " -x4") blank1), (WWord (T " ") (T "-x4") _ [] blank1), WEnd, blank0.
  - split; [repeat apply Forall_cons; try apply Forall_nil; exact Logic.I|]. unfold distinct_vars. repeat (apply NoDup_cons; [cbn; intuition discriminate|]). apply NoDup_nil.
Qed.

Example C69_ex_cnf : problem_file 1 FCnf ex_cnf_text (fun a => sat_cnf a ex_cnf = true) (fun _ => []) (fun v => exists c l, In c ex_cnf /\ In l c /\ lvar l = v) /\
  check_solution FCnf opb_default ex_cnf_text ex_lits_sol = ROk (Rejected (RClause [])).
Proof. split; [apply (PCnf 1 3 3); [exact ex_cnf_file|small]|vm_compute; reflexivity]. Qed.
Example C69_ex_wcnf : problem_file 1 FWcnf ex_wcnf_text (fun a => sat_cnf a (hards ex_witems) = true) (wcnf_costs ex_witems) (item_var ex_witems) /\
  values_all (item_var ex_witems) [pos 0; negl 1; pos 2; negl 3] /\
  check_solution FWcnf opb_default ex_wcnf_text ex_lits_sol = ROk (Accepted [2%Z]) /\ check_solution FWcnf opb_default ex_wcnf_text (line (T "v 1010")) = ROk (Accepted [2%Z]).
Proof.
  split; [apply (PWcnf 1 3); [exact ex_wcnf_file|small]|]. split; [|split; vm_compute; reflexivity].
  intros v (c & x & l & Hc & Hl & <-). cbn in Hc. decompose [or] Hc; try contradiction; (injection H as <- <- || injection H0 as <- <-); cbn in Hl; decompose [or] Hl; subst; try contradiction; cbn; tauto.
Qed.
Example C69_ex_mcnf : problem_file 1 FMcnf ex_mcnf_text (fun a => sat_cnf a (hards ex_mitems) = true) (mcnf_costs 3 ex_mitems) (item_var ex_mitems) /\
  check_solution FMcnf opb_default ex_mcnf_text ex_lits_sol = ROk (Accepted [0; 0; 2]%Z).
Proof. split; [apply (PMcnf 1 3 ex_mitems); [exact ex_mcnf_file|small]|vm_compute; reflexivity]. Qed.
Definition ex_checked : list stmt := [SObj Maximize [(pos 0, 2%Z); (negl 1, 3%Z); (pos 3, 1%Z)]; SConstr [(pos 0, 2%Z); (pos 1, (-1)%Z); (pos 2, (-3)%Z)] OpGE (-1); SConstr [(pos 0, 1%Z); (pos 3, 1%Z)] OpEQ 1].
Lemma ex_checked_ok : problem_file 1 FOpb (put_file 1 ex_checked) (fun a => constrs_hold a ex_checked) (opb_costs ex_checked) (stmt_var ex_checked).
Proof.
  apply POpb; [apply put_file_ok; fit|intros ts b H; cbn in H; decompose [or] H; try discriminate; contradiction|]. apply Forall_cons; [|apply Forall_cons; [vm_compute; reflexivity|apply Forall_cons; [vm_compute; reflexivity|apply Forall_nil]]].
  split; [vm_compute; discriminate|]. intros _ e [<-|[<-|[<-|[]]]]; cbn; lia.
Qed.
Example C69_ex_opb : put_file 1 ex_checked = line (T "max: 2 x1 3 ~x2 1 x4;") ++ line (T "2 x1 -1 x2 -3 x3 >= -1;") ++ line (T "1 x1 1 x4 = 1;") /\
  check_solution FOpb opb_default (put_file 1 ex_checked) (line (T "v x1 -x2 x3 -x4")) = ROk (Accepted [(-5)%Z]).
Proof. split; vm_compute; reflexivity. Qed.

(** If the variables are counted from 0, value lines with variables counted like this are misunderstood: a solution is rejected, and one
    that violates a constraint is accepted. *)
Definition zero : opb_opts := mkOpbOpts 0 false.
Theorem C69_first_index_refuted : exists ss t ls ws ls' ws', opb_file (first_var_idx zero) ss t /\ no_less ss /\ Forall checkable ss /\
  Forall2 (opb_lit_text (first_var_idx zero)) ls ws /\ values_all (stmt_var ss) ls /\ (forall a, makes_true a ls -> constrs_hold a ss) /\
  (exists r, check_solution FOpb zero t (T "v" ++ flat_map (fun w => T " " ++ w) ws) = ROk (Rejected r)) /\
  Forall2 (opb_lit_text (first_var_idx zero)) ls' ws' /\ values_all (stmt_var ss) ls' /\ (forall a, makes_true a ls' -> ~ constrs_hold a ss) /\
  check_solution FOpb zero t (T "v" ++ flat_map (fun w => T " " ++ w) ws') = ROk (Accepted []).
Proof.
  set (ss := [SConstr [(negl 1, 1%Z)] OpGE 1; SConstr [(pos 2, 1%Z)] OpGE 1]).
  assert (Hu : forall v, stmt_var ss v -> v = 1%N \/ v = 2%N) by (intros v (st & e & Hst & He & <-); cbn in Hst; decompose [or] Hst; subst; try contradiction; cbn in He; decompose [or] He; subst; try contradiction; cbn; tauto).
  exists ss, (put_file 0 ss), [negl 1; pos 2], [T "-x1"; T "x2"], [pos 1; negl 2; pos 3], [T "x1"; T "-x2"; T "x3"].
  split; [apply put_file_ok; fit|]. split; [intros ts b H; cbn in H; decompose [or] H; try discriminate; contradiction|]. split; [repeat apply Forall_cons; try apply Forall_nil; vm_compute; reflexivity|].
  split; [repeat apply Forall2_cons; try apply Forall2_nil; (split; [small|split; [small|]]); [exists (T "-"); split; [now right|reflexivity]|exists []; split; reflexivity]|].
  split; [intros v Hv; destruct (Hu v Hv) as [-> | ->]; cbn; tauto|].
  split. { intros a H ts op b Hin. pose proof (H (negl 1) (or_introl eq_refl)) as H1. pose proof (H (pos 2) (or_intror (or_introl eq_refl))) as H2. cbn in Hin. decompose [or] Hin; try contradiction; [injection H0 as <- <- <-|injection H3 as <- <- <-];
    unfold zwsum; cbn [map fold_right fst snd]; [rewrite H1|rewrite H2]; cbn; lia. }
  split; [eexists; vm_compute; reflexivity|].
  split; [repeat apply Forall2_cons; try apply Forall2_nil; (split; [small|split; [small|]]); [exists []; split; reflexivity|exists (T "-"); split; [now right|reflexivity]|exists []; split; reflexivity]|].
  split; [intros v Hv; destruct (Hu v Hv) as [-> | ->]; cbn; tauto|].
  split. { intros a H Hc. pose proof (H (negl 2) (or_intror (or_introl eq_refl))) as H2. specialize (Hc [(pos 2, 1%Z)] OpGE 1%Z (or_intror (or_introl eq_refl))). unfold lit_true in H2. cbn in H2. unfold zwsum in Hc. cbn in Hc. destruct (a 2%N); [discriminate|]. cbn in Hc. lia. }
  vm_compute. reflexivity.
Qed.
Print Assumptions C69_first_index_refuted.
(** Negative coefficients of a maximized objective are counted wrongly. *)
Theorem C69_maximize_refuted : exists ss t ls sol a, opb_file 1 ss t /\ Forall stmt_fits ss /\ solution_file ls sol /\ values_all (stmt_var ss) ls /\ makes_true a ls /\
  opb_costs ss a = [2%Z] /\ check_solution FOpb opb_default t sol = ROk (Accepted [(-2)%Z]).
Proof.
  exists [SObj Maximize [(pos 0, (-2)%Z)]]. eexists. exists [pos 0; negl 1; pos 2; negl 3], (line (T "v 1010")), (fun v => N.eqb v 0 || N.eqb v 2).
  split; [apply put_file_ok; fit|]. split; [apply Forall_cons; [vm_compute; discriminate|apply Forall_nil]|]. split; [exact ex_bits_ok|].
  split; [intros v (st & e & [<-|[]] & [<-|[]] & <-); cbn; tauto|]. split; [intros l [<-|[<-|[<-|[<-|[]]]]]; reflexivity|]. split; [reflexivity|]. vm_compute. reflexivity.
Qed.
Print Assumptions C69_maximize_refuted.
(** Without values for all variables the values reported can be less than every cost. *)
Theorem C69_cost_refuted : exists n es t ls sol, wcnf_file n es t /\ solution_file ls sol /\ check_solution FWcnf opb_default t sol = ROk (Accepted [0%Z]) /\
  forall a, makes_true a ls -> wcnf_costs es a = [1%Z].
Proof.
  exists 6%N, [([pos 5], Some 1%nat); ([negl 5], Some 1%nat)], (line (T "1 6 0") ++ line (T "1 -6 0")), [pos 0; negl 1; pos 2; negl 3], (line (T "v 1010")). split; [|split; [exact ex_bits_ok|split]].
  - split; [intros e [<-|[<-|[]]]; below|]. left. exists [Some ([pos 5], Some 1%nat); Some ([negl 5], Some 1%nat)], [T "1 6 0"; T "1 -6 0"]. split; [|split; [now left|reflexivity]].
    apply Forall2_cons; [|apply Forall2_cons; [|constructor]]; apply line_content; (eexists (T " "), _; split; [small|]; split; [exact one_blank|]; split; [eexists; split; [lits|reflexivity]|reflexivity]).
  - vm_compute. reflexivity.
  - intros a _. unfold wcnf_costs. cbn. destruct (a 5%N); reflexivity.
Qed.
Print Assumptions C69_cost_refuted.
