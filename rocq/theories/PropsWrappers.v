(** * Properties C63 to C66: the solver crates *)

From Coq Require Import List Bool NArith ZArith Lia Arith.
From Verif Require Import Spec Types SolverSpec Solver SolverUse Wrappers WrapperSpec WrapperProofs WrapperToy Handles HandleSpec HandleProofs.
Import ListNotations.

(** for the examples: give the state a computation ends in *)
Ltac wit t := let t' := eval vm_compute in t in exists t'.
Ltac steps := cbv zeta; repeat (split; [vm_compute; reflexivity|]).

(** ** C63: IPASIR solvers and CaDiCaL *)

(** With a back end that keeps the promises of IPASIR the wrapper is a correct incremental solver: every answer is right,
    values and solutions are models, and cores consist of negated assumptions and follow from the clauses. *)
Theorem C63_ipasir : forall B W (A : capi B W) R, conforming A R -> no_codes A -> ipasir_values A R ->
  exists reps, correct_inc (ipasir A) (models (is_solver (ipasir A))) reps /\ knows_vars (is_solver (ipasir A)) reps /\ correct (is_solver (ipasir A)) reps.
Proof.
  intros B W A R C N V. exists (ip_reps R). destruct (ipasir_correct A R C N V) as (H1 & H2). split; [exact H1|]. split; [exact H2|]. now apply correct_inc_correct.
Qed.
Print Assumptions C63_ipasir.

Theorem C63_cadical : forall B W (A : capi B W) R, conforming_cadical A R ->
  exists reps, correct_inc (cadical A) (models (is_solver (cadical A))) reps /\ knows_vars (is_solver (cadical A)) reps /\ correct (is_solver (cadical A)) reps.
Proof.
  intros B W A R C. exists (cad_reps R). destruct (cadical_correct A R C) as (H1 & H2). split; [exact H1|]. split; [exact H2|]. now apply correct_inc_correct.
Qed.
Print Assumptions C63_cadical.

(** back ends that keep the promises, and a run with two questions under assumptions *)
Example C63_ex : conforming (quiet (toy_capi 0)) toy_R /\ no_codes (quiet (toy_capi 0)) /\ ipasir_values (quiet (toy_capi 0)) toy_R /\
  conforming_cadical (toy_capi (-1)) toy_R /\
  let V := cadical (toy_capi (-1)) in let s0 := fst (sv_init (is_solver V) []) in exists s1 s2 s3 s4,
    sv_add (is_solver V) s0 [pos 0; pos 1] [] = (true, s1, []) /\ sv_add (is_solver V) s1 [negl 0; pos 1] [] = (true, s2, []) /\
    is_assumps V s2 [pos 5; negl 1] [] = (Some RUnsat, s3, []) /\ is_core V s3 = Some [negl 5; pos 1] /\
    is_assumps V s3 [negl 0] [] = (Some RSat, s4, []) /\ map (sv_val (is_solver V) s4) [pos 0; negl 0; pos 1; negl 1; pos 2] = [Some TFalse; Some TTrue; Some TTrue; Some TFalse; Some TDontCare].
Proof.
  split; [apply quiet_conforming, toy_conforming|]. split; [exact quiet_no_codes|]. split; [exact toy_values|]. split; [exact toy_conforming_cadical|].
  pose (V := cadical (toy_capi (-1))). pose (s1 := snd (fst (sv_add (is_solver V) (fst (sv_init (is_solver V) [])) [pos 0; pos 1] []))). pose (s2 := snd (fst (sv_add (is_solver V) s1 [negl 0; pos 1] []))).
  pose (s3 := snd (fst (is_assumps V s2 [pos 5; negl 1] []))). pose (s4 := snd (fst (is_assumps V s3 [negl 0] []))).
  cbv zeta. wit s1. wit s2. wit s3. wit s4. steps. vm_compute. reflexivity.
Qed.

(** All other calls of CaDiCaL: temporary clauses, [reserve], [declare_more_variables], [simplify] and
    [simplify_assumps]. Partial: [chistory] leaves out the calls named there, and calls after an error; see the refuted
    statements below. *)
Theorem C63_cadical_solve_partial : forall B W (A : capi B W) R, conforming_cadical A R -> forall s f t w r s' w', chistory A s f t COk ->
  cad_solve A s w = (Some r, s', w') -> match r with RSat => models (is_solver (cadical A)) s' (f ++ tmp_list t) | RUnsat => unsat (f ++ tmp_list t) | RInterrupted => True end.
Proof. intros B W A R C s f t w r s' w' H E. exact (proj1 (proj2 (proj2 (cad_solve_ok A R C _ _ _ _ _ _ _ (chistory_inv A R C _ _ _ _ H) E)))). Qed.
Print Assumptions C63_cadical_solve_partial.

Theorem C63_cadical_simplify_partial : forall B W (A : capi B W) R, conforming_cadical A R -> forall s f t n w r s' w', chistory A s f t COk ->
  (w_core s = None \/ w_core s = Some []) ->
  cad_simplify A s n w = (Some r, s', w') -> match r with RSat => models (is_solver (cadical A)) s' (f ++ tmp_list t) | RUnsat => unsat (f ++ tmp_list t) | RInterrupted => True end.
Proof. intros B W A R C s f t n w r s' w' H Hc E. exact (proj1 (proj2 (proj2 (cad_simplify_ok A R C _ _ _ _ _ _ _ _ (chistory_inv A R C _ _ _ _ H) Hc E)))). Qed.
Print Assumptions C63_cadical_simplify_partial.

(** in every phase *)
Theorem C63_cadical_assumptions_partial : forall B W (A : capi B W) R, conforming_cadical A R -> forall s f t ph ls w r s' w', chistory A s f t ph ->
  cad_solve_assumps A s ls w = (Some r, s', w') ->
  match r with RSat => models (is_solver (cadical A)) s' (f ++ tmp_list t ++ units ls) | RUnsat => unsat (f ++ tmp_list t ++ units ls) | RInterrupted => True end /\
  (r = RUnsat -> exists core, w_core s' = Some core /\ (forall l, In l core -> In (neg l) ls) /\
     forall a, sat_cnf a f = true -> (cad_tmp_in_core A s' = Some true -> sat_cnf a (tmp_list t) = true) -> sat_clause a core = true).
Proof. intros B W A R C s f t ph ls w r s' w' H E. exact (proj2 (proj2 (cad_assumps_ok A R C _ _ _ _ _ _ _ _ _ (chistory_inv A R C _ _ _ _ H) E))). Qed.
Print Assumptions C63_cadical_assumptions_partial.

Theorem C63_cadical_simplify_assumptions_partial : forall B W (A : capi B W) R, conforming_cadical A R -> forall s f t ph ls n w r s' w', chistory A s f t ph ->
  (w_state s = WConfiguring \/ w_state s = WInput) -> cad_simplify_assumps A s ls n w = (Some r, s', w') ->
  match r with RSat => models (is_solver (cadical A)) s' (f ++ tmp_list t ++ units ls) | RUnsat => unsat (f ++ tmp_list t ++ units ls) | RInterrupted => True end.
Proof. intros B W A R C s f t ph ls n w r s' w' H Hs E. exact (proj2 (proj2 (cad_simplify_assumps_ok A R C _ _ _ _ _ _ _ _ _ _ (chistory_inv A R C _ _ _ _ H) Hs E))). Qed.
Print Assumptions C63_cadical_simplify_assumptions_partial.

(** a temporary clause that makes the formula unsatisfiable, then a question under assumptions without it *)
Example C63_cadical_ex : let A := toy_capi (-1) in exists s2 s3 s4,
  chistory A s2 [[pos 0; pos 1]] (Some [negl 0]) COk /\
  cad_solve_assumps A s2 [negl 1] [] = (Some RUnsat, s3, []) /\ w_core s3 = Some [pos 1] /\ cad_tmp_in_core A s3 = Some true /\
  chistory A s3 [[pos 0; pos 1]] None CTainted /\ cad_solve_assumps A s3 [negl 1] [] = (Some RSat, s4, []) /\ cad_val A s4 (pos 0) = Some TTrue.
Proof.
  pose (A := toy_capi (-1)). pose (s1 := snd (fst (cad_add A (fst (cad_init A [])) [pos 0; pos 1] []))). pose (s2 := snd (fst (cad_tmp A s1 [negl 0] []))).
  pose (s3 := snd (fst (cad_solve_assumps A s2 [negl 1] []))). pose (s4 := snd (fst (cad_solve_assumps A s3 [negl 1] []))).
  assert (H2 : chistory A s2 [[pos 0; pos 1]] (Some [negl 0]) COk).
  { apply (ch_tmp A s1 _ None COk [negl 0] [] s2 []); [|vm_compute; reflexivity]. apply (ch_add A (fst (cad_init A [])) [] None COk [pos 0; pos 1] [] s1 []); [apply (ch_init A [])|vm_compute; reflexivity]. }
  exists s2, s3, s4. split; [exact H2|]. steps. split; [|steps; vm_compute; reflexivity].
  apply (ch_assumps A s2 _ (Some [negl 0]) COk [negl 1] [] RUnsat s3 []); [exact H2|vm_compute; reflexivity].
Qed.

(** [C63] says that every answer is right. It is not. (1) After "unsatisfiable" with a temporary clause, [solve] repeats
    the answer although the temporary clause is gone. *)
Theorem C63_temporary_clause_refuted : let A := toy_capi (-1) in conforming_cadical A toy_R /\
  let s0 := fst (cad_init A []) in exists s1 s2 s3,
    cad_add A s0 [pos 0] [] = (true, s1, []) /\ cad_tmp A s1 [negl 0] [] = (true, s2, []) /\ cad_solve A s2 [] = (Some RUnsat, s3, []) /\
    cad_solve A s3 [] = (Some RUnsat, s3, []) /\ ~ unsat [[pos 0]].
Proof.
  split; [exact toy_conforming_cadical|]. pose (A := toy_capi (-1)). pose (s1 := snd (fst (cad_add A (fst (cad_init A [])) [pos 0] []))). pose (s2 := snd (fst (cad_tmp A s1 [negl 0] []))). pose (s3 := snd (fst (cad_solve A s2 []))).
  cbv zeta. wit s1. wit s2. wit s3. steps. intros H. discriminate (H (fun _ => true)).
Qed.
Print Assumptions C63_temporary_clause_refuted.
(** this is so for every back end and every formula *)
Theorem C63_temporary_clause_sticks : forall B W (A : capi B W) s w s' w', cad_solve A s w = (Some RUnsat, s', w') -> forall w1, cad_solve A s' w1 = (Some RUnsat, s', w1).
Proof.
  intros B W A s w s' w' E w1. assert (H : w_state s' = WUnsat []).
  { unfold cad_solve in E. destruct (w_state s) as [| | |[|l c]] eqn:Es; try discriminate E; try (injection E as <- <-; exact Es);
    destruct (ca_solve A (w_b s) w) as [[r b] w2]; apply answered_cases in E as [(E & _)|[(E & _)|(_ & _ & c' & Ec & ->)]]; try discriminate E; injection Ec as <-; reflexivity. }
  unfold cad_solve. now rewrite H.
Qed.
Print Assumptions C63_temporary_clause_sticks.

(** (2) [simplify] after "unsatisfiable" under assumptions answers "unsatisfiable" *)
Theorem C63_simplify_refuted : let A := toy_capi (-1) in conforming_cadical A toy_R /\
  let s0 := fst (cad_init A []) in exists s1 s2,
    cad_add A s0 [pos 0] [] = (true, s1, []) /\ cad_solve_assumps A s1 [negl 0] [] = (Some RUnsat, s2, []) /\ cad_simplify A s2 1 [] = (Some RUnsat, s2, []) /\ ~ unsat [[pos 0]].
Proof.
  split; [exact toy_conforming_cadical|]. pose (A := toy_capi (-1)). pose (s1 := snd (fst (cad_add A (fst (cad_init A [])) [pos 0] []))). pose (s2 := snd (fst (cad_solve_assumps A s1 [negl 0] []))).
  cbv zeta. wit s1. wit s2. steps. intros H. discriminate (H (fun _ => true)).
Qed.
Print Assumptions C63_simplify_refuted.

(** (3) [simplify_assumps] after "satisfiable" answers "satisfiable" whatever the assumptions are; and after it has answered
    "unsatisfiable", so does [solve], and the core is empty *)
Theorem C63_simplify_assumptions_refuted : let A := toy_capi (-1) in conforming_cadical A toy_R /\
  let s0 := fst (cad_init A []) in exists s1 s2 s3,
    cad_add A s0 [pos 0] [] = (true, s1, []) /\
    cad_solve A s1 [] = (Some RSat, s2, []) /\ cad_simplify_assumps A s2 [negl 0] 1 [] = (Some RSat, s2, []) /\ unsat ([[pos 0]] ++ units [negl 0]) /\
    cad_simplify_assumps A s1 [negl 0] 1 [] = (Some RUnsat, s3, []) /\ cad_solve A s3 [] = (Some RUnsat, s3, []) /\ w_core s3 = Some [] /\ ~ unsat [[pos 0]].
Proof.
  split; [exact toy_conforming_cadical|]. pose (A := toy_capi (-1)). pose (s1 := snd (fst (cad_add A (fst (cad_init A [])) [pos 0] []))). pose (s2 := snd (fst (cad_solve A s1 []))). pose (s3 := snd (fst (cad_simplify_assumps A s1 [negl 0] 1 []))).
  cbv zeta. wit s1. wit s2. wit s3. steps. split; [intros a; cbn; now destruct (a 0%N)|]. steps. intros H. discriminate (H (fun _ => true)).
Qed.
Print Assumptions C63_simplify_assumptions_refuted.

(** (4) running out of memory while assumptions are passed on leaves those already passed: the next question without
    assumptions is asked under them *)
Theorem C63_out_of_memory_refuted : let A := toy_capi (-1) in conforming_cadical A toy_R /\
  let s0 := fst (cad_init A []) in exists s1 s2 s3,
    cad_add A s0 [pos 0] [] = (true, s1, []) /\ cad_solve_assumps A s1 [negl 0; pos 1] [0; 50]%Z = (None, s2, []) /\ cad_solve A s2 [] = (Some RUnsat, s3, []) /\ ~ unsat [[pos 0]].
Proof.
  split; [exact toy_conforming_cadical|]. pose (A := toy_capi (-1)). pose (s1 := snd (fst (cad_add A (fst (cad_init A [])) [pos 0] []))). pose (s2 := snd (fst (cad_solve_assumps A s1 [negl 0; pos 1] [0; 50]%Z))). pose (s3 := snd (fst (cad_solve A s2 []))).
  cbv zeta. wit s1. wit s2. wit s3. steps. intros H. discriminate (H (fun _ => true)).
Qed.
Print Assumptions C63_out_of_memory_refuted.

(** (5) after [declare_more_variables] there are no values any more, but the wrapper still asks for them: the process is
    aborted ([None]) *)
Theorem C63_declare_refuted : let A := toy_capi (-1) in conforming_cadical A toy_R /\
  let s0 := fst (cad_init A []) in exists s1 s2 s3,
    cad_add A s0 [pos 0] [] = (true, s1, []) /\ cad_solve A s1 [] = (Some RSat, s2, []) /\ cad_val A s2 (pos 0) = Some TTrue /\
    cad_declare A s2 1 [] = (s3, []) /\ w_state s3 = WSat /\ cad_val A s3 (pos 0) = None.
Proof.
  split; [exact toy_conforming_cadical|]. pose (A := toy_capi (-1)). pose (s1 := snd (fst (cad_add A (fst (cad_init A [])) [pos 0] []))). pose (s2 := snd (fst (cad_solve A s1 []))). pose (s3 := fst (cad_declare A s2 1 [])).
  cbv zeta. wit s1. wit s2. wit s3. steps. vm_compute. reflexivity.
Qed.
Print Assumptions C63_declare_refuted.

(** ** C64: Minisat and Glucose *)

(** Partial: values are those of positive literals, and solutions are up to variables the solver knew when it answered;
    see the refuted statements below. *)
Theorem C64_minisat_partial : forall B W (A : sapi B W) R, conforming_solver A R ->
  exists reps, correct_inc (minisat A) (var_models (is_solver (minisat A))) reps /\ knows_vars (is_solver (minisat A)) reps.
Proof. intros B W A R C. exists (ms_reps R). exact (minisat_correct A R C). Qed.
Print Assumptions C64_minisat_partial.

Example C64_ex : conforming_solver toy_sapi toy_SR /\
  let V := minisat toy_sapi in let s0 := fst (sv_init (is_solver V) []) in exists s1 s2 s3 s4,
    sv_add (is_solver V) s0 [pos 0; pos 1] [] = (true, s1, []) /\ sv_add (is_solver V) s1 [negl 0; pos 1] [] = (true, s2, []) /\
    is_assumps V s2 [pos 5; negl 1] [] = (Some RUnsat, s3, []) /\ is_core V s3 = Some [negl 5; pos 1] /\
    is_assumps V s3 [negl 0] [] = (Some RSat, s4, []) /\ sv_solution (is_solver V) s4 2 = Some [TFalse; TTrue; TTrue] /\ sv_max_var (is_solver V) s4 = Some 5%N.
Proof.
  split; [exact toy_conforming_solver|]. pose (V := minisat toy_sapi). pose (s1 := snd (fst (sv_add (is_solver V) (fst (sv_init (is_solver V) [])) [pos 0; pos 1] []))). pose (s2 := snd (fst (sv_add (is_solver V) s1 [negl 0; pos 1] []))).
  pose (s3 := snd (fst (is_assumps V s2 [pos 5; negl 1] []))). pose (s4 := snd (fst (is_assumps V s3 [negl 0] []))).
  cbv zeta. wit s1. wit s2. wit s3. wit s4. steps. vm_compute. reflexivity.
Qed.

(** the value of a negated literal is that of its variable, for every back end and in every state *)
Theorem C64_negated_literals : forall B W (A : sapi B W) s v, sv_val (is_solver (minisat A)) s (negl v) = sv_val (is_solver (minisat A)) s (pos v).
Proof. reflexivity. Qed.
Print Assumptions C64_negated_literals.
Theorem C64_negated_literal_refuted : conforming_solver toy_sapi toy_SR /\
  let V := is_solver (minisat toy_sapi) in let s0 := fst (sv_init V []) in exists s1 s2,
    sv_add V s0 [pos 0] [] = (true, s1, []) /\ sv_solve V s1 [] = (Some RSat, s2, []) /\ sv_val V s2 (pos 0) = Some TTrue /\ sv_val V s2 (negl 0) = Some TTrue.
Proof.
  split; [exact toy_conforming_solver|]. pose (V := is_solver (minisat toy_sapi)). pose (s1 := snd (fst (sv_add V (fst (sv_init V [])) [pos 0] []))). pose (s2 := snd (fst (sv_solve V s1 []))). 
  cbv zeta. wit s1. wit s2. steps. vm_compute. reflexivity.
Qed.
Print Assumptions C64_negated_literal_refuted.
(** the value of a variable that did not exist when the answer was found is read outside of the model ([None]: undefined
    behaviour), also by asking for the values of all variables *)
Theorem C64_unknown_variable_refuted : conforming_solver toy_sapi toy_SR /\
  let V := is_solver (minisat toy_sapi) in let s0 := fst (sv_init V []) in exists s1 s2 s3,
    sv_add V s0 [pos 0] [] = (true, s1, []) /\ sv_solve V s1 [] = (Some RSat, s2, []) /\ sv_val V s2 (pos 1) = None /\
    ms_reserve toy_sapi s2 3 [] = (true, s3, []) /\ m_state s3 = MSat /\ sv_max_var V s3 = Some 3%N /\ sv_solution V s3 3 = None.
Proof.
  split; [exact toy_conforming_solver|]. pose (V := is_solver (minisat toy_sapi)). pose (s1 := snd (fst (sv_add V (fst (sv_init V [])) [pos 0] []))). pose (s2 := snd (fst (sv_solve V s1 []))). pose (s3 := snd (fst (ms_reserve toy_sapi s2 3 []))).
  cbv zeta. wit s1. wit s2. wit s3. steps. vm_compute. reflexivity.
Qed.
Print Assumptions C64_unknown_variable_refuted.

(** ** C65: Kissat *)

(** the answers are right; here the end of the process is an error like any other *)
Theorem C65_kissat : forall B W (A : kapi B W) R, conforming_kissat A R -> exists reps, correct (kissat A) reps /\ knows_vars (kissat A) reps.
Proof. intros B W A R C. exists (k_reps R). exact (kissat_correct A R C). Qed.
Print Assumptions C65_kissat.
(** Partial: no call ends the process, as long as no question was asked *)
Theorem C65_no_abort_partial : forall B W (A : kapi B W) R, conforming_kissat A R -> forall s f, khistory A s f false ->
  (forall c w, exists s' w', k_add A s c w = (Ok tt, s', w')) /\ forall w, fst (fst (k_solve A s w)) <> Abort.
Proof.
  intros B W A R C s f H. apply (khistory_fresh A R C) in H. split; [|intros w; exact (k_fresh_solve A R C s f w H)].
  intros c w. destruct (k_fresh_add A R C s f c w H) as (s' & w' & E & _). eauto.
Qed.
Print Assumptions C65_no_abort_partial.
(** afterwards it depends on the state: having answered "satisfiable" or "unsatisfiable", clauses are rejected and the
    answer is repeated; otherwise every call ends the process *)
Theorem C65_after_question : forall B W (A : kapi B W) R, conforming_kissat A R -> forall s f, khistory A s f true ->
  match w_state s with
  | WSat => (forall c w, k_add A s c w = (Err, s, w)) /\ forall w, k_solve A s w = (Ok RSat, s, w)
  | WUnsat _ => (forall c w, k_add A s c w = (Err, s, w)) /\ forall w, k_solve A s w = (Ok RUnsat, s, w)
  | _ => (forall c w, fst (fst (k_add A s c w)) = Abort) /\ forall w, fst (fst (k_solve A s w)) = Abort
  end.
Proof. exact @khistory_asked. Qed.
Print Assumptions C65_after_question.

Example C65_ex : conforming_kissat toy_kapi eq /\ let A := toy_kapi in exists s1 s2,
  khistory A s1 [[pos 0; pos 1]; [negl 0]] false /\ k_solve A s1 [] = (Ok RSat, s2, []) /\ map (k_val A s2) [pos 0; negl 0; pos 1; pos 7] = [Some TFalse; Some TTrue; Some TTrue; Some TDontCare] /\
  khistory A s2 [[pos 0; pos 1]; [negl 0]] true /\ k_add A s2 [negl 1] [] = (Err, s2, []).
Proof.
  split; [exact toy_conforming_kissat|]. pose (A := toy_kapi). pose (s0 := snd (fst (k_add A (fst (k_init A [])) [pos 0; pos 1] []))). pose (s1 := snd (fst (k_add A s0 [negl 0] []))). pose (s2 := snd (fst (k_solve A s1 []))).
  assert (H1 : khistory A s1 [[pos 0; pos 1]; [negl 0]] false).
  { apply (kh_add A s0 [[pos 0; pos 1]] false [negl 0] [] s1 []); [|vm_compute; reflexivity]. apply (kh_add A (fst (k_init A [])) [] false [pos 0; pos 1] [] s0 []); [apply (kh_init A [])|vm_compute; reflexivity]. }
  exists s1, s2. split; [exact H1|]. steps. split; [apply (kh_solve A s1 _ false [] RSat s2 []); [exact H1|vm_compute; reflexivity]|vm_compute; reflexivity].
Qed.
(** after an interrupted question, and after [reserve], the wrapper accepts clauses and questions and the process ends *)
Theorem C65_interrupted_refuted : conforming_kissat toy_kapi eq /\ let A := toy_kapi in let s0 := fst (k_init A []) in exists s1 s2,
  k_add A s0 [pos 0] [] = (Ok tt, s1, []) /\ k_solve A s1 [1%Z] = (Ok RInterrupted, s2, []) /\ fst (fst (k_add A s2 [pos 1] [])) = Abort /\ fst (fst (k_solve A s2 [])) = Abort.
Proof.
  split; [exact toy_conforming_kissat|]. pose (A := toy_kapi). pose (s1 := snd (fst (k_add A (fst (k_init A [])) [pos 0] []))). pose (s2 := snd (fst (k_solve A s1 [1%Z]))).
  cbv zeta. wit s1. wit s2. steps. vm_compute. reflexivity.
Qed.
Print Assumptions C65_interrupted_refuted.
Theorem C65_reserve_refuted : conforming_kissat toy_kapi eq /\ let A := toy_kapi in let s0 := fst (k_init A []) in exists s1 s2 s3,
  k_add A s0 [pos 0] [] = (Ok tt, s1, []) /\ k_solve A s1 [] = (Ok RSat, s2, []) /\ k_reserve A s2 3 [] = (s3, []) /\ fst (fst (k_solve A s3 [])) = Abort.
Proof.
  split; [exact toy_conforming_kissat|]. pose (A := toy_kapi). pose (s1 := snd (fst (k_add A (fst (k_init A [])) [pos 0] []))). pose (s2 := snd (fst (k_solve A s1 []))). pose (s3 := fst (k_reserve A s2 3 [])).
  cbv zeta. wit s1. wit s2. wit s3. steps. vm_compute. reflexivity.
Qed.
Print Assumptions C65_reserve_refuted.

(** ** C66: callbacks and handles *)

(** Partial: in programs that do not call [detach_learner] while a terminator is attached and do not use an interrupter
    after its solver was dropped, no freed memory is used, and a solver calls the callbacks attached last *)
Theorem C66_callbacks_partial : forall os rs, no_bad_detach u_start os = true -> u_run u_start os = Some rs -> hrun h_start os = (Some rs, false).
Proof. intros os rs H E. exact (hrun_ok os h_start u_start rs hinv_start H E). Qed.
Print Assumptions C66_callbacks_partial.
Example C66_ex : let os := [ONew; OAttachLearn 0 7; ONew; OAttachTerm 0 8; OAttachTerm 1 9; OSolve 0; OInterrupter 1; OAttachTerm 0 10; ODetachTerm 1; OSolve 0; OInterrupt 0; ODetachTerm 0; ODetachLearn 0; OSolve 0; ODrop 0; OSolve 1] in
  no_bad_detach u_start os = true /\ u_run u_start os = Some [HNone; HNone; HNone; HNone; HNone; HCalled (Some 8) (Some 7); HNone; HNone; HNone; HCalled (Some 10) (Some 7); HNone; HNone; HNone; HCalled None None; HNone; HCalled None None].
Proof. split; reflexivity. Qed.

(** [detach_learner] frees the terminator, which the back end goes on calling *)
Theorem C66_detach_learner_refuted : hrun h_start [ONew; OAttachTerm 0 1; OAttachLearn 0 2; ODetachLearn 0; OSolve 0] = (None, true) /\
  u_run u_start [ONew; OAttachTerm 0 1; OAttachLearn 0 2; ODetachLearn 0; OSolve 0] = Some [HNone; HNone; HNone; HNone; HCalled (Some 1) None].
Proof. split; reflexivity. Qed.
Print Assumptions C66_detach_learner_refuted.
(** an interrupter may outlive its solver *)
Theorem C66_interrupter_refuted : hrun h_start [ONew; OInterrupter 0; ODrop 0; OInterrupt 0] = (None, true).
Proof. reflexivity. Qed.
Print Assumptions C66_interrupter_refuted.
