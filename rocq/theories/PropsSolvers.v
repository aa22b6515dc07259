(** * Property theorems about solvers and maximum satisfiability search (C46, C55, C56)

    Solvers are any that meet [correct] (SolverSpec.v); [W] is whatever their answers depend on. *)

From Coq Require Import List Bool NArith ZArith Lia Permutation.
From Verif Require Import Spec Base BoundSpec EncSpec Types TypesProofs Constraints ConstrSpec NodeDb Maps Gte Adder Inst InstSpec InstProofs Opt OptSpec OptProofs
  Solver SolverSpec SolverProofs SolverToy MaxSatSpec MaxSat MaxSatProofs SolverUse.
Import ListNotations.

Ltac lits := intros ? Hl; vm_compute in Hl; decompose [or] Hl; try contradiction; subst; reflexivity.

(** ** C55: the incremental simulator *)

(** Over any correct solver the simulator is a correct solver that knows the variables of its clauses. *)
Theorem C55_correct : forall S W (V : solver S W) reps, correct V reps ->
  correct (incremental V) (inc_reps reps) /\ knows_vars (incremental V) (inc_reps reps).
Proof. intros S W V reps C. split; [now apply incremental_correct|apply incremental_knows]. Qed.
Print Assumptions C55_correct.
(** If the inner solver answers at least the first question asked after adding clauses, no call of the simulator fails. *)
Theorem C55_reliable : forall S W (V : solver S W) reps fresh, correct V reps -> one_shot V fresh ->
  exists reps', correct (incremental V) reps' /\ knows_vars (incremental V) reps' /\ reliable (incremental V) reps' /\
    forall i f m ls w, reps' i f m -> fst (fst (inc_solve_assumps V i ls w)) = Some RSat \/ fst (fst (inc_solve_assumps V i ls w)) = Some RUnsat.
Proof.
  intros S W V reps fresh C F. exists (inc_reps1 reps fresh). split; [now apply incremental_correct1|]. split; [apply incremental_knows1|].
  split; [now apply incremental_reliable|]. intros i f m ls w. now apply incremental_assumps_reliable.
Qed.
Print Assumptions C55_reliable.
(** Whatever was called before and whichever inner calls failed or were interrupted: an answer to [solve] is right for the
    clauses added. Missing: two kinds of failed calls, which [history] leaves out, see below; and the model after a failed
    call under assumptions. *)
Theorem C55_solve_partial : forall S W (V : solver S W) reps, correct V reps -> robust V reps -> forall i f p w r i' w',
  history V i f p -> inc_solve V i w = (Some r, i', w') ->
  (r = RSat -> (exists a, sat_cnf a f = true) /\ (p <> PLost -> models (incremental V) i' f)) /\
  (r = RUnsat -> unsat f /\ inc_core i' = Some []).
Proof. exact (fun S W V reps C B i f p w r i' w' => history_solve V reps C B i f p w r i' w'). Qed.
Print Assumptions C55_solve_partial.
(** ... and an answer under assumptions is right for the clauses added and the assumptions; the core consists of negated
    assumptions and is implied by the clauses. *)
Theorem C55_assumptions_partial : forall S W (V : solver S W) reps, correct V reps -> robust V reps -> forall i f p ls w r i' w',
  history V i f p -> inc_solve_assumps V i ls w = (Some r, i', w') ->
  (r = RSat -> models (incremental V) i' (f ++ units ls)) /\
  (r = RUnsat -> (forall a, sat_cnf a f = true -> sat_cube a ls = false) /\
     exists core, inc_core i' = Some core /\ (forall l, In l core -> In (neg l) ls) /\ forall a, sat_cnf a f = true -> sat_clause a core = true).
Proof. exact (fun S W V reps C B i f p ls w r i' w' => history_assumps V reps C B i f p ls w r i' w'). Qed.
Print Assumptions C55_assumptions_partial.
(** At any time: a core that is returned is implied by the clauses, and the largest variable is at least those of the clauses. *)
Theorem C55_core_partial : forall S W (V : solver S W) reps, correct V reps -> robust V reps -> forall i f p, history V i f p ->
  (forall core, inc_core i = Some core -> forall a, sat_cnf a f = true -> sat_clause a core = true) /\
  (forall c l, In c f -> In l c -> exists v, in_max i = Some v /\ (lvar l <= v)%N).
Proof.
  intros S W V reps C B i f p H. split; [intros core; now apply (history_core V reps C B i f p)|]. intros c l. now apply (history_max_var V reps C B i f p).
Qed.
Print Assumptions C55_core_partial.

(** [x0 or x1], solved, then under the assumptions [not x0, not x1], then again after an inner failure, then a clause added *)
Example C55_ex : exists i1 i2 i3 i4 i5 i6,
  correct (toy true) ext_reps /\ robust (toy true) ext_reps /\
  inc_add (toy true) (fst (inc_init (toy true) (tt, []))) [pos 0; pos 1] (tt, []) = (true, i1, (tt, [])) /\
  inc_solve (toy true) i1 (tt, []) = (Some RSat, i2, (tt, [])) /\
  inc_solve_assumps (toy true) i2 [negl 0; negl 1] (tt, []) = (Some RUnsat, i3, (tt, [])) /\
  inc_core i3 = Some [pos 0; pos 1] /\
  inc_solve_assumps (toy true) i3 [negl 0] (tt, [true; true; false]) = (None, i4, (tt, [])) /\
  inc_add (toy true) i4 [negl 1] (tt, []) = (true, i5, (tt, [])) /\
  inc_solve_assumps (toy true) i5 [pos 2] (tt, []) = (Some RSat, i6, (tt, [])) /\
  history (toy true) i6 [[pos 0; pos 1]; [negl 1]] PAnswered /\
  map (inc_val (toy true) i6) [pos 0; negl 0; pos 1; pos 2] = [Some TTrue; Some TFalse; Some TFalse; Some TTrue].
Proof.
  do 6 eexists. split; [apply toy_correct|]. split; [apply toy_robust|].
  split; [vm_compute; reflexivity|]. split; [vm_compute; reflexivity|]. split; [vm_compute; reflexivity|]. split; [vm_compute; reflexivity|].
  split; [vm_compute; reflexivity|]. split; [vm_compute; reflexivity|]. split; [vm_compute; reflexivity|]. split; [|vm_compute; reflexivity].
  pose proof (hi_init (toy true) (tt, [])) as H.
  pose proof (hi_add _ _ _ _ [pos 0; pos 1] (tt, []) _ _ H eq_refl) as H1. vm_compute in H1.
  pose proof (hi_solve _ _ _ _ (tt, []) _ _ _ H1 eq_refl) as H2. vm_compute in H2.
  pose proof (hi_assumps _ _ _ _ [negl 0; negl 1] (tt, []) _ _ _ H2 eq_refl) as H3. vm_compute in H3.
  pose proof (hi_assumps_err _ _ _ _ [negl 0] (tt, [true; true; false]) _ _ H3 ltac:(discriminate) eq_refl) as H4. vm_compute in H4.
  pose proof (hi_add _ _ _ _ [negl 1] (tt, []) _ _ H4 eq_refl) as H5. vm_compute in H5.
  exact (hi_assumps _ _ _ _ [pos 2] (tt, []) _ _ _ H5 eq_refl).
Qed.

(** A failed call under assumptions directly after adding clauses leaves the assumptions in the solver: the next answer is wrong. *)
Theorem C55_assumptions_refuted : exists i1 i2 i3 w, correct (toy true) ext_reps /\ robust (toy true) ext_reps /\
  inc_add (toy true) (fst (inc_init (toy true) (tt, []))) [pos 0; pos 1] (tt, []) = (true, i1, (tt, [])) /\
  inc_solve_assumps (toy true) i1 [negl 0; negl 1] (tt, [true; true; false]) = (None, i2, w) /\
  inc_solve (toy true) i2 w = (Some RUnsat, i3, w) /\ ~ unsat [[pos 0; pos 1]].
Proof.
  do 4 eexists. split; [apply toy_correct|]. split; [apply toy_robust|]. do 3 (split; [vm_compute; reflexivity|]).
  intros U. specialize (U (fun _ => true)). discriminate U.
Qed.
Print Assumptions C55_assumptions_refuted.
(** A failed [add_clause] after an answer may lose clauses added before: the next answer is wrong. *)
Theorem C55_add_clause_refuted : exists i1 i2 i3 i4 i5 w, correct (toy true) ext_reps /\ robust (toy true) ext_reps /\
  inc_add (toy true) (fst (inc_init (toy true) (tt, []))) [pos 0] (tt, []) = (true, i1, (tt, [])) /\
  inc_add (toy true) i1 [negl 0] (tt, []) = (true, i2, (tt, [])) /\
  inc_solve (toy true) i2 (tt, []) = (Some RUnsat, i3, (tt, [])) /\
  inc_add (toy true) i3 [pos 1] (tt, [true; false]) = (false, i4, w) /\
  inc_solve (toy true) i4 w = (Some RSat, i5, w) /\ unsat [[pos 0]; [negl 0]].
Proof.
  do 6 eexists. split; [apply toy_correct|]. split; [apply toy_robust|]. do 5 (split; [vm_compute; reflexivity|]).
  intros a. cbn. destruct (a 0%N); reflexivity.
Qed.
Print Assumptions C55_add_clause_refuted.
(** After a failed call under assumptions [solve] may answer "satisfiable" but have no model. *)
Theorem C55_model_refuted : exists i1 i2 i3 w, correct (toy true) ext_reps /\ robust (toy true) ext_reps /\
  inc_add (toy true) (fst (inc_init (toy true) (tt, []))) [pos 0] (tt, []) = (true, i1, (tt, [])) /\
  inc_solve (toy true) i1 (tt, []) = (Some RSat, i2, (tt, [])) /\
  inc_solve_assumps (toy true) i2 [] (tt, [true; false]) = (None, i3, w) /\
  inc_solve (toy true) i3 w = (Some RSat, i3, w) /\ inc_val (toy true) i3 (pos 0) = None.
Proof. do 4 eexists. split; [apply toy_correct|]. split; [apply toy_robust|]. repeat (split; [vm_compute; reflexivity|]). vm_compute; reflexivity. Qed.
Print Assumptions C55_model_refuted.

(** ** C56: external solvers *)

(** All results of all sequences of calls, for every program: the program is run once, on exactly the clauses added before
    [solve] and the number of variables in them; its answer is returned; everything later is refused, except values and
    solutions if the answer was a solution. *)
Theorem C56_calls : forall W (run : cnf -> N -> W -> option sout * W) cs w,
  ext_calls run (fst (ext_init w)) cs w = spec_results run [] cs w.
Proof. intros W run cs w. exact (external_calls run cs [] w). Qed.
Print Assumptions C56_calls.
(** the number of variables given to the program is enough for all clauses *)
Theorem C56_variables : forall f c l, In c f -> In l c -> (lvar l < n_vars_of f)%N.
Proof. exact n_vars_of_ge. Qed.
Print Assumptions C56_variables.
(** If the program is honest the external solver is a correct solver, and errors lose no clauses. *)
Theorem C56_correct : forall W (run : cnf -> N -> W -> option sout * W), honest run ->
  correct (external run) ext_reps /\ robust (external run) ext_reps.
Proof. intros W run H. split; [now apply external_correct|apply external_robust]. Qed.
Print Assumptions C56_correct.
Example C56_ex : honest (W := unit) (try_all true) /\
  ext_calls (try_all true) (fst (ext_init tt)) [CVal (pos 0); CAdd [pos 0; negl 2]; CAdd [negl 0]; CSolve; CVal (pos 2); CVal (pos 1); CVal (pos 7); CSolution 1; CAdd [pos 1]; CSolve; CVal (negl 0)] tt =
  [RErr; ROk; ROk; RAnswer RSat; RVal TFalse; RVal TTrue; RVal TDontCare; RSolution [TFalse; TTrue]; RErr; RErr; RVal TTrue].
Proof. split; [apply try_all_honest|]. vm_compute. reflexivity. Qed.

(** ** C46: solution-improving search *)

(** With the generalized totalizer or the binary adder, over every correct solver that knows the variables of its clauses:
    a returned result is optimal, the search only panics if a solver call fails or is interrupted, and it needs at most as
    many rounds as the sum of the weights plus 2. Missing: objectives with variables unknown to the solver, with a literal
    twice or with weight 0, and an empty clause in a solver that knows no variable; see below. *)
Theorem C46_search_gte_partial : forall ord, iter_order ord -> forall S W (V : solver S W) reps, correct V reps -> knows_vars V reps ->
  forall fuel s f m obj w, reps s f m -> (In [] f -> sv_max_var V s <> None) -> NoDup (map fst obj) ->
  (forall x, In x obj -> 1 <= snd x /\ exists mv, sv_max_var V s = Some mv /\ (lvar (fst x) <= mv)%N) ->
  match improving_search V (gte_enc ord) gte_from_iter fuel s obj w with
  | Done r => optimal obj f r
  | Panic => ~ reliable V reps
  | OutOfFuel => fuel < total_weight obj + 2
  end.
Proof.
  intros ord H S W V reps C K fuel s f m obj w R H1 H2 H3. pose proof (improving_search_ok V reps _ _ C K (gte_search ord H) fuel s f m obj w R H1 H2 H3) as G.
  destruct (improving_search _ _ _ _ _ _ _); auto. now apply optimal_result_optimal.
Qed.
Print Assumptions C46_search_gte_partial.
Theorem C46_search_adder_partial : forall ord, iter_order ord -> forall S W (V : solver S W) reps, correct V reps -> knows_vars V reps ->
  forall fuel s f m obj w, reps s f m -> (In [] f -> sv_max_var V s <> None) -> NoDup (map fst obj) ->
  (forall x, In x obj -> 1 <= snd x /\ exists mv, sv_max_var V s = Some mv /\ (lvar (fst x) <= mv)%N) ->
  match improving_search V (adder_enc ord) add_from_iter fuel s obj w with
  | Done r => optimal obj f r
  | Panic => ~ reliable V reps
  | OutOfFuel => fuel < total_weight obj + 2
  end.
Proof.
  intros ord H S W V reps C K fuel s f m obj w R H1 H2 H3. pose proof (improving_search_ok V reps _ _ C K (adder_search ord H) fuel s f m obj w R H1 H2 H3) as G.
  destruct (improving_search _ _ _ _ _ _ _); auto. now apply optimal_result_optimal.
Qed.
Print Assumptions C46_search_adder_partial.
(** a reliable solver, and a search with several improvements *)
Example C46_search_ex : let V := brute true in let f := [[pos 0; pos 1]; [negl 0; pos 2]] in let obj := [(pos 0, 3); (pos 1, 4); (pos 2, 2)] in
  exists s, add_all V (fst (sv_init V tt)) f tt = (true, s, tt) /\ correct V brute_reps /\ knows_vars V brute_reps /\ reliable V brute_reps /\
  (exists m, brute_reps s f m) /\ sv_max_var V s = Some 2%N /\
  improving_search V (gte_enc (fun m => m)) gte_from_iter 11 s obj tt = Done (Some ([TFalse; TTrue; TFalse], 4)) /\
  improving_search V (adder_enc (fun m => m)) add_from_iter 11 s obj tt = Done (Some ([TFalse; TTrue; TFalse], 4)) /\
  improving_search V (gte_enc (fun m => m)) gte_from_iter 2 s obj tt = OutOfFuel.
Proof.
  intros V f obj. destruct (brute_correct true) as (C & K & R). eexists. split; [vm_compute; reflexivity|]. do 3 (split; [assumption|]). split; [|repeat split; vm_compute; reflexivity].
  match goal with |- exists m, brute_reps ?s _ _ => change (exists m, brute_reps s ([] ++ f) m) end.
  apply (add_all_ok V brute_reps C f (fst (sv_init V tt)) [] false tt _ tt (co_init _ _ C tt)). vm_compute. reflexivity.
Qed.

(** An objective variable unknown to the solver is confused with a variable of the encoding: the result is not optimal. *)
Theorem C46_unknown_variable_refuted : let V := brute true in let f := [[pos 0; pos 1]] in let obj := [(pos 0, 1); (pos 1, 1); (pos 2, 1)] in
  exists s, correct V brute_reps /\ knows_vars V brute_reps /\ add_all V (fst (sv_init V tt)) f tt = (true, s, tt) /\
  improving_search V (gte_enc (fun m => m)) gte_from_iter 5 s obj tt = Done (Some ([TTrue; TTrue], 2)) /\
  exists a, sat_cnf a f = true /\ wsum a obj = 1.
Proof.
  intros V f obj. destruct (brute_correct true) as (C & K & _). eexists. split; [exact C|]. split; [exact K|]. split; [vm_compute; reflexivity|]. split; [vm_compute; reflexivity|].
  exists (fun v => (v =? 0)%N). split; reflexivity.
Qed.
Print Assumptions C46_unknown_variable_refuted.
(** A literal twice in the objective: the search never ends. *)
Theorem C46_duplicate_refuted : let V := brute true in let f := [[pos 0]] in let obj := [(pos 0, 1); (pos 0, 2)] in
  exists s, correct V brute_reps /\ knows_vars V brute_reps /\ add_all V (fst (sv_init V tt)) f tt = (true, s, tt) /\
  forall fuel, improving_search V (gte_enc (fun m => m)) gte_from_iter fuel s obj tt = OutOfFuel.
Proof.
  intros V f obj. destruct (brute_correct true) as (C & K & _). eexists. split; [exact C|]. split; [exact K|]. split; [vm_compute; reflexivity|].
  intros [|[|fuel]]; [reflexivity|vm_compute; reflexivity|].
  match goal with |- improving_search V ?E ?from _ ?s _ _ = _ => set (s0 := s); assert (Hloop : forall fuel best,
    improve V E fuel obj 0 (snd (fst (sv_solve V s0 tt))) (match en_ub E (from obj) (Incl 2, Excl 3) 1 with Some (e, _, _) => e | None => from obj end) 1 best tt = OutOfFuel) end.
  { clear fuel. induction fuel as [|fuel IH]; intros best; [reflexivity|]. cbn [improve]. exact (IH _). }
  exact (Hloop _ _).
Qed.
Print Assumptions C46_duplicate_refuted.
(** A solver without literals but with an empty clause: a "solution" is returned. *)
Theorem C46_empty_clause_refuted : let V := strict true in exists s, correct V brute_reps /\ knows_vars V brute_reps /\
  add_all V (fst (sv_init V tt)) [[]] tt = (true, s, tt) /\ unsat [[]] /\
  improving_search V (gte_enc (fun m => m)) gte_from_iter 5 s [] tt = Done (Some ([], 0)).
Proof. intros V. destruct (strict_correct true) as (C & K). eexists. split; [exact C|]. split; [exact K|]. split; [vm_compute; reflexivity|]. split; [intros a; reflexivity|vm_compute; reflexivity]. Qed.
Print Assumptions C46_empty_clause_refuted.

(** *** [OptInstance::solve_maxsat] *)

(** For objectives of soft literals only whose variables all occur in hard clauses, with the default conversion to clauses.
    Missing: soft clauses with several literals, other variables, and a literal twice; see below. *)
Definition maxsat_result (p : opt) (r : option (assignment * Z)) : Prop :=
  match r with
  | None => forall a, ~ inst_holds a (o_constrs p)
  | Some (sol, cost) =>
      (forall a, completes a (pasg_of sol) -> inst_holds a (o_constrs p)) /\
      (forall a, inst_holds a (o_constrs p) -> (cost <= obj_value a (o_obj p))%Z) /\
      (no_opposites (obj_lits (o_obj p)) \/ all_valued (obj_lits (o_obj p)) sol -> exists a, completes a (pasg_of sol) /\ obj_value a (o_obj p) = cost)
  end.
Definition soft_lits_in_hard_clauses (p : opt) : Prop :=
  obj_wf (o_obj p) /\ obj_cls (o_obj p) = [] /\ NoDup (map fst (obj_lits (o_obj p))) /\
  (exists c l, In c (i_cnf (o_constrs p)) /\ In l c) /\
  (forall x, In x (map fst (obj_lits (o_obj p))) -> exists c l, In c (i_cnf (o_constrs p)) /\ In l c /\ lvar l = lvar x).
Theorem C46_solve_maxsat_partial : forall lord cord ord ord1 ord2 ord3 ord4, orders lord cord ->
  iter_order ord -> iter_order ord1 -> iter_order ord2 -> iter_order ord3 -> iter_order ord4 ->
  forall S W (V : solver S W) reps, correct V reps -> knows_vars V reps -> forall fuel p w,
  inst_known (o_constrs p) -> (forall q, In q (i_pbs (o_constrs p)) -> pb_plain q /\ ~ indivisible q) -> soft_lits_in_hard_clauses p ->
  match solve_maxsat V (gte_enc ord) gte_from_iter lord cord (into_cnf ord ord1 ord2 ord3 ord4) fuel p w with
  | Done r => maxsat_result p r
  | Panic => ~ reliable V reps
  | OutOfFuel => fuel < total_weight (obj_lits (o_obj p)) + 2
  end.
Proof.
  intros lord cord ord ord1 ord2 ord3 ord4 Ho O O1 O2 O3 O4 S W V reps C K fuel p w Hk Hp (H1 & H2 & H3 & H4 & H5).
  destruct (into_cnf_default ord ord1 ord2 ord3 ord4 _ O O1 O2 O3 O4 Hk Hp) as (f & n & E & Hex).
  pose proof (solve_maxsat_ok V reps _ _ C K (gte_search ord O) lord cord _ Ho fuel p w f n Hk H1 H2 H3 E Hex (into_cnf_incl _ _ _ _ _ E) H4 H5) as G.
  destruct (solve_maxsat _ _ _ _ _ _ _ _ _) as [[[sol cost]|]| |]; exact G.
Qed.
Print Assumptions C46_solve_maxsat_partial.
Example C46_solve_maxsat_ex : let p := mkOpt (mkInst [[pos 0; pos 1]; [pos 2]] [] [] 3) (OWeighted 5 [(pos 0, 3); (pos 1, 1); (negl 2, 2)] []) in
  inst_known (o_constrs p) /\ soft_lits_in_hard_clauses p /\
  solve_maxsat (brute true) (gte_enc (fun m => m)) gte_from_iter (fun m => m) (fun m => m) (into_cnf (fun m => m) (fun m => m) (fun m => m) (fun m => m) (fun m => m)) 8 p tt = Done (Some ([TFalse; TTrue; TTrue], 6%Z)).
Proof.
  intros p. split; [lits|]. split; [|vm_compute; reflexivity]. split.
  - apply wf_weighted. cbn [map fst In]. split; [intros l w [H|[H|[H|[]]]]; injection H as <- <-; lia|]. split; [intros c w []|]. split; [repeat (apply NoDup_cons; [cbn; intuition discriminate|]); apply NoDup_nil|apply NoDup_nil].
  - split; [reflexivity|]. split; [cbn; repeat (apply NoDup_cons; [cbn; intuition discriminate|]); apply NoDup_nil|]. split; [exists [pos 2], (pos 2); cbn; auto|].
    intros x Hx. cbn in Hx. destruct Hx as [<-|[<-|[<-|[]]]]; [exists [pos 0; pos 1], (pos 0)|exists [pos 0; pos 1], (pos 1)|exists [pos 2], (pos 2)]; cbn; auto.
Qed.
(** A soft clause with two literals: [not x0] and [not x1] are hard, [x0 or x1] is soft with weight 1, and cost 0 is reported. *)
Theorem C46_soft_clause_refuted : let p := mkOpt (mkInst [[negl 0]; [negl 1]] [] [] 2) (OWeighted 0 [] [([pos 0; pos 1], 1)]) in
  correct (brute true) brute_reps /\ knows_vars (brute true) brute_reps /\ inst_known (o_constrs p) /\
  solve_maxsat (brute true) (gte_enc (fun m => m)) gte_from_iter (fun m => m) (fun m => m) (into_cnf (fun m => m) (fun m => m) (fun m => m) (fun m => m) (fun m => m)) 8 p tt = Done (Some ([TFalse; TFalse; TFalse], 0%Z)) /\
  forall a, inst_holds a (o_constrs p) -> obj_value a (o_obj p) = 1%Z.
Proof.
  intros p. destruct (brute_correct true) as (C & K & _). split; [exact C|]. split; [exact K|]. split; [lits|]. split; [vm_compute; reflexivity|].
  intros a (Ha & _). cbn in Ha. unfold obj_value. cbn. destruct (a 0%N), (a 1%N); try discriminate; reflexivity.
Qed.
Print Assumptions C46_soft_clause_refuted.
(** A soft literal over a variable without hard clause: [x0 or x1] is hard, [not x0], [not x1] and [not x2] are soft, and the
    reported cost is not the lowest possible. *)
Theorem C46_free_variable_refuted : let p := mkOpt (mkInst [[pos 0; pos 1]] [] [] 3) (OWeighted 0 [(pos 0, 1); (pos 1, 1); (pos 2, 1)] []) in
  inst_known (o_constrs p) /\
  solve_maxsat (brute true) (gte_enc (fun m => m)) gte_from_iter (fun m => m) (fun m => m) (into_cnf (fun m => m) (fun m => m) (fun m => m) (fun m => m) (fun m => m)) 8 p tt = Done (Some ([TTrue; TTrue], 2%Z)) /\
  exists a, inst_holds a (o_constrs p) /\ obj_value a (o_obj p) = 1%Z.
Proof.
  intros p. split; [lits|]. split; [vm_compute; reflexivity|]. exists (fun v => (v =? 0)%N). split; [|reflexivity]. split; [reflexivity|]. split; intros x [].
Qed.
Print Assumptions C46_free_variable_refuted.
(** Without hard clauses the cost is always reported to be the offset. *)
Theorem C46_no_clauses_refuted : let p := mkOpt (mkInst [] [] [] 1) (OWeighted 0 [(pos 0, 1); (negl 0, 1)] []) in
  inst_known (o_constrs p) /\
  solve_maxsat (brute true) (gte_enc (fun m => m)) gte_from_iter (fun m => m) (fun m => m) (into_cnf (fun m => m) (fun m => m) (fun m => m) (fun m => m) (fun m => m)) 8 p tt = Done (Some ([], 0%Z)) /\
  forall a, obj_value a (o_obj p) = 1%Z.
Proof. intros p. split; [lits|]. split; [vm_compute; reflexivity|]. intros a. unfold obj_value. cbn. destruct (a 0%N); reflexivity. Qed.
Print Assumptions C46_no_clauses_refuted.
(** An empty soft clause (added with [increase_soft_clause]): a panic if debug assertions are on. *)
Theorem C46_empty_soft_clause_refuted : exists o, foldM obj_call [OIncClause 1 []] obj_new = Some o /\
  let p := mkOpt (mkInst [[pos 0]] [] [] 1) o in inst_known (o_constrs p) /\
  solve_maxsat (brute true) (gte_enc (fun m => m)) gte_from_iter (fun m => m) (fun m => m) (into_cnf (fun m => m) (fun m => m) (fun m => m) (fun m => m) (fun m => m)) 8 p tt = Panic.
Proof. eexists. split; [vm_compute; reflexivity|]. intros p. split; [lits|vm_compute; reflexivity]. Qed.
Print Assumptions C46_empty_soft_clause_refuted.
