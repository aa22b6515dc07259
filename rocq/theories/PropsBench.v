(** * Property theorems about the benchmark generator (C74, C75, C76), and about single upper bounds with the dynamic polynomial watchdog (C34) *)

From Coq Require Import List Bool NArith ZArith Ascii String Arith Lia Permutation.
From Coq Require Import ZifyBool ZifyNat ZifyN.
From Verif Require Import Spec Types Base BoundSpec Constraints ConstrSpec ConstrEnc EncSpec Atomics Maps NodeDb Dpw DpwSingle Inst OptSpec Text FioSpec Dimacs Opb OpbSpec ToolSpec Bench BenchSpec BenchProofs BenchAlloc BenchCnf PropsTools.
Import ListNotations.
Open Scope list_scope.

(** A run that ends with a panic, given enough fuel *)
Definition panics {X} (run : nat -> option (res X)) : Prop := exists k, forall fuel, (k <= fuel)%nat -> run fuel = Some RPanic.

(** ** C34: an upper bound with the dynamic polynomial watchdog, as used by the generator *)

Theorem C34_dpw_upper_partial : forall ord srt, iter_order ord -> (forall ns l, Permutation (srt ns l) l) -> forall c next, p_kind c = KUb -> NoDup (map fst (p_lits c)) ->
  (forall l w, In (l, w) (p_lits c) -> (0 < w)%nat) -> lits_below next (map fst (p_lits c)) ->
  (dpw_ub_constr ord srt c next = Some CUnsat /\ forall a, ~ pb_holds a c) \/
  exists cs next', dpw_ub_constr ord srt c next = Some (COk cs next') /\ exact_clauses (map fst (p_lits c)) next next' cs (fun a => pb_holds a c).
Proof. exact dpw_ub_constr_exact. Qed.
Print Assumptions C34_dpw_upper_partial.
Example C34_dpw_upper_ex : let c := pb_new_ub [(pos 0, 1%Z); (pos 1, (-3)%Z); (pos 2, 2%Z)] 0 in
  NoDup (map fst (p_lits c)) /\ exists cs, dpw_ub_constr (fun m => m) (fun _ l => l) c 3 = Some (COk cs 10) /\ List.length cs = 11%nat.
Proof.
  split; [cbn; repeat (apply NoDup_cons; [cbn; intuition discriminate|]); apply NoDup_nil|]. eexists. vm_compute. split; reflexivity.
Qed.

(** ** C74: knapsack *)

Definition ex_knap : knapsack := mkKnapsack [mkItem 3 [2; 5]; mkItem 2 [4; 1]; mkItem 4 [1; 7]]%nat 6.
(** The OPB file: the constraints hold iff the items picked do not weigh more than the capacity, and each objective is the value of the items left behind; without negated
    literals it is the negated value of the items picked. *)
Theorem C74_pb : forall o m k, knapsack_ok m k -> knapsack_fits o k ->
  exists t ss, produces (gen_pb_knapsack o k) t /\ opb_file (first_var_idx o) ss t /\
    (forall a, constrs_hold a ss <-> (pick_weight a k <= ks_capacity k)%nat) /\
    forall a, opb_costs ss a = map (fun j => ((if no_negated_lits o then 0 else Z.of_nat (all_value k j)) - Z.of_nat (pick_value a k j))%Z) (seq 0 m).
Proof. exact pb_knapsack_spec. Qed.
Print Assumptions C74_pb.
Lemma ex_knap_ok : knapsack_ok 2 ex_knap.
Proof. split; [discriminate|]. split; [lia|]. intros it [<-|[<-|[<-|[]]]]; reflexivity. Qed.
Example C74_pb_ex : knapsack_ok 2 ex_knap /\ knapsack_fits opb_default ex_knap /\ gen_pb_knapsack opb_default ex_knap 10 = Some (ROk (
  line (T "* #variable= 3 #constraint= 1") ++ line (T "* MO Knapsack instance generated by RustSAT") ++
  line (T "min: -2 x1 -4 x2 -1 x3;") ++ line (T "* objective offset for previous objective: 7") ++
  line (T "min: -5 x1 -1 x2 -7 x3;") ++ line (T "* objective offset for previous objective: 13") ++ line (T "-3 x1 -2 x2 -4 x3 >= -6;"))).
Proof.
  split; [exact ex_knap_ok|]. split; [|vm_compute; reflexivity]. split; [split; small|]. split; [vm_compute; discriminate|]. intros [|[|j]]; [vm_compute; discriminate|vm_compute; discriminate|].
  unfold all_value, value_at. cbn [ex_knap ks_items map it_values nth]. destruct j; vm_compute; discriminate.
Qed.
(** The MCNF or WCNF file, whatever the iteration order of hash maps and the order in which sorting leaves equal elements: it contains clauses encoding the problem. *)
Theorem C74_cnf_partial : forall ord srt, iter_order ord -> (forall ns l, Permutation (srt ns l) l) -> forall m k, knapsack_ok m k -> (forall it, In it (ks_items k) -> (1 <= it_weight it)%nat) ->
  values_fit m k -> (N.of_nat (List.length (ks_items k)) <= max_var_idx)%N -> forall single t, produces (gen_cnf_knapsack ord srt single k) t ->
  exists es, knapsack_clauses m k es /\ (single = false -> mcnf_file max_var_idx es t) /\
    (single = true -> wcnf_file max_var_idx (map in_one es) t /\ forall a, cls_cost a (softs (map in_one es)) = sum_to m (fun j => (all_value k j - pick_value a k j)%nat)).
Proof. exact cnf_knapsack_spec. Qed.
Print Assumptions C74_cnf_partial.
(** A file is written unless the encoding of the capacity needs too many variables. *)
Theorem C74_cnf_written_partial : forall ord srt, iter_order ord -> (forall ns l, Permutation (srt ns l) l) -> forall m k, knapsack_ok m k -> (forall it, In it (ks_items k) -> (1 <= it_weight it)%nat) ->
  exists cs next', dpw_ub_constr ord srt (knap_cap k) (N.of_nat (List.length (ks_items k))) = Some (COk cs next') /\
  ((next' <= max_var_idx)%N -> forall single, exists t, produces (gen_cnf_knapsack ord srt single k) t).
Proof. exact cnf_knapsack_runs. Qed.
Print Assumptions C74_cnf_written_partial.
Example C74_cnf_ex : knapsack_ok 2 ex_knap /\ (forall it, In it (ks_items ex_knap) -> (1 <= it_weight it)%nat) /\ values_fit 2 ex_knap /\
  exists hard, gen_cnf_knapsack (fun m => m) (fun _ l => l) false ex_knap 40 = Some (ROk (hard ++
    line (T "o 1 2 1 0") ++ line (T "o 2 5 1 0") ++ line (T "o 1 4 2 0") ++ line (T "o 2 1 2 0") ++ line (T "o 1 1 3 0") ++ line (T "o 2 7 3 0"))) /\ (0 < List.length hard)%nat.
Proof.
  split; [exact ex_knap_ok|]. split; [intros it [<-|[<-|[<-|[]]]]; cbn; lia|]. split; [split; [small|]; intros it v [<-|[<-|[<-|[]]]] [<-|[<-|[]]]; small|].
  match goal with |- exists hard, ?g = _ /\ _ => let x := eval vm_compute in g in match x with Some (ROk ?t) => exists (firstn (List.length t - 60) t) end end. vm_compute. split; [reflexivity|]. repeat constructor.
Qed.

(** *** What is not right *)

(** Encoding as clauses panics if an item weighs nothing. *)
Theorem C74_zero_weight_refuted : exists k, knapsack_ok 1 k /\ ks_capacity k = 3%nat /\ panics (gen_cnf_knapsack (fun m => m) (fun _ l => l) false k).
Proof.
  exists (mkKnapsack [mkItem 0 [1]; mkItem 2 [3]]%nat 3). split; [split; [discriminate|]; split; [lia|]; intros it [<-|[<-|[]]]; reflexivity|]. split; [reflexivity|].
  exists 0%nat. intros fuel _. unfold gen_cnf_knapsack. match goal with |- context [ck_new ?o ?s ?k] => replace (ck_new o s k) with (@None kclause) by (vm_compute; reflexivity) end. reflexivity.
Qed.
Print Assumptions C74_zero_weight_refuted.
(** The pseudo-Boolean encoding panics if there are no items, and if the items have no values. *)
Theorem C74_no_items_refuted : forall o, panics (gen_pb_knapsack o (mkKnapsack [] 3)) /\ panics (gen_pb_knapsack o (mkKnapsack [mkItem 1 []] 3)).
Proof. intros o. split; exists 3%nat; intros [|[|[|fuel]]] H; try lia; reflexivity. Qed.
Print Assumptions C74_no_items_refuted.

(** ** C75: assignment *)

(** The constraints hold iff the variables describe a one-to-one assignment of tasks to agents, and the objectives are its costs. *)
Theorem C75_pb : forall o p, assignment_ok p -> assignment_fits o p ->
  exists t ss, produces (gen_pb_assignment o p) t /\ opb_file (first_var_idx o) ss t /\
    (forall a, constrs_hold a ss <-> exists f, one_to_one (as_tasks p) f /\ assigns (as_tasks p) a f) /\
    forall a f, one_to_one (as_tasks p) f -> assigns (as_tasks p) a f -> opb_costs ss a = map (fun j => Z.of_nat (assignment_cost p f j)) (seq 0 (as_objs p)).
Proof. exact pb_assignment_spec. Qed.
Print Assumptions C75_pb.
Definition ex_assignment : assignment := mkAssignment 2 2 [1; 2; 3; 4; 5; 6; 7; 8]%nat.
Example C75_pb_ex : assignment_ok ex_assignment /\ assignment_fits opb_default ex_assignment /\
  (exists f a, one_to_one 2 f /\ assigns 2 a f /\ map (assignment_cost ex_assignment f) [0; 1]%nat = [5; 13]%nat) /\
  exists cs, gen_pb_assignment opb_default ex_assignment 10 = Some (ROk (
  line (T "* #variable= 4 #constraint= 4") ++ line (T "* MO Assignment instance generated by RustSAT") ++
  line (T "min: 1 x1 2 x2 3 x3 4 x4;") ++ line (T "min: 5 x1 6 x2 7 x3 8 x4;") ++ cs)) /\ cs = line (T "1 x1 1 x3 = 1;") ++ line (T "1 x2 1 x4 = 1;") ++ line (T "1 x1 1 x2 = 1;") ++ line (T "1 x3 1 x4 = 1;").
Proof.
  split; [split; [cbn; lia|]; split; [cbn; lia|reflexivity]|]. split; [split; [split; small|]; vm_compute; discriminate|]. split.
  - exists (fun t => 1 - t)%nat, (fun v => (v =? 1) || (v =? 2))%N. split; [split; [intros; lia|intros; lia]|]. split; [|vm_compute; reflexivity]. intros [|[|t]] [|[|g]] H1 H2; try lia; reflexivity.
  - eexists. split; [vm_compute; reflexivity|vm_compute; reflexivity].
Qed.
(** Without tasks the empty assignment is a solution, but the constraints cannot be satisfied. *)
Theorem C75_no_tasks_refuted : forall o, let p := mkAssignment 0 1 [] in (exists a f, one_to_one (as_tasks p) f /\ assigns (as_tasks p) a f) /\
  exists t ss, produces (gen_pb_assignment o p) t /\ opb_file (first_var_idx o) ss t /\ forall a, ~ constrs_hold a ss.
Proof.
  intros o p. split; [exists (fun _ => true), (fun t => t); split; [split; intros; cbn in *; lia|intros ? ? H; cbn in H; lia]|]. exact (no_tasks_spec o).
Qed.
Print Assumptions C75_no_tasks_refuted.
(** Without objectives the generator panics. *)
Theorem C75_no_objectives_refuted : forall o, panics (gen_pb_assignment o (mkAssignment 1 0 [])).
Proof. intros o. exists 3%nat. intros [|[|[|fuel]]] H; try lia; reflexivity. Qed.
Print Assumptions C75_no_objectives_refuted.

(** ** C76: facility location *)

(** The constraints hold iff every customer uses exactly one facility and this facility is opened; the objectives are the costs of supplying customers and opening facilities. *)
Theorem C76_pb : forall o p, facloc_ok p -> facloc_fits o p -> let nc := fl_customers p in let nf := fl_facilities p in
  exists t ss, produces (gen_pb_facloc o p) t /\ opb_file (first_var_idx o) ss t /\
    (forall a, constrs_hold a ss <-> exists f, supplies nc nf a f /\ forall c, (c < nc)%nat -> opened nc nf a (f c) = true) /\
    forall a f, supplies nc nf a f -> opb_costs ss a = map (fun j => Z.of_nat (facloc_cost p a f j)) (seq 0 (fl_objs p)).
Proof. exact pb_facloc_spec. Qed.
Print Assumptions C76_pb.
Definition ex_facloc : facloc := mkFacloc 2 2 2 [1; 2; 3; 4; 5; 6; 7; 8]%nat [9; 8; 7; 6]%nat.
Example C76_pb_ex : facloc_ok ex_facloc /\ facloc_fits opb_default ex_facloc /\
  (exists f a, supplies 2 2 a f /\ (forall c, (c < 2)%nat -> opened 2 2 a (f c) = true) /\ map (facloc_cost ex_facloc a f) [0; 1]%nat = [14; 20]%nat) /\
  exists cs, gen_pb_facloc opb_default ex_facloc 20 = Some (ROk (
  line (T "* #variable= 6 #constraint= 6") ++ line (T "* MO uncapacitated facility location instance generated by RustSAT") ++
  line (T "min: 1 x1 2 x2 3 x3 4 x4 9 x5 8 x6;") ++ line (T "min: 5 x1 6 x2 7 x3 8 x4 7 x5 6 x6;") ++ cs)) /\
  cs = line (T "1 x1 1 x2 = 1;") ++ line (T "1 x3 1 x4 = 1;") ++ line (T "-1 x1 1 x5 >= 0;") ++ line (T "-1 x3 1 x5 >= 0;") ++ line (T "-1 x2 1 x6 >= 0;") ++ line (T "-1 x4 1 x6 >= 0;").
Proof.
  split; [repeat split; cbn; lia|]. split; [split; [split; small|]; vm_compute; discriminate|]. split.
  - exists (fun t => 1)%nat, (fun v => (v =? 1) || (v =? 3) || (v =? 5))%N. split; [intros [|[|c]] Hc; [| |lia]; (split; [lia|]); intros [|[|g]] Hg; try lia; reflexivity|]. split; [intros; reflexivity|vm_compute; reflexivity].
  - eexists. split; [vm_compute; reflexivity|vm_compute; reflexivity].
Qed.
(** Without customers nothing need be opened, but the constraints demand that exactly one facility is. *)
Theorem C76_no_customers_refuted : forall o, vars_fit o 2 -> let p := mkFacloc 1 0 2 [] [3; 4]%nat in supplies 0 2 (fun _ => false) (fun c => c) /\
  exists t ss, produces (gen_pb_facloc o p) t /\ opb_file (first_var_idx o) ss t /\ forall a, constrs_hold a ss -> opened 0 2 a 0 = negb (opened 0 2 a 1).
Proof. intros o Ho p. split; [intros c Hc; lia|]. exact (no_customers_spec o Ho). Qed.
Print Assumptions C76_no_customers_refuted.
