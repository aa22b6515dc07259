(** * Specification vocabulary for the benchmark generator: the problems and their solutions *)

From Coq Require Import List Bool NArith ZArith Ascii String Arith.
From Verif Require Import Spec Types Base Constraints Text FioSpec Bench Opb OpbSpec ToolSpec.
Import ListNotations.
Open Scope list_scope.

(** A run that ends with a result, given enough fuel *)
Definition produces {X} (run : nat -> option (res X)) (x : X) : Prop := exists k, forall fuel, (k <= fuel)%nat -> run fuel = Some (ROk x).
(** The sum of [f 0 .. f (n - 1)] *)
Definition sum_to (n : nat) (f : nat -> nat) : nat := list_sum (map f (seq 0 n)).

(** ** Knapsack: item [i] is picked if the variable [i] is true *)

Definition picked (a : asg) (ws : list nat) : nat := sum_to (List.length ws) (fun i => if a (N.of_nat i) then nth i ws 0%nat else 0%nat).
Definition value_at (o : nat) (it : item) : nat := nth o (it_values it) 0%nat.
Definition pick_weight (a : asg) (k : knapsack) : nat := picked a (map it_weight (ks_items k)).
Definition pick_value (a : asg) (k : knapsack) (o : nat) : nat := picked a (map (value_at o) (ks_items k)).
Definition all_weight (k : knapsack) : nat := list_sum (map it_weight (ks_items k)).
Definition all_value (k : knapsack) (o : nat) : nat := list_sum (map (value_at o) (ks_items k)).
(** There are items, and each has [m] values, [m] being positive *)
Definition knapsack_ok (m : nat) (k : knapsack) : Prop := ks_items k <> [] /\ (1 <= m)%nat /\ forall it, In it (ks_items k) -> List.length (it_values it) = m.
(** The variables 0 .. [n - 1] exist and can be written *)
Definition vars_fit (o : opb_opts) (n : nat) : Prop := (N.of_nat n <= max_var_idx)%N /\ (N.of_nat n + first_var_idx o <= u32_max)%N.
Definition knapsack_fits (o : opb_opts) (k : knapsack) : Prop :=
  vars_fit o (List.length (ks_items k)) /\ (2 * Z.of_nat (all_weight k) + Z.of_nat (ks_capacity k) <= isize_max)%Z /\ forall j, (Z.of_nat (all_value k j) <= isize_max)%Z.

(** All objectives of a multi-objective file taken together *)
Definition in_one (e : mitem) : witem := (fst e, option_map snd (snd e)).
(** The values and the number of objectives fit in a [usize] *)
Definition values_fit (m : nat) (k : knapsack) : Prop := is_usize (m + 1) /\ forall it v, In it (ks_items k) -> In v (it_values it) -> is_usize v.

(** Clauses encoding a knapsack problem: the hard clauses allow exactly the choices within the capacity (other variables than those of the items are
    auxiliary), and the cost for each objective is the value of what is left behind *)
Definition knapsack_clauses (m : nat) (k : knapsack) (es : list mitem) : Prop :=
  n_objs es = m /\ (forall a, sat_cnf a (hards es) = true -> (pick_weight a k <= ks_capacity k)%nat) /\
  (forall a, (pick_weight a k <= ks_capacity k)%nat -> exists a', (forall i, (i < List.length (ks_items k))%nat -> a' (N.of_nat i) = a (N.of_nat i)) /\ sat_cnf a' (hards es) = true) /\
  (forall a, mcnf_costs m es a = map (fun j => Z.of_nat (all_value k j - pick_value a k j)) (seq 0 m)).

(** ** Assignment: an agent [f t] for every task [t], different ones for different tasks *)

Definition one_to_one (n : nat) (f : nat -> nat) : Prop :=
  (forall t, t < n -> f t < n)%nat /\ forall t t', (t < n)%nat -> (t' < n)%nat -> f t = f t' -> t = t'.
(** The variable [n * t + g] is true iff the task [t] is done by the agent [g] *)
Definition assigns (n : nat) (a : asg) (f : nat -> nat) : Prop := forall t g, (t < n)%nat -> (g < n)%nat -> a (N.of_nat (n * t + g)) = (f t =? g)%nat.
(** The cost of a task done by an agent: the costs are listed by objectives, then tasks, then agents *)
Definition task_cost (p : assignment) (o t g : nat) : nat := nth (o * as_tasks p * as_tasks p + t * as_tasks p + g) (as_costs p) 0%nat.
Definition assignment_cost (p : assignment) (f : nat -> nat) (o : nat) : nat := sum_to (as_tasks p) (fun t => task_cost p o t (f t)).
Definition assignment_ok (p : assignment) : Prop :=
  (1 <= as_tasks p)%nat /\ (1 <= as_objs p)%nat /\ List.length (as_costs p) = (as_objs p * as_tasks p * as_tasks p)%nat.
Definition assignment_fits (o : opb_opts) (p : assignment) : Prop := vars_fit o (as_tasks p * as_tasks p) /\ (Z.of_nat (list_sum (as_costs p)) <= isize_max)%Z.

(** ** Facility location: a facility [f c] for every customer [c]; the facilities used are opened *)

(** With [nf] facilities and [nc] customers, the variable [nf * c + g] is true iff customer [c] uses facility [g] *)
Definition supplies (nc nf : nat) (a : asg) (f : nat -> nat) : Prop :=
  forall c, (c < nc)%nat -> (f c < nf)%nat /\ forall g, (g < nf)%nat -> a (N.of_nat (nf * c + g)) = (f c =? g)%nat.
(** The facility [g] is opened iff the variable [nf * nc + g] is true *)
Definition opened (nc nf : nat) (a : asg) (g : nat) : bool := a (N.of_nat (nf * nc + g)).
(** Costs are listed by objectives, then customers, then facilities *)
Definition supply_cost (p : facloc) (o c g : nat) : nat := nth (o * fl_facilities p * fl_customers p + c * fl_facilities p + g) (fl_supply p) 0%nat.
Definition opening_cost (p : facloc) (o g : nat) : nat := nth (o * fl_facilities p + g) (fl_opening p) 0%nat.
Definition facloc_cost (p : facloc) (a : asg) (f : nat -> nat) (o : nat) : nat :=
  (sum_to (fl_customers p) (fun c => supply_cost p o c (f c)) +
   sum_to (fl_facilities p) (fun g => if opened (fl_customers p) (fl_facilities p) a g then opening_cost p o g else 0))%nat.
Definition facloc_ok (p : facloc) : Prop :=
  (1 <= fl_objs p)%nat /\ (1 <= fl_customers p)%nat /\ (1 <= fl_facilities p)%nat /\
  List.length (fl_supply p) = (fl_objs p * fl_facilities p * fl_customers p)%nat /\ List.length (fl_opening p) = (fl_objs p * fl_facilities p)%nat.
Definition facloc_fits (o : opb_opts) (p : facloc) : Prop :=
  vars_fit o ((fl_customers p + 1) * fl_facilities p) /\ (Z.of_nat (list_sum (fl_supply p) + list_sum (fl_opening p)) <= isize_max)%Z.
