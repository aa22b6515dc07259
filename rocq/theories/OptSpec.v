(** * Specification vocabulary for objectives *)

From Coq Require Import List Bool NArith ZArith.
From Verif Require Import Spec Types ConstrSpec Inst InstSpec Opt.
Import ListNotations.

(** The sum of the weights of the clauses that are not satisfied *)
Fixpoint cls_cost (a : asg) (cs : list (clause * nat)) : nat :=
  match cs with
  | [] => 0
  | (c, w) :: cs' => (if sat_clause a c then 0 else w) + cls_cost a cs'
  end.
(** The number of clauses that are not satisfied *)
Fixpoint count_unsat (a : asg) (cs : list clause) : nat :=
  match cs with
  | [] => 0
  | c :: cs' => (if sat_clause a c then 0 else 1) + count_unsat a cs'
  end.

(** The soft literals and soft clauses of an objective with their weights *)
Definition obj_lits (o : obj) : list (lit * nat) :=
  match o with OWeighted _ ls _ => ls | OUnweighted _ u ls _ => map (fun l => (l, or_zero u)) ls end.
Definition obj_cls (o : obj) : list (clause * nat) :=
  match o with OWeighted _ _ cs => cs | OUnweighted _ u _ cs => map (fun c => (c, or_zero u)) cs end.
Definition obj_vars (o : obj) : list lit := map fst (obj_lits o) ++ concat (map fst (obj_cls o)).

(** The value of an objective: offset, plus the weights of the true soft literals, plus the weights of the falsified soft clauses *)
Definition obj_value (a : asg) (o : obj) : Z := (obj_offset o + Z.of_nat (wsum a (obj_lits o)) + Z.of_nat (cls_cost a (obj_cls o)))%Z.

(** What holds of every objective built with the API *)
Definition obj_wf (o : obj) : Prop :=
  (forall l w, In (l, w) (obj_lits o) -> (0 < w)%nat) /\ (forall c w, In (c, w) (obj_cls o) -> (0 < w)%nat /\ length c <> 1%nat) /\
  match o with OWeighted _ ls cs => NoDup (map fst ls) /\ NoDup (map fst cs) | OUnweighted _ u _ _ => u <> Some 0%nat end.
(** No soft literal and no soft clause occurs twice *)
Definition obj_distinct (o : obj) : Prop := NoDup (map fst (obj_lits o)) /\ NoDup (map fst (obj_cls o)).
(** No soft clause is empty *)
Definition obj_nonempty (o : obj) : Prop := forall w, ~ In ([], w) (obj_cls o).

(** The total weight with which a soft literal or clause occurs *)
Definition lit_total (l : lit) (o : obj) : nat := list_sum (map snd (filter (fun e => lit_eqb (fst e) l) (obj_lits o))).
Definition clause_total (c : clause) (o : obj) : nat := list_sum (map snd (filter (fun e => clause_eqb (fst e) c) (obj_cls o))).

(** How each call should change the value of the objective under the assignment [a] *)
Definition ocall_change (a : asg) (o : obj) (k : ocall) : Z :=
  let set_lit w l := if lit_true a l then (Z.of_nat w - Z.of_nat (lit_total l o))%Z else 0%Z in
  match k with
  | OAddLit w l => set_lit w l
  | OIncLit w l => if lit_true a l then Z.of_nat w else 0%Z
  | OIncLitInt w l => if lit_true a l then w else 0%Z
  | OAddClause w c =>
      match c with
      | [] => Z.of_nat w
      | [l] => set_lit w (neg l)
      | _ => if sat_clause a c then 0%Z else (Z.of_nat w - Z.of_nat (clause_total c o))%Z
      end
  | OIncClause w c => if sat_clause a c then 0%Z else Z.of_nat w
  | OSetOffset z => (z - obj_offset o)%Z
  | OIncOffset z => z
  end.
(** calls that set the weight of a soft literal or clause *)
Definition sets_weight (k : ocall) : Prop := match k with OAddLit _ _ | OAddClause _ _ => True | _ => False end.

(** Iteration orders of the hash maps *)
Definition orders (lord : list (lit * nat) -> list (lit * nat)) (cord : list (clause * nat) -> list (clause * nat)) : Prop :=
  (forall m, Permutation.Permutation (lord m) m) /\ (forall m, Permutation.Permutation (cord m) m).

(** Renaming the variables of an objective *)
Definition rename_obj (r : N -> N) (o : obj) : obj :=
  match o with
  | OWeighted z ls cs => OWeighted z (map (fun e => (rename_lit r (fst e), snd e)) ls) (map (fun e => (map (rename_lit r) (fst e), snd e)) cs)
  | OUnweighted z u ls cs => OUnweighted z u (map (rename_lit r) ls) (map (map (rename_lit r)) cs)
  end.

(** Two objectives have the same value under every assignment *)
Definition same_value (o o' : obj) : Prop := forall a, obj_value a o' = obj_value a o.

(** A clause all of whose literals are the same literal *)
Definition single (c : clause) : option lit := match c with l :: c' => if forallb (fun x => lit_eqb x l) c' then Some l else None | [] => None end.
(** The soft literals of an objective, including those that are written as soft clauses *)
Definition all_soft_lits (o : obj) : list lit := map fst (obj_lits o) ++ map neg (filter_map single (map fst (obj_cls o))).
(** An unweighted objective whose normalization is as documented: it has a soft literal (or no soft constraint was ever added), and either there are
    no complementary soft literals, or no soft literal occurs twice and the one with the largest variable has its complement. *)
Definition norm_fine (o : obj) : Prop :=
  match o with
  | OWeighted _ _ _ => True
  | OUnweighted _ u _ _ =>
      u = None \/ (all_soft_lits o <> [] /\
        (~ complementary (all_soft_lits o) \/
         (NoDup (all_soft_lits o) /\ exists l, In l (all_soft_lits o) /\ In (neg l) (all_soft_lits o) /\ forall x, In x (all_soft_lits o) -> (lvar x <= lvar l)%N)))
  end.

(** [cost'], on models of [f] with auxiliary variables in [lo, hi), relaxes [cost]: every assignment extends to one with the same cost, and
    no model of [f] costs less. *)
Definition relaxed (lo hi : N) (f : cnf) (cost' cost : asg -> Z) : Prop :=
  (forall a, exists a', changes_only lo hi a a' /\ sat_cnf a' f = true /\ cost' a' = cost a) /\
  (forall a, sat_cnf a f = true -> (cost a <= cost' a)%Z).

(** ** Conversion of optimization instances with one or more objectives *)

(** The variables of the constraints and the objectives *)
Definition opt_var (i : inst) (os : list obj) (v : N) : Prop := inst_vars i v \/ exists o, In o os /\ In v (map lvar (obj_vars o)).
Definition cls_value (a : asg) (s : list (clause * nat) * Z) : Z := (snd s + Z.of_nat (cls_cost a (fst s)))%Z.
Definition lits_value (a : asg) (s : list (lit * nat) * Z) : Z := (snd s + Z.of_nat (wsum a (fst s)))%Z.
(** Hard clauses [f] and soft clauses [ss] (with an offset) for each objective: models of [f] satisfy the constraints and have the same costs,
    and every assignment that satisfies the constraints extends to a model. *)
Definition soft_cls_form (i : inst) (os : list obj) (f : cnf) (ss : list (list (clause * nat) * Z)) : Prop :=
  (forall a, sat_cnf a f = true -> inst_holds a i /\ Forall2 (fun o s => cls_value a s = obj_value a o) os ss) /\
  (forall a, inst_holds a i -> exists a', (forall v, opt_var i os v -> a' v = a v) /\ sat_cnf a' f = true /\ Forall2 (fun o s => cls_value a' s = obj_value a o) os ss).
(** The same with soft literals; a model of [f] may set relaxation literals needlessly and cost more. *)
Definition soft_lits_form (i : inst) (os : list obj) (f : cnf) (ss : list (list (lit * nat) * Z)) : Prop :=
  (forall a, sat_cnf a f = true -> inst_holds a i /\ Forall2 (fun o s => obj_value a o <= lits_value a s)%Z os ss) /\
  (forall a, inst_holds a i -> exists a', (forall v, opt_var i os v -> a' v = a v) /\ sat_cnf a' f = true /\ Forall2 (fun o s => lits_value a' s = obj_value a o) os ss).
(** The objective's variables are known to the instance's variable manager *)
Definition objs_known (i : inst) (os : list obj) : Prop := forall o, In o os -> lits_below (i_next i) (obj_vars o).
Definition only_clauses (i : inst) : Prop := i_cards i = [] /\ i_pbs i = [].

(** An objective is another one with its variables renamed by [r], up to the order of soft literals and soft clauses *)
Definition obj_renamed (r : N -> N) (o o' : obj) : Prop :=
  obj_offset o' = obj_offset o /\ Permutation.Permutation (obj_lits o') (obj_lits (rename_obj r o)) /\ Permutation.Permutation (obj_cls o') (obj_cls (rename_obj r o)).
