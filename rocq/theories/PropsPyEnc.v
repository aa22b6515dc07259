(** * Properties of the literals and the totalizer of the Python bindings: C86 *)

From Coq Require Import List Bool NArith ZArith Lia.
From Verif Require Import Spec BoundSpec Types Constraints Maps NodeDb TotDb Totalizer Gte SimProofs ConstrEncProofs PySpec PyEnc PyEncProofs.
Import ListNotations.

(** C86 (literals), for all 32-bit integers: [Lit(x)] raises a [ValueError] exactly for [x = 0]. Otherwise [to_ipasir] gives [x]
    back and negating the literal gives [Lit(-x)], except for the least integer (below). *)
Theorem C86_literal_partial : forall x, (i32_min <= x <= i32_max)%Z ->
  (pylit_new x = PyValueError <-> x = 0%Z) /\
  (x <> 0%Z -> exists l, pylit_new x = PyOne l /\ ((i32_min < x)%Z -> pylit_to_ipasir l = PyOne x /\ pylit_new (- x) = PyOne (pylit_neg l))).
Proof.
  intros x H. destruct (pylit_new_iff x H) as [[-> E]|[N E]]; rewrite E; (split; [split; [|]|]); try congruence; intros _.
  - exists (mkLit (Z.abs_N x - 1) (x <? 0)%Z). split; [reflexivity|]. intros L. apply pylit_round; [lia|exact E].
Qed.
Print Assumptions C86_literal_partial.
Example C86_literal_ex : pylit_new (-7) = PyOne (negl 6) /\ pylit_to_ipasir (negl 6) = PyOne (-7)%Z /\ pylit_neg (negl 6) = pos 6.
Proof. repeat split; vm_compute; reflexivity. Qed.

(** C86 (literals, finding): [Lit(-2147483648)] is accepted, but its [to_ipasir] panics, with an exception that is not an
    [Exception], and its negation is not the literal of any integer. *)
Theorem C86_least_literal_refuted : exists l, pylit_new i32_min = PyOne l /\ pylit_to_ipasir l = PyPanic /\
  forall x, (i32_min <= x <= i32_max)%Z -> pylit_new x <> PyOne (pylit_neg l).
Proof.
  eexists. split; [vm_compute; reflexivity|]. split; [vm_compute; reflexivity|]. intros x H E.
  destruct (pylit_new_iff x H) as [[_ E']|[_ E']]; rewrite E' in E; [discriminate|]. unfold pylit_neg, neg in E. cbn [lvar lneg negb] in E. injection E as E1 E2.
  unfold i32_min, i32_max in H. lia.
Qed.
Print Assumptions C86_least_literal_refuted.

(** C86 (comparisons): literals are equal exactly if their integers are, and ordered by absolute value, the positive one first *)
Theorem C86_literal_order : forall x y l m, (i32_min <= x <= i32_max)%Z -> (i32_min <= y <= i32_max)%Z -> pylit_new x = PyOne l -> pylit_new y = PyOne m ->
  (pylit_eq l m = true <-> x = y) /\ (pylit_lt l m = true <-> (Z.abs x < Z.abs y \/ x = - y /\ y < 0)%Z).
Proof. exact pylit_compare. Qed.
Print Assumptions C86_literal_order.
Example C86_literal_order_ex : exists l m k, pylit_new 3 = PyOne l /\ pylit_new (-3) = PyOne m /\ pylit_new 4 = PyOne k /\
  pylit_lt l m = true /\ pylit_lt m k = true /\ pylit_lt m l = false /\ pylit_eq l m = false.
Proof. eexists _, _, _. repeat split; vm_compute; reflexivity. Qed.

(** a program: three literals given to the constructor, both bounds encoded, two more literals, both bounds encoded again *)
Definition py_prog : list pycall :=
  [PyEncodeBoth 1 2; PyNewVars 2; PyExtend [negl 3; pos 9]; PyEncodeUb 2 1; PyEncodeBoth 2 3].
Fixpoint py_run (ins : list lit) (n : N) (own : list (N * N)) (F : cnf) (t : tot) (cs : list pycall) : option (list lit * N * list (N * N) * cnf * tot) :=
  match cs with
  | [] => Some (ins, n, own, F, t)
  | c :: cs => match pytot_call t n c with Some (t', F', n') => py_run (ins ++ py_inputs c) n' (py_own c n n' ++ own) (F ++ F') t' cs | None => None end
  end.
Fixpoint py_validb (n : N) (own : list (N * N)) (t : tot) (cs : list pycall) : bool :=
  match cs with
  | [] => true
  | c :: cs => forallb (fun x => (lvar x <? n)%N && negb (existsb (fun i => (fst i <=? lvar x)%N && (lvar x <? snd i)%N) own)) (py_inputs c) &&
      match pytot_call t n c with Some (t', _, n') => py_validb n' (py_own c n n' ++ own) t' cs | None => false end
  end.
Lemma py_run_hist cs : forall ins n own F t r, py_hist ins n own F t -> py_validb n own t cs = true -> py_run ins n own F t cs = Some r ->
  let '(ins', n', own', F', t') := r in py_hist ins' n' own' F' t'.
Proof.
  induction cs as [|c cs IH]; intros ins n own F t r H V E; cbn [py_run py_validb] in *; [injection E as <-; exact H|].
  destruct (pytot_call t n c) as [[[t' F'] n']|] eqn:C; [|discriminate E]. apply andb_true_iff in V as [V1 V2].
  apply (IH _ _ _ _ _ _ (ph_call _ _ _ _ _ c t' F' n' H ltac:(
    intros x Hx; apply (proj1 (forallb_forall _ _) V1) in Hx; apply andb_true_iff in Hx as [A B]; split; [apply N.ltb_lt; exact A|];
    intros (lo & hi & I & L); apply negb_true_iff in B; assert (T : existsb (fun i => (fst i <=? lvar x)%N && (lvar x <? snd i)%N) own = true) by
      (apply existsb_exists; exists (lo, hi); split; [exact I|cbn [fst snd]; apply andb_true_iff; split; [apply N.leb_le|apply N.ltb_lt]; apply L]); congruence) C) V2 E).
Qed.
Example C86_totalizer_ex : exists ins n own F t, py_hist ins n own F t /\
  length ins = 5 /\ own <> [] /\ 20 <= length F /\
  (exists ls, ls <> [] /\ pytot_enforce_ub t 2 = PyOne ls) /\ (exists ls, ls <> [] /\ pytot_enforce_lb t 3 = PyOne ls) /\
  (exists ls, 2 <= length ls /\ pytot_enforce_eq t 3 = PyOne ls) /\ pytot_enforce_lb t 6 = PyValueError /\ pytot_enforce_ub t 0 = PyRuntimeError.
Proof.
  destruct (py_run [pos 0; negl 1; pos 2] 4 [] [] (pytot_new [pos 0; negl 1; pos 2]) py_prog) as [r|] eqn:E; [|vm_compute in E; discriminate E].
  assert (H : let '(ins', n', own', F', t') := r in py_hist ins' n' own' F' t').
  { refine (py_run_hist _ _ _ _ _ _ r _ _ E); [constructor; intros x [<-|[<-|[<-|[]]]]; reflexivity|vm_compute; reflexivity]. }
  vm_compute in E. injection E as <-. eexists _, _, _, _, _. split; [exact H|]. clear H.
  split; [reflexivity|]. split; [discriminate|]. split; [cbn [length]; lia|].
  split; [eexists; split; [|vm_compute; reflexivity]; discriminate|]. split; [eexists; split; [|vm_compute; reflexivity]; discriminate|].
  split; [eexists; split; [|vm_compute; reflexivity]; cbn [length]; lia|]. split; vm_compute; reflexivity.
Qed.

(** C86 (totalizer): for every Python program that makes a totalizer, gives it literals, takes variables and encodes ranges in
    any order, also empty ones, as often as it wants, the assumptions of [enforce_ub], [enforce_lb] and [enforce_eq] together with
    all clauses of the returned formulas force the bound on the number of true inputs. *)
Theorem C86_totalizer_sound : forall ins n own F t, py_hist ins n own F t -> forall b ls a, sat_cnf a F = true -> sat_cube a ls = true ->
  (pytot_enforce_ub t b = PyOne ls -> count_true a ins <= b) /\
  (pytot_enforce_lb t b = PyOne ls -> b <= count_true a ins) /\
  (pytot_enforce_eq t b = PyOne ls -> count_true a ins = b).
Proof. exact pytot_sound. Qed.
Print Assumptions C86_totalizer_sound.

(** ... and exclude nothing else: every assignment can be changed on variables of the totalizer so that it satisfies all clauses
    and the assumptions of every bound that it meets *)
Theorem C86_totalizer_complete : forall ins n own F t, py_hist ins n own F t -> forall a, exists a',
  (forall v, ~ in_aux own v -> a' v = a v) /\ sat_cnf a' F = true /\
  forall b ls,
    (pytot_enforce_ub t b = PyOne ls -> count_true a ins <= b -> sat_cube a' ls = true) /\
    (pytot_enforce_lb t b = PyOne ls -> b <= count_true a ins -> sat_cube a' ls = true) /\
    (pytot_enforce_eq t b = PyOne ls -> count_true a ins = b -> sat_cube a' ls = true).
Proof. exact pytot_complete. Qed.
Print Assumptions C86_totalizer_complete.

(** C86 (exceptions): no call panics. [enforce_ub] raises at most a [RuntimeError], the others also a [ValueError], and this only
    for bounds above the number of inputs. *)
Theorem C86_totalizer_errors : forall ins n own F t, py_hist ins n own F t ->
  (forall c, py_valid n own c -> pytot_call t n c <> None) /\
  forall b, (pytot_enforce_ub t b = PyRuntimeError \/ exists ls, pytot_enforce_ub t b = PyOne ls) /\
            (pytot_enforce_lb t b = PyRuntimeError \/ (pytot_enforce_lb t b = PyValueError /\ length ins < b) \/ exists ls, pytot_enforce_lb t b = PyOne ls) /\
            (pytot_enforce_eq t b = PyRuntimeError \/ (pytot_enforce_eq t b = PyValueError /\ length ins < b) \/ exists ls, pytot_enforce_eq t b = PyOne ls).
Proof. exact pytot_errors. Qed.
Print Assumptions C86_totalizer_errors.

(** C86 (encoding): after a range was encoded, each bound in it can be enforced, lower bounds and equalities up to the number of
    inputs *)
Theorem C86_totalizer_encode : forall ins n own F t, py_hist ins n own F t -> forall c t' cs n' b, pytot_call t n c = Some (t', cs, n') ->
  match c with
  | PyEncodeUb lo hi => lo <= b <= hi -> exists ls, pytot_enforce_ub t' b = PyOne ls
  | PyEncodeLb lo hi => lo <= b <= hi -> b <= length ins -> exists ls, pytot_enforce_lb t' b = PyOne ls
  | PyEncodeBoth lo hi => lo <= b <= hi -> (exists ls, pytot_enforce_ub t' b = PyOne ls) /\ (b <= length ins -> (exists ls, pytot_enforce_lb t' b = PyOne ls) /\ exists ls, pytot_enforce_eq t' b = PyOne ls)
  | _ => True
  end.
Proof. exact pytot_encode. Qed.
Print Assumptions C86_totalizer_encode.

(** C86 (variables): the clauses only mention the inputs and variables that the totalizer took from the manager during its calls *)
Theorem C86_totalizer_variables : forall ins n own F t, py_hist ins n own F t ->
  forall c l, In c F -> In l c -> (exists x, In x ins /\ lvar x = lvar l) \/ in_aux own (lvar l).
Proof. exact pytot_local. Qed.
Print Assumptions C86_totalizer_variables.

(** C86 (constructor of the generalized totalizer): if no literal is repeated, passing a list of weighted literals to the constructor
    is the same as passing it to [extend]. *)
Theorem C86_gte_constructor_partial : forall xs, NoDup (map fst xs) -> pygte_new xs = pygte_extend (pygte_new []) xs.
Proof.
  intros xs H. unfold pygte_new, pygte_extend, gte_extend, gte_from_iter, gte_from_map. cbn [gt_buf gt_root gt_maxw gt_vars gt_cls gt_db].
  rewrite (map_collect_nodup xs H). unfold map_collect at 1. cbn [fold_left]. rewrite (map_adds_nodup xs [] H). reflexivity.
Qed.
Print Assumptions C86_gte_constructor_partial.
Example C86_gte_constructor_ex : NoDup (map fst [(pos 0, 2); (negl 0, 3); (pos 1, 1)]) /\ pygte_weight_sum (pygte_new [(pos 0, 2); (negl 0, 3); (pos 1, 1)]) = Some 6.
Proof. split; [repeat constructor; cbn; intuition discriminate|vm_compute; reflexivity]. Qed.

(** C86 (constructor, finding): with a repeated literal it is not. [GeneralizedTotalizer([(x, 2), (x, 3)])] only keeps the last weight, where
    [extend] adds them, so that the bound 3 counts as trivial although the sum of a true [x] is 5. *)
Theorem C86_gte_constructor_refuted : forall ord x, iter_order ord ->
  pygte_weight_sum (pygte_new [(x, 2); (x, 3)]) = Some 3 /\ pygte_weight_sum (pygte_extend (pygte_new []) [(x, 2); (x, 3)]) = Some 5 /\
  pygte_enforce_ub ord (pygte_new [(x, 2); (x, 3)]) 3 = PyOne [] /\ (forall a, lit_true a x = true -> wsum a [(x, 2); (x, 3)] = 5) /\
  pygte_enforce_ub ord (pygte_extend (pygte_new []) [(x, 2); (x, 3)]) 3 <> PyOne [].
Proof.
  intros ord x H. assert (R : lit_eqb x x = true) by (unfold lit_eqb; rewrite N.eqb_refl; destruct (lneg x); reflexivity).
  assert (E1 : pygte_new [(x, 2); (x, 3)] = mkGte [(x, 3)] None 0 0%N 0 db_empty) by (unfold pygte_new, gte_from_iter, map_collect; cbn [fold_left map_insert]; rewrite R; reflexivity).
  assert (E2 : pygte_extend (pygte_new []) [(x, 2); (x, 3)] = mkGte [(x, 5)] None 0 0%N 0 db_empty).
  { unfold pygte_extend, gte_extend, map_adds, pygte_new. cbn [fold_left gt_buf gte_from_iter gte_from_map map_collect map_add]. rewrite R. reflexivity. }
  rewrite E1, E2. split; [reflexivity|]. split; [reflexivity|]. split; [reflexivity|]. split; [intros a L; cbn [wsum]; rewrite L; reflexivity|].
  unfold pygte_enforce_ub, gte_enforce_ub. cbn. pose proof (H [(x, 5)]) as P. apply Permutation.Permutation_sym, Permutation.Permutation_length_1_inv in P. rewrite P. cbn. discriminate.
Qed.
Print Assumptions C86_gte_constructor_refuted.
