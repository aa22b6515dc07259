(** * Properties of the weighted encodings used from Python: C86 *)

From Coq Require Import List Bool Arith NArith Lia.
From Verif Require Import Spec BoundSpec Types Base Constraints Maps NodeDb TotDb Totalizer Gte Adder PySpec PyEnc PyPb PyPbProofs.
Import ListNotations.

(** C86 (generalized totalizer): for every Python program that makes a generalized totalizer from distinct literals, adds weighted literals,
    takes variables and encodes ranges of upper bounds, also empty ones, in any order, the assumptions of [enforce_ub] and all
    clauses returned force the bound on the sum of the weights of true inputs. Missing: constructors with repeated literals, for
    which it is false (C86_gte_constructor_refuted), and weights of 0. *)
Theorem C86_gte_sound_partial : forall ord, iter_order ord -> forall ins n own F g, g_hist ord ins n own F g -> forall b ls a,
  pygte_enforce_ub ord g b = PyOne ls -> sat_cnf a F = true -> sat_cube a ls = true -> wsum a ins <= b.
Proof. exact pygte_sound. Qed.
Print Assumptions C86_gte_sound_partial.

(** ... and exclude nothing else *)
Theorem C86_gte_complete_partial : forall ord, iter_order ord -> forall ins n own F g, g_hist ord ins n own F g -> forall a, exists a',
  (forall v, ~ in_aux own v -> a' v = a v) /\ sat_cnf a' F = true /\
  forall b ls, pygte_enforce_ub ord g b = PyOne ls -> wsum a ins <= b -> sat_cube a' ls = true.
Proof. exact pygte_complete. Qed.
Print Assumptions C86_gte_complete_partial.

(** No call panics. The only exception is a [RuntimeError], for a bound below the sum of all weights that was not encoded. *)
Theorem C86_gte_errors_partial : forall ord, iter_order ord -> forall ins n own F g, g_hist ord ins n own F g ->
  (forall c, g_valid n own c -> pygte_call ord g n c <> None) /\
  forall b, pygte_enforce_ub ord g b = PyRuntimeError /\ b < total_weight ins \/ exists ls, pygte_enforce_ub ord g b = PyOne ls.
Proof. exact pygte_errors. Qed.
Print Assumptions C86_gte_errors_partial.

(** After a range was encoded, each bound in it can be enforced. *)
Theorem C86_gte_encode_partial : forall ord, iter_order ord -> forall ins n own F g, g_hist ord ins n own F g ->
  forall lo hi g' cs n' b, pygte_encode_ub ord g lo hi n = Some (g', cs, n') -> lo <= b <= hi -> exists ls, pygte_enforce_ub ord g' b = PyOne ls.
Proof. exact pygte_encode. Qed.
Print Assumptions C86_gte_encode_partial.

(** The clauses only mention inputs and variables that the encoding took from the manager during its calls. *)
Theorem C86_gte_variables_partial : forall ord, iter_order ord -> forall ins n own F g, g_hist ord ins n own F g ->
  forall c l, In c F -> In l c -> (exists x, In x ins /\ lvar (fst x) = lvar l) \/ in_aux own (lvar l).
Proof. exact pygte_local. Qed.
Print Assumptions C86_gte_variables_partial.

(** a program: two weighted literals, the bounds 2 to 4 encoded, two more, one of them again, the bounds 3 to 6 encoded *)
Fixpoint g_run (ins : list (lit * nat)) (n : N) (own : list (N * N)) (F : cnf) (g : gte) (cs : list gcall) : option (list (lit * nat) * N * list (N * N) * cnf * gte) :=
  match cs with
  | [] => Some (ins, n, own, F, g)
  | c :: cs => match pygte_call (fun m => m) g n c with Some (g', F', n') => g_run (ins ++ g_inputs c) n' (g_own c n n' ++ own) (F ++ F') g' cs | None => None end
  end.
Fixpoint g_validb (n : N) (own : list (N * N)) (g : gte) (cs : list gcall) : bool :=
  match cs with
  | [] => true
  | c :: cs => forallb (fun x => (1 <=? snd x)%nat && ((lvar (fst x) <? n)%N && negb (existsb (fun i => (fst i <=? lvar (fst x))%N && (lvar (fst x) <? snd i)%N) own))) (g_inputs c) &&
      match pygte_call (fun m => m) g n c with Some (g', _, n') => g_validb n' (g_own c n n' ++ own) g' cs | None => false end
  end.
Lemma g_run_hist cs : forall ins n own F g r, g_hist (fun m => m) ins n own F g -> g_validb n own g cs = true -> g_run ins n own F g cs = Some r ->
  let '(ins', n', own', F', g') := r in g_hist (fun m => m) ins' n' own' F' g'.
Proof.
  induction cs as [|c cs IH]; intros ins n own F g r H V E; cbn [g_run g_validb] in *; [injection E as <-; exact H|].
  destruct (pygte_call (fun m => m) g n c) as [[[g' F'] n']|] eqn:C; [|discriminate E]. apply andb_true_iff in V as [V1 V2].
  apply (IH _ _ _ _ _ _ (gh_call _ _ _ _ _ _ c g' F' n' H ltac:(
    intros x Hx; apply (proj1 (forallb_forall _ _) V1) in Hx; apply andb_true_iff in Hx as [A0 Hx]; apply andb_true_iff in Hx as [A B]; split; [apply PeanoNat.Nat.leb_le; exact A0|]; split; [apply N.ltb_lt; exact A|];
    intros (lo & hi & I & L); apply negb_true_iff in B; assert (T : existsb (fun i => (fst i <=? lvar (fst x))%N && (lvar (fst x) <? snd i)%N) own = true) by
      (apply existsb_exists; exists (lo, hi); split; [exact I|cbn [fst snd]; apply andb_true_iff; split; [apply N.leb_le|apply N.ltb_lt]; apply L]); congruence) C) V2 E).
Qed.
Example C86_gte_ex : exists ins n own F g, g_hist (fun m => m) ins n own F g /\ length ins = 5 /\ own <> [] /\ 10 <= length F /\
  (exists ls, ls <> [] /\ pygte_enforce_ub (fun m => m) g 4 = PyOne ls) /\ pygte_enforce_ub (fun m => m) g 1 = PyRuntimeError.
Proof.
  destruct (g_run [(pos 0, 2); (negl 1, 3)] 3 [] [] (pygte_new [(pos 0, 2); (negl 1, 3)]) [GEncodeUb 2 4; GNewVars 3; GExtend [(pos 2, 3)]; GExtend [(pos 5, 4); (pos 0, 1)]; GEncodeUb 3 6]) as [r|] eqn:E; [|vm_compute in E; discriminate E].
  assert (H : let '(ins', n', own', F', g') := r in g_hist (fun m => m) ins' n' own' F' g').
  { refine (g_run_hist _ _ _ _ _ _ r _ _ E); [|vm_compute; reflexivity]. apply gh_new; [repeat constructor; cbn; intuition discriminate|].
    intros x [<-|[<-|[]]]; cbn [fst snd lvar pos negl]; split; first [lia|reflexivity]. }
  vm_compute in E. injection E as <-. eexists _, _, _, _, _. split; [exact H|]. clear H.
  split; [reflexivity|]. split; [discriminate|]. split; [cbn [length]; lia|].
  split; [eexists; split; [|vm_compute; reflexivity]; discriminate|vm_compute; reflexivity].
Qed.

(** C86 (binary adder, finding): after [encode_both(4, 5)] on the weights 1, 2 and 3, [enforce_eq(5)] raises "not encoded to enforce bound",
    although 5 is in the range. *)
Theorem C86_adder_encode_both_refuted : exists ord t F n, iter_order ord /\
  pyadd_encode_both ord (pyadd_new [(pos 0, 1); (pos 1, 2); (pos 2, 3)]) 4 5 3 = Some (t, F, n) /\ pyadd_enforce_eq t 5 = PyRuntimeError /\ pyadd_enforce_lb t 5 = PyRuntimeError.
Proof. eexists (fun m => m), _, _, _. split; [intros m; reflexivity|]. split; [vm_compute; reflexivity|]. split; vm_compute; reflexivity. Qed.
Print Assumptions C86_adder_encode_both_refuted.

(** C86 (binary adder, finding): after [encode_lb(2, 2)] and then [encode_ub(1, 1)] on two literals of weight 1, the assumptions of [enforce_ub(1)]
    and all clauses returned allow both literals to be true. *)
Theorem C86_adder_mixed_refuted : exists ord t1 F1 n1 t2 F2 n2 ls a, iter_order ord /\
  pyadd_encode_lb ord (pyadd_new [(pos 0, 1); (pos 1, 1)]) 2 2 2 = Some (t1, F1, n1) /\ pyadd_encode_ub ord t1 1 1 n1 = Some (t2, F2, n2) /\
  pyadd_enforce_ub t2 1 = PyOne ls /\ sat_cnf a (F1 ++ F2) = true /\ sat_cube a ls = true /\ wsum a [(pos 0, 1); (pos 1, 1)] = 2.
Proof.
  eexists (fun m => m), _, _, _, _, _, _, _, (fun v => (v <? 2)%N). split; [intros m; reflexivity|]. split; [vm_compute; reflexivity|]. split; [vm_compute; reflexivity|].
  split; [vm_compute; reflexivity|]. split; [vm_compute; reflexivity|]. split; vm_compute; reflexivity.
Qed.
Print Assumptions C86_adder_mixed_refuted.
