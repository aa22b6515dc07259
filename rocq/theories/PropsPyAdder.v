(** * Properties of the binary adder used from Python: C86 *)

From Coq Require Import List Bool NArith Lia.
From Verif Require Import Spec BoundSpec Types Base Constraints Maps NodeDb Adder PySpec PyEnc PyPb PyAdder PyAdderProofs.
Import ListNotations.

(** C86 (binary adder, upper bounds): for every Python program that makes a binary adder from distinct literals, extends it, takes variables and encodes
    ranges of upper bounds in any order, after [encode_ub] every bound in the range can be enforced, and the assumptions and all clauses returned hold,
    up to the variables of the encoding, for exactly the assignments that meet the bound. Missing: programs that also encode lower bounds, for which it
    is false ([C86_adder_mixed_refuted]). *)
Theorem C86_adder_upper_partial : forall ord, iter_order ord -> forall ins n own F t, b_hist ord false ins n own F t ->
  forall lo hi t' cs n' b, pyadd_encode_ub ord t lo hi n = Some (t', cs, n') -> lo <= b <= hi ->
  exists ls, pyadd_enforce_ub t' b = PyOne ls /\
  (forall a, sat_cnf a (F ++ cs) = true -> sat_cube a ls = true -> wsum a ins <= b) /\
  (forall a, wsum a ins <= b -> exists a', (forall v, ~ in_aux ((n, n') :: own) v -> a' v = a v) /\ sat_cnf a' (F ++ cs) = true /\ sat_cube a' ls = true).
Proof. exact pyadd_upper. Qed.
Print Assumptions C86_adder_upper_partial.

(** In all programs, with upper and lower bounds encoded in any order, also together, lower bounds that are enforced hold; ... *)
Theorem C86_adder_lower_sound : forall ord low, iter_order ord -> forall ins n own F t, b_hist ord low ins n own F t ->
  forall b ls a, pyadd_enforce_lb t b = PyOne ls -> sat_cnf a F = true -> sat_cube a ls = true -> b <= wsum a ins.
Proof. intros ord low Ho. exact (pyadd_lb_sound ord Ho low). Qed.
Print Assumptions C86_adder_lower_sound.

(** ... right after [encode_lb] they keep every assignment that meets them; ... *)
Theorem C86_adder_lower_complete : forall ord, iter_order ord -> forall ins n own F t, b_hist ord true ins n own F t ->
  forall lo hi t' cs n', 1 <= hi /\ lo <= hi /\ lo <= total_weight ins -> pyadd_encode_lb ord t lo hi n = Some (t', cs, n') ->
  forall a, exists a', (forall v, ~ in_aux ((n, n') :: own) v -> a' v = a v) /\ sat_cnf a' (F ++ cs) = true /\
  forall b ls, pyadd_enforce_lb t' b = PyOne ls -> b <= wsum a ins -> sat_cube a' ls = true.
Proof. intros ord Ho ins n own F t H. exact (pyadd_lb_complete ord Ho true ins n own F t H eq_refl). Qed.
Print Assumptions C86_adder_lower_complete.

(** ... the clauses constrain nothing, and upper bounds keep every assignment that meets them; ... *)
Theorem C86_adder_complete : forall ord low, iter_order ord -> forall ins n own F t, b_hist ord low ins n own F t ->
  forall a, exists a', (forall v, ~ in_aux own v -> a' v = a v) /\ sat_cnf a' F = true /\
  forall b ls, pyadd_enforce_ub t b = PyOne ls -> wsum a ins <= b -> sat_cube a' ls = true.
Proof. intros ord low Ho. exact (pyadd_complete ord Ho low). Qed.
Print Assumptions C86_adder_complete.

(** ... nothing panics; ... *)
Theorem C86_adder_errors : forall ord low, iter_order ord -> forall ins n own F t, b_hist ord low ins n own F t ->
  (forall c, b_valid low n own c -> pyadd_call ord t n c <> None) /\ (forall b, pyadd_enforce_ub t b <> PyPanic /\ pyadd_enforce_lb t b <> PyPanic).
Proof. intros ord low Ho. exact (pyadd_errors ord Ho low). Qed.
Print Assumptions C86_adder_errors.

(** ... and the clauses only mention inputs and variables that the encoding took from the manager during its calls. *)
Theorem C86_adder_variables : forall ord low, iter_order ord -> forall ins n own F t, b_hist ord low ins n own F t ->
  forall c l, In c F -> In l c -> (exists x, In x ins /\ lvar (fst x) = lvar l) \/ in_aux own (lvar l).
Proof. intros ord low Ho. exact (pyadd_local ord Ho low). Qed.
Print Assumptions C86_adder_variables.

Lemma v_noin low n own c : b_inputs c = [] -> match c with BEncodeLb _ _ | BEncodeBoth _ _ => low = true | _ => True end -> b_valid low n own c.
Proof. intros E H. split; [rewrite E; intros x []|exact H]. Qed.
Notation idm := (fun m : wmap => m).
(** two weighted literals, a range encoded, variables taken and a literal added; then another range *)
Example C86_adder_upper_ex : exists ins n own F t t' cs n', b_hist idm false ins n own F t /\ length ins = 3 /\ F <> [] /\
  pyadd_encode_ub idm t 3 4 n = Some (t', cs, n') /\ cs <> [] /\ exists ls, ls <> [] /\ pyadd_enforce_ub t' 3 = PyOne ls.
Proof.
  assert (H0 : b_hist idm false [(pos 0, 2); (negl 1, 3)] 2 [] [] (pyadd_new [(pos 0, 2); (negl 1, 3)])).
  { apply bh_new; [repeat constructor; cbn; intuition discriminate|]. intros x [<-|[<-|[]]]; cbn [fst snd lvar pos negl]; split; first [lia|reflexivity]. }
  destruct (pyadd_call idm (pyadd_new [(pos 0, 2); (negl 1, 3)]) 2 (BEncodeUb 2 3)) as [[[t1 c1] n1]|] eqn:E1; [|vm_compute in E1; discriminate E1].
  pose proof (bh_call _ _ _ _ _ _ _ (BEncodeUb 2 3) _ _ _ H0 (v_noin _ _ _ (BEncodeUb 2 3) eq_refl I) E1) as H1. clear H0. vm_compute in E1. injection E1 as <- <- <-.
  pose proof (bh_call _ _ _ _ _ _ _ (BNewVars 2) _ _ _ H1 (v_noin _ _ _ (BNewVars 2) eq_refl I) eq_refl) as H2. clear H1.
  match type of H2 with b_hist _ _ _ ?n _ _ _ => let k := eval vm_compute in (n - 1)%N in
    assert (V : b_valid false n (b_own (BNewVars 2) (n - 2)%N n ++ b_own (BEncodeUb 2 3) 2 (n - 2)%N ++ []) (BExtend [(pos k, 2)])) end.
  { split; [|exact I]. intros x [<-|[]]. split; [cbn; lia|]. split; [vm_compute; reflexivity|]. intros (lo & hi & [X|[]] & L). vm_compute in X. injection X as <- <-. vm_compute in L. destruct L as [_ L]. discriminate L. }
  pose proof (bh_call _ _ _ _ _ _ _ _ _ _ _ H2 V eq_refl) as H3. clear H2 V.
  match type of H3 with b_hist _ _ ?i ?n ?o ?f ?t => exists i, n, o, f, t end.
  eexists _, _, _. split; [exact H3|]. clear H3. split; [reflexivity|]. split; [vm_compute; discriminate|]. split; [vm_compute; reflexivity|]. split; [vm_compute; discriminate|].
  eexists. split; [|vm_compute; reflexivity]. discriminate.
Qed.
(** upper and lower bounds encoded together, then lower bounds *)
Example C86_adder_lower_ex : exists ins n own F t t' cs n', b_hist idm true ins n own F t /\ length ins = 3 /\ F <> [] /\
  pyadd_encode_lb idm t 2 4 n = Some (t', cs, n') /\ (exists ls, ls <> [] /\ pyadd_enforce_lb t' 4 = PyOne ls) /\ b_hist idm true ins n' ((n, n') :: own) (F ++ cs) t'.
Proof.
  assert (H0 : b_hist idm true [(pos 0, 1); (negl 1, 2); (pos 2, 3)] 3 [] [] (pyadd_new [(pos 0, 1); (negl 1, 2); (pos 2, 3)])).
  { apply bh_new; [repeat constructor; cbn; intuition discriminate|]. intros x [<-|[<-|[<-|[]]]]; cbn [fst snd lvar pos negl]; split; first [lia|reflexivity]. }
  destruct (pyadd_call idm (pyadd_new [(pos 0, 1); (negl 1, 2); (pos 2, 3)]) 3 (BEncodeBoth 1 2)) as [[[t1 c1] n1]|] eqn:E1; [|vm_compute in E1; discriminate E1].
  pose proof (bh_call _ _ _ _ _ _ _ (BEncodeBoth 1 2) _ _ _ H0 (v_noin _ _ _ (BEncodeBoth 1 2) eq_refl eq_refl) E1) as H1. clear H0. vm_compute in E1. injection E1 as <- <- <-.
  match type of H1 with b_hist _ _ _ ?n _ _ ?t => destruct (pyadd_call idm t n (BEncodeLb 2 4)) as [[[t2 c2] n2]|] eqn:E2 end; [|vm_compute in E2; discriminate E2].
  pose proof (bh_call _ _ _ _ _ _ _ (BEncodeLb 2 4) _ _ _ H1 (v_noin _ _ _ (BEncodeLb 2 4) eq_refl eq_refl) E2) as H2.
  match type of H1 with b_hist _ _ ?i ?n ?o ?f ?t => exists i, n, o, f, t, t2, c2, n2 end. split; [exact H1|]. clear H1. split; [reflexivity|]. split; [vm_compute; discriminate|]. split; [exact E2|].
  split; [|exact H2]. clear H2. vm_compute in E2. injection E2 as <- <- <-. eexists. split; [|vm_compute; reflexivity]. discriminate.
Qed.
