(** * Property theorems about enumerating solutions (C68) *)

From Coq Require Import List Bool NArith ZArith Ascii String Lia.
From Coq Require Import ZifyBool ZifyNat ZifyN.
From Verif Require Import Spec Types Base ConstrSpec Constraints Inst InstSpec Opt OptSpec Text FioSpec DimacsSpec Dimacs Opb OpbSpec Vline VlineSpec SolverSpec SolverToy
  EncSpec Maps Tools ToolSpec ToolText CheckSpec CheckProofs EnumSpec EnumProofs PropsTools PropsCheck.
Import ListNotations.
Open Scope list_scope.

(** ** C68 Enumerating the solutions *)

(** With a correct solver the solutions listed are solutions, none is listed twice, and if the tool says that it is done then none is missing.
    At most as many are listed as were asked for, and the tool only stops early after that many. *)
Theorem C68_enumerates : forall S W (V : solver S W) reps ord ord1 ord2 ord3 ord4 o fmt t P cost used, correct V reps ->
  iter_order ord -> iter_order ord1 -> iter_order ord2 -> iter_order ord3 -> iter_order ord4 ->
  problem_file (first_var_idx o) fmt t P cost used -> plain_file (first_var_idx o) fmt t ->
  exists n, (1 <= n <= max_var_idx + 1)%N /\ forall values until fuel w sols ts e,
    enumerator ord ord1 ord2 ord3 ord4 V values fmt o t until fuel w = ROk (sols, ts, e) ->
    enumeration P n sols e /\ (List.length sols <= enum_limit until fuel)%nat /\ (e = EStopped -> List.length sols = enum_limit until fuel).
Proof.
  intros S W V reps ord ord1 ord2 ord3 ord4 o fmt t P cost used Hc O O1 O2 O3 O4 Hp Hl. destruct (enumerator_spec V reps Hc ord ord1 ord2 ord3 ord4 O O1 O2 O3 O4 o fmt t P cost used Hp Hl) as (n & Hn & H).
  exists n. split; [exact Hn|]. intros values until fuel w sols ts e E. destruct (H values until fuel w) as [H1 _]. destruct (H1 sols ts e E) as (A & _ & B & C). auto.
Qed.
Print Assumptions C68_enumerates.
(** If the solver always answers then so does the tool: with a bound [m > 0] on the number of solutions it ends after [m] solutions or earlier
    with all of them, and without a bound it ends with all solutions. *)
Theorem C68_ends : forall S W (V : solver S W) reps ord ord1 ord2 ord3 ord4 o fmt t P cost used, correct V reps -> reliable V reps ->
  iter_order ord -> iter_order ord1 -> iter_order ord2 -> iter_order ord3 -> iter_order ord4 ->
  problem_file (first_var_idx o) fmt t P cost used -> plain_file (first_var_idx o) fmt t ->
  (forall values m fuel w, (0 < m)%nat -> exists sols ts e, enumerator ord ord1 ord2 ord3 ord4 V values fmt o t (Some m) fuel w = ROk (sols, ts, e) /\
     (List.length sols <= m)%nat /\ (List.length sols = m \/ forall a, P a -> exists s, In s sols /\ completes a (pasg_of s))) /\
  (exists enough, forall values fuel w, (enough <= fuel)%nat -> exists sols ts, enumerator ord ord1 ord2 ord3 ord4 V values fmt o t None fuel w = ROk (sols, ts, EDone) /\
     forall a, P a <-> exists s, In s sols /\ completes a (pasg_of s)).
Proof.
  intros S W V reps ord ord1 ord2 ord3 ord4 o fmt t P cost used Hc Hr O O1 O2 O3 O4 Hp Hl. destruct (enumerator_spec V reps Hc ord ord1 ord2 ord3 ord4 O O1 O2 O3 O4 o fmt t P cost used Hp Hl) as (n & Hn & H). split.
  - intros values m fuel w Hm. destruct (H values (Some m) fuel w) as [H1 H2]. destruct (H2 Hr) as (sols & ts & e & E & Hne). exists sols, ts, e. split; [exact E|]. destruct (H1 sols ts e E) as (A & _ & B & C).
    cbn [enum_limit] in *. rewrite Nat.max_r in * by lia. split; [exact B|]. destruct e; [right; now apply (en_all _ _ _ _ A)|easy|left; now apply C].
  - exists (Datatypes.S (2 ^ N.to_nat n))%nat. intros values fuel w Hf. destruct (H values None fuel w) as [H1 H2]. destruct (H2 Hr) as (sols & ts & e & E & Hne). destruct (H1 sols ts e E) as (A & _ & B & C). cbn [enum_limit] in *.
    assert (He : e = EDone) by (destruct e; [reflexivity|easy|]; specialize (C eq_refl); pose proof (en_bound _ _ _ _ A); exfalso; unfold lt in *; apply (Nat.nle_succ_diag_l (2 ^ N.to_nat n)%nat); etransitivity; [exact Hf|]; now rewrite <- C).
    subst e. exists sols, ts. split; [exact E|]. intros a. split; [now apply (en_all _ _ _ _ A)|]. intros (s & Hs & Hco). exact (en_right _ _ _ _ A s a Hs Hco).
Qed.
Print Assumptions C68_ends.
(** For each solution the tool prints its values and lower bounds of the costs. For a solution with values for all variables these are the costs,
    and [check-solution] accepts the lines printed, with the same costs (with at least two variables). *)
Theorem C68_printed : forall S W (V : solver S W) reps ord ord1 ord2 ord3 ord4 o fmt t P cost used, correct V reps ->
  iter_order ord -> iter_order ord1 -> iter_order ord2 -> iter_order ord3 -> iter_order ord4 ->
  problem_file (first_var_idx o) fmt t P cost used -> plain_file (first_var_idx o) fmt t ->
  exists n, (1 <= n <= max_var_idx + 1)%N /\ forall values until fuel w sols ts e,
    enumerator ord ord1 ord2 ord3 ord4 V values fmt o t until fuel w = ROk (sols, ts, e) ->
    Forall2 (fun s x => exists vs, x = shown values s vs /\ (forall a, completes a (pasg_of s) -> Forall2 Z.le vs (cost a)) /\
      (total_below n s -> (forall a, completes a (pasg_of s) -> vs = cost a) /\ ((2 <= n)%N -> check_solution fmt o t x = ROk (Accepted vs)))) sols ts.
Proof.
  intros S W V reps ord ord1 ord2 ord3 ord4 o fmt t P cost used Hc O O1 O2 O3 O4 Hp Hl. destruct (enumerator_spec V reps Hc ord ord1 ord2 ord3 ord4 O O1 O2 O3 O4 o fmt t P cost used Hp Hl) as (n & Hn & H).
  exists n. split; [exact Hn|]. intros values until fuel w sols ts e E. destruct (H values until fuel w) as [H1 _]. now destruct (H1 sols ts e E) as (_ & A & _).
Qed.
Print Assumptions C68_printed.

(** The files of the examples, with a solver that tries all assignments *)
Lemma same_order : iter_order same.
Proof. intros m. apply Permutation.Permutation_refl. Qed.
Lemma ex_checked_plain : plain_file 1 FOpb (put_file 1 ex_checked).
Proof.
  intros _. exists ex_checked. split; [apply put_file_ok; fit|]. split; [intros ts b H; cbn in H; decompose [or] H; try discriminate; contradiction|]. split.
  - apply Forall_cons; [|apply Forall_cons; [vm_compute; reflexivity|apply Forall_cons; [vm_compute; reflexivity|apply Forall_nil]]]. split; [vm_compute; discriminate|]. intros _ e [<-|[<-|[<-|[]]]]; cbn; lia.
  - repeat apply Forall_cons; try apply Forall_nil.
    + split; [vm_compute; discriminate|]. intros e [<-|[<-|[<-|[]]]]; discriminate.
    + split; [repeat (apply NoDup_cons; [cbn; intuition discriminate|]); apply NoDup_nil|]. split; [|discriminate]. intros e [<-|[<-|[<-|[]]]]; discriminate.
    + split; [repeat (apply NoDup_cons; [cbn; intuition discriminate|]); apply NoDup_nil|]. split; [intros e [<-|[<-|[]]]; discriminate|]. intros _ _ u Hu. rewrite <- (Hu _ (or_introl eq_refl)). exists 1%Z. reflexivity.
Qed.
Example C68_ex : correct (brute true) brute_reps /\ reliable (brute true) brute_reps /\ iter_order same /\
  problem_file 1 FWcnf ex_wcnf_text (fun a => sat_cnf a (hards ex_witems) = true) (wcnf_costs ex_witems) (item_var ex_witems) /\ plain_file 1 FWcnf ex_wcnf_text /\
  enumerator same same same same same (brute true) true FWcnf opb_default ex_wcnf_text None 9 tt =
    ROk ([[TTrue; TTrue; TTrue]; [TTrue; TTrue; TFalse]; [TTrue; TFalse; TTrue]; [TTrue; TFalse; TFalse]; [TFalse; TTrue; TFalse]; [TFalse; TFalse; TTrue]; [TFalse; TFalse; TFalse]],
         map (fun x => line (T "o " ++ fst x) ++ line (T "v " ++ snd x)) [(T "2", T "111"); (T "7", T "110"); (T "2", T "101"); (T "7", T "100"); (T "5", T "010"); (T "3", T "001"); (T "8", T "000")], EDone).
Proof.
  split; [apply brute_correct|]. split; [apply brute_correct|]. split; [exact same_order|]. split; [apply (PWcnf 1 3 ex_witems); [exact ex_wcnf_file|small]|]. split; [discriminate|]. vm_compute. reflexivity.
Qed.
Example C68_ex_opb : problem_file 1 FOpb (put_file 1 ex_checked) (fun a => constrs_hold a ex_checked) (opb_costs ex_checked) (stmt_var ex_checked) /\ plain_file 1 FOpb (put_file 1 ex_checked) /\
  enumerator same same same same same (brute false) true FOpb opb_default (put_file 1 ex_checked) None 9 tt =
    ROk (map (map tern_of_bool) [[false; false; false; true]; [false; true; false; true]; [true; false; false; false]; [true; false; true; false]; [true; true; false; false]],
         map (fun x => line (T "o " ++ fst x) ++ line (T "v " ++ snd x)) [(T "-4", T "0001"); (T "-1", T "0101"); (T "-5", T "1000"); (T "-5", T "1010"); (T "-2", T "1100")], EDone) /\
  enumerator same same same same same (brute false) false FOpb opb_default (put_file 1 ex_checked) (Some 2) 0 tt =
    ROk (map (map tern_of_bool) [[false; false; false; true]; [false; true; false; true]], [line (T "v 0001"); line (T "v 0101")], EStopped) /\
  check_solution FOpb opb_default (put_file 1 ex_checked) (line (T "o -5") ++ line (T "v 1010")) = ROk (Accepted [(-5)%Z]).
Proof. split; [exact ex_checked_ok|]. split; [exact ex_checked_plain|]. split; [vm_compute; reflexivity|]. split; vm_compute; reflexivity. Qed.

(** The tool does not always print at most as many solutions as asked for: asked for none it prints one. *)
Theorem C68_until_refuted : exists t f sols ts e, cnf_file 2 1 f t /\ enumerator same same same same same (brute true) true FCnf opb_default t (Some 0%nat) 0 tt = ROk (sols, ts, e) /\ List.length sols = 1%nat.
Proof.
  exists (match write_cnf_annotated [[pos 0; negl 1]] 2 with Some t => t | None => [] end), [[pos 0; negl 1]], [[TTrue; TTrue]], [line (T "v 11")], EStopped.
  split; [apply (cnf_file_written [[pos 0; negl 1]] 2); [small|small|vm_compute; reflexivity]|]. split; [vm_compute; reflexivity|reflexivity].
Qed.
Print Assumptions C68_until_refuted.
(** [check-solution] does not accept the solution printed if there is a single variable and it is false: the line [v 0] is read as one without
    values. *)
Theorem C68_one_variable_refuted : exists t f s x r, cnf_file 1 1 f t /\ enumerator same same same same same (brute true) true FCnf opb_default t None 3 tt = ROk ([s], [x], EDone) /\ total_below 1 s /\
  (forall a, completes a (pasg_of s) -> sat_cnf a f = true) /\ check_solution FCnf opb_default t x = ROk (Rejected r).
Proof.
  exists (match write_cnf_annotated [[negl 0]] 1 with Some t => t | None => [] end), [[negl 0]], [TFalse], (line (T "v 0")), (RClause [negl 0]).
  split; [apply (cnf_file_written [[negl 0]] 1); [small|small|vm_compute; reflexivity]|]. split; [vm_compute; reflexivity|]. split; [now exists [false]|]. split; [|vm_compute; reflexivity].
  intros a Ha. unfold sat_cnf, sat_clause, lit_true. cbn [forallb existsb negl lvar lneg]. now rewrite (Ha 0%N false eq_refl).
Qed.
Print Assumptions C68_one_variable_refuted.
(** [check-solution] cannot read a solution in which a variable has no value. *)
Theorem C68_dont_care_refuted : exists t f s, cnf_file 3 1 f t /\ (forall a, completes a (pasg_of s) -> sat_cnf a f = true) /\ solution_lines true [] s = Some (line (T "v 1_0")) /\
  check_solution FCnf opb_default t (line (T "v 1_0")) = RErr.
Proof.
  exists (match write_cnf_annotated [[pos 0; pos 2]] 3 with Some t => t | None => [] end), [[pos 0; pos 2]], [TTrue; TDontCare; TFalse].
  split; [apply (cnf_file_written [[pos 0; pos 2]] 3); [small|small|vm_compute; reflexivity]|]. split; [|split; vm_compute; reflexivity].
  intros a Ha. unfold sat_cnf, sat_clause, lit_true. cbn [forallb existsb pos lvar lneg]. now rewrite (Ha 0%N true eq_refl).
Qed.
Print Assumptions C68_dont_care_refuted.
(** For an OPB file in which a variable occurs twice in a constraint the tool prints assignments that are not solutions. *)
Theorem C68_repeated_refuted : exists t P cost used sols ts a, problem_file 1 FOpb t P cost used /\ enumerator same same same same same (brute true) true FOpb opb_default t None 5 tt = ROk (sols, ts, EDone) /\
  (exists s, In s sols /\ completes a (pasg_of s)) /\ ~ P a.
Proof.
  exists (put_file 1 [SConstr [(pos 0, 2%Z); (pos 0, 2%Z); (pos 1, 1%Z)] OpLE 3]). do 3 eexists. exists [[]], [line (T "v ")], (fun _ => true).
  split; [apply POpb; [apply put_file_ok; fit|intros ts b H; cbn in H; decompose [or] H; try discriminate; contradiction|apply Forall_cons; [vm_compute; reflexivity|apply Forall_nil]]|].
  split; [vm_compute; reflexivity|]. split; [exists []; split; [now left|intros v b; discriminate]|]. intros H. specialize (H _ _ _ (or_introl eq_refl)). vm_compute in H. now apply H.
Qed.
Print Assumptions C68_repeated_refuted.
(** For an equality without solutions the tool panics. *)
Theorem C68_indivisible_refuted : exists t P cost used, problem_file 1 FOpb t P cost used /\ (forall a, ~ P a) /\ enumerator same same same same same (brute true) true FOpb opb_default t None 5 tt = RPanic.
Proof.
  exists (put_file 1 [SConstr [(pos 0, 2%Z); (pos 1, 2%Z)] OpEQ 3]). do 3 eexists.
  split; [apply POpb; [apply put_file_ok; fit|intros ts b H; cbn in H; decompose [or] H; try discriminate; contradiction|apply Forall_cons; [vm_compute; reflexivity|apply Forall_nil]]|].
  split; [|vm_compute; reflexivity]. intros a H. specialize (H _ _ _ (or_introl eq_refl)). cbn in H. unfold lit_true in H. cbn in H. destruct (a 0%N), (a 1%N); discriminate.
Qed.
Print Assumptions C68_indivisible_refuted.
