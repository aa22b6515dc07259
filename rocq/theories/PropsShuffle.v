(** * Property theorems about shuffling problems (C70) *)

From Coq Require Import List Bool NArith ZArith Ascii String Lia Permutation.
From Coq Require Import ZifyBool ZifyNat ZifyN.
From Verif Require Import Spec Types Base ConstrSpec Constraints Inst InstSpec Opt OptSpec Text TextProofs FioSpec DimacsSpec Dimacs EncSpec Maps Tools ToolSpec ToolText ShuffleSpec ShuffleProofs PropsTools.
Import ListNotations.
Open Scope list_scope.

(** ** C70 Shuffling a problem *)

(** Whatever the random choices, the shuffled CNF file has the clauses of the input, in some order, with the variables renamed one-to-one. The number of
    variables stays the same, unless the header is wrong. *)
Theorem C70_cnf : forall shuffle_vars shuffle_cls t n m f, permutes shuffle_vars -> permutes shuffle_cls ->
  cnf_file n m f t -> (n <= max_var_idx)%N -> (N.of_nat (List.length f) <= usize_max)%N ->
  exists out r f' n', shuffle_cnf shuffle_vars shuffle_cls t = ROk out /\ (n <= n')%N /\ (cnf_below n f -> n' = n) /\ renaming n' r /\
    cnf_file n' (N.of_nat (List.length f)) f' out /\ cnf_below n' f' /\ Permutation f' (rename_cnf r f) /\ forall a, sat_cnf a f' = sat_cnf (fun v => a (r v)) f.
Proof. intros sv sc t n m f Hv Hc. now apply shuffle_cnf_spec. Qed.
Print Assumptions C70_cnf.

(** The shuffled WCNF file has the hard clauses of the input, renamed, and gives every clause the weight that its origin has in the input, so that solutions and costs correspond. *)
Theorem C70_wcnf : forall lord cord shuffle_vars shuffle_cls shuffle_soft shuffle_soft_cls t n es, orders lord cord ->
  permutes shuffle_vars -> permutes shuffle_cls -> permutes shuffle_soft -> permutes shuffle_soft_cls ->
  wcnf_file n es t -> (n <= max_var_idx)%N -> is_usize (list_sum (map snd (softs es))) ->
  exists out r es', shuffle_wcnf lord cord shuffle_vars shuffle_cls shuffle_soft shuffle_soft_cls t = ROk out /\ renaming n r /\ wcnf_file n es' out /\
    Permutation (hards es') (rename_cnf r (hards es)) /\ same_softs (softs es') (rename_softs r (softs es)) /\
    (forall a, sat_cnf a (hards es') = sat_cnf (fun v => a (r v)) (hards es)) /\ (forall a, wcnf_costs es' a = wcnf_costs es (fun v => a (r v))).
Proof. intros lord cord sv scl sl sc t n es Ho Hv Hcl Hl Hc. now apply shuffle_wcnf_spec. Qed.
Print Assumptions C70_wcnf.

(** The same for MCNF files, objective by objective; [m] is any number of objectives. *)
Theorem C70_mcnf : forall lord cord shuffle_vars shuffle_cls shuffle_soft shuffle_soft_cls t n es, orders lord cord ->
  permutes shuffle_vars -> permutes shuffle_cls -> permutes shuffle_soft -> permutes shuffle_soft_cls ->
  mcnf_file n es t -> (n <= max_var_idx)%N -> (forall k, is_usize (list_sum (map snd (msofts k es)))) ->
  exists out r es', shuffle_mcnf lord cord shuffle_vars shuffle_cls shuffle_soft shuffle_soft_cls t = ROk out /\ renaming n r /\ mcnf_file n es' out /\
    Permutation (hards es') (rename_cnf r (hards es)) /\ (forall k, same_softs (msofts k es') (rename_softs r (msofts k es))) /\
    (forall a, sat_cnf a (hards es') = sat_cnf (fun v => a (r v)) (hards es)) /\ (forall m a, mcnf_costs m es' a = mcnf_costs m es (fun v => a (r v))).
Proof. intros lord cord sv scl sl sc t n es Ho Hv Hcl Hl Hc. now apply shuffle_mcnf_spec. Qed.
Print Assumptions C70_mcnf.

(** Every assignment of the input corresponds to one of the shuffled file, so satisfiability and the optimal costs are the same. *)
Theorem C70_corresponds : forall n r, renaming n r -> forall b : asg, exists a : asg, forall v, a (r v) = b v.
Proof.
  intros n r (H1 & H2 & H3 & H4) b. set (inv := fun u => find (fun v => (r v =? u)%N) (map N.of_nat (seq 0 (N.to_nat n)))).
  exists (fun u => b (match inv u with Some v => v | None => u end)). intros v. f_equal. unfold inv. destruct (find _ _) as [w|] eqn:E.
  - apply find_some in E as [_ E]. apply H1. lia.
  - destruct (N.ltb_spec v n) as [L|L]; [|now apply H4]. apply (find_none _ _) with (x := v) in E; [lia|]. apply in_map_iff. exists (N.to_nat v). split; [lia|]. apply in_seq. lia.
Qed.
Print Assumptions C70_corresponds.

(** Examples: the variables, the clauses and the soft clauses are reversed *)
Lemma rev_permutes {A} : permutes (@rev A).
Proof. intros xs. apply Permutation_sym, Permutation_rev. Qed.
Lemma same_orders : orders (fun m => m) (fun m => m).
Proof. split; intros m; apply Permutation_refl. Qed.
Example C70_ex : permutes (@rev N) /\ permutes (@rev clause) /\ permutes (@rev lit) /\ orders (fun m => m) (fun m => m) /\
  cnf_file 3 3 ex_cnf ex_cnf_text /\ cnf_below 3 ex_cnf /\
  shuffle_cnf (@rev N) (@rev clause) ex_cnf_text = ROk (line (T "c CNF file written by RustSAT") ++ line (T "p cnf 3 3") ++ line (T "1 0") ++ line (T "0") ++ line (T "3 -2 0")) /\
  wcnf_file 3 ex_witems ex_wcnf_text /\ is_usize (list_sum (map snd (softs ex_witems))) /\
  mcnf_file 3 ex_mitems ex_mcnf_text /\ (forall k, is_usize (list_sum (map snd (msofts k ex_mitems)))).
Proof.
  split; [apply rev_permutes|]. split; [apply rev_permutes|]. split; [apply rev_permutes|]. split; [exact same_orders|]. split; [exact ex_cnf_file|]. split; [|split; [vm_compute; reflexivity|]].
  - intros c [<-|[<-|[<-|[]]]]; below.
  - split; [exact ex_wcnf_file|]. split; [small|]. split; [exact ex_mcnf_file|]. intros [|[|[|k]]]; small.
Qed.
(** An example with weights; the objective of the input is not the one of the output, but with the variables reversed it is *)
Example C70_weights_ex : exists out, shuffle_wcnf (fun m => m) (fun m => m) (@rev N) (@rev clause) (@rev lit) (@rev clause) ex_wcnf_text = ROk out /\
  wcnf_file 3 [([pos 2; negl 1; negl 0], None); ([negl 2], Some 2%nat); ([pos 0], Some 5%nat); ([pos 2; pos 1], Some 3%nat)] out.
Proof.
  exists (match write_wcnf_annotated [[pos 2; negl 1; negl 0]] [([negl 2], 2%nat); ([pos 0], 5%nat); ([pos 2; pos 1], 3%nat)] 0 (Some 3%N) with Some t => t | None => [] end). split; [vm_compute; reflexivity|].
  refine (wcnf_file_written [] [[pos 2; negl 1; negl 0]] [([negl 2], 2%nat); ([pos 0], 5%nat); ([pos 2; pos 1], 3%nat)] 0 3 3 _ _ _ _ _ _); [constructor| | | |vm_compute; reflexivity].
  - intros c w [H|[H|[H|[]]]]; injection H as <- <-; small.
  - intros c [<-|[]]; below.
  - intros c w [H|[H|[H|[]]]]; injection H as <- <-; below.
Qed.
