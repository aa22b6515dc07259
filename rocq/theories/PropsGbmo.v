(** * Property theorems about splitting objectives (C73), and about the weights of objectives (C42) *)

From Coq Require Import List Bool NArith ZArith Ascii String Lia Permutation Sorted.
From Coq Require Import ZifyBool ZifyNat ZifyN.
From Verif Require Import Spec Types Base Constraints ConstrEnc Maps NodeDb Inst InstSpec Opt OptSpec Text FioSpec DimacsSpec Dimacs Opb OpbSpec Tools ToolSpec ToolText ToolConv PropsTools SplitSpec Gbmo GbmoTool.
Import ListNotations.
Open Scope list_scope.

(** ** C42: the largest and the smallest weight *)

(** The largest weight is the largest weight of a soft clause or literal. *)
Theorem C42_max_weight : forall o, obj_wf o -> soft_list o <> [] -> In (obj_max_weight o) (weights (soft_list o)) /\ forall w, In w (weights (soft_list o)) -> (w <= obj_max_weight o)%nat.
Proof. exact max_weight_spec. Qed.
Print Assumptions C42_max_weight.
(** The smallest weight is the smallest weight of a soft clause or literal; weights are machine integers. *)
Theorem C42_min_weight : forall o, soft_list o <> [] -> (forall w, In w (weights (soft_list o)) -> (N.of_nat w <= usize_max)%N) ->
  (exists w, In w (weights (soft_list o)) /\ obj_min_weight o = N.of_nat w) /\ forall w, In w (weights (soft_list o)) -> (obj_min_weight o <= N.of_nat w)%N.
Proof. exact min_weight_spec. Qed.
Print Assumptions C42_min_weight.
(** A weighted objective: costs 4 for x0, 6 for falsifying x1 or x2, 25 for not x3, and the offset 5 *)
Definition ex_obj : obj := OWeighted 5 [(pos 0, 4%nat); (negl 3, 25%nat)] [([pos 1; pos 2], 6%nat)].
Lemma ex_obj_wf : obj_wf ex_obj.
Proof.
  split; [|split; [|split]].
  - intros l w [H|[H|[]]]; injection H as <- <-; lia.
  - intros c w [H|[]]; injection H as <- <-. split; [lia|discriminate].
  - cbn. repeat (apply NoDup_cons; [cbn; intuition discriminate|]). apply NoDup_nil.
  - cbn. repeat (apply NoDup_cons; [cbn; intuition discriminate|]). apply NoDup_nil.
Qed.
Example C42_weights_ex : obj_wf ex_obj /\ obj_max_weight ex_obj = 25%nat /\ obj_min_weight ex_obj = 4%N /\ (forall w, In w (weights (soft_list ex_obj)) -> (N.of_nat w <= usize_max)%N).
Proof. split; [exact ex_obj_wf|]. split; [reflexivity|]. split; [reflexivity|]. intros w [<-|[<-|[<-|[]]]]; small. Qed.

(** ** C73: splitting an objective *)

(** Sorting by weight *)
Fixpoint put_sorted (e : clause * nat) (xs : list (clause * nat)) : list (clause * nat) :=
  match xs with [] => [e] | x :: xs' => if (snd e <=? snd x)%nat then e :: xs else x :: put_sorted e xs' end.
Definition sort_softs (xs : list (clause * nat)) : list (clause * nat) := fold_right put_sorted [] xs.
Lemma sort_softs_ok : sorts sort_softs.
Proof.
  intros xs. induction xs as [|e xs [IH1 IH2]]; [split; [reflexivity|constructor]|]. cbn [sort_softs fold_right]. fold (sort_softs xs).
  assert (P : forall ys, Permutation (put_sorted e ys) (e :: ys)). { clear. induction ys as [|y ys IH]; [reflexivity|]. cbn [put_sorted]. destruct (snd e <=? snd y)%nat; [reflexivity|]. rewrite IH. apply perm_swap. }
  split; [rewrite P; now constructor|]. revert IH2. generalize (sort_softs xs). clear - P. induction l as [|y ys IH]; intros H; [repeat constructor|]. cbn [put_sorted]. inversion H as [|? ? H1 H2]; subst.
  destruct (Nat.leb_spec (snd e) (snd y)) as [Hle|Hgt]; [constructor; [exact H|]; constructor; [exact Hle|]; eapply Forall_impl; [|exact H2]; cbn beta; intros; lia|].
  cbn [weights map]. constructor; [now apply IH|]. apply Forall_forall. intros w Hw. apply (Permutation_in _ (Permutation_map snd (P ys))) in Hw. destruct Hw as [<-|Hw]; [lia|]. rewrite Forall_forall in H2. now apply H2.
Qed.
Lemma ids_ok : orders (fun m => m) (fun m => m).
Proof. split; reflexivity. Qed.

(** A weighted objective is divided by weight into parts; there is an objective for each part, with the weights divided by their greatest
    common divisor, which is reported with the numbers and weights of soft clauses. The constraints are kept. Comparing
    costs lexicographically, with later objectives more important, is comparing the costs in the original objective. *)
Theorem C73_split : forall lord cord srt alg max_combs p, orders lord cord -> sorts srt -> obj_wf (o_obj p) -> obj_weighted (o_obj p) = true -> soft_list (o_obj p) <> [] ->
  exists q sts warns parts, gbmo_split lord cord srt alg max_combs p = Some (q, sts, warns) /\
    (forall a, inst_holds a (mo_constrs q) <-> inst_holds a (o_constrs p)) /\
    divided (soft_list (o_obj p)) parts /\ List.length (mo_objs q) = List.length parts /\ List.length sts = List.length parts /\
    Forall2 (fun part x => scaled_obj part (s_multiplier (fst x)) (snd x)) parts (combine sts (mo_objs q)) /\
    Forall2 (fun part st => (forall w, In w (weights part) -> (N.of_nat w <= usize_max)%N) ->
      describes part (s_n_softs st) (s_weight_sum st) (s_min_weight st) (s_max_weight st) (s_multiplier st)) parts sts /\
    lexicographic (fun a => obj_value a (o_obj p)) (fun a => map (obj_value a) (mo_objs q)).
Proof.
  intros lord cord srt alg m p Ho Hs Hwf Hw Hne. destruct (gbmo_split_spec lord cord srt Ho Hs alg m p Hwf Hw Hne) as (q & sts & warns & parts & E & Eq & D & (O1 & O2 & O3 & _) & L & Len & _).
  exists q, sts, warns, parts. split; [exact E|]. split; [intros a; rewrite Eq; apply split_holds|]. split; [exact D|]. split; [exact Len|]. split; [congruence|]. now split.
Qed.
Print Assumptions C73_split.
(** An objective that is not weighted is kept. *)
Theorem C73_unweighted : forall lord cord srt alg max_combs p, obj_weighted (o_obj p) = false ->
  exists q sts warns, gbmo_split lord cord srt alg max_combs p = Some (q, sts, warns) /\ (forall a, inst_holds a (mo_constrs q) <-> inst_holds a (o_constrs p)) /\ mo_objs q = [o_obj p].
Proof.
  intros lord cord srt alg m p Hw. unfold gbmo_split. destruct (opt_decompose p) as [c ob] eqn:E. assert (Eo : ob = o_obj p) by (unfold opt_decompose in E; congruence). rewrite Eo, Hw. cbn [negb].
  eexists _, _, _. split; [reflexivity|]. split; [|reflexivity]. intros a. replace c with (fst (opt_decompose p)) by now rewrite E. apply split_holds.
Qed.
Print Assumptions C73_unweighted.
Definition ex_opt (o : obj) : opt := mkOpt (mkInst [[pos 0; pos 1]; [negl 1; negl 2]] [] [] 4) o.
Definition values (r : option (mopt * list ostats * list text)) : option (list obj * list ostats * list text) :=
  match r with Some (q, sts, ws) => Some (mo_objs q, sts, ws) | None => None end.
Example C73_split_ex : obj_wf (o_obj (ex_opt ex_obj)) /\ obj_weighted ex_obj = true /\ soft_list ex_obj <> [] /\
  values (gbmo_split (fun m => m) (fun m => m) sort_softs AGcd 100 (ex_opt ex_obj)) =
    Some ([OWeighted 0 [(pos 0, 2%nat)] [([pos 1; pos 2], 3%nat)]; OUnweighted 5 (Some 1%nat) [negl 3] []], [mkOstats 2 5 2 3 2; mkOstats 1 1 1 1 25], [offset_warning 5]) /\
  values (gbmo_split (fun m => m) (fun m => m) sort_softs AGbmo 100 (ex_opt ex_obj)) = values (gbmo_split (fun m => m) (fun m => m) sort_softs ABmo 100 (ex_opt ex_obj)) /\
  option_map (fun r => List.length (fst (fst r))) (values (gbmo_split (fun m => m) (fun m => m) sort_softs ABmo 100 (ex_opt ex_obj))) = Some 3%nat.
Proof. split; [exact ex_obj_wf|]. split; [reflexivity|]. split; [discriminate|]. split; [vm_compute; reflexivity|]. split; vm_compute; reflexivity. Qed.

(** Where the objective is split: without generalization, at every weight if all weights are larger than the sum of the smaller ones, and nowhere otherwise. *)
Theorem C73_bmo : forall lord cord srt max_combs p, orders lord cord -> sorts srt -> obj_wf (o_obj p) -> obj_weighted (o_obj p) = true -> soft_list (o_obj p) <> [] ->
  let ws := weights (soft_list (o_obj p)) in
  exists q sts warns parts, gbmo_split lord cord srt ABmo max_combs p = Some (q, sts, warns) /\ divided (soft_list (o_obj p)) parts /\ List.length (mo_objs q) = List.length parts /\
    (bmo ws -> forall t, threshold parts t <-> In t ws) /\ (~ bmo ws -> List.length parts = 1%nat).
Proof.
  intros lord cord srt m p Ho Hs Hwf Hw Hne ws. destruct (gbmo_split_spec lord cord srt Ho Hs ABmo m p Hwf Hw Hne) as (q & sts & warns & parts & E & _ & D & _ & _ & Len & A).
  exists q, sts, warns, parts. split; [exact E|]. split; [exact D|]. split; [exact Len|exact A].
Qed.
Print Assumptions C73_bmo.
(** By greatest common divisors: exactly at the weights whose greatest common divisor with the larger ones is larger than the sum of the smaller ones. *)
Theorem C73_gcd : forall lord cord srt max_combs p, orders lord cord -> sorts srt -> obj_wf (o_obj p) -> obj_weighted (o_obj p) = true -> soft_list (o_obj p) <> [] ->
  let ws := weights (soft_list (o_obj p)) in
  exists q sts warns parts, gbmo_split lord cord srt AGcd max_combs p = Some (q, sts, warns) /\ divided (soft_list (o_obj p)) parts /\ List.length (mo_objs q) = List.length parts /\
    forall t, threshold parts t <-> In t ws /\ gcd_splits ws t.
Proof.
  intros lord cord srt m p Ho Hs Hwf Hw Hne ws. destruct (gbmo_split_spec lord cord srt Ho Hs AGcd m p Hwf Hw Hne) as (q & sts & warns & parts & E & _ & D & _ & _ & Len & A).
  exists q, sts, warns, parts. split; [exact E|]. split; [exact D|]. split; [exact Len|exact A].
Qed.
Print Assumptions C73_gcd.
(** With the thorough check: only at weights such that the sums of the weights from there on differ by more than the sum of the smaller ones, at
    all weights that are found by greatest common divisors, and at all weights with the property if the sums of weights are not more than the limit. *)
Theorem C73_gbmo : forall lord cord srt max_combs p, orders lord cord -> sorts srt -> obj_wf (o_obj p) -> obj_weighted (o_obj p) = true -> soft_list (o_obj p) <> [] ->
  let ws := weights (soft_list (o_obj p)) in
  exists q sts warns parts, gbmo_split lord cord srt AGbmo max_combs p = Some (q, sts, warns) /\ divided (soft_list (o_obj p)) parts /\ List.length (mo_objs q) = List.length parts /\
    (forall t, threshold parts t -> In t ws /\ gbmo_splits ws t) /\ (forall t, In t ws -> gcd_splits ws t -> threshold parts t) /\
    (few_sums max_combs ws -> forall t, In t ws -> gbmo_splits ws t -> threshold parts t).
Proof.
  intros lord cord srt m p Ho Hs Hwf Hw Hne ws. destruct (gbmo_split_spec lord cord srt Ho Hs AGbmo m p Hwf Hw Hne) as (q & sts & warns & parts & E & _ & D & _ & _ & Len & A).
  exists q, sts, warns, parts. split; [exact E|]. split; [exact D|]. split; [exact Len|exact A].
Qed.
Print Assumptions C73_gbmo.
(** The weights 1, 5, 5, 8: the sums of 5, 5 and 8 differ by 2 or more, but have no common divisor larger than 1 *)
Definition ex_obj2 : obj := OWeighted 0 [(pos 0, 5%nat); (pos 1, 1%nat); (pos 2, 8%nat)] [([pos 3; pos 4], 5%nat)].
Example C73_gbmo_ex : obj_wf ex_obj2 /\ few_sums 12 (weights (soft_list ex_obj2)) /\ ~ gcd_splits (weights (soft_list ex_obj2)) 5 /\
  option_map (fun r => fst (fst r)) (values (gbmo_split (fun m => m) (fun m => m) sort_softs AGcd 12 (ex_opt ex_obj2))) = Some [OWeighted 0 [(pos 1, 1%nat); (pos 0, 5%nat); (pos 2, 8%nat)] [([pos 3; pos 4], 5%nat)]] /\
  option_map (fun r => fst (fst r)) (values (gbmo_split (fun m => m) (fun m => m) sort_softs AGbmo 12 (ex_opt ex_obj2))) = Some [OUnweighted 0 (Some 1%nat) [pos 1] []; OWeighted 0 [(pos 0, 5%nat); (pos 2, 8%nat)] [([pos 3; pos 4], 5%nat)]].
Proof.
  split; [|split; [|split; [|split; vm_compute; reflexivity]]].
  - split; [intros l w [H|[H|[H|[]]]]; injection H as <- <-; lia|]. split; [intros c w [H|[]]; injection H as <- <-; split; [lia|discriminate]|]. split; (cbn; repeat (apply NoDup_cons; [cbn; intuition discriminate|]); apply NoDup_nil).
  - exists [0; 1; 5; 6; 8; 9; 10; 11; 13; 14; 18; 19]%nat. split; [cbn; lia|]. intros x H. cbn in H. repeat match goal with H : sub_sum _ _ |- _ => inversion H; clear H; subst end; cbn; tauto.
  - unfold gcd_splits. vm_compute. lia.
Qed.

(** The output is used as a file of its own: for a well-formed WCNF file, the tool writes a well-formed MCNF file with the same hard clauses whose objectives, optimized
    lexicographically, order solutions as the objective of the input does. It reports a split if there are at least two objectives, and writes a file only then, or if told to do so always. *)
Theorem C73_file : forall lord cord srt ord ord1 ord2 ord3 ord4 alg max_combs ofmt always_dump path o t n es, orders lord cord -> sorts srt ->
  wcnf_file n es t -> (n <= max_var_idx)%N -> ofmt <> OutOpb -> (N.of_nat (list_sum (map snd (softs es))) <= usize_max)%N ->
  exists k es' r, gbmosplit lord cord srt ord ord1 ord2 ord3 ord4 alg max_combs InWcnf ofmt always_dump false path o t = ROk ((1 <? k)%nat, r) /\
    (if (1 <? k)%nat || always_dump then exists out, r = Some out /\ mcnf_file n es' out else r = None) /\
    (n_objs es' <= k)%nat /\ hards es' = hards es /\ lexicographic (fun a => Z.of_nat (cls_cost a (softs es))) (mcnf_costs k es').
Proof. intros lord cord srt ord ord1 ord2 ord3 ord4 alg m ofmt dump path o t n es Ho Hs. exact (gbmosplit_wcnf lord cord srt ord ord1 ord2 ord3 ord4 Ho Hs alg m ofmt dump path o t n es). Qed.
Print Assumptions C73_file.
Definition id_map (m : wmap) : wmap := m.
Notation run alg fmt ofmt dump stdout path := (gbmosplit (fun m => m) (fun m => m) sort_softs id_map id_map id_map id_map id_map alg 100 fmt ofmt dump stdout path (mkOpbOpts 1 false)).
Definition ex_softs2 : list (clause * nat) := [([pos 0; pos 1], 6%nat); ([negl 0], 1%nat); ([pos 2], 6%nat)].
Definition ex_text2 : text := Eval vm_compute in match write_wcnf_annotated [[pos 0; negl 1; negl 2]] ex_softs2 0 (Some 3%N) with Some t => t | None => [] end.
Definition ex_items2 : list witem := [([pos 0; negl 1; negl 2], None); ([pos 0; pos 1], Some 6%nat); ([negl 0], Some 1%nat); ([pos 2], Some 6%nat)].
Lemma ex_file2 : wcnf_file 3 ex_items2 ex_text2.
Proof.
  apply (wcnf_file_written [] [[pos 0; negl 1; negl 2]] ex_softs2 0 3 3 ex_text2); [constructor| | | |vm_compute; reflexivity].
  - intros c w Hin. cbn in Hin. decompose [or] Hin; try contradiction; injection H as <- <- || injection H0 as <- <-; small.
  - intros c [<-|[]]. below.
  - intros c w [H|[H|[H|[]]]]; injection H as <- <-; below.
Qed.
Definition mcnf_comments : text := line (T "c MCNF file written by RustSAT") ++ line (T "c 3 variables") ++ line (T "c 1 hard clauses").
Example C73_file_ex : wcnf_file 3 ex_items2 ex_text2 /\ (N.of_nat (list_sum (map snd (softs ex_items2))) <= usize_max)%N /\
  run AGcd InWcnf AsInput false false None ex_text2 = ROk (true, Some (mcnf_comments ++ line (T "c 2 objectives") ++ line (T "c ( 1 2 ) soft clauses") ++ line (T "c objective offsets: ( 0 0 )") ++
    line (T "h 1 -2 -3 0") ++ line (T "o 1 1 -1 0") ++ line (T "o 2 1 3 0") ++ line (T "o 2 1 1 2 0"))) /\
  (* not split *)
  wcnf_file 3 ex_witems ex_wcnf_text /\ run AGbmo InWcnf AsInput false false None ex_wcnf_text = ROk (false, None) /\ exists out, run AGbmo InWcnf AsInput true false None ex_wcnf_text = ROk (false, Some out).
Proof. split; [exact ex_file2|]. split; [small|]. split; [vm_compute; reflexivity|]. split; [exact ex_wcnf_file|]. split; [vm_compute; reflexivity|]. eexists. vm_compute. reflexivity. Qed.

(** *** What is not right *)

(** The offset is added to the last objective, which is the most important one, although the warning says that it is added to the lowest ranking one. *)
Theorem C73_offset_refuted : ~ forall lord cord srt alg max_combs p q sts warns, orders lord cord -> sorts srt -> obj_wf (o_obj p) -> gbmo_split lord cord srt alg max_combs p = Some (q, sts, warns) ->
  In (T "objective offset is not zero (" ++ print_Z (obj_offset (o_obj p)) ++ T "), will be added to the lowest ranking objective") warns -> hd 0%Z (map obj_offset (mo_objs q)) = obj_offset (o_obj p).
Proof.
  intros H. destruct (gbmo_split (fun m => m) (fun m => m) sort_softs AGcd 100 (ex_opt ex_obj)) as [[[q sts] warns]|] eqn:E; [|vm_compute in E; discriminate].
  specialize (H (fun m => m) (fun m => m) sort_softs AGcd 100%nat (ex_opt ex_obj) q sts warns ids_ok sort_softs_ok ex_obj_wf E). vm_compute in E. injection E as <- <- <-. vm_compute in H. discriminate H. now left.
Qed.
Print Assumptions C73_offset_refuted.
(** Hence the objectives, weighted with the reported multipliers, do not add up to the original objective. *)
Theorem C73_multipliers_refuted : ~ forall lord cord srt alg max_combs p q sts warns a, orders lord cord -> sorts srt -> obj_wf (o_obj p) -> gbmo_split lord cord srt alg max_combs p = Some (q, sts, warns) ->
  obj_value a (o_obj p) = fold_right Z.add 0%Z (map (fun x => Z.of_nat (s_multiplier (fst x)) * obj_value a (snd x))%Z (combine sts (mo_objs q))).
Proof.
  intros H. destruct (gbmo_split (fun m => m) (fun m => m) sort_softs AGcd 100 (ex_opt ex_obj)) as [[[q sts] warns]|] eqn:E; [|vm_compute in E; discriminate].
  specialize (H (fun m => m) (fun m => m) sort_softs AGcd 100%nat (ex_opt ex_obj) q sts warns (fun _ => true) ids_ok sort_softs_ok ex_obj_wf E). vm_compute in E. injection E as <- <- <-. vm_compute in H. discriminate H.
Qed.
Print Assumptions C73_multipliers_refuted.
(** With output in the OPB format the clauses that relax soft clauses are lost: costs are not kept. For the input above, setting only x3 to 1 costs 6, but the output has
    a solution with these values and the cost 0 in all objectives. *)
Theorem C73_opb_refuted : exists es t out q a, wcnf_file 3 es t /\ run AGcd InWcnf OutOpb false false None t = ROk (true, Some out) /\ mopt_from_opb (mkOpbOpts 1 false) out = ROk q /\
  sat_cnf a (hards es) = true /\ cls_cost a (softs es) = 6%nat /\ inst_holds a (mo_constrs q) /\ Forall (fun ob => obj_value a ob = 0%Z) (mo_objs q).
Proof.
  exists ex_items2, ex_text2. eexists _, _, (fun v => (v =? 2)%N). split; [exact ex_file2|]. split; [vm_compute; reflexivity|]. split; [vm_compute; reflexivity|]. split; [reflexivity|]. split; [reflexivity|].
  split; [|repeat constructor]. split; [reflexivity|]. split; [intros c []|]. intros c [<-|[]]. vm_compute. discriminate.
Qed.
Print Assumptions C73_opb_refuted.
(** If the output is written to the standard output, it begins with the messages printed there and is not an MCNF file. *)
Theorem C73_stdout_refuted : exists es t out, wcnf_file 3 es t /\ run AGcd InWcnf OutMcnf false true (Some (T "a.wcnf")) t = ROk (true, Some out) /\ forall n es', ~ mcnf_file n es' out.
Proof.
  exists ex_items2, ex_text2. eexists. split; [exact ex_file2|]. split; [vm_compute; reflexivity|]. intros n es' H. destruct (mopt_of_mcnf_file n es' _ H) as (p & E & _). vm_compute in E. discriminate E.
Qed.
Print Assumptions C73_stdout_refuted.
(** A weighted objective without soft clauses cannot be split: the tool's function panics. *)
Theorem C73_empty_refuted : exists ks o, foldM obj_call ks obj_new = Some o /\ forall lord cord srt alg max_combs, orders lord cord -> sorts srt -> gbmo_split lord cord srt alg max_combs (ex_opt o) = None.
Proof.
  exists [OIncLit 1 (pos 0); OIncLit 2 (pos 1); OAddLit 0 (pos 0); OAddLit 0 (pos 1)], (OWeighted 0 [] []). split; [reflexivity|].
  intros lord cord srt alg m [L C] S. unfold gbmo_split. cbn [opt_decompose o_obj ex_opt obj_weighted negb into_soft_cls]. rewrite (Permutation_nil (Permutation_sym (L []))). cbn [fold_left]. rewrite (Permutation_nil (Permutation_sym (C []))). cbn [obind].
  rewrite (Permutation_nil (Permutation_sym (proj1 (S [])))). destruct alg; reflexivity.
Qed.
Print Assumptions C73_empty_refuted.
