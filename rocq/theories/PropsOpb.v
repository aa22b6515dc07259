(** * Properties of reading and writing OPB files *)

From Coq Require Import List Bool NArith ZArith Ascii String Lia Permutation.
From Coq Require Import ZifyBool ZifyNat ZifyN.
From Verif Require Import Spec Types Base ConstrSpec Constraints Inst InstSpec Opt OptSpec Text TextProofs FioSpec Dimacs DimacsGrammar Opb OpbSpec OpbProofs OpbInst.
Import ListNotations.
Open Scope list_scope.

Ltac small := unfold var_fits; change max_var_idx with 2147483647%N; unfold is_isize, isize_min, isize_max, u32_max; cbn; lia.
Ltac members H := cbn in H; intuition (subst; try small).

Ltac pairs H := cbn in H; repeat (destruct H as [H|H]; [injection H as <- <-; small|]); destruct H.

(** ** C50 OPB round trip *)

(** Reading a written instance gives constraints with the same satisfying assignments. Only the index of the first variable must be the same. *)
Theorem C50_sat_round_trip : forall o o' i t, opb_inst_ok i -> first_var_idx o' = first_var_idx o -> opb_write_sat o i = Some t ->
  exists i', inst_from_opb o' t = ROk i' /\ forall a, inst_holds a i' <-> inst_holds a i.
Proof. intros o o' i t Hok Ef H. exact (write_sat_read o o' i t H Ef Hok). Qed.
Print Assumptions C50_sat_round_trip.
Example C50_sat_round_trip_ex :
  let i := mkInst [[pos 0; negl 1]] [mkCard KUb [pos 0; pos 2] 1] [pb_new_eq [(pos 1, 3%Z); (negl 2, (-2)%Z)] 1] 3 in opb_inst_ok i /\
  opb_write_sat opb_default i = Some (line (T "* #variable = 3 #constraint= 3") ++ line (T "* OPB file written by RustSAT") ++ line (T "* maximum variable: x2") ++
    line (T "* 1 clauses") ++ line (T "* 1 cardinality constraints") ++ line (T "* 1 pseudo-boolean constraints") ++
    line (T "1 x1 -1 x2 >= 0;") ++ line (T "-1 x1 -1 x3 >= -1;") ++ line (T "3 x2 2 x3 = 3;")).
Proof.
  intros i. split; [|vm_compute; reflexivity]. split; [|split].
  - intros c [<-|[]] l Hl. members Hl.
  - intros c [<-|[]] l Hl. members Hl.
  - intros c [<-|[]]. split; [small|]. intros l w [E|[E|[]]]; injection E as <- <-; split; small.
Qed.
(** Writing succeeds if the numbers in the file fit. *)
Theorem C50_write_ok : forall o i, opb_writable o i -> exists t, opb_write_sat o i = Some t.
Proof. exact write_sat_some. Qed.
Print Assumptions C50_write_ok.
Example C50_write_ok_ex : opb_writable opb_default (mkInst [[pos 0; negl 1]] [mkCard KUb [pos 0; pos 2] 1] [pb_new_eq [(pos 1, 3%Z); (negl 2, (-2)%Z)] 1] 3).
Proof.
  split; [|split; [|split]].
  - intros l Hl. members Hl.
  - intros c [<-|[]]. small.
  - intros c [<-|[]]. small.
  - intros c [<-|[]]. small.
Qed.

(** Lines written one by one: constraints, objectives and comments *)
Theorem C50_lines_round_trip_partial : forall o o' ls t, Forall wline_ok ls -> first_var_idx o' = first_var_idx o -> write_opb_lines o ls = Some t ->
  exists p, mopt_from_opb o' t = ROk p /\ (forall a, inst_holds a (mo_constrs p) <-> forall l, In l ls -> wline_holds a l) /\
    Forall2 (fun l ob => obj_wf ob /\ forall a, obj_value a ob = (Z.of_nat (wsum a l) - lost_constant o l 0)%Z) (wline_objs ls) (mo_objs p).
Proof. intros o o' ls t Hok Ef H. exact (write_lines_read o o' ls t H Ef Hok). Qed.
Print Assumptions C50_lines_round_trip_partial.
Example C50_lines_round_trip_ex : let ls := [OComment (T "text"); OObjective [(negl 1, 3%nat); (pos 0, 1%nat)]; OCard (mkCard KLb [pos 0; negl 1] 1)] in Forall wline_ok ls /\
  write_opb_lines (mkOpbOpts 0 false) ls = Some (line (T "* text") ++ line (T "min: 3 ~x1 1 x0;") ++ line (T "1 x0 1 ~x1 >= 1;")).
Proof.
  intros ls. split; [|vm_compute; reflexivity]. repeat apply Forall_cons; [| | |apply Forall_nil].
  - intros c Hc. cbn in Hc. intuition (subst; discriminate).
  - split; [intros l w [E|[E|[]]]; injection E as <- <-; small|small].
  - intros l Hl. members Hl.
Qed.

(** Reading a written optimization instance gives the same constraints, and the objective up to a constant. *)
Theorem C50_opt_round_trip_partial : forall lord, (forall m, Permutation (lord m) m) ->
  forall o o' p t, opb_inst_ok (o_constrs p) -> opb_soft_ok (obj_lits (o_obj p)) -> first_var_idx o' = first_var_idx o -> opt_write_opb o lord p = ROk t ->
  exists p', opt_from_opb o' t = ROk p' /\ (forall a, inst_holds a (o_constrs p') <-> inst_holds a (o_constrs p)) /\ obj_wf (o_obj p') /\
    forall a, obj_value a (o_obj p') = (obj_value a (o_obj p) - lost_constant o (obj_lits (o_obj p)) (obj_offset (o_obj p)))%Z.
Proof. intros lord Lp o o' p t Hok Hs Ef H. exact (opt_write_read lord Lp o o' p t H Ef Hok Hs). Qed.
Print Assumptions C50_opt_round_trip_partial.
(** The objective values are the same if the offset is zero and either negated literals may be written or there are none. *)
Corollary C50_opt_round_trip_exact_partial : forall lord, (forall m, Permutation (lord m) m) ->
  forall o o' p t, opb_inst_ok (o_constrs p) -> opb_soft_ok (obj_lits (o_obj p)) -> first_var_idx o' = first_var_idx o ->
  obj_offset (o_obj p) = 0%Z -> no_negated_lits o = false \/ (forall l w, In (l, w) (obj_lits (o_obj p)) -> lneg l = false) ->
  opt_write_opb o lord p = ROk t ->
  exists p', opt_from_opb o' t = ROk p' /\ (forall a, inst_holds a (o_constrs p') <-> inst_holds a (o_constrs p)) /\
    forall a, obj_value a (o_obj p') = obj_value a (o_obj p).
Proof.
  intros lord Lp o o' p t Hok Hs Ef Hz Hn H. destruct (opt_write_read lord Lp o o' p t H Ef Hok Hs) as (p' & E & Hc & _ & Hv).
  exists p'. split; [exact E|]. split; [exact Hc|]. intros a. rewrite Hv. enough (lost_constant o (obj_lits (o_obj p)) (obj_offset (o_obj p)) = 0)%Z by lia.
  unfold lost_constant. rewrite Hz. destruct Hn as [-> | Hn]; [reflexivity|]. destruct (no_negated_lits o); [|reflexivity]. clear - Hn.
  induction (obj_lits (o_obj p)) as [|[l w] r IH]; [reflexivity|]. cbn [negated_weight]. rewrite (Hn l w (or_introl eq_refl)). apply IH. intros l' w' Hin. apply (Hn l' w'). now right.
Qed.
Print Assumptions C50_opt_round_trip_exact_partial.
Example C50_opt_round_trip_ex : let p := opt_compose (mkInst [[pos 0; negl 1]] [] [] 2) (obj_from_lits [(pos 0, 2%nat); (negl 1, 3%nat)]) in
  opb_inst_ok (o_constrs p) /\ opb_soft_ok (obj_lits (o_obj p)) /\ obj_offset (o_obj p) = 0%Z /\ lost_constant opb_default (obj_lits (o_obj p)) 0 = 3%Z /\
  exists t, opt_write_opb opb_default (fun m => m) p = ROk t.
Proof.
  intros p. split; [|split; [|split; [|split]]].
  - split; [intros c [<-|[]] l Hl; members Hl|]. split; intros c [].
  - split; [intros l w Hl; pairs Hl|small].
  - reflexivity.
  - reflexivity.
  - eexists. vm_compute. reflexivity.
Qed.
(** Writing succeeds if there are no soft clauses and the numbers fit. *)
Theorem C50_opt_write_ok : forall lord, (forall m, Permutation (lord m) m) -> forall o p, obj_cls (o_obj p) = [] -> opb_writable o (o_constrs p) ->
  (forall l w, In (l, w) (obj_lits (o_obj p)) -> var_fits o l) -> (Z.of_nat (total_weight (obj_lits (o_obj p))) + Z.abs (obj_offset (o_obj p)) <= isize_max)%Z ->
  exists t, opt_write_opb o lord p = ROk t.
Proof. exact opt_write_ok. Qed.
Print Assumptions C50_opt_write_ok.
Example C50_opt_write_ok_ex : let p := opt_compose (mkInst [] [] [] 2) (obj_from_lits [(pos 0, 2%nat); (negl 1, 3%nat)]) in obj_cls (o_obj p) = [] /\ opb_writable opb_default (o_constrs p) /\
  (forall l w, In (l, w) (obj_lits (o_obj p)) -> var_fits opb_default l).
Proof.
  intros p. split; [reflexivity|]. split; [split; [intros l []|split; [intros c []|split; intros c []]]|].
  intros l w Hl; pairs Hl.
Qed.
(** The full claim is false: the offset is only written in a comment and lost, *)
Theorem C50_offset_refuted : exists p t p', opt_write_opb opb_default (fun m => m) p = ROk t /\ opt_from_opb opb_default t = ROk p' /\
  obj_value (fun _ => true) (o_obj p) = 7%Z /\ obj_value (fun _ => true) (o_obj p') = 2%Z.
Proof.
  exists (opt_compose (mkInst [] [] [] 1) (obj_increase_offset 5 (obj_from_lits [(pos 0, 2%nat)]))). eexists. eexists.
  split; [vm_compute; reflexivity|]. split; [vm_compute; reflexivity|]. split; [vm_compute; reflexivity|vm_compute; reflexivity].
Qed.
Print Assumptions C50_offset_refuted.
(** and so are the weights of negated literals, which changes the value by a constant although the offset is zero. *)
Theorem C50_negated_refuted : exists p t p', opt_write_opb opb_default (fun m => m) p = ROk t /\ opt_from_opb opb_default t = ROk p' /\ obj_offset (o_obj p) = 0%Z /\
  obj_value (fun _ => true) (o_obj p) = 0%Z /\ obj_value (fun _ => true) (o_obj p') = (-3)%Z.
Proof.
  exists (opt_compose (mkInst [] [] [] 1) (obj_from_lits [(negl 0, 3%nat)])). eexists. eexists.
  split; [vm_compute; reflexivity|]. split; [vm_compute; reflexivity|]. split; [vm_compute; reflexivity|]. split; [vm_compute; reflexivity|vm_compute; reflexivity].
Qed.
Print Assumptions C50_negated_refuted.
(** Any weight that fits in a [usize] but not in an [isize] is written and cannot be read. *)
Theorem C50_weight_refuted : forall n, (isize_max < Z.of_N n)%Z -> exists t,
  write_opb_lines opb_default [OPb (pb_new_unsigned KLb [(pos 0, N.to_nat n)] 1)] = Some t /\ mopt_from_opb opb_default t = RErr.
Proof.
  intros n Hn. exists (line ((print_N n ++ T " x1 ") ++ T ">= 1;")).
  assert (Ew : print_nat (N.to_nat n) = print_N n) by (unfold print_nat; now rewrite N2Nat.id). split.
  - unfold write_opb_lines, write_opb_line, opb_pb, pb_new_unsigned, write_rel. cbn [p_kind p_lits p_b map concat_opt]. unfold write_term, opb_var, neg_weight.
    cbn [lvar lneg pos no_negated_lits opb_default first_var_idx]. change (0 + 1 <=? u32_max)%N with true. cbn [option_map map fst snd lneg pos]. rewrite Ew.
    change (print_N (0 + 1)) with (T "1"). change (in_isize (Z.of_nat (list_sum [0%nat]))) with (Some 0%Z). cbn [in_isize]. change (in_isize (1 - 0)) with (Some 1%Z). cbn [concat_opt].
    unfold line. rewrite <- !app_assoc. reflexivity.
  - unfold mopt_from_opb, read_opb, line. rewrite <- !app_assoc.
    assert (Hnl : no_nl (print_N n ++ T " x1 " ++ T ">= 1;")).
    { apply no_nl_app; [apply (no_nl_number (Z.of_N n)); left; unfold print_Z; replace (Z.of_N n <? 0)%Z with false by lia; f_equal; lia|]. intros Hc. cbn in Hc. intuition discriminate. }
    change (print_N n ++ T " x1 " ++ T ">= 1;" ++ [nl]) with (print_N n ++ T " x1 " ++ T ">= 1;" ++ nl :: []). replace (print_N n ++ T " x1 " ++ T ">= 1;" ++ [nl]) with ((print_N n ++ T " x1 " ++ T ">= 1;") ++ nl :: []) by (rewrite <- !app_assoc; reflexivity).
    rewrite read_lines_line by assumption. cbn [collect]. rewrite <- !app_assoc. rewrite large_line; [reflexivity|assumption|reflexivity].
Qed.
Print Assumptions C50_weight_refuted.

(** The same for several objectives *)
Theorem C50_multi_round_trip_partial : forall lord, (forall m, Permutation (lord m) m) ->
  forall o o' p t, opb_inst_ok (mo_constrs p) -> (forall ob, In ob (mo_objs p) -> opb_soft_ok (obj_lits ob)) -> first_var_idx o' = first_var_idx o ->
  mopt_write_opb o lord p = ROk t ->
  exists p', mopt_from_opb o' t = ROk p' /\ (forall a, inst_holds a (mo_constrs p') <-> inst_holds a (mo_constrs p)) /\
    Forall2 (fun ob ob' => obj_wf ob' /\ forall a, obj_value a ob' = (obj_value a ob - lost_constant o (obj_lits ob) (obj_offset ob))%Z) (mo_objs p) (mo_objs p').
Proof. intros lord Lp o o' p t Hok Hs Ef H. exact (mopt_write_read lord Lp o o' p t H Ef Hok Hs). Qed.
Print Assumptions C50_multi_round_trip_partial.
Example C50_multi_round_trip_ex : let p := mkMopt (mkInst [[pos 0; negl 1]] [] [] 2) [obj_from_lits [(pos 0, 2%nat); (negl 1, 3%nat)]; obj_from_lits [(pos 1, 1%nat)]] in
  opb_inst_ok (mo_constrs p) /\ (forall ob, In ob (mo_objs p) -> opb_soft_ok (obj_lits ob)) /\ exists t, mopt_write_opb opb_default (fun m => m) p = ROk t.
Proof.
  intros p. split; [|split].
  - split; [intros c [<-|[]] l Hl; members Hl|]. split; intros c [].
  - intros ob [<-|[<-|[]]]; (split; [|small]); intros l w Hl; pairs Hl.
  - eexists. vm_compute. reflexivity.
Qed.

(** ** C51 OPB relational operators *)

(** Reading a well-formed file gives exactly the constraints written in it, unless the operator [<] is used. *)
Theorem C51_constraints_partial : forall o ss t, opb_file (first_var_idx o) ss t -> objs_of ss = [] -> Forall stmt_fits ss -> no_less ss ->
  exists i, inst_from_opb o t = ROk i /\ forall a, inst_holds a i <-> constrs_hold a ss.
Proof. intros o ss t H Ho Hf Hl. now apply inst_from_opb_means. Qed.
Print Assumptions C51_constraints_partial.
Lemma example_file : opb_file 1 [SConstr [(pos 0, 2%Z); (negl 1, (-1)%Z)] OpGT 0; SConstr [(pos 2, 1%Z)] OpEQ 1] (line (T "* example") ++ T " 2 x1 -1 ~x2 > 0 ; 1 x3 = 1;").
Proof.
  apply (FLine 1 [] (T "* example") [nl] _ (T " 2 x1 -1 ~x2 > 0 ; 1 x3 = 1;")); [|now left|].
  - apply (LStmts 1 [] []); [intros ? []|]. apply SComment. intros c Hc. cbn in Hc. intuition (subst; discriminate).
  - apply FLast. apply (LStmts 1 (T " ")); [intros c [<-|[]]; split; [reflexivity|discriminate]|].
    assert (B : blanks1 (T " ")) by (split; [intros c [<-|[]]; now left|discriminate]). assert (B' : blanks (T " ")) by apply B. assert (B0 : blanks []) by (intros ? []).
    apply (SMore 1 _ (T "2 x1 -1 ~x2 > 0") (T " ") (T " ") [SConstr [(pos 2, 1%Z)] OpEQ 1] (T "1 x3 = 1;")); [|exact B'|exact B'|].
    + split; [small|]. exists (T "2 x1 -1 ~x2"), (T " "), (T " "), (T "0"). split; [|split; [exact B'|]; split; [discriminate|]; split; [exact B'|]; split; [left; vm_compute; reflexivity|reflexivity]].
      exists (T "2 x1"), (T " "), (T "-1 ~x2"). split; [|split; [exact B|]; split; [|reflexivity]].
      * split; [small|]. exists (T "2"), (T " "), (T "x1"). split; [left; vm_compute; reflexivity|]. split; [exact B|]. split; [|reflexivity]. split; [small|]. split; [small|]. exists []. split; [reflexivity|vm_compute; reflexivity].
      * split; [small|]. exists (T "-1"), (T " "), (T "~x2"). split; [left; vm_compute; reflexivity|]. split; [exact B|]. split; [|reflexivity]. split; [small|]. split; [small|]. exists (T "~"). split; [now left|vm_compute; reflexivity].
    + apply (SLast 1 _ (T "1 x3 = 1") [] (T ";") []); [|exact B0|now left|exact B0]. split; [small|]. exists (T "1 x3"), (T " "), (T " "), (T "1"). split; [|split; [exact B'|]; split; [discriminate|]; split; [exact B'|]; split; [left; vm_compute; reflexivity|reflexivity]].
      split; [small|]. exists (T "1"), (T " "), (T "x3"). split; [left; vm_compute; reflexivity|]. split; [exact B|]. split; [|reflexivity]. split; [small|]. split; [small|]. exists []. split; [reflexivity|vm_compute; reflexivity].
Qed.
Example C51_constraints_ex : let ss := [SConstr [(pos 0, 2%Z); (negl 1, (-1)%Z)] OpGT 0; SConstr [(pos 2, 1%Z)] OpEQ 1] in
  opb_file 1 ss (line (T "* example") ++ T " 2 x1 -1 ~x2 > 0 ; 1 x3 = 1;") /\ objs_of ss = [] /\ Forall stmt_fits ss /\ no_less ss.
Proof.
  intros ss. split; [exact example_file|]. split; [reflexivity|]. split.
  - repeat apply Forall_cons; [intros _; small|intros _; small|apply Forall_nil].
  - intros ts b [E|[E|[]]]; discriminate.
Qed.
(** [<] is wrong for every bound: it is read as "at most the bound plus one". *)
Theorem C51_less_reads : forall o ts b t, opb_file (first_var_idx o) [SConstr ts OpLT b] t -> (b < isize_max)%Z ->
  exists i, inst_from_opb o t = ROk i /\ forall a, inst_holds a i <-> (zwsum a ts <= b + 1)%Z.
Proof. exact less_read. Qed.
Print Assumptions C51_less_reads.
Lemma less_file : opb_file 1 [SConstr [(pos 0, 1%Z)] OpLT 1] (T "1 x1 < 1;").
Proof.
  assert (B : blanks1 (T " ")) by (split; [intros c [<-|[]]; now left|discriminate]). assert (B' : blanks (T " ")) by apply B. assert (B0 : blanks []) by (intros ? []).
  apply FLast. apply (LStmts 1 [] _ (T "1 x1 < 1;")); [intros ? []|]. apply (SLast 1 _ (T "1 x1 < 1") [] (T ";") []); [|exact B0|now left|exact B0].
  split; [small|]. exists (T "1 x1"), (T " "), (T " "), (T "1"). split; [|split; [exact B'|]; split; [discriminate|]; split; [exact B'|]; split; [left; vm_compute; reflexivity|reflexivity]].
  split; [small|]. exists (T "1"), (T " "), (T "x1"). split; [left; vm_compute; reflexivity|]. split; [exact B|]. split; [|reflexivity]. split; [small|]. split; [small|]. exists []. split; [reflexivity|vm_compute; reflexivity].
Qed.
Theorem C51_less_refuted : exists ss t i a, opb_file (first_var_idx opb_default) ss t /\ inst_from_opb opb_default t = ROk i /\ inst_holds a i /\ ~ constrs_hold a ss.
Proof.
  destruct (less_read opb_default _ _ _ less_file) as (i & E & Hi); [small|].
  exists [SConstr [(pos 0, 1%Z)] OpLT 1], (T "1 x1 < 1;"), i, (fun _ => true). split; [exact less_file|]. split; [exact E|]. split; [apply Hi; vm_compute; discriminate|].
  intros H. specialize (H _ _ _ (or_introl eq_refl)). vm_compute in H. discriminate.
Qed.
Print Assumptions C51_less_refuted.
(** The largest bound and indices above the largest variable make the reader panic. *)
Theorem C51_panic_refuted : inst_from_opb opb_default (T "1 x1 > 9223372036854775807;") = RPanic /\ inst_from_opb opb_default (T "1 x2147483649 >= 1;") = RPanic.
Proof. split; [vm_compute; reflexivity|vm_compute; reflexivity]. Qed.
Print Assumptions C51_panic_refuted.

(** ** C52 OPB objectives *)

(** A file with one objective, which is minimized *)
Theorem C52_minimize : forall o ss t ts, opb_file (first_var_idx o) ss t -> Forall stmt_fits ss -> no_less ss -> objs_of ss = [(Minimize, ts)] ->
  exists p, opt_from_opb o t = ROk p /\ (forall a, inst_holds a (o_constrs p) <-> constrs_hold a ss) /\ forall a, obj_value a (o_obj p) = zwsum a ts.
Proof.
  intros o ss t ts H Hf Hl Ho. destruct (opt_from_opb_means o ss t Minimize ts H Hf Hl Ho) as (p & E & Hc & _ & Hv); [discriminate|].
  exists p. split; [exact E|]. split; [exact Hc|exact Hv].
Qed.
Print Assumptions C52_minimize.
(** Maximized, with coefficients that are not negative *)
Theorem C52_maximize_partial : forall o ss t ts, opb_file (first_var_idx o) ss t -> Forall stmt_fits ss -> no_less ss -> objs_of ss = [(Maximize, ts)] ->
  (abs_coeffs ts <= isize_max)%Z -> (forall l c, In (l, c) ts -> 0 <= c)%Z ->
  exists p, opt_from_opb o t = ROk p /\ (forall a, inst_holds a (o_constrs p) <-> constrs_hold a ss) /\ forall a, obj_value a (o_obj p) = (- zwsum a ts)%Z.
Proof.
  intros o ss t ts H Hf Hl Ho Ha Hp. destruct (opt_from_opb_means o ss t Maximize ts H Hf Hl Ho) as (p & E & Hc & _ & Hv); [intros _; exact Ha|].
  exists p. split; [exact E|]. split; [exact Hc|]. intros a. rewrite Hv. cbn [read_value]. enough (neg_coeffs ts = 0)%Z by lia.
  clear - Hp. unfold neg_coeffs. induction ts as [|[l c] ts IH]; [reflexivity|]. cbn [map fold_right snd]. rewrite IH by (intros l' c' Hin; apply (Hp l' c'); now right).
  specialize (Hp l c (or_introl eq_refl)). lia.
Qed.
Print Assumptions C52_maximize_partial.
(** Maximized, in general: the value is shifted by twice the sum of the negative coefficients, so the minimizers are right and the value is not. *)
Theorem C52_maximize_reads : forall o ss t ts, opb_file (first_var_idx o) ss t -> Forall stmt_fits ss -> no_less ss -> objs_of ss = [(Maximize, ts)] ->
  (abs_coeffs ts <= isize_max)%Z ->
  exists p, opt_from_opb o t = ROk p /\ (forall a, inst_holds a (o_constrs p) <-> constrs_hold a ss) /\ forall a, obj_value a (o_obj p) = (- zwsum a ts + 2 * neg_coeffs ts)%Z.
Proof.
  intros o ss t ts H Hf Hl Ho Ha. destruct (opt_from_opb_means o ss t Maximize ts H Hf Hl Ho) as (p & E & Hc & _ & Hv); [intros _; exact Ha|].
  exists p. split; [exact E|]. split; [exact Hc|]. intros a. rewrite Hv. cbn [read_value]. lia.
Qed.
Print Assumptions C52_maximize_reads.
Lemma objective_file s c : (0 <= Z.abs c <= isize_max)%Z -> opb_file 1 [SObj s [(pos 0, c)]] (sense_text s ++ T " " ++ print_Z c ++ T " x1;").
Proof.
  intros Hc. assert (B : blanks1 (T " ")) by (split; [intros x [<-|[]]; now left|discriminate]). assert (B' : blanks (T " ")) by apply B. assert (B0 : blanks []) by (intros ? []).
  apply FLast. apply (LStmts 1 [] _ (sense_text s ++ T " " ++ print_Z c ++ T " x1;")); [intros ? []|].
  replace (sense_text s ++ T " " ++ print_Z c ++ T " x1;") with ((sense_text s ++ T " " ++ print_Z c ++ T " x1") ++ [] ++ T ";" ++ []) by (rewrite <- !app_assoc; reflexivity).
  apply (SLast 1 _ _ [] (T ";") []); [|exact B0|now left|exact B0]. exists (T " "), (print_Z c ++ T " x1"). split; [exact B'|]. split; [|reflexivity].
  split; [unfold is_isize, isize_min; cbn [snd]; unfold isize_max in Hc; unfold isize_max; lia|]. exists (print_Z c), (T " "), (T "x1"). split; [now left|]. split; [exact B|]. split; [|reflexivity]. split; [small|]. split; [small|]. exists []. split; [reflexivity|vm_compute; reflexivity].
Qed.
Example C52_objective_ex : forall s, let ss := [SObj s [(pos 0, 3%Z)]] in opb_file 1 ss (sense_text s ++ T " 3 x1;") /\ Forall stmt_fits ss /\ no_less ss /\ objs_of ss = [(s, [(pos 0, 3%Z)])].
Proof.
  intros s ss. split; [apply (objective_file s 3); small|]. split; [constructor; [vm_compute; discriminate|constructor]|]. split; [intros ts b [E|[]]; discriminate|reflexivity].
Qed.
Theorem C52_maximize_refuted : exists ss ts t p a, opb_file (first_var_idx opb_default) ss t /\ objs_of ss = [(Maximize, ts)] /\ opt_from_opb opb_default t = ROk p /\
  zwsum a ts = (-3)%Z /\ obj_value a (o_obj p) = (-3)%Z.
Proof.
  exists [SObj Maximize [(pos 0, (-3)%Z)]], [(pos 0, (-3)%Z)], (T "max: -3 x1;"). eexists. exists (fun _ => true).
  split; [apply (objective_file Maximize (-3)); small|]. split; [reflexivity|]. split; [vm_compute; reflexivity|]. split; [vm_compute; reflexivity|vm_compute; reflexivity].
Qed.
Print Assumptions C52_maximize_refuted.
(** Several objectives *)
Theorem C52_multi_partial : forall o ss t, opb_file (first_var_idx o) ss t -> Forall stmt_fits ss -> no_less ss ->
  (forall s ts, In (s, ts) (objs_of ss) -> s = Maximize -> (abs_coeffs ts <= isize_max)%Z /\ (forall l c, In (l, c) ts -> 0 <= c)%Z) ->
  exists p, mopt_from_opb o t = ROk p /\ (forall a, inst_holds a (mo_constrs p) <-> constrs_hold a ss) /\
    Forall2 (fun st ob => forall a, obj_value a ob = match fst st with Minimize => zwsum a (snd st) | Maximize => (- zwsum a (snd st))%Z end) (objs_of ss) (mo_objs p).
Proof.
  intros o ss t H Hf Hl Hm. destruct (mopt_from_opb_means o ss t H Hf Hl) as (p & E & Hc & HF); [intros s ts Hin Es; now apply (Hm s ts Hin)|].
  exists p. split; [exact E|]. split; [exact Hc|]. clear - HF Hm. induction HF as [|[s ts] ob sts obs [_ Hv] _ IH]; [constructor|].
  constructor; [|apply IH; intros s' ts' Hin; apply Hm; now right]. intros a. rewrite Hv. cbn [fst snd read_value]. destruct s; [reflexivity|]. enough (neg_coeffs ts = 0)%Z by (cbn [read_value]; lia).
  destruct (Hm Maximize ts (or_introl eq_refl) eq_refl) as [_ Hp]. clear - Hp. unfold neg_coeffs. induction ts as [|[l c] ts IH]; [reflexivity|]. cbn [map fold_right snd].
  rewrite IH by (intros l' c' Hin; apply (Hp l' c'); now right). specialize (Hp l c (or_introl eq_refl)). lia.
Qed.
Print Assumptions C52_multi_partial.
Example C52_multi_ex : let ss := [SObj Maximize [(pos 0, 3%Z)]] in opb_file 1 ss (T "max: 3 x1;") /\
  (forall s ts, In (s, ts) (objs_of ss) -> s = Maximize -> (abs_coeffs ts <= isize_max)%Z /\ (forall l c, In (l, c) ts -> 0 <= c)%Z).
Proof.
  intros ss. split; [apply (objective_file Maximize 3); small|]. intros s ts [E|[]] _. injection E as <- <-. split; [small|]. intros l c [E|[]]. injection E as <- <-. lia.
Qed.
(** A file without an objective, or with several, is not an optimization instance, and a file with an objective is not a satisfaction instance. *)
Theorem C52_one_objective : forall o ss t, opb_file (first_var_idx o) ss t -> Forall stmt_fits ss ->
  (List.length (objs_of ss) <> 1%nat -> opt_from_opb o t = RErr) /\ (objs_of ss <> [] -> inst_from_opb o t = RErr).
Proof. intros o ss t H Hf. split; [now apply (opt_objective_err o ss)|now apply (inst_objective_err o ss)]. Qed.
Print Assumptions C52_one_objective.
Example C52_one_objective_ex : opt_from_opb opb_default (T "min: 1 x1; min: 1 x2;") = RErr /\ opt_from_opb opb_default (T "1 x1 >= 1;") = RErr /\ inst_from_opb opb_default (T "min: 1 x1;") = RErr.
Proof. split; [vm_compute; reflexivity|]. split; [vm_compute; reflexivity|vm_compute; reflexivity]. Qed.
