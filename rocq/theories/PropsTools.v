(** * Property theorems about the command line tools (C67) *)

From Coq Require Import List Bool NArith ZArith Ascii String Lia Permutation.
From Coq Require Import ZifyBool ZifyNat ZifyN.
From Verif Require Import Spec EncSpec Types Base ConstrSpec Constraints ConstrEnc Maps NodeDb Inst InstSpec Opt OptSpec Text TextProofs FioSpec DimacsSpec Dimacs DimacsGrammar
  Opb OpbSpec OpbProofs OpbInst Tools ToolSpec ToolText ToolConv ToolProofs ToolOpb.
Import ListNotations.
Open Scope list_scope.

Ltac small := unfold var_fits; change max_var_idx with 2147483647%N; unfold is_isize, isize_min, isize_max, is_usize, usize_max, u32_max; cbn; lia.

(** ** Example files *)

(** Any statements can be written, each on a line *)
Definition sign_text (l : lit) : text := if lneg l then T "~" else [].
Definition put_term (first : N) (e : lit * Z) : text := print_Z (snd e) ++ T " " ++ sign_text (fst e) ++ T "x" ++ print_N (lvar (fst e) + first).
Fixpoint put_sum (first : N) (ts : list (lit * Z)) : text :=
  match ts with [] => [] | [e] => put_term first e | e :: ts' => put_term first e ++ T " " ++ put_sum first ts' end.
Definition put_stmt (first : N) (st : stmt) : text :=
  match st with
  | SConstr ts op b => put_sum first ts ++ (match ts with [] => [] | _ => T " " end) ++ op_text op ++ T " " ++ print_Z b
  | SObj s ts => sense_text s ++ T " " ++ put_sum first ts
  end.
Definition put_file (first : N) (ss : list stmt) : text := flat_map (fun st => line (put_stmt first st ++ T ";")) ss.
Definition fit_term (first : N) (e : lit * Z) : Prop := is_isize (snd e) /\ (lvar (fst e) <= max_var_idx)%N /\ (lvar (fst e) + first <= u32_max)%N.
Definition fit_stmt (first : N) (st : stmt) : Prop := Forall (fit_term first) (stmt_terms st) /\ match st with SConstr _ _ b => is_isize b | SObj _ _ => True end.
Lemma put_sum_ok first ts : Forall (fit_term first) ts -> sum_text first ts (put_sum first ts).
Proof.
  assert (B : blanks1 (T " ")) by exact one_blank.
  assert (Ht : forall e, fit_term first e -> term_text first e (put_term first e)).
  { intros [l z] (H1 & H2 & H3). split; [exact H1|]. exists (print_Z z), (T " "), (sign_text l ++ T "x" ++ print_N (lvar l + first)). split; [now left|]. split; [exact B|]. split; [|reflexivity].
    split; [exact H2|]. split; [exact H3|]. exists (sign_text l). split; [|reflexivity]. cbn [fst]. unfold sign_text. destruct (lneg l); [now left|reflexivity]. }
  induction 1 as [|e ts He Hts IH]; [reflexivity|]. destruct ts as [|e' ts]; [now apply Ht|]. exists (put_term first e), (T " "), (put_sum first (e' :: ts)). split; [now apply Ht|]. split; [exact B|]. now split.
Qed.
Lemma put_file_ok first ss : Forall (fit_stmt first) ss -> opb_file first ss (put_file first ss).
Proof.
  assert (B : blanks (T " ")) by exact (proj1 one_blank). assert (B0 : blanks []) by (intros ? []).
  induction 1 as [|st ss [Ht Hb] _ IH]; [apply FLast, LBlank; intros ? []|]. cbn [put_file flat_map]. unfold line. rewrite <- app_assoc.
  apply (FLine first [st] (put_stmt first st ++ T ";") [nl] ss); [|now left|exact IH]. apply (LStmts first []); [intros ? []|].
  refine (SLast first st (put_stmt first st) [] (T ";") [] _ B0 (or_introl eq_refl) B0).
  destruct st as [ts op b|s ts]; cbn [stmt_text put_stmt stmt_terms] in *.
  - split; [exact Hb|]. exists (put_sum first ts), (match ts with [] => [] | _ => T " " end), (T " "), (print_Z b). split; [now apply put_sum_ok|]. split; [destruct ts; [exact B0|exact B]|].
    split; [intros ->; reflexivity|]. split; [exact B|]. split; [now left|reflexivity].
  - exists (T " "), (put_sum first ts). split; [exact B|]. split; [now apply put_sum_ok|reflexivity].
Qed.
Ltac fit := repeat (apply Forall_cons; [split; [cbn [stmt_terms]; repeat (apply Forall_cons; [split; small|]); apply Forall_nil|first [exact Logic.I|small]]|]); apply Forall_nil.
Ltac below := intros ? Hin; cbn in Hin; decompose [or] Hin; subst; (contradiction || (cbn; lia)).

(** ** C67 Converting files between formats *)

(** The file written by [cnf2opb] is well-formed and has the same solutions. *)
Theorem C67_cnf2opb : forall o t n m f, cnf_file n m f t -> (n <= max_var_idx)%N -> (first_var_idx o <= 2147483648)%N -> (forall c, In c f -> (Z.of_nat (List.length c) < isize_max)%Z) ->
  exists out ss, cnf2opb o t = ROk out /\ opb_file (first_var_idx o) ss out /\ objs_of ss = [] /\ forall a, constrs_hold a ss <-> sat_cnf a f = true.
Proof. exact cnf2opb_spec. Qed.
Print Assumptions C67_cnf2opb.
Definition ex_cnf : cnf := [[pos 0; negl 1]; []; [pos 2]].
Definition ex_cnf_text : text := Eval vm_compute in match write_cnf_annotated ex_cnf 3 with Some t => t | None => [] end.
Lemma ex_cnf_file : cnf_file 3 3 ex_cnf ex_cnf_text.
Proof. apply (cnf_file_written ex_cnf 3); [small|small|vm_compute; reflexivity]. Qed.
Example C67_cnf2opb_ex : cnf_file 3 3 ex_cnf ex_cnf_text /\ (forall c, In c ex_cnf -> (Z.of_nat (List.length c) < isize_max)%Z) /\
  cnf2opb (mkOpbOpts 1 false) ex_cnf_text = ROk (line (T "* #variable = 3 #constraint= 3") ++ line (T "* OPB file written by RustSAT") ++ line (T "* maximum variable: x2") ++
    line (T "* 3 clauses") ++ line (T "* 0 cardinality constraints") ++ line (T "* 0 pseudo-boolean constraints") ++
    line (T "1 x1 1 ~x2 >= 1;") ++ line (T ">= 1;") ++ line (T "1 x3 >= 1;")).
Proof. split; [exact ex_cnf_file|]. split; [|vm_compute; reflexivity]. intros c [<-|[<-|[<-|[]]]]; small. Qed.

(** The file written by [wcnf2opb] is well-formed. Its solutions are solutions of the input and cost at least as much; every solution
    extends to one with the same cost. If negated literals are avoided, the costs differ by a constant. *)
Theorem C67_wcnf2opb : forall lord cord o t n es, orders lord cord -> wcnf_file n es t -> (first_var_idx o <= 2147483648)%N -> opb_softs (softs es) ->
  (forall c, In c (hards es) -> (Z.of_nat (List.length c) < isize_max)%Z) -> (n + N.of_nat (List.length (softs es)) <= max_var_idx)%N ->
  exists out ss, wcnf2opb lord cord o t = ROk out /\ opb_file (first_var_idx o) ss out /\
    stands_for (item_var es) (fun a => sat_cnf a (hards es) = true) (wcnf_costs es) (fun a => constrs_hold a ss) (opb_costs ss) [opb_shift (no_negated_lits o) (softs es)].
Proof. intros lord cord o t n es Ho. exact (wcnf2opb_spec lord cord Ho o t n es). Qed.
Print Assumptions C67_wcnf2opb.
Definition ex_softs : list (clause * nat) := [([pos 0; pos 1], 3%nat); ([negl 0], 2%nat); ([pos 2], 5%nat)].
Definition ex_wcnf_text : text := Eval vm_compute in match write_wcnf_annotated [[pos 0; negl 1; negl 2]] ex_softs 0 (Some 3%N) with Some t => t | None => [] end.
Definition ex_witems : list witem := [([pos 0; negl 1; negl 2], None); ([pos 0; pos 1], Some 3%nat); ([negl 0], Some 2%nat); ([pos 2], Some 5%nat)].
Lemma ex_wcnf_file : wcnf_file 3 ex_witems ex_wcnf_text.
Proof.
  apply (wcnf_file_written [] [[pos 0; negl 1; negl 2]] ex_softs 0 3 3 ex_wcnf_text); [constructor| | | |vm_compute; reflexivity].
  - intros c w Hin. cbn in Hin. decompose [or] Hin; try contradiction; injection H as <- <- || injection H0 as <- <-; small.
  - intros c [<-|[]]. below.
  - intros c w [H|[H|[H|[]]]]; injection H as <- <-; below.
Qed.
Example C67_wcnf2opb_ex : wcnf_file 3 ex_witems ex_wcnf_text /\ opb_softs (softs ex_witems) /\ (forall c, In c (hards ex_witems) -> (Z.of_nat (List.length c) < isize_max)%Z) /\
  (3 + N.of_nat (List.length (softs ex_witems)) <= max_var_idx)%N /\ opb_shift true (softs ex_witems) = (-5)%Z /\ opb_shift false (softs ex_witems) = 0%Z /\
  exists out, wcnf2opb (fun m => m) (fun m => m) (mkOpbOpts 1 false) ex_wcnf_text = ROk out.
Proof.
  split; [exact ex_wcnf_file|]. split; [|split; [|split; [|split; [|split]]]].
  - split; [|split; [|split]]; [| |small|].
    + intros c w [H|[H|[H|[]]]]; injection H as <- <-; lia.
    + intros w [H|[H|[H|[]]]]; discriminate.
    + intros c w [H|[H|[H|[]]]]; injection H as <- <-; small.
  - intros c [<-|[]]. small.
  - small.
  - reflexivity.
  - reflexivity.
  - eexists. vm_compute. reflexivity.
Qed.
Theorem C67_mcnf2opb : forall lord cord o t n es, orders lord cord -> mcnf_file n es t -> (first_var_idx o <= 2147483648)%N -> (forall k, opb_softs (msofts k es)) ->
  (forall c, In c (hards es) -> (Z.of_nat (List.length c) < isize_max)%Z) -> (N.max n 1 + N.of_nat (List.length es) <= max_var_idx)%N ->
  exists out ss, mcnf2opb lord cord o t = ROk out /\ opb_file (first_var_idx o) ss out /\
    stands_for (item_var es) (fun a => sat_cnf a (hards es) = true) (mcnf_costs (n_objs es) es) (fun a => constrs_hold a ss) (opb_costs ss)
      (map (fun k => opb_shift (no_negated_lits o) (msofts k es)) (seq 0 (n_objs es))).
Proof. intros lord cord o t n es Ho. exact (mcnf2opb_spec lord cord Ho o t n es). Qed.
Print Assumptions C67_mcnf2opb.
Definition ex_mitems : list mitem := [([pos 0; negl 1], None); ([pos 0; pos 1], Some (0, 3)%nat); ([negl 0], Some (2, 2)%nat); ([negl 1; pos 2], Some (2, 5)%nat)].
Definition ex_mcnf_text : text := line (T "c example") ++ line (T "h 1 -2 0") ++ line (T "o1 3 1 2 0") ++ line (T "o3 2 -1 0") ++ line (T "o3 5 -2 3 0").
Ltac lits := repeat (eexists (T " "), _; split; [cbn; lia|split; [exact one_blank|split; [|reflexivity]]]); reflexivity.
Ltac soft := apply line_content; exists [], (T " "), (T " "); eexists; split; [lia|split; [small|split; [small|split; [intros ? []|split; [exact one_blank|split; [exact one_blank|split; [eexists; split; [lits|reflexivity]|vm_compute; reflexivity]]]]]]].
Lemma ex_mcnf_file : mcnf_file 3 ex_mitems ex_mcnf_text.
Proof.
  split; [intros e [<-|[<-|[<-|[<-|[]]]]]; below|]. exists (None :: map Some ex_mitems), [T "c example"; T "h 1 -2 0"; T "o1 3 1 2 0"; T "o3 2 -1 0"; T "o3 5 -2 3 0"]. split; [|split; [now left|reflexivity]].
  repeat apply Forall2_cons; try apply Forall2_nil; [|apply line_content; exists (T " "); eexists; split; [exact one_blank|split; [eexists; split; [lits|reflexivity]|vm_compute; reflexivity]]|soft..].
  apply line_comments. apply (comment_text_of (T "example")); [reflexivity|]. exists (T "exampl"), "e"%char. now split.
Qed.
Example C67_mcnf2opb_ex : mcnf_file 3 ex_mitems ex_mcnf_text /\ n_objs ex_mitems = 3%nat /\ (forall k, opb_softs (msofts k ex_mitems)) /\
  (forall c, In c (hards ex_mitems) -> (Z.of_nat (List.length c) < isize_max)%Z) /\ (N.max 3 1 + N.of_nat (List.length ex_mitems) <= max_var_idx)%N /\
  exists out, mcnf2opb (fun m => m) (fun m => m) (mkOpbOpts 1 false) ex_mcnf_text = ROk out.
Proof.
  split; [exact ex_mcnf_file|]. split; [reflexivity|]. split; [|split; [|split]].
  - assert (E : opb_softs []) by (split; [intros ? ? []|split; [intros ? []|split; [small|intros ? ? []]]]). intros [|[|[|k]]]; [|exact E| |exact E].
    + split; [intros c w [H|[]]; injection H as <- <-; lia|]. split; [intros w [H|[]]; discriminate|]. split; [small|]. intros c w [H|[]]; injection H as <- <-; small.
    + split; [intros c w [H|[H|[]]]; injection H as <- <-; lia|]. split; [intros w [H|[H|[]]]; discriminate|]. split; [small|]. intros c w [H|[H|[]]]; injection H as <- <-; small.
  - intros c [<-|[]]. small.
  - small.
  - eexists. vm_compute. reflexivity.
Qed.

(** A soft clause without literals makes the conversion panic. *)
Theorem C67_empty_soft_refuted : exists n es t, wcnf_file n es t /\ positive_softs (softs es) /\ forall lord cord o, orders lord cord -> wcnf2opb lord cord o t = RPanic.
Proof.
  exists 1%N, [([], Some 4%nat)], (line (T "4 0")). split; [|split].
  - split; [intros e [<-|[]]; below|]. left. exists [Some ([], Some 4%nat)], [T "4 0"]. split; [|split; [now left|reflexivity]]. apply Forall2_cons; [|constructor].
    apply line_content. exists (T " "), (T "0"). split; [small|]. split; [exact one_blank|]. split; [now exists []|reflexivity].
  - intros c w [H|[]]. injection H as <- <-. lia.
  - intros lord cord o _. reflexivity.
Qed.
Print Assumptions C67_empty_soft_refuted.

(** The file written by [opb2cnf] is well-formed if the variables and the number of clauses fit. Its solutions are the solutions of the input, on the variables of the
    input, and every solution extends to one of it. This holds only if the variables of the input are counted from 0, if the output is written to a
    file, and for constraints with distinct variables and coefficients other than 0. *)
Theorem C67_opb2cnf_partial : forall ord ord1 ord2 ord3 ord4, iter_order ord -> iter_order ord1 -> iter_order ord2 -> iter_order ord3 -> iter_order ord4 ->
  forall first t ss, opb_file 0 ss t -> Forall stmt_fits ss -> no_less ss -> objs_of ss = [] -> Forall plain_stmt ss ->
  exists i i', inst_from_opb opb_in t = ROk i /\ convert_to_cnf ord ord1 ord2 ord3 ord4 i = Some i' /\
    stands_for (stmt_var ss) (fun a => constrs_hold a ss) (fun _ => []) (fun a => sat_cnf a (i_cnf i') = true) (fun _ => []) [] /\
    ((i_next i' <= max_var_idx)%N -> (N.of_nat (List.length (i_cnf i')) <= usize_max)%N ->
     exists out, opb2cnf ord ord1 ord2 ord3 ord4 first false t = ROk out /\ cnf_file (i_next i') (N.of_nat (List.length (i_cnf i'))) (i_cnf i') out).
Proof. exact opb2cnf_spec. Qed.
Print Assumptions C67_opb2cnf_partial.
Notation same := (fun m => m).
Definition ex_constrs : list stmt := [SConstr [(pos 0, 2%Z); (pos 1, (-1)%Z); (pos 2, 3%Z)] OpGE 2; SConstr [(pos 0, 1%Z); (pos 1, 1%Z)] OpLE 1; SConstr [(pos 0, 2%Z); (negl 2, 2%Z)] OpEQ 2].
Lemma ex_constrs_ok : Forall stmt_fits ex_constrs /\ no_less ex_constrs /\ Forall plain_stmt ex_constrs.
Proof.
  split; [|split].
  - repeat apply Forall_cons; try apply Forall_nil; intros [|]; discriminate.
  - intros ts b H. cbn in H. decompose [or] H; try discriminate; contradiction.
  - repeat apply Forall_cons; try apply Forall_nil.
    + split; [repeat (apply NoDup_cons; [cbn; intuition discriminate|]); apply NoDup_nil|]. split; [|discriminate]. intros e [<-|[<-|[<-|[]]]]; discriminate.
    + split; [repeat (apply NoDup_cons; [cbn; intuition discriminate|]); apply NoDup_nil|]. split; [|discriminate]. intros e [<-|[<-|[]]]; discriminate.
    + split; [repeat (apply NoDup_cons; [cbn; intuition discriminate|]); apply NoDup_nil|]. split; [intros e [<-|[<-|[]]]; discriminate|]. intros _ _ u Hu. rewrite <- (Hu _ (or_introl eq_refl)). exists 1%Z. reflexivity.
Qed.
Example C67_opb2cnf_ex : opb_file 0 ex_constrs (put_file 0 ex_constrs) /\ Forall stmt_fits ex_constrs /\ no_less ex_constrs /\ objs_of ex_constrs = [] /\ Forall plain_stmt ex_constrs /\
  put_file 0 ex_constrs = line (T "2 x0 -1 x1 3 x2 >= 2;") ++ line (T "1 x0 1 x1 <= 1;") ++ line (T "2 x0 2 ~x2 = 2;") /\
  opb2cnf same same same same same 1 false (put_file 0 ex_constrs) = ROk (line (T "c CNF file written by RustSAT") ++ line (T "p cnf 10 13") ++ line (T "3 5 0") ++ line (T "-2 -5 4 0") ++
    line (T "1 3 7 0") ++ line (T "-7 6 0") ++ line (T "-2 -7 8 0") ++ line (T "-4 0") ++ line (T "-6 0") ++ line (T "-8 0") ++ line (T "-1 -2 0") ++ line (T "-1 3 9 0") ++ line (T "1 -3 -10 0") ++
    line (T "-9 0") ++ line (T "10 0")).
Proof.
  split; [apply put_file_ok; fit|]. split; [apply ex_constrs_ok|]. split; [apply ex_constrs_ok|]. split; [reflexivity|]. split; [apply ex_constrs_ok|]. split; [reflexivity|]. vm_compute. reflexivity.
Qed.

(** The file written by [opb2wcnf] also has the same costs, up to a constant that is only written in a comment. *)
Theorem C67_opb2wcnf_partial : forall lord cord, orders lord cord ->
  forall ord ord1 ord2 ord3 ord4, iter_order ord -> iter_order ord1 -> iter_order ord2 -> iter_order ord3 -> iter_order ord4 ->
  forall first to_stdout t ss, opb_file 0 ss t -> Forall stmt_fits ss -> no_less ss -> List.length (objs_of ss) = 1%nat -> Forall plain_stmt ss ->
  exists p c c', opt_from_opb opb_in t = ROk p /\ inst_sanitize (fst (opt_decompose p)) = Some c /\ convert_to_cnf ord ord1 ord2 ord3 ord4 c = Some c' /\
    ((i_next c' <= max_var_idx)%N -> exists out es, opb2wcnf lord cord ord ord1 ord2 ord3 ord4 first to_stdout t = ROk out /\ wcnf_file (N.max (i_next c') 1) es out /\
     stands_for (stmt_var ss) (fun a => constrs_hold a ss) (opb_costs ss) (fun a => sat_cnf a (hards es) = true) (wcnf_costs es) (map soft_shift (objs_of ss))).
Proof. exact opb2wcnf_spec. Qed.
Print Assumptions C67_opb2wcnf_partial.
Definition ex_min : stmt := SObj Minimize [(pos 0, 3%Z); (negl 3, (-2)%Z)].
Definition ex_max : stmt := SObj Maximize [(pos 1, 1%Z); (pos 2, (-4)%Z)].
Lemma ex_objs_ok : Forall (fun st => stmt_fits st /\ plain_stmt st) [ex_min; ex_max].
Proof.
  repeat apply Forall_cons; try apply Forall_nil; (split; [vm_compute; discriminate|split; [vm_compute; discriminate|]]); intros e [<-|[<-|[]]]; discriminate.
Qed.
Lemma ex_opb_ok os : (forall st, In st os -> st = ex_min \/ st = ex_max) ->
  opb_file 0 (os ++ ex_constrs) (put_file 0 (os ++ ex_constrs)) /\ Forall stmt_fits (os ++ ex_constrs) /\ no_less (os ++ ex_constrs) /\ Forall plain_stmt (os ++ ex_constrs).
Proof.
  intros H. pose proof ex_objs_ok as Ho. pose proof ex_constrs_ok as (H1 & H2 & H3). rewrite Forall_forall in Ho. assert (Hi : forall st, In st os -> In st [ex_min; ex_max]) by (intros st Hin; destruct (H st Hin) as [->| ->]; [now left|right; now left]).
  split; [|split; [|split]].
  - apply put_file_ok. apply Forall_app. split; [|fit]. apply Forall_forall. intros st Hin. assert (F : Forall (fit_stmt 0) [ex_min; ex_max]) by fit. rewrite Forall_forall in F. apply F, Hi, Hin.
  - apply Forall_app. split; [|exact H1]. apply Forall_forall. intros st Hin. apply Ho, Hi, Hin.
  - intros ts b Hin. apply in_app_iff in Hin as [Hin|Hin]; [destruct (H _ Hin); discriminate|exact (H2 ts b Hin)].
  - apply Forall_app. split; [|exact H3]. apply Forall_forall. intros st Hin. apply Ho, Hi, Hin.
Qed.
Example C67_opb2wcnf_ex : let ss := [ex_max] ++ ex_constrs in let t := put_file 0 ss in opb_file 0 ss t /\ Forall stmt_fits ss /\ no_less ss /\ List.length (objs_of ss) = 1%nat /\ Forall plain_stmt ss /\
  map soft_shift (objs_of ss) = [1%Z] /\ exists out, opb2wcnf same same same same same same same 1 true t = ROk out /\ starts_with (line (T "c 1 clauses") ++ line (T "c 1 cards") ++ line (T "c 1 pbs")) out = true.
Proof.
  intros ss t. destruct (ex_opb_ok [ex_max]) as (H1 & H2 & H3 & H4); [intros st [<-|[]]; now right|]. split; [exact H1|]. split; [exact H2|]. split; [exact H3|]. split; [reflexivity|]. split; [exact H4|]. split; [reflexivity|].
  destruct (opb2wcnf same same same same same same same 1 true t) as [out| |] eqn:E; [exists out; split; [reflexivity|]|vm_compute in E; discriminate|vm_compute in E; discriminate].
  vm_compute in E. injection E as <-. reflexivity.
Qed.

(** The same for several objectives; objectives without soft clauses at the end are lost. *)
Theorem C67_opb2mcnf_partial : forall lord cord, orders lord cord ->
  forall ord ord1 ord2 ord3 ord4, iter_order ord -> iter_order ord1 -> iter_order ord2 -> iter_order ord3 -> iter_order ord4 ->
  forall first to_stdout t ss, opb_file 0 ss t -> Forall stmt_fits ss -> no_less ss -> (N.of_nat (List.length (objs_of ss)) <= usize_max)%N -> Forall plain_stmt ss ->
  exists p c c', mopt_from_opb opb_in t = ROk p /\ inst_sanitize (fst (mopt_decompose p)) = Some c /\ convert_to_cnf ord ord1 ord2 ord3 ord4 c = Some c' /\
    ((i_next c' <= max_var_idx)%N -> exists out es, opb2mcnf lord cord ord ord1 ord2 ord3 ord4 first to_stdout t = ROk out /\ mcnf_file (N.max (i_next c') 1) es out /\
     (n_objs es <= List.length (objs_of ss))%nat /\
     stands_for (stmt_var ss) (fun a => constrs_hold a ss) (opb_costs ss) (fun a => sat_cnf a (hards es) = true) (mcnf_costs (List.length (objs_of ss)) es) (map soft_shift (objs_of ss))).
Proof. exact opb2mcnf_spec. Qed.
Print Assumptions C67_opb2mcnf_partial.
Example C67_opb2mcnf_ex : let ss := [ex_min; ex_max] ++ ex_constrs in let t := put_file 0 ss in opb_file 0 ss t /\ Forall stmt_fits ss /\ no_less ss /\ (N.of_nat (List.length (objs_of ss)) <= usize_max)%N /\ Forall plain_stmt ss /\
  map soft_shift (objs_of ss) = [2%Z; 1%Z] /\ exists out, opb2mcnf same same same same same same same 1 true t = ROk out.
Proof.
  intros ss t. destruct (ex_opb_ok [ex_min; ex_max]) as (H1 & H2 & H3 & H4); [intros st [<-|[<-|[]]]; [now left|now right]|]. split; [exact H1|]. split; [exact H2|]. split; [exact H3|]. split; [small|]. split; [exact H4|]. split; [reflexivity|].
  eexists. vm_compute. reflexivity.
Qed.

(** The full claim is false. The conversions from OPB do not use the option for the index of the first variable: converting there and back with the same
    option changes the variables. *)
Theorem C67_first_index_refuted : exists t t1 t2, cnf_file 1 1 [[pos 0]] t /\ cnf2opb opb_default t = ROk t1 /\
  opb2cnf same same same same same (first_var_idx opb_default) false t1 = ROk t2 /\ cnf_file 2 1 [[pos 1]] t2.
Proof.
  exists (match write_cnf_annotated [[pos 0]] 1 with Some t => t | None => [] end), (line (T "* #variable = 1 #constraint= 1") ++ line (T "* OPB file written by RustSAT") ++ line (T "* maximum variable: x0") ++
    line (T "* 1 clauses") ++ line (T "* 0 cardinality constraints") ++ line (T "* 0 pseudo-boolean constraints") ++ line (T "1 x1 >= 1;")), (match write_cnf_annotated [[pos 1]] 2 with Some t => t | None => [] end).
  split; [apply (cnf_file_written [[pos 0]] 1); [small|small|vm_compute; reflexivity]|]. split; [vm_compute; reflexivity|]. split; [vm_compute; reflexivity|].
  apply (cnf_file_written [[pos 1]] 2); [small|small|vm_compute; reflexivity].
Qed.
Print Assumptions C67_first_index_refuted.
(** What [opb2cnf] writes to the standard output is not a CNF file: it starts with numbers of constraints that are not comments. *)
Theorem C67_stdout_refuted : exists t out, opb_file 0 ex_constrs t /\ opb2cnf same same same same same 0 true t = ROk out /\ inst_from_dimacs out = RErr.
Proof.
  exists (put_file 0 ex_constrs). destruct (opb2cnf same same same same same 0 true (put_file 0 ex_constrs)) as [out| |] eqn:E; [exists out|vm_compute in E; discriminate|vm_compute in E; discriminate].
  split; [apply put_file_ok; fit|]. split; [reflexivity|]. vm_compute in E. injection E as <-. vm_compute. reflexivity.
Qed.
Print Assumptions C67_stdout_refuted.
(** [opb2cnf] does not join the coefficients of a literal that occurs twice: the constraint [2 x0 2 x0 1 x1 <= 3] is lost. *)
Theorem C67_repeated_refuted : exists ss t out n m f a, opb_file 0 ss t /\ Forall stmt_fits ss /\ opb2cnf same same same same same 0 false t = ROk out /\ cnf_file n m f out /\ sat_cnf a f = true /\ ~ constrs_hold a ss.
Proof.
  exists [SConstr [(pos 0, 2%Z); (pos 0, 2%Z); (pos 1, 1%Z)] OpLE 3]. eexists. exists (match write_cnf_annotated [] 2 with Some t => t | None => [] end), 2%N, 0%N, [], (fun _ => true).
  split; [apply put_file_ok; fit|]. split; [repeat apply Forall_cons; try apply Forall_nil; intros [|]; discriminate|]. split; [vm_compute; reflexivity|]. split; [apply (cnf_file_written [] 2); [small|small|vm_compute; reflexivity]|]. split; [reflexivity|].
  intros H. specialize (H _ _ _ (or_introl eq_refl)). vm_compute in H. now apply H.
Qed.
Print Assumptions C67_repeated_refuted.
(** [opb2cnf] panics on an equality without solutions, e.g. [2 x0 2 x1 = 3]. *)
Theorem C67_indivisible_refuted : exists ss t, opb_file 0 ss t /\ Forall stmt_fits ss /\ opb2cnf same same same same same 0 false t = RPanic.
Proof.
  exists [SConstr [(pos 0, 2%Z); (pos 1, 2%Z)] OpEQ 3]. eexists. split; [apply put_file_ok; fit|]. split; [repeat apply Forall_cons; try apply Forall_nil; intros [|]; discriminate|]. vm_compute. reflexivity.
Qed.
Print Assumptions C67_indivisible_refuted.
(** Negative coefficients of an objective change the costs by a constant. *)
Theorem C67_offset_refuted : exists ss t out es a, opb_file 0 ss t /\ opb2wcnf same same same same same same same 0 false t = ROk out /\ wcnf_file 1 es out /\ opb_costs ss a = [(-2)%Z] /\ wcnf_costs es a = [0%Z].
Proof.
  exists [SObj Minimize [(pos 0, (-2)%Z)]]. eexists. exists (match write_wcnf_annotated [] [([pos 0], 2%nat)] (-2) (Some 1%N) with Some t => t | None => [] end), [([pos 0], Some 2%nat)], (fun _ => true).
  split; [apply put_file_ok; fit|]. split; [vm_compute; reflexivity|]. split; [|now split].
  apply (wcnf_file_written [] [] [([pos 0], 2%nat)] (-2) 1 1); [constructor| |intros ? []| |vm_compute; reflexivity]; intros c w [H|[]]; injection H as <- <-; [small|below].
Qed.
Print Assumptions C67_offset_refuted.
