(** * Properties of reading and writing DIMACS files *)

From Coq Require Import List Bool NArith ZArith Ascii String Lia Permutation.
From Coq Require Import ZifyBool ZifyNat ZifyN.
From Verif Require Import Spec Types Base Constraints Inst InstSpec Opt OptSpec OptProofs Text TextProofs FioSpec Dimacs DimacsSpec DimacsProofs DimacsGrammar.
Import ListNotations.
Open Scope list_scope.

Ltac fits := unfold is_usize, usize_max; cbn; lia.

(** ** C47 DIMACS CNF round trip *)

Theorem C47_cnf_round_trip : forall f n, (n <= u32_max)%N -> is_usize (List.length f) -> (forall c, In c f -> dimacs_lits c) ->
  exists t, write_cnf_annotated f n = Some t /\ read_cnf t = ROk (n, N.of_nat (List.length f), map CClause f).
Proof. intros f n Hn Hl Hc. destruct (write_cnf_some f n Hc) as [t E]. exists t. split; [exact E|]. now apply cnf_round_trip. Qed.
Print Assumptions C47_cnf_round_trip.
Example C47_cnf_round_trip_ex : let f := [[pos 0; negl 11]; []; [negl 2147483646]] in (12 <= u32_max)%N /\ is_usize (List.length f) /\ (forall c, In c f -> dimacs_lits c) /\
  write_cnf_annotated f 12 = Some (line (T "c CNF file written by RustSAT") ++ line (T "p cnf 12 3") ++ line (T "1 -12 0") ++ line (T "0") ++ line (T "-2147483647 0")).
Proof.
  intros f. split; [unfold u32_max; lia|]. split; [fits|]. split; [|vm_compute; reflexivity].
  intros c [<-|[<-|[<-|[]]]] l Hl; cbn in Hl; intuition (subst; cbn; lia).
Qed.

Theorem C47_instance_round_trip : forall i t, inst_known i -> (i_next i <= max_var_idx)%N -> is_usize (List.length (i_cnf i)) ->
  inst_write_dimacs i = ROk t -> inst_from_dimacs t = ROk i.
Proof.
  intros i t Hk. apply inst_round_trip. intros c Hc l Hl. apply Hk. unfold inst_lits. apply in_or_app. left. apply in_concat. eauto.
Qed.
Print Assumptions C47_instance_round_trip.
Example C47_instance_round_trip_ex : let i := mkInst [[pos 0; negl 1]; [pos 2]] [] [] 5 in inst_known i /\
  inst_write_dimacs i = ROk (line (T "c CNF file written by RustSAT") ++ line (T "p cnf 5 2") ++ line (T "1 -2 0") ++ line (T "3 0")).
Proof. intros i. split; [intros l Hl; cbn in Hl; intuition (subst; cbn; lia)|vm_compute; reflexivity]. Qed.

(** Writing succeeds exactly if there are only clauses and every variable has a DIMACS number. *)
Theorem C47_write_ok : forall i, (exists t, inst_write_dimacs i = ROk t) <-> i_cards i = [] /\ i_pbs i = [] /\ forall c, In c (i_cnf i) -> dimacs_lits c.
Proof. exact inst_write_ok. Qed.
Print Assumptions C47_write_ok.
(** The largest variable has no DIMACS number, and writing it panics. *)
Theorem C47_write_refuted : var_new max_var_idx = Some max_var_idx /\ inst_write_dimacs (mkInst [[pos max_var_idx]] [] [] (max_var_idx + 1)) = RPanic.
Proof. split; vm_compute; reflexivity. Qed.
Print Assumptions C47_write_refuted.
(** A file written line by line with its header cannot be read. *)
Theorem C47_lines_refuted : forall n m ls t, write_cnf (LHeader n m :: ls) = Some t -> read_cnf t = RErr.
Proof. exact header_unreadable. Qed.
Print Assumptions C47_lines_refuted.
Example C47_lines_ex : exists t, write_cnf [LHeader 2 1; LClause [pos 0; negl 1]] = Some t.
Proof. eexists; vm_compute; reflexivity. Qed.

(** ** C48 WCNF round trip *)

Theorem C48_wcnf_round_trip : forall f softs offset nv, (forall c, In c f -> dimacs_lits c) -> (forall c w, In (c, w) softs -> dimacs_lits c /\ is_usize w) ->
  exists t, write_wcnf_annotated f softs offset nv = Some t /\
    read_wcnf t = ROk (None, map WHard f ++ map (fun e => WSoft (snd e) (fst e)) softs).
Proof.
  intros f softs offset nv Hf Hs. destruct (write_wcnf_some f softs offset nv Hf) as [t E]; [intros c w H; now apply (Hs c w)|].
  exists t. split; [exact E|]. apply (wcnf_round_trip f softs offset nv t); [|exact E]. intros c w H. now apply (Hs c w).
Qed.
Print Assumptions C48_wcnf_round_trip.
Example C48_wcnf_round_trip_ex : let f := [[pos 0; negl 1]] in let softs := [([pos 1], 3%nat); ([], 1%nat)] in
  (forall c, In c f -> dimacs_lits c) /\ (forall c w, In (c, w) softs -> dimacs_lits c /\ is_usize w) /\
  write_wcnf_annotated f softs (-7) (Some 2%N) = Some (line (T "c WCNF file written by RustSAT") ++ line (T "c 2 variables") ++ line (T "c 1 hard clauses") ++
    line (T "c 2 soft clauses") ++ line (T "c objective offset: -7") ++ line (T "h 1 -2 0") ++ line (T "3 2 0") ++ line (T "1 0")).
Proof.
  intros f softs. split; [intros c [<-|[]] l Hl; cbn in Hl; intuition (subst; cbn; lia)|]. split; [|vm_compute; reflexivity].
  intros c w [H|[H|[]]]; injection H as <- <-; (split; [intros l Hl; cbn in Hl; intuition (subst; cbn; lia)|fits]).
Qed.

(** The instance read back has the same hard clauses and gives every soft clause the same weight; its cost function is that of
    the instance written, without the offset. *)
Theorem C48_instance_round_trip : forall lord cord p t, orders lord cord -> (forall c w, In (c, w) (obj_softs (o_obj p)) -> is_usize w) ->
  opt_write_dimacs lord cord p = ROk t ->
  exists p', opt_from_dimacs t = ROk p' /\ i_cnf (o_constrs p') = i_cnf (o_constrs p) /\ i_cards (o_constrs p') = [] /\ i_pbs (o_constrs p') = [] /\
    same_softs (obj_softs (o_obj p')) (obj_softs (o_obj p)) /\
    (forall a, obj_value a (o_obj p') = obj_value a (o_obj p) - obj_offset (o_obj p))%Z /\ obj_wf (o_obj p').
Proof. exact opt_round_trip. Qed.
Print Assumptions C48_instance_round_trip.
Example C48_instance_round_trip_ex : let p := mkOpt (mkInst [[pos 0; pos 1]] [] [] 2) (OWeighted 4 [(pos 0, 3%nat)] [([pos 0; negl 1], 2%nat)]) in
  orders (fun m => m) (fun m => m) /\ (forall c w, In (c, w) (obj_softs (o_obj p)) -> is_usize w) /\ exists t, opt_write_dimacs (fun m => m) (fun m => m) p = ROk t /\
  opt_from_dimacs t = ROk (mkOpt (mkInst [[pos 0; pos 1]] [] [] 2) (OWeighted 0 [(pos 0, 3%nat)] [([pos 0; negl 1], 2%nat)])).
Proof.
  intros p. split; [split; intros; apply Permutation_refl|]. split; [intros c w [H|[H|[]]]; injection H as <- <-; fits|].
  eexists. split; [vm_compute; reflexivity|vm_compute; reflexivity].
Qed.
Theorem C48_write_ok : forall lord cord p, orders lord cord -> (exists t, opt_write_dimacs lord cord p = ROk t) <->
  i_cards (o_constrs p) = [] /\ i_pbs (o_constrs p) = [] /\ (forall c, In c (i_cnf (o_constrs p)) -> dimacs_lits c) /\
  (forall c w, In (c, w) (obj_softs (o_obj p)) -> dimacs_lits c).
Proof. exact opt_write_ok. Qed.
Print Assumptions C48_write_ok.
(** The offset is only written as a comment: the instance read has other costs. *)
Theorem C48_offset_refuted : exists p t p', opt_write_dimacs (fun m => m) (fun m => m) p = ROk t /\ opt_from_dimacs t = ROk p' /\
  forall a, obj_value a (o_obj p') <> obj_value a (o_obj p).
Proof.
  exists (mkOpt (mkInst [[pos 0]] [] [] 1) (OWeighted 4 [(pos 0, 1%nat)] [])). eexists. eexists. split; [vm_compute; reflexivity|]. split; [vm_compute; reflexivity|].
  intros a. unfold obj_value. cbn. destruct (a 0%N); cbn; lia.
Qed.
Print Assumptions C48_offset_refuted.

(** Files written line by line: read back if there are no comments; a comment swallows the line after it. *)
Theorem C48_lines_partial : forall ls t, (forall s, ~ In (LWComment s) ls) -> (forall c w, In (LWSoft c w) ls -> is_usize w) ->
  write_wcnf ls = Some t ->
  read_wcnf t = ROk (None, flat_map (fun l => match l with LWComment _ => [] | LWHard c => [WHard c] | LWSoft c w => [WSoft w c] end) ls).
Proof. exact wcnf_lines_round_trip. Qed.
Print Assumptions C48_lines_partial.
Example C48_lines_ex : let ls := [LWHard [pos 0]; LWSoft [negl 1] 4] in (forall s, ~ In (LWComment s) ls) /\
  write_wcnf ls = Some (line (T "h 1 0") ++ line (T "4 -2 0")).
Proof. intros ls. split; [intros s [H|[H|[]]]; discriminate|vm_compute; reflexivity]. Qed.
Theorem C48_lines_refuted : exists t, write_wcnf [LWComment (T "comment"); LWHard [pos 0]; LWSoft [pos 1] 2] = Some t /\ read_wcnf t = ROk (None, [WSoft 2 [pos 1]]).
Proof. eexists. split; [vm_compute; reflexivity|vm_compute; reflexivity]. Qed.
Print Assumptions C48_lines_refuted.

(** ** C49 MCNF round trip *)

Theorem C49_mcnf_round_trip : forall f softs nv, is_usize (List.length softs) -> (forall c, In c f -> dimacs_lits c) ->
  (forall o z c w, In (o, z) softs -> In (c, w) o -> dimacs_lits c /\ is_usize w) ->
  exists t cms, write_mcnf_annotated f softs nv = Some t /\
    read_mcnf t = ROk (map MComment cms ++ map MHard f ++
      flat_map (fun io => map (fun e => MSoft (fst io) (snd e) (fst e)) (snd io)) (combine (seq 1 (List.length softs)) (map fst softs))).
Proof.
  intros f softs nv Hn Hf Hs. destruct (write_mcnf_some f softs nv Hf) as [t E]; [intros o z c w H1 H2; now apply (Hs o z c w)|].
  destruct (mcnf_round_trip f softs nv t Hn) with (2 := E) as [cms Hr]; [intros o z c w H1 H2; now apply (Hs o z c w)|].
  exists t, cms. split; [exact E|]. rewrite Hr, <- (map_length fst softs).
  apply (f_equal (fun x => ROk (map MComment cms ++ map MHard f ++ x))). apply mcnf_objs_flat.
Qed.
Print Assumptions C49_mcnf_round_trip.
Example C49_mcnf_round_trip_ex : let softs := [([([pos 1], 3%nat)], 0%Z); ([], 2%Z); ([([pos 0; pos 1], 1%nat)], 5%Z)] in
  is_usize (List.length softs) /\ (forall o z c w, In (o, z) softs -> In (c, w) o -> dimacs_lits c /\ is_usize w) /\
  option_map read_mcnf (write_mcnf_annotated [[pos 0; negl 1]] softs None) = Some (ROk (map MComment
    [T "c MCNF file written by RustSAT"; T "c 1 hard clauses"; T "c 3 objectives"; T "c ( 1 0 1 ) soft clauses"; T "c objective offsets: ( 0 2 5 )"] ++
    [MHard [pos 0; negl 1]; MSoft 1 3 [pos 1]; MSoft 3 1 [pos 0; pos 1]])).
Proof.
  intros softs. split; [fits|]. split; [|vm_compute; reflexivity].
  intros o z c w [H|[H|[H|[]]]]; injection H as <- <-; intros Hc; cbn in Hc; [destruct Hc as [H|[]]|destruct Hc|destruct Hc as [H|[]]]; injection H as <- <-; (split; [intros l Hl; cbn in Hl; intuition (subst; cbn; lia)|fits]).
Qed.

Theorem C49_instance_round_trip : forall lord cord p t, orders lord cord -> is_usize (List.length (mo_objs p)) ->
  (forall o c w, In o (mo_objs p) -> In (c, w) (obj_softs o) -> is_usize w) ->
  mopt_write_dimacs lord cord p = ROk t ->
  exists p', mopt_from_dimacs t = ROk p' /\ i_cnf (mo_constrs p') = i_cnf (mo_constrs p) /\ i_cards (mo_constrs p') = [] /\ i_pbs (mo_constrs p') = [] /\
    (List.length (mo_objs p') <= List.length (mo_objs p))%nat /\
    (mo_objs p <> [] -> obj_softs (last (mo_objs p) obj_new) <> [] -> List.length (mo_objs p') = List.length (mo_objs p)) /\
    (forall j, let o' := nth j (mo_objs p') obj_new in let o := nth j (mo_objs p) obj_new in
       same_softs (obj_softs o') (obj_softs o) /\ obj_wf o' /\ forall a, (obj_value a o' = obj_value a o - obj_offset o)%Z).
Proof. exact mopt_round_trip. Qed.
Print Assumptions C49_instance_round_trip.
Example C49_instance_round_trip_ex : let p := mkMopt (mkInst [[pos 0; pos 1]] [] [] 2) [OWeighted 0 [(pos 0, 3%nat)] []; OWeighted 0 [] []; OWeighted 0 [] [([pos 0; negl 1], 2%nat)]] in
  orders (fun m => m) (fun m => m) /\ is_usize (List.length (mo_objs p)) /\ (forall o c w, In o (mo_objs p) -> In (c, w) (obj_softs o) -> is_usize w) /\
  exists t, mopt_write_dimacs (fun m => m) (fun m => m) p = ROk t.
Proof.
  intros p. split; [split; intros; apply Permutation_refl|]. split; [fits|].
  split; [|eexists; vm_compute; reflexivity]. intros o c w [<-|[<-|[<-|[]]]] H; cbn in H; intuition (repeat match goal with H : (_, _) = (_, _) |- _ => injection H as <- <- end; fits).
Qed.
Theorem C49_write_ok : forall lord cord p, orders lord cord -> (exists t, mopt_write_dimacs lord cord p = ROk t) <->
  i_cards (mo_constrs p) = [] /\ i_pbs (mo_constrs p) = [] /\ (forall c, In c (i_cnf (mo_constrs p)) -> dimacs_lits c) /\
  (forall o c w, In o (mo_objs p) -> In (c, w) (obj_softs o) -> dimacs_lits c).
Proof. exact mopt_write_ok. Qed.
Print Assumptions C49_write_ok.
(** Objectives without soft clauses at the end are lost, and so are all offsets. *)
Theorem C49_empty_objective_refuted : exists p t p', mopt_write_dimacs (fun m => m) (fun m => m) p = ROk t /\ mopt_from_dimacs t = ROk p' /\
  List.length (mo_objs p) = 2%nat /\ List.length (mo_objs p') = 1%nat.
Proof.
  exists (mkMopt (mkInst [[pos 0]] [] [] 1) [OWeighted 0 [(pos 0, 1%nat)] []; OWeighted 5 [] []]). eexists. eexists. split; [vm_compute; reflexivity|]. split; [vm_compute; reflexivity|]. split; reflexivity.
Qed.
Print Assumptions C49_empty_objective_refuted.
Theorem C49_lines : forall ls t, (forall s, In (LMComment s) ls -> good_comment s) ->
  (forall c w idx, In (LMSoft c w idx) ls -> is_usize w /\ is_usize (idx + 1)) -> write_mcnf ls = Some t ->
  read_mcnf t = ROk (flat_map (fun l => match l with LMComment t => [MComment (T "c " ++ t)] | LMHard c => [MHard c] | LMSoft c w idx => [MSoft (idx + 1) w c] end) ls).
Proof. exact mcnf_lines_round_trip. Qed.
Print Assumptions C49_lines.
Example C49_lines_ex : let ls := [LMComment (T "x y"); LMHard [pos 0]; LMSoft [negl 1] 4 1] in (forall s, In (LMComment s) ls -> good_comment s) /\
  write_mcnf ls = Some (line (T "c x y") ++ line (T "h 1 0") ++ line (T "o 2 4 -2 0")).
Proof.
  intros ls. split; [|vm_compute; reflexivity]. intros s [H|[H|[H|[]]]]; try discriminate. injection H as <-. split; [reflexivity|]. split; [reflexivity|discriminate].
Qed.

(** ** C61 Reading well-formed files *)

Ltac wht := intros ? ?; cbn in *; intuition (subst; (reflexivity || discriminate || (left; reflexivity) || (right; reflexivity))).
Ltac blk := first [wht | split; [wht|discriminate]].
Ltac rows := repeat apply Forall2_cons; try apply Forall2_nil.
Ltac around w w' := exists w, w'; split; [wht|split; [wht|reflexivity]].

Theorem C61_cnf_file : forall n m pre hdr ds body t, comment_lines pre -> (exists h, cnf_header_text n m h /\ line_with h hdr) ->
  Forall2 (line_means (fun s => Some (CComment s)) cnf_content) ds body ->
  lines_of (pre ++ hdr :: body) t -> read_cnf t = ROk (n, m, present ds).
Proof. exact read_cnf_file. Qed.
Print Assumptions C61_cnf_file.
Example C61_cnf_file_ex : let pre := [T "c comment" ++ [cr]; T "  "] in let hdr := T " p  cnf 3 2" ++ [cr] in
  let body := [T "1" ++ [tab] ++ T "-2 0"; T "  c x"; []; T " 3 0 "] in
  let ds := [Some (CClause [pos 0; negl 1]); Some (CComment (T "c x")); None; Some (CClause [pos 2])] in
  let t := flat_map (fun l => l ++ [nl]) (pre ++ [hdr; T "1" ++ [tab] ++ T "-2 0"; T "  c x"; []]) ++ T " 3 0 " in
  comment_lines pre /\ (exists h, cnf_header_text 3 2 h /\ line_with h hdr) /\ Forall2 (line_means (fun s => Some (CComment s)) cnf_content) ds body /\
  lines_of (pre ++ hdr :: body) t.
Proof.
  intros pre hdr body ds t. split; [|split; [|split]].
  - intros l [<-|[<-|[]]]; [right|left; wht]. exists (T "c comment"). split; [|around (@nil ascii) [cr]].
    split; [wht|]. split; [eexists; reflexivity|reflexivity].
  - exists (T "p  cnf 3 2"). split; [|around (T " ") [cr]]. exists (T "  "), (T " "), (T " ").
    split; [unfold u32_max; lia|]. split; [unfold usize_max; lia|]. split; [blk|]. split; [blk|]. split; [blk|]. reflexivity.
  - rows.
    + right; right. eexists. exists (T "1" ++ [tab] ++ T "-2 0"). split; [|split; [|reflexivity]]; [|around (@nil ascii) (@nil ascii)]. eexists. split; [reflexivity|]. exists (T "1" ++ [tab] ++ T "-2 "). split; [|reflexivity].
      exists [tab], (T "-2 "). split; [cbn; lia|]. split; [blk|]. split; [|reflexivity]. exists (T " "), []. split; [cbn; lia|]. split; [blk|]. split; reflexivity.
    + right; left. exists (T "c x"). split; [|split; [around (T "  ") (@nil ascii)|reflexivity]]. split; [wht|]. split; [eexists; reflexivity|reflexivity].
    + left. split; [wht|reflexivity].
    + right; right. eexists. exists (T "3 0"). split; [|split; [|reflexivity]]; [|around (T " ") (T " ")]. eexists. split; [reflexivity|]. exists (T "3 "). split; [|reflexivity].
      exists (T " "), []. split; [cbn; lia|]. split; [blk|]. split; reflexivity.
  - right. exists (pre ++ [hdr; T "1" ++ [tab] ++ T "-2 0"; T "  c x"; []]), (T " 3 0 "). split; [reflexivity|]. split; [discriminate|reflexivity].
Qed.
Theorem C61_wcnf_file : forall pre ds ls t, comment_lines pre ->
  Forall2 (line_means (fun s => Some (WComment s)) wcnf_content) ds ls ->
  (forall d, hd_error (present ds) = Some d -> is_wcomment d = false) ->
  lines_of (pre ++ ls) t -> read_wcnf t = ROk (None, present ds).
Proof. exact read_wcnf_file. Qed.
Print Assumptions C61_wcnf_file.
Example C61_wcnf_file_ex : let ls := [T "h  1 0"; []; T "5 -1 0"] in let ds := [Some (WHard [pos 0]); None; Some (WSoft 5 [negl 0])] in
  Forall2 (line_means (fun s => Some (WComment s)) wcnf_content) ds ls /\ (forall d, hd_error (present ds) = Some d -> is_wcomment d = false) /\
  lines_of ([] ++ ls) (flat_map (fun l => l ++ [nl]) ls).
Proof.
  intros ls ds. split; [|split].
  - rows.
    + right; right. eexists. exists (T "h  1 0"). split; [|split; [|reflexivity]]; [|around (@nil ascii) (@nil ascii)]. left. eexists. split; [reflexivity|].
      exists (T "  "), (T "1 0"). split; [blk|]. split; [|reflexivity]. exists (T "1 "). split; [|reflexivity]. exists (T " "), []. split; [cbn; lia|]. split; [blk|]. split; reflexivity.
    + left. split; [wht|reflexivity].
    + right; right. eexists. exists (T "5 -1 0"). split; [|split; [|reflexivity]]; [|around (@nil ascii) (@nil ascii)]. right. eexists. eexists. split; [reflexivity|].
      exists (T " "), (T "-1 0"). split; [fits|]. split; [blk|]. split; [|reflexivity]. exists (T "-1 "). split; [|reflexivity]. exists (T " "), []. split; [cbn; lia|]. split; [blk|]. split; reflexivity.
  - intros d H. injection H as <-. reflexivity.
  - left. reflexivity.
Qed.
Theorem C61_wcnf_pre22_file : forall n m top pre hdr ds body t, comment_lines pre -> (exists h, wcnf_header_text n m top h /\ line_with h hdr) ->
  Forall2 (line_means (fun s => Some (WComment s)) (pre22_content top)) ds body ->
  lines_of (pre ++ hdr :: body) t -> read_wcnf t = ROk (Some n, present ds).
Proof. exact read_pre22_file. Qed.
Print Assumptions C61_wcnf_pre22_file.
Example C61_wcnf_pre22_file_ex : let hdr := T "p wcnf 1 2 10" in let body := [T "10 1 0"; T "5 -1 0"] in let ds := [Some (WHard [pos 0]); Some (WSoft 5 [negl 0])] in
  (exists h, wcnf_header_text 1 2 10 h /\ line_with h hdr) /\ Forall2 (line_means (fun s => Some (WComment s)) (pre22_content 10)) ds body.
Proof.
  intros hdr body ds. split.
  - exists hdr. split; [|around (@nil ascii) (@nil ascii)]. exists (T " "), (T " "), (T " "), (T " ").
    split; [unfold u32_max; lia|]. split; [unfold usize_max; lia|]. split; [unfold usize_max; lia|]. split; [blk|]. split; [blk|]. split; [blk|]. split; [blk|]. reflexivity.
  - rows.
    + right; right. eexists. exists (T "10 1 0"). split; [|split; [|reflexivity]]; [|around (@nil ascii) (@nil ascii)]. exists 10%nat. eexists. split; [|reflexivity].
      exists (T " "), (T "1 0"). split; [fits|]. split; [blk|]. split; [|reflexivity]. exists (T "1 "). split; [|reflexivity]. exists (T " "), []. split; [cbn; lia|]. split; [blk|]. split; reflexivity.
    + right; right. eexists. exists (T "5 -1 0"). split; [|split; [|reflexivity]]; [|around (@nil ascii) (@nil ascii)]. exists 5%nat. eexists. split; [|reflexivity].
      exists (T " "), (T "-1 0"). split; [fits|]. split; [blk|]. split; [|reflexivity]. exists (T "-1 "). split; [|reflexivity]. exists (T " "), []. split; [cbn; lia|]. split; [blk|]. split; reflexivity.
Qed.
Theorem C61_mcnf_file : forall ds ls t, Forall2 (line_means (fun s => Some (MComment s)) mcnf_content) ds ls ->
  lines_of ls t -> read_mcnf t = ROk (present ds).
Proof. exact read_mcnf_file. Qed.
Print Assumptions C61_mcnf_file.
Example C61_mcnf_file_ex : let ls := [T "c a"; T "h 1 0"; T "o2 5 -1 0"] in let ds := [Some (MComment (T "c a")); Some (MHard [pos 0]); Some (MSoft 2 5 [negl 0])] in
  Forall2 (line_means (fun s => Some (MComment s)) mcnf_content) ds ls.
Proof.
  intros ls ds. rows.
  - right; left. exists (T "c a"). split; [|split; [around (@nil ascii) (@nil ascii)|reflexivity]]. split; [wht|]. split; [eexists; reflexivity|reflexivity].
  - right; right. eexists. exists (T "h 1 0"). split; [|split; [|reflexivity]]; [|around (@nil ascii) (@nil ascii)]. left. eexists. split; [reflexivity|].
    exists (T " "), (T "1 0"). split; [blk|]. split; [|reflexivity]. exists (T "1 "). split; [|reflexivity]. exists (T " "), []. split; [cbn; lia|]. split; [blk|]. split; reflexivity.
  - right; right. eexists. exists (T "o2 5 -1 0"). split; [|split; [|reflexivity]]; [|around (@nil ascii) (@nil ascii)]. right. eexists. eexists. eexists. split; [reflexivity|].
    exists [], (T " "), (T " "), (T "-1 0"). split; [lia|]. split; [fits|]. split; [fits|]. split; [wht|]. split; [blk|]. split; [blk|]. split; [|reflexivity].
    exists (T "-1 "). split; [|reflexivity]. exists (T " "), []. split; [cbn; lia|]. split; [blk|]. split; reflexivity.
Qed.

(** The DIMACS format lets a clause span several lines; every line is read as a clause of its own instead. *)
Theorem C61_clause_over_lines_refuted : read_cnf (line (T "p cnf 3 1") ++ line (T "1 2") ++ line (T "3 0")) = ROk (3%N, 1%N, [CClause [pos 0; pos 1]; CClause [pos 2]]).
Proof. vm_compute. reflexivity. Qed.
Print Assumptions C61_clause_over_lines_refuted.
(** Several clauses on one line are rejected. *)
Theorem C61_clauses_on_a_line_refuted : read_cnf (line (T "p cnf 2 2") ++ line (T "1 0 2 0")) = RErr.
Proof. vm_compute. reflexivity. Qed.
Print Assumptions C61_clauses_on_a_line_refuted.
(** A header with more variables than there can be makes reading panic. *)
Theorem C61_header_refuted : inst_from_dimacs (line (T "p cnf 2147483648 0")) = RPanic /\ opt_from_dimacs (line (T "p wcnf 2147483648 0 1")) = RPanic.
Proof. split; vm_compute; reflexivity. Qed.
Print Assumptions C61_header_refuted.
