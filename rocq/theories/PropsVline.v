(** * Properties of value lines and solver output *)

From Coq Require Import List Bool NArith ZArith Ascii String Lia.
From Coq Require Import ZifyBool ZifyNat ZifyN.
From Verif Require Import Spec Types Base ConstrSpec Text TextProofs FioSpec Dimacs OpbSpec Vline VlineSpec VlineProofs.
Import ListNotations.
Open Scope list_scope.

Ltac blank := intros ? Hblank; cbn in Hblank; intuition subst; auto.
Ltac blank1 := split; [blank|discriminate].
Ltac words_ex := repeat match goal with |- words_text (_ :: _) _ => apply (WWord [" "%char]); [blank1|] end; apply WEnd; blank.

Lemma example_vline : sat_vline [Some (pos 0); Some (negl 1); Some (pos 9); None] (T "v 1 -2 10 0").
Proof.
  exists [T "1"; T "-2"; T "10"; T "0"], (T " 1 -2 10 0"). split; [|split; [|reflexivity]].
  - repeat apply Forall2_cons; try apply Forall2_nil; try (split; [cbn; lia|reflexivity]). reflexivity.
  - change (T " 1 -2 10 0") with ([" "%char] ++ T "1" ++ [" "%char] ++ T "-2" ++ [" "%char] ++ T "10" ++ [" "%char] ++ T "0" ++ []). words_ex.
Qed.
Lemma short_vline l : (lvar l < 2147483647)%N -> sat_vline [Some l] (T "v " ++ lit_text l).
Proof.
  intros H. exists [lit_text l], (T " " ++ lit_text l). split; [|split; [|reflexivity]].
  - repeat constructor. exact H.
  - rewrite <- (app_nil_r (lit_text l)) at 2. apply (WWord [" "%char]); [blank1|apply WEnd; blank].
Qed.

(** ** C54 Value lines with conflicting assignments *)

(** A SAT competition line that mentions no variable twice is accepted, with exactly the listed values. Excluded: a line with a single number whose digits are 0 and 1. *)
Theorem C54_accepted_partial : forall xs t, sat_vline xs t -> ~ looks_like_bits xs -> distinct_vars (present xs) ->
  exists s, from_vline t = VOk s /\ describes s (present xs).
Proof.
  intros xs t Ht Hl Hd. unfold from_vline. rewrite (sat_vline_extend xs) by assumption.
  destruct (proj2 (vlits_outcome (present xs)) (distinct_no_repeat _ Hd)) as (s & E & Hv). exists s. split; [exact E|now apply describes_last].
Qed.
Print Assumptions C54_accepted_partial.
Example C54_accepted_partial_ex : sat_vline [Some (pos 0); Some (negl 1); Some (pos 9); None] (T "v 1 -2 10 0") /\
  ~ looks_like_bits [Some (pos 0); Some (negl 1); Some (pos 9); None] /\ distinct_vars (present [Some (pos 0); Some (negl 1); Some (pos 9); None]).
Proof.
  split; [exact example_vline|]. split; [intros (l & E & _); discriminate|].
  cbn. repeat (apply NoDup_cons; [cbn; intuition discriminate|]). apply NoDup_nil.
Qed.
(** Pseudo-Boolean competition lines *)
Theorem C54_pb_accepted_partial : forall ls t, pb_vline ls t -> distinct_vars ls -> exists s, from_vline t = VOk s /\ describes s ls.
Proof.
  intros ls t Ht Hd. unfold from_vline. rewrite (pb_vline_extend ls) by assumption.
  destruct (proj2 (vlits_outcome ls) (distinct_no_repeat _ Hd)) as (s & E & Hv). exists s. split; [exact E|now apply describes_last].
Qed.
Print Assumptions C54_pb_accepted_partial.
Lemma pb_vline_example : pb_vline [pos 0; negl 1; negl 4] (T "v x1 -x2 ~x5").
Proof.
  split; [discriminate|]. exists [T "x1"; T "-x2"; T "~x5"], (T " x1 -x2 ~x5"). split; [|split; [|reflexivity]].
  - repeat apply Forall2_cons; try apply Forall2_nil; (split; [vm_compute; discriminate|split; [vm_compute; discriminate|]]).
    + exists []. now split.
    + exists (T "-"). split; [now right|reflexivity].
    + exists (T "~"). split; [now left|reflexivity].
  - change (T " x1 -x2 ~x5") with ([" "%char] ++ T "x1" ++ [" "%char] ++ T "-x2" ++ [" "%char] ++ T "~x5" ++ []). words_ex.
Qed.
Example C54_pb_accepted_partial_ex : pb_vline [pos 0; negl 1; negl 4] (T "v x1 -x2 ~x5") /\ distinct_vars [pos 0; negl 1; negl 4].
Proof. split; [exact pb_vline_example|]. cbn. repeat (apply NoDup_cons; [cbn; intuition discriminate|]). apply NoDup_nil. Qed.

(** Exactly which lines are rejected: those in which a variable that is false occurs again. Otherwise the last occurrence decides. *)
Theorem C54_rejected_exactly : forall xs t, sat_vline xs t -> ~ looks_like_bits xs ->
  (false_repeated (present xs) -> exists v, from_vline t = VErr (Conflicting v)) /\
  (~ false_repeated (present xs) -> exists s, from_vline t = VOk s /\ forall v, var_value s v = last_value v (present xs) TDontCare).
Proof. intros xs t Ht Hl. unfold from_vline. rewrite (sat_vline_extend xs) by assumption. exact (vlits_outcome (present xs)). Qed.
Print Assumptions C54_rejected_exactly.
Example C54_rejected_exactly_ex : false_repeated [negl 3; pos 0; pos 3] /\ ~ false_repeated [pos 0; negl 1; pos 9].
Proof.
  split.
  - exists [], 3%N, [pos 0], (pos 3), []. split; [reflexivity|]. split; [reflexivity|]. cbn. intuition discriminate.
  - apply distinct_no_repeat. cbn. repeat (apply NoDup_cons; [cbn; intuition discriminate|]). apply NoDup_nil.
Qed.
Theorem C54_pb_rejected_exactly : forall ls t, pb_vline ls t ->
  (false_repeated ls -> exists v, from_vline t = VErr (Conflicting v)) /\
  (~ false_repeated ls -> exists s, from_vline t = VOk s /\ forall v, var_value s v = last_value v ls TDontCare).
Proof. intros ls t Ht. unfold from_vline. rewrite (pb_vline_extend ls) by assumption. exact (vlits_outcome ls). Qed.
Print Assumptions C54_pb_rejected_exactly.
Example C54_pb_rejected_exactly_ex : pb_vline [pos 0; negl 1; negl 4] (T "v x1 -x2 ~x5") /\ ~ false_repeated [pos 0; negl 1; negl 4].
Proof.
  split; [exact pb_vline_example|]. apply distinct_no_repeat. cbn. repeat (apply NoDup_cons; [cbn; intuition discriminate|]). apply NoDup_nil.
Qed.
(** Several lines at once: with at least two lines no line is mistaken *)
Theorem C54_lines : forall xss ls t, Forall2 sat_vline xss ls -> lines_text ls t -> (2 <= List.length xss)%nat ->
  (false_repeated (flat_map present xss) -> exists v, from_vline t = VErr (Conflicting v)) /\
  (~ false_repeated (flat_map present xss) -> exists s, from_vline t = VOk s /\ forall v, var_value s v = last_value v (flat_map present xss) TDontCare).
Proof. intros xss ls t Hf Ht Hn. unfold from_vline. rewrite (sat_lines_extend xss ls) by assumption. exact (vlits_outcome _). Qed.
Print Assumptions C54_lines.
Example C54_lines_ex : Forall2 sat_vline [[Some (pos 0); Some (negl 1); Some (pos 9); None]; [Some (pos 10)]] [T "v 1 -2 10 0"; T "v 11"] /\
  lines_text [T "v 1 -2 10 0"; T "v 11"] (T "v 1 -2 10 0" ++ nl :: T "v 11").
Proof.
  split.
  - repeat constructor; [exact example_vline|apply (short_vline (pos 10)); cbn; lia].
  - apply (LLine _ [nl]); [now left|]. apply LLast. discriminate.
Qed.
Theorem C54_pb_lines : forall lss ls t, Forall2 pb_vline lss ls -> lines_text ls t -> lss <> [] ->
  (false_repeated (List.concat lss) -> exists v, from_vline t = VErr (Conflicting v)) /\
  (~ false_repeated (List.concat lss) -> exists s, from_vline t = VOk s /\ forall v, var_value s v = last_value v (List.concat lss) TDontCare).
Proof. intros lss ls t Hf Ht Hn. unfold from_vline. rewrite (pb_lines_extend lss ls) by assumption. exact (vlits_outcome _). Qed.
Print Assumptions C54_pb_lines.
Example C54_pb_lines_ex : Forall2 pb_vline [[pos 0; negl 1; negl 4]; [pos 0; negl 1; negl 4]] [T "v x1 -x2 ~x5"; T "v x1 -x2 ~x5"] /\
  lines_text [T "v x1 -x2 ~x5"; T "v x1 -x2 ~x5"] (line (T "v x1 -x2 ~x5") ++ line (T "v x1 -x2 ~x5")) /\ false_repeated (List.concat [[pos 0; negl 1; negl 4]; [pos 0; negl 1; negl 4]]).
Proof.
  split; [repeat apply Forall2_cons; try apply Forall2_nil; exact pb_vline_example|]. split.
  - apply (LLine (T "v x1 -x2 ~x5") [nl] [T "v x1 -x2 ~x5"] (line (T "v x1 -x2 ~x5"))); [now left|]. apply (LLine (T "v x1 -x2 ~x5") [nl] [] []); [now left|]. apply LNone.
  - exists [pos 0], 1%N, [negl 4; pos 0], (negl 1), [negl 4]. split; [reflexivity|]. split; [reflexivity|]. cbn. intuition discriminate.
Qed.
(** A line with both values of a variable is accepted if the negative literal comes last. *)
Theorem C54_conflict_refuted : exists xs t s, sat_vline xs t /\ ~ looks_like_bits xs /\ both_values (present xs) /\ from_vline t = VOk s.
Proof.
  exists [Some (pos 0); Some (negl 0); None], (T "v 1 -1 0"), [TFalse]. split; [|split; [|split]].
  - exists [T "1"; T "-1"; T "0"], (T " 1 -1 0"). split; [|split; [|reflexivity]].
    + repeat apply Forall2_cons; try apply Forall2_nil; try (split; [cbn; lia|reflexivity]). reflexivity.
    + change (T " 1 -1 0") with ([" "%char] ++ T "1" ++ [" "%char] ++ T "-1" ++ [" "%char] ++ T "0" ++ []). words_ex.
  - intros (l & E & _). discriminate.
  - exists 0%N. cbn. auto.
  - vm_compute. reflexivity.
Qed.
Print Assumptions C54_conflict_refuted.
(** A line that repeats a negative literal is rejected although it gives no variable both values. *)
Theorem C54_duplicate_refuted : exists xs t, sat_vline xs t /\ ~ looks_like_bits xs /\ ~ both_values (present xs) /\ from_vline t = VErr (Conflicting 0).
Proof.
  exists [Some (negl 0); Some (negl 0); None], (T "v -1 -1 0"). split; [|split; [|split]].
  - exists [T "-1"; T "-1"; T "0"], (T " -1 -1 0"). split; [|split; [|reflexivity]].
    + repeat apply Forall2_cons; try apply Forall2_nil; try (split; [cbn; lia|reflexivity]). reflexivity.
    + change (T " -1 -1 0") with ([" "%char] ++ T "-1" ++ [" "%char] ++ T "-1" ++ [" "%char] ++ T "0" ++ []). words_ex.
  - intros (l & E & _). discriminate.
  - intros (v & H & _). cbn in H. intuition discriminate.
  - vm_compute. reflexivity.
Qed.
Print Assumptions C54_duplicate_refuted.
(** Several lines in the format of the MaxSAT evaluation, read at once, are rejected or mistaken for numbers. *)
Theorem C54_bits_lines_refuted : exists b1 b2 l1 l2 s, bits_vline b1 l1 /\ bits_vline b2 l2 /\
  from_vline (l1 ++ nl :: l2) = VOk s /\ s <> map tern_of_bool (b1 ++ b2).
Proof.
  exists [true; true], [true; false], (T "v 11"), (T "v 10"), (repeat TDontCare 9 ++ [TTrue; TTrue]). split; [|split; [|split]].
  - split; [|reflexivity]. apply (WWord [" "%char] (T "11") [] []); [blank1|apply WEnd; blank].
  - split; [|reflexivity]. apply (WWord [" "%char] (T "10") [] []); [blank1|apply WEnd; blank].
  - vm_compute. reflexivity.
  - discriminate.
Qed.
Print Assumptions C54_bits_lines_refuted.

(** ** C53 Solver output parsing *)

(** Status satisfiable and value lines in the formats of the SAT and pseudo-Boolean competitions, with any other lines, in any order *)
Theorem C53_sat_partial : forall ks t, output_text ks t ->
  (forall bs, ~ In (LBits bs) ks) -> (forall xs, In (LSatVals xs) ks -> ~ looks_like_bits xs) -> distinct_vars (out_lits ks) ->
  In LSat ks -> (exists k, In k ks /\ is_value_line k) ->
  exists s, parse_output t = VOk (OutSat s) /\ describes s (out_lits ks).
Proof.
  intros ks t Ht Hb Hl Hd Hs Hv. rewrite (output_lits ks); [| |assumption].
  - destruct (proj2 (vlits_outcome (out_lits ks)) (distinct_no_repeat _ Hd)) as (s & -> & Es). exists s.
    apply is_sat_line_in in Hs. apply is_value_in in Hv. rewrite Hs, Hv. split; [reflexivity|now apply describes_last].
  - apply Forall_forall. intros k Hk. destruct k; cbn; auto. now apply (Hb bs).
Qed.
Print Assumptions C53_sat_partial.
Definition example_output : list out_line :=
  [LOther; LSatVals [Some (pos 0); Some (negl 1); Some (pos 9); None]; LSat; LOther; LSatVals [Some (pos 2)]; LPbVals [pos 4]].
Example C53_sat_partial_ex :
  output_text example_output (line (T "c comment") ++ T "v 1 -2 10 0" ++ cr :: line [] ++ line (T "s  SATISFIABLE ") ++ line [] ++ line (T "v 3") ++ T "v x5") /\
  (forall bs, ~ In (LBits bs) example_output) /\ (forall xs, In (LSatVals xs) example_output -> ~ looks_like_bits xs) /\ distinct_vars (out_lits example_output) /\
  In LSat example_output /\ (exists k, In k example_output /\ is_value_line k).
Proof.
  split; [|split; [|split; [|split; [|split]]]].
  - exists [T "c comment"; T "v 1 -2 10 0"; T "s  SATISFIABLE "; []; T "v 3"; T "v x5"]. split.
    + repeat apply Forall2_cons; try apply Forall2_nil; cbn [out_line_text].
      * split; [|split]; [|intros r E; discriminate..]. intros c Hc. cbn in Hc. repeat (destruct Hc as [<- | Hc]; [split; discriminate|]). destruct Hc.
      * split; [now eexists|exact example_vline].
      * exists (T " "), (T " "). split; [blank|]. split; [blank|reflexivity].
      * split; [|split]; [|intros r E; discriminate..]. intros c [].
      * split; [now eexists|]. apply (short_vline (pos 2)). cbn. lia.
      * split; [now eexists|]. split; [discriminate|]. exists [T "x5"], (T " x5"). split; [|split; [|reflexivity]].
        -- repeat constructor; [vm_compute; discriminate..|]. exists []. now split.
        -- apply (WWord [" "%char] (T "x5") [] []); [blank1|apply WEnd; blank].
    + apply (LLine (T "c comment") [nl]); [now left|]. apply (LLine (T "v 1 -2 10 0") [cr; nl]); [now right|]. apply (LLine (T "s  SATISFIABLE ") [nl]); [now left|].
      apply (LLine [] [nl]); [now left|]. apply (LLine (T "v 3") [nl]); [now left|]. apply LLast. discriminate.
  - intros bs H. cbn in H. intuition discriminate.
  - intros xs H (l & E & Hc). subst xs. cbn in H. repeat (destruct H as [H | H]; [try discriminate|]); [|destruct H].
    injection H as <-. specialize (Hc "3"%char). cbn in Hc. destruct Hc as [Hc | Hc]; [now left|discriminate..].
  - cbn. repeat (apply NoDup_cons; [cbn; intuition discriminate|]). apply NoDup_nil.
  - cbn. auto.
  - exists (LPbVals [pos 4]). split; [cbn; auto 10|exact Logic.I].
Qed.

(** Status satisfiable and value lines in the format of the MaxSAT evaluation: the characters give the values of the variables in order. *)
Theorem C53_bits_partial : forall ks t, output_text ks t ->
  (forall k, In k ks -> match k with LBits bs => bs <> [] /\ bs <> [false] | LSatVals _ | LPbVals _ => False | _ => True end) ->
  In LSat ks -> (exists k, In k ks /\ is_value_line k) ->
  exists s, parse_output t = VOk (OutSat s) /\ forall v, pasg_of s v = nth_error (out_bits ks) (N.to_nat v).
Proof.
  intros ks t Ht Hb Hs Hv. rewrite (output_bits ks); [|apply Forall_forall; exact Hb|assumption].
  apply is_sat_line_in in Hs. apply is_value_in in Hv. rewrite Hs, Hv. eexists. split; [reflexivity|].
  intros v. unfold pasg_of. rewrite TypesProofs.var_value_nth. unfold vidx. generalize (N.to_nat v) (out_bits ks). clear.
  induction n as [|n IH]; intros [|b l]; try reflexivity; [destruct b; reflexivity|apply IH].
Qed.
Print Assumptions C53_bits_partial.
Definition example_bits : list out_line := [LBits [true; false; false]; LSat; LBits [true]].
Example C53_bits_partial_ex : output_text example_bits (line (T "v 100") ++ line (T "s SATISFIABLE") ++ T "v 1") /\
  (forall k, In k example_bits -> match k with LBits bs => bs <> [] /\ bs <> [false] | LSatVals _ | LPbVals _ => False | _ => True end).
Proof.
  split.
  - exists [T "v 100"; T "s SATISFIABLE"; T "v 1"]. split.
    + repeat apply Forall2_cons; try apply Forall2_nil; cbn [out_line_text].
      * split; [now eexists|]. split; [|reflexivity]. apply (WWord [" "%char] (T "100") [] []); [blank1|apply WEnd; blank].
      * exists [], []. split; [blank|]. split; [blank|reflexivity].
      * split; [now eexists|]. split; [|reflexivity]. apply (WWord [" "%char] (T "1") [] []); [blank1|apply WEnd; blank].
    + apply (LLine (T "v 100") [nl]); [now left|]. apply (LLine (T "s SATISFIABLE") [nl]); [now left|]. apply LLast. discriminate.
  - intros k Hk. cbn in Hk. destruct Hk as [<- | [<- | [<- | []]]]; cbn; auto; split; discriminate.
Qed.

(** A variable that was made false occurs again, also on another line: an error *)
Theorem C53_conflict : forall ks t, output_text ks t -> (forall bs, ~ In (LBits bs) ks) -> (forall xs, In (LSatVals xs) ks -> ~ looks_like_bits xs) ->
  false_repeated (out_lits ks) -> exists v, parse_output t = VErr (BadVLine (Conflicting v)).
Proof.
  intros ks t Ht Hb Hl Hr. rewrite (output_lits ks); [| |assumption].
  - destruct (proj1 (vlits_outcome (out_lits ks)) Hr) as (v & ->). now exists v.
  - apply Forall_forall. intros k Hk. destruct k; cbn; auto. now apply (Hb bs).
Qed.
Print Assumptions C53_conflict.
Example C53_conflict_ex : output_text [LSatVals [Some (pos 0); Some (negl 1); Some (pos 9); None]; LSatVals [Some (pos 1)]] (line (T "v 1 -2 10 0") ++ T "v 2") /\
  (forall xs, In (LSatVals xs) [LSatVals [Some (pos 0); Some (negl 1); Some (pos 9); None]; LSatVals [Some (pos 1)]] -> ~ looks_like_bits xs) /\
  false_repeated (out_lits [LSatVals [Some (pos 0); Some (negl 1); Some (pos 9); None]; LSatVals [Some (pos 1)]]).
Proof.
  split; [|split].
  - exists [T "v 1 -2 10 0"; T "v 2"]. split.
    + repeat apply Forall2_cons; try apply Forall2_nil; (split; [now eexists|]); [exact example_vline|]. apply (short_vline (pos 1)). cbn. lia.
    + apply (LLine (T "v 1 -2 10 0") [nl]); [now left|]. apply LLast. discriminate.
  - intros xs H (l & E & Hc). subst xs. cbn in H. repeat (destruct H as [H | H]; [try discriminate|]); [|destruct H].
    injection H as <-. specialize (Hc "2"%char). cbn in Hc. destruct Hc as [Hc | Hc]; [now left|discriminate..].
  - exists [pos 0], 1%N, [pos 9], (pos 1), []. split; [reflexivity|]. split; [reflexivity|]. cbn. intuition discriminate.
Qed.

(** The status line decides if only other lines come before it. What follows does not matter. *)
Theorem C53_unsat : forall os l ls t, lines_text (os ++ l :: ls) t -> Forall other_text os -> status_text (T "UNSATISFIABLE") l -> Forall one_line ls ->
  parse_output t = VOk OutUnsat.
Proof.
  intros os l ls t Ht Ho Hl Hls. rewrite (output_status os l ls); try assumption.
  - apply status_trim in Hl as (sp & H1 & H2 & H3); [|reflexivity]. cbn [parse_output_from]. rewrite H1, H3. reflexivity.
  - revert Hl. apply status_one_line. intros c Hc. cbn in Hc. repeat (destruct Hc as [<- | Hc]; [split; discriminate|]). destruct Hc.
Qed.
Print Assumptions C53_unsat.
Example C53_unsat_ex : lines_text ([T "c s SATISFIABLE"] ++ T "s UNSATISFIABLE" :: [T "c bye"]) (line (T "c s SATISFIABLE") ++ line (T "s UNSATISFIABLE") ++ line (T "c bye")) /\
  Forall other_text [T "c s SATISFIABLE"] /\ status_text (T "UNSATISFIABLE") (T "s UNSATISFIABLE").
Proof.
  split; [|split].
  - apply (LLine (T "c s SATISFIABLE") [nl]); [now left|]. apply (LLine (T "s UNSATISFIABLE") [nl]); [now left|]. apply (LLine (T "c bye") [nl] [] []); [now left|]. apply LNone.
  - constructor; [|constructor]. split; [|split]; [|intros r E; discriminate..]. intros c Hc. cbn in Hc. repeat (destruct Hc as [<- | Hc]; [split; discriminate|]). destruct Hc.
  - exists [], []. split; [blank|]. split; [blank|reflexivity].
Qed.
Theorem C53_unknown : forall os l ls t, lines_text (os ++ l :: ls) t -> Forall other_text os ->
  status_text (T "UNKNOWN") l \/ status_text (T "INDETERMINATE") l -> Forall one_line ls ->
  parse_output t = VOk OutUnknown.
Proof.
  intros os l ls t Ht Ho Hl Hls. rewrite (output_status os l ls); try assumption.
  - destruct Hl as [Hl | Hl]; apply status_trim in Hl as (sp & H1 & H2 & H3); try reflexivity; cbn [parse_output_from]; rewrite H1, H3; reflexivity.
  - destruct Hl as [Hl | Hl]; revert Hl; apply status_one_line; intros c Hc; cbn in Hc; repeat (destruct Hc as [<- | Hc]; [split; discriminate|]); destruct Hc.
Qed.
Print Assumptions C53_unknown.
Example C53_unknown_ex : lines_text ([T "c no answer"] ++ T "s UNKNOWN" :: []) (line (T "c no answer") ++ T "s UNKNOWN") /\ status_text (T "UNKNOWN") (T "s UNKNOWN").
Proof.
  split.
  - apply (LLine (T "c no answer") [nl]); [now left|]. apply LLast. discriminate.
  - exists [], []. split; [blank|]. split; [blank|reflexivity].
Qed.
(** Anything that does not start with one of the four answers is an error. *)
Theorem C53_invalid_s_line : forall os l ls t answer, lines_text (os ++ l :: ls) t -> Forall other_text os -> Forall one_line ls ->
  status_text answer l -> one_line answer -> (forall c r, answer = c :: r -> is_white c = false) ->
  (forall a r, In a [T "SATISFIABLE"; T "UNSATISFIABLE"; T "UNKNOWN"; T "INDETERMINATE"] -> ~ starts_with a (answer ++ r) = true) ->
  parse_output t = VErr InvalidSLine.
Proof.
  intros os l ls t answer Ht Ho Hls Hl Ha Hw Hn. rewrite (output_status os l ls); try assumption; [|now apply (status_one_line answer)].
  assert (exists r, starts_with (T "s ") l = true /\ trim_start (tl l) = answer ++ r) as (r & H1 & H3).
  { destruct answer as [|c a].
    - destruct Hl as (sp & sp' & Hb & Hb' & ->). exists []. split; [reflexivity|].
      change (tl (T "s " ++ sp ++ [] ++ sp')) with (" "%char :: sp ++ sp'). rewrite <- (app_nil_r (" "%char :: sp ++ sp')). apply trim_start_white; [|exact Logic.I].
      cbn [forallb]. rewrite forallb_app, !blanks_white by assumption. reflexivity.
    - apply status_trim in Hl as (sp & H1 & _ & H3); [|intros r; cbn; now apply (Hw c a)]. exists sp. now split. }
  cbn [parse_output_from]. rewrite H1, H3.
  pose proof (Hn (T "SATISFIABLE") r) as N1. pose proof (Hn (T "UNSATISFIABLE") r) as N2. pose proof (Hn (T "UNKNOWN") r) as N3. pose proof (Hn (T "INDETERMINATE") r) as N4.
  destruct (starts_with (T "UNSATISFIABLE") (answer ++ r)); [exfalso; apply N2; cbn [In]; auto|].
  destruct (starts_with (T "UNKNOWN") (answer ++ r)); [exfalso; apply N3; cbn [In]; auto|].
  destruct (starts_with (T "INDETERMINATE") (answer ++ r)); [exfalso; apply N4; cbn [In]; auto|].
  destruct (starts_with (T "SATISFIABLE") (answer ++ r)); [exfalso; apply N1; cbn [In]; auto|]. reflexivity.
Qed.
Print Assumptions C53_invalid_s_line.
Example C53_invalid_s_line_ex : lines_text ([] ++ T "s OPTIMUM FOUND" :: [T "v 1"]) (line (T "s OPTIMUM FOUND") ++ T "v 1") /\ status_text (T "OPTIMUM FOUND") (T "s OPTIMUM FOUND") /\
  (forall a r, In a [T "SATISFIABLE"; T "UNSATISFIABLE"; T "UNKNOWN"; T "INDETERMINATE"] -> ~ starts_with a (T "OPTIMUM FOUND" ++ r) = true).
Proof.
  split; [|split].
  - apply (LLine (T "s OPTIMUM FOUND") [nl]); [now left|]. apply LLast. discriminate.
  - exists [], []. split; [blank|]. split; [blank|reflexivity].
  - intros a r H. cbn [In] in H. destruct H as [<- | [<- | [<- | [<- | []]]]]; discriminate.
Qed.
(** A missing status line, a missing value line *)
Theorem C53_no_s_line : forall ks t, output_text ks t -> (forall bs, ~ In (LBits bs) ks) -> (forall xs, In (LSatVals xs) ks -> ~ looks_like_bits xs) ->
  ~ false_repeated (out_lits ks) -> ~ In LSat ks -> parse_output t = VErr NoSLine.
Proof.
  intros ks t Ht Hb Hl Hd Hs. rewrite (output_lits ks); [| |assumption].
  - destruct (proj2 (vlits_outcome (out_lits ks)) Hd) as (s & -> & Es). rewrite <- is_sat_line_in in Hs. now destruct (existsb is_sat_line ks).
  - apply Forall_forall. intros k Hk. destruct k; cbn; auto. now apply (Hb bs).
Qed.
Print Assumptions C53_no_s_line.
Example C53_no_s_line_ex : output_text [LSatVals [Some (pos 0); Some (negl 1); Some (pos 9); None]] (T "v 1 -2 10 0").
Proof.
  exists [T "v 1 -2 10 0"]. split; [repeat apply Forall2_cons; try apply Forall2_nil; (split; [now eexists|]); exact example_vline|]. apply LLast. discriminate.
Qed.
Theorem C53_no_v_line : forall ks t, output_text ks t -> (forall k, In k ks -> k = LSat \/ k = LOther) -> In LSat ks -> parse_output t = VErr NoVLine.
Proof.
  intros ks t Ht Hk Hs. rewrite (output_lits ks); [| |assumption].
  - assert (out_lits ks = []) as ->.
    { clear -Hk. induction ks as [|k ks IH]; [reflexivity|]. change (out_lits (k :: ks)) with (match k with LSatVals xs => present xs | LPbVals ls => ls | _ => [] end ++ out_lits ks).
      rewrite IH by (intros; apply Hk; now right). destruct (Hk k (or_introl eq_refl)) as [-> | ->]; reflexivity. }
    apply is_sat_line_in in Hs. rewrite Hs. cbn [extend_lits]. destruct (existsb is_value ks) eqn:Ev; [|reflexivity].
    apply is_value_in in Ev as (k & H1 & H2). destruct (Hk k H1); subst k; destruct H2.
  - apply Forall_forall. intros k Hi. destruct (Hk k Hi); subst k; exact Logic.I.
Qed.
Print Assumptions C53_no_v_line.
Example C53_no_v_line_ex : output_text [LSat; LOther] (line (T "s SATISFIABLE") ++ T "v1").
Proof.
  exists [T "s SATISFIABLE"; T "v1"]. split.
  - repeat apply Forall2_cons; try apply Forall2_nil.
    + exists [], []. split; [blank|]. split; [blank|reflexivity].
    + split; [|split]; [|intros r E; discriminate..]. intros c Hc. cbn in Hc. repeat (destruct Hc as [<- | Hc]; [split; discriminate|]). destruct Hc.
  - apply (LLine (T "s SATISFIABLE") [nl]); [now left|]. apply LLast. discriminate.
Qed.
(** Whatever the output is, the parser does not panic if it has no letter x. *)
Theorem C53_no_panic_partial : forall t, ~ In "x"%char t -> parse_output t <> VPanic.
Proof. exact parse_output_no_panic. Qed.
Print Assumptions C53_no_panic_partial.
Example C53_no_panic_partial_ex : ~ In "x"%char (T "s SATISFIABLE v a--3").
Proof. cbn. intuition discriminate. Qed.

(** Not every split of the assignment over lines is read: a line with a number of digits 0 and 1 is taken for the values of the first variables. *)
Theorem C53_split_refuted : exists ks t s, output_text ks t /\ (forall bs, ~ In (LBits bs) ks) /\ distinct_vars (out_lits ks) /\ In LSat ks /\
  parse_output t = VOk (OutSat s) /\ ~ describes s (out_lits ks).
Proof.
  exists [LSat; LSatVals [Some (pos 9)]], (line (T "s SATISFIABLE") ++ T "v 10"), [TTrue; TFalse]. split; [|split; [|split; [|split; [|split]]]].
  - exists [T "s SATISFIABLE"; T "v 10"]. split.
    + repeat apply Forall2_cons; try apply Forall2_nil; cbn [out_line_text].
      * exists [], []. split; [blank|]. split; [blank|reflexivity].
      * split; [now eexists|]. apply (short_vline (pos 9)). cbn. lia.
    + apply (LLine (T "s SATISFIABLE") [nl]); [now left|]. apply LLast. discriminate.
  - intros bs H. cbn in H. intuition discriminate.
  - cbn. repeat (apply NoDup_cons; [cbn; intuition discriminate|]). apply NoDup_nil.
  - now left.
  - vm_compute. reflexivity.
  - intros H. destruct (proj1 (H 0%N true) eq_refl) as [E | []]. discriminate.
Qed.
Print Assumptions C53_split_refuted.
(** The line [v 0] of the MaxSAT evaluation, which makes the only variable false, is taken for an end marker. *)
Theorem C53_zero_refuted : exists bs t s, output_text [LSat; LBits bs] t /\ parse_output t = VOk (OutSat s) /\ pasg_of s 0%N <> nth_error bs 0.
Proof.
  exists [false], (line (T "s SATISFIABLE") ++ T "v 0"), []. split; [|split; [vm_compute; reflexivity|discriminate]].
  exists [T "s SATISFIABLE"; T "v 0"]. split.
  - repeat apply Forall2_cons; try apply Forall2_nil; cbn [out_line_text].
    + exists [], []. split; [blank|]. split; [blank|reflexivity].
    + split; [now eexists|]. split; [|reflexivity]. apply (WWord [" "%char] (T "0") [] []); [blank1|apply WEnd; blank].
  - apply (LLine (T "s SATISFIABLE") [nl]); [now left|]. apply LLast. discriminate.
Qed.
Print Assumptions C53_zero_refuted.
(** Two contradicting status lines are no error, and neither is a status line that merely starts with a known answer. *)
Theorem C53_inconsistent_refuted :
  parse_output (line (T "s SATISFIABLE") ++ line (T "v 1 0") ++ T "s UNSATISFIABLE") = VOk OutUnsat /\
  parse_output (line (T "s UNSATISFIABLE") ++ line (T "s SATISFIABLE") ++ T "v 1 0") = VOk OutUnsat /\
  parse_output (line (T "s SATISFIABLEISH") ++ line (T "v 1 0")) = VOk (OutSat [TTrue]).
Proof. split; [vm_compute; reflexivity|]. split; [vm_compute; reflexivity|vm_compute; reflexivity]. Qed.
Print Assumptions C53_inconsistent_refuted.
(** A variable index above the largest variable makes the parser panic. *)
Theorem C53_panic_refuted : parse_output (line (T "s SATISFIABLE") ++ line (T "v x2147483649")) = VPanic.
Proof. vm_compute. reflexivity. Qed.
Print Assumptions C53_panic_refuted.
