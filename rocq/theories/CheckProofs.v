(** * Proofs about checking solutions *)

From Coq Require Import List Bool NArith ZArith Ascii String Lia Permutation.
From Coq Require Import ZifyBool ZifyNat ZifyN.
From Verif Require Import Spec Types TypesProofs Base ConstrSpec Constraints ConstrProofs Maps EncSpec VarMan NodeDb Inst InstSpec InstProofs ClauseProofs Opt OptSpec OptProofs OptConv Text TextProofs FioSpec Dimacs DimacsSpec DimacsProofs
  DimacsGrammar Opb OpbSpec OpbProofs OpbInst Vline VlineSpec VlineProofs Tools ToolSpec ToolText ToolConv ToolProofs ToolOpb CheckSpec.
Import ListNotations.
Open Scope list_scope.

(** ** Reading the problem *)

Lemma stmt_pb_parts ts op b : (abs_coeffs ts + Z.abs b < isize_max)%Z ->
  (Z.of_nat (total_weight (p_lits (stmt_pb ts op b))) <= isize_max)%Z /\ (p_b (stmt_pb ts op b) <= isize_max)%Z.
Proof.
  intros H. assert (Hw : forall k b', Z.of_nat (total_weight (p_lits (pb_new k ts b'))) = abs_coeffs ts /\ (p_b (pb_new k ts b') = b' - neg_coeffs ts)%Z).
  { intros k b'. unfold pb_new. pose proof (convert_weights ts) as Hw. pose proof (convert_bound ts) as Hb. destruct (convert_input_lits ts) as [[r s] badd]. cbn [fst snd p_lits p_b] in *. split; [|lia].
    assert (E : total_weight r = list_sum (map snd r)) by (clear; induction r as [|[l w] r IH]; [reflexivity|]; cbn [total_weight map snd]; change (list_sum (w :: map snd r)) with (w + list_sum (map snd r))%nat; now rewrite IH).
    rewrite E, Hw. unfold abs_coeffs. clear. induction ts as [|[l c] ts IH]; [reflexivity|]. cbn [map fold_right snd]. change (list_sum (?x :: ?r)) with (x + list_sum r)%nat. lia. }
  assert (Hn : (- neg_coeffs ts <= abs_coeffs ts)%Z) by (unfold neg_coeffs, abs_coeffs; clear; induction ts as [|[l c] ts IH]; [reflexivity|]; cbn [map fold_right snd]; lia).
  assert (Ha : (0 <= abs_coeffs ts)%Z) by (unfold abs_coeffs; clear; induction ts as [|[l c] ts IH]; [reflexivity|]; cbn [map fold_right snd]; lia).
  destruct op; cbn [stmt_pb]; unfold pb_new_ub, pb_new_lb, pb_new_eq; destruct (Hw KUb b) as [? ?], (Hw KLb b) as [? ?], (Hw KEq b) as [? ?], (Hw KUb (b + 1)%Z) as [? ?], (Hw KLb (b + 1)%Z) as [? ?]; split; lia.
Qed.
Lemma add_pb_known i q : inst_known i -> inst_known (inst_add_pb i q).
Proof.
  intros H4. unfold inst_add_pb. destruct (marks_spec (map fst (p_lits q)) (i_next i)) as [L B].
  unfold inst_known, inst_lits in *. cbn [i_cnf i_cards i_pbs i_next]. rewrite map_app, concat_app, map_app, !app_assoc. intros l Hl. apply in_app_iff in Hl as [Hl|Hl].
  - rewrite <- app_assoc in Hl. apply H4 in Hl. lia.
  - cbn [map List.concat] in Hl. rewrite app_nil_r in Hl. now apply B.
Qed.
Definition pbs_of (ss : list stmt) : list pb := map (fun x => stmt_pb (fst (fst x)) (snd (fst x)) (snd x)) (constrs_of ss).
Lemma add_opb_mopt_parts ss : forall p p', inst_known (mo_constrs p) -> add_opb_mopt p (map stmt_data ss) = ROk p' ->
  i_cnf (mo_constrs p') = i_cnf (mo_constrs p) /\ i_cards (mo_constrs p') = i_cards (mo_constrs p) /\ i_pbs (mo_constrs p') = i_pbs (mo_constrs p) ++ pbs_of ss /\ inst_known (mo_constrs p') /\
  (forall B, (i_next (mo_constrs p) <= B)%N -> (forall v, stmt_var ss v -> v < B)%N -> (i_next (mo_constrs p') <= B)%N) /\
  exists os, mo_objs p' = mo_objs p ++ os /\ Forall2 obj_read (objs_of ss) os.
Proof.
  assert (Hv : forall st ss B, (forall v, stmt_var (st :: ss) v -> v < B)%N -> (forall e, In e (stmt_terms st) -> lvar (fst e) < B)%N /\ (forall v, stmt_var ss v -> v < B)%N).
  { intros st ss0 B H. split; [intros e He; apply H; exists st, e; split; [now left|auto]|]. intros v (st' & e & H1 & H2). apply H. exists st', e. split; [now right|auto]. }
  induction ss as [|st ss IH]; intros p p' Hk E.
  - injection E as <-. repeat (split; [solve [reflexivity | now rewrite app_nil_r | exact Hk | auto]|]). exists []. split; [now rewrite app_nil_r|constructor].
  - destruct st as [ts op b|s ts].
    + change (add_opb_mopt (mkMopt (inst_add_pb (mo_constrs p) (stmt_pb ts op b)) (mo_objs p)) (map stmt_data ss) = ROk p') in E.
      destruct (IH (mkMopt (inst_add_pb (mo_constrs p) (stmt_pb ts op b)) (mo_objs p)) p' (add_pb_known _ _ Hk) E) as (D1 & D2 & D3 & D4 & D6 & D5). cbn [mo_constrs mo_objs] in *.
      split; [exact D1|]. split; [exact D2|]. split; [|split; [exact D4|split; [|exact D5]]]; [rewrite D3; unfold inst_add_pb; cbn [i_pbs]; rewrite <- app_assoc; reflexivity|].
      intros B HB Hb. destruct (Hv _ _ _ Hb) as [Hb1 Hb2]. apply D6; [|exact Hb2]. unfold inst_add_pb. cbn [i_next]. apply marks_tight; [exact HB|]. intros l Hl. apply in_map_iff in Hl as (x & <- & Hx).
      assert (Hin : In (lvar (fst x)) (map (fun e => lvar (fst e)) (p_lits (stmt_pb ts op b)))) by now apply (in_map (fun e => lvar (fst e))). rewrite stmt_pb_vars in Hin. apply in_map_iff in Hin as (e & <- & He). now apply Hb1.
    + cbn [map stmt_data add_opb_mopt] in E. destruct (objective_of s (fst (objective_sum ts)) (snd (objective_sum ts))) as [ob|] eqn:Eo; [|discriminate]. cbv zeta in E.
      destruct (marks_spec (map snd (fst (objective_sum ts))) (i_next (mo_constrs p))) as [L _].
      match type of E with add_opb_mopt ?q _ = _ => destruct (IH q p') as (D1 & D2 & D3 & D4 & D7 & os & D5 & D6) end; [intros l Hl; apply Hk in Hl; cbn [mo_constrs i_next]; lia|exact E|]. cbn [mo_constrs mo_objs i_cnf i_cards i_pbs] in *.
      split; [exact D1|]. split; [exact D2|]. split; [exact D3|]. split; [exact D4|]. split.
      { intros B HB Hb. destruct (Hv _ _ _ Hb) as [Hb1 Hb2]. apply D7; [|exact Hb2]. cbn [mo_constrs i_next]. apply marks_tight; [exact HB|]. intros l Hl. cbn [stmt_terms] in Hb1. revert Hb1 l Hl. clear. induction ts as [|[l' c] ts IH]; intros Hb l Hl; [destruct Hl|].
        cbn [objective_sum] in Hl. destruct (objective_sum ts) as [terms z]. cbn [fst] in *. assert (H1 : (lvar l' < B)%N) by exact (Hb (l', c) (or_introl eq_refl)). assert (H2 : forall l, In l (map snd terms) -> (lvar l < B)%N) by (apply IH; intros e He; apply Hb; now right).
        destruct (0 <? c)%Z; cbn [fst map snd In] in Hl; (destruct Hl as [<-|Hl]; [exact H1|now apply H2]). }
      exists (ob :: os). split; [now rewrite D5, <- app_assoc|]. constructor; [exact Eo|exact D6].
Qed.
Lemma obj_read_vars st ob l : obj_read st ob -> In l (obj_vars ob) -> exists e, In e (snd st) /\ lvar (fst e) = lvar l.
Proof.
  intros Hr Hl. destruct (objective_form st ob Hr) as (ys & z & Eob & _ & Ev). destruct (increase_offset_parts z (obj_from_cls ys)) as [P1 P2]. rewrite <- Eob in P1, P2.
  unfold obj_vars in Hl. rewrite P1, P2 in Hl. destruct (from_cls_vars ys l Hl) as (c & w & x & Hc & Hx & Ex).
  assert (Hc2 : In (map lvar c, w) (map (fun e => ([lvar (fst e)], Z.abs_nat (snd e))) (snd st))) by (rewrite <- Ev; exact (in_map (fun e => (map lvar (fst e), snd e)) ys (c, w) Hc)).
  apply in_map_iff in Hc2 as (e & E & He). exists e. split; [exact He|]. assert (E' : map lvar c = [lvar (fst e)]) by congruence. assert (Hin : In (lvar x) (map lvar c)) by now apply in_map. rewrite E' in Hin. destruct Hin as [Hin|[]]. congruence.
Qed.

Lemma obj_read_in sts os ob : Forall2 obj_read sts os -> In ob os -> exists st, In st sts /\ obj_read st ob.
Proof.
  induction 1 as [|st ob' sts os Hr _ IH]; [easy|]. intros [<-|Hin]; [exists st; split; [now left|exact Hr]|]. destruct (IH Hin) as (st' & H1 & H2). exists st'. split; [now right|exact H2].
Qed.
Lemma opb_file_vars first ss t : opb_file first ss t -> forall v, stmt_var ss v -> (v < max_var_idx + 1)%N.
Proof.
  assert (Hs : forall ts s, sum_text first ts s -> forall e, In e ts -> (lvar (fst e) < max_var_idx + 1)%N).
  { assert (Ht : forall e s, term_text first e s -> (lvar (fst e) < max_var_idx + 1)%N) by (intros e s (_ & n & sp & x & _ & _ & (H & _) & _); lia).
    induction ts as [|e' ts IH]; intros s H e He; [destruct He|]. destruct ts as [|e'' ts].
    - destruct He as [<-|[]]. exact (Ht _ _ H).
    - destruct H as (s1 & sp & r & H1 & _ & H2 & _). destruct He as [<-|He]; [exact (Ht _ _ H1)|exact (IH r H2 e He)]. }
  assert (Hst : forall st s, stmt_text first st s -> forall e, In e (stmt_terms st) -> (lvar (fst e) < max_var_idx + 1)%N).
  { intros [ts op b|sn ts] s H e He; cbn [stmt_terms] in He.
    - destruct H as (_ & s1 & sp & sp' & n & H & _). exact (Hs ts s1 H e He).
    - destruct H as (sp & s1 & _ & H & _). exact (Hs ts s1 H e He). }
  assert (Hss : forall ss s, stmts_text first ss s -> forall v, stmt_var ss v -> (v < max_var_idx + 1)%N).
  { induction 1 as [c Hc|st t0 sp semi sp' H _ _ _|st t0 sp sp' ss0 r H _ _ _ IH]; intros v (x & e & Hx & He & <-).
    - destruct Hx.
    - destruct Hx as [<-|[]]. exact (Hst _ _ H e He).
    - destruct Hx as [<-|Hx]; [exact (Hst _ _ H e He)|]. apply IH. exists x, e. auto. }
  assert (Hl : forall ss s, opb_line_text first ss s -> forall v, stmt_var ss v -> (v < max_var_idx + 1)%N).
  { intros ss0 s H. destruct H as [w _|w ss0 s _ H]; [intros v (x & e & [] & _)|]. exact (Hss _ _ H). }
  induction 1 as [ss l H|ss l e ss' t H _ _ IH]; [exact (Hl _ _ H)|]. intros v (x & y & Hx & Hy & <-). apply in_app_iff in Hx as [Hx|Hx]; [apply (Hl _ _ H)|apply IH]; exists x, y; auto.
Qed.

Record means (p : mopt) (P : asg -> Prop) (cost : asg -> list Z) (used : N -> Prop) : Prop := {
  mn_holds : forall a, inst_holds a (fst (mopt_decompose p)) <-> P a;
  mn_cost : forall a, map (obj_value a) (snd (mopt_decompose p)) = cost a;
  mn_wf : forall ob, In ob (snd (mopt_decompose p)) -> obj_wf ob;
  mn_known : inst_known (fst (mopt_decompose p));
  mn_objs : objs_known (fst (mopt_decompose p)) (snd (mopt_decompose p));
  mn_lits : forall l, In l (inst_lits (fst (mopt_decompose p))) -> used (lvar l);
  mn_obj_lits : forall ob l, In ob (snd (mopt_decompose p)) -> In l (obj_vars ob) -> used (lvar l);
  mn_pbs : forall c, In c (i_pbs (fst (mopt_decompose p))) -> (Z.of_nat (total_weight (p_lits c)) <= isize_max)%Z /\ (p_b c <= isize_max)%Z;
  mn_next : (1 <= i_next (fst (mopt_decompose p)) <= max_var_idx + 1)%N }.
Lemma decompose_next p B : (1 <= B)%N -> (i_next (mo_constrs p) <= B)%N -> (forall ob l, In ob (mo_objs p) -> In l (obj_vars ob) -> lvar l < B)%N -> (1 <= i_next (fst (mopt_decompose p)) <= B)%N.
Proof.
  intros H1 Hn Ho. unfold mopt_decompose, inst_increase. cbn [fst i_next]. rewrite next_increase_eq. enough (H : (objs_max (mo_objs p) < B)%N) by lia.
  unfold objs_max. assert (G : forall os m, (m < B)%N -> (forall ob l, In ob os -> In l (obj_vars ob) -> lvar l < B)%N -> (fold_left (fun v o => match obj_max_var o with Some mv => N.max v mv | None => v end) os m < B)%N).
  { clear. induction os as [|o os IH]; intros m Hm Ho; [exact Hm|]. cbn [fold_left]. apply IH; [|intros ob l Hob; apply Ho; now right]. pose proof (obj_max_var_spec o) as Hs. destruct (obj_max_var o) as [v|]; [|exact Hm].
    destruct Hs as [(l & Hl & <-) _]. pose proof (Ho o l (or_introl eq_refl) Hl). lia. }
  apply G; [lia|exact Ho].
Qed.

Lemma clausal_means p n f (P : asg -> Prop) cost (used : N -> Prop) : (n <= max_var_idx)%N -> clausal_known n f (mo_objs p) (mo_constrs p) -> (forall a, sat_cnf a f = true <-> P a) ->
  (forall a, map (obj_value a) (mo_objs p) = cost a) -> (forall ob, In ob (mo_objs p) -> obj_wf ob) -> (forall c l, In c f -> In l c -> used (lvar l)) ->
  (forall ob l, In ob (mo_objs p) -> In l (obj_vars ob) -> used (lvar l)) -> means p P cost used.
Proof.
  intros Hmax (H1 & H2 & H3 & H4 & H5 & H6) HP Hc Hw Hf Ho. destruct (mopt_decompose p) as [c obs] eqn:E. pose proof (m_decompose_known p c obs H5 E) as (-> & K1 & K2 & K3).
  assert (Ec : i_cnf c = f /\ i_cards c = [] /\ i_pbs c = []) by (unfold mopt_decompose in E; injection E as <-; auto). destruct Ec as (E1 & E2 & E3).
  assert (Hdn : (1 <= i_next c <= max_var_idx + 1)%N).
  { replace c with (fst (mopt_decompose p)) by now rewrite E. apply decompose_next; [lia|lia|]. intros ob l Hob Hl. specialize (H6 ob Hob l Hl). lia. }
  split; rewrite E; cbn [fst snd]; auto.
  - intros a. rewrite K3, <- HP. rewrite <- H1. now apply holds_clauses.
  - intros l Hl. unfold inst_lits in Hl. rewrite E1, E2, E3 in Hl. cbn [map List.concat app] in Hl. rewrite app_nil_r in Hl. apply in_concat in Hl as (d & Hd & Hl). now apply (Hf d).
  - rewrite E3. intros q [].
Qed.
Lemma zwsum_nonneg ts : (forall e, In e ts -> 0 <= snd e)%Z -> neg_coeffs ts = 0%Z.
Proof.
  unfold neg_coeffs. induction ts as [|[l c] ts IH]; intros H; [reflexivity|]. cbn [map fold_right snd]. rewrite IH by (intros e He; apply H; now right). pose proof (H (l, c) (or_introl eq_refl)) as H0. cbn [snd] in H0. lia.
Qed.
Lemma checkable_fits ss : Forall checkable ss -> Forall stmt_fits ss.
Proof.
  intros H. eapply Forall_impl; [|exact H]. intros [ts op b|s ts]; cbn [checkable stmt_fits].
  - assert (Ha : (0 <= abs_coeffs ts)%Z) by (unfold abs_coeffs; clear; induction ts as [|[l c] ts IH]; [reflexivity|]; cbn [map fold_right snd]; lia). intros Hc _. lia.
  - intros [Ha _]. fold (neg_coeffs ts). assert (Hn : (- neg_coeffs ts <= abs_coeffs ts)%Z) by (unfold neg_coeffs, abs_coeffs; clear; induction ts as [|[l c] ts IH]; [reflexivity|]; cbn [map fold_right snd]; lia).
    change isize_max with 9223372036854775807%Z in *. change isize_min with (-9223372036854775808)%Z. lia.
Qed.
Lemma parse_means o fmt t P cost used : problem_file (first_var_idx o) fmt t P cost used -> exists p, parse_instance fmt o t = ROk p /\ means p P cost used.
Proof.
  intros H. destruct H as [n m f t Ht Hn|n es t Ht Hn|n es t Ht Hn|ss t Ht Hl Hc]; cbn [parse_instance].
  - rewrite (inst_of_cnf_file n m f t Ht Hn). cbn [rbind]. eexists. split; [reflexivity|]. apply (clausal_means _ (fold_left marks f n) f).
    + apply marks_cnf_tight; [exact Hn|]. exact (cnf_file_below n m f t Ht).
    + split; [reflexivity|]. split; [reflexivity|]. split; [reflexivity|]. split; [reflexivity|]. split; [apply known_cnf; [reflexivity|reflexivity|apply marks_cnf_spec]|intros ob []].
    + reflexivity.
    + reflexivity.
    + intros ob [].
    + intros c l Hin Hl. eauto.
    + intros ob l [].
  - destruct (opt_of_wcnf_file n es t Ht Hn) as (p & E & Eo & Hk). rewrite E. cbn [rbind]. unfold opt_decompose. rewrite Eo. eexists. split; [reflexivity|].
    assert (Hb : forall c x, In (c, x) es -> lits_below n c) by (intros c x Hin; exact (proj1 Ht _ Hin)).
    apply (clausal_means _ n (hards es)); [exact Hn| | | | | |].
    + cbn [mo_objs mopt_compose]. apply compose_clausal.
      * destruct (raise_clausal n (hards es) (o_constrs p) (obj_from_cls (softs es)) _ Hk) as (R1 & R2 & R3 & R4 & R5 & _); [|repeat (split; [assumption|]); intros ob []].
        apply from_cls_below. intros c w Hc. apply in_softs in Hc. exact (Hb _ _ Hc).
      * intros ob [<-|[]]. apply from_cls_below. intros c w Hc. apply in_softs in Hc. exact (Hb _ _ Hc).
    + reflexivity.
    + intros a. cbn [mo_objs mopt_compose map]. unfold wcnf_costs. now rewrite (proj2 (from_cls_spec (softs es))).
    + intros ob [<-|[]]. apply from_cls_spec.
    + intros c l Hin Hl. apply in_hards in Hin. exists c, None, l. auto.
    + intros ob l [<-|[]] Hl. destruct (from_cls_vars _ _ Hl) as (c & w & x & Hc & Hx & Ex). apply in_softs in Hc. exists c, (Some w), x. auto.
  - destruct (mopt_of_mcnf_file n es t Ht) as (p & E & Eo & Hk). rewrite E. exists p. split; [reflexivity|]. apply (clausal_means _ n (hards es)); [exact Hn| | | | | |].
    + now rewrite Eo.
    + reflexivity.
    + intros a. rewrite Eo. unfold mobjs, mcnf_costs. rewrite map_map. apply map_ext. intros k. apply from_cls_spec.
    + rewrite Eo. intros ob Hin. apply in_map_iff in Hin as (k & <- & _). apply from_cls_spec.
    + intros c l Hin Hl. apply in_hards in Hin. exists c, None, l. auto.
    + rewrite Eo. intros ob l Hin Hl. apply in_map_iff in Hin as (k & <- & _). destruct (from_cls_vars _ _ Hl) as (c & w & x & Hc & Hx & Ex). apply in_msofts in Hc. exists c, (Some (k, w)), x. auto.
  - pose proof (checkable_fits ss Hc) as Hf. rewrite Forall_forall in Hc.
    assert (Hobj : forall s ts, In (s, ts) (objs_of ss) -> checkable (SObj s ts)).
    { intros s ts Hin. unfold objs_of in Hin. apply in_flat_map in Hin as (x & Hx & Hin). destruct x as [? ? ?|s' ts']; [easy|]. destruct Hin as [Eq|[]]. injection Eq as <- <-. exact (Hc _ Hx). }
    destruct (mopt_from_opb_means o ss t Ht Hf Hl) as (p & E & Hh & Ho); [intros s ts Hin _; apply (Hobj s ts Hin)|]. exists p. split; [exact E|].
    assert (Hp : i_cnf (mo_constrs p) = [] /\ i_cards (mo_constrs p) = [] /\ i_pbs (mo_constrs p) = pbs_of ss /\ inst_known (mo_constrs p) /\ Forall2 obj_read (objs_of ss) (mo_objs p) /\ (i_next (mo_constrs p) <= max_var_idx + 1)%N).
    { destruct (read_file_ok o ss t Ht Hf) as (ds & Er & Hds). unfold mopt_from_opb in E. rewrite Er, add_opb_mopt_comments, Hds in E.
      destruct (add_opb_mopt_parts ss (mkMopt (inst_new 0) []) p) as (D1 & D2 & D3 & D4 & D7 & os & D5 & D6); [intros l []|exact E|]. cbn [mo_objs app] in D5. rewrite D5. repeat (split; [assumption|]). apply D7; [apply N.le_0_l|exact (opb_file_vars _ _ _ Ht)]. }
    destruct Hp as (P1 & P2 & P3 & P4 & P5 & P6).
    assert (Hnx : (1 <= i_next (fst (mopt_decompose p)) <= max_var_idx + 1)%N).
    { apply decompose_next; [lia|exact P6|]. intros ob l Hin Hl'. destruct (obj_read_in _ _ ob P5 Hin) as (st & Hst & Hr). destruct (obj_read_vars st ob l Hr Hl') as (e & He & <-). apply (opb_file_vars _ _ _ Ht). destruct st as [s ts]. exists (SObj s ts), e. split; [|auto].
      unfold objs_of in Hst. apply in_flat_map in Hst as (x & Hx & Hst). destruct x as [? ? ?|s' ts']; [easy|]. destruct Hst as [Eq|[]]. now injection Eq as <- <-. }
    destruct (mopt_decompose p) as [c obs] eqn:Ed. pose proof (m_decompose_known p c obs P4 Ed) as (-> & K1 & K2 & K3).
    assert (Ec : i_cnf c = [] /\ i_cards c = [] /\ i_pbs c = pbs_of ss) by (unfold mopt_decompose in Ed; injection Ed as <-; auto). destruct Ec as (E1 & E2 & E3).
    split; rewrite Ed; cbn [fst snd]; auto.
    + intros a. now rewrite K3.
    + intros a. unfold opb_costs. assert (Hx : forall st, In st (objs_of ss) -> checkable (SObj (fst st) (snd st))) by (intros [s ts]; apply Hobj). clear - Ho Hx. induction Ho as [|st ob sts os [Hw Hv] _ IH]; [reflexivity|]. cbn [map]. f_equal; [|apply IH; intros st' Hin; apply Hx; now right].
      rewrite Hv. specialize (Hx st (or_introl eq_refl)). destruct Hx as [_ Hx]. unfold read_value. destruct (fst st); [reflexivity|]. rewrite zwsum_nonneg by now apply Hx. lia.
    + intros ob Hin. clear - Ho Hin. induction Ho as [|st ob' sts os [Hw Hv] _ IH]; [easy|]. destruct Hin as [<-|Hin]; auto.
    + intros l Hl'. unfold inst_lits in Hl'. rewrite E1, E2, E3 in Hl'. cbn [map List.concat app] in Hl'. apply in_map_iff in Hl' as ([l' w] & <- & Hin). cbn [fst]. apply in_concat in Hin as (ls & Hls & Hin). apply in_map_iff in Hls as (q & <- & Hq).
      unfold pbs_of in Hq. apply in_map_iff in Hq as ([[ts op] b] & <- & Hq). cbn [fst snd] in Hin. assert (Hv : In (lvar l') (map (fun e => lvar (fst e)) ts)) by (rewrite <- (stmt_pb_vars ts op b); exact (in_map (fun e => lvar (fst e)) _ (l', w) Hin)).
      apply in_map_iff in Hv as (e & Ee & He). unfold constrs_of in Hq. apply in_flat_map in Hq as (st & Hst & Hq). destruct st as [ts' op' b'|]; [|easy]. destruct Hq as [Eq|[]]. injection Eq as -> -> ->. exists (SConstr ts op b), e. auto.
    + intros ob l Hin Hl'. destruct (obj_read_in _ _ ob P5 Hin) as (st & H1 & H2). destruct (obj_read_vars st ob l H2 Hl') as (e & He & Ee). unfold objs_of in H1. apply in_flat_map in H1 as (x & Hx & H1). destruct x as [? ? ?|s ts]; [easy|]. destruct H1 as [<-|[]]. exists (SObj s ts), e. auto.
    + rewrite E3. intros q Hq. unfold pbs_of in Hq. apply in_map_iff in Hq as ([[ts op] b] & <- & Hq). cbn [fst snd]. apply stmt_pb_parts. unfold constrs_of in Hq. apply in_flat_map in Hq as (st & Hst & Hq). destruct st as [ts' op' b'|]; [|easy]. destruct Hq as [Eq|[]]. injection Eq as -> -> ->. exact (Hc _ Hst).
Qed.

(** ** Reading the solution *)

Lemma trim_end_app t e : forallb is_white e = true -> trim_end (t ++ e) = trim_end t.
Proof.
  intros He. unfold trim_end. f_equal. rewrite rev_app_distr. assert (H : forallb is_white (rev e) = true) by (apply forallb_forall; intros c Hc; apply in_rev in Hc; rewrite forallb_forall in He; now apply He).
  revert H. generalize (rev e) as r. clear. unfold trim_start. induction r as [|c r IH]; intros H; [reflexivity|]. cbn [forallb] in H. apply andb_true_iff in H as [H1 H2]. cbn [app span]. rewrite H1. cbn [snd]. now apply IH.
Qed.
Lemma trim_app t e : forallb is_white e = true -> trim (t ++ e) = trim t.
Proof.
  intros He. unfold trim. assert (Hs : trim_start (t ++ e) = trim_start t ++ e \/ (trim_start t = [] /\ trim_start (t ++ e) = [])).
  { unfold trim_start. induction t as [|c t IH].
    - right. split; [reflexivity|]. cbn [app]. clear - He. induction e as [|c e IH]; [reflexivity|]. cbn [forallb] in He. apply andb_true_iff in He as [H1 H2]. cbn [span]. rewrite H1. cbn [snd]. auto.
    - cbn [app span]. destruct (is_white c); cbn [snd]; auto. }
  destruct Hs as [->|[-> ->]]; [now apply trim_end_app|reflexivity].
Qed.
Definition line_end (e : text) : Prop := e = [nl] \/ e = [cr; nl].
Lemma end_white e : line_end e -> forallb is_white e = true.
Proof. intros [-> | ->]; reflexivity. Qed.
Lemma vline_format_end l e : l <> [] -> line_end e -> vline_format (l ++ e) = vline_format l.
Proof.
  intros Hl He. unfold vline_format, has_char. rewrite existsb_app. assert (Hx : existsb (Ascii.eqb "x") e = false) by (destruct He as [-> | ->]; reflexivity). rewrite Hx, orb_false_r.
  destruct l as [|c l]; [easy|]. cbn [app tl]. now rewrite trim_app by now apply end_white.
Qed.
Lemma extend_end s l e : one_line l -> l <> [] -> line_end e -> extend_from_vline s (l ++ e) = extend_from_vline s l.
Proof.
  intros H1 Hl He. rewrite (extend_one l s H1 Hl). unfold extend_from_vline.
  assert (Hn : lines (l ++ e) = [l]) by (apply lines_lines; [constructor; [exact H1|constructor]|]; rewrite <- (app_nil_r e); constructor; [exact He|constructor]).
  rewrite Hn, vline_format_end by assumption. destruct (l ++ e) eqn:E; [destruct l; [easy|discriminate]|]. cbn [extend_lines]. now destruct (extend_line (vline_format l) s l).
Qed.
Lemma read_solution_lines ks lines t : Forall2 (fun k l => out_line_text k l /\ (k = LOther -> forall r, l <> "v"%char :: r)) ks lines -> Forall one_line lines -> lines_text lines t ->
  forall s, read_solution s (read_lines t) =
    (fix go s ks lines := match ks, lines with k :: ks', l :: ls' => if is_value k then match extend_from_vline s l with VOk s' => go s' ks' ls' | x => x end else go s ks' ls' | _, _ => VOk s end) s ks lines.
Proof.
  intros Hk H1 Ht. revert ks Hk. induction Ht as [|l Hl|l e ls t He Ht IH]; intros ks Hk s.
  - inversion Hk; subst. reflexivity.
  - inversion Hk as [|k ? ks' ? [Hk1 Hk2] Hk3]; subst. inversion Hk3; subst. rewrite read_lines_last by (try assumption; apply one_line_no_nl; now apply Forall_inv in H1). cbn [read_solution].
    assert (Hs : starts_with (T "v") l = is_value k).
    { destruct k; cbn [is_value out_line_text] in *.
      - destruct Hk1 as (? & ? & _ & _ & ->). reflexivity.
      - destruct Hk1 as [[r ->] _]. reflexivity.
      - destruct Hk1 as [[r ->] _]. reflexivity.
      - destruct Hk1 as [[r ->] _]. reflexivity.
      - destruct l as [|c l]; [easy|]. change (T "v") with ["v"%char]. cbn [starts_with]. rewrite andb_true_r. destruct (Ascii.eqb_spec "v" c) as [<-|]; [|reflexivity]. now destruct (Hk2 eq_refl l). }
    rewrite Hs. reflexivity.
  - inversion Hk as [|k ? ks' ? [Hk1 Hk2] Hk3]; subst. pose proof (Forall_inv H1) as Ho. apply Forall_inv_tail in H1.
    assert (Er : read_lines (l ++ e ++ t) = (l ++ e) :: read_lines t).
    { destruct He as [-> | ->].
      - change ([nl] ++ t) with (nl :: t). apply read_lines_line. now apply one_line_no_nl.
      - replace (l ++ [cr; nl] ++ t) with ((l ++ [cr]) ++ nl :: t) by (rewrite <- app_assoc; reflexivity). rewrite read_lines_line; [rewrite <- app_assoc; reflexivity|].
        intros Hc. apply in_app_or in Hc as [Hc|[Hc|[]]]; [|discriminate]. revert Hc. now apply one_line_no_nl. }
    rewrite Er. cbn [read_solution].
    assert (Hs : starts_with (T "v") (l ++ e) = is_value k).
    { destruct k; cbn [is_value out_line_text] in *.
      - destruct Hk1 as (? & ? & _ & _ & ->). reflexivity.
      - destruct Hk1 as [[r ->] _]. reflexivity.
      - destruct Hk1 as [[r ->] _]. reflexivity.
      - destruct Hk1 as [[r ->] _]. reflexivity.
      - change (T "v") with ["v"%char]. destruct l as [|c l]; [destruct He as [-> | ->]; reflexivity|]. cbn [app starts_with]. rewrite andb_true_r. destruct (Ascii.eqb_spec "v" c) as [<-|]; [|reflexivity]. now destruct (Hk2 eq_refl l). }
    rewrite Hs. destruct (is_value k) eqn:Ek; [|apply IH; assumption].
    assert (Hl : l <> []) by (intros ->; destruct k; try discriminate; cbn [out_line_text] in Hk1; destruct Hk1 as [[r Hr] _]; discriminate).
    rewrite extend_end by assumption. destruct (extend_from_vline s l); [apply IH; assumption|reflexivity|reflexivity].
Qed.
Lemma solution_values ls t : solution_file ls t -> exists s, read_solution [] (read_lines t) = VOk s /\ describes s ls /\ distinct_vars ls.
Proof.
  intros (ks & lines & Hk & Ht & Hc).
  assert (H1 : Forall one_line lines).
  { apply (out_lines ks); [|clear - Hk; induction Hk as [|k l ks ls [H _] _ IH]; constructor; assumption]. intros bs Hin. destruct Hc as [(Hc & _)|[Hc _]]; rewrite Forall_forall in Hc; specialize (Hc _ Hin); cbn in Hc; tauto. }
  rewrite (read_solution_lines ks lines t Hk H1 Ht). clear t Ht H1. destruct Hc as [(Hc & Hd & ->)|[Hc ->]].
  - assert (Hg : forall s, (fix go s ks lines := match ks, lines with k :: ks', l :: ls' => if is_value k then match extend_from_vline s l with VOk s' => go s' ks' ls' | x => x end else go s ks' ls' | _, _ => VOk s end) s ks lines = extend_lits s (out_lits ks)).
    { clear Hd. induction Hk as [|k l ks ls [Hk _] Hks IH]; intros s; [reflexivity|]. inversion_clear Hc as [|? ? Hc1 Hc2]. specialize (IH Hc2). destruct k as [|xs|xs|bs|]; cbn [is_value out_line_text lits_line] in *.
      - rewrite IH. reflexivity.
      - destruct Hk as [_ Hk]. rewrite (sat_vline_extend xs) by assumption. change (out_lits (LSatVals xs :: ks)) with (present xs ++ out_lits ks). rewrite extend_lits_app. destruct (extend_lits s (present xs)); [apply IH|reflexivity|reflexivity].
      - destruct Hk as [_ Hk]. rewrite (pb_vline_extend xs) by assumption. change (out_lits (LPbVals xs :: ks)) with (xs ++ out_lits ks). rewrite extend_lits_app. destruct (extend_lits s xs); [apply IH|reflexivity|reflexivity].
      - destruct Hc1.
      - rewrite IH. reflexivity. }
    rewrite Hg. destruct (vlits_outcome (out_lits ks)) as [_ H]. destruct (H (distinct_no_repeat _ Hd)) as (s & E & Hv). exists s. split; [exact E|]. split; [|exact Hd]. now apply describes_last.
  - assert (Hg : forall s, (fix go s ks lines := match ks, lines with k :: ks', l :: ls' => if is_value k then match extend_from_vline s l with VOk s' => go s' ks' ls' | x => x end else go s ks' ls' | _, _ => VOk s end) s ks lines = VOk (s ++ map tern_of_bool (out_bits ks))).
    { induction Hk as [|k l ks ls [Hk _] Hks IH]; intros s; [cbn; now rewrite app_nil_r|]. inversion_clear Hc as [|? ? Hc1 Hc2]. specialize (IH Hc2). destruct k as [|xs|xs|bs|]; cbn [is_value out_line_text bits_line] in *; try contradiction.
      - rewrite IH. reflexivity.
      - destruct Hk as [_ Hk], Hc1 as [Hn Hz]. rewrite (bits_vline_extend bs) by assumption. rewrite IH. change (out_bits (LBits bs :: ks)) with (bs ++ out_bits ks). now rewrite map_app, app_assoc.
      - rewrite IH. reflexivity. }
    rewrite Hg. cbn [app]. eexists. split; [reflexivity|]. generalize (out_bits ks) as bs. clear. intros bs.
    assert (Hv : map lvar (bit_lits bs) = map N.of_nat (seq 0 (List.length bs))).
    { unfold bit_lits. rewrite map_map. cbn [lvar]. generalize 0%nat as k. induction bs as [|b bs IH]; intros k; [reflexivity|]. cbn [List.length seq combine map fst]. f_equal. apply IH. }
    split.
    + intros v b. unfold pasg_of. rewrite var_value_nth. replace (nth (vidx v) (map tern_of_bool bs) TDontCare) with (match nth_error bs (vidx v) with Some x => tern_of_bool x | None => TDontCare end)
        by (clear; generalize (vidx v) as k; induction bs as [|x bs IH]; intros [|k]; cbn; auto). unfold bit_lits. rewrite in_map_iff.
      assert (Hin : forall k, (exists x, mkLit (N.of_nat (fst x)) (negb (snd x)) = mkLit v (negb b) /\ In x (combine (seq k (List.length bs)) bs)) <-> (k <= N.to_nat v)%nat /\ nth_error bs (N.to_nat v - k) = Some b).
      { clear Hv. induction bs as [|b' bs IH]; intros k.
        - cbn [List.length seq combine]. split; [intros (x & _ & [])|]. intros [_ H]. now destruct (N.to_nat v - k)%nat.
        - cbn [List.length seq combine]. split.
          + intros (x & E & [<-|Hx]).
            * cbn [fst snd] in E. assert (Ev : N.of_nat k = v) by congruence. assert (Eb : negb b' = negb b) by congruence. subst v. rewrite Nnat.Nat2N.id, Nat.sub_diag. split; [lia|]. cbn. f_equal. now destruct b', b.
            * destruct (proj1 (IH (Datatypes.S k))) as [L E']; [exists x; auto|]. split; [lia|]. replace (N.to_nat v - k)%nat with (Datatypes.S (N.to_nat v - Datatypes.S k)) by lia. exact E'.
          + intros [L E]. destruct (Nat.eq_dec (N.to_nat v) k) as [Ek|Ek].
            * rewrite Ek, Nat.sub_diag in E. cbn in E. injection E as ->. exists (k, b). split; [cbn [fst snd]; f_equal; lia|now left].
            * replace (N.to_nat v - k)%nat with (Datatypes.S (N.to_nat v - Datatypes.S k)) in E by lia. cbn [nth_error] in E. destruct (proj2 (IH (Datatypes.S k))) as (x & Ex & Hx); [split; [lia|exact E]|]. exists x. split; [exact Ex|now right]. }
      rewrite (Hin 0%nat). unfold vidx. rewrite Nat.sub_0_r. destruct (nth_error bs (N.to_nat v)) as [[]|]; cbn [tern_of_bool]; destruct b; intuition (try discriminate; try lia; try congruence).
    + unfold distinct_vars. rewrite Hv. apply FinFun.Injective_map_NoDup; [intros x y; lia|apply seq_NoDup].
Qed.
Lemma makes_true_completes a s ls : describes s ls -> makes_true a ls <-> completes a (pasg_of s).
Proof.
  intros Hd. split.
  - intros H v b E. apply Hd in E. specialize (H _ E). unfold lit_true in H. cbn [lvar lneg] in H. destruct b; cbn in H; destruct (a v); easy.
  - intros H [v n] Hin. replace n with (negb (negb n)) in Hin by now destruct n. apply Hd in Hin. apply H in Hin. unfold lit_true. cbn [lvar lneg]. rewrite Hin. now destruct n.
Qed.
Lemma values_all_set s ls l : describes s ls -> In (lvar l) (map lvar ls) -> lit_value s l <> TDontCare.
Proof.
  intros Hd Hin. apply in_map_iff in Hin as ([v n] & E & Hin). cbn [lvar] in E. subst v. replace n with (negb (negb n)) in Hin by now destruct n. apply Hd in Hin. unfold pasg_of in Hin. unfold lit_value.
  destruct (var_value s (lvar l)); [destruct (lneg l); discriminate|destruct (lneg l); discriminate|discriminate].
Qed.

(** ** The verdict *)

Definition inst_of_ref (r : constr_ref) : inst :=
  match r with RClause c => mkInst [c] [] [] 0 | RCard c => mkInst [] [c] [] 0 | RPb p => mkInst [] [] [p] 0 end.
Lemma ref_inst a r : inst_holds a (inst_of_ref r) <-> ref_holds a r.
Proof.
  destruct r as [c|c|p]; unfold inst_holds, holds; cbn [inst_of_ref i_cnf i_cards i_pbs ref_holds In sat_cnf forallb].
  - unfold sat_cnf. cbn [forallb]. rewrite andb_true_r. intuition easy.
  - split; [intros (_ & H & _); apply H; now left|]. intros H. split; [reflexivity|]. split; [intros x [<-|[]]; exact H|intros x []].
  - split; [intros (_ & _ & H); apply H; now left|]. intros H. split; [reflexivity|]. split; [intros x []|intros x [<-|[]]; exact H].
Qed.
Lemma check_spec_means o fmt t p P cost used ls sol : parse_instance fmt o t = ROk p -> means p P cost used -> solution_file ls sol ->
  exists v, check_solution fmt o t sol = ROk v /\
  (forall vs, v = Accepted vs -> forall a, makes_true a ls -> P a /\ Forall2 Z.le vs (cost a)) /\
  (forall r, v = Rejected r -> forall a, P a -> ref_holds a r) /\
  (values_all used ls -> forall a, makes_true a ls -> (P a /\ v = Accepted (cost a)) \/ (exists r, v = Rejected r /\ ~ ref_holds a r)).
Proof.
  intros E M Hs. destruct (solution_values ls sol Hs) as (s & Es & Hd & Hn).
  unfold check_solution. rewrite E. cbn [rbind]. destruct (mopt_decompose p) as [c obs] eqn:Ed. destruct M as [M1 M2 M3 M4 M5 M6 M7 M8 _]. rewrite Ed in *. cbn [fst snd] in *. rewrite Es.
  pose proof (unsat_constraint_spec s c) as U. destruct (unsat_constraint s c) as [r|].
  - exists (Rejected r). split; [reflexivity|]. split; [discriminate|]. 
    assert (Hin : forall a, inst_holds a c -> ref_holds a r).
    { intros a (H1 & H2 & H3). destruct r as [x|x|x]; cbn [ref_holds]; destruct U as [U _]; [|now apply H2|now apply H3]. rewrite sat_cnf_true in H1. now apply H1. }
    split; [intros r' Er a Ha; injection Er as <-; apply Hin; now apply M1|].
    intros Hv a Ha. right. exists r. split; [reflexivity|]. intros Hr.
    destruct (inst_evaluate_total s (inst_of_ref r) a) as [[Et _]|[_ Hf]].
    + intros q Hq. destruct r as [x|x|x]; cbn in Hq; try contradiction. destruct Hq as [<-|[]]. apply M8. apply U.
    + intros l Hl. apply (values_all_set s ls l Hd). apply Hv. apply M6. apply inst_lits_inv in Hl. destruct r as [x|x|x], U as [U _]; cbn [inst_of_ref i_cnf i_cards i_pbs In] in Hl.
      * destruct Hl as [(y & [<-|[]] & Hl)|[(y & [] & _)|(y & w & [] & _)]]. now apply (inst_lits_cnf c x).
      * destruct Hl as [(y & [] & _)|[(y & [<-|[]] & Hl)|(y & w & [] & _)]]. now apply (inst_lits_card c x).
      * destruct Hl as [(y & [] & _)|[(y & [] & _)|(y & w & [<-|[]] & Hl)]]. now apply (inst_lits_pb c x l w).
    + now apply (makes_true_completes a s ls).
    + apply (proj1 (inst_evaluate_cases s (inst_of_ref r))) in Et as (T1 & T2 & T3). destruct r as [x|x|x]; destruct U as [_ U]; apply U; [apply T1|apply T2|apply T3]; now left.
    + apply Hf. now apply ref_inst.
  - assert (Hv : forall obs', (forall ob, In ob obs' -> In ob obs) -> exists vs, mapM (obj_evaluate s) obs' = Some vs /\ (forall a, makes_true a ls -> Forall2 Z.le vs (map (obj_value a) obs')) /\
      (values_all used ls -> forall a, makes_true a ls -> vs = map (obj_value a) obs')).
    { induction obs' as [|ob obs' IH]; intros Hin; [exists []; split; [reflexivity|]; split; [intros a _; constructor|reflexivity]|]. destruct IH as (vs & E1 & E2 & E3); [intros ob' H'; apply Hin; now right|].
      assert (W : obj_wf ob) by (apply M3, Hin; now left).
      destruct (evaluate_le s ob (fun v => match pasg_of s v with Some b => b | None => false end) W) as (v & Ev & _); [intros u b Eu; now rewrite Eu|].
      exists (v :: vs). cbn [mapM]. rewrite Ev. cbn [obind]. rewrite E1. split; [reflexivity|]. split.
      - intros a Ha. cbn [map]. constructor; [|now apply E2]. apply (makes_true_completes a s ls Hd) in Ha. destruct (evaluate_le s ob a W Ha) as (v' & Ev' & L). congruence.
      - intros Hall a Ha. cbn [map]. f_equal; [|now apply E3]. apply (makes_true_completes a s ls Hd) in Ha. rewrite (evaluate_total s ob a W Ha) in Ev; [congruence|]. intros l Hl. apply (values_all_set s ls l Hd), Hall, (M7 ob); [apply Hin; now left|exact Hl]. }
    destruct (Hv obs (fun _ H => H)) as (vs & E1 & E2 & E3). rewrite E1. cbn [to_res rbind]. exists (Accepted vs). split; [reflexivity|].
    assert (Hh : forall a, makes_true a ls -> P a) by (intros a Ha; apply M1; apply (inst_evaluate_true_sound s); [intros q Hq; now apply M8|exact U|now apply (makes_true_completes a s ls)]).
    split; [|split; [discriminate|]].
    + intros vs' Evs a Ha. injection Evs as <-. split; [now apply Hh|]. rewrite <- M2. now apply E2.
    + intros Hall a Ha. left. split; [now apply Hh|]. rewrite <- M2. f_equal. now apply E3.
Qed.
Lemma check_spec o fmt t P cost used ls sol : problem_file (first_var_idx o) fmt t P cost used -> solution_file ls sol ->
  exists v, check_solution fmt o t sol = ROk v /\
  (forall vs, v = Accepted vs -> forall a, makes_true a ls -> P a /\ Forall2 Z.le vs (cost a)) /\
  (forall r, v = Rejected r -> forall a, P a -> ref_holds a r) /\
  (values_all used ls -> forall a, makes_true a ls -> (P a /\ v = Accepted (cost a)) \/ (exists r, v = Rejected r /\ ~ ref_holds a r)).
Proof.
  intros Hp Hs. destruct (parse_means o fmt t P cost used Hp) as (p & E & M). exact (check_spec_means o fmt t p P cost used ls sol E M Hs).
Qed.
