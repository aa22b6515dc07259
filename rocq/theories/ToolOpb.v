(** * Conversions by the command line tools, from OPB *)

From Coq Require Import List Bool NArith ZArith Ascii String Lia Permutation.
From Coq Require Import ZifyBool ZifyNat ZifyN.
From Verif Require Import Spec Types Base ConstrSpec Constraints ConstrProofs Maps EncSpec VarMan NodeDb Inst InstSpec InstProofs ClauseProofs Opt OptSpec OptProofs OptConv Text FioSpec Dimacs DimacsSpec DimacsProofs
  DimacsGrammar Opb OpbSpec OpbProofs OpbInst Tools ToolSpec ToolText ToolConv ToolProofs.
Import ListNotations.
Open Scope list_scope.

(** ** Constraints that are read *)
Lemma convert_vars ts : map (fun e => lvar (fst e)) (fst (fst (convert_input_lits ts))) = map (fun e => lvar (fst e)) ts.
Proof.
  induction ts as [|[l w] ts IH]; [reflexivity|]. cbn [convert_input_lits]. destruct (convert_input_lits ts) as [[r s] badd]. cbn [fst] in IH. destruct (0 <=? w)%Z; cbn [fst map]; rewrite IH; reflexivity.
Qed.
Lemma convert_weights ts : map snd (fst (fst (convert_input_lits ts))) = map (fun e => Z.abs_nat (snd e)) ts.
Proof.
  induction ts as [|[l w] ts IH]; [reflexivity|]. cbn [convert_input_lits]. destruct (convert_input_lits ts) as [[r s] badd]. cbn [fst] in IH. destruct (0 <=? w)%Z; cbn [fst map snd]; rewrite IH; reflexivity.
Qed.
Lemma convert_bound ts : snd (convert_input_lits ts) = (- neg_coeffs ts)%Z.
Proof.
  unfold neg_coeffs. induction ts as [|[l w] ts IH]; [reflexivity|]. cbn [convert_input_lits map fold_right snd]. destruct (convert_input_lits ts) as [[r s] badd]. cbn [snd] in IH. destruct (Z.leb_spec 0 w); cbn [snd]; lia.
Qed.
Lemma nodup_fst_vars (ls : list (lit * nat)) : NoDup (map (fun e => lvar (fst e)) ls) -> NoDup (map fst ls).
Proof. intros H. apply (NoDup_map_inv lvar). now rewrite map_map. Qed.

Lemma pb_new_ok k ts b : NoDup (map (fun e => lvar (fst e)) ts) -> (forall e, In e ts -> snd e <> 0%Z) ->
  (k = KEq -> ts <> [] -> forall u, (forall e, In e ts -> Z.abs (snd e) = u) -> (u | b - neg_coeffs ts)%Z) -> pb_plain (pb_new k ts b) /\ ~ indivisible (pb_new k ts b).
Proof.
  intros Hd Hz He. assert (Hwf := pb_new_wf k ts b). unfold pb_new in *. pose proof (convert_vars ts) as Hv. pose proof (convert_weights ts) as Hw. pose proof (convert_bound ts) as Hb.
  destruct (convert_input_lits ts) as [[r s] badd]. cbn [fst snd] in *. split.
  - split; [exact Hwf|]. cbn [p_lits]. split; [apply nodup_fst_vars; now rewrite Hv|]. intros l w Hin. assert (Hin' : In w (map snd r)) by (change w with (snd (l, w)); now apply in_map). rewrite Hw in Hin'.
    apply in_map_iff in Hin' as (e & <- & Hin'). specialize (Hz e Hin'). lia.
  - intros (Hk & Hne & Hr & u & Hu & Hnd). cbn [p_kind p_lits p_b] in *.
    assert (Hts : ts <> []) by (intros ->; cbn in Hw; destruct r; [now apply Hne|discriminate]).
    specialize (He Hk Hts (Z.of_nat u)). apply Hnd. destruct He as [q Eq].
    { intros e Hin. assert (Hin' : In (Z.abs_nat (snd e)) (map snd r)) by (rewrite Hw; apply (in_map (fun e => Z.abs_nat (snd e))), Hin). apply in_map_iff in Hin' as ([l w] & Ew & Hin'). cbn [snd] in Ew. specialize (Hu l w Hin'). lia. }
    exists (Z.abs_nat q). rewrite Hb. replace (b + - neg_coeffs ts)%Z with (q * Z.of_nat u)%Z by lia. rewrite Zabs2Nat.inj_mul. now rewrite Zabs2Nat.id.
Qed.
Definition stmt_pb (ts : list (lit * Z)) (op : opb_op) (b : Z) : pb :=
  match op with OpLE => pb_new_ub ts b | OpGE => pb_new_lb ts b | OpLT => pb_new_ub ts (b + 1) | OpGT => pb_new_lb ts (b + 1) | OpEQ => pb_new_eq ts b end.
Lemma stmt_pb_ok ts op b : plain_stmt (SConstr ts op b) -> pb_plain (stmt_pb ts op b) /\ ~ indivisible (stmt_pb ts op b).
Proof.
  intros (H1 & H2 & H3). destruct op; apply pb_new_ok; auto; discriminate.
Qed.
Lemma stmt_pb_vars ts op b : map (fun e => lvar (fst e)) (p_lits (stmt_pb ts op b)) = map (fun e => lvar (fst e)) ts.
Proof.
  assert (H : forall k b', map (fun e => lvar (fst e)) (p_lits (pb_new k ts b')) = map (fun e => lvar (fst e)) ts).
  { intros k b'. unfold pb_new. pose proof (convert_vars ts) as Hv. destruct (convert_input_lits ts) as [[r s] badd]. exact Hv. }
  destruct op; apply H.
Qed.

(** An instance that has only plain pseudo-Boolean constraints, with variables below the next one *)
Definition opb_clean (i : inst) : Prop := i_cnf i = [] /\ i_cards i = [] /\ (forall p, In p (i_pbs i) -> pb_plain p /\ ~ indivisible p) /\ inst_known i.
Lemma clean_new : opb_clean (inst_new 0).
Proof. repeat (split; [reflexivity|]). split; [intros p []|intros l []]. Qed.
Lemma clean_raise i n : opb_clean i -> (i_next i <= n)%N -> opb_clean (mkInst (i_cnf i) (i_cards i) (i_pbs i) n).
Proof. intros (H1 & H2 & H3 & H4) Hn. repeat (split; [assumption|]). intros l Hl. apply H4 in Hl. cbn [i_next]. lia. Qed.
Lemma clean_add i q : opb_clean i -> pb_plain q -> ~ indivisible q -> opb_clean (inst_add_pb i q) /\ (i_next i <= i_next (inst_add_pb i q))%N /\ (forall v, In v (map (fun e => lvar (fst e)) (p_lits q)) -> (v < i_next (inst_add_pb i q))%N).
Proof.
  intros (H1 & H2 & H3 & H4) Hq Hd. unfold inst_add_pb. cbn [i_next]. destruct (marks_spec (map fst (p_lits q)) (i_next i)) as [L B].
  assert (Hv : forall l, In l (map fst (p_lits q)) -> (lvar l < marks (i_next i) (map fst (p_lits q)))%N) by exact B. split; [|split; [exact L|]].
  - split; [exact H1|]. split; [exact H2|]. split.
    + cbn [i_pbs]. intros p Hp. apply in_app_iff in Hp as [Hp|[<-|[]]]; auto.
    + unfold inst_known, inst_lits in *. cbn [i_cnf i_cards i_pbs i_next]. rewrite map_app, concat_app, map_app, !app_assoc. intros l Hl. apply in_app_iff in Hl as [Hl|Hl].
      * rewrite <- app_assoc in Hl. apply H4 in Hl. lia.
      * cbn [map List.concat] in Hl. rewrite app_nil_r in Hl. now apply Hv.
  - intros v Hin. rewrite <- (map_map fst lvar) in Hin. apply in_map_iff in Hin as (l & <- & Hl). now apply Hv.
Qed.
Lemma constr_var_lt ts op b ss n n' : (forall v, In v (map (fun e => lvar (fst e)) (p_lits (stmt_pb ts op b))) -> (v < n)%N) -> (n <= n')%N ->
  (forall v ts' op' b', In (ts', op', b') (constrs_of ss) -> In v (map (fun e => lvar (fst e)) ts') -> (v < n')%N) ->
  forall v ts' op' b', In (ts', op', b') (constrs_of (SConstr ts op b :: ss)) -> In v (map (fun e => lvar (fst e)) ts') -> (v < n')%N.
Proof.
  intros H Hn Hr v ts' op' b' Hin Hv. unfold constrs_of in Hin. cbn [flat_map app] in Hin. destruct Hin as [E|Hin]; [|exact (Hr v ts' op' b' Hin Hv)].
  assert (ts' = ts) as -> by congruence. rewrite stmt_pb_vars in H. specialize (H v Hv). lia.
Qed.
Definition constrs_below (ss : list stmt) (n : N) : Prop := forall v ts op b, In (ts, op, b) (constrs_of ss) -> In v (map (fun e => lvar (fst e)) ts) -> (v < n)%N.

Lemma add_opb_clean ss : Forall plain_stmt ss -> forall i i', opb_clean i -> add_opb i (map stmt_data ss) = ROk i' -> opb_clean i' /\ (i_next i <= i_next i')%N /\ constrs_below ss (i_next i').
Proof.
  induction 1 as [|st ss Hst _ IH]; intros i i' Hi E.
  - injection E as <-. split; [exact Hi|]. split; [lia|]. intros v ts op b [].
  - destruct st as [ts op b|s ts]; [|discriminate]. change (add_opb (inst_add_pb i (stmt_pb ts op b)) (map stmt_data ss) = ROk i') in E.
    destruct (stmt_pb_ok ts op b Hst) as [Hp Hd]. destruct (clean_add i _ Hi Hp Hd) as (C1 & C2 & C3). destruct (IH _ _ C1 E) as (D1 & D2 & D3). split; [exact D1|]. split; [lia|].
    exact (constr_var_lt ts op b ss _ _ C3 D2 D3).
Qed.
Lemma add_opb_opt_clean ss : Forall plain_stmt ss -> forall i f i' f', opb_clean i -> add_opb_opt i f (map stmt_data ss) = ROk (i', f') -> opb_clean i' /\ (i_next i <= i_next i')%N /\ constrs_below ss (i_next i').
Proof.
  induction 1 as [|st ss Hst _ IH]; intros i f i' f' Hi E.
  - injection E as <- <-. split; [exact Hi|]. split; [lia|]. intros v ts op b [].
  - destruct st as [ts op b|s ts].
    + change (add_opb_opt (inst_add_pb i (stmt_pb ts op b)) f (map stmt_data ss) = ROk (i', f')) in E.
      destruct (stmt_pb_ok ts op b Hst) as [Hp Hd]. destruct (clean_add i _ Hi Hp Hd) as (C1 & C2 & C3). destruct (IH _ _ _ _ C1 E) as (D1 & D2 & D3). split; [exact D1|]. split; [lia|].
      exact (constr_var_lt ts op b ss _ _ C3 D2 D3).
    + cbn [map stmt_data add_opb_opt] in E. destruct f; [discriminate|]. exact (IH _ _ _ _ Hi E).
Qed.
Definition obj_read (st : sense * list (lit * Z)) (ob : obj) : Prop := objective_of (fst st) (fst (objective_sum (snd st))) (snd (objective_sum (snd st))) = Some ob.
Lemma add_opb_mopt_clean ss : Forall plain_stmt ss -> forall p p', opb_clean (mo_constrs p) -> add_opb_mopt p (map stmt_data ss) = ROk p' ->
  opb_clean (mo_constrs p') /\ (i_next (mo_constrs p) <= i_next (mo_constrs p'))%N /\ constrs_below ss (i_next (mo_constrs p')) /\ exists os, mo_objs p' = mo_objs p ++ os /\ Forall2 obj_read (objs_of ss) os.
Proof.
  induction 1 as [|st ss Hst _ IH]; intros p p' Hi E.
  - injection E as <-. split; [exact Hi|]. split; [lia|]. split; [intros v ts op b []|]. exists []. split; [now rewrite app_nil_r|constructor].
  - destruct st as [ts op b|s ts].
    + change (add_opb_mopt (mkMopt (inst_add_pb (mo_constrs p) (stmt_pb ts op b)) (mo_objs p)) (map stmt_data ss) = ROk p') in E.
      destruct (stmt_pb_ok ts op b Hst) as [Hp Hd]. destruct (clean_add _ _ Hi Hp Hd) as (C1 & C2 & C3). destruct (IH (mkMopt (inst_add_pb (mo_constrs p) (stmt_pb ts op b)) (mo_objs p)) p' C1 E) as (D1 & D2 & D3 & D4). cbn [mo_constrs mo_objs] in *. split; [exact D1|]. split; [lia|]. split; [|exact D4].
      exact (constr_var_lt ts op b ss _ _ C3 D2 D3).
    + cbn [map stmt_data add_opb_mopt] in E. destruct (objective_of s (fst (objective_sum ts)) (snd (objective_sum ts))) as [ob|] eqn:Eo; [|discriminate]. cbv zeta in E.
      destruct (marks_spec (map snd (fst (objective_sum ts))) (i_next (mo_constrs p))) as [L _].
      match type of E with add_opb_mopt ?q _ = _ => destruct (IH q p' (clean_raise _ _ Hi L) E) as (D1 & D2 & D3 & os & D4 & D5) end. cbn [mo_constrs mo_objs i_next] in *. split; [exact D1|]. split; [lia|]. split; [exact D3|]. exists (ob :: os). split; [now rewrite D4, <- app_assoc|].
      constructor; [exact Eo|exact D5].
Qed.

(** ** Objectives that are read *)
Lemma from_lits_cls xs : obj_from_lits xs = obj_from_cls (map (fun e => ([neg (fst e)], snd e)) xs).
Proof.
  unfold obj_from_lits, obj_from_cls. generalize obj_new. induction xs as [|[l w] xs IH]; intros o; [reflexivity|]. cbn [map fold_left fst snd]. rewrite IH. f_equal.
  unfold increase_soft_clause. destruct (w =? 0)%nat eqn:E; [unfold increase_soft_lit; now rewrite E|]. now rewrite neg_neg.
Qed.
Lemma objective_form st ob : obj_read st ob -> exists ys z, ob = obj_increase_offset z (obj_from_cls ys) /\ obj_offset ob = (match fst st with Minimize => neg_coeffs (snd st) | Maximize => neg_coeffs (snd st) - abs_coeffs (snd st) end)%Z /\
  map (fun e => (map lvar (fst e), snd e)) ys = map (fun e => ([lvar (fst e)], Z.abs_nat (snd e))) (snd st).
Proof.
  destruct st as [s ts]. unfold obj_read. cbn [fst snd]. intros E.
  assert (Hoff : forall z ys, obj_offset (obj_increase_offset z (obj_from_cls ys)) = z).
  { intros z ys. pose proof (from_cls_offset ys) as H. destruct (obj_from_cls ys); cbn in *; lia. }
  assert (Hvars : forall g : lit -> lit, (forall l, lvar (g l) = lvar l) -> map (fun e => (map lvar (fst e), snd e)) (map (fun e => ([neg (fst e)], snd e)) (map (fun e => (g (snd e), fst e)) (fst (objective_sum ts)))) = map (fun e => ([lvar (fst e)], Z.abs_nat (snd e))) ts).
  { intros g Hg. rewrite !map_map. clear - Hg. induction ts as [|[l c] ts IH]; [reflexivity|]. cbn [objective_sum]. destruct (objective_sum ts) as [terms z]. cbn [fst] in IH.
    destruct (0 <? c)%Z; cbn [fst snd map]; (apply (f_equal2 cons); [|exact IH]); cbn [neg lvar]; rewrite Hg; reflexivity. }
  pose proof (objective_sum_snd ts) as Es. fold (neg_coeffs ts) in Es. unfold objective_of in E. destruct s.
  - injection E as <-. rewrite from_lits_cls. eexists _, _. split; [reflexivity|]. split; [rewrite Hoff; exact Es|]. exact (Hvars (fun l => l) (fun l => eq_refl)).
  - unfold in_isize in E. destruct ((isize_min <=? _) && _)%Z; [|discriminate]. injection E as <-. rewrite from_lits_cls. eexists _, _. split; [reflexivity|]. split; [rewrite Hoff, Es, objective_sum_weights; reflexivity|].
    exact (Hvars neg (fun l => eq_refl)).
Qed.
Lemma increase_offset_parts z o : obj_lits (obj_increase_offset z o) = obj_lits o /\ obj_cls (obj_increase_offset z o) = obj_cls o.
Proof. now destruct o. Qed.
Lemma soft_sum_in lord cord ob c w : orders lord cord -> In (c, w) (iter_soft_cls lord cord ob) -> (w <= soft_sum (fun _ => true) ob)%nat.
Proof.
  intros Ho Hin. apply (Permutation_in _ (iter_soft_cls_spec lord cord Ho ob)) in Hin. unfold soft_sum. apply in_app_iff in Hin as [Hin|Hin].
  - apply in_map_iff in Hin as ([l w'] & E & Hin). cbn [fst snd] in E. injection E as <- <-. pose proof (ksum_in (fun _ => true) _ l w' Hin eq_refl). lia.
  - pose proof (ksum_in (fun _ => true) _ c w Hin eq_refl). lia.
Qed.
Lemma iter_soft_cls_vars lord cord ob c w l : orders lord cord -> In (c, w) (iter_soft_cls lord cord ob) -> In l c -> exists l', In l' (obj_vars ob) /\ lvar l' = lvar l.
Proof.
  intros Ho Hin Hl. apply (Permutation_in _ (iter_soft_cls_spec lord cord Ho ob)) in Hin. unfold obj_vars. apply in_app_iff in Hin as [Hin|Hin].
  - apply in_map_iff in Hin as ([l' w'] & E & Hin). cbn [fst snd] in E. injection E as <- <-. destruct Hl as [<-|[]]. exists l'. split; [|reflexivity]. apply in_app_iff. left. change l' with (fst (l', w')). now apply in_map.
  - exists l. split; [|reflexivity]. apply in_app_iff. right. apply in_concat. exists c. split; [|exact Hl]. change c with (fst (c, w)). now apply in_map.
Qed.
(** What the soft clauses of an objective that was read mean *)
Lemma objective_softs lord cord st ob : orders lord cord -> obj_read st ob -> plain_stmt (SObj (fst st) (snd st)) ->
  (forall a, Z.of_nat (cls_cost a (iter_soft_cls lord cord ob)) = (soft_shift st + match fst st with Minimize => zwsum a (snd st) | Maximize => - zwsum a (snd st) end)%Z) /\
  (forall c w, In (c, w) (iter_soft_cls lord cord ob) -> is_usize w) /\
  (forall v, In v (map (fun e => lvar (fst e)) (snd st)) -> In v (map lvar (obj_vars ob))).
Proof.
  intros Ho Hr [Habs Hnz]. destruct (objective_form st ob Hr) as (ys & z & Eob & Eoff & Ev). destruct (increase_offset_parts z (obj_from_cls ys)) as [P1 P2]. rewrite <- Eob in P1, P2. split; [|split].
  - intros a. destruct (objective_of_value (fst st) (snd st)) as (ob' & E' & _ & Hv); [intros _; exact Habs|]. unfold obj_read in Hr. rewrite Hr in E'. assert (ob' = ob) as -> by congruence.
    pose proof (iter_soft_cls_value lord cord Ho ob a) as Hval. rewrite Hv, Eoff in Hval. unfold soft_shift, read_value in *. destruct (fst st); lia.
  - intros c w Hin. apply (soft_sum_in _ _ _ _ _ Ho) in Hin. assert (Es : soft_sum (fun _ => true) ob = list_sum (map snd ys)) by (unfold soft_sum; rewrite P1, P2; apply from_cls_total). rewrite Es in Hin.
    assert (Ew : map snd ys = map (fun e => Z.abs_nat (snd e)) (snd st)).
    { transitivity (map snd (map (fun e => (map lvar (fst e), snd e)) ys)); [rewrite map_map; now apply map_ext|]. rewrite Ev, map_map. now apply map_ext. }
    assert (Z.of_nat (list_sum (map (fun e : lit * Z => Z.abs_nat (snd e)) (snd st))) = abs_coeffs (snd st)).
    { unfold abs_coeffs. clear. induction (snd st) as [|[l c] ts IH]; [reflexivity|]. cbn [map fold_right snd]. change (list_sum (?x :: ?r)) with (x + list_sum r)%nat. lia. }
    unfold is_usize. rewrite Ew in Hin. change isize_max with 9223372036854775807%Z in Habs. change usize_max with 18446744073709551615%N. lia.
  - intros v Hin. apply in_map_iff in Hin as (e & <- & Hin). assert (Hin2 : In ([lvar (fst e)], Z.abs_nat (snd e)) (map (fun e => (map lvar (fst e), snd e)) ys)) by (rewrite Ev; apply (in_map (fun e => ([lvar (fst e)], Z.abs_nat (snd e)))), Hin).
    apply in_map_iff in Hin2 as ([c w] & E & Hin2). cbn [fst snd] in E. destruct c as [|l [|]]; try discriminate. cbn [map] in E. assert (El : lvar l = lvar (fst e)) by congruence. rewrite <- El.
    assert (Hpos : positive_softs ys).
    { intros c' w' Hc. assert (Hc2 : In (map lvar c', w') (map (fun e => ([lvar (fst e)], Z.abs_nat (snd e))) (snd st))) by (rewrite <- Ev; exact (in_map (fun e => (map lvar (fst e), snd e)) ys (c', w') Hc)).
      apply in_map_iff in Hc2 as (e' & E' & He'). specialize (Hnz e' He'). assert (w' = Z.abs_nat (snd e')) by congruence. lia. }
    unfold obj_vars. rewrite P1, P2. apply (from_cls_var_in ys [l] w l Hpos Hin2). now left.
Qed.

(** ** Sanitization *)
Definition in_vars (V : N -> Prop) (ls : list lit) : Prop := forall l, In l ls -> V (lvar l).
Definition st_in (V : N -> Prop) (f : cnf) (cards : list card) : Prop := (forall c, In c f -> in_vars V c) /\ (forall c, In c cards -> in_vars V (c_lits c)).
Lemma pb_into_clause_vars V p c : pb_into_clause p = Some c -> in_vars V (map fst (p_lits p)) -> in_vars V c.
Proof.
  unfold pb_into_clause. destruct (pb_is_clause p); [|discriminate]. cbn [negb]. destruct (p_kind p); intros E H; [| |discriminate]; injection E as <-; intros l Hl.
  - apply in_map_iff in Hl as (e & <- & Hl). apply (H (fst e)). now apply in_map.
  - now apply H.
Qed.
Lemma pb_into_card_vars V p c : pb_into_card_constr p = TcOk c -> in_vars V (map fst (p_lits p)) -> in_vars V (c_lits c).
Proof.
  unfold pb_into_card_constr. destruct (pb_is_tautology p); [discriminate|]. destruct (pb_is_unsat p); [discriminate|]. destruct (find_unit_weight (p_lits p)) as [[|u]|]; [discriminate| |discriminate].
  destruct (p_kind p); [| |destruct (_ =? _)%nat; [|discriminate]]; intros E H; injection E as <-; exact H.
Qed.
Lemma card_into_clause_vars V p c : card_into_clause p = Some c -> in_vars V (c_lits p) -> in_vars V c.
Proof.
  unfold card_into_clause. destruct (card_is_clause p); [|discriminate]. cbn [negb]. destruct (c_kind p); intros E H; [| |discriminate]; injection E as <-; intros l Hl.
  - apply in_map_iff in Hl as (e & <- & Hl). now apply (H e).
  - now apply H.
Qed.
Lemma units_vars {A} (V : N -> Prop) (g : A -> lit) xs : (forall x, In x xs -> V (lvar (g x))) -> forall c, In c (map (fun x => [g x]) xs) -> in_vars V c.
Proof. intros H c Hc. apply in_map_iff in Hc as (x & <- & Hx). intros l [<-|[]]. now apply H. Qed.
Lemma st_in_app V f g cards : st_in V f cards -> (forall c, In c g -> in_vars V c) -> st_in V (f ++ g) cards.
Proof. intros [H1 H2] Hg. split; [|exact H2]. intros c Hc. apply in_app_iff in Hc as [Hc|Hc]; auto. Qed.
Lemma sanitize_pb_vars V p u f cards pbs st' : in_vars V (map fst (p_lits p)) -> st_in V f cards -> sanitize_pb (u, f, cards, pbs) p = Some st' ->
  exists u' f' cards' pbs', st' = (u', f', cards', pbs') /\ st_in V f' cards' /\ forall q, In q pbs' -> In q pbs \/ q = p.
Proof.
  intros Hp Hs. unfold sanitize_pb.
  assert (Hl : forall e, In e (p_lits p) -> V (lvar (fst e))) by (intros e He; apply Hp; now apply in_map).
  destruct (pb_is_tautology p); [intros E; injection E as <-; eexists _, _, _, _; split; [reflexivity|]; now split; [|intros; left]|].
  destruct (pb_is_unsat p); [intros E; injection E as <-; eexists _, _, _, _; split; [reflexivity|]; now split; [|intros; left]|].
  destruct (pb_is_positive_assignment p).
  { intros E; injection E as <-. eexists _, _, _, _. split; [reflexivity|]. split; [|intros; now left]. apply st_in_app; [exact Hs|]. now apply units_vars. }
  destruct (pb_is_negative_assignment p).
  { intros E; injection E as <-. eexists _, _, _, _. split; [reflexivity|]. split; [|intros; now left]. apply st_in_app; [exact Hs|]. apply (units_vars V (fun lw => neg (fst lw))). exact Hl. }
  destruct (pb_is_clause p).
  { destruct (pb_into_clause p) as [c|] eqn:Ec; [|discriminate]. cbn [obind]. intros E; injection E as <-. eexists _, _, _, _. split; [reflexivity|]. split; [|intros; now left]. apply st_in_app; [exact Hs|].
    intros d [<-|[]]. now apply (pb_into_clause_vars V p). }
  destruct (pb_is_card p).
  { destruct (pb_into_card_constr p) as [c| | | |] eqn:Ec; try discriminate. intros E; injection E as <-. eexists _, _, _, _. split; [reflexivity|]. split; [|intros; now left]. destruct Hs as [S1 S2]. split; [exact S1|].
    intros d Hd. apply in_app_iff in Hd as [Hd|[<-|[]]]; [now apply S2|]. now apply (pb_into_card_vars V p). }
  intros E; injection E as <-. eexists _, _, _, _. split; [reflexivity|]. split; [exact Hs|]. intros q Hq. apply in_app_iff in Hq as [Hq|[<-|[]]]; auto.
Qed.
Lemma sanitize_pbs_vars V ps : (forall p, In p ps -> in_vars V (map fst (p_lits p))) -> forall u f cards pbs st', st_in V f cards -> foldM sanitize_pb ps (u, f, cards, pbs) = Some st' ->
  exists u' f' cards' pbs', st' = (u', f', cards', pbs') /\ st_in V f' cards' /\ forall q, In q pbs' -> In q pbs \/ In q ps.
Proof.
  induction ps as [|p ps IH]; intros Hp u f cards pbs st' Hs E.
  - injection E as <-. eexists _, _, _, _. split; [reflexivity|]. split; [exact Hs|auto].
  - cbn [foldM] in E. destruct (sanitize_pb (u, f, cards, pbs) p) as [st1|] eqn:E1; [|discriminate]. cbn [obind] in E.
    destruct (sanitize_pb_vars V p u f cards pbs st1 (Hp p (or_introl eq_refl)) Hs E1) as (u1 & f1 & c1 & p1 & -> & Hs1 & H1).
    destruct (IH (fun q Hq => Hp q (or_intror Hq)) _ _ _ _ _ Hs1 E) as (u2 & f2 & c2 & p2 & -> & Hs2 & H2). eexists _, _, _, _. split; [reflexivity|]. split; [exact Hs2|].
    intros q Hq. destruct (H2 q Hq) as [Hq'|Hq']; [|right; now right]. destruct (H1 q Hq') as [?| ->]; [now left|right; now left].
Qed.
Lemma sanitize_card_vars V c u f cards st' : in_vars V (c_lits c) -> st_in V f cards -> sanitize_card (u, f, cards) c = Some st' -> exists u' f' cards', st' = (u', f', cards') /\ st_in V f' cards'.
Proof.
  intros Hp Hs. unfold sanitize_card.
  destruct (card_is_tautology c); [intros E; injection E as <-; eexists _, _, _; now split|].
  destruct (card_is_unsat c); [intros E; injection E as <-; eexists _, _, _; now split|].
  destruct (card_is_positive_assignment c); [intros E; injection E as <-; eexists _, _, _; split; [reflexivity|]; apply st_in_app; [exact Hs|]; now apply (units_vars V (fun l => l))|].
  destruct (card_is_negative_assignment c); [intros E; injection E as <-; eexists _, _, _; split; [reflexivity|]; apply st_in_app; [exact Hs|]; now apply (units_vars V neg)|].
  destruct (card_is_clause c).
  { destruct (card_into_clause c) as [d|] eqn:Ec; [|discriminate]. cbn [obind]. intros E; injection E as <-. eexists _, _, _. split; [reflexivity|]. apply st_in_app; [exact Hs|]. intros e [<-|[]]. now apply (card_into_clause_vars V c). }
  intros E; injection E as <-. eexists _, _, _. split; [reflexivity|]. destruct Hs as [S1 S2]. split; [exact S1|]. intros d Hd. apply in_app_iff in Hd as [Hd|[<-|[]]]; [now apply S2|exact Hp].
Qed.
Lemma sanitize_cards_vars V cs : (forall c, In c cs -> in_vars V (c_lits c)) -> forall u f cards st', st_in V f cards -> foldM sanitize_card cs (u, f, cards) = Some st' -> exists u' f' cards', st' = (u', f', cards') /\ st_in V f' cards'.
Proof.
  induction cs as [|c cs IH]; intros Hp u f cards st' Hs E.
  - injection E as <-. eexists _, _, _. now split.
  - cbn [foldM] in E. destruct (sanitize_card (u, f, cards) c) as [st1|] eqn:E1; [|discriminate]. cbn [obind] in E.
    destruct (sanitize_card_vars V c u f cards st1 (Hp c (or_introl eq_refl)) Hs E1) as (u1 & f1 & c1 & -> & Hs1). exact (IH (fun q Hq => Hp q (or_intror Hq)) _ _ _ _ Hs1 E).
Qed.
(** An instance that can be converted: its variables are known, or it is the one that replaces unsatisfiable instances *)
Definition convertible (c : inst) : Prop :=
  (inst_known c /\ forall p, In p (i_pbs c) -> pb_plain p /\ ~ indivisible p) \/ (i_cnf c = [[pos 0]; [negl 0]] /\ i_cards c = [] /\ i_pbs c = []).
Lemma clean_convertible i : opb_clean i -> convertible i.
Proof. intros (_ & _ & H1 & H2). left. now split. Qed.
Lemma sanitize_convertible i : opb_clean i -> exists c, inst_sanitize i = Some c /\ i_next c = i_next i /\ (forall a, inst_holds a c <-> inst_holds a i) /\ convertible c.
Proof.
  intros (H1 & H2 & H3 & H4). destruct (inst_sanitize_spec i) as (c & E & En & Hh & _); [intros p Hp; destruct (H3 p Hp) as [(A & _ & B) C]; auto|]. exists c. split; [exact E|]. split; [exact En|]. split; [exact Hh|].
  set (V := fun v => (v < i_next i)%N).
  assert (Hp : forall p, In p (i_pbs i) -> in_vars V (map fst (p_lits p))).
  { intros p Hp l Hl. apply H4. apply in_map_iff in Hl as ([l' w] & <- & Hl). exact (inst_lits_pb i p l' w Hp Hl). }
  unfold inst_sanitize in E. rewrite H1, H2 in E. match type of E with context [foldM sanitize_pb ?a ?b] => destruct (foldM sanitize_pb a b) as [st1|] eqn:E1; [|discriminate] end.
  destruct (sanitize_pbs_vars V (i_pbs i) Hp _ _ _ _ _ (conj (fun c (Hc : In c []) => match Hc with end) (fun c (Hc : In c []) => match Hc with end)) E1) as (u1 & f1 & c1 & p1 & -> & Hs1 & Hq1). cbn [obind] in E.
  match type of E with context [foldM sanitize_card ?a ?b] => destruct (foldM sanitize_card a b) as [st2|] eqn:E2; [|discriminate] end.
  destruct (sanitize_cards_vars V c1 (proj2 Hs1) _ _ _ _ (conj (proj1 Hs1) (fun c (Hc : In c []) => match Hc with end)) E2) as (u2 & f2 & c2 & -> & Hs2). cbn [obind] in E.
  destruct u2; injection E as <-; [right; now repeat split|]. left. cbn [i_next i_pbs]. split; [|intros p Hin; destruct (Hq1 p Hin) as [[]|Hin']; now apply H3].
  intros l Hl. unfold inst_lits in Hl. cbn [i_cnf i_cards i_pbs i_next] in *. rewrite !in_app_iff in Hl. destruct Hl as [Hl|[Hl|Hl]].
  - apply in_concat in Hl as (d & Hd & Hl). unfold cnf_sanitize in Hd. apply filter_map_in in Hd as (d' & Hd & Ed). apply clause_sanitize_some in Ed as ->. apply first_occs_In in Hl as [Hl _]. exact (proj1 Hs2 d' Hd l Hl).
  - apply in_concat in Hl as (d & Hd & Hl). apply in_map_iff in Hd as (c & <- & Hc). exact (proj2 Hs2 c Hc l Hl).
  - apply in_map_iff in Hl as ([l' w] & <- & Hl). apply in_concat in Hl as (d & Hd & Hl). apply in_map_iff in Hd as (p & <- & Hin). destruct (Hq1 p Hin) as [[]|Hin']. apply (Hp p Hin'). now apply in_map.
Qed.

(** ** From OPB to DIMACS *)
Section FromOpb.
Context (lord : list (lit * nat) -> list (lit * nat)) (cord : list (clause * nat) -> list (clause * nat)) (Hord : orders lord cord).
Context (ord ord1 ord2 ord3 ord4 : wmap -> wmap) (O : iter_order ord) (O1 : iter_order ord1) (O2 : iter_order ord2) (O3 : iter_order ord3) (O4 : iter_order ord4).
Notation convert := (convert_to_cnf ord ord1 ord2 ord3 ord4).

Lemma convert_spec c : convertible c -> exists f n, convert c = Some (mkInst f [] [] n) /\ (i_next c <= n)%N /\ cnf_below (N.max n 1) f /\
  (forall a, sat_cnf a f = true -> inst_holds a c) /\ (forall a, inst_holds a c -> exists a', (forall v, (v < i_next c)%N -> a' v = a v) /\ sat_cnf a' f = true) /\ (inst_known c -> cnf_below n f).
Proof.
  intros [[Hk Hp]|(E1 & E2 & E3)].
  - destruct (into_cnf_default ord ord1 ord2 ord3 ord4 c O O1 O2 O3 O4 Hk Hp) as (f & n & E & L & B & S & X). unfold into_cnf, into_cnf_with_encoders in E. fold convert in E.
    destruct (convert c) as [c'|] eqn:Ec; [|discriminate]. cbn [obind] in E. assert (Ef : i_cnf c' = f /\ i_next c' = n) by (split; congruence). destruct Ef as [Ef En].
    assert (Ec' : c' = mkInst f [] [] n).
    { unfold convert_to_cnf, convert_to_cnf_with_encoders in Ec. destruct (foldM _ (i_cards c) _) as [st1|]; [|discriminate]. cbn [obind] in Ec. destruct (foldM _ (i_pbs c) _) as [st2|]; [|discriminate]. cbn [obind] in Ec. injection Ec as <-. cbn [i_cnf i_next] in *. now subst. }
    assert (Hb : cnf_below n f) by (intros d Hd l Hl; destruct (B d l Hd Hl) as [(x & Hx & <-)|H]; [apply Hk in Hx; lia|lia]).
    exists f, n. split; [now rewrite <- Ec'|]. split; [exact L|]. split; [intros d Hd l Hl; specialize (Hb d Hd l Hl); lia|]. split; [exact S|]. split; [|intros _; exact Hb].
    intros a Ha. destruct (X a Ha) as (a' & C & Sa). exists a'. split; [|exact Sa]. intros v Hv. apply C. now left.
  - exists [[pos 0]; [negl 0]], (i_next c). unfold convert_to_cnf, convert_to_cnf_with_encoders. rewrite E1, E2, E3. cbn [foldM obind fst snd]. split; [reflexivity|]. split; [lia|].
    assert (Hu : forall a, sat_cnf a [[pos 0]; [negl 0]] = true -> False) by (intros a H; cbn in H; unfold lit_true in H; cbn in H; destruct (a 0%N); discriminate).
    split; [intros d [<-|[<-|[]]] l [<-|[]]; cbn [lvar pos negl]; lia|]. split; [intros a Ha; now apply Hu in Ha|]. split; [intros a (H & _); rewrite E1 in H; now apply Hu in H|].
    intros Hk d Hd l Hl. apply Hk. unfold inst_lits. rewrite E1. apply in_app_iff. left. apply in_concat. eauto.
Qed.

Lemma comment_count p (s : string) : forallb plain (T s) = true -> (exists t' c, T s = t' ++ [c] /\ is_white c = false) -> comment_text (T "c " ++ print_nat p ++ T s).
Proof. intros H1 H2. unfold print_nat. now apply comment_text_num. Qed.

Definition stmts_below (ss : list stmt) (n : N) : Prop := forall v, stmt_var ss v -> (v < n)%N.
Lemma below_split ss n : constrs_below ss n -> (forall st v, In st (objs_of ss) -> In v (map (fun e => lvar (fst e)) (snd st)) -> (v < n)%N) -> stmts_below ss n.
Proof.
  intros Hc Ho v (st & e & Hin & He & <-). destruct st as [ts op b|s ts]; cbn [stmt_terms] in He.
  - apply (Hc _ ts op b); [|now apply (in_map (fun e => lvar (fst e)))]. unfold constrs_of. apply in_flat_map. exists (SConstr ts op b). split; [exact Hin|now left].
  - apply (Ho (s, ts)); [|now apply (in_map (fun e => lvar (fst e)))]. unfold objs_of. apply in_flat_map. exists (SObj s ts). split; [exact Hin|now left].
Qed.
Lemma in_objs_plain ss st : Forall plain_stmt ss -> In st (objs_of ss) -> plain_stmt (SObj (fst st) (snd st)).
Proof.
  intros H Hin. unfold objs_of in Hin. apply in_flat_map in Hin as (x & Hx & Hin). destruct x as [ts op b|s ts]; [easy|]. destruct Hin as [<-|[]]. rewrite Forall_forall in H. exact (H _ Hx).
Qed.

Theorem opb2cnf_spec first t ss : opb_file 0 ss t -> Forall stmt_fits ss -> no_less ss -> objs_of ss = [] -> Forall plain_stmt ss ->
  exists i i', inst_from_opb opb_in t = ROk i /\ convert_to_cnf ord ord1 ord2 ord3 ord4 i = Some i' /\
    stands_for (stmt_var ss) (fun a => constrs_hold a ss) (fun _ => []) (fun a => sat_cnf a (i_cnf i') = true) (fun _ => []) [] /\
    ((i_next i' <= max_var_idx)%N -> (N.of_nat (List.length (i_cnf i')) <= usize_max)%N ->
     exists out, opb2cnf ord ord1 ord2 ord3 ord4 first false t = ROk out /\ cnf_file (i_next i') (N.of_nat (List.length (i_cnf i'))) (i_cnf i') out).
Proof.
  intros Ht Hf Hl Ho Hp. destruct (inst_from_opb_means opb_in ss t Ht Hf Hl Ho) as (i & Ei & Hi). unfold opb2cnf. rewrite Ei. cbn [rbind].
  assert (Hc : opb_clean i /\ constrs_below ss (i_next i)).
  { destruct (read_file_ok opb_in ss t Ht Hf) as (ds & E & Hds). unfold inst_from_opb in Ei. rewrite E, add_opb_comments, Hds in Ei. destruct (add_opb_clean ss Hp _ _ clean_new Ei) as (C1 & _ & C3). now split. }
  destruct Hc as [Hc Hb]. destruct (convert_spec i (clean_convertible i Hc)) as (f & n & E & L & _ & S & X & B). exists i, (mkInst f [] [] n). specialize (B (proj2 (proj2 (proj2 Hc)))). split; [reflexivity|]. split; [exact E|]. cbn [i_next i_cnf]. split.
  - split.
    + intros a Ha. split; [apply Hi, S, Ha|constructor].
    + intros a Ha. destruct (X a) as (a' & Hag & Sa); [now apply Hi|]. exists a'. split; [|now split]. intros v Hv. apply Hag. apply (below_split ss (i_next i) Hb); [|exact Hv]. rewrite Ho. intros st v' [].
  - intros Hn Hlen. change (convert_to_cnf ord ord1 ord2 ord3 ord4) with convert. rewrite E. cbn [to_res rbind]. unfold inst_write_dimacs. cbn [not_clausal i_cards i_pbs i_cnf i_next].
    destruct (write_cnf_some f n) as [out Eout]; [intros c Hin l Hl'; specialize (B c Hin l Hl'); change max_var_idx with 2147483647%N in *; lia|]. unfold not_clausal. cbn [i_cards i_pbs]. cbn [List.length Nat.eqb negb orb]. rewrite Eout. cbn [to_res rbind output].
    exists out. split; [reflexivity|]. apply cnf_file_written; [|exact Hlen|exact Eout]. change max_var_idx with 2147483647%N in *. change u32_max with 4294967295%N. lia.
Qed.

(** The lines that are printed are comments *)
Definition count_text {A} (xs : list A) (s : string) : text := T "c " ++ print_nat (List.length xs) ++ T s.
Lemma counts_lines i : counts (T "c ") i = as_lines [count_text (i_cnf i) " clauses"; count_text (i_cards i) " cards"; count_text (i_pbs i) " pbs"].
Proof. unfold counts, count_line, line, as_lines, count_text. cbn [flat_map]. now rewrite app_nil_r, <- !app_assoc. Qed.
Lemma counts_comments {A} (xs : list A) i : Forall comment_text [count_text (i_cnf i) " clauses"; count_text (i_cards i) " cards"; count_text (i_pbs i) " pbs"; count_text xs " objectives"].
Proof.
  repeat (constructor; [apply comment_count; [reflexivity|]|]); [| | | |constructor].
  - exists (T " clause"), "s"%char. now split.
  - exists (T " card"), "s"%char. now split.
  - exists (T " pb"), "s"%char. now split.
  - exists (T " objective"), "s"%char. now split.
Qed.
Lemma dimacs_below n c : (n <= max_var_idx)%N -> lits_below n c -> dimacs_lits c.
Proof. intros Hn H l Hl. specialize (H l Hl). change max_var_idx with 2147483647%N in *. lia. Qed.

(** The clauses of the constraints stand for the constraints and any costs that are functions of the known variables *)
Lemma stands_convert ss c f (cost cost' : asg -> list Z) ks :
  stmts_below ss (i_next c) -> (forall a, inst_holds a c <-> constrs_hold a ss) -> (forall a, sat_cnf a f = true -> inst_holds a c) ->
  (forall a, inst_holds a c -> exists a', (forall v, (v < i_next c)%N -> a' v = a v) /\ sat_cnf a' f = true) ->
  (forall a, cost' a = shifted ks (cost a)) -> (forall a a', (forall v, stmt_var ss v -> a' v = a v) -> cost a' = cost a) ->
  stands_for (stmt_var ss) (fun a => constrs_hold a ss) cost (fun a => sat_cnf a f = true) cost' ks.
Proof.
  intros Hb Hi S X Hc Hag. split.
  - intros a Ha. split; [apply Hi, S, Ha|]. rewrite Hc. clear. induction (shifted ks (cost a)); constructor; [lia|assumption].
  - intros a Ha. destruct (X a) as (a' & Ha' & Sa); [now apply Hi|]. assert (Hv : forall v, stmt_var ss v -> a' v = a v) by (intros v Hv; apply Ha', Hb, Hv). exists a'. split; [exact Hv|]. split; [exact Sa|]. now rewrite Hc, (Hag a a' Hv).
Qed.
Lemma zwsum_agree a a' ts : (forall e, In e ts -> a' (lvar (fst e)) = a (lvar (fst e))) -> zwsum a' ts = zwsum a ts.
Proof.
  induction ts as [|[l c] ts IH]; intros H; [reflexivity|]. cbn [zwsum]. rewrite IH by (intros e He; apply H; now right). unfold lit_true. pose proof (H (l, c) (or_introl eq_refl)) as E. cbn [fst] in E. now rewrite E.
Qed.
Lemma opb_costs_agree ss a a' : (forall v, stmt_var ss v -> a' v = a v) -> opb_costs ss a' = opb_costs ss a.
Proof.
  intros H. unfold opb_costs. apply map_ext_in. intros [s ts] Hin. cbn [fst snd]. unfold objs_of in Hin. apply in_flat_map in Hin as (st & Hst & Hin). destruct st as [? ? ?|s' ts']; [easy|]. destruct Hin as [E|[]]. assert (ts' = ts) as -> by congruence.
  rewrite (zwsum_agree a a' ts); [reflexivity|]. intros e He. apply H. exists (SObj s' ts), e. auto.
Qed.

Theorem opb2wcnf_spec first to_stdout t ss : opb_file 0 ss t -> Forall stmt_fits ss -> no_less ss -> List.length (objs_of ss) = 1%nat -> Forall plain_stmt ss ->
  exists p c c', opt_from_opb opb_in t = ROk p /\ inst_sanitize (fst (opt_decompose p)) = Some c /\ convert_to_cnf ord ord1 ord2 ord3 ord4 c = Some c' /\
    ((i_next c' <= max_var_idx)%N -> exists out es, opb2wcnf lord cord ord ord1 ord2 ord3 ord4 first to_stdout t = ROk out /\ wcnf_file (N.max (i_next c') 1) es out /\
     stands_for (stmt_var ss) (fun a => constrs_hold a ss) (opb_costs ss) (fun a => sat_cnf a (hards es) = true) (wcnf_costs es) (map soft_shift (objs_of ss))).
Proof.
  intros Ht Hf Hl Ho Hp. destruct (objs_of ss) as [|st [|? ?]] eqn:Eo; try discriminate. assert (Hpl : plain_stmt (SObj (fst st) (snd st))) by (apply (in_objs_plain ss); [exact Hp|rewrite Eo; now left]).
  destruct (opt_from_opb_means opb_in ss t (fst st) (snd st) Ht Hf Hl) as (p & Ep & Hi & Hwf & _); [rewrite Eo; now destruct st|intros _; apply Hpl|]. unfold opb2wcnf. rewrite Ep. cbn [rbind].
  assert (Hc : exists i, o_constrs p = raise_max i (obj_max_var (o_obj p)) /\ opb_clean i /\ constrs_below ss (i_next i) /\ obj_read st (o_obj p)).
  { destruct (read_file_ok opb_in ss t Ht Hf) as (ds & E & Hds). unfold opt_from_opb in Ep. rewrite E, add_opb_opt_comments, Hds in Ep.
    destruct (add_opb_opt_means ss Hl (inst_new 0) None) as (i & s' & ts' & z & Ea & _ & ts'' & Eo' & Et); [exists (fst st), (snd st); rewrite Eo; now destruct st|]. rewrite Ea in Ep.
    destruct (objective_of s' ts' z) as [ob|] eqn:Eob; [|discriminate]. injection Ep as <-. destruct (add_opb_opt_clean ss Hp _ _ _ _ clean_new Ea) as (C1 & _ & C3). exists i. cbn [o_constrs o_obj opt_compose]. split; [reflexivity|]. split; [exact C1|]. split; [exact C3|].
    rewrite Eo in Eo'. assert (st = (s', ts'')) as -> by congruence. unfold obj_read. cbn [fst snd]. now rewrite <- Et. }
  destruct Hc as (i & Ei & Hcl & Hb & Hr). unfold opt_decompose. set (ob := o_obj p) in *. set (i1 := raise_max (o_constrs p) (obj_max_var ob)).
  assert (Hi1 : opb_clean i1 /\ constrs_below ss (i_next i1) /\ lits_below (i_next i1) (obj_vars ob) /\ (forall a, inst_holds a i1 <-> constrs_hold a ss)).
  { assert (Hr1 : forall j, opb_clean j -> opb_clean (raise_max j (obj_max_var ob)) /\ (i_next j <= i_next (raise_max j (obj_max_var ob)))%N).
    { intros j Hj. unfold raise_max, inst_increase. destruct (obj_max_var ob) as [v|]; [|split; [exact Hj|lia]]. cbn [i_next]. rewrite next_increase_eq. split; [apply clean_raise; [exact Hj|lia]|lia]. }
    destruct (Hr1 i Hcl) as [A1 A2]. rewrite <- Ei in A1, A2. destruct (Hr1 (o_constrs p) A1) as [B1 B2]. fold i1 in B1, B2. split; [exact B1|]. split; [intros v ts op b Hin Hv; specialize (Hb v ts op b Hin Hv); lia|]. split.
    - destruct (raise_next_spec (i_next (o_constrs p)) ob) as [_ Hrn]. unfold i1. intros l Hl'. specialize (Hrn l Hl'). unfold raise_next in Hrn. unfold raise_max, inst_increase. destruct (obj_max_var ob); exact Hrn.
    - intros a. rewrite <- Hi. unfold i1, raise_max. destruct (obj_max_var ob); reflexivity. }
  destruct Hi1 as (Hc1 & Hb1 & Hob & Hh1). destruct (sanitize_convertible i1 Hc1) as (c & Ec & En & Hhc & Hcv). rewrite Ec. cbn [to_res rbind].
  destruct (convert_spec c Hcv) as (f & n & Ecv & L & B & S & X & _). rewrite Ecv. cbn [to_res rbind].
  destruct (objective_softs lord cord st ob Hord Hr Hpl) as (Hcost & Husz & Hvars). set (xs := iter_soft_cls lord cord ob) in *.
  assert (Hxs : forall d w, In (d, w) xs -> lits_below (N.max n 1) d).
  { intros d w Hin l Hl'. destruct (iter_soft_cls_vars lord cord ob d w l Hord Hin Hl') as (l' & Hl2 & <-). specialize (Hob l' Hl2). lia. }
  assert (Hstands : stands_for (stmt_var ss) (fun a => constrs_hold a ss) (opb_costs ss) (fun a => sat_cnf a (hards (witems f xs)) = true) (wcnf_costs (witems f xs)) (map soft_shift (objs_of ss))).
  { rewrite hards_witems. apply (stands_convert ss c).
    + apply below_split; [intros v ts op b Hin Hv; rewrite En; exact (Hb1 v ts op b Hin Hv)|]. rewrite Eo. intros st' v [<-|[]] Hv. apply Hvars in Hv. apply in_map_iff in Hv as (l & <- & Hv). rewrite En. now apply Hob.
    + intros a. now rewrite Hhc.
    + exact S.
    + exact X.
    + intros a. unfold wcnf_costs, opb_costs. rewrite softs_witems, Eo. unfold shifted. cbn [map combine fst snd]. now rewrite Hcost.
    + intros a a'. apply opb_costs_agree. }
  exists p, c, (mkInst f [] [] n). split; [reflexivity|]. split; [exact Ec|]. split; [exact Ecv|]. cbn [i_next]. intros Hn'. assert (Hn : (N.max n 1 <= max_var_idx)%N) by (change max_var_idx with 2147483647%N in *; lia).
  { destruct (raise_max_cnf (mkInst f [] [] n) (obj_max_var ob)) as (R1 & R2 & R3). unfold opt_write_dimacs. cbn [opt_compose o_constrs o_obj].
    assert (Hncl : not_clausal (raise_max (mkInst f [] [] n) (obj_max_var ob)) = false) by (apply clausal_iff; now rewrite R2, R3). rewrite Hncl, R1. cbn [i_cnf]. fold xs.
    destruct (write_wcnf_some f xs (obj_offset ob) (Some (i_next (raise_max (mkInst f [] [] n) (obj_max_var ob))))) as [out Eout].
    { intros d Hd. apply (dimacs_below (N.max n 1)); [exact Hn|exact (B d Hd)]. }
    { intros d w Hd. apply (dimacs_below (N.max n 1)); [exact Hn|exact (Hxs d w Hd)]. }
    rewrite Eout. cbn [to_res rbind]. eexists. exists (witems f xs). split; [reflexivity|]. rewrite Eo in Hstands. split; [|exact Hstands]. pose proof (counts_comments (@nil nat) c) as Hcm. apply Forall_cons_iff in Hcm as [Q1 Hcm]. apply Forall_cons_iff in Hcm as [Q2 Hcm]. apply Forall_cons_iff in Hcm as [Q3 _].
    unfold output. destruct to_stdout.
    + rewrite counts_lines. refine (wcnf_file_written _ f xs _ _ _ out _ Husz _ Hxs Eout); [repeat (constructor; [assumption|]); constructor|]. exact B.
    + refine (wcnf_file_written [] f xs _ _ _ out _ Husz _ Hxs Eout); [constructor|]. exact B. }
Qed.

Lemma compose_same i obs : (forall ob, In ob obs -> lits_below (i_next i) (obj_vars ob)) -> mopt_compose i obs = mkMopt i obs.
Proof.
  intros H. unfold mopt_compose. f_equal. induction obs as [|ob obs IH]; [reflexivity|]. cbn [fold_left].
  assert (E : raise_max i (obj_max_var ob) = i).
  { unfold raise_max, inst_increase. pose proof (obj_max_var_spec ob) as Hm. destruct (obj_max_var ob) as [v|]; [|reflexivity]. destruct Hm as [(l & Hl & <-) _]. specialize (H ob (or_introl eq_refl) l Hl). rewrite next_increase_eq. destruct i as [f cs ps n]. cbn [i_next i_cnf i_cards i_pbs] in *. f_equal. lia. }
  rewrite E. apply IH. intros ob' Hin. apply H. now right.
Qed.
Theorem opb2mcnf_spec first to_stdout t ss : opb_file 0 ss t -> Forall stmt_fits ss -> no_less ss -> (N.of_nat (List.length (objs_of ss)) <= usize_max)%N -> Forall plain_stmt ss ->
  exists p c c', mopt_from_opb opb_in t = ROk p /\ inst_sanitize (fst (mopt_decompose p)) = Some c /\ convert_to_cnf ord ord1 ord2 ord3 ord4 c = Some c' /\
    ((i_next c' <= max_var_idx)%N -> exists out es, opb2mcnf lord cord ord ord1 ord2 ord3 ord4 first to_stdout t = ROk out /\ mcnf_file (N.max (i_next c') 1) es out /\
     (n_objs es <= List.length (objs_of ss))%nat /\
     stands_for (stmt_var ss) (fun a => constrs_hold a ss) (opb_costs ss) (fun a => sat_cnf a (hards es) = true) (mcnf_costs (List.length (objs_of ss)) es) (map soft_shift (objs_of ss))).
Proof.
  intros Ht Hf Hl Ho Hp.
  assert (Hpl : forall st, In st (objs_of ss) -> plain_stmt (SObj (fst st) (snd st))) by (intros st; now apply in_objs_plain).
  destruct (mopt_from_opb_means opb_in ss t Ht Hf Hl) as (p & Ep & Hi & _); [intros s ts Hin _; apply (Hpl (s, ts) Hin)|]. unfold opb2mcnf. rewrite Ep. cbn [rbind].
  assert (Hc : opb_clean (mo_constrs p) /\ constrs_below ss (i_next (mo_constrs p)) /\ Forall2 obj_read (objs_of ss) (mo_objs p)).
  { destruct (read_file_ok opb_in ss t Ht Hf) as (ds & E & Hds). unfold mopt_from_opb in Ep. rewrite E, add_opb_mopt_comments, Hds in Ep.
    destruct (add_opb_mopt_clean ss Hp (mkMopt (inst_new 0) []) p clean_new Ep) as (C1 & _ & C3 & os & E4 & C5). split; [exact C1|]. split; [exact C3|]. cbn [mo_objs app] in E4. now rewrite E4. }
  destruct Hc as (Hcl & Hb & Hr). destruct (mopt_decompose p) as [i1 obs] eqn:Ed.
  assert (Hi1 : opb_clean i1 /\ constrs_below ss (i_next i1) /\ (forall ob, In ob obs -> lits_below (i_next i1) (obj_vars ob)) /\ (forall a, inst_holds a i1 <-> constrs_hold a ss) /\ obs = mo_objs p).
  { destruct (m_decompose_known p i1 obs (proj2 (proj2 (proj2 Hcl))) Ed) as (E1 & _ & K2 & K3). unfold mopt_decompose in Ed. injection Ed as <- _. unfold inst_increase in *. cbn [i_next] in *. rewrite next_increase_eq in *.
    split; [apply clean_raise; [exact Hcl|lia]|]. split; [intros v ts op b Hin Hv; specialize (Hb v ts op b Hin Hv); lia|]. split; [exact K2|]. split; [intros a; now rewrite K3|exact E1]. }
  destruct Hi1 as (Hc1 & Hb1 & Hob & Hh1 & ->). set (obs := mo_objs p) in *. destruct (sanitize_convertible i1 Hc1) as (c & Ec & En & Hhc & Hcv). rewrite Ec. cbn [to_res rbind]. cbv zeta.
  rewrite compose_same by (intros ob Hin; rewrite En; now apply Hob). cbn [mo_constrs mo_objs].
  destruct (convert_spec c Hcv) as (f & n & Ecv & L & B & S & X & _). rewrite Ecv. cbn [to_res rbind].
  set (xss := map (fun ob => (iter_soft_cls lord cord ob, obj_offset ob)) obs).
  assert (Hsoft : forall xs z d w, In (xs, z) xss -> In (d, w) xs -> is_usize w /\ lits_below (N.max n 1) d).
  { intros xs z d w Hin Hd. apply in_map_iff in Hin as (ob & E & Hin). injection E as <- _. assert (Hst : exists st, In st (objs_of ss) /\ obj_read st ob).
    { clear - Hr Hin. induction Hr as [|st ob' ss' os Hst _ IH]; [easy|]. destruct Hin as [->|Hin]; [exists st; split; [now left|exact Hst]|]. destruct (IH Hin) as (st' & H1 & H2). exists st'. split; [now right|exact H2]. }
    destruct Hst as (st & Hin2 & Hst). destruct (objective_softs lord cord st ob Hord Hst (Hpl st Hin2)) as (_ & Husz & _). split; [exact (Husz d w Hd)|].
    intros l Hl'. destruct (iter_soft_cls_vars lord cord ob d w l Hord Hd Hl') as (l' & Hl2 & <-). specialize (Hob ob Hin l' Hl2). lia. }
  assert (Elen : List.length obs = List.length (objs_of ss)) by (clear - Hr; induction Hr; cbn; congruence).
  exists p, c, (mkInst f [] [] n). split; [reflexivity|]. rewrite Ed. cbn [fst]. split; [exact Ec|]. split; [exact Ecv|]. cbn [i_next]. intros Hn'. assert (Hn : (N.max n 1 <= max_var_idx)%N) by (change max_var_idx with 2147483647%N in *; lia).
  match goal with |- exists out es, ?r = ROk out /\ _ => set (res_out := r) end.
  enough (exists out, res_out = ROk out /\ mcnf_file (N.max n 1) (mitems f (map fst xss)) out) as (out & Eo1 & Eo2).
  { exists out, (mitems f (map fst xss)). split; [exact Eo1|]. split; [exact Eo2|]. split.
  - unfold n_objs. apply list_max_le. apply Forall_map, Forall_forall. intros [d x] Hin. cbn [snd]. destruct x as [[k w]|]; [|lia]. assert (Hk : In (d, w) (msofts k (mitems f (map fst xss)))) by now apply in_msofts.
    rewrite msofts_mitems in Hk. rewrite <- Elen. destruct (Nat.lt_ge_cases k (List.length obs)) as [|Hge]; [lia|]. rewrite nth_overflow in Hk; [easy|]. unfold xss. now rewrite !map_length.
  - rewrite hards_mitems. apply (stands_convert ss c).
    + apply below_split; [intros v ts op b Hin Hv; rewrite En; exact (Hb1 v ts op b Hin Hv)|]. intros st v Hin Hv. rewrite En.
      assert (Hst : exists ob, In ob obs /\ obj_read st ob).
      { clear - Hr Hin. induction Hr as [|st' ob' ss' os Hst _ IH]; [easy|]. destruct Hin as [->|Hin]; [exists ob'; split; [now left|exact Hst]|]. destruct (IH Hin) as (st2 & H1 & H2). exists st2. split; [now right|exact H2]. }
      destruct Hst as (ob & Hin2 & Hst). destruct (objective_softs lord cord st ob Hord Hst (Hpl st Hin)) as (_ & _ & Hvars). apply Hvars in Hv. apply in_map_iff in Hv as (l & <- & Hv). now apply (Hob ob).
    + intros a. now rewrite Hhc.
    + exact S.
    + exact X.
    + intros a. unfold mcnf_costs, opb_costs. rewrite (map_ext _ (fun k => Z.of_nat (cls_cost a (nth k (map fst xss) []))) (fun k => f_equal (fun x => Z.of_nat (cls_cost a x)) (msofts_mitems f (map fst xss) k))).
      unfold xss. rewrite map_map. cbn [fst]. rewrite <- Elen. clear - Hr Hpl Hord. fold obs in Hr. induction Hr as [|st ob sts os Hst _ IH]; [reflexivity|]. cbn [List.length seq map nth]. unfold shifted. cbn [combine map fst snd]. f_equal.
      * exact (proj1 (objective_softs lord cord st ob Hord Hst (Hpl st (or_introl eq_refl))) a).
      * rewrite <- seq_shift, map_map. apply IH. intros st' Hin. apply Hpl. now right.
    + intros a a'. apply opb_costs_agree. }
  { unfold res_out, mopt_write_dimacs. cbn [mo_constrs mo_objs not_clausal i_cards i_pbs i_cnf i_next]. unfold not_clausal. cbn [i_cards i_pbs List.length Nat.eqb negb orb]. fold xss.
    destruct (write_mcnf_some f xss (Some n)) as [out Eout].
    { intros d Hd. apply (dimacs_below (N.max n 1)); [exact Hn|exact (B d Hd)]. }
    { intros xs z d w Hin Hd. apply (dimacs_below (N.max n 1)); [exact Hn|exact (proj2 (Hsoft xs z d w Hin Hd))]. }
    rewrite Eout. cbn [to_res rbind]. eexists. split; [reflexivity|]. pose proof (counts_comments obs c) as Hcm.
    assert (Hus : is_usize (List.length xss)) by (unfold xss, is_usize; rewrite map_length, Elen; exact Ho).
    unfold output. destruct to_stdout.
    + replace (counts (T "c ") c ++ count_line (T "c ") obs " objectives") with (as_lines [count_text (i_cnf c) " clauses"; count_text (i_cards c) " cards"; count_text (i_pbs c) " pbs"; count_text obs " objectives"]).
      2:{ rewrite counts_lines. unfold count_line, line, as_lines, count_text. cbn [flat_map]. now rewrite !app_nil_r, <- !app_assoc. }
      refine (mcnf_file_written _ f xss _ _ out Hcm Hus _ _ _ Eout); [intros xs z d w Hin Hd; apply (Hsoft xs z d w Hin Hd)|exact B|intros xs z d w Hin Hd; exact (proj2 (Hsoft xs z d w Hin Hd))].
    + refine (mcnf_file_written [] f xss _ _ out _ Hus _ _ _ Eout); [constructor|intros xs z d w Hin Hd; apply (Hsoft xs z d w Hin Hd)|exact B|intros xs z d w Hin Hd; exact (proj2 (Hsoft xs z d w Hin Hd))]. }
Qed.
End FromOpb.
