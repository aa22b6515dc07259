(** * Conversion from the DIMACS formats to OPB *)

From Coq Require Import List Bool NArith ZArith Ascii String Lia Permutation.
From Coq Require Import ZifyBool ZifyNat ZifyN.
From Verif Require Import Spec Types Base ConstrSpec Constraints ConstrProofs VarMan NodeDb Inst InstSpec InstProofs Opt OptSpec OptProofs OptConv Text FioSpec Dimacs DimacsSpec DimacsProofs
  DimacsGrammar Opb OpbSpec OpbProofs OpbInst Tools ToolSpec ToolText.
Import ListNotations.
Open Scope list_scope.

(** ** Written OPB files *)

Lemma write_sat_file o i t : opb_write_sat o i = Some t -> opb_inst_ok i ->
  exists ss, opb_file (first_var_idx o) ss t /\ objs_of ss = [] /\ forall a, constrs_hold a ss <-> inst_holds a i.
Proof.
  intros H Hok. unfold opb_write_sat in H. destruct (opb_constraints o i) as [tc|] eqn:Ec; [|discriminate]. cbn [option_map] in H. apply Some_inj in H as <-.
  destruct (opb_constraints_file o i tc Ec Hok) as (ss & Hp & H1 & H2 & H3 & H4). exists ss. split; [|split; [exact H3|exact H4]].
  apply (prefix_whole _ ss). apply (prefix_app _ [] _ ss); [|exact Hp]. apply (opb_preamble_file o). apply clauses_line_ok.
Qed.
(** What is written as cost for soft literals *)
Definition lits_cost (o : opb_opts) (a : asg) (ls : list (lit * nat)) : Z := (Z.of_nat (wsum a ls) - if no_negated_lits o then Z.of_nat (neg_weight ls) else 0)%Z.
Lemma write_multi_file o i objs t : opb_write_multi_opt o i objs = Some t -> opb_inst_ok i -> (forall ls z, In (ls, z) objs -> opb_soft_ok ls) ->
  exists ss, opb_file (first_var_idx o) ss t /\ (forall a, constrs_hold a ss <-> inst_holds a i) /\ forall a, opb_costs ss a = map (fun e => lits_cost o a (fst e)) objs.
Proof.
  intros H Hok Hs. unfold opb_write_multi_opt in H. destruct (concat_opt _) as [tb|] eqn:Eb; [|discriminate]. destruct (opb_constraints o i) as [tc|] eqn:Ec; [|discriminate]. apply Some_inj in H as <-.
  destruct (opb_constraints_file o i tc Ec Hok) as (ss & Hp & H1 & H2 & H3 & H4). destruct (opb_objectives_file o objs tb Eb Hs) as [Hb Hf].
  set (so := map (fun e => SObj Minimize (map (signed o) (fst e))) objs) in *. exists (so ++ ss). split; [|split].
  - apply (prefix_whole _ (so ++ ss)). apply (prefix_app _ [] _ (so ++ ss)); [apply (opb_preamble_file o), clauses_line_ok|].
    apply (prefix_app _ [] _ (so ++ ss)); [|now apply prefix_app]. apply (prefix_comment _ (T " ( ) relaxed and hardened soft clauses")). intros c Hx. cbn in Hx. intuition (subst; discriminate).
  - intros a. rewrite <- H4. unfold so. clear. induction objs as [|e objs IH]; [reflexivity|]. cbn [map app]. rewrite constrs_hold_cons, IH. tauto.
  - intros a. unfold opb_costs. assert (Eo : objs_of (so ++ ss) = map (fun e => (Minimize, map (signed o) (fst e))) objs).
    { unfold objs_of in *. rewrite flat_map_app, H3, app_nil_r. unfold so. clear. induction objs as [|e objs IH]; [reflexivity|]. cbn [map flat_map app]. now rewrite IH. }
    rewrite Eo, map_map. apply map_ext. intros [ls z]. cbn [fst snd]. pose proof (signed_sum o ls a). unfold lits_cost. lia.
Qed.
Lemma write_opt_file o i ls z t : opb_write_opt o i ls z = Some t -> opb_inst_ok i -> opb_soft_ok ls ->
  exists ss, opb_file (first_var_idx o) ss t /\ (forall a, constrs_hold a ss <-> inst_holds a i) /\ forall a, opb_costs ss a = [lits_cost o a ls].
Proof.
  intros H Hok Hs. unfold opb_write_opt in H. destruct (opb_objective o ls z) as [tb|] eqn:Eb; [|discriminate]. destruct (opb_constraints o i) as [tc|] eqn:Ec; [|discriminate]. apply Some_inj in H as <-.
  destruct (opb_constraints_file o i tc Ec Hok) as (ss & Hp & H1 & H2 & H3 & H4). destruct (opb_objective_file o ls z tb Eb Hs) as [Hb Hf].
  exists (SObj Minimize (map (signed o) ls) :: ss). split; [|split].
  - apply (prefix_whole _ (SObj _ _ :: ss)). apply (prefix_app _ [] _ (SObj _ _ :: ss)); [apply (opb_preamble_file o), clauses_line_ok|]. now apply (prefix_app _ [SObj _ _] _ ss).
  - intros a. rewrite constrs_hold_cons, H4. tauto.
  - intros a. unfold opb_costs. unfold objs_of in *. cbn [flat_map app]. rewrite H3. cbn [map fst snd]. pose proof (signed_sum o ls a). unfold lits_cost. f_equal. lia.
Qed.

(** ** From CNF *)

Lemma marks_cnf_tight f : forall n m, (n <= m)%N -> cnf_below m f -> (fold_left marks f n <= m)%N.
Proof.
  induction f as [|c f IH]; intros n m Hn H; [exact Hn|]. cbn [fold_left]. apply IH; [|intros d Hd; apply H; now right]. apply marks_tight; [exact Hn|]. apply H. now left.
Qed.
Lemma marks_cnf_spec f : forall n, (n <= fold_left marks f n)%N /\ cnf_below (fold_left marks f n) f.
Proof.
  induction f as [|c f IH]; intros n; cbn [fold_left]; [split; [lia|intros c []]|]. destruct (IH (marks n c)) as [I1 I2]. destruct (marks_spec c n) as [M1 M2].
  split; [lia|]. intros d [<-|Hd]; [intros l Hl; specialize (M2 l Hl); lia|now apply I2].
Qed.
Lemma clause_text_below c s : clause_text c s -> lits_below 2147483647 c.
Proof.
  intros (t & Ht & _). revert t Ht. induction c as [|l c IH]; intros t Ht; [intros l []|]. destruct Ht as (b & r & H1 & _ & H2 & _). intros x [<-|Hx]; [exact H1|exact (IH _ H2 x Hx)].
Qed.
Lemma line_means_in {D} (content : D -> text -> Prop) ds ls x : Forall2 (line_means ignored content) ds ls -> In x (present ds) -> exists s, content x s.
Proof.
  induction 1 as [|d l ds ls H _ IH]; [easy|]. change (present (d :: ds)) with (present ([d] ++ ds)). rewrite present_app, in_app_iff. intros [Hx|Hx]; [|now apply IH].
  destruct d as [y|]; [|easy]. destruct Hx as [<-|[]]. destruct H as [[_ E]|[(s & _ & _ & E)|(y' & s & Hs & _ & E)]]; [discriminate|discriminate|]. injection E as <-. eauto.
Qed.
Lemma cnf_file_below n m f t : cnf_file n m f t -> cnf_below 2147483647 f.
Proof.
  intros (pre & hdr & h & ds & body & _ & _ & _ & Hb & _ & ->) c Hc. destruct (line_means_in _ _ _ _ Hb Hc) as [s Hs]. now apply (clause_text_below c s).
Qed.

Lemma inst_ok_cnf i : i_cards i = [] -> i_pbs i = [] -> cnf_below (max_var_idx + 1) (i_cnf i) -> opb_inst_ok i.
Proof. intros Ec Ep H. unfold opb_inst_ok. rewrite Ec, Ep. split; [intros c Hc l Hl; specialize (H c Hc l Hl); lia|]. split; intros c []. Qed.
Lemma writable_cnf o i : i_cards i = [] -> i_pbs i = [] -> cnf_below (max_var_idx + 1) (i_cnf i) -> (first_var_idx o <= 2147483648)%N ->
  (forall c, In c (i_cnf i) -> (Z.of_nat (List.length c) < isize_max)%Z) -> opb_writable o i.
Proof.
  intros Ec Ep H Hf Hl. split; [|split; [exact Hl|split; [rewrite Ec; intros c []|rewrite Ep; intros c []]]].
  intros l Hin. unfold inst_lits in Hin. rewrite Ec, Ep in Hin. cbn [map List.concat app] in Hin. rewrite app_nil_r in Hin. apply in_concat in Hin as (c & Hc & Hl').
  specialize (H c Hc l Hl'). unfold var_fits. change max_var_idx with 2147483647%N in H. change u32_max with 4294967295%N. lia.
Qed.
Lemma holds_clauses a i : i_cards i = [] -> i_pbs i = [] -> (inst_holds a i <-> sat_cnf a (i_cnf i) = true).
Proof. intros Ec Ep. unfold inst_holds, holds. rewrite Ec, Ep. split; [tauto|]. intros H. split; [exact H|]. split; intros c []. Qed.
Lemma cnf2opb_spec o t n m f : cnf_file n m f t -> (n <= max_var_idx)%N -> (first_var_idx o <= 2147483648)%N -> (forall c, In c f -> (Z.of_nat (List.length c) < isize_max)%Z) ->
  exists out ss, cnf2opb o t = ROk out /\ opb_file (first_var_idx o) ss out /\ objs_of ss = [] /\ forall a, constrs_hold a ss <-> sat_cnf a f = true.
Proof.
  intros Ht Hn Hf Hl. unfold cnf2opb. rewrite (inst_of_cnf_file n m f t Ht Hn). cbn [rbind]. set (i := mkInst f [] [] (fold_left marks f n)).
  assert (Hb : cnf_below (max_var_idx + 1) (i_cnf i)) by (intros c Hc l Hl'; pose proof (cnf_file_below n m f t Ht c Hc l Hl'); change max_var_idx with 2147483647%N; lia).
  destruct (write_sat_some o i (writable_cnf o i eq_refl eq_refl Hb Hf Hl)) as [out E]. rewrite E. cbn [to_res].
  destruct (write_sat_file o i out E (inst_ok_cnf i eq_refl eq_refl Hb)) as (ss & H1 & H2 & H3). exists out, ss. split; [reflexivity|]. split; [exact H1|]. split; [exact H2|].
  intros a. rewrite H3. now apply holds_clauses.
Qed.

(** ** Reading soft clauses *)

Lemma ksum_pos_in {K} (p : K -> bool) m : (0 < ksum p m)%nat -> exists k w, In (k, w) m /\ p k = true.
Proof.
  induction m as [|[k w] m IH]; cbn [ksum]; [lia|]. intros H. destruct (p k) eqn:E; [exists k, w; split; [now left|exact E]|]. destruct IH as (k' & w' & Hin & Hp); [lia|]. exists k', w'. split; [now right|exact Hp].
Qed.
Lemma ksum_in {K} (p : K -> bool) m k w : In (k, w) m -> p k = true -> (w <= ksum p m)%nat.
Proof. induction m as [|[k' w'] m IH]; [easy|]. cbn [ksum]. intros [E|Hin] Hp; [injection E as -> ->; rewrite Hp; lia|]. specialize (IH Hin Hp). lia. Qed.
Lemma from_cls_lit xs l w : In (l, w) (obj_lits (obj_from_cls xs)) -> exists w', In ([neg l], w') xs.
Proof.
  intros H. destruct (from_cls_spec xs) as [[W _] _]. pose proof (W l w H) as Hw. pose proof (from_cls_soft_sum (fun d => clause_eqb d [neg l]) xs) as E.
  unfold soft_sum in E. pose proof (ksum_in (fun l' => clause_eqb [neg l'] [neg l]) _ l w H (proj2 (clause_eqb_eq' _ _) eq_refl)) as Hk.
  destruct (ksum_pos_in (fun d => clause_eqb d [neg l]) xs) as (c & w' & Hin & Hc); [lia|]. apply clause_eqb_eq' in Hc as ->. eauto.
Qed.
Lemma from_cls_cls xs c w : In (c, w) (obj_cls (obj_from_cls xs)) -> exists w', In (c, w') xs.
Proof.
  intros H. destruct (from_cls_spec xs) as [(_ & W & _) _]. destruct (W c w H) as [Hw _]. pose proof (from_cls_soft_sum (fun d => clause_eqb d c) xs) as E.
  unfold soft_sum in E. pose proof (ksum_in (fun d => clause_eqb d c) _ c w H (proj2 (clause_eqb_eq' _ _) eq_refl)) as Hk.
  destruct (ksum_pos_in (fun d => clause_eqb d c) xs) as (c' & w' & Hin & Hc); [lia|]. apply clause_eqb_eq' in Hc as ->. eauto.
Qed.
Lemma from_cls_vars xs l : In l (obj_vars (obj_from_cls xs)) -> exists c w x, In (c, w) xs /\ In x c /\ lvar x = lvar l.
Proof.
  unfold obj_vars. rewrite in_app_iff. intros [H|H].
  - apply in_map_iff in H as ([l' w] & <- & H). destruct (from_cls_lit xs l' w H) as [w' Hin]. exists [neg l'], w', (neg l'). split; [exact Hin|]. split; [now left|reflexivity].
  - apply in_concat in H as (c & Hc & Hl). apply in_map_iff in Hc as ([c' w] & <- & Hc). destruct (from_cls_cls xs c' w Hc) as [w' Hin]. exists c', w', l. auto.
Qed.
Lemma from_cls_below n xs : (forall c w, In (c, w) xs -> lits_below n c) -> lits_below n (obj_vars (obj_from_cls xs)).
Proof. intros H l Hl. destruct (from_cls_vars xs l Hl) as (c & w & x & Hin & Hx & <-). exact (H c w Hin x Hx). Qed.
Lemma from_cls_nonempty xs : (forall w, ~ In ([], w) xs) -> obj_nonempty (obj_from_cls xs).
Proof. intros H w Hin. destruct (from_cls_cls xs [] w Hin) as [w' Hin']. exact (H w' Hin'). Qed.

(** the weights of soft unit clauses with a variable that is not negated: these become negated soft literals *)
Definition pos_unit (c : clause) : bool := match c with [l] => negb (lneg l) | _ => false end.
Lemma from_cls_negated xs : neg_weight (obj_lits (obj_from_cls xs)) = ksum pos_unit xs.
Proof.
  rewrite <- (from_cls_soft_sum pos_unit xs). unfold soft_sum. destruct (from_cls_spec xs) as [(_ & W & _) _].
  rewrite (ksum_ext pos_unit (fun _ => false) (obj_cls (obj_from_cls xs))).
  - assert (forall m : list (clause * nat), ksum (fun _ => false) m = 0%nat) as -> by (induction m as [|[? ?] m IH]; [reflexivity|exact IH]). rewrite Nat.add_0_r.
    induction (obj_lits (obj_from_cls xs)) as [|[l w] ls IH]; [reflexivity|]. rewrite neg_weight_cons. cbn [ksum pos_unit]. rewrite IH. cbn [neg lneg]. now rewrite negb_involutive.
  - intros c w Hin. destruct (W c w Hin) as [_ Hl]. destruct c as [|x [|y c]]; [reflexivity|now destruct Hl|reflexivity].
Qed.
Lemma from_cls_total xs : soft_sum (fun _ => true) (obj_from_cls xs) = list_sum (map snd xs).
Proof. rewrite from_cls_soft_sum. induction xs as [|[c w] xs IH]; [reflexivity|]. cbn [ksum map list_sum fold_right snd]. now rewrite IH. Qed.

Lemma gadd_length {K} (keqb : K -> K -> bool) m k w : (List.length (gadd keqb m k w) <= S (List.length m))%nat.
Proof. unfold gadd. induction m as [|[k' w'] m IH]; cbn; [lia|]. repeat (destruct (keqb _ _); cbn); lia. Qed.
Lemma gadds_length {K} (keqb : K -> K -> bool) w ks : forall m, (List.length (fold_left (fun m k => gadd keqb m k w) ks m) <= List.length m + List.length ks)%nat.
Proof. induction ks as [|k ks IH]; intros m; cbn [fold_left List.length]; [lia|]. pose proof (IH (gadd keqb m k w)). pose proof (gadd_length keqb m k w). lia. Qed.
Lemma u2w_cls_length o : (List.length (obj_cls (unweighted_2_weighted o)) <= List.length (obj_cls o))%nat.
Proof.
  destruct o as [z ls cs|z [w|] ls cs]; cbn [unweighted_2_weighted obj_cls]; [lia| |cbn; lia]. rewrite map_length. pose proof (gadds_length clause_eqb w cs []). cbn [List.length] in *. lia.
Qed.
Lemma increase_cls_length w c o : (List.length (obj_cls (increase_soft_clause w c o)) <= S (List.length (obj_cls o)))%nat.
Proof.
  assert (HL : forall w l o, (List.length (obj_cls (increase_soft_lit w l o)) <= List.length (obj_cls o))%nat).
  { clear. intros w l o. unfold increase_soft_lit. destruct (w =? 0)%nat; [lia|]. destruct o as [z ls cs|z [uw|] ls cs]; [cbn; lia| |cbn [obj_cls]; rewrite !map_length; lia].
    destruct (w =? uw)%nat; [cbn [obj_cls]; rewrite !map_length; lia|]. pose proof (u2w_cls_length (OUnweighted z (Some uw) ls cs)) as H. destruct (unweighted_2_weighted _); exact H. }
  unfold increase_soft_clause. destruct (w =? 0)%nat; [lia|].
  assert (HC : (List.length (obj_cls match o with
       | OWeighted z ls cs => OWeighted z ls (gadd clause_eqb cs c w)
       | OUnweighted z (Some uw) ls cs =>
           if (w =? uw)%nat then OUnweighted z (Some uw) ls (cs ++ [c])
           else match unweighted_2_weighted o with OWeighted z ls cs => OWeighted z ls (gadd clause_eqb cs c w) | o' => o' end
       | OUnweighted z None ls cs => OUnweighted z (Some w) ls (cs ++ [c])
       end) <= S (List.length (obj_cls o)))%nat).
  { destruct o as [z ls cs|z [uw|] ls cs]; [cbn [obj_cls]; apply gadd_length| |cbn [obj_cls]; rewrite !map_length, app_length; cbn; lia].
    destruct (w =? uw)%nat; [cbn [obj_cls]; rewrite !map_length, app_length; cbn; lia|]. pose proof (u2w_cls_length (OUnweighted z (Some uw) ls cs)) as H.
    destruct (unweighted_2_weighted _) as [z' ls' cs'|]; [|lia]. cbn [obj_cls] in *. pose proof (gadd_length clause_eqb cs' c w). lia. }
  destruct c as [|x [|y c]]; [exact HC| |exact HC]. specialize (HL w (neg x) o). lia.
Qed.
Lemma from_cls_length xs : (List.length (obj_cls (obj_from_cls xs)) <= List.length xs)%nat.
Proof.
  unfold obj_from_cls. assert (H : forall o, (List.length (obj_cls (fold_left (fun o e => increase_soft_clause (snd e) (fst e) o) xs o)) <= List.length (obj_cls o) + List.length xs)%nat); [|exact (H obj_new)].
  induction xs as [|[c w] xs IH]; intros o; cbn [fold_left List.length fst snd]; [lia|]. specialize (IH (increase_soft_clause w c o)). pose proof (increase_cls_length w c o). lia.
Qed.

(** WCNF *)
Lemma fold_wcnf_notc ds : forall st, fold_left add_wcnf_data ds st = fold_left add_wcnf_data (filter (fun d => negb (is_wcomment d)) ds) st.
Proof. induction ds as [|[c|w c|c] ds IH]; intros st; cbn [filter is_wcomment negb fold_left]; auto. Qed.
Lemma fold_wcnf es : forall i o, fold_left add_wcnf_data (map wdata es) (i, o) =
  (fold_left add_cnf_data (map CClause (hards es)) i, fold_left (fun o e => increase_soft_clause (snd e) (fst e) o) (softs es) o).
Proof.
  induction es as [|[c [w|]] es IH]; intros i o; [reflexivity|..].
  - change (fold_left add_wcnf_data (map wdata es) (i, increase_soft_clause w c o) = (fold_left add_cnf_data (map CClause (hards es)) i, fold_left (fun o e => increase_soft_clause (snd e) (fst e) o) (softs es) (increase_soft_clause w c o))). apply IH.
  - change (fold_left add_wcnf_data (map wdata es) (inst_add_clause i c, o) = (fold_left add_cnf_data (map CClause (hards es)) (inst_add_clause i c), fold_left (fun o e => increase_soft_clause (snd e) (fst e) o) (softs es) o)). apply IH.
Qed.
Lemma in_hards {X} (es : list (clause * option X)) c : In c (hards es) <-> In (c, None) es.
Proof.
  unfold hards. rewrite in_flat_map. split.
  - intros ([d [x|]] & He & Hc); cbn in Hc; [easy|]. destruct Hc as [<-|[]]. exact He.
  - intros H. exists (c, None). split; [exact H|now left].
Qed.
Lemma in_softs es c w : In (c, w) (softs es) <-> In (c, Some w) es.
Proof.
  unfold softs. rewrite in_flat_map. split.
  - intros ([d [x|]] & He & Hc); cbn in Hc; [|easy]. destruct Hc as [E|[]]. now injection E as -> ->.
  - intros H. exists (c, Some w). split; [exact H|now left].
Qed.
Lemma in_msofts k es c w : In (c, w) (msofts k es) <-> In (c, Some (k, w)) es.
Proof.
  unfold msofts. rewrite in_flat_map. split.
  - intros ([d [[j x]|]] & He & Hc); cbn [snd fst] in Hc; [|easy]. destruct (Nat.eqb_spec j k) as [->|]; [|easy]. destruct Hc as [E|[]]. now injection E as -> ->.
  - intros H. exists (c, Some (k, w)). split; [exact H|]. cbn [snd fst]. rewrite Nat.eqb_refl. now left.
Qed.
(** An instance of clauses only that knows the variables of the objectives *)
Definition clausal_known (n : N) (f : cnf) (obs : list obj) (i : inst) : Prop :=
  i_cnf i = f /\ i_cards i = [] /\ i_pbs i = [] /\ (i_next i <= n)%N /\ inst_known i /\ objs_known i obs.
Lemma known_cnf i : i_cards i = [] -> i_pbs i = [] -> cnf_below (i_next i) (i_cnf i) -> inst_known i.
Proof.
  intros Ec Ep H l Hl. unfold inst_lits in Hl. rewrite Ec, Ep in Hl. cbn [map List.concat app] in Hl. rewrite app_nil_r in Hl. apply in_concat in Hl as (c & Hc & Hl). exact (H c Hc l Hl).
Qed.
Lemma raise_clausal n f i ob obs : clausal_known n f obs i -> lits_below n (obj_vars ob) -> clausal_known n f (ob :: obs) (raise_max i (obj_max_var ob)).
Proof.
  intros (E1 & E2 & E3 & Hn & Hk & Ho) Hb. destruct (raise_max_cnf i (obj_max_var ob)) as (F1 & F2 & F3).
  assert (En : i_next (raise_max i (obj_max_var ob)) = raise_next (i_next i) (obj_max_var ob)) by (destruct (obj_max_var ob); reflexivity).
  destruct (raise_next_spec (i_next i) ob) as [L B]. split; [congruence|]. split; [congruence|]. split; [congruence|]. split; [|split].
  - rewrite En. unfold raise_next. pose proof (obj_max_var_spec ob) as Hm. destruct (obj_max_var ob) as [v|]; [|exact Hn]. rewrite next_increase_eq. destruct Hm as [(l & Hl & <-) _]. specialize (Hb l Hl). lia.
  - unfold inst_known, inst_lits. rewrite F1, F2, F3, En. intros l Hl. apply Hk in Hl. lia.
  - intros o' [<-|Ho']; rewrite En; [exact B|]. intros l Hl. specialize (Ho o' Ho' l Hl). lia.
Qed.
Lemma objs_known_sub i obs obs' : (forall o, In o obs' -> In o obs) -> objs_known i obs -> objs_known i obs'.
Proof. intros H Hk o Ho. apply Hk, H, Ho. Qed.

Lemma opt_of_wcnf_file n es t : wcnf_file n es t -> (n <= max_var_idx)%N -> exists p, opt_from_dimacs t = ROk p /\ o_obj p = obj_from_cls (softs es) /\
  clausal_known n (hards es) [obj_from_cls (softs es)] (o_constrs p).
Proof.
  intros H Hn. destruct (read_wcnf_of n es t H) as (h & ds & E & Eds & Hh). destruct H as [Hb _].
  assert (Hf : cnf_below n (hards es)) by (intros c Hc; apply in_hards in Hc; exact (Hb _ Hc)).
  assert (Hs : lits_below n (obj_vars (obj_from_cls (softs es)))) by (apply from_cls_below; intros c w Hc; apply in_softs in Hc; exact (Hb _ Hc)).
  assert (Hc : forall k, (k <= n)%N -> clausal_known n (hards es) [] (mkInst (hards es) [] [] (fold_left marks (hards es) k))).
  { intros k Hk. destruct (marks_cnf_spec (hards es) k) as [M1 M2]. split; [reflexivity|]. split; [reflexivity|]. split; [reflexivity|]. split; [now apply marks_cnf_tight|]. split; [now apply known_cnf|intros o []]. }
  unfold opt_from_dimacs. rewrite E.
  assert (Hst : exists k, (k <= n)%N /\ match h with Some n0 => option_map (inst_increase (inst_new 0)) (var_new n0) | None => Some (inst_new 0) end = Some (inst_new k)).
  { destruct h as [k|]; [|exists 0%N; split; [lia|reflexivity]]. specialize (Hh k eq_refl). exists k. split; [exact Hh|]. unfold var_new. destruct (N.leb_spec k max_var_idx); [|lia]. cbn [option_map]. unfold inst_increase, inst_new. cbn [i_cnf i_cards i_pbs i_next].
    rewrite next_increase_max. now replace (N.max 0 k) with k by lia. }
  destruct Hst as (k & Hk & ->). rewrite fold_wcnf_notc, Eds, fold_wcnf, add_clauses_list. eexists. split; [reflexivity|]. split; [reflexivity|].
  apply raise_clausal; [|exact Hs]. now apply Hc.
Qed.

(** MCNF *)
Lemma fold_mcnf_notc ds : forall st, fold_left add_mcnf_data ds st = fold_left add_mcnf_data (filter mcnf_notc ds) st.
Proof. induction ds as [|[c|w c|c] ds IH]; intros st; cbn [filter mcnf_notc fold_left]; auto. Qed.
Lemma fold_mcnf es : forall i os, exists os', fold_left add_mcnf_data (map mdata es) (i, os) = (fold_left add_cnf_data (map CClause (hards es)) i, os') /\
  List.length os' = Nat.max (List.length os) (n_objs es) /\
  forall j, nth j os' obj_new = fold_left (fun o e => increase_soft_clause (snd e) (fst e) o) (msofts j es) (nth j os obj_new).
Proof.
  induction es as [|[c [[k w]|]] es IH]; intros i os.
  - exists os. split; [reflexivity|]. split; [cbn; lia|reflexivity].
  - cbn [map mdata snd fst fold_left]. destruct (add_msoft_spec i os k w c) as (os1 & -> & L1 & N1). destruct (IH i os1) as (os2 & E2 & L2 & N2).
    exists os2. split; [exact E2|]. split; [rewrite L2, L1; cbn [n_objs map list_max fold_right snd]; unfold n_objs, list_max; lia|].
    intros j. rewrite N2, N1. change (msofts j ((c, Some (k, w)) :: es)) with ((if (k =? j)%nat then [(c, w)] else []) ++ msofts j es). rewrite fold_left_app.
    destruct (Nat.eqb_spec j k) as [->|Hj]; [now rewrite Nat.eqb_refl|]. destruct (Nat.eqb_spec k j); [congruence|reflexivity].
  - change (map mdata ((c, None) :: es)) with (MHard c :: map mdata es). cbn [fold_left add_mcnf_data fst snd]. destruct (IH (inst_add_clause i c) os) as (os2 & E2 & L2 & N2).
    exists os2. split; [exact E2|]. split; [exact L2|exact N2].
Qed.
Definition mobjs (es : list mitem) : list obj := map (fun k => obj_from_cls (msofts k es)) (seq 0 (n_objs es)).
Lemma compose_clausal n f obs : forall i, clausal_known n f [] i -> (forall ob, In ob obs -> lits_below n (obj_vars ob)) -> clausal_known n f obs (mo_constrs (mopt_compose i obs)).
Proof.
  unfold mopt_compose. cbn [mo_constrs]. assert (H : forall obs acc i, clausal_known n f acc i -> (forall ob, In ob obs -> lits_below n (obj_vars ob)) ->
    clausal_known n f (rev obs ++ acc) (fold_left (fun i o => raise_max i (obj_max_var o)) obs i)).
  { clear. induction obs as [|ob obs IH]; intros acc i Hc Hb; [exact Hc|]. cbn [fold_left rev]. rewrite <- app_assoc. apply IH; [|intros o Ho; apply Hb; now right]. apply raise_clausal; [exact Hc|]. apply Hb. now left. }
  intros i Hc Hb. destruct (H obs [] i Hc Hb) as (H1 & H2 & H3 & H4 & H5 & H6). repeat (split; [assumption|]). apply (objs_known_sub _ _ obs) in H6; [exact H6|]. intros o Ho. rewrite app_nil_r. now apply in_rev in Ho.
Qed.
Lemma mopt_of_mcnf_file n es t : mcnf_file n es t -> exists p, mopt_from_dimacs t = ROk p /\ mo_objs p = mobjs es /\ clausal_known n (hards es) (mobjs es) (mo_constrs p).
Proof.
  intros H. destruct (read_mcnf_of n es t H) as (ds & E & Eds). destruct H as [Hb _].
  assert (Hf : cnf_below n (hards es)) by (intros c Hc; apply in_hards in Hc; exact (Hb _ Hc)).
  unfold mopt_from_dimacs. rewrite E, fold_mcnf_notc, Eds. destruct (fold_mcnf es (inst_new 0) []) as (os & -> & Hl & Hn). rewrite add_clauses_list. cbn [List.length Nat.max] in Hl.
  assert (Eo : os = mobjs es).
  { apply (nth_ext _ _ obj_new (obj_from_cls (msofts 0 es))); unfold mobjs; rewrite ?map_length, ?seq_length; [exact Hl|]. intros j Hj. rewrite Hl in Hj. rewrite Hn.
    rewrite (map_nth (fun k => obj_from_cls (msofts k es)) (seq 0 (n_objs es)) 0%nat j), seq_nth by exact Hj. cbn [Nat.add]. replace (nth j (@nil obj) obj_new) with obj_new by now destruct j. reflexivity. }
  rewrite Eo. eexists. split; [reflexivity|]. split; [reflexivity|]. apply compose_clausal.
  - destruct (marks_cnf_spec (hards es) 0) as [M1 M2]. split; [reflexivity|]. split; [reflexivity|]. split; [reflexivity|]. split; [apply marks_cnf_tight; [apply N.le_0_l|exact Hf]|]. split; [now apply known_cnf|intros o []].
  - intros ob Ho. apply in_map_iff in Ho as (k & <- & _). apply from_cls_below. intros c w Hc. apply in_msofts in Hc. exact (Hb _ Hc).
Qed.

(** ** Hardening *)
Lemma convert_offset cord o n o' f n' : convert_to_soft_lits cord o n = Some (o', f, n') -> obj_offset o' = obj_offset o.
Proof.
  destruct o as [z ls cs|z u ls cs]; cbn [convert_to_soft_lits]; destruct (foldM _ _ _) as [[[f0 ls'] n0]|]; cbn [obind]; try discriminate; intros H; injection H as <- _ _; reflexivity.
Qed.
Lemma relax_lits_total es : forall n, total_weight (relax_lits es n) = ksum (fun _ => true) es /\ neg_weight (relax_lits es n) = 0%nat.
Proof.
  induction es as [|[c w] es IH]; intros n; [split; reflexivity|]. destruct (IH (n + 1)%N) as [I1 I2]. cbn [relax_lits snd total_weight ksum]. rewrite neg_weight_cons, I1, I2. cbn [pos lneg]. split; lia.
Qed.
Lemma total_ksum (ls : list (lit * nat)) : total_weight ls = ksum (fun _ => true) ls.
Proof. induction ls as [|[l w] ls IH]; [reflexivity|]. cbn [total_weight ksum]. now rewrite IH. Qed.
Lemma total_app (l1 l2 : list (lit * nat)) : total_weight (l1 ++ l2) = (total_weight l1 + total_weight l2)%nat.
Proof. rewrite !total_ksum. apply ksum_app. Qed.
Lemma neg_weight_app l1 l2 : neg_weight (l1 ++ l2) = (neg_weight l1 + neg_weight l2)%nat.
Proof. induction l1 as [|[l w] l1 IH]; [reflexivity|]. cbn [app]. rewrite !neg_weight_cons, IH. lia. Qed.
Lemma relax_cls_length es : forall n d, In d (relax_cls es n) -> exists e, In e es /\ List.length d = S (List.length (fst e)).
Proof.
  induction es as [|e es IH]; intros n d; [easy|]. cbn [relax_cls]. intros [<-|H]; [exists e; split; [now left|rewrite app_length; cbn; lia]|]. destruct (IH _ _ H) as (e' & He & El). exists e'. split; [now right|exact El].
Qed.
(** what is kept of an objective *)
Definition hardened (n : N) (o o' : obj) : Prop :=
  obj_cls o' = [] /\ obj_offset o' = obj_offset o /\ lits_below n (obj_vars o') /\ total_weight (obj_lits o') = soft_sum (fun _ => true) o /\ neg_weight (obj_lits o') = neg_weight (obj_lits o).

Section Harden.
Context (lord : list (lit * nat) -> list (lit * nat)) (cord : list (clause * nat) -> list (clause * nat)) (Hord : orders lord cord).
Lemma harden_spec c o : inst_known c -> obj_wf o -> obj_nonempty o -> lits_below (i_next c) (obj_vars o) ->
  exists c' o' h, harden cord c o = Some (c', o') /\ i_cnf c' = i_cnf c ++ h /\ i_cards c' = i_cards c /\ i_pbs c' = i_pbs c /\ inst_known c' /\
    i_next c' = (i_next c + N.of_nat (List.length (obj_cls o)))%N /\ cnf_below (i_next c') h /\ hardened (i_next c') o o' /\
    (forall d, In d h -> exists e, In e (obj_cls o) /\ List.length d = S (List.length (fst e))) /\
    relaxed (i_next c) (i_next c') h (fun a => obj_value a o') (fun a => obj_value a o).
Proof.
  intros Hk W Hne Hb. destruct (convert_spec lord cord Hord o (i_next c) W Hne Hb) as (o' & f & n' & E & En & W' & C' & B' & V' & R & es & P1 & P2 & Ef).
  unfold harden. rewrite E. cbn [obind].
  assert (Hf : cnf_below n' f). { intros d Hd l Hl. destruct (V' d l Hd Hl) as [Hin|]; [|lia]. apply in_map_iff in Hin as (l' & <- & Hl'). specialize (Hb l' Hl'). lia. }
  set (c' := inst_call (set_next c n') (AInst (inst_from_cnf f))). exists c', o', f.
  assert (Enx : i_next c' = n').
  { unfold c'. cbn [inst_call inst_extend set_next inst_from_cnf i_next]. unfold next_combine. pose proof (marks_cnf_tight f 0 n' ltac:(lia) Hf) as Hm. destruct (n' <? fold_left marks f 0)%N eqn:El; lia. }
  rewrite Enx. split; [reflexivity|]. split; [reflexivity|]. split; [reflexivity|]. split; [reflexivity|]. split; [|split; [exact En|split; [exact Hf|split; [|split; [|exact R]]]]].
  - unfold inst_known. rewrite Enx. intros l Hl. unfold c', inst_lits in Hl. cbn [inst_call inst_extend set_next inst_from_cnf i_cnf i_cards i_pbs cnf_extend] in Hl. unfold cnf_extend in Hl.
    rewrite concat_app, <- app_assoc, in_app_iff, in_app_iff in Hl. destruct Hl as [Hl|[Hl|Hl]].
    + assert (Hin : In l (inst_lits c)) by (unfold inst_lits; apply in_app_iff; now left). apply Hk in Hin. lia.
    + apply in_concat in Hl as (d & Hd & Hl). exact (Hf d Hd l Hl).
    + assert (Hin : In l (inst_lits c)) by (unfold inst_lits; apply in_app_iff; now right). apply Hk in Hin. lia.
  - split; [exact C'|]. split; [exact (convert_offset _ _ _ _ _ _ E)|]. split; [exact B'|]. destruct (relax_lits_total es (i_next c)) as [T1 T2]. split.
    + rewrite (total_perm _ _ P2), total_app, T1. unfold soft_sum. rewrite total_ksum. f_equal. now apply ksum_perm.
    + rewrite (neg_weight_perm _ _ P2), neg_weight_app, T2. lia.
  - intros d Hd. rewrite Ef in Hd. destruct (relax_cls_length _ _ _ Hd) as (e & He & El). exists e. split; [exact (Permutation_in _ P1 He)|exact El].
Qed.

Lemma forall2_impl_in {A B} (R Q : A -> B -> Prop) xs ys : (forall x y, In x xs -> In y ys -> R x y -> Q x y) -> Forall2 R xs ys -> Forall2 Q xs ys.
Proof. intros H F. induction F as [|x y xs ys Hr _ IH]; constructor; [apply H; auto; now left|]. apply IH. intros x' y' Hx Hy. apply H; now right. Qed.
Lemma harden_all_spec obs : forall c, inst_known c -> (forall o, In o obs -> obj_wf o /\ obj_nonempty o /\ lits_below (i_next c) (obj_vars o)) ->
  exists c' obs' h, harden_all cord c obs = Some (c', obs') /\ i_cnf c' = i_cnf c ++ h /\ i_cards c' = i_cards c /\ i_pbs c' = i_pbs c /\
    i_next c' = (i_next c + N.of_nat (list_sum (map (fun o => List.length (obj_cls o)) obs)))%N /\ cnf_below (i_next c') h /\ Forall2 (hardened (i_next c')) obs obs' /\
    (forall d, In d h -> exists o e, In o obs /\ In e (obj_cls o) /\ List.length d = S (List.length (fst e))) /\
    (forall a, sat_cnf a h = true -> Forall2 (fun o o' => obj_value a o <= obj_value a o')%Z obs obs') /\
    (forall a, exists a', changes_only (i_next c) (i_next c') a a' /\ sat_cnf a' h = true /\ Forall2 (fun o o' => obj_value a' o' = obj_value a o) obs obs').
Proof.
  induction obs as [|o obs IH]; intros c Hk Hos.
  - exists c, [], []. split; [reflexivity|]. rewrite app_nil_r. repeat (split; [reflexivity|]). split; [cbn; lia|]. split; [intros d []|]. split; [constructor|]. split; [intros d []|]. split; [constructor|].
    intros a. exists a. split; [intros v _; reflexivity|]. split; [reflexivity|constructor].
  - destruct (Hos o (or_introl eq_refl)) as (W & Hne & Hb). destruct (harden_spec c o Hk W Hne Hb) as (c1 & o1 & h1 & E1 & F1 & F2 & F3 & Hk1 & N1 & B1 & Hh1 & D1 & R1 & R2).
    destruct (IH c1 Hk1) as (c2 & obs2 & h2 & E2 & G1 & G2 & G3 & N2 & B2 & Hh2 & D2 & S2 & X2).
    { intros o' Ho'. destruct (Hos o' (or_intror Ho')) as (W' & Hne' & Hb'). split; [exact W'|]. split; [exact Hne'|]. intros l Hl. specialize (Hb' l Hl). lia. }
    exists c2, (o1 :: obs2), (h1 ++ h2). cbn [harden_all]. rewrite E1. cbn [obind fst snd]. rewrite E2. cbn [obind fst snd].
    split; [reflexivity|]. split; [rewrite G1, F1, app_assoc; reflexivity|]. split; [congruence|]. split; [congruence|]. split; [cbn [map list_sum fold_right]; fold (list_sum (map (fun o => List.length (obj_cls o)) obs)); lia|].
    assert (B1' : cnf_below (i_next c2) h1) by (intros d Hd l Hl; specialize (B1 d Hd l Hl); lia).
    split; [intros d Hd; apply in_app_iff in Hd as [Hd|Hd]; [now apply B1'|now apply B2]|]. split; [|split; [|split]].
    + constructor; [|exact Hh2]. destruct Hh1 as (Q1 & Q2 & Q3 & Q4). split; [exact Q1|]. split; [exact Q2|]. split; [intros l Hl; specialize (Q3 l Hl); lia|exact Q4].
    + intros d Hd. apply in_app_iff in Hd as [Hd|Hd]; [destruct (D1 d Hd) as (e & He & El); exists o, e; split; [now left|now split]|]. destruct (D2 d Hd) as (o' & e & Ho' & He & El). exists o', e. split; [now right|now split].
    + intros a Ha. rewrite sat_cnf_app in Ha. apply andb_true_iff in Ha as [Ha1 Ha2]. constructor; [now apply R2|now apply S2].
    + intros a. destruct (R1 a) as (a1 & C1 & Sa1 & Va1). destruct (X2 a1) as (a2 & C2 & Sa2 & Va2). exists a2. split; [|split].
      * intros v Hv. rewrite C2, C1 by lia. reflexivity.
      * rewrite sat_cnf_app, Sa2, andb_true_r. now rewrite (sat_cnf_changes (i_next c1) (i_next c2) a1 a2 h1).
      * constructor; [destruct Hh1 as (_ & _ & Q3 & _); rewrite <- Va1; now apply (value_changes (i_next c1) (i_next c2))|].
        eapply forall2_impl_in; [|exact Va2]. intros o' o'' Ho' _ ->. destruct (Hos o' (or_intror Ho')) as (_ & _ & G). exact (value_changes _ _ _ _ _ G C1).
Qed.
End Harden.
