(** * Instances read from and written to OPB files *)

From Coq Require Import List Bool NArith ZArith Ascii String Lia Permutation.
From Coq Require Import ZifyBool ZifyNat ZifyN.
From Verif Require Import Spec Types TypesProofs Base ConstrSpec Constraints ConstrProofs Inst InstSpec InstProofs Opt OptSpec OptProofs Text TextProofs FioSpec Dimacs DimacsSpec DimacsProofs DimacsGrammar Opb OpbSpec OpbProofs.
Import ListNotations.
Open Scope list_scope.

(** ** Reading *)

(** The constraints of an instance *)
Lemma holds_add a i c : inst_holds a (inst_add_pb i c) <-> inst_holds a i /\ pb_holds a c.
Proof.
  unfold inst_holds, holds, inst_add_pb. cbn [i_cnf i_cards i_pbs]. split.
  - intros (H1 & H2 & H3). split; [split; [exact H1|split; [exact H2|]]|]; [intros p Hp|]; apply H3, in_or_app; [now left|right; now left].
  - intros ((H1 & H2 & H3) & H4). split; [exact H1|split; [exact H2|]]. intros p Hp. apply in_app_or in Hp as [Hp|[<-|[]]]; auto.
Qed.
Lemma holds_next a f cs ps n n' : inst_holds a (mkInst f cs ps n) <-> inst_holds a (mkInst f cs ps n').
Proof. reflexivity. Qed.
Lemma constrs_hold_cons a st ss : constrs_hold a (st :: ss) <->
  match st with SConstr ts op b => op_holds op (zwsum a ts) b | SObj _ _ => True end /\ constrs_hold a ss.
Proof.
  unfold constrs_hold, constrs_of. cbn [flat_map]. destruct st as [ts op b|sn ts]; cbn [app].
  - split.
    + intros H. split; [apply H; now left|]. intros ts' op' b' Hin. apply H. now right.
    + intros [H1 H2] ts' op' b' [E|Hin]; [injection E as <- <- <-; exact H1|]. now apply H2.
  - intuition.
Qed.

Lemma add_opb_comments i ds : add_opb i ds = add_opb i (filter not_comment ds).
Proof. revert i. induction ds as [|[t|c|s ts z] ds IH]; intros i; cbn [add_opb filter not_comment]; auto. Qed.
Lemma add_opb_opt_comments i f ds : add_opb_opt i f ds = add_opb_opt i f (filter not_comment ds).
Proof. revert i f. induction ds as [|[t|c|s ts z] ds IH]; intros i f; cbn [add_opb_opt filter not_comment]; auto. destruct f; auto. Qed.
Lemma add_opb_mopt_comments p ds : add_opb_mopt p ds = add_opb_mopt p (filter not_comment ds).
Proof. revert p. induction ds as [|[t|c|s ts z] ds IH]; intros p; cbn [add_opb_mopt filter not_comment]; auto. destruct (objective_of s ts z); auto. Qed.

Lemma add_opb_means ss ds : Forall2 data_means ss ds -> objs_of ss = [] -> forall i,
  exists i', add_opb i ds = ROk i' /\ forall a, inst_holds a i' <-> inst_holds a i /\ constrs_hold a ss.
Proof.
  induction 1 as [|st d ss ds Hd _ IH]; intros Ho i.
  - exists i. split; [reflexivity|]. intros a. unfold constrs_hold. cbn. intuition.
  - destruct st as [ts op b|sn ts]; [|discriminate]. destruct d as [t|c|s' terms z]; try easy. cbn [data_means] in Hd.
    destruct (IH Ho (inst_add_pb i c)) as (i' & E & Hi). exists i'. split; [exact E|]. intros a. rewrite Hi, holds_add, constrs_hold_cons, Hd. tauto.
Qed.
Lemma inst_from_opb_means o ss t : opb_file (first_var_idx o) ss t -> Forall stmt_fits ss -> no_less ss -> objs_of ss = [] ->
  exists i, inst_from_opb o t = ROk i /\ forall a, inst_holds a i <-> constrs_hold a ss.
Proof.
  intros H Hf Hl Ho. destruct (read_opb_means o ss t H Hf Hl) as (ds & E & Hds). unfold inst_from_opb. rewrite E, add_opb_comments.
  destruct (add_opb_means ss _ Hds Ho (inst_new 0)) as (i & Ei & Hi). exists i. split; [exact Ei|]. intros a. rewrite Hi.
  assert (inst_holds a (inst_new 0)) by (split; [reflexivity|]; split; intros ? []). tauto.
Qed.

(** Objectives *)
Lemma wsum_swap_neg a (terms : list (nat * lit)) : (wsum a (map (fun e => (neg (snd e), fst e)) terms) + wsum a (map (fun e => (snd e, fst e)) terms) = list_sum (map fst terms))%nat.
Proof.
  induction terms as [|[w l] terms IH]; [reflexivity|]. cbn [map wsum fst snd]. rewrite lit_true_neg.
  change (list_sum (w :: map fst terms)) with (w + list_sum (map fst terms))%nat. destruct (lit_true a l); cbn [negb]; lia.
Qed.
Lemma objective_sum_weights ts : Z.of_nat (list_sum (map fst (fst (objective_sum ts)))) = abs_coeffs ts.
Proof.
  unfold abs_coeffs. induction ts as [|[l c] ts IH]; [reflexivity|]. cbn [objective_sum map fold_right snd]. destruct (objective_sum ts) as [terms z]. cbn [fst] in *.
  destruct (Z.ltb_spec 0 c); cbn [fst map]; change (list_sum (?w :: ?r)) with (w + list_sum r)%nat; lia.
Qed.
Lemma abs_coeffs_pos ts : (0 <= abs_coeffs ts)%Z.
Proof. unfold abs_coeffs. induction ts as [|e ts IH]; cbn [map fold_right]; lia. Qed.

Lemma objective_of_value s ts : (s = Maximize -> abs_coeffs ts <= isize_max)%Z ->
  exists ob, objective_of s (fst (objective_sum ts)) (snd (objective_sum ts)) = Some ob /\ obj_wf ob /\ forall a, obj_value a ob = read_value a s ts.
Proof.
  intros Hs. destruct s; unfold objective_of.
  - eexists. split; [reflexivity|]. destruct (from_lits_spec (map (fun e => (snd e, fst e)) (fst (objective_sum ts)))) as [Hwf Hv].
    destruct (increase_offset_spec (snd (objective_sum ts)) _ Hwf) as [H1 H2]. split; [exact H1|]. intros a. rewrite H2, Hv. cbn [read_value].
    rewrite <- objective_sum_value. lia.
  - rewrite in_isize_ok.
    + eexists. split; [reflexivity|]. destruct (from_lits_spec (map (fun e => (neg (snd e), fst e)) (fst (objective_sum ts)))) as [Hwf Hv].
      destruct (increase_offset_spec (snd (objective_sum ts) - Z.of_nat (list_sum (map fst (fst (objective_sum ts))))) _ Hwf) as [H1 H2]. split; [exact H1|].
      intros a. rewrite H2, Hv. cbn [read_value]. rewrite <- objective_sum_value. pose proof (wsum_swap_neg a (fst (objective_sum ts))) as E.
      pose proof (objective_sum_snd ts) as E2. fold (neg_coeffs ts) in E2. lia.
    + rewrite objective_sum_weights. unfold is_isize. pose proof (abs_coeffs_pos ts). specialize (Hs eq_refl). unfold isize_min. lia.
Qed.

(** The data read, with the same sums *)
Lemma objs_of_cons_constr ts op b ss : objs_of (SConstr ts op b :: ss) = objs_of ss.
Proof. reflexivity. Qed.
Lemma add_opb_opt_means ss : no_less ss -> forall i f, match f with Some _ => objs_of ss = [] | None => exists s ts, objs_of ss = [(s, ts)] end ->
  exists i' s ts z, add_opb_opt i f (map stmt_data ss) = ROk (i', Some (s, ts, z)) /\ (forall a, inst_holds a i' <-> inst_holds a i /\ constrs_hold a ss) /\
    match f with Some x => x = (s, ts, z) | None => exists ts', objs_of ss = [(s, ts')] /\ (ts, z) = objective_sum ts' end.
Proof.
  induction ss as [|st ss IH]; intros Hl i f Hf.
  - destruct f as [[[s ts] z]|]; [|destruct Hf as (s & ts & E); discriminate]. exists i, s, ts, z. split; [reflexivity|]. split; [|reflexivity].
    intros a. unfold constrs_hold. cbn. intuition.
  - assert (Hl' : no_less ss) by (intros ts b Hin; apply (Hl ts b); now right).
    destruct st as [ts op b|sn ts].
    + pose proof (stmt_data_means (SConstr ts op b)) as Hd. cbn [stmt_data data_means] in Hd. rewrite objs_of_cons_constr in Hf.
      cbn [map stmt_data add_opb_opt]. match goal with |- context [inst_add_pb i ?c] => set (q := c) in * end.
      destruct (IH Hl' (inst_add_pb i q) f Hf) as (i' & s & ts' & z & E & Hi & Hx). exists i', s, ts', z. split; [exact E|]. split; [|exact Hx].
      intros a. rewrite Hi, holds_add, constrs_hold_cons, Hd; [tauto|]. intros ts0 b0 E0. apply (Hl ts0 b0). left. exact E0.
    + destruct f as [x|]; [discriminate|]. destruct Hf as (s0 & ts0 & E0). unfold objs_of in E0. cbn [flat_map app] in E0. fold (objs_of ss) in E0.
      assert (E1 : objs_of ss = []) by congruence. assert (sn = s0 /\ ts = ts0) as [<- <-] by (split; congruence).
      destruct (IH Hl' i (Some (sn, fst (objective_sum ts), snd (objective_sum ts))) E1) as (i' & s & ts' & z & E & Hi & Hx).
      exists i', s, ts', z. split; [exact E|]. split.
      * intros a. rewrite Hi, constrs_hold_cons. tauto.
      * exists ts. injection Hx as <- <- <-. split; [|now destruct (objective_sum ts)]. unfold objs_of. cbn [flat_map app]. fold (objs_of ss). now rewrite E1.
Qed.
Lemma opt_from_opb_means o ss t s ts : opb_file (first_var_idx o) ss t -> Forall stmt_fits ss -> no_less ss -> objs_of ss = [(s, ts)] ->
  (s = Maximize -> abs_coeffs ts <= isize_max)%Z ->
  exists p, opt_from_opb o t = ROk p /\ (forall a, inst_holds a (o_constrs p) <-> constrs_hold a ss) /\ obj_wf (o_obj p) /\
    forall a, obj_value a (o_obj p) = read_value a s ts.
Proof.
  intros H Hf Hl Ho Hs. destruct (read_file_ok o ss t H Hf) as (ds & E & Hds). unfold opt_from_opb. rewrite E, add_opb_opt_comments, Hds.
  destruct (add_opb_opt_means ss Hl (inst_new 0) None) as (i & s' & ts' & z & Ea & Hi & ts'' & Eo & Et); [now exists s, ts|].
  rewrite Ho in Eo. injection Eo as <- <-. rewrite Ea. destruct (objective_of_value s ts Hs) as (ob & Eob & Hwf & Hv).
  assert (ts' = fst (objective_sum ts) /\ z = snd (objective_sum ts)) as [-> ->] by (destruct (objective_sum ts); split; cbn; congruence).
  rewrite Eob. exists (opt_compose i ob). split; [reflexivity|]. split; [|split; assumption].
  intros a. assert (H0 : inst_holds a (inst_new 0)) by (split; [reflexivity|]; split; intros ? []).
  unfold opt_compose, raise_max, inst_increase. cbn [o_constrs]. destruct (obj_max_var ob); [unfold inst_holds; cbn [i_cnf i_cards i_pbs]; fold (inst_holds a i)|]; rewrite Hi; tauto.
Qed.

Lemma add_opb_mopt_means ss : no_less ss -> (forall s ts, In (s, ts) (objs_of ss) -> s = Maximize -> abs_coeffs ts <= isize_max)%Z -> forall p,
  exists p' os, add_opb_mopt p (map stmt_data ss) = ROk p' /\ (forall a, inst_holds a (mo_constrs p') <-> inst_holds a (mo_constrs p) /\ constrs_hold a ss) /\
    mo_objs p' = mo_objs p ++ os /\
    Forall2 (fun st ob => obj_wf ob /\ forall a, obj_value a ob = read_value a (fst st) (snd st)) (objs_of ss) os.
Proof.
  induction ss as [|st ss IH]; intros Hl Hs p.
  - exists p, []. split; [reflexivity|]. split; [|split; [now rewrite app_nil_r|constructor]]. intros a. unfold constrs_hold. cbn. intuition.
  - assert (Hl' : no_less ss) by (intros ts b Hin; apply (Hl ts b); now right).
    destruct st as [ts op b|sn ts].
    + pose proof (stmt_data_means (SConstr ts op b)) as Hd. cbn [stmt_data data_means] in Hd. rewrite objs_of_cons_constr in *.
      cbn [map stmt_data add_opb_mopt]. match goal with |- context [inst_add_pb (mo_constrs p) ?c] => set (q := c) in * end.
      destruct (IH Hl' Hs (mkMopt (inst_add_pb (mo_constrs p) q) (mo_objs p))) as (p' & os & E & Hi & Ho & HF). exists p', os. split; [exact E|]. split; [|split; [exact Ho|exact HF]].
      intros a. rewrite Hi. cbn [mo_constrs]. rewrite holds_add, constrs_hold_cons, Hd; [tauto|]. intros ts0 b0 E0. apply (Hl ts0 b0). left. exact E0.
    + unfold objs_of in *. cbn [flat_map app] in *. fold (objs_of ss) in *.
      destruct (objective_of_value sn ts) as (ob & Eob & Hwf & Hv); [intros E; apply (Hs sn ts); [now left|exact E]|].
      cbn [map stmt_data add_opb_mopt]. rewrite Eob. cbv zeta.
      match goal with |- context [add_opb_mopt ?q] => set (p1 := q) in * end.
      destruct (IH Hl' (fun s ts' Hin => Hs s ts' (or_intror Hin)) p1) as (p' & os & E & Hi & Ho & HF).
      exists p', (ob :: os). split; [exact E|]. split; [|split].
      * intros a. rewrite Hi, constrs_hold_cons. unfold p1. cbn [mo_constrs]. unfold inst_holds at 1. cbn [i_cnf i_cards i_pbs]. fold (inst_holds a (mo_constrs p)). tauto.
      * rewrite Ho. unfold p1. cbn [mo_objs]. now rewrite <- app_assoc.
      * constructor; [now split|exact HF].
Qed.
Lemma mopt_from_opb_means o ss t : opb_file (first_var_idx o) ss t -> Forall stmt_fits ss -> no_less ss ->
  (forall s ts, In (s, ts) (objs_of ss) -> s = Maximize -> abs_coeffs ts <= isize_max)%Z ->
  exists p, mopt_from_opb o t = ROk p /\ (forall a, inst_holds a (mo_constrs p) <-> constrs_hold a ss) /\
    Forall2 (fun st ob => obj_wf ob /\ forall a, obj_value a ob = read_value a (fst st) (snd st)) (objs_of ss) (mo_objs p).
Proof.
  intros H Hf Hl Hs. destruct (read_file_ok o ss t H Hf) as (ds & E & Hds). unfold mopt_from_opb. rewrite E, add_opb_mopt_comments, Hds.
  destruct (add_opb_mopt_means ss Hl Hs (mkMopt (inst_new 0) [])) as (p & os & Ep & Hi & Ho & HF). exists p. split; [exact Ep|]. cbn [mo_constrs mo_objs app] in *.
  rewrite Ho. split; [|exact HF]. intros a. rewrite Hi. assert (inst_holds a (inst_new 0)) by (split; [reflexivity|]; split; intros ? []). tauto.
Qed.

(** ** Writing *)

(** Text that may be followed by any further file *)
Definition prefix_file (f : N) (ss : list stmt) (t : text) : Prop := forall ss' t', opb_file f ss' t' -> opb_file f (ss ++ ss') (t ++ t').
Lemma prefix_nil f : prefix_file f [] [].
Proof. now intros ss' t'. Qed.
Lemma prefix_app f ss t ss' t' : prefix_file f ss t -> prefix_file f ss' t' -> prefix_file f (ss ++ ss') (t ++ t').
Proof. intros H H' ss2 t2 H2. rewrite <- !app_assoc. apply H, H', H2. Qed.
Lemma prefix_line f ss l : stmts_text f ss l -> prefix_file f ss (line l).
Proof.
  intros H ss' t' H'. unfold line. rewrite <- app_assoc. apply (FLine f ss l [nl]); [|now left|exact H'].
  apply (LStmts f [] ss l); [intros ? []|exact H].
Qed.
Lemma prefix_comment f c : one_line c -> prefix_file f [] (line ("*"%char :: c)).
Proof. intros H. apply prefix_line. now constructor. Qed.
Lemma prefix_whole f ss t : prefix_file f ss t -> opb_file f ss t.
Proof.
  intros H. rewrite <- (app_nil_r ss), <- (app_nil_r t). apply H. apply FLast. apply LBlank. intros ? [].
Qed.

Lemma print_nat_Z w : print_nat w = print_Z (Z.of_nat w).
Proof. unfold print_nat, print_Z. replace (Z.of_nat w <? 0)%Z with false by lia. f_equal. lia. Qed.

(** The terms as they are written *)
Definition signed (o : opb_opts) (e : lit * nat) : lit * Z :=
  if lneg (fst e) && no_negated_lits o then (neg (fst e), (- Z.of_nat (snd e))%Z) else (fst e, Z.of_nat (snd e)).
Definition term_fits (e : lit * nat) : Prop := (lvar (fst e) <= max_var_idx)%N /\ (Z.of_nat (snd e) <= isize_max)%Z.

Lemma write_term_text o e t : write_term o e = Some t -> term_fits e -> term_text (first_var_idx o) (signed o e) t.
Proof.
  destruct e as [l w]. unfold write_term, term_fits, signed, opb_var. cbn [fst snd]. intros H [Hv Hw].
  destruct (lvar l + first_var_idx o <=? u32_max)%N eqn:Ef; [|discriminate].
  assert (Hi : is_isize (Z.of_nat w) /\ is_isize (- Z.of_nat w)) by (unfold is_isize, isize_min, isize_max in *; lia).
  destruct (lneg l) eqn:En.
  - destruct (no_negated_lits o).
    + rewrite in_isize_ok in H by apply Hi. cbn [option_map andb] in *. apply Some_inj in H as <-. split; [apply Hi|]. cbn [fst snd].
      exists (print_Z (- Z.of_nat w)), (T " "), (T "x" ++ print_N (lvar l + first_var_idx o)). split; [now left|]. split; [split; [|discriminate]; intros c [<-|[]]; now left|].
      split; [|reflexivity]. unfold opb_lit_text, neg. cbn [lvar lneg]. split; [assumption|]. split; [lia|]. exists []. rewrite En. now split.
    + cbn [andb] in *. apply Some_inj in H as <-. split; [apply Hi|]. cbn [fst snd]. rewrite print_nat_Z.
      exists (print_Z (Z.of_nat w)), (T " "), (T "~x" ++ print_N (lvar l + first_var_idx o)). split; [now left|]. split; [split; [|discriminate]; intros c [<-|[]]; now left|].
      split; [|reflexivity]. unfold opb_lit_text. split; [assumption|]. split; [lia|]. exists (T "~"). rewrite En. split; [now left|reflexivity].
  - cbn [andb]. apply Some_inj in H as <-. split; [apply Hi|]. cbn [fst snd]. rewrite print_nat_Z.
    exists (print_Z (Z.of_nat w)), (T " "), (T "x" ++ print_N (lvar l + first_var_idx o)). split; [now left|]. split; [split; [|discriminate]; intros c [<-|[]]; now left|].
    split; [|reflexivity]. unfold opb_lit_text. split; [assumption|]. split; [lia|]. exists []. rewrite En. now split.
Qed.

Definition space_after (t : text) : text := t ++ T " ".
Definition space_before (t : text) : text := T " " ++ t.
Lemma sum_text_cons f e ts s r : term_text f e s -> ts <> [] -> sum_text f ts r -> sum_text f (e :: ts) (s ++ T " " ++ r).
Proof.
  intros Hs Hn Hr. destruct ts as [|e' ts]; [easy|]. exists s, (T " "), r. split; [exact Hs|]. split; [|split; [exact Hr|reflexivity]].
  split; [intros c [<-|[]]; now left|discriminate].
Qed.
Lemma write_sum_after o ls : forall t, concat_opt (map (fun e => option_map space_after (write_term o e)) ls) = Some t -> (forall e, In e ls -> term_fits e) ->
  exists s sp, t = s ++ sp /\ sum_text (first_var_idx o) (map (signed o) ls) s /\ blanks sp /\ (ls = [] -> sp = []).
Proof.
  induction ls as [|e ls IH]; intros t H Hf.
  - injection H as <-. exists [], []. split; [reflexivity|]. split; [reflexivity|]. split; [intros ? []|auto].
  - cbn [map concat_opt] in H. destruct (write_term o e) as [te|] eqn:Ee; [|discriminate]. cbn [option_map] in H.
    destruct (concat_opt (map (fun e => option_map space_after (write_term o e)) ls)) as [t'|] eqn:Et; [|discriminate]. apply Some_inj in H as <-.
    destruct (IH t' eq_refl) as (s & sp & -> & Hs & Hsp & Hnil); [intros e' He'; apply Hf; now right|].
    pose proof (write_term_text o e te Ee (Hf e (or_introl eq_refl))) as Hte. destruct ls as [|e' ls].
    + cbn in Hs. subst s. rewrite (Hnil eq_refl). exists te, (T " "). split; [unfold space_after; now rewrite !app_nil_r|]. split; [exact Hte|].
      split; [intros c [<-|[]]; now left|discriminate].
    + exists (te ++ T " " ++ s), sp. split; [unfold space_after; now rewrite <- !app_assoc|].
      split; [|split; [exact Hsp|discriminate]]. change (map (signed o) (e :: e' :: ls)) with (signed o e :: map (signed o) (e' :: ls)). now apply sum_text_cons.
Qed.
Lemma write_sum_before o ls : forall t, concat_opt (map (fun e => option_map space_before (write_term o e)) ls) = Some t -> (forall e, In e ls -> term_fits e) ->
  exists s sp, t = sp ++ s /\ sum_text (first_var_idx o) (map (signed o) ls) s /\ (sp = [] \/ sp = T " ") /\ (ls <> [] -> sp = T " ").
Proof.
  induction ls as [|e ls IH]; intros t H Hf.
  - injection H as <-. exists [], []. split; [reflexivity|]. split; [reflexivity|]. split; [now left|easy].
  - cbn [map concat_opt] in H. destruct (write_term o e) as [te|] eqn:Ee; [|discriminate]. cbn [option_map] in H.
    destruct (concat_opt (map (fun e => option_map space_before (write_term o e)) ls)) as [t'|] eqn:Et; [|discriminate]. apply Some_inj in H as <-.
    destruct (IH t' eq_refl) as (s & sp & -> & Hs & Hsp & Hnil); [intros e' He'; apply Hf; now right|].
    pose proof (write_term_text o e te Ee (Hf e (or_introl eq_refl))) as Hte. destruct ls as [|e' ls].
    + cbn [map] in Et. injection Et as Et. destruct sp; [|discriminate]. cbn in Hs. subst s. exists te, (T " "). split; [unfold space_before; now rewrite !app_nil_r|].
      split; [exact Hte|]. split; auto.
    + rewrite (Hnil ltac:(discriminate)). exists (te ++ T " " ++ s), (T " "). split; [unfold space_before; now rewrite <- !app_assoc|].
      split; [|split; auto]. change (map (signed o) (e :: e' :: ls)) with (signed o e :: map (signed o) (e' :: ls)). now apply sum_text_cons.
Qed.

Lemma neg_weight_cons l w ls : neg_weight ((l, w) :: ls) = ((if lneg l then w else 0) + neg_weight ls)%nat.
Proof. reflexivity. Qed.
Lemma neg_weight_negated ls : neg_weight ls = negated_weight ls.
Proof. induction ls as [|[l w] ls IH]; [reflexivity|]. rewrite neg_weight_cons, IH. reflexivity. Qed.
Lemma signed_sum o ls a : (zwsum a (map (signed o) ls) + (if no_negated_lits o then Z.of_nat (neg_weight ls) else 0))%Z = Z.of_nat (wsum a ls).
Proof.
  induction ls as [|[l w] ls IH]; [cbn [map zwsum wsum]; destruct (no_negated_lits o); reflexivity|].
  cbn [map wsum]. rewrite neg_weight_cons. unfold signed at 1. cbn [fst snd].
  destruct (lneg l) eqn:En, (no_negated_lits o); cbn [andb zwsum]; rewrite ?lit_true_neg; destruct (lit_true a l); cbn [negb]; lia.
Qed.

(** A statement that is a constraint with the given meaning *)
Definition means (P : asg -> Prop) (st : stmt) : Prop :=
  exists ts op b, st = SConstr ts op b /\ op <> OpLT /\ op <> OpGT /\ forall a, op_holds op (zwsum a ts) b <-> P a.
Lemma write_rel_text o ls op opt bound t : write_rel o ls opt bound = Some t -> opt = op_text op -> op = OpGE \/ op = OpEQ -> is_isize bound -> (forall e, In e ls -> term_fits e) ->
  exists st, stmts_text (first_var_idx o) [st] (removelast t) /\ t = line (removelast t) /\ means (fun a => op_holds op (Z.of_nat (wsum a ls)) bound) st.
Proof.
  unfold write_rel. intros H -> Hop Hb Hf.
  destruct (concat_opt _) as [ts|] eqn:Et; [|discriminate].
  destruct (write_sum_after o ls ts Et Hf) as (s & sp & -> & Hs & Hsp & Hnil).
  set (z := if no_negated_lits o then Z.of_nat (neg_weight ls) else 0%Z).
  assert (exists b, is_isize b /\ b = (bound - z)%Z /\ Some t = Some (line ((s ++ sp) ++ op_text op ++ T " " ++ print_Z b ++ T ";"))) as (b & Hib & Eb & Ht).
  { unfold z. destruct (no_negated_lits o).
    - destruct (in_isize (Z.of_nat (neg_weight ls))) as [w|] eqn:Ew; [|discriminate]. apply in_isize_some in Ew as [-> Ew].
      destruct (in_isize (bound - _)) as [b|] eqn:Eb; [|discriminate]. apply in_isize_some in Eb as [-> Eb']. eexists. split; [exact Eb'|]. split; [reflexivity|]. symmetry. exact H.
    - exists bound. split; [exact Hb|]. split; [lia|]. symmetry. exact H. }
  apply Some_inj in Ht. clear H. exists (SConstr (map (signed o) ls) op b). unfold line in Ht. assert (Er : removelast t = (s ++ sp) ++ op_text op ++ T " " ++ print_Z b ++ T ";").
  { rewrite Ht. apply removelast_last. }
  rewrite Er. split; [|split].
  - rewrite <- !app_assoc. replace (s ++ sp ++ op_text op ++ T " " ++ print_Z b ++ T ";") with ((s ++ sp ++ op_text op ++ T " " ++ print_Z b) ++ [] ++ T ";" ++ []) by (rewrite <- !app_assoc; reflexivity).
    apply SLast; [|intros ? []|now left|intros ? []]. split; [exact Hib|]. exists s, sp, (T " "), (print_Z b). split; [exact Hs|]. split; [exact Hsp|].
    split; [intros E; apply Hnil; now destruct ls|]. split; [intros c [<-|[]]; now left|]. split; [now left|reflexivity].
  - exact Ht.
  - exists (map (signed o) ls), op, b. split; [reflexivity|]. split; [destruct Hop as [-> | ->]; discriminate|]. split; [destruct Hop as [-> | ->]; discriminate|].
    intros a. pose proof (signed_sum o ls a) as E. fold z in E. destruct Hop as [-> | ->]; cbn [op_holds]; lia.
Qed.

Definition units (ls : list lit) : list (lit * nat) := map (fun l => (l, 1%nat)) ls.
Lemma wsum_ones a ls : wsum a (units ls) = count_true a ls.
Proof. induction ls as [|l ls IH]; [reflexivity|]. unfold units in *. cbn [map wsum count_true]. rewrite IH. destruct (lit_true a l); lia. Qed.
Lemma units_fit ls : valid_lits ls -> forall e, In e (units ls) -> term_fits e.
Proof. intros H e He. apply in_map_iff in He as (l & <- & Hl). split; [now apply H|]. cbn. unfold isize_max. lia. Qed.
Lemma valid_neg ls : valid_lits ls -> valid_lits (map neg ls).
Proof. intros H l Hl. apply in_map_iff in Hl as (x & <- & Hx). exact (H x Hx). Qed.

(** A written line with a constraint *)
Definition constr_line (o : opb_opts) (P : asg -> Prop) (t : text) : Prop := exists st, prefix_file (first_var_idx o) [st] t /\ means P st.
Lemma write_rel_line o ls op opt bound t (P : asg -> Prop) : write_rel o ls opt bound = Some t -> opt = op_text op -> op = OpGE \/ op = OpEQ -> is_isize bound -> (forall e, In e ls -> term_fits e) ->
  (forall a, op_holds op (Z.of_nat (wsum a ls)) bound <-> P a) -> constr_line o P t.
Proof.
  intros H Eo Hop Hb Hf HP. destruct (write_rel_text o ls op opt bound t H Eo Hop Hb Hf) as (st & Hst & -> & ts & op' & b & -> & H1 & H2 & H3).
  eexists. split; [apply prefix_line, Hst|]. exists ts, op', b. split; [reflexivity|]. split; [exact H1|]. split; [exact H2|]. intros a. now rewrite H3.
Qed.
Lemma clause_count a c : sat_clause a c = true <-> (1 <= count_true a c)%nat.
Proof. induction c as [|l c IH]; cbn [sat_clause existsb count_true] in *; [split; [discriminate|lia]|]. unfold sat_clause in *. cbn [existsb]. destruct (lit_true a l); cbn [orb]; [split; [lia|reflexivity]|]. rewrite IH. lia. Qed.
Lemma opb_clause_line o c t : opb_clause o c = Some t -> valid_lits c -> constr_line o (fun a => sat_clause a c = true) t.
Proof.
  intros H Hv. apply (write_rel_line o (units c) OpGE (T ">=") 1 t _ H); [reflexivity|now left|unfold is_isize, isize_min, isize_max; lia|now apply units_fit|].
  intros a. cbn [op_holds]. rewrite wsum_ones, clause_count. lia.
Qed.
Lemma opb_card_line o c t : opb_card o c = Some t -> valid_lits (c_lits c) -> constr_line o (fun a => card_holds a c) t.
Proof.
  unfold opb_card. intros H Hv. destruct (in_isize (Z.of_nat (c_b c))) as [b|] eqn:Eb; [|discriminate]. apply in_isize_some in Eb as [-> Hb].
  destruct c as [k ls b]. cbn [c_kind c_lits c_b] in *. unfold card_holds. cbn [c_kind c_lits c_b]. destruct k.
  - destruct (in_isize (Z.of_nat (List.length ls))) as [n|] eqn:En; [|discriminate]. apply in_isize_some in En as [-> Hn].
    apply (write_rel_line o (units (map neg ls)) OpGE _ _ t _ H); [reflexivity|now left|unfold is_isize, isize_min, isize_max in *; lia|now apply units_fit, valid_neg|].
    intros a. cbn [op_holds]. rewrite wsum_ones, count_true_map_neg. pose proof (count_true_le a ls). lia.
  - apply (write_rel_line o (units ls) OpGE _ _ t _ H); [reflexivity|now left|assumption|now apply units_fit|].
    intros a. cbn [op_holds]. rewrite wsum_ones. lia.
  - apply (write_rel_line o (units ls) OpEQ _ _ t _ H); [reflexivity|now right|assumption|now apply units_fit|].
    intros a. cbn [op_holds]. rewrite wsum_ones. lia.
Qed.
Lemma list_sum_total (ls : list (lit * nat)) : list_sum (map snd ls) = total_weight ls.
Proof. induction ls as [|[l w] ls IH]; [reflexivity|]. cbn [map snd total_weight]. rewrite <- IH. reflexivity. Qed.
Lemma opb_pb_line o c t : opb_pb o c = Some t -> (forall e, In e (p_lits c) -> term_fits e) -> is_isize (p_b c) -> constr_line o (fun a => pb_holds a c) t.
Proof.
  unfold opb_pb, pb_holds. intros H Hf Hb. destruct c as [k ls ws b]. cbn [p_kind p_lits p_b] in *. destruct k.
  - destruct (in_isize (Z.of_nat (list_sum (map snd ls)))) as [s|] eqn:Es; [|discriminate]. apply in_isize_some in Es as [-> Hs].
    destruct (in_isize (_ - b)) as [b'|] eqn:Eb; [|discriminate]. apply in_isize_some in Eb as [-> Hb'].
    apply (write_rel_line o (map (fun e => (neg (fst e), snd e)) ls) OpGE _ _ t _ H); [reflexivity|now left|assumption| |].
    + intros e He. apply in_map_iff in He as ([l w] & <- & Hl). exact (Hf _ Hl).
    + intros a. cbn [op_holds]. rewrite list_sum_total, wsum_map_neg. pose proof (wsum_le a ls). lia.
  - apply (write_rel_line o ls OpGE _ _ t _ H); [reflexivity|now left|assumption..|]. intros a. cbn [op_holds]. lia.
  - apply (write_rel_line o ls OpEQ _ _ t _ H); [reflexivity|now right|assumption..|]. intros a. cbn [op_holds]. lia.
Qed.

(** Several constraints *)
Lemma means_fits P st : means P st -> stmt_fits st /\ (forall ts b, st <> SConstr ts OpLT b).
Proof.
  intros (ts & op & b & -> & H1 & H2 & _). split; [|congruence]. cbn [stmt_fits]. intros [E|E]; [destruct (H1 E)|destruct (H2 E)].
Qed.
Definition constr_stmts (Q : asg -> Prop) (ss : list stmt) : Prop :=
  Forall stmt_fits ss /\ no_less ss /\ objs_of ss = [] /\ forall a, constrs_hold a ss <-> Q a.
Lemma constr_stmts_nil (Q : asg -> Prop) : (forall a, Q a) -> constr_stmts Q [].
Proof. intros H. split; [constructor|]. split; [intros ? ? []|]. split; [reflexivity|]. intros a. split; [intros; apply H|]. intros _ ? ? ? []. Qed.
Lemma constr_stmts_cons P Q R st ss : means P st -> constr_stmts Q ss -> (forall a, R a <-> P a /\ Q a) -> constr_stmts R (st :: ss).
Proof.
  intros Hm (H1 & H2 & H3 & H4) HR. destruct (means_fits P st Hm) as [F L]. split; [now constructor|]. split.
  - intros ts b [E|Hin]; [now destruct (L ts b)|now destruct (H2 ts b)].
  - destruct Hm as (ts & op & b & -> & _ & _ & Hm). split; [exact H3|]. intros a. rewrite constrs_hold_cons, HR, Hm, H4. tauto.
Qed.
Lemma constr_stmts_app P Q R ss ss' : constr_stmts P ss -> constr_stmts Q ss' -> (forall a, R a <-> P a /\ Q a) -> constr_stmts R (ss ++ ss').
Proof.
  intros (H1 & H2 & H3 & H4) (H1' & H2' & H3' & H4') HR. split; [now apply Forall_app|]. split.
  - intros ts b Hin. apply in_app_or in Hin as [Hin|Hin]; [now apply (H2 ts b)|now apply (H2' ts b)].
  - split; [unfold objs_of in *; now rewrite flat_map_app, H3, H3'|]. intros a. rewrite HR, <- H4, <- H4'. unfold constrs_hold, constrs_of. rewrite flat_map_app.
    split; [intros H; split; intros ts op b Hin; apply H, in_or_app; auto|]. intros [Ha Hb] ts op b Hin. apply in_app_or in Hin as [Hin|Hin]; auto.
Qed.
Lemma concat_lines_ok {A} o (w : A -> option text) (P : A -> asg -> Prop) xs : forall t, concat_opt (map w xs) = Some t ->
  (forall x t, In x xs -> w x = Some t -> constr_line o (P x) t) ->
  exists ss, prefix_file (first_var_idx o) ss t /\ constr_stmts (fun a => forall x, In x xs -> P x a) ss.
Proof.
  induction xs as [|x xs IH]; intros t H Hw.
  - injection H as <-. exists []. split; [apply prefix_nil|]. apply constr_stmts_nil. intros a x [].
  - cbn [map concat_opt] in H. destruct (w x) as [tx|] eqn:Ex; [|discriminate]. destruct (concat_opt (map w xs)) as [t'|]; [|discriminate]. apply Some_inj in H as <-.
    destruct (IH t' eq_refl) as (ss & Hp & Hs); [intros y ty Hy; apply Hw; now right|]. destruct (Hw x tx (or_introl eq_refl) Ex) as (st & Hst & Hm).
    exists (st :: ss). split; [apply (prefix_app _ [st]); assumption|]. apply (constr_stmts_cons (P x) (fun a => forall x, In x xs -> P x a) _ st ss Hm Hs).
    intros a. split; [intros Ha; split; [apply Ha; now left|intros y Hy; apply Ha; now right]|]. intros [H1 H2] y [<-|Hy]; auto.
Qed.
Lemma concat_opt_app xs ys t : concat_opt (xs ++ ys) = Some t -> exists t1 t2, concat_opt xs = Some t1 /\ concat_opt ys = Some t2 /\ t = t1 ++ t2.
Proof.
  revert t. induction xs as [|[x|] xs IH]; intros t H; [exists [], t; now repeat split| |discriminate].
  cbn [app concat_opt] in H. destruct (concat_opt (xs ++ ys)) as [t'|]; [|discriminate]. apply Some_inj in H as <-.
  destruct (IH t' eq_refl) as (t1 & t2 & E1 & E2 & ->). exists (x ++ t1), t2. cbn [concat_opt]. rewrite E1. split; [reflexivity|]. split; [exact E2|]. now rewrite app_assoc.
Qed.

Lemma opb_constraints_file o i t : opb_constraints o i = Some t -> opb_inst_ok i ->
  exists ss, prefix_file (first_var_idx o) ss t /\ constr_stmts (fun a => inst_holds a i) ss.
Proof.
  intros H (H1 & H2 & H3). unfold opb_constraints in H. apply concat_opt_app in H as (t1 & t' & E1 & E' & ->). apply concat_opt_app in E' as (t2 & t3 & E2 & E3 & ->).
  destruct (concat_lines_ok o (opb_clause o) (fun c a => sat_clause a c = true) _ t1 E1) as (s1 & P1 & C1); [intros c t Hc Ec; apply opb_clause_line; auto|].
  destruct (concat_lines_ok o (opb_card o) (fun c a => card_holds a c) _ t2 E2) as (s2 & P2 & C2); [intros c t Hc Ec; apply opb_card_line; auto|].
  destruct (concat_lines_ok o (opb_pb o) (fun c a => pb_holds a c) _ t3 E3) as (s3 & P3 & C3).
  { intros c t Hc Ec. destruct (H3 c Hc) as [Hb Hl]. apply opb_pb_line; [assumption| |assumption]. intros [l w] He. exact (Hl l w He). }
  exists (s1 ++ s2 ++ s3). split; [now apply prefix_app; [|apply prefix_app]|].
  refine (constr_stmts_app _ _ _ _ _ C1 (constr_stmts_app _ _ _ _ _ C2 C3 (fun a => iff_refl _)) _). intros a. unfold inst_holds, holds.
  rewrite sat_cnf_true. tauto.
Qed.

Lemma opb_preamble_file o i cl : one_line cl -> prefix_file (first_var_idx o) [] (opb_preamble i cl).
Proof.
  intros Hcl. unfold opb_preamble.
  assert (Hn : forall n, one_line (print_N n)).
  { intros n c Hc. pose proof (print_N_digits n) as H. rewrite forallb_forall in H. apply H in Hc. split; intros ->; discriminate. }
  assert (Happ : forall s t, one_line s -> one_line t -> one_line (s ++ t)) by (intros s t Hs Ht c Hc; apply in_app_or in Hc as [Hc|Hc]; auto).
  assert (Hlit : forall s, forallb (fun c => negb (Ascii.eqb c nl || Ascii.eqb c cr)) (T s) = true -> one_line (T s)).
  { intros s H c Hc. rewrite forallb_forall in H. apply H in Hc. apply negb_true_iff, orb_false_iff in Hc as [H1 H2]. split; now apply Ascii.eqb_neq. }
  assert (Hc : forall t, one_line t -> prefix_file (first_var_idx o) [] (line ("*"%char :: t))) by (intros; now apply prefix_comment).
  repeat match goal with |- prefix_file ?f [] (?x ++ ?y) => apply (prefix_app f [] x [] y) end; [..|].
  - apply (Hc (T " #variable = " ++ print_N (i_next i) ++ T " #constraint= " ++ print_nat _)). apply Happ; [now apply Hlit|]. apply Happ; [apply Hn|]. apply Happ; [now apply Hlit|apply Hn].
  - apply (Hc (T " OPB file written by RustSAT")). now apply Hlit.
  - destruct (i_next i =? 0)%N; [apply prefix_nil|]. apply (Hc (T " maximum variable: x" ++ print_N (i_next i - 1))). apply Happ; [now apply Hlit|apply Hn].
  - apply (Hc (T " " ++ print_nat _ ++ cl)). apply Happ; [now apply Hlit|]. apply Happ; [apply Hn|assumption].
  - apply (Hc (T " " ++ print_nat _ ++ T " cardinality constraints")). apply Happ; [now apply Hlit|]. apply Happ; [apply Hn|now apply Hlit].
  - apply (Hc (T " " ++ print_nat _ ++ T " pseudo-boolean constraints")). apply Happ; [now apply Hlit|]. apply Happ; [apply Hn|now apply Hlit].
Qed.

(** Objectives *)
Lemma signed_neg_coeffs o ls : neg_coeffs (map (signed o) ls) = (if no_negated_lits o then - Z.of_nat (neg_weight ls) else 0)%Z.
Proof.
  unfold neg_coeffs. induction ls as [|[l w] ls IH]; [cbn; now destruct (no_negated_lits o)|]. cbn [map fold_right]. rewrite IH, neg_weight_cons.
  unfold signed. cbn [fst]. destruct (lneg l), (no_negated_lits o); cbn [andb snd]; lia.
Qed.
Lemma neg_weight_total ls : (neg_weight ls <= total_weight ls)%nat.
Proof. induction ls as [|[l w] ls IH]; [apply le_n|]. rewrite neg_weight_cons. cbn [total_weight]. destruct (lneg l); lia. Qed.
Lemma weight_le_total (ls : list (lit * nat)) l w : In (l, w) ls -> (w <= total_weight ls)%nat.
Proof. induction ls as [|[x y] ls IH]; [easy|]. cbn [total_weight]. intros [E|H]; [injection E as _ <-; lia|]. apply IH in H. lia. Qed.
Lemma opb_soft_fits ls : opb_soft_ok ls -> forall e, In e ls -> term_fits e.
Proof. intros [H1 H2] [l w] He. split; [now apply (H1 l w)|]. cbn [snd]. apply weight_le_total in He. lia. Qed.
Lemma one_line_app s t : one_line s -> one_line t -> one_line (s ++ t).
Proof. intros Hs Ht c Hc. apply in_app_or in Hc as [Hc|Hc]; auto. Qed.
Lemma print_Z_one_line z : one_line (print_Z z).
Proof.
  assert (Hn : forall n, one_line (print_N n)).
  { intros n c Hc. pose proof (print_N_digits n) as H. rewrite forallb_forall in H. apply H in Hc. split; intros ->; discriminate. }
  unfold print_Z. destruct (z <? 0)%Z; [|apply Hn]. intros c [<-|Hc]; [split; discriminate|exact (Hn _ c Hc)].
Qed.
Lemma opb_objective_file o ls z t : opb_objective o ls z = Some t -> opb_soft_ok ls ->
  prefix_file (first_var_idx o) [SObj Minimize (map (signed o) ls)] t /\ stmt_fits (SObj Minimize (map (signed o) ls)).
Proof.
  unfold opb_objective. intros H Hok. destruct (negb _ || _); [|discriminate]. destruct (concat_opt _) as [ts|] eqn:Et; [|discriminate].
  destruct (write_sum_before o ls ts Et (opb_soft_fits ls Hok)) as (s & sp & -> & Hs & Hsp & _).
  destruct (if no_negated_lits o then _ else _) as [z'|]; [|discriminate]. apply Some_inj in H as <-. split.
  - rewrite <- (app_nil_r [SObj Minimize _]). apply prefix_app.
    + apply prefix_line. change (T "min:" ++ (sp ++ s) ++ T ";") with (T "min:" ++ (sp ++ s) ++ [] ++ T ";" ++ []). rewrite (app_assoc (T "min:")).
      apply SLast; [|intros ? []|now left|intros ? []]. exists sp, s. split; [destruct Hsp as [-> | ->]; [intros ? []|intros c [<-|[]]; now left]|]. now split.
    + destruct (z' =? 0)%Z; [apply prefix_nil|].
      apply (prefix_comment (first_var_idx o) (T " objective offset for previous objective: " ++ print_Z z')). apply one_line_app; [|apply print_Z_one_line].
      intros c Hc. cbn in Hc. intuition (subst; discriminate).
  - cbn [stmt_fits]. fold (neg_coeffs (map (signed o) ls)). rewrite signed_neg_coeffs. destruct Hok as [_ Hok]. pose proof (neg_weight_total ls). unfold isize_min, isize_max in *.
    destruct (no_negated_lits o); lia.
Qed.

(** ** Round trips *)
Lemma clauses_line_ok : one_line (T " clauses") /\ one_line (T " original hard clauses").
Proof. split; intros c Hc; cbn in Hc; intuition (subst; discriminate). Qed.
Theorem write_sat_read o o' i t : opb_write_sat o i = Some t -> first_var_idx o' = first_var_idx o -> opb_inst_ok i ->
  exists i', inst_from_opb o' t = ROk i' /\ forall a, inst_holds a i' <-> inst_holds a i.
Proof.
  intros H Ef Hok. unfold opb_write_sat in H. destruct (opb_constraints o i) as [tc|] eqn:Ec; [|discriminate]. cbn [option_map] in H. apply Some_inj in H as <-.
  destruct (opb_constraints_file o i tc Ec Hok) as (ss & Hp & H1 & H2 & H3 & H4).
  destruct (inst_from_opb_means o' ss (opb_preamble i (T " clauses") ++ tc)) as (i' & E & Hi); [|assumption..|exists i'; split; [exact E|]; intros a; now rewrite Hi].
  rewrite Ef. apply (prefix_whole _ ss). apply (prefix_app _ [] _ ss); [|exact Hp]. apply (opb_preamble_file o). apply clauses_line_ok.
Qed.
Theorem write_opt_read o o' i ls z t : opb_write_opt o i ls z = Some t -> first_var_idx o' = first_var_idx o -> opb_inst_ok i -> opb_soft_ok ls ->
  exists p, opt_from_opb o' t = ROk p /\ (forall a, inst_holds a (o_constrs p) <-> inst_holds a i) /\ obj_wf (o_obj p) /\
    forall a, obj_value a (o_obj p) = (z + Z.of_nat (wsum a ls) - lost_constant o ls z)%Z.
Proof.
  intros H Ef Hok Hs. unfold opb_write_opt in H. destruct (opb_objective o ls z) as [tb|] eqn:Eb; [|discriminate]. destruct (opb_constraints o i) as [tc|] eqn:Ec; [|discriminate]. apply Some_inj in H as <-.
  destruct (opb_constraints_file o i tc Ec Hok) as (ss & Hp & H1 & H2 & H3 & H4). destruct (opb_objective_file o ls z tb Eb Hs) as [Hb Hf].
  destruct (opt_from_opb_means o' (SObj Minimize (map (signed o) ls) :: ss) (opb_preamble i (T " original hard clauses") ++ tb ++ tc) Minimize (map (signed o) ls)) as (p & E & Hc & Hw & Hv).
  - rewrite Ef. apply (prefix_whole _ (SObj _ _ :: ss)). apply (prefix_app _ [] _ (SObj _ _ :: ss)); [apply (opb_preamble_file o), clauses_line_ok|]. now apply (prefix_app _ [SObj _ _] _ ss).
  - now constructor.
  - intros ts b [E|Hin]; [discriminate|exact (H2 ts b Hin)].
  - unfold objs_of in *. cbn [flat_map app]. now rewrite H3.
  - discriminate.
  - exists p. split; [exact E|]. split; [intros a; rewrite Hc, constrs_hold_cons, H4; tauto|]. split; [exact Hw|]. intros a. rewrite Hv. cbn [read_value].
    pose proof (signed_sum o ls a). unfold lost_constant. rewrite <- neg_weight_negated. lia.
Qed.
Lemma opb_objectives_file o objs : forall t, concat_opt (map (fun e => opb_objective o (fst e) (snd e)) objs) = Some t -> (forall ls z, In (ls, z) objs -> opb_soft_ok ls) ->
  let ss := map (fun e => SObj Minimize (map (signed o) (fst e))) objs in prefix_file (first_var_idx o) ss t /\ Forall stmt_fits ss.
Proof.
  induction objs as [|[ls z] objs IH]; intros t H Hs.
  - injection H as <-. split; [apply prefix_nil|constructor].
  - cbn [map concat_opt fst snd] in H. destruct (opb_objective o ls z) as [tb|] eqn:Eb; [|discriminate]. destruct (concat_opt _) as [t'|]; [|discriminate]. apply Some_inj in H as <-.
    destruct (opb_objective_file o ls z tb Eb (Hs ls z (or_introl eq_refl))) as [Hb Hf]. destruct (IH t' eq_refl) as [Hp Hfs]; [intros; apply (Hs ls0 z0); now right|].
    split; [exact (prefix_app _ [_] _ _ _ Hb Hp)|now constructor].
Qed.
Theorem write_multi_opt_read o o' i objs t : opb_write_multi_opt o i objs = Some t -> first_var_idx o' = first_var_idx o -> opb_inst_ok i -> (forall ls z, In (ls, z) objs -> opb_soft_ok ls) ->
  exists p, mopt_from_opb o' t = ROk p /\ (forall a, inst_holds a (mo_constrs p) <-> inst_holds a i) /\
    Forall2 (fun e ob => obj_wf ob /\ forall a, obj_value a ob = (snd e + Z.of_nat (wsum a (fst e)) - lost_constant o (fst e) (snd e))%Z) objs (mo_objs p).
Proof.
  intros H Ef Hok Hs. unfold opb_write_multi_opt in H. destruct (concat_opt _) as [tb|] eqn:Eb; [|discriminate]. destruct (opb_constraints o i) as [tc|] eqn:Ec; [|discriminate]. apply Some_inj in H as <-.
  destruct (opb_constraints_file o i tc Ec Hok) as (ss & Hp & H1 & H2 & H3 & H4). destruct (opb_objectives_file o objs tb Eb Hs) as [Hb Hf].
  set (so := map (fun e => SObj Minimize (map (signed o) (fst e))) objs) in *.
  assert (Eo : objs_of (so ++ ss) = map (fun e => (Minimize, map (signed o) (fst e))) objs).
  { unfold objs_of in *. rewrite flat_map_app, H3, app_nil_r. unfold so. clear. induction objs as [|e objs IH]; [reflexivity|]. cbn [map flat_map app]. now rewrite IH. }
  assert (Ec' : forall a, constrs_hold a (so ++ ss) <-> constrs_hold a ss).
  { intros a. unfold so. clear. induction objs as [|e objs IH]; [reflexivity|]. cbn [map app]. rewrite constrs_hold_cons, IH. tauto. }
  destruct (mopt_from_opb_means o' (so ++ ss) (opb_preamble i (T " original hard clauses") ++ line (T "* ( ) relaxed and hardened soft clauses") ++ tb ++ tc)) as (p & E & Hc & HF).
  - rewrite Ef. apply (prefix_whole _ (so ++ ss)). apply (prefix_app _ [] _ (so ++ ss)); [apply (opb_preamble_file o), clauses_line_ok|].
    apply (prefix_app _ [] _ (so ++ ss)); [|now apply prefix_app]. apply (prefix_comment _ (T " ( ) relaxed and hardened soft clauses")). intros c Hx. cbn in Hx. intuition (subst; discriminate).
  - now apply Forall_app.
  - intros ts b Hin. apply in_app_or in Hin as [Hin|Hin]; [|exact (H2 ts b Hin)]. unfold so in Hin. apply in_map_iff in Hin as (e & Ee & _). discriminate.
  - rewrite Eo. intros s ts Hin ->. apply in_map_iff in Hin as (e & Ee & _). discriminate.
  - exists p. split; [exact E|]. split; [intros a; rewrite Hc, Ec', H4; tauto|]. rewrite Eo in HF. clear - HF. remember (mo_objs p) as os eqn:Eos. clear Eos.
    revert os HF. induction objs as [|[ls z] objs IH]; intros os HF; inversion HF as [|x y l l' [Hw Hv] HF' E1 E2]; subst; constructor; [|now apply IH].
    cbn [fst snd] in *. split; [exact Hw|]. intros a. rewrite Hv. cbn [read_value]. pose proof (signed_sum o ls a). unfold lost_constant. rewrite <- neg_weight_negated. lia.
Qed.

(** ** When writing succeeds *)
Lemma in_isize_none z : in_isize z = None -> ~ is_isize z.
Proof. intros H Hz. rewrite in_isize_ok in H by assumption. discriminate. Qed.
Lemma write_term_some o e : var_fits o (fst e) -> (Z.of_nat (snd e) <= isize_max)%Z -> exists t, write_term o e = Some t.
Proof.
  destruct e as [l w]. unfold var_fits, write_term, opb_var. cbn [fst snd]. intros H Hw. replace (lvar l + first_var_idx o <=? u32_max)%N with true by lia.
  destruct (lneg l), (no_negated_lits o); try (eexists; reflexivity). rewrite in_isize_ok; [eexists; reflexivity|]. unfold is_isize, isize_min. lia.
Qed.
Lemma concat_opt_some {A} (w : A -> option text) xs : (forall x, In x xs -> exists t, w x = Some t) -> exists t, concat_opt (map w xs) = Some t.
Proof.
  induction xs as [|x xs IH]; intros H; [exists []; reflexivity|]. destruct (H x (or_introl eq_refl)) as [t E]. destruct IH as [t' E']; [intros; apply H; now right|].
  exists (t ++ t'). cbn [map concat_opt]. now rewrite E, E'.
Qed.
Lemma terms_some o (f : text -> text) ls : (forall l w, In (l, w) ls -> var_fits o l) -> (Z.of_nat (total_weight ls) <= isize_max)%Z ->
  exists t, concat_opt (map (fun e => option_map f (write_term o e)) ls) = Some t.
Proof.
  intros Hv Hw. apply concat_opt_some. intros [l w] He. destruct (write_term_some o (l, w)) as [t E]; [now apply (Hv l w)| |exists (f t); now rewrite E].
  cbn [snd]. apply weight_le_total in He. lia.
Qed.
Lemma write_rel_some o ls op b : (forall l w, In (l, w) ls -> var_fits o l) -> (Z.of_nat (total_weight ls) + Z.abs b <= isize_max)%Z ->
  exists t, write_rel o ls op b = Some t.
Proof.
  intros Hv Hw. unfold write_rel. destruct (terms_some o (fun t => t ++ T " ") ls Hv) as [t E]; [lia|]. match goal with |- context [concat_opt ?x] => replace (concat_opt x) with (Some t) by (symmetry; exact E) end. pose proof (neg_weight_total ls).
  destruct (no_negated_lits o); [|eexists; reflexivity]. rewrite !in_isize_ok; [eexists; reflexivity|unfold is_isize, isize_min, isize_max in *; lia..].
Qed.
Lemma total_units ls : total_weight (units ls) = List.length ls.
Proof. induction ls as [|l ls IH]; [reflexivity|]. unfold units in *. cbn [map total_weight List.length]. lia. Qed.
Lemma total_neg (ls : list (lit * nat)) : total_weight (map (fun e => (neg (fst e), snd e)) ls) = total_weight ls.
Proof. induction ls as [|[l w] ls IH]; [reflexivity|]. cbn [map fst snd total_weight]. lia. Qed.
Lemma units_var o ls : (forall l, In l ls -> var_fits o l) -> forall l w, In (l, w) (units ls) -> var_fits o l.
Proof. intros H l w Hin. apply in_map_iff in Hin as (x & E & Hx). injection E as <- <-. auto. Qed.
Lemma neg_var o ls : (forall l, In l ls -> var_fits o l) -> forall l, In l (map neg ls) -> var_fits o l.
Proof. intros H l Hin. apply in_map_iff in Hin as (x & <- & Hx). exact (H x Hx). Qed.
Lemma in_lits_cnf i c l : In c (i_cnf i) -> In l c -> In l (inst_lits i).
Proof. intros. apply in_or_app. left. apply in_concat. eauto. Qed.
Lemma in_lits_card i c l : In c (i_cards i) -> In l (c_lits c) -> In l (inst_lits i).
Proof. intros. apply in_or_app. right. apply in_or_app. left. apply in_concat. exists (c_lits c). split; [now apply in_map|assumption]. Qed.
Lemma in_lits_pb i c l w : In c (i_pbs i) -> In (l, w) (p_lits c) -> In l (inst_lits i).
Proof. intros. apply in_or_app. right. apply in_or_app. right. apply in_map_iff. exists (l, w). split; [reflexivity|]. apply in_concat. exists (p_lits c). split; [now apply in_map|assumption]. Qed.
Lemma concat_opt_app_some xs ys : (exists t, concat_opt xs = Some t) -> (exists t, concat_opt ys = Some t) -> exists t, concat_opt (xs ++ ys) = Some t.
Proof.
  intros [t E] [t' E']. revert t E. induction xs as [|[x|] xs IH]; intros t E; [exists t'; exact E'| |discriminate].
  cbn [app concat_opt] in *. destruct (concat_opt xs) as [tx|]; [|discriminate]. destruct (IH tx eq_refl) as [t2 E2]. exists (x ++ t2). now rewrite E2.
Qed.
Lemma opb_constraints_some o i : opb_writable o i -> exists t, opb_constraints o i = Some t.
Proof.
  intros (Hv & H1 & H2 & H3). unfold opb_constraints. apply concat_opt_app_some; [|apply concat_opt_app_some]; apply concat_opt_some.
  - intros c Hc. apply write_rel_some; [apply units_var; intros l Hl; apply Hv; now apply (in_lits_cnf i c)|]. change (map (fun l => (l, 1%nat)) c) with (units c). rewrite total_units. specialize (H1 c Hc). unfold isize_max in *. lia.
  - intros c Hc. specialize (H2 c Hc). assert (Hl : forall l, In l (c_lits c) -> var_fits o l) by (intros l Hl; apply Hv; now apply (in_lits_card i c)).
    unfold opb_card. rewrite in_isize_ok by (unfold is_isize, isize_min; lia). destruct (c_kind c).
    + rewrite in_isize_ok by (unfold is_isize, isize_min; lia). apply write_rel_some; [now apply units_var, neg_var|]. change (map (fun l => (l, 1%nat)) ?x) with (units x). rewrite total_units, map_length. lia.
    + apply write_rel_some; [now apply units_var|]. change (map (fun l => (l, 1%nat)) ?x) with (units x). rewrite total_units. lia.
    + apply write_rel_some; [now apply units_var|]. change (map (fun l => (l, 1%nat)) ?x) with (units x). rewrite total_units. lia.
  - intros c Hc. specialize (H3 c Hc). assert (Hl : forall l w, In (l, w) (p_lits c) -> var_fits o l) by (intros l w Hl; apply Hv; now apply (in_lits_pb i c l w)).
    unfold opb_pb. rewrite list_sum_total. destruct (p_kind c).
    + rewrite !in_isize_ok by (unfold is_isize, isize_min, isize_max in *; lia). apply write_rel_some; [|rewrite total_neg; lia].
      intros l w Hin. apply in_map_iff in Hin as ([x y] & E & Hx). injection E as <- <-. exact (Hl x y Hx).
    + apply write_rel_some; [assumption|lia].
    + apply write_rel_some; [assumption|lia].
Qed.
Lemma opb_objective_some o ls z : (forall l w, In (l, w) ls -> var_fits o l) -> (Z.of_nat (total_weight ls) + Z.abs z <= isize_max)%Z -> exists t, opb_objective o ls z = Some t.
Proof.
  intros Hv Hw. unfold opb_objective. destruct (terms_some o (fun t => T " " ++ t) ls Hv) as [t E]; [lia|]. match goal with |- context [concat_opt ?x] => replace (concat_opt x) with (Some t) by (symmetry; exact E) end.
  replace (forallb _ ls) with true.
  - rewrite orb_true_r. pose proof (neg_weight_total ls). destruct (no_negated_lits o); [rewrite in_isize_ok by (unfold is_isize, isize_min, isize_max in *; lia)|]; eexists; reflexivity.
  - symmetry. apply forallb_forall. intros [l w] He. cbn [snd]. apply weight_le_total in He. rewrite in_isize_ok; [reflexivity|]. unfold is_isize, isize_min. lia.
Qed.
Lemma write_sat_some o i : opb_writable o i -> exists t, opb_write_sat o i = Some t.
Proof. intros H. destruct (opb_constraints_some o i H) as [t E]. unfold opb_write_sat. rewrite E. eexists. reflexivity. Qed.
Lemma write_opt_some o i ls z : opb_writable o i -> (forall l w, In (l, w) ls -> var_fits o l) -> (Z.of_nat (total_weight ls) + Z.abs z <= isize_max)%Z -> exists t, opb_write_opt o i ls z = Some t.
Proof. intros H Hv Hw. destruct (opb_constraints_some o i H) as [t E]. destruct (opb_objective_some o ls z Hv Hw) as [t' E']. unfold opb_write_opt. rewrite E, E'. eexists. reflexivity. Qed.
Lemma write_multi_opt_some o i objs : opb_writable o i -> (forall ls z, In (ls, z) objs -> (forall l w, In (l, w) ls -> var_fits o l) /\ (Z.of_nat (total_weight ls) + Z.abs z <= isize_max)%Z) ->
  exists t, opb_write_multi_opt o i objs = Some t.
Proof.
  intros H Ho. destruct (opb_constraints_some o i H) as [t E]. unfold opb_write_multi_opt. rewrite E.
  destruct (concat_opt_some (fun e => opb_objective o (fst e) (snd e)) objs) as [t' E']; [intros [ls z] He; apply opb_objective_some; apply (Ho ls z He)|].
  rewrite E'. eexists. reflexivity.
Qed.

(** ** Optimization instances *)
Lemma total_perm (l l' : list (lit * nat)) : Permutation l l' -> total_weight l = total_weight l'.
Proof. induction 1 as [|[x w] l l' _ IH|[x w] [y v] l|l l' l'' _ IH1 _ IH2]; cbn [total_weight]; lia. Qed.
Lemma neg_weight_perm l l' : Permutation l l' -> neg_weight l = neg_weight l'.
Proof. induction 1 as [|[x w] l l' _ IH|[x w] [y v] l|l l' l'' _ IH1 _ IH2]; rewrite ?neg_weight_cons; lia. Qed.
Section Opt.
Context (lord : list (lit * nat) -> list (lit * nat)) (Lp : forall m, Permutation (lord m) m).
Lemma iter_soft_ok ob ls : iter_soft_lits lord ob = inl ls -> Permutation ls (obj_lits ob).
Proof. intros E. pose proof (iter_soft_lits_spec lord (fun m => m) (conj Lp (fun m => Permutation_refl m)) ob) as H. rewrite E in H. apply H. Qed.
Lemma soft_ok_perm l l' : Permutation l l' -> opb_soft_ok l' -> opb_soft_ok l.
Proof. intros P [H1 H2]. split; [intros x w Hin; apply (H1 x w), (Permutation_in _ P), Hin|]. now rewrite (total_perm _ _ P). Qed.
Theorem opt_write_read o o' p t : opt_write_opb o lord p = ROk t -> first_var_idx o' = first_var_idx o -> opb_inst_ok (o_constrs p) -> opb_soft_ok (obj_lits (o_obj p)) ->
  exists p', opt_from_opb o' t = ROk p' /\ (forall a, inst_holds a (o_constrs p') <-> inst_holds a (o_constrs p)) /\ obj_wf (o_obj p') /\
    forall a, obj_value a (o_obj p') = (obj_value a (o_obj p) - lost_constant o (obj_lits (o_obj p)) (obj_offset (o_obj p)))%Z.
Proof.
  unfold opt_write_opb. intros H Ef Hok Hs. destruct (iter_soft_lits lord (o_obj p)) as [ls|] eqn:E; [|discriminate].
  destruct (opb_write_opt o (o_constrs p) ls (obj_offset (o_obj p))) as [t'|] eqn:Et; [|discriminate]. assert (t' = t) as -> by congruence. clear H.
  pose proof (iter_soft_ok _ _ E) as P.
  destruct (write_opt_read o o' (o_constrs p) ls (obj_offset (o_obj p)) t Et Ef Hok (soft_ok_perm _ _ P Hs)) as (p' & Ep & Hc & Hw & Hv).
  exists p'. split; [exact Ep|]. split; [exact Hc|]. split; [exact Hw|]. intros a. rewrite Hv, (iter_soft_lits_value lord (fun m => m) (conj Lp (fun m => Permutation_refl m)) _ _ E).
  unfold lost_constant. rewrite <- !neg_weight_negated. now rewrite (neg_weight_perm _ _ P).
Qed.
Lemma soft_lits_of_ok os : forall ls, soft_lits_of lord os = Some ls -> Forall2 (fun e ob => iter_soft_lits lord ob = inl (fst e) /\ snd e = obj_offset ob) ls os.
Proof.
  induction os as [|ob os IH]; intros ls H; [injection H as <-; constructor|]. cbn [soft_lits_of] in H. destruct (iter_soft_lits lord ob) as [l|] eqn:E; [|discriminate].
  destruct (soft_lits_of lord os) as [rs|]; [|discriminate]. injection H as <-. constructor; [now split|]. now apply IH.
Qed.
Theorem mopt_write_read o o' p t : mopt_write_opb o lord p = ROk t -> first_var_idx o' = first_var_idx o -> opb_inst_ok (mo_constrs p) -> (forall ob, In ob (mo_objs p) -> opb_soft_ok (obj_lits ob)) ->
  exists p', mopt_from_opb o' t = ROk p' /\ (forall a, inst_holds a (mo_constrs p') <-> inst_holds a (mo_constrs p)) /\
    Forall2 (fun ob ob' => obj_wf ob' /\ forall a, obj_value a ob' = (obj_value a ob - lost_constant o (obj_lits ob) (obj_offset ob))%Z) (mo_objs p) (mo_objs p').
Proof.
  unfold mopt_write_opb. intros H Ef Hok Hs. destruct (soft_lits_of lord (mo_objs p)) as [objs|] eqn:E; [|discriminate]. apply soft_lits_of_ok in E.
  destruct (opb_write_multi_opt o (mo_constrs p) objs) as [t'|] eqn:Et; [|discriminate]. assert (t' = t) as -> by congruence. clear H.
  assert (Hobjs : forall ls z, In (ls, z) objs -> opb_soft_ok ls).
  { clear - E Hs Lp. induction E as [|[l y] ob r os [E1 E2] _ IH]; intros ls z Hin; [easy|]. cbn [fst snd] in *. destruct Hin as [Eq|Hin]; [|apply (IH (fun ob' Hob' => Hs ob' (or_intror Hob')) ls z Hin)].
    injection Eq as <- <-. apply (soft_ok_perm _ (obj_lits ob)); [now apply iter_soft_ok|]. apply Hs. now left. }
  destruct (write_multi_opt_read o o' (mo_constrs p) objs t Et Ef Hok Hobjs) as (p' & Ep & Hc & HF).
  exists p'. split; [exact Ep|]. split; [exact Hc|]. clear - E HF Lp. remember (mo_objs p') as os' eqn:Eos. clear Eos. revert os' HF.
  induction E as [|[l y] ob r os [E1 E2] _ IH]; intros os' HF; inversion HF as [|x y' l1 l2 [Hw Hv] HF' Ea Eb]; subst; constructor; [|now apply IH].
  cbn [fst snd] in *. subst y. split; [exact Hw|]. intros a. rewrite Hv, (iter_soft_lits_value lord (fun m => m) (conj Lp (fun m => Permutation_refl m)) _ _ E1).
  unfold lost_constant. rewrite <- !neg_weight_negated. now rewrite (neg_weight_perm _ _ (iter_soft_ok _ _ E1)).
Qed.
Theorem opt_write_ok o p : obj_cls (o_obj p) = [] -> opb_writable o (o_constrs p) -> (forall l w, In (l, w) (obj_lits (o_obj p)) -> var_fits o l) ->
  (Z.of_nat (total_weight (obj_lits (o_obj p))) + Z.abs (obj_offset (o_obj p)) <= isize_max)%Z -> exists t, opt_write_opb o lord p = ROk t.
Proof.
  intros Hc Hw Hv Ht. unfold opt_write_opb. pose proof (iter_soft_lits_spec lord (fun m => m) (conj Lp (fun m => Permutation_refl m)) (o_obj p)) as H.
  destruct (iter_soft_lits lord (o_obj p)) as [ls|]; [|easy]. destruct H as [_ P].
  destruct (write_opt_some o (o_constrs p) ls (obj_offset (o_obj p)) Hw) as [t E]; [intros l w Hin; apply (Hv l w), (Permutation_in _ P), Hin|rewrite (total_perm _ _ P); exact Ht|].
  rewrite E. eexists. reflexivity.
Qed.
End Opt.

(** ** Line-by-line writing *)
Lemma write_lines_file o ls : forall t, write_opb_lines o ls = Some t -> Forall wline_ok ls ->
  exists ss, prefix_file (first_var_idx o) ss t /\ Forall stmt_fits ss /\ no_less ss /\ (forall a, constrs_hold a ss <-> forall l, In l ls -> wline_holds a l) /\
    objs_of ss = map (fun l => (Minimize, map (signed o) l)) (wline_objs ls).
Proof.
  unfold write_opb_lines. induction ls as [|l ls IH]; intros t H Hok.
  - injection H as <-. exists []. split; [apply prefix_nil|]. split; [constructor|]. split; [intros ? ? []|]. split; [|reflexivity]. intros a. split; [intros _ ? []|intros _ ? ? ? []].
  - cbn [map concat_opt] in H. destruct (write_opb_line o l) as [tl|] eqn:El; [|discriminate]. destruct (concat_opt _) as [t'|]; [|discriminate]. apply Some_inj in H as <-.
    inversion Hok as [|? ? Hl Hok']. subst. destruct (IH t' eq_refl Hok') as (ss & P & F & L & C & O).
    assert (Hcl : forall Q, constr_line o Q tl -> (forall a, Q a <-> wline_holds a l) -> wline_objs (l :: ls) = wline_objs ls ->
      exists ss, prefix_file (first_var_idx o) ss (tl ++ t') /\ Forall stmt_fits ss /\ no_less ss /\ (forall a, constrs_hold a ss <-> forall x, In x (l :: ls) -> wline_holds a x) /\
        objs_of ss = map (fun l => (Minimize, map (signed o) l)) (wline_objs (l :: ls))).
    { intros Q (st & Hst & Hm) HQ Eo. exists (st :: ss). split; [now apply (prefix_app _ [st])|]. destruct (means_fits _ _ Hm) as [Fs Ls]. split; [now constructor|].
      split; [intros ts b [E|Hin]; [exact (Ls ts b E)|exact (L ts b Hin)]|]. destruct Hm as (ts & op & b & -> & _ & _ & Hm). split; [|now rewrite objs_of_cons_constr, Eo].
      intros a. rewrite constrs_hold_cons, Hm, C, HQ. split; [intros [H1 H2] x [<-|Hx]; auto|]. intros H. split; [apply H; now left|]. intros x Hx. apply H. now right. }
    destruct l as [c|c|c|c|ob]; cbn [write_opb_line wline_ok] in *.
    + exists ss. split; [|split; [exact F|]; split; [exact L|]; split; [|exact O]].
      * apply Some_inj in El as <-. apply (prefix_app _ [] _ ss); [|exact P]. apply (prefix_comment _ (T " " ++ c)). apply one_line_app; [|exact Hl]. intros x [<-|[]]. split; discriminate.
      * intros a. rewrite C. split; [intros H x [<-|Hx]; [exact Logic.I|auto]|]. intros H x Hx. apply H. now right.
    + apply (Hcl (fun a => sat_clause a c = true)); [now apply opb_clause_line|reflexivity|reflexivity].
    + apply (Hcl (fun a => card_holds a c)); [now apply opb_card_line|reflexivity|reflexivity].
    + apply (Hcl (fun a => pb_holds a c)); [|reflexivity|reflexivity]. destruct Hl as [Hb Hl]. apply opb_pb_line; [assumption| |assumption]. intros [x w] He. exact (Hl x w He).
    + destruct (opb_objective_file o ob 0 tl El Hl) as [Hp Hf]. exists (SObj Minimize (map (signed o) ob) :: ss). split; [now apply (prefix_app _ [_])|]. split; [now constructor|].
      split; [intros ts b [E|Hin]; [discriminate|exact (L ts b Hin)]|]. split.
      * intros a. rewrite constrs_hold_cons, C. split; [intros [_ H] x [<-|Hx]; [exact Logic.I|auto]|]. intros H. split; [exact Logic.I|]. intros x Hx. apply H. now right.
      * unfold objs_of, wline_objs in *. cbn [flat_map app map]. now rewrite O.
Qed.
Theorem write_lines_read o o' ls t : write_opb_lines o ls = Some t -> first_var_idx o' = first_var_idx o -> Forall wline_ok ls ->
  exists p, mopt_from_opb o' t = ROk p /\ (forall a, inst_holds a (mo_constrs p) <-> forall l, In l ls -> wline_holds a l) /\
    Forall2 (fun l ob => obj_wf ob /\ forall a, obj_value a ob = (Z.of_nat (wsum a l) - lost_constant o l 0)%Z) (wline_objs ls) (mo_objs p).
Proof.
  intros H Ef Hok. destruct (write_lines_file o ls t H Hok) as (ss & P & F & L & C & O).
  destruct (mopt_from_opb_means o' ss t) as (p & E & Hc & HF); [rewrite Ef; now apply prefix_whole|assumption..| |].
  - rewrite O. intros s ts Hin ->. apply in_map_iff in Hin as (x & Ex & _). discriminate.
  - exists p. split; [exact E|]. split; [intros a; now rewrite Hc, C|]. rewrite O in HF. clear - HF. remember (mo_objs p) as os eqn:Eos. clear Eos. revert os HF.
    induction (wline_objs ls) as [|l r IH]; intros os HF; inversion HF as [|x y l1 l2 [Hw Hv] HF' E1 E2]; subst; constructor; [|now apply IH].
    cbn [fst snd] in *. split; [exact Hw|]. intros a. rewrite Hv. cbn [read_value]. pose proof (signed_sum o l a). unfold lost_constant. rewrite <- neg_weight_negated. lia.
Qed.

(** ** What is read from other files *)
Lemma less_read o ts b t : opb_file (first_var_idx o) [SConstr ts OpLT b] t -> (b < isize_max)%Z ->
  exists i, inst_from_opb o t = ROk i /\ forall a, inst_holds a i <-> (zwsum a ts <= b + 1)%Z.
Proof.
  intros H Hb. destruct (read_file_ok o _ t H) as (ds & E & Hds); [constructor; [intros _; exact Hb|constructor]|].
  unfold inst_from_opb. rewrite E, add_opb_comments, Hds. cbn [map stmt_data add_opb]. eexists. split; [reflexivity|]. intros a.
  rewrite holds_add. unfold pb_new_ub. rewrite pb_new_spec. cbn [rel_holds]. assert (inst_holds a (inst_new 0)) by (split; [reflexivity|]; split; intros ? []). tauto.
Qed.
Lemma inst_objective_err o ss t : opb_file (first_var_idx o) ss t -> Forall stmt_fits ss -> objs_of ss <> [] -> inst_from_opb o t = RErr.
Proof.
  intros H Hf Ho. destruct (read_file_ok o _ t H Hf) as (ds & E & Hds). unfold inst_from_opb. rewrite E, add_opb_comments, Hds. clear - Ho.
  generalize (inst_new 0). induction ss as [|[ts op b|sn ts] ss IH]; intros i; [now destruct Ho|exact (IH Ho _)|reflexivity].
Qed.
Lemma second_objective_err ss x : objs_of ss <> [] -> forall i, add_opb_opt i (Some x) (map stmt_data ss) = RErr.
Proof. intros Ho. induction ss as [|[ts op b|sn ts] ss IH]; intros i; [now destruct Ho|exact (IH Ho _)|reflexivity]. Qed.
Lemma opt_objective_err o ss t : opb_file (first_var_idx o) ss t -> Forall stmt_fits ss -> List.length (objs_of ss) <> 1%nat -> opt_from_opb o t = RErr.
Proof.
  intros H Hf Ho. destruct (read_file_ok o _ t H Hf) as (ds & E & Hds). unfold opt_from_opb. rewrite E, add_opb_opt_comments, Hds. clear - Ho.
  generalize (inst_new 0). induction ss as [|[ts op b|sn ts] ss IH]; intros i; [reflexivity|now apply IH|].
  unfold objs_of in Ho. cbn [flat_map app List.length] in Ho. fold (objs_of ss) in Ho. cbn [map stmt_data add_opb_opt]. rewrite second_objective_err; [reflexivity|]. now destruct (objs_of ss).
Qed.
(** A number that does not fit in an [isize] *)
Lemma coeff_large n r : (isize_max < Z.of_N n)%Z -> stops is_digit r -> coeff (print_N n ++ r) = PBack.
Proof.
  intros Hn Hr. unfold isize_max in *. unfold coeff, dec_int. rewrite <- (N2Z.id n) at 1. unfold try_map, pbind at 1. unfold alt, pbind, optional, char, pret.
  assert (Hd : exists d ds, print_N n = d :: ds /\ is_digit d = true).
  { pose proof (print_N_digits n) as H. pose proof (print_N_value n) as Hv. destruct (print_N n) as [|d ds]; [cbn in Hv; lia|]. exists d, ds. split; [reflexivity|]. cbn [forallb] in H. now apply andb_prop in H. }
  rewrite N2Z.id. destruct Hd as (d & ds & Ed & Hd). rewrite Ed. cbn [app]. replace (Ascii.eqb d "+") with false by (symmetry; apply Ascii.eqb_neq; intros ->; discriminate).
  replace (Ascii.eqb d "-") with false by (symmetry; apply Ascii.eqb_neq; intros ->; discriminate). change (d :: ds ++ r) with ((d :: ds) ++ r). rewrite <- Ed.
  rewrite digits1_print by (assumption || lia). rewrite print_N_value. replace (1 * Z.of_N n)%Z with (Z.of_N n) by lia.
  unfold pfail. replace ((isize_min <=? Z.of_N n)%Z && (Z.of_N n <=? isize_max)%Z) with false by (unfold isize_max; lia). reflexivity.
Qed.
Lemma large_line o n r : (isize_max < Z.of_N n)%Z -> stops is_digit r -> read_opb_line o (print_N n ++ r) = RErr.
Proof.
  intros Hn Hr.
  assert (Hd : exists d ds, print_N n ++ r = d :: ds /\ is_digit d = true).
  { pose proof (print_N_digits n) as H. pose proof (print_N_value n) as Hv. unfold isize_max in Hn. destruct (print_N n) as [|d ds]; [cbn in Hv; lia|]. exists d, (ds ++ r). split; [reflexivity|]. cbn [forallb] in H. now apply andb_prop in H. }
  destruct Hd as (d & ds & Ed & Hd). assert (Hx : forall c, is_digit c = false -> Ascii.eqb d c = false) by (intros c Hc; apply Ascii.eqb_neq; intros ->; congruence).
  assert (Hw : is_white d = false) by (clear - Hd; destruct d as [[] [] [] [] [] [] [] []]; (discriminate || reflexivity)). assert (Hs : is_space d = false) by (clear - Hd; destruct d as [[] [] [] [] [] [] [] []]; (discriminate || reflexivity)).
  unfold read_opb_line. assert (trim_start (print_N n ++ r) = print_N n ++ r) as -> by (rewrite Ed; unfold trim_start; cbn [span]; now rewrite Hw).
  cbv zeta. rewrite Ed at 1 2. cbn [line_data List.length]. rewrite <- Ed.
  assert (p_data o (print_N n ++ r) = PBack) as ->; [|reflexivity].
  unfold p_data. unfold pbind at 1, space0. assert (snd (span is_space (print_N n ++ r)) = print_N n ++ r) as -> by (rewrite Ed; cbn [span]; now rewrite Hs).
  unfold alt at 1. assert ((c <- opb_comment ;; pret (DComment c)) (print_N n ++ r) = PBack) as ->.
  { rewrite Ed. unfold opb_comment, pbind, take, char. now rewrite Hx. }
  unfold alt at 1. assert ((c <- p_constraint o ;; pret (DConstr c)) (print_N n ++ r) = PBack) as ->.
  { unfold p_constraint, pbind, term_sum, separated0, term, pbind. rewrite coeff_large by assumption. unfold space0.
    assert (snd (span is_space (print_N n ++ r)) = print_N n ++ r) as -> by (rewrite Ed; cbn [span]; now rewrite Hs).
    rewrite Ed. unfold operator, alt, pbind. cbn [tag T list_ascii_of_string]. unfold pbind, char. now rewrite !Hx. }
  rewrite Ed. unfold p_objective, pbind, alt. cbn [tag T list_ascii_of_string]. unfold pbind, char. now rewrite !Hx.
Qed.
