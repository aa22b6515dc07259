(** * Proofs about reading and writing OPB files *)

From Coq Require Import List Bool NArith ZArith Ascii String Lia Permutation.
From Coq Require Import ZifyBool ZifyNat ZifyN.
From Verif Require Import Spec Types TypesProofs Base ConstrSpec Constraints ConstrProofs Inst InstSpec Opt OptSpec OptProofs Text TextProofs FioSpec Dimacs DimacsSpec DimacsProofs DimacsGrammar Opb OpbSpec.
Import ListNotations.
Open Scope list_scope.

(** ** Numbers *)

Definition number_char (c : ascii) : bool := is_digit c || Ascii.eqb c "-" || Ascii.eqb c "+".
Lemma number_text_starts z t r : number_text z t -> starts number_char (t ++ r).
Proof.
  intros [-> | [_ ->]]; [|reflexivity]. pose proof (print_Z_starts z r) as H. destruct (print_Z z ++ r); [easy|]. cbn in *.
  unfold number_char, is_number_start in *. now rewrite H.
Qed.
Lemma coeff_number z t r : is_isize z -> number_text z t -> stops is_digit r -> coeff (t ++ r) = POk z r.
Proof.
  intros Hz [-> | [Hp ->]] Hr; [now apply dec_int_print|].
  unfold coeff, dec_int, try_map, pbind, alt, print_Z. replace (z <? 0)%Z with false by lia.
  unfold optional, char, pret. cbn -[digits1 print_N Z.mul].
  rewrite digits1_print by (assumption || lia). rewrite print_N_value.
  replace (1 * Z.of_N (Z.abs_N z))%Z with z by lia. unfold is_isize in Hz.
  replace ((isize_min <=? z)%Z && (z <=? isize_max)%Z) with true by lia. reflexivity.
Qed.
Lemma numeral_print n r : stops is_digit r -> numeral (print_N n ++ r) = POk n r.
Proof.
  intros Hr. unfold numeral, alt, pbind. destruct (N.eq_dec n 0) as [->|H0]; [reflexivity|].
  rewrite digits1_print by (assumption || lia). unfold pret. now rewrite print_N_value.
Qed.

(** ** Literals and sums *)

Lemma p_var_print o v r : (v <= max_var_idx)%N -> (v + first_var_idx o <= u32_max)%N -> stops is_digit r ->
  p_var o (T "x" ++ print_N (v + first_var_idx o) ++ r) = POk v r.
Proof.
  intros Hv Hf Hr. unfold p_var. unfold pbind at 1. change (T "x" ++ ?q) with ("x"%char :: q). rewrite char_cons.
  unfold try_map, pbind. rewrite numeral_print by assumption.
  replace (v + first_var_idx o <=? u32_max)%N with true by lia. unfold pret.
  replace (v + first_var_idx o <? first_var_idx o)%N with false by lia.
  replace (v + first_var_idx o - first_var_idx o)%N with v by lia. unfold var_new.
  now replace (v <=? max_var_idx)%N with true by lia.
Qed.
Lemma literal_text o l t r : opb_lit_text (first_var_idx o) l t -> stops is_digit r -> opb_literal o (t ++ r) = POk l r.
Proof.
  intros (Hv & Hf & sg & Hs & ->) Hr. rewrite <- !app_assoc. destruct l as [v n]. cbn [lvar lneg] in *.
  assert (optional (alt (char "~") (char "-")) (sg ++ T "x" ++ print_N (v + first_var_idx o) ++ r) =
    POk (if n then Some tt else None) (T "x" ++ print_N (v + first_var_idx o) ++ r)) as E.
  { destruct n; [destruct Hs as [-> | ->]; reflexivity|]. subst sg. reflexivity. }
  unfold opb_literal, pbind at 1. rewrite E. unfold pbind. rewrite p_var_print by assumption. unfold pret. now destruct n.
Qed.
Lemma literal_text_starts f l t r : opb_lit_text f l t -> stops is_space (t ++ r).
Proof. intros (_ & _ & sg & Hs & ->). destruct (lneg l); [destruct Hs as [-> | ->]; reflexivity|]. now subst sg. Qed.
Lemma term_ok o e t r : term_text (first_var_idx o) e t -> stops is_digit r -> term o (t ++ r) = POk e r.
Proof.
  intros (Hz & n & sp & x & Hn & [Hsp Hsp0] & Hx & ->) Hr. rewrite <- !app_assoc. apply blanks_spaces in Hsp. unfold term, pbind.
  rewrite (coeff_number (snd e)) by (assumption || now apply space_not_digit).
  rewrite space1_app by (assumption || now apply (literal_text_starts _ _ _ _ Hx)).
  rewrite (literal_text _ _ _ _ Hx Hr). unfold pret. now destruct e.
Qed.
Lemma number_char_space c : number_char c = true -> is_space c = false.
Proof.
  unfold number_char. rewrite !orb_true_iff. intros [[H|H]|H].
  - unfold is_space. now rewrite !(digit_not_char c).
  - now apply Ascii.eqb_eq in H as ->.
  - now apply Ascii.eqb_eq in H as ->.
Qed.
Lemma term_text_starts f e t r : term_text f e t -> starts number_char (t ++ r).
Proof. intros (_ & n & sp & x & Hn & _ & _ & ->). rewrite <- app_assoc. now apply (number_text_starts _ _ _ Hn). Qed.
Lemma term_text_space f e t r : term_text f e t -> stops is_space (t ++ r).
Proof. intros H. apply (starts_stops number_char); [exact number_char_space|]. now apply (term_text_starts _ _ _ _ H). Qed.

Lemma coeff_stop t : stops number_char t -> coeff t = PBack.
Proof.
  destruct t as [|c t]; [reflexivity|]. cbn. unfold number_char. rewrite !orb_false_iff. intros [[Hd Hm] Hp].
  assert (Ascii.eqb c "0" = false) as H0 by (destruct (Ascii.eqb_spec c "0") as [->|]; [discriminate|reflexivity]).
  assert (is_digit19 c = false) as H19 by (destruct (is_digit19 c) eqn:E; [apply digit19_digit in E; congruence|reflexivity]).
  unfold coeff, dec_int, try_map, pbind, alt, optional, char. rewrite Hp, Hm. unfold digits1, pbind, one_of. now rewrite H19, H0.
Qed.
Lemma term_stop o t : stops number_char t -> term o t = PBack.
Proof. intros H. unfold term, pbind. now rewrite coeff_stop. Qed.

(** What may follow a sum: blanks, and then something that is no number *)
Lemma ends_sum o sp r : spaces sp -> stops is_space r -> stops number_char r -> ends_list (term o) (sp ++ r).
Proof.
  intros Hsp Hs Hr. unfold ends_list. destruct sp as [|c sp]; [cbn [app]; now rewrite space1_stop|].
  rewrite space1_app by (assumption || discriminate). now apply term_stop.
Qed.
Lemma number_char_digit c : number_char c = false -> is_digit c = false.
Proof. unfold number_char. rewrite !orb_false_iff. tauto. Qed.
Lemma stops_weaken f g t : (forall c, f c = false -> g c = false) -> stops f t -> stops g t.
Proof. destruct t; cbn; auto. Qed.
Lemma after_sum sp r : spaces sp -> stops number_char r -> stops is_digit (sp ++ r).
Proof.
  intros Hsp Hr. destruct sp as [|c sp]; [cbn; apply (stops_weaken number_char); [exact number_char_digit|assumption]|].
  apply space_not_digit; [assumption|discriminate].
Qed.

Lemma sum_items f e ts : forall s, sum_text f (e :: ts) s -> exists tx items, s = tx ++ flat_map (fun i : text * text * (lit * Z) => fst (fst i) ++ snd (fst i)) items /\
  term_text f e tx /\ map snd items = ts /\ (forall sp tx x, In (sp, tx, x) items -> spaces sp /\ sp <> [] /\ term_text f x tx).
Proof.
  revert e. induction ts as [|e' ts IH]; intros e s H.
  - exists s, []. cbn [flat_map map]. rewrite app_nil_r. split; [reflexivity|]. split; [exact H|]. split; [reflexivity|]. intros ? ? ? [].
  - destruct H as (t & sp & r & Ht & [Hsp Hsp0] & Hr & ->). destruct (IH e' r Hr) as (tx & items & -> & Htx & <- & Hi).
    exists t, ((sp, tx, e') :: items). cbn [flat_map fst snd map]. split; [now rewrite <- !app_assoc|]. split; [assumption|]. split; [reflexivity|].
    intros sp1 tx1 x [E|Hin]; [|now apply (Hi sp1 tx1)]. injection E as <- <- <-. split; [now apply blanks_spaces|]. now split.
Qed.
Lemma term_sum_ok o ts s sp r : sum_text (first_var_idx o) ts s -> spaces sp -> (ts = [] -> sp = []) -> stops is_space r -> stops number_char r ->
  term_sum o (s ++ sp ++ r) = POk ts (sp ++ r).
Proof.
  intros Hs Hsp Hnil Hr1 Hr2. unfold term_sum. destruct ts as [|e ts].
  - cbn in Hs. subst s. rewrite Hnil by reflexivity. apply separated0_nil. now apply term_stop.
  - destruct (sum_items _ _ _ _ Hs) as (tx & items & -> & Htx & <- & Hi). rewrite <- app_assoc.
    rewrite (separated0_cons (term o) (stops is_digit) tx e items).
    + reflexivity.
    + intros. now apply space_not_digit.
    + intros r' Hr'. now apply term_ok.
    + intros sp' tx' x Hin. destruct (Hi _ _ _ Hin) as (H1 & H2 & H3). split; [assumption|]. split; [assumption|]. split; intros r'.
      * now apply (term_text_space _ _ _ _ H3).
      * intros Hr'. now apply term_ok.
    + now apply after_sum.
    + now apply ends_sum.
Qed.

(** ** Statements *)

Definition after_op (op : opb_op) (r : text) : Prop := match r with c :: _ => Ascii.eqb c "=" = false | [] => True end.
Lemma operator_ok op r : after_op op r -> operator (op_text op ++ r) = POk op r.
Proof.
  intros H. destruct op; try reflexivity.
  - destruct r as [|c r]; [reflexivity|]. cbn in H. unfold operator, alt, pbind. cbn [op_text T list_ascii_of_string app tag]. unfold pbind, char, pret.
    cbn. now rewrite H.
  - destruct r as [|c r]; [reflexivity|]. cbn in H. unfold operator, alt, pbind. cbn [op_text T list_ascii_of_string app tag]. unfold pbind, char, pret.
    cbn. now rewrite H.
Qed.
Lemma op_text_starts op r : stops is_space (op_text op ++ r) /\ stops number_char (op_text op ++ r).
Proof. now destruct op. Qed.
Lemma number_not_eq c : number_char c = true -> Ascii.eqb c "=" = false.
Proof. intros H. destruct (Ascii.eqb_spec c "=") as [->|]; [discriminate|reflexivity]. Qed.
Lemma number_text_after op sp b n r : spaces sp -> number_text b n -> after_op op (sp ++ n ++ r).
Proof.
  intros Hsp Hn. destruct sp as [|c sp].
  - pose proof (number_text_starts b n r Hn) as H. cbn [app]. destruct (n ++ r) as [|c t]; [easy|]. cbn in *. now apply number_not_eq.
  - unfold spaces in Hsp. cbn in *. apply andb_true_iff in Hsp as [H _]. destruct (Ascii.eqb_spec c "=") as [->|]; [discriminate|reflexivity].
Qed.
Lemma number_text_space b n r : number_text b n -> stops is_space (n ++ r).
Proof. intros H. apply (starts_stops number_char); [exact number_char_space|]. now apply (number_text_starts b). Qed.

(** The datum that is read for a statement *)
Definition stmt_data (st : stmt) : opb_data :=
  match st with
  | SConstr ts op b => DConstr (match op with
      | OpLE => pb_new_ub ts b | OpGE => pb_new_lb ts b | OpLT => pb_new_ub ts (b + 1) | OpGT => pb_new_lb ts (b + 1) | OpEQ => pb_new_eq ts b end)
  | SObj s ts => DObj s (fst (objective_sum ts)) (snd (objective_sum ts))
  end.
Lemma objective_sum_snd ts : snd (objective_sum ts) = fold_right Z.add 0%Z (map (fun e => Z.min 0 (snd e)) ts).
Proof.
  induction ts as [|[l c] ts IH]; [reflexivity|]. cbn [objective_sum map fold_right snd]. destruct (objective_sum ts) as [terms z]. cbn [snd] in IH.
  destruct (Z.ltb_spec 0 c); cbn [snd]; lia.
Qed.
Lemma neg_sum_le ts : (fold_right Z.add 0 (map (fun e : lit * Z => Z.min 0 (snd e)) ts) <= 0)%Z.
Proof. induction ts as [|e ts IH]; cbn [map fold_right]; lia. Qed.
Lemma in_isize_ok z : is_isize z -> in_isize z = Some z.
Proof. unfold is_isize, in_isize. intros H. now replace ((isize_min <=? z)%Z && (z <=? isize_max)%Z) with true by lia. Qed.
Lemma in_isize_some z z' : in_isize z = Some z' -> z' = z /\ is_isize z.
Proof. unfold in_isize, is_isize. destruct ((isize_min <=? z)%Z && (z <=? isize_max)%Z) eqn:E; [|discriminate]. intros H. injection H as <-. split; [reflexivity|]. lia. Qed.

Lemma constraint_ok o ts op b t e rest : stmt_text (first_var_idx o) (SConstr ts op b) t -> stmt_fits (SConstr ts op b) ->
  stops is_digit e -> ending e = POk tt rest ->
  (c <- p_constraint o ;; pret (DConstr c)) (t ++ e) = POk (stmt_data (SConstr ts op b)) rest.
Proof.
  intros (Hb & s & sp & sp' & n & Hs & Hsp & Hnil & Hsp' & Hn & ->) Hfit He1 He2. cbn [stmt_fits] in Hfit.
  apply blanks_spaces in Hsp, Hsp'. rewrite <- !app_assoc. unfold p_constraint, pbind.
  rewrite (term_sum_ok o ts) by (assumption || apply op_text_starts).
  rewrite space0_app by (assumption || apply op_text_starts).
  rewrite operator_ok by now apply (number_text_after _ _ b).
  rewrite space0_app by (assumption || now apply (number_text_space b)).
  unfold cut_err. rewrite (coeff_number b) by assumption. rewrite He2. unfold is_isize in Hb.
  destruct op; try reflexivity; rewrite in_isize_ok; try reflexivity; unfold is_isize; split; try lia; assert (b < isize_max)%Z by (apply Hfit; auto); lia.
Qed.

Lemma constraint_not o sn r : p_constraint o (sense_text sn ++ r) = PBack.
Proof. destruct sn; reflexivity. Qed.
Lemma objective_ok o sn ts t e rest sp0 e' : stmt_text (first_var_idx o) (SObj sn ts) t -> stmt_fits (SObj sn ts) ->
  e = sp0 ++ e' -> spaces sp0 -> stops is_space e' -> stops number_char e' -> ending e = POk tt rest -> ending e' = POk tt rest ->
  (x <- p_objective o ;; pret (DObj (fst (fst x)) (snd (fst x)) (snd x))) (t ++ e) = POk (stmt_data (SObj sn ts)) rest.
Proof.
  intros (sp & s & Hsp & Hs & ->) Hfit -> Hsp0 He1 He2 He3 He4. apply blanks_spaces in Hsp. rewrite <- !app_assoc. unfold p_objective, pbind.
  assert (alt (tag (T "min:") ;;; pret Minimize) (tag (T "max:") ;;; pret Maximize) (sense_text sn ++ sp ++ s ++ sp0 ++ e') = POk sn (sp ++ s ++ sp0 ++ e')) as E by now destruct sn.
  unfold pbind in E. rewrite E. clear E. cbn [stmt_fits] in Hfit.
  assert (Hin : in_isize (snd (objective_sum ts)) = Some (snd (objective_sum ts))).
  { apply in_isize_ok. rewrite objective_sum_snd. pose proof (neg_sum_le ts). unfold is_isize, isize_max. split; [exact Hfit|lia]. }
  destruct ts as [|te ts].
  - cbn in Hs. subst s. cbn [app]. rewrite app_assoc. rewrite space0_app; [|unfold spaces in *; now rewrite forallb_app, Hsp, Hsp0|assumption].
    unfold cut_err at 1. pose proof (term_sum_ok o [] [] [] e' eq_refl eq_refl (fun _ => eq_refl) He1 He2) as E. cbn [app] in E. rewrite E. rewrite Hin.
    unfold cut_err. now rewrite He4.
  - destruct (sum_items _ _ _ _ Hs) as (tx & items & Es & Htx & _).
    rewrite space0_app; [|assumption|]. 2:{ rewrite Es, <- !app_assoc. now apply (term_text_space _ _ _ _ Htx). }
    unfold cut_err at 1. rewrite (term_sum_ok o (te :: ts)) by (assumption || discriminate). rewrite Hin. unfold cut_err. now rewrite He3.
Qed.

(** ** Lines *)

Lemma line_ending_not c r : Ascii.eqb c nl = false -> Ascii.eqb c cr = false -> line_ending (c :: r) = PBack.
Proof. intros H1 H2. unfold line_ending, alt, pbind, char. now rewrite H1, H2. Qed.
Definition line_end (e : text) : Prop := e = [] \/ e = [nl] \/ e = [cr; nl].
(** The start of a statement or a comment *)
Definition item_start (c : ascii) : bool := negb (is_white c) && negb (Ascii.eqb c ";").
Lemma white_space c : is_white c = false -> is_space c = false.
Proof. unfold is_space. intros H. destruct (Ascii.eqb_spec c " ") as [->|]; [discriminate|]. destruct (Ascii.eqb_spec c tab) as [->|]; [discriminate|]. reflexivity. Qed.
Lemma starts_not_white (t : text) : starts item_start t -> stops is_white t.
Proof. destruct t; cbn; [easy|]. unfold item_start. rewrite andb_true_iff, !negb_true_iff. tauto. Qed.

Lemma ending_last sp semi sp' e : spaces sp -> semi = T ";" \/ semi = [] -> spaces sp' -> line_end e -> ending (sp ++ semi ++ sp' ++ e) = POk tt [].
Proof.
  intros Hsp Hsemi Hsp' He.
  assert (stops is_space e) as Hs by (destruct He as [-> | [-> | ->]]; exact Logic.I || reflexivity).
  assert (optional (alt eof (line_ending ;;; space0)) e = POk (Some tt) []) as E by (destruct He as [-> | [-> | ->]]; reflexivity).
  unfold ending. unfold pbind at 1. destruct Hsemi as [-> | ->].
  - rewrite space0_app by (assumption || reflexivity). unfold pbind at 1. unfold optional at 1. change (T ";" ++ ?q) with (";"%char :: q). rewrite char_cons.
    unfold pbind at 1. rewrite space0_app by assumption. unfold pbind at 1. now rewrite E.
  - cbn [app]. rewrite app_assoc. rewrite space0_app; [|unfold spaces in *; now rewrite forallb_app, Hsp, Hsp'|assumption].
    unfold pbind at 1. assert (optional (char ";") e = POk None e) as -> by (destruct He as [-> | [-> | ->]]; reflexivity).
    unfold pbind at 1. rewrite space0_stop by assumption. unfold pbind at 1. now rewrite E.
Qed.
Lemma ending_more sp sp' r : spaces sp -> spaces sp' -> starts item_start r -> ending (sp ++ T ";" ++ sp' ++ r) = POk tt r.
Proof.
  intros Hsp Hsp' Hr. pose proof (starts_not_white _ Hr) as Hw.
  assert (Hs : stops is_space r) by (apply (stops_weaken is_white); [exact white_space|assumption]).
  unfold ending. unfold pbind at 1. rewrite space0_app by (assumption || reflexivity).
  unfold pbind at 1. unfold optional at 1. change (T ";" ++ ?q) with (";"%char :: q). rewrite char_cons.
  unfold pbind at 1. rewrite space0_app by assumption. unfold pbind at 1.
  destruct r as [|c r]; [easy|]. cbn in Hw.
  unfold optional, alt, eof, pbind. rewrite line_ending_not; [reflexivity| |].
  - destruct (Ascii.eqb_spec c nl) as [->|]; [discriminate|reflexivity].
  - destruct (Ascii.eqb_spec c cr) as [->|]; [discriminate|reflexivity].
Qed.

Lemma number_char_item c : number_char c = true -> item_start c = true /\ Ascii.eqb c "*" = false.
Proof.
  unfold number_char. rewrite !orb_true_iff. intros [[H|H]|H]; [|apply Ascii.eqb_eq in H as ->; now split..].
  split; [|now apply digit_not_char]. unfold item_start. destruct (digit_plain c H) as [_ ->]. now rewrite (digit_not_char c).
Qed.
Definition stmt_start (c : ascii) : bool := item_start c && negb (Ascii.eqb c "*").
Lemma number_stmt (t : text) : starts number_char t -> starts stmt_start t.
Proof. destruct t as [|c q]; [easy|]. cbn. intros H. unfold stmt_start. now destruct (number_char_item c H) as [-> ->]. Qed.
Lemma stmt_text_starts f st t r : stmt_text f st t -> starts stmt_start (t ++ r).
Proof.
  destruct st as [ts op b|sn ts]; cbn [stmt_text].
  - intros (_ & s & sp & sp' & n & Hs & _ & Hnil & _ & _ & ->). destruct ts as [|e ts].
    + cbn in Hs. subst s. rewrite Hnil by reflexivity. now destruct op.
    + destruct (sum_items _ _ _ _ Hs) as (tx & items & -> & Htx & _). rewrite <- !app_assoc.
      apply number_stmt. now apply (term_text_starts _ _ _ _ Htx).
  - intros (sp & s & _ & _ & ->). now destruct sn.
Qed.
Lemma stmts_text_starts f ss t r : stmts_text f ss t -> starts item_start (t ++ r).
Proof.
  assert (H : forall t : text, starts stmt_start t -> starts item_start t).
  { intros [|c q]; [easy|]. cbn. unfold stmt_start. now rewrite andb_true_iff. }
  destruct 1; [reflexivity|rewrite <- app_assoc; apply H; now apply (stmt_text_starts f st)..].
Qed.


Lemma p_data_stmt o st t e rest sp0 e' : stmt_text (first_var_idx o) st t -> stmt_fits st ->
  e = sp0 ++ e' -> spaces sp0 -> stops is_space e' -> stops number_char e' -> ending e = POk tt rest -> ending e' = POk tt rest ->
  p_data o (t ++ e) = POk (stmt_data st) rest.
Proof.
  intros Ht Hfit He Hsp0 He1 He2 He3 He4. pose proof (stmt_text_starts _ _ _ e Ht) as Hst.
  assert (stops is_digit e) as Hd by (subst e; now apply after_sum).
  assert (stops is_space (t ++ e) /\ exists c q, t ++ e = c :: q /\ Ascii.eqb c "*" = false) as [Hsp (c & q & Ec & Hc)].
  { destruct (t ++ e) as [|c q]; [easy|]. cbn in *. unfold stmt_start, item_start in Hst. rewrite !andb_true_iff, !negb_true_iff in Hst.
    destruct Hst as [[Hw _] Hc]. split; [now apply white_space|]. now exists c, q. }
  unfold p_data. unfold pbind at 1. rewrite space0_stop by assumption. rewrite alt_back.
  2:{ rewrite Ec. unfold pbind, opb_comment, take, pbind, char. now rewrite Hc. }
  destruct st as [ts op b|sn ts].
  - apply alt_ok. now apply constraint_ok.
  - rewrite alt_back; [now apply (objective_ok o sn ts t e rest sp0 e')|].
    destruct Ht as (sp & s & _ & _ & ->). rewrite <- !app_assoc. unfold pbind at 1. now rewrite constraint_not.
Qed.

Lemma comment_data o c e : one_line c -> line_end e -> exists d, p_data o ("*"%char :: c ++ e) = POk (DComment d) [].
Proof.
  intros Hc He. unfold p_data. unfold pbind at 1. change (space0 ("*"%char :: c ++ e)) with (@POk unit tt ("*"%char :: c ++ e)).
  assert (Hsp : span (fun c => negb (Ascii.eqb c nl || Ascii.eqb c cr)) (c ++ e) = (c, e)).
  { apply span_app; [|destruct He as [-> | [-> | ->]]; exact Logic.I || reflexivity].
    apply forallb_forall. intros x Hx. destruct (Hc x Hx) as [H1 H2]. apply negb_true_iff, orb_false_iff. split; now apply Ascii.eqb_neq. }
  assert (Ht : (char "*" ;;; (till_line_ending ;;; optional line_ending)) ("*"%char :: c ++ e) = POk (match e with [] => None | _ => Some tt end) []).
  { unfold pbind at 1. rewrite char_cons. unfold pbind. unfold till_line_ending. rewrite Hsp. cbn [snd]. destruct He as [-> | [-> | ->]]; reflexivity. }
  eexists. apply alt_ok. unfold pbind at 1, opb_comment, take. rewrite Ht. reflexivity.
Qed.

Lemma line_data_ok o ss t e : stmts_text (first_var_idx o) ss t -> line_end e -> Forall stmt_fits ss -> forall fuel, (List.length (t ++ e) <= fuel)%nat ->
  exists ds, line_data o fuel (t ++ e) = ROk ds /\ filter not_comment ds = map stmt_data ss.
Proof.
  intros H He. induction H as [c Hc|st t sp semi sp' Ht Hsp Hsemi Hsp'|st t sp sp' ss r Ht Hsp Hsp' Hr IH]; intros Hfit fuel Hfuel.
  - destruct (comment_data o c e Hc He) as [d Ed]. exists [DComment d]. cbn [app] in *. cbn [List.length] in Hfuel. destruct fuel as [|f]; [lia|].
    cbn [line_data]. rewrite Ed. split; [|reflexivity]. now destruct f.
  - exists [stmt_data st]. split; [|now destruct st]. inversion Hfit as [|? ? Hst _]; subst. apply blanks_spaces in Hsp, Hsp'.
    rewrite <- !app_assoc in *.
    assert (E : p_data o (t ++ sp ++ semi ++ sp' ++ e) = POk (stmt_data st) []).
    { assert (He1 : stops is_space e /\ stops number_char e) by (destruct He as [-> | [-> | ->]]; split; exact Logic.I || reflexivity).
      destruct Hsemi as [-> | ->].
      - apply (p_data_stmt o st t _ [] sp (T ";" ++ sp' ++ e)); try assumption; try reflexivity; [now apply ending_last; auto|].
        exact (ending_last [] (T ";") sp' e eq_refl (or_introl eq_refl) Hsp' He).
      - apply (p_data_stmt o st t _ [] (sp ++ sp') e); try assumption; try easy.
        + now rewrite <- app_assoc.
        + unfold spaces in *. now rewrite forallb_app, Hsp, Hsp'.
        + apply (ending_last sp [] sp' e); auto.
        + exact (ending_last [] [] [] e eq_refl (or_intror eq_refl) eq_refl He). }
    pose proof (stmt_text_starts _ _ _ (sp ++ semi ++ sp' ++ e) Ht) as Hs1.
    destruct (t ++ sp ++ semi ++ sp' ++ e) as [|c q]; [easy|]. cbn [List.length] in Hfuel. destruct fuel as [|f]; [lia|].
    cbn [line_data]. rewrite E. now destruct f.
  - inversion Hfit as [|? ? Hst Hfit']; subst. apply blanks_spaces in Hsp, Hsp'.
    assert (E : p_data o (t ++ sp ++ T ";" ++ sp' ++ r ++ e) = POk (stmt_data st) (r ++ e)).
    { apply (p_data_stmt o st t _ (r ++ e) sp (T ";" ++ sp' ++ r ++ e)); try assumption; try reflexivity.
      - apply ending_more; [assumption..|]. now apply (stmts_text_starts _ _ _ _ Hr).
      - apply (ending_more [] sp' (r ++ e)); [reflexivity|assumption|]. now apply (stmts_text_starts _ _ _ _ Hr). }
    rewrite <- !app_assoc in *.
    pose proof (stmt_text_starts _ _ _ (sp ++ T ";" ++ sp' ++ r ++ e) Ht) as Hs.
    assert (List.length (r ++ e) < List.length (t ++ sp ++ T ";" ++ sp' ++ r ++ e))%nat as Hlen by (rewrite !app_length; cbn; lia).
    destruct (t ++ sp ++ T ";" ++ sp' ++ r ++ e) as [|c q]; [easy|]. cbn [List.length] in *. destruct fuel as [|f]; [lia|].
    destruct (IH Hfit' f) as (ds & Eds & Hds); [lia|]. exists (stmt_data st :: ds). cbn [line_data]. rewrite E, Eds. split; [reflexivity|].
    cbn [filter map]. destruct st; cbn [stmt_data not_comment]; now rewrite Hds.
Qed.

Lemma read_line_ok o ss l e : opb_line_text (first_var_idx o) ss l -> line_end e -> Forall stmt_fits ss ->
  exists ds, read_opb_line o (l ++ e) = ROk ds /\ filter not_comment ds = map stmt_data ss.
Proof.
  intros H He Hfit. unfold read_opb_line. destruct H as [w Hw|w ss t Hw Ht].
  - exists []. split; [|reflexivity]. replace (trim_start (w ++ e)) with (@nil ascii); [reflexivity|].
    rewrite <- (app_nil_r (w ++ e)), trim_start_white; [reflexivity| |exact Logic.I]. rewrite forallb_app. apply andb_true_iff. split; [now apply white_forallb|].
    destruct He as [-> | [-> | ->]]; reflexivity.
  - rewrite <- app_assoc, trim_start_white; [|now apply white_forallb|apply starts_not_white; now apply (stmts_text_starts _ _ _ _ Ht)].
    now apply line_data_ok.
Qed.

(** ** Files *)

Lemma no_nl_number z t : number_text z t -> no_nl t.
Proof.
  intros [-> | [_ ->]]; [apply plain_no_nl, print_Z_plain|]. apply plain_no_nl. cbn. apply print_Z_plain.
Qed.
Lemma no_nl_lit f l t : opb_lit_text f l t -> no_nl t.
Proof.
  intros (_ & _ & sg & Hs & ->). apply plain_no_nl. rewrite !forallb_app, print_N_plain.
  assert (forallb plain sg = true) as -> by (destruct (lneg l); [destruct Hs as [-> | ->]; reflexivity|now subst sg]). reflexivity.
Qed.
Lemma no_nl_term f e t : term_text f e t -> no_nl t.
Proof.
  intros (_ & n & sp & x & Hn & [Hsp _] & Hx & ->). apply no_nl_app; [now apply no_nl_number in Hn|]. apply no_nl_app; [now apply blank_not_nl|now apply no_nl_lit in Hx].
Qed.
Lemma no_nl_sum f ts : forall t, sum_text f ts t -> no_nl t.
Proof.
  induction ts as [|e ts IH]; intros t H; [cbn in H; subst t; noin|].
  destruct (sum_items _ _ _ _ H) as (tx & items & -> & Htx & _ & Hi). apply no_nl_app; [now apply no_nl_term in Htx|].
  intros Hin. apply in_flat_map in Hin as ([[sp1 tx1] x1] & Hin & Hin'). destruct (Hi _ _ _ Hin) as (Hs & _ & Hx). cbn [fst snd] in Hin'.
  apply in_app_or in Hin' as [H'|H'].
  - unfold spaces in Hs. rewrite forallb_forall in Hs. now apply Hs in H'.
  - now apply no_nl_term in Hx.
Qed.
Lemma no_nl_stmt f st t : stmt_text f st t -> no_nl t.
Proof.
  destruct st as [ts op b|sn ts]; cbn [stmt_text].
  - intros (_ & s & sp & sp' & n & Hs & Hsp & _ & Hsp' & Hn & ->). apply no_nl_app; [now apply no_nl_sum in Hs|]. apply no_nl_app; [now apply blank_not_nl|].
    apply no_nl_app; [destruct op; noin|]. apply no_nl_app; [now apply blank_not_nl|now apply no_nl_number in Hn].
  - intros (sp & s & Hsp & Hs & ->). apply no_nl_app; [destruct sn; noin|]. apply no_nl_app; [now apply blank_not_nl|now apply no_nl_sum in Hs].
Qed.
Lemma no_nl_stmts f ss t : stmts_text f ss t -> no_nl t.
Proof.
  induction 1 as [c Hc|st t sp semi sp' Ht Hsp Hsemi Hsp'|st t sp sp' ss r Ht Hsp Hsp' Hr IH].
  - intros [H|H]; [discriminate|]. now destruct (Hc nl H).
  - apply no_nl_app; [now apply no_nl_stmt in Ht|]. apply no_nl_app; [now apply blank_not_nl|]. apply no_nl_app; [destruct Hsemi as [-> | ->]; noin|now apply blank_not_nl].
  - apply no_nl_app; [now apply no_nl_stmt in Ht|]. apply no_nl_app; [now apply blank_not_nl|]. apply no_nl_app; [noin|]. apply no_nl_app; [now apply blank_not_nl|assumption].
Qed.
Lemma no_nl_white w : white w -> no_nl w.
Proof. intros H Hin. now destruct (H nl Hin). Qed.
Lemma no_nl_line f ss l : opb_line_text f ss l -> no_nl l.
Proof. destruct 1; [now apply no_nl_white|]. apply no_nl_app; [now apply no_nl_white|now apply no_nl_stmts in H0]. Qed.

Lemma read_file_ok o ss t : opb_file (first_var_idx o) ss t -> Forall stmt_fits ss ->
  exists ds, read_opb o t = ROk ds /\ filter not_comment ds = map stmt_data ss.
Proof.
  unfold read_opb. induction 1 as [ss l Hl|ss l e ss' t Hl He Ht IH]; intros Hfit.
  - destruct l as [|c l].
    + exists []. split; [reflexivity|]. destruct (read_line_ok o ss [] [] Hl (or_introl eq_refl) Hfit) as (ds & E & <-).
      injection E as <-. reflexivity.
    + rewrite read_lines_last by (now apply no_nl_line in Hl || discriminate).
      destruct (read_line_ok o ss (c :: l) [] Hl (or_introl eq_refl) Hfit) as (ds & E & Hds). rewrite app_nil_r in E.
      exists ds. cbn [collect]. rewrite E. cbn [List.concat]. now rewrite app_nil_r.
  - apply Forall_app in Hfit as [Hf Hf']. destruct (IH Hf') as (ds' & E' & Hds').
    destruct (read_line_ok o ss l e Hl) as (ds & E & Hds); [unfold line_end; destruct He; auto|assumption|].
    exists (ds ++ ds'). pose proof (no_nl_line _ _ _ Hl) as Hn.
    assert (read_lines (l ++ e ++ t) = (l ++ e) :: read_lines t) as ->.
    { destruct He as [-> | ->].
      - change ([nl] ++ t) with (nl :: t). now rewrite read_lines_line.
      - change ([cr; nl] ++ t) with ([cr] ++ nl :: t). rewrite app_assoc, read_lines_line; [now rewrite <- app_assoc|]. apply no_nl_app; [assumption|noin]. }
    cbn [collect]. rewrite E. destruct (collect (read_opb_line o) (read_lines t)) as [dss| |]; try discriminate. injection E' as <-.
    cbn [List.concat]. split; [reflexivity|]. rewrite filter_app, map_app. now rewrite Hds, Hds'.
Qed.

(** ** Meaning *)

Lemma objective_sum_value ts a : (snd (objective_sum ts) + Z.of_nat (wsum a (map (fun e => (snd e, fst e)) (fst (objective_sum ts)))))%Z = zwsum a ts.
Proof.
  induction ts as [|[l c] ts IH]; [reflexivity|]. cbn [objective_sum zwsum]. destruct (objective_sum ts) as [terms z]. cbn [fst snd] in IH.
  destruct (Z.ltb_spec 0 c) as [Hc|Hc]; cbn [fst snd map wsum]; [|rewrite lit_true_neg]; destruct (lit_true a l); cbn [negb]; lia.
Qed.
Lemma stmt_data_means st : (forall ts b, st <> SConstr ts OpLT b) -> data_means st (stmt_data st).
Proof.
  intros H. destruct st as [ts op b|sn ts]; cbn [data_means stmt_data].
  - intros a. destruct op; try (now destruct (H ts b)); unfold pb_new_ub, pb_new_lb, pb_new_eq; rewrite pb_new_spec; cbn [rel_holds op_holds]; lia.
  - split; [reflexivity|]. apply objective_sum_value.
Qed.

Lemma read_opb_means o ss t : opb_file (first_var_idx o) ss t -> Forall stmt_fits ss -> no_less ss ->
  exists ds, read_opb o t = ROk ds /\ Forall2 data_means ss (filter not_comment ds).
Proof.
  intros H Hf Hl. destruct (read_file_ok o ss t H Hf) as (ds & E & Hds). exists ds. split; [exact E|]. rewrite Hds.
  clear - Hl. induction ss as [|st ss IH]; constructor.
  - apply stmt_data_means. intros ts b ->. apply (Hl ts b). now left.
  - apply IH. intros ts b Hin. apply (Hl ts b). now right.
Qed.
