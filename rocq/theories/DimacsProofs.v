(** * Proofs about reading and writing DIMACS files *)

From Coq Require Import List Bool NArith ZArith Ascii String Lia Permutation.
From Coq Require Import ZifyBool ZifyNat ZifyN.
From Verif Require Import Spec Types TypesProofs Base Constraints Inst Opt OptSpec OptProofs Text TextProofs FioSpec Dimacs.
Import ListNotations.
Open Scope list_scope.

Lemma Some_inj {A} (x y : A) : Some x = Some y -> x = y.
Proof. congruence. Qed.
Ltac noin := unfold no_nl; cbn; intuition discriminate.

(** ** Characters of the written text *)

Definition plain (c : ascii) : bool := negb (is_white c) || Ascii.eqb c " ".
Lemma plain_no_nl t : forallb plain t = true -> no_nl t.
Proof. unfold no_nl. rewrite forallb_forall. intros H Hin. apply H in Hin. discriminate. Qed.
Lemma digit_plain c : is_digit c = true -> plain c = true /\ is_white c = false.
Proof. unfold plain, is_digit, is_white. intros H. split; [|lia]. apply orb_true_iff. left. lia. Qed.
Lemma forallb_weaken {A} (f g : A -> bool) xs : (forall x, f x = true -> g x = true) -> forallb f xs = true -> forallb g xs = true.
Proof. rewrite !forallb_forall. auto. Qed.
Lemma print_N_plain n : forallb plain (print_N n) = true.
Proof. apply forallb_weaken with is_digit; [intros; now apply digit_plain|apply print_N_digits]. Qed.
Lemma print_Z_plain z : forallb plain (print_Z z) = true.
Proof. unfold print_Z. destruct (z <? 0)%Z; cbn; apply print_N_plain. Qed.
Lemma T_plain s : forallb plain (T s) = true -> forallb plain (T s) = true.
Proof. trivial. Qed.

Lemma number_start_not_white c : is_number_start c = true -> is_white c = false /\ is_space c = false.
Proof.
  unfold is_number_start. rewrite orb_true_iff. intros [H|H].
  - split; [now apply digit_plain|]. unfold is_space. rewrite !(digit_not_char c) by easy. reflexivity.
  - apply Ascii.eqb_eq in H as ->. now split.
Qed.
Lemma starts_stops f g t : (forall c, f c = true -> g c = false) -> starts f t -> stops g t.
Proof. destruct t; cbn; auto. Qed.
Lemma starts_app f s t : starts f s -> starts f (s ++ t).
Proof. now destruct s. Qed.
Lemma last_white t c : is_white c = false -> stops is_white (rev (t ++ [c])).
Proof. intros H. now rewrite rev_app_distr. Qed.
Lemma print_N_last n : stops is_white (rev (print_N n)).
Proof.
  pose proof (print_N_digits n) as H. pose proof (print_N_not_nil n) as H0.
  destruct (exists_last H0) as (ds & d & E). rewrite E in *. apply last_white.
  rewrite forallb_app in H. apply andb_true_iff in H as [_ H]. cbn in H. apply digit_plain. now rewrite andb_true_r in H.
Qed.

(** ** Clauses *)

Lemma ipasir_range l z : to_ipasir l = Some z -> (i32_min <= z <= i32_max)%Z.
Proof. unfold to_ipasir, i32_min, i32_max. destruct (_ <=? _)%Z eqn:E; [|discriminate]. destruct (lneg l); intros H; injection H as <-; lia. Qed.

Lemma p_lit_print l z r : to_ipasir l = Some z -> stops is_digit r -> p_lit (print_Z z ++ r) = POk l r.
Proof.
  intros H Hr. unfold p_lit, try_map, pbind. rewrite dec_int_print; [|now apply ipasir_range in H|assumption].
  now rewrite (to_from_ipasir _ _ H).
Qed.
Lemma p_lit_zero r : p_lit ("0"%char :: r) = PBack.
Proof.
  unfold p_lit, try_map, pbind.
  assert (dec_int i32_min i32_max ("0"%char :: r) = POk 0%Z r) as ->; [|reflexivity].
  unfold dec_int, try_map, pbind, alt, optional, char. cbn -[digits1]. now rewrite digits1_zero.
Qed.

Lemma space_not_digit s t : spaces s -> s <> [] -> stops is_digit (s ++ t).
Proof.
  unfold spaces. intros Hs Hn. destruct s as [|c s]; [easy|]. cbn in *. apply andb_true_iff in Hs as [Hs _].
  unfold is_space in Hs. apply orb_true_iff in Hs as [Hs|Hs]; apply Ascii.eqb_eq in Hs as ->; reflexivity.
Qed.

Lemma lits_items c s : concat_opt (map write_lit c) = Some s ->
  exists items : list (text * text * lit), T " " ++ s = flat_map (fun i => fst (fst i) ++ snd (fst i)) items ++ T " " /\ map snd items = c /\
    (forall sp tx x, In (sp, tx, x) items -> spaces sp /\ sp <> [] /\ (forall r, stops is_space (tx ++ r)) /\
       (forall r, stops is_digit r -> p_lit (tx ++ r) = POk x r)).
Proof.
  revert s. induction c as [|l c IH]; intros s H.
  - injection H as <-. exists []. now repeat split.
  - cbn [map concat_opt] in H. unfold write_lit at 1 in H. destruct (to_ipasir l) as [z|] eqn:Ez; [|discriminate].
    cbn [option_map] in H. destruct (concat_opt (map write_lit c)) as [s'|] eqn:Es; [|discriminate].
    injection H as <-. destruct (IH s' eq_refl) as (items & E & Em & Hi).
    exists ((T " ", print_Z z, l) :: items). split; [|split].
    + cbn [flat_map fst snd]. rewrite <- !app_assoc. change [" "%char] with (T " "). rewrite E. reflexivity.
    + cbn. now rewrite Em.
    + intros sp tx x [Hx|Hx]; [|now apply Hi]. injection Hx as <- <- <-.
      split; [reflexivity|]. split; [discriminate|]. split; intros r.
      * eapply starts_stops; [|apply print_Z_starts]. intros d Hd. now apply number_start_not_white.
      * intros Hr. now apply p_lit_print.
Qed.

(** A line of text that is a clause *)
Definition clause_line (c : clause) (b : text) : Prop :=
  p_clause b = POk c [] /\ starts is_number_start b /\ forallb plain b = true /\ stops is_white (rev b).

Lemma clause_ending_zero : clause_ending (T " 0") = POk tt [] /\ clause_ending (T "0") = POk tt [].
Proof. now split. Qed.

Lemma lits_plain c s : concat_opt (map write_lit c) = Some s -> forallb plain s = true.
Proof.
  revert s. induction c as [|l c IH]; intros s H; [now injection H as <-|].
  cbn [map concat_opt] in H. unfold write_lit at 1 in H. destruct (to_ipasir l) as [z|] eqn:Ez; [|discriminate].
  cbn [option_map] in H. destruct (concat_opt (map write_lit c)) as [s'|] eqn:Es; [|discriminate].
  injection H as <-. rewrite !forallb_app, print_Z_plain. cbn. now apply IH.
Qed.

Lemma write_clause_line c t : write_clause c = Some t -> exists b, t = b ++ [nl] /\ clause_line c b.
Proof.
  unfold write_clause. destruct (concat_opt (map write_lit c)) as [s|] eqn:Es; [|discriminate].
  cbn [option_map]. intros H. injection H as <-. exists (s ++ T "0"). split; [unfold line; now rewrite app_assoc|].
  unfold clause_line. split; [|split; [|split]].
  - unfold p_clause, pbind. destruct (lits_items c s Es) as (items & E & Em & Hi).
    destruct items as [|[[sp tx] x] items].
    + cbn in Em. subst c. injection Es as <-. cbn [app].
      rewrite (separated0_nil p_lit) by exact (p_lit_zero []). now rewrite (proj2 clause_ending_zero).
    + destruct (Hi sp tx x (or_introl eq_refl)) as (Hsp & Hsp0 & Htx & Hp).
      cbn [flat_map fst snd] in E. assert (sp = T " " /\ s = tx ++ flat_map (fun i : text * text * lit => fst (fst i) ++ snd (fst i)) items ++ T " ") as [-> ->].
      { destruct sp as [|d sp]; [easy|]. rewrite <- !app_assoc in E. cbn [app T list_ascii_of_string] in E.
        injection E as <- E. destruct sp as [|d sp]; [now split|].
        (* the separator is a single space, because a literal does not start with one *)
        exfalso. unfold spaces in Hsp. cbn in Hsp. apply andb_true_iff in Hsp as [Hd _].
        destruct c as [|l c]; [discriminate|]. cbn [map concat_opt] in Es. unfold write_lit at 1 in Es.
        destruct (to_ipasir l) as [z|]; [|discriminate]. cbn [option_map] in Es.
        destruct (concat_opt (map write_lit c)) as [s'|]; [|discriminate]. injection Es as <-.
        pose proof (print_Z_starts z ([" "%char] ++ s')) as Hst. rewrite <- app_assoc in E. rewrite E in Hst. cbn in Hst.
        apply number_start_not_white in Hst as [_ Hst]. congruence. }
      rewrite <- !app_assoc. change (T " " ++ T "0") with (T " 0").
      rewrite (separated0_cons p_lit (stops is_digit) tx x items).
      * rewrite (proj1 clause_ending_zero). unfold pret. cbn in Em. now rewrite <- Em.
      * intros. now apply space_not_digit.
      * exact Hp.
      * intros s' tx' x' Hin. apply Hi. now right.
      * reflexivity.
      * unfold ends_list. change (space1 (T " 0")) with (@POk unit tt (T "0")). cbv beta iota. exact (p_lit_zero []).
  - destruct c as [|l c]; [injection Es as <-; reflexivity|]. cbn [map concat_opt] in Es. unfold write_lit at 1 in Es.
    destruct (to_ipasir l) as [z|]; [|discriminate]. cbn [option_map] in Es.
    destruct (concat_opt (map write_lit c)) as [s'|]; [|discriminate]. injection Es as <-.
    rewrite <- !app_assoc. apply print_Z_starts.
  - rewrite forallb_app, (lits_plain _ _ Es). reflexivity.
  - now apply last_white.
Qed.

Lemma clause_line_tight c b : clause_line c b -> no_nl b /\ tight b /\ b <> [].
Proof.
  intros (_ & Hs & Hp & Hl). split; [now apply plain_no_nl|]. split; [split; [|assumption]|].
  - eapply starts_stops; [|exact Hs]. intros d Hd. now apply number_start_not_white.
  - now destruct b.
Qed.

(** ** Writing line by line *)

(** [t] is the text of the lines [ls] *)
Definition as_lines (ls : list text) : text := flat_map (fun l => l ++ [nl]) ls.

Definition good_line (l : text) : Prop := no_nl l /\ tight l /\ l <> [].

Lemma concat_lines {A} (w : A -> option text) (good : A -> text -> Prop) xs t :
  (forall x t, In x xs -> w x = Some t -> exists b, t = b ++ [nl] /\ good x b) ->
  concat_opt (map w xs) = Some t -> exists ls, t = as_lines ls /\ Forall2 good xs ls.
Proof.
  intros Hw. revert t. induction xs as [|x xs IH]; intros t H.
  - injection H as <-. exists []. now split.
  - cbn [map concat_opt] in H. destruct (w x) as [tx|] eqn:Ex; [|discriminate].
    destruct (concat_opt (map w xs)) as [t'|]; [|discriminate]. injection H as <-.
    destruct (Hw x tx (or_introl eq_refl) Ex) as (b & -> & Hb).
    destruct (IH (fun x t Hx => Hw x t (or_intror Hx)) t' eq_refl) as (ls & -> & Hls).
    exists (b :: ls). split; [reflexivity|]. now constructor.
Qed.

Lemma as_lines_app l1 l2 : as_lines (l1 ++ l2) = as_lines l1 ++ as_lines l2.
Proof. unfold as_lines. apply flat_map_app. Qed.
Lemma as_lines_cons l ls : as_lines (l :: ls) = line l ++ as_lines ls.
Proof. reflexivity. Qed.
Lemma body_lines_as ls : Forall good_line ls -> body_lines (as_lines ls) = ls.
Proof. apply body_lines_written. Qed.

Lemma Forall2_Forall {A B} (R : A -> B -> Prop) (P : B -> Prop) xs ys : (forall x y, R x y -> P y) -> Forall2 R xs ys -> Forall P ys.
Proof. intros H. induction 1; constructor; eauto. Qed.
Lemma Forall2_swap {A B} (R : A -> B -> Prop) xs ys : Forall2 R xs ys -> Forall2 (fun y x => R x y) ys xs.
Proof. induction 1; constructor; auto. Qed.
Lemma Forall2_weaken {A B} (R Q : A -> B -> Prop) xs ys : (forall x y, R x y -> Q x y) -> Forall2 R xs ys -> Forall2 Q xs ys.
Proof. intros H. induction 1; constructor; eauto. Qed.
Lemma Forall2_map_r {A B C} (R : A -> C -> Prop) (f : B -> C) xs ys : Forall2 (fun x y => R x (f y)) xs ys -> Forall2 R xs (map f ys).
Proof. induction 1; constructor; auto. Qed.

(** A written clause is not a comment *)
Lemma alt_back {A} (p q : parser A) t : p t = PBack -> alt p q t = q t.
Proof. unfold alt. now intros ->. Qed.
Lemma bind_back {A B} (p : parser A) (f : A -> parser B) t : p t = PBack -> pbind p f t = PBack.
Proof. unfold pbind. now intros ->. Qed.
Lemma comment_back t : stops (fun c => Ascii.eqb c "c") t -> comment t = PBack.
Proof. intros H. unfold comment, take, pbind, char. destruct t as [|c t]; [reflexivity|]. cbn in H. now rewrite H. Qed.
Lemma number_start_char c d : is_number_start c = true -> is_number_start d = false -> Ascii.eqb c d = false.
Proof. intros Hc Hd. destruct (Ascii.eqb_spec c d) as [->|]; congruence. Qed.
Lemma clause_line_no_comment c b : clause_line c b -> stops (fun c => Ascii.eqb c "c") b.
Proof. intros (_ & H & _). eapply starts_stops; [|exact H]. intros d Hd. now apply number_start_char. Qed.

(** ** CNF *)

Lemma cnf_line_clause c b : clause_line c b -> parse_all cnf_line b = ROk (CClause c).
Proof.
  intros H. apply parse_all_ok. unfold cnf_line. rewrite alt_back; [|apply bind_back, comment_back; eapply clause_line_no_comment; exact H].
  unfold pbind. now rewrite (proj1 H).
Qed.

Lemma p_line_plain n m : good_line (T "p cnf " ++ print_N n ++ T " " ++ print_N m).
Proof.
  split; [|split].
  - apply plain_no_nl. rewrite !forallb_app, !print_N_plain. reflexivity.
  - split; [reflexivity|]. rewrite !app_assoc, rev_app_distr. pose proof (print_N_last m) as H. pose proof (print_N_not_nil m) as H0.
    destruct (rev (print_N m)) eqn:E; [|exact H]. apply (f_equal (@rev _)) in E. rewrite rev_involutive in E. now destruct H0.
  - discriminate.
Qed.

Lemma cnf_p_line_print n m : (n <= u32_max)%N -> (m <= usize_max)%N ->
  cnf_p_line (T "p cnf " ++ print_N n ++ T " " ++ print_N m) = POk (n, m) [].
Proof.
  intros Hn Hm. unfold cnf_p_line.
  set (rest := print_N n ++ T " " ++ print_N m).
  assert (stops is_space rest) as Hr.
  { eapply starts_stops; [|apply print_N_starts]. intros d Hd. apply number_start_not_white. unfold is_number_start. now rewrite Hd. }
  assert (forall (f : unit -> parser (N * N)), pbind (char "p") f (T "p cnf " ++ rest) = f tt (T " cnf " ++ rest)) as -> by reflexivity.
  unfold pbind at 1.
  assert (space1 (T " cnf " ++ rest) = POk tt (T "cnf " ++ rest)) as -> by reflexivity.
  unfold pbind at 1. assert (cut_err (tag (T "cnf")) (T "cnf " ++ rest) = POk tt (T " " ++ rest)) as -> by reflexivity.
  unfold pbind at 1. rewrite space1_app; [|reflexivity|discriminate|assumption].
  unfold pbind at 1. unfold rest. rewrite dec_uint_print; [|assumption|reflexivity].
  unfold pbind at 1. rewrite space1_app; [|reflexivity|discriminate|].
  2:{ rewrite <- (app_nil_r (print_N m)). eapply starts_stops; [|apply print_N_starts]. intros d Hd. apply number_start_not_white. unfold is_number_start. now rewrite Hd. }
  unfold pbind at 1. rewrite <- (app_nil_r (print_N m)). rewrite dec_uint_print; [|assumption|exact Logic.I].
  reflexivity.
Qed.

Theorem cnf_round_trip f n t : (n <= u32_max)%N -> (N.of_nat (List.length f) <= usize_max)%N ->
  write_cnf_annotated f n = Some t -> read_cnf t = ROk (n, N.of_nat (List.length f), map CClause f).
Proof.
  intros Hn Hm. unfold write_cnf_annotated. destruct (concat_opt (map write_clause f)) as [body|] eqn:E; [|discriminate].
  cbn [option_map]. intros H. apply Some_inj in H as <-.
  destruct (concat_lines _ _ _ _ (fun c t _ => write_clause_line c t) E) as (ls & -> & Hls).
  set (h := T "p cnf " ++ print_N n ++ T " " ++ print_nat (List.length f)).
  match goal with |- read_cnf ?t = _ => change t with (as_lines (T "c CNF file written by RustSAT" :: h :: ls)) end.
  unfold read_cnf. rewrite body_lines_as.
  2:{ constructor; [|constructor].
      - split; [noin|]. split; [now split|discriminate].
      - apply p_line_plain.
      - eapply Forall2_Forall; [|exact Hls]. intros. eapply clause_line_tight. eassumption. }
  assert (skip_comments (T "c CNF file written by RustSAT" :: h :: ls) = h :: ls) as -> by reflexivity.
  assert (parse_all cnf_p_line h = ROk (n, N.of_nat (List.length f))) as -> by exact (parse_all_ok _ _ _ (cnf_p_line_print n (N.of_nat (List.length f)) Hn Hm)).
  rewrite (collect_ok _ _ (map CClause f)); [reflexivity|].
  apply Forall2_map_r. apply Forall2_swap. eapply Forall2_weaken; [|exact Hls]. intros c b. apply cnf_line_clause.
Qed.

(** Instances *)
Lemma add_clauses_list f : forall i, fold_left add_cnf_data (map CClause f) i =
  mkInst (i_cnf i ++ f) (i_cards i) (i_pbs i) (fold_left marks f (i_next i)).
Proof.
  induction f as [|c f IH]; intros i; [cbn; rewrite app_nil_r; now destruct i|].
  cbn [map fold_left add_cnf_data]. rewrite IH. cbn. unfold cnf_add_clause. now rewrite <- app_assoc.
Qed.
Lemma mark_known n v : (v < n)%N -> mark_used n v = n.
Proof. intros H. unfold mark_used, VarMan.next_increase. now replace (n <? v + 1)%N with false by lia. Qed.
Lemma marks_known n ls : lits_below n ls -> marks n ls = n.
Proof.
  unfold marks. induction ls as [|l ls IH]; intros H; [reflexivity|]. cbn [fold_left].
  rewrite mark_known by (apply H; now left). apply IH. intros l' Hl. apply H. now right.
Qed.
Lemma marks_cnf_known n f : cnf_below n f -> fold_left marks f n = n.
Proof.
  induction f as [|c f IH]; intros H; [reflexivity|]. cbn [fold_left].
  rewrite marks_known by (apply H; now left). apply IH. intros c' Hc. apply H. now right.
Qed.

Theorem inst_round_trip i t : cnf_below (i_next i) (i_cnf i) -> (i_next i <= max_var_idx)%N -> (N.of_nat (List.length (i_cnf i)) <= usize_max)%N ->
  inst_write_dimacs i = ROk t -> inst_from_dimacs t = ROk i.
Proof.
  intros Hk Hn Hl. unfold inst_write_dimacs, not_clausal. destruct (is_nil (i_cards i) && is_nil (i_pbs i)) eqn:E; [|discriminate].
  cbn [negb]. destruct (write_cnf_annotated (i_cnf i) (i_next i)) as [t'|] eqn:Et; [|discriminate].
  cbn [to_res]. intros H. injection H as ->.
  assert (i_next i <= u32_max)%N as Hu by (change max_var_idx with 2147483647%N in Hn; unfold u32_max; lia).
  unfold inst_from_dimacs. rewrite (cnf_round_trip _ _ _ Hu Hl Et).
  unfold var_new. replace (i_next i <=? max_var_idx)%N with true by lia.
  rewrite add_clauses_list. apply andb_true_iff in E as [E1 E2]. destruct i as [f cs ps n]. cbn in *.
  destruct cs; [|discriminate]. destruct ps; [|discriminate].
  f_equal. f_equal. assert (fst (VarMan.next_increase n 0) = n) as ->.
  { unfold VarMan.next_increase. destruct (0 <? n)%N eqn:E0; cbn; lia. }
  now apply marks_cnf_known.
Qed.

(** ** Hard and soft clauses *)

Lemma hard_line c b : clause_line c b -> hard_clause (T "h " ++ b) = POk c [].
Proof.
  intros (Hp & Hs & _). unfold hard_clause.
  assert (forall (f : unit -> parser clause), pbind (char "h") f (T "h " ++ b) = f tt (T " " ++ b)) as -> by reflexivity.
  unfold pbind, cut_err. rewrite space1_app; [|reflexivity|discriminate|].
  - now rewrite Hp.
  - eapply starts_stops; [|exact Hs]. intros d Hd. now apply number_start_not_white.
Qed.

Lemma number_not_space n t : stops is_space (print_N n ++ t).
Proof. eapply starts_stops; [|apply print_N_starts]. intros d Hd. apply number_start_not_white. unfold is_number_start. now rewrite Hd. Qed.
Lemma clause_not_space c b : clause_line c b -> stops is_space b.
Proof. intros (_ & Hs & _). eapply starts_stops; [|exact Hs]. intros d Hd. now apply number_start_not_white. Qed.

Lemma p_weight_print w t : is_usize w -> stops is_digit t -> p_weight (print_nat w ++ t) = POk w t.
Proof.
  intros Hw Ht. unfold p_weight, pbind. unfold print_nat. rewrite dec_uint_print by assumption. unfold pret. now rewrite Nat2N.id.
Qed.

Lemma soft_line w c b : is_usize w -> clause_line c b -> soft_clause (print_nat w ++ T " " ++ b) = POk (w, c) [].
Proof.
  intros Hw Hc. unfold soft_clause. unfold pbind at 1. rewrite p_weight_print; [|assumption|reflexivity].
  unfold pbind at 1. rewrite space1_app; [|reflexivity|discriminate|now apply (clause_not_space c)].
  unfold pbind. now rewrite (proj1 Hc).
Qed.

Lemma mo_soft_line idx w c b : is_usize (idx + 1) -> is_usize w -> clause_line c b ->
  mo_soft_clause (T "o " ++ print_nat (idx + 1) ++ T " " ++ print_nat w ++ T " " ++ b) = POk ((idx + 1)%nat, w, c) [].
Proof.
  intros Hi Hw Hc. unfold mo_soft_clause.
  assert (forall (f : unit -> parser (nat * nat * clause)) r, pbind (char "o") f (T "o " ++ r) = f tt (T " " ++ r)) as -> by reflexivity.
  unfold pbind at 1. rewrite space0_app; [|reflexivity|apply number_not_space].
  unfold pbind at 1. unfold cut_err at 1, obj_idx, try_map. unfold pbind at 1. unfold print_nat at 1.
  rewrite digits1_print; [|lia|reflexivity]. rewrite print_N_value.
  replace (N.of_nat (idx + 1) <=? usize_max)%N with true by (unfold is_usize in Hi; lia). unfold pret at 1. rewrite Nat2N.id.
  unfold pbind at 1. unfold cut_err at 1. rewrite space1_app; [|reflexivity|discriminate|apply number_not_space].
  unfold pbind at 1. unfold cut_err at 1. rewrite p_weight_print; [|assumption|reflexivity].
  unfold pbind at 1. unfold cut_err at 1. rewrite space1_app; [|reflexivity|discriminate|now apply (clause_not_space c)].
  unfold pbind, cut_err. now rewrite (proj1 Hc).
Qed.

Lemma good_prefixed p c b : clause_line c b -> p <> [] -> forallb plain p = true -> stops is_white p -> good_line (p ++ b).
Proof.
  intros Hc Hp0 Hp Hs. destruct (clause_line_tight _ _ Hc) as (_ & (_ & Hl) & Hb). destruct Hc as (_ & _ & Hpl & _).
  split; [|split; [split|]].
  - apply plain_no_nl. now rewrite forallb_app, Hp, Hpl.
  - destruct p; [easy|exact Hs].
  - rewrite rev_app_distr. destruct (rev b) eqn:E; [|exact Hl]. apply (f_equal (@rev _)) in E. rewrite rev_involutive in E. now subst b.
  - destruct p; [easy|discriminate].
Qed.

Lemma write_prefixed_line p c t : write_prefixed p c = Some t -> exists b, t = (p ++ b) ++ [nl] /\ clause_line c b.
Proof.
  unfold write_prefixed. destruct (write_clause c) as [t'|] eqn:E; [|discriminate]. cbn [option_map]. intros H.
  apply Some_inj in H as <-. destruct (write_clause_line c t' E) as (b & -> & Hb). exists b. split; [now rewrite <- app_assoc|assumption].
Qed.

(** A line of a WCNF file *)
Definition wcnf_text (d : wcnf_data) (l : text) : Prop :=
  good_line l /\ starts_with (T "c") l = false /\ parse_all post22_first l = ROk d /\ parse_all post22_line l = ROk d.

Lemma hard_back t : stops (fun c => Ascii.eqb c "h") t -> hard_clause t = PBack.
Proof. intros H. unfold hard_clause, pbind, char. destruct t as [|c t]; [reflexivity|]. cbn in H. now rewrite H. Qed.
Lemma bind_ok {A B} (p : parser A) (f : A -> parser B) t x r : p t = POk x r -> pbind p f t = f x r.
Proof. unfold pbind. now intros ->. Qed.
Lemma alt_ok {A} (p q : parser A) t x r : p t = POk x r -> alt p q t = POk x r.
Proof. unfold alt. now intros ->. Qed.

Lemma wcnf_hard c b : clause_line c b -> wcnf_text (WHard c) (T "h " ++ b).
Proof.
  intros H. split; [|split; [|split]].
  - apply good_prefixed with c; [assumption|discriminate|reflexivity|reflexivity].
  - reflexivity.
  - apply parse_all_ok. unfold post22_first. apply alt_ok. now rewrite (bind_ok _ _ _ _ _ (hard_line c b H)).
  - apply parse_all_ok. unfold post22_line. rewrite alt_back by (apply bind_back, comment_back; reflexivity).
    apply alt_ok. now rewrite (bind_ok _ _ _ _ _ (hard_line c b H)).
Qed.
Lemma number_stops n t c : is_digit c = false -> stops (fun d => Ascii.eqb d c) (print_N n ++ t).
Proof. intros H. eapply starts_stops; [|apply print_N_starts]. intros d Hd. now apply digit_not_char. Qed.
Lemma number_not_white n t : stops is_white (print_N n ++ t).
Proof. eapply starts_stops; [|apply print_N_starts]. intros d Hd. now apply digit_plain. Qed.

Lemma wcnf_soft w c b : is_usize w -> clause_line c b -> wcnf_text (WSoft w c) (print_nat w ++ T " " ++ b).
Proof.
  intros Hw H. split; [|split; [|split]].
  - rewrite app_assoc. apply good_prefixed with c; [assumption| | |apply number_not_white].
    + pose proof (print_N_not_nil (N.of_nat w)). unfold print_nat. now destruct (print_N (N.of_nat w)).
    + unfold print_nat. rewrite forallb_app, print_N_plain. reflexivity.
  - unfold print_nat. pose proof (number_stops (N.of_nat w) (T " " ++ b) "c" eq_refl) as Hs.
    destruct (print_N (N.of_nat w) ++ T " " ++ b) as [|d r]; [reflexivity|]. cbn [stops] in Hs. change (T "c") with ["c"%char]. cbn [starts_with].
    apply not_true_iff_false. intros E. apply andb_prop in E as [E _]. apply Ascii.eqb_eq in E. subst. now rewrite Ascii.eqb_refl in Hs.
  - apply parse_all_ok. unfold post22_first. rewrite alt_back by (apply bind_back, hard_back, number_stops; reflexivity).
    now rewrite (bind_ok _ _ _ _ _ (soft_line w c b Hw H)).
  - apply parse_all_ok. unfold post22_line. rewrite alt_back by (apply bind_back, comment_back, number_stops; reflexivity).
    rewrite alt_back by (apply bind_back, hard_back, number_stops; reflexivity).
    now rewrite (bind_ok _ _ _ _ _ (soft_line w c b Hw H)).
Qed.

(** A comment line *)
Definition is_comment (l : text) : Prop := good_line l /\ starts_with (T "c") l = true.

Lemma read_wcnf_lines hs ds ls : Forall is_comment hs -> Forall2 wcnf_text ds ls -> read_wcnf (as_lines (hs ++ ls)) = ROk (None, ds).
Proof.
  intros Hh Hd. unfold read_wcnf. rewrite body_lines_as.
  2:{ apply Forall_app. split; [eapply Forall_impl; [|exact Hh]; now intros l []|].
      eapply Forall2_Forall; [|exact Hd]. now intros d l (H & _). }
  assert (skip_comments (hs ++ ls) = ls) as ->.
  { assert (skip_comments ls = ls) as Hl by (destruct Hd as [|d l ds ls (_ & H & _)]; [reflexivity|]; cbn [skip_comments]; now rewrite H).
    induction Hh as [|h hs [_ H] _ IH]; [exact Hl|]. cbn [skip_comments app]. now rewrite H. }
  destruct Hd as [|d l ds ls (_ & _ & H & _) Hd]; [reflexivity|].
  rewrite H. rewrite (collect_ok _ _ ds); [reflexivity|]. apply Forall2_swap. eapply Forall2_weaken; [|exact Hd]. now intros d' l' (_ & _ & _ & H').
Qed.

Definition wcnf_items (f : cnf) (softs : list (clause * nat)) : list wcnf_data := map WHard f ++ map (fun e => WSoft (snd e) (fst e)) softs.

Lemma Forall2_map_l {A B C} (R : C -> B -> Prop) (f : A -> C) xs ys : Forall2 (fun x y => R (f x) y) xs ys -> Forall2 R (map f xs) ys.
Proof. induction 1; constructor; auto. Qed.

Lemma comment_good t : forallb plain t = true -> (exists t' c, t = t' ++ [c] /\ is_white c = false) -> is_comment (T "c " ++ t).
Proof.
  intros Hp (t' & c & E & Hc). split; [split; [|split; [split|]]|reflexivity].
  - apply plain_no_nl. rewrite forallb_app, Hp. reflexivity.
  - reflexivity.
  - rewrite E, app_assoc. now apply last_white.
  - discriminate.
Qed.

Lemma T_ends s t c : T s = t ++ [c] -> forall p, exists t', p ++ T s = t' ++ [c].
Proof. intros E p. exists (p ++ t). now rewrite E, app_assoc. Qed.

Lemma comment_num n s : forallb plain (T s) = true -> (exists t' c, T s = t' ++ [c] /\ is_white c = false) -> is_comment (T "c " ++ print_N n ++ T s).
Proof.
  intros Hp (t' & c & E & Hc). apply comment_good.
  - now rewrite forallb_app, print_N_plain, Hp.
  - exists (print_N n ++ t'), c. split; [now rewrite E, app_assoc|assumption].
Qed.
Lemma comment_offset z : is_comment (T "c objective offset: " ++ print_Z z).
Proof.
  change (T "c objective offset: ") with (T "c " ++ T "objective offset: "). rewrite <- app_assoc. apply comment_good.
  - rewrite forallb_app, print_Z_plain. reflexivity.
  - assert (exists t c, print_Z z = t ++ [c] /\ is_white c = false) as (t & c & E & Hc).
    { assert (exists t c, print_N (Z.abs_N z) = t ++ [c] /\ is_white c = false) as (t & c & E & Hc).
      { destruct (exists_last (print_N_not_nil (Z.abs_N z))) as (t & c & E). exists t, c. split; [assumption|].
        pose proof (print_N_last (Z.abs_N z)) as H. rewrite E, rev_app_distr in H. exact H. }
      unfold print_Z. destruct (z <? 0)%Z; [exists ("-"%char :: t), c|exists t, c]; now rewrite E. }
    exists (T "objective offset: " ++ t), c. split; [now rewrite E, app_assoc|assumption].
Qed.

Ltac comment_tac := split; [split; [noin|split; [now split|discriminate]]|reflexivity].

Theorem wcnf_round_trip f softs offset nv t : (forall c w, In (c, w) softs -> is_usize w) ->
  write_wcnf_annotated f softs offset nv = Some t -> read_wcnf t = ROk (None, wcnf_items f softs).
Proof.
  intros Hw. unfold write_wcnf_annotated.
  destruct (concat_opt (map (write_prefixed (T "h ")) f)) as [hards|] eqn:Eh; [|discriminate].
  destruct (concat_opt (map write_soft softs)) as [sfts|] eqn:Es; [|discriminate].
  intros H. apply Some_inj in H as <-.
  destruct (concat_lines (write_prefixed (T "h ")) (fun c l => wcnf_text (WHard c) l) f hards) as (hl & -> & Hhl).
  { intros c t _ H. destruct (write_prefixed_line _ _ _ H) as (b & -> & Hb). eexists. split; [reflexivity|]. now apply wcnf_hard. }
  { exact Eh. }
  destruct (concat_lines write_soft (fun e l => wcnf_text (WSoft (snd e) (fst e)) l) softs sfts) as (sl & -> & Hsl).
  { intros [c w] t Hin H. unfold write_soft in H. destruct (write_prefixed_line _ _ _ H) as (b & -> & Hb). eexists. split; [reflexivity|].
    rewrite <- app_assoc. apply wcnf_soft; [now apply (Hw c)|assumption]. }
  { exact Es. }
  set (h1 := match nv with Some n => [T "c " ++ print_N n ++ T " variables"] | None => [] end).
  match goal with |- read_wcnf ?t = _ => replace t with (as_lines ((T "c WCNF file written by RustSAT" :: h1 ++
      [T "c " ++ print_nat (List.length f) ++ T " hard clauses"; T "c " ++ print_nat (List.length softs) ++ T " soft clauses";
       T "c objective offset: " ++ print_Z offset]) ++ (hl ++ sl))) end.
  - apply read_wcnf_lines.
    + constructor; [comment_tac|]. apply Forall_app. split.
      * subst h1. destruct nv as [n|]; [|constructor]. constructor; [|constructor]. apply comment_num; [reflexivity|].
        exists (T " variable"), "s"%char. now split.
      * repeat (apply Forall_cons || apply Forall_nil).
        -- apply comment_num; [reflexivity|]. exists (T " hard clause"), "s"%char. now split.
        -- apply comment_num; [reflexivity|]. exists (T " soft clause"), "s"%char. now split.
        -- apply comment_offset.
    + unfold wcnf_items. apply Forall2_app; apply Forall2_map_l; assumption.
  - rewrite !as_lines_app, as_lines_cons, as_lines_app. subst h1. destruct nv as [n|]; unfold as_lines, line; cbn [flat_map app]; rewrite <- ?app_assoc; reflexivity.
Qed.

(** ** Objectives built from soft clauses *)

Definition soft_sum (p : clause -> bool) (o : obj) : nat := (ksum (fun l => p [neg l]) (obj_lits o) + ksum p (obj_cls o))%nat.

Lemma soft_weight_ksum c ss : soft_weight c ss = ksum (fun d => clause_eqb d c) ss.
Proof.
  unfold soft_weight. induction ss as [|[d w] ss IH]; [reflexivity|]. cbn [filter map fst ksum].
  destruct (clause_eqb d c); cbn; [|exact IH]. change (fold_right Nat.add 0%nat) with list_sum. now rewrite IH.
Qed.
Lemma soft_weight_obj c o : soft_weight c (obj_softs o) = soft_sum (fun d => clause_eqb d c) o.
Proof.
  rewrite soft_weight_ksum. unfold obj_softs, soft_sum. rewrite ksum_app. f_equal.
  induction (obj_lits o) as [|[l w] ls IH]; [reflexivity|]. cbn [map fst snd ksum]. now rewrite IH.
Qed.

Lemma gadds_ksum {K} (keqb : K -> K -> bool) (E : forall x y : K, keqb x y = true <-> x = y) w p ks : forall m,
  ksum p (fold_left (fun m k => gadd keqb m k w) ks m) = (ksum p m + ksum p (map (fun k => (k, w)) ks))%nat.
Proof. induction ks as [|k ks IH]; intros m; cbn; [lia|]. rewrite IH, (gadd_ksum keqb E). lia. Qed.

Lemma u2w_soft_sum p o : soft_sum p (unweighted_2_weighted o) = soft_sum p o.
Proof.
  unfold soft_sum. destruct o as [z ls cs|z [w|] ls cs]; [reflexivity| |].
  - cbn [unweighted_2_weighted obj_lits obj_cls or_zero].
    rewrite (gadds_ksum _ lit_eqb_eq), (gadds_ksum _ clause_eqb_eq'). reflexivity.
  - cbn [unweighted_2_weighted obj_lits obj_cls or_zero ksum]. now rewrite !ksum_map_const, !Nat.mul_0_r.
Qed.

Lemma increase_lit_soft_sum p w l o : obj_wf o -> soft_sum p (increase_soft_lit w l o) = (soft_sum p o + if p [neg l] then w else 0)%nat.
Proof.
  intros Hwf. unfold increase_soft_lit. destruct (Nat.eqb_spec w 0) as [->|Hw]; [destruct (p [neg l]); lia|].
  assert (forall z ls cs, soft_sum p (OWeighted z (gadd lit_eqb ls l w) cs) = (soft_sum p (OWeighted z ls cs) + if p [neg l] then w else 0)%nat) as HW.
  { intros z ls cs. unfold soft_sum. cbn [obj_lits obj_cls]. rewrite (gadd_ksum _ lit_eqb_eq). lia. }
  destruct o as [z ls cs|z [uw|] ls cs]; [apply HW| |].
  - destruct (Nat.eqb_spec w uw) as [->|Hne].
    + unfold soft_sum. cbn [obj_lits obj_cls or_zero]. rewrite map_app, ksum_app. cbn. lia.
    + rewrite <- (u2w_soft_sum p (OUnweighted z (Some uw) ls cs)). destruct (u2w_weighted (OUnweighted z (Some uw) ls cs)) as (ls1 & cs1 & E). rewrite E. apply HW.
  - destruct (wf_none _ _ _ Hwf) as [-> ->]. unfold soft_sum. cbn. lia.
Qed.

Lemma increase_clause_soft_sum p w c o : obj_wf o -> soft_sum p (increase_soft_clause w c o) = (soft_sum p o + if p c then w else 0)%nat.
Proof.
  intros Hwf. unfold increase_soft_clause. destruct (Nat.eqb_spec w 0) as [->|Hw]; [destruct (p c); lia|].
  assert (Hcase : (exists x, c = [x]) \/ List.length c <> 1%nat) by (destruct c as [|x [|y c]]; cbn; [right; lia|left; eauto|right; lia]).
  destruct Hcase as [[x ->]|Hl].
  - rewrite increase_lit_soft_sum by assumption. now rewrite neg_neg.
  - match goal with |- context [match c with [] => ?B | _ => _ end] => assert (Heq : (match c with [x] => increase_soft_lit w (neg x) o | _ => B end) = B) by (destruct c as [|? [|? ?]]; [reflexivity|cbn in Hl; lia|reflexivity]); rewrite Heq; clear Heq end.
    assert (forall z ls cs, soft_sum p (OWeighted z ls (gadd clause_eqb cs c w)) = (soft_sum p (OWeighted z ls cs) + if p c then w else 0)%nat) as HW.
    { intros z ls cs. unfold soft_sum. cbn [obj_lits obj_cls]. rewrite (gadd_ksum _ clause_eqb_eq'). lia. }
    destruct o as [z ls cs|z [uw|] ls cs]; [apply HW| |].
    + destruct (Nat.eqb_spec w uw) as [->|Hne].
      * unfold soft_sum. cbn [obj_lits obj_cls or_zero]. rewrite map_app, ksum_app. cbn. lia.
      * rewrite <- (u2w_soft_sum p (OUnweighted z (Some uw) ls cs)). destruct (u2w_weighted (OUnweighted z (Some uw) ls cs)) as (ls1 & cs1 & E). rewrite E. apply HW.
    + destruct (wf_none _ _ _ Hwf) as [-> ->]. unfold soft_sum. cbn. lia.
Qed.

Lemma from_cls_soft_sum p xs : soft_sum p (obj_from_cls xs) = ksum p xs.
Proof.
  unfold obj_from_cls.
  assert (forall xs o, obj_wf o -> soft_sum p (fold_left (fun o e => increase_soft_clause (snd e) (fst e) o) xs o) = (soft_sum p o + ksum p xs)%nat) as H.
  { clear xs. induction xs as [|[c w] xs IH]; intros o Hwf; cbn [fold_left fst snd ksum]; [lia|].
    rewrite IH by now apply increase_soft_clause_spec. rewrite increase_clause_soft_sum by assumption. lia. }
  rewrite H by apply obj_new_wf. reflexivity.
Qed.

Lemma from_cls_same xs : same_softs (obj_softs (obj_from_cls xs)) xs.
Proof. intros c. rewrite soft_weight_obj, from_cls_soft_sum. symmetry. apply soft_weight_ksum. Qed.

Lemma iter_soft_cls_same lord cord o : orders lord cord -> same_softs (iter_soft_cls lord cord o) (obj_softs o).
Proof.
  intros Ho c. rewrite !soft_weight_ksum. apply ksum_perm. now apply iter_soft_cls_spec.
Qed.

Lemma increase_clause_offset w c o : obj_offset (increase_soft_clause w c o) = obj_offset o.
Proof.
  assert (forall w l o, obj_offset (increase_soft_lit w l o) = obj_offset o) as HL.
  { intros w0 l o0. unfold increase_soft_lit. destruct (w0 =? 0)%nat; [reflexivity|].
    destruct o0 as [z ls cs|z [uw|] ls cs]; try reflexivity. now destruct (w0 =? uw)%nat. }
  unfold increase_soft_clause. destruct (w =? 0)%nat; [reflexivity|].
  destruct c as [|x [|y c]]; [|apply HL|]; (destruct o as [z ls cs|z [uw|] ls cs]; try reflexivity; now destruct (w =? uw)%nat).
Qed.
Lemma from_cls_offset xs : obj_offset (obj_from_cls xs) = 0%Z.
Proof.
  unfold obj_from_cls. assert (forall o, obj_offset (fold_left (fun o e => increase_soft_clause (snd e) (fst e) o) xs o) = obj_offset o) as H; [|now rewrite H].
  induction xs as [|[c w] xs IH]; intros o; [reflexivity|]. cbn [fold_left fst snd]. rewrite IH. apply increase_clause_offset.
Qed.


(** ** WCNF instances *)

Lemma add_wcnf_hards f : forall i o, fold_left add_wcnf_data (map WHard f) (i, o) = (fold_left add_cnf_data (map CClause f) i, o).
Proof. induction f as [|c f IH]; intros i o; [reflexivity|]. cbn [map fold_left add_wcnf_data fst snd add_cnf_data]. apply IH. Qed.
Lemma add_wcnf_softs ss : forall i o, fold_left add_wcnf_data (map (fun e => WSoft (snd e) (fst e)) ss) (i, o) =
  (i, fold_left (fun o e => increase_soft_clause (snd e) (fst e) o) ss o).
Proof. induction ss as [|[c w] ss IH]; intros i o; [reflexivity|]. cbn [map fold_left add_wcnf_data fst snd]. apply IH. Qed.

Lemma opt_from_items t f ss : read_wcnf t = ROk (None, wcnf_items f ss) ->
  opt_from_dimacs t = ROk (opt_compose (mkInst f [] [] (fold_left marks f 0%N)) (obj_from_cls ss)).
Proof.
  intros E. unfold opt_from_dimacs. rewrite E. unfold wcnf_items. rewrite fold_left_app, add_wcnf_hards, add_wcnf_softs, add_clauses_list. reflexivity.
Qed.

Lemma clausal_nil i : not_clausal i = false -> i_cards i = [] /\ i_pbs i = [].
Proof. unfold not_clausal. destruct (i_cards i), (i_pbs i); cbn; intros H; try discriminate; now split. Qed.
Lemma raise_max_cnf i mv : i_cnf (raise_max i mv) = i_cnf i /\ i_cards (raise_max i mv) = i_cards i /\ i_pbs (raise_max i mv) = i_pbs i.
Proof. destruct mv; now repeat split. Qed.

Theorem opt_round_trip lord cord p t : orders lord cord -> (forall c w, In (c, w) (obj_softs (o_obj p)) -> is_usize w) ->
  opt_write_dimacs lord cord p = ROk t ->
  exists p', opt_from_dimacs t = ROk p' /\ i_cnf (o_constrs p') = i_cnf (o_constrs p) /\ i_cards (o_constrs p') = [] /\ i_pbs (o_constrs p') = [] /\
    same_softs (obj_softs (o_obj p')) (obj_softs (o_obj p)) /\
    (forall a, obj_value a (o_obj p') = obj_value a (o_obj p) - obj_offset (o_obj p))%Z /\ obj_wf (o_obj p').
Proof.
  intros Ho Hw. unfold opt_write_dimacs. destruct (not_clausal (o_constrs p)) eqn:En; [discriminate|].
  destruct (write_wcnf_annotated _ _ _ _) as [t'|] eqn:Et; [|discriminate]. cbn [to_res]. intros H. injection H as ->.
  apply wcnf_round_trip in Et.
  2:{ intros c w Hin. apply (Hw c w). unfold obj_softs. eapply Permutation_in; [|exact Hin]. now apply iter_soft_cls_spec. }
  rewrite (opt_from_items _ _ _ Et). eexists. split; [reflexivity|]. cbn [opt_compose o_constrs o_obj].
  destruct (raise_max_cnf (mkInst (i_cnf (o_constrs p)) [] [] (fold_left marks (i_cnf (o_constrs p)) 0%N)) (obj_max_var (obj_from_cls (iter_soft_cls lord cord (o_obj p))))) as (-> & -> & ->).
  repeat (split; [reflexivity|]). split; [|split].
  - intros c. rewrite from_cls_same. now apply iter_soft_cls_same.
  - intros a. rewrite (proj2 (from_cls_spec _)). rewrite <- (iter_soft_cls_value lord cord Ho (o_obj p) a). lia.
  - apply from_cls_spec.
Qed.

(** ** MCNF *)

Lemma comment_whole t : one_line t -> comment (T "c" ++ t) = POk (T "c" ++ t) [].
Proof.
  intros H. unfold comment, take, pbind.
  assert (char "c" (T "c" ++ t) = POk tt t) as -> by reflexivity.
  unfold till_line_ending.
  assert (snd (span (fun c => negb (Ascii.eqb c nl || Ascii.eqb c cr)) t) = []) as ->.
  { rewrite <- (app_nil_r t) at 1. rewrite span_app; [reflexivity| |exact Logic.I]. apply forallb_forall. intros c Hc. destruct (H c Hc) as [H1 H2].
    destruct (Ascii.eqb_spec c nl); [easy|]. now destruct (Ascii.eqb_spec c cr). }
  assert (optional line_ending [] = POk None []) as -> by reflexivity. cbn [List.length]. rewrite Nat.sub_0_r, firstn_all. reflexivity.
Qed.

Definition mcnf_text (d : mcnf_data) (l : text) : Prop := good_line l /\ parse_all mcnf_line l = ROk d.

Lemma mcnf_hard c b : clause_line c b -> mcnf_text (MHard c) (T "h " ++ b).
Proof.
  intros H. split.
  - apply good_prefixed with c; [assumption|discriminate|reflexivity|reflexivity].
  - apply parse_all_ok. unfold mcnf_line. rewrite alt_back by (apply bind_back, comment_back; reflexivity).
    apply alt_ok. now rewrite (bind_ok _ _ _ _ _ (hard_line c b H)).
Qed.
Lemma mcnf_soft idx w c b : is_usize (idx + 1) -> is_usize w -> clause_line c b ->
  mcnf_text (MSoft (idx + 1) w c) (T "o " ++ print_nat (idx + 1) ++ T " " ++ print_nat w ++ T " " ++ b).
Proof.
  intros Hi Hw H. split.
  - rewrite !app_assoc. apply good_prefixed with c; [assumption|discriminate| |reflexivity].
    unfold print_nat. rewrite !forallb_app, !print_N_plain. reflexivity.
  - apply parse_all_ok. unfold mcnf_line. rewrite alt_back by (apply bind_back, comment_back; reflexivity).
    rewrite alt_back by (apply bind_back, hard_back; reflexivity).
    now rewrite (bind_ok _ _ _ _ _ (mo_soft_line idx w c b Hi Hw H)).
Qed.

Lemma white_cr : is_white cr = true. Proof. reflexivity. Qed.
Lemma white_nl : is_white nl = true. Proof. reflexivity. Qed.
Lemma plain_one_line t : forallb plain t = true -> one_line t.
Proof.
  intros H c Hc. rewrite forallb_forall in H. specialize (H c Hc). unfold plain in H. split; intros ->; discriminate.
Qed.

Lemma mcnf_comment t : forallb plain t = true -> (exists t' c, t = t' ++ [c] /\ is_white c = false) -> mcnf_text (MComment (T "c " ++ t)) (T "c " ++ t).
Proof.
  intros Hp Hl. split; [now apply comment_good|].
  apply parse_all_ok. unfold mcnf_line. apply alt_ok. change (T "c " ++ t) with (T "c" ++ (T " " ++ t)).
  unfold pbind. rewrite comment_whole; [reflexivity|]. apply plain_one_line. now rewrite forallb_app, Hp.
Qed.

Definition mcnf_softs (idx : nat) (o : list (clause * nat)) : list mcnf_data := map (fun e => MSoft (idx + 1) (snd e) (fst e)) o.
Fixpoint mcnf_objs (idx : nat) (os : list (list (clause * nat))) : list mcnf_data :=
  match os with [] => [] | o :: r => mcnf_softs idx o ++ mcnf_objs (S idx) r end.

Lemma write_objectives_lines os : forall idx t, is_usize (idx + List.length os) -> (forall o c w, In o os -> In (c, w) o -> is_usize w) ->
  write_objectives idx os = Some t -> exists ls, t = as_lines ls /\ Forall2 mcnf_text (mcnf_objs idx os) ls.
Proof.
  induction os as [|o os IH]; intros idx t Hi Hw H; [injection H as <-; exists []; split; [reflexivity|constructor]|].
  cbn [write_objectives] in H. destruct (concat_opt (map (write_mo_soft idx) o)) as [t1|] eqn:E1; [|discriminate].
  destruct (write_objectives (S idx) os) as [t2|] eqn:E2; [|discriminate]. apply Some_inj in H as <-.
  cbn [List.length] in Hi.
  destruct (IH (S idx) t2) as (l2 & -> & H2); [replace (S idx + List.length os)%nat with (idx + S (List.length os))%nat by lia; assumption| |exact E2|].
  { intros o' c w Ho. apply Hw. now right. }
  destruct (concat_lines (write_mo_soft idx) (fun e l => mcnf_text (MSoft (idx + 1) (snd e) (fst e)) l) o t1) as (l1 & -> & H1).
  { intros [c w] t Hin Ht. unfold write_mo_soft in Ht. destruct (write_prefixed_line _ _ _ Ht) as (b & -> & Hb). eexists. split; [reflexivity|].
    rewrite <- !app_assoc. apply mcnf_soft; [|now apply (Hw o c w (or_introl eq_refl))|assumption]. unfold is_usize in *. lia. }
  { exact E1. }
  exists (l1 ++ l2). split; [now rewrite as_lines_app|]. cbn [mcnf_objs]. apply Forall2_app; [|exact H2]. unfold mcnf_softs. now apply Forall2_map_l.
Qed.

Lemma read_mcnf_lines ds ls : Forall2 mcnf_text ds ls -> read_mcnf (as_lines ls) = ROk ds.
Proof.
  intros H. unfold read_mcnf. rewrite body_lines_as; [|eapply Forall2_Forall; [|exact H]; now intros d l []].
  apply collect_ok. apply Forall2_swap. eapply Forall2_weaken; [|exact H]. now intros d l [].
Qed.

Lemma flat_plain {A} (f : A -> text) xs : (forall x, forallb plain (f x) = true) -> forallb plain (flat_map f xs) = true.
Proof. intros H. induction xs as [|x xs IH]; [reflexivity|]. cbn [flat_map]. now rewrite forallb_app, H, IH. Qed.

Lemma mcnf_comment_num n s : forallb plain (T s) = true -> (exists t' c, T s = t' ++ [c] /\ is_white c = false) ->
  exists m, mcnf_text (MComment m) (T "c " ++ print_N n ++ T s).
Proof.
  intros Hp (t' & c & E & Hc). eexists. apply mcnf_comment.
  - now rewrite forallb_app, print_N_plain, Hp.
  - exists (print_N n ++ t'), c. split; [now rewrite E, app_assoc|assumption].
Qed.

Lemma comments_lines ls : Forall (fun l => exists m, mcnf_text (MComment m) l) ls -> exists ms, Forall2 mcnf_text (map MComment ms) ls.
Proof.
  induction 1 as [|l ls [m Hm] _ [ms IH]]; [exists []; constructor|]. exists (m :: ms). now constructor.
Qed.

Theorem mcnf_round_trip f softs nv t : is_usize (List.length softs) -> (forall o z c w, In (o, z) softs -> In (c, w) o -> is_usize w) ->
  write_mcnf_annotated f softs nv = Some t ->
  exists cms, read_mcnf t = ROk (map MComment cms ++ map MHard f ++ mcnf_objs 0 (map fst softs)).
Proof.
  intros Hi Hw. unfold write_mcnf_annotated.
  destruct (concat_opt (map (write_prefixed (T "h ")) f)) as [hards|] eqn:Eh; [|discriminate].
  destruct (write_objectives 0 (map fst softs)) as [sfts|] eqn:Es; [|discriminate].
  intros H. apply Some_inj in H as <-.
  destruct (concat_lines (write_prefixed (T "h ")) (fun c l => mcnf_text (MHard c) l) f hards) as (hl & -> & Hhl).
  { intros c t _ H. destruct (write_prefixed_line _ _ _ H) as (b & -> & Hb). eexists. split; [reflexivity|]. now apply mcnf_hard. }
  { exact Eh. }
  apply write_objectives_lines in Es as (sl & -> & Hsl).
  2:{ now rewrite map_length. }
  2:{ intros o c w Ho. apply in_map_iff in Ho as ((o' & z) & <- & Ho). now apply (Hw o' z). }
  set (h1 := match nv with Some n => [T "c " ++ print_N n ++ T " variables"] | None => [] end).
  set (hs := T "c MCNF file written by RustSAT" :: h1 ++
      [T "c " ++ print_nat (List.length f) ++ T " hard clauses"; T "c " ++ print_nat (List.length softs) ++ T " objectives";
       T "c ( " ++ flat_map (fun s => print_nat (List.length (fst s)) ++ T " ") softs ++ T ") soft clauses";
       T "c objective offsets: ( " ++ flat_map (fun s => print_Z (snd s) ++ T " ") softs ++ T ")"]).
  match goal with |- exists cms, read_mcnf ?t = _ => replace t with (as_lines (hs ++ (hl ++ sl))) end.
  - destruct (comments_lines hs) as [ms Hms].
    + subst hs. constructor; [eexists; change (T "c MCNF file written by RustSAT") with (T "c " ++ T "MCNF file written by RustSAT"); apply mcnf_comment;
        [reflexivity|exists (T "MCNF file written by RustSA"), "T"%char; now split]|].
      apply Forall_app. split.
      * subst h1. destruct nv as [n|]; [|constructor]. constructor; [|constructor]. apply mcnf_comment_num; [reflexivity|].
        exists (T " variable"), "s"%char. now split.
      * repeat (apply Forall_cons || apply Forall_nil).
        -- apply mcnf_comment_num; [reflexivity|]. exists (T " hard clause"), "s"%char. now split.
        -- apply mcnf_comment_num; [reflexivity|]. exists (T " objective"), "s"%char. now split.
        -- eexists. change (T "c ( ") with (T "c " ++ T "( "). rewrite <- app_assoc. apply mcnf_comment.
           ++ rewrite !forallb_app. rewrite flat_plain; [reflexivity|]. intros x. unfold print_nat. rewrite forallb_app, print_N_plain. reflexivity.
           ++ exists (T "( " ++ flat_map (fun s : list (clause * nat) * Z => print_nat (List.length (fst s)) ++ T " ") softs ++ T ") soft clause"), "s"%char.
              split; [|reflexivity]. now rewrite <- !app_assoc.
        -- eexists. change (T "c objective offsets: ( ") with (T "c " ++ T "objective offsets: ( "). rewrite <- app_assoc. apply mcnf_comment.
           ++ rewrite !forallb_app. rewrite flat_plain; [reflexivity|]. intros x. rewrite forallb_app, print_Z_plain. reflexivity.
           ++ exists (T "objective offsets: ( " ++ flat_map (fun s : list (clause * nat) * Z => print_Z (snd s) ++ T " ") softs), ")"%char.
              split; [|reflexivity]. now rewrite <- !app_assoc.
    + exists ms. apply read_mcnf_lines. apply Forall2_app; [exact Hms|]. apply Forall2_app; [now apply Forall2_map_l|exact Hsl].
  - subst hs h1. rewrite !as_lines_app, as_lines_cons, as_lines_app. destruct nv as [n|]; unfold as_lines, line; cbn [flat_map app]; rewrite <- ?app_assoc; reflexivity.
Qed.

(** ** MCNF instances *)

Lemma nth_update {A} (d : A) f i : forall xs j, (i < List.length xs)%nat ->
  nth j (update_nth i f xs) d = if (j =? i)%nat then f (nth i xs d) else nth j xs d.
Proof.
  induction i as [|i IH]; intros [|x xs] j H; cbn in H; try lia.
  - now destruct j.
  - destruct j as [|j]; [reflexivity|]. cbn. apply IH. lia.
Qed.
Lemma update_length {A} f i : forall (xs : list A), List.length (update_nth i f xs) = List.length xs.
Proof. induction i as [|i IH]; intros [|x xs]; cbn; auto. Qed.
Lemma nth_resize {A} (d : A) n xs j : (List.length xs < n)%nat -> nth j (resize n d xs) d = nth j xs d.
Proof.
  intros H. unfold resize. rewrite firstn_all2 by lia. destruct (Nat.lt_ge_cases j (List.length xs)).
  - now rewrite app_nth1.
  - rewrite app_nth2 by lia. rewrite (nth_overflow xs) by lia.
    generalize (n - List.length xs)%nat. intros k. generalize (j - List.length xs)%nat. induction k as [|k IH]; intros [|m]; cbn; auto.
Qed.

Lemma add_msoft i os idx w c : snd (add_mcnf_data (i, os) (MSoft (idx + 1) w c)) =
    update_nth idx (increase_soft_clause w c) (if (List.length os <? idx + 1)%nat then resize (idx + 1) obj_new os else os).
Proof. cbn [add_mcnf_data fst snd]. now replace (idx + 1 - 1)%nat with idx by lia. Qed.

Lemma add_msoft_spec i os idx w c : exists os', add_mcnf_data (i, os) (MSoft (idx + 1) w c) = (i, os') /\
  List.length os' = Nat.max (List.length os) (idx + 1) /\
  forall j, nth j os' obj_new = if (j =? idx)%nat then increase_soft_clause w c (nth idx os obj_new) else nth j os obj_new.
Proof.
  exists (snd (add_mcnf_data (i, os) (MSoft (idx + 1) w c))). split; [reflexivity|]. rewrite add_msoft.
  destruct (List.length os <? idx + 1)%nat eqn:E.
  - assert (List.length (resize (idx + 1) obj_new os) = (idx + 1)%nat) as Hl by (unfold resize; rewrite app_length, repeat_length, firstn_length; lia).
    split; [rewrite update_length, Hl; lia|]. intros j. rewrite nth_update by lia. rewrite !nth_resize by lia. reflexivity.
  - split; [rewrite update_length; lia|]. intros j. apply nth_update. lia.
Qed.

Lemma add_mobj idx o : forall i os, exists os', fold_left add_mcnf_data (mcnf_softs idx o) (i, os) = (i, os') /\
  List.length os' = (match o with [] => List.length os | _ => Nat.max (List.length os) (idx + 1) end) /\
  forall j, nth j os' obj_new = if (j =? idx)%nat then fold_left (fun o e => increase_soft_clause (snd e) (fst e) o) o (nth idx os obj_new) else nth j os obj_new.
Proof.
  induction o as [|[c w] o IH]; intros i os.
  - exists os. split; [reflexivity|]. split; [reflexivity|]. intros j. cbn. destruct (Nat.eqb_spec j idx) as [->|]; reflexivity.
  - cbn [mcnf_softs map fold_left fst snd].
    destruct (add_msoft_spec i os idx w c) as (os1 & E1 & Hl1 & Hn1). rewrite E1.
    destruct (IH i os1) as (os2 & E2 & Hl2 & Hn2). unfold mcnf_softs in E2. rewrite E2. exists os2. split; [reflexivity|]. split.
    + rewrite Hl2. destruct o; lia.
    + intros j. rewrite Hn2, !Hn1, Nat.eqb_refl. destruct (j =? idx)%nat; reflexivity.
Qed.

Lemma add_mobjs sss : forall idx i os, (List.length os <= idx)%nat -> exists os', fold_left add_mcnf_data (mcnf_objs idx sss) (i, os) = (i, os') /\
  (List.length os <= List.length os' <= idx + List.length sss)%nat /\
  (forall j, (j < idx)%nat -> nth j os' obj_new = nth j os obj_new) /\
  (forall j, nth (idx + j) os' obj_new = obj_from_cls (nth j sss [])) /\
  (sss <> [] -> last sss [] <> [] -> List.length os' = (idx + List.length sss)%nat).
Proof.
  induction sss as [|o sss IH]; intros idx i os Hl.
  - exists os. split; [reflexivity|]. cbn. split; [lia|]. split; [reflexivity|]. split; [|easy]. intros j. rewrite nth_overflow by lia. now destruct j.
  - cbn [mcnf_objs]. rewrite fold_left_app. destruct (add_mobj idx o i os) as (os1 & -> & Hl1 & Hn1).
    destruct (IH (S idx) i os1) as (os2 & -> & Hl2 & Hp2 & Hn2 & Hx2); [destruct o; lia|].
    exists os2. split; [reflexivity|]. cbn [List.length]. split; [destruct o; lia|]. split; [|split].
    + intros j Hj. rewrite Hp2 by lia. rewrite Hn1. now replace (j =? idx)%nat with false by lia.
    + intros [|j].
      * rewrite Nat.add_0_r. rewrite Hp2 by lia. rewrite Hn1, Nat.eqb_refl. cbn [nth]. rewrite nth_overflow by lia. reflexivity.
      * replace (idx + S j)%nat with (S idx + j)%nat by lia. rewrite Hn2. reflexivity.
    + intros _ Hlast. destruct sss as [|o' sss].
      * cbn in Hlast, Hl2 |- *. destruct o as [|e o]; [easy|]. lia.
      * rewrite Hx2; [cbn; lia|discriminate|exact Hlast].
Qed.

Lemma add_mcnf_comments ms : forall st, fold_left add_mcnf_data (map MComment ms) st = st.
Proof. induction ms as [|m ms IH]; intros st; [reflexivity|]. cbn [map fold_left add_mcnf_data]. apply IH. Qed.
Lemma add_mcnf_hards f : forall i os, fold_left add_mcnf_data (map MHard f) (i, os) = (fold_left add_cnf_data (map CClause f) i, os).
Proof. induction f as [|c f IH]; intros i os; [reflexivity|]. cbn [map fold_left add_mcnf_data fst snd add_cnf_data]. apply IH. Qed.

Lemma mopt_compose_cnf os : forall i, let i' := mo_constrs (mopt_compose i os) in i_cnf i' = i_cnf i /\ i_cards i' = i_cards i /\ i_pbs i' = i_pbs i.
Proof.
  cbn [mopt_compose mo_constrs]. induction os as [|o os IH]; intros i; [easy|]. cbn [fold_left].
  destruct (IH (raise_max i (obj_max_var o))) as (-> & -> & ->). apply raise_max_cnf.
Qed.

Theorem mopt_round_trip lord cord p t : orders lord cord -> is_usize (List.length (mo_objs p)) ->
  (forall o c w, In o (mo_objs p) -> In (c, w) (obj_softs o) -> is_usize w) ->
  mopt_write_dimacs lord cord p = ROk t ->
  exists p', mopt_from_dimacs t = ROk p' /\ i_cnf (mo_constrs p') = i_cnf (mo_constrs p) /\ i_cards (mo_constrs p') = [] /\ i_pbs (mo_constrs p') = [] /\
    (List.length (mo_objs p') <= List.length (mo_objs p))%nat /\
    (mo_objs p <> [] -> obj_softs (last (mo_objs p) obj_new) <> [] -> List.length (mo_objs p') = List.length (mo_objs p)) /\
    (forall j, let o' := nth j (mo_objs p') obj_new in let o := nth j (mo_objs p) obj_new in
       same_softs (obj_softs o') (obj_softs o) /\ obj_wf o' /\ forall a, (obj_value a o' = obj_value a o - obj_offset o)%Z).
Proof.
  intros Ho Hn Hw. unfold mopt_write_dimacs. destruct (not_clausal (mo_constrs p)) eqn:En; [discriminate|].
  destruct (write_mcnf_annotated _ _ _) as [t'|] eqn:Et; [|discriminate]. cbn [to_res]. intros H. injection H as ->.
  apply mcnf_round_trip in Et as [cms Et].
  2:{ now rewrite map_length. }
  2:{ intros o z c w Hin Hc. apply in_map_iff in Hin as (o' & E & Hin). injection E as <- <-. apply (Hw o' c w Hin). unfold obj_softs.
      eapply Permutation_in; [|exact Hc]. now apply iter_soft_cls_spec. }
  rewrite map_map in Et. cbn [fst] in Et.
  unfold mopt_from_dimacs. rewrite Et, !fold_left_app, add_mcnf_comments, add_mcnf_hards, add_clauses_list.
  set (sss := map (fun o => iter_soft_cls lord cord o) (mo_objs p)).
  match goal with |- context [fold_left add_mcnf_data (mcnf_objs 0 sss) (?i, [])] => destruct (add_mobjs sss 0 i [] (Nat.le_refl 0)) as (os' & -> & Hl & _ & Hv & Hx); set (i0 := i) end.
  eexists. split; [reflexivity|]. destruct (mopt_compose_cnf os' i0) as (-> & -> & ->). cbn [mopt_compose mo_objs].
  assert (List.length sss = List.length (mo_objs p)) as Hls by apply map_length.
  split; [reflexivity|]. split; [reflexivity|]. split; [reflexivity|]. split; [lia|]. split.
  - intros Hne Hlast. rewrite Hx; [lia| |].
    + subst sss. now destruct (mo_objs p).
    + intros E. apply Hlast. subst sss. destruct (exists_last Hne) as (os & o & Eo). rewrite Eo, map_app in E. cbn [map] in E. rewrite last_last in E.
      rewrite Eo, last_last. apply Permutation_nil. unfold obj_softs. rewrite <- E. now apply iter_soft_cls_spec.
  - intros j. cbv zeta. rewrite (Hv j : nth j os' obj_new = _).
    assert (nth j sss [] = iter_soft_cls lord cord (nth j (mo_objs p) obj_new)) as ->.
    { subst sss. destruct (Nat.lt_ge_cases j (List.length (mo_objs p))) as [Hj|Hj].
      - rewrite nth_indep with (d' := iter_soft_cls lord cord obj_new) by now rewrite map_length. apply map_nth.
      - rewrite !nth_overflow by (rewrite ?map_length; lia). symmetry. apply Permutation_nil.
        apply Permutation_sym. apply (iter_soft_cls_spec lord cord Ho obj_new). }
    set (o := nth j (mo_objs p) obj_new). split; [|split].
    + intros c. rewrite from_cls_same. now apply iter_soft_cls_same.
    + apply from_cls_spec.
    + intros a. rewrite (proj2 (from_cls_spec _)). rewrite <- (iter_soft_cls_value lord cord Ho o a). lia.
Qed.

(** ** When writing succeeds *)

Lemma to_ipasir_some l : (lvar l < 2147483647)%N -> exists z, to_ipasir l = Some z.
Proof.
  intros H. unfold to_ipasir. replace (Z.of_N (lvar l + 1) <=? i32_max)%Z with true by (unfold i32_max; lia). eexists; reflexivity.
Qed.
Lemma concat_some {A} (w : A -> option text) xs : (forall x, In x xs -> exists t, w x = Some t) -> exists t, concat_opt (map w xs) = Some t.
Proof.
  induction xs as [|x xs IH]; intros H; [eexists; reflexivity|]. cbn [map concat_opt].
  destruct (H x (or_introl eq_refl)) as [t ->]. destruct IH as [t' ->]; [intros; apply H; now right|]. eexists; reflexivity.
Qed.
Lemma write_clause_some c : dimacs_lits c -> exists t, write_clause c = Some t.
Proof.
  intros H. unfold write_clause. destruct (concat_some write_lit c) as [t ->]; [|eexists; reflexivity].
  intros l Hl. unfold write_lit. destruct (to_ipasir_some l (H l Hl)) as [z ->]. eexists; reflexivity.
Qed.
Lemma write_prefixed_some p c : dimacs_lits c -> exists t, write_prefixed p c = Some t.
Proof. intros H. unfold write_prefixed. destruct (write_clause_some c H) as [t ->]. eexists; reflexivity. Qed.

Lemma write_cnf_some f n : (forall c, In c f -> dimacs_lits c) -> exists t, write_cnf_annotated f n = Some t.
Proof.
  intros H. unfold write_cnf_annotated. destruct (concat_some write_clause f) as [t ->]; [|eexists; reflexivity].
  intros c Hc. now apply write_clause_some, H.
Qed.
Lemma write_wcnf_some f ss z n : (forall c, In c f -> dimacs_lits c) -> (forall c w, In (c, w) ss -> dimacs_lits c) -> exists t, write_wcnf_annotated f ss z n = Some t.
Proof.
  intros H Hs. unfold write_wcnf_annotated. destruct (concat_some (write_prefixed (T "h ")) f) as [t ->].
  { intros c Hc. now apply write_prefixed_some, H. }
  destruct (concat_some write_soft ss) as [t' ->]; [|eexists; reflexivity].
  intros [c w] Hc. now apply write_prefixed_some, (Hs c w).
Qed.
Lemma write_objectives_some (sss : list (list (clause * nat))) : forall idx, (forall o c w, In o sss -> In (c, w) o -> dimacs_lits c) -> exists t, write_objectives idx sss = Some t.
Proof.
  induction sss as [|o sss IH]; intros idx H; [eexists; reflexivity|]. cbn [write_objectives].
  destruct (concat_some (write_mo_soft idx) o) as [t ->].
  { intros [c w] Hc. apply write_prefixed_some. exact (H o c w (or_introl eq_refl) Hc). }
  destruct (IH (S idx)) as [t' ->]; [intros o' c w Ho; apply H; now right|]. eexists; reflexivity.
Qed.
Lemma write_mcnf_some f (sss : list (list (clause * nat) * Z)) n : (forall c, In c f -> dimacs_lits c) -> (forall o z c w, In (o, z) sss -> In (c, w) o -> dimacs_lits c) -> exists t, write_mcnf_annotated f sss n = Some t.
Proof.
  intros H Hs. unfold write_mcnf_annotated. destruct (concat_some (write_prefixed (T "h ")) f) as [t ->].
  { intros c Hc. now apply write_prefixed_some, H. }
  destruct (write_objectives_some (map fst sss) 0) as [t' ->]; [|eexists; reflexivity].
  intros o c w Ho Hc. apply in_map_iff in Ho as ((o' & z) & <- & Ho). exact (Hs o' z c w Ho Hc).
Qed.

Lemma clausal_iff i : not_clausal i = false <-> i_cards i = [] /\ i_pbs i = [].
Proof.
  split; [apply clausal_nil|]. intros [Hc Hp]. unfold not_clausal. now rewrite Hc, Hp.
Qed.

Lemma to_res_ok {A} (o : option A) t : to_res o = ROk t -> o = Some t.
Proof. destruct o; cbn; congruence. Qed.

Lemma concat_some_inv {A} (w : A -> option text) xs t : concat_opt (map w xs) = Some t -> forall x, In x xs -> exists s, w x = Some s.
Proof.
  revert t. induction xs as [|y xs IH]; intros t H x Hx; [easy|]. cbn [map concat_opt] in H.
  destruct (w y) as [s|] eqn:Ey; [|discriminate]. destruct (concat_opt (map w xs)) as [t'|]; [|discriminate].
  destruct Hx as [<-|Hx]; [eauto|]. now apply (IH t').
Qed.
Lemma write_clause_some_inv c t : write_clause c = Some t -> dimacs_lits c.
Proof.
  unfold write_clause. destruct (concat_opt (map write_lit c)) as [s|] eqn:E; [|discriminate]. intros _ l Hl.
  destruct (concat_some_inv _ _ _ E l Hl) as [s' Hs]. unfold write_lit, to_ipasir in Hs.
  destruct (Z.of_N (lvar l + 1) <=? i32_max)%Z eqn:El; [|discriminate]. unfold i32_max in El. lia.
Qed.
Lemma write_prefixed_some_inv p c t : write_prefixed p c = Some t -> dimacs_lits c.
Proof. unfold write_prefixed. destruct (write_clause c) as [s|] eqn:E; [|discriminate]. intros _. now apply write_clause_some_inv in E. Qed.

Theorem inst_write_ok i : (exists t, inst_write_dimacs i = ROk t) <->
  i_cards i = [] /\ i_pbs i = [] /\ forall c, In c (i_cnf i) -> dimacs_lits c.
Proof.
  unfold inst_write_dimacs. split.
  - intros [t H]. destruct (not_clausal i) eqn:En; [discriminate|]. apply clausal_iff in En as [Hc Hp]. split; [assumption|]. split; [assumption|].
    apply to_res_ok in H. unfold write_cnf_annotated in H. destruct (concat_opt (map write_clause (i_cnf i))) as [s|] eqn:E; [|discriminate].
    intros c Hin. destruct (concat_some_inv _ _ _ E c Hin) as [s' Hs]. now apply write_clause_some_inv in Hs.
  - intros (Hc & Hp & H). rewrite (proj2 (clausal_iff i)) by now split. destruct (write_cnf_some (i_cnf i) (i_next i) H) as [t ->]. now exists t.
Qed.
Theorem opt_write_ok lord cord p : orders lord cord -> (exists t, opt_write_dimacs lord cord p = ROk t) <->
  i_cards (o_constrs p) = [] /\ i_pbs (o_constrs p) = [] /\ (forall c, In c (i_cnf (o_constrs p)) -> dimacs_lits c) /\
  (forall c w, In (c, w) (obj_softs (o_obj p)) -> dimacs_lits c).
Proof.
  intros Ho. unfold opt_write_dimacs. pose proof (iter_soft_cls_spec lord cord Ho (o_obj p)) as Hp. fold (obj_softs (o_obj p)) in Hp. split.
  - intros [t H]. destruct (not_clausal _) eqn:En; [discriminate|]. apply clausal_iff in En as [Hc Hpb]. split; [assumption|]. split; [assumption|].
    apply to_res_ok in H. unfold write_wcnf_annotated in H. destruct (concat_opt (map (write_prefixed (T "h ")) _)) as [s|] eqn:E; [|discriminate].
    destruct (concat_opt (map write_soft _)) as [s2|] eqn:E2; [|discriminate]. split.
    + intros c Hin. destruct (concat_some_inv _ _ _ E c Hin) as [s' Hs]. now apply write_prefixed_some_inv in Hs.
    + intros c w Hin. destruct (concat_some_inv _ _ _ E2 (c, w)) as [s' Hs]; [eapply Permutation_in; [apply Permutation_sym, Hp|exact Hin]|].
      now apply write_prefixed_some_inv in Hs.
  - intros (Hc & Hpb & H & Hs). rewrite (proj2 (clausal_iff _)) by now split.
    destruct (write_wcnf_some (i_cnf (o_constrs p)) (iter_soft_cls lord cord (o_obj p)) (obj_offset (o_obj p)) (Some (i_next (o_constrs p)))) as [t ->]; [assumption| |now exists t].
    intros c w Hin. apply (Hs c w). eapply Permutation_in; [exact Hp|exact Hin].
Qed.
Lemma write_objectives_inv sss : forall idx t, write_objectives idx sss = Some t -> forall o c w, In o sss -> In (c, w) o -> dimacs_lits c.
Proof.
  induction sss as [|o sss IH]; intros idx t H o' c w Ho Hc; [easy|]. cbn [write_objectives] in H.
  destruct (concat_opt (map (write_mo_soft idx) o)) as [t1|] eqn:E1; [|discriminate].
  destruct (write_objectives (S idx) sss) as [t2|] eqn:E2; [|discriminate]. destruct Ho as [<-|Ho].
  - destruct (concat_some_inv _ _ _ E1 (c, w) Hc) as [s Hs]. now apply write_prefixed_some_inv in Hs.
  - now apply (IH (S idx) t2 E2 o' c w).
Qed.
Theorem mopt_write_ok lord cord p : orders lord cord -> (exists t, mopt_write_dimacs lord cord p = ROk t) <->
  i_cards (mo_constrs p) = [] /\ i_pbs (mo_constrs p) = [] /\ (forall c, In c (i_cnf (mo_constrs p)) -> dimacs_lits c) /\
  (forall o c w, In o (mo_objs p) -> In (c, w) (obj_softs o) -> dimacs_lits c).
Proof.
  intros Ho. unfold mopt_write_dimacs.
  assert (forall o, Permutation (iter_soft_cls lord cord o) (obj_softs o)) as Hp by (intros o; exact (iter_soft_cls_spec lord cord Ho o)). split.
  - intros [t H]. destruct (not_clausal _) eqn:En; [discriminate|]. apply clausal_iff in En as [Hc Hpb]. split; [assumption|]. split; [assumption|].
    apply to_res_ok in H. unfold write_mcnf_annotated in H. destruct (concat_opt (map (write_prefixed (T "h ")) _)) as [s|] eqn:E; [|discriminate].
    destruct (write_objectives 0 _) as [s2|] eqn:E2; [|discriminate]. split.
    + intros c Hin. destruct (concat_some_inv _ _ _ E c Hin) as [s' Hs]. now apply write_prefixed_some_inv in Hs.
    + intros o c w Hin Hc'. apply (write_objectives_inv _ _ _ E2 (iter_soft_cls lord cord o) c w).
      * rewrite map_map. apply in_map_iff. now exists o.
      * eapply Permutation_in; [apply Permutation_sym, Hp|exact Hc'].
  - intros (Hc & Hpb & H & Hs). rewrite (proj2 (clausal_iff _)) by now split.
    destruct (write_mcnf_some (i_cnf (mo_constrs p)) (map (fun o => (iter_soft_cls lord cord o, obj_offset o)) (mo_objs p)) (Some (i_next (mo_constrs p)))) as [t ->]; [assumption| |now exists t].
    intros o z c w Hin Hc'. apply in_map_iff in Hin as (o' & E & Hin). injection E as <- <-. apply (Hs o' c w Hin). eapply Permutation_in; [apply Hp|exact Hc'].
Qed.

(** ** Files written line by line *)

Definition wline_item (l : wcnf_wline) : list wcnf_data :=
  match l with LWComment _ => [] | LWHard c => [WHard c] | LWSoft c w => [WSoft w c] end.

(** Without comments, a WCNF file written line by line is read back *)
Theorem wcnf_lines_round_trip ls t : (forall s, ~ In (LWComment s) ls) -> (forall c w, In (LWSoft c w) ls -> is_usize w) ->
  write_wcnf ls = Some t -> read_wcnf t = ROk (None, flat_map wline_item ls).
Proof.
  intros Hc Hw H. destruct (concat_lines write_wcnf_line (fun l b => exists d, wline_item l = [d] /\ wcnf_text d b) ls t) as (bs & -> & Hbs).
  - intros l t' Hin Ht. destruct l as [s|c|c w]; [now apply Hc in Hin| |]; cbn [write_wcnf_line] in Ht.
    + destruct (write_prefixed_line _ _ _ Ht) as (b & -> & Hb). eexists. split; [reflexivity|]. exists (WHard c). split; [reflexivity|]. now apply wcnf_hard.
    + unfold write_soft in Ht. destruct (write_prefixed_line _ _ _ Ht) as (b & -> & Hb). eexists. split; [reflexivity|]. exists (WSoft w c). split; [reflexivity|].
      rewrite <- app_assoc. apply wcnf_soft; [now apply (Hw c)|assumption].
  - exact H.
  - apply (read_wcnf_lines []); [constructor|]. clear - Hbs. induction Hbs as [|l b ls bs (d & E & Hd) _ IH]; [constructor|].
    cbn [flat_map]. rewrite E. now constructor.
Qed.

(** The comments of a file written line by line, without trailing white space *)
Definition good_comment (t : text) : Prop := forallb plain t = true /\ stops is_white (rev t) /\ t <> [].
Definition mline_item (l : mcnf_wline) : list mcnf_data :=
  match l with LMComment t => [MComment (T "c " ++ t)] | LMHard c => [MHard c] | LMSoft c w idx => [MSoft (idx + 1) w c] end.

Theorem mcnf_lines_round_trip ls t : (forall s, In (LMComment s) ls -> good_comment s) -> (forall c w idx, In (LMSoft c w idx) ls -> is_usize w /\ is_usize (idx + 1)) ->
  write_mcnf ls = Some t -> read_mcnf t = ROk (flat_map mline_item ls).
Proof.
  intros Hc Hw H. destruct (concat_lines write_mcnf_line (fun l b => exists d, mline_item l = [d] /\ mcnf_text d b) ls t) as (bs & -> & Hbs).
  - intros l t' Hin Ht. destruct l as [s|c|c w idx]; cbn [write_mcnf_line] in Ht.
    + apply Some_inj in Ht as <-. eexists. split; [reflexivity|]. eexists. split; [reflexivity|]. destruct (Hc s Hin) as (H1 & H2 & H3). apply mcnf_comment; [assumption|].
      destruct (exists_last H3) as (s' & d & ->). exists s', d. split; [reflexivity|]. now rewrite rev_app_distr in H2.
    + destruct (write_prefixed_line _ _ _ Ht) as (b & -> & Hb). eexists. split; [reflexivity|]. exists (MHard c). split; [reflexivity|]. now apply mcnf_hard.
    + unfold write_mo_soft in Ht. destruct (write_prefixed_line _ _ _ Ht) as (b & -> & Hb). eexists. split; [reflexivity|]. eexists. split; [reflexivity|].
      rewrite <- !app_assoc. destruct (Hw c w idx Hin). now apply mcnf_soft.
  - exact H.
  - apply read_mcnf_lines. clear - Hbs. induction Hbs as [|l b ls bs (d & E & Hd) _ IH]; [constructor|].
    cbn [flat_map]. rewrite E. now constructor.
Qed.

Lemma mcnf_objs_flat (os : list (list (clause * nat))) : forall idx, mcnf_objs idx os =
  flat_map (fun io => map (fun e => MSoft (fst io) (snd e) (fst e)) (snd io)) (combine (seq (S idx) (List.length os)) os).
Proof.
  induction os as [|o os IH]; intros idx; [reflexivity|]. cbn [mcnf_objs List.length seq combine flat_map fst snd]. rewrite IH.
  unfold mcnf_softs. now replace (idx + 1)%nat with (S idx) by lia.
Qed.

(** The header written by [write_cnf] *)
Lemma skip_good_lines l r : good_line l -> starts_with (T "c") l = false -> exists r', skip_comments (body_lines (line l ++ r)) = l :: r'.
Proof.
  intros (Hn & Ht & He) Hc. unfold body_lines, line. rewrite <- app_assoc. cbn [app]. rewrite read_lines_line by assumption.
  cbn [map filter]. rewrite trim_line by assumption. destruct (text_eqb l []) eqn:E; [apply text_eqb_eq in E; congruence|].
  cbn [negb skip_comments]. rewrite Hc. eauto.
Qed.
Lemma header_unreadable n m ls t : write_cnf (LHeader n m :: ls) = Some t -> read_cnf t = RErr.
Proof.
  unfold write_cnf. cbn [map concat_opt write_cnf_line]. destruct (concat_opt (map write_cnf_line ls)) as [t'|]; [|discriminate].
  cbn [option_map]. intros H. apply Some_inj in H as <-. unfold read_cnf.
  destruct (skip_good_lines (T "p " ++ print_N n ++ T " " ++ print_N m) t') as [r ->].
  - split; [apply plain_no_nl; rewrite !forallb_app, !print_N_plain; reflexivity|]. split; [|discriminate]. split; [reflexivity|].
    rewrite !app_assoc, rev_app_distr. pose proof (print_N_last m) as H. pose proof (print_N_not_nil m) as H0.
    destruct (rev (print_N m)) eqn:E; [|exact H]. apply (f_equal (@rev _)) in E. rewrite rev_involutive in E. now destruct H0.
  - reflexivity.
  - assert (parse_all cnf_p_line (T "p " ++ print_N n ++ T " " ++ print_N m) = RErr) as ->; [|reflexivity].
    unfold parse_all, cnf_p_line.
    assert (forall (f : unit -> parser (N * N)) r, pbind (char "p") f (T "p " ++ r) = f tt (T " " ++ r)) as -> by reflexivity.
    unfold pbind at 1. rewrite space1_app; [|reflexivity|discriminate|apply number_not_space].
    unfold pbind at 1. unfold cut_err. assert (tag (T "cnf") (print_N n ++ T " " ++ print_N m) = PBack) as ->; [|reflexivity].
    pose proof (print_N_starts n (T " " ++ print_N m)) as Hs. destruct (print_N n ++ T " " ++ print_N m) as [|d s]; [reflexivity|].
    cbn [starts] in Hs. change (T "cnf") with ["c"; "n"; "f"]%char. cbn [tag]. unfold pbind at 1. unfold char at 1.
    destruct (Ascii.eqb_spec d "c") as [->|]; [discriminate|reflexivity].
Qed.
