(** * Reading arbitrary well-formed DIMACS files *)

From Coq Require Import List Bool NArith ZArith Ascii String Lia.
From Coq Require Import ZifyBool ZifyNat ZifyN.
From Verif Require Import Spec Types TypesProofs Base Constraints Inst Opt OptSpec Text TextProofs FioSpec Dimacs DimacsSpec DimacsProofs.
Import ListNotations.
Open Scope list_scope.

Lemma blanks_spaces t : blanks t -> spaces t.
Proof. intros H. unfold spaces. apply forallb_forall. intros c Hc. destruct (H c Hc) as [-> | ->]; reflexivity. Qed.

Lemma lit_text_print l : (lvar l < 2147483647)%N -> exists z, to_ipasir l = Some z /\ lit_text l = print_Z z.
Proof.
  intros H. unfold to_ipasir. replace (Z.of_N (lvar l + 1) <=? i32_max)%Z with true by (unfold i32_max; lia).
  eexists. split; [reflexivity|]. unfold lit_text, print_Z. destruct (lneg l).
  - replace (- Z.of_N (lvar l + 1) <? 0)%Z with true by lia. replace (Z.abs_N (- Z.of_N (lvar l + 1))) with (lvar l + 1)%N by lia. reflexivity.
  - replace (Z.of_N (lvar l + 1) <? 0)%Z with false by lia. replace (Z.abs_N (Z.of_N (lvar l + 1))) with (lvar l + 1)%N by lia. reflexivity.
Qed.

Lemma lits_text_items l c : forall s, lits_text (l :: c) s -> exists items sp, s = lit_text l ++ flat_map (fun i : text * text * lit => fst (fst i) ++ snd (fst i)) items ++ sp /\
    spaces sp /\ sp <> [] /\ map snd items = c /\ (lvar l < 2147483647)%N /\
    (forall sp tx x, In (sp, tx, x) items -> spaces sp /\ sp <> [] /\ (forall r, stops is_space (tx ++ r)) /\
       (forall r, stops is_digit r -> p_lit (tx ++ r) = POk x r)).
Proof.
  revert l. induction c as [|l' c IH]; intros l s (sp & t' & Hl & [Hsp Hsp0] & Ht & ->).
  - cbn in Ht. subst t'. exists [], sp. split; [now rewrite app_nil_r|]. split; [now apply blanks_spaces|]. split; [assumption|]. split; [reflexivity|]. split; [assumption|]. intros ? ? ? [].
  - destruct (IH l' t' Ht) as (items & spl & -> & Hspl & Hspl0 & <- & Hl' & Hi).
    exists ((sp, lit_text l', l') :: items), spl. split; [cbn [flat_map fst snd]; now rewrite <- !app_assoc|].
    split; [assumption|]. split; [assumption|]. split; [reflexivity|]. split; [assumption|].
    intros sp1 tx x [E|Hin]; [|now apply (Hi sp1)]. injection E as <- <- <-. split; [now apply blanks_spaces|]. split; [assumption|].
    destruct (lit_text_print l' Hl') as (z & Ez & ->). split; intros r.
    + eapply starts_stops; [|apply print_Z_starts]. intros d Hd. now apply number_start_not_white.
    + intros Hr. now apply p_lit_print.
Qed.

(** Text that reads as a clause *)
Definition reads_clause (c : clause) (b : text) : Prop := p_clause b = POk c [] /\ starts is_number_start b.

Lemma space0_zero : space0 (T "0") = POk tt (T "0"). Proof. reflexivity. Qed.
Lemma clause_ending_spaces sp : spaces sp -> clause_ending (sp ++ T "0") = POk tt [].
Proof.
  intros H. unfold clause_ending. rewrite alt_back.
  - unfold pbind at 1. rewrite space0_app; [reflexivity|assumption|reflexivity].
  - unfold pbind at 1. rewrite space0_app; [reflexivity|assumption|reflexivity].
Qed.

Lemma clause_text_reads c b : clause_text c b -> reads_clause c b.
Proof.
  intros (s & Hs & ->). change ["0"%char] with (T "0"). split.
  - unfold p_clause, pbind. destruct c as [|l c].
    + cbn in Hs. subst s. cbn [app]. rewrite (separated0_nil p_lit) by exact (p_lit_zero []). now rewrite (clause_ending_spaces [] eq_refl : clause_ending (T "0") = _).
    + destruct (lits_text_items l c s Hs) as (items & sp & -> & Hsp & Hsp0 & <- & Hl & Hi).
      destruct (lit_text_print l Hl) as (z & Ez & ->). rewrite <- !app_assoc.
      rewrite (separated0_cons p_lit (stops is_digit) (print_Z z) l items).
      * now rewrite clause_ending_spaces.
      * intros. now apply space_not_digit.
      * intros r Hr. now apply p_lit_print.
      * exact Hi.
      * now apply space_not_digit.
      * unfold ends_list. rewrite space1_app; [exact (p_lit_zero [])|assumption..|reflexivity].
  - destruct c as [|l c].
    + cbn in Hs. subst s. reflexivity.
    + destruct Hs as (sp & t' & Hl & _ & _ & ->). destruct (lit_text_print l Hl) as (z & _ & ->). rewrite <- !app_assoc. apply print_Z_starts.
Qed.
Lemma reads_not_space c b : reads_clause c b -> stops is_space b.
Proof. intros (_ & Hs). eapply starts_stops; [|exact Hs]. intros d Hd. now apply number_start_not_white. Qed.

Lemma hard_text_reads c b : hard_text c b -> hard_clause b = POk c [].
Proof.
  intros (sp & s & [Hsp Hsp0] & Hc & ->). apply clause_text_reads in Hc. unfold hard_clause.
  assert (forall (f : unit -> parser clause) r, pbind (char "h") f ("h"%char :: r) = f tt r) as -> by reflexivity.
  unfold pbind, cut_err. rewrite space1_app; [|now apply blanks_spaces|assumption|now apply (reads_not_space c)].
  now rewrite (proj1 Hc).
Qed.
Lemma spaces_not_digit sp t : blanks1 sp -> stops is_digit (sp ++ t).
Proof. intros [H H0]. apply space_not_digit; [now apply blanks_spaces|assumption]. Qed.
Lemma soft_text_reads w c b : soft_text w c b -> soft_clause b = POk (w, c) [].
Proof.
  intros (sp & s & Hw & Hsp & Hc & ->). apply clause_text_reads in Hc. unfold soft_clause.
  unfold pbind at 1. rewrite p_weight_print; [|assumption|now apply spaces_not_digit].
  unfold pbind at 1. rewrite space1_app; [|now apply blanks_spaces; destruct Hsp|now destruct Hsp|now apply (reads_not_space c)].
  unfold pbind. now rewrite (proj1 Hc).
Qed.
Lemma mo_soft_text_reads idx w c b : mo_soft_text idx w c b -> mo_soft_clause b = POk (idx, w, c) [].
Proof.
  intros (sp0 & sp1 & sp2 & s & Hi1 & Hi & Hw & Hsp0 & Hsp1 & Hsp2 & Hc & ->). apply clause_text_reads in Hc. unfold mo_soft_clause.
  assert (forall (f : unit -> parser (nat * nat * clause)) r, pbind (char "o") f ("o"%char :: r) = f tt r) as -> by reflexivity.
  unfold pbind at 1. rewrite space0_app; [|now apply blanks_spaces|apply number_not_space].
  unfold pbind at 1. unfold cut_err at 1, obj_idx, try_map. unfold pbind at 1. unfold print_nat at 1.
  rewrite digits1_print; [|lia|now apply spaces_not_digit]. rewrite print_N_value.
  replace (N.of_nat idx <=? usize_max)%N with true by (unfold is_usize in Hi; lia). unfold pret at 1. rewrite Nat2N.id.
  unfold pbind at 1. unfold cut_err at 1. rewrite space1_app; [|now apply blanks_spaces; destruct Hsp1|now destruct Hsp1|apply number_not_space].
  unfold pbind at 1. unfold cut_err at 1. rewrite p_weight_print; [|assumption|now apply spaces_not_digit].
  unfold pbind at 1. unfold cut_err at 1. rewrite space1_app; [|now apply blanks_spaces; destruct Hsp2|now destruct Hsp2|now apply (reads_not_space c)].
  unfold pbind, cut_err. now rewrite (proj1 Hc).
Qed.
Lemma header_reads n m b : cnf_header_text n m b -> cnf_p_line b = POk (n, m) [].
Proof.
  intros (sp1 & sp2 & sp3 & Hn & Hm & [H1 H10] & [H2 H20] & H3 & ->). unfold cnf_p_line.
  assert (forall (f : unit -> parser (N * N)) r, pbind (char "p") f ("p"%char :: r) = f tt r) as -> by reflexivity.
  unfold pbind at 1. rewrite space1_app; [|now apply blanks_spaces|assumption|reflexivity].
  unfold pbind at 1. assert (forall r, cut_err (tag (T "cnf")) (["c"; "n"; "f"]%char ++ r) = POk tt r) as -> by reflexivity.
  unfold pbind at 1. rewrite space1_app; [|now apply blanks_spaces|assumption|apply number_not_space].
  unfold pbind at 1. rewrite dec_uint_print; [|assumption|now apply spaces_not_digit].
  rewrite <- (app_nil_r (print_N m)).
  unfold pbind at 1. rewrite space1_app; [|now apply blanks_spaces; destruct H3|now destruct H3|apply number_not_space].
  unfold pbind at 1. rewrite dec_uint_print; [|assumption|exact Logic.I]. reflexivity.
Qed.
Lemma wheader_reads n m top b : wcnf_header_text n m top b -> wcnf_p_line b = POk (n, m, top) [].
Proof.
  intros (sp1 & sp2 & sp3 & sp4 & Hn & Hm & Ht & [H1 H10] & [H2 H20] & H3 & H4 & ->). unfold wcnf_p_line.
  assert (forall (f : unit -> parser (N * N * N)) r, pbind (char "p") f ("p"%char :: r) = f tt r) as -> by reflexivity.
  unfold pbind at 1. rewrite space1_app; [|now apply blanks_spaces|assumption|reflexivity].
  unfold pbind at 1. assert (forall r, cut_err (tag (T "wcnf")) (["w"; "c"; "n"; "f"]%char ++ r) = POk tt r) as -> by reflexivity.
  unfold pbind at 1. rewrite space1_app; [|now apply blanks_spaces|assumption|apply number_not_space].
  unfold pbind at 1. rewrite dec_uint_print; [|assumption|now apply spaces_not_digit].
  unfold pbind at 1. rewrite space1_app; [|now apply blanks_spaces; destruct H3|now destruct H3|apply number_not_space].
  unfold pbind at 1. rewrite dec_uint_print; [|assumption|now apply spaces_not_digit].
  rewrite <- (app_nil_r (print_N top)).
  unfold pbind at 1. rewrite space1_app; [|now apply blanks_spaces; destruct H4|now destruct H4|apply number_not_space].
  unfold pbind at 1. rewrite dec_uint_print; [|assumption|exact Logic.I]. reflexivity.
Qed.

(** ** Lines *)

(** The content of a line: no line feed, no white space around it, not empty *)
Lemma in_print_N n c : In c (print_N n) -> is_digit c = true.
Proof. pose proof (print_N_digits n) as H. rewrite forallb_forall in H. apply H. Qed.
Lemma digit_not_nl c : is_digit c = true -> c <> nl.
Proof. intros H ->. discriminate. Qed.
Lemma blank_not_nl t : blanks t -> no_nl t.
Proof. intros H Hin. destruct (H _ Hin) as [E|E]; discriminate. Qed.
Lemma print_N_no_nl n : no_nl (print_N n).
Proof. intros H. apply in_print_N in H. discriminate. Qed.
Lemma no_nl_app s t : no_nl s -> no_nl t -> no_nl (s ++ t).
Proof. unfold no_nl. rewrite in_app_iff. tauto. Qed.
Lemma no_nl_cons c t : c <> nl -> no_nl t -> no_nl (c :: t).
Proof. unfold no_nl. cbn. intuition. Qed.
Lemma lit_text_no_nl l : no_nl (lit_text l).
Proof. unfold lit_text. destruct (lneg l); [apply no_nl_cons; [discriminate|]|]; apply print_N_no_nl. Qed.
Lemma lits_text_no_nl c : forall t, lits_text c t -> no_nl t.
Proof.
  induction c as [|l c IH]; intros t H; [cbn in H; subst t; now intros []|]. destruct H as (sp & t' & _ & [Hsp _] & Ht & ->).
  apply no_nl_app; [apply lit_text_no_nl|]. apply no_nl_app; [now apply blank_not_nl|auto].
Qed.

Lemma content_good s e : no_nl (s ++ [e]) -> is_white e = false -> stops is_white (s ++ [e]) -> good_line (s ++ [e]).
Proof.
  intros H He Hs. split; [assumption|]. split; [split; [assumption|]|now destruct s].
  rewrite rev_app_distr. exact He.
Qed.
Lemma clause_text_good c b : clause_text c b -> no_nl b /\ exists s, b = s ++ ["0"%char].
Proof.
  intros (s & Hs & ->). split; [|now exists s]. apply no_nl_app; [now apply (lits_text_no_nl c)|]. now intros [H|[]].
Qed.
Lemma stops_app s t : s <> [] -> stops is_white s -> stops is_white (s ++ t).
Proof. now destruct s. Qed.

Lemma clause_good c b : clause_text c b -> good_line b.
Proof.
  intros H. pose proof (clause_text_reads c b H) as [_ Hs]. destruct (clause_text_good c b H) as (Hn & s & ->).
  apply content_good; [assumption|reflexivity|]. eapply starts_stops; [|exact Hs]. intros d Hd. now apply number_start_not_white.
Qed.
Lemma hard_good c b : hard_text c b -> good_line b.
Proof.
  intros (sp & s & [Hsp _] & Hc & ->). destruct (clause_text_good c s Hc) as (Hn & s' & ->).
  change ("h"%char :: sp ++ s' ++ ["0"%char]) with (["h"%char] ++ sp ++ s' ++ ["0"%char]). rewrite !app_assoc. apply content_good; [|reflexivity|reflexivity].
  rewrite <- !app_assoc. apply no_nl_app; [now intros [H|[]]|]. apply no_nl_app; [now apply blank_not_nl|assumption].
Qed.
Lemma soft_good w c b : soft_text w c b -> good_line b.
Proof.
  intros (sp & s & _ & [Hsp _] & Hc & ->). destruct (clause_text_good c s Hc) as (Hn & s' & ->).
  rewrite !app_assoc. apply content_good; [|reflexivity|rewrite <- !app_assoc; apply number_not_white].
  rewrite <- !app_assoc. apply no_nl_app; [apply print_N_no_nl|]. apply no_nl_app; [now apply blank_not_nl|assumption].
Qed.
Lemma mo_soft_good idx w c b : mo_soft_text idx w c b -> good_line b.
Proof.
  intros (sp0 & sp1 & sp2 & s & _ & _ & _ & H0 & [H1 _] & [H2 _] & Hc & ->). destruct (clause_text_good c s Hc) as (Hn & s' & ->).
  match goal with |- good_line ("o"%char :: ?r) => change ("o"%char :: r) with (["o"%char] ++ r) end. rewrite !app_assoc. apply content_good; [|reflexivity|reflexivity].
  rewrite <- !app_assoc. repeat (apply no_nl_app; [first [now intros [H|[]]|apply print_N_no_nl|now apply blank_not_nl]|]). assumption.
Qed.
Lemma header_good n m b : cnf_header_text n m b -> good_line b.
Proof.
  intros (sp1 & sp2 & sp3 & _ & _ & [H1 _] & [H2 _] & [H3 _] & ->).
  pose proof (print_N_last m) as Hm. destruct (exists_last (print_N_not_nil m)) as (ds & d & E). rewrite E, rev_app_distr in Hm.
  pose proof (print_N_no_nl m) as Hm2. rewrite E in *.
  match goal with |- good_line ("p"%char :: ?r) => change ("p"%char :: r) with (["p"%char] ++ r) end. rewrite !app_assoc. apply content_good; [|exact Hm|reflexivity].
  rewrite <- !app_assoc. repeat (apply no_nl_app; [first [now intros [H|[]]|now intros [H|[H|[H|[]]]]|apply print_N_no_nl|now apply blank_not_nl]|]). assumption.
Qed.
Lemma wheader_good n m top b : wcnf_header_text n m top b -> good_line b.
Proof.
  intros (sp1 & sp2 & sp3 & sp4 & _ & _ & _ & [H1 _] & [H2 _] & [H3 _] & [H4 _] & ->).
  pose proof (print_N_last top) as Hm. destruct (exists_last (print_N_not_nil top)) as (ds & d & E). rewrite E, rev_app_distr in Hm.
  pose proof (print_N_no_nl top) as Hm2. rewrite E in *.
  match goal with |- good_line ("p"%char :: ?r) => change ("p"%char :: r) with (["p"%char] ++ r) end. rewrite !app_assoc. apply content_good; [|exact Hm|reflexivity].
  rewrite <- !app_assoc. repeat (apply no_nl_app; [first [now intros [H|[]]|now intros [H|[H|[H|[H|[]]]]]|apply print_N_no_nl|now apply blank_not_nl]|]). assumption.
Qed.
Lemma comment_text_good s : comment_text s -> good_line s /\ comment s = POk s [].
Proof.
  intros (H1 & (s' & ->) & Hl). split.
  - destruct (exists_last (l := "c"%char :: s')) as (r & d & E); [discriminate|]. rewrite E in *. rewrite last_last in Hl. apply content_good.
    + intros Hin. now destruct (H1 nl Hin).
    + assumption.
    + rewrite <- E. reflexivity.
  - apply comment_whole. intros c Hc. apply H1. now right.
Qed.

Lemma white_forallb w : white w -> forallb is_white w = true /\ no_nl w.
Proof. intros H. split; [apply forallb_forall; intros c Hc; now apply H|intros Hin; now destruct (H nl Hin)]. Qed.
Lemma trim_white w : forallb is_white w = true -> trim w = [].
Proof. intros H. rewrite <- (app_nil_r w). change (w ++ []) with (w ++ [] ++ []). apply trim_tight; [assumption|reflexivity|now split]. Qed.

Lemma filter_trims ls : filter (fun l => negb (text_eqb l [])) (map trim ls) = flat_map (fun l => match trim l with [] => [] | t => [t] end) ls.
Proof.
  induction ls as [|l ls IH]; [reflexivity|]. cbn [map filter flat_map]. rewrite <- IH. destruct (text_eqb (trim l) []) eqn:E.
  - apply text_eqb_eq in E. now rewrite E.
  - cbn [negb]. destruct (trim l) eqn:El; [discriminate|reflexivity].
Qed.

Lemma present_app {A} (xs ys : list (option A)) : present (xs ++ ys) = present xs ++ present ys.
Proof. apply flat_map_app. Qed.

(** The lines of a file that are not blank, trimmed *)
Lemma body_lines_of (contents : list (option text)) ls t :
  Forall2 (fun c l => no_nl l /\ match c with None => forallb is_white l = true | Some s => good_line s /\ exists w w', forallb is_white w = true /\ forallb is_white w' = true /\ l = w ++ s ++ w' end) contents ls ->
  lines_of ls t -> body_lines t = present contents.
Proof.
  intros H Ht. unfold body_lines. rewrite filter_trims.
  assert (forall cs ls e, forallb is_white e = true -> Forall2 (fun c l => no_nl l /\ match c with None => forallb is_white l = true | Some s => good_line s /\ exists w w', forallb is_white w = true /\ forallb is_white w' = true /\ l = w ++ s ++ w' end) cs ls ->
     flat_map (fun l => match trim l with [] => [] | t => [t] end) (map (fun l => l ++ e) ls) = present cs) as Hm.
  { clear. intros cs ls e He H. induction H as [|c l cs ls [_ Hc] _ IH]; [reflexivity|]. cbn [map flat_map present]. rewrite IH. f_equal. destruct c as [s|].
    - destruct Hc as ((Hn & Ht & Hs) & w & w' & Hw & Hw' & ->). rewrite <- !app_assoc. rewrite trim_tight; [|assumption|now rewrite forallb_app, Hw'|assumption]. now destruct s.
    - rewrite trim_white; [reflexivity|]. now rewrite forallb_app, Hc. }
  assert (forall cs ls, Forall2 (fun c l => no_nl l /\ match c with None => forallb is_white l = true | Some s => good_line s /\ exists w w', forallb is_white w = true /\ forallb is_white w' = true /\ l = w ++ s ++ w' end) cs ls -> Forall no_nl ls) as Hf.
  { clear. intros cs ls H. eapply Forall2_Forall; [|exact H]. now intros x y []. }
  destruct Ht as [-> | (ls' & l & -> & Hl0 & ->)].
  - rewrite <- (app_nil_r (flat_map _ ls)). rewrite read_lines_lines by now apply (Hf contents). cbn [read_lines]. rewrite app_nil_r. now apply Hm.
  - apply Forall2_app_inv_r in H as (cs' & cl & H1 & H2 & ->). inversion H2 as [|c ? cl' ? Hc H3]; subst. inversion H3; subst.
    rewrite read_lines_lines by now apply (Hf cs'). rewrite read_lines_last; [|now destruct Hc|assumption].
    rewrite flat_map_app, present_app. pose proof (Hm cs' ls' [nl] eq_refl H1) as Hl'.
    assert (Forall2 (fun c l => no_nl l /\ match c with None => forallb is_white l = true | Some s => good_line s /\ exists w w', forallb is_white w = true /\ forallb is_white w' = true /\ l = w ++ s ++ w' end) [c] [l]) as Hcl by now constructor.
    pose proof (Hm [c] [l] [] eq_refl Hcl) as Hl. cbn [map] in Hl. rewrite app_nil_r in Hl. exact (f_equal2 (@app text) Hl' Hl).
Qed.

Lemma line_with_ok s l : good_line s -> line_with s l -> no_nl l /\ good_line s /\ exists w w', forallb is_white w = true /\ forallb is_white w' = true /\ l = w ++ s ++ w'.
Proof.
  intros Hs (w & w' & Hw & Hw' & ->). apply white_forallb in Hw as [Hw Hwn]. apply white_forallb in Hw' as [Hw' Hwn'].
  split; [|split; [assumption|eauto]]. apply no_nl_app; [assumption|]. apply no_nl_app; [apply Hs|assumption].
Qed.

(** What the lines of a file mean, and their contents *)
Section Meaning.
Context {D : Type} (cm : text -> option D) (content : D -> text -> Prop).
Hypothesis content_good : forall x s, content x s -> good_line s.

Lemma line_content d l : line_means cm content d l -> exists c, (no_nl l /\ match c with None => forallb is_white l = true | Some s => good_line s /\ exists w w', forallb is_white w = true /\ forallb is_white w' = true /\ l = w ++ s ++ w' end) /\
  ((c = None /\ d = None) \/ (exists s, c = Some s /\ comment_text s /\ d = cm s) \/ (exists s x, c = Some s /\ content x s /\ d = Some x)).
Proof.
  intros [[Hw ->]|[(s & Hs & Hl & ->)|(x & s & Hs & Hl & ->)]].
  - exists None. apply white_forallb in Hw as [Hw Hn]. now split; [|left].
  - exists (Some s). split; [|right; left; eauto]. apply line_with_ok; [now apply comment_text_good|assumption].
  - exists (Some s). split; [|right; right; eauto]. apply line_with_ok; [now apply (content_good x)|assumption].
Qed.
Lemma lines_content ds ls : Forall2 (line_means cm content) ds ls -> exists cs,
  Forall2 (fun c l => no_nl l /\ match c with None => forallb is_white l = true | Some s => good_line s /\ exists w w', forallb is_white w = true /\ forallb is_white w' = true /\ l = w ++ s ++ w' end) cs ls /\
  Forall2 (fun c d => (c = None /\ d = None) \/ (exists s, c = Some s /\ comment_text s /\ d = cm s) \/ (exists s x, c = Some s /\ content x s /\ d = Some x)) cs ds.
Proof.
  induction 1 as [|d l ds ls H _ (cs & H1 & H2)]; [exists []; split; constructor|].
  destruct (line_content d l H) as (c & Hc & Hd). exists (c :: cs). split; constructor; assumption.
Qed.
End Meaning.

Lemma comments_skipped ds (cs : list (option text)) : Forall2 (fun c (d : option unit) => (c = None /\ d = None) \/ (exists s, c = Some s /\ comment_text s /\ d = None) \/ (exists s x, c = Some s /\ False /\ d = Some x)) cs ds ->
  forall r, skip_comments (present cs ++ r) = skip_comments r.
Proof.
  induction 1 as [|c d cs ds Hc _ IH]; intros r; [reflexivity|]. cbn [present flat_map]. destruct Hc as [[-> _]|[(s & -> & Hs & _)|(s & x & _ & [] & _)]].
  - apply IH.
  - cbn [app skip_comments]. destruct Hs as (_ & (s' & ->) & _).
    assert (starts_with (T "c") ("c"%char :: s') = true) as -> by reflexivity. apply IH.
Qed.

Lemma collected {D} (cm : text -> option D) (content : D -> text -> Prop) (p : text -> res D) :
  (forall s, comment_text s -> exists d, cm s = Some d /\ p s = ROk d) -> (forall x s, content x s -> p s = ROk x) ->
  forall cs ds, Forall2 (fun c d => (c = None /\ d = None) \/ (exists s, c = Some s /\ comment_text s /\ d = cm s) \/ (exists s x, c = Some s /\ content x s /\ d = Some x)) cs ds ->
  collect p (present cs) = ROk (present ds).
Proof.
  intros Hc Hx. induction 1 as [|c d cs ds H _ IH]; [reflexivity|]. cbn [present flat_map].
  destruct H as [[-> ->]|[(s & -> & Hs & ->)|(s & x & -> & Hs & ->)]].
  - exact IH.
  - destruct (Hc s Hs) as (d & -> & Hp). cbn [app collect]. rewrite Hp. fold (present cs) (present ds). now rewrite IH.
  - cbn [app collect]. rewrite (Hx x s Hs). fold (present cs) (present ds). now rewrite IH.
Qed.

Lemma comment_lines_mean pre : comment_lines pre -> Forall2 (line_means (fun _ => None) (fun _ : unit => fun _ => False)) (map (fun _ => None) pre) pre.
Proof.
  intros H. induction pre as [|l pre IH]; constructor.
  - destruct (H l (or_introl eq_refl)) as [Hw|(s & Hs & Hl)]; [now left|right; left; eauto].
  - apply IH. intros l' Hl. apply H. now right.
Qed.

(** ** CNF files *)

Lemma cnf_content_good d s : cnf_content d s -> good_line s.
Proof. intros (c & _ & H). now apply (clause_good c). Qed.
Lemma cnf_content_reads d s : cnf_content d s -> parse_all cnf_line s = ROk d.
Proof.
  intros (c & -> & H). apply clause_text_reads in H as [Hp Hs]. apply parse_all_ok. unfold cnf_line. rewrite alt_back.
  - unfold pbind. now rewrite Hp.
  - apply bind_back, comment_back. eapply starts_stops; [|exact Hs]. intros e He. now apply number_start_char.
Qed.

Lemma no_comment_header n m b : cnf_header_text n m b -> skip_comments [b] = [b].
Proof. now intros (? & ? & ? & _ & _ & _ & _ & _ & ->). Qed.
Lemma skip_header b r : skip_comments [b] = [b] -> skip_comments (b :: r) = b :: r.
Proof. cbn [skip_comments]. now destruct (starts_with (T "c") b). Qed.

Theorem read_cnf_file n m pre hdr ds body t : comment_lines pre ->
  (exists h, cnf_header_text n m h /\ line_with h hdr) ->
  Forall2 (line_means (fun s => Some (CComment s)) cnf_content) ds body ->
  lines_of (pre ++ hdr :: body) t -> read_cnf t = ROk (n, m, present ds).
Proof.
  intros Hpre (h & Hh & Hhl) Hb Ht.
  destruct (lines_content _ _ (fun x s (F : False) => match F with end) _ _ (comment_lines_mean pre Hpre)) as (cs1 & H1 & H1').
  destruct (lines_content _ _ cnf_content_good _ _ Hb) as (cs2 & H2 & H2').
  pose proof (line_with_ok h hdr (header_good n m h Hh) Hhl) as H0.
  unfold read_cnf. rewrite (body_lines_of (cs1 ++ Some h :: cs2) (pre ++ hdr :: body) t); [|apply Forall2_app; [exact H1|constructor; [exact H0|exact H2]]|exact Ht].
  rewrite present_app. rewrite (comments_skipped _ _ H1'). cbn [present flat_map app]. rewrite skip_header by now apply (no_comment_header n m).
  rewrite (parse_all_ok _ _ _ (header_reads n m h Hh)). fold (present cs2).
  rewrite (collected _ _ (parse_all cnf_line)) with (3 := H2'); [reflexivity| |exact cnf_content_reads].
  intros s Hs. exists (CComment s). split; [reflexivity|]. apply parse_all_ok. unfold cnf_line. apply alt_ok. unfold pbind. now rewrite (proj2 (comment_text_good s Hs)).
Qed.

(** ** WCNF files in the format since 2022 *)

Lemma wcnf_content_good d s : wcnf_content d s -> good_line s.
Proof. intros [(c & _ & H)|(w & c & _ & H)]; [now apply (hard_good c)|now apply (soft_good w c)]. Qed.
Lemma soft_starts w c s : soft_text w c s -> starts is_digit s.
Proof. intros (sp & s' & _ & _ & _ & ->). apply print_N_starts. Qed.
Lemma hard_starts c s : hard_text c s -> exists r, s = "h"%char :: r.
Proof. intros (sp & s' & _ & _ & ->). eauto. Qed.
Lemma wcnf_first d s : wcnf_content d s -> parse_all post22_first s = ROk d /\ starts_with (T "c") s = false.
Proof.
  intros [(c & -> & H)|(w & c & -> & H)].
  - split; [apply parse_all_ok; unfold post22_first; apply alt_ok; now rewrite (bind_ok _ _ _ _ _ (hard_text_reads c s H))|].
    apply hard_starts in H as [r ->]. reflexivity.
  - pose proof (soft_starts w c s H) as Hs. split.
    + apply parse_all_ok. unfold post22_first. rewrite alt_back.
      * now rewrite (bind_ok _ _ _ _ _ (soft_text_reads w c s H)).
      * apply bind_back, hard_back. eapply starts_stops; [|exact Hs]. intros e He. now apply digit_not_char.
    + destruct s as [|d r]; [easy|]. cbn [starts] in Hs. change (T "c") with ["c"%char]. cbn [starts_with]. rewrite andb_true_r.
      destruct (Ascii.eqb_spec "c" d) as [<-|]; [discriminate|reflexivity].
Qed.
Lemma wcnf_content_reads d s : wcnf_content d s -> parse_all post22_line s = ROk d.
Proof.
  intros [(c & -> & H)|(w & c & -> & H)]; apply parse_all_ok; unfold post22_line.
  - rewrite alt_back; [apply alt_ok; now rewrite (bind_ok _ _ _ _ _ (hard_text_reads c s H))|].
    apply hard_starts in H as [r ->]. apply bind_back, comment_back. reflexivity.
  - pose proof (soft_starts w c s H) as Hs.
    rewrite alt_back by (apply bind_back, comment_back; eapply starts_stops; [|exact Hs]; intros e He; now apply digit_not_char).
    rewrite alt_back by (apply bind_back, hard_back; eapply starts_stops; [|exact Hs]; intros e He; now apply digit_not_char).
    now rewrite (bind_ok _ _ _ _ _ (soft_text_reads w c s H)).
Qed.

Theorem read_wcnf_file pre ds ls t : comment_lines pre ->
  Forall2 (line_means (fun s => Some (WComment s)) wcnf_content) ds ls ->
  (forall d, hd_error (present ds) = Some d -> is_wcomment d = false) ->
  lines_of (pre ++ ls) t -> read_wcnf t = ROk (None, present ds).
Proof.
  intros Hpre Hb Hf Ht.
  destruct (lines_content _ _ (fun x s (F : False) => match F with end) _ _ (comment_lines_mean pre Hpre)) as (cs1 & H1 & H1').
  destruct (lines_content _ _ wcnf_content_good _ _ Hb) as (cs2 & H2 & H2').
  unfold read_wcnf. rewrite (body_lines_of (cs1 ++ cs2) (pre ++ ls) t); [|now apply Forall2_app|exact Ht].
  rewrite present_app, (comments_skipped _ _ H1'). clear - H2' Hf.
  induction H2' as [|c d cs ds H Hr IH]; [reflexivity|]. cbn [present flat_map] in *.
  destruct H as [[-> ->]|[(s & -> & Hs & ->)|(s & x & -> & Hs & ->)]].
  - apply IH. exact Hf.
  - now specialize (Hf _ eq_refl).
  - cbn [app] in *. destruct (wcnf_first x s Hs) as [Hp Hc]. cbn [skip_comments]. rewrite Hc, Hp.
    fold (present cs) (present ds). rewrite (collected _ _ (parse_all post22_line)) with (3 := Hr); [reflexivity| |exact wcnf_content_reads].
    intros s' Hs'. exists (WComment s'). split; [reflexivity|]. apply parse_all_ok. unfold post22_line. apply alt_ok. unfold pbind. now rewrite (proj2 (comment_text_good s' Hs')).
Qed.

(** ** WCNF files in the format before 2022 *)

Lemma pre22_content_good top d s : pre22_content top d s -> good_line s.
Proof. intros (w & c & H & _). now apply (soft_good w c). Qed.
Lemma pre22_content_reads top d s : pre22_content top d s -> parse_all (pre22_line top) s = ROk d.
Proof.
  intros (w & c & H & ->). apply parse_all_ok. unfold pre22_line. pose proof (soft_starts w c s H) as Hs.
  rewrite alt_back by (apply bind_back, comment_back; eapply starts_stops; [|exact Hs]; intros e He; now apply digit_not_char).
  now rewrite (bind_ok _ _ _ _ _ (soft_text_reads w c s H)).
Qed.
Lemma wheader_first n m top b : wcnf_header_text n m top b -> parse_all post22_first b = RErr /\ starts_with (T "c") b = false.
Proof.
  intros (? & ? & ? & ? & _ & _ & _ & _ & _ & _ & _ & ->). split; [|reflexivity].
  unfold parse_all. unfold post22_first. rewrite alt_back by (apply bind_back, hard_back; reflexivity).
  reflexivity.
Qed.
Theorem read_pre22_file n m top pre hdr ds body t : comment_lines pre ->
  (exists h, wcnf_header_text n m top h /\ line_with h hdr) ->
  Forall2 (line_means (fun s => Some (WComment s)) (pre22_content top)) ds body ->
  lines_of (pre ++ hdr :: body) t -> read_wcnf t = ROk (Some n, present ds).
Proof.
  intros Hpre (h & Hh & Hhl) Hb Ht.
  destruct (lines_content _ _ (fun x s (F : False) => match F with end) _ _ (comment_lines_mean pre Hpre)) as (cs1 & H1 & H1').
  destruct (lines_content _ _ (pre22_content_good top) _ _ Hb) as (cs2 & H2 & H2').
  pose proof (line_with_ok h hdr (wheader_good n m top h Hh) Hhl) as H0.
  unfold read_wcnf. rewrite (body_lines_of (cs1 ++ Some h :: cs2) (pre ++ hdr :: body) t); [|apply Forall2_app; [exact H1|constructor; [exact H0|exact H2]]|exact Ht].
  rewrite present_app. rewrite (comments_skipped _ _ H1'). cbn [present flat_map app skip_comments].
  destruct (wheader_first n m top h Hh) as [Hp Hc]. rewrite Hc, Hp.
  rewrite (parse_all_ok _ _ _ (wheader_reads n m top h Hh)). fold (present cs2).
  rewrite (collected _ _ (parse_all (pre22_line top))) with (3 := H2'); [reflexivity| |exact (pre22_content_reads top)].
  intros s Hs. exists (WComment s). split; [reflexivity|]. apply parse_all_ok. unfold pre22_line. apply alt_ok. unfold pbind. now rewrite (proj2 (comment_text_good s Hs)).
Qed.

(** ** MCNF files *)

Lemma mcnf_content_good d s : mcnf_content d s -> good_line s.
Proof. intros [(c & _ & H)|(idx & w & c & _ & H)]; [now apply (hard_good c)|now apply (mo_soft_good idx w c)]. Qed.
Lemma mcnf_content_reads d s : mcnf_content d s -> parse_all mcnf_line s = ROk d.
Proof.
  intros [(c & -> & H)|(idx & w & c & -> & H)]; apply parse_all_ok; unfold mcnf_line.
  - rewrite alt_back; [apply alt_ok; now rewrite (bind_ok _ _ _ _ _ (hard_text_reads c s H))|].
    apply hard_starts in H as [r ->]. apply bind_back, comment_back. reflexivity.
  - pose proof (mo_soft_text_reads idx w c s H) as Hr. destruct H as (sp0 & sp1 & sp2 & s' & _ & _ & _ & _ & _ & _ & _ & ->).
    rewrite alt_back by (apply bind_back, comment_back; reflexivity).
    rewrite alt_back by (apply bind_back, hard_back; reflexivity).
    now rewrite (bind_ok _ _ _ _ _ Hr).
Qed.
Theorem read_mcnf_file ds ls t : Forall2 (line_means (fun s => Some (MComment s)) mcnf_content) ds ls ->
  lines_of ls t -> read_mcnf t = ROk (present ds).
Proof.
  intros Hb Ht. destruct (lines_content _ _ mcnf_content_good _ _ Hb) as (cs2 & H2 & H2').
  unfold read_mcnf. rewrite (body_lines_of cs2 ls t H2 Ht).
  rewrite (collected _ _ (parse_all mcnf_line)) with (3 := H2'); [reflexivity| |exact mcnf_content_reads].
  intros s Hs. exists (MComment s). split; [reflexivity|]. apply parse_all_ok. unfold mcnf_line. apply alt_ok. unfold pbind. now rewrite (proj2 (comment_text_good s Hs)).
Qed.
