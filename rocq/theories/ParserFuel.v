(** * The parsers consume text, so the fuel of their loops does not run out *)

From Coq Require Import List Bool NArith ZArith Ascii String Lia.
From Verif Require Import Spec Types Constraints Text Opb.
Import ListNotations.
Open Scope list_scope.

(** What [p] leaves is at least [k] characters shorter *)
Definition eats {A} (k : nat) (p : parser A) : Prop := forall t x r, p t = POk x r -> (List.length r + k <= List.length t)%nat.

Lemma eats_less {A} k k' (p : parser A) : (k' <= k)%nat -> eats k p -> eats k' p.
Proof. intros Hk H t x r E. apply H in E. lia. Qed.
Lemma eats_bind {A B} k k' (p : parser A) (f : A -> parser B) : eats k p -> (forall x, eats k' (f x)) -> eats (k + k') (pbind p f).
Proof. intros Hp Hf t y r E. unfold pbind in E. destruct (p t) as [x r1| | |] eqn:Ep; try discriminate. apply Hp in Ep. apply Hf in E. lia. Qed.
Lemma eats_bind_l {A B} k (p : parser A) (f : A -> parser B) : eats k p -> (forall x, eats 0 (f x)) -> eats k (pbind p f).
Proof. intros Hp Hf. apply (eats_less (k + 0)); [lia|]. now apply eats_bind. Qed.
Lemma eats_ret {A} (x : A) : eats 0 (pret x).
Proof. intros t y r E. injection E as _ <-. lia. Qed.
Lemma eats_alt {A} k (p q : parser A) : eats k p -> eats k q -> eats k (alt p q).
Proof. intros Hp Hq t x r E. unfold alt in E. destruct (p t) eqn:Ep; try discriminate; [injection E as <- <-; now apply Hp in Ep|now apply Hq in E]. Qed.
Lemma eats_optional {A} (p : parser A) : eats 0 p -> eats 0 (optional p).
Proof. intros Hp t x r E. unfold optional in E. destruct (p t) eqn:Ep; try discriminate; injection E as <- <-; [now apply Hp in Ep|lia]. Qed.
Lemma eats_cut {A} k (p : parser A) : eats k p -> eats k (cut_err p).
Proof. intros Hp t x r E. unfold cut_err in E. destruct (p t) eqn:Ep; try discriminate. injection E as <- <-. now apply Hp in Ep. Qed.
Lemma eats_fail {A} k : eats k (@pfail A).
Proof. intros t x r E. discriminate. Qed.
Lemma eats_panic {A} k : eats k (@ppanic A).
Proof. intros t x r E. discriminate. Qed.
Lemma eats_try_map {A B} k (f : A -> option B) (p : parser A) : eats k p -> eats k (try_map f p).
Proof. intros Hp. apply eats_bind_l; [exact Hp|]. intros x. destruct (f x); [apply eats_ret|apply eats_fail]. Qed.
Lemma eats_char c : eats 1 (char c).
Proof. intros [|d t] x r E; [discriminate|]. cbn in E. destruct (Ascii.eqb d c); [|discriminate]. injection E as _ <-. cbn [List.length]. lia. Qed.
Lemma eats_one_of f : eats 1 (one_of f).
Proof. intros [|d t] x r E; [discriminate|]. cbn in E. destruct (f d); [|discriminate]. injection E as _ <-. cbn [List.length]. lia. Qed.
Lemma eats_tag s : eats (List.length s) (tag s).
Proof. induction s as [|c s IH]; [apply eats_ret|]. change (List.length (c :: s)) with (1 + List.length s)%nat. cbn [tag]. apply eats_bind; [apply eats_char|intros; exact IH]. Qed.
Lemma span_length f t : (List.length (snd (span f t)) <= List.length t)%nat.
Proof. induction t as [|c t IH]; [apply le_n|]. cbn [span]. destruct (f c); [|apply le_n]. destruct (span f t); cbn [snd List.length] in *. lia. Qed.
Lemma eats_space0 : eats 0 space0.
Proof. intros t x r E. injection E as _ <-. pose proof (span_length is_space t). lia. Qed.
Lemma eats_space1 : eats 1 space1.
Proof. apply eats_bind_l; [apply eats_one_of|intros; apply eats_space0]. Qed.
Lemma eats_take {A} k (p : parser A) : eats k p -> eats k (take p).
Proof. intros Hp t x r E. unfold take in E. destruct (p t) eqn:Ep; try discriminate. injection E as _ <-. now apply Hp in Ep. Qed.
Lemma eats_eof : eats 0 eof.
Proof. intros [|c t] x r E; [|discriminate]. injection E as _ <-. cbn. lia. Qed.
Lemma eats_line_ending : eats 1 line_ending.
Proof. apply eats_alt; [apply eats_char|]. apply eats_bind_l; [apply eats_char|]. intros _. apply (eats_less 1); [lia|apply eats_char]. Qed.
Lemma eats_till_line_ending : eats 0 till_line_ending.
Proof.
  intros t x r. unfold till_line_ending. pose proof (span_length (fun c => negb (Ascii.eqb c nl || Ascii.eqb c cr)) t) as H.
  destruct (snd (span _ t)) as [|c s]; [intros E; injection E as _ <-; cbn in *; lia|]. destruct (Ascii.eqb c cr); [destruct s as [|d s]; [discriminate|]; destruct (Ascii.eqb d nl); [|discriminate]|];
    intros E; injection E as _ <-; lia.
Qed.
Lemma eats_digits1 : eats 1 digits1.
Proof. apply eats_bind_l; [apply eats_one_of|]. intros d. apply eats_bind_l; [|intros; apply eats_ret]. intros t x r E. injection E as _ <-. pose proof (span_length is_digit t). lia. Qed.
Lemma eats_numeral : eats 1 numeral.
Proof. apply eats_alt; [apply eats_bind_l; [apply eats_digits1|intros; apply eats_ret]|]. apply eats_bind_l; [apply eats_char|intros; apply eats_ret]. Qed.
Lemma eats_dec_uint hi : eats 1 (dec_uint hi).
Proof.
  apply eats_try_map, eats_alt; [|apply eats_bind_l; [apply eats_char|intros; apply eats_ret]]. apply (eats_bind 0 1); [apply eats_optional; apply (eats_less 1); [lia|apply eats_char]|].
  intros. apply eats_bind_l; [apply eats_digits1|intros; apply eats_ret].
Qed.
Lemma eats_dec_int lo hi : eats 1 (dec_int lo hi).
Proof.
  apply eats_try_map, eats_alt; [|apply eats_bind_l; [apply eats_char|intros; apply eats_ret]]. apply (eats_bind 0 1).
  - apply eats_optional. apply (eats_less 1); [lia|]. apply eats_alt; (apply eats_bind_l; [apply eats_char|intros; apply eats_ret]).
  - intros. apply eats_bind_l; [apply eats_digits1|intros; apply eats_ret].
Qed.

(** [separated]: with enough fuel, more fuel makes no difference *)
Theorem separated_more_fuel {A} (p : parser A) : eats 0 p -> forall f f' acc t, (List.length t < f)%nat -> (List.length t < f')%nat ->
  separated_more f p space1 acc t = separated_more f' p space1 acc t.
Proof.
  intros Hp. induction f as [|f IH]; intros f' acc t Hf Hf'; [lia|]. destruct f' as [|f']; [lia|]. cbn [separated_more].
  destruct (space1 t) as [x r| | |] eqn:Es; try reflexivity. apply eats_space1 in Es. destruct (p r) as [y r'| | |] eqn:Ep; try reflexivity. apply Hp in Ep. apply IH; lia.
Qed.
Lemma eats_separated_more {A} (p : parser A) : eats 0 p -> forall f acc, eats 0 (separated_more f p space1 acc).
Proof.
  intros Hp f. induction f as [|f IH]; intros acc t x r E; [discriminate|]. cbn [separated_more] in E.
  destruct (space1 t) as [y r1| | |] eqn:Es; try discriminate; [|injection E as _ <-; lia]. apply eats_space1 in Es.
  destruct (p r1) as [z r2| | |] eqn:Ep; try discriminate; [|injection E as _ <-; lia]. apply Hp in Ep. apply IH in E. lia.
Qed.
Lemma eats_separated0 {A} (p : parser A) : eats 0 p -> eats 0 (separated0 p space1).
Proof.
  intros Hp t x r E. unfold separated0 in E. destruct (p t) as [y r1| | |] eqn:Ep; try discriminate; [|injection E as _ <-; lia].
  apply Hp in Ep. apply (eats_separated_more p Hp) in E. lia.
Qed.

(** OPB *)
Lemma eats_opb_literal o : eats 1 (opb_literal o).
Proof.
  apply (eats_bind 0 1); [apply eats_optional; apply (eats_less 1); [lia|]; apply eats_alt; apply eats_char|]. intros s. apply eats_bind_l; [|intros; apply eats_ret].
  apply eats_bind_l; [apply eats_char|]. intros _. apply eats_bind_l; [apply (eats_less 1); [lia|]; apply eats_try_map, eats_numeral|].
  intros n. destruct (n <? first_var_idx o)%N; [apply eats_fail|]. destruct (var_new _); [apply eats_ret|apply eats_panic].
Qed.
Lemma eats_term_sum o : eats 0 (term_sum o).
Proof.
  apply eats_separated0. apply eats_bind_l; [apply (eats_less 1); [lia|apply eats_dec_int]|]. intros c. apply eats_bind_l; [apply (eats_less 1); [lia|apply eats_space1]|].
  intros _. apply eats_bind_l; [apply (eats_less 1); [lia|apply eats_opb_literal]|intros; apply eats_ret].
Qed.
Lemma eats_ending : eats 0 ending.
Proof.
  apply eats_bind_l; [apply eats_space0|]. intros _. apply eats_bind_l; [apply eats_optional; apply (eats_less 1); [lia|apply eats_char]|]. intros s.
  apply eats_bind_l; [apply eats_space0|]. intros _. apply eats_bind_l; [|intros e; destruct s, e; (apply eats_ret || apply eats_fail)].
  apply eats_optional, eats_alt; [apply eats_eof|]. apply eats_bind_l; [apply (eats_less 1); [lia|apply eats_line_ending]|intros; apply eats_space0].
Qed.
Lemma eats_operator : eats 1 operator.
Proof. repeat apply eats_alt; (apply eats_bind_l; [eapply eats_less; [|apply eats_tag]; cbn; lia|intros; apply eats_ret]). Qed.
Lemma eats_constraint o : eats 1 (p_constraint o).
Proof.
  apply (eats_bind 0 1); [apply eats_term_sum|]. intros ts. apply (eats_bind 0 1); [apply eats_space0|]. intros _. apply eats_bind_l; [apply eats_operator|]. intros op.
  apply eats_bind_l; [apply eats_space0|]. intros _. apply eats_bind_l; [apply eats_cut; apply (eats_less 1); [lia|apply eats_dec_int]|]. intros b.
  apply eats_bind_l; [apply eats_ending|]. intros _. destruct op; try apply eats_ret; destruct (in_isize (b + 1)); (apply eats_ret || apply eats_panic).
Qed.
Lemma eats_objective o : eats 1 (p_objective o).
Proof.
  apply eats_bind_l.
  - apply eats_alt; (apply eats_bind_l; [eapply eats_less; [|apply eats_tag]; cbn; lia|intros; apply eats_ret]).
  - intros s. apply eats_bind_l; [apply eats_space0|]. intros _. apply eats_bind_l; [apply eats_cut, eats_term_sum|]. intros ts.
    destruct (in_isize _); [|apply eats_panic]. apply eats_bind_l; [apply eats_cut, eats_ending|intros; apply eats_ret].
Qed.
Lemma eats_comment : eats 1 opb_comment.
Proof.
  apply eats_take. apply eats_bind_l; [apply eats_char|]. intros _. apply eats_bind_l; [apply eats_till_line_ending|]. intros _. apply eats_optional.
  apply (eats_less 1); [lia|apply eats_line_ending].
Qed.
Lemma eats_data o : eats 1 (p_data o).
Proof.
  apply (eats_bind 0 1); [apply eats_space0|]. intros _. apply eats_alt; [|apply eats_alt]; (apply eats_bind_l; [|intros; apply eats_ret]).
  - apply eats_comment.
  - apply eats_constraint.
  - apply eats_objective.
Qed.
(** The data of a line: with enough fuel, more fuel makes no difference, so running out of fuel is not the reason for a panic *)
Theorem line_data_fuel o : forall f f' t, (List.length t <= f)%nat -> (List.length t <= f')%nat -> line_data o f t = line_data o f' t.
Proof.
  induction f as [|f IH]; intros f' t Hf Hf'.
  - destruct t; [|cbn in Hf; lia]. now destruct f'.
  - destruct t as [|c t]; [now destruct f'|]. destruct f' as [|f']; [cbn in Hf'; lia|]. cbn [line_data]. destruct (p_data o (c :: t)) as [d r| | |] eqn:E; try reflexivity.
    apply eats_data in E. cbn [List.length] in *. rewrite (IH f' r); [reflexivity|lia..].
Qed.
