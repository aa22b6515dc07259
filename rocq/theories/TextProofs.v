(** * Lemmas about text, numbers and parser combinators *)

From Coq Require Import List Bool NArith ZArith Ascii String Lia.
From Coq Require Import ZifyBool ZifyNat ZifyN.
From Verif Require Import Spec Types Base Text.
Import ListNotations.
Open Scope list_scope.

(** The text is empty or its first character does not satisfy [f] *)
Definition stops (f : ascii -> bool) (t : text) : Prop := match t with [] => True | c :: _ => f c = false end.
Definition starts (f : ascii -> bool) (t : text) : Prop := match t with [] => False | c :: _ => f c = true end.

Lemma span_app f s t : forallb f s = true -> stops f t -> span f (s ++ t) = (s, t).
Proof.
  intros Hs Ht. induction s as [|c s IH]; cbn in *.
  - destruct t as [|c t]; [reflexivity|]. cbn in *. now rewrite Ht.
  - apply andb_true_iff in Hs as [Hc Hs]. rewrite Hc, (IH Hs). reflexivity.
Qed.

Lemma span_stop f t : stops f t -> span f t = ([], t).
Proof. intros H. exact (span_app f [] t eq_refl H). Qed.

(** ** Numbers *)

Lemma code_digit d : (d < 10)%N -> N_of_ascii (digit_char d) = (48 + d)%N.
Proof. intros H. apply N_ascii_embedding. lia. Qed.
Lemma digit_is d : (d < 10)%N -> is_digit (digit_char d) = true.
Proof. intros H. unfold is_digit. rewrite code_digit by assumption. lia. Qed.
Lemma digit19_is d : (d < 10)%N -> (0 < d)%N -> is_digit19 (digit_char d) = true.
Proof. intros H H0. unfold is_digit19. rewrite code_digit by assumption. lia. Qed.
Lemma digit_value_char d : (d < 10)%N -> digit_value (digit_char d) = d.
Proof. intros H. unfold digit_value. rewrite code_digit by assumption. lia. Qed.

Lemma digits_value_snoc ds c : digits_value (ds ++ [c]) = (10 * digits_value ds + digit_value c)%N.
Proof. unfold digits_value. now rewrite fold_left_app. Qed.

(** What the digits of a number look like *)
Definition numeral_of (n : N) (ds : text) : Prop :=
  forallb is_digit ds = true /\ digits_value ds = n /\
  ((n = 0%N /\ ds = ["0"%char]) \/ ((0 < n)%N /\ starts is_digit19 ds)).

Lemma print_N_aux_spec f : forall n acc, (N.log2 n <= N.of_nat f)%N ->
  exists ds, print_N_aux f n acc = ds ++ acc /\ numeral_of n ds.
Proof.
  induction f as [|f IH]; intros n acc Hf.
  - assert (n < 2)%N as Hn.
    { destruct (N.lt_ge_cases n 2); [assumption|]. pose proof (N.log2_le_mono 2 n H) as H2.
      change (N.log2 2) with 1%N in H2. lia. }
    cbn [print_N_aux]. replace (n <? 10)%N with true by lia.
    exists [digit_char (n mod 10)]. split; [reflexivity|].
    rewrite N.mod_small by lia. unfold numeral_of. cbn [forallb digits_value fold_left starts].
    rewrite digit_is, digit_value_char by lia.
    split; [reflexivity|]. split; [lia|]. destruct (N.eq_dec n 0) as [->|]; [left; now split|right; split; [lia|]]. apply digit19_is; lia.
  - cbn [print_N_aux]. destruct (n <? 10)%N eqn:E.
    + exists [digit_char (n mod 10)]. split; [reflexivity|].
      rewrite N.mod_small by lia. unfold numeral_of. cbn [forallb digits_value fold_left starts].
      rewrite digit_is, digit_value_char by lia.
      split; [reflexivity|]. split; [lia|]. destruct (N.eq_dec n 0) as [->|]; [left; now split|right; split; [lia|]]. apply digit19_is; lia.
    + assert (N.log2 (n / 10) <= N.of_nat f)%N as Hl.
      { assert (n / 10 <= n / 2)%N as H1 by lia.
        apply N.log2_le_mono in H1. rewrite <- N.div2_div in H1.
        assert (N.log2 (N.div2 n) = N.pred (N.log2 n)) as H2.
        { rewrite N.div2_spec, N.log2_shiftr. lia. }
        lia. }
      destruct (IH (n / 10)%N (digit_char (n mod 10) :: acc) Hl) as (ds & -> & Hd & Hv & Hs).
      exists (ds ++ [digit_char (n mod 10)]). split; [now rewrite <- app_assoc|].
      assert (n mod 10 < 10)%N as Hm by lia.
      split; [|split].
      * rewrite forallb_app, Hd. cbn. now rewrite digit_is.
      * rewrite digits_value_snoc, digit_value_char, Hv by assumption. lia.
      * right. split; [lia|]. destruct Hs as [[H0 _]|[_ Hs]]; [lia|]. now destruct ds.
Qed.

Lemma print_N_spec n : numeral_of n (print_N n).
Proof.
  unfold print_N. destruct (print_N_aux_spec (N.to_nat (N.log2 n)) n []) as (ds & -> & H); [lia|].
  now rewrite app_nil_r.
Qed.
Lemma print_N_value n : digits_value (print_N n) = n.
Proof. apply (print_N_spec n). Qed.
Lemma print_N_digits n : forallb is_digit (print_N n) = true.
Proof. apply (print_N_spec n). Qed.
Lemma print_N_0 : print_N 0 = ["0"%char].
Proof. reflexivity. Qed.
Lemma print_N_pos n : (0 < n)%N -> exists d ds, print_N n = d :: ds /\ is_digit19 d = true /\ forallb is_digit ds = true.
Proof.
  intros H. destruct (print_N_spec n) as (Hd & _ & [[H0 _]|[_ Hs]]); [lia|].
  destruct (print_N n) as [|d ds]; [easy|]. cbn in *. exists d, ds. repeat split; [assumption|].
  now apply andb_true_iff in Hd.
Qed.
Lemma print_N_not_nil n : print_N n <> [].
Proof. destruct (print_N_spec n) as (_ & _ & [[_ ->]|[_ Hs]]); [discriminate|]. destruct (print_N n); [easy|discriminate]. Qed.

Lemma digit19_digit c : is_digit19 c = true -> is_digit c = true.
Proof. unfold is_digit19, is_digit. lia. Qed.
Lemma digit_not_char c d : is_digit c = true -> is_digit d = false -> Ascii.eqb c d = false.
Proof. intros Hc Hd. destruct (Ascii.eqb_spec c d) as [->|]; congruence. Qed.

Lemma one_of_cons f c t : f c = true -> one_of f (c :: t) = POk c t.
Proof. intros H. cbn. now rewrite H. Qed.
Lemma char_cons c t : char c (c :: t) = POk tt t.
Proof. cbn. now rewrite Ascii.eqb_refl. Qed.

Lemma digits1_print n t : (0 < n)%N -> stops is_digit t -> digits1 (print_N n ++ t) = POk (print_N n) t.
Proof.
  intros Hn Ht. destruct (print_N_pos n Hn) as (d & ds & -> & Hd & Hds).
  unfold digits1, pbind, digit0, pret. cbn [app]. rewrite one_of_cons by assumption.
  now rewrite span_app.
Qed.
Lemma digits1_zero t : digits1 ("0"%char :: t) = PBack.
Proof. reflexivity. Qed.

Lemma dec_uint_print hi n t : (n <= hi)%N -> stops is_digit t -> dec_uint hi (print_N n ++ t) = POk n t.
Proof.
  intros Hn Ht. unfold dec_uint, try_map, pbind, alt.
  destruct (N.eq_dec n 0) as [->|H0].
  - change (print_N 0 ++ t) with ("0"%char :: t). cbn [optional char Ascii.eqb].
    unfold optional, char. cbn -[digits1]. rewrite digits1_zero. unfold pret. replace (0 <=? hi)%N with true by lia. reflexivity.
  - assert (optional (char "+") (print_N n ++ t) = POk None (print_N n ++ t)) as ->.
    { destruct (print_N_pos n) as (d & ds & -> & Hd & _); [lia|].
      unfold optional, char. cbn [app]. apply digit19_digit in Hd.
      now rewrite (digit_not_char d) by easy. }
    rewrite digits1_print by (try lia; assumption). unfold pret. rewrite print_N_value.
    replace (n <=? hi)%N with true by lia. reflexivity.
Qed.

Lemma dec_int_print lo hi z t : (lo <= z <= hi)%Z -> stops is_digit t -> dec_int lo hi (print_Z z ++ t) = POk z t.
Proof.
  intros Hz Ht. unfold dec_int, try_map, pbind, alt, print_Z.
  destruct (z <? 0)%Z eqn:E.
  - unfold optional, char, pret. cbn [app]. cbn [Ascii.eqb]. cbn -[digits1 print_N Z.mul].
    rewrite digits1_print by (try lia; assumption). rewrite print_N_value.
    replace (-1 * Z.of_N (Z.abs_N z))%Z with z by lia. replace ((lo <=? z) && (z <=? hi))%Z%bool with true by lia. reflexivity.
  - destruct (Z.eq_dec z 0) as [->|H0].
    + change (print_N (Z.abs_N 0) ++ t) with ("0"%char :: t). unfold optional, char. cbn -[digits1 Z.leb].
      rewrite digits1_zero. unfold pret. replace ((lo <=? 0) && (0 <=? hi))%Z%bool with true by lia. reflexivity.
    + assert (forall A (x y : A), optional (fun t0 => match match char "+" t0 with POk _ r => pret x r | PBack => PBack | PCut => PCut | PPanic => PPanic end with
         | PBack => match char "-" t0 with POk _ r => pret y r | PBack => PBack | PCut => PCut | PPanic => PPanic end
         | r => r end) (print_N (Z.abs_N z) ++ t) = POk None (print_N (Z.abs_N z) ++ t)) as Hs.
      { intros A x y. destruct (print_N_pos (Z.abs_N z)) as (d & ds & -> & Hd & _); [lia|].
        unfold optional, char. cbn [app]. apply digit19_digit in Hd.
        now rewrite !(digit_not_char d) by easy. }
      rewrite Hs. rewrite digits1_print by (try lia; assumption). unfold pret. rewrite print_N_value.
      replace (1 * Z.of_N (Z.abs_N z))%Z with z by lia. replace ((lo <=? z) && (z <=? hi))%Z%bool with true by lia. reflexivity.
Qed.

(** The first character of a printed number *)
Lemma print_N_starts n t : starts is_digit (print_N n ++ t).
Proof.
  pose proof (print_N_digits n) as H. pose proof (print_N_not_nil n). destruct (print_N n); [easy|].
  cbn in *. now apply andb_true_iff in H.
Qed.
Definition is_number_start (c : ascii) : bool := is_digit c || Ascii.eqb c "-".
Lemma print_Z_starts z t : starts is_number_start (print_Z z ++ t).
Proof.
  unfold print_Z. destruct (z <? 0)%Z; [reflexivity|].
  pose proof (print_N_starts (Z.abs_N z) t). destruct (print_N (Z.abs_N z) ++ t); [easy|].
  cbn in *. unfold is_number_start. now rewrite H.
Qed.

(** ** Spaces and separated lists *)

Definition spaces (s : text) : Prop := forallb is_space s = true.
Lemma space0_app s t : spaces s -> stops is_space t -> space0 (s ++ t) = POk tt t.
Proof. intros Hs Ht. unfold space0. now rewrite span_app. Qed.
Lemma space0_stop t : stops is_space t -> space0 t = POk tt t.
Proof. intros Ht. exact (space0_app [] t eq_refl Ht). Qed.
Lemma space1_app s t : spaces s -> s <> [] -> stops is_space t -> space1 (s ++ t) = POk tt t.
Proof.
  intros Hs Hn Ht. destruct s as [|c s]; [easy|]. unfold spaces in Hs. cbn in Hs. apply andb_true_iff in Hs as [Hc Hs].
  unfold space1, pbind. cbn [app]. rewrite one_of_cons by assumption. now apply space0_app.
Qed.
Lemma space1_stop t : stops is_space t -> space1 t = PBack.
Proof. intros H. unfold space1, pbind, one_of. destruct t as [|c t]; [reflexivity|]. cbn in *. now rewrite H. Qed.

(** What is left after the list: either no separator, or a separator without a further element *)
Definition ends_list {A} (p : parser A) (t : text) : Prop :=
  match space1 t with PBack => True | POk _ r => p r = PBack | _ => False end.

Lemma separated_more_ok {A} (p : parser A) (stop : text -> Prop) (items : list (text * text * A)) :
  (forall s t, spaces s -> s <> [] -> stop (s ++ t)) ->
  (forall s tx x, In (s, tx, x) items -> spaces s /\ s <> [] /\ (forall r, stops is_space (tx ++ r)) /\ (forall r, stop r -> p (tx ++ r) = POk x r)) ->
  forall fuel acc tl, stop tl -> ends_list p tl -> (List.length items < fuel)%nat ->
  separated_more fuel p space1 acc (flat_map (fun i => fst (fst i) ++ snd (fst i)) items ++ tl) = POk (rev acc ++ map snd items) tl.
Proof.
  intros Hstop. induction items as [|[[s tx] x] items IH]; intros Hi fuel acc tl Htl Hend Hf.
  - cbn. rewrite app_nil_r. destruct fuel as [|fuel]; [cbn in Hf; lia|]. cbn [separated_more].
    unfold ends_list in Hend. destruct (space1 tl); try easy. now rewrite Hend.
  - destruct fuel as [|fuel]; [cbn in Hf; lia|].
    destruct (Hi s tx x (or_introl eq_refl)) as (Hs & Hs0 & Htx & Hp).
    cbn [flat_map fst snd map separated_more]. rewrite <- !app_assoc.
    rewrite space1_app; [|assumption..|apply Htx].
    rewrite Hp.
    + rewrite IH; [|intros; apply Hi; now right|assumption..|cbn in Hf; lia]. cbn. now rewrite <- app_assoc.
    + destruct items as [|[[s' tx'] x'] items]; [exact Htl|]. cbn [flat_map fst snd]. rewrite <- !app_assoc.
      destruct (Hi s' tx' x') as (Hs' & Hs0' & _); [right; now left|]. now apply Hstop.
Qed.

Lemma separated0_nil {A} (p : parser A) t : p t = PBack -> separated0 p space1 t = POk [] t.
Proof. unfold separated0. now intros ->. Qed.

Lemma items_length {A} (items : list (text * text * A)) tl :
  (forall s tx x, In (s, tx, x) items -> s <> []) ->
  (List.length items <= List.length (flat_map (fun i => fst (fst i) ++ snd (fst i)) items ++ tl))%nat.
Proof.
  intros H. induction items as [|[[s tx] x] items IH]; [cbn; lia|].
  cbn [flat_map fst snd List.length]. rewrite !app_length in *.
  assert (s <> []) by (apply (H s tx x); now left). destruct s; [easy|].
  cbn. assert (forall s tx x, In (s, tx, x) items -> s <> []) as H' by (intros; eapply H; right; eassumption).
  specialize (IH H'). lia.
Qed.

Lemma separated0_cons {A} (p : parser A) (stop : text -> Prop) tx0 x0 (items : list (text * text * A)) tl :
  (forall s t, spaces s -> s <> [] -> stop (s ++ t)) ->
  (forall r, stop r -> p (tx0 ++ r) = POk x0 r) ->
  (forall s tx x, In (s, tx, x) items -> spaces s /\ s <> [] /\ (forall r, stops is_space (tx ++ r)) /\ (forall r, stop r -> p (tx ++ r) = POk x r)) ->
  stop tl -> ends_list p tl ->
  separated0 p space1 (tx0 ++ flat_map (fun i => fst (fst i) ++ snd (fst i)) items ++ tl) = POk (x0 :: map snd items) tl.
Proof.
  intros Hstop H0 Hi Htl Hend. unfold separated0. rewrite H0.
  - rewrite (separated_more_ok p stop); try assumption; [reflexivity|].
    enough (List.length items <= List.length (flat_map (fun i => fst (fst i) ++ snd (fst i)) items ++ tl))%nat by lia.
    apply items_length. intros s tx x H. now apply (Hi s tx x).
  - destruct items as [|[[s' tx'] x'] items]; [exact Htl|]. cbn [flat_map fst snd]. rewrite <- !app_assoc.
    destruct (Hi s' tx' x') as (Hs' & Hs0' & _); [now left|]. now apply Hstop.
Qed.

(** ** Lines *)

Definition no_nl (t : text) : Prop := ~ In nl t.

Lemma read_lines_line t r : no_nl t -> read_lines (t ++ nl :: r) = (t ++ [nl]) :: read_lines r.
Proof.
  unfold no_nl. induction t as [|c t IH]; intros H.
  - reflexivity.
  - cbn [app read_lines]. destruct (Ascii.eqb_spec c nl) as [->|]; [destruct H; now left|].
    rewrite IH by (intros H'; apply H; now right). reflexivity.
Qed.
Lemma read_lines_lines ls r : Forall no_nl ls -> read_lines (flat_map (fun l => l ++ [nl]) ls ++ r) = map (fun l => l ++ [nl]) ls ++ read_lines r.
Proof.
  induction 1 as [|l ls Hl Hls IH]; [reflexivity|].
  cbn [flat_map map]. rewrite <- !app_assoc. cbn [app]. rewrite read_lines_line by assumption. now rewrite IH.
Qed.
Lemma read_lines_last t : no_nl t -> t <> [] -> read_lines t = [t].
Proof.
  unfold no_nl. induction t as [|c t IH]; intros H Hn; [easy|]. cbn [read_lines].
  destruct (Ascii.eqb_spec c nl) as [->|]; [destruct H; now left|].
  destruct t as [|d t]; [reflexivity|]. rewrite IH; [reflexivity| |discriminate]. intros H'. apply H. now right.
Qed.

(** The text neither starts nor ends with white space *)
Definition tight (t : text) : Prop := stops is_white t /\ stops is_white (rev t).

Lemma trim_start_white w t : forallb is_white w = true -> stops is_white t -> trim_start (w ++ t) = t.
Proof. intros Hw Ht. unfold trim_start. now rewrite span_app. Qed.
Lemma trim_tight w t w' : forallb is_white w = true -> forallb is_white w' = true -> tight t -> trim (w ++ t ++ w') = t.
Proof.
  intros Hw Hw' [H1 H2]. unfold trim. destruct t as [|c t].
  - cbn [app]. assert (trim_start (w ++ w') = []) as ->.
    { rewrite <- (app_nil_r (w ++ w')). apply trim_start_white; [|exact Logic.I]. now rewrite forallb_app, Hw, Hw'. }
    reflexivity.
  - rewrite trim_start_white; [|assumption..]. unfold trim_end. rewrite rev_app_distr, trim_start_white.
    + apply rev_involutive.
    + rewrite forallb_forall in *. intros x Hx. apply Hw'. now apply in_rev.
    + exact H2.
Qed.
Lemma trim_line t : tight t -> trim (t ++ [nl]) = t.
Proof. intros H. exact (trim_tight [] t [nl] eq_refl eq_refl H). Qed.

Lemma text_eqb_eq s t : text_eqb s t = true <-> s = t.
Proof.
  revert t. induction s as [|c s IH]; destruct t as [|d t]; cbn; try easy.
  rewrite andb_true_iff, Ascii.eqb_eq, IH. split; [intros [-> ->]; reflexivity|]. intros H. inversion H; auto.
Qed.

(** The lines of a file written line by line *)
Lemma body_lines_written ls : Forall (fun l => no_nl l /\ tight l /\ l <> []) ls -> body_lines (flat_map (fun l => l ++ [nl]) ls) = ls.
Proof.
  intros H. unfold body_lines. rewrite <- (app_nil_r (flat_map _ ls)), read_lines_lines.
  - cbn [read_lines]. rewrite app_nil_r, map_map.
    induction H as [|l ls (Hn & Ht & He) _ IH]; [reflexivity|].
    cbn [map filter]. rewrite trim_line by assumption.
    destruct (text_eqb l []) eqn:E; [apply text_eqb_eq in E; congruence|]. cbn [negb]. now rewrite IH.
  - eapply Forall_impl; [|exact H]. now intros l (Hl & _).
Qed.

Lemma parse_all_ok {A} (p : parser A) t x : p t = POk x [] -> parse_all p t = ROk x.
Proof. unfold parse_all. now intros ->. Qed.

Lemma collect_ok {A B} (f : A -> res B) xs ys : Forall2 (fun x y => f x = ROk y) xs ys -> collect f xs = ROk ys.
Proof. induction 1 as [|x y xs ys H _ IH]; [reflexivity|]. cbn. now rewrite H, IH. Qed.
