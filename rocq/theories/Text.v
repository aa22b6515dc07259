(** * Text and the parser combinators used by the file readers

    Text is a list of ASCII characters. Non-ASCII text and invalid UTF-8 (an IO error in the code) are not modelled.
    The combinators are those of the [winnow] library as used in src/instances/fio/dimacs.rs and src/instances/fio/opb.rs:
    a parser consumes a prefix of the text or fails; a failure lets [alt], [opt] and [separated] try something else
    (backtracking), unless it has been made fatal by [cut_err]. *)

From Coq Require Import List Bool NArith ZArith Ascii String Lia.
Import ListNotations.
Open Scope list_scope.

Definition text : Type := list ascii.
(** String literals as text *)
Definition T (s : string) : text := list_ascii_of_string s.

Definition nl : ascii := "010"%char.
Definition cr : ascii := "013"%char.
Definition tab : ascii := "009"%char.

Definition is_digit (c : ascii) : bool := ((48 <=? N_of_ascii c) && (N_of_ascii c <=? 57))%N.
Definition is_digit19 (c : ascii) : bool := ((49 <=? N_of_ascii c) && (N_of_ascii c <=? 57))%N.
(** [winnow::ascii::space0], [space1]: space and tab *)
Definition is_space (c : ascii) : bool := (Ascii.eqb c " " || Ascii.eqb c tab)%bool.
(** [char::is_whitespace] on ASCII: space and the codes 9 to 13 *)
Definition is_white (c : ascii) : bool := ((N_of_ascii c =? 32) || ((9 <=? N_of_ascii c) && (N_of_ascii c <=? 13)))%N.

Fixpoint text_eqb (s t : text) : bool :=
  match s, t with
  | [], [] => true
  | c :: s', d :: t' => Ascii.eqb c d && text_eqb s' t'
  | _, _ => false
  end.
(** [str::starts_with] *)
Fixpoint starts_with (p t : text) : bool :=
  match p, t with
  | [], _ => true
  | c :: p', d :: t' => Ascii.eqb c d && starts_with p' t'
  | _, [] => false
  end.

(** The longest prefix of characters satisfying [f], and the rest *)
Fixpoint span (f : ascii -> bool) (t : text) : text * text :=
  match t with
  | [] => ([], [])
  | c :: r => if f c then (let s := span f r in (c :: fst s, snd s)) else ([], t)
  end.
Definition trim_start (t : text) : text := snd (span is_white t).
Definition trim_end (t : text) : text := rev (trim_start (rev t)).
Definition trim (t : text) : text := trim_end (trim_start t).

(** [BufRead::read_line] until the end: each line with its line feed *)
Fixpoint read_lines (t : text) : list text :=
  match t with
  | [] => []
  | c :: r => if Ascii.eqb c nl then [c] :: read_lines r
              else match read_lines r with [] => [[c]] | l :: ls => (c :: l) :: ls end
  end.
(** [BufRead::lines], [str::lines]: without the line feed, nor a carriage return before it *)
Definition chomp (t : text) : text :=
  match rev t with
  | c :: r => if Ascii.eqb c nl then match r with d :: r' => if Ascii.eqb d cr then rev r' else rev r | [] => [] end else t
  | [] => []
  end.
Definition lines (t : text) : list text := map chomp (read_lines t).

(** [str::split_whitespace]; [cur] is the current word in reverse *)
Fixpoint words_from (cur : text) (t : text) : list text :=
  match t with
  | [] => match cur with [] => [] | _ => [rev cur] end
  | c :: r => if is_white c then match cur with [] => words_from [] r | _ => rev cur :: words_from [] r end
              else words_from (c :: cur) r
  end.
Definition words (t : text) : list text := words_from [] t.

(** ** Numbers *)

Definition digit_char (d : N) : ascii := ascii_of_N (48 + d).
Definition digit_value (c : ascii) : N := (N_of_ascii c - 48)%N.

(** [Display] of unsigned integers. The fuel suffices ([TextProofs.print_N_value]). *)
Fixpoint print_N_aux (fuel : nat) (n : N) (acc : text) : text :=
  let acc' := digit_char (n mod 10) :: acc in
  if (n <? 10)%N then acc' else match fuel with O => acc' | S f => print_N_aux f (n / 10) acc' end.
Definition print_N (n : N) : text := print_N_aux (N.to_nat (N.log2 n)) n [].
(** [Display] of signed integers *)
Definition print_Z (z : Z) : text := if (z <? 0)%Z then "-"%char :: print_N (Z.abs_N z) else print_N (Z.abs_N z).
Definition print_nat (n : nat) : text := print_N (N.of_nat n).

Definition digits_value (ds : text) : N := fold_left (fun acc c => 10 * acc + digit_value c)%N ds 0%N.

Definition usize_max : N := 18446744073709551615%N.

(** [str::parse::<i32>] and the like: an optional sign and at least one digit, in the given range *)
Definition str_parse_int (lo hi : Z) (t : text) : option Z :=
  let sign_rest := match t with
                   | c :: r => if Ascii.eqb c "-" then ((-1)%Z, r) else if Ascii.eqb c "+" then (1%Z, r) else (1%Z, t)
                   | [] => (1%Z, t)
                   end in
  let '(s, ds) := sign_rest in
  match ds with
  | [] => None
  | _ => if forallb is_digit ds
         then let z := (s * Z.of_N (digits_value ds))%Z in if ((lo <=? z) && (z <=? hi))%Z then Some z else None
         else None
  end.

(** ** Combinators *)

Inductive pres (A : Type) : Type :=
| POk (x : A) (rest : text)
| PBack
| PCut
| PPanic.
Arguments POk {A}. Arguments PBack {A}. Arguments PCut {A}. Arguments PPanic {A}.

Definition parser (A : Type) : Type := text -> pres A.

Definition pret {A} (x : A) : parser A := fun t => POk x t.
Definition pfail {A} : parser A := fun _ => PBack.
Definition ppanic {A} : parser A := fun _ => PPanic.
Definition pbind {A B} (p : parser A) (f : A -> parser B) : parser B :=
  fun t => match p t with POk x r => f x r | PBack => PBack | PCut => PCut | PPanic => PPanic end.
Notation "x <- p ;; q" := (pbind p (fun x => q)) (at level 100, p at next level, right associativity).
Notation "p ;;; q" := (pbind p (fun _ => q)) (at level 100, right associativity).
Definition cut_err {A} (p : parser A) : parser A := fun t => match p t with PBack => PCut | r => r end.
Definition alt {A} (p q : parser A) : parser A := fun t => match p t with PBack => q t | r => r end.
(** [opt] *)
Definition optional {A} (p : parser A) : parser (option A) :=
  fun t => match p t with POk x r => POk (Some x) r | PBack => POk None t | PCut => PCut | PPanic => PPanic end.
(** [try_map], [verify_map]: failure of the function backtracks *)
Definition try_map {A B} (f : A -> option B) (p : parser A) : parser B :=
  x <- p ;; match f x with Some y => pret y | None => pfail end.

Definition char (c : ascii) : parser unit :=
  fun t => match t with d :: r => if Ascii.eqb d c then POk tt r else PBack | [] => PBack end.
Definition one_of (f : ascii -> bool) : parser ascii :=
  fun t => match t with d :: r => if f d then POk d r else PBack | [] => PBack end.
Fixpoint tag (s : text) : parser unit :=
  match s with [] => pret tt | c :: s' => char c ;;; tag s' end.
Definition space0 : parser unit := fun t => POk tt (snd (span is_space t)).
Definition space1 : parser unit := one_of is_space ;;; space0.
(** [Parser::take]: the text that was consumed *)
Definition take {A} (p : parser A) : parser text :=
  fun t => match p t with
           | POk _ r => POk (firstn (List.length t - List.length r) t) r
           | PBack => PBack | PCut => PCut | PPanic => PPanic
           end.
Definition eof : parser unit := fun t => match t with [] => POk tt [] | _ => PBack end.
Definition line_ending : parser unit := alt (char nl) (char cr ;;; char nl).
(** [till_line_ending] stops before a line ending; a carriage return that is not part of one is an error *)
Definition till_line_ending : parser unit :=
  fun t => match snd (span (fun c => negb (Ascii.eqb c nl || Ascii.eqb c cr)) t) with
           | c :: r => if Ascii.eqb c cr then match r with d :: _ => if Ascii.eqb d nl then POk tt (c :: r) else PBack | [] => PBack end
                       else POk tt (c :: r)
           | [] => POk tt []
           end.

Definition digit0 : parser text := fun t => POk (fst (span is_digit t)) (snd (span is_digit t)).
(** A number without leading zeros *)
Definition digits1 : parser text := d <- one_of is_digit19 ;; ds <- digit0 ;; pret (d :: ds).
Definition numeral : parser N := alt (ds <- digits1 ;; pret (digits_value ds)) (char "0" ;;; pret 0%N).
(** [dec_uint]; a [+] is accepted in front of a non-zero number (dimacs.rs:825 "intentionally accepting + signs") *)
Definition dec_uint (hi : N) : parser N :=
  try_map (fun n => if (n <=? hi)%N then Some n else None)
          (alt (optional (char "+") ;;; (ds <- digits1 ;; pret (digits_value ds))) (char "0" ;;; pret 0%N)).
(** [dec_int] *)
Definition dec_int (lo hi : Z) : parser Z :=
  try_map (fun z => if ((lo <=? z) && (z <=? hi))%Z then Some z else None)
          (alt (s <- optional (alt (char "+" ;;; pret 1%Z) (char "-" ;;; pret (-1)%Z)) ;;
                ds <- digits1 ;; pret ((match s with Some k => k | None => 1 end) * Z.of_N (digits_value ds))%Z)
               (char "0" ;;; pret 0%Z)).

(** [separated(0.., p, sep)]: a list of [p] separated by [sep]. If [sep] is not followed by [p], it is not consumed.
    A separator that consumes nothing is an error in winnow; the separator used here is always [space1].
    Running out of fuel is a panic; it does not happen ([ParserFuel.separated_more_fuel]). *)
Fixpoint separated_more {A} (fuel : nat) (p : parser A) (sep : parser unit) (acc : list A) (t : text) : pres (list A) :=
  match fuel with
  | O => PPanic
  | S f =>
    match sep t with
    | PBack => POk (rev acc) t
    | PCut => PCut
    | PPanic => PPanic
    | POk _ r => match p r with
                 | PBack => POk (rev acc) t
                 | PCut => PCut
                 | PPanic => PPanic
                 | POk x r' => separated_more f p sep (x :: acc) r'
                 end
    end
  end.
Definition separated0 {A} (p : parser A) (sep : parser unit) : parser (list A) :=
  fun t => match p t with
           | PBack => POk [] t
           | PCut => PCut
           | PPanic => PPanic
           | POk x r => separated_more (S (List.length r)) p sep [x] r
           end.

(** [Parser::parse]: the whole text must be consumed *)
Inductive res (A : Type) : Type := ROk (x : A) | RErr | RPanic.
Arguments ROk {A}. Arguments RErr {A}. Arguments RPanic {A}.
Definition parse_all {A} (p : parser A) (t : text) : res A :=
  match p t with POk x [] => ROk x | POk _ _ | PBack | PCut => RErr | PPanic => RPanic end.

(** ** Reading a file line by line *)

(** dimacs.rs:74-91 [Parser::read_line] and the trimming of the line: the lines that are not blank, trimmed *)
Definition body_lines (t : text) : list text :=
  filter (fun l => negb (text_eqb l [])) (map trim (read_lines t)).

(** Collecting an iterator of results; the first error ends it *)
Fixpoint collect {A B} (f : A -> res B) (xs : list A) : res (list B) :=
  match xs with
  | [] => ROk []
  | x :: r => match f x with
              | ROk y => match collect f r with ROk ys => ROk (y :: ys) | RErr => RErr | RPanic => RPanic end
              | RErr => RErr
              | RPanic => RPanic
              end
  end.
