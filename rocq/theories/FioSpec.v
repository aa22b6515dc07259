(** * Specification vocabulary for reading and writing files *)

From Coq Require Import List Bool NArith ZArith Ascii.
From Verif Require Import Spec Types Inst Opt OptSpec Text.
Import ListNotations.

(** The soft clauses of an objective with their weights; a soft literal [l] is the soft clause [neg l] *)
Definition obj_softs (o : obj) : list (clause * nat) := map (fun e => ([neg (fst e)], snd e)) (obj_lits o) ++ obj_cls o.
(** The total weight of a clause in a list of soft clauses *)
Definition soft_weight (c : clause) (ss : list (clause * nat)) : nat :=
  list_sum (map snd (filter (fun e => clause_eqb (fst e) c) ss)).
(** The two lists give every clause the same weight *)
Definition same_softs (ss ss' : list (clause * nat)) : Prop := forall c, soft_weight c ss = soft_weight c ss'.

(** All variables have a DIMACS number, at most [i32::MAX] *)
Definition dimacs_lits (ls : list lit) : Prop := lits_below 2147483647 ls.
(** The number fits in a [usize] *)
Definition is_usize (n : nat) : Prop := (N.of_nat n <= usize_max)%N.
(** A text without line feeds and carriage returns *)
Definition one_line (t : text) : Prop := forall c, In c t -> c <> nl /\ c <> cr.

(** ** Well-formed DIMACS files, with arbitrary spacing, comments, blank lines and line endings *)

Definition blanks (t : text) : Prop := forall c, In c t -> c = " "%char \/ c = tab.
Definition blanks1 (t : text) : Prop := blanks t /\ t <> [].
(** White space without line feed; a carriage return is allowed *)
Definition white (t : text) : Prop := forall c, In c t -> is_white c = true /\ c <> nl.

(** The DIMACS number of a literal *)
Definition lit_text (l : lit) : text := (if lneg l then ["-"%char] else []) ++ print_N (lvar l + 1).
(** Literals, each followed by blanks *)
Fixpoint lits_text (c : clause) (t : text) : Prop :=
  match c with
  | [] => t = []
  | l :: c' => exists sp t', (lvar l < 2147483647)%N /\ blanks1 sp /\ lits_text c' t' /\ t = lit_text l ++ sp ++ t'
  end.
(** A clause ends with 0 *)
Definition clause_text (c : clause) (t : text) : Prop := exists s, lits_text c s /\ t = s ++ ["0"%char].
(** [h 1 2 0] *)
Definition hard_text (c : clause) (t : text) : Prop := exists sp s, blanks1 sp /\ clause_text c s /\ t = "h"%char :: sp ++ s.
(** [5 1 2 0] *)
Definition soft_text (w : nat) (c : clause) (t : text) : Prop :=
  exists sp s, is_usize w /\ blanks1 sp /\ clause_text c s /\ t = print_nat w ++ sp ++ s.
(** [o2 5 1 2 0]; the objectives are counted from 1 *)
Definition mo_soft_text (idx w : nat) (c : clause) (t : text) : Prop :=
  exists sp0 sp1 sp2 s, (1 <= idx)%nat /\ is_usize idx /\ is_usize w /\ blanks sp0 /\ blanks1 sp1 /\ blanks1 sp2 /\ clause_text c s /\
    t = "o"%char :: sp0 ++ print_nat idx ++ sp1 ++ print_nat w ++ sp2 ++ s.
(** [p cnf 3 2] *)
Definition cnf_header_text (n m : N) (t : text) : Prop :=
  exists sp1 sp2 sp3, (n <= u32_max)%N /\ (m <= usize_max)%N /\ blanks1 sp1 /\ blanks1 sp2 /\ blanks1 sp3 /\
    t = "p"%char :: sp1 ++ ["c"; "n"; "f"]%char ++ sp2 ++ print_N n ++ sp3 ++ print_N m.
(** [p wcnf 3 2 10] *)
Definition wcnf_header_text (n m top : N) (t : text) : Prop :=
  exists sp1 sp2 sp3 sp4, (n <= u32_max)%N /\ (m <= usize_max)%N /\ (top <= usize_max)%N /\ blanks1 sp1 /\ blanks1 sp2 /\ blanks1 sp3 /\ blanks1 sp4 /\
    t = "p"%char :: sp1 ++ ["w"; "c"; "n"; "f"]%char ++ sp2 ++ print_N n ++ sp3 ++ print_N m ++ sp4 ++ print_N top.
(** A comment, without a line end and without white space at the end *)
Definition comment_text (t : text) : Prop := one_line t /\ (exists s, t = "c"%char :: s) /\ is_white (last t " "%char) = false.

(** A line with the given content: surrounded by white space *)
Definition line_with (content line : text) : Prop := exists w w', white w /\ white w' /\ line = w ++ content ++ w'.
(** A line that is blank, a comment, or other content that means [d] ([None]: nothing) *)
Definition line_means {D} (comment_means : text -> option D) (content : D -> text -> Prop) (d : option D) (line : text) : Prop :=
  (white line /\ d = None) \/
  (exists s, comment_text s /\ line_with s line /\ d = comment_means s) \/
  (exists x s, content x s /\ line_with s line /\ d = Some x).

(** The lines of a text; the last line may be without line feed *)
Definition lines_of (ls : list text) (t : text) : Prop :=
  t = flat_map (fun l => l ++ [nl]) ls \/ exists ls' l, ls = ls' ++ [l] /\ l <> [] /\ t = flat_map (fun l => l ++ [nl]) ls' ++ l.
(** The values that are there *)
Definition present {A} (xs : list (option A)) : list A := flat_map (fun x => match x with Some a => [a] | None => [] end) xs.
