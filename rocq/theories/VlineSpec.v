(** * Specification vocabulary for value lines and solver output *)

From Coq Require Import List Bool NArith ZArith Ascii String.
From Verif Require Import Spec Types Text FioSpec OpbSpec.
Import ListNotations.
Open Scope list_scope.
Open Scope char_scope.

(** Words, each after blanks; blanks may follow the last *)
Inductive words_text : list text -> text -> Prop :=
| WEnd sp : blanks sp -> words_text [] sp
| WWord sp w ws t : blanks1 sp -> words_text ws t -> words_text (w :: ws) (sp ++ w ++ t).

(** A word of a SAT competition line: a DIMACS number, or the end marker 0 *)
Definition sat_word (x : option lit) (w : text) : Prop :=
  match x with Some l => (lvar l < 2147483647)%N /\ w = lit_text l | None => w = T "0" end.
(** [v 1 -2 3 0] *)
Definition sat_vline (xs : list (option lit)) (t : text) : Prop :=
  exists ws s, Forall2 sat_word xs ws /\ words_text ws s /\ t = "v" :: s.
(** [v x1 -x2 x3], at least one literal *)
Definition pb_vline (ls : list lit) (t : text) : Prop :=
  ls <> [] /\ exists ws s, Forall2 (opb_lit_text 1) ls ws /\ words_text ws s /\ t = "v" :: s.
(** [v 101], one character for each variable *)
Definition bits_text (bs : list bool) : text := map (fun b : bool => if b then "1" else "0") bs.
Definition bits_vline (bs : list bool) (t : text) : Prop := words_text [bits_text bs] (tl t) /\ t = "v" :: tl t.

(** A SAT competition line that also is a line of the MaxSAT evaluation: a single number with digits 0 and 1 only, not 0 itself *)
Definition looks_like_bits (xs : list (option lit)) : Prop :=
  exists l, xs = [Some l] /\ forall c, In c (lit_text l) -> c = "0" \/ c = "1".

(** The assignment gives exactly the listed literals the value true *)
Definition describes (s : assignment) (ls : list lit) : Prop :=
  forall v b, pasg_of s v = Some b <-> In (mkLit v (negb b)) ls.
(** No variable occurs twice *)
Definition distinct_vars (ls : list lit) : Prop := NoDup (map lvar ls).
(** A variable with both values *)
Definition both_values (ls : list lit) : Prop := exists v, In (pos v) ls /\ In (negl v) ls.
(** A variable is made false and, with nothing about it in between, occurs again *)
Definition false_repeated (ls : list lit) : Prop :=
  exists l1 v l2 x l3, ls = l1 ++ negl v :: l2 ++ x :: l3 /\ lvar x = v /\ ~ In v (map lvar l2).

(** ** Solver output *)

(** The lines of the output: a value line, the line [s SATISFIABLE], or anything that is neither a value nor a status line *)
Inductive out_line : Type := LSat | LSatVals (xs : list (option lit)) | LPbVals (ls : list lit) | LBits (bs : list bool) | LOther.
Definition other_text (t : text) : Prop := one_line t /\ (forall r, t <> "s" :: " " :: r) /\ (forall r, t <> "v" :: " " :: r).
(** [s ANSWER], blanks may follow *)
Definition status_text (answer t : text) : Prop :=
  exists sp sp', blanks sp /\ blanks sp' /\ t = T "s " ++ sp ++ answer ++ sp'.
(** The value line starts with v and a space *)
Definition v_space (t : text) : Prop := exists r, t = "v" :: " " :: r.
Definition out_line_text (k : out_line) (t : text) : Prop :=
  match k with
  | LSat => status_text (T "SATISFIABLE") t
  | LSatVals xs => v_space t /\ sat_vline xs t
  | LPbVals ls => v_space t /\ pb_vline ls t
  | LBits bs => v_space t /\ bits_vline bs t
  | LOther => other_text t
  end.
(** Lines with line ends; the last one may be missing *)
Inductive lines_text : list text -> text -> Prop :=
| LNone : lines_text [] []
| LLast l : l <> [] -> lines_text [l] l
| LLine l e ls t : e = [nl] \/ e = [cr; nl] -> lines_text ls t -> lines_text (l :: ls) (l ++ e ++ t).
Definition output_text (ks : list out_line) (t : text) : Prop :=
  exists ls, Forall2 out_line_text ks ls /\ lines_text ls t.

(** The literals and the characters of the value lines *)
Definition out_lits (ks : list out_line) : list lit :=
  flat_map (fun k => match k with LSatVals xs => present xs | LPbVals ls => ls | _ => [] end) ks.
Definition out_bits (ks : list out_line) : list bool :=
  flat_map (fun k => match k with LBits bs => bs | _ => [] end) ks.
Definition is_value_line (k : out_line) : Prop := match k with LSat | LOther => False | _ => True end.
