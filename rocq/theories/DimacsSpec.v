(** * Specification of the contents of DIMACS files *)

From Coq Require Import List Bool NArith Ascii.
From Verif Require Import Spec Text FioSpec Dimacs.
Import ListNotations.

(** Blank lines and comments *)
Definition comment_lines (ls : list text) : Prop := forall l, In l ls -> white l \/ exists s, comment_text s /\ line_with s l.
(** The content of a line of the body of a CNF file *)
Definition cnf_content (d : cnf_data) (s : text) : Prop := exists c, d = CClause c /\ clause_text c s.
(** The content of a line of a WCNF file in the format since 2022 *)
Definition wcnf_content (d : wcnf_data) (s : text) : Prop :=
  (exists c, d = WHard c /\ hard_text c s) \/ (exists w c, d = WSoft w c /\ soft_text w c s).
Definition is_wcomment (d : wcnf_data) : bool := match d with WComment _ => true | _ => false end.
(** The content of a line of the body of a WCNF file in the format before 2022: clauses of weight at least [top] are hard *)
Definition pre22_content (top : N) (d : wcnf_data) (s : text) : Prop :=
  exists w c, soft_text w c s /\ d = if (top <=? N.of_nat w)%N then WHard c else WSoft w c.
(** The content of a line of an MCNF file *)
Definition mcnf_content (d : mcnf_data) (s : text) : Prop :=
  (exists c, d = MHard c /\ hard_text c s) \/ (exists idx w c, d = MSoft idx w c /\ mo_soft_text idx w c s).
