(** * Specification vocabulary for checking and enumerating solutions: problems and solutions in files *)

From Coq Require Import List Bool NArith ZArith Ascii.
From Verif Require Import Spec Types Base ConstrSpec Constraints Inst Opt OptSpec Text FioSpec Opb OpbSpec VlineSpec Tools ToolSpec.
Import ListNotations.

(** The numbers of a statement that the tools compute fit in an [isize]. A maximized objective has no negative coefficients. *)
Definition checkable (st : stmt) : Prop :=
  match st with
  | SConstr ts _ b => (abs_coeffs ts + Z.abs b < isize_max)%Z
  | SObj s ts => (abs_coeffs ts <= isize_max)%Z /\ (s = Maximize -> forall e, In e ts -> 0 <= snd e)%Z
  end.
(** The file in the given format has the solutions [P] with the costs [cost], and its variables are in [used]. In OPB files the variables
    are counted from [first]. *)
Inductive problem_file (first : N) : format -> text -> (asg -> Prop) -> (asg -> list Z) -> (N -> Prop) -> Prop :=
| PCnf n m f t : cnf_file n m f t -> (n <= max_var_idx)%N ->
    problem_file first FCnf t (fun a => sat_cnf a f = true) (fun _ => []) (fun v => exists c l, In c f /\ In l c /\ lvar l = v)
| PWcnf n es t : wcnf_file n es t -> (n <= max_var_idx)%N ->
    problem_file first FWcnf t (fun a => sat_cnf a (hards es) = true) (wcnf_costs es) (item_var es)
| PMcnf n es t : mcnf_file n es t -> (n <= max_var_idx)%N ->
    problem_file first FMcnf t (fun a => sat_cnf a (hards es) = true) (mcnf_costs (n_objs es) es) (item_var es)
| POpb ss t : opb_file first ss t -> no_less ss -> Forall checkable ss ->
    problem_file first FOpb t (fun a => constrs_hold a ss) (opb_costs ss) (stmt_var ss).

(** The literals given by characters 0 and 1, one for each variable *)
Definition bit_lits (bs : list bool) : list lit := map (fun e => mkLit (N.of_nat (fst e)) (negb (snd e))) (combine (seq 0 (length bs)) bs).
(** Value lines with literals, and with one character for each variable *)
Definition lits_line (k : out_line) : Prop := match k with LSatVals xs => ~ looks_like_bits xs | LBits _ => False | _ => True end.
Definition bits_line (k : out_line) : Prop := match k with LBits bs => bs <> [] /\ bs <> [false] | LSatVals _ | LPbVals _ => False | _ => True end.
(** A file with a solution that makes exactly the literals [ls] true: value lines, and other lines that do not start with v *)
Definition solution_file (ls : list lit) (t : text) : Prop :=
  exists ks lines, Forall2 (fun k l => out_line_text k l /\ (k = LOther -> forall r, l <> "v"%char :: r)) ks lines /\ lines_text lines t /\
    ((Forall lits_line ks /\ distinct_vars (out_lits ks) /\ ls = out_lits ks) \/ (Forall bits_line ks /\ ls = bit_lits (out_bits ks))).
(** The assignment makes the literals true *)
Definition makes_true (a : asg) (ls : list lit) : Prop := forall l, In l ls -> lit_true a l = true.
(** Every variable has a value *)
Definition values_all (used : N -> Prop) (ls : list lit) : Prop := forall v, used v -> In v (map lvar ls).
(** The constraint is satisfied *)
Definition ref_holds (a : asg) (r : constr_ref) : Prop :=
  match r with RClause c => sat_clause a c = true | RCard c => card_holds a c | RPb p => pb_holds a p end.
