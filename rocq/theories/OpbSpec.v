(** * Specification of OPB files: what a well-formed file is and what it means *)

From Coq Require Import List Bool NArith ZArith Ascii String.
From Verif Require Import Spec Types Base ConstrSpec Constraints Inst InstSpec Opt OptSpec Text FioSpec Opb.
Import ListNotations.
Open Scope list_scope.

(** What the operators mean *)
Definition op_holds (op : opb_op) (x b : Z) : Prop :=
  match op with OpLE => x <= b | OpGE => b <= x | OpLT => x < b | OpGT => b < x | OpEQ => x = b end%Z.
Definition op_text (op : opb_op) : text :=
  match op with OpLE => T "<=" | OpGE => T ">=" | OpLT => T "<" | OpGT => T ">" | OpEQ => T "=" end.
Definition sense_text (s : sense) : text := match s with Minimize => T "min:" | Maximize => T "max:" end.

Definition is_isize (z : Z) : Prop := (isize_min <= z <= isize_max)%Z.
(** A decimal number; a positive number may have the sign [+] *)
Definition number_text (z : Z) (t : text) : Prop := t = print_Z z \/ ((0 < z)%Z /\ t = "+"%char :: print_Z z).
(** [x3] or [~x3] or [-x3]; the variables are counted from [first] *)
Definition opb_lit_text (first : N) (l : lit) (t : text) : Prop :=
  (lvar l <= max_var_idx)%N /\ (lvar l + first <= u32_max)%N /\
  exists sign, (if lneg l then sign = T "~" \/ sign = T "-" else sign = []) /\ t = sign ++ T "x" ++ print_N (lvar l + first).
(** [+2 x3] *)
Definition term_text (first : N) (e : lit * Z) (t : text) : Prop :=
  is_isize (snd e) /\ exists n sp x, number_text (snd e) n /\ blanks1 sp /\ opb_lit_text first (fst e) x /\ t = n ++ sp ++ x.
(** Terms separated by blanks *)
Fixpoint sum_text (first : N) (ts : list (lit * Z)) (t : text) : Prop :=
  match ts with
  | [] => t = []
  | [e] => term_text first e t
  | e :: ts' => exists s sp r, term_text first e s /\ blanks1 sp /\ sum_text first ts' r /\ t = s ++ sp ++ r
  end.

(** A statement of an OPB file *)
Inductive stmt : Type := SConstr (ts : list (lit * Z)) (op : opb_op) (b : Z) | SObj (s : sense) (ts : list (lit * Z)).
(** [+2 x3 -1 x4 >= 1], [min: 1 x1] *)
Definition stmt_text (first : N) (st : stmt) (t : text) : Prop :=
  match st with
  | SConstr ts op b =>
      is_isize b /\ exists s sp sp' n, sum_text first ts s /\ blanks sp /\ (ts = [] -> sp = []) /\ blanks sp' /\ number_text b n /\
        t = s ++ sp ++ op_text op ++ sp' ++ n
  | SObj sn ts => exists sp s, blanks sp /\ sum_text first ts s /\ t = sense_text sn ++ sp ++ s
  end.
(** Statements on a line. Each ends with a semicolon, which may be missing at the end of the line. A line may end with a comment. *)
Inductive stmts_text (first : N) : list stmt -> text -> Prop :=
| SComment c : one_line c -> stmts_text first [] ("*"%char :: c)
| SLast st t sp semi sp' : stmt_text first st t -> blanks sp -> semi = T ";" \/ semi = [] -> blanks sp' ->
    stmts_text first [st] (t ++ sp ++ semi ++ sp')
| SMore st t sp sp' ss r : stmt_text first st t -> blanks sp -> blanks sp' -> stmts_text first ss r ->
    stmts_text first (st :: ss) (t ++ sp ++ T ";" ++ sp' ++ r).
(** A line without its end *)
Inductive opb_line_text (first : N) : list stmt -> text -> Prop :=
| LBlank w : white w -> opb_line_text first [] w
| LStmts w ss t : white w -> stmts_text first ss t -> opb_line_text first ss (w ++ t).
(** A file with the given statements *)
Inductive opb_file (first : N) : list stmt -> text -> Prop :=
| FLast ss l : opb_line_text first ss l -> opb_file first ss l
| FLine ss l e ss' t : opb_line_text first ss l -> e = [nl] \/ e = [cr; nl] -> opb_file first ss' t -> opb_file first (ss ++ ss') (l ++ e ++ t).

(** The numbers that the reader computes fit in an [isize] *)
Definition stmt_fits (st : stmt) : Prop :=
  match st with
  | SConstr _ op b => (op = OpLT \/ op = OpGT -> b < isize_max)%Z
  | SObj _ ts => (isize_min <= fold_right Z.add 0 (map (fun e => Z.min 0 (snd e)) ts))%Z
  end.
(** The objectives and constraints among the statements *)
Definition constrs_of (ss : list stmt) : list (list (lit * Z) * opb_op * Z) :=
  flat_map (fun st => match st with SConstr ts op b => [(ts, op, b)] | SObj _ _ => [] end) ss.
Definition objs_of (ss : list stmt) : list (sense * list (lit * Z)) :=
  flat_map (fun st => match st with SConstr _ _ _ => [] | SObj s ts => [(s, ts)] end) ss.
(** What the constraints among the statements mean *)
Definition constrs_hold (a : asg) (ss : list stmt) : Prop := forall ts op b, In (ts, op, b) (constrs_of ss) -> op_holds op (zwsum a ts) b.
(** [d] is read from the statement [st] and means the same *)
Definition data_means (st : stmt) (d : opb_data) : Prop :=
  match st, d with
  | SConstr ts op b, DConstr c => forall a, pb_holds a c <-> op_holds op (zwsum a ts) b
  | SObj s ts, DObj s' terms z => s' = s /\ forall a, (z + Z.of_nat (wsum a (map (fun e => (snd e, fst e)) terms)))%Z = zwsum a ts
  | _, _ => False
  end.
Definition not_comment (d : opb_data) : bool := match d with DComment _ => false | _ => true end.
(** No constraint is written with [<] *)
Definition no_less (ss : list stmt) : Prop := forall ts b, ~ In (SConstr ts OpLT b) ss.

(** Literals of existing variables *)
Definition valid_lits (ls : list lit) : Prop := forall l, In l ls -> (lvar l <= max_var_idx)%N.

(** The sum of the negative coefficients, and of the absolute values *)
Definition neg_coeffs (ts : list (lit * Z)) : Z := fold_right Z.add 0%Z (map (fun e => Z.min 0 (snd e)) ts).
Definition abs_coeffs (ts : list (lit * Z)) : Z := fold_right Z.add 0%Z (map (fun e => Z.abs (snd e)) ts).
(** The value of the objective that is read; that of a maximized objective should be [- zwsum a ts] *)
Definition read_value (a : asg) (s : sense) (ts : list (lit * Z)) : Z :=
  match s with Minimize => zwsum a ts | Maximize => (2 * neg_coeffs ts - zwsum a ts)%Z end.
(** What every instance satisfies in the code by the types of its parts, except that weights must fit in an [isize] *)
Definition opb_inst_ok (i : inst) : Prop :=
  (forall c, In c (i_cnf i) -> valid_lits c) /\ (forall c, In c (i_cards i) -> valid_lits (c_lits c)) /\
  (forall c, In c (i_pbs i) -> is_isize (p_b c) /\ forall l w, In (l, w) (p_lits c) -> (lvar l <= max_var_idx)%N /\ (Z.of_nat w <= isize_max)%Z).
(** Literals of existing variables, and weights that add up to at most the maximum of an [isize] *)
Definition opb_soft_ok (ls : list (lit * nat)) : Prop := (forall l w, In (l, w) ls -> (lvar l <= max_var_idx)%N) /\ (Z.of_nat (total_weight ls) <= isize_max)%Z.
(** The weights of the negated literals *)
Fixpoint negated_weight (ls : list (lit * nat)) : nat :=
  match ls with [] => 0 | (l, w) :: r => (if lneg l then w else 0) + negated_weight r end%nat.
(** The constant that is not written: the offset, and the weights of negated literals if these are avoided *)
Definition lost_constant (o : opb_opts) (ls : list (lit * nat)) (offset : Z) : Z := (offset + (if no_negated_lits o then Z.of_nat (negated_weight ls) else 0))%Z.

(** The index of the variable in the file fits in a [u32] *)
Definition var_fits (o : opb_opts) (l : lit) : Prop := (lvar l + first_var_idx o <= u32_max)%N.
(** The numbers in the file fit: variables in a [u32], weights and bounds in an [isize] *)
Definition opb_writable (o : opb_opts) (i : inst) : Prop :=
  (forall l, In l (inst_lits i) -> var_fits o l) /\
  (forall c, In c (i_cnf i) -> Z.of_nat (List.length c) < isize_max)%Z /\
  (forall c, In c (i_cards i) -> Z.of_nat (2 * List.length (c_lits c) + c_b c) <= isize_max)%Z /\
  (forall c, In c (i_pbs i) -> 2 * Z.of_nat (total_weight (p_lits c)) + Z.abs (p_b c) <= isize_max)%Z.
(** What a written line means: a statement, or nothing for a comment *)
Definition wline_ok (l : opb_wline) : Prop :=
  match l with
  | OComment t => one_line t
  | OClause c => valid_lits c
  | OCard c => valid_lits (c_lits c)
  | OPb c => is_isize (p_b c) /\ forall l w, In (l, w) (p_lits c) -> (lvar l <= max_var_idx)%N /\ (Z.of_nat w <= isize_max)%Z
  | OObjective ls => opb_soft_ok ls
  end.
Definition wline_holds (a : asg) (l : opb_wline) : Prop :=
  match l with OClause c => sat_clause a c = true | OCard c => card_holds a c | OPb c => pb_holds a c | _ => True end.
Definition wline_objs (ls : list opb_wline) : list (list (lit * nat)) := flat_map (fun l => match l with OObjective o => [o] | _ => [] end) ls.
