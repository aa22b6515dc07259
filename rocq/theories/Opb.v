(** * Model of [src/instances/fio/opb.rs]: reading and writing OPB files *)

From Coq Require Import List Bool NArith ZArith Ascii String.
From Verif Require Import Spec Types Constraints Inst Opt Text Dimacs.
Import ListNotations.
Open Scope list_scope.
Open Scope char_scope.

Definition isize_min : Z := (-9223372036854775808)%Z.
(** Conversion to [isize] or arithmetic on it: overflow is a panic (release builds without overflow checks would wrap around) *)
Definition in_isize (z : Z) : option Z := if ((isize_min <=? z) && (z <=? isize_max))%Z then Some z else None.

(** opb.rs:130-137 [Options] *)
Record opb_opts : Type := mkOpbOpts { first_var_idx : N; no_negated_lits : bool }.
(** opb.rs:139-147 *)
Definition opb_default : opb_opts := mkOpbOpts 1 true.

(** opb.rs:151-162 [OpbOperator] *)
Inductive opb_op : Type := OpLE | OpGE | OpLT | OpGT | OpEQ.
(** opb.rs:200-205 [ObjectiveSense] *)
Inductive sense : Type := Minimize | Maximize.
(** opb.rs:246-254 [Data], with 174-181 [Objective]: sense, terms and offset *)
Inductive opb_data : Type :=
| DComment (t : text)
| DConstr (c : pb)
| DObj (s : sense) (terms : list (nat * lit)) (offset : Z).

Section Grammar.
Context (o : opb_opts).

(** opb.rs:268-272 [comment] *)
Definition opb_comment : parser text := take (char "*" ;;; (till_line_ending ;;; optional line_ending)).
(** opb.rs:288-314 [VarParser]. [Var::new] panics for an index above [max_var_idx]. *)
Definition p_var : parser N :=
  char "x" ;;;
  (n <- try_map (fun n => if (n <=? u32_max)%N then Some n else None) numeral ;;
   if (n <? first_var_idx o)%N then pfail
   else match var_new (n - first_var_idx o) with Some v => pret v | None => ppanic end).
(** opb.rs:323-326 [literal] *)
Definition opb_literal : parser lit :=
  s <- optional (alt (char "~") (char "-")) ;; (v <- p_var ;; pret (mkLit v (match s with Some _ => true | None => false end))).
(** opb.rs:341-350 [operator] *)
Definition operator : parser opb_op :=
  alt (tag (T "<=") ;;; pret OpLE) (alt (tag (T ">=") ;;; pret OpGE)
  (alt (tag (T "<") ;;; pret OpLT) (alt (tag (T ">") ;;; pret OpGT) (tag (T "=") ;;; pret OpEQ)))).
(** opb.rs:353-357 [coeff] *)
Definition coeff : parser Z := dec_int isize_min isize_max.
(** opb.rs:360-362 [term] *)
Definition term : parser (lit * Z) := c <- coeff ;; (space1 ;;; (l <- opb_literal ;; pret (l, c))).
(** opb.rs:365-370 [term_sum] *)
Definition term_sum : parser (list (lit * Z)) := separated0 term space1.
(** opb.rs:373-383 [ending] *)
Definition ending : parser unit :=
  space0 ;;; (s <- optional (char ";") ;; (space0 ;;; (e <- optional (alt eof (line_ending ;;; space0)) ;;
  match s, e with None, None => pfail | _, _ => pret tt end))).
(** opb.rs:386-396 [constraint]. The additions to the bound panic on overflow; overflow in [PbConstraint::new_*] is not modelled. *)
Definition p_constraint : parser pb :=
  ts <- term_sum ;; (space0 ;;; (op <- operator ;; (space0 ;;; (b <- cut_err coeff ;; (ending ;;;
  match op with
  | OpLE => pret (pb_new_ub ts b)
  | OpGE => pret (pb_new_lb ts b)
  | OpLT => match in_isize (b + 1) with Some b' => pret (pb_new_ub ts b') | None => ppanic end
  | OpGT => match in_isize (b + 1) with Some b' => pret (pb_new_lb ts b') | None => ppanic end
  | OpEQ => pret (pb_new_eq ts b)
  end))))).
(** opb.rs:230-237 [ObjectiveSum::accumulate] *)
Fixpoint objective_sum (ts : list (lit * Z)) : list (nat * lit) * Z :=
  match ts with
  | [] => ([], 0%Z)
  | (l, c) :: r => let '(terms, offset) := objective_sum r in
                   if (0 <? c)%Z then ((Z.abs_nat c, l) :: terms, offset) else ((Z.abs_nat c, neg l) :: terms, (c + offset)%Z)
  end.
(** opb.rs:400-404 [objective]. The offset is a sum of numbers that are not positive, so overflow of its partial sums is overflow of the sum. *)
Definition p_objective : parser (sense * list (nat * lit) * Z) :=
  s <- alt (tag (T "min:") ;;; pret Minimize) (tag (T "max:") ;;; pret Maximize) ;;
  (space0 ;;; (ts <- cut_err term_sum ;;
  match in_isize (snd (objective_sum ts)) with
  | Some z => cut_err ending ;;; pret (s, fst (objective_sum ts), z)
  | None => ppanic
  end)).
(** opb.rs:407-424 [opb_data] *)
Definition p_data : parser opb_data :=
  space0 ;;; alt (c <- opb_comment ;; pret (DComment c))
             (alt (c <- p_constraint ;; pret (DConstr c)) (x <- p_objective ;; pret (DObj (fst (fst x)) (snd (fst x)) (snd x)))).

(** opb.rs:88-113 [Parser::next]: the data on a line, after white space at its start has been removed. Running out of fuel is a panic;
    it does not happen ([ParserFuel.line_data_fuel]). *)
Fixpoint line_data (fuel : nat) (t : text) : res (list opb_data) :=
  match t with
  | [] => ROk []
  | _ => match fuel with
         | O => RPanic
         | S f => match p_data t with
                  | POk d r => match line_data f r with ROk ds => ROk (d :: ds) | RErr => RErr | RPanic => RPanic end
                  | PBack | PCut => RErr
                  | PPanic => RPanic
                  end
         end
  end.
Definition read_opb_line (l : text) : res (list opb_data) := let t := trim_start l in line_data (List.length t) t.
(** The iterator is modelled by the list of all data before the first error. *)
Definition read_opb (t : text) : res (list opb_data) :=
  match collect read_opb_line (read_lines t) with ROk dss => ROk (List.concat dss) | RErr => RErr | RPanic => RPanic end.

(** ** Instances from files *)

(** sat.rs:1055-1074 [Instance::from_opb] *)
Fixpoint add_opb (i : inst) (ds : list opb_data) : res inst :=
  match ds with
  | [] => ROk i
  | DComment _ :: r => add_opb i r
  | DConstr c :: r => add_opb (inst_add_pb i c) r
  | DObj _ _ _ :: _ => RErr
  end.
Definition inst_from_opb (t : text) : res inst :=
  match read_opb t with ROk ds => add_opb (inst_new 0) ds | RErr => RErr | RPanic => RPanic end.

(** opt.rs:1600-1620, multiopt.rs:503-526: the objective in terms of the minimized one; [None] if the sum of the coefficients of a
    maximized objective overflows. Overflow of the subtraction is not modelled. *)
Definition objective_of (s : sense) (terms : list (nat * lit)) (offset : Z) : option obj :=
  match s with
  | Minimize => Some (obj_increase_offset offset (obj_from_lits (map (fun e => (snd e, fst e)) terms)))
  | Maximize =>
      match in_isize (Z.of_nat (list_sum (map fst terms))) with
      | Some sum => Some (obj_increase_offset (offset - sum) (obj_from_lits (map (fun e => (neg (snd e), fst e)) terms)))
      | None => None
      end
  end.
(** opt.rs:1571-1621 [Instance::from_opb]: exactly one objective *)
Fixpoint add_opb_opt (i : inst) (found : option (sense * list (nat * lit) * Z)) (ds : list opb_data) : res (inst * option (sense * list (nat * lit) * Z)) :=
  match ds with
  | [] => ROk (i, found)
  | DComment _ :: r => add_opb_opt i found r
  | DConstr c :: r => add_opb_opt (inst_add_pb i c) found r
  | DObj s ts z :: r => match found with Some _ => RErr | None => add_opb_opt i (Some (s, ts, z)) r end
  end.
Definition opt_from_opb (t : text) : res opt :=
  match read_opb t with
  | ROk ds =>
      match add_opb_opt (inst_new 0) None ds with
      | ROk (i, Some (s, ts, z)) => match objective_of s ts z with Some ob => ROk (opt_compose i ob) | None => RErr end
      | ROk (_, None) | RErr => RErr
      | RPanic => RPanic
      end
  | RErr => RErr
  | RPanic => RPanic
  end.
(** multiopt.rs:486-531 [FromIterator<opb::Data>], 444-449 [from_opb] *)
Fixpoint add_opb_mopt (p : mopt) (ds : list opb_data) : res mopt :=
  match ds with
  | [] => ROk p
  | DComment _ :: r => add_opb_mopt p r
  | DConstr c :: r => add_opb_mopt (mkMopt (inst_add_pb (mo_constrs p) c) (mo_objs p)) r
  | DObj s ts z :: r =>
      match objective_of s ts z with
      | Some ob => let i := mo_constrs p in
                   add_opb_mopt (mkMopt (mkInst (i_cnf i) (i_cards i) (i_pbs i) (marks (i_next i) (map snd ts))) (mo_objs p ++ [ob])) r
      | None => RPanic
      end
  end.
Definition mopt_from_opb (t : text) : res mopt :=
  match read_opb t with ROk ds => add_opb_mopt (mkMopt (inst_new 0) []) ds | RErr => RErr | RPanic => RPanic end.

(** ** Writing; [None] is a panic *)

(** The index of a variable in the file; [u32] addition *)
Definition opb_var (v : N) : option text :=
  if (v + first_var_idx o <=? u32_max)%N then Some (T "x" ++ print_N (v + first_var_idx o)) else None.
(** One weighted literal, as in opb.rs:664-667, 674-676, 735-738, 775-777, 831-836, 868-870, 902, 906-908 *)
Definition write_term (e : lit * nat) : option text :=
  let '(l, w) := e in
  match opb_var (lvar l) with
  | None => None
  | Some x =>
      if lneg l then
        if no_negated_lits o
        then option_map (fun z => print_Z (- z) ++ T " " ++ x) (in_isize (Z.of_nat w))
        else Some (print_nat w ++ T " ~" ++ x)
      else Some (print_nat w ++ T " " ++ x)
  end.
(** The weights of the negated literals, subtracted from the bound *)
Definition neg_weight (ls : list (lit * nat)) : nat := list_sum (map (fun e => if lneg (fst e) then snd e else 0%nat) ls).
(** The end of opb.rs:655-681 [write_clause], 693-782 [write_card], 794-875 [write_pb]. The weights of the negated literals are not negative,
    so overflow of a partial sum is overflow of the sum. *)
Definition write_rel (ls : list (lit * nat)) (op : text) (bound : Z) : option text :=
  match concat_opt (map (fun e => option_map (fun t => t ++ T " ") (write_term e)) ls) with
  | None => None
  | Some ts =>
      match (if no_negated_lits o
             then match in_isize (Z.of_nat (neg_weight ls)) with Some z => in_isize (bound - z) | None => None end
             else Some bound) with
      | Some b => Some (line (ts ++ op ++ T " " ++ print_Z b ++ T ";"))
      | None => None
      end
  end.
(** opb.rs:655-681 [write_clause] *)
Definition opb_clause (c : clause) : option text := write_rel (map (fun l => (l, 1%nat)) c) (T ">=") 1.
(** opb.rs:693-782 [write_card] *)
Definition opb_card (c : card) : option text :=
  let units ls := map (fun l => (l, 1%nat)) ls in
  match in_isize (Z.of_nat (c_b c)) with
  | None => None
  | Some b =>
      match c_kind c with
      | KUb => match in_isize (Z.of_nat (List.length (c_lits c))) with
               | Some n => write_rel (units (map neg (c_lits c))) (T ">=") (n - b)
               | None => None
               end
      | KLb => write_rel (units (c_lits c)) (T ">=") b
      | KEq => write_rel (units (c_lits c)) (T "=") b
      end
  end.
(** opb.rs:794-875 [write_pb] *)
Definition opb_pb (c : pb) : option text :=
  match p_kind c with
  | KUb => match in_isize (Z.of_nat (list_sum (map snd (p_lits c)))) with
           | Some s => match in_isize (s - p_b c) with
                       | Some b => write_rel (map (fun e => (neg (fst e), snd e)) (p_lits c)) (T ">=") b
                       | None => None
                       end
           | None => None
           end
  | KLb => write_rel (p_lits c) (T ">=") (p_b c)
  | KEq => write_rel (p_lits c) (T "=") (p_b c)
  end.
(** opb.rs:883-921 [write_objective]; the weights are converted to [isize] if negated literals are avoided *)
Definition opb_objective (ls : list (lit * nat)) (offset : Z) : option text :=
  let fits := negb (no_negated_lits o) || forallb (fun e => match in_isize (Z.of_nat (snd e)) with Some _ => true | None => false end) ls in
  if fits then
    match concat_opt (map (fun e => option_map (fun t => T " " ++ t) (write_term e)) ls) with
    | None => None
    | Some ts =>
        match (if no_negated_lits o then in_isize (offset + Z.of_nat (neg_weight ls)) else Some offset) with
        | None => None
        | Some z => Some (line (T "min:" ++ ts ++ T ";") ++
                          if (z =? 0)%Z then [] else line (T "* objective offset for previous objective: " ++ print_Z z))
        end
    end
  else None.

(** opb.rs:522-534, 573-585, 624-638: the comments at the start *)
Definition opb_preamble (i : inst) (clauses : text) : text :=
  line (T "* #variable = " ++ print_N (i_next i) ++ T " #constraint= " ++ print_nat (List.length (i_cnf i) + List.length (i_cards i) + List.length (i_pbs i))) ++
  line (T "* OPB file written by RustSAT") ++
  (if (i_next i =? 0)%N then [] else line (T "* maximum variable: x" ++ print_N (i_next i - 1))) ++
  line (T "* " ++ print_nat (List.length (i_cnf i)) ++ clauses) ++
  line (T "* " ++ print_nat (List.length (i_cards i)) ++ T " cardinality constraints") ++
  line (T "* " ++ print_nat (List.length (i_pbs i)) ++ T " pseudo-boolean constraints").
(** opb.rs:535-543, 587-593, 640-646: the constraints *)
Definition opb_constraints (i : inst) : option text :=
  concat_opt (map opb_clause (i_cnf i) ++ map opb_card (i_cards i) ++ map opb_pb (i_pbs i)).
(** opb.rs:513-545 [write_sat], sat.rs:849-855 [write_opb] *)
Definition opb_write_sat (i : inst) : option text :=
  option_map (fun t => opb_preamble i (T " clauses") ++ t) (opb_constraints i).
(** opb.rs:559-595 [write_opt] *)
Definition opb_write_opt (i : inst) (ls : list (lit * nat)) (offset : Z) : option text :=
  match opb_objective ls offset, opb_constraints i with
  | Some t, Some t' => Some (opb_preamble i (T " original hard clauses") ++ t ++ t')
  | _, _ => None
  end.
(** opb.rs:609-648 [write_multi_opt] *)
Definition opb_write_multi_opt (i : inst) (objs : list (list (lit * nat) * Z)) : option text :=
  match concat_opt (map (fun e => opb_objective (fst e) (snd e)) objs), opb_constraints i with
  | Some t, Some t' =>
      Some (opb_preamble i (T " original hard clauses") ++ line (T "* ( ) relaxed and hardened soft clauses") ++ t ++ t')
  | _, _ => None
  end.

(** opb.rs:443-454 [FileLine], 484-500 [write_opb_lines] *)
Inductive opb_wline : Type := OComment (t : text) | OClause (c : clause) | OCard (c : card) | OPb (c : pb) | OObjective (ls : list (lit * nat)).
Definition write_opb_line (l : opb_wline) : option text :=
  match l with
  | OComment t => Some (line (T "* " ++ t))
  | OClause c => opb_clause c
  | OCard c => opb_card c
  | OPb c => opb_pb c
  | OObjective ls => opb_objective ls 0
  end.
Definition write_opb_lines (ls : list opb_wline) : option text := concat_opt (map write_opb_line ls).

(** opt.rs:1452-1466 [write_opb]: an error if there are soft clauses *)
Definition opt_write_opb (lord : list (lit * nat) -> list (lit * nat)) (p : opt) : res text :=
  match iter_soft_lits lord (o_obj p) with
  | inl ls => match opb_write_opt (o_constrs p) ls (obj_offset (o_obj p)) with Some t => ROk t | None => RPanic end
  | inr _ => RErr
  end.
(** multiopt.rs:323-343 [write_opb] *)
Fixpoint soft_lits_of (lord : list (lit * nat) -> list (lit * nat)) (os : list obj) : option (list (list (lit * nat) * Z)) :=
  match os with
  | [] => Some []
  | ob :: r => match iter_soft_lits lord ob, soft_lits_of lord r with
               | inl ls, Some rs => Some ((ls, obj_offset ob) :: rs)
               | _, _ => None
               end
  end.
Definition mopt_write_opb (lord : list (lit * nat) -> list (lit * nat)) (p : mopt) : res text :=
  match soft_lits_of lord (mo_objs p) with
  | Some objs => match opb_write_multi_opt (mo_constrs p) objs with Some t => ROk t | None => RPanic end
  | None => RErr
  end.

End Grammar.
