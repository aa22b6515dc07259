(** * Model of [src/instances/fio/dimacs.rs]: reading and writing CNF, WCNF and MCNF files *)

From Coq Require Import List Bool NArith ZArith Ascii String.
From Verif Require Import Spec Types Constraints Inst Opt Text.
Import ListNotations.
Open Scope list_scope.
Open Scope char_scope.

(** ** Grammar *)

(** dimacs.rs:794-799 [lit] *)
Definition p_lit : parser lit := try_map from_ipasir (dec_int i32_min i32_max).
(** dimacs.rs:816-828 [clause_ending] *)
Definition clause_ending : parser unit :=
  alt (space0 ;;; alt line_ending eof)
      (space0 ;;; (char "0" ;;; alt (space0 ;;; alt line_ending eof) space1)).
(** dimacs.rs:742-746 [clause] *)
Definition p_clause : parser clause := c <- separated0 p_lit space1 ;; (clause_ending ;;; pret c).
(** dimacs.rs:736-740 [comment] *)
Definition comment : parser text := take (char "c" ;;; (till_line_ending ;;; optional line_ending)).
(** dimacs.rs:722-726 [cnf_p_line]: number of variables and clauses *)
Definition cnf_p_line : parser (N * N) :=
  char "p" ;;; (space1 ;;; (cut_err (tag (T "cnf")) ;;; (space1 ;;;
  (n <- dec_uint u32_max ;; (space1 ;;; (m <- dec_uint usize_max ;; (space0 ;;; pret (n, m)))))))).
(** dimacs.rs:729-733 [wcnf_p_line]: number of variables and clauses, top weight *)
Definition wcnf_p_line : parser (N * N * N) :=
  char "p" ;;; (space1 ;;; (cut_err (tag (T "wcnf")) ;;; (space1 ;;;
  (n <- dec_uint u32_max ;; (space1 ;;; (m <- dec_uint usize_max ;; (space1 ;;; (top <- dec_uint usize_max ;; (space0 ;;; pret (n, m, top)))))))))).
(** dimacs.rs:749-755 [hard_clause] *)
Definition hard_clause : parser clause := char "h" ;;; (cut_err space1 ;;; cut_err p_clause).
(** dimacs.rs:774-780 [weight] *)
Definition p_weight : parser nat := w <- dec_uint usize_max ;; pret (N.to_nat w).
(** dimacs.rs:758-762 [soft_clause] *)
Definition soft_clause : parser (nat * clause) := w <- p_weight ;; (space1 ;;; (c <- p_clause ;; pret (w, c))).
(** dimacs.rs:783-792 [obj_idx] *)
Definition obj_idx : parser nat :=
  try_map (fun ds => if (digits_value ds <=? usize_max)%N then Some (N.to_nat (digits_value ds)) else None) digits1.
(** dimacs.rs:765-770 [mo_soft_clause] *)
Definition mo_soft_clause : parser (nat * nat * clause) :=
  char "o" ;;; (space0 ;;; (o <- cut_err obj_idx ;; (cut_err space1 ;;; (w <- cut_err p_weight ;; (cut_err space1 ;;;
  (c <- cut_err p_clause ;; pret (o, w, c))))))).

(** ** Reading

    The lines of the file are read one by one; a line that is blank is skipped, the others are trimmed ([body_lines]).
    The iterators are modelled by the list of all data before the first error. *)

(** dimacs.rs:144-159, 392-401: the comments before the header are skipped *)
Fixpoint skip_comments (ls : list text) : list text :=
  match ls with
  | l :: r => if starts_with (T "c") l then skip_comments r else ls
  | [] => []
  end.

(** dimacs.rs:246-251 [CnfData] *)
Inductive cnf_data : Type := CClause (c : clause) | CComment (t : text).
(** dimacs.rs:271-276 *)
Definition cnf_line : parser cnf_data :=
  alt (c <- comment ;; pret (CComment c)) (c <- p_clause ;; pret (CClause c)).
(** dimacs.rs:129-185 [forward_to_body] and 263-292 the body: numbers of variables and clauses in the header, and the data *)
Definition read_cnf (t : text) : res (N * N * list cnf_data) :=
  match skip_comments (body_lines t) with
  | [] => RErr
  | h :: body =>
    match parse_all cnf_p_line h with
    | ROk (n, m) => match collect (parse_all cnf_line) body with ROk ds => ROk (n, m, ds) | RErr => RErr | RPanic => RPanic end
    | RErr => RErr
    | RPanic => RPanic
    end
  end.

(** dimacs.rs:536-548 [WcnfData] *)
Inductive wcnf_data : Type := WHard (c : clause) | WSoft (w : nat) (c : clause) | WComment (t : text).
(** dimacs.rs:625-629 *)
Definition post22_line : parser wcnf_data :=
  alt (c <- comment ;; pret (WComment c))
      (alt (c <- hard_clause ;; pret (WHard c)) (wc <- soft_clause ;; pret (WSoft (fst wc) (snd wc)))).
(** dimacs.rs:572-581 *)
Definition pre22_line (top : N) : parser wcnf_data :=
  alt (c <- comment ;; pret (WComment c))
      (wc <- soft_clause ;; pret (if (top <=? N.of_nat (fst wc))%N then WHard (snd wc) else WSoft (fst wc) (snd wc))).
(** dimacs.rs:402-407: the first line of a file in the format since 2022 *)
Definition post22_first : parser wcnf_data :=
  alt (c <- hard_clause ;; pret (WHard c)) (wc <- soft_clause ;; pret (WSoft (fst wc) (snd wc))).
(** dimacs.rs:363-443 [forward_to_body], 564-599 and 614-647 the bodies: the number of variables if there is a header, and the data *)
Definition read_wcnf (t : text) : res (option N * list wcnf_data) :=
  match skip_comments (body_lines t) with
  | [] => ROk (None, [])
  | h :: body =>
    match parse_all post22_first h with
    | ROk d => match collect (parse_all post22_line) body with ROk ds => ROk (None, d :: ds) | RErr => RErr | RPanic => RPanic end
    | RErr =>
      match parse_all wcnf_p_line h with
      | ROk (n, _, top) =>
        match collect (parse_all (pre22_line top)) body with ROk ds => ROk (Some n, ds) | RErr => RErr | RPanic => RPanic end
      | RErr => RErr
      | RPanic => RPanic
      end
    | RPanic => RPanic
    end
  end.

(** dimacs.rs:657-671 [McnfData] *)
Inductive mcnf_data : Type := MHard (c : clause) | MSoft (idx w : nat) (c : clause) | MComment (t : text).
(** dimacs.rs:693-701 *)
Definition mcnf_line : parser mcnf_data :=
  alt (c <- comment ;; pret (MComment c))
      (alt (c <- hard_clause ;; pret (MHard c)) (x <- mo_soft_clause ;; pret (MSoft (fst (fst x)) (snd (fst x)) (snd x)))).
(** dimacs.rs:685-719 *)
Definition read_mcnf (t : text) : res (list mcnf_data) := collect (parse_all mcnf_line) (body_lines t).

(** ** Instances from files *)

(** sat.rs:1016-1030 [Instance::from_dimacs]. [Var::new] panics for numbers of variables above [max_var_idx]. *)
Definition add_cnf_data (i : inst) (d : cnf_data) : inst :=
  match d with CClause c => inst_add_clause i c | CComment _ => i end.
Definition inst_from_dimacs (t : text) : res inst :=
  match read_cnf t with
  | ROk (n, _, ds) => match var_new n with Some v => ROk (fold_left add_cnf_data ds (inst_increase (inst_new 0) v)) | None => RPanic end
  | RErr => RErr
  | RPanic => RPanic
  end.

(** opt.rs:1503-1546 [Instance::from_dimacs] *)
Definition add_wcnf_data (st : inst * obj) (d : wcnf_data) : inst * obj :=
  match d with
  | WHard c => (inst_add_clause (fst st) c, snd st)
  | WSoft w c => (fst st, increase_soft_clause w c (snd st))
  | WComment _ => st
  end.
Definition opt_from_dimacs (t : text) : res opt :=
  match read_wcnf t with
  | ROk (h, ds) =>
    match match h with Some n => option_map (inst_increase (inst_new 0)) (var_new n) | None => Some (inst_new 0) end with
    | Some i => let '(i', o) := fold_left add_wcnf_data ds (i, obj_new) in ROk (opt_compose i' o)
    | None => RPanic
    end
  | RErr => RErr
  | RPanic => RPanic
  end.

(** multiopt.rs:396-416 [MultiOptInstance::from_dimacs]. The objective index read is at least 1. *)
Fixpoint update_nth {A} (i : nat) (f : A -> A) (xs : list A) : list A :=
  match xs, i with
  | [], _ => []
  | x :: r, O => f x :: r
  | x :: r, S i' => x :: update_nth i' f r
  end.
Definition resize {A} (n : nat) (x : A) (xs : list A) : list A := firstn n xs ++ repeat x (n - List.length xs).
Definition add_mcnf_data (st : inst * list obj) (d : mcnf_data) : inst * list obj :=
  match d with
  | MHard c => (inst_add_clause (fst st) c, snd st)
  | MSoft idx w c =>
    let objs := if (List.length (snd st) <? idx)%nat then resize idx obj_new (snd st) else snd st in
    (fst st, update_nth (idx - 1) (increase_soft_clause w c) objs)
  | MComment _ => st
  end.
Definition mopt_from_dimacs (t : text) : res mopt :=
  match read_mcnf t with
  | ROk ds => let '(i, os) := fold_left add_mcnf_data ds (inst_new 0, []) in ROk (mopt_compose i os)
  | RErr => RErr
  | RPanic => RPanic
  end.

(** ** Writing; [None] is the panic of [Lit::to_ipasir] *)

Definition line (t : text) : text := t ++ [nl].
Fixpoint concat_opt (xs : list (option text)) : option text :=
  match xs with
  | [] => Some []
  | Some t :: r => option_map (fun t' => t ++ t') (concat_opt r)
  | None :: _ => None
  end.

(** dimacs.rs:1040-1050 [write_clause] *)
Definition write_lit (l : lit) : option text := option_map (fun z => print_Z z ++ T " ") (to_ipasir l).
Definition write_clause (c : clause) : option text := option_map (fun t => t ++ line (T "0")) (concat_opt (map write_lit c)).
Definition write_prefixed (p : text) (c : clause) : option text := option_map (fun t => p ++ t) (write_clause c).

(** dimacs.rs:835-845 [write_cnf_annotated] *)
Definition write_cnf_annotated (f : cnf) (n_vars : N) : option text :=
  option_map (fun body => line (T "c CNF file written by RustSAT") ++
                          line (T "p cnf " ++ print_N n_vars ++ T " " ++ print_nat (List.length f)) ++ body)
             (concat_opt (map write_clause f)).

(** dimacs.rs:849-856 [CnfLine], 874-883 [write_cnf] *)
Inductive cnf_wline : Type := LHeader (n_vars : N) (n_clauses : N) | LComment (t : text) | LClause (c : clause).
Definition write_cnf_line (l : cnf_wline) : option text :=
  match l with
  | LHeader n m => Some (line (T "p " ++ print_N n ++ T " " ++ print_N m))
  | LComment t => Some (T "c " ++ t)
  | LClause c => write_clause c
  end.
Definition write_cnf (ls : list cnf_wline) : option text := concat_opt (map write_cnf_line ls).

(** dimacs.rs:891-915 [write_wcnf_annotated] *)
Definition write_soft (e : clause * nat) : option text := write_prefixed (print_nat (snd e) ++ T " ") (fst e).
Definition write_wcnf_annotated (f : cnf) (softs : list (clause * nat)) (offset : Z) (n_vars : option N) : option text :=
  match concat_opt (map (write_prefixed (T "h ")) f), concat_opt (map write_soft softs) with
  | Some hards, Some sfts =>
    Some (line (T "c WCNF file written by RustSAT") ++
          match n_vars with Some n => line (T "c " ++ print_N n ++ T " variables") | None => [] end ++
          line (T "c " ++ print_nat (List.length f) ++ T " hard clauses") ++
          line (T "c " ++ print_nat (List.length softs) ++ T " soft clauses") ++
          line (T "c objective offset: " ++ print_Z offset) ++ hards ++ sfts)
  | _, _ => None
  end.

(** dimacs.rs:920-927 [WcnfLine], 935-950 [write_wcnf] *)
Inductive wcnf_wline : Type := LWComment (t : text) | LWHard (c : clause) | LWSoft (c : clause) (w : nat).
Definition write_wcnf_line (l : wcnf_wline) : option text :=
  match l with
  | LWComment t => Some (T "c " ++ t)
  | LWHard c => write_prefixed (T "h ") c
  | LWSoft c w => write_soft (c, w)
  end.
Definition write_wcnf (ls : list wcnf_wline) : option text := concat_opt (map write_wcnf_line ls).

(** dimacs.rs:958-1003 [write_mcnf_annotated]; [idx] is the index of the objective, from 0 *)
Definition write_mo_soft (idx : nat) (e : clause * nat) : option text :=
  write_prefixed (T "o " ++ print_nat (idx + 1) ++ T " " ++ print_nat (snd e) ++ T " ") (fst e).
Fixpoint write_objectives (idx : nat) (softs : list (list (clause * nat))) : option text :=
  match softs with
  | [] => Some []
  | o :: r => match concat_opt (map (write_mo_soft idx) o), write_objectives (S idx) r with
              | Some t, Some t' => Some (t ++ t')
              | _, _ => None
              end
  end.
Definition write_mcnf_annotated (f : cnf) (softs : list (list (clause * nat) * Z)) (n_vars : option N) : option text :=
  match concat_opt (map (write_prefixed (T "h ")) f), write_objectives 0 (map fst softs) with
  | Some hards, Some sfts =>
    Some (line (T "c MCNF file written by RustSAT") ++
          match n_vars with Some n => line (T "c " ++ print_N n ++ T " variables") | None => [] end ++
          line (T "c " ++ print_nat (List.length f) ++ T " hard clauses") ++
          line (T "c " ++ print_nat (List.length softs) ++ T " objectives") ++
          line (T "c ( " ++ flat_map (fun s => print_nat (List.length (fst s)) ++ T " ") softs ++ T ") soft clauses") ++
          line (T "c objective offsets: ( " ++ flat_map (fun s => print_Z (snd s) ++ T " ") softs ++ T ")") ++ hards ++ sfts)
  | _, _ => None
  end.

(** dimacs.rs:1008-1015 [McnfLine], 1023-1038 [write_mcnf]; here the index counts from 0 *)
Inductive mcnf_wline : Type := LMComment (t : text) | LMHard (c : clause) | LMSoft (c : clause) (w idx : nat).
Definition write_mcnf_line (l : mcnf_wline) : option text :=
  match l with
  | LMComment t => Some (line (T "c " ++ t))
  | LMHard c => write_prefixed (T "h ") c
  | LMSoft c w idx => write_mo_soft idx (c, w)
  end.
Definition write_mcnf (ls : list mcnf_wline) : option text := concat_opt (map write_mcnf_line ls).

(** sat.rs:814-826 [Instance::write_dimacs]; [RErr] if the instance is not clausal *)
Definition to_res {A} (o : option A) : res A := match o with Some x => ROk x | None => RPanic end.
Definition not_clausal (i : inst) : bool := negb (is_nil (i_cards i) && is_nil (i_pbs i)).
Definition inst_write_dimacs (i : inst) : res text :=
  if not_clausal i then RErr else to_res (write_cnf_annotated (i_cnf i) (i_next i)).
(** opt.rs:1405-1421 [Instance::write_dimacs] *)
Section Orders.
Variable lord : list (lit * nat) -> list (lit * nat).
Variable cord : list (clause * nat) -> list (clause * nat).
Definition opt_write_dimacs (p : opt) : res text :=
  if not_clausal (o_constrs p) then RErr
  else to_res (write_wcnf_annotated (i_cnf (o_constrs p)) (iter_soft_cls lord cord (o_obj p)) (obj_offset (o_obj p)) (Some (i_next (o_constrs p)))).
(** multiopt.rs:277-292 [MultiOptInstance::write_dimacs] *)
Definition mopt_write_dimacs (p : mopt) : res text :=
  if not_clausal (mo_constrs p) then RErr
  else to_res (write_mcnf_annotated (i_cnf (mo_constrs p)) (map (fun o => (iter_soft_cls lord cord o, obj_offset o)) (mo_objs p)) (Some (i_next (mo_constrs p)))).
End Orders.
