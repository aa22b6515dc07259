(** * Model of the command line tools

    Files are texts, and a tool is a function from the text of its input to the text of its output. Opening, compressing and
    closing files and parsing the command line are not modelled. [RErr] is an error reported to the user, [RPanic] a panic.
    Random shuffles are arbitrary functions. *)

From Coq Require Import List Bool NArith ZArith Ascii String.
From Verif Require Import Spec Types Base Constraints ConstrEnc Maps VarMan NodeDb Inst Opt Text Dimacs Opb Vline SolverSpec.
Import ListNotations.
Open Scope list_scope.

Definition rbind {A B} (r : res A) (f : A -> res B) : res B :=
  match r with ROk x => f x | RErr => RErr | RPanic => RPanic end.

Section Orders.
(** iteration orders of hash maps *)
Variables (lord : list (lit * nat) -> list (lit * nat)) (cord : list (clause * nat) -> list (clause * nat)).
Variables (ord ord1 ord2 ord3 ord4 : wmap -> wmap).

(** ** From DIMACS to OPB *)

(** tools/src/bin/cnf2opb.rs:23-45 *)
Definition cnf2opb (o : opb_opts) (t : text) : res text :=
  rbind (inst_from_dimacs t) (fun i => to_res (opb_write_sat o i)).

(** the next free variable is changed by the objective *)
Definition set_next (i : inst) (n : N) : inst := mkInst (i_cnf i) (i_cards i) (i_pbs i) n.
(** tools/src/bin/wcnf2opb.rs:37-38, mcnf2opb.rs:37-40: soft clauses become soft literals, the clauses for this are added *)
Definition harden (c : inst) (ob : obj) : option (inst * obj) :=
  obind (convert_to_soft_lits cord ob (i_next c)) (fun r =>
    let '(ob', f, n) := r in Some (inst_call (set_next c n) (AInst (inst_from_cnf f)), ob')).
(** tools/src/bin/wcnf2opb.rs:23-50 *)
Definition wcnf2opb (o : opb_opts) (t : text) : res text :=
  rbind (opt_from_dimacs t) (fun p =>
    let '(c, ob) := opt_decompose p in
    rbind (to_res (harden c ob)) (fun r => opt_write_opb o lord (opt_compose (fst r) (snd r)))).
(** tools/src/bin/mcnf2opb.rs:36-40 *)
Fixpoint harden_all (c : inst) (obs : list obj) : option (inst * list obj) :=
  match obs with
  | [] => Some (c, [])
  | ob :: r => obind (harden c ob) (fun x => obind (harden_all (fst x) r) (fun y => Some (fst y, snd x :: snd y)))
  end.
(** tools/src/bin/mcnf2opb.rs:23-52 *)
Definition mcnf2opb (o : opb_opts) (t : text) : res text :=
  rbind (mopt_from_dimacs t) (fun p =>
    let '(c, obs) := mopt_decompose p in
    rbind (to_res (harden_all c obs)) (fun r => mopt_write_opb o lord (mopt_compose (fst r) (snd r)))).

(** ** From OPB to DIMACS *)

(** sat.rs:633-653 [convert_to_cnf] *)
Definition convert_to_cnf : inst -> option inst :=
  convert_to_cnf_with_encoders default_encode_cardinality_constraint (default_encode_pb_constraint ord ord1 ord2 ord3 ord4).
(** opb2cnf.rs:19-22, opb2wcnf.rs:20-23, opb2mcnf.rs:19-22: the option for the first index is not used *)
Definition opb_in : opb_opts := mkOpbOpts 0 (no_negated_lits opb_default).
(** the output, if it is written to a file or to the standard output after the lines printed there *)
Definition output (to_stdout : bool) (printed t : text) : text := if to_stdout then printed ++ t else t.
Definition count_line {A} (p : text) (xs : list A) (s : string) : text := line (p ++ print_nat (List.length xs) ++ T s).
Definition counts (p : text) (i : inst) : text :=
  count_line p (i_cnf i) " clauses" ++ count_line p (i_cards i) " cards" ++ count_line p (i_pbs i) " pbs".

(** tools/src/bin/opb2cnf.rs:17-49; [first] is the value of the option, 1 by default *)
Definition opb2cnf (first : N) (to_stdout : bool) (t : text) : res text :=
  rbind (inst_from_opb opb_in t) (fun i =>
    rbind (to_res (convert_to_cnf i)) (fun i' =>
      rbind (inst_write_dimacs i') (fun t' => ROk (output to_stdout (counts [] i) t')))).
(** tools/src/bin/opb2wcnf.rs:18-52 *)
Definition opb2wcnf (first : N) (to_stdout : bool) (t : text) : res text :=
  rbind (opt_from_opb opb_in t) (fun p =>
    let '(c, ob) := opt_decompose p in
    rbind (to_res (inst_sanitize c)) (fun c =>
      rbind (to_res (convert_to_cnf c)) (fun c' =>
        rbind (opt_write_dimacs lord cord (opt_compose c' ob)) (fun t' => ROk (output to_stdout (counts (T "c ") c) t'))))).
(** tools/src/bin/opb2mcnf.rs:17-55 *)
Definition opb2mcnf (first : N) (to_stdout : bool) (t : text) : res text :=
  rbind (mopt_from_opb opb_in t) (fun p =>
    let '(c, obs) := mopt_decompose p in
    rbind (to_res (inst_sanitize c)) (fun c =>
      let p' := mopt_compose c obs in
      rbind (to_res (convert_to_cnf (mo_constrs p'))) (fun c' =>
        rbind (mopt_write_dimacs lord cord (mkMopt c' (mo_objs p'))) (fun t' =>
          ROk (output to_stdout (counts (T "c ") c ++ count_line (T "c ") obs " objectives") t'))))).

(** ** Reading an instance in any format *)

Inductive format : Type := FCnf | FWcnf | FMcnf | FOpb.
(** tools/src/bin/enumerator.rs:76-146, check-solution.rs:90-142 [parse_instance]; the format is given or inferred *)
Definition parse_instance (fmt : format) (o : opb_opts) (t : text) : res mopt :=
  match fmt with
  | FCnf => rbind (inst_from_dimacs t) (fun i => ROk (mopt_compose i []))
  | FWcnf => rbind (opt_from_dimacs t) (fun p => let '(c, ob) := opt_decompose p in ROk (mopt_compose c [ob]))
  | FMcnf => mopt_from_dimacs t
  | FOpb => mopt_from_opb o t
  end.

(** ** Checking a solution *)

Inductive verdict : Type := Accepted (values : list Z) | Rejected (c : constr_ref).
(** check-solution.rs:61-72: the lines of the solution that start with [v] *)
Fixpoint read_solution (s : assignment) (ls : list text) : vres assignment verror :=
  match ls with
  | [] => VOk s
  | l :: r => if starts_with (T "v") l then match extend_from_vline s l with VOk s' => read_solution s' r | x => x end
              else read_solution s r
  end.
(** tools/src/bin/check-solution.rs:46-88 *)
Definition check_solution (fmt : format) (o : opb_opts) (t sol : text) : res verdict :=
  rbind (parse_instance fmt o t) (fun p =>
    let '(c, obs) := mopt_decompose p in
    match read_solution [] (read_lines sol) with
    | VErr _ => RErr
    | VPanic => RPanic
    | VOk s => match unsat_constraint s c with
               | Some r => ROk (Rejected r)
               | None => rbind (to_res (mapM (obj_evaluate s) obs)) (fun vs => ROk (Accepted vs))
               end
    end).

(** ** Enumerating solutions *)

(** src/types/mod.rs:720-728, 1122-1126 [Display] of ternary values and assignments *)
Definition show_assignment (s : assignment) : text :=
  map (fun t => match t with TTrue => "1" | TFalse => "0" | TDontCare => "_" end%char) s.

Section Solver.
Context {S W : Type} (V : solver S W).
(** how an enumeration ends: the solver reported that there are no more solutions, the tool panicked, or it was stopped after the
    number of solutions asked for *)
Inductive estop : Type := EDone | EPanic | EStopped.
(** tools/src/bin/enumerator.rs:156-180 [Enumerator::next] *)
Definition enum_next (max_var : N) (s : S) (w : W) : estop + assignment * S * W :=
  match sv_solve V s w with
  | (Some RSat, s1, w1) =>
      match sv_solution V s1 max_var with
      | Some sol =>
          match assignment_into_iter sol with
          | Some ls => match sv_add V s1 (map neg ls) w1 with
                       | (true, s2, w2) => inr (sol, s2, w2)
                       | (false, _, _) => inl EPanic
                       end
          | None => inl EPanic
          end
      | None => inl EPanic
      end
  | (Some RUnsat, _, _) => inl EDone
  | (Some RInterrupted, _, _) | (None, _, _) => inl EPanic
  end.
(** enumerator.rs:205-218: at most [k] solutions *)
Fixpoint enum_run (max_var : N) (k : nat) (s : S) (w : W) : list assignment * estop :=
  match k with
  | O => ([], EStopped)
  | Datatypes.S k' => match enum_next max_var s w with
            | inl e => ([], e)
            | inr (sol, s', w') => let '(sols, e) := enum_run max_var k' s' w' in (sol :: sols, e)
            end
  end.
(** the clauses are added; errors end the tool *)
Fixpoint add_cnf (f : cnf) (s : S) (w : W) : option (S * W) :=
  match f with
  | [] => Some (s, w)
  | c :: r => match sv_add V s c w with (true, s', w') => add_cnf r s' w' | (false, _, _) => None end
  end.
(** sat.rs:612-631 [into_cnf], with [BasicVarManager::max_var] *)
Definition max_var_of (next : N) : option N := if (next =? 0)%N then None else Some (next - 1)%N.
(** enumerator.rs:205-213: the lines printed for a solution; [evaluate] may panic *)
Definition solution_lines (values : bool) (obs : list obj) (sol : assignment) : option text :=
  obind (if values && negb (Nat.eqb (List.length obs) 0)
         then obind (mapM (obj_evaluate sol) obs) (fun vs => Some (line (T "o" ++ flat_map (fun v => T " " ++ print_Z v) vs)))
         else Some [])
        (fun o => Some (o ++ line (T "v " ++ show_assignment sol))).
(** enumerator.rs:200, 214: the tool stops after the solution whose number is at least the number asked for. Without such a number it goes on
    until there are no more solutions; [fuel] bounds the number of rounds of the model. *)
Definition enum_limit (until : option nat) (fuel : nat) : nat := match until with Some n => Nat.max 1 n | None => fuel end.
(** tools/src/bin/enumerator.rs:183-220: the solutions, the lines printed for each, and how the enumeration ends. A panic while values are
    printed ends the tool. *)
Definition enumerator (values : bool) (fmt : format) (o : opb_opts) (t : text) (until : option nat) (fuel : nat) (w : W) : res (list assignment * list text * estop) :=
  rbind (parse_instance fmt o t) (fun p =>
    let '(c, obs) := mopt_decompose p in
    rbind (to_res (max_var_of (i_next c))) (fun mv =>
      rbind (to_res (into_cnf ord ord1 ord2 ord3 ord4 c)) (fun r =>
        let '(s0, w0) := sv_init V w in
        match add_cnf (fst r) s0 w0 with
        | Some (s1, w1) =>
            let '(sols, e) := enum_run mv (enum_limit until fuel) s1 w1 in
            rbind (to_res (mapM (solution_lines values obs) sols)) (fun ts => ROk (sols, ts, e))
        | None => RErr
        end))).
End Solver.

(** ** Shuffling *)

(** sat.rs:196-201, 775-782 [shuffle] of clauses; sat.rs:715-734 [reindex] with a [RandReindVarManager] *)
Section Shuffle.
Variables (shuffle_vars : list N -> list N) (shuffle_cls : list clause -> list clause).
Variables (shuffle_soft : list lit -> list lit) (shuffle_soft_cls : list clause -> list clause).
Definition rand_step (v : N) (s : randman) : option (N * randman) := Some (rand_reindex v s, s).
Definition rand_start (n : N) : option randman := rand_init n (shuffle_vars (map N.of_nat (seq 0 (N.to_nat n)))).
(** opt.rs:1045-1061 [Objective::shuffle] *)
Definition obj_shuffle (ob : obj) : obj :=
  match ob with OWeighted _ _ _ => ob | OUnweighted z u ls cs => OUnweighted z u (shuffle_soft ls) (shuffle_soft_cls cs) end.
(** tools/src/bin/shuffledimacs.rs:31-41; an instance from a CNF file has no other constraints than clauses *)
Definition shuffle_cnf (t : text) : res text :=
  rbind (inst_from_dimacs t) (fun i =>
    rbind (to_res (rand_start (i_next i))) (fun s =>
      rbind (to_res (inst_reindex rand_step i s)) (fun r =>
        let '(f, cards, pbs, s') := r in inst_write_dimacs (mkInst (shuffle_cls f) cards pbs (ra_next s'))))).
(** tools/src/bin/shuffledimacs.rs:42-51, opt.rs:1331-1337 [reindex], 1369-1373 [shuffle] *)
Definition shuffle_wcnf (t : text) : res text :=
  rbind (opt_from_dimacs t) (fun p =>
    rbind (to_res (rand_start (i_next (o_constrs p)))) (fun s =>
      rbind (to_res (mopt_reindex rand_step lord cord (mkMopt (o_constrs p) [o_obj p]) s)) (fun r =>
        let '(f, cards, pbs, os, s') := r in
        match os with
        | [ob] => opt_write_dimacs lord cord (mkOpt (mkInst (shuffle_cls f) cards pbs (ra_next s')) (obj_shuffle ob))
        | _ => RPanic
        end))).
(** tools/src/bin/shuffledimacs.rs:52-61, multiopt.rs:198-207, 241-245 *)
Definition shuffle_mcnf (t : text) : res text :=
  rbind (mopt_from_dimacs t) (fun p =>
    rbind (to_res (rand_start (i_next (mo_constrs p)))) (fun s =>
      rbind (to_res (mopt_reindex rand_step lord cord p s)) (fun r =>
        let '(f, cards, pbs, os, s') := r in
        mopt_write_dimacs lord cord (mkMopt (mkInst (shuffle_cls f) cards pbs (ra_next s')) (map obj_shuffle os))))).
End Shuffle.
End Orders.
