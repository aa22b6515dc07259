(** * Model of [src/solvers/mod.rs] (default methods), [src/solvers/simulators.rs] and [src/solvers/external.rs]

    Not modelled: solving times and average clause lengths of the statistics, terminators, learners, phases and the other
    optional traits, how the external process is started and fed (temporary files, pipes, exit codes): the whole of
    [call_external] is a function of the clauses written, the number of variables announced and the outside world. *)

From Coq Require Import List Bool NArith.
From Verif Require Import Spec Types SolverSpec.
Import ListNotations.

Section Defaults.
Context {S W : Type} (V : solver S W).

(** src/solvers/mod.rs:279-289 [Solve::add_cnf], [add_cnf_ref]: stops at the first error *)
Fixpoint add_all (s : S) (f : cnf) (w : W) : bool * S * W :=
  match f with
  | [] => (true, s, w)
  | c :: f' => match sv_add V s c w with
               | (true, s', w') => add_all s' f' w'
               | r => r
               end
  end.

(** src/solvers/mod.rs:165-174 [Solve::solution], the default implementation *)
Fixpoint collect_vals (val : lit -> option tern) (n : nat) (idx : N) : option assignment :=
  match n with
  | O => Some []
  | Datatypes.S n' => match val (pos idx) with
           | Some t => match collect_vals val n' (idx + 1) with Some ts => Some (t :: ts) | None => None end
           | None => None
           end
  end.
Definition default_solution (val : lit -> option tern) (high : N) : option assignment := collect_vals val (N.to_nat (high + 1)) 0.

(** ** src/solvers/simulators.rs: an incremental solver on top of one that is not *)

(** simulators.rs:13-19 [InternalSolverState] *)
Inductive istate : Type := IInit | ISat | IUnsat (core : list lit) | IUnknown.
(** simulators.rs:42-48 [Incremental]; of the statistics the largest variable and the counts *)
Record inc : Type := mkInc {
  in_solver : S; in_state : istate; in_clauses : cnf;
  in_max : option N; in_n_clauses : nat; in_n_sat : nat; in_n_unsat : nat; in_n_terminated : nat }.

(** simulators.rs:50-63 [Default] *)
Definition inc_init (w : W) : inc * W :=
  let '(s, w') := sv_init V w in (mkInc s IInit [] None 0 0 0 0, w').

(** simulators.rs:75-84 [update_max_var] *)
Definition update_max_var (m : option N) (c : clause) : option N :=
  Some (fold_left (fun v l => N.max v (lvar l)) c (match m with Some v => v | None => 0%N end)).

(** a new solver with all clauses (simulators.rs:103-104, 146-147, 164-165, 192-193); an error leaves the new solver *)
Definition reload (i : inc) (w : W) : bool * S * W :=
  let '(s, w') := sv_init V w in add_all s (in_clauses i) w'.

(** the fields updated after the inner solver answered (simulators.rs:110-123, 199-213) *)
Definition record_answer (i : inc) (s : S) (r : sres) (core : list lit) : inc :=
  match r with
  | RSat => mkInc s ISat (in_clauses i) (in_max i) (in_n_clauses i) (in_n_sat i + 1) (in_n_unsat i) (in_n_terminated i)
  | RUnsat => mkInc s (IUnsat core) (in_clauses i) (in_max i) (in_n_clauses i) (in_n_sat i) (in_n_unsat i + 1) (in_n_terminated i)
  | RInterrupted => mkInc s IUnknown (in_clauses i) (in_max i) (in_n_clauses i) (in_n_sat i) (in_n_unsat i) (in_n_terminated i + 1)
  end.
(** the inner solver replaced (after an error), everything else as it is *)
Definition with_solver (i : inc) (s : S) : inc :=
  mkInc s (in_state i) (in_clauses i) (in_max i) (in_n_clauses i) (in_n_sat i) (in_n_unsat i) (in_n_terminated i).

(** simulators.rs:95-126 [solve] *)
Definition solve_inner (i : inc) (s : S) (core : list lit) (w : W) : option sres * inc * W :=
  match sv_solve V s w with
  | (Some r, s', w') => (Some r, record_answer i s' r core, w')
  | (None, s', w') => (None, with_solver i s', w')
  end.
Definition inc_solve (i : inc) (w : W) : option sres * inc * W :=
  match in_state i with
  | ISat => (Some RSat, i, w)
  | IUnsat [] => (Some RUnsat, i, w)
  | IUnknown | IUnsat _ =>
      match reload i w with
      | (true, s, w') => solve_inner i s [] w'
      | (false, s, w') => (None, with_solver i s, w')
      end
  | IInit => solve_inner i (in_solver i) [] w
  end.

(** simulators.rs:136-155 [add_clause_ref] and 157-172 [add_clause], which do the same *)
Definition inc_add (i : inc) (c : clause) (w : W) : bool * inc * W :=
  let i := mkInc (in_solver i) (in_state i) (in_clauses i) (update_max_var (in_max i) c) (in_n_clauses i + 1)
                 (in_n_sat i) (in_n_unsat i) (in_n_terminated i) in
  let loaded := match in_state i with IInit => (true, in_solver i, w) | _ => reload i w end in
  let added := match loaded with (true, s, w') => sv_add V s c w' | r => r end in
  match added with
  | (ok, s, w') =>
      (ok, mkInc s IInit (if ok then in_clauses i ++ [c] else in_clauses i) (in_max i) (in_n_clauses i)
                 (in_n_sat i) (in_n_unsat i) (in_n_terminated i), w')
  end.

(** simulators.rs:188-215 [solve_assumps] *)
Definition inc_solve_assumps (i : inc) (assumps : list lit) (w : W) : option sres * inc * W :=
  let loaded := match in_state i with IInit => (true, in_solver i, w) | _ => reload i w end in
  match loaded with
  | (false, s, w') => (None, with_solver i s, w')
  | (true, s, w') =>
      match add_all s (map (fun l => [l]) assumps) w' with
      | (false, s', w'') => (None, with_solver i s', w'')
      | (true, s', w'') => solve_inner i s' (map neg assumps) w''
      end
  end.

(** simulators.rs:217-226 [core] *)
Definition inc_core (i : inc) : option (list lit) := match in_state i with IUnsat core => Some core | _ => None end.

(** simulators.rs:128-134 [lit_val], 174-176 [solution], 179-183 [stats] *)
Definition inc_val (i : inc) (l : lit) : option tern := sv_val V (in_solver i) l.
Definition inc_solution (i : inc) (high : N) : option assignment := sv_solution V (in_solver i) high.

Definition incremental : solver inc W := mkSolver inc_init inc_add inc_solve inc_val inc_solution in_max.
End Defaults.
Arguments inc : clear implicits.

(** ** src/solvers/external.rs: a solver run as another program *)

(** src/instances/fio/mod.rs:192-208 [SolverOutput], [result] *)
Inductive sout : Type := OSat (sol : assignment) | OUnsat | OUnknown.
Definition sout_result (o : sout) : sres := match o with OSat _ => RSat | OUnsat => RUnsat | OUnknown => RInterrupted end.

Section External.
Context {W : Type} (run : cnf -> N -> W -> option sout * W).

(** external.rs:139-153 [SolverState], [SolverPre]: the clauses added and the number of variables, or the output *)
Inductive ext : Type := EPre (f : cnf) (n_vars : N) | EPost (o : sout).

(** external.rs:186-204 [new] *)
Definition ext_init (w : W) : ext * W := (EPre [] 0, w).
(** external.rs:293-308 [add_clause], 271-276 [add_clause_ref] *)
Definition ext_add (s : ext) (c : clause) (w : W) : bool * ext * W :=
  match s with
  | EPre f n => (true, EPre (f ++ [c]) (fold_left (fun n l => N.max (lvar l + 1) n) c n), w)
  | EPost _ => (false, s, w)
  end.
(** external.rs:235-256 [solve]: an error of the call leaves the solver in the state "solved, unknown" *)
Definition ext_solve (s : ext) (w : W) : option sres * ext * W :=
  match s with
  | EPost _ => (None, s, w)
  | EPre f n => match run f n w with
                | (Some o, w') => (Some (sout_result o), EPost o, w')
                | (None, w') => (None, EPost OUnknown, w')
                end
  end.
(** external.rs:258-269 [lit_val] *)
Definition ext_val (s : ext) (l : lit) : option tern := match s with EPost (OSat sol) => Some (lit_value sol l) | _ => None end.
(** external.rs:278-291 [solution] *)
Definition ext_solution (s : ext) (high : N) : option assignment := match s with EPost (OSat sol) => Some (truncate sol high) | _ => None end.
(* the external solver does not track a largest variable ([SolveStats] is not implemented); this field is never used *)
Definition external : solver ext W := mkSolver ext_init ext_add ext_solve ext_val ext_solution (fun _ => None).
End External.
