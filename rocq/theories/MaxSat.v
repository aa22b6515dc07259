(** * Model of [src/algs/maxsat.rs]: solution-improving search, and of [OptInstance::solve_maxsat] *)

From Coq Require Import List Bool NArith ZArith.
From Verif Require Import Spec BoundSpec Types Inst Opt SolverSpec Solver.
Import ListNotations.

(** a result, a panic, or (only of the model) not enough steps *)
Inductive outcome (A : Type) : Type := Done (x : A) | Panic | OutOfFuel.
Arguments Done {A}. Arguments Panic {A}. Arguments OutOfFuel {A}.

(** src/algs/maxsat.rs:24-32 [objective_value] *)
Definition objective_value (obj : list (lit * nat)) (sol : assignment) : nat :=
  fold_left (fun sum '(l, w) => match lit_value sol l with TTrue => (sum + w)%nat | _ => sum end) obj 0%nat.

Section Search.
Context {S W ES : Type} (V : solver S W) (E : encoder (lit * nat) ES) (from : list (lit * nat) -> ES).

(** src/algs/maxsat.rs:72-92, the loop; [fuel] bounds the number of rounds *)
Fixpoint improve (fuel : nat) (obj : list (lit * nat)) (max_var : N) (s : S) (enc : ES) (next : N) (best : option (assignment * nat)) (w : W)
  : outcome (option (assignment * nat)) :=
  match fuel with
  | O => OutOfFuel
  | Datatypes.S fuel' =>
      match sv_solve V s w with
      | (Some RSat, s1, w1) =>
          match sv_solution V s1 max_var with
          | None => Panic
          | Some assign =>
              let val := objective_value obj assign in
              match val with
              | O => Done (Some (assign, val))
              | Datatypes.S val' =>
                  match en_ub E enc (Incl val', Excl val) next with
                  | None => Panic
                  | Some (enc', cs, next') =>
                      match add_all V s1 cs w1 with
                      | (false, _, _) => Panic
                      | (true, s2, w2) =>
                          match en_enforce_ub E enc' val' with
                          | Some (EOk units) =>
                              match add_all V s2 (map (fun l => [l]) units) w2 with
                              | (false, _, _) => Panic
                              | (true, s3, w3) => improve fuel' obj max_var s3 enc' next' (Some (assign, val)) w3
                              end
                          | _ => Panic
                          end
                      end
                  end
              end
          end
      | (Some RUnsat, _, _) => Done best
      | _ => Panic
      end
  end.

(** src/algs/maxsat.rs:63-93 [SolutionImprovingSearch::solve] *)
Definition improving_search (fuel : nat) (s : S) (obj : list (lit * nat)) (w : W) : outcome (option (assignment * nat)) :=
  match sv_max_var V s with
  | None => Done (Some ([], 0%nat))
  | Some max_var => improve fuel obj max_var s (from obj) (max_var + 1) None w
  end.
End Search.

(** ** src/instances/opt.rs:1643-1681 [solve_maxsat] with solution-improving search *)
Section SolveMaxSat.
Context {S W ES : Type} (V : solver S W) (E : encoder (lit * nat) ES) (from : list (lit * nat) -> ES).
Context (lord : list (lit * nat) -> list (lit * nat)) (cord : list (clause * nat) -> list (clause * nat)) (to_cnf : inst -> option (cnf * N)).
(* The clauses are collected before they are added to the solver; overflow of the cost is not modelled. *)
Definition solve_maxsat (fuel : nat) (p : opt) (w : W) : outcome (option (assignment * Z)) :=
  match maxsat_input lord cord to_cnf p with
  | None => Panic
  | Some (f, obj, offset) =>
      let '(s, w0) := sv_init V w in
      match add_all V s f w0 with
      | (false, _, _) => Panic
      | (true, s', w1) =>
          match improving_search V E from fuel s' obj w1 with
          | Done (Some (sol, cost)) => Done (Some (sol, (offset + Z.of_nat cost)%Z))
          | Done None => Done None
          | Panic => Panic
          | OutOfFuel => OutOfFuel
          end
      end
  end.
End SolveMaxSat.
