(** * Specification of the results of maximum satisfiability solving *)

From Coq Require Import List Bool NArith ZArith.
From Verif Require Import Spec Types SolverSpec.
Import ListNotations.

(** no literal occurs together with its negation *)
Definition no_opposites (obj : list (lit * nat)) : Prop := forall x y, In x obj -> In y obj -> fst y <> neg (fst x).
(** all literals of the objective have a value *)
Definition all_valued (obj : list (lit * nat)) (sol : assignment) : Prop := forall x, In x obj -> lit_value sol (fst x) <> TDontCare.

(** [r] is an optimal result for the clauses [f] and the weighted literals [obj] to make false: nothing if there is no
    solution; otherwise a solution (whatever the variables without value are set to) and a cost that no solution is below
    and the returned one attains. *)
Definition optimal (obj : list (lit * nat)) (f : cnf) (r : option (assignment * nat)) : Prop :=
  match r with
  | None => unsat f
  | Some (sol, cost) =>
      (forall a, completes a (pasg_of sol) -> sat_cnf a f = true) /\
      (forall a, sat_cnf a f = true -> cost <= wsum a obj) /\
      (no_opposites obj \/ all_valued obj sol -> exists a, completes a (pasg_of sol) /\ wsum a obj = cost) /\
      (all_valued obj sol -> forall a, completes a (pasg_of sol) -> wsum a obj = cost)
  end.
