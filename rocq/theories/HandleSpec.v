(** * Specification for callbacks and handles: what the user attached *)

From Coq Require Import List Bool Arith.
From Verif Require Import Handles.
Import ListNotations.

(** for each solver: the terminator and the learner attached last and not detached since; [None] if the solver was dropped.
    For each interrupter the solver it was made by. *)
Record uview : Type := mkUview { u_solvers : list (option (option nat * option nat)); u_ints : list nat }.
Definition u_start : uview := mkUview [] [].
Definition u_set (u : uview) (i : nat) (x : option (option nat * option nat)) : uview := mkUview (set_nth i x (u_solvers u)) (u_ints u).
(** [None]: there is no such solver or interrupter (any more) *)
Definition u_with {X} (u : uview) (i : nat) (f : option nat -> option nat -> X) : option X :=
  match nth_error (u_solvers u) i with Some (Some (t, l)) => Some (f t l) | _ => None end.
Definition u_step (u : uview) (o : hop) : option (hres * uview) :=
  match o with
  | ONew => Some (HNone, mkUview (u_solvers u ++ [Some (None, None)]) (u_ints u))
  | OAttachTerm i cb => u_with u i (fun t l => (HNone, u_set u i (Some (Some cb, l))))
  | ODetachTerm i => u_with u i (fun t l => (HNone, u_set u i (Some (None, l))))
  | OAttachLearn i cb => u_with u i (fun t l => (HNone, u_set u i (Some (t, Some cb))))
  | ODetachLearn i => u_with u i (fun t l => (HNone, u_set u i (Some (t, None))))
  | OSolve i => u_with u i (fun t l => (HCalled t l, u))
  | OInterrupter i => u_with u i (fun t l => (HNone, mkUview (u_solvers u) (u_ints u ++ [i])))
  | OInterrupt k => match nth_error (u_ints u) k with Some i => u_with u i (fun t l => (HNone, u)) | None => None end
  | ODrop i => u_with u i (fun t l => (HNone, u_set u i None))
  end.
Fixpoint u_run (u : uview) (os : list hop) : option (list hres) :=
  match os with
  | [] => Some []
  | o :: os' => match u_step u o with Some (r, u') => match u_run u' os' with Some rs => Some (r :: rs) | None => None end | None => None end
  end.
(** the calls to [detach_learner] while a terminator is attached *)
Definition bad_detach (u : uview) (o : hop) : bool :=
  match o with ODetachLearn i => match nth_error (u_solvers u) i with Some (Some (Some _, _)) => true | _ => false end | _ => false end.
Fixpoint no_bad_detach (u : uview) (os : list hop) : bool :=
  match os with
  | [] => true
  | o :: os' => negb (bad_detach u o) && match u_step u o with Some (_, u') => no_bad_detach u' os' | None => true end
  end.
