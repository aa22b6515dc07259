(** * Model of callbacks and handles in the solver crates

    [ipasir/src/lib.rs:339-420], [cadical/src/lib.rs:871-968, 1206-1210], [kissat/src/lib.rs:432-484] (without a learner),
    [minisat/src/core.rs:255-280, 415-420] and [glucose/src/core.rs] (without callbacks). A solver owns the boxes of its
    callbacks, the back end keeps pointers into them; an interrupter keeps the handle of the back end. Memory is a list of
    cells, each holding a callback or freed; an address is the position of a cell, and is never used twice (reuse would only
    hide errors). A solver of the program is its position in a list and stays there, not alive, after it was dropped.

    [HIll]: a program with this call does not exist, since the solver was dropped (or never made): the compiler rejects it.
    [HBad]: undefined behaviour, memory is used that was freed. *)

From Coq Require Import List Bool Arith.
Import ListNotations.

Record hsolver : Type := mkHsolver {
  h_alive : bool;
  h_term : option nat; h_learn : option nat;        (* the fields [terminate_cb] and [learner_cb] *)
  h_bterm : option nat; h_blearn : option nat       (* the pointers the back end keeps *)
}.
Record hstate : Type := mkHstate { h_heap : list (option nat); h_solvers : list hsolver; h_ints : list nat }.
Inductive hres : Type := HNone | HCalled (term learn : option nat).
Inductive hout : Type := HOk (r : hres) (s : hstate) | HBad | HIll.

Inductive hop : Type :=
  | ONew | OAttachTerm (i cb : nat) | ODetachTerm (i : nat) | OAttachLearn (i cb : nat) | ODetachLearn (i : nat)
  | OSolve (i : nat)                                (* the back end calls both callbacks *)
  | OInterrupter (i : nat) | OInterrupt (k : nat)   (* the [k]th interrupter made *)
  | ODrop (i : nat).

Fixpoint set_nth {X} (n : nat) (x : X) (xs : list X) : list X :=
  match xs, n with [], _ => [] | _ :: xs', O => x :: xs' | y :: xs', S n' => y :: set_nth n' x xs' end.
(** dropping a box, if there is one *)
Definition hfree (p : option nat) (heap : list (option nat)) : list (option nat) := match p with Some a => set_nth a None heap | None => heap end.
(** what a pointer of the back end points to; [None]: it was freed *)
Definition hread (p : option nat) (heap : list (option nat)) : option (option nat) :=
  match p with None => Some None | Some a => match nth_error heap a with Some (Some cb) => Some (Some cb) | _ => None end end.
Definition with_solver (s : hstate) (i : nat) (f : hsolver -> hout) : hout :=
  match nth_error (h_solvers s) i with Some v => if h_alive v then f v else HIll | None => HIll end.
Definition put (s : hstate) (i : nat) (heap : list (option nat)) (v : hsolver) : hstate := mkHstate heap (set_nth i v (h_solvers s)) (h_ints s).

Definition hstep (s : hstate) (o : hop) : hout :=
  match o with
  (* ipasir/src/lib.rs:124-134 [default] *)
  | ONew => HOk HNone (mkHstate (h_heap s) (h_solvers s ++ [mkHsolver true None None None None]) (h_ints s))
  (* ipasir/src/lib.rs:339-347: the new box is made, the old one is dropped, the pointer is set *)
  | OAttachTerm i cb => with_solver s i (fun v =>
      let a := length (h_heap s) in HOk HNone (put s i (hfree (h_term v) (h_heap s ++ [Some cb])) (mkHsolver true (Some a) (h_learn v) (Some a) (h_blearn v))))
  (* ipasir/src/lib.rs:349-352 *)
  | ODetachTerm i => with_solver s i (fun v => HOk HNone (put s i (hfree (h_term v) (h_heap s)) (mkHsolver true None (h_learn v) None (h_blearn v))))
  (* ipasir/src/lib.rs:383-398 *)
  | OAttachLearn i cb => with_solver s i (fun v =>
      let a := length (h_heap s) in HOk HNone (put s i (hfree (h_learn v) (h_heap s ++ [Some cb])) (mkHsolver true (h_term v) (Some a) (h_bterm v) (Some a))))
  (* ipasir/src/lib.rs:400-403, cadical/src/lib.rs:938-941: the box of the terminator is dropped, the learner is disconnected *)
  | ODetachLearn i => with_solver s i (fun v => HOk HNone (put s i (hfree (h_term v) (h_heap s)) (mkHsolver true None (h_learn v) (h_bterm v) None)))
  (* ipasir/src/ffi.rs:34-60 *)
  | OSolve i => with_solver s i (fun v =>
      match hread (h_bterm v) (h_heap s), hread (h_blearn v) (h_heap s) with Some t, Some l => HOk (HCalled t l) s | _, _ => HBad end)
  (* cadical/src/lib.rs:946-950 *)
  | OInterrupter i => with_solver s i (fun _ => HOk HNone (mkHstate (h_heap s) (h_solvers s) (h_ints s ++ [i])))
  (* cadical/src/lib.rs:963-967: the handle is dereferenced *)
  | OInterrupt k => match nth_error (h_ints s) k with
                    | Some i => match nth_error (h_solvers s) i with Some v => if h_alive v then HOk HNone s else HBad | None => HIll end
                    | None => HIll
                    end
  (* cadical/src/lib.rs:1206-1210: the back end is released, then the fields are dropped *)
  | ODrop i => with_solver s i (fun v => HOk HNone (put s i (hfree (h_learn v) (hfree (h_term v) (h_heap s))) (mkHsolver false None None None None)))
  end.
Definition h_start : hstate := mkHstate [] [] [].
Fixpoint hrun (s : hstate) (os : list hop) : option (list hres) * bool :=   (* results up to the end; [true]: undefined behaviour *)
  match os with
  | [] => (Some [], false)
  | o :: os' => match hstep s o with
                | HOk r s' => match hrun s' os' with (Some rs, b) => (Some (r :: rs), b) | x => x end
                | HBad => (None, true)
                | HIll => (None, false)
                end
  end.
