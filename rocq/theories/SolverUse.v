(** * Using the incremental simulator and the external solver: histories of calls *)

From Coq Require Import List Bool NArith.
From Verif Require Import Spec Types SolverSpec Solver.
Import ListNotations.

Definition units (ls : list lit) : cnf := map (fun l => [l]) ls.

Section Histories.
Context {S W : Type} (V : solver S W).
Notation inc := (inc S).

(** what the user knows: nothing was answered since the last clause was added; something was; or something was, but a
    later call under assumptions failed *)
Inductive phase : Type := PFresh | PAnswered | PLost.

(** All histories of calls and their outcomes, including errors, except two kinds of errors: adding a clause after an
    answer, and solving under assumptions before one (since the last clause). [f] are the clauses added successfully. *)
Inductive history : inc -> cnf -> phase -> Prop :=
  | hi_init w : history (fst (inc_init V w)) [] PFresh
  | hi_add i f p c w i' w' : history i f p -> inc_add V i c w = (true, i', w') -> history i' (f ++ [c]) PFresh
  | hi_add_err i f c w i' w' : history i f PFresh -> inc_add V i c w = (false, i', w') -> history i' f PFresh
  | hi_solve i f p w r i' w' : history i f p -> inc_solve V i w = (Some r, i', w') -> history i' f (match p with PLost => PLost | _ => PAnswered end)
  | hi_solve_err i f p w i' w' : history i f p -> inc_solve V i w = (None, i', w') -> history i' f p
  | hi_assumps i f p ls w r i' w' : history i f p -> inc_solve_assumps V i ls w = (Some r, i', w') -> history i' f PAnswered
  | hi_assumps_err i f p ls w i' w' : history i f p -> p <> PFresh -> inc_solve_assumps V i ls w = (None, i', w') -> history i' f PLost.

End Histories.

Section Programs.
Context {W : Type} (run : cnf -> N -> W -> option sout * W).

(** the program only answers what is true of the clauses it is given *)
Definition honest : Prop := forall f n w,
  match fst (run f n w) with
  | Some (OSat sol) => forall a, completes a (pasg_of sol) -> sat_cnf a f = true
  | Some OUnsat => unsat f
  | _ => True
  end.

(** all calls and their results *)
Inductive ecall : Type := CAdd (c : clause) | CSolve | CVal (l : lit) | CSolution (h : N).
Inductive eresult : Type := ROk | RErr | RAnswer (r : sres) | RVal (t : tern) | RSolution (sol : assignment).
Definition ext_call (s : ext) (c : ecall) (w : W) : eresult * ext * W :=
  match c with
  | CAdd c => let '(ok, s', w') := ext_add s c w in (if ok then ROk else RErr, s', w')
  | CSolve => let '(r, s', w') := ext_solve run s w in (match r with Some r => RAnswer r | None => RErr end, s', w')
  | CVal l => (match ext_val s l with Some t => RVal t | None => RErr end, s, w)
  | CSolution h => (match ext_solution s h with Some sol => RSolution sol | None => RErr end, s, w)
  end.
Fixpoint ext_calls (s : ext) (cs : list ecall) (w : W) : list eresult :=
  match cs with [] => [] | c :: cs' => let '(r, s', w') := ext_call s c w in r :: ext_calls s' cs' w' end.

(** the number of variables of a formula: one more than the largest *)
Definition n_vars_of (f : cnf) : N := fold_left (fun n l => N.max (lvar l + 1) n) (concat f) 0%N.

(** what the results must be *)
Definition after_result (o : sout) (c : ecall) : eresult :=
  match o, c with OSat sol, CVal l => RVal (lit_value sol l) | OSat sol, CSolution h => RSolution (truncate sol h) | _, _ => RErr end.
Fixpoint spec_results (f : cnf) (cs : list ecall) (w : W) : list eresult :=
  match cs with
  | [] => []
  | CAdd c :: cs' => ROk :: spec_results (f ++ [c]) cs' w
  | CSolve :: cs' => match fst (run f (n_vars_of f) w) with
                     | Some o => RAnswer (sout_result o) :: map (after_result o) cs'
                     | None => RErr :: map (after_result OUnknown) cs'
                     end
  | (CVal _ | CSolution _) :: cs' => RErr :: spec_results f cs' w
  end.

End Programs.
