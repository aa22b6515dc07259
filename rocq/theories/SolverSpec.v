(** * Specification of SAT solvers

    What a caller may assume of a solver, in terms of the results of its calls. Nothing here mentions how a solver works:
    a solver has some state [S], and [W] stands for everything outside that its answers may depend on (time, randomness,
    the operating system), so that the same call may answer differently at different times. *)

From Coq Require Import List Bool NArith.
From Verif Require Import Spec Types.
Import ListNotations.

Inductive sres : Type := RSat | RUnsat | RInterrupted.

Record solver (S W : Type) : Type := mkSolver {
  sv_init : W -> S * W;
  sv_add : S -> clause -> W -> bool * S * W;            (* add a clause; [false] is an error *)
  sv_solve : S -> W -> option sres * S * W;             (* [None] is an error *)
  sv_val : S -> lit -> option tern;                     (* value of a literal; [None] is an error *)
  sv_solution : S -> N -> option assignment;            (* values of all variables up to the given one *)
  sv_max_var : S -> option N                            (* largest variable known to the solver *)
}.
Arguments mkSolver {S W}. Arguments sv_init {S W}. Arguments sv_add {S W}. Arguments sv_solve {S W}. Arguments sv_val {S W}.
Arguments sv_solution {S W}. Arguments sv_max_var {S W}.

(** the value of a literal under a partial assignment *)
Definition plit (p : pasg) (l : lit) : tern :=
  match p (lvar l) with Some b => tern_of_bool (xorb (lneg l) b) | None => TDontCare end.

(** the values the solver returns in this state are a model of [f]: whatever the variables without value are set to, [f]
    is satisfied *)
Definition models {S W} (V : solver S W) (s : S) (f : cnf) : Prop :=
  exists p : pasg,
    (forall l, sv_val V s l = Some (plit p l)) /\
    (forall h, exists sol, sv_solution V s h = Some sol /\ forall v, pasg_of sol v = if (v <=? h)%N then p v else None) /\
    (forall a, completes a p -> sat_cnf a f = true).

Definition unsat (f : cnf) : Prop := forall a, sat_cnf a f = false.

(** A correct solver: there is a notion [reps s f m] of the solver in state [s] containing the clauses [f] (with values
    available if [m]) that successful calls keep. Nothing is said about the state after an error. *)
Record correct {S W} (V : solver S W) (reps : S -> cnf -> bool -> Prop) : Prop := mkCorrect {
  co_init : forall w, reps (fst (sv_init V w)) [] false;
  co_add : forall s f m c w s' w', reps s f m -> sv_add V s c w = (true, s', w') -> reps s' (f ++ [c]) false;
  co_sat : forall s f m w s' w', reps s f m -> sv_solve V s w = (Some RSat, s', w') -> reps s' f true;
  co_unsat : forall s f m w s' w', reps s f m -> sv_solve V s w = (Some RUnsat, s', w') -> reps s' f false /\ unsat f;
  co_interrupted : forall s f m w s' w', reps s f m -> sv_solve V s w = (Some RInterrupted, s', w') -> reps s' f false;
  co_models : forall s f, reps s f true -> models V s f
}.

(** errors leave the clauses in the solver as they were *)
Record robust {S W} (V : solver S W) (reps : S -> cnf -> bool -> Prop) : Prop := mkRobust {
  rb_add : forall s f m c w s' w', reps s f m -> sv_add V s c w = (false, s', w') -> reps s' f false;
  rb_solve : forall s f m w s' w', reps s f m -> sv_solve V s w = (None, s', w') -> reps s' f false
}.

(** the solver knows all variables of its clauses *)
Definition knows_vars {S W} (V : solver S W) (reps : S -> cnf -> bool -> Prop) : Prop :=
  forall s f m c l, reps s f m -> In c f -> In l c -> exists v, sv_max_var V s = Some v /\ (lvar l <= v)%N.

(** no call fails or is interrupted *)
Definition reliable {S W} (V : solver S W) (reps : S -> cnf -> bool -> Prop) : Prop :=
  (forall s f m c w, reps s f m -> fst (fst (sv_add V s c w)) = true) /\
  (forall s f m w, reps s f m -> fst (fst (sv_solve V s w)) = Some RSat \/ fst (fst (sv_solve V s w)) = Some RUnsat).

(** a solver that works as long as it is only asked once: [fresh s f] if it contains [f] and was not asked yet *)
Definition one_shot {S W} (V : solver S W) (fresh : S -> cnf -> Prop) : Prop :=
  (forall w, fresh (fst (sv_init V w)) []) /\
  (forall s f c w, fresh s f -> fst (fst (sv_add V s c w)) = true /\ fresh (snd (fst (sv_add V s c w))) (f ++ [c])) /\
  (forall s f w, fresh s f -> fst (fst (sv_solve V s w)) = Some RSat \/ fst (fst (sv_solve V s w)) = Some RUnsat).
