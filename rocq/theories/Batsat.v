(** * Model of the solver crate [batsat/src/lib.rs]

    The back end is BatSat, a solver written in Rust whose source is not part of the repository: any value of the record
    [bapi]; what it promises is in BatsatSpec.v. Not modelled: statistics except the numbers of variables and of answers, and the clock. *)

From Coq Require Import List Bool NArith ZArith.
From Verif Require Import Spec Types SolverSpec Solver Wrappers.
Import ListNotations.

(** BatSat's literals: the flag says positive, the opposite of RustSAT's (batsat/src/lib.rs:19-23) *)
Record blit : Type := mkBlit { bl_var : N; bl_sign : bool }.
(** [batsat::Lit::new(var, l.is_pos())] *)
Definition to_bat (l : lit) : blit := mkBlit (lvar l) (negb (lneg l)).
(** batsat/src/lib.rs:237 [Lit::new(l.var().idx(), !l.sign())] *)
Definition of_bat (b : blit) : lit := mkLit (bl_var b) (negb (bl_sign b)).

(** The calls of BatSat; [None] as an answer or value is [lbool::UNDEF] *)
Record bapi (B W : Type) : Type := mkBapi {
  bt_init : B;                                             (* [Solver::default] *)
  bt_num_vars : B -> N;                                    (* [num_vars] *)
  bt_new_var : B -> B;                                     (* [new_var_default] *)
  bt_var_of_int : B -> N -> B;                             (* [var_of_int]: the variable with this number, created if necessary *)
  bt_add : B -> list blit -> B;                            (* [add_clause_reuse], its result is ignored *)
  bt_solve : B -> list blit -> W -> option bool * B * W;   (* [solve_limited] *)
  bt_value : B -> blit -> option bool;                     (* [value_lit] *)
  bt_core : B -> list blit                                 (* [unsat_core] *)
}.
Arguments mkBapi {B W}. Arguments bt_init {B W}. Arguments bt_num_vars {B W}. Arguments bt_new_var {B W}. Arguments bt_var_of_int {B W}.
Arguments bt_add {B W}. Arguments bt_solve {B W}. Arguments bt_value {B W}. Arguments bt_core {B W}.

(** batsat/src/lib.rs:41-47 [InternalSolverState], 60-68 [Solver] *)
Inductive btstate : Type := BInput | BSatisfied | BRefuted (under_assumps : bool).
Record bwrap (B : Type) : Type := mkBwrap { b_b : B; b_state : btstate; b_sat : nat; b_unsat : nat; b_term : nat }.
Arguments mkBwrap {B}. Arguments b_b {B}. Arguments b_state {B}. Arguments b_sat {B}. Arguments b_unsat {B}. Arguments b_term {B}.

Section Batsat.
Context {B W : Type} (A : bapi B W).

Definition bat_init (w : W) : bwrap B * W := (mkBwrap (bt_init A) BInput 0 0 0, w).
(** the variables of literals are created from left to right *)
Definition bat_vars (b : B) (ls : list lit) : B := fold_left (fun b l => bt_var_of_int A b (lvar l)) ls b.
(** batsat/src/lib.rs:107-134 [solve_track_stats] *)
Definition bat_search (s : bwrap B) (ls : list lit) (w : W) : sres * bwrap B * W :=
  match bt_solve A (bat_vars (b_b s) ls) (map to_bat ls) w with
  | (Some true, b, w') => (RSat, mkBwrap b BSatisfied (S (b_sat s)) (b_unsat s) (b_term s), w')
  | (Some false, b, w') => (RUnsat, mkBwrap b (BRefuted (match ls with [] => false | _ => true end)) (b_sat s) (S (b_unsat s)) (b_term s), w')
  | (None, b, w') => (RInterrupted, mkBwrap b BInput (b_sat s) (b_unsat s) (S (b_term s)), w')
  end.
(** batsat/src/lib.rs:166-177 [solve] *)
Definition bat_solve (s : bwrap B) (w : W) : option sres * bwrap B * W :=
  match b_state s with
  | BSatisfied => (Some RSat, s, w)
  | BRefuted false => (Some RUnsat, s, w)
  | _ => let '(r, s', w') := bat_search s [] w in (Some r, s', w')
  end.
(** batsat/src/lib.rs:179-196 [lit_val] *)
Definition bat_val (s : bwrap B) (l : lit) : option tern :=
  match b_state s with
  | BSatisfied => Some (match bt_value A (b_b s) (to_bat l) with Some true => TTrue | Some false => TFalse | None => TDontCare end)
  | _ => None
  end.
(** batsat/src/lib.rs:198-214 [add_clause_ref] *)
Definition bat_add (s : bwrap B) (c : clause) (w : W) : bool * bwrap B * W :=
  (true, mkBwrap (bt_add A (bat_vars (b_b s) c) (map to_bat c)) BInput (b_sat s) (b_unsat s) (b_term s), w).
(** batsat/src/lib.rs:216-221 [reserve]; the fuel is the number of variables that are missing *)
Fixpoint bat_new_vars (n : nat) (b : B) (v : N) : B :=
  match n with O => b | S n' => if (bt_num_vars A b <=? v)%N then bat_new_vars n' (bt_new_var A b) v else b end.
Definition bat_reserve (s : bwrap B) (v : N) : bwrap B :=
  mkBwrap (bat_new_vars (N.to_nat (v + 1 - bt_num_vars A (b_b s))) (b_b s) v) (b_state s) (b_sat s) (b_unsat s) (b_term s).
(** batsat/src/lib.rs:225-227 [solve_assumps] *)
Definition bat_solve_assumps (s : bwrap B) (ls : list lit) (w : W) : option sres * bwrap B * W :=
  let '(r, s', w') := bat_search s ls w in (Some r, s', w').
(** batsat/src/lib.rs:229-249 [core] *)
Definition bat_core (s : bwrap B) : option (list lit) :=
  match b_state s with BRefuted true => Some (map of_bat (bt_core A (b_b s))) | BRefuted false => Some [] | _ => None end.
(** batsat/src/lib.rs:281-288 [max_var] *)
Definition bat_max_var (s : bwrap B) : option N := if (0 <? bt_num_vars A (b_b s))%N then Some (bt_num_vars A (b_b s) - 1)%N else None.

Definition batsat : incsolver (bwrap B) W :=
  mkIncsolver (mkSolver bat_init bat_add bat_solve bat_val (fun s => default_solution (bat_val s)) bat_max_var) bat_solve_assumps bat_core.
End Batsat.
