(** * What BatSat promises, and runs of the wrapper *)

From Coq Require Import List Bool NArith ZArith.
From Verif Require Import Spec Types SolverSpec Solver SolverUse Wrappers WrapperSpec Batsat.
Import ListNotations.

(** A literal of BatSat stands for the variable if its flag is true, for the negated variable otherwise. *)
Definition blit_true (a : asg) (b : blit) : bool := if bl_sign b then a (bl_var b) else negb (a (bl_var b)).
Definition bsat_clause (a : asg) (c : list blit) : bool := existsb (blit_true a) c.

(** What BatSat contains: clauses, a number of variables, and what values and cores refer to *)
Inductive btans : Type := BtNone | BtSat (p : pasg) | BtUnsat (ls : list blit).
Record btst : Type := mkBtst { bt_f : list (list blit); bt_n : N; bt_ans : btans }.
Definition bsat_all (a : asg) (s : btst) : Prop := forall c, In c (bt_f s) -> bsat_clause a c = true.
Definition bvars_below (n : N) (ls : list blit) : Prop := forall l, In l ls -> (bl_var l < n)%N.

Record conforming_batsat {B W} (A : bapi B W) (R : B -> btst -> Prop) : Prop := mkConformingBatsat {
  cb_init : R (bt_init A) (mkBtst [] 0 BtNone);
  cb_num_vars : forall b s, R b s -> bt_num_vars A b = bt_n s;
  cb_new_var : forall b s, R b s -> R (bt_new_var A b) (mkBtst (bt_f s) (bt_n s + 1) (bt_ans s));
  cb_var_of_int : forall b s v, R b s -> R (bt_var_of_int A b v) (mkBtst (bt_f s) (N.max (bt_n s) (v + 1)) (bt_ans s));
  (* clauses and assumptions must be over existing variables *)
  cb_add : forall b s c, R b s -> bvars_below (bt_n s) c -> R (bt_add A b c) (mkBtst (bt_f s ++ [c]) (bt_n s) BtNone);
  cb_sat : forall b s ls w b' w', R b s -> bvars_below (bt_n s) ls -> bt_solve A b ls w = (Some true, b', w') ->
    exists p, (forall a, completes a p -> bsat_all a s /\ forall l, In l ls -> blit_true a l = true) /\ R b' (mkBtst (bt_f s) (bt_n s) (BtSat p));
  cb_unsat : forall b s ls w b' w', R b s -> bvars_below (bt_n s) ls -> bt_solve A b ls w = (Some false, b', w') ->
    (forall a, bsat_all a s -> exists l, In l ls /\ blit_true a l = false) /\ R b' (mkBtst (bt_f s) (bt_n s) (BtUnsat ls));
  cb_undef : forall b s ls w b' w', R b s -> bvars_below (bt_n s) ls -> bt_solve A b ls w = (None, b', w') -> R b' (mkBtst (bt_f s) (bt_n s) BtNone);
  cb_value : forall b s p l, R b s -> bt_ans s = BtSat p ->
    bt_value A b l = match p (bl_var l) with Some x => Some (if bl_sign l then x else negb x) | None => None end;
  (* the final conflict clause: negated assumptions *)
  cb_core : forall b s ls, R b s -> bt_ans s = BtUnsat ls ->
    (forall l, In l (bt_core A b) -> In (mkBlit (bl_var l) (negb (bl_sign l))) ls) /\ forall a, bsat_all a s -> bsat_clause a (bt_core A b) = true
}.

(** Runs of a program using the wrapper: [f] are the clauses, [log] the results of the searches, that is of all calls except
    calls of [solve] when the last answer is still known, and [vs] all variables in clauses, in assumptions or reserved. *)
Section History.
Context {B W : Type} (A : bapi B W).
Definition known (s : bwrap B) : Prop := b_state s = BSatisfied \/ b_state s = BRefuted false.
Inductive bhistory : bwrap B -> cnf -> list sres -> list N -> Prop :=
  | bh_init w : bhistory (fst (bat_init A w)) [] [] []
  | bh_add s f log vs c w s' w' : bhistory s f log vs -> bat_add A s c w = (true, s', w') -> bhistory s' (f ++ [c]) log (vs ++ map lvar c)
  | bh_reserve s f log vs v : bhistory s f log vs -> bhistory (bat_reserve A s v) f log (vs ++ [v])
  | bh_known s f log vs w r s' w' : bhistory s f log vs -> known s -> bat_solve A s w = (Some r, s', w') -> bhistory s' f log vs
  | bh_solve s f log vs w r s' w' : bhistory s f log vs -> ~ known s -> bat_solve A s w = (Some r, s', w') -> bhistory s' f (log ++ [r]) vs
  | bh_assumps s f log vs ls w r s' w' : bhistory s f log vs -> bat_solve_assumps A s ls w = (Some r, s', w') -> bhistory s' f (log ++ [r]) (vs ++ map lvar ls).
End History.
(** [h] is the largest of the variables *)
Definition largest (vs : list N) (h : option N) : Prop := match h with None => vs = [] | Some v => In v vs /\ forall u, In u vs -> (u <= v)%N end.
Definition is_res (r x : sres) : bool := match r, x with RSat, RSat | RUnsat, RUnsat | RInterrupted, RInterrupted => true | _, _ => false end.
Definition count_res (r : sres) (log : list sres) : nat := length (filter (is_res r) log).
