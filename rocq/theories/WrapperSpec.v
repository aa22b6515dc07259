(** * Specification for the solver crates: incremental solvers, and what the back ends promise *)

From Coq Require Import List Bool NArith ZArith.
From Verif Require Import Spec Types SolverSpec Solver SolverUse Wrappers.
Import ListNotations.

(** A correct incremental solver: as [correct] (SolverSpec.v), and for answers under assumptions; [mdl s f] says that the
    values returned in state [s] are a model of [f]. *)
Record correct_inc {S W} (V : incsolver S W) (mdl : S -> cnf -> Prop) (reps : S -> cnf -> bool -> Prop) : Prop := mkCorrectInc {
  ci_init : forall w, reps (fst (sv_init (is_solver V) w)) [] false;
  ci_add : forall s f m c w s' w', reps s f m -> sv_add (is_solver V) s c w = (true, s', w') -> reps s' (f ++ [c]) false;
  ci_sat : forall s f m w s' w', reps s f m -> sv_solve (is_solver V) s w = (Some RSat, s', w') -> reps s' f true;
  ci_unsat : forall s f m w s' w', reps s f m -> sv_solve (is_solver V) s w = (Some RUnsat, s', w') ->
    reps s' f false /\ unsat f /\ is_core V s' = Some [];
  ci_interrupted : forall s f m w s' w', reps s f m -> sv_solve (is_solver V) s w = (Some RInterrupted, s', w') -> reps s' f false;
  ci_assumps_sat : forall s f m ls w s' w', reps s f m -> is_assumps V s ls w = (Some RSat, s', w') -> reps s' f true /\ mdl s' (f ++ units ls);
  ci_assumps_unsat : forall s f m ls w s' w', reps s f m -> is_assumps V s ls w = (Some RUnsat, s', w') ->
    reps s' f false /\ (forall a, sat_cnf a f = true -> sat_cube a ls = false) /\
    exists core, is_core V s' = Some core /\ (forall l, In l core -> In (neg l) ls) /\ forall a, sat_cnf a f = true -> sat_clause a core = true;
  ci_assumps_interrupted : forall s f m ls w s' w', reps s f m -> is_assumps V s ls w = (Some RInterrupted, s', w') -> reps s' f false;
  ci_models : forall s f, reps s f true -> mdl s f
}.

(** ** Back ends with the IPASIR interface *)

(** what such a back end contains: complete clauses, the literals of the clause being added, assumptions, the constraint
    (a clause for the next call only), the literals of the one being added, and what [val] and [failed] refer to *)
Inductive bans : Type := BNone | BSat (p : pasg) | BUnsat (ls : list lit) (con : option clause).
Record bst : Type := mkBst { bs_f : cnf; bs_open : clause; bs_as : list lit; bs_con : option clause; bs_con_open : clause; bs_ans : bans }.

(** the question asked by [solve] *)
Definition query (s : bst) (a : asg) : Prop :=
  sat_cnf a (bs_f s) = true /\ sat_cube a (bs_as s) = true /\ match bs_con s with Some c => sat_clause a c = true | None => True end.
Definition after (s : bst) (ans : bans) : bst := mkBst (bs_f s) [] [] None [] ans.
(** a code returned by a call that answers a question, and the state afterwards *)
Definition answers (s : bst) (r : Z) (now : bst -> Prop) : Prop :=
  (r = 10%Z -> exists p, (forall a, completes a p -> query s a) /\ now (after s (BSat p))) /\
  (r = 20%Z -> (forall a, ~ query s a) /\ now (after s (BUnsat (bs_as s) (bs_con s)))) /\
  (r = 0%Z -> now (after s BNone)).

Section Ipasir.
Context {B W : Type} (A : capi B W) (R : B -> bst -> Prop).

(** [R b s]: [s] is what the back end [b] contains. Nothing is said about a call that returns another code than 0 (or than
    10, 20, 0 for questions). *)
Record conforming : Prop := mkConforming {
  cf_init : forall w, R (fst (ca_init A w)) (mkBst [] [] [] None [] BNone);
  cf_add : forall b s l w b' w', R b s -> ca_add A b (zlit l) w = (0%Z, b', w') -> R b' (mkBst (bs_f s) (bs_open s ++ [l]) (bs_as s) (bs_con s) (bs_con_open s) BNone);
  cf_add_end : forall b s w b' w', R b s -> ca_add A b 0 w = (0%Z, b', w') -> R b' (mkBst (bs_f s ++ [bs_open s]) [] (bs_as s) (bs_con s) (bs_con_open s) BNone);
  cf_assume : forall b s l w b' w', R b s -> bs_open s = [] -> bs_con_open s = [] -> ca_assume A b (zlit l) w = (0%Z, b', w') ->
    R b' (mkBst (bs_f s) [] (bs_as s ++ [l]) (bs_con s) [] BNone);
  cf_solve : forall b s w r b' w', R b s -> bs_open s = [] -> bs_con_open s = [] -> ca_solve A b w = (r, b', w') -> answers s r (R b');
  (* of the assumptions of a question answered 20 some have failed: the clauses, and the constraint unless it is said to
     be irrelevant, imply that not all of these hold *)
  cf_failed : forall b s ls con, R b s -> bs_ans s = BUnsat ls con ->
    (forall l, In l ls -> ca_failed A b (zlit l) = 0%Z \/ ca_failed A b (zlit l) = 1%Z) /\
    forall a, sat_cnf a (bs_f s) = true -> match con with Some c => ca_constraint_failed A b <> 0%Z -> sat_clause a c = true | None => True end ->
      exists l, In l ls /\ ca_failed A b (zlit l) = 1%Z /\ lit_true a l = false
}.
(** IPASIR: no codes are returned, and a literal without value has value 0 *)
Definition no_codes : Prop := (forall b z w, fst (fst (ca_add A b z w)) = 0%Z) /\ (forall b z w, fst (fst (ca_assume A b z w)) = 0%Z).
Definition value_code (p : pasg) (l : lit) : Z := match plit p l with TTrue => zlit l | TFalse => - zlit l | TDontCare => 0 end.
Definition ipasir_values : Prop := forall b s p, R b s -> bs_ans s = BSat p -> forall l, ca_val A b (zlit l) = Some (value_code p l).
(** CaDiCaL: codes are 0 or [OUT_OF_MEM]; a literal of an unknown variable may also have value -1 *)
Definition oom_codes : Prop :=
  (forall b z w, fst (fst (ca_add A b z w)) = 0%Z \/ fst (fst (ca_add A b z w)) = out_of_mem) /\
  (forall b z w, fst (fst (ca_assume A b z w)) = 0%Z \/ fst (fst (ca_assume A b z w)) = out_of_mem) /\
  (forall b z w, fst (fst (ca_constrain A b z w)) = 0%Z \/ fst (fst (ca_constrain A b z w)) = out_of_mem) /\
  (forall b z w, fst (fst (ca_resize A b z w)) = 0%Z \/ fst (fst (ca_resize A b z w)) = out_of_mem).
Definition cadical_values : Prop := forall b s p, R b s -> bs_ans s = BSat p -> forall v,
  (forall l, lvar l = v -> ca_val A b (zlit l) = Some (value_code p l)) \/
  (p v = None /\ forall l, lvar l = v -> ca_val A b (zlit l) = Some (-1)%Z).
Record conforming_cadical : Prop := mkConformingCadical {
  cc_ipasir : conforming;
  cc_codes : oom_codes;
  cc_values : cadical_values;
  cc_constrain : forall b s l w b' w', R b s -> bs_open s = [] -> ca_constrain A b (zlit l) w = (0%Z, b', w') -> R b' (mkBst (bs_f s) [] (bs_as s) None (bs_con_open s ++ [l]) BNone);
  cc_constrain_end : forall b s w b' w', R b s -> bs_open s = [] -> ca_constrain A b 0 w = (0%Z, b', w') -> R b' (mkBst (bs_f s) [] (bs_as s) (Some (bs_con_open s)) [] BNone);
  cc_simplify : forall b s n w r b' w', R b s -> bs_open s = [] -> bs_con_open s = [] -> ca_simplify A b n w = (r, b', w') -> answers s r (R b');
  cc_resize : forall b s n w b' w', R b s -> ca_resize A b n w = (0%Z, b', w') -> R b' (mkBst (bs_f s) (bs_open s) (bs_as s) (bs_con s) (bs_con_open s) BNone);
  cc_declare : forall b s n w b' w', R b s -> ca_declare A b n w = (b', w') -> R b' (mkBst (bs_f s) (bs_open s) (bs_as s) (bs_con s) (bs_con_open s) BNone);
  cc_vars : forall b s c l, R b s -> In c (bs_f s) -> In l c -> (Z.of_N (lvar l) + 1 <= ca_vars A b)%Z
}.

(** all calls of a CaDiCaL solver that return no error, except: [solve] after "unsatisfiable" was answered with a temporary
    clause or by [simplify_assumps] (phase [CTainted]); [simplify] after "unsatisfiable" was answered with a core that is
    not empty, or in phase [CTainted]; [simplify_assumps] after any answer; and [declare_more_variables] after
    "satisfiable". [f] are the clauses added, [t] the temporary clause, if any. *)
Inductive cphase : Type := COk | CTainted.
Definition tmp_list (t : option clause) : cnf := match t with Some c => [c] | None => [] end.
Inductive chistory : wrap B -> cnf -> option clause -> cphase -> Prop :=
  | ch_init w : chistory (fst (cad_init A w)) [] None COk
  | ch_add s f t ph c w s' w' : chistory s f t ph -> cad_add A s c w = (true, s', w') -> chistory s' (f ++ [c]) t COk
  | ch_tmp s f t ph c w s' w' : chistory s f t ph -> cad_tmp A s c w = (true, s', w') -> chistory s' f (Some c) COk
  | ch_reserve s f t ph v w s' w' : chistory s f t ph -> cad_reserve A s v w = (true, s', w') -> chistory s' f t COk
  | ch_declare s f t ph n w s' w' : chistory s f t ph -> w_state s <> WSat -> cad_declare A s n w = (s', w') -> chistory s' f t ph
  | ch_solve s f t w r s' w' : chistory s f t COk -> cad_solve A s w = (Some r, s', w') ->
      chistory s' f None (match r, t with RUnsat, Some _ => CTainted | _, _ => COk end)
  | ch_assumps s f t ph ls w r s' w' : chistory s f t ph -> cad_solve_assumps A s ls w = (Some r, s', w') ->
      chistory s' f None (match r, t with RUnsat, Some _ => CTainted | _, _ => COk end)
  | ch_simplify s f t n w r s' w' : chistory s f t COk -> (w_core s = None \/ w_core s = Some []) -> cad_simplify A s n w = (Some r, s', w') ->
      chistory s' f None (match r, t with RUnsat, Some _ => CTainted | _, _ => COk end)
  | ch_simplify_assumps s f t ph ls n w r s' w' : chistory s f t ph -> (w_state s = WConfiguring \/ w_state s = WInput) -> cad_simplify_assumps A s ls n w = (Some r, s', w') ->
      chistory s' f None (match r, t, ls with RUnsat, Some _, _ => CTainted | RUnsat, _, _ :: _ => CTainted | _, _, _ => COk end).
End Ipasir.

(** ** Back ends that are the C++ class [Solver] of Minisat and Glucose *)

Inductive sans : Type := SNone | SSat (m : list (option bool)) | SUnsat (ls : list lit).
Record sst : Type := mkSst { ss_f : cnf; ss_n : nat; ss_ans : sans }.
Definition model_pasg (m : list (option bool)) : pasg := fun v => match nth_error m (vidx v) with Some o => o | None => None end.
Definition vars_below (n : nat) (ls : list lit) : Prop := forall l, In l ls -> vidx (lvar l) < n.

Section Minisat.
Context {B W : Type} (A : sapi B W) (R : B -> sst -> Prop).

Record conforming_solver : Prop := mkConformingSolver {
  cs_init : forall w, R (fst (so_init A w)) (mkSst [] 0 SNone);
  cs_n_vars : forall b s, R b s -> so_n_vars A b = ss_n s;
  cs_new_var : forall b s w b' w', R b s -> so_new_var A b w = (true, b', w') -> R b' (mkSst (ss_f s) (S (ss_n s)) (ss_ans s));
  cs_add : forall b s c w b' w', R b s -> vars_below (ss_n s) c -> so_add A b c w = (true, b', w') -> R b' (mkSst (ss_f s ++ [c]) (ss_n s) SNone);
  cs_sat : forall b s ls w b' w', R b s -> vars_below (ss_n s) ls -> so_solve A b ls w = (Some (Some true), b', w') ->
    exists m, length m = ss_n s /\ (forall a, completes a (model_pasg m) -> sat_cnf a (ss_f s) = true /\ sat_cube a ls = true) /\
      R b' (mkSst (ss_f s) (ss_n s) (SSat m));
  cs_unsat : forall b s ls w b' w', R b s -> vars_below (ss_n s) ls -> so_solve A b ls w = (Some (Some false), b', w') ->
    (forall a, sat_cnf a (ss_f s) = true -> sat_cube a ls = false) /\ R b' (mkSst (ss_f s) (ss_n s) (SUnsat ls));
  cs_undef : forall b s ls w b' w', R b s -> vars_below (ss_n s) ls -> so_solve A b ls w = (Some None, b', w') -> R b' (mkSst (ss_f s) (ss_n s) SNone);
  cs_model : forall b s m, R b s -> ss_ans s = SSat m -> so_model A b = m;
  cs_conflict : forall b s ls, R b s -> ss_ans s = SUnsat ls ->
    (forall l, In l (so_conflict A b) -> In (neg l) ls) /\ forall a, sat_cnf a (ss_f s) = true -> sat_clause a (so_conflict A b) = true
}.
End Minisat.

(** the values of positive literals, and solutions, of all variables below some number that is large enough for [f], are a
    model of [f] *)
Definition var_models {S W} (V : solver S W) (s : S) (f : cnf) : Prop := exists (p : pasg) (n : nat),
  (forall c, In c f -> vars_below n c) /\
  (forall v, vidx v < n -> sv_val V s (pos v) = Some (plit p (pos v))) /\
  (forall h, vidx h < n -> exists sol, sv_solution V s h = Some sol /\ forall v, pasg_of sol v = if (v <=? h)%N then p v else None) /\
  (forall a, completes a p -> sat_cnf a f = true).

(** ** Kissat as back end: one question only *)

Inductive kans : Type := KNone | KSat (p : pasg).
Record kst : Type := mkKst { ks_f : cnf; ks_open : clause; ks_searched : bool; ks_ans : kans }.

Section Kissat.
Context {B W : Type} (A : kapi B W) (R : B -> kst -> Prop).

Record conforming_kissat : Prop := mkConformingKissat {
  ck_init : forall w, R (fst (ki_init A w)) (mkKst [] [] false KNone);
  ck_add : forall b s l w, R b s -> ks_searched s = false -> exists b' w', ki_add A b (zlit l) w = Some (b', w') /\ R b' (mkKst (ks_f s) (ks_open s ++ [l]) false KNone);
  ck_add_end : forall b s w, R b s -> ks_searched s = false -> exists b' w', ki_add A b 0 w = Some (b', w') /\ R b' (mkKst (ks_f s ++ [ks_open s]) [] false KNone);
  ck_add_abort : forall b s z w, R b s -> ks_searched s = true -> ki_add A b z w = None;
  ck_solve : forall b s w, R b s -> ks_searched s = false -> ks_open s = [] -> exists r b' w', ki_solve A b w = Some (r, b', w') /\
    (r = 10%Z -> exists p, (forall a, completes a p -> sat_cnf a (ks_f s) = true) /\ R b' (mkKst (ks_f s) [] true (KSat p))) /\
    (r <> 10%Z -> R b' (mkKst (ks_f s) [] true KNone)) /\ (r = 20%Z -> unsat (ks_f s));
  ck_solve_abort : forall b s w, R b s -> ks_searched s = true -> ki_solve A b w = None;
  ck_val : forall b s p l, R b s -> ks_ans s = KSat p -> ki_val A b (zlit l) = value_code p l;
  ck_reserve : forall b s z w b' w', R b s -> ki_reserve A b z w = (b', w') -> R b' (mkKst (ks_f s) (ks_open s) (ks_searched s) KNone)
}.

(** histories of calls without error: [kf] are the clauses, [asked] if [solve] was called *)
Inductive khistory : wrap B -> cnf -> bool -> Prop :=
  | kh_init w : khistory (fst (k_init A w)) [] false
  | kh_add s f q c w s' w' : khistory s f q -> k_add A s c w = (Ok tt, s', w') -> khistory s' (f ++ [c]) q
  | kh_reserve s f q v w s' w' : khistory s f q -> k_reserve A s v w = (s', w') -> khistory s' f q
  | kh_solve s f q w r s' w' : khistory s f q -> k_solve A s w = (Ok r, s', w') -> khistory s' f true.
End Kissat.
