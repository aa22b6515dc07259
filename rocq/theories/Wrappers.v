(** * Model of the solver crates: [ipasir/src/lib.rs], [cadical/src/lib.rs], [kissat/src/lib.rs], [minisat/src/core.rs], [glucose/src/core.rs]

    A solver crate keeps a small state of its own next to a handle of a solver written in C or C++, its back end. The back
    end is any value of the records below: a state [B], functions on it, and a world [W] its answers may depend on; what
    the back ends promise is in WrapperSpec.v. Literals are given to the C functions as integers or in their own
    representation (C01, C02; the panic of [to_ipasir] for the largest variable is not repeated here).

    Not modelled: statistics except the largest variable, options and limits, phases, freezing, flipping, [propagate],
    proof tracing, signatures, and that statistics are updated when a call fails later. *)

From Coq Require Import List Bool NArith ZArith.
From Verif Require Import Spec Types SolverSpec Solver.
Import ListNotations.

(** src/types/mod.rs [Lit::to_ipasir] *)
Definition zlit (l : lit) : Z := (let z := Z.of_N (lvar l) + 1 in if lneg l then - z else z)%Z.

(** solvers that can be asked under assumptions: [SolveIncremental] (src/solvers/mod.rs) *)
Record incsolver (S W : Type) : Type := mkIncsolver {
  is_solver : solver S W;
  is_assumps : S -> list lit -> W -> option sres * S * W;    (* solve under assumptions; [None] is an error *)
  is_core : S -> option (list lit)                           (* the core; [None] is an error *)
}.
Arguments mkIncsolver {S W}. Arguments is_solver {S W}. Arguments is_assumps {S W}. Arguments is_core {S W}.

(** ** Back ends with the IPASIR interface: IPASIR solvers and CaDiCaL

    ipasir/src/ffi.rs, cadical/src/ffi.rs, cadical/cpp-extension/ccadical_extension.cpp. The first component of a result is
    the code returned; the functions of IPASIR that return nothing have code 0. [None] for a value: the process is aborted
    (cadical/vendor/src/contract.hpp), since the back end has no solution. *)
Record capi (B W : Type) : Type := mkCapi {
  ca_init : W -> B * W;
  ca_add : B -> Z -> W -> Z * B * W;
  ca_assume : B -> Z -> W -> Z * B * W;
  ca_solve : B -> W -> Z * B * W;
  ca_val : B -> Z -> option Z;
  ca_failed : B -> Z -> Z;
  (* CaDiCaL only *)
  ca_constrain : B -> Z -> W -> Z * B * W;
  ca_constraint_failed : B -> Z;
  ca_simplify : B -> Z -> W -> Z * B * W;
  ca_resize : B -> Z -> W -> Z * B * W;
  ca_declare : B -> Z -> W -> B * W;
  ca_vars : B -> Z
}.
Arguments mkCapi {B W}. Arguments ca_init {B W}. Arguments ca_add {B W}. Arguments ca_assume {B W}. Arguments ca_solve {B W}.
Arguments ca_val {B W}. Arguments ca_failed {B W}. Arguments ca_constrain {B W}. Arguments ca_constraint_failed {B W}.
Arguments ca_simplify {B W}. Arguments ca_resize {B W}. Arguments ca_declare {B W}. Arguments ca_vars {B W}.

(** [InternalSolverState] (ipasir/src/lib.rs:61-68, cadical/src/lib.rs, kissat/src/lib.rs) *)
Inductive wstate : Type := WConfiguring | WInput | WSat | WUnsat (core : list lit).
(** the wrapper: handle, state, and of the statistics the largest variable, which only IPASIR and Kissat maintain *)
Record wrap (B : Type) : Type := mkWrap { w_b : B; w_state : wstate; w_max : option N }.
Arguments mkWrap {B}. Arguments w_b {B}. Arguments w_state {B}. Arguments w_max {B}.

(** kissat/cadical/minisat [ffi::OUT_OF_MEM] *)
Definition out_of_mem : Z := 50.

(** the statistics of ipasir/src/lib.rs:236-243 and kissat/src/lib.rs *)
Definition max_var_of (m : option N) (c : clause) : option N :=
  fold_left (fun m l => match m with None => Some (lvar l) | Some v => if (v <? lvar l)%N then Some (lvar l) else Some v end) c m.

Section Ipasir.
Context {B W : Type} (A : capi B W).

(** ipasir/src/lib.rs:124-134 [default] *)
Definition ip_init (w : W) : wrap B * W := let '(b, w') := ca_init A w in (mkWrap b WConfiguring None, w').

(** ipasir/src/lib.rs:137-153 [get_core_assumps] (cadical/src/lib.rs:237-252 is the same); [None] is an error *)
Fixpoint core_of (failed : Z -> Z) (assumps : list lit) : option (list lit) :=
  match assumps with
  | [] => Some []
  | a :: assumps' => match failed (zlit a), core_of failed assumps' with
                     | 0%Z, core => core
                     | 1%Z, Some core => Some (neg a :: core)
                     | _, _ => None
                     end
  end.

(** ipasir/src/lib.rs:247-250, the calls of [ipasir_add] *)
Fixpoint ip_add_lits (b : B) (c : clause) (w : W) : B * W :=
  match c with
  | [] => let '(_, b', w') := ca_add A b 0 w in (b', w')
  | l :: c' => let '(_, b', w') := ca_add A b (zlit l) w in ip_add_lits b' c' w'
  end.
(** ipasir/src/lib.rs:229-252 [add_clause_ref] *)
Definition ip_add (s : wrap B) (c : clause) (w : W) : bool * wrap B * W :=
  let '(b, w') := ip_add_lits (w_b s) c w in (true, mkWrap b WInput (max_var_of (w_max s) c), w').

(** the answers (ipasir/src/lib.rs:189-209, 266-286; cadical/src/lib.rs:729-749, 802-822): [core] is only computed if the
    answer is 20 *)
Definition answered (s : wrap B) (r : Z) (b : B) (core : option (list lit)) (w : W) : option sres * wrap B * W :=
  if (r =? 0)%Z then (Some RInterrupted, mkWrap b WInput (w_max s), w)
  else if (r =? 10)%Z then (Some RSat, mkWrap b WSat (w_max s), w)
  else if (r =? 20)%Z then match core with
                           | Some core => (Some RUnsat, mkWrap b (WUnsat core) (w_max s), w)
                           | None => (None, mkWrap b (w_state s) (w_max s), w)
                           end
  else (None, mkWrap b (w_state s) (w_max s), w).

(** ipasir/src/lib.rs:174-210 [solve] *)
Definition ip_solve (s : wrap B) (w : W) : option sres * wrap B * W :=
  match w_state s with
  | WSat => (Some RSat, s, w)
  | WUnsat [] => (Some RUnsat, s, w)
  | _ => let '(r, b, w') := ca_solve A (w_b s) w in answered s r b (Some []) w'
  end.

(** ipasir/src/lib.rs:212-227 [lit_val] *)
Definition ip_val (s : wrap B) (l : lit) : option tern :=
  match w_state s with
  | WSat => match ca_val A (w_b s) (zlit l) with
            | Some z => if (z =? 0)%Z then Some TDontCare else if (z =? zlit l)%Z then Some TTrue else if (z =? - zlit l)%Z then Some TFalse else None
            | None => None
            end
  | _ => None
  end.

(** ipasir/src/lib.rs:256-287 [solve_assumps] *)
Fixpoint ip_assume (b : B) (ls : list lit) (w : W) : B * W :=
  match ls with [] => (b, w) | l :: ls' => let '(_, b', w') := ca_assume A b (zlit l) w in ip_assume b' ls' w' end.
Definition ip_solve_assumps (s : wrap B) (ls : list lit) (w : W) : option sres * wrap B * W :=
  let '(b, w1) := ip_assume (w_b s) ls w in
  let '(r, b', w2) := ca_solve A b w1 in
  answered s r b' (core_of (ca_failed A b') ls) w2.

(** ipasir/src/lib.rs:289-298 [core] *)
Definition w_core (s : wrap B) : option (list lit) := match w_state s with WUnsat core => Some core | _ => None end.

Definition ipasir : incsolver (wrap B) W :=
  mkIncsolver (mkSolver ip_init ip_add ip_solve ip_val (fun s => default_solution (ip_val s)) w_max) ip_solve_assumps w_core.

(** ** cadical/src/lib.rs *)

(** cadical/src/lib.rs:219-234 [default] *)
Definition cad_init (w : W) : wrap B * W := let '(b, w') := ca_init A w in (mkWrap b WConfiguring None, w').

(** a sequence of calls, each checked for [OUT_OF_MEM] with [handle_oom]; stops at the first; [true] is no error *)
Fixpoint cad_calls (call : B -> Z -> W -> Z * B * W) (b : B) (zs : list Z) (w : W) : bool * B * W :=
  match zs with
  | [] => (true, b, w)
  | z :: zs' => let '(r, b', w') := call b z w in if (r =? out_of_mem)%Z then (false, b', w') else cad_calls call b' zs' w'
  end.
(** cadical/src/lib.rs:774-790 [add_clause_ref] *)
Definition cad_add (s : wrap B) (c : clause) (w : W) : bool * wrap B * W :=
  let '(ok, b, w') := cad_calls (ca_add A) (w_b s) (map zlit c ++ [0%Z]) w in (ok, mkWrap b WInput (w_max s), w').
(** cadical/src/lib.rs:271-293 [add_tmp_clause] *)
Definition cad_tmp (s : wrap B) (c : clause) (w : W) : bool * wrap B * W :=
  let '(ok, b, w') := cad_calls (ca_constrain A) (w_b s) (map zlit c ++ [0%Z]) w in (ok, mkWrap b WInput (w_max s), w').
(** cadical/src/lib.rs:302-314 [tmp_clause_in_core] *)
Definition cad_tmp_in_core (s : wrap B) : option bool :=
  match w_state s with WUnsat _ => Some (negb (ca_constraint_failed A (w_b s) =? 0)%Z) | _ => None end.
(** cadical/src/lib.rs:708-712 [reserve] *)
Definition cad_reserve (s : wrap B) (v : N) (w : W) : bool * wrap B * W :=
  let '(ok, b, w') := cad_calls (ca_resize A) (w_b s) [(Z.of_N v + 1)%Z] w in (ok, mkWrap b WInput (w_max s), w').
(** cadical/src/lib.rs:645-655 [declare_more_variables], without the variable returned *)
Definition cad_declare (s : wrap B) (n : N) (w : W) : wrap B * W :=
  let '(b, w') := ca_declare A (w_b s) (Z.of_N n) w in (mkWrap b (w_state s) (w_max s), w').
(** cadical/src/lib.rs:714-750 [solve]: [OUT_OF_MEM] is an error as every other unexpected code *)
Definition cad_solve (s : wrap B) (w : W) : option sres * wrap B * W :=
  match w_state s with
  | WSat => (Some RSat, s, w)
  | WUnsat [] => (Some RUnsat, s, w)
  | _ => let '(r, b, w') := ca_solve A (w_b s) w in answered s r b (Some []) w'
  end.
(** cadical/src/lib.rs:794-823 [solve_assumps] *)
Definition cad_solve_assumps (s : wrap B) (ls : list lit) (w : W) : option sres * wrap B * W :=
  match cad_calls (ca_assume A) (w_b s) (map zlit ls) w with
  | (false, b, w') => (None, mkWrap b (w_state s) (w_max s), w')
  | (true, b, w') => let '(r, b', w'') := ca_solve A b w' in answered s r b' (core_of (ca_failed A b') ls) w''
  end.
(** cadical/src/lib.rs:473-501 [simplify]; that the number of rounds must fit an [i32] is left out *)
Definition cad_simplify (s : wrap B) (rounds : N) (w : W) : option sres * wrap B * W :=
  match w_state s with
  | WSat => (Some RSat, s, w)
  | WUnsat _ => (Some RUnsat, s, w)
  | _ => let '(r, b, w') := ca_simplify A (w_b s) (Z.of_N rounds) w in answered s r b (Some []) w'
  end.
(** cadical/src/lib.rs:520-556 [simplify_assumps] *)
Definition cad_simplify_assumps (s : wrap B) (ls : list lit) (rounds : N) (w : W) : option sres * wrap B * W :=
  match w_state s with
  | WSat => (Some RSat, s, w)
  | WUnsat _ => (Some RUnsat, s, w)
  | _ => match cad_calls (ca_assume A) (w_b s) (map zlit ls) w with
         | (false, b, w') => (None, mkWrap b (w_state s) (w_max s), w')
         | (true, b, w') => let '(r, b', w'') := ca_simplify A b (Z.of_N rounds) w' in answered s r b' (Some []) w''
         end
  end.
(** cadical/src/lib.rs:752-772 [lit_val] *)
Definition cad_val (s : wrap B) (l : lit) : option tern :=
  match w_state s with
  | WSat => match ca_val A (w_b s) (zlit l) with
            | Some z => if (z =? 0)%Z then Some TDontCare else if (z =? zlit l)%Z then Some TTrue else if (z =? - zlit l)%Z then Some TFalse
                        else if (z =? -1)%Z then Some TDontCare else None
            | None => None
            end
  | _ => None
  end.
(** cadical/src/lib.rs:1192-1203 [max_var] *)
Definition cad_max_var (s : wrap B) : option N := if (0 <? ca_vars A (w_b s))%Z then Some (Z.to_N (ca_vars A (w_b s) - 1)) else None.

Definition cadical : incsolver (wrap B) W :=
  mkIncsolver (mkSolver cad_init cad_add cad_solve cad_val (fun s => default_solution (cad_val s)) cad_max_var) cad_solve_assumps w_core.
End Ipasir.

(** ** minisat/src/core.rs and glucose/src/core.rs, which are the same up to names

    The back end is the C++ class [Solver]: [so_new_var], [so_add] ([addClause]) and [so_solve] ([solveLimited]) may run out
    of memory ([None]); [so_model] and [so_conflict] are its members [model] and [conflict]. *)
Record sapi (B W : Type) : Type := mkSapi {
  so_init : W -> B * W;
  so_new_var : B -> W -> bool * B * W;
  so_n_vars : B -> nat;
  so_add : B -> clause -> W -> bool * B * W;
  so_solve : B -> list lit -> W -> option (option bool) * B * W;
  so_model : B -> list (option bool);
  so_conflict : B -> list lit
}.
Arguments mkSapi {B W}. Arguments so_init {B W}. Arguments so_new_var {B W}. Arguments so_n_vars {B W}. Arguments so_add {B W}.
Arguments so_solve {B W}. Arguments so_model {B W}. Arguments so_conflict {B W}.

(** [InternalSolverState] (minisat/src/lib.rs, glucose/src/lib.rs); the flag: under assumptions *)
Inductive mstate : Type := MConfiguring | MInput | MSat | MUnsat (under_assumps : bool).
Record mwrap (B : Type) : Type := mkMwrap { m_b : B; m_state : mstate }.
Arguments mkMwrap {B}. Arguments m_b {B}. Arguments m_state {B}.

Section Minisat.
Context {B W : Type} (A : sapi B W).

(** minisat/vendor/minisat/cminisat.cc:78-87 [cminisat_reserve], 64-76 [cminisat_ensure_vars]: new variables until the given
    one exists; [new_var] adds exactly one (the fuel is the number missing) *)
Fixpoint new_vars (n : nat) (b : B) (w : W) : bool * B * W :=
  match n with
  | O => (true, b, w)
  | S n' => match so_new_var A b w with (true, b', w') => new_vars n' b' w' | r => r end
  end.
Definition cm_reserve (b : B) (v : N) (w : W) : bool * B * W := new_vars (N.to_nat v + 1 - so_n_vars A b) b w.
Definition max_lit (ls : list lit) : N := fold_left (fun m l => if (m <? lvar l)%N then lvar l else m) ls 0%N.
(** cminisat.cc:93-103 [cminisat_add_clause]; [false]: [OUT_OF_MEM] *)
Definition cm_add (b : B) (c : clause) (w : W) : bool * B * W :=
  match cm_reserve b (max_lit c) w with (true, b', w') => so_add A b' c w' | r => r end.
(** cminisat.cc:110-127 [cminisat_solve] *)
Definition cm_solve (b : B) (ls : list lit) (w : W) : Z * B * W :=
  match cm_reserve b (max_lit ls) w with
  | (false, b', w') => (out_of_mem, b', w')
  | (true, b', w') => let '(r, b'', w'') := so_solve A b' ls w' in
                      (match r with None => out_of_mem | Some (Some true) => 10 | Some (Some false) => 20 | Some None => 0 end%Z, b'', w'')
  end.
(** cminisat.cc:134-145 [cminisat_val]: the value of the variable of the literal. [None]: outside of [model], which is
    undefined behaviour *)
Definition cm_val (b : B) (l : lit) : option tern :=
  match nth_error (so_model A b) (vidx (lvar l)) with
  | Some (Some true) => Some TTrue
  | Some (Some false) => Some TFalse
  | Some None => Some TDontCare
  | None => None
  end.

(** minisat/src/core.rs:26-38 [default] *)
Definition ms_init (w : W) : mwrap B * W := let '(b, w') := so_init A w in (mkMwrap b MConfiguring, w').
(** core.rs:167-184 [add_clause_ref] *)
Definition ms_add (s : mwrap B) (c : clause) (w : W) : bool * mwrap B * W :=
  let '(ok, b, w') := cm_add (m_b s) c w in (ok, mkMwrap b MInput, w').
(** core.rs:186-192 [reserve] *)
Definition ms_reserve (s : mwrap B) (v : N) (w : W) : bool * mwrap B * W :=
  let '(ok, b, w') := cm_reserve (m_b s) v w in (ok, mkMwrap b (m_state s), w').
(** core.rs:119-144, 204-224: the answers *)
Definition ms_answered (s : mwrap B) (r : Z) (b : B) (under : bool) (w : W) : option sres * mwrap B * W :=
  if (r =? 0)%Z then (Some RInterrupted, mkMwrap b MInput, w)
  else if (r =? 10)%Z then (Some RSat, mkMwrap b MSat, w)
  else if (r =? 20)%Z then (Some RUnsat, mkMwrap b (MUnsat under), w)
  else (None, mkMwrap b (m_state s), w).
(** core.rs:107-145 [solve] *)
Definition ms_solve (s : mwrap B) (w : W) : option sres * mwrap B * W :=
  match m_state s with
  | MSat => (Some RSat, s, w)
  | MUnsat false => (Some RUnsat, s, w)
  | _ => let '(r, b, w') := cm_solve (m_b s) [] w in ms_answered s r b false w'
  end.
(** core.rs:196-225 [solve_assumps] *)
Definition ms_solve_assumps (s : mwrap B) (ls : list lit) (w : W) : option sres * mwrap B * W :=
  let '(r, b, w') := cm_solve (m_b s) ls w in ms_answered s r b true w'.
(** core.rs:147-165 [lit_val] *)
Definition ms_val (s : mwrap B) (l : lit) : option tern := match m_state s with MSat => cm_val (m_b s) l | _ => None end.
(** core.rs:227-253 [core] *)
Definition ms_core (s : mwrap B) : option (list lit) :=
  match m_state s with MUnsat true => Some (so_conflict A (m_b s)) | MUnsat false => Some [] | _ => None end.
(** core.rs:395-406 [max_var] *)
Definition ms_max_var (s : mwrap B) : option N := match so_n_vars A (m_b s) with O => None | S n => Some (N.of_nat n) end.

Definition minisat : incsolver (mwrap B) W :=
  mkIncsolver (mkSolver ms_init ms_add ms_solve ms_val (fun s => default_solution (ms_val s)) ms_max_var) ms_solve_assumps ms_core.
End Minisat.

(** ** kissat/src/lib.rs

    [None]: the process is aborted, since the back end has already searched (kissat/vendor/src/internal.c:266-268, 475-480). *)
Record kapi (B W : Type) : Type := mkKapi {
  ki_init : W -> B * W;
  ki_add : B -> Z -> W -> option (B * W);
  ki_solve : B -> W -> option (Z * B * W);
  ki_val : B -> Z -> Z;
  ki_reserve : B -> Z -> W -> B * W
}.
Arguments mkKapi {B W}. Arguments ki_init {B W}. Arguments ki_add {B W}. Arguments ki_solve {B W}. Arguments ki_val {B W}. Arguments ki_reserve {B W}.

(** the outcomes of a call: a result, an error, or the end of the process *)
Inductive outcome (X : Type) : Type := Ok (x : X) | Err | Abort.
Arguments Ok {X}. Arguments Err {X}. Arguments Abort {X}.

Section Kissat.
Context {B W : Type} (A : kapi B W).

(** kissat/src/lib.rs:131-143 [default] *)
Definition k_init (w : W) : wrap B * W := let '(b, w') := ki_init A w in (mkWrap b WConfiguring None, w').
Fixpoint k_add_lits (b : B) (zs : list Z) (w : W) : option (B * W) :=
  match zs with
  | [] => Some (b, w)
  | z :: zs' => match ki_add A b z w with Some (b', w') => k_add_lits b' zs' w' | None => None end
  end.
(** kissat/src/lib.rs:362-397 [add_clause_ref] *)
Definition k_add (s : wrap B) (c : clause) (w : W) : outcome unit * wrap B * W :=
  match w_state s with
  | WConfiguring | WInput =>
      match k_add_lits (w_b s) (map zlit c ++ [0%Z]) w with
      | Some (b, w') => (Ok tt, mkWrap b WInput (max_var_of (w_max s) c), w')
      | None => (Abort, s, w)
      end
  | _ => (Err, s, w)
  end.
(** kissat/src/lib.rs:299-303 [reserve] *)
Definition k_reserve (s : wrap B) (v : N) (w : W) : wrap B * W :=
  let '(b, w') := ki_reserve A (w_b s) (Z.of_N v + 1)%Z w in (mkWrap b WInput (w_max s), w').
(** kissat/src/lib.rs:305-339 [solve] *)
Definition k_solve (s : wrap B) (w : W) : outcome sres * wrap B * W :=
  match w_state s with
  | WSat => (Ok RSat, s, w)
  | WUnsat _ => (Ok RUnsat, s, w)
  | _ => match ki_solve A (w_b s) w with
         | Some (r, b, w') => match answered s r b (Some []) w' with (Some x, s', w'') => (Ok x, s', w'') | (None, s', w'') => (Err, s', w'') end
         | None => (Abort, s, w)
         end
  end.
(** kissat/src/lib.rs:341-360 [lit_val] *)
Definition k_val (s : wrap B) (l : lit) : option tern :=
  match w_state s with
  | WSat => let z := ki_val A (w_b s) (zlit l) in
            if (z =? 0)%Z then Some TDontCare else if (z =? zlit l)%Z then Some TTrue else if (z =? - zlit l)%Z then Some TFalse else None
  | _ => None
  end.
(** as a solver: the end of the process is an error *)
Definition kissat : solver (wrap B) W :=
  mkSolver k_init
    (fun s c w => let '(o, s', w') := k_add s c w in (match o with Ok _ => true | _ => false end, s', w'))
    (fun s w => let '(o, s', w') := k_solve s w in (match o with Ok r => Some r | _ => None end, s', w'))
    k_val (fun s => default_solution (k_val s)) w_max.
End Kissat.
