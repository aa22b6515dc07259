(** * Specification of incremental bound encodings: histories of calls

    An encoder is used through a sequence of calls: adding inputs, encoding ranges of upper or lower bounds into a clause
    collector, reserving variables, and, in between, the user taking variables from the same variable manager. The
    specification below only mentions what the user sees: the inputs added, the clauses emitted, the variables the encoder
    took from the variable manager during its own calls, and the assumptions returned. *)

From Coq Require Import List Bool NArith.
From Verif Require Import Spec.
Import ListNotations.

(** Rust's [std::ops::RangeBounds<usize>] *)
Inductive bnd : Type := Incl (n : nat) | Excl (n : nat) | Unb.
Definition rng : Type := (bnd * bnd)%type.
Definition in_rng (v : nat) (r : rng) : Prop :=
  match fst r with Incl n => n <= v | Excl n => n < v | Unb => True end /\
  match snd r with Incl n => v <= n | Excl n => v < n | Unb => True end.

(** What asking for assumptions to enforce a bound can return *)
Inductive eres : Type := EOk (ls : list lit) | ENotEncoded | EUnsat.

(** The methods of an encoder with inputs of type [A] and state [S]; [None] is a panic. Encoding methods take the next
    free variable and return the clauses emitted and the new next free variable. *)
Record encoder (A S : Type) : Type := mkEncoder {
  en_init : S;
  en_extend : S -> list A -> option S;
  en_reserve : S -> N -> option (S * N);
  en_ub : S -> rng -> N -> option (S * cnf * N);
  en_ub_change : S -> rng -> N -> option (S * cnf * N);
  en_lb : S -> rng -> N -> option (S * cnf * N);
  en_lb_change : S -> rng -> N -> option (S * cnf * N);
  en_both : S -> rng -> N -> option (S * cnf * N);
  en_enforce_ub : S -> nat -> option eres;
  en_enforce_lb : S -> nat -> option eres
}.
Arguments mkEncoder {A S}. Arguments en_init {A S}. Arguments en_extend {A S}. Arguments en_reserve {A S}.
Arguments en_ub {A S}. Arguments en_ub_change {A S}. Arguments en_lb {A S}. Arguments en_lb_change {A S}.
Arguments en_both {A S}. Arguments en_enforce_ub {A S}. Arguments en_enforce_lb {A S}.

Inductive hop (A : Type) : Type :=
  | HExtend (xs : list A)          (* more inputs *)
  | HUserVars (k : N)              (* the user takes [k] variables *)
  | HReserve
  | HUb (r : rng) | HUbChange (r : rng)
  | HLb (r : rng) | HLbChange (r : rng)
  | HBoth (r : rng).
Arguments HExtend {A}. Arguments HUserVars {A}. Arguments HReserve {A}. Arguments HUb {A}. Arguments HUbChange {A}.
Arguments HLb {A}. Arguments HLbChange {A}. Arguments HBoth {A}.

(** What is observable of a history: all inputs, the next free variable, the intervals of variables taken by the encoder,
    all clauses emitted, and those emitted since the last (non-incremental) [encode_ub] respectively [encode_lb] call,
    which start a new collector. *)
Record world (A : Type) : Type := mkWorld {
  w_in : list A; w_next : N; w_aux : list (N * N); w_all : cnf; w_ub : cnf; w_lb : cnf }.
Arguments mkWorld {A}. Arguments w_in {A}. Arguments w_next {A}. Arguments w_aux {A}. Arguments w_all {A}.
Arguments w_ub {A}. Arguments w_lb {A}.

Definition in_aux (aux : list (N * N)) (v : N) : Prop := exists lo hi, In (lo, hi) aux /\ (lo <= v < hi)%N.

Definition world0 {A} : world A := mkWorld [] 0%N [] [] [] [].

Definition log_call {A} (w : world A) (reset_ub reset_lb : bool) (cs : cnf) (next : N) : world A :=
  mkWorld (w_in w) next ((w_next w, next) :: w_aux w) (w_all w ++ cs)
    (if reset_ub then cs else w_ub w ++ cs) (if reset_lb then cs else w_lb w ++ cs).

Definition encode_step {A S} (w : world A) (reset_ub reset_lb : bool) (r : option (S * cnf * N)) : option (world A * S) :=
  match r with
  | Some (s', cs, next) => Some (log_call w reset_ub reset_lb cs next, s')
  | None => None
  end.

Definition step {A S} (E : encoder A S) (w : world A) (s : S) (op : hop A) : option (world A * S) :=
  match op with
  | HExtend xs => match en_extend E s xs with
                  | Some s' => Some (mkWorld (w_in w ++ xs) (w_next w) (w_aux w) (w_all w) (w_ub w) (w_lb w), s')
                  | None => None
                  end
  | HUserVars k => Some (mkWorld (w_in w) (w_next w + k)%N (w_aux w) (w_all w) (w_ub w) (w_lb w), s)
  | HReserve => match en_reserve E s (w_next w) with
                | Some (s', next) => Some (log_call w false false [] next, s')
                | None => None
                end
  | HUb r => encode_step w true false (en_ub E s r (w_next w))
  | HUbChange r => encode_step w false false (en_ub_change E s r (w_next w))
  | HLb r => encode_step w false true (en_lb E s r (w_next w))
  | HLbChange r => encode_step w false false (en_lb_change E s r (w_next w))
  | HBoth r => encode_step w false false (en_both E s r (w_next w))
  end.

(** The inputs added must be allocated variables that the encoder did not take for itself *)
Definition valid_op {A} (ilit : A -> lit) (iok : A -> Prop) (allow : hop A -> Prop) (w : world A) (op : hop A) : Prop :=
  allow op /\
  match op with
  | HExtend xs => forall x, In x xs -> iok x /\ (lvar (ilit x) < w_next w)%N /\ ~ in_aux (w_aux w) (lvar (ilit x))
  | _ => True
  end.

(** no restriction *)
Definition any_op {A} (_ : hop A) : Prop := True.
Definition any_lit (_ : lit) : Prop := True.

(** weighted inputs with positive weights; histories bounding from above only *)
Definition pos_weight (x : lit * nat) : Prop := 1 <= snd x.
Definition ub_only {A} (op : hop A) : Prop := match op with HLb _ | HLbChange _ | HBoth _ => False | _ => True end.

Section Spec.
Context {A S : Type} (E : encoder A S) (ilit : A -> lit) (iok : A -> Prop) (allow : hop A -> Prop).
Context (value : asg -> list A -> nat).

Inductive reachable : world A -> S -> Prop :=
  | reach_init : reachable world0 (en_init E)
  | reach_step w s op w' s' : reachable w s -> valid_op ilit iok allow w op -> step E w s op = Some (w', s') -> reachable w' s'.

(** no call panics *)
Definition no_panic : Prop :=
  forall w s op, reachable w s -> valid_op ilit iok allow w op -> step E w s op <> None.

(** under the clauses emitted since the last [encode_ub], the assumptions enforce the bound *)
Definition ub_sound : Prop :=
  forall w s ub ls a, reachable w s -> en_enforce_ub E s ub = Some (EOk ls) ->
    sat_cnf a (w_ub w) = true -> sat_cube a ls = true -> value a (w_in w) <= ub.

Definition lb_sound : Prop :=
  forall w s lb ls a, reachable w s -> en_enforce_lb E s lb = Some (EOk ls) ->
    sat_cnf a (w_lb w) = true -> sat_cube a ls = true -> lb <= value a (w_in w).

(** every assignment has a variant, changed only on variables the encoder took, that satisfies all clauses ever emitted
    and the assumptions of every bound the assignment meets *)
Definition bounds_complete : Prop :=
  forall w s a, reachable w s -> exists a',
    (forall v, ~ in_aux (w_aux w) v -> a' v = a v) /\
    sat_cnf a' (w_all w) = true /\
    (forall ub ls, en_enforce_ub E s ub = Some (EOk ls) -> value a (w_in w) <= ub -> sat_cube a' ls = true) /\
    (forall lb ls, en_enforce_lb E s lb = Some (EOk ls) -> lb <= value a (w_in w) -> sat_cube a' ls = true).

(** upper bounds asked for along a history, with the literals returned for them; the user may have added these literals as
    hard clauses *)
Inductive enforced : world A -> S -> list (nat * list lit) -> Prop :=
  | enf_init : enforced world0 (en_init E) []
  | enf_step w s U op w' s' : enforced w s U -> valid_op ilit iok allow w op -> step E w s op = Some (w', s') -> enforced w' s' U
  | enf_ask w s U ub ls : enforced w s U -> en_enforce_ub E s ub = Some (EOk ls) -> enforced w s ((ub, ls) :: U).

(** enforcing upper bounds by hard clauses never excludes an assignment that meets them: it has a variant, changed only on
    variables the encoder took, that satisfies all clauses ever emitted and the literals of all these bounds, however many
    calls were made in between. In particular a hard bound does not conflict with a tighter one later. *)
Definition monotone : Prop :=
  forall w s U a, enforced w s U -> exists a',
    (forall v, ~ in_aux (w_aux w) v -> a' v = a v) /\
    sat_cnf a' (w_all w) = true /\
    (forall ub ls, In (ub, ls) U -> value a (w_in w) <= ub -> sat_cube a' ls = true).

(** asking for a bound never panics *)
Definition enforce_total : Prop :=
  forall w s, reachable w s -> (forall ub, en_enforce_ub E s ub <> None) /\ (forall lb, en_enforce_lb E s lb <> None).

(** "unsatisfiable" is only answered for bounds no assignment meets *)
Definition unsat_right : Prop :=
  forall w s b, reachable w s ->
    (en_enforce_lb E s b = Some EUnsat -> forall a, value a (w_in w) < b) /\ en_enforce_ub E s b <> Some EUnsat.

(** after encoding a range of upper bounds, each of them can be enforced *)
Definition encodes_ub (op : rng -> hop A) : Prop :=
  forall w s r w' s' ub, reachable w s -> valid_op ilit iok allow w (op r) -> step E w s (op r) = Some (w', s') -> in_rng ub r ->
    exists ls, en_enforce_ub E s' ub = Some (EOk ls).

(** ... and of lower bounds, unless no assignment meets them *)
Definition encodes_lb (op : rng -> hop A) : Prop :=
  forall w s r w' s' lb, reachable w s -> valid_op ilit iok allow w (op r) -> step E w s (op r) = Some (w', s') -> in_rng lb r ->
    (exists ls, en_enforce_lb E s' lb = Some (EOk ls)) \/ en_enforce_lb E s' lb = Some EUnsat.

(** an upper bound that can be enforced stays so, with the same assumptions, until inputs are added or [encode_ub] starts
    over; similarly for lower bounds *)
Definition ub_persists : Prop :=
  forall w s op w' s' ub ls, reachable w s -> valid_op ilit iok allow w op -> step E w s op = Some (w', s') ->
    match op with HExtend _ | HUb _ => False | _ => True end ->
    en_enforce_ub E s ub = Some (EOk ls) -> en_enforce_ub E s' ub = Some (EOk ls).
Definition lb_persists : Prop :=
  forall w s op w' s' lb ls, reachable w s -> valid_op ilit iok allow w op -> step E w s op = Some (w', s') ->
    match op with HExtend _ | HLb _ => False | _ => True end ->
    en_enforce_lb E s lb = Some (EOk ls) -> en_enforce_lb E s' lb = Some (EOk ls).

(** emitted clauses only mention inputs and variables the encoder took *)
Definition clauses_local : Prop :=
  forall w s c l, reachable w s -> In c (w_all w) -> In l c -> (exists x, In x (w_in w) /\ lvar (ilit x) = lvar l) \/ in_aux (w_aux w) (lvar l).

(** assumptions only mention inputs and variables the encoder took *)
Definition assumps_local : Prop :=
  forall w s b ls l, reachable w s -> en_enforce_ub E s b = Some (EOk ls) \/ en_enforce_lb E s b = Some (EOk ls) -> In l ls ->
    (exists x, In x (w_in w) /\ lvar (ilit x) = lvar l) \/ in_aux (w_aux w) (lvar l).

(** the next free variable never decreases *)
Definition vars_grow : Prop :=
  forall w s op w' s', reachable w s -> valid_op ilit iok allow w op -> step E w s op = Some (w', s') -> (w_next w <= w_next w')%N.

Context (total : list A -> nat).

(** upper bounds of at least the total weight, and the lower bound zero, can always be enforced *)
Definition ub_trivial : Prop :=
  forall w s ub, reachable w s -> total (w_in w) <= ub -> exists ls, en_enforce_ub E s ub = Some (EOk ls).
Definition lb_trivial : Prop :=
  forall w s, reachable w s -> exists ls, en_enforce_lb E s 0 = Some (EOk ls).

(** "unsatisfiable" is only answered for lower bounds above the total weight *)
Definition unsat_above : Prop :=
  forall w s b, reachable w s ->
    (en_enforce_lb E s b = Some EUnsat -> total (w_in w) < b) /\ en_enforce_ub E s b <> Some EUnsat.

(** What a user of an encoding can rely on over all its histories. [total] is the number of inputs respectively the sum of
    their weights. *)
Record upper_contract : Prop := mkUpper {
  uc_sound : ub_sound;
  uc_complete : bounds_complete;
  uc_encodes : encodes_ub HUb;
  uc_encodes_change : encodes_ub HUbChange;
  uc_trivial : ub_trivial;
  uc_unsat : unsat_above;
  uc_enforce : enforce_total;
  uc_clauses : clauses_local;
  uc_assumps : assumps_local;
  uc_vars : vars_grow
}.
Record lower_contract : Prop := mkLower {
  lc_sound : lb_sound;
  lc_complete : bounds_complete;
  lc_encodes : encodes_lb HLb;
  lc_encodes_change : encodes_lb HLbChange;
  lc_trivial : lb_trivial;
  lc_unsat : unsat_above;
  lc_enforce : enforce_total;
  lc_clauses : clauses_local;
  lc_assumps : assumps_local;
  lc_vars : vars_grow
}.
End Spec.

(** histories bounding from below only *)
Definition lb_only {A} (op : hop A) : Prop := match op with HUb _ | HUbChange _ | HBoth _ => False | _ => True end.

(** the call with upper and lower bounds exchanged *)
Definition swap_op {A} (op : hop A) : hop A :=
  match op with
  | HUb r => HLb r | HUbChange r => HLbChange r | HLb r => HUb r | HLbChange r => HUbChange r
  | HExtend xs => HExtend xs | HUserVars k => HUserVars k | HReserve => HReserve | HBoth r => HBoth r
  end.

(** the same method called, whatever its arguments *)
Definition same_method {A} (op op' : hop A) : Prop :=
  match op, op' with
  | HExtend _, HExtend _ | HUserVars _, HUserVars _ | HReserve, HReserve | HUb _, HUb _ | HUbChange _, HUbChange _
  | HLb _, HLb _ | HLbChange _, HLbChange _ | HBoth _, HBoth _ => True
  | _, _ => False
  end.
(** a restriction of histories to some of the methods *)
Definition by_method {A} (allow : hop A -> Prop) : Prop := forall op op', same_method op op' -> allow op -> allow op'.

(** every single call adding inputs adds distinct literals *)
Definition distinct_inputs (op : hop (lit * nat)) : Prop := match op with HExtend xs => NoDup (map fst xs) | _ => True end.

(** ranges that do not end before every bound; [encode_ub] after at least one input *)
Definition range_ok {A} (total : list A -> nat) (w : world A) (op : hop A) : Prop :=
  match op with
  | HUb r | HUbChange r => snd r <> Excl 0 /\ total (w_in w) <> 0
  | HLb r | HLbChange r | HBoth r => snd r <> Excl 0
  | _ => True
  end.

(** restrictions combined; histories that never call the default [encode_both] *)
Definition both_allow {A} (p q : hop A -> Prop) (op : hop A) : Prop := p op /\ q op.

(** ** Values between which the weighted sum of the inputs cannot be *)
Section NextSpec.
Context {A S : Type} (E : encoder A S) (ilit : A -> lit) (iok : A -> Prop) (allow : hop A -> Prop) (value : asg -> list A -> nat).

(** [next_higher] never skips a value of the weighted sum *)
Definition higher_right (f : S -> nat -> option nat) (w : world A) (s : S) (val : nat) : Prop :=
  exists v, f s val = Some v /\ val < v /\ forall a, val < value a (w_in w) -> v <= value a (w_in w).
Definition lower_right (f : S -> nat -> option nat) (w : world A) (s : S) (val : nat) : Prop :=
  exists v, f s val = Some v /\ v < val /\ forall a, value a (w_in w) < val -> value a (w_in w) <= v.
End NextSpec.
