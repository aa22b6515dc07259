(** * Model of the literals and the totalizer of the Python bindings, [pyapi/src/types.rs] and [pyapi/src/encodings/card.rs] *)

From Coq Require Import List Bool NArith ZArith.
From Verif Require Import Spec BoundSpec Types Constraints Maps NodeDb TotDb Totalizer Gte PySpec.
Import ListNotations.

(** pyapi/src/types.rs:40-46 [Lit.__new__]; integers that do not fit 32 bits are refused by the conversion to [c_int], with an
    [OverflowError], and not modelled *)
Definition pylit_new (z : Z) : pyout lit := match from_ipasir z with Some l => PyOne l | None => PyValueError end.
(** pyapi/src/types.rs:56-58 [Lit.__neg__] *)
Definition pylit_neg (l : lit) : lit := neg l.
(** pyapi/src/types.rs:62-72 [Lit.to_ipasir]; the [expect] panics *)
Definition pylit_to_ipasir (l : lit) : pyout Z :=
  let idx := Z.of_N (lvar l + 1) in
  if (idx <=? i32_max)%Z then PyOne (if lneg l then (- idx)%Z else idx) else PyPanic.
(** pyapi/src/types.rs:16-18 the derived comparisons, those of the packed value *)
Definition pylit_eq (l1 l2 : lit) : bool := lit_eqb l1 l2.
Definition pylit_lt (l1 l2 : lit) : bool := lit_ltb l1 l2.

(** ** [Totalizer] *)

(** pyapi/src/encodings/mod.rs:9-18 [convert_enforce_error] *)
Definition py_result (r : option eres) : pyout (list lit) :=
  match r with None => PyPanic | Some (EOk ls) => PyOne ls | Some ENotEncoded => PyRuntimeError | Some EUnsat => PyValueError end.

(** pyapi/src/encodings/card.rs:30-35 [Totalizer.__new__], with src/encodings/card/totalizer/mod.rs:395-407 *)
Definition pytot_new (xs : list lit) : tot := tot_extend tot_new xs.

(** calls of a program that change the totalizer or its variable manager; [PyNewVars k] are [k] calls of [VarManager.new_var] *)
Inductive pycall : Type :=
  | PyExtend (xs : list lit) | PyNewVars (k : N) | PyEncodeUb (lo hi : nat) | PyEncodeLb (lo hi : nat) | PyEncodeBoth (lo hi : nat).

(** pyapi/src/encodings/card.rs:37-41 [extend], 60-74 [encode_ub], 90-104 [encode_lb], 123-138 [encode_both], the latter with
    src/encodings/card/mod.rs:324-336. The state is the totalizer and the next free variable of the manager; the result has the
    clauses of the returned formula. Running out of memory is not modelled. *)
Definition pytot_call (t : tot) (n : N) (c : pycall) : option (tot * cnf * N) :=
  match c with
  | PyExtend xs => Some (tot_extend t xs, [], n)
  | PyNewVars k => Some (t, [], (n + k)%N)
  | PyEncodeUb lo hi => tot_encode_ub_change t (Incl lo, Incl hi) n
  | PyEncodeLb lo hi => tot_encode_lb_change t (Incl lo, Incl hi) n
  | PyEncodeBoth lo hi =>
      match tot_encode_ub_change t (Incl lo, Incl hi) n with
      | Some (t1, cs1, n1) =>
          match tot_encode_lb_change t1 (Incl lo, Incl hi) n1 with
          | Some (t2, cs2, n2) => Some (t2, cs1 ++ cs2, n2)
          | None => None
          end
      | None => None
      end
  end.

(** pyapi/src/encodings/card.rs:78-86 [enforce_ub]: every error is a [RuntimeError] *)
Definition pytot_enforce_ub (t : tot) (b : nat) : pyout (list lit) :=
  match tot_enforce_ub t b with None => PyPanic | Some (EOk ls) => PyOne ls | Some _ => PyRuntimeError end.
(** pyapi/src/encodings/card.rs:108-117 [enforce_lb] *)
Definition pytot_enforce_lb (t : tot) (b : nat) : pyout (list lit) := py_result (tot_enforce_lb t b).
(** pyapi/src/encodings/card.rs:142-151 [enforce_eq] *)
Definition pytot_enforce_eq (t : tot) (b : nat) : pyout (list lit) := py_result (enforce_eq tot_enforce_ub tot_enforce_lb t b).

(** ** The constructor of [GeneralizedTotalizer] *)

(** pyapi/src/encodings/pb.rs:41-46 [GeneralizedTotalizer.__new__] collects into a hash map; 31-34 [extend] *)
Definition pygte_new (xs : list (lit * nat)) : gte := gte_from_iter xs.
Definition pygte_extend (g : gte) (xs : list (lit * nat)) : gte := gte_extend g xs.
(** pyapi/src/encodings/pb.rs:48-51 [weight_sum] *)
Definition pygte_weight_sum (g : gte) : option nat := gte_weight_sum g.
(** pyapi/src/encodings/pb.rs:69-83 [encode_ub]; 87-96 [enforce_ub] *)
Definition pygte_encode_ub (ord : wmap -> wmap) (g : gte) (lo hi : nat) (n : N) : option (gte * cnf * N) :=
  gte_encode_ub_change ord g (Incl lo, Incl hi) n.
Definition pygte_enforce_ub (ord : wmap -> wmap) (g : gte) (b : nat) : pyout (list lit) := py_result (gte_enforce_ub ord g b).

(** ** What a program sees *)

(** the inputs given so far, the next free variable, the intervals of variables used by the totalizer during its own calls,
    and the clauses of all formulas returned. Inputs must have been allocated and not be variables of the totalizer. *)
Definition py_inputs (c : pycall) : list lit := match c with PyExtend xs => xs | _ => [] end.
Definition py_own (c : pycall) (n n' : N) : list (N * N) := match c with PyEncodeUb _ _ | PyEncodeLb _ _ | PyEncodeBoth _ _ => [(n, n')] | _ => [] end.
Definition py_valid (n : N) (own : list (N * N)) (c : pycall) : Prop := forall x, In x (py_inputs c) -> (lvar x < n)%N /\ ~ in_aux own (lvar x).
Inductive py_hist : list lit -> N -> list (N * N) -> cnf -> tot -> Prop :=
  | ph_new xs n : (forall x, In x xs -> (lvar x < n)%N) -> py_hist xs n [] [] (pytot_new xs)
  | ph_call ins n own F t c t' cs n' : py_hist ins n own F t -> py_valid n own c -> pytot_call t n c = Some (t', cs, n') ->
      py_hist (ins ++ py_inputs c) n' (py_own c n n' ++ own) (F ++ cs) t'.
