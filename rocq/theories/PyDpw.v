(** * Model of the dynamic polynomial watchdog of the Python bindings, [pyapi/src/encodings/pb.rs] *)

From Coq Require Import List Bool NArith.
From Verif Require Import Spec BoundSpec Types Constraints Maps NodeDb Totalizer Dpw PySpec PyEnc.
Import ListNotations.

(** pyapi/src/encodings/pb.rs:41-46 [DynamicPolyWatchdog.__new__]; [None] is a panic *)
Definition pydpw_new (ord : wmap -> wmap) (xs : list (lit * nat)) : option dpw := dpw_from_iter ord xs.

(** pyapi/src/encodings/pb.rs:227-231, 175-179: the class has no [extend], so that a program can only encode ranges and take variables;
    69-83 [encode_ub] *)
Inductive dcall : Type := DNewVars (k : N) | DEncodeUb (lo hi : nat).
Definition pydpw_call (srt : list node -> list nodecon -> list nodecon) (t : dpw) (n : N) (c : dcall) : option (dpw * cnf * N) :=
  match c with
  | DNewVars k => Some (t, [], (n + k)%N)
  | DEncodeUb lo hi => dpw_encode_ub_change srt t (Incl lo, Incl hi) n
  end.
(** pyapi/src/encodings/pb.rs:87-96 [enforce_ub] *)
Definition pydpw_enforce_ub (t : dpw) (b : nat) : pyout (list lit) := py_result (dpw_enforce_ub t b).

(** what a program sees that made the encoding from the weighted literals [xs]: the ranges encoded, the next free variable, the intervals of
    variables used by the encoding and all clauses returned *)
Definition d_own (c : dcall) (n n' : N) : list (N * N) := match c with DEncodeUb _ _ => [(n, n')] | _ => [] end.
Definition d_range (c : dcall) : list (nat * nat) := match c with DEncodeUb lo hi => [(lo, hi)] | _ => [] end.
Inductive d_hist (ord : wmap -> wmap) (srt : list node -> list nodecon -> list nodecon) (xs : list (lit * nat)) : list (nat * nat) -> N -> list (N * N) -> cnf -> dpw -> Prop :=
  | dh_new n t : NoDup (map fst xs) -> (forall x, In x xs -> 1 <= snd x /\ (lvar (fst x) < n)%N) -> pydpw_new ord xs = Some t -> d_hist ord srt xs [] n [] [] t
  | dh_call R n own F t c t' cs n' : d_hist ord srt xs R n own F t -> pydpw_call srt t n c = Some (t', cs, n') ->
      d_hist ord srt xs (d_range c ++ R) n' (d_own c n n' ++ own) (F ++ cs) t'.
