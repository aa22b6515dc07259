(** * Model of the weighted encodings of the Python bindings, [pyapi/src/encodings/pb.rs] *)

From Coq Require Import List Bool NArith.
From Verif Require Import Spec BoundSpec Types Constraints Maps NodeDb TotDb Totalizer Gte Adder PySpec PyEnc.
Import ListNotations.

(** ** [GeneralizedTotalizer]: constructor, [encode_ub] and [enforce_ub] are in [PyEnc] *)

(** calls of a program that change the encoding or its variable manager; [GNewVars k] are [k] calls of [VarManager.new_var] *)
Inductive gcall : Type := GExtend (xs : list (lit * nat)) | GNewVars (k : N) | GEncodeUb (lo hi : nat).

(** pyapi/src/encodings/pb.rs:31-34 [extend], 69-83 [encode_ub]; running out of memory is not modelled *)
Definition pygte_call (ord : wmap -> wmap) (g : gte) (n : N) (c : gcall) : option (gte * cnf * N) :=
  match c with
  | GExtend xs => Some (pygte_extend g xs, [], n)
  | GNewVars k => Some (g, [], (n + k)%N)
  | GEncodeUb lo hi => pygte_encode_ub ord g lo hi n
  end.

(** what a program sees, as in [PyEnc.py_hist]; the constructor is given distinct literals *)
Definition g_inputs (c : gcall) : list (lit * nat) := match c with GExtend xs => xs | _ => [] end.
Definition g_own (c : gcall) (n n' : N) : list (N * N) := match c with GEncodeUb _ _ => [(n, n')] | _ => [] end.
Definition g_valid (n : N) (own : list (N * N)) (c : gcall) : Prop :=
  forall x, In x (g_inputs c) -> 1 <= snd x /\ (lvar (fst x) < n)%N /\ ~ in_aux own (lvar (fst x)).
Inductive g_hist (ord : wmap -> wmap) : list (lit * nat) -> N -> list (N * N) -> cnf -> gte -> Prop :=
  | gh_new xs n : NoDup (map fst xs) -> (forall x, In x xs -> 1 <= snd x /\ (lvar (fst x) < n)%N) -> g_hist ord xs n [] [] (pygte_new xs)
  | gh_call ins n own F g c g' cs n' : g_hist ord ins n own F g -> g_valid n own c -> pygte_call ord g n c = Some (g', cs, n') ->
      g_hist ord (ins ++ g_inputs c) n' (g_own c n n' ++ own) (F ++ cs) g'.

(** ** [BinaryAdder] *)

(** pyapi/src/encodings/pb.rs:41-46 [BinaryAdder.__new__] *)
Definition pyadd_new (xs : list (lit * nat)) : adder := add_from_iter xs.
(** pyapi/src/encodings/pb.rs:69-83 [encode_ub], 102-116 [encode_lb], 136-151 [encode_both] with src/encodings/pb/mod.rs:374-387 *)
Definition pyadd_encode_ub (ord : wmap -> wmap) (t : adder) (lo hi : nat) (n : N) : option (adder * cnf * N) := add_encode_ub_change ord t (Incl lo, Incl hi) n.
Definition pyadd_encode_lb (ord : wmap -> wmap) (t : adder) (lo hi : nat) (n : N) : option (adder * cnf * N) := add_encode_lb_change ord t (Incl lo, Incl hi) n.
Definition pyadd_encode_both (ord : wmap -> wmap) (t : adder) (lo hi : nat) (n : N) : option (adder * cnf * N) :=
  do r1 <- pyadd_encode_ub ord t lo hi n;
  let '(t1, cs1, n1) := r1 in
  do r2 <- pyadd_encode_lb ord t1 lo hi n1;
  let '(t2, cs2, n2) := r2 in Some (t2, cs1 ++ cs2, n2).
(** pyapi/src/encodings/pb.rs:87-96 [enforce_ub], 120-129 [enforce_lb], 155-164 [enforce_eq] *)
Definition pyadd_enforce_ub (t : adder) (b : nat) : pyout (list lit) := py_result (add_enforce_ub t b).
Definition pyadd_enforce_lb (t : adder) (b : nat) : pyout (list lit) := py_result (add_enforce_lb t b).
Definition pyadd_enforce_eq (t : adder) (b : nat) : pyout (list lit) := py_result (enforce_eq add_enforce_ub add_enforce_lb t b).
