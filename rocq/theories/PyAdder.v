(** * Model of programs that use the binary adder of the Python bindings, [pyapi/src/encodings/pb.rs] *)

From Coq Require Import List Bool NArith.
From Verif Require Import Spec BoundSpec Types Constraints Maps NodeDb Adder PySpec PyEnc PyPb.
Import ListNotations.

(** calls of a program that change the encoding or its variable manager; [BNewVars k] are [k] calls of [VarManager.new_var] *)
Inductive bcall : Type := BExtend (xs : list (lit * nat)) | BNewVars (k : N) | BEncodeUb (lo hi : nat) | BEncodeLb (lo hi : nat) | BEncodeBoth (lo hi : nat).

(** pyapi/src/encodings/pb.rs:31-34 [extend]; the other calls are in [PyPb] *)
Definition pyadd_call (ord : wmap -> wmap) (t : adder) (n : N) (c : bcall) : option (adder * cnf * N) :=
  match c with
  | BExtend xs => Some (add_extend t xs, [], n)
  | BNewVars k => Some (t, [], (n + k)%N)
  | BEncodeUb lo hi => pyadd_encode_ub ord t lo hi n
  | BEncodeLb lo hi => pyadd_encode_lb ord t lo hi n
  | BEncodeBoth lo hi => pyadd_encode_both ord t lo hi n
  end.

(** what a program sees, as in [PyPb.g_hist]; without calls for lower bounds unless [low] *)
Definition b_inputs (c : bcall) : list (lit * nat) := match c with BExtend xs => xs | _ => [] end.
Definition b_own (c : bcall) (n n' : N) : list (N * N) := match c with BExtend _ | BNewVars _ => [] | _ => [(n, n')] end.
Definition b_valid (low : bool) (n : N) (own : list (N * N)) (c : bcall) : Prop :=
  (forall x, In x (b_inputs c) -> 1 <= snd x /\ (lvar (fst x) < n)%N /\ ~ in_aux own (lvar (fst x))) /\
  match c with BEncodeLb _ _ | BEncodeBoth _ _ => low = true | _ => True end.
Inductive b_hist (ord : wmap -> wmap) (low : bool) : list (lit * nat) -> N -> list (N * N) -> cnf -> adder -> Prop :=
  | bh_new xs n : NoDup (map fst xs) -> (forall x, In x xs -> 1 <= snd x /\ (lvar (fst x) < n)%N) -> b_hist ord low xs n [] [] (pyadd_new xs)
  | bh_call ins n own F t c t' cs n' : b_hist ord low ins n own F t -> b_valid low n own c -> pyadd_call ord t n c = Some (t', cs, n') ->
      b_hist ord low (ins ++ b_inputs c) n' (b_own c n n' ++ own) (F ++ cs) t'.
