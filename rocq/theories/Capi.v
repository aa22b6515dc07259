(** * Model of the C interface to the encodings, [capi/src/encodings]

    The functions for the encodings are generated from one template (codegen); they are modelled once, for any encoder. Pointers and
    memory management are not modelled. [None] is a panic, which aborts the program at the language boundary. *)

From Coq Require Import List Bool NArith ZArith.
From Verif Require Import Spec BoundSpec Types NodeDb Am1 CapiSpec.
Import ListNotations.

(** capi/src/encodings/mod.rs:78-111 [ClauseCollector]: the integers passed to the callback *)
Fixpoint lits_ints (ls : list lit) : option (list Z) :=
  match ls with [] => Some [] | l :: ls' => do x <- to_ipasir l; do xs <- lits_ints ls'; Some (x :: xs) end.
Fixpoint cnf_ints (cs : cnf) : option (list Z) :=
  match cs with [] => Some [] | c :: cs' => do xs <- lits_ints c; do ys <- cnf_ints cs'; Some (xs ++ 0%Z :: ys) end.

Section Api.
Context {A S : Type} (E : encoder A S) (mk : lit -> nat -> A) (single : bool).

(** capi/src/encodings/card.rs:55-61, pb.rs:57-67 (and the same for other encodings): adding an input *)
Definition capi_add (s : S) (n : N) (x : Z) (w : nat) : option (S * N * creply) :=
  match from_ipasir x with
  | None => Some (s, n, mkReply InvalidLiteral [] [])
  | Some l => do s' <- en_extend E s [mk l w]; Some (s', n, mkReply Fine [] [])
  end.

(** capi/src/encodings/card.rs:83-97, 142-156, pb.rs:90-104: encoding a range with both ends included *)
Definition capi_encode (f : rng -> N -> option (S * cnf * N)) (n : N) (lo hi : nat) : option (S * N * creply) :=
  if (lo <=? hi)%nat then
    match f (Incl lo, Incl hi) n with
    | Some (s', cs, n') => do xs <- cnf_ints cs; Some (s', n', mkReply Fine xs [])
    | None => None
    end
  else None.

(** capi/src/encodings/mod.rs:28-42, card.rs:107-120, 166-179, pb.rs:117-131: assumptions for a bound. For cardinality encodings the first
    assumption is stored; the assertion that there is exactly one is for debug builds, without it the access to the first one panics if
    there is none. For pseudo-Boolean encodings all assumptions go to a callback. *)
Definition capi_enforce (s : S) (n : N) (r : option eres) : option (S * N * creply) :=
  do e <- r;
  match e with
  | EOk ls =>
      if single then match ls with [l] => do x <- to_ipasir l; Some (s, n, mkReply Fine [] [x]) | _ => None end
      else do xs <- lits_ints ls; Some (s, n, mkReply Fine [] xs)
  | ENotEncoded => Some (s, n, mkReply NotEncoded [] [])
  | EUnsat => Some (s, n, mkReply Unsatisfiable [] [])
  end.

(** the functions together; [VarManager] (capi/src/encodings/mod.rs:113-157) is the number of variables in use *)
Definition capi (s : S) (n : N) (c : ccall) : option (S * N * creply) :=
  match c with
  | FAdd x w => capi_add s n x w
  | FReserve => do (s', n') <- en_reserve E s n; Some (s', n', mkReply Fine [] [])
  | FEncodeUb lo hi => capi_encode (en_ub_change E s) n lo hi
  | FEncodeLb lo hi => capi_encode (en_lb_change E s) n lo hi
  | FEnforceUb b => capi_enforce s n (en_enforce_ub E s b)
  | FEnforceLb b => capi_enforce s n (en_enforce_lb E s b)
  end.
End Api.

(** capi/src/encodings/am1.rs: adding literals one by one to a new at-most-one encoding, going on after
    literals that are refused, and encoding *)
Fixpoint am1_adds (ls : list lit) (xs : list Z) : list lit * list code :=
  match xs with
  | [] => (ls, [])
  | x :: xs' =>
      match from_ipasir x with
      | None => let '(r, cs) := am1_adds ls xs' in (r, InvalidLiteral :: cs)
      | Some l => let '(r, cs) := am1_adds (ls ++ [l]) xs' in (r, Fine :: cs)
      end
  end.
Definition am1_capi (k : am1_kind) (xs : list Z) (n : N) : option (list code * list Z * N) :=
  let '(ls, cs) := am1_adds [] xs in
  let '(f, n') := am1_encode k ls n in
  do ys <- cnf_ints f; Some (cs, ys, n').
