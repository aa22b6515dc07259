(** * Specification of what Python programmers expect of sequences, iterators and variable managers *)

From Coq Require Import List Bool NArith ZArith.
From Verif Require Import Spec Types.
Import ListNotations.

(** what a key in [xs[key]] can be *)
Inductive pykey : Type := KInt (i : Z) | KSlice (start stop step : option Z) | KOther.
(** outcomes; [PyPanic] is a [PanicException], which is not an [Exception] in Python *)
Inductive pyout (X : Type) : Type := PyOne (x : X) | PyMany (xs : list X) | PyIndexError | PyValueError | PyTypeError | PyRuntimeError | PyStop | PyPanic.
Arguments PyOne {X}. Arguments PyMany {X}. Arguments PyIndexError {X}. Arguments PyValueError {X}. Arguments PyTypeError {X}. Arguments PyRuntimeError {X}.
Arguments PyStop {X}. Arguments PyPanic {X}.

(** [slice(start, stop, step).indices(n)] of Python: negative bounds count from the end, bounds are clipped to the sequence,
    missing ones are its ends; [None] is a [ValueError] *)
Definition clip (n step i : Z) : Z :=
  (let i := if i <? 0 then i + n else i in
   if 0 <? step then Z.max 0 (Z.min i n) else Z.max (-1) (Z.min i (n - 1)))%Z.
Definition slice_indices (n : Z) (start stop step : option Z) : option (Z * Z * Z) :=
  (let k := match step with Some k => k | None => 1 end in
   if k =? 0 then None else
   let i := match start with Some i => clip n k i | None => if 0 <? k then 0 else n - 1 end in
   let j := match stop with Some j => clip n k j | None => if 0 <? k then n else -1 end in
   Some (i, j, k))%Z.
(** the positions of a slice from [i] to [j] with step [k]: [i + n*k] for [0 <= n < (j - i) / k] (library reference, common
    sequence operations, note 5) *)
Definition slice_positions (i j k : Z) : list Z := map (fun n => (i + Z.of_nat n * k)%Z) (seq 0 (Z.to_nat (- ((i - j) / k))%Z)).
(** [xs[key]] as for lists and tuples *)
Definition py_get {X} (xs : list X) (key : pykey) (out : pyout X) : Prop :=
  let n := Z.of_nat (length xs) in
  match key with
  | KInt i => let p := (if i <? 0 then i + n else i)%Z in
              if ((0 <=? p) && (p <? n))%Z then exists x, out = PyOne x /\ nth_error xs (Z.to_nat p) = Some x else out = PyIndexError
  | KSlice start stop step =>
      match slice_indices n start stop step with
      | None => out = PyValueError
      | Some (i, j, k) => exists ys, out = PyMany ys /\ Forall2 (fun p y => (0 <= p)%Z /\ nth_error xs (Z.to_nat p) = Some y) (slice_positions i j k) ys
      end
  | KOther => out = PyTypeError
  end.

(** Iterators: every iterator has a position and knows whether the sequence was modified after it was created. *)
Inductive seqop (Op : Type) : Type := SModify (o : Op) | SIter | SNext (k : nat).
Arguments SModify {Op}. Arguments SIter {Op}. Arguments SNext {Op}.
Section Ideal.
Context {X Op : Type} (modify : Op -> list X -> list X).
Definition iseq : Type := list X * list (nat * bool).
Definition set_nth {Y} (k : nat) (y : Y) (l : list Y) : list Y := firstn k l ++ match skipn k l with [] => [] | _ :: r => y :: r end.
Definition ideal_step (s : iseq) (o : seqop Op) : option (iseq * option (pyout X)) :=
  match o with
  | SModify m => Some ((modify m (fst s), map (fun it => (fst it, true)) (snd s)), None)
  | SIter => Some ((fst s, snd s ++ [(0, false)]), None)
  | SNext k =>
      match nth_error (snd s) k with
      | None => None                                     (* no such iterator *)
      | Some (_, true) => Some (s, Some PyRuntimeError)  (* modified during iteration *)
      | Some (i, false) => match nth_error (fst s) i with
                           | Some x => Some ((fst s, set_nth k (S i, false) (snd s)), Some (PyOne x))
                           | None => Some (s, Some PyStop)
                           end
      end
  end.
(** what the calls of [next] return *)
Fixpoint ideal_run (s : iseq) (os : list (seqop Op)) : option (list (pyout X)) :=
  match os with
  | [] => Some []
  | o :: os' => match ideal_step s o with
                | None => None
                | Some (s', r) => match ideal_run s' os' with None => None | Some rs => Some (match r with Some x => x :: rs | None => rs end) end
                end
  end.
End Ideal.

(** only the last iterator that was created is asked for elements *)
Fixpoint newest_only {Op} (n : nat) (os : list (seqop Op)) : Prop :=
  match os with
  | [] => True
  | SModify _ :: os' => newest_only n os'
  | SIter :: os' => newest_only (S n) os'
  | SNext k :: os' => S k = n /\ newest_only n os'
  end.

(** Variable managers: [VIncrease n] marks the variables up to [n] as used, [VNew] asks for a new one *)
Inductive vmop : Type := VIncrease (n : N) | VNew.
(** [vs] are acceptable results of the calls of [VNew], in order: larger than the number of used variables at the start, all
    numbers marked before, and all earlier results; valid as literals *)
Fixpoint fresh_vars (used : N) (os : list vmop) (vs : list N) : Prop :=
  match os, vs with
  | [], [] => True
  | VIncrease n :: os', _ => fresh_vars (N.max used n) os' vs
  | VNew :: os', v :: vs' => (used < v)%N /\ from_ipasir (Z.of_N v) = Some (pos (v - 1)) /\ fresh_vars v os' vs'
  | _, _ => False
  end.
