(** * Model of the at-most-one encodings in [src/encodings/am1/]

    An encoder maps the input literals and the next free variable to the clauses and the new next free
    variable; the variable manager only matters through [new_var] (src/instances/mod.rs:107-111).
    Indexing into the vectors of auxiliary literals uses a default; that all indices are in range is
    part of the proofs (a default literal would not be fresh). *)

From Coq Require Import List Bool NArith ZArith.
From Verif Require Import Spec Types Atomics.
Import ListNotations.

(** [k] calls of [new_lit], src/instances/mod.rs:35-37 *)
Definition fresh_lits (next : N) (k : nat) : list lit :=
  map (fun i => pos (next + N.of_nat i)) (seq 0 k).

Definition lnth (i : nat) (ls : list lit) : lit := nth i ls (pos 0).

(** src/utils.rs:11-40 [digits] for basis 2: the loop dividing by two; [fuel] bounds the iterations *)
Fixpoint digits_loop (fuel number : nat) : nat :=
  match fuel with
  | O => 0
  | S f => if (0 <? number)%nat then S (digits_loop f (number / 2)) else 0
  end.
Definition digits2 (number : nat) : nat := if (number =? 0)%nat then 1 else digits_loop number number.

(** [usize::div_ceil]; division by zero, which panics, is excluded by the theorems *)
Definition div_ceil (n d : nat) : nat := ((n + d - 1) / d)%nat.

(** src/encodings/am1/pairwise.rs:34-50 [Pairwise::encode] *)
Definition pairwise_encode (ls : list lit) (next : N) : cnf * N :=
  (flat_map (fun first => map (fun second => [neg (lnth first ls); neg (lnth second ls)])
                              (seq (first + 1) (length ls - (first + 1))))
            (seq 0 (length ls)), next).

(** src/encodings/am1/ladder.rs:58-71: the cube implied by the literal at [idx] *)
Definition ladder_cube (aux : list lit) (idx : nat) : list lit :=
  (if (0 <? idx)%nat then [lnth (idx - 1) aux] else []) ++
  (if (idx <? length aux)%nat then [neg (lnth idx aux)] else []).

(** src/encodings/am1/ladder.rs:36-78 [Ladder::encode] *)
Definition ladder_encode (ls : list lit) (next : N) : cnf * N :=
  if (length ls <=? 1)%nat then ([], next)
  else
    let aux := fresh_lits next (length ls - 1) in
    (map (fun idx => lit_impl_lit (lnth (idx + 1) aux) (lnth idx aux)) (seq 0 (length ls - 2)) ++
     flat_map (fun idx => lit_impl_cube (lnth idx ls) (ladder_cube aux idx)) (seq 0 (length ls)),
     (next + N.of_nat (length ls - 1))%N).

(** [aux.lit(idx & (1 << k) == 0)], e.g. src/encodings/am1/bitwise.rs:57 *)
Definition bit_lit (aux : list lit) (idx k : nat) : lit :=
  mkLit (lvar (lnth k aux)) (Nat.land idx (Nat.shiftl 1 k) =? 0)%nat.

(** src/encodings/am1/bitwise.rs:40-67 [Bitwise::encode] *)
Definition bitwise_encode (ls : list lit) (next : N) : cnf * N :=
  if (length ls <=? 1)%nat then ([], next)
  else
    let p := digits2 (length ls - 1) in
    let aux := fresh_lits next p in
    (flat_map (fun idx => map (fun k => lit_impl_lit (lnth idx ls) (bit_lit aux idx k)) (seq 0 p)) (seq 0 (length ls)),
     (next + N.of_nat p)%N).

(** [&self.in_lits[split * N..min(len, (split + 1) * N)]], src/encodings/am1/commander.rs:66 *)
Definition split_lits (n : nat) (ls : list lit) (split : nat) : list lit :=
  firstn (Nat.min (length ls) ((split + 1) * n) - split * n) (skipn (split * n) ls).

(** src/encodings/am1/commander.rs:65-71: the loop over the splits *)
Fixpoint commander_loop (n : nat) (sub : list lit -> N -> cnf * N) (ls : list lit) (cs : list (nat * lit)) (next : N) : cnf * N :=
  match cs with
  | [] => ([], next)
  | (split, commander) :: cs' =>
      let lits := split_lits n ls split in
      let '(f1, next1) := sub lits next in
      let '(f2, next2) := commander_loop n sub ls cs' next1 in
      (clause_impl_lit lits commander ++ f1 ++ f2, next2)
  end.

(** src/encodings/am1/commander.rs:47-79 [Commander::encode] *)
Definition commander_encode (n : nat) (sub : list lit -> N -> cnf * N) (ls : list lit) (next : N) : cnf * N :=
  if (length ls <=? 1)%nat then ([], next)
  else
    let n_splits := div_ceil (length ls) n in
    let commanders := fresh_lits next n_splits in
    let '(f1, next1) := commander_loop n sub ls (combine (seq 0 n_splits) commanders) (next + N.of_nat n_splits) in
    let '(f2, next2) := sub commanders next1 in
    (f1 ++ f2, next2).

(** src/encodings/am1/bimander.rs:66-74: the loop over the splits *)
Fixpoint bimander_loop (n p : nat) (sub : list lit -> N -> cnf * N) (ls aux : list lit) (splits : list nat) (next : N) : cnf * N :=
  match splits with
  | [] => ([], next)
  | split :: splits' =>
      let lits := split_lits n ls split in
      let '(f1, next1) := sub lits next in
      let '(f2, next2) := bimander_loop n p sub ls aux splits' next1 in
      (flat_map (fun k => clause_impl_lit lits (bit_lit aux split k)) (seq 0 p) ++ f1 ++ f2, next2)
  end.

(** src/encodings/am1/bimander.rs:47-79 [Bimander::encode] *)
Definition bimander_encode (n : nat) (sub : list lit -> N -> cnf * N) (ls : list lit) (next : N) : cnf * N :=
  if (length ls <=? 1)%nat then ([], next)
  else
    let n_splits := div_ceil (length ls) n in
    let p := digits2 (n_splits - 1) in
    let aux := fresh_lits next p in
    bimander_loop n p sub ls aux (seq 0 n_splits) (next + N.of_nat p).

(** src/encodings/am1/twoproduct.rs:55-60: the number of rows; [fuel] bounds the iterations *)
Fixpoint rows_loop (fuel p len : nat) : nat :=
  match fuel with
  | O => p
  | S f => if ((p + 1) * (p + 1) <=? len)%nat then rows_loop f (p + 1) len else p
  end.

(** src/encodings/am1/twoproduct.rs:40-87 [TwoProduct::encode] *)
Definition twoproduct_encode (sub : list lit -> N -> cnf * N) (ls : list lit) (next : N) : cnf * N :=
  if (length ls <=? 1)%nat then ([], next)
  else
    let p := rows_loop (length ls) 0 (length ls) in
    let q := div_ceil (length ls) p in
    let rows := fresh_lits next p in
    let cols := fresh_lits (next + N.of_nat p) q in
    let f0 := flat_map (fun idx => [lit_impl_lit (lnth idx ls) (lnth (idx / q) rows);
                                    lit_impl_lit (lnth idx ls) (lnth (idx mod q) cols)]) (seq 0 (length ls)) in
    let '(f1, next1) := sub rows (next + N.of_nat p + N.of_nat q)%N in
    let '(f2, next2) := sub cols next1 in
    (f0 ++ f1 ++ f2, next2).

(** All at-most-one encodings, with arbitrary nesting of the parameter [Sub] (the [Encode] implementors of
    src/encodings/am1/mod.rs:43-59); the number is the parameter [N]. *)
Inductive am1_kind : Type :=
| AmPairwise | AmLadder | AmBitwise
| AmCommander (n : nat) (sub : am1_kind)
| AmBimander (n : nat) (sub : am1_kind)
| AmTwoProduct (sub : am1_kind).

Fixpoint am1_encode (k : am1_kind) : list lit -> N -> cnf * N :=
  match k with
  | AmPairwise => pairwise_encode
  | AmLadder => ladder_encode
  | AmBitwise => bitwise_encode
  | AmCommander n sub => commander_encode n (am1_encode sub)
  | AmBimander n sub => bimander_encode n (am1_encode sub)
  | AmTwoProduct sub => twoproduct_encode (am1_encode sub)
  end.

(** The parameter [N] is positive (for 0, [div_ceil] panics). *)
Fixpoint am1_params_ok (k : am1_kind) : Prop :=
  match k with
  | AmPairwise | AmLadder | AmBitwise => True
  | AmCommander n sub | AmBimander n sub => (0 < n)%nat /\ am1_params_ok sub
  | AmTwoProduct sub => am1_params_ok sub
  end.

(** ** The encoder objects with their statistics *)

(** the fields of e.g. src/encodings/am1/commander.rs:29-37 *)
Record am1_obj : Type := mkAm1 { am_lits : list lit; am_n_clauses : nat; am_n_vars : N }.

(** [From<Vec<Lit>>], e.g. src/encodings/am1/commander.rs:103-112 *)
Definition am1_from (ls : list lit) : am1_obj := mkAm1 ls 0 0.

(** [Extend<Lit>], e.g. src/encodings/am1/twoproduct.rs:133-137 *)
Definition am1_extend (o : am1_obj) (ls : list lit) : am1_obj := mkAm1 (am_lits o ++ ls) (am_n_clauses o) (am_n_vars o).

(** The statistics updates at the end of each [encode]: pairwise.rs:48 with 66-68, ladder.rs:73-76,
    bitwise.rs:64-65, commander.rs:76-77, bimander.rs:76-77, twoproduct.rs:84-85. *)
Definition am1_stats (k : am1_kind) (o : am1_obj) (f : cnf) (next next' : N) : am1_obj :=
  match k with
  | AmPairwise => mkAm1 (am_lits o) (length f) 0
  | _ =>
      if (length (am_lits o) <=? 1)%nat then o
      else mkAm1 (am_lits o) (length f)
                 (match k with
                  | AmLadder => am_n_vars o + (N.of_nat (length (am_lits o)) - 1)
                  | AmBitwise => am_n_vars o + N.of_nat (digits2 (length (am_lits o) - 1))
                  | _ => am_n_vars o + (next' - next)
                  end)
  end.

Definition am1_obj_encode (k : am1_kind) (o : am1_obj) (next : N) : cnf * N * am1_obj :=
  let '(f, next') := am1_encode k (am_lits o) next in (f, next', am1_stats k o f next next').
