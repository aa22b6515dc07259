(** * Model of the encoding simulators, [src/encodings/card/simulators.rs] and [src/encodings/pb/simulators.rs] *)

From Coq Require Import List Bool NArith Arith.
From Verif Require Import Spec BoundSpec Types Maps NodeDb Totalizer.
Import ListNotations.

(** src/encodings/card/simulators.rs:55-63, src/encodings/pb/simulators.rs:55-63 [convert_encoding_range], for the number of
    literals respectively weight sum [n]; the subtractions panic on underflow *)
Definition convert_encoding_range (n : nat) (r : nat * nat) : option rng :=
  let '(lo, hi) := r in
  do _ <- assertb (1 <=? hi)%nat;
  do _ <- assertb (hi - 1 <=? n)%nat;
  Some (Incl (n - (hi - 1))%nat, Excl (if (lo <=? n)%nat then n - lo + 1 else 0)%nat).

(** [Inverted]: the same code for cardinality and pseudo-Boolean encodings up to
    - [coll], how inputs are collected and negated before they are passed on (a vector or a hash map),
    - [total], the number of literals or sum of weights of the collected inputs,
    - [unreach], whether [enforce_ub] panics ([unreachable!]) or passes it on when the inner encoding says "unsatisfiable" *)
Section Inverted.
Context {A S : Type} (E : encoder A S) (coll : list A -> list A) (total : list A -> nat) (unreach : bool).

(** card/simulators.rs:90-99, pb/simulators.rs:91-101 [Extend] *)
Definition inv_extend (s : S * nat) (xs : list A) : option (S * nat) :=
  let ys := coll xs in
  do s' <- en_extend E (fst s) ys; Some (s', (snd s + total ys)%nat).

(** card/simulators.rs:121-128, pb/simulators.rs:133-140 [reserve] *)
Definition inv_reserve (s : S * nat) (next : N) : option (S * nat * N) :=
  do r <- en_reserve E (fst s) next; Some (fst r, snd s, snd r).

Definition inv_call (f : S -> rng -> N -> option (S * cnf * N)) (prep : nat -> rng -> nat * nat) (s : S * nat) (r : rng) (next : N)
  : option (S * nat * cnf * N) :=
  do r' <- convert_encoding_range (snd s) (prep (snd s) r);
  do res <- f (fst s) r' next;
  let '(s', cs, next') := res in Some (s', snd s, cs, next').

(** card/simulators.rs:151-163, pb/simulators.rs:162-169 [enforce_ub] *)
Definition inv_enforce_ub (s : S * nat) (ub : nat) : option eres :=
  if (ub <? snd s)%nat then
    do r <- en_enforce_lb E (fst s) (snd s - ub); match r with EUnsat => if unreach then None else Some EUnsat | r => Some r end
  else Some (EOk []).

(** card/simulators.rs:237-244, pb/simulators.rs:237-244 [enforce_lb] *)
Definition inv_enforce_lb (s : S * nat) (lb : nat) : option eres :=
  if (lb <=? snd s)%nat then en_enforce_ub E (fst s) (snd s - lb) else Some EUnsat.

(** card/simulators.rs:313-320, pb/simulators.rs:314-321 [enforce_eq] *)
Definition inv_enforce_eq (s : S * nat) (b : nat) : option eres :=
  if (b <=? snd s)%nat then enforce_eq (en_enforce_ub E) (en_enforce_lb E) (fst s) (snd s - b) else Some EUnsat.

(** the remaining methods: card/simulators.rs:134-150, 220-236, 296-312, 353-370, 401-418 and
    pb/simulators.rs:146-161, 221-236, 298-313, 352-369, 400-417 *)
Definition inverted : encoder A (S * nat) :=
  mkEncoder (en_init E, 0%nat) inv_extend inv_reserve
    (inv_call (en_lb E) prepare_ub_range) (inv_call (en_lb_change E) prepare_ub_range)
    (inv_call (en_ub E) prepare_lb_range) (inv_call (en_ub_change E) prepare_lb_range)
    (inv_call (en_both E) prepare_both_range)
    inv_enforce_ub inv_enforce_lb.

(** pb/simulators.rs:111-117 [next_higher], [next_lower], given those of the inner encoding *)
Definition inv_next_higher (inner_lower : S -> nat -> option nat) (s : S * nat) (val : nat) : option nat :=
  do _ <- assertb (val <=? snd s)%nat;
  do v <- inner_lower (fst s) (snd s - val)%nat;
  do _ <- assertb (v <=? snd s)%nat; Some (snd s - v)%nat.
Definition inv_next_lower (inner_higher : S -> nat -> option nat) (s : S * nat) (val : nat) : option nat :=
  do _ <- assertb (val <=? snd s)%nat;
  do v <- inner_higher (fst s) (snd s - val)%nat;
  do _ <- assertb (v <=? snd s)%nat; Some (snd s - v)%nat.
End Inverted.

(** card/simulators.rs:94-95: the negated literals are collected into a vector *)
Definition card_inverted {S} (E : encoder lit S) : encoder lit (S * nat) :=
  inverted E (map neg) (@length lit) true.

(** pb/simulators.rs:96-99: the negated weighted literals are collected into a hash map *)
Definition negw (lw : lit * nat) : lit * nat := (neg (fst lw), snd lw).
Definition weights (xs : list (lit * nat)) : nat := fold_left (fun s lw => s + snd lw)%nat xs 0%nat.
Definition pb_inverted {S} (ord : wmap -> wmap) (E : encoder (lit * nat) S) : encoder (lit * nat) (S * nat) :=
  inverted E (fun xs => ord (map_collect (map negw xs))) weights false.

(** [Double]: card/simulators.rs:504-860, pb/simulators.rs:509-800; [coll] as above *)
Section Double.
Context {A S T : Type} (U : encoder A S) (L : encoder A T) (coll : list A -> list A).

(** card/simulators.rs:559-569, pb/simulators.rs:563-573 [Extend] *)
Definition dbl_extend (s : S * T) (xs : list A) : option (S * T) :=
  do u <- en_extend U (fst s) (coll xs);
  do l <- en_extend L (snd s) (coll xs); Some (u, l).

(** card/simulators.rs:593-602, pb/simulators.rs:606-615 [reserve] *)
Definition dbl_reserve (s : S * T) (next : N) : option (S * T * N) :=
  do r1 <- en_reserve U (fst s) next;
  do r2 <- en_reserve L (snd s) (snd r1); Some (fst r1, fst r2, snd r2).

Definition dbl_upper (f : S -> rng -> N -> option (S * cnf * N)) (s : S * T) (r : rng) (next : N) : option (S * T * cnf * N) :=
  do res <- f (fst s) r next; let '(u, cs, next') := res in Some (u, snd s, cs, next').
Definition dbl_lower (f : T -> rng -> N -> option (T * cnf * N)) (s : S * T) (r : rng) (next : N) : option (S * T * cnf * N) :=
  do res <- f (snd s) r next; let '(l, cs, next') := res in Some (fst s, l, cs, next').

(** the default [encode_both], card/mod.rs:183-196, pb/mod.rs:244-258 *)
Definition dbl_both (s : S * T) (r : rng) (next : N) : option (S * T * cnf * N) :=
  do r1 <- dbl_upper (en_ub U) s r next;
  let '(s1, c1, n1) := r1 in
  do r2 <- dbl_lower (en_lb L) s1 r n1;
  let '(s2, c2, n2) := r2 in Some (s2, c1 ++ c2, n2).

Definition double : encoder A (S * T) :=
  mkEncoder (en_init U, en_init L) dbl_extend dbl_reserve
    (dbl_upper (en_ub U)) (dbl_upper (en_ub_change U)) (dbl_lower (en_lb L)) (dbl_lower (en_lb_change L)) dbl_both
    (fun s => en_enforce_ub U (fst s)) (fun s => en_enforce_lb L (snd s)).
End Double.

Definition card_double {S T} (U : encoder lit S) (L : encoder lit T) : encoder lit (S * T) := double U L (fun xs => xs).
Definition pb_double {S T} (ord : wmap -> wmap) (U : encoder (lit * nat) S) (L : encoder (lit * nat) T) : encoder (lit * nat) (S * T) :=
  double U L (fun xs => ord (map_collect xs)).

(** [Card]: a pseudo-Boolean encoding from a cardinality encoding, pb/simulators.rs:817-1215; a literal is added as often
    as its weight says *)
Definition mult_lits (xs : list (lit * nat)) : list lit := flat_map (fun lw => repeat (fst lw) (snd lw)) xs.
Definition pb_card {S} (E : encoder lit S) : encoder (lit * nat) S :=
  mkEncoder (en_init E) (fun s xs => en_extend E s (mult_lits xs)) (en_reserve E)
    (en_ub E) (en_ub_change E) (en_lb E) (en_lb_change E) (en_both E) (en_enforce_ub E) (en_enforce_lb E).
