(** * Specification vocabulary

    Plain propositional logic: nothing in this file mentions the code under verification.
    Every property theorem is stated with these notions (and the API functions of the model). *)

From Coq Require Import List Bool NArith ZArith Lia.
Import ListNotations.

(** A literal is a variable (index) together with a sign; [lneg = true] is the negated literal. *)
Record lit : Type := mkLit { lvar : N; lneg : bool }.

Definition pos (v : N) : lit := mkLit v false.
Definition negl (v : N) : lit := mkLit v true.

(** The complement of a literal. *)
Definition neg (l : lit) : lit := mkLit (lvar l) (negb (lneg l)).

Definition clause : Type := list lit.
Definition cnf : Type := list clause.

(** A total assignment gives each variable a truth value. *)
Definition asg : Type := N -> bool.

(** Truth of a literal, a clause (disjunction), a cube (conjunction) and a CNF. *)
Definition lit_true (a : asg) (l : lit) : bool := xorb (lneg l) (a (lvar l)).
Definition sat_clause (a : asg) (c : clause) : bool := existsb (lit_true a) c.
Definition sat_cube (a : asg) (c : list lit) : bool := forallb (lit_true a) c.
Definition sat_cnf (a : asg) (f : cnf) : bool := forallb (sat_clause a) f.

(** Number of positions of a list of literals that are true. *)
Fixpoint count_true (a : asg) (ls : list lit) : nat :=
  match ls with
  | [] => 0
  | l :: ls' => (if lit_true a l then 1 else 0) + count_true a ls'
  end.

(** Sum of the (natural number) weights of the true literals. *)
Fixpoint wsum (a : asg) (ls : list (lit * nat)) : nat :=
  match ls with
  | [] => 0
  | (l, w) :: ls' => (if lit_true a l then w else 0) + wsum a ls'
  end.

(** Sum of the (integer) weights of the true literals. *)
Fixpoint zwsum (a : asg) (ls : list (lit * Z)) : Z :=
  match ls with
  | [] => 0
  | (l, w) :: ls' => ((if lit_true a l then w else 0) + zwsum a ls')%Z
  end.

(** [a'] differs from [a] at most on variables in the half-open interval [lo, hi). *)
Definition changes_only (lo hi : N) (a a' : asg) : Prop :=
  forall v, (v < lo \/ hi <= v)%N -> a' v = a v.

(** All variables of the literals are below [n]. *)
Definition lits_below (n : N) (ls : list lit) : Prop := forall l, In l ls -> (lvar l < n)%N.
Definition cnf_below (n : N) (f : cnf) : Prop := forall c, In c f -> lits_below n c.

(** ** What it means for clauses to encode a constraint

    [encodes lo hi f P]: the clauses [f], whose auxiliary variables are taken from [lo, hi), describe
    exactly the assignments with property [P]. *)
Definition encodes (lo hi : N) (f : cnf) (P : asg -> Prop) : Prop :=
  (forall a, sat_cnf a f = true -> P a) /\
  (forall a, P a -> exists a', changes_only lo hi a a' /\ sat_cnf a' f = true).

(** ** Partial assignments

    A partial assignment gives each variable [Some] truth value or none;
    a total assignment completes it if it agrees wherever there is a value. *)
Definition pasg : Type := N -> option bool.
Definition completes (a : asg) (p : pasg) : Prop := forall v b, p v = Some b -> a v = b.
Definition total_of (a : asg) : pasg := fun v => Some (a v).
