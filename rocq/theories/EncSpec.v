(** * Specification of encoding a single constraint to clauses *)

From Coq Require Import List Bool NArith ZArith.
From Verif Require Import Spec BoundSpec Types Constraints.
Import ListNotations.

(** The clauses [cs] describe exactly the assignments with property [P] to the literals [ls], with auxiliary variables
    from the interval [next, next') handed out during the call. *)
Definition exact_clauses (ls : list lit) (next next' : N) (cs : cnf) (P : asg -> Prop) : Prop :=
  (next <= next')%N /\
  (forall c l, In c cs -> In l c -> (exists x, In x ls /\ lvar x = lvar l) \/ (next <= lvar l < next')%N) /\
  encodes next next' cs P.

(** What is needed of a bound encoding to encode constraints with it: the contract of upper and lower bounding, that the
    combined call enables both, that [from_iter] gives the state of a fresh encoder with the inputs, and that encoding a
    single bound after that does not panic. *)
Record bounding {A S : Type} (E : encoder A S) (from : list A -> option S) (ilit : A -> lit) (iok : A -> Prop)
    (allow : hop A -> Prop) (value : asg -> list A -> nat) (total : list A -> nat) : Prop := mkBounding {
  bd_upper : upper_contract E ilit iok allow value total;
  bd_lower : lower_contract E ilit iok allow value total;
  bd_both_ub : encodes_ub E ilit iok allow HBoth;
  bd_both_lb : encodes_lb E ilit iok allow HBoth;
  bd_allow : forall r, allow (HUb r) /\ allow (HLb r) /\ allow (HBoth r);
  bd_from : forall xs next, allow (HExtend xs) -> (forall x, In x xs -> iok x /\ (lvar (ilit x) < next)%N) ->
    exists s, from xs = Some s /\ reachable E ilit iok allow (mkWorld xs next [] [] [] []) s;
  bd_calls : forall xs next s b, reachable E ilit iok allow (mkWorld xs next [] [] [] []) s ->
    en_ub E s (Incl b, Incl b) next <> None /\ en_lb E s (Incl b, Incl b) next <> None /\
    en_both E s (Incl b, Incl b) next <> None
}.

(** An equality of equally weighted literals whose bound is within reach but not a multiple of the weight, such as
    [2 x + 2 y = 3]; it has no solution. *)
Definition indivisible (c : pb) : Prop :=
  p_kind c = KEq /\ p_lits c <> [] /\ (0 <= p_b c <= Z.of_nat (sum_weights (p_lits c)))%Z /\
  exists u, (forall l w, In (l, w) (p_lits c) -> w = u) /\ ~ Nat.divide u (Z.abs_nat (p_b c)).
