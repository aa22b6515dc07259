(** * Specification of at-most-one encoders *)

From Coq Require Import List Bool NArith.
From Verif Require Import Spec.
Import ListNotations.

(** An encoder, given literals and the next free variable, returns clauses and the new next free variable.
    It is correct if, for all literals below the next free variable,
    - no variable is given back and the clauses only use variables handed out,
    - the clauses describe exactly "at most one position of the list is true", where completeness may
      only choose values for variables taken from the manager during the call. *)
Definition am1_correct (enc : list lit -> N -> cnf * N) : Prop :=
  forall ls next f next',
    lits_below next ls -> enc ls next = (f, next') ->
    (next <= next')%N /\ cnf_below next' f /\
    encodes next next' f (fun a => (count_true a ls <= 1)%nat).
