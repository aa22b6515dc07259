(** * Specification vocabulary for shuffling problems *)

From Coq Require Import List NArith Permutation.
From Verif Require Import Spec Types InstSpec.
Import ListNotations.

(** A shuffled list has the same elements *)
Definition permutes {A} (g : list A -> list A) : Prop := forall xs, Permutation (g xs) xs.
(** The renaming is one-to-one between the variables below [n], and other variables keep their names *)
Definition renaming (n : N) (r : N -> N) : Prop :=
  (forall u v, r u = r v -> u = v) /\ (forall u, exists v, r v = u) /\ (forall v, (v < n)%N <-> (r v < n)%N) /\ (forall v, (n <= v)%N -> r v = v).
Definition rename_cnf (r : N -> N) (f : cnf) : cnf := map (map (rename_lit r)) f.
Definition rename_softs (r : N -> N) (ss : list (clause * nat)) : list (clause * nat) := map (fun e => (map (rename_lit r) (fst e), snd e)) ss.
