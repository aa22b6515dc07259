(** * Pseudo-Boolean constraints in a proof *)

From Coq Require Import List Bool NArith ZArith.
From Verif Require Import Spec Types Constraints CertSpec.
Import ListNotations.

(** "at least [b]" and "at most [b]" of the weighted literals, as constraints of the proof *)
Definition pb_at_least_con (ls : list (lit * nat)) (b : Z) : raw := norm (map (fun '(l, w) => (l, Z.of_nat w)) ls, b).
Definition pb_at_most_con (ls : list (lit * nat)) (b : Z) : raw := norm (map (fun '(l, w) => (l, (- Z.of_nat w)%Z)) ls, (- b)%Z).

(** the constraint to encode is in the proof: an equality as two constraints with consecutive identifiers *)
Definition pb_in_proof (p : pstate) (id : nat) (c : pb) : Prop :=
  match p_kind c with
  | KUb => ps_get p id = Some (pb_at_most_con (p_lits c) (p_b c))
  | KLb => ps_get p id = Some (pb_at_least_con (p_lits c) (p_b c))
  | KEq => ps_get p id = Some (pb_at_least_con (p_lits c) (p_b c)) /\ ps_get p (id + 1) = Some (pb_at_most_con (p_lits c) (p_b c))
  end.
