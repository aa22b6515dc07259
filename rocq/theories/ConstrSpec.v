(** * Specification vocabulary for literals, clauses and constraints

    The meaning of the objects of the API; nothing here is code under verification. *)

From Coq Require Import List Bool NArith ZArith.
From Verif Require Import Spec Types Constraints.
Import ListNotations.

(** A clause contains a literal together with its negation. *)
Definition complementary (c : clause) : Prop := exists l, In l c /\ In (neg l) c.

(** Two clauses have the same models. *)
Definition equiv_clause (c1 c2 : clause) : Prop := forall a, sat_clause a c1 = sat_clause a c2.

(** The order on literals: by variable, the positive literal first. *)
Definition slt (x y : lit) : Prop := (pack x < pack y)%N.

(** The first occurrence of each literal of [c] that is not in [seen], in order. *)
Fixpoint first_occs (seen : list lit) (c : clause) : clause :=
  match c with
  | [] => []
  | l :: c' => if mem_lit l seen then first_occs seen c' else l :: first_occs (l :: seen) c'
  end.

(** The value the last literal over [v] in [ls] gives to [v], or [d] if there is none. *)
Fixpoint last_value (v : N) (ls : list lit) (d : tern) : tern :=
  match ls with
  | [] => d
  | l :: ls' => last_value v ls' (if (v =? lvar l)%N then tern_of_bool (negb (lneg l)) else d)
  end.

(** All literals of a weighted list are true (false). *)
Definition all_true (a : asg) (ls : list (lit * nat)) : Prop := forall l w, In (l, w) ls -> lit_true a l = true.
Definition all_false (a : asg) (ls : list (lit * nat)) : Prop := forall l w, In (l, w) ls -> lit_true a l = false.

(** ** Meaning of the constraints (specification, not code) *)

Definition card_holds (a : asg) (c : card) : Prop :=
  match c_kind c with
  | KUb => (count_true a (c_lits c) <= c_b c)%nat
  | KLb => (c_b c <= count_true a (c_lits c))%nat
  | KEq => (count_true a (c_lits c) = c_b c)%nat
  end.

Definition pb_holds (a : asg) (c : pb) : Prop :=
  match p_kind c with
  | KUb => (Z.of_nat (wsum a (p_lits c)) <= p_b c)%Z
  | KLb => (p_b c <= Z.of_nat (wsum a (p_lits c)))%Z
  | KEq => (Z.of_nat (wsum a (p_lits c)) = p_b c)%Z
  end.

(** [lits sum rel b] over signed weights *)
Definition rel_holds (k : bound_kind) (x b : Z) : Prop :=
  match k with KUb => (x <= b)%Z | KLb => (b <= x)%Z | KEq => x = b end.

(** The invariant kept by the constructors: the stored weight sum is the sum of the weights. *)
Definition pb_wf (c : pb) : Prop := p_wsum c = sum_weights (p_lits c).
