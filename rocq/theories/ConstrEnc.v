(** * Model of encoding single constraints to clauses, [src/encodings/card/mod.rs] and [src/encodings/pb/mod.rs] *)

From Coq Require Import List Bool NArith ZArith Arith.
From Verif Require Import Spec BoundSpec Types Constraints Maps NodeDb Totalizer Gte Simulators.
Import ListNotations.

(** What encoding a constraint can return: the clauses added to the collector and the next free variable, or the error
    [ConstraintEncodingError::Unsat]. Running out of memory is not modelled. *)
Inductive cres : Type := COk (cs : cnf) (next : N) | CUnsat.

(** src/encodings/card/mod.rs:104-109: the assumptions are added as unit clauses *)
Definition units (ls : list lit) : cnf := map (fun l => [l]) ls.

Section Encode.
Context {A S : Type} (E : encoder A S) (from : list A -> option S).

(** what the three methods below share: [unwrap] panics on an error *)
Definition add_units (cs : cnf) (next : N) (r : option eres) : option cres :=
  match r with
  | Some (EOk ls) => Some (COk (cs ++ units ls) next)
  | _ => None
  end.

(** src/encodings/card/mod.rs:101-110, src/encodings/pb/mod.rs:132-141: the part of [encode_ub_constr] after the checks *)
Definition encode_ub_at (xs : list A) (ub : nat) (next : N) : option cres :=
  do s <- from xs;
  do r <- en_ub E s (Incl ub, Incl ub) next;
  let '(s', cs, next') := r in add_units cs next' (en_enforce_ub E s' ub).

(** src/encodings/card/mod.rs:160-168, src/encodings/pb/mod.rs:205-213: the part of [encode_lb_constr] after the checks *)
Definition encode_lb_at (xs : list A) (lb : nat) (next : N) : option cres :=
  do s <- from xs;
  do r <- en_lb E s (Incl lb, Incl lb) next;
  let '(s', cs, next') := r in add_units cs next' (en_enforce_lb E s' lb).

(** src/encodings/card/mod.rs:227-235, src/encodings/pb/mod.rs:284-292: the part of [encode_eq_constr] after the checks,
    with the default [enforce_eq] *)
Definition encode_eq_at (xs : list A) (b : nat) (next : N) : option cres :=
  do s <- from xs;
  do r <- en_both E s (Incl b, Incl b) next;
  let '(s', cs, next') := r in add_units cs next' (enforce_eq (en_enforce_ub E) (en_enforce_lb E) s' b).
End Encode.

Section Card.
Context {S : Type} (E : encoder lit S) (from : list lit -> option S).

(** src/encodings/card/mod.rs:243-260 [BoundBoth::encode_constr], with [encode_ub_constr] (92-111), [encode_lb_constr]
    (148-170) and [encode_eq_constr] (215-237) *)
Definition card_encode_constr (c : card) (next : N) : option cres :=
  match c_kind c with
  | KUb => encode_ub_at E from (c_lits c) (c_b c) next
  | KLb => if (length (c_lits c) <? c_b c)%nat then Some CUnsat else encode_lb_at E from (c_lits c) (c_b c) next
  | KEq => if (length (c_lits c) <? c_b c)%nat then Some CUnsat else encode_eq_at E from (c_lits c) (c_b c) next
  end.

(** src/encodings/card/mod.rs:410-449 [encode_cardinality_constraint]; [unreachable!] is a panic *)
Definition encode_cardinality_constraint (c : card) (next : N) : option (cnf * N) :=
  if card_is_tautology c then Some ([], next)
  else if card_is_unsat c then Some ([[]], next)
  else if card_is_positive_assignment c then Some (map (fun l => [l]) (c_lits c), next)
  else if card_is_negative_assignment c then Some (map (fun l => [neg l]) (c_lits c), next)
  else if card_is_clause c then do cl <- card_into_clause c; Some ([cl], next)
  else match card_encode_constr c next with
       | Some (COk cs next') => Some (cs, next')
       | _ => None
       end.
End Card.

(** src/encodings/card/totalizer/mod.rs:395-407 [From<Vec<Lit>>], [FromIterator<Lit>] *)
Definition tot_from_iter (ls : list lit) : option tot := Some (tot_extend tot_new ls).

(** src/encodings/card/mod.rs:344, 394-403 [default_encode_cardinality_constraint] *)
Definition default_encode_cardinality_constraint : card -> N -> option (cnf * N) :=
  encode_cardinality_constraint totalizer tot_from_iter.

Section Pb.
Context {S : Type} (E : encoder (lit * nat) S) (from : list (lit * nat) -> option S).

(** src/encodings/pb/mod.rs:296-313 [BoundBoth::encode_constr], with [encode_ub_constr] (121-144), [encode_lb_constr]
    (187-215) and [encode_eq_constr] (264-294) *)
Definition pb_encode_constr (c : pb) (next : N) : option cres :=
  match p_kind c with
  | KUb => if (p_b c <? 0)%Z then Some CUnsat else encode_ub_at E from (p_lits c) (Z.abs_nat (p_b c)) next
  | KLb => if (p_b c <? 0)%Z then Some (COk [] next)
           else if (sum_weights (p_lits c) <? Z.abs_nat (p_b c))%nat then Some CUnsat
           else encode_lb_at E from (p_lits c) (Z.abs_nat (p_b c)) next
  | KEq => if (p_b c <? 0)%Z then Some CUnsat
           else if (sum_weights (p_lits c) <? Z.abs_nat (p_b c))%nat then Some CUnsat
           else encode_eq_at E from (p_lits c) (Z.abs_nat (p_b c)) next
  end.

(** src/encodings/pb/mod.rs:461-497 [encode_pb_constraint]; [unreachable!] and [unreachable_err!] are panics *)
Definition encode_pb_constraint (c : pb) (next : N) : option (cnf * N) :=
  if pb_is_tautology c then Some ([], next)
  else if pb_is_unsat c then Some ([[]], next)
  else if pb_is_positive_assignment c then Some (map (fun lw => [fst lw]) (p_lits c), next)
  else if pb_is_negative_assignment c then Some (map (fun lw => [neg (fst lw)]) (p_lits c), next)
  else if pb_is_clause c then do cl <- pb_into_clause c; Some ([cl], next)
  else if pb_is_card c then
    match pb_into_card_constr c with
    | TcOk cc => default_encode_cardinality_constraint cc next
    | _ => None
    end
  else match pb_encode_constr c next with
       | Some (COk cs next') => Some (cs, next')
       | _ => None
       end.
End Pb.

(** src/encodings/pb/simulators.rs:66-88, 535-557 [From<RsHashMap<Lit, usize>>] and [FromIterator<(Lit, usize)>] for
    [Double<GeneralizedTotalizer, Inverted<GeneralizedTotalizer>>], src/encodings/pb/gte/mod.rs:360-374; [ord] is the order
    of the iterations at 71 and 72, which see the same hash map *)
Definition dgte_from_iter (ord : wmap -> wmap) (xs : list (lit * nat)) : option (gte * (gte * nat)) :=
  let m := map_collect xs in
  Some (gte_from_map m, (gte_from_map (map_collect (map negw (ord m))), weights (ord m))).

(** src/encodings/pb/mod.rs:395 [DefBothBounding], 446-456 [default_encode_pb_constraint]; the four orders are those
    of the iterations over the hash maps of the two generalized totalizers and of the simulators *)
Definition default_encode_pb_constraint (ord ord1 ord2 ord3 ord4 : wmap -> wmap) : pb -> N -> option (cnf * N) :=
  encode_pb_constraint (pb_double ord1 (gte_enc ord2) (pb_inverted ord3 (gte_enc ord4))) (dgte_from_iter ord).

(** src/encodings/pb/simulators.rs:897-910 [FromIterator<(Lit, usize)>] for [Card<Totalizer>] *)
Definition card_from_iter (xs : list (lit * nat)) : option tot := tot_from_iter (mult_lits xs).
