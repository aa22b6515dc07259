(** * Model of [src/encodings/atomics.rs] *)

From Coq Require Import List Bool NArith ZArith.
From Verif Require Import Spec Types Constraints.
Import ListNotations.

(** src/encodings/atomics.rs:10-12 *)
Definition lit_impl_lit (a b : lit) : clause := [neg a; b].

(** src/encodings/atomics.rs:16-20 *)
Definition lit_impl_clause (a : lit) (b : list lit) : clause := b ++ [neg a].

(** src/encodings/atomics.rs:24-28 *)
Definition cube_impl_lit (a : list lit) (b : lit) : clause := map neg a ++ [b].

(** src/encodings/atomics.rs:32-36 *)
Definition cube_impl_clause (a b : list lit) : clause := b ++ map neg a.

(** src/encodings/atomics.rs:39-41 *)
Definition lit_impl_cube (a : lit) (b : list lit) : cnf := map (fun bi => [neg a; bi]) b.

(** src/encodings/atomics.rs:44-46 *)
Definition clause_impl_lit (a : list lit) (b : lit) : cnf := map (fun ai => [neg ai; b]) a.

(** src/encodings/atomics.rs:49-58 *)
Definition clause_impl_clause (a b : list lit) : cnf := map (fun ai => b ++ [neg ai]) a.

(** src/encodings/atomics.rs:61-66 *)
Definition clause_impl_cube (a b : list lit) : cnf := flat_map (fun ai => map (fun bi => [neg ai; bi]) b) a.

(** src/encodings/atomics.rs:69-75 *)
Definition cube_impl_cube (a b : list lit) : cnf := map (fun bi => map neg a ++ [bi]) b.

Definition unit_weights (ls : list lit) : list (lit * nat) := map (fun l => (l, 1%nat)) ls.

(** src/encodings/atomics.rs:86-115; [None] is a panic (the [isize] conversions are not modelled) *)
Definition lit_impl_card (l : lit) (c : card) : option pb :=
  if card_is_unsat c then None
  else match c_kind c with
       | KUb => Some (pb_new_unsigned KUb (unit_weights (c_lits c) ++ [(l, length (c_lits c))])
                                      (Z.of_nat (length (c_lits c) + c_b c)))
       | KLb => Some (pb_new_unsigned KLb (unit_weights (c_lits c) ++ [(neg l, c_b c)]) (Z.of_nat (c_b c)))
       | KEq => None
       end.

(** src/encodings/atomics.rs:127-157; [None] is a panic, including the underflow of [2 * lits.len() - bound - 1]
    (debug builds; 135) *)
Definition card_impl_lit (c : card) (l : lit) : option pb :=
  if card_is_unsat c then None
  else match c_kind c with
       | KUb => if (c_b c + 1 <=? 2 * length (c_lits c))%nat
                then Some (pb_new_unsigned KUb (unit_weights (map neg (c_lits c)) ++ [(neg l, length (c_lits c))])
                                           (Z.of_nat (2 * length (c_lits c) - c_b c - 1)))
                else None
       | KLb => let bound := (length (c_lits c) - c_b c + 1)%nat in
                Some (pb_new_unsigned KLb (unit_weights (map neg (c_lits c)) ++ [(l, bound)]) (Z.of_nat bound))
       | KEq => None
       end.

(** src/types/constraints.rs:1345-1351 [PbConstraint::set_bound] *)
Definition pb_set_bound (c : pb) (b : Z) : pb := mkPb (p_kind c) (p_lits c) (p_wsum c) b.

(** src/encodings/atomics.rs:169-190; [None] is a panic (the [isize] conversions are not modelled) *)
Definition lit_impl_pb (l : lit) (c : pb) : option pb :=
  if pb_is_unsat c then None
  else match p_kind c with
       | KUb => let ws := Z.of_nat (p_wsum c) in
                let c' := pb_add c [(l, ws)] in
                Some (pb_set_bound c' (p_b c' + ws))
       | KLb => Some (pb_add c [(neg l, p_b c)])
       | KEq => None
       end.

(** src/encodings/atomics.rs:202-233; [None] is a panic (the [isize] conversions are not modelled) *)
Definition pb_impl_lit (c : pb) (l : lit) : option pb :=
  if pb_is_unsat c then None
  else match p_kind c with
       | KUb => let ws := Z.of_nat (p_wsum c) in
                Some (pb_new_unsigned KUb (map (fun lw => (neg (fst lw), snd lw)) (p_lits c) ++ [(neg l, p_wsum c)])
                                      (2 * ws - p_b c - 1)%Z)
       | KLb => let bound := (Z.of_nat (p_wsum c) - p_b c + 1)%Z in
                Some (pb_new_lb (map (fun lw => (neg (fst lw), Z.of_nat (snd lw))) (p_lits c) ++ [(l, bound)]) bound)
       | KEq => None
       end.
