(** * Model of [src/types/mod.rs]: variables, literals, ternary values, assignments *)

From Coq Require Import List Bool NArith ZArith Lia.
From Verif Require Import Spec.
Import ListNotations.

(** ** Packed literals (u32)

    In the code a literal is a [u32]; this section models the bit-level representation. The rest of the
    model uses the record [Spec.lit]; [TypesProofs] shows that [pack] is an isomorphism. *)

Definition u32_max : N := 4294967295%N.
Definition i32_max : Z := 2147483647%Z.
Definition i32_min : Z := (-2147483648)%Z.

(** src/types/mod.rs:70 [MAX_VAR_IDX], 90 [Var::MAX_IDX] *)
Definition max_var_idx : N := ((u32_max - 1) / 2)%N.

(** src/types/mod.rs:99-104 [Var::new]; [None] is the panic of the assertion *)
Definition var_new (idx : N) : option N := if (idx <=? max_var_idx)%N then Some idx else None.

(** src/types/mod.rs:112-118 [Var::new_with_error] via 51-57 [LimitedU32::try_from] *)
Definition var_new_with_error (idx : N) : option N := if (max_var_idx <? idx)%N then None else Some idx.

(** src/types/mod.rs:358-360 [Lit::represent]; [<<] on u32 discards the bits shifted out *)
Definition represent (idx : N) (negated : bool) : N :=
  (N.shiftl idx 1 mod 2 ^ 32 + if negated then 1 else 0)%N.

(** src/types/mod.rs:368-373 [Lit::new]; [None] is the panic of the assertion *)
Definition plit_new (idx : N) (negated : bool) : option N :=
  if (idx <? max_var_idx)%N then Some (represent idx negated) else None.

(** src/types/mod.rs:380-387 [Lit::new_with_error] *)
Definition plit_new_with_error (idx : N) (negated : bool) : option N :=
  if (max_var_idx <? idx)%N then None else Some (represent idx negated).

(** src/types/mod.rs:150-152 [Var::lit] via 397-402 [Lit::new_unchecked] *)
Definition var_lit (idx : N) (negated : bool) : N := represent idx negated.

(** src/types/mod.rs:503-505 [Lit::vidx32], 534-536 [Lit::var] *)
Definition plit_vidx (l : N) : N := N.shiftr l 1.

(** src/types/mod.rs:541-543 [Lit::is_pos] *)
Definition plit_is_pos (l : N) : bool := (N.land l 1 =? 0)%N.

(** src/types/mod.rs:548-550 [Lit::is_neg] *)
Definition plit_is_neg (l : N) : bool := (N.land l 1 =? 1)%N.

(** src/types/operators.rs:35-44 [impl Not for Lit] *)
Definition plit_not (l : N) : N := N.lxor l 1.

(** src/types/mod.rs:597-605 [Add<u32> for Lit]; [None] is the overflow panic of debug builds *)
Definition plit_add (l : N) (k : N) : option N :=
  if (l + 2 * k <=? u32_max)%N then Some (l + 2 * k)%N else None.

(** src/types/mod.rs:614-622 [Sub<u32> for Lit]; [None] is the underflow panic of debug builds *)
Definition plit_sub (l : N) (k : N) : option N :=
  if (2 * k <=? l)%N then Some (l - 2 * k)%N else None.

(** src/types/mod.rs:484-491 [Lit::from_ipasir]; [val] ranges over i32 *)
Definition plit_from_ipasir (val : Z) : option N :=
  if (val =? 0)%Z then None
  else plit_new_with_error (Z.abs_N val - 1) (val <? 0)%Z.

(** src/types/mod.rs:564-575 [Lit::to_ipasir]; [None] is the panic of [expect] *)
Definition plit_to_ipasir (l : N) : option Z :=
  let idx := Z.of_N (plit_vidx l + 1) in
  if (idx <=? i32_max)%Z then Some (if plit_is_neg l then (- idx)%Z else idx) else None.

(** src/types/mod.rs:586-593 [Lit::to_ipasir_with_error]; the same check, as an error *)
Definition plit_to_ipasir_with_error (l : N) : option Z :=
  let idx := Z.of_N (plit_vidx l + 1) in
  if (idx <=? i32_max)%Z then Some (if plit_is_neg l then (- idx)%Z else idx) else None.

(** ** Literals as records *)

(** The packed value of a record literal (abstraction function, not code). *)
Definition pack (l : lit) : N := (2 * lvar l + if lneg l then 1 else 0)%N.

(** src/types/mod.rs:342 [derive(PartialOrd, Ord)] on the packed value *)
Definition lit_cmp (l1 l2 : lit) : comparison := (pack l1 ?= pack l2)%N.
Definition lit_leb (l1 l2 : lit) : bool := (pack l1 <=? pack l2)%N.
Definition lit_ltb (l1 l2 : lit) : bool := (pack l1 <? pack l2)%N.

(** src/types/mod.rs:342 [derive(PartialEq, Eq)] *)
Definition lit_eqb (l1 l2 : lit) : bool :=
  (N.eqb (lvar l1) (lvar l2) && Bool.eqb (lneg l1) (lneg l2))%bool.

(** src/types/mod.rs:484-491 on record literals *)
Definition from_ipasir (val : Z) : option lit :=
  if (val =? 0)%Z then None
  else let idx := (Z.abs_N val - 1)%N in
       if (max_var_idx <? idx)%N then None else Some (mkLit idx (val <? 0)%Z).

(** src/types/mod.rs:564-575 on record literals *)
Definition to_ipasir (l : lit) : option Z :=
  let idx := Z.of_N (lvar l + 1) in
  if (idx <=? i32_max)%Z then Some (if lneg l then (- idx)%Z else idx) else None.

(** ** Ternary values *)

(** src/types/mod.rs:694-705 [TernaryVal] *)
Inductive tern : Type := TTrue | TFalse | TDontCare.

Definition tern_eqb (x y : tern) : bool :=
  match x, y with
  | TTrue, TTrue | TFalse, TFalse | TDontCare, TDontCare => true
  | _, _ => false
  end.

(** src/types/mod.rs:710-716 [TernaryVal::to_bool_with_def] *)
Definition to_bool_with_def (t : tern) (def : bool) : bool :=
  match t with TTrue => true | TFalse => false | TDontCare => def end.

(** src/types/mod.rs:741-748 [From<bool> for TernaryVal] *)
Definition tern_of_bool (b : bool) : tern := if b then TTrue else TFalse.

(** src/types/mod.rs:750-772 [Not], [Neg] for TernaryVal *)
Definition tern_not (t : tern) : tern :=
  match t with TTrue => TFalse | TFalse => TTrue | TDontCare => TDontCare end.

(** ** Assignments *)

(** src/types/mod.rs:848-850 [Assignment] *)
Definition assignment : Type := list tern.

Definition vidx (v : N) : nat := N.to_nat v.

(** src/types/mod.rs:868-874 [Assignment::var_value] *)
Definition var_value (s : assignment) (v : N) : tern :=
  if (length s <=? vidx v)%nat then TDontCare else nth (vidx v) s TDontCare.

(** src/types/mod.rs:878-888 [Assignment::lit_value] *)
Definition lit_value (s : assignment) (l : lit) : tern :=
  if lneg l then
    match var_value s (lvar l) with
    | TDontCare => TDontCare
    | TTrue => TFalse
    | TFalse => TTrue
    end
  else var_value s (lvar l).

(** src/types/mod.rs:891-901 [Assignment::replace_dont_care] *)
Definition replace_dont_care (s : assignment) (def : bool) : assignment :=
  map (fun tv => match tv with TDontCare => if def then TTrue else TFalse | _ => tv end) s.

(** [Vec::resize] to a larger length *)
Definition resize {A} (n : nat) (x : A) (s : list A) : list A :=
  firstn n s ++ repeat x (n - length s).

(** [vec[i] = x]; [None] is the out-of-bounds panic *)
Fixpoint vec_set {A} (i : nat) (x : A) (s : list A) : option (list A) :=
  match s, i with
  | [], _ => None
  | _ :: s', O => Some (x :: s')
  | y :: s', S i' => match vec_set i' x s' with Some r => Some (y :: r) | None => None end
  end.

(** src/types/mod.rs:904-910 [Assignment::assign_var]; [None] would be an index panic *)
Definition assign_var (s : assignment) (v : N) (val : tern) : option assignment :=
  let s' := if (length s <? vidx v + 1)%nat then resize (vidx v + 1) TDontCare s else s in
  vec_set (vidx v) val s'.

(** src/types/mod.rs:913-920 [Assignment::assign_lit] *)
Definition assign_lit (s : assignment) (l : lit) : option assignment :=
  assign_var s (lvar l) (if lneg l then TFalse else TTrue).

(** src/types/mod.rs:924-927 [Assignment::truncate] *)
Definition truncate (s : assignment) (max_var : N) : assignment := firstn (vidx max_var + 1) s.

(** src/types/mod.rs:935-945 [Assignment::max_var] (the u32 overflow panic is not modelled) *)
Definition assignment_max_var (s : assignment) : option N :=
  match s with [] => None | _ => Some (N.of_nat (length s - 1)) end.

(** src/types/mod.rs:1170-1176 [FromIterator<Lit> for Assignment] *)
Fixpoint assign_lits (s : assignment) (ls : list lit) : option assignment :=
  match ls with
  | [] => Some s
  | l :: ls' => match assign_lit s l with Some s' => assign_lits s' ls' | None => None end
  end.
Definition assignment_from_lits (ls : list lit) : option assignment := assign_lits [] ls.

(** src/types/mod.rs:1184-1188 [FromIterator<bool> for Assignment] *)
Definition assignment_from_bools (bs : list bool) : assignment := map tern_of_bool bs.

(** src/types/mod.rs:1129-1146, 1150-1167 [IntoIterator for Assignment], starting at index [i];
    [None] is the panic of [Var::new] *)
Fixpoint assignment_into_iter_from (i : N) (s : assignment) : option (list lit) :=
  match s with
  | [] => Some []
  | t :: s' =>
      match assignment_into_iter_from (i + 1) s' with
      | None => None
      | Some r =>
          match t with
          | TDontCare => Some r
          | _ => match var_new i with
                 | None => None
                 | Some v => Some (mkLit v (match t with TFalse => true | _ => false end) :: r)
                 end
          end
      end
  end.
Definition assignment_into_iter (s : assignment) : option (list lit) := assignment_into_iter_from 0 s.

(** src/types/mod.rs:1096-1106 [Assignment::iter]: uses [Lit::new], whose assertion is stricter *)
Fixpoint assignment_iter_from (i : N) (s : assignment) : option (list lit) :=
  match s with
  | [] => Some []
  | t :: s' =>
      match assignment_iter_from (i + 1) s' with
      | None => None
      | Some r =>
          match t with
          | TDontCare => Some r
          | _ => if (i <? max_var_idx)%N
                 then Some (mkLit i (match t with TFalse => true | _ => false end) :: r)
                 else None
          end
      end
  end.
Definition assignment_iter (s : assignment) : option (list lit) := assignment_iter_from 0 s.

(** The partial assignment described by a code-level assignment (abstraction function, not code). *)
Definition pasg_of (s : assignment) : pasg :=
  fun v => match var_value s v with TTrue => Some true | TFalse => Some false | TDontCare => None end.
