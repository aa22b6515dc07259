(** * Model of [src/types/constraints.rs]: clauses, cardinality and pseudo-Boolean constraints *)

From Coq Require Import List Bool NArith ZArith Lia.
From Verif Require Import Spec Types.
Import ListNotations.

(** [slice::sort_unstable]. The result of sorting is determined by the (total) order; the
    algorithm used by the standard library is not modelled, insertion sort stands for it. *)
Fixpoint insert_by {A} (leb : A -> A -> bool) (x : A) (l : list A) : list A :=
  match l with
  | [] => [x]
  | y :: l' => if leb x y then x :: y :: l' else y :: insert_by leb x l'
  end.
Fixpoint sort_by {A} (leb : A -> A -> bool) (l : list A) : list A :=
  match l with
  | [] => []
  | x :: l' => insert_by leb x (sort_by leb l')
  end.

(** [Vec::dedup]: of consecutive equal elements, keep the first *)
Fixpoint dedup (l : list lit) : list lit :=
  match l with
  | [] => []
  | x :: l' => match l' with
               | [] => [x]
               | y :: _ => if lit_eqb x y then dedup l' else x :: dedup l'
               end
  end.

(** ** Clauses *)

(** src/types/constraints.rs:152-164: the tautology scan of [normalize_in_place];
    [neg_last] is the negation of the previous literal *)
Fixpoint taut_scan (neg_last : option lit) (c : clause) : bool :=
  match c with
  | [] => false
  | l :: c' =>
      if match neg_last with Some n => lit_eqb l n | None => false end then true
      else taut_scan (Some (neg l)) c'
  end.

(** src/types/constraints.rs:125-166 [Clause::normalize] via [normalize_in_place] *)
Definition clause_normalize (c : clause) : option clause :=
  if (length c <=? 1)%nat then Some c
  else let c' := dedup (sort_by lit_leb c) in
       if taut_scan None c' then None else Some c'.

Definition mem_lit (l : lit) (s : list lit) : bool := existsb (lit_eqb l) s.

(** src/types/constraints.rs:172-193: the loop of [Clause::sanitize]; [lset] is the hash set, [c] the
    part of the clause from index [idx] on; the result is the part of the final clause from [idx] on *)
Fixpoint sanitize_loop (lset : list lit) (c : clause) : option clause :=
  match c with
  | [] => Some []
  | l :: c' =>
      if mem_lit (neg l) lset then None
      else if mem_lit l lset then sanitize_loop lset c'
      else match sanitize_loop (l :: lset) c' with
           | Some r => Some (l :: r)
           | None => None
           end
  end.

(** src/types/constraints.rs:171-194 [Clause::sanitize] *)
Definition clause_sanitize (c : clause) : option clause :=
  if (length c <=? 1)%nat then Some c else sanitize_loop [] c.

(** src/types/constraints.rs:199-201 [Clause::add] *)
Definition clause_add (c : clause) (l : lit) : clause := c ++ [l].

(** index of the first occurrence *)
Fixpoint find_idx (l : lit) (c : clause) : option nat :=
  match c with
  | [] => None
  | x :: c' => if lit_eqb x l then Some O
               else match find_idx l c' with Some i => Some (S i) | None => None end
  end.

(** [Vec::swap_remove]: replace element [i] by the last one and pop (for [i] in bounds) *)
Definition swap_remove {A} (i : nat) (s : list A) : list A :=
  match rev s with
  | [] => []
  | last :: rinit =>
      let init := rev rinit in
      if (i =? length init)%nat then init
      else match vec_set i last init with Some r => r | None => init end
  end.

(** src/types/constraints.rs:205-213 [Clause::remove] *)
Definition clause_remove (c : clause) (l : lit) : clause * bool :=
  match find_idx l c with
  | Some i => (swap_remove i c, true)
  | None => (c, false)
  end.

(** [Vec::remove] *)
Fixpoint vec_remove {A} (i : nat) (s : list A) : list A :=
  match s, i with
  | [], _ => []
  | _ :: s', O => s'
  | x :: s', S i' => x :: vec_remove i' s'
  end.

(** src/types/constraints.rs:217-222: the indices of all occurrences, starting at index [i] *)
Fixpoint all_idxs (i : nat) (l : lit) (c : clause) : list nat :=
  match c with
  | [] => []
  | x :: c' => if lit_eqb x l then i :: all_idxs (S i) l c' else all_idxs (S i) l c'
  end.

(** src/types/constraints.rs:216-227 [Clause::remove_thorough]: removes from the last index on *)
Definition clause_remove_thorough (c : clause) (l : lit) : clause * bool :=
  let idxs := all_idxs 0 l c in
  (fold_left (fun c i => vec_remove i c) (rev idxs) c, negb (match idxs with [] => true | _ => false end)).

(** src/types/constraints.rs:468-482 [Cl::evaluate] *)
Definition clause_evaluate (s : assignment) (c : clause) : tern :=
  fold_left (fun val l =>
               match lit_value s l with
               | TTrue => TTrue
               | TDontCare => if tern_eqb val TFalse then TDontCare else val
               | TFalse => val
               end) c TFalse.

(** src/types/constraints.rs:486-498 [Cl::is_tautology]: compares every literal (but the last) with the later ones *)
Fixpoint clause_is_tautology (c : clause) : bool :=
  match c with
  | [] => false
  | l1 :: c' => existsb (fun l2 => lit_eqb l1 (neg l2)) c' || clause_is_tautology c'
  end.

(** src/types/constraints.rs:508-518 [Cl::is_unit], [Cl::is_binary] *)
Definition clause_is_unit (c : clause) : bool := (length c =? 1)%nat.
Definition clause_is_binary (c : clause) : bool := (length c =? 2)%nat.

(** ** Cardinality constraints *)

(** src/types/constraints.rs:635-642 [CardConstraint] (the three structs have the same fields);
    [b] is a [usize] *)
Inductive bound_kind : Type := KUb | KLb | KEq.
Record card : Type := mkCard { c_kind : bound_kind; c_lits : list lit; c_b : nat }.

(** src/types/constraints.rs:669-700 [new_unit], [new_ub], [new_lb], [new_eq] *)
Definition card_new_unit (l : lit) : card := mkCard KLb [l] 1.
Definition card_new_ub (ls : list lit) (b : nat) : card := mkCard KUb ls b.
Definition card_new_lb (ls : list lit) (b : nat) : card := mkCard KLb ls b.
Definition card_new_eq (ls : list lit) (b : nat) : card := mkCard KEq ls b.

(** src/types/constraints.rs:703-709 [CardConstraint::add] *)
Definition card_add (c : card) (ls : list lit) : card := mkCard (c_kind c) (c_lits c ++ ls) (c_b c).

(** src/types/constraints.rs:760-767, 1020-1022, 1090-1092 [is_tautology] *)
Definition card_is_tautology (c : card) : bool :=
  match c_kind c with
  | KUb => (length (c_lits c) <=? c_b c)%nat
  | KLb => (c_b c =? 0)%nat
  | KEq => false
  end.

(** src/types/constraints.rs:770-777, 1096-1098, 1161-1163 [is_unsat] *)
Definition card_is_unsat (c : card) : bool :=
  match c_kind c with
  | KUb => false
  | KLb => (length (c_lits c) <? c_b c)%nat
  | KEq => (length (c_lits c) <? c_b c)%nat
  end.

(** src/types/constraints.rs:780-787, 1102-1104, 1167-1169 [is_positive_assignment] *)
Definition card_is_positive_assignment (c : card) : bool :=
  match c_kind c with
  | KUb => false
  | KLb => (c_b c =? length (c_lits c))%nat
  | KEq => (c_b c =? length (c_lits c))%nat
  end.

(** src/types/constraints.rs:790-797, 1026-1028, 1173-1175 [is_negative_assignment] *)
Definition card_is_negative_assignment (c : card) : bool :=
  match c_kind c with
  | KUb => (c_b c =? 0)%nat
  | KLb => false
  | KEq => (c_b c =? 0)%nat
  end.

(** src/types/constraints.rs:800-807, 1032-1034, 1108-1110 [is_clause] *)
Definition card_is_clause (c : card) : bool :=
  match c_kind c with
  | KUb => (c_b c + 1 =? length (c_lits c))%nat
  | KLb => (c_b c =? 1)%nat
  | KEq => false
  end.

(** src/types/constraints.rs:812-826 [CardConstraint::normalize] *)
Definition card_normalize (c : card) : card :=
  mkCard (c_kind c)
         (if (length (c_lits c) <=? 1)%nat then c_lits c else sort_by lit_leb (c_lits c))
         (c_b c).

(** src/types/constraints.rs:843-852 [CardConstraint::into_clause] *)
Definition card_into_clause (c : card) : option clause :=
  if negb (card_is_clause c) then None
  else match c_kind c with
       | KUb => Some (map neg (c_lits c))
       | KLb => Some (c_lits c)
       | KEq => None (* unreachable!() *)
       end.

(** src/types/constraints.rs:876-894 [CardConstraint::evaluate]; the fold over ranges *)
Definition card_range (s : assignment) (ls : list lit) : nat * nat :=
  fold_left (fun '(st, en) l =>
               match lit_value s l with
               | TTrue => (st + 1, en + 1)
               | TFalse => (st, en)
               | TDontCare => (st, en + 1)
               end)%nat ls (0, 0)%nat.

Definition card_evaluate (s : assignment) (c : card) : tern :=
  let '(st, en) := card_range s (c_lits c) in
  if ((st <=? c_b c) && (c_b c <? en))%nat then TDontCare
  else match c_kind c with
       | KUb => tern_of_bool (st <=? c_b c)%nat
       | KLb => tern_of_bool (c_b c <=? st)%nat
       | KEq => tern_of_bool (st =? c_b c)%nat
       end.

(** src/types/constraints.rs:916-920 [From<Clause> for CardConstraint] *)
Definition card_of_clause (c : clause) : card := card_new_lb c 1.

(** src/types/constraints.rs:1006-1016 [CardUbConstr::invert]; [None] is the subtraction overflow panic.
    The result is a lower bound constraint. *)
Definition card_ub_invert (ls : list lit) (b : nat) : option (list lit * nat) :=
  if (b <=? length ls)%nat then Some (map neg ls, length ls - b)%nat else None.

(** src/types/constraints.rs:1076-1086 [CardLbConstr::invert]; [None] is the subtraction overflow panic.
    The result is an upper bound constraint. *)
Definition card_lb_invert (ls : list lit) (b : nat) : option (list lit * nat) :=
  if (b <=? length ls)%nat then Some (map neg ls, length ls - b)%nat else None.

(** src/types/constraints.rs:1146-1157 [CardEqConstr::split]: (lower bound, upper bound) *)
Definition card_eq_split (ls : list lit) (b : nat) : card * card := (card_new_lb ls b, card_new_ub ls b).

(** ** Pseudo-Boolean constraints *)

(** src/types/constraints.rs:1200-1207 [PbConstraint]; weights are [usize], the bound is [isize] *)
Record pb : Type := mkPb { p_kind : bound_kind; p_lits : list (lit * nat); p_wsum : nat; p_b : Z }.

Definition sum_weights (ls : list (lit * nat)) : nat := fold_left (fun s lw => s + snd lw)%nat ls 0%nat.

(** src/types/constraints.rs:1233-1239 [PbConstraint::new_unit] *)
Definition pb_new_unit (l : lit) : pb := mkPb KLb [(l, 1%nat)] 1 1.

(** src/types/constraints.rs:1242-1260 [convert_input_lits]: (literals, weight sum, amount to add to the bound) *)
Fixpoint convert_input_lits (ls : list (lit * Z)) : list (lit * nat) * nat * Z :=
  match ls with
  | [] => ([], 0%nat, 0%Z)
  | (l, w) :: ls' =>
      let '(r, s, badd) := convert_input_lits ls' in
      if (0 <=? w)%Z
      then ((l, Z.abs_nat w) :: r, (Z.abs_nat w + s)%nat, badd)
      else ((neg l, Z.abs_nat w) :: r, (Z.abs_nat w + s)%nat, (badd - w)%Z)
  end.

(** src/types/constraints.rs:1263-1270, 1284-1291, 1305-1312 [new_ub], [new_lb], [new_eq] *)
Definition pb_new (k : bound_kind) (ls : list (lit * Z)) (b : Z) : pb :=
  let '(r, s, badd) := convert_input_lits ls in mkPb k r s (b + badd).
Definition pb_new_ub := pb_new KUb.
Definition pb_new_lb := pb_new KLb.
Definition pb_new_eq := pb_new KEq.

(** src/types/constraints.rs:1273-1281, 1294-1302, 1315-1323 [new_ub_unsigned], [new_lb_unsigned], [new_eq_unsigned] *)
Definition pb_new_unsigned (k : bound_kind) (ls : list (lit * nat)) (b : Z) : pb :=
  mkPb k ls (sum_weights ls) b.

(** src/types/constraints.rs:1354-1360 [PbConstraint::add] *)
Definition pb_add (c : pb) (ls : list (lit * Z)) : pb :=
  let '(r, s, badd) := convert_input_lits ls in
  mkPb (p_kind c) (p_lits c ++ r) (p_wsum c + s) (p_b c + badd).

(** The minimum coefficient, folded from [usize::MAX]; [None] stands for [usize::MAX] (no literal). *)
Definition min_coeff (ls : list (lit * nat)) : option nat :=
  fold_left (fun m lw => match m with None => Some (snd lw) | Some x => Some (Nat.min x (snd lw)) end) ls None.

(** src/types/constraints.rs:1393-1400, 1823-1828, 1946-1948 [is_tautology] *)
Definition pb_is_tautology (c : pb) : bool :=
  match p_kind c with
  | KUb => if (p_b c <? 0)%Z then false else (p_wsum c <=? Z.abs_nat (p_b c))%nat
  | KLb => (p_b c <=? 0)%Z
  | KEq => false
  end.

(** src/types/constraints.rs:1403-1410, 1832-1834, 1952-1957, 2082-2087 [is_unsat] *)
Definition pb_is_unsat (c : pb) : bool :=
  match p_kind c with
  | KUb => (p_b c <? 0)%Z
  | KLb => if (p_b c <? 0)%Z then false else (p_wsum c <? Z.abs_nat (p_b c))%nat
  | KEq => if (p_b c <? 0)%Z then true else (p_wsum c <? Z.abs_nat (p_b c))%nat
  end.

(** src/types/constraints.rs:1413-1420, 1961-1972, 2091-2096 [is_positive_assignment] *)
Definition pb_is_positive_assignment (c : pb) : bool :=
  match p_kind c with
  | KUb => false
  | KLb => if ((p_b c <? 0)%Z || pb_is_unsat c)%bool then false
           else match min_coeff (p_lits c) with
                | None => true
                | Some m => (p_wsum c <? Z.abs_nat (p_b c) + m)%nat
                end
  | KEq => if (p_b c <? 0)%Z then false else (Z.abs_nat (p_b c) =? p_wsum c)%nat
  end.

(** src/types/constraints.rs:1423-1430, 1838-1848, 2100-2105 [is_negative_assignment] *)
Definition pb_is_negative_assignment (c : pb) : bool :=
  match p_kind c with
  | KUb => if pb_is_unsat c then false
           else match min_coeff (p_lits c) with
                | None => true
                | Some m => (Z.abs_nat (p_b c) <? m)%nat
                end
  | KLb => false
  | KEq => if (p_b c <? 0)%Z then false else (Z.abs_nat (p_b c) =? 0)%nat
  end.

(** src/types/constraints.rs:1852-1866, 1976-1990, 2109-2123 [find_unit_weight] *)
Fixpoint find_unit_weight_from (uw : option nat) (ls : list (lit * nat)) : option nat :=
  match ls with
  | [] => uw
  | (_, w) :: ls' =>
      match uw with
      | Some u => if (u =? w)%nat then find_unit_weight_from uw ls' else None
      | None => find_unit_weight_from (Some w) ls'
      end
  end.
Definition find_unit_weight (ls : list (lit * nat)) : option nat := find_unit_weight_from None ls.

(** src/types/constraints.rs:1433-1440 [PbConstraint::is_card] *)
Definition pb_is_card (c : pb) : bool :=
  match find_unit_weight (p_lits c) with Some _ => true | None => false end.

(** src/types/constraints.rs:1443-1450, 1870-1884, 1994-2007 [is_clause].
    With no literals the constraint is a tautology or unsatisfiable, so [usize::MAX] is never added to. *)
Definition pb_is_clause (c : pb) : bool :=
  match p_kind c with
  | KUb => if pb_is_tautology c then false else if pb_is_unsat c then false
           else (match min_coeff (p_lits c) with
                 | None => true
                 | Some m => (p_wsum c <=? Z.abs_nat (p_b c) + m)%nat
                 end && (Z.abs_nat (p_b c) <? p_wsum c)%nat)%bool
  | KLb => if pb_is_tautology c then false else if pb_is_unsat c then false
           else match min_coeff (p_lits c) with
                | None => true
                | Some m => (Z.abs_nat (p_b c) <=? m)%nat
                end
  | KEq => false
  end.

(** [Ord] on pairs is lexicographic *)
Definition wlit_leb (x y : lit * nat) : bool :=
  (lit_ltb (fst x) (fst y) || (lit_eqb (fst x) (fst y) && (snd x <=? snd y)%nat))%bool.

(** src/types/constraints.rs:1461-1473: the merging loop of [normalize]; [last] is the last element pushed *)
Fixpoint merge_wlits_from (last : lit * nat) (ls : list (lit * nat)) : list (lit * nat) :=
  match ls with
  | [] => [last]
  | (l, w) :: ls' =>
      if lit_eqb l (fst last) then merge_wlits_from (fst last, snd last + w)%nat ls'
      else last :: merge_wlits_from (l, w) ls'
  end.
Definition merge_wlits (ls : list (lit * nat)) : list (lit * nat) :=
  match ls with [] => [] | x :: ls' => merge_wlits_from x ls' end.

(** src/types/constraints.rs:1455-1489 [PbConstraint::normalize] *)
Definition pb_normalize (c : pb) : pb :=
  mkPb (p_kind c)
       (if (length (p_lits c) <=? 1)%nat then p_lits c else merge_wlits (sort_by wlit_leb (p_lits c)))
       (p_wsum c) (p_b c).

(** src/types/constraints.rs:1180-1192 [PbToCardError] and the panic of division by zero *)
Inductive to_card_res : Type :=
| TcOk (c : card) | TcNotACard | TcUnsat | TcTautology | TcPanicDivByZero.

(** src/types/constraints.rs:1498-1546 [PbConstraint::into_card_constr] *)
Definition pb_into_card_constr (c : pb) : to_card_res :=
  if pb_is_tautology c then TcTautology
  else if pb_is_unsat c then TcUnsat
  else
    let b := Z.abs_nat (p_b c) in
    match find_unit_weight (p_lits c) with
    | None => TcNotACard
    | Some O => TcPanicDivByZero
    | Some u =>
        match p_kind c with
        | KUb => TcOk (card_new_ub (map fst (p_lits c)) (b / u))
        | KLb => TcOk (card_new_lb (map fst (p_lits c)) (b / u + if (b mod u =? 0)%nat then 0 else 1))
        | KEq => if (b mod u =? 0)%nat then TcOk (card_new_eq (map fst (p_lits c)) (b / u)) else TcUnsat
        end
    end.

(** src/types/constraints.rs:1555-1561, 1810-1819, 1933-1942, 2065-2074 [extend_to_card_constr] *)
Definition pb_extend_to_card_constr (c : pb) : card :=
  mkCard (p_kind c) (flat_map (fun lw => repeat (fst lw) (snd lw)) (p_lits c)) (Z.abs_nat (p_b c)).

(** src/types/constraints.rs:1568-1577 [PbConstraint::into_clause] *)
Definition pb_into_clause (c : pb) : option clause :=
  if negb (pb_is_clause c) then None
  else match p_kind c with
       | KUb => Some (map (fun lw => neg (fst lw)) (p_lits c))
       | KLb => Some (map fst (p_lits c))
       | KEq => None (* unreachable!() *)
       end.

(** src/types/constraints.rs:1611-1617: the fold of [PbConstraint::evaluate] over ranges *)
Definition pb_range (s : assignment) (ls : list (lit * nat)) : nat * nat :=
  fold_left (fun '(st, en) lw =>
               match lit_value s (fst lw) with
               | TTrue => (st + snd lw, en + snd lw)
               | TFalse => (st, en)
               | TDontCare => (st, en + snd lw)
               end)%nat ls (0, 0)%nat.

Definition isize_max : Z := 9223372036854775807%Z.

(** src/types/constraints.rs:1609-1648 [PbConstraint::evaluate]; the conversions to [isize] fail for sums above [isize::MAX] *)
Definition pb_evaluate (s : assignment) (c : pb) : tern :=
  let '(st, en) := pb_range s (p_lits c) in
  let st := Z.of_nat st in
  let en := Z.of_nat en in
  let b := p_b c in
  if (st <=? isize_max)%Z then
    if (en <=? isize_max)%Z then
      if ((st <=? b) && (b <? en))%Z then TDontCare
      else match p_kind c with
           | KUb => tern_of_bool (st <=? b)%Z
           | KLb => tern_of_bool (b <=? st)%Z
           | KEq => tern_of_bool (st =? b)%Z
           end
    else match p_kind c with
         | KUb => if (st <=? b)%Z then TDontCare else TTrue
         | KLb | KEq => if (st <=? b)%Z then TDontCare else TFalse
         end
  else match p_kind c with KLb => TTrue | _ => TFalse end.

(** src/types/constraints.rs:1741-1745 [From<Clause> for PbConstraint] *)
Definition pb_of_clause (c : clause) : pb := pb_new_lb (map (fun l => (l, 1%Z)) c) 1.

(** src/types/constraints.rs:1747-1764 [From<CardConstraint> for PbConstraint] (the overflow of the bound is not modelled) *)
Definition pb_of_card (c : card) : pb :=
  pb_new (c_kind c) (map (fun l => (l, 1%Z)) (c_lits c)) (Z.of_nat (c_b c)).

(** src/types/constraints.rs:1791-1802 [PbUbConstr::invert], 1914-1925 [PbLbConstr::invert] (weight sums above isize::MAX, which panic, are not modelled);
    the kind is swapped *)
Definition pb_invert (c : pb) : pb :=
  mkPb (match p_kind c with KUb => KLb | KLb => KUb | KEq => KEq end)
       (map (fun lw => (neg (fst lw), snd lw)) (p_lits c))
       (p_wsum c) (- p_b c + Z.of_nat (p_wsum c)).

(** src/types/constraints.rs:2043-2056 [PbEqConstr::split]: (lower bound, upper bound) *)
Definition pb_eq_split (c : pb) : pb * pb :=
  (mkPb KLb (p_lits c) (p_wsum c) (p_b c), mkPb KUb (p_lits c) (p_wsum c) (p_b c)).
