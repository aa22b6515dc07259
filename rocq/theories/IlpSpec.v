(** * Specification of files with 0-1 linear programs, as written for multi-objective solvers

    A file is a sequence of words: the numbers of variables, constraints and objectives; in one format the numbers of non-zero entries, in
    the other the type of each objective; the cost matrix; the constraint matrix; for each constraint its type (0: at least, 1: at most,
    2: equal) and right-hand side; in the second format the smallest and the largest value of each variable. *)

From Coq Require Import List Bool NArith ZArith Ascii String.
From Verif Require Import Spec Types Constraints Inst Opt OptSpec Text PigeonsSpec.
Import ListNotations.
Open Scope list_scope.

Record ilp : Type := mkIlp {
  il_vars : nat; il_costs : list (list Z); il_rows : list (list Z * (Z * Z));
  il_said : option (nat * nat)  (* the numbers of non-zero entries of the constraint and the cost matrix, if they are said *)
}.

(** ** Meaning *)

(** the sum of the entries of a row, from column [j] on, for the variables that are 1 *)
Fixpoint dot (a : asg) (j : N) (row : list Z) : Z :=
  match row with [] => 0%Z | c :: r => ((if a j then c else 0) + dot a (j + 1) r)%Z end.
Definition row_holds (a : asg) (r : list Z * (Z * Z)) : Prop :=
  let '(cs, (op, b)) := r in
  if (op =? 0)%Z then (b <= dot a 0 cs)%Z else if (op =? 1)%Z then (dot a 0 cs <= b)%Z else if (op =? 2)%Z then dot a 0 cs = b else False.
Definition ilp_holds (a : asg) (p : ilp) : Prop := Forall (row_holds a) (il_rows p).
Definition ilp_costs (p : ilp) (a : asg) : list Z := map (dot a 0) (il_costs p).
(** the numbers of non-zero entries *)
Definition nonzeros (rows : list (list Z)) : nat := list_sum (map (fun r => List.length (filter (fun c => negb (c =? 0)%Z) r)) rows).

(** ** Reading *)

Fixpoint take_ints (n : nat) (ws : list text) : option (list Z * list text) :=
  match n, ws with
  | O, _ => Some ([], ws)
  | S n', w :: ws' => match read_int w with
                      | Some z => match take_ints n' ws' with Some (zs, r) => Some (z :: zs, r) | None => None end
                      | None => None
                      end
  | S _, [] => None
  end.
Fixpoint take_rows (k n : nat) (ws : list text) : option (list (list Z) * list text) :=
  match k with
  | O => Some ([], ws)
  | S k' => match take_ints n ws with
            | Some (row, r) => match take_rows k' n r with Some (rows, r') => Some (row :: rows, r') | None => None end
            | None => None
            end
  end.
Fixpoint take_words (n : nat) (s : text) (ws : list text) : option (list text) :=
  match n, ws with
  | O, _ => Some ws
  | S n', w :: ws' => if text_eqb w s then take_words n' s ws' else None
  | S _, [] => None
  end.
Fixpoint pairs (zs : list Z) : list (Z * Z) := match zs with a :: b :: r => (a, b) :: pairs r | _ => [] end.

(** [nz]: the format with the numbers of non-zero entries *)
Definition read_ilp (nz : bool) (t : text) : option ilp :=
  match take_ints (if nz then 5 else 3) (words t) with
  | Some (zn :: zm :: zk :: said, ws) =>
      if existsb (fun z => z <? 0)%Z (zn :: zm :: zk :: said) then None else
      let n := Z.to_nat zn in let m := Z.to_nat zm in let k := Z.to_nat zk in
      match (if nz then Some ws else take_words k (T "minsum") ws) with
      | Some ws => match take_rows k n ws with
      | Some (costs, ws) => match take_rows m n ws with
      | Some (rows, ws) => match take_ints (2 * m) ws with
      | Some (rhs, ws) =>
          match (if nz then Some ws else match take_words n (T "0") ws with Some ws => take_words n (T "1") ws | None => None end) with
          | Some [] => Some (mkIlp n costs (combine rows (pairs rhs)) (match said with [x; y] => Some (Z.to_nat x, Z.to_nat y) | _ => None end))
          | _ => None
          end
      | None => None end
      | None => None end
      | None => None end
      | None => None end
  | _ => None
  end.

(** ** Instances *)

(** The weights fit into a signed machine word *)
Definition small_weights (p : mopt) : Prop :=
  (forall c l w, In c (i_pbs (mo_constrs p)) -> In (l, w) (p_lits c) -> (Z.of_nat w <= isize_max)%Z) /\
  forall o, In o (mo_objs p) -> (forall l w, In (l, w) (obj_lits o) -> (Z.of_nat w <= isize_max)%Z) /\ (forall c w, In (c, w) (obj_cls o) -> (Z.of_nat w <= isize_max)%Z).
