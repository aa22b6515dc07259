(** * Specification vocabulary for splitting an objective into several objectives that are optimized lexicographically *)

From Coq Require Import List Bool NArith ZArith Permutation Sorted.
From Verif Require Import Spec Types Opt OptSpec.
Import ListNotations.

(** Lexicographic comparison of costs, the most important one first *)
Fixpoint lex_lt (xs ys : list Z) : Prop :=
  match xs, ys with
  | x :: xs', y :: ys' => (x < y)%Z \/ (x = y /\ lex_lt xs' ys')
  | _, _ => False
  end.
(** Comparing assignments by [cost] is comparing them by [costs], where later costs are more important *)
Definition lexicographic (cost : asg -> Z) (costs : asg -> list Z) : Prop :=
  forall a b, (cost a < cost b)%Z <-> lex_lt (rev (costs a)) (rev (costs b)).

(** The soft clauses of an objective; a soft literal is the soft clause of its negation *)
Definition soft_list (o : obj) : list (clause * nat) := map (fun e => ([neg (fst e)], snd e)) (obj_lits o) ++ obj_cls o.
Definition weights (xs : list (clause * nat)) : list nat := map snd xs.

(** The soft clauses [xs] are divided by weight into [parts], those with the smallest weights first *)
Definition divided (xs : list (clause * nat)) (parts : list (list (clause * nat))) : Prop :=
  Permutation (concat parts) xs /\ Forall (fun p => p <> []) parts /\
  ForallOrdPairs (fun p q => forall e f, In e p -> In f q -> (snd e < snd f)%nat) parts.
(** [t] is the smallest weight in one of the parts *)
Definition threshold (parts : list (list (clause * nat))) (t : nat) : Prop :=
  exists p, In p parts /\ In t (weights p) /\ forall w, In w (weights p) -> (t <= w)%nat.

(** The greatest common divisor of some weights *)
Definition gcd_of (ws : list nat) : nat := fold_right Nat.gcd 0%nat ws.
(** [o] is the objective for the soft clauses [p], with their weights divided by [g] *)
Definition scaled_obj (p : list (clause * nat)) (g : nat) (o : obj) : Prop :=
  (0 < g)%nat /\ (forall a, (Z.of_nat g * (obj_value a o - obj_offset o) = Z.of_nat (cls_cost a p))%Z) /\
  Permutation (soft_list o) (map (fun e => (fst e, (snd e / g)%nat)) p).

(** The sum of the weights below [t], and the weights from [t] on *)
Definition lighter (t : nat) (ws : list nat) : nat := list_sum (filter (fun w => w <? t)%nat ws).
Definition heavier (t : nat) (ws : list nat) : list nat := filter (fun w => t <=? w)%nat ws.
(** The sums of some of the weights *)
Inductive sub_sum : list nat -> nat -> Prop :=
| SubNil : sub_sum [] 0
| SubSkip : forall w ws s, sub_sum ws s -> sub_sum (w :: ws) s
| SubTake : forall w ws s, sub_sum ws s -> sub_sum (w :: ws) (w + s).
(** Different sums of weights differ by more than [d] *)
Definition separated (ws : list nat) (d : nat) : Prop :=
  forall s s', sub_sum ws s -> sub_sum ws s' -> (s < s')%nat -> (d < s' - s)%nat.

(** Boolean multilevel optimization: every weight is larger than the sum of all smaller weights *)
Definition bmo (ws : list nat) : Prop := forall t, In t ws -> (lighter t ws < t)%nat.
(** Generalized: the sum of the weights below [t] is smaller than the common divisor of the others, or than all differences of their sums *)
Definition gcd_splits (ws : list nat) (t : nat) : Prop := (lighter t ws < gcd_of (heavier t ws))%nat.
Definition gbmo_splits (ws : list nat) (t : nat) : Prop := separated (heavier t ws) (lighter t ws).

(** [srt] sorts by weight *)
Definition sorts (srt : list (clause * nat) -> list (clause * nat)) : Prop :=
  forall xs, Permutation (srt xs) xs /\ StronglySorted le (weights (srt xs)).

(** The number, the sum, the smallest and the largest of the weights of [p], after dividing them by their greatest common divisor [g] *)
Definition describes (p : list (clause * nat)) (n sum : nat) (least : N) (largest g : nat) : Prop :=
  n = length p /\ (g * sum)%nat = list_sum (weights p) /\ g = gcd_of (weights p) /\
  (exists w, In w (weights p) /\ (N.of_nat g * least)%N = N.of_nat w) /\ (forall w, In w (weights p) -> (N.of_nat g * least <= N.of_nat w)%N) /\
  In (g * largest)%nat (weights p) /\ (forall w, In w (weights p) -> (w <= g * largest)%nat).
(** There are at most [n] sums of weights *)
Definition few_sums (n : nat) (ws : list nat) : Prop := exists s, (length s <= n)%nat /\ forall x, sub_sum ws x -> In x s.
