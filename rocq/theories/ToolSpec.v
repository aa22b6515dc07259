(** * Specification vocabulary for the command line tools: files in the DIMACS formats, and problems that have the same solutions and costs *)

From Coq Require Import List Bool NArith ZArith Ascii.
From Verif Require Import Spec Types Base Constraints Inst Opt OptSpec Text FioSpec DimacsSpec Opb OpbSpec.
Import ListNotations.

(** ** Files *)

(** Comments have no meaning *)
Definition ignored {D} (_ : text) : option D := None.
(** A CNF file: comments, the header with the numbers [n] and [m], and the clauses [f] *)
Definition cnf_file (n m : N) (f : cnf) (t : text) : Prop :=
  exists pre hdr h ds body, comment_lines pre /\ cnf_header_text n m h /\ line_with h hdr /\
    Forall2 (line_means ignored clause_text) ds body /\ lines_of (pre ++ hdr :: body) t /\ f = present ds.

(** A clause of a WCNF file: hard, or soft with a weight *)
Definition witem : Type := clause * option nat.
Definition witem_text (e : witem) (s : text) : Prop :=
  match snd e with None => hard_text (fst e) s | Some w => soft_text w (fst e) s end.
(** In the format before 2022 clauses with a weight of at least [top] are hard *)
Definition old_witem_text (top : N) (e : witem) (s : text) : Prop :=
  exists w, soft_text w (fst e) s /\ snd e = if (top <=? N.of_nat w)%N then None else Some w.
(** A WCNF file in one of the two formats; its variables, and the number of variables in the header, are at most [n] *)
Definition wcnf_file (n : N) (es : list witem) (t : text) : Prop :=
  (forall e, In e es -> lits_below n (fst e)) /\
  ((exists ds ls, Forall2 (line_means ignored witem_text) ds ls /\ lines_of ls t /\ es = present ds) \/
   (exists n' m top pre hdr h ds body, (n' <= n)%N /\ comment_lines pre /\ wcnf_header_text n' m top h /\ line_with h hdr /\
      Forall2 (line_means ignored (old_witem_text top)) ds body /\ lines_of (pre ++ hdr :: body) t /\ es = present ds)).

(** A clause of an MCNF file: hard, or soft for an objective (counted from 0 here) with a weight *)
Definition mitem : Type := clause * option (nat * nat).
Definition mitem_text (e : mitem) (s : text) : Prop :=
  match snd e with None => hard_text (fst e) s | Some (k, w) => mo_soft_text (k + 1) w (fst e) s end.
Definition mcnf_file (n : N) (es : list mitem) (t : text) : Prop :=
  (forall e, In e es -> lits_below n (fst e)) /\
  exists ds ls, Forall2 (line_means ignored mitem_text) ds ls /\ lines_of ls t /\ es = present ds.

(** The hard clauses, the soft clauses, and the soft clauses of an objective *)
Definition hards {X} (es : list (clause * option X)) : cnf := flat_map (fun e => match snd e with None => [fst e] | Some _ => [] end) es.
Definition softs (es : list witem) : list (clause * nat) := flat_map (fun e => match snd e with None => [] | Some w => [(fst e, w)] end) es.
Definition msofts (k : nat) (es : list mitem) : list (clause * nat) :=
  flat_map (fun e => match snd e with Some (k', w) => if (k' =? k)%nat then [(fst e, w)] else [] | None => [] end) es.
(** The number of objectives *)
Definition n_objs (es : list mitem) : nat := list_max (map (fun e => match snd e with Some (k, _) => S k | None => 0%nat end) es).
(** The variables of a file *)
Definition item_var {X} (es : list (clause * X)) (v : N) : Prop := exists c x l, In (c, x) es /\ In l c /\ lvar l = v.
Definition stmt_terms (st : stmt) : list (lit * Z) := match st with SConstr ts _ _ => ts | SObj _ ts => ts end.
Definition stmt_var (ss : list stmt) (v : N) : Prop := exists st e, In st ss /\ In e (stmt_terms st) /\ lvar (fst e) = v.

(** ** Problems *)

(** Adding constants to costs *)
Definition shifted (ks costs : list Z) : list Z := map (fun e => (fst e + snd e)%Z) (combine ks costs).
(** A problem with solutions [P'] and costs [cost'], to be minimized, stands for one with [P] and [cost] on the variables [used]: its solutions are solutions
    of the other one and cost at least as much, and every solution of the other one extends to one of it with the same cost. Costs are
    compared after adding the constants [ks]. *)
Definition stands_for (used : N -> Prop) (P : asg -> Prop) (cost : asg -> list Z) (P' : asg -> Prop) (cost' : asg -> list Z) (ks : list Z) : Prop :=
  (forall a, P' a -> P a /\ Forall2 Z.le (shifted ks (cost a)) (cost' a)) /\
  (forall a, P a -> exists a', (forall v, used v -> a' v = a v) /\ P' a' /\ cost' a' = shifted ks (cost a)).

(** The costs in a WCNF file, in an MCNF file with [n] objectives, and in an OPB file; a maximized objective is negated *)
Definition wcnf_costs (es : list witem) (a : asg) : list Z := [Z.of_nat (cls_cost a (softs es))].
Definition mcnf_costs (n : nat) (es : list mitem) (a : asg) : list Z := map (fun k => Z.of_nat (cls_cost a (msofts k es))) (seq 0 n).
Definition opb_costs (ss : list stmt) (a : asg) : list Z :=
  map (fun o => match fst o with Minimize => zwsum a (snd o) | Maximize => - zwsum a (snd o) end%Z) (objs_of ss).

(** ** OPB files that can be converted *)

(** The coefficients are not 0, those of an objective fit in an [isize] together, and the variables of a constraint are distinct. In an equality whose coefficients have the same absolute value, this value divides the
    bound (after making the coefficients positive). *)
Definition plain_stmt (st : stmt) : Prop :=
  match st with
  | SConstr ts op b =>
      NoDup (map (fun e => lvar (fst e)) ts) /\ (forall e, In e ts -> snd e <> 0%Z) /\
      (op = OpEQ -> ts <> [] -> forall u, (forall e, In e ts -> Z.abs (snd e) = u) -> (u | b - neg_coeffs ts)%Z)
  | SObj _ ts => (abs_coeffs ts <= isize_max)%Z /\ (forall e, In e ts -> snd e <> 0%Z)
  end.
(** The constant added to the cost of an objective when it is converted to soft clauses *)
Definition soft_shift (o : sense * list (lit * Z)) : Z :=
  match fst o with Minimize => - neg_coeffs (snd o) | Maximize => abs_coeffs (snd o) + neg_coeffs (snd o) end%Z.
(** Soft clauses of weight 0 have no meaning; the formats do not allow them *)
Definition positive_softs (xs : list (clause * nat)) : Prop := forall c w, In (c, w) xs -> (0 < w)%nat.
(** The soft clauses of an objective can be written to an OPB file: none is empty, and their weights add up to an [isize] *)
Definition opb_softs (xs : list (clause * nat)) : Prop :=
  positive_softs xs /\ (forall w, ~ In ([], w) xs) /\ (Z.of_nat (list_sum (map snd xs)) <= isize_max)%Z /\ (forall c w, In (c, w) xs -> Z.of_nat (length c) + 1 < isize_max)%Z.
(** The sum of the weights of soft clauses that are just a variable. If negated literals are avoided, this constant is taken from the objective in the OPB file. *)
Definition variable_softs (xs : list (clause * nat)) : nat := list_sum (map snd (filter (fun e => match fst e with [l] => negb (lneg l) | _ => false end) xs)).
Definition opb_shift (avoid_negated : bool) (xs : list (clause * nat)) : Z := if avoid_negated then (- Z.of_nat (variable_softs xs))%Z else 0%Z.
