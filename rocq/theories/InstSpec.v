(** * Specification vocabulary for instances *)

From Coq Require Import List Bool NArith ZArith.
From Verif Require Import Spec Types Constraints ConstrSpec Inst.
Import ListNotations.

(** An assignment satisfies an instance if it satisfies all its constraints. *)
Definition holds (a : asg) (f : cnf) (cards : list card) (pbs : list pb) : Prop :=
  sat_cnf a f = true /\ (forall c, In c cards -> card_holds a c) /\ (forall p, In p pbs -> pb_holds a p).
Definition inst_holds (a : asg) (i : inst) : Prop := holds a (i_cnf i) (i_cards i) (i_pbs i).

(** The literals of an instance; its variable manager knows all its variables. *)
Definition inst_lits (i : inst) : list lit := concat (i_cnf i) ++ concat (map c_lits (i_cards i)) ++ map fst (concat (map p_lits (i_pbs i))).
Definition inst_known (i : inst) : Prop := lits_below (i_next i) (inst_lits i).

(** What a call adds to the instance *)
Definition call_means (k : icall) (a : asg) : Prop :=
  match k with
  | AClause c => sat_clause a c = true
  | AUnit l => lit_true a l = true
  | ABinary l1 l2 => lit_true a l1 = true \/ lit_true a l2 = true
  | ATernary l1 l2 l3 => lit_true a l1 = true \/ lit_true a l2 = true \/ lit_true a l3 = true
  | ALitLit x y => lit_true a x = true -> lit_true a y = true
  | ALitClause x b => lit_true a x = true -> sat_clause a b = true
  | ALitCube x b => lit_true a x = true -> sat_cube a b = true
  | ACubeLit b y => sat_cube a b = true -> lit_true a y = true
  | AClauseLit b y => sat_clause a b = true -> lit_true a y = true
  | ACubeClause b d => sat_cube a b = true -> sat_clause a d = true
  | AClauseClause b d => sat_clause a b = true -> sat_clause a d = true
  | AClauseCube b d => sat_clause a b = true -> sat_cube a d = true
  | ACubeCube b d => sat_cube a b = true -> sat_cube a d = true
  | ACard c => card_holds a c
  | APb p => pb_holds a p
  | ACnf f => sat_cnf a f = true
  | AInst j => inst_holds a j
  end.
Definition call_lits (k : icall) : list lit :=
  match k with
  | AClause c => c
  | AUnit l => [l]
  | ABinary l1 l2 => [l1; l2]
  | ATernary l1 l2 l3 => [l1; l2; l3]
  | ALitLit x y => [x; y]
  | ALitClause x b | ALitCube x b => x :: b
  | ACubeLit b y | AClauseLit b y => y :: b
  | ACubeClause b d | AClauseClause b d | AClauseCube b d | ACubeCube b d => b ++ d
  | ACard c => c_lits c
  | APb p => map fst (p_lits p)
  | ACnf f => concat f
  | AInst j => inst_lits j
  end.

(** Renaming variables *)
Definition rename_lit (r : N -> N) (l : lit) : lit := mkLit (r (lvar l)) (lneg l).
Definition rename_card (r : N -> N) (c : card) : card := mkCard (c_kind c) (map (rename_lit r) (c_lits c)) (c_b c).
Definition rename_pb (r : N -> N) (p : pb) : pb :=
  mkPb (p_kind p) (map (fun lw => (rename_lit r (fst lw), snd lw)) (p_lits p)) (p_wsum p) (p_b p).
Definition inst_vars (i : inst) (v : N) : Prop := exists l, In l (inst_lits i) /\ lvar l = v.

(** the part of a pseudo-Boolean constraint's well-formedness needed to encode it with the default encodings *)
Definition pb_plain (p : pb) : Prop :=
  pb_wf p /\ NoDup (map fst (p_lits p)) /\ (forall l w, In (l, w) (p_lits p) -> (0 < w)%nat).

(** The clauses of the two formulas that are not tautologies are the same, as sets of literals. *)
Definition clause_sets (f g : cnf) : Prop :=
  (forall c, In c f -> (forall a, sat_clause a c = true) \/ exists d, In d g /\ forall l, In l c <-> In l d) /\
  (forall c, In c g -> (forall a, sat_clause a c = true) \/ exists d, In d f /\ forall l, In l c <-> In l d).

(** Calls whose constraints are all added (extending by an instance drops its cardinality and pseudo-Boolean constraints),
    and calls that mark all variables as used (extending by clauses does not) *)
Definition keeps_all (k : icall) : Prop := match k with AInst j => i_cards j = [] /\ i_pbs j = [] | _ => True end.
Definition marks_all (k : icall) : Prop := match k with ACnf _ => False | AInst j => inst_known j | _ => True end.

(** Constraints that sanitizing an instance leaves alone: not decided, not an assignment and not of a simpler kind *)
Definition pb_left (p : pb) : Prop :=
  pb_is_tautology p = false /\ pb_is_unsat p = false /\ pb_is_positive_assignment p = false /\ pb_is_negative_assignment p = false /\ pb_is_clause p = false /\ pb_is_card p = false.
Definition card_left (c : card) : Prop :=
  card_is_tautology c = false /\ card_is_unsat c = false /\ card_is_positive_assignment c = false /\ card_is_negative_assignment c = false /\ card_is_clause c = false.

(** The constraints are those of the instance with its variables renamed by [r], and [r] maps different variables of the instance to
    different variables. *)
Definition renamed (r : N -> N) (i : inst) (f : cnf) (cards : list card) (pbs : list pb) : Prop :=
  f = map (map (rename_lit r)) (i_cnf i) /\ cards = map (rename_card r) (i_cards i) /\ pbs = map (rename_pb r) (i_pbs i) /\
  forall v v', inst_vars i v -> inst_vars i v' -> r v = r v' -> v = v'.
