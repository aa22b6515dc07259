(** * Model of CNF formulas and satisfiability instances, [src/instances/sat.rs] and the operators of [src/types/operators.rs] *)

From Coq Require Import List Bool NArith ZArith.
From Verif Require Import Spec Types Constraints Atomics NodeDb ConstrEnc Maps VarSpec VarMan.
Import ListNotations.

(** ** [Cnf] *)

(** sat.rs:206-208 [add_clause], 101-103 [add_nary], 213-230 [add_unit], [add_binary], [add_ternary]; operators.rs:277-336 *)
Definition cnf_add_clause (f : cnf) (c : clause) : cnf := f ++ [c].
(** sat.rs:355-359 [Extend], 298-325 [extend_clauses] (running out of memory is not modelled), 150-155 [join] *)
Definition cnf_extend (f g : cnf) : cnf := f ++ g.

(** [Option::filter_map] *)
Fixpoint filter_map {A B} (g : A -> option B) (xs : list A) : list B :=
  match xs with
  | [] => []
  | x :: xs' => match g x with Some y => y :: filter_map g xs' | None => filter_map g xs' end
  end.

(** src/types/constraints.rs:44: the derived order of clauses is lexicographic *)
Fixpoint clause_leb (c d : clause) : bool :=
  match c, d with
  | [], _ => true
  | _ :: _, [] => false
  | x :: c', y :: d' => if lit_eqb x y then clause_leb c' d' else lit_leb x y
  end.
Fixpoint clause_eqb (c d : clause) : bool :=
  match c, d with
  | [], [] => true
  | x :: c', y :: d' => lit_eqb x y && clause_eqb c' d'
  | _, _ => false
  end.
Fixpoint dedup_clauses (f : cnf) : cnf :=
  match f with
  | [] => []
  | c :: f' => match f' with
               | [] => [c]
               | d :: _ => if clause_eqb c d then dedup_clauses f' else c :: dedup_clauses f'
               end
  end.

(** sat.rs:167-181 [normalize] *)
Definition cnf_normalize (f : cnf) : cnf := dedup_clauses (sort_by clause_leb (filter_map clause_normalize f)).
(** sat.rs:183-190 [sanitize] *)
Definition cnf_sanitize (f : cnf) : cnf := filter_map clause_sanitize f.

(** The loop of [evaluate], sat.rs:266-273; [None]: some constraint is false, the loop is left *)
Fixpoint eval_loop {A} (ev : A -> tern) (val : tern) (xs : list A) : option tern :=
  match xs with
  | [] => Some val
  | x :: xs' => match ev x with
                | TTrue => eval_loop ev val xs'
                | TFalse => None
                | TDontCare => eval_loop ev TDontCare xs'
                end
  end.
Definition or_false (r : option tern) : tern := match r with Some v => v | None => TFalse end.
(** sat.rs:263-275 [Cnf::evaluate] *)
Definition cnf_evaluate (s : assignment) (f : cnf) : tern := or_false (eval_loop (clause_evaluate s) TTrue f).

(** ** [SatInstance]

    The variable manager is a [BasicVarManager], that is, the next free variable. Overflow of variable indices is not
    modelled here (see [VarMan]). *)
Record inst : Type := mkInst { i_cnf : cnf; i_cards : list card; i_pbs : list pb; i_next : N }.

(** sat.rs:384-392 [new_with_manager], 1090-1099 [default] *)
Definition inst_new (next : N) : inst := mkInst [] [] [] next.

(** src/instances/mod.rs:46-48 [mark_used] with 121-127 *)
Definition mark_used (next : N) (v : N) : N := fst (next_increase (v + 1) next).
Definition marks (next : N) (ls : list lit) : N := fold_left (fun n l => mark_used n (lvar l)) ls next.

(** sat.rs:421-429 [add_clause] *)
Definition inst_add_clause (i : inst) (c : clause) : inst :=
  mkInst (cnf_add_clause (i_cnf i) c) (i_cards i) (i_pbs i) (marks (i_next i) c).
(** the remaining [add_*] mark the literals [ls] and then call a method of [Cnf] *)
Definition inst_add_cnf (i : inst) (ls : list lit) (f : cnf) : inst :=
  mkInst (cnf_extend (i_cnf i) f) (i_cards i) (i_pbs i) (marks (i_next i) ls).
(** sat.rs:542-548 [add_card_constr] *)
Definition inst_add_card (i : inst) (c : card) : inst :=
  mkInst (i_cnf i) (i_cards i ++ [c]) (i_pbs i) (marks (i_next i) (c_lits c)).
(** sat.rs:550-556 [add_pb_constr] *)
Definition inst_add_pb (i : inst) (p : pb) : inst :=
  mkInst (i_cnf i) (i_cards i) (i_pbs i ++ [p]) (marks (i_next i) (map fst (p_lits p))).
(** sat.rs:1158-1162 [Extend<Clause>], 1164-1175 [CollectClauses]; operators.rs:366-373, 402-406: a CNF is added without marking *)
Definition inst_extend_clauses (i : inst) (f : cnf) : inst := mkInst (cnf_extend (i_cnf i) f) (i_cards i) (i_pbs i) (i_next i).
(** sat.rs:709-713 [extend]; operators.rs:375-382, 408-412 *)
Definition inst_extend (i j : inst) : inst :=
  mkInst (cnf_extend (i_cnf i) (i_cnf j)) (i_cards i) (i_pbs i) (next_combine (i_next i) (i_next j)).

(** The calls that add constraints. [AClause] stands for [add_clause], [add_nary] and the operators with a clause. *)
Inductive icall : Type :=
| AClause (c : clause) | AUnit (l : lit) | ABinary (l1 l2 : lit) | ATernary (l1 l2 l3 : lit)
| ALitLit (x y : lit) | ALitClause (x : lit) (b : list lit) | ALitCube (x : lit) (b : list lit)
| ACubeLit (b : list lit) (y : lit) | AClauseLit (b : list lit) (y : lit) | ACubeClause (b d : list lit)
| AClauseClause (b d : list lit) | AClauseCube (b d : list lit) | ACubeCube (b d : list lit)
| ACard (c : card) | APb (p : pb) | ACnf (f : cnf) | AInst (j : inst).

(** sat.rs:421-556, 709-713, 1158-1162; src/types/operators.rs:337-412 *)
Definition inst_call (i : inst) (k : icall) : inst :=
  match k with
  | AClause c => inst_add_clause i c
  | AUnit l => inst_add_clause i [l]
  | ABinary l1 l2 => inst_add_clause i [l1; l2]
  | ATernary l1 l2 l3 => inst_add_clause i [l1; l2; l3]
  | ALitLit x y => inst_add_cnf i [x; y] [lit_impl_lit x y]
  | ALitClause x b => inst_add_cnf i (x :: b) [lit_impl_clause x b]
  | ALitCube x b => inst_add_cnf i (x :: b) (lit_impl_cube x b)
  | ACubeLit b y => inst_add_cnf i (b ++ [y]) [cube_impl_lit b y]
  | AClauseLit b y => inst_add_cnf i (b ++ [y]) (clause_impl_lit b y)
  | ACubeClause b d => inst_add_cnf i (b ++ d) [cube_impl_clause b d]
  | AClauseClause b d => inst_add_cnf i (b ++ d) (clause_impl_clause b d)
  | AClauseCube b d => inst_add_cnf i (b ++ d) (clause_impl_cube b d)
  | ACubeCube b d => inst_add_cnf i (b ++ d) (cube_impl_cube b d)
  | ACard c => inst_add_card i c
  | APb p => inst_add_pb i p
  | ACnf f => inst_extend_clauses i f
  | AInst j => inst_extend i j
  end.

(** sat.rs:1101-1107, 1117-1133 [FromIterator] *)
Definition inst_from_clauses (f : cnf) : inst := fold_left inst_add_clause f (inst_new 0).
Definition inst_from_cards (cs : list card) : inst := fold_left inst_add_card cs (inst_new 0).
Definition inst_from_pbs (ps : list pb) : inst := fold_left inst_add_pb ps (inst_new 0).
(** sat.rs:1143-1156 [From<Cnf>] *)
Definition inst_from_cnf (f : cnf) : inst := mkInst f [] [] (fold_left marks f 0%N).

(** ** Conversion to clauses *)
Section Convert.
Variables (card_enc : card -> N -> option (cnf * N)) (pb_enc : pb -> N -> option (cnf * N)).
Definition conv_step {A} (enc : A -> N -> option (cnf * N)) (st : cnf * N) (x : A) : option (cnf * N) :=
  do r <- enc x (snd st); let '(cs, next') := r in Some (cnf_extend (fst st) cs, next').
(** sat.rs:676-698 [convert_to_cnf_with_encoders], 655-674 [into_cnf_with_encoders] *)
Definition convert_to_cnf_with_encoders (i : inst) : option inst :=
  do st1 <- foldM (conv_step card_enc) (i_cards i) (i_cnf i, i_next i);
  do st2 <- foldM (conv_step pb_enc) (i_pbs i) st1;
  Some (mkInst (fst st2) [] [] (snd st2)).
Definition into_cnf_with_encoders (i : inst) : option (cnf * N) :=
  do i' <- convert_to_cnf_with_encoders i; Some (i_cnf i', i_next i').
End Convert.
(** sat.rs:612-653 [into_cnf], [convert_to_cnf] *)
Definition into_cnf (ord ord1 ord2 ord3 ord4 : wmap -> wmap) : inst -> option (cnf * N) :=
  into_cnf_with_encoders default_encode_cardinality_constraint (default_encode_pb_constraint ord ord1 ord2 ord3 ord4).

(** sat.rs:700-707 [into_pbs] *)
Definition into_pbs (i : inst) : list pb * N :=
  (i_pbs i ++ map pb_of_card (i_cards i) ++ map pb_of_clause (i_cnf i), i_next i).

(** ** Sanitization *)

(** sat.rs:866-903: whether a constraint is unsatisfiable, the clauses, cardinality and pseudo-Boolean constraints so far *)
Definition sanitize_pb (st : bool * cnf * list card * list pb) (p : pb) : option (bool * cnf * list card * list pb) :=
  let '(unsat, f, cards, pbs) := st in
  if pb_is_tautology p then Some st
  else if pb_is_unsat p then Some (true, f, cards, pbs)
  else if pb_is_positive_assignment p then Some (unsat, f ++ map (fun lw => [fst lw]) (p_lits p), cards, pbs)
  else if pb_is_negative_assignment p then Some (unsat, f ++ map (fun lw => [neg (fst lw)]) (p_lits p), cards, pbs)
  else if pb_is_clause p then do cl <- pb_into_clause p; Some (unsat, cnf_add_clause f cl, cards, pbs)
  else if pb_is_card p then match pb_into_card_constr p with TcOk cc => Some (unsat, f, cards ++ [cc], pbs) | _ => None end
  else Some (unsat, f, cards, pbs ++ [p]).
(** sat.rs:904-928 *)
Definition sanitize_card (st : bool * cnf * list card) (c : card) : option (bool * cnf * list card) :=
  let '(unsat, f, cards) := st in
  if card_is_tautology c then Some st
  else if card_is_unsat c then Some (true, f, cards)
  else if card_is_positive_assignment c then Some (unsat, f ++ map (fun l => [l]) (c_lits c), cards)
  else if card_is_negative_assignment c then Some (unsat, f ++ map (fun l => [neg l]) (c_lits c), cards)
  else if card_is_clause c then do cl <- card_into_clause c; Some (unsat, cnf_add_clause f cl, cards)
  else Some (unsat, f, cards ++ [c]).
(** sat.rs:860-945 [sanitize]; [unreachable_err!] is a panic *)
Definition inst_sanitize (i : inst) : option inst :=
  do st <- foldM sanitize_pb (i_pbs i) (false, i_cnf i, i_cards i, []);
  let '(u1, f1, cards1, pbs1) := st in
  do st2 <- foldM sanitize_card cards1 (u1, f1, []);
  let '(u2, f2, cards2) := st2 in
  if u2 then Some (mkInst [[pos 0]; [negl 0]] [] [] (i_next i))
  else Some (mkInst (cnf_sanitize f2) cards2 pbs1 (i_next i)).

(** ** Evaluation *)

(** sat.rs:947-972 [evaluate] *)
Definition inst_evaluate (s : assignment) (i : inst) : tern :=
  match cnf_evaluate s (i_cnf i) with
  | TFalse => TFalse
  | v => or_false (do v1 <- eval_loop (card_evaluate s) v (i_cards i); eval_loop (pb_evaluate s) v1 (i_pbs i))
  end.

(** sat.rs:974-992 [unsat_constraint] *)
Inductive constr_ref : Type := RClause (c : clause) | RCard (c : card) | RPb (p : pb).
Definition unsat_constraint (s : assignment) (i : inst) : option constr_ref :=
  match find (fun c => negb (tern_eqb (clause_evaluate s c) TTrue)) (i_cnf i) with
  | Some c => Some (RClause c)
  | None =>
      match find (fun c => negb (tern_eqb (card_evaluate s c) TTrue)) (i_cards i) with
      | Some c => Some (RCard c)
      | None => option_map RPb (find (fun p => negb (tern_eqb (pb_evaluate s p) TTrue)) (i_pbs i))
      end
  end.

(** ** Reindexing *)
Section Reindex.
Context {S : Type} (re : N -> S -> option (N * S)).
(** src/instances/mod.rs:65-72 [reindex_lit] *)
Definition re_lit (l : lit) (s : S) : option (lit * S) := do r <- re (lvar l) s; let '(v, s') := r in Some (mkLit v (lneg l), s').
Fixpoint re_list {A} (f : A -> S -> option (A * S)) (xs : list A) (s : S) : option (list A * S) :=
  match xs with
  | [] => Some ([], s)
  | x :: xs' => do r <- f x s; let '(y, s1) := r in do rs <- re_list f xs' s1; let '(ys, s2) := rs in Some (y :: ys, s2)
  end.
Definition re_card (c : card) (s : S) : option (card * S) :=
  do r <- re_list re_lit (c_lits c) s; let '(ls, s') := r in Some (mkCard (c_kind c) ls (c_b c), s').
Definition re_wlit (lw : lit * nat) (s : S) : option ((lit * nat) * S) := do r <- re_lit (fst lw) s; let '(l, s') := r in Some ((l, snd lw), s').
Definition re_pb (p : pb) (s : S) : option (pb * S) :=
  do r <- re_list re_wlit (p_lits p) s; let '(ls, s') := r in Some (mkPb (p_kind p) ls (p_wsum p) (p_b p), s').
(** sat.rs:715-734 [reindex]: the constraints, and the reindexer as the new variable manager *)
Definition inst_reindex (i : inst) (s : S) : option (cnf * list card * list pb * S) :=
  do r1 <- re_list (re_list re_lit) (i_cnf i) s; let '(f, s1) := r1 in
  do r2 <- re_list re_card (i_cards i) s1; let '(cards, s2) := r2 in
  do r3 <- re_list re_pb (i_pbs i) s2; let '(pbs, s3) := r3 in
  Some (f, cards, pbs, s3).
(** sat.rs:736-755 [extend_var_set], [var_set]: a [BTreeSet] as a sorted list without duplicates *)
Fixpoint set_insert (v : N) (s : list N) : list N :=
  match s with
  | [] => [v]
  | u :: s' => if (v <? u)%N then v :: u :: s' else if (v =? u)%N then u :: s' else u :: set_insert v s'
  end.
Definition var_set (i : inst) : list N :=
  fold_left (fun s l => set_insert (lvar l) s) (concat (i_cnf i) ++ concat (map c_lits (i_cards i)) ++ map fst (concat (map p_lits (i_pbs i)))) [].
(** sat.rs:757-771 [reindex_ordered] *)
Definition inst_reindex_ordered (i : inst) (s : S) : option (cnf * list card * list pb * S) :=
  do s' <- foldM (fun s v => do r <- re v s; Some (snd r)) (var_set i) s; inst_reindex i s'.
End Reindex.
