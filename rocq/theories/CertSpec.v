(** * Specification of pseudo-Boolean proofs

    The constraints, the rules and the proof state of the proof checker that RustSAT's certified encodings write proofs for
    (VeriPB with cutting planes, reverse unit propagation and redundance-based strengthening). Nothing in this file mentions
    the code under verification. Wherever the checker would have to round a constraint to make sense of it (negative degrees,
    missing operands, unknown constraint identifiers), the rules below refuse the step, so that an accepted proof does not
    depend on how the checker treats such cases. *)

From Coq Require Import List Bool NArith ZArith Lia.
From Verif Require Import Spec.
Import ListNotations.
Local Open Scope Z_scope.

(** ** Constraints

    A constraint says that the sum of the coefficients of the true literals is at least the degree. *)
Definition raw : Type := (list (lit * Z) * Z)%type.

Definition raw_val (a : asg) (ts : list (lit * Z)) : Z := zwsum a ts.
Definition raw_holds (a : asg) (r : raw) : Prop := snd r <= raw_val a (fst r).

(** Normal form: strictly increasing variables (so no variable occurs twice) and positive coefficients. *)
Fixpoint insert_term (l : lit) (w : Z) (ts : list (lit * Z)) : list (lit * Z) * Z :=
  match ts with
  | [] => ([(l, w)], 0)
  | (l', w') :: ts' =>
      if (lvar l <? lvar l')%N then ((l, w) :: ts, 0)
      else if (lvar l =? lvar l')%N then
        if Bool.eqb (lneg l) (lneg l') then ((l, w + w') :: ts', 0)
        else if w <? w' then ((l', w' - w) :: ts', w)      (* [w·l + w·¬l = w]: the literal cancels *)
        else if w' <? w then ((l, w - w') :: ts', w')
        else (ts', w)
      else let '(r, k) := insert_term l w ts' in ((l', w') :: r, k)
  end.

(** adding one term to the left-hand side of a constraint in normal form; a negative coefficient is moved to the complement *)
Definition add_term (c : raw) (t : lit * Z) : raw :=
  let '(l, w) := t in
  if w =? 0 then c
  else if 0 <? w then let '(ts, k) := insert_term l w (fst c) in (ts, snd c - k)
  else let '(ts, k) := insert_term (neg l) (- w) (fst c) in (ts, snd c - w - k).

Definition norm (r : raw) : raw := fold_left add_term (fst r) ([], snd r).

(** ** Cutting planes *)

Definition cp_add (c d : raw) : raw := fold_left add_term (fst d) (fst c, snd c + snd d).
Definition cp_mul (k : Z) (c : raw) : raw := (map (fun '(l, w) => (l, k * w)) (fst c), k * snd c).
Definition zceil (x d : Z) : Z := (x + d - 1) / d.
Definition cp_div (k : Z) (c : raw) : raw := (map (fun '(l, w) => (l, zceil w k)) (fst c), zceil (snd c) k).
Definition cp_sat (c : raw) : raw := (map (fun '(l, w) => (l, Z.min w (snd c))) (fst c), snd c).

(** ** Proof steps *)

(** an operation of a derivation in reverse Polish notation *)
Inductive rpn : Type :=
| OId (i : nat)            (* push the constraint with this identifier *)
| OAx (l : lit)            (* push the literal axiom [l >= 0] *)
| OAdd                     (* add the two topmost constraints *)
| OMul (k : nat)           (* multiply the topmost constraint *)
| ODiv (k : nat)           (* divide it and round up *)
| OSat.                    (* saturate it *)

Inductive pstep : Type :=
| SPol (ops : list rpn)                       (* [pol]: cutting planes derivation *)
| SRup (c : clause) (hint : nat)              (* [rup]: a clause, by unit propagation over one constraint *)
| SRed (c : raw) (w : list (N * bool))        (* [red]: redundance-based strengthening, with a witness fixing variables *)
| SDel (is : list nat).                       (* [del id]: constraints forgotten *)

(** ** The proof state

    The constraints with their identifiers, the identifier the next constraint gets, and the number of input constraints:
    constraints with a greater identifier are derived and may be forgotten. *)
Record pstate : Type := mkPs { ps_db : list (nat * raw); ps_next : nat; ps_inputs : nat }.

Definition ps_get (p : pstate) (i : nat) : option raw :=
  match find (fun ic => (fst ic =? i)%nat) (ps_db p) with Some ic => Some (snd ic) | None => None end.
Definition ps_add (p : pstate) (c : raw) : pstate :=
  mkPs ((ps_next p, c) :: ps_db p) (S (ps_next p)) (ps_inputs p).
Definition ps_del (p : pstate) (is : list nat) : pstate :=
  mkPs (filter (fun ic => negb (existsb (Nat.eqb (fst ic)) is)) (ps_db p)) (ps_next p) (ps_inputs p).

(** the topmost constraint must have a non-negative degree *)
Definition push (c : raw) (st : list raw) : option (list raw) := if 0 <=? snd c then Some (c :: st) else None.

Definition rpn_step (p : pstate) (o : rpn) (st : list raw) : option (list raw) :=
  match o, st with
  | OId i, _ => match ps_get p i with Some c => push c st | None => None end
  | OAx l, _ => push ([(l, 1)], 0) st
  | OAdd, c :: d :: st' => push (cp_add d c) st'
  | OMul k, c :: st' => if (k =? 0)%nat then None else push (cp_mul (Z.of_nat k) c) st'
  | ODiv k, c :: st' => if (k =? 0)%nat then None else push (cp_div (Z.of_nat k) c) st'
  | OSat, c :: st' => if 0 <? snd c then push (cp_sat c) st' else None
  | _, _ => None
  end.

Fixpoint rpn_run (p : pstate) (ops : list rpn) (st : list raw) : option (list raw) :=
  match ops with
  | [] => Some st
  | o :: ops' => match rpn_step p o st with Some st' => rpn_run p ops' st' | None => None end
  end.

(** the constraint a cutting planes derivation derives *)
Definition pol_result (p : pstate) (ops : list rpn) : option raw :=
  match rpn_run p ops [] with Some [c] => Some c | _ => None end.

(** a clause as a constraint in normal form; a clause with complementary literals is the trivial constraint *)
Definition clause_raw (c : clause) : raw := (map (fun l => (l, 1)) c, 1).
Definition clause_con (c : clause) : raw :=
  let n := norm (clause_raw c) in if 0 <? snd n then cp_sat n else ([], 0).

(** unit propagation of the negated clause over one constraint ends in a conflict: the clause has complementary literals, or
    the literals of the constraint that it does not falsify do not reach the degree *)
Definition lit_in (l : lit) (c : clause) : bool := existsb (fun l' => N.eqb (lvar l) (lvar l') && Bool.eqb (lneg l) (lneg l')) c.
Definition rup_ok (c : clause) (d : raw) : Prop :=
  (exists l, In l c /\ In (neg l) c) \/
  fold_right Z.add 0 (map snd (filter (fun '(l, _) => negb (lit_in l c)) (fst d))) < snd d.

Definition mentions (c : raw) (v : N) : Prop := exists l w, In (l, w) (fst c) /\ lvar l = v.

(** an assignment changed by a witness *)
Fixpoint apply_wit (w : list (N * bool)) (a : asg) : asg :=
  match w with
  | [] => a
  | (v, b) :: w' => fun x => if N.eqb x v then b else apply_wit w' a x
  end.

(** ** Validity of a step

    The checker's rule for redundance also allows the other constraints of the state as premises of its proof goals, with
    explicit subproofs. The encodings give none, so here each goal has to follow from the negated new constraint alone. *)
Inductive ps_step : pstate -> pstep -> pstate -> Prop :=
| st_pol p ops c : pol_result p ops = Some c -> ps_step p (SPol ops) (ps_add p c)
| st_rup p c hint d : ps_get p hint = Some d -> rup_ok c d -> ps_step p (SRup c hint) (ps_add p (clause_con c))
| st_red p c w :
    0 <= snd (norm c) ->
    (* wherever the new constraint is false, changing the assignment by the witness makes it true ... *)
    (forall a, ~ raw_holds a (norm c) -> raw_holds (apply_wit w a) (norm c)) ->
    (* ... and keeps every other constraint that contains a changed variable *)
    (forall i d, ps_get p i = Some d -> (exists v, In v (map fst w) /\ mentions d v) ->
       forall a, ~ raw_holds a (norm c) -> raw_holds (apply_wit w a) d) ->
    ps_step p (SRed c w) (ps_add p (norm c))
| st_del p is :
    is <> [] -> (forall i, In i is -> (ps_inputs p < i)%nat /\ ps_get p i <> None) ->
    ps_step p (SDel is) (ps_del p is).

(** a sequence of valid steps *)
Inductive ps_run : pstate -> list pstep -> pstate -> Prop :=
| run_nil p : ps_run p [] p
| run_cons p s p' l p'' : ps_step p s p' -> ps_run p' l p'' -> ps_run p (s :: l) p''.

(** ** Well-formed proof states *)
Definition normal (c : raw) : Prop :=
  (forall l w, In (l, w) (fst c) -> 0 < w) /\
  (forall i j l w l' w', nth_error (fst c) i = Some (l, w) -> nth_error (fst c) j = Some (l', w') -> (i < j)%nat ->
     (lvar l < lvar l')%N).

Definition ps_ok (p : pstate) : Prop :=
  (ps_inputs p < ps_next p)%nat /\
  (forall i c, In (i, c) (ps_db p) -> (i < ps_next p)%nat /\ normal c /\ 0 <= snd c) /\
  NoDup (map fst (ps_db p)).

(** all constraints of the state hold *)
Definition ps_holds (a : asg) (p : pstate) : Prop := forall i c, ps_get p i = Some c -> raw_holds a c.

(** the variables changed by witnesses *)
Definition wit_vars (l : list pstep) : list N :=
  flat_map (fun s => match s with SRed _ w => map fst w | _ => [] end) l.
