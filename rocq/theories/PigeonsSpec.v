(** * Specification of proof files

    The syntax of VeriPB proofs (version 2.0) as far as the proof writer uses it: lines of words separated by blanks, read without
    any reference to the writer; and how the checker numbers the constraints it adds. The first constraints are those of the
    instance. Definitions of orders are left out. *)

From Coq Require Import List Bool NArith ZArith Ascii String.
From Verif Require Import Spec Text CertSpec.
Import ListNotations.
Open Scope list_scope.

(** ** What a proof is about *)

(** identifiers of constraints: absolute, or counted back from the next one *)
Inductive cid : Type := IAbs (n : nat) | IRel (n : nat).
Definition resolve (next : nat) (i : cid) : nat := match i with IAbs n => n | IRel n => next - n end.

(** a literal: negated or not, and the name of its variable *)
Definition plit : Type := bool * text.
(** a sum of weighted literals that is at least a number *)
Definition pcon : Type := list (Z * plit) * Z.
(** a sum of weighted literals with a constant *)
Definition pobj : Type := list (Z * plit) * Z.

(** operations in reverse Polish notation; weakening names the variable to remove *)
Inductive pop : Type := PId (i : cid) | PAx (l : plit) | PAdd | PMul (k : nat) | PDiv (k : nat) | PSat | PWeak (l : plit).

Inductive pval : Type := VTrue | VFalse | VLit (l : plit).
Definition psub : Type := text * pval.
Inductive pgoal : Type := GCon (i : cid) | GNum (n : nat).

Inductive rule : Type :=
| RCount (n : nat)                                  (* f *)
| RPol (ops : list pop)                             (* pol *)
| RRup (c : pcon) (hints : list cid)                (* rup *)
| RDelId (is : list cid) (subs : list psub)         (* del id *)
| RDelSpec (c : pcon)                               (* del spec *)
| RDelRange (a b : cid)                             (* del range: from the first, before the second *)
| RDelCore (is : list cid)                          (* delc *)
| RDelDerived (is : list cid)                       (* deld *)
| RObjNew (o : pobj)                                (* obju new *)
| RObjDiff (o : pobj)                               (* obju diff *)
| RRed (c : pcon) (subs : list psub)                (* red *)
| RDom (c : pcon) (subs : list psub)                (* dom *)
| RCoreId (is : list cid)                           (* core id *)
| RCoreRange (a b : cid)                            (* core range *)
| RSol (ls : list plit)                             (* sol *)
| RSolx (ls : list plit)                            (* solx *)
| RSoli (ls : list plit)                            (* soli *)
| REq (c : pcon) (i : option cid)                   (* e *)
| REqAdd (c : pcon) (i : option cid)                (* ea *)
| REqObj (o : pobj)                                 (* eobj *)
| RImp (c : pcon) (i : option cid)                  (* i *)
| RImpAdd (c : pcon) (i : option cid)               (* ia *)
| RLevel (n : nat)                                  (* # *)
| RWipe (n : nat)                                   (* w *)
| RLoad (name : text) (vars : list text)            (* load_order *)
| RStrength (on : bool).                            (* strengthening_to_core *)

Inductive otype : Type := OImplicit | OFile.
Inductive guarantee : Type := GuNone | GuDerivable (t : otype) | GuEquisat (t : otype) | GuEquiopt (t : otype).
Inductive conclusion : Type :=
| CoNone
| CoSat (sol : option (list plit))
| CoUnsat (i : option cid)
| CoBounds (lo : Z) (i : option cid) (hi : Z) (sol : option (list plit)).    (* both ends included *)

(** the lines of a proof; a rule may open a subproof *)
Inductive pline : Type :=
| LHeader | LBlank | LComment
| LRule (r : rule) (opens : bool)
| LGoal (g : pgoal) | LQed (i : cid) | LEnd
| LOutput (g : guarantee) | LConclusion (c : conclusion) | LEndProof.

(** ** Reading *)

Notation "'do' x <- a ; b" := (match a with Some x => b | None => None end) (at level 200, x pattern, a at level 100, b at level 200).

Definition is_letter (c : ascii) : bool := let n := N_of_ascii c in (((65 <=? n) && (n <=? 90)) || ((97 <=? n) && (n <=? 122)))%N.
Definition name_char (c : ascii) : bool := is_letter c || is_digit c || existsb (Ascii.eqb c) (T "[]{}_^-").
(** names of variables: a letter and at least one more character *)
Definition valid_name (t : text) : bool :=
  match t with c :: d :: r => is_letter c && forallb name_char (d :: r) | _ => false end.

Definition read_num (t : text) : option nat :=
  match t with [] => None | _ => if forallb is_digit t then Some (N.to_nat (digits_value t)) else None end.
Definition read_int (t : text) : option Z :=
  match t with
  | c :: r => if Ascii.eqb c "-" then do n <- read_num r; Some (- Z.of_nat n)%Z else do n <- read_num t; Some (Z.of_nat n)
  | [] => None
  end.
Definition nonzero (n : option nat) : option nat := match n with Some 0 => None | _ => n end.
Definition read_cid (t : text) : option cid :=
  match t with
  | c :: r => if Ascii.eqb c "-" then do n <- nonzero (read_num r); Some (IRel n) else do n <- nonzero (read_num t); Some (IAbs n)
  | [] => None
  end.
Definition read_name (t : text) : option text := if valid_name t then Some t else None.
Definition read_lit (t : text) : option plit :=
  match t with
  | c :: r => if Ascii.eqb c "~" then do v <- read_name r; Some (true, v) else do v <- read_name t; Some (false, v)
  | [] => None
  end.
Fixpoint read_all {A} (f : text -> option A) (ws : list text) : option (list A) :=
  match ws with [] => Some [] | w :: ws' => do x <- f w; do xs <- read_all f ws'; Some (x :: xs) end.
Definition some_of {A} (xs : option (list A)) : option (list A) := match xs with Some [] => None | _ => xs end.
Definition is_kw (t : text) (s : string) : bool := text_eqb t (T s).

(** weighted literals, and what follows *)
Fixpoint read_terms (ws : list text) : option (list (Z * plit) * list text) :=
  match ws with
  | c :: l :: ws' =>
      match read_int c with
      | Some z => match read_lit l with Some x => do (ts, r) <- read_terms ws'; Some ((z, x) :: ts, r) | None => Some ([], ws) end
      | None => Some ([], ws)
      end
  | _ => Some ([], ws)
  end.
Definition read_con (ws : list text) : option pcon :=
  do (ts, r) <- read_terms ws;
  match r with
  | [g; b] => if is_kw g ">=" then do z <- read_int b; Some (ts, z) else None
  | _ => None
  end.
Definition read_obj (ws : list text) : option pobj :=
  do (ts, r) <- read_terms ws;
  match r with [] => Some (ts, 0%Z) | [b] => do z <- read_int b; Some (ts, z) | _ => None end.

(** a number before [*] or [d] is a factor, a literal before [w] the variable to weaken *)
Fixpoint read_ops (ws : list text) : option (list pop) :=
  match ws with
  | [] => Some []
  | w :: ws' =>
      let alone := do o <- (if is_kw w "+" then Some PAdd else if is_kw w "s" then Some PSat
                            else match read_cid w with Some i => Some (PId i) | None => do l <- read_lit w; Some (PAx l) end);
                   do os <- read_ops ws'; Some (o :: os) in
      match ws' with
      | k :: ws2 =>
          if is_kw k "*" then do n <- nonzero (read_num w); do os <- read_ops ws2; Some (PMul n :: os)
          else if is_kw k "d" then do n <- nonzero (read_num w); do os <- read_ops ws2; Some (PDiv n :: os)
          else if is_kw k "w" then do l <- read_lit w; do os <- read_ops ws2; Some (PWeak l :: os)
          else alone
      | [] => alone
      end
  end.

Fixpoint read_subs (ws : list text) : option (list psub) :=
  match ws with
  | [] => Some []
  | v :: a :: x :: ws' =>
      if is_kw a "->" then
        do v' <- read_name v;
        do x' <- (if is_kw x "1" then Some VTrue else if is_kw x "0" then Some VFalse else do l <- read_lit x; Some (VLit l));
        do r <- read_subs ws'; Some ((v', x') :: r)
      else None
  | _ => None
  end.

(** the parts of a line between semicolons *)
Fixpoint split_semi (ws : list text) : list text * list (list text) :=
  match ws with
  | [] => ([], [])
  | w :: ws' => let '(h, r) := split_semi ws' in if is_kw w ";" then ([], h :: r) else (w :: h, r)
  end.

(** what follows a rule that may have a subproof *)
Definition read_begin (segs : list (list text)) : option bool :=
  match segs with [] => Some false | [[b]] => if is_kw b "begin" then Some true else None | _ => None end.
Definition read_hint (segs : list (list text)) : option (option cid) :=
  match segs with [[]] => Some None | [[i]] => do x <- read_cid i; Some (Some x) | _ => None end.
Definition closed (segs : list (list text)) : option unit := match segs with [[]] => Some tt | _ => None end.
Definition nothing (segs : list (list text)) : option unit := match segs with [] => Some tt | _ => None end.

Definition read_otype (w : text) : option otype := if is_kw w "IMPLICIT" then Some OImplicit else if is_kw w "FILE" then Some OFile else None.
Definition read_guarantee (ws : list text) : option guarantee :=
  match ws with
  | [g] => if is_kw g "NONE" then Some GuNone else None
  | [g; t] => do o <- read_otype t;
              if is_kw g "DERIVABLE" then Some (GuDerivable o) else if is_kw g "EQUISATISFIABLE" then Some (GuEquisat o)
              else if is_kw g "EQUIOPTIMAL" then Some (GuEquiopt o) else None
  | _ => None
  end.
(** an optional part after a colon *)
Definition read_sol (ws : list text) : option (option (list plit)) :=
  match ws with [] => Some None | c :: ws' => if is_kw c ":" then do ls <- read_all read_lit ws'; Some (Some ls) else None end.
Definition read_conclusion (ws : list text) : option conclusion :=
  match ws with
  | k :: ws' =>
      if is_kw k "NONE" then match ws' with [] => Some CoNone | _ => None end
      else if is_kw k "SAT" then do s <- read_sol ws'; Some (CoSat s)
      else if is_kw k "UNSAT" then
        match ws' with [] => Some (CoUnsat None) | [c; i] => if is_kw c ":" then do x <- read_cid i; Some (CoUnsat (Some x)) else None | _ => None end
      else if is_kw k "BOUNDS" then
        match ws' with
        | lo :: ws2 =>
            do l <- read_int lo;
            do (i, ws3) <- match ws2 with c :: i :: r => if is_kw c ":" then do x <- read_cid i; Some (Some x, r) else Some (None, ws2) | _ => Some (None, ws2) end;
            match ws3 with hi :: r => do h <- read_int hi; do s <- read_sol r; Some (CoBounds l i h s) | [] => None end
        | [] => None
        end
      else None
  | [] => None
  end.

Definition read_words (ws : list text) : option pline :=
  match ws with
  | [] => Some LBlank
  | k :: _ =>
    if is_kw k "*" then Some LComment
    else
      let '(h, segs) := split_semi ws in
      let args := tl h in
      let simple r := Some (LRule r false) in
      if is_kw k "pol" || is_kw k "p" then do _ <- nothing segs; do ops <- some_of (read_ops args); simple (RPol ops)
      else if is_kw k "rup" || is_kw k "u" then
        do c <- read_con args; match segs with [hs] => do is <- read_all read_cid hs; simple (RRup c is) | _ => None end
      else if is_kw k "red" || is_kw k "dom" then
        do c <- read_con args;
        match segs with
        | ss :: segs' => do subs <- read_subs ss; do b <- read_begin segs'; Some (LRule (if is_kw k "red" then RRed c subs else RDom c subs) b)
        | [] => None
        end
      else if is_kw k "del" then
        match args with
        | w :: args' =>
            if is_kw w "id" then
              do is <- some_of (read_all read_cid args');
              match segs with ss :: segs' => do subs <- read_subs ss; do b <- read_begin segs'; Some (LRule (RDelId is subs) b) | [] => None end
            else if is_kw w "spec" then do c <- read_con args'; do _ <- closed segs; simple (RDelSpec c)
            else if is_kw w "range" then match args' with [a; b] => do x <- read_cid a; do y <- read_cid b; do _ <- nothing segs; simple (RDelRange x y) | _ => None end
            else None
        | [] => None
        end
      else if is_kw k "delc" then do _ <- nothing segs; do is <- some_of (read_all read_cid args); simple (RDelCore is)
      else if is_kw k "deld" then do _ <- nothing segs; do is <- some_of (read_all read_cid args); simple (RDelDerived is)
      else if is_kw k "core" then
        match args with
        | w :: args' =>
            do _ <- nothing segs;
            if is_kw w "id" then do is <- some_of (read_all read_cid args'); simple (RCoreId is)
            else if is_kw w "range" then match args' with [a; b] => do x <- read_cid a; do y <- read_cid b; simple (RCoreRange x y) | _ => None end
            else None
        | [] => None
        end
      else if is_kw k "obju" then
        match args with
        | w :: args' =>
            do o <- read_obj args';
            if is_kw w "new" then
              match segs with [[]] => simple (RObjNew o) | [[b]] => if is_kw b "begin" then Some (LRule (RObjNew o) true) else None | _ => None end
            else if is_kw w "diff" then do _ <- closed segs; simple (RObjDiff o)
            else None
        | [] => None
        end
      else if is_kw k "sol" then do _ <- nothing segs; do ls <- read_all read_lit args; simple (RSol ls)
      else if is_kw k "solx" then do _ <- nothing segs; do ls <- read_all read_lit args; simple (RSolx ls)
      else if is_kw k "soli" then do _ <- nothing segs; do ls <- read_all read_lit args; simple (RSoli ls)
      else if is_kw k "e" then do c <- read_con args; do i <- read_hint segs; simple (REq c i)
      else if is_kw k "ea" then do c <- read_con args; do i <- read_hint segs; simple (REqAdd c i)
      else if is_kw k "i" then do c <- read_con args; do i <- read_hint segs; simple (RImp c i)
      else if is_kw k "ia" then do c <- read_con args; do i <- read_hint segs; simple (RImpAdd c i)
      else if is_kw k "eobj" then do o <- read_obj args; do _ <- closed segs; simple (REqObj o)
      else if is_kw k "#" then match args with [n] => do x <- read_num n; simple (RLevel x) | _ => None end
      else if is_kw k "w" then match args with [n] => do x <- read_num n; simple (RWipe x) | _ => None end
      else if is_kw k "f" then match args with [n] => do x <- read_num n; simple (RCount x) | _ => None end
      else if is_kw k "load_order" then match args with n :: vs => do xs <- read_all read_name vs; simple (RLoad n xs) | [] => None end
      else if is_kw k "strengthening_to_core" then
        match args with [s] => if is_kw s "on" then simple (RStrength true) else if is_kw s "off" then simple (RStrength false) else None | _ => None end
      else if is_kw k "proofgoal" then
        match args with
        | [g] => match g with c :: r => if Ascii.eqb c "#" then do n <- nonzero (read_num r); Some (LGoal (GNum n)) else do i <- read_cid g; Some (LGoal (GCon i)) | [] => None end
        | _ => None
        end
      else if is_kw k "qed" then match args with [i] => do x <- read_cid i; Some (LQed x) | _ => None end
      else if is_kw k "end" then
        match args with [] => Some LEnd | [a; b] => if is_kw a "pseudo-Boolean" && is_kw b "proof" then Some LEndProof else None | _ => None end
      else if is_kw k "output" then do g <- read_guarantee args; Some (LOutput g)
      else if is_kw k "conclusion" then do c <- read_conclusion args; Some (LConclusion c)
      else if is_kw k "pseudo-Boolean" then
        match args with [a; b; c] => if is_kw a "proof" && is_kw b "version" && is_kw c "2.0" then Some LHeader else None | _ => None end
      else None
  end.
Definition read_line (t : text) : option pline := read_words (words t).
Definition read_text (t : text) : option (list pline) := read_all read_line (lines t).

(** ** How the checker numbers constraints *)

(** rules that add a constraint *)
Definition adds (r : rule) : bool :=
  match r with RPol _ | RRup _ _ | RRed _ _ | RDom _ _ | RSolx _ | RSoli _ | REqAdd _ _ | RImpAdd _ _ => true | _ => false end.
(** opening a subproof adds the negated constraint, except for a new objective, which has no constraint *)
Definition opening (r : rule) : nat := match r with RObjNew _ => 0 | _ => 1 end.

(** the next identifier, and the constraints added outside of subproofs with their identifiers; a proof goal adds its negation, and a
    constraint proved by a subproof is added at the end of the subproof *)
Fixpoint number (next : nat) (open : option rule) (ls : list pline) : nat * list (rule * nat) :=
  match ls with
  | [] => (next, [])
  | LRule r true :: ls' => match open with None => number (next + opening r) (Some r) ls' | Some _ => number next open ls' end
  | LRule r false :: ls' =>
      if adds r then
        match open with
        | None => let '(n, l) := number (S next) None ls' in (n, (r, next) :: l)
        | Some _ => number (S next) open ls'
        end
      else number next open ls'
  | LGoal _ :: ls' => number (S next) open ls'
  | LEnd :: ls' =>
      match open with
      | Some r => if adds r then let '(n, l) := number (S next) None ls' in (n, (r, next) :: l) else number next None ls'
      | None => number next None ls'
      end
  | _ :: ls' => number next open ls'
  end.

(** ** The methods of a proof and what they ask the checker to do *)

Inductive pbound : Type := BIncl (i : cid) | BExcl (i : cid) | BOpen.
Inductive pder : Type := DRup (c : pcon) (hints : list cid) | DOps (ops : list pop).
Inductive pelem : Type := EDer (d : pder) | EGoal (g : pgoal) (ds : list pder).

Inductive pcall : Type :=
| CCount (n : nat)
| CComment (t : text)
| COperations (ops : list pop)
| CRup (c : pcon) (hints : list cid)
| CDelIds (is : list cid) (proof : list pelem)
| CDelConstr (c : pcon)
| CDelRange (lo hi : pbound)
| CDelCore (is : list cid)
| CDelDerived (is : list cid)
| CObjNew (o : pobj) (goals : list (pgoal * list pder))
| CObjDiff (o : pobj)
| CRed (c : pcon) (subs : list psub) (proof : list pelem)
| CDom (c : pcon) (subs : list psub) (proof : list pelem)
| CCoreIds (is : list cid)
| CCoreRange (lo hi : pbound)
| CSolution (ls : list plit)
| CExclude (ls : list plit)
| CImprove (ls : list plit)
| CEquals (c : pcon) (i : option cid)
| CEqualsAdd (c : pcon) (i : option cid)
| CObjEquals (o : pobj)
| CImplied (c : pcon) (i : option cid)
| CImpliedAdd (c : pcon) (i : option cid)
| CSetLevel (n : nat)
| CWipeLevel (n : nat)
| CLoadOrder (name : text) (vars : list text)
| CStrength (on : bool).

(** an identifier is in a range; [next] is the next free identifier *)
Definition in_range (next : nat) (lo hi : pbound) (i : nat) : Prop :=
  match lo with BIncl a => resolve next a <= i | BExcl a => resolve next a < i | BOpen => 1 <= i end /\
  match hi with BIncl b => i <= resolve next b | BExcl b => i < resolve next b | BOpen => i < next end.

Definition der_line (d : pder) : pline := LRule (match d with DRup c hs => RRup c hs | DOps ops => RPol ops end) false.
Definition goal_lines (g : pgoal) (ds : list pder) : list pline := LGoal g :: map der_line ds ++ [LQed (IRel 1)].
Definition elem_lines (e : pelem) : list pline := match e with EDer d => [der_line d] | EGoal g ds => goal_lines g ds end.
(** a rule and its subproof, if there is one *)
Definition with_proof (r : rule) (proof : list pelem) : list pline :=
  match proof with [] => [LRule r false] | _ => LRule r true :: flat_map elem_lines proof ++ [LEnd] end.

(** the lines a call has to write; comments and blank lines mean nothing *)
Definition asks (next : nat) (c : pcall) (ls : list pline) : Prop :=
  let one r := ls = [LRule r false] in
  match c with
  | CCount n => one (RCount n)
  | CComment _ => ls = [LComment]
  | COperations ops => one (RPol ops)
  | CRup c hs => one (RRup c hs)
  | CDelIds is proof => ls = with_proof (RDelId is []) proof
  | CDelConstr c => one (RDelSpec c)
  | CDelRange lo hi => exists a b, one (RDelRange a b) /\ forall i, resolve next a <= i < resolve next b <-> in_range next lo hi i
  | CDelCore is => one (RDelCore is)
  | CDelDerived is => one (RDelDerived is)
  | CObjNew o goals => match goals with
                       | [] => ls = [LRule (RObjNew o) false; LBlank]
                       | _ => ls = LRule (RObjNew o) true :: flat_map (fun g => goal_lines (fst g) (snd g)) goals ++ [LEnd; LBlank]
                       end
  | CObjDiff o => one (RObjDiff o)
  | CRed c subs proof => ls = with_proof (RRed c subs) proof
  | CDom c subs proof => ls = with_proof (RDom c subs) proof
  | CCoreIds is => one (RCoreId is)
  | CCoreRange lo hi => exists a b, one (RCoreRange a b) /\ forall i, resolve next a <= i < resolve next b <-> in_range next lo hi i
  | CSolution ls' => one (RSol ls')
  | CExclude ls' => one (RSolx ls')
  | CImprove ls' => one (RSoli ls')
  | CEquals c i => one (REq c i)
  | CEqualsAdd c i => one (REqAdd c i)
  | CObjEquals o => one (REqObj o)
  | CImplied c i => one (RImp c i)
  | CImpliedAdd c i => one (RImpAdd c i)
  | CSetLevel n => one (RLevel n)
  | CWipeLevel n => one (RWipe n)
  | CLoadOrder n vs => one (RLoad n vs)
  | CStrength b => one (RStrength b)
  end.

(** calls within the contract of the methods: valid variable names, identifiers and factors that are not zero, at least one
    identifier to delete or move, a range that is not empty and refers to constraints that exist, comments of one line, no operations
    that weaken. The objective of an optimization problem may be changed. *)
Definition good_id (i : cid) : Prop := match i with IAbs n | IRel n => 0 < n end.
Definition good_lit (l : plit) : Prop := valid_name (snd l) = true.
Definition good_sum (ts : list (Z * plit)) : Prop := Forall (fun t => good_lit (snd t)) ts.
Definition good_op (o : pop) : Prop :=
  match o with PId i => good_id i | PAx l => good_lit l | PMul k | PDiv k => 0 < k | PAdd | PSat => True | PWeak _ => False end.
Definition good_ops (ops : list pop) : Prop := ops <> [] /\ Forall good_op ops.
Definition good_sub (s : psub) : Prop := valid_name (fst s) = true /\ match snd s with VLit l => good_lit l | _ => True end.
Definition good_der (d : pder) : Prop := match d with DRup c hs => good_sum (fst c) /\ Forall good_id hs | DOps ops => good_ops ops end.
Definition good_goal (g : pgoal) : Prop := match g with GCon i => good_id i | GNum n => 0 < n end.
Definition good_elem (e : pelem) : Prop := match e with EDer d => good_der d | EGoal g ds => good_goal g /\ Forall good_der ds end.
Definition good_ids (is : list cid) : Prop := is <> [] /\ Forall good_id is.
Definition good_bound (next : nat) (b : pbound) : Prop :=
  match b with BIncl i | BExcl i => good_id i /\ match i with IRel n => n < next | IAbs _ => True end | BOpen => True end.
Definition no_blank (t : text) : Prop := t <> [] /\ Forall (fun c => is_white c = false) t.

Definition good_call (optimization : bool) (next : nat) (c : pcall) : Prop :=
  match c with
  | CCount _ | CSetLevel _ | CWipeLevel _ | CStrength _ => True
  | CComment t => ~ In nl t
  | COperations ops => good_ops ops
  | CRup c hs => good_sum (fst c) /\ Forall good_id hs
  | CDelIds is proof => good_ids is /\ Forall good_elem proof
  | CDelConstr c => good_sum (fst c)
  | CDelRange lo hi | CCoreRange lo hi => good_bound next lo /\ good_bound next hi /\ exists i, in_range next lo hi i
  | CDelCore is | CDelDerived is | CCoreIds is => good_ids is
  | CObjNew o goals => optimization = true /\ snd o = 0%Z /\ good_sum (fst o) /\ goals = []
  | CObjDiff o | CObjEquals o => optimization = true /\ snd o = 0%Z /\ good_sum (fst o)
  | CRed c subs proof | CDom c subs proof => good_sum (fst c) /\ Forall good_sub subs /\ Forall good_elem proof
  | CSolution ls | CExclude ls | CImprove ls => Forall good_lit ls
  | CEquals c i | CEqualsAdd c i | CImplied c i | CImpliedAdd c i => good_sum (fst c) /\ match i with Some x => good_id x | None => True end
  | CLoadOrder n vs => no_blank n /\ n <> T ";" /\ Forall (fun v => valid_name v = true) vs
  end.

(** the identifiers a call uses up *)
Definition elem_ids (e : pelem) : nat := match e with EDer _ => 1 | EGoal _ ds => 1 + List.length ds end.
Definition proof_ids (es : list pelem) : nat := match es with [] => 0 | _ => 1 + list_sum (map elem_ids es) end.
Definition uses (c : pcall) : nat :=
  match c with
  | COperations _ | CRup _ _ | CExclude _ | CImprove _ | CEqualsAdd _ _ | CImpliedAdd _ _ => 1
  | CRed _ _ proof | CDom _ _ proof => proof_ids proof + 1
  | CDelIds _ proof => proof_ids proof
  | _ => 0
  end.
Fixpoint good_calls (optimization : bool) (next : nat) (cs : list pcall) : Prop :=
  match cs with [] => True | c :: cs' => good_call optimization next c /\ good_calls optimization (next + uses c) cs' end.
Definition good_conclusion (c : conclusion) : Prop :=
  match c with
  | CoNone => True
  | CoSat sol => match sol with Some ls => Forall good_lit ls | None => True end
  | CoUnsat i => match i with Some x => good_id x | None => True end
  | CoBounds _ i _ sol => match i with Some x => good_id x | None => True end /\ match sol with Some ls => Forall good_lit ls | None => True end
  end.

(** A history of calls, the identifiers returned, and the lines written from the identifier [next] on: every call writes what it asks
    for, and returns the identifier the checker gives to the constraint it adds, if it adds one. *)
Inductive written : nat -> list pcall -> list (option nat) -> list pline -> nat -> Prop :=
| W_nil next : written next [] [] [] next
| W_cons next c ls next' ids r cs rs ls' last :
    asks next c ls -> number next None ls = (next', ids) ->
    (ids = [] /\ r = None \/ exists ru i, ids = [(ru, i)] /\ r = Some i) ->
    written next' cs rs ls' last -> written next (c :: cs) (r :: rs) (ls ++ ls') last.

(** ** Proof files as sequences of the steps of [CertSpec]; the variables are named [x1], [x2], ... *)

Definition var_of (t : text) : option N :=
  match t with c :: r => if Ascii.eqb c "x" then do n <- nonzero (read_num r); Some (N.of_nat (n - 1)) else None | [] => None end.
Definition lit_of (l : plit) : option lit := do v <- var_of (snd l); Some (mkLit v (fst l)).
Fixpoint map_opt {A B} (f : A -> option B) (xs : list A) : option (list B) :=
  match xs with [] => Some [] | x :: xs' => do y <- f x; do ys <- map_opt f xs'; Some (y :: ys) end.
Definition abs_of (i : cid) : option nat := match i with IAbs n => Some n | IRel _ => None end.
Definition con_of (c : pcon) : option raw := do ts <- map_opt (fun '(w, l) => do x <- lit_of l; Some (x, w)) (fst c); Some (ts, snd c).
Definition rpn_of (o : pop) : option rpn :=
  match o with
  | PId i => do n <- abs_of i; Some (OId n) | PAx l => do x <- lit_of l; Some (OAx x) | PAdd => Some OAdd
  | PMul k => Some (OMul k) | PDiv k => Some (ODiv k) | PSat => Some OSat | PWeak _ => None
  end.
Definition wit_of (s : psub) : option (N * bool) :=
  do v <- var_of (fst s); match snd s with VTrue => Some (v, true) | VFalse => Some (v, false) | VLit _ => None end.
Definition step_of (l : pline) : option pstep :=
  match l with
  | LRule (RPol ops) false => do os <- map_opt rpn_of ops; Some (SPol os)
  | LRule (RRup c [i]) false =>
      do r <- con_of c; do n <- abs_of i;
      if (snd r =? 1)%Z && forallb (fun t => snd t =? 1)%Z (fst r) then Some (SRup (map fst (fst r)) n) else None
  | LRule (RRed c subs) false => do r <- con_of c; do w <- map_opt wit_of subs; Some (SRed r w)
  | LRule (RDelId is []) false => do ns <- map_opt abs_of is; Some (SDel ns)
  | _ => None
  end.
Definition read_steps (t : text) : option (list pstep) := do ls <- read_text t; map_opt step_of ls.

(** ** Expressions over constraints: what the operators [+], [*], [/] and [saturate] on identifiers and literals stand for *)

Inductive oexp : Type := XEmpty | XId (i : cid) | XAx (l : plit) | XAdd (a b : oexp) | XMul (a : oexp) (k : nat) | XDiv (a : oexp) (k : nat) | XSat (a : oexp).

Definition valid_con (c : raw) : option (option raw) := if (0 <=? snd c)%Z then Some (Some c) else None.
(** [None]: no derivation, for instance a division by zero; [Some None]: nothing, the neutral element of addition *)
Fixpoint means (p : pstate) (e : oexp) : option (option raw) :=
  match e with
  | XEmpty => Some None
  | XId (IAbs i) => do c <- ps_get p i; valid_con c
  | XId (IRel _) => None
  | XAx l => do x <- lit_of l; Some (Some ([(x, 1%Z)], 0%Z))
  | XAdd a b =>
      do x <- means p a; do y <- means p b;
      match x, y with None, _ => Some y | _, None => Some x | Some c, Some d => valid_con (cp_add c d) end
  | XMul a k => do x <- means p a; match x with None => Some None | Some c => if (k =? 0)%nat then Some None else valid_con (cp_mul (Z.of_nat k) c) end
  | XDiv a k => do x <- means p a; match x with None => Some None | Some c => if (k =? 0)%nat then None else valid_con (cp_div (Z.of_nat k) c) end
  | XSat a => do x <- means p a; match x with None => Some None | Some c => if (0 <? snd c)%Z then valid_con (cp_sat c) else None end
  end.
