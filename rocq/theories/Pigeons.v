(** * Model of the proof writer, [pigeons/src]

    Variables are represented by the text their formatter displays ([VarLike::Formatter]). What has been written is the text [pr_out];
    errors of the writer are not modelled, nor are definitions of orders ([define_order]) and [substitute], which writes a line
    that is not a rule. [None] is a panic. Numbers are unbounded. *)

From Coq Require Import List Bool NArith ZArith Ascii String.
From Verif Require Import Spec Types Text CertSpec PigeonsSpec.
Import ListNotations.
Open Scope list_scope.

(** [itertools::format] with a blank *)
Fixpoint spaced (xs : list text) : text :=
  match xs with [] => [] | [x] => x | x :: xs' => x ++ T " " ++ spaced xs' end.

(** pigeons/src/types.rs:106-113, 151-155, 197-201 [Display] of identifiers *)
Definition p_cid (i : cid) : text := match i with IAbs n => print_nat n | IRel n => T "-" ++ print_nat n end.
(** pigeons/src/types.rs:250-259 [Display for Axiom] *)
Definition p_lit (l : plit) : text := (if fst l then T "~" else []) ++ snd l.
(** pigeons/src/types.rs:860-934: the sum [coefficient literal ...] and the constraint *)
Definition p_sum (ts : list (Z * plit)) : text := spaced (map (fun '(w, l) => print_Z w ++ T " " ++ p_lit l) ts).
Definition p_con (c : pcon) : text := p_sum (fst c) ++ T " >= " ++ print_Z (snd c).
(** [ObjFormatter]: the constant is not written *)
Definition p_obj (o : pobj) : text := p_sum (fst o).
(** pigeons/src/ops.rs:250-262 [Display for Operation]; weakening has no operand in the code: in the model [PWeak] stands for what
    can be read, the code's operation is [w] alone *)
Definition p_op (o : pop) : text :=
  match o with
  | PId i => p_cid i | PAx l => p_lit l | PAdd => T "+" | PMul k => print_nat k ++ T " *" | PDiv k => print_nat k ++ T " d"
  | PSat => T "s" | PWeak _ => T "w"
  end.
(** pigeons/src/ops.rs:153-161 [Display for OperationSequence] *)
Definition p_ops (ops : list pop) : option text := match ops with [] => None | _ => Some (spaced (map p_op ops)) end.
(** pigeons/src/types.rs:311-347 [Display for Substitution] *)
Definition p_sub (s : psub) : text :=
  fst s ++ T " -> " ++ match snd s with VTrue => T "1" | VFalse => T "0" | VLit l => p_lit l end.
(** pigeons/src/types.rs:693-700 [Display for ProofGoalId] *)
Definition p_goal (g : pgoal) : text := match g with GCon i => p_cid i | GNum n => T "#" ++ print_nat n end.

Section Keywords.
(** the feature [short-keywords] *)
Variable short : bool.
Definition kw_pol : text := if short then T "p" else T "pol".
Definition kw_rup : text := if short then T "u" else T "rup".

(** pigeons/src/types.rs:535-563 [Display for Derivation] *)
Definition p_der (d : pder) : option text :=
  match d with
  | DRup c hs => Some (kw_rup ++ T " " ++ p_con c ++ T " ; " ++ spaced (map p_cid hs))
  | DOps ops => do t <- p_ops ops; Some (kw_pol ++ T " " ++ t)
  end.
Fixpoint p_ders (indent : text) (ds : list pder) : option text :=
  match ds with [] => Some [] | d :: ds' => do t <- p_der d; do r <- p_ders indent ds'; Some (indent ++ T "  " ++ t ++ [nl] ++ r) end.
(** pigeons/src/types.rs:625-673 [write_indented], [format_indented] *)
Definition p_goal_at (indent : text) (g : pgoal) (ds : list pder) : option text :=
  do t <- p_ders indent ds; Some (indent ++ T "proofgoal " ++ p_goal g ++ [nl] ++ t ++ indent ++ T "qed -1").

(** pigeons/src/types.rs:759-806 [Display for OutputGuarantee] and [OutputType] *)
Definition p_otype (t : otype) : text := match t with OImplicit => T "IMPLICIT" | OFile => T "FILE" end.
Definition p_guarantee (g : guarantee) : text :=
  match g with
  | GuNone => T "NONE" | GuDerivable t => T "DERIVABLE " ++ p_otype t | GuEquisat t => T "EQUISATISFIABLE " ++ p_otype t
  | GuEquiopt t => T "EQUIOPTIMAL " ++ p_otype t
  end.
(** pigeons/src/types.rs:808-862 [Display for Conclusion]; the range of [Bounds] is half open in the code, both ends are given here *)
Definition p_conclusion (c : conclusion) : text :=
  match c with
  | CoNone => T "NONE"
  | CoSat None => T "SAT" | CoSat (Some ls) => T "SAT : " ++ spaced (map p_lit ls)
  | CoUnsat None => T "UNSAT" | CoUnsat (Some i) => T "UNSAT : " ++ p_cid i
  | CoBounds lo i hi sol =>
      T "BOUNDS " ++ print_Z lo ++ match i with Some x => T " : " ++ p_cid x | None => [] end ++ T " " ++ print_Z ((hi + 1) - 1) ++
      match sol with Some ls => T " : " ++ spaced (map p_lit ls) | None => [] end
  end.

(** pigeons/src/lib.rs:97-111 [Proof] *)
Record proof : Type := mkProof {
  pr_next : nat; pr_pv : nat; pr_opt : bool; pr_first : nat; pr_default : guarantee * text; pr_out : text }.
Definition say (p : proof) (t : text) : proof := mkProof (pr_next p) (pr_pv p) (pr_opt p) (pr_first p) (pr_default p) (pr_out p ++ t).
Definition bump (p : proof) (n : nat) : proof := mkProof (pr_next p + n) (pr_pv p) (pr_opt p) (pr_first p) (pr_default p) (pr_out p).
Definition sayln (p : proof) (t : text) : proof := say p (t ++ [nl]).

(** pigeons/src/lib.rs:140-212 [new], [new_with_conclusion] *)
Definition proof_new (n : nat) (opt : bool) (g : guarantee) (c : conclusion) : proof :=
  sayln (mkProof (n + 1) 0 opt (n + 1) (g, p_conclusion c) (T "pseudo-Boolean proof version 2.0" ++ [nl])) (T "f " ++ print_nat n).
(** pigeons/src/lib.rs:214-221 [update_default_conclusion] *)
Definition set_default (p : proof) (g : guarantee) (c : conclusion) : proof :=
  mkProof (pr_next p) (pr_pv p) (pr_opt p) (pr_first p) (g, p_conclusion c) (pr_out p).
(** pigeons/src/lib.rs:224-229, 262-268 [new_id], [new_proof_var] *)
Definition new_id (p : proof) : nat * proof := (pr_next p, bump p 1).
Definition new_proof_var (p : proof) : text * proof :=
  (T "pv" ++ print_nat (pr_pv p), mkProof (pr_next p) (pr_pv p + 1) (pr_opt p) (pr_first p) (pr_default p) (pr_out p)).

(** the names of [k] proof-only variables taken one after the other *)
Fixpoint proof_vars (k : nat) (p : proof) : list text * proof :=
  match k with 0 => ([], p) | S k' => let '(v, p1) := new_proof_var p in let '(vs, p2) := proof_vars k' p1 in (v :: vs, p2) end.

(** pigeons/src/lib.rs:231-260 [write_subproof] *)
Fixpoint write_elems (p : proof) (es : list pelem) : option proof :=
  match es with
  | [] => Some p
  | EDer d :: es' => do t <- p_der d; write_elems (bump (sayln p (T "  " ++ t)) 1) es'
  | EGoal g ds :: es' => do t <- p_goal_at (T "  ") g ds; write_elems (bump (sayln p t) (1 + List.length ds)) es'
  end.
Definition write_subproof (p : proof) (es : list pelem) : option proof :=
  match es with
  | [] => Some (sayln p [])
  | _ => do p' <- write_elems (sayln (bump p 1) (T " ; begin")) es; Some (sayln p' (T "end"))
  end.

(** pigeons/src/types.rs:67-104 [make_absolute], [increment], [less] *)
Definition rel_absolute (next n : nat) : option nat := if (n <? next)%nat then Some (next - n)%nat else None.
Definition increment (next : nat) (i : cid) : cid :=
  match i with IAbs n => IAbs (n + 1) | IRel n => if (n =? 1)%nat then IAbs next else IRel (n - 1) end.
Definition id_value (next : nat) (i : cid) : option nat := match i with IAbs n => Some n | IRel n => rel_absolute next n end.
(** pigeons/src/lib.rs:438-449, 622-633: the ends of a range *)
Definition range_ends (next : nat) (lo hi : pbound) : option (cid * cid) :=
  let a := match lo with BIncl i => i | BExcl i => increment next i | BOpen => IAbs 1 end in
  let b := match hi with BIncl i => increment next i | BExcl i => i | BOpen => IAbs next end in
  do y <- id_value next b; do x <- id_value next a;
  if (x <? y)%nat then Some (a, b) else None.

(** pigeons/src/types.rs:735-756 [Display for ObjectiveUpdate::New]: it ends with a line feed of its own *)
Fixpoint p_goals (gs : list (pgoal * list pder)) : option text :=
  match gs with [] => Some [] | (g, ds) :: gs' => do t <- p_goal_at (T "  ") g ds; do r <- p_goals gs'; Some (t ++ [nl] ++ r) end.
Definition p_obj_new (o : pobj) (gs : list (pgoal * list pder)) : option text :=
  match gs with
  | [] => Some (T "new " ++ p_obj o ++ T " ;" ++ [nl])
  | _ => do t <- p_goals gs; Some (T "new " ++ p_obj o ++ T " ; begin" ++ [nl] ++ t ++ T "end" ++ [nl])
  end.

Definition quiet (p : proof) : option (proof * option nat) := Some (p, None).
Definition added (p : proof) : option (proof * option nat) := let '(i, p') := new_id p in Some (p', Some i).
(** "[k] constraint ;" with an optional identifier *)
Definition hinted (k : text) (c : pcon) (i : option cid) : text :=
  k ++ T " " ++ p_con c ++ T " ;" ++ match i with Some x => T " " ++ p_cid x | None => [] end.

(** pigeons/src/lib.rs:284-1004: the methods that write to the proof; a method that adds a constraint returns its identifier *)
Definition call (p : proof) (c : pcall) : option (proof * option nat) :=
  match c with
  | CCount n => quiet (sayln p (T "f " ++ print_nat n))
  | CComment t => quiet (sayln p (T "* " ++ t))
  | COperations ops => do t <- p_ops ops; added (sayln p (kw_pol ++ T " " ++ t))
  | CRup c hs =>
      added (sayln p (match hs with
                      | [] => kw_rup ++ T " " ++ p_con c ++ T " ;"
                      | _ => kw_rup ++ T " " ++ p_con c ++ T " ; " ++ spaced (map p_cid hs)
                      end))
  | CDelIds is proof => do p' <- write_subproof (say p (T "del id " ++ spaced (map p_cid is) ++ T " ;")) proof; quiet p'
  | CDelConstr c => quiet (sayln p (T "del spec " ++ p_con c ++ T " ;"))
  | CDelRange lo hi => do (a, b) <- range_ends (pr_next p) lo hi; quiet (sayln p (T "del range " ++ p_cid a ++ T " " ++ p_cid b))
  | CDelCore is => quiet (sayln p (T "delc " ++ spaced (map p_cid is)))
  | CDelDerived is => quiet (sayln p (T "deld " ++ spaced (map p_cid is)))
  | CObjNew o goals => if pr_opt p then do t <- p_obj_new o goals; quiet (sayln p (T "obju " ++ t)) else None
  | CObjDiff o => if pr_opt p then quiet (sayln p (T "obju diff " ++ p_obj o ++ T " ;")) else None
  | CRed c subs proof => do p' <- write_subproof (say p (T "red " ++ p_con c ++ T " ; " ++ spaced (map p_sub subs))) proof; added p'
  | CDom c subs proof => do p' <- write_subproof (say p (T "dom " ++ p_con c ++ T " ; " ++ spaced (map p_sub subs))) proof; added p'
  | CCoreIds is => quiet (sayln p (T "core id " ++ spaced (map p_cid is)))
  | CCoreRange lo hi => do (a, b) <- range_ends (pr_next p) lo hi; quiet (sayln p (T "core range " ++ p_cid a ++ T " " ++ p_cid b))
  | CSolution ls => quiet (sayln p (T "sol " ++ spaced (map p_lit ls)))
  | CExclude ls => added (sayln p (T "solx " ++ spaced (map p_lit ls)))
  | CImprove ls => added (sayln p (T "soli " ++ spaced (map p_lit ls)))
  | CEquals c i => quiet (sayln p (hinted (T "e") c i))
  | CEqualsAdd c i => added (sayln p (hinted (T "ea") c i))
  | CObjEquals o => if pr_opt p then quiet (sayln p (T "eobj " ++ p_obj o ++ T " ;")) else None
  | CImplied c i => quiet (sayln p (hinted (T "i") c i))
  | CImpliedAdd c i => added (sayln p (hinted (T "ia") c i))
  | CSetLevel n => quiet (sayln p (T "# " ++ print_nat n))
  | CWipeLevel n => quiet (sayln p (T "w " ++ print_nat n))
  | CLoadOrder n vs => quiet (sayln p (T "load_order " ++ n ++ T " " ++ spaced vs))
  | CStrength b => quiet (sayln p (T "strengthening_to_core " ++ (if b then T "on" else T "off")))
  end.

Fixpoint calls (p : proof) (cs : list pcall) : option (proof * list (option nat)) :=
  match cs with
  | [] => Some (p, [])
  | c :: cs' => do (p1, r) <- call p c; do (p2, rs) <- calls p1 cs'; Some (p2, r :: rs)
  end.

(** pigeons/src/lib.rs:719-788 [output], [conclusion], [end], [conclude] *)
Definition conclude (p : proof) (g : guarantee) (c : conclusion) : text :=
  pr_out (sayln (sayln (sayln p (T "output " ++ p_guarantee g)) (T "conclusion " ++ p_conclusion c)) (T "end pseudo-Boolean proof")).
(** pigeons/src/lib.rs:113-121 [drop] *)
Definition dropped (p : proof) : text :=
  pr_out (sayln (sayln (sayln p (T "output " ++ p_guarantee (fst (pr_default p)))) (T "conclusion " ++ snd (pr_default p))) (T "end pseudo-Boolean proof")).

(** ** The calls of the certified encodings *)

(** src/types/mod.rs:1241-1277: the name of a variable and the axiom of a literal *)
Definition var_name (v : N) : text := T "x" ++ print_N (v + 1).
Definition lit_ax (l : lit) : plit := (lneg l, var_name (lvar l)).
Definition raw_con (c : raw) : pcon := (map (fun '(l, w) => (w, lit_ax l)) (fst c), snd c).
Definition rpn_op (o : rpn) : pop :=
  match o with OId i => PId (IAbs i) | OAx l => PAx (lit_ax l) | OAdd => PAdd | OMul k => PMul k | ODiv k => PDiv k | OSat => PSat end.
(** the calls behind the steps of the models [Cert] and [CertW]: [operations], [reverse_unit_prop] with one hint, [redundant] with
    [substitute_fixed] and without a subproof, [delete_ids]; see src/types/constraints.rs:351-360 for clauses *)
Definition step_call (s : pstep) : pcall :=
  match s with
  | SPol ops => COperations (map rpn_op ops)
  | SRup c i => CRup (raw_con (clause_raw c)) [IAbs i]
  | SRed c w => CRed (raw_con c) (map (fun '(v, b) => (var_name v, if b : bool then VTrue else VFalse)) w) []
  | SDel is => CDelIds (map IAbs is) []
  end.
End Keywords.

(** ** Building operation sequences *)

(** pigeons/src/ops.rs:120-146 [push], and the test for an empty sequence before it *)
Definition push_op (s : list pop) (o : pop) : list pop := match s with [] => [] | _ => s ++ [o] end.
(** pigeons/src/ops.rs:133-138, 164-223, 294-309: the sequence the operators build; [None] is the panic of a division by zero *)
Fixpoint build (e : oexp) : option (list pop) :=
  match e with
  | XEmpty => Some []
  | XId i => Some [PId i]
  | XAx l => Some [PAx l]
  | XAdd a b => do s <- build a; do t <- build b; Some (match s, t with [], _ => t | _, [] => s | _, _ => s ++ t ++ [PAdd] end)
  | XMul a k => do s <- build a; Some (if (k =? 0)%nat then [] else if (1 <? k)%nat then push_op s (PMul k) else s)
  | XDiv a k => do s <- build a; match s with [] => Some [] | _ => if (k =? 0)%nat then None else Some (push_op s (PDiv k)) end
  | XSat a => do s <- build a; Some (push_op s PSat)
  end.
