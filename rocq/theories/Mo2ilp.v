(** * Model of the tool [mo2ilp]: writing multi-objective instances as 0-1 linear programs

    Sums of coefficients are unbounded integers; a single coefficient that does not fit into an [isize] panics as in the code. *)

From Coq Require Import List Bool NArith ZArith Ascii String.
From Verif Require Import Spec Types Base Constraints VarMan NodeDb Inst Opt Text Dimacs Opb Pigeons Tools.
Import ListNotations.
Open Scope list_scope.

(** [coefs[j] += z], panicking out of range; [coefs.last_mut().unwrap() += z] *)
Fixpoint add_at (j : nat) (z : Z) (cs : list Z) : option (list Z) :=
  match cs, j with
  | [], _ => None
  | c :: cs', O => Some ((c + z)%Z :: cs')
  | c :: cs', S j' => do r <- add_at j' z cs'; Some (c :: r)
  end.
Definition add_last (z : Z) (cs : list Z) : option (list Z) := match cs with [] => None | _ => add_at (List.length cs - 1) z cs end.
(** [isize::try_from(coef).expect(..)] *)
Definition to_isize (w : nat) : option Z := if (Z.of_nat w <=? isize_max)%Z then Some (Z.of_nat w) else None.

Section Orders.
(** iteration orders of hash maps *)
Variables (lord : list (lit * nat) -> list (lit * nat)) (cord : list (clause * nat) -> list (clause * nat)).

(** tools/src/bin/mo2ilp.rs:259-276 [write_objective]: the row; the last column is the variable fixed to 1 *)
Definition obj_step (cs : list Z) (e : lit * nat) : option (list Z) :=
  do c <- to_isize (snd e);
  if lneg (fst e) then do cs' <- add_last c cs; add_at (N.to_nat (lvar (fst e))) (- c) cs'
  else add_at (N.to_nat (lvar (fst e))) c cs.
Definition obj_row (n : nat) (o : obj) : option (list Z) :=
  match iter_soft_lits lord o with
  | inl ls => do cs <- foldM obj_step ls (repeat 0%Z n); add_last (obj_offset o) cs
  | inr _ => None
  end.

(** tools/src/bin/mo2ilp.rs:278-309 [write_constraint], 311-326 [Operator]: the row, the operator and the bound *)
Definition con_step (st : list Z * Z) (e : lit * nat) : option (list Z * Z) :=
  do c <- to_isize (snd e);
  let '(c, b) := if lneg (fst e) then ((- c)%Z, (snd st - c)%Z) else (c, snd st) in
  do cs <- add_at (N.to_nat (lvar (fst e))) c (fst st); Some (cs, b).
Definition op_code (k : bound_kind) : Z := match k with KLb => 0 | KUb => 1 | KEq => 2 end%Z.
Definition con_row (n : nat) (p : pb) : option (list Z * (Z * Z)) :=
  do r <- foldM con_step (p_lits p) (repeat 0%Z n, p_b p); Some (fst r, (op_code (p_kind p), snd r)).

(** mo2ilp.rs:193-197: all objectives are converted to soft literals with the same variable manager *)
Fixpoint conv_all (os : list obj) (n : N) : option (list obj * cnf * N) :=
  match os with
  | [] => Some ([], [], n)
  | o :: r => do x <- convert_to_soft_lits cord o n; let '(o', f, n1) := x in
              do y <- conv_all r n1; let '(os', g, n2) := y in Some (o' :: os', f ++ g, n2)
  end.

Definition ints (zs : list Z) : text := spaced (map print_Z zs).
(** mo2ilp.rs:179-257 [write_instance]; [nz] is the first of the formats *)
Definition write_ilp (nz : bool) (p : mopt) : option text :=
  let '(constr, objs) := mopt_decompose p in
  let '(pbs, n0) := into_pbs constr in
  do x <- conv_all objs (fst (next_increase (objs_max objs + 1) n0));
  let '(objs, h, n) := x in
  let pbs := pbs ++ map pb_of_clause h ++ [pb_new_lb [(pos n, 1%Z)] 1] in
  let used := N.to_nat (n + 1) in
  let nzc := list_sum (map (fun q => List.length (p_lits q)) pbs) in
  let nzo := list_sum (map obj_n_softs objs) in
  do rows <- mapM (obj_row used) objs;
  do crows <- mapM (con_row used) pbs;
  Some (line (ints (map Z.of_nat ([used; List.length pbs; List.length objs] ++ if nz then [nzc; nzo] else []))) ++ line [] ++
        (if nz then [] else line (spaced (map (fun _ => T "minsum") objs)) ++ line []) ++
        List.concat (map (fun r => line (ints r)) rows) ++ line [] ++
        List.concat (map (fun r => line (ints (fst r))) crows) ++ line [] ++
        List.concat (map (fun r => line (ints [fst (snd r); snd (snd r)])) crows) ++
        (if nz then [] else line [] ++ line (ints (repeat 0%Z used)) ++ line (ints (repeat 1%Z used)))).

(** mo2ilp.rs:56-65, 77-101: what is done with variables that do not occur *)
Inductive unused : Type := UNothing | URemove | UAssignZero.
Definition unused_vars (u : unused) (p : mopt) : option mopt :=
  match u with
  | UNothing => Some p
  | UAssignZero =>
      let vs := mopt_var_set p in
      Some (mkMopt (fold_left (fun i v => if existsb (N.eqb v) vs then i else inst_add_clause i [negl v])
                      (map N.of_nat (seq 0 (N.to_nat (i_next (mo_constrs p))))) (mo_constrs p)) (mo_objs p))
  | URemove =>
      do r <- mopt_reindex_ordered re_reindex lord cord p (re_start 0);
      let '(f, cards, pbs, os, s) := r in
      do v <- next_new (re_next s);
      Some (mopt_compose (mkInst f cards pbs (fst v)) os)
  end.

Definition to_ilp (u : unused) (nz : bool) (p : mopt) : option text := do p' <- unused_vars u p; write_ilp nz p'.
(** mo2ilp.rs:67-117, 125-177: the tool for an input in the given or inferred format *)
Definition mo2ilp (fmt : format) (o : opb_opts) (u : unused) (nz : bool) (t : text) : res text :=
  rbind (parse_instance fmt o t) (fun p => to_res (to_ilp u nz p)).
End Orders.
