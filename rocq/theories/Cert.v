(** * Model of the certified totalizer, [src/encodings/totdb/cert.rs], [src/encodings/card/totalizer/mod.rs] 414-690 and
      [src/encodings/card/cert.rs], with the proof writer of [pigeons/src]

    The proof written is the list of its steps; writing it as text and input/output errors are not modelled. Identifiers of
    proof constraints are natural numbers. Comments and [equals] checks of the feature [verbose-proofs] are left out.
    Connections with an offset or a length limit (which need rewritten "pseudo" semantics) are not modelled: the model has
    [None] for them. The totalizer never builds them: its only use of offsets is in [reduce]-type operations outside of
    this interface. *)

From Coq Require Import List Bool NArith ZArith Arith.
From Verif Require Import Spec BoundSpec Types Constraints Atomics NodeDb TotDb Totalizer CertSpec.
Import ListNotations.
Open Scope nat_scope.

(** ** Operation sequences, [pigeons/src/ops.rs] *)

Definition opseq : Type := list rpn.

(** pigeons/src/ops.rs:294-323 [Add] of operation sequences; an empty operand is dropped *)
Definition seq_add (a b : opseq) : opseq :=
  match a, b with
  | [], _ => b
  | _, [] => a
  | _, _ => a ++ b ++ [OAdd]
  end.

(** pigeons/src/ops.rs:133-138, 284-287 [OperationLike::saturate] *)
Definition seq_sat (a : opseq) : opseq := match a with [] => [] | _ => a ++ [OSat] end.

(** ** Constraints as they are written to the proof *)

(** src/types/constraints.rs:1657-1710 [ConstraintLike for PbConstraint]; [None] is the panic for equalities *)
Definition pb_raw (c : pb) : option raw :=
  match p_kind c with
  | KUb => Some (map (fun '(l, w) => (neg l, Z.of_nat w)) (p_lits c), (Z.of_nat (p_wsum c) - p_b c)%Z)
  | KLb => Some (map (fun '(l, w) => (l, Z.of_nat w)) (p_lits c), p_b c)
  | KEq => None
  end.

(** src/types/constraints.rs:928-980 [ConstraintLike for CardConstraint] *)
Definition card_raw (c : card) : option raw :=
  match c_kind c with
  | KUb => Some (map (fun l => (neg l, 1%Z)) (c_lits c), (Z.of_nat (length (c_lits c)) - Z.of_nat (c_b c))%Z)
  | KLb => Some (map (fun l => (l, 1%Z)) (c_lits c), Z.of_nat (c_b c))
  | KEq => None
  end.

(** ** The state of a certified call *)

(** src/encodings/totdb/cert.rs:1203-1211 [SemDefs] *)
Record semdefs : Type := mkSem { sd_if : option nat; sd_only_if : option nat }.
(** src/encodings/totdb/cert.rs [SemDefType] *)
Inductive semtype : Type := TIf | TOnlyIf.
(** src/encodings/totdb/cert.rs [SemDefinition] *)
Inductive semdef : Type := DNone | DId (i : nat) | DAx (l : lit).

(** [semantic_defs], a hash map from [SemDefId] (node and value; offset zero and no limit) *)
Definition deftab : Type := list (nat * nat * semdefs).
Fixpoint defs_get (ds : deftab) (id val : nat) : option semdefs :=
  match ds with
  | [] => None
  | (i, v, d) :: ds' => if (i =? id) && (v =? val) then Some d else defs_get ds' id val
  end.

(** The database, variable manager and collector ([tst]), the identifiers of the clauses collected, the semantic definitions,
    the identifier the proof gives next, and the proof steps written. *)
Record cst : Type := mkC { c_t : tst; c_ids : list nat; c_defs : deftab; c_pid : nat; c_log : list pstep }.

Definition with_t (k : cst) (t : tst) : cst := mkC t (c_ids k) (c_defs k) (c_pid k) (c_log k).

(** a step that derives a constraint; pigeons/src/lib.rs: identifiers are consecutive *)
Definition write (k : cst) (s : pstep) : nat * cst :=
  (c_pid k, mkC (c_t k) (c_ids k) (c_defs k) (S (c_pid k)) (c_log k ++ [s])).

(** pigeons/src/lib.rs:331-343 [Proof::operations]; writing an empty sequence panics *)
Definition write_ops (k : cst) (ops : opseq) : option (nat * cst) :=
  match ops with [] => None | _ => Some (write k (SPol ops)) end.

(** [collector.add_cert_clause] *)
Definition collect (k : cst) (c : clause) (i : nat) : cst :=
  mkC (emit (c_t k) [c]) (c_ids k ++ [i]) (c_defs k) (c_pid k) (c_log k).

(** src/encodings/totdb/cert.rs:1223-1228 [SemDefs::get]; [unwrap] panics *)
Definition sem_get (d : semdefs) (ty : semtype) : option nat :=
  match ty with TIf => sd_if d | TOnlyIf => sd_only_if d end.

(** [Index<usize> for Node], src/encodings/totdb/mod.rs:1091-1099: the output literal for a value; [None] is a panic *)
Definition node_lit (n : node) (val : nat) : option lit :=
  match n with
  | NLeaf l => if val =? 1 then Some l else None
  | NUnit lits _ _ => if val =? 0 then None else do d <- nth_error lits (val - 1); ld_lit d
  | NGeneral lits _ _ _ => do d <- lit_data lits val; ld_lit d
  | NDummy => None
  end.

(** src/encodings/totdb/cert.rs:106-158 [define_real_semantics] *)
Definition define_real_semantics (k : cst) (id value : nat) (leaves : list (lit * nat)) : option (semdefs * cst) :=
  let sum := pb_new_unsigned KLb leaves (Z.of_nat value) in
  do n <- nth_error (t_nodes (c_t k)) id;
  do r <-
    (if value =? 0 then
       do c <- pb_raw sum;
       let '(j, k1) := write k (SRed c []) in Some (mkSem None (Some j), k1)
     else if node_max_val n <? value then
       do c <- pb_raw (pb_new_unsigned KLb (map (fun '(l, w) => (neg l, w)) leaves) 0);
       let '(i, k1) := write k (SRed c []) in Some (mkSem (Some i) None, k1)
     else
       do olit <- node_lit n value;
       do c1 <- pb_impl_lit sum olit;
       do r1 <- pb_raw c1;
       let '(i, k1) := write k (SRed r1 [(lvar olit, true)]) in
       do c2 <- lit_impl_pb olit sum;
       do r2 <- pb_raw c2;
       let '(j, k2) := write k1 (SRed r2 [(lvar olit, false)]) in
       Some (mkSem (Some i) (Some j), k2));
  let '(d, k') := r in
  do _ <- assertb (match defs_get (c_defs k') id value with None => true | Some _ => false end);
  Some (d, mkC (c_t k') (c_ids k') ((id, value, d) :: c_defs k') (c_pid k') (c_log k')).

(** src/encodings/totdb/cert.rs:38-104 [define_semantics] with offset zero and no length limit *)
Definition define_semantics (k : cst) (id value : nat) (ty : semtype) (leaves : list (lit * nat)) : option (semdef * cst) :=
  do n <- nth_error (t_nodes (c_t k)) id;
  do _ <- assertb (value <=? node_max_val n + 1);
  match defs_get (c_defs k) id value with
  | Some d => do i <- sem_get d ty; Some (DId i, k)
  | None =>
      if node_max_val n <=? 1 then
        match value, ty with
        | 0, TOnlyIf => do olit <- node_lit n 1; Some (DAx olit, k)
        | 2, TIf => do olit <- node_lit n 1; Some (DAx (neg olit), k)
        | _, _ => Some (DNone, k)
        end
      else
        do r <- define_real_semantics k id value leaves;
        let '(d, k') := r in
        do i <- sem_get d ty; Some (DId i, k')
  end.

(** src/encodings/totdb/cert.rs:1268-1315 [Add] for [SemDefinition] and for operation sequences *)
Definition def_seq (d : semdef) : opseq := match d with DNone => [] | DId i => [OId i] | DAx l => [OAx l] end.

(** ** Leaves *)

Definition plain_conb (con : nodecon) : bool :=
  (nc_offset con =? 0) && (nc_div con =? 1) && match nc_limit con with None => true | Some _ => false end.

(** src/encodings/nodedb.rs:730-905 [leaf_iter(id).lits()] (without the weights): the leaf literals from left to right. The
    iterator's trace is modelled by recursion, with [fuel] bounding the depth. *)
Fixpoint leaf_lits (fuel : nat) (ns : list node) (id : nat) : option (list lit) :=
  match fuel with
  | 0 => None
  | S f =>
      do n <- nth_error ns id;
      match n with
      | NLeaf l => Some [l]
      | NUnit _ l r =>
          do _ <- assertb (plain_conb l && plain_conb r);
          do ls <- leaf_lits f ns (nc_id l);
          do rs <- leaf_lits f ns (nc_id r);
          Some (ls ++ rs)
      | _ => None
      end
  end.

(** src/encodings/totdb/mod.rs:837-845, 855-869 [n_leaves]: stored in the nodes by the code, here the number of leaves *)
Definition n_leaves (ns : list node) (id : nat) : option nat :=
  do ls <- leaf_lits (S (length ns)) ns id; Some (length ls).

Definition ones (ls : list lit) : list (lit * nat) := map (fun l => (l, 1)) ls.

(** ** Deriving the clauses of an output *)

(** [proof.operations(&(this + left + right).saturate())] and [collector.add_cert_clause] *)
Definition derive (k : cst) (this dl dr : semdef) (c : clause) : option cst :=
  do r <- write_ops k (seq_sat (seq_add (seq_add (def_seq this) (def_seq dl)) (def_seq dr)));
  let '(i, k') := r in Some (collect k' c i).

(** src/encodings/nodedb.rs:326-328 [rev_map_no_limit] *)
Definition nc_rev_map_no_limit (con : nodecon) (val : nat) : nat := val / nc_mult con * nc_div con + nc_offset con.

(** src/encodings/totdb/cert.rs:1029-1076: one iteration of the loop for the "if" semantics *)
Definition if_step (pre : upre) (id idx : nat) (olit : lit) (lleaves rleaves leaves : list lit) (k : cst) (lval : nat) : option cst :=
  let rval := idx + 1 - lval in
  do llits <- lit_slice (t_nodes (c_t k)) (nc_id (u_lcon pre));
  do rlits <- lit_slice (t_nodes (c_t k)) (nc_id (u_rcon pre));
  do c <- if_clause pre idx olit llits rlits lval;
  do r1 <- define_semantics k (nc_id (u_lcon pre)) (nc_rev_map_no_limit (u_lcon pre) lval) TOnlyIf (ones lleaves);
  let '(dl, k1) := r1 in
  do r2 <- define_semantics k1 (nc_id (u_rcon pre)) (nc_rev_map_no_limit (u_rcon pre) rval) TOnlyIf (ones rleaves);
  let '(dr, k2) := r2 in
  do r3 <- define_semantics k2 id (idx + 1) TIf (ones leaves);
  let '(this, k3) := r3 in
  derive k3 this dl dr c.

(** src/encodings/totdb/cert.rs:1077-1124: one iteration of the loop for the "only if" semantics *)
Definition only_if_step (pre : upre) (id idx : nat) (olit : lit) (lleaves rleaves leaves : list lit) (k : cst) (lval : nat) : option cst :=
  let rval := idx - lval in
  do llits <- lit_slice (t_nodes (c_t k)) (nc_id (u_lcon pre));
  do rlits <- lit_slice (t_nodes (c_t k)) (nc_id (u_rcon pre));
  do ll <- con_len (t_nodes (c_t k)) (u_lcon pre);
  do lr <- con_len (t_nodes (c_t k)) (u_rcon pre);
  do c <- only_if_clause pre idx olit llits rlits ll lr lval;
  do r1 <- define_semantics k (nc_id (u_lcon pre)) (nc_rev_map_no_limit (u_lcon pre) (lval + 1)) TIf (ones lleaves);
  let '(dl, k1) := r1 in
  do r2 <- define_semantics k1 (nc_id (u_rcon pre)) (nc_rev_map_no_limit (u_rcon pre) (rval + 1)) TIf (ones rleaves);
  let '(dr, k2) := r2 in
  do r3 <- define_semantics k2 id (idx + 1) TOnlyIf (ones leaves);
  let '(this, k3) := r3 in
  derive k3 this dl dr c.

(** src/encodings/totdb/cert.rs:988-1126 [encode_unweighted_cert] *)
Definition encode_unweighted_cert (k : cst) (id idx : nat) (olit : lit) (req : semantics) (pre : upre) (leaves : list lit) : option cst :=
  do n <- nth_error (t_nodes (c_t k)) id;
  do dat <- (match n with NUnit lits _ _ => nth_error lits idx | _ => None end);
  do _new <- ld_missing dat req;
  do st1 <- mark_unit (c_t k) id idx req;
  do _ <- assertb (plain_conb (u_lcon pre) && plain_conb (u_rcon pre));
  do nl <- n_leaves (t_nodes st1) (nc_id (u_lcon pre));
  do _ <- assertb (nl <=? length leaves);
  let lleaves := firstn nl leaves in
  let rleaves := skipn nl leaves in
  do k1 <- foldM (if_step pre id idx olit lleaves rleaves leaves) (u_left_if pre) (with_t k st1);
  foldM (only_if_step pre id idx olit lleaves rleaves leaves) (u_left_only_if pre) k1.

(** src/encodings/totdb/cert.rs:903-986 [recurse_unweighted_single_node] (the case without offset and limit), for a given
    function for the recursive calls; the leaf buffer and whether it is filled are threaded *)
Definition recurse_single (define : cst -> nat -> nat -> semantics -> list lit -> bool -> bool -> option (lit * cst * list lit * bool))
    (con : nodecon) (range : list nat) (sem : semantics) (k : cst) (leaves : list lit) (init : bool) : option (cst * list lit * bool) :=
  do _ <- assertb (plain_conb con);
  foldM (fun '(k, leaves, init) val =>
    do len <- con_len (t_nodes (c_t k)) con;
    match sem with
    | SIff => None
    | SIf =>
        if val =? 0 then Some (k, leaves, init)
        else do r <- define k (nc_id con) (con_idx (val - 1) con) sem leaves init true;
             let '(_, k', leaves', _) := r in Some (k', leaves', true)
    | SOnlyIf =>
        if val =? len then Some (k, leaves, init)
        else do r <- define k (nc_id con) (con_idx val con) sem leaves init true;
             let '(_, k', leaves', _) := r in Some (k', leaves', true)
    end) range (k, leaves, init).

(** src/encodings/totdb/cert.rs:1143-1196 [define_unweighted_cert] with [recurse_unweighted_cert] (836-901); the leaf buffer
    [leaves], [init]: it is filled, [need]: it has to be filled. The halves of the buffer are split off and joined again. The
    [todo!()] for nodes with a dummy child is [None]. *)
Fixpoint define_unweighted_cert (fuel : nat) (k : cst) (id idx : nat) (sem : semantics) (leaves : list lit) (init need : bool)
    : option (lit * cst * list lit * bool) :=
  match fuel with
  | 0 => None
  | S f =>
      do nlv <- n_leaves (t_nodes (c_t k)) id;
      do _ <- assertb (length leaves =? nlv);
      do outcome <- precond_unweighted (t_nodes (c_t k)) id idx sem;
      match outcome with
      | PReturn l =>
          if need && negb init then
            do new <- leaf_lits (S (length (t_nodes (c_t k)))) (t_nodes (c_t k)) id;
            do _ <- assertb (length leaves =? length new);
            Some (l, k, new, true)
          else Some (l, k, leaves, init)
      | PPass _ => None
      | PContinue pre =>
          do _ <- assertb (plain_conb (u_lcon pre) && plain_conb (u_rcon pre));
          do nl <- n_leaves (t_nodes (c_t k)) (nc_id (u_lcon pre));
          do _ <- assertb (nl <=? length leaves);
          do r1 <- recurse_single (define_unweighted_cert f) (u_lcon pre) (u_left_if pre) SIf k (firstn nl leaves) init;
          let '(k1, ll1, li1) := r1 in
          do r2 <- recurse_single (define_unweighted_cert f) (u_rcon pre) (u_right_if pre) SIf k1 (skipn nl leaves) init;
          let '(k2, rl2, ri2) := r2 in
          do r3 <- recurse_single (define_unweighted_cert f) (u_lcon pre) (u_left_only_if pre) SOnlyIf k2 ll1 li1;
          let '(k3, ll3, li3) := r3 in
          do r4 <- recurse_single (define_unweighted_cert f) (u_rcon pre) (u_right_only_if pre) SOnlyIf k3 rl2 ri2;
          let '(k4, rl4, ri4) := r4 in
          do _ <- assertb (li3 && ri4);
          let leaves' := ll3 ++ rl4 in
          do r5 <- get_olit (c_t k4) id idx;
          let '(olit, st5) := r5 in
          do k6 <- encode_unweighted_cert (with_t k4 st5) id idx olit sem pre leaves';
          Some (olit, k6, leaves', true)
      end
  end.

(** ** The certified totalizer *)

(** the totalizer with the semantic definitions of its database *)
Record ctot : Type := mkCt { ct_tot : tot; ct_defs : deftab }.
Definition ctot_new : ctot := mkCt tot_new [].
(** src/encodings/card/totalizer/mod.rs:375-407 *)
Definition ctot_from (ls : list lit) : ctot := mkCt (tot_from ls) [].

(** what an encoding call returns: the totalizer, the clauses, the next free variable, the identifiers of the clauses in the
    proof, the proof steps written and the identifier the proof gives next *)
Record cout : Type := mkOut { o_tot : ctot; o_cls : cnf; o_next : N; o_ids : list nat; o_log : list pstep; o_pid : nat }.

(** the part of the certified encoding calls after [extend_tree], src/encodings/card/totalizer/mod.rs:497-517, 602-621 *)
Definition define_root_cert (ct : ctot) (idxs : list nat) (sem : semantics) (next : N) (pid : nat) : option cout :=
  let t := ct_tot ct in
  match to_root t with
  | None => Some (mkOut ct [] next [] [] pid)
  | Some id =>
      let ns := d_nodes (to_db t) in
      do nl <- n_leaves ns id;
      do r <- foldM (fun '(k, leaves, init) idx =>
                       do r <- define_unweighted_cert (S (length (t_nodes (c_t k)))) k id idx sem leaves init false;
                       let '(_, k', leaves', init') := r in Some (k', leaves', init'))
                    idxs (mkC (mkTst ns next []) [] (ct_defs ct) pid [], repeat (pos 0) nl, false);
      let '(k, _, _) := r in
      let st := c_t k in
      Some (mkOut (mkCt (mkTot (to_buf t) (to_root t) (to_vars t + (t_next st - next)) (to_cls t + length (t_cls st))
                           (set_nodes_db (to_db t) (t_nodes st)) (to_off t) (to_add t)) (c_defs k))
                  (t_cls st) (t_next st) (c_ids k) (c_log k) (c_pid k))
  end.

(** src/encodings/card/totalizer/mod.rs:479-519 [encode_ub_change_cert] *)
Definition ct_ub_change (ct : ctot) (r : rng) (next : N) (pid : nat) : option cout :=
  let t := ct_tot ct in
  do n <- tot_n_lits t;
  let '(lo, hi) := prepare_ub_range n r in
  do _ <- assertb (to_off t <=? n);
  let hi := Nat.min hi (n - to_off t) in
  if hi <=? lo then Some (mkOut ct [] next [] [] pid)
  else do t1 <- extend_tree t;
       define_root_cert (mkCt t1 (ct_defs ct)) (map (fun idx => idx + to_off t1) (range_excl lo hi)) SIf next pid.

Definition ct_reset (ct : ctot) (s : semantics) : ctot := mkCt (tot_reset (ct_tot ct) s) (ct_defs ct).

(** src/encodings/card/totalizer/mod.rs:417-432 [encode_ub_cert] *)
Definition ct_ub (ct : ctot) (r : rng) (next : N) (pid : nat) : option cout := ct_ub_change (ct_reset ct SIf) r next pid.

(** src/encodings/card/totalizer/mod.rs:584-624 [encode_lb_change_cert] *)
Definition ct_lb_change (ct : ctot) (r : rng) (next : N) (pid : nat) : option cout :=
  let t := ct_tot ct in
  do n <- tot_n_lits t;
  let '(lo, hi) := prepare_lb_range n r in
  do _ <- assertb (to_off t <=? n);
  let hi := Nat.min hi (n - to_off t + 1) in
  if hi <=? lo then Some (mkOut ct [] next [] [] pid)
  else do t1 <- extend_tree t;
       define_root_cert (mkCt t1 (ct_defs ct)) (map (fun idx => idx - 1 + to_off t1) (range_excl lo hi)) SOnlyIf next pid.

(** src/encodings/card/totalizer/mod.rs:522-537 [encode_lb_cert] *)
Definition ct_lb (ct : ctot) (r : rng) (next : N) (pid : nat) : option cout := ct_lb_change (ct_reset ct SOnlyIf) r next pid.

(** src/encodings/card/totalizer/mod.rs:627-645 [encode_both_cert] (also the default [encode_both_change_cert],
    src/encodings/card/cert.rs:239-256) *)
Definition ct_both (ct : ctot) (r : rng) (next : N) (pid : nat) : option cout :=
  do o1 <- ct_ub_change ct r next pid;
  do o2 <- ct_lb_change (o_tot o1) r (o_next o1) (o_pid o1);
  Some (mkOut (o_tot o2) (o_cls o1 ++ o_cls o2) (o_next o2) (o_ids o1 ++ o_ids o2) (o_log o1 ++ o_log o2) (o_pid o2)).

(** extending and reserving do not concern the proof *)
Definition ct_extend (ct : ctot) (ls : list lit) : ctot := mkCt (tot_extend (ct_tot ct) ls) (ct_defs ct).
Definition ct_reserve (ct : ctot) (next : N) : option (ctot * N) :=
  do r <- tot_reserve (ct_tot ct) next; let '(t, n) := r in Some (mkCt t (ct_defs ct), n).

(** ** Single constraints *)

(** src/encodings/card/totalizer/mod.rs:121-134 [output_proof_details] with [expect]: an output that is not defined panics;
    [get_semantics], src/encodings/totdb/cert.rs:342-351 *)
Definition output_proof_details (ct : ctot) (value : nat) : option (lit * semdefs) :=
  let t := ct_tot ct in
  do root <- to_root t;
  do _ <- assertb (to_off t =? 0);
  do d <- defs_get (ct_defs ct) root value;
  do n <- nth_error (d_nodes (to_db t)) root;
  do l <- node_lit n value;
  Some (l, d).

(** the unit clause enforcing a bound: [(id + def).saturate()] *)
Definition unit_step (o : cout) (id def : nat) (l : lit) : cout :=
  mkOut (o_tot o) (o_cls o ++ [[l]]) (o_next o) (o_ids o ++ [o_pid o])
    (o_log o ++ [SPol (seq_sat (seq_add [OId id] [OId def]))]) (S (o_pid o)).

Section Del.
(** the order in which the hash map of definitions is iterated *)
Variable ord : list nat -> list nat.

(** src/encodings/totdb/cert.rs:394-406 [delete_semantics] *)
Definition def_ids (ds : deftab) : list nat :=
  flat_map (fun '(_, _, d) => (match sd_if d with Some i => [i] | None => [] end) ++ (match sd_only_if d with Some i => [i] | None => [] end)) ds.
Definition delete_semantics (o : cout) : cout :=
  mkOut (mkCt (ct_tot (o_tot o)) []) (o_cls o) (o_next o) (o_ids o)
    (o_log o ++ [SDel (ord (def_ids (ct_defs (o_tot o))))]) (o_pid o).

(** src/encodings/card/totalizer/mod.rs:434-475 [encode_ub_constr_cert] *)
Definition ub_constr_cert (ls : list lit) (ub id : nat) (next : N) (pid : nat) : option cout :=
  if length ls <? ub then Some (mkOut (ctot_from []) [] next [] [] pid)
  else
    do o <- ct_ub (ctot_from ls) (Incl ub, Incl ub) next pid;
    do r <- output_proof_details (o_tot o) (ub + 1);
    let '(olit, d) := r in
    do j <- sd_only_if d;
    Some (delete_semantics (unit_step o id j (neg olit))).

(** src/encodings/card/totalizer/mod.rs:539-580 [encode_lb_constr_cert]; the inner [None] is the error [Unsat] *)
Definition lb_constr_cert (ls : list lit) (lb id : nat) (next : N) (pid : nat) : option (option cout) :=
  if length ls <? lb then Some None
  else
    do o <- ct_lb (ctot_from ls) (Incl lb, Incl lb) next pid;
    do r <- output_proof_details (o_tot o) lb;
    let '(olit, d) := r in
    do i <- sd_if d;
    Some (Some (delete_semantics (unit_step o id i olit))).

(** src/encodings/card/totalizer/mod.rs:647-698 [encode_eq_constr_cert] *)
Definition eq_constr_cert (ls : list lit) (b id : nat) (next : N) (pid : nat) : option (option cout) :=
  if length ls <? b then Some None
  else
    do o <- ct_both (ctot_from ls) (Incl b, Incl b) next pid;
    do r <- output_proof_details (o_tot o) (b + 1);
    let '(olit, d) := r in
    do j <- sd_only_if d;
    let o1 := unit_step o (id + 1) j (neg olit) in
    do r2 <- output_proof_details (o_tot o1) b;
    let '(olit2, d2) := r2 in
    do i <- sd_if d2;
    Some (Some (delete_semantics (unit_step o1 id i olit2))).

(** src/encodings/card/cert.rs:152-176 [encode_constr_cert] *)
Definition constr_cert (c : card) (id : nat) (next : N) (pid : nat) : option (option cout) :=
  match c_kind c with
  | KUb => do o <- ub_constr_cert (c_lits c) (c_b c) id next pid; Some (Some o)
  | KLb => lb_constr_cert (c_lits c) (c_b c) id next pid
  | KEq => eq_constr_cert (c_lits c) (c_b c) id next pid
  end.

(** clauses derived by unit propagation from one constraint, [proof.reverse_unit_prop(&clause, [id])], pigeons/src/lib.rs:353-380 *)
Definition rup_clauses (cs : cnf) (id : nat) (next : N) (pid : nat) : cout :=
  mkOut (ctot_from []) cs next (seq pid (length cs)) (map (fun c => SRup c id) cs) (pid + length cs).

(** src/encodings/card/cert.rs:326-377 [encode_cardinality_constraint] with the totalizer (also
    [default_encode_cardinality_constraint], 312-322); [unreachable!] is a panic *)
Definition encode_cardinality_constraint_cert (c : card) (id : nat) (next : N) (pid : nat) : option cout :=
  if card_is_tautology c then Some (mkOut (ctot_from []) [] next [] [] pid)
  else if card_is_unsat c then Some (rup_clauses [[]] id next pid)
  else if card_is_positive_assignment c then Some (rup_clauses (map (fun l => [l]) (c_lits c)) id next pid)
  else if card_is_negative_assignment c then
    let id := match c_kind c with KEq => id + 1 | _ => id end in
    Some (rup_clauses (map (fun l => [neg l]) (c_lits c)) id next pid)
  else if card_is_clause c then
    do cl <- card_into_clause c;
    Some (rup_clauses [cl] id next pid)
  else
    do r <- constr_cert c id next pid;
    r.
End Del.
