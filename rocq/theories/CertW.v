(** * Model of the certified generalized totalizer: the weighted part of [src/encodings/totdb/cert.rs],
      [src/encodings/pb/gte/mod.rs] 391-530 and [src/encodings/pb/cert.rs]

    As in [Cert]: the proof is the list of its steps, and connections with an offset or a length limit are not modelled. *)

From Coq Require Import List Bool NArith ZArith Arith.
From Verif Require Import Spec BoundSpec Types Constraints Maps Atomics NodeDb TreeSpec TotDb Totalizer Gte Simulators CertSpec Cert.
Import ListNotations.
Open Scope nat_scope.

(** ** Operation sequences *)

(** pigeons/src/ops.rs:164-178 [Mul<usize> for OperationSequence] *)
Definition seq_mul (a : opseq) (n : nat) : opseq :=
  match n, a with
  | 0, _ => []
  | _, [] => []
  | 1, _ => a
  | _, _ => a ++ [OMul n]
  end.

(** pigeons/src/ops.rs:202-213 [Div<usize> for OperationSequence]; dividing by zero panics *)
Definition seq_div (a : opseq) (n : nat) : option opseq :=
  match a, n with
  | [], _ => Some []
  | _, 0 => None
  | _, _ => Some (a ++ [ODiv n])
  end.

(** ** Leaves with weights *)

(** src/encodings/nodedb.rs:730-905 [leaf_iter(id).lits()]: the leaves from left to right with the product of the multipliers
    on the way to them; [fuel] bounds the depth *)
Fixpoint leaf_wlits (fuel : nat) (ns : list node) (id : nat) : option (list (lit * nat)) :=
  match fuel with
  | 0 => None
  | S f =>
      do n <- nth_error ns id;
      match n with
      | NLeaf l => Some [(l, 1)]
      | NUnit _ l r | NGeneral _ _ l r =>
          do _ <- assertb (plain_conb l && plain_conb r);
          do ls <- leaf_wlits f ns (nc_id l);
          do rs <- leaf_wlits f ns (nc_id r);
          Some (scale (nc_mult l) ls ++ scale (nc_mult r) rs)
      | NDummy => None
      end
  end.

(** [n_leaves] as stored in the nodes *)
Definition n_wleaves (ns : list node) (id : nat) : option nat :=
  do ls <- leaf_wlits (S (length ns)) ns id; Some (length ls).

(** src/encodings/totdb/cert.rs:815-832 [populate_weighted_leaves] without offset and limit *)
Definition populate (k : cst) (id : nat) : option (list (lit * nat)) :=
  leaf_wlits (S (length (t_nodes (c_t k)))) (t_nodes (c_t k)) id.

Definition unscale (m : nat) (ls : list (lit * nat)) : list (lit * nat) := map (fun '(l, w) => (l, w / m)) ls.

(** ** Defining an output of a weighted node *)

(** src/encodings/totdb/cert.rs:556-606, 632-680, 705-755: the definitions of the two children (for values [lval] and [rval])
    and of the node itself, and the derivation of the clause *)
Definition wstep (id val : nat) (lcon rcon : nodecon) (k : cst) (lval rval : nat) (lls rls : list (lit * nat)) (c : clause) : option cst :=
  do r1 <- define_semantics k (nc_id lcon) lval TOnlyIf lls;
  let '(dl, k1) := r1 in
  do r2 <- define_semantics k1 (nc_id rcon) rval TOnlyIf rls;
  let '(dr, k2) := r2 in
  do r3 <- define_semantics k2 id val TIf (scale (nc_mult lcon) lls ++ scale (nc_mult rcon) rls);
  let '(this, k3) := r3 in
  do r4 <- write_ops k3 (seq_sat (seq_add (seq_add (def_seq this) (seq_mul (def_seq dl) (nc_mult lcon))) (seq_mul (def_seq dr) (nc_mult rcon))));
  let '(i, k4) := r4 in
  Some (collect k4 c i).

(** what a call of [define_weighted_cert] returns: the literal and whether the leaf buffer is filled, the state, the buffer *)
Definition wres : Type := option (lit * bool) * cst * list (lit * nat).

Section Rec.
(** the recursive calls *)
Variable define : cst -> nat -> nat -> list (lit * nat) -> bool -> bool -> option wres.

(** src/encodings/totdb/cert.rs:766-804 [define_weighted_treat_pseudo_leaves] without offset and limit *)
Definition define_child (k : cst) (con : nodecon) (val : nat) (ls : list (lit * nat)) (init : bool) : option (option lit * cst * list (lit * nat)) :=
  do r <- define k (nc_id con) val ls init true;
  match r with
  | (None, k', ls') => Some (None, k', ls')
  | (Some (l, i), k', ls') => do _ <- assertb i; Some (Some l, k', ls')
  end.

(** the state of the derivation: the halves of the leaf buffer, and which of them are filled *)
Definition wst : Type := cst * (list (lit * nat) * bool) * (list (lit * nat) * bool).

(** src/encodings/totdb/cert.rs:532-610: one iteration of the loop over the values of the left child *)
Definition sum_step (id val : nat) (olit : lit) (lcon rcon : nodecon) (rmax : nat) (s : wst) (lval : nat) : option wst :=
  let '(k, (lls, li), (rls, ri)) := s in
  do _ <- assertb (nc_map lcon lval <? val);
  let rval := val - nc_map lcon lval in
  let rrev := nc_rev_map rcon rval in
  if nc_is_possible rcon rval && (rrev <=? rmax) then
    do r <- define_child k rcon rrev rls ri;
    match r with
    | (None, k1, rls1) => Some (k1, (lls, li), (rls1, ri))
    | (Some rlit, k1, rls1) =>
        do r2 <- define_child k1 lcon lval lls li;
        match r2 with
        | (None, _, _) => None
        | (Some llit, k2, lls2) =>
            do k3 <- wstep id val lcon rcon k2 lval (nc_rev_map_no_limit rcon rval) lls2 rls1 (cube_impl_lit [llit; rlit] olit);
            Some (k3, (lls2, true), (rls1, true))
        end
    end
  else Some s.

(** src/encodings/totdb/cert.rs:613-684: the value of the left child alone *)
Definition left_step (id val : nat) (olit : lit) (lcon rcon : nodecon) (s : wst) : option wst :=
  let '(k, (lls, li), (rls, ri)) := s in
  do lmax <- max_val_at (t_nodes (c_t k)) (nc_id lcon);
  if nc_is_possible lcon val && (nc_rev_map lcon val <=? lmax) then
    do r <- define_child k lcon (nc_rev_map lcon val) lls li;
    match r with
    | (None, k1, lls1) => Some (k1, (lls1, li), (rls, ri))
    | (Some llit, k1, lls1) =>
        do rls1 <- (if ri then Some rls else populate k1 (nc_id rcon));
        do _ <- assertb (length rls1 =? length rls);
        do k2 <- wstep id val lcon rcon k1 (nc_rev_map_no_limit lcon val) 0 lls1 rls1 (lit_impl_lit llit olit);
        Some (k2, (lls1, true), (rls1, true))
    end
  else Some s.

(** src/encodings/totdb/cert.rs:685-757: the value of the right child alone *)
Definition right_step (id val : nat) (olit : lit) (lcon rcon : nodecon) (s : wst) : option wst :=
  let '(k, (lls, li), (rls, ri)) := s in
  do rmax <- max_val_at (t_nodes (c_t k)) (nc_id rcon);
  if nc_is_possible rcon val && (nc_rev_map rcon val <=? rmax) then
    do r <- define_child k rcon (nc_rev_map rcon val) rls ri;
    match r with
    | (None, k1, rls1) => Some (k1, (lls, li), (rls1, ri))
    | (Some rlit, k1, rls1) =>
        do lls1 <- (if li then Some lls else populate k1 (nc_id lcon));
        do _ <- assertb (length lls1 =? length lls);
        do k2 <- wstep id val lcon rcon k1 0 (nc_rev_map_no_limit rcon val) lls1 rls1 (lit_impl_lit rlit olit);
        Some (k2, (lls1, true), (rls1, true))
    end
  else Some s.
End Rec.

(** src/encodings/totdb/cert.rs:408-764 [define_weighted_cert]; the halves of the leaf buffer are split off and joined again *)
Fixpoint define_weighted_cert (fuel : nat) (k : cst) (id val : nat) (leaves : list (lit * nat)) (init need : bool) : option wres :=
  match fuel with
  | 0 => None
  | S f =>
      do n <- nth_error (t_nodes (c_t k)) id;
      do _ <- assertb ((val <=? node_max_val n) && (0 <? val));
      match n with
      | NLeaf l =>
          do _ <- assertb (length leaves =? 1);
          do _ <- assertb (val =? 1);
          Some (Some (l, true), k, if init then leaves else [(l, 1)])
      | NUnit lits _ _ =>
          do nlv <- n_wleaves (t_nodes (c_t k)) id;
          do _ <- assertb (length leaves =? nlv);
          if (length lits <? val) || (val =? 0) then Some (None, k, leaves)
          else
            do r <- define_unweighted_cert fuel k id (val - 1) SIf (map fst leaves) init need;
            let '(l, k', ul, _) := r in
            if need && negb init then Some (Some (l, true), k', ones ul) else Some (Some (l, init), k', leaves)
      | NGeneral lits _ lcon rcon =>
          do nlv <- n_wleaves (t_nodes (c_t k)) id;
          do _ <- assertb (length leaves =? nlv);
          match lit_data lits val with
          | None => Some (None, k, leaves)
          | Some dat =>
              match ld_has_if dat with
              | Some l =>
                  if need && negb init then
                    do new <- populate k id;
                    do _ <- assertb (length leaves =? length new);
                    Some (Some (l, true), k, new)
                  else Some (Some (l, init), k, leaves)
              | None =>
                  do r0 <- get_olit_general (c_t k) id val;
                  let '(olit, st0) := r0 in
                  let k0 := with_t k st0 in
                  do _ <- assertb (plain_conb lcon && plain_conb rcon);
                  do nl <- n_wleaves (t_nodes (c_t k)) (nc_id lcon);
                  do _ <- assertb (nl <=? length leaves);
                  let lls := (if init then unscale (nc_mult lcon) (firstn nl leaves) else firstn nl leaves) in
                  let rls := (if init then unscale (nc_mult rcon) (skipn nl leaves) else skipn nl leaves) in
                  do s1 <-
                    (if nc_map lcon (nc_offset lcon + 1) <? val then
                       do ln <- nth_error (t_nodes st0) (nc_id lcon);
                       do rmax <- max_val_at (t_nodes st0) (nc_id rcon);
                       foldM (sum_step (define_weighted_cert f) id val olit lcon rcon rmax)
                         (node_vals ln (nc_offset lcon + 1) (Some (nc_rev_map_round_up lcon val))) (k0, (lls, init), (rls, init))
                     else Some (k0, (lls, init), (rls, init)));
                  do s2 <- left_step (define_weighted_cert f) id val olit lcon rcon s1;
                  do s3 <- right_step (define_weighted_cert f) id val olit lcon rcon s2;
                  let '(k3, (lls3, li3), (rls3, ri3)) := s3 in
                  do st4 <- mark_general (c_t k3) id val;
                  do _ <- assertb (negb need || (li3 && ri3));
                  Some (Some (olit, li3 && ri3), with_t k3 st4, scale (nc_mult lcon) lls3 ++ scale (nc_mult rcon) rls3)
              end
          end
      | NDummy => Some (None, k, leaves)
      end
  end.

(** ** The certified generalized totalizer *)

(** the encoding with the semantic definitions of its database *)
Record cgte : Type := mkCg { cg_gte : gte; cg_defs : deftab }.
Definition cgte_new : cgte := mkCg gte_new [].

(** what a call returns: the encoding, the clauses, the next free variable, the identifiers of the clauses in the proof, the proof
    steps written and the identifier the proof gives next *)
Record wout : Type := mkWout { wo_enc : cgte; wo_cls : cnf; wo_next : N; wo_ids : list nat; wo_log : list pstep; wo_pid : nat }.

(** the loop of src/encodings/pb/gte/mod.rs:498-518; [unwrap] panics on values the node does not have *)
Definition define_vals_cert (k : cst) (id : nat) (vals : list nat) (leaves : list (lit * nat)) : option cst :=
  do r <- foldM (fun '(k, ls, init) v =>
             do r <- define_weighted_cert (S (length (t_nodes (c_t k)))) k id v ls init false;
             match r with
             | (Some (_, i), k', ls') => Some (k', ls', i)
             | (None, _, _) => None
             end) vals (k, leaves, false);
  let '(k', _, _) := r in Some k'.

Section Order.
Context (ord : wmap -> wmap).

(** src/encodings/pb/gte/mod.rs:478-524 [encode_ub_change_cert] *)
Definition cg_ub_change (cg : cgte) (r : rng) (next : N) (pid : nat) : option wout :=
  let t := cg_gte cg in
  do ws <- gte_weight_sum t;
  let '(lo, hi) := prepare_ub_range ws r in
  if hi <=? lo then Some (mkWout cg [] next [] [] pid)
  else
    do t1 <- gte_extend_tree ord t (Some (hi - 1));
    match gt_root t1 with
    | None => Some (mkWout (mkCg t1 (cg_defs cg)) [] next [] [] pid)
    | Some con =>
        do n <- nth_error (d_nodes (gt_db t1)) (nc_id con);
        do nl <- n_wleaves (d_nodes (gt_db t1)) (nc_id con);
        do k <- define_vals_cert (mkC (mkTst (d_nodes (gt_db t1)) next []) [] (cg_defs cg) pid []) (nc_id con)
                  (node_vals n (nc_rev_map_round_up con (lo + 1)) (Some (nc_rev_map con (hi + gt_maxw t1) + 1)))
                  (repeat (pos 0, 0) nl);
        let st := c_t k in
        Some (mkWout (mkCg (mkGte (gt_buf t1) (gt_root t1) (gt_maxw t1) (gt_vars t1 + (t_next st - next)) (gt_cls t1 + length (t_cls st))
                (set_nodes_db (gt_db t1) (t_nodes st))) (c_defs k)) (t_cls st) (t_next st) (c_ids k) (c_log k) (c_pid k))
    end.

Definition cg_reset (cg : cgte) : cgte := mkCg (gte_reset (cg_gte cg)) (cg_defs cg).

(** src/encodings/pb/gte/mod.rs:392-406 [encode_ub_cert] *)
Definition cg_ub (cg : cgte) (r : rng) (next : N) (pid : nat) : option wout := cg_ub_change (cg_reset cg) r next pid.

(** extending and reserving do not concern the proof *)
Definition cg_extend (cg : cgte) (xs : list (lit * nat)) : cgte := mkCg (gte_extend (cg_gte cg) xs) (cg_defs cg).
Definition cg_reserve (cg : cgte) (next : N) : option (cgte * N) :=
  do r <- gte_reserve ord (cg_gte cg) next; let '(t, n) := r in Some (mkCg t (cg_defs cg), n).

(** src/encodings/pb/gte/mod.rs:135-158 [output_proof_details] with [expect] *)
Definition gte_output_details (cg : cgte) (value : nat) : option (lit * semdefs) :=
  let t := cg_gte cg in
  do con <- gt_root t;
  do _ <- assertb (nc_is_possible con value);
  do d <- defs_get (cg_defs cg) (nc_id con) (nc_rev_map con value);
  do n <- nth_error (d_nodes (gt_db t)) (nc_id con);
  do l <- node_lit n (nc_rev_map con value);
  Some (l, d).

(** src/encodings/pb/gte/mod.rs:440-472: the loop over the assumptions; the state is what has been returned so far, the identifier
    of the main constraint, and the value of the next output *)
Definition unit_loop (s : wout * nat * nat) (unit : lit) : option (wout * nat * nat) :=
  let '(o, id, val) := s in
  do r <- gte_output_details (wo_enc o) val;
  let '(olit, d) := r in
  if N.ltb (lvar unit) (lvar olit) then
    do weight <- map_get (gt_buf (cg_gte (wo_enc o))) (neg unit);
    let uid := wo_pid o in
    Some (mkWout (wo_enc o) (wo_cls o ++ [[unit]]) (wo_next o) (wo_ids o ++ [uid])
            (wo_log o ++ [SRup [unit] id; SPol (seq_add (seq_mul [OAx (neg unit)] weight) [OId id])]) (uid + 2), uid + 1, val)
  else
    do _ <- assertb (lit_eqb (neg unit) olit);
    do j <- sd_only_if d;
    do ops <- seq_div (seq_add [OId id] [OId j]) val;
    do val' <- gte_next_higher (cg_gte (wo_enc o)) val;
    let uid := wo_pid o in
    Some (mkWout (wo_enc o) (wo_cls o ++ [[unit]]) (wo_next o) (wo_ids o ++ [uid]) (wo_log o ++ [SPol ops]) (S uid), id, val').

(** the order in which the hash map of definitions is iterated *)
Variable dord : list nat -> list nat.

Definition wdelete_semantics (o : wout) : wout :=
  mkWout (mkCg (cg_gte (wo_enc o)) []) (wo_cls o) (wo_next o) (wo_ids o)
    (wo_log o ++ [SDel (dord (def_ids (cg_defs (wo_enc o))))]) (wo_pid o).

(** src/encodings/pb/gte/mod.rs:408-475 [encode_ub_constr_cert]; the inner [None] is the error [Unsat] *)
Definition gte_ub_constr_cert (c : pb) (id : nat) (next : N) (pid : nat) : option (option wout) :=
  if (p_b c <? 0)%Z then Some None
  else
    let ub := Z.abs_nat (p_b c) in
    if sum_weights (p_lits c) <? ub then Some (Some (mkWout cgte_new [] next [] [] pid))
    else
      do o <- cg_ub (mkCg (gte_from_iter (p_lits c)) []) (Incl ub, Incl ub) next pid;
      do val <- gte_next_higher (cg_gte (wo_enc o)) ub;
      do u <- gte_enforce_ub ord (cg_gte (wo_enc o)) ub;
      match u with
      | EOk us =>
          do r <- foldM unit_loop us (o, id, val);
          let '(o', _, _) := r in Some (Some (wdelete_semantics o'))
      | _ => None
      end.

(** src/encodings/pb/simulators.rs:266-288 [encode_lb_constr_cert] for [Inverted<GeneralizedTotalizer>] *)
Definition igte_lb_constr_cert (c : pb) (id : nat) (next : N) (pid : nat) : option (option wout) :=
  gte_ub_constr_cert (pb_invert c) id next pid.

(** what encoding a single constraint returns: the clauses, the next free variable, the identifiers of the clauses, the steps and the
    next identifier *)
Record kout : Type := mkKout { ko_cls : cnf; ko_next : N; ko_ids : list nat; ko_log : list pstep; ko_pid : nat }.
Definition of_wout (o : wout) : kout := mkKout (wo_cls o) (wo_next o) (wo_ids o) (wo_log o) (wo_pid o).
Definition of_cout (o : cout) : kout := mkKout (o_cls o) (o_next o) (o_ids o) (o_log o) (o_pid o).

(** src/encodings/pb/cert.rs:160-185 [encode_constr_cert] with [encode_eq_constr_cert] (132-152), for
    [Double<GeneralizedTotalizer, Inverted<GeneralizedTotalizer>>] (src/encodings/pb/simulators.rs:645-660, 716-735) *)
Definition pb_constr_cert (c : pb) (id : nat) (next : N) (pid : nat) : option (option kout) :=
  match p_kind c with
  | KUb => do r <- gte_ub_constr_cert c id next pid; Some (option_map of_wout r)
  | KLb => do r <- igte_lb_constr_cert c id next pid; Some (option_map of_wout r)
  | KEq =>
      let '(lbc, ubc) := pb_eq_split c in
      do r1 <- igte_lb_constr_cert lbc id next pid;
      match r1 with
      | None => Some None
      | Some o1 =>
          do r2 <- gte_ub_constr_cert ubc (id + 1) (wo_next o1) (wo_pid o1);
          match r2 with
          | None => Some None
          | Some o2 => Some (Some (mkKout (wo_cls o1 ++ wo_cls o2) (wo_next o2) (wo_ids o1 ++ wo_ids o2) (wo_log o1 ++ wo_log o2) (wo_pid o2)))
          end
      end
  end.

(** src/encodings/pb/cert.rs:336-404 [encode_pb_constraint] with the default encoding (also [default_encode_pb_constraint],
    323-334); [unreachable!] and [unreachable_err!] are panics *)
Definition encode_pb_constraint_cert (c : pb) (id : nat) (next : N) (pid : nat) : option kout :=
  if pb_is_tautology c then Some (mkKout [] next [] [] pid)
  else if pb_is_unsat c then Some (of_cout (rup_clauses [[]] id next pid))
  else if pb_is_positive_assignment c then Some (of_cout (rup_clauses (map (fun lw => [fst lw]) (p_lits c)) id next pid))
  else if pb_is_negative_assignment c then
    let id := match p_kind c with KEq => id + 1 | _ => id end in
    Some (of_cout (rup_clauses (map (fun lw => [neg (fst lw)]) (p_lits c)) id next pid))
  else if pb_is_clause c then
    do cl <- pb_into_clause c;
    Some (of_cout (rup_clauses [cl] id next pid))
  else if pb_is_card c then
    match pb_into_card_constr c with
    | TcOk cc => do o <- encode_cardinality_constraint_cert dord cc id next pid; Some (of_cout o)
    | _ => None
    end
  else
    do r <- pb_constr_cert c id next pid;
    r.

(** ** Lower bounds *)

(** src/encodings/pb/simulators.rs:246-268, 420-442 [encode_lb_cert] and [encode_lb_change_cert] for
    [Inverted<GeneralizedTotalizer>]. The code prepares the range with [prepare_ub_range]. *)
Definition ig_lb (s : cgte * nat) (r : rng) (next : N) (pid : nat) : option (cgte * nat * wout) :=
  do r' <- convert_encoding_range (snd s) (prepare_ub_range (snd s) r);
  do o <- cg_ub (fst s) r' next pid; Some (wo_enc o, snd s, o).
Definition ig_lb_change (s : cgte * nat) (r : rng) (next : N) (pid : nat) : option (cgte * nat * wout) :=
  do r' <- convert_encoding_range (snd s) (prepare_ub_range (snd s) r);
  do o <- cg_ub_change (fst s) r' next pid; Some (wo_enc o, snd s, o).
(** src/encodings/pb/simulators.rs:237-244 *)
Definition ig_enforce_lb (s : cgte * nat) (lb : nat) : option eres :=
  if lb <=? snd s then gte_enforce_ub ord (cg_gte (fst s)) (snd s - lb) else Some EUnsat.
End Order.
