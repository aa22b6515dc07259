(** * Model of the totalizer database operations, [src/encodings/totdb/mod.rs]

    The operations thread a state: the nodes, the next free variable of the variable manager, and the
    clauses collected so far. [None] is a panic. *)

From Coq Require Import List Bool NArith ZArith.
From Verif Require Import Spec Types Atomics NodeDb.
Import ListNotations.

Record tst : Type := mkTst { t_nodes : list node; t_next : N; t_cls : cnf }.

Definition emit (st : tst) (cs : cnf) : tst := mkTst (t_nodes st) (t_next st) (t_cls st ++ cs).
Definition set_nodes (st : tst) (ns : list node) : tst := mkTst ns (t_next st) (t_cls st).

(** src/encodings/totdb/mod.rs:20-22 [con_idx]; the subtraction cannot underflow for multiplier 1, which
    [precond_unweighted] asserts *)
Definition con_idx (idx : nat) (con : nodecon) : nat := (nc_rev_map con (idx + 1) - 1)%nat.

(** src/encodings/totdb/mod.rs:711-725 *)
Record upre : Type := mkPre { u_lcon : nodecon; u_rcon : nodecon;
  u_left_if : list nat; u_right_if : list nat; u_left_only_if : list nat; u_right_only_if : list nat }.
Inductive precond_outcome : Type := PReturn (l : lit) | PContinue (p : upre) | PPass (con : nodecon).

(** src/encodings/totdb/mod.rs:270-356 [precond_unweighted] *)
Definition precond_unweighted (nodes : list node) (id idx : nat) (req : semantics) : option precond_outcome :=
  do n <- nth_error nodes id;
  do _ <- assertb (idx <? node_max_val n)%nat;
  match n with
  | NLeaf l => do _ <- assertb (idx =? 0)%nat; Some (PReturn l)
  | NUnit lits lcon rcon =>
      do ln <- nth_error nodes (nc_id lcon);
      do rn <- nth_error nodes (nc_id rcon);
      do _ <- assertb (negb (is_general ln) && negb (is_general rn));
      do _ <- assertb ((nc_mult lcon =? 1) && (nc_mult rcon =? 1))%nat;
      do dat <- nth_error lits idx;
      match ld_missing dat req with
      | None => match dat with LLit l _ => Some (PReturn l) | LNone => None end
      | Some new =>
          if is_dummy ln || is_dummy rn then
            let realcon := if is_dummy ln then rcon else lcon in
            do _ <- assertb (negb (is_dummy (if is_dummy ln then rn else ln)));
            Some (PPass realcon)
          else
            do ll <- con_len nodes lcon;
            do lr <- con_len nodes rcon;
            let lmax := Nat.min ll (idx + 1) in
            let rmax := Nat.min lr (idx + 1) in
            let lomax := Nat.min ll idx in
            let romax := Nat.min lr idx in
            Some (PContinue (mkPre lcon rcon
              (if has_if new then range_incl (idx + 1 - rmax) lmax else [])
              (if has_if new then range_incl (idx + 1 - lmax) rmax else [])
              (if has_only_if new then range_incl (idx - romax) lomax else [])
              (if has_only_if new then range_incl (idx - lomax) romax else [])))
      end
  | NGeneral _ _ _ _ => None
  | NDummy => None
  end.

(** src/encodings/totdb/mod.rs:359-414 [recurse_unweighted]: the recursive calls *)
Definition recurse_calls (nodes : list node) (pre : upre) : option (list (nat * nat * semantics)) :=
  do ll <- con_len nodes (u_lcon pre);
  do lr <- con_len nodes (u_rcon pre);
  Some (map (fun v => (nc_id (u_lcon pre), con_idx (v - 1) (u_lcon pre), SIf)) (filter (fun v => negb (v =? 0)%nat) (u_left_if pre)) ++
        map (fun v => (nc_id (u_rcon pre), con_idx (v - 1) (u_rcon pre), SIf)) (filter (fun v => negb (v =? 0)%nat) (u_right_if pre)) ++
        map (fun v => (nc_id (u_lcon pre), con_idx v (u_lcon pre), SOnlyIf)) (filter (fun v => negb (v =? ll)%nat) (u_left_only_if pre)) ++
        map (fun v => (nc_id (u_rcon pre), con_idx v (u_rcon pre), SOnlyIf)) (filter (fun v => negb (v =? lr)%nat) (u_right_only_if pre))).

(** src/encodings/totdb/mod.rs:417-425 [get_olit] *)
Definition get_olit (st : tst) (id idx : nat) : option (lit * tst) :=
  do n <- nth_error (t_nodes st) id;
  match n with
  | NUnit lits l r =>
      do dat <- nth_error lits idx;
      match dat with
      | LLit ol _ => Some (ol, st)
      | LNone =>
          let ol := pos (t_next st) in
          Some (ol, mkTst (upd id (NUnit (upd idx (LLit ol None) lits) l r) (t_nodes st)) (t_next st + 1)%N (t_cls st))
      end
  | _ => None
  end.

(** [self[id].mut_unit().lits[idx].add_semantics(sem)] *)
Definition mark_unit (st : tst) (id idx : nat) (sem : semantics) : option tst :=
  do n <- nth_error (t_nodes st) id;
  match n with
  | NUnit lits l r =>
      do dat <- nth_error lits idx;
      do dat' <- ld_add dat sem;
      Some (set_nodes st (upd id (NUnit (upd idx dat' lits) l r) (t_nodes st)))
  | _ => None
  end.

(** src/encodings/totdb/mod.rs:26-37 the macro [get_lit_slice] *)
Definition lit_slice (nodes : list node) (id : nat) : option (list litdata) :=
  do n <- nth_error nodes id;
  match n with
  | NLeaf l => Some [LLit l None]
  | NUnit lits _ _ => Some lits
  | _ => None
  end.

Definition slice_lit (slice : list litdata) (i : nat) : option lit :=
  do d <- nth_error slice i; ld_lit d.

(** src/encodings/totdb/mod.rs:461-477: one clause of the "if" semantics *)
Definition if_clause (pre : upre) (idx : nat) (olit : lit) (llits rlits : list litdata) (lval : nat) : option clause :=
  let rval := (idx + 1 - lval)%nat in
  do lhs1 <- (if (0 <? lval)%nat then do l <- slice_lit llits (con_idx (lval - 1) (u_lcon pre)); Some [l] else Some []);
  do lhs2 <- (if (0 <? rval)%nat then do l <- slice_lit rlits (con_idx (rval - 1) (u_rcon pre)); Some [l] else Some []);
  Some (cube_impl_lit (lhs1 ++ lhs2) olit).

(** src/encodings/totdb/mod.rs:480-495: one clause of the "only if" semantics *)
Definition only_if_clause (pre : upre) (idx : nat) (olit : lit) (llits rlits : list litdata) (ll lr lval : nat) : option clause :=
  let rval := (idx - lval)%nat in
  do lhs1 <- (if (lval <? ll)%nat then do l <- slice_lit llits (con_idx lval (u_lcon pre)); Some [neg l] else Some []);
  do lhs2 <- (if (rval <? lr)%nat then do l <- slice_lit rlits (con_idx rval (u_rcon pre)); Some [neg l] else Some []);
  Some (cube_impl_lit (lhs1 ++ lhs2) (neg olit)).

(** src/encodings/totdb/mod.rs:432-499 [encode_unweighted] *)
Definition encode_unweighted (st : tst) (id idx : nat) (olit : lit) (req : semantics) (pre : upre) : option tst :=
  do n <- nth_error (t_nodes st) id;
  do dat <- (match n with NUnit lits _ _ => nth_error lits idx | _ => None end);
  do _new <- ld_missing dat req;
  do st1 <- mark_unit st id idx req;
  do llits <- lit_slice (t_nodes st1) (nc_id (u_lcon pre));
  do rlits <- lit_slice (t_nodes st1) (nc_id (u_rcon pre));
  do ll <- con_len (t_nodes st1) (u_lcon pre);
  do lr <- con_len (t_nodes st1) (u_rcon pre);
  do c1 <- mapM (if_clause pre idx olit llits rlits) (u_left_if pre);
  do c2 <- mapM (only_if_clause pre idx olit llits rlits ll lr) (u_left_only_if pre);
  Some (emit st1 (c1 ++ c2)).

(** src/encodings/totdb/mod.rs:509-549 [define_unweighted]; [fuel] bounds the recursion depth and running out of it
    is [None] *)
Fixpoint define_unweighted (fuel : nat) (st : tst) (id idx : nat) (sem : semantics) : option (lit * tst) :=
  match fuel with
  | O => None
  | S f =>
      do outcome <- precond_unweighted (t_nodes st) id idx sem;
      match outcome with
      | PReturn l => Some (l, st)
      | PPass con =>
          do r <- define_unweighted f st (nc_id con) (con_idx idx con) sem;
          let '(ilit, st1) := r in
          do r2 <- get_olit st1 id idx;
          let '(olit, st2) := r2 in
          do st3 <- mark_unit (emit st2 [lit_impl_lit ilit olit]) id idx sem;
          Some (olit, st3)
      | PContinue pre =>
          do calls <- recurse_calls (t_nodes st) pre;
          do st1 <- foldM (fun s '(i, x, sm) => do r <- define_unweighted f s i x sm; Some (snd r)) calls st;
          do r2 <- get_olit st1 id idx;
          let '(olit, st2) := r2 in
          do st3 <- encode_unweighted st2 id idx olit sem pre;
          Some (olit, st3)
      end
  end.

(** src/encodings/totdb/mod.rs:1207-1214 [GeneralNode::lit_data]; the binary search is modelled by a linear one *)
Fixpoint lit_data (lits : list (nat * litdata)) (val : nat) : option litdata :=
  match lits with
  | [] => None
  | (v, d) :: lits' => if (v =? val)%nat then Some d else lit_data lits' val
  end.

(** writing through src/encodings/totdb/mod.rs:1226-1232 [lit_data_mut] *)
Fixpoint lit_data_set (lits : list (nat * litdata)) (val : nat) (d : litdata) : list (nat * litdata) :=
  match lits with
  | [] => []
  | (v, d0) :: lits' => if (v =? val)%nat then (v, d) :: lits' else (v, d0) :: lit_data_set lits' val d
  end.

(** src/encodings/totdb/mod.rs:197-205: the output literal of a general node, reserving one if needed *)
Definition get_olit_general (st : tst) (id val : nat) : option (lit * tst) :=
  do n <- nth_error (t_nodes st) id;
  match n with
  | NGeneral lits m l r =>
      do dat <- lit_data lits val;
      match dat with
      | LLit ol _ => Some (ol, st)
      | LNone =>
          let ol := pos (t_next st) in
          Some (ol, mkTst (upd id (NGeneral (lit_data_set lits val (LLit ol None)) m l r) (t_nodes st)) (t_next st + 1)%N (t_cls st))
      end
  | _ => None
  end.

(** src/encodings/totdb/mod.rs:257-258 *)
Definition mark_general (st : tst) (id val : nat) : option tst :=
  do n <- nth_error (t_nodes st) id;
  match n with
  | NGeneral lits m l r =>
      do dat <- lit_data lits val;
      do dat' <- ld_add dat SIf;
      Some (set_nodes st (upd id (NGeneral (lit_data_set lits val dat') m l r) (t_nodes st)))
  | _ => None
  end.

Definition max_val_at (nodes : list node) (id : nat) : option nat :=
  do n <- nth_error nodes id; Some (node_max_val n).

(** src/encodings/totdb/mod.rs:142-267 [define_weighted]; the inner [option] is the code's result *)
Fixpoint define_weighted (fuel : nat) (st : tst) (id val : nat) : option (option lit * tst) :=
  match fuel with
  | O => None
  | S f =>
      do n <- nth_error (t_nodes st) id;
      do _ <- assertb ((val <=? node_max_val n) && (0 <? val))%nat;
      match n with
      | NLeaf l => do _ <- assertb (val =? 1)%nat; Some (Some l, st)
      | NUnit lits _ _ =>
          if (length lits <? val)%nat || (val =? 0)%nat then Some (None, st)
          else do r <- define_unweighted fuel st id (val - 1) SIf;
               let '(l, st') := r in Some (Some l, st')
      | NGeneral lits _ lcon rcon =>
          match lit_data lits val with
          | None => Some (None, st)
          | Some dat =>
              match ld_has_if dat with
              | Some l => Some (Some l, st)
              | None =>
                  do r0 <- get_olit_general st id val;
                  let '(olit, st0) := r0 in
                  (* propagate sums *)
                  do st1 <-
                    (if (nc_map lcon (nc_offset lcon + 1) <? val)%nat then
                       do ln <- nth_error (t_nodes st0) (nc_id lcon);
                       do rmax <- max_val_at (t_nodes st0) (nc_id rcon);
                       foldM (fun s lval =>
                         do _ <- assertb (nc_map lcon lval <? val)%nat;
                         let rval := (val - nc_map lcon lval)%nat in
                         let rval_rev := nc_rev_map rcon rval in
                         if nc_is_possible rcon rval && (rval_rev <=? rmax)%nat then
                           do rr <- define_weighted f s (nc_id rcon) rval_rev;
                           match rr with
                           | (None, s1) => Some s1
                           | (Some rlit, s1) =>
                               do _ <- assertb (match nc_limit lcon with None => true | Some _ => (nc_offset lcon + 1 =? lval)%nat end);
                               do lr <- define_weighted f s1 (nc_id lcon) lval;
                               match lr with
                               | (None, _) => None
                               | (Some llit, s2) => Some (emit s2 [cube_impl_lit [llit; rlit] olit])
                               end
                           end
                         else Some s)
                         (node_vals ln (nc_offset lcon + 1) (Some (nc_rev_map_round_up lcon val))) st0
                     else Some st0);
                  (* propagate value *)
                  do st2 <-
                    (do lmax <- max_val_at (t_nodes st1) (nc_id lcon);
                     if nc_is_possible lcon val && (nc_rev_map lcon val <=? lmax)%nat then
                       do lr <- define_weighted f st1 (nc_id lcon) (nc_rev_map lcon val);
                       match lr with
                       | (None, s) => Some s
                       | (Some llit, s) => Some (emit s [lit_impl_lit llit olit])
                       end
                     else Some st1);
                  do st3 <-
                    (do rmax <- max_val_at (t_nodes st2) (nc_id rcon);
                     if nc_is_possible rcon val && (nc_rev_map rcon val <=? rmax)%nat then
                       do rr <- define_weighted f st2 (nc_id rcon) (nc_rev_map rcon val);
                       match rr with
                       | (None, s) => Some s
                       | (Some rlit, s) => Some (emit s [lit_impl_lit rlit olit])
                       end
                     else Some st2);
                  do st4 <- mark_general st3 id val;
                  Some (Some olit, st4)
              end
          end
      | NDummy => Some (None, st)
      end
  end.

(** src/encodings/totdb/mod.rs:588-605 [reset_encoded] *)
Definition reset_node (s : semantics) (n : node) : node :=
  match n with
  | NUnit lits l r => NUnit (map (fun d => ld_remove d s) lits) l r
  | NGeneral lits m l r => NGeneral (map (fun '(v, d) => (v, ld_remove d s)) lits) m l r
  | _ => n
  end.
Definition reset_encoded (nodes : list node) (s : semantics) : list node := map (reset_node s) nodes.

(** src/encodings/totdb/mod.rs:1006-1057 [Node::reserve_vars]: the outputs with the given values get a variable if they
    have none. Modelled with the same step as [get_olit], one output at a time, in the order of the code. *)
Definition reserve_val (st : tst) (id val : nat) : option tst :=
  do n <- nth_error (t_nodes st) id;
  match n with
  | NUnit _ _ _ => if (val =? 0)%nat then Some st else do r <- get_olit st id (val - 1); Some (snd r)
  | NGeneral _ _ _ _ => do r <- get_olit_general st id val; Some (snd r)
  | _ => Some st
  end.

(** src/encodings/totdb/mod.rs:567-583: the values whose outputs a connection reserves *)
Definition reserve_vals (n : node) (con : nodecon) : list nat :=
  if (nc_div con =? 1)%nat then
    match nc_limit con with
    | Some k => firstn k (node_vals n (nc_offset con) None)
    | None => node_vals n (nc_offset con) None
    end
  else filter (fun v => (nc_offset con <=? v)%nat && ((v - nc_offset con) mod nc_div con =? 0)%nat) (node_vals n 0 None).

(** src/encodings/totdb/mod.rs:549-584 [Db::reserve_vars] *)
Fixpoint reserve_vars (fuel : nat) (st : tst) (con : nodecon) : option tst :=
  match fuel with
  | O => None
  | S f =>
      do n <- nth_error (t_nodes st) (nc_id con);
      match n with
      | NLeaf _ | NDummy => Some st
      | NUnit _ l r | NGeneral _ _ l r =>
          do st1 <- reserve_vars f st l;
          do st2 <- reserve_vars f st1 r;
          do _ <- assertb ((nc_div con =? 1)%nat || negb (is_general n));
          foldM (fun s v => reserve_val s (nc_id con) v) (reserve_vals n con) st2
      end
  end.
