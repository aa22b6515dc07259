(** * Model of the encoders that share a node database,
      [src/encodings/card/totalizer/referenced.rs] and [src/encodings/pb/gte/referenced.rs]

    [Tot] and [TotCell], and [Gte] and [GteCell], have the same code but for the way the database is borrowed; one model
    stands for both. The encoders hold nothing but a root and, for [Gte], the maximum weight of a leaf, so that their methods
    are functions of the database. *)

From Coq Require Import List Bool NArith Arith.
From Verif Require Import Spec BoundSpec NodeDb TotDb Totalizer Gte.
Import ListNotations.

Definition db_reset (d : db) (s : semantics) : db := set_nodes_db d (reset_encoded (d_nodes d) s).

(** ** The totalizer; [root] is the root node *)

(** src/encodings/card/totalizer/referenced.rs:75-85 [n_lits] *)
Definition rt_n_lits (d : db) (root : nat) : option nat :=
  do n <- nth_error (d_nodes d) root; Some (node_len n).

(** src/encodings/card/totalizer/referenced.rs:87-99 [reserve] *)
Definition rt_reserve (d : db) (root : nat) (next : N) : option (db * cnf * N) :=
  do st <- reserve_vars (S (length (d_nodes d))) (mkTst (d_nodes d) next []) (con_full root);
  Some (set_nodes_db d (t_nodes st), [], t_next st).

Definition rt_define (d : db) (root : nat) (idxs : list nat) (sem : semantics) (next : N) : option (db * cnf * N) :=
  do st <- define_all (mkTst (d_nodes d) next []) root idxs sem;
  Some (set_nodes_db d (t_nodes st), t_cls st, t_next st).

(** src/encodings/card/totalizer/referenced.rs:259-315 [encode_ub_change] *)
Definition rt_ub_change (d : db) (root : nat) (r : rng) (next : N) : option (db * cnf * N) :=
  do n <- rt_n_lits d root;
  let '(lo, hi) := prepare_ub_range n r in
  if (hi <=? lo)%nat then Some (d, [], next) else rt_define d root (range_excl lo hi) SIf next.

(** src/encodings/card/totalizer/referenced.rs:101-114, 139-152 [encode_ub] *)
Definition rt_ub (d : db) (root : nat) (r : rng) (next : N) : option (db * cnf * N) :=
  rt_ub_change (db_reset d SIf) root r next.

(** src/encodings/card/totalizer/referenced.rs:317-373 [encode_lb_change] *)
Definition rt_lb_change (d : db) (root : nat) (r : rng) (next : N) : option (db * cnf * N) :=
  do n <- rt_n_lits d root;
  let '(lo, hi) := prepare_lb_range n r in
  if (hi <=? lo)%nat then Some (d, [], next)
  else rt_define d root (map (fun idx => idx - 1)%nat (range_excl lo hi)) SOnlyIf next.

(** src/encodings/card/totalizer/referenced.rs:179-192, 219-232 [encode_lb]; it resets the "if" semantics *)
Definition rt_lb (d : db) (root : nat) (r : rng) (next : N) : option (db * cnf * N) :=
  rt_lb_change (db_reset d SIf) root r next.

(** src/encodings/card/totalizer/referenced.rs:375-413 [encode_both] *)
Definition rt_both (d : db) (root : nat) (r : rng) (next : N) : option (db * cnf * N) :=
  do r1 <- rt_ub_change d root r next;
  let '(d1, c1, n1) := r1 in
  do r2 <- rt_lb_change d1 root r n1;
  let '(d2, c2, n2) := r2 in
  Some (d2, c1 ++ c2, n2).

(** src/encodings/card/totalizer/referenced.rs:116-137, 154-175 [enforce_ub] *)
Definition rt_enforce_ub (d : db) (root : nat) (ub : nat) : option eres :=
  do n <- rt_n_lits d root;
  if (n <=? ub)%nat then Some (EOk [])
  else
    do nd <- nth_error (d_nodes d) root;
    match nd with
    | NLeaf l => do _ <- assertb (ub =? 0)%nat; Some (EOk [neg l])
    | NUnit lits _ _ => do dat <- nth_error lits ub;
                        Some (match ld_has_if dat with Some l => EOk [neg l] | None => ENotEncoded end)
    | NGeneral _ _ _ _ | NDummy => None
    end.

(** src/encodings/card/totalizer/referenced.rs:194-215, 234-255 [enforce_lb]; [lb - 1] underflows for 0 *)
Definition rt_enforce_lb (d : db) (root : nat) (lb : nat) : option eres :=
  do n <- rt_n_lits d root;
  if (n <? lb)%nat then Some EUnsat
  else
    do nd <- nth_error (d_nodes d) root;
    match nd with
    | NLeaf l => do _ <- assertb (lb =? 1)%nat; Some (EOk [l])
    | NUnit lits _ _ => do _ <- assertb (1 <=? lb)%nat;
                        do dat <- nth_error lits (lb - 1);
                        Some (match ld_has_only_if dat with Some l => EOk [l] | None => ENotEncoded end)
    | NGeneral _ _ _ _ | NDummy => None
    end.

(** ** The generalized totalizer; [con] is the connection to the root, [maxw] the maximum weight of a leaf *)

(** src/encodings/pb/gte/referenced.rs:83-87, 104-108 [weight_sum] *)
Definition rg_weight_sum (d : db) (con : nodecon) : option nat :=
  do n <- nth_error (d_nodes d) (nc_id con); Some (nc_map con (node_max_val n)).

(** src/encodings/pb/gte/referenced.rs:89-94, 110-115 [next_higher] *)
Definition rg_next_higher (d : db) (con : nodecon) (val : nat) : option nat :=
  do n <- nth_error (d_nodes d) (nc_id con);
  Some (match node_vals n (nc_rev_map_round_up con (val + 1)) None with
        | [] => val + 1
        | v :: _ => nc_map con v
        end)%nat.

(** src/encodings/pb/gte/referenced.rs:96-101, 117-122 [next_lower]; [val - 1] underflows for 0 *)
Definition rg_next_lower (d : db) (con : nodecon) (val : nat) : option nat :=
  do n <- nth_error (d_nodes d) (nc_id con);
  match rev (node_vals n (nc_offset con) (Some (nc_rev_map_round_up con val))) with
  | [] => do _ <- assertb (1 <=? val)%nat; Some (val - 1)%nat
  | v :: _ => Some (nc_map con v)
  end.

(** src/encodings/pb/gte/referenced.rs:125-135 [reserve] *)
Definition rg_reserve (d : db) (con : nodecon) (next : N) : option (db * cnf * N) :=
  do st <- reserve_vars (S (length (d_nodes d))) (mkTst (d_nodes d) next []) con;
  Some (set_nodes_db d (t_nodes st), [], t_next st).

(** src/encodings/pb/gte/referenced.rs:258-320 [encode_ub_change] *)
Definition rg_ub_change (d : db) (con : nodecon) (maxw : nat) (r : rng) (next : N) : option (db * cnf * N) :=
  do ws <- rg_weight_sum d con;
  let '(lo, hi) := prepare_ub_range ws r in
  if (hi <=? lo)%nat then Some (d, [], next)
  else
    do n <- nth_error (d_nodes d) (nc_id con);
    do st <- define_vals (mkTst (d_nodes d) next []) (nc_id con)
               (node_vals n (nc_rev_map_round_up con (lo + 1)) (Some (nc_rev_map con (hi + maxw) + 1)%nat));
    Some (set_nodes_db d (t_nodes st), t_cls st, t_next st).

(** src/encodings/pb/gte/referenced.rs:137-150, 197-210 [encode_ub] *)
Definition rg_ub (d : db) (con : nodecon) (maxw : nat) (r : rng) (next : N) : option (db * cnf * N) :=
  rg_ub_change (db_reset d SIf) con maxw r next.

(** src/encodings/pb/gte/referenced.rs:152-193, 212-253 [enforce_ub] *)
Definition rg_enforce_ub (d : db) (con : nodecon) (maxw : nat) (ub : nat) : option eres :=
  do ws <- rg_weight_sum d con;
  if (ws <=? ub)%nat then Some (EOk [])
  else
    do n <- nth_error (d_nodes d) (nc_id con);
    do r <- out_assumps n (node_vals n (nc_rev_map_round_up con (ub + 1)) (Some (nc_rev_map con (ub + maxw) + 1)%nat));
    Some (match r with Some ls => EOk ls | None => ENotEncoded end).
