(** * Model of the totalizer, [src/encodings/card/totalizer/mod.rs] *)

From Coq Require Import List Bool NArith Arith.
From Verif Require Import Spec BoundSpec NodeDb TotDb.
Import ListNotations.

(** src/encodings/card/mod.rs:451-465 [prepare_ub_range]; a Rust range as its start and (exclusive) end *)
Definition prepare_ub_range (n : nat) (r : rng) : nat * nat :=
  (match fst r with Incl b => b | Excl b => (b + 1)%nat | Unb => 0%nat end,
   match snd r with Incl b => Nat.min (b + 1) n | Excl b => Nat.min b n | Unb => n end).

(** src/encodings/card/mod.rs:467-481 [prepare_lb_range] *)
Definition prepare_lb_range (n : nat) (r : rng) : nat * nat :=
  (match fst r with Incl b => Nat.max b 1 | Excl b => Nat.max (b + 1) 1 | Unb => 1%nat end,
   match snd r with Incl b => Nat.min (b + 1) (n + 1) | Excl b => Nat.min b (n + 1) | Unb => (n + 1)%nat end).

(** src/encodings/card/mod.rs:483-497 [prepare_both_range] *)
Definition prepare_both_range (n : nat) (r : rng) : nat * nat :=
  (match fst r with Incl b => b | Excl b => (b + 1)%nat | Unb => 1%nat end,
   match snd r with Incl b => Nat.min (b + 1) (n + 1) | Excl b => Nat.min b (n + 1) | Unb => (n + 1)%nat end).

(** src/encodings/card/totalizer/mod.rs:45-60 *)
Record tot : Type := mkTot {
  to_buf : list lit; to_root : option nat; to_vars : N; to_cls : nat; to_db : db; to_off : nat; to_add : nat }.

Definition tot_new : tot := mkTot [] None 0%N 0 db_empty 0 0.

(** src/encodings/card/totalizer/mod.rs:375-407 [From], [FromIterator] *)
Definition tot_from (ls : list lit) : tot := mkTot ls None 0%N 0 db_empty 0 0.

(** src/encodings/card/totalizer/mod.rs:409-413 [Extend] *)
Definition tot_extend (t : tot) (ls : list lit) : tot :=
  mkTot (to_buf t ++ ls) (to_root t) (to_vars t) (to_cls t) (to_db t) (to_off t) (to_add t).

(** the length of the root node, indexing the database *)
Definition root_len (t : tot) : option nat :=
  match to_root t with
  | None => Some 0%nat
  | Some id => do n <- nth_error (d_nodes (to_db t)) id; Some (node_len n)
  end.

(** src/encodings/card/totalizer/mod.rs:155-163 [n_lits] *)
Definition tot_n_lits (t : tot) : option nat :=
  do k <- root_len t; Some (length (to_buf t) + to_add t + k)%nat.

(** src/encodings/card/totalizer/mod.rs:84-104 [extend_tree] *)
Definition extend_tree (t : tot) : option tot :=
  do r <- lit_tree (to_db t) (to_buf t);
  match r with
  | (d, None) => Some (mkTot [] (to_root t) (to_vars t) (to_cls t) d (to_off t) (to_add t))
  | (d, Some new) =>
      do r2 <- match to_root t with
               | Some old =>
                   do oc <- con_offset_weighted old (to_off t) 1;
                   do r3 <- merge d [oc; con_full new];
                   match r3 with
                   | (d', Some con) => Some (d', nc_id con)
                   | (_, None) => None
                   end
               | None => Some (d, new)
               end;
      let '(d', root) := r2 in
      Some (mkTot [] (Some root) (to_vars t) (to_cls t) d' 0 (to_add t + to_off t))
  end.

(** the loop of src/encodings/card/totalizer/mod.rs:245-253, 332-340: defining the outputs with the given indices *)
Definition define_all (st : tst) (id : nat) (idxs : list nat) (sem : semantics) : option tst :=
  foldM (fun s idx => do r <- define_unweighted (S (length (t_nodes s))) s id idx sem; Some (snd r)) idxs st.

Definition set_nodes_db (d : db) (ns : list node) : db := mkDb ns (d_lookup d) (d_dummy d).

Definition define_root (t : tot) (idxs : list nat) (sem : semantics) (next : N) : option (tot * cnf * N) :=
  match to_root t with
  | None => Some (t, [], next)
  | Some id =>
      do st <- define_all (mkTst (d_nodes (to_db t)) next []) id idxs sem;
      Some (mkTot (to_buf t) (to_root t) (to_vars t + (t_next st - next)) (to_cls t + length (t_cls st))
              (set_nodes_db (to_db t) (t_nodes st)) (to_off t) (to_add t), t_cls st, t_next st)
  end.

(** src/encodings/card/totalizer/mod.rs:222-256 [encode_ub_change] *)
Definition tot_encode_ub_change (t : tot) (r : rng) (next : N) : option (tot * cnf * N) :=
  do n <- tot_n_lits t;
  let '(lo, hi) := prepare_ub_range n r in
  do _ <- assertb (to_off t <=? n)%nat;
  let hi := Nat.min hi (n - to_off t) in
  if (hi <=? lo)%nat then Some (t, [], next)
  else do t1 <- extend_tree t;
       define_root t1 (map (fun idx => idx + to_off t1)%nat (range_excl lo hi)) SIf next.

Definition tot_reset (t : tot) (s : semantics) : tot :=
  mkTot (to_buf t) (to_root t) (to_vars t) (to_cls t) (set_nodes_db (to_db t) (reset_encoded (d_nodes (to_db t)) s)) (to_off t) (to_add t).

(** src/encodings/card/totalizer/mod.rs:175-187 [encode_ub] *)
Definition tot_encode_ub (t : tot) (r : rng) (next : N) : option (tot * cnf * N) :=
  tot_encode_ub_change (tot_reset t SIf) r next.

(** src/encodings/card/totalizer/mod.rs:310-343 [encode_lb_change] *)
Definition tot_encode_lb_change (t : tot) (r : rng) (next : N) : option (tot * cnf * N) :=
  do n <- tot_n_lits t;
  let '(lo, hi) := prepare_lb_range n r in
  do _ <- assertb (to_off t <=? n)%nat;
  let hi := Nat.min hi (n - to_off t + 1) in
  if (hi <=? lo)%nat then Some (t, [], next)
  else do t1 <- extend_tree t;
       define_root t1 (map (fun idx => idx - 1 + to_off t1)%nat (range_excl lo hi)) SOnlyIf next.

(** src/encodings/card/totalizer/mod.rs:259-271 [encode_lb] *)
Definition tot_encode_lb (t : tot) (r : rng) (next : N) : option (tot * cnf * N) :=
  tot_encode_lb_change (tot_reset t SOnlyIf) r next.

(** src/encodings/card/totalizer/mod.rs:346-360 [encode_both] (also the default [encode_both_change],
    src/encodings/card/mod.rs:324-336) *)
Definition tot_encode_both (t : tot) (r : rng) (next : N) : option (tot * cnf * N) :=
  do r1 <- tot_encode_ub_change t r next;
  let '(t1, c1, n1) := r1 in
  do r2 <- tot_encode_lb_change t1 r n1;
  let '(t2, c2, n2) := r2 in
  Some (t2, c1 ++ c2, n2).

(** src/encodings/card/totalizer/mod.rs:166-172 [reserve] *)
Definition tot_reserve (t : tot) (next : N) : option (tot * N) :=
  do t1 <- extend_tree t;
  match to_root t1 with
  | None => Some (t1, next)
  | Some id =>
      do st <- reserve_vars (S (length (d_nodes (to_db t1)))) (mkTst (d_nodes (to_db t1)) next []) (con_full id);
      Some (mkTot (to_buf t1) (to_root t1) (to_vars t1) (to_cls t1) (set_nodes_db (to_db t1) (t_nodes st)) (to_off t1) (to_add t1), t_next st)
  end.

(** src/encodings/card/totalizer/mod.rs:189-218 [enforce_ub] *)
Definition tot_enforce_ub (t : tot) (ub : nat) : option eres :=
  do n <- tot_n_lits t;
  do _ <- assertb (to_off t <=? n)%nat;
  if (n - to_off t <=? ub)%nat then Some (EOk [])
  else match to_buf t with
       | _ :: _ => Some ENotEncoded
       | [] =>
           match to_root t with
           | None => Some ENotEncoded
           | Some id =>
               do nd <- nth_error (d_nodes (to_db t)) id;
               match nd with
               | NLeaf l => do _ <- assertb (ub =? to_off t)%nat; Some (EOk [neg l])
               | NUnit lits _ _ =>
                   do dat <- nth_error lits (ub + to_off t);
                   match dat with
                   | LLit l (Some s) => if has_if s then Some (EOk [neg l]) else Some ENotEncoded
                   | _ => Some ENotEncoded
                   end
               | _ => None
               end
           end
       end.

(** src/encodings/card/totalizer/mod.rs:274-306 [enforce_lb] *)
Definition tot_enforce_lb (t : tot) (lb : nat) : option eres :=
  if (lb <=? to_off t)%nat then Some (EOk [])
  else
    do n <- tot_n_lits t;
    if (n + to_off t <? lb)%nat then Some EUnsat
    else match to_buf t with
         | _ :: _ => Some ENotEncoded
         | [] =>
             match to_root t with
             | None => Some ENotEncoded
             | Some id =>
                 do nd <- nth_error (d_nodes (to_db t)) id;
                 match nd with
                 | NLeaf l => do _ <- assertb (lb =? 1)%nat; Some (EOk [l])
                 | NUnit lits _ _ =>
                     do dat <- nth_error lits (lb - 1 + to_off t);
                     match dat with
                     | LLit l (Some s) => if has_only_if s then Some (EOk [l]) else Some ENotEncoded
                     | _ => Some ENotEncoded
                     end
                 | _ => None
                 end
             end
         end.

(** src/encodings/card/mod.rs:205-209 [enforce_eq], default for encoders with both bounds: the assumptions of both
    bounds or the first error *)
Definition enforce_eq {S} (ub lb : S -> nat -> option eres) (s : S) (b : nat) : option eres :=
  do r1 <- ub s b;
  match r1 with
  | EOk l1 => do r2 <- lb s b; Some (match r2 with EOk l2 => EOk (l1 ++ l2) | e => e end)
  | e => Some e
  end.

Definition totalizer : encoder lit tot :=
  mkEncoder tot_new (fun t ls => Some (tot_extend t ls)) tot_reserve
    tot_encode_ub tot_encode_ub_change tot_encode_lb tot_encode_lb_change tot_encode_both
    tot_enforce_ub tot_enforce_lb.
