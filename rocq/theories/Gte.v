(** * Model of the generalized totalizer, [src/encodings/pb/gte/mod.rs] *)

From Coq Require Import List Bool NArith Arith.
From Verif Require Import Spec BoundSpec Types Constraints Maps NodeDb TotDb Totalizer.
Import ListNotations.

(** src/encodings/pb/mod.rs:499-513 [prepare_ub_range] is the same as [Totalizer.prepare_ub_range], with the weight sum
    for the number of literals *)

(** src/encodings/pb/gte/mod.rs:42-56 *)
Record gte : Type := mkGte {
  gt_buf : wmap; gt_root : option nodecon; gt_maxw : nat; gt_vars : N; gt_cls : nat; gt_db : db }.

Definition gte_new : gte := mkGte [] None 0 0%N 0 db_empty.

(** src/encodings/pb/gte/mod.rs:360-367 [From<RsHashMap>] *)
Definition gte_from_map (m : wmap) : gte := mkGte m None 0 0%N 0 db_empty.

(** src/encodings/pb/gte/mod.rs:369-374 [FromIterator]: collects into a hash map first *)
Definition gte_from_iter (xs : list (lit * nat)) : gte := gte_from_map (map_collect xs).

(** src/encodings/pb/gte/mod.rs:376-388 [Extend] *)
Definition gte_extend (t : gte) (xs : list (lit * nat)) : gte :=
  mkGte (map_adds (gt_buf t) xs) (gt_root t) (gt_maxw t) (gt_vars t) (gt_cls t) (gt_db t).

(** src/encodings/pb/gte/mod.rs:196-203 [weight_sum] *)
Definition gte_weight_sum (t : gte) : option nat :=
  do r <- match gt_root t with
          | None => Some 0%nat
          | Some con => do n <- nth_error (d_nodes (gt_db t)) (nc_id con); Some (nc_map con (node_max_val n))
          end;
  Some (fold_left (fun s lw => s + snd lw)%nat (gt_buf t) 0 + r)%nat.

(** src/encodings/pb/gte/mod.rs:205-214 [next_higher] *)
Definition gte_next_higher (t : gte) (val : nat) : option nat :=
  match gt_root t with
  | None => Some (val + 1)%nat
  | Some con =>
      do n <- nth_error (d_nodes (gt_db t)) (nc_id con);
      Some (match node_vals n (nc_rev_map_round_up con (val + 1)) None with
            | [] => val + 1
            | v :: _ => nc_map con v
            end)%nat
  end.

(** src/encodings/pb/gte/mod.rs:216-227 [next_lower] *)
Definition gte_next_lower (t : gte) (val : nat) : option nat :=
  if (val =? 0)%nat then Some 0%nat
  else match gt_root t with
       | None => Some (val - 1)%nat
       | Some con =>
           do n <- nth_error (d_nodes (gt_db t)) (nc_id con);
           Some (match rev (node_vals n (nc_offset con) (Some (nc_rev_map_round_up con val))) with
                 | [] => 0
                 | v :: _ => nc_map con v
                 end)%nat
       end.

(** [w <= max_weight], where [None] is [usize::MAX] *)
Definition weight_le (w : nat) (m : option nat) : bool := match m with Some m => (w <=? m)%nat | None => true end.

Section Order.
Context (ord : wmap -> wmap).

(** src/encodings/pb/gte/mod.rs:85-127 [extend_tree]. The loop over segment boundaries is modelled by [segments]; the
    update of the maximum weight inside the filter is a separate fold over the selected entries. *)
Definition gte_extend_tree (t : gte) (max_weight : option nat) : option gte :=
  let new := filter (fun lw => weight_le (snd lw) max_weight) (ord (gt_buf t)) in
  match new with
  | [] => Some t
  | _ =>
      let maxw := fold_left (fun m lw => if (m <? snd lw)%nat then snd lw else m) new (gt_maxw t) in
      do r <- foldM add_segment (segments (sort_by (fun x y => snd x <=? snd y)%nat new)) (gt_db t, []);
      let '(d1, cs) := r in
      do r2 <- merge_balanced d1 (cs ++ match gt_root t with Some con => [con] | None => [] end);
      match r2 with
      | (_, None) => None
      | (d2, Some con) =>
          Some (mkGte (filter (fun lw => negb (weight_le (snd lw) max_weight)) (gt_buf t)) (Some con) maxw (gt_vars t) (gt_cls t) d2)
      end
  end.

(** the loop of src/encodings/pb/gte/mod.rs:333-341: defining the given values of a node; [unwrap] panics on values the
    node does not have *)
Definition define_vals (st : tst) (id : nat) (vals : list nat) : option tst :=
  foldM (fun s v => do r <- define_weighted (S (length (t_nodes s))) s id v;
                    match r with (Some _, s') => Some s' | (None, _) => None end) vals st.

(** src/encodings/pb/gte/mod.rs:312-345 [encode_ub_change] *)
Definition gte_encode_ub_change (t : gte) (r : rng) (next : N) : option (gte * cnf * N) :=
  do ws <- gte_weight_sum t;
  let '(lo, hi) := prepare_ub_range ws r in
  if (hi <=? lo)%nat then Some (t, [], next)
  else
    do t1 <- gte_extend_tree t (Some (hi - 1)%nat);
    match gt_root t1 with
    | None => Some (t1, [], next)
    | Some con =>
        do n <- nth_error (d_nodes (gt_db t1)) (nc_id con);
        do st <- define_vals (mkTst (d_nodes (gt_db t1)) next []) (nc_id con)
                   (node_vals n (nc_rev_map_round_up con (lo + 1)) (Some (nc_rev_map con (hi + gt_maxw t1) + 1)%nat));
        Some (mkGte (gt_buf t1) (gt_root t1) (gt_maxw t1) (gt_vars t1 + (t_next st - next)) (gt_cls t1 + length (t_cls st))
                (set_nodes_db (gt_db t1) (t_nodes st)), t_cls st, t_next st)
    end.

Definition gte_reset (t : gte) : gte :=
  mkGte (gt_buf t) (gt_root t) (gt_maxw t) (gt_vars t) (gt_cls t) (set_nodes_db (gt_db t) (reset_encoded (d_nodes (gt_db t)) SIf)).

(** src/encodings/pb/gte/mod.rs:240-252 [encode_ub] *)
Definition gte_encode_ub (t : gte) (r : rng) (next : N) : option (gte * cnf * N) :=
  gte_encode_ub_change (gte_reset t) r next.

(** src/encodings/pb/gte/mod.rs:231-236 [reserve] *)
Definition gte_reserve (t : gte) (next : N) : option (gte * N) :=
  do t1 <- gte_extend_tree t None;
  match gt_root t1 with
  | None => Some (t1, next)
  | Some con =>
      do st <- reserve_vars (S (length (d_nodes (gt_db t1)))) (mkTst (d_nodes (gt_db t1)) next []) con;
      Some (mkGte (gt_buf t1) (gt_root t1) (gt_maxw t1) (gt_vars t1) (gt_cls t1) (set_nodes_db (gt_db t1) (t_nodes st)), t_next st)
  end.

(** src/encodings/pb/gte/mod.rs:260-267: the assumptions for buffered literals, [None] if one is too light *)
Fixpoint buf_assumps (ub : nat) (b : wmap) : option (list lit) :=
  match b with
  | [] => Some []
  | (l, w) :: b' => if (w <=? ub)%nat then None else option_map (cons (neg l)) (buf_assumps ub b')
  end.

(** src/encodings/pb/gte/mod.rs:273-303: the output literal of a value, if encoded; the outer [None] is a panic *)
Definition out_if (n : node) (val : nat) : option (option lit) :=
  match n with
  | NLeaf l => Some (Some l)
  | NUnit lits _ _ => do dat <- nth_error lits (val - 1); Some (ld_has_if dat)
  | NGeneral lits _ _ _ => Some (match lit_data lits val with Some dat => ld_has_if dat | None => None end)
  | NDummy => None
  end.

Fixpoint out_assumps (n : node) (vals : list nat) : option (option (list lit)) :=
  match vals with
  | [] => Some (Some [])
  | v :: vals' =>
      do o <- out_if n v;
      match o with
      | None => Some None
      | Some l => do r <- out_assumps n vals'; Some (option_map (cons (neg l)) r)
      end
  end.

(** src/encodings/pb/gte/mod.rs:254-308 [enforce_ub] *)
Definition gte_enforce_ub (t : gte) (ub : nat) : option eres :=
  do ws <- gte_weight_sum t;
  if (ws <=? ub)%nat then Some (EOk [])
  else match buf_assumps ub (ord (gt_buf t)) with
       | None => Some ENotEncoded
       | Some as1 =>
           match gt_root t with
           | None => Some (EOk as1)
           | Some con =>
               do n <- nth_error (d_nodes (gt_db t)) (nc_id con);
               do r <- out_assumps n (node_vals n (nc_rev_map_round_up con (ub + 1)) (Some (nc_rev_map con (ub + gt_maxw t) + 1)%nat));
               Some (match r with Some as2 => EOk (as1 ++ as2) | None => ENotEncoded end)
           end
       end.

(** The generalized totalizer only bounds from above; its missing methods are never called in the histories considered
    (see [ub_only]). *)
Definition gte_enc : encoder (lit * nat) gte :=
  mkEncoder gte_new (fun t xs => Some (gte_extend t xs)) gte_reserve
    gte_encode_ub gte_encode_ub_change (fun _ _ _ => None) (fun _ _ _ => None) (fun _ _ _ => None)
    gte_enforce_ub (fun _ _ => Some ENotEncoded).
End Order.
