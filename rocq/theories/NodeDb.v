(** * Model of the node database, [src/encodings/nodedb.rs] and the data types of [src/encodings/totdb/mod.rs]

    Panics (failed [unwrap], index out of bounds, [unreachable!], failed assertions and debug assertions) are [None].
    Node ids are indices into the list of nodes. The fields [depth] and [n_leaves] of the nodes, which only
    serve [depth()] and [n_leaves()], are left out. *)

From Coq Require Import List Bool NArith ZArith.
From Verif Require Import Spec Types.
Import ListNotations.

Definition obind {A B} (x : option A) (f : A -> option B) : option B :=
  match x with Some a => f a | None => None end.
Global Arguments obind {A B} !x f /.
Notation "'do' x <- e ; f" := (obind e (fun x => f)) (at level 200, x pattern, e at level 100, f at level 200).
Definition assertb (b : bool) : option unit := if b then Some tt else None.

Fixpoint foldM {A S} (f : S -> A -> option S) (l : list A) (s : S) : option S :=
  match l with
  | [] => Some s
  | x :: l' => do s' <- f s x; foldM f l' s'
  end.

Fixpoint mapM {A B} (f : A -> option B) (l : list A) : option (list B) :=
  match l with
  | [] => Some []
  | x :: l' => do y <- f x; do ys <- mapM f l'; Some (y :: ys)
  end.

(** the values of the range [a..=b] and of [a..b] *)
Definition range_incl (a b : nat) : list nat := seq a (b + 1 - a).
Definition range_excl (a b : nat) : list nat := seq a (b - a).

Fixpoint upd {A} (i : nat) (x : A) (l : list A) : list A :=
  match l, i with
  | [], _ => []
  | _ :: l', O => x :: l'
  | y :: l', S i' => y :: upd i' x l'
  end.

(** ** Node connections *)

(** src/encodings/nodedb.rs:146-167 [NodeCon]; divisor, multiplier and limit are non-zero in the code, which is
    part of [con_wf] in the proofs *)
Record nodecon : Type := mkCon { nc_id : nat; nc_offset : nat; nc_div : nat; nc_mult : nat; nc_limit : option nat }.

(** src/encodings/nodedb.rs:170-180 *)
Definition con_full (id : nat) : nodecon := mkCon id 0 1 1 None.
(** src/encodings/nodedb.rs:188-198; the conversion of a weight 0 panics *)
Definition con_weighted (id w : nat) : option nodecon :=
  if (w =? 0)%nat then None else Some (mkCon id 0 1 w None).
(** src/encodings/nodedb.rs:206-216 *)
Definition con_offset_weighted (id offset w : nat) : option nodecon :=
  if (w =? 0)%nat then None else Some (mkCon id offset 1 w None).
(** [NodeCon { multiplier: w, ..con }], e.g. src/encodings/nodedb.rs:526-533 and [reweight] 262-267 *)
Definition con_reweight (con : nodecon) (w : nat) : nodecon :=
  mkCon (nc_id con) (nc_offset con) (nc_div con) w (nc_limit con).

(** src/encodings/nodedb.rs:294-303 *)
Definition nc_map (con : nodecon) (val : nat) : nat :=
  if (val <=? nc_offset con)%nat then 0%nat
  else match nc_limit con with
       | Some limit => (Nat.min ((val - nc_offset con) / nc_div con) limit * nc_mult con)%nat
       | None => ((val - nc_offset con) / nc_div con * nc_mult con)%nat
       end.

(** src/encodings/nodedb.rs:308-318 *)
Definition nc_rev_map (con : nodecon) (val : nat) : nat :=
  match nc_limit con with
  | Some limit => match (Nat.min (val / nc_mult con) limit * nc_div con)%nat with
                  | O => 0%nat
                  | x => (x + nc_offset con)%nat
                  end
  | None => (val / nc_mult con * nc_div con + nc_offset con)%nat
  end.

Definition is_multiple_of (v m : nat) : bool := (v mod m =? 0)%nat.

(** src/encodings/nodedb.rs:333-343. For [val = 0] and a limit, [val - 1] underflows in the code; the model's
    truncated subtraction is only meant for positive values. *)
Definition nc_rev_map_round_up (con : nodecon) (val : nat) : nat :=
  let rest := nc_rev_map con (if is_multiple_of val (nc_mult con) then val else val + nc_mult con)%nat in
  match nc_limit con with
  | Some limit => if (limit <=? (val - 1) / nc_mult con)%nat
                  then ((limit + 1) * nc_div con + nc_offset con)%nat else rest
  | None => rest
  end.

(** src/encodings/nodedb.rs:348-354 *)
Definition nc_is_possible (con : nodecon) (val : nat) : bool :=
  match nc_limit con with
  | Some limit => is_multiple_of val (nc_mult con) && (val / nc_mult con <=? limit)%nat
  | None => is_multiple_of val (nc_mult con)
  end.

(** ** Semantics of output literals *)

(** src/encodings/totdb/mod.rs:651-658 *)
Inductive semantics : Type := SIf | SOnlyIf | SIff.

(** src/encodings/totdb/mod.rs:664-673 *)
Definition has_if (s : semantics) : bool := match s with SIf | SIff => true | SOnlyIf => false end.
Definition has_only_if (s : semantics) : bool := match s with SOnlyIf | SIff => true | SIf => false end.

(** src/encodings/totdb/mod.rs:677-686 *)
Definition sem_add (s new : semantics) : semantics :=
  match s, new with
  | SIf, SOnlyIf | SOnlyIf, SIf | _, SIff => SIff
  | _, _ => s
  end.

(** src/encodings/totdb/mod.rs:691-697 *)
Definition sem_remove (s rem : semantics) : option semantics :=
  match s, rem with
  | SIff, SIf | SOnlyIf, SIf => Some SOnlyIf
  | SIff, SOnlyIf | SIf, SOnlyIf => Some SIf
  | _, _ => None
  end.

(** src/encodings/totdb/mod.rs:702-708 *)
Definition sem_missing (s required : semantics) : option semantics :=
  match s, required with
  | SIf, SIff | SIf, SOnlyIf => Some SOnlyIf
  | SOnlyIf, SIff | SOnlyIf, SIf => Some SIf
  | _, _ => None
  end.

(** src/encodings/totdb/mod.rs:1252-1260 [LitData] *)
Inductive litdata : Type := LNone | LLit (l : lit) (s : option semantics).

(** src/encodings/totdb/mod.rs:1271-1276 *)
Definition ld_lit (d : litdata) : option lit := match d with LNone => None | LLit l _ => Some l end.

(** the pattern [LitData::Lit { lit, semantics: Some(sem) }] with [sem.has_if()], resp. [has_only_if()] *)
Definition ld_has_if (d : litdata) : option lit :=
  match d with LLit l (Some s) => if has_if s then Some l else None | _ => None end.
Definition ld_has_only_if (d : litdata) : option lit :=
  match d with LLit l (Some s) => if has_only_if s then Some l else None | _ => None end.

(** src/encodings/totdb/mod.rs:1298-1308; [None] is the panic *)
Definition ld_add (d : litdata) (new : semantics) : option litdata :=
  match d with
  | LNone => None
  | LLit l (Some s) => Some (LLit l (Some (sem_add s new)))
  | LLit l None => Some (LLit l (Some new))
  end.

(** src/encodings/totdb/mod.rs:1311-1320 *)
Definition ld_remove (d : litdata) (rem : semantics) : litdata :=
  match d with
  | LLit l (Some s) => LLit l (sem_remove s rem)
  | _ => d
  end.

(** src/encodings/totdb/mod.rs:1324-1332 *)
Definition ld_missing (d : litdata) (required : semantics) : option semantics :=
  match d with
  | LLit _ (Some s) => sem_missing s required
  | _ => Some required
  end.

(** ** Nodes *)

(** src/encodings/totdb/mod.rs:727-737 [Node] with 1075-1083 [UnitNode] and 1136-1145 [GeneralNode] *)
Inductive node : Type :=
| NLeaf (l : lit)
| NUnit (lits : list litdata) (left right : nodecon)
| NGeneral (lits : list (nat * litdata)) (max_val : nat) (left right : nodecon)
| NDummy.

(** src/encodings/totdb/mod.rs:746-753 *)
Definition node_max_val (n : node) : nat :=
  match n with
  | NLeaf _ => 1
  | NUnit lits _ _ => length lits
  | NGeneral _ m _ _ => m
  | NDummy => 0
  end.

(** src/encodings/totdb/mod.rs:755-762 *)
Definition node_len (n : node) : nat :=
  match n with
  | NLeaf _ => 1
  | NUnit lits _ _ => length lits
  | NGeneral lits _ _ _ => length lits
  | NDummy => 0
  end.

(** src/encodings/totdb/mod.rs:764-808 [vals(lo..hi)]; [None] is an unbounded end. The binary searches in the sorted
    value list of a general node are modelled by filtering. *)
Definition node_vals (n : node) (lo : nat) (hi : option nat) : list nat :=
  let inr v := (lo <=? v)%nat && match hi with Some h => (v <? h)%nat | None => true end in
  match n with
  | NLeaf _ => if inr 1%nat then [1%nat] else []
  | NUnit lits _ _ =>
      range_excl (Nat.max lo 1) (match hi with Some h => Nat.min h (length lits + 1) | None => length lits + 1 end)
  | NGeneral lits _ _ _ => filter inr (map fst lits)
  | NDummy => []
  end.

(** src/encodings/totdb/mod.rs:810-824 *)
Definition node_right (n : node) : option nodecon :=
  match n with NUnit _ _ r | NGeneral _ _ _ r => Some r | _ => None end.
Definition node_left (n : node) : option nodecon :=
  match n with NUnit _ l _ | NGeneral _ _ l _ => Some l | _ => None end.

(** ** The database *)

(** src/encodings/totdb/mod.rs:43-52 [Db]; the hash map of leaves is an association list *)
Record db : Type := mkDb { d_nodes : list node; d_lookup : list (lit * nat); d_dummy : option nat }.

(** [Db::default()] *)
Definition db_empty : db := mkDb [] [] None.

(** [self.lookup_leaf.get(&lit)] *)
Fixpoint lookup_lit (m : list (lit * nat)) (l : lit) : option nat :=
  match m with
  | [] => None
  | (x, id) :: m' => if lit_eqb x l then Some id else lookup_lit m' l
  end.

(** src/encodings/totdb/mod.rs:57-76 [insert] *)
Definition db_insert (d : db) (n : node) : db * nat :=
  let fresh := length (d_nodes d) in
  match n with
  | NLeaf l =>
      match lookup_lit (d_lookup d) l with
      | Some id => (d, id)
      | None => (mkDb (d_nodes d ++ [n]) ((l, fresh) :: d_lookup d) (d_dummy d), fresh)
      end
  | NDummy =>
      match d_dummy d with
      | Some id => (d, id)
      | None => (mkDb (d_nodes d ++ [n]) (d_lookup d) (Some fresh), fresh)
      end
  | _ => (mkDb (d_nodes d ++ [n]) (d_lookup d) (d_dummy d), fresh)
  end.

(** src/encodings/nodedb.rs:393-400 [con_len]. The subtraction underflows for an offset larger than the node;
    the invariant [con_wf] of the proofs excludes it. *)
Definition con_len (nodes : list node) (con : nodecon) : option nat :=
  do n <- nth_error nodes (nc_id con);
  let len := ((node_len n - nc_offset con) / nc_div con)%nat in
  Some match nc_limit con with Some limit => Nat.min len limit | None => len end.

Definition is_general (n : node) : bool := match n with NGeneral _ _ _ _ => true | _ => false end.
Definition is_dummy (n : node) : bool := match n with NDummy => true | _ => false end.

(** src/encodings/totdb/mod.rs:1161-1167, 1176-1182: advance from [idx] to the first value not below [v] and
    insert [v] there unless present; returns the list and the next index *)
Fixpoint ins_from (l : list (nat * litdata)) (idx : nat) (v : nat) : list (nat * litdata) * nat :=
  match l with
  | [] => ([(v, LNone)], 1%nat)
  | (x, d) :: l' =>
      match idx with
      | S idx' => let '(r, k) := ins_from l' idx' v in ((x, d) :: r, S k)
      | O => if (x <? v)%nat then let '(r, k) := ins_from l' 0 v in ((x, d) :: r, S k)
             else if (v <? x)%nat then ((v, LNone) :: l, 1%nat)
             else (l, 1%nat)
      end
  end.

(** src/encodings/totdb/mod.rs:1160-1168: interleaving the values of the right child *)
Definition interleave (lits : list (nat * litdata)) (rvals : list nat) : list (nat * litdata) :=
  fst (fold_left (fun '(l, idx) r => ins_from l idx r) rvals (lits, 0%nat)).

(** src/encodings/totdb/mod.rs:1171-1184: the sums with one value of the left child *)
Definition add_sums (lits : list (nat * litdata)) (lidx l : nat) (rvals : list nat) : list (nat * litdata) :=
  fst (fold_left (fun '(acc, idx) '(ridx, r) => ins_from acc (Nat.max idx ridx) (l + r)%nat)
                 (combine (seq 0 (length rvals)) rvals) (lits, lidx)).

(** src/encodings/totdb/mod.rs:1148-1205 [GeneralNode::new]; [None] for the failing [unwrap] and debug assertions *)
Definition strictly_sorted (l : list nat) : bool :=
  forallb (fun '(x, y) => (x <? y)%nat) (combine l (tl l)).

Definition general_new (lvals rvals : list nat) (left right : nodecon) : option node :=
  let lits0 := interleave (map (fun v => (v, LNone)) lvals) rvals in
  let lits := fold_left (fun acc '(lidx, l) => add_sums acc lidx l rvals) (combine (seq 0 (length lvals)) lvals) lits0 in
  match lits with
  | [] => None
  | (v0, _) :: _ =>
      do _ <- assertb (0 <? v0)%nat;
      do _ <- assertb (strictly_sorted (map fst lits));
      Some (NGeneral lits (last (map fst lits) 0%nat) left right)
  end.

(** src/encodings/totdb/mod.rs:865-874, 883-892: the mapped values of a child *)
Definition con_vals (n : node) (con : nodecon) : list nat :=
  let vs := node_vals n (nc_offset con + 1) None in
  map (nc_map con) (match nc_limit con with Some limit => firstn limit vs | None => vs end).

(** src/encodings/totdb/mod.rs:842-918 [internal] *)
Definition node_internal (nodes : list node) (left right : nodecon) : option node :=
  do nl <- nth_error nodes (nc_id left);
  do nr <- nth_error nodes (nc_id right);
  if negb (nc_mult left =? nc_mult right)%nat || is_general nl || is_general nr then
    do _ <- assertb (strictly_sorted (con_vals nl left));
    do _ <- assertb (strictly_sorted (con_vals nr right));
    general_new (con_vals nl left) (con_vals nr right) left right
  else
    do _ <- assertb ((nc_mult left =? 1)%nat && (nc_mult right =? 1)%nat);
    do ll <- con_len nodes left;
    do lr <- con_len nodes right;
    Some (NUnit (repeat LNone (ll + lr)) left right).

(** src/encodings/nodedb.rs:519-540, 548-567, 714-727: one merge of two connections *)
Definition merge_two (d : db) (lcon rcon : nodecon) : option (db * nodecon) :=
  if (1 <? nc_mult lcon)%nat && (nc_mult lcon =? nc_mult rcon)%nat then
    let weight := nc_mult lcon in
    do n <- node_internal (d_nodes d) (con_reweight lcon 1) (con_reweight rcon 1);
    let '(d', id) := db_insert d n in
    do con <- con_weighted id weight;
    Some (d', con)
  else
    do n <- node_internal (d_nodes d) lcon rcon;
    let '(d', id) := db_insert d n in
    Some (d', con_full id).

(** src/encodings/nodedb.rs:494-498: the loop reversing the bits of the width; returns the reverse width, the final
    width being 1 *)
Fixpoint rev_width_loop (fuel : nat) (rev : Z) (width : nat) : Z * nat :=
  match fuel with
  | O => (rev, width)
  | S f => if (1 <? width)%nat
           then rev_width_loop f (Z.lor (Z.shiftl rev 1) (Z.land (Z.of_nat width) 1)) (width / 2)
           else (rev, width)
  end.

(** [(split_idx & -split_idx & reverse_width) != 0] on [isize], src/encodings/nodedb.rs:509, 545 *)
Definition extend_bit (split_idx rev : Z) : bool :=
  negb (Z.land (Z.land split_idx (- split_idx)) rev =? 0)%Z.

(** src/encodings/nodedb.rs:508-571: the inner loop of [merge] *)
Fixpoint merge_level (fuel : nat) (d : db) (cs : list nodecon) (width : nat) (rev last_rev : Z)
    (start : nat) (split_idx : Z) : option (db * list nodecon) :=
  match fuel with
  | O => None
  | S f =>
      if (start <? length cs)%nat then
        let true_width := (width + if extend_bit split_idx rev then 1 else 0)%nat in
        if (true_width =? 1)%nat then merge_level f d cs width rev last_rev (start + 1) (split_idx + 1)
        else
          let ridx :=
            if (true_width mod 2 =? 0)%nat then (start + true_width / 2)%nat
            else (start + true_width / 2 +
                  if extend_bit ((split_idx - 1) * 2 + 1) last_rev then 1 else 0)%nat in
          do lcon <- nth_error cs start;
          do rcon <- nth_error cs ridx;
          do r <- merge_two d lcon rcon;
          let '(d', con) := r in
          merge_level f d' (upd start con cs) width rev last_rev (start + true_width) (split_idx + 1)
      else Some (d, cs)
  end.

(** src/encodings/nodedb.rs:505-579: the outer loop of [merge] *)
Fixpoint merge_loop (fuel : nat) (d : db) (cs : list nodecon) (width : nat) (rev last_rev : Z) : option (db * list nodecon) :=
  match fuel with
  | O => None
  | S f =>
      if (width <=? length cs)%nat then
        do r <- merge_level (S (length cs)) d cs width rev last_rev 0 1;
        let '(d', cs') := r in
        merge_loop f d' cs' (2 * width + Z.to_nat (Z.land rev 1)) (Z.shiftr rev 1) (Z.shiftr last_rev 1)
      else
        do _ <- assertb (width =? length cs * 2)%nat;
        Some (d, cs)
  end.

(** src/encodings/nodedb.rs:475-584 [merge]; the outer [option] is a panic, the inner one the result. The assertion on
    [isize::MAX] is not modelled. *)
Definition merge (d : db) (cs : list nodecon) : option (db * option nodecon) :=
  match cs with
  | [] => Some (d, None)
  | _ =>
      let '(rev, width) := rev_width_loop (length cs) 0 (length cs) in
      do _ <- assertb (width =? 1)%nat;
      do r <- merge_loop (S (length cs)) d cs width rev (Z.shiftl rev 1);
      let '(d', cs') := r in
      do con <- nth_error cs' 0;
      Some (d', Some con)
  end.

(** src/encodings/nodedb.rs:436-439: inserting the leaves *)
Fixpoint insert_leaves (d : db) (ls : list lit) : db * list nodecon :=
  match ls with
  | [] => (d, [])
  | l :: ls' =>
      let '(d1, id) := db_insert d (NLeaf l) in
      let '(d2, cs) := insert_leaves d1 ls' in
      (d2, con_full id :: cs)
  end.

(** src/encodings/nodedb.rs:428-448 [lit_tree] *)
Definition lit_tree (d : db) (ls : list lit) : option (db * option nat) :=
  let '(d1, cs) := insert_leaves d ls in
  do r <- merge d1 cs;
  match r with
  | (d2, None) => Some (d2, None)
  | (d2, Some con) =>
      do _ <- assertb ((nc_offset con =? 0) && (nc_div con =? 1) && (nc_mult con =? 1))%nat;
      Some (d2, Some (nc_id con))
  end.

(** src/encodings/nodedb.rs:602-607: the cumulative lengths *)
Fixpoint cum_weights (nodes : list node) (cs : list nodecon) (acc : nat) : option (list nat) :=
  match cs with
  | [] => Some []
  | c :: cs' =>
      do w <- con_len nodes c;
      do r <- cum_weights nodes cs' (acc + w);
      Some ((acc + w)%nat :: r)
  end.

(** src/encodings/nodedb.rs:694-700: the first index from 1 with a value reaching the threshold *)
Fixpoint find_from (p : nat -> bool) (l : list nat) (i : nat) : option nat :=
  match l with
  | [] => None
  | v :: l' => if p v then Some i else find_from p l' (i + 1)
  end.

(** src/encodings/nodedb.rs:678-728 [merge_balanced_recursive] *)
Fixpoint merge_balanced_rec (fuel : nat) (d : db) (cs : list nodecon) (cum : list nat) (offset : nat) : option (db * nodecon) :=
  match fuel with
  | O => None
  | S f =>
      match cs with
      | [] => None
      | [c] => Some (d, c)
      | _ =>
          let threshold := ((last cum 0 - offset) / 2 + offset)%nat in
          do split <- find_from (fun v => (threshold <=? v)%nat) (skipn 1 cum) 1;
          do r1 <- merge_balanced_rec f d (firstn split cs) (firstn split cum) offset;
          let '(d1, lcon) := r1 in
          do off' <- nth_error cum (split - 1);
          do r2 <- merge_balanced_rec f d1 (skipn split cs) (skipn split cum) off';
          let '(d2, rcon) := r2 in
          merge_two d2 lcon rcon
      end
  end.

(** src/encodings/nodedb.rs:593-609 [merge_balanced] *)
Definition merge_balanced (d : db) (cs : list nodecon) : option (db * option nodecon) :=
  match cs with
  | [] => Some (d, None)
  | _ =>
      do cum <- cum_weights (d_nodes d) cs 0;
      do r <- merge_balanced_rec (length cs) d cs cum 0;
      let '(d', con) := r in
      Some (d', Some con)
  end.

(** src/encodings/nodedb.rs:459-470 (and pb/gte/mod.rs:105-117): segments of equal weight, each merged to a tree *)
Fixpoint segments (ls : list (lit * nat)) : list (list lit * nat) :=
  match ls with
  | [] => []
  | (l, w) :: ls' =>
      match segments ls' with
      | (seg, w') :: rest => if (w =? w')%nat then (l :: seg, w) :: rest else ([l], w) :: (seg, w') :: rest
      | [] => [([l], w)]
      end
  end.

Definition add_segment (acc : db * list nodecon) (seg : list lit * nat) : option (db * list nodecon) :=
  let '(d, cs) := acc in
  do r <- lit_tree d (fst seg);
  match r with
  | (_, None) => None
  | (d', Some id) => do con <- con_weighted id (snd seg); Some (d', cs ++ [con])
  end.

(** src/encodings/nodedb.rs:454-473 [weighted_lit_tree]. The loop over segment boundaries is modelled by [segments]. *)
Definition weighted_lit_tree (d : db) (ls : list (lit * nat)) : option (db * option nodecon) :=
  match ls with
  | [] => None
  | _ => do r <- foldM add_segment (segments ls) (d, []);
         let '(d', cs) := r in merge_balanced d' cs
  end.
