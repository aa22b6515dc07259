(** * Model of the dynamic polynomial watchdog, [src/encodings/pb/dpw/mod.rs]

    Not modelled: [depth] (84-89), and the "referenced" variants of [referenced.rs]. *)

From Coq Require Import List Bool NArith Arith Permutation.
From Verif Require Import Spec BoundSpec Types Constraints Maps Atomics NodeDb TotDb Totalizer.
Import ListNotations.

(** src/utils.rs:11-40 [digits(number, 2)]: the length of the binary representation *)
Definition digits (n : nat) : nat := S (Nat.log2 n).

(** ** The queue of weights *)

(** src/encodings/pb/dpw/mod.rs:35 [WeightQ = BTreeMap<usize, Vec<NodeCon>>]. The map is a list of its entries with the
    largest key first; the code only ever looks at the largest key. *)
Definition wqueue : Type := list (nat * list nodecon).

(** [match queue.get_mut(&w) { Some(cons) => cons.push(con), None => queue.insert(w, vec![con]) }],
    e.g. src/encodings/pb/dpw/mod.rs:475-488 *)
Fixpoint q_push (q : wqueue) (w : nat) (con : nodecon) : wqueue :=
  match q with
  | [] => [(w, [con])]
  | (k, cs) :: q' =>
      if (k =? w)%nat then (k, cs ++ [con]) :: q'
      else if (k <? w)%nat then (w, [con]) :: q
      else (k, cs) :: q_push q' w con
  end.

(** src/encodings/pb/dpw/mod.rs:454-463, 472-491 [lit_weight_queue] and [con_weight_queue] *)
Definition queue_lit (s : db * wqueue) (x : lit * nat) : option (db * wqueue) :=
  let '(d, q) := s in
  let '(d', id) := db_insert d (NLeaf (fst x)) in
  do con <- con_weighted id (snd x);
  Some (d', q_push q (nc_mult con) (con_reweight con 1)).

(** ** The encoding structure *)

(** src/encodings/pb/dpw/mod.rs:228-238 *)
Record structure : Type := mkStr { sr_bottoms : list nat; sr_tares : list lit; sr_prec : nat }.

(** src/encodings/pb/dpw/mod.rs:243-245 *)
Definition sr_root (s : structure) : option nat := nth_error (sr_bottoms s) 0.
(** src/encodings/pb/dpw/mod.rs:249-251 *)
Definition sr_power (s : structure) : nat := length (sr_tares s).

(** [top_buckets[i].push(con)]; [None] is the index out of bounds *)
Definition push_at (i : nat) (con : nodecon) (tops : list (list nodecon)) : option (list (list nodecon)) :=
  do cs <- nth_error tops i; Some (upd i (cs ++ [con]) tops).

(** src/encodings/pb/dpw/mod.rs:524-541: distributing the weights to the top buckets. [w & !current_weight] removes the
    highest bit. *)
Fixpoint distribute (fuel prec : nat) (d : db) (tops : list (list nodecon)) (q : wqueue) : option (db * list (list nodecon) * wqueue) :=
  match q with
  | [] => Some (d, tops, q)
  | (w, cs) :: q' =>
      if (w <? prec)%nat then Some (d, tops, q)
      else match fuel with
           | O => None
           | S f =>
               do r <- merge_balanced d cs;
               match r with
               | (_, None) => None
               | (d1, Some merged) =>
                   let skipped := (digits prec - 1)%nat in
                   do _ <- assertb (skipped <=? digits w - 1)%nat;
                   do tops1 <- push_at (digits w - 1 - skipped) merged tops;
                   let remaining := (w - 2 ^ (digits w - 1))%nat in
                   distribute f prec d1 tops1 (if (0 <? remaining)%nat then q_push q' remaining merged else q')
               end
           end
  end.

(** enough fuel for [distribute]: every entry is popped once for every bit of its weight *)
Definition distribute_fuel (q : wqueue) : nat := S (list_sum (map (fun e => digits (fst e)) q)).

Section Order.
(** the iteration order of hash maps and the result of sorting connections by [con_len] with an unstable sort *)
Context (ord : wmap -> wmap) (srt : list node -> list nodecon -> list nodecon).

(** src/encodings/pb/dpw/mod.rs:562-610: one round of merging a top bucket with the bottom bucket below it. The state is
    the database, the bottom buckets built so far, highest first, and [bb_offset]; [n] is the number of top buckets and
    [more] says that the queue is not empty. *)
Definition add_bucket (topmost : bool) (tares : list lit) (n : nat) (more : bool) (s : db * list nat * nat) (x : nat * list nodecon)
    : option (db * list nat * nat) :=
  let '(d, bottoms, bb_offset) := s in
  let '(idx, cs) := x in
  do r <-
    (if topmost && (idx =? n - 1)%nat then Some (d, cs, false)
     else do tare <- nth_error tares idx;
          let '(d', id) := db_insert d (NLeaf tare) in Some (d', cs ++ [con_full id], true));
  let '(d1, cs1, has_tare) := r in
  do m <- merge_balanced d1 (srt (d_nodes d1) cs1);
  match m with
  | (_, None) => None
  | (d2, Some top_bucket) =>
      match bottoms with
      | [] =>
          do len <- con_len (d_nodes d2) top_bucket;
          if has_tare && (len =? 1)%nat then Some (d2, [], bb_offset)
          else
            do _ <- assertb (nc_div top_bucket =? 1)%nat;
            if more then
              let '(d3, dummy) := db_insert d2 NDummy in
              do nd <- node_internal (d_nodes d3) top_bucket (con_full dummy);
              let '(d4, bottom) := db_insert d3 nd in
              Some (d4, [bottom], 0%nat)
            else Some (d2, [nc_id top_bucket], nc_offset top_bucket)
      | last :: _ =>
          do nd <- node_internal (d_nodes d2) top_bucket (mkCon last bb_offset 2 1 None);
          let '(d3, bottom) := db_insert d2 nd in
          Some (d3, bottom :: bottoms, 0%nat)
      end
  end.

(** src/encodings/pb/dpw/mod.rs:500-615 [build_structure]. Returns the structure, the database, the rest of the queue and
    the next free variable. Underflowing subtractions panic. *)
Definition build_structure (topmost : bool) (q : wqueue) (prec : nat) (d : db) (next : N) : option (structure * db * wqueue * N) :=
  match q with
  | [] => None
  | (maxw, _) :: _ =>
      let skipped := (digits prec - 1)%nat in
      let basis_len := digits maxw in
      do _ <- assertb (skipped <=? basis_len)%nat;
      let n := (basis_len - skipped)%nat in
      do r <- distribute (distribute_fuel q) prec d (repeat [] n) q;
      let '(d1, tops, q1) := r in
      if topmost && (basis_len =? 1)%nat then
        do cs <- nth_error tops 0;
        do _ <- assertb (length cs =? 1)%nat;
        do con <- nth_error cs 0;
        do _ <- assertb ((nc_offset con =? 0) && (nc_mult con =? 1) && (nc_div con =? 1))%nat;
        Some (mkStr [nc_id con] [] prec, d1, q1, next)
      else
        do _ <- assertb (negb topmost || (1 <=? n)%nat);
        let nt := (n - if topmost then 1 else 0)%nat in
        let tares := map (fun i => pos (next + N.of_nat i)) (seq 0 nt) in
        do r2 <- foldM (add_bucket topmost tares n (match q1 with [] => false | _ => true end)) (combine (seq 0 n) tops) (d1, [], 0%nat);
        let '(d2, bottoms, _) := r2 in
        Some (mkStr bottoms tares prec, d2, q1, (next + N.of_nat nt)%N)
  end.

(** ** Merging structures *)

(** src/encodings/pb/dpw/mod.rs:676-692, 703-719: the right child of a bottom bucket, which is the dummy node so far,
    is replaced. Only unit nodes occur; anything else panics here. *)
Definition patch_right (ns : list node) (id : nat) (con : nodecon) : option (list node) :=
  do n <- nth_error ns id;
  match n with
  | NUnit lits l r =>
      do rn <- nth_error ns (nc_id r);
      do _ <- assertb (is_dummy rn);
      Some (upd id (NUnit lits l con) ns)
  | _ => None
  end.

(** [bottom_buckets.last().unwrap()], src/encodings/pb/dpw/mod.rs:675, 702 *)
Definition last_bottom (bs : list nat) : option nat := nth_error bs (length bs - 1).

(** src/encodings/pb/dpw/mod.rs:662-694: a bottom bucket for one tare that was not needed before *)
Definition link_tare (s : db * list nat) (tare : lit) : option (db * list nat) :=
  let '(d, bs) := s in
  let '(d1, dummy) := db_insert d NDummy in
  let '(d2, tn) := db_insert d1 (NLeaf tare) in
  do nd <- node_internal (d_nodes d2) (con_full tn) (con_full dummy);
  let '(d3, nb) := db_insert d2 nd in
  do lb <- last_bottom bs;
  do ns <- patch_right (d_nodes d3) lb (mkCon nb 0 2 1 None);
  Some (set_nodes_db d3 ns, bs ++ [nb]).

(** src/encodings/pb/dpw/mod.rs:737-753: the outputs of a bottom bucket to extend, with their values *)
Definition if_lits (lits : list litdata) (orm : nat) : list (lit * nat) :=
  flat_map (fun '(idx, d) => match ld_has_if d with
                             | Some l => if (orm <=? idx + 1)%nat then [(l, idx + 1)%nat] else []
                             | None => []
                             end)
    (combine (seq 0 (length lits)) lits).

(** src/encodings/pb/dpw/mod.rs:758-784: the clause for one value of the right child *)
Definition extend_clause (lc rc : nodecon) (olit : lit) (val : nat) (s : tst) (rval : nat) : option tst :=
  do _ <- assertb (nc_map rc rval <=? val)%nat;
  let lval := (val - nc_map rc rval)%nat in
  if nc_is_possible lc lval then
    do _ <- assertb (1 <=? rval)%nat;
    do r <- define_unweighted (S (length (t_nodes s))) s (nc_id rc) (rval - 1) SIf;
    let '(rlit, s1) := r in
    if (lval =? 0)%nat then Some (emit s1 [lit_impl_lit rlit olit])
    else
      do _ <- assertb (nc_div lc =? 1)%nat;
      do r2 <- define_unweighted (S (length (t_nodes s1))) s1 (nc_id lc) (lval - 1) SIf;
      let '(llit, s2) := r2 in
      Some (emit s2 [cube_impl_lit [rlit; llit] olit])
  else Some s.

(** src/encodings/pb/dpw/mod.rs:754-757: one output to extend. The code looks the values up before the loop; the
    definitions in the loop do not change which values the right child has. *)
Definition extend_lit (lc rc : nodecon) (orm rmax : nat) (s : tst) (x : lit * nat) : option tst :=
  let '(olit, val) := x in
  do rn <- nth_error (t_nodes s) (nc_id rc);
  foldM (extend_clause lc rc olit val)
    (node_vals rn (nc_rev_map rc (orm + 1)) (Some (nc_rev_map rc (Nat.min (rmax + 1) val) + 1)%nat)) s.

(** src/encodings/pb/dpw/mod.rs:724-791: extending one bottom bucket. The state carries [old_right_max]. *)
Definition extend_bottom (s : tst * nat) (bb : nat) : option (tst * nat) :=
  let '(st, orm) := s in
  do n <- nth_error (t_nodes st) bb;
  match n with
  | NUnit lits lc rc =>
      do rmax <- con_len (t_nodes st) rc;
      do lmax <- con_len (t_nodes st) lc;
      do _ <- assertb (nc_div rc =? 2)%nat;
      do st1 <- foldM (extend_lit lc rc orm rmax) (if_lits lits orm) st;
      do n1 <- nth_error (t_nodes st1) bb;
      match n1 with
      | NUnit lits1 l1 r1 =>
          do _ <- assertb (length lits1 <=? rmax + lmax)%nat;
          Some (set_nodes st1 (upd bb (NUnit (lits1 ++ repeat LNone (rmax + lmax - length lits1)) l1 r1) (t_nodes st1)),
                (length lits1 / 2)%nat)
      | _ => None
      end
  | _ => None
  end.

(** src/encodings/pb/dpw/mod.rs:617-794 [merge_structures]. Returns the structure, the database, the clauses and the next
    free variable. *)
Definition merge_structures (bot top : structure) (d : db) (next : N) : option (structure * db * cnf * N) :=
  let nt := length (sr_tares top) in
  do _ <- assertb ((1 <=? nt) && (sr_prec top * 2 ^ (nt - 1) <=? sr_prec bot))%nat;
  do _ <- assertb (negb (sr_prec top =? 0))%nat;
  let between := (digits (sr_prec bot / (sr_prec top * 2 ^ nt)) - 1)%nat in
  let tares := sr_tares top ++ map (fun i => pos (next + N.of_nat i)) (seq 0 between) ++ sr_tares bot in
  do _ <- assertb (length (sr_bottoms bot) - 1 <=? length (sr_tares bot) + between)%nat;
  do r <- foldM link_tare
            (rev (firstn (length (sr_tares bot) + between - (length (sr_bottoms bot) - 1)) (skipn nt tares)))
            (d, sr_bottoms bot);
  let '(d1, bs) := r in
  do _ <- assertb (length bs =? length tares - nt + 1)%nat;
  do lb <- last_bottom bs;
  do fb <- sr_root top;
  do ns <- patch_right (d_nodes d1) lb (mkCon fb 0 2 1 None);
  do e <- foldM extend_bottom (rev bs) (mkTst ns (next + N.of_nat between)%N [], 0%nat);
  Some (mkStr (bs ++ sr_bottoms top) tares (sr_prec top), set_nodes_db d1 (t_nodes (fst e)), t_cls (fst e), t_next (fst e)).

(** ** The encoding *)

(** src/encodings/pb/dpw/mod.rs:62-79 *)
Record dpw : Type := mkDpw {
  dp_in : wmap; dp_struct : option structure; dp_queue : wqueue; dp_prec : nat; dp_sum : nat; dp_vars : N; dp_cls : nat; dp_db : db }.

(** src/encodings/pb/dpw/mod.rs:418-434 [From<RsHashMap>]; a weight 0 panics *)
Definition dpw_from (m : wmap) : option dpw :=
  do r <- foldM queue_lit (ord m) (db_empty, []);
  let '(d, q) := r in
  Some (mkDpw m None q 1 (fold_left (fun s lw => s + snd lw)%nat m 0) 0%N 0 d).

(** src/encodings/pb/dpw/mod.rs:436-441 [FromIterator] *)
Definition dpw_from_iter (xs : list (lit * nat)) : option dpw := dpw_from (map_collect xs).

Inductive prec_error : Type := NotPow2 | PrecisionDecreased.

(** [usize::is_power_of_two] *)
Definition is_pow2 (n : nat) : bool := (n =? 2 ^ Nat.log2 n)%nat.

(** src/encodings/pb/dpw/mod.rs:128-138 [set_precision] *)
Definition dpw_set_precision (t : dpw) (divisor : nat) : dpw + prec_error :=
  if negb ((divisor <=? 1)%nat || is_pow2 divisor) then inr NotPow2
  else if (match dp_struct t with Some _ => true | None => false end) && (dp_prec t <? divisor)%nat then inr PrecisionDecreased
  else inl (mkDpw (dp_in t) (dp_struct t) (dp_queue t) divisor (dp_sum t) (dp_vars t) (dp_cls t) (dp_db t)).

(** src/encodings/pb/dpw/mod.rs:146-153 [next_precision] *)
Definition dpw_next_precision (t : dpw) : nat :=
  match dp_queue t with
  | (maxw, _) :: _ => (2 ^ (digits maxw - 1))%nat
  | [] => 1
  end.

(** src/encodings/pb/dpw/mod.rs:157-159 [is_max_precision] *)
Definition dpw_is_max_precision (t : dpw) : bool := match dp_queue t with [] => true | _ => false end.

(** the queue holds a weight that the precision asks for, e.g. src/encodings/pb/dpw/mod.rs:310-312 *)
Definition must_extend (t : dpw) : bool :=
  match dp_queue t with [] => false | (k, _) :: _ => (dp_prec t <=? k)%nat end.

(** [if self.structure.is_none() { self.structure = Some(build_structure(...)) }] *)
Definition dpw_build (t : dpw) (next : N) : option (dpw * N) :=
  match dp_struct t with
  | Some _ => Some (t, next)
  | None =>
      do r <- build_structure true (dp_queue t) (dp_prec t) (dp_db t) next;
      let '(st, d, q, next') := r in
      Some (mkDpw (dp_in t) (Some st) q (dp_prec t) (dp_sum t) (dp_vars t) (dp_cls t) d, next')
  end.

(** src/encodings/pb/dpw/mod.rs:269-287 [reserve] *)
Definition dpw_reserve (t : dpw) (next : N) : option (dpw * N) :=
  if (length (dp_in t) <=? 1)%nat then Some (t, next)
  else
    do r <- dpw_build t next;
    let '(t1, next1) := r in
    match dp_struct t1 with
    | None => Some (t1, next1)
    | Some st =>
        do root <- sr_root st;
        do s <- reserve_vars (S (length (d_nodes (dp_db t1)))) (mkTst (d_nodes (dp_db t1)) next1 []) (con_full root);
        Some (mkDpw (dp_in t1) (dp_struct t1) (dp_queue t1) (dp_prec t1) (dp_sum t1) (dp_vars t1) (dp_cls t1)
                (set_nodes_db (dp_db t1) (t_nodes s)), t_next s)
    end.

(** src/encodings/pb/dpw/mod.rs:803-824 [encode_output] *)
Definition encode_output (root : nat) (s : tst) (oidx : nat) : option tst :=
  do n <- nth_error (t_nodes s) root;
  if (node_max_val n <=? oidx)%nat then Some s
  else do r <- define_unweighted (S (length (t_nodes s))) s root oidx SIf; Some (snd r).

(** src/encodings/pb/dpw/mod.rs:375-391: extending the structure once the precision has been increased *)
Definition dpw_extend (t : dpw) (next : N) : option (dpw * cnf * N) :=
  match dp_struct t with
  | Some st =>
      if must_extend t then
        do r <- build_structure false (dp_queue t) (dp_prec t) (dp_db t) next;
        let '(top, d, q, next1) := r in
        do r2 <- merge_structures st top d next1;
        let '(st', d', cs, next2) := r2 in
        Some (mkDpw (dp_in t) (Some st') q (dp_prec t) (dp_sum t) (dp_vars t) (dp_cls t) d', cs, next2)
      else Some (t, [], next)
  | None => Some (t, [], next)
  end.

(** src/encodings/pb/dpw/mod.rs:354-405 [encode_ub_change]. The flag [fresh] of the code says that there was no structure
    before. *)
Definition dpw_encode_ub_change (t : dpw) (r : rng) (next : N) : option (dpw * cnf * N) :=
  let '(lo, hi) := prepare_ub_range (dp_sum t) r in
  if (hi <=? lo)%nat || (length (dp_in t) <=? 1)%nat then Some (t, [], next)
  else
    do b <- match dp_struct t with
            | None => do r <- dpw_build t next; let '(t1, next1) := r in Some (t1, [], next1)
            | Some _ => dpw_extend t next
            end;
    let '(t1, cs, next1) := b in
    match dp_struct t1 with
    | None => Some (t1, cs, next1)
    | Some st =>
        do root <- sr_root st;
        let weight := (2 ^ sr_power st)%nat in
        do s <- foldM (encode_output root) (range_incl (lo / weight) ((hi - 1) / weight)) (mkTst (d_nodes (dp_db t1)) next1 cs);
        Some (mkDpw (dp_in t1) (dp_struct t1) (dp_queue t1) (dp_prec t1) (dp_sum t1)
                (dp_vars t1 + (t_next s - next)) (dp_cls t1 + length (t_cls s)) (set_nodes_db (dp_db t1) (t_nodes s)),
              t_cls s, t_next s)
    end.

Definition dpw_reset (t : dpw) : dpw :=
  mkDpw (dp_in t) (dp_struct t) (dp_queue t) (dp_prec t) (dp_sum t) (dp_vars t) (dp_cls t)
    (set_nodes_db (dp_db t) (reset_encoded (d_nodes (dp_db t)) SIf)).

(** src/encodings/pb/dpw/mod.rs:291-303 [encode_ub] *)
Definition dpw_encode_ub (t : dpw) (r : rng) (next : N) : option (dpw * cnf * N) :=
  dpw_encode_ub_change (dpw_reset t) r next.

(** src/encodings/totdb/mod.rs:934-946 [Node::lit] with 1130-1132 and 1260-1262; the outer [None] is the index out of
    bounds *)
Definition node_lit (n : node) (val : nat) : option (option lit) :=
  match n with
  | NLeaf l => Some (if (val =? 1)%nat then Some l else None)
  | NUnit lits _ _ => do d <- nth_error lits (val - 1); Some (ld_lit d)
  | NGeneral lits _ _ _ => Some (match lit_data lits val with Some d => ld_lit d | None => None end)
  | NDummy => Some None
  end.

(** src/encodings/pb/dpw/mod.rs:843-857: the tares to assume, from the highest power downwards, and the bound then
    enforced. Once the bound is reached no further tare satisfies the condition, so that the [break] is left out. *)
Fixpoint set_tares (tares : list lit) (power ub enforced : nat) : option (list lit * nat) :=
  match power with
  | O => Some ([], enforced)
  | S p =>
      if (ub + 2 ^ p <=? enforced)%nat then
        do tare <- nth_error tares p;
        do r <- set_tares tares p ub (enforced - 2 ^ p);
        Some (tare :: fst r, snd r)
      else set_tares tares p ub enforced
  end.

(** src/encodings/pb/dpw/mod.rs:833-860 the function [enforce_ub] *)
Definition enforce_structure (st : structure) (ub : nat) (ns : list node) : option eres :=
  do root <- sr_root st;
  do n <- nth_error ns root;
  let weight := (2 ^ sr_power st)%nat in
  let oidx := (ub / weight)%nat in
  if (node_max_val n <=? oidx)%nat then Some (EOk [])
  else
    do o <- node_lit n (oidx + 1);
    match o with
    | None => Some ENotEncoded
    | Some olit =>
        do r <- set_tares (sr_tares st) (sr_power st) ub ((oidx + 1) * weight - 1);
        do _ <- assertb (snd r =? ub)%nat;
        Some (EOk (neg olit :: fst r))
    end.

(** src/encodings/pb/dpw/mod.rs:305-334 [enforce_ub] *)
Definition dpw_enforce_ub (t : dpw) (ub : nat) : option eres :=
  if (dp_sum t <=? ub)%nat && (dp_prec t <=? 1)%nat then Some (EOk [])
  else match dp_struct t with
       | Some st =>
           if must_extend t then Some ENotEncoded
           else do _ <- assertb (dp_prec t <=? sr_prec st)%nat;
                enforce_structure st (ub / 2 ^ (digits (sr_prec st) - digits (dp_prec t))) (d_nodes (dp_db t))
       | None =>
           if (1 <? length (dp_in t))%nat then Some ENotEncoded
           else match dp_in t with
                | [(l, w)] => Some (EOk (if (w <=? ub * Nat.min (dp_prec t) 1)%nat then [] else [neg l]))
                | _ => None
                end
       end.

(** src/encodings/pb/dpw/mod.rs:336-350 [coarse_ub] *)
Definition dpw_coarse_ub (t : dpw) (ub : nat) : nat :=
  match dp_struct t with
  | Some st =>
      let weight := (2 ^ sr_power st)%nat in
      if (weight =? 1)%nat then ub
      else if (ub <? weight)%nat then ub
      else ((ub + 1) / weight * weight - 1)%nat
  | None => ub
  end.

(** ** Hardening *)

(** [usize::div_ceil] *)
Definition div_ceil (a b : nat) : nat := (a / b + (if a mod b =? 0 then 0 else 1))%nat.

(** [vals.filter_map(|val| node.lit(val).map(|&olit| clause![sgn olit]))], e.g. src/encodings/pb/dpw/mod.rs:188-191 *)
Definition harden (sgn : lit -> lit) (n : node) (vals : list nat) : option cnf :=
  do os <- mapM (node_lit n) vals;
  Some (flat_map (fun o => match o with Some l => [[sgn l]] | None => [] end) os).

(** src/encodings/pb/dpw/mod.rs:199-216: one bottom bucket of an encoding that is not at its maximum precision *)
Definition limit_bucket (ns : list node) (lo hi : nat) (x : nat * nat) : option cnf :=
  let '(pow, bottom) := x in
  let div := (2 ^ pow)%nat in
  do nb <- nth_error ns bottom;
  do top_con <- node_left nb;
  do top <- nth_error ns (nc_id top_con);
  do c1 <- harden (fun l => l) top (node_vals top 0 (Some (nc_rev_map top_con (lo / div) + 1)));
  do c2 <- harden neg top (node_vals top (nc_rev_map_round_up top_con (div_ceil hi div)) None);
  Some (c1 ++ c2).

(** src/encodings/pb/dpw/mod.rs:172-219 [limit_range] *)
Definition dpw_limit_range (t : dpw) (r : rng) : option cnf :=
  let '(lo, hi) := prepare_ub_range (dp_sum t) r in
  match dp_struct t with
  | None => Some []
  | Some st =>
      let ns := d_nodes (dp_db t) in
      if dpw_is_max_precision t then
        let weight := (2 ^ sr_power st)%nat in
        do root <- sr_root st;
        do n <- nth_error ns root;
        do c1 <- harden (fun l => l) n (node_vals n 0 (Some (lo / weight + 1)));
        do c2 <- harden neg n (node_vals n (div_ceil hi weight) None);
        Some (c1 ++ c2)
      else
        do cs <- mapM (limit_bucket ns lo hi)
                   (combine (seq (digits (sr_prec st) - 1) (length (sr_bottoms st))) (rev (sr_bottoms st)));
        Some (concat cs)
  end.

(** The encoding as an encoder whose inputs are fixed by its constructor: the initial state is [t0] and inputs are never
    added (see [DpwSpec]). *)
Definition dpw_enc (t0 : dpw) : encoder (lit * nat) dpw :=
  mkEncoder t0 (fun _ _ => None) dpw_reserve
    dpw_encode_ub dpw_encode_ub_change (fun _ _ _ => None) (fun _ _ _ => None) (fun _ _ _ => None)
    dpw_enforce_ub (fun _ _ => Some ENotEncoded).
End Order.
