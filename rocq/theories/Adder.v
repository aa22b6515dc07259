(** * Model of the binary adder encoding, [src/encodings/pb/adder.rs] *)

From Coq Require Import List Bool NArith Arith.
From Verif Require Import Spec BoundSpec Types Maps NodeDb Totalizer.
Import ListNotations.

(** adder.rs:527-533 [Connection]: an input literal, or the sum or carry output of a node *)
Inductive port : Type := PSum | PCarry.
Inductive acon : Type := AIn (l : lit) | APort (p : port) (n : nat).

(** adder.rs:535-541 [Output] *)
Record aout : Type := mkOut { o_bit : lit; o_if : bool; o_only : bool }.

(** adder.rs:467-483 [Node]: the inputs of a full or half adder, and its outputs *)
Inductive shape : Type := Full (a b c : acon) | Half (a b : acon).
Definition kids (sh : shape) : list acon := match sh with Full a b c => [a; b; c] | Half a b => [a; b] end.
Record anode : Type := mkANode { an_sh : shape; an_sum : option aout; an_carry : option aout }.

(** adder.rs:38-65 [BinaryAdder], [Structure] (outputs and comparator); the counters of variables and clauses are not
    modelled *)
Record adder : Type := mkAdder {
  ad_buf : wmap; ad_struct : option (list (option acon) * list (option aout)); ad_sum : nat; ad_nodes : list anode }.

(** adder.rs:38, derived [Default] *)
Definition add_new : adder := mkAdder [] None 0 [].

(** adder.rs:437-444 [From<RsHashMap>], 446-451 [FromIterator] *)
Definition add_from_iter (xs : list (lit * nat)) : adder := mkAdder (map_collect xs) None 0 [].

(** adder.rs:453-465 [Extend] *)
Definition add_extend (t : adder) (xs : list (lit * nat)) : adder :=
  mkAdder (map_adds (ad_buf t) xs) (ad_struct t) (ad_sum t) (ad_nodes t).

(** adder.rs:153-159 [weight_sum] *)
Definition add_weight_sum (t : adder) : nat := fold_left (fun s lw => s + snd lw)%nat (ad_buf t) (ad_sum t).

(** ** Building the structure *)

(** adder.rs:79: [usize::BITS - weight.leading_zeros()] *)
Definition bit_len (w : nat) : nat := if (w =? 0)%nat then 0 else S (Nat.log2 w).

(** adder.rs:85-91: the input is pushed into the bucket of every bit of the weight. The loop in the code stops after the
    highest bit of the weight, the remaining bits are 0. *)
Fixpoint push_bits (bs : list (list acon)) (w : nat) (l : lit) : list (list acon) :=
  match bs with
  | [] => []
  | q :: bs' => (if Nat.odd w then q ++ [AIn l] else q) :: push_bits bs' (Nat.div2 w) l
  end.

(** adder.rs:81, 97, 113, 246: [Vec::resize] to a larger size *)
Definition resize {A} (xs : list A) (n : nat) (x : A) : list A := xs ++ repeat x (n - length xs).

(** adder.rs:76-92 *)
Definition add_input (bs : list (list acon)) (lw : lit * nat) : option (list (list acon)) :=
  do _ <- assertb (negb (snd lw =? 0)%nat);
  let m := bit_len (snd lw) in
  let bs1 := if (length bs <=? m)%nat then resize bs (m + 1) [] else bs in
  Some (push_bits bs1 (snd lw) (fst lw)).
Fixpoint add_inputs (bs : list (list acon)) (xs : list (lit * nat)) : option (list (list acon)) :=
  match xs with
  | [] => Some bs
  | x :: xs' => do bs' <- add_input bs x; add_inputs bs' xs'
  end.

(** adder.rs:94-107 *)
Fixpoint push_outputs (bs : list (list acon)) (outs : list (option acon)) : list (list acon) :=
  match bs, outs with
  | q :: bs', Some o :: outs' => (q ++ [o]) :: push_outputs bs' outs'
  | q :: bs', None :: outs' => q :: push_outputs bs' outs'
  | _, _ => bs
  end.

(** adder.rs:485-503 [Node::full], [Node::half] *)
Definition new_node (sh : shape) : anode := mkANode sh None None.

(** adder.rs:117-135: the two inner loops for one bucket; returns the new nodes (the next of which has index [len]), the
    carries pushed into the next bucket, and what remains in the bucket *)
Fixpoint reduce (fuel len : nat) (q : list acon) : option (list anode * list acon * list acon) :=
  match q with
  | a :: b :: c :: r =>
      match fuel with
      | O => None
      | S f => do res <- reduce f (S len) (r ++ [APort PSum len]);
               let '(ns, cs, q') := res in Some (new_node (Full a b c) :: ns, APort PCarry len :: cs, q')
      end
  | [a; b] => Some ([new_node (Half a b)], [APort PCarry len], [APort PSum len])
  | _ => Some ([], [], q)
  end.

(** adder.rs:109-149: the outer loop and collecting the outputs; [None] also stands for indexing a missing bucket and for
    the assertion that at most one connection remains. *)
Fixpoint build (fuel len : nat) (bs : list (list acon)) : option (list anode * list (option acon)) :=
  match bs with
  | [] => Some ([], [])
  | q :: rest =>
      match fuel with
      | O => None
      | S f =>
          let rest1 := match rest with [] => if (2 <=? length q)%nat then [[]] else [] | _ => rest end in
          do res <- reduce (length q) len q;
          let '(ns, cs, q') := res in
          do rest2 <- match rest1, cs with
                      | [], [] => Some []
                      | [], _ => None
                      | r :: rs, _ => Some ((r ++ cs) :: rs)
                      end;
          do res2 <- build f (len + length ns) rest2;
          do _ <- assertb (length q' <=? 1)%nat;
          Some (ns ++ fst res2, hd_error q' :: snd res2)
      end
  end.
(** enough for the loop to finish, see [build_total] *)
Definition build_fuel (bs : list (list acon)) : nat := (length bs + length (concat bs) + 1)%nat.

(** adder.rs:68-150 [extend_structure]; [ord] is the iteration order of the hash map *)
Definition extend_structure (ord : wmap -> wmap) (t : adder) : option adder :=
  match ad_buf t with
  | [] => Some t
  | _ =>
      do bs <- add_inputs [] (ord (ad_buf t));
      let bs1 := match ad_struct t with
                 | Some (outs, _) => push_outputs (if (length bs <? length outs)%nat then resize bs (length outs) [] else bs) outs
                 | None => bs
                 end in
      do res <- build (build_fuel bs1) (length (ad_nodes t)) bs1;
      Some (mkAdder [] (Some (snd res, [])) (fold_left (fun s lw => s + snd lw)%nat (ord (ad_buf t)) (ad_sum t)) (ad_nodes t ++ fst res))
  end.

(** ** Encoding the nodes *)

(** the two directions in which a bit is encoded: [_if] and [_only_if] functions (adder.rs:543-860) *)
Inductive dir : Type := DIf | DOnly.
Definition out_of (p : port) (nd : anode) : option aout := match p with PSum => an_sum nd | PCarry => an_carry nd end.
Definition set_out (p : port) (nd : anode) (o : aout) : anode :=
  match p with
  | PSum => mkANode (an_sh nd) (Some o) (an_carry nd)
  | PCarry => mkANode (an_sh nd) (an_sum nd) (Some o)
  end.
Definition flag (d : dir) (o : aout) : bool := match d with DIf => o_if o | DOnly => o_only o end.
Definition set_flag (d : dir) (o : aout) : aout :=
  match d with DIf => mkOut (o_bit o) true (o_only o) | DOnly => mkOut (o_bit o) (o_if o) true end.

(** The flag set by [sum_if] (adder.rs:603-617, 631-645), [sum_only_if] (672-686, 700-714), [carry_if] (741-755, 768-782)
    and [carry_only_if] (808-822; but 835-849 sets [enc_if] for half adders) *)
Definition mark_dir (d : dir) (p : port) (sh : shape) : dir :=
  match d, p, sh with DOnly, PCarry, Half _ _ => DIf | _, _, _ => d end.

(** The direction in which the inputs of a node are encoded; [carry_only_if] calls [get_bit_if] (824-826, 851-852) *)
Definition kid_dir (d : dir) (p : port) : dir := match d, p with DOnly, PCarry => DIf | _, _ => d end.

(** The clauses of adder.rs:623-626, 650-651 ([sum_if]), 692-695, 719-720 ([sum_only_if]), 761-763, 787 ([carry_if]),
    828-830, 854-855 ([carry_only_if]) *)
Definition node_clauses (d : dir) (p : port) (bits : list lit) (o : lit) : cnf :=
  match bits with
  | [a; b; c] =>
      match d, p with
      | DIf, PSum => [[neg a; neg b; neg c; o]; [neg a; b; c; o]; [a; neg b; c; o]; [a; b; neg c; o]]
      | DOnly, PSum => [[a; b; c; neg o]; [a; neg b; neg c; neg o]; [neg a; b; neg c; neg o]; [neg a; neg b; c; neg o]]
      | DIf, PCarry => [[neg b; neg c; o]; [neg a; neg c; o]; [neg a; neg b; o]]
      | DOnly, PCarry => [[b; c; neg o]; [a; c; neg o]; [a; b; neg o]]
      end
  | [a; b] =>
      match d, p with
      | DIf, PSum => [[neg a; b; o]; [a; neg b; o]]
      | DOnly, PSum => [[a; b; neg o]; [neg a; neg b; neg o]]
      | DIf, PCarry => [[neg a; neg b; o]]
      | DOnly, PCarry => [[a; neg o]; [b; neg o]]
      end
  | _ => []
  end.

(** the nodes, the clauses added so far and the next free variable *)
Definition estate : Type := (list anode * cnf * N)%type.
Definition set_nth {A} (xs : list A) (n : nat) (x : A) : list A := firstn n xs ++ x :: skipn (S n) xs.

(** adder.rs:543-587 [get_bit_if], [get_bit_only_if], for a list of connections of a node; [g] encodes an output of an
    earlier node, slicing off the later nodes *)
Fixpoint get_bits (g : port -> nat -> estate -> option (lit * estate)) (ks : list acon) (st : estate) : option (list lit * estate) :=
  match ks with
  | [] => Some ([], st)
  | k :: ks' =>
      do r <- match k with AIn l => Some (l, st) | APort p n => g p n st end;
      do rs <- get_bits g ks' (snd r); Some (fst r :: fst rs, snd rs)
  end.

(** adder.rs:589-860 [sum_if], [sum_only_if], [carry_if], [carry_only_if]; they recurse over ever shorter slices of nodes,
    the model bounds the recursion by [fuel], for which one more than the index of the node is enough *)
Fixpoint enc_bit (fuel : nat) (d : dir) (p : port) (n : nat) (st : estate) : option (lit * estate) :=
  match fuel with
  | O => None
  | S f =>
      let '(nodes, cs, next) := st in
      do nd <- nth_error nodes n;
      match (match out_of p nd with
             | Some o => if flag d o then None else Some (set_flag (mark_dir d p (an_sh nd)) o, next)
             | None => Some (set_flag (mark_dir d p (an_sh nd)) (mkOut (mkLit next false) false false), (next + 1)%N)
             end) with
      | None => do o <- out_of p nd; Some (o_bit o, st)
      | Some (o, next1) =>
          do r <- get_bits (fun p' k st' => if (k <? n)%nat then enc_bit f (kid_dir d p) p' k st' else None)
                    (kids (an_sh nd)) (set_nth nodes n (set_out p nd o), cs, next1);
          let '(bits, (nodes2, cs2, next2)) := r in
          Some (o_bit o, (nodes2, cs2 ++ node_clauses d p bits (o_bit o), next2))
      end
  end.

(** adder.rs:232-244, 350-362: the bits of the outputs of the structure *)
Fixpoint enc_outs (d : dir) (outs : list (option acon)) (st : estate) : option (list (option lit) * estate) :=
  match outs with
  | [] => Some ([], st)
  | None :: outs' => do rs <- enc_outs d outs' st; Some (None :: fst rs, snd rs)
  | Some con :: outs' =>
      do r <- match con with AIn l => Some (l, st) | APort p n => enc_bit (S n) d p n st end;
      do rs <- enc_outs d outs' (snd r); Some (Some (fst r) :: fst rs, snd rs)
  end.

(** ** The comparator *)

(** adder.rs:913-920, 961-968: the literals of a comparator clause for the bits above the first difference. The bit of
    [rhs] at an index is the lowest bit after dropping those below. [None]: the clause is dropped since a bit that is
    always 0 would have to be 1. *)
Fixpoint above_lits (rhs : nat) (lhs : list (option lit)) : option clause :=
  match lhs with
  | [] => Some []
  | b :: lhs' =>
      do r <- above_lits (Nat.div2 rhs) lhs';
      if Nat.odd rhs then match b with Some l => Some (neg l :: r) | None => None end
      else match b with Some l => Some (l :: r) | None => Some r end
  end.

(** adder.rs:889-928 [comparator_if]: the clauses for the bits of [lhs] from the lowest *)
Fixpoint comp_if (rhs : nat) (output : lit) (lhs : list (option lit)) : cnf :=
  match lhs with
  | [] => []
  | b :: lhs' =>
      (match Nat.odd rhs, b, above_lits (Nat.div2 rhs) lhs' with
       | false, Some l, Some r => [neg l :: r ++ [output]]
       | _, _, _ => []
       end) ++ comp_if (Nat.div2 rhs) output lhs'
  end.
Definition comparator_if (rhs : nat) (output : lit) (lhs : list (option lit)) : option cnf :=
  do _ <- assertb (rhs <? 2 ^ length lhs)%nat; Some (comp_if rhs output lhs).

(** adder.rs:930-976 [comparator_only_if] *)
Fixpoint comp_only (rhs : nat) (output : lit) (lhs : list (option lit)) : cnf :=
  match lhs with
  | [] => []
  | b :: lhs' =>
      (match Nat.odd rhs, above_lits (Nat.div2 rhs) lhs' with
       | true, Some r => [match b with Some l => [l] | None => [] end ++ r ++ [neg output]]
       | _, _ => []
       end) ++ comp_only (Nat.div2 rhs) output lhs'
  end.
Definition comparator_only_if (rhs : nat) (output : lit) (lhs : list (option lit)) : option cnf :=
  do _ <- assertb (rhs <? 2 ^ length lhs)%nat;
  if (rhs =? 2 ^ length lhs - 1)%nat then Some [[neg output]] else Some (comp_only (rhs + 1) output lhs).

(** adder.rs:248-265: for the values [val], [val + 1], ... of the range, [n] of them *)
Fixpoint enc_comp_if (lhs : list (option lit)) (val n : nat) (comp : list (option aout)) (next : N) : option (list (option aout) * cnf * N) :=
  match n with
  | O => Some (comp, [], next)
  | S n' =>
      do c <- nth_error comp val;
      match (match c with
             | Some o => if o_if o then None else Some (mkOut (o_bit o) true (o_only o), next)
             | None => Some (mkOut (mkLit next false) true false, (next + 1)%N)
             end) with
      | None => enc_comp_if lhs (S val) n' comp next
      | Some (o, next1) =>
          do cs <- comparator_if val (o_bit o) lhs;
          do r <- enc_comp_if lhs (S val) n' (set_nth comp val (Some o)) next1;
          let '(comp2, cs2, next2) := r in Some (comp2, cs ++ cs2, next2)
      end
  end.

(** adder.rs:366-383: the same for lower bounds, with [val] one less than the bound; it checks [enc_if] *)
Fixpoint enc_comp_only (lhs : list (option lit)) (val n : nat) (comp : list (option aout)) (next : N) : option (list (option aout) * cnf * N) :=
  match n with
  | O => Some (comp, [], next)
  | S n' =>
      do c <- nth_error comp val;
      match (match c with
             | Some o => if o_if o then None else Some (mkOut (o_bit o) (o_if o) true, next)
             | None => Some (mkOut (mkLit next false) false true, (next + 1)%N)
             end) with
      | None => enc_comp_only lhs (S val) n' comp next
      | Some (o, next1) =>
          do cs <- comparator_only_if val (o_bit o) lhs;
          do r <- enc_comp_only lhs (S val) n' (set_nth comp val (Some o)) next1;
          let '(comp2, cs2, next2) := r in Some (comp2, cs ++ cs2, next2)
      end
  end.

(** ** The methods *)

Section Methods.
Variable ord : wmap -> wmap.

(** adder.rs:228-266, 346-384: what [encode_ub_change] and [encode_lb_change] share: [first] is the first comparator and [n] the number of them,
    [clen] the minimal length of the comparator *)
Definition encode_change (d : dir) (t : adder) (first n clen : nat) (next : N) : option (adder * cnf * N) :=
  do t1 <- extend_structure ord t;
  match ad_struct t1 with
  | None => Some (t1, [], next)
  | Some (outs, comp) =>
      do r <- enc_outs d outs (ad_nodes t1, [], next);
      let '(lhs, (nodes, cs, next1)) := r in
      let comp1 := if (length comp <? clen)%nat then resize comp clen None else comp in
      do r2 <- match d with DIf => enc_comp_if lhs first n comp1 next1 | DOnly => enc_comp_only lhs first n comp1 next1 end;
      let '(comp2, cs2, next2) := r2 in
      Some (mkAdder (ad_buf t1) (Some (outs, comp2)) (ad_sum t1) nodes, cs ++ cs2, next2)
  end.

(** adder.rs:210-271 [encode_ub_change] *)
Definition add_encode_ub_change (t : adder) (r : rng) (next : N) : option (adder * cnf * N) :=
  let '(lo, hi) := prepare_ub_range (add_weight_sum t) r in
  if (hi <=? lo)%nat then Some (t, [], next) else encode_change DIf t lo (hi - lo) hi next.

(** adder.rs:328-389 [encode_lb_change]; the range starts at 1 or later *)
Definition add_encode_lb_change (t : adder) (r : rng) (next : N) : option (adder * cnf * N) :=
  let '(lo, hi) := prepare_lb_range (add_weight_sum t) r in
  if (hi <=? lo)%nat then Some (t, [], next) else encode_change DOnly t (lo - 1) (hi - lo) hi next.

(** adder.rs:162-190, 275-303: the first part of [encode_ub] and [encode_lb] resets the flags of the nodes *)
Definition reset_out (o : aout) : aout := mkOut (o_bit o) false false.
Definition reset_node (nd : anode) : anode := mkANode (an_sh nd) (option_map reset_out (an_sum nd)) (option_map reset_out (an_carry nd)).
Definition reset_flags (t : adder) : adder := mkAdder (ad_buf t) (ad_struct t) (ad_sum t) (map reset_node (ad_nodes t)).
Definition add_encode_ub (t : adder) (r : rng) (next : N) := add_encode_ub_change (reset_flags t) r next.
Definition add_encode_lb (t : adder) (r : rng) (next : N) := add_encode_lb_change (reset_flags t) r next.

(** adder.rs:393-406 [encode_both] *)
Definition add_encode_both (t : adder) (r : rng) (next : N) : option (adder * cnf * N) :=
  do r1 <- add_encode_ub_change t r next;
  let '(t1, c1, n1) := r1 in
  do r2 <- add_encode_lb_change t1 r n1;
  let '(t2, c2, n2) := r2 in Some (t2, c1 ++ c2, n2).

(** adder.rs:192-206 [enforce_ub] *)
Definition add_enforce_ub (t : adder) (ub : nat) : option eres :=
  if (add_weight_sum t <=? ub)%nat then Some (EOk [])
  else match ad_struct t with
       | None => Some ENotEncoded
       | Some (_, comp) =>
           match nth_error comp ub with
           | Some (Some o) => if o_if o then Some (EOk [neg (o_bit o)]) else Some ENotEncoded
           | _ => Some ENotEncoded
           end
       end.

(** adder.rs:305-324 [enforce_lb] *)
Definition add_enforce_lb (t : adder) (lb : nat) : option eres :=
  if (add_weight_sum t <? lb)%nat then Some EUnsat
  else if (lb =? 0)%nat then Some (EOk [])
  else match ad_struct t with
       | None => Some ENotEncoded
       | Some (_, comp) =>
           match nth_error comp (lb - 1) with
           | Some (Some o) => if o_only o then Some (EOk [o_bit o]) else Some ENotEncoded
           | _ => Some ENotEncoded
           end
       end.

(** adder.rs:412-422 [reserve]: it calls the recursive [reserve] for every output of a node, which indexes the empty second
    half of [nodes.split_at_mut(nodes.len())] (863-866) *)
Definition add_reserve (t : adder) (next : N) : option (adder * N) :=
  do t1 <- extend_structure ord t;
  match ad_struct t1 with
  | None => Some (t1, next)
  | Some (outs, _) =>
      if existsb (fun o => match o with Some (APort _ _) => true | _ => false end) outs then None else Some (t1, next)
  end.

Definition adder_enc : encoder (lit * nat) adder :=
  mkEncoder add_new (fun t xs => Some (add_extend t xs)) add_reserve
    add_encode_ub add_encode_ub_change add_encode_lb add_encode_lb_change add_encode_both add_enforce_ub add_enforce_lb.
End Methods.
