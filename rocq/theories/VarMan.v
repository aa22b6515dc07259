(** * Model of the variable managers, [src/instances/mod.rs] *)

From Coq Require Import List Bool NArith.
From Verif Require Import Spec Types NodeDb VarSpec.
Import ListNotations.

(** src/types/mod.rs:256-273 [Var + 1]; [None] is the failing debug assertion *)
Definition var_succ (v : N) : option N := if (v + 1 <=? max_var_idx)%N then Some (v + 1)%N else None.

(** The four managers share the handling of [next_var]: *)
(** mod.rs:107-111, 206-210, 291-295, 387-391 [new_var] *)
Definition next_new (next : N) : option (N * N) := do n <- var_succ next; Some (next, n).
(** mod.rs:113-119, 212-218, 297-303, 393-399 [max_var] *)
Definition next_max (next : N) : option N := if (next =? 0)%N then None else Some (next - 1)%N.
(** mod.rs:121-127, 220-226, 305-311, 401-407 [increase_next_free] *)
Definition next_increase (v next : N) : N * bool := if (next <? v)%N then (v, true) else (next, false).
(** mod.rs:46-48 [mark_used] *)
Definition next_mark (v next : N) : option (N * bool) := do v' <- var_succ v; Some (next_increase v' next).
(** mod.rs:129-133, 228-231, 313-316, 409-412: the first part of [combine] *)
Definition next_combine (next other : N) : N := if (next <? other)%N then other else next.
(** mod.rs:139-141, 242, 326, 421 [forget_from] *)
Definition next_forget (min next : N) : N := N.min next min.

(** ** mod.rs:88-150 [BasicVarManager] *)
Definition basic : manager N := mkManager N (fun n => n) next_new next_max next_increase next_mark next_combine (fun n => n) next_forget.

(** ** Managers with a hash map from keys to variables

    A hash map is an association list without repeated keys. Lookups only depend on equality of the keys. *)
Section Keyed.
Context {K : Type} (keqb : K -> K -> bool).
Definition kmap : Type := list (K * N).
Definition kget (m : kmap) (k : K) : option N := option_map snd (find (fun kv => keqb (fst kv) k) m).
(** [HashMap::insert] *)
Definition kinsert (m : kmap) (kv : K * N) : kmap := kv :: filter (fun kv' => negb (keqb (fst kv') (fst kv))) m.
(** [HashMap::extend] *)
Definition kextend (m m' : kmap) : kmap := fold_left kinsert m' m.
(** [HashMap::retain] as called at mod.rs:240, 325 *)
Definition kretain (min : N) (m : kmap) : kmap := filter (fun kv => (snd kv <? min)%N) m.

(** ** mod.rs:246-328 [ObjectVarManager]; the type [K] stands for all objects of all types together *)
Record objman : Type := mkObj { ob_next : N; ob_map : kmap }.
(** mod.rs:264-278 [object_var] *)
Definition object_var (k : K) (s : objman) : option (N * objman) :=
  match kget (ob_map s) k with
  | Some v => Some (v, s)
  | None => do r <- next_new (ob_next s); let '(v, n) := r in Some (v, mkObj n (kinsert (ob_map s) (k, v)))
  end.
Definition objects : manager objman := mkManager objman
  (fun n => mkObj n [])
  (fun s => do r <- next_new (ob_next s); let '(v, n) := r in Some (v, mkObj n (ob_map s)))
  (fun s => next_max (ob_next s))
  (fun v s => let '(n, b) := next_increase v (ob_next s) in (mkObj n (ob_map s), b))
  (fun v s => do r <- next_mark v (ob_next s); let '(n, b) := r in Some (mkObj n (ob_map s), b))
  (fun s s' => mkObj (next_combine (ob_next s) (ob_next s')) (kextend (ob_map s) (ob_map s')))
  ob_next
  (fun v s => mkObj (next_forget v (ob_next s)) (kretain v (ob_map s))).
End Keyed.
Arguments kmap : clear implicits.
Arguments objman : clear implicits.

(** ** mod.rs:152-245 [ReindexingVarManager] *)
Record reman : Type := mkRe { re_next : N; re_in : kmap N; re_out : list N }.
(** mod.rs:161-172 [from_next_free]; [Default] is [from_next_free 0] *)
Definition re_start (n : N) : reman := mkRe n [] (map N.of_nat (seq 0 (N.to_nat n))).
(** mod.rs:176-185 [reindex] *)
Definition re_reindex (k : N) (s : reman) : option (N * reman) :=
  match kget N.eqb (re_in s) k with
  | Some v => Some (v, s)
  | None => do r <- next_new (re_next s); let '(v, n) := r in Some (v, mkRe n (kinsert N.eqb (re_in s) (k, v)) (re_out s ++ [k]))
  end.
(** mod.rs:187-192 [reverse] *)
Definition re_reverse (v : N) (s : reman) : option N := nth_error (re_out s) (N.to_nat v).
Definition reindexing : manager reman := mkManager reman
  re_start
  (fun s => do r <- next_new (re_next s); let '(v, n) := r in Some (v, mkRe n (re_in s) (re_out s)))
  (fun s => next_max (re_next s))
  (fun v s => let '(n, b) := next_increase v (re_next s) in (mkRe n (re_in s) (re_out s), b))
  (fun v s => do r <- next_mark v (re_next s); let '(n, b) := r in Some (mkRe n (re_in s) (re_out s), b))
  (fun s s' => mkRe (next_combine (re_next s) (re_next s')) (kextend N.eqb (re_in s) (re_in s')) (re_out s))
  re_next
  (fun v s => mkRe (next_forget v (re_next s)) (kretain v (re_in s)) (firstn (N.to_nat v + 1) (re_out s))).

(** mod.rs:65-72 [reindex_lit], 77-85 [reverse_lit] *)
Definition reindex_lit (l : lit) (s : reman) : option (lit * reman) :=
  do r <- re_reindex (lvar l) s; let '(v, s') := r in Some (mkLit v (lneg l), s').
Definition reverse_lit (l : lit) (s : reman) : option lit :=
  option_map (fun v => mkLit v (lneg l)) (re_reverse (lvar l) s).

(** ** mod.rs:330-423 [RandReindVarManager] *)
Record randman : Type := mkRand { ra_next : N; ra_in : list N; ra_out : list N }.
(** mod.rs:350-354: the loop building the reverse map; [None] is an index out of bounds *)
Fixpoint rand_invert (idx : N) (in_map out : list N) : option (list N) :=
  match in_map with
  | [] => Some out
  | v :: in_map' => do out' <- vec_set (N.to_nat v) idx out; rand_invert (idx + 1) in_map' out'
  end.
(** mod.rs:343-360 [init]; [shuffled] is the result of randomly shuffling [0 .. n_vars - 1] *)
Definition rand_init (n : N) (shuffled : list N) : option randman :=
  do out <- rand_invert 0 shuffled (repeat 0%N (N.to_nat n)); Some (mkRand n shuffled out).
(** mod.rs:364-372 [reindex] *)
Definition rand_reindex (k : N) (s : randman) : N := match nth_error (ra_in s) (N.to_nat k) with Some v => v | None => k end.
(** mod.rs:374-382 [reverse] *)
Definition rand_reverse (v : N) (s : randman) : option N :=
  match nth_error (ra_out s) (N.to_nat v) with Some k => Some k | None => Some v end.
(** mod.rs:386-423: [new_var], [increase_next_free] and [forget_from] only change [next_var]; 409-414 [combine] *)
Definition rand_new (s : randman) : option (N * randman) :=
  do r <- next_new (ra_next s); let '(v, n) := r in Some (v, mkRand n (ra_in s) (ra_out s)).
Definition rand_combine (s s' : randman) : randman :=
  mkRand (next_combine (ra_next s) (ra_next s')) (ra_in s ++ ra_in s') (ra_out s).
