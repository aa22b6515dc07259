(** * Specification of encoders sharing a node database

    One database, one variable manager. The user builds trees in the database and creates any number of encoders on them,
    in any order; every encoder call works on the same database. *)

From Coq Require Import List Bool NArith.
From Verif Require Import Spec BoundSpec NodeDb TreeSpec RefEnc.
Import ListNotations.

(** a totalizer, or a generalized totalizer told the maximum weight of a leaf *)
Inductive kind : Type := KTot | KGte (maxw : nat).

Inductive bcall : Type :=
  | BReserve | BUb (r : rng) | BUbChange (r : rng) | BLb (r : rng) | BLbChange (r : rng) | BBoth (r : rng).

(** a call on the database: variables taken by the user, a tree built, or a method of an encoder on the [i]-th tree *)
Inductive shared_op : Type :=
  | SUserVars (k : N)
  | STree (op : tree_op)
  | SEnc (k : kind) (i : nat) (c : bcall).

Definition trees : Type := list (nodecon * list (lit * nat)).

Definition ref_call (k : kind) (d : db) (con : nodecon) (c : bcall) (next : N) : option (db * cnf * N) :=
  match k, c with
  | KTot, BReserve => rt_reserve d (nc_id con) next
  | KTot, BUb r => rt_ub d (nc_id con) r next
  | KTot, BUbChange r => rt_ub_change d (nc_id con) r next
  | KTot, BLb r => rt_lb d (nc_id con) r next
  | KTot, BLbChange r => rt_lb_change d (nc_id con) r next
  | KTot, BBoth r => rt_both d (nc_id con) r next
  | KGte _, BReserve => rg_reserve d con next
  | KGte m, BUb r => rg_ub d con m r next
  | KGte m, BUbChange r => rg_ub_change d con m r next
  | KGte _, _ => None
  end.

Definition ref_enforce_ub (k : kind) (d : db) (con : nodecon) (ub : nat) : option eres :=
  match k with KTot => rt_enforce_ub d (nc_id con) ub | KGte m => rg_enforce_ub d con m ub end.

Definition is_ub (c : bcall) : bool := match c with BUb _ => true | _ => false end.
Definition is_lb (c : bcall) : bool := match c with BLb _ => true | _ => false end.

(** The world is that of [BoundSpec]: the literals in trees, the next free variable, the variables taken by encoders, all
    clauses, and those since the last [encode_ub] respectively [encode_lb] call of any encoder. *)
Definition sstep (w : world (lit * nat)) (d : db) (T : trees) (op : shared_op) : option (world (lit * nat) * db * trees) :=
  match op with
  | SUserVars k => Some (mkWorld (w_in w) (w_next w + k)%N (w_aux w) (w_all w) (w_ub w) (w_lb w), d, T)
  | STree op =>
      match tree_step d T op with
      | Some (d', T') => Some (mkWorld (concat (map snd T')) (w_next w) (w_aux w) (w_all w) (w_ub w) (w_lb w), d', T')
      | None => None
      end
  | SEnc k i c =>
      match nth_error T i with
      | None => None
      | Some (con, _) =>
          match ref_call k d con c (w_next w) with
          | Some (d', cs, next) => Some (log_call w (is_ub c) (is_lb c) cs next, d', T)
          | None => None
          end
      end
  end.

(** the totalizer is for trees over unweighted literals, the generalized totalizer needs a correct maximum weight *)
Definition fits (k : kind) (ls : list (lit * nat)) : Prop :=
  match k with
  | KTot => forall l x, In (l, x) ls -> x = 1%nat
  | KGte m => forall l x, In (l, x) ls -> (x <= m)%nat
  end.

(** an encoder of kind [k] on the [i]-th tree, which has root [con] and leaves [ls] *)
Definition encoder_on (T : trees) (k : kind) (i : nat) (con : nodecon) (ls : list (lit * nat)) : Prop :=
  nth_error T i = Some (con, ls) /\ fits k ls.

Definition new_lits (op : tree_op) : list lit :=
  match op with TLits ls => ls | TWeighted ls => map fst ls | TMerge _ _ => [] end.

(** literals of trees are allocated variables that no encoder took; the generalized totalizer has no lower bounds *)
Definition valid_shared (w : world (lit * nat)) (T : trees) (op : shared_op) : Prop :=
  match op with
  | SUserVars _ => True
  | STree op => valid_tree_op T op /\ forall l, In l (new_lits op) -> (lvar l < w_next w)%N /\ ~ in_aux (w_aux w) (lvar l)
  | SEnc k i c => (exists con ls, encoder_on T k i con ls) /\
                  match k, c with KGte _, (BLb _ | BLbChange _ | BBoth _) => False | _, _ => True end
  end.

Inductive shared : world (lit * nat) -> db -> trees -> Prop :=
  | sh_start : shared world0 db_empty []
  | sh_step w d T op w' d' T' : shared w d T -> valid_shared w T op -> sstep w d T op = Some (w', d', T') -> shared w' d' T'.

(** ** What users rely on *)

(** no call panics, and no upper bound asked for *)
Definition shared_no_panic : Prop :=
  forall w d T, shared w d T ->
    (forall op, valid_shared w T op -> sstep w d T op <> None) /\
    (forall k i con ls ub, encoder_on T k i con ls -> ref_enforce_ub k d con ub <> None /\ ref_enforce_ub k d con ub <> Some EUnsat).

(** upper bounds hold under the clauses since the last [encode_ub], whatever the other encoders did *)
Definition shared_ub_sound : Prop :=
  forall w d T k i con ls ub asm a, shared w d T -> encoder_on T k i con ls ->
    ref_enforce_ub k d con ub = Some (EOk asm) -> sat_cnf a (w_ub w) = true -> sat_cube a asm = true -> wsum a ls <= ub.

(** lower bounds under a set of clauses [W w] *)
Definition shared_lb_sound (W : world (lit * nat) -> cnf) : Prop :=
  forall w d T i con ls lb asm a, shared w d T -> encoder_on T KTot i con ls ->
    rt_enforce_lb d (nc_id con) lb = Some (EOk asm) -> sat_cnf a (W w) = true -> sat_cube a asm = true -> lb <= wsum a ls.

(** every assignment has one variant, changed on the variables taken by encoders only, that satisfies all clauses and the
    assumptions of all bounds the assignment meets, of all encoders *)
Definition shared_complete : Prop :=
  forall w d T a, shared w d T -> exists a',
    (forall v, ~ in_aux (w_aux w) v -> a' v = a v) /\
    sat_cnf a' (w_all w) = true /\
    (forall k i con ls ub asm, encoder_on T k i con ls -> ref_enforce_ub k d con ub = Some (EOk asm) -> wsum a ls <= ub -> sat_cube a' asm = true) /\
    (forall i con ls lb asm, encoder_on T KTot i con ls -> rt_enforce_lb d (nc_id con) lb = Some (EOk asm) -> lb <= wsum a ls -> sat_cube a' asm = true).

(** the bounds that were encoded can be enforced *)
Definition ub_range (c : bcall) : option rng := match c with BUb r | BUbChange r | BBoth r => Some r | _ => None end.
Definition lb_range (c : bcall) : option rng := match c with BLb r | BLbChange r | BBoth r => Some r | _ => None end.

Definition shared_encodes : Prop :=
  forall w d T k i c con ls w' d' T', shared w d T -> valid_shared w T (SEnc k i c) -> encoder_on T k i con ls ->
    sstep w d T (SEnc k i c) = Some (w', d', T') ->
    (forall r ub, ub_range c = Some r -> in_rng ub r -> exists asm, ref_enforce_ub k d' con ub = Some (EOk asm)) /\
    (forall r lb, lb_range c = Some r -> in_rng lb r -> 1 <= lb ->
       (exists asm, rt_enforce_lb d' (nc_id con) lb = Some (EOk asm)) \/
       (rt_enforce_lb d' (nc_id con) lb = Some EUnsat /\ forall a, wsum a ls < lb)).

(** calls that only add: all but [encode_ub] and [encode_lb] *)
Definition adding (op : shared_op) : Prop := match op with SEnc _ _ c => is_ub c = false /\ is_lb c = false | _ => True end.

(** no call takes from any encoder what it could enforce: lower bounds never, upper bounds as long as [up op] *)
Definition shared_persists (up : shared_op -> Prop) : Prop :=
  forall w d T op w' d' T' k i con ls, shared w d T -> valid_shared w T op -> sstep w d T op = Some (w', d', T') ->
    encoder_on T k i con ls ->
    encoder_on T' k i con ls /\
    (up op -> forall ub asm, ref_enforce_ub k d con ub = Some (EOk asm) -> ref_enforce_ub k d' con ub = Some (EOk asm)) /\
    (k = KTot -> forall lb asm, rt_enforce_lb d (nc_id con) lb = Some (EOk asm) -> rt_enforce_lb d' (nc_id con) lb = Some (EOk asm)).

(** clauses and assumptions mention literals of trees and variables taken by encoders only *)
Definition shared_local : Prop :=
  forall w d T, shared w d T ->
    (forall c l, In c (w_all w) -> In l c -> (exists x, In x (w_in w) /\ lvar (fst x) = lvar l) \/ in_aux (w_aux w) (lvar l)) /\
    (forall v, in_aux (w_aux w) v -> (v < w_next w)%N /\ forall x, In x (w_in w) -> lvar (fst x) <> v).

(** the sums a tree can reach *)
Definition possible (ls : list (lit * nat)) (v : nat) : Prop := exists a, wsum a ls = v.
