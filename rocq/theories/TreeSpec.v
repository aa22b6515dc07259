(** * What the leaves of a tree in the node database are *)

From Coq Require Import List NArith.
From Verif Require Import Spec NodeDb.
Import ListNotations.

(** a connection passing on the whole value of a node, times a weight *)
Definition plain_con (con : nodecon) : Prop := nc_offset con = 0 /\ nc_div con = 1 /\ nc_limit con = None.

Definition scale (w : nat) (ls : list (lit * nat)) : list (lit * nat) := map (fun '(l, x) => (l, x * w)) ls.

Definition children (n : node) : option (nodecon * nodecon) :=
  match n with
  | NUnit _ l r | NGeneral _ _ l r => Some (l, r)
  | _ => None
  end.

(** the literals at the leaves of the tree below a node, from left to right, each with the product of the weights on the
    path to it *)
Inductive tree_leaves (ns : list node) : nat -> list (lit * nat) -> Prop :=
  | tl_leaf id l : nth_error ns id = Some (NLeaf l) -> tree_leaves ns id [(l, 1)]
  | tl_node id n l r ls rs : nth_error ns id = Some n -> children n = Some (l, r) -> plain_con l -> plain_con r ->
      tree_leaves ns (nc_id l) ls -> tree_leaves ns (nc_id r) rs ->
      tree_leaves ns id (scale (nc_mult l) ls ++ scale (nc_mult r) rs).

Definition con_leaves (ns : list node) (con : nodecon) (ls : list (lit * nat)) : Prop :=
  plain_con con /\ exists ls0, tree_leaves ns (nc_id con) ls0 /\ ls = scale (nc_mult con) ls0.

(** ** Histories of tree-building calls *)

(** a tree to build: over literals, over weighted literals, or over trees built before (by their position) *)
Inductive tree_op : Type :=
  | TLits (ls : list lit)
  | TWeighted (ls : list (lit * nat))
  | TMerge (balanced : bool) (is : list nat).

Definition tree_result (r : option (db * option nodecon)) : option (db * nodecon) :=
  match r with Some (d, Some con) => Some (d, con) | _ => None end.

(** the call made and the leaves the tree should have; [T] lists the trees built so far with their leaves *)
Definition tree_step (d : db) (T : list (nodecon * list (lit * nat))) (op : tree_op) : option (db * list (nodecon * list (lit * nat))) :=
  match op with
  | TLits ls => match lit_tree d ls with
                | Some (d', Some id) => Some (d', T ++ [(con_full id, map (fun l => (l, 1%nat)) ls)])
                | _ => None
                end
  | TWeighted ls => match tree_result (weighted_lit_tree d ls) with
                    | Some (d', con) => Some (d', T ++ [(con, ls)])
                    | None => None
                    end
  | TMerge balanced is =>
      match mapM (nth_error T) is with
      | None => None
      | Some cs => match tree_result (if balanced then merge_balanced d (map fst cs) else merge d (map fst cs)) with
                   | Some (d', con) => Some (d', T ++ [(con, concat (map snd cs))])
                   | None => None
                   end
      end
  end.

Definition valid_tree_op (T : list (nodecon * list (lit * nat))) (op : tree_op) : Prop :=
  match op with
  | TLits ls => ls <> []
  | TWeighted ls => ls <> [] /\ forall l w, In (l, w) ls -> (1 <= w)%nat
  | TMerge _ is => is <> [] /\ forall i, In i is -> (i < length T)%nat
  end.

Inductive tree_hist : db -> list (nodecon * list (lit * nat)) -> Prop :=
  | th_start : tree_hist db_empty []
  | th_step d T op d' T' : tree_hist d T -> valid_tree_op T op -> tree_step d T op = Some (d', T') -> tree_hist d' T'.

(** ** Connections *)

(** the [NonZero] types of the fields of a connection *)
Definition con_valid (con : nodecon) : Prop :=
  1 <= nc_div con /\ 1 <= nc_mult con /\ match nc_limit con with Some limit => 1 <= limit | None => True end.

(** a value that can pass the length limit *)
Definition within_limit (con : nodecon) (w : nat) : Prop :=
  match nc_limit con with Some limit => w <= limit * nc_mult con | None => True end.
