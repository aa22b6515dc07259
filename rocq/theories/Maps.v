(** * Hash maps from literals to weights

    A [RsHashMap<Lit, usize>] is modelled as an association list without duplicate keys, in insertion order. Iterating over
    a hash map yields the entries in an unspecified order; where the code iterates, the model applies a function [ord] that
    is only known to permute its argument, and the theorems quantify over [ord]. *)

From Coq Require Import List Bool Arith Permutation.
From Verif Require Import Spec Types.
Import ListNotations.

Definition wmap : Type := list (lit * nat).

Fixpoint map_get (m : wmap) (l : lit) : option nat :=
  match m with
  | [] => None
  | (k, w) :: m' => if lit_eqb k l then Some w else map_get m' l
  end.

(** [HashMap::insert]: an existing entry is overwritten *)
Fixpoint map_insert (m : wmap) (l : lit) (w : nat) : wmap :=
  match m with
  | [] => [(l, w)]
  | (k, x) :: m' => if lit_eqb k l then (k, w) :: m' else (k, x) :: map_insert m' l w
  end.

(** [match map.get_mut(&l) { Some(old) => *old += w, None => map.insert(l, w) }] *)
Fixpoint map_add (m : wmap) (l : lit) (w : nat) : wmap :=
  match m with
  | [] => [(l, w)]
  | (k, x) :: m' => if lit_eqb k l then (k, x + w)%nat :: m' else (k, x) :: map_add m' l w
  end.

Definition map_adds (m : wmap) (xs : list (lit * nat)) : wmap := fold_left (fun m '(l, w) => map_add m l w) xs m.

(** [HashMap::from_iter] *)
Definition map_collect (xs : list (lit * nat)) : wmap := fold_left (fun m '(l, w) => map_insert m l w) xs [].

(** an iteration order for hash maps *)
Definition iter_order (ord : wmap -> wmap) : Prop := forall m, Permutation (ord m) m.
