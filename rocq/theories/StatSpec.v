(** * Specification of the statistics of encodings *)

From Coq Require Import List NArith.
From Verif Require Import Spec BoundSpec.
Import ListNotations.

(** the number of variables in a list of intervals *)
Definition aux_count (aux : list (N * N)) : N := fold_right (fun x n => (snd x - fst x + n)%N) 0%N aux.

(** no variables are reserved in advance *)
Definition no_reserve {A} (op : hop A) : Prop := op <> HReserve.
