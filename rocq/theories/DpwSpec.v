(** * Specification of the dynamic polynomial watchdog

    The encoding is constructed from a map of weighted literals. Its precision may be coarsened to a power of two [d] before
    anything is encoded, and refined later; bounds refer to the weights divided by the current precision [d], rounding down. *)

From Coq Require Import List Bool NArith Arith.
From Verif Require Import Spec BoundSpec Types NodeDb Maps Dpw.
Import ListNotations.

(** the weights the encoding works with at precision [d]; precision 0 is the same as precision 1 *)
Definition scaled (d : nat) (m : list (lit * nat)) : list (lit * nat) := map (fun x => (fst x, (snd x / Nat.max d 1)%nat)) m.

(** weights are positive *)
Definition inputs_ok (m : list (lit * nat)) : Prop := forall x, In x m -> (1 <= snd x)%nat.

(** a precision that some weight reaches, and more than one input; without coarsening there is no restriction *)
Definition precision_ok (d : nat) (m : list (lit * nat)) : Prop :=
  (d <= 1)%nat \/ ((2 <= length m)%nat /\ exists x, In x m /\ (d <= snd x)%nat).

(** calls made after construction *)
Definition dpw_op (op : hop (lit * nat)) : Prop :=
  match op with HUserVars _ | HReserve | HUb _ | HUbChange _ => True | _ => False end.

(** the ranges encoded since the last non-incremental [encode_ub] *)
Definition ranges_after (R : list rng) (op : hop (lit * nat)) : list rng :=
  match op with HUb r => [r] | HUbChange r => r :: R | _ => R end.

Section Hist.
Context (ord : wmap -> wmap) (srt : list node -> list nodecon -> list nodecon).
Context (m : list (lit * nat)) (d : nat).

Inductive dpw_hist : world (lit * nat) -> dpw -> list rng -> Prop :=
  | dh_start next t0 t : (forall x, In x m -> (lvar (fst x) < next)%N) ->
      dpw_from ord m = Some t0 -> dpw_set_precision t0 d = inl t -> dpw_hist (mkWorld m next [] [] [] []) t []
  | dh_step w t R op w' t' : dpw_hist w t R -> dpw_op op -> step (dpw_enc srt t) w t op = Some (w', t') -> dpw_hist w' t' (ranges_after R op).

End Hist.

(** Histories in which the precision is changed on the way. The first index is the current precision; the ranges are those
    encoded at that precision. *)
Section PHist.
Context (ord : wmap -> wmap) (srt : list node -> list nodecon -> list nodecon).
Context (m : list (lit * nat)).

Inductive dpw_phist : nat -> world (lit * nat) -> dpw -> list rng -> Prop :=
  | ph_start d next t0 t : (forall x, In x m -> (lvar (fst x) < next)%N) ->
      dpw_from ord m = Some t0 -> dpw_set_precision t0 d = inl t -> dpw_phist d (mkWorld m next [] [] [] []) t []
  | ph_step d w t R op w' t' : dpw_phist d w t R -> dpw_op op -> step (dpw_enc srt t) w t op = Some (w', t') -> dpw_phist d w' t' (ranges_after R op)
  | ph_prec d w t R d' t' : dpw_phist d w t R -> (1 <= d')%nat -> dpw_set_precision t d' = inl t' -> dpw_phist d' w t' [].

(** Histories without [reserve] and in which [encode_ub] is called at most once, before anything else is encoded. The
    second index says whether something has been encoded. *)
Inductive dpw_pincr : nat -> bool -> world (lit * nat) -> dpw -> list rng -> Prop :=
  | pi_start d next t0 t : (forall x, In x m -> (lvar (fst x) < next)%N) ->
      dpw_from ord m = Some t0 -> dpw_set_precision t0 d = inl t -> dpw_pincr d false (mkWorld m next [] [] [] []) t []
  | pi_user d b w t R k : dpw_pincr d b w t R ->
      dpw_pincr d b (mkWorld (w_in w) (w_next w + k)%N (w_aux w) (w_all w) (w_ub w) (w_lb w)) t R
  | pi_change d b w t R r w' t' : dpw_pincr d b w t R -> step (dpw_enc srt t) w t (HUbChange r) = Some (w', t') -> dpw_pincr d true w' t' (r :: R)
  | pi_first d w t R r w' t' : dpw_pincr d false w t R -> step (dpw_enc srt t) w t (HUb r) = Some (w', t') -> dpw_pincr d true w' t' [r]
  | pi_prec d b w t R d' t' : dpw_pincr d b w t R -> (1 <= d')%nat -> dpw_set_precision t d' = inl t' -> dpw_pincr d' b w t' [].
End PHist.
