(** * Histories of certified calls on a generalized totalizer

    As in [CertWorld], for the encoding of weighted literals: every call is passed the same proof, and between calls anybody may
    write further steps to the proof. *)

From Coq Require Import List Bool NArith ZArith.
From Verif Require Import Spec BoundSpec Types Constraints Maps NodeDb TotDb Totalizer Gte CertSpec Cert CertWorld CertW.
Import ListNotations.

Section Order.
Context (ord : wmap -> wmap).

(** one call: the world after it (as in [BoundSpec.step]) and what the call returned and wrote. Adding inputs and reserving
    variables do not concern the proof. The encoding has no lower bounds.
    src/encodings/pb/cert.rs:24-120, src/encodings/pb/gte/mod.rs:380-524 *)
Definition wcertified (w : world (lit * nat)) (reset_ub : bool) (r : option wout) : option (world (lit * nat) * wout) :=
  match r with Some o => Some (log_call w reset_ub false (wo_cls o) (wo_next o), o) | None => None end.

Definition wcstep (w : world (lit * nat)) (cg : cgte) (pid : nat) (op : hop (lit * nat)) : option (world (lit * nat) * wout) :=
  match op with
  | HExtend xs => Some (mkWorld (w_in w ++ xs) (w_next w) (w_aux w) (w_all w) (w_ub w) (w_lb w), mkWout (cg_extend cg xs) [] (w_next w) [] [] pid)
  | HUserVars k => Some (mkWorld (w_in w) (w_next w + k)%N (w_aux w) (w_all w) (w_ub w) (w_lb w), mkWout cg [] (w_next w + k)%N [] [] pid)
  | HReserve => match cg_reserve ord cg (w_next w) with
                | Some (cg', next) => Some (log_call w false false [] next, mkWout cg' [] next [] [] pid)
                | None => None
                end
  | HUb r => wcertified w true (cg_ub ord cg r (w_next w) pid)
  | HUbChange r => wcertified w false (cg_ub_change ord cg r (w_next w) pid)
  | HLb _ | HLbChange _ | HBoth _ => None
  end.

(** The inputs are allocated variables that the encoder did not take for itself, weights are positive, and no two input literals
    are complementary *)
Definition wcvalid (w : world (lit * nat)) (op : hop (lit * nat)) : Prop :=
  valid_op fst pos_weight ub_only w op /\
  match op with
  | HExtend xs => forall l l', In l (map fst (w_in w ++ xs)) -> In l' (map fst (w_in w ++ xs)) -> l' <> neg l
  | _ => True
  end.

(** What others write to the proof keeps the constraints, uses allocated variables, and does not use variables the encoder
    took before the encoder itself wrote them to the proof *)
Definition wothers (w : world (lit * nat)) (p p' : pstate) : Prop :=
  ps_ok p' /\ kept p p' /\
  forall i c v, ps_get p' i = Some c -> mentions c v ->
    (v < w_next w)%N /\ (in_aux (w_aux w) v -> exists j d, ps_get p j = Some d /\ mentions d v).

(** [wcreach w cg p ids]: after some history, the world is [w], the encoder is [cg], the proof is in state [p] and [ids] are
    the identifiers returned for the clauses emitted *)
Inductive wcreach : world (lit * nat) -> cgte -> pstate -> list nat -> Prop :=
| wr_init n p : ps_ok p -> (forall i c v, ps_get p i = Some c -> mentions c v -> (v < n)%N) ->
    wcreach (mkWorld [] n [] [] [] []) cgte_new p []
| wr_call w cg p ids op w' o p' : wcreach w cg p ids -> wcvalid w op -> wcstep w cg (ps_next p) op = Some (w', o) ->
    ps_run p (wo_log o) p' -> wcreach w' (wo_enc o) p' (ids ++ wo_ids o)
| wr_others w cg p ids p' : wcreach w cg p ids -> wothers w p p' -> wcreach w cg p' ids.
End Order.
