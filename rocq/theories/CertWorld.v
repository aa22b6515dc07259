(** * Histories of certified calls on a totalizer

    The calls of the user are those of [BoundSpec]; every call is passed the same proof, and between calls anybody may write
    further steps to the proof (other encodings, the solver). *)

From Coq Require Import List Bool NArith ZArith.
From Verif Require Import Spec BoundSpec Types Constraints NodeDb TotDb Totalizer CertSpec Cert.
Import ListNotations.

(** one call: the world after it (as in [BoundSpec.step]) and what the call returned and wrote. Adding inputs and reserving
    variables do not concern the proof. src/encodings/card/cert.rs:24-256, src/encodings/card/totalizer/mod.rs:410-690 *)
Definition certified (w : world lit) (reset_ub reset_lb : bool) (r : option cout) : option (world lit * cout) :=
  match r with Some o => Some (log_call w reset_ub reset_lb (o_cls o) (o_next o), o) | None => None end.

Definition cstep (w : world lit) (ct : ctot) (pid : nat) (op : hop lit) : option (world lit * cout) :=
  match op with
  | HExtend xs => Some (mkWorld (w_in w ++ xs) (w_next w) (w_aux w) (w_all w) (w_ub w) (w_lb w), mkOut (ct_extend ct xs) [] (w_next w) [] [] pid)
  | HUserVars k => Some (mkWorld (w_in w) (w_next w + k)%N (w_aux w) (w_all w) (w_ub w) (w_lb w), mkOut ct [] (w_next w + k)%N [] [] pid)
  | HReserve => match ct_reserve ct (w_next w) with
                | Some (ct', next) => Some (log_call w false false [] next, mkOut ct' [] next [] [] pid)
                | None => None
                end
  | HUb r => certified w true false (ct_ub ct r (w_next w) pid)
  | HUbChange r => certified w false false (ct_ub_change ct r (w_next w) pid)
  | HLb r => certified w false true (ct_lb ct r (w_next w) pid)
  | HLbChange r => certified w false false (ct_lb_change ct r (w_next w) pid)
  | HBoth r => certified w false false (ct_both ct r (w_next w) pid)
  end.

(** The inputs are allocated variables that the encoder did not take for itself, and no two of them are complementary *)
Definition cvalid (w : world lit) (op : hop lit) : Prop :=
  valid_op (fun l => l) any_lit any_op w op /\
  match op with
  | HExtend xs => forall l l', In l (w_in w ++ xs) -> In l' (w_in w ++ xs) -> l' <> neg l
  | _ => True
  end.

(** constraints keep their identifiers and contents, and the number of inputs of the proof does not change *)
Definition kept (p p' : pstate) : Prop :=
  ps_inputs p' = ps_inputs p /\ forall i c, ps_get p i = Some c -> ps_get p' i = Some c.

(** What others write to the proof keeps the constraints, uses allocated variables, and does not use variables the encoder
    took before the encoder itself wrote them to the proof *)
Definition others (w : world lit) (p p' : pstate) : Prop :=
  ps_ok p' /\ kept p p' /\
  forall i c v, ps_get p' i = Some c -> mentions c v ->
    (v < w_next w)%N /\ (in_aux (w_aux w) v -> exists j d, ps_get p j = Some d /\ mentions d v).

(** [creach w ct p ids]: after some history, the world is [w], the encoder is [ct], the proof is in state [p] and [ids] are
    the identifiers returned for the clauses emitted *)
Inductive creach : world lit -> ctot -> pstate -> list nat -> Prop :=
| cr_init n p : ps_ok p -> (forall i c v, ps_get p i = Some c -> mentions c v -> (v < n)%N) ->
    creach (mkWorld [] n [] [] [] []) ctot_new p []
| cr_call w ct p ids op w' o p' : creach w ct p ids -> cvalid w op -> cstep w ct (ps_next p) op = Some (w', o) ->
    ps_run p (o_log o) p' -> creach w' (o_tot o) p' (ids ++ o_ids o)
| cr_others w ct p ids p' : creach w ct p ids -> others w p p' -> creach w ct p' ids.

(** ** Single constraints *)

(** "at least [b]" and "at most [b]" of the literals, as constraints of the proof *)
Definition at_least_con (ls : list lit) (b : nat) : raw := norm (map (fun l => (l, 1%Z)) ls, Z.of_nat b).
Definition at_most_con (ls : list lit) (b : nat) : raw := norm (map (fun l => (l, (-1)%Z)) ls, (- Z.of_nat b)%Z).

(** the constraint to encode is in the proof: an equality as two constraints with consecutive identifiers *)
Definition in_proof (p : pstate) (id : nat) (c : card) : Prop :=
  match c_kind c with
  | KUb => ps_get p id = Some (at_most_con (c_lits c) (c_b c))
  | KLb => ps_get p id = Some (at_least_con (c_lits c) (c_b c))
  | KEq => ps_get p id = Some (at_least_con (c_lits c) (c_b c)) /\ ps_get p (id + 1) = Some (at_most_con (c_lits c) (c_b c))
  end.
