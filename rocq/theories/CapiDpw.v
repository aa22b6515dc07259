(** * Model of the C interface to the dynamic polynomial watchdog, [capi/src/encodings/pb.rs] and [dpw.rs] *)

From Coq Require Import List Bool NArith ZArith.
From Verif Require Import Spec BoundSpec Types Maps NodeDb Totalizer Dpw CapiSpec Capi.
Import ListNotations.

(** capi/src/encodings/pb.rs:321-323 [dpw_new] with the derived [Default] of src/encodings/pb/dpw/mod.rs:60-79: unlike for an encoding made from a
    map of inputs, the precision divisor starts at 0 *)
Definition cdpw_new : dpw := mkDpw [] None [] 0 0 0%N 0 db_empty.

(** src/encodings/pb/dpw/mod.rs:97-117 [add_input]; [None] is the error [NotAllowed] *)
Definition dpw_add_input (t : dpw) (l : lit) (w : nat) : option dpw :=
  match dp_struct t with
  | Some _ => None
  | None =>
      let '(d, id) := db_insert (dp_db t) (NLeaf l) in
      Some (mkDpw (map_add (dp_in t) l w) None (q_push (dp_queue t) w (con_full id)) (dp_prec t) (dp_sum t + w) (dp_vars t) (dp_cls t) d)
  end.

(** capi/src/encodings/pb.rs:360-373 [dpw_add] *)
Definition cdpw_add (t : dpw) (x : Z) (w : nat) : dpw * code :=
  match from_ipasir x with
  | None => (t, InvalidLiteral)
  | Some l => match dpw_add_input t l w with Some t' => (t', Fine) | None => (t, InvalidState) end
  end.
Fixpoint cdpw_adds (t : dpw) (ins : list (Z * nat)) : dpw * list code :=
  match ins with
  | [] => (t, [])
  | (x, w) :: ins' => let '(t1, c) := cdpw_add t x w in let '(t2, cs) := cdpw_adds t1 ins' in (t2, c :: cs)
  end.

(** capi/src/encodings/pb.rs:396-410 [dpw_encode_ub] *)
Definition cdpw_encode_ub (srt : list node -> list nodecon -> list nodecon) (t : dpw) (n : N) (lo hi : nat) : option (dpw * N * creply) :=
  capi_encode (dpw_encode_ub_change srt t) n lo hi.
(** capi/src/encodings/pb.rs:423-438 [dpw_enforce_ub] *)
Definition cdpw_enforce_ub (t : dpw) (n : N) (b : nat) : option (dpw * N * creply) := capi_enforce false t n (dpw_enforce_ub t b).

(** capi/src/encodings/dpw.rs:40-45 [dpw_set_precision], capi/src/encodings/mod.rs:44-58: the encoding is unchanged if there is an error *)
Definition cdpw_set_precision (t : dpw) (d : nat) : dpw * option prec_error :=
  match dpw_set_precision t d with inl t' => (t', None) | inr e => (t, Some e) end.

(** capi/src/encodings/dpw.rs:20-22 [dpw_coarse_ub], 68-70 [dpw_is_max_precision] *)
Definition cdpw_coarse_ub (t : dpw) (ub : nat) : nat := dpw_coarse_ub t ub.
Definition cdpw_is_max_precision (t : dpw) : bool := dpw_is_max_precision t.
(** capi/src/encodings/dpw.rs:98-110 [dpw_limit_range]: the integers passed to the callback *)
Definition cdpw_limit_range (t : dpw) (lo hi : nat) : option (list Z) :=
  if (lo <=? hi)%nat then do hs <- dpw_limit_range t (Incl lo, Incl hi); cnf_ints hs else None.

(** what a C program sees that has made a new encoding, added the inputs [ins], and then takes variables and encodes ranges: the ranges, the number
    of variables in use, the integers received and the intervals of variables taken by the encoding. Inputs are different literals of variables in
    use, with positive weights. *)
Inductive dc_hist (srt : list node -> list nodecon -> list nodecon) (ins : list (Z * nat)) : list (nat * nat) -> N -> list Z -> list (N * N) -> dpw -> Prop :=
  | dc_new n t : NoDup (map fst ins) -> (forall x w, In (x, w) ins -> c_int x /\ x <> 0%Z /\ (Z.to_N (Z.abs x) <= n)%N /\ 1 <= w) ->
      t = fst (cdpw_adds cdpw_new ins) -> dc_hist srt ins [] n [] [] t
  | dc_vars R n ints own t k : dc_hist srt ins R n ints own t -> dc_hist srt ins R (n + k)%N ints own t
  | dc_encode R n ints own t lo hi t' n' r : dc_hist srt ins R n ints own t -> cdpw_encode_ub srt t n lo hi = Some (t', n', r) ->
      dc_hist srt ins ((lo, hi) :: R) n' (ints ++ r_clauses r) ((n, n') :: own) t'.
