(** * Properties of the C interface to the dynamic polynomial watchdog: C82 *)

From Coq Require Import List Bool NArith ZArith Lia Permutation.
From Verif Require Import Spec BoundSpec Types Maps NodeDb Totalizer Dpw CapiSpec Capi CapiDpw CapiDpwProofs.
Import ListNotations.

Definition sorts (srt : list node -> list nodecon -> list nodecon) : Prop := forall ns l, Permutation (srt ns l) l.

(** C82 (dynamic polynomial watchdog): for every C program that adds different literals with positive weights to a new encoding and then encodes
    ranges and takes variables in any order, whenever [dpw_enforce_ub] succeeds, the assumptions it gives and what the callback has received enforce
    the bound, and every assignment that meets it has a variant, changed on variables taken by the encoding only, that satisfies both. Missing:
    weights 0, for which it is false (below), and literals added twice. *)
Theorem C82_dpw_exact_partial : forall srt ins, sorts srt -> forall R n ints own t, dc_hist srt ins R n ints own t ->
  forall b t' n' r, cdpw_enforce_ub t n b = Some (t', n', r) -> r_code r = Fine ->
  (forall a, ints_hold a ints -> forallb (int_holds a) (r_assumps r) = true -> int_sum a ins <= b) /\
  (forall a, int_sum a ins <= b -> exists a', (forall v, ~ in_aux own v -> a' v = a v) /\ ints_hold a' ints /\ forallb (int_holds a') (r_assumps r) = true).
Proof. intros srt ins Hs. exact (cdpw_exact srt Hs ins). Qed.
Print Assumptions C82_dpw_exact_partial.

(** Every bound of every range encoded so far can be enforced. *)
Theorem C82_dpw_encoded_partial : forall srt ins, sorts srt -> forall R n ints own t, dc_hist srt ins R n ints own t -> (n <= 2147483647)%N ->
  forall lo hi b, In (lo, hi) R -> lo <= b <= hi -> exists r, cdpw_enforce_ub t n b = Some (t, n, r) /\ r_code r = Fine.
Proof. intros srt ins Hs. exact (cdpw_encoded srt Hs ins). Qed.
Print Assumptions C82_dpw_encoded_partial.

(** No call aborts while variables fit the integers of the interface: adding the inputs succeeds, so does encoding a range, and enforcing a bound says
    at most that it is not encoded. *)
Theorem C82_dpw_calls_partial : forall srt ins, sorts srt ->
  (NoDup (map fst ins) -> (forall x w, In (x, w) ins -> c_int x /\ x <> 0%Z /\ 1 <= w) -> snd (cdpw_adds cdpw_new ins) = map (fun _ => Fine) ins) /\
  forall R n ints own t, dc_hist srt ins R n ints own t -> (n <= 2147483647)%N ->
  (forall lo hi, lo <= hi -> exists t' cs n', dpw_encode_ub_change srt t (Incl lo, Incl hi) n = Some (t', cs, n') /\
     ((n' <= 2147483647)%N -> exists r, cdpw_encode_ub srt t n lo hi = Some (t', n', r) /\ r_code r = Fine)) /\
  (forall b, exists r, cdpw_enforce_ub t n b = Some (t, n, r) /\ (r_code r = Fine \/ r_code r = NotEncoded)).
Proof. intros srt ins Hs. split; [exact (new_adds ins)|exact (cdpw_total srt Hs ins)]. Qed.
Print Assumptions C82_dpw_calls_partial.

(** Once clauses were received, inputs are refused and the encoding stays as it is. *)
Theorem C82_dpw_late_input : forall srt ins R n ints own t x w, dc_hist srt ins R n ints own t -> ints <> [] -> c_int x ->
  cdpw_add t x w = (t, if (x =? 0)%Z then InvalidLiteral else InvalidState).
Proof. exact cdpw_add_late. Qed.
Print Assumptions C82_dpw_late_input.

(** Rounding bounds to coarse ones, the numbers [k * W - 1]: a bound of at least [W] is rounded down to the largest coarse bound, and enforcing that takes at
    most one assumption. *)
Theorem C82_dpw_coarse_partial : forall srt ins, sorts srt -> forall R n ints own t, dc_hist srt ins R n ints own t -> exists W, 1 <= W /\ forall ub,
  cdpw_coarse_ub t ub <= ub /\
  (ub < W -> cdpw_coarse_ub t ub = ub) /\
  (W <= ub -> (exists k, cdpw_coarse_ub t ub = k * W - 1) /\ (forall k, k * W - 1 <= ub -> k * W - 1 <= cdpw_coarse_ub t ub) /\
     forall t' n' r, cdpw_enforce_ub t n (cdpw_coarse_ub t ub) = Some (t', n', r) -> r_code r = Fine -> length (r_assumps r) <= 1).
Proof. intros srt ins Hs. exact (cdpw_coarse srt Hs ins). Qed.
Print Assumptions C82_dpw_coarse_partial.

(** Limiting the range at full precision keeps the assignments whose sum is in the range, together with the assumptions for bounds in the range that they
    meet, below the sum of weights ([C62_full_range_refuted] is about the sum itself). *)
Theorem C82_dpw_limit_range_partial : forall srt ins, sorts srt -> forall R n ints own t, dc_hist srt ins R n ints own t -> cdpw_is_max_precision t = true ->
  forall lo hi xs, cdpw_limit_range t lo hi = Some xs ->
  forall b t' n' r a, cdpw_enforce_ub t n b = Some (t', n', r) -> r_code r = Fine -> lo <= int_sum a ins <= b -> b <= hi -> b < int_total ins ->
  exists a', (forall v, ~ in_aux own v -> a' v = a v) /\ ints_hold a' ints /\ forallb (int_holds a') (r_assumps r) = true /\ ints_hold a' xs.
Proof. intros srt ins Hs. exact (cdpw_limit srt Hs ins). Qed.
Print Assumptions C82_dpw_limit_range_partial.

Definition idn : list node -> list nodecon -> list nodecon := fun _ l => l.
Definition ex_ins : list (Z * nat) := [(1%Z, 3); ((-2)%Z, 4); (3%Z, 2)].
(** three weighted literals, two ranges encoded with variables taken in between; a bound is rounded and the range is limited *)
Example C82_dpw_ex : exists R n ints own t, dc_hist idn ex_ins R n ints own t /\ R = [(2, 3); (5, 6)] /\ ints <> [] /\ (n <= 2147483647)%N /\
  cdpw_is_max_precision t = true /\ cdpw_coarse_ub t 6 = 3 /\ (exists xs, cdpw_limit_range t 2 6 = Some xs /\ xs <> []) /\
  (exists r, cdpw_enforce_ub t n 5 = Some (t, n, r) /\ r_code r = Fine /\ r_assumps r <> []) /\ (exists r, cdpw_enforce_ub t n 2 = Some (t, n, r) /\ r_code r = Fine /\ r_assumps r <> []).
Proof.
  assert (H0 : dc_hist idn ex_ins [] 3 [] [] (fst (cdpw_adds cdpw_new ex_ins))).
  { apply dc_new; [repeat constructor; cbn; intuition discriminate| |reflexivity].
    intros x w [E|[E|[E|[]]]]; injection E as <- <-; unfold c_int; cbn; repeat split; first [lia|discriminate]. }
  destruct (cdpw_encode_ub idn (fst (cdpw_adds cdpw_new ex_ins)) 3 5 6) as [[[t1 n1] r1]|] eqn:E1; [|vm_compute in E1; discriminate E1].
  pose proof (dc_vars _ _ _ _ _ _ _ 2 (dc_encode _ _ _ _ _ _ _ _ _ _ _ _ H0 E1)) as H1. clear H0. vm_compute in E1. injection E1 as <- <- <-.
  match type of H1 with dc_hist _ _ _ ?n _ _ ?t => destruct (cdpw_encode_ub idn t n 2 3) as [[[t2 n2] r2]|] eqn:E2 end; [|vm_compute in E2; discriminate E2].
  pose proof (dc_encode _ _ _ _ _ _ _ _ _ _ _ _ H1 E2) as H2. clear H1. vm_compute in E2. injection E2 as <- <- <-.
  eexists _, _, _, _, _. split; [exact H2|]. clear H2. split; [reflexivity|]. split; [vm_compute; discriminate|]. split; [vm_compute; discriminate|].
  split; [reflexivity|]. split; [vm_compute; reflexivity|]. split; [eexists; split; [vm_compute; reflexivity|discriminate]|].
  split; (eexists; split; [vm_compute; reflexivity|]; split; [reflexivity|discriminate]).
Qed.

(** A weight 0 is accepted, but the input then counts with weight 1: the bound 0 forbids the literal although the sum is 0. With encodings made from a
    map of inputs a weight 0 panics instead. *)
Theorem C82_dpw_zero_weight_refuted : exists t t' n r r' a,
  cdpw_adds cdpw_new [(1%Z, 0); (2%Z, 2)] = (t, [Fine; Fine]) /\ cdpw_encode_ub idn t 2 0 1 = Some (t', n, r) /\ r_code r = Fine /\
  cdpw_enforce_ub t' n 0 = Some (t', n, r') /\ r_code r' = Fine /\ int_sum a [(1%Z, 0); (2%Z, 2)] = 0 /\
  forall a', a' 0%N = a 0%N -> ints_hold a' (r_clauses r) -> forallb (int_holds a') (r_assumps r') = false.
Proof.
  eexists _, _, _, _, _, (fun v => (v =? 0)%N). split; [vm_compute; reflexivity|]. split; [vm_compute; reflexivity|]. split; [reflexivity|]. split; [vm_compute; reflexivity|]. split; [reflexivity|].
  split; [reflexivity|]. intros a' Ha (cls & Ec & Hc). vm_compute in Ec. injection Ec as <-. cbn [r_assumps].
  destruct (Hc _ (or_introl eq_refl)) as (x & Hx & Ex). destruct (Hc _ (or_intror (or_introl eq_refl))) as (y & Hy & Ey). clear Hc.
  apply not_true_is_false. intros F. cbn [forallb] in F. apply andb_prop in F as [F1 F2]. apply andb_prop in F2 as [F2 _]. unfold int_holds in *. cbn in F1, F2, Ha.
  cbn in Hx, Hy. destruct Hx as [<-|[<-|[<-|[]]]], Hy as [<-|[<-|[]]]; cbn in Ex, Ey; revert F1 F2 Ex Ey;
    change (1 - 1)%N with 0%N; change (3 - 1)%N with 2%N; change (4 - 1)%N with 3%N; change (5 - 1)%N with 4%N; rewrite ?Ha; destruct (a' 2%N), (a' 3%N), (a' 4%N); cbn; intros; discriminate.
Qed.
Print Assumptions C82_dpw_zero_weight_refuted.
(** A new encoding has precision 0 rather than 1. Once something is encoded, setting the precision to 1, the full precision and the one that
    [dpw_next_precision] gives, is refused as a decrease. *)
Theorem C82_dpw_full_precision_refuted : exists R n ints own t, dc_hist idn [(1%Z, 1); (2%Z, 2)] R n ints own t /\ ints <> [] /\ dpw_is_max_precision t = true /\
  dpw_next_precision t = 1 /\ cdpw_set_precision t (dpw_next_precision t) = (t, Some PrecisionDecreased).
Proof.
  assert (H0 : dc_hist idn [(1%Z, 1); (2%Z, 2)] [] 2 [] [] (fst (cdpw_adds cdpw_new [(1%Z, 1); (2%Z, 2)]))).
  { apply dc_new; [repeat constructor; cbn; intuition discriminate| |reflexivity].
    intros x w [E|[E|[]]]; injection E as <- <-; unfold c_int; cbn; repeat split; first [lia|discriminate]. }
  destruct (cdpw_encode_ub idn (fst (cdpw_adds cdpw_new [(1%Z, 1); (2%Z, 2)])) 2 0 1) as [[[t1 n1] r1]|] eqn:E1; [|vm_compute in E1; discriminate E1].
  pose proof (dc_encode _ _ _ _ _ _ _ _ _ _ _ _ H0 E1) as H1. clear H0. vm_compute in E1. injection E1 as <- <- <-.
  eexists _, _, _, _, _. split; [exact H1|]. clear H1. split; [vm_compute; discriminate|]. split; [reflexivity|]. split; reflexivity.
Qed.
Print Assumptions C82_dpw_full_precision_refuted.
