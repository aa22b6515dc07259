(** * Properties C30 and C31: the binary adder encoding

    All theorems hold for every iteration order [ord] of the hash map buffering the inputs, and for all weights and numbers of
    inputs. [ad_buf t = []] says that no input was added since the last call that encoded something; [C30_settled] says after
    which calls this holds. *)

From Coq Require Import List Bool NArith ZArith Lia Arith Permutation.
From Verif Require Import Spec BoundSpec BoundExec EncSpec Types Constraints ConstrSpec Maps NodeDb TotDb Totalizer Gte Adder Base
  Simulators SimProofs ConstrEnc ConstrEncProofs AdderHist AdderSingle.
Import ListNotations.

Ltac adder_run ops' al :=
  apply (run_reach0 (adder_enc (fun m => m)) fst (fun x => Nat.leb 1 (snd x)) al) with (ops := ops');
  [let K := fresh in intros x K; apply PeanoNat.Nat.leb_le in K; exact K | let K := fresh in intros [] K; try exact I; discriminate | vm_compute; reflexivity].
Notation ub_onlyb := (fun op => match op with HLb _ | HLbChange _ | HBoth _ => false | _ => true end).
Notation lb_onlyb := (fun op => match op with HUb _ | HUbChange _ | HBoth _ => false | _ => true end).
Notation anyb := (fun _ => true).
Definition idm : wmap -> wmap := fun m => m.

(** ** Both directions *)

(** No call panics, except [reserve]; asking for a bound never does. *)
Theorem C30_no_panic_partial : forall ord, iter_order ord -> forall w t op,
  reachable (adder_enc ord) fst pos_weight any_op w t -> valid_op fst pos_weight any_op w op -> op <> HReserve ->
  step (adder_enc ord) w t op <> None /\ (forall ub, add_enforce_ub t ub <> None) /\ (forall lb, add_enforce_lb t lb <> None).
Proof.
  intros ord H w t op R V N. split; [now apply (adder_no_panic ord H)|]. exact (adder_enforce_total ord any_op w t R).
Qed.
Print Assumptions C30_no_panic_partial.

(** A history with repeated literals, all kinds of calls and user variables between them *)
Definition ex_ops : list (hop (lit * nat)) :=
  [HUserVars 4; HExtend [(pos 0, 1%nat); (negl 1, 5%nat); (pos 0, 2%nat)]; HUb (Incl 1%nat, Excl 3%nat); HUserVars 2;
   HExtend [(pos 12, 7%nat); (pos 2, 3%nat)]; HLbChange (Unb, Incl 4%nat); HBoth (Incl 9%nat, Incl 9%nat)].
Example C30_history_ex : exists w t,
  reachable (adder_enc idm) fst pos_weight any_op w t /\ (length (w_all w), w_next w) = (105%nat, 32%N) /\
  add_enforce_ub t 9 = Some (EOk [negl 30]) /\ add_enforce_lb t 9 = Some (EOk [pos 31]) /\ add_enforce_lb t 4 = Some (EOk [pos 29]) /\
  add_enforce_ub t 2 = Some ENotEncoded /\ add_enforce_ub t 18 = Some (EOk []).
Proof.
  eexists _, _. split.
  - adder_run ex_ops (fun _ : hop (lit * nat) => true).
  - vm_compute. repeat split; reflexivity.
Qed.

(** [reserve] panics as soon as two inputs have to be added up. *)
Theorem C30_reserve_refuted : exists ord, iter_order ord /\ ~ no_panic (adder_enc ord) fst pos_weight any_op.
Proof.
  exists idm. split; [intros m; reflexivity|]. intros H.
  assert (R : exists w t, reachable (adder_enc idm) fst pos_weight any_op w t /\ step (adder_enc idm) w t HReserve = None).
  { eexists _, _. split; [adder_run [HUserVars 2; HExtend [(pos 0, 1%nat); (pos 1, 1%nat)]] (fun _ : hop (lit * nat) => true)|vm_compute; reflexivity]. }
  destruct R as (w & t & R & E). exact (H w t HReserve R (conj I I) E).
Qed.
Print Assumptions C30_reserve_refuted.

(** An input of weight 0 makes encoding panic. *)
Theorem C30_zero_weight_refuted : exists ord, iter_order ord /\ ~ no_panic (adder_enc ord) fst (fun _ => True) any_op.
Proof.
  exists idm. split; [intros m; reflexivity|]. intros H.
  assert (R : exists w t, reachable (adder_enc idm) fst (fun _ => True) any_op w t /\ step (adder_enc idm) w t (HUb (Incl 0%nat, Incl 0%nat)) = None).
  { eexists _, _. split; [apply (run_reach0 (adder_enc idm) fst (fun _ => true) (fun _ => true)) with (ops := [HUserVars 2; HExtend [(pos 0, 0%nat); (pos 1, 1%nat)]]);
      [intros; exact I|intros [] _; exact I|vm_compute; reflexivity]|vm_compute; reflexivity]. }
  destruct R as (w & t & R & E). exact (H w t (HUb (Incl 0%nat, Incl 0%nat)) R (conj I I) E).
Qed.
Print Assumptions C30_zero_weight_refuted.

(** a history is settled after encoding any bound that is not trivial, until inputs are added *)
Theorem C30_settled : forall ord, iter_order ord -> forall w t op w' t',
  reachable (adder_enc ord) fst pos_weight any_op w t -> valid_op fst pos_weight any_op w op -> step (adder_enc ord) w t op = Some (w', t') ->
  match op with
  | HUb r | HUbChange r | HBoth r => exists ub, in_rng ub r /\ (ub < total_weight (w_in w))%nat
  | HLb r | HLbChange r => exists lb, in_rng lb r /\ (1 <= lb <= total_weight (w_in w))%nat
  | HExtend _ => False
  | _ => ad_buf t = []
  end -> ad_buf t' = [].
Proof. intros ord H w t op w' t'. exact (adder_settled ord H any_op w t op w' t'). Qed.
Print Assumptions C30_settled.
Example C30_settled_ex : exists w t w' t', reachable (adder_enc idm) fst pos_weight any_op w t /\
  step (adder_enc idm) w t (HUb (Incl 2%nat, Unb)) = Some (w', t') /\ in_rng 2 (Incl 2%nat, Unb) /\ total_weight (w_in w) = 3%nat.
Proof.
  eexists _, _, _, _. split; [adder_run [HUserVars 2; HExtend [(pos 0, 1%nat); (pos 1, 2%nat)]] (fun _ : hop (lit * nat) => true)|].
  split; [vm_compute; reflexivity|]. split; [split; cbn; [lia|exact I]|reflexivity].
Qed.

(** The clauses never restrict the inputs; every assignment extends on variables taken by the encoder to a model of all
    clauses, of the assumptions of all upper bounds it meets and, in settled histories, of all lower bounds it meets. *)
Theorem C30_complete : forall ord, iter_order ord -> forall w t a,
  reachable (adder_enc ord) fst pos_weight any_op w t -> exists a',
    (forall v, ~ in_aux (w_aux w) v -> a' v = a v) /\ sat_cnf a' (w_all w) = true /\
    (forall ub ls, add_enforce_ub t ub = Some (EOk ls) -> (wsum a (w_in w) <= ub)%nat -> sat_cube a' ls = true) /\
    (forall lb ls, ad_buf t = [] -> add_enforce_lb t lb = Some (EOk ls) -> (lb <= wsum a (w_in w))%nat -> sat_cube a' ls = true).
Proof. intros ord H w t a. exact (adder_complete ord H any_op w t a). Qed.
Print Assumptions C30_complete.

Theorem C30_clauses_local : forall ord, iter_order ord ->
  clauses_local (adder_enc ord) fst pos_weight any_op /\ assumps_local (adder_enc ord) fst pos_weight any_op /\ vars_grow (adder_enc ord) fst pos_weight any_op.
Proof. intros ord H. exact (adder_local ord H any_op). Qed.
Print Assumptions C30_clauses_local.

(** ** C30: upper bounds *)

(** In settled histories without encoding lower bounds, the assumptions enforce the bound. *)
Theorem C30_ub_sound_partial : forall ord, iter_order ord -> forall w t ub ls a,
  reachable (adder_enc ord) fst pos_weight ub_only w t -> ad_buf t = [] -> add_enforce_ub t ub = Some (EOk ls) ->
  sat_cnf a (w_all w) = true -> sat_cube a ls = true -> (wsum a (w_in w) <= ub)%nat.
Proof. exact adder_ub_sound. Qed.
Print Assumptions C30_ub_sound_partial.

Example C30_ub_sound_ex : exists w t, reachable (adder_enc idm) fst pos_weight ub_only w t /\ ad_buf t = [] /\
  add_enforce_ub t 4 = Some (EOk [negl 27]) /\ length (w_all w) = 56%nat.
Proof.
  eexists _, _. split.
  - adder_run [HUserVars 4; HExtend [(pos 0, 1%nat); (negl 1, 5%nat); (pos 0, 2%nat)]; HUb (Incl 1%nat, Excl 3%nat); HUserVars 2;
       HExtend [(pos 12, 7%nat); (pos 2, 3%nat)]; HUbChange (Incl 3%nat, Incl 4%nat)] (fun op : hop (lit * nat) => match op with HLb _ | HLbChange _ | HBoth _ => false | _ => true end).
  - vm_compute. repeat split; reflexivity.
Qed.

(** So after encoding a range of upper bounds each of them can be enforced, exactly. *)
Theorem C30_encode_then_enforce_partial : forall ord, iter_order ord -> forall w t op r w' t' ub, op = HUb \/ op = HUbChange ->
  reachable (adder_enc ord) fst pos_weight ub_only w t -> step (adder_enc ord) w t (op r) = Some (w', t') -> in_rng ub r ->
  exists ls, add_enforce_ub t' ub = Some (EOk ls) /\ (forall a, sat_cnf a (w_all w') = true -> sat_cube a ls = true -> (wsum a (w_in w') <= ub)%nat) /\
    forall a, (wsum a (w_in w') <= ub)%nat -> exists a', (forall v, ~ in_aux (w_aux w') v -> a' v = a v) /\ sat_cnf a' (w_all w') = true /\ sat_cube a' ls = true.
Proof.
  intros ord H w t op r w' t' ub Ho R Es Hr. assert (V : valid_op fst pos_weight ub_only w (op r)) by (destruct Ho as [-> | ->]; split; exact I).
  assert (R' : reachable (adder_enc ord) fst pos_weight ub_only w' t') by (apply (reach_step _ _ _ _ w t (op r)); auto).
  destruct (adder_encodes_ub ord H ub_only op ltac:(tauto) w t r w' t' ub R V Es Hr) as (ls & El). exists ls. split; [exact El|].
  assert (Hin : w_in w' = w_in w).
  { destruct Ho as [-> | ->]; cbn [step] in Es; [destruct (en_ub _ _ _ _) as [[[? ?] ?]|]|destruct (en_ub_change _ _ _ _) as [[[? ?] ?]|]]; try discriminate; injection Es as <- <-; reflexivity. }
  split.
  - intros a H1 H2. destruct (Nat.le_gt_cases (total_weight (w_in w)) ub) as [L|L]; [pose proof (wsum_le_total a (w_in w)); rewrite Hin; lia|].
    eapply (adder_ub_sound ord H); eauto. apply (adder_settled ord H ub_only w t (op r) w' t' R V Es). destruct Ho as [-> | ->]; eauto.
  - intros a Ha. destruct (adder_complete ord H _ _ _ a R') as (a' & H1 & H2 & H3 & _). exists a'. split; [auto|]. split; [auto|]. apply (H3 ub); auto.
Qed.
Print Assumptions C30_encode_then_enforce_partial.
Example C30_encode_then_enforce_ex : exists w t w' t', reachable (adder_enc idm) fst pos_weight ub_only w t /\
  step (adder_enc idm) w t (HUbChange (Incl 2%nat, Incl 3%nat)) = Some (w', t') /\ in_rng 3 (Incl 2%nat, Incl 3%nat) /\ total_weight (w_in w) = 8%nat.
Proof.
  eexists _, _, _, _. split; [adder_run [HUserVars 3; HExtend [(pos 0, 1%nat); (pos 1, 2%nat)]; HUbChange (Unb, Unb); HExtend [(pos 2, 5%nat)]] (fun op : hop (lit * nat) => match op with HLb _ | HLbChange _ | HBoth _ => false | _ => true end)|].
  split; [vm_compute; reflexivity|]. split; [split; cbn; lia|reflexivity].
Qed.

(** In all histories every bound in an encoded range gives assumptions, which stay the same until inputs are added. *)
Theorem C30_encode_ub_enables : forall ord, iter_order ord ->
  encodes_ub (adder_enc ord) fst pos_weight any_op HUb /\ encodes_ub (adder_enc ord) fst pos_weight any_op HUbChange /\
  encodes_ub (adder_enc ord) fst pos_weight any_op HBoth.
Proof. intros ord H. split; [|split]; apply (adder_encodes_ub ord H); auto. Qed.
Print Assumptions C30_encode_ub_enables.

Theorem C30_ub_persists : forall ord, iter_order ord -> forall w t op w' t' ub ls,
  reachable (adder_enc ord) fst pos_weight any_op w t -> valid_op fst pos_weight any_op w op -> step (adder_enc ord) w t op = Some (w', t') ->
  (forall xs, op <> HExtend xs) -> ad_buf t = [] -> add_enforce_ub t ub = Some (EOk ls) -> add_enforce_ub t' ub = Some (EOk ls).
Proof.
  intros ord H w t op w' t' ub ls R V Es Ne. apply (adder_ub_persists ord H any_op w t op w' t' ub ls R V Es). destruct op; cbn; auto. intros _. now apply (Ne xs).
Qed.
Print Assumptions C30_ub_persists.

Theorem C30_trivial : forall ord, iter_order ord ->
  ub_trivial (adder_enc ord) fst pos_weight any_op total_weight /\ unsat_above (adder_enc ord) fst pos_weight any_op total_weight.
Proof. intros ord H. destruct (adder_trivial ord H any_op) as (H1 & _ & H2). auto. Qed.
Print Assumptions C30_trivial.

(** Encoding a lower bound first makes later upper bounds wrong: half adders count as encoded in the wrong direction. With
    the inputs [x0] and [x1] of weight 1, encoding the lower bound 2 and then the upper bound 1, the assumptions returned for
    the upper bound 1 do not exclude [x0] and [x1] both true. *)
Theorem C30_lb_then_ub_refuted : exists ord w t ls a, iter_order ord /\ reachable (adder_enc ord) fst pos_weight any_op w t /\ ad_buf t = [] /\
  add_enforce_ub t 1 = Some (EOk ls) /\ sat_cnf a (w_all w) = true /\ sat_cube a ls = true /\ wsum a (w_in w) = 2%nat.
Proof.
  exists idm. eexists _, _, _, (fun v => (v <? 2)%N). split; [intros m; reflexivity|].
  split; [adder_run [HUserVars 2; HExtend [(pos 0, 1%nat); (pos 1, 1%nat)]; HLbChange (Incl 2%nat, Incl 2%nat); HUbChange (Incl 1%nat, Incl 1%nat)] (fun _ : hop (lit * nat) => true)|].
  vm_compute. repeat split; reflexivity.
Qed.
Print Assumptions C30_lb_then_ub_refuted.

(** With inputs added but not encoded, enforcing an upper bound returns the assumptions for the old inputs. *)
Theorem C30_stale_refuted : exists ord, iter_order ord /\ ~ ub_sound (adder_enc ord) fst pos_weight ub_only wsum.
Proof.
  exists idm. split; [intros m; reflexivity|]. intros H.
  assert (R : exists w t, reachable (adder_enc idm) fst pos_weight ub_only w t /\ add_enforce_ub t 0 = Some (EOk [negl 5]) /\
     sat_cnf (fun v => (v =? 2)%N) (w_ub w) = true /\ wsum (fun v => (v =? 2)%N) (w_in w) = 1%nat).
  { eexists _, _. split; [adder_run [HUserVars 3; HExtend [(pos 0, 1%nat); (pos 1, 1%nat)]; HUbChange (Incl 0%nat, Incl 0%nat); HExtend [(pos 2, 1%nat)]]
       (fun op : hop (lit * nat) => match op with HLb _ | HLbChange _ | HBoth _ => false | _ => true end)|vm_compute; repeat split; reflexivity]. }
  destruct R as (w & t & R & E & S & W). specialize (H w t 0%nat _ _ R E S eq_refl). lia.
Qed.
Print Assumptions C30_stale_refuted.

(** The non-incremental [encode_ub] emits the clauses of the network again, but not those of bounds encoded before: the
    clauses of the second of two calls alone do not enforce the bound. *)
Theorem C30_encode_twice_refuted : exists ord w t ls a, iter_order ord /\ reachable (adder_enc ord) fst pos_weight ub_only w t /\ ad_buf t = [] /\
  add_enforce_ub t 0 = Some (EOk ls) /\ sat_cnf a (w_ub w) = true /\ sat_cube a ls = true /\ wsum a (w_in w) = 1%nat /\ w_ub w <> [].
Proof.
  exists idm. eexists _, _, _, (fun v => (v =? 0)%N || (v =? 2)%N). split; [intros m; reflexivity|].
  split; [adder_run [HUserVars 2; HExtend [(pos 0, 1%nat); (pos 1, 1%nat)]; HUb (Incl 0%nat, Incl 0%nat); HUb (Incl 0%nat, Incl 0%nat)]
       (fun op : hop (lit * nat) => match op with HLb _ | HLbChange _ | HBoth _ => false | _ => true end)|].
  vm_compute. repeat split; try reflexivity. discriminate.
Qed.
Print Assumptions C30_encode_twice_refuted.

(** ** C31: lower bounds *)

(** In all histories, the assumptions enforce the bound under all clauses emitted. *)
Theorem C31_lb_sound : forall ord, iter_order ord -> forall w t lb ls a,
  reachable (adder_enc ord) fst pos_weight any_op w t -> add_enforce_lb t lb = Some (EOk ls) ->
  sat_cnf a (w_all w) = true -> sat_cube a ls = true -> (lb <= wsum a (w_in w))%nat.
Proof. intros ord H w t lb ls a. exact (adder_lb_sound ord H any_op w t lb ls a). Qed.
Print Assumptions C31_lb_sound.

(** In histories without upper bounds, every lower bound in an encoded range gives assumptions or is above the total. *)
Theorem C31_encode_lb_enables_partial : forall ord, iter_order ord ->
  encodes_lb (adder_enc ord) fst pos_weight lb_only HLb /\ encodes_lb (adder_enc ord) fst pos_weight lb_only HLbChange.
Proof. intros ord H. split; apply (adder_encodes_lb ord H); auto. Qed.
Print Assumptions C31_encode_lb_enables_partial.

Example C31_history_ex : exists w t, reachable (adder_enc idm) fst pos_weight lb_only w t /\ ad_buf t = [] /\
  add_enforce_lb t 4 = Some (EOk [pos 27]) /\ add_enforce_lb t 19 = Some EUnsat /\ add_enforce_lb t 18 = Some ENotEncoded.
Proof.
  eexists _, _. split.
  - adder_run [HUserVars 4; HExtend [(pos 0, 1%nat); (negl 1, 5%nat); (pos 0, 2%nat)]; HLb (Incl 1%nat, Excl 3%nat); HUserVars 2;
       HExtend [(pos 12, 7%nat); (pos 2, 3%nat)]; HLbChange (Incl 3%nat, Incl 4%nat)] (fun op : hop (lit * nat) => match op with HUb _ | HUbChange _ | HBoth _ => false | _ => true end).
  - vm_compute. repeat split; reflexivity.
Qed.

Theorem C31_lb_persists : forall ord, iter_order ord -> forall w t op w' t' lb ls,
  reachable (adder_enc ord) fst pos_weight any_op w t -> valid_op fst pos_weight any_op w op -> step (adder_enc ord) w t op = Some (w', t') ->
  (forall xs, op <> HExtend xs) -> ad_buf t = [] -> add_enforce_lb t lb = Some (EOk ls) -> add_enforce_lb t' lb = Some (EOk ls).
Proof.
  intros ord H w t op w' t' ub ls R V Es Ne. apply (adder_lb_persists ord H any_op w t op w' t' ub ls R V Es). destruct op; cbn; auto. intros _. now apply (Ne xs).
Qed.
Print Assumptions C31_lb_persists.

Theorem C31_trivial : forall ord, iter_order ord ->
  lb_trivial (adder_enc ord) fst pos_weight any_op /\ unsat_above (adder_enc ord) fst pos_weight any_op total_weight.
Proof. intros ord H. destruct (adder_trivial ord H any_op) as (_ & H1 & H2). auto. Qed.
Print Assumptions C31_trivial.

(** [encode_both] of more than one bound leaves lower bounds in the range unusable, because comparators already encoded for
    upper bounds are skipped. *)
Theorem C31_encode_both_refuted : exists ord, iter_order ord /\ ~ encodes_lb (adder_enc ord) fst pos_weight any_op HBoth.
Proof.
  exists idm. split; [intros m; reflexivity|]. intros H.
  assert (R : exists w t w' t', reachable (adder_enc idm) fst pos_weight any_op w t /\
     step (adder_enc idm) w t (HBoth (Incl 4%nat, Incl 5%nat)) = Some (w', t') /\ add_enforce_lb t' 5 = Some ENotEncoded).
  { eexists _, _, _, _. split; [adder_run [HUserVars 3; HExtend [(pos 0, 1%nat); (pos 1, 2%nat); (pos 2, 3%nat)]] (fun _ : hop (lit * nat) => true)|].
    split; vm_compute; reflexivity. }
  destruct R as (w & t & w' & t' & R & Es & En).
  destruct (H w t (Incl 4%nat, Incl 5%nat) w' t' 5%nat R (conj I I) Es) as [(ls & E)|E]; [split; cbn; lia| |]; cbn [adder_enc en_enforce_lb] in E; congruence.
Qed.
Print Assumptions C31_encode_both_refuted.

(** With inputs added but not encoded, enforcing a lower bound excludes assignments that meet it. *)
Theorem C31_stale_refuted : exists ord, iter_order ord /\ ~ bounds_complete (adder_enc ord) fst pos_weight lb_only wsum.
Proof.
  exists idm. split; [intros m; reflexivity|]. intros H.
  assert (R : exists w t, reachable (adder_enc idm) fst pos_weight lb_only w t /\ add_enforce_lb t 2 = Some (EOk [pos 5]) /\ w_aux w = [(3%N, 6%N)] /\
     w_all w = [[pos 0; pos 1; negl 3]; [negl 0; negl 1; negl 3]; [pos 0; negl 4]; [pos 1; negl 4]; [pos 4; negl 5]] /\ w_in w = [(pos 0, 1%nat); (pos 1, 1%nat); (pos 2, 1%nat)]).
  { eexists _, _. split; [adder_run [HUserVars 3; HExtend [(pos 0, 1%nat); (pos 1, 1%nat)]; HLbChange (Incl 2%nat, Incl 2%nat); HExtend [(pos 2, 1%nat)]]
       (fun op : hop (lit * nat) => match op with HUb _ | HUbChange _ | HBoth _ => false | _ => true end)|vm_compute; repeat split; reflexivity]. }
  destruct R as (w & t & R & E & Ea & Ec & Ei). destruct (H w t (fun v => (v =? 1)%N || (v =? 2)%N) R) as (a' & H1 & H2 & _ & H4).
  assert (A0 : a' 0%N = false) by (rewrite H1; [reflexivity|]; rewrite Ea; intros (lo & hi & [[= <- <-]|[]] & L); lia).
  specialize (H4 2%nat _ E). rewrite Ei in H4. specialize (H4 (le_n 2)). rewrite Ec in H2. cbn in H2, H4. unfold lit_true in *. cbn in *. rewrite A0 in *.
  destruct (a' 1%N), (a' 3%N), (a' 4%N), (a' 5%N); cbn in *; discriminate.
Qed.
Print Assumptions C31_stale_refuted.

(** ** C34: encoding single pseudo-Boolean constraints with the binary adder *)
Theorem C34_binary_adder_partial : forall ord, iter_order ord -> forall c next, pb_wf c -> NoDup (map fst (p_lits c)) ->
  (forall l w, In (l, w) (p_lits c) -> (0 < w)%nat) -> ~ indivisible c -> lits_below next (map fst (p_lits c)) ->
  exists cs next', encode_pb_constraint (adder_enc ord) (fun xs => Some (add_from_iter xs)) c next = Some (cs, next') /\
    exact_clauses (map fst (p_lits c)) next next' cs (fun a => pb_holds a c).
Proof.
  intros ord H c next Hw Hn Hp. apply (single_pb_exact _ _ pos_weight distinct_inputs (adder_single ord H)); auto.
  intros [l w] Hi. apply Hp in Hi. exact Hi.
Qed.
Print Assumptions C34_binary_adder_partial.
Example C34_binary_adder_ex : exists c cs, c = pb_new_eq [(pos 0, 1%Z); (pos 1, (-3)%Z); (pos 2, 2%Z)] 1 /\
  pb_wf c /\ NoDup (map fst (p_lits c)) /\ ~ indivisible c /\
  encode_pb_constraint (adder_enc idm) (fun xs => Some (add_from_iter xs)) c 3 = Some (cs, 9%N) /\ length cs = 26%nat.
Proof.
  eexists _, _. split; [reflexivity|]. split; [reflexivity|]. split; [|split].
  - cbn. repeat constructor; cbn; intuition discriminate.
  - intros (_ & _ & _ & u & Hu & _). cbn in Hu. pose proof (Hu _ _ (or_introl eq_refl)). pose proof (Hu _ _ (or_intror (or_introl eq_refl))). vm_compute in *. congruence.
  - vm_compute. repeat split; reflexivity.
Qed.

(** [encode_constr] on its own *)
Theorem C34_binary_adder_constr_partial : forall ord, iter_order ord -> forall c next, pb_wf c -> NoDup (map fst (p_lits c)) ->
  (forall l w, In (l, w) (p_lits c) -> (0 < w)%nat) -> lits_below next (map fst (p_lits c)) ->
  (pb_encode_constr (adder_enc ord) (fun xs => Some (add_from_iter xs)) c next = Some CUnsat /\ forall a, ~ pb_holds a c) \/
  exists cs next', pb_encode_constr (adder_enc ord) (fun xs => Some (add_from_iter xs)) c next = Some (COk cs next') /\
    exact_clauses (map fst (p_lits c)) next next' cs (fun a => pb_holds a c).
Proof.
  intros ord H c next Hw Hn Hp Hb. apply (single_constr_exact _ _ pos_weight distinct_inputs (adder_single ord H)); auto.
  intros [l w] Hi. apply Hp in Hi. exact Hi.
Qed.
Print Assumptions C34_binary_adder_constr_partial.

(** ** C60: upper bounds enforced by hard clauses never conflict with assignments that meet them *)

Theorem C60_binary_adder : forall ord, iter_order ord -> forall allow, monotone (adder_enc ord) fst pos_weight allow wsum.
Proof. exact adder_monotone. Qed.
Print Assumptions C60_binary_adder.
Example C60_binary_adder_ex : exists w t U, enforced (adder_enc (fun m => m)) fst pos_weight any_op w t U /\
  map fst U = [3; 4; 7]%nat /\ (forall ub ls, In (ub, ls) U -> ls <> []) /\ (10 <= length (w_all w))%nat.
Proof.
  eexists _, _, _. split.
  { apply (run_asking0 (adder_enc (fun m => m)) fst (fun x => Nat.leb 1 (snd x)) anyb)
      with (ops := [Datatypes.inl (HUserVars 4); Datatypes.inl (HExtend [(pos 0, 3%nat); (pos 1, 5%nat); (pos 2, 2%nat)]); Datatypes.inl (HUb (Incl 7, Incl 8)); Datatypes.inr 7%nat; Datatypes.inl (HUb (Incl 3, Incl 5)); Datatypes.inr 4%nat;
                    Datatypes.inl (HExtend [(pos 3, 2%nat)]); Datatypes.inl (HUbChange (Incl 2, Incl 3)); Datatypes.inr 3%nat]);
    [intros x K; apply PeanoNat.Nat.leb_le in K; exact K | intros [] K; exact I | vm_compute; reflexivity]. }
  split; [reflexivity|]. split; [|vm_compute; lia]. intros ub ls Hin. vm_compute in Hin. decompose [or] Hin; try contradiction; congruence.
Qed.
