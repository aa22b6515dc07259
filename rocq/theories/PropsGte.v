(** * Property theorems: the generalized totalizer (C29, C57)

    All theorems hold for every iteration order [ord] of the hash map buffering the inputs. *)

From Coq Require Import List Bool NArith Lia Permutation.
From Verif Require Import Spec BoundSpec StatSpec BoundExec Maps NodeDb TreeSpec TotDb Totalizer Gte Base GteProofs EncStats.
Import ListNotations.

(** ** C29 *)

Theorem C29_ub_sound : forall ord, iter_order ord -> ub_sound (gte_enc ord) fst pos_weight ub_only wsum.
Proof. exact gte_ub_sound. Qed.
Print Assumptions C29_ub_sound.

Theorem C29_ub_complete : forall ord, iter_order ord -> bounds_complete (gte_enc ord) fst pos_weight ub_only wsum.
Proof. exact gte_complete. Qed.
Print Assumptions C29_ub_complete.

Theorem C29_no_panic : forall ord, iter_order ord ->
  no_panic (gte_enc ord) fst pos_weight ub_only /\ enforce_total (gte_enc ord) fst pos_weight ub_only.
Proof. intros ord H. split; [exact (gte_no_panic ord H)|exact (gte_enforce_total ord H)]. Qed.
Print Assumptions C29_no_panic.

Theorem C29_encode_ub_enables : forall ord, iter_order ord ->
  encodes_ub (gte_enc ord) fst pos_weight ub_only HUb /\ encodes_ub (gte_enc ord) fst pos_weight ub_only HUbChange.
Proof. exact gte_encodes_ub. Qed.
Print Assumptions C29_encode_ub_enables.

Theorem C29_clauses_local : forall ord, iter_order ord -> clauses_local (gte_enc ord) fst pos_weight ub_only.
Proof. exact gte_clauses_local. Qed.
Print Assumptions C29_clauses_local.

Theorem C29_n_clauses : forall ord w t, reachable (gte_enc ord) fst pos_weight ub_only w t -> gt_cls t = length (w_all w).
Proof. exact gte_n_clauses. Qed.
Print Assumptions C29_n_clauses.

(** the tree and the buffer together hold the inputs *)
Theorem C29_tree : forall ord, iter_order ord -> forall w t, reachable (gte_enc ord) fst pos_weight ub_only w t ->
  exists rooted, (forall a, wsum a (w_in w) = wsum a rooted + wsum a (gt_buf t))%nat /\
    total_weight (w_in w) = (total_weight rooted + total_weight (gt_buf t))%nat /\
    match gt_root t with None => rooted = [] | Some con => con_leaves (d_nodes (gt_db t)) con rooted end.
Proof. exact gte_tree. Qed.
Print Assumptions C29_tree.

(** a history with repeated literals, an input heavier than the encoded bounds, and user variables between the calls *)
Definition ex_ops : list (hop (lit * nat)) :=
  [HUserVars 4; HExtend [(pos 0, 1%nat); (negl 1, 2%nat); (pos 0, 2%nat)]; HUb (Incl 1%nat, Excl 3%nat); HUserVars 2;
   HExtend [(pos 4, 7%nat); (pos 2, 3%nat)]; HUbChange (Unb, Incl 4%nat)].

Ltac gte_run ops' :=
  apply (run_reach0 (gte_enc (fun m => m)) fst (fun x => Nat.leb 1 (snd x)) (fun op => match op with HLb _ | HLbChange _ | HBoth _ => false | _ => true end))
    with (ops := ops');
  [let K := fresh in intros x K; apply PeanoNat.Nat.leb_le in K; exact K | let K := fresh in intros [] K; try exact I; discriminate | vm_compute; reflexivity].

Example C29_history_ex : exists w t,
  reachable (gte_enc (fun m => m)) fst pos_weight ub_only w t /\ length (w_all w) = 8%nat /\ gt_buf t = [(pos 4, 7%nat)] /\
  gte_enforce_ub (fun m => m) t 3 = Some (EOk [negl 4; negl 9; negl 10]) /\
  gte_enforce_ub (fun m => m) t 9 = Some ENotEncoded /\ gte_enforce_ub (fun m => m) t 15 = Some (EOk []).
Proof.
  eexists _, _. split.
  - gte_run ex_ops.
  - vm_compute. repeat split; reflexivity.
Qed.

(** A bound that can be enforced stays so, with the same assumptions, until inputs are added, [encode_ub] starts over, or
    a buffered input is moved into the tree ... *)
Theorem C29_ub_persists : forall ord, iter_order ord -> forall w t op w' t' ub ls,
  reachable (gte_enc ord) fst pos_weight ub_only w t -> valid_op fst pos_weight ub_only w op ->
  step (gte_enc ord) w t op = Some (w', t') -> match op with HExtend _ | HUb _ => False | _ => True end -> gt_buf t' = gt_buf t ->
  gte_enforce_ub ord t ub = Some (EOk ls) -> gte_enforce_ub ord t' ub = Some (EOk ls).
Proof. exact gte_ub_persists. Qed.
Print Assumptions C29_ub_persists.

(** ... but encoding a larger bound can move a buffered input into the tree and make bounds encoded before unavailable *)
Theorem C29_ub_persists_refuted : exists ord, iter_order ord /\ ~ ub_persists (gte_enc ord) fst pos_weight ub_only.
Proof.
  exists (fun m => m). split; [intros m; reflexivity|]. intros H.
  assert (R : exists w t, reachable (gte_enc (fun m => m)) fst pos_weight ub_only w t /\
     gte_enforce_ub (fun m => m) t 1 = Some (EOk [negl 2; negl 4]) /\
     exists w' t', step (gte_enc (fun m => m)) w t (HUbChange (Incl 6%nat, Incl 6%nat)) = Some (w', t') /\ gte_enforce_ub (fun m => m) t' 1 = Some ENotEncoded).
  { eexists _, _. split; [gte_run [HUserVars 3; HExtend [(pos 0, 1%nat); (pos 1, 1%nat); (pos 2, 5%nat)]; HUb (Unb, Incl 1%nat)]|].
    split; [vm_compute; reflexivity|]. eexists _, _. split; vm_compute; reflexivity. }
  destruct R as (w & t & R & E & w' & t' & Es & E').
  specialize (H w t (HUbChange (Incl 6%nat, Incl 6%nat)) w' t' 1%nat _ R (conj I I) Es I E). cbn [gte_enc en_enforce_ub] in H. congruence.
Qed.
Print Assumptions C29_ub_persists_refuted.

(** an input of weight zero makes encoding panic *)
Theorem C29_zero_weight_refuted : exists ord, iter_order ord /\ ~ no_panic (gte_enc ord) fst (fun _ => True) ub_only.
Proof.
  exists (fun m => m). split; [intros m; reflexivity|]. intros H.
  assert (R : exists w t, reachable (gte_enc (fun m => m)) fst (fun _ => True) ub_only w t /\
     step (gte_enc (fun m => m)) w t (HUb (Incl 0%nat, Incl 0%nat)) = None).
  { eexists _, _. split.
    - apply (run_reach0 (gte_enc (fun m => m)) fst (fun x => true) (fun op => match op with HLb _ | HLbChange _ | HBoth _ => false | _ => true end))
        with (ops := [HUserVars 2; HExtend [(pos 0, 0%nat); (pos 1, 1%nat)]]); [intros; exact I | intros [] E; try exact I; discriminate | vm_compute; reflexivity].
    - vm_compute. reflexivity. }
  destruct R as (w & t & R & E). exact (H w t (HUb (Incl 0%nat, Incl 0%nat)) R (conj I I) E).
Qed.
Print Assumptions C29_zero_weight_refuted.

(** collecting the inputs with [from_iter] instead of [extend] forgets all but the last weight of a repeated literal *)
Theorem C29_from_iter_refuted : exists xs, (forall x, In x xs -> pos_weight x) /\
  gte_weight_sum (gte_from_iter xs) = Some 3%nat /\ total_weight xs = 5%nat /\ gte_weight_sum (gte_extend gte_new xs) = Some 5%nat.
Proof.
  exists [(pos 0, 2%nat); (pos 1, 1%nat); (pos 0, 2%nat)]. split; [|vm_compute; auto].
  intros x [<-|[<-|[<-|[]]]]; unfold pos_weight; cbn; lia.
Qed.
Print Assumptions C29_from_iter_refuted.

(** ** C57: next higher and lower values never skip a value of the weighted sum *)

Theorem C57_next_higher : forall ord, iter_order ord -> forall w t val,
  reachable (gte_enc ord) fst pos_weight ub_only w t -> gt_buf t = [] ->
  exists v, gte_next_higher t val = Some v /\ (val < v)%nat /\ forall a, (val < wsum a (w_in w) -> v <= wsum a (w_in w))%nat.
Proof. exact gte_next_higher_ok. Qed.
Print Assumptions C57_next_higher.

Theorem C57_next_lower : forall ord, iter_order ord -> forall w t val,
  reachable (gte_enc ord) fst pos_weight ub_only w t -> gt_buf t = [] -> (1 <= val)%nat ->
  exists v, gte_next_lower t val = Some v /\ (v < val)%nat /\ forall a, (wsum a (w_in w) < val -> wsum a (w_in w) <= v)%nat.
Proof. exact gte_next_lower_ok. Qed.
Print Assumptions C57_next_lower.

Example C57_next_ex : exists w t, reachable (gte_enc (fun m => m)) fst pos_weight ub_only w t /\ gt_buf t = [] /\
  map (gte_next_higher t) [0%nat; 3%nat; 5%nat; 10%nat] = [Some 3%nat; Some 5%nat; Some 8%nat; Some 13%nat] /\
  map (gte_next_lower t) [3%nat; 5%nat; 8%nat; 20%nat] = [Some 0%nat; Some 3%nat; Some 5%nat; Some 13%nat].
Proof.
  eexists _, _. split; [gte_run [HUserVars 3; HExtend [(pos 0, 3%nat); (pos 1, 5%nat); (pos 2, 2%nat); (pos 2, 3%nat)]; HUb (Unb, Unb)]|].
  vm_compute. repeat split; reflexivity.
Qed.

(** with buffered inputs, they do skip values *)
Theorem C57_buffered_refuted : exists ord w t, iter_order ord /\ reachable (gte_enc ord) fst pos_weight ub_only w t /\
  gte_next_higher t 0 = Some 10%nat /\ gte_next_lower t 10 = Some 0%nat /\ exists a, wsum a (w_in w) = 1%nat.
Proof.
  exists (fun m => m). eexists _, _. split; [intros m; reflexivity|].
  split; [gte_run [HUserVars 3; HExtend [(pos 0, 10%nat); (pos 1, 10%nat)]; HUb (Unb, Unb); HExtend [(pos 2, 1%nat)]]|].
  split; [vm_compute; reflexivity|]. split; [vm_compute; reflexivity|]. exists (fun v => N.eqb v 2). reflexivity.
Qed.
Print Assumptions C57_buffered_refuted.

(** ** C60: upper bounds enforced by hard clauses never conflict with assignments that meet them *)

Theorem C60_generalized_totalizer : forall ord, iter_order ord -> monotone (gte_enc ord) fst pos_weight ub_only wsum.
Proof. exact gte_monotone. Qed.
Print Assumptions C60_generalized_totalizer.
(* Bounds 7 and 4 are enforced before, and bound 3 after, more inputs come and more bounds are encoded. *)
Example C60_generalized_totalizer_ex : exists w t U, enforced (gte_enc (fun m => m)) fst pos_weight ub_only w t U /\
  map fst U = [3; 4; 7]%nat /\ (forall ub ls, In (ub, ls) U -> ls <> []) /\ (10 <= length (w_all w))%nat.
Proof.
  eexists _, _, _. split.
  { apply (run_asking0 (gte_enc (fun m => m)) fst (fun x => Nat.leb 1 (snd x)) (fun op => match op with HLb _ | HLbChange _ | HBoth _ => false | _ => true end))
      with (ops := [inl (HUserVars 4); inl (HExtend [(pos 0, 3%nat); (pos 1, 5%nat); (pos 2, 2%nat)]); inl (HUb (Incl 7, Incl 8)); inr 7%nat; inl (HUb (Incl 3, Incl 5)); inr 4%nat;
                    inl (HExtend [(pos 3, 2%nat)]); inl (HUbChange (Incl 2, Incl 3)); inr 3%nat]);
    [intros x K; apply PeanoNat.Nat.leb_le in K; exact K | intros [] K; try exact I; discriminate | vm_compute; reflexivity]. }
  split; [reflexivity|]. split; [|vm_compute; lia]. intros ub ls Hin. vm_compute in Hin. destruct Hin as [[= <- <-]|[[= <- <-]|[[= <- <-]|[]]]]; discriminate.
Qed.

(** ** C72: the number of variables reported is that of the variables taken, unless some were reserved in advance *)
Theorem C72_gte_variables : forall ord (allow : hop (lit * nat) -> Prop) w t, (forall op, allow op -> ub_only op) -> reachable (gte_enc ord) fst pos_weight allow w t ->
  (gt_vars t <= aux_count (w_aux w))%N /\ ((forall op, allow op -> no_reserve op) -> gt_vars t = aux_count (w_aux w)).
Proof. exact gte_vars. Qed.
Print Assumptions C72_gte_variables.

Example C72_gte_ex : exists w t, reachable (gte_enc (fun m => m)) fst pos_weight (fun op => ub_only op /\ no_reserve op) w t /\ gt_vars t = 21%N /\ (1 <= gt_cls t)%nat.
Proof.
  eexists _, _. split; [apply (run_reach0 (gte_enc (fun m => m)) fst (fun x => Nat.leb 1 (snd x)) (fun op => match op with HReserve | HLb _ | HLbChange _ | HBoth _ => false | _ => true end))
    with (ops := [HUserVars 4; HExtend [(pos 0, 5%nat); (pos 1, 3%nat); (negl 2, 8%nat); (pos 3, 7%nat)]; HUb (Unb, Incl 4%nat); HUbChange (Unb, Incl 10%nat)])|].
  - intros x H. apply PeanoNat.Nat.leb_le. exact H.
  - intros op H. split; [destruct op; cbn in *; try discriminate; exact I|intros ->; discriminate].
  - vm_compute. reflexivity.
  - split; vm_compute; [reflexivity|lia].
Qed.
