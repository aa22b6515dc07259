(** * Property theorems: totalizer trees and the totalizer (C24-C27) *)

From Coq Require Import List Bool NArith Lia.
From Verif Require Import Spec BoundSpec StatSpec BoundExec NodeDb TreeSpec TotDb Totalizer Base TotWeighted TotalizerProofs NodeConProofs EncStats.
Import ListNotations.

(** ** C24: trees contain exactly the added literals *)

(** every tree built in any history of tree-building calls has exactly its literals (with weights) as leaves, also after
    all later calls *)
Theorem C24_tree_leaves : forall d T con ls, tree_hist d T -> In (con, ls) T -> con_leaves (d_nodes d) con ls.
Proof. exact tree_hist_leaves. Qed.
Print Assumptions C24_tree_leaves.

(** building never panics, and never changes the nodes built before *)
Theorem C24_nodes_kept : forall d T op, tree_hist d T -> valid_tree_op T op ->
  exists d' con ls new, tree_step d T op = Some (d', T ++ [(con, ls)]) /\ d_nodes d' = d_nodes d ++ new.
Proof. exact tree_hist_step. Qed.
Print Assumptions C24_nodes_kept.

Example C24_tree_ex : exists d T, tree_hist d T /\ length T = 3%nat /\ length (d_nodes d) = 10%nat.
Proof.
  eexists _, _. split; [|split].
  - eapply (th_step _ _ (TMerge true [0%nat; 1%nat])).
    + eapply (th_step _ _ (TWeighted [(pos 0, 2%nat); (pos 3, 2%nat); (pos 4, 5%nat)])).
      * eapply (th_step _ _ (TLits [pos 0; pos 1; negl 2])); [apply th_start|discriminate|]. vm_compute. reflexivity.
      * split; [discriminate|]. intros l w [[= <- <-]|[[= <- <-]|[[= <- <-]|[]]]]; lia.
      * vm_compute. reflexivity.
    + split; [discriminate|]. intros i [<-|[<-|[]]]; cbn; lia.
    + vm_compute. reflexivity.
  - reflexivity.
  - reflexivity.
Qed.

(** the tree of a totalizer has exactly the inputs added before the last encoding as leaves, the rest is buffered *)
Theorem C24_totalizer_tree : forall w t, reach_tot w t ->
  match to_root t with
  | None => w_in w = to_buf t
  | Some id => exists rooted, w_in w = rooted ++ to_buf t /\ tree_leaves (d_nodes (to_db t)) id (map (fun l => (l, 1%nat)) rooted)
  end.
Proof. exact tot_tree. Qed.
Print Assumptions C24_totalizer_tree.

(** ** C25: connections *)

Theorem C25_adjoint : forall con v w, con_valid con -> (1 <= w)%nat -> within_limit con w ->
  (w <= nc_map con v <-> nc_rev_map_round_up con w <= v)%nat.
Proof. exact con_adjoint. Qed.
Print Assumptions C25_adjoint.
Example C25_adjoint_ex : let con := mkCon 7 3 2 5 (Some 4) in
  con_valid con /\ within_limit con 12 /\ nc_rev_map_round_up con 12 = 9%nat /\ nc_map con 9 = 15%nat /\ nc_map con 8 = 10%nat.
Proof. vm_compute. repeat split; lia. Qed.

Theorem C25_possible : forall con w, con_valid con -> (nc_is_possible con w = true <-> exists v, nc_map con v = w).
Proof. exact con_possible. Qed.
Print Assumptions C25_possible.

Theorem C25_round_trip : forall con w, con_valid con -> nc_is_possible con w = true -> nc_map con (nc_rev_map con w) = w.
Proof. exact con_round_trip. Qed.
Print Assumptions C25_round_trip.

Theorem C25_round_down : forall con v w, con_valid con -> nc_limit con = None ->
  (nc_map con v <= w <-> v < nc_rev_map con w + nc_div con)%nat.
Proof. exact con_round_down. Qed.
Print Assumptions C25_round_down.

(** values beyond the limit of a connection are never reached, although the reverse map gives an input value for them *)
Theorem C25_beyond_limit : forall con v w, ~ within_limit con w -> (nc_map con v < w)%nat.
Proof. exact con_beyond. Qed.
Print Assumptions C25_beyond_limit.
Theorem C25_adjoint_limit_refuted : exists con v w, con_valid con /\ (1 <= w)%nat /\
  (nc_rev_map_round_up con w <= v)%nat /\ ~ (w <= nc_map con v)%nat.
Proof. exists (mkCon 0 0 1 1 (Some 2)), 5%nat, 4%nat. vm_compute. split; [lia|]. split; [lia|]. split; lia. Qed.
Print Assumptions C25_adjoint_limit_refuted.

(** ** C26, C27: totalizer bounds over all call histories

    [reach_tot w t]: [t] is reached from a new totalizer by any sequence of extending, reserving, encoding and taking
    variables; [w] is what was observed. *)

Theorem C26_ub_sound : forall w t ub ls a, reach_tot w t -> tot_enforce_ub t ub = Some (EOk ls) ->
  sat_cnf a (w_ub w) = true -> sat_cube a ls = true -> (count_true a (w_in w) <= ub)%nat.
Proof. exact tot_ub_sound. Qed.
Print Assumptions C26_ub_sound.

Theorem C26_ub_complete : forall w t a, reach_tot w t -> exists a',
  (forall v, ~ in_aux (w_aux w) v -> a' v = a v) /\
  sat_cnf a' (w_all w) = true /\
  (forall ub ls, tot_enforce_ub t ub = Some (EOk ls) -> (count_true a (w_in w) <= ub)%nat -> sat_cube a' ls = true) /\
  (forall lb ls, tot_enforce_lb t lb = Some (EOk ls) -> (lb <= count_true a (w_in w))%nat -> sat_cube a' ls = true).
Proof. exact tot_complete. Qed.
Print Assumptions C26_ub_complete.

Theorem C26_no_panic : no_panic totalizer (fun l => l) any_lit any_op /\ enforce_total totalizer (fun l => l) any_lit any_op.
Proof. exact (conj tot_no_panic tot_enforce_total). Qed.
Print Assumptions C26_no_panic.

Theorem C26_encode_ub_enables : forall op, In op [HUb; HUbChange; HBoth] -> encodes_ub totalizer (fun l => l) any_lit any_op op.
Proof. intros op [<-|[<-|[<-|[]]]]; apply tot_encodes_ub. Qed.
Print Assumptions C26_encode_ub_enables.

Theorem C26_ub_persists : ub_persists totalizer (fun l => l) any_lit any_op.
Proof. exact (proj1 tot_persists). Qed.
Print Assumptions C26_ub_persists.

Theorem C26_clauses_local : clauses_local totalizer (fun l => l) any_lit any_op.
Proof. exact tot_clauses_local. Qed.
Print Assumptions C26_clauses_local.

(** a history with an extension between two encodings *)
Definition tot_hist : list (hop lit) :=
  [HUserVars 5; HExtend [pos 0; negl 1; pos 2]; HUb (Incl 1, Incl 1); HUserVars 1; HExtend [pos 3; pos 4]; HUbChange (Incl 1, Incl 3); HLb (Incl 2, Unb)].
Example C26_hist_ex : exists w t, reach_tot w t /\ length (w_all w) = 40%nat /\
  tot_enforce_ub t 2 = Some (EOk [negl 14]) /\ tot_enforce_ub t 0 = Some ENotEncoded /\ tot_enforce_lb t 4 = Some (EOk [pos 15]) /\ tot_enforce_lb t 6 = Some EUnsat.
Proof.
  eexists _, _. split; [apply (run_reach0 totalizer (fun l => l) (fun _ => true) (fun _ => true)) with (ops := tot_hist)|]; try (intros; exact I).
  - vm_compute. reflexivity.
  - vm_compute. repeat split.
Qed.

Theorem C27_lb_sound : forall w t lb ls a, reach_tot w t -> tot_enforce_lb t lb = Some (EOk ls) ->
  sat_cnf a (w_lb w) = true -> sat_cube a ls = true -> (lb <= count_true a (w_in w))%nat.
Proof. exact tot_lb_sound. Qed.
Print Assumptions C27_lb_sound.

(** completeness is joint for both kinds of bounds: C26_ub_complete *)
Theorem C27_lb_complete : bounds_complete totalizer (fun l => l) any_lit any_op count_true.
Proof. exact tot_complete. Qed.
Print Assumptions C27_lb_complete.

Theorem C27_unsat_right : unsat_right totalizer (fun l => l) any_lit any_op count_true.
Proof. exact tot_unsat_right. Qed.
Print Assumptions C27_unsat_right.

Theorem C27_encode_lb_enables : forall op, In op [HLb; HLbChange; HBoth] -> encodes_lb totalizer (fun l => l) any_lit any_op op.
Proof. intros op [<-|[<-|[<-|[]]]]; apply tot_encodes_lb. Qed.
Print Assumptions C27_encode_lb_enables.

Theorem C27_lb_persists : lb_persists totalizer (fun l => l) any_lit any_op.
Proof. exact (proj2 tot_persists). Qed.
Print Assumptions C27_lb_persists.

(** the assumptions of [enforce_eq] force exactly the bound *)
Theorem C27_enforce_eq : forall w t b ls a, reach_tot w t -> enforce_eq tot_enforce_ub tot_enforce_lb t b = Some (EOk ls) ->
  sat_cnf a (w_ub w) = true -> sat_cnf a (w_lb w) = true -> sat_cube a ls = true -> count_true a (w_in w) = b.
Proof. exact tot_enforce_eq. Qed.
Print Assumptions C27_enforce_eq.

Theorem C27_enforce_eq_complete : forall w t a, reach_tot w t -> exists a',
  (forall v, ~ in_aux (w_aux w) v -> a' v = a v) /\ sat_cnf a' (w_all w) = true /\
  (forall ls, enforce_eq tot_enforce_ub tot_enforce_lb t (count_true a (w_in w)) = Some (EOk ls) -> sat_cube a' ls = true).
Proof. exact tot_enforce_eq_complete. Qed.
Print Assumptions C27_enforce_eq_complete.

(** [encode_both] does not start over as [encode_ub] and [encode_lb] do: called a second time, with a new collector, it
    emits nothing, and still the bound is reported as encoded, although no clause in the new collector enforces it *)
Theorem C27_encode_both_again_refuted : exists w t w1 t1 t2 next ls a, reach_tot w t /\
  step totalizer w t (HBoth (Incl 1, Incl 1)) = Some (w1, t1) /\
  tot_encode_both t1 (Incl 1, Incl 1) (w_next w1) = Some (t2, [], next) /\
  tot_enforce_ub t2 1 = Some (EOk ls) /\ sat_cube a ls = true /\ count_true a (w_in w1) = 2%nat.
Proof.
  eexists _, _, _, _, _, _, _, (fun v => (v <? 2)%N).
  split; [apply (run_reach0 totalizer (fun l => l) (fun _ => true) (fun _ => true)) with (ops := [HUserVars 2; HExtend [pos 0; pos 1]]);
    try (intros; exact I); vm_compute; reflexivity|].
  split; [vm_compute; reflexivity|]. split; [vm_compute; reflexivity|]. split; [vm_compute; reflexivity|]. split; reflexivity.
Qed.
Print Assumptions C27_encode_both_again_refuted.

(** the reported number of clauses is the number of clauses emitted *)
Theorem C26_n_clauses : forall w t, reach_tot w t -> to_cls t = length (w_all w).
Proof. exact tot_n_clauses. Qed.
Print Assumptions C26_n_clauses.

(** ** C60: upper bounds enforced by hard clauses never conflict with assignments that meet them *)

Theorem C60_totalizer : monotone totalizer (fun l => l) any_lit any_op count_true.
Proof. exact tot_monotone. Qed.
Print Assumptions C60_totalizer.
Example C60_totalizer_ex : exists w t U, enforced totalizer (fun l => l) any_lit any_op w t U /\
  map fst U = [1; 1; 2]%nat /\ (forall ub ls, In (ub, ls) U -> ls <> []) /\ (10 <= length (w_all w))%nat.
Proof.
  eexists _, _, _. split.
  { apply (run_asking0 totalizer (fun l => l) (fun _ => true) (fun _ => true))
      with (ops := [inl (HUserVars 4); inl (HExtend [pos 0; pos 1; pos 2]); inl (HUb (Incl 2, Incl 2)); inr 2%nat; inl (HUb (Incl 1, Incl 1)); inr 1%nat;
                    inl (HExtend [pos 3]); inl (HLb (Incl 2, Incl 2)); inl (HUbChange (Incl 1, Incl 1)); inr 1%nat]); try (intros; exact I). vm_compute; reflexivity. }
  split; [reflexivity|]. split; [|vm_compute; lia]. intros ub ls Hin. vm_compute in Hin. decompose [or] Hin; try contradiction; congruence.
Qed.

(** ** C72: the number of variables reported is that of the variables taken, unless some were reserved in advance *)
Theorem C72_totalizer_variables : forall allow w t, reachable totalizer (fun l => l) any_lit allow w t ->
  (to_vars t <= aux_count (w_aux w))%N /\ ((forall op, allow op -> no_reserve op) -> to_vars t = aux_count (w_aux w)).
Proof. intros allow w t R. exact (proj2 (tot_vars allow w t R)). Qed.
Print Assumptions C72_totalizer_variables.

Example C72_totalizer_ex : exists w t, reachable totalizer (fun l => l) any_lit no_reserve w t /\ to_vars t = 8%N /\ to_cls t = 14%nat.
Proof.
  eexists _, _. split; [apply (run_reach0 totalizer (fun l => l) (fun _ => true) (fun op => match op with HReserve => false | _ => true end))
    with (ops := [HUserVars 4; HExtend [pos 0; pos 1; negl 2; pos 3]; HUb (Unb, Unb)])|].
  - intros x _. exact I.
  - intros op H ->. discriminate.
  - vm_compute. reflexivity.
  - split; vm_compute; reflexivity.
Qed.

(** reserved variables are not counted *)
Theorem C72_totalizer_reserved_refuted : exists w t, reach_tot w t /\ to_vars t = 0%N /\ aux_count (w_aux w) = 8%N.
Proof.
  eexists _, _. split; [apply (run_reach0 totalizer (fun l => l) (fun _ => true) (fun _ => true))
    with (ops := [HUserVars 4; HExtend [pos 0; pos 1; negl 2; pos 3]; HReserve; HUb (Unb, Unb)])|].
  - intros x _. exact I.
  - intros op _. exact I.
  - vm_compute. reflexivity.
  - split; vm_compute; reflexivity.
Qed.
Print Assumptions C72_totalizer_reserved_refuted.
