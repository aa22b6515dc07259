(** * The binary adder encoding over all histories *)

From Coq Require Import List Bool NArith ZArith Lia Arith Permutation.
From Coq Require Import ZifyBool ZifyNat ZifyN.
From Verif Require Import Spec BoundSpec Types Constraints Maps NodeDb Totalizer Adder Base AdderSem AdderNodes AdderProofs.
From Verif Require Import TotalizerProofs GteProofs.
Import ListNotations.

Definition outs_of (t : adder) : list (option acon) := match ad_struct t with Some (outs, _) => outs | None => [] end.
Definition comp_of (t : adder) : list (option aout) := match ad_struct t with Some (_, comp) => comp | None => [] end.
Definition inp_of (ins : list (lit * nat)) (v : N) : Prop := exists x, In x ins /\ lvar (fst x) = v.
Notation inl bv := (fun l => bv (AIn l)).

(** a flagged comparator output has its clauses and those of all nodes *)
Definition comp_done (d : dir) (F : cnf) (t : adder) : Prop :=
  forall k o, nth_error (comp_of t) k = Some (Some o) -> flag d o = true ->
    all_done d F (ad_nodes t) /\ exists lhs, obits (ad_nodes t) (outs_of t) lhs /\ incl (comp_clauses d k (o_bit o) lhs) F.

Record ainv (D : defs) (w : world (lit * nat)) (t : adder) : Prop := mkAinv {
  ai_good : good (inp_of (w_in w)) D (w_all w) (ad_nodes t) (w_next w);
  ai_dom : forall v, D v <> None -> in_aux (w_aux w) v;
  ai_aux : aux_below (w_aux w) (w_next w);
  ai_in : forall x, In x (w_in w) -> (lvar (fst x) < w_next w)%N /\ ~ in_aux (w_aux w) (lvar (fst x));
  ai_total : (ad_sum t + total_weight (ad_buf t) = total_weight (w_in w))%nat;
  ai_pos : forall l x, In (l, x) (ad_buf t) -> (1 <= x)%nat;
  ai_src : forall l x, In (l, x) (ad_buf t) -> inp_of (w_in w) (lvar l);
  ai_outs : forall k, In (Some k) (outs_of t) -> con_ok (inp_of (w_in w)) (length (ad_nodes t)) k;
  ai_cov : covered (ad_nodes t) (outs_of t);
  ai_rel : forall R bv, rel_ok R -> (forall n nd, nth_error (ad_nodes t) n = Some nd -> node_rel R bv n (an_sh nd)) ->
    R (hv bv (outs_of t) + lsum (inl bv) (ad_buf t))%nat (lsum (inl bv) (w_in w));
  ai_comp : comp_def D (ad_nodes t) (outs_of t) (comp_of t);
  ai_len : forall k o, nth_error (comp_of t) k = Some (Some o) -> (k < 2 ^ length (outs_of t))%nat;
  ai_only : comp_done DOnly (w_all w) t;
  ai_flags : flags_ok DOnly (w_all w) (ad_nodes t) (length (ad_nodes t))
}.
(** what holds in addition if lower bounds are never encoded *)
Definition uinv (w : world (lit * nat)) (t : adder) : Prop :=
  flags_ok DIf (w_all w) (ad_nodes t) (length (ad_nodes t)) /\ comp_done DIf (w_all w) t.

Lemma weight_sum_ok D w t : ainv D w t -> add_weight_sum t = total_weight (w_in w).
Proof. intros I. unfold add_weight_sum. rewrite sum_weights_acc. apply (ai_total _ _ _ I). Qed.

(** ** Enforcing bounds *)
Lemma lsum_bvof a nodes xs : lsum (inl (bvof a nodes)) xs = wsum a xs.
Proof. apply lsum_wsum. Qed.
Lemma wsum_le_total a xs : (wsum a xs <= total_weight xs)%nat.
Proof. induction xs as [|[l w] xs IH]; cbn [wsum total_weight]; [auto|]. destruct (lit_true a l); lia. Qed.

Lemma comp_sound d F w t D a k o : ainv D w t -> comp_done d (w_all w) t -> F = w_all w -> sat_cnf a F = true -> nth_error (comp_of t) k = Some (Some o) -> flag d o = true ->
  exists h, comp_says d k h (lit_true a (o_bit o)) /\ dir_rel d (h + wsum a (ad_buf t))%nat (wsum a (w_in w)).
Proof.
  intros I C -> S Hk Hf. destruct (C _ _ Hk Hf) as (Ad & lhs & B & Hi). exists (hv (lit_true a) lhs). split.
  - apply comp_clauses_spec; [rewrite (obits_length _ _ _ B); eapply ai_len; eauto|eapply sat_incl; eauto].
  - rewrite (obits_hv a _ _ _ B). rewrite <- !(lsum_bvof a (ad_nodes t)). apply (ai_rel _ _ _ I); [apply dir_rel_ok|]. now apply all_done_rel with (F := w_all w).
Qed.

Lemma enforce_ub_spec t ub ls : add_enforce_ub t ub = Some (EOk ls) ->
  (add_weight_sum t <= ub)%nat /\ ls = [] \/ exists o, nth_error (comp_of t) ub = Some (Some o) /\ o_if o = true /\ ls = [neg (o_bit o)].
Proof.
  unfold add_enforce_ub, comp_of. destruct (Nat.leb_spec (add_weight_sum t) ub); [intros [= <-]; auto|]. destruct (ad_struct t) as [[outs comp]|]; [|discriminate].
  destruct (nth_error comp ub) as [[o|]|]; try discriminate. destruct (o_if o) eqn:E; [|discriminate]. intros [= <-]. right. exists o. auto.
Qed.
Lemma enforce_lb_spec t lb ls : add_enforce_lb t lb = Some (EOk ls) ->
  lb = 0%nat /\ ls = [] \/ (1 <= lb)%nat /\ exists o, nth_error (comp_of t) (lb - 1) = Some (Some o) /\ o_only o = true /\ ls = [o_bit o].
Proof.
  unfold add_enforce_lb, comp_of. destruct (Nat.ltb_spec (add_weight_sum t) lb); [discriminate|]. destruct (Nat.eqb_spec lb 0); [intros [= <-]; auto|]. destruct (ad_struct t) as [[outs comp]|]; [|discriminate].
  destruct (nth_error comp (lb - 1)) as [[o|]|]; try discriminate. destruct (o_only o) eqn:E; [|discriminate]. intros [= <-]. right. split; [lia|]. exists o. auto.
Qed.

Lemma enforce_ub_sound D w t ub ls a : ainv D w t -> uinv w t -> ad_buf t = [] -> add_enforce_ub t ub = Some (EOk ls) ->
  sat_cnf a (w_all w) = true -> sat_cube a ls = true -> (wsum a (w_in w) <= ub)%nat.
Proof.
  intros I U B E S C. apply enforce_ub_spec in E as [(L & _)|(o & Ho & Hi & ->)].
  - rewrite (weight_sum_ok _ _ _ I) in L. pose proof (wsum_le_total a (w_in w)). lia.
  - destruct (comp_sound DIf _ w t D a ub o I (proj2 U) eq_refl S Ho Hi) as (h & H1 & H2). rewrite B in H2. cbn [comp_says dir_rel wsum] in *.
    cbn in C. rewrite lit_true_neg, andb_true_r in C. specialize (H1 ltac:(now destruct (lit_true a (o_bit o)))). lia.
Qed.
Lemma enforce_lb_sound D w t lb ls a : ainv D w t -> add_enforce_lb t lb = Some (EOk ls) ->
  sat_cnf a (w_all w) = true -> sat_cube a ls = true -> (lb <= wsum a (w_in w))%nat.
Proof.
  intros I E S C. apply enforce_lb_spec in E as [(-> & _)|(L & o & Ho & Hi & ->)]; [lia|].
  destruct (comp_sound DOnly _ w t D a _ o I (ai_only _ _ _ I) eq_refl S Ho Hi) as (h & H1 & H2). cbn [comp_says dir_rel] in *.
  cbn in C. rewrite andb_true_r in C. specialize (H1 C). lia.
Qed.
Lemma hv_exact D w t a : ainv D w t -> (hv (cv (lit_true a) (shapes (ad_nodes t))) (outs_of t) + wsum a (ad_buf t) = wsum a (w_in w))%nat.
Proof.
  intros I. rewrite <- !lsum_wsum. apply (ai_rel _ _ _ I eq (cv (lit_true a) (shapes (ad_nodes t))) rel_eq). intros n nd Hn.
  eapply cv_rel; [unfold shapes; rewrite nth_error_map, Hn; reflexivity|]. intros k Hk. eapply (g_kids _ _ _ _ _ (ai_good _ _ _ I)); eauto.
Qed.
Lemma enforce_complete D w t a : ainv D w t ->
  (forall v, ~ in_aux (w_aux w) v -> cval D a v = a v) /\ sat_cnf (cval D a) (w_all w) = true /\
  (forall ub ls, add_enforce_ub t ub = Some (EOk ls) -> (wsum a (w_in w) <= ub)%nat -> sat_cube (cval D a) ls = true) /\
  (forall lb ls, ad_buf t = [] -> add_enforce_lb t lb = Some (EOk ls) -> (lb <= wsum a (w_in w))%nat -> sat_cube (cval D a) ls = true).
Proof.
  intros I. split; [|split; [|split]].
  - intros v Hv. unfold cval. destruct (D v) eqn:E; [|auto]. exfalso. apply Hv, (ai_dom _ _ _ I). congruence.
  - apply (g_true _ _ _ _ _ (ai_good _ _ _ I)).
  - intros ub ls E L. apply enforce_ub_spec in E as [(_ & ->)|(o & Ho & Hi & ->)]; [reflexivity|]. destruct (ai_comp _ _ _ I _ _ Ho) as (So & f & Df & Hf).
    pose proof (hv_exact _ _ _ a I) as X. cbn. rewrite andb_true_r, lit_true_neg. unfold lit_true, cval. rewrite So, Df, Hf. cbn [xorb].
    destruct (Nat.ltb_spec ub (hv (cv (lit_true a) (shapes (ad_nodes t))) (outs_of t))); [lia|reflexivity].
  - intros lb ls B E L. apply enforce_lb_spec in E as [(_ & ->)|(Lb & o & Ho & Hi & ->)]; [reflexivity|]. destruct (ai_comp _ _ _ I _ _ Ho) as (So & f & Df & Hf).
    pose proof (hv_exact _ _ _ a I) as X. rewrite B in X. cbn [wsum] in X. cbn. rewrite andb_true_r. unfold lit_true, cval. rewrite So, Df, Hf. cbn [xorb].
    destruct (Nat.ltb_spec (lb - 1) (hv (cv (lit_true a) (shapes (ad_nodes t))) (outs_of t))); [reflexivity|lia].
Qed.

(** ** Growing the network *)
Lemma bitof_app nodes ns k b : bitof nodes k = Some b -> bitof (nodes ++ ns) k = Some b.
Proof.
  destruct k as [l|p n]; cbn [bitof]; [auto|]. destruct (nth_error nodes n) as [nd|] eqn:E; [|discriminate].
  rewrite nth_error_app1, E by (apply nth_error_Some; congruence). auto.
Qed.
Lemma enc_done_app d F nodes ns p n : enc_done d F nodes p n -> enc_done d F (nodes ++ ns) p n.
Proof.
  induction 1 as [p n nd Hn (nd' & o & bits & Hn' & Ho & Hb & Hi) _ IH].
  assert (Hn2 : nth_error (nodes ++ ns) n = Some nd) by (rewrite nth_error_app1; [auto|apply nth_error_Some; congruence]).
  apply (ed _ _ _ _ _ nd); [auto| |auto]. assert (nd' = nd) as -> by congruence. exists nd, o, bits. split; [auto|]. split; [auto|]. split; [|auto].
  eapply Forall2_imp; [|exact Hb]. intros k b. apply bitof_app.
Qed.
Lemma flags_app d F nodes ns : (forall nd, In nd ns -> exists sh, nd = new_node sh) -> flags_ok d F nodes (length nodes) -> flags_ok d F (nodes ++ ns) (length (nodes ++ ns)).
Proof.
  intros N H n p nd o L Hn Ho Hf. destruct (Nat.lt_ge_cases n (length nodes)) as [Ln|Ln].
  - rewrite nth_error_app1 in Hn by auto. apply enc_done_app. eapply H; eauto.
  - rewrite nth_error_app2 in Hn by auto. apply nth_error_In in Hn. destruct (N _ Hn) as (sh & ->). destruct p; discriminate Ho.
Qed.

Section Hist.
Context (ord : wmap -> wmap) (Hord : iter_order ord).

Lemma extend_structure_ok D w t : ainv D w t -> exists t1, extend_structure ord t = Some t1 /\ ainv D w t1 /\ ad_buf t1 = [] /\
  (ad_buf t = [] -> t1 = t) /\ (ad_buf t <> [] -> comp_of t1 = [] /\ ad_struct t1 <> None) /\ (uinv w t -> uinv w t1).
Proof.
  intros I. unfold extend_structure. destruct (ad_buf t) as [|b0 buf] eqn:Eb.
  { exists t. split; [reflexivity|]. split; [auto|]. split; [auto|]. split; [auto|]. split; [congruence|auto]. }
  rewrite <- Eb. set (B := ad_buf t) in *. assert (PB : Permutation (ord B) B) by apply Hord.
  assert (POS : forall l x, In (l, x) (ord B) -> x <> 0%nat).
  { intros l x H. eapply Permutation_in in H; [|exact PB]. pose proof (ai_pos _ _ _ I l x H). lia. }
  (* one run of the building, described for all relations *)
  set (len := length (ad_nodes t)).
  assert (BLD : exists bs1 ns outs,
     (do bs <- add_inputs [] (ord B);
      Some (match ad_struct t with Some (outs, _) => push_outputs (if (length bs <? length outs)%nat then resize bs (length outs) [] else bs) outs | None => bs end)) = Some bs1 /\
     build (build_fuel bs1) len bs1 = Some (ns, outs) /\ grown len (concat bs1) ns (somes outs) /\
     (forall k, In k (concat bs1) -> con_ok (inp_of (w_in w)) len k) /\ (forall k, In (Some k) (outs_of t) -> In k (concat bs1)) /\
     (forall R bv, rel_ok R -> (forall i nd, nth_error ns i = Some nd -> node_rel R bv (len + i) (an_sh nd)) -> R (hv bv outs) (lsum (inl bv) B + hv bv (outs_of t))%nat)).
  { destruct (add_inputs_spec (fun _ => true) (ord B) [] POS) as (bs & Ebs & _ & IN1 & _). rewrite Ebs. cbn [obind].
    set (bs0 := if (length bs <? length (outs_of t))%nat then resize bs (length (outs_of t)) [] else bs).
    assert (E0 : match ad_struct t with Some (outs, _) => push_outputs (if (length bs <? length outs)%nat then resize bs (length outs) [] else bs) outs | None => bs end = push_outputs bs0 (outs_of t)).
    { unfold bs0, outs_of. destruct (ad_struct t) as [[outs comp]|]; [reflexivity|]. cbn [length]. replace (length bs <? 0)%nat with false by (symmetry; apply Nat.ltb_ge; lia). destruct bs; reflexivity. }
    rewrite E0. set (bs1 := push_outputs bs0 (outs_of t)).
    assert (L0 : (length (outs_of t) <= length bs0)%nat).
    { unfold bs0. destruct (Nat.ltb_spec (length bs) (length (outs_of t))); [|lia]. unfold resize. rewrite app_length, repeat_length. lia. }
    assert (C0 : concat bs0 = concat bs) by (unfold bs0; destruct (_ <? _)%nat; [apply concat_resize|reflexivity]).
    destruct (build_spec eq (fun _ => true) rel_eq (build_fuel bs1) len bs1) as (ns & outs & Ebld & GR & _ & _); [unfold build_fuel; lia|].
    exists bs1, ns, outs. split; [reflexivity|]. split; [auto|]. split; [auto|]. split; [|split].
    - intros k Hk. apply push_outputs_in in Hk as [Hk|Hk]; [|apply (ai_outs _ _ _ I); auto|auto]. rewrite C0 in Hk. apply IN1 in Hk as [[]|(l & x & -> & Hx)].
      cbn [con_ok]. eapply (ai_src _ _ _ I). eapply Permutation_in; [exact PB|exact Hx].
    - intros k Hk. apply push_outputs_in; [auto|]. auto.
    - intros R bv HR Hn. destruct (build_spec R bv HR (build_fuel bs1) len bs1) as (ns' & outs' & Ebld' & _ & _ & HB); [unfold build_fuel; lia|].
      assert (ns' = ns /\ outs' = outs) as (-> & ->) by (rewrite Ebld in Ebld'; injection Ebld' as -> ->; auto). specialize (HB Hn).
      unfold bs1 in HB. rewrite push_outputs_val in HB by auto. assert (V0 : bval bv bs0 = bval bv bs) by (unfold bs0; destruct (_ <? _)%nat; [apply bval_resize|reflexivity]).
      destruct (add_inputs_spec bv (ord B) [] POS) as (bs' & Ebs' & V & _). assert (bs' = bs) as -> by congruence. rewrite V0, V in HB. cbn [bval] in HB.
      rewrite (lsum_perm _ _ _ PB) in HB. exact HB. }
  destruct BLD as (bs1 & ns & outs & E1 & E2 & GR & K1 & K2 & REL).
  destruct (add_inputs [] (ord B)) as [bs|]; [|discriminate]. cbn [obind] in *. injection E1 as ->. rewrite E2. cbn [obind fst snd].
  destruct I as [J1 J2 J3 J4 J5 J6 J7 J8 J9 J10 J11 J12 J13 J14]. fold B in J5, J6, J7, J10.
  assert (G : good (inp_of (w_in w)) D (w_all w) (ad_nodes t ++ ns) (w_next w)).
  { destruct J1 as [G1 G2 G3 G4 G5 G6]. constructor; auto.
    - intros n nd k Hn Hk. destruct (Nat.lt_ge_cases n len) as [Ln|Ln]; [rewrite nth_error_app1 in Hn by auto; eauto|]. rewrite nth_error_app2 in Hn by auto.
      destruct (gr_kids _ _ _ _ GR _ _ _ Hn Hk) as [H|(p & j & -> & Hj)]; [|cbn [con_ok]; unfold len in *; lia]. apply K1 in H. destruct k as [l|p j]; cbn [con_ok] in *; [auto|unfold len in *; lia].
    - intros n nd p o Hn Ho. unfold shapes. rewrite map_app. destruct (Nat.lt_ge_cases n len) as [Ln|Ln].
      + rewrite nth_error_app1 in Hn by auto. destruct (G6 _ _ _ _ Hn Ho) as (S1 & f & Df & Hf). split; [auto|]. exists f. split; [auto|]. intros a. rewrite Hf. symmetry.
        apply (cv_ext _ (inp_of (w_in w))). cbn [con_ok]. unfold len in Ln. unfold shapes. rewrite map_length. exact Ln.
      + rewrite nth_error_app2 in Hn by auto. apply nth_error_In in Hn. destruct (gr_new _ _ _ _ GR _ Hn) as (sh & ->). destruct p; discriminate Ho. }
  exists (mkAdder [] (Some (outs, [])) (fold_left (fun s lw => s + snd lw)%nat (ord B) (ad_sum t)) (ad_nodes t ++ ns)). split; [reflexivity|]. split; [|split; [reflexivity|split; [congruence|split]]].
  - constructor; cbn [ad_buf ad_sum ad_nodes outs_of comp_of ad_struct total_weight]; auto; try solve [intros ? ? []].
    + rewrite sum_weights_acc, (total_weight_perm _ _ PB). lia.
    + intros k Hk. apply in_somes in Hk. rewrite app_length. destruct (gr_rest _ _ _ _ GR _ Hk) as [H|(p & j & -> & Hj)]; [apply K1 in H; destruct k; cbn in *; [auto|lia]|cbn; fold len; lia].
    + intros p n Ln. destruct (Nat.lt_ge_cases n len) as [L|L].
      * destruct (J9 p n L) as [H|H]; [|right; now apply used_app_l]. apply K2 in H. destruct (gr_from _ _ _ _ GR _ H) as [H1|H1]; [left; now apply in_somes|right; now apply used_app_r].
      * rewrite app_length in Ln. fold len in Ln. destruct (gr_ports _ _ _ _ GR p (n - len)%nat ltac:(lia)) as [H1|H1]; replace (len + (n - len))%nat with n in H1 by lia; [left; now apply in_somes|right; now apply used_app_r].
    + intros R bv HR Hn. cbn [lsum]. rewrite Nat.add_0_r. eapply (rel_trans _ HR); [apply (REL R bv HR)|].
      * intros i nd Hi. apply Hn. rewrite nth_error_app2 by (fold len; lia). fold len. rewrite <- Hi. f_equal. lia.
      * eapply rel_cast; [apply (J10 R bv HR)|lia|reflexivity]. intros n nd Hnd. apply Hn. rewrite nth_error_app1; [auto|apply nth_error_Some; congruence].
    + intros k o Hk. destruct k; discriminate Hk.
    + intros k o Hk. destruct k; discriminate Hk.
    + intros k o Hk. destruct k; discriminate Hk.
    + apply flags_app; [apply (gr_new _ _ _ _ GR)|auto].
  - intros _. split; [reflexivity|discriminate].
  - intros (U1 & U2). split; cbn [ad_nodes comp_of ad_struct]; [apply flags_app; [apply (gr_new _ _ _ _ GR)|auto]|]. intros k o Hk. destruct k; discriminate Hk.
Qed.

(** ** Encoding *)
Lemma nth_resize {A} (xs : list A) n x k y : nth_error (resize xs n x) k = Some y -> nth_error xs k = Some y \/ y = x.
Proof.
  unfold resize. intros H. destruct (Nat.lt_ge_cases k (length xs)) as [L|L]; [rewrite nth_error_app1 in H by auto; auto|].
  rewrite nth_error_app2 in H by auto. apply nth_error_In, repeat_spec in H. auto.
Qed.
Lemma nth_resize_keep {A} (xs : list A) n x k y : nth_error xs k = Some y -> nth_error (resize xs n x) k = Some y.
Proof. intros H. unfold resize. rewrite nth_error_app1; [auto|apply nth_error_Some; congruence]. Qed.

Lemma enc_comp_outside d lhs n : forall first comp next comp' cs next' k, enc_comp d lhs first n comp next = Some (comp', cs, next') -> (k < first \/ first + n <= k)%nat ->
  nth_error comp' k = nth_error comp k.
Proof.
  induction n as [|m IH]; intros first comp next comp' cs next' k; cbn [enc_comp].
  - intros [= -> <- <-] _. reflexivity.
  - destruct (nth_error comp first) as [c|] eqn:Ec; [|discriminate]. cbn [obind].
    destruct (match c with Some o1 => _ | None => _ end) as [[o1 nx]|].
    + destruct (assertb _); [|discriminate]. cbn [obind]. destruct (enc_comp d lhs (S first) m (set_nth comp first (Some o1)) nx) as [[[c2 cs2] n2]|] eqn:E; [|discriminate].
      cbn [obind]. intros [= -> <- <-] Lk. assert (Lk' : (k < S first \/ S first + m <= k)%nat) by lia. rewrite (IH _ _ _ _ _ _ _ E Lk'). apply set_nth_other; [apply nth_error_Some; congruence|lia].
    + intros E Lk. eapply IH; [exact E|lia].
Qed.

Definition comp_keep (t t' : adder) : Prop :=
  forall k o, nth_error (comp_of t) k = Some (Some o) -> exists o', nth_error (comp_of t') k = Some (Some o') /\ o_bit o' = o_bit o /\ forall dd, flag dd o = true -> flag dd o' = true.

(** the network is the same but for more variables for its nodes *)
Definition same_net (t t' : adder) : Prop := outs_of t' = outs_of t /\ mono (ad_nodes t) (ad_nodes t').

Lemma encode_change_ok D w t d first n clen : ainv D w t -> (1 <= n)%nat -> (first + n <= clen)%nat -> (first + n <= total_weight (w_in w))%nat ->
  exists D' t' cs next', encode_change ord d t first n clen (w_next w) = Some (t', cs, next') /\ dext D D' (w_next w) next' /\
    (forall rb rl, ainv D' (log_call w rb rl cs next') t' /\ (d = DIf -> uinv w t -> uinv (log_call w rb rl cs next') t')) /\
    ad_buf t' = [] /\ (ad_buf t = [] -> comp_keep t t' /\ same_net t t') /\
    (forall k, (first <= k < first + n)%nat -> exists o', nth_error (comp_of t') k = Some (Some o') /\ (flag d o' = true \/ flag DIf o' = true)) /\
    (forall k o' dd, nth_error (comp_of t') k = Some (Some o') -> flag dd o' = true -> dd = d \/ exists o, nth_error (comp_of t) k = Some (Some o) /\ flag dd o = true) /\
    (forall k o', nth_error (comp_of t') k = Some (Some o') -> (first <= k < first + n)%nat \/ nth_error (comp_of t) k = Some (Some o')).
Proof.
  intros I Hn Hc Ht. unfold encode_change. destruct (extend_structure_ok D w t I) as (t1 & -> & I1 & B1 & Same & Grew & UI). cbn [obind].
  assert (TOT : (total_weight (w_in w) < 2 ^ length (outs_of t1))%nat).
  { pose proof (ai_rel _ _ _ I1 eq (cv (fun _ => true) (shapes (ad_nodes t1))) rel_eq) as R. rewrite B1 in R. cbn [lsum] in R.
    assert (total_weight (w_in w) = lsum (inl (cv (fun _ => true) (shapes (ad_nodes t1)))) (w_in w)) as ->.
    { unfold cv, conv. clear. induction (w_in w) as [|[l x] xs IH]; cbn [lsum total_weight]; lia. }
    rewrite <- R; [rewrite Nat.add_0_r; apply hv_bound|]. intros n0 nd Hnd; eapply cv_rel; [unfold shapes; rewrite nth_error_map, Hnd; reflexivity|]; intros; eapply (g_kids _ _ _ _ _ (ai_good _ _ _ I1)); eauto. }
  assert (HS : ad_struct t1 = Some (outs_of t1, comp_of t1)).
  { unfold outs_of, comp_of in *. destruct (ad_struct t1) as [[o c]|]; [reflexivity|]. cbn [length] in TOT. change (2 ^ 0)%nat with 1%nat in TOT. lia. }
  rewrite HS. set (outs := outs_of t1) in *. set (comp := comp_of t1) in *.
  pose proof (ai_good _ _ _ I1) as G1. rewrite <- (app_nil_r (w_all w)) in G1.
  destruct (enc_outs_ok _ (w_all w) d outs D (ad_nodes t1) [] (w_next w) G1 (ai_outs _ _ _ I1)) as (lhs & D2 & nodes2 & cs2 & next2 & E2 & P2 & B2 & Dn2).
  rewrite E2. cbn [obind]. pose proof P2 as (G2 & X2 & M2 & Ic2 & U2 & Fl2). rewrite app_nil_r in *. assert (L2 := shapes_length _ _ (proj1 M2)).
  set (comp1 := if (length comp <? clen)%nat then resize comp clen None else comp).
  assert (Hc1 : forall k o, nth_error comp1 k = Some (Some o) -> nth_error comp k = Some (Some o)).
  { intros k o Hk. unfold comp1 in Hk. destruct (_ <? _)%nat; [|auto]. apply nth_resize in Hk as [Hk|Hk]; [auto|discriminate]. }
  assert (Hc1' : forall k o, nth_error comp k = Some (Some o) -> nth_error comp1 k = Some (Some o)).
  { intros k o Hk. unfold comp1. destruct (_ <? _)%nat; [|auto]. now apply nth_resize_keep. }
  assert (Lc1 : (first + n <= length comp1)%nat).
  { unfold comp1. destruct (Nat.ltb_spec (length comp) clen); [|lia]. unfold resize. rewrite app_length, repeat_length. lia. }
  assert (Cd : comp_def D2 nodes2 outs comp1).
  { intros k o Hk. apply Hc1 in Hk. destruct (ai_comp _ _ _ I1 _ _ Hk) as (So & f & Df & Hf). split; [auto|]. exists f. split; [now apply (dx_keep _ _ _ _ X2)|]. intros a. rewrite Hf, (proj1 M2). reflexivity. }
  assert (Oo : forall k, In (Some k) outs -> con_ok (inp_of (w_in w)) (length nodes2) k) by (rewrite L2; apply (ai_outs _ _ _ I1)).
  match goal with |- context [obind ?X _] => replace X with (enc_comp d lhs first n comp1 next2) by (symmetry; exact (enc_comp_eq d lhs n first comp1 next2)) end.
  destruct (enc_comp_ok (inp_of (w_in w)) d nodes2 outs lhs _ B2 Oo n first D2 (w_all w ++ cs2) comp1 next2 G2 Cd Lc1) as (comp3 & cs3 & next3 & D3 & E3 & G3 & X3 & C3 & L3 & Q1 & Q2 & Q3).
  { intros k Hk. fold outs in TOT. lia. }
  rewrite E3. cbn [obind]. rewrite <- app_assoc in *. set (cs := cs2 ++ cs3) in *.
  set (t' := mkAdder (ad_buf t1) (Some (outs, comp3)) (ad_sum t1) nodes2).
  assert (X : dext D D3 (w_next w) next3) by (eapply dext_trans; eauto).
  assert (I3 : incl (w_all w ++ cs2) (w_all w ++ cs)) by (unfold cs; intros c Hcx; rewrite app_assoc; apply in_or_app; auto).
  assert (Ia : incl (w_all w) (w_all w ++ cs)) by (intros c Hcx; apply in_or_app; auto).
  assert (Cov : covered nodes2 outs).
  { intros p m Lm. rewrite L2 in Lm. destruct (ai_cov _ _ _ I1 p m Lm) as [H|(i & nd & Hi & Hk)]; [auto|]. right. destruct (shapes_nth _ _ _ _ (proj1 M2) Hi) as (nd' & Hi' & Es).
    exists i, nd'. split; [auto|]. now rewrite Es. }
  (* one direction is completely encoded if its flags could be trusted *)
  assert (CD : forall dd, dd = DOnly \/ d = DIf -> flags_ok dd (w_all w) (ad_nodes t1) (length (ad_nodes t1)) -> comp_done dd (w_all w) t1 ->
     flags_ok dd (w_all w ++ cs) nodes2 (length nodes2) /\ comp_done dd (w_all w ++ cs) t').
  { intros dd Hd Hfl Hcd. split.
    - rewrite L2. intros x y z o Lx Hx Ho Hf. eapply enc_done_mono; [apply mono_refl|exact I3|]. eapply (Fl2 dd Hd Hfl); eauto.
    - intros k o Hk Hf. unfold t', comp_of, outs_of in *. cbn [ad_struct ad_nodes] in *. destruct (Q2 k o dd Hk Hf) as [(-> & Hi)|(o0 & Ho0 & Eb & Hf0)].
      + split; [|exists lhs; auto]. apply (covered_done _ _ _ _ _ outs d G3 Cov). intros p j Hj. eapply enc_done_mono; [apply mono_refl|exact I3|]. apply Dn2; auto.
      + apply Hc1 in Ho0. destruct (Hcd _ _ Ho0 Hf0) as (Ad & lhs0 & Bl & Hi). split.
        * intros p j Lj. rewrite L2 in Lj. eapply cl_in_mono; [exact M2|exact Ia|]. auto.
        * exists lhs0. split; [eapply obits_mono; eauto|]. rewrite Eb. eapply incl_tran; eauto. }
  exists D3, t', cs, next3. split; [reflexivity|]. split; [exact X|]. split; [|split; [exact B1|split; [|split; [|split]]]].
  - intros rb rl. assert (In' : forall x, In x (w_in w) -> (lvar (fst x) < next3)%N /\ ~ in_aux ((w_next w, next3) :: w_aux w) (lvar (fst x))).
    { intros x Hx. destruct (ai_in _ _ _ I1 x Hx) as (H1 & H2). pose proof (dx_next _ _ _ _ X). split; [lia|]. rewrite in_aux_cons. intros [Ha|Ha]; [lia|auto]. }
    destruct (CD DOnly (or_introl eq_refl) (ai_flags _ _ _ I1) (ai_only _ _ _ I1)) as (F3 & O3).
    split.
    + constructor; cbn [log_call w_in w_next w_aux w_all]; unfold t', outs_of, comp_of; cbn [ad_nodes ad_struct ad_buf ad_sum]; auto.
      * intros v Hv. rewrite in_aux_cons. destruct (D v) as [f|] eqn:E; [right; apply (ai_dom _ _ _ I1); congruence|left; eapply (dx_new _ _ _ _ X); eauto].
      * intros v Hv. rewrite in_aux_cons in Hv. pose proof (dx_next _ _ _ _ X). destruct Hv as [Hv|Hv]; [lia|]. apply (ai_aux _ _ _ I1) in Hv. lia.
      * apply (ai_total _ _ _ I1).
      * apply (ai_pos _ _ _ I1).
      * apply (ai_src _ _ _ I1).
      * intros R bv HR Hr. apply (ai_rel _ _ _ I1 R bv HR). intros m nd Hm. destruct (shapes_nth _ _ _ _ (proj1 M2) Hm) as (nd' & Hm' & Es). rewrite <- Es. auto.
      * intros k o Hk. destruct (Nat.lt_ge_cases k (first + n)) as [Lk|Lk].
        -- fold outs in TOT. lia.
        -- rewrite (enc_comp_outside _ _ _ _ _ _ _ _ _ _ E3 (or_intror Lk)) in Hk.
           apply Hc1 in Hk. eapply (ai_len _ _ _ I1); eauto.
    + intros -> HU. specialize (UI HU). destruct UI as (V1 & V2). exact (CD DIf (or_intror eq_refl) V1 V2).
  - intros Eb. rewrite <- (Same Eb). split; [|split; [reflexivity|exact M2]]. intros k o Hk. apply Hc1' in Hk. exact (Q1 k o Hk).
  - exact Q3.
  - intros k o' dd Hk Hf. destruct (Q2 k o' dd Hk Hf) as [(-> & _)|(o & Ho & _ & Hf')]; [auto|]. apply Hc1 in Ho. right.
    destruct (ad_buf t) as [|b0 buf] eqn:Eb; [rewrite <- (Same eq_refl); eauto|]. destruct (Grew ltac:(discriminate)) as (Ec & _). fold comp in Ec. rewrite Ec in Ho. destruct k; discriminate Ho.
  - intros k o' Hk. unfold t', comp_of at 1 in Hk. cbn [ad_struct] in Hk. destruct (Nat.lt_ge_cases k first) as [L|L]; [|destruct (Nat.lt_ge_cases k (first + n)) as [L'|L']; [auto|]];
      right; rewrite (enc_comp_outside _ _ _ _ _ _ _ _ _ _ E3) in Hk by auto; apply Hc1 in Hk;
      (destruct (ad_buf t) as [|b0 buf] eqn:Eb; [rewrite <- (Same eq_refl); exact Hk|]; destruct (Grew ltac:(discriminate)) as (Ec & _); fold comp in Ec; rewrite Ec in Hk; destruct k; discriminate Hk).
Qed.

(** ** Single calls *)
Lemma good_weaken inp (inp' : N -> Prop) D F nodes next next' : good inp D F nodes next -> (forall v, inp v -> inp' v) -> (forall v, inp' v -> (v < next')%N /\ D v = None) -> (next <= next')%N ->
  good inp' D F nodes next'.
Proof.
  intros [G1 G2 G3 G4 G5 G6] H1 H2 L. constructor; auto.
  - intros v f Hv. specialize (G1 v f Hv). lia.
  - intros c l Hc Hl. destruct (G3 c l Hc Hl); auto.
  - intros n nd k Hn Hk. specialize (G5 n nd k Hn Hk). destruct k; cbn [con_ok] in *; auto.
Qed.
Lemma ainv_noop D w t next' rb rl : ainv D w t -> (w_next w <= next')%N -> ainv D (log_call w rb rl [] next') t /\ (uinv w t -> uinv (log_call w rb rl [] next') t).
Proof.
  intros [J1 J2 J3 J4 J5 J6 J7 J8 J9 J10 J11 J12 J13 J14] L.
  split; [|unfold uinv; cbn [log_call w_all]; now rewrite app_nil_r]. constructor; cbn [log_call w_in w_next w_aux w_all]; rewrite ?app_nil_r; auto.
  - eapply good_weaken; [exact J1|auto| |auto]. intros v Hv. destruct (g_inp _ _ _ _ _ J1 v Hv). split; [lia|auto].
  - intros v Hv. rewrite in_aux_cons. right. auto.
  - intros v Hv. rewrite in_aux_cons in Hv. destruct Hv as [Hv|Hv]; [lia|]. apply J3 in Hv. lia.
  - intros x Hx. destruct (J4 x Hx). split; [lia|]. rewrite in_aux_cons. intros [Ha|Ha]; [lia|auto].
Qed.

Lemma ainv_user D w t k : ainv D w t -> ainv D (mkWorld (w_in w) (w_next w + k)%N (w_aux w) (w_all w) (w_ub w) (w_lb w)) t.
Proof.
  intros [J1 J2 J3 J4 J5 J6 J7 J8 J9 J10 J11 J12 J13 J14]. constructor; cbn [w_in w_next w_aux w_all]; auto.
  - eapply good_weaken; [exact J1|auto| |lia]. intros v Hv. destruct (g_inp _ _ _ _ _ J1 v Hv). split; [lia|auto].
  - intros v Hv. apply J3 in Hv. lia.
  - intros x Hx. destruct (J4 x Hx). split; [lia|auto].
Qed.

Lemma ainv_extend D w t xs : ainv D w t -> (forall x, In x xs -> pos_weight x /\ (lvar (fst x) < w_next w)%N /\ ~ in_aux (w_aux w) (lvar (fst x))) ->
  ainv D (mkWorld (w_in w ++ xs) (w_next w) (w_aux w) (w_all w) (w_ub w) (w_lb w)) (add_extend t xs).
Proof.
  intros [J1 J2 J3 J4 J5 J6 J7 J8 J9 J10 J11 J12 J13 J14] HX.
  assert (IN : forall v, inp_of (w_in w) v -> inp_of (w_in w ++ xs) v) by (intros v (x & Hx & E); exists x; split; [apply in_or_app|]; auto).
  assert (C : forall n k, con_ok (inp_of (w_in w)) n k -> con_ok (inp_of (w_in w ++ xs)) n k) by (intros n [l|p j]; cbn [con_ok]; auto).
  assert (B : forall l x, In (l, x) (map_adds (ad_buf t) xs) -> exists y, (In (l, y) (ad_buf t) \/ In (l, y) xs) /\ (y <= x)%nat) by (intros; now apply map_adds_in).
  constructor; cbn [w_in w_next w_aux w_all add_extend ad_buf ad_sum ad_nodes]; auto.
  - eapply good_weaken; [exact J1|auto| |lia]. intros v (x & Hx & E). apply in_app_or in Hx as [Hx|Hx]; [apply (g_inp _ _ _ _ _ J1); exists x; auto|].
    destruct (HX x Hx) as (_ & H1 & H2). rewrite E in *. split; [auto|]. destruct (D v) eqn:Ed; [|reflexivity]. exfalso. apply H2, J2. congruence.
  - intros x Hx. apply in_app_or in Hx as [Hx|Hx]; [auto|]. apply HX in Hx. tauto.
  - rewrite map_adds_total, total_weight_app. lia.
  - intros l x Hx. destruct (B l x Hx) as (y & [Hy|Hy] & L); [specialize (J6 _ _ Hy); lia|]. destruct (HX _ Hy) as (Hp & _). unfold pos_weight in Hp. cbn in Hp. lia.
  - intros l x Hx. destruct (B l x Hx) as (y & [Hy|Hy] & L); [apply IN; eauto|]. exists (l, y). split; [apply in_or_app; auto|reflexivity].
  - intros R bv HR Hn. rewrite lsum_map_adds, lsum_app. specialize (J10 R bv HR Hn). unfold outs_of in *. cbn [add_extend ad_struct].
    eapply rel_cast; [apply (rel_plus _ HR _ _ (lsum (inl bv) xs) J10)|lia|reflexivity].
Qed.

Lemma reset_mono nodes : mono nodes (map reset_node nodes).
Proof.
  split; [unfold shapes; rewrite map_map; reflexivity|]. intros n nd nd' p o Hn Hn' Ho. rewrite nth_error_map, Hn in Hn'. injection Hn' as <-.
  exists (reset_out o). split; [|reflexivity]. destruct p; cbn in *; rewrite Ho; reflexivity.
Qed.
Lemma reset_out_of nd p o : out_of p (reset_node nd) = Some o -> exists o0, out_of p nd = Some o0 /\ o = reset_out o0.
Proof. destruct p; cbn [out_of reset_node an_sum an_carry]; [destruct (an_sum nd) as [o0|]|destruct (an_carry nd) as [o0|]]; cbn; intros [=]; eauto. Qed.
Lemma ainv_reset D w t : ainv D w t -> ainv D w (reset_flags t) /\ (uinv w t -> uinv w (reset_flags t)).
Proof.
  intros [J1 J2 J3 J4 J5 J6 J7 J8 J9 J10 J11 J12 J13 J14]. pose proof (reset_mono (ad_nodes t)) as M.
  assert (FL : forall d, flags_ok d (w_all w) (map reset_node (ad_nodes t)) (length (map reset_node (ad_nodes t)))).
  { intros d n p nd o Ln Hn Ho Hf. rewrite nth_error_map in Hn. destruct (nth_error (ad_nodes t) n) as [nd0|]; [|discriminate]. injection Hn as <-.
    apply reset_out_of in Ho as (o0 & _ & ->). destruct d; discriminate Hf. }
  assert (CD : forall d, comp_done d (w_all w) t -> comp_done d (w_all w) (reset_flags t)).
  { intros d H k o Hk Hf. destruct (H k o Hk Hf) as (Ad & lhs & B & Hi). cbn [reset_flags ad_nodes]. split.
    - intros p n Ln. rewrite map_length in Ln. eapply cl_in_mono; [exact M|apply incl_refl|auto].
    - exists lhs. split; [eapply obits_mono; eauto|auto]. }
  assert (Sh : shapes (map reset_node (ad_nodes t)) = shapes (ad_nodes t)) by apply M.
  split; [|intros (U1 & U2); split; cbn [reset_flags ad_nodes]; auto].
  constructor; cbn [reset_flags ad_buf ad_sum ad_nodes]; auto.
  - destruct J1 as [G1 G2 G3 G4 G5 G6]. constructor; auto.
    + intros n nd k Hn. rewrite nth_error_map in Hn. destruct (nth_error (ad_nodes t) n) as [nd0|] eqn:E; [|discriminate]. injection Hn as <-. cbn [reset_node an_sh]. eauto.
    + intros n nd p o Hn Ho. rewrite nth_error_map in Hn. destruct (nth_error (ad_nodes t) n) as [nd0|] eqn:E; [|discriminate]. injection Hn as <-.
      apply reset_out_of in Ho as (o0 & Ho & ->). rewrite Sh. exact (G6 _ _ _ _ E Ho).
  - rewrite map_length. exact J8.
  - intros p n Ln. rewrite map_length in Ln. destruct (J9 p n Ln) as [H|(i & nd & Hi & Hk)]; [auto|]. right. exists i, (reset_node nd). split; [now rewrite nth_error_map, Hi|auto].
  - intros R bv HR Hn. apply (J10 R bv HR). intros n nd Hnd. apply (Hn n (reset_node nd)). now rewrite nth_error_map, Hnd.
  - unfold comp_def. rewrite Sh. exact J11.
Qed.

(** what a call encoding bounds in one direction does *)
Record called (D : defs) (w : world (lit * nat)) (t : adder) (d : dir) (t' : adder) (cs : cnf) (next' : N) (D' : defs) : Prop := mkCalled {
  ca_dext : dext D D' (w_next w) next';
  ca_inv : forall rb rl, ainv D' (log_call w rb rl cs next') t';
  ca_uinv : d = DIf -> uinv w t -> forall rb rl, uinv (log_call w rb rl cs next') t';
  ca_keep : ad_buf t = [] -> ad_buf t' = [] /\ comp_keep t t';
  ca_net : ad_buf t = [] -> same_net t t';
  ca_stale : comp_of t' = comp_of t \/ ad_buf t' = [];
  ca_flag : forall k o' dd, nth_error (comp_of t') k = Some (Some o') -> flag dd o' = true -> dd = d \/ exists o, nth_error (comp_of t) k = Some (Some o) /\ flag dd o = true
}.
Lemma ca_next D w t d t' cs next' D' : called D w t d t' cs next' D' -> (w_next w <= next')%N.
Proof. intros C. apply (dx_next _ _ _ _ (ca_dext _ _ _ _ _ _ _ _ C)). Qed.
Lemma comp_keep_refl t : comp_keep t t.
Proof. intros k o H. exists o. auto. Qed.
Lemma called_noop D w t d : ainv D w t -> called D w t d t [] (w_next w) D.
Proof.
  intros I. constructor; [apply dext_refl|intros; now apply ainv_noop; [|lia]|intros _ U rb rl; now apply (ainv_noop D); [| |auto]; [|lia]|intros B; split; [auto|apply comp_keep_refl]|intros _; split; [reflexivity|apply mono_refl]|auto|].
  intros k o dd H Hf. right. eauto.
Qed.

Lemma encode_ub_change_ok D w t r : ainv D w t -> exists D' t' cs next', add_encode_ub_change ord t r (w_next w) = Some (t', cs, next') /\ called D w t DIf t' cs next' D' /\
  (forall ub, in_rng ub r -> (ub < total_weight (w_in w))%nat -> ad_buf t' = [] /\ exists o, nth_error (comp_of t') ub = Some (Some o) /\ o_if o = true) /\
  (forall k o, nth_error (comp_of t') k = Some (Some o) -> in_rng k r \/ nth_error (comp_of t) k = Some (Some o)).
Proof.
  intros I. unfold add_encode_ub_change. rewrite (weight_sum_ok _ _ _ I). set (n := total_weight (w_in w)). pose proof (ub_range_le n r) as Hle. pose proof (ub_range_in n r) as Hin.
  assert (Hout : forall k, (fst (prepare_ub_range n r) <= k < snd (prepare_ub_range n r))%nat -> in_rng k r) by (intros k; destruct r as [[?|?|] [?|?|]]; unfold in_rng, prepare_ub_range; cbn [fst snd]; lia).
  destruct (prepare_ub_range n r) as [lo hi]. cbn [fst snd] in *. destruct (Nat.leb_spec hi lo) as [L|L].
  - exists D, t, [], (w_next w). split; [reflexivity|]. split; [now apply called_noop|]. split; [intros ub H1 H2; specialize (Hin ub H1 H2); lia|auto].
  - destruct (encode_change_ok D w t DIf lo (hi - lo) hi I) as (D' & t' & cs & next' & E & Hn & Hi & B & K & Rg & Fl & Out); [lia|lia|unfold n in *; lia|].
    exists D', t', cs, next'. split; [auto|]. split; [|split].
    + constructor; auto; [intros; apply Hi|intros; now apply Hi|intros X; split; [auto|now apply K]|intros X; now apply K].
    + intros ub H1 H2. split; [auto|]. specialize (Hin ub H1 H2). destruct (Rg ub ltac:(lia)) as (o & Ho & [Hf|Hf]); eauto.
    + intros k o Hk. destruct (Out k o Hk) as [H|H]; [left; apply Hout; lia|auto].
Qed.
Lemma encode_lb_change_ok D w t r : ainv D w t -> exists D' t' cs next', add_encode_lb_change ord t r (w_next w) = Some (t', cs, next') /\ called D w t DOnly t' cs next' D' /\
  forall lb, in_rng lb r -> (1 <= lb <= total_weight (w_in w))%nat -> ad_buf t' = [] /\ exists o, nth_error (comp_of t') (lb - 1) = Some (Some o) /\ (o_only o = true \/ o_if o = true).
Proof.
  intros I. unfold add_encode_lb_change. rewrite (weight_sum_ok _ _ _ I). set (n := total_weight (w_in w)). pose proof (lb_range_pos n r) as Hp. pose proof (lb_range_in n r) as Hin.
  assert (Hle : (snd (prepare_lb_range n r) <= n + 1)%nat) by (destruct r as [lo [hi|hi|]]; cbn; lia).
  destruct (prepare_lb_range n r) as [lo hi]. cbn [fst snd] in *. destruct (Nat.leb_spec hi lo) as [L|L].
  - exists D, t, [], (w_next w). split; [reflexivity|]. split; [now apply called_noop|]. intros ub H1 H2. specialize (Hin ub H1 H2). lia.
  - destruct (encode_change_ok D w t DOnly (lo - 1) (hi - lo) hi I) as (D' & t' & cs & next' & E & Hn & Hi & B & K & Rg & Fl & Out); [lia|lia|unfold n in *; lia|].
    exists D', t', cs, next'. split; [auto|]. split.
    + constructor; auto; [intros; apply Hi|discriminate|intros X; split; [auto|now apply K]|intros X; now apply K].
    + intros lb H1 H2. split; [auto|]. specialize (Hin lb H1 H2). destruct (Rg (lb - 1)%nat ltac:(lia)) as (o & Ho & [Hf|Hf]); eauto.
Qed.

(** ** Histories *)
Notation E := (adder_enc ord).
Definition no_if (t : adder) : Prop := forall k o, nth_error (comp_of t) k = Some (Some o) -> o_if o = false.
Definition extends {A} (op : hop A) : Prop := match op with HExtend _ => True | _ => False end.

Record stepped (D : defs) (w : world (lit * nat)) (t : adder) (op : hop (lit * nat)) (w' : world (lit * nat)) (t' : adder) (D' : defs) : Prop := mkStepped {
  sp_inv : ainv D' w' t';
  sp_uinv : ub_only op -> uinv w t -> uinv w' t';
  sp_noif : lb_only op -> no_if t -> no_if t';
  sp_keep : ~ extends op -> ad_buf t = [] -> ad_buf t' = [] /\ comp_keep t t';
  sp_next : (w_next w <= w_next w')%N;
  sp_defs : forall v f, D v = Some f -> D' v = Some f;
  sp_in : ~ extends op -> w_in w' = w_in w
}.
Lemma called_noif D w t t' cs next' D' : called D w t DOnly t' cs next' D' -> no_if t -> no_if t'.
Proof.
  intros C H k o Hk. destruct (o_if o) eqn:Ef; [|reflexivity]. destruct (ca_flag _ _ _ _ _ _ _ _ C k o DIf Hk Ef) as [X|(o1 & H1 & H2)]; [discriminate|].
  cbn [flag] in H2. rewrite (H _ _ H1) in H2. discriminate.
Qed.
Lemma ainv_world D w w' t : ainv D w t -> w_in w' = w_in w -> w_next w' = w_next w -> w_all w' = w_all w -> (forall v, in_aux (w_aux w') v <-> in_aux (w_aux w) v) -> ainv D w' t.
Proof.
  intros [J1 J2 J3 J4 J5 J6 J7 J8 J9 J10 J11 J12 J13 J14] E1 E2 E3 E4. constructor; rewrite ?E1, ?E2, ?E3; auto.
  - intros v Hv. apply E4. auto.
  - intros v Hv. apply J3. now apply E4.
  - intros x Hx. rewrite E4. auto.
Qed.
Lemma in_aux_join lo mid hi aux v : (lo <= mid)%N -> (mid <= hi)%N -> in_aux ((lo, hi) :: aux) v <-> in_aux ((mid, hi) :: (lo, mid) :: aux) v.
Proof. intros. rewrite !in_aux_cons. split; intros [K|K]; auto; try (destruct K as [K|K]; auto); lia. Qed.
Lemma comp_keep_trans a b c : comp_keep a b -> comp_keep b c -> comp_keep a c.
Proof. intros H1 H2 k o H. destruct (H1 k o H) as (o1 & Ho1 & E1 & F1). destruct (H2 k o1 Ho1) as (o2 & Ho2 & E2 & F2). exists o2. split; [auto|]. split; [congruence|auto]. Qed.

Lemma all_done_enc inp D F nodes next d p n : good inp D F nodes next -> all_done d F nodes -> (n < length nodes)%nat -> enc_done d F nodes p n.
Proof.
  intros G A. revert p. induction n as [n IH] using lt_wf_ind. intros p Ln. destruct (nth_error nodes n) as [nd|] eqn:En; [|apply nth_error_None in En; lia].
  apply (ed _ _ _ _ _ nd); [auto|apply A; auto|]. intros _ p' k Hk. pose proof (g_kids _ _ _ _ _ G _ _ _ En Hk) as L. cbn [con_ok] in L. apply IH; lia.
Qed.

Lemma encode_both_ok D w t r : ainv D w t -> exists D' t1 t' cs next', add_encode_both ord t r (w_next w) = Some (t', cs, next') /\
  dext D D' (w_next w) next' /\ (forall rb rl, ainv D' (log_call w rb rl cs next') t') /\ (ad_buf t = [] -> ad_buf t' = [] /\ comp_keep t t') /\
  (ad_buf t1 = [] -> ad_buf t' = [] /\ comp_keep t1 t') /\
  (forall ub, in_rng ub r -> (ub < total_weight (w_in w))%nat -> ad_buf t1 = [] /\ exists o, nth_error (comp_of t1) ub = Some (Some o) /\ o_if o = true) /\
  (uinv w t -> (exists ub, in_rng ub r /\ (ub < total_weight (w_in w))%nat) -> forall rb rl, uinv (log_call w rb rl cs next') t') /\
  (forall lb, in_rng lb r -> (1 <= lb <= total_weight (w_in w))%nat -> ~ in_rng (lb - 1) r ->
    (forall o, nth_error (comp_of t) (lb - 1) = Some (Some o) -> o_if o = false) ->
    exists o, nth_error (comp_of t') (lb - 1) = Some (Some o) /\ o_only o = true) /\
  (forall lb, in_rng lb r -> (1 <= lb <= total_weight (w_in w))%nat -> ad_buf t' = []).
Proof.
  intros I. unfold add_encode_both. destruct (encode_ub_change_ok D w t r I) as (D1 & t1 & c1 & n1 & E1 & C1 & R1 & Out1). rewrite E1. cbn [obind].
  pose proof (ca_inv _ _ _ _ _ _ _ _ C1 false false) as I1. destruct (encode_lb_change_ok D1 _ t1 r I1) as (D2 & t2 & c2 & n2 & E2 & C2 & R2). cbn [log_call w_next w_in] in E2, R2. rewrite E2. cbn [obind].
  pose proof (ca_next _ _ _ _ _ _ _ _ C1) as L1. pose proof (ca_next _ _ _ _ _ _ _ _ C2) as L2. cbn [log_call w_next] in L2.
  exists D2, t1, t2, (c1 ++ c2), n2. split; [reflexivity|]. split; [exact (dext_trans _ _ _ _ _ _ (ca_dext _ _ _ _ _ _ _ _ C1) (ca_dext _ _ _ _ _ _ _ _ C2))|]. split; [|split; [|split; [|split; [exact R1|split; [|split]]]]].
  - intros rb rl. apply (ainv_world D2 (log_call (log_call w false false c1 n1) false false c2 n2)); [apply (ca_inv _ _ _ _ _ _ _ _ C2)|reflexivity|reflexivity|cbn; now rewrite app_assoc|].
    intros v. cbn [log_call w_aux w_next]. now apply in_aux_join.
  - intros B. destruct (ca_keep _ _ _ _ _ _ _ _ C1 B) as (B1 & K1). destruct (ca_keep _ _ _ _ _ _ _ _ C2 B1) as (B2 & K2). split; [auto|eapply comp_keep_trans; eauto].
  - intros B. apply (ca_keep _ _ _ _ _ _ _ _ C2 B).
  - intros U (ub & H1 & H2) rb rl. destruct (R1 ub H1 H2) as (B1 & o & Ho & Hf). destruct (ca_uinv _ _ _ _ _ _ _ _ C1 eq_refl U false false) as (_ & U1).
    pose proof (U1 ub o Ho Hf) as (Ad1 & _). destruct (ca_net _ _ _ _ _ _ _ _ C2 B1) as (On & Mn). destruct (ca_keep _ _ _ _ _ _ _ _ C2 B1) as (_ & K2).
    assert (Ic : incl (w_all (log_call w false false c1 n1)) (w_all w ++ c1 ++ c2)) by (cbn; rewrite app_assoc; intros c Hc; apply in_or_app; auto).
    assert (Ad2 : all_done DIf (w_all w ++ c1 ++ c2) (ad_nodes t2)).
    { intros p n Ln. eapply cl_in_mono; [exact Mn|exact Ic|]. apply Ad1. now rewrite <- (shapes_length _ _ (proj1 Mn)). }
    split; cbn [log_call w_all].
    + intros n p nd o' Ln _ _ _. eapply all_done_enc; [|exact Ad2|exact Ln]. pose proof (ai_good _ _ _ (ca_inv _ _ _ _ _ _ _ _ C2 false false)) as G. cbn in G. rewrite <- app_assoc in G. exact G.
    + intros k o' Hk Hf'. split; [exact Ad2|]. destruct (ca_flag _ _ _ _ _ _ _ _ C2 k o' DIf Hk Hf') as [X|(o1 & Ho1 & Hf1)]; [discriminate|].
      destruct (U1 k o1 Ho1 Hf1) as (_ & lhs & Bl & Hi). exists lhs. rewrite On. split; [eapply obits_mono; eauto|].
      destruct (K2 _ _ Ho1) as (o2 & Ho2 & Eb & _). assert (o2 = o') as -> by congruence. rewrite Eb. eapply incl_tran; eauto.
  - intros lb H1 H2 H3 H4. destruct (R2 lb H1 H2) as (_ & o & Ho & [Hf|Hf]); [eauto|]. exfalso.
    destruct (ca_flag _ _ _ _ _ _ _ _ C2 _ o DIf Ho Hf) as [X|(o1 & Ho1 & Hf1)]; [discriminate|]. destruct (Out1 _ _ Ho1) as [X|X]; [auto|]. specialize (H4 _ X). cbn [flag] in Hf1. congruence.
  - intros lb H1 H2. apply (R2 lb H1 H2).
Qed.

Lemma step_cases D w t op : ainv D w t -> valid_op fst pos_weight any_op w op ->
  match step E w t op with None => op = HReserve | Some (w', t') => exists D', stepped D w t op w' t' D' end.
Proof.
  intros I V.
  assert (CALL : forall d t0 t' cs next' D' rb rl, ad_buf t0 = ad_buf t -> comp_of t0 = comp_of t -> (uinv w t -> uinv w t0) -> called D w t0 d t' cs next' D' ->
     (ub_only op -> d = DIf) -> (lb_only op -> d = DOnly) -> exists D', stepped D w t op (log_call w rb rl cs next') t' D').
  { intros d t0 t' cs next' D' rb rl Eb Ec HU C H1 H2. exists D'. constructor.
    - apply (ca_inv _ _ _ _ _ _ _ _ C).
    - intros Ho U. apply (ca_uinv _ _ _ _ _ _ _ _ C); auto.
    - intros Ho Hn. specialize (H2 Ho). subst d. apply (called_noif _ _ _ _ _ _ _ C). intros k o. rewrite Ec. apply Hn.
    - intros _ B. rewrite <- Eb in B. destruct (ca_keep _ _ _ _ _ _ _ _ C B) as (B' & K). split; [auto|]. intros k o. rewrite <- Ec. apply K.
    - apply (ca_next _ _ _ _ _ _ _ _ C).
    - apply (dx_keep _ _ _ _ (ca_dext _ _ _ _ _ _ _ _ C)).
    - reflexivity. }
  destruct op; cbn [step adder_enc en_extend en_reserve en_ub en_ub_change en_lb en_lb_change en_both].
  - exists D. destruct V as (_ & V). constructor; cbn [ub_only lb_only extends w_next].
    + now apply ainv_extend.
    + intros _ (U1 & U2). split; [exact U1|exact U2].
    + intros _ H. exact H.
    + intros H. exfalso. auto.
    + lia.
    + auto.
    + intros H. exfalso. auto.
  - exists D. constructor; cbn [w_next w_in]; auto; [now apply ainv_user|intros _ B; split; [auto|apply comp_keep_refl]|lia].
  - unfold add_reserve. destruct (extend_structure_ok D w t I) as (t1 & -> & I1 & B1 & Same & Grew & UI). cbn [obind].
    assert (ST : exists D', stepped D w t HReserve (log_call w false false [] (w_next w)) t1 D').
    { exists D. destruct (ainv_noop D w t1 (w_next w) false false I1 ltac:(lia)) as (N1 & N2). constructor; cbn [log_call w_next w_in]; auto; [| |lia].
      - intros _ Hn. destruct (ad_buf t) as [|b0 buf]; [now rewrite (Same eq_refl)|]. intros k o Hk. destruct (Grew ltac:(discriminate)) as (Ec & _). rewrite Ec in Hk. destruct k; discriminate Hk.
      - intros _ B. split; [auto|]. rewrite (Same B). apply comp_keep_refl. }
    destruct (ad_struct t1) as [[outs comp]|]; [|exact ST]. destruct (existsb _ outs); [reflexivity|exact ST].
  - unfold add_encode_ub. destruct (ainv_reset D w t I) as (I0 & U0). destruct (encode_ub_change_ok D w _ r I0) as (D' & t' & cs & n' & -> & C & _). cbn [encode_step].
    apply (CALL DIf (reset_flags t) t' cs n' D' _ _ eq_refl eq_refl U0 C); cbn; auto. intros [].
  - destruct (encode_ub_change_ok D w _ r I) as (D' & t' & cs & n' & -> & C & _). cbn [encode_step]. apply (CALL DIf _ t' cs n' D' _ _ eq_refl eq_refl (fun u => u) C); cbn; auto. intros [].
  - unfold add_encode_lb. destruct (ainv_reset D w t I) as (I0 & U0). destruct (encode_lb_change_ok D w _ r I0) as (D' & t' & cs & n' & -> & C & _). cbn [encode_step].
    apply (CALL DOnly (reset_flags t) t' cs n' D' _ _ eq_refl eq_refl U0 C); cbn; auto. intros [].
  - destruct (encode_lb_change_ok D w _ r I) as (D' & t' & cs & n' & -> & C & _). cbn [encode_step]. apply (CALL DOnly _ t' cs n' D' _ _ eq_refl eq_refl (fun u => u) C); cbn; auto. intros [].
  - destruct (encode_both_ok D w t r I) as (D' & t1 & t' & cs & n' & -> & L & Ii & K & _). cbn [encode_step]. exists D'. constructor; cbn; auto; try (now intros []); [apply (dx_next _ _ _ _ L)|apply (dx_keep _ _ _ _ L)].
Qed.

Lemma any_valid allow w op : valid_op fst pos_weight allow w op -> valid_op fst pos_weight any_op w op.
Proof. intros (_ & V). split; [exact Logic.I|exact V]. Qed.

Lemma reach_inv allow w t : reachable E fst pos_weight allow w t -> exists D, ainv D w t.
Proof.
  induction 1 as [|w t op w' t' R (D & I) V Es].
  - exists (fun _ => None). constructor; cbn; try discriminate; try (intros; contradiction); auto.
    + constructor; cbn; try discriminate; try (intros; contradiction); auto; try (intros [] ? ?; discriminate); try (intros [] ? ? ?; discriminate). intros v (x & [] & _).
    + intros v (lo & hi & [] & _).
    + intros p n Ln. inversion Ln.
    + intros R bv HR _. apply (rel_refl _ HR).
    + intros [] ? [=].
    + intros [] ? [=].
    + intros [] ? [=].
    + intros n p nd o Ln. inversion Ln.
  - pose proof (step_cases D w t op I (any_valid _ _ _ V)) as S. rewrite Es in S. destruct S as (D' & S). exists D'. apply (sp_inv _ _ _ _ _ _ _ S).
Qed.
Lemma reach_uinv (allow : hop (lit * nat) -> Prop) w t : (forall op, allow op -> ub_only op) -> reachable E fst pos_weight allow w t -> uinv w t.
Proof.
  intros Hu. induction 1 as [|w t op w' t' R U V Es].
  - split; [intros n p nd o Ln; inversion Ln|intros [] ? [=]].
  - destruct (reach_inv _ _ _ R) as (D & I). pose proof (step_cases D w t op I (any_valid _ _ _ V)) as S. rewrite Es in S. destruct S as (D' & S). apply (sp_uinv _ _ _ _ _ _ _ S); [apply Hu, V|auto].
Qed.
Lemma reach_noif (allow : hop (lit * nat) -> Prop) w t : (forall op, allow op -> lb_only op) -> reachable E fst pos_weight allow w t -> no_if t.
Proof.
  intros Hu. induction 1 as [|w t op w' t' R U V Es].
  - intros [] ? [=].
  - destruct (reach_inv _ _ _ R) as (D & I). pose proof (step_cases D w t op I (any_valid _ _ _ V)) as S. rewrite Es in S. destruct S as (D' & S). apply (sp_noif _ _ _ _ _ _ _ S); [apply Hu, V|auto].
Qed.

(** ** What holds over all histories *)
Definition no_reserve {A} (op : hop A) : Prop := match op with HReserve => False | _ => True end.

Lemma adder_no_panic w t op : reachable E fst pos_weight any_op w t -> valid_op fst pos_weight any_op w op -> op <> HReserve -> step E w t op <> None.
Proof. intros R V N Es. destruct (reach_inv _ _ _ R) as (D & I). pose proof (step_cases D w t op I V) as S. rewrite Es in S. auto. Qed.

Lemma adder_enforce_total allow : enforce_total E fst pos_weight allow.
Proof.
  intros w t _. cbn [adder_enc en_enforce_ub en_enforce_lb]. unfold add_enforce_ub, add_enforce_lb. split; intros b.
  - destruct (_ <=? b)%nat; [discriminate|]. destruct (ad_struct t) as [[outs comp]|]; [|discriminate]. destruct (nth_error comp b) as [[o|]|]; [destruct (o_if o)| |]; discriminate.
  - destruct (_ <? b)%nat; [discriminate|]. destruct (b =? 0)%nat; [discriminate|]. destruct (ad_struct t) as [[outs comp]|]; [|discriminate].
    destruct (nth_error comp (b - 1)) as [[o|]|]; [destruct (o_only o)| |]; discriminate.
Qed.

Lemma adder_lb_sound allow w t lb ls a : reachable E fst pos_weight allow w t -> add_enforce_lb t lb = Some (EOk ls) ->
  sat_cnf a (w_all w) = true -> sat_cube a ls = true -> (lb <= wsum a (w_in w))%nat.
Proof. intros R. destruct (reach_inv _ _ _ R) as (D & I). now apply (enforce_lb_sound D). Qed.

Lemma adder_ub_sound w t ub ls a : reachable E fst pos_weight ub_only w t -> ad_buf t = [] -> add_enforce_ub t ub = Some (EOk ls) ->
  sat_cnf a (w_all w) = true -> sat_cube a ls = true -> (wsum a (w_in w) <= ub)%nat.
Proof. intros R. destruct (reach_inv _ _ _ R) as (D & I). apply (enforce_ub_sound D); [auto|]. eapply reach_uinv; [|exact R]. auto. Qed.

Lemma adder_complete allow w t a : reachable E fst pos_weight allow w t -> exists a',
  (forall v, ~ in_aux (w_aux w) v -> a' v = a v) /\ sat_cnf a' (w_all w) = true /\
  (forall ub ls, add_enforce_ub t ub = Some (EOk ls) -> (wsum a (w_in w) <= ub)%nat -> sat_cube a' ls = true) /\
  (forall lb ls, ad_buf t = [] -> add_enforce_lb t lb = Some (EOk ls) -> (lb <= wsum a (w_in w))%nat -> sat_cube a' ls = true).
Proof. intros R. destruct (reach_inv _ _ _ R) as (D & I). exists (cval D a). now apply enforce_complete. Qed.

(** ** Monotonicity *)
Definition asked (D : defs) (w : world (lit * nat)) (U : list (nat * list lit)) : Prop :=
  forall ub ls l, In (ub, ls) U -> In l ls -> lneg l = true /\ exists f, D (lvar l) = Some f /\ forall a, (wsum a (w_in w) <= ub)%nat -> f a = false.

Lemma step_in w t op w' t' : step E w t op = Some (w', t') -> exists more, w_in w' = w_in w ++ more.
Proof.
  destruct op; cbn [step adder_enc en_extend en_reserve en_ub en_ub_change en_lb en_lb_change en_both].
  - intros [= <- <-]. eexists. reflexivity.
  - intros [= <- <-]. exists []. now rewrite app_nil_r.
  - destruct (add_reserve _ _ _) as [[]|]; [|discriminate]. intros [= <- <-]. exists []. now rewrite app_nil_r.
  - destruct (add_encode_ub _ _ _ _) as [[[]]|]; [|discriminate]. intros [= <- <-]. exists []. now rewrite app_nil_r.
  - destruct (add_encode_ub_change _ _ _ _) as [[[]]|]; [|discriminate]. intros [= <- <-]. exists []. now rewrite app_nil_r.
  - destruct (add_encode_lb _ _ _ _) as [[[]]|]; [|discriminate]. intros [= <- <-]. exists []. now rewrite app_nil_r.
  - destruct (add_encode_lb_change _ _ _ _) as [[[]]|]; [|discriminate]. intros [= <- <-]. exists []. now rewrite app_nil_r.
  - destruct (add_encode_both _ _ _ _) as [[[]]|]; [|discriminate]. intros [= <- <-]. exists []. now rewrite app_nil_r.
Qed.

Lemma enforced_units allow w t U : enforced E fst pos_weight allow w t U -> exists D, ainv D w t /\ asked D w U.
Proof.
  induction 1 as [|w t U op w' t' R (D & I & H) V Es|w t U ub ls R (D & I & H) Eu].
  - destruct (reach_inv allow world0 (en_init E) (reach_init _ _ _ _)) as (D & I). exists D. split; [exact I|]. intros ub ls l [].
  - pose proof (step_cases D w t op I (any_valid _ _ _ V)) as S. rewrite Es in S. destruct S as (D' & S). exists D'. split; [apply (sp_inv _ _ _ _ _ _ _ S)|].
    intros ub ls l H1 H2. destruct (H ub ls l H1 H2) as (Hl & f & Df & Hf). split; [auto|]. exists f. split; [now apply (sp_defs _ _ _ _ _ _ _ S)|].
    intros a Ha. apply Hf. destruct (step_in _ _ _ _ _ Es) as (more & Em). rewrite Em, wsum_app in Ha. lia.
  - exists D. split; [exact I|]. intros ub' ls' l [[= <- <-]|H1] H2; [|eauto]. cbn [adder_enc en_enforce_ub] in Eu. apply enforce_ub_spec in Eu as [(_ & ->)|(o & Ho & Hi & ->)]; [destruct H2|].
    destruct H2 as [<-|[]]. destruct (ai_comp _ _ _ I _ _ Ho) as (So & f & Df & Hf). cbn [neg lneg lvar]. rewrite So. split; [reflexivity|]. exists f. split; [auto|].
    intros a Ha. rewrite Hf. pose proof (hv_exact _ _ _ a I) as X. destruct (Nat.ltb_spec ub (hv (cv (lit_true a) (shapes (ad_nodes t))) (outs_of t))); [lia|reflexivity].
Qed.
Lemma adder_monotone allow : monotone E fst pos_weight allow wsum.
Proof.
  intros w t U a R. apply enforced_units in R as (D & I & H). exists (cval D a). destruct (enforce_complete D w t a I) as (H1 & H2 & _). split; [auto|]. split; [auto|].
  intros ub ls Hin Ha. apply forallb_forall. intros l Hl. destruct (H ub ls l Hin Hl) as (Hn & f & Df & Hf). unfold lit_true, cval. rewrite Df, Hf, Hn by auto. reflexivity.
Qed.

Lemma enforce_ub_ready t ub o : nth_error (comp_of t) ub = Some (Some o) -> o_if o = true -> exists ls, add_enforce_ub t ub = Some (EOk ls).
Proof.
  intros H Hf. unfold add_enforce_ub, comp_of in *. destruct (_ <=? ub)%nat; [eauto|]. destruct (ad_struct t) as [[outs comp]|]; [|destruct ub; discriminate H].
  rewrite H, Hf. eauto.
Qed.
Lemma enforce_ub_all t ub : (add_weight_sum t <= ub)%nat -> add_enforce_ub t ub = Some (EOk []).
Proof. intros L. unfold add_enforce_ub. now destruct (Nat.leb_spec (add_weight_sum t) ub); [|lia]. Qed.

Lemma adder_encodes_ub allow op : op = HUb \/ op = HUbChange \/ op = HBoth -> encodes_ub E fst pos_weight allow op.
Proof.
  intros Ho w t r w' t' ub R V Es Hr. destruct (reach_inv _ _ _ R) as (D & I). pose proof (step_cases D w t (op r) I (any_valid _ _ _ V)) as S. rewrite Es in S. destruct S as (D' & S).
  assert (NE : ~ extends (op r)) by (destruct Ho as [-> | [-> | ->]]; cbn; auto).
  destruct (Nat.le_gt_cases (total_weight (w_in w)) ub) as [L|L].
  { exists []. apply enforce_ub_all. rewrite (weight_sum_ok _ _ _ (sp_inv _ _ _ _ _ _ _ S)), (sp_in _ _ _ _ _ _ _ S NE). exact L. }
  destruct Ho as [-> | [-> | ->]]; cbn [step adder_enc en_ub en_ub_change en_both] in Es.
  - unfold add_encode_ub in Es. destruct (ainv_reset D w t I) as (I0 & _). destruct (encode_ub_change_ok D w _ r I0) as (D1 & t1 & cs & n' & E1 & C & Rd & _). rewrite E1 in Es. injection Es as <- <-.
    destruct (Rd ub Hr L) as (_ & o & Ho & Hf). eapply enforce_ub_ready; eauto.
  - destruct (encode_ub_change_ok D w _ r I) as (D1 & t1 & cs & n' & E1 & C & Rd & _). rewrite E1 in Es. injection Es as <- <-.
    destruct (Rd ub Hr L) as (_ & o & Ho & Hf). eapply enforce_ub_ready; eauto.
  - destruct (encode_both_ok D w t r I) as (D1 & t1 & t2 & cs & n' & E1 & _ & _ & _ & K & Rd & _). rewrite E1 in Es. injection Es as <- <-.
    destruct (Rd ub Hr L) as (B & o & Ho & Hf). destruct (proj2 (K B) _ _ Ho) as (o' & Ho' & _ & Fk). eapply enforce_ub_ready; [exact Ho'|]. apply (Fk DIf), Hf.
Qed.

Lemma adder_encodes_lb op : op = HLb \/ op = HLbChange -> encodes_lb E fst pos_weight lb_only op.
Proof.
  intros Ho w t r w' t' lb R V Es Hr. destruct (reach_inv _ _ _ R) as (D & I). pose proof (step_cases D w t (op r) I (any_valid _ _ _ V)) as S. rewrite Es in S. destruct S as (D' & S).
  assert (NE : ~ extends (op r)) by (destruct Ho as [->| ->]; cbn; auto).
  assert (NI : no_if t') by (apply (reach_noif lb_only w'); [auto|]; apply (reach_step _ _ _ _ w t (op r)); auto).
  cbn [adder_enc en_enforce_lb]. pose proof (weight_sum_ok _ _ _ (sp_inv _ _ _ _ _ _ _ S)) as W. rewrite (sp_in _ _ _ _ _ _ _ S NE) in W.
  assert (G : (1 <= lb <= total_weight (w_in w))%nat -> exists o, nth_error (comp_of t') (lb - 1) = Some (Some o) /\ (o_only o = true \/ o_if o = true)).
  { intros L. destruct Ho as [->| ->]; cbn [step adder_enc en_lb en_lb_change] in Es.
    - unfold add_encode_lb in Es. destruct (ainv_reset D w t I) as (I0 & _). destruct (encode_lb_change_ok D w _ r I0) as (D1 & t1 & cs & n' & E1 & C & Rd). rewrite E1 in Es. injection Es as <- <-.
      apply (Rd lb Hr L).
    - destruct (encode_lb_change_ok D w _ r I) as (D1 & t1 & cs & n' & E1 & C & Rd). rewrite E1 in Es. injection Es as <- <-. apply (Rd lb Hr L). }
  unfold add_enforce_lb. rewrite W. destruct (Nat.ltb_spec (total_weight (w_in w)) lb); [auto|]. destruct (Nat.eqb_spec lb 0); [left; eauto|].
  destruct (G ltac:(lia)) as (o & Hk & Hf). rewrite (NI _ _ Hk) in Hf. destruct Hf as [Hf|Hf]; [|discriminate]. unfold comp_of in Hk.
  destruct (ad_struct t') as [[outs comp]|]; [|destruct (lb - 1)%nat; discriminate Hk]. rewrite Hk, Hf. left. eauto.
Qed.

Lemma adder_ub_persists allow w t op w' t' ub ls : reachable E fst pos_weight allow w t -> valid_op fst pos_weight allow w op -> step E w t op = Some (w', t') ->
  ~ extends op -> ad_buf t = [] -> add_enforce_ub t ub = Some (EOk ls) -> add_enforce_ub t' ub = Some (EOk ls).
Proof.
  intros R V Es NE B H. destruct (reach_inv _ _ _ R) as (D & I). pose proof (step_cases D w t op I (any_valid _ _ _ V)) as S. rewrite Es in S. destruct S as (D' & S).
  destruct (sp_keep _ _ _ _ _ _ _ S NE B) as (B' & K). pose proof (weight_sum_ok _ _ _ (sp_inv _ _ _ _ _ _ _ S)) as W. rewrite (sp_in _ _ _ _ _ _ _ S NE) in W. pose proof (weight_sum_ok _ _ _ I) as W0.
  destruct (Nat.le_gt_cases (add_weight_sum t) ub) as [L|L]; [rewrite enforce_ub_all in H by auto; rewrite enforce_ub_all by congruence; auto|].
  apply enforce_ub_spec in H as [(L' & _)|(o & Ho & Hi & ->)]; [lia|]. destruct (K _ _ Ho) as (o' & Ho' & Eb & Fk). specialize (Fk DIf Hi). cbn [flag] in Fk.
  unfold add_enforce_ub, comp_of in *. replace (add_weight_sum t' <=? ub)%nat with false by (symmetry; apply Nat.leb_gt; lia).
  destruct (ad_struct t') as [[outs comp]|]; [|destruct ub; discriminate Ho']. rewrite Ho', Fk, Eb. reflexivity.
Qed.
Lemma adder_lb_persists allow w t op w' t' lb ls : reachable E fst pos_weight allow w t -> valid_op fst pos_weight allow w op -> step E w t op = Some (w', t') ->
  ~ extends op -> ad_buf t = [] -> add_enforce_lb t lb = Some (EOk ls) -> add_enforce_lb t' lb = Some (EOk ls).
Proof.
  intros R V Es NE B H. destruct (reach_inv _ _ _ R) as (D & I). pose proof (step_cases D w t op I (any_valid _ _ _ V)) as S. rewrite Es in S. destruct S as (D' & S).
  destruct (sp_keep _ _ _ _ _ _ _ S NE B) as (B' & K). pose proof (weight_sum_ok _ _ _ (sp_inv _ _ _ _ _ _ _ S)) as W. rewrite (sp_in _ _ _ _ _ _ _ S NE) in W. pose proof (weight_sum_ok _ _ _ I) as W0.
  assert (L : (lb <= add_weight_sum t)%nat) by (unfold add_enforce_lb in H; destruct (Nat.ltb_spec (add_weight_sum t) lb); [discriminate|auto]).
  apply enforce_lb_spec in H as [(-> & ->)|(L' & o & Ho & Hi & ->)]; [unfold add_enforce_lb; now destruct (_ <? 0)%nat eqn:X; [apply Nat.ltb_lt in X; lia|]|].
  destruct (K _ _ Ho) as (o' & Ho' & Eb & Fk). specialize (Fk DOnly Hi). cbn [flag] in Fk.
  unfold add_enforce_lb, comp_of in *. replace (add_weight_sum t' <? lb)%nat with false by (symmetry; apply Nat.ltb_ge; lia). replace (lb =? 0)%nat with false by (symmetry; apply Nat.eqb_neq; lia).
  destruct (ad_struct t') as [[outs comp]|]; [|destruct (lb - 1)%nat; discriminate Ho']. rewrite Ho', Fk, Eb. reflexivity.
Qed.

(** when the buffer is empty *)
Lemma adder_settled allow w t op w' t' : reachable E fst pos_weight allow w t -> valid_op fst pos_weight allow w op -> step E w t op = Some (w', t') ->
  match op with
  | HUb r | HUbChange r | HBoth r => exists ub, in_rng ub r /\ (ub < total_weight (w_in w))%nat
  | HLb r | HLbChange r => exists lb, in_rng lb r /\ (1 <= lb <= total_weight (w_in w))%nat
  | HExtend _ => False
  | _ => ad_buf t = []
  end -> ad_buf t' = [].
Proof.
  intros R V Es H. destruct (reach_inv _ _ _ R) as (D & I). destruct op; cbn [step adder_enc en_extend en_reserve en_ub en_ub_change en_lb en_lb_change en_both] in Es; try contradiction.
  - injection Es as <- <-. auto.
  - pose proof (step_cases D w t HReserve I (any_valid _ _ _ V)) as S. cbn [step adder_enc en_reserve] in S. rewrite Es in S. destruct S as (D' & S).
    apply (sp_keep _ _ _ _ _ _ _ S); [intros []|auto].
  - destruct H as (ub & H1 & H2). unfold add_encode_ub in Es. destruct (ainv_reset D w t I) as (I0 & _). destruct (encode_ub_change_ok D w _ r I0) as (D1 & t1 & cs & n' & E1 & C & Rd & _). rewrite E1 in Es. injection Es as <- <-.
    apply (Rd ub H1 H2).
  - destruct H as (ub & H1 & H2). destruct (encode_ub_change_ok D w _ r I) as (D1 & t1 & cs & n' & E1 & C & Rd & _). rewrite E1 in Es. injection Es as <- <-. apply (Rd ub H1 H2).
  - destruct H as (lb & H1 & H2). unfold add_encode_lb in Es. destruct (ainv_reset D w t I) as (I0 & _). destruct (encode_lb_change_ok D w _ r I0) as (D1 & t1 & cs & n' & E1 & C & Rd). rewrite E1 in Es. injection Es as <- <-.
    apply (Rd lb H1 H2).
  - destruct H as (lb & H1 & H2). destruct (encode_lb_change_ok D w _ r I) as (D1 & t1 & cs & n' & E1 & C & Rd). rewrite E1 in Es. injection Es as <- <-. apply (Rd lb H1 H2).
  - destruct H as (ub & H1 & H2). destruct (encode_both_ok D w t r I) as (D1 & t1 & t2 & cs & n' & E1 & _ & _ & _ & K & Rd & _). rewrite E1 in Es. injection Es as <- <-.
    destruct (Rd ub H1 H2) as (B & _). apply (K B).
Qed.

Lemma adder_trivial allow : ub_trivial E fst pos_weight allow total_weight /\ lb_trivial E fst pos_weight allow /\ unsat_above E fst pos_weight allow total_weight.
Proof.
  split; [|split].
  - intros w t ub R L. destruct (reach_inv _ _ _ R) as (D & I). exists []. apply enforce_ub_all. now rewrite (weight_sum_ok _ _ _ I).
  - intros w t R. exists []. cbn. unfold add_enforce_lb. now destruct (add_weight_sum t <? 0)%nat eqn:X; [apply Nat.ltb_lt in X; lia|].
  - intros w t b R. destruct (reach_inv _ _ _ R) as (D & I). cbn. rewrite <- (weight_sum_ok _ _ _ I). unfold add_enforce_lb, add_enforce_ub. split.
    + destruct (Nat.ltb_spec (add_weight_sum t) b); [auto|]. destruct (b =? 0)%nat; [discriminate|]. destruct (ad_struct t) as [[outs comp]|]; [|discriminate].
      destruct (nth_error comp (b - 1)) as [[o|]|]; [destruct (o_only o)| |]; discriminate.
    + destruct (_ <=? b)%nat; [discriminate|]. destruct (ad_struct t) as [[outs comp]|]; [|discriminate]. destruct (nth_error comp b) as [[o|]|]; [destruct (o_if o)| |]; discriminate.
Qed.

Lemma adder_local allow : clauses_local E fst pos_weight allow /\ assumps_local E fst pos_weight allow /\ vars_grow E fst pos_weight allow.
Proof.
  split; [|split].
  - intros w t c l R Hc Hl. destruct (reach_inv _ _ _ R) as (D & I). destruct (g_lits _ _ _ _ _ (ai_good _ _ _ I) c l Hc Hl) as [H|H]; [left; exact H|right; now apply (ai_dom _ _ _ I)].
  - intros w t b ls l R H Hl. destruct (reach_inv _ _ _ R) as (D & I). right. apply (ai_dom _ _ _ I).
    assert (G : exists k o, nth_error (comp_of t) k = Some (Some o) /\ lvar l = lvar (o_bit o)).
    { cbn in H. destruct H as [H|H]; [apply enforce_ub_spec in H as [(_ & ->)|(o & Ho & _ & ->)]|apply enforce_lb_spec in H as [(_ & ->)|(_ & o & Ho & _ & ->)]]; try (destruct Hl as [<-|[]]; eauto); try contradiction. }
    destruct G as (k & o & Ho & ->). destruct (ai_comp _ _ _ I _ _ Ho) as (_ & f & -> & _). discriminate.
  - intros w t op w' t' R V Es. destruct (reach_inv _ _ _ R) as (D & I). pose proof (step_cases D w t op I (any_valid _ _ _ V)) as S. rewrite Es in S. destruct S as (D' & S). apply (sp_next _ _ _ _ _ _ _ S).
Qed.
End Hist.
