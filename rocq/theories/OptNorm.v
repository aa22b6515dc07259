(** * Proofs about normalizing objectives and relaxing soft clauses *)

From Coq Require Import List Bool NArith ZArith Lia Arith Permutation.
From Verif Require Import Spec Types Constraints ConstrSpec Base TypesProofs ClauseProofs NodeDb Maps VarSpec VarMan VarManProofs Inst InstSpec InstProofs Opt OptSpec OptProofs.
Import ListNotations.

(** ** Normalized clauses *)
Lemma single_spec c l : single c = Some l <-> c <> [] /\ forall x, In x c -> x = l.
Proof.
  destruct c as [|x c]; cbn; [split; [discriminate|intros [H _]; congruence]|]. destruct (forallb _ c) eqn:E.
  - rewrite forallb_forall in E. split.
    + intros [= ->]. split; [discriminate|]. intros y [<-|Hy]; [reflexivity|]. apply lit_eqb_eq. auto.
    + intros [_ H]. f_equal. apply H. now left.
  - split; [discriminate|]. intros [_ H]. assert (forallb (fun y => lit_eqb y x) c = true); [|congruence]. apply forallb_forall. intros y Hy. apply lit_eqb_eq.
    rewrite (H y (or_intror Hy)), (H x (or_introl eq_refl)). reflexivity.
Qed.
Lemma normalize_cases c : match clause_normalize c with
  | None => (forall a, sat_clause a c = true) /\ single c = None
  | Some [] => c = []
  | Some [l] => single c = Some l /\ forall a, sat_clause a c = lit_true a l
  | Some c' => (forall a, sat_clause a c = sat_clause a c') /\ single c = None /\ c <> []
  end.
Proof.
  destruct (clause_normalize c) as [c'|] eqn:E.
  - apply clause_normalize_sound in E as (H1 & H2 & H3 & _). destruct c' as [|x [|y c']].
    + destruct c as [|z c]; [reflexivity|]. destruct (proj2 (H3 z) (or_introl eq_refl)).
    + split; [|intros a; rewrite <- H1; apply sat_unit]. apply single_spec. split; [intros ->; destruct (proj1 (H3 x) (or_introl eq_refl))|].
      intros z Hz. apply H3 in Hz as [->|[]]. reflexivity.
    + split; [intros a; symmetry; apply H1|]. split; [|intros ->; destruct (proj1 (H3 x) (or_introl eq_refl))].
      destruct (single c) as [l|] eqn:Es; [|reflexivity]. apply single_spec in Es as [_ Es]. exfalso. inversion H2 as [|? ? Hn _]; subst. apply Hn.
      rewrite (Es x), (Es y); [now left|apply H3; right; now left|apply H3; now left].
  - apply clause_normalize_none in E. split; [now apply complementary_taut|]. destruct (single c) as [l|] eqn:Es; [|reflexivity]. apply single_spec in Es as [_ Es].
    destruct E as (x & Hx & Hn). apply Es in Hx as ->. apply Es in Hn. exfalso. now apply (neg_neq l).
Qed.

(** ** The weighted case *)
Definition st_value (a : asg) (st : Z * list (lit * nat) * list (clause * nat)) : Z :=
  (fst (fst st) + Z.of_nat (ksum (lit_true a) (snd (fst st))) + Z.of_nat (ksum (fun c => negb (sat_clause a c)) (snd st)))%Z.
Definition st_wf (st : Z * list (lit * nat) * list (clause * nat)) : Prop :=
  NoDup (map fst (snd (fst st))) /\ (forall l w, In (l, w) (snd (fst st)) -> (0 < w)%nat) /\ NoDup (map fst (snd st)) /\ (forall c w, In (c, w) (snd st) -> (0 < w)%nat /\ (1 < length c)%nat).
Lemma norm_clause_spec st c w : st_wf st -> (0 < w)%nat -> c <> [] -> exists st', norm_clause st (c, w) = Some st' /\ st_wf st' /\
  forall a, st_value a st' = (st_value a st + if sat_clause a c then 0 else Z.of_nat w)%Z.
Proof.
  destruct st as [[z ls] cs]. intros (W1 & W2 & W3 & W4) Hw Hc. unfold norm_clause. cbn [fst snd] in *. pose proof (normalize_cases c) as Hn. destruct (clause_normalize c) as [[|l [|y c']]|].
  - contradiction.
  - destruct Hn as [_ Hn]. destruct (gget lit_eqb ls l) as [nw|] eqn:E.
    + assert (Hg : get0 lit_eqb ls l = nw) by (unfold get0; now rewrite E). destruct (Nat.ltb_spec nw w); [|destruct (Nat.eqb_spec nw w)].
      * eexists. split; [reflexivity|]. split; [split; [apply (gadd_nodup _ lit_eqb_eq), (gremove_nodup _), W1|split; [|split; assumption]]|].
        { intros l' x Hx. cbn [fst snd] in Hx. apply (gadd_in _ lit_eqb_eq) in Hx as [Hx|[_ Hx]]; [|lia]. apply (gremove_in _ lit_eqb_eq) in Hx as [Hx _]. eauto. }
        { intros a. unfold st_value. cbn [fst snd]. rewrite (gadd_ksum _ lit_eqb_eq). pose proof (gremove_ksum _ lit_eqb_eq (lit_true a) ls l W1) as G. rewrite Hg in G. rewrite Hn, lit_true_neg. destruct (lit_true a l); cbn [negb]; lia. }
      * eexists. split; [reflexivity|]. split; [split; [apply (gremove_nodup _), W1|split; [|split; assumption]]|].
        { intros l' x Hx. cbn [fst snd] in Hx. apply (gremove_in _ lit_eqb_eq) in Hx as [Hx _]. eauto. }
        { intros a. unfold st_value. cbn [fst snd]. pose proof (gremove_ksum _ lit_eqb_eq (lit_true a) ls l W1) as G. rewrite Hg in G. rewrite Hn. destruct (lit_true a l); lia. }
      * eexists. split; [reflexivity|]. split; [split; [apply (ginsert_nodup _ lit_eqb_eq), W1|split; [|split; assumption]]|].
        { intros l' x Hx. cbn [fst snd] in Hx. apply (ginsert_in _ lit_eqb_eq) in Hx as [Hx|[_ Hx]]; [eauto|lia]. }
        { intros a. unfold st_value. cbn [fst snd]. pose proof (ginsert_ksum _ lit_eqb_eq (lit_true a) ls l (nw - w)) as G. rewrite Hg in G. rewrite Hn. destruct (lit_true a l); lia. }
    + eexists. split; [reflexivity|]. split; [split; [apply (gadd_nodup _ lit_eqb_eq), W1|split; [|split; assumption]]|].
      { intros l' x Hx. cbn [fst snd] in Hx. apply (gadd_in _ lit_eqb_eq) in Hx as [Hx|[_ Hx]]; [eauto|lia]. }
      { intros a. unfold st_value. cbn [fst snd]. rewrite (gadd_ksum _ lit_eqb_eq). rewrite Hn, lit_true_neg. destruct (lit_true a l); cbn [negb]; lia. }
  - destruct Hn as (Hn & _ & _). eexists. split; [reflexivity|]. split; [split; [assumption|split; [assumption|split]]|].
    { cbn [fst snd]. now apply (gadd_nodup _ clause_eqb_eq'). }
    { intros d x Hx. cbn [fst snd] in Hx. apply (gadd_in _ clause_eqb_eq') in Hx as [Hx|[-> Hx]]; [eauto|]. cbn [length]. lia. }
    { intros a. unfold st_value. cbn [fst snd]. rewrite (gadd_ksum _ clause_eqb_eq'), Hn. destruct (sat_clause a _); cbn [negb]; lia. }
  - destruct Hn as [Hn _]. eexists. split; [reflexivity|]. split; [exact (conj W1 (conj W2 (conj W3 W4)))|]. intros a. rewrite Hn. lia.
Qed.
Lemma norm_clauses_spec cs : forall st, st_wf st -> (forall c w, In (c, w) cs -> (0 < w)%nat /\ c <> []) -> exists st', foldM norm_clause cs st = Some st' /\ st_wf st' /\
  forall a, st_value a st' = (st_value a st + Z.of_nat (ksum (fun c => negb (sat_clause a c)) cs))%Z.
Proof.
  induction cs as [|[c w] cs IH]; intros st Hst Hcs; [exists st; split; [reflexivity|split; [assumption|intros a; cbn [ksum]; lia]]|].
  destruct (Hcs c w (or_introl eq_refl)) as [Hw Hc]. destruct (norm_clause_spec st c w Hst Hw Hc) as (st1 & E1 & W1 & V1). destruct (IH st1 W1) as (st2 & E2 & W2 & V2); [intros; apply Hcs; now right|].
  exists st2. cbn [foldM]. rewrite E1. cbn [obind]. split; [exact E2|]. split; [exact W2|]. intros a. rewrite V2, V1. cbn [ksum]. destruct (sat_clause a c); cbn [negb]; lia.
Qed.
Lemma ksum_const {K} (p : K -> bool) u m : forallb (fun e : K * nat => (snd e =? u)%nat) m = true -> ksum p m = ksum p (map (fun k => (k, u)) (map fst m)).
Proof.
  induction m as [|[k w] m IH]; cbn [forallb map ksum fst snd]; [reflexivity|]. intros H. apply andb_true_iff in H as [H1 H2]. apply Nat.eqb_eq in H1 as ->. rewrite IH by assumption. reflexivity.
Qed.
Lemma perm_nil_inv {A} (f : list A -> list A) xs : Permutation (f xs) xs -> f xs = [] -> xs = [].
Proof. intros H E. rewrite E in H. now apply Permutation_nil in H. Qed.

Section Orders.
Context (lord : list (lit * nat) -> list (lit * nat)) (cord : list (clause * nat) -> list (clause * nat)) (Hord : orders lord cord).
Definition norm_result (o o' : obj) : Prop := obj_wf o' /\ obj_nonempty o' /\ NoDup (map fst (obj_cls o')) /\ (same_value o o' \/ (o' = obj_new /\ exists v, forall a, obj_value a o = v)).
Lemma forallb_perm {A} (p : A -> bool) xs ys : Permutation xs ys -> forallb p xs = forallb p ys.
Proof. induction 1; cbn; try congruence. destruct (p x), (p y); reflexivity. Qed.
Lemma normalize_weighted_spec z ls cs : obj_wf (OWeighted z ls cs) -> obj_nonempty (OWeighted z ls cs) -> exists o', normalize_weighted lord cord z ls cs = Some o' /\ norm_result (OWeighted z ls cs) o'.
Proof.
  intros W Hne. destruct Hord as [Hl Hc]. apply wf_weighted in W as (W1 & W2 & W3 & W4). unfold normalize_weighted.
  destruct (norm_clauses_spec (cord cs) (z, ls, [])) as ([[z' ls'] cs'] & E & S & V).
  { repeat split; cbn [fst snd map]; try assumption; try constructor; contradiction. }
  { intros c w Hin. apply (Permutation_in _ (Hc cs)) in Hin. split; [now apply W2 in Hin|]. intros ->. exact (Hne w Hin). }
  rewrite E. cbn [obind]. assert (V' : forall a, obj_value a (OWeighted z' ls' cs') = obj_value a (OWeighted z ls cs)).
  { intros a. rewrite !value_k. cbn [obj_offset obj_lits obj_cls]. specialize (V a). unfold st_value in V. cbn [fst snd ksum] in V. rewrite (ksum_perm _ _ _ (Hc cs)) in V. lia. }
  destruct S as (S1 & S2 & S3 & S4). cbn [fst snd] in *.
  set (u := match lord ls' with e :: _ => Some (snd e) | [] => match cord cs' with e :: _ => Some (snd e) | [] => None end end).
  assert (Hu : match u with None => ls' = [] /\ cs' = [] | Some u => (0 < u)%nat end).
  { subst u. destruct (lord ls') as [|[l w] r] eqn:El.
    - apply perm_nil_inv in El; [|apply Hl]. destruct (cord cs') as [|[c w] r] eqn:Ec; [split; [assumption|apply perm_nil_inv in Ec; [assumption|apply Hc]]|].
      cbn [snd]. apply (S4 c w). apply (Permutation_in _ (Hc cs')). rewrite Ec. now left.
    - cbn [snd]. apply (S2 l w). apply (Permutation_in _ (Hl ls')). rewrite El. now left. }
  destruct u as [u|].
  - destruct (forallb _ ls' && forallb _ cs') eqn:Ef; eexists; (split; [reflexivity|]).
    + apply andb_true_iff in Ef as [F1 F2]. set (L := sort_by lit_leb (map fst (lord ls'))). set (C := sort_by clause_leb (map fst (cord cs'))).
      assert (PL : Permutation L (map fst ls')) by (eapply Permutation_trans; [apply sort_by_perm|apply Permutation_map, Hl]).
      assert (PC : Permutation C (map fst cs')) by (eapply Permutation_trans; [apply sort_by_perm|apply Permutation_map, Hc]).
      assert (HC : forall c, In c C -> (1 < length c)%nat). { intros c Hin. apply (Permutation_in _ PC) in Hin. apply in_map_iff in Hin as ([d w] & <- & Hin). now apply S4 in Hin. }
      split; [|split; [|split]].
      * apply wf_some. split; [assumption|]. intros c Hin. apply HC in Hin. lia.
      * intros w Hin. cbn [obj_cls] in Hin. apply in_map_iff in Hin as (c & [= -> _] & Hin). apply HC in Hin. cbn in Hin. lia.
      * cbn [obj_cls]. rewrite map_map. cbn [fst]. rewrite map_id. exact (Permutation_NoDup (Permutation_sym PC) S3).
      * left. intros a. rewrite <- V'. rewrite !value_k. cbn [obj_offset obj_lits obj_cls or_zero]. rewrite (ksum_const (lit_true a) u ls' F1), (ksum_const _ u cs' F2).
        rewrite (ksum_perm _ _ _ (Permutation_map (fun k => (k, u)) PL)), (ksum_perm _ _ _ (Permutation_map (fun k => (k, u)) PC)). reflexivity.
    + split; [|split; [|split]].
      * apply wf_weighted. repeat split; try assumption; [now apply (S4 c w)|]. apply S4 in H. lia.
      * intros w Hin. apply S4 in Hin. cbn in Hin. lia.
      * exact S3.
      * left. exact V'.
  - destruct Hu as [-> ->]. eexists. split; [reflexivity|]. split; [apply obj_new_wf|]. split; [intros w []|]. split; [constructor|]. right. split; [reflexivity|]. exists z'. intros a. rewrite <- V'. rewrite value_k. cbn [obj_offset obj_lits obj_cls ksum]. lia.
Qed.

(** ** The unweighted case *)
Lemma u2w_nonempty o : obj_wf o -> obj_nonempty o -> obj_nonempty (unweighted_2_weighted o).
Proof.
  destruct o as [z ls cs|z [w|] ls cs]; [auto| |].
  - intros H Hn. apply wf_some in H as [Hw Hc]. cbn [unweighted_2_weighted]. destruct (gadds_spec clause_eqb clause_eqb_eq' w cs [] (NoDup_nil _) ltac:(intros ? ? []) Hw) as (_ & _ & _ & C4).
    intros x Hx. cbn [obj_cls] in Hx. destruct (C4 _ _ Hx) as [[]|H']. apply (Hn w). cbn [obj_cls or_zero]. apply in_map_iff. eauto.
  - intros _ _ w [].
Qed.
Lemma norm_units_spec cs : forall ls ls' cs', norm_unit_clauses ls cs = (ls', cs') ->
  ls' = ls ++ map neg (filter_map single cs) /\ (~ In [] cs -> forall c, In c cs' -> (1 < length c)%nat) /\ forall a, (count_true a ls' + count_unsat a cs' = count_true a ls + count_unsat a cs)%nat.
Proof.
  induction cs as [|c cs IH]; intros ls ls' cs' E; cbn [norm_unit_clauses filter_map] in *.
  - injection E as <- <-. cbn. rewrite app_nil_r. split; [reflexivity|]. split; [intros _ c []|]. reflexivity.
  - pose proof (normalize_cases c) as Hn. destruct (clause_normalize c) as [[|l [|y c']]|].
    + destruct (norm_unit_clauses ls cs) as [ls1 cs1] eqn:E1. injection E as <- <-. destruct (IH _ _ _ E1) as (I1 & I2 & I3). subst c. cbn [single]. split; [exact I1|]. split; [intros H; destruct H; now left|].
      intros a. cbn [count_unsat]. specialize (I3 a). change (sat_clause a []) with false. lia.
    + destruct Hn as [-> Hn]. destruct (IH _ _ _ E) as (I1 & I2 & I3). cbn [map]. rewrite I1, <- app_assoc. split; [reflexivity|]. split; [intros H; apply I2; intros H'; apply H; now right|].
      intros a. rewrite app_assoc, <- I1, I3. cbn [count_unsat]. rewrite Hn, count_true_app. cbn [count_true]. rewrite lit_true_neg. destruct (lit_true a l); cbn [negb]; lia.
    + destruct (norm_unit_clauses ls cs) as [ls1 cs1] eqn:E1. injection E as <- <-. destruct (IH _ _ _ E1) as (I1 & I2 & I3). destruct Hn as (Hn & -> & _). split; [exact I1|].
      split; [intros H d [<-|Hd]; [cbn [length]; lia|apply I2; [intros H'; apply H; now right|assumption]]|]. intros a. cbn [count_unsat]. rewrite Hn. specialize (I3 a). lia.
    + destruct (IH _ _ _ E) as (I1 & I2 & I3). destruct Hn as [Hn ->]. split; [exact I1|]. split; [intros H; apply I2; intros H'; apply H; now right|]. intros a. cbn [count_unsat]. rewrite Hn, I3. lia.
Qed.
Lemma vec_set_at {A} (l1 : list A) x y l2 : vec_set (length l1) y (l1 ++ x :: l2) = Some (l1 ++ y :: l2).
Proof. induction l1 as [|z l1 IH]; cbn; [reflexivity|]. rewrite IH. reflexivity. Qed.
Lemma nth_error_at {A} (l1 : list A) x l2 : nth_error (l1 ++ x :: l2) (length l1) = Some x.
Proof. rewrite nth_error_app2 by lia. now rewrite Nat.sub_diag. Qed.
Lemma vec_swap_spec {A} (keep junk : list A) x rest : exists junk', vec_swap (length keep) (length keep + length junk) (keep ++ junk ++ x :: rest) = Some ((keep ++ [x]) ++ junk' ++ rest) /\ length junk' = length junk.
Proof.
  unfold vec_swap. destruct junk as [|j junk].
  - exists []. cbn [length app]. rewrite Nat.add_0_r, nth_error_at. cbn [obind]. rewrite vec_set_at. cbn [obind]. rewrite vec_set_at. rewrite <- app_assoc. auto.
  - exists (junk ++ [j]). cbn [app]. rewrite nth_error_at. cbn [obind]. replace (keep ++ j :: junk ++ x :: rest) with ((keep ++ j :: junk) ++ x :: rest) by now rewrite <- app_assoc.
    rewrite <- app_length, nth_error_at. cbn [obind]. rewrite <- app_assoc. cbn [app]. rewrite vec_set_at. cbn [obind].
    replace (keep ++ x :: junk ++ x :: rest) with ((keep ++ x :: junk) ++ x :: rest) by now rewrite <- app_assoc. replace (length (keep ++ j :: junk)) with (length (keep ++ x :: junk)) by (rewrite !app_length; reflexivity).
    rewrite vec_set_at. rewrite <- !app_assoc. cbn [app]. split; [reflexivity|]. rewrite app_length. cbn. lia.
Qed.
Definition ends_with_pair (ls : list lit) : Prop := ls = [] \/ exists pre l, ls = pre ++ [neg l; l].
Definition loop_value (a : asg) (w : nat) (r : (list lit * Z * nat * nat) + (list lit * Z)) : Z :=
  match r with
  | inl (ls, z, nxt, en) => (z + Z.of_nat (w * count_true a (firstn (en + if (nxt <? length ls)%nat then 1 else 0) ls)))%Z
  | inr (ls, z) => (z + Z.of_nat (w * count_true a ls))%Z
  end.
Lemma norm_lits_spec w : forall fuel keep junk rest z, (length rest < fuel)%nat ->
  ((junk = [] /\ ~ complementary rest) \/ (NoDup rest /\ ends_with_pair rest)) ->
  exists r, norm_lits_loop fuel w (keep ++ junk ++ rest) z (length keep + length junk) (length keep) = Some r /\
    forall a, loop_value a w r = (z + Z.of_nat (w * count_true a (keep ++ rest)))%Z.
Proof.
  induction fuel as [|fuel IH]; intros keep junk rest z Hf Hi; [lia|]. cbn [norm_lits_loop]. rewrite !app_length.
  destruct rest as [|x [|y rest]].
  - cbn [length]. destruct (Nat.ltb_spec (length keep + length junk) (length keep + (length junk + 0) - 1)); [lia|]. eexists. split; [reflexivity|]. intros a. cbn [loop_value]. rewrite !app_length. cbn [length].
    destruct (Nat.ltb_spec (length keep + length junk) (length keep + (length junk + 0))); [lia|]. rewrite Nat.add_0_r, firstn_app, Nat.sub_diag, firstn_all. cbn [firstn]. reflexivity.
  - cbn [length]. destruct (Nat.ltb_spec (length keep + length junk) (length keep + (length junk + 1) - 1)); [lia|]. destruct Hi as [[-> _]|[_ [Hi|(pre & l & Hi)]]]; [|discriminate|destruct pre as [|p [|q pre]]; discriminate].
    eexists. split; [reflexivity|]. intros a. cbn [loop_value app length]. rewrite app_length. cbn [length]. destruct (Nat.ltb_spec (length keep + 0) (length keep + 1)); [|lia].
    rewrite firstn_all2 by (rewrite app_length; cbn; lia). reflexivity.
  - cbn [length]. destruct (Nat.ltb_spec (length keep + length junk) (length keep + (length junk + S (S (length rest))) - 1)); [|lia].
    assert (N1 : nth_error (keep ++ junk ++ x :: y :: rest) (length keep + length junk) = Some x) by (rewrite app_assoc, <- app_length; apply nth_error_at).
    assert (N2 : nth_error (keep ++ junk ++ x :: y :: rest) (length keep + length junk + 1) = Some y).
    { replace (keep ++ junk ++ x :: y :: rest) with (((keep ++ junk) ++ [x]) ++ y :: rest) by now rewrite <- !app_assoc.
      replace (length keep + length junk + 1)%nat with (length ((keep ++ junk) ++ [x])) by (rewrite !app_length; cbn; lia). apply nth_error_at. }
    rewrite N1, N2. cbn [obind].
    destruct (lit_eqb_spec x (neg y)) as [->|Hxy].
    + destruct Hi as [[_ Hi]|[Hnd Hi]]; [exfalso; apply Hi; exists y; split; [right; now left|now left]|].
      destruct (IH keep (junk ++ [neg y; y]) rest (z + Z.of_nat w)%Z) as (r & E & V); [cbn in Hf; lia| |].
      { right. split; [inversion Hnd as [|? ? _ Hnd']; inversion Hnd'; assumption|]. destruct Hi as [Hi|(pre & l & Hi)]; [discriminate|]. destruct pre as [|p [|q pre]]; cbn [app] in Hi.
        - assert (rest = []) as -> by congruence. now left.
        - assert (y = neg l) as Hy by congruence. assert (rest = [l]) as -> by congruence. exfalso. inversion Hnd as [|? ? Hin _]; subst. apply Hin. right. left. now rewrite neg_neg.
        - assert (rest = pre ++ [neg l; l]) as -> by congruence. right. eauto. }
      exists r. split.
      * rewrite <- E. f_equal; [rewrite <- !app_assoc; reflexivity|rewrite app_length; cbn; lia].
      * intros a. rewrite V. rewrite !count_true_app. cbn [count_true]. rewrite lit_true_neg. destruct (lit_true a y); cbn [negb]; nia.
    + destruct (lit_eqb_spec x y) as [->|Hxy'].
      * destruct Hi as [[-> _]|[Hnd _]]; [|exfalso; inversion Hnd as [|? ? Hin _]; apply Hin; now left]. eexists. split; [reflexivity|]. intros a. cbn [loop_value app]. reflexivity.
      * destruct (vec_swap_spec keep junk x (y :: rest)) as (junk' & -> & Hj). cbn [obind].
        destruct (IH (keep ++ [x]) junk' (y :: rest) z) as (r & E & V); [cbn in Hf |- *; lia| |].
        { destruct Hi as [[-> Hi]|[Hnd Hi]].
          - left. split; [now apply length_zero_iff_nil|]. intros (l & H1 & H2). apply Hi. exists l. split; now right.
          - right. split; [now inversion Hnd|]. destruct Hi as [Hi|(pre & l & Hi)]; [discriminate|]. destruct pre as [|p pre]; cbn [app] in Hi.
            + exfalso. apply Hxy. congruence.
            + right. exists pre, l. congruence. }
        exists r. split.
        { rewrite <- E. f_equal; rewrite app_length; cbn; lia. }
        { intros a. rewrite V, <- app_assoc. reflexivity. }
Qed.
Lemma sorted_snoc {A} (le : A -> A -> Prop) xs x : sorted_by le (xs ++ [x]) -> sorted_by le xs /\ forall y, In y xs -> le y x.
Proof.
  induction xs as [|z xs IH]; cbn [app]; intros H; [split; [constructor|intros y []]|]. inversion H as [|? ? H1 H2]; subst. destruct (IH H2) as [I1 I2]. split.
  - constructor; [|assumption]. intros y Hy. apply H1, in_or_app. now left.
  - intros y [<-|Hy]; [apply H1, in_or_app; right; now left|auto].
Qed.
Lemma pack_neg_max l m : lit_leb (neg m) m = true -> lit_leb (neg m) l = true -> lit_leb l m = true -> l = m \/ l = neg m.
Proof.
  unfold lit_leb. intros H1 H2 H3. apply N.leb_le in H1, H2, H3. assert (Hp : pack l = pack m \/ pack l = pack (neg m)).
  { revert H1 H2 H3. unfold pack, neg. cbn [lvar lneg]. destruct (lneg m), (lneg l); cbn [negb]; lia. }
  destruct Hp as [Hp|Hp]; apply pack_inj in Hp; auto.
Qed.
Lemma sorted_ends ls l : sorted_by (fun x y => lit_leb x y = true) ls -> NoDup ls -> In l ls -> In (neg l) ls -> (forall x, In x ls -> (lvar x <= lvar l)%N) -> ends_with_pair ls.
Proof.
  intros Hs Hnd H1 H2 Hm. destruct (exists_last (l := ls)) as (ls1 & m & ->); [intros ->; contradiction|]. destruct (sorted_snoc _ _ _ Hs) as [Hs1 Hle].
  assert (Hin : In (neg m) ls1).
  { assert (Hlm : m = l \/ m = neg l).
    { assert (lit_leb l m = true) as G1. { apply in_app_or in H1 as [H1|[->|[]]]; [now apply Hle|]. unfold lit_leb. apply N.leb_refl. }
      assert (lit_leb (neg l) m = true) as G2. { apply in_app_or in H2 as [H2|[<-|[]]]; [now apply Hle|]. unfold lit_leb. apply N.leb_refl. }
      assert (Hm' : (lvar m <= lvar l)%N) by (apply Hm, in_or_app; right; now left). apply N.leb_le in G1, G2.
      assert (Hp : pack m = pack l \/ pack m = pack (neg l)) by (revert G1 G2; unfold pack, neg; cbn [lvar lneg]; destruct (lneg m), (lneg l); cbn [negb]; lia). destruct Hp as [Hp|Hp]; apply pack_inj in Hp; auto. }
    assert (In (neg m) (ls1 ++ [m])) as G by (destruct Hlm as [-> | ->]; [assumption|now rewrite neg_neg]). apply in_app_or in G as [G|[G|[]]]; [assumption|]. symmetry in G. now apply neg_neq in G. }
  destruct (exists_last (l := ls1)) as (ls2 & k & ->); [intros ->; contradiction|]. destruct (sorted_snoc _ _ _ Hs1) as [_ Hle1].
  right. exists ls2, m. rewrite <- app_assoc. cbn [app]. do 2 f_equal. destruct (pack_neg_max k m) as [-> | ->]; [now apply Hle| |apply Hle, in_or_app; right; now left| |reflexivity].
  - apply in_app_or in Hin as [Hin|[->|[]]]; [now apply Hle1|]. unfold lit_leb. apply N.leb_refl.
  - exfalso. apply NoDup_remove_2 in Hnd. apply Hnd. rewrite app_nil_r. apply in_or_app. right. now left.
Qed.

Lemma norm_result_trans o o1 o2 : same_value o o1 -> norm_result o1 o2 -> norm_result o o2.
Proof.
  intros Hv (W & N & D & [V|[-> (v & V)]]); split; try assumption; (split; [assumption|]); (split; [assumption|]).
  - left. intros a. now rewrite V, Hv.
  - right. split; [reflexivity|]. exists v. intros a. now rewrite <- Hv.
Qed.
Lemma weighted_fallback z w ls cs : obj_wf (OUnweighted z (Some w) ls cs) -> obj_nonempty (OUnweighted z (Some w) ls cs) ->
  exists o', match unweighted_2_weighted (OUnweighted z (Some w) ls cs) with OWeighted z ls cs => normalize_weighted lord cord z ls cs | OUnweighted _ _ _ _ => None end = Some o' /\
    norm_result (OUnweighted z (Some w) ls cs) o'.
Proof.
  intros W Hne. destruct (u2w_weighted (OUnweighted z (Some w) ls cs)) as (ls' & cs' & E). pose proof (u2w_wf _ W) as W'. pose proof (u2w_nonempty _ W Hne) as N'. pose proof (u2w_value (OUnweighted z (Some w) ls cs)) as V. rewrite E in *.
  destruct (normalize_weighted_spec _ _ _ W' N') as (o' & E' & R). exists o'. split; [exact E'|]. exact (norm_result_trans _ _ _ V R).
Qed.
Lemma nonempty_u z w ls cs : obj_nonempty (OUnweighted z (Some w) ls cs) <-> ~ In [] cs.
Proof.
  unfold obj_nonempty. cbn [obj_cls or_zero]. split.
  - intros H Hin. apply (H w). apply in_map_iff. eauto.
  - intros H x Hx. apply in_map_iff in Hx as (c & [= -> _] & Hc). contradiction.
Qed.
Lemma has_dup_nodup cs : sorted_by (fun x y => clause_leb x y = true) cs -> has_dup cs = false -> NoDup cs.
Proof.
  induction cs as [|c cs IH]; intros S H; [constructor|]. inversion S as [|? ? S1 S2]; subst. destruct cs as [|d cs]; [repeat constructor; auto|].
  cbn [has_dup] in H. apply orb_false_iff in H as [H1 H2]. constructor; [|now apply IH]. intros Hin. assert (c = d); [|subst; rewrite (proj2 (clause_eqb_eq' d d) eq_refl) in H1; discriminate].
  apply clause_leb_antisym; [apply S1; now left|]. inversion S2 as [|? ? S3 _]; subst. destruct Hin as [->|Hin]; [apply S1; now left|now apply S3].
Qed.
Lemma normalize_unweighted_spec z u ls cs : obj_wf (OUnweighted z u ls cs) -> obj_nonempty (OUnweighted z u ls cs) -> norm_fine (OUnweighted z u ls cs) ->
  exists o', normalize_unweighted lord cord z u ls cs = Some o' /\ norm_result (OUnweighted z u ls cs) o'.
Proof.
  intros W Hne Hf. destruct u as [w|].
  2:{ destruct (wf_none _ _ _ W) as [-> ->]. eexists. split; [reflexivity|]. split; [assumption|]. split; [assumption|]. split; [constructor|]. left. intros a. reflexivity. }
  destruct Hf as [Hf|[Hf1 Hf2]]; [discriminate|]. pose proof W as W0. apply wf_some in W as [Hw Hc]. apply nonempty_u in Hne. unfold normalize_unweighted.
  assert (Eall : all_soft_lits (OUnweighted z (Some w) ls cs) = ls ++ map neg (filter_map single cs)).
  { unfold all_soft_lits. cbn [obj_lits obj_cls]. rewrite !map_map. cbn [fst]. now rewrite !map_id. }
  rewrite Eall in *. destruct (norm_unit_clauses ls cs) as [ls1 cs1] eqn:E1. destruct (norm_units_spec _ _ _ _ E1) as (I1 & I2 & I3). rewrite <- I1 in *. clear I1. specialize (I2 Hne).
  set (cs2 := sort_by clause_leb cs1). assert (P2 : Permutation cs2 cs1) by apply sort_by_perm. assert (H2 : forall c, In c cs2 -> (1 < length c)%nat) by (intros c Hin; apply I2; exact (Permutation_in _ P2 Hin)).
  assert (Hcs2 : forall z' ls', obj_wf (OUnweighted z' (Some w) ls' cs2) /\ obj_nonempty (OUnweighted z' (Some w) ls' cs2)).
  { intros z' ls'. split; [apply wf_some; split; [assumption|]; intros c Hin; apply H2 in Hin; lia|]. apply nonempty_u. intros Hin. apply H2 in Hin. cbn in Hin. lia. }
  assert (Cu : forall a, count_unsat a cs2 = count_unsat a cs1). { intros a. rewrite !count_unsat_filter. clear - P2. induction P2; cbn; try congruence; try (destruct (negb (sat_clause a x)); cbn; congruence). destruct (negb (sat_clause a x)), (negb (sat_clause a y)); reflexivity. }
  destruct (has_dup cs2) eqn:Ed.
  - destruct (weighted_fallback z w ls1 cs2) as (o' & E & R); [apply Hcs2|apply Hcs2|]. exists o'. split; [exact E|]. refine (norm_result_trans _ _ _ _ R). intros a. rewrite !value_u, Cu, I3. reflexivity.
  - set (ls2 := sort_by lit_leb ls1). assert (Pl : Permutation ls2 ls1) by apply sort_by_perm. assert (Sl : sorted_by (fun x y => lit_leb x y = true) ls2) by (apply sort_by_sorted; [apply lit_leb_total|apply lit_leb_trans]).
    replace (assertb (negb (is_nil ls2))) with (Some tt) by (destruct ls2; [apply Permutation_nil in Pl; congruence|reflexivity]). cbn [obind].
    destruct (norm_lits_spec w (S (length ls2)) [] [] ls2 z ltac:(lia)) as (r & E & V).
    { destruct Hf2 as [Hf2|(Hnd & l & G1 & G2 & G3)].
      - left. split; [reflexivity|]. intros (l & G1 & G2). apply Hf2. exists l. split; apply (Permutation_in _ Pl); assumption.
      - right. assert (NoDup ls2) as Hnd2 by (eapply Permutation_NoDup; [symmetry; exact Pl|assumption]). split; [assumption|].
        apply (sorted_ends ls2 l); [assumption|assumption|apply (Permutation_in _ (Permutation_sym Pl)); assumption|apply (Permutation_in _ (Permutation_sym Pl)); assumption|]. intros x Hx. apply G3. exact (Permutation_in _ Pl Hx). }
    cbn [app length Nat.add] in E. rewrite E. cbn [obind]. destruct r as [[[[ls3 z'] nxt] en]|[ls3 z']].
    + set (ls4 := firstn _ ls3). assert (V' : forall a, obj_value a (OUnweighted z' (Some w) ls4 cs2) = obj_value a (OUnweighted z (Some w) ls cs)).
      { intros a. rewrite !value_u. specialize (V a). unfold loop_value in V. fold ls4 in V. cbn [app] in V. rewrite (count_true_perm _ _ _ Pl) in V. rewrite Cu. specialize (I3 a). nia. }
      eexists. split; [reflexivity|]. destruct (is_nil ls4 && is_nil cs2) eqn:En.
      * apply andb_true_iff in En as [En1 En2]. apply is_nil_spec in En1, En2. rewrite En1, En2 in *. split; [apply wf_unweighted_intro; [auto|discriminate|intros c []]|]. split; [intros x []|]. split; [constructor|]. left. intros a. rewrite <- V'. rewrite value_u. rewrite value_k. cbn. lia.
      * destruct (Hcs2 z' ls4) as [A1 A2]. split; [assumption|]. split; [assumption|]. split; [|left; exact V'].
        cbn [obj_cls]. rewrite map_map. cbn [fst]. rewrite map_id. apply has_dup_nodup; [|assumption]. apply sort_by_sorted; [intros; apply clause_leb_total|intros; eapply clause_leb_trans; eauto].
    + destruct (weighted_fallback z' w ls3 cs2) as (o' & E' & R); [apply Hcs2|apply Hcs2|]. exists o'. split; [exact E'|]. refine (norm_result_trans _ _ _ _ R). intros a. rewrite !value_u, Cu. specialize (V a). cbn [loop_value app] in V.
      rewrite (count_true_perm _ _ _ Pl) in V. specialize (I3 a). nia.
Qed.
Lemma obj_normalize_spec o : obj_wf o -> obj_nonempty o -> norm_fine o -> exists o', obj_normalize lord cord o = Some o' /\ norm_result o o'.
Proof. destruct o; cbn [obj_normalize]; [intros; now apply normalize_weighted_spec|apply normalize_unweighted_spec]. Qed.
End Orders.
