(** * Encoding single pseudo-Boolean constraints with the binary adder is exact *)

From Coq Require Import List Bool NArith ZArith Lia Arith Permutation.
From Coq Require Import ZifyBool ZifyNat ZifyN.
From Verif Require Import Spec BoundSpec EncSpec Types Constraints Maps NodeDb TotDb Totalizer Gte Adder Base
  TotalizerProofs GteProofs Simulators SimProofs ConstrEnc ConstrEncProofs AdderSem AdderNodes AdderProofs AdderHist.
Import ListNotations.

Section Single.
Context (ord : wmap -> wmap) (Hord : iter_order ord).
Notation E := (adder_enc ord).

Lemma adder_fresh (allow : hop (lit * nat) -> Prop) xs next : (forall k, allow (HUserVars k)) -> allow (HExtend xs) -> NoDup (map fst xs) -> (forall x, In x xs -> pos_weight x /\ (lvar (fst x) < next)%N) ->
  reachable E fst pos_weight allow (mkWorld xs next [] [] [] []) (add_from_iter xs).
Proof.
  intros Ha Hx Hn H. apply (reach_step _ _ _ _ (mkWorld [] next [] [] [] []) (en_init E) (HExtend xs)).
  - apply (reach_step _ _ _ _ world0 (en_init E) (HUserVars next)); [apply reach_init|split; [auto|exact Logic.I]|reflexivity].
  - split; [auto|]. intros x Hi. destruct (H x Hi). split; [auto|]. split; [auto|]. intros (lo & hi & [] & _).
  - unfold step, add_from_iter. cbn [adder_enc en_extend en_init]. unfold add_extend, add_new. cbn [ad_buf ad_struct ad_sum ad_nodes w_in w_next w_aux w_all w_ub w_lb app].
    now rewrite map_collect_nodup, map_adds_nodup.
Qed.

(** after one call the clauses and the assumptions as units are exact *)
Lemma adder_after xs next next' t' cs ls (P : asg -> Prop) :
  reachable E fst pos_weight any_op (mkWorld xs next' [(next, next')] cs cs cs) t' -> (next <= next')%N ->
  (forall l, In l ls -> exists b, add_enforce_ub t' b = Some (EOk ls) /\ True \/ exists l0 b, In l l0 /\ (add_enforce_ub t' b = Some (EOk l0) \/ add_enforce_lb t' b = Some (EOk l0))) ->
  (forall a, sat_cnf a cs = true -> sat_cube a ls = true -> P a) ->
  (forall a a', P a -> (forall ub l, add_enforce_ub t' ub = Some (EOk l) -> (wsum a xs <= ub)%nat -> sat_cube a' l = true) ->
     (forall lb l, ad_buf t' = [] -> add_enforce_lb t' lb = Some (EOk l) -> (lb <= wsum a xs)%nat -> sat_cube a' l = true) -> sat_cube a' ls = true) ->
  exact_clauses (map fst xs) next next' (cs ++ units ls) P.
Proof.
  intros R Hn Hl Hs Hc. destruct (adder_local ord Hord any_op) as (C1 & C2 & _). split; [auto|]. split.
  - assert (AUX : forall l, (exists x, In x xs /\ lvar (fst x) = lvar l) \/ in_aux [(next, next')] (lvar l) -> (exists x, In x (map fst xs) /\ lvar x = lvar l) \/ (next <= lvar l < next')%N).
    { intros l [(x & Hx & Ex)|Ha]; [left; exists (fst x); split; [now apply in_map|auto]|]. destruct Ha as (lo & hi & [[= <- <-]|[]] & K). auto. }
    intros c l Hin Hlc. apply in_app_or in Hin as [Hin|Hin]; [exact (AUX l (C1 _ _ _ _ R Hin Hlc))|].
    unfold units in Hin. apply in_map_iff in Hin as (l' & <- & Hin). destruct Hlc as [->|[]]. apply AUX. destruct (Hl l Hin) as (b & [(H & _)|(l0 & b' & Hi & H)]).
    + exact (C2 _ _ b ls l R (or_introl H) Hin).
    + exact (C2 _ _ b' l0 l R H Hi).
  - split.
    + intros a Ha. rewrite sat_cnf_app, sat_units in Ha. apply andb_prop in Ha as (H1 & H2). auto.
    + intros a Ha. destruct (adder_complete ord Hord _ _ _ a R) as (a' & H1 & H2 & H3 & H4). exists a'. split.
      * intros v Hv. apply H1. intros (lo & hi & [[= <- <-]|[]] & Hlh). lia.
      * rewrite sat_cnf_app, sat_units. cbn [w_all] in H2. rewrite H2. cbn. apply (Hc a); auto.
Qed.

Lemma adder_single : single_exact E (fun xs => Some (add_from_iter xs)) pos_weight distinct_inputs.
Proof.
  assert (FR : forall (allow : hop (lit * nat) -> Prop) xs next, (forall k, allow (HUserVars k)) -> allow (HExtend xs) -> distinct_inputs (HExtend xs) -> (forall x, In x xs -> pos_weight x /\ (lvar (fst x) < next)%N) ->
    reachable E fst pos_weight allow (mkWorld xs next [] [] [] []) (add_from_iter xs)) by (intros; now apply adder_fresh).
  constructor; intros xs b next Hd Hx.
  - (* upper bound *)
    pose proof (FR ub_only xs next (fun _ => Logic.I) Logic.I Hd Hx) as R. set (w0 := mkWorld xs next [] [] [] []) in *. set (s := add_from_iter xs) in *.
    destruct (reach_inv ord Hord _ _ _ R) as (D & I). destruct (ainv_reset D w0 s I) as (I0 & U0).
    unfold encode_ub_at. cbn [obind]. fold s. cbn [adder_enc en_ub en_enforce_ub]. unfold add_encode_ub.
    destruct (encode_ub_change_ok ord Hord D w0 _ (Incl b, Incl b) I0) as (D1 & t1 & cs & next' & E1 & C & Rd & _). cbn [w0 w_next] in E1. rewrite E1. cbn [obind].
    set (w1 := mkWorld xs next' [(next, next')] cs cs cs).
    assert (St : step E w0 s (HUb (Incl b, Incl b)) = Some (w1, t1)) by (cbn [step adder_enc en_ub w_next w0]; unfold add_encode_ub; rewrite E1; reflexivity).
    assert (V : forall allow : hop (lit * nat) -> Prop, allow (HUb (Incl b, Incl b)) -> valid_op fst pos_weight allow w0 (HUb (Incl b, Incl b))) by (intros al Hal; split; [exact Hal|exact Logic.I]).
    pose proof (reach_step E fst pos_weight ub_only _ _ _ _ _ R (V ub_only Logic.I) St) as R1.
    pose proof (reach_step E fst pos_weight any_op _ _ _ _ _ (FR any_op xs next (fun _ => Logic.I) Logic.I Hd Hx) (V any_op Logic.I) St) as R2.
    destruct (adder_encodes_ub ord Hord ub_only HUb (or_introl eq_refl) w0 s _ w1 t1 b R (V ub_only Logic.I) St) as (ls & El); [split; cbn; lia|].
    cbn [adder_enc en_enforce_ub] in El. rewrite El. cbn [add_units]. exists (cs ++ units ls), next'. split; [reflexivity|].
    apply (adder_after xs next next' t1 cs ls); auto.
    + exact (ca_next _ _ _ _ _ _ _ _ C).
    + intros l Hl. exists b. auto.
    + intros a H1 H2. destruct (Nat.le_gt_cases (total_weight xs) b) as [L|L].
      * pose proof (wsum_le_total a xs). lia.
      * apply (adder_ub_sound ord Hord w1 t1 b ls a R1); auto. apply (Rd b); [split; cbn; lia|exact L].
    + intros a a' HP H1 _. now apply (H1 b).
  - (* lower bound *)
    intros Hle. pose proof (FR lb_only xs next (fun _ => Logic.I) Logic.I Hd Hx) as R. set (w0 := mkWorld xs next [] [] [] []) in *. set (s := add_from_iter xs) in *.
    destruct (reach_inv ord Hord _ _ _ R) as (D & I). destruct (ainv_reset D w0 s I) as (I0 & U0).
    unfold encode_lb_at. cbn [obind]. fold s. cbn [adder_enc en_lb en_enforce_lb]. unfold add_encode_lb.
    destruct (encode_lb_change_ok ord Hord D w0 _ (Incl b, Incl b) I0) as (D1 & t1 & cs & next' & E1 & C & Rd). cbn [w0 w_next] in E1. rewrite E1. cbn [obind].
    set (w1 := mkWorld xs next' [(next, next')] cs cs cs).
    assert (St : step E w0 s (HLb (Incl b, Incl b)) = Some (w1, t1)) by (cbn [step adder_enc en_lb w_next w0]; unfold add_encode_lb; rewrite E1; reflexivity).
    assert (V : forall allow : hop (lit * nat) -> Prop, allow (HLb (Incl b, Incl b)) -> valid_op fst pos_weight allow w0 (HLb (Incl b, Incl b))) by (intros al Hal; split; [exact Hal|exact Logic.I]).
    pose proof (reach_step E fst pos_weight lb_only _ _ _ _ _ R (V lb_only Logic.I) St) as R1.
    pose proof (reach_step E fst pos_weight any_op _ _ _ _ _ (FR any_op xs next (fun _ => Logic.I) Logic.I Hd Hx) (V any_op Logic.I) St) as R2.
    destruct (adder_encodes_lb ord Hord HLb (or_introl eq_refl) w0 s _ w1 t1 b R (V lb_only Logic.I) St) as [(ls & El)|El]; [split; cbn; lia| |].
    2:{ apply (proj1 (proj2 (proj2 (adder_trivial ord Hord lb_only)) w1 t1 b R1)) in El. cbn [w1 w_in] in El. lia. }
    cbn [adder_enc en_enforce_lb] in El. rewrite El. cbn [add_units]. exists (cs ++ units ls), next'. split; [reflexivity|].
    apply (adder_after xs next next' t1 cs ls); auto.
    + exact (ca_next _ _ _ _ _ _ _ _ C).
    + intros l Hl. exists 0%nat. right. exists ls, b. auto.
    + intros a H1 H2. exact (adder_lb_sound ord Hord lb_only w1 t1 b ls a R1 El H1 H2).
    + intros a a' HP _ H2. destruct (Nat.eq_dec b 0) as [->|Nb].
      * apply enforce_lb_spec in El as [(_ & ->)|(L & _)]; [reflexivity|lia].
      * apply (H2 b); auto. apply (Rd b); [split; cbn; lia|cbn; lia].
  - (* equality *)
    intros Hle. pose proof (FR any_op xs next (fun _ => Logic.I) Logic.I Hd Hx) as R. set (w0 := mkWorld xs next [] [] [] []) in *. set (s := add_from_iter xs) in *.
    pose proof (reach_uinv ord Hord ub_only _ _ (fun op H => H) (FR ub_only xs next (fun _ => Logic.I) Logic.I Hd Hx)) as U. fold w0 s in U.
    destruct (reach_inv ord Hord _ _ _ R) as (D & I).
    unfold encode_eq_at. cbn [obind]. fold s. cbn [adder_enc en_both en_enforce_ub en_enforce_lb].
    destruct (encode_both_ok ord Hord D w0 s (Incl b, Incl b) I) as (D1 & tm & t1 & cs & next' & E1 & Ln & Iv & _ & Km & Rd & Un & Lb & Sb). cbn [w0 w_next] in E1, Ln. pose proof (dx_next _ _ _ _ Ln) as Ln'. rewrite E1. cbn [obind].
    set (w1 := mkWorld xs next' [(next, next')] cs cs cs).
    assert (St : step E w0 s (HBoth (Incl b, Incl b)) = Some (w1, t1)) by (cbn [step adder_enc en_both w_next w0]; rewrite E1; reflexivity).
    assert (V : valid_op fst pos_weight any_op w0 (HBoth (Incl b, Incl b))) by (split; exact Logic.I).
    pose proof (reach_step E fst pos_weight any_op _ _ _ _ _ R V St) as R1.
    assert (IR : in_rng b (Incl b, Incl b)) by (split; cbn; lia).
    destruct (adder_encodes_ub ord Hord any_op HBoth (or_intror (or_intror eq_refl)) w0 s _ w1 t1 b R V St IR) as (l1 & El1). cbn [adder_enc en_enforce_ub] in El1.
    assert (I1 : ainv D1 w1 t1) by apply (Iv false false).
    pose proof (weight_sum_ok _ _ _ I1) as W. cbn [w1 w_in] in W.
    assert (El2 : exists l2, add_enforce_lb t1 b = Some (EOk l2)).
    { unfold add_enforce_lb. rewrite W. destruct (Nat.ltb_spec (total_weight xs) b); [lia|]. destruct (Nat.eqb_spec b 0); [eauto|].
      destruct (Lb b IR) as (o & Ho & Hf); [cbn; lia|intros (X & _); cbn in X; lia|intros o Ho; destruct (b - 1)%nat; discriminate Ho|].
      unfold comp_of in Ho. destruct (ad_struct t1) as [[outs comp]|]; [|destruct (b - 1)%nat; discriminate Ho]. rewrite Ho, Hf. eauto. }
    destruct El2 as (l2 & El2). unfold enforce_eq. rewrite El1. cbn [obind]. rewrite El2. cbn [obind add_units]. exists (cs ++ units (l1 ++ l2)), next'. split; [reflexivity|].
    apply (adder_after xs next next' t1 cs (l1 ++ l2)); auto.
    + intros l Hl. exists 0%nat. right. apply in_app_or in Hl as [Hl|Hl]; [exists l1, b|exists l2, b]; auto.
    + intros a H1 H2. rewrite sat_cube_app in H2. apply andb_prop in H2 as (H2 & H3).
      pose proof (adder_lb_sound ord Hord any_op w1 t1 b l2 a R1 El2 H1 H3) as K2. cbn [w1 w_in] in K2.
      destruct (Nat.le_gt_cases (total_weight xs) b) as [L|L]; [pose proof (wsum_le_total a xs); lia|].
      destruct (Rd b IR L) as (Bm & _). destruct (Km Bm) as (B1 & _).
      pose proof (enforce_ub_sound D1 w1 t1 b l1 a I1 (Un U (ex_intro _ b (conj IR L)) false false) B1 El1 H1 H2) as K1. cbn [w1 w_in] in K1. lia.
    + intros a a' HP H1 H2. rewrite sat_cube_app, (H1 b l1 El1) by lia. cbn [andb]. destruct (Nat.le_gt_cases (total_weight xs) b) as [L|L].
      * destruct (Nat.eq_dec b 0) as [->|Nb]; [apply enforce_lb_spec in El2 as [(_ & ->)|(X & _)]; [reflexivity|lia]|].
        apply (H2 b); auto; [|lia]. apply (Sb b IR). cbn; lia.
      * apply (H2 b); auto; [|lia]. destruct (Rd b IR L) as (Bm & _). apply (Km Bm).
Qed.
End Single.
