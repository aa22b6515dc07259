(** * Encoding a single upper bound with the dynamic polynomial watchdog *)

From Coq Require Import List Bool NArith ZArith Lia Arith Permutation.
From Coq Require Import ZifyBool ZifyNat ZifyN.
From Verif Require SimProofs.
From Verif Require Import Spec BoundSpec Types Atomics NodeDb Base TotDbInv Maps DbWorld Constraints ConstrSpec ConstrProofs ConstrEnc EncSpec ConstrEncProofs Dpw DpwSpec DpwInv DpwSem DpwHist DpwProofs.
Import ListNotations.

Section Single.
Context (ord : wmap -> wmap) (srt : list node -> list nodecon -> list nodecon).
Hypothesis Hord : iter_order ord.
Hypothesis Hsrt : forall ns l, Permutation (srt ns l) l.
Context (m : list (lit * nat)).
Hypothesis Hm : inputs_ok m.

Lemma lit_at_local (w : world (lit * nat)) d g ow id val l : dinv fst w d g ow -> lit_at (d_nodes d) id val l -> (exists x, In x (w_in w) /\ lvar (fst x) = lvar l) \/ in_aux (w_aux w) (lvar l).
Proof.
  intros I [(Hn & _)|(s & Hd)].
  - left. apply (di_gin _ _ _ _ _ I). apply nth_skel in Hn. apply (wf_node _ _ (proj1 (di_built _ _ _ _ _ I))) in Hn. apply Hn.
  - right. destruct (i_own _ _ _ _ _ _ (di_inv _ _ _ _ _ I) _ _ _ _ Hd) as (v & -> & Ho). exact (di_ow _ _ _ _ _ I _ _ Ho).
Qed.
Lemma assumps_local_ok d w t R ub ls l : pinv m d w t R -> precision_ok d m -> dpw_enforce_ub t ub = Some (EOk ls) -> In l ls -> (exists x, In x m /\ lvar (fst x) = lvar l) \/ in_aux (w_aux w) (lvar l).
Proof.
  intros I Hprec E Hl. pose proof (pv_struct _ _ _ _ _ I) as Ps. destruct (dp_struct t) as [st|] eqn:Es.
  - destruct Ps as (H2 & P1 & g & ow & wv & s & s0 & HP & V & Hle & Hd & M & P3). pose proof (mid_dinv m w wv _ st g ow M) as D.
    destruct (enforce_cases srt Hsrt m d w t R st g ow wv s s0 ub I Es HP V Hle M) as [(E' & H)|[(E' & H & Hn)|(Hq & root & rest & o & L & A1 & E' & Ho & HL & Hs & _)]]; rewrite E in E'; [injection E' as ->; destruct Hl|discriminate|].
    injection E' as ->. destruct Hl as [<-|Hl]; [|right; now apply (tare_vars _ _ _ _ _ _ _ M), HL].
    replace (lvar (neg o)) with (lvar o) by (destruct o; reflexivity). destruct (lit_at_local _ _ _ _ _ _ _ D Ho) as [(x & Hx & Ex)|H]; [|right; exact (md_waux _ _ _ _ _ _ _ _ _ M _ H)].
    destruct (md_in _ _ _ _ _ _ _ _ _ M x Hx) as [Hx'|Hx']; [left; eauto|right]. rewrite <- Ex. now apply (tare_vars _ _ _ _ _ _ _ M).
  - destruct (Nat.le_gt_cases (length m) 1) as [L|L].
    + destruct (enforce_small m Hm d w t R ub I Hprec Es L) as (ls' & E' & Hs & Hx). rewrite E in E'. injection E' as <-. left. now apply Hx.
    + destruct (not_built m d w t R ub I Es ltac:(lia)) as [(E' & _ & H)|(E' & H)]; rewrite E in E'; [injection E' as ->; destruct Hl|discriminate].
Qed.
End Single.

Lemma dpw_ub_exact ord srt xs ub next : iter_order ord -> (forall ns l, Permutation (srt ns l) l) -> inputs_ok xs -> NoDup (map fst xs) -> (forall x, In x xs -> (lvar (fst x) < next)%N) -> forall t0,
  exact_res fst xs next (encode_ub_at (dpw_enc srt t0) (dpw_from_iter ord) xs ub next) (fun a => (wsum a xs <= ub)%nat).
Proof.
  intros Hord Hsrt Hm Hnd Hx init. unfold encode_ub_at, dpw_from_iter. rewrite SimProofs.map_collect_nodup by assumption. destruct (dpw_from_total ord Hord xs Hm) as [t0 E0]. rewrite E0. cbn [obind].
  set (w0 := mkWorld xs next [] [] [] []).
  assert (Ep : dpw_set_precision t0 1 = inl t0).
  { unfold dpw_from in E0. destruct (foldM _ _ _) as [[d q]|]; [|discriminate]. injection E0 as <-. reflexivity. }
  assert (Hp : precision_ok 1 xs) by (left; lia).
  pose proof (dh_start ord srt xs 1 next t0 t0 Hx E0 Ep) as H0. fold w0 in H0.
  pose proof (ph_start ord srt xs 1 next t0 t0 Hx E0 Ep) as P0. fold w0 in P0.
  pose proof (pi_start ord srt xs 1 next t0 t0 Hx E0 Ep) as I0. fold w0 in I0.
  destruct (dpw_no_panic ord Hord srt Hsrt xs Hm 1 w0 t0 [] P0 Hp) as (Hst & _). destruct (Hst (HUb (Incl ub, Incl ub)) Logic.I) as (w1 & t1 & Es & Hnx).
  assert (Hop : dpw_op (HUb (Incl ub, Incl ub))) by exact Logic.I.
  pose proof (dh_step ord srt xs 1 _ _ _ _ _ _ H0 Hop Es) as H1. pose proof (ph_step ord srt xs 1 _ _ _ _ _ _ P0 Hop Es) as P1. pose proof (pi_first ord srt xs 1 _ _ _ _ _ _ I0 Es) as I1.
  cbn [ranges_after] in H1, P1.
  destruct (dpw_encoded_fixed ord Hord srt Hsrt xs Hm 1 w1 t1 _ (Incl ub, Incl ub) ub H1 Hp (or_introl eq_refl)) as (ls & El & _); [split; cbn; lia|lia|].
  destruct (dpw_exact ord Hord srt Hsrt xs Hm 1 true w1 t1 _ ub ls I1 Hp El) as [Hs Hc].
  assert (Esc : scaled 1 xs = xs).
  { unfold scaled. rewrite <- (map_id xs) at 2. apply map_ext. intros [l w]. cbn [fst snd Nat.max]. now rewrite Nat.div_1_r. }
  rewrite Esc in Hs, Hc.
  assert (Hloc : forall c l, In c (w_all w1) -> In l c -> (exists x, In x xs /\ lvar (fst x) = lvar l) \/ in_aux (w_aux w1) (lvar l)) by (intros c l; exact (dpw_local ord Hord srt Hsrt xs Hm 1 w1 t1 _ c l P1)).
  assert (Hal : forall l, In l ls -> (exists x, In x xs /\ lvar (fst x) = lvar l) \/ in_aux (w_aux w1) (lvar l)).
  { intros l Hl. exact (assumps_local_ok srt Hsrt xs Hm 1 w1 t1 _ ub ls l (phist_inv ord Hord srt Hsrt xs Hm 1 w1 t1 _ P1) Hp El Hl). }
  cbn [step dpw_enc en_ub] in Es. unfold w0 in Es at 2. cbn [w_next] in Es. destruct (dpw_encode_ub srt t0 (Incl ub, Incl ub) next) as [[[s' cs] next']|] eqn:Ec; [|discriminate].
  injection Es as <- <-. cbn [dpw_enc en_ub en_enforce_ub]. rewrite Ec. cbn [obind]. rewrite El. cbn [add_units].
  cbn [log_call w0 w_in w_next w_aux w_all w_ub w_lb app] in *. exists (cs ++ units ls), next'. split; [reflexivity|].
  assert (Haux : forall v, in_aux [(next, next')] v <-> (next <= v < next')%N) by (intros v; split; [intros (lo & hi & [[= <- <-]|[]] & K); exact K|intros K; exists next, next'; split; [now left|exact K]]).
  split; [exact Hnx|]. split.
  - intros c l Hcin Hl. assert (K : (exists x, In x xs /\ lvar (fst x) = lvar l) \/ in_aux [(next, next')] (lvar l)).
    { apply in_app_iff in Hcin as [Hcin|Hcin]; [now apply (Hloc c)|]. apply in_map_iff in Hcin as (y & <- & Hy). destruct Hl as [<-|[]]. now apply Hal. }
    destruct K as [(x & Hxin & Ex)|K]; [left; exists (fst x); split; [now apply in_map|exact Ex]|right; now apply Haux].
  - split.
    + intros a Ha. rewrite sat_cnf_app, sat_units in Ha. apply andb_prop in Ha as [H2 H3]. now apply Hs.
    + intros a Ha. destruct (Hc a Ha) as (a' & Hv & H2 & H3). exists a'. split; [intros v Hlt; apply Hv; rewrite Haux; lia|]. now rewrite sat_cnf_app, sat_units, H2, H3.
Qed.
