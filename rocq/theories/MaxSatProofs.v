(** * Proofs about solution-improving search *)

From Coq Require Import List Bool NArith ZArith Lia Arith ZifyBool ZifyNat ZifyN.
From Verif Require Import Spec BoundSpec EncSpec Types Constraints ConstrSpec Maps NodeDb TotDb Totalizer Gte Adder Base TypesProofs TotalizerProofs GteProofs Simulators SimProofs ConstrEnc ConstrEncProofs
  AdderSem AdderNodes AdderProofs AdderHist AdderSingle Inst InstSpec InstProofs Opt OptSpec OptProofs OptConv SolverSpec Solver SolverUse SolverProofs MaxSatSpec MaxSat.
Import ListNotations.

(** ** Objective values *)
Fixpoint true_sum (sol : assignment) (obj : list (lit * nat)) : nat :=
  match obj with [] => 0 | (l, w) :: obj' => match lit_value sol l with TTrue => w | _ => 0 end + true_sum sol obj' end.
Lemma objective_value_sum obj sol : objective_value obj sol = true_sum sol obj.
Proof.
  unfold objective_value. assert (G : forall obj n, fold_left (fun sum '(l, w) => match lit_value sol l with TTrue => sum + w | _ => sum end) obj n = n + true_sum sol obj).
  { clear. induction obj as [|[l w] obj IH]; intros n; cbn [fold_left true_sum]; [lia|]. rewrite IH. destruct (lit_value sol l); lia. }
  apply G.
Qed.
Lemma objective_value_le obj sol a : completes a (pasg_of sol) -> objective_value obj sol <= wsum a obj.
Proof.
  intros H. rewrite objective_value_sum. induction obj as [|[l w] obj IH]; [cbn; lia|]. cbn [true_sum wsum]. pose proof (lit_value_completes sol a l H). destruct (lit_value sol l); try lia. rewrite H0. lia.
Qed.
Lemma objective_value_total obj sol : objective_value obj sol <= total_weight obj.
Proof. rewrite objective_value_sum. induction obj as [|[l w] obj IH]; [cbn; lia|]. cbn [true_sum total_weight]. destruct (lit_value sol l); lia. Qed.

(** a completion that makes no literal without value true *)
Definition cheapest (obj : list (lit * nat)) (sol : assignment) : asg :=
  fun v => match pasg_of sol v with Some b => b | None => existsb (fun x => (lvar (fst x) =? v)%N && lneg (fst x)) obj end.
Lemma cheapest_completes obj sol : completes (cheapest obj sol) (pasg_of sol).
Proof. intros v b E. unfold cheapest. now rewrite E. Qed.
Lemma objective_value_cheapest obj sol : no_opposites obj \/ (forall x, In x obj -> lit_value sol (fst x) <> TDontCare) ->
  wsum (cheapest obj sol) obj = objective_value obj sol.
Proof.
  intros H. rewrite objective_value_sum.
  assert (Hl : forall x, In x obj -> (if lit_true (cheapest obj sol) (fst x) then snd x else 0) = match lit_value sol (fst x) with TTrue => snd x | _ => 0 end).
  { intros x Hx. pose proof (lit_value_completes sol _ (fst x) (cheapest_completes obj sol)) as Hv. destruct (lit_value sol (fst x)) eqn:El; try (rewrite Hv; reflexivity).
    destruct H as [H|H]; [|now apply H in El]. unfold lit_true, cheapest. rewrite Hv. destruct (lneg (fst x)) eqn:En.
    - replace (existsb _ obj) with true; [reflexivity|]. symmetry. apply existsb_exists. exists x. split; [auto|]. rewrite N.eqb_refl, En. reflexivity.
    - replace (existsb _ obj) with false; [reflexivity|]. symmetry. destruct (existsb _ obj) eqn:Ee; [|reflexivity]. apply existsb_exists in Ee as (y & Hy & Ey).
      destruct (H x y Hx Hy). apply andb_prop in Ey as (E1 & E2). apply N.eqb_eq in E1. destruct x as [[vx nx] wx], y as [[vy ny] wy]. cbn in *. subst. reflexivity. }
  revert Hl. generalize (cheapest obj sol) as a. intros a Hl. clear H. induction obj as [|[l w] obj IH]; [reflexivity|]. cbn [wsum true_sum]. rewrite IH by (intros x Hx; apply Hl; now right).
  f_equal. exact (Hl (l, w) (or_introl eq_refl)).
Qed.

(** ** What is needed of the encoding *)
Section Histories.
Context {A ES : Type} (E : encoder A ES) (ilit : A -> lit) (iok : A -> Prop) (allow : hop A -> Prop).
Lemma enforced_reachable w s U : enforced E ilit iok allow w s U -> reachable E ilit iok allow w s.
Proof. intros H. induction H; [apply reach_init|eapply reach_step; eauto|assumption]. Qed.
Lemma reachable_enforced w s : reachable E ilit iok allow w s -> enforced E ilit iok allow w s [].
Proof. intros H. induction H; [apply enf_init|eapply enf_step; eauto]. Qed.
Lemma reachable_weaken (allow' : hop A -> Prop) w s : (forall op, allow op -> allow' op) -> reachable E ilit iok allow w s -> reachable E ilit iok allow' w s.
Proof. intros Ha H. induction H as [|w s op w' s' H IH [V1 V2] Es]; [apply reach_init|eapply reach_step; [exact IH| |exact Es]]. split; auto. Qed.
Lemma w_ub_all w s a : reachable E ilit iok allow w s -> sat_cnf a (w_all w) = true -> sat_cnf a (w_ub w) = true.
Proof.
  intros H. revert a. induction H as [|w s op w' s' H IH V Es]; intros a Ha; [reflexivity|].
  assert (Enc : forall ru rl r, encode_step w ru rl r = Some (w', s') -> sat_cnf a (w_ub w') = true).
  { intros ru rl r Er. unfold encode_step in Er. destruct r as [[[s1 cs] n]|]; [|discriminate]. injection Er as <- <-. cbn [log_call w_all w_ub] in *. rewrite sat_cnf_app in Ha. apply andb_prop in Ha as (H1 & H2).
    destruct ru; [exact H2|]. rewrite sat_cnf_app, IH, H2 by auto. reflexivity. }
  destruct op; cbn [step] in Es; try (eapply Enc; exact Es).
  - destruct (en_extend E s xs); [|discriminate]. injection Es as <- <-. cbn [w_all w_ub] in *. now apply IH.
  - injection Es as <- <-. cbn [w_all w_ub] in *. now apply IH.
  - destruct (en_reserve E s (w_next w)) as [[s1 n]|]; [|discriminate]. injection Es as <- <-. cbn [log_call w_all w_ub] in *. rewrite app_nil_r in *. now apply IH.
Qed.
End Histories.

Record search_encoder {ES} (E : encoder (lit * nat) ES) (from : list (lit * nat) -> ES) : Prop := mkSearchEncoder {
  se_from : forall xs next, NoDup (map fst xs) -> (forall x, In x xs -> pos_weight x /\ (lvar (fst x) < next)%N) ->
    reachable E fst pos_weight ub_only (mkWorld xs next [] [] [] []) (from xs);
  se_ub : forall w s k, reachable E fst pos_weight ub_only w s -> en_ub E s (Incl k, Excl (S k)) (w_next w) <> None;
  se_encodes : encodes_ub E fst pos_weight ub_only HUb;
  se_sound : forall w s k w' s' ls a, reachable E fst pos_weight ub_only w s -> k < total_weight (w_in w) -> step E w s (HUb (Incl k, Excl (S k))) = Some (w', s') ->
    en_enforce_ub E s' k = Some (EOk ls) -> sat_cnf a (w_all w') = true -> sat_cube a ls = true -> wsum a (w_in w') <= k;
  se_mono : monotone E fst pos_weight ub_only wsum;
  se_vars : vars_grow E fst pos_weight ub_only
}.

Lemma gte_search ord : iter_order ord -> search_encoder (gte_enc ord) gte_from_iter.
Proof.
  intros H. constructor.
  - intros xs next Hn Hx. apply (reach_step _ _ _ _ (mkWorld [] next [] [] [] []) gte_new (HExtend xs)).
    + apply (reach_step _ _ _ _ world0 gte_new (HUserVars next)); [apply reach_init|split; exact Logic.I|reflexivity].
    + split; [exact Logic.I|]. intros x Hi. destruct (Hx x Hi). split; [auto|]. split; [auto|]. intros (lo & hi & [] & _).
    + unfold step, gte_from_iter, gte_from_map. cbn [gte_enc en_extend]. unfold gte_extend, gte_new. cbn [gt_buf gt_root gt_maxw gt_vars gt_cls gt_db w_in w_next w_aux w_all w_ub w_lb app].
      now rewrite map_collect_nodup, map_adds_nodup.
  - intros w s k R E. apply (gte_no_panic ord H w s (HUb (Incl k, Excl (S k))) R); [split; exact Logic.I|]. cbn [step]. rewrite E. reflexivity.
  - apply (gte_encodes_ub ord H).
  - intros w s k w' s' ls a R Hk Es Ee Ha Hl. assert (R' : reachable (gte_enc ord) fst pos_weight ub_only w' s') by (eapply reach_step; [exact R| |exact Es]; split; exact Logic.I).
    apply (gte_ub_sound ord H w' s' k ls a R' Ee); [|exact Hl]. eapply w_ub_all; eauto.
  - apply (gte_monotone ord H).
  - apply (gte_vars_grow ord H).
Qed.

Lemma adder_search ord : iter_order ord -> search_encoder (adder_enc ord) add_from_iter.
Proof.
  intros H. constructor.
  - intros xs next Hn Hx. apply adder_fresh; auto; intros; exact Logic.I.
  - intros w s k R E. apply (adder_no_panic ord H w s (HUb (Incl k, Excl (S k)))); [eapply reachable_weaken; [|exact R]; intros; exact Logic.I|split; exact Logic.I|discriminate|]. cbn [step]. rewrite E. reflexivity.
  - apply (adder_encodes_ub ord H). auto.
  - intros w s k w' s' ls a R Hk Es Ee Ha Hl. assert (V : valid_op fst pos_weight ub_only w (HUb (Incl k, Excl (S k)))) by (split; exact Logic.I).
    assert (R' : reachable (adder_enc ord) fst pos_weight ub_only w' s') by (eapply reach_step; eauto).
    apply (adder_ub_sound ord H w' s' k ls a R'); auto. eapply (adder_settled ord H ub_only w s _ w' s' R V Es). exists k. split; [split; cbn; lia|exact Hk].
  - apply (adder_monotone ord H).
  - apply (adder_local ord H).
Qed.

Section Search.
Context {S W ES : Type} (V : solver S W) (reps : S -> cnf -> bool -> Prop) (E : encoder (lit * nat) ES) (from : list (lit * nat) -> ES).
Hypotheses (C : correct V reps) (SE : search_encoder E from).
Context (obj : list (lit * nat)) (f : cnf) (mv : N).
Hypotheses (Hf : cnf_below (mv + 1) f).

(** what a result means *)
Definition sound_result (r : assignment * nat) : Prop :=
  snd r = objective_value obj (fst r) /\ (forall a, completes a (pasg_of (fst r)) -> sat_cnf a f = true).
Definition optimal_result (r : option (assignment * nat)) : Prop :=
  match r with
  | None => unsat f
  | Some r => sound_result r /\ forall a, sat_cnf a f = true -> snd r <= wsum a obj
  end.

Record search_inv (w : world (lit * nat)) (es : ES) (U : list (nat * list lit)) (s : S) (F : cnf) (best : option (assignment * nat)) : Prop := mkSearchInv {
  si_enf : enforced E fst pos_weight ub_only w es U;
  si_in : w_in w = obj;
  si_aux : forall v, in_aux (w_aux w) v -> (mv + 1 <= v)%N;
  si_next : (mv + 1 <= w_next w)%N;
  si_sat : forall a, sat_cnf a F = true <-> sat_cnf a f = true /\ sat_cnf a (w_all w) = true /\ (forall ub ls, In (ub, ls) U -> sat_cube a ls = true);
  si_best : match best with
            | None => U = []
            | Some r => sound_result r /\ 1 <= snd r /\ (forall ub ls, In (ub, ls) U -> snd r - 1 <= ub) /\ (forall a, sat_cnf a F = true -> wsum a obj <= snd r - 1)
            end
}.
Definition fuel_need (best : option (assignment * nat)) : nat := match best with None => total_weight obj + 2 | Some r => snd r + 1 end.

Lemma add_all_reliable : reliable V reps -> forall g s F m w, reps s F m -> fst (fst (add_all V s g w)) = true.
Proof.
  intros (A & _). induction g as [|c g IH]; intros s F m w R; [reflexivity|]. cbn [add_all]. pose proof (A _ _ _ c w R) as Ea. destruct (sv_add V s c w) as [[ok s1] w1] eqn:E1. cbn in Ea. subst ok.
  eapply IH. eapply (co_add _ _ C); eauto.
Qed.

Lemma improve_ok : forall fuel w es U s F m best wld, search_inv w es U s F best -> reps s F m ->
  match improve V E fuel obj mv s es (w_next w) best wld with
  | Done r => optimal_result r
  | Panic => ~ reliable V reps
  | OutOfFuel => fuel < fuel_need best
  end.
Proof.
  induction fuel as [|fuel IH]; intros w es U s F m best wld I R; [cbn [improve]; destruct best; cbn; lia|]. cbn [improve].
  destruct (sv_solve V s wld) as [[[[| |]|] s1] w1] eqn:Es.
  2:{ (* unsatisfiable *)
    destruct (co_unsat _ _ C _ _ _ _ _ _ R Es) as (_ & Un). destruct best as [r|]; cbn [optimal_result].
    - destruct (si_best _ _ _ _ _ _ I) as (G & L1 & Lu & _). split; [exact G|]. intros a Ha. destruct (Nat.le_gt_cases (snd r) (wsum a obj)) as [L|L]; [exact L|exfalso].
      destruct (se_mono _ _ SE w es U a (si_enf _ _ _ _ _ _ I)) as (a' & A1 & A2 & A3). specialize (Un a'). enough (sat_cnf a' F = true) by congruence. apply (si_sat _ _ _ _ _ _ I). split; [|split; [exact A2|]].
      + rewrite <- Ha. apply sat_cnf_agree. intros c l Hc Hl. apply A1. intros Hx. apply (si_aux _ _ _ _ _ _ I) in Hx. specialize (Hf c Hc l Hl). lia.
      + intros ub ls Hin. apply (A3 ub ls Hin). rewrite (si_in _ _ _ _ _ _ I). specialize (Lu ub ls Hin). lia.
    - pose proof (si_best _ _ _ _ _ _ I) as EU. cbn in EU. subst U. intros a. destruct (sat_cnf a f) eqn:Ha; [exfalso|reflexivity].
      destruct (se_mono _ _ SE w es [] a (si_enf _ _ _ _ _ _ I)) as (a' & A1 & A2 & A3). specialize (Un a'). enough (sat_cnf a' F = true) by congruence. apply (si_sat _ _ _ _ _ _ I). split; [|split; [exact A2|]].
      + rewrite <- Ha. apply sat_cnf_agree. intros c l Hc Hl. apply A1. intros Hx. apply (si_aux _ _ _ _ _ _ I) in Hx. specialize (Hf c Hc l Hl). lia.
      + intros ub ls []. }
  2:{ intros (_ & B). destruct (B _ _ _ wld R) as [H|H]; rewrite Es in H; discriminate. }
  2:{ intros (_ & B). destruct (B _ _ _ wld R) as [H|H]; rewrite Es in H; discriminate. }
  pose proof (co_sat _ _ C _ _ _ _ _ _ R Es) as R1. destruct (co_models _ _ C _ _ R1) as (p & _ & M2 & M3).
  destruct (M2 mv) as (sol & -> & Hsol). set (val := objective_value obj sol).
  assert (G : sound_result (sol, val)).
  { split; [reflexivity|]. cbn [fst]. intros a Ha. set (a' := fun v => if (v <=? mv)%N then a v else match p v with Some b => b | None => false end).
    assert (Ha' : sat_cnf a' F = true).
    { apply M3. intros v b Ev. unfold a'. destruct (N.leb_spec v mv) as [L|L]; [|now rewrite Ev]. apply Ha. rewrite Hsol. destruct (N.leb_spec v mv); [exact Ev|lia]. }
    apply (si_sat _ _ _ _ _ _ I) in Ha' as (Ha' & _). rewrite <- Ha'. apply sat_cnf_agree. intros c l Hc Hl. specialize (Hf c Hc l Hl). unfold a'. destruct (N.leb_spec (lvar l) mv); [reflexivity|lia]. }
  assert (Lv : match best with Some r => val <= snd r - 1 | None => True end).
  { destruct best as [r|]; [|exact Logic.I]. destruct (si_best _ _ _ _ _ _ I) as (_ & _ & _ & Hb). set (a := fun v => match p v with Some b => b | None => false end).
    assert (Hp : completes a p) by (intros v b Ev; unfold a; now rewrite Ev).
    assert (Hs : completes a (pasg_of sol)) by (intros v b Ev; rewrite Hsol in Ev; destruct (v <=? mv)%N; [now apply Hp|discriminate]).
    specialize (Hb a (M3 a Hp)). pose proof (objective_value_le obj sol a Hs). unfold val. lia. }
  assert (Ltot : val <= total_weight obj) by apply objective_value_total.
  destruct val as [|val'] eqn:Ev.
  { cbn [optimal_result]. split; [exact G|]. intros a _. cbn. lia. }
  pose proof (enforced_reachable _ _ _ _ _ _ _ (si_enf _ _ _ _ _ _ I)) as Rw.
  destruct (en_ub E es (Incl val', Excl (Datatypes.S val')) (w_next w)) as [[[es' cs] next']|] eqn:Eu; [|exfalso; exact (se_ub _ _ SE w es val' Rw Eu)].
  destruct (add_all V s1 cs w1) as [[[|] s2] w2] eqn:Ea; [|intros Rl; pose proof (add_all_reliable Rl cs _ _ _ w1 R1) as K; rewrite Ea in K; discriminate].
  destruct (add_all_ok V reps C _ _ _ _ _ _ _ R1 Ea) as (m2 & R2).
  set (w' := log_call w true false cs next').
  assert (St : step E w es (HUb (Incl val', Excl (Datatypes.S val'))) = Some (w', es')) by (cbn [step]; unfold encode_step; rewrite Eu; reflexivity).
  assert (Va : valid_op fst pos_weight ub_only w (HUb (Incl val', Excl (Datatypes.S val')))) by (split; exact Logic.I).
  destruct (se_encodes _ _ SE w es _ w' es' val' Rw Va St) as (ls & El); [split; cbn; lia|]. rewrite El.
  fold (units ls). destruct (add_all V s2 (units ls) w2) as [[[|] s3] w3] eqn:Ea3; [|intros Rl; pose proof (add_all_reliable Rl (units ls) _ _ _ w2 R2) as K; rewrite Ea3 in K; discriminate].
  destruct (add_all_ok V reps C _ _ _ _ _ _ _ R2 Ea3) as (m3 & R3).
  pose proof (se_vars _ _ SE w es _ w' es' Rw Va St) as Lnext. cbn [w' log_call w_next] in Lnext.
  change next' with (w_next w').
  assert (Hsat : forall a, sat_cnf a ((F ++ cs) ++ units ls) = true <-> sat_cnf a F = true /\ sat_cnf a cs = true /\ sat_cube a ls = true).
  { intros a. rewrite !sat_cnf_app, sat_units, !andb_true_iff. tauto. }
  assert (I' : search_inv w' es' ((val', ls) :: U) s3 ((F ++ cs) ++ units ls) (Some (sol, Datatypes.S val'))).
  { constructor.
    - apply enf_ask; [|exact El]. eapply enf_step; [exact (si_enf _ _ _ _ _ _ I)|exact Va|exact St].
    - exact (si_in _ _ _ _ _ _ I).
    - intros v (lo & hi & [[= <- <-]|Hin] & Hv); [pose proof (si_next _ _ _ _ _ _ I); lia|]. apply (si_aux _ _ _ _ _ _ I). exists lo, hi. auto.
    - cbn [w' log_call w_next]. pose proof (si_next _ _ _ _ _ _ I). lia.
    - intros a. rewrite Hsat, (si_sat _ _ _ _ _ _ I). cbn [w' log_call w_all]. rewrite sat_cnf_app, andb_true_iff. split.
      + intros ((H1 & H2 & H3) & H4 & H5). repeat split; auto. intros ub l [[= <- <-]|Hin]; [exact H5|exact (H3 ub l Hin)].
      + intros (H1 & (H2 & H3) & H4). repeat split; auto; [|exact (H4 val' ls (or_introl eq_refl))]. intros ub l Hin. apply (H4 ub l). now right.
    - split; [exact G|]. cbn [snd]. split; [lia|]. split.
      + intros ub l [[= <- <-]|Hin]; [lia|]. destruct best as [r|].
        * destruct (si_best _ _ _ _ _ _ I) as (_ & _ & Hu & _). specialize (Hu ub l Hin). lia.
        * pose proof (si_best _ _ _ _ _ _ I) as EU. cbn in EU. subst U. destruct Hin.
      + intros a Ha. apply Hsat in Ha as (H1 & H2 & H3). replace (Datatypes.S val' - 1) with val' by lia.
        rewrite <- (si_in _ _ _ _ _ _ I). change (w_in w) with (w_in w'). apply (se_sound _ _ SE w es val' w' es' ls a Rw); auto.
        * rewrite (si_in _ _ _ _ _ _ I). lia.
        * cbn [w' log_call w_all]. rewrite sat_cnf_app, H2, andb_true_r. now apply (si_sat _ _ _ _ _ _ I). }
  specialize (IH w' es' _ s3 _ m3 (Some (sol, Datatypes.S val')) w3 I' R3).
  destruct (improve V E fuel obj mv s3 es' (w_next w') (Some (sol, Datatypes.S val')) w3) as [r| |]; try exact IH.
  cbn [fuel_need snd] in IH. unfold fuel_need. destruct best as [r|]; lia.
Qed.
End Search.

Section SearchTop.
Context {S W ES : Type} (V : solver S W) (reps : S -> cnf -> bool -> Prop) (E : encoder (lit * nat) ES) (from : list (lit * nat) -> ES).
Hypotheses (C : correct V reps) (K : knows_vars V reps) (SE : search_encoder E from).

Theorem improving_search_ok : forall fuel s f m obj w, reps s f m -> (In [] f -> sv_max_var V s <> None) ->
  NoDup (map fst obj) -> (forall x, In x obj -> 1 <= snd x /\ exists mv, sv_max_var V s = Some mv /\ (lvar (fst x) <= mv)%N) ->
  match improving_search V E from fuel s obj w with
  | Done r => optimal_result obj f r
  | Panic => ~ reliable V reps
  | OutOfFuel => fuel < total_weight obj + 2
  end.
Proof.
  intros fuel s f m obj w R Hemp Hn Hx. unfold improving_search. destruct (sv_max_var V s) as [mv|] eqn:Emv.
  2:{ assert (f = []) as ->.
      { destruct f as [|[|l c] f]; [reflexivity|destruct Hemp; [now left|reflexivity]|]. destruct (K s _ m _ l R (or_introl eq_refl) (or_introl eq_refl)) as (v & Ev & _). congruence. }
      destruct obj as [|x obj]; [|destruct (Hx x (or_introl eq_refl)) as (_ & v & Ev & _); discriminate]. split; [split; reflexivity|]. intros a _. cbn. lia. }
  assert (Hf : cnf_below (mv + 1) f).
  { intros c Hc l Hl. destruct (K s f m c l R Hc Hl) as (v & Ev & Lv). rewrite Emv in Ev. injection Ev as <-. lia. }
  assert (Rw : reachable E fst pos_weight ub_only (mkWorld obj (mv + 1) [] [] [] []) (from obj)).
  { apply (se_from _ _ SE); [exact Hn|]. intros x Hin. destruct (Hx x Hin) as (H1 & v & [= <-] & H2). split; [exact H1|]. lia. }
  refine (improve_ok V reps E from C SE obj f mv Hf fuel (mkWorld obj (mv + 1) [] [] [] []) (from obj) [] s f m None w _ R). constructor.
  - now apply reachable_enforced.
  - reflexivity.
  - intros v (lo & hi & [] & _).
  - cbn. lia.
  - intros a. cbn. split; [intros H; split; [exact H|split; [reflexivity|intros ub ls []]]|tauto].
  - reflexivity.
Qed.

Lemma optimal_attained obj f sol cost : optimal_result obj f (Some (sol, cost)) ->
  no_opposites obj \/ (forall x, In x obj -> lit_value sol (fst x) <> TDontCare) ->
  exists a, completes a (pasg_of sol) /\ sat_cnf a f = true /\ wsum a obj = cost.
Proof.
  intros ((E1 & Hs) & _) H. exists (cheapest obj sol). pose proof (cheapest_completes obj sol) as Hc. split; [exact Hc|]. split; [now apply Hs|].
  cbn [fst snd] in E1. rewrite E1. now apply objective_value_cheapest.
Qed.

Lemma valued_cost obj sol a : all_valued obj sol -> completes a (pasg_of sol) -> wsum a obj = objective_value obj sol.
Proof.
  intros Hv Ha. rewrite objective_value_sum. induction obj as [|[l w] obj IH]; [reflexivity|]. cbn [true_sum wsum]. rewrite IH by (intros x Hx; apply Hv; now right).
  pose proof (lit_value_completes sol a l Ha) as Hl. specialize (Hv (l, w) (or_introl eq_refl)). cbn [fst] in Hv. destruct (lit_value sol l); [rewrite Hl; lia|rewrite Hl; lia|contradiction].
Qed.
Lemma optimal_result_optimal obj f r : optimal_result obj f r -> optimal obj f r.
Proof.
  destruct r as [[sol cost]|]; [|exact (fun H => H)]. intros H. pose proof H as ((E1 & Hs) & Ho). cbn [fst snd] in *. split; [exact Hs|]. split; [exact Ho|]. split.
  - intros Hn. destruct (optimal_attained obj f sol cost H Hn) as (a & A1 & _ & A3). eauto.
  - intros Hv a Ha. rewrite E1. now apply valued_cost.
Qed.

(** ** [solve_maxsat] for soft literals only *)
Context (lord : list (lit * nat) -> list (lit * nat)) (cord : list (clause * nat) -> list (clause * nat)) (to_cnf : inst -> option (cnf * N)).
Hypothesis Hord : orders lord cord.

Lemma maxsat_units ls : forall f obj next, foldM maxsat_step (map (fun e => ([neg (fst e)], snd e)) ls) (f, obj, next) = Some (f, obj ++ ls, next).
Proof.
  induction ls as [|[l w] ls IH]; intros f obj next; cbn [map foldM fst snd]; [now rewrite app_nil_r|]. cbn [maxsat_step fst snd obind]. rewrite neg_neg, IH, <- app_assoc. reflexivity.
Qed.
Lemma units_perm (cs : list (clause * nat)) ls : Permutation.Permutation cs (map (fun e => ([neg (fst e)], snd e)) ls) -> exists ls', cs = map (fun e : lit * nat => ([neg (fst e)], snd e)) ls' /\ Permutation.Permutation ls' ls.
Proof. intros P. apply Permutation.Permutation_map_inv in P as (ls' & -> & P). exists ls'. split; [reflexivity|]. now apply Permutation.Permutation_sym. Qed.

Theorem solve_maxsat_ok : forall fuel p w f n, inst_known (o_constrs p) -> obj_wf (o_obj p) -> obj_cls (o_obj p) = [] -> NoDup (map fst (obj_lits (o_obj p))) ->
  to_cnf (o_constrs p) = Some (f, n) -> exact_clauses (inst_lits (o_constrs p)) (i_next (o_constrs p)) n f (fun a => inst_holds a (o_constrs p)) -> incl (i_cnf (o_constrs p)) f ->
  (exists c l, In c (i_cnf (o_constrs p)) /\ In l c) -> (forall x, In x (map fst (obj_lits (o_obj p))) -> exists c l, In c (i_cnf (o_constrs p)) /\ In l c /\ lvar l = lvar x) ->
  match solve_maxsat V E from lord cord to_cnf fuel p w with
  | Done None => forall a, ~ inst_holds a (o_constrs p)
  | Done (Some (sol, cost)) =>
      (forall a, completes a (pasg_of sol) -> inst_holds a (o_constrs p)) /\
      (forall a, inst_holds a (o_constrs p) -> (cost <= obj_value a (o_obj p))%Z) /\
      (no_opposites (obj_lits (o_obj p)) \/ all_valued (obj_lits (o_obj p)) sol ->
       exists a, completes a (pasg_of sol) /\ obj_value a (o_obj p) = cost)
  | Panic => ~ reliable V reps
  | OutOfFuel => fuel < total_weight (obj_lits (o_obj p)) + 2
  end.
Proof.
  intros fuel p w f n Hk Hwf Hcls Hnd Ec (Hnn & Hloc & Hs & Hcomp) Hincl (c0 & l0 & Hc0 & Hl0) Hocc. unfold solve_maxsat, maxsat_input. rewrite Ec. cbn [obind].
  destruct (into_soft_cls_spec lord cord Hord (o_obj p) Hwf) as (cs & z & -> & P & Ez). cbn [obind]. rewrite Hcls, app_nil_r in P. destruct (units_perm _ _ P) as (ls & -> & Pl). rewrite maxsat_units. cbn [obind app].
  pose proof (co_init _ _ C w) as R0. destruct (sv_init V w) as [s0 w0]. cbn [fst] in R0.
  destruct (add_all V s0 f w0) as [[[|] s] w1] eqn:Ea; [|intros Rl; pose proof (add_all_reliable V reps C Rl f _ _ _ w0 R0) as K1; rewrite Ea in K1; discriminate].
  destruct (add_all_ok V reps C _ _ _ _ _ _ _ R0 Ea) as (m & R). cbn [app] in R.
  destruct (K s f m c0 l0 R (Hincl _ Hc0) Hl0) as (mv & Emv & _).
  assert (HT : total_weight ls = total_weight (obj_lits (o_obj p))).
  { clear -Pl. induction Pl; cbn [total_weight]; repeat match goal with x : _ * _ |- _ => destruct x end; cbn [total_weight]; lia. }
  assert (Hval : forall a, obj_value a (o_obj p) = (z + Z.of_nat (wsum a ls))%Z).
  { intros a. unfold obj_value. rewrite Hcls, Ez, <- (wsum_perm' a _ _ Pl). cbn [cls_cost]. lia. }
  assert (Hbelow : forall a a', changes_only (i_next (o_constrs p)) n a a' -> obj_value a' (o_obj p) = obj_value a (o_obj p)).
  { intros a a' Hch. apply value_agree. intros l Hl. unfold obj_vars in Hl. rewrite Hcls in Hl. cbn [map concat] in Hl. rewrite app_nil_r in Hl. destruct (Hocc l Hl) as (c & l' & Hc & Hl' & <-).
    apply Hch. left. apply Hk. now apply (inst_lits_cnf _ c). }
  pose proof (improving_search_ok fuel s f m ls w1 R) as H. 
  assert (H' : match improving_search V E from fuel s ls w1 with Done r => optimal_result ls f r | Panic => ~ reliable V reps | OutOfFuel => fuel < total_weight ls + 2 end).
  { apply H.
    - intros _. congruence.
    - apply (Permutation.Permutation_NoDup (Permutation.Permutation_map fst (Permutation.Permutation_sym Pl)) Hnd).
    - intros x Hx. apply (Permutation.Permutation_in _ Pl) in Hx. split; [destruct x as [l wt]; destruct Hwf as (Hw & _); apply Hw in Hx; cbn; lia|].
      destruct (Hocc (fst x)) as (c & l & Hc & Hl & El); [now apply in_map|]. destruct (K s f m c l R (Hincl _ Hc) Hl) as (v & Ev & Lv). exists v. split; [exact Ev|]. lia. }
  clear H. destruct (improving_search V E from fuel s ls w1) as [[[sol cost]|]| |].
  - pose proof H' as ((E1 & S1) & O1). cbn [fst snd] in *. split; [intros a Ha; apply Hs; now apply S1|]. split.
    + intros a Ha. destruct (Hcomp a Ha) as (a' & Hch & Ha'). rewrite <- (Hbelow a a' Hch), Hval. specialize (O1 a' Ha'). lia.
    + intros Hno. destruct (optimal_attained ls f sol cost H') as (a & A1 & A2 & A3).
      * destruct Hno as [Hno|Hno]; [left|right]; [intros x y Hx Hy; apply Hno; eapply Permutation.Permutation_in; eauto|]. intros x Hx. apply Hno. eapply Permutation.Permutation_in; eauto.
      * exists a. split; [exact A1|]. rewrite Hval, A3. reflexivity.
  - intros a Ha. destruct (Hcomp a Ha) as (a' & _ & Ha'). specialize (H' a'). congruence.
  - exact H'.
  - lia.
Qed.
End SearchTop.

Lemma into_cnf_incl card_enc pb_enc i f n : into_cnf_with_encoders card_enc pb_enc i = Some (f, n) -> incl (i_cnf i) f.
Proof.
  assert (G : forall A (enc : A -> N -> option (cnf * N)) xs st st', foldM (conv_step enc) xs st = Some st' -> incl (fst st) (fst st')).
  { intros A enc. induction xs as [|x xs IH]; intros st st' H; cbn [foldM] in H; [injection H as <-; apply incl_refl|].
    unfold conv_step at 1 in H. destruct (enc x (snd st)) as [[cs n']|]; [|discriminate]. cbn [obind] in H. apply IH in H. cbn [fst] in H. eapply incl_tran; [|exact H]. unfold cnf_extend. apply incl_appl, incl_refl. }
  unfold into_cnf_with_encoders, convert_to_cnf_with_encoders. destruct (foldM _ (i_cards i) _) as [st1|] eqn:E1; [|discriminate]. cbn [obind].
  destruct (foldM _ (i_pbs i) st1) as [st2|] eqn:E2; [|discriminate]. cbn [obind i_cnf i_next]. intros [= <- <-]. apply G in E1, E2. cbn [fst] in E1. eapply incl_tran; eauto.
Qed.
