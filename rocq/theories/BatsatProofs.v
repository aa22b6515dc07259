(** * Proofs about the wrapper of BatSat *)

From Coq Require Import List Bool NArith ZArith Lia Arith ZifyBool ZifyNat ZifyN.
From Verif Require Import Spec Types Base TypesProofs SolverSpec Solver SolverUse SolverProofs Wrappers WrapperSpec WrapperProofs Batsat BatsatSpec.
Import ListNotations.

Lemma blit_true_to a l : blit_true a (to_bat l) = lit_true a l.
Proof. unfold blit_true, to_bat, lit_true. cbn [bl_sign bl_var]. now destruct (lneg l); cbn [negb]; destruct (a (lvar l)). Qed.
Lemma bsat_clause_to a c : bsat_clause a (map to_bat c) = sat_clause a c.
Proof. unfold bsat_clause, sat_clause. induction c as [|l c IH]; cbn [map existsb]; [reflexivity|]. now rewrite blit_true_to, IH. Qed.
Lemma to_bat_inj l l' : to_bat l = to_bat l' -> l = l'.
Proof. destruct l as [v []], l' as [v' []]; cbn; intros H; injection H as H; subst; (reflexivity || discriminate). Qed.
Lemma to_of_bat b : to_bat (of_bat b) = b.
Proof. destruct b as [v []]; reflexivity. Qed.
Lemma below_to n ls : (forall l, In l ls -> (lvar l < n)%N) -> bvars_below n (map to_bat ls).
Proof. intros H l Hl. apply in_map_iff in Hl as (x & <- & Hx). exact (H x Hx). Qed.

Section Proofs.
Context {B W : Type} (A : bapi B W) (R : B -> btst -> Prop).
Hypothesis C : conforming_batsat A R.

Definition cnf_bat (f : cnf) : list (list blit) := map (map to_bat) f.
Lemma bsat_all_to a f n x : bsat_all a (mkBtst (cnf_bat f) n x) <-> sat_cnf a f = true.
Proof.
  unfold bsat_all, cnf_bat. cbn [bt_f]. unfold sat_cnf. rewrite forallb_forall. split; intros H c Hc.
  - rewrite <- bsat_clause_to. apply H. now apply in_map.
  - apply in_map_iff in Hc as (d & <- & Hd). rewrite bsat_clause_to. now apply H.
Qed.

Lemma bat_vars_ok ls : forall b s, R b s -> exists n, R (bat_vars A b ls) (mkBtst (bt_f s) n (bt_ans s)) /\ (bt_n s <= n)%N /\ forall l, In l ls -> (lvar l < n)%N.
Proof.
  induction ls as [|l ls IH]; intros b s H; cbn [bat_vars fold_left].
  - exists (bt_n s). destruct s. split; [exact H|]. split; [cbn; lia|intros l []].
  - apply (cb_var_of_int _ _ C _ _ (lvar l)) in H. destruct (IH _ _ H) as (n & H1 & H2 & H3). cbn [bt_f bt_n bt_ans] in *. exists n. split; [exact H1|]. split; [lia|].
    intros x [<-|Hx]; [lia|auto].
Qed.
Lemma bat_new_vars_ok v n : forall b s, R b s -> n = N.to_nat (v + 1 - bt_n s) -> R (bat_new_vars A n b v) (mkBtst (bt_f s) (N.max (bt_n s) (v + 1)) (bt_ans s)).
Proof.
  induction n as [|n IH]; intros b s H E; cbn [bat_new_vars].
  - replace (N.max (bt_n s) (v + 1)) with (bt_n s) by lia. now destruct s.
  - rewrite (cb_num_vars _ _ C _ _ H). destruct (N.leb_spec (bt_n s) v) as [L|L]; [|lia]. apply (cb_new_var _ _ C) in H. specialize (IH _ _ H). cbn [bt_f bt_n bt_ans] in IH.
    replace (N.max (bt_n s) (v + 1)) with (N.max (bt_n s + 1) (v + 1)) by lia. apply IH. lia.
Qed.

Definition bat_inv (s : bwrap B) (f : cnf) : Prop := exists n x, R (b_b s) (mkBtst (cnf_bat f) n x) /\ (forall c l, In c f -> In l c -> (lvar l < n)%N) /\
  match b_state s with
  | BSatisfied => exists p, x = BtSat p /\ forall a, completes a p -> sat_cnf a f = true
  | BRefuted true => exists ls, x = BtUnsat (map to_bat ls) /\ forall a, sat_cnf a f = true -> sat_cube a ls = false
  | BRefuted false => unsat f
  | BInput => True
  end.
Definition bat_reps (s : bwrap B) (f : cnf) (m : bool) : Prop := bat_inv s f /\ (m = true -> b_state s = BSatisfied).

Lemma bat_models (s : bwrap B) t p g : b_state s = BSatisfied -> R (b_b s) t -> bt_ans t = BtSat p -> (forall a, completes a p -> sat_cnf a g = true) -> models (is_solver (batsat A)) s g.
Proof.
  intros Hs HR Hp Hg. assert (V : forall l, bat_val A s l = Some (plit p l)).
  { intros l. unfold bat_val, plit. rewrite Hs, (cb_value _ _ C _ _ _ _ HR Hp). cbn [to_bat bl_var bl_sign].
    destruct (p (lvar l)) as [[]|]; destruct (lneg l); reflexivity. }
  exists p. split; [exact V|]. split; [|exact Hg]. intros h. apply (default_solution_ok _ _ V).
Qed.

Lemma cube_false a ls : (exists l, In l (map to_bat ls) /\ blit_true a l = false) -> sat_cube a ls = false.
Proof.
  intros (l & Hl & Hf). apply in_map_iff in Hl as (x & <- & Hx). rewrite blit_true_to in Hf. unfold sat_cube. destruct (forallb (lit_true a) ls) eqn:E; [|reflexivity].
  rewrite forallb_forall in E. rewrite (E x Hx) in Hf. discriminate Hf.
Qed.

Lemma bat_ask s f ls w x s' w' : bat_inv s f -> bat_search A s ls w = (x, s', w') ->
  bat_inv s' f /\ (x = RSat -> b_state s' = BSatisfied /\ models (is_solver (batsat A)) s' (f ++ units ls)) /\
  (x = RUnsat -> (forall a, sat_cnf a f = true -> sat_cube a ls = false) /\
    exists core, bat_core A s' = Some core /\ (forall l, In l core -> In (neg l) ls) /\ (ls = [] -> core = []) /\ forall a, sat_cnf a f = true -> sat_clause a core = true).
Proof.
  intros (n & y & HR & Hv & _) E. unfold bat_search in E. destruct (bat_vars_ok ls _ _ HR) as (n1 & HR1 & Hn & Hls). cbn [bt_f bt_n bt_ans] in *.
  assert (Hb : bvars_below n1 (map to_bat ls)) by now apply below_to.
  assert (Hv1 : forall c l, In c f -> In l c -> (lvar l < n1)%N) by (intros c l Hc Hl; specialize (Hv c l Hc Hl); lia).
  destruct (bt_solve A (bat_vars A (b_b s) ls) (map to_bat ls) w) as [[[[]|] b] w1] eqn:Es; injection E as <- <- <-.
  - destruct (cb_sat _ _ C _ _ _ _ _ _ HR1 Hb Es) as (p & Hp & HR2). cbn [bt_f bt_n] in HR2.
    assert (Hf : forall a, completes a p -> sat_cnf a f = true) by (intros a Ha; apply (bsat_all_to a f n1 y); now apply Hp).
    split; [|split; [|discriminate]].
    + exists n1, (BtSat p). split; [exact HR2|]. split; [exact Hv1|]. exists p. auto.
    + intros _. split; [reflexivity|]. apply (bat_models (mkBwrap b BSatisfied (S (b_sat s)) (b_unsat s) (b_term s)) _ p _ eq_refl HR2 eq_refl). intros a Ha. rewrite sat_cnf_app, sat_units, (Hf a Ha). unfold sat_cube. cbn [andb]. apply forallb_forall. intros l Hl.
      rewrite <- blit_true_to. apply (Hp a Ha). now apply in_map.
  - destruct (cb_unsat _ _ C _ _ _ _ _ _ HR1 Hb Es) as (Hu & HR2). cbn [bt_f bt_n] in HR2.
    assert (Hu' : forall a, sat_cnf a f = true -> sat_cube a ls = false) by (intros a Ha; apply cube_false, Hu; now apply bsat_all_to).
    split; [|split; [discriminate|]].
    + exists n1, (BtUnsat (map to_bat ls)). split; [exact HR2|]. split; [exact Hv1|]. cbn [b_state]. destruct ls as [|l ls]; [|exists (l :: ls); auto].
      intros a. destruct (sat_cnf a f) eqn:Ef; [|reflexivity]. specialize (Hu' a Ef). discriminate Hu'.
    + intros _. split; [exact Hu'|]. unfold bat_core. cbn [b_state b_b]. destruct ls as [|l0 ls]; [exists []|exists (map of_bat (bt_core A b))]; (split; [reflexivity|]).
      * split; [intros l []|]. split; [auto|]. intros a Ha. specialize (Hu' a Ha). discriminate Hu'.
      * destruct (cb_core _ _ C _ _ _ HR2 eq_refl) as (K1 & K2). split; [|split; [discriminate|]].
        -- intros l Hl. apply in_map_iff in Hl as (k & <- & Hk). apply K1 in Hk. apply in_map_iff in Hk as (x & Ex & Hx). replace (neg (of_bat k)) with x; [exact Hx|]. apply to_bat_inj. rewrite Ex.
           destruct k as [v []]; reflexivity.
        -- intros a Ha. rewrite <- bsat_clause_to, map_map, (map_ext _ (fun x => x)), map_id by (intros; apply to_of_bat). apply K2. now apply bsat_all_to.
  - apply (cb_undef _ _ C _ _ _ _ _ _ HR1 Hb) in Es. split; [|split; discriminate]. exists n1, BtNone. cbn. auto.
Qed.

Lemma bat_solve_ok s f w x s' w' : bat_inv s f -> bat_solve A s w = (x, s', w') -> exists r, x = Some r /\ bat_inv s' f /\ (r = RSat -> b_state s' = BSatisfied) /\ (r = RUnsat -> unsat f /\ bat_core A s' = Some []).
Proof.
  intros Hi E. unfold bat_solve in E.
  assert (Ask : (let '(r, s1, w1) := bat_search A s [] w in (Some r, s1, w1)) = (x, s', w') -> exists r, x = Some r /\ bat_inv s' f /\ (r = RSat -> b_state s' = BSatisfied) /\ (r = RUnsat -> unsat f /\ bat_core A s' = Some [])).
  { clear E. intros E. destruct (bat_search A s [] w) as [[r s1] w1] eqn:Es. injection E as <- <- <-. destruct (bat_ask _ _ _ _ _ _ _ Hi Es) as (H1 & H2 & H3). exists r. split; [reflexivity|]. split; [exact H1|].
    split; [intros Er; now apply H2|]. intros Er. destruct (H3 Er) as (H4 & core & Hc & _ & H5 & _). rewrite Hc, (H5 eq_refl). split; [|reflexivity].
    intros a. destruct (sat_cnf a f) eqn:Ef; [|reflexivity]. specialize (H4 a Ef). discriminate H4. }
  destruct (b_state s) as [| |[]] eqn:Est; try exact (Ask E); injection E as <- <- <-.
  - exists RSat. split; [reflexivity|]. split; [exact Hi|]. split; [auto|discriminate].
  - exists RUnsat. split; [reflexivity|]. split; [exact Hi|]. split; [discriminate|]. intros _. unfold bat_core. rewrite Est. split; [|reflexivity]. destruct Hi as (? & ? & _ & _ & Hs). now rewrite Est in Hs.
Qed.

Lemma bat_add_ok s f c w s' w' : bat_inv s f -> bat_add A s c w = (true, s', w') -> bat_inv s' (f ++ [c]) /\ b_state s' = BInput.
Proof.
  intros (n & x & HR & Hv & _) E. injection E as <- <-. split; [|reflexivity]. destruct (bat_vars_ok c _ _ HR) as (n1 & HR1 & Hn & Hc). cbn [bt_f bt_n bt_ans] in *.
  apply (cb_add _ _ C _ _ (map to_bat c)) in HR1; [|cbn; now apply below_to]. cbn [bt_f bt_n] in HR1. exists n1, BtNone. cbn [b_b b_state]. split; [unfold cnf_bat; rewrite map_app; exact HR1|]. split; [|exact Logic.I].
  intros d l Hd Hl. apply in_app_or in Hd as [Hd|[<-|[]]]; [specialize (Hv d l Hd Hl); lia|auto].
Qed.

Theorem batsat_correct : correct_inc (batsat A) (models (is_solver (batsat A))) bat_reps /\ knows_vars (is_solver (batsat A)) bat_reps.
Proof.
  split.
  - constructor; unfold bat_reps; cbn [batsat is_solver is_assumps is_core sv_init sv_add sv_solve].
    + intros w. cbn. split; [|discriminate]. exists 0%N, BtNone. split; [exact (cb_init _ _ C)|]. split; [intros c l []|exact Logic.I].
    + intros s f m c w s' w' [Hi _] E. destruct (bat_add_ok _ _ _ _ _ _ Hi E). split; [assumption|discriminate].
    + intros s f m w s' w' [Hi _] E. destruct (bat_solve_ok _ _ _ _ _ _ Hi E) as (r & Er & H1 & H2 & _). injection Er as <-. auto.
    + intros s f m w s' w' [Hi _] E. destruct (bat_solve_ok _ _ _ _ _ _ Hi E) as (r & Er & H1 & _ & H3). injection Er as <-. destruct (H3 eq_refl). split; [split; [exact H1|discriminate]|]. auto.
    + intros s f m w s' w' [Hi _] E. destruct (bat_solve_ok _ _ _ _ _ _ Hi E) as (r & Er & H1 & _). split; [exact H1|discriminate].
    + intros s f m ls w s' w' [Hi _] E. unfold bat_solve_assumps in E. destruct (bat_search A s ls w) as [[r s1] w1] eqn:Es. injection E as -> <- <-. destruct (bat_ask _ _ _ _ _ _ _ Hi Es) as (H1 & H2 & _). destruct (H2 eq_refl). auto.
    + intros s f m ls w s' w' [Hi _] E. unfold bat_solve_assumps in E. destruct (bat_search A s ls w) as [[r s1] w1] eqn:Es. injection E as -> <- <-. destruct (bat_ask _ _ _ _ _ _ _ Hi Es) as (H1 & _ & H3).
      destruct (H3 eq_refl) as (H4 & core & H5 & H6 & _ & H7). split; [split; [exact H1|discriminate]|]. split; [exact H4|]. exists core. auto.
    + intros s f m ls w s' w' [Hi _] E. unfold bat_solve_assumps in E. destruct (bat_search A s ls w) as [[r s1] w1] eqn:Es. injection E as -> <- <-. destruct (bat_ask _ _ _ _ _ _ _ Hi Es) as (H1 & _). split; [exact H1|discriminate].
    + intros s f [(n & x & HR & _ & Hs) Hst]. specialize (Hst eq_refl). rewrite Hst in Hs. destruct Hs as (p & -> & Hp). now apply (bat_models s _ p f Hst HR).
  - intros s f m c l [(n & x & HR & Hv & _) _] Hc Hl. cbn [batsat is_solver sv_max_var]. unfold bat_max_var. rewrite (cb_num_vars _ _ C _ _ HR). cbn [bt_n].
    specialize (Hv c l Hc Hl). destruct (N.ltb_spec 0 n) as [L|L]; [|lia]. eexists. split; [reflexivity|]. lia.
Qed.

(** no call fails, whatever was called before *)
Lemma bat_reserve_ok s f v : bat_inv s f -> bat_inv (bat_reserve A s v) f /\ b_state (bat_reserve A s v) = b_state s /\
  exists h, bat_max_var A (bat_reserve A s v) = Some h /\ (v <= h)%N.
Proof.
  intros (n & x & HR & Hv & Hs). unfold bat_reserve. rewrite (cb_num_vars _ _ C _ _ HR). cbn [bt_n].
  pose proof (bat_new_vars_ok v _ _ _ HR eq_refl) as H. cbn [bt_f bt_n bt_ans] in H. split; [|split; [reflexivity|]].
  - exists (N.max n (v + 1)), x. split; [exact H|]. split; [|exact Hs]. intros c l Hc Hl. specialize (Hv c l Hc Hl). lia.
  - unfold bat_max_var. cbn [b_b]. rewrite (cb_num_vars _ _ C _ _ H). cbn [bt_n]. destruct (N.ltb_spec 0 (N.max n (v + 1))); [|lia]. eexists. split; [reflexivity|]. lia.
Qed.

Lemma count_app r l x : count_res r (l ++ [x]) = count_res r l + (if is_res r x then 1 else 0).
Proof. unfold count_res. rewrite filter_app, app_length. cbn [filter]. now destruct (is_res r x). Qed.
Lemma search_counts s ls w r s' w' : bat_search A s ls w = (r, s', w') ->
  b_sat s' = b_sat s + (if is_res RSat r then 1 else 0) /\ b_unsat s' = b_unsat s + (if is_res RUnsat r then 1 else 0) /\ b_term s' = b_term s + (if is_res RInterrupted r then 1 else 0).
Proof. unfold bat_search. destruct (bt_solve _ _ _ _) as [[[[]|] b] w1]; intros E; injection E as <- <- <-; cbn; lia. Qed.
Definition above (vs : list N) : N := fold_right (fun v m => N.max (v + 1) m) 0%N vs.
Lemma above_app vs us : above (vs ++ us) = N.max (above vs) (above us).
Proof. unfold above. induction vs as [|v vs IH]; cbn [app fold_right]; [lia|]. rewrite IH. lia. Qed.
Lemma above_largest vs : largest vs (if (0 <? above vs)%N then Some (above vs - 1)%N else None).
Proof.
  assert (G : forall u, In u vs -> (u < above vs)%N).
  { unfold above. induction vs as [|v vs IH]; intros u []; cbn [fold_right]; [lia|]. specialize (IH u H). lia. }
  assert (I : (0 < above vs)%N -> In (above vs - 1)%N vs).
  { clear G. unfold above. induction vs as [|v vs IH]; cbn [fold_right]; [lia|]. intros _. destruct (N.max_spec (v + 1) (fold_right (fun v m => N.max (v + 1) m) 0%N vs)) as [[H ->]|[H ->]].
    - right. apply IH. lia.
    - left. lia. }
  destruct (N.ltb_spec 0 (above vs)) as [L|L]; cbn [largest].
  - split; [now apply I|]. intros u Hu. specialize (G u Hu). lia.
  - destruct vs as [|v vs]; [reflexivity|]. specialize (G v (or_introl eq_refl)). lia.
Qed.
Lemma bat_vars_n ls : forall b n, (exists f x, R b (mkBtst f n x)) -> exists f x, R (bat_vars A b ls) (mkBtst f (N.max n (above (map lvar ls))) x).
Proof.
  unfold above. induction ls as [|l ls IH]; intros b n (f & x & H); cbn [bat_vars fold_left map fold_right]; [exists f, x; now rewrite N.max_0_r|].
  apply (cb_var_of_int _ _ C _ _ (lvar l)) in H. cbn [bt_f bt_n bt_ans] in H. destruct (IH _ _ (ex_intro _ f (ex_intro _ x H))) as (g & y & K). exists g, y. now rewrite N.max_assoc.
Qed.
Lemma bat_num b n f x : R b (mkBtst f n x) -> bt_num_vars A b = n.
Proof. intros H. now rewrite (cb_num_vars _ _ C _ _ H). Qed.
Lemma search_num s f n x ls w r s' w' : R (b_b s) (mkBtst f n x) -> bat_search A s ls w = (r, s', w') -> exists y, R (b_b s') (mkBtst f (N.max n (above (map lvar ls))) y).
Proof.
  intros H E. destruct (bat_vars_ok ls _ _ H) as (n1 & HR & _ & Hl). cbn [bt_f bt_n bt_ans] in HR. destruct (bat_vars_n ls _ _ (ex_intro _ f (ex_intro _ x H))) as (g & y & K).
  assert (n1 = N.max n (above (map lvar ls))) as <- by (rewrite <- (bat_num _ _ _ _ HR); exact (bat_num _ _ _ _ K)).
  assert (Hb : bvars_below n1 (map to_bat ls)) by now apply below_to. unfold bat_search in E.
  destruct (bt_solve A (bat_vars A (b_b s) ls) (map to_bat ls) w) as [[[[]|] b] w1] eqn:Es; injection E as <- <- <-; cbn [b_b].
  - destruct (cb_sat _ _ C _ _ _ _ _ _ HR Hb Es) as (p & _ & K'). eexists. exact K'.
  - destruct (cb_unsat _ _ C _ _ _ _ _ _ HR Hb Es) as (_ & K'). eexists. exact K'.
  - apply (cb_undef _ _ C _ _ _ _ _ _ HR Hb) in Es. eexists. exact Es.
Qed.
Theorem bhistory_ok s f log vs : bhistory A s f log vs -> bat_inv s f /\ b_sat s = count_res RSat log /\ b_unsat s = count_res RUnsat log /\ b_term s = count_res RInterrupted log /\ bt_num_vars A (b_b s) = above vs.
Proof.
  induction 1 as [w|s f log vs c w s' w' H (I & C1 & C2 & C3 & C4) E|s f log vs v H (I & C1 & C2 & C3 & C4)|s f log vs w r s' w' H (I & C1 & C2 & C3 & C4) K E|s f log vs w r s' w' H (I & C1 & C2 & C3 & C4) K E|s f log vs ls w r s' w' H (I & C1 & C2 & C3 & C4) E].
  - split; [|do 3 (split; [reflexivity|]); exact (bat_num _ _ _ _ (cb_init _ _ C))]. exists 0%N, BtNone. split; [exact (cb_init _ _ C)|]. split; [intros c l []|exact Logic.I].
  - split; [now apply (bat_add_ok _ _ _ _ _ _ I E)|]. injection E as <- <-. do 3 (split; [assumption|]). cbn [b_b]. destruct I as (n & x & HR & _).
    destruct (bat_vars_ok c _ _ HR) as (n1 & HR1 & _ & Hc). destruct (bat_vars_n c _ _ (ex_intro _ _ (ex_intro _ x HR))) as (g & y & K). pose proof (bat_num _ _ _ _ K) as N1. rewrite (bat_num _ _ _ _ HR1) in N1.
    apply (cb_add _ _ C _ _ (map to_bat c)) in HR1; [|cbn [bt_n]; now apply below_to]. rewrite (bat_num _ _ _ _ HR1), above_app, <- C4, (bat_num _ _ _ _ HR). exact N1.
  - split; [now apply bat_reserve_ok|]. do 3 (split; [assumption|]). destruct I as (n & x & HR & _). unfold bat_reserve. rewrite (cb_num_vars _ _ C _ _ HR). cbn [bt_n b_b].
    pose proof (bat_num _ _ _ _ (bat_new_vars_ok v _ _ _ HR eq_refl)) as N1. cbn [bt_n] in N1. rewrite N1, above_app, <- C4, (bat_num _ _ _ _ HR). unfold above. cbn [fold_right]. lia.
  - destruct (bat_solve_ok _ _ _ _ _ _ I E) as (q & _ & I' & _). split; [exact I'|]. unfold bat_solve in E. destruct K as [K|K]; rewrite K in E; injection E as <- <- <-; auto.
  - destruct (bat_solve_ok _ _ _ _ _ _ I E) as (q & _ & I' & _). split; [exact I'|]. unfold bat_solve in E.
    assert (E' : (let '(r, s1, w1) := bat_search A s [] w in (Some r, s1, w1)) = (Some r, s', w')) by (destruct (b_state s) as [| |[]] eqn:Es; try exact E; exfalso; apply K; unfold known; auto).
    clear E. destruct (bat_search A s [] w) as [[r1 s1] w1] eqn:Es. injection E' as -> <- <-. destruct I as (n & x & HR & _). destruct (search_num _ _ _ _ _ _ _ _ _ HR Es) as (y & K').
    rewrite (bat_num _ _ _ _ K'), <- C4, (bat_num _ _ _ _ HR). apply search_counts in Es. rewrite !count_app. unfold above at 1. cbn [map fold_right]. lia.
  - unfold bat_solve_assumps in E. destruct (bat_search A s ls w) as [[r1 s1] w1] eqn:Es. injection E as -> <- <-. split; [now apply (bat_ask _ _ _ _ _ _ _ I Es)|].
    destruct I as (n & x & HR & _). destruct (search_num _ _ _ _ _ _ _ _ _ HR Es) as (y & K'). rewrite (bat_num _ _ _ _ K'), above_app, <- C4, (bat_num _ _ _ _ HR). apply search_counts in Es. rewrite !count_app. lia.
Qed.
End Proofs.
