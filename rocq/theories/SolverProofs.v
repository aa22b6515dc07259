(** * Proofs about the incremental simulator and the external solver *)

From Coq Require Import List Bool NArith Lia Arith ZifyBool ZifyNat ZifyN.
From Verif Require Import Spec Types Base TypesProofs SolverSpec Solver SolverUse.
Import ListNotations.

Lemma sat_units a ls : sat_cnf a (units ls) = sat_cube a ls.
Proof. unfold sat_cnf, units, sat_cube. induction ls as [|l ls IH]; [reflexivity|]. cbn [map forallb sat_clause existsb]. rewrite IH, orb_false_r. reflexivity. Qed.

Lemma update_max_var_ge m c : exists v, update_max_var m c = Some v /\ (forall l, In l c -> (lvar l <= v)%N) /\ (forall u, m = Some u -> (u <= v)%N).
Proof.
  unfold update_max_var. eexists. split; [reflexivity|].
  assert (G : forall c u, (u <= fold_left (fun v l => N.max v (lvar l)) c u)%N /\ forall l, In l c -> (lvar l <= fold_left (fun v l => N.max v (lvar l)) c u)%N).
  { induction c0 as [|x c0 IH]; intros u; cbn [fold_left]; [split; [lia|intros l []]|]. destruct (IH (N.max u (lvar x))) as [H1 H2]. split; [lia|]. intros l [->|H]; [lia|auto]. }
  split; [apply G|]. intros u ->. apply G.
Qed.
Lemma update_max_var_ge' m c v : update_max_var m c = Some v -> (forall l, In l c -> (lvar l <= v)%N) /\ (forall u, m = Some u -> (u <= v)%N).
Proof. intros E. destruct (update_max_var_ge m c) as (v' & E' & H). rewrite E in E'. injection E' as <-. exact H. Qed.

(** ** The default [solution] *)
Lemma collect_vals_spec val p n : (forall l, val l = Some (plit p l)) -> forall idx, exists sol, collect_vals val n idx = Some sol /\ length sol = n /\
  forall k, k < n -> nth k sol TDontCare = plit p (pos (idx + N.of_nat k)).
Proof.
  intros H. induction n as [|n IH]; intros idx; cbn [collect_vals]; [exists []; repeat split; auto; intros; lia|].
  rewrite H. destruct (IH (idx + 1)%N) as (sol & -> & L & K). eexists. split; [reflexivity|]. split; [cbn; lia|].
  intros [|k] Hk; cbn [nth]; [f_equal; f_equal; lia|]. rewrite K by lia. f_equal. f_equal. lia.
Qed.
Lemma plit_pos p v : match plit p (pos v) with TTrue => Some true | TFalse => Some false | TDontCare => None end = p v.
Proof. unfold plit, pos. cbn [lvar lneg]. destruct (p v) as [[|]|]; reflexivity. Qed.
Lemma default_solution_ok val p : (forall l, val l = Some (plit p l)) ->
  forall h, exists sol, default_solution val h = Some sol /\ forall v, pasg_of sol v = if (v <=? h)%N then p v else None.
Proof.
  intros H h. destruct (collect_vals_spec val p (N.to_nat (h + 1)) H 0) as (sol & E & L & K). exists sol. split; [exact E|].
  intros v. unfold pasg_of. rewrite var_value_nth. unfold vidx. destruct (N.leb_spec v h).
  - rewrite K by lia. rewrite <- plit_pos. replace (0 + N.of_nat (N.to_nat v))%N with v by lia. reflexivity.
  - rewrite nth_overflow by lia. reflexivity.
Qed.

Section Inc.
Context {S W : Type} (V : solver S W) (reps : S -> cnf -> bool -> Prop).
Notation inc := (inc S).

Section Correct.
Hypothesis C : correct V reps.

Lemma add_all_ok g : forall s f m w s' w', reps s f m -> add_all V s g w = (true, s', w') -> exists m', reps s' (f ++ g) m'.
Proof.
  induction g as [|c g IH]; intros s f m w s' w' R E; cbn [add_all] in E; [injection E as <- <-; rewrite app_nil_r; eauto|].
  destruct (sv_add V s c w) as [[[|] s1] w1] eqn:Ea; [|discriminate]. replace (f ++ c :: g) with ((f ++ [c]) ++ g) by (rewrite <- app_assoc; reflexivity).
  eapply IH; [|exact E]. eapply (co_add _ _ C); eauto.
Qed.
Lemma reload_ok (i : inc) w s w' : reload V i w = (true, s, w') -> exists m, reps s (in_clauses i) m.
Proof.
  unfold reload. pose proof (co_init _ _ C w) as R0. destruct (sv_init V w) as [s0 w0]. cbn [fst] in R0. intros E. apply (add_all_ok _ _ [] false _ _ _ R0) in E. exact E.
Qed.

(** the invariant; [lost] if the values may be gone *)
Definition inc_inv (lost : bool) (i : inc) (f : cnf) : Prop :=
  in_clauses i = f /\
  (forall c l, In c f -> In l c -> exists v, in_max i = Some v /\ (lvar l <= v)%N) /\
  match in_state i with
  | IInit => exists m, reps (in_solver i) f m
  | ISat => (exists a, sat_cnf a f = true) /\ (lost = false -> exists g, reps (in_solver i) (f ++ g) true)
  | IUnsat core => forall a, sat_cnf a f = true -> sat_clause a core = true
  | IUnknown => True
  end.
Definition inc_reps (i : inc) (f : cnf) (m : bool) : Prop := inc_inv false i f /\ (m = true -> in_state i = ISat).

Lemma models_app s f g : models V s (f ++ g) -> models V s f.
Proof. intros (p & H1 & H2 & H3). exists p. split; [auto|]. split; [auto|]. intros a Ha. apply H3 in Ha. rewrite sat_cnf_app in Ha. apply andb_prop in Ha. tauto. Qed.
Lemma models_sat s f : models V s f -> exists a, sat_cnf a f = true.
Proof.
  intros (p & _ & _ & H). exists (fun v => match p v with Some b => b | None => false end). apply H. intros v b E. rewrite E. reflexivity.
Qed.
Lemma models_inc (i : inc) f : models V (in_solver i) f -> models (incremental V) i f.
Proof. intros H. exact H. Qed.

Lemma inv_init w : inc_inv false (fst (inc_init V w)) [].
Proof.
  unfold inc_init. pose proof (co_init _ _ C w) as R. destruct (sv_init V w) as [s w']. cbn [fst] in *. split; [reflexivity|]. split; [intros c l []|]. cbn [in_state in_solver]. eauto.
Qed.

Lemma inv_add lost (i : inc) f c w i' w' : inc_inv lost i f -> inc_add V i c w = (true, i', w') -> inc_inv false i' (f ++ [c]) /\ in_state i' = IInit.
Proof.
  intros (H1 & H2 & H3). unfold inc_add. cbn [in_state in_solver in_clauses in_max in_n_clauses in_n_sat in_n_unsat in_n_terminated].
  set (i0 := mkInc _ _ _ _ _ _ _ _). set (ld := match in_state i with IInit => _ | _ => _ end).
  assert (Hld : forall s w1, ld = (true, s, w1) -> exists m, reps s f m).
  { intros s w1. unfold ld. destruct (in_state i) eqn:Es; intros E; try (apply reload_ok in E; unfold i0 in E; cbn [in_clauses] in E; rewrite H1 in E; exact E).
    injection E as <- <-. exact H3. }
  clearbody ld. destruct ld as [[[|] s] w1]; [|discriminate]. destruct (Hld s w1 eq_refl) as (m & R).
  destruct (sv_add V s c w1) as [[ok s'] w2] eqn:Ea. intros [= -> <- <-]. split; [|reflexivity]. split; [cbn [in_clauses]; now rewrite H1|]. split.
  - cbn [in_max]. intros c0 l Hc Hl. destruct (update_max_var_ge (in_max i) c) as (v & -> & G1 & G2). exists v. split; [reflexivity|].
    apply in_app_or in Hc as [Hc|[<-|[]]]; [|auto]. destruct (H2 c0 l Hc Hl) as (u & Eu & Hu). apply G2 in Eu. lia.
  - cbn [in_state in_solver]. exists false. eapply (co_add _ _ C); eauto.
Qed.

(** what the answer of the inner solver means *)
Lemma inv_answer lost lost' (i : inc) f g s m core w r i' w' :
  inc_inv lost i f -> reps s (f ++ g) m -> (forall a, sat_cnf a f = true -> sat_cnf a g = false -> sat_clause a core = true) ->
  solve_inner V i s core w = (Some r, i', w') ->
  inc_inv lost' i' f /\ in_state i' <> IInit /\
  (r = RSat -> models (incremental V) i' (f ++ g)) /\
  (r = RUnsat -> unsat (f ++ g) /\ inc_core i' = Some core).
Proof.
  intros (H1 & H2 & H3) R Hc. unfold solve_inner. destruct (sv_solve V s w) as [[[r0|] s'] w1] eqn:E; [|discriminate]. intros [= -> <- <-].
  destruct r; cbn [record_answer].
  - pose proof (co_sat _ _ C _ _ _ _ _ _ R E) as R'. pose proof (co_models _ _ C _ _ R') as M. split.
    + split; [exact H1|]. split; [exact H2|]. cbn [in_state in_solver]. split; [|eauto]. apply models_app in M. exact (models_sat _ _ M).
    + split; [discriminate|]. split; [intros _; exact M|discriminate].
  - destruct (co_unsat _ _ C _ _ _ _ _ _ R E) as (R' & U). split.
    + split; [exact H1|]. split; [exact H2|]. cbn [in_state]. intros a Ha. apply Hc; [auto|]. specialize (U a). rewrite sat_cnf_app, Ha in U. exact U.
    + split; [discriminate|]. split; [discriminate|]. intros _. split; [exact U|reflexivity].
  - split; [split; [exact H1|split; [exact H2|exact I]]|]. split; [discriminate|]. split; discriminate.
Qed.

Lemma inv_solve lost (i : inc) f w r i' w' : inc_inv lost i f -> inc_solve V i w = (Some r, i', w') ->
  inc_inv lost i' f /\ in_state i' <> IInit /\
  (r = RSat -> (exists a, sat_cnf a f = true) /\ (lost = false -> models (incremental V) i' f) /\ in_state i' = ISat) /\
  (r = RUnsat -> unsat f /\ inc_core i' = Some []).
Proof.
  intros I. pose proof I as (H1 & H2 & H3). unfold inc_solve.
  assert (Hgo : forall s m w1, reps s f m -> solve_inner V i s [] w1 = (Some r, i', w') ->
    inc_inv lost i' f /\ in_state i' <> IInit /\
    (r = RSat -> (exists a, sat_cnf a f = true) /\ (lost = false -> models (incremental V) i' f) /\ in_state i' = ISat) /\ (r = RUnsat -> unsat f /\ inc_core i' = Some [])).
  { intros s m w1 R E. assert (Hc : forall a, sat_cnf a f = true -> sat_cnf a [] = false -> sat_clause a [] = true) by discriminate.
    assert (R' : reps s (f ++ []) m) by (rewrite app_nil_r; exact R).
    destruct (inv_answer _ lost _ _ _ _ _ _ _ _ _ _ I R' Hc E) as (I' & Hs & Ms & Us). rewrite app_nil_r in *. split; [exact I'|]. split; [exact Hs|]. split; [|exact Us].
    intros ->. split; [apply models_sat with (s := in_solver i'); now apply Ms|]. split; [intros _; now apply Ms|].
    unfold solve_inner in E. destruct (sv_solve V s w1) as [[[r0|] s'] w2]; [|discriminate]. injection E as -> <- <-. reflexivity. }
  destruct (in_state i) as [| |core|] eqn:Es.
  - destruct H3 as (m & R). intros E. exact (Hgo _ _ _ R E).
  - intros [= <- <- <-]. split; [exact I|]. split; [rewrite Es; discriminate|]. split; [|discriminate]. intros _. destruct H3 as (A & B). split; [exact A|]. split; [|exact Es].
    intros L. destruct (B L) as (g & R). apply (models_app _ _ g). now apply (co_models _ _ C).
  - destruct core as [|l core].
    + intros [= <- <- <-]. split; [exact I|]. split; [rewrite Es; discriminate|]. split; [discriminate|]. intros _. split; [|unfold inc_core; now rewrite Es].
      intros a. destruct (sat_cnf a f) eqn:Ea; [|reflexivity]. apply H3 in Ea. discriminate.
    + destruct (reload V i w) as [[[|] s] w1] eqn:El; [|discriminate]. intros E. apply reload_ok in El as (m & R). rewrite H1 in R. exact (Hgo _ _ _ R E).
  - destruct (reload V i w) as [[[|] s] w1] eqn:El; [|discriminate]. intros E. apply reload_ok in El as (m & R). rewrite H1 in R. exact (Hgo _ _ _ R E).
Qed.

Lemma inv_assumps lost (i : inc) f ls w r i' w' : inc_inv lost i f -> inc_solve_assumps V i ls w = (Some r, i', w') ->
  inc_inv false i' f /\ in_state i' <> IInit /\
  (r = RSat -> models (incremental V) i' (f ++ units ls)) /\
  (r = RUnsat -> unsat (f ++ units ls) /\ inc_core i' = Some (map neg ls)).
Proof.
  intros I. pose proof I as (H1 & H2 & H3). unfold inc_solve_assumps. set (ld := match in_state i with IInit => _ | _ => _ end).
  assert (Hld : forall s w1, ld = (true, s, w1) -> exists m, reps s f m).
  { intros s w1. unfold ld. destruct (in_state i) eqn:Es; intros E; try (apply reload_ok in E; rewrite H1 in E; exact E). injection E as <- <-. exact H3. }
  clearbody ld. destruct ld as [[[|] s] w1]; [|discriminate]. destruct (Hld s w1 eq_refl) as (m & R).
  fold (units ls). destruct (add_all V s (units ls) w1) as [[[|] s'] w2] eqn:Ea; [|discriminate]. intros E. destruct (add_all_ok _ _ _ _ _ _ _ R Ea) as (m' & R').
  refine (inv_answer _ false _ _ _ _ _ _ _ _ _ _ I R' _ E).
  intros a _ Hu. rewrite sat_units in Hu. apply existsb_exists. unfold sat_cube in Hu. clear -Hu. induction ls as [|l ls IH]; [discriminate|]. cbn [forallb] in Hu.
  destruct (lit_true a l) eqn:El; [destruct (IH Hu) as (x & H1 & H2); exists x; split; [right; auto|auto]|]. exists (neg l). split; [left; reflexivity|].
  unfold lit_true, neg in *. cbn. destruct (lneg l), (a (lvar l)); cbn in *; congruence.
Qed.

Theorem incremental_correct : correct (incremental V) inc_reps.
Proof.
  constructor.
  - intros w. split; [apply inv_init|discriminate].
  - intros s f m c w s' w' (I & _) E. destruct (inv_add _ _ _ _ _ _ _ I E) as (I' & _). split; [exact I'|discriminate].
  - intros s f m w s' w' (I & _) E. destruct (inv_solve _ _ _ _ _ _ _ I E) as (I' & _ & H & _). split; [exact I'|]. intros _. now apply H.
  - intros s f m w s' w' (I & _) E. destruct (inv_solve _ _ _ _ _ _ _ I E) as (I' & _ & _ & H). split; [split; [exact I'|discriminate]|]. now apply H.
  - intros s f m w s' w' (I & _) E. destruct (inv_solve _ _ _ _ _ _ _ I E) as (I' & _). split; [exact I'|discriminate].
  - intros s f ((H1 & H2 & H3) & Hm). rewrite (Hm eq_refl) in H3. destruct H3 as (_ & H3). destruct (H3 eq_refl) as (g & R).
    apply models_inc. apply (models_app _ _ g). now apply (co_models _ _ C).
Qed.
Theorem incremental_knows : knows_vars (incremental V) inc_reps.
Proof. intros s f m c l ((_ & H & _) & _) Hc Hl. exact (H c l Hc Hl). Qed.

(** reliable even if the inner solver can only be asked once *)
Section OneShot.
Variable fresh : S -> cnf -> Prop.
Hypothesis F : one_shot V fresh.
Definition inc_reps1 (i : inc) (f : cnf) (m : bool) : Prop := inc_reps i f m /\ (in_state i = IInit -> fresh (in_solver i) f).

Lemma fresh_all g : forall s f w, fresh s f -> fst (fst (add_all V s g w)) = true /\ fresh (snd (fst (add_all V s g w))) (f ++ g).
Proof.
  destruct F as (_ & A & _). induction g as [|c g IH]; intros s f w R; [rewrite app_nil_r; split; [reflexivity|exact R]|]. cbn [add_all]. destruct (A s f c w R) as (Ea & R').
  destruct (sv_add V s c w) as [[ok s1] w1]. cbn [fst snd] in *. subst ok. replace (f ++ c :: g) with ((f ++ [c]) ++ g) by (rewrite <- app_assoc; reflexivity). now apply IH.
Qed.
Lemma fresh_reload (i : inc) w : fst (fst (reload V i w)) = true /\ fresh (snd (fst (reload V i w))) (in_clauses i).
Proof. unfold reload. pose proof (proj1 F w) as R0. destruct (sv_init V w) as [s0 w0]. exact (fresh_all (in_clauses i) s0 [] w0 R0). Qed.
Lemma fresh_inner (i : inc) s f core w : fresh s f -> fst (fst (solve_inner V i s core w)) = Some RSat \/ fst (fst (solve_inner V i s core w)) = Some RUnsat.
Proof.
  intros R. destruct F as (_ & _ & B). unfold solve_inner. destruct (B s f w R) as [H|H]; destruct (sv_solve V s w) as [[r s1] w2]; cbn in H; subst r; cbn; auto.
Qed.
Lemma fresh_add (i : inc) c w : (in_state i = IInit -> fresh (in_solver i) (in_clauses i)) ->
  fst (fst (inc_add V i c w)) = true /\ fresh (in_solver (snd (fst (inc_add V i c w)))) (in_clauses i ++ [c]).
Proof.
  intros Hf. unfold inc_add. cbn [in_state in_solver in_clauses in_max in_n_clauses in_n_sat in_n_unsat in_n_terminated]. set (i0 := mkInc _ _ _ _ _ _ _ _).
  destruct (fresh_reload i0 w) as (R1 & R2). unfold i0 in R2 at 2. cbn [in_clauses] in R2. destruct (reload V i0 w) as [[ok s] w1]. cbn [fst snd] in *. subst ok.
  assert (Hgo : forall s w1, fresh s (in_clauses i) -> let r := match sv_add V s c w1 with (ok, s, w') => (ok, mkInc s IInit (if ok then in_clauses i ++ [c] else in_clauses i) (update_max_var (in_max i) c) (in_n_clauses i + 1) (in_n_sat i) (in_n_unsat i) (in_n_terminated i), w') end in
    fst (fst r) = true /\ fresh (in_solver (snd (fst r))) (in_clauses i ++ [c])).
  { intros s0 w0 H. destruct (proj1 (proj2 F) s0 _ c w0 H) as (E1 & E2). destruct (sv_add V s0 c w0) as [[ok s1] w2]. exact (conj E1 E2). }
  destruct (in_state i); try exact (Hgo _ _ R2). exact (Hgo _ _ (Hf eq_refl)).
Qed.
Theorem incremental_reliable : reliable (incremental V) inc_reps1.
Proof.
  split.
  - intros i f m c w (((<- & _) & _) & Hf). now apply fresh_add.
  - intros i f m w (((H1 & H2 & H3) & _) & Hf). cbn [incremental sv_solve]. unfold inc_solve.
    assert (Hre : forall w, fst (fst (match reload V i w with (true, s, w') => solve_inner V i s [] w' | (false, s, w') => (None, with_solver i s, w') end)) = Some RSat \/
                            fst (fst (match reload V i w with (true, s, w') => solve_inner V i s [] w' | (false, s, w') => (None, with_solver i s, w') end)) = Some RUnsat).
    { intros w0. destruct (fresh_reload i w0) as (R1 & R2). destruct (reload V i w0) as [[ok s] w1]. cbn [fst snd] in *. subst ok. eapply fresh_inner; exact R2. }
    destruct (in_state i) as [| |[|l core]|]; [|left; reflexivity|right; reflexivity|apply Hre|apply Hre]. eapply fresh_inner. now apply Hf.
Qed.
Theorem incremental_assumps_reliable : forall i f m ls w, inc_reps1 i f m ->
  fst (fst (inc_solve_assumps V i ls w)) = Some RSat \/ fst (fst (inc_solve_assumps V i ls w)) = Some RUnsat.
Proof.
  intros i f m ls w (((H1 & H2 & H3) & _) & Hf). unfold inc_solve_assumps.
  assert (Hgo : forall s w1, fresh s f -> let r := match add_all V s (map (fun l => [l]) ls) w1 with (false, s', w'') => (None, with_solver i s', w'') | (true, s', w'') => solve_inner V i s' (map neg ls) w'' end in
    fst (fst r) = Some RSat \/ fst (fst r) = Some RUnsat).
  { intros s w1 R. destruct (fresh_all (map (fun l => [l]) ls) s f w1 R) as (E1 & E2). destruct (add_all V s _ w1) as [[ok s1] w2]. cbn [fst snd] in *. subst ok. cbv zeta. eapply fresh_inner; exact E2. }
  destruct (fresh_reload i w) as (R1 & R2). rewrite H1 in R2. destruct (reload V i w) as [[ok s] w1]. cbn [fst snd] in *. subst ok.
  destruct (in_state i); try exact (Hgo _ _ R2). apply Hgo. now apply Hf.
Qed.
Theorem incremental_correct1 : correct (incremental V) inc_reps1.
Proof.
  pose proof incremental_correct as C1. 
  assert (Hs : forall s f m w r s' w', inc_reps1 s f m -> inc_solve V s w = (Some r, s', w') -> in_state s' <> IInit).
  { intros s f m w r s' w' ((I & _) & _) E. now destruct (inv_solve _ _ _ _ _ _ _ I E) as (_ & H & _). }
  constructor.
  - intros w. split; [apply (co_init _ _ C1)|]. intros _. cbn [incremental sv_init]. unfold inc_init. pose proof (proj1 F w) as R0. destruct (sv_init V w). exact R0.
  - intros s f m c w s' w' R E. split; [exact (co_add _ _ C1 _ _ _ _ _ _ _ (proj1 R) E)|]. intros _. destruct R as (((<- & _) & _) & Hf).
    destruct (fresh_add s c w Hf) as (_ & H). cbn [incremental sv_add] in E. rewrite E in H. exact H.
  - intros s f m w s' w' R E. split; [exact (co_sat _ _ C1 _ _ _ _ _ _ (proj1 R) E)|]. intros Hi. destruct (Hs _ _ _ _ _ _ _ R E Hi).
  - intros s f m w s' w' R E. destruct (co_unsat _ _ C1 _ _ _ _ _ _ (proj1 R) E) as (H1 & H2). split; [split; [exact H1|]|exact H2]. intros Hi. destruct (Hs _ _ _ _ _ _ _ R E Hi).
  - intros s f m w s' w' R E. split; [exact (co_interrupted _ _ C1 _ _ _ _ _ _ (proj1 R) E)|]. intros Hi. destruct (Hs _ _ _ _ _ _ _ R E Hi).
  - intros s f R. exact (co_models _ _ C1 s f (proj1 R)).
Qed.
Theorem incremental_knows1 : knows_vars (incremental V) inc_reps1.
Proof. intros s f m c l (R & _). now apply (incremental_knows s f m). Qed.
End OneShot.
End Correct.

(** ** Histories with errors *)
Definition lost_of (p : phase) : bool := match p with PLost => true | _ => false end.

Lemma history_inv : correct V reps -> robust V reps -> forall i f p, history V i f p ->
  inc_inv (lost_of p) i f /\ (p = PFresh <-> in_state i = IInit).
Proof.
  intros C B i f p H. induction H as [w|i f p c w i' w' H [I F] E|i f c w i' w' H [I F] E|i f p w r i' w' H [I F] E|i f p w i' w' H [I F] E|i f p ls w r i' w' H [I F] E|i f p ls w i' w' H [I F] Hp E].
  - split; [now apply inv_init|]. unfold inc_init. destruct (sv_init V w). cbn. tauto.
  - destruct (inv_add C _ _ _ _ _ _ _ I E) as (I' & Es). split; [exact I'|]. tauto.
  - assert (Es : in_state i = IInit) by (now apply F). destruct I as (H1 & H2 & H3). rewrite Es in H3. destruct H3 as (m & R).
    unfold inc_add in E. cbn [in_state in_solver in_clauses in_max in_n_clauses in_n_sat in_n_unsat in_n_terminated] in E. rewrite Es in E.
    destruct (sv_add V (in_solver i) c w) as [[ok s'] w1] eqn:Ea. injection E as -> <- <-. split; [|cbn; tauto]. split; [exact H1|]. split.
    + cbn [in_max]. intros c0 l Hc Hl. destruct (H2 c0 l Hc Hl) as (u & Eu & Hu). destruct (update_max_var_ge (in_max i) c) as (v & -> & _ & G). exists v. split; [reflexivity|]. apply G in Eu. lia.
    + cbn [in_state in_solver]. exists false. eapply (rb_add _ _ B); eauto.
  - destruct (inv_solve C _ _ _ _ _ _ _ I E) as (I' & Es & _). split; [destruct p; exact I'|]. destruct p; split; intros K; try discriminate; contradiction.
  - destruct I as (H1 & H2 & H3). unfold inc_solve in E.
    assert (Hin : forall s core w1, solve_inner V i s core w1 = (None, i', w') -> exists s', sv_solve V s w1 = (None, s', w') /\ i' = with_solver i s').
    { intros s core w1 Es. unfold solve_inner in Es. destruct (sv_solve V s w1) as [[[r|] s'] w2]; [discriminate|]. injection Es as <- <-. eauto. }
    destruct (in_state i) as [| |core|] eqn:Es.
    + destruct H3 as (m & R). apply Hin in E as (s' & E & ->). split; [|rewrite F; cbn; rewrite Es; tauto]. split; [exact H1|]. split; [exact H2|]. cbn [with_solver in_state]. rewrite Es.
      exists false. eapply (rb_solve _ _ B); eauto.
    + discriminate.
    + assert (exists s', i' = with_solver i s') as (s' & ->).
      { destruct core as [|l core]; [discriminate|]. destruct (reload V i w) as [[[|] s] w1]; [apply Hin in E as (s' & _ & ->)|injection E as <- <-]; eauto. }
      split; [|rewrite F; cbn; rewrite Es; tauto]. split; [exact H1|]. split; [exact H2|]. cbn [with_solver in_state]. rewrite Es. exact H3.
    + assert (exists s', i' = with_solver i s') as (s' & ->).
      { destruct (reload V i w) as [[[|] s] w1]; [apply Hin in E as (s' & _ & ->)|injection E as <- <-]; eauto. }
      split; [|rewrite F; cbn; rewrite Es; tauto]. split; [exact H1|]. split; [exact H2|]. cbn [with_solver in_state]. rewrite Es. exact I.
  - destruct (inv_assumps C _ _ _ _ _ _ _ _ I E) as (I' & Es & _). split; [exact I'|]. split; intros K; [discriminate|contradiction].
  - assert (exists s', i' = with_solver i s') as (s' & ->).
    { unfold inc_solve_assumps, solve_inner in E. destruct (match in_state i with IInit => _ | _ => _ end) as [[[|] s] w1]; [|injection E as <- <-; eauto].
      destruct (add_all V s _ w1) as [[[|] s1] w2]; [|injection E as <- <-; eauto]. destruct (sv_solve V s1 w2) as [[[r|] s2] w3]; [discriminate|injection E as <- <-; eauto]. }
    assert (Es : in_state i <> IInit) by (intros K; apply Hp; now apply F). destruct I as (H1 & H2 & H3). split.
    + split; [exact H1|]. split; [exact H2|]. cbn [with_solver in_state]. destruct (in_state i); try contradiction; try exact H3. split; [apply H3|discriminate].
    + split; intros K; [discriminate|]. cbn in K. contradiction.
Qed.

Section HistoryAnswers.
Hypotheses (C : correct V reps) (B : robust V reps).
Theorem history_solve i f p w r i' w' : history V i f p -> inc_solve V i w = (Some r, i', w') ->
  (r = RSat -> (exists a, sat_cnf a f = true) /\ (p <> PLost -> models (incremental V) i' f)) /\
  (r = RUnsat -> unsat f /\ inc_core i' = Some []).
Proof.
  intros H E. destruct (history_inv C B _ _ _ H) as (I & _). destruct (inv_solve C _ _ _ _ _ _ _ I E) as (_ & _ & S1 & U). split; [|exact U].
  intros Hr. destruct (S1 Hr) as (A & M & _). split; [exact A|]. intros Hp. apply M. destruct p; try reflexivity. contradiction.
Qed.
Theorem history_assumps i f p ls w r i' w' : history V i f p -> inc_solve_assumps V i ls w = (Some r, i', w') ->
  (r = RSat -> models (incremental V) i' (f ++ units ls)) /\
  (r = RUnsat -> (forall a, sat_cnf a f = true -> sat_cube a ls = false) /\
     exists core, inc_core i' = Some core /\ (forall l, In l core -> In (neg l) ls) /\ forall a, sat_cnf a f = true -> sat_clause a core = true).
Proof.
  intros H E. destruct (history_inv C B _ _ _ H) as (I & _). destruct (inv_assumps C _ _ _ _ _ _ _ _ I E) as (I' & _ & M & U). split; [exact M|].
  intros Hr. destruct (U Hr) as (U1 & U2). split.
  - intros a Ha. specialize (U1 a). rewrite sat_cnf_app, Ha, sat_units in U1. exact U1.
  - exists (map neg ls). split; [exact U2|]. split.
    + intros l Hl. apply in_map_iff in Hl as (x & <- & Hx). rewrite neg_neg. exact Hx.
    + destruct I' as (_ & _ & H3). unfold inc_core in U2. destruct (in_state i'); try discriminate. injection U2 as ->. exact H3.
Qed.
Theorem history_core i f p core : history V i f p -> inc_core i = Some core -> forall a, sat_cnf a f = true -> sat_clause a core = true.
Proof. intros H E. destruct (history_inv C B _ _ _ H) as ((_ & _ & H3) & _). unfold inc_core in E. destruct (in_state i); try discriminate. injection E as ->. exact H3. Qed.
Theorem history_max_var i f p c l : history V i f p -> In c f -> In l c -> exists v, in_max i = Some v /\ (lvar l <= v)%N.
Proof. intros H Hc Hl. destruct (history_inv C B _ _ _ H) as ((_ & H2 & _) & _). exact (H2 c l Hc Hl). Qed.
End HistoryAnswers.
End Inc.

(** ** The external solver *)
Section Ext.
Context {W : Type} (run : cnf -> N -> W -> option sout * W).

Definition ext_reps (s : ext) (f : cnf) (m : bool) : Prop :=
  match s with
  | EPre g n => f = g /\ m = false
  | EPost o => m = true -> exists sol, o = OSat sol /\ forall a, completes a (pasg_of sol) -> sat_cnf a f = true
  end.

Lemma lit_value_plit sol l : lit_value sol l = plit (pasg_of sol) l.
Proof. unfold lit_value, plit, pasg_of. destruct (var_value sol (lvar l)), (lneg l); reflexivity. Qed.
Lemma truncate_pasg sol h v : pasg_of (truncate sol h) v = if (v <=? h)%N then pasg_of sol v else None.
Proof. unfold pasg_of. rewrite truncate_spec. destruct (v <=? h)%N; reflexivity. Qed.

Theorem external_correct : honest run -> correct (external run) ext_reps.
Proof.
  intros Hh. constructor.
  - intros w. split; reflexivity.
  - intros s f m c w s' w' R E. destruct s as [g n|o]; cbn in E; [|discriminate]. injection E as <- <-. destruct R as (-> & _). split; reflexivity.
  - intros s f m w s' w' R E. destruct s as [g n|o]; cbn in E; [|discriminate]. specialize (Hh g n w). destruct R as (-> & _).
    destruct (run g n w) as [[o|] w1]; [|discriminate]. injection E as Eo <- <-. cbn [fst] in Hh. destruct o as [sol| |]; try discriminate. intros _. eauto.
  - intros s f m w s' w' R E. destruct s as [g n|o]; cbn in E; [|discriminate]. specialize (Hh g n w). destruct R as (-> & _).
    destruct (run g n w) as [[o|] w1]; [|discriminate]. injection E as Eo <- <-. cbn [fst] in Hh. destruct o as [sol| |]; try discriminate. split; [discriminate|exact Hh].
  - intros s f m w s' w' R E. destruct s as [g n|o]; cbn in E; [|discriminate]. destruct (run g n w) as [[o|] w1]; [|discriminate]. injection E as Eo <- <-. discriminate.
  - intros s f R. destruct s as [g n|o]; [destruct R; discriminate|]. destruct (R eq_refl) as (sol & -> & H). exists (pasg_of sol). cbn [external sv_val sv_solution ext_val ext_solution].
    split; [intros l; now rewrite lit_value_plit|]. split; [|exact H]. intros h. eexists. split; [reflexivity|]. intros v. apply truncate_pasg.
Qed.
Theorem external_robust : robust (external run) ext_reps.
Proof.
  constructor.
  - intros s f m c w s' w' R E. destruct s as [g n|o]; cbn in E; [discriminate|]. injection E as <- <-. discriminate.
  - intros s f m w s' w' R E. destruct s as [g n|o]; cbn in E; [|injection E as <- <-; discriminate]. destruct (run g n w) as [[o|] w1]; [discriminate|]. injection E as <- <-. discriminate.
Qed.

Lemma post_calls o cs : forall w, ext_calls run (EPost o) cs w = map (after_result o) cs.
Proof. induction cs as [|c cs IH]; intros w; [reflexivity|]. destruct c, o; cbn [ext_calls ext_call ext_add ext_solve ext_val ext_solution map after_result]; now rewrite IH. Qed.
Theorem external_calls cs : forall f w, ext_calls run (EPre f (n_vars_of f)) cs w = spec_results run f cs w.
Proof.
  induction cs as [|c cs IH]; intros f w; [reflexivity|]. destruct c as [c| |l|h]; cbn [ext_calls ext_call ext_add ext_solve ext_val ext_solution spec_results].
  - rewrite <- IH. do 2 f_equal. unfold n_vars_of. rewrite concat_app, fold_left_app. cbn [concat]. now rewrite app_nil_r.
  - destruct (run f (n_vars_of f) w) as [[o|] w1]; cbn [fst]; now rewrite post_calls.
  - now rewrite IH.
  - now rewrite IH.
Qed.
Definition always_answers : Prop := forall f n w, fst (run f n w) <> None /\ fst (run f n w) <> Some OUnknown.
Theorem external_one_shot : always_answers -> one_shot (external run) (fun s f => exists n, s = EPre f n).
Proof.
  intros A. split; [intros w; exists 0%N; reflexivity|]. split; [intros s f c w (n & ->); split; [reflexivity|cbn; eauto]|].
  intros s f w (n & ->). cbn [external sv_solve ext_solve]. destruct (A f n w) as (A1 & A2). destruct (run f n w) as [[[sol| |]|] w1]; cbn in *; auto; congruence.
Qed.
End Ext.
Lemma n_vars_of_ge f c l : In c f -> In l c -> (lvar l < n_vars_of f)%N.
Proof.
  intros Hc Hl. unfold n_vars_of. assert (Hin : In l (concat f)) by (apply in_concat; eauto). revert Hin. generalize (concat f) as ls. intros ls.
  assert (G : forall ls n, (n <= fold_left (fun n l => N.max (lvar l + 1) n) ls n)%N) by (induction ls0 as [|x ls0 IH]; intros n; cbn [fold_left]; [lia|]; specialize (IH (N.max (lvar x + 1) n)); lia).
  generalize 0%N. induction ls as [|x ls IH]; intros n Hin; [destruct Hin|]. cbn [fold_left]. destruct Hin as [->|Hin]; [|auto]. specialize (G ls (N.max (lvar l + 1) n)). lia.
Qed.
