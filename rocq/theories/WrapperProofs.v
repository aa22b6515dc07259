(** * Proofs about the solver crates *)

From Coq Require Import List Bool NArith ZArith Lia Arith ZifyBool ZifyNat ZifyN.
From Verif Require Import Spec Types Base TypesProofs SolverSpec Solver SolverUse SolverProofs Wrappers WrapperSpec.
Import ListNotations.

Lemma zlit_nonzero l : zlit l <> 0%Z.
Proof. unfold zlit. destruct (lneg l); lia. Qed.
Lemma zlit_neg l : zlit (neg l) = (- zlit l)%Z.
Proof. unfold zlit, neg. cbn [lneg lvar]. destruct (lneg l); cbn [negb]; lia. Qed.
Lemma lit_true_neg a l : lit_true a (neg l) = negb (lit_true a l).
Proof. unfold lit_true, neg. cbn [lneg lvar]. now destruct (lneg l), (a (lvar l)). Qed.

(** ** Cores *)
Lemma core_of_spec failed ls : forall core, core_of failed ls = Some core ->
  forall l, In l core <-> exists a, l = neg a /\ In a ls /\ failed (zlit a) = 1%Z.
Proof.
  induction ls as [|x ls IH]; cbn [core_of]; intros core E l.
  - injection E as <-. split; [intros []|intros (a & _ & [] & _)].
  - destruct (failed (zlit x)) as [|[p|p|]|p] eqn:F; try discriminate.
    + rewrite (IH _ E l). split; intros (a & H1 & H2 & H3); exists a; split; auto; split; auto; [now right|]. destruct H2 as [<-|H2]; [congruence|exact H2].
    + destruct (core_of failed ls) as [core'|]; [|discriminate]. injection E as <-. cbn [In]. rewrite (IH _ eq_refl l). split.
      * intros [<-|(a & H1 & H2 & H3)]; [exists x; auto|exists a; auto].
      * intros (a & H1 & [<-|H2] & H3); [left; congruence|right; eauto].
Qed.
Lemma core_of_total failed ls : (forall l, In l ls -> failed (zlit l) = 0%Z \/ failed (zlit l) = 1%Z) -> exists core, core_of failed ls = Some core.
Proof.
  induction ls as [|x ls IH]; intros H; cbn [core_of]; [eauto|]. destruct IH as (core & E); [intros l Hl; apply H; now right|].
  destruct (H x) as [F|F]; [now left| |]; rewrite F, E; eauto.
Qed.

Section Answers.
Context {B W : Type}.
Lemma answered_cases (s : wrap B) r b core (w : W) x s' w' : answered s r b core w = (Some x, s', w') ->
  (x = RInterrupted /\ r = 0%Z /\ s' = mkWrap b WInput (w_max s)) \/
  (x = RSat /\ r = 10%Z /\ s' = mkWrap b WSat (w_max s)) \/
  (x = RUnsat /\ r = 20%Z /\ exists c, core = Some c /\ s' = mkWrap b (WUnsat c) (w_max s)).
Proof.
  unfold answered. destruct (Z.eqb_spec r 0); [intros E; injection E as <- <- <-; auto|].
  destruct (Z.eqb_spec r 10); [intros E; injection E as <- <- <-; auto|].
  destruct (Z.eqb_spec r 20); [|discriminate]. destruct core as [c|]; [|discriminate]. intros E. injection E as <- <- <-. right. right. eauto 6.
Qed.
End Answers.

Lemma max_var_of_ge m c : (forall l, In l c -> exists v, max_var_of m c = Some v /\ (lvar l <= v)%N) /\ (forall u, m = Some u -> exists v, max_var_of m c = Some v /\ (u <= v)%N).
Proof.
  unfold max_var_of. revert m. induction c as [|x c IH]; intros m; cbn [fold_left]; [split; [intros l []|intros u ->; exists u; split; [reflexivity|lia]]|].
  set (m' := match m with None => _ | Some v => _ end).
  assert (Hm : exists v, m' = Some v /\ (lvar x <= v)%N /\ forall u, m = Some u -> (u <= v)%N).
  { unfold m'. destruct m as [u|]; [|exists (lvar x); repeat split; try discriminate; lia].
    destruct (N.ltb_spec u (lvar x)); [exists (lvar x)|exists u]; (split; [reflexivity|]); (split; [lia|]); intros u' E; injection E as <-; lia. }
  destruct Hm as (v & Ev & Hx & Hu). destruct (IH m') as (I1 & I2). split.
  - intros l [->|Hl]; [|auto]. destruct (I2 v Ev) as (v' & E & L). exists v'. split; [exact E|lia].
  - intros u E. destruct (I2 v Ev) as (v' & E' & L). exists v'. split; [exact E'|]. specialize (Hu u E). lia.
Qed.
Definition max_knows (m : option N) (f : cnf) : Prop := forall c l, In c f -> In l c -> exists v, m = Some v /\ (lvar l <= v)%N.
Lemma max_knows_add m f c : max_knows m f -> max_knows (max_var_of m c) (f ++ [c]).
Proof.
  intros H c' l Hc Hl. apply in_app_or in Hc as [Hc|[<-|[]]].
  - destruct (H c' l Hc Hl) as (u & E & L). destruct (proj2 (max_var_of_ge m c) u E) as (v & E' & L'). exists v. split; [exact E'|lia].
  - now apply (proj1 (max_var_of_ge m c)).
Qed.

(** values *)
Lemma value_code_tern p l : (if (value_code p l =? 0)%Z then Some TDontCare else if (value_code p l =? zlit l)%Z then Some TTrue else if (value_code p l =? - zlit l)%Z then Some TFalse else None) = Some (plit p l).
Proof.
  pose proof (zlit_nonzero l). unfold value_code. destruct (plit p l); [| |reflexivity].
  - destruct (Z.eqb_spec (zlit l) 0); [contradiction|]. now rewrite Z.eqb_refl.
  - destruct (Z.eqb_spec (- zlit l) 0); [lia|]. destruct (Z.eqb_spec (- zlit l) (zlit l)); [lia|]. now rewrite Z.eqb_refl.
Qed.

Section IpasirProofs.
Context {B W : Type} (A : capi B W) (R : B -> bst -> Prop).
Hypothesis C : conforming A R.

Definition settled (s : bst) (f : cnf) (t : option clause) : Prop := bs_f s = f /\ bs_open s = [] /\ bs_as s = [] /\ bs_con s = t /\ bs_con_open s = [].
Lemma settled_after s f ans : bs_f s = f -> settled (after s ans) f None.
Proof. intros H. repeat split; auto. Qed.

(** ** IPASIR *)
Section Ip.
Hypothesis N0 : no_codes A.
Hypothesis Hv : ipasir_values A R.

Definition ip_inv (s : wrap B) (f : cnf) : Prop := exists b, R (w_b s) b /\ settled b f None /\ max_knows (w_max s) f /\
  match w_state s with
  | WSat => exists p, bs_ans b = BSat p /\ forall a, completes a p -> sat_cnf a f = true
  | WUnsat core => forall a, sat_cnf a f = true -> sat_clause a core = true
  | _ => True
  end.
Definition ip_reps (s : wrap B) (f : cnf) (m : bool) : Prop := ip_inv s f /\ (m = true -> w_state s = WSat).

Lemma ip_add_lits_ok c : forall b s w b' w', R b s -> ip_add_lits A b c w = (b', w') ->
  R b' (mkBst (bs_f s ++ [bs_open s ++ c]) [] (bs_as s) (bs_con s) (bs_con_open s) BNone).
Proof.
  induction c as [|l c IH]; intros b s w b' w' H E; cbn [ip_add_lits] in E.
  - pose proof (proj1 N0 b 0%Z w) as N1. destruct (ca_add A b 0 w) as [[r b1] w1] eqn:Ea. cbn [fst] in N1. subst r. injection E as <- <-.
    rewrite app_nil_r. exact (cf_add_end _ _ C _ _ _ _ _ H Ea).
  - pose proof (proj1 N0 b (zlit l) w) as N1. destruct (ca_add A b (zlit l) w) as [[r b1] w1] eqn:Ea. cbn [fst] in N1. subst r.
    pose proof (IH _ _ _ _ _ (cf_add _ _ C _ _ _ _ _ _ H Ea) E) as H1. cbn [bs_f bs_open bs_as bs_con bs_con_open] in H1.
    rewrite <- app_assoc in H1. exact H1.
Qed.
Lemma ip_assume_ok ls : forall b s w b' w', R b s -> bs_open s = [] -> bs_con_open s = [] -> ip_assume A b ls w = (b', w') ->
  exists s', R b' s' /\ bs_f s' = bs_f s /\ bs_open s' = [] /\ bs_as s' = bs_as s ++ ls /\ bs_con s' = bs_con s /\ bs_con_open s' = [].
Proof.
  induction ls as [|l ls IH]; intros b s w b' w' H Ho Hc E; cbn [ip_assume] in E.
  - injection E as <- <-. exists s. rewrite app_nil_r. auto 7.
  - pose proof (proj2 N0 b (zlit l) w) as N1. destruct (ca_assume A b (zlit l) w) as [[r b1] w1] eqn:Ea. cbn [fst] in N1. subst r.
    destruct (IH _ _ _ _ _ (cf_assume _ _ C _ _ _ _ _ _ H Ho Hc Ea) eq_refl eq_refl E) as (s' & H1 & H2 & H3 & H4 & H5 & H6).
    cbn [bs_f bs_as bs_con] in *. exists s'. rewrite <- app_assoc in H4. auto 7.
Qed.

(** after the answer to a question without constraint *)
Lemma ip_answered b0 b r ls core s (w : W) x s' w' f : bs_f b0 = f -> bs_as b0 = ls -> bs_con b0 = None -> max_knows (w_max s) f ->
  answers b0 r (R b) ->
  (r = 20%Z -> forall c, core = Some c -> forall a, sat_cnf a f = true -> sat_clause a c = true) ->
  answered s r b core w = (Some x, s', w') ->
  ip_inv s' f /\ w_b s' = b /\
  (x = RSat -> w_state s' = WSat /\ exists p, (forall a, completes a p -> sat_cnf a f = true /\ sat_cube a ls = true) /\ exists t, R b t /\ bs_ans t = BSat p) /\
  (x = RUnsat -> (forall a, sat_cnf a f = true -> sat_cube a ls = false) /\ exists c, core = Some c /\ w_state s' = WUnsat c) /\
  (x = RInterrupted -> w_state s' = WInput).
Proof.
  intros Hf Ha Hc Hm (A10 & A20 & A0) Hcore E. apply answered_cases in E as [(-> & -> & ->)|[(-> & -> & ->)|(-> & -> & c & -> & ->)]].
  - split; [|split; [reflexivity|repeat split; discriminate]]. exists (after b0 BNone). split; [now apply A0|]. split; [now apply (settled_after b0 f)|]. cbn. auto.
  - destruct (A10 eq_refl) as (p & Hp & HR). unfold query in Hp. rewrite Hf, Ha, Hc in Hp. split.
    + exists (after b0 (BSat p)). split; [exact HR|]. split; [now apply (settled_after b0 f)|]. split; [exact Hm|]. cbn. exists p. split; [reflexivity|]. intros a H. now apply Hp.
    + split; [reflexivity|]. split; [|split; discriminate]. intros _. split; [reflexivity|]. exists p. split; [intros a H; destruct (Hp a H) as (H1 & H2 & _); auto|]. exists (after b0 (BSat p)). auto.
  - destruct (A20 eq_refl) as (Hu & HR). unfold query in Hu. rewrite Hf, Ha, Hc in Hu. split.
    + exists (after b0 (BUnsat (bs_as b0) (bs_con b0))). split; [exact HR|]. split; [now apply (settled_after b0 f)|]. split; [exact Hm|]. cbn. now apply Hcore.
    + split; [reflexivity|]. split; [discriminate|]. split; [|discriminate]. intros _. split; [|exists c; auto].
      intros a Hs. destruct (sat_cube a ls) eqn:Ec; [|reflexivity]. destruct (Hu a). auto.
Qed.

Lemma ip_values (s : wrap B) t p : w_state s = WSat -> R (w_b s) t -> bs_ans t = BSat p -> forall l, ip_val A s l = Some (plit p l).
Proof. intros Hs HR Hp l. unfold ip_val. rewrite Hs, (Hv _ _ _ HR Hp l). apply value_code_tern. Qed.
Lemma ip_models (s : wrap B) t p g : w_state s = WSat -> R (w_b s) t -> bs_ans t = BSat p -> (forall a, completes a p -> sat_cnf a g = true) ->
  models (is_solver (ipasir A)) s g.
Proof.
  intros Hs HR Hp Hg. exists p. split; [intros l; now apply (ip_values s t p)|]. split; [|exact Hg].
  intros h. apply default_solution_ok. intros l. now apply (ip_values s t p).
Qed.

Theorem ipasir_correct : correct_inc (ipasir A) (models (is_solver (ipasir A))) ip_reps /\ knows_vars (is_solver (ipasir A)) ip_reps.
Proof.
  assert (Solve : forall s f w x s' w', ip_inv s f -> ip_solve A s w = (Some x, s', w') ->
    ip_inv s' f /\ (x = RSat -> w_state s' = WSat) /\ (x = RUnsat -> unsat f /\ w_core s' = Some [])).
  { intros s f w x s' w' Hi E. unfold ip_solve in E. destruct Hi as (b & HR & (Hf & Ho & Ha & Hc & Hco) & Hm & Hs).
    assert (Hi : ip_inv s f) by (exists b; repeat split; auto).
    assert (Ask : (let '(r, b, w') := ca_solve A (w_b s) w in answered s r b (Some []) w') = (Some x, s', w') ->
      ip_inv s' f /\ (x = RSat -> w_state s' = WSat) /\ (x = RUnsat -> unsat f /\ w_core s' = Some [])).
    { clear E. intros E. destruct (ca_solve A (w_b s) w) as [[r b'] w1] eqn:Es. pose proof (cf_solve _ _ C _ _ _ _ _ _ HR Ho Hco Es) as An.
      destruct (ip_answered b b' r [] (Some []) s w1 x s' w' f Hf Ha Hc Hm An) as (H1 & H2 & H3 & H4 & H5); [|exact E|].
      { intros -> c Ec a Hsat. injection Ec as <-. destruct An as (_ & A20 & _). destruct (A20 eq_refl) as (Hu & _). destruct (Hu a). unfold query. rewrite Hf, Ha, Hc. auto. }
      split; [exact H1|]. split; [intros Ex; now apply H3|]. intros Ex. destruct (H4 Ex) as (Hu & c & Ec & Es'). injection Ec as <-. split; [|unfold w_core; now rewrite Es'].
      intros a. destruct (sat_cnf a f) eqn:Ef; [|reflexivity]. specialize (Hu a Ef). discriminate Hu. }
    destruct (w_state s) as [| | |[|l core]] eqn:Est; try (exact (Ask E)).
    - injection E as <- <- <-. split; [exact Hi|]. split; [auto|discriminate].
    - injection E as <- <- <-. split; [exact Hi|]. split; [discriminate|]. intros _. split; [|unfold w_core; now rewrite Est].
      intros a. destruct (sat_cnf a f) eqn:Ef; [|reflexivity]. specialize (Hs a Ef). discriminate Hs. }
  assert (Assumps : forall s f ls w x s' w', ip_inv s f -> ip_solve_assumps A s ls w = (Some x, s', w') ->
    ip_inv s' f /\ (x = RSat -> w_state s' = WSat /\ models (is_solver (ipasir A)) s' (f ++ units ls)) /\
    (x = RUnsat -> (forall a, sat_cnf a f = true -> sat_cube a ls = false) /\
       exists core, w_core s' = Some core /\ (forall l, In l core -> In (neg l) ls) /\ forall a, sat_cnf a f = true -> sat_clause a core = true)).
  { intros s f ls w x s' w' Hi E. unfold ip_solve_assumps in E. destruct Hi as (b & HR & (Hf & Ho & Ha & Hc & Hco) & Hm & Hs).
    destruct (ip_assume A (w_b s) ls w) as [b1 w1] eqn:E1. destruct (ip_assume_ok _ _ _ _ _ _ HR Ho Hco E1) as (b1' & HR1 & Hf1 & Ho1 & Ha1 & Hc1 & Hco1).
    destruct (ca_solve A b1 w1) as [[r b2] w2] eqn:Es. pose proof (cf_solve _ _ C _ _ _ _ _ _ HR1 Ho1 Hco1 Es) as An.
    rewrite Hf in Hf1. rewrite Ha in Ha1. cbn [app] in Ha1. rewrite Hc in Hc1.
    assert (Hcore : r = 20%Z -> forall c, core_of (ca_failed A b2) ls = Some c -> (forall l, In l c -> In (neg l) ls) /\ forall a, sat_cnf a f = true -> sat_clause a c = true).
    { intros -> c Ec. destruct An as (_ & A20 & _). destruct (A20 eq_refl) as (_ & HR2).
      destruct (cf_failed _ _ C _ _ _ _ HR2 eq_refl) as (_ & Hfail). cbn [after bs_f] in Hfail. rewrite Ha1, Hc1, Hf1 in Hfail. split.
      - intros l Hl. apply (core_of_spec _ _ _ Ec) in Hl as (a & -> & Hin & _). now rewrite neg_neg.
      - intros a Hsat. destruct (Hfail a Hsat Logic.I) as (l & Hl & F & Hl'). apply existsb_exists. exists (neg l). split; [apply (core_of_spec _ _ _ Ec); eauto|].
        rewrite lit_true_neg, Hl'. reflexivity. }
    destruct (ip_answered b1' b2 r ls _ s w2 x s' w' f Hf1 Ha1 Hc1 Hm An (fun E20 c Ec => proj2 (Hcore E20 c Ec)) E) as (H1 & H2 & H3 & H4 & H5).
    split; [exact H1|]. split.
    - intros Ex. destruct (H3 Ex) as (Hst & p & Hp & t & HRt & Ht). split; [exact Hst|]. apply (ip_models s' t p); auto; [now rewrite H2|].
      intros a Hap. rewrite sat_cnf_app, sat_units. destruct (Hp a Hap) as [-> ->]. reflexivity.
    - intros Ex. destruct (H4 Ex) as (Hu & c & Ec & Est). split; [exact Hu|]. exists c. split; [unfold w_core; now rewrite Est|]. apply Hcore; [|exact Ec].
      apply answered_cases in E as [(-> & _)|[(-> & _)|(_ & -> & _)]]; try discriminate; reflexivity. }
  split.
  - constructor; unfold ip_reps; cbn [ipasir is_solver is_assumps is_core sv_init sv_add sv_solve].
    + intros w. unfold ip_init. pose proof (cf_init _ _ C w) as HR. destruct (ca_init A w) as [b w']. cbn [fst] in HR |- *. split; [|discriminate].
      eexists. split; [exact HR|]. split; [repeat split|]. split; [intros c l []|exact Logic.I].
    + intros s f m c w s' w' [(b & HR & (Hf & Ho & Ha & Hc & Hco) & Hm & Hs) _] E. unfold ip_add in E. destruct (ip_add_lits A (w_b s) c w) as [b1 w1] eqn:E1. injection E as <- <-.
      pose proof (ip_add_lits_ok c _ _ _ _ _ HR E1) as HR1. rewrite Hf, Ho, Ha, Hc, Hco in HR1. cbn [app] in HR1. split; [|discriminate].
      eexists. split; [exact HR1|]. split; [repeat split|]. split; [now apply max_knows_add|exact Logic.I].
    + intros s f m w s' w' [Hi _] E. destruct (Solve _ _ _ _ _ _ Hi E) as (H1 & H2 & H3). split; [exact H1|]. intros _. now apply H2.
    + intros s f m w s' w' [Hi _] E. destruct (Solve _ _ _ _ _ _ Hi E) as (H1 & H2 & H3). split; [split; [exact H1|discriminate]|]. now apply H3.
    + intros s f m w s' w' [Hi _] E. destruct (Solve _ _ _ _ _ _ Hi E) as (H1 & H2 & H3). split; [exact H1|discriminate].
    + intros s f m ls w s' w' [Hi _] E. destruct (Assumps _ _ _ _ _ _ _ Hi E) as (H1 & H2 & H3). destruct (H2 eq_refl). split; [split; [exact H1|auto]|auto].
    + intros s f m ls w s' w' [Hi _] E. destruct (Assumps _ _ _ _ _ _ _ Hi E) as (H1 & H2 & H3). split; [split; [exact H1|discriminate]|]. now apply H3.
    + intros s f m ls w s' w' [Hi _] E. destruct (Assumps _ _ _ _ _ _ _ Hi E) as (H1 & H2 & H3). split; [exact H1|discriminate].
    + intros s f [(b & HR & _ & _ & Hs) Hst]. specialize (Hst eq_refl). rewrite Hst in Hs. destruct Hs as (p & Hp & Hsat). now apply (ip_models s b p).
  - intros s f m c l [(b & _ & _ & Hm & _) _] Hc Hl. exact (Hm c l Hc Hl).
Qed.
End Ip.
End IpasirProofs.

(** ** CaDiCaL *)
Section CadicalProofs.
Context {B W : Type} (A : capi B W) (R : B -> bst -> Prop).
Hypothesis CC : conforming_cadical A R.
Let C : conforming A R := cc_ipasir _ _ CC.

Lemma cad_calls_ind (call : B -> Z -> W -> Z * B * W) (step : bst -> lit -> bst) (ok : bst -> Prop) :
  (forall b z w, fst (fst (call b z w)) = 0%Z \/ fst (fst (call b z w)) = out_of_mem) ->
  (forall b s l w b' w', R b s -> ok s -> call b (zlit l) w = (0%Z, b', w') -> R b' (step s l)) -> (forall s l, ok s -> ok (step s l)) ->
  forall c b s w b' w' zs, R b s -> ok s -> cad_calls call b (map zlit c ++ zs) w = (true, b', w') ->
    exists b1 w1, R b1 (fold_left step c s) /\ ok (fold_left step c s) /\ cad_calls call b1 zs w1 = (true, b', w').
Proof.
  intros Hc Hs Hok. induction c as [|l c IH]; cbn [map app fold_left]; intros b s w b' w' zs HR Ho E; [eauto|].
  cbn [cad_calls] in E. pose proof (Hc b (zlit l) w) as Hc'. destruct (call b (zlit l) w) as [[r b1] w1] eqn:Ec. cbn [fst] in Hc'.
  destruct Hc' as [-> | ->]; [|discriminate E]. exact (IH _ _ _ _ _ _ (Hs _ _ _ _ _ _ HR Ho Ec) (Hok _ _ Ho) E).
Qed.
Lemma cad_calls_one (call : B -> Z -> W -> Z * B * W) b z w b' w' :
  (forall b z w, fst (fst (call b z w)) = 0%Z \/ fst (fst (call b z w)) = out_of_mem) -> cad_calls call b [z] w = (true, b', w') -> call b z w = (0%Z, b', w').
Proof.
  intros Hc E. cbn [cad_calls] in E. specialize (Hc b z w). destruct (call b z w) as [[r b1] w1]. cbn [fst] in Hc.
  destruct Hc as [-> | ->]; [|discriminate E]. now injection E as <- <-.
Qed.

Lemma cad_add_calls b s c w b' w' f t : R b s -> settled s f t -> cad_calls (ca_add A) b (map zlit c ++ [0%Z]) w = (true, b', w') ->
  exists s', R b' s' /\ settled s' (f ++ [c]) t.
Proof.
  intros HR (Hf & Ho & Ha & Hc & Hco) E.
  destruct (cad_calls_ind (ca_add A) (fun s l => mkBst (bs_f s) (bs_open s ++ [l]) (bs_as s) (bs_con s) (bs_con_open s) BNone) (fun _ => True)
    (proj1 (cc_codes _ _ CC)) (fun b s l w b' w' H _ => cf_add _ _ C b s l w b' w' H) (fun _ _ _ => Logic.I) c b s w b' w' [0%Z] HR Logic.I E) as (b1 & w1 & H1 & _ & E1).
  apply (cad_calls_one (ca_add A)) in E1; [|apply (cc_codes _ _ CC)]. apply (cf_add_end _ _ C _ _ _ _ _ H1) in E1. eexists. split; [exact E1|].
  assert (F : forall c s, let s' := fold_left (fun s l => mkBst (bs_f s) (bs_open s ++ [l]) (bs_as s) (bs_con s) (bs_con_open s) BNone) c s in
    bs_f s' = bs_f s /\ bs_open s' = bs_open s ++ c /\ bs_as s' = bs_as s /\ bs_con s' = bs_con s /\ bs_con_open s' = bs_con_open s).
  { clear. induction c as [|l c IH]; intros s; cbn [fold_left]; [rewrite app_nil_r; auto|]. destruct (IH (mkBst (bs_f s) (bs_open s ++ [l]) (bs_as s) (bs_con s) (bs_con_open s) BNone)) as (H1 & H2 & H3 & H4 & H5).
    cbn [bs_f bs_open bs_as bs_con bs_con_open] in *. rewrite H1, H2, H3, H4, H5, <- app_assoc. auto. }
  destruct (F c s) as (F1 & F2 & F3 & F4 & F5). unfold settled. cbn [bs_f bs_open bs_as bs_con bs_con_open]. rewrite F1, F2, F3, F4, F5, Hf, Ho, Ha, Hc, Hco. auto.
Qed.
Lemma cad_constrain_calls b s c w b' w' f t : R b s -> settled s f t -> cad_calls (ca_constrain A) b (map zlit c ++ [0%Z]) w = (true, b', w') ->
  exists s', R b' s' /\ settled s' f (Some c).
Proof.
  intros HR (Hf & Ho & Ha & Hc & Hco) E.
  destruct (cad_calls_ind (ca_constrain A) (fun s l => mkBst (bs_f s) [] (bs_as s) None (bs_con_open s ++ [l]) BNone) (fun s => bs_open s = [])
    (proj1 (proj2 (proj2 (cc_codes _ _ CC)))) (cc_constrain _ _ CC) (fun _ _ _ => eq_refl) c b s w b' w' [0%Z] HR Ho E) as (b1 & w1 & H1 & Ho1 & E1).
  apply (cad_calls_one (ca_constrain A)) in E1; [|apply (cc_codes _ _ CC)]. apply (cc_constrain_end _ _ CC _ _ _ _ _ H1 Ho1) in E1. eexists. split; [exact E1|].
  assert (F : forall c s, let s' := fold_left (fun s l => mkBst (bs_f s) [] (bs_as s) None (bs_con_open s ++ [l]) BNone) c s in
    bs_f s' = bs_f s /\ bs_as s' = bs_as s /\ bs_con_open s' = bs_con_open s ++ c).
  { clear. induction c as [|l c IH]; intros s; cbn [fold_left]; [rewrite app_nil_r; auto|]. destruct (IH (mkBst (bs_f s) [] (bs_as s) None (bs_con_open s ++ [l]) BNone)) as (H1 & H2 & H3).
    cbn [bs_f bs_as bs_con_open] in *. rewrite H1, H2, H3, <- app_assoc. auto. }
  destruct (F c s) as (F1 & F2 & F3). unfold settled. cbn [bs_f bs_open bs_as bs_con bs_con_open]. rewrite F1, F2, F3, Hf, Ha, Hco. auto.
Qed.
Lemma cad_assume_calls b s ls w b' w' f t : R b s -> settled s f t -> cad_calls (ca_assume A) b (map zlit ls) w = (true, b', w') ->
  exists s', R b' s' /\ bs_f s' = f /\ bs_open s' = [] /\ bs_as s' = ls /\ bs_con s' = t /\ bs_con_open s' = [].
Proof.
  intros HR (Hf & Ho & Ha & Hc & Hco) E. rewrite <- (app_nil_r (map zlit ls)) in E.
  destruct (cad_calls_ind (ca_assume A) (fun s l => mkBst (bs_f s) [] (bs_as s ++ [l]) (bs_con s) [] BNone) (fun s => bs_open s = [] /\ bs_con_open s = [])
    (proj1 (proj2 (cc_codes _ _ CC))) (fun b s l w b' w' H HH => cf_assume _ _ C b s l w b' w' H (proj1 HH) (proj2 HH)) (fun _ _ _ => conj eq_refl eq_refl) ls b s w b' w' [] HR (conj Ho Hco) E) as (b1 & w1 & H1 & (Ho1 & Hco1) & E1).
  cbn [cad_calls] in E1. injection E1 as <- <-. eexists. split; [exact H1|].
  assert (F : forall c s, let s' := fold_left (fun s l => mkBst (bs_f s) [] (bs_as s ++ [l]) (bs_con s) [] BNone) c s in
    bs_f s' = bs_f s /\ bs_as s' = bs_as s ++ c /\ bs_con s' = bs_con s).
  { clear. induction c as [|l c IH]; intros s; cbn [fold_left]; [rewrite app_nil_r; auto|]. destruct (IH (mkBst (bs_f s) [] (bs_as s ++ [l]) (bs_con s) [] BNone)) as (H1 & H2 & H3).
    cbn [bs_f bs_as bs_con] in *. rewrite H1, H2, H3, <- app_assoc. auto. }
  destruct (F ls s) as (F1 & F2 & F3). rewrite F1, F2, F3, Hf, Ha, Hc. auto.
Qed.

(** [ph]: whether the core kept by the wrapper follows from the clauses alone *)
Definition cad_inv (s : wrap B) (f : cnf) (t : option clause) (ph : cphase) : Prop := exists b, R (w_b s) b /\ settled b f t /\
  match w_state s with
  | WSat => t = None /\ exists p, bs_ans b = BSat p /\ forall a, completes a p -> sat_cnf a f = true
  | WUnsat core => t = None /\ (ph = COk -> forall a, sat_cnf a f = true -> sat_clause a core = true)
  | _ => True
  end.

Lemma cad_values (s : wrap B) t p : w_state s = WSat -> R (w_b s) t -> bs_ans t = BSat p ->
  exists p', (forall a, completes a p' -> completes a p) /\ forall l, cad_val A s l = Some (plit p' l).
Proof.
  intros Hs HR Hp. exists (fun v => match p v with Some x => Some x | None => if (v =? 0)%N then match ca_val A (w_b s) (zlit (pos v)) with Some (-1)%Z => Some false | _ => None end else None end).
  split. { intros a H v x Hv. apply (H v x). now rewrite Hv. }
  intros l. unfold cad_val. rewrite Hs. destruct (cc_values _ _ CC _ _ _ HR Hp (lvar l)) as [H|(Hn & H)].
  - rewrite (H l eq_refl). pose proof (value_code_tern p l) as V. pose proof (zlit_nonzero l) as Z0.
    assert (E : plit (fun v => match p v with Some x => Some x | None => if (v =? 0)%N then match ca_val A (w_b s) (zlit (pos v)) with Some (-1)%Z => Some false | _ => None end else None end) l = plit p l).
    { unfold plit. destruct (p (lvar l)) as [x|] eqn:Ep; [reflexivity|]. rewrite (H (pos (lvar l)) eq_refl). unfold value_code, plit. cbn [pos lvar]. rewrite Ep. now destruct (lvar l =? 0)%N. }
    rewrite E. destruct (value_code p l =? 0)%Z; [exact V|]. destruct (value_code p l =? zlit l)%Z; [exact V|]. destruct (value_code p l =? - zlit l)%Z; [exact V|discriminate V].
  - rewrite (H l eq_refl). unfold plit. rewrite Hn. rewrite (H (pos (lvar l)) eq_refl). unfold zlit. destruct (N.eqb_spec (lvar l) 0) as [E0|E0].
    + rewrite E0. cbn. now destruct (lneg l).
    + destruct (lneg l); cbn [negb].
      * destruct (Z.eqb_spec (-1) (- (Z.of_N (lvar l) + 1))); [lia|]. destruct (Z.eqb_spec (-1) (- - (Z.of_N (lvar l) + 1))); [lia|]. reflexivity.
      * destruct (Z.eqb_spec (-1) (Z.of_N (lvar l) + 1)); [lia|]. destruct (Z.eqb_spec (-1) (- (Z.of_N (lvar l) + 1))); [lia|]. reflexivity.
Qed.
Lemma cad_models (s : wrap B) t p g : w_state s = WSat -> R (w_b s) t -> bs_ans t = BSat p -> (forall a, completes a p -> sat_cnf a g = true) ->
  models (is_solver (cadical A)) s g.
Proof.
  intros Hs HR Hp Hg. destruct (cad_values s t p Hs HR Hp) as (p' & Hpp & Hval). exists p'. split; [exact Hval|]. split; [|intros a H; apply Hg; auto].
  intros h. now apply default_solution_ok.
Qed.

(** after the answer to a question; [con] if the core stored follows from the clauses alone *)
Lemma cad_answered b0 b r ls core s (w : W) x s' w' f t ph : bs_f b0 = f -> bs_as b0 = ls -> bs_con b0 = t -> answers b0 r (R b) ->
  (r = 20%Z -> ph = COk -> forall c, core = Some c -> forall a, sat_cnf a f = true -> sat_clause a c = true) ->
  answered s r b core w = (Some x, s', w') ->
  cad_inv s' f None ph /\ w_b s' = b /\
  (x = RSat -> w_state s' = WSat /\ models (is_solver (cadical A)) s' (f ++ tmp_list t ++ units ls)) /\
  (x = RUnsat -> unsat (f ++ tmp_list t ++ units ls) /\ r = 20%Z /\ exists c, core = Some c /\ w_state s' = WUnsat c) /\
  (x = RInterrupted -> w_state s' = WInput).
Proof.
  intros Hf Ha Hc (A10 & A20 & A0) Hcore E.
  assert (Q : forall a, query b0 a <-> sat_cnf a (f ++ tmp_list t ++ units ls) = true).
  { intros a. unfold query. rewrite Hf, Ha, Hc, !sat_cnf_app, sat_units, !andb_true_iff. destruct t as [c|]; cbn [tmp_list sat_cnf forallb]; rewrite ?andb_true_r; tauto. }
  apply answered_cases in E as [(-> & -> & ->)|[(-> & -> & ->)|(-> & -> & c & -> & ->)]].
  - split; [|split; [reflexivity|repeat split; discriminate]]. exists (after b0 BNone). split; [now apply A0|]. split; [now apply settled_after|exact Logic.I].
  - destruct (A10 eq_refl) as (p & Hp & HR). assert (Hp' : forall a, completes a p -> sat_cnf a (f ++ tmp_list t ++ units ls) = true) by (intros a H; now apply Q, Hp). split.
    + exists (after b0 (BSat p)). split; [exact HR|]. split; [now apply settled_after|]. split; [reflexivity|]. exists p. split; [reflexivity|]. intros a H.
      specialize (Hp' a H). rewrite sat_cnf_app in Hp'. now apply andb_true_iff in Hp' as [? _].
    + split; [reflexivity|]. split; [|split; discriminate]. intros _. split; [reflexivity|]. now apply (cad_models _ (after b0 (BSat p)) p).
  - destruct (A20 eq_refl) as (Hu & HR). split.
    + exists (after b0 (BUnsat (bs_as b0) (bs_con b0))). split; [exact HR|]. split; [now apply settled_after|]. split; [reflexivity|]. intros Eph. now apply Hcore.
    + split; [reflexivity|]. split; [discriminate|]. split; [|discriminate]. intros _. split; [|split; [reflexivity|now exists c]].
      intros a. destruct (sat_cnf a (f ++ tmp_list t ++ units ls)) eqn:Es; [|reflexivity]. destruct (Hu a). now apply Q.
Qed.

Definition taint (r : sres) (t : option clause) : cphase := match r, t with RUnsat, Some _ => CTainted | _, _ => COk end.
(** what an answer means *)
Definition cad_means (s' : wrap B) (r : sres) (g : cnf) : Prop :=
  match r with RSat => models (is_solver (cadical A)) s' g | RUnsat => unsat g | RInterrupted => True end.

Lemma cad_inv_ok s f t ph : cad_inv s f t ph -> cad_inv s f t CTainted.
Proof. intros (b & HR & Hs & H). exists b. split; [exact HR|]. split; [exact Hs|]. destruct (w_state s); auto. destruct H. split; [auto|discriminate]. Qed.

(** a question asked without assumptions *)
Lemma cad_ask (ask : B -> W -> Z * B * W) s f t ph w x s' w' : (forall b s w r b' w', R b s -> bs_open s = [] -> bs_con_open s = [] -> ask b w = (r, b', w') -> answers s r (R b')) ->
  cad_inv s f t ph -> (let '(r, b, w1) := ask (w_b s) w in answered s r b (Some []) w1) = (Some x, s', w') ->
  cad_inv s' f None (taint x t) /\ (x = RSat -> w_state s' = WSat) /\ cad_means s' x (f ++ tmp_list t) /\ (x = RUnsat -> w_core s' = Some []).
Proof.
  intros Hask (b & HR & (Hf & Ho & Ha & Hc & Hco) & Hs) E. destruct (ask (w_b s) w) as [[r b1] w1] eqn:Ea.
  pose proof (Hask _ _ _ _ _ _ HR Ho Hco Ea) as An.
  destruct (cad_answered b b1 r [] (Some []) s w1 x s' w' f t (taint x t) Hf Ha Hc An) as (H1 & H2 & H3 & H4 & H5); [|exact E|].
  { intros -> Et c Ec a Hsat. exfalso. destruct An as (_ & A20 & _). destruct (A20 eq_refl) as (Hu & _). apply (Hu a).
    apply answered_cases in E as [(_ & E & _)|[(_ & E & _)|(-> & _)]]; try discriminate E. destruct t as [c'|]; [discriminate Et|]. unfold query. rewrite Hf, Ha, Hc. auto. }
  cbn [units map] in H3, H4. rewrite app_nil_r in H3, H4. split; [exact H1|]. split; [intros Ex; now apply H3|]. split.
  - destruct x; cbn [cad_means]; [now apply H3|now apply H4|exact Logic.I].
  - intros Ex. destruct (H4 Ex) as (_ & _ & c & Ec & Est). injection Ec as <-. unfold w_core. now rewrite Est.
Qed.

Lemma cad_inv_cached s f t : cad_inv s f t COk -> forall x, (w_state s = WSat /\ x = RSat) \/ (w_state s = WUnsat [] /\ x = RUnsat) ->
  cad_inv s f None (taint x t) /\ (x = RSat -> w_state s = WSat) /\ cad_means s x (f ++ tmp_list t) /\ (x = RUnsat -> w_core s = Some []).
Proof.
  intros Hi x Hx. assert (Hi' := Hi). destruct Hi as (b & HR & Hset & Hs). destruct Hx as [(Est & ->)|(Est & ->)]; rewrite Est in Hs.
  - destruct Hs as (-> & p & Hp & Hsat). cbn [taint tmp_list]. rewrite app_nil_r. split; [exact Hi'|]. split; [auto|]. split; [|discriminate]. now apply (cad_models s b p).
  - destruct Hs as (-> & Hsat). cbn [taint tmp_list]. rewrite app_nil_r. split; [exact Hi'|]. split; [discriminate|]. split; [|intros _; unfold w_core; now rewrite Est].
    intros a. destruct (sat_cnf a f) eqn:Ef; [|reflexivity]. now specialize (Hsat eq_refl a Ef).
Qed.
Lemma cad_solve_ok s f t w x s' w' : cad_inv s f t COk -> cad_solve A s w = (Some x, s', w') ->
  cad_inv s' f None (taint x t) /\ (x = RSat -> w_state s' = WSat) /\ cad_means s' x (f ++ tmp_list t) /\ (x = RUnsat -> w_core s' = Some []).
Proof.
  intros Hi E. unfold cad_solve in E. destruct (w_state s) as [| | |[|l core]] eqn:Est;
    try (exact (cad_ask (ca_solve A) s f t COk w x s' w' (cf_solve _ _ C) Hi E)); injection E as <- <- <-; apply (cad_inv_cached s f t Hi); auto.
Qed.
Lemma cad_simplify_ok s f t n w x s' w' : cad_inv s f t COk -> (w_core s = None \/ w_core s = Some []) -> cad_simplify A s n w = (Some x, s', w') ->
  cad_inv s' f None (taint x t) /\ (x = RSat -> w_state s' = WSat) /\ cad_means s' x (f ++ tmp_list t) /\ (x = RUnsat -> w_core s' = Some []).
Proof.
  intros Hi Hcore E. unfold cad_simplify in E. destruct (w_state s) as [| | |core] eqn:Est;
    try (exact (cad_ask (fun b w => ca_simplify A b (Z.of_N n) w) s f t COk w x s' w' (fun b s w r b' w' => cc_simplify _ _ CC b s _ w r b' w') Hi E)); injection E as <- <- <-; apply (cad_inv_cached s f t Hi); auto.
  right. split; [|reflexivity]. unfold w_core in Hcore. rewrite Est in *. destruct Hcore as [Hcore|Hcore]; [discriminate|]. now injection Hcore as ->.
Qed.

Lemma cad_assumps_ok s f t ph ls w x s' w' : cad_inv s f t ph -> cad_solve_assumps A s ls w = (Some x, s', w') ->
  cad_inv s' f None (taint x t) /\ (x = RSat -> w_state s' = WSat) /\ cad_means s' x (f ++ tmp_list t ++ units ls) /\
  (x = RUnsat -> exists core, w_core s' = Some core /\ (forall l, In l core -> In (neg l) ls) /\
    forall a, sat_cnf a f = true -> (cad_tmp_in_core A s' = Some true -> sat_cnf a (tmp_list t) = true) -> sat_clause a core = true).
Proof.
  intros (b & HR & Hset & _) E. unfold cad_solve_assumps in E. destruct (cad_calls (ca_assume A) (w_b s) (map zlit ls) w) as [[[] b1] w1] eqn:E1; [|discriminate E].
  destruct (cad_assume_calls _ _ _ _ _ _ _ _ HR Hset E1) as (b1' & HR1 & Hf1 & Ho1 & Ha1 & Hc1 & Hco1).
  destruct (ca_solve A b1 w1) as [[r b2] w2] eqn:Es. pose proof (cf_solve _ _ C _ _ _ _ _ _ HR1 Ho1 Hco1 Es) as An.
  assert (Hcore : r = 20%Z -> forall c, core_of (ca_failed A b2) ls = Some c -> (forall l, In l c -> In (neg l) ls) /\
    forall a, sat_cnf a f = true -> (ca_constraint_failed A b2 <> 0%Z -> sat_cnf a (tmp_list t) = true) -> sat_clause a c = true).
  { intros -> c Ec. destruct An as (_ & A20 & _). destruct (A20 eq_refl) as (_ & HR2).
    destruct (cf_failed _ _ C _ _ _ _ HR2 eq_refl) as (_ & Hfail). cbn [after bs_f] in Hfail. rewrite Ha1, Hc1, Hf1 in Hfail. split.
    - intros l Hl. apply (core_of_spec _ _ _ Ec) in Hl as (a & -> & Hin & _). now rewrite neg_neg.
    - intros a Hsat Ht. destruct (Hfail a Hsat) as (l & Hl & F & Hl').
      { destruct t as [c'|]; [|exact Logic.I]. intros Hcf. specialize (Ht Hcf). cbn [tmp_list sat_cnf forallb] in Ht. now rewrite andb_true_r in Ht. }
      apply existsb_exists. exists (neg l). split; [apply (core_of_spec _ _ _ Ec); eauto|]. rewrite lit_true_neg, Hl'. reflexivity. }
  destruct (cad_answered b1' b2 r ls (core_of (ca_failed A b2) ls) s w2 x s' w' f t (taint x t) Hf1 Ha1 Hc1 An) as (H1 & H2 & H3 & H4 & H5); [|exact E|].
  { intros Er Et c Ec a Hsat. apply (proj2 (Hcore Er c Ec) a Hsat). intros _. subst r.
    apply answered_cases in E as [(_ & E & _)|[(_ & E & _)|(-> & _)]]; try discriminate E. now destruct t. }
  split; [exact H1|]. split; [intros Ex; now apply H3|]. split; [destruct x; cbn [cad_means]; [now apply H3|now apply H4|exact Logic.I]|].
  intros Ex. destruct (H4 Ex) as (_ & Er & c & Ec & Est). exists c. split; [unfold w_core; now rewrite Est|]. destruct (Hcore Er c Ec) as (Hc1' & Hc2). split; [exact Hc1'|].
  intros a Hsat Ht. apply Hc2; [exact Hsat|]. intros Hcf. apply Ht. unfold cad_tmp_in_core. rewrite Est, H2. f_equal. now destruct (Z.eqb_spec (ca_constraint_failed A b2) 0).
Qed.

Lemma cad_simplify_assumps_ok s f t ph ls n w x s' w' : cad_inv s f t ph -> (w_state s = WConfiguring \/ w_state s = WInput) -> cad_simplify_assumps A s ls n w = (Some x, s', w') ->
  cad_inv s' f None (match x, t, ls with RUnsat, Some _, _ => CTainted | RUnsat, _, _ :: _ => CTainted | _, _, _ => COk end) /\
  (x = RSat -> w_state s' = WSat) /\ cad_means s' x (f ++ tmp_list t ++ units ls).
Proof.
  intros (b & HR & Hset & _) Hst E.
  assert (E' : match cad_calls (ca_assume A) (w_b s) (map zlit ls) w with
         | (false, b, w') => (None, mkWrap b (w_state s) (w_max s), w')
         | (true, b, w') => let '(r, b', w'') := ca_simplify A b (Z.of_N n) w' in answered s r b' (Some []) w''
         end = (Some x, s', w')) by (unfold cad_simplify_assumps in E; destruct Hst as [Hst|Hst]; rewrite Hst in E |- *; exact E).
  clear E. destruct (cad_calls (ca_assume A) (w_b s) (map zlit ls) w) as [[[] b1] w1] eqn:E1; [|discriminate E'].
  destruct (cad_assume_calls _ _ _ _ _ _ _ _ HR Hset E1) as (b1' & HR1 & Hf1 & Ho1 & Ha1 & Hc1 & Hco1).
  destruct (ca_simplify A b1 (Z.of_N n) w1) as [[r b2] w2] eqn:Es. pose proof (cc_simplify _ _ CC _ _ _ _ _ _ _ HR1 Ho1 Hco1 Es) as An.
  set (ph' := match x, t, ls with RUnsat, Some _, _ => CTainted | RUnsat, _, _ :: _ => CTainted | _, _, _ => COk end).
  destruct (cad_answered b1' b2 r ls (Some []) s w2 x s' w' f t ph' Hf1 Ha1 Hc1 An) as (H1 & H2 & H3 & H4 & H5); [|exact E'|].
  { intros Er Et c Ec a Hsat. exfalso. subst r. destruct An as (_ & A20 & _). destruct (A20 eq_refl) as (Hu & _). apply (Hu a).
    apply answered_cases in E' as [(_ & E & _)|[(_ & E & _)|(-> & _)]]; try discriminate E. subst ph'. destruct t; [discriminate Et|]. destruct ls; [|discriminate Et].
    unfold query. rewrite Hf1, Ha1, Hc1. auto. }
  split; [exact H1|]. split; [intros Ex; now apply H3|]. destruct x; cbn [cad_means]; [now apply H3|now apply H4|exact Logic.I].
Qed.

Lemma chistory_inv s f t ph : chistory A s f t ph -> cad_inv s f t ph.
Proof.
  induction 1 as [w|s f t ph c w s' w' H IH E|s f t ph c w s' w' H IH E|s f t ph v w s' w' H IH E|s f t ph n w s' w' H IH Hst E|s f t w r s' w' H IH E
    |s f t ph ls w r s' w' H IH E|s f t n w r s' w' H IH Hc E|s f t ph ls n w r s' w' H IH Hst E].
  - unfold cad_init. pose proof (cf_init _ _ C w) as HR. destruct (ca_init A w) as [b w']. cbn [fst] in HR |- *. eexists. split; [exact HR|]. split; [repeat split|exact Logic.I].
  - destruct IH as (b & HR & Hset & _). unfold cad_add in E. destruct (cad_calls (ca_add A) (w_b s) (map zlit c ++ [0%Z]) w) as [[ok b1] w1] eqn:E1. injection E as -> <- <-.
    destruct (cad_add_calls _ _ _ _ _ _ _ _ HR Hset E1) as (b' & HR' & Hset'). exists b'. split; [exact HR'|]. split; [exact Hset'|exact Logic.I].
  - destruct IH as (b & HR & Hset & _). unfold cad_tmp in E. destruct (cad_calls (ca_constrain A) (w_b s) (map zlit c ++ [0%Z]) w) as [[ok b1] w1] eqn:E1. injection E as -> <- <-.
    destruct (cad_constrain_calls _ _ _ _ _ _ _ _ HR Hset E1) as (b' & HR' & Hset'). exists b'. split; [exact HR'|]. split; [exact Hset'|exact Logic.I].
  - destruct IH as (b & HR & (Hf & Ho & Ha & Hc & Hco) & _). unfold cad_reserve in E. destruct (cad_calls (ca_resize A) (w_b s) [(Z.of_N v + 1)%Z] w) as [[ok b1] w1] eqn:E1. injection E as -> <- <-.
    apply cad_calls_one in E1; [|apply (cc_codes _ _ CC)]. apply (cc_resize _ _ CC _ _ _ _ _ _ HR) in E1. eexists. split; [exact E1|]. split; [repeat split; auto|exact Logic.I].
  - destruct IH as (b & HR & (Hf & Ho & Ha & Hc & Hco) & Hs). unfold cad_declare in E. destruct (ca_declare A (w_b s) (Z.of_N n) w) as [b1 w1] eqn:E1. injection E as <- <-.
    apply (cc_declare _ _ CC _ _ _ _ _ _ HR) in E1. eexists. split; [exact E1|]. split; [repeat split; auto|]. cbn [w_state]. destruct (w_state s); auto. contradiction.
  - exact (proj1 (cad_solve_ok _ _ _ _ _ _ _ IH E)).
  - exact (proj1 (cad_assumps_ok _ _ _ _ _ _ _ _ _ IH E)).
  - exact (proj1 (cad_simplify_ok _ _ _ _ _ _ _ _ IH Hc E)).
  - exact (proj1 (cad_simplify_assumps_ok _ _ _ _ _ _ _ _ _ _ IH Hst E)).
Qed.

Definition cad_reps (s : wrap B) (f : cnf) (m : bool) : Prop := cad_inv s f None COk /\ (m = true -> w_state s = WSat).
Lemma cad_means_none s r f : cad_means s r (f ++ tmp_list None) -> cad_means s r f.
Proof. cbn [tmp_list]. now rewrite app_nil_r. Qed.

Theorem cadical_correct : correct_inc (cadical A) (models (is_solver (cadical A))) cad_reps /\ knows_vars (is_solver (cadical A)) cad_reps.
Proof.
  split.
  - constructor; unfold cad_reps; cbn [cadical is_solver is_assumps is_core sv_init sv_add sv_solve].
    + intros w. split; [|discriminate]. unfold cad_init. pose proof (cf_init _ _ C w) as HR. destruct (ca_init A w) as [b w']. cbn [fst] in HR |- *. eexists. split; [exact HR|]. split; [repeat split|exact Logic.I].
    + intros s f m c w s' w' [(b & HR & Hset & _) _] E. split; [|discriminate]. unfold cad_add in E. destruct (cad_calls (ca_add A) (w_b s) (map zlit c ++ [0%Z]) w) as [[ok b1] w1] eqn:E1. injection E as -> <- <-.
      destruct (cad_add_calls _ _ _ _ _ _ _ _ HR Hset E1) as (b' & HR' & Hset'). exists b'. split; [exact HR'|]. split; [exact Hset'|exact Logic.I].
    + intros s f m w s' w' [Hi _] E. destruct (cad_solve_ok _ _ _ _ _ _ _ Hi E) as (H1 & H2 & _). auto.
    + intros s f m w s' w' [Hi _] E. destruct (cad_solve_ok _ _ _ _ _ _ _ Hi E) as (H1 & _ & H3 & H4). split; [split; [exact H1|discriminate]|]. split; [exact (cad_means_none _ RUnsat _ H3)|auto].
    + intros s f m w s' w' [Hi _] E. destruct (cad_solve_ok _ _ _ _ _ _ _ Hi E) as (H1 & _). split; [exact H1|discriminate].
    + intros s f m ls w s' w' [Hi _] E. destruct (cad_assumps_ok _ _ _ _ _ _ _ _ _ Hi E) as (H1 & H2 & H3 & _). split; [auto|exact H3].
    + intros s f m ls w s' w' [Hi _] E. destruct (cad_assumps_ok _ _ _ _ _ _ _ _ _ Hi E) as (H1 & _ & H3 & H4). split; [split; [exact H1|discriminate]|]. split.
      * intros a Hs. specialize (H3 a). cbn [tmp_list app] in H3. rewrite sat_cnf_app, sat_units, Hs in H3. exact H3.
      * destruct (H4 eq_refl) as (core & Hc1 & Hc2 & Hc3). exists core. split; [exact Hc1|]. split; [exact Hc2|]. intros a Hs. apply Hc3; auto.
    + intros s f m ls w s' w' [Hi _] E. destruct (cad_assumps_ok _ _ _ _ _ _ _ _ _ Hi E) as (H1 & _). split; [exact H1|discriminate].
    + intros s f [(b & HR & _ & Hs) Hst]. specialize (Hst eq_refl). rewrite Hst in Hs. destruct Hs as (_ & p & Hp & Hsat). now apply (cad_models s b p).
  - intros s f m c l [(b & HR & (Hf & _) & _) _] Hc Hl. cbn [cadical is_solver sv_max_var]. unfold cad_max_var. rewrite <- Hf in Hc. pose proof (cc_vars _ _ CC _ _ _ _ HR Hc Hl) as H.
    destruct (Z.ltb_spec 0 (ca_vars A (w_b s))); [|lia]. eexists. split; [reflexivity|]. lia.
Qed.
End CadicalProofs.

(** incremental solvers are solvers *)
Lemma correct_inc_correct {S W} (V : incsolver S W) reps : correct_inc V (models (is_solver V)) reps -> correct (is_solver V) reps.
Proof.
  intros C. constructor.
  - apply (ci_init _ _ _ C).
  - apply (ci_add _ _ _ C).
  - intros s f m w s' w' H E. exact (ci_sat _ _ _ C _ _ _ _ _ _ H E).
  - intros s f m w s' w' H E. destruct (ci_unsat _ _ _ C _ _ _ _ _ _ H E) as (H1 & H2 & _). auto.
  - apply (ci_interrupted _ _ _ C).
  - apply (ci_models _ _ _ C).
Qed.

(** ** Minisat and Glucose *)
Lemma collect_vals_ext v1 v2 n : forall idx, (forall k, k < n -> v1 (pos (idx + N.of_nat k)) = v2 (pos (idx + N.of_nat k))) -> collect_vals v1 n idx = collect_vals v2 n idx.
Proof.
  induction n as [|n IH]; intros idx H; cbn [collect_vals]; [reflexivity|]. pose proof (H 0 ltac:(lia)) as H0. replace (idx + N.of_nat 0)%N with idx in H0 by lia. rewrite H0.
  rewrite (IH (idx + 1)%N); [reflexivity|]. intros k Hk. specialize (H (S k) ltac:(lia)). replace (idx + 1 + N.of_nat k)%N with (idx + N.of_nat (S k))%N by lia. exact H.
Qed.
Lemma default_solution_upto val p h : (forall v, (v <= h)%N -> val (pos v) = Some (plit p (pos v))) ->
  exists sol, default_solution val h = Some sol /\ forall v, pasg_of sol v = if (v <=? h)%N then p v else None.
Proof.
  intros H. destruct (default_solution_ok (fun l => Some (plit p l)) p (fun _ => eq_refl) h) as (sol & E & K). exists sol. split; [|exact K].
  rewrite <- E. unfold default_solution. apply collect_vals_ext. intros k Hk. apply H. lia.
Qed.

Lemma max_lit_ge ls : forall l, In l ls -> (lvar l <= max_lit ls)%N.
Proof.
  unfold max_lit. assert (G : forall m, (m <= fold_left (fun m l => if (m <? lvar l)%N then lvar l else m) ls m)%N /\
    forall l, In l ls -> (lvar l <= fold_left (fun m l => if (m <? lvar l)%N then lvar l else m) ls m)%N); [|apply G].
  induction ls as [|x ls IH]; intros m; cbn [fold_left]; [split; [lia|intros l []]|].
  destruct (IH (if (m <? lvar x)%N then lvar x else m)) as (I1 & I2). split; [destruct (N.ltb_spec m (lvar x)); lia|].
  intros l [<- |Hl]; [destruct (N.ltb_spec m (lvar x)); lia|auto].
Qed.

Section MinisatProofs.
Context {B W : Type} (A : sapi B W) (R : B -> sst -> Prop).
Hypothesis C : conforming_solver A R.

Lemma new_vars_ok n : forall b s w b' w', R b s -> new_vars A n b w = (true, b', w') -> R b' (mkSst (ss_f s) (n + ss_n s) (ss_ans s)).
Proof.
  induction n as [|n IH]; intros b s w b' w' H E; cbn [new_vars] in E; [injection E as <- <-; now destruct s|].
  destruct (so_new_var A b w) as [[[] b1] w1] eqn:E1; [|discriminate E]. apply (cs_new_var _ _ C _ _ _ _ _ H) in E1.
  apply (IH _ _ _ _ _ E1) in E. cbn [ss_f ss_n ss_ans] in E. now replace (S n + ss_n s) with (n + S (ss_n s)) by lia.
Qed.
Lemma cm_reserve_ok b s v w b' w' : R b s -> cm_reserve A b v w = (true, b', w') -> exists n, R b' (mkSst (ss_f s) n (ss_ans s)) /\ ss_n s <= n /\ vidx v < n.
Proof.
  intros H E. unfold cm_reserve in E. apply (new_vars_ok _ _ _ _ _ _ H) in E. eexists. split; [exact E|]. rewrite (cs_n_vars _ _ C _ _ H). unfold vidx. lia.
Qed.

Definition ms_inv (s : mwrap B) (f : cnf) : Prop := exists b, R (m_b s) b /\ ss_f b = f /\ (forall c, In c f -> vars_below (ss_n b) c) /\
  match m_state s with
  | MSat => exists m, ss_ans b = SSat m /\ (forall c, In c f -> vars_below (length m) c) /\ forall a, completes a (model_pasg m) -> sat_cnf a f = true
  | MUnsat true => exists ls, ss_ans b = SUnsat ls /\ forall a, sat_cnf a f = true -> sat_cube a ls = false
  | MUnsat false => unsat f
  | _ => True
  end.
Definition ms_reps (s : mwrap B) (f : cnf) (m : bool) : Prop := ms_inv s f /\ (m = true -> m_state s = MSat).

Lemma vars_below_le n n' ls : vars_below n ls -> n <= n' -> vars_below n' ls.
Proof. intros H L l Hl. specialize (H l Hl). lia. Qed.

Lemma ms_models (s : mwrap B) b m g : m_state s = MSat -> R (m_b s) b -> ss_ans b = SSat m -> (forall c, In c g -> vars_below (length m) c) ->
  (forall a, completes a (model_pasg m) -> sat_cnf a g = true) -> var_models (is_solver (minisat A)) s g.
Proof.
  intros Hs HR Hm Hv Hg. exists (model_pasg m), (length m). cbn [minisat is_solver sv_val sv_solution].
  assert (V : forall v, vidx v < length m -> ms_val A s (pos v) = Some (plit (model_pasg m) (pos v))).
  { intros v Hlt. unfold ms_val, cm_val, plit, model_pasg. rewrite Hs, (cs_model _ _ C _ _ _ HR Hm). cbn [pos lvar lneg].
    destruct (nth_error m (vidx v)) as [[[]|]|] eqn:E; try reflexivity. apply nth_error_None in E. lia. }
  split; [exact Hv|]. split; [exact V|]. split; [|exact Hg]. intros h Hh. apply default_solution_upto. intros v Hvh. apply V. unfold vidx in *. lia.
Qed.

Lemma ms_ask s f ls under w r b w1 x s' w' : ms_inv s f -> cm_solve A (m_b s) ls w = (r, b, w1) -> (under = false -> ls = []) -> ms_answered s r b under w1 = (Some x, s', w') ->
  ms_inv s' f /\ (x = RSat -> m_state s' = MSat /\ var_models (is_solver (minisat A)) s' (f ++ units ls)) /\
  (x = RUnsat -> m_state s' = MUnsat under /\ (forall a, sat_cnf a f = true -> sat_cube a ls = false) /\ exists t, R (m_b s') t /\ ss_f t = f /\ ss_ans t = SUnsat ls).
Proof.
  intros (t & HR & Hf & Hv & _) E Hu Ea. unfold cm_solve in E. destruct (cm_reserve A (m_b s) (max_lit ls) w) as [[[] b0] w0] eqn:E0.
  2:{ injection E as <- <- <-. unfold ms_answered in Ea. cbn in Ea. discriminate Ea. }
  destruct (cm_reserve_ok _ _ _ _ _ _ HR E0) as (n & HR0 & Hn & Hmax).
  assert (Hb : vars_below n ls). { intros l Hl. pose proof (max_lit_ge ls l Hl). unfold vidx in *. lia. }
  assert (Hv' : forall c, In c f -> vars_below n c) by (intros c Hc; eapply vars_below_le; [now apply Hv|exact Hn]).
  destruct (so_solve A b0 ls w0) as [[o b1] w2] eqn:Es. injection E as Er <- <-. unfold ms_answered in Ea. rewrite <- Er in Ea. clear Er r.
  destruct o as [[[]|]|]; cbn in Ea; try discriminate Ea; injection Ea as <- <- <-.
  - destruct (cs_sat _ _ C _ _ _ _ _ _ HR0 Hb Es) as (m & Lm & Hm & HR1). cbn [ss_n ss_f] in Lm, Hm, HR1. rewrite Hf in Hm, HR1. split; [|split; [|discriminate]].
    + eexists. split; [exact HR1|]. cbn [ss_f ss_n m_state ss_ans]. split; [reflexivity|]. split; [exact Hv'|]. exists m. split; [reflexivity|]. rewrite Lm. split; [exact Hv'|]. intros a H. now apply Hm.
    + intros _. split; [reflexivity|]. apply (ms_models (mkMwrap b1 MSat) _ m _ eq_refl HR1 eq_refl); rewrite ?Lm.
      * intros c Hc. apply in_app_or in Hc as [Hc|Hc]; [now apply Hv'|]. apply in_map_iff in Hc as (l & <- & Hl). intros l' [<- |[]]. now apply Hb.
      * intros a H. rewrite sat_cnf_app, sat_units. destruct (Hm a H) as [-> ->]. reflexivity.
  - destruct (cs_unsat _ _ C _ _ _ _ _ _ HR0 Hb Es) as (Hun & HR1). cbn [ss_n ss_f] in Hun, HR1. rewrite Hf in Hun, HR1. split; [|split; [discriminate|]].
    + eexists. split; [exact HR1|]. cbn [ss_f ss_n m_state ss_ans]. split; [reflexivity|]. split; [exact Hv'|]. destruct under; [exists ls; auto|].
      rewrite (Hu eq_refl) in Hun. intros a. destruct (sat_cnf a f) eqn:Ef; [|reflexivity]. specialize (Hun a Ef). discriminate Hun.
    + intros _. split; [reflexivity|]. split; [exact Hun|]. eexists. split; [exact HR1|]. auto.
  - apply (cs_undef _ _ C _ _ _ _ _ _ HR0 Hb) in Es. cbn [ss_n ss_f] in Es. rewrite Hf in Es. split; [|split; discriminate]. eexists. split; [exact Es|]. cbn. auto.
Qed.

Theorem minisat_correct : correct_inc (minisat A) (var_models (is_solver (minisat A))) ms_reps /\ knows_vars (is_solver (minisat A)) ms_reps.
Proof.
  assert (Solve : forall s f w x s' w', ms_inv s f -> ms_solve A s w = (Some x, s', w') -> ms_inv s' f /\ (x = RSat -> m_state s' = MSat) /\ (x = RUnsat -> m_state s' = MUnsat false /\ unsat f)).
  { intros s f w x s' w' Hi E. unfold ms_solve in E.
    assert (Ask : (let '(r, b, w1) := cm_solve A (m_b s) [] w in ms_answered s r b false w1) = (Some x, s', w') -> ms_inv s' f /\ (x = RSat -> m_state s' = MSat) /\ (x = RUnsat -> m_state s' = MUnsat false /\ unsat f)).
    { clear E. intros E. destruct (cm_solve A (m_b s) [] w) as [[r b] w1] eqn:Ec. destruct (ms_ask _ _ _ _ _ _ _ _ _ _ _ Hi Ec (fun _ => eq_refl) E) as (H1 & H2 & H3). split; [exact H1|].
      split; [intros Ex; now apply H2|]. intros Ex. destruct (H3 Ex) as (H4 & H5 & _). split; [exact H4|]. intros a. destruct (sat_cnf a f) eqn:Ef; [|reflexivity]. specialize (H5 a Ef). discriminate H5. }
    destruct (m_state s) as [| | |[]] eqn:Est; try (exact (Ask E)); injection E as <- <- <-; (split; [exact Hi|]); (split; [(discriminate || auto)|]); [discriminate|].
    intros _. split; [exact Est|]. destruct Hi as (b & _ & _ & _ & Hs). now rewrite Est in Hs. }
  split.
  - constructor; unfold ms_reps; cbn [minisat is_solver is_assumps is_core sv_init sv_add sv_solve].
    + intros w. unfold ms_init. pose proof (cs_init _ _ C w) as HR. destruct (so_init A w) as [b w']. cbn [fst] in HR |- *. split; [|discriminate]. eexists. split; [exact HR|]. cbn. repeat split; auto. intros c [].
    + intros s f m c w s' w' [(b & HR & Hf & Hv & _) _] E. split; [|discriminate]. unfold ms_add, cm_add in E.
      destruct (cm_reserve A (m_b s) (max_lit c) w) as [[[] b0] w0] eqn:E0; [|discriminate E]. destruct (cm_reserve_ok _ _ _ _ _ _ HR E0) as (n & HR0 & Hn & Hmax).
      assert (Hb : vars_below n c). { intros l Hl. pose proof (max_lit_ge c l Hl). unfold vidx in *. lia. }
      destruct (so_add A b0 c w0) as [[ok b1] w1] eqn:E1. injection E as -> <- <-. apply (cs_add _ _ C _ _ _ _ _ _ HR0 Hb) in E1. cbn [ss_f ss_n] in E1. rewrite Hf in E1.
      eexists. split; [exact E1|]. cbn. split; [reflexivity|]. split; [|exact Logic.I]. intros c' Hc. apply in_app_or in Hc as [Hc|[<- |[]]]; [|exact Hb]. eapply vars_below_le; [now apply Hv|exact Hn].
    + intros s f m w s' w' [Hi _] E. destruct (Solve _ _ _ _ _ _ Hi E) as (H1 & H2 & _). auto.
    + intros s f m w s' w' [Hi _] E. destruct (Solve _ _ _ _ _ _ Hi E) as (H1 & _ & H3). destruct (H3 eq_refl) as (H4 & H5). split; [split; [exact H1|discriminate]|]. split; [exact H5|]. unfold ms_core. now rewrite H4.
    + intros s f m w s' w' [Hi _] E. destruct (Solve _ _ _ _ _ _ Hi E) as (H1 & _). split; [exact H1|discriminate].
    + intros s f m ls w s' w' [Hi _] E. unfold ms_solve_assumps in E. destruct (cm_solve A (m_b s) ls w) as [[r b] w1] eqn:Ec.
      destruct (ms_ask _ _ _ _ _ _ _ _ _ _ _ Hi Ec (fun H => match Bool.diff_true_false H with end) E) as (H1 & H2 & _). destruct (H2 eq_refl). auto.
    + intros s f m ls w s' w' [Hi _] E. unfold ms_solve_assumps in E. destruct (cm_solve A (m_b s) ls w) as [[r b] w1] eqn:Ec.
      destruct (ms_ask _ _ _ _ _ _ _ _ _ _ _ Hi Ec (fun H => match Bool.diff_true_false H with end) E) as (H1 & _ & H3). destruct (H3 eq_refl) as (H4 & H5 & t & HR & Hf & Ht).
      split; [split; [exact H1|discriminate]|]. split; [exact H5|]. unfold ms_core. rewrite H4. eexists. split; [reflexivity|]. rewrite <- Hf. apply (cs_conflict _ _ C _ _ _ HR Ht).
    + intros s f m ls w s' w' [Hi _] E. unfold ms_solve_assumps in E. destruct (cm_solve A (m_b s) ls w) as [[r b] w1] eqn:Ec.
      destruct (ms_ask _ _ _ _ _ _ _ _ _ _ _ Hi Ec (fun H => match Bool.diff_true_false H with end) E) as (H1 & _). split; [exact H1|discriminate].
    + intros s f [(b & HR & _ & _ & Hs) Hst]. specialize (Hst eq_refl). rewrite Hst in Hs. destruct Hs as (m & Hm & Hv & Hsat). now apply (ms_models s b m).
  - intros s f m c l [(b & HR & Hf & Hv & _) _] Hc Hl. cbn [minisat is_solver sv_max_var]. unfold ms_max_var. rewrite (cs_n_vars _ _ C _ _ HR).
    specialize (Hv c Hc l Hl). destruct (ss_n b) as [|n]; [lia|]. eexists. split; [reflexivity|]. unfold vidx in Hv. lia.
Qed.
End MinisatProofs.

(** ** Kissat *)
Section KissatProofs.
Context {B W : Type} (A : kapi B W) (R : B -> kst -> Prop).
Hypothesis C : conforming_kissat A R.

Lemma k_add_lits_ok c : forall b s w, R b s -> ks_searched s = false -> exists b' w', k_add_lits A b (map zlit c ++ [0%Z]) w = Some (b', w') /\
  R b' (mkKst (ks_f s ++ [ks_open s ++ c]) [] false KNone).
Proof.
  induction c as [|l c IH]; intros b s w HR Hs; cbn [map app k_add_lits].
  - destruct (ck_add_end _ _ C b s w HR Hs) as (b' & w' & -> & HR'). rewrite app_nil_r. eauto.
  - destruct (ck_add _ _ C b s l w HR Hs) as (b1 & w1 & -> & HR1). destruct (IH b1 _ w1 HR1 eq_refl) as (b' & w' & E & HR').
    cbn [ks_f ks_open] in HR'. rewrite <- app_assoc in HR'. eauto.
Qed.
Definition k_inv (s : wrap B) (f : cnf) : Prop := exists b, R (w_b s) b /\ ks_f b = f /\ ks_open b = [] /\ max_knows (w_max s) f /\
  match w_state s with
  | WSat => exists p, ks_ans b = KSat p /\ forall a, completes a p -> sat_cnf a f = true
  | WUnsat _ => unsat f
  | _ => True
  end.
Definition k_reps (s : wrap B) (f : cnf) (m : bool) : Prop := k_inv s f /\ (m = true -> w_state s = WSat).
(** not asked yet *)
Definition k_fresh (s : wrap B) (f : cnf) : Prop := exists b, R (w_b s) b /\ ks_f b = f /\ ks_open b = [] /\ ks_searched b = false /\ max_knows (w_max s) f /\ (w_state s = WConfiguring \/ w_state s = WInput).

Lemma k_models (s : wrap B) b p f : w_state s = WSat -> R (w_b s) b -> ks_ans b = KSat p -> (forall a, completes a p -> sat_cnf a f = true) -> models (kissat A) s f.
Proof.
  intros Hs HR Hp Hg. assert (V : forall l, k_val A s l = Some (plit p l)) by (intros l; unfold k_val; rewrite Hs, (ck_val _ _ C _ _ _ l HR Hp); apply value_code_tern).
  exists p. split; [exact V|]. split; [|exact Hg]. intros h. now apply default_solution_ok.
Qed.

Lemma k_fresh_inv s f : k_fresh s f -> k_inv s f.
Proof. intros (b & HR & Hf & Ho & _ & Hm & Hs). exists b. repeat split; auto. destruct Hs as [-> | ->]; exact Logic.I. Qed.
Lemma k_fresh_init w : k_fresh (fst (k_init A w)) [].
Proof.
  unfold k_init. pose proof (ck_init _ _ C w) as HR. destruct (ki_init A w) as [b w']. cbn [fst] in *. eexists. split; [exact HR|]. cbn. repeat split; auto. intros c l [].
Qed.
Lemma k_fresh_add s f c w : k_fresh s f -> exists s' w', k_add A s c w = (Ok tt, s', w') /\ k_fresh s' (f ++ [c]).
Proof.
  intros (b & HR & Hf & Ho & Hse & Hm & Hs). destruct (k_add_lits_ok c _ _ w HR Hse) as (b' & w' & E & HR').
  exists (mkWrap b' WInput (max_var_of (w_max s) c)), w'. unfold k_add. split; [destruct Hs as [-> | ->]; now rewrite E|].
  rewrite Hf, Ho in HR'. eexists. split; [exact HR'|]. cbn. repeat split; auto. now apply max_knows_add.
Qed.
Lemma k_fresh_reserve s f v w s' w' : k_fresh s f -> k_reserve A s v w = (s', w') -> k_fresh s' f.
Proof.
  intros (b & HR & Hf & Ho & Hse & Hm & Hs) E. unfold k_reserve in E. destruct (ki_reserve A (w_b s) (Z.of_N v + 1)%Z w) as [b1 w1] eqn:E1. injection E as <- <-.
  apply (ck_reserve _ _ C _ _ _ _ _ _ HR) in E1. eexists. split; [exact E1|]. cbn. repeat split; auto.
Qed.
Lemma k_fresh_solve s f w : k_fresh s f -> fst (fst (k_solve A s w)) <> Abort.
Proof.
  intros (b & HR & Hf & Ho & Hse & Hm & Hs). destruct (ck_solve _ _ C _ _ w HR Hse Ho) as (r & b' & w' & E & _).
  unfold k_solve. destruct (answered s r b' (Some []) w') as [[[x|] s1] w1] eqn:Ea; destruct Hs as [-> | ->]; rewrite E, Ea; discriminate.
Qed.

Lemma k_add_ok s f c w s' w' : k_inv s f -> k_add A s c w = (Ok tt, s', w') -> k_inv s' (f ++ [c]) /\ (k_fresh s f -> k_fresh s' (f ++ [c])).
Proof.
  intros (b & HR & Hf & Ho & Hm & Hs) E.
  assert (E' : exists b1 w1, k_add_lits A (w_b s) (map zlit c ++ [0%Z]) w = Some (b1, w1) /\ s' = mkWrap b1 WInput (max_var_of (w_max s) c)).
  { unfold k_add in E. destruct (w_state s); try discriminate E; destruct (k_add_lits A (w_b s) (map zlit c ++ [0%Z]) w) as [[b1 w1]|]; try discriminate E; injection E as <- <-; eauto. }
  clear Hs. destruct E' as (b1 & w1 & E' & ->). destruct (ks_searched b) eqn:Hse.
  - exfalso. assert (En : forall z zs, k_add_lits A (w_b s) (z :: zs) w = None) by (intros z zs; cbn [k_add_lits]; now rewrite (ck_add_abort _ _ C _ _ z w HR Hse)).
    destruct c as [|l c]; cbn [map app] in E'; rewrite En in E'; discriminate E'.
  - destruct (k_add_lits_ok c _ _ w HR Hse) as (b2 & w2 & E2 & HR2). rewrite E2 in E'. injection E' as <- <-. rewrite Hf, Ho in HR2. cbn [app] in HR2.
    split; [|intros _]; (eexists; split; [exact HR2|]); cbn; repeat split; auto; now apply max_knows_add.
Qed.
Lemma k_solve_ok s f w x s' w' : k_inv s f -> k_solve A s w = (Ok x, s', w') -> k_inv s' f /\ (x = RSat -> w_state s' = WSat) /\ (x = RUnsat -> unsat f).
Proof.
  intros Hi E. assert (Hi' := Hi). destruct Hi as (b & HR & Hf & Ho & Hm & Hs). unfold k_solve in E.
  assert (Ask : match ki_solve A (w_b s) w with
         | Some (r, b, w') => match answered s r b (Some []) w' with (Some x, s', w'') => (Ok x, s', w'') | (None, s', w'') => (Err, s', w'') end
         | None => (Abort, s, w) end = (Ok x, s', w') -> k_inv s' f /\ (x = RSat -> w_state s' = WSat) /\ (x = RUnsat -> unsat f)).
  { clear E. intros E. destruct (ks_searched b) eqn:Hse; [rewrite (ck_solve_abort _ _ C _ _ w HR Hse) in E; discriminate E|].
    destruct (ck_solve _ _ C _ _ w HR Hse Ho) as (r & b' & w1 & E1 & H10 & Hn & H20). rewrite E1 in E. rewrite Hf in *.
    destruct (answered s r b' (Some []) w1) as [[[y|] s1] w2] eqn:Ea; [|discriminate E]. injection E as -> -> <-.
    apply answered_cases in Ea as [(-> & -> & ->)|[(-> & -> & ->)|(-> & -> & c & _ & ->)]].
    - split; [|split; discriminate]. eexists. split; [apply Hn; discriminate|]. cbn. auto.
    - destruct (H10 eq_refl) as (p & Hp & HR'). split; [|split; [reflexivity|discriminate]]. eexists. split; [exact HR'|]. cbn. repeat split; auto. exists p. auto.
    - split; [|split; [discriminate|intros _; now apply H20]]. eexists. split; [apply Hn; discriminate|]. cbn. auto. }
  destruct (w_state s) as [| | |core] eqn:Est; try (exact (Ask E)); injection E as <- <- <-; (split; [exact Hi'|]); split; auto; discriminate.
Qed.

Theorem kissat_correct : correct (kissat A) k_reps /\ knows_vars (kissat A) k_reps.
Proof.
  split.
  - constructor; unfold k_reps; cbn [kissat sv_init sv_add sv_solve].
    + intros w. split; [apply k_fresh_inv, k_fresh_init|discriminate].
    + intros s f m c w s' w' [Hi _] E. split; [|discriminate]. destruct (k_add A s c w) as [[[[]| |] s1] w1] eqn:E1; try discriminate E. injection E as <- <-. exact (proj1 (k_add_ok _ _ _ _ _ _ Hi E1)).
    + intros s f m w s' w' [Hi _] E. destruct (k_solve A s w) as [[[x| |] s1] w1] eqn:E1; try discriminate E. injection E as -> <- <-. destruct (k_solve_ok _ _ _ _ _ _ Hi E1) as (H1 & H2 & H3). auto.
    + intros s f m w s' w' [Hi _] E. destruct (k_solve A s w) as [[[x| |] s1] w1] eqn:E1; try discriminate E. injection E as -> <- <-. destruct (k_solve_ok _ _ _ _ _ _ Hi E1) as (H1 & H2 & H3). repeat split; auto. discriminate.
    + intros s f m w s' w' [Hi _] E. destruct (k_solve A s w) as [[[x| |] s1] w1] eqn:E1; try discriminate E. injection E as -> <- <-. destruct (k_solve_ok _ _ _ _ _ _ Hi E1) as (H1 & H2 & H3). repeat split; auto. discriminate.
    + intros s f [(b & HR & _ & _ & _ & Hs) Hst]. specialize (Hst eq_refl). rewrite Hst in Hs. destruct Hs as (p & Hp & Hsat). now apply (k_models s b p).
  - intros s f m c l [(b & _ & _ & _ & Hm & _) _] Hc Hl. exact (Hm c l Hc Hl).
Qed.
(** before the first question no call aborts *)
Theorem khistory_fresh s f : khistory A s f false -> k_fresh s f.
Proof.
  remember false as q. induction 1 as [w|s f q c w s' w' H IH E|s f q v w s' w' H IH E|s f q w r s' w' H IH E].
  - apply k_fresh_init.
  - specialize (IH Heqq). exact (proj2 (k_add_ok _ _ _ _ _ _ (k_fresh_inv _ _ IH) E) IH).
  - exact (k_fresh_reserve _ _ _ _ _ _ (IH Heqq) E).
  - discriminate Heqq.
Qed.
(** after the first question *)
Theorem khistory_asked s f : khistory A s f true ->
  match w_state s with
  | WSat => (forall c w, k_add A s c w = (Err, s, w)) /\ forall w, k_solve A s w = (Ok RSat, s, w)
  | WUnsat _ => (forall c w, k_add A s c w = (Err, s, w)) /\ forall w, k_solve A s w = (Ok RUnsat, s, w)
  | _ => (forall c w, fst (fst (k_add A s c w)) = Abort) /\ forall w, fst (fst (k_solve A s w)) = Abort
  end.
Proof.
  intros H. assert (S : exists b, R (w_b s) b /\ ks_searched b = true).
  { remember true as q eqn:Heqq in H. induction H as [w|s f q c w s' w' H IH E|s f q v w s' w' H IH E|s f q w r s' w' H IH E]; [discriminate Heqq| | |].
    - exfalso. destruct (IH Heqq) as (b & HR & Hs). unfold k_add in E. assert (En : k_add_lits A (w_b s) (map zlit c ++ [0%Z]) w = None) by (destruct c; cbn [map app k_add_lits]; now rewrite (ck_add_abort _ _ C _ _ _ w HR Hs)).
      rewrite En in E. destruct (w_state s); discriminate E.
    - destruct (IH Heqq) as (b & HR & Hs). unfold k_reserve in E. destruct (ki_reserve A (w_b s) (Z.of_N v + 1)%Z w) as [b1 w1] eqn:E1. injection E as <- <-. apply (ck_reserve _ _ C _ _ _ _ _ _ HR) in E1. eauto.
    - assert (G : (exists b, R (w_b s) b /\ ks_searched b = true) \/ (q = false /\ k_fresh s f)) by (destruct q; [left; now apply IH|right; split; [reflexivity|now apply khistory_fresh]]).
      unfold k_solve in E. assert (Hk : (w_state s = WSat \/ exists c, w_state s = WUnsat c) -> exists b, R (w_b s) b /\ ks_searched b = true).
      { intros Hst. destruct G as [G|(_ & b & _ & _ & _ & _ & _ & Hst')]; [exact G|]. destruct Hst as [Hst|(c & Hst)]; rewrite Hst in Hst'; destruct Hst' as [Hst'|Hst']; discriminate Hst'. }
      assert (Ask : match ki_solve A (w_b s) w with
         | Some (r, b, w') => match answered s r b (Some []) w' with (Some x, s', w'') => (Ok x, s', w'') | (None, s', w'') => (Err, s', w'') end
         | None => (Abort, s, w) end = (Ok r, s', w') -> exists b, R (w_b s') b /\ ks_searched b = true).
      { clear E. intros E. destruct G as [(b & HR & Hs)|(_ & b & HR & Hf & Ho & Hs & _)]; [rewrite (ck_solve_abort _ _ C _ _ w HR Hs) in E; discriminate E|].
        destruct (ck_solve _ _ C _ _ w HR Hs Ho) as (z & b' & w1 & E1 & H10 & Hn & _). rewrite E1 in E. destruct (answered s z b' (Some []) w1) as [[[y|] s1] w2] eqn:Ea; [|discriminate E]. injection E as -> -> <-.
        apply answered_cases in Ea as [(_ & -> & ->)|[(_ & -> & ->)|(_ & -> & c & _ & ->)]]; cbn [w_b]; [eexists; split; [apply Hn; discriminate|reflexivity]| |eexists; split; [apply Hn; discriminate|reflexivity]].
        destruct (H10 eq_refl) as (p & _ & HR'). eauto. }
      destruct (w_state s) as [| | |core] eqn:Est; try (exact (Ask E)); injection E as _ <- _; apply Hk; eauto. }
  destruct S as (b & HR & Hs).
  assert (En : forall c w, k_add_lits A (w_b s) (map zlit c ++ [0%Z]) w = None) by (intros c w; destruct c; cbn [map app k_add_lits]; now rewrite (ck_add_abort _ _ C _ _ _ w HR Hs)).
  unfold k_add, k_solve. destruct (w_state s); split; intros; rewrite ?En, ?(ck_solve_abort _ _ C _ _ _ HR Hs); reflexivity.
Qed.
End KissatProofs.
