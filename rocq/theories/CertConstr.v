(** * Certified encodings of single cardinality constraints *)

From Coq Require Import List Bool NArith ZArith Lia Arith Permutation.
From Coq Require Import ZifyBool ZifyNat ZifyN.
From Verif Require Import Spec BoundSpec Types Constraints Atomics NodeDb TreeSpec TotDb Totalizer Base ConstrEnc TotDbInv TotDbUnit TotDbDefine TotDbGeneral TotDbBuild TotDbGrow TotDbMerge TotWeighted TotDbHist TotalizerProofs.
From Verif Require Import CertSpec CertBase CertSound Cert CertWorld CertDefs CertSem CertStep CertProofs CertTot CertHist CertTally.
Import ListNotations.
Open Scope nat_scope.

(** ** The constraints in the proof *)

Lemma at_least_slack ls b a : slack (at_least_con ls b) a = (cnt a ls - Z.of_nat b)%Z.
Proof.
  unfold at_least_con. rewrite norm_slack. reflexivity.
Qed.

Lemma at_most_slack ls b a : slack (at_most_con ls b) a = (Z.of_nat b - cnt a ls)%Z.
Proof.
  unfold at_most_con. rewrite norm_slack. unfold slack. cbn [fst snd]. enough (zwsum a (map (fun l => (l, (-1)%Z)) ls) = - cnt a ls)%Z by lia.
  induction ls as [|l ls IH]; [reflexivity|]. cbn [map]. rewrite zwsum_cons', cnt_cons, IH. lia.
Qed.

(** ** What an enforced bound says about the root *)

Lemma ub_shape w t ub us : tinv [] w t -> 2 <= length (w_in w) -> ub < length (w_in w) -> tot_enforce_ub t ub = Some (EOk us) ->
  exists root lits l r o s, to_buf t = [] /\ to_root t = Some root /\ nth_error (d_nodes (to_db t)) root = Some (NUnit lits l r) /\
    nth_error lits ub = Some (LLit o (Some s)) /\ us = [neg o].
Proof.
  intros T L2 Lu H. pose proof (n_lits_ok _ _ T) as En. destruct T as (g & ow & rooted & I). unfold tot_enforce_ub in H. rewrite En, (ti_off _ _ _ _ _ I) in H.
  cbn [obind assertb Nat.leb] in H. rewrite Nat.sub_0_r, Nat.add_0_r in H. destruct (Nat.leb_spec (length (w_in w)) ub); [lia|].
  destruct (to_buf t) eqn:Eb; [|discriminate]. destruct (to_root t) as [root|] eqn:Er; [|discriminate].
  pose proof (tinv_utree _ _ _ _ _ _ _ I Er) as U. pose proof (ti_in _ _ _ _ _ I) as Ein. rewrite Eb, app_nil_r in Ein.
  destruct (nth_error (d_nodes (to_db t)) root) as [[x|lits l r| |]|] eqn:Hn; cbn [obind] in H; try discriminate.
  - exfalso. rewrite <- Ein in U. inversion U as [? y Hy Ey Ez|]; [rewrite <- Ez in L2; cbn in L2; lia|congruence].
  - destruct (nth_error lits ub) as [[|o [s|]]|] eqn:Ex; cbn [obind] in H; try discriminate. destruct (has_if s); [|discriminate]. injection H as <-.
    exists root, lits, l, r, o, s. auto.
Qed.

Lemma lb_shape w t lb us : tinv [] w t -> 2 <= length (w_in w) -> 1 <= lb <= length (w_in w) -> tot_enforce_lb t lb = Some (EOk us) ->
  exists root lits l r o s, to_buf t = [] /\ to_root t = Some root /\ nth_error (d_nodes (to_db t)) root = Some (NUnit lits l r) /\
    nth_error lits (lb - 1) = Some (LLit o (Some s)) /\ us = [o].
Proof.
  intros T L2 Lu H. pose proof (n_lits_ok _ _ T) as En. destruct T as (g & ow & rooted & I). unfold tot_enforce_lb in H. rewrite En, (ti_off _ _ _ _ _ I) in H.
  cbn [obind] in H. rewrite !Nat.add_0_r in H. destruct (Nat.leb_spec lb 0); [lia|]. destruct (Nat.ltb_spec (length (w_in w)) lb); [lia|].
  destruct (to_buf t) eqn:Eb; [|discriminate]. destruct (to_root t) as [root|] eqn:Er; [|discriminate].
  pose proof (tinv_utree _ _ _ _ _ _ _ I Er) as U. pose proof (ti_in _ _ _ _ _ I) as Ein. rewrite Eb, app_nil_r in Ein.
  destruct (nth_error (d_nodes (to_db t)) root) as [[x|lits l r| |]|] eqn:Hn; cbn [obind] in H; try discriminate.
  - exfalso. rewrite <- Ein in U. inversion U as [? y Hy Ey Ez|]; [rewrite <- Ez in L2; cbn in L2; lia|congruence].
  - destruct (nth_error lits (lb - 1)) as [[|o [s|]]|] eqn:Ex; cbn [obind] in H; try discriminate. destruct (has_only_if s); [|discriminate]. injection H as <-.
    exists root, lits, l, r, o, s. auto.
Qed.

Lemma details w ct next p root lits l r v o s : tinv [] w (ct_tot ct) -> CInv (base ct next p) p -> marked (base ct next p) ->
  to_buf (ct_tot ct) = [] -> to_root (ct_tot ct) = Some root -> nth_error (d_nodes (to_db (ct_tot ct))) root = Some (NUnit lits l r) ->
  nth_error lits v = Some (LLit o (Some s)) ->
  exists d i j, output_proof_details ct (v + 1) = Some (o, d) /\ sd_if d = Some i /\ sd_only_if d = Some j /\ In i (def_ids (ct_defs ct)) /\
    con_is p i (fun a => len (w_in w) - cnt a (w_in w) - (len (w_in w) - Z.of_nat v) * (1 - lv a o))%Z /\
    con_is p j (fun a => cnt a (w_in w) - Z.of_nat (v + 1) * lv a o)%Z.
Proof.
  intros T C K Eb Er Hn Hv. destruct T as (g & ow & rooted & I). pose proof (ti_in _ _ _ _ _ I) as Ein. rewrite Eb, app_nil_r in Ein.
  pose proof (tinv_utree _ _ _ _ _ _ _ I Er) as U. rewrite <- Ein in U.
  assert (Hd : data (d_nodes (to_db (ct_tot ct))) root (v + 1) = Some (LLit o (Some s))).
  { unfold data. rewrite Hn. cbn [node_data]. destruct (Nat.eqb_spec (v + 1) 0); [lia|]. rewrite Nat.add_sub. exact Hv. }
  pose proof (K root (v + 1) o s Hd) as Kd. cbn [base c_defs] in Kd. destruct (defs_get (ct_defs ct) root (v + 1)) as [d|] eqn:Ed; [|congruence].
  destruct (ci_defs _ _ C root (v + 1) d Ed) as (ls & U' & V & O & A & B & D). cbn [base c_t t_nodes] in *.
  pose proof (gtree_fun _ _ _ (wt_unit _ _ _ U) _ U'). subst ls. rewrite total_ones in *.
  assert (Lv : v < length (w_in w)).
  { inversion U; subst; [congruence|]. match goal with E : nth_error _ root = Some (NUnit ?x ?y ?z), F : length ?x = _ |- _ => assert (x = lits) as -> by congruence; rewrite app_length, <- F end.
    apply nth_error_Some. congruence. }
  assert (Eo : olit (d_nodes (to_db (ct_tot ct))) root (v + 1) = Some o).
  { destruct (olit_data _ _ _ _ _ Hd) as [E|(? & ? & ? & ? & E)]; [exact E|congruence]. }
  destruct (A ltac:(lia)) as (i & Ei & Ci). destruct (B ltac:(lia)) as (j & Ej & Cj).
  assert (OT : forall a, outT (olit (d_nodes (to_db (ct_tot ct))) root (v + 1)) (length (w_in w)) (v + 1) a = lv a o).
  { intros a. rewrite Eo. unfold outT. destruct (Nat.eqb_spec (v + 1) 0); [lia|]. destruct (Nat.ltb_spec (length (w_in w)) (v + 1)); [lia|reflexivity]. }
  exists d, i, j. split; [|split; [exact Ei|split; [exact Ej|split; [|split]]]].
  - unfold output_proof_details. cbv zeta. rewrite Er, (ti_off _ _ _ _ _ I). cbn [obind assertb Nat.eqb]. rewrite Ed. cbn [obind]. rewrite Hn. cbn [obind]. unfold olit in Eo. rewrite Hn in Eo. cbn [obind] in Eo. now rewrite Eo.
  - clear - Ed Ei. induction (ct_defs ct) as [|((a, b), d') ds IH]; [discriminate|]. cbn [defs_get] in Ed. cbn [def_ids flat_map]. fold (def_ids ds). apply in_or_app.
    destruct ((a =? root) && (b =? v + 1)); [injection Ed as ->; left; rewrite Ei; now left|right; auto].
  - eapply con_is_ext; [|exact Ci]. intros a. change (wif ?n ?i ?v ?l a) with (wdef TIf n i v l a). rewrite wdef_ones. cbn [fdef]. unfold fif. rewrite OT. f_equal. f_equal. lia.
  - eapply con_is_ext; [|exact Cj]. intros a. change (woif ?n ?i ?v ?l a) with (wdef TOnlyIf n i v l a). rewrite wdef_ones. cbn [fdef]. unfold foif. now rewrite OT.
Qed.

(** the unit clause of a bound *)
Lemma unit_run p id j f1 f2 m l : ps_ok p -> con_is p id f1 -> con_is p j f2 -> (0 < m)%Z -> (forall a, f1 a + f2 a = m * lv a l - 1)%Z ->
  ps_run p [SPol (seq_sat (seq_add [OId id] [OId j]))] (ps_add p (clause_con [l])).
Proof.
  intros Hp H1 H2 Hm Hf.
  assert (K1 : computes p [OId id] f1).
  { destruct (operand p (DId id) f1 Hp H1) as [(E & _)|(op & c & E & R & W & D & S)]; [discriminate|]. cbn [def_seq] in E. injection E as <-.
    exists c. split; [discriminate|]. split; [intros st; cbn [rpn_run]; now rewrite R|auto]. }
  assert (Ha : exists a, (f1 a + f2 a <= 0)%Z).
  { destruct (no_compl_model [neg l]) as (a & A). { intros x y [<-|[]] [<-|[]]. apply neg_ne. }
    exists a. rewrite Hf. pose proof (A (neg l) (or_introl eq_refl)) as X. rewrite lit_true_neg' in X. unfold lv. destruct (lit_true a l); [discriminate|lia]. }
  pose proof (computes_add p [OId id] f1 (DId j) f2 Hp K1 H2 Ha) as K2.
  destruct (pol_clause p _ _ [(l, m)] [l] K2) as (P & _).
  - intros a. rewrite Hf, zwsum_cons'. cbn [zwsum]. lia.
  - intros x y [[= <- <-]|[]]. lia.
  - intros x y [<-|[]] [<-|[]]. apply neg_ne.
  - intros x. cbn. tauto.
  - econstructor; [constructor; exact P|constructor].
Qed.

Lemma unit_tally ct pid o id def l : tally ct pid o -> tally ct pid (unit_step o id def l).
Proof.
  intros (F & P & Q). unfold tally, unit_step. cbn [o_tot o_log o_ids o_pid]. rewrite app_length. cbn [length]. split; [apply Forall_app; split; [auto|repeat constructor]|].
  split; [lia|]. rewrite seq_app, !app_assoc. cbn [seq]. rewrite P. apply Permutation_app_tail. exact Q.
Qed.

(** ** What encoding a constraint leaves in the proof *)

Lemma Forall2_in_right {A B} (R R' : A -> B -> Prop) xs ys : (forall x y, In y ys -> R x y -> R' x y) -> Forall2 R xs ys -> Forall2 R' xs ys.
Proof. intros H F. induction F as [|x y xs ys Hr F IH]; constructor; [apply H; [now left|auto]|apply IH; intros; apply H; [now right|auto]]. Qed.

Record final (p : pstate) (o : cout) (p' : pstate) : Prop := mkFinal {
  fi_run : ps_run p (o_log o) p';
  fi_pid : ps_next p' = o_pid o;
  fi_ids : Forall2 (fun cl i => ps_get p' i = Some (clause_con cl)) (o_cls o) (o_ids o);
  fi_old : forall i, i < ps_next p -> ps_get p' i = ps_get p i;
  fi_new : forall i c, ps_get p' i = Some c -> i < ps_next p \/ In i (o_ids o) }.

Lemma delete_final ord ls p o p1 : (forall xs, Permutation (ord xs) xs) -> ps_ok p -> tally (ctot_from ls) (ps_next p) o -> ps_run p (o_log o) p1 ->
  Forall2 (fun cl i => ps_get p1 i = Some (clause_con cl)) (o_cls o) (o_ids o) -> def_ids (ct_defs (o_tot o)) <> [] ->
  exists p', final p (delete_semantics ord o) p'.
Proof.
  intros Ho Hp (F & P & Q) R I Hne. destruct (run_ids _ _ _ R F Hp) as (A & B & C & D & E). cbn [ctot_from ct_defs def_ids flat_map app] in Q.
  set (ids := def_ids (ct_defs (o_tot o))) in *.
  assert (Hin : forall i, In i (ord ids) <-> In i ids).
  { intros i. split; apply Permutation_in; [auto|symmetry; auto]. }
  assert (Rg : forall i, In i ids \/ In i (o_ids o) <-> ps_next p <= i < ps_next p1).
  { intros i. rewrite A, <- in_seq. rewrite <- in_app_iff. split; apply Permutation_in; [auto|symmetry; auto]. }
  assert (ND : NoDup (ids ++ o_ids o)) by (eapply Permutation_NoDup; [symmetry; exact Q|apply seq_NoDup]).
  assert (Dis : forall i, In i ids -> In i (o_ids o) -> False).
  { intros i H1 H2. apply in_split in H1 as (x & y & Ex). rewrite Ex, <- app_assoc in ND. cbn [app] in ND. apply NoDup_remove_2 in ND. apply ND.
    apply in_or_app. right. apply in_or_app. auto. }
  assert (G : forall i, ps_get (ps_del p1 (ord ids)) i = if existsb (Nat.eqb i) (ord ids) then None else ps_get p1 i) by (intros; apply ps_get_del).
  assert (X : forall i, ~ In i ids -> existsb (Nat.eqb i) (ord ids) = false).
  { intros i Hi. destruct (existsb (Nat.eqb i) (ord ids)) eqn:Ex; [|reflexivity]. apply existsb_exists in Ex as (j & Hj & Ej). apply Nat.eqb_eq in Ej. subst j. apply Hin in Hj. contradiction. }
  exists (ps_del p1 (ord ids)). constructor; cbn [delete_semantics o_log o_pid o_cls o_ids].
  - eapply ps_run_app; [exact R|]. econstructor; [|constructor]. constructor.
    + intros Ez. assert (Pz := Ho ids). rewrite Ez in Pz. apply Permutation_nil in Pz. contradiction.
    + intros i Hi. apply Hin in Hi. assert (Hr : ps_next p <= i < ps_next p1) by (apply Rg; auto). split; [|auto]. destruct Hp as (Hp & _). lia.
  - cbn [ps_del ps_next]. lia.
  - eapply Forall2_in_right; [|exact I]. intros cl i Hi H. rewrite G, X; [exact H|]. intros Hd. eauto.
  - intros i Hi. rewrite G, X; [apply D; lia|]. intros Hd. assert (ps_next p <= i < ps_next p1) by (apply Rg; auto). lia.
  - intros i c Hc. rewrite G in Hc. destruct (existsb (Nat.eqb i) (ord ids)) eqn:Ex; [discriminate|].
    destruct (Nat.lt_ge_cases i (ps_next p)) as [L|L]; [auto|]. right.
    destruct (ps_ok_get _ _ _ C Hc) as (L2 & _). destruct (proj2 (Rg i) ltac:(lia)) as [Hi|Hi]; [|exact Hi].
    exfalso. apply Hin in Hi. assert (existsb (Nat.eqb i) (ord ids) = true) by (apply existsb_exists; exists i; split; [auto|apply Nat.eqb_refl]). congruence.
Qed.

(** ** Clauses by unit propagation *)

Lemma rup_final cs id p d n : ps_ok p -> ps_get p id = Some d -> (forall c a, In c cs -> raw_holds a d -> sat_clause a c = true) ->
  exists p', final p (rup_clauses cs id n (ps_next p)) p'.
Proof.
  intros Hp Hd Hc.
  enough (Q : exists p', ps_run p (map (fun c => SRup c id) cs) p' /\ ps_next p' = ps_next p + length cs /\
     Forall2 (fun cl i => ps_get p' i = Some (clause_con cl)) cs (seq (ps_next p) (length cs)) /\ ps_ok p' /\ (forall i, i < ps_next p -> ps_get p' i = ps_get p i)).
  { destruct Q as (p' & R & N & F & K & O). exists p'. constructor; cbn [rup_clauses o_log o_pid o_cls o_ids]; auto.
    intros i c H. destruct (ps_ok_get _ _ _ K H) as (L & _). destruct (Nat.lt_ge_cases i (ps_next p)); [auto|]. right. apply in_seq. lia. }
  revert p Hp Hd. induction cs as [|c cs IH]; intros p Hp Hd; cbn [map length seq].
  - exists p. split; [constructor|]. split; [lia|]. split; [constructor|]. auto.
  - destruct (ps_ok_get _ _ _ Hp Hd) as (L & W & _). pose proof (clause_con_wf c) as (Wc & Dc).
    assert (Hp1 : ps_ok (ps_add p (clause_con c))) by (apply ps_ok_add; auto).
    assert (Hd1 : ps_get (ps_add p (clause_con c)) id = Some d) by (rewrite ps_get_add; destruct (Nat.eqb_spec id (ps_next p)); [lia|auto]).
    destruct (IH (fun c a H => Hc c a (or_intror H)) _ Hp1 Hd1) as (p' & R & N & F & K & O). cbn [ps_add ps_next] in *.
    exists p'. split; [|split; [lia|split; [|split; [auto|]]]].
    + econstructor; [|exact R]. econstructor; [exact Hd|]. apply rup_iff; [auto|]. intros a Ha. apply Hc; [now left|auto].
    + constructor; [|exact F]. rewrite O by lia. rewrite ps_get_add, Nat.eqb_refl. reflexivity.
    + intros i Hi. rewrite O by lia. rewrite ps_get_add. destruct (Nat.eqb_spec i (ps_next p)); [lia|auto].
Qed.

(** ** The totalizer *)

Lemma start_ok ls next p : ps_ok p -> (forall i c v, ps_get p i = Some c -> mentions c v -> (v < next)%N) -> (forall l, In l ls -> (lvar l < next)%N) -> no_compl ls ->
  tinv [] (mkWorld ls next [] [] [] []) (tot_from ls) /\ CInv (base (ctot_from ls) next p) p /\ marked (base (ctot_from ls) next p).
Proof.
  intros Hp Hm Hl NC. pose proof (hinv_init next p Hp Hm) as H0.
  destruct (call_ok _ _ _ _ (HExtend ls) H0) as (w' & o & p' & E & _ & R & _ & _ & H & _).
  { split; [|exact NC]. split; [exact Logic.I|]. intros x Hx. split; [exact Logic.I|]. split; [apply Hl; auto|]. intros (lo & hi & [] & _). }
  cbn [cstep w_in w_next w_aux w_all w_ub w_lb app] in E. injection E as <- <-. cbn [o_log o_tot] in *. inversion R; subst. destruct H as [A _ B C _]. auto.
Qed.

Definition fresh_wit (o : cout) (next : N) : Prop := forall v, In v (wit_vars (o_log o)) -> (next <= v < o_next o)%N.

Lemma wit_app_pol l s : wit_vars (l ++ [SPol s]) = wit_vars l.
Proof. rewrite wit_vars_app. cbn. apply app_nil_r. Qed.
Lemma wit_app_del l s : wit_vars (l ++ [SDel s]) = wit_vars l.
Proof. rewrite wit_vars_app. cbn. apply app_nil_r. Qed.

Lemma con_is_base p id c f : ps_get p id = Some c -> (forall a, slack c a = f a) -> con_is p id f.
Proof. intros H S. exists c. auto. Qed.

Section Cases.
Variables (ord : list nat -> list nat) (ls : list lit) (id : nat) (next : N) (p : pstate).
Hypothesis Hord : forall xs, Permutation (ord xs) xs.
Hypothesis Hps : ps_ok p.
Hypothesis Hbelow : forall i c v, ps_get p i = Some c -> mentions c v -> (v < next)%N.
Hypothesis Hvars : forall l, In l ls -> (lvar l < next)%N.
Hypothesis Hnc : no_compl ls.
Hypothesis Hlen : 2 <= length ls.

Let w := mkWorld ls next [] [] [] [].

Lemma ub_case b : b < length ls -> ps_get p id = Some (at_most_con ls b) ->
  exists o p', ub_constr_cert ord ls b id next (ps_next p) = Some o /\ encode_ub_at totalizer tot_from_iter ls b next = Some (COk (o_cls o) (o_next o)) /\
    final p o p' /\ fresh_wit o next.
Proof.
  intros Lb Hid. destruct (start_ok ls next p Hps Hbelow Hvars Hnc) as (T & C & K).
  destruct (encode_ub_ok w (tot_from ls) (Incl b, Incl b) T) as (t' & cs & n' & E & T' & _ & Rd & _). cbn [w w_next] in E.
  destruct (ub_cert_ok w (ctot_from ls) (Incl b, Incl b) p t' cs n' T Hnc C K E) as (o & p1 & E1 & [A1 A2 A3 A4 A5 A6 A7 A8 A9 A10]). cbn [w w_next] in E1.
  destruct (Rd b) as (us & Eu); [unfold in_rng; cbn [fst snd]; lia|].
  subst t' cs n'. destruct (ub_shape _ _ _ _ T' Hlen Lb Eu) as (root & lits & l & r & x & s & Eb & Er & Hn & Hv & ->).
  destruct (details _ _ _ _ _ _ _ _ _ _ _ T' A8 A9 Eb Er Hn Hv) as (d & i & j & Ed & _ & Ej & Hi & _ & Cj). cbn [log_call w_in w] in Cj.
  assert (Hok : ps_ok p1) by (apply (run_ids _ _ _ A4); [apply (ub_tally _ _ _ _ _ E1)|auto]).
  assert (Hid1 : con_is p1 id (fun a => Z.of_nat b - cnt a ls)%Z) by (eapply con_is_base; [apply A6, Hid|apply at_most_slack]).
  assert (R : ps_run p1 [SPol (seq_sat (seq_add [OId id] [OId j]))] (ps_add p1 (clause_con [neg x]))).
  { eapply (unit_run p1 id j _ _ (Z.of_nat (b + 1)) (neg x) Hok Hid1 Cj); [lia|]. intros a. rewrite lv_neg. lia. }
  destruct (delete_final ord ls p (unit_step o id j (neg x)) (ps_add p1 (clause_con [neg x])) Hord Hps) as (p' & Fin).
  { apply unit_tally, (ub_tally _ _ _ _ _ E1). }
  { cbn [unit_step o_log]. eapply ps_run_app; eauto. }
  { cbn [unit_step o_cls o_ids]. apply Forall2_app.
    - eapply Forall2_mono'; [|exact A7]. intros cl q H. now apply (grows_add p1 (clause_con [neg x]) Hok).
    - constructor; [|constructor]. rewrite <- A5, ps_get_add, Nat.eqb_refl. reflexivity. }
  { cbn [unit_step o_tot]. intros Ez. rewrite Ez in Hi. destruct Hi. }
  exists (delete_semantics ord (unit_step o id j (neg x))), p'. split; [|split; [|split; [exact Fin|]]].
  - unfold ub_constr_cert. destruct (Nat.ltb_spec (length ls) b); [lia|]. rewrite E1. cbn [obind]. rewrite Ed. cbn [obind]. rewrite Ej. reflexivity.
  - unfold encode_ub_at, tot_from_iter. cbn [obind totalizer en_ub en_enforce_ub]. change (tot_extend tot_new ls) with (tot_from ls). rewrite E. cbn [obind]. rewrite Eu. reflexivity.
  - intros v Hv'. cbn [delete_semantics unit_step o_log o_next] in *. rewrite wit_app_del, wit_app_pol in Hv'.
    destruct T' as (g & ow & rooted & I). destruct (A10 v Hv') as (i0 & val & y & q & Hx & <-). destruct (i_own _ _ _ _ _ _ (ti_inv _ _ _ _ _ I) _ _ _ _ Hx) as (u & -> & O).
    pose proof (ti_ow _ _ _ _ _ I _ _ O) as Q. cbn [log_call w_aux w w_next] in Q. rewrite in_aux_cons in Q. destruct Q as [Q|(? & ? & [] & _)]. exact Q.
Qed.

Lemma lb_case b : 1 <= b <= length ls -> ps_get p id = Some (at_least_con ls b) ->
  exists o p', lb_constr_cert ord ls b id next (ps_next p) = Some (Some o) /\ encode_lb_at totalizer tot_from_iter ls b next = Some (COk (o_cls o) (o_next o)) /\
    final p o p' /\ fresh_wit o next.
Proof.
  intros Lb Hid. destruct (start_ok ls next p Hps Hbelow Hvars Hnc) as (T & C & K).
  destruct (encode_lb_ok w (tot_from ls) (Incl b, Incl b) T) as (t' & cs & n' & E & T' & _ & Rd & _). cbn [w w_next] in E.
  destruct (lb_cert_ok w (ctot_from ls) (Incl b, Incl b) p t' cs n' T Hnc C K E) as (o & p1 & E1 & [A1 A2 A3 A4 A5 A6 A7 A8 A9 A10]). cbn [w w_next] in E1.
  assert (exists us, tot_enforce_lb t' b = Some (EOk us)) as (us & Eu).
  { destruct (Rd b) as [Q|Q]; [unfold in_rng; cbn [fst snd]; lia|exact Q|]. exfalso. pose proof (n_lits_ok _ _ T') as En. unfold tot_enforce_lb in Q. rewrite En in Q.
    destruct T' as (g & ow & rooted & I). rewrite (ti_off _ _ _ _ _ I) in Q. cbn [obind log_call w_in w] in Q. destruct (Nat.leb_spec b 0); [lia|]. destruct (Nat.ltb_spec (length ls + 0) b); [lia|].
    destruct (to_buf t'); [|discriminate]. destruct (to_root t') as [q|]; [|discriminate]. destruct (nth_error _ q) as [[x|lits l r| |]|]; cbn [obind] in Q; try discriminate.
    - destruct (assertb _); discriminate.
    - destruct (nth_error lits _) as [[|y [z|]]|]; cbn [obind] in Q; try discriminate. destruct (has_only_if z); discriminate. }
  subst t' cs n'. destruct (lb_shape _ _ _ _ T' Hlen Lb Eu) as (root & lits & l & r & x & s & Eb & Er & Hn & Hv & ->).
  destruct (details _ _ _ _ _ _ _ _ _ _ _ T' A8 A9 Eb Er Hn Hv) as (d & i & j & Ed & Ei & _ & Hi & Ci & _). cbn [log_call w_in w] in Ci. replace (b - 1 + 1) with b in Ed by lia.
  assert (Hok : ps_ok p1) by (apply (run_ids _ _ _ A4); [apply (lb_tally _ _ _ _ _ E1)|auto]).
  assert (Hid1 : con_is p1 id (fun a => cnt a ls - Z.of_nat b)%Z) by (eapply con_is_base; [apply A6, Hid|apply at_least_slack]).
  assert (R : ps_run p1 [SPol (seq_sat (seq_add [OId id] [OId i]))] (ps_add p1 (clause_con [x]))).
  { eapply (unit_run p1 id i _ _ (len ls - Z.of_nat (b - 1)) x Hok Hid1 Ci); [unfold len; lia|]. intros a. replace (Z.of_nat (b - 1)) with (Z.of_nat b - 1)%Z by lia. ring. }
  destruct (delete_final ord ls p (unit_step o id i x) (ps_add p1 (clause_con [x])) Hord Hps) as (p' & Fin).
  { apply unit_tally, (lb_tally _ _ _ _ _ E1). }
  { cbn [unit_step o_log]. eapply ps_run_app; eauto. }
  { cbn [unit_step o_cls o_ids]. apply Forall2_app.
    - eapply Forall2_mono'; [|exact A7]. intros cl q H. now apply (grows_add p1 (clause_con [x]) Hok).
    - constructor; [|constructor]. rewrite <- A5, ps_get_add, Nat.eqb_refl. reflexivity. }
  { cbn [unit_step o_tot]. intros Ez. rewrite Ez in Hi. destruct Hi. }
  exists (delete_semantics ord (unit_step o id i x)), p'. split; [|split; [|split; [exact Fin|]]].
  - unfold lb_constr_cert. destruct (Nat.ltb_spec (length ls) b); [lia|]. rewrite E1. cbn [obind]. rewrite Ed. cbn [obind]. rewrite Ei. reflexivity.
  - unfold encode_lb_at, tot_from_iter. cbn [obind totalizer en_lb en_enforce_lb]. change (tot_extend tot_new ls) with (tot_from ls). rewrite E. cbn [obind]. rewrite Eu. reflexivity.
  - intros v Hv'. cbn [delete_semantics unit_step o_log o_next] in *. rewrite wit_app_del, wit_app_pol in Hv'.
    destruct T' as (g & ow & rooted & I). destruct (A10 v Hv') as (i0 & val & y & q & Hx & <-). destruct (i_own _ _ _ _ _ _ (ti_inv _ _ _ _ _ I) _ _ _ _ Hx) as (u & -> & O).
    pose proof (ti_ow _ _ _ _ _ I _ _ O) as Q. cbn [log_call w_aux w w_next] in Q. rewrite in_aux_cons in Q. destruct Q as [Q|(? & ? & [] & _)]. exact Q.
Qed.

Lemma eq_case b : 1 <= b < length ls -> ps_get p id = Some (at_least_con ls b) -> ps_get p (id + 1) = Some (at_most_con ls b) ->
  exists o p', eq_constr_cert ord ls b id next (ps_next p) = Some (Some o) /\ encode_eq_at totalizer tot_from_iter ls b next = Some (COk (o_cls o) (o_next o)) /\
    final p o p' /\ fresh_wit o next.
Proof.
  intros Lb Hlo Hhi. assert (Lb1 : b < length ls) by lia. assert (Lb2 : 1 <= b <= length ls) by lia. destruct (start_ok ls next p Hps Hbelow Hvars Hnc) as (T & C & K).
  destruct (encode_both_ok w (tot_from ls) (Incl b, Incl b) T) as (t' & cs & n' & E & (_ & T' & _) & Ru & Rl). cbn [w w_next] in E.
  destruct (both_cert_ok w (ctot_from ls) (Incl b, Incl b) p t' cs n' T Hnc C K E) as (o & p1 & E1 & [A1 A2 A3 A4 A5 A6 A7 A8 A9 A10]). cbn [w w_next] in E1.
  destruct (Ru b) as (us & Eu); [unfold in_rng; cbn [fst snd]; lia|].
  subst t' cs n'. destruct (ub_shape _ _ _ _ T' Hlen Lb1 Eu) as (root & lits & l & r & x & s & Eb & Er & Hn & Hv & ->).
  destruct (details _ _ _ _ _ _ _ _ _ _ _ T' A8 A9 Eb Er Hn Hv) as (d & i & j & Ed & _ & Ej & Hi & _ & Cj). cbn [log_call w_in w] in Cj.
  assert (exists us, tot_enforce_lb (ct_tot (o_tot o)) b = Some (EOk us)) as (us & El).
  { destruct (Rl b) as [Q|Q]; [unfold in_rng; cbn [fst snd]; lia|exact Q|]. exfalso. pose proof (n_lits_ok _ _ T') as En. unfold tot_enforce_lb in Q. rewrite En in Q.
    destruct T' as (g & ow & rooted & I). rewrite (ti_off _ _ _ _ _ I) in Q. cbn [obind log_call w_in w] in Q. destruct (Nat.leb_spec b 0); [lia|]. destruct (Nat.ltb_spec (length ls + 0) b); [lia|].
    rewrite Eb, Er, Hn in Q. cbn [obind] in Q. destruct (nth_error lits (b - 1 + 0)) as [[|y [z|]]|]; cbn [obind] in Q; try discriminate Q. destruct (has_only_if z); discriminate Q. }
  destruct (lb_shape _ _ _ _ T' Hlen Lb2 El) as (root2 & lits2 & l2 & r2 & x2 & s2 & _ & Er2 & Hn2 & Hv2 & ->).
  destruct (details _ _ _ _ _ _ _ _ _ _ _ T' A8 A9 Eb Er2 Hn2 Hv2) as (d2 & i2 & j2 & Ed2 & Ei2 & _ & _ & Ci2 & _). cbn [log_call w_in w] in Ci2. replace (b - 1 + 1) with b in Ed2 by lia.
  assert (Hok : ps_ok p1) by (apply (run_ids _ _ _ A4); [apply (both_tally _ _ _ _ _ E1)|auto]).
  assert (Hhi1 : con_is p1 (id + 1) (fun a => Z.of_nat b - cnt a ls)%Z) by (eapply con_is_base; [apply A6, Hhi|apply at_most_slack]).
  assert (R : ps_run p1 [SPol (seq_sat (seq_add [OId (id + 1)] [OId j]))] (ps_add p1 (clause_con [neg x]))).
  { eapply (unit_run p1 (id + 1) j _ _ (Z.of_nat (b + 1)) (neg x) Hok Hhi1 Cj); [lia|]. intros a. rewrite lv_neg. lia. }
  set (p2 := ps_add p1 (clause_con [neg x])) in *. assert (G2 : grows p1 p2) by (apply grows_add; auto).
  assert (Hok2 : ps_ok p2) by (destruct (clause_con_wf [neg x]); now apply ps_ok_add).
  assert (Hlo2 : con_is p2 id (fun a => cnt a ls - Z.of_nat b)%Z) by (eapply con_is_base; [apply G2, A6, Hlo|apply at_least_slack]).
  assert (R2 : ps_run p2 [SPol (seq_sat (seq_add [OId id] [OId i2]))] (ps_add p2 (clause_con [x2]))).
  { eapply (unit_run p2 id i2 _ _ (len ls - Z.of_nat (b - 1)) x2 Hok2 Hlo2 (con_is_grows _ _ _ _ G2 Ci2)); [unfold len; lia|]. intros a. replace (Z.of_nat (b - 1)) with (Z.of_nat b - 1)%Z by lia. ring. }
  set (o2 := unit_step (unit_step o (id + 1) j (neg x)) id i2 x2).
  destruct (delete_final ord ls p o2 (ps_add p2 (clause_con [x2])) Hord Hps) as (p' & Fin).
  { do 2 apply unit_tally. apply (both_tally _ _ _ _ _ E1). }
  { cbn [o2 unit_step o_log]. eapply ps_run_app; [eapply ps_run_app; eauto|exact R2]. }
  { cbn [o2 unit_step o_cls o_ids o_pid]. apply Forall2_app; [apply Forall2_app|].
    - eapply Forall2_mono'; [|exact A7]. intros cl q H. apply (grows_add p2 (clause_con [x2]) Hok2), G2, H.
    - constructor; [|constructor]. apply (grows_add p2 (clause_con [x2]) Hok2). unfold p2. rewrite <- A5, ps_get_add, Nat.eqb_refl. reflexivity.
    - constructor; [|constructor]. rewrite <- A5. change (S (ps_next p1)) with (ps_next p2). rewrite ps_get_add, Nat.eqb_refl. reflexivity. }
  { cbn [o2 unit_step o_tot]. intros Ez. rewrite Ez in Hi. destruct Hi. }
  exists (delete_semantics ord o2), p'. split; [|split; [|split; [exact Fin|]]].
  - unfold eq_constr_cert. destruct (Nat.ltb_spec (length ls) b); [lia|]. rewrite E1. cbn [obind]. rewrite Ed. cbn [obind]. rewrite Ej. cbn [obind unit_step o_tot]. rewrite Ed2. cbn [obind]. rewrite Ei2. reflexivity.
  - unfold encode_eq_at, tot_from_iter. cbn [obind totalizer en_both en_enforce_ub en_enforce_lb]. change (tot_extend tot_new ls) with (tot_from ls). rewrite E. cbn [obind]. unfold enforce_eq. rewrite Eu. cbn [obind]. rewrite El. cbn [obind add_units units map app].
    cbn [delete_semantics o2 unit_step o_cls o_next]. rewrite <- app_assoc. reflexivity.
  - intros v Hv'. cbn [delete_semantics o2 unit_step o_log o_next] in *. rewrite wit_app_del, !wit_app_pol in Hv'. apply A10 in Hv'. cbn [w w_aux w_next] in Hv'. rewrite in_aux_cons in Hv'.
    destruct Hv' as [Q|(? & ? & [] & _)]. exact Q.
Qed.
End Cases.

(** ** Any cardinality constraint *)

Lemma cnt_full a ls : cnt a ls = len ls -> forall l, In l ls -> lit_true a l = true.
Proof.
  induction ls as [|x ls IH]; intros H l Hl; [destruct Hl|]. rewrite cnt_cons in H. unfold len in *. cbn [length] in H. pose proof (cnt_bound a ls) as B. unfold len in B. pose proof (lv_bound a x).
  destruct Hl as [<-|Hl]; [|apply IH; [lia|auto]]. unfold lv in *. destruct (lit_true a x); [reflexivity|lia].
Qed.
Lemma cnt_zero a ls : cnt a ls = 0%Z -> forall l, In l ls -> lit_true a l = false.
Proof.
  induction ls as [|x ls IH]; intros H l Hl; [destruct Hl|]. rewrite cnt_cons in H. pose proof (cnt_bound a ls) as B. pose proof (lv_bound a x).
  destruct Hl as [<-|Hl]; [|apply IH; [lia|auto]]. unfold lv in *. destruct (lit_true a x); [lia|reflexivity].
Qed.

Lemma final_none p n ct : ps_ok p -> final p (mkOut ct [] n [] [] (ps_next p)) p.
Proof.
  intros Hp. constructor; cbn [o_log o_pid o_cls o_ids]; auto; [constructor|]. intros i c H. left. now apply (ps_ok_get _ _ _ Hp H).
Qed.

Lemma rup_wit cs id n pid : fresh_wit (rup_clauses cs id n pid) n.
Proof. intros v Hv. exfalso. cbn [rup_clauses o_log] in Hv. clear -Hv. induction cs as [|c cs IH]; cbn in Hv; auto. Qed.

Lemma sat_exists a c : (exists l, In l c /\ lit_true a l = true) -> sat_clause a c = true.
Proof. intros (l & H & E). apply existsb_exists. eauto. Qed.

Theorem encode_card_cert_ok ord c id next p : (forall xs, Permutation (ord xs) xs) -> ps_ok p ->
  (forall i c v, ps_get p i = Some c -> mentions c v -> (v < next)%N) -> (forall l, In l (c_lits c) -> (lvar l < next)%N) ->
  (forall l l', In l (c_lits c) -> In l' (c_lits c) -> l' <> neg l) -> in_proof p id c ->
  exists o p', encode_cardinality_constraint_cert ord c id next (ps_next p) = Some o /\
    default_encode_cardinality_constraint c next = Some (o_cls o, o_next o) /\ final p o p' /\ fresh_wit o next.
Proof.
  intros Ho Hp Hb Hv NC Hid. destruct c as [kd ls b]. cbn [c_lits] in *. unfold in_proof in Hid. cbn [c_kind c_lits c_b] in Hid.
  unfold encode_cardinality_constraint_cert, default_encode_cardinality_constraint, encode_cardinality_constraint, card_encode_constr, constr_cert,
    card_is_tautology, card_is_unsat, card_is_positive_assignment, card_is_negative_assignment, card_into_clause, card_is_clause. cbn [c_kind c_lits c_b].
  assert (Rup : forall cs d i, ps_get p i = Some d -> (forall c a, In c cs -> (0 <= slack d a)%Z -> sat_clause a c = true) ->
    exists o p', Some (rup_clauses cs i next (ps_next p)) = Some o /\ Some (cs, next) = Some (o_cls o, o_next o) /\ final p o p' /\ fresh_wit o next).
  { intros cs d i Hi Hc. destruct (rup_final cs i p d next Hp Hi) as (p' & F). { intros c a Hin Ha. apply (Hc c a Hin). now apply holds_slack. }
    exists (rup_clauses cs i next (ps_next p)), p'. split; [reflexivity|]. split; [reflexivity|]. split; [exact F|apply rup_wit]. }
  assert (Non : exists o p', Some (mkOut (ctot_from []) [] next [] [] (ps_next p)) = Some o /\ Some ([], next) = Some (o_cls o, o_next o) /\ final p o p' /\ fresh_wit o next).
  { eexists _, p. split; [reflexivity|]. split; [reflexivity|]. split; [apply final_none; auto|]. intros v []. }
  destruct kd; cbn [negb].
  - (* at most *)
    destruct (Nat.leb_spec (length ls) b); [exact Non|]. destruct (Nat.eqb_spec b 0) as [->|].
    + apply (Rup _ _ _ Hid). intros c a Hin Ha. rewrite at_most_slack in Ha. apply in_map_iff in Hin as (l & <- & Hl). apply sat_exists. exists (neg l). split; [now left|].
      rewrite lit_true_neg'. rewrite (cnt_zero a ls); auto. pose proof (cnt_bound a ls). lia.
    + destruct (Nat.eqb_spec (b + 1) (length ls)) as [Eb|].
      * cbn [obind negb]. apply (Rup _ _ _ Hid). intros c a [<-|[]] Ha. rewrite at_most_slack in Ha. apply sat_exists.
        destruct (existsb (fun l => negb (lit_true a l)) ls) eqn:Ex; [apply existsb_exists in Ex as (l & Hl & El); exists (neg l); split; [now apply in_map|now rewrite lit_true_neg']|].
        exfalso. assert (cnt a ls = len ls); [|unfold len in *; lia]. apply cnt_all. intros l Hl.
        destruct (lit_true a l) eqn:El; [reflexivity|]. assert (existsb (fun l => negb (lit_true a l)) ls = true) by (apply existsb_exists; exists l; rewrite El; auto). congruence.
      * destruct (ub_case ord ls id next p Ho Hp Hb Hv NC ltac:(lia) b ltac:(lia) Hid) as (o & p' & E1 & E2 & F & W). rewrite E1, E2. exists o, p'. auto.
  - (* at least *)
    destruct (Nat.eqb_spec b 0); [exact Non|]. destruct (Nat.ltb_spec (length ls) b).
    + apply (Rup _ _ _ Hid). intros c a _ Ha. rewrite at_least_slack in Ha. pose proof (cnt_bound a ls) as B. unfold len in B. lia.
    + destruct (Nat.eqb_spec b (length ls)).
      * apply (Rup _ _ _ Hid). intros c a Hin Ha. rewrite at_least_slack in Ha. apply in_map_iff in Hin as (l & <- & Hl). apply sat_exists. exists l. split; [now left|].
        apply (cnt_full a ls); auto. pose proof (cnt_bound a ls) as B. unfold len in *. lia.
      * destruct (Nat.eqb_spec b 1) as [->|].
        -- cbn [obind negb]. apply (Rup _ _ _ Hid). intros c a [<-|[]] Ha. rewrite at_least_slack in Ha.
           destruct (sat_clause a ls) eqn:Es; [reflexivity|]. exfalso. rewrite cnt_none in Ha; [lia|]. intros l Hl. destruct (lit_true a l) eqn:El; [|reflexivity].
           assert (sat_clause a ls = true) by (apply sat_exists; eauto). congruence.
        -- destruct (lb_case ord ls id next p Ho Hp Hb Hv NC ltac:(lia) b ltac:(lia) Hid) as (o & p' & E1 & E2 & F & W). rewrite E1, E2. exists o, p'. auto.
  - (* equal *)
    destruct Hid as (Hlo & Hhi). destruct (Nat.ltb_spec (length ls) b).
    + apply (Rup _ _ _ Hlo). intros c a _ Ha. rewrite at_least_slack in Ha. pose proof (cnt_bound a ls) as B. unfold len in B. lia.
    + destruct (Nat.eqb_spec b (length ls)).
      * apply (Rup _ _ _ Hlo). intros c a Hin Ha. rewrite at_least_slack in Ha. apply in_map_iff in Hin as (l & <- & Hl). apply sat_exists. exists l. split; [now left|].
        apply (cnt_full a ls); auto. pose proof (cnt_bound a ls) as B. unfold len in *. lia.
      * destruct (Nat.eqb_spec b 0) as [->|].
        -- apply (Rup _ _ _ Hhi). intros c a Hin Ha. rewrite at_most_slack in Ha. apply in_map_iff in Hin as (l & <- & Hl). apply sat_exists. exists (neg l). split; [now left|].
           rewrite lit_true_neg'. rewrite (cnt_zero a ls); auto. pose proof (cnt_bound a ls). lia.
        -- destruct (eq_case ord ls id next p Ho Hp Hb Hv NC ltac:(lia) b ltac:(lia) Hlo Hhi) as (o & p' & E1 & E2 & F & W). rewrite E1, E2. exists o, p'. auto.
Qed.
