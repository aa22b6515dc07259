(** * Histories of certified calls *)

From Coq Require Import List Bool NArith ZArith Lia Arith.
From Coq Require Import ZifyBool ZifyNat ZifyN.
From Verif Require Import Spec BoundSpec Types Constraints Atomics NodeDb TreeSpec TotDb Totalizer Base TotDbInv TotDbUnit TotDbDefine TotDbGeneral TotDbBuild TotDbGrow TotDbMerge TotWeighted TotDbHist TotalizerProofs.
From Verif Require Import CertSpec CertBase CertSound Cert CertWorld CertDefs CertSem CertStep CertProofs CertTot.
Import ListNotations.
Open Scope nat_scope.

(** ** Proofs are deterministic *)

Lemma ps_step_det p s p1 p2 : ps_step p s p1 -> ps_step p s p2 -> p1 = p2.
Proof. intros H1 H2. inversion H1; subst; inversion H2; subst; congruence. Qed.

Lemma ps_run_det p l p1 : ps_run p l p1 -> forall p2, ps_run p l p2 -> p1 = p2.
Proof.
  induction 1 as [p|p s q l p1 S R IH]; intros p2 H2; inversion H2; subst; auto. apply IH.
  match goal with H : ps_step p s ?x |- _ => now rewrite (ps_step_det _ _ _ _ S H) end.
Qed.

(** ** Both directions *)

Lemma wit_aux w t cs next v : tinv [] (log_call w false false cs next) t -> out_var (d_nodes (to_db t)) v -> in_aux ((w_next w, next) :: w_aux w) v.
Proof.
  intros (g & ow & rooted & I) (id & val & o & s & H & <-). destruct (i_own _ _ _ _ _ _ (ti_inv _ _ _ _ _ I) _ _ _ _ H) as (u & -> & O).
  exact (ti_ow _ _ _ _ _ I _ _ O).
Qed.

(** a certified call as seen from outside *)
Record cres' (w : world lit) (aux : list (N * N)) (p : pstate) (t' : tot) (cs : cnf) (next' : N) (o : cout) (p' : pstate) : Prop := mkCres' {
  c'_tot : ct_tot (o_tot o) = t';
  c'_cls : o_cls o = cs;
  c'_next : o_next o = next';
  c'_run : ps_run p (o_log o) p';
  c'_pid : ps_next p' = o_pid o;
  c'_grows : grows p p';
  c'_ids : Forall2 (fun cl i => ps_get p' i = Some (clause_con cl)) cs (o_ids o);
  c'_inv : CInv (base (o_tot o) next' p') p';
  c'_marked : marked (base (o_tot o) next' p');
  c'_wit : forall v, In v (wit_vars (o_log o)) -> in_aux aux v }.

Lemma cres_cres' w p t' cs next' o p' : cres w p t' cs next' o p' -> tinv [] (log_call w false false cs next') t' ->
  cres' w ((w_next w, next') :: w_aux w) p t' cs next' o p'.
Proof. intros [] T. constructor; auto. intros v Hv. eapply wit_aux; eauto. Qed.

Lemma both_cert_ok w ct r p t' cs next' : tinv [] w (ct_tot ct) -> no_compl (w_in w) -> CInv (base ct (w_next w) p) p -> marked (base ct (w_next w) p) ->
  tot_encode_both (ct_tot ct) r (w_next w) = Some (t', cs, next') ->
  exists o p', ct_both ct r (w_next w) (ps_next p) = Some o /\ cres' w ((w_next w, next') :: w_aux w) p t' cs next' o p'.
Proof.
  intros T NC C K H. unfold tot_encode_both in H. unfold ct_both.
  destruct (encode_ub_change_ok w (ct_tot ct) r T) as (t1 & c1 & n1 & E1 & (N1 & T1 & _) & _). rewrite E1 in H. cbn [obind] in H.
  destruct (encode_lb_change_ok (log_call w false false c1 n1) t1 r T1) as (t2 & c2 & n2 & E2 & (N2 & T2 & _) & _). cbn [log_call w_next] in E2, N2. rewrite E2 in H. cbn [obind] in H.
  injection H as <- <- <-.
  destruct (ub_change_cert_ok w ct r p t1 c1 n1 T NC C K E1) as (o1 & p1 & F1 & R1). rewrite F1. cbn [obind].
  apply cres_cres' in R1; [|exact T1]. destruct R1 as [A1 A2 A3 A4 A5 A6 A7 A8 A9 A10]. subst t1 c1 n1.
  destruct (lb_change_cert_ok (log_call w false false (o_cls o1) (o_next o1)) (o_tot o1) r p1 t2 c2 n2 T1 NC A8 A9 E2) as (o2 & p2 & F2 & R2).
  cbn [log_call w_next] in F2. rewrite <- A5. rewrite F2. cbn [obind]. apply cres_cres' in R2; [|exact T2]. destruct R2 as [B1 B2 B3 B4 B5 B6 B7 B8 B9 B10].
  eexists _, p2. split; [reflexivity|]. constructor; cbn [o_tot o_cls o_next o_ids o_log o_pid]; auto.
  - now rewrite B2.
  - eapply ps_run_app; eauto.
  - eapply grows_trans; eauto.
  - apply Forall2_app; [|auto]. eapply Forall2_mono'; [|exact A7]. intros cl i Hi. now apply B6.
  - intros v Hv. rewrite wit_vars_app in Hv. rewrite in_aux_cons. apply in_app_or in Hv as [Hv|Hv].
    + apply A10 in Hv. rewrite in_aux_cons in Hv. destruct Hv as [Hv|Hv]; [left; lia|auto].
    + apply B10 in Hv. cbn [log_call w_next w_aux] in Hv. rewrite !in_aux_cons in Hv. destruct Hv as [Hv|[Hv|Hv]]; [left; lia|left; lia|auto].
Qed.

(** ** Reserving variables *)

Lemma with_with k a b : with_t (with_t k a) b = with_t k b.
Proof. reflexivity. Qed.

Lemma reserve_val_go k p id val lits l r st' : CInv k p -> names (t_nodes (c_t k)) (t_next (c_t k)) ->
  nth_error (t_nodes (c_t k)) id = Some (NUnit lits l r) -> reserve_val (c_t k) id val = Some st' -> go k p (with_t k st') p.
Proof.
  intros C N Hn H. unfold reserve_val in H. rewrite Hn in H. cbn [obind] in H. destruct (val =? 0).
  - injection H as <-. rewrite with_t_self. now apply go_refl.
  - destruct (get_olit (c_t k) id (val - 1)) as [(o, st)|] eqn:E; [|discriminate]. cbn [obind snd] in H. injection H as <-. eapply get_olit_go; eauto.
Qed.

Lemma reserve_fold_go id ls vs : forall k p st', CInv k p -> names (t_nodes (c_t k)) (t_next (c_t k)) -> utree (t_nodes (c_t k)) id ls -> 2 <= length ls ->
  foldM (fun s v => reserve_val s id v) vs (c_t k) = Some st' -> go k p (with_t k st') p.
Proof.
  induction vs as [|v vs IH]; intros k p st' C N U L H; cbn [foldM] in H.
  - injection H as <-. rewrite with_t_self. now apply go_refl.
  - destruct (reserve_val (c_t k) id v) as [st1|] eqn:E; [|discriminate]. cbn [obind] in H.
    assert (exists lits l r, nth_error (t_nodes (c_t k)) id = Some (NUnit lits l r)) as (lits & l & r & Hn) by (inversion U; subst; [cbn in L; lia|eauto]).
    pose proof (reserve_val_go k p id v lits l r st1 C N Hn E) as G1.
    eapply go_trans; [exact G1|]. rewrite <- (with_with k st1 st').
    apply IH; [exact (go_inv _ _ _ _ G1)|exact (go_names _ _ _ _ G1)|exact (go_utree _ _ _ _ _ _ G1 U)|auto|exact H].
Qed.

Lemma utree_ne ns id ls : utree ns id ls -> 1 <= length ls.
Proof. induction 1; [auto|]. rewrite app_length. lia. Qed.

Lemma reserve_go f : forall k p con ls st', CInv k p -> names (t_nodes (c_t k)) (t_next (c_t k)) -> utree (t_nodes (c_t k)) (nc_id con) ls ->
  reserve_vars f (c_t k) con = Some st' -> go k p (with_t k st') p.
Proof.
  induction f as [|f IH]; intros k p con ls st' C N U H; [discriminate|]. cbn [reserve_vars] in H.
  inversion U as [? l Hn|? lits l r la lb Hn Hpl Hpr HL HR Ul Ur Len]; subst.
  - rewrite Hn in H. cbn [obind] in H. injection H as <-. rewrite with_t_self. now apply go_refl.
  - rewrite Hn in H. cbn [obind] in H.
    destruct (reserve_vars f (c_t k) l) as [st1|] eqn:E1; [|discriminate]. cbn [obind] in H.
    destruct (reserve_vars f st1 r) as [st2|] eqn:E2; [|discriminate]. cbn [obind] in H.
    destruct (assertb _); [|discriminate]. cbn [obind] in H.
    pose proof (IH k p l la st1 C N Ul E1) as G1.
    pose proof (IH (with_t k st1) p r lb st2 (go_inv _ _ _ _ G1) (go_names _ _ _ _ G1) (go_utree _ _ _ _ _ _ G1 Ur) E2) as G2. rewrite with_with in G2.
    pose proof (go_trans _ _ _ _ _ _ G1 G2) as G12. eapply go_trans; [exact G12|]. rewrite <- (with_with k st2 st').
    eapply reserve_fold_go; [exact (go_inv _ _ _ _ G12)|exact (go_names _ _ _ _ G12)|exact (go_utree _ _ _ _ _ _ G12 U)| |exact H].
    rewrite app_length. pose proof (utree_ne _ _ _ Ul). pose proof (utree_ne _ _ _ Ur). lia.
Qed.

Lemma reserve_cert_ok w ct p t' next' : tinv [] w (ct_tot ct) -> CInv (base ct (w_next w) p) p -> marked (base ct (w_next w) p) ->
  tot_reserve (ct_tot ct) (w_next w) = Some (t', next') ->
  exists ct', ct_reserve ct (w_next w) = Some (ct', next') /\ ct_tot ct' = t' /\ CInv (base ct' next' p) p /\ marked (base ct' next' p).
Proof.
  intros T C K H. unfold ct_reserve. rewrite H. cbn [obind]. eexists. split; [reflexivity|]. split; [reflexivity|]. unfold tot_reserve in H.
  destruct (extend_tree (ct_tot ct)) as [t1|] eqn:E; [|discriminate]. cbn [obind] in H.
  destruct (after_extend w ct p t1 T C K E) as (T1 & B1 & C1 & K1). destruct (to_root t1) as [id|] eqn:Er.
  - destruct (reserve_vars _ _ _) as [st|] eqn:Ev; [|discriminate]. cbn [obind] in H. injection H as <- <-.
    pose proof (tinv_names _ _ _ T1) as N. destruct T1 as (g & ow & rooted & I). pose proof (tinv_utree _ _ _ _ _ _ _ I Er) as U.
    pose proof (reserve_go _ (base (extended ct t1) (w_next w) p) p (con_full id) rooted st C1 N U Ev) as G.
    pose proof (go_inv _ _ _ _ G) as [D1 D2 D3 D4 D5 D6]. pose proof (go_marked _ _ _ _ G K1) as K2. split.
    + constructor; cbn [base with_t extended c_t c_ids c_defs c_pid t_nodes t_next t_cls ct_tot ct_defs to_db set_nodes_db d_nodes] in *; auto.
    + intros j v o s Hd. exact (K2 j v o s Hd).
  - injection H as <- <-. split; [exact C1|exact K1].
Qed.

(** ** Every call of a history *)

Record hinv (w : world lit) (ct : ctot) (p : pstate) (ids : list nat) : Prop := mkHinv {
  hi_tinv : tinv [] w (ct_tot ct);
  hi_nc : no_compl (w_in w);
  hi_cinv : CInv (base ct (w_next w) p) p;
  hi_marked : marked (base ct (w_next w) p);
  hi_ids : Forall2 (fun cl i => ps_get p i = Some (clause_con cl)) (w_all w) ids }.

Lemma cinv_next ct ct' n n' p : d_nodes (to_db (ct_tot ct')) = d_nodes (to_db (ct_tot ct)) -> ct_defs ct' = ct_defs ct -> (n <= n')%N ->
  CInv (base ct n p) p -> CInv (base ct' n' p) p.
Proof.
  intros Ed En L [D1 D2 D3 D4 D5 D6]. unfold base in *. rewrite Ed, En. constructor; cbn [c_t c_ids c_defs c_pid t_nodes t_next t_cls] in *; auto.
  intros i c v H1 H2. specialize (D5 i c v H1 H2). lia.
Qed.

Lemma marked_next ct ct' n n' p : d_nodes (to_db (ct_tot ct')) = d_nodes (to_db (ct_tot ct)) -> ct_defs ct' = ct_defs ct -> marked (base ct n p) -> marked (base ct' n' p).
Proof. intros Ed En K. unfold base in *. rewrite Ed, En. exact K. Qed.

Lemma call_ok w ct p ids op : hinv w ct p ids -> cvalid w op ->
  exists w' o p', cstep w ct (ps_next p) op = Some (w', o) /\ BoundSpec.step totalizer w (ct_tot ct) op = Some (w', ct_tot (o_tot o)) /\ ps_run p (o_log o) p' /\ ps_next p' = o_pid o /\ grows p p' /\ hinv w' (o_tot o) p' (ids ++ o_ids o) /\ w_all w' = w_all w ++ o_cls o /\ w_next w' = o_next o /\ (forall v, In v (wit_vars (o_log o)) -> in_aux (w_aux w') v).
Proof.
  intros [T NC C K F] (V & V').
  assert (Enc : forall ru rl t' cs n' o p', tinv [] (log_call w ru rl cs n') t' ->
    cres' w ((w_next w, n') :: w_aux w) p t' cs n' o p' ->
    let w' := log_call w ru rl (o_cls o) (o_next o) in
    ct_tot (o_tot o) = t' /\ o_cls o = cs /\ o_next o = n' /\ ps_run p (o_log o) p' /\ ps_next p' = o_pid o /\ grows p p' /\ hinv w' (o_tot o) p' (ids ++ o_ids o) /\ w_all w' = w_all w ++ o_cls o /\ w_next w' = o_next o /\ (forall v, In v (wit_vars (o_log o)) -> in_aux (w_aux w') v)).
  { intros ru rl t' cs n' o p' T' [A1 A2 A3 A4 A5 A6 A7 A8 A9 A10]. subst t' cs n'. cbv zeta. repeat (split; [solve [auto]|]). split; [|split; [reflexivity|split; [reflexivity|exact A10]]].
    constructor; cbn [log_call w_in w_next w_all]; auto. apply Forall2_app; [|auto]. eapply Forall2_mono'; [|exact F]. intros cl i Hi. now apply A6. }
  assert (Fin : forall ru rl t' cs n' o p' r, tinv [] (log_call w ru rl cs n') t' ->
    cres' w ((w_next w, n') :: w_aux w) p t' cs n' o p' -> r = Some o ->
    exists w' o p', certified w ru rl r = Some (w', o) /\ encode_step w ru rl (Some (t', cs, n')) = Some (w', ct_tot (o_tot o)) /\ ps_run p (o_log o) p' /\ ps_next p' = o_pid o /\ grows p p' /\ hinv w' (o_tot o) p' (ids ++ o_ids o) /\ w_all w' = w_all w ++ o_cls o /\ w_next w' = o_next o /\ (forall v, In v (wit_vars (o_log o)) -> in_aux (w_aux w') v)).
  { intros ru rl t' cs n' o p' r T' R ->. destruct (Enc ru rl t' cs n' o p' T' R) as (Et & Ec & En & R'). eexists _, o, p'. split; [reflexivity|]. split; [cbn [encode_step]; rewrite Et, Ec, En; reflexivity|exact R']. }
  destruct op as [xs|k| |r|r|r|r|r]; cbn [cstep BoundSpec.step totalizer en_extend en_reserve en_ub en_ub_change en_lb en_lb_change en_both].
  - eexists _, _, p. split; [reflexivity|]. cbn [o_tot o_log o_pid o_ids o_cls o_next ct_extend ct_tot w_all w_next w_aux]. split; [reflexivity|]. split; [constructor|]. split; [reflexivity|].
    split; [apply grows_refl|]. split; [|rewrite app_nil_r; repeat split; intros v []].
    rewrite app_nil_r. constructor; cbn [w_in w_next w_all ct_tot]; auto.
    + apply tinv_extend; [auto|]. intros l Hl. destruct V as (_ & V). apply V in Hl. tauto.
  - eexists _, _, p. split; [reflexivity|]. cbn [o_tot o_log o_pid o_ids o_cls o_next w_all w_next w_aux]. split; [reflexivity|]. split; [constructor|]. split; [reflexivity|].
    split; [apply grows_refl|]. split; [|rewrite app_nil_r; repeat split; intros v []].
    rewrite app_nil_r. constructor; cbn [w_in w_next w_all]; auto; [apply tinv_user; auto|eapply cinv_next; [reflexivity|reflexivity| |exact C]; lia].
  - destruct (reserve_ok w (ct_tot ct) T) as (t' & n' & E & (_ & T' & _)). destruct (reserve_cert_ok w ct p t' n' T C K E) as (ct' & E' & <- & C' & K').
    rewrite E, E'. eexists _, _, p. split; [reflexivity|]. cbn [o_tot o_log o_pid o_ids o_cls o_next w_all w_next w_aux log_call]. split; [reflexivity|]. split; [constructor|]. split; [reflexivity|].
    split; [apply grows_refl|]. rewrite !app_nil_r. split; [|repeat split; intros v []]. constructor; cbn [w_in w_next w_all log_call]; auto. now rewrite app_nil_r.
  - destruct (encode_ub_ok w (ct_tot ct) r T) as (t' & cs & n' & E & T' & _). destruct (ub_cert_ok w ct r p t' cs n' T NC C K E) as (o & p' & E' & R). rewrite E.
    eapply (Fin true false t' cs n' o p' _ T'); [|exact E']. destruct R. constructor; auto. intros v Hv.
    destruct T' as (g & ow & rooted & I). destruct (cr_wit v Hv) as (id & val & x & s & Hx & <-). destruct (i_own _ _ _ _ _ _ (ti_inv _ _ _ _ _ I) _ _ _ _ Hx) as (u & -> & O).
    exact (ti_ow _ _ _ _ _ I _ _ O).
  - destruct (encode_ub_change_ok w (ct_tot ct) r T) as (t' & cs & n' & E & (_ & T' & _) & _). destruct (ub_change_cert_ok w ct r p t' cs n' T NC C K E) as (o & p' & E' & R). rewrite E.
    eapply (Fin false false t' cs n' o p' _ T'); [|exact E']. apply cres_cres'; auto.
  - destruct (encode_lb_ok w (ct_tot ct) r T) as (t' & cs & n' & E & T' & _). destruct (lb_cert_ok w ct r p t' cs n' T NC C K E) as (o & p' & E' & R). rewrite E.
    eapply (Fin false true t' cs n' o p' _ T'); [|exact E']. destruct R. constructor; auto. intros v Hv.
    destruct T' as (g & ow & rooted & I). destruct (cr_wit v Hv) as (id & val & x & s & Hx & <-). destruct (i_own _ _ _ _ _ _ (ti_inv _ _ _ _ _ I) _ _ _ _ Hx) as (u & -> & O).
    exact (ti_ow _ _ _ _ _ I _ _ O).
  - destruct (encode_lb_change_ok w (ct_tot ct) r T) as (t' & cs & n' & E & (_ & T' & _) & _). destruct (lb_change_cert_ok w ct r p t' cs n' T NC C K E) as (o & p' & E' & R). rewrite E.
    eapply (Fin false false t' cs n' o p' _ T'); [|exact E']. apply cres_cres'; auto.
  - destruct (encode_both_ok w (ct_tot ct) r T) as (t' & cs & n' & E & (_ & T' & _) & _). destruct (both_cert_ok w ct r p t' cs n' T NC C K E) as (o & p' & E' & R). rewrite E.
    eapply (Fin false false t' cs n' o p' _ T'); [|exact E']. exact R.
Qed.

Lemma hinv_init n p : ps_ok p -> (forall i c v, ps_get p i = Some c -> mentions c v -> (v < n)%N) -> hinv (mkWorld [] n [] [] [] []) ctot_new p [].
Proof.
  intros Hp Hm.
  assert (D : forall id val, data [] id val = None) by (intros [|id] val; reflexivity).
  constructor; cbn [w_in w_next w_all ctot_new ct_tot].
  - exact (tinv_user [] world0 tot_new n (tinv_init [] eq_refl)).
  - intros l l' [].
  - constructor; cbn [base ctot_new ct_tot ct_defs tot_new to_db db_empty d_nodes c_t c_ids c_defs c_pid t_nodes t_next t_cls]; auto.
    + discriminate.
    + intros id val o s H. rewrite D in H. discriminate.
  - intros id val o s Hn. cbn [base ctot_new ct_tot tot_new to_db db_empty d_nodes c_t t_nodes] in Hn. rewrite D in Hn. discriminate.
  - constructor.
Qed.

Lemma hinv_others w ct p ids p' : hinv w ct p ids -> others w p p' -> hinv w ct p' ids.
Proof.
  intros [T NC C K F] (Hp & G & O). constructor; auto.
  - destruct C as [D1 D2 D3 D4 D5 D6]. constructor; cbn [base c_t c_ids c_defs c_pid t_nodes t_next t_cls] in *; auto.
    + intros id val d H. eapply def_ok_more; [apply more_refl|exact G|]. apply D3; auto.
    + intros id val o s H Hn i c Hi Hm. destruct (O i c (lvar o) Hi Hm) as (_ & Q). destruct Q as (j & d & Hj & Hd).
      { destruct T as (g & ow & rooted & I). destruct (i_own _ _ _ _ _ _ (ti_inv _ _ _ _ _ I) _ _ _ _ H) as (u & -> & Ow). exact (ti_ow _ _ _ _ _ I _ _ Ow). }
      eapply D4; eauto.
    + intros i c v Hi Hm. now apply (O i c v).
  - eapply Forall2_mono'; [|exact F]. intros cl i Hi. now apply G.
Qed.

Lemma creach_hinv w ct p ids : creach w ct p ids -> hinv w ct p ids.
Proof.
  induction 1 as [n p Hp Hm|w ct p ids op w' o p' R IH V E Rn|w ct p ids p' R IH O].
  - now apply hinv_init.
  - destruct (call_ok w ct p ids op IH V) as (w1 & o1 & p1 & E1 & _ & R1 & _ & _ & H1 & _). rewrite E in E1. injection E1 as <- <-.
    rewrite (ps_run_det _ _ _ Rn _ R1). exact H1.
  - eapply hinv_others; eauto.
Qed.

Lemma creach_reach w ct p ids : creach w ct p ids -> reach_tot w (ct_tot ct).
Proof.
  intros H. induction H as [n p Hp Hm|w ct p ids op w' o p' R IH V E Rn|w ct p ids p' R IH O]; [| |exact IH].
  - apply (reach_step totalizer (fun l => l) any_lit any_op world0 tot_new (HUserVars n)); [apply reach_init|split; cbn; auto; exact Logic.I|reflexivity].
  - destruct (call_ok w ct p ids op (creach_hinv _ _ _ _ R) V) as (w1 & o1 & p1 & E1 & S1 & _). rewrite E in E1. injection E1 as <- <-.
    eapply reach_step; [exact IH|exact (proj1 V)|exact S1].
Qed.

(** constraints that hold stay satisfiable together with everything written *)
Lemma creach_sound w ct p ids op w' o p' : creach w ct p ids -> cvalid w op -> cstep w ct (ps_next p) op = Some (w', o) -> ps_run p (o_log o) p' ->
  forall a, ps_holds a p -> exists a', (forall v, ~ in_aux (w_aux w') v -> a' v = a v) /\ ps_holds a' p'.
Proof.
  intros R V E Rn a Ha. destruct (call_ok w ct p ids op (creach_hinv _ _ _ _ R) V) as (w1 & o1 & p1 & E1 & S1 & R1 & _ & _ & _ & _ & _ & W).
  rewrite E in E1. injection E1 as <- <-.
  destruct (ps_run_sound p _ p' (ci_ok _ _ (hi_cinv _ _ _ _ (creach_hinv _ _ _ _ R))) Rn) as (_ & Q). destruct (Q a Ha) as (a' & A & B).
  exists a'. split; [|exact B]. intros v Hv. apply A. intros Hw. apply Hv, W, Hw.
Qed.
