(** * Property theorems about the certified totalizer encodings (C79) *)

From Coq Require Import List Bool NArith ZArith Arith Lia Permutation.
From Verif Require Import Spec BoundSpec Types Constraints NodeDb TotDb Totalizer TotalizerProofs ConstrEnc CertSpec CertSound Cert CertWorld CertSem CertHist CertConstr.
Import ListNotations.

(** for the examples: a list of calls, all of them valid *)
Fixpoint crun (w : world lit) (ct : ctot) (pid : nat) (ops : list (hop lit)) : option (world lit * ctot * nat * list nat) :=
  match ops with
  | [] => Some (w, ct, pid, [])
  | op :: ops =>
      match cstep w ct pid op with
      | Some (w', o) => match crun w' (o_tot o) (o_pid o) ops with Some (w2, ct2, pid2, ids) => Some (w2, ct2, pid2, o_ids o ++ ids) | None => None end
      | None => None
      end
  end.
Fixpoint cvalids (w : world lit) (ct : ctot) (pid : nat) (ops : list (hop lit)) : Prop :=
  match ops with
  | [] => True
  | op :: ops => cvalid w op /\ match cstep w ct pid op with Some (w', o) => cvalids w' (o_tot o) (o_pid o) ops | None => True end
  end.
Lemma crun_reach ops : forall w ct p ids w' ct' pid' ids', creach w ct p ids -> cvalids w ct (ps_next p) ops ->
  crun w ct (ps_next p) ops = Some (w', ct', pid', ids') -> exists p', creach w' ct' p' (ids ++ ids') /\ ps_next p' = pid'.
Proof.
  induction ops as [|op ops IH]; intros w ct p ids w' ct' pid' ids' H V E; cbn [crun cvalids] in *.
  - injection E as <- <- <- <-. exists p. rewrite app_nil_r. auto.
  - destruct V as (V1 & V2). destruct (cstep w ct (ps_next p) op) as [(w1 & o)|] eqn:Es; [|discriminate].
    destruct (crun w1 (o_tot o) (o_pid o) ops) as [(((w2 & ct2) & pid2) & ids2)|] eqn:Er; [|discriminate]. injection E as <- <- <- <-.
    destruct (call_ok w ct p ids op (creach_hinv _ _ _ _ H) V1) as (w3 & o3 & p1 & E3 & _ & R & Np & _). rewrite Es in E3. injection E3 as <- <-.
    assert (H1 : creach w1 (o_tot o) p1 (ids ++ o_ids o)) by (eapply cr_call; eauto). rewrite <- Np in *.
    destruct (IH _ _ _ _ _ _ _ _ H1 V2 Er) as (p' & H' & N'). exists p'. rewrite app_assoc. auto.
Qed.

(** the proof starts with the constraint [x0 + x1 + x2 + x3 >= 1] *)
Definition ex_p0 : pstate := mkPs [(1%nat, ([(pos 0, 1%Z); (pos 1, 1%Z); (pos 2, 1%Z); (pos 3, 1%Z)], 1%Z))] 2 1.
Definition ex_ops : list (hop lit) :=
  [HExtend [pos 0; pos 1; negl 2]; HUb (Incl 0, Incl 1); HExtend [pos 3]; HUbChange (Incl 0, Incl 2); HLb (Incl 2, Incl 3); HBoth (Unb, Unb)].
Definition ex_w0 : world lit := mkWorld [] 4%N [] [] [] [].
Definition ex_end := Eval vm_compute in crun ex_w0 ctot_new 2 ex_ops.
Definition ex_w : world lit := Eval vm_compute in match ex_end with Some (w, _, _, _) => w | None => ex_w0 end.
Definition ex_ct : ctot := Eval vm_compute in match ex_end with Some (_, c, _, _) => c | None => ctot_new end.
Definition ex_pid : nat := Eval vm_compute in match ex_end with Some (_, _, n, _) => n | None => 0 end.
Definition ex_ids : list nat := Eval vm_compute in match ex_end with Some (_, _, _, i) => i | None => [] end.

Ltac valid_call :=
  split;
  [ split; [exact Logic.I|];
    first [ exact Logic.I | intros l Hl; cbn in Hl; repeat destruct Hl as [<-|Hl]; try destruct Hl; (split; [exact Logic.I|]); (split; [vm_compute; reflexivity|]);
            intros (lo & hi & H & Hr); cbn in H, Hr; repeat destruct H as [[= <- <-]|H]; try contradiction; lia ]
  | first [ exact Logic.I | cbn; intros l l' Hl Hl'; repeat destruct Hl as [<-|Hl]; try destruct Hl; repeat destruct Hl' as [<-|Hl']; try destruct Hl'; discriminate ] ].
Ltac valid_calls := repeat (cbn [cvalids]; split; [valid_call|]; match goal with |- context [cstep ?w ?ct ?pid ?op] => let r := eval vm_compute in (cstep w ct pid op) in change (cstep w ct pid op) with r end; cbv iota beta; cbn [o_tot o_pid]); exact Logic.I.

Lemma ex_start : creach ex_w0 ctot_new ex_p0 [].
Proof.
  apply cr_init.
  - split; [cbn; lia|]. split.
    + intros i c [[= <- <-]|[]]. split; [cbn; lia|]. split; [|cbn; lia]. split.
      * cbn. intros l w Hl. repeat destruct Hl as [[= <- <-]|Hl]; try destruct Hl; lia.
      * cbn [fst]. intros i j l w l' w' Hi Hj L. destruct i as [|[|[|[|i]]]]; cbn in Hi; try (destruct i; discriminate); injection Hi as <- <-;
          destruct j as [|[|[|[|j]]]]; cbn in Hj; try (destruct j; discriminate); injection Hj as <- <-; cbn; lia.
    + repeat (apply NoDup_cons; [cbn; intuition discriminate|]). apply NoDup_nil.
  - intros i c v Hi (l & w & Hl & <-). unfold ps_get, ex_p0 in Hi. cbn [ps_db find fst snd] in Hi. destruct (1 =? i)%nat; [|discriminate]. injection Hi as <-.
    cbn in Hl. repeat destruct Hl as [[= <- <-]|Hl]; try destruct Hl; cbn; lia.
Qed.
Lemma ex_valid : cvalids ex_w0 ctot_new 2 ex_ops.
Proof. unfold ex_ops, ex_w0, ctot_new. valid_calls. Qed.
Lemma ex_reach : exists p, creach ex_w ex_ct p ex_ids /\ ps_next p = ex_pid.
Proof.
  assert (E : crun ex_w0 ctot_new (ps_next ex_p0) ex_ops = Some (ex_w, ex_ct, ex_pid, ex_ids)) by (vm_compute; reflexivity).
  exact (crun_reach ex_ops ex_w0 ctot_new ex_p0 [] ex_w ex_ct ex_pid ex_ids ex_start ex_valid E).
Qed.

(** A history with two extensions emits 30 clauses, and the proof gets them and 22 constraints defining outputs *)
Example C79_history_nontrivial : exists p, creach ex_w ex_ct p ex_ids /\ length (w_all ex_w) = length ex_ids /\ length (w_all ex_w) > 20 /\ ps_next p > 50.
Proof. destruct ex_reach as (p & R & N). exists p. split; [exact R|]. rewrite N. vm_compute. lia. Qed.

(** Every call succeeds with the clauses, variables and encoder of the call without a proof; the steps it writes are valid in
    the proof it is given, the proof's identifiers stay synchronised, all constraints stay, and the clauses returned are the
    ones the proof derived. Partial: no two inputs are complementary, and no memory is exhausted. *)
Theorem C79_certified_calls_partial w ct p ids op : creach w ct p ids -> cvalid w op ->
  exists w' o p', cstep w ct (ps_next p) op = Some (w', o) /\
    BoundSpec.step totalizer w (ct_tot ct) op = Some (w', ct_tot (o_tot o)) /\
    w_all w' = w_all w ++ o_cls o /\ w_next w' = o_next o /\
    ps_run p (o_log o) p' /\ ps_next p' = o_pid o /\ kept p p' /\
    Forall2 (fun cl i => ps_get p' i = Some (clause_con cl)) (o_cls o) (o_ids o).
Proof.
  intros R V. destruct (call_ok w ct p ids op (creach_hinv _ _ _ _ R) V) as (w' & o & p' & E & S1 & R1 & N1 & G & H & A & X & _).
  exists w', o, p'. split; [exact E|]. split; [exact S1|]. split; [exact A|]. split; [exact X|]. split; [exact R1|]. split; [exact N1|]. split; [exact G|].
  pose proof (hi_ids _ _ _ _ H) as F. rewrite A in F. pose proof (hi_ids _ _ _ _ (creach_hinv _ _ _ _ R)) as F0.
  apply Forall2_app_inv_l in F. destruct F as (l1 & l2 & F1 & F2 & E2).
  assert (L : length ids = length l1). { clear -F0 F1. revert l1 F1. induction F0; intros l1 F1; inversion F1; subst; cbn; auto. }
  assert (El : l2 = o_ids o); [|rewrite <- El; exact F2]. clear -L E2. revert l1 L E2. induction ids as [|i ids IH]; intros [|j l1] L E2; try discriminate; cbn in E2; [congruence|]. injection E2 as _ E2. apply (IH l1); [now injection L|exact E2].
Qed.
Example C79_certified_calls_applies : exists p, creach ex_w ex_ct p ex_ids /\ cvalid ex_w (HUbChange (Unb, Unb)) /\ cvalid ex_w (HExtend [pos 0; pos 3]).
Proof.
  destruct ex_reach as (p & R & _). exists p. split; [exact R|]. split; unfold ex_w; valid_call.
Qed.
Print Assumptions C79_certified_calls_partial.

(** The identifiers returned over a whole history name exactly the clauses emitted, in order, whatever else was written to
    the proof in between *)
Theorem C79_identifiers_partial w ct p ids : creach w ct p ids ->
  Forall2 (fun cl i => ps_get p i = Some (clause_con cl)) (w_all w) ids.
Proof. intros R. exact (hi_ids _ _ _ _ (creach_hinv _ _ _ _ R)). Qed.
(** so a solution of the proof's constraints satisfies the clauses *)
Theorem C79_clauses_follow_partial w ct p ids a : creach w ct p ids -> ps_holds a p -> sat_cnf a (w_all w) = true.
Proof.
  intros R H. pose proof (C79_identifiers_partial _ _ _ _ R) as F. unfold sat_cnf. apply forallb_forall. intros c Hc.
  destruct (In_nth_error _ _ Hc) as (k & Hk). clear R. revert k Hk. induction F as [|x y xs ys Hx F IH]; intros k Hk; [destruct k; discriminate|].
  destruct k; cbn in Hk; [injection Hk as <-; apply clause_con_holds; exact (H _ _ Hx)|]. destruct Hc as [->|Hc]; [apply clause_con_holds; exact (H _ _ Hx)|]. eapply IH; eauto.
Qed.
Example C79_identifiers_applies : (exists p, creach ex_w ex_ct p ex_ids) /\
  nth_error (w_all ex_w) 0 = Some [neg (pos 1); pos 4] /\ nth_error ex_ids 0 = Some 4%nat.
Proof. split; [destruct ex_reach as (p & R & _); now exists p|]. split; vm_compute; reflexivity. Qed.
Print Assumptions C79_identifiers_partial.
Print Assumptions C79_clauses_follow_partial.

(** Everything proved about the totalizer without a proof holds: certified histories are histories of the totalizer *)
Theorem C79_histories_partial w ct p ids : creach w ct p ids -> reachable totalizer (fun l => l) any_lit any_op w (ct_tot ct).
Proof. exact (creach_reach w ct p ids). Qed.
Print Assumptions C79_histories_partial.

(** Writing a call's steps never loses a solution: whatever satisfied the constraints of the proof still does after changing
    only variables the encoder took *)
Theorem C79_conservative_partial w ct p ids op w' o p' : creach w ct p ids -> cvalid w op -> cstep w ct (ps_next p) op = Some (w', o) -> ps_run p (o_log o) p' ->
  forall a, ps_holds a p -> exists a', (forall v, ~ in_aux (w_aux w') v -> a' v = a v) /\ ps_holds a' p'.
Proof. exact (creach_sound w ct p ids op w' o p'). Qed.
Print Assumptions C79_conservative_partial.

(** The rules of the proof system are sound: independent of the encoding, valid steps keep satisfiability *)
Theorem C79_rules_sound p l p' : ps_ok p -> ps_run p l p' ->
  ps_ok p' /\ forall a, ps_holds a p -> exists a', (forall v, ~ In v (wit_vars l) -> a' v = a v) /\ ps_holds a' p'.
Proof. exact (ps_run_sound p l p'). Qed.
Lemma ex_p0_ok : ps_ok ex_p0.
Proof. exact (ci_ok _ _ (hi_cinv _ _ _ _ (creach_hinv _ _ _ _ ex_start))). Qed.
Example C79_rules_applies : ps_ok ex_p0 /\ exists p', ps_run ex_p0 [SPol [OId 1; OAx (pos 0); OAdd; OSat]; SRup [pos 0; pos 1; pos 2; pos 3] 1; SDel [2%nat]] p'.
Proof.
  split; [exact ex_p0_ok|]. eexists.
  eapply run_cons; [eapply st_pol; vm_compute; reflexivity|].
  eapply run_cons; [eapply st_rup; [vm_compute; reflexivity|right; vm_compute; reflexivity]|].
  eapply run_cons; [apply st_del; [discriminate|intros i [<-|[]]; split; [cbn; lia|vm_compute; discriminate]]|]. apply run_nil.
Qed.
Print Assumptions C79_rules_sound.

(** ** Single constraints

    Encoding a constraint that is in the proof: the same clauses and variables as without a proof, valid steps, the clauses
    under the identifiers returned, every earlier constraint kept, nothing left over in the proof, and witnesses on new
    variables only. [ord]: the iteration order of a hash map. Partial: no two literals of the constraint are complementary. *)
Theorem C79_constraint_partial ord c id next p : (forall xs, Permutation (ord xs) xs) -> ps_ok p ->
  (forall i c v, ps_get p i = Some c -> mentions c v -> (v < next)%N) -> (forall l, In l (c_lits c) -> (lvar l < next)%N) ->
  (forall l l', In l (c_lits c) -> In l' (c_lits c) -> l' <> neg l) -> in_proof p id c ->
  exists o p', encode_cardinality_constraint_cert ord c id next (ps_next p) = Some o /\
    default_encode_cardinality_constraint c next = Some (o_cls o, o_next o) /\
    ps_run p (o_log o) p' /\ ps_next p' = o_pid o /\
    Forall2 (fun cl i => ps_get p' i = Some (clause_con cl)) (o_cls o) (o_ids o) /\
    (forall i, (i < ps_next p)%nat -> ps_get p' i = ps_get p i) /\
    (forall i c', ps_get p' i = Some c' -> (i < ps_next p)%nat \/ In i (o_ids o)) /\
    (forall v, In v (wit_vars (o_log o)) -> (next <= v < o_next o)%N).
Proof.
  intros Ho Hp Hb Hv NC Hi. destruct (encode_card_cert_ok ord c id next p Ho Hp Hb Hv NC Hi) as (o & p' & E & D & [F1 F2 F3 F4 F5] & W).
  exists o, p'. exact (conj E (conj D (conj F1 (conj F2 (conj F3 (conj F4 (conj F5 W))))))).
Qed.
(** [x0 + x1 + x2 = 1] in the proof as two constraints *)
Definition ex_eq : card := mkCard KEq [pos 0; pos 1; pos 2] 1.
Definition ex_p1 : pstate :=
  mkPs [(2%nat, ([(negl 0, 1%Z); (negl 1, 1%Z); (negl 2, 1%Z)], 2%Z)); (1%nat, ([(pos 0, 1%Z); (pos 1, 1%Z); (pos 2, 1%Z)], 1%Z))] 3 2.
Example C79_constraint_applies : ps_ok ex_p1 /\ in_proof ex_p1 1 ex_eq /\
  (forall i c v, ps_get ex_p1 i = Some c -> mentions c v -> (v < 3)%N) /\ (forall l, In l (c_lits ex_eq) -> (lvar l < 3)%N) /\
  (forall l l', In l (c_lits ex_eq) -> In l' (c_lits ex_eq) -> l' <> neg l) /\
  exists o, encode_cardinality_constraint_cert (fun xs => rev xs) ex_eq 1 3%N 3 = Some o /\ length (o_cls o) > 5 /\ length (o_log o) > 10.
Proof.
  split; [|split; [|split; [|split; [|split]]]].
  - split; [cbn; lia|]. split; [|repeat (apply NoDup_cons; [cbn; intuition discriminate|]); apply NoDup_nil].
    intros i c [[= <- <-]|[[= <- <-]|[]]]; (split; [cbn; lia|]); (split; [|cbn; lia]); (split;
      [cbn; intros l w Hl; repeat destruct Hl as [[= <- <-]|Hl]; try destruct Hl; lia|]);
      cbn [fst]; intros i j l w l' w' Hi Hj L; destruct i as [|[|[|i]]]; cbn in Hi; try (destruct i; discriminate); injection Hi as <- <-;
          destruct j as [|[|[|j]]]; cbn in Hj; try (destruct j; discriminate); injection Hj as <- <-; cbn; lia.
  - now vm_compute.
  - intros i c v Hi (l & w & Hl & <-). unfold ps_get, ex_p1 in Hi. cbn [ps_db find fst snd] in Hi.
    destruct (2 =? i)%nat; [|destruct (1 =? i)%nat; [|discriminate]]; injection Hi as <-; cbn in Hl; repeat destruct Hl as [[= <- <-]|Hl]; try destruct Hl; cbn; lia.
  - cbn. intros l Hl. repeat destruct Hl as [<-|Hl]; try destruct Hl; cbn; lia.
  - cbn. intros l l' Hl Hl'. repeat destruct Hl as [<-|Hl]; try destruct Hl; repeat destruct Hl' as [<-|Hl']; try destruct Hl'; discriminate.
  - eexists. split; [vm_compute; reflexivity|]. cbn. lia.
Qed.
Print Assumptions C79_constraint_partial.

(** ** Where the certified encoding of single constraints panics

    The methods of the totalizer for single constraints (which the function above only calls after simplifying) panic on
    constraints that need no output: the bound equal to the number of literals, the lower bound zero, a single literal. The
    methods without a proof encode the same constraints. *)
Theorem C79_upper_bound_full_refuted : exists ls ub next, ub = length ls /\
  (forall ord id pid, ub_constr_cert ord ls ub id next pid = None) /\ card_encode_constr totalizer tot_from_iter (mkCard KUb ls ub) next <> None.
Proof. exists [pos 0; pos 1], 2%nat, 2%N. split; [reflexivity|]. split; [intros; vm_compute; reflexivity|vm_compute; discriminate]. Qed.
Theorem C79_lower_bound_zero_refuted : exists ls next, length ls = 2%nat /\ forall ord id pid, lb_constr_cert ord ls 0 id next pid = None.
Proof. exists [pos 0; pos 1], 2%N. split; [reflexivity|]. intros. vm_compute. reflexivity. Qed.
Theorem C79_single_literal_refuted : exists l next, forall ord id pid,
  ub_constr_cert ord [l] 0 id next pid = None /\ lb_constr_cert ord [l] 1 id next pid = None.
Proof. exists (pos 0), 1%N. intros. split; vm_compute; reflexivity. Qed.
Theorem C79_equality_full_refuted : exists ls b next, b = length ls /\ forall ord id pid, eq_constr_cert ord ls b id next pid = None.
Proof. exists [pos 0; pos 1], 2%nat, 2%N. split; [reflexivity|]. intros; vm_compute; reflexivity. Qed.
Print Assumptions C79_upper_bound_full_refuted.
Print Assumptions C79_lower_bound_zero_refuted.
Print Assumptions C79_single_literal_refuted.
Print Assumptions C79_equality_full_refuted.
