(** * Property theorems about histories of the certified generalized totalizer (C80) *)

From Coq Require Import List Bool NArith ZArith Arith Lia Permutation.
From Verif Require Import Spec BoundSpec Types Constraints Maps NodeDb TotDb Totalizer Gte CertSpec CertSound Cert CertWorld CertW CertPbWorld CertSem CertPb CertWHist.
Import ListNotations.

(** for the examples: a list of calls, all of them valid *)
Fixpoint wcrun (ord : wmap -> wmap) (w : world (lit * nat)) (cg : cgte) (pid : nat) (ops : list (hop (lit * nat))) : option (world (lit * nat) * cgte * nat * list nat) :=
  match ops with
  | [] => Some (w, cg, pid, [])
  | op :: ops =>
      match wcstep ord w cg pid op with
      | Some (w', o) => match wcrun ord w' (wo_enc o) (wo_pid o) ops with Some (w2, cg2, pid2, ids) => Some (w2, cg2, pid2, wo_ids o ++ ids) | None => None end
      | None => None
      end
  end.
Fixpoint wcvalids (ord : wmap -> wmap) (w : world (lit * nat)) (cg : cgte) (pid : nat) (ops : list (hop (lit * nat))) : Prop :=
  match ops with
  | [] => True
  | op :: ops => wcvalid w op /\ match wcstep ord w cg pid op with Some (w', o) => wcvalids ord w' (wo_enc o) (wo_pid o) ops | None => True end
  end.
Lemma wcrun_reach ord (Hord : iter_order ord) ops : forall w cg p ids w' cg' pid' ids', wcreach ord w cg p ids -> wcvalids ord w cg (ps_next p) ops ->
  wcrun ord w cg (ps_next p) ops = Some (w', cg', pid', ids') -> exists p', wcreach ord w' cg' p' (ids ++ ids') /\ ps_next p' = pid'.
Proof.
  induction ops as [|op ops IH]; intros w cg p ids w' cg' pid' ids' H V E; cbn [wcrun wcvalids] in *.
  - injection E as <- <- <- <-. exists p. rewrite app_nil_r. auto.
  - destruct V as (V1 & V2). destruct (wcstep ord w cg (ps_next p) op) as [(w1 & o)|] eqn:Es; [|discriminate].
    destruct (wcrun ord w1 (wo_enc o) (wo_pid o) ops) as [(((w2 & cg2) & pid2) & ids2)|] eqn:Er; [|discriminate]. injection E as <- <- <- <-.
    destruct (wcall_ok ord Hord w cg p ids op (wcreach_hinv _ Hord _ _ _ _ H) V1) as (w3 & o3 & p1 & E3 & _ & R & Np & _). rewrite Es in E3. injection E3 as <- <-.
    assert (H1 : wcreach ord w1 (wo_enc o) p1 (ids ++ wo_ids o)) by (eapply wr_call; eauto). rewrite <- Np in *.
    destruct (IH _ _ _ _ _ _ _ _ H1 V2 Er) as (p' & H' & N'). exists p'. rewrite app_assoc. auto.
Qed.

(** the proof starts with the constraint [x0 + x1 + x2 + x3 >= 1] *)
Definition ex_p0 : pstate := mkPs [(1%nat, ([(pos 0, 1%Z); (pos 1, 1%Z); (pos 2, 1%Z); (pos 3, 1%Z)], 1%Z))] 2 1.
Definition ex_ops : list (hop (lit * nat)) :=
  [HExtend [(pos 0, 2); (pos 1, 1); (negl 2, 3)]; HUb (Incl 2, Incl 3); HExtend [(pos 3, 2); (pos 0, 1)]; HUbChange (Incl 1, Incl 4); HUserVars 2%N; HReserve;
   HUb (Incl 0, Incl 5)]%nat.
Definition ex_w0 : world (lit * nat) := mkWorld [] 4%N [] [] [] [].
Definition ex_end := Eval vm_compute in wcrun (@rev _) ex_w0 cgte_new 2 ex_ops.
Definition ex_w : world (lit * nat) := Eval vm_compute in match ex_end with Some (w, _, _, _) => w | None => ex_w0 end.
Definition ex_cg : cgte := Eval vm_compute in match ex_end with Some (_, c, _, _) => c | None => cgte_new end.
Definition ex_pid : nat := Eval vm_compute in match ex_end with Some (_, _, n, _) => n | None => 0 end.
Definition ex_ids : list nat := Eval vm_compute in match ex_end with Some (_, _, _, i) => i | None => [] end.

Ltac valid_call :=
  split;
  [ split; [exact Logic.I|];
    first [ exact Logic.I | intros l Hl; cbn in Hl; repeat destruct Hl as [<-|Hl]; try destruct Hl; (split; [unfold pos_weight; cbn; lia|]); (split; [vm_compute; reflexivity|]);
            intros (lo & hi & H & Hr); cbn in H, Hr; repeat destruct H as [[= <- <-]|H]; try contradiction; lia ]
  | first [ exact Logic.I | cbn; intros l l' Hl Hl'; repeat destruct Hl as [<-|Hl]; try destruct Hl; repeat destruct Hl' as [<-|Hl']; try destruct Hl'; discriminate ] ].
Ltac valid_calls := repeat (cbn [wcvalids]; split; [valid_call|]; match goal with |- context [wcstep ?ord ?w ?cg ?pid ?op] => let r := eval vm_compute in (wcstep ord w cg pid op) in change (wcstep ord w cg pid op) with r end; cbv iota beta; cbn [wo_enc wo_pid]); exact Logic.I.

Lemma rev_order : iter_order (@rev (lit * nat)).
Proof. intros l. apply Permutation_sym, Permutation_rev. Qed.
Lemma ex_start : wcreach (@rev _) ex_w0 cgte_new ex_p0 [].
Proof. apply wr_init; [apply (ps_okb_ok _ 4%N); vm_compute; reflexivity|apply ps_okb_ok; vm_compute; reflexivity]. Qed.
Lemma ex_valid : wcvalids (@rev _) ex_w0 cgte_new 2 ex_ops.
Proof. unfold ex_ops, ex_w0, cgte_new. valid_calls. Qed.
Lemma ex_reach : exists p, wcreach (@rev _) ex_w ex_cg p ex_ids /\ ps_next p = ex_pid.
Proof.
  assert (E : wcrun (@rev _) ex_w0 cgte_new (ps_next ex_p0) ex_ops = Some (ex_w, ex_cg, ex_pid, ex_ids)) by (vm_compute; reflexivity).
  exact (wcrun_reach _ rev_order ex_ops ex_w0 cgte_new ex_p0 [] ex_w ex_cg ex_pid ex_ids ex_start ex_valid E).
Qed.

(** A history with two extensions and a call that starts over *)
Example C80_history_nontrivial : exists p, wcreach (@rev _) ex_w ex_cg p ex_ids /\ length (w_all ex_w) = length ex_ids /\ length (w_all ex_w) > 20 /\ ps_next p > 50.
Proof. destruct ex_reach as (p & R & N). exists p. split; [exact R|]. rewrite N. vm_compute. lia. Qed.

(** Every call succeeds with the clauses, variables and encoder of the call without a proof; the steps it writes are valid in
    the proof it is given, the proof's identifiers stay synchronised, all constraints stay, and the clauses returned are the
    ones the proof derived. [ord] is the iteration order of hash maps. Partial: no two inputs are complementary, and no memory is
    exhausted. *)
Theorem C80_certified_calls_partial ord w cg p ids op : iter_order ord -> wcreach ord w cg p ids -> wcvalid w op ->
  exists w' o p', wcstep ord w cg (ps_next p) op = Some (w', o) /\
    BoundSpec.step (gte_enc ord) w (cg_gte cg) op = Some (w', cg_gte (wo_enc o)) /\
    w_all w' = w_all w ++ wo_cls o /\ w_next w' = wo_next o /\
    ps_run p (wo_log o) p' /\ ps_next p' = wo_pid o /\ kept p p' /\
    Forall2 (fun cl i => ps_get p' i = Some (clause_con cl)) (wo_cls o) (wo_ids o).
Proof.
  intros Hord R V. destruct (wcall_ok ord Hord w cg p ids op (wcreach_hinv _ Hord _ _ _ _ R) V) as (w' & o & p' & E & S1 & R1 & N1 & G & H & A & X & _).
  exists w', o, p'. split; [exact E|]. split; [exact S1|]. split; [exact A|]. split; [exact X|]. split; [exact R1|]. split; [exact N1|]. split; [exact G|].
  pose proof (wh_ids _ _ _ _ H) as F. rewrite A in F. pose proof (wh_ids _ _ _ _ (wcreach_hinv _ Hord _ _ _ _ R)) as F0.
  apply Forall2_app_inv_l in F. destruct F as (l1 & l2 & F1 & F2 & E2).
  assert (L : length ids = length l1). { clear -F0 F1. revert l1 F1. induction F0; intros l1 F1; inversion F1; subst; cbn; auto. }
  assert (El : l2 = wo_ids o); [|rewrite <- El; exact F2]. clear -L E2. revert l1 L E2. induction ids as [|i ids IH]; intros [|j l1] L E2; try discriminate; cbn in E2; [congruence|]. injection E2 as _ E2. apply (IH l1); [now injection L|exact E2].
Qed.
Example C80_certified_calls_applies : exists p, wcreach (@rev _) ex_w ex_cg p ex_ids /\ wcvalid ex_w (HUbChange (Unb, Unb)) /\ wcvalid ex_w (HExtend [(pos 0, 4); (pos 3, 1)])%nat.
Proof.
  destruct ex_reach as (p & R & _). exists p. split; [exact R|]. split; unfold ex_w; valid_call.
Qed.
Print Assumptions C80_certified_calls_partial.

(** The identifiers returned over a whole history name exactly the clauses emitted, in order, whatever else was written to
    the proof in between *)
Theorem C80_identifiers_partial ord w cg p ids : iter_order ord -> wcreach ord w cg p ids ->
  Forall2 (fun cl i => ps_get p i = Some (clause_con cl)) (w_all w) ids.
Proof. intros Hord R. exact (wh_ids _ _ _ _ (wcreach_hinv _ Hord _ _ _ _ R)). Qed.
(** so a solution of the proof's constraints satisfies the clauses *)
Theorem C80_clauses_follow_partial ord w cg p ids a : iter_order ord -> wcreach ord w cg p ids -> ps_holds a p -> sat_cnf a (w_all w) = true.
Proof.
  intros Hord R H. pose proof (C80_identifiers_partial _ _ _ _ _ Hord R) as F. unfold sat_cnf. apply forallb_forall. intros c Hc.
  destruct (In_nth_error _ _ Hc) as (k & Hk). clear R. revert k Hk. induction F as [|x y xs ys Hx F IH]; intros k Hk; [destruct k; discriminate|].
  destruct k; cbn in Hk; [injection Hk as <-; apply clause_con_holds; exact (H _ _ Hx)|]. destruct Hc as [->|Hc]; [apply clause_con_holds; exact (H _ _ Hx)|]. eapply IH; eauto.
Qed.
Print Assumptions C80_identifiers_partial.
Print Assumptions C80_clauses_follow_partial.

(** Everything proved about the generalized totalizer without a proof holds: certified histories are histories of it *)
Theorem C80_histories_partial ord w cg p ids : iter_order ord -> wcreach ord w cg p ids -> reachable (gte_enc ord) fst pos_weight ub_only w (cg_gte cg).
Proof. intros Hord. exact (wcreach_reach ord Hord w cg p ids). Qed.
Print Assumptions C80_histories_partial.

(** Writing a call's steps never loses a solution: whatever satisfied the constraints of the proof still does after changing
    only variables the encoder took *)
Theorem C80_conservative_partial ord w cg p ids op w' o p' : iter_order ord -> wcreach ord w cg p ids -> wcvalid w op -> wcstep ord w cg (ps_next p) op = Some (w', o) -> ps_run p (wo_log o) p' ->
  forall a, ps_holds a p -> exists a', (forall v, ~ in_aux (w_aux w') v -> a' v = a v) /\ ps_holds a' p'.
Proof. intros Hord. exact (wcreach_sound ord Hord w cg p ids op w' o p'). Qed.
Print Assumptions C80_conservative_partial.
