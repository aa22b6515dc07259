(** * The C interface: proofs *)

From Coq Require Import List Bool NArith ZArith Lia ZifyBool ZifyN ZifyNat.
From Verif Require Import Spec BoundSpec Types NodeDb Am1 Am1Spec Am1Proofs CapiSpec Capi.
Import ListNotations.

Lemma ipasir_int a l x : to_ipasir l = Some x -> x <> 0%Z /\ c_int x /\ int_holds a x = lit_true a l /\ Z.to_N (Z.abs x) = (lvar l + 1)%N.
Proof.
  unfold to_ipasir, i32_max, int_holds, lit_true, c_int. intros H. destruct (Z.leb_spec (Z.of_N (lvar l + 1)) 2147483647); [|discriminate].
  injection H as <-. destruct (lneg l); cbn [xorb].
  - destruct (Z.ltb_spec 0 (- Z.of_N (lvar l + 1))); [lia|]. replace (Z.to_N (- - Z.of_N (lvar l + 1)) - 1)%N with (lvar l) by lia.
    split; [lia|]. split; [lia|]. split; [now destruct (a (lvar l))|lia].
  - destruct (Z.ltb_spec 0 (Z.of_N (lvar l + 1))); [|lia]. replace (Z.to_N (Z.of_N (lvar l + 1)) - 1)%N with (lvar l) by lia.
    split; [lia|]. split; [lia|]. split; [now destruct (a (lvar l))|lia].
Qed.

Definition int_lit (x : Z) : lit := mkLit (Z.abs_N x - 1)%N (x <? 0)%Z.
Lemma int_lit_holds a x : x <> 0%Z -> lit_true a (int_lit x) = int_holds a x.
Proof.
  intros H. unfold int_lit, lit_true, int_holds. cbn [lvar lneg]. destruct (Z.ltb_spec x 0), (Z.ltb_spec 0 x); try lia; cbn [xorb].
  - replace (Z.abs_N x - 1)%N with (Z.to_N (- x) - 1)%N by lia. now destruct (a _).
  - replace (Z.abs_N x - 1)%N with (Z.to_N x - 1)%N by lia. now destruct (a _).
Qed.
Lemma from_int x : c_int x -> from_ipasir x = if (x =? 0)%Z then None else Some (int_lit x).
Proof.
  unfold c_int, from_ipasir. intros H. destruct (Z.eqb_spec x 0); [reflexivity|].
  change max_var_idx with 2147483647%N. destruct (N.ltb_spec 2147483647 (Z.abs_N x - 1)); [lia|reflexivity].
Qed.

Lemma lits_ints_some ls : (forall l, In l ls -> (lvar l < 2147483647)%N) -> exists xs, lits_ints ls = Some xs.
Proof.
  induction ls as [|l ls IH]; intros H; [eexists; reflexivity|]. cbn [lits_ints].
  destruct IH as [xs E]; [intros; apply H; now right|]. pose proof (H l (or_introl eq_refl)) as Hl.
  unfold to_ipasir, i32_max. destruct (Z.leb_spec (Z.of_N (lvar l + 1)) 2147483647); [|lia]. cbn [obind]. rewrite E. cbn [obind]. eauto.
Qed.
Lemma cnf_ints_some cs : (forall c l, In c cs -> In l c -> (lvar l < 2147483647)%N) -> exists xs, cnf_ints cs = Some xs.
Proof.
  induction cs as [|c cs IH]; intros H; [eexists; reflexivity|]. cbn [cnf_ints].
  destruct IH as [ys E]; [intros; eapply H; [right|]; eassumption|].
  destruct (lits_ints_some c) as [xs Ex]; [intros; eapply H; [now left|assumption]|]. rewrite Ex, E. cbn [obind]. eauto.
Qed.
Lemma cnf_ints_app cs ds xs ys : cnf_ints cs = Some xs -> cnf_ints ds = Some ys -> cnf_ints (cs ++ ds) = Some (xs ++ ys).
Proof.
  revert xs. induction cs as [|c cs IH]; intros xs; cbn [cnf_ints app]; intros E D; [injection E as <-; exact D|].
  destruct (lits_ints c) as [us|]; [|discriminate]. cbn [obind] in *. destruct (cnf_ints cs) as [vs|]; [|discriminate]. cbn [obind] in *. injection E as <-.
  rewrite (IH vs eq_refl D). cbn [obind]. now rewrite <- app_assoc.
Qed.

Lemma lits_ints_In a ls xs : lits_ints ls = Some xs -> map (int_holds a) xs = map (lit_true a) ls /\ Forall (fun x => x <> 0%Z) xs.
Proof.
  revert xs. induction ls as [|l ls IH]; intros xs; cbn [lits_ints]; intros E; [injection E as <-; now split; [|constructor]|].
  destruct (to_ipasir l) as [x|] eqn:El; [|discriminate]. cbn [obind] in E. destruct (lits_ints ls) as [vs|]; [|discriminate]. cbn [obind] in E. injection E as <-.
  destruct (ipasir_int a l x El) as (H1 & _ & H2 & _), (IH vs eq_refl) as [H3 H4]. cbn [map]. split; [now rewrite H2, H3|now constructor].
Qed.
Lemma read_lits xs cur ys : Forall (fun x => x <> 0%Z) xs ->
  int_clauses cur (xs ++ 0%Z :: ys) = option_map (cons (rev cur ++ xs)) (int_clauses [] ys).
Proof.
  revert cur. induction xs as [|x xs IH]; intros cur H; cbn [app int_clauses].
  - cbn. now rewrite app_nil_r.
  - inversion H; subst. destruct (Z.eqb_spec x 0); [lia|]. rewrite IH by assumption. cbn [rev]. now rewrite <- app_assoc.
Qed.
Lemma read_ints a cs xs : cnf_ints cs = Some xs -> exists cls, int_clauses [] xs = Some cls /\ map (map (int_holds a)) cls = map (map (lit_true a)) cs.
Proof.
  revert xs. induction cs as [|c cs IH]; intros xs; cbn [cnf_ints]; intros E; [injection E as <-; exists []; now split|].
  destruct (lits_ints c) as [us|] eqn:Eu; [|discriminate]. cbn [obind] in E. destruct (cnf_ints cs) as [vs|]; [|discriminate]. cbn [obind] in E. injection E as <-.
  destruct (lits_ints_In a c us Eu) as [H1 H2], (IH vs eq_refl) as [cls [E1 E2]].
  rewrite read_lits by assumption. rewrite E1. cbn. exists (us :: cls). split; [reflexivity|]. cbn [map]. now rewrite H1, E2.
Qed.
Lemma existsb_map {A} (f : A -> bool) xs : existsb f xs = existsb (fun b => b) (map f xs).
Proof. induction xs as [|x xs IH]; cbn; [reflexivity|now rewrite IH]. Qed.
Lemma ints_sat a cs xs : cnf_ints cs = Some xs -> (ints_hold a xs <-> sat_cnf a cs = true).
Proof.
  intros E. destruct (read_ints a cs xs E) as [cls [E1 E2]]. unfold ints_hold, sat_cnf.
  assert (H : (forall c, In c cls -> exists x, In x c /\ int_holds a x = true) <-> forallb (sat_clause a) cs = true).
  { clear E E1. revert cs E2. induction cls as [|c cls IH]; intros [|d cs] E2; try discriminate; [cbn; intuition|].
    injection E2 as Ec E2. specialize (IH cs E2). cbn [forallb]. rewrite andb_true_iff, <- IH.
    assert (Hc : (exists x, In x c /\ int_holds a x = true) <-> sat_clause a d = true).
    { unfold sat_clause. rewrite existsb_map, <- Ec, <- existsb_map, existsb_exists. reflexivity. }
    rewrite <- Hc. split.
    - intros H. split; [apply H; now left|]. intros c' Hc'. apply H. now right.
    - intros [H1 H2] c' [<-|Hc']; [exact H1|now apply H2]. }
  rewrite <- H. split; [|eauto]. intros (cls' & E' & H'). rewrite E1 in E'. injection E' as <-. exact H'.
Qed.
Lemma ints_cube a ls xs : lits_ints ls = Some xs -> (forallb (int_holds a) xs = sat_cube a ls).
Proof.
  intros E. destruct (lits_ints_In a ls xs E) as [H _]. unfold sat_cube. revert ls E H.
  induction xs as [|x xs IH]; intros [|l ls] E H; try discriminate; [reflexivity|]. cbn [lits_ints] in E.
  destruct (to_ipasir l); [|discriminate]. cbn [obind] in E. destruct (lits_ints ls) as [vs|] eqn:Ev; [|discriminate]. cbn [obind] in E. injection E as -> ->.
  injection H as H1 H2. cbn [forallb]. now rewrite H1, (IH ls Ev H2).
Qed.

(** ** Histories *)

Section Encoding.
Context {A S : Type} (E : encoder A S) (ilit : A -> lit) (iok : A -> Prop) (allow : hop A -> Prop) (value : asg -> list A -> nat) (total : list A -> nat).
Context (mk : lit -> nat -> A) (single lower : bool) (wok : nat -> Prop).
Hypothesis Hmk : forall l w, ilit (mk l w) = l.
Hypothesis Hok : forall l w, wok w -> iok (mk l w).
Hypothesis Hallow : (forall x, allow (HExtend [x])) /\ (forall k, allow (HUserVars k)) /\ allow HReserve /\ (forall r, allow (HUbChange r)) /\ (lower = true -> forall r, allow (HLbChange r)).
Hypothesis Hval : forall a ins, Forall (fun x => fst x <> 0%Z /\ wok (snd x)) ins -> value a (map (fun x => mk (int_lit (fst x)) (snd x)) ins) = int_sum a ins.
Hypothesis Htot : forall ins, Forall (fun x => fst x <> 0%Z /\ wok (snd x)) ins -> total (map (fun x => mk (int_lit (fst x)) (snd x)) ins) = int_total ins.

Record rel (w : seen) (s : S) (W : world A) : Prop := mkRel {
  rl_reach : reachable E ilit iok allow W s;
  rl_used : w_next W = s_used w;
  rl_in : w_in W = map (fun x => mk (int_lit (fst x)) (snd x)) (s_in w);
  rl_ok : Forall (fun x => fst x <> 0%Z /\ wok (snd x)) (s_in w);
  rl_low : Forall (fun x => (Z.to_N (Z.abs (fst x)) <= s_used w)%N) (s_in w);
  rl_own : forall v, in_aux (s_own w) v <-> in_aux (w_aux W) v;
  rl_ints : cnf_ints (w_all W) = Some (s_ints w);
  rl_ub : w_ub W = w_all W;
  rl_lb : w_lb W = w_all W
}.

Lemma aux_same own n v : in_aux ((n, n) :: own) v <-> in_aux own v.
Proof.
  split.
  - intros (lo & hi & [[= <- <-]|H] & Hv); [lia|]. now exists lo, hi.
  - intros (lo & hi & H & Hv). exists lo, hi. split; [now right|exact Hv].
Qed.
Lemma aux_more own own' p v : (in_aux own v <-> in_aux own' v) -> (in_aux (p :: own) v <-> in_aux (p :: own') v).
Proof.
  intros H. split; intros (lo & hi & [Hp|Hi] & Hv); try (exists lo, hi; split; [now left|exact Hv]).
  - destruct (proj1 H) as (a & b & Ha & Hb); [now exists lo, hi|]. exists a, b. split; [now right|exact Hb].
  - destruct (proj2 H) as (a & b & Ha & Hb); [now exists lo, hi|]. exists a, b. split; [now right|exact Hb].
Qed.

Hypothesis Hvars : vars_grow E ilit iok allow.

Lemma rel_vars w s W k : rel w s W -> exists W', rel (mkSeen (s_in w) (s_used w + k)%N (s_ints w) (s_own w)) s W'.
Proof.
  intros [R1 R2 R3 R4 R5 R6 R7 R8 R9]. exists (mkWorld (w_in W) (w_next W + k)%N (w_aux W) (w_all W) (w_ub W) (w_lb W)).
  constructor; cbn; auto.
  - eapply reach_step with (op := HUserVars k); [exact R1|split; [apply Hallow|exact I]|reflexivity].
  - now rewrite R2.
  - revert R5. apply Forall_impl. intros x. lia.
Qed.

Lemma rel_quiet w s W c r : rel w s W -> (match c with FAdd _ _ => r_code r <> Fine | _ => True end) -> r_clauses r = [] -> exists W', rel (see w c (s_used w) r) s W'.
Proof.
  intros R Hc Hr. exists W. destruct R as [R1 R2 R3 R4 R5 R6 R7 R8 R9].
  assert (Ein : s_in (see w c (s_used w) r) = s_in w) by (unfold see; cbn [s_in]; destruct c; try reflexivity; now destruct (r_code r)).
  constructor; try rewrite Ein; cbn [see s_used s_ints s_own]; auto.
  - intros v. now rewrite aux_same.
  - now rewrite Hr, app_nil_r.
Qed.

Lemma rel_add w s W x wt s' : rel w s W -> c_int x -> x <> 0%Z -> wok wt -> (Z.to_N (Z.abs x) <= s_used w)%N -> ~ in_aux (s_own w) (Z.to_N (Z.abs x) - 1)%N ->
  en_extend E s [mk (int_lit x) wt] = Some s' -> exists W', rel (see w (FAdd x wt) (s_used w) (mkReply Fine [] [])) s' W'.
Proof.
  intros [R1 R2 R3 R4 R5 R6 R7 R8 R9] Hx Hx0 Hw Hu Ho Ee.
  exists (mkWorld (w_in W ++ [mk (int_lit x) wt]) (w_next W) (w_aux W) (w_all W) (w_ub W) (w_lb W)).
  constructor; cbn [see s_in s_used s_ints s_own r_code r_clauses w_in w_next w_aux w_all w_ub w_lb]; auto.
  - eapply reach_step with (op := HExtend [mk (int_lit x) wt]); [exact R1| |cbn [step]; now rewrite Ee]. split; [apply Hallow|].
    intros y [<-|[]]. split; [now apply Hok|]. rewrite Hmk. cbn [int_lit lvar]. rewrite R2. split; [lia|].
    rewrite <- R6. now replace (Z.abs_N x - 1)%N with (Z.to_N (Z.abs x) - 1)%N by lia.
  - rewrite R3, map_app. reflexivity.
  - apply Forall_app. split; [assumption|]. now repeat constructor.
  - apply Forall_app. split; [assumption|]. now repeat constructor.
  - intros v. now rewrite aux_same.
  - now rewrite app_nil_r.
Qed.

Lemma rel_log w s W op s' cs n c xs : rel w s W -> allow op -> (match op with HExtend _ => False | _ => True end) ->
  step E W s op = Some (log_call W false false cs n, s') -> (match c with FAdd _ _ => False | _ => True end) -> cnf_ints cs = Some xs ->
  exists W', rel (see w c n (mkReply Fine xs [])) s' W'.
Proof.
  intros [R1 R2 R3 R4 R5 R6 R7 R8 R9] Ha Hop Es Hc Ex. exists (log_call W false false cs n).
  assert (V : valid_op ilit iok allow W op) by (split; [exact Ha|now destruct op]).
  assert (G : (w_next W <= n)%N) by exact (Hvars _ _ _ _ _ R1 V Es).
  assert (Ein : s_in (see w c n (mkReply Fine xs [])) = s_in w) by (unfold see; cbn [s_in]; now destruct c).
  constructor; try rewrite Ein; cbn [see s_used s_ints s_own log_call w_in w_next w_aux w_all w_ub w_lb r_clauses]; auto.
  - eapply reach_step; eassumption.
  - revert R5. apply Forall_impl. intros x. lia.
  - intros v. rewrite R2. apply aux_more, R6.
  - now apply cnf_ints_app.
  - now rewrite R8.
  - now rewrite R9.
Qed.

Notation F := (capi E mk single).

Lemma rel_call w s W c s' n r : rel w s W -> in_contract lower wok w c -> F s (s_used w) c = Some (s', n, r) -> exists W', rel (see w c n r) s' W'.
Proof.
  intros R Hc H. destruct c as [x wt| |lo hi|lo hi|b|b]; cbn [capi in_contract] in *.
  - unfold capi_add in H. destruct Hc as [Hx Hc]. rewrite from_int in H by assumption. destruct (Z.eqb_spec x 0) as [->|Hx0].
    + injection H as <- <- <-. apply rel_quiet with (W := W); [assumption|discriminate|reflexivity].
    + destruct (Hc Hx0) as (Hw & Hu & Ho). destruct (en_extend E s [mk (int_lit x) wt]) as [s1|] eqn:Ee; [|discriminate]. cbn [obind] in H. injection H as <- <- <-.
      eapply rel_add; eassumption.
  - destruct (en_reserve E s (s_used w)) as [[s1 n1]|] eqn:Ee; [|discriminate]. injection H as <- <- <-.
    eapply rel_log with (op := HReserve) (cs := []); try exact R; [apply Hallow|exact I| |exact I|reflexivity]. cbn [step]. rewrite (rl_used _ _ _ R), Ee. reflexivity.
  - unfold capi_encode in H. destruct (lo <=? hi)%nat; [|discriminate]. destruct (en_ub_change E s (Incl lo, Incl hi) (s_used w)) as [[[s1 cs] n1]|] eqn:Ee; [|discriminate].
    destruct (cnf_ints cs) as [xs|] eqn:Ex; [|discriminate]. cbn [obind] in H. injection H as <- <- <-.
    eapply rel_log with (op := HUbChange (Incl lo, Incl hi)) (cs := cs); try exact R; [apply Hallow|exact I| |exact I|exact Ex]. cbn [step]. now rewrite (rl_used _ _ _ R), Ee.
  - unfold capi_encode in H. destruct (lo <=? hi)%nat; [|discriminate]. destruct (en_lb_change E s (Incl lo, Incl hi) (s_used w)) as [[[s1 cs] n1]|] eqn:Ee; [|discriminate].
    destruct (cnf_ints cs) as [xs|] eqn:Ex; [|discriminate]. cbn [obind] in H. injection H as <- <- <-.
    eapply rel_log with (op := HLbChange (Incl lo, Incl hi)) (cs := cs); try exact R; [apply Hallow; apply Hc|exact I| |exact I|exact Ex]. cbn [step]. now rewrite (rl_used _ _ _ R), Ee.
  - assert (Hr : s' = s /\ n = s_used w /\ r_clauses r = []).
    { unfold capi_enforce in H. destruct (en_enforce_ub E s b) as [[ls| |]|]; cbn [obind] in H; try discriminate; [|now injection H as <- <- <-..].
      destruct single; [destruct ls as [|l [|]]; try discriminate; destruct (to_ipasir l)|destruct (lits_ints ls)]; try discriminate; now injection H as <- <- <-. }
    destruct Hr as (-> & -> & Hr). now apply rel_quiet with (W := W).
  - assert (Hr : s' = s /\ n = s_used w /\ r_clauses r = []).
    { unfold capi_enforce in H. destruct (en_enforce_lb E s b) as [[ls| |]|]; cbn [obind] in H; try discriminate; [|now injection H as <- <- <-..].
      destruct single; [destruct ls as [|l [|]]; try discriminate; destruct (to_ipasir l)|destruct (lits_ints ls)]; try discriminate; now injection H as <- <- <-. }
    destruct Hr as (-> & -> & Hr). now apply rel_quiet with (W := W).
Qed.

Lemma hist_rel w s : chist F (en_init E) lower wok w s -> exists W, rel w s W.
Proof.
  induction 1 as [n|w s k H [W R]|w s c s' n r H [W R] Hc Hf].
  - exists (mkWorld [] n [] [] [] []). constructor; cbn; auto; try reflexivity.
    eapply reach_step with (op := HUserVars n); [apply reach_init|split; [apply Hallow|exact I]|reflexivity].
  - eapply rel_vars; eassumption.
  - eapply rel_call; eassumption.
Qed.

(** what the callback received can always be read *)
Lemma hist_stream w s : chist F (en_init E) lower wok w s -> exists cls, int_clauses [] (s_ints w) = Some cls.
Proof. intros H. destruct (hist_rel w s H) as [W R]. destruct (read_ints (fun _ => true) _ _ (rl_ints _ _ _ R)) as [cls [Ec _]]. eauto. Qed.

Lemma enforce_fine (s : S) n r s' n' rp : capi_enforce single s n r = Some (s', n', rp) ->
  s' = s /\ n' = n /\ r_clauses rp = [] /\ (r_code rp = Fine -> exists ls, r = Some (EOk ls) /\ lits_ints ls = Some (r_assumps rp)) /\
  (r_code rp = Unsatisfiable -> r = Some EUnsat) /\ (r_code rp = NotEncoded -> r = Some ENotEncoded) /\ (r_code rp = Fine \/ r_code rp = NotEncoded \/ r_code rp = Unsatisfiable).
Proof.
  unfold capi_enforce. destruct r as [[ls| |]|]; cbn [obind]; intros H; try discriminate.
  - destruct single.
    + destruct ls as [|l [|]]; try discriminate. destruct (to_ipasir l) as [x|] eqn:El; [|discriminate]. cbn [obind] in H. injection H as <- <- <-. cbn.
      repeat split; try discriminate; try (now left). intros _. exists [l]. split; [reflexivity|]. cbn [lits_ints]. now rewrite El.
    + destruct (lits_ints ls) as [xs|] eqn:El; [|discriminate]. cbn [obind] in H. injection H as <- <- <-. cbn.
      repeat split; try discriminate; try (now left). intros _. eauto.
  - injection H as <- <- <-. cbn. repeat split; try discriminate; auto.
  - injection H as <- <- <-. cbn. repeat split; try discriminate; auto.
Qed.

Hypothesis Hnp : no_panic E ilit iok allow.
Hypothesis Huc : upper_contract E ilit iok allow value total.
Hypothesis Hlc : lower = true -> lower_contract E ilit iok allow value total.
Hypothesis Hone : single = true -> forall W s b ls, reachable E ilit iok allow W s ->
  (en_enforce_ub E s b = Some (EOk ls) -> (b < total (w_in W))%nat -> exists l, ls = [l]) /\ (en_enforce_lb E s b = Some (EOk ls) -> (1 <= b)%nat -> exists l, ls = [l]).

(** soundness and completeness as the C program sees them *)
Lemma hist_ub_sound w s b s' n r a : chist F (en_init E) lower wok w s -> F s (s_used w) (FEnforceUb b) = Some (s', n, r) -> r_code r = Fine ->
  ints_hold a (s_ints w) -> forallb (int_holds a) (r_assumps r) = true -> (int_sum a (s_in w) <= b)%nat.
Proof.
  intros H Hf Hr Ha Hs. destruct (hist_rel w s H) as [W R]. cbn [capi] in Hf. apply enforce_fine in Hf as (_ & _ & _ & Hf & _).
  destruct (Hf Hr) as [ls [Ee El]]. rewrite <- Hval by exact (rl_ok _ _ _ R). rewrite <- (rl_in _ _ _ R).
  apply (uc_sound _ _ _ _ _ _ Huc W s b ls a (rl_reach _ _ _ R) Ee).
  - rewrite (rl_ub _ _ _ R). now apply (ints_sat a _ _ (rl_ints _ _ _ R)).
  - now rewrite <- (ints_cube a ls _ El).
Qed.
Lemma hist_lb_sound w s b s' n r a : lower = true -> chist F (en_init E) lower wok w s -> F s (s_used w) (FEnforceLb b) = Some (s', n, r) -> r_code r = Fine ->
  ints_hold a (s_ints w) -> forallb (int_holds a) (r_assumps r) = true -> (b <= int_sum a (s_in w))%nat.
Proof.
  intros Hl H Hf Hr Ha Hs. destruct (hist_rel w s H) as [W R]. cbn [capi] in Hf. apply enforce_fine in Hf as (_ & _ & _ & Hf & _).
  destruct (Hf Hr) as [ls [Ee El]]. rewrite <- Hval by exact (rl_ok _ _ _ R). rewrite <- (rl_in _ _ _ R).
  apply (lc_sound _ _ _ _ _ _ (Hlc Hl) W s b ls a (rl_reach _ _ _ R) Ee).
  - rewrite (rl_lb _ _ _ R). now apply (ints_sat a _ _ (rl_ints _ _ _ R)).
  - now rewrite <- (ints_cube a ls _ El).
Qed.
Lemma hist_complete w s a : chist F (en_init E) lower wok w s -> exists a',
  (forall v, ~ in_aux (s_own w) v -> a' v = a v) /\ ints_hold a' (s_ints w) /\
  (forall b s' n r, F s (s_used w) (FEnforceUb b) = Some (s', n, r) -> r_code r = Fine -> (int_sum a (s_in w) <= b)%nat -> forallb (int_holds a') (r_assumps r) = true) /\
  (forall b s' n r, F s (s_used w) (FEnforceLb b) = Some (s', n, r) -> r_code r = Fine -> (b <= int_sum a (s_in w))%nat -> forallb (int_holds a') (r_assumps r) = true).
Proof.
  intros H. destruct (hist_rel w s H) as [W R]. destruct (uc_complete _ _ _ _ _ _ Huc W s a (rl_reach _ _ _ R)) as (a' & C1 & C2 & C3 & C4).
  exists a'. assert (Ev : value a (w_in W) = int_sum a (s_in w)) by (rewrite (rl_in _ _ _ R); apply Hval, (rl_ok _ _ _ R)). rewrite Ev in *.
  split; [intros v Hv; apply C1; now rewrite <- (rl_own _ _ _ R)|]. split; [now apply (ints_sat a' _ _ (rl_ints _ _ _ R))|]. split.
  - intros b s' n r Hf Hr Hb. cbn [capi] in Hf. apply enforce_fine in Hf as (_ & _ & _ & Hf & _). destruct (Hf Hr) as [ls [Ee El]]. rewrite (ints_cube a' ls _ El). eauto.
  - intros b s' n r Hf Hr Hb. cbn [capi] in Hf. apply enforce_fine in Hf as (_ & _ & _ & Hf & _). destruct (Hf Hr) as [ls [Ee El]]. rewrite (ints_cube a' ls _ El). eauto.
Qed.

(** variables in clauses and assumptions are below the number in use *)
Lemma aux_below W s : reachable E ilit iok allow W s -> forall v, in_aux (w_aux W) v -> (v < w_next W)%N.
Proof.
  induction 1 as [|W s op W' s' HR IH V Es]; intros v Hv; [destruct Hv as (? & ? & [] & _)|].
  pose proof (Hvars _ _ _ _ _ HR V Es) as G. cbn in Es.
  assert (L : forall b1 b2 cs n, W' = log_call W b1 b2 cs n -> in_aux ((w_next W, n) :: w_aux W) v -> (v < w_next W')%N).
  { intros b1 b2 cs n -> (lo & hi & [[= <- <-]|Hi] & Hb); cbn [log_call w_next] in *; [lia|].
    assert (v < w_next W)%N by (apply IH; now exists lo, hi). lia. }
  destruct op; cbn [step] in Es; unfold encode_step in Es;
  repeat match goal with
         | H : match ?x with _ => _ end = Some _ |- _ => destruct x as [[[]]|] eqn:?; try discriminate
         | H : match ?x with _ => _ end = Some _ |- _ => destruct x as [[]|] eqn:?; try discriminate
         | H : match ?x with _ => _ end = Some _ |- _ => destruct x as [|] eqn:?; try discriminate
         end; injection Es as <- <-; try (eapply L; [reflexivity|exact Hv]);
  cbn [w_aux w_next] in *; specialize (IH v Hv); lia.
Qed.
Lemma in_below W s w : rel w s W -> forall x, In x (w_in W) -> (lvar (ilit x) < w_next W)%N.
Proof.
  intros R x Hx. rewrite (rl_in _ _ _ R), in_map_iff in Hx. destruct Hx as ([y wt] & <- & Hy). cbn [fst snd]. rewrite Hmk. cbn [int_lit lvar].
  pose proof (proj1 (Forall_forall _ _) (rl_low _ _ _ R) _ Hy) as H1. pose proof (proj1 (Forall_forall _ _) (rl_ok _ _ _ R) _ Hy) as H2. cbn in H1, H2.
  rewrite (rl_used _ _ _ R). lia.
Qed.

Lemma hist_add w s x wt : chist F (en_init E) lower wok w s -> in_contract lower wok w (FAdd x wt) ->
  if (x =? 0)%Z then F s (s_used w) (FAdd x wt) = Some (s, s_used w, mkReply InvalidLiteral [] [])
  else exists s', F s (s_used w) (FAdd x wt) = Some (s', s_used w, mkReply Fine [] []).
Proof.
  intros H [Hx Hc]. destruct (hist_rel w s H) as [W R]. cbn [capi]. unfold capi_add. rewrite from_int by assumption.
  destruct (Z.eqb_spec x 0) as [->|Hx0]; [reflexivity|]. destruct (Hc Hx0) as (Hw & Hu & Ho).
  destruct (en_extend E s [mk (int_lit x) wt]) as [s'|] eqn:Ee; [cbn [obind]; eauto|]. exfalso.
  apply (Hnp W s (HExtend [mk (int_lit x) wt]) (rl_reach _ _ _ R)).
  - split; [apply Hallow|]. intros y [<-|[]]. split; [now apply Hok|]. rewrite Hmk. cbn [int_lit lvar]. rewrite (rl_used _ _ _ R). split; [lia|].
    rewrite <- (rl_own _ _ _ R). now replace (Z.abs_N x - 1)%N with (Z.to_N (Z.abs x) - 1)%N by lia.
  - cbn [step]. now rewrite Ee.
Qed.
Lemma hist_reserve w s : chist F (en_init E) lower wok w s -> exists s' n, F s (s_used w) FReserve = Some (s', n, mkReply Fine [] []).
Proof.
  intros H. destruct (hist_rel w s H) as [W R]. cbn [capi].
  assert (Hs : step E W s HReserve <> None) by (apply Hnp; [exact (rl_reach _ _ _ R)|split; [apply Hallow|exact I]]). cbn [step] in Hs. rewrite (rl_used _ _ _ R) in Hs.
  destruct (en_reserve E s (s_used w)) as [[s' n]|]; [exists s', n; reflexivity|congruence].
Qed.
Lemma log_room w s W op s' cs n : rel w s W -> allow op -> (match op with HExtend _ => False | _ => True end) ->
  step E W s op = Some (log_call W false false cs n, s') -> (n <= 2147483647)%N -> exists xs, cnf_ints cs = Some xs.
Proof.
  intros R Ha Hop Es Hn. pose proof (rl_reach _ _ _ R) as HR. assert (V : valid_op ilit iok allow W op) by (split; [exact Ha|now destruct op]).
  pose proof (reach_step _ _ _ _ _ _ _ _ _ HR V Es) as HR'. pose proof (Hvars _ _ _ _ _ HR V Es) as G.
  apply cnf_ints_some. intros c l Hc Hl. cbn [log_call w_next] in G.
  destruct (uc_clauses _ _ _ _ _ _ Huc _ _ c l HR') as [(x & Hx & Hv)|Hv]; [cbn [log_call w_all]; apply in_or_app; now right|exact Hl| |].
  - cbn [log_call w_in] in Hx. pose proof (in_below _ _ _ R x Hx). lia.
  - pose proof (aux_below _ _ HR' _ Hv) as Hb. cbn [log_call w_next] in Hb. lia.
Qed.
Lemma hist_encode_ub w s lo hi : chist F (en_init E) lower wok w s -> in_contract lower wok w (FEncodeUb lo hi) ->
  exists s' cs n, en_ub_change E s (Incl lo, Incl hi) (s_used w) = Some (s', cs, n) /\
    ((n <= 2147483647)%N -> exists r, F s (s_used w) (FEncodeUb lo hi) = Some (s', n, r) /\ r_code r = Fine /\
      forall b, (lo <= b <= hi)%nat -> (single = true -> (b < int_total (s_in w))%nat) -> exists r', F s' n (FEnforceUb b) = Some (s', n, r') /\ r_code r' = Fine).
Proof.
  intros H Hc. destruct (hist_rel w s H) as [W R]. cbn [in_contract] in Hc. set (op := HUbChange (Incl lo, Incl hi) : hop A).
  assert (Ha : allow op) by apply Hallow. assert (V : valid_op ilit iok allow W op) by (split; [exact Ha|exact I]).
  pose proof (Hnp W s op (rl_reach _ _ _ R) V) as Hs. cbn [op step] in Hs. rewrite (rl_used _ _ _ R) in Hs.
  destruct (en_ub_change E s (Incl lo, Incl hi) (s_used w)) as [[[s' cs] n]|] eqn:Ee; [|cbn in Hs; congruence].
  exists s', cs, n. split; [reflexivity|]. intros Hn.
  assert (Es : step E W s op = Some (log_call W false false cs n, s')) by (cbn [op step]; now rewrite (rl_used _ _ _ R), Ee).
  destruct (log_room w s W op s' cs n R Ha I Es Hn) as [xs Ex]. exists (mkReply Fine xs []).
  assert (Ef : F s (s_used w) (FEncodeUb lo hi) = Some (s', n, mkReply Fine xs [])).
  { cbn [capi]. unfold capi_encode. rewrite (proj2 (Nat.leb_le lo hi) Hc), Ee, Ex. reflexivity. }
  split; [exact Ef|]. split; [reflexivity|]. intros b Hb Hsg.
  pose proof (reach_step _ _ _ _ _ _ _ _ _ (rl_reach _ _ _ R) V Es) as HR'. pose proof (Hvars _ _ _ _ _ (rl_reach _ _ _ R) V Es) as G. cbn [log_call w_next] in G.
  destruct (uc_encodes_change _ _ _ _ _ _ Huc W s (Incl lo, Incl hi) _ s' b (rl_reach _ _ _ R) V Es) as [ls El]; [exact Hb|].
  cbn [capi]. unfold capi_enforce. rewrite El. cbn [obind].
  assert (Hls : exists ys, lits_ints ls = Some ys).
  { apply lits_ints_some. intros l Hl. destruct (uc_assumps _ _ _ _ _ _ Huc _ _ b ls l HR' (or_introl El) Hl) as [(x & Hx & Hv)|Hv].
    - cbn [log_call w_in] in Hx. pose proof (in_below _ _ _ R x Hx). lia.
    - pose proof (aux_below _ _ HR' _ Hv) as Hbb. cbn [log_call w_next] in Hbb. lia. }
  destruct Hls as [ys Ey]. destruct single eqn:Esg.
  - destruct (proj1 (Hone eq_refl _ _ b ls HR') El) as [l ->].
    + cbn [log_call w_in]. rewrite (rl_in _ _ _ R), Htot by exact (rl_ok _ _ _ R). now apply Hsg.
    + cbn [lits_ints] in Ey. destruct (to_ipasir l) as [x|]; [|discriminate]. cbn [obind]. eexists. now split.
  - rewrite Ey. cbn [obind]. eexists. now split.
Qed.
Lemma hist_encode_lb w s lo hi : chist F (en_init E) lower wok w s -> in_contract lower wok w (FEncodeLb lo hi) ->
  exists s' cs n, en_lb_change E s (Incl lo, Incl hi) (s_used w) = Some (s', cs, n) /\
    ((n <= 2147483647)%N -> exists r, F s (s_used w) (FEncodeLb lo hi) = Some (s', n, r) /\ r_code r = Fine /\
      forall b, (lo <= b <= hi)%nat -> (single = true -> (1 <= b)%nat) -> exists r', F s' n (FEnforceLb b) = Some (s', n, r') /\
        (r_code r' = Fine \/ r_code r' = Unsatisfiable /\ (int_total (s_in w) < b)%nat)).
Proof.
  intros H [Hlow Hc]. destruct (hist_rel w s H) as [W R]. set (op := HLbChange (Incl lo, Incl hi) : hop A).
  assert (Ha : allow op) by (now apply Hallow). assert (V : valid_op ilit iok allow W op) by (split; [exact Ha|exact I]).
  pose proof (Hnp W s op (rl_reach _ _ _ R) V) as Hs. cbn [op step] in Hs. rewrite (rl_used _ _ _ R) in Hs.
  destruct (en_lb_change E s (Incl lo, Incl hi) (s_used w)) as [[[s' cs] n]|] eqn:Ee; [|cbn in Hs; congruence].
  exists s', cs, n. split; [reflexivity|]. intros Hn.
  assert (Es : step E W s op = Some (log_call W false false cs n, s')) by (cbn [op step]; now rewrite (rl_used _ _ _ R), Ee).
  destruct (log_room w s W op s' cs n R Ha I Es Hn) as [xs Ex]. exists (mkReply Fine xs []).
  assert (Ef : F s (s_used w) (FEncodeLb lo hi) = Some (s', n, mkReply Fine xs [])).
  { cbn [capi]. unfold capi_encode. rewrite (proj2 (Nat.leb_le lo hi) Hc), Ee, Ex. reflexivity. }
  split; [exact Ef|]. split; [reflexivity|]. intros b Hb Hsg.
  pose proof (reach_step _ _ _ _ _ _ _ _ _ (rl_reach _ _ _ R) V Es) as HR'. pose proof (Hvars _ _ _ _ _ (rl_reach _ _ _ R) V Es) as G. cbn [log_call w_next] in G.
  destruct (lc_encodes_change _ _ _ _ _ _ (Hlc Hlow) W s (Incl lo, Incl hi) _ s' b (rl_reach _ _ _ R) V Es) as [[ls El]|El]; [exact Hb| |].
  2:{ cbn [capi]. unfold capi_enforce. rewrite El. cbn [obind]. eexists. split; [reflexivity|]. right. split; [reflexivity|].
      pose proof (proj1 (lc_unsat _ _ _ _ _ _ (Hlc Hlow) _ _ b HR') El) as Hu. cbn [log_call w_in] in Hu. now rewrite (rl_in _ _ _ R), Htot in Hu by exact (rl_ok _ _ _ R). }
  cbn [capi]. unfold capi_enforce. rewrite El. cbn [obind].
  assert (Hls : exists ys, lits_ints ls = Some ys).
  { apply lits_ints_some. intros l Hl. destruct (uc_assumps _ _ _ _ _ _ Huc _ _ b ls l HR' (or_intror El) Hl) as [(x & Hx & Hv)|Hv].
    - cbn [log_call w_in] in Hx. pose proof (in_below _ _ _ R x Hx). lia.
    - pose proof (aux_below _ _ HR' _ Hv) as Hbb. cbn [log_call w_next] in Hbb. lia. }
  destruct Hls as [ys Ey]. destruct single eqn:Esg.
  - destruct (proj2 (Hone eq_refl _ _ b ls HR') El) as [l ->]; [now apply Hsg|].
    cbn [lits_ints] in Ey. destruct (to_ipasir l) as [x|]; [|discriminate]. cbn [obind]. eexists. split; [reflexivity|now left].
  - rewrite Ey. cbn [obind]. eexists. split; [reflexivity|now left].
Qed.
Lemma hist_enforce_ub w s b : chist F (en_init E) lower wok w s -> (s_used w <= 2147483647)%N -> (single = true -> (b < int_total (s_in w))%nat) ->
  exists r, F s (s_used w) (FEnforceUb b) = Some (s, s_used w, r) /\ r_clauses r = [] /\ (r_code r = Fine \/ r_code r = NotEncoded).
Proof.
  intros H Hn Hsg. destruct (hist_rel w s H) as [W R]. pose proof (rl_reach _ _ _ R) as HR. cbn [capi]. unfold capi_enforce.
  pose proof (proj1 (uc_enforce _ _ _ _ _ _ Huc W s HR) b) as Hne. pose proof (proj2 (uc_unsat _ _ _ _ _ _ Huc W s b HR)) as Hun.
  destruct (en_enforce_ub E s b) as [[ls| |]|] eqn:El; cbn [obind]; try congruence.
  2:{ eexists. split; [reflexivity|]. split; [reflexivity|now right]. }
  assert (Hls : exists ys, lits_ints ls = Some ys).
  { apply lits_ints_some. intros l Hl. destruct (uc_assumps _ _ _ _ _ _ Huc _ _ b ls l HR (or_introl El) Hl) as [(x & Hx & Hv)|Hv].
    - pose proof (in_below _ _ _ R x Hx) as Hb. rewrite (rl_used _ _ _ R) in Hb. lia.
    - pose proof (aux_below _ _ HR _ Hv) as Hbb. rewrite (rl_used _ _ _ R) in Hbb. lia. }
  destruct Hls as [ys Ey]. destruct single eqn:Esg.
  - destruct (proj1 (Hone eq_refl _ _ b ls HR) El) as [l ->].
    + rewrite (rl_in _ _ _ R), Htot by exact (rl_ok _ _ _ R). now apply Hsg.
    + cbn [lits_ints] in Ey. destruct (to_ipasir l) as [x|]; [|discriminate]. cbn [obind]. eexists. split; [reflexivity|]. split; [reflexivity|now left].
  - rewrite Ey. cbn [obind]. eexists. split; [reflexivity|]. split; [reflexivity|now left].
Qed.
Lemma hist_enforce_lb w s b : lower = true -> chist F (en_init E) lower wok w s -> (s_used w <= 2147483647)%N -> (single = true -> (1 <= b)%nat) ->
  exists r, F s (s_used w) (FEnforceLb b) = Some (s, s_used w, r) /\ r_clauses r = [] /\ (r_code r = Fine \/ r_code r = NotEncoded \/ r_code r = Unsatisfiable /\ (int_total (s_in w) < b)%nat).
Proof.
  intros Hlow H Hn Hsg. destruct (hist_rel w s H) as [W R]. pose proof (rl_reach _ _ _ R) as HR. cbn [capi]. unfold capi_enforce.
  pose proof (proj2 (uc_enforce _ _ _ _ _ _ Huc W s HR) b) as Hne. pose proof (proj1 (lc_unsat _ _ _ _ _ _ (Hlc Hlow) W s b HR)) as Hun.
  rewrite (rl_in _ _ _ R), Htot in Hun by exact (rl_ok _ _ _ R).
  destruct (en_enforce_lb E s b) as [[ls| |]|] eqn:El; cbn [obind]; try congruence.
  2:{ eexists. split; [reflexivity|]. split; [reflexivity|right; now left]. }
  2:{ eexists. split; [reflexivity|]. split; [reflexivity|right; right; split; [reflexivity|now apply Hun]]. }
  assert (Hls : exists ys, lits_ints ls = Some ys).
  { apply lits_ints_some. intros l Hl. destruct (uc_assumps _ _ _ _ _ _ Huc _ _ b ls l HR (or_intror El) Hl) as [(x & Hx & Hv)|Hv].
    - pose proof (in_below _ _ _ R x Hx) as Hb. rewrite (rl_used _ _ _ R) in Hb. lia.
    - pose proof (aux_below _ _ HR _ Hv) as Hbb. rewrite (rl_used _ _ _ R) in Hbb. lia. }
  destruct Hls as [ys Ey]. destruct single eqn:Esg.
  - destruct (proj2 (Hone eq_refl _ _ b ls HR) El) as [l ->]; [now apply Hsg|].
    cbn [lits_ints] in Ey. destruct (to_ipasir l) as [x|]; [|discriminate]. cbn [obind]. eexists. split; [reflexivity|]. split; [reflexivity|now left].
  - rewrite Ey. cbn [obind]. eexists. split; [reflexivity|]. split; [reflexivity|now left].
Qed.
End Encoding.
