(** * Certified encodings of single pseudo-Boolean constraints *)

From Coq Require Import List Bool NArith ZArith Lia Arith Permutation.
From Coq Require Import ZifyBool ZifyNat ZifyN.
From Verif Require Import Spec BoundSpec Types Constraints ConstrSpec ConstrProofs Maps NodeDb TreeSpec TotDb Totalizer Gte Simulators Base ConstrEnc CertSpec CertBase CertSound Cert CertW CertWorld CertPbSpec CertDefs CertStep CertConstr.
Import ListNotations.
Open Scope nat_scope.

Lemma pb_at_least_slack ls b a : slack (pb_at_least_con ls b) a = (Z.of_nat (wsum a ls) - b)%Z.
Proof.
  unfold pb_at_least_con. rewrite norm_slack. unfold slack. cbn [fst snd]. f_equal.
  induction ls as [|[l w] ls IH]; [reflexivity|]. cbn [map wsum]. rewrite zwsum_cons', IH. unfold lv. destruct (lit_true a l); lia.
Qed.
Lemma pb_at_most_slack ls b a : slack (pb_at_most_con ls b) a = (b - Z.of_nat (wsum a ls))%Z.
Proof.
  unfold pb_at_most_con. rewrite norm_slack. unfold slack. cbn [fst snd].
  enough (zwsum a (map (fun '(l, w) => (l, (- Z.of_nat w)%Z)) ls) = - Z.of_nat (wsum a ls))%Z by lia.
  induction ls as [|[l w] ls IH]; [reflexivity|]. cbn [map wsum]. rewrite zwsum_cons', IH. unfold lv. destruct (lit_true a l); lia.
Qed.

(** the halves of a constraint in the proof *)
Lemma pb_proof_holds p id c a : pb_in_proof p id c -> (forall i d, (i = id \/ i = id + 1) -> ps_get p i = Some d -> raw_holds a d) -> pb_holds a c.
Proof.
  unfold pb_in_proof, pb_holds. intros H Ha. destruct (p_kind c).
  - specialize (Ha id _ (or_introl eq_refl) H). apply holds_slack in Ha. rewrite pb_at_most_slack in Ha. lia.
  - specialize (Ha id _ (or_introl eq_refl) H). apply holds_slack in Ha. rewrite pb_at_least_slack in Ha. lia.
  - destruct H as (H1 & H2). specialize (Ha id _ (or_introl eq_refl) H1) as Ha1. specialize (Ha (id + 1) _ (or_intror eq_refl) H2).
    apply holds_slack in Ha, Ha1. rewrite pb_at_most_slack in Ha. rewrite pb_at_least_slack in Ha1. lia.
Qed.

Lemma wsum_full a ls : (forall l w, In (l, w) ls -> 0 < w) -> total_weight ls <= wsum a ls -> forall l w, In (l, w) ls -> lit_true a l = true.
Proof.
  induction ls as [|[l w] ls IH]; intros Hp H x y Hx; [destruct Hx|]. cbn [total_weight wsum] in H. pose proof (wsum_le a ls). pose proof (Hp l w (or_introl eq_refl)).
  destruct (lit_true a l) eqn:El; [|lia]. destruct Hx as [[= <- <-]|Hx]; [auto|]. eapply IH; eauto; [|lia]. intros; eapply Hp; right; eauto.
Qed.
Lemma wsum_none a ls : (forall l w, In (l, w) ls -> 0 < w) -> wsum a ls = 0 -> forall l w, In (l, w) ls -> lit_true a l = false.
Proof.
  induction ls as [|[l w] ls IH]; intros Hp H x y Hx; [destruct Hx|]. cbn [wsum] in H. pose proof (Hp l w (or_introl eq_refl)).
  destruct (lit_true a l) eqn:El; [lia|]. destruct Hx as [[= <- <-]|Hx]; [auto|]. eapply IH; eauto. intros; eapply Hp; right; eauto.
Qed.

(** what one half of an equality says when the equality is an assignment *)
Lemma half_positive c d p id a : pb_wf c -> (forall l w, In (l, w) (p_lits c) -> 0 < w) -> pb_is_positive_assignment c = true ->
  pb_in_proof p id c -> ps_get p id = Some d -> raw_holds a d -> forall l w, In (l, w) (p_lits c) -> lit_true a l = true.
Proof.
  intros Hwf Hpos Hp Hin Hd Ha l w Hl. destruct (p_kind c) eqn:K.
  - unfold pb_is_positive_assignment in Hp. rewrite K in Hp. discriminate.
  - apply (proj1 (pb_positive_sound c Hwf Hp Hpos a)) with w; [|auto]. unfold pb_in_proof, pb_holds in *. rewrite K in *. rewrite Hd in Hin. injection Hin as ->.
    apply holds_slack in Ha. rewrite pb_at_least_slack in Ha. lia.
  - unfold pb_in_proof in Hin. rewrite K in Hin. destruct Hin as (Hin & _). rewrite Hd in Hin. injection Hin as ->.
    apply holds_slack in Ha. rewrite pb_at_least_slack in Ha. unfold pb_is_positive_assignment in Hp. rewrite K in Hp.
    unfold pb_wf in Hwf. rewrite sum_weights_total in Hwf. eapply wsum_full; eauto. destruct (Z.ltb_spec (p_b c) 0); [discriminate|]. lia.
Qed.
Lemma half_negative c d p id a : (forall l w, In (l, w) (p_lits c) -> 0 < w) -> pb_is_negative_assignment c = true ->
  pb_in_proof p id c -> ps_get p (match p_kind c with KEq => id + 1 | _ => id end) = Some d -> raw_holds a d ->
  forall l w, In (l, w) (p_lits c) -> lit_true a l = false.
Proof.
  intros Hpos Hp Hin Hd Ha l w Hl. destruct (p_kind c) eqn:K.
  - apply (proj1 (pb_negative_sound c Hp Hpos a)) with w; [|auto]. unfold pb_in_proof, pb_holds in *. rewrite K in *. rewrite Hd in Hin. injection Hin as ->.
    apply holds_slack in Ha. rewrite pb_at_most_slack in Ha. lia.
  - unfold pb_is_negative_assignment in Hp. rewrite K in Hp. discriminate.
  - unfold pb_in_proof in Hin. rewrite K in Hin. destruct Hin as (_ & Hin). rewrite Hd in Hin. injection Hin as ->.
    apply holds_slack in Ha. rewrite pb_at_most_slack in Ha. unfold pb_is_negative_assignment in Hp. rewrite K in Hp.
    eapply wsum_none; eauto. destruct (Z.ltb_spec (p_b c) 0); [discriminate|]. lia.
Qed.

Record kfinal (p : pstate) (next : N) (o : kout) (p' : pstate) : Prop := mkKfinal {
  kf_run : ps_run p (ko_log o) p';
  kf_pid : ps_next p' = ko_pid o;
  kf_ids : Forall2 (fun cl i => ps_get p' i = Some (clause_con cl)) (ko_cls o) (ko_ids o);
  kf_old : forall i, i < ps_next p -> ps_get p' i = ps_get p i;
  kf_new : forall i c, ps_get p' i = Some c -> i < ps_next p \/ In i (ko_ids o);
  kf_wit : forall v, In v (wit_vars (ko_log o)) -> (next <= v < ko_next o)%N }.

Lemma kfinal_of p next o p' : final p o p' -> fresh_wit o next -> kfinal p next (of_cout o) p'.
Proof. intros [F1 F2 F3 F4 F5] W. constructor; cbn [of_cout ko_log ko_pid ko_cls ko_ids ko_next]; auto. Qed.

(** the constraint simplifies, or all its weights are one *)
Definition simplifies (c : pb) : bool :=
  pb_is_tautology c || pb_is_unsat c || pb_is_positive_assignment c || pb_is_negative_assignment c || pb_is_clause c.

Lemma ones_units (ls : list (lit * nat)) : (forall l w, In (l, w) ls -> w = 1) -> map (fun '(l, w) => (l, Z.of_nat w)) ls = map (fun l => (l, 1%Z)) (map fst ls) /\
  map (fun '(l, w) => (l, (- Z.of_nat w)%Z)) ls = map (fun l => (l, (-1)%Z)) (map fst ls).
Proof.
  induction ls as [|[l w] ls IH]; intros H; [auto|]. destruct IH as (A & B); [intros; eapply H; right; eauto|].
  cbn [map fst]. rewrite A, B, (H l w (or_introl eq_refl)). auto.
Qed.

Theorem encode_pb_cert_simple ord dord c id next p : (forall xs, Permutation (dord xs) xs) -> ps_ok p ->
  (forall i d v, ps_get p i = Some d -> mentions d v -> (v < next)%N) -> (forall l w, In (l, w) (p_lits c) -> (lvar l < next)%N) ->
  (forall l w, In (l, w) (p_lits c) -> 0 < w) -> (forall l l', In l (map fst (p_lits c)) -> In l' (map fst (p_lits c)) -> l' <> neg l) ->
  pb_wf c -> (p_kind c = KEq -> 0 <= p_b c)%Z -> pb_in_proof p id c ->
  simplifies c = true \/ (p_lits c <> [] /\ forall l w, In (l, w) (p_lits c) -> w = 1) ->
  exists o p', encode_pb_constraint_cert ord dord c id next (ps_next p) = Some o /\
    (forall o0 o1 o2 o3 o4, default_encode_pb_constraint o0 o1 o2 o3 o4 c next = Some (ko_cls o, ko_next o)) /\ kfinal p next o p'.
Proof.
  intros Ho Hp Hb Hv Hpos NC Hwf Hneg Hin Hs.
  assert (Hid : exists d, ps_get p id = Some d) by (unfold pb_in_proof in Hin; destruct (p_kind c); [eauto|eauto|destruct Hin; eauto]).
  destruct Hid as (d & Hd).
  assert (Rup : forall cs i e, ps_get p i = Some e -> (forall c a, In c cs -> raw_holds a e -> sat_clause a c = true) ->
    exists p', kfinal p next (of_cout (rup_clauses cs i next (ps_next p))) p').
  { intros cs i e Hi Hc. destruct (rup_final cs i p e next Hp Hi Hc) as (p' & F). exists p'. apply kfinal_of; [exact F|apply rup_wit]. }
  unfold encode_pb_constraint_cert, default_encode_pb_constraint, encode_pb_constraint.
  destruct (pb_is_tautology c) eqn:Et.
  { eexists _, p. split; [reflexivity|]. split; [reflexivity|]. constructor; cbn [ko_log ko_pid ko_cls ko_ids ko_next]; auto; [constructor| |intros v []].
    intros i e H. left. now apply (ps_ok_get _ _ _ Hp H). }
  destruct (pb_is_unsat c) eqn:Eu.
  { destruct (Rup [[]] id d Hd) as (p' & F).
    - intros e a _ Ha. exfalso. unfold pb_in_proof in Hin. unfold pb_is_unsat in Eu. unfold pb_wf in Hwf. rewrite sum_weights_total in Hwf. pose proof (wsum_le a (p_lits c)).
      apply holds_slack in Ha. destruct (p_kind c) eqn:K.
      + rewrite Hd in Hin. injection Hin as ->. rewrite pb_at_most_slack in Ha. lia.
      + rewrite Hd in Hin. injection Hin as ->. rewrite pb_at_least_slack in Ha. destruct (Z.ltb_spec (p_b c) 0); [discriminate|]. lia.
      + destruct Hin as (Hin & _). rewrite Hd in Hin. injection Hin as ->. rewrite pb_at_least_slack in Ha. specialize (Hneg eq_refl).
        destruct (Z.ltb_spec (p_b c) 0); lia.
    - eexists _, p'. split; [reflexivity|]. split; [reflexivity|exact F]. }
  destruct (pb_is_positive_assignment c) eqn:Ep.
  { destruct (Rup (map (fun lw => [fst lw]) (p_lits c)) id d Hd) as (p' & F).
    - intros e a He Ha. apply in_map_iff in He as ([l w] & <- & Hl). apply sat_exists. exists l. split; [now left|]. eapply half_positive; eauto.
    - eexists _, p'. split; [reflexivity|]. split; [reflexivity|exact F]. }
  destruct (pb_is_negative_assignment c) eqn:En.
  { assert (He : exists e, ps_get p (match p_kind c with KEq => id + 1 | _ => id end) = Some e).
    { unfold pb_in_proof in Hin. destruct (p_kind c); [eauto|eauto|destruct Hin; eauto]. }
    destruct He as (e & He). destruct (Rup (map (fun lw => [neg (fst lw)]) (p_lits c)) _ e He) as (p' & F).
    - intros f a Hf Ha. apply in_map_iff in Hf as ([l w] & <- & Hl). apply sat_exists. exists (neg l). split; [now left|]. rewrite lit_true_neg'.
      rewrite (half_negative c e p id a Hpos En Hin He Ha l w Hl). reflexivity.
    - eexists _, p'. split; [reflexivity|]. split; [reflexivity|exact F]. }
  destruct (pb_is_clause c) eqn:Ec.
  { destruct (pb_into_clause_some c Ec) as (cl & Ecl). rewrite Ecl. cbn [obind]. destruct (Rup [cl] id d Hd) as (p' & F).
    - intros f a [<-|[]] Ha. apply (pb_into_clause_sound c cl Hwf Ecl). unfold pb_is_clause in Ec. unfold pb_in_proof in Hin. unfold pb_holds.
      apply holds_slack in Ha. destruct (p_kind c); [| |discriminate]; rewrite Hd in Hin; injection Hin as ->; [rewrite pb_at_most_slack in Ha|rewrite pb_at_least_slack in Ha]; lia.
    - eexists _, p'. split; [reflexivity|]. split; [reflexivity|exact F]. }
  destruct Hs as [Hs|(Hne & Hone)]; [unfold simplifies in Hs; rewrite Et, Eu, Ep, En, Ec in Hs; discriminate|].
  assert (Fu : find_unit_weight (p_lits c) = Some 1).
  { unfold find_unit_weight. destruct (p_lits c) as [|[l w] ls]; [congruence|]. cbn [find_unit_weight_from]. rewrite (Hone l w (or_introl eq_refl)).
    assert (H1 : forall l w, In (l, w) ls -> w = 1) by (intros; eapply Hone; right; eauto). clear -H1. induction ls as [|[x y] ls IH]; [reflexivity|]. cbn [find_unit_weight_from].
    rewrite (H1 x y (or_introl eq_refl)). apply IH. intros; eapply H1; right; eauto. }
  unfold pb_is_card, pb_into_card_constr. rewrite Fu, Et, Eu. cbv beta zeta iota.
  set (cc := match p_kind c with KUb => card_new_ub (map fst (p_lits c)) (Z.abs_nat (p_b c)) | KLb => card_new_lb (map fst (p_lits c)) (Z.abs_nat (p_b c)) | KEq => card_new_eq (map fst (p_lits c)) (Z.abs_nat (p_b c)) end).
  assert (Hcc : match p_kind c with
         | KUb => TcOk (card_new_ub (map fst (p_lits c)) (Z.abs_nat (p_b c) / 1))
         | KLb => TcOk (card_new_lb (map fst (p_lits c)) (Z.abs_nat (p_b c) / 1 + (if Z.abs_nat (p_b c) mod 1 =? 0 then 0 else 1)))
         | KEq => if Z.abs_nat (p_b c) mod 1 =? 0 then TcOk (card_new_eq (map fst (p_lits c)) (Z.abs_nat (p_b c) / 1)) else TcUnsat
         end = TcOk cc).
  { unfold cc. rewrite Nat.div_1_r, Nat.mod_1_r. cbn [Nat.eqb]. rewrite Nat.add_0_r. now destruct (p_kind c). }
  rewrite Hcc. destruct (ones_units _ Hone) as (O1 & O2).
  assert (Hb0 : (0 <= p_b c)%Z). { unfold pb_is_unsat, pb_is_tautology in *. destruct (p_kind c); [lia|lia|auto]. }
  assert (Hic : in_proof p id cc).
  { unfold pb_in_proof, pb_at_least_con, pb_at_most_con in Hin. unfold in_proof, cc, at_least_con, at_most_con. destruct (p_kind c); cbn [card_new_ub card_new_lb card_new_eq c_kind c_lits c_b].
    - rewrite <- O2. rewrite Zabs2Nat.id_abs, Z.abs_eq by lia. exact Hin.
    - rewrite <- O1. rewrite Zabs2Nat.id_abs, Z.abs_eq by lia. exact Hin.
    - rewrite <- O1, <- O2. rewrite Zabs2Nat.id_abs, Z.abs_eq by lia. exact Hin. }
  assert (Hcl : c_lits cc = map fst (p_lits c)) by (unfold cc; now destruct (p_kind c)).
  destruct (encode_card_cert_ok dord cc id next p Ho Hp Hb) as (o & p' & E1 & E2 & F & W); auto.
  { rewrite Hcl. intros l Hl. apply in_map_iff in Hl as ([x y] & <- & Hx). eapply Hv; eauto. }
  { rewrite Hcl. exact NC. }
  rewrite E1, E2. cbn [obind]. exists (of_cout o), p'. split; [reflexivity|]. split; [reflexivity|]. now apply kfinal_of.
Qed.

(** ** What running given steps can only result in *)

(** the state after the steps, whether valid or not *)
Fixpoint ps_exec (p : pstate) (l : list pstep) : option pstate :=
  match l with
  | [] => Some p
  | s :: l =>
      match s with
      | SPol ops => match pol_result p ops with Some c => ps_exec (ps_add p c) l | None => None end
      | SRup c _ => ps_exec (ps_add p (clause_con c)) l
      | SRed c _ => ps_exec (ps_add p (norm c)) l
      | SDel is => ps_exec (ps_del p is) l
      end
  end.
Lemma ps_run_exec p l p' : ps_run p l p' -> ps_exec p l = Some p'.
Proof.
  induction 1 as [p|p s q l p1 S R IH]; [reflexivity|]. cbn [ps_exec]. inversion S; subst; auto. now rewrite H.
Qed.

Lemma exec_clauses_wrong p l p' (cls : cnf) ids k c i d : ps_exec p l = Some p' -> nth_error cls k = Some c -> nth_error ids k = Some i -> ps_get p' i = Some d ->
  d <> clause_con c -> forall q, ps_run p l q -> ~ Forall2 (fun cl i => ps_get q i = Some (clause_con cl)) cls ids.
Proof.
  intros E Hc Hi Hg Hd q R F. apply ps_run_exec in R. rewrite E in R. injection R as <-. clear E.
  revert k Hc Hi. induction F as [|x y xs ys H F IH]; intros k Hc Hi; [destruct k; discriminate|].
  destruct k; cbn in Hc, Hi; [|eauto]. injection Hc as ->. injection Hi as ->. congruence.
Qed.

(** ** Checking that a concrete state is well-formed *)
Fixpoint ascending (vs : list N) : bool := match vs with [] => true | v :: vs => forallb (N.ltb v) vs && ascending vs end.
Definition normalb (c : raw) : bool := forallb (fun '(_, w) => (0 <? w)%Z) (fst c) && ascending (map (fun '(l, _) => lvar l) (fst c)).
Lemma ascending_lt vs : ascending vs = true -> forall i j v v', nth_error vs i = Some v -> nth_error vs j = Some v' -> i < j -> (v < v')%N.
Proof.
  induction vs as [|x vs IH]; intros H i j v v' Hi Hj L; [destruct i; discriminate|]. cbn [ascending] in H. apply andb_true_iff in H as (H1 & H2).
  destruct j as [|j]; [lia|]. cbn in Hj. destruct i as [|i]; cbn in Hi.
  - injection Hi as <-. rewrite forallb_forall in H1. apply nth_error_In in Hj. apply H1 in Hj. lia.
  - apply (IH H2 i j); auto. lia.
Qed.
Lemma normalb_ok c : normalb c = true -> normal c.
Proof.
  intros H. apply andb_true_iff in H as (H1 & H2). split.
  - intros l w Hl. rewrite forallb_forall in H1. specialize (H1 _ Hl). cbn in H1. lia.
  - intros i j l w l' w' Hi Hj L. eapply (ascending_lt _ H2 i j); auto; rewrite nth_error_map; [rewrite Hi|rewrite Hj]; reflexivity.
Qed.
Definition ps_okb (p : pstate) (next : N) : bool :=
  (ps_inputs p <? ps_next p) && forallb (fun '(i, c) => (i <? ps_next p) && normalb c && (0 <=? snd c)%Z && forallb (fun '(l, _) => N.ltb (lvar l) next) (fst c)) (ps_db p) &&
  (fix nd l := match l with [] => true | x :: l => negb (existsb (Nat.eqb x) l) && nd l end) (map fst (ps_db p)).
Lemma ps_okb_ok p next : ps_okb p next = true -> ps_ok p /\ forall i d v, ps_get p i = Some d -> mentions d v -> (v < next)%N.
Proof.
  unfold ps_okb. intros H. apply andb_true_iff in H as (H & H3). apply andb_true_iff in H as (H1 & H2). rewrite forallb_forall in H2. split.
  - split; [lia|]. split.
    + intros i c Hi. specialize (H2 _ Hi). cbn beta iota in H2. apply andb_true_iff in H2 as (H2 & _). apply andb_true_iff in H2 as (H2 & A). apply andb_true_iff in H2 as (H2 & B).
      split; [lia|]. split; [now apply normalb_ok|lia].
    + clear -H3. induction (map fst (ps_db p)) as [|x l IH]; [constructor|]. apply andb_true_iff in H3 as (A & B). constructor; [|auto].
      intros Hx. assert (existsb (Nat.eqb x) l = true) by (apply existsb_exists; exists x; split; [auto|apply Nat.eqb_refl]). rewrite H in A. discriminate.
  - intros i d v Hg (l & w & Hl & <-). unfold ps_get in Hg. destruct (find _ (ps_db p)) as [[j c]|] eqn:Ef; [|discriminate]. apply find_some in Ef as (Ef & _). cbn [snd option_map] in Hg. injection Hg as <-.
    specialize (H2 _ Ef). cbn beta iota in H2. apply andb_true_iff in H2 as (_ & H2). rewrite forallb_forall in H2. specialize (H2 _ Hl). cbn beta iota in H2. lia.
Qed.
