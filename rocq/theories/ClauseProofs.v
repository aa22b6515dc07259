(** * Proofs about clauses *)

From Coq Require Import List Bool NArith ZArith Lia Permutation.
From Coq Require Import ZifyBool ZifyNat ZifyN.
From Verif Require Import Spec Types Constraints ConstrSpec Base TypesProofs.
Import ListNotations.

(** A clause that contains a literal and its complement. *)

(** Same models *)


(** ** Normalization *)

Lemma dedup_In l c : In l (dedup c) <-> In l c.
Proof.
  induction c as [|x c IH]; [reflexivity|].
  cbn [dedup]. destruct c as [|y c]; [reflexivity|].
  destruct (lit_eqb_spec x y) as [->|Hne].
  - rewrite IH. cbn. tauto.
  - cbn [In] in *. rewrite IH. tauto.
Qed.

Lemma dedup_cons x c : exists c', dedup (x :: c) = x :: c'.
Proof.
  revert x; induction c as [|y c IH]; intros x; [eexists; reflexivity|].
  cbn [dedup]. destruct (lit_eqb_spec x y) as [->|Hne]; [apply IH|]. eexists; reflexivity.
Qed.

Lemma dedup_sorted c :
  sorted_by (fun x y => lit_leb x y = true) c -> sorted_by slt (dedup c).
Proof.
  induction 1 as [|x c Hx Hs IH]; [constructor|].
  cbn [dedup]. destruct c as [|y c]; [constructor; [intros ? []|constructor]|].
  destruct (lit_eqb_spec x y) as [->|Hne]; [assumption|].
  constructor; [|assumption]. intros z Hz. rewrite dedup_In in Hz.
  unfold slt. specialize (Hx y (or_introl eq_refl)) as Hxy. unfold lit_leb in Hxy.
  assert (pack x <> pack y) by (intros E; apply pack_inj in E; congruence).
  inv Hs. destruct Hz as [<-|Hz]; [lia|]. match goal with H : forall y0, In y0 c -> _ |- _ => specialize (H z Hz); unfold lit_leb in H end. lia.
Qed.

Lemma sorted_ext c1 c2 :
  sorted_by slt c1 -> sorted_by slt c2 -> (forall l, In l c1 <-> In l c2) -> c1 = c2.
Proof.
  intros H1; revert c2; induction H1 as [|x c1 Hx Hs IH]; intros c2 H2 Heq.
  - destruct c2 as [|y c2]; [reflexivity|]. destruct (proj2 (Heq y)); now left.
  - inv H2; [destruct (proj1 (Heq x)); now left|].
    rename x0 into y, l into c2.
    assert (x = y).
    { destruct (proj1 (Heq x) (or_introl eq_refl)) as [|Hin]; [congruence|].
      destruct (proj2 (Heq y) (or_introl eq_refl)) as [|Hin']; [congruence|].
      specialize (Hx y Hin'). match goal with H : forall y0, In y0 c2 -> _ |- _ => specialize (H x Hin) end.
      unfold slt in *. lia. }
    subst y. f_equal. apply IH; auto. intros l. split; intros Hl.
    + destruct (proj1 (Heq l) (or_intror Hl)) as [<-|]; auto. specialize (Hx x Hl). unfold slt in Hx. lia.
    + destruct (proj2 (Heq l) (or_intror Hl)) as [<-|]; auto.
      match goal with H : forall y0, In y0 c2 -> _ |- _ => specialize (H x Hl) end. unfold slt in *; lia.
Qed.

Lemma neg_succ p : slt p (neg p) -> pack (neg p) = (pack p + 1)%N.
Proof. unfold slt, pack, neg; cbn [lvar lneg]. destruct (lneg p); cbn [negb]; lia. Qed.

Lemma taut_scan_some p c :
  sorted_by slt (p :: c) -> (taut_scan (Some (neg p)) c = true <-> complementary (p :: c)).
Proof.
  revert p; induction c as [|l c IH]; intros p Hs; cbn [taut_scan].
  - split; [discriminate|]. intros (x & [<-|[]] & [H|[]]). symmetry in H. now apply neg_neq in H.
  - destruct (lit_eqb_spec l (neg p)) as [->|Hne].
    + split; [|reflexivity]. intros _. exists p. cbn; auto.
    + inv Hs. rewrite IH by assumption. split.
      * intros (x & Hx & Hnx). exists x. split; now right.
      * assert (Hp : In (neg p) (l :: c) -> False).
        { intros Hin. pose proof (H1 _ Hin) as Hlt. apply neg_succ in Hlt.
          pose proof (H1 l (or_introl eq_refl)) as Hl. unfold slt in Hl.
          destruct Hin as [->|Hin]; [congruence|].
          inv H2. match goal with H : forall y, In y c -> slt l y |- _ => specialize (H _ Hin) end.
          unfold slt in *. lia. }
        intros (x & [<-|Hx] & Hnx).
        -- destruct Hnx as [E|Hnx]; [symmetry in E; now apply neg_neq in E|]. contradiction.
        -- destruct Hnx as [E|Hnx].
           ++ exfalso. apply Hp. rewrite E, neg_neg. assumption.
           ++ exists x; auto.
Qed.

Lemma taut_scan_none c :
  sorted_by slt c -> (taut_scan None c = true <-> complementary c).
Proof.
  intros Hs. destruct c as [|l c]; cbn [taut_scan].
  - split; [discriminate|]. intros (x & [] & _).
  - now apply taut_scan_some.
Qed.

Lemma short_not_complementary c : (length c <= 1)%nat -> ~ complementary c.
Proof.
  destruct c as [|x [|y c]]; cbn; intros H; try lia; intros (l & Hl & Hn).
  - contradiction.
  - destruct Hl as [<-|[]], Hn as [E|[]]. symmetry in E. now apply neg_neq in E.
Qed.

Definition norm_list (c : clause) := dedup (sort_by lit_leb c).

Lemma norm_list_sorted c : sorted_by slt (norm_list c).
Proof. apply dedup_sorted, sort_by_sorted; [apply lit_leb_total|apply lit_leb_trans]. Qed.

Lemma norm_list_In l c : In l (norm_list c) <-> In l c.
Proof.
  unfold norm_list. rewrite dedup_In.
  split; apply Permutation_in; [|symmetry]; apply sort_by_perm.
Qed.

Lemma norm_list_short c : (length c <= 1)%nat -> norm_list c = c.
Proof. destruct c as [|x [|y c]]; cbn; intros; try lia; reflexivity. Qed.

Lemma complementary_norm c : complementary (norm_list c) <-> complementary c.
Proof. unfold complementary. setoid_rewrite norm_list_In. reflexivity. Qed.

Lemma clause_normalize_eq c :
  clause_normalize c = if taut_scan None (norm_list c) then None else Some (norm_list c).
Proof.
  unfold clause_normalize. destruct (length c <=? 1)%nat eqn:E; [|reflexivity].
  rewrite norm_list_short by lia.
  destruct (taut_scan None c) eqn:Et; [|reflexivity].
  pose proof (norm_list_sorted c) as Hs. rewrite norm_list_short in Hs by lia.
  apply (taut_scan_none c Hs) in Et. apply short_not_complementary in Et; [contradiction|lia].
Qed.

Lemma clause_normalize_none c : clause_normalize c = None <-> complementary c.
Proof.
  rewrite clause_normalize_eq. rewrite <- complementary_norm, <- taut_scan_none by apply norm_list_sorted.
  destruct (taut_scan None (norm_list c)); split; congruence.
Qed.

Lemma clause_normalize_some c c' :
  clause_normalize c = Some c' -> c' = norm_list c /\ ~ complementary c.
Proof.
  intros H. split.
  - rewrite clause_normalize_eq in H. destruct (taut_scan None (norm_list c)); [discriminate|]. now inv H.
  - intros Hc. apply clause_normalize_none in Hc. congruence.
Qed.

Lemma sat_clause_ext a c1 c2 : (forall l, In l c1 <-> In l c2) -> sat_clause a c1 = sat_clause a c2.
Proof.
  intros H. destruct (sat_clause a c2) eqn:E.
  - apply sat_clause_true in E as (l & Hl & Ht). apply sat_clause_true. exists l. split; [now apply H|assumption].
  - apply sat_clause_false. intros l Hl. apply (proj1 (sat_clause_false a c2) E). now apply H.
Qed.

Lemma complementary_taut c : complementary c -> forall a, sat_clause a c = true.
Proof.
  intros (l & H1 & H2) a. apply sat_clause_true. destruct (lit_true a l) eqn:E; eauto.
  exists (neg l). rewrite lit_true_neg, E. auto.
Qed.

(** An assignment making [l] true and falsifying every literal of [c] on another variable. *)
Definition falsify (l : lit) (c : clause) : asg :=
  fun v => if (v =? lvar l)%N then negb (lneg l) else mem_lit (negl v) c.

Lemma falsify_lit l c : lit_true (falsify l c) l = true.
Proof. unfold falsify, lit_true. rewrite N.eqb_refl. now destruct (lneg l). Qed.

Lemma falsify_clause l c : ~ complementary c -> ~ In l c -> sat_clause (falsify l c) c = false.
Proof.
  intros Hc Hl. apply sat_clause_false. intros x Hx. unfold lit_true, falsify.
  destruct (N.eqb_spec (lvar x) (lvar l)) as [E|E].
  - destruct (same_var x l E) as [->| ->]; [contradiction|]. unfold neg; cbn. now destruct (lneg l).
  - destruct x as [v s]; cbn [lvar lneg] in *. destruct s; cbn [xorb].
    + assert (mem_lit (negl v) c = true) as -> by (apply mem_lit_In; exact Hx). reflexivity.
    + destruct (mem_lit (negl v) c) eqn:Em; [|reflexivity].
      apply mem_lit_In in Em. exfalso. apply Hc. exists (mkLit v false). split; assumption.
Qed.

Lemma taut_iff_complementary c : (forall a, sat_clause a c = true) <-> complementary c.
Proof.
  split; [|apply complementary_taut]. intros H.
  assert (Hdec : complementary c \/ ~ complementary c).
  { rewrite <- clause_normalize_none. destruct (clause_normalize c); [right; congruence|auto]. }
  destruct Hdec as [|Hn]; [assumption|]. exfalso.
  (* falsify with a literal on a variable not in the clause *)
  set (v := (1 + fold_right N.max 0 (map lvar c))%N).
  assert (Hv : forall l, In l c -> (lvar l < v)%N).
  { unfold v. clear. induction c as [|x c IH]; [intros ? []|]. cbn [map fold_right].
    intros l [<-|Hl]; [lia|]. specialize (IH l Hl). lia. }
  specialize (H (falsify (pos v) c)). rewrite falsify_clause in H; [discriminate|assumption|].
  intros Hin. apply Hv in Hin. cbn in Hin. lia.
Qed.

Lemma equiv_same_lits c1 c2 :
  ~ complementary c1 -> ~ complementary c2 ->
  (equiv_clause c1 c2 <-> forall l, In l c1 <-> In l c2).
Proof.
  intros H1 H2. split.
  - assert (Hg : forall c1 c2, ~ complementary c2 -> equiv_clause c1 c2 -> forall l, In l c1 -> In l c2).
    { clear. intros c1 c2 Hc He l Hl. destruct (mem_lit l c2) eqn:E; [now apply mem_lit_In|].
      apply mem_lit_nIn in E. specialize (He (falsify l c2)). rewrite falsify_clause in He by assumption.
      rewrite (proj2 (sat_clause_true _ c1)) in He; [discriminate|]. exists l. split; [assumption|apply falsify_lit]. }
    intros He l. split; eapply Hg; eauto. intros a; symmetry; apply He.
  - intros H a. now apply sat_clause_ext.
Qed.

Lemma clause_normalize_canonical c1 c2 n1 n2 :
  clause_normalize c1 = Some n1 -> clause_normalize c2 = Some n2 ->
  (n1 = n2 <-> equiv_clause c1 c2).
Proof.
  intros H1 H2. apply clause_normalize_some in H1 as [-> Hc1]. apply clause_normalize_some in H2 as [-> Hc2].
  rewrite equiv_same_lits by assumption. split.
  - intros E l. rewrite <- (norm_list_In l c1), E. apply norm_list_In.
  - intros H. apply sorted_ext; try apply norm_list_sorted. intros l. rewrite !norm_list_In. apply H.
Qed.

Lemma clause_normalize_sound c c' :
  clause_normalize c = Some c' ->
  equiv_clause c' c /\ NoDup c' /\ (forall l, In l c' <-> In l c) /\ sorted_by slt c'.
Proof.
  intros H. apply clause_normalize_some in H as [-> Hc].
  repeat split.
  - intros a. apply sat_clause_ext. intros l. apply norm_list_In.
  - pose proof (norm_list_sorted c) as Hs. induction Hs as [|x l Hx Hs IH]; constructor; auto.
    intros Hin. apply Hx in Hin. unfold slt in Hin. lia.
  - apply norm_list_In.
  - apply norm_list_In.
  - apply norm_list_sorted.
Qed.

(** ** Sanitization *)

(** first occurrences only, skipping those in [seen] *)

Lemma sanitize_loop_spec c lset :
  (forall l, In l lset -> ~ In (neg l) lset) ->
  (sanitize_loop lset c = None <-> exists l, In l c /\ (In (neg l) c \/ In (neg l) lset)) /\
  (forall r, sanitize_loop lset c = Some r -> r = first_occs lset c).
Proof.
  revert lset; induction c as [|l c IH]; intros lset Hset; cbn [sanitize_loop first_occs].
  - split; [split; [discriminate|intros (x & [] & _)]|]. now intros r H; inv H.
  - destruct (mem_lit (neg l) lset) eqn:En.
    { apply mem_lit_In in En. split; [|discriminate]. split; [|reflexivity].
      intros _. exists l. cbn; auto. }
    apply mem_lit_nIn in En.
    destruct (mem_lit l lset) eqn:El.
    + apply mem_lit_In in El. destruct (IH lset Hset) as [IH1 IH2]. split; [|assumption].
      rewrite IH1. split; intros (x & Hx & Hnx).
      * exists x. cbn. tauto.
      * destruct Hx as [<-|Hx].
        -- destruct Hnx as [[E|Hnx]|Hnx]; [symmetry in E; now apply neg_neq in E| |contradiction].
           exists (neg l). split; [assumption|]. right. now rewrite neg_neg.
        -- destruct Hnx as [[E|Hnx]|Hnx]; eauto.
           exists x. split; [assumption|]. right. now rewrite <- E.
    + apply mem_lit_nIn in El.
      assert (Hset' : forall x, In x (l :: lset) -> ~ In (neg x) (l :: lset)).
      { intros x [<-|Hx] [E|Hin].
        - symmetry in E. now apply neg_neq in E.
        - contradiction.
        - apply En. rewrite E, neg_neg. assumption.
        - now apply (Hset x). }
      destruct (IH (l :: lset) Hset') as [IH1 IH2].
      split.
      * destruct (sanitize_loop (l :: lset) c) as [r|] eqn:E.
        -- split; [discriminate|]. intros (x & Hx & Hnx). exfalso.
           assert (Some r = None); [|discriminate]. apply IH1.
           destruct Hx as [<-|Hx].
           ++ destruct Hnx as [[E'|Hnx]|Hnx]; [symmetry in E'; now apply neg_neq in E'| |contradiction].
              exists (neg l). split; [assumption|]. right. rewrite neg_neg. now left.
           ++ exists x. split; [assumption|]. cbn in *. tauto.
        -- split; [|reflexivity]. intros _. destruct (proj1 IH1 eq_refl) as (x & Hx & Hnx).
           destruct Hnx as [Hnx|[E'|Hnx]].
           ++ exists x. cbn. tauto.
           ++ exists x. cbn. auto.
           ++ exists x. cbn. auto.
      * intros r. destruct (sanitize_loop (l :: lset) c) as [r'|] eqn:E; [|discriminate].
        intros H; inv H. f_equal. now apply IH2.
Qed.

Lemma first_occs_In c seen l : In l (first_occs seen c) <-> In l c /\ ~ In l seen.
Proof.
  revert seen; induction c as [|x c IH]; intros seen; cbn [first_occs].
  - cbn; tauto.
  - destruct (mem_lit x seen) eqn:E.
    + apply mem_lit_In in E. rewrite IH. cbn. split; [tauto|]. intros [[<-|H] Hn]; tauto.
    + apply mem_lit_nIn in E. cbn [In]. rewrite IH. cbn [In]. split.
      * intros [<-|[H Hn]]; [tauto|]. tauto.
      * intros [[<-|H] Hn]; [tauto|]. destruct (lit_eq_dec x l) as [->|Hne]; tauto.
Qed.

Lemma first_occs_NoDup c seen : NoDup (first_occs seen c).
Proof.
  revert seen; induction c as [|x c IH]; intros seen; cbn [first_occs]; [constructor|].
  destruct (mem_lit x seen); [apply IH|]. constructor; [|apply IH].
  rewrite first_occs_In. cbn; tauto.
Qed.

Lemma sanitize_short c : (length c <= 1)%nat -> sanitize_loop [] c = Some c.
Proof. destruct c as [|x [|y c]]; cbn; intros; try lia; reflexivity. Qed.

Lemma clause_sanitize_eq c : clause_sanitize c = sanitize_loop [] c.
Proof.
  unfold clause_sanitize. destruct (length c <=? 1)%nat eqn:E; [|reflexivity].
  symmetry; apply sanitize_short; lia.
Qed.

Lemma clause_sanitize_none c : clause_sanitize c = None <-> complementary c.
Proof.
  rewrite clause_sanitize_eq. destruct (sanitize_loop_spec c [] ltac:(now intros l [])) as [-> _].
  unfold complementary; cbn. split; intros (l & H1 & H2); exists l; tauto.
Qed.

Lemma clause_sanitize_some c c' : clause_sanitize c = Some c' -> c' = first_occs [] c.
Proof.
  rewrite clause_sanitize_eq. apply (sanitize_loop_spec c [] ltac:(now intros l [])).
Qed.

(** ** Removal *)

Lemma find_idx_none l c : find_idx l c = None <-> ~ In l c.
Proof.
  induction c as [|x c IH]; cbn [find_idx].
  - split; [intros _ []|reflexivity].
  - destruct (lit_eqb_spec x l) as [->|Hne].
    + split; [discriminate|]. intros H; exfalso; apply H; now left.
    + destruct (find_idx l c) as [j|]; cbn [In]; split; intros H; try discriminate; try reflexivity.
      * exfalso. assert (Hn : ~ In l c) by tauto. apply IH in Hn. discriminate.
      * destruct IH as [IH _]. specialize (IH eq_refl). intros [|Hin]; congruence || contradiction.
Qed.

Lemma find_idx_some l c i : find_idx l c = Some i -> exists c1 c2, c = c1 ++ l :: c2 /\ length c1 = i /\ ~ In l c1.
Proof.
  revert i; induction c as [|x c IH]; cbn [find_idx]; intros i; [discriminate|].
  destruct (lit_eqb_spec x l) as [->|Hne].
  - intros H; inv H. exists [], c. cbn; auto.
  - destruct (find_idx l c) as [j|]; [|discriminate]. intros H; inv H.
    destruct (IH j eq_refl) as (c1 & c2 & -> & <- & Hn).
    exists (x :: c1), c2. cbn. repeat split. intros [|]; congruence || contradiction.
Qed.

Lemma vec_set_app {A} (s1 : list A) x y s2 : vec_set (length s1) y (s1 ++ x :: s2) = Some (s1 ++ y :: s2).
Proof. induction s1 as [|z s1 IH]; cbn; [reflexivity|]. now rewrite IH. Qed.

Lemma swap_remove_perm {A} (s1 : list A) x s2 :
  Permutation (x :: swap_remove (length s1) (s1 ++ x :: s2)) (s1 ++ x :: s2).
Proof.
  unfold swap_remove. destruct s2 as [|y s2 _] using rev_ind.
  - rewrite rev_app_distr. cbn. rewrite rev_involutive, Nat.eqb_refl. apply Permutation_cons_append.
  - rewrite app_comm_cons, app_assoc, rev_app_distr. cbn [rev app].
    rewrite rev_involutive. rewrite app_length. cbn [length].
    destruct (Nat.eqb_spec (length s1) (length s1 + S (length s2))) as [E|_]; [lia|].
    rewrite vec_set_app.
    rewrite <- app_assoc. cbn [app].
    etransitivity; [|apply Permutation_middle].
    constructor. apply Permutation_app_head. apply Permutation_cons_append.
Qed.

Lemma clause_remove_spec c l :
  (In l c -> snd (clause_remove c l) = true /\ Permutation (l :: fst (clause_remove c l)) c) /\
  (~ In l c -> clause_remove c l = (c, false)).
Proof.
  unfold clause_remove. destruct (find_idx l c) as [i|] eqn:E.
  - destruct (find_idx_some _ _ _ E) as (c1 & c2 & -> & <- & Hn). split.
    + intros _. cbn [fst snd]. split; [reflexivity|]. apply swap_remove_perm.
    + intros H. exfalso. apply H. apply in_elt.
  - apply find_idx_none in E. split; [contradiction|reflexivity].
Qed.

Lemma all_idxs_shift l c i : all_idxs (S i) l c = map S (all_idxs i l c).
Proof.
  revert i; induction c as [|x c IH]; intros i; cbn [all_idxs]; [reflexivity|].
  destruct (lit_eqb x l); cbn [map]; now rewrite IH.
Qed.

Lemma fold_remove_shift l (c : clause) idxs :
  fold_left (fun c i => vec_remove i c) (map S idxs) (l :: c) =
  l :: fold_left (fun c i => vec_remove i c) idxs c.
Proof. revert c; induction idxs as [|i idxs IH]; intros c; cbn; [reflexivity|]. apply IH. Qed.

Lemma clause_remove_thorough_spec c l :
  clause_remove_thorough c l = (filter (fun x => negb (lit_eqb x l)) c, mem_lit l c).
Proof.
  unfold clause_remove_thorough. f_equal.
  - induction c as [|x c IH]; [reflexivity|]. cbn [all_idxs filter].
    rewrite all_idxs_shift. destruct (lit_eqb x l) eqn:E; cbn [negb].
    + cbn [rev]. rewrite fold_left_app, <- map_rev, fold_remove_shift. cbn [fold_left vec_remove]. apply IH.
    + rewrite <- map_rev, fold_remove_shift. now rewrite IH.
  - generalize 0%nat as i.
    induction c as [|x c IH]; intros i; [reflexivity|]. cbn [all_idxs mem_lit existsb].
    destruct (lit_eqb_spec l x) as [->|Hne].
    + rewrite lit_eqb_refl. reflexivity.
    + destruct (lit_eqb_spec x l) as [->|_]; [congruence|]. apply IH.
Qed.

(** ** Evaluation *)

Definition eval_step (s : assignment) (val : tern) (l : lit) : tern :=
  match lit_value s l with
  | TTrue => TTrue
  | TDontCare => if tern_eqb val TFalse then TDontCare else val
  | TFalse => val
  end.

Lemma clause_evaluate_fold s c v :
  fold_left (eval_step s) c v =
  match v with
  | TTrue => TTrue
  | _ => if existsb (fun l => tern_eqb (lit_value s l) TTrue) c then TTrue
         else match v with
              | TDontCare => TDontCare
              | _ => if existsb (fun l => tern_eqb (lit_value s l) TDontCare) c then TDontCare else TFalse
              end
  end.
Proof.
  revert v; induction c as [|l c IH]; intros v; cbn [fold_left existsb].
  - destruct v; reflexivity.
  - rewrite IH. unfold eval_step. destruct (lit_value s l), v; cbn; try reflexivity;
      destruct (existsb (fun l => tern_eqb (lit_value s l) TTrue) c); reflexivity.
Qed.

Lemma clause_evaluate_cases s c :
  match clause_evaluate s c with
  | TTrue => exists l, In l c /\ lit_value s l = TTrue
  | TFalse => forall l, In l c -> lit_value s l = TFalse
  | TDontCare => (exists l, In l c /\ lit_value s l = TDontCare) /\ (forall l, In l c -> lit_value s l <> TTrue)
  end.
Proof.
  change (clause_evaluate s c) with (fold_left (eval_step s) c TFalse). rewrite clause_evaluate_fold.
  destruct (existsb (fun l => tern_eqb (lit_value s l) TTrue) c) eqn:E1.
  - apply existsb_exists in E1 as (l & Hl & E). exists l. split; [assumption|]. now destruct (lit_value s l).
  - assert (H1 : forall l, In l c -> lit_value s l <> TTrue).
    { intros l Hl E. assert (existsb (fun l => tern_eqb (lit_value s l) TTrue) c = true); [|congruence].
      apply existsb_exists. exists l. now rewrite E. }
    destruct (existsb (fun l => tern_eqb (lit_value s l) TDontCare) c) eqn:E2.
    + split; [|assumption]. apply existsb_exists in E2 as (l & Hl & E). exists l. split; [assumption|].
      now destruct (lit_value s l).
    + intros l Hl. specialize (H1 l Hl). destruct (lit_value s l) eqn:E; [congruence|reflexivity|].
      assert (existsb (fun l => tern_eqb (lit_value s l) TDontCare) c = true); [|congruence].
      apply existsb_exists. exists l. now rewrite E.
Qed.

(** Completion of a partial assignment that falsifies all undetermined literals of a clause. *)
Definition complete_false (s : assignment) (c : clause) : asg :=
  fun v => match var_value s v with
           | TTrue => true
           | TFalse => false
           | TDontCare => mem_lit (negl v) c
           end.
Definition complete_true (s : assignment) (c : clause) : asg :=
  fun v => match var_value s v with
           | TTrue => true
           | TFalse => false
           | TDontCare => mem_lit (pos v) c
           end.

Lemma complete_false_completes s c : completes (complete_false s c) (pasg_of s).
Proof. intros v b. unfold complete_false, pasg_of. destruct (var_value s v); now intros H; inv H. Qed.
Lemma complete_true_completes s c : completes (complete_true s c) (pasg_of s).
Proof. intros v b. unfold complete_true, pasg_of. destruct (var_value s v); now intros H; inv H. Qed.

Lemma eval_true_sound s c a :
  clause_evaluate s c = TTrue -> completes a (pasg_of s) -> sat_clause a c = true.
Proof.
  intros H Ha. pose proof (clause_evaluate_cases s c) as Hc. rewrite H in Hc.
  destruct Hc as (l & Hl & E). apply sat_clause_true. exists l. split; [assumption|].
  pose proof (lit_value_completes s a l Ha) as Hv. now rewrite E in Hv.
Qed.

Lemma eval_false_sound s c a :
  clause_evaluate s c = TFalse -> completes a (pasg_of s) -> sat_clause a c = false.
Proof.
  intros H Ha. pose proof (clause_evaluate_cases s c) as Hc. rewrite H in Hc.
  apply sat_clause_false. intros l Hl.
  pose proof (lit_value_completes s a l Ha) as Hv. now rewrite (Hc l Hl) in Hv.
Qed.

Lemma eval_dont_care_true s c :
  clause_evaluate s c = TDontCare -> exists a, completes a (pasg_of s) /\ sat_clause a c = true.
Proof.
  intros H. pose proof (clause_evaluate_cases s c) as Hc. rewrite H in Hc.
  destruct Hc as [(l & Hl & E) _].
  exists (complete_true s [l]). split; [apply complete_true_completes|].
  apply sat_clause_true. exists l. split; [assumption|].
  unfold lit_true, complete_true. unfold lit_value in E.
  assert (Ev : var_value s (lvar l) = TDontCare) by (destruct (lneg l), (var_value s (lvar l)); try discriminate; reflexivity).
  rewrite Ev. destruct l as [v []]; unfold mem_lit, lit_eqb; cbn [existsb lvar lneg pos]; rewrite N.eqb_refl; reflexivity.
Qed.

Lemma eval_dont_care_false s c :
  clause_evaluate s c = TDontCare -> ~ complementary c -> exists a, completes a (pasg_of s) /\ sat_clause a c = false.
Proof.
  intros H Hnc. pose proof (clause_evaluate_cases s c) as Hc. rewrite H in Hc.
  destruct Hc as [_ Hn].
  exists (complete_false s c). split; [apply complete_false_completes|].
  apply sat_clause_false. intros l Hl. specialize (Hn l Hl).
  unfold lit_true, complete_false. unfold lit_value in Hn.
  destruct (var_value s (lvar l)) eqn:Ev.
  - destruct (lneg l); [reflexivity|congruence].
  - destruct (lneg l); [congruence|reflexivity].
  - destruct l as [v sg]; cbn [lvar lneg] in *. destruct sg; cbn [xorb].
    + assert (mem_lit (negl v) c = true) as -> by (apply mem_lit_In; exact Hl). reflexivity.
    + destruct (mem_lit (negl v) c) eqn:Em; [|reflexivity].
      apply mem_lit_In in Em. exfalso. apply Hnc. exists (mkLit v false). split; assumption.
Qed.

Lemma is_tautology_spec c : clause_is_tautology c = true <-> complementary c.
Proof.
  induction c as [|l c IH]; cbn [clause_is_tautology].
  - split; [discriminate|]. intros (x & [] & _).
  - rewrite orb_true_iff, IH, existsb_exists. split.
    + intros [(x & Hx & E)|(x & Hx & Hn)].
      * apply lit_eqb_eq in E. exists x. split; [now right|]. left. assumption.
      * exists x. split; now right.
    + intros (x & [<-|Hx] & [E|Hn]).
      * symmetry in E. now apply neg_neq in E.
      * left. exists (neg l). split; [assumption|]. rewrite neg_neg. apply lit_eqb_refl.
      * left. exists x. split; [assumption|]. apply lit_eqb_eq. assumption.
      * right. exists x. auto.
Qed.
