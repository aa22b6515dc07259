(** * Constraints in normal form, cutting planes and the soundness of the proof rules *)

From Coq Require Import List Bool NArith ZArith Lia.
From Coq Require Import ZifyBool ZifyNat ZifyN.
From Verif Require Import Spec Base CertSpec.
Import ListNotations.
Local Open Scope Z_scope.

(** ** Slack: by how much a constraint is exceeded *)

Definition slack (c : raw) (a : asg) : Z := zwsum a (fst c) - snd c.

Lemma holds_slack a c : raw_holds a c <-> 0 <= slack c a.
Proof. unfold raw_holds, slack, raw_val. lia. Qed.

Lemma lit_true_neg' a l : lit_true a (neg l) = negb (lit_true a l).
Proof. unfold lit_true, neg. cbn [lvar lneg]. now destruct (lneg l), (a (lvar l)). Qed.

Lemma zwsum_app a xs ys : zwsum a (xs ++ ys) = zwsum a xs + zwsum a ys.
Proof. induction xs as [|[l w] xs IH]; cbn [zwsum app]; lia. Qed.

(** sorted by variable, positive coefficients *)
Inductive wf : list (lit * Z) -> Prop :=
| wf_nil : wf []
| wf_cons l w ts : 0 < w -> (forall l' w', In (l', w') ts -> (lvar l < lvar l')%N) -> wf ts -> wf ((l, w) :: ts).

Lemma wf_pos ts l w : wf ts -> In (l, w) ts -> 0 < w.
Proof. induction 1 as [|l0 w0 ts Hw _ _ IH]; [intros []|]. intros [[= <- <-]|H]; auto. Qed.

Lemma wf_normal c : wf (fst c) <-> normal c.
Proof.
  destruct c as [ts d]. unfold normal. cbn [fst]. split.
  - intros H. split; [intros l w; now apply wf_pos|]. induction H as [|l w ts Hw Hlt _ IH]; intros i j l1 w1 l2 w2.
    + now destruct i.
    + destruct j as [|j]; [lia|]. destruct i as [|i]; cbn [nth_error].
      * intros [= -> ->] Hj _. apply nth_error_In in Hj. eauto.
      * intros Hi Hj Hij. eapply IH; eauto. lia.
  - induction ts as [|[l w] ts IH]; intros [H1 H2]; constructor.
    + apply (H1 l w). now left.
    + intros l' w' Hin. apply In_nth_error in Hin. destruct Hin as [j Hj]. apply (H2 0%nat (S j) l w l' w'); cbn; auto. lia.
    + apply IH. split; [intros; eapply H1; right; eauto|]. intros i j l1 w1 l2 w2 Hi Hj Hij.
      apply (H2 (S i) (S j) l1 w1 l2 w2); cbn; auto. lia.
Qed.

Lemma zwsum_nonneg a ts : wf ts -> 0 <= zwsum a ts.
Proof. induction 1; cbn [zwsum]; [lia|]. destruct (lit_true a l); lia. Qed.


Lemma insert_mentions l w ts l' w' : In (l', w') (fst (insert_term l w ts)) -> lvar l' = lvar l \/ exists w'', In (l', w'') ts.
Proof.
  induction ts as [|[l0 w0] ts IH]; cbn [insert_term].
  - intros [[= <- <-]|[]]. now left.
  - destruct (N.ltb_spec (lvar l) (lvar l0)); [|destruct (N.eqb_spec (lvar l) (lvar l0)) as [E|E]].
    + cbn [fst]. intros [[= <- <-]|H']; [now left|]. right. exists w'. exact H'.
    + destruct (Bool.eqb _ _); [|destruct (w <? w0); [|destruct (w0 <? w)]]; cbn [fst].
      * intros [[= <- <-]|H']; [now left|]. right. exists w'. now right.
      * intros [[= <- <-]|H']; [left; congruence|]. right. exists w'. now right.
      * intros [[= <- <-]|H']; [now left|]. right. exists w'. now right.
      * intros H'. right. exists w'. now right.
    + destruct (insert_term l w ts) as [r k] eqn:Er. cbn [fst] in *. intros [[= <- <-]|H'].
      * right. exists w0. now left.
      * destruct (IH H') as [?|[w'' ?]]; [now left|]. right. exists w''. now right.
Qed.

Lemma insert_wf l w ts : 0 < w -> wf ts -> wf (fst (insert_term l w ts)).
Proof.
  intros Hw. induction 1 as [|l0 w0 ts Hw0 Hlt Hwf IH]; cbn [insert_term].
  - cbn [fst]. constructor; [auto|intros ? ? []|constructor].
  - destruct (N.ltb_spec (lvar l) (lvar l0)); [|destruct (N.eqb_spec (lvar l) (lvar l0)) as [E|E]].
    + cbn [fst]. constructor; [auto| |constructor; auto]. intros l' w' [[= <- <-]|H']; [auto|]. apply Hlt in H'. lia.
    + destruct (Bool.eqb _ _); [|destruct (Z.ltb_spec w w0); [|destruct (Z.ltb_spec w0 w)]]; cbn [fst].
      * constructor; [lia| |auto]. intros l' w' H'. apply Hlt in H'. lia.
      * constructor; [lia|auto|auto].
      * constructor; [lia| |auto]. intros l' w' H'. apply Hlt in H'. lia.
      * auto.
    + destruct (insert_term l w ts) as [r k] eqn:Er. cbn [fst] in *. constructor; [auto| |auto].
      intros l' w' H'. pose proof (insert_mentions l w ts l' w') as X. rewrite Er in X. cbn [fst] in X.
      destruct (X H') as [E'|[w'' H2]]; [lia|eauto].
Qed.

Lemma insert_val a l w ts : wf ts ->
  zwsum a (fst (insert_term l w ts)) + snd (insert_term l w ts) = zwsum a ts + (if lit_true a l then w else 0).
Proof.
  induction 1 as [|l0 w0 ts Hw0 Hlt Hwf IH]; cbn [insert_term].
  - cbn [fst snd zwsum]. lia.
  - destruct (N.ltb_spec (lvar l) (lvar l0)); [|destruct (N.eqb_spec (lvar l) (lvar l0)) as [E|E]].
    + cbn [fst snd zwsum]. lia.
    + destruct (Bool.eqb_spec (lneg l) (lneg l0)) as [En|En].
      * assert (l = l0) as -> by (destruct l, l0; cbn in *; congruence). cbn [fst snd zwsum]. destruct (lit_true a l0); lia.
      * assert (l = neg l0) as -> by (destruct l as [v b], l0 as [v0 b0]; unfold neg; cbn in *; subst; f_equal; destruct b, b0; (reflexivity || congruence)).
        rewrite lit_true_neg'. destruct (Z.ltb_spec w w0); [|destruct (Z.ltb_spec w0 w)]; cbn [fst snd zwsum];
          rewrite ?lit_true_neg'; destruct (lit_true a l0); cbn [negb]; lia.
    + destruct (insert_term l w ts) as [r k] eqn:Er. cbn [fst snd zwsum] in *. lia.
Qed.

Lemma add_term_wf c t : wf (fst c) -> wf (fst (add_term c t)).
Proof.
  destruct c as [ts d], t as [l w]. cbn [add_term fst snd]. intros H.
  destruct (Z.eqb_spec w 0); [auto|]. destruct (Z.ltb_spec 0 w).
  - pose proof (insert_wf l w ts ltac:(lia) H). now destruct (insert_term l w ts).
  - pose proof (insert_wf (neg l) (- w) ts ltac:(lia) H). now destruct (insert_term (neg l) (- w) ts).
Qed.

Lemma add_term_slack a c l w : wf (fst c) -> slack (add_term c (l, w)) a = slack c a + (if lit_true a l then w else 0).
Proof.
  destruct c as [ts d]. unfold slack. cbn [add_term fst snd]. intros H.
  destruct (Z.eqb_spec w 0) as [->|]; [destruct (lit_true a l); cbn [fst snd]; lia|]. destruct (Z.ltb_spec 0 w).
  - pose proof (insert_val a l w ts H). destruct (insert_term l w ts). cbn [fst snd] in *. lia.
  - pose proof (insert_val a (neg l) (- w) ts H) as E. rewrite lit_true_neg' in E. destruct (insert_term (neg l) (- w) ts). cbn [fst snd] in *.
    destruct (lit_true a l); cbn [negb] in E; lia.
Qed.

Lemma add_terms_wf us c : wf (fst c) -> wf (fst (fold_left add_term us c)).
Proof. revert c; induction us as [|u us IH]; intros c H; cbn [fold_left]; [auto|]. apply IH, add_term_wf, H. Qed.

Lemma add_terms_slack a us c : wf (fst c) -> slack (fold_left add_term us c) a = slack c a + zwsum a us.
Proof.
  revert c; induction us as [|[l w] us IH]; intros c H; cbn [fold_left zwsum]; [lia|].
  rewrite IH by now apply add_term_wf. rewrite add_term_slack by auto. lia.
Qed.

Lemma add_terms_mentions us c x y : In (x, y) (fst (fold_left add_term us c)) ->
  (exists l w, In (l, w) us /\ lvar l = lvar x) \/ (exists y', In (x, y') (fst c)).
Proof.
  revert c y; induction us as [|[l w] us IH]; intros [ts d] y; cbn [fold_left]; [right; eauto|]. intros Hin.
  destruct (IH _ _ Hin) as [(l' & w' & H1 & H2)|[y' Hy]]; [left; exists l', w'; split; [now right|auto]|].
  cbn [add_term fst snd] in *. destruct (w =? 0); [right; eauto|].
  destruct (0 <? w).
  - pose proof (insert_mentions l w ts x y') as Z. destruct (insert_term l w ts). cbn [fst] in *.
    destruct (Z Hy) as [E|?]; [|auto]. left. exists l, w. split; [now left|congruence].
  - pose proof (insert_mentions (neg l) (- w) ts x y') as Z. destruct (insert_term (neg l) (- w) ts). cbn [fst] in *.
    destruct (Z Hy) as [E|?]; [|auto]. left. exists l, w. split; [now left|cbn [neg lvar] in E; congruence].
Qed.

Lemma norm_mentions r v : mentions (norm r) v -> mentions r v.
Proof.
  intros (l & w & Hin & E). apply add_terms_mentions in Hin. destruct Hin as [(l' & w' & H1 & H2)|[? []]].
  exists l', w'. split; [auto|congruence].
Qed.

Lemma norm_wf r : wf (fst (norm r)).
Proof. apply add_terms_wf. constructor. Qed.
Lemma norm_slack r a : slack (norm r) a = slack r a.
Proof. unfold norm. rewrite add_terms_slack by constructor. unfold slack. cbn [fst snd zwsum]. lia. Qed.

Lemma cp_add_wf c d : wf (fst c) -> wf (fst (cp_add c d)).
Proof. intros. now apply add_terms_wf. Qed.
Lemma cp_add_slack c d a : wf (fst c) -> slack (cp_add c d) a = slack c a + slack d a.
Proof. intros H. unfold cp_add. rewrite add_terms_slack by auto. unfold slack. cbn [fst snd]. lia. Qed.

Lemma cp_mul_val k ts a : zwsum a (map (fun '(l, w) => (l, k * w)) ts) = k * zwsum a ts.
Proof. induction ts as [|[l w] ts IH]; cbn [zwsum map]; [lia|]. destruct (lit_true a l); lia. Qed.
Lemma map_wf (f : Z -> Z) ts : (forall w, 0 < w -> 0 < f w) -> wf ts -> wf (map (fun '(l, w) => (l, f w)) ts).
Proof.
  intros Hf. induction 1 as [|l w ts Hw Hlt Hwf IH]; cbn [map]; constructor; auto.
  intros l' w' Hin. apply in_map_iff in Hin. destruct Hin as ([x y] & [= <- <-] & Hin). eauto.
Qed.
Lemma cp_mul_wf k c : 0 < k -> wf (fst c) -> wf (fst (cp_mul k c)).
Proof. intros Hk. apply (map_wf (fun w => k * w)). intros. nia. Qed.
Lemma cp_mul_slack k c a : slack (cp_mul k c) a = k * slack c a.
Proof. unfold slack, cp_mul. cbn [fst snd]. rewrite cp_mul_val. lia. Qed.

Lemma zceil_le x d : 0 < d -> x <= d * zceil x d.
Proof.
  intros H. unfold zceil. pose proof (Z.div_mod (x + d - 1) d ltac:(lia)). pose proof (Z.mod_pos_bound (x + d - 1) d H). lia.
Qed.
Lemma zceil_lub x d y : 0 < d -> x <= d * y -> zceil x d <= y.
Proof. intros H Hx. unfold zceil. assert ((x + d - 1) / d < y + 1); [|lia]. apply Z.div_lt_upper_bound; lia. Qed.
Lemma cp_div_wf k c : 0 < k -> wf (fst c) -> wf (fst (cp_div k c)).
Proof. intros Hk. apply (map_wf (fun w => zceil w k)). intros w Hw. pose proof (zceil_le w k Hk). nia. Qed.
Lemma cp_div_val k ts a : 0 < k -> zwsum a ts <= k * zwsum a (map (fun '(l, w) => (l, zceil w k)) ts).
Proof.
  intros Hk. induction ts as [|[l w] ts IH]; cbn [zwsum map]; [lia|]. pose proof (zceil_le w k Hk). destruct (lit_true a l); nia.
Qed.
Lemma cp_div_sound k c a : 0 < k -> raw_holds a c -> raw_holds a (cp_div k c).
Proof.
  unfold raw_holds, raw_val, cp_div. cbn [fst snd]. intros Hk H. apply zceil_lub; [auto|].
  pose proof (cp_div_val k (fst c) a Hk). lia.
Qed.

Lemma cp_sat_wf c : 0 < snd c -> wf (fst c) -> wf (fst (cp_sat c)).
Proof. intros Hk. apply (map_wf (fun w => Z.min w (snd c))). intros w Hw. lia. Qed.
Lemma cp_sat_val d ts a : 0 < d -> wf ts -> zwsum a ts < d \/ d <= zwsum a ts ->
  Z.min d (zwsum a ts) <= zwsum a (map (fun '(l, w) => (l, Z.min w d)) ts).
Proof.
  intros Hd Hw _. induction Hw as [|l w ts Hw Hlt Hwf IH]; cbn [zwsum map]; [lia|].
  pose proof (zwsum_nonneg a ts Hwf). destruct (lit_true a l); lia.
Qed.
Lemma cp_sat_sound c a : 0 < snd c -> wf (fst c) -> raw_holds a c -> raw_holds a (cp_sat c).
Proof.
  unfold raw_holds, raw_val, cp_sat. cbn [fst snd]. intros Hd Hw H.
  pose proof (cp_sat_val (snd c) (fst c) a Hd Hw ltac:(lia)). lia.
Qed.

(** ** Extensionality: a constraint in normal form is determined by its slack *)

Definition flip (a : asg) (v : N) (b : bool) : asg := fun x => if N.eqb x v then b else a x.

Fixpoint lin (ts : list (lit * Z)) (v : N) : Z :=
  match ts with
  | [] => 0
  | (l, w) :: ts' => (if N.eqb (lvar l) v then (if lneg l then - w else w) else 0) + lin ts' v
  end.

Lemma lin_val a ts v : zwsum (flip a v true) ts - zwsum (flip a v false) ts = lin ts v.
Proof.
  induction ts as [|[l w] ts IH]; cbn [zwsum lin]; [lia|]. unfold lit_true, flip in *.
  destruct (N.eqb_spec (lvar l) v).
  - destruct (lneg l); cbn [xorb]; lia.
  - destruct (xorb (lneg l) (a (lvar l))); lia.
Qed.

Lemma lin_above ts v : (forall l w, In (l, w) ts -> (v < lvar l)%N) -> lin ts v = 0.
Proof.
  induction ts as [|[l w] ts IH]; intros H; cbn [lin]; [reflexivity|]. rewrite IH by (intros; eapply H; right; eauto).
  specialize (H l w (or_introl eq_refl)). destruct (N.eqb_spec (lvar l) v); lia.
Qed.

Lemma wf_ext ts ts' : wf ts -> wf ts' -> (forall v, lin ts v = lin ts' v) -> ts = ts'.
Proof.
  intros H; revert ts'. induction H as [|l w ts Hw Hlt Hwf IH]; intros ts' H' E.
  - destruct H' as [|l' w' ts' Hw' Hlt' Hwf']; [reflexivity|]. specialize (E (lvar l')). cbn [lin] in E.
    rewrite N.eqb_refl, lin_above in E by auto. destruct (lneg l'); lia.
  - destruct H' as [|l' w' ts' Hw' Hlt' Hwf'].
    + specialize (E (lvar l)). cbn [lin] in E. rewrite N.eqb_refl, lin_above in E by auto. destruct (lneg l); lia.
    + assert (lvar l = lvar l') as Ev.
      { destruct (N.lt_trichotomy (lvar l) (lvar l')) as [Hl|[Hl|Hl]]; [|auto|].
        - specialize (E (lvar l)). cbn [lin] in E. rewrite N.eqb_refl, lin_above in E by auto.
          rewrite lin_above in E by (intros x y Hx; apply Hlt' in Hx; lia).
          replace (lvar l' =? lvar l)%N with false in E by lia. destruct (lneg l); lia.
        - specialize (E (lvar l')). cbn [lin] in E. rewrite N.eqb_refl, (lin_above ts') in E by auto.
          rewrite lin_above in E by (intros x y Hx; apply Hlt in Hx; lia).
          replace (lvar l =? lvar l')%N with false in E by lia. destruct (lneg l'); lia. }
      assert ((l, w) = (l', w')) as Eq.
      { specialize (E (lvar l)). cbn [lin] in E. rewrite N.eqb_refl, Ev, N.eqb_refl in E. rewrite <- Ev in E.
        rewrite lin_above in E by auto. rewrite Ev in E. rewrite lin_above in E by auto.
        destruct l as [v b], l' as [v' b']. cbn [lvar lneg] in *. subst v'. destruct b, b'; try lia; repeat f_equal; lia. }
      injection Eq as -> ->. f_equal. apply IH; [auto|]. intros v. specialize (E v). cbn [lin] in E. lia.
Qed.

Lemma slack_ext c d : wf (fst c) -> wf (fst d) -> (forall a, slack c a = slack d a) -> c = d.
Proof.
  destruct c as [ts k], d as [ts' k']. cbn [fst]. intros Hc Hd E.
  assert (ts = ts') as ->.
  { apply wf_ext; auto. intros v. rewrite <- (lin_val (fun _ => false) ts v), <- (lin_val (fun _ => false) ts' v).
    pose proof (E (flip (fun _ => false) v true)). pose proof (E (flip (fun _ => false) v false)). unfold slack in *. cbn [fst snd] in *. lia. }
  specialize (E (fun _ => false)). unfold slack in E. cbn [fst snd] in E. f_equal. lia.
Qed.

(** the degree is non-negative if some assignment does not exceed the constraint *)
Lemma deg_nonneg c a : wf (fst c) -> slack c a <= 0 -> 0 <= snd c.
Proof. intros H Hs. pose proof (zwsum_nonneg a (fst c) H). unfold slack in Hs. lia. Qed.

(** ** Saturating to a clause *)

Definition no_compl (ls : list lit) : Prop := forall l l', In l ls -> In l' ls -> l' <> neg l.

Lemma insert_no_compl l w ts : 0 < w -> (forall x y, In (x, y) ts -> x <> neg l) -> wf ts ->
  snd (insert_term l w ts) = 0 /\
  (forall x, (exists y, In (x, y) (fst (insert_term l w ts))) <-> x = l \/ exists y, In (x, y) ts).
Proof.
  intros Hw Hn. induction 1 as [|l0 w0 ts Hw0 Hlt Hwf IH]; cbn [insert_term].
  - cbn [fst snd]. split; [reflexivity|]. intros x. split.
    + intros [y [[= <- <-]|[]]]. now left.
    + intros [->|[y []]]. exists w. now left.
  - destruct (N.ltb_spec (lvar l) (lvar l0)); [|destruct (N.eqb_spec (lvar l) (lvar l0)) as [E|E]].
    + cbn [fst snd]. split; [reflexivity|]. intros x. split.
      * intros [y [[= <- <-]|H']]; [now left|]. right. exists y. exact H'.
      * intros [->|[y H']]; [exists w; now left|]. exists y. now right.
    + destruct (Bool.eqb_spec (lneg l) (lneg l0)) as [En|En].
      * assert (l = l0) as -> by (destruct l, l0; cbn in *; congruence). cbn [fst snd]. split; [reflexivity|]. intros x. split.
        -- intros [y [[= <- <-]|H']]; [now left|]. right. exists y. now right.
        -- intros [->|[y [[= <- <-]|H']]]; [eexists; now left|eexists; now left|]. exists y. now right.
      * exfalso. apply (Hn l0 w0); [now left|]. destruct l as [v b], l0 as [v0 b0]; unfold neg; cbn in *; subst; f_equal; destruct b, b0; (reflexivity || congruence).
    + destruct IH as [IH1 IH2]; [intros; eapply Hn; right; eauto|]. destruct (insert_term l w ts) as [r k] eqn:Er. cbn [fst snd] in *.
      split; [auto|]. intros x. split.
      * intros [y [[= <- <-]|H']]; [right; exists w0; now left|]. destruct (proj1 (IH2 x)) as [?|[z ?]]; [eauto|auto|]. right. exists z. now right.
      * intros [->|[y [[= <- <-]|H']]].
        -- destruct (proj2 (IH2 l)) as [y Hy]; [now left|]. exists y. now right.
        -- exists w0. now left.
        -- destruct (proj2 (IH2 x)) as [z Hz]; [eauto|]. exists z. now right.
Qed.

Lemma norm_no_compl us c : (forall l w, In (l, w) us -> 0 < w) -> wf (fst c) ->
  no_compl (map fst (fst c) ++ map fst us) ->
  snd (fold_left add_term us c) = snd c /\
  (forall x, (exists y, In (x, y) (fst (fold_left add_term us c))) <-> (exists y, In (x, y) (fst c)) \/ (exists y, In (x, y) us)).
Proof.
  revert c; induction us as [|[l w] us IH]; intros [ts d] Hpos Hwf Hn; cbn [fold_left].
  - split; [reflexivity|]. intros x. split; [auto|]. intros [?|[y []]]; auto.
  - assert (Hw : 0 < w) by (apply (Hpos l w); now left). cbn [fst snd] in *.
    destruct (insert_no_compl l w ts Hw) as [I1 I2]; [|auto|].
    { intros x y Hin. apply (Hn l x).
      - apply in_or_app. right. now left.
      - apply in_or_app. left. apply in_map_iff. now exists (x, y). }
    assert (Ea : add_term (ts, d) (l, w) = (fst (insert_term l w ts), d)).
    { cbn [add_term fst snd]. replace (w =? 0) with false by lia. replace (0 <? w) with true by lia.
      destruct (insert_term l w ts). cbn [fst snd] in *. f_equal. lia. }
    rewrite Ea. destruct (IH (fst (insert_term l w ts), d)) as [J1 J2].
    + intros; eapply Hpos; right; eauto.
    + cbn [fst]. now apply insert_wf.
    + cbn [fst]. intros x x' Hx Hx'. apply Hn.
      * apply in_app_or in Hx. apply in_or_app. destruct Hx as [Hx|Hx]; [|right; now right].
        apply in_map_iff in Hx. destruct Hx as ([z y] & <- & Hz). cbn [fst] in *.
        destruct (proj1 (I2 z)) as [->|[y' Hy]]; [eauto|right; now left|left]. apply in_map_iff. now exists (z, y').
      * apply in_app_or in Hx'. apply in_or_app. destruct Hx' as [Hx'|Hx']; [|right; now right].
        apply in_map_iff in Hx'. destruct Hx' as ([z y] & <- & Hz). cbn [fst] in *.
        destruct (proj1 (I2 z)) as [->|[y' Hy]]; [eauto|right; now left|left]. apply in_map_iff. now exists (z, y').
    + cbn [fst snd] in *. split; [auto|]. intros x. rewrite J2, I2. split.
      * intros [[->|[y Hy]]|[y Hy]]; [right; exists w; now left|left; eauto|right; exists y; now right].
      * intros [[y Hy]|[y [[= -> ->]|Hy]]]; [left; right; eauto|left; now left|right; eauto].
Qed.

(** sorted lists of terms with coefficient one and the same literals are equal *)
Lemma ones_ext ts ts' : wf ts -> wf ts' -> (forall l w, In (l, w) ts -> w = 1) -> (forall l w, In (l, w) ts' -> w = 1) ->
  (forall l, (exists w, In (l, w) ts) <-> (exists w, In (l, w) ts')) -> ts = ts'.
Proof.
  intros H; revert ts'. induction H as [|l w ts Hw Hlt Hwf IH]; intros ts' H' O O' E.
  - destruct ts' as [|[l' w'] ts']; [reflexivity|]. destruct (proj2 (E l')) as [? []]. exists w'. now left.
  - destruct H' as [|l' w' ts' Hw' Hlt' Hwf']; [destruct (proj1 (E l)) as [? []]; exists w; now left|].
    assert (w = 1) as -> by (apply (O l); now left). assert (w' = 1) as -> by (apply (O' l'); now left).
    assert (l = l') as ->.
    { destruct (proj1 (E l)) as [y Hy]; [exists 1; now left|]. destruct Hy as [[= <- _]|Hy]; [reflexivity|].
      destruct (proj2 (E l')) as [z Hz]; [exists 1; now left|]. destruct Hz as [[= <- _]|Hz]; [reflexivity|].
      apply Hlt' in Hy. apply Hlt in Hz. lia. }
    f_equal. apply IH; auto.
    + intros; eapply O; right; eauto.
    + intros; eapply O'; right; eauto.
    + intros x. split; intros [y Hy].
      * destruct (proj1 (E x)) as [z [[= <- <-]|Hz]]; [exists y; now right| |eauto]. apply Hlt in Hy. lia.
      * destruct (proj2 (E x)) as [z [[= <- <-]|Hz]]; [exists y; now right| |eauto]. apply Hlt' in Hy. lia.
Qed.

Lemma sat_clause_form us cl : (forall l w, In (l, w) us -> 0 < w) -> no_compl (map fst us) ->
  (forall l, In l cl <-> In l (map fst us)) -> cp_sat (norm (us, 1)) = clause_con cl.
Proof.
  intros Hpos Hn Hset. unfold clause_con, norm, clause_raw. cbn [fst snd].
  destruct (norm_no_compl us ([], 1) Hpos) as [A1 A2]; [constructor|exact Hn|].
  destruct (norm_no_compl (map (fun l => (l, 1)) cl) ([], 1)) as [B1 B2].
  - intros l w Hin. apply in_map_iff in Hin. destruct Hin as (x & [= <- <-] & _). lia.
  - constructor.
  - cbn [fst app map]. intros l l' Hl Hl'. apply Hn.
    + apply Hset. rewrite map_map in Hl. cbn [fst] in Hl. now rewrite map_id in Hl.
    + apply Hset. rewrite map_map in Hl'. cbn [fst] in Hl'. now rewrite map_id in Hl'.
  - cbn [fst snd] in *. unfold cp_sat. rewrite A1, B1. cbn [Z.ltb Z.compare]. f_equal.
    apply ones_ext.
    + apply map_wf; [lia|]. apply add_terms_wf. constructor.
    + apply map_wf; [lia|]. apply add_terms_wf. constructor.
    + intros l w Hin. apply in_map_iff in Hin. destruct Hin as ([x y] & [= <- <-] & Hin).
      apply wf_pos in Hin; [lia|]. apply add_terms_wf. constructor.
    + intros l w Hin. apply in_map_iff in Hin. destruct Hin as ([x y] & [= <- <-] & Hin).
      apply wf_pos in Hin; [lia|]. apply add_terms_wf. constructor.
    + intros l.
      assert (X : forall ts, (exists w, In (l, w) (map (fun '(l, w) => (l, Z.min w 1)) ts)) <-> (exists w, In (l, w) ts)).
      { intros ts. split.
        - intros [w Hin]. apply in_map_iff in Hin. destruct Hin as ([x y] & [= <- <-] & Hin). eauto.
        - intros [w Hin]. exists (Z.min w 1). apply in_map_iff. now exists (l, w). }
      rewrite !X, A2, B2. split; intros [[? []]|[y Hy]]; right.
      * exists 1. apply in_map_iff. exists l. split; [reflexivity|]. apply Hset. apply in_map_iff. now exists (l, y).
      * apply in_map_iff in Hy. destruct Hy as (x & [= <- <-] & Hx). apply Hset in Hx. apply in_map_iff in Hx.
        destruct Hx as ([z y] & <- & Hz). eauto.
Qed.
