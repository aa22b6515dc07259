(** * Proofs about the thorough check of a split (Gbmo.v) *)

From Coq Require Import List Bool NArith ZArith Arith Lia Permutation Sorted.
From Coq Require Import ZifyBool ZifyNat ZifyN.
From Verif Require Import Spec Types Base NodeDb Opt OptSpec SplitSpec Gbmo.
Import ListNotations.
Open Scope list_scope.
Local Open Scope nat_scope.

(** ** Sums of weights *)

Lemma sub_zero ws : sub_sum ws 0.
Proof. induction ws; constructor; assumption. Qed.
Lemma sub_app ws vs s t : sub_sum ws s -> sub_sum vs t -> sub_sum (ws ++ vs) (s + t).
Proof. intros H1 H2. induction H1; cbn [app]; [exact H2|now apply SubSkip|]. rewrite <- Nat.add_assoc. now apply SubTake. Qed.
Lemma sub_app_inv ws vs s : sub_sum (ws ++ vs) s -> exists x y, sub_sum ws x /\ sub_sum vs y /\ s = x + y.
Proof.
  revert s. induction ws as [|w ws IH]; intros s H; cbn [app] in H; [exists 0, s; repeat split; [constructor|exact H]|].
  inversion H; subst.
  - destruct (IH _ H3) as (x & y & ? & ? & ->). exists x, y. repeat split; [now constructor|assumption].
  - destruct (IH _ H3) as (x & y & ? & ? & ->). exists (w + x), y. repeat split; [now constructor|assumption|lia].
Qed.
Lemma sub_single w ws : sub_sum (w :: ws) w.
Proof. pose proof (SubTake w ws 0 (sub_zero ws)) as H. now rewrite Nat.add_0_r in H. Qed.
Lemma sub_snoc ws w s : sub_sum (ws ++ [w]) s <-> sub_sum ws s \/ exists c, sub_sum ws c /\ s = c + w.
Proof.
  split.
  - intros H. apply sub_app_inv in H as (x & y & Hx & Hy & ->). inversion Hy as [|? ? ? H|? ? ? H]; subst; inversion H; subst; [left; now rewrite Nat.add_0_r|right; exists x; split; [exact Hx|lia]].
  - intros [H|(c & H & ->)]; [rewrite <- (Nat.add_0_r s)|]; apply sub_app; try assumption; [apply sub_zero|]. apply sub_single.
Qed.
Lemma sub_le ws s : sub_sum ws s -> s <= list_sum ws.
Proof. induction 1 as [|w ws s H IH|w ws s H IH]; cbn [list_sum fold_right]; [lia| |]; fold (list_sum ws); lia. Qed.
Lemma sub_pos ws s : sub_sum ws s -> 0 < s -> exists w, In w ws /\ w <= s.
Proof.
  induction 1 as [|w ws s H IH|w ws s H IH]; intros Hs; [lia| |].
  - destruct (IH Hs) as (v & ? & ?). exists v. split; [now right|assumption].
  - exists w. split; [now left|lia].
Qed.
Lemma sub_elem ws w : In w ws -> sub_sum ws w.
Proof. induction ws as [|x ws IH]; [intros []|]. intros [<-|H]; [apply sub_single|apply SubSkip; now apply IH]. Qed.
Lemma sub_perm ws vs : Permutation ws vs -> forall s, sub_sum ws s -> sub_sum vs s.
Proof.
  induction 1 as [|x ws vs _ IH|x y ws|ws vs us _ IH1 _ IH2]; intros s H; [exact H| | |auto].
  - inversion H; subst; [apply SubSkip|apply SubTake]; now apply IH.
  - inversion H as [|? ? ? H1|? ? ? H1]; subst; inversion H1; subst.
    + now apply SubSkip, SubSkip.
    + now apply SubTake, SubSkip.
    + now apply SubSkip, SubTake.
    + replace (y + (x + s)) with (x + (y + s)) by lia. now repeat apply SubTake.
Qed.
Lemma separated_gcd ws d g : (forall w, In w ws -> Nat.divide g w) -> d < g -> separated ws d.
Proof.
  intros Hg Hd s s' H H' Hlt. assert (D : forall t, sub_sum ws t -> Nat.divide g t).
  { clear - Hg. induction 1 as [|w ws s H IH|w ws s H IH]; [apply Nat.divide_0_r|apply IH; intros; apply Hg; now right|]. apply Nat.divide_add_r; [apply Hg; now left|apply IH; intros; apply Hg; now right]. }
  pose proof (Nat.divide_sub_r g s' s (D _ H') (D _ H)) as [k E]. destruct k; nia.
Qed.
(** What is paid is a sum of weights *)
Lemma cost_sub a xs : sub_sum (weights xs) (cls_cost a xs).
Proof. induction xs as [|[c w] xs IH]; [constructor|]. cbn [weights map cls_cost snd]. destruct (sat_clause a c); [now apply SubSkip|now apply SubTake]. Qed.

(** ** Sets *)

Notation inc := (StronglySorted lt).
Lemma inc_nodup s : inc s -> NoDup s.
Proof. induction 1 as [|x s Hs IH Hx]; constructor; [|assumption]. intros Hin. rewrite Forall_forall in Hx. specialize (Hx x Hin). lia. Qed.
Lemma set_insert_spec x s : inc s -> let '(s', b) := set_insert x s in inc s' /\ (forall y, In y s' <-> y = x \/ In y s) /\ (b = false <-> In x s).
Proof.
  induction 1 as [|y s Hs IH Hy]; cbn [set_insert].
  - split; [repeat constructor|]. split; [intros y; cbn; intuition|]. split; [discriminate|intros []].
  - rewrite Forall_forall in Hy. destruct (Nat.ltb_spec x y) as [Hxy|Hxy].
    + split; [constructor; [constructor; [assumption|now apply Forall_forall]|]; constructor; [lia|]; apply Forall_forall; intros z Hz; specialize (Hy z Hz); lia|].
      split; [intros z; cbn; intuition|]. split; [discriminate|]. intros [->|H]; [lia|]. specialize (Hy x H). lia.
    + destruct (Nat.eqb_spec x y) as [->|Hne].
      * split; [constructor; [assumption|now apply Forall_forall]|]. split; [intros z; cbn; intuition|]. split; [intros _; now left|reflexivity].
      * destruct (set_insert x s) as [r b]. destruct IH as (I1 & I2 & I3). split.
        -- constructor; [exact I1|]. apply Forall_forall. intros z Hz. apply I2 in Hz as [->|Hz]; [lia|now apply Hy].
        -- split; [intros z; cbn; rewrite I2; intuition|]. rewrite I3. split; [intros H; now right|]. intros [->|H]; [easy|exact H].
Qed.
Lemma inc_filter q s : inc s -> inc (filter q s).
Proof.
  induction 1 as [|x s Hs IH Hx]; cbn [filter]; [constructor|]. destruct (q x); [|exact IH]. constructor; [exact IH|]. apply Forall_forall. intros y Hy. apply filter_In in Hy as [Hy _].
  rewrite Forall_forall in Hx. now apply Hx.
Qed.
Lemma inc_hd s x : inc s -> hd_error s = Some x -> In x s /\ forall y, In y s -> x <= y.
Proof. intros H. destruct H as [|y s Hs Hy]; [discriminate|]. intros E. injection E as ->. split; [now left|]. rewrite Forall_forall in Hy. intros z [<-|Hz]; [lia|]. specialize (Hy z Hz). lia. Qed.
Lemma inc_last s x : inc s -> hd_error (rev s) = Some x -> In x s /\ forall y, In y s -> y <= x.
Proof.
  intros H E. destruct (rev s) as [|z r] eqn:R; [discriminate|]. injection E as ->. apply (f_equal (@rev nat)) in R. rewrite rev_involutive in R. cbn [rev] in R. subst s.
  split; [apply in_or_app; right; now left|]. intros y Hy. apply in_app_or in Hy as [Hy|[<-|[]]]; [|lia].
  induction (rev r) as [|w l IH]; [destruct Hy|]. cbn [app] in H. inversion H; subst. destruct Hy as [<-|Hy]; [|now apply IH]. rewrite Forall_forall in H3. specialize (H3 x). lapply H3; [lia|]. apply in_or_app. right. now left.
Qed.
Lemma set_lower_spec x s : inc s -> match set_lower x s with
  | Some lo => In lo s /\ lo < x /\ forall y, In y s -> y < x -> y <= lo
  | None => forall y, In y s -> x <= y
  end.
Proof.
  intros H. unfold set_lower. destruct (hd_error _) as [lo|] eqn:E.
  - apply inc_last in E as [E1 E2]; [|now apply inc_filter]. apply filter_In in E1 as [E1 E3]. split; [exact E1|]. split; [now apply Nat.ltb_lt|]. intros y Hy Hlt. apply E2, filter_In. split; [exact Hy|now apply Nat.ltb_lt].
  - intros y Hy. destruct (Nat.le_gt_cases x y) as [|Hlt]; [assumption|]. exfalso. assert (Hin : In y (rev (filter (fun y => y <? x) s))) by (apply in_rev; rewrite rev_involutive; apply filter_In; split; [exact Hy|now apply Nat.ltb_lt]).
    destruct (rev _); [exact Hin|discriminate].
Qed.
Lemma set_first_spec lo hi s : inc s -> match set_first lo hi s with
  | Some h => In h s /\ lo <= h < hi /\ forall y, In y s -> lo <= y -> y < hi -> h <= y
  | None => forall y, In y s -> lo <= y -> hi <= y
  end.
Proof.
  intros H. unfold set_first. destruct (hd_error _) as [h|] eqn:E.
  - apply inc_hd in E as [E1 E2]; [|now apply inc_filter]. apply filter_In in E1 as [E1 E3]. split; [exact E1|]. split; [lia|]. intros y Hy H1 H2. apply E2, filter_In. split; [exact Hy|lia].
  - intros y Hy Hlo. destruct (Nat.le_gt_cases hi y) as [|Hlt]; [assumption|]. exfalso. assert (Hin : In y (filter (fun y => (lo <=? y) && (y <? hi)) s)) by (apply filter_In; split; [exact Hy|lia]).
    destruct (filter _ s); [exact Hin|discriminate].
Qed.

(** ** The check *)

Section Check.
Variables (max_combs d : nat).
(** Different elements differ by more than [d] *)
Definition gaps (s : list nat) : Prop := forall x y, In x s -> In y s -> x < y -> d < y - x.
(** Two sums of the weights are too close *)
Definition too_close (ws : list nat) : Prop := ~ separated ws d.
(** There are too many sums *)
Definition too_many (ws : list nat) (n : nat) : Prop := max_combs < n /\ exists s, NoDup s /\ List.length s = n /\ forall x, In x s -> 0 < x /\ sub_sum ws x.

(** One of two numbers close to each other *)
Lemma gaps_insert x s s' : inc s' -> gaps s -> (forall y, In y s' <-> y = x \/ In y s) ->
  (forall y, In y s' -> y < x -> d < x - y) -> (forall y, In y s' -> x < y -> d < y - x) -> gaps s'.
Proof.
  intros _ Hg Hin Hlo Hhi y z Hy Hz Hlt. pose proof (proj1 (Hin y) Hy) as [->|Ey]; [now apply Hhi|]. pose proof (proj1 (Hin z) Hz) as [->|Ez]; [now apply Hlo|]. now apply Hg.
Qed.
Lemma close_pair ws x y : sub_sum ws x -> sub_sum ws y -> x < y -> y - x <= d -> too_close ws.
Proof. intros Hx Hy Hlt Hle Hsep. specialize (Hsep x y Hx Hy Hlt). lia. Qed.

Variables (all : list nat).
Hypothesis Hall : forall w, In w all -> d < w.
Notation total := (list_sum all).

Definition good (s : list nat) : Prop := inc s /\ gaps s /\ forall x, In x s -> 0 < x /\ sub_sum all x.
Lemma many_of s' : inc s' -> (forall x, In x s' -> 0 < x /\ sub_sum all x) -> max_combs < List.length s' -> too_many all (List.length s').
Proof. intros H1 H2 H3. split; [exact H3|]. exists s'. split; [now apply inc_nodup|]. now split. Qed.

(** what a step of the check may give: it goes on with a larger set or ends rightly *)
Definition right_end (r : cres) : Prop := match r with CYes => False | CNo => too_close all | CStopped n => too_many all n end.

Lemma check_comb_spec w s c : good s -> In c s -> 0 < w -> sub_sum all (c + w) ->
  exists r, check_comb max_combs d total w s c = Some r /\
    match r with CGo s' => good s' /\ forall x, In x s' <-> x = c + w \/ In x s | CEnd e => right_end e end.
Proof.
  intros (Hi & Hg & Hs) Hc Hw Hsub. unfold check_comb. pose proof (set_insert_spec (c + w) s Hi) as H. destruct (set_insert (c + w) s) as [s' b]. destruct H as (I1 & I2 & I3).
  destruct b; cbn [negb].
  2:{ eexists. split; [reflexivity|]. cbn. split; [now repeat split; try apply Hs|]. intros x. split; [now right|]. intros [->|H]; [now apply I3|exact H]. }
  assert (Hs' : forall x, In x s' -> 0 < x /\ sub_sum all x) by (intros x Hx; apply I2 in Hx as [->|Hx]; [split; [lia|exact Hsub]|now apply Hs]).
  pose proof (set_lower_spec (c + w) s' I1) as L. destruct (set_lower (c + w) s') as [lo|].
  2:{ exfalso. specialize (L c). lapply L; [lia|]. apply I2. now right. }
  destruct L as (L1 & L2 & L3). destruct (Nat.leb_spec (c + w - lo) d) as [Hd|Hd].
  { eexists. split; [reflexivity|]. apply (close_pair all lo (c + w)); [now apply Hs'|exact Hsub|exact L2|exact Hd]. }
  pose proof (set_first_spec (c + w + 1) (total + 1) s' I1) as F. destruct (set_first (c + w + 1) (total + 1) s') as [hi|].
  - destruct F as (F1 & F2 & F3). destruct (Nat.leb_spec (hi - (c + w)) d) as [Hh|Hh].
    { eexists. split; [reflexivity|]. apply (close_pair all (c + w) hi); [exact Hsub|now apply Hs'|lia|exact Hh]. }
    assert (Hgood : good s').
    { split; [exact I1|]. split; [|exact Hs']. apply (gaps_insert (c + w) s); [exact I1|exact Hg|exact I2| |].
      - intros y Hy Hlt. specialize (L3 y Hy Hlt). lia.
      - intros y Hy Hlt. pose proof (sub_le _ _ (proj2 (Hs' y Hy))). specialize (F3 y Hy). lia. }
    destruct (Nat.ltb_spec max_combs (List.length s')) as [Hm|Hm]; eexists; (split; [reflexivity|]); [now apply many_of|]. now split.
  - assert (Hgood : good s').
    { split; [exact I1|]. split; [|exact Hs']. apply (gaps_insert (c + w) s); [exact I1|exact Hg|exact I2| |].
      - intros y Hy Hlt. specialize (L3 y Hy Hlt). lia.
      - intros y Hy Hlt. pose proof (sub_le _ _ (proj2 (Hs' y Hy))). specialize (F y Hy). lia. }
    destruct (Nat.ltb_spec max_combs (List.length s')) as [Hm|Hm]; eexists; (split; [reflexivity|]); [now apply many_of|]. now split.
Qed.
Lemma check_combs_spec w combs : forall s, good s -> (forall c, In c combs -> In c s /\ sub_sum all (c + w)) -> 0 < w ->
  exists r, check_combs max_combs d total w combs s = Some r /\
    match r with CGo s' => good s' /\ forall x, In x s' <-> (exists c, In c combs /\ x = c + w) \/ In x s | CEnd e => right_end e end.
Proof.
  induction combs as [|c combs IH]; intros s Hs Hc Hw; cbn [check_combs].
  - eexists. split; [reflexivity|]. cbn. split; [exact Hs|]. intros x. split; [now right|]. intros [(c & [] & _)|H]; exact H.
  - destruct (Hc c (or_introl eq_refl)) as [C1 C2]. destruct (check_comb_spec w s c Hs C1 Hw C2) as (r & -> & Hr). cbn [obind]. destruct r as [s'|e]; [|eexists; split; [reflexivity|exact Hr]].
    destruct Hr as [G1 G2]. destruct (IH s' G1) as (r & -> & Hr); [intros c' Hc'; destruct (Hc c' (or_intror Hc')); split; [apply G2; now right|assumption]|exact Hw|].
    eexists. split; [reflexivity|]. destruct r as [s''|e]; [|exact Hr]. destruct Hr as [H1 H2]. split; [exact H1|]. intros x. rewrite H2, G2. split.
    + intros [(c' & H & ->)|[->|H]]; [left; exists c'; split; [now right|reflexivity]|left; exists c; split; [now left|reflexivity]|now right].
    + intros [(c' & [<-|H] & ->)|H]; [right; now left|left; eauto|right; now right].
Qed.
Lemma check_weight_spec w s : good s -> In w all ->
  match check_weight max_combs d total w s with CGo s' => good s' /\ forall x, In x s' <-> x = w \/ In x s | CEnd e => right_end e end.
Proof.
  intros (Hi & Hg & Hs) Hw. unfold check_weight. pose proof (set_insert_spec w s Hi) as H. destruct (set_insert w s) as [s' b]. destruct H as (I1 & I2 & I3).
  assert (Hsub : sub_sum all w) by now apply sub_elem. assert (Hw0 : 0 < w) by (specialize (Hall w Hw); lia).
  destruct b; cbn [negb].
  2:{ split; [now repeat split; try apply Hs|]. intros x. split; [now right|]. intros [->|H]; [now apply I3|exact H]. }
  assert (Hs' : forall x, In x s' -> 0 < x /\ sub_sum all x) by (intros x Hx; apply I2 in Hx as [->|Hx]; [split; [exact Hw0|exact Hsub]|now apply Hs]).
  assert (Htop : total = w \/ d < total - w).
  { apply in_split in Hw as (l & r & E). rewrite E in Hall |- *. rewrite list_sum_app. cbn [list_sum fold_right]. fold (list_sum r). destruct l as [|v l]; [destruct r as [|v r]; [left; cbn; lia|]|].
    - right. cbn [list_sum fold_right]. fold (list_sum r). specialize (Hall v). lapply Hall; [lia|]. right. now left.
    - right. cbn [list_sum fold_right]. fold (list_sum l). specialize (Hall v). lapply Hall; [lia|]. now left. }
  pose proof (set_lower_spec w s' I1) as L. pose proof (set_first_spec (w + 1) total s' I1) as F.
  assert (Hlow : match set_lower w s' with Some lo => w - lo <=? d | None => false end = true -> too_close all).
  { destruct (set_lower w s') as [lo|]; [|discriminate]. intros E. destruct L as (L1 & L2 & _). apply Nat.leb_le in E. apply (close_pair all lo w); [now apply Hs'|exact Hsub|exact L2|exact E]. }
  assert (Hlow' : match set_lower w s' with Some lo => w - lo <=? d | None => false end = false -> forall y, In y s' -> y < w -> d < w - y).
  { intros E y Hy Hlt. destruct (set_lower w s') as [lo|]; [|specialize (L y Hy); lia]. destruct L as (_ & L2 & L3). specialize (L3 y Hy Hlt). apply Nat.leb_gt in E. lia. }
  assert (Hhi : match set_first (w + 1) total s' with Some hi => hi - w <=? d | None => false end = true -> too_close all).
  { destruct (set_first (w + 1) total s') as [hi|]; [|discriminate]. intros E. destruct F as (F1 & F2 & _). apply Nat.leb_le in E. apply (close_pair all w hi); [exact Hsub|now apply Hs'|lia|exact E]. }
  assert (Hhi' : match set_first (w + 1) total s' with Some hi => hi - w <=? d | None => false end = false -> forall y, In y s' -> w < y -> d < y - w).
  { intros E y Hy Hlt. pose proof (sub_le _ _ (proj2 (Hs' y Hy))) as Hle. destruct (Nat.eq_dec y total) as [->|Hne]; [destruct Htop; lia|].
    destruct (set_first (w + 1) total s') as [hi|]; [|specialize (F y Hy); lia]. destruct F as (_ & F2 & F3). specialize (F3 y Hy). apply Nat.leb_gt in E. lia. }
  destruct (match set_lower w s' with Some lo => w - lo <=? d | None => false end); [now apply Hlow|]. specialize (Hlow' eq_refl).
  destruct (match set_first (w + 1) total s' with Some hi => hi - w <=? d | None => false end); [now apply Hhi|]. specialize (Hhi' eq_refl).
  assert (Hgood : good s') by (split; [exact I1|]; split; [|exact Hs']; now apply (gaps_insert w s)).
  destruct (Nat.ltb_spec max_combs (List.length s')) as [Hm|Hm]; [now apply many_of|]. now split.
Qed.
Lemma check_weights_spec ws : forall pre s, all = pre ++ ws -> good s -> (forall x, 0 < x -> sub_sum pre x -> In x s) -> (forall x, In x s -> sub_sum pre x) ->
  exists r, check_weights max_combs d total ws s = Some r /\ match r with CYes => separated all d | _ => right_end r end.
Proof.
  induction ws as [|w ws IH]; intros pre s E Hs Hc Hi; cbn [check_weights].
  - eexists. split; [reflexivity|]. cbn. rewrite app_nil_r in E. subst pre. intros x y Hx Hy Hlt. destruct Hs as (_ & Hg & _). destruct (Nat.eq_dec x 0) as [->|Hx0].
    + destruct (sub_pos _ _ Hy Hlt) as (w & Hw & Hle). specialize (Hall w Hw). lia.
    + apply Hg; [apply Hc; [lia|exact Hx]|apply Hc; [lia|exact Hy]|exact Hlt].
  - assert (Hw : In w all) by (rewrite E; apply in_or_app; right; now left). assert (Hw0 : 0 < w) by (specialize (Hall w Hw); lia).
    assert (Hext : forall x, sub_sum (pre ++ [w]) x -> sub_sum all x). { intros x Hx. rewrite E. change (w :: ws) with ([w] ++ ws). rewrite app_assoc. rewrite <- (Nat.add_0_r x). apply sub_app; [exact Hx|apply sub_zero]. }
    destruct (check_combs_spec w s s Hs) as (r & -> & Hr); [intros c Hc'; split; [exact Hc'|]; apply Hext, sub_snoc; right; exists c; split; [now apply Hi|reflexivity]|exact Hw0|]. cbn [obind].
    destruct r as [s1|e]; [|eexists; split; [reflexivity|destruct e; [destruct Hr|exact Hr|exact Hr]]]. destruct Hr as [G1 G2].
    pose proof (check_weight_spec w s1 G1 Hw) as Hr. destruct (check_weight max_combs d total w s1) as [s2|e]; [|eexists; split; [reflexivity|destruct e; [destruct Hr|exact Hr|exact Hr]]]. destruct Hr as [K1 K2].
    apply (IH (pre ++ [w])); [now rewrite <- app_assoc|exact K1| |].
    + intros x Hx Hsub. apply sub_snoc in Hsub as [Hsub|(c & Hsub & ->)]; [apply K2; right; apply G2; right; now apply Hc|]. destruct (Nat.eq_dec c 0) as [->|Hc0]; [apply K2; left; lia|].
      apply K2. right. apply G2. left. exists c. split; [apply Hc; [lia|exact Hsub]|reflexivity].
    + intros x Hx. apply sub_snoc. apply K2 in Hx as [->|Hx]; [right; exists 0; split; [apply sub_zero|reflexivity]|]. apply G2 in Hx as [(c & Hx & ->)|Hx]; [right; exists c; split; [now apply Hi|reflexivity]|left; now apply Hi].
Qed.
End Check.

Lemma fold_plus ws : forall n, fold_left (fun s w => s + w) ws n = n + list_sum ws.
Proof. induction ws as [|w ws IH]; intros n; cbn [fold_left list_sum fold_right]; [lia|]. fold (list_sum ws). rewrite IH. lia. Qed.
Lemma close_weights_cons d w v ws : close_weights d (w :: v :: ws) =
  obind (assertb (w <=? v)) (fun _ => if (negb (v - w =? 0) && (v - w <? d))%bool then Some true else close_weights d (v :: ws)).
Proof. reflexivity. Qed.
Lemma close_weights_spec d ws : ws <> [] -> StronglySorted le ws -> exists b, close_weights d ws = Some b /\ (b = true -> exists x y, In x ws /\ In y ws /\ x < y /\ y - x < d).
Proof.
  induction ws as [|w ws IH]; [easy|]. intros _ Hs. destruct ws as [|v ws]; [eexists; split; [reflexivity|discriminate]|]. inversion Hs as [|? ? Hs' Hle]; subst. inversion Hle; subst.
  rewrite close_weights_cons. destruct (Nat.leb_spec w v); [|lia]. cbn [assertb obind].
  destruct (negb (v - w =? 0) && (v - w <? d))%bool eqn:E.
  - eexists. split; [reflexivity|]. intros _. exists w, v. split; [now left|]. split; [right; now left|]. lia.
  - destruct IH as (b & -> & Hb); [discriminate|exact Hs'|]. eexists. split; [reflexivity|]. intros Eb. destruct (Hb Eb) as (x & y & ? & ? & ?). exists x, y. split; [now right|]. split; [now right|assumption].
Qed.
(** The check says rightly if different sums of the weights differ by more than [d], unless there are too many sums *)
Theorem check_spec max_combs rp d : rp <> [] -> StronglySorted le (weights rp) -> (forall w, In w (weights rp) -> d < w) ->
  exists r, check_split_thorough_gbmo max_combs rp d = Some r /\
    match r with CYes => separated (weights rp) d | CNo => ~ separated (weights rp) d | CStopped n => too_many max_combs (weights rp) n end.
Proof.
  intros Hne Hs Hd. unfold check_split_thorough_gbmo. fold (weights rp). destruct (close_weights_spec d (weights rp)) as (b & -> & Hb); [destruct rp; [easy|discriminate]|exact Hs|]. cbn [obind]. destruct b.
  - eexists. split; [reflexivity|]. destruct (Hb eq_refl) as (x & y & Hx & Hy & Hlt & Hle). apply (close_pair d (weights rp) x y); [now apply sub_elem|now apply sub_elem|exact Hlt|lia].
  - rewrite fold_plus. cbn [Nat.add]. destruct (check_weights_spec max_combs d (weights rp) Hd (weights rp) [] []) as (r & -> & Hr); [reflexivity|split; [constructor|split; [intros ? ? []|intros ? []]]| |intros x []|].
    + intros x Hx H. inversion H; subst. lia.
    + eexists. split; [reflexivity|]. destruct r; [exact Hr|exact Hr|exact Hr].
Qed.
