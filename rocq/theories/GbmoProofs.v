(** * Proofs about splitting objectives (Gbmo.v) *)

From Coq Require Import List Bool NArith ZArith Arith Lia Permutation Sorted.
From Coq Require Import ZifyBool ZifyNat ZifyN.
From Verif Require Import Spec Types Base Constraints Maps NodeDb Inst InstSpec Opt OptSpec OptProofs Text Dimacs Opb Tools SplitSpec Gbmo.
Import ListNotations.
Open Scope list_scope.
Local Open Scope nat_scope.

(** ** Greatest common divisors *)

Lemma gcd_loop_spec : forall fuel a b, b < fuel -> gcd_loop fuel a b = Some (Nat.gcd a b).
Proof.
  induction fuel as [|f IH]; intros a b H; [lia|]. cbn [gcd_loop]. destruct (Nat.eqb_spec b 0) as [->|Hb]; [now rewrite Nat.gcd_0_r|].
  rewrite IH; [|pose proof (Nat.mod_upper_bound a b Hb); lia]. f_equal. rewrite (Nat.gcd_comm b (a mod b)), Nat.gcd_mod by exact Hb. apply Nat.gcd_comm.
Qed.
Lemma gcd_spec a b : gcd a b = Some (Nat.gcd a b).
Proof. apply gcd_loop_spec. lia. Qed.

Lemma fold_gcd ws : forall g, fold_left Nat.gcd ws g = Nat.gcd g (gcd_of ws).
Proof. induction ws as [|w ws IH]; intros g; cbn [fold_left gcd_of fold_right]; [now rewrite Nat.gcd_0_r|]. rewrite IH, <- Nat.gcd_assoc. reflexivity. Qed.
Lemma gcd_of_divide ws w : In w ws -> Nat.divide (gcd_of ws) w.
Proof. induction ws as [|x ws IH]; [intros []|]. intros [<-|H]; [apply Nat.gcd_divide_l|]. eapply Nat.divide_trans; [apply Nat.gcd_divide_r|]. now apply IH. Qed.
Lemma gcd_of_app xs ys : gcd_of (xs ++ ys) = Nat.gcd (gcd_of xs) (gcd_of ys).
Proof. induction xs as [|x xs IH]; [reflexivity|]. cbn [app gcd_of fold_right]. fold (gcd_of (xs ++ ys)) (gcd_of xs). now rewrite IH, Nat.gcd_assoc. Qed.
Lemma gcd_of_pos ws : ws <> [] -> Forall (fun w => 0 < w) ws -> 0 < gcd_of ws.
Proof.
  intros Hne Hp. destruct ws as [|w ws]; [easy|]. inv Hp. cbn [gcd_of fold_right]. fold (gcd_of ws). destruct (Nat.eq_0_gt_0_cases (Nat.gcd w (gcd_of ws))) as [E|]; [|assumption].
  apply Nat.gcd_eq_0 in E. lia.
Qed.
Lemma foldM_gcd (xs : list (clause * nat)) : forall g, foldM (fun g x => gcd g (snd x)) xs g = Some (fold_left Nat.gcd (weights xs) g).
Proof. induction xs as [|x xs IH]; intros g; [reflexivity|]. cbn [foldM weights map fold_left]. rewrite gcd_spec. cbn [obind]. apply IH. Qed.
Lemma softs_gcd_spec xs : xs <> [] -> softs_gcd xs = Some (gcd_of (weights xs)).
Proof.
  destruct xs as [|e xs]; [easy|]. intros _. unfold softs_gcd. rewrite foldM_gcd, fold_gcd. cbn [weights map gcd_of fold_right]. f_equal.
  rewrite Nat.gcd_assoc, Nat.gcd_diag. reflexivity.
Qed.

(** ** Objectives for parts *)

Definition scale (g : nat) (xs : list (clause * nat)) : list (clause * nat) := map (fun e => (fst e, snd e / g)) xs.
Lemma scale_mapM g xs : 0 < g -> mapM (fun e : clause * nat => if g =? 0 then None else Some (fst e, snd e / g)) xs = Some (scale g xs).
Proof. intros Hg. induction xs as [|e xs IH]; [reflexivity|]. cbn [mapM]. destruct (Nat.eqb_spec g 0); [lia|]. cbn [obind]. now rewrite IH. Qed.
Lemma scale_cost a g xs : 0 < g -> (forall w, In w (weights xs) -> Nat.divide g w) -> g * cls_cost a (scale g xs) = cls_cost a xs.
Proof.
  intros Hg. induction xs as [|[c w] xs IH]; intros H; cbn [scale map cls_cost fst snd]; [lia|]. rewrite Nat.mul_add_distr_l. fold (scale g xs). rewrite IH by (intros x Hx; apply H; now right).
  destruct (sat_clause a c); [lia|]. f_equal. destruct (H w (or_introl eq_refl)) as [k ->]. rewrite Nat.div_mul by lia. lia.
Qed.
Lemma from_cls_offset xs : obj_offset (obj_from_cls xs) = 0%Z.
Proof.
  unfold obj_from_cls. assert (H : forall xs o, obj_offset (fold_left (fun o e => increase_soft_clause (snd e) (fst e) o) xs o) = obj_offset o); [|now rewrite H].
  clear xs. intros xs. induction xs as [|[c w] xs IH]; intros o; [reflexivity|]. cbn [fold_left fst snd]. rewrite IH. clear IH.
  unfold increase_soft_clause, increase_soft_lit, unweighted_2_weighted.
  destruct (w =? 0) eqn:?; [reflexivity|]. destruct c as [|l [|l' c]]; destruct o as [z ls cs|z [u|] ls cs]; try destruct (w =? u); try rewrite Heqb; reflexivity.
Qed.
(** The objective of a part with some weights *)
Definition part_result (p : list (clause * nat)) (r : obj * ostats) : Prop :=
  r = (obj_from_cls (scale (gcd_of (weights p)) p), stats_of (obj_from_cls (scale (gcd_of (weights p)) p)) (gcd_of (weights p))).
Lemma part_obj_spec p : p <> [] -> Forall (fun w => 0 < w) (weights p) -> exists r, part_obj p = Some r /\ part_result p r.
Proof.
  intros Hne Hp. unfold part_obj. rewrite softs_gcd_spec by assumption. cbn [obind].
  assert (Hg : 0 < gcd_of (weights p)) by (apply gcd_of_pos; [destruct p; [easy|discriminate]|assumption]). rewrite scale_mapM by assumption. cbn [obind].
  eexists. split; reflexivity.
Qed.
Lemma part_result_scaled p r : p <> [] -> Forall (fun w => 0 < w) (weights p) -> part_result p r ->
  obj_wf (fst r) /\ (0 < s_multiplier (snd r) /\ forall a, (Z.of_nat (s_multiplier (snd r)) * (obj_value a (fst r) - obj_offset (fst r)) = Z.of_nat (cls_cost a p))%Z) /\ s_multiplier (snd r) = gcd_of (weights p) /\ obj_offset (fst r) = 0%Z.
Proof.
  intros Hne Hp Hr. unfold part_result in Hr. subst r. cbn [fst snd]. assert (Hg : 0 < gcd_of (weights p)) by (apply gcd_of_pos; [destruct p; [easy|discriminate]|assumption]).
  destruct (from_cls_spec (scale (gcd_of (weights p)) p)) as [W V]. split; [exact W|]. split; [|split; [reflexivity|apply from_cls_offset]]. split; [exact Hg|].
  intros a. cbn [stats_of s_multiplier fst snd]. rewrite V, from_cls_offset. rewrite Z.sub_0_r, <- Nat2Z.inj_mul. f_equal. apply scale_cost; [exact Hg|]. intros w. apply gcd_of_divide.
Qed.

(** ** Dividing the sorted soft clauses *)

Lemma slice_some {A} i j (xs : list A) : i <= j -> j <= List.length xs -> slice i j xs = Some (firstn (j - i) (skipn i xs)).
Proof. intros. unfold slice. destruct (Nat.leb_spec i j); [|lia]. destruct (Nat.leb_spec j (List.length xs)); [|lia]. reflexivity. Qed.
Lemma skipn_split {A} i j (xs : list A) : i <= j -> skipn i xs = firstn (j - i) (skipn i xs) ++ skipn j xs.
Proof.
  intros H. rewrite <- (firstn_skipn (j - i) (skipn i xs)) at 1. f_equal. revert j xs H. induction i as [|i IH]; intros j xs H; [now rewrite Nat.sub_0_r|].
  destruct j as [|j]; [lia|]. destruct xs as [|x xs]; cbn [skipn]; [now rewrite skipn_nil|]. apply IH. lia.
Qed.
Lemma hd_skipn {A} (xs : list A) : forall i, hd_error (skipn i xs) = nth_error xs i.
Proof. induction xs as [|x xs IH]; intros [|i]; try reflexivity. apply IH. Qed.
Lemma hd_firstn {A} (xs : list A) n : 0 < n -> hd_error (firstn n xs) = hd_error xs.
Proof. destruct n; [lia|]. now destruct xs. Qed.
Lemma firstn_skipn_in {A} (xs : list A) i j x : In x (firstn (j - i) (skipn i xs)) -> exists k, i <= k < j /\ nth_error xs k = Some x.
Proof.
  intros H. apply In_nth_error in H as [m Hm].
  assert (m < List.length (firstn (j - i) (skipn i xs))) by (apply nth_error_Some; congruence). rewrite firstn_length in H. exists (i + m). split; [lia|].
  assert (E : nth_error (skipn i xs) m = Some x). { rewrite <- (firstn_skipn (j - i) (skipn i xs)). rewrite nth_error_app1; [exact Hm|]. rewrite firstn_length. lia. }
  clear - E. revert xs E. induction i as [|i IH]; intros xs E; [exact E|]. destruct xs as [|y xs]; [now destruct m|]. exact (IH xs E).
Qed.
Lemma skipn_in_nth {A} (xs : list A) i x : In x (skipn i xs) -> exists k, i <= k /\ nth_error xs k = Some x.
Proof.
  intros H. apply In_nth_error in H as [m Hm]. exists (i + m). split; [lia|]. revert xs Hm. induction i as [|i IH]; intros xs E; [exact E|]. destruct xs as [|y xs]; [now destruct m|]. exact (IH xs E).
Qed.

(** A cut after position [e]: the weights up to it are smaller than the others *)
Definition cut (ws : list nat) (e : nat) : Prop := forall i j w v, i <= e -> e < j -> nth_error ws i = Some w -> nth_error ws j = Some v -> w < v.

Lemma split_loop_spec xs : Forall (fun w => 0 < w) (weights xs) -> forall ends start,
  start < List.length xs -> StronglySorted lt ends -> (forall e, In e ends -> start <= e /\ e + 1 < List.length xs /\ cut (weights xs) e) ->
  exists parts rs, split_loop xs start ends = Some rs /\ concat parts = skipn start xs /\ Forall (fun p => p <> []) parts /\
    Forall2 part_result parts rs /\ Forall2 (fun p i => hd_error p = nth_error xs i) parts (start :: map S ends) /\
    ForallOrdPairs (fun p q => forall e f, In e p -> In f q -> snd e < snd f) parts.
Proof.
  intros Hpos. assert (Hsub : forall ys, incl ys xs -> Forall (fun w => 0 < w) (weights ys)).
  { intros ys Hi. apply Forall_forall. intros w Hw. apply in_map_iff in Hw as (e & <- & He). rewrite Forall_forall in Hpos. apply Hpos. apply in_map. now apply Hi. }
  induction ends as [|e ends IH]; intros start Hs Hsort He; cbn [split_loop].
  - rewrite slice_some by lia. cbn [obind]. assert (E : firstn (List.length xs - start) (skipn start xs) = skipn start xs) by (apply firstn_all2; rewrite skipn_length; lia). rewrite E.
    assert (Hne : skipn start xs <> []) by (intros F; apply (f_equal (@List.length _)) in F; rewrite skipn_length in F; cbn in F; lia).
    destruct (part_obj_spec (skipn start xs) Hne) as (r & -> & Hr); [apply Hsub; intros x Hx; rewrite <- (firstn_skipn start xs); apply in_or_app; now right|]. cbn [obind].
    exists [skipn start xs], [r]. split; [reflexivity|]. split; [cbn; apply app_nil_r|]. split; [now constructor|]. split; [now repeat constructor|]. split; [repeat constructor; apply hd_skipn|]. now repeat constructor.
  - destruct (He e (or_introl eq_refl)) as (H1 & H2 & H3). rewrite slice_some by lia. cbn [obind].
    inversion Hsort as [|? ? Hs' Hlt]; subst. rewrite Forall_forall in Hlt.
    destruct (IH (e + 1)) as (parts & rs & E1 & E2 & E3 & E4 & E5 & E6); [lia|assumption|intros e' Hin; specialize (Hlt _ Hin); destruct (He e' (or_intror Hin)) as (? & ? & ?); repeat split; auto; lia|].
    set (p := firstn (e + 1 - start) (skipn start xs)).
    assert (Hd : hd_error p = nth_error xs start) by (unfold p; rewrite hd_firstn by lia; apply hd_skipn).
    assert (Hne : p <> []). { intros F. rewrite F in Hd. cbn in Hd. symmetry in Hd. apply nth_error_None in Hd. lia. }
    destruct (part_obj_spec p Hne) as (r & -> & Hr). { apply Hsub. intros x Hx. unfold p in Hx. apply firstn_skipn_in in Hx as (k & _ & Hk). eapply nth_error_In, Hk. }
    cbn [obind]. rewrite E1. cbn [obind]. exists (p :: parts), (r :: rs). split; [reflexivity|]. split; [cbn [concat]; rewrite E2; unfold p; symmetry; apply skipn_split; lia|].
    split; [now constructor|]. split; [now constructor|]. split; [cbn [map]; constructor; [exact Hd|]; replace (S e) with (e + 1) by lia; exact E5|].
    constructor; [|exact E6]. apply Forall_forall. intros q Hq x y Hx Hy.
    unfold p in Hx. apply firstn_skipn_in in Hx as (i & Hi & Ei). assert (Hy' : In y (skipn (e + 1) xs)) by (rewrite <- E2; apply in_concat; eauto).
    apply skipn_in_nth in Hy' as (j & Hj & Ej). apply (H3 i j); [lia|lia|unfold weights; now rewrite nth_error_map, Ei|unfold weights; now rewrite nth_error_map, Ej].
Qed.

(** ** Sorted weights *)

Lemma sorted_nth ws : StronglySorted le ws -> forall i j w v, i <= j -> nth_error ws i = Some w -> nth_error ws j = Some v -> w <= v.
Proof.
  induction 1 as [|x ws Hs IH Hx]; intros i j w v Hij Hi Hj; [now destruct i|]. rewrite Forall_forall in Hx. destruct i as [|i]; cbn in Hi.
  - injection Hi as ->. destruct j as [|j]; cbn in Hj; [injection Hj as ->; lia|]. apply Hx. eapply nth_error_In, Hj.
  - destruct j as [|j]; [lia|]. apply (IH i j); [lia|exact Hi|exact Hj].
Qed.
Definition prefix_sum (ws : list nat) (n : nat) : nat := list_sum (firstn n ws).
Lemma prefix_in ws n i w : nth_error ws i = Some w -> i < n -> w <= prefix_sum ws n.
Proof.
  unfold prefix_sum. revert n i. induction ws as [|x ws IH]; intros n i Hi Hn; [now destruct i|]. destruct n as [|n]; [lia|]. cbn [firstn list_sum fold_right]. fold (list_sum (firstn n ws)).
  destruct i as [|i]; cbn in Hi; [injection Hi as ->; lia|]. specialize (IH n i Hi). lia.
Qed.
(** The sum of the weights before position [e + 1] is smaller than the weight there *)
Lemma big_cut ws e v : StronglySorted le ws -> nth_error ws (S e) = Some v -> prefix_sum ws (S e) < v -> cut ws e.
Proof.
  intros Hs Hv Hlt i j w u Hi Hj Ei Ej. pose proof (prefix_in ws (S e) i w Ei ltac:(lia)). pose proof (sorted_nth ws Hs (S e) j v u ltac:(lia) Hv Ej). lia.
Qed.
Lemma filter_cut {A} (q : A -> bool) xs n : (forall x, In x (firstn n xs) -> q x = true) -> (forall x, In x (skipn n xs) -> q x = false) ->
  filter q xs = firstn n xs /\ filter (fun x => negb (q x)) xs = skipn n xs.
Proof.
  intros H1 H2. rewrite <- (firstn_skipn n xs) at 1 3. rewrite !filter_app.
  assert (T1 : forall l, (forall x : A, In x l -> q x = true) -> filter q l = l /\ filter (fun x => negb (q x)) l = []).
  { induction l as [|x l IH]; intros H; [now split|]. destruct IH as [I1 I2]; [intros; apply H; now right|]. cbn [filter]. rewrite (H x (or_introl eq_refl)). cbn. now rewrite I1, I2. }
  assert (T2 : forall l, (forall x : A, In x l -> q x = false) -> filter q l = [] /\ filter (fun x => negb (q x)) l = l).
  { induction l as [|x l IH]; intros H; [now split|]. destruct IH as [I1 I2]; [intros; apply H; now right|]. cbn [filter]. rewrite (H x (or_introl eq_refl)). cbn. now rewrite I1, I2. }
  destruct (T1 _ H1) as [-> ->]. destruct (T2 _ H2) as [-> ->]. now rewrite app_nil_r.
Qed.
Lemma first_at ws t n : StronglySorted le ws -> nth_error ws n = Some t -> (forall i w, i < n -> nth_error ws i = Some w -> w < t) ->
  lighter t ws = prefix_sum ws n /\ heavier t ws = skipn n ws.
Proof.
  intros Hs Ht Hlt. destruct (filter_cut (fun w => w <? t) ws n) as [E1 E2].
  - intros x Hx. rewrite <- (Nat.sub_0_r n) in Hx. change ws with (skipn 0 ws) in Hx. apply firstn_skipn_in in Hx as (k & Hk & Ek). apply Nat.ltb_lt. apply (Hlt k); [lia|exact Ek].
  - intros x Hx. apply skipn_in_nth in Hx as (k & Hk & Ek). apply Nat.ltb_ge. eapply sorted_nth; eauto.
  - unfold lighter, heavier, prefix_sum. rewrite E1. split; [reflexivity|]. rewrite <- E2. apply filter_ext. intros x. destruct (Nat.leb_spec t x), (Nat.ltb_spec x t); (reflexivity || lia).
Qed.
Lemma first_exists ws t : StronglySorted le ws -> In t ws -> exists n, nth_error ws n = Some t /\ forall i w, i < n -> nth_error ws i = Some w -> w < t.
Proof.
  induction 1 as [|x ws Hs IH Hx]; [intros []|]. intros Hin. destruct (Nat.eq_dec x t) as [->|Hne]; [exists 0; split; [reflexivity|intros; lia]|].
  destruct Hin as [->|Hin]; [easy|]. destruct (IH Hin) as (n & H1 & H2). exists (S n). split; [exact H1|]. intros [|i] w Hi Ei; cbn in Ei; [|apply (H2 i); [lia|exact Ei]].
  injection Ei as <-. rewrite Forall_forall in Hx. specialize (Hx t Hin). lia.
Qed.

Lemma in_forall2_l {A B} (R : A -> B -> Prop) xs ys x : Forall2 R xs ys -> In x xs -> exists y, In y ys /\ R x y.
Proof. induction 1 as [|? ? ? ? ? ? IH]; [intros []|]. intros [<-|H1]; [eexists; split; [now left|eassumption]|]. destruct (IH H1) as (z & ? & ?). exists z. split; [now right|assumption]. Qed.
Lemma in_forall2_r {A B} (R : A -> B -> Prop) xs ys y : Forall2 R xs ys -> In y ys -> exists x, In x xs /\ R x y.
Proof. induction 1 as [|? ? ? ? ? ? IH]; [intros []|]. intros [<-|H1]; [eexists; split; [now left|eassumption]|]. destruct (IH H1) as (z & ? & ?). exists z. split; [now right|assumption]. Qed.
(** The thresholds are the weights at which the parts begin *)
Lemma thresholds xs parts starts : StronglySorted le (weights xs) -> concat parts = xs -> Forall (fun p => p <> []) parts ->
  Forall2 (fun p i => hd_error p = nth_error xs i) parts starts ->
  forall t, threshold parts t <-> exists i, In i starts /\ nth_error (weights xs) i = Some t.
Proof.
  intros Hs Hc Hne H2 t.
  assert (Hsub : forall p, In p parts -> StronglySorted le (weights p)).
  { intros p Hp. apply in_split in Hp as (l & r & ->). rewrite concat_app in Hc. cbn [concat] in Hc. subst xs. clear - Hs. unfold weights in Hs. rewrite !map_app in Hs.
    assert (Hr : forall l r : list nat, StronglySorted le (l ++ r) -> StronglySorted le l /\ StronglySorted le r).
    { clear. induction l as [|x l IH]; intros r H; [now split; [constructor|]|]. inversion H; subst. destruct (IH _ H2) as [I1 I2]. split; [|exact I2]. constructor; [exact I1|].
      apply Forall_forall. intros y Hy. rewrite Forall_forall in H3. apply H3. apply in_or_app. now left. }
    apply Hr in Hs as [_ Hs]. now apply Hr in Hs as [Hs _]. }
  assert (Hleast : forall p e, In p parts -> hd_error p = Some e -> forall w, In w (weights p) -> snd e <= w).
  { intros p e Hp Hd w Hw. specialize (Hsub p Hp). destruct p as [|x p]; [discriminate|]. injection Hd as ->. inversion Hsub; subst. rewrite Forall_forall in H3. destruct Hw as [<-|Hw]; [lia|now apply H3]. }
  rewrite Forall_forall in Hne. split.
  - intros (p & Hp & Ht & Hmin). destruct (in_forall2_l _ _ _ _ H2 Hp) as (i & Hi & E). exists i. split; [exact Hi|]. unfold weights. rewrite nth_error_map, <- E.
    destruct p as [|e p]; [now destruct (Hne [] Hp)|]. cbn. f_equal. specialize (Hleast _ e Hp eq_refl t Ht). specialize (Hmin (snd e) (or_introl eq_refl)). lia.
  - intros (i & Hi & Et). destruct (in_forall2_r _ _ _ _ H2 Hi) as (p & Hp & E). exists p. split; [exact Hp|]. unfold weights in Et. rewrite nth_error_map, <- E in Et.
    destruct p as [|e p]; [now destruct (Hne [] Hp)|]. cbn in Et. injection Et as <-. split; [now left|]. now apply Hleast.
Qed.
