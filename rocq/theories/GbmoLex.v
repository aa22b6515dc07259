(** * Splitting an objective: the objectives are lexicographic, and where the objective is split (Gbmo.v) *)

From Coq Require Import List Bool NArith ZArith Arith Lia Permutation Sorted.
From Coq Require Import ZifyBool ZifyNat ZifyN.
From Verif Require Import Spec Types Base Constraints Maps NodeDb Inst InstSpec Opt OptSpec OptProofs Text Dimacs Opb Tools SplitSpec Gbmo GbmoProofs GbmoCheck GbmoSplit.
Import ListNotations.
Open Scope list_scope.
Local Open Scope nat_scope.

(** ** Costs of parts *)

Definition costs (a : asg) (parts : list (list (clause * nat))) : list Z := map (fun p => Z.of_nat (cls_cost a p)) parts.
Lemma costs_concat a parts : cls_cost a (concat parts) = list_sum (map (cls_cost a) parts).
Proof. induction parts as [|p parts IH]; [reflexivity|]. cbn [concat map]. rewrite cls_cost_app, IH. reflexivity. Qed.
Lemma cost_le a xs : cls_cost a xs <= list_sum (weights xs).
Proof. apply sub_le, cost_sub. Qed.

(** All differences in the cost of a part outweigh the less important parts, if the more important parts have equal costs *)
Definition dominant (parts : list (list (clause * nat))) : Prop := forall a b l p r, parts = l ++ p :: r -> (forall q, In q r -> cls_cost a q = cls_cost b q) ->
  cls_cost a p < cls_cost b p -> list_sum (weights (concat l)) < cls_cost b p - cls_cost a p.
Lemma dominant_lex parts : dominant parts -> forall a b, cls_cost a (concat parts) < cls_cost b (concat parts) <-> lex_lt (rev (costs a parts)) (rev (costs b parts)).
Proof.
  intros Hd a b. assert (H : forall ps r, parts = ps ++ r -> (forall q, In q r -> cls_cost a q = cls_cost b q) ->
    (cls_cost a (concat ps) < cls_cost b (concat ps) <-> lex_lt (rev (costs a ps)) (rev (costs b ps)))); [|apply (H parts []); [now rewrite app_nil_r|intros q []]].
  intros ps. induction ps as [|p ps IH] using rev_ind; intros r E Hr; [cbn; split; [lia|intros []]|]. unfold costs. rewrite !map_app, !rev_app_distr. cbn [map rev app lex_lt]. fold (costs a ps) (costs b ps).
  rewrite concat_app. cbn [concat]. rewrite app_nil_r, !cls_cost_app. rewrite <- app_assoc in E. cbn [app] in E. destruct (lt_eq_lt_dec (cls_cost a p) (cls_cost b p)) as [[Hlt|Heq]|Hgt].
  - pose proof (Hd a b ps p r E Hr Hlt). pose proof (cost_le a (concat ps)). split; [intros _; left; lia|lia].
  - rewrite <- Heq. rewrite <- (IH (p :: r) E); [lia|]. intros q [<-|Hq]; [exact Heq|now apply Hr].
  - pose proof (Hd b a ps p r E (fun q Hq => eq_sym (Hr q Hq)) Hgt). pose proof (cost_le b (concat ps)). split; [lia|]. intros [?|[? _]]; lia.
Qed.

Lemma list_sum_perm ws vs : Permutation ws vs -> list_sum ws = list_sum vs.
Proof. induction 1 as [|x ws vs _ IH|x y ws|ws vs us _ IH1 _ IH2]; cbn [list_sum fold_right]; unfold list_sum in *; lia. Qed.
Lemma filter_perm {A} (q : A -> bool) ws vs : Permutation ws vs -> Permutation (filter q ws) (filter q vs).
Proof.
  induction 1 as [|x ws vs _ IH|x y ws|ws vs us _ IH1 _ IH2]; cbn [filter]; [constructor| | |eapply perm_trans; eassumption].
  - destruct (q x); [now constructor|exact IH].
  - destruct (q x), (q y); try reflexivity. apply perm_swap.
Qed.
Lemma lighter_perm t ws vs : Permutation ws vs -> lighter t ws = lighter t vs.
Proof. intros H. apply list_sum_perm, filter_perm, H. Qed.
Lemma heavier_perm t ws vs : Permutation ws vs -> Permutation (heavier t ws) (heavier t vs).
Proof. apply filter_perm. Qed.
Lemma gcd_perm ws vs : Permutation ws vs -> gcd_of ws = gcd_of vs.
Proof.
  induction 1 as [|x ws vs _ IH|x y ws|ws vs us _ IH1 _ IH2]; cbn [gcd_of fold_right]; [reflexivity| | |congruence].
  - fold (gcd_of ws) (gcd_of vs). now rewrite IH.
  - fold (gcd_of ws). rewrite !Nat.gcd_assoc. f_equal. apply Nat.gcd_comm.
Qed.
Lemma separated_perm ws vs d : Permutation ws vs -> separated ws d -> separated vs d.
Proof. intros P H s s' Hs Hs'. apply H; eapply sub_perm; try apply Permutation_sym, P; assumption. Qed.
Lemma bmo_perm ws vs : Permutation ws vs -> bmo ws <-> bmo vs.
Proof. intros P. split; intros H t Ht; [rewrite <- (lighter_perm _ _ _ P)|rewrite (lighter_perm _ _ _ P)]; apply H; eapply Permutation_in; try eassumption. now apply Permutation_sym. Qed.
Lemma gcd_splits_perm ws vs t : Permutation ws vs -> gcd_splits ws t <-> gcd_splits vs t.
Proof. intros P. unfold gcd_splits. now rewrite (lighter_perm _ _ _ P), (gcd_perm _ _ (heavier_perm t _ _ P)). Qed.
Lemma gbmo_splits_perm ws vs t : Permutation ws vs -> gbmo_splits ws t <-> gbmo_splits vs t.
Proof. intros P. unfold gbmo_splits. rewrite (lighter_perm _ _ _ P). split; apply separated_perm; [|apply Permutation_sym]; now apply heavier_perm. Qed.
Lemma few_sums_perm m ws vs : Permutation ws vs -> few_sums m ws -> few_sums m vs.
Proof. intros P (s & H1 & H2). exists s. split; [exact H1|]. intros x Hx. apply H2. eapply sub_perm; [apply Permutation_sym, P|exact Hx]. Qed.

(** ** Parts are dominant *)

Notation ordered := (ForallOrdPairs (fun p q : list (clause * nat) => forall e f, In e p -> In f q -> snd e < snd f)).
Lemma ordered_app l r : ordered (l ++ r) -> forall p q e f, In p l -> In q r -> In e p -> In f q -> snd e < snd f.
Proof.
  induction l as [|x l IH]; intros H p q e f Hp Hq; [destruct Hp|]. cbn [app] in H. inversion H as [|? ? H1 H2]; subst. destruct Hp as [<-|Hp]; [|now apply (IH H2)].
  rewrite Forall_forall in H1. apply H1. apply in_or_app. now right.
Qed.
(** the weights around a part *)
Lemma around parts l p r : parts = l ++ p :: r -> p <> [] -> ordered parts -> exists t, In t (weights p) /\ (forall w, In w (weights p) -> t <= w) /\
  lighter t (weights (concat parts)) = list_sum (weights (concat l)) /\ heavier t (weights (concat parts)) = weights (concat (p :: r)).
Proof.
  intros -> Hne Ho. assert (Hmin : exists t, In t (weights p) /\ forall w, In w (weights p) -> t <= w).
  { clear - Hne. induction p as [|[c w] p IH]; [easy|]. destruct p as [|x p]; [exists w; split; [now left|]; intros v [<-|[]]; cbn; lia|]. destruct IH as (t & Ht & Hle); [discriminate|].
    destruct (Nat.le_gt_cases w t); [exists w|exists t]; (split; [|intros v [<-|Hv]; [cbn; lia|specialize (Hle v Hv); lia]]); [now left|now right]. }
  destruct Hmin as (t & Ht & Hle). exists t. split; [exact Ht|]. split; [exact Hle|].
  assert (H1 : forall w, In w (weights (concat l)) -> w < t).
  { intros w Hw. apply in_map_iff in Hw as (e & <- & He). apply in_concat in He as (q & Hq & He). apply in_map_iff in Ht as (f & <- & Hf). apply (ordered_app _ _ Ho q p); auto. now left. }
  assert (H2 : forall w, In w (weights (concat (p :: r))) -> t <= w).
  { intros w Hw. apply in_map_iff in Hw as (e & <- & He). cbn [concat] in He. apply in_app_or in He as [He|He]; [apply Hle, in_map, He|]. apply in_concat in He as (q & Hq & He). apply in_map_iff in Ht as (f & <- & Hf).
    change (p :: r) with ([p] ++ r) in Ho. rewrite app_assoc in Ho. apply Nat.lt_le_incl. apply (ordered_app _ _ Ho p q); auto. apply in_or_app. right. now left. }
  unfold lighter, heavier. rewrite concat_app. unfold weights at 1 3. rewrite map_app. fold (weights (concat l)) (weights (concat (p :: r))). rewrite !filter_app.
  assert (T : forall q ws, (forall w : nat, In w ws -> q w = true) -> filter q ws = ws) by (intros q ws; induction ws as [|x ws IH]; intros H; [reflexivity|]; cbn [filter]; rewrite (H x (or_introl eq_refl)), IH; [reflexivity|intros; apply H; now right]).
  assert (F : forall q ws, (forall w : nat, In w ws -> q w = false) -> filter q ws = []) by (intros q ws; induction ws as [|x ws IH]; intros H; [reflexivity|]; cbn [filter]; rewrite (H x (or_introl eq_refl)); apply IH; intros; apply H; now right).
  rewrite (T (fun w => w <? t) (weights (concat l))), (F (fun w => w <? t) (weights (concat (p :: r)))), (F (fun w => t <=? w) (weights (concat l))), (T (fun w => t <=? w) (weights (concat (p :: r)))).
  - now rewrite app_nil_r.
  - intros w Hw. apply Nat.leb_le. now apply H2.
  - intros w Hw. apply Nat.leb_gt. now apply H1.
  - intros w Hw. apply Nat.ltb_ge. now apply H2.
  - intros w Hw. apply Nat.ltb_lt. now apply H1.
Qed.

Lemma separated_dominant parts : Forall (fun p => p <> []) parts -> ordered parts -> (forall t, threshold parts t -> gbmo_splits (weights (concat parts)) t) -> dominant parts.
Proof.
  intros Hne Ho Hs a b l p r E Hr Hlt. rewrite Forall_forall in Hne. assert (Hp : In p parts) by (rewrite E; apply in_or_app; right; now left).
  destruct (around parts l p r E (Hne p Hp) Ho) as (t & Ht & Hle & E1 & E2). specialize (Hs t (ex_intro _ p (conj Hp (conj Ht Hle)))). unfold gbmo_splits in Hs. rewrite E1, E2 in Hs.
  specialize (Hs (cls_cost a (concat (p :: r))) (cls_cost b (concat (p :: r))) (cost_sub a _) (cost_sub b _)). cbn [concat] in Hs. rewrite !cls_cost_app in Hs.
  assert (cls_cost a (concat r) = cls_cost b (concat r)) by (rewrite !costs_concat; f_equal; apply map_ext_in, Hr). lia.
Qed.
Lemma bmo_dominant parts : Forall (fun p => p <> []) parts -> ordered parts -> bmo (weights (concat parts)) -> (forall t, In t (weights (concat parts)) -> threshold parts t) -> dominant parts.
Proof.
  intros Hne Ho Hb Hall a b l p r E Hr Hlt. pose proof Hne as Hne'. rewrite Forall_forall in Hne. assert (Hp : In p parts) by (rewrite E; apply in_or_app; right; now left).
  destruct (around parts l p r E (Hne p Hp) Ho) as (t & Ht & Hle & E1 & E2).
  assert (Hin : forall w, In w (weights p) -> In w (weights (concat parts))). { intros w Hw. apply in_map_iff in Hw as (e & <- & He). apply in_map. apply in_concat. eauto. }
  assert (Hu : forall w, In w (weights p) -> w = t).
  { intros w Hw. destruct (Hall w (Hin w Hw)) as (q & Hq & Hwq & Hleq). destruct (ForallOrdPairs_In Ho p q Hp Hq) as [<-|[H|H]].
    - specialize (Hleq t Ht). specialize (Hle w Hw). lia.
    - apply in_map_iff in Hw as (e & <- & He). apply in_map_iff in Hwq as (f & Ef & Hf). specialize (H e f He Hf). lia.
    - apply in_map_iff in Hw as (e & <- & He). apply in_map_iff in Hwq as (f & Ef & Hf). specialize (H f e Hf He). lia. }
  specialize (Hb t (Hin t Ht)). rewrite E1 in Hb.
  assert (Hm : forall c, Nat.divide t (cls_cost c p)).
  { intros c. clear - Hu. induction p as [|[cl w] p IH]; [apply Nat.divide_0_r|]. cbn [cls_cost]. apply Nat.divide_add_r; [|apply IH; intros v Hv; apply Hu; now right].
    destruct (sat_clause c cl); [apply Nat.divide_0_r|]. rewrite (Hu w (or_introl eq_refl)). apply Nat.divide_refl. }
  pose proof (Nat.divide_sub_r _ _ _ (Hm b) (Hm a)) as D. apply Nat.divide_pos_le in D; lia.
Qed.

(** ** The parts of a sorted list *)

Lemma positions xs ends : 0 < List.length xs -> Forall (fun w => 0 < w) (weights xs) -> StronglySorted le (weights xs) -> StronglySorted lt ends -> (forall e, In e ends -> pot xs e) ->
  exists parts rs, perform_split xs ends = Some rs /\ concat parts = xs /\ Forall (fun p => p <> []) parts /\ Forall2 part_result parts rs /\ ordered parts /\
    List.length parts = S (List.length ends) /\ (forall t, threshold parts t <-> exists i, In i (0 :: map S ends) /\ nth_error (weights xs) i = Some t).
Proof.
  intros Hl Hpos Hs Hi Hp. destruct (split_loop_spec xs Hpos ends 0 Hl Hi) as (parts & rs & E & Hc & Hne & H2 & Hh & Ho).
  - intros e He. pose proof (Hp e He) as P. split; [lia|]. split; [pose proof (pot_lt _ _ P); lia|]. destruct P as (v & Hv & Hb). now apply (big_cut _ _ v).
  - exists parts, rs. cbn [skipn] in Hc. repeat (split; [assumption|]). split; [|now apply thresholds]. clear - Hh. assert (L : forall A B (R : A -> B -> Prop) l l', Forall2 R l l' -> List.length l = List.length l') by (clear; induction 1; cbn; congruence).
    rewrite (L _ _ _ _ _ Hh). cbn. now rewrite map_length.
Qed.
(** a position where a part may begin *)
Definition begins (xs : list (clause * nat)) (i t : nat) : Prop := nth_error (weights xs) i = Some t /\ lighter t (weights xs) = prefix_sum (weights xs) i /\ heavier t (weights xs) = skipn i (weights xs).
Lemma begins_pot xs e v : StronglySorted le (weights xs) -> pot xs e -> nth_error (weights xs) (S e) = Some v -> begins xs (S e) v.
Proof.
  intros Hs (v' & Hv & Hb) Ev. rewrite Ev in Hv. injection Hv as <-. split; [exact Ev|]. apply first_at; [exact Hs|exact Ev|]. intros i w Hi Ei. pose proof (prefix_in _ _ _ _ Ei Hi). lia.
Qed.
Lemma begins_grows xs e u v : StronglySorted le (weights xs) -> nth_error (weights xs) e = Some u -> nth_error (weights xs) (S e) = Some v -> u < v -> begins xs (S e) v.
Proof.
  intros Hs Eu Ev Huv. split; [exact Ev|]. apply first_at; [exact Hs|exact Ev|]. intros i w Hi Ei. pose proof (sorted_nth _ Hs i e w u ltac:(lia) Ei Eu). lia.
Qed.
Lemma begins_first xs t : StronglySorted le (weights xs) -> In t (weights xs) -> exists i, begins xs i t /\ forall e, i = S e -> grows (weights xs) e.
Proof.
  intros Hs Ht. destruct (first_exists _ _ Hs Ht) as (n & E & Hlt). exists n. split; [split; [exact E|now apply first_at]|]. intros e ->.
  destruct (nth_error (weights xs) e) as [u|] eqn:Eu; [exists u, t; repeat split; auto; apply (Hlt e); [lia|exact Eu]|]. exfalso. apply nth_error_None in Eu. assert (S e < List.length (weights xs)) by (apply nth_error_Some; congruence). lia.
Qed.
Lemma begins_zero xs t : nth_error (weights xs) 0 = Some t -> StronglySorted le (weights xs) -> begins xs 0 t.
Proof. intros E Hs. split; [exact E|]. apply first_at; [exact Hs|exact E|]. intros; lia. Qed.
Lemma pos_in xs t : Forall (fun w => 0 < w) (weights xs) -> In t (weights xs) -> 0 < t.
Proof. intros H. rewrite Forall_forall in H. apply H. Qed.

(** What a way of splitting gives for a sorted list *)
Definition splits_well (xs : list (clause * nat)) (rs : list (obj * ostats)) (parts : list (list (clause * nat))) : Prop :=
  concat parts = xs /\ Forall (fun p => p <> []) parts /\ ordered parts /\ Forall2 part_result parts rs /\ dominant parts.

Lemma split_bmo_spec xs : xs <> [] -> Forall (fun w => 0 < w) (weights xs) -> StronglySorted le (weights xs) -> exists rs parts, split_bmo xs = Some rs /\ splits_well xs rs parts /\
  (bmo (weights xs) -> forall t, threshold parts t <-> In t (weights xs)) /\ (~ bmo (weights xs) -> List.length parts = 1).
Proof.
  intros Hne Hpos Hs. assert (Hl : 0 < List.length xs) by (destruct xs; [easy|cbn; lia]). unfold split_bmo. destruct xs as [|x xs0]; [easy|]. set (xs := x :: xs0) in *.
  pose proof (bmo_loop_spec xs Hs xs [] [] (snd x) eq_refl eq_refl (SSorted_nil _)) as B. cbn [List.length weights map list_sum fold_right] in B. fold (weights xs) in B.
  destruct B as [(-> & e & Hg & Hn)|(H1 & H2 & H3)]; [intros e; split; [intros []|intros [? _]; lia]|intros e []| |].
  - destruct (positions xs [] Hl Hpos Hs (SSorted_nil _)) as (parts & rs & E & Hc & Hn1 & Hf & Ho & Hlen & Ht); [intros ? []|]. exists rs, parts. split; [exact E|].
    assert (Hnb : ~ bmo (weights xs)). { intros Hb. destruct Hg as (u & v & Eu & Ev & Huv). apply Hn. destruct (begins_grows xs e u v Hs Eu Ev Huv) as (_ & El & _). exists v. split; [exact Ev|]. rewrite <- El. apply Hb. eapply nth_error_In, Ev. }
    split; [|split; [easy|intros _; exact Hlen]]. repeat (split; [assumption|]). apply separated_dominant; [assumption|assumption|]. intros t T. apply Ht in T as (i & [<-|[]] & Ei). rewrite Hc. destruct (begins_zero xs t Ei Hs) as (_ & El & _).
    unfold gbmo_splits. rewrite El. unfold prefix_sum. cbn [firstn list_sum fold_right]. intros s s' _ _ ?. lia.
  - destruct (positions xs _ Hl Hpos Hs H1 H3) as (parts & rs & E & Hc & Hn1 & Hf & Ho & Hlen & Ht). exists rs, parts. split; [exact E|].
    assert (Hb : bmo (weights xs)).
    { intros t Hin. destruct (begins_first xs t Hs Hin) as (i & (Ei & El & _) & Hg). rewrite El. destruct i as [|e]; [unfold prefix_sum; cbn [firstn list_sum fold_right]; now apply (pos_in xs)|].
      specialize (Hg e eq_refl). apply H2, H3 in Hg as (v & Ev & Hb). rewrite Ei in Ev. injection Ev as <-. exact Hb. }
    assert (Htt : forall t, threshold parts t <-> In t (weights xs)).
    { intros t. rewrite Ht. split; [intros (i & _ & Ei); eapply nth_error_In, Ei|]. intros Hin. destruct (begins_first xs t Hs Hin) as (i & (Ei & _) & Hg). exists i. split; [|exact Ei]. destruct i as [|e]; [now left|right]. apply in_map. apply H2. now apply Hg. }
    split; [|split; [intros _; exact Htt|easy]]. repeat (split; [assumption|]). apply bmo_dominant; try rewrite Hc; try assumption. intros t Hin. now apply Htt.
Qed.

Lemma split_gbmo_spec alg m xs : xs <> [] -> Forall (fun w => 0 < w) (weights xs) -> StronglySorted le (weights xs) -> exists rs warns parts, split_gbmo alg m xs = Some (rs, warns) /\ splits_well xs rs parts /\
  (forall t, threshold parts t -> In t (weights xs) /\ gbmo_splits (weights xs) t) /\
  (forall t, In t (weights xs) -> gcd_splits (weights xs) t -> threshold parts t) /\
  (alg = AGcd -> forall t, threshold parts t -> gcd_splits (weights xs) t) /\
  (alg = AGbmo -> few_sums m (weights xs) -> forall t, In t (weights xs) -> gbmo_splits (weights xs) t -> threshold parts t).
Proof.
  intros Hne Hpos Hs. assert (Hl : 0 < List.length xs) by (destruct xs; [easy|cbn; lia]). unfold split_gbmo, get_sums_pot_splits_gcds.
  pose proof (sums_splits_spec xs 0 0) as SS. destruct (sums_splits 0 0 xs) as [sums pots]. destruct SS as (S1 & S2 & S3). cbn [Nat.add] in S1, S3.
  destruct (rev xs) as [|[c w] r] eqn:R; [exfalso; apply Hne; rewrite <- (rev_involutive xs), R; reflexivity|]. destruct (gcds_spec xs (c, w) r R) as (gs & E0 & Eg). cbn [snd] in Eg, E0. rewrite E0. cbn [obind].
  assert (Hpot : forall e, In e pots <-> pot xs e). { intros e. rewrite S3. split; [intros (k & v & -> & H1 & H2); now exists v|]. intros (v & H1 & H2). now exists e, v. }
  destruct (gbmo_loop_spec alg m xs sums (rev (w :: gs)) Hs S1) with (pots := pots) as (ends & warns & -> & I1 & I2 & I3 & I4 & I5 & I6); [|exact S2|intros e; apply Hpot|].
  { intros i Hi. rewrite Eg. apply suffix_nth. unfold weights. now rewrite map_length. }
  cbn [obind fst snd]. destruct (positions xs ends Hl Hpos Hs I1) as (parts & rs & E & Hc & Hn1 & Hf & Ho & Hlen & Ht); [intros e He; apply Hpot, I2, He|]. rewrite E. cbn [obind].
  exists rs, warns, parts. split; [reflexivity|].
  assert (Hsnd : forall t, threshold parts t -> exists i, begins xs i t /\ (i = 0 \/ exists e, i = S e /\ In e ends)).
  { intros t T. apply Ht in T as (i & Hi & Ei). exists i. destruct Hi as [<-|Hi]; [split; [now apply begins_zero|now left]|]. apply in_map_iff in Hi as (e & <- & He). split; [|right; eauto]. apply begins_pot; [exact Hs|apply Hpot, I2, He|exact Ei]. }
  assert (Hg : forall t, threshold parts t -> In t (weights xs) /\ gbmo_splits (weights xs) t).
  { intros t T. destruct (Hsnd t T) as (i & (Ei & El & Eh) & Hi). split; [eapply nth_error_In, Ei|]. unfold gbmo_splits. rewrite El, Eh. destruct Hi as [->|(e & -> & He)]; [|now apply I3]. unfold prefix_sum. cbn [firstn list_sum fold_right]. intros s s' _ _ ?. lia. }
  assert (Hcpl : forall t, In t (weights xs) -> (forall e, begins xs (S e) t -> pot xs e -> In e ends) -> lighter t (weights xs) < t -> threshold parts t).
  { intros t Hin He Hlt. apply Ht. destruct (begins_first xs t Hs Hin) as (i & Hb & _). exists i. split; [|apply Hb]. destruct i as [|e]; [now left|right]. apply in_map, He; [exact Hb|]. destruct Hb as (Ei & El & _). exists t. split; [exact Ei|]. now rewrite <- El. }
  assert (Hhv : forall t, In t (weights xs) -> In t (heavier t (weights xs))) by (intros t Hin; apply filter_In; split; [exact Hin|apply Nat.leb_refl]).
  split; [|split; [exact Hg|split; [|split]]].
  - repeat (split; [assumption|]). apply separated_dominant; [assumption|assumption|]. intros t T. rewrite Hc. now apply Hg.
  - intros t Hin Hgs. apply Hcpl; [exact Hin| |].
    + intros e (Ei & El & Eh) Hp. apply I4; [now apply Hpot|]. unfold gcd_splits in Hgs. now rewrite El, Eh in Hgs.
    + unfold gcd_splits in Hgs. pose proof (gcd_of_divide _ _ (Hhv t Hin)) as D. apply Nat.divide_pos_le in D; [lia|now apply (pos_in xs)].
  - intros Ea t T. destruct (Hsnd t T) as (i & (Ei & El & Eh) & Hi). unfold gcd_splits. rewrite El, Eh. destruct Hi as [->|(e & -> & He)]; [|now apply I5]. unfold prefix_sum. cbn [firstn skipn list_sum fold_right]. apply gcd_of_pos; [|exact Hpos].
    destruct xs; [easy|discriminate].
  - intros Ea Hfew t Hin Hgs. apply Hcpl; [exact Hin| |].
    + intros e (Ei & El & Eh) Hp. apply I6; [exact Ea|exact Hfew|now apply Hpot|]. unfold gbmo_splits in Hgs. now rewrite El, Eh in Hgs.
    + pose proof (Hgs 0 t (sub_zero _) (sub_elem _ _ (Hhv t Hin)) (pos_in xs t Hpos Hin)). lia.
Qed.

(** ** From parts to objectives *)

Lemma lex_monotone {A} (f g : A -> asg -> Z) xs : (forall x a b, In x xs -> (f x a < f x b <-> g x a < g x b)%Z) -> forall a b, lex_lt (map (fun x => f x a) xs) (map (fun x => f x b) xs) <-> lex_lt (map (fun x => g x a) xs) (map (fun x => g x b) xs).
Proof.
  induction xs as [|x xs IH]; intros H a b; cbn [map lex_lt]; [easy|]. rewrite (IH (fun y a b Hy => H y a b (or_intror Hy))). pose proof (H x a b (or_introl eq_refl)). pose proof (H x b a (or_introl eq_refl)).
  assert (f x a = f x b <-> g x a = g x b)%Z by lia. tauto.
Qed.
Lemma lex_scaled xs : (forall x, In x xs -> exists g, scaled_obj (fst x) g (snd x)) -> forall a b,
  lex_lt (rev (map (obj_value a) (map snd xs))) (rev (map (obj_value b) (map snd xs))) <-> lex_lt (rev (costs a (map fst xs))) (rev (costs b (map fst xs))).
Proof.
  intros H a b. unfold costs. rewrite !map_map, <- !map_rev. apply (lex_monotone (fun x a => obj_value a (snd x)) (fun x a => Z.of_nat (cls_cost a (fst x)))). intros x c d Hx. apply in_rev, H in Hx as (g & Hg & E & _).
  pose proof (E c). pose proof (E d). nia.
Qed.
