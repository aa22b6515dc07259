(** * Splitting an objective into objectives that are optimized lexicographically (Gbmo.v) *)

From Coq Require Import List Bool NArith ZArith Arith Lia Permutation Sorted.
From Coq Require Import ZifyBool ZifyNat ZifyN.
From Verif Require Import Spec Types Base Constraints Maps NodeDb Inst InstSpec Opt OptSpec OptProofs Text Dimacs Opb Tools SplitSpec Gbmo GbmoProofs GbmoCheck.
Import ListNotations.
Open Scope list_scope.
Local Open Scope nat_scope.

(** ** Where the objective is split *)

Lemma prefix_cons w ws n : prefix_sum (w :: ws) (S n) = w + prefix_sum ws n.
Proof. reflexivity. Qed.
Lemma inc_map_S s : StronglySorted lt s -> StronglySorted lt (map S s).
Proof. induction 1 as [|x s Hs IH Hx]; cbn [map]; constructor; [exact IH|]. rewrite Forall_map. eapply Forall_impl; [|exact Hx]. cbn beta. intros; lia. Qed.

Lemma sums_splits_spec xs : forall idx sum, let '(sums, pots) := sums_splits idx sum xs in
  (forall i, i < List.length xs -> nth_error sums i = Some (sum + prefix_sum (weights xs) (S i))) /\ StronglySorted lt pots /\
  (forall e, In e pots <-> exists k v, e = idx + k /\ nth_error (weights xs) (S k) = Some v /\ sum + prefix_sum (weights xs) (S k) < v).
Proof.
  induction xs as [|[c w] xs IH]; intros idx sum; cbn [sums_splits].
  - split; [intros i Hi; cbn in Hi; lia|]. split; [constructor|]. intros e. split; [intros []|]. intros (k & v & _ & H & _). discriminate.
  - specialize (IH (S idx) (sum + w)). destruct (sums_splits (S idx) (sum + w) xs) as [sums pots]. destruct IH as (I1 & I2 & I3). split; [|split].
    + intros [|i] Hi; cbn [nth_error weights map snd]; [rewrite prefix_cons; unfold prefix_sum; cbn; f_equal; lia|]. fold (weights xs). rewrite I1 by (cbn in Hi; lia). rewrite prefix_cons. f_equal. lia.
    + assert (Hlow : forall e, In e pots -> idx < e) by (intros e He; apply I3 in He as (k & v & -> & _); lia).
      destruct xs as [|[c' w'] xs]; [exact I2|]. destruct (sum + w <? w'); [|exact I2]. constructor; [exact I2|]. now apply Forall_forall.
    + intros e. assert (E : In e pots <-> exists k v, e = idx + S k /\ nth_error (weights ((c, w) :: xs)) (S (S k)) = Some v /\ sum + prefix_sum (weights ((c, w) :: xs)) (S (S k)) < v).
      { rewrite I3. split; intros (k & v & -> & H1 & H2); exists k, v; (split; [lia|]); (split; [exact H1|]); cbn [weights map snd] in *; fold (weights xs) in *; rewrite ?prefix_cons in *; unfold prefix_sum in *; cbn [firstn] in *; lia. }
      destruct xs as [|[c' w'] xs].
      * rewrite E. split; intros (k & v & -> & H1 & H2); [now exists (S k), v|]. destruct k; discriminate.
      * assert (H0 : forall v, nth_error (weights ((c, w) :: (c', w') :: xs)) 1 = Some v <-> v = w') by (intros v; cbn; split; [now intros [= ->]|now intros ->]).
        assert (P0 : prefix_sum (weights ((c, w) :: (c', w') :: xs)) 1 = w) by (unfold prefix_sum; cbn; lia).
        destruct (Nat.ltb_spec (sum + w) w') as [Hlt|Hge]; cbn [In]; rewrite ?E; split.
        -- intros [<-|(k & v & -> & H1 & H2)]; [exists 0, w'; split; [lia|]; split; [reflexivity|]; rewrite P0; exact Hlt|now exists (S k), v].
        -- intros ([|k] & v & -> & H1 & H2); [left; lia|right; now exists k, v].
        -- intros (k & v & -> & H1 & H2). now exists (S k), v.
        -- intros ([|k] & v & -> & H1 & H2); [apply H0 in H1; rewrite P0 in H2; lia|now exists k, v].
Qed.

Fixpoint suffix_gcds (ws : list nat) : list nat := match ws with [] => [] | _ :: ws' => gcd_of ws :: suffix_gcds ws' end.
Lemma suffix_nth ws : forall i, i < List.length ws -> nth_error (suffix_gcds ws) i = Some (gcd_of (skipn i ws)).
Proof. induction ws as [|w ws IH]; intros i Hi; cbn in Hi; [lia|]. destruct i as [|i]; [reflexivity|]. cbn [suffix_gcds nth_error skipn]. apply IH. lia. Qed.
Lemma gcds_loop_app g xs x : forall gs, gcds_loop g xs = Some gs -> gcds_loop g (xs ++ [x]) = Some (gs ++ [Nat.gcd (last (g :: gs) 0) (snd x)]).
Proof.
  revert g. induction xs as [|[c w] xs IH]; intros g gs H; cbn [gcds_loop app] in *.
  - injection H as <-. destruct x as [c w]. rewrite gcd_spec. reflexivity.
  - rewrite gcd_spec in *. cbn [obind] in *. destruct (gcds_loop (Nat.gcd g w) xs) as [gs'|] eqn:E; [|discriminate]. cbn [obind] in H. injection H as <-. rewrite (IH _ _ E). cbn [obind]. f_equal.
Qed.
Lemma gcds_spec xs w r : rev xs = w :: r -> exists gs, gcds_loop (snd w) r = Some gs /\ rev (snd w :: gs) = suffix_gcds (weights xs).
Proof.
  revert w r. induction xs as [|x xs IH]; intros w r H; [discriminate|]. cbn [rev] in H. destruct (rev xs) as [|w' r'] eqn:R.
  - cbn in H. injection H as -> <-. apply (f_equal (@rev _)) in R. rewrite rev_involutive in R. cbn in R. subst xs. exists []. split; [reflexivity|]. cbn. now rewrite Nat.gcd_0_r.
  - cbn [app] in H. injection H as -> <-. destruct (IH w r' eq_refl) as (gs & E1 & E2). eexists. split; [apply (gcds_loop_app _ _ x), E1|]. rewrite app_comm_cons, rev_app_distr, E2. cbn [rev app].
    cbn [weights map suffix_gcds]. fold (weights xs). f_equal. cbn [gcd_of fold_right]. fold (gcd_of (weights xs)). rewrite Nat.gcd_comm. f_equal.
    assert (Hl : forall l : list nat, last l 0 = hd 0 (rev l)). { clear. intros l. rewrite <- (rev_involutive l) at 1. destruct (rev l) as [|y k]; [reflexivity|]. cbn [rev hd]. apply last_last. }
    rewrite Hl, E2. destruct xs; [discriminate|]. reflexivity.
Qed.

(** *** The decision for a potential split *)

Lemma few_sub_sums max_combs ws n : few_sums max_combs (skipn n ws) -> forall m, ~ too_many max_combs (skipn n ws) m.
Proof.
  intros (s & Hs & Hin) m (Hm & l & Hnd & Hlen & Hl). assert (List.length l <= List.length s); [|lia]. apply NoDup_incl_length; [exact Hnd|]. intros x Hx. apply Hin. now apply Hl.
Qed.
Lemma few_sums_skipn max_combs ws n : few_sums max_combs ws -> few_sums max_combs (skipn n ws).
Proof.
  intros (s & Hs & Hin). exists s. split; [exact Hs|]. intros x Hx. apply Hin. rewrite <- (firstn_skipn n ws). rewrite <- (Nat.add_0_l x). apply sub_app; [apply sub_zero|exact Hx].
Qed.

Section Loop.
Variables (alg : split_alg) (max_combs : nat) (xs : list (clause * nat)) (sums gcds : list nat).
Notation ws := (weights xs).
Hypothesis Hsorted : StronglySorted le ws.
Hypothesis Hsums : forall i, i < List.length xs -> nth_error sums i = Some (prefix_sum ws (S i)).
Hypothesis Hgcds : forall i, i < List.length xs -> nth_error gcds i = Some (gcd_of (skipn i ws)).
(** a potential split *)
Definition pot (e : nat) : Prop := exists v, nth_error ws (S e) = Some v /\ prefix_sum ws (S e) < v.
Lemma pot_lt e : pot e -> S e < List.length xs.
Proof. intros (v & H & _). unfold weights in H. assert (S e < List.length (map snd xs)) by (apply nth_error_Some; congruence). now rewrite map_length in *. Qed.

Lemma gbmo_loop_spec pots : StronglySorted lt pots -> (forall e, In e pots -> pot e) ->
  exists ends warns, gbmo_loop alg max_combs xs sums gcds pots = Some (ends, warns) /\ StronglySorted lt ends /\ (forall e, In e ends -> In e pots) /\
    (forall e, In e ends -> separated (skipn (S e) ws) (prefix_sum ws (S e))) /\
    (forall e, In e pots -> prefix_sum ws (S e) < gcd_of (skipn (S e) ws) -> In e ends) /\
    (alg = AGcd -> forall e, In e ends -> prefix_sum ws (S e) < gcd_of (skipn (S e) ws)) /\
    (alg = AGbmo -> few_sums max_combs ws -> forall e, In e pots -> separated (skipn (S e) ws) (prefix_sum ws (S e)) -> In e ends).
Proof.
  induction pots as [|e pots IH]; intros Hs Hp; cbn [gbmo_loop].
  - exists [], []. split; [reflexivity|]. split; [constructor|]. repeat split; try (now intros ? []); try (now intros _ ? []); now intros _ _ ? [].
  - inversion Hs as [|? ? Hs' Hlt]; subst. rewrite Forall_forall in Hlt. destruct (IH Hs') as (ends & warns & E & I1 & I2 & I3 & I4 & I5 & I6); [intros; apply Hp; now right|].
    pose proof (Hp e (or_introl eq_refl)) as He. pose proof (pot_lt e He) as Hl. rewrite Hsums by lia. cbn [obind]. replace (e + 1) with (S e) by lia. rewrite Hgcds by lia. cbn [obind].
    assert (Hdiv : prefix_sum ws (S e) < gcd_of (skipn (S e) ws) -> separated (skipn (S e) ws) (prefix_sum ws (S e))) by (intros H; apply (separated_gcd _ _ (gcd_of (skipn (S e) ws))); [apply gcd_of_divide|exact H]).
    assert (Hdec : exists r, (if prefix_sum ws (S e) <? gcd_of (skipn (S e) ws) then Some CYes else match alg with AGbmo => obind (slice (S e) (List.length xs) xs) (fun rp => check_split_thorough_gbmo max_combs rp (prefix_sum ws (S e))) | _ => Some CNo end) = Some r /\
      (r = CYes -> separated (skipn (S e) ws) (prefix_sum ws (S e))) /\ (prefix_sum ws (S e) < gcd_of (skipn (S e) ws) -> r = CYes) /\ (alg = AGcd -> r = CYes -> prefix_sum ws (S e) < gcd_of (skipn (S e) ws)) /\
      (alg = AGbmo -> few_sums max_combs ws -> separated (skipn (S e) ws) (prefix_sum ws (S e)) -> r = CYes)).
    { destruct (Nat.ltb_spec (prefix_sum ws (S e)) (gcd_of (skipn (S e) ws))) as [Hg|Hg]; [exists CYes; repeat split; auto|].
      destruct alg; [exists CNo; repeat split; (discriminate || lia)|exists CNo; repeat split; (discriminate || lia)|].
      rewrite slice_some by lia. cbn [obind]. rewrite firstn_all2 by (rewrite skipn_length; lia).
      assert (Ew : weights (skipn (S e) xs) = skipn (S e) ws) by (unfold weights; symmetry; apply skipn_map).
      destruct (check_spec max_combs (skipn (S e) xs) (prefix_sum ws (S e))) as (r & -> & Hr).
      - intros F. apply (f_equal (@List.length _)) in F. rewrite skipn_length in F. cbn [List.length] in F. lia.
      - rewrite Ew. clear - Hsorted. generalize (S e). clear e. intros n. rewrite <- (firstn_skipn n ws) in Hsorted. induction (firstn n ws) as [|x l IHl]; [exact Hsorted|]. cbn [app] in Hsorted. inversion Hsorted; subst. now apply IHl.
      - rewrite Ew. intros w Hw. destruct He as (v & Hv & Hb). apply skipn_in_nth in Hw as (k & Hk & Ek). pose proof (sorted_nth ws Hsorted (S e) k v w Hk Hv Ek). lia.
      - rewrite Ew in Hr. exists r. split; [reflexivity|]. split; [intros ->; exact Hr|]. split; [lia|]. split; [discriminate|]. intros _ Hfew Hsep. destruct r; [reflexivity|now destruct Hr|]. now destruct (few_sub_sums max_combs ws (S e) (few_sums_skipn _ _ _ Hfew) n). }
    destruct Hdec as (r & -> & D1 & D2 & D3 & D4). cbn [obind]. rewrite E. cbn [obind fst snd].
    assert (Hno : r <> CYes -> forall e', In e' (e :: pots) -> e' = e \/ In e' pots) by (intros _ e' [<-|H]; auto).
    destruct r as [| |n].
    + exists (e :: ends), warns. split; [reflexivity|]. split; [constructor; [exact I1|]; apply Forall_forall; intros e' H; apply Hlt, I2, H|]. split; [intros e' [<-|H]; [now left|right; now apply I2]|].
      split; [intros e' [<-|H]; [now apply D1|now apply I3]|]. split; [intros e' [<-|H] H'; [now left|right; now apply I4]|]. split; [intros Ea e' [<-|H]; [now apply D3|now apply I5]|].
      intros Ea Hf e' [<-|H] H'; [now left|right; now apply I6].
    + exists ends, warns. split; [reflexivity|]. split; [exact I1|]. split; [intros e' H; right; now apply I2|]. split; [exact I3|]. split; [intros e' [<-|H] H'; [now specialize (D2 H')|now apply I4]|]. split; [exact I5|].
      intros Ea Hf e' [<-|H] H'; [now specialize (D4 Ea Hf H')|now apply I6].
    + eexists ends, _. split; [reflexivity|]. split; [exact I1|]. split; [intros e' H; right; now apply I2|]. split; [exact I3|]. split; [intros e' [<-|H] H'; [now specialize (D2 H')|now apply I4]|]. split; [exact I5|].
      intros Ea Hf e' [<-|H] H'; [now specialize (D4 Ea Hf H')|now apply I6].
Qed.
End Loop.

(** *** Without generalization *)

(** A position after which the weight grows *)
Definition grows (ws : list nat) (e : nat) : Prop := exists u v, nth_error ws e = Some u /\ nth_error ws (S e) = Some v /\ u < v.
Lemma bmo_loop_spec xs : StronglySorted le (weights xs) -> forall suf pre ends m, xs = pre ++ suf ->
  match pre with [] => match suf with x :: _ => m = snd x | [] => True end | _ => nth_error (weights pre) (List.length pre - 1) = Some m end ->
  StronglySorted lt ends -> (forall e, In e ends <-> S e < List.length pre /\ grows (weights xs) e) -> (forall e, In e ends -> pot xs e) ->
  let r := bmo_loop (List.length pre) m (list_sum (weights pre)) ends suf in
  (r = [] /\ exists e, grows (weights xs) e /\ ~ pot xs e) \/ (StronglySorted lt r /\ (forall e, In e r <-> grows (weights xs) e) /\ forall e, In e r -> pot xs e).
Proof.
  intros Hsorted. induction suf as [|[c w] suf IH]; intros pre ends m E Hm Hs He Hp; cbn [bmo_loop].
  - right. rewrite app_nil_r in E. subst pre. split; [exact Hs|]. split; [|exact Hp]. intros e. rewrite He. split; [now intros [_ H]|]. intros H. split; [|exact H]. destruct H as (u & v & _ & H & _).
    assert (S e < List.length (weights xs)) by (apply nth_error_Some; congruence). unfold weights in *. now rewrite map_length in *.
  - assert (Ex : xs = (pre ++ [(c, w)]) ++ suf) by (rewrite <- app_assoc; exact E). assert (Hlen : List.length (pre ++ [(c, w)]) = S (List.length pre)) by (rewrite app_length; cbn; lia).
    assert (Hw : nth_error (weights xs) (List.length pre) = Some w). { rewrite E. unfold weights. rewrite map_app, nth_error_app2; rewrite map_length; [|lia]. now rewrite Nat.sub_diag. }
    assert (Hsum : list_sum (weights (pre ++ [(c, w)])) = list_sum (weights pre) + w) by (unfold weights; rewrite map_app, list_sum_app; cbn; lia).
    assert (Hpre : prefix_sum (weights xs) (List.length pre) = list_sum (weights pre)).
    { unfold prefix_sum. rewrite E. unfold weights. rewrite map_app, firstn_app, map_length, Nat.sub_diag. cbn [firstn]. rewrite app_nil_r. f_equal. apply firstn_all2. rewrite map_length. lia. }
    assert (Hlast : pre <> [] -> exists k, List.length pre = S k /\ nth_error (weights xs) k = Some m).
    { intros Hne. destruct pre as [|x pre]; [easy|]. cbn [List.length] in *. exists (List.length pre). split; [reflexivity|]. replace (S (List.length pre) - 1) with (List.length pre) in Hm by lia.
      rewrite E. unfold weights. rewrite map_app, nth_error_app1; [exact Hm|]. rewrite map_length. cbn. lia. }
    assert (Hm' : nth_error (weights (pre ++ [(c, w)])) (List.length (pre ++ [(c, w)]) - 1) = Some w). { rewrite Hlen. unfold weights. rewrite map_app, nth_error_app2; rewrite map_length; [|lia]. replace (S (List.length pre) - 1 - List.length pre) with 0 by lia. reflexivity. }
    destruct (Nat.ltb_spec m w) as [Hlt|Hge].
    + destruct pre as [|x0 pre0]; [cbn in Hm; lia|]. destruct (Hlast ltac:(discriminate)) as (k & Hk & Ek). set (pre := x0 :: pre0) in *.
      assert (Hg : grows (weights xs) k) by (exists m, w; rewrite <- Hk; auto).
      destruct (Nat.leb_spec w (list_sum (weights pre))) as [Hb|Hb].
      * left. split; [reflexivity|]. exists k. split; [exact Hg|]. intros (v & Hv & Hb'). rewrite <- Hk in Hv, Hb'. rewrite Hw in Hv. injection Hv as <-. lia.
      * specialize (IH (pre ++ [(c, w)]) (ends ++ [List.length pre - 1]) w Ex). rewrite Hlen, Hsum in IH. apply IH.
        -- unfold pre at 1. cbn [app]. rewrite Hlen in Hm'. exact Hm'.
        -- clear - Hs He. induction ends as [|y l IHl]; [repeat constructor|]. cbn [app]. inversion Hs; subst. 
           assert (G : forall z, In z (y :: l) -> z < List.length pre - 1) by (intros z Hz; apply He in Hz as [Hz _]; lia).
           constructor; [|apply Forall_app; split; [assumption|repeat constructor; apply G; now left]].
           assert (Q : forall l', StronglySorted lt l' -> (forall z, In z l' -> z < List.length pre - 1) -> StronglySorted lt (l' ++ [List.length pre - 1])).
           { clear. induction l' as [|z l' IHl']; intros H1 H2; [repeat constructor|]. inversion H1; subst. cbn [app]. constructor; [apply IHl'; [assumption|intros; apply H2; now right]|]. apply Forall_app. split; [assumption|]. repeat constructor. apply H2. now left. }
           apply Q; [assumption|]. intros z Hz. apply G. now right.
        -- intros e. rewrite in_app_iff. cbn [In]. rewrite He. split.
           ++ intros [[H1 H2]|[<-|[]]]; [split; [lia|exact H2]|]. replace (List.length pre - 1) with k by lia. split; [lia|exact Hg].
           ++ intros [H1 H2]. destruct (Nat.eq_dec (S e) (List.length pre)) as [Heq|Hne]; [right; left; lia|left; split; [lia|exact H2]].
        -- intros e H. apply in_app_iff in H as [H|[<-|[]]]; [now apply Hp|]. replace (List.length pre - 1) with k by lia. exists w. rewrite <- Hk. split; [exact Hw|]. rewrite Hpre. exact Hb.
    + specialize (IH (pre ++ [(c, w)]) ends m Ex). rewrite Hlen, Hsum in IH. apply IH; [|exact Hs| |exact Hp].
      * destruct pre as [|x0 pre0]; [cbn in *; now subst|]. destruct (Hlast ltac:(discriminate)) as (k & Hk & Ek). pose proof (sorted_nth _ Hsorted k (List.length (x0 :: pre0)) m w ltac:(lia) Ek Hw). assert (m = w) by lia. subst m.
        cbn [app] in *. rewrite Hlen in Hm'. exact Hm'.
      * intros e. rewrite He. split; [intros [H1 H2]; split; [lia|exact H2]|]. intros [H1 H2]. split; [|exact H2]. destruct (Nat.eq_dec (S e) (List.length pre)) as [Heq|Hne]; [|lia]. exfalso.
        destruct H2 as (u & v & Hu & Hv & Huv). rewrite Heq, Hw in Hv. injection Hv as <-. destruct pre as [|x0 pre0]; [cbn in Heq; lia|]. destruct (Hlast ltac:(discriminate)) as (k & Hk & Ek).
        assert (k = e) by lia. subst k. rewrite Hu in Ek. injection Ek as ->. lia.
Qed.
