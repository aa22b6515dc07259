(** * The tool that splits objectives: statistics, whole instances and files (Gbmo.v) *)

From Coq Require Import List Bool NArith ZArith Arith Lia Permutation Sorted.
From Coq Require Import ZifyBool ZifyNat ZifyN.
From Verif Require Import Spec Types Base Constraints ConstrEnc Maps NodeDb Inst InstSpec InstProofs Opt OptSpec OptProofs OptConv Text FioSpec Dimacs DimacsSpec DimacsProofs Opb OpbSpec Tools ToolSpec ToolText ToolConv ToolOpb SplitSpec Gbmo GbmoProofs GbmoCheck GbmoSplit GbmoLex.
Import ListNotations.
Open Scope list_scope.
Local Open Scope nat_scope.

(** ** The soft clauses of an objective made from soft clauses *)

Lemma gadd_new {K} (keqb : K -> K -> bool) (E : forall x y, keqb x y = true <-> x = y) m k w : ~ In k (map fst m) -> gadd keqb m k w = m ++ [(k, w)].
Proof.
  induction m as [|[j y] m IH]; intros H; cbn [gadd app]; [reflexivity|]. destruct (keqb j k) eqn:Ej; [apply E in Ej; exfalso; apply H; now left|]. f_equal. apply IH. intros Hi. apply H. now right.
Qed.
Lemma gadds_new {K} (keqb : K -> K -> bool) (E : forall x y, keqb x y = true <-> x = y) w ks : forall m, NoDup (map fst m ++ ks) -> fold_left (fun m k => gadd keqb m k w) ks m = m ++ map (fun k => (k, w)) ks.
Proof.
  induction ks as [|k ks IH]; intros m H; cbn [fold_left map]; [now rewrite app_nil_r|]. rewrite gadd_new; [|exact E|].
  - rewrite IH; [now rewrite <- app_assoc|]. rewrite map_app. cbn [map fst]. now rewrite <- app_assoc.
  - intros Hin. apply NoDup_remove_2 in H. apply H. apply in_or_app. now left.
Qed.
Lemma soft_keys o : map fst (soft_list o) = map (fun l => [neg l]) (map fst (obj_lits o)) ++ map fst (obj_cls o).
Proof. unfold soft_list. rewrite map_app, !map_map. reflexivity. Qed.
Lemma neg_units_nodup ls : NoDup (map (fun l => [neg l]) ls) -> NoDup ls.
Proof. apply NoDup_map_inv. Qed.
Lemma nodup_app_l {A} (l r : list A) : NoDup (l ++ r) -> NoDup l /\ NoDup r.
Proof. induction l as [|x l IH]; intros H; [split; [constructor|exact H]|]. cbn [app] in H. inversion H; subst. destruct IH; [assumption|]. split; [|assumption]. constructor; [|assumption]. intros Hx. apply H2. apply in_or_app. now left. Qed.
Lemma u2w_same o : NoDup (map fst (soft_list o)) -> (forall z u ls cs, o = OUnweighted z u ls cs -> u = None -> ls = [] /\ cs = []) -> obj_lits (unweighted_2_weighted o) = obj_lits o /\ obj_cls (unweighted_2_weighted o) = obj_cls o.
Proof.
  intros Hnd Hn. destruct o as [z ls cs|z [w|] ls cs]; [now split| |destruct (Hn _ _ _ _ eq_refl eq_refl) as [-> ->]; now split]. rewrite soft_keys in Hnd. apply nodup_app_l in Hnd as [N1 N2]. apply neg_units_nodup in N1.
  cbn [obj_lits obj_cls or_zero] in N1, N2. rewrite map_map in N1, N2. cbn [fst] in N1, N2. rewrite map_id in N1, N2. cbn [unweighted_2_weighted obj_lits obj_cls or_zero].
  rewrite (gadds_new lit_eqb lit_eqb_eq w ls []), (gadds_new clause_eqb clause_eqb_eq' w cs []) by assumption. now split.
Qed.

Definition none_empty (o : obj) : Prop := forall z u ls cs, o = OUnweighted z u ls cs -> u = None -> ls = [] /\ cs = [].
Lemma increase_soft_new w c o : 0 < w -> none_empty o -> NoDup (map fst (soft_list o)) -> ~ In c (map fst (soft_list o)) ->
  none_empty (increase_soft_clause w c o) /\ Permutation (soft_list (increase_soft_clause w c o)) ((c, w) :: soft_list o).
Proof.
  intros Hw Hn Hnd Hc. rewrite soft_keys in Hc. destruct (u2w_same o Hnd Hn) as [U1 U2].
  assert (Hl : forall l, c = [l] -> ~ In (neg l) (map fst (obj_lits o))) by (intros l -> Hin; apply Hc; apply in_or_app; left; apply in_map_iff; exists (neg l); split; [destruct l as [v []]; reflexivity|exact Hin]).
  assert (Hcc : ~ In c (map fst (obj_cls o))) by (intros Hin; apply Hc; apply in_or_app; now right).
  assert (Elit : forall z ls cs l, c = [l] -> obj_lits (OWeighted z ls cs) = obj_lits o -> obj_cls (OWeighted z ls cs) = obj_cls o -> Permutation (soft_list (OWeighted z (gadd lit_eqb ls (neg l) w) cs)) ((c, w) :: soft_list o)).
  { intros z ls cs l E E1 E2. cbn [obj_lits obj_cls] in E1, E2. unfold soft_list. cbn [obj_lits obj_cls]. rewrite gadd_new; [|exact lit_eqb_eq|rewrite E1; now apply Hl]. rewrite map_app, <- app_assoc, E1, E2. cbn [map app fst snd]. rewrite E.
    replace (neg (neg l)) with l by (destruct l as [v []]; reflexivity). symmetry. apply Permutation_middle. }
  assert (Ecls : forall z ls cs, obj_lits (OWeighted z ls cs) = obj_lits o -> obj_cls (OWeighted z ls cs) = obj_cls o -> Permutation (soft_list (OWeighted z ls (gadd clause_eqb cs c w))) ((c, w) :: soft_list o)).
  { intros z ls cs E1 E2. cbn [obj_lits obj_cls] in E1, E2. unfold soft_list. cbn [obj_lits obj_cls]. rewrite gadd_new; [|exact clause_eqb_eq'|rewrite E2; exact Hcc]. rewrite E1, E2, app_assoc. symmetry. apply Permutation_cons_append. }
  assert (Ulit : forall z ls cs l, c = [l] -> Permutation (soft_list (OUnweighted z (Some w) (ls ++ [neg l]) cs)) ((c, w) :: soft_list (OUnweighted z (Some w) ls cs))).
  { intros z ls cs l ->. unfold soft_list. cbn [obj_lits obj_cls or_zero]. rewrite !map_app. cbn [map fst snd]. rewrite <- app_assoc. cbn [app]. replace (neg (neg l)) with l by (destruct l as [v []]; reflexivity). symmetry. apply Permutation_middle. }
  assert (Ucls : forall z ls cs, Permutation (soft_list (OUnweighted z (Some w) ls (cs ++ [c]))) ((c, w) :: soft_list (OUnweighted z (Some w) ls cs))).
  { intros z ls cs. unfold soft_list. cbn [obj_lits obj_cls or_zero]. rewrite (map_app (fun c => (c, w)) cs). cbn [map]. rewrite app_assoc. symmetry. apply Permutation_cons_append. }
  unfold increase_soft_clause, increase_soft_lit. destruct (Nat.eqb_spec w 0); [lia|].
  destruct o as [z ls cs|z [u|] ls cs].
  - destruct c as [|l [|l' c]]; (split; [now intros ? ? ? ?|]); [now apply Ecls|now apply Elit|now apply Ecls].
  - cbn [unweighted_2_weighted] in U1, U2 |- *. destruct (Nat.eqb_spec w u) as [<-|]; destruct c as [|l [|l' c]]; (split; [now intros ? ? ? ? [= <- <- <- <-]|]); first [apply Ucls|now apply Ulit|now apply Ecls|now apply Elit].
  - destruct (Hn _ _ _ _ eq_refl eq_refl) as [-> ->]. destruct c as [|l [|l' c]]; (split; [now intros ? ? ? ? [= <- <- <- <-]|]); [exact (Ucls z [] [])|exact (Ulit z [] [] l eq_refl)|exact (Ucls z [] [])].
Qed.
Lemma from_cls_perm xs : Forall (fun w => 0 < w) (weights xs) -> NoDup (map fst xs) -> Permutation (soft_list (obj_from_cls xs)) xs.
Proof.
  unfold obj_from_cls. assert (H : forall xs o, none_empty o -> Forall (fun w => 0 < w) (weights xs) -> NoDup (map fst (soft_list o) ++ map fst xs) ->
    Permutation (soft_list (fold_left (fun o e => increase_soft_clause (snd e) (fst e) o) xs o)) (soft_list o ++ xs)).
  { clear xs. induction xs as [|[c w] xs IH]; intros o Hn Hp Hnd; cbn [fold_left fst snd]; [now rewrite app_nil_r|]. cbn [weights map snd] in Hp. inversion Hp; subst. cbn [map fst] in Hnd.
    destruct (nodup_app_l _ _ Hnd) as [N1 _]. assert (Hc : ~ In c (map fst (soft_list o))). { apply NoDup_remove_2 in Hnd. intros Hin. apply Hnd. apply in_or_app. now left. }
    destruct (increase_soft_new w c o H1 Hn N1 Hc) as [I1 I2]. rewrite IH; [|exact I1|exact H2|].
    - rewrite I2. cbn [app]. apply Permutation_middle.
    - eapply Permutation_NoDup; [|exact Hnd]. rewrite (Permutation_map fst I2). cbn [map fst]. symmetry. cbn [app]. apply Permutation_middle. }
  intros Hp Hnd. apply (H xs obj_new); [intros ? ? ? ? [= <- <- <- <-]; now split|exact Hp|exact Hnd].
Qed.
Lemma soft_nodup o : obj_wf o -> obj_weighted o = true -> NoDup (map fst (soft_list o)).
Proof.
  intros (H1 & H2 & H3) Hw. rewrite soft_keys. destruct o as [z ls cs|]; [|discriminate]. destruct H3 as [N1 N2]. cbn [obj_lits obj_cls] in *. apply NoDup_app_intro; [| exact N2|].
  - apply FinFun.Injective_map_NoDup; [|exact N1]. intros [v b] [v' b'] [= E1 E2]. apply (f_equal negb) in E2. rewrite !negb_involutive in E2. congruence.
  - intros c Hc Hc'. apply in_map_iff in Hc as (l & <- & _). apply in_map_iff in Hc' as ([c w] & E & Hin). cbn [fst] in E. subst c. destruct (H2 _ _ Hin) as [_ Hl]. now apply Hl.
Qed.

(** ** The numbers and weights of soft clauses *)

Lemma max_of_spec ws : (forall w, In w ws -> w <= max_of ws) /\ (ws <> [] -> In (max_of ws) ws \/ max_of ws = 0).
Proof.
  unfold max_of. assert (H : forall ws s, s <= fold_left (fun s w => if s <? w then w else s) ws s /\ (forall w, In w ws -> w <= fold_left (fun s w => if s <? w then w else s) ws s) /\
    (fold_left (fun s w => if s <? w then w else s) ws s = s \/ In (fold_left (fun s w => if s <? w then w else s) ws s) ws)).
  { clear ws. induction ws as [|w ws IH]; intros s; cbn [fold_left]; [split; [lia|split; [intros ? []|now left]]|]. destruct (IH (if s <? w then w else s)) as (I1 & I2 & I3). destruct (Nat.ltb_spec s w) as [Hlt|Hge].
    - split; [lia|]. split; [intros v [<-|Hv]; [exact I1|now apply I2]|]. right. destruct I3 as [->|I3]; [now left|now right].
    - split; [exact I1|]. split; [intros v [<-|Hv]; [lia|now apply I2]|]. destruct I3 as [I3|I3]; [now left|right; now right]. }
  destruct (H ws 0) as (_ & H2 & H3). split; [exact H2|]. intros _. tauto.
Qed.
Lemma min_of_spec ws : (forall w, In w ws -> (min_of ws <= N.of_nat w)%N) /\ (min_of ws = usize_max \/ exists w, In w ws /\ min_of ws = N.of_nat w).
Proof.
  unfold min_of. assert (H : forall ws s, let r := fold_left (fun s w => if (N.of_nat w <? s)%N then N.of_nat w else s) ws s in
    (r <= s)%N /\ (forall w, In w ws -> (r <= N.of_nat w)%N) /\ (r = s \/ exists w, In w ws /\ r = N.of_nat w)).
  { clear ws. induction ws as [|w ws IH]; intros s; cbn [fold_left]; [split; [lia|split; [intros ? []|now left]]|]. destruct (IH (if (N.of_nat w <? s)%N then N.of_nat w else s)) as (I1 & I2 & I3). cbv zeta in *.
    destruct (N.ltb_spec (N.of_nat w) s) as [Hlt|Hge].
    - split; [lia|]. split; [intros v [<-|Hv]; [exact I1|now apply I2]|]. right. destruct I3 as [->|(v & Hv & E)]; [exists w; split; [now left|reflexivity]|exists v; split; [now right|exact E]].
    - split; [exact I1|]. split; [intros v [<-|Hv]; [lia|now apply I2]|]. destruct I3 as [I3|(v & Hv & E)]; [now left|right; exists v; split; [now right|exact E]]. }
  destruct (H ws usize_max) as (_ & H2 & H3). now split.
Qed.
Lemma weights_soft o : weights (soft_list o) = map snd (obj_lits o) ++ map snd (obj_cls o).
Proof. unfold weights, soft_list. rewrite map_app, map_map. reflexivity. Qed.
(** The largest weight of an objective *)
Lemma max_weight_spec o : obj_wf o -> soft_list o <> [] -> In (obj_max_weight o) (weights (soft_list o)) /\ forall w, In w (weights (soft_list o)) -> w <= obj_max_weight o.
Proof.
  intros Hwf Hne. rewrite weights_soft. destruct o as [z ls cs|z u ls cs].
  - unfold obj_max_weight, obj_max_lit_weight, obj_max_clause_weight. cbn [obj_lits obj_cls]. destruct (max_of_spec (map snd ls)) as [L1 L2], (max_of_spec (map snd cs)) as [C1 C2].
    assert (Hle : forall w, In w (map snd ls ++ map snd cs) -> w <= Nat.max (max_of (map snd ls)) (max_of (map snd cs))) by (intros w Hw; apply in_app_or in Hw as [Hw|Hw]; [apply L1 in Hw|apply C1 in Hw]; lia).
    split; [|exact Hle].
    assert (Hpos : forall w, In w (map snd ls ++ map snd cs) -> 0 < w). { destruct Hwf as (W1 & W2 & _). intros w Hw. apply in_app_or in Hw as [Hw|Hw]; apply in_map_iff in Hw as ([k x] & <- & Hin); [now apply (W1 k)|now apply (W2 k)]. }
    assert (Hn : exists w, In w (map snd ls ++ map snd cs)). { unfold soft_list in Hne. cbn [obj_lits obj_cls] in Hne. destruct ls as [|[l w] ls]; [destruct cs as [|[c w] cs]; [easy|exists w; now left]|exists w; now left]. }
    destruct Hn as (w & Hw). pose proof (Hle w Hw). pose proof (Hpos w Hw). apply in_or_app.
    destruct (Nat.max_spec (max_of (map snd ls)) (max_of (map snd cs))) as [[Hm ->]|[Hm ->]].
    + right. destruct cs as [|e cs]; [cbn in Hm; lia|]. destruct C2 as [C2|C2]; [discriminate|exact C2|lia].
    + left. destruct ls as [|e ls]; [cbn in *; destruct cs as [|e cs]; [destruct Hw|]; destruct C2 as [C2|C2]; [discriminate| |]; [pose proof (Hpos _ C2); lia|cbn in *; lia]|]. destruct L2 as [L2|L2]; [discriminate|exact L2|]. lia.
  - unfold obj_max_weight, obj_max_lit_weight, obj_max_clause_weight. rewrite Nat.max_id. cbn [obj_lits obj_cls]. rewrite !map_map. cbn [snd]. unfold soft_list in Hne. cbn [obj_lits obj_cls] in Hne.
    split; [destruct ls as [|l ls]; [destruct cs as [|c cs]; [easy|now left]|now left]|]. intros w Hw. apply in_app_or in Hw as [Hw|Hw]; apply in_map_iff in Hw as (? & <- & _); lia.
Qed.
(** The smallest weight of an objective *)
Lemma min_weight_spec o : soft_list o <> [] -> (forall w, In w (weights (soft_list o)) -> (N.of_nat w <= usize_max)%N) ->
  (exists w, In w (weights (soft_list o)) /\ obj_min_weight o = N.of_nat w) /\ forall w, In w (weights (soft_list o)) -> (obj_min_weight o <= N.of_nat w)%N.
Proof.
  intros Hne. rewrite weights_soft. destruct o as [z ls cs|z u ls cs]; intros Hus.
  - unfold obj_min_weight, obj_min_lit_weight, obj_min_clause_weight. cbn [obj_lits obj_cls] in *. destruct (min_of_spec (map snd ls)) as [L1 L2], (min_of_spec (map snd cs)) as [C1 C2].
    assert (Hle : forall w, In w (map snd ls ++ map snd cs) -> (N.min (min_of (map snd ls)) (min_of (map snd cs)) <= N.of_nat w)%N) by (intros w Hw; apply in_app_or in Hw as [Hw|Hw]; [apply L1 in Hw|apply C1 in Hw]; lia).
    split; [|exact Hle].
    assert (Hn : exists w, In w (map snd ls ++ map snd cs)). { unfold soft_list in Hne. cbn [obj_lits obj_cls] in Hne. destruct ls as [|[l w] ls]; [destruct cs as [|[c w] cs]; [easy|exists w; now left]|exists w; now left]. }
    destruct Hn as (w & Hw). pose proof (Hle w Hw) as Hlew. pose proof (Hus w Hw) as Husw.
    destruct L2 as [EL|(wl & Hl & EL)], C2 as [EC|(wc & Hc & EC)]; rewrite EL, EC in *.
    + exists w. split; [exact Hw|]. lia.
    + exists wc. split; [apply in_or_app; now right|]. pose proof (Hus wc ltac:(apply in_or_app; now right)). lia.
    + exists wl. split; [apply in_or_app; now left|]. pose proof (Hus wl ltac:(apply in_or_app; now left)). lia.
    + destruct (N.le_ge_cases (N.of_nat wl) (N.of_nat wc)); [exists wl|exists wc]; (split; [apply in_or_app; auto|lia]).
  - unfold obj_min_weight, obj_min_lit_weight, obj_min_clause_weight. rewrite N.min_id. cbn [obj_lits obj_cls]. rewrite !map_map. cbn [snd]. unfold soft_list in Hne. cbn [obj_lits obj_cls] in Hne.
    split; [exists (or_zero u); split; [|reflexivity]; destruct ls as [|l ls]; [destruct cs as [|c cs]; [easy|now left]|now left]|]. intros w Hw. apply in_app_or in Hw as [Hw|Hw]; apply in_map_iff in Hw as (? & <- & _); lia.
Qed.
Lemma n_softs_spec o : obj_n_softs o = List.length (soft_list o) /\ obj_weight_sum o = list_sum (weights (soft_list o)).
Proof.
  rewrite weight_sum_eq, weights_soft, list_sum_app. split; [|reflexivity]. unfold soft_list. rewrite app_length, map_length. destruct o; cbn [obj_lits obj_cls]; rewrite ?map_length; reflexivity.
Qed.

(** ** Parts *)

Lemma scale_keys g xs : map fst (scale g xs) = map fst xs.
Proof. unfold scale. rewrite map_map. reflexivity. Qed.
Lemma scale_weights g xs : weights (scale g xs) = map (fun w => w / g) (weights xs).
Proof. unfold scale, weights. rewrite !map_map. reflexivity. Qed.
Lemma list_sum_scale g ws : 0 < g -> (forall w, In w ws -> Nat.divide g w) -> g * list_sum (map (fun w => w / g) ws) = list_sum ws.
Proof.
  intros Hg. induction ws as [|w ws IH]; intros H; cbn [map list_sum fold_right]; [lia|]. fold (list_sum ws) (list_sum (map (fun w => w / g) ws)). rewrite Nat.mul_add_distr_l, IH by (intros; apply H; now right). f_equal.
  destruct (H w (or_introl eq_refl)) as [k ->]. rewrite Nat.div_mul by lia. lia.
Qed.
Lemma part_stats p r : p <> [] -> Forall (fun w => 0 < w) (weights p) -> NoDup (map fst p) -> (forall w, In w (weights p) -> (N.of_nat w <= usize_max)%N) -> part_result p r ->
  describes p (s_n_softs (snd r)) (s_weight_sum (snd r)) (s_min_weight (snd r)) (s_max_weight (snd r)) (s_multiplier (snd r)).
Proof.
  intros Hne Hp Hnd Hus ->. cbn [snd stats_of s_n_softs s_weight_sum s_min_weight s_max_weight s_multiplier]. set (g := gcd_of (weights p)).
  assert (Hg : 0 < g) by (apply gcd_of_pos; [destruct p; [easy|discriminate]|assumption]).
  assert (Hdiv : forall w, In w (weights p) -> w = g * (w / g)). { intros w Hw. destruct (gcd_of_divide _ _ Hw) as [k Hk]. fold g in Hk. rewrite Hk at 2. rewrite Nat.div_mul by lia. lia. }
  assert (Hsp : Forall (fun w => 0 < w) (weights (scale g p))). { rewrite scale_weights. apply Forall_map, Forall_forall. intros w Hw. rewrite Forall_forall in Hp. specialize (Hp w Hw). specialize (Hdiv w Hw). destruct (w / g); lia. }
  pose proof (from_cls_perm (scale g p) Hsp ltac:(rewrite scale_keys; exact Hnd)) as P. set (o := obj_from_cls (scale g p)) in *.
  assert (Pw : Permutation (weights (soft_list o)) (map (fun w => w / g) (weights p))) by (rewrite <- scale_weights; apply Permutation_map, P).
  assert (Hso : soft_list o <> []). { intros E. rewrite E in P. apply Permutation_nil in P. destruct p; [easy|discriminate]. }
  assert (Hin : forall x, In x (weights (soft_list o)) <-> exists w, In w (weights p) /\ x = w / g). { intros x. split; [intros H; apply (Permutation_in _ Pw) in H; apply in_map_iff in H as (w & <- & Hw); eauto|]. intros (w & Hw & ->). apply (Permutation_in _ (Permutation_sym Pw)). now apply (in_map (fun w => w / g)). }
  destruct (n_softs_spec o) as [En Es]. destruct (max_weight_spec o (proj1 (from_cls_spec _)) Hso) as [M1 M2]. destruct (min_weight_spec o Hso) as [(m & Hm & Em) Mle].
  { intros w Hw. apply Hin in Hw as (v & Hv & ->). specialize (Hus v Hv). pose proof (Nat.div_le_upper_bound v g v ltac:(lia) ltac:(nia)). lia. }
  split; [rewrite En, (Permutation_length P); unfold scale; now rewrite map_length|]. split; [rewrite Es, (list_sum_perm _ _ Pw); apply list_sum_scale; [exact Hg|intros w; apply gcd_of_divide]|]. split; [reflexivity|].
  split; [|split; [|split]].
  - apply Hin in Hm as (w & Hw & ->). exists w. split; [exact Hw|]. rewrite Em, <- Nat2N.inj_mul. f_equal. symmetry. now apply Hdiv.
  - intros w Hw. pose proof (Mle (w / g) ltac:(apply Hin; eauto)) as H. rewrite (Hdiv w Hw). rewrite Nat2N.inj_mul. now apply N.mul_le_mono_l.
  - apply Hin in M1 as (w & Hw & ->). rewrite <- Hdiv by exact Hw. exact Hw.
  - intros w Hw. pose proof (M2 (w / g) ltac:(apply Hin; eauto)). rewrite (Hdiv w Hw). now apply Nat.mul_le_mono_l.
Qed.

Lemma part_perm p r : p <> [] -> Forall (fun w => 0 < w) (weights p) -> NoDup (map fst p) -> part_result p r -> Permutation (soft_list (fst r)) (scale (s_multiplier (snd r)) p).
Proof.
  intros Hne Hp Hnd Hr. unfold part_result in Hr. subst r. cbn [fst snd stats_of s_multiplier]. set (g := gcd_of (weights p)). assert (Hg : 0 < g) by (apply gcd_of_pos; [destruct p; [easy|discriminate]|assumption]). apply from_cls_perm; [|now rewrite scale_keys].
  rewrite scale_weights. apply Forall_map, Forall_forall. intros w Hw. rewrite Forall_forall in Hp. specialize (Hp w Hw). destruct (gcd_of_divide _ _ Hw) as [k Hk]. fold g in Hk. rewrite Hk, Nat.div_mul by lia. destruct k; lia.
Qed.

(** ** Instances *)

Lemma set_last_spec z os : os <> [] -> exists l o, os = l ++ [o] /\ set_last_offset z os = Some (l ++ [obj_set_offset z o]).
Proof.
  induction os as [|o os IH]; intros H; [easy|]. destruct os as [|o' os]; [exists [], o; split; reflexivity|]. destruct IH as (l & x & E1 & E2); [discriminate|]. exists (o :: l), x. split; [now rewrite E1|].
  change (obind (set_last_offset z (o' :: os)) (fun r => Some (o :: r)) = Some (o :: (l ++ [obj_set_offset z x]))). now rewrite E2.
Qed.
Lemma compose_holds a os : forall c, inst_holds a (mo_constrs (mopt_compose c os)) <-> inst_holds a c.
Proof.
  unfold mopt_compose. cbn [mo_constrs]. induction os as [|o os IH]; intros c; cbn [fold_left]; [easy|]. rewrite IH. unfold raise_max. destruct (obj_max_var o); reflexivity.
Qed.

(** What is known of the objectives for some parts *)
Definition objectives_of (ob : obj) (parts : list (list (clause * nat))) (sts : list ostats) (os : list obj) : Prop :=
  List.length sts = List.length os /\ Forall2 (fun p x => scaled_obj p (s_multiplier (fst x)) (snd x)) parts (combine sts os) /\
  Forall2 (fun p st => (forall w, In w (weights p) -> (N.of_nat w <= usize_max)%N) -> describes p (s_n_softs st) (s_weight_sum st) (s_min_weight st) (s_max_weight st) (s_multiplier st)) parts sts /\
  map obj_offset os = repeat 0%Z (List.length os - 1) ++ [obj_offset ob] /\ Forall obj_wf os.

Section Split.
Variables (lord : list (lit * nat) -> list (lit * nat)) (cord : list (clause * nat) -> list (clause * nat)) (srt : list (clause * nat) -> list (clause * nat)).
Hypothesis (Hord : orders lord cord) (Hsrt : sorts srt).

Lemma length_forall2 {A B} (R : A -> B -> Prop) l l' : Forall2 R l l' -> List.length l = List.length l'.
Proof. induction 1; cbn; congruence. Qed.
Lemma forall2_app_inv {A B} (R : A -> B -> Prop) l x l' : Forall2 R (l ++ [x]) l' -> exists r y, l' = r ++ [y] /\ Forall2 R l r /\ R x y.
Proof. intros H. apply Forall2_app_inv_l in H as (r & r' & H1 & H2 & ->). inversion H2 as [|? y ? ? H3 H4]; subst. inversion H4; subst. eauto. Qed.

Lemma rs_snoc {A B} (rs : list (A * B)) l o : map fst rs = l ++ [o] -> exists rs0 st, rs = rs0 ++ [(o, st)] /\ map fst rs0 = l.
Proof.
  revert l. induction rs as [|[x s] rs IH]; intros l E; [destruct l; discriminate|]. destruct l as [|y l]; cbn [map fst app] in E.
  - injection E as -> E. apply map_eq_nil in E as ->. exists [], s. now split.
  - injection E as -> E. destruct (IH l E) as (rs0 & st & -> & <-). exists ((y, s) :: rs0), st. now split.
Qed.
Lemma combine_app_eq {A B} (l : list A) (l' : list B) r r' : List.length l = List.length l' -> combine (l ++ r) (l' ++ r') = combine l l' ++ combine r r'.
Proof. revert l'. induction l as [|x l IH]; intros [|y l'] H; try discriminate; [reflexivity|]. cbn. f_equal. apply IH. now injection H. Qed.
Lemma map_fst_combine_eq {A B} (l : list A) (l' : list B) : List.length l = List.length l' -> map fst (combine l l') = l.
Proof. revert l'. induction l as [|x l IH]; intros [|y l'] H; try discriminate; [reflexivity|]. cbn. f_equal. apply IH. now injection H. Qed.
Lemma map_snd_combine_eq {A B} (l : list A) (l' : list B) : List.length l = List.length l' -> map snd (combine l l') = l'.
Proof. revert l'. induction l as [|x l IH]; intros [|y l'] H; try discriminate; [reflexivity|]. cbn. f_equal. apply IH. now injection H. Qed.
(** from the parts of a sorted list to objectives *)
Lemma objectives_spec ob xs rs parts os : obj_wf ob -> obj_weighted ob = true -> Permutation xs (soft_list ob) -> xs <> [] -> Forall (fun w => 0 < w) (weights xs) -> splits_well xs rs parts ->
  set_last_offset (obj_offset ob) (map fst rs) = Some os ->
  divided (soft_list ob) parts /\ objectives_of ob parts (map snd rs) os /\ lexicographic (fun a => obj_value a ob) (fun a => map (obj_value a) os) /\ List.length os = List.length parts.
Proof.
  intros Hwf Hw P Hne Hpos (Hc & Hn & Ho & Hf & Hd) Hos.
  assert (Hlen : List.length parts = List.length rs) by (eapply length_forall2, Hf).
  assert (Hpp : forall p, In p parts -> Forall (fun w => 0 < w) (weights p)).
  { intros p Hp. rewrite Forall_forall in Hpos |- *. intros w Hwp. apply Hpos. rewrite <- Hc. apply in_map_iff in Hwp as (e & <- & He). apply in_map. apply in_concat. eauto. }
  assert (Hpn : forall p, In p parts -> NoDup (map fst p)).
  { intros p Hp. pose proof (soft_nodup ob Hwf Hw) as N. apply (Permutation_NoDup (Permutation_map fst (Permutation_sym P))) in N. rewrite <- Hc in N. apply in_split in Hp as (l & r & ->). rewrite concat_app in N. cbn [concat] in N. rewrite !map_app in N.
    apply nodup_app_l in N as [_ N]. now apply nodup_app_l in N as [N _]. }
  rewrite Forall_forall in Hn.
  assert (Hsc : Forall2 (fun p r => obj_wf (fst r) /\ scaled_obj p (s_multiplier (snd r)) (fst r) /\ obj_offset (fst r) = 0%Z) parts rs).
  { eapply forall2_impl_in; [|exact Hf]. intros p r Hp _ Hr. destruct (part_result_scaled p r (Hn p Hp) (Hpp p Hp) Hr) as (W & [Sg S] & _ & Of). split; [exact W|]. split; [|exact Of]. split; [exact Sg|]. split; [exact S|].
    now apply part_perm; auto. }
  assert (Hrs : map fst rs <> []). { intros E. apply map_eq_nil in E. rewrite E in Hlen. destruct parts; [cbn in Hc; congruence|discriminate]. }
  destruct (set_last_spec (obj_offset ob) (map fst rs) Hrs) as (l & o & E1 & E2). rewrite E2 in Hos. injection Hos as <-.
  assert (Elen : List.length (l ++ [obj_set_offset (obj_offset ob) o]) = List.length parts) by (rewrite Hlen, <- (map_length fst rs), E1, !app_length; reflexivity).
  destruct (rs_snoc rs l o E1) as (rs0 & st & -> & <-).
  set (os := map fst rs0 ++ [obj_set_offset (obj_offset ob) o]) in *.
  apply Forall2_app_inv_r in Hsc as (ps & pl & S1 & S2 & ->). inversion S2 as [|pp ? ? ? (W & S & Of) S3]; subst. inversion S3; subst. clear S2 S3. cbn [fst snd] in W, S, Of.
  destruct (set_offset_spec (obj_offset ob) o W) as [W' V']. assert (Eo' : obj_offset (obj_set_offset (obj_offset ob) o) = obj_offset ob) by (destruct o; reflexivity).
  assert (S' : scaled_obj pp (s_multiplier st) (obj_set_offset (obj_offset ob) o)). { destruct S as (Hg & S & Sp). split; [exact Hg|]. split; [intros a; rewrite V', Eo', <- S, Of; lia|]. destruct o; exact Sp. }
  assert (F1 : Forall2 (fun p x => scaled_obj p (s_multiplier (fst x)) (snd x)) (ps ++ [pp]) (combine (map snd (rs0 ++ [(o, st)])) os)).
  { unfold os. rewrite map_app. cbn [map snd]. rewrite combine_app_eq by (now rewrite !map_length). cbn [combine]. apply Forall2_app; [|constructor; [exact S'|constructor]].
    clear - S1. induction S1 as [|p [o s] ps rs0 (_ & H & _) _ IH]; cbn; constructor; [exact H|exact IH]. }
  split; [|split; [|split; [|exact Elen]]].
  - split; [exact P|]. split; [now apply Forall_forall|exact Ho].
  - split; [unfold os; rewrite map_length, !app_length, map_length; reflexivity|]. split; [exact F1|]. split; [|split].
    + clear - Hf Hn Hpp Hpn. assert (G : Forall2 (fun p r => (forall w, In w (weights p) -> (N.of_nat w <= usize_max)%N) -> describes p (s_n_softs (snd r)) (s_weight_sum (snd r)) (s_min_weight (snd r)) (s_max_weight (snd r)) (s_multiplier (snd r))) (ps ++ [pp]) (rs0 ++ [(o, st)])).
      { eapply forall2_impl_in; [|exact Hf]. intros p r Hp _ Hr Hus. apply part_stats; auto. }
      revert G. generalize (ps ++ [pp]) (rs0 ++ [(o, st)]). induction 1; cbn; constructor; auto.
    + unfold os. rewrite map_app. cbn [map]. rewrite Eo', app_length. cbn [List.length]. rewrite Nat.add_sub, map_length. f_equal. clear - S1. induction S1 as [|p r ps rs0 (_ & _ & H) _ IH]; cbn; [reflexivity|]. now rewrite H, IH.
    + unfold os. apply Forall_app. split; [|constructor; [exact W'|constructor]]. clear - S1. induction S1 as [|p r ps rs0 (H & _ & _) _ IH]; cbn; constructor; auto.
  - intros a b. pose proof (dominant_lex _ Hd a b) as D.
    assert (Ev : forall c, obj_value c ob = (obj_offset ob + Z.of_nat (cls_cost c (concat (ps ++ [pp]))))%Z).
    { intros c. rewrite (cls_cost_perm c _ _ P). unfold soft_list. rewrite cls_cost_app, (cls_cost_units c fst snd). unfold obj_value. rewrite map_ext with (g := fun x => x) by (now intros []). rewrite map_id. lia. }
    rewrite !Ev. assert (Hz : forall x y, (obj_offset ob + Z.of_nat x < obj_offset ob + Z.of_nat y)%Z <-> x < y) by (intros; lia). rewrite Hz, D. clear D Hz Ev.
    set (zs := combine (ps ++ [pp]) os). assert (Ez1 : map fst zs = ps ++ [pp]) by (apply map_fst_combine_eq; symmetry; exact Elen). assert (Ez2 : map snd zs = os) by (apply map_snd_combine_eq; symmetry; exact Elen).
    rewrite <- Ez1, <- Ez2. symmetry. apply lex_scaled. intros x Hx.
    clear - F1 Hx Elen. unfold zs in Hx. assert (Hl : List.length (map snd (rs0 ++ [(o, st)])) = List.length os) by (unfold os; rewrite map_length, !app_length, map_length; reflexivity).
    revert F1 Hx Hl. generalize (map snd (rs0 ++ [(o, st)])) os (ps ++ [pp]). clear. intros sts os ps. revert os ps. induction sts as [|s sts IH]; intros [|o os] ps F Hx Hl; try discriminate; cbn [combine] in F; inversion F as [|p ? ps' ? H F']; subst; [destruct Hx|].
    cbn [combine] in Hx. destruct Hx as [<-|Hx]; [exists (s_multiplier s); exact H|]. apply (IH os ps'); auto.
Qed.

(** where the objective is split *)
Definition split_at (alg : split_alg) (max_combs : nat) (ws : list nat) (parts : list (list (clause * nat))) : Prop :=
  match alg with
  | ABmo => (bmo ws -> forall t, threshold parts t <-> In t ws) /\ (~ bmo ws -> List.length parts = 1)
  | AGcd => forall t, threshold parts t <-> In t ws /\ gcd_splits ws t
  | AGbmo => (forall t, threshold parts t -> In t ws /\ gbmo_splits ws t) /\ (forall t, In t ws -> gcd_splits ws t -> threshold parts t) /\
      (few_sums max_combs ws -> forall t, In t ws -> gbmo_splits ws t -> threshold parts t)
  end.
Lemma split_at_perm alg m ws vs parts : Permutation ws vs -> split_at alg m ws parts -> split_at alg m vs parts.
Proof.
  intros P. assert (I : forall t, In t ws <-> In t vs) by (intros t; split; apply Permutation_in; [exact P|now apply Permutation_sym]). destruct alg; cbn [split_at].
  - rewrite (bmo_perm _ _ P). intros [H1 H2]. split; [|exact H2]. intros Hb t. rewrite <- I. now apply H1.
  - intros H t. rewrite H, I, (gcd_splits_perm _ _ t P). reflexivity.
  - intros (H1 & H2 & H3). split; [|split].
    + intros t T. rewrite <- I, <- (gbmo_splits_perm _ _ t P). now apply H1.
    + intros t. rewrite <- I, <- (gcd_splits_perm _ _ t P). apply H2.
    + intros Hf t. rewrite <- I, <- (gbmo_splits_perm _ _ t P). apply H3. eapply few_sums_perm; [apply Permutation_sym, P|exact Hf].
Qed.

Theorem gbmo_split_spec alg m p : obj_wf (o_obj p) -> obj_weighted (o_obj p) = true -> soft_list (o_obj p) <> [] ->
  exists q sts warns parts, gbmo_split lord cord srt alg m p = Some (q, sts, warns) /\ q = mopt_compose (fst (opt_decompose p)) (mo_objs q) /\
    divided (soft_list (o_obj p)) parts /\ objectives_of (o_obj p) parts sts (mo_objs q) /\
    lexicographic (fun a => obj_value a (o_obj p)) (fun a => map (obj_value a) (mo_objs q)) /\ List.length (mo_objs q) = List.length parts /\
    split_at alg m (weights (soft_list (o_obj p))) parts.
Proof.
  intros Hwf Hw Hne. unfold gbmo_split, opt_decompose. cbn [fst]. rewrite Hw. cbn [negb]. destruct (into_soft_cls_spec lord cord Hord (o_obj p) Hwf) as (cs & z & E & P & ->). rewrite E. cbn [obind].
  fold (soft_list (o_obj p)) in P. destruct (Hsrt cs) as [P' Hs]. set (xs := srt cs) in *. assert (Px : Permutation xs (soft_list (o_obj p))) by (etransitivity; eassumption).
  assert (Hxs : xs <> []). { intros F. rewrite F in Px. apply Permutation_nil in Px. now apply Hne. }
  assert (Hpos : Forall (fun w => 0 < w) (weights xs)).
  { apply Forall_forall. intros w Hin. apply (Permutation_in _ (Permutation_map snd Px)) in Hin. fold (weights (soft_list (o_obj p))) in Hin. rewrite weights_soft in Hin. destruct Hwf as (W1 & W2 & _).
    apply in_app_or in Hin as [Hin|Hin]; apply in_map_iff in Hin as ([k x] & <- & Hin); [now apply (W1 k)|now apply (W2 k)]. }
  assert (Hr : exists rs warns parts, match alg with ABmo => obind (split_bmo xs) (fun rs => Some (rs, [])) | _ => split_gbmo alg m xs end = Some (rs, warns) /\ splits_well xs rs parts /\ split_at alg m (weights xs) parts).
  { destruct alg.
    - destruct (split_bmo_spec xs Hxs Hpos Hs) as (rs & parts & -> & W & H1 & H2). exists rs, [], parts. split; [reflexivity|]. split; [exact W|]. now split.
    - destruct (split_gbmo_spec AGcd m xs Hxs Hpos Hs) as (rs & warns & parts & -> & W & H1 & H2 & H3 & _). exists rs, warns, parts. split; [reflexivity|]. split; [exact W|]. intros t. split; [intros T; split; [now apply H1|now apply H3]|intros [? ?]; now apply H2].
    - destruct (split_gbmo_spec AGbmo m xs Hxs Hpos Hs) as (rs & warns & parts & -> & W & H1 & H2 & _ & H4). exists rs, warns, parts. split; [reflexivity|]. split; [exact W|]. split; [exact H1|]. split; [exact H2|]. now apply H4. }
  destruct Hr as (rs & warns & parts & -> & W & Hat). cbn [obind fst snd].
  assert (Hrs : map fst rs <> []). { intros F. apply map_eq_nil in F. subst rs. destruct W as (Hc & _ & _ & Hf & _). inversion Hf; subst parts. cbn in Hc. congruence. }
  destruct (set_last_spec (obj_offset (o_obj p)) (map fst rs) Hrs) as (l & o & _ & Eos). destruct (objectives_spec _ _ _ _ _ Hwf Hw Px Hxs Hpos W Eos) as (D & O & L & Len). rewrite Eos. cbn [obind].
  eexists _, _, _, parts. split; [reflexivity|]. cbn [mopt_compose mo_objs]. split; [reflexivity|]. split; [exact D|]. split; [exact O|]. split; [exact L|]. split; [exact Len|].
  eapply split_at_perm; [|exact Hat]. unfold weights. now apply Permutation_map.
Qed.
End Split.
Lemma split_holds p os a : inst_holds a (mo_constrs (mopt_compose (fst (opt_decompose p)) os)) <-> inst_holds a (o_constrs p).
Proof. rewrite compose_holds. unfold opt_decompose, raise_max. cbn [fst]. destruct (obj_max_var (o_obj p)); reflexivity. Qed.

(** ** Files *)

Lemma from_cls_weighted xs : obj_weighted (obj_from_cls xs) = true -> soft_list (obj_from_cls xs) <> [].
Proof.
  unfold obj_from_cls. assert (Hg : forall K (keqb : K -> K -> bool) m k w, gadd keqb m k w <> []) by (intros K keqb [|[k' w'] m] k w; cbn; [discriminate|destruct (keqb k' k); discriminate]).
  assert (H : forall xs o, (obj_weighted o = true -> soft_list o <> []) -> obj_weighted (fold_left (fun o e => increase_soft_clause (snd e) (fst e) o) xs o) = true -> soft_list (fold_left (fun o e => increase_soft_clause (snd e) (fst e) o) xs o) <> []).
  { clear xs. induction xs as [|[c w] xs IH]; intros o Ho; cbn [fold_left fst snd]; [exact Ho|]. apply IH. clear IH. unfold increase_soft_clause, increase_soft_lit. destruct (w =? 0); [exact Ho|].
    assert (HL : forall z ls cs l, soft_list (OWeighted z (gadd lit_eqb ls l w) cs) <> []). { intros z ls cs l. unfold soft_list. cbn [obj_lits obj_cls]. intros E. apply app_eq_nil in E as [E _]. apply map_eq_nil in E. exact (Hg _ _ _ _ _ E). }
    assert (HC : forall z ls cs, soft_list (OWeighted z ls (gadd clause_eqb cs c w)) <> []). { intros z ls cs. unfold soft_list. cbn [obj_lits obj_cls]. intros E. apply app_eq_nil in E as [_ E]. exact (Hg _ _ _ _ _ E). }
    destruct o as [z ls cs|z [u|] ls cs]; cbn [unweighted_2_weighted]; destruct c as [|l [|l' c]]; try (intros _; first [apply HL|apply HC]); try discriminate; destruct (w =? u); try discriminate; intros _; first [apply HL|apply HC]. }
  apply H. discriminate.
Qed.
Lemma soft_total o : soft_sum (fun _ => true) o = list_sum (weights (soft_list o)).
Proof. unfold soft_sum. rewrite weights_soft, list_sum_app, !ksum_total. reflexivity. Qed.
Lemma in_list_sum w ws : In w ws -> w <= list_sum ws.
Proof. intros H. apply in_split in H as (l & r & ->). rewrite list_sum_app. cbn. fold (list_sum r). lia. Qed.
Lemma softs_below n o : lits_below n (obj_vars o) <-> forall c w, In (c, w) (soft_list o) -> lits_below n c.
Proof.
  unfold soft_list, obj_vars. split.
  - intros H c w Hin. apply in_app_or in Hin as [Hin|Hin].
    + apply in_map_iff in Hin as ([l x] & E & Hin). cbn [fst snd] in E. injection E as <- <-. intros l' [<-|[]]. apply (H l). apply in_or_app. left. apply (in_map fst) in Hin. exact Hin.
    + intros l Hl. apply H. apply in_or_app. right. apply in_concat. exists c. split; [|exact Hl]. apply (in_map fst) in Hin. exact Hin.
  - intros H l Hl. apply in_app_or in Hl as [Hl|Hl].
    + apply in_map_iff in Hl as ([l' x] & <- & Hin). change (lvar (fst (l', x))) with (lvar (neg l')). apply (H [neg l'] x); [|now left]. apply in_or_app. left. apply in_map_iff. exists (l', x). now split.
    + apply in_concat in Hl as (c & Hc & Hl). apply in_map_iff in Hc as ([c' x] & <- & Hin). apply (H c' x); [|exact Hl]. apply in_or_app. now right.
Qed.

Section File.
Variables (lord : list (lit * nat) -> list (lit * nat)) (cord : list (clause * nat) -> list (clause * nat)) (srt : list (clause * nat) -> list (clause * nat)).
Variables (ord ord1 ord2 ord3 ord4 : wmap -> wmap).
Hypothesis (Hord : orders lord cord) (Hsrt : sorts srt).

Lemma convert_clausal i : i_cards i = [] -> i_pbs i = [] -> convert_to_cnf ord ord1 ord2 ord3 ord4 i = Some (mkInst (i_cnf i) [] [] (i_next i)).
Proof. intros E1 E2. unfold convert_to_cnf, convert_to_cnf_with_encoders. rewrite E1, E2. reflexivity. Qed.

(** writing an instance with clauses only *)
Lemma gbmo_write_mcnf n f o q : clausal_known n f (mo_objs q) (mo_constrs q) -> (n <= max_var_idx)%N -> (N.of_nat (List.length (mo_objs q)) <= usize_max)%N ->
  (forall ob, In ob (mo_objs q) -> (N.of_nat (list_sum (weights (soft_list ob))) <= usize_max)%N) ->
  exists out es, gbmo_write lord cord ord ord1 ord2 ord3 ord4 false o q = ROk out /\ mcnf_file n es out /\ hards es = f /\ n_objs es <= List.length (mo_objs q) /\
    forall a, mcnf_costs (List.length (mo_objs q)) es a = map (fun ob => (obj_value a ob - obj_offset ob)%Z) (mo_objs q).
Proof.
  intros (E1 & E2 & E3 & Hn & Hk & Ho) Hmax Hlen Hw. unfold gbmo_write. rewrite (convert_clausal _ E2 E3). cbn [to_res rbind]. unfold mopt_write_dimacs. cbn [mo_constrs mo_objs not_clausal i_cards i_pbs i_cnf i_next].
  unfold not_clausal. cbn [i_cards i_pbs List.length Nat.eqb negb orb]. set (xss := map (fun ob => (iter_soft_cls lord cord ob, obj_offset ob)) (mo_objs q)). rewrite E1.
  assert (Bf : forall c, In c f -> lits_below n c).
  { intros c Hc l Hl. assert (lvar l < i_next (mo_constrs q))%N; [|lia]. apply Hk. unfold inst_lits. rewrite E1. apply in_or_app. left. apply in_concat. eauto. }
  assert (Hs : forall xs z c w, In (xs, z) xss -> In (c, w) xs -> is_usize w /\ lits_below n c).
  { intros xs z c w Hin Hc. apply in_map_iff in Hin as (ob & E & Hin). injection E as <- _. apply (Permutation_in _ (iter_soft_cls_spec lord cord Hord ob)) in Hc. fold (soft_list ob) in Hc. split.
    - pose proof (in_list_sum w (weights (soft_list ob)) ltac:(apply (in_map snd) in Hc; exact Hc)). specialize (Hw ob Hin). unfold is_usize. lia.
    - apply (proj1 (softs_below n ob)) with (w := w); [|exact Hc]. intros l Hl. specialize (Ho ob Hin l Hl). lia. }
  destruct (write_mcnf_some f xss (Some (i_next (mo_constrs q)))) as [out Eout].
  { intros d Hd. apply (dimacs_below n); [exact Hmax|now apply Bf]. }
  { intros xs z d w Hin Hd. apply (dimacs_below n); [exact Hmax|apply (Hs xs z d w Hin Hd)]. }
  rewrite Eout. cbn [to_res]. exists out, (mitems f (map fst xss)). split; [reflexivity|]. split.
  { refine (mcnf_file_written [] f xss _ _ out _ _ _ _ _ Eout); [constructor|unfold xss, is_usize; rewrite map_length; exact Hlen|intros xs z c w Hin Hc; apply (Hs xs z c w Hin Hc)|exact Bf|intros xs z c w Hin Hc; apply (Hs xs z c w Hin Hc)]. }
  split; [apply hards_mitems|]. split.
  - unfold n_objs. apply list_max_le. apply Forall_map, Forall_forall. intros [d x] Hin. cbn [snd]. destruct x as [[k w]|]; [|lia]. assert (Hk' : In (d, w) (msofts k (mitems f (map fst xss)))) by now apply in_msofts.
    rewrite msofts_mitems in Hk'. destruct (Nat.lt_ge_cases k (List.length (mo_objs q))) as [|Hge]; [lia|]. rewrite nth_overflow in Hk'; [easy|]. unfold xss. now rewrite !map_length.
  - intros a. unfold mcnf_costs. rewrite (map_ext _ (fun k => Z.of_nat (cls_cost a (nth k (map fst xss) []))) (fun k => f_equal (fun x => Z.of_nat (cls_cost a x)) (msofts_mitems f (map fst xss) k))).
    unfold xss. rewrite map_map. cbn [fst]. clear - Hord. induction (mo_objs q) as [|ob os IH]; [reflexivity|]. cbn [List.length seq map nth]. f_equal; [pose proof (iter_soft_cls_value lord cord Hord ob a); lia|]. rewrite <- seq_shift, map_map. exact IH.
Qed.

Lemma n_parts xs parts : divided xs parts -> List.length parts <= List.length xs.
Proof.
  intros (P & Hn & _). rewrite <- (Permutation_length P). clear P. induction Hn as [|p parts Hp _ IH]; [cbn; lia|]. cbn [concat List.length]. rewrite app_length. destruct p; [easy|]. cbn. lia.
Qed.

Theorem gbmosplit_wcnf alg m ofmt always_dump path o t n es : wcnf_file n es t -> (n <= max_var_idx)%N -> ofmt <> OutOpb -> (N.of_nat (list_sum (map snd (softs es))) <= usize_max)%N ->
  exists k es' r, gbmosplit lord cord srt ord ord1 ord2 ord3 ord4 alg m InWcnf ofmt always_dump false path o t = ROk (1 <? k, r) /\
    (if (1 <? k) || always_dump then exists out, r = Some out /\ mcnf_file n es' out else r = None) /\
    n_objs es' <= k /\ hards es' = hards es /\ lexicographic (fun a => Z.of_nat (cls_cost a (softs es))) (mcnf_costs k es').
Proof.
  intros Hf Hn Hfmt Hsum. destruct (opt_of_wcnf_file n es t Hf Hn) as (p & Ep & Eo & Hk). unfold gbmosplit, read_instance. rewrite Ep. cbn [rbind].
  destruct (from_cls_spec (softs es)) as [Hwf Hval]. pose proof (from_cls_total (softs es)) as Htot. rewrite soft_total in Htot. rewrite <- Eo in *. set (ob := o_obj p) in *.
  assert (Hpos : Forall (fun w => 0 < w) (weights (soft_list ob))).
  { apply Forall_forall. intros w Hin. rewrite weights_soft in Hin. destruct Hwf as (W1 & W2 & _). apply in_app_or in Hin as [Hin|Hin]; apply in_map_iff in Hin as ([c x] & <- & Hin); [now apply (W1 c)|now apply (W2 c)]. }
  assert (Hlen : List.length (soft_list ob) <= list_sum (weights (soft_list ob))). { clear - Hpos. unfold weights in *. induction (soft_list ob) as [|e l IH]; [cbn; lia|]. cbn [map] in Hpos. inversion Hpos; subst. specialize (IH H2). cbn [List.length map list_sum fold_right]. unfold list_sum in IH. lia. }
  assert (Hraise : clausal_known n (hards es) [] (fst (opt_decompose p))).
  { unfold opt_decompose. cbn [fst]. fold ob. assert (Hb : lits_below n (obj_vars ob)). { destruct Hk as (_ & _ & _ & L & _ & K). intros l Hl. pose proof (K ob (or_introl eq_refl) l Hl). lia. }
    destruct (raise_clausal n (hards es) (o_constrs p) ob [ob] Hk Hb) as (K1 & K2 & K3 & K4 & K5 & K6). repeat (split; [assumption|]). intros x []. }
  assert (Hbo : lits_below n (obj_vars ob)). { destruct Hk as (_ & _ & _ & L & _ & K). intros l Hl. pose proof (K ob (or_introl eq_refl) l Hl). lia. }
  (* the instance after splitting *)
  assert (Hsp : exists q sts ws, gbmo_split lord cord srt alg m p = Some (q, sts, ws) /\ q = mopt_compose (fst (opt_decompose p)) (mo_objs q) /\ lexicographic (fun a => obj_value a ob) (fun a => map (obj_value a) (mo_objs q)) /\
     (N.of_nat (List.length (mo_objs q)) <= usize_max)%N /\ forall x, In x (mo_objs q) -> (N.of_nat (list_sum (weights (soft_list x))) <= usize_max)%N /\ lits_below n (obj_vars x)).
  { destruct (obj_weighted ob) eqn:Ew.
    - destruct (gbmo_split_spec lord cord srt Hord Hsrt alg m p Hwf Ew) as (q & sts & ws & parts & E & Eq & D & (Ol & Of & _) & L & Elen & _); [fold ob; rewrite Eo; apply from_cls_weighted; rewrite <- Eo; exact Ew|].
      exists q, sts, ws. split; [exact E|]. split; [exact Eq|]. split; [exact L|]. split; [rewrite Elen; pose proof (n_parts _ _ D) as Hnp; fold ob in Hnp; lia|].
      intros x Hx. assert (Hc : exists g pp, In pp parts /\ scaled_obj pp g x).
      { clear - Ol Of Hx. revert parts Of Hx Ol. generalize (mo_objs q). clear. induction sts as [|s sts IH]; intros [|y os] parts Of Hx Ol; try discriminate; [destruct Hx|]. cbn [combine] in Of. inversion Of as [|pp ? ps ? H1 H2]; subst. destruct Hx as [<-|Hx]; [exists (s_multiplier s), pp; split; [now left|exact H1]|].
        destruct (IH os ps H2 Hx) as (g & p' & Hp & Hs); [now injection Ol|]. exists g, p'. split; [now right|exact Hs]. }
      destruct Hc as (g & pp & Hpp & Hg & _ & Hperm).
      assert (Hin : forall c w, In (c, w) pp -> In (c, w) (soft_list ob)) by (intros c w H; destruct D as (P & _); apply (Permutation_in _ P); apply in_concat; eauto).
      split.
      + assert (H1 : list_sum (weights (soft_list x)) <= list_sum (weights pp)).
        { rewrite (list_sum_perm _ (weights (map (fun e => (fst e, snd e / g)) pp))) by (unfold weights; now apply Permutation_map). clear - Hg. unfold weights. rewrite map_map. cbn [snd]. induction pp as [|e l IH]; cbn [map list_sum fold_right]; [lia|].
          unfold list_sum in *. pose proof (Nat.div_le_upper_bound (snd e) g (snd e) ltac:(lia) ltac:(nia)). lia. }
        assert (H2 : list_sum (weights pp) <= list_sum (weights (soft_list ob))).
        { destruct D as (P & _). fold ob in P. unfold weights. rewrite <- (list_sum_perm _ _ (Permutation_map snd P)). apply in_split in Hpp as (l & r & ->). rewrite concat_app. cbn [concat]. rewrite !map_app, !list_sum_app. lia. }
        lia.
      + apply softs_below. intros c w Hc. apply (Permutation_in _ Hperm) in Hc. apply in_map_iff in Hc as ([c' w'] & E' & Hc). cbn [fst snd] in E'. injection E' as <- <-. apply (proj1 (softs_below n ob) Hbo c' w'). now apply Hin.
    - eexists _, _, _. unfold gbmo_split, opt_decompose. fold ob. rewrite Ew. cbn [negb]. split; [reflexivity|]. split; [reflexivity|]. cbn [mo_objs mopt_compose]. split; [intros a b; cbn; split; [now left|intros [H|[_ []]]; exact H]|].
      split; [cbn [List.length]; vm_compute; discriminate|]. intros x [<-|[]]. split; [lia|exact Hbo]. }
  destruct Hsp as (q & sts & ws & E & Eq & L & Hql & Hqs). rewrite E. cbn [to_res rbind].
  assert (Hkq : clausal_known n (hards es) (mo_objs q) (mo_constrs q)) by (rewrite Eq at 2; apply compose_clausal; [exact Hraise|intros x Hx; now apply Hqs]).
  destruct (gbmo_write_mcnf n (hards es) o q Hkq Hn Hql (fun x Hx => proj1 (Hqs x Hx))) as (out & es' & Ew & Hfile & Hh & Hno & Hcost).
  assert (Eopb : writes_opb InWcnf ofmt = false) by (destruct ofmt; [reflexivity|reflexivity|easy]). rewrite Eopb.
  exists (List.length (mo_objs q)), es'. unfold output.
  assert (HL : lexicographic (fun a => Z.of_nat (cls_cost a (softs es))) (mcnf_costs (List.length (mo_objs q)) es')).
  { intros a b. rewrite <- !Hval, !Hcost. rewrite (L a b). rewrite <- !map_rev. symmetry. apply (lex_monotone (fun x a => obj_value a x - obj_offset x)%Z (fun x a => obj_value a x)). intros; lia. }
  destruct ((1 <? List.length (mo_objs q)) || always_dump).
  - rewrite Ew. cbn [rbind]. eexists. split; [reflexivity|]. split; [now exists out|]. split; [exact Hno|]. split; [exact Hh|exact HL].
  - eexists. split; [reflexivity|]. split; [reflexivity|]. split; [exact Hno|]. split; [exact Hh|exact HL].
Qed.
End File.
