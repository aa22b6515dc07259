(** * Proofs about re-indexing objectives and optimization instances *)

From Coq Require Import List Bool NArith ZArith Lia Arith Permutation.
From Verif Require Import Spec EncSpec Types Constraints ConstrSpec Base TypesProofs NodeDb ConstrEnc Maps VarSpec VarMan VarManProofs Inst InstSpec InstProofs InstReindex Opt OptSpec OptProofs OptConv.
Import ListNotations.

Lemma rename_value a r o : obj_value a (rename_obj r o) = obj_value (fun v => a (r v)) o.
Proof.
  destruct o as [z ls cs|z u ls cs]; unfold obj_value; cbn [rename_obj obj_offset obj_lits obj_cls]; (f_equal; [f_equal; f_equal|f_equal]).
  - apply rename_wsum.
  - induction cs as [|[c w] cs IH]; [reflexivity|]. cbn [map fst snd cls_cost]. now rewrite rename_clause_sat, IH.
  - rewrite map_map. induction ls as [|l ls IH]; [reflexivity|]. cbn [map wsum]. now rewrite rename_lit_true, IH.
  - rewrite map_map. induction cs as [|c cs IH]; [reflexivity|]. cbn [map cls_cost]. now rewrite rename_clause_sat, IH.
Qed.
Lemma renamed_value r o o' : obj_renamed r o o' -> forall a, obj_value a o' = obj_value (fun v => a (r v)) o.
Proof.
  intros (H1 & H2 & H3) a. transitivity (obj_value a (rename_obj r o)); [|apply rename_value]. unfold obj_value. rewrite H1, (wsum_perm' a _ _ H2), (cls_cost_perm a _ _ H3). destruct o; reflexivity.
Qed.
Lemma gcollect_nodup {K} (keqb : K -> K -> bool) (E : forall x y, keqb x y = true <-> x = y) (xs : list (K * nat)) : NoDup (map fst xs) -> gcollect keqb xs = xs.
Proof.
  intros H. unfold gcollect. enough (G : forall m, NoDup (map fst (m ++ xs)) -> fold_left (fun m e => ginsert keqb m (fst e) (snd e)) xs m = m ++ xs) by (apply (G []), H).
  clear H. induction xs as [|[k w] xs IH]; intros m H; cbn [fold_left fst snd]; [now rewrite app_nil_r|]. rewrite (ginsert_new _ E).
  - rewrite IH; [now rewrite <- app_assoc|]. now rewrite <- app_assoc.
  - rewrite map_app in H. cbn [map fst] in H. apply NoDup_remove_2 in H. intros Hin. apply H, in_or_app. now left.
Qed.
Lemma NoDup_map_inj {A B} (g : A -> B) xs : NoDup xs -> (forall x y, In x xs -> In y xs -> g x = g y -> x = y) -> NoDup (map g xs).
Proof.
  induction 1 as [|x xs Hn Hd IH]; intros H; cbn; constructor; [|apply IH; intros; apply H; auto; now right]. intros Hin. apply in_map_iff in Hin as (y & E & Hy). apply H in E; [congruence|now right|now left].
Qed.
Lemma rename_lit_inj r l l' : (r (lvar l) = r (lvar l') -> lvar l = lvar l') -> rename_lit r l = rename_lit r l' -> l = l'.
Proof. intros H [= E1 E2]. apply H in E1. destruct l, l'; cbn in *; congruence. Qed.
Lemma rename_list_inj r ls : forall ls', (forall l l', In l ls -> In l' ls' -> r (lvar l) = r (lvar l') -> lvar l = lvar l') -> map (rename_lit r) ls = map (rename_lit r) ls' -> ls = ls'.
Proof.
  induction ls as [|l ls IH]; intros [|l' ls'] H E; try discriminate; [reflexivity|]. cbn [map] in E. assert (E1 : rename_lit r l = rename_lit r l') by congruence. assert (E2 : map (rename_lit r) ls = map (rename_lit r) ls') by congruence.
  f_equal; [|apply IH; [intros; apply H; auto; now right|assumption]]. apply (rename_lit_inj r); [|assumption]. apply H; now left.
Qed.

Section Orders.
Context (lord : list (lit * nat) -> list (lit * nat)) (cord : list (clause * nat) -> list (clause * nat)) (Hord : orders lord cord).
Definition ren_wlit r (x : lit * nat) : lit * nat := (rename_lit r (fst x), snd x).
Definition ren_wcl r (x : clause * nat) : clause * nat := (map (rename_lit r) (fst x), snd x).
(** the re-indexed objective in terms of a renaming *)
Definition re_obj r (o : obj) : obj :=
  match o with
  | OWeighted z ls cs => OWeighted z (gcollect lit_eqb (map (ren_wlit r) (lord ls))) (gcollect clause_eqb (map (ren_wcl r) (cord cs)))
  | OUnweighted z u ls cs => OUnweighted z u (map (rename_lit r) ls) (map (map (rename_lit r)) cs)
  end.
Lemma re_obj_renamed r o : obj_wf o -> (forall l l', In l (obj_vars o) -> In l' (obj_vars o) -> r (lvar l) = r (lvar l') -> lvar l = lvar l') -> obj_renamed r o (re_obj r o).
Proof.
  intros W Hi. destruct o as [z ls cs|z u ls cs]; [|repeat split; reflexivity]. destruct Hord as [Hl Hc]. apply wf_weighted in W as (_ & _ & W3 & W4).
  split; [reflexivity|]. cbn [re_obj obj_lits obj_cls rename_obj]. split.
  - rewrite (gcollect_nodup _ lit_eqb_eq).
    + apply Permutation_map, Hl.
    + rewrite map_map. cbn [ren_wlit fst]. rewrite <- (map_map fst (rename_lit r)). apply NoDup_map_inj; [eapply Permutation_NoDup; [apply Permutation_map, Permutation_sym, Hl|assumption]|].
      intros x y Hx Hy. apply rename_lit_inj. apply Hi; unfold obj_vars; apply in_or_app; left; cbn [obj_lits]; eapply Permutation_in; [apply Permutation_map, Hl|assumption|apply Permutation_map, Hl|assumption].
  - rewrite (gcollect_nodup _ clause_eqb_eq').
    + apply Permutation_map, Hc.
    + rewrite map_map. cbn [ren_wcl fst]. rewrite <- (map_map fst (map (rename_lit r))). apply NoDup_map_inj; [eapply Permutation_NoDup; [apply Permutation_map, Permutation_sym, Hc|assumption]|].
      intros x y Hx Hy. apply rename_list_inj. intros l l' Hlx Hly. apply (Permutation_in _ (Permutation_map fst (Hc cs))) in Hx, Hy. apply Hi; unfold obj_vars; apply in_or_app; right; apply in_concat; eauto.
Qed.

Section Hist.
Variables t f : bool.
Notation rh := (history reindexing re_reindex N.eqb t false f).
Definition wcl_rel L (x x' : clause * nat) : Prop := Forall2 (lit_rel L) (fst x) (fst x') /\ snd x' = snd x.
Lemma wcl_mono : mono wcl_rel.
Proof. intros L L' x y [H1 H2]. split; [now apply (mono_list _ lit_mono)|exact H2]. Qed.
Lemma re_wcl_rel : re_rel t f wcl_rel (re_wcl re_reindex).
Proof.
  intros x s x' s' L U H E. unfold re_wcl in E. destruct (re_list (re_lit re_reindex) (fst x) s) as [[l s1]|] eqn:E1; [|discriminate]. cbn in E. injection E as <- <-.
  destruct (re_list_rel _ _ _ _ lit_mono (re_lit_rel _ _) _ _ _ _ _ _ H E1) as (L1 & U1 & H1 & R1). exists L1, U1. split; [exact H1|]. split; [exact R1|reflexivity].
Qed.
Definition obj_rel L (o o' : obj) : Prop :=
  match o with
  | OWeighted z ls cs => exists ls' cs', Forall2 (wlit_rel L) (lord ls) ls' /\ Forall2 (wcl_rel L) (cord cs) cs' /\ o' = OWeighted z (gcollect lit_eqb ls') (gcollect clause_eqb cs')
  | OUnweighted z u ls cs => exists ls' cs', Forall2 (lit_rel L) ls ls' /\ Forall2 (Forall2 (lit_rel L)) cs cs' /\ o' = OUnweighted z u ls' cs'
  end.
Lemma obj_mono : mono obj_rel.
Proof.
  intros L L' [z ls cs|z u ls cs] y (ls' & cs' & H1 & H2 & H3); exists ls', cs'; (split; [|split; [|exact H3]]).
  - now apply (mono_list _ wlit_mono).
  - now apply (mono_list _ wcl_mono).
  - now apply (mono_list _ lit_mono).
  - now apply (mono_list _ (mono_list _ lit_mono)).
Qed.
Lemma re_obj_rel : re_rel t f obj_rel (obj_reindex lord cord re_reindex).
Proof.
  intros o s o' s' L U H E. destruct o as [z ls cs|z u ls cs]; cbn [obj_reindex] in E.
  - destruct (re_list (re_wlit re_reindex) (lord ls) s) as [[ls' s1]|] eqn:E1; [|discriminate]. cbn [obind] in E. destruct (re_list (re_wcl re_reindex) (cord cs) s1) as [[cs' s2]|] eqn:E2; [|discriminate]. cbn [obind] in E. injection E as <- <-.
    destruct (re_list_rel _ _ _ _ wlit_mono (re_wlit_rel _ _) _ _ _ _ _ _ H E1) as (L1 & U1 & H1 & R1). destruct (re_list_rel _ _ _ _ wcl_mono re_wcl_rel _ _ _ _ _ _ H1 E2) as (L2 & U2 & H2 & R2).
    exists (L2 ++ L1), U2. rewrite <- app_assoc. split; [exact H2|]. exists ls', cs'. split; [now apply (mono_list _ wlit_mono)|]. split; [exact R2|reflexivity].
  - destruct (re_list (re_lit re_reindex) ls s) as [[ls' s1]|] eqn:E1; [|discriminate]. cbn [obind] in E. destruct (re_list (re_list (re_lit re_reindex)) cs s1) as [[cs' s2]|] eqn:E2; [|discriminate]. cbn [obind] in E. injection E as <- <-.
    destruct (re_list_rel _ _ _ _ lit_mono (re_lit_rel _ _) _ _ _ _ _ _ H E1) as (L1 & U1 & H1 & R1). destruct (re_list_rel _ _ _ _ (mono_list _ lit_mono) (re_list_rel _ _ _ _ lit_mono (re_lit_rel _ _)) _ _ _ _ _ _ H1 E2) as (L2 & U2 & H2 & R2).
    exists (L2 ++ L1), U2. rewrite <- app_assoc. split; [exact H2|]. exists ls', cs'. split; [now apply (mono_list _ lit_mono)|]. split; [exact R2|reflexivity].
Qed.
Lemma forall2_ex {A B} (R : A -> B -> Prop) xs ys : Forall2 R xs ys -> forall x, In x xs -> exists y, R x y.
Proof. induction 1; [intros ? []|]. intros z [<-|Hz]; eauto. Qed.
Lemma lits_answer L U s ls ls' : rh L U s -> Forall2 (lit_rel L) ls ls' -> ls' = map (rename_lit (answer s)) ls /\ forall l, In l ls -> In (lvar l, answer s (lvar l)) L.
Proof.
  intros H F. split.
  - apply (forall2_map _ _ _ _ F). intros l l' _. now apply (lit_rel_rename _ _ _ _ _ _ _ H).
  - intros l Hl. destruct (forall2_ex _ _ _ F l Hl) as (l' & Hr & _). now rewrite (answer_in _ _ _ _ _ _ _ H Hr).
Qed.
Lemma obj_rel_answer L U s o o' : rh L U s -> obj_rel L o o' -> o' = re_obj (answer s) o /\ forall l, In l (obj_vars o) -> In (lvar l, answer s (lvar l)) L.
Proof.
  intros H R. destruct o as [z ls cs|z u ls cs]; destruct R as (ls' & cs' & R1 & R2 & ->); destruct Hord as [Hl Hc].
  - split.
    + cbn [re_obj]. f_equal; f_equal.
      * apply (forall2_map _ _ _ _ R1). intros [l w] [l' w'] _ [Hr Hw]. cbn in *. subst w'. unfold ren_wlit. cbn. f_equal. now apply (lit_rel_rename _ _ _ _ _ _ _ H).
      * apply (forall2_map _ _ _ _ R2). intros [c w] [c' w'] _ [Hr Hw]. cbn in *. subst w'. unfold ren_wcl. cbn. f_equal. now apply (lits_answer _ _ _ _ _ H).
    + intros l Hin. unfold obj_vars in Hin. cbn [obj_lits obj_cls] in Hin. apply in_app_or in Hin as [Hin|Hin].
      * apply in_map_iff in Hin as ([x w] & Ex & Hin). cbn in Ex. subst x. apply (Permutation_in _ (Permutation_sym (Hl ls))) in Hin. destruct (forall2_ex _ _ _ R1 _ Hin) as ([l' w'] & [Hr _] & _). cbn in Hr. now rewrite (answer_in _ _ _ _ _ _ _ H Hr).
      * apply in_concat in Hin as (c & Hcin & Hlc). apply in_map_iff in Hcin as ([x w] & Ex & Hcin). cbn in Ex. subst x. apply (Permutation_in _ (Permutation_sym (Hc cs))) in Hcin. destruct (forall2_ex _ _ _ R2 _ Hcin) as ([c' w'] & Hr & _). now apply (lits_answer _ _ _ _ _ H Hr).
  - split.
    + cbn [re_obj]. f_equal.
      * now apply (lits_answer _ _ _ _ _ H).
      * apply (forall2_map _ _ _ _ R2). intros c c' _ Hr. now apply (lits_answer _ _ _ _ _ H).
    + intros l Hin. unfold obj_vars in Hin. cbn [obj_lits obj_cls] in Hin. rewrite !map_map in Hin. cbn [fst] in Hin. rewrite !map_id in Hin. apply in_app_or in Hin as [Hin|Hin].
      * now apply (lits_answer _ _ _ _ _ H R1).
      * apply in_concat in Hin as (c & Hcin & Hlc). destruct (forall2_ex _ _ _ R2 _ Hcin) as (c' & Hr). now apply (lits_answer _ _ _ _ _ H Hr).
Qed.
Lemma mopt_reindex_spec p s L U g cards pbs os s' : rh L U s -> (forall o, In o (mo_objs p) -> obj_wf o) -> mopt_reindex re_reindex lord cord p s = Some (g, cards, pbs, os, s') ->
  exists L' U', rh (L' ++ L) U' s' /\ renamed (answer s') (mo_constrs p) g cards pbs /\ Forall2 (obj_renamed (answer s')) (mo_objs p) os /\
    (forall v, opt_var (mo_constrs p) (mo_objs p) v -> In (v, answer s' v) (L' ++ L)).
Proof.
  intros H Hw E. unfold mopt_reindex in E. destruct (re_list (obj_reindex lord cord re_reindex) (mo_objs p) s) as [[os1 s1]|] eqn:E1; [|discriminate]. cbn [obind] in E.
  destruct (inst_reindex re_reindex (mo_constrs p) s1) as [[[[g1 c1] p1] s2]|] eqn:E2; [|discriminate]. cbn [obind] in E. injection E as <- <- <- <- <-.
  destruct (re_list_rel _ _ _ _ obj_mono re_obj_rel _ _ _ _ _ _ H E1) as (L1 & U1 & H1 & R1). destruct (inst_reindex_spec _ _ _ _ _ _ _ _ _ _ H1 E2) as (L2 & U2 & H2 & G1 & G2 & G3 & G4).
  apply (mono_list _ obj_mono _ L2) in R1. exists (L2 ++ L1), U2. rewrite <- app_assoc. split; [exact H2|].
  assert (Hv : forall v, opt_var (mo_constrs p) (mo_objs p) v -> In (v, answer s2 v) (L2 ++ L1 ++ L)).
  { intros v [Hv|(o & Ho & Hv)]; [now apply G4|]. apply in_map_iff in Hv as (l & <- & Hl). destruct (forall2_ex _ _ _ R1 o Ho) as (o' & Hr). now apply (obj_rel_answer _ _ _ _ _ H2 Hr). }
  assert (Hinj : forall v v', opt_var (mo_constrs p) (mo_objs p) v -> opt_var (mo_constrs p) (mo_objs p) v' -> answer s2 v = answer s2 v' -> v = v').
  { intros v v' Hv1 Hv2 Ea. pose proof (rhist_ohist _ _ _ _ _ _ H2) as Ho. apply (hist_inj N.eqb N.eqb_eq _ _ _ _ _ Ho v _ v' _ (Hv _ Hv1) (Hv _ Hv2)). exact Ea. }
  split; [|split; [|exact Hv]].
  - split; [exact G1|]. split; [exact G2|]. split; [exact G3|]. intros v v' Hv1 Hv2. apply Hinj; now left.
  - assert (Hobj : forall o o', In o (mo_objs p) -> obj_rel (L2 ++ L1 ++ L) o o' -> obj_renamed (answer s2) o o').
    { intros o o' Ho Hr. destruct (obj_rel_answer _ _ _ _ _ H2 Hr) as [-> _]. apply re_obj_renamed; [now apply Hw|]. intros l l' Hl Hl'. apply Hinj; right; exists o; (split; [assumption|now apply in_map]). }
    clear - R1 Hobj. induction R1 as [|o o' os os' Hr _ IH]; constructor; [apply Hobj; [now left|assumption]|]. apply IH. intros o2 o3 Ho. apply Hobj. now right.
Qed.
End Hist.
Lemma mopt_reindex_renamed t f p L U s g cards pbs os s' : history reindexing re_reindex N.eqb t false f L U s -> (forall o, In o (mo_objs p) -> obj_wf o) ->
  mopt_reindex re_reindex lord cord p s = Some (g, cards, pbs, os, s') ->
  exists r, renamed r (mo_constrs p) g cards pbs /\ Forall2 (obj_renamed r) (mo_objs p) os /\
    (forall v v', opt_var (mo_constrs p) (mo_objs p) v -> opt_var (mo_constrs p) (mo_objs p) v' -> r v = r v' -> v = v') /\
    (forall v, opt_var (mo_constrs p) (mo_objs p) v -> re_reindex v s' = Some (r v, s') /\ (r v < m_n_used reindexing s')%N) /\
    forall v u, In (v, u) L -> r v = u.
Proof.
  intros H Hw E. exists (answer s'). destruct (mopt_reindex_spec _ _ _ _ _ _ _ _ _ _ _ H Hw E) as (L' & U' & H' & R1 & R2 & Hin). split; [exact R1|]. split; [exact R2|].
  pose proof (rhist_ohist _ _ _ _ _ _ H') as Ho. split; [|split].
  - intros v v' Hv Hv' Ea. apply (hist_inj N.eqb N.eqb_eq _ _ _ _ _ Ho v _ v' _ (Hin _ Hv) (Hin _ Hv')). exact Ea.
  - intros v Hv. apply (hist_oinv N.eqb N.eqb_eq) in Ho as [_ _ I3 I4]. specialize (Hin v Hv). apply I4 in Hin. split; [|exact (I3 _ _ Hin)]. cbn in Hin. unfold re_reindex. rewrite Hin. reflexivity.
  - intros v u Hi. apply (answer_in _ _ _ _ _ _ _ H'). apply in_or_app. now right.
Qed.

(** ** In order *)
Lemma obj_lit_list_eq o : obj_lit_list o = obj_vars o.
Proof. destruct o; cbn [obj_lit_list]; unfold obj_vars; cbn [obj_lits obj_cls]; [reflexivity|]. rewrite !map_map. cbn [fst]. now rewrite !map_id. Qed.
Lemma insert_all ls : forall s, sorted_by N.lt s -> let s' := fold_left (fun s l => set_insert (lvar l) s) ls s in sorted_by N.lt s' /\ forall v, In v s' <-> In v s \/ In v (map lvar ls).
Proof.
  induction ls as [|l ls IH]; intros s Hs; cbn [fold_left map]; [split; [assumption|intros v; cbn; tauto]|]. destruct (IH _ (set_insert_sorted (lvar l) s Hs)) as [I1 I2]. split; [exact I1|]. intros v. rewrite I2, set_insert_in. cbn. intuition congruence.
Qed.
Lemma mopt_var_set_spec p : sorted_by N.lt (mopt_var_set p) /\ forall v, In v (mopt_var_set p) <-> opt_var (mo_constrs p) (mo_objs p) v.
Proof.
  unfold mopt_var_set. destruct (var_set_spec (mo_constrs p)) as [Hs Hi]. unfold opt_var. setoid_rewrite <- Hi. revert Hs. generalize (var_set (mo_constrs p)). clear Hi. induction (mo_objs p) as [|o os IH]; intros s Hs; cbn [fold_left].
  - split; [assumption|]. intros v. split; [now left|]. intros [H|(o & [] & _)]. exact H.
  - rewrite obj_lit_list_eq. destruct (insert_all (obj_vars o) s Hs) as [I1 I2]. destruct (IH _ I1) as [J1 J2]. split; [exact J1|]. intros v. rewrite J2, I2. split.
    + intros [[H|H]|(o' & Ho & H)]; [now left|right; exists o; split; [now left|assumption]|right; exists o'; split; [now right|assumption]].
    + intros [H|(o' & [<-|Ho] & H)]; [now left; left|left; now right|right; eauto].
Qed.
Lemma obj_reindex_known o s : (forall l, In l (obj_vars o) -> kget N.eqb (re_in s) (lvar l) <> None) -> obj_reindex lord cord re_reindex o s = Some (re_obj (answer s) o, s).
Proof.
  intros H. destruct Hord as [Hl Hc]. assert (Hk : forall l, In l (obj_vars o) -> re_lit re_reindex l s = Some (rename_lit (answer s) l, s)) by (intros l Hin; now apply re_known, H).
  destruct o as [z ls cs|z u ls cs]; cbn [obj_reindex].
  - rewrite (re_list_known _ (ren_wlit (answer s))).
    2:{ intros [l w] Hin. unfold re_wlit. cbn [fst snd]. rewrite Hk; [reflexivity|]. apply (vars_lit (OWeighted z ls cs) l w). exact (Permutation_in _ (Hl ls) Hin). }
    cbn [obind]. rewrite (re_list_known _ (ren_wcl (answer s))); [reflexivity|]. intros [c w] Hin. unfold re_wcl. cbn [fst snd]. rewrite (re_list_known _ (rename_lit (answer s))); [reflexivity|]. intros l Hlc. apply Hk.
    apply (vars_cls (OWeighted z ls cs) c w); [exact (Permutation_in _ (Hc cs) Hin)|assumption].
  - assert (Ev : obj_vars (OUnweighted z u ls cs) = ls ++ concat cs) by (now rewrite <- obj_lit_list_eq). rewrite Ev in Hk. rewrite (re_list_known _ (rename_lit (answer s))) by (intros l Hin; apply Hk, in_or_app; now left).
    cbn [obind]. rewrite (re_list_known _ (map (rename_lit (answer s)))); [reflexivity|]. intros c Hin. apply re_list_known. intros l Hlc. apply Hk, in_or_app. right. apply in_concat. eauto.
Qed.
Lemma mopt_reindex_ordered_renamed p n g cards pbs os s' : (forall o, In o (mo_objs p) -> obj_wf o) -> mopt_reindex_ordered re_reindex lord cord p (re_start n) = Some (g, cards, pbs, os, s') ->
  exists r, renamed r (mo_constrs p) g cards pbs /\ Forall2 (obj_renamed r) (mo_objs p) os /\
    (forall v v', opt_var (mo_constrs p) (mo_objs p) v -> opt_var (mo_constrs p) (mo_objs p) v' -> (v < v')%N -> (r v < r v')%N) /\
    (forall u, (n <= u < m_n_used reindexing s')%N <-> exists v, opt_var (mo_constrs p) (mo_objs p) v /\ r v = u) /\
    (forall v, opt_var (mo_constrs p) (mo_objs p) v -> re_reverse (r v) s' = Some v).
Proof.
  intros Hw E. unfold mopt_reindex_ordered in E. destruct (foldM _ (mopt_var_set p) (re_start n)) as [s1|] eqn:E1; [|discriminate]. cbn [obind] in E.
  destruct (mopt_var_set_spec p) as [Vs Vi]. destruct (ordered_fold (mopt_var_set p) Vs (re_start n) s1) as (O1 & O2 & O3 & _); [reflexivity|constructor|exact E1|]. cbn [re_next re_start] in O1, O3.
  set (OV := opt_var (mo_constrs p) (mo_objs p)) in *.
  assert (Hk : forall v, OV v -> exists j, nth_error (mopt_var_set p) j = Some v /\ kget N.eqb (re_in s1) v = Some (n + N.of_nat j)%N /\ answer s1 v = (n + N.of_nat j)%N).
  { intros v Hv. apply Vi in Hv. apply In_nth_error in Hv as (j & Hj). exists j. split; [exact Hj|]. pose proof (O3 _ _ Hj) as Hg. split; [exact Hg|]. unfold answer. now rewrite Hg. }
  unfold mopt_reindex in E. rewrite (re_list_known _ (re_obj (answer s1))) in E.
  2:{ intros o Ho. apply obj_reindex_known. intros l Hl. destruct (Hk (lvar l)) as (j & _ & Hg & _); [|congruence]. right. exists o. split; [assumption|now apply in_map]. }
  cbn [obind] in E. rewrite inst_reindex_known in E by (intros v Hv; destruct (Hk v (or_introl Hv)) as (j & _ & Hg & _); congruence). cbn [obind] in E. injection E as <- <- <- <- <-.
  assert (Hm : forall v v', OV v -> OV v' -> (v < v')%N -> (answer s1 v < answer s1 v')%N).
  { intros v v' Hv Hv' Hl. destruct (Hk v Hv) as (j & Hj & _ & ->), (Hk v' Hv') as (j' & Hj' & _ & ->). pose proof (sorted_nth _ Vs _ _ _ _ Hj Hj' Hl). lia. }
  assert (Hinj : forall v v', OV v -> OV v' -> answer s1 v = answer s1 v' -> v = v').
  { intros v v' Hv Hv' Ea. destruct (N.lt_total v v') as [Hl|[Hl|Hl]]; [pose proof (Hm _ _ Hv Hv' Hl); lia|assumption|pose proof (Hm _ _ Hv' Hv Hl); lia]. }
  exists (answer s1). split; [|split; [|split; [exact Hm|split]]].
  - split; [reflexivity|]. split; [reflexivity|]. split; [reflexivity|]. intros v v' Hv Hv'. apply Hinj; now left.
  - assert (Ho : forall o, In o (mo_objs p) -> obj_renamed (answer s1) o (re_obj (answer s1) o)).
    { intros o Ho. apply re_obj_renamed; [now apply Hw|]. intros l l' Hl Hl'. apply Hinj; right; exists o; (split; [assumption|now apply in_map]). }
    clear - Ho. induction (mo_objs p) as [|o os IH]; cbn [map]; constructor; [apply Ho; now left|apply IH; intros; apply Ho; now right].
  - intros u. cbn [m_n_used reindexing]. rewrite O1. split.
    + intros Hu. destruct (nth_error (mopt_var_set p) (N.to_nat (u - n))) as [v|] eqn:Ev.
      * exists v. split; [apply Vi; eapply nth_error_In; eauto|]. unfold answer. rewrite (O3 _ _ Ev). lia.
      * apply nth_error_None in Ev. lia.
    + intros (v & Hv & <-). destruct (Hk v Hv) as (j & Hj & _ & ->). assert (j < length (mopt_var_set p))%nat by (apply nth_error_Some; congruence). lia.
  - intros v Hv. destruct (ordered_hist false false _ _ _ _ _ (h_start reindexing re_reindex N.eqb false false false n) E1) as (L' & U' & H').
    destruct (Hk v Hv) as (j & Hj & Hg & ->). apply (rhist_out _ _ _ H'). apply rhist_ohist in H'. apply (hist_oinv N.eqb N.eqb_eq) in H' as [_ _ _ I4]. now apply I4.
Qed.
End Orders.
