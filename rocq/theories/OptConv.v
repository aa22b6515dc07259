(** * Proofs about relaxing soft clauses and converting optimization instances *)

From Coq Require Import List Bool NArith ZArith Lia Arith Permutation.
From Verif Require Import Spec EncSpec Types Constraints ConstrSpec Base TypesProofs ConstrProofs NodeDb ConstrEnc Maps VarSpec VarMan VarManProofs Inst InstSpec InstProofs Opt OptSpec OptProofs.
Import ListNotations.

(** ** Values depend on the variables of the objective *)
Lemma wsum_agree a a' ls : (forall l, In l (map fst ls) -> a (lvar l) = a' (lvar l)) -> wsum a ls = wsum a' ls.
Proof.
  intros H. rewrite !wsum_ksum. apply ksum_ext. intros l w Hin. unfold lit_true. rewrite H; [reflexivity|]. change l with (fst (l, w)). now apply in_map.
Qed.
Lemma sat_clause_agree' a a' c : (forall l, In l c -> a (lvar l) = a' (lvar l)) -> sat_clause a c = sat_clause a' c.
Proof. intros H. induction c as [|l c IH]; [reflexivity|]. cbn. unfold lit_true at 1 2. rewrite (H l (or_introl eq_refl)). f_equal. apply IH. intros x Hx. apply H. now right. Qed.
Lemma cls_cost_agree a a' cs : (forall l, In l (concat (map fst cs)) -> a (lvar l) = a' (lvar l)) -> cls_cost a cs = cls_cost a' cs.
Proof.
  intros H. rewrite !cls_cost_ksum. apply ksum_ext. intros c w Hin. f_equal. apply sat_clause_agree'. intros l Hl. apply H. apply in_concat. exists c. split; [|assumption]. change c with (fst (c, w)). now apply in_map.
Qed.
Lemma value_agree a a' o : (forall l, In l (obj_vars o) -> a (lvar l) = a' (lvar l)) -> obj_value a o = obj_value a' o.
Proof.
  intros H. unfold obj_value. rewrite (wsum_agree a a'), (cls_cost_agree a a'); [reflexivity| |]; intros l Hl; apply H; unfold obj_vars; apply in_or_app; auto.
Qed.

(** ** Relaxation literals *)
Fixpoint relax_cls (es : list (clause * nat)) (n : N) : cnf :=
  match es with [] => [] | e :: es' => (fst e ++ [pos n]) :: relax_cls es' (n + 1) end.
Fixpoint relax_lits (es : list (clause * nat)) (n : N) : list (lit * nat) :=
  match es with [] => [] | e :: es' => (pos n, snd e) :: relax_lits es' (n + 1) end.
Lemma relax_lits_var es : forall n l w, In (l, w) (relax_lits es n) -> (n <= lvar l < n + N.of_nat (length es))%N.
Proof.
  induction es as [|e es IH]; cbn [relax_lits length]; intros n l w; [intros []|]. intros [[= <- <-]|H]; [cbn; lia|]. apply IH in H. lia.
Qed.
Lemma relax_lits_nodup es : forall n, NoDup (map fst (relax_lits es n)).
Proof.
  induction es as [|e es IH]; intros n; cbn [relax_lits map fst]; constructor; [|apply IH]. intros H. apply in_map_iff in H as ([l w] & E & H). cbn [fst] in E. apply relax_lits_var in H. subst l. cbn in H. lia.
Qed.
Lemma relax_step_some {S} (put : S -> lit -> nat -> S) f ls n c w : (1 < length c)%nat -> relax_step put (f, ls, n) (c, w) = Some (f ++ [c ++ [pos n]], put ls (pos n) w, (n + 1)%N).
Proof. intros H. unfold relax_step. cbn [fst snd]. destruct (Nat.ltb_spec 1 (length c)); [|lia]. reflexivity. Qed.
Lemma NoDup_app_intro {A} (xs ys : list A) : NoDup xs -> NoDup ys -> (forall x, In x xs -> In x ys -> False) -> NoDup (xs ++ ys).
Proof.
  induction xs as [|x xs IH]; intros H1 H2 H3; [exact H2|]. inversion H1; subst. cbn. constructor.
  - intros H. apply in_app_or in H as [H|H]; [contradiction|]. apply (H3 x); [now left|assumption].
  - apply IH; [assumption|assumption|]. intros y Hy. apply H3. now right.
Qed.
Lemma relax_weighted es : forall f ls n, (forall c w, In (c, w) es -> (1 < length c)%nat) -> (forall l w, In (l, w) ls -> (lvar l < n)%N) ->
  foldM (relax_step (fun ls r w => ginsert lit_eqb ls r w)) es (f, ls, n) = Some (f ++ relax_cls es n, ls ++ relax_lits es n, (n + N.of_nat (length es))%N).
Proof.
  induction es as [|[c w] es IH]; intros f ls n Hc Hl; cbn [foldM relax_cls relax_lits length].
  - rewrite !app_nil_r, N.add_0_r. reflexivity.
  - rewrite relax_step_some by exact (Hc c w (or_introl eq_refl)). cbn [obind fst snd].
    rewrite (ginsert_new _ lit_eqb_eq); [|intros H'; apply in_map_iff in H' as ([l x] & E & H'); cbn in E; subst l; apply Hl in H'; cbn in H'; lia].
    rewrite IH; [|intros; eapply Hc; right; eassumption|].
    + rewrite <- !app_assoc. cbn [app]. do 2 f_equal. lia.
    + intros l x Hx. apply in_app_or in Hx as [Hx|[[= <- <-]|[]]]; [apply Hl in Hx; lia|cbn; lia].
Qed.
Lemma relax_unweighted es : forall f ls n, (forall c w, In (c, w) es -> (1 < length c)%nat) ->
  foldM (relax_step (fun ls r _ => ls ++ [r])) es (f, ls, n) = Some (f ++ relax_cls es n, ls ++ map fst (relax_lits es n), (n + N.of_nat (length es))%N).
Proof.
  induction es as [|[c w] es IH]; intros f ls n Hc; cbn [foldM relax_cls relax_lits length map fst].
  - rewrite !app_nil_r, N.add_0_r. reflexivity.
  - rewrite relax_step_some by exact (Hc c w (or_introl eq_refl)). cbn [obind fst snd].
    rewrite IH; [|intros; eapply Hc; right; eassumption]. rewrite <- !app_assoc. cbn [app]. do 2 f_equal. lia.
Qed.
Lemma sat_clause_snoc a c l : sat_clause a (c ++ [l]) = sat_clause a c || lit_true a l.
Proof. unfold sat_clause. rewrite existsb_app. cbn. now rewrite orb_false_r. Qed.
Lemma sat_cnf_cons a c f : sat_cnf a (c :: f) = sat_clause a c && sat_cnf a f.
Proof. reflexivity. Qed.
Lemma relax_lower es : forall n a, sat_cnf a (relax_cls es n) = true -> (cls_cost a es <= wsum a (relax_lits es n))%nat.
Proof.
  induction es as [|[c w] es IH]; intros n a H; cbn [relax_cls relax_lits cls_cost wsum fst snd] in *; [lia|]. rewrite sat_cnf_cons in H. apply andb_true_iff in H as [H1 H2]. apply IH in H2.
  rewrite sat_clause_snoc in H1. destruct (sat_clause a c); cbn [orb] in H1; [|rewrite H1]; lia.
Qed.
Lemma relax_extend es : forall n a, (forall c w l, In (c, w) es -> In l c -> (lvar l < n)%N) ->
  exists a', changes_only n (n + N.of_nat (length es)) a a' /\ sat_cnf a' (relax_cls es n) = true /\ wsum a' (relax_lits es n) = cls_cost a es.
Proof.
  induction es as [|[c w] es IH]; intros n a Hb.
  - exists a. split; [intros v _; reflexivity|]. split; reflexivity.
  - set (a1 := fun v => if (v =? n)%N then negb (sat_clause a c) else a v).
    destruct (IH (n + 1)%N a1) as (a' & C & S & V); [intros d x l H1 H2; specialize (Hb d x l (or_intror H1) H2); lia|].
    assert (Hc : forall d x, In (d, x) ((c, w) :: es) -> sat_clause a1 d = sat_clause a d).
    { intros d x H. apply sat_clause_agree'. intros l Hl. specialize (Hb d x l H Hl). unfold a1. destruct (N.eqb_spec (lvar l) n); [lia|reflexivity]. }
    assert (Hn : a' n = negb (sat_clause a c)). { rewrite C by lia. unfold a1. now rewrite N.eqb_refl. }
    assert (Hs : sat_clause a' c = sat_clause a c). { rewrite <- (Hc c w (or_introl eq_refl)). apply sat_clause_agree'. intros l Hl. apply C. specialize (Hb c w l (or_introl eq_refl) Hl). lia. }
    exists a'. split; [|split].
    + intros v Hv. cbn [length] in Hv. rewrite C by lia. unfold a1. destruct (N.eqb_spec v n); [lia|reflexivity].
    + cbn [relax_cls fst]. rewrite sat_cnf_cons, S, sat_clause_snoc, Hs. unfold lit_true. cbn [lvar lneg pos]. rewrite Hn. now destruct (sat_clause a c).
    + cbn [relax_lits wsum cls_cost fst snd]. rewrite V. unfold lit_true. cbn [lvar lneg pos]. rewrite Hn. f_equal; [now destruct (sat_clause a c)|].
      rewrite !cls_cost_ksum. apply ksum_ext. intros d x H. f_equal. apply (Hc d x). now right.
Qed.

Section Orders.
Context (lord : list (lit * nat) -> list (lit * nat)) (cord : list (clause * nat) -> list (clause * nat)) (Hord : orders lord cord).
Lemma vars_lit o l w : In (l, w) (obj_lits o) -> In l (obj_vars o).
Proof. intros H. unfold obj_vars. apply in_or_app. left. change l with (fst (l, w)). now apply in_map. Qed.
Lemma vars_cls o c w l : In (c, w) (obj_cls o) -> In l c -> In l (obj_vars o).
Proof. intros H Hl. unfold obj_vars. apply in_or_app. right. apply in_concat. exists c. split; [|assumption]. change c with (fst (c, w)). now apply in_map. Qed.
Lemma cls_long o c w : obj_wf o -> obj_nonempty o -> In (c, w) (obj_cls o) -> (1 < length c)%nat.
Proof. intros (_ & H & _) Hn Hin. destruct c as [|l [|l' c]]; [destruct (Hn w Hin)|destruct (H _ _ Hin) as [_ E]; now destruct E|cbn; lia]. Qed.

Definition clause_vars_in (f : cnf) (P : N -> Prop) : Prop := forall c l, In c f -> In l c -> P (lvar l).
Lemma relax_cls_vars es : forall n (P : N -> Prop), (forall c w l, In (c, w) es -> In l c -> P (lvar l)) -> (forall v, (n <= v < n + N.of_nat (length es))%N -> P v) -> clause_vars_in (relax_cls es n) P.
Proof.
  induction es as [|[c w] es IH]; intros n P H1 H2 d l; cbn [relax_cls]; [intros []|]. intros [<-|Hd] Hl.
  - cbn [fst] in Hl. apply in_app_or in Hl as [Hl|[<-|[]]]; [eapply H1; [now left|assumption]|]. cbn. apply H2. cbn [length]. lia.
  - apply (IH (n + 1)%N P) with (c := d); [intros; eapply H1; [right; eassumption|assumption]| |assumption|assumption]. intros v Hv. apply H2. cbn [length]. lia.
Qed.
Lemma perm_length_n {A} (xs ys : list A) : Permutation xs ys -> N.of_nat (length xs) = N.of_nat (length ys).
Proof. intros H. now rewrite (Permutation_length H). Qed.

(** The result of relaxing: no soft clauses are left, one variable per soft clause is used, costs are as they should be. *)
Lemma convert_spec o n : obj_wf o -> obj_nonempty o -> lits_below n (obj_vars o) -> exists o' f n', convert_to_soft_lits cord o n = Some (o', f, n') /\
  n' = (n + N.of_nat (length (obj_cls o)))%N /\ obj_wf o' /\ obj_cls o' = [] /\ lits_below n' (obj_vars o') /\ clause_vars_in f (fun v => In v (map lvar (obj_vars o)) \/ (n <= v < n')%N) /\
  relaxed n n' f (fun a => obj_value a o') (fun a => obj_value a o) /\
  (exists es, Permutation es (obj_cls o) /\ Permutation (obj_lits o') (obj_lits o ++ relax_lits es n) /\ f = relax_cls es n).
Proof.
  intros W Hne Hb. destruct Hord as [_ Hcord].
  set (es := match o with OWeighted _ _ cs => cord cs | OUnweighted _ u _ cs => map (fun c => (c, or_zero u)) cs end).
  assert (Pes : Permutation es (obj_cls o)) by (subst es; destruct o; [apply Hcord|reflexivity]).
  assert (Hlong : forall c w, In (c, w) es -> (1 < length c)%nat) by (intros c w H; apply (cls_long o c w W Hne); exact (Permutation_in _ Pes H)).
  assert (Hcb : forall c w l, In (c, w) es -> In l c -> (lvar l < n)%N) by (intros c w l H Hl; apply Hb; apply (vars_cls o c w); [exact (Permutation_in _ Pes H)|assumption]).
  assert (Hlb : forall l w, In (l, w) (obj_lits o) -> (lvar l < n)%N) by (intros l w H; apply Hb; now apply (vars_lit o l w)).
  assert (Hrest : forall o', obj_wf o' -> obj_offset o' = obj_offset o -> obj_cls o' = [] -> obj_lits o' = obj_lits o ++ relax_lits es n ->
    lits_below (n + N.of_nat (length (obj_cls o))) (obj_vars o') /\ clause_vars_in (relax_cls es n) (fun v => In v (map lvar (obj_vars o)) \/ (n <= v < n + N.of_nat (length (obj_cls o)))%N) /\
    relaxed n (n + N.of_nat (length (obj_cls o))) (relax_cls es n) (fun a => obj_value a o') (fun a => obj_value a o)).
  { intros o' W' Hoff Hcls Hlits. rewrite <- (perm_length_n _ _ Pes). split; [|split].
    - intros l Hl. unfold obj_vars in Hl. rewrite Hcls, Hlits, app_nil_r, map_app in Hl. apply in_app_or in Hl as [Hl|Hl]; apply in_map_iff in Hl as ([x w] & E & Hl); cbn in E; subst x.
      + apply Hlb in Hl. lia.
      + apply relax_lits_var in Hl. lia.
    - apply relax_cls_vars; [|auto]. intros c w l H Hl. left. apply in_map. apply (vars_cls o c w); [exact (Permutation_in _ Pes H)|assumption].
    - split.
      + intros a. destruct (relax_extend es n a Hcb) as (a' & C & S & V). exists a'. split; [exact C|]. split; [exact S|]. unfold obj_value. rewrite Hoff, Hcls, Hlits, wsum_app', V. cbn [cls_cost].
        rewrite (cls_cost_perm a _ _ Pes), (wsum_agree a' a); [lia|]. intros l Hl. apply in_map_iff in Hl as ([x w] & E & Hl). cbn in E. subst x. apply C. apply Hlb in Hl. lia.
      + intros a S. unfold obj_value. rewrite Hoff, Hcls, Hlits, wsum_app'. cbn [cls_cost]. pose proof (relax_lower es n a S) as R. rewrite (cls_cost_perm a _ _ Pes) in R. lia. }
  destruct o as [z ls cs|z u ls cs]; cbn [convert_to_soft_lits].
  - match goal with |- context [obind ?X _] => replace X with (Some ([] ++ relax_cls es n, ls ++ relax_lits es n, (n + N.of_nat (length es))%N)) by (symmetry; exact (relax_weighted es [] ls n Hlong Hlb)) end. cbn [obind app]. eexists _, _, _. split; [reflexivity|]. split; [now rewrite <- (perm_length_n _ _ Pes)|].
    assert (W' : obj_wf (OWeighted z (ls ++ relax_lits es n) [])).
    { apply wf_weighted in W as (W1 & W2 & W3 & W4). apply wf_weighted. split; [|split; [intros ? ? []|split; [|constructor]]].
      - intros l w H. apply in_app_or in H as [H|H]; [eauto|]. assert (exists c, In (c, w) es) as (c & Hc).
        { clear - H. revert n H. induction es as [|[c x] es IH]; intros n; cbn [relax_lits]; [intros []|]. cbn [snd]. intros [[= _ ->]|H]; [exists c; now left|]. destruct (IH _ H) as (d & Hd). exists d. now right. }
        apply (Permutation_in _ Pes) in Hc. apply (W2 c w Hc).
      - rewrite map_app. apply NoDup_app_intro; [assumption|apply relax_lits_nodup|]. intros l H1 H2. apply in_map_iff in H1 as ([x w] & E & H1). cbn in E. subst x. apply Hlb in H1. apply in_map_iff in H2 as ([x w'] & E & H2). cbn in E. subst x. apply relax_lits_var in H2. lia. }
    rewrite (perm_length_n _ _ Pes). destruct (Hrest _ W' eq_refl eq_refl eq_refl) as (R1 & R2 & R3). split; [exact W'|]. split; [reflexivity|]. split; [exact R1|]. split; [exact R2|]. split; [exact R3|]. exists es. auto.
  - assert (Hcs : forall x, map fst (relax_lits (map (fun c => (c, x)) cs) n) = map fst (relax_lits es n) /\ relax_cls (map (fun c => (c, x)) cs) n = relax_cls es n).
    { intros x. subst es. clear. revert n. induction cs as [|c cs IH]; intros n; [split; reflexivity|]. cbn [map relax_lits relax_cls fst]. destruct (IH (n + 1)%N) as [-> ->]. split; reflexivity. }
    destruct (Hcs 0%nat) as [Hcs1 Hcs2]. rewrite relax_unweighted by (intros c w H; apply in_map_iff in H as (d & [= <- <-] & H); apply (Hlong d (or_zero u)); apply in_map_iff; eauto). rewrite Hcs1, Hcs2. cbn [obind app].
    eexists _, _, _. split; [reflexivity|]. rewrite !map_length. cbn [obj_cls]. rewrite map_length. split; [reflexivity|].
    destruct (wf_unweighted_inv _ _ _ _ W) as (W1 & W2 & W3 & W4).
    assert (W' : obj_wf (OUnweighted z u (ls ++ map fst (relax_lits es n)) [])) by (apply wf_unweighted_intro; [intros E; split; [rewrite (W1 E); subst es; rewrite (W2 E); reflexivity|reflexivity]|assumption|intros c []]).
    assert (L' : obj_lits (OUnweighted z u (ls ++ map fst (relax_lits es n)) []) = obj_lits (OUnweighted z u ls cs) ++ relax_lits es n).
    { cbn [obj_lits]. rewrite map_app, map_map. f_equal. clear - es. subst es. revert n. induction cs as [|c cs IH]; intros n; cbn [map relax_lits fst snd]; [reflexivity|]. now rewrite IH. }
    destruct (Hrest _ W' eq_refl eq_refl L') as (R1 & R2 & R3). cbn [obj_cls] in R1, R2, R3. rewrite map_length in R1, R2, R3. split; [exact W'|]. split; [reflexivity|]. split; [exact R1|]. split; [exact R2|]. split; [exact R3|]. exists es. split; [exact Pes|]. split; [now rewrite L'|reflexivity].
Qed.
Lemma relaxed_ext n n' f c c' d : (forall a, c a = c' a) -> relaxed n n' f c d -> relaxed n n' f c' d.
Proof. intros H [R1 R2]. split; [intros a; destruct (R1 a) as (a' & H1 & H2 & H3); exists a'; rewrite <- H; auto|]. intros a S. rewrite <- H. auto. Qed.
Lemma into_soft_lits_spec o n : obj_wf o -> obj_nonempty o -> lits_below n (obj_vars o) -> exists f ls z n', into_soft_lits lord cord o n = Some (f, ls, z, n') /\
  (n <= n')%N /\ lits_below n' (map fst ls) /\ (forall l w, In (l, w) ls -> (0 < w)%nat) /\ NoDup (map fst ls) /\
  clause_vars_in f (fun v => In v (map lvar (obj_vars o)) \/ (n <= v < n')%N) /\
  relaxed n n' f (fun a => z + Z.of_nat (wsum a ls))%Z (fun a => obj_value a o).
Proof.
  intros W Hne Hb. destruct (convert_spec o n W Hne Hb) as (o' & f & n' & E & En & W' & C' & B' & V' & R & _). unfold into_soft_lits. rewrite E. cbn [obind].
  destruct (u2w_weighted o') as (ls & cs & Eu). pose proof (u2w_wf _ W') as Wu. pose proof (u2w_value o') as Vu. rewrite Eu in *.
  assert (cs = []) as ->. { destruct o' as [z' l' c'|z' [w'|] l' c']; cbn [unweighted_2_weighted obj_cls] in *; [subst; congruence| |congruence]. apply map_eq_nil in C'. subst c'. cbn in Eu. congruence. }
  apply wf_weighted in Wu as (W1 & _ & W3 & _). destruct Hord as [Hl _]. eexists _, _, _, _. split; [reflexivity|]. split; [lia|]. split; [|split; [|split; [|split; [exact V'|]]]].
  - intros l H. apply in_map_iff in H as ([x w] & Ex & H). cbn in Ex. subst x. apply (Permutation_in _ (Hl ls)) in H. apply B'. destruct o' as [z' l' c'|z' [w'|] l' c']; cbn [unweighted_2_weighted] in Eu.
    + injection Eu as <- _. apply (vars_lit (OWeighted z' l' c') l w). exact H.
    + injection Eu as Eu _. destruct (wf_some z' w' l' c') as [F _]. destruct (F W') as [Hw _]. destruct (gadds_spec lit_eqb lit_eqb_eq w' l' [] (NoDup_nil _) ltac:(intros ? ? []) Hw) as (_ & _ & _ & C4). rewrite Eu in C4. destruct (C4 _ _ H) as [[]|H'].
      unfold obj_vars. cbn [obj_lits]. rewrite map_map. cbn [fst]. rewrite map_id. apply in_or_app. now left.
    + injection Eu as <-. destruct H.
  - intros l w H. apply (W1 l w). exact (Permutation_in _ (Hl ls) H).
  - eapply Permutation_NoDup; [apply Permutation_map, Permutation_sym, Hl|assumption].
  - eapply relaxed_ext; [|exact R]. intros a. cbn beta. rewrite <- Vu. unfold obj_value. cbn [obj_offset obj_lits obj_cls cls_cost]. rewrite (wsum_perm' a _ _ (Hl ls)). lia.
Qed.
Lemma copies_count a m : count_true a (copies m) = wsum a m.
Proof.
  rewrite wsum_ksum. unfold copies. pose proof (copies_spec (lit_true a) m []) as H. cbn [map ksum] in H. rewrite <- wsum_ksum, count_true_const in H. lia.
Qed.
Lemma into_unweighted_soft_lits_spec o n : obj_wf o -> obj_nonempty o -> lits_below n (obj_vars o) -> exists f ls w z n', into_unweighted_soft_lits lord cord o n = Some (f, ls, w, z, n') /\
  (n <= n')%N /\ (0 < w)%nat /\ relaxed n n' f (fun a => z + Z.of_nat (w * count_true a ls))%Z (fun a => obj_value a o).
Proof.
  intros W Hne Hb. destruct (convert_spec o n W Hne Hb) as (o' & f & n' & E & En & W' & C' & B' & V' & R & es & _ & P & Ef). unfold into_unweighted_soft_lits. rewrite E. cbn [obind].
  destruct o' as [z' l' c'|z' [w'|] l' c']; cbn [obj_cls] in C'.
  - subst c'. eexists _, _, _, _, _. split; [reflexivity|]. split; [lia|]. split; [lia|]. eapply relaxed_ext; [|exact R]. intros a. unfold obj_value. cbn [obj_offset obj_lits obj_cls cls_cost]. rewrite copies_count. destruct Hord as [Hl _]. rewrite (wsum_perm' a _ _ (Hl l')). lia.
  - apply map_eq_nil in C'. subst c'. destruct (wf_some z' w' l' []) as [F _]. destruct (F W') as [Hw _]. eexists _, _, _, _, _. split; [reflexivity|]. split; [lia|]. split; [assumption|]. eapply relaxed_ext; [|exact R]. intros a. cbn beta. rewrite value_u. cbn [count_unsat]. lia.
  - apply map_eq_nil in C'. subst c'. destruct (wf_none _ _ _ W') as [-> _]. eexists _, _, _, _, _. split; [reflexivity|]. split; [lia|]. split; [lia|]. destruct R as [R1 R2]. split.
    + intros a. destruct (R1 a) as (a' & H1 & _ & H3). exists a'. split; [exact H1|]. split; [reflexivity|]. rewrite <- H3. cbn beta. rewrite value_k. cbn. lia.
    + intros a _. cbn [obj_lits map app] in P. apply Permutation_nil in P. apply app_eq_nil in P as [_ P].
      assert (S : sat_cnf a f = true) by (rewrite Ef; destruct es; [reflexivity|discriminate]). apply R2 in S. cbn beta in S. rewrite (value_k a (OUnweighted _ _ _ _)) in S. cbn in S. cbn. lia.
Qed.

(** ** Relaxing several objectives *)
Lemma sat_cnf_changes n n' a a' f : cnf_below n f -> changes_only n n' a a' -> sat_cnf a' f = sat_cnf a f.
Proof. intros Hb C. apply sat_cnf_agree. intros c l Hc Hl. apply C. left. exact (Hb c Hc l Hl). Qed.
Lemma value_changes n n' a a' o : lits_below n (obj_vars o) -> changes_only n n' a a' -> obj_value a' o = obj_value a o.
Proof. intros Hb C. apply value_agree. intros l Hl. apply C. left. now apply Hb. Qed.
Lemma relax_all os : forall f ss n, (forall o, In o os -> obj_wf o /\ obj_nonempty o /\ lits_below n (obj_vars o)) -> cnf_below n f ->
  exists h ss' n', foldM (m_lits_step lord cord) os (f, ss, n) = Some (cnf_extend f h, ss ++ ss', n') /\ (n <= n')%N /\ cnf_below n' (f ++ h) /\
    (forall a, sat_cnf a h = true -> Forall2 (fun o s => obj_value a o <= lits_value a s)%Z os ss') /\
    (forall a, exists a', changes_only n n' a a' /\ sat_cnf a' h = true /\ Forall2 (fun o s => lits_value a' s = obj_value a o) os ss').
Proof.
  induction os as [|o os IH]; intros f ss n Hos Hf.
  - exists [], [], n. unfold cnf_extend. rewrite !app_nil_r. split; [reflexivity|]. split; [lia|]. split; [assumption|]. split; [intros; constructor|]. intros a. exists a. split; [intros v _; reflexivity|]. split; [reflexivity|constructor].
  - destruct (Hos o (or_introl eq_refl)) as (W & Hne & Hb). destruct (into_soft_lits_spec o n W Hne Hb) as (h1 & ls & z & n1 & E1 & L1 & B1 & P1 & D1 & V1 & R1 & R2).
    assert (Hf1 : cnf_below n1 (f ++ h1)).
    { intros c Hc l Hl. apply in_app_or in Hc as [Hc|Hc]; [specialize (Hf c Hc l Hl); lia|]. destruct (V1 c l Hc Hl) as [H|H]; [|lia]. apply in_map_iff in H as (l' & <- & H). apply Hb in H. lia. }
    destruct (IH (f ++ h1) (ss ++ [(ls, z)]) n1) as (h2 & ss2 & n2 & E2 & L2 & B2 & S2 & X2); [intros o' Ho'; destruct (Hos o' (or_intror Ho')) as (G1 & G2 & G3); split; [assumption|split; [assumption|]]; intros l Hl; apply G3 in Hl; lia|assumption|].
    exists (h1 ++ h2), ((ls, z) :: ss2), n2. split; [|split; [lia|split; [now rewrite app_assoc|split]]].
    + cbn [foldM]. assert (Es : m_lits_step lord cord (f, ss, n) o = Some (f ++ h1, ss ++ [(ls, z)], n1)) by (unfold m_lits_step; rewrite E1; reflexivity). rewrite Es. cbn [obind]. refine (eq_trans E2 _). unfold cnf_extend. rewrite <- !app_assoc. reflexivity.
    + intros a Ha. rewrite sat_cnf_app in Ha. apply andb_true_iff in Ha as [Ha1 Ha2]. constructor; [exact (R2 a Ha1)|auto].
    + intros a. destruct (R1 a) as (a1 & C1 & Sa1 & Va1). destruct (X2 a1) as (a2 & C2 & Sa2 & Va2). exists a2. split; [|split].
      * intros v Hv. rewrite C2, C1 by lia. reflexivity.
      * rewrite sat_cnf_app, Sa2, andb_true_r. rewrite (sat_cnf_changes n1 n2 a1 a2 h1); [assumption| |assumption]. intros c Hc. apply Hf1. apply in_or_app. now right.
      * constructor.
        { rewrite <- Va1. unfold lits_value. cbn [fst snd]. rewrite (wsum_agree a2 a1); [reflexivity|]. intros l Hl. apply C2. left. now apply B1. }
        { clear - Va2 C1 Hos. induction Va2 as [|o' s os ss H _ IH]; constructor; [|apply IH; intros o2 [<-|H2]; apply Hos; [now left|right; now right]]. rewrite H. destruct (Hos o' (or_intror (or_introl eq_refl))) as (_ & _ & G). exact (value_changes _ _ _ _ _ G C1). }
Qed.
Lemma mapM_forall2 {A B} (g : A -> option B) (P : A -> B -> Prop) xs : (forall x, In x xs -> exists y, g x = Some y /\ P x y) -> exists ys, mapM g xs = Some ys /\ Forall2 P xs ys.
Proof.
  induction xs as [|x xs IH]; intros H; [exists []; split; [reflexivity|constructor]|]. destruct (H x (or_introl eq_refl)) as (y & E & Hy). destruct IH as (ys & E' & Hys); [intros; apply H; now right|].
  exists (y :: ys). cbn [mapM]. rewrite E. cbn [obind]. rewrite E'. split; [reflexivity|]. now constructor.
Qed.

(** ** Instances *)
Lemma next_increase_eq v n : fst (next_increase v n) = N.max v n.
Proof. unfold next_increase. destruct (N.ltb_spec n v); cbn; lia. Qed.
Lemma objs_max_ge os : forall m o l, In o os -> In l (obj_vars o) -> (lvar l <= fold_left (fun v o => match obj_max_var o with Some mv => N.max v mv | None => v end) os m)%N.
Proof.
  assert (Hmono : forall os m, (m <= fold_left (fun v o => match obj_max_var o with Some mv => N.max v mv | None => v end) os m)%N).
  { induction os0 as [|o os0 IH]; intros m; cbn [fold_left]; [lia|]. eapply N.le_trans; [|apply IH]. destruct (obj_max_var o); lia. }
  induction os as [|o' os IH]; intros m o l Ho Hl; [destruct Ho|]. cbn [fold_left]. destruct Ho as [->|Ho]; [|now apply (IH _ o)]. eapply N.le_trans; [|apply Hmono].
  pose proof (obj_max_var_spec o) as Hm. destruct (obj_max_var o) as [mv|]; [destruct Hm as [_ Hm]; specialize (Hm l Hl); lia|]. rewrite Hm in Hl. destruct Hl.
Qed.
Section Conv.
Context (to_cnf : inst -> option (cnf * N)).
Context (i : inst) (f : cnf) (n : N) (Hk : inst_known i) (Hc : to_cnf i = Some (f, n)) (Hex : exact_clauses (inst_lits i) (i_next i) n f (fun a => inst_holds a i)).
Lemma conv_below : cnf_below n f.
Proof.
  destruct Hex as (Hn & Hv & _). intros c Hc' l Hl. destruct (Hv c l Hc' Hl) as [(x & Hx & E)|H]; [|lia]. rewrite <- E. apply Hk in Hx. lia.
Qed.
Lemma conv_extend os a : (forall o l, In o os -> In l (obj_vars o) -> (lvar l < i_next i \/ n <= lvar l)%N) -> inst_holds a i ->
  exists a', changes_only (i_next i) n a a' /\ (forall v, opt_var i os v -> a' v = a v) /\ sat_cnf a' f = true.
Proof.
  intros Hcl Ha. destruct Hex as (Hn & _ & _ & Hx). destruct (Hx a Ha) as (a' & C & S). exists a'. split; [assumption|]. split; [|assumption]. intros v [(l & Hl & <-)|(o & Ho & Hv)].
  - apply C. left. now apply Hk.
  - apply in_map_iff in Hv as (l & <- & Hl). apply C. specialize (Hcl o l Ho Hl). lia.
Qed.
Lemma conv_value os a a' o : In o os -> (forall v, opt_var i os v -> a' v = a v) -> obj_value a' o = obj_value a o.
Proof. intros Ho H. apply value_agree. intros l Hl. apply H. right. exists o. split; [assumption|]. now apply in_map. Qed.
Lemma conv_cls os ss : (forall o l, In o os -> In l (obj_vars o) -> (lvar l < i_next i \/ n <= lvar l)%N) -> Forall2 (fun o s => forall a, cls_value a s = obj_value a o) os ss -> soft_cls_form i os f ss.
Proof.
  intros Hcl Hss. split.
  - intros a Ha. destruct Hex as (_ & _ & Hs & _). split; [auto|]. clear - Hss. induction Hss; constructor; auto.
  - intros a Ha. destruct (conv_extend os a Hcl Ha) as (a' & _ & K & S). exists a'. split; [assumption|]. split; [assumption|].
    assert (Hv : forall o, In o os -> obj_value a' o = obj_value a o) by (intros o Ho; now apply (conv_value os)). clear - Hss Hv. induction Hss as [|o s os ss H _ IH]; constructor; [rewrite H; apply Hv; now left|]. apply IH. intros o' Ho'. apply Hv. now right.
Qed.
Lemma conv_lits os m : (forall o, In o os -> obj_wf o /\ obj_nonempty o /\ lits_below m (obj_vars o)) -> (n <= m)%N ->
  (forall o l, In o os -> In l (obj_vars o) -> (lvar l < i_next i \/ n <= lvar l)%N) ->
  exists h ss n', foldM (m_lits_step lord cord) os (f, [], m) = Some (cnf_extend f h, ss, n') /\ soft_lits_form i os (cnf_extend f h) ss.
Proof.
  intros Hos Hm Hcl. destruct (relax_all os f [] m Hos) as (h & ss & n' & E & L & B & S & X); [intros c Hc' l Hl; specialize (conv_below c Hc' l Hl); lia|].
  exists h, ss, n'. split; [exact E|]. split.
  - intros a Ha. unfold cnf_extend in Ha. rewrite sat_cnf_app in Ha. apply andb_true_iff in Ha as [Ha1 Ha2]. destruct Hex as (_ & _ & Hs & _). auto.
  - intros a Ha. destruct (conv_extend os a Hcl Ha) as (a1 & C1 & K1 & S1). destruct (X a1) as (a2 & C2 & S2 & V2). exists a2. split; [|split].
    + intros v Hv. rewrite <- (K1 v Hv). apply C2. left. destruct Hv as [(l & Hl & <-)|(o & Ho & Hv)].
      * apply Hk in Hl. destruct Hex as (Hn & _). lia.
      * apply in_map_iff in Hv as (l & <- & Hl). destruct (Hos o Ho) as (_ & _ & G). now apply G.
    + unfold cnf_extend. rewrite sat_cnf_app, S2, andb_true_r. rewrite (sat_cnf_changes m n' a1 a2 f); [assumption| |assumption]. intros c Hc' l Hl. specialize (conv_below c Hc' l Hl). lia.
    + assert (Hv : forall o, In o os -> obj_value a1 o = obj_value a o) by (intros o Ho; now apply (conv_value os)). clear - V2 Hv. induction V2 as [|o s os ss H _ IH]; constructor; [rewrite H; apply Hv; now left|]. apply IH. intros o' Ho'. apply Hv. now right.
Qed.
End Conv.
Definition clear_of (to_cnf : inst -> option (cnf * N)) (i : inst) (os : list obj) : Prop :=
  exists f n, to_cnf i = Some (f, n) /\ exact_clauses (inst_lits i) (i_next i) n f (fun a => inst_holds a i) /\
    forall o l, In o os -> In l (obj_vars o) -> (lvar l < i_next i \/ n <= lvar l)%N.
Lemma m_soft_cls_spec to_cnf p : inst_known (mo_constrs p) -> clear_of to_cnf (mo_constrs p) (mo_objs p) -> (forall o, In o (mo_objs p) -> obj_wf o) ->
  exists f ss n, m_into_hard_cls_soft_cls lord cord to_cnf p = Some (f, ss, n) /\ soft_cls_form (mo_constrs p) (mo_objs p) f ss.
Proof.
  intros Hk (f & n & Hc & Hex & Hcl) Hw. unfold m_into_hard_cls_soft_cls. rewrite Hc. cbn [obind].
  destruct (mapM_forall2 (into_soft_cls lord cord) (fun o s => forall a, cls_value a s = obj_value a o) (mo_objs p)) as (ss & E & Hss).
  { intros o Ho. destruct (into_soft_cls_value lord cord Hord o (Hw o Ho)) as (cs & z & E & V). exists (cs, z). split; [exact E|]. exact V. }
  rewrite E. cbn [obind]. eexists _, _, _. split; [reflexivity|]. eapply conv_cls; eassumption.
Qed.
Lemma m_soft_lits_spec to_cnf p : inst_known (mo_constrs p) -> objs_known (mo_constrs p) (mo_objs p) -> (exists f n, to_cnf (mo_constrs p) = Some (f, n) /\ exact_clauses (inst_lits (mo_constrs p)) (i_next (mo_constrs p)) n f (fun a => inst_holds a (mo_constrs p))) ->
  (forall o, In o (mo_objs p) -> obj_wf o /\ obj_nonempty o) ->
  exists f ss n, m_into_hard_cls_soft_lits lord cord to_cnf p = Some (f, ss, n) /\ soft_lits_form (mo_constrs p) (mo_objs p) f ss.
Proof.
  intros Hk Hok (f & n & Hc & Hex) Hw. unfold m_into_hard_cls_soft_lits. rewrite Hc. cbn [obind]. rewrite next_increase_eq.
  destruct (conv_lits (mo_constrs p) f n Hk Hex (mo_objs p) (N.max (objs_max (mo_objs p)) n)) as (h & ss & n' & E & R); [|lia| |exists (cnf_extend f h), ss, n'; auto].
  - intros o Ho. destruct (Hw o Ho) as [W N]. split; [assumption|]. split; [assumption|]. intros l Hl. specialize (Hok o Ho l Hl). destruct Hex as (Hn & _). lia.
  - intros o l Ho Hl. left. exact (Hok o Ho l Hl).
Qed.
Lemma soft_cls_spec to_cnf p : inst_known (o_constrs p) -> clear_of to_cnf (o_constrs p) [o_obj p] -> obj_wf (o_obj p) ->
  exists f s n, into_hard_cls_soft_cls lord cord to_cnf p = Some (f, s, n) /\ soft_cls_form (o_constrs p) [o_obj p] f [s].
Proof.
  intros Hk (f & n & Hc & Hex & Hcl) Hw. unfold into_hard_cls_soft_cls. rewrite Hc. cbn [obind]. destruct (into_soft_cls_value lord cord Hord (o_obj p) Hw) as (cs & z & E & V). rewrite E. cbn [obind].
  eexists _, _, _. split; [reflexivity|]. eapply conv_cls; [eassumption|eassumption|eassumption|]. constructor; [exact V|constructor].
Qed.
Lemma raise_next_spec n o : (n <= raise_next n (obj_max_var o))%N /\ lits_below (raise_next n (obj_max_var o)) (obj_vars o).
Proof.
  unfold raise_next. pose proof (obj_max_var_spec o) as H. destruct (obj_max_var o) as [v|].
  - rewrite next_increase_eq. split; [lia|]. destruct H as [_ H]. intros l Hl. specialize (H l Hl). lia.
  - split; [lia|]. rewrite H. intros l [].
Qed.
Lemma soft_lits_spec to_cnf p : inst_known (o_constrs p) -> clear_of to_cnf (o_constrs p) [o_obj p] -> obj_wf (o_obj p) -> obj_nonempty (o_obj p) ->
  exists f s n, into_hard_cls_soft_lits lord cord to_cnf p = Some (f, s, n) /\ soft_lits_form (o_constrs p) [o_obj p] f [s].
Proof.
  intros Hk (f & n & Hc & Hex & Hcl) Hw Hne. unfold into_hard_cls_soft_lits. rewrite Hc. cbn [obind]. destruct (raise_next_spec n (o_obj p)) as [L B].
  destruct (conv_lits (o_constrs p) f n Hk Hex [o_obj p] (raise_next n (obj_max_var (o_obj p)))) as (h & ss & n' & E & R); [|assumption|assumption|].
  { intros o [<-|[]]. auto. }
  cbn [foldM] in E. unfold m_lits_step in E. destruct (into_soft_lits lord cord (o_obj p) _) as [[[[h' ls] z] n1]|]; [|discriminate]. cbn [obind] in E. assert (cnf_extend f h' = cnf_extend f h) as E1 by congruence. assert ([(ls, z)] = ss) as E2 by (cbn [app] in E; congruence).
  cbn [obind]. eexists _, _, _. split; [reflexivity|]. rewrite E1, E2. exact R.
Qed.

(** Composing makes the objective's variables known *)
Lemma compose_known i o : inst_known i -> inst_known (o_constrs (opt_compose i o)) /\ objs_known (o_constrs (opt_compose i o)) [o_obj (opt_compose i o)] /\
  (forall a, inst_holds a (o_constrs (opt_compose i o)) <-> inst_holds a i).
Proof.
  intros Hk. unfold opt_compose. cbn [o_constrs o_obj]. assert (E : i_next (raise_max i (obj_max_var o)) = raise_next (i_next i) (obj_max_var o)) by (unfold raise_max, raise_next, inst_increase; destruct (obj_max_var o); reflexivity).
  destruct (raise_next_spec (i_next i) o) as [L B]. assert (E2 : inst_lits (raise_max i (obj_max_var o)) = inst_lits i) by (destruct (obj_max_var o); reflexivity). split; [|split].
  - unfold inst_known. rewrite E, E2. intros l Hl. apply Hk in Hl. lia.
  - intros o' [<-|[]]. rewrite E. exact B.
  - intros a. destruct (obj_max_var o); reflexivity.
Qed.
Lemma m_compose_known os : forall i, inst_known i -> inst_known (mo_constrs (mopt_compose i os)) /\ objs_known (mo_constrs (mopt_compose i os)) os /\
  (forall a, inst_holds a (mo_constrs (mopt_compose i os)) <-> inst_holds a i) /\ (i_next i <= i_next (mo_constrs (mopt_compose i os)))%N.
Proof.
  unfold mopt_compose. cbn [mo_constrs]. induction os as [|o os IH]; intros i Hk; cbn [fold_left]; [split; [assumption|split; [intros o []|split; [reflexivity|lia]]]|].
  destruct (compose_known i o Hk) as (C1 & C2 & C3). unfold opt_compose in *. cbn [o_constrs o_obj] in *. destruct (IH _ C1) as (I1 & I2 & I3 & I4). split; [assumption|]. split; [|split; [intros a; rewrite I3; apply C3|]].
  - intros o' [<-|Ho]; [|now apply I2]. intros l Hl. specialize (C2 o (or_introl eq_refl) l Hl). lia.
  - eapply N.le_trans; [|exact I4]. unfold raise_max, inst_increase. destruct (obj_max_var o); cbn [i_next]; [rewrite next_increase_eq|]; lia.
Qed.
Lemma decompose_known p i o : inst_known (o_constrs p) -> opt_decompose p = (i, o) -> o = o_obj p /\ inst_known i /\ objs_known i [o] /\ (forall a, inst_holds a i <-> inst_holds a (o_constrs p)).
Proof.
  intros Hk E. unfold opt_decompose in E. injection E as <- <-. destruct (compose_known (o_constrs p) (o_obj p) Hk) as (C1 & C2 & C3). unfold opt_compose in *. cbn [o_constrs o_obj] in *. auto.
Qed.
Lemma m_decompose_known p i os : inst_known (mo_constrs p) -> mopt_decompose p = (i, os) -> os = mo_objs p /\ inst_known i /\ objs_known i os /\ (forall a, inst_holds a i <-> inst_holds a (mo_constrs p)).
Proof.
  intros Hk E. unfold mopt_decompose in E. injection E as <- <-. split; [reflexivity|]. unfold inst_increase. split; [|split; [|reflexivity]].
  - unfold inst_known. cbn [i_next]. rewrite next_increase_eq. intros l Hl. apply Hk in Hl. lia.
  - intros o Ho l Hl. cbn [i_next]. rewrite next_increase_eq. pose proof (objs_max_ge (mo_objs p) 0%N o l Ho Hl). unfold objs_max. lia.
Qed.
End Orders.

(** ** With the default encodings *)
Lemma default_clear ord ord1 ord2 ord3 ord4 i os :
  iter_order ord -> iter_order ord1 -> iter_order ord2 -> iter_order ord3 -> iter_order ord4 ->
  inst_known i -> (forall p, In p (i_pbs i) -> pb_plain p /\ ~ indivisible p) -> objs_known i os \/ only_clauses i ->
  clear_of (into_cnf ord ord1 ord2 ord3 ord4) i os.
Proof.
  intros O O1 O2 O3 O4 Hk Hp Hos. destruct (into_cnf_default ord ord1 ord2 ord3 ord4 i O O1 O2 O3 O4 Hk Hp) as (f & n & E & Hex). exists f, n. split; [assumption|]. split; [assumption|].
  intros o l Ho Hl. destruct Hos as [Hos|[H1 H2]]; [left; now apply (Hos o)|].
  destruct i as [g cards pbs next]. cbn [i_cards i_pbs] in H1, H2. subst. unfold into_cnf, into_cnf_with_encoders, convert_to_cnf_with_encoders in E. cbn in E. injection E as <- <-. cbn [i_next]. lia.
Qed.

(** ** Costs *)
Lemma inst_evaluate_true_sound s i a : (forall c, In c (i_pbs i) -> (Z.of_nat (total_weight (p_lits c)) <= isize_max)%Z) ->
  inst_evaluate s i = TTrue -> completes a (pasg_of s) -> inst_holds a i.
Proof.
  intros Hb E Ha. destruct (inst_evaluate_cases s i) as [T _]. apply T in E as (E1 & E2 & E3). clear T. split; [|split].
  - apply (proj1 (cnf_evaluate_sound s (i_cnf i) a Ha)). apply cnf_evaluate_cases. exact E1.
  - intros c Hc. apply (card_evaluate_true_sound s); auto.
  - intros c Hc. apply (pb_evaluate_true_sound s); auto.
Qed.
Lemma opt_cost_lower s p v a : (forall c, In c (i_pbs (o_constrs p)) -> (Z.of_nat (total_weight (p_lits c)) <= isize_max)%Z) -> obj_wf (o_obj p) ->
  opt_cost s p = Some (Some v) -> completes a (pasg_of s) -> inst_holds a (o_constrs p) /\ (v <= obj_value a (o_obj p))%Z.
Proof.
  intros Hb W E Ha. unfold opt_cost in E. destruct (inst_evaluate s (o_constrs p)) eqn:Ei; try discriminate. split; [eapply inst_evaluate_true_sound; eauto|].
  destruct (evaluate_le s (o_obj p) a W Ha) as (v' & E' & L). rewrite E' in E. cbn [obind] in E. injection E as <-. exact L.
Qed.
Lemma opt_cost_total s p a : (forall c, In c (i_pbs (o_constrs p)) -> (p_b c <= isize_max)%Z) -> obj_wf (o_obj p) ->
  (forall l, In l (inst_lits (o_constrs p)) \/ In l (obj_vars (o_obj p)) -> lit_value s l <> TDontCare) -> completes a (pasg_of s) ->
  (opt_cost s p = Some (Some (obj_value a (o_obj p))) /\ inst_holds a (o_constrs p)) \/ (opt_cost s p = Some None /\ ~ inst_holds a (o_constrs p)).
Proof.
  intros Hb W Hd Hc. unfold opt_cost. destruct (inst_evaluate_total s (o_constrs p) a Hb (fun l H => Hd l (or_introl H)) Hc) as [[E H]|[E H]]; rewrite E; [left|right]; (split; [|assumption]).
  - rewrite (evaluate_total s (o_obj p) a W Hc) by (intros l Hl; apply Hd; now right). reflexivity.
  - reflexivity.
Qed.
Lemma mopt_cost_total s p a : (forall c, In c (i_pbs (mo_constrs p)) -> (p_b c <= isize_max)%Z) -> (forall o, In o (mo_objs p) -> obj_wf o) ->
  (forall l, In l (inst_lits (mo_constrs p)) \/ (exists o, In o (mo_objs p) /\ In l (obj_vars o)) -> lit_value s l <> TDontCare) -> completes a (pasg_of s) ->
  (mopt_cost s p = Some (Some (map (obj_value a) (mo_objs p))) /\ inst_holds a (mo_constrs p)) \/ (mopt_cost s p = Some None /\ ~ inst_holds a (mo_constrs p)).
Proof.
  intros Hb W Hd Hc. unfold mopt_cost. destruct (inst_evaluate_total s (mo_constrs p) a Hb (fun l H => Hd l (or_introl H)) Hc) as [[E H]|[E H]]; rewrite E; [left|right]; (split; [|assumption]); [|reflexivity].
  assert (G : mapM (obj_evaluate s) (mo_objs p) = Some (map (obj_value a) (mo_objs p))); [|rewrite G; reflexivity].
  assert (Ho : forall o, In o (mo_objs p) -> obj_evaluate s o = Some (obj_value a o)) by (intros o Ho; apply evaluate_total; [auto|assumption|]; intros l Hl; apply Hd; right; eauto).
  clear - Ho. induction (mo_objs p) as [|o os IH]; [reflexivity|]. cbn [mapM map]. rewrite (Ho o (or_introl eq_refl)). cbn [obind]. rewrite IH by (intros; apply Ho; now right). reflexivity.
Qed.
