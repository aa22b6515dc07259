(** * Proofs about objectives: calls, evaluation, conversions *)

From Coq Require Import List Bool NArith ZArith Lia Arith Permutation.
From Verif Require Import Spec Types Constraints ConstrSpec Base TypesProofs ClauseProofs NodeDb Maps VarSpec VarMan VarManProofs Inst InstSpec InstProofs Opt OptSpec.
Import ListNotations.

(** ** Weighted sums over keys *)
Section KSum.
Context {K : Type}.

Fixpoint ksum (p : K -> bool) (m : list (K * nat)) : nat :=
  match m with [] => 0 | (k, w) :: m' => (if p k then w else 0) + ksum p m' end.
Lemma ksum_app p m m' : ksum p (m ++ m') = (ksum p m + ksum p m')%nat.
Proof. induction m as [|[k w] m IH]; cbn; lia. Qed.
Lemma ksum_perm p m m' : Permutation m m' -> ksum p m = ksum p m'.
Proof. induction 1 as [|[k w]|[k w] [k' w']|]; cbn in *; lia. Qed.
Lemma ksum_ext p q m : (forall k w, In (k, w) m -> p k = q k) -> ksum p m = ksum q m.
Proof. induction m as [|[k w] m IH]; intros H; cbn; [reflexivity|]. rewrite (H k w) by now left. rewrite IH; [reflexivity|]. intros; eapply H; right; eauto. Qed.
Lemma ksum_le p q m : (forall k w, In (k, w) m -> p k = true -> q k = true) -> (ksum p m <= ksum q m)%nat.
Proof.
  induction m as [|[k w] m IH]; intros H; cbn; [lia|]. pose proof (H k w (or_introl eq_refl)). specialize (IH ltac:(intros; eapply H; [right|]; eauto)).
  destruct (p k); [rewrite H0 by reflexivity|]; destruct (q k); lia.
Qed.
Lemma ksum_map_const p w ks : ksum p (map (fun k => (k, w)) ks) = (length (filter p ks) * w)%nat.
Proof. induction ks as [|k ks IH]; cbn; [reflexivity|]. rewrite IH. destruct (p k); cbn; lia. Qed.
Lemma ksum_repeat p k n : ksum p (map (fun k => (k, 1%nat)) (repeat k n)) = if p k then n else 0%nat.
Proof. induction n as [|n IH]; cbn; [now destruct (p k)|]. rewrite IH. destruct (p k); lia. Qed.

Lemma position_spec (q : K -> bool) xs : match position q xs with
  | Some i => exists x, nth_error xs i = Some x /\ q x = true
  | None => forall x, In x xs -> q x = false end.
Proof.
  induction xs as [|x xs IH]; cbn; [intros ? []|]. destruct (q x) eqn:E; [exists x; auto|]. destruct (position q xs) as [i|]; cbn; [exact IH|]. intros y [<-|H]; auto.
Qed.
Lemma vec_set_perm (xs : list K) i x y : nth_error xs i = Some x -> exists xs', vec_set i y xs = Some xs' /\ Permutation (x :: xs') (y :: xs).
Proof.
  revert i. induction xs as [|z xs IH]; intros [|i]; cbn; try discriminate.
  - intros [= ->]. eexists. split; [reflexivity|]. apply perm_swap.
  - intros H. destruct (IH _ H) as (xs' & -> & P). eexists. split; [reflexivity|]. etransitivity; [apply perm_swap|]. etransitivity; [apply perm_skip; exact P|]. apply perm_swap.
Qed.
Lemma swap_remove_perm (xs : list K) i x : nth_error xs i = Some x -> exists xs', swap_remove i xs = Some xs' /\ Permutation (x :: xs') xs.
Proof.
  intros H. assert (Hn : xs <> []) by (intros ->; destruct i; discriminate). assert (Hi : (i < length xs)%nat) by (apply nth_error_Some; congruence).
  destruct (exists_last Hn) as (ys & y & ->). unfold swap_remove. rewrite app_length in *. cbn [length] in *. replace (length ys + 1 - 1)%nat with (length ys) by lia.
  rewrite nth_error_app2 by lia. rewrite Nat.sub_diag. cbn [nth_error obind]. destruct (Nat.eq_dec i (length ys)) as [->|Hne].
  - rewrite vec_set_app. cbn [obind]. rewrite removelast_last. rewrite nth_error_app2, Nat.sub_diag in H by lia. cbn in H. injection H as ->. exists ys. split; [reflexivity|]. apply Permutation_cons_append.
  - rewrite nth_error_app1 in H by lia. destruct (vec_set_perm _ _ _ y H) as (ys' & E & P).
    assert (E' : vec_set i y (ys ++ [y]) = Some (ys' ++ [y])).
    { clear - E. revert i ys' E. induction ys as [|z ys IH]; intros [|i] ys'; cbn; try discriminate; [intros [= <-]; reflexivity|].
      destruct (vec_set i y ys) as [zs|] eqn:Ez; [|discriminate]. intros [= <-]. now rewrite (IH _ _ Ez). }
    rewrite E'. cbn [obind]. rewrite removelast_last. exists ys'. split; [reflexivity|]. etransitivity; [exact P|]. apply Permutation_cons_append.
Qed.

Lemma fold_cost {E} (g : E -> bool) (h : E -> nat) es n : fold_left (fun c e => if g e then c + h e else c)%nat es n = (n + fold_left (fun c e => if g e then c + h e else c)%nat es 0)%nat.
Proof.
  revert n. induction es as [|e es IH]; intros n; cbn; [lia|]. rewrite IH, (IH (if g e then _ else _)). destruct (g e); lia.
Qed.
Lemma fold_ksum (g : K -> bool) m n : fold_left (fun c e => if g (fst e) then c + snd e else c)%nat m n = (n + ksum g m)%nat.
Proof. revert n. induction m as [|[k w] m IH]; intros n; cbn; [lia|]. rewrite IH. destruct (g k); lia. Qed.
Lemma fold_count (g : K -> bool) ks n : fold_left (fun c k => if g k then c + 1 else c)%nat ks n = (n + length (filter g ks))%nat.
Proof. revert n. induction ks as [|k ks IH]; intros n; cbn; [lia|]. rewrite IH. destruct (g k); cbn; lia. Qed.
Lemma fold_total (m : list (K * nat)) n : fold_left (fun s e => s + snd e)%nat m n = (n + ksum (fun _ => true) m)%nat.
Proof. revert n. induction m as [|[k w] m IH]; intros n; cbn; [lia|]. rewrite IH. lia. Qed.
Lemma copies_spec p m : forall xs, ksum p (map (fun k => (k, 1%nat)) (fold_left (fun xs e => xs ++ repeat (fst e) (snd e)) m xs)) = (ksum p (map (fun k => (k, 1%nat)) xs) + ksum p m)%nat.
Proof. induction m as [|[k w] m IH]; intros xs; cbn; [lia|]. rewrite IH, map_app, ksum_app, ksum_repeat. lia. Qed.
Lemma copies_in (m : list (K * nat)) x : forall xs, In x (fold_left (fun xs e => xs ++ repeat (fst e) (snd e)) m xs) -> In x xs \/ exists w, In (x, w) m.
Proof.
  induction m as [|[k w] m IH]; intros xs; cbn; [auto|]. intros H. apply IH in H as [H|(w' & H)]; [|right; eauto].
  apply in_app_or in H as [H|H]; [auto|]. apply repeat_spec in H as ->. right. eauto.
Qed.

Context (keqb : K -> K -> bool) (keqb_eq : forall x y, keqb x y = true <-> x = y).
Definition get0 (m : list (K * nat)) (k : K) : nat := or_zero (gget keqb m k).
Lemma gget_in m k w : gget keqb m k = Some w -> In (k, w) m.
Proof. induction m as [|[k' x] m IH]; cbn; [discriminate|]. destruct (keqb k' k) eqn:E; [apply keqb_eq in E as ->; intros [= ->]; now left|right; auto]. Qed.
Lemma gget_none m k : gget keqb m k = None <-> ~ In k (map fst m).
Proof.
  induction m as [|[k' x] m IH]; cbn; [split; [intros _ []|reflexivity]|]. destruct (keqb k' k) eqn:E.
  - apply keqb_eq in E. split; [discriminate|]. intros H. exfalso. apply H. now left.
  - rewrite IH. split; [intros H [->|H']; [rewrite (proj2 (keqb_eq k k) eq_refl) in E; discriminate|auto]|intros H H'; apply H; now right].
Qed.
Lemma gget_nodup m k w : NoDup (map fst m) -> In (k, w) m -> gget keqb m k = Some w.
Proof.
  induction m as [|[k' x] m IH]; cbn; [intros _ []|]. intros Hd [[= -> ->]|Hi].
  - now rewrite (proj2 (keqb_eq k k) eq_refl).
  - inversion Hd as [|? ? Hn Hd']; subst. destruct (keqb k' k) eqn:E; [|auto]. apply keqb_eq in E as ->. exfalso. apply Hn. change k with (fst (k, w)). now apply in_map.
Qed.

Lemma gadd_ksum p m k w : ksum p (gadd keqb m k w) = (ksum p m + if p k then w else 0)%nat.
Proof. induction m as [|[k' x] m IH]; cbn; [lia|]. destruct (keqb k' k) eqn:E; cbn; [apply keqb_eq in E as ->; destruct (p k); lia|]. rewrite IH. lia. Qed.
Lemma ginsert_ksum p m k w : (ksum p (ginsert keqb m k w) + (if p k then get0 m k else 0) = ksum p m + if p k then w else 0)%nat.
Proof.
  unfold get0. induction m as [|[k' x] m IH]; cbn; [destruct (p k); lia|]. destruct (keqb k' k) eqn:E; cbn; [apply keqb_eq in E as ->; destruct (p k); lia|].
  destruct (p k), (p k'); lia.
Qed.
Lemma gadd_keys m k w : map fst (gadd keqb m k w) = if existsb (fun k' => keqb k' k) (map fst m) then map fst m else map fst m ++ [k].
Proof. induction m as [|[k' x] m IH]; cbn; [reflexivity|]. destruct (keqb k' k) eqn:E; cbn; [reflexivity|]. rewrite IH. now destruct (existsb _ _). Qed.
Lemma ginsert_keys m k w : map fst (ginsert keqb m k w) = if existsb (fun k' => keqb k' k) (map fst m) then map fst m else map fst m ++ [k].
Proof. induction m as [|[k' x] m IH]; cbn; [reflexivity|]. destruct (keqb k' k) eqn:E; cbn; [reflexivity|]. rewrite IH. now destruct (existsb _ _). Qed.
Lemma existsb_keys ks k : existsb (fun k' => keqb k' k) ks = true <-> In k ks.
Proof.
  rewrite existsb_exists. split; [intros (x & Hx & E); apply keqb_eq in E; now subst|]. intros H. exists k. split; [exact H|]. now apply keqb_eq.
Qed.
Lemma add_key_nodup (ks : list K) k : NoDup ks -> NoDup (if existsb (fun k' => keqb k' k) ks then ks else ks ++ [k]).
Proof.
  intros H. destruct (existsb _ ks) eqn:E; [exact H|]. apply (Permutation_NoDup (Permutation_cons_append ks k)). constructor; [|exact H].
  intros Hi. apply existsb_keys in Hi. congruence.
Qed.
Lemma gadd_nodup m k w : NoDup (map fst m) -> NoDup (map fst (gadd keqb m k w)).
Proof. rewrite gadd_keys. apply add_key_nodup. Qed.
Lemma ginsert_nodup m k w : NoDup (map fst m) -> NoDup (map fst (ginsert keqb m k w)).
Proof. rewrite ginsert_keys. apply add_key_nodup. Qed.
Lemma gadd_in m k w k' x : In (k', x) (gadd keqb m k w) -> In (k', x) m \/ (k' = k /\ (w <= x)%nat).
Proof.
  induction m as [|[j y] m IH]; cbn; [intros [[= <- <-]|[]]; right; split; [reflexivity|lia]|]. destruct (keqb j k) eqn:E.
  - apply keqb_eq in E as ->. intros [[= <- <-]|H]; [right; split; [reflexivity|lia]|left; now right].
  - intros [H|H]; [left; now left|]. destruct (IH H) as [H'|H']; [left; now right|now right].
Qed.
Lemma ginsert_in m k w k' x : In (k', x) (ginsert keqb m k w) -> In (k', x) m \/ (k' = k /\ x = w).
Proof.
  induction m as [|[j y] m IH]; cbn; [intros [[= <- <-]|[]]; auto|]. destruct (keqb j k) eqn:E.
  - apply keqb_eq in E as ->. intros [[= <- <-]|H]; [auto|left; now right].
  - intros [H|H]; [left; now left|]. destruct (IH H) as [H'|H']; [left; now right|now right].
Qed.
Lemma ginsert_new m k w : ~ In k (map fst m) -> ginsert keqb m k w = m ++ [(k, w)].
Proof.
  induction m as [|[j y] m IH]; cbn; [reflexivity|]. intros H. destruct (keqb j k) eqn:E; [apply keqb_eq in E; exfalso; apply H; now left|]. f_equal. apply IH. intros Hi. apply H. now right.
Qed.
Lemma gremove_ksum p m k : NoDup (map fst m) -> (ksum p (gremove keqb m k) + (if p k then get0 m k else 0) = ksum p m)%nat.
Proof.
  unfold get0, gremove. induction m as [|[k' x] m IH]; cbn; [destruct (p k); lia|]. intros H. inversion H as [|? ? Hn Hd]; subst. specialize (IH Hd). destruct (keqb k' k) eqn:E; cbn.
  - apply keqb_eq in E as ->. apply gget_none in Hn. rewrite Hn in IH. cbn [or_zero] in *. destruct (p k); lia.
  - destruct (p k), (p k'); lia.
Qed.
Lemma gremove_in m k e : In e (gremove keqb m k) -> In e m /\ fst e <> k.
Proof.
  unfold gremove. rewrite filter_In. intros [H E]. split; [exact H|]. intros Ek. rewrite (proj2 (keqb_eq _ _) Ek) in E. discriminate.
Qed.
Lemma filter_nodup {A B} (g : A -> B) q (m : list A) : NoDup (map g m) -> NoDup (map g (filter q m)).
Proof.
  induction m as [|x m IH]; cbn; [auto|]. intros H. inversion H as [|? ? Hn Hd]; subst. destruct (q x); [|auto]. cbn. constructor; [|auto].
  intros Hi. apply Hn. apply in_map_iff in Hi as (y & E & Hy). apply filter_In in Hy as [Hy _]. rewrite <- E. now apply in_map.
Qed.
Lemma gremove_nodup m k : NoDup (map fst m) -> NoDup (map fst (gremove keqb m k)).
Proof. apply filter_nodup. Qed.

Lemma gadds_spec w ks : forall m, NoDup (map fst m) -> (forall k x, In (k, x) m -> (0 < x)%nat) -> (0 < w)%nat ->
  let m' := fold_left (fun m k => gadd keqb m k w) ks m in
  (forall p, ksum p m' = (ksum p m + ksum p (map (fun k => (k, w)) ks))%nat) /\ NoDup (map fst m') /\ (forall k x, In (k, x) m' -> (0 < x)%nat) /\
  (forall k x, In (k, x) m' -> In k (map fst m) \/ In k ks).
Proof.
  induction ks as [|k ks IH]; intros m Hd Hp Hw m'; cbn in *.
  - subst m'. split; [intros; lia|]. split; [exact Hd|]. split; [exact Hp|]. intros k x H. left. change k with (fst (k, x)). now apply in_map.
  - destruct (IH (gadd keqb m k w)) as (I1 & I2 & I3 & I4); [now apply gadd_nodup| |exact Hw|].
    + intros k' x H. apply gadd_in in H as [H|[_ H]]; [eauto|lia].
    + fold m' in I1, I2, I3, I4. split; [|split; [exact I2|split; [exact I3|]]].
      * intros p. rewrite I1, gadd_ksum. cbn. lia.
      * intros k' x H. destruct (I4 _ _ H) as [H'|H']; [|auto]. rewrite gadd_keys in H'. destruct (existsb _ _); [auto|]. apply in_app_or in H' as [H'|[<-|[]]]; auto.
Qed.

(** total weight of a key *)
Definition ktotal (k : K) (m : list (K * nat)) : nat := list_sum (map snd (filter (fun e => keqb (fst e) k) m)).
Lemma ktotal_get m k : NoDup (map fst m) -> ktotal k m = get0 m k.
Proof.
  unfold ktotal, get0. induction m as [|[k' x] m IH]; cbn; [reflexivity|]. intros H. inversion H as [|? ? Hn Hd]; subst. destruct (keqb k' k) eqn:E; cbn; [|auto].
  apply keqb_eq in E as ->. change (fold_right Nat.add 0%nat) with list_sum. rewrite (IH Hd). apply gget_none in Hn. rewrite Hn. cbn. lia.
Qed.
Lemma gget_perm m m' k : NoDup (map fst m) -> Permutation m' m -> gget keqb m' k = gget keqb m k.
Proof.
  intros Hd P. assert (Hd' : NoDup (map fst m')) by (apply (Permutation_NoDup (Permutation_map fst (Permutation_sym P))); exact Hd).
  destruct (gget keqb m k) as [w|] eqn:E.
  - apply gget_nodup; [exact Hd'|]. apply (Permutation_in _ (Permutation_sym P)). now apply gget_in.
  - apply gget_none. intros H. apply gget_none in E. apply E. apply (Permutation_in _ (Permutation_map fst P)). exact H.
Qed.

End KSum.

Lemma wsum_ksum a ls : wsum a ls = ksum (lit_true a) ls.
Proof. induction ls as [|[l w] ls IH]; cbn; congruence. Qed.
Lemma cls_cost_ksum a cs : cls_cost a cs = ksum (fun c => negb (sat_clause a c)) cs.
Proof. induction cs as [|[c w] cs IH]; cbn; [reflexivity|]. rewrite IH. now destruct (sat_clause a c). Qed.
Lemma count_unsat_filter a cs : count_unsat a cs = length (filter (fun c => negb (sat_clause a c)) cs).
Proof. induction cs as [|c cs IH]; cbn; [reflexivity|]. rewrite IH. now destruct (sat_clause a c). Qed.
Lemma cls_cost_app a cs cs' : cls_cost a (cs ++ cs') = (cls_cost a cs + cls_cost a cs')%nat.
Proof. rewrite !cls_cost_ksum. apply ksum_app. Qed.
Lemma wsum_app' a cs cs' : wsum a (cs ++ cs') = (wsum a cs + wsum a cs')%nat.
Proof. rewrite !wsum_ksum. apply ksum_app. Qed.
Lemma cls_cost_perm a cs cs' : Permutation cs cs' -> cls_cost a cs = cls_cost a cs'.
Proof. intros. rewrite !cls_cost_ksum. now apply ksum_perm. Qed.
Lemma wsum_perm' a cs cs' : Permutation cs cs' -> wsum a cs = wsum a cs'.
Proof. intros. rewrite !wsum_ksum. now apply ksum_perm. Qed.
Lemma clause_eqb_eq' c d : clause_eqb c d = true <-> c = d.
Proof. apply clause_eqb_eq. Qed.
Lemma sat_unit_neg a l : sat_clause a [neg l] = negb (lit_true a l).
Proof. unfold sat_clause. cbn [existsb]. now rewrite lit_true_neg, orb_false_r. Qed.
Lemma sat_unit a l : sat_clause a [l] = lit_true a l.
Proof. unfold sat_clause. cbn [existsb]. now rewrite orb_false_r. Qed.

(** ** Weighted and unweighted *)
Definition obj_map (o : obj) : list (lit * nat) * list (clause * nat) := (obj_lits o, obj_cls o).

Lemma u2w_value o : same_value o (unweighted_2_weighted o).
Proof.
  intros a. destruct o as [z ls cs|z [w|] ls cs]; [reflexivity| |].
  - unfold obj_value. cbn [unweighted_2_weighted obj_offset obj_lits obj_cls or_zero]. rewrite !wsum_ksum, !cls_cost_ksum.
    assert (H : forall K keqb (E : forall x y : K, keqb x y = true <-> x = y) p ks m, ksum p (fold_left (fun m k => gadd keqb m k w) ks m) = (ksum p m + ksum p (map (fun k => (k, w)) ks))%nat).
    { intros K keqb E p ks. induction ks as [|k ks IH]; intros m; cbn; [lia|]. rewrite IH, (gadd_ksum keqb E). lia. }
    rewrite (H _ lit_eqb lit_eqb_eq), (H _ clause_eqb clause_eqb_eq'). cbn. reflexivity.
  - unfold obj_value. cbn [unweighted_2_weighted obj_offset obj_lits obj_cls or_zero wsum cls_cost]. rewrite wsum_ksum, cls_cost_ksum, !ksum_map_const. lia.
Qed.
Lemma wf_none z ls cs : obj_wf (OUnweighted z None ls cs) -> ls = [] /\ cs = [].
Proof.
  intros (H1 & H2 & _). cbn in *. destruct ls as [|l ls]; [|specialize (H1 l 0%nat (or_introl eq_refl)); lia]. destruct cs as [|c cs]; [auto|]. destruct (H2 c 0%nat (or_introl eq_refl)). lia.
Qed.
Lemma wf_some z w ls cs : obj_wf (OUnweighted z (Some w) ls cs) <-> (0 < w)%nat /\ forall c, In c cs -> length c <> 1%nat.
Proof.
  unfold obj_wf. cbn [obj_lits obj_cls or_zero]. split.
  - intros (H1 & H2 & H3). split; [destruct w; [congruence|lia]|]. intros c Hc. apply (H2 c w). apply in_map_iff. eauto.
  - intros [Hw Hc]. split; [|split].
    + intros l x H. apply in_map_iff in H as (y & [= <- <-] & _). exact Hw.
    + intros c x H. apply in_map_iff in H as (y & [= <- <-] & H). auto.
    + intros [= ->]. lia.
Qed.
Lemma wf_weighted z ls cs : obj_wf (OWeighted z ls cs) <-> (forall l w, In (l, w) ls -> (0 < w)%nat) /\ (forall c w, In (c, w) cs -> (0 < w)%nat /\ length c <> 1%nat) /\ NoDup (map fst ls) /\ NoDup (map fst cs).
Proof. reflexivity. Qed.
Lemma u2w_wf o : obj_wf o -> obj_wf (unweighted_2_weighted o).
Proof.
  destruct o as [z ls cs|z [w|] ls cs]; [auto| |].
  - intros H. apply wf_some in H as [Hw Hc]. cbn [unweighted_2_weighted]. apply wf_weighted.
    destruct (gadds_spec lit_eqb lit_eqb_eq w ls [] (NoDup_nil _) ltac:(intros ? ? []) Hw) as (_ & L2 & L3 & _).
    destruct (gadds_spec clause_eqb clause_eqb_eq' w cs [] (NoDup_nil _) ltac:(intros ? ? []) Hw) as (_ & C2 & C3 & C4).
    split; [exact L3|]. split; [|split; [exact L2|exact C2]]. intros c x H. split; [eauto|]. destruct (C4 _ _ H) as [[]|H']. auto.
  - intros _. cbn. apply wf_weighted. split; [intros ? ? []|]. split; [intros ? ? []|]. split; constructor.
Qed.
Lemma u2w_is z o : exists z' ls cs, unweighted_2_weighted (OUnweighted z o [] []) = OWeighted z' ls cs.
Proof. destruct o; cbn; eauto. Qed.
Lemma u2w_weighted o : exists ls cs, unweighted_2_weighted o = OWeighted (obj_offset o) ls cs.
Proof. destruct o as [z ls cs|z [w|] ls cs]; cbn; eauto. Qed.

(** ** Setting and increasing weights *)
Section SetWeight.
Context {K : Type} (keqb : K -> K -> bool) (keqb_eq : forall x y : K, keqb x y = true <-> x = y).

Lemma set_weighted_spec w k m m' r : NoDup (map fst m) -> (forall k x, In (k, x) m -> (0 < x)%nat) -> set_weighted keqb w k m = (m', r) ->
  NoDup (map fst m') /\ (forall k' x, In (k', x) m' -> (0 < x)%nat /\ (In k' (map fst m) \/ k' = k)) /\ r = gget keqb m k /\
  forall p, (ksum p m' + (if p k then ktotal keqb k m else 0) = ksum p m + if p k then w else 0)%nat.
Proof.
  intros Hd Hp E. rewrite (ktotal_get keqb keqb_eq) by exact Hd. unfold set_weighted in E. destruct (Nat.eqb_spec w 0) as [->|Hw]; injection E as <- <-.
  - split; [now apply gremove_nodup|]. split; [|split; [reflexivity|]].
    + intros k' x H. apply (gremove_in keqb keqb_eq) in H as [H _]. split; [eauto|]. left. change k' with (fst (k', x)). now apply in_map.
    + intros p. pose proof (gremove_ksum keqb keqb_eq p m k Hd). destruct (p k); lia.
  - split; [now apply (ginsert_nodup keqb keqb_eq)|]. split; [|split; [reflexivity|]].
    + intros k' x H. apply (ginsert_in keqb keqb_eq) in H as [H|[-> ->]]; [|split; [lia|auto]]. split; [eauto|]. left. change k' with (fst (k', x)). now apply in_map.
    + intros p. apply (ginsert_ksum keqb keqb_eq).
Qed.

Lemma ktotal_const k w xs : ktotal keqb k (map (fun k => (k, w)) xs) = (length (filter (fun x => keqb x k) xs) * w)%nat.
Proof.
  unfold ktotal. induction xs as [|x xs IH]; cbn; [reflexivity|]. destruct (keqb x k); cbn; [|exact IH].
  change (fold_right Nat.add 0%nat) with list_sum. rewrite IH. lia.
Qed.
Lemma filter_nodup_one xs k : NoDup xs -> length (filter (fun x => keqb x k) xs) = if existsb (fun x => keqb x k) xs then 1%nat else 0%nat.
Proof.
  induction 1 as [|x xs Hn Hd IH]; cbn; [reflexivity|]. destruct (keqb x k) eqn:E; cbn; [|exact IH]. rewrite IH. apply keqb_eq in E as ->.
  destruct (existsb (fun x => keqb x k) xs) eqn:E'; [|reflexivity]. apply (existsb_keys keqb keqb_eq) in E'. contradiction.
Qed.
Lemma filter_one xs i k x : NoDup xs -> nth_error xs i = Some x -> keqb x k = true -> length (filter (fun x => keqb x k) xs) = 1%nat.
Proof.
  intros Hd Hx E. rewrite filter_nodup_one by exact Hd. replace (existsb (fun x => keqb x k) xs) with true; [reflexivity|]. symmetry. apply existsb_exists. exists x.
  split; [eapply nth_error_In; eauto|exact E].
Qed.
Lemma filter_none xs k : (forall x, In x xs -> keqb x k = false) -> filter (fun x => keqb x k) xs = [].
Proof. induction xs as [|x xs IH]; intros H; cbn; [reflexivity|]. rewrite H by now left. apply IH. intros; apply H; now right. Qed.

Lemma set_unweighted_spec w k u xs : (u = None -> xs = []) -> u <> Some 0%nat ->
  exists res, set_unweighted keqb w k u xs = Some res /\
  match res with
  | inr _ => exists uw, u = Some uw /\ w <> 0%nat
  | inl (u', xs', r) =>
      (u' = u \/ (u' = Some w /\ w <> 0%nat)) /\ (forall x, In x xs' -> In x xs \/ x = k) /\ (u' = None -> xs' = []) /\ (u' = u \/ u = None) /\
      (NoDup xs -> NoDup xs' /\ r = (if existsb (fun x => keqb x k) xs then u else None) /\
        forall p, (ksum p (map (fun k => (k, or_zero u')) xs') + (if p k then ktotal keqb k (map (fun k => (k, or_zero u')) xs) else 0) =
          ksum p (map (fun k => (k, or_zero u')) xs) + if p k then w else 0)%nat)
  end.
Proof.
  intros Hu Hu0. unfold set_unweighted. destruct (Nat.eqb_spec w 0) as [->|Hw].
  - pose proof (position_spec (fun k2 => keqb k2 k) xs) as P. destruct (position _ xs) as [i|].
    + destruct P as (x & Hx & E). pose proof E as E'. apply keqb_eq in E' as ->. destruct (swap_remove_perm _ _ _ Hx) as (xs' & -> & Pm). cbn [obind].
      destruct u as [uw|]; [|rewrite Hu in Hx by reflexivity; destruct i; discriminate]. eexists. split; [reflexivity|]. cbn beta iota.
      split; [auto|]. split; [intros x Hi; left; apply (Permutation_in _ Pm); now right|]. split; [discriminate|]. split; [auto|].
      intros Hd. pose proof (filter_one _ _ _ _ Hd Hx E) as F.
      split; [|split].
      * apply (Permutation_NoDup (Permutation_sym Pm)) in Hd. inversion Hd; auto.
      * replace (existsb (fun x => keqb x k) xs) with true; [reflexivity|]. symmetry. apply (existsb_keys keqb keqb_eq). eapply nth_error_In; eauto.
      * intros p. rewrite ktotal_const, F. rewrite <- (ksum_perm p _ _ (Permutation_map (fun k => (k, or_zero (Some uw))) Pm)). cbn. destruct (p k); lia.
    + eexists. split; [reflexivity|]. cbn beta iota. split; [auto|]. split; [auto|]. split; [exact Hu|]. split; [auto|]. intros Hd. split; [exact Hd|]. split.
      * destruct (existsb _ xs) eqn:E; [|reflexivity]. apply existsb_exists in E as (x & Hx & E). rewrite (P x Hx) in E. discriminate.
      * intros p. rewrite ktotal_const, (filter_none _ _ P). cbn. destruct (p k); lia.
  - destruct u as [uw|].
    + destruct (Nat.eqb_spec w uw) as [->|Hne]; [|eexists; split; [reflexivity|]; cbn beta iota; eauto].
      destruct (existsb (fun k2 => keqb k2 k) xs) eqn:E; eexists; (split; [reflexivity|]); cbn beta iota.
      * split; [auto|]. split; [auto|]. split; [discriminate|]. split; [auto|]. intros Hd. split; [exact Hd|]. split; [reflexivity|]. intros p.
        rewrite ktotal_const, filter_nodup_one, E by exact Hd. cbn. destruct (p k); lia.
      * split; [auto|]. split; [intros x Hi; apply in_app_or in Hi as [Hi|[<-|[]]]; auto|]. split; [discriminate|]. split; [auto|]. intros Hd.
        split; [apply (Permutation_NoDup (Permutation_cons_append xs k)); constructor; [intros Hi; apply (existsb_keys keqb keqb_eq) in Hi; congruence|exact Hd]|].
        split; [reflexivity|]. intros p. rewrite ktotal_const, filter_nodup_one, E by exact Hd. rewrite map_app, ksum_app. cbn. destruct (p k); lia.
    + rewrite (Hu eq_refl). eexists. split; [reflexivity|]. cbn beta iota. split; [auto|]. split; [intros x [<-|[]]; auto|]. split; [discriminate|]. split; [auto|]. intros _.
      split; [constructor; [intros []|constructor]|]. split; [reflexivity|]. intros p. unfold ktotal. cbn. destruct (p k); lia.
Qed.
End SetWeight.

Lemma wf_unweighted_inv z u ls cs : obj_wf (OUnweighted z u ls cs) -> (u = None -> ls = []) /\ (u = None -> cs = []) /\ u <> Some 0%nat /\ forall c, In c cs -> length c <> 1%nat.
Proof.
  intros H. split; [intros ->; now apply wf_none in H|]. split; [intros ->; now apply wf_none in H|]. split; [apply H|].
  intros c Hc. destruct u as [w|]; [now apply wf_some in H as [_ H]; auto|]. apply wf_none in H as [_ ->]. destruct Hc.
Qed.
Lemma wf_unweighted_intro z u ls cs : (u = None -> ls = [] /\ cs = []) -> u <> Some 0%nat -> (forall c, In c cs -> length c <> 1%nat) -> obj_wf (OUnweighted z u ls cs).
Proof.
  intros Hn H0 Hc. destruct u as [w|]; [apply wf_some; split; [destruct w; [congruence|lia]|exact Hc]|]. destruct (Hn eq_refl) as [-> ->].
  split; [intros ? ? []|]. split; [intros ? ? []|]. discriminate.
Qed.
Lemma wf_weighted_lits z ls cs ls' : obj_wf (OWeighted z ls cs) -> NoDup (map fst ls') -> (forall l w, In (l, w) ls' -> (0 < w)%nat) -> obj_wf (OWeighted z ls' cs).
Proof. intros (H1 & H2 & H3 & H4) Hd Hp. split; [exact Hp|]. split; [exact H2|]. auto. Qed.
Lemma wf_weighted_cls z ls cs cs' : obj_wf (OWeighted z ls cs) -> NoDup (map fst cs') -> (forall l w, In (l, w) cs' -> (0 < w)%nat /\ length l <> 1%nat) -> obj_wf (OWeighted z ls cs').
Proof. intros (H1 & H2 & H3 & H4) Hd Hp. split; [exact H1|]. split; [exact Hp|]. auto. Qed.
Lemma wf_distinct z ls cs : obj_wf (OWeighted z ls cs) -> obj_distinct (OWeighted z ls cs).
Proof. intros (_ & _ & H). exact H. Qed.
Lemma distinct_u z u ls cs : obj_distinct (OUnweighted z u ls cs) <-> NoDup ls /\ NoDup cs.
Proof.
  unfold obj_distinct. cbn [obj_lits obj_cls]. rewrite !map_map. cbn [fst]. now rewrite !map_id.
Qed.
Lemma old_weight {K} keqb (E : forall x y : K, keqb x y = true <-> x = y) (k : K) m : NoDup (map fst m) -> (forall k x, In (k, x) m -> (0 < x)%nat) ->
  gget keqb m k = if (ktotal keqb k m =? 0)%nat then None else Some (ktotal keqb k m).
Proof.
  intros Hd Hp. rewrite (ktotal_get keqb E) by exact Hd. unfold get0. destruct (gget keqb m k) as [w|] eqn:G; cbn; [|reflexivity].
  apply (gget_in keqb E) in G. apply Hp in G. destruct (Nat.eqb_spec w 0); [lia|reflexivity].
Qed.

(** the value expressed with [ksum] *)
Lemma value_k a o : obj_value a o = (obj_offset o + Z.of_nat (ksum (lit_true a) (obj_lits o)) + Z.of_nat (ksum (fun c => negb (sat_clause a c)) (obj_cls o)))%Z.
Proof. unfold obj_value. now rewrite wsum_ksum, cls_cost_ksum. Qed.
Lemma ktotal_old k (keqb : lit -> lit -> bool) m : ktotal keqb k m = list_sum (map snd (filter (fun e => keqb (fst e) k) m)).
Proof. reflexivity. Qed.
Lemma u2w_total_lit l o : lit_total l (unweighted_2_weighted o) = lit_total l o.
Proof.
  assert (H : forall K (keqb : K -> K -> bool) (E : forall x y : K, keqb x y = true <-> x = y) k m, ktotal keqb k m = ksum (fun x => keqb x k) m).
  { intros K keqb E k m. unfold ktotal. induction m as [|[x w] m IH]; cbn; [reflexivity|]. destruct (keqb x k); cbn; [|exact IH]. change (fold_right Nat.add 0%nat) with list_sum. now rewrite IH. }
  unfold lit_total. change (ktotal lit_eqb l (obj_lits (unweighted_2_weighted o)) = ktotal lit_eqb l (obj_lits o)). rewrite !(H _ _ lit_eqb_eq).
  destruct o as [z ls cs|z [w|] ls cs]; [reflexivity| |cbn; now rewrite ksum_map_const, Nat.mul_0_r].
  cbn [unweighted_2_weighted obj_lits or_zero].
  assert (G : forall p ks m, ksum p (fold_left (fun m k => gadd lit_eqb m k w) ks m) = (ksum p m + ksum p (map (fun k => (k, w)) ks))%nat).
  { intros p ks. induction ks as [|k ks IH]; intros m; cbn; [lia|]. rewrite IH, (gadd_ksum lit_eqb lit_eqb_eq). lia. }
  rewrite G. reflexivity.
Qed.
Lemma u2w_total_cls l o : clause_total l (unweighted_2_weighted o) = clause_total l o.
Proof.
  assert (H : forall K (keqb : K -> K -> bool) (E : forall x y : K, keqb x y = true <-> x = y) k m, ktotal keqb k m = ksum (fun x => keqb x k) m).
  { intros K keqb E k m. unfold ktotal. induction m as [|[x w] m IH]; cbn; [reflexivity|]. destruct (keqb x k); cbn; [|exact IH]. change (fold_right Nat.add 0%nat) with list_sum. now rewrite IH. }
  unfold clause_total. change (ktotal clause_eqb l (obj_cls (unweighted_2_weighted o)) = ktotal clause_eqb l (obj_cls o)). rewrite !(H _ _ clause_eqb_eq').
  destruct o as [z ls cs|z [w|] ls cs]; [reflexivity| |cbn; now rewrite ksum_map_const, Nat.mul_0_r].
  cbn [unweighted_2_weighted obj_cls or_zero].
  assert (G : forall p ks m, ksum p (fold_left (fun m k => gadd clause_eqb m k w) ks m) = (ksum p m + ksum p (map (fun k => (k, w)) ks))%nat).
  { intros p ks. induction ks as [|k ks IH]; intros m; cbn; [lia|]. rewrite IH, (gadd_ksum clause_eqb clause_eqb_eq'). lia. }
  rewrite G. reflexivity.
Qed.

Lemma add_soft_lit_weighted w l z ls cs : obj_wf (OWeighted z ls cs) -> let o := OWeighted z ls cs in
  exists o' r, add_soft_lit w l o = Some (o', r) /\ obj_wf o' /\ obj_distinct o' /\ (r = if (lit_total l o =? 0)%nat then None else Some (lit_total l o)) /\
    forall a, obj_value a o' = (obj_value a o + if lit_true a l then Z.of_nat w - Z.of_nat (lit_total l o) else 0)%Z.
Proof.
  intros Hwf o. subst o. cbn [add_soft_lit]. destruct (set_weighted lit_eqb w l ls) as [ls' r] eqn:E. pose proof Hwf as (H1 & H2 & H3 & H4).
  destruct (set_weighted_spec lit_eqb lit_eqb_eq _ _ _ _ _ H3 H1 E) as (S1 & S2 & -> & S4).
  assert (Hwf' : obj_wf (OWeighted z ls' cs)) by (apply (wf_weighted_lits _ _ _ _ Hwf S1); intros k x Hi; now apply S2 in Hi).
  eexists _, _. split; [reflexivity|]. split; [exact Hwf'|]. split; [exact (wf_distinct _ _ _ Hwf')|]. split; [now apply (old_weight _ lit_eqb_eq)|].
  intros a. rewrite !value_k. cbn [obj_offset obj_lits obj_cls]. specialize (S4 (lit_true a)). unfold lit_total. cbn [obj_lits]. unfold ktotal in S4. destruct (lit_true a l); lia.
Qed.
Lemma add_soft_lit_spec w l o : obj_wf o -> exists o' r, add_soft_lit w l o = Some (o', r) /\ obj_wf o' /\
  (obj_distinct o -> obj_distinct o' /\ (r = if (lit_total l o =? 0)%nat then None else Some (lit_total l o)) /\
    forall a, obj_value a o' = (obj_value a o + if lit_true a l then Z.of_nat w - Z.of_nat (lit_total l o) else 0)%Z).
Proof.
  intros Hwf. destruct o as [z ls cs|z u ls cs].
  - destruct (add_soft_lit_weighted w l _ _ _ Hwf) as (o' & r & H1 & H2 & H3 & H4 & H5). eauto 10.
  - destruct (wf_unweighted_inv _ _ _ _ Hwf) as (W1 & W2 & W3 & W4). cbn [add_soft_lit].
    destruct (set_unweighted_spec lit_eqb lit_eqb_eq w l u ls W1 W3) as ([[[u' ls'] r]|[]] & -> & S); cbn [obind].
    + destruct S as (S1 & S2 & S3 & S4 & S5). eexists _, _. split; [reflexivity|]. split.
      * apply wf_unweighted_intro; [intros E; split; [auto|] | |exact W4].
        -- subst u'. destruct S1 as [<-|[X _]]; [auto|discriminate].
        -- destruct S1 as [->|[-> Hw]]; [exact W3|congruence].
      * rewrite !distinct_u. intros [D1 D2]. destruct (S5 D1) as (T1 & T2 & T3). split; [auto|].
        assert (Htot : lit_total l (OUnweighted z u ls cs) = ktotal lit_eqb l (map (fun k => (k, or_zero u')) ls)).
        { unfold lit_total, ktotal. cbn [obj_lits]. destruct S4 as [->|E]; [reflexivity|]. rewrite (W1 E). reflexivity. }
        split.
        -- rewrite T2, Htot, (ktotal_const _ lit_eqb_eq), (filter_nodup_one _ lit_eqb_eq) by exact D1. destruct (existsb _ ls) eqn:Ex; [|reflexivity].
           destruct S4 as [->| ->]; [|rewrite (W1 eq_refl) in Ex; discriminate]. destruct u as [w'|]; [|rewrite (W1 eq_refl) in Ex; discriminate]. cbn [or_zero].
           rewrite Nat.mul_1_l. destruct (Nat.eqb_spec w' 0) as [->|]; [congruence|reflexivity].
        -- intros a. rewrite !value_k. cbn [obj_offset obj_lits obj_cls]. rewrite Htot. specialize (T3 (lit_true a)).
           destruct S4 as [->| ->]; [|rewrite (W1 eq_refl), (W2 eq_refl) in *; cbn in *]; destruct (lit_true a l); lia.
    + destruct S as (uw & -> & Hw). set (o := OUnweighted z (Some uw) ls cs) in *. destruct (u2w_weighted o) as (ls1 & cs1 & E). rewrite E.
      pose proof (u2w_wf _ Hwf) as Hwf1. rewrite E in Hwf1. destruct (add_soft_lit_weighted w l _ _ _ Hwf1) as (o' & r & H1 & H2 & H3 & H4 & H5).
      cbn [add_soft_lit] in H1. destruct (set_weighted lit_eqb w l ls1) as [ls' r']. exists o', r. split; [exact H1|]. split; [exact H2|]. intros _. split; [exact H3|].
      rewrite <- E, u2w_total_lit in H4, H5. split; [exact H4|]. intros a. rewrite H5. now rewrite u2w_value.
Qed.

Lemma add_soft_cls_weighted w l z ls cs : (1 < length l)%nat -> obj_wf (OWeighted z ls cs) -> let o := OWeighted z ls cs in
  exists o' r, add_soft_clause w l o = Some (o', r) /\ obj_wf o' /\ obj_distinct o' /\ (r = if (clause_total l o =? 0)%nat then None else Some (clause_total l o)) /\
    forall a, obj_value a o' = (obj_value a o + if sat_clause a l then 0 else Z.of_nat w - Z.of_nat (clause_total l o))%Z.
Proof.
  intros Hl Hwf o. subst o. destruct l as [|l1 [|l2 l']]; cbn [length] in Hl; try lia. cbn [add_soft_clause]. set (l := l1 :: l2 :: l') in *. assert (Hlen : length l <> 1%nat) by (cbn; lia).
  destruct (set_weighted clause_eqb w l cs) as [cs' r] eqn:E. pose proof Hwf as (H1 & H2 & H3 & H4).
  destruct (set_weighted_spec clause_eqb clause_eqb_eq' _ _ _ _ _ H4 ltac:(intros k x Hi; now apply H2 in Hi) E) as (S1 & S2 & -> & S4).
  assert (Hwf' : obj_wf (OWeighted z ls cs')).
  { apply (wf_weighted_cls _ _ _ _ Hwf S1); intros k x Hi. apply S2 in Hi as [Hx Hi]. split; [exact Hx|]. destruct Hi as [Hi| ->]; [|exact Hlen].
    apply in_map_iff in Hi as ([c y] & <- & Hi). now apply H2 in Hi. }
  eexists _, _. split; [reflexivity|]. split; [exact Hwf'|]. split; [exact (wf_distinct _ _ _ Hwf')|]. split; [apply (old_weight _ clause_eqb_eq'); [exact H4|intros k x Hi; now apply H2 in Hi]|].
  intros a. rewrite !value_k. cbn [obj_offset obj_lits obj_cls]. specialize (S4 (fun c => negb (sat_clause a c))). unfold clause_total. cbn [obj_cls]. unfold ktotal in S4. destruct (sat_clause a l); cbn [negb] in S4; lia.
Qed.
Lemma add_soft_cls_spec w l o : (1 < length l)%nat -> obj_wf o -> exists o' r, add_soft_clause w l o = Some (o', r) /\ obj_wf o' /\
  (obj_distinct o -> obj_distinct o' /\ (r = if (clause_total l o =? 0)%nat then None else Some (clause_total l o)) /\
    forall a, obj_value a o' = (obj_value a o + if sat_clause a l then 0 else Z.of_nat w - Z.of_nat (clause_total l o))%Z).
Proof.
  intros Hl Hwf. destruct o as [z ls cs|z u ls cs].
  - destruct (add_soft_cls_weighted w l _ _ _ Hl Hwf) as (o' & r & H1 & H2 & H3 & H4 & H5). eauto 10.
  - destruct (wf_unweighted_inv _ _ _ _ Hwf) as (W1 & W2 & W3 & W4).
    destruct l as [|l1 [|l2 l']]; cbn [length] in Hl; try lia. cbn [add_soft_clause]. set (l := l1 :: l2 :: l') in *. assert (Hlen : length l <> 1%nat) by (cbn; lia).
    destruct (set_unweighted_spec clause_eqb clause_eqb_eq' w l u cs W2 W3) as ([[[u' cs'] r]|[]] & -> & S); cbn [obind].
    + destruct S as (S1 & S2 & S3 & S4 & S5). eexists _, _. split; [reflexivity|]. split.
      * apply wf_unweighted_intro; [intros E; split; [|auto] | |].
        -- subst u'. destruct S1 as [<-|[X _]]; [auto|discriminate].
        -- destruct S1 as [->|[-> Hw]]; [exact W3|congruence].
        -- intros c Hc. apply S2 in Hc as [Hc| ->]; auto.
      * rewrite !distinct_u. intros [D1 D2]. destruct (S5 D2) as (T1 & T2 & T3). split; [auto|].
        assert (Htot : clause_total l (OUnweighted z u ls cs) = ktotal clause_eqb l (map (fun k => (k, or_zero u')) cs)).
        { unfold clause_total, ktotal. cbn [obj_cls]. destruct S4 as [->|E]; [reflexivity|]. rewrite (W2 E). reflexivity. }
        split.
        -- rewrite T2, Htot, (ktotal_const _ clause_eqb_eq'), (filter_nodup_one _ clause_eqb_eq') by exact D2. destruct (existsb _ cs) eqn:Ex; [|reflexivity].
           destruct S4 as [->| ->]; [|rewrite (W2 eq_refl) in Ex; discriminate]. destruct u as [w'|]; [|rewrite (W2 eq_refl) in Ex; discriminate]. cbn [or_zero].
           rewrite Nat.mul_1_l. destruct (Nat.eqb_spec w' 0) as [->|]; [congruence|reflexivity].
        -- intros a. rewrite !value_k. cbn [obj_offset obj_lits obj_cls]. rewrite Htot. specialize (T3 (fun c => negb (sat_clause a c))).
           destruct S4 as [->| ->]; [|rewrite (W1 eq_refl), (W2 eq_refl) in *; cbn [ksum map] in *; change (ktotal clause_eqb l []) with 0%nat in *]; destruct (sat_clause a l); cbn [negb] in T3; lia.
    + destruct S as (uw & -> & Hw). set (o := OUnweighted z (Some uw) ls cs) in *. destruct (u2w_weighted o) as (ls1 & cs1 & E). rewrite E.
      pose proof (u2w_wf _ Hwf) as Hwf1. rewrite E in Hwf1. destruct (add_soft_cls_weighted w l _ _ _ Hl Hwf1) as (o' & r & H1 & H2 & H3 & H4 & H5).
      unfold l in H1 at 1. cbn [add_soft_clause] in H1. fold l in H1. destruct (set_weighted clause_eqb w l cs1) as [cs' r']. exists o', r. split; [exact H1|]. split; [exact H2|]. intros _. split; [exact H3|].
      rewrite <- E, u2w_total_cls in H4, H5. split; [exact H4|]. intros a. rewrite H5. now rewrite u2w_value.
Qed.

Lemma increase_lit_weighted w l z ls cs : w <> 0%nat -> obj_wf (OWeighted z ls cs) ->
  obj_wf (OWeighted z (gadd lit_eqb ls l w) cs) /\ forall a, obj_value a (OWeighted z (gadd lit_eqb ls l w) cs) = (obj_value a (OWeighted z ls cs) + if lit_true a l then Z.of_nat w else 0)%Z.
Proof.
  intros Hw Hwf. pose proof Hwf as (H1 & H2 & H3 & H4). split.
  - apply (wf_weighted_lits _ _ _ _ Hwf); [now apply (gadd_nodup _ lit_eqb_eq)|]. intros k x Hi. apply (gadd_in _ lit_eqb_eq) in Hi as [Hi|[_ Hi]]; [eauto|lia].
  - intros a. rewrite !value_k. cbn [obj_offset obj_lits obj_cls]. rewrite (gadd_ksum _ lit_eqb_eq). destruct (lit_true a l); lia.
Qed.
Lemma increase_soft_lit_spec w l o : obj_wf o -> obj_wf (increase_soft_lit w l o) /\ forall a, obj_value a (increase_soft_lit w l o) = (obj_value a o + if lit_true a l then Z.of_nat w else 0)%Z.
Proof.
  intros Hwf. unfold increase_soft_lit. destruct (Nat.eqb_spec w 0) as [->|Hw]; [split; [exact Hwf|]; intros a; destruct (lit_true a l); lia|]. destruct o as [z ls cs|z u ls cs].
  - now apply increase_lit_weighted.
  - destruct (wf_unweighted_inv _ _ _ _ Hwf) as (W1 & W2 & W3 & W4). destruct u as [uw|].
    + destruct (Nat.eqb_spec w uw) as [->|Hne].
      * split; [apply wf_unweighted_intro; [discriminate|exact W3|exact W4]|]. intros a. rewrite !value_k. cbn [obj_offset obj_lits obj_cls or_zero]. rewrite map_app, ksum_app. cbn. destruct (lit_true a l); lia.
      * set (o := OUnweighted z (Some uw) ls cs) in *. destruct (u2w_weighted o) as (ls1 & cs1 & E). rewrite E. pose proof (u2w_wf _ Hwf) as Hwf1. rewrite E in Hwf1.
        destruct (increase_lit_weighted w l _ _ _ Hw Hwf1) as [I1 I2]. split; [exact I1|]. intros a. rewrite I2, <- E. now rewrite u2w_value.
    + rewrite (W1 eq_refl), (W2 eq_refl). split; [apply wf_unweighted_intro; [discriminate|congruence|intros ? []]|]. intros a. rewrite !value_k. cbn. destruct (lit_true a l); lia.
Qed.
Lemma set_offset_spec z o : obj_wf o -> obj_wf (obj_set_offset z o) /\ forall a, obj_value a (obj_set_offset z o) = (obj_value a o + (z - obj_offset o))%Z.
Proof. destruct o; (split; [exact H|]); intros a; unfold obj_value; cbn; lia. Qed.
Lemma increase_offset_spec z o : obj_wf o -> obj_wf (obj_increase_offset z o) /\ forall a, obj_value a (obj_increase_offset z o) = (obj_value a o + z)%Z.
Proof. intros H. destruct (set_offset_spec (obj_offset o + z) o H) as [H1 H2]. split; [exact H1|]. intros a. unfold obj_increase_offset. rewrite H2. lia. Qed.
Lemma increase_soft_lit_int_spec w l o : obj_wf o -> obj_wf (increase_soft_lit_int w l o) /\ forall a, obj_value a (increase_soft_lit_int w l o) = (obj_value a o + if lit_true a l then w else 0)%Z.
Proof.
  intros Hwf. unfold increase_soft_lit_int. destruct (Z.ltb_spec w 0) as [Hw|Hw].
  - destruct (increase_offset_spec w o Hwf) as [H1 H2]. destruct (increase_soft_lit_spec (Z.abs_nat w) (neg l) _ H1) as [H3 H4]. split; [exact H3|].
    intros a. rewrite H4, H2, lit_true_neg. destruct (lit_true a l); cbn; lia.
  - destruct (increase_soft_lit_spec (Z.abs_nat w) l _ Hwf) as [H3 H4]. split; [exact H3|]. intros a. rewrite H4. destruct (lit_true a l); lia.
Qed.
Lemma increase_cls_weighted w l z ls cs : w <> 0%nat -> length l <> 1%nat -> obj_wf (OWeighted z ls cs) ->
  obj_wf (OWeighted z ls (gadd clause_eqb cs l w)) /\ forall a, obj_value a (OWeighted z ls (gadd clause_eqb cs l w)) = (obj_value a (OWeighted z ls cs) + if sat_clause a l then 0 else Z.of_nat w)%Z.
Proof.
  intros Hw Hl Hwf. pose proof Hwf as (H1 & H2 & H3 & H4). split.
  - apply (wf_weighted_cls _ _ _ _ Hwf); [now apply (gadd_nodup _ clause_eqb_eq')|]. intros k x Hi. apply (gadd_in _ clause_eqb_eq') in Hi as [Hi|[-> Hi]]; [auto|split; [lia|exact Hl]].
  - intros a. rewrite !value_k. cbn [obj_offset obj_lits obj_cls]. rewrite (gadd_ksum _ clause_eqb_eq'). destruct (sat_clause a l); cbn [negb]; lia.
Qed.
Lemma increase_soft_clause_spec w l o : obj_wf o -> obj_wf (increase_soft_clause w l o) /\ forall a, obj_value a (increase_soft_clause w l o) = (obj_value a o + if sat_clause a l then 0 else Z.of_nat w)%Z.
Proof.
  intros Hwf. unfold increase_soft_clause. destruct (Nat.eqb_spec w 0) as [->|Hw]; [split; [exact Hwf|]; intros a; destruct (sat_clause a l); lia|].
  assert (Hcase : (exists x, l = [x]) \/ length l <> 1%nat) by (destruct l as [|x [|y l]]; cbn; [right; lia|left; eauto|right; lia]).
  destruct Hcase as [[x ->]|Hl].
  - destruct (increase_soft_lit_spec w (neg x) o Hwf) as [H1 H2]. split; [exact H1|]. intros a. rewrite H2, sat_unit, lit_true_neg. destruct (lit_true a x); reflexivity.
  - match goal with |- context [match l with [] => ?B | _ => _ end] => assert (Heq : (match l with [x] => increase_soft_lit w (neg x) o | _ => B end) = B) by (destruct l as [|? [|? ?]]; [reflexivity|cbn in Hl; lia|reflexivity]); rewrite Heq; clear Heq end.
    destruct o as [z ls cs|z u ls cs].
    + now apply increase_cls_weighted.
    + destruct (wf_unweighted_inv _ _ _ _ Hwf) as (W1 & W2 & W3 & W4). destruct u as [uw|].
      * destruct (Nat.eqb_spec w uw) as [->|Hne].
        -- split; [apply wf_unweighted_intro; [discriminate|exact W3|intros c Hc; apply in_app_or in Hc as [Hc|[<-|[]]]; auto]|].
           intros a. rewrite !value_k. cbn [obj_offset obj_lits obj_cls or_zero]. rewrite map_app, ksum_app. cbn. destruct (sat_clause a l); cbn [negb]; lia.
        -- set (o := OUnweighted z (Some uw) ls cs) in *. destruct (u2w_weighted o) as (ls1 & cs1 & E). rewrite E. pose proof (u2w_wf _ Hwf) as Hwf1. rewrite E in Hwf1.
           destruct (increase_cls_weighted w l _ _ _ Hw Hl Hwf1) as [I1 I2]. split; [exact I1|]. intros a. rewrite I2, <- E. now rewrite u2w_value.
      * rewrite (W1 eq_refl), (W2 eq_refl). split; [apply wf_unweighted_intro; [discriminate|congruence|intros c [<-|[]]; exact Hl]|]. intros a. rewrite !value_k. cbn. destruct (sat_clause a l); cbn [negb]; lia.
Qed.

Lemma obj_new_wf : obj_wf obj_new.
Proof. apply wf_unweighted_intro; [auto|discriminate|intros ? []]. Qed.
Lemma set_offset_distinct z o : obj_distinct o -> obj_distinct (obj_set_offset z o).
Proof. destruct o; auto. Qed.

Lemma obj_call_spec o k : obj_wf o -> exists o', obj_call o k = Some o' /\ obj_wf o' /\
  ((sets_weight k -> obj_distinct o) -> forall a, obj_value a o' = (obj_value a o + ocall_change a o k)%Z).
Proof.
  intros Hwf. destruct k as [w l|w l|w l|w c|w c|z|z]; cbn [obj_call ocall_change sets_weight].
  - destruct (add_soft_lit_spec w l o Hwf) as (o' & r & -> & H1 & H2). eexists. split; [reflexivity|]. split; [exact H1|]. intros Hd a. now apply H2, Hd.
  - destruct (increase_soft_lit_spec w l o Hwf). eauto.
  - destruct (increase_soft_lit_int_spec w l o Hwf). eauto.
  - destruct c as [|x [|y c]].
    + cbn. destruct (increase_offset_spec (Z.of_nat w) o Hwf). eauto.
    + cbn [add_soft_clause]. destruct (add_soft_lit_spec w (neg x) o Hwf) as (o' & r & -> & H1 & H2). eexists. split; [reflexivity|]. split; [exact H1|]. intros Hd a. now apply H2, Hd.
    + destruct (add_soft_cls_spec w (x :: y :: c) o ltac:(cbn; lia) Hwf) as (o' & r & -> & H1 & H2). eexists. split; [reflexivity|]. split; [exact H1|]. intros Hd a. now apply H2, Hd.
  - destruct (increase_soft_clause_spec w c o Hwf). eauto.
  - destruct (set_offset_spec z o Hwf). eauto.
  - destruct (increase_offset_spec z o Hwf). eauto.
Qed.
Lemma obj_calls_wf ks : forall o, obj_wf o -> exists o', foldM obj_call ks o = Some o' /\ obj_wf o'.
Proof.
  induction ks as [|k ks IH]; intros o H; cbn; [eauto|]. destruct (obj_call_spec o k H) as (o1 & -> & H1 & _). cbn [obind]. auto.
Qed.

(** Distinctness is kept by the calls that set weights, and by increasing where it makes the objective weighted *)
Lemma obj_call_distinct o k o' : obj_wf o -> obj_distinct o -> sets_weight k -> obj_call o k = Some o' -> obj_distinct o'.
Proof.
  intros Hwf Hd Hs E. destruct k as [w l|w l|w l|w c|w c|z|z]; cbn in Hs; try contradiction; cbn in E.
  - destruct (add_soft_lit_spec w l o Hwf) as (o1 & r & E1 & _ & H2). rewrite E1 in E. injection E as <-. now apply H2.
  - destruct c as [|x [|y c]].
    + cbn in E. injection E as <-. now apply set_offset_distinct.
    + cbn [add_soft_clause] in E. destruct (add_soft_lit_spec w (neg x) o Hwf) as (o1 & r & E1 & _ & H2). rewrite E1 in E. injection E as <-. now apply H2.
    + destruct (add_soft_cls_spec w (x :: y :: c) o ltac:(cbn; lia) Hwf) as (o1 & r & E1 & _ & H2). rewrite E1 in E. injection E as <-. now apply H2.
Qed.

(** ** Evaluation *)
Definition lit_set (s : assignment) (l : lit) : bool := tern_eqb (lit_value s l) TTrue.
Definition cls_falsified (s : assignment) (c : clause) : bool := tern_eqb (clause_evaluate s c) TFalse.
Lemma evaluate_ksum s o : obj_wf o -> obj_evaluate s o = Some (obj_offset o + Z.of_nat (ksum (lit_set s) (obj_lits o)) + Z.of_nat (ksum (cls_falsified s) (obj_cls o)))%Z.
Proof.
  intros Hwf. unfold obj_evaluate. destruct o as [z ls cs|z u ls cs]; cbn [obj_evaluate_no_offset obj_lits obj_cls obj_offset].
  - rewrite (fold_ksum (fun c => tern_eqb (clause_evaluate s c) TFalse)), (fold_ksum (fun l => tern_eqb (lit_value s l) TTrue)). cbn [obind]. f_equal. unfold lit_set, cls_falsified. lia.
  - rewrite (fold_count (fun c => tern_eqb (clause_evaluate s c) TFalse)), (fold_count (fun l => tern_eqb (lit_value s l) TTrue)). destruct u as [w|].
    + cbn [obind]. f_equal. rewrite !ksum_map_const. cbn [or_zero]. unfold lit_set, cls_falsified. lia.
    + apply wf_none in Hwf as [-> ->]. cbn. f_equal. lia.
Qed.
Lemma lit_set_true s a l : completes a (pasg_of s) -> lit_set s l = true -> lit_true a l = true.
Proof. intros H E. unfold lit_set in E. pose proof (lit_value_completes s a l H) as X. destruct (lit_value s l); try discriminate. exact X. Qed.
Lemma evaluate_le s o a : obj_wf o -> completes a (pasg_of s) -> exists v, obj_evaluate s o = Some v /\ (v <= obj_value a o)%Z.
Proof.
  intros Hwf Ha. rewrite evaluate_ksum by exact Hwf. eexists. split; [reflexivity|]. rewrite value_k.
  pose proof (ksum_le (lit_set s) (lit_true a) (obj_lits o) ltac:(intros l w _; now apply lit_set_true)).
  pose proof (ksum_le (cls_falsified s) (fun c => negb (sat_clause a c)) (obj_cls o)) as H2. specialize (H2 ltac:(intros c w _ E; apply negb_true_iff; apply (eval_false_sound s); [|exact Ha]; unfold cls_falsified in E; destruct (clause_evaluate s c); [discriminate|reflexivity|discriminate])). lia.
Qed.
Lemma evaluate_total s o a : obj_wf o -> completes a (pasg_of s) -> (forall l, In l (obj_vars o) -> lit_value s l <> TDontCare) -> obj_evaluate s o = Some (obj_value a o).
Proof.
  intros Hwf Ha Ht. rewrite evaluate_ksum by exact Hwf. rewrite value_k. f_equal. f_equal; [f_equal|]; f_equal.
  - apply ksum_ext. intros l w Hi. assert (Hv : In l (obj_vars o)) by (apply in_or_app; left; change l with (fst (l, w)); now apply in_map).
    apply Ht in Hv. unfold lit_set. pose proof (lit_value_completes s a l Ha) as X. destruct (lit_value s l); [now rewrite X|now rewrite X|congruence].
  - apply ksum_ext. intros c w Hi. unfold cls_falsified. pose proof (clause_evaluate_cases s c) as X.
    destruct (clause_evaluate s c) eqn:E; [now rewrite (eval_true_sound s c a E Ha)|now rewrite (eval_false_sound s c a E Ha)|].
    exfalso. destruct X as [(l & Hl & X) _]. apply (Ht l); [|exact X]. apply in_or_app. right. apply in_concat. exists c. split; [|exact Hl]. change c with (fst (c, w)). now apply in_map.
Qed.

(** ** Weights *)
Lemma lit_weight_spec l o : obj_wf o -> exists r, lit_weight l o = Some r /\ (r = None <-> ~ In l (map fst (obj_lits o))) /\
  (obj_distinct o -> r = if (lit_total l o =? 0)%nat then None else Some (lit_total l o)).
Proof.
  intros Hwf. destruct o as [z ls cs|z u ls cs].
  - eexists. split; [reflexivity|]. split; [apply (gget_none _ lit_eqb_eq)|]. intros _. destruct Hwf as (H1 & _ & H3 & _). now apply (old_weight _ lit_eqb_eq).
  - cbn [lit_weight]. unfold get_unweighted. destruct (wf_unweighted_inv _ _ _ _ Hwf) as (W1 & W2 & W3 & W4). destruct (existsb _ ls) eqn:E.
    + destruct u as [w|]; [|rewrite (W1 eq_refl) in E; discriminate]. eexists. split; [reflexivity|]. split.
      * cbn [obj_lits]. rewrite map_map. cbn. rewrite map_id. apply (existsb_keys _ lit_eqb_eq) in E. split; [discriminate|contradiction].
      * rewrite distinct_u. intros [D _]. unfold lit_total. cbn [obj_lits or_zero]. change (Some w = if (ktotal lit_eqb l (map (fun l => (l, w)) ls) =? 0)%nat then None else Some (ktotal lit_eqb l (map (fun l => (l, w)) ls))).
        rewrite (ktotal_const _ lit_eqb_eq), (filter_nodup_one _ lit_eqb_eq), E by exact D. rewrite Nat.mul_1_l. destruct (Nat.eqb_spec w 0) as [->|]; [congruence|reflexivity].
    + eexists. split; [reflexivity|]. split.
      * cbn [obj_lits]. rewrite map_map. cbn. rewrite map_id. split; [intros _ Hi; apply (existsb_keys _ lit_eqb_eq) in Hi; congruence|reflexivity].
      * intros _. unfold lit_total. cbn [obj_lits]. change (None = if (ktotal lit_eqb l (map (fun l => (l, or_zero u)) ls) =? 0)%nat then None else Some (ktotal lit_eqb l (map (fun l => (l, or_zero u)) ls))).
        rewrite (ktotal_const _ lit_eqb_eq), (filter_none lit_eqb); [reflexivity|]. intros x Hx. destruct (lit_eqb x l) eqn:Ex; [|reflexivity]. apply lit_eqb_eq in Ex as ->. apply (existsb_keys _ lit_eqb_eq) in Hx. congruence.
Qed.
Lemma clause_weight_spec l o : obj_wf o -> exists r, clause_weight l o = Some r /\ (r = None <-> ~ In l (map fst (obj_cls o))) /\
  (obj_distinct o -> r = if (clause_total l o =? 0)%nat then None else Some (clause_total l o)).
Proof.
  intros Hwf. destruct o as [z ls cs|z u ls cs].
  - eexists. split; [reflexivity|]. split; [apply (gget_none _ clause_eqb_eq')|]. intros _. destruct Hwf as (_ & H2 & _ & H4). apply (old_weight _ clause_eqb_eq'); [exact H4|]. intros k x Hi. now apply H2 in Hi.
  - cbn [clause_weight]. unfold get_unweighted. destruct (wf_unweighted_inv _ _ _ _ Hwf) as (W1 & W2 & W3 & W4). destruct (existsb _ cs) eqn:E.
    + destruct u as [w|]; [|rewrite (W2 eq_refl) in E; discriminate]. eexists. split; [reflexivity|]. split.
      * cbn [obj_cls]. rewrite map_map. cbn. rewrite map_id. apply (existsb_keys _ clause_eqb_eq') in E. split; [discriminate|contradiction].
      * rewrite distinct_u. intros [_ D]. unfold clause_total. cbn [obj_cls or_zero]. change (Some w = if (ktotal clause_eqb l (map (fun l => (l, w)) cs) =? 0)%nat then None else Some (ktotal clause_eqb l (map (fun l => (l, w)) cs))).
        rewrite (ktotal_const _ clause_eqb_eq'), (filter_nodup_one _ clause_eqb_eq'), E by exact D. rewrite Nat.mul_1_l. destruct (Nat.eqb_spec w 0) as [->|]; [congruence|reflexivity].
    + eexists. split; [reflexivity|]. split.
      * cbn [obj_cls]. rewrite map_map. cbn. rewrite map_id. split; [intros _ Hi; apply (existsb_keys _ clause_eqb_eq') in Hi; congruence|reflexivity].
      * intros _. unfold clause_total. cbn [obj_cls]. change (None = if (ktotal clause_eqb l (map (fun l => (l, or_zero u)) cs) =? 0)%nat then None else Some (ktotal clause_eqb l (map (fun l => (l, or_zero u)) cs))).
        rewrite (ktotal_const _ clause_eqb_eq'), (filter_none clause_eqb); [reflexivity|]. intros x Hx. destruct (clause_eqb x l) eqn:Ex; [|reflexivity]. apply clause_eqb_eq' in Ex as ->. apply (existsb_keys _ clause_eqb_eq') in Hx. congruence.
Qed.
Lemma ksum_total {K} (m : list (K * nat)) : ksum (fun _ => true) m = list_sum (map snd m).
Proof. induction m as [|[k w] m IH]; cbn; [reflexivity|]. now rewrite IH. Qed.
Lemma weight_sum_eq o : obj_weight_sum o = (list_sum (map snd (obj_lits o)) + list_sum (map snd (obj_cls o)))%nat.
Proof.
  unfold obj_weight_sum, obj_lit_weight_sum, obj_clause_weight_sum. destruct o as [z ls cs|z u ls cs]; cbn [obj_lits obj_cls].
  - rewrite !fold_total, !ksum_total. reflexivity.
  - rewrite !map_map. cbn [snd]. assert (H : forall A (xs : list A) w, list_sum (map (fun _ => w) xs) = (length xs * w)%nat) by (intros A xs w; induction xs as [|x xs IH]; [reflexivity|]; cbn [map length]; change (list_sum (w :: map (fun _ => w) xs)) with (w + list_sum (map (fun _ : A => w) xs))%nat; rewrite IH; lia). now rewrite !H.
Qed.
Lemma value_bounds a o : (obj_offset o <= obj_value a o <= obj_offset o + Z.of_nat (obj_weight_sum o))%Z.
Proof.
  rewrite value_k, weight_sum_eq, <- !ksum_total. pose proof (ksum_le (lit_true a) (fun _ => true) (obj_lits o) ltac:(auto)). pose proof (ksum_le (fun c => negb (sat_clause a c)) (fun _ => true) (obj_cls o) ltac:(auto)). lia.
Qed.
Lemma is_nil_spec {A} (xs : list A) : is_nil xs = true <-> xs = [].
Proof. destruct xs; cbn; split; congruence. Qed.
Lemma constant_spec o : obj_constant o = true <-> obj_lits o = [] /\ obj_cls o = [].
Proof.
  destruct o as [z ls cs|z u ls cs]; cbn; rewrite andb_true_iff, !is_nil_spec; [reflexivity|]. split; intros [H1 H2]; [now subst|]. split; [destruct ls|destruct cs]; (reflexivity || discriminate).
Qed.
Lemma constant_value o a : obj_constant o = true -> obj_value a o = obj_offset o.
Proof. intros H. apply constant_spec in H as [H1 H2]. unfold obj_value. rewrite H1, H2. cbn. lia. Qed.
(** an objective that is not constant takes different values, unless it has complementary or tautological parts; at least it has a soft literal or clause *)
Lemma is_empty_spec o : obj_is_empty o = true <-> obj_lits o = [] /\ obj_cls o = [] /\ obj_offset o = 0%Z.
Proof. unfold obj_is_empty. rewrite andb_true_iff, constant_spec, Z.eqb_eq. tauto. Qed.

(** ** Conversions *)
Section Orders.
Variables (lord : list (lit * nat) -> list (lit * nat)) (cord : list (clause * nat) -> list (clause * nat)).
Hypothesis Hord : orders lord cord.
Let Lp m : Permutation (lord m) m := proj1 Hord m.
Let Cp m : Permutation (cord m) m := proj2 Hord m.

Lemma w2u_value o : same_value o (weighted_2_unweighted lord cord o).
Proof.
  intros a. destruct o as [z ls cs|]; [|reflexivity]. cbn [weighted_2_unweighted]. rewrite !value_k. cbn [obj_offset obj_lits obj_cls or_zero]. unfold copies.
  rewrite !copies_spec. cbn [map ksum Nat.add]. now rewrite (ksum_perm _ _ _ (Lp ls)), (ksum_perm _ _ _ (Cp cs)).
Qed.
Lemma w2u_wf o : obj_wf o -> obj_wf (weighted_2_unweighted lord cord o).
Proof.
  destruct o as [z ls cs|]; [|auto]. intros (H1 & H2 & _). cbn [weighted_2_unweighted]. apply wf_some. split; [lia|]. intros c Hc. apply copies_in in Hc as [[]|(w & Hc)].
  apply (Permutation_in _ (Cp cs)) in Hc. now apply H2 in Hc.
Qed.

Lemma cls_cost_units {A} a (g : A -> lit) (h : A -> nat) xs : cls_cost a (map (fun x => ([neg (g x)], h x)) xs) = wsum a (map (fun x => (g x, h x)) xs).
Proof. induction xs as [|x xs IH]; cbn [map cls_cost wsum]; [reflexivity|]. rewrite IH, sat_unit_neg. now destruct (lit_true a (g x)). Qed.
Lemma mapM_some {A B} (g : A -> B) xs : mapM (fun x => Some (g x)) xs = Some (map g xs).
Proof. induction xs as [|x xs IH]; cbn; [reflexivity|]. now rewrite IH. Qed.
Lemma insert_units ls : forall cs, NoDup (map fst ls) -> (forall l, In l (map fst ls) -> ~ In [neg l] (map fst cs)) ->
  fold_left (fun m e => ginsert clause_eqb m [neg (fst e)] (snd e)) ls cs = cs ++ map (fun e => ([neg (fst e)], snd e)) ls.
Proof.
  induction ls as [|[l w] ls IH]; intros cs Hd Hn; cbn [fold_left map fst snd]; [now rewrite app_nil_r|]. inversion Hd as [|? ? Hi Hd']; subst.
  rewrite (ginsert_new _ clause_eqb_eq'); [|apply Hn; now left]. rewrite IH; [now rewrite <- app_assoc|exact Hd'|].
  intros l' Hl' Hc. rewrite map_app in Hc. apply in_app_or in Hc as [Hc|[Hc|[]]]; [apply (Hn l'); [now right|exact Hc]|]. cbn [fst] in Hc. assert (E : neg l = neg l') by congruence. apply neg_inj in E. subst. now apply Hi.
Qed.
Lemma wf_no_unit z ls cs l : obj_wf (OWeighted z ls cs) -> ~ In [neg l] (map fst cs).
Proof. intros (_ & H & _) Hi. apply in_map_iff in Hi as ([c w] & E & Hi). cbn in E. subst c. apply H in Hi as [_ Hi]. now apply Hi. Qed.
Lemma into_soft_cls_spec o : obj_wf o -> exists cs z, into_soft_cls lord cord o = Some (cs, z) /\ Permutation cs (map (fun e => ([neg (fst e)], snd e)) (obj_lits o) ++ obj_cls o) /\ z = obj_offset o.
Proof.
  intros Hwf. destruct o as [z ls cs|z u ls cs].
  - cbn [into_soft_cls]. eexists _, _. split; [reflexivity|]. split; [|reflexivity]. cbn [obj_lits obj_cls]. etransitivity; [apply Cp|]. pose proof Hwf as (H1 & H2 & H3 & H4). rewrite insert_units.
    + rewrite Permutation_app_comm. apply Permutation_app_tail. apply Permutation_map, Lp.
    + apply (Permutation_NoDup (Permutation_map fst (Permutation_sym (Lp ls)))). exact H3.
    + intros l _. eapply wf_no_unit; eauto.
  - cbn [into_soft_cls]. destruct u as [w|].
    + rewrite (mapM_some (fun c => (c, w))). cbn [obind]. eexists _, _. split; [reflexivity|]. split; [|reflexivity]. cbn [obj_lits obj_cls or_zero]. rewrite map_app, Permutation_app_comm, !map_map. reflexivity.
    + apply wf_none in Hwf as [-> ->]. cbn. eauto.
Qed.
Lemma into_soft_cls_value o : obj_wf o -> exists cs z, into_soft_cls lord cord o = Some (cs, z) /\ forall a, (z + Z.of_nat (cls_cost a cs))%Z = obj_value a o.
Proof.
  intros Hwf. destruct (into_soft_cls_spec o Hwf) as (cs & z & E & P & ->). eexists _, _. split; [exact E|]. intros a. rewrite (cls_cost_perm _ _ _ P), cls_cost_app.
  rewrite (cls_cost_units a fst snd). unfold obj_value. rewrite map_ext with (g := fun x => x) by (now intros []). rewrite map_id. lia.
Qed.
Lemma count_unsat_const a w cs : cls_cost a (map (fun c => (c, w)) cs) = (w * count_unsat a cs)%nat.
Proof. induction cs as [|c cs IH]; cbn; [lia|]. rewrite IH. destruct (sat_clause a c); lia. Qed.
Lemma count_true_const a w ls : wsum a (map (fun l => (l, w)) ls) = (w * count_true a ls)%nat.
Proof. induction ls as [|c cs IH]; cbn; [lia|]. rewrite IH. destruct (lit_true a c); lia. Qed.
Lemma count_unsat_app a cs cs' : count_unsat a (cs ++ cs') = (count_unsat a cs + count_unsat a cs')%nat.
Proof. induction cs as [|c cs IH]; cbn; [reflexivity|]. rewrite IH. lia. Qed.
Lemma count_unsat_units a ls : count_unsat a (map (fun l => [neg l]) ls) = count_true a ls.
Proof. induction ls as [|l ls IH]; cbn [map count_unsat count_true]; [reflexivity|]. rewrite IH, sat_unit_neg. now destruct (lit_true a l). Qed.
Lemma value_u a z w ls cs : obj_value a (OUnweighted z (Some w) ls cs) = (z + Z.of_nat (w * (count_true a ls + count_unsat a cs)))%Z.
Proof. unfold obj_value. cbn [obj_offset obj_lits obj_cls or_zero]. rewrite count_true_const, count_unsat_const. lia. Qed.
Lemma into_unweighted_soft_cls_spec o : obj_wf o -> exists cs w z, into_unweighted_soft_cls lord cord o = Some (cs, w, z) /\ (0 < w)%nat /\
  forall a, (z + Z.of_nat (w * count_unsat a cs))%Z = obj_value a o.
Proof.
  intros Hwf. unfold into_unweighted_soft_cls. pose proof (w2u_wf o Hwf) as Hwf'. pose proof (w2u_value o) as Hv. destruct (weighted_2_unweighted lord cord o) as [z ls cs|z [w|] ls cs] eqn:E.
  - destruct o; discriminate.
  - eexists _, _, _. split; [reflexivity|]. split; [now apply wf_some in Hwf'|]. intros a. rewrite <- Hv, value_u, count_unsat_app, count_unsat_units. lia.
  - eexists _, _, _. split; [reflexivity|]. split; [lia|]. intros a. rewrite <- Hv. apply wf_none in Hwf' as [-> ->]. unfold obj_value. cbn. lia.
Qed.
Lemma iter_soft_lits_spec o : match iter_soft_lits lord o with
  | inr _ => obj_cls o <> []
  | inl ls => obj_cls o = [] /\ Permutation ls (obj_lits o) end.
Proof.
  unfold iter_soft_lits. destruct (0 <? obj_n_clauses o)%nat eqn:E; destruct o as [z ls cs|z u ls cs]; cbn [obj_n_clauses obj_cls obj_lits] in *.
  - destruct cs; [discriminate|congruence].
  - destruct cs; [discriminate|cbn; congruence].
  - destruct cs; [|discriminate]. split; [reflexivity|apply Lp].
  - destruct cs; [|discriminate]. split; reflexivity.
Qed.
Lemma iter_soft_lits_value o ls : iter_soft_lits lord o = inl ls -> forall a, (obj_offset o + Z.of_nat (wsum a ls))%Z = obj_value a o.
Proof. intros E a. pose proof (iter_soft_lits_spec o) as H. rewrite E in H. destruct H as [Hc P]. unfold obj_value. rewrite Hc, (wsum_perm' _ _ _ P). cbn. lia. Qed.
Lemma iter_soft_cls_spec o : Permutation (iter_soft_cls lord cord o) (map (fun e => ([neg (fst e)], snd e)) (obj_lits o) ++ obj_cls o).
Proof.
  destruct o as [z ls cs|z u ls cs]; cbn [iter_soft_cls obj_lits obj_cls].
  - apply Permutation_app; [apply Permutation_map, Lp|apply Cp].
  - rewrite map_map. reflexivity.
Qed.
Lemma iter_soft_cls_value o a : (obj_offset o + Z.of_nat (cls_cost a (iter_soft_cls lord cord o)))%Z = obj_value a o.
Proof.
  rewrite (cls_cost_perm _ _ _ (iter_soft_cls_spec o)), cls_cost_app, (cls_cost_units a fst snd). unfold obj_value. rewrite map_ext with (g := fun x => x) by (now intros []). rewrite map_id. lia.
Qed.
End Orders.

(** ** Maximum variable *)
Lemma find_max_fold ls : forall mv r, fold_left (fun mv l => find_max mv (lvar l)) ls mv = r ->
  (forall v, mv = Some v -> exists m, r = Some m /\ (v <= m)%N) /\ (forall l, In l ls -> exists m, r = Some m /\ (lvar l <= m)%N) /\
  (forall m, r = Some m -> mv = Some m \/ exists l, In l ls /\ lvar l = m).
Proof.
  induction ls as [|l ls IH]; intros mv r E; cbn [fold_left] in E.
  - subst r. split; [intros v ->; exists v; split; [reflexivity|lia]|]. split; [intros ? []|auto].
  - destruct (IH _ _ E) as (I1 & I2 & I3). clear E IH.
    assert (Hf : exists f, find_max mv (lvar l) = Some f /\ (lvar l <= f)%N /\ (forall v, mv = Some v -> (v <= f)%N) /\ (mv = Some f \/ f = lvar l)).
    { unfold find_max. destruct mv as [v|]; [destruct (N.ltb_spec v (lvar l))|]; eexists; (split; [reflexivity|]); (split; [lia|]); (split; [intros ? [=]; lia|]); auto. }
    destruct Hf as (f & Ef & F1 & F2 & F3). destruct (I1 f Ef) as (m & Em & Hm). split; [|split].
    + intros v Ev. exists m. split; [exact Em|]. specialize (F2 v Ev). lia.
    + intros x [<-|Hx]; [exists m; split; [exact Em|lia]|auto].
    + intros m' E'. destruct (I3 m' E') as [H|(x & Hx & Ex)]; [|right; exists x; split; [now right|exact Ex]]. rewrite Ef in H. injection H as <-.
      destruct F3 as [F3| ->]; [auto|]. right. exists l. split; [now left|reflexivity].
Qed.
Lemma obj_max_var_eq o : obj_max_var o = fold_left (fun mv l => find_max mv (lvar l)) (obj_vars o) None.
Proof.
  assert (H : forall (cs : list clause) mv, fold_left (fun mv c => fold_left (fun mv l => find_max mv (lvar l)) c mv) cs mv = fold_left (fun mv l => find_max mv (lvar l)) (concat cs) mv).
  { induction cs as [|c cs IH]; intros mv; cbn; [reflexivity|]. now rewrite fold_left_app, IH. }
  assert (G : forall (cs : list (clause * nat)) mv, fold_left (fun mv e => fold_left (fun mv l => find_max mv (lvar l)) (fst e) mv) cs mv = fold_left (fun mv l => find_max mv (lvar l)) (concat (map fst cs)) mv).
  { induction cs as [|c cs IH]; intros mv; cbn; [reflexivity|]. now rewrite fold_left_app, IH. }
  destruct o as [z ls cs|z u ls cs]; unfold obj_vars; cbn [obj_max_var obj_lits obj_cls]; rewrite fold_left_app; [now rewrite G|]. rewrite H, !map_map. cbn [fst]. now rewrite !map_id.
Qed.
Lemma obj_max_var_spec o : match obj_max_var o with
  | Some m => (exists l, In l (obj_vars o) /\ lvar l = m) /\ forall l, In l (obj_vars o) -> (lvar l <= m)%N
  | None => obj_vars o = [] end.
Proof.
  rewrite obj_max_var_eq. destruct (find_max_fold (obj_vars o) None _ eq_refl) as (_ & H2 & H3). destruct (fold_left _ (obj_vars o) None) as [m|].
  - split; [destruct (H3 m eq_refl) as [H|H]; [discriminate|exact H]|]. intros l Hl. destruct (H2 l Hl) as (m' & [= <-] & H). exact H.
  - destruct (obj_vars o) as [|l ls]; [reflexivity|]. destruct (H2 l (or_introl eq_refl)) as (m & H & _). discriminate.
Qed.

(** ** Collecting *)
Lemma from_lits_spec xs : obj_wf (obj_from_lits xs) /\ forall a, obj_value a (obj_from_lits xs) = Z.of_nat (wsum a xs).
Proof.
  unfold obj_from_lits. assert (H : forall o, obj_wf o -> obj_wf (fold_left (fun o e => increase_soft_lit (snd e) (fst e) o) xs o) /\
    forall a, obj_value a (fold_left (fun o e => increase_soft_lit (snd e) (fst e) o) xs o) = (obj_value a o + Z.of_nat (wsum a xs))%Z).
  { induction xs as [|[l w] xs IH]; intros o Ho; cbn [fold_left fst snd wsum]; [split; [exact Ho|]; intros; lia|]. destruct (increase_soft_lit_spec w l o Ho) as [H1 H2].
    destruct (IH _ H1) as [I1 I2]. split; [exact I1|]. intros a. rewrite I2, H2. destruct (lit_true a l); lia. }
  destruct (H _ obj_new_wf) as [H1 H2]. split; [exact H1|]. intros a. rewrite H2. reflexivity.
Qed.
Lemma from_ilits_spec xs : obj_wf (obj_from_ilits xs) /\ forall a, obj_value a (obj_from_ilits xs) = zwsum a xs.
Proof.
  unfold obj_from_ilits. assert (H : forall o, obj_wf o -> obj_wf (fold_left (fun o e => increase_soft_lit_int (snd e) (fst e) o) xs o) /\
    forall a, obj_value a (fold_left (fun o e => increase_soft_lit_int (snd e) (fst e) o) xs o) = (obj_value a o + zwsum a xs)%Z).
  { induction xs as [|[l w] xs IH]; intros o Ho; cbn [fold_left fst snd zwsum]; [split; [exact Ho|]; intros; lia|]. destruct (increase_soft_lit_int_spec w l o Ho) as [H1 H2].
    destruct (IH _ H1) as [I1 I2]. split; [exact I1|]. intros a. rewrite I2, H2. destruct (lit_true a l); lia. }
  destruct (H _ obj_new_wf) as [H1 H2]. split; [exact H1|]. intros a. rewrite H2. reflexivity.
Qed.
Lemma from_cls_spec xs : obj_wf (obj_from_cls xs) /\ forall a, obj_value a (obj_from_cls xs) = Z.of_nat (cls_cost a xs).
Proof.
  unfold obj_from_cls. assert (H : forall o, obj_wf o -> obj_wf (fold_left (fun o e => increase_soft_clause (snd e) (fst e) o) xs o) /\
    forall a, obj_value a (fold_left (fun o e => increase_soft_clause (snd e) (fst e) o) xs o) = (obj_value a o + Z.of_nat (cls_cost a xs))%Z).
  { induction xs as [|[l w] xs IH]; intros o Ho; cbn [fold_left fst snd cls_cost]; [split; [exact Ho|]; intros; lia|]. destruct (increase_soft_clause_spec w l o Ho) as [H1 H2].
    destruct (IH _ H1) as [I1 I2]. split; [exact I1|]. intros a. rewrite I2, H2. destruct (sat_clause a l); lia. }
  destruct (H _ obj_new_wf) as [H1 H2]. split; [exact H1|]. intros a. rewrite H2. reflexivity.
Qed.
