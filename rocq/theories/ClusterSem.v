(** * What the clauses of the clustering encoding mean *)

From Coq Require Import List Bool NArith ZArith Ascii String Arith Lia Permutation.
From Coq Require Import ZifyBool ZifyNat ZifyN.
From Verif Require Import Spec Types BoundSpec ConstrEnc Dpw OptSpec Text TextProofs FioSpec Dimacs ToolSpec Bench BenchSpec BenchProofs BenchCnf ClusterSpec ClusterProofs.
Import ListNotations.
Open Scope list_scope.

Section Sem.
Context (n a : nat) (sim : nat -> nat -> similarity) (H2n : (2 <= n)%nat).
Notation items := (cluster_items n a sim).
Definition slit_true (al : varid -> bool) (l : slit) : bool := xorb (snd l) (al (fst l)).
Definition sclause (al : varid -> bool) (c : list slit) : bool := existsb (slit_true al) c.
Definition hard_ok (al : varid -> bool) : Prop := forall x, In x items -> snd x = None -> sclause al (fst x) = true.
Definition bits_same (al : varid -> bool) (i j : nat) : bool := forallb (fun k => Bool.eqb (al (VBin i k)) (al (VBin j k))) (seq 0 a).
Definition eqs (al : varid -> bool) (i j : nat) : bool := forallb (fun k => al (VEq i j k)) (seq 0 a).
(** the meaning of the hard clauses *)
Definition meant (al : varid -> bool) : Prop := forall i j, (i < j < n)%nat ->
  match sim i j with
  | DontCare => True
  | MustLink => bits_same al i j = true
  | CannotLink => (forall k, (k < a)%nat -> al (VEq i j k) = Bool.eqb (al (VBin i k)) (al (VBin j k))) /\ eqs al i j = false
  | _ => (forall k, (k < a)%nat -> al (VEq i j k) = Bool.eqb (al (VBin i k)) (al (VBin j k))) /\ al (VSame i j) = eqs al i j
  end.
Lemma all_negated al i j : existsb (slit_true al) (map (fun k => n_ (VEq i j k)) (seq 0 a)) = negb (eqs al i j).
Proof. unfold eqs. induction (seq 0 a) as [|k l IH]; [reflexivity|]. cbn [map existsb forallb]. rewrite IH. unfold slit_true. cbn [n_ fst snd]. destruct (al (VEq i j k)); reflexivity. Qed.
Lemma eq_meant al i j : (forall x, In x (eq_items a sim (i, j)) -> sclause al (fst x) = true) <-> (sim i j <> DontCare -> sim i j <> MustLink -> forall k, (k < a)%nat -> al (VEq i j k) = Bool.eqb (al (VBin i k)) (al (VBin j k))).
Proof.
  unfold eq_items. set (l := flat_map _ (seq 0 a)).
  assert (H : (forall x, In x l -> sclause al (fst x) = true) <-> forall k, (k < a)%nat -> al (VEq i j k) = Bool.eqb (al (VBin i k)) (al (VBin j k))).
  { split.
    - intros H k Hk. assert (Hk' : In k (seq 0 a)) by (apply in_seq; lia).
      assert (H4 : forall x, In x [([p_ (VEq i j k); p_ (VBin i k); p_ (VBin j k)], @None (nat * nat)); ([p_ (VEq i j k); n_ (VBin i k); n_ (VBin j k)], None);
                             ([n_ (VEq i j k); n_ (VBin i k); p_ (VBin j k)], None); ([n_ (VEq i j k); p_ (VBin i k); n_ (VBin j k)], None)] -> sclause al (fst x) = true) by (intros x Hx; apply H; apply in_flat_map; exists k; split; assumption).
      pose proof (H4 _ (or_introl eq_refl)) as A. pose proof (H4 _ (or_intror (or_introl eq_refl))) as B. pose proof (H4 _ (or_intror (or_intror (or_introl eq_refl)))) as C. pose proof (H4 _ (or_intror (or_intror (or_intror (or_introl eq_refl))))) as D.
      unfold sclause, slit_true in A, B, C, D. cbn in A, B, C, D. destruct (al (VEq i j k)), (al (VBin i k)), (al (VBin j k)); cbn in *; congruence.
    - intros H x Hx. apply in_flat_map in Hx as (k & Hk & Hx). apply in_seq in Hk. specialize (H k ltac:(lia)).
      destruct Hx as [<-|[<-|[<-|[<-|[]]]]]; unfold sclause, slit_true; cbn; rewrite H; destruct (al (VBin i k)), (al (VBin j k)); reflexivity. }
  destruct (sim i j); try (rewrite H; split; [intros K _ _; exact K|intros K; apply K; discriminate]); (split; [intros _ K1 K2; easy|intros _ x []]).
Qed.
Lemma same_meant al i j : (forall x, In x (same_items a sim (i, j)) -> sclause al (fst x) = true) <-> (match sim i j with Similar _ | DisSimilar _ => al (VSame i j) = eqs al i j | _ => True end).
Proof.
  unfold same_items. set (l := map _ _ ++ _).
  assert (H : (forall x, In x l -> sclause al (fst x) = true) <-> al (VSame i j) = eqs al i j).
  { split.
    - intros H. pose proof (H (map (fun k => n_ (VEq i j k)) (seq 0 a) ++ [p_ (VSame i j)], None) ltac:(apply in_or_app; right; now left)) as A. unfold sclause in A. cbn [fst] in A. rewrite existsb_app, all_negated in A. unfold slit_true in A. cbn [existsb p_ fst snd] in A.
      destruct (eqs al i j) eqn:E; [now destruct (al (VSame i j))|]. destruct (al (VSame i j)) eqn:S; [|reflexivity]. rewrite <- E. symmetry. apply forallb_forall. intros k Hk.
      pose proof (H ([n_ (VSame i j); p_ (VEq i j k)], None) ltac:(apply in_or_app; left; apply (in_map (fun k => ([n_ (VSame i j); p_ (VEq i j k)], None))); exact Hk)) as B. unfold sclause, slit_true in B. cbn in B. rewrite S in B. cbn in B. now destruct (al (VEq i j k)).
    - intros H x Hx. apply in_app_iff in Hx as [Hx|[<-|[]]].
      + apply in_map_iff in Hx as (k & <- & Hk). unfold sclause, slit_true. cbn. destruct (al (VSame i j)); [|reflexivity]. symmetry in H. unfold eqs in H. rewrite forallb_forall in H. rewrite (H k Hk). reflexivity.
      + unfold sclause. cbn [fst]. rewrite existsb_app, all_negated. unfold slit_true. cbn [existsb p_ fst snd]. rewrite H. now destruct (eqs al i j). }
  destruct (sim i j); try exact H; (split; [easy|intros _ x []]).
Qed.
Lemma must_meant al i j : (forall x, In x (must_items a sim (i, j)) -> sclause al (fst x) = true) <-> (sim i j = MustLink -> bits_same al i j = true).
Proof.
  unfold must_items. destruct (sim i j); try (split; [intros _ K; discriminate|intros _ x []]). split.
  - intros H _. apply forallb_forall. intros k Hk. apply in_seq in Hk.
    assert (A : forall c, (c < 2 * a)%nat -> sclause al (if (c mod 2 =? 0)%nat then [n_ (VBin i (c / 2)); p_ (VBin j (c / 2))] else [p_ (VBin i (c / 2)); n_ (VBin j (c / 2))]) = true).
    { intros c Hc. set (g := fun c => (if (c mod 2 =? 0)%nat then [n_ (VBin i (c / 2)); p_ (VBin j (c / 2))] else [p_ (VBin i (c / 2)); n_ (VBin j (c / 2))], @None (nat * nat))). apply (H (g c)). apply (in_map g). apply in_seq. lia. }
    pose proof (A (2 * k)%nat ltac:(lia)) as B. pose proof (A (2 * k + 1)%nat ltac:(lia)) as C. clear A H.
    replace ((2 * k) mod 2)%nat with 0%nat in B by (rewrite Nat.mul_comm; symmetry; apply Nat.mod_mul; lia). replace ((2 * k) / 2)%nat with k in B by (rewrite Nat.mul_comm; symmetry; apply Nat.div_mul; lia).
    replace ((2 * k + 1) mod 2)%nat with 1%nat in C by (rewrite Nat.add_comm, Nat.mul_comm, Nat.mod_add by lia; reflexivity). replace ((2 * k + 1) / 2)%nat with k in C by (rewrite Nat.add_comm, Nat.mul_comm, Nat.div_add by lia; reflexivity).
    unfold sclause, slit_true in B, C. cbn in B, C. destruct (al (VBin i k)), (al (VBin j k)); cbn in *; congruence.
  - intros H x Hx. specialize (H eq_refl). unfold bits_same in H. rewrite forallb_forall in H. apply in_map_iff in Hx as (c & <- & Hc). apply in_seq in Hc. assert (Hk : In (c / 2)%nat (seq 0 a)) by (apply in_seq; split; [lia|]; apply Nat.div_lt_upper_bound; lia).
    specialize (H _ Hk). cbn [fst]. destruct (c mod 2 =? 0)%nat; unfold sclause, slit_true; cbn; destruct (al (VBin i (c / 2))), (al (VBin j (c / 2))); cbn in *; congruence.
Qed.
Lemma cannot_meant al i j : (forall x, In x (cannot_items a sim (i, j)) -> sclause al (fst x) = true) <-> (sim i j = CannotLink -> eqs al i j = false).
Proof.
  unfold cannot_items. destruct (sim i j); try (split; [intros _ K; discriminate|intros _ x []]). split.
  - intros H _. specialize (H _ (or_introl eq_refl)). unfold sclause in H. cbn [fst] in H. rewrite all_negated in H. now destruct (eqs al i j).
  - intros H x [<-|[]]. unfold sclause. cbn [fst]. rewrite all_negated, H; reflexivity.
Qed.
Lemma items_cases x : In x items <-> exists i j, (i < j < n)%nat /\ (In x (eq_items a sim (i, j)) \/ In x (same_items a sim (i, j)) \/ In x (must_items a sim (i, j)) \/ In x (cannot_items a sim (i, j)) \/ In x (sim_items sim (i, j)) \/ In x (dis_items sim (i, j))).
Proof.
  unfold cluster_items. rewrite !in_app_iff, !in_flat_map. split.
  - intros H. assert (Hx : exists p, In p (index_pairs n) /\ (In x (eq_items a sim p) \/ In x (same_items a sim p) \/ In x (must_items a sim p) \/ In x (cannot_items a sim p) \/ In x (sim_items sim p) \/ In x (dis_items sim p))).
    { destruct H as [(p & Hp & H)|[(p & Hp & H)|[(p & Hp & H)|[(p & Hp & H)|[(p & Hp & H)|(p & Hp & H)]]]]]; exists p; tauto. }
    destruct Hx as ([i j] & Hp & Hx). apply (index_pairs_in n H2n) in Hp. now exists i, j.
  - intros (i & j & Hp & H). apply (index_pairs_in n H2n) in Hp. destruct H as [H|[H|[H|[H|[H|H]]]]]; [left|right; left|right; right; left|right; right; right; left|right; right; right; right; left|right; right; right; right; right]; exists (i, j); now split.
Qed.
Lemma hard_kinds i j x : (In x (eq_items a sim (i, j)) \/ In x (same_items a sim (i, j)) \/ In x (must_items a sim (i, j)) \/ In x (cannot_items a sim (i, j)) -> snd x = None) /\ (In x (sim_items sim (i, j)) \/ In x (dis_items sim (i, j)) -> snd x <> None).
Proof.
  unfold eq_items, same_items, must_items, cannot_items, sim_items, dis_items. split.
  - intros [H|[H|[H|H]]]; destruct (sim i j); try easy; try (apply in_flat_map in H as (k & _ & [<-|[<-|[<-|[<-|[]]]]]); reflexivity);
      try (apply in_app_iff in H as [H|[<-|[]]]; [|reflexivity]; apply in_map_iff in H as (k & <- & _); reflexivity); try (apply in_map_iff in H as (k & <- & _); reflexivity); destruct H as [<-|[]]; reflexivity.
  - intros [H|H]; destruct (sim i j); try easy; destruct H as [<-|[]]; discriminate.
Qed.
Theorem hard_meant al : hard_ok al <-> meant al.
Proof.
  split.
  - intros H i j Hij.
    assert (H1 : forall x, In x (eq_items a sim (i, j)) -> sclause al (fst x) = true) by (intros x Hx; apply H; [apply items_cases; exists i, j; tauto|apply (proj1 (hard_kinds i j x)); tauto]).
    assert (H2 : forall x, In x (same_items a sim (i, j)) -> sclause al (fst x) = true) by (intros x Hx; apply H; [apply items_cases; exists i, j; tauto|apply (proj1 (hard_kinds i j x)); tauto]).
    assert (H3 : forall x, In x (must_items a sim (i, j)) -> sclause al (fst x) = true) by (intros x Hx; apply H; [apply items_cases; exists i, j; tauto|apply (proj1 (hard_kinds i j x)); tauto]).
    assert (H4 : forall x, In x (cannot_items a sim (i, j)) -> sclause al (fst x) = true) by (intros x Hx; apply H; [apply items_cases; exists i, j; tauto|apply (proj1 (hard_kinds i j x)); tauto]).
    rewrite eq_meant in H1. rewrite same_meant in H2. rewrite must_meant in H3. rewrite cannot_meant in H4. destruct (sim i j); try exact Logic.I; try (split; [apply H1; discriminate|exact H2]); [now apply H3|split; [apply H1; discriminate|now apply H4]].
  - intros H x Hx Hn. apply items_cases in Hx as (i & j & Hij & Hx). specialize (H i j Hij). revert x Hn Hx.
    assert (Hall : (forall x, In x (eq_items a sim (i, j)) -> sclause al (fst x) = true) /\ (forall x, In x (same_items a sim (i, j)) -> sclause al (fst x) = true) /\ (forall x, In x (must_items a sim (i, j)) -> sclause al (fst x) = true) /\ (forall x, In x (cannot_items a sim (i, j)) -> sclause al (fst x) = true)).
    { rewrite eq_meant, same_meant, must_meant, cannot_meant. destruct (sim i j); repeat split; try easy; intros; try apply H; auto. }
    destruct Hall as (A & B & C & D). intros x Hn [Hx|[Hx|[Hx|[Hx|Hx]]]]; [exact (A x Hx)|exact (B x Hx)|exact (C x Hx)|exact (D x Hx)|]. now apply (proj2 (hard_kinds i j x)) in Hx.
Qed.

(** ** Costs *)
Definition soft_cost (al : varid -> bool) (k : nat) (xs : list sitem) : nat := list_sum (map (fun x => match snd x with Some (k', w) => if (k' =? k)%nat then (if sclause al (fst x) then 0 else w) else 0 | None => 0 end)%nat xs).
Lemma soft_cost_app al k xs ys : soft_cost al k (xs ++ ys) = (soft_cost al k xs + soft_cost al k ys)%nat.
Proof. unfold soft_cost. now rewrite map_app, list_sum_app. Qed.
Lemma soft_cost_flat al k g (ps : list (nat * nat)) : soft_cost al k (flat_map g ps) = list_sum (map (fun p => soft_cost al k (g p)) ps).
Proof. induction ps as [|p ps IH]; [reflexivity|]. cbn [flat_map map]. now rewrite soft_cost_app, IH, list_sum_cons. Qed.
Lemma soft_cost_hard al k xs : (forall x, In x xs -> snd x = None) -> soft_cost al k xs = 0%nat.
Proof. induction xs as [|x xs IH]; intros H; [reflexivity|]. unfold soft_cost in *. cbn [map]. rewrite list_sum_cons, IH by (intros; apply H; now right). now rewrite (H x (or_introl eq_refl)). Qed.
Lemma sums_zero {A} (g : A -> nat) xs : (forall x, In x xs -> g x = 0%nat) -> list_sum (map g xs) = 0%nat.
Proof. induction xs as [|x xs IH]; intros H; [reflexivity|]. cbn [map]. rewrite list_sum_cons, IH by (intros; apply H; now right). now rewrite H by now left. Qed.
Lemma cost_apart al : soft_cost al 0 items = list_sum (map (fun p => apart_weight (sim (fst p) (snd p)) (al (VSame (fst p) (snd p)))) (index_pairs n)).
Proof.
  unfold cluster_items. rewrite !soft_cost_app, !soft_cost_flat.
  rewrite (sums_zero (fun p => soft_cost al 0 (eq_items a sim p))), (sums_zero (fun p => soft_cost al 0 (same_items a sim p))), (sums_zero (fun p => soft_cost al 0 (must_items a sim p))), (sums_zero (fun p => soft_cost al 0 (cannot_items a sim p))), (sums_zero (fun p => soft_cost al 0 (dis_items sim p))).
  - rewrite Nat.add_0_r. cbn [Nat.add]. apply list_sum_ext. intros [i j] _. unfold sim_items. cbn [fst snd]. destruct (sim i j); cbn [apart_weight]; try (destruct (al (VSame i j)); reflexivity). unfold soft_cost, sclause, slit_true. cbn. destruct (al (VSame i j)); cbn; lia.
  - intros [i j] _. unfold dis_items. destruct (sim i j); reflexivity.
  - intros [i j] _. apply soft_cost_hard. intros x Hx. apply (proj1 (hard_kinds i j x)). tauto.
  - intros [i j] _. apply soft_cost_hard. intros x Hx. apply (proj1 (hard_kinds i j x)). tauto.
  - intros [i j] _. apply soft_cost_hard. intros x Hx. apply (proj1 (hard_kinds i j x)). tauto.
  - intros [i j] _. apply soft_cost_hard. intros x Hx. apply (proj1 (hard_kinds i j x)). tauto.
Qed.
Lemma cost_together al : soft_cost al 1 items = list_sum (map (fun p => together_weight (sim (fst p) (snd p)) (al (VSame (fst p) (snd p)))) (index_pairs n)).
Proof.
  unfold cluster_items. rewrite !soft_cost_app, !soft_cost_flat.
  rewrite (sums_zero (fun p => soft_cost al 1 (eq_items a sim p))), (sums_zero (fun p => soft_cost al 1 (same_items a sim p))), (sums_zero (fun p => soft_cost al 1 (must_items a sim p))), (sums_zero (fun p => soft_cost al 1 (cannot_items a sim p))), (sums_zero (fun p => soft_cost al 1 (sim_items sim p))).
  - cbn [Nat.add]. apply list_sum_ext. intros [i j] _. unfold dis_items. cbn [fst snd]. destruct (sim i j); cbn [together_weight]; try (destruct (al (VSame i j)); reflexivity). unfold soft_cost, sclause, slit_true. cbn. destruct (al (VSame i j)); cbn; lia.
  - intros [i j] _. unfold sim_items. destruct (sim i j); reflexivity.
  - intros [i j] _. apply soft_cost_hard. intros x Hx. apply (proj1 (hard_kinds i j x)). tauto.
  - intros [i j] _. apply soft_cost_hard. intros x Hx. apply (proj1 (hard_kinds i j x)). tauto.
  - intros [i j] _. apply soft_cost_hard. intros x Hx. apply (proj1 (hard_kinds i j x)). tauto.
  - intros [i j] _. apply soft_cost_hard. intros x Hx. apply (proj1 (hard_kinds i j x)). tauto.
Qed.

(** ** Clusterings of the indices *)
Definition index_valid (f : nat -> nat) : Prop := forall i j, (i < j < n)%nat -> (sim i j = MustLink -> f i = f j) /\ (sim i j = CannotLink -> f i <> f j).
Definition index_apart (f : nat -> nat) : nat := list_sum (map (fun p => apart_weight (sim (fst p) (snd p)) (f (fst p) =? f (snd p))%nat) (index_pairs n)).
Definition index_together (f : nat -> nat) : nat := list_sum (map (fun p => together_weight (sim (fst p) (snd p)) (f (fst p) =? f (snd p))%nat) (index_pairs n)).
Fixpoint code (bs : list bool) : nat := match bs with [] => 0%nat | b :: r => (Nat.b2n b + 2 * code r)%nat end.
Lemma code_inj bs : forall cs, List.length bs = List.length cs -> code bs = code cs -> bs = cs.
Proof. induction bs as [|b bs IH]; intros [|c cs] Hl E; try discriminate; [reflexivity|]. cbn [code List.length] in *. assert (b = c) by (destruct b, c; cbn [Nat.b2n] in E; try reflexivity; lia). subst c. f_equal. apply IH; [lia|]. destruct b; cbn [Nat.b2n] in E; lia. Qed.
Lemma eqs_bits al i j : (forall k, (k < a)%nat -> al (VEq i j k) = Bool.eqb (al (VBin i k)) (al (VBin j k))) -> eqs al i j = bits_same al i j.
Proof.
  intros H. unfold eqs, bits_same. assert (forall l, (forall k, In k l -> (k < a)%nat) -> forallb (fun k => al (VEq i j k)) l = forallb (fun k => Bool.eqb (al (VBin i k)) (al (VBin j k))) l).
  { induction l as [|k l IH]; intros Hl; [reflexivity|]. cbn [forallb]. rewrite H by (apply Hl; now left). rewrite IH by (intros; apply Hl; now right). reflexivity. }
  apply H0. intros k Hk. apply in_seq in Hk. lia.
Qed.
Lemma costs_same f al : (forall i j, (i < j < n)%nat -> (exists w, sim i j = Similar w \/ sim i j = DisSimilar w) -> al (VSame i j) = (f i =? f j)%nat) -> soft_cost al 0 items = index_apart f /\ soft_cost al 1 items = index_together f.
Proof.
  intros H. rewrite cost_apart, cost_together. unfold index_apart, index_together. split; apply list_sum_ext; intros [i j] Hp; apply (index_pairs_in n H2n) in Hp; cbn [fst snd]; specialize (H i j Hp); destruct (sim i j); try reflexivity.
  - rewrite H by eauto. reflexivity.
  - rewrite H by eauto. reflexivity.
Qed.
Lemma decode al : hard_ok al -> exists f, index_valid f /\ soft_cost al 0 items = index_apart f /\ soft_cost al 1 items = index_together f.
Proof.
  intros H. rewrite hard_meant in H. set (f := fun i => code (map (fun k => al (VBin i k)) (seq 0 a))). exists f.
  assert (Hf : forall i j, (f i =? f j)%nat = bits_same al i j).
  { intros i j. unfold bits_same. destruct (forallb _ _) eqn:E.
    - apply Nat.eqb_eq. unfold f. f_equal. apply map_ext_in. intros k Hk. rewrite forallb_forall in E. specialize (E k Hk). now apply Bool.eqb_prop.
    - apply Nat.eqb_neq. intros K. unfold f in K. apply code_inj in K; [|now rewrite !map_length]. assert (forallb (fun k => Bool.eqb (al (VBin i k)) (al (VBin j k))) (seq 0 a) = true); [|congruence].
      clear E. revert K. generalize (seq 0 a). induction l as [|k l IH]; intros K; [reflexivity|]. injection K as K1 K2. cbn [forallb]. rewrite K1, Bool.eqb_reflx. now apply IH. }
  split; [|apply costs_same].
  - intros i j Hij. specialize (H i j Hij). split; intros E; rewrite E in H.
    + apply Nat.eqb_eq. now rewrite Hf.
    + apply Nat.eqb_neq. rewrite Hf. destruct H as [H1 H2]. now rewrite <- eqs_bits.
  - intros i j Hij [w Hw]. specialize (H i j Hij). rewrite Hf, <- eqs_bits; destruct Hw as [E|E]; rewrite E in H; apply H.
Qed.
Lemma encode f : (n <= 2 ^ a)%nat -> index_valid f -> exists al, hard_ok al /\ soft_cost al 0 items = index_apart f /\ soft_cost al 1 items = index_together f.
Proof.
  intros Ha Hf.
  (* the first index with the same label *)
  set (g := fun i => match find (fun j => (f j =? f i)%nat) (seq 0 n) with Some j => j | None => 0%nat end).
  assert (Hg : forall i, (i < n)%nat -> (g i < n)%nat /\ f (g i) = f i).
  { intros i Hi. unfold g. destruct (find _ _) as [j|] eqn:E.
    - apply find_some in E as [E1 E2]. apply in_seq in E1. apply Nat.eqb_eq in E2. split; [lia|exact E2].
    - exfalso. pose proof (find_none _ _ E i ltac:(apply in_seq; lia)) as K. cbn beta in K. now rewrite Nat.eqb_refl in K. }
  assert (Hgf : forall i j, (i < n)%nat -> (j < n)%nat -> (g i =? g j)%nat = (f i =? f j)%nat).
  { intros i j Hi Hj. destruct (Nat.eqb_spec (f i) (f j)) as [E|E].
    - unfold g. rewrite E. apply Nat.eqb_refl.
    - apply Nat.eqb_neq. intros K. apply E. rewrite <- (proj2 (Hg i Hi)), <- (proj2 (Hg j Hj)). now rewrite K. }
  set (al := fun id => match id with VBin i k => Nat.testbit (g i) k | VEq i j k => Bool.eqb (Nat.testbit (g i) k) (Nat.testbit (g j) k) | VSame i j => (g i =? g j)%nat end).
  assert (Hb : forall i j, (i < n)%nat -> (j < n)%nat -> bits_same al i j = (f i =? f j)%nat).
  { intros i j Hi Hj. rewrite <- Hgf by assumption. unfold bits_same. cbn [al]. destruct (forallb _ _) eqn:E.
    - symmetry. apply Nat.eqb_eq. apply Nat.bits_inj. intros k. rewrite forallb_forall in E. destruct (Nat.ltb_spec k a) as [Hk|Hk]; [apply Bool.eqb_prop, E, in_seq; lia|].
      destruct (Hg i Hi) as [Hi1 _], (Hg j Hj) as [Hj1 _].
      assert (Hlow : forall x, (x < n)%nat -> Nat.testbit x k = false).
      { intros x Hx. destruct (Nat.eq_dec x 0) as [->|Hx0]; [apply Nat.bits_0|]. apply Nat.bits_above_log2. apply Nat.log2_lt_pow2; [lia|]. apply Nat.lt_le_trans with (2 ^ a)%nat; [lia|]. apply Nat.pow_le_mono_r; lia. }
      now rewrite !Hlow.
    - symmetry. apply Nat.eqb_neq. intros K. assert (forallb (fun k => Bool.eqb (Nat.testbit (g i) k) (Nat.testbit (g j) k)) (seq 0 a) = true); [|congruence]. apply forallb_forall. intros k _. rewrite K. apply Bool.eqb_reflx. }
  exists al. split; [apply hard_meant|apply costs_same].
  - intros i j Hij. destruct (Hf i j Hij) as [Hm Hc]. assert (Hq : forall k, (k < a)%nat -> al (VEq i j k) = Bool.eqb (al (VBin i k)) (al (VBin j k))) by reflexivity.
    destruct (sim i j); try exact Logic.I.
    + split; [exact Hq|]. rewrite (eqs_bits _ _ _ Hq), Hb by lia. cbn [al]. apply Hgf; lia.
    + split; [exact Hq|]. rewrite (eqs_bits _ _ _ Hq), Hb by lia. cbn [al]. apply Hgf; lia.
    + rewrite Hb by lia. apply Nat.eqb_eq. now apply Hm.
    + split; [exact Hq|]. rewrite (eqs_bits _ _ _ Hq), Hb by lia. apply Nat.eqb_neq. now apply Hc.
  - intros i j Hij _. cbn [al]. apply Hgf; lia.
Qed.

(** ** Variables *)
Context (W : varid -> N) (HW : forall x y l l', In x items -> In y items -> In l (fst x) -> In l' (fst y) -> W (fst l) = W (fst l') -> fst l = fst l').
Notation its := (map (inst W) items).
Lemma inst_clause b c : sat_clause b (map (inst_lit W) c) = sclause (fun id => b (W id)) c.
Proof. unfold sat_clause, sclause. induction c as [|l c IH]; [reflexivity|]. cbn [map existsb]. rewrite IH. reflexivity. Qed.
Lemma inst_hards b : sat_cnf b (hards its) = true <-> hard_ok (fun id => b (W id)).
Proof.
  unfold hard_ok, sat_cnf. rewrite forallb_forall. unfold hards. split.
  - intros H x Hx Hn. rewrite <- inst_clause. apply H. apply in_flat_map. exists (inst W x). split; [now apply in_map|]. unfold inst. cbn [snd fst]. rewrite Hn. now left.
  - intros H c Hc. apply in_flat_map in Hc as (e & He & Hc). apply in_map_iff in He as (x & <- & Hx). unfold inst in Hc. cbn [snd fst] in Hc. destruct (snd x) eqn:E; [easy|]. destruct Hc as [<-|[]]. rewrite inst_clause. now apply H.
Qed.
Lemma inst_cost b k xs : cls_cost b (msofts k (map (inst W) xs)) = soft_cost (fun id => b (W id)) k xs.
Proof.
  induction xs as [|[c x] xs IH]; [reflexivity|]. cbn [map]. change (msofts k (?y :: ?ys)) with (msofts k ([y] ++ ys)). rewrite msofts_app, cls_cost_app, IH. change (soft_cost ?z k ((c, x) :: xs)) with (soft_cost z k ([(c, x)] ++ xs)). rewrite soft_cost_app. f_equal.
  unfold msofts, inst, soft_cost. cbn [flat_map map fst snd app]. destruct x as [[k' w]|]; [|reflexivity]. destruct (k' =? k)%nat; [|reflexivity]. cbn [cls_cost app list_sum fold_right]. rewrite inst_clause. destruct (sclause _ c); lia.
Qed.
Lemma valuation (al : varid -> bool) : exists b : N -> bool, forall x l, In x items -> In l (fst x) -> b (W (fst l)) = al (fst l).
Proof.
  set (used := flat_map (fun x => map fst (fst x)) items). exists (fun v => existsb (fun id => ((W id =? v)%N && al id)%bool) used). intros x l Hx Hl.
  assert (Hu : In (fst l) used) by (apply in_flat_map; exists x; split; [exact Hx|now apply in_map]). destruct (existsb _ used) eqn:E.
  - apply existsb_exists in E as (id & Hid & E). apply andb_true_iff in E as [E1 E2]. apply N.eqb_eq in E1. apply in_flat_map in Hid as (y & Hy & Hid). apply in_map_iff in Hid as (l' & <- & Hl').
    now rewrite <- (HW y x l' l Hy Hx Hl' Hl E1).
  - destruct (al (fst l)) eqn:A; [|reflexivity]. assert (existsb (fun id => ((W id =? W (fst l))%N && al id)%bool) used = true); [|congruence]. apply existsb_exists. exists (fst l). split; [exact Hu|]. now rewrite N.eqb_refl, A.
Qed.
Lemma agree (al al' : varid -> bool) : (forall x l, In x items -> In l (fst x) -> al' (fst l) = al (fst l)) -> (hard_ok al -> hard_ok al') /\ forall k, soft_cost al' k items = soft_cost al k items.
Proof.
  intros H. assert (Hc : forall x, In x items -> sclause al' (fst x) = sclause al (fst x)).
  { intros x Hx. unfold sclause. assert (Hl : forall l, In l (fst x) -> slit_true al' l = slit_true al l) by (intros l Hl; unfold slit_true; f_equal; now apply (H x)). clear - Hl. induction (fst x) as [|l c IH]; [reflexivity|]. cbn [existsb]. rewrite Hl by now left. rewrite IH by (intros; apply Hl; now right). reflexivity. }
  split; [intros Ho x Hx Hn; rewrite Hc by assumption; now apply Ho|]. intros k. unfold soft_cost. apply list_sum_ext. intros x Hx. now rewrite Hc.
Qed.
Theorem clusterings : (n <= 2 ^ a)%nat ->
  (forall b, sat_cnf b (hards its) = true -> exists f, index_valid f /\ cls_cost b (msofts 0 its) = index_apart f /\ cls_cost b (msofts 1 its) = index_together f) /\
  (forall f, index_valid f -> exists b, sat_cnf b (hards its) = true /\ cls_cost b (msofts 0 its) = index_apart f /\ cls_cost b (msofts 1 its) = index_together f).
Proof.
  intros Ha. split.
  - intros b Hb. apply inst_hards in Hb. rewrite !inst_cost. exact (decode _ Hb).
  - intros f Hf. destruct (encode f Ha Hf) as (al & H1 & H2 & H3). destruct (valuation al) as [b Hb]. destruct (agree al (fun id => b (W id)) Hb) as [A1 A2]. exists b. rewrite inst_hards, !inst_cost, !A2. auto.
Qed.
End Sem.
