(** * Basic lemmas about the specification vocabulary *)

From Coq Require Import List Bool NArith ZArith Lia Permutation.
From Coq Require Import ZifyBool ZifyNat ZifyN.
From Verif Require Import Spec Types Constraints.
Import ListNotations.

Ltac Zify.zify_post_hook ::= Z.div_mod_to_equations.

Global Arguments N.mul : simpl never.
Global Arguments N.add : simpl never.
Global Arguments N.sub : simpl never.
Global Arguments N.div : simpl never.
Global Arguments N.modulo : simpl never.
Global Arguments N.leb : simpl never.
Global Arguments N.ltb : simpl never.
Global Arguments Z.mul : simpl never.
Global Arguments Z.add : simpl never.
Global Arguments Z.sub : simpl never.
Global Arguments Nat.sub : simpl never.
Global Arguments Nat.leb : simpl never.
Global Arguments Nat.ltb : simpl never.
Global Arguments Nat.div : simpl never.
Global Arguments Nat.modulo : simpl never.

Ltac inv H := inversion H; subst; clear H.

(** ** Literals *)

Lemma neg_neg l : neg (neg l) = l.
Proof. destruct l as [v s]; unfold neg; cbn; now rewrite negb_involutive. Qed.

Lemma lvar_neg l : lvar (neg l) = lvar l.
Proof. reflexivity. Qed.

Lemma neg_neq l : neg l <> l.
Proof. destruct l as [v []]; unfold neg; cbn; congruence. Qed.

Lemma neg_inj l1 l2 : neg l1 = neg l2 -> l1 = l2.
Proof. intros H. rewrite <- (neg_neg l1), H. apply neg_neg. Qed.

Lemma lit_eta l : mkLit (lvar l) (lneg l) = l.
Proof. now destruct l. Qed.

Lemma same_var l1 l2 : lvar l1 = lvar l2 -> l1 = l2 \/ l1 = neg l2.
Proof.
  destruct l1 as [v1 s1], l2 as [v2 s2]; cbn; intros ->.
  destruct s1, s2; unfold neg; cbn; auto.
Qed.

Lemma lit_eqb_eq l1 l2 : lit_eqb l1 l2 = true <-> l1 = l2.
Proof.
  destruct l1 as [v1 s1], l2 as [v2 s2]; unfold lit_eqb; cbn.
  rewrite andb_true_iff, N.eqb_eq, eqb_true_iff. split.
  - intros [-> ->]; reflexivity.
  - intros H; inversion H; auto.
Qed.

Lemma lit_eqb_refl l : lit_eqb l l = true.
Proof. now apply lit_eqb_eq. Qed.

Lemma lit_eqb_neq l1 l2 : lit_eqb l1 l2 = false <-> l1 <> l2.
Proof. rewrite <- lit_eqb_eq. destruct (lit_eqb l1 l2); split; congruence. Qed.

Lemma lit_eqb_spec l1 l2 : reflect (l1 = l2) (lit_eqb l1 l2).
Proof. apply iff_reflect. symmetry. apply lit_eqb_eq. Qed.

Lemma lit_eq_dec (l1 l2 : lit) : {l1 = l2} + {l1 <> l2}.
Proof. destruct (lit_eqb l1 l2) eqn:E; [left; now apply lit_eqb_eq | right; now apply lit_eqb_neq]. Qed.

Lemma pack_inj l1 l2 : pack l1 = pack l2 -> l1 = l2.
Proof.
  destruct l1 as [v1 s1], l2 as [v2 s2]; unfold pack; cbn.
  destruct s1, s2; intros H; (f_equal; lia) || (exfalso; lia).
Qed.

Lemma lit_true_neg a l : lit_true a (neg l) = negb (lit_true a l).
Proof. unfold lit_true, neg; cbn. now destruct (lneg l), (a (lvar l)). Qed.

Lemma lit_true_agree a a' l : a (lvar l) = a' (lvar l) -> lit_true a l = lit_true a' l.
Proof. unfold lit_true; now intros ->. Qed.

(** ** Sums over lists *)

Lemma sat_clause_app a c1 c2 : sat_clause a (c1 ++ c2) = sat_clause a c1 || sat_clause a c2.
Proof. apply existsb_app. Qed.

Lemma sat_cnf_app a f1 f2 : sat_cnf a (f1 ++ f2) = sat_cnf a f1 && sat_cnf a f2.
Proof. apply forallb_app. Qed.

Lemma sat_cube_app a c1 c2 : sat_cube a (c1 ++ c2) = sat_cube a c1 && sat_cube a c2.
Proof. apply forallb_app. Qed.

Lemma sat_cnf_cons a c f : sat_cnf a (c :: f) = sat_clause a c && sat_cnf a f.
Proof. reflexivity. Qed.

Lemma sat_clause_cons a l c : sat_clause a (l :: c) = lit_true a l || sat_clause a c.
Proof. reflexivity. Qed.

Lemma sat_cnf_true a f : sat_cnf a f = true <-> forall c, In c f -> sat_clause a c = true.
Proof. apply forallb_forall. Qed.

Lemma sat_clause_true a c : sat_clause a c = true <-> exists l, In l c /\ lit_true a l = true.
Proof. apply existsb_exists. Qed.

Lemma sat_cube_true a c : sat_cube a c = true <-> forall l, In l c -> lit_true a l = true.
Proof. apply forallb_forall. Qed.

Lemma sat_clause_false a c : sat_clause a c = false <-> forall l, In l c -> lit_true a l = false.
Proof.
  split.
  - intros H l Hl. destruct (lit_true a l) eqn:E; [|reflexivity].
    assert (sat_clause a c = true) by (apply sat_clause_true; eauto). congruence.
  - intros H. destruct (sat_clause a c) eqn:E; [|reflexivity].
    apply sat_clause_true in E. destruct E as (l & Hl & Ht). rewrite (H l Hl) in Ht. congruence.
Qed.

Lemma sat_clause_map_neg a c : sat_clause a (map neg c) = negb (sat_cube a c).
Proof.
  induction c as [|l c IH]; cbn; [reflexivity|].
  change (existsb (lit_true a) (map neg c)) with (sat_clause a (map neg c)).
  rewrite IH, lit_true_neg, negb_andb. reflexivity.
Qed.

Lemma count_true_app a l1 l2 : count_true a (l1 ++ l2) = (count_true a l1 + count_true a l2)%nat.
Proof. induction l1 as [|l l1 IH]; cbn; [reflexivity | rewrite IH; lia]. Qed.

Lemma count_true_le a ls : (count_true a ls <= length ls)%nat.
Proof. induction ls as [|l ls IH]; cbn; [lia | destruct (lit_true a l); lia]. Qed.

Lemma count_true_map_neg a ls : count_true a (map neg ls) = (length ls - count_true a ls)%nat.
Proof.
  induction ls as [|l ls IH]; cbn; [reflexivity|].
  rewrite IH, lit_true_neg. pose proof (count_true_le a ls).
  destruct (lit_true a l); cbn; lia.
Qed.

Lemma count_true_perm a l1 l2 : Permutation l1 l2 -> count_true a l1 = count_true a l2.
Proof. induction 1; cbn; lia. Qed.

Lemma count_true_agree a a' ls :
  (forall l, In l ls -> a (lvar l) = a' (lvar l)) -> count_true a ls = count_true a' ls.
Proof.
  induction ls as [|l ls IH]; cbn; intros H; [reflexivity|].
  rewrite (lit_true_agree a a' l) by auto. rewrite IH; auto.
Qed.

Lemma count_true_zero a ls : count_true a ls = 0%nat <-> forall l, In l ls -> lit_true a l = false.
Proof.
  induction ls as [|l ls IH]; cbn; [split; auto; contradiction|].
  destruct (lit_true a l) eqn:E; split; intros H.
  - lia.
  - rewrite (H l) in E by auto. congruence.
  - intros x [<-|Hx]; auto. apply IH; auto.
  - rewrite (proj2 IH); auto.
Qed.

Lemma count_true_full a ls : count_true a ls = length ls <-> forall l, In l ls -> lit_true a l = true.
Proof.
  induction ls as [|l ls IH]; cbn; [split; auto; contradiction|].
  pose proof (count_true_le a ls).
  destruct (lit_true a l) eqn:E; split; intros H'.
  - intros x [<-|Hx]; [assumption|]. apply IH; [lia|assumption].
  - rewrite (proj2 IH); auto.
  - lia.
  - rewrite (H' l) in E by auto. congruence.
Qed.

Lemma count_true_pos a ls : (0 < count_true a ls)%nat <-> sat_clause a ls = true.
Proof.
  induction ls as [|l ls IH]; cbn; [split; [lia|congruence]|].
  change (existsb (lit_true a) ls) with (sat_clause a ls).
  destruct (lit_true a l); cbn; [split; auto; lia|]. apply IH.
Qed.

Lemma wsum_app a l1 l2 : wsum a (l1 ++ l2) = (wsum a l1 + wsum a l2)%nat.
Proof. induction l1 as [|[l w] l1 IH]; cbn; [reflexivity | rewrite IH; lia]. Qed.

Lemma wsum_perm a l1 l2 : Permutation l1 l2 -> wsum a l1 = wsum a l2.
Proof. induction 1 as [|[l w]|[l w] [l' w']|]; cbn; lia. Qed.

Lemma wsum_agree a a' ls :
  (forall l w, In (l, w) ls -> a (lvar l) = a' (lvar l)) -> wsum a ls = wsum a' ls.
Proof.
  induction ls as [|[l w] ls IH]; cbn; intros H; [reflexivity|].
  rewrite (lit_true_agree a a' l) by eauto. rewrite IH; eauto.
Qed.

(** Sum of weights, as a recursive function. *)
Fixpoint total_weight (ls : list (lit * nat)) : nat :=
  match ls with [] => 0 | (_, w) :: ls' => w + total_weight ls' end%nat.

Lemma sum_weights_acc ls n : fold_left (fun s lw => s + snd lw)%nat ls n = (n + total_weight ls)%nat.
Proof. revert n; induction ls as [|[l w] ls IH]; intros n; cbn; [lia | rewrite IH; lia]. Qed.

Lemma sum_weights_total ls : sum_weights ls = total_weight ls.
Proof. unfold sum_weights. rewrite sum_weights_acc. lia. Qed.

Lemma total_weight_app l1 l2 : total_weight (l1 ++ l2) = (total_weight l1 + total_weight l2)%nat.
Proof. induction l1 as [|[l w] l1 IH]; cbn; [reflexivity | rewrite IH; lia]. Qed.

Lemma total_weight_perm l1 l2 : Permutation l1 l2 -> total_weight l1 = total_weight l2.
Proof. induction 1 as [|[l w]|[l w] [l' w']|]; cbn; lia. Qed.

Lemma wsum_le a ls : (wsum a ls <= total_weight ls)%nat.
Proof. induction ls as [|[l w] ls IH]; cbn; [lia | destruct (lit_true a l); lia]. Qed.

Lemma wsum_map_neg a ls :
  wsum a (map (fun lw => (neg (fst lw), snd lw)) ls) = (total_weight ls - wsum a ls)%nat.
Proof.
  induction ls as [|[l w] ls IH]; cbn; [reflexivity|].
  rewrite IH, lit_true_neg. pose proof (wsum_le a ls).
  destruct (lit_true a l); cbn; lia.
Qed.

Lemma wsum_unit a ls : wsum a (map (fun l => (l, 1%nat)) ls) = count_true a ls.
Proof. induction ls as [|l ls IH]; cbn; [reflexivity|]. now rewrite IH. Qed.

(** ** Agreement *)

Lemma changes_only_refl lo hi a : changes_only lo hi a a.
Proof. intros v _; reflexivity. Qed.

Lemma changes_only_weaken lo hi lo' hi' a a' :
  (lo' <= lo)%N -> (hi <= hi')%N -> changes_only lo hi a a' -> changes_only lo' hi' a a'.
Proof. intros H1 H2 H v Hv. apply H. lia. Qed.

Lemma changes_only_trans lo hi a a' a'' :
  changes_only lo hi a a' -> changes_only lo hi a' a'' -> changes_only lo hi a a''.
Proof. intros H1 H2 v Hv. rewrite H2, H1; auto. Qed.

Lemma sat_clause_agree a a' c :
  (forall l, In l c -> a (lvar l) = a' (lvar l)) -> sat_clause a c = sat_clause a' c.
Proof.
  induction c as [|l c IH]; intros H; [reflexivity|]. rewrite !sat_clause_cons.
  rewrite (lit_true_agree a a' l) by (apply H; now left). rewrite IH; [reflexivity|].
  intros; apply H; now right.
Qed.

Lemma sat_cnf_agree a a' f :
  (forall c l, In c f -> In l c -> a (lvar l) = a' (lvar l)) -> sat_cnf a f = sat_cnf a' f.
Proof.
  induction f as [|c f IH]; intros H; [reflexivity|]. rewrite !sat_cnf_cons.
  rewrite (sat_clause_agree a a' c) by (intros; eapply H; [now left|assumption]).
  rewrite IH; [reflexivity|]. intros; eapply H; [right|]; eassumption.
Qed.

Lemma sat_cube_agree a a' c :
  (forall l, In l c -> a (lvar l) = a' (lvar l)) -> sat_cube a c = sat_cube a' c.
Proof.
  induction c as [|l c IH]; intros H; [reflexivity|]. cbn.
  rewrite (lit_true_agree a a' l) by (apply H; now left).
  change (forallb (lit_true a) c) with (sat_cube a c). rewrite IH; [reflexivity|].
  intros; apply H; now right.
Qed.

Lemma lits_below_agree n hi a a' ls :
  lits_below n ls -> changes_only n hi a a' -> forall l, In l ls -> a (lvar l) = a' (lvar l).
Proof. intros H1 H2 l Hl. symmetry. apply H2. left. now apply H1. Qed.

Lemma lits_below_weaken n m ls : (n <= m)%N -> lits_below n ls -> lits_below m ls.
Proof. intros H1 H2 l Hl. specialize (H2 l Hl). lia. Qed.

Lemma lits_below_app n l1 l2 : lits_below n (l1 ++ l2) <-> lits_below n l1 /\ lits_below n l2.
Proof.
  unfold lits_below; split.
  - intros H; split; intros l Hl; apply H; apply in_or_app; auto.
  - intros [H1 H2] l Hl. apply in_app_or in Hl as [Hl|Hl]; auto.
Qed.

Lemma lits_below_cons n l ls : lits_below n (l :: ls) <-> (lvar l < n)%N /\ lits_below n ls.
Proof.
  unfold lits_below; split.
  - intros H; split; [apply H; now left | intros; apply H; now right].
  - intros [H1 H2] x [<-|Hx]; auto.
Qed.

Lemma cnf_below_app n f1 f2 : cnf_below n (f1 ++ f2) <-> cnf_below n f1 /\ cnf_below n f2.
Proof.
  unfold cnf_below; split.
  - intros H; split; intros c Hc; apply H; apply in_or_app; auto.
  - intros [H1 H2] c Hc. apply in_app_or in Hc as [Hc|Hc]; auto.
Qed.

Lemma cnf_below_weaken n m f : (n <= m)%N -> cnf_below n f -> cnf_below m f.
Proof. intros H1 H2 c Hc. eapply lits_below_weaken; eauto. Qed.

Lemma cnf_below_cons n c f : cnf_below n (c :: f) <-> lits_below n c /\ cnf_below n f.
Proof.
  unfold cnf_below; split.
  - intros H; split; [apply H; now left | intros; apply H; now right].
  - intros [H1 H2] x [<-|Hx]; auto.
Qed.

Lemma lits_below_nil n : lits_below n [].
Proof. intros l []. Qed.
Lemma cnf_below_nil n : cnf_below n [].
Proof. intros l []. Qed.

(** ** Sorting *)

Lemma insert_by_perm {A} (leb : A -> A -> bool) x l : Permutation (insert_by leb x l) (x :: l).
Proof.
  induction l as [|y l IH]; cbn; [reflexivity|]. destruct (leb x y); [reflexivity|].
  rewrite IH. apply perm_swap.
Qed.

Lemma sort_by_perm {A} (leb : A -> A -> bool) l : Permutation (sort_by leb l) l.
Proof. induction l as [|x l IH]; cbn; [reflexivity|]. rewrite insert_by_perm, IH. reflexivity. Qed.

Inductive sorted_by {A} (le : A -> A -> Prop) : list A -> Prop :=
| sorted_nil : sorted_by le []
| sorted_cons x l : (forall y, In y l -> le x y) -> sorted_by le l -> sorted_by le (x :: l).

Lemma insert_by_sorted {A} (leb : A -> A -> bool) x l :
  (forall x y, leb x y = true \/ leb y x = true) ->
  (forall x y z, leb x y = true -> leb y z = true -> leb x z = true) ->
  sorted_by (fun x y => leb x y = true) l -> sorted_by (fun x y => leb x y = true) (insert_by leb x l).
Proof.
  intros Htot Htr. induction 1 as [|y l Hy Hs IH]; cbn.
  - constructor; [intros ? []|constructor].
  - destruct (leb x y) eqn:E.
    + constructor; [|now constructor]. intros z [<-|Hz]; auto. eapply Htr; eauto.
    + constructor; [|assumption]. intros z Hz.
      apply (Permutation_in _ (insert_by_perm leb x l)) in Hz. destruct Hz as [<-|Hz]; auto.
      destruct (Htot y x); congruence.
Qed.

Lemma sort_by_sorted {A} (leb : A -> A -> bool) l :
  (forall x y, leb x y = true \/ leb y x = true) ->
  (forall x y z, leb x y = true -> leb y z = true -> leb x z = true) ->
  sorted_by (fun x y => leb x y = true) (sort_by leb l).
Proof. intros H1 H2. induction l; cbn; [constructor|]. now apply insert_by_sorted. Qed.

Lemma lit_leb_total x y : lit_leb x y = true \/ lit_leb y x = true.
Proof. unfold lit_leb. lia. Qed.
Lemma lit_leb_trans x y z : lit_leb x y = true -> lit_leb y z = true -> lit_leb x z = true.
Proof. unfold lit_leb. lia. Qed.
Lemma lit_leb_antisym x y : lit_leb x y = true -> lit_leb y x = true -> x = y.
Proof. unfold lit_leb. intros; apply pack_inj; lia. Qed.

Lemma mem_lit_In l s : mem_lit l s = true <-> In l s.
Proof.
  unfold mem_lit. rewrite existsb_exists. split.
  - intros (x & Hx & E). apply lit_eqb_eq in E. now subst.
  - intros H. exists l. split; auto. apply lit_eqb_refl.
Qed.

Lemma mem_lit_nIn l s : mem_lit l s = false <-> ~ In l s.
Proof. rewrite <- mem_lit_In. destruct (mem_lit l s); split; congruence. Qed.
