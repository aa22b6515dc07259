(** * Proofs about callbacks and handles *)

From Coq Require Import List Bool Arith Lia.
From Verif Require Import Handles HandleSpec.
Import ListNotations.

Lemma set_nth_length {X} n (x : X) xs : length (set_nth n x xs) = length xs.
Proof. revert n. induction xs as [|y xs IH]; intros [|n]; cbn; auto. Qed.
Lemma set_nth_same {X} n (x : X) xs : n < length xs -> nth_error (set_nth n x xs) n = Some x.
Proof. revert n. induction xs as [|y xs IH]; intros [|n] H; cbn in *; try lia; auto. apply IH. lia. Qed.
Lemma set_nth_other {X} n (x : X) xs k : k <> n -> nth_error (set_nth n x xs) k = nth_error xs k.
Proof. revert n k. induction xs as [|y xs IH]; intros [|n] [|k] H; cbn; auto; try congruence. Qed.

(** the addresses a solver owns *)
Definition owned (v : hsolver) : list nat := match h_term v with Some a => [a] | None => [] end ++ match h_learn v with Some a => [a] | None => [] end.
(** what one solver of the memory stands for *)
Definition view_ok (heap : list (option nat)) (v : hsolver) (x : option (option nat * option nat)) : Prop :=
  match x with
  | None => h_alive v = false /\ owned v = []
  | Some (t, l) => h_alive v = true /\ h_bterm v = h_term v /\ hread (h_term v) heap = Some t /\
      (h_blearn v = h_learn v \/ h_blearn v = None) /\ hread (h_blearn v) heap = Some l /\
      (forall a, h_learn v = Some a -> a < length heap)
  end.
Record hinv (s : hstate) (u : uview) : Prop := mkHinv {
  hi_len : length (h_solvers s) = length (u_solvers u);
  hi_view : forall i v x, nth_error (h_solvers s) i = Some v -> nth_error (u_solvers u) i = Some x -> view_ok (h_heap s) v x;
  hi_bound : forall i v a, nth_error (h_solvers s) i = Some v -> In a (owned v) -> a < length (h_heap s);
  hi_own : forall i j v w a, nth_error (h_solvers s) i = Some v -> nth_error (h_solvers s) j = Some w -> In a (owned v) -> In a (owned w) -> i = j;
  hi_nodup : forall i v, nth_error (h_solvers s) i = Some v -> NoDup (owned v);
  hi_ints : h_ints s = u_ints u;
  hi_int_bound : forall k i, nth_error (h_ints s) k = Some i -> i < length (h_solvers s)
}.

Lemma hread_app p heap x t : hread p heap = Some t -> hread p (heap ++ [x]) = Some t.
Proof.
  unfold hread. destruct p as [a|]; [|auto]. destruct (nth_error heap a) as [y|] eqn:E; [|discriminate]. rewrite nth_error_app1; [now rewrite E|]. apply nth_error_Some. now rewrite E.
Qed.
Lemma hread_free p q heap t : hread p heap = Some t -> (forall a, p = Some a -> q = Some a -> False) -> hread p (hfree q heap) = Some t.
Proof.
  unfold hread, hfree. intros H Hd. destruct p as [a|]; [|auto]. destruct q as [b|]; [|auto]. rewrite set_nth_other; [auto|]. intros ->. now apply (Hd b).
Qed.
Lemma hfree_length q heap : length (hfree q heap) = length heap.
Proof. destruct q; cbn; [apply set_nth_length|reflexivity]. Qed.
Lemma hread_new heap cb : hread (Some (length heap)) (heap ++ [Some cb]) = Some (Some cb).
Proof. cbn. rewrite nth_error_app2 by lia. now rewrite Nat.sub_diag. Qed.

Lemma owned_term v a : h_term v = Some a -> In a (owned v).
Proof. unfold owned. intros ->. now left. Qed.
Lemma owned_learn v a : h_learn v = Some a -> In a (owned v).
Proof. unfold owned. intros ->. apply in_or_app. right. now left. Qed.
Lemma owned_inv v a : In a (owned v) -> h_term v = Some a \/ h_learn v = Some a.
Proof. unfold owned. intros H. apply in_app_or in H as [H|H]; [destruct (h_term v)|destruct (h_learn v)]; cbn in H; try contradiction; destruct H as [H|[]]; rewrite H; auto. Qed.
Lemma owned_disjoint v a : NoDup (owned v) -> h_term v = Some a -> h_learn v = Some a -> False.
Proof. unfold owned. intros H Ht Hl. rewrite Ht, Hl in H. cbn in H. apply NoDup_cons_iff in H as [H _]. apply H. now left. Qed.

(** replacing one solver: the new heap keeps all that the other solvers own *)
Lemma hinv_put s u i v x heap v' x' : hinv s u -> nth_error (h_solvers s) i = Some v -> nth_error (u_solvers u) i = Some x -> length (h_heap s) <= length heap ->
  (forall p t, (forall a, p = Some a -> a < length (h_heap s) /\ ~ In a (owned v)) -> hread p (h_heap s) = Some t -> hread p heap = Some t) ->
  view_ok heap v' x' -> (forall a, In a (owned v') -> a < length heap /\ (In a (owned v) \/ length (h_heap s) <= a)) -> NoDup (owned v') ->
  hinv (put s i heap v') (u_set u i x').
Proof.
  intros [I1 I2 I3 I4 I5 I6 I7] Hv Hx Hl Hk Hview Ho Hn. assert (Li : i < length (h_solvers s)) by (apply nth_error_Some; now rewrite Hv). assert (Lu : i < length (u_solvers u)) by (rewrite <- I1; exact Li).
  constructor; cbn [put u_set h_solvers u_solvers h_heap h_ints u_ints].
  - now rewrite !set_nth_length.
  - intros j w y Hw Hy. destruct (Nat.eq_dec j i) as [-> |Hne].
    + rewrite set_nth_same in Hw by assumption. rewrite set_nth_same in Hy by assumption. injection Hw as <-. injection Hy as <-. exact Hview.
    + rewrite set_nth_other in Hw by assumption. rewrite set_nth_other in Hy by assumption. pose proof (I2 j w y Hw Hy) as V.
      assert (Keep : forall p t, (forall a, p = Some a -> In a (owned w)) -> hread p (h_heap s) = Some t -> hread p heap = Some t).
      { intros p t Hp. apply Hk. intros a Ea. specialize (Hp a Ea). split; [exact (I3 j w a Hw Hp)|]. intros Hin. apply Hne. exact (I4 j i w v a Hw Hv Hp Hin). }
      destruct y as [[t l]|]; cbn [view_ok] in *; [|exact V]. destruct V as (V1 & V2 & V3 & V4 & V5 & V6). repeat (split; [solve [auto]|]). split; [apply Keep; [apply owned_term|exact V3]|].
      split; [exact V4|]. split; [|intros a Ea; specialize (V6 a Ea); lia]. destruct V4 as [V4|V4]; rewrite V4 in *; [apply Keep; [apply owned_learn|exact V5]|exact V5].
  - intros j w a Hw Ha. destruct (Nat.eq_dec j i) as [-> |Hne].
    + rewrite set_nth_same in Hw by assumption. injection Hw as <-. now apply Ho.
    + rewrite set_nth_other in Hw by assumption. specialize (I3 j w a Hw Ha). lia.
  - intros j k w w' a Hw Hw' Ha Ha'. destruct (Nat.eq_dec j i) as [-> |Hj]; destruct (Nat.eq_dec k i) as [-> |Hkk]; auto.
    + rewrite set_nth_same in Hw by assumption. rewrite set_nth_other in Hw' by assumption. injection Hw as <-. destruct (Ho a Ha) as (_ & [Hin|Hge]).
      * exact (I4 i k v w' a Hv Hw' Hin Ha').
      * specialize (I3 k w' a Hw' Ha'). lia.
    + rewrite set_nth_other in Hw by assumption. rewrite set_nth_same in Hw' by assumption. injection Hw' as <-. destruct (Ho a Ha') as (_ & [Hin|Hge]).
      * exact (I4 j i w v a Hw Hv Ha Hin).
      * specialize (I3 j w a Hw Ha). lia.
    + rewrite set_nth_other in Hw, Hw' by assumption. exact (I4 j k w w' a Hw Hw' Ha Ha').
  - intros j w Hw. destruct (Nat.eq_dec j i) as [-> |Hne]; [rewrite set_nth_same in Hw by assumption; injection Hw as <-; exact Hn|]. rewrite set_nth_other in Hw by assumption. exact (I5 j w Hw).
  - exact I6.
  - intros k j Hj. rewrite set_nth_length. exact (I7 k j Hj).
Qed.

Lemma u_with_inv {X} u i (f : option nat -> option nat -> X) r : u_with u i f = Some r -> exists t l, nth_error (u_solvers u) i = Some (Some (t, l)) /\ r = f t l.
Proof. unfold u_with. destruct (nth_error (u_solvers u) i) as [[[t l]|]|]; try discriminate. intros E. injection E as <-. eauto. Qed.
Lemma alive_inv s u i t l : hinv s u -> nth_error (u_solvers u) i = Some (Some (t, l)) -> exists v, nth_error (h_solvers s) i = Some v /\ view_ok (h_heap s) v (Some (t, l)) /\ (forall f, with_solver s i f = f v).
Proof.
  intros I Hu. destruct (nth_error (h_solvers s) i) as [v|] eqn:Ev.
  - exists v. split; [reflexivity|]. pose proof (hi_view _ _ I i v _ Ev Hu) as V. split; [exact V|]. intros f. unfold with_solver. rewrite Ev. destruct V as (-> & _). reflexivity.
  - exfalso. apply nth_error_None in Ev. rewrite (hi_len _ _ I) in Ev. apply nth_error_None in Ev. congruence.
Qed.

Theorem hstep_ok s u o r u' : hinv s u -> bad_detach u o = false -> u_step u o = Some (r, u') -> exists s', hstep s o = HOk r s' /\ hinv s' u'.
Proof.
  intros I Hb E. destruct o as [|i cb|i|i cb|i|i|i|k|i]; cbn [u_step] in E; cbn [hstep].
  - injection E as <- <-. eexists. split; [reflexivity|]. destruct I as [I1 I2 I3 I4 I5 I6 I7]. constructor; cbn [h_solvers u_solvers h_heap h_ints u_ints].
    + rewrite !app_length. cbn. lia.
    + intros j v x Hv Hx. destruct (Nat.lt_ge_cases j (length (h_solvers s))) as [L|L].
      * rewrite nth_error_app1 in Hv by exact L. rewrite nth_error_app1 in Hx by lia. exact (I2 j v x Hv Hx).
      * rewrite nth_error_app2 in Hv by lia. rewrite nth_error_app2 in Hx by lia. rewrite I1 in Hv. destruct (j - length (u_solvers u)) as [|[|?]]; try discriminate.
        injection Hv as <-. injection Hx as <-. cbn. repeat split; auto. discriminate.
    + intros j v a Hv Ha. destruct (Nat.lt_ge_cases j (length (h_solvers s))) as [L|L]; [rewrite nth_error_app1 in Hv by exact L; exact (I3 j v a Hv Ha)|].
      rewrite nth_error_app2 in Hv by lia. destruct (j - length (h_solvers s)) as [|[|?]]; try discriminate. injection Hv as <-. destruct Ha.
    + intros j k v w a Hv Hw Ha Hb'. destruct (Nat.lt_ge_cases j (length (h_solvers s))) as [L|L], (Nat.lt_ge_cases k (length (h_solvers s))) as [L'|L'].
      * rewrite nth_error_app1 in Hv, Hw by assumption. exact (I4 j k v w a Hv Hw Ha Hb').
      * rewrite nth_error_app2 in Hw by lia. destruct (k - length (h_solvers s)) as [|[|?]]; try discriminate. injection Hw as <-. destruct Hb'.
      * rewrite nth_error_app2 in Hv by lia. destruct (j - length (h_solvers s)) as [|[|?]]; try discriminate. injection Hv as <-. destruct Ha.
      * rewrite nth_error_app2 in Hv by lia. destruct (j - length (h_solvers s)) as [|[|?]]; try discriminate. injection Hv as <-. destruct Ha.
    + intros j v Hv. destruct (Nat.lt_ge_cases j (length (h_solvers s))) as [L|L]; [rewrite nth_error_app1 in Hv by exact L; exact (I5 j v Hv)|].
      rewrite nth_error_app2 in Hv by lia. destruct (j - length (h_solvers s)) as [|[|?]]; try discriminate. injection Hv as <-. constructor.
    + exact I6.
    + intros k j Hj. rewrite app_length. specialize (I7 k j Hj). cbn. lia.
  - apply u_with_inv in E as (t & l & Hu & E). injection E as -> ->. destruct (alive_inv s u i t l I Hu) as (v & Hv & (V1 & V2 & V3 & V4 & V5 & V6) & ->). eexists. split; [reflexivity|].
    pose proof (hi_bound _ _ I i v) as B. pose proof (hi_nodup _ _ I i v Hv) as N.
    apply (hinv_put s u i v (Some (t, l)) _ _ _ I Hv Hu).
    + rewrite hfree_length, app_length. lia.
    + intros p t' Hp Hr. apply hread_free; [now apply hread_app|]. intros a -> Ha. destruct (Hp a eq_refl) as (_ & Hn). apply Hn, owned_term, Ha.
    + cbn [view_ok h_alive h_bterm h_term h_blearn h_learn]. repeat (split; [solve [auto]|]). split; [apply hread_free; [apply hread_new|intros a Ea Ha; injection Ea as <-; specialize (B (length (h_heap s)) Hv (owned_term _ _ Ha)); lia]|].
      split; [exact V4|]. split; [|intros a Ea; rewrite hfree_length, app_length; specialize (V6 a Ea); lia]. apply hread_free; [now apply hread_app|].
      intros a Ea Ha. destruct V4 as [V4|V4]; rewrite V4 in Ea; [exact (owned_disjoint v a N Ha Ea)|discriminate].
    + intros a Ha. rewrite hfree_length, app_length. apply owned_inv in Ha. cbn [h_term h_learn] in Ha. destruct Ha as [Ha|Ha]; [injection Ha as <-; split; [cbn; lia|now right]|].
      pose proof (owned_learn v a Ha) as Ho. specialize (B a Hv Ho). split; [lia|now left].
    + unfold owned. cbn [h_term h_learn]. destruct (h_learn v) as [a|] eqn:El; cbn [app]; [|repeat constructor; intros []]. specialize (B a Hv (owned_learn v a El)).
      apply NoDup_cons; [|repeat constructor; intros []]. intros [Ha|[]]. lia.
  - apply u_with_inv in E as (t & l & Hu & E). injection E as -> ->. destruct (alive_inv s u i t l I Hu) as (v & Hv & (V1 & V2 & V3 & V4 & V5 & V6) & ->). eexists. split; [reflexivity|].
    pose proof (hi_bound _ _ I i v) as B. pose proof (hi_nodup _ _ I i v Hv) as N.
    apply (hinv_put s u i v (Some (t, l)) _ _ _ I Hv Hu).
    + now rewrite hfree_length.
    + intros p t' Hp Hr. apply hread_free; [exact Hr|]. intros a -> Ha. destruct (Hp a eq_refl) as (_ & Hn). apply Hn, owned_term, Ha.
    + cbn [view_ok h_alive h_bterm h_term h_blearn h_learn]. repeat (split; [reflexivity|]). split; [exact V4|]. split; [|intros a Ea; rewrite hfree_length; exact (V6 a Ea)]. apply hread_free; [exact V5|].
      intros a Ea Ha. destruct V4 as [V4|V4]; rewrite V4 in Ea; [exact (owned_disjoint v a N Ha Ea)|discriminate].
    + intros a Ha. rewrite hfree_length. apply owned_inv in Ha. cbn [h_term h_learn] in Ha. destruct Ha as [Ha|Ha]; [discriminate|]. pose proof (owned_learn v a Ha) as Ho. split; [exact (B a Hv Ho)|now left].
    + unfold owned. cbn [h_term h_learn]. destruct (h_learn v); cbn; repeat constructor; intros [].
  - apply u_with_inv in E as (t & l & Hu & E). injection E as -> ->. destruct (alive_inv s u i t l I Hu) as (v & Hv & (V1 & V2 & V3 & V4 & V5 & V6) & ->). eexists. split; [reflexivity|].
    pose proof (hi_bound _ _ I i v) as B. pose proof (hi_nodup _ _ I i v Hv) as N.
    apply (hinv_put s u i v (Some (t, l)) _ _ _ I Hv Hu).
    + rewrite hfree_length, app_length. lia.
    + intros p t' Hp Hr. apply hread_free; [now apply hread_app|]. intros a -> Ha. destruct (Hp a eq_refl) as (_ & Hn). apply Hn, owned_learn, Ha.
    + cbn [view_ok h_alive h_bterm h_term h_blearn h_learn]. repeat (split; [solve [auto]|]). split; [apply hread_free; [now apply hread_app|intros a Ea Ha; exact (owned_disjoint v a N Ea Ha)]|].
      split; [now left|]. split; [|intros a Ea; injection Ea as <-; rewrite hfree_length, app_length; cbn; lia]. apply hread_free; [apply hread_new|]. intros a Ea Ha. injection Ea as <-. specialize (B (length (h_heap s)) Hv (owned_learn _ _ Ha)). lia.
    + intros a Ha. rewrite hfree_length, app_length. apply owned_inv in Ha. cbn [h_term h_learn] in Ha. destruct Ha as [Ha|Ha]; [|injection Ha as <-; split; [cbn; lia|now right]].
      pose proof (owned_term v a Ha) as Ho. specialize (B a Hv Ho). split; [lia|now left].
    + unfold owned. cbn [h_term h_learn]. destruct (h_term v) as [a|] eqn:El; cbn [app]; [|repeat constructor; intros []]. specialize (B a Hv (owned_term v a El)).
      apply NoDup_cons; [|repeat constructor; intros []]. intros [Ha|[]]. lia.
  - apply u_with_inv in E as (t & l & Hu & E). injection E as -> ->. cbn [bad_detach] in Hb. rewrite Hu in Hb. destruct t as [t|]; [discriminate Hb|].
    destruct (alive_inv s u i None l I Hu) as (v & Hv & (V1 & V2 & V3 & V4 & V5 & V6) & ->). eexists. split; [reflexivity|].
    assert (Ht : h_term v = None). { destruct (h_term v) as [a|]; [|reflexivity]. cbn in V3. destruct (nth_error (h_heap s) a) as [[|]|]; discriminate. }
    rewrite Ht. cbn [hfree]. apply (hinv_put s u i v (Some (None, l)) _ _ _ I Hv Hu).
    + lia.
    + auto.
    + cbn [view_ok h_alive h_bterm h_term h_blearn h_learn]. rewrite V2, Ht. repeat split; auto.
    + intros a Ha. apply owned_inv in Ha. cbn [h_term h_learn] in Ha. destruct Ha as [Ha|Ha]; [discriminate|]. pose proof (owned_learn v a Ha) as Ho. split; [exact (hi_bound _ _ I i v a Hv Ho)|now left].
    + unfold owned. cbn [h_term h_learn]. destruct (h_learn v); cbn; repeat constructor; intros [].
  - apply u_with_inv in E as (t & l & Hu & E). injection E as -> ->. destruct (alive_inv s u i t l I Hu) as (v & Hv & (V1 & V2 & V3 & V4 & V5 & V6) & ->). rewrite V2, V3, V5. eexists. split; [reflexivity|exact I].
  - apply u_with_inv in E as (t & l & Hu & E). injection E as -> ->. destruct (alive_inv s u i t l I Hu) as (v & Hv & _ & ->). eexists. split; [reflexivity|]. destruct I as [I1 I2 I3 I4 I5 I6 I7].
    constructor; cbn [h_solvers u_solvers h_heap h_ints u_ints]; auto; [now rewrite I6|]. intros k j Hj. destruct (Nat.lt_ge_cases k (length (h_ints s))) as [L|L]; [rewrite nth_error_app1 in Hj by exact L; eauto|].
    rewrite nth_error_app2 in Hj by exact L. destruct (k - length (h_ints s)) as [|[|?]]; try discriminate. injection Hj as <-. apply nth_error_Some. now rewrite Hv.
  - rewrite (hi_ints _ _ I). destruct (nth_error (u_ints u) k) as [i|]; [|discriminate E]. apply u_with_inv in E as (t & l & Hu & E). injection E as -> ->.
    destruct (alive_inv s u i t l I Hu) as (v & Hv & (V1 & _) & _). rewrite Hv, V1. eauto.
  - apply u_with_inv in E as (t & l & Hu & E). injection E as -> ->. destruct (alive_inv s u i t l I Hu) as (v & Hv & (V1 & V2 & V3 & V4 & V5 & V6) & ->). eexists. split; [reflexivity|].
    apply (hinv_put s u i v (Some (t, l)) _ _ _ I Hv Hu).
    + now rewrite !hfree_length.
    + intros p t' Hp Hr. apply hread_free; [apply hread_free; [exact Hr|]|]; intros a -> Ha; destruct (Hp a eq_refl) as (_ & Hn); apply Hn; [now apply owned_term|now apply owned_learn].
    + cbn. auto.
    + intros a [].
    + constructor.
Qed.

Lemma hinv_start : hinv h_start u_start.
Proof. constructor; cbn; auto; try (intros [|?]; discriminate); intros [|?] ?; discriminate. Qed.
Theorem hrun_ok os : forall s u rs, hinv s u -> no_bad_detach u os = true -> u_run u os = Some rs -> hrun s os = (Some rs, false).
Proof.
  induction os as [|o os IH]; intros s u rs I Hb E; cbn [u_run no_bad_detach hrun] in *; [injection E as <-; reflexivity|].
  apply andb_true_iff in Hb as [Hb1 Hb2]. destruct (u_step u o) as [[r u']|] eqn:Eu; [|discriminate E]. destruct (u_run u' os) as [rs'|] eqn:Er; [|discriminate E]. injection E as <-.
  destruct (hstep_ok s u o r u' I) as (s' & -> & I'); [now destruct (bad_detach u o)|exact Eu|]. now rewrite (IH s' u' rs' I' Hb2 Er).
Qed.
