(** * Building trees: insertion, merging, literal trees *)

From Coq Require Import List Bool NArith ZArith Lia Arith Sorted.
From Coq Require Import ZifyBool ZifyNat ZifyN.
From Verif Require Import Spec Types Atomics NodeDb TotDb Base TotDbInv TotDbUnit TotDbGeneral.
Import ListNotations.

(** ** Sorted value lists *)

Lemma ssorted_nth_lt (s : list nat) : StronglySorted lt s -> forall p q x y, (p < q)%nat ->
  nth_error s p = Some x -> nth_error s q = Some y -> (x < y)%nat.
Proof.
  induction 1 as [|z s Hs IH Hf]; intros p q x y Hpq Hp Hq.
  - destruct p; discriminate.
  - destruct q as [|q]; [lia|]. cbn in Hq. destruct p as [|p]; cbn in Hp.
    + injection Hp as ->. rewrite Forall_forall in Hf. apply Hf. eapply nth_error_In; eauto.
    + apply (IH p q); auto. lia.
Qed.

Lemma ssorted_incl_nth (s t : list nat) : StronglySorted lt s -> StronglySorted lt t -> incl t s ->
  forall p x y, nth_error s p = Some y -> nth_error t p = Some x -> (y <= x)%nat.
Proof.
  intros Hs. revert t. induction Hs as [|z s Hs IH Hf]; intros t Ht Hi p x y Hy Hx.
  - destruct p; discriminate.
  - rewrite Forall_forall in Hf. destruct t as [|u t]; [destruct p; discriminate|].
    inversion Ht as [|? ? Ht' Hft]; subst. rewrite Forall_forall in Hft.
    assert (z <= u)%nat as Hzu.
    { destruct (Hi u) as [->|H]; [now left|lia|]. apply Hf in H. lia. }
    destruct p as [|p]; cbn in Hx, Hy; [injection Hx as ->; injection Hy as ->; lia|].
    apply (IH t Ht') with (p := p); auto.
    intros v Hv. pose proof (Hft v Hv). destruct (Hi v) as [->|H']; [now right|lia|auto].
Qed.

Lemma strictly_sorted_true (s : list nat) : StronglySorted lt s -> strictly_sorted s = true.
Proof.
  unfold strictly_sorted. induction 1 as [|z s Hs IH Hf]; [reflexivity|].
  destruct s as [|y s]; [reflexivity|]. cbn [tl combine forallb]. apply andb_true_iff. split.
  - rewrite Forall_forall in Hf. specialize (Hf y ltac:(now left)). lia.
  - exact IH.
Qed.

Definition keys (l : list (nat * litdata)) : list nat := map fst l.
Definition below_at (l : list (nat * litdata)) (idx v : nat) : Prop :=
  forall p x, (p < idx)%nat -> nth_error (keys l) p = Some x -> (x < v)%nat.
Definition all_none (l : list (nat * litdata)) : Prop := forall p, In p l -> snd p = LNone.

Lemma ins_from_ok l idx v : StronglySorted lt (keys l) -> below_at l idx v -> all_none l ->
  let '(r, k) := ins_from l idx v in
  StronglySorted lt (keys r) /\ (forall x, In x (keys r) <-> x = v \/ In x (keys l)) /\
  (forall p x, (p < k)%nat -> nth_error (keys r) p = Some x -> (x <= v)%nat) /\ all_none r.
Proof.
  revert idx. induction l as [|[x d] l IH]; intros idx Hs Hb Hn; cbn [ins_from].
  - split; [repeat constructor|]. split; [cbn; intros; split; intros; intuition auto|]. split.
    + intros p y Hp Hy. destruct p; [|lia]. cbn in Hy. injection Hy as <-. lia.
    + intros p [<-|[]]. reflexivity.
  - cbn [keys map fst] in Hs. inversion Hs as [|? ? Hs' Hf]; subst. rewrite Forall_forall in Hf.
    assert (Hn' : all_none l) by (intros p Hp; apply Hn; now right).
    assert (Hrec : forall idx', below_at l idx' v -> (x < v)%nat ->
      let '(r, k) := (let '(r, k) := ins_from l idx' v in ((x, d) :: r, S k)) in
      StronglySorted lt (keys r) /\ (forall y, In y (keys r) <-> y = v \/ In y (keys ((x, d) :: l))) /\
      (forall p y, (p < k)%nat -> nth_error (keys r) p = Some y -> (y <= v)%nat) /\ all_none r).
    { intros idx' Hb' Hxv. specialize (IH idx' Hs' Hb' Hn'). destruct (ins_from l idx' v) as [r k].
      destruct IH as (I1 & I2 & I3 & I4). split; [|split; [|split]].
      - cbn [keys map fst]. constructor; [auto|]. apply Forall_forall. intros y Hy. apply I2 in Hy as [->|Hy]; [lia|auto].
      - intros y. cbn [keys map fst In]. rewrite (I2 y). cbn [keys]. tauto.
      - intros p y Hp Hy. destruct p; cbn in Hy; [injection Hy as <-; lia|]. apply (I3 p); [lia|auto].
      - intros p [<-|Hp]; [apply Hn; now left|auto]. }
    destruct idx as [|idx].
    + destruct (Nat.ltb_spec x v) as [Hxv|Hxv].
      * apply (Hrec 0%nat); [intros p y Hp; lia|auto].
      * destruct (Nat.ltb_spec v x) as [Hvx|Hvx].
        -- split; [|split; [|split]].
           ++ cbn [keys map fst]. constructor; [auto|]. apply Forall_forall. intros y [<-|Hy]; [lia|]. apply Hf in Hy. lia.
           ++ intros y. cbn [keys map fst In]. split; intros; intuition auto.
           ++ intros p y Hp Hy. destruct p; [|lia]. cbn in Hy. injection Hy as <-. lia.
           ++ intros p [<-|Hp]; [reflexivity|auto].
        -- assert (x = v) as -> by lia. split; [auto|]. split; [|split; [|auto]].
           ++ intros y. cbn [keys map fst In]. split; intros; intuition auto.
           ++ intros p y Hp Hy. destruct p; [|lia]. cbn in Hy. injection Hy as <-. lia.
    + apply Hrec.
      * intros p y Hp Hy. apply (Hb (S p)); [lia|exact Hy].
      * apply (Hb 0%nat); [lia|reflexivity].
Qed.

Lemma interleave_ok l rvals : StronglySorted lt (keys l) -> StronglySorted lt rvals -> all_none l ->
  StronglySorted lt (keys (interleave l rvals)) /\ (forall x, In x (keys (interleave l rvals)) <-> In x (keys l) \/ In x rvals) /\
  all_none (interleave l rvals).
Proof.
  unfold interleave.
  enough (forall rv l idx, StronglySorted lt (keys l) -> StronglySorted lt rv -> all_none l ->
     (forall r, In r rv -> below_at l idx r) ->
     let res := fst (fold_left (fun '(l, idx) r => ins_from l idx r) rv (l, idx)) in
     StronglySorted lt (keys res) /\ (forall x, In x (keys res) <-> In x (keys l) \/ In x rv) /\ all_none res) as X.
  { intros H1 H2 H3. apply X; auto. intros r _ p x Hp. lia. }
  induction rv as [|r rv IH]; intros l0 idx Hs Hr Hn Hb; cbn [fold_left fst].
  - split; [auto|]. split; [|auto]. intros x. cbn [In]. tauto.
  - inversion Hr as [|? ? Hr' Hf]; subst. rewrite Forall_forall in Hf.
    pose proof (ins_from_ok l0 idx r Hs (Hb r ltac:(now left)) Hn) as H.
    destruct (ins_from l0 idx r) as [l1 k]. destruct H as (H1 & H2 & H3 & H4).
    destruct (IH l1 k H1 Hr' H4) as (A & B & C).
    { intros r' Hr'in p x Hp Hx. specialize (H3 p x Hp Hx). specialize (Hf r' Hr'in). lia. }
    split; [exact A|]. split; [|exact C]. intros x. rewrite B, H2. cbn [In]. split; intros; intuition auto.
Qed.

Lemma add_sums_ok l lidx lv rvals lvals : StronglySorted lt (keys l) -> StronglySorted lt rvals -> StronglySorted lt lvals ->
  all_none l -> nth_error lvals lidx = Some lv -> (1 <= lv)%nat -> (forall r, In r rvals -> (1 <= r)%nat) ->
  incl lvals (keys l) -> incl rvals (keys l) ->
  let res := add_sums l lidx lv rvals in
  StronglySorted lt (keys res) /\ (forall x, In x (keys res) <-> In x (keys l) \/ exists r, In r rvals /\ x = (lv + r)%nat) /\ all_none res.
Proof.
  intros Hs Hr Hl Hn Hlv Hpos Hrpos Hil Hir. unfold add_sums.
  enough (forall rv base acc idx, StronglySorted lt (keys acc) -> all_none acc -> incl (keys l) (keys acc) ->
     (forall j x, nth_error rv j = Some x -> nth_error rvals (base + j) = Some x) ->
     StronglySorted lt rv ->
     (forall r, In r rv -> below_at acc idx (lv + r)) ->
     let res := fst (fold_left (fun '(acc, idx) '(ridx, r) => ins_from acc (Nat.max idx ridx) (lv + r)%nat)
                 (combine (seq base (length rv)) rv) (acc, idx)) in
     StronglySorted lt (keys res) /\ (forall x, In x (keys res) <-> In x (keys acc) \/ exists r, In r rv /\ x = (lv + r)%nat) /\ all_none res) as X.
  { apply X; auto; [apply incl_refl|]. intros r Hrin p x Hp Hx. assert (1 <= r)%nat by auto.
    (* position p < lidx : below lv *)
    destruct (nth_error (keys l) lidx) as [y|] eqn:Hy.
    - pose proof (ssorted_incl_nth _ _ Hs Hl Hil lidx _ _ Hy Hlv). pose proof (ssorted_nth_lt _ Hs p lidx _ _ Hp Hx Hy). lia.
    - exfalso. apply nth_error_None in Hy. assert (lidx < length lvals)%nat by (apply nth_error_Some; congruence).
      assert (length lvals <= length (keys l))%nat; [|lia]. apply NoDup_incl_length; auto.
      clear -Hl. induction Hl; constructor; auto. rewrite Forall_forall in H. intros Hin. apply H in Hin. lia. }
  induction rv as [|r rv IH]; intros base acc idx Ha Hna Hinc Hsub Hrv Hb; cbn [length seq combine fold_left fst].
  - split; [auto|]. split; [|auto]. intros x. split; [auto|intros [H|(r & [] & _)]; auto].
  - inversion Hrv as [|? ? Hrv' Hf]; subst. rewrite Forall_forall in Hf.
    assert (Hbel : below_at acc (Nat.max idx base) (lv + r)).
    { intros p x Hp Hx. destruct (Nat.lt_ge_cases p idx) as [H|H]; [apply (Hb r ltac:(now left) p x H Hx)|].
      assert (p < base)%nat by lia.
      pose proof (Hsub 0%nat r eq_refl) as Hrb. rewrite Nat.add_0_r in Hrb.
      assert (Hir' : incl rvals (keys acc)) by (eapply incl_tran; eauto).
      destruct (nth_error (keys acc) base) as [y|] eqn:Ey.
      - pose proof (ssorted_incl_nth _ _ Ha Hr Hir' base _ _ Ey Hrb). pose proof (ssorted_nth_lt _ Ha p base _ _ ltac:(lia) Hx Ey). lia.
      - exfalso. apply nth_error_None in Ey. assert (base < length rvals)%nat by (apply nth_error_Some; congruence).
        assert (length rvals <= length (keys acc))%nat; [|lia]. apply NoDup_incl_length; auto.
        clear -Hr. induction Hr; constructor; auto. rewrite Forall_forall in H. intros Hin. apply H in Hin. lia. }
    pose proof (ins_from_ok acc (Nat.max idx base) (lv + r) Ha Hbel Hna) as H.
    destruct (ins_from acc (Nat.max idx base) (lv + r)) as [acc' k]. destruct H as (H1 & H2 & H3 & H4).
    destruct (IH (S base) acc' k H1 H4) as (A & B & C).
    { intros x Hx. apply H2. right. apply Hinc. auto. }
    { intros j x Hj. replace (S base + j)%nat with (base + S j)%nat by lia. apply Hsub. exact Hj. }
    { auto. }
    { intros r' Hr'in p x Hp Hx. specialize (H3 p x Hp Hx). specialize (Hf r' Hr'in). lia. }
    split; [exact A|]. split; [|exact C]. intros x. rewrite B, H2. split.
    + intros [[->|H]|(r' & Hr' & ->)]; [right; exists r; split; [now left|auto]|auto|right; exists r'; split; [now right|auto]].
    + intros [H|(r' & [<-|Hr'] & ->)]; [auto|auto|right; eauto].
Qed.

Lemma last_ssorted (s : list nat) : StronglySorted lt s -> s <> [] -> In (last s 0%nat) s /\ forall x, In x s -> (x <= last s 0)%nat.
Proof.
  induction 1 as [|z s Hs IH Hf]; [congruence|]. intros _. rewrite Forall_forall in Hf.
  destruct s as [|y s]; [cbn; split; [auto|intros x [<-|[]]; lia]|].
  destruct IH as (A & B); [congruence|]. change (last (z :: y :: s) 0%nat) with (last (y :: s) 0%nat).
  split; [now right|]. intros x [<-|Hx]; [|auto]. apply Hf in A. lia.
Qed.

Lemma general_new_ok lvals rvals l r : StronglySorted lt lvals -> StronglySorted lt rvals ->
  (forall v, In v lvals -> 1 <= v)%nat -> (forall v, In v rvals -> 1 <= v)%nat -> lvals <> [] \/ rvals <> [] ->
  exists lits m, general_new lvals rvals l r = Some (NGeneral lits m l r) /\
    StronglySorted lt (map fst lits) /\ all_none lits /\ In m (map fst lits) /\ (forall x, In x (map fst lits) -> 1 <= x <= m)%nat /\
    (forall x, In x (map fst lits) <-> In x lvals \/ In x rvals \/ exists v w, In v lvals /\ In w rvals /\ x = (v + w)%nat).
Proof.
  intros Hl Hr Pl Pr Hne. unfold general_new.
  set (l0 := map (fun v => (v, LNone)) lvals).
  assert (K0 : keys l0 = lvals) by (unfold keys, l0; rewrite map_map; apply map_id).
  assert (N0 : all_none l0) by (intros p Hp; apply in_map_iff in Hp as (v & <- & _); reflexivity).
  destruct (interleave_ok l0 rvals ltac:(rewrite K0; auto) Hr N0) as (A1 & B1 & C1).
  set (l1 := interleave l0 rvals) in *. rewrite K0 in B1.
  assert (Hfold : forall lv base acc, StronglySorted lt (keys acc) -> all_none acc -> incl lvals (keys acc) -> incl rvals (keys acc) ->
    (forall j x, nth_error lv j = Some x -> nth_error lvals (base + j) = Some x) ->
    let res := fold_left (fun acc '(lidx, l) => add_sums acc lidx l rvals) (combine (seq base (length lv)) lv) acc in
    StronglySorted lt (keys res) /\ all_none res /\
    (forall x, In x (keys res) <-> In x (keys acc) \/ exists v w, In v lv /\ In w rvals /\ x = (v + w)%nat)).
  { induction lv as [|v lv IH]; intros base acc Ha Hn Hil Hir Hsub; cbn [length seq combine fold_left].
    - split; [auto|]. split; [auto|]. intros x. split; [auto|intros [H|(? & ? & [] & _)]; auto].
    - pose proof (Hsub 0%nat v eq_refl) as Hv. rewrite Nat.add_0_r in Hv.
      destruct (add_sums_ok acc base v rvals lvals Ha Hr Hl Hn Hv (Pl v (nth_error_In _ _ Hv)) Pr Hil Hir) as (A & B & C).
      destruct (IH (S base) (add_sums acc base v rvals) A C) as (A' & B' & C').
      { intros x Hx. apply B. left. auto. } { intros x Hx. apply B. left. auto. }
      { intros j x Hj. replace (S base + j)%nat with (base + S j)%nat by lia. apply Hsub. exact Hj. }
      split; [auto|]. split; [auto|]. intros x. rewrite C', B. split.
      + intros [[H|(w & Hw & ->)]|(v' & w & Hv' & Hw & ->)]; [auto|right; exists v, w; split; [now left|auto]|right; exists v', w; split; [now right|auto]].
      + intros [H|(v' & w & [<-|Hv'] & Hw & ->)]; [auto|left; right; eauto|right; exists v', w; auto]. }
  destruct (Hfold lvals 0%nat l1 A1 C1) as (A2 & C2 & B2).
  { intros x Hx. apply B1. auto. } { intros x Hx. apply B1. auto. } { auto. }
  set (l2 := fold_left _ _ l1) in *.
  assert (B3 : forall x, In x (keys l2) <-> In x lvals \/ In x rvals \/ exists v w, In v lvals /\ In w rvals /\ x = (v + w)%nat).
  { intros x. rewrite B2, B1. tauto. }
  assert (P2 : forall x, In x (keys l2) -> (1 <= x)%nat).
  { intros x Hx. apply B3 in Hx as [Hx|[Hx|(v & w & Hv & Hw & ->)]]; auto. apply Pl in Hv. lia. }
  assert (Hne2 : keys l2 <> []).
  { destruct Hne as [H|H].
    - destruct lvals as [|v lvals']; [congruence|]. intros E. specialize (proj2 (B3 v) ltac:(left; now left)) as X. rewrite E in X. destruct X.
    - destruct rvals as [|v rvals']; [congruence|]. intros E. specialize (proj2 (B3 v) ltac:(right; left; now left)) as X. rewrite E in X. destruct X. }
  destruct (last_ssorted _ A2 Hne2) as (L1 & L2).
  destruct l2 as [|[v0 d0] l2'] eqn:E2; [cbn in Hne2; congruence|]. rewrite <- E2 in *.
  assert (1 <= v0)%nat by (apply P2; rewrite E2; now left).
  replace (0 <? v0)%nat with true by lia. cbn [assertb obind].
  change (map fst l2) with (keys l2). rewrite (strictly_sorted_true _ A2). cbn [assertb obind].
  exists l2, (last (keys l2) 0%nat). split; [reflexivity|]. split; [exact A2|]. split; [auto|]. split; [exact L1|].
  split; [|exact B3]. intros x Hx. split; [apply P2; auto|apply L2; auto].
Qed.
