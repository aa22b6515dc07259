(** * Proofs about the at-most-one encodings used from Python *)

From Coq Require Import List Bool NArith Arith Lia ZifyBool ZifyNat ZifyN.
From Verif Require Import Spec BoundSpec Types Base Atomics Am1 Am1Spec Am1Proofs Am1Stats PyEncProofs PyAm1.
Import ListNotations.

Lemma pyam1_kind_ok k : am1_params_ok (pyam1_kind k).
Proof. destruct k; cbn; repeat split; lia. Qed.

Lemma set_obj_map {X Y} (f : X -> Y) i x l y : nth_error l i = Some y -> f x = f y -> map f (set_obj i x l) = map f l.
Proof. revert i. induction l as [|z l IH]; intros [|i] E H; cbn in *; try discriminate E; [injection E as ->; now rewrite H|f_equal; exact (IH i E H)]. Qed.

Record a_inv (w : aseen) (s : pyam1s) : Prop := mkAInv {
  ai_lits : as_lits w = map (fun ko => am_lits (snd ko)) (pa_objs s);
  ai_ok : forall ls l, In ls (as_lits w) -> In l ls -> (lvar l < pa_next s)%N /\ ~ in_aux (as_own w) (lvar l);
  ai_done : forall i, In i (as_done w) -> i < length (as_lits w);
  ai_own : forall v, in_aux (as_own w) v -> (v < pa_next s)%N;
  ai_F : cnf_below (pa_next s) (as_F w);
  ai_sound : forall a, sat_cnf a (as_F w) = true -> a_met a w;
  ai_complete : forall a, a_met a w -> exists a', (forall v, ~ in_aux (as_own w) v -> a' v = a v) /\ sat_cnf a' (as_F w) = true
}.

Lemma am1_stats_lits k o f n n' : am_lits (am1_stats k o f n n') = am_lits o.
Proof. unfold am1_stats. destruct k; try reflexivity; destruct (length (am_lits o) <=? 1); reflexivity. Qed.

Lemma a_hist_inv w s : a_hist w s -> a_inv w s.
Proof.
  intros H. induction H as [n|w s c s' f H IH V E].
  - constructor; cbn; try easy; [intros v (? & ? & [] & _)|]. intros a _. exists a. split; reflexivity.
  - destruct IH as [L O D W B So Co]. destruct c as [k ls|i|k]; cbn [pyam1_call] in E.
    + injection E as <- <-. cbn [a_see pa_next pa_objs]. rewrite app_nil_r.
      assert (M : forall a, a_met a (mkASeen (as_lits w ++ [ls]) (as_done w) (as_own w) (as_F w)) <-> a_met a w).
      { intros a. unfold a_met. cbn [as_done as_lits]. split; intros M i ks Hi Hk.
        - apply (M i ks Hi). rewrite nth_error_app1; [exact Hk|exact (D i Hi)].
        - apply (M i ks Hi). rewrite nth_error_app1 in Hk; [exact Hk|exact (D i Hi)]. }
      constructor; cbn [as_lits as_done as_own as_F pa_next pa_objs].
      * rewrite map_app, L. reflexivity.
      * intros ks l Hk Hl. apply in_app_or in Hk as [Hk|[<-|[]]]; [exact (O ks l Hk Hl)|exact (V l Hl)].
      * intros i Hi. rewrite app_length. specialize (D i Hi). lia.
      * exact W.
      * exact B.
      * intros a Ha. apply M. exact (So a Ha).
      * intros a Ha. apply M in Ha. exact (Co a Ha).
    + destruct (nth_error (pa_objs s) i) as [[k o]|] eqn:En; [|discriminate E]. unfold am1_obj_encode in E.
      destruct (am1_encode (pyam1_kind k) (am_lits o) (pa_next s)) as [g n'] eqn:Ee. injection E as <- <-. cbn [a_see pa_next].
      assert (Ei : nth_error (as_lits w) i = Some (am_lits o)) by (rewrite L, nth_error_map, En; reflexivity).
      assert (Il : In (am_lits o) (as_lits w)) by (eapply nth_error_In; exact Ei).
      destruct (am1_correct_all (pyam1_kind k) (pyam1_kind_ok k) (am_lits o) (pa_next s) g n') as (C1 & C2 & C3 & C4); [intros l Hl; apply (O _ l Il Hl)|exact Ee|].
      constructor; cbn [as_lits as_done as_own as_F pa_next pa_objs].
      * rewrite L. symmetry. apply (set_obj_map _ i _ _ (k, o) En). cbn [snd]. apply am1_stats_lits.
      * intros ks l Hk Hl. destruct (O ks l Hk Hl) as [O1 O2]. split; [lia|]. intros G. apply in_aux_cons in G as [G|G]; [lia|exact (O2 G)].
      * intros j [<-|Hj]; [apply nth_error_Some; congruence|exact (D j Hj)].
      * intros v G. apply in_aux_cons in G as [G|G]; [lia|]. specialize (W v G). lia.
      * apply cnf_below_app. split; [eapply cnf_below_weaken; [exact C1|exact B]|exact C2].
      * intros a Ha. rewrite sat_cnf_app in Ha. apply andb_true_iff in Ha as [Ha Hg]. intros j ks [<-|Hj] Hk; cbn [as_lits] in Hk.
        -- rewrite Ei in Hk. injection Hk as <-. exact (C3 a Hg).
        -- exact (So a Ha j ks Hj Hk).
      * intros a Ha. destruct (Co a) as (a1 & A1 & A2); [intros j ks Hj Hk; apply (Ha j ks); [right; exact Hj|exact Hk]|].
        destruct (C4 a1) as (a2 & A3 & A4).
        { rewrite (count_true_agree a1 a); [apply (Ha i _); [left; reflexivity|exact Ei]|]. intros l Hl. apply A1. apply (O _ l Il Hl). }
        exists a2. split.
        -- intros v Hv. rewrite in_aux_cons in Hv. rewrite A3 by lia. apply A1. tauto.
        -- rewrite sat_cnf_app, A4, (changes_only_sat _ _ a1 a2 _ A3 B), A2. reflexivity.
    + injection E as <- <-. cbn [a_see pa_next]. rewrite app_nil_r. constructor; cbn [as_lits as_done as_own as_F pa_next pa_objs]; try assumption.
      * intros ks l Hk Hl. destruct (O ks l Hk Hl). split; [lia|assumption].
      * intros v G. specialize (W v G). lia.
      * eapply cnf_below_weaken; [|exact B]. lia.
Qed.

Lemma pyam1_joint w s : a_hist w s ->
  (forall a, sat_cnf a (as_F w) = true -> a_met a w) /\
  (forall a, a_met a w -> exists a', (forall v, ~ in_aux (as_own w) v -> a' v = a v) /\ sat_cnf a' (as_F w) = true).
Proof. intros H. destruct (a_hist_inv w s H). split; assumption. Qed.

Lemma pyam1_encode_total w s : a_hist w s -> forall i, i < length (as_lits w) -> exists s' f, pyam1_call s (AEncode i) = Some (s', f).
Proof.
  intros H i Hi. rewrite (ai_lits _ _ (a_hist_inv w s H)), map_length in Hi. cbn [pyam1_call]. apply nth_error_Some in Hi.
  destruct (nth_error (pa_objs s) i) as [[k o]|]; [|congruence]. destruct (am1_obj_encode _ o _) as [[f n'] o']. eauto.
Qed.

Lemma pyam1_own_fresh w s : a_hist w s -> forall i s' f v, pyam1_call s (AEncode i) = Some (s', f) ->
  (pa_next s <= v < pa_next s')%N -> ~ in_aux (as_own w) v /\ forall ls l, In ls (as_lits w) -> In l ls -> lvar l <> v.
Proof.
  intros H i s' f v _ Hv. destruct (a_hist_inv w s H) as [L O D W B So Co]. split; [intros G; specialize (W v G); lia|].
  intros ls l H1 H2. destruct (O ls l H1 H2). lia.
Qed.
