(** * Proofs about the dynamic polynomial watchdog used from Python *)

From Coq Require Import List Bool NArith Arith Lia Permutation ZifyBool ZifyNat ZifyN.
From Verif Require Import Spec BoundSpec Types Base Constraints Maps NodeDb Totalizer Dpw DpwSpec DpwProofs SimProofs PySpec PyEnc PyEncProofs PyDpw.
Import ListNotations.

Section D.
Context (ord : wmap -> wmap) (Hord : iter_order ord).
Context (srt : list node -> list nodecon -> list nodecon) (Hsrt : forall ns l, Permutation (srt ns l) l).
Context (xs : list (lit * nat)).

Lemma pydpw_new_total : NoDup (map fst xs) -> inputs_ok xs -> exists t, pydpw_new ord xs = Some t.
Proof. intros D O. unfold pydpw_new, dpw_from_iter. rewrite (map_collect_nodup xs D). exact (dpw_from_total ord Hord xs O). Qed.

Lemma set_one t : dpw_from ord xs = Some t -> dpw_set_precision t 1 = inl t.
Proof.
  unfold dpw_from. destruct (foldM queue_lit (ord xs) (db_empty, [])) as [[d q]|]; cbn [obind]; [|discriminate]. intros E. injection E as <-. reflexivity.
Qed.

Definition dworld (w : world (lit * nat)) (n : N) (own : list (N * N)) (F : cnf) : Prop :=
  w_in w = xs /\ w_next w = n /\ w_all w = F /\ w_ub w = F /\ forall v, in_aux own v <-> in_aux (w_aux w) v.
Definition as_rngs (R : list (nat * nat)) : list rng := map (fun r => (Incl (fst r), Incl (snd r))) R.

Lemma d_hist_reach R n own F t : d_hist ord srt xs R n own F t -> inputs_ok xs /\ exists b w, dpw_pincr ord srt xs 1 b w t (as_rngs R) /\ dpw_hist ord srt xs 1 w t (as_rngs R) /\ dworld w n own F.
Proof.
  intros H. induction H as [n t D V E|R n own F t c t' cs n' H IH E].
  - split; [intros x Hx; apply (V x Hx)|]. unfold pydpw_new, dpw_from_iter in E. rewrite (map_collect_nodup xs D) in E. exists false, (mkWorld xs n [] [] [] []).
    split; [eapply pi_start; [intros x Hx; apply (V x Hx)|exact E|exact (set_one t E)]|]. split; [eapply dh_start; [intros x Hx; apply (V x Hx)|exact E|exact (set_one t E)]|].
    unfold dworld. cbn. repeat split; auto.
  - destruct IH as (O & b & w & P & Hh & W). split; [exact O|]. pose proof W as (Wi & Wn & Wa & Wu & Wx). destruct c as [k|lo hi]; cbn [pydpw_call d_range d_own app] in *.
    + injection E as <- <- <-. exists b, (mkWorld (w_in w) (w_next w + k)%N (w_aux w) (w_all w) (w_ub w) (w_lb w)). split; [apply pi_user; exact P|]. split.
      * exact (dh_step ord srt xs 1 w t (as_rngs R) (HUserVars k) _ _ Hh I eq_refl).
      * unfold dworld. cbn [w_in w_next w_aux w_all w_ub]. rewrite !app_nil_r. repeat split; try congruence; apply Wx.
    + assert (S : step (dpw_enc srt t) w t (HUbChange (Incl lo, Incl hi)) = Some (log_call w false false cs n', t')).
      { cbn [step dpw_enc en_ub_change]. rewrite Wn, E. reflexivity. }
      exists true, (log_call w false false cs n'). split; [exact (pi_change ord srt xs 1 b w t _ _ _ _ P S)|]. split; [exact (dh_step ord srt xs 1 w t (as_rngs R) (HUbChange (Incl lo, Incl hi)) _ _ Hh I S)|].
      unfold log_call, dworld. cbn [w_in w_next w_aux w_all w_ub]. repeat split; try congruence.
      * intros G. apply in_aux_cons in G. apply in_aux_cons. rewrite Wn, <- Wx. exact G.
      * intros G. apply in_aux_cons in G. apply in_aux_cons. rewrite Wn, <- Wx in G. exact G.
Qed.

Lemma dub_ok t b ls : pydpw_enforce_ub t b = PyOne ls <-> dpw_enforce_ub t b = Some (EOk ls).
Proof. unfold pydpw_enforce_ub, py_result. destruct (dpw_enforce_ub t b) as [[| |]|]; split; intros E; try discriminate E; injection E as <-; reflexivity. Qed.

Lemma scaled_one : scaled 1 xs = xs.
Proof. unfold scaled. rewrite <- (map_id xs) at 2. apply map_ext. intros [l w]. cbn [fst snd Nat.max]. now rewrite Nat.div_1_r. Qed.

Lemma pydpw_exact R n own F t : d_hist ord srt xs R n own F t -> forall b ls, pydpw_enforce_ub t b = PyOne ls ->
  (forall a, sat_cnf a F = true -> sat_cube a ls = true -> wsum a xs <= b) /\
  (forall a, wsum a xs <= b -> exists a', (forall v, ~ in_aux own v -> a' v = a v) /\ sat_cnf a' F = true /\ sat_cube a' ls = true).
Proof.
  intros H b ls E. destruct (d_hist_reach _ _ _ _ _ H) as (O & bb & w & P & _ & Wi & Wn & Wa & Wu & Wx). apply dub_ok in E.
  destruct (dpw_exact ord Hord srt Hsrt xs O 1 bb w t _ b ls P (or_introl (le_n 1)) E) as [X Y]. rewrite scaled_one in X, Y. split.
  - intros a SF SL. apply X; congruence.
  - intros a B. destruct (Y a B) as (a' & A1 & A2 & A3). exists a'. split; [intros v Hv; apply A1; rewrite <- Wx; exact Hv|]. split; [congruence|exact A3].
Qed.

Lemma pydpw_encoded R n own F t : d_hist ord srt xs R n own F t -> forall lo hi b, In (lo, hi) R -> lo <= b <= hi -> exists ls, pydpw_enforce_ub t b = PyOne ls.
Proof.
  intros H lo hi b HR B. destruct (d_hist_reach _ _ _ _ _ H) as (O & bb & w & _ & Hh & _).
  destruct (dpw_encoded_fixed ord Hord srt Hsrt xs O 1 w t (as_rngs R) (Incl lo, Incl hi) b Hh (or_introl (le_n 1))) as (ls & E & _);
    [apply in_map_iff; exists (lo, hi); split; [reflexivity|exact HR]|exact B|right; lia|]. exists ls. apply dub_ok. exact E.
Qed.

Lemma pydpw_errors R n own F t : d_hist ord srt xs R n own F t ->
  (forall c, pydpw_call srt t n c <> None) /\ forall b, pydpw_enforce_ub t b = PyRuntimeError \/ exists ls, pydpw_enforce_ub t b = PyOne ls.
Proof.
  intros H. destruct (d_hist_reach _ _ _ _ _ H) as (O & bb & w & P & _ & Wi & Wn & _).
  destruct (dpw_no_panic ord Hord srt Hsrt xs O 1 w t _ (pincr_phist ord srt xs 1 bb w t _ P) (or_introl (le_n 1))) as [X Y]. split.
  - intros [k|lo hi] E; cbn [pydpw_call] in E; [discriminate E|]. destruct (X (HUbChange (Incl lo, Incl hi)) I) as (w' & t' & S & _). cbn [step dpw_enc en_ub_change] in S. rewrite Wn, E in S. discriminate S.
  - intros b. destruct (Y b) as [Y1 Y2]. unfold pydpw_enforce_ub, py_result. destruct (dpw_enforce_ub t b) as [[ls| |]|]; try congruence; [right; exists ls; reflexivity|left; reflexivity].
Qed.

Lemma pydpw_local R n own F t : d_hist ord srt xs R n own F t ->
  forall c l, In c F -> In l c -> (exists x, In x xs /\ lvar (fst x) = lvar l) \/ in_aux own (lvar l).
Proof.
  intros H c l Hc Hl. destruct (d_hist_reach _ _ _ _ _ H) as (O & bb & w & P & _ & Wi & Wn & Wa & Wu & Wx). subst F.
  destruct (dpw_local ord Hord srt Hsrt xs O 1 w t _ c l (pincr_phist ord srt xs 1 bb w t _ P) Hc Hl) as [G|G]; [left; exact G|right; apply Wx; exact G].
Qed.
End D.
