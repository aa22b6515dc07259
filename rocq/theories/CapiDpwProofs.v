(** * Proofs about the dynamic polynomial watchdog used from C *)

From Coq Require Import List Bool NArith ZArith Arith Lia Permutation ZifyBool ZifyNat ZifyN.
From Verif Require Import Spec BoundSpec Types Base Constraints ConstrEncProofs Maps NodeDb Totalizer Dpw DpwSpec DpwProofs DpwSingle CapiSpec Capi CapiProofs CapiInst PyEncProofs CapiDpw.
Import ListNotations.

Lemma int_lit_inj x y : int_lit x = int_lit y -> x <> 0%Z -> y <> 0%Z -> x = y.
Proof. unfold int_lit. intros E Hx Hy. injection E as E1 E2. lia. Qed.

Lemma nodup_front {A} (l r : list A) : NoDup (l ++ r) -> NoDup l.
Proof.
  induction l as [|x l IH]; intros H; [constructor|]. cbn [app] in H. inversion H as [|? ? Hn H']; subst. constructor; [intros Hi; apply Hn, in_or_app; now left|exact (IH H')].
Qed.

Section D.
Context (srt : list node -> list nodecon -> list nodecon) (Hsrt : forall ns l, Permutation (srt ns l) l).
Context (ins : list (Z * nat)).
Let ord : wmap -> wmap := fun m => m.
Let Hord : iter_order ord. Proof. intros m. apply Permutation_refl. Qed.
Definition lits_of (ins : list (Z * nat)) : list (lit * nat) := map (fun x => (int_lit (fst x), snd x)) ins.
Let m := lits_of ins.

Definition good_ins (ins : list (Z * nat)) : Prop := forall x w, In (x, w) ins -> c_int x /\ x <> 0%Z /\ 1 <= w.

Lemma lits_nodup is : NoDup (map fst is) -> good_ins is -> NoDup (map fst (lits_of is)).
Proof.
  induction is as [|[x w] is IH]; intros D G; cbn [lits_of map fst]; [constructor|]. inversion D as [|? ? Hn D']; subst. constructor.
  - intros Hi. apply in_map_iff in Hi as ([l v] & E & Hi). apply in_map_iff in Hi as ([y u] & E' & Hi). cbn [fst snd] in *. injection E' as <- <-. subst. apply Hn.
    destruct (G x w (or_introl eq_refl)) as (_ & Gx & _). destruct (G y u (or_intror Hi)) as (_ & Gy & _). rewrite <- (int_lit_inj _ _ E Gy Gx). apply in_map_iff. exists (y, u). split; [reflexivity|exact Hi].
  - apply IH; [exact D'|]. intros y u Hi. exact (G y u (or_intror Hi)).
Qed.

Lemma adds_from is : forall m0 d q s, good_ins is -> NoDup (map fst (m0 ++ lits_of is)) -> exists d' q',
  foldM queue_lit (lits_of is) (d, q) = Some (d', q') /\
  cdpw_adds (mkDpw m0 None q 0 s 0%N 0 d) is = (mkDpw (m0 ++ lits_of is) None q' 0 (fold_left (fun s lw => s + snd lw) (lits_of is) s) 0%N 0 d', map (fun _ => Fine) is).
Proof.
  induction is as [|[x w] is IH]; intros m0 d q s G D; cbn [lits_of map fst snd].
  - exists d, q. rewrite app_nil_r. split; reflexivity.
  - destruct (G x w (or_introl eq_refl)) as (Gc & Gx & Gw). cbn [foldM queue_lit fst snd cdpw_adds]. unfold cdpw_add. rewrite (from_int x Gc). destruct (Z.eqb_spec x 0); [contradiction|].
    unfold dpw_add_input. cbn [dp_struct dp_db dp_in dp_queue dp_prec dp_sum dp_vars dp_cls]. destruct (db_insert d (NLeaf (int_lit x))) as [d1 id].
    unfold con_weighted. destruct (Nat.eqb_spec w 0); [lia|]. cbn [obind nc_mult]. unfold con_reweight. cbn [nc_id nc_offset nc_div nc_limit].
    assert (Em : map_add m0 (int_lit x) w = m0 ++ [(int_lit x, w)]).
    { change (map_add m0 (int_lit x) w) with (map_adds m0 [(int_lit x, w)]). apply map_adds_nodup. rewrite map_app in *. cbn [map fst] in *. change (map fst (lits_of ((x, w) :: is))) with (int_lit x :: map fst (lits_of is)) in D.
      change (int_lit x :: map fst (lits_of is)) with ([int_lit x] ++ map fst (lits_of is)) in D. rewrite app_assoc in D.
      exact (nodup_front _ _ D). }
    rewrite Em. destruct (IH (m0 ++ [(int_lit x, w)]) d1 (q_push q w (con_full id)) (s + w)) as (d' & q' & E1 & E2).
    + intros y u Hi. exact (G y u (or_intror Hi)).
    + rewrite <- app_assoc. exact D.
    + exists d', q'. split; [exact E1|]. rewrite E2. rewrite <- app_assoc. reflexivity.
Qed.

(** adding inputs one by one is making the encoding from all of them, at precision 0 *)
Lemma new_from : NoDup (map fst ins) -> good_ins ins -> exists t0, dpw_from ord m = Some t0 /\ dpw_set_precision t0 0 = inl (fst (cdpw_adds cdpw_new ins)) /\ snd (cdpw_adds cdpw_new ins) = map (fun _ => Fine) ins.
Proof.
  intros D G. destruct (adds_from ins [] db_empty [] 0 G (lits_nodup ins D G)) as (d' & q' & E1 & E2). unfold cdpw_new. rewrite E2. 
  eexists. split; [unfold dpw_from; refine (eq_trans (f_equal (fun r => obind r _) (E1 : foldM queue_lit (ord m) (db_empty, []) = _)) _); reflexivity|]. split; reflexivity.
Qed.

Definition as_rngs (R : list (nat * nat)) : list rng := map (fun r => (Incl (fst r), Incl (snd r))) R.
Record cworld (w : world (lit * nat)) (n : N) (ints : list Z) (own : list (N * N)) : Prop := {
  cw_next : w_next w = n; cw_ints : cnf_ints (w_all w) = Some ints; cw_ub : w_ub w = w_all w; cw_own : w_aux w = own; cw_below : forall v, in_aux own v -> (v < n)%N;
  cw_in : forall x, In x m -> (lvar (fst x) < n)%N }.

Lemma dc_reach R n ints own t : dc_hist srt ins R n ints own t -> good_ins ins /\ exists b w,
  dpw_pincr ord srt m 0 b w t (as_rngs R) /\ dpw_hist ord srt m 0 w t (as_rngs R) /\ cworld w n ints own.
Proof.
  intros H. induction H as [n t D V E|R n ints own t k H IH|R n ints own t lo hi t' n' r H IH E].
  - assert (G : good_ins ins) by (intros x w Hi; destruct (V x w Hi) as (A & B & C & F); auto). split; [exact G|]. destruct (new_from D G) as (t0 & E0 & E1 & _). rewrite <- E in E1.
    assert (Hn : forall x, In x m -> (lvar (fst x) < n)%N).
    { intros x Hx. apply in_map_iff in Hx as ([y u] & <- & Hi). destruct (V y u Hi) as (_ & A & B & _). cbn [fst int_lit lvar]. lia. }
    exists false, (mkWorld m n [] [] [] []). split; [exact (pi_start ord srt m 0 n t0 t Hn E0 E1)|]. split; [exact (dh_start ord srt m 0 n t0 t Hn E0 E1)|].
    split; [reflexivity|reflexivity|reflexivity|reflexivity|intros v Hv; destruct Hv as (p1 & p2 & Hp & _); destruct Hp|exact Hn].
  - destruct IH as (G & b & w & P & Hh & [W1 W2 W3 W4 W5 W6]). split; [exact G|]. exists b, (mkWorld (w_in w) (w_next w + k)%N (w_aux w) (w_all w) (w_ub w) (w_lb w)). split; [apply pi_user; exact P|]. split.
    + exact (dh_step ord srt m 0 w t (as_rngs R) (HUserVars k) _ _ Hh I eq_refl).
    + split; cbn [w_next w_all w_ub w_aux]; try assumption; [congruence|intros v Hv; specialize (W5 v Hv); lia|intros x Hx; specialize (W6 x Hx); lia].
  - destruct IH as (G & b & w & P & Hh & [W1 W2 W3 W4 W5 W6]). split; [exact G|]. assert (O : inputs_ok m). { intros x Hx. apply in_map_iff in Hx as ([y u] & <- & Hi). apply (G y u Hi). }
    unfold cdpw_encode_ub, capi_encode in E. destruct (Nat.leb_spec lo hi); [|discriminate E].
    destruct (dpw_encode_ub_change srt t (Incl lo, Incl hi) n) as [[[t1 cs] n1]|] eqn:Ee; [|discriminate E]. destruct (cnf_ints cs) as [xs|] eqn:Ex; [|discriminate E]. cbn [obind] in E. injection E as <- <- <-.
    assert (S : step (dpw_enc srt t) w t (HUbChange (Incl lo, Incl hi)) = Some (log_call w false false cs n1, t1)) by (cbn [step dpw_enc en_ub_change]; rewrite W1, Ee; reflexivity).
    exists true, (log_call w false false cs n1). split; [exact (pi_change ord srt m 0 b w t _ _ _ _ P S)|]. split; [exact (dh_step ord srt m 0 w t (as_rngs R) (HUbChange (Incl lo, Incl hi)) _ _ Hh I S)|].
    assert (Ln : (n <= n1)%N).
    { destruct (dpw_no_panic ord Hord srt Hsrt m O 0 w t _ (pincr_phist ord srt m 0 b w t _ P) (or_introl (Nat.le_0_l 1))) as [X _]. destruct (X (HUbChange (Incl lo, Incl hi)) I) as (w' & t2 & S' & L). rewrite S in S'. injection S' as <- <-.
      unfold log_call in L. cbn [w_next] in L. rewrite W1 in L. exact L. }
    unfold log_call. split; cbn [w_next w_all w_ub w_aux r_clauses]; try congruence.
    + exact (cnf_ints_app _ _ _ _ W2 Ex).
    + intros v Hv. apply in_aux_cons in Hv as [Hv|Hv]; [lia|]. specialize (W5 v Hv). lia.
    + intros x Hx. specialize (W6 x Hx). lia.
Qed.

Lemma good_ok : good_ins ins -> inputs_ok m.
Proof. intros G x Hx. apply in_map_iff in Hx as ([y u] & <- & Hi). apply (G y u Hi). Qed.
Lemma good_sum a : good_ins ins -> wsum a m = int_sum a ins.
Proof. intros G. apply gte_hval, Forall_forall. intros [x w] Hi. destruct (G x w Hi) as (_ & A & B). split; assumption. Qed.
Lemma scaled_zero : scaled 0 m = m.
Proof. unfold scaled. rewrite <- (map_id m) at 2. apply map_ext. intros [l w]. cbn [fst snd Nat.max]. now rewrite Nat.div_1_r. Qed.
Let P0 : precision_ok 0 m := or_introl (Nat.le_0_l 1).

Lemma cdpw_exact R n ints own t : dc_hist srt ins R n ints own t -> forall b t' n' r, cdpw_enforce_ub t n b = Some (t', n', r) -> r_code r = Fine ->
  (forall a, ints_hold a ints -> forallb (int_holds a) (r_assumps r) = true -> int_sum a ins <= b) /\
  (forall a, int_sum a ins <= b -> exists a', (forall v, ~ in_aux own v -> a' v = a v) /\ ints_hold a' ints /\ forallb (int_holds a') (r_assumps r) = true).
Proof.
  intros H b t' n' r E Hr. destruct (dc_reach _ _ _ _ _ H) as (G & bb & w & P & _ & [W1 W2 W3 W4 W5 W6]). apply enforce_fine in E as (_ & _ & _ & Hf & _). destruct (Hf Hr) as (ls & El & Ey).
  destruct (dpw_exact ord Hord srt Hsrt m (good_ok G) 0 bb w t _ b ls P P0 El) as [X Y]. rewrite scaled_zero in X, Y. split.
  - intros a Ha Hs. rewrite <- (good_sum a G). apply X; [rewrite W3; now apply (ints_sat a _ _ W2)|now rewrite <- (ints_cube a ls _ Ey)].
  - intros a Hb. rewrite <- (good_sum a G) in Hb. destruct (Y a Hb) as (a' & A1 & A2 & A3). exists a'. split; [intros v Hv; apply A1; rewrite W4; exact Hv|]. split; [now apply (ints_sat a' _ _ W2)|now rewrite (ints_cube a' ls _ Ey)].
Qed.

Lemma cdpw_encoded R n ints own t : dc_hist srt ins R n ints own t -> (n <= 2147483647)%N -> forall lo hi b, In (lo, hi) R -> lo <= b <= hi ->
  exists r, cdpw_enforce_ub t n b = Some (t, n, r) /\ r_code r = Fine.
Proof.
  intros H Hn lo hi b HR B. destruct (dc_reach _ _ _ _ _ H) as (G & bb & w & P & Hh & [W1 W2 W3 W4 W5 W6]).
  destruct (dpw_encoded_fixed ord Hord srt Hsrt m (good_ok G) 0 w t (as_rngs R) (Incl lo, Incl hi) b Hh P0) as (ls & E & _);
    [apply in_map_iff; exists (lo, hi); split; [reflexivity|exact HR]|exact B|right; lia|].
  destruct (lits_ints_some ls) as (xs & Ex).
  { intros l Hl. destruct (assumps_local_ok srt Hsrt m (good_ok G) 0 w t _ b ls l (phist_inv ord Hord srt Hsrt m (good_ok G) 0 w t _ (pincr_phist ord srt m 0 bb w t _ P)) P0 E Hl) as [(x & Hx & Hv)|Hv].
    - specialize (W6 x Hx). lia.
    - rewrite W4 in Hv. specialize (W5 _ Hv). lia. }
  exists (mkReply Fine [] xs). unfold cdpw_enforce_ub, capi_enforce. rewrite E. cbn [obind]. rewrite Ex. split; reflexivity.
Qed.

(** nothing aborts as long as there are at most 2^31-1 variables *)
Lemma cdpw_total R n ints own t : dc_hist srt ins R n ints own t -> (n <= 2147483647)%N ->
  (forall lo hi, lo <= hi -> (exists t' cs n', dpw_encode_ub_change srt t (Incl lo, Incl hi) n = Some (t', cs, n') /\ ((n' <= 2147483647)%N -> exists r, cdpw_encode_ub srt t n lo hi = Some (t', n', r) /\ r_code r = Fine))) /\
  (forall b, exists r, cdpw_enforce_ub t n b = Some (t, n, r) /\ (r_code r = Fine \/ r_code r = NotEncoded)).
Proof.
  intros H Hn. destruct (dc_reach _ _ _ _ _ H) as (G & bb & w & P & Hh & [W1 W2 W3 W4 W5 W6]). pose proof (pincr_phist ord srt m 0 bb w t _ P) as Ph.
  destruct (dpw_no_panic ord Hord srt Hsrt m (good_ok G) 0 w t _ Ph P0) as [X Y]. split.
  - intros lo hi L. destruct (X (HUbChange (Incl lo, Incl hi)) I) as (w' & t' & S & Lw). pose proof S as S0. cbn [step dpw_enc en_ub_change] in S. rewrite W1 in S.
    destruct (dpw_encode_ub_change srt t (Incl lo, Incl hi) n) as [[[t1 cs] n1]|] eqn:Ee; [|discriminate S]. injection S as <- <-. exists t1, cs, n1. split; [reflexivity|]. intros Hn1.
    destruct (cnf_ints_some cs) as (xs & Ex).
    { intros c l Hc Hl. pose proof (ph_step ord srt m 0 w t _ (HUbChange (Incl lo, Incl hi)) _ _ Ph I S0) as Ph1. unfold log_call in Lw. cbn [w_next] in Lw. rewrite W1 in Lw.
      destruct (dpw_local ord Hord srt Hsrt m (good_ok G) 0 _ _ _ c l Ph1) as [(x & Hx & Hv)|Hv]; [unfold log_call; cbn [w_all]; apply in_or_app; right; exact Hc|exact Hl| |].
      - specialize (W6 x Hx). lia.
      - unfold log_call in Hv. cbn [w_aux] in Hv. apply in_aux_cons in Hv as [Hv|Hv]; [lia|]. rewrite W4 in Hv. specialize (W5 _ Hv). lia. }
    exists (mkReply Fine xs []). unfold cdpw_encode_ub, capi_encode. rewrite (proj2 (Nat.leb_le lo hi) L), Ee, Ex. cbn [obind]. split; reflexivity.
  - intros b. destruct (Y b) as [Y1 Y2]. destruct (dpw_enforce_ub t b) as [[ls| |]|] eqn:E; try congruence.
    + destruct (lits_ints_some ls) as (xs & Ex).
      { intros l Hl. destruct (assumps_local_ok srt Hsrt m (good_ok G) 0 w t _ b ls l (phist_inv ord Hord srt Hsrt m (good_ok G) 0 w t _ Ph) P0 E Hl) as [(x & Hx & Hv)|Hv].
        - specialize (W6 x Hx). lia.
        - rewrite W4 in Hv. specialize (W5 _ Hv). lia. }
      exists (mkReply Fine [] xs). unfold cdpw_enforce_ub, capi_enforce. rewrite E. cbn [obind]. rewrite Ex. split; [reflexivity|left; reflexivity].
    + exists (mkReply NotEncoded [] []). unfold cdpw_enforce_ub, capi_enforce. rewrite E. split; [reflexivity|right; reflexivity].
Qed.

Lemma cdpw_coarse R n ints own t : dc_hist srt ins R n ints own t -> exists W, 1 <= W /\ forall ub,
  cdpw_coarse_ub t ub <= ub /\
  (ub < W -> cdpw_coarse_ub t ub = ub) /\
  (W <= ub -> (exists k, cdpw_coarse_ub t ub = k * W - 1) /\ (forall k, k * W - 1 <= ub -> k * W - 1 <= cdpw_coarse_ub t ub) /\
     forall t' n' r, cdpw_enforce_ub t n (cdpw_coarse_ub t ub) = Some (t', n', r) -> r_code r = Fine -> length (r_assumps r) <= 1).
Proof.
  intros H. destruct (dc_reach _ _ _ _ _ H) as (G & bb & w & P & Hh & _). destruct (hist_cur ord Hord srt Hsrt m (good_ok G) 0 w t _ (or_introl Hh)) as (I & C).
  destruct (coarse_ok srt Hsrt m 0 w t _ I C) as (W & L & X). exists W. split; [exact L|]. intros ub. destruct (X ub) as (X1 & X2 & X3 & X4). unfold cdpw_coarse_ub. split; [exact X1|]. split; [exact X2|].
  intros B. destruct (X3 B) as [Y1 Y2]. split; [exact Y1|]. split; [exact Y2|]. intros t' n' r E Hr. apply enforce_fine in E as (_ & _ & _ & Hf & _). destruct (Hf Hr) as (ls & El & Ey).
  destruct (lits_ints_In (fun _ => true) ls _ Ey) as [Em _]. apply (f_equal (@length bool)) in Em. rewrite !map_length in Em. rewrite Em. exact (X4 B ls El).
Qed.

Lemma cdpw_limit R n ints own t : dc_hist srt ins R n ints own t -> cdpw_is_max_precision t = true -> forall lo hi xs, cdpw_limit_range t lo hi = Some xs ->
  forall b t' n' r a, cdpw_enforce_ub t n b = Some (t', n', r) -> r_code r = Fine -> lo <= int_sum a ins <= b -> b <= hi -> b < int_total ins ->
  exists a', (forall v, ~ in_aux own v -> a' v = a v) /\ ints_hold a' ints /\ forallb (int_holds a') (r_assumps r) = true /\ ints_hold a' xs.
Proof.
  intros H Hq lo hi xs Ex b t' n' r a E Hr B1 B2 B3. destruct (dc_reach _ _ _ _ _ H) as (G & bb & w & P & Hh & [W1 W2 W3 W4 W5 W6]). destruct (hist_cur ord Hord srt Hsrt m (good_ok G) 0 w t _ (or_introl Hh)) as (I & C).
  unfold cdpw_limit_range in Ex. destruct (lo <=? hi); [|discriminate Ex]. destruct (dpw_limit_range t (Incl lo, Incl hi)) as [hs|] eqn:Eh; [|discriminate Ex]. cbn [obind] in Ex.
  apply enforce_fine in E as (_ & _ & _ & Hf & _). destruct (Hf Hr) as (ls & El & Ey). rewrite <- (good_sum a G) in B1.
  assert (Et : total_weight m = int_total ins) by (apply gte_htot, Forall_forall; intros [x v] Hi; destruct (G x v Hi) as (_ & A & A'); split; assumption). rewrite <- Et in B3.
  assert (K : exists a', (forall v, ~ in_aux (w_aux w) v -> a' v = a v) /\ sat_cnf a' (w_all w) = true /\ sat_cube a' ls = true /\ sat_cnf a' hs = true).
  { refine (limit_keeps srt Hsrt m (good_ok G) 0 w t _ _ hs b ls a I (Nat.le_0_l 1) C Hq Eh El _ _ _ B3); [split; cbn [fst snd]; lia|lia|split; cbn [fst snd]; lia]. }
  destruct K as (a' & A1 & A2 & A3 & A4). exists a'. split; [intros v Hv; apply A1; rewrite W4; exact Hv|]. split; [now apply (ints_sat a' _ _ W2)|]. split; [now rewrite (ints_cube a' ls _ Ey)|now apply (ints_sat a' _ _ Ex)].
Qed.
End D.

Lemma new_adds ins : NoDup (map fst ins) -> good_ins ins -> snd (cdpw_adds cdpw_new ins) = map (fun _ => Fine) ins.
Proof. intros D G. destruct (new_from ins D G) as (_ & _ & _ & E). exact E. Qed.

(** once clauses were returned the structure is there *)
Lemma change_struct srt t r n t' cs n' : dpw_encode_ub_change srt t r n = Some (t', cs, n') -> (t' = t /\ cs = []) \/ dp_struct t' <> None.
Proof.
  unfold dpw_encode_ub_change. destruct (prepare_ub_range (dp_sum t) r) as [lo hi]. destruct ((hi <=? lo) || (length (dp_in t) <=? 1))%nat; [intros E; injection E as <- <- <-; left; split; reflexivity|].
  match goal with |- context [obind ?x _] => destruct x as [[[t1 cs1] n1]|] eqn:Eb end; [|discriminate]. cbn [obind]. destruct (dp_struct t1) as [st|] eqn:Es.
  - destruct (sr_root st) as [root|]; [|discriminate]. cbn [obind]. match goal with |- context [foldM ?f ?l ?i] => destruct (foldM f l i) as [s|] end; [|discriminate]. cbn [obind].
    intros E. injection E as <- <- <-. right. cbn [dp_struct]. discriminate.
  - exfalso. destruct (dp_struct t) as [st|] eqn:Et.
    + unfold dpw_extend in Eb. rewrite Et in Eb. destruct (must_extend t).
      * destruct (build_structure srt false (dp_queue t) (dp_prec t) (dp_db t) n) as [[[[top d] q] n2]|]; [|discriminate Eb]. cbn [obind] in Eb.
        destruct (merge_structures st top d n2) as [[[[st' d'] cs'] n3]|]; [|discriminate Eb]. cbn [obind] in Eb. injection Eb as <- <- <-. discriminate Es.
      * injection Eb as <- <- <-. congruence.
    + unfold dpw_build in Eb. rewrite Et in Eb. destruct (build_structure srt true (dp_queue t) (dp_prec t) (dp_db t) n) as [[[[st d] q] n2]|]; [|discriminate Eb]. cbn [obind] in Eb. injection Eb as <- <- <-. discriminate Es.
Qed.
Lemma dc_struct srt ins R n ints own t : dc_hist srt ins R n ints own t -> ints = [] \/ dp_struct t <> None.
Proof.
  intros H. induction H as [n t D V E|R n ints own t k H IH|R n ints own t lo hi t' n' r H IH E]; [left; reflexivity|exact IH|].
  unfold cdpw_encode_ub, capi_encode in E. destruct (lo <=? hi); [|discriminate E]. destruct (dpw_encode_ub_change srt t (Incl lo, Incl hi) n) as [[[t1 cs] n1]|] eqn:Ee; [|discriminate E].
  destruct (cnf_ints cs) as [xs|] eqn:Ex; [|discriminate E]. cbn [obind] in E. injection E as <- <- <-. destruct (change_struct _ _ _ _ _ _ _ Ee) as [[-> ->]|X]; [|right; exact X].
  cbn [cnf_ints] in Ex. injection Ex as <-. cbn [r_clauses]. rewrite app_nil_r. exact IH.
Qed.
Lemma cdpw_add_late srt ins R n ints own t x w : dc_hist srt ins R n ints own t -> ints <> [] -> c_int x -> cdpw_add t x w = (t, if (x =? 0)%Z then InvalidLiteral else InvalidState).
Proof.
  intros H Hi Hx. destruct (dc_struct _ _ _ _ _ _ _ H) as [X|X]; [contradiction|]. unfold cdpw_add. rewrite (from_int x Hx). destruct (x =? 0)%Z; [reflexivity|].
  unfold dpw_add_input. destruct (dp_struct t); [reflexivity|contradiction].
Qed.
