(** * The C interface: totalizer, generalized totalizer and at-most-one encodings *)

From Coq Require Import List Bool NArith ZArith Lia ZifyBool ZifyN ZifyNat.
From Verif Require Import Spec BoundSpec BoundExec Types NodeDb Maps Am1 Am1Spec Am1Proofs Am1Stats Totalizer Gte Base TotalizerProofs SimInst CapiSpec Capi CapiProofs.
From Verif Require GteProofs.
Import ListNotations.

(** ** Totalizer *)
Lemma tot_hmk (l : lit) (w : nat) : l = l. Proof. reflexivity. Qed.
Lemma tot_hok (l : lit) (w : nat) : w = 1%nat -> any_lit l. Proof. intros _. exact I. Qed.
Lemma tot_hallow : (forall x : lit, any_op (HExtend [x])) /\ (forall k, any_op (@HUserVars lit k)) /\ any_op (@HReserve lit) /\
  (forall r, any_op (@HUbChange lit r)) /\ (true = true -> forall r, any_op (@HLbChange lit r)).
Proof. repeat split. Qed.
Lemma tot_hval a ins : Forall (fun x => fst x <> 0%Z /\ snd x = 1%nat) ins -> count_true a (map (fun x : Z * nat => int_lit (fst x)) ins) = int_sum a ins.
Proof.
  induction 1 as [|[x w] ins [Hx Hw] H IH]; [reflexivity|]. cbn [fst snd] in *. subst w. unfold int_sum in *. cbn [map count_true list_sum fold_right].
  rewrite IH. cbn [fst]. now rewrite (int_lit_holds a x Hx).
Qed.
Lemma tot_htot (ins : list (Z * nat)) : Forall (fun x => fst x <> 0%Z /\ snd x = 1%nat) ins -> length (map (fun x : Z * nat => int_lit (fst x)) ins) = int_total ins.
Proof.
  induction 1 as [|[x w] ins [Hx Hw] H IH]; [reflexivity|]. cbn [fst snd] in *. subst w. unfold int_total in *. cbn [map length snd]. rewrite IH. reflexivity.
Qed.
Lemma tot_hone : true = true -> forall W (s : tot) b ls, reachable totalizer (fun l => l) any_lit any_op W s ->
  (en_enforce_ub totalizer s b = Some (EOk ls) -> (b < length (w_in W))%nat -> exists l, ls = [l]) /\
  (en_enforce_lb totalizer s b = Some (EOk ls) -> (1 <= b)%nat -> exists l, ls = [l]).
Proof.
  intros _ W s b ls R. apply reach_tinv in R as (g & ow & r & I). cbn [totalizer en_enforce_ub en_enforce_lb]. split; intros E L.
  - destruct (enforce_ub_cases _ _ _ _ _ b I) as [(H & _)|[(_ & _ & E')|(_ & _ & id & _ & [(l & _ & E')|(_ & E')])]]; [lia|congruence| |congruence].
    exists (neg l). congruence.
  - destruct (enforce_lb_cases _ _ _ _ _ b I) as [(H & _)|[(_ & E')|[(_ & _ & E')|(_ & _ & id & _ & [(l & _ & E')|(_ & E')])]]]; [lia|congruence|congruence| |congruence].
    exists l. congruence.
Qed.

Definition tot_f := capi totalizer (fun l _ => l) true.
Definition tot_h := chist tot_f tot_new true (fun w => w = 1%nat).

Lemma tot_capi_bounds w s : tot_h w s ->
  (exists cls, int_clauses [] (s_ints w) = Some cls) /\
  (forall b s' n r a, tot_f s (s_used w) (FEnforceUb b) = Some (s', n, r) -> r_code r = Fine ->
    ints_hold a (s_ints w) -> forallb (int_holds a) (r_assumps r) = true -> (int_sum a (s_in w) <= b)%nat) /\
  (forall b s' n r a, tot_f s (s_used w) (FEnforceLb b) = Some (s', n, r) -> r_code r = Fine ->
    ints_hold a (s_ints w) -> forallb (int_holds a) (r_assumps r) = true -> (b <= int_sum a (s_in w))%nat) /\
  (forall a, exists a', (forall v, ~ in_aux (s_own w) v -> a' v = a v) /\ ints_hold a' (s_ints w) /\
    (forall b s' n r, tot_f s (s_used w) (FEnforceUb b) = Some (s', n, r) -> r_code r = Fine -> (int_sum a (s_in w) <= b)%nat -> forallb (int_holds a') (r_assumps r) = true) /\
    (forall b s' n r, tot_f s (s_used w) (FEnforceLb b) = Some (s', n, r) -> r_code r = Fine -> (b <= int_sum a (s_in w))%nat -> forallb (int_holds a') (r_assumps r) = true)).
Proof.
  intros H. split; [|split; [|split]].
  - exact (hist_stream totalizer (fun l => l) any_lit any_op _ true true _ tot_hmk tot_hok tot_hallow tot_vars_grow w s H).
  - intros b s' n r a. exact (hist_ub_sound totalizer (fun l => l) any_lit any_op count_true (@length lit) _ true true _ tot_hmk tot_hok tot_hallow tot_hval tot_vars_grow tot_upper w s b s' n r a H).
  - intros b s' n r a. exact (hist_lb_sound totalizer (fun l => l) any_lit any_op count_true (@length lit) _ true true _ tot_hmk tot_hok tot_hallow tot_hval tot_vars_grow (fun _ => tot_lower) w s b s' n r a eq_refl H).
  - intros a. exact (hist_complete totalizer (fun l => l) any_lit any_op count_true (@length lit) _ true true _ tot_hmk tot_hok tot_hallow tot_hval tot_vars_grow tot_upper w s a H).
Qed.

Lemma tot_capi_calls w s : tot_h w s ->
  (forall x, in_contract true (fun w => w = 1%nat) w (FAdd x 1) ->
    if (x =? 0)%Z then tot_f s (s_used w) (FAdd x 1) = Some (s, s_used w, mkReply InvalidLiteral [] [])
    else exists s', tot_f s (s_used w) (FAdd x 1) = Some (s', s_used w, mkReply Fine [] [])) /\
  (exists s' n, tot_f s (s_used w) FReserve = Some (s', n, mkReply Fine [] [])) /\
  (forall lo hi, (lo <= hi)%nat -> exists s' cs n, tot_encode_ub_change s (Incl lo, Incl hi) (s_used w) = Some (s', cs, n) /\
    ((n <= 2147483647)%N -> exists r, tot_f s (s_used w) (FEncodeUb lo hi) = Some (s', n, r) /\ r_code r = Fine /\
      forall b, (lo <= b <= hi)%nat -> (b < int_total (s_in w))%nat -> exists r', tot_f s' n (FEnforceUb b) = Some (s', n, r') /\ r_code r' = Fine)) /\
  (forall lo hi, (lo <= hi)%nat -> exists s' cs n, tot_encode_lb_change s (Incl lo, Incl hi) (s_used w) = Some (s', cs, n) /\
    ((n <= 2147483647)%N -> exists r, tot_f s (s_used w) (FEncodeLb lo hi) = Some (s', n, r) /\ r_code r = Fine /\
      forall b, (lo <= b <= hi)%nat -> (1 <= b)%nat -> exists r', tot_f s' n (FEnforceLb b) = Some (s', n, r') /\
        (r_code r' = Fine \/ r_code r' = Unsatisfiable /\ (int_total (s_in w) < b)%nat))) /\
  ((s_used w <= 2147483647)%N -> forall b,
    ((b < int_total (s_in w))%nat -> exists r, tot_f s (s_used w) (FEnforceUb b) = Some (s, s_used w, r) /\ r_clauses r = [] /\ (r_code r = Fine \/ r_code r = NotEncoded)) /\
    ((1 <= b)%nat -> exists r, tot_f s (s_used w) (FEnforceLb b) = Some (s, s_used w, r) /\ r_clauses r = [] /\
      (r_code r = Fine \/ r_code r = NotEncoded \/ r_code r = Unsatisfiable /\ (int_total (s_in w) < b)%nat))).
Proof.
  intros H. split; [|split; [|split; [|split]]].
  - intros x C. exact (hist_add totalizer (fun l => l) any_lit any_op (@length lit) _ true true _ tot_hmk tot_hok tot_hallow tot_vars_grow tot_no_panic tot_hone w s x 1 H C).
  - exact (hist_reserve totalizer (fun l => l) any_lit any_op _ true true _ tot_hmk tot_hok tot_hallow tot_vars_grow tot_no_panic w s H).
  - intros lo hi L. destruct (hist_encode_ub totalizer (fun l => l) any_lit any_op count_true (@length lit) _ true true _ tot_hmk tot_hok tot_hallow tot_htot tot_vars_grow tot_no_panic tot_upper tot_hone w s lo hi H L) as (s' & cs & n & E & G).
    exists s', cs, n. split; [exact E|]. intros B. destruct (G B) as (r & E1 & E2 & E3). exists r. split; [exact E1|]. split; [exact E2|]. intros b Hb Ht. exact (E3 b Hb (fun _ => Ht)).
  - intros lo hi L. destruct (hist_encode_lb totalizer (fun l => l) any_lit any_op count_true (@length lit) _ true true _ tot_hmk tot_hok tot_hallow tot_htot tot_vars_grow tot_no_panic tot_upper (fun _ => tot_lower) tot_hone w s lo hi H (conj eq_refl L)) as (s' & cs & n & E & G).
    exists s', cs, n. split; [exact E|]. intros B. destruct (G B) as (r & E1 & E2 & E3). exists r. split; [exact E1|]. split; [exact E2|]. intros b Hb Ht. exact (E3 b Hb (fun _ => Ht)).
  - intros B b. split; intros L.
    + exact (hist_enforce_ub totalizer (fun l => l) any_lit any_op count_true (@length lit) _ true true _ tot_hmk tot_hok tot_hallow tot_htot tot_vars_grow tot_upper tot_hone w s b H B (fun _ => L)).
    + exact (hist_enforce_lb totalizer (fun l => l) any_lit any_op count_true (@length lit) _ true true _ tot_hmk tot_hok tot_hallow tot_htot tot_vars_grow tot_upper (fun _ => tot_lower) tot_hone w s b eq_refl H B (fun _ => L)).
Qed.

(** ** Generalized totalizer *)
Lemma gte_hmk (l : lit) (w : nat) : fst (l, w) = l. Proof. reflexivity. Qed.
Lemma gte_hok (l : lit) (w : nat) : (1 <= w)%nat -> pos_weight (l, w). Proof. intros H. exact H. Qed.
Lemma gte_hallow : (forall x : lit * nat, ub_only (HExtend [x])) /\ (forall k, ub_only (@HUserVars (lit * nat) k)) /\ ub_only (@HReserve (lit * nat)) /\
  (forall r, ub_only (@HUbChange (lit * nat) r)) /\ (false = true -> forall r, ub_only (@HLbChange (lit * nat) r)).
Proof. repeat split. discriminate. Qed.
Lemma gte_hval a (ins : list (Z * nat)) : Forall (fun x => fst x <> 0%Z /\ (1 <= snd x)%nat) ins -> wsum a (map (fun x : Z * nat => (int_lit (fst x), snd x)) ins) = int_sum a ins.
Proof.
  induction 1 as [|[x w] ins [Hx Hw] H IH]; [reflexivity|]. cbn [fst snd] in *. unfold int_sum in *. cbn [map wsum list_sum fold_right fst snd].
  rewrite IH. now rewrite (int_lit_holds a x Hx).
Qed.
Lemma gte_htot (ins : list (Z * nat)) : Forall (fun x => fst x <> 0%Z /\ (1 <= snd x)%nat) ins -> total_weight (map (fun x : Z * nat => (int_lit (fst x), snd x)) ins) = int_total ins.
Proof. intros _. induction ins as [|[x w] ins IH]; [reflexivity|]. unfold int_total in *. cbn [map total_weight list_sum fold_right fst snd]. now rewrite IH. Qed.
Lemma gte_hone ord : false = true -> forall W (s : gte) b ls, reachable (gte_enc ord) fst pos_weight ub_only W s ->
  (en_enforce_ub (gte_enc ord) s b = Some (EOk ls) -> (b < total_weight (w_in W))%nat -> exists l, ls = [l]) /\
  (en_enforce_lb (gte_enc ord) s b = Some (EOk ls) -> (1 <= b)%nat -> exists l, ls = [l]).
Proof. discriminate. Qed.
Section GteC.
Context (ord : wmap -> wmap) (Ho : iter_order ord).
Definition gte_f := capi (gte_enc ord) pair false.
Definition gte_h := chist gte_f gte_new false (fun w => (1 <= w)%nat).

Lemma gte_capi_bounds w s : gte_h w s ->
  (exists cls, int_clauses [] (s_ints w) = Some cls) /\
  (forall b s' n r a, gte_f s (s_used w) (FEnforceUb b) = Some (s', n, r) -> r_code r = Fine ->
    ints_hold a (s_ints w) -> forallb (int_holds a) (r_assumps r) = true -> (int_sum a (s_in w) <= b)%nat) /\
  (forall a, exists a', (forall v, ~ in_aux (s_own w) v -> a' v = a v) /\ ints_hold a' (s_ints w) /\
    (forall b s' n r, gte_f s (s_used w) (FEnforceUb b) = Some (s', n, r) -> r_code r = Fine -> (int_sum a (s_in w) <= b)%nat -> forallb (int_holds a') (r_assumps r) = true)).
Proof.
  intros H. split; [|split].
  - exact (hist_stream (gte_enc ord) fst pos_weight ub_only pair false false _ gte_hmk gte_hok gte_hallow (GteProofs.gte_vars_grow ord Ho) w s H).
  - intros b s' n r a. exact (hist_ub_sound (gte_enc ord) fst pos_weight ub_only wsum total_weight pair false false _ gte_hmk gte_hok gte_hallow gte_hval (GteProofs.gte_vars_grow ord Ho) (gte_upper ord Ho) w s b s' n r a H).
  - intros a. destruct (hist_complete (gte_enc ord) fst pos_weight ub_only wsum total_weight pair false false _ gte_hmk gte_hok gte_hallow gte_hval (GteProofs.gte_vars_grow ord Ho) (gte_upper ord Ho) w s a H) as (a' & C & I & U & _).
    exists a'. split; [exact C|]. split; [exact I|exact U].
Qed.

Lemma gte_capi_calls w s : gte_h w s ->
  (forall x wt, in_contract false (fun w => (1 <= w)%nat) w (FAdd x wt) ->
    if (x =? 0)%Z then gte_f s (s_used w) (FAdd x wt) = Some (s, s_used w, mkReply InvalidLiteral [] [])
    else exists s', gte_f s (s_used w) (FAdd x wt) = Some (s', s_used w, mkReply Fine [] [])) /\
  (exists s' n, gte_f s (s_used w) FReserve = Some (s', n, mkReply Fine [] [])) /\
  (forall lo hi, (lo <= hi)%nat -> exists s' cs n, en_ub_change (gte_enc ord) s (Incl lo, Incl hi) (s_used w) = Some (s', cs, n) /\
    ((n <= 2147483647)%N -> exists r, gte_f s (s_used w) (FEncodeUb lo hi) = Some (s', n, r) /\ r_code r = Fine /\
      forall b, (lo <= b <= hi)%nat -> exists r', gte_f s' n (FEnforceUb b) = Some (s', n, r') /\ r_code r' = Fine)) /\
  ((s_used w <= 2147483647)%N -> forall b, exists r, gte_f s (s_used w) (FEnforceUb b) = Some (s, s_used w, r) /\ r_clauses r = [] /\
    (r_code r = Fine \/ r_code r = NotEncoded)).
Proof.
  intros H. assert (D : forall P : Prop, false = true -> P) by discriminate. split; [|split; [|split]].
  - intros x wt C. exact (hist_add (gte_enc ord) fst pos_weight ub_only total_weight pair false false _ gte_hmk gte_hok gte_hallow (GteProofs.gte_vars_grow ord Ho) (GteProofs.gte_no_panic ord Ho) (gte_hone ord) w s x wt H C).
  - exact (hist_reserve (gte_enc ord) fst pos_weight ub_only pair false false _ gte_hmk gte_hok gte_hallow (GteProofs.gte_vars_grow ord Ho) (GteProofs.gte_no_panic ord Ho) w s H).
  - intros lo hi L. destruct (hist_encode_ub (gte_enc ord) fst pos_weight ub_only wsum total_weight pair false false _ gte_hmk gte_hok gte_hallow gte_htot (GteProofs.gte_vars_grow ord Ho) (GteProofs.gte_no_panic ord Ho) (gte_upper ord Ho) (gte_hone ord) w s lo hi H L) as (s' & cs & n & E & G).
    exists s', cs, n. split; [exact E|]. intros B. destruct (G B) as (r & E1 & E2 & E3). exists r. split; [exact E1|]. split; [exact E2|]. intros b Hb. exact (E3 b Hb (D _)).
  - intros B b. exact (hist_enforce_ub (gte_enc ord) fst pos_weight ub_only wsum total_weight pair false false _ gte_hmk gte_hok gte_hallow gte_htot (GteProofs.gte_vars_grow ord Ho) (gte_upper ord Ho) (gte_hone ord) w s b H B (D _)).
Qed.
End GteC.

(** ** At-most-one encodings *)
Lemma am1_adds_spec xs : Forall c_int xs -> forall ls, am1_adds ls xs =
  (ls ++ map int_lit (filter (fun x => negb (x =? 0)%Z) xs), map (fun x => if (x =? 0)%Z then InvalidLiteral else Fine) xs).
Proof.
  induction 1 as [|x xs Hx H IH]; intros ls; [cbn; now rewrite app_nil_r|]. cbn [am1_adds map filter]. rewrite (from_int x Hx).
  destruct (x =? 0)%Z; cbn [negb]; rewrite IH; [reflexivity|]. cbn [map]. rewrite <- app_assoc. reflexivity.
Qed.
Lemma am1_count a xs : count_true a (map int_lit (filter (fun x => negb (x =? 0)%Z) xs)) = length (filter (fun x => negb (x =? 0)%Z && int_holds a x) xs).
Proof.
  induction xs as [|x xs IH]; [reflexivity|]. cbn [filter]. destruct (Z.eqb_spec x 0) as [->|Hx]; cbn [negb andb]; [exact IH|].
  cbn [map count_true]. rewrite (int_lit_holds a x Hx), IH. now destruct (int_holds a x).
Qed.

Lemma am1_capi_ok k xs n : am1_params_ok k -> Forall c_int xs -> (forall x, In x xs -> (Z.to_N (Z.abs x) <= n)%N) ->
  exists f n', am1_encode k (map int_lit (filter (fun x => negb (x =? 0)%Z) xs)) n = (f, n') /\ (n <= n')%N /\
  ((n' <= 2147483647)%N -> exists ys,
    am1_capi k xs n = Some (map (fun x => if (x =? 0)%Z then InvalidLiteral else Fine) xs, ys, n') /\
    (forall a, ints_hold a ys -> (length (filter (fun x => negb (x =? 0)%Z && int_holds a x) xs) <= 1)%nat) /\
    (forall a, (length (filter (fun x => negb (x =? 0)%Z && int_holds a x) xs) <= 1)%nat ->
      exists a', (forall v, ~ (n <= v < n')%N -> a' v = a v) /\ ints_hold a' ys)).
Proof.
  intros Hk Hx Hn. destruct (am1_encode k (map int_lit (filter (fun x => negb (x =? 0)%Z) xs)) n) as [f n'] eqn:E. exists f, n'. split; [reflexivity|].
  assert (Hb : lits_below n (map int_lit (filter (fun x => negb (x =? 0)%Z) xs))).
  { intros l Hl. apply in_map_iff in Hl as (x & <- & Hl). apply filter_In in Hl as (Hl & Hz). specialize (Hn x Hl). unfold int_lit. cbn [lvar]. lia. }
  destruct (am1_correct_all k Hk _ n f n' Hb E) as (Hle & Hbel & Hs & Hc). split; [exact Hle|]. intros Hmax.
  destruct (cnf_ints_some f) as [ys Ey]. { intros c l Hc' Hl. pose proof (Hbel c Hc' l Hl). lia. }
  exists ys. split; [|split].
  - unfold am1_capi. rewrite (am1_adds_spec xs Hx []). cbn [app]. rewrite E, Ey. reflexivity.
  - intros a Ha. rewrite <- am1_count. apply Hs. now apply (ints_sat a f ys Ey).
  - intros a Ha. rewrite <- am1_count in Ha. destruct (Hc a Ha) as (a' & C & Sa). exists a'. split; [|now apply (ints_sat a' f ys Ey)].
    intros v Hv. apply C. lia.
Qed.
