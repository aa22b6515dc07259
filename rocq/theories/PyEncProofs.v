(** * Proofs about the literals and the totalizer of the Python bindings *)

From Coq Require Import List Bool NArith ZArith Arith Lia ZifyBool ZifyNat ZifyN.
From Verif Require Import Spec BoundSpec Types TypesProofs Constraints Maps NodeDb TotDb Totalizer TotalizerProofs SimInst PySpec PyEnc.
Import ListNotations.

Lemma pylit_new_iff z : (i32_min <= z <= i32_max)%Z ->
  (z = 0%Z /\ pylit_new z = PyValueError) \/ (z <> 0%Z /\ pylit_new z = PyOne (mkLit (Z.abs_N z - 1) (z <? 0)%Z)).
Proof.
  unfold pylit_new, from_ipasir. change i32_max with 2147483647%Z. change i32_min with (-2147483648)%Z. change max_var_idx with 2147483647%N. intros H.
  destruct (z =? 0)%Z eqn:E; [left; split; [lia|reflexivity]|right]. split; [lia|].
  replace (2147483647 <? Z.abs_N z - 1)%N with false by lia. reflexivity.
Qed.

Lemma pylit_round x l : (i32_min < x <= i32_max)%Z -> pylit_new x = PyOne l ->
  pylit_to_ipasir l = PyOne x /\ pylit_new (- x) = PyOne (pylit_neg l).
Proof.
  intros H E. assert (Hx : (i32_min <= x <= i32_max)%Z) by lia. destruct (pylit_new_iff x Hx) as [[_ E']|[Hz E']]; rewrite E' in E; [discriminate|].
  injection E as <-. change i32_max with 2147483647%Z in *. change i32_min with (-2147483648)%Z in *. split.
  - unfold pylit_to_ipasir. cbn [lvar lneg]. change i32_max with 2147483647%Z. cbv zeta. replace (Z.of_N (Z.abs_N x - 1 + 1) <=? 2147483647)%Z with true by lia.
    f_equal. destruct (x <? 0)%Z eqn:S; lia.
  - destruct (pylit_new_iff (- x)%Z) as [[Z _]|[_ E2]]; [change i32_max with 2147483647%Z; change i32_min with (-2147483648)%Z; lia|lia|].
    rewrite E2. unfold pylit_neg, neg. cbn [lvar lneg]. f_equal. f_equal; lia.
Qed.

Lemma pylit_compare x y l m : (i32_min <= x <= i32_max)%Z -> (i32_min <= y <= i32_max)%Z -> pylit_new x = PyOne l -> pylit_new y = PyOne m ->
  (pylit_eq l m = true <-> x = y) /\ (pylit_lt l m = true <-> (Z.abs x < Z.abs y \/ x = - y /\ y < 0)%Z).
Proof.
  intros Hx Hy Ex Ey. destruct (pylit_new_iff x Hx) as [[_ E']|[Zx E']]; rewrite E' in Ex; [discriminate|]. injection Ex as <-.
  destruct (pylit_new_iff y Hy) as [[_ E2]|[Zy E2]]; rewrite E2 in Ey; [discriminate|]. injection Ey as <-.
  unfold pylit_eq, pylit_lt, lit_eqb, lit_ltb, pack. cbn [lvar lneg]. split.
  - destruct (x <? 0)%Z eqn:A, (y <? 0)%Z eqn:B; cbn [Bool.eqb]; lia.
  - destruct (x <? 0)%Z eqn:A, (y <? 0)%Z eqn:B; lia.
Qed.

(** every history of a Python program is a history of calls of the totalizer *)
Definition world_of (w : world lit) (ins : list lit) (n : N) (own : list (N * N)) (F : cnf) : Prop :=
  w_in w = ins /\ w_next w = n /\ w_all w = F /\ w_ub w = F /\ w_lb w = F /\ forall v, in_aux own v <-> in_aux (w_aux w) v.

Lemma in_aux_cons lo hi own v : in_aux ((lo, hi) :: own) v <-> (lo <= v < hi)%N \/ in_aux own v.
Proof.
  split.
  - intros (l & h & [E|I] & H); [injection E as <- <-; left; exact H|right; exists l, h; split; assumption].
  - intros [H|(l & h & I & H)]; [exists lo, hi; split; [left; reflexivity|exact H]|exists l, h; split; [right; exact I|exact H]].
Qed.

Definition tot_step := step totalizer.
Lemma tot_reach_step w t op w' t' : reach_tot w t -> any_op op -> (forall x, In x (match op with HExtend xs => xs | _ => [] end) -> (lvar x < w_next w)%N /\ ~ in_aux (w_aux w) (lvar x)) ->
  step totalizer w t op = Some (w', t') -> reach_tot w' t'.
Proof.
  intros R _ V E. eapply reach_step; [exact R| |exact E]. split; [exact I|]. destruct op; try exact I. intros x Hx. split; [exact I|]. apply V. exact Hx.
Qed.

Lemma enc_change (up : bool) w t ins n own F r t' cs n' : reach_tot w t -> world_of w ins n own F ->
  (if up then tot_encode_ub_change else tot_encode_lb_change) t r n = Some (t', cs, n') ->
  exists w', step totalizer w t (if up then HUbChange r else HLbChange r) = Some (w', t') /\ reach_tot w' t' /\
    world_of w' ins n' ((n, n') :: own) (F ++ cs) /\ (n <= n')%N.
Proof.
  intros R (Wi & Wn & Wa & Wu & Wl & Wx) E. exists (log_call w false false cs n').
  assert (S : step totalizer w t (if up then HUbChange r else HLbChange r) = Some (log_call w false false cs n', t')).
  { destruct up; cbn [step totalizer en_ub_change en_lb_change]; rewrite Wn, E; reflexivity. }
  assert (V : valid_op (fun l => l) any_lit any_op w (if up then HUbChange r else HLbChange r)) by (destruct up; split; exact I).
  split; [exact S|]. split; [exact (reach_step _ _ _ _ _ _ _ _ _ R V S)|]. split.
  - unfold log_call, world_of. cbn [w_in w_next w_aux w_all w_ub w_lb]. repeat split; try congruence.
    + intros H. apply in_aux_cons in H. apply in_aux_cons. rewrite Wn, <- Wx. exact H.
    + intros H. apply in_aux_cons in H. apply in_aux_cons. rewrite Wn, <- Wx in H. exact H.
  - pose proof (uc_vars _ _ _ _ _ _ tot_upper w t _ _ _ R V S) as G. rewrite Wn in G. exact G.
Qed.

Lemma py_hist_reach ins n own F t : py_hist ins n own F t -> exists w, reach_tot w t /\ world_of w ins n own F.
Proof.
  intros H. induction H as [xs n V|ins n own F t c t' cs n' H IH V E].
  - eexists. split.
    + eapply tot_reach_step with (op := HExtend xs); [|exact I| |reflexivity].
      * eapply tot_reach_step with (op := HUserVars n); [apply reach_init|exact I|intros x []|reflexivity].
      * cbn [w_next w_aux world0]. intros x Hx. split; [specialize (V x Hx); lia|]. intros (? & ? & [] & _).
    + unfold world_of. cbn [w_in w_next w_aux w_all w_ub w_lb world0 app]. repeat split; auto.
  - destruct IH as (w & R & W). pose proof W as (Wi & Wn & Wa & Wu & Wl & Wx).
    destruct c as [xs|k|lo hi|lo hi|lo hi]; cbn [pytot_call py_inputs py_own app] in *.
    + injection E as <- <- <-. eexists. split.
      * eapply tot_reach_step with (op := HExtend xs); [exact R|exact I| |reflexivity]. intros x Hx. rewrite Wn, <- Wx. exact (V x Hx).
      * unfold world_of. cbn [w_in w_next w_aux w_all w_ub w_lb]. rewrite app_nil_r. repeat split; try congruence; apply Wx.
    + injection E as <- <- <-. eexists. split.
      * eapply tot_reach_step with (op := HUserVars k); [exact R|exact I|intros x []|reflexivity].
      * unfold world_of. cbn [w_in w_next w_aux w_all w_ub w_lb]. rewrite !app_nil_r. repeat split; try congruence; apply Wx.
    + destruct (enc_change true _ _ _ _ _ _ _ _ _ _ R W E) as (w' & _ & R' & W' & _). exists w'. rewrite app_nil_r. split; assumption.
    + destruct (enc_change false _ _ _ _ _ _ _ _ _ _ R W E) as (w' & _ & R' & W' & _). exists w'. rewrite app_nil_r. split; assumption.
    + destruct (tot_encode_ub_change t (Incl lo, Incl hi) n) as [[[t1 cs1] n1]|] eqn:E1; [|discriminate E].
      destruct (tot_encode_lb_change t1 (Incl lo, Incl hi) n1) as [[[t2 cs2] n2]|] eqn:E2; [|discriminate E]. injection E as <- <- <-.
      destruct (enc_change true _ _ _ _ _ _ _ _ _ _ R W E1) as (w1 & _ & R1 & W1 & L1).
      destruct (enc_change false _ _ _ _ _ _ _ _ _ _ R1 W1 E2) as (w2 & _ & R2 & W2 & L2). exists w2. split; [exact R2|].
      destruct W2 as (A1 & A2 & A3 & A4 & A5 & A6). rewrite app_nil_r, app_assoc. repeat split; try assumption.
      * intros G. apply A6. apply in_aux_cons in G. rewrite !in_aux_cons. destruct G as [G|G]; [|right; right; exact G]. destruct (N.lt_ge_cases v n1); [right; left; lia|left; lia].
      * intros G. apply A6 in G. rewrite !in_aux_cons in G. apply in_aux_cons. destruct G as [G|[G|G]]; [left; lia|left; lia|right; exact G].
Qed.

Lemma pyub_ok t b ls : pytot_enforce_ub t b = PyOne ls <-> tot_enforce_ub t b = Some (EOk ls).
Proof. unfold pytot_enforce_ub. destruct (tot_enforce_ub t b) as [[| |]|]; split; intros E; try discriminate E; injection E as <-; reflexivity. Qed.
Lemma pylb_ok t b ls : pytot_enforce_lb t b = PyOne ls <-> tot_enforce_lb t b = Some (EOk ls).
Proof. unfold pytot_enforce_lb, py_result. destruct (tot_enforce_lb t b) as [[| |]|]; split; intros E; try discriminate E; injection E as <-; reflexivity. Qed.
Lemma pyeq_ok t b ls : pytot_enforce_eq t b = PyOne ls <-> exists l1 l2, tot_enforce_ub t b = Some (EOk l1) /\ tot_enforce_lb t b = Some (EOk l2) /\ ls = l1 ++ l2.
Proof.
  unfold pytot_enforce_eq, enforce_eq, py_result. destruct (tot_enforce_ub t b) as [[l1| |]|]; cbn [obind].
  - destruct (tot_enforce_lb t b) as [[l2| |]|]; cbn [obind]; (split; [intros E; try discriminate E; injection E as <-; exists l1, l2; repeat split|intros (x & y & E1 & E2 & ->); try discriminate E2; injection E1 as <-; injection E2 as <-; reflexivity]).
  - split; [discriminate|intros (x & y & E & _); discriminate E].
  - split; [discriminate|intros (x & y & E & _); discriminate E].
  - split; [discriminate|intros (x & y & E & _); discriminate E].
Qed.

Lemma sat_cube_app2 a l1 l2 : sat_cube a (l1 ++ l2) = (sat_cube a l1 && sat_cube a l2)%bool.
Proof. unfold sat_cube. apply forallb_app. Qed.

Lemma pytot_sound ins n own F t : py_hist ins n own F t -> forall b ls a, sat_cnf a F = true -> sat_cube a ls = true ->
  (pytot_enforce_ub t b = PyOne ls -> count_true a ins <= b) /\
  (pytot_enforce_lb t b = PyOne ls -> b <= count_true a ins) /\
  (pytot_enforce_eq t b = PyOne ls -> count_true a ins = b).
Proof.
  intros H b ls a SF SL. destruct (py_hist_reach _ _ _ _ _ H) as (w & R & <- & Wn & Wa & Wu & Wl & Wx).
  assert (U : forall l, tot_enforce_ub t b = Some (EOk l) -> sat_cube a l = true -> count_true a (w_in w) <= b) by (intros l E S; apply (tot_ub_sound w t b l a R E); congruence).
  assert (L : forall l, tot_enforce_lb t b = Some (EOk l) -> sat_cube a l = true -> b <= count_true a (w_in w)) by (intros l E S; apply (tot_lb_sound w t b l a R E); congruence).
  repeat split; intros E.
  - apply pyub_ok in E. exact (U _ E SL).
  - apply pylb_ok in E. exact (L _ E SL).
  - apply pyeq_ok in E. destruct E as (l1 & l2 & E1 & E2 & ->). rewrite sat_cube_app2 in SL. apply andb_true_iff in SL as [S1 S2]. specialize (U _ E1 S1). specialize (L _ E2 S2). lia.
Qed.

Lemma pytot_complete ins n own F t : py_hist ins n own F t -> forall a, exists a',
  (forall v, ~ in_aux own v -> a' v = a v) /\ sat_cnf a' F = true /\
  forall b ls,
    (pytot_enforce_ub t b = PyOne ls -> count_true a ins <= b -> sat_cube a' ls = true) /\
    (pytot_enforce_lb t b = PyOne ls -> b <= count_true a ins -> sat_cube a' ls = true) /\
    (pytot_enforce_eq t b = PyOne ls -> count_true a ins = b -> sat_cube a' ls = true).
Proof.
  intros H a. destruct (py_hist_reach _ _ _ _ _ H) as (w & R & <- & Wn & Wa & Wu & Wl & Wx).
  destruct (tot_complete w t a R) as (a' & A1 & A2 & A3 & A4). exists a'. split; [intros v Hv; apply A1; rewrite <- Wx; exact Hv|]. split; [congruence|].
  intros b ls. repeat split; intros E B.
  - apply pyub_ok in E. exact (A3 _ _ E B).
  - apply pylb_ok in E. exact (A4 _ _ E B).
  - apply pyeq_ok in E. destruct E as (l1 & l2 & E1 & E2 & ->). rewrite sat_cube_app2, (A3 _ _ E1), (A4 _ _ E2); [reflexivity|lia|lia].
Qed.

Lemma pytot_errors ins n own F t : py_hist ins n own F t ->
  (forall c, py_valid n own c -> pytot_call t n c <> None) /\
  forall b, (pytot_enforce_ub t b = PyRuntimeError \/ exists ls, pytot_enforce_ub t b = PyOne ls) /\
            (pytot_enforce_lb t b = PyRuntimeError \/ (pytot_enforce_lb t b = PyValueError /\ length ins < b) \/ exists ls, pytot_enforce_lb t b = PyOne ls) /\
            (pytot_enforce_eq t b = PyRuntimeError \/ (pytot_enforce_eq t b = PyValueError /\ length ins < b) \/ exists ls, pytot_enforce_eq t b = PyOne ls).
Proof.
  intros H. destruct (py_hist_reach _ _ _ _ _ H) as (w & R & W). pose proof W as (<- & Wn & Wa & Wu & Wl & Wx). split.
  - intros c V E. assert (NP : forall up w t n, reach_tot w t -> w_next w = n -> forall r, (if up : bool then tot_encode_ub_change else tot_encode_lb_change) t r n <> None).
    { intros up w0 t0 n0 R0 <- r E0. apply (tot_no_panic w0 t0 (if up then HUbChange r else HLbChange r) R0); [destruct up; split; exact I|].
      destruct up; cbn [step totalizer en_ub_change en_lb_change]; rewrite E0; reflexivity. }
    destruct c as [xs|k|lo hi|lo hi|lo hi]; cbn [pytot_call] in E; try discriminate E.
    + exact (NP true w t n R Wn _ E).
    + exact (NP false w t n R Wn _ E).
    + destruct (tot_encode_ub_change t (Incl lo, Incl hi) n) as [[[t1 cs1] n1]|] eqn:E1; [|exact (NP true w t n R Wn _ E1)].
      destruct (enc_change true _ _ _ _ _ _ _ _ _ _ R W E1) as (w1 & _ & R1 & W1 & _).
      destruct (tot_encode_lb_change t1 (Incl lo, Incl hi) n1) as [[[t2 cs2] n2]|] eqn:E2; [discriminate E|].
      exact (NP false w1 t1 n1 R1 (proj1 (proj2 W1)) _ E2).
  - intros b. destruct (tot_enforce_total w t R) as [T1 T2]. destruct (tot_unsat_above w t b R) as [U1 U2]. specialize (T1 b). specialize (T2 b).
    cbn [totalizer en_enforce_ub en_enforce_lb] in T1, T2, U1, U2.
    unfold pytot_enforce_ub, pytot_enforce_lb, pytot_enforce_eq, py_result, enforce_eq.
    destruct (tot_enforce_ub t b) as [[l1| |]|]; try congruence; destruct (tot_enforce_lb t b) as [[l2| |]|]; try congruence; cbn [obind];
      (split; [|split]);
      first [left; reflexivity|right; eexists; reflexivity|right; right; eexists; reflexivity|right; left; split; [reflexivity|apply U1; reflexivity]].
Qed.

Lemma pytot_encode ins n own F t : py_hist ins n own F t -> forall c t' cs n' b, pytot_call t n c = Some (t', cs, n') ->
  match c with
  | PyEncodeUb lo hi => lo <= b <= hi -> exists ls, pytot_enforce_ub t' b = PyOne ls
  | PyEncodeLb lo hi => lo <= b <= hi -> b <= length ins -> exists ls, pytot_enforce_lb t' b = PyOne ls
  | PyEncodeBoth lo hi => lo <= b <= hi -> (exists ls, pytot_enforce_ub t' b = PyOne ls) /\ (b <= length ins -> (exists ls, pytot_enforce_lb t' b = PyOne ls) /\ exists ls, pytot_enforce_eq t' b = PyOne ls)
  | _ => True
  end.
Proof.
  intros H c t' cs n' b E. destruct (py_hist_reach _ _ _ _ _ H) as (w & R & W).
  assert (U : forall w t ins n own F lo hi t' cs n', reach_tot w t -> world_of w ins n own F -> tot_encode_ub_change t (Incl lo, Incl hi) n = Some (t', cs, n') -> lo <= b <= hi -> exists ls, tot_enforce_ub t' b = Some (EOk ls)).
  { clear. intros w t ins n own F lo hi t' cs n' R W E B. destruct (enc_change true _ _ _ _ _ _ _ _ _ _ R W E) as (w' & S & _).
    apply (uc_encodes_change _ _ _ _ _ _ tot_upper w t (Incl lo, Incl hi) w' t' b R); [split; exact I|exact S|exact B]. }
  assert (L : forall w t ins n own F lo hi t' cs n', reach_tot w t -> world_of w ins n own F -> tot_encode_lb_change t (Incl lo, Incl hi) n = Some (t', cs, n') -> lo <= b <= hi -> b <= length ins -> exists ls, tot_enforce_lb t' b = Some (EOk ls)).
  { clear. intros w t ins n own F lo hi t' cs n' R W E B Bi. destruct (enc_change false _ _ _ _ _ _ _ _ _ _ R W E) as (w' & S & R' & W' & _).
    destruct (lc_encodes_change _ _ _ _ _ _ tot_lower w t (Incl lo, Incl hi) w' t' b R) as [G|G]; [split; exact I|exact S|exact B|exact G|].
    apply (tot_unsat_above w' t' b R') in G. destruct W' as (<- & _). lia. }
  destruct c as [xs|k|lo hi|lo hi|lo hi]; cbn [pytot_call] in E; try exact I.
  - intros B. destruct (U _ _ _ _ _ _ _ _ _ _ _ R W E B) as (ls & G). exists ls. apply pyub_ok. exact G.
  - intros B Bi. destruct (L _ _ _ _ _ _ _ _ _ _ _ R W E B Bi) as (ls & G). exists ls. apply pylb_ok. exact G.
  - intros B. destruct (tot_encode_ub_change t (Incl lo, Incl hi) n) as [[[t1 cs1] n1]|] eqn:E1; [|discriminate E].
    destruct (tot_encode_lb_change t1 (Incl lo, Incl hi) n1) as [[[t2 cs2] n2]|] eqn:E2; [|discriminate E]. injection E as <- <- <-.
    destruct (enc_change true _ _ _ _ _ _ _ _ _ _ R W E1) as (w1 & S1 & R1 & W1 & _).
    destruct (enc_change false _ _ _ _ _ _ _ _ _ _ R1 W1 E2) as (w2 & S2 & R2 & W2 & _).
    destruct (U _ _ _ _ _ _ _ _ _ _ _ R W E1 B) as (l1 & G1).
    assert (G1' : tot_enforce_ub t2 b = Some (EOk l1)) by (apply (proj1 tot_persists w1 t1 (HLbChange (Incl lo, Incl hi)) w2 t2 b l1 R1); [split; exact I|exact S2|exact I|exact G1]).
    split; [exists l1; apply pyub_ok; exact G1'|]. intros Bi. destruct (L _ _ _ _ _ _ _ _ _ _ _ R1 W1 E2 B Bi) as (l2 & G2).
    split; [exists l2; apply pylb_ok; exact G2|]. exists (l1 ++ l2). apply pyeq_ok. exists l1, l2. repeat split; assumption.
Qed.

Lemma pytot_local ins n own F t : py_hist ins n own F t ->
  forall c l, In c F -> In l c -> (exists x, In x ins /\ lvar x = lvar l) \/ in_aux own (lvar l).
Proof.
  intros H c l Hc Hl. destruct (py_hist_reach _ _ _ _ _ H) as (w & R & <- & Wn & Wa & Wu & Wl & Wx). subst F.
  destruct (tot_clauses_local w t c l R Hc Hl) as [G|G]; [left; exact G|right; apply Wx; exact G].
Qed.
