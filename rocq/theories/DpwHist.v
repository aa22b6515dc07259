(** * The dynamic polynomial watchdog: the invariant of its histories *)

From Coq Require Import List Bool NArith ZArith Lia Arith Sorted Permutation.
From Coq Require Import ZifyBool ZifyNat ZifyN.
From Verif Require Import Spec BoundSpec Types Atomics NodeDb TreeSpec TotDb Totalizer Maps Base TotDbInv TotDbUnit TotDbDefine TotDbGeneral TotDbBuild TotDbGrow TotDbMerge TotWeighted TotDbHist TotalizerProofs DbWorld Dpw DpwSpec DpwRef DpwBuild DpwBuckets DpwStruct DpwIf DpwInv DpwExtend DpwChain DpwLink DpwSem DpwMerge OptConv.
Import ListNotations.

Definition sem_ok (t : dpw) : Prop := forall st, dp_struct t = Some st -> sem_all (d_nodes (dp_db t)).

(** ** Changes of output literals only *)
Lemma qok_skel ns ns' q : skel ns' = skel ns -> qok ns q -> qok ns' q.
Proof.
  intros E [H1 H2]. constructor; [|auto]. eapply Forall_impl; [|exact H1]. intros e (A & B & C). split; [auto|]. split; [auto|].
  eapply Forall_impl; [|exact C]. intros c. now apply ucon_skel.
Qed.
Lemma qsum_skel ns ns' s q : skel ns' = skel ns -> qok ns q -> qsum (cmax ns') s q = qsum (cmax ns) s q.
Proof.
  intros E [Q _]. apply qsum_ext. intros w cs c Hw Hc.
  rewrite Forall_forall in Q. destruct (Q _ Hw) as (_ & _ & U). cbn [snd] in U. unfold uok in U. rewrite Forall_forall in U. apply cmax_skel; [auto|]. apply U. auto.
Qed.
Lemma queue_of_skel g ns ns' q xs : skel ns' = skel ns -> qok ns q -> queue_of g ns q xs -> queue_of g ns' q xs.
Proof. intros E Q (H1 & H2 & H3). split; [auto|]. split; [|auto]. intros s. rewrite <- H2. now apply qsum_skel. Qed.
Lemma shape_skel g ns ns' st V W : skel ns' = skel ns -> shape g ns st V W -> shape g ns' st V W.
Proof.
  intros E (root & rest & k & nb & H1 & H2 & H3 & H4 & H5 & H6 & H7 & H8).
  destruct (node_same_skel _ ns' _ _ E H2) as (n' & Hn' & He). exists root, rest, k, n'. repeat (split; [solve [auto]|]).
  split; [clear - H3 He; destruct nb, n'; cbn in *; try tauto; discriminate|]. repeat (split; [solve [auto]|]).
  rewrite <- H8, <- (node_max_val_erase n'), He, node_max_val_erase. reflexivity.
Qed.
Lemma shape_ext g ns st V V' W W' : (forall a, V a = V' a) -> W = W' -> shape g ns st V W -> shape g ns st V' W'.
Proof.
  intros E <- (root & rest & k & nb & H1 & H2 & H3 & H4 & H5 & H6 & H7 & H8). exists root, rest, k, nb. repeat (split; [solve [auto]|]).
  split; [intros a; now rewrite <- E|]. split; [auto|]. split; [intros a; now rewrite <- E|auto].
Qed.
Lemma chain_same ns ns' bc rl : skel ns' = skel ns -> chain ns bc rl -> chain ns' bc rl.
Proof.
  intros E. induction bc as [|(b & c) bc IH]; cbn [chain]; [auto|]. intros ((lits & Hn) & H). split; [|auto].
  destruct (unit_same_skel _ ns' _ _ _ _ E Hn) as (l2 & Hn' & _). eauto.
Qed.
Lemma nref_same B ns ns' : skel ns' = skel ns -> nref B ns -> nref B ns'.
Proof.
  intros E H id n l r Hn C Hid. destruct (node_same_skel _ ns _ _ (eq_sym E) Hn) as (n' & Hn' & He). eapply H; eauto.
  destruct n as [|? ? ?|? ? ? ?|], n' as [|? ? ?|? ? ? ?|]; cbn in *; try discriminate; injection He; intros; subst; auto.
Qed.
Lemma crep_skel g d ns' st V W k bc : skel ns' = skel (d_nodes d) -> crep g d st V W k bc -> crep g (set_nodes_db d ns') st V W k bc.
Proof.
  intros E [(C1 & C2 & (du & C3 & C4) & C5) H2 H3 H4 H5 H6 H7 H8]. constructor; auto; cbn [set_nodes_db d_nodes d_dummy].
  - split; [auto|]. split; [auto|]. split; [exists du; split; [auto|eapply chain_same; eauto]|]. eapply Forall_impl; [|exact C5]. intros x (U & O). split; [eapply ucon_skel; eauto|auto].
  - eapply nref_same; eauto.
  - rewrite H8. f_equal. apply hsum_ext. intros x Hx. symmetry. apply cmax_skel; [auto|]. rewrite Forall_forall in C5. apply C5. auto.
Qed.
Lemma crep_ext g d st V V' W W' k bc : (forall a, V a = V' a) -> W = W' -> crep g d st V W k bc -> crep g d st V' W' k bc.
Proof. intros E <- [H1 H2 H3 H4 H5 H6 H7 H8]. constructor; auto; intros a; rewrite <- E; auto. Qed.

Lemma qsum_low f s q : (forall e, In e q -> (fst e < 2 ^ s)%nat) -> qsum f s q = 0%nat.
Proof.
  unfold qsum. induction q as [|e q IH]; intros H; [reflexivity|]. cbn [map]. change (list_sum (?x :: ?y)) with (x + list_sum y)%nat. rewrite IH by (intros; apply H; now right).
  rewrite Nat.div_small by (apply H; now left). reflexivity.
Qed.

Lemma set_precision_pow t0 d t : dpw_set_precision t0 d = inl t -> exists s, prec_ok d s.
Proof.
  unfold dpw_set_precision. destruct ((d <=? 1)%nat || is_pow2 d) eqn:E; cbn [negb]; [|discriminate]. intros _. apply orb_true_iff in E as [E|E].
  - apply Nat.leb_le in E. exists 0%nat. destruct d as [|[|d]]; [right; auto|left; reflexivity|lia].
  - exists (Nat.log2 d). left. unfold is_pow2 in E. now apply Nat.eqb_eq.
Qed.
Lemma prec_mono d s d' s' : prec_ok d s -> prec_ok d' s' -> (d <= d')%nat -> (s <= s')%nat.
Proof. intros H H' L. rewrite <- (prec_digits _ _ H), <- (prec_digits _ _ H'). unfold digits. pose proof (Nat.log2_le_mono _ _ L). lia. Qed.
Lemma prec_le d s : prec_ok d s -> (d <= 2 ^ s)%nat.
Proof. pose proof (pow2_pos s). intros [->|(-> & _)]; lia. Qed.

(** what enforcing a bound divides it by *)
Definition shift (st : structure) (d : nat) : nat := (digits (sr_prec st) - digits d)%nat.
Lemma shift_ok st d s s0 : prec_ok d s -> prec_ok (sr_prec st) s0 -> shift st d = (s0 - s)%nat.
Proof. intros H H0. unfold shift. rewrite <- (prec_digits _ _ H), <- (prec_digits _ _ H0). unfold digits. lia. Qed.

Section Dpw.
Context (ord : wmap -> wmap) (Hord : iter_order ord).
Context (srt : list node -> list nodecon -> list nodecon) (Hsrt : forall ns l, Permutation (srt ns l) l).
Context (m : list (lit * nat)) (Hm : inputs_ok m).

Definition sc (s : nat) : list (lit * nat) := map (fun x => (fst x, (snd x / 2 ^ s)%nat)) m.

(** ** What the nodes and the queue stand for *)
Record vals (g : ghost) (d : db) (st : structure) (q : wqueue) (s0 : nat) : Prop := mkVals {
  vl_prec : prec_ok (sr_prec st) s0;
  vl_shape : shape g (d_nodes d) st (fun a => wsum a (sc s0)) (total_weight (sc s0));
  vl_q : qok (d_nodes d) q;
  vl_low : forall e, In e q -> (fst e < sr_prec st)%nat;
  vl_sum : forall s', (s' <= s0)%nat ->
     (forall a, qsum (cval g a) s' q + 2 ^ (s0 - s') * wsum a (sc s0) = wsum a (sc s'))%nat /\
     (qsum (cmax (d_nodes d)) s' q + 2 ^ (s0 - s') * total_weight (sc s0) = total_weight (sc s'))%nat;
  vl_rep : q <> [] -> (exists k bc, crep g d st (fun a => wsum a (sc s0)) (total_weight (sc s0)) k bc) /\ Forall (fun e => Forall (outside (sr_bottoms st)) (snd e)) q
}.

Lemma vals_skel g d st q s0 ns' : skel ns' = skel (d_nodes d) -> vals g d st q s0 -> vals g (set_nodes_db d ns') st q s0.
Proof.
  intros E [V1 V2 V3 V4 V5 V6]. constructor; auto; cbn [set_nodes_db d_nodes].
  - eapply shape_skel; eauto.
  - eapply qok_skel; eauto.
  - intros s' Hs. destruct (V5 s' Hs) as (A & B). split; [auto|]. rewrite (qsum_skel _ _ _ _ E V3). exact B.
  - intros Hq. destruct (V6 Hq) as ((k & bc & C) & O). split; [|auto]. exists k, bc. now apply crep_skel.
Qed.

Lemma vals_sum g d st q s0 s dd : vals g d st q s0 -> (s <= s0)%nat -> prec_ok dd s -> (forall e, In e q -> (fst e < dd)%nat) ->
  (forall a, wsum a (sc s) = 2 ^ (s0 - s) * wsum a (sc s0))%nat /\ total_weight (sc s) = (2 ^ (s0 - s) * total_weight (sc s0))%nat.
Proof.
  intros V Hs HP Hq. destruct (vl_sum _ _ _ _ _ V s Hs) as (A & B).
  assert (Hq' : forall e, In e q -> (fst e < 2 ^ s)%nat) by (intros e He; specialize (Hq e He); pose proof (prec_le _ _ HP); lia).
  split; [intros a; rewrite <- A, (qsum_low _ _ _ Hq'); reflexivity|]. rewrite <- B, (qsum_low _ _ _ Hq'). reflexivity.
Qed.

(** ** The variables *)
Record mid (w wv : world (lit * nat)) (d : db) (st : structure) (g : ghost) (ow : owner) (next1 : N) (cs : cnf) : Prop := mkMid {
  md_inv : qinv (w_all wv) (w_ub wv) (gin g) nocap ow (mkTst (d_nodes d) next1 cs);
  md_built : built g d;
  md_ow : forall v x, ow v = Some x -> in_aux (w_aux wv) v \/ (w_next wv <= v < next1)%N;
  md_lits : forall x, In x (w_in wv) -> (lvar (fst x) < w_next wv)%N /\ ~ in_aux (w_aux wv) (lvar (fst x));
  md_gin : forall v, gin g v = true -> exists x, In x (w_in wv) /\ lvar (fst x) = v;
  md_aux : aux_below (w_aux wv) (w_next wv);
  md_next : (w_next w <= w_next wv <= next1)%N;
  md_all : w_all wv = w_all w; md_ub : w_ub wv = w_ub w;
  md_in : forall x, In x (w_in wv) -> In x m \/ In (fst x) (sr_tares st);
  md_tin : forall t, In t (sr_tares st) -> exists x, In x (w_in wv) /\ fst x = t;
  md_waux : forall v, in_aux (w_aux wv) v -> in_aux (w_aux w) v;
  md_nodup : NoDup (sr_tares st);
  md_tares : forall t, In t (sr_tares st) -> lneg t = false /\ (in_aux (w_aux w) (lvar t) \/ (w_next w <= lvar t < w_next wv)%N)
}.

Lemma finish w wv d st g ow next1 cs ow' st' : mid w wv d st g ow next1 cs -> qinv (w_all wv) (w_ub wv) (gin g) nocap ow' st' -> ext ow (mkTst (d_nodes d) next1 cs) ow' st' ->
  mid (log_call w false false (t_cls st') (t_next st')) (log_call wv false false (t_cls st') (t_next st')) (set_nodes_db d (t_nodes st')) st g ow' (t_next st') [].
Proof.
  intros [M1 M2 M3 M4 M5 M6 M7 M8 M9 M10 M11 M12 M13 M14] I X.
  assert (Hsk : skel (t_nodes st') = skel (d_nodes d)) by exact (e_skel _ _ _ _ X).
  assert (Hnx : (next1 <= t_next st')%N) by exact (e_next _ _ _ _ X).
  constructor; cbn [log_call w_in w_next w_aux w_all w_ub w_lb set_nodes_db d_nodes]; auto.
  - apply qinv_commit. exact I.
  - apply built_skel; auto.
  - intros v x H. left. apply in_aux_cons. destruct (e_ow_new _ _ _ _ X v x H) as [H'|H'].
    + apply M3 in H' as [H'|H']; [now right|left; lia].
    + cbn [t_next] in H'. left. lia.
  - intros x Hx. destruct (M4 x Hx) as (H1 & H2). split; [lia|]. intros H. apply in_aux_cons in H as [H|H]; [lia|auto].
  - intros v H. apply in_aux_cons in H as [H|H]; [lia|]. apply M6 in H. lia.
  - lia.
  - now rewrite M8.
  - now rewrite M9.
  - intros v H. apply in_aux_cons in H as [H|H]; apply in_aux_cons; [left; lia|auto].
  - intros t Ht. destruct (M14 t Ht) as (H1 & H2). split; [auto|]. left. apply in_aux_cons. destruct H2 as [H2|H2]; [auto|left; lia].
Qed.

Lemma mid_qd w wv d st g ow : mid w wv d st g ow (w_next w) [] -> qd fst wv d g ow.
Proof.
  intros [M1 M2 M3 M4 M5 M6 M7 M8 M9 M10 M11 M12 M13 M14]. assert (E : w_next wv = w_next w) by lia. constructor; auto; rewrite ?E; auto.
  - intros v x H. apply M3 in H as [H|H]; [auto|lia].
Qed.
Lemma mid_dinv w wv d st g ow : mid w wv d st g ow (w_next w) [] -> dinv fst wv d g ow.
Proof. intros H. apply qd_dinv. eapply mid_qd; eauto. Qed.

Lemma mid_user w wv d st g ow k : mid w wv d st g ow (w_next w) [] ->
  mid (mkWorld (w_in w) (w_next w + k)%N (w_aux w) (w_all w) (w_ub w) (w_lb w)) (mkWorld (w_in wv) (w_next wv + k)%N (w_aux wv) (w_all wv) (w_ub wv) (w_lb wv)) d st g ow (w_next w + k)%N [].
Proof.
  intros [M1 M2 M3 M4 M5 M6 M7 M8 M9 M10 M11 M12 M13 M14]. constructor; cbn [w_in w_next w_aux w_all w_ub w_lb]; auto.
  - eapply qinv_next; [|exact M1]. lia.
  - intros v x H. apply M3 in H as [H|H]; [auto|lia].
  - intros x Hx. destruct (M4 x Hx). split; [lia|auto].
  - intros v H. apply M6 in H. lia.
  - lia.
  - intros t Ht. destruct (M14 t Ht) as (H1 & [H2|H2]); [auto|lia].
Qed.

Lemma mid_reset w wv d st g ow : mid w wv d st g ow (w_next w) [] ->
  mid (mkWorld (w_in w) (w_next w) (w_aux w) (w_all w) [] (w_lb w)) (mkWorld (w_in wv) (w_next wv) (w_aux wv) (w_all wv) [] (w_lb wv)) (set_nodes_db d (reset_encoded (d_nodes d) SIf)) st g ow (w_next w) [].
Proof.
  intros [M1 M2 M3 M4 M5 M6 M7 M8 M9 M10 M11 M12 M13 M14]. constructor; cbn [w_in w_next w_aux w_all w_ub w_lb set_nodes_db d_nodes]; auto.
  - eapply qinv_reset; eauto.
  - apply built_skel; [auto|]. apply reset_skel.
Qed.

(** ** The invariant *)

(** the output needed for a bound is there *)
Definition has_out (ns : list node) (st : structure) (ub : nat) : Prop :=
  forall root rest nb, sr_bottoms st = root :: rest -> nth_error ns root = Some nb -> (ub / 2 ^ sr_power st < node_max_val nb)%nat ->
    exists l, lit_has ns root (ub / 2 ^ sr_power st + 1) SIf l.

Definition ready (ns : list node) (st : structure) (q : wqueue) (d : nat) (R : list rng) : Prop :=
  forall r ub, In r R -> in_rng ub r -> (ub < total_weight m)%nat ->
    (forall e, In e q -> (fst e < d)%nat) /\ (sr_prec st = d \/ in_rng 0 r -> has_out ns st (ub / 2 ^ shift st d)).

Definition good (d : nat) (w : world (lit * nat)) (b : db) (st : structure) (q : wqueue) (R : list rng) (next1 : N) (cs : cnf) : Prop :=
  exists g ow wv s s0, prec_ok d s /\ vals g b st q s0 /\ (d <= sr_prec st)%nat /\ (1 <= d \/ sr_prec st = d)%nat /\
    mid w wv b st g ow next1 cs /\ ready (d_nodes b) st q d R.

Record pinv (d : nat) (w : world (lit * nat)) (t : dpw) (R : list rng) : Prop := mkPinv {
  pv_win : w_in w = m; pv_in : dp_in t = m; pv_prec : dp_prec t = d; pv_pow : exists s, prec_ok d s; pv_sum : dp_sum t = total_weight m;
  pv_lits : forall x, In x m -> (lvar (fst x) < w_next w)%N /\ ~ in_aux (w_aux w) (lvar (fst x));
  pv_below : aux_below (w_aux w) (w_next w);
  pv_struct : match dp_struct t with
              | None => (exists g ow, qd fst w (dp_db t) g ow /\ (forall v, ow v = None) /\ qok (d_nodes (dp_db t)) (dp_queue t) /\ queue_of g (d_nodes (dp_db t)) (dp_queue t) m) /\
                        ((2 <= length m)%nat -> forall r, In r R -> (snd (prepare_ub_range (total_weight m) r) <= fst (prepare_ub_range (total_weight m) r))%nat)
              | Some st => (2 <= length m)%nat /\ precision_ok d m /\ good d w (dp_db t) st (dp_queue t) R (w_next w) []
              end
}.

(** the structure is at the current precision *)
Definition current (t : dpw) : Prop := forall st, dp_struct t = Some st -> sr_prec st = dp_prec t.

(** ** Start *)
Lemma start_ok next d : (forall x, In x m -> (lvar (fst x) < next)%N) -> exists t0, dpw_from ord m = Some t0 /\ dp_struct t0 = None /\
  forall t, dpw_set_precision t0 d = inl t -> pinv d (mkWorld m next [] [] [] []) t [] /\ dp_struct t = None.
Proof.
  intros Hn. unfold dpw_from.
  assert (Hin : forall x, In x (ord m) <-> In x m) by (intros x; split; apply Permutation_in; [|symmetry]; apply Hord).
  destruct (queue_init (ord m)) as (b & q & g & E & B & G & Q & (K1 & K2 & K3)); [intros x Hx; apply Hm; now apply Hin|].
  rewrite E. cbn [obind]. eexists. split; [reflexivity|]. split; [reflexivity|]. intros t Et. destruct (set_precision_pow _ _ _ Et) as (s & Hs). revert Et.
  unfold dpw_set_precision. cbn [dp_struct dp_in dp_queue dp_sum dp_vars dp_cls dp_db andb].
  destruct (negb _); [discriminate|]. intros [= <-]. split; [|reflexivity].
  assert (Ex : forall v, ~ in_aux [] v) by (intros v (lo & hi & [] & _)).
  constructor; cbn [dp_struct dp_in dp_queue dp_sum dp_db dp_prec w_in w_next w_aux]; auto.
  - eauto.
  - rewrite sum_weights_acc. lia.
  - intros v H. now apply Ex in H.
  - split; [|intros _ r []]. exists g, (fun _ => None). split; [|split; [auto|split; [auto|]]].
    + pose proof (@dinv_init (lit * nat) fst) as I0. pose proof (di_built _ _ _ _ _ I0) as B0.
      assert (I1 : qd fst (mkWorld m next [] [] [] []) db_empty ghost0 (fun _ => None)).
      { constructor; cbn [w_in w_next w_aux w_all w_ub w_lb]; auto; try discriminate.
        - apply qinv_empty; [discriminate|intros [|id] l H; discriminate|]. intros [|id] v l sm; unfold data; cbn; discriminate.
        - intros v H. now apply Ex in H. }
      eapply qd_growd; [exact I1|exact B|exact G|]. intros v Hv. apply in_map_iff in Hv as (x & <- & Hx). exists x. split; [now apply Hin|auto].
    + pose proof (Hord m) as P. split; [|split].
      * intros a x. rewrite K1. apply wsum_perm. now apply Permutation_map.
      * intros x. rewrite K2. apply total_weight_perm. now apply Permutation_map.
      * intros x Hx. apply K3. now apply Hin.
Qed.

(** ** Building the structure *)
Lemma tares_in t next k : In t (tares_from next k) -> lneg t = false /\ (next <= lvar t < next + N.of_nat k)%N.
Proof. unfold tares_from. intros Ht. apply in_map_iff in Ht as (i & <- & Hi). apply in_seq in Hi. cbn [pos lvar lneg]. split; [reflexivity|lia]. Qed.
Lemma tares_nodup next k : NoDup (tares_from next k).
Proof.
  unfold tares_from. apply FinFun.Injective_map_NoDup; [|apply seq_NoDup]. intros i j H. injection H. lia.
Qed.

Lemma queue_head d (ns : list node) q g : precision_ok d m -> (2 <= length m)%nat -> qok ns q -> queue_of g ns q m -> exists maxw cs0 q0, q = (maxw, cs0) :: q0 /\ (d <= maxw)%nat.
Proof.
  intros Hprec H2 Q (_ & _ & K3).
  assert (Hx : exists x, In x m /\ (d <= snd x)%nat).
  { destruct Hprec as [Hp|(_ & Hx)]; [|auto]. assert (Hx : exists x, In x m) by (clear - H2; destruct m as [|x m']; [cbn in H2; lia|]; exists x; now left).
    destruct Hx as (x & Hx). exists x. split; [auto|]. pose proof (Hm x Hx). lia. }
  destruct Hx as (x & Hx & Hp). destruct (K3 x Hx) as (e & He & Ee). destruct q as [|(k & cs) q]; [destruct He|].
  exists k, cs, q. split; [auto|]. pose proof (qk_sorted _ _ Q) as Hs. apply StronglySorted_inv in Hs as (_ & F). rewrite Forall_forall in F.
  destruct He as [<-|He]; [cbn [fst] in Ee; lia|]. specialize (F _ He). cbn [fst] in F. lia.
Qed.

Lemma build_case d w t R : pinv d w t R -> dp_struct t = None -> (2 <= length m)%nat -> precision_ok d m -> exists t1 next1 st, dpw_build srt t (w_next w) = Some (t1, next1) /\
  dp_struct t1 = Some st /\ dp_in t1 = m /\ dp_prec t1 = d /\ dp_sum t1 = dp_sum t /\ sr_prec st = d /\ (w_next w <= next1)%N /\
  (forall e, In e (dp_queue t1) -> (fst e < d)%nat) /\ sem_all (d_nodes (dp_db t1)) /\ good d w (dp_db t1) st (dp_queue t1) R next1 [].
Proof.
  intros I Es H2 Hprec. unfold dpw_build. pose proof (pv_struct _ _ _ _ I) as Ps. rewrite Es in Ps |- *.
  destruct Ps as ((g & ow & D & O & Q & K) & Hr). destruct (pv_pow _ _ _ _ I) as (s & HP).
  destruct (queue_head d _ _ g Hprec H2 Q K) as (maxw & cs0 & q0 & Eq & Hmax). destruct K as (K1 & K2 & K3). rewrite (pv_prec _ _ _ _ I).
  assert (F0 : Forall (fun e : nat * list nodecon => Forall (outside []) (snd e)) (dp_queue t)) by (apply Forall_forall; intros e _; apply Forall_forall; intros c _ []).
  destruct (build_gen srt Hsrt true [] g (dp_db t) (dp_queue t) maxw cs0 q0 d s (w_next w) (qd_built _ _ _ _ _ D) Q Eq HP Hmax (fun _ _ _ _ _ _ _ => conj (fun H => H) (fun H => H)) (fun b Hb => match Hb with end) F0)
    as (st & d' & q' & g' & E & B' & G' & P1 & P2 & P3 & Q' & Low & Hs & Spl & root & rest & k & nb & A1 & A2 & A3 & A4 & A5 & A6 & A7 & A8 & _ & _ & More).
  rewrite E. cbn [obind]. set (p := length (sr_tares st)) in *. assert (Hpw : sr_power st = p) by reflexivity.
  eexists _, _, st. split; [reflexivity|]. cbn [dp_struct dp_in dp_prec dp_sum dp_queue dp_db]. split; [auto|]. split; [apply I|]. split; [auto|]. split; [auto|]. split; [auto|]. split; [lia|]. split; [auto|].
  assert (Hp : (digits maxw - s - 1 = p)%nat) by (rewrite P3; lia). rewrite Hp in A4, A7, A8.
  set (wv := mkWorld (m ++ map (fun t => (t, 0%nat)) (sr_tares st)) (w_next w + N.of_nat p)%N (w_aux w) (w_all w) (w_ub w) (w_lb w)).
  assert (Tin : forall t, In t (sr_tares st) -> lneg t = false /\ (w_next w <= lvar t < w_next w + N.of_nat p)%N) by (intros t0 Ht; rewrite P2 in Ht; now apply tares_in).
  assert (Dv : qd fst wv d' g' ow).
  { apply (qd_user fst _ _ _ _ (N.of_nat p)) in D. apply (qd_extend fst _ _ _ _ (map (fun t => (t, 0%nat)) (sr_tares st))) in D.
    - cbn [w_in w_next w_aux w_all w_ub w_lb] in D. rewrite (pv_win _ _ _ _ I) in D. fold wv in D.
      eapply qd_growd; [exact D|exact B'|exact G'|]. intros v Hv. apply in_map_iff in Hv as (t0 & <- & Ht). exists (t0, 0%nat). split; [|reflexivity].
      unfold wv. cbn [w_in]. apply in_or_app. right. apply (in_map (fun t => (t, 0%nat))). exact Ht.
    - intros x Hx. apply in_map_iff in Hx as (t0 & <- & Ht). cbn [fst w_next w_aux]. apply Tin in Ht. split; [lia|]. intros Hax. apply (pv_below _ _ _ _ I) in Hax. lia. }
  split.
  { intros id val l sem Hd. destruct (i_own _ _ _ _ _ _ (di_inv _ _ _ _ _ (qd_dinv _ _ _ _ _ Dv)) _ _ _ _ Hd) as (v & _ & Ho). now rewrite O in Ho. }
  exists g', ow, wv, s, s. split; [auto|]. split.
  { assert (KV : forall a, qsum (cval g a) s (dp_queue t) = wsum a (sc s)) by (intros a; apply K1). assert (KW : qsum (cmax (d_nodes (dp_db t))) s (dp_queue t) = total_weight (sc s)) by apply K2.
    constructor; rewrite ?P1; auto.
    - exists root, rest, k, nb. rewrite Hpw, <- KW. split; [auto|]. split; [auto|]. split; [auto|]. split; [lia|]. split; [intros a; rewrite <- KV; apply A5|]. split; [exact A6|].
      split; [intros a; rewrite <- KV; apply A7|exact A8].
    - intros s' Hs'. destruct (Spl s' Hs') as (S1 & S2). split; [intros a; specialize (S1 a); rewrite KV in S1; unfold sc at 2; rewrite <- K1; lia|]. rewrite KW in S2. unfold sc at 2. rewrite <- K2. lia.
    - intros Hq. destruct (More Hq) as (bc & C1 & _ & _ & C4 & C5 & C6 & C7 & C8). rewrite app_nil_r in C4. split.
      + exists k, bc. constructor; rewrite ?Hpw, ?A1, <- ?KW; auto.
        * rewrite C6. unfold digits. unfold digits in Hp. lia.
        * intros a. rewrite <- KV. apply A5.
        * intros a. rewrite <- KV. apply C7.
      + rewrite A1. rewrite app_nil_r in C5. exact C5. }
  rewrite P1. split; [lia|]. split; [auto|]. split.
  - destruct Dv as [J1 J2 J3 J4 J5 J6]. constructor; auto; unfold wv; cbn [w_in w_next w_aux w_all w_ub w_lb]; auto.
    + intros v x H. rewrite O in H. discriminate.
    + lia.
    + intros x Hx. apply in_app_or in Hx as [Hx|Hx]; [auto|]. apply in_map_iff in Hx as (t0 & <- & Ht). auto.
    + intros t0 Ht. exists (t0, 0%nat). split; [|reflexivity]. apply in_or_app. right. apply (in_map (fun t => (t, 0%nat))). exact Ht.
    + rewrite P2. apply tares_nodup.
    + intros t0 Ht. apply Tin in Ht as (H & H'). split; [auto|]. right. exact H'.
  - intros r ub Hin Hub Hlt. exfalso. specialize (Hr H2 r Hin). pose proof (ub_range_in _ _ _ Hub Hlt). lia.
Qed.

(** a precision above all weights makes building fail *)
Lemma build_bad d w t R : pinv d w t R -> dp_struct t = None -> (2 <= length m)%nat -> ~ precision_ok d m -> dpw_build srt t (w_next w) = None.
Proof.
  intros I Es H2 Hbad. unfold dpw_build. pose proof (pv_struct _ _ _ _ I) as Ps. rewrite Es in Ps |- *. destruct Ps as ((g & ow & D & O & Q & K1 & K2 & K3) & Hr).
  destruct (pv_pow _ _ _ _ I) as (s & HP). rewrite (pv_prec _ _ _ _ I).
  assert (Hd : (2 <= d)%nat) by (apply Nat.nlt_ge; intros L; apply Hbad; left; lia).
  enough (E : build_structure srt true (dp_queue t) d (dp_db t) (w_next w) = None) by (rewrite E; reflexivity).
  unfold build_structure. destruct (dp_queue t) as [|(maxw & cs) q] eqn:Eq; [reflexivity|].
  assert (Hlt : (maxw < d)%nat).
  { apply Nat.nle_gt. intros L. specialize (K2 s).
    assert (Z : total_weight (map (fun x : lit * nat => (fst x, (snd x / 2 ^ s)%nat)) m) = 0%nat).
    { assert (F : forall x, In x m -> (snd x < 2 ^ s)%nat).
      { intros x Hx. pose proof (prec_le _ _ HP). apply Nat.lt_le_trans with d; [|auto]. apply Nat.nle_gt. intros L'. apply Hbad. right. eauto. }
      clear - F. induction m as [|x l IH]; [reflexivity|]. cbn [map total_weight]. rewrite IH by (intros; apply F; now right). rewrite Nat.div_small by (apply F; now left). reflexivity. }
    rewrite Z in K2. unfold qsum in K2. cbn [map fst snd] in K2. change (list_sum (?x :: ?y)) with (x + list_sum y)%nat in K2.
    pose proof (qk_cons _ _ Q) as F. apply Forall_inv in F. destruct F as (_ & Hne & U). cbn [snd] in Hne, U. destruct cs as [|c cs]; [congruence|]. apply Forall_inv in U.
    pose proof (ucon_max _ _ _ (proj1 (qd_built _ _ _ _ _ D)) U) as C1. unfold tsum in K2. cbn [map] in K2. change (list_sum (?x :: ?y)) with (x + list_sum y)%nat in K2.
    assert (1 <= maxw / 2 ^ s)%nat; [|nia]. apply Nat.div_le_lower_bound; [pose proof (pow2_pos s); lia|]. destruct HP as [->|(? & _)]; lia. }
  assert (Hs : (digits maxw <= s)%nat).
  { destruct HP as [->|(? & _)]; [|lia]. unfold digits. pose proof (qk_cons _ _ Q) as F. apply Forall_inv in F. destruct F as (H1 & _). cbn [fst] in H1.
    assert (Nat.log2 maxw < s)%nat by (apply Nat.log2_lt_pow2; lia). lia. }
  rewrite (prec_digits _ _ HP). destruct (Nat.leb_spec s (digits maxw)) as [L|L]; cbn [assertb obind]; [|reflexivity].
  replace (digits maxw - s)%nat with 0%nat by lia. cbn [repeat]. unfold distribute_fuel. cbn [distribute]. replace (maxw <? d)%nat with true by lia. cbn [obind].
  destruct (true && _); [reflexivity|]. reflexivity.
Qed.

Lemma wsum_sc_le s a : (wsum a (sc s) <= total_weight (sc s))%nat.
Proof. apply wsum_le. Qed.

Lemma extend_case d w t R st : pinv d w t R -> dp_struct t = Some st -> exists t1 cs next1 st', dpw_extend srt t (w_next w) = Some (t1, cs, next1) /\
  dp_struct t1 = Some st' /\ dp_in t1 = m /\ dp_prec t1 = d /\ dp_sum t1 = dp_sum t /\ (w_next w <= next1)%N /\
  (forall e, In e (dp_queue t1) -> (fst e < d)%nat) /\ (sem_all (d_nodes (dp_db t)) -> sem_all (d_nodes (dp_db t1))) /\ (sr_prec st = d -> sr_prec st' = d) /\
  good d w (dp_db t1) st' (dp_queue t1) R next1 cs.
Proof.
  intros I Es. unfold dpw_extend. pose proof (pv_struct _ _ _ _ I) as Ps. rewrite Es in Ps |- *.
  destruct Ps as (H2 & Hprec & g & ow & wv & s & s0 & HP & V & Hle & Hd & M & Rd).
  assert (Hms : forall maxw cs0 q0, dp_queue t = (maxw, cs0) :: q0 -> forall e, In e (dp_queue t) -> (fst e <= maxw)%nat).
  { intros maxw cs0 q0 Eq e He. pose proof (qk_sorted _ _ (vl_q _ _ _ _ _ V)) as Hs. rewrite Eq in Hs, He. apply StronglySorted_inv in Hs as (_ & F). rewrite Forall_forall in F.
    destruct He as [<-|He]; [cbn [fst]; lia|]. specialize (F _ He). cbn [fst] in F. lia. }
  unfold must_extend. rewrite (pv_prec _ _ _ _ I).
  assert (Keep : (forall e, In e (dp_queue t) -> (fst e < d)%nat) -> exists t1 cs next1 st', Some (t, @nil clause, w_next w) = Some (t1, cs, next1) /\
    dp_struct t1 = Some st' /\ dp_in t1 = m /\ dp_prec t1 = d /\ dp_sum t1 = dp_sum t /\ (w_next w <= next1)%N /\
    (forall e, In e (dp_queue t1) -> (fst e < d)%nat) /\ (sem_all (d_nodes (dp_db t)) -> sem_all (d_nodes (dp_db t1))) /\ (sr_prec st = d -> sr_prec st' = d) /\
    good d w (dp_db t1) st' (dp_queue t1) R next1 cs).
  { intros Hq. exists t, [], (w_next w), st. split; [reflexivity|]. split; [auto|]. split; [apply I|]. split; [apply I|]. split; [auto|]. split; [lia|]. split; [auto|]. split; [auto|]. split; [auto|].
    exists g, ow, wv, s, s0. exact (conj HP (conj V (conj Hle (conj Hd (conj M Rd))))). }
  destruct (dp_queue t) as [|(maxw & cs0) q0] eqn:Eq; [apply Keep; intros e []|].
  destruct (Nat.leb_spec d maxw) as [L|L]; [|apply Keep; intros e He; specialize (Hms _ _ _ eq_refl e He); lia].
  clear Keep. pose proof (vl_low _ _ _ _ _ V _ (or_introl eq_refl)) as Hmax. cbn [fst] in Hmax.
  assert (Hd1 : (1 <= d)%nat) by (destruct Hd as [Hd|Hd]; [auto|lia]).
  assert (Ed : d = (2 ^ s)%nat) by (destruct HP as [->|(-> & _)]; lia).
  assert (E0 : sr_prec st = (2 ^ s0)%nat) by (destruct (vl_prec _ _ _ _ _ V) as [?|(? & _)]; lia).
  destruct (vl_rep _ _ _ _ _ V ltac:(discriminate)) as ((k & bc & CR) & Out).
  destruct M as [M1 M2 M3 M4 M5 M6 M7 M8 M9 M10 M11 M12 M13 M14]. assert (Nx : w_next wv = w_next w) by lia.
  assert (HT : forall x, In x (sr_tares st) -> (lvar x < w_next w)%N /\ ow (lvar x) = None).
  { intros x Hx. destruct (M11 x Hx) as (y & Hy & <-). destruct (M4 y Hy) as (A & B). split; [lia|]. destruct (ow (lvar (fst y))) as [z|] eqn:Eo; [|reflexivity]. exfalso. apply M3 in Eo as [Eo|Eo]; [auto|lia]. }
  rewrite Ed in L. rewrite E0 in Hmax.
  destruct (merge_ok srt Hsrt (w_all wv) (w_ub wv) ow (w_next w) g (dp_db t) st _ _ _ k bc s0 s maxw cs0 q0 M2 M1 (vl_q _ _ _ _ _ V) eq_refl L Hmax E0 CR Out HT)
    as (top & d1 & q' & next1 & st' & d' & cs & next' & ow' & g' & A1 & A2 & A3 & A4 & A5 & A6 & A7 & A8 & A9 & A10 & A11 & A12 & A13 & A14 & A15 & A16 & A17).
  rewrite Ed, A1. cbn [obind]. rewrite A2. cbn [obind].
  eexists _, _, _, st'. split; [reflexivity|]. cbn [dp_struct dp_in dp_prec dp_sum dp_queue dp_db]. rewrite <- Ed. split; [auto|]. split; [apply I|]. split; [auto|]. split; [auto|]. split; [lia|].
  split; [intros e He; rewrite Ed; auto|]. split; [auto|]. split; [rewrite A4; auto|].
  set (K := (s0 - s)%nat) in *.
  set (wv' := mkWorld (w_in wv ++ map (fun t => (t, 0%nat)) (tares_from (w_next w) K)) (w_next w + N.of_nat K)%N (w_aux wv) (w_all wv) (w_ub wv) (w_lb wv)).
  exists g', ow', wv', s, s. split; [auto|].
  destruct (vl_sum _ _ _ _ _ V s A3) as (S1 & S2). fold K in S1, S2.
  assert (SV : forall a, (2 ^ K * wsum a (sc s0) + qsum (cval g a) s ((maxw, cs0) :: q0))%nat = wsum a (sc s)) by (intros a; rewrite <- S1; lia).
  assert (SW : (2 ^ K * total_weight (sc s0) + qsum (cmax (d_nodes (dp_db t))) s ((maxw, cs0) :: q0))%nat = total_weight (sc s)) by (rewrite <- S2; lia).
  split.
  { constructor; rewrite ?A4; auto.
    - now left.
    - exact (shape_ext _ _ _ _ _ _ _ SV SW A16).
    - intros s' Hs'. destruct (A15 s' Hs') as (T1 & T2). destruct (vl_sum _ _ _ _ _ V s' ltac:(lia)) as (U1 & U2).
      assert (Pw : (2 ^ (s0 - s') = 2 ^ (s - s') * 2 ^ K)%nat) by (rewrite <- Nat.pow_add_r; f_equal; unfold K; lia).
      split.
      + intros a. rewrite <- SV, Nat.mul_add_distr_l, Nat.mul_assoc, <- Pw. rewrite <- (U1 a), (T1 a). lia.
      + rewrite <- SW, Nat.mul_add_distr_l, Nat.mul_assoc, <- Pw. rewrite <- U2, T2. lia.
    - intros Hq. destruct (A17 Hq) as ((k' & bc' & C') & O'). split; [|exact O']. exists k', bc'. exact (crep_ext _ _ _ _ _ _ _ _ _ SV SW C'). }
  rewrite A4, <- Ed. split; [lia|]. split; [auto|]. split.
  - constructor; unfold wv'; cbn [w_in w_next w_aux w_all w_ub w_lb]; auto.
    + intros v x Hv. apply A10 in Hv as [Hv|Hv]; [apply M3 in Hv as [Hv|Hv]; [auto|lia]|auto].
    + intros x Hx. apply in_app_or in Hx as [Hx|Hx].
      * destruct (M4 x Hx). split; [lia|auto].
      * apply in_map_iff in Hx as (y & <- & Hy). apply tares_in in Hy as (_ & Hy). cbn [fst]. split; [lia|]. intros Ha. apply M6 in Ha. lia.
    + intros v Hv. apply A11 in Hv as [Hv|Hv].
      * destruct (M5 v Hv) as (x & Hx & E). exists x. split; [apply in_or_app; auto|auto].
      * apply in_map_iff in Hv as (y & <- & Hy). rewrite A5 in Hy. apply in_app_or in Hy as [Hy|Hy].
        -- exists (y, 0%nat). split; [|reflexivity]. apply in_or_app. right. apply (in_map (fun t => (t, 0%nat))). exact Hy.
        -- destruct (M11 y Hy) as (x & Hx & <-). exists x. split; [apply in_or_app; auto|auto].
    + intros v Hv. apply M6 in Hv. lia.
    + lia.
    + intros x Hx. apply in_app_or in Hx as [Hx|Hx].
      * apply M10 in Hx as [Hx|Hx]; [auto|right; rewrite A5; apply in_or_app; auto].
      * apply in_map_iff in Hx as (y & <- & Hy). right. rewrite A5. apply in_or_app. auto.
    + intros y Hy. rewrite A5 in Hy. apply in_app_or in Hy as [Hy|Hy].
      * exists (y, 0%nat). split; [|reflexivity]. apply in_or_app. right. apply (in_map (fun t => (t, 0%nat))). exact Hy.
      * destruct (M11 y Hy) as (x & Hx & <-). exists x. split; [apply in_or_app; auto|auto].
    + rewrite A5. apply NoDup_app_intro; [apply tares_nodup|auto|]. intros x Hx Hy. apply tares_in in Hx. destruct (HT x Hy). lia.
    + intros y Hy. rewrite A5 in Hy. apply in_app_or in Hy as [Hy|Hy]; [apply tares_in in Hy as (? & ?); split; [auto|right; lia]|].
      destruct (M14 y Hy) as (? & [?|?]); [auto|lia].
  - intros r ub Hin Hub Hlt. exfalso. destruct (Rd r ub Hin Hub Hlt) as (Hall & _). specialize (Hall _ (or_introl eq_refl)). cbn [fst] in Hall. lia.
Qed.

(** ** Encoding outputs *)
Lemma outputs_ok GF GU gi g idxs root : forall ow st n, wf_shape (skel (t_nodes st)) g -> qinv GF GU gi nocap ow st -> nth_error (t_nodes st) root = Some n -> is_unitlike n ->
  exists st' ow', foldM (encode_output root) idxs st = Some st' /\ qinv GF GU gi nocap ow' st' /\ ext ow st ow' st' /\
    (forall i, In i idxs -> (i < node_max_val n)%nat -> exists l, lit_has (t_nodes st') root (i + 1) SIf l).
Proof.
  induction idxs as [|i idxs IH]; intros ow st n W I Hn U; cbn [foldM].
  - exists st, ow. split; [auto|]. split; [auto|]. split; [apply ext_refl|]. intros i [].
  - unfold encode_output at 1. rewrite Hn. cbn [obind]. destruct (Nat.leb_spec (node_max_val n) i) as [L|L].
    + cbn [obind]. destruct (IH ow st n W I Hn U) as (st2 & ow2 & E2 & I2 & X2 & L2). exists st2, ow2. split; [auto|]. split; [auto|]. split; [auto|].
      intros j [<-|Hj] Hlt; [lia|auto].
    + destruct (define_if_q GF GU gi nocap (grk g) (fun _ => True) (S (length (t_nodes st))) st ow root i n I) as (l & st1 & ow1 & E1 & I1 & X1 & L1 & _); auto.
      { apply wf_sh; auto. }
      { rewrite node_len_unitlike; auto. }
      { pose proof (wf_rk _ _ W root) as H. rewrite skel_length in H. specialize (H (nth_error_lt _ _ _ Hn)). lia. }
      rewrite E1. cbn [obind snd].
      destruct (unitlike_same_skel _ (t_nodes st1) _ _ (e_skel _ _ _ _ X1) Hn U) as (n' & Hn' & U' & Ln).
      rewrite !node_len_unitlike in Ln by auto.
      assert (W1 : wf_shape (skel (t_nodes st1)) g) by (rewrite (e_skel _ _ _ _ X1); auto).
      destruct (IH ow1 st1 n' W1 I1 Hn' U') as (st2 & ow2 & E2 & I2 & X2 & L2).
      exists st2, ow2. split; [exact E2|]. split; [auto|]. split; [eapply ext_trans; eauto|].
      intros j [<-|Hj] Hlt; [|apply L2; [auto|lia]]. exists l. eapply lit_has_ext; eauto.
Qed.

Lemma has_out_ext ns st ub ow ow' st' next1 cs : has_out ns st ub -> ext ow (mkTst ns next1 cs) ow' st' -> has_out (t_nodes st') st ub.
Proof.
  intros H X root rest nb Eb Hn Hmax. destruct (node_same_skel _ ns _ _ (eq_sym (e_skel _ _ _ _ X)) Hn) as (n' & Hn' & He).
  destruct (H root rest n' Eb Hn') as (l & Hl).
  - rewrite <- (node_max_val_erase n'), He, node_max_val_erase. exact Hmax.
  - exists l. eapply lit_has_ext; eauto.
Qed.
Lemma ready_ext ns st q d R ow ow' st' next1 cs : ready ns st q d R -> ext ow (mkTst ns next1 cs) ow' st' -> ready (t_nodes st') st q d R.
Proof. intros H X r ub Hin Hr Hlt. destruct (H r ub Hin Hr Hlt) as (A & B). split; [auto|]. intros C. eapply has_out_ext; eauto. Qed.

Lemma good_noop d w b st q R : good d w b st q R (w_next w) [] -> good d (log_call w false false [] (w_next w)) b st q R (w_next w) [].
Proof.
  intros (g & ow & wv & s & s0 & HP & V & H1 & H2 & M & Rd). exists g, ow, (log_call wv false false [] (w_next w)), s, s0. repeat (split; [solve [auto]|]). split; [|auto].
  pose proof (finish w wv b st g ow (w_next w) [] ow (mkTst (d_nodes b) (w_next w) []) M (md_inv _ _ _ _ _ _ _ _ M) (ext_refl _ _)) as F. cbn [t_cls t_next t_nodes] in F.
  replace (set_nodes_db b (d_nodes b)) with b in F by (destruct b; reflexivity). exact F.
Qed.

Lemma pinv_log_lits d w t R next1 cs : pinv d w t R -> (w_next w <= next1)%N ->
  (forall x, In x m -> (lvar (fst x) < w_next (log_call w false false cs next1))%N /\ ~ in_aux (w_aux (log_call w false false cs next1)) (lvar (fst x))) /\
  aux_below (w_aux (log_call w false false cs next1)) (w_next (log_call w false false cs next1)).
Proof.
  intros I Hn. cbn [log_call w_next w_aux]. split.
  - intros x Hx. destruct (pv_lits _ _ _ _ I x Hx) as (H1 & H2). split; [lia|]. intros H. apply in_aux_cons in H as [H|H]; [lia|auto].
  - intros v H. apply in_aux_cons in H as [H|H]; [lia|]. apply (pv_below _ _ _ _ I) in H. lia.
Qed.

Lemma pinv_noop d w t R : pinv d w t R -> pinv d (log_call w false false [] (w_next w)) t R.
Proof.
  intros I. destruct (pinv_log_lits d w t R (w_next w) [] I ltac:(lia)) as (H1 & H2).
  destruct I as [I1 I2 I3 I4 I5 I6 I7 I8]. constructor; auto. destruct (dp_struct t) as [st|].
  - destruct I8 as (P0 & P1 & G). split; [auto|]. split; [auto|]. exact (good_noop _ _ _ _ _ _ G).
  - destruct I8 as ((g & ow & D & Q & K) & Hr). split; [|auto]. exists g, ow. split; [now apply qd_noop|auto].
Qed.

(** more ranges that need nothing *)
Lemma pinv_range d w t R r : pinv d w t R -> (snd (prepare_ub_range (total_weight m) r) <= fst (prepare_ub_range (total_weight m) r) \/ length m <= 1)%nat -> pinv d w t (r :: R).
Proof.
  intros [I1 I2 I3 I4 I5 I6 I7 I8] Hr. constructor; auto. destruct (dp_struct t) as [st|].
  - destruct I8 as (P0 & P1 & g & ow & wv & s & s0 & HP & V & L & L' & M & Rd). split; [auto|]. split; [auto|]. exists g, ow, wv, s, s0. repeat (split; [solve [auto]|]).
    intros r' ub [<-|Hin] Hub Hlt; [exfalso; pose proof (ub_range_in _ _ _ Hub Hlt); lia|]. eapply Rd; eauto.
  - destruct I8 as (D & Hr'). split; [auto|]. intros H2 r' [<-|Hin]; [lia|auto].
Qed.

(** ** The calls *)
Lemma pinv_user d w t R k : pinv d w t R -> pinv d (mkWorld (w_in w) (w_next w + k)%N (w_aux w) (w_all w) (w_ub w) (w_lb w)) t R.
Proof.
  intros [I1 I2 I3 I4 I5 I6 I7 I8]. constructor; cbn [w_in w_next w_aux]; auto.
  - intros x Hx. destruct (I6 x Hx). split; [lia|auto].
  - intros v Hv. apply I7 in Hv. lia.
  - destruct (dp_struct t) as [st|].
    + destruct I8 as (P0 & P1 & g & ow & wv & s & s0 & HP & V & L & L' & M & Rd). split; [auto|]. split; [auto|]. eexists g, ow, _, s, s0. repeat (split; [solve [auto]|]). split; [exact (mid_user _ _ _ _ _ _ k M)|auto].
    + destruct I8 as ((g & ow & D & Q & K) & Hr). split; [|auto]. exists g, ow. split; [now apply qd_user|auto].
Qed.

Lemma pinv_reset d w t R : pinv d w t R -> pinv d (mkWorld (w_in w) (w_next w) (w_aux w) (w_all w) [] (w_lb w)) (dpw_reset t) [].
Proof.
  intros [I1 I2 I3 I4 I5 I6 I7 I8]. unfold dpw_reset. constructor; cbn [w_in w_next w_aux dp_in dp_struct dp_prec dp_sum dp_queue dp_db]; auto.
  destruct (dp_struct t) as [st|].
  - destruct I8 as (P0 & P1 & g & ow & wv & s & s0 & HP & V & L & L' & M & Rd). split; [auto|]. split; [auto|]. eexists g, ow, _, s, s0. split; [auto|]. split; [apply vals_skel; [apply reset_skel|exact V]|].
    split; [auto|]. split; [auto|]. split; [exact (mid_reset _ _ _ _ _ _ M)|]. intros r ub [].
  - destruct I8 as ((g & ow & D & O & Q & K) & Hr). split; [|intros _ r []]. exists g, ow. split; [now apply qd_reset|]. split; [auto|].
    cbn [set_nodes_db d_nodes]. split; [eapply qok_skel; [apply reset_skel|auto]|]. eapply queue_of_skel; [apply reset_skel|auto|auto].
Qed.

(** setting the precision *)
Lemma pinv_prec d w t R d' t' : pinv d w t R -> dpw_set_precision t d' = inl t' -> (dp_struct t <> None -> 1 <= d')%nat -> pinv d' w t' [].
Proof.
  intros [I1 I2 I3 I4 I5 I6 I7 I8] E Hd. destruct (set_precision_pow _ _ _ E) as (s' & HP'). unfold dpw_set_precision in E. destruct (negb _); [discriminate|].
  destruct (_ && (dp_prec t <? d')%nat) eqn:Ec; [discriminate|]. injection E as <-. constructor; cbn [dp_in dp_struct dp_prec dp_sum dp_queue dp_db]; auto; [eauto|].
  destruct (dp_struct t) as [st|].
  - destruct I8 as (P0 & P1 & g & ow & wv & s & s0 & HP & V & L & L' & M & Rd). split; [auto|]. cbn [andb] in Ec. rewrite I3 in Ec. assert (Hle : (d' <= d)%nat) by lia. specialize (Hd ltac:(discriminate)).
    split. { destruct P1 as [P1|(P1 & x & Hx & P2)]; [left; lia|right]. split; [auto|]. exists x. split; [auto|lia]. }
    exists g, ow, wv, s', s0. split; [auto|]. split; [auto|]. split; [lia|]. split; [auto|]. split; [auto|]. intros r ub [].
  - destruct I8 as (D & Hr). split; [auto|]. intros _ r [].
Qed.

Lemma reserve_case d w t R : pinv d w t R -> (dp_struct t = None -> precision_ok d m \/ length m <= 1)%nat -> exists t' next', dpw_reserve srt t (w_next w) = Some (t', next') /\ (w_next w <= next')%N /\
  pinv d (log_call w false false [] next') t' R /\ (current t -> current t').
Proof.
  intros I Hpr. unfold dpw_reserve. rewrite (pv_in _ _ _ _ I). destruct (Nat.leb_spec (length m) 1) as [L|L].
  - exists t, (w_next w). split; [auto|]. split; [lia|]. split; [now apply pinv_noop|auto].
  - assert (K : exists t1 next1 st, dpw_build srt t (w_next w) = Some (t1, next1) /\ dp_struct t1 = Some st /\ dp_in t1 = m /\ dp_prec t1 = d /\ dp_sum t1 = dp_sum t /\ (current t -> sr_prec st = d) /\ (w_next w <= next1)%N /\
        precision_ok d m /\ good d w (dp_db t1) st (dp_queue t1) R next1 []).
    { destruct (dp_struct t) as [st|] eqn:Es.
      - pose proof (pv_struct _ _ _ _ I) as Ps. rewrite Es in Ps. destruct Ps as (_ & P1 & G). exists t, (w_next w), st. unfold dpw_build. rewrite Es. split; [reflexivity|]. split; [auto|]. split; [apply I|].
        split; [apply I|]. split; [auto|]. split; [intros C; rewrite (C _ Es); apply I|]. split; [lia|]. split; [exact P1|exact G].
      - assert (Hp : precision_ok d m) by (destruct (Hpr eq_refl); [auto|lia]).
        destruct (build_case d w t R I Es ltac:(lia) Hp) as (t1 & next1 & st & E & E1 & E2 & E3 & E4 & E5 & E6 & E7 & E8 & G). exists t1, next1, st. repeat (split; [solve [auto]|]). exact G. }
    destruct K as (t1 & next1 & st & E & E1 & P1 & P2 & P3 & P4 & N1 & Pr & g & ow & wv & s & s0 & HP & V & L1 & L2 & M & Rd).
    rewrite E. cbn [obind]. rewrite E1. destruct (vl_shape _ _ _ _ _ V) as (root & rest & k & nb & A1 & A2 & A3 & _).
    unfold sr_root. rewrite A1. cbn [nth_error obind].
    pose proof (md_built _ _ _ _ _ _ _ _ M) as B. destruct (reserve_vars_q (w_all wv) (w_ub wv) (gin g) nocap g (Datatypes.S (length (d_nodes (dp_db t1)))) ow (mkTst (d_nodes (dp_db t1)) next1 []) (con_full root)) as (st' & ow' & E' & I' & X' & C').
    + exact (proj1 B).
    + exact (md_inv _ _ _ _ _ _ _ _ M).
    + cbn [t_nodes con_full nc_id]. exists nb. split; [auto|]. destruct nb; cbn in A3 |- *; tauto.
    + cbn [con_full nc_id]. pose proof (wf_rk _ _ (proj1 B) root) as H. rewrite skel_length in H. specialize (H (nth_error_lt _ _ _ A2)). lia.
    + rewrite E'. cbn [obind]. cbn [t_cls] in C'.
      pose proof (finish w wv (dp_db t1) st g ow next1 [] ow' st' M I' X') as M'. rewrite C' in M'.
      assert (Hx : (next1 <= t_next st')%N) by exact (e_next _ _ _ _ X').
      eexists _, _. split; [reflexivity|]. split; [lia|]. destruct (pinv_log_lits d w t R (t_next st') [] I ltac:(lia)) as (H1 & H2). split.
      2:{ intros C sx Hsx. cbn [dp_struct dp_prec] in *. rewrite ?E1 in Hsx. injection Hsx as <-. rewrite P2. auto. }
      constructor; cbn [dp_in dp_struct dp_prec dp_sum dp_queue dp_db]; auto; try apply I.
      * rewrite P3. apply I.
      * rewrite ?E1. split; [lia|]. split; [auto|]. exists g, ow', (log_call wv false false [] (t_next st')), s, s0. split; [auto|]. split; [apply vals_skel; [exact (e_skel _ _ _ _ X')|exact V]|]. split; [auto|]. split; [auto|]. split; [exact M'|].
        cbn [set_nodes_db d_nodes]. eapply ready_ext; eauto.
Qed.

Lemma change_case d w t R r : pinv d w t R -> (dp_struct t = None -> precision_ok d m \/ length m <= 1)%nat -> exists t' cs next', dpw_encode_ub_change srt t r (w_next w) = Some (t', cs, next') /\ (w_next w <= next')%N /\
  pinv d (log_call w false false cs next') t' (r :: R) /\ (sem_ok t -> sem_ok t') /\ (current t -> current t').
Proof.
  intros I Hpr. unfold dpw_encode_ub_change. rewrite (pv_sum _ _ _ _ I), (pv_in _ _ _ _ I). destruct (prepare_ub_range (total_weight m) r) as [lo hi] eqn:Er.
  destruct ((hi <=? lo)%nat || (length m <=? 1)%nat) eqn:Eg.
  - exists t, [], (w_next w). split; [auto|]. split; [lia|]. split; [|auto]. apply pinv_range; [now apply pinv_noop|]. rewrite Er. cbn [fst snd]. lia.
  - assert (K : exists t1 cs next1 st, match dp_struct t with None => do r <- dpw_build srt t (w_next w); let '(t1, next1) := r in Some (t1, [], next1) | Some _ => dpw_extend srt t (w_next w) end = Some (t1, cs, next1) /\
        dp_struct t1 = Some st /\ dp_in t1 = m /\ dp_prec t1 = d /\ dp_sum t1 = dp_sum t /\ (current t -> sr_prec st = d) /\ (w_next w <= next1)%N /\
        precision_ok d m /\ (forall e, In e (dp_queue t1) -> (fst e < d)%nat) /\ (sem_ok t -> sem_all (d_nodes (dp_db t1))) /\ good d w (dp_db t1) st (dp_queue t1) R next1 cs).
    { destruct (dp_struct t) as [st|] eqn:Es.
      - destruct (extend_case d w t R st I Es) as (t1 & cs & next1 & st' & E & E1 & E2 & E3 & E4 & E5 & E6 & E7 & E8 & G). pose proof (pv_struct _ _ _ _ I) as Ps. rewrite Es in Ps. destruct Ps as (_ & P1 & _).
        exists t1, cs, next1, st'. rewrite E. repeat (split; [solve [auto]|]). split; [intros C; apply E8; rewrite (C _ Es); apply I|]. repeat (split; [solve [auto]|]). split; [intros S; apply E7; eapply S; eauto|exact G].
      - assert (Hp : precision_ok d m) by (destruct (Hpr eq_refl); [auto|lia]).
        destruct (build_case d w t R I Es ltac:(lia) Hp) as (t1 & next1 & st & E & E1 & E2 & E3 & E4 & E5 & E6 & E7 & E8 & G). rewrite E. cbn [obind]. exists t1, [], next1, st. repeat (split; [solve [auto]|]). exact G. }
    destruct K as (t1 & cs & next1 & st & E & E1 & P1 & P2 & P3 & P4 & N1 & Pr & Lw & Sem & g & ow & wv & s & s0 & HP & V & L1 & L2 & M & Rd).
    rewrite E. cbn [obind]. rewrite E1. destruct (vl_shape _ _ _ _ _ V) as (root & rest & k & nb & A1 & A2 & A3 & A4 & _).
    unfold sr_root. rewrite A1. cbn [nth_error obind]. pose proof (md_built _ _ _ _ _ _ _ _ M) as B.
    set (W := (2 ^ sr_power st)%nat).
    destruct (outputs_ok (w_all wv) (w_ub wv) (gin g) g (range_incl (lo / W) ((hi - 1) / W)) root ow (mkTst (d_nodes (dp_db t1)) next1 cs) nb (proj1 B) (md_inv _ _ _ _ _ _ _ _ M) A2 A3) as (st' & ow' & E' & I' & X' & L').
    rewrite E'. cbn [obind].
    pose proof (finish w wv (dp_db t1) st g ow next1 cs ow' st' M I' X') as M'.
    assert (Hx : (next1 <= t_next st')%N) by exact (e_next _ _ _ _ X').
    eexists _, _, _. split; [reflexivity|]. split; [lia|]. destruct (pinv_log_lits d w t R (t_next st') (t_cls st') I ltac:(lia)) as (H1 & H2).
    split; [|split].
    2:{ intros Hsem sx _. cbn [dp_db set_nodes_db d_nodes]. eapply outputs_sem; [exact E'|]. cbn [t_nodes]. auto. }
    2:{ intros C sx Hsx. cbn [dp_struct dp_prec] in *. rewrite ?E1 in Hsx. injection Hsx as <-. rewrite P2. auto. }
    constructor; cbn [dp_in dp_struct dp_prec dp_sum dp_queue dp_db]; auto; try apply I.
    + rewrite P3. apply I.
    + rewrite ?E1. split; [lia|]. split; [auto|]. eexists g, ow', _, s, s0. split; [auto|]. split; [apply vals_skel; [exact (e_skel _ _ _ _ X')|exact V]|]. split; [auto|]. split; [auto|]. split; [exact M'|].
      cbn [set_nodes_db d_nodes].
      intros r' ub [<-|Hin] Hub Hlt; [|eapply (ready_ext _ _ _ _ _ _ _ _ _ _ Rd X'); eauto]. split; [exact Lw|]. intros Hc.
      intros root' rest' nb' Eb Hn Hmax. rewrite A1 in Eb. injection Eb as <- <-.
      destruct (node_same_skel _ (d_nodes (dp_db t1)) _ _ (eq_sym (e_skel _ _ _ _ X')) Hn) as (n' & Hn' & He). assert (n' = nb) as -> by congruence.
      apply L'.
      * apply in_range_incl. fold W. pose proof (ub_range_in _ _ _ Hub Hlt) as Hi. rewrite Er in Hi. cbn [fst snd] in Hi.
        assert (W <> 0)%nat by (unfold W; pose proof (pow2_pos (sr_power st)); lia).
        assert (Hu : (lo <= ub / 2 ^ shift st d <= hi - 1)%nat).
        { destruct Hc as [Hc|Hc].
          - assert (Z : shift st d = 0%nat) by (unfold shift; rewrite Hc; lia). rewrite Z. cbn [Nat.pow]. rewrite Nat.div_1_r. lia.
          - assert (lo = 0)%nat. { clear - Er Hc. unfold prepare_ub_range in Er. injection Er as E1 _. destruct Hc as (Hc & _). destruct (fst r); lia. }
            assert (ub / 2 ^ shift st d <= ub)%nat by (apply Nat.div_le_upper_bound; [apply Nat.pow_nonzero; lia|pose proof (pow2_pos (shift st d)); nia]). clear - H0 H3 Hi. generalize dependent (ub / 2 ^ shift st d)%nat. intros. lia. }
        split; apply Nat.div_le_mono; lia.
      * rewrite <- (node_max_val_erase nb), He, node_max_val_erase. exact Hmax.
Qed.

Lemma bad_precision d w t R op w' t' : pinv d w t R -> dp_struct t = None -> ~ precision_ok d m -> (2 <= length m)%nat -> dpw_op op -> step (dpw_enc srt t) w t op = Some (w', t') ->
  pinv d w' t' (ranges_after R op) /\ dp_struct t' = None.
Proof.
  assert (Ch : forall w t R r t' cs next', pinv d w t R -> dp_struct t = None -> ~ precision_ok d m -> (2 <= length m)%nat -> dpw_encode_ub_change srt t r (w_next w) = Some (t', cs, next') ->
    pinv d (log_call w false false cs next') t' (r :: R) /\ dp_struct t' = None).
  { clear - Hm Hsrt Hord. intros w t R r t' cs next' I Es Hb H2. unfold dpw_encode_ub_change. rewrite (pv_sum _ _ _ _ I), (pv_in _ _ _ _ I), Es. destruct (prepare_ub_range (total_weight m) r) as [lo hi] eqn:Er.
    destruct ((hi <=? lo)%nat || (length m <=? 1)%nat) eqn:Eg.
    - intros [= <- <- <-]. split; [|auto]. apply pinv_range; [now apply pinv_noop|]. rewrite Er. cbn [fst snd]. lia.
    - rewrite (build_bad d w t R I Es H2 Hb). discriminate. }
  intros I Es Hb H2 Hop. destruct op as [xs|k| |r|r|r|r|r]; cbn [dpw_op] in Hop; try tauto; cbn [step dpw_enc en_reserve en_ub en_ub_change encode_step ranges_after].
  - intros [= <- <-]. split; [now apply pinv_user|auto].
  - unfold dpw_reserve. rewrite (pv_in _ _ _ _ I). replace (length m <=? 1)%nat with false by lia. rewrite (build_bad d w t R I Es H2 Hb). discriminate.
  - unfold dpw_encode_ub. destruct (dpw_encode_ub_change srt (dpw_reset t) r (w_next w)) as [((t2 & cs) & n)|] eqn:E; [|discriminate]. intros [= <- <-].
    exact (Ch _ _ _ _ _ _ _ (pinv_reset _ _ _ _ I) Es Hb H2 E).
  - destruct (dpw_encode_ub_change srt t r (w_next w)) as [((t2 & cs) & n)|] eqn:E; [|discriminate]. intros [= <- <-]. eapply Ch; eauto.
Qed.

Lemma step_ok d w t R op : pinv d w t R -> (dp_struct t = None -> precision_ok d m \/ length m <= 1)%nat -> dpw_op op ->
  exists w' t', step (dpw_enc srt t) w t op = Some (w', t') /\ pinv d w' t' (ranges_after R op) /\ (w_next w <= w_next w')%N /\ (current t -> current t').
Proof.
  intros I Hpr Hop. destruct op as [xs|k| |r|r|r|r|r]; cbn [dpw_op] in Hop; try tauto; cbn [step dpw_enc en_reserve en_ub en_ub_change encode_step ranges_after].
  - eexists _, _. split; [reflexivity|]. split; [now apply pinv_user|]. split; [cbn [w_next]; lia|auto].
  - destruct (reserve_case d w t R I Hpr) as (t' & n' & E & Hn & I' & C). rewrite E. eexists _, _. split; [reflexivity|]. split; [auto|]. split; [cbn [log_call w_next]; lia|auto].
  - unfold dpw_encode_ub. destruct (change_case _ _ _ _ r (pinv_reset _ _ _ _ I) Hpr) as (t' & cs & n' & E & Hn & I' & _ & C). cbn [w_next] in E, Hn. rewrite E.
    eexists _, _. split; [reflexivity|]. split; [exact I'|]. split; [cbn [log_call w_next]; lia|]. intros C0. apply C. exact C0.
  - destruct (change_case _ _ _ _ r I Hpr) as (t' & cs & n' & E & Hn & I' & _ & C). rewrite E. eexists _, _. split; [reflexivity|]. split; [exact I'|]. split; [cbn [log_call w_next]; lia|auto].
Qed.

Lemma precision_dec d : {precision_ok d m} + {~ precision_ok d m}.
Proof.
  unfold precision_ok. destruct (le_dec d 1) as [H|H]; [left; auto|]. destruct (le_dec 2 (length m)) as [H2|H2]; [|right; intros [K|(K & _)]; auto].
  destruct (existsb (fun x => (d <=? snd x)%nat) m) eqn:E.
  - left. right. split; [auto|]. apply existsb_exists in E as (x & Hx & E). exists x. split; [auto|]. now apply Nat.leb_le.
  - right. intros [K|(_ & x & Hx & K)]; [auto|]. enough (true = false) by discriminate. rewrite <- E. symmetry. apply existsb_exists. exists x. split; [auto|]. now apply Nat.leb_le.
Qed.

Lemma step_inv d w t R op w' t' : pinv d w t R -> dpw_op op -> step (dpw_enc srt t) w t op = Some (w', t') -> pinv d w' t' (ranges_after R op) /\ (current t -> current t').
Proof.
  intros I Hop E.
  destruct (dp_struct t) as [st|] eqn:Es.
  - destruct (step_ok d w t R op I ltac:(congruence) Hop) as (w2 & t2 & E2 & I2 & _ & C2). rewrite E in E2. injection E2 as <- <-. auto.
  - destruct (precision_dec d) as [P|P].
    + destruct (step_ok d w t R op I ltac:(auto) Hop) as (w2 & t2 & E2 & I2 & _ & C2). rewrite E in E2. injection E2 as <- <-. auto.
    + destruct (le_dec (length m) 1) as [L|L].
      * destruct (step_ok d w t R op I ltac:(auto) Hop) as (w2 & t2 & E2 & I2 & _ & C2). rewrite E in E2. injection E2 as <- <-. auto.
      * destruct (bad_precision d w t R op w' t' I Es P ltac:(lia) Hop E) as (I2 & E2). split; [auto|]. intros _ sx Hsx. congruence.
Qed.
End Dpw.
