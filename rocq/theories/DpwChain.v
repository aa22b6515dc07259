(** * Re-evaluating a chain of bottom buckets whose lowest right connection has been redirected *)

From Coq Require Import List Bool NArith ZArith Lia Arith Sorted Permutation.
From Coq Require Import ZifyBool ZifyNat ZifyN.
From Verif Require Import Spec BoundSpec Types Atomics NodeDb TreeSpec TotDb Base TotDbInv TotDbUnit TotDbGeneral TotDbBuild TotDbGrow TotDbMerge Dpw DpwRef DpwBuild DpwBuckets DpwExtend.
Import ListNotations.

(** ** Ranks below the number of nodes *)
Definition crk (n : nat) (rk : nat -> nat) (id : nat) : nat := length (filter (fun j => rk j <? rk id)%nat (seq 0 n)).
Lemma filter_le {A} (p q : A -> bool) xs : (forall x, In x xs -> p x = true -> q x = true) -> (length (filter p xs) <= length (filter q xs))%nat.
Proof.
  induction xs as [|x xs IH]; intros H; cbn [filter]; [auto|]. specialize (IH (fun y Hy => H y (or_intror Hy))). specialize (H x (or_introl eq_refl)).
  destruct (p x); [rewrite (H eq_refl); cbn [length]; lia|]. destruct (q x); cbn [length]; lia.
Qed.
Lemma filter_strict {A} (p q : A -> bool) xs y : (forall x, In x xs -> p x = true -> q x = true) -> In y xs -> p y = false -> q y = true -> (length (filter p xs) < length (filter q xs))%nat.
Proof.
  induction xs as [|x xs IH]; intros H Hy P Q; [destruct Hy|]. cbn [filter]. pose proof (filter_le p q xs (fun y Hy => H y (or_intror Hy))) as L. destruct Hy as [->|Hy].
  - rewrite P, Q. cbn [length]. lia.
  - specialize (IH (fun y Hy => H y (or_intror Hy)) Hy P Q). specialize (H x (or_introl eq_refl)). destruct (p x); [rewrite (H eq_refl); cbn [length]; lia|]. destruct (q x); cbn [length]; lia.
Qed.
Lemma crk_mono n rk i j : (i < n)%nat -> (rk i < rk j)%nat -> (crk n rk i < crk n rk j)%nat.
Proof.
  intros Hi H. unfold crk. apply filter_strict with (y := i).
  - intros x _ Hx. apply Nat.ltb_lt in Hx. apply Nat.ltb_lt. lia.
  - apply in_seq. lia.
  - apply Nat.ltb_ge. lia.
  - apply Nat.ltb_lt. lia.
Qed.
Lemma crk_lt n rk j : (j < n)%nat -> (crk n rk j < n)%nat.
Proof.
  intros Hj. unfold crk. assert (Hl : length (filter (fun _ : nat => true) (seq 0 n)) = n).
  { transitivity (length (seq 0 n)); [|apply seq_length]. generalize (seq 0 n). intros xs. induction xs; cbn; auto. }
  rewrite <- Hl at 2. apply filter_strict with (y := j); auto; [apply in_seq; lia|apply Nat.ltb_ge; lia].
Qed.

(** ** Values along the chain; [z] is what the lowest bottom bucket receives from the right *)
Fixpoint chv (f : nodecon -> nat) (z : nat) (bc : list (nat * nodecon)) : nat :=
  match bc with [] => 0 | (_, c) :: bc' => f c + match bc' with [] => z | _ => chv f z bc' / 2 end end.
Fixpoint sufv (f : nodecon -> nat) (z : nat) (bc : list (nat * nodecon)) (id : nat) : nat :=
  match bc with [] => 0 | (b, _) :: bc' => if (b =? id)%nat then chv f z bc else sufv f z bc' id end.
Fixpoint sufl (bc : list (nat * nodecon)) (id : nat) : nat :=
  match bc with [] => 0 | (b, _) :: bc' => if (b =? id)%nat then length bc else sufl bc' id end.

Lemma suf_at pre b c bc' : NoDup (map fst (pre ++ (b, c) :: bc')) ->
  (forall f z, sufv f z (pre ++ (b, c) :: bc') b = chv f z ((b, c) :: bc')) /\ sufl (pre ++ (b, c) :: bc') b = S (length bc').
Proof.
  induction pre as [|(b0 & c0) pre IH]; cbn [app map fst]; intros ND.
  - split; [intros f z|]; cbn [sufv sufl]; rewrite Nat.eqb_refl; reflexivity.
  - apply NoDup_cons_iff in ND as (Nin & ND). destruct (IH ND) as (H1 & H2).
    assert (Hne : (b0 =? b)%nat = false). { apply Nat.eqb_neq. intros ->. apply Nin. rewrite map_app. apply in_or_app. right. now left. }
    split; [intros f z|]; cbn [sufv sufl]; rewrite Hne; auto.
Qed.

Lemma chain_at ns pre b c bc' rl : chain ns (pre ++ (b, c) :: bc') rl ->
  (exists lits, nth_error ns b = Some (NUnit lits c (match bc' with (b', _) :: _ => half b' | [] => rl end))) /\ chain ns bc' rl.
Proof.
  induction pre as [|(b0 & c0) pre IH]; [cbn [app chain]; auto|]. intros H. cbn [app chain] in H. destruct H as (_ & H). auto.
Qed.

Lemma chv_ext f h z bc : (forall x, In x bc -> f (snd x) = h (snd x)) -> chv f z bc = chv h z bc.
Proof.
  induction bc as [|(b & c) bc IH]; intros H; cbn [chv]; [reflexivity|]. rewrite IH by (intros; apply H; now right). specialize (H (b, c) (or_introl eq_refl)). cbn [snd] in H. now rewrite H.
Qed.

Lemma map_fst_split (bc : list (nat * nodecon)) b : In b (map fst bc) -> exists pre c bc', bc = pre ++ (b, c) :: bc'.
Proof. intros H. apply in_map_iff in H as ((b' & c) & E & H). cbn [fst] in E. subst b'. apply in_split in H as (pre & bc' & ->). eauto. Qed.

Section Re.
Variables (ns ns' : list node) (g : ghost) (bc : list (nat * nodecon)) (rl : nodecon).
Notation bs := (map fst bc).
Hypothesis W : wf_shape ns g.
Hypothesis ND : NoDup bs.
Hypothesis HR : nref bs ns.
Hypothesis Hlen : length ns' = length ns.
Hypothesis Hsame : forall j, ~ In j bs -> nth_error ns' j = nth_error ns j.
Hypothesis Hch : chain ns' bc rl.
Hypothesis Hc : Forall (fun x => ucon ns (snd x) /\ outside bs (snd x)) bc.
Hypothesis Hrl : con_params rl /\ nc_mult rl = 1%nat /\ ~ In (nc_id rl) bs /\
  exists n, nth_error ns (nc_id rl) = Some n /\ is_general n = false /\ (nc_offset rl <= node_len n)%nat.
Hypothesis Hlens : forall b c lits r, In (b, c) bc -> nth_error ns' b = Some (NUnit lits c r) ->
  exists ll lr, con_len ns' c = Some ll /\ con_len ns' r = Some lr /\ length lits = (ll + lr)%nat.

Definition rz (a : asg) : nat := nc_map rl (gV g a (nc_id rl)).
Definition rV (a : asg) (id : nat) : nat := if in_dec Nat.eq_dec id bs then sufv (cval g a) (rz a) bc id else gV g a id.
Definition rT (a : asg) (id v : nat) : Prop := if in_dec Nat.eq_dec id bs then (v <= rV a id)%nat else gT g a id v.
Definition rk0 (id : nat) : nat := if in_dec Nat.eq_dec id bs then (length ns + sufl bc id)%nat else grk g id.
Definition rg : ghost := mkGhost rV rT (gin g) (crk (length ns) rk0).

Lemma rV_out a id : ~ In id bs -> rV a id = gV g a id.
Proof. intros H. unfold rV. destruct (in_dec _ _ _); [contradiction|reflexivity]. Qed.
Lemma rT_out a id v : ~ In id bs -> rT a id v <-> gT g a id v.
Proof. intros H. unfold rT. destruct (in_dec _ _ _); [contradiction|reflexivity]. Qed.
Lemma rV_in a pre b c bc' : bc = pre ++ (b, c) :: bc' -> rV a b = chv (cval g a) (rz a) ((b, c) :: bc').
Proof.
  intros E. unfold rV. destruct (in_dec _ _ _) as [_|n]; [|exfalso; apply n; rewrite E, map_app; apply in_or_app; right; now left].
  rewrite E in ND |- *. now apply suf_at.
Qed.
Lemma rT_in a b v : In b bs -> rT a b v <-> (v <= rV a b)%nat.
Proof. intros H. unfold rT. destruct (in_dec _ _ _); [reflexivity|contradiction]. Qed.
Lemma rk_out id : ~ In id bs -> rk0 id = grk g id.
Proof. intros H. unfold rk0. destruct (in_dec _ _ _); [contradiction|reflexivity]. Qed.
Lemma rk_in pre b c bc' : bc = pre ++ (b, c) :: bc' -> rk0 b = (length ns + S (length bc'))%nat.
Proof.
  intros E. unfold rk0. destruct (in_dec _ _ _) as [_|n]; [|exfalso; apply n; rewrite E, map_app; apply in_or_app; right; now left].
  f_equal. rewrite E in ND |- *. now apply suf_at.
Qed.

Lemma con_len_out c : ~ In (nc_id c) bs -> con_len ns' c = con_len ns c.
Proof. intros H. unfold con_len. now rewrite Hsame. Qed.
Lemma con_ok_out c : ~ In (nc_id c) bs -> con_ok ns c -> con_ok ns' c.
Proof. intros H (P & n & E & L). split; [auto|]. exists n. split; [now rewrite Hsame|auto]. Qed.

Lemma left_facts b c : In (b, c) bc -> ucon ns c /\ ~ In (nc_id c) bs.
Proof. intros H. rewrite Forall_forall in Hc. exact (Hc (b, c) H). Qed.

Lemma cval_le a b c ll : In (b, c) bc -> con_len ns' c = Some ll -> (cval g a c <= ll)%nat.
Proof.
  intros Hin El. destruct (left_facts b c Hin) as (U & O). rewrite con_len_out in El by auto.
  destruct U as (G & M & n & En & Un). pose proof (con_good_ok _ _ G) as (P & _). unfold cval. eapply unit_con_le; eauto.
  pose proof (wf_max _ _ W a _ _ En) as H. destruct n; cbn in Un; try tauto; exact H.
Qed.

Lemma rz_le a lr : con_len ns' rl = Some lr -> (rz a <= lr)%nat.
Proof.
  intros El. destruct Hrl as (P & M & O & n & En & Gn & _). rewrite con_len_out in El by auto. unfold rz. eapply unit_con_le; eauto.
  pose proof (wf_max _ _ W a _ _ En) as H. destruct n; try discriminate; exact H.
Qed.

Lemma chv_le a : forall bc' pre b c lits r, bc = pre ++ (b, c) :: bc' -> nth_error ns' b = Some (NUnit lits c r) -> (chv (cval g a) (rz a) ((b, c) :: bc') <= length lits)%nat.
Proof.
  induction bc' as [|(b' & c') bc' IH]; intros pre b c lits r E Hn.
  - assert (Hin : In (b, c) bc) by (rewrite E; apply in_or_app; right; now left).
    pose proof Hch as Hch'. rewrite E in Hch'. apply chain_at in Hch' as ((lits0 & Hn0) & _). rewrite Hn in Hn0. injection Hn0 as _ ->.
    destruct (Hlens _ _ _ _ Hin Hn) as (ll & lr & E1 & E2 & ->). cbn [chv]. pose proof (cval_le a _ _ _ Hin E1). pose proof (rz_le a _ E2). lia.
  - assert (Hin : In (b, c) bc) by (rewrite E; apply in_or_app; right; now left).
    pose proof Hch as Hch'. rewrite E in Hch'. apply chain_at in Hch' as ((lits0 & Hn0) & Hch'). rewrite Hn in Hn0. injection Hn0 as _ ->.
    apply (chain_at ns' [] b' c' bc' rl) in Hch' as ((lits1 & Hn1) & _).
    destruct (Hlens _ _ _ _ Hin Hn) as (ll & lr & E1 & E2 & ->). pose proof (cval_le a _ _ _ Hin E1).
    specialize (IH (pre ++ [(b, c)]) b' c' lits1 _ ltac:(rewrite E, <- app_assoc; reflexivity) Hn1).
    rewrite (half_len _ _ _ Hn1) in E2. injection E2 as <-. cbn [node_len].
    change (chv (cval g a) (rz a) ((b, c) :: (b', c') :: bc')) with (cval g a c + chv (cval g a) (rz a) ((b', c') :: bc') / 2)%nat.
    pose proof (Nat.div_le_mono _ _ 2 ltac:(lia) IH). lia.
Qed.

Lemma rechain : wf_shape ns' rg.
Proof.
  assert (Hlt : forall c, con_ok ns c -> (nc_id c < length ns)%nat) by (intros c (_ & n & E & _); eapply nth_error_lt; eauto).
  constructor; cbn [rg gV gT gin grk].
  - intros id n Hn. destruct (in_dec Nat.eq_dec id bs) as [Hin|Hout].
    + apply map_fst_split in Hin as (pre & c & bc' & E).
      assert (Hin : In (id, c) bc) by (rewrite E; apply in_or_app; right; now left).
      assert (Hib : In id bs) by (apply in_map_iff; exists (id, c); auto).
      destruct (left_facts _ _ Hin) as (U & O). pose proof Hch as Hch'. rewrite E in Hch'. apply chain_at in Hch' as ((lits & Hn0) & Hch'). rewrite Hn in Hn0. injection Hn0 as ->.
      destruct (Hlens _ _ _ _ Hin Hn) as (ll & lr & E1 & E2 & E3).
      assert (U' := U). destruct U' as (G & M & nl & Enl & Ul). pose proof (con_good_ok _ _ G) as Pl.
      assert (Lrk : (crk (length ns) rk0 (nc_id c) < crk (length ns) rk0 id)%nat).
      { apply crk_mono; [now apply Hlt|]. rewrite (rk_out (nc_id c)), (rk_in _ _ _ _ E) by auto. pose proof (wf_rk _ _ W _ (Hlt _ Pl)). lia. }
      assert (Dl : is_dummy nl = false) by (destruct nl; cbn in Ul |- *; tauto). assert (Gl : is_general nl = false) by (destruct nl; cbn in Ul |- *; tauto).
      assert (Right : forall r, r = match bc' with (b', _) :: _ => half b' | [] => rl end ->
        con_ok ns' r /\ nc_mult r = 1%nat /\ (crk (length ns) rk0 (nc_id r) < crk (length ns) rk0 id)%nat /\
        (exists nr, nth_error ns' (nc_id r) = Some nr /\ is_general nr = false) /\ forall a, nc_map r (rV a (nc_id r)) = match bc' with [] => rz a | _ => (chv (cval g a) (rz a) bc' / 2)%nat end).
      { intros r ->. destruct bc' as [|(b' & c') bc'].
        - destruct Hrl as (P & Mr & Or & nr & Er & Gr & Lr). assert (Pr : con_ok ns rl) by (split; [auto|]; eauto).
          split; [now apply con_ok_out|]. split; [auto|]. split; [|split; [exists nr; split; [now rewrite Hsame|auto]|intros a; now rewrite rV_out]].
          apply crk_mono; [now apply Hlt|]. rewrite (rk_out (nc_id rl)), (rk_in _ _ _ _ E) by auto. pose proof (wf_rk _ _ W _ (Hlt _ Pr)). lia.
        - apply (chain_at ns' [] b' c' bc' rl) in Hch' as ((lits1 & Hn1) & _).
          assert (E' : bc = (pre ++ [(id, c)]) ++ (b', c') :: bc') by (rewrite E, <- app_assoc; reflexivity).
          split; [split; [unfold con_params, half; cbn; lia|]; eexists; split; [exact Hn1|cbn; lia]|]. split; [reflexivity|]. split; [|split; [eexists; split; [exact Hn1|reflexivity]|]].
          + cbn [half nc_id]. apply crk_mono; [rewrite <- Hlen; eapply nth_error_lt; eauto|]. rewrite (rk_in _ _ _ _ E), (rk_in _ _ _ _ E'). cbn [length]. lia.
          + intros a. rewrite half_map. cbn [half nc_id]. now rewrite (rV_in a _ _ _ _ E'). }
      destruct (Right _ eq_refl) as (R1 & R2 & R3 & (nr & R4 & R5) & R6). set (r := match bc' with (b', _) :: _ => half b' | [] => rl end) in *.
      cbn [node_ok]. split; [now apply con_ok_out|]. split; [exact R1|]. split; [exact M|]. split; [exact R2|]. split; [exact Lrk|]. split; [exact R3|].
      split. { exists nl, nr. split; [now rewrite Hsame|]. split; [auto|]. split; [auto|]. split; [auto|]. now left. }
      split; [exists ll, lr; auto|]. split; [|intros a v; now apply rT_in].
      intros a. cbn [rg gV]. rewrite (rV_in a _ _ _ _ E), R6, rV_out by auto. reflexivity.
    + rewrite Hsame in Hn by auto. pose proof (wf_node _ _ W _ _ Hn) as N.
      assert (Lrk : forall c, ~ In (nc_id c) bs -> con_ok ns c -> (grk g (nc_id c) < grk g id)%nat -> (crk (length ns) rk0 (nc_id c) < crk (length ns) rk0 id)%nat).
      { intros c O P L. apply crk_mono; [now apply Hlt|]. now rewrite !rk_out by auto. }
      destruct n as [l|lits l r|lits m l r|]; cbn [node_ok rg gV gT gin grk] in *.
      * destruct N as (N1 & N2 & N3). split; [auto|]. split; [intros a; rewrite rV_out; auto|]. intros a v. rewrite rT_out, rV_out by auto. apply N3.
      * destruct (HR _ _ _ _ Hn eq_refl Hout) as (O1 & O2). destruct N as (P1 & P2 & M1 & M2 & K1 & K2 & (nl & nr & E1 & E2 & X) & (ll & lr & L1 & L2 & L3) & NV & NT).
        split; [now apply con_ok_out|]. split; [now apply con_ok_out|]. split; [auto|]. split; [auto|]. split; [auto|]. split; [auto|].
        split; [exists nl, nr; rewrite !Hsame by auto; auto|]. split; [exists ll, lr; rewrite !con_len_out by auto; auto|].
        split; [intros a; rewrite !rV_out by auto; auto|]. intros a v. rewrite rT_out, rV_out by auto. apply NT.
      * destruct (HR _ _ _ _ Hn eq_refl Hout) as (O1 & O2). destruct N as (P1 & P2 & M1 & M2 & K1 & K2 & (nl & nr & E1 & E2 & X) & L & NV & NT & N5).
        split; [now apply con_ok_out|]. split; [now apply con_ok_out|]. split; [auto|]. split; [auto|]. split; [auto|]. split; [auto|].
        split; [exists nl, nr; rewrite !Hsame by auto; auto|]. split; [auto|].
        split; [intros a; rewrite !rV_out by auto; auto|].
        split; [intros a v; rewrite rT_out, NT by auto; split; intros (vl & vr & A1 & A2 & A3); exists vl, vr; rewrite !rT_out in * by auto; auto|].
        destruct N5 as (N5 & N6 & N7 & N8). split; [|split; [auto|split; [auto|]]]; [intros a v; rewrite rT_out by auto; apply N5|].
        intros v Hv. destruct (N8 v Hv) as (xl & xr & F1 & F2 & F). exists xl, xr. rewrite !Hsame by auto. auto.
      * destruct N as (N1 & N2). split; [intros a; rewrite rV_out; auto|]. intros a v. rewrite rT_out by auto. apply N2.
  - intros id. rewrite Hlen. apply crk_lt.
  - intros a a' Ha id Hid. rewrite Hlen in Hid. unfold rV. destruct (in_dec _ _ _) as [Hin|Hout]; [|eapply wf_indep; eauto].
    assert (Ec : forall b c, In (b, c) bc -> cval g a c = cval g a' c).
    { intros b c H. unfold cval. f_equal. eapply wf_indep; [exact W|auto|]. apply left_facts in H as (U & _). eapply ucon_lt; eauto. }
    assert (Ez : rz a = rz a').
    { unfold rz. f_equal. eapply wf_indep; [exact W|auto|]. destruct Hrl as (_ & _ & _ & n & E & _). eapply nth_error_lt; eauto. }
    rewrite Ez. clear - Ec. induction bc as [|(b & c) bc' IH]; [reflexivity|]. cbn [sufv]. destruct (b =? id)%nat.
    + apply chv_ext. intros (b' & c') Hx. cbn [snd]. eapply Ec; eauto.
    + apply IH. intros b' c' H. eapply Ec. right. eauto.
  - intros a id n Hn. destruct (in_dec Nat.eq_dec id bs) as [Hin|Hout].
    + apply map_fst_split in Hin as (pre & c & bc' & E). rewrite (rV_in a _ _ _ _ E).
      pose proof Hch as Hch'. rewrite E in Hch'. apply chain_at in Hch' as ((lits & Hn0) & _). rewrite Hn in Hn0. injection Hn0 as ->. cbn [node_max_val]. eapply chv_le; eauto.
    + rewrite rV_out by auto. rewrite Hsame in Hn by auto. eapply wf_max; eauto.
  - intros a id v Hid HT. rewrite Hlen in Hid. destruct (in_dec Nat.eq_dec id bs) as [Hin|Hout].
    + now apply rT_in.
    + rewrite rV_out by auto. apply rT_out in HT; auto. eapply wf_T; eauto.
  - intros a id Hid. rewrite Hlen in Hid. destruct (in_dec Nat.eq_dec id bs) as [Hin|Hout].
    + apply rT_in; [auto|lia].
    + apply rT_out; auto. eapply wf_T0; eauto.
  - intros a id Hid. rewrite Hlen in Hid. destruct (in_dec Nat.eq_dec id bs) as [Hin|Hout].
    + now apply rT_in.
    + rewrite rV_out by auto. apply rT_out; auto. eapply wf_TV; eauto.
Qed.
End Re.
