(** * Output literals of the dynamic polynomial watchdog and what they stand for *)

From Coq Require Import List Bool NArith ZArith Lia Arith Sorted Permutation.
From Coq Require Import ZifyBool ZifyNat ZifyN.
From Verif Require Import Spec BoundSpec Types Atomics NodeDb TreeSpec TotDb Totalizer Maps Base TotDbInv TotDbUnit TotDbDefine TotDbGeneral TotDbBuild TotDbGrow TotDbMerge TotWeighted TotDbHist TotalizerProofs DbWorld Dpw DpwSpec DpwRef DpwBuild DpwBuckets DpwStruct.
Import ListNotations.

(** ** Output literals *)
Definition lit_at (ns : list node) (id val : nat) (l : lit) : Prop :=
  (nth_error ns id = Some (NLeaf l) /\ val = 1%nat) \/ exists s, data ns id val = Some (LLit l s).

Lemma lit_has_at ns id val sem l : lit_has ns id val sem l -> lit_at ns id val l.
Proof. intros [H|(s & H & _)]; [left; auto|right; eauto]. Qed.
Lemma lit_at_fun ns id val l l' : lit_at ns id val l -> lit_at ns id val l' -> l = l'.
Proof.
  intros [(H & _)|(s & H)] [(H' & _)|(s' & H')]; unfold data in *; try congruence.
  - rewrite H in H'. discriminate.
  - rewrite H' in H. discriminate.
Qed.

Lemma node_lit_at ns id n v : nth_error ns id = Some n -> is_unitlike n -> (1 <= v <= node_max_val n)%nat ->
  (exists l, node_lit n v = Some (Some l) /\ lit_at ns id v l) \/ (node_lit n v = Some None /\ forall l, ~ lit_at ns id v l).
Proof.
  intros Hn U Hv. destruct n as [l|lits l r|?|]; cbn in U; try tauto; cbn [node_max_val node_lit] in *.
  - left. exists l. replace v with 1%nat by lia. split; [reflexivity|]. left. auto.
  - destruct (nth_error lits (v - 1)) as [dat|] eqn:E; [|apply nth_error_None in E; lia]. cbn [obind].
    assert (D : data ns id v = Some dat) by (unfold data; rewrite Hn; cbn [node_data]; replace (v =? 0)%nat with false by lia; auto).
    destruct dat as [|x s]; cbn [ld_lit].
    + right. split; [reflexivity|]. intros x [(H & _)|(s & H)]; congruence.
    + left. exists x. split; [reflexivity|]. right. eauto.
Qed.

Lemma lit_at_canon {A} (ilit : A -> lit) w d g ow a id val l : dinv ilit w d g ow -> canon g ow a -> lit_at (d_nodes d) id val l -> lit_true a l = (val <=? gV g a id)%nat.
Proof.
  intros I C [(Hn & ->)|(s & Hd)].
  - apply nth_skel in Hn. apply (wf_node _ _ (proj1 (di_built _ _ _ _ _ I))) in Hn. cbn in Hn. destruct Hn as (_ & HV & _). rewrite HV. destruct (lit_true a l); reflexivity.
  - destruct (i_own _ _ _ _ _ _ (di_inv _ _ _ _ _ I) _ _ _ _ Hd) as (v & -> & Ho). unfold lit_true, pos; cbn. rewrite (C _ _ _ Ho). now destruct (_ <=? _)%nat.
Qed.

(** every output that has a literal enforces it *)
Definition sem_all (ns : list node) : Prop := forall id val l sem, data ns id val = Some (LLit l sem) -> sem_le_if sem = true.

Lemma sem_upd ns ns' id val l sem : upd_data ns id val (LLit l sem) ns' -> sem_le_if sem = true -> sem_all ns -> sem_all ns'.
Proof.
  intros (_ & U1 & U2 & _) Hs H i v l' s' Hd. destruct (Nat.eq_dec i id) as [->|Hi]; [destruct (Nat.eq_dec v val) as [->|Hv]|].
  - rewrite U1 in Hd. injection Hd as <- <-. exact Hs.
  - rewrite U2 in Hd by auto. eapply H; eauto.
  - rewrite U2 in Hd by auto. eapply H; eauto.
Qed.

(** taking the literal of an output and marking it *)
Lemma olit_mark_sem st id idx ol st2 : get_olit st id idx = Some (ol, st2) -> forall st3 st4, t_nodes st3 = t_nodes st2 -> mark_unit st3 id idx SIf = Some st4 ->
  sem_all (t_nodes st) -> sem_all (t_nodes st4).
Proof.
  unfold get_olit. destruct (nth_error (t_nodes st) id) as [n|] eqn:En; [|discriminate]. cbn [obind]. destruct n as [|lits l r|? ? ? ?|]; try discriminate.
  destruct (nth_error lits idx) as [dat|] eqn:Ed; [|discriminate]. cbn [obind].
  assert (D : data (t_nodes st) id (idx + 1) = Some dat) by (unfold data; rewrite En; cbn [node_data]; replace (idx + 1 =? 0)%nat with false by lia; replace (idx + 1 - 1)%nat with idx by lia; auto).
  intros Hg st3 st4 E3 Hm Hs. unfold mark_unit in Hm. rewrite E3 in Hm. destruct dat as [|x os]; injection Hg as <- <-; cbn [t_nodes] in *.
  - rewrite nth_error_upd, Nat.eqb_refl, En in Hm. cbn [obind] in Hm. rewrite nth_error_upd, Nat.eqb_refl, Ed in Hm. cbn [obind ld_add] in Hm. injection Hm as <-. cbn [set_nodes t_nodes].
    intros i v l' s' Hd. destruct (Nat.eq_dec i id) as [->|Hi]; [destruct (Nat.eq_dec v (idx + 1)) as [->|Hv]|].
    + unfold data in Hd. rewrite nth_error_upd, Nat.eqb_refl in Hd. rewrite nth_error_upd, Nat.eqb_refl, En in Hd. cbn [node_data] in Hd.
      replace (idx + 1 =? 0)%nat with false in Hd by lia. replace (idx + 1 - 1)%nat with idx in Hd by lia. rewrite nth_error_upd, Nat.eqb_refl in Hd.
      rewrite nth_error_upd, Nat.eqb_refl, Ed in Hd. injection Hd as <- <-. reflexivity.
    + apply (Hs id v l' s'). unfold data in *. rewrite nth_error_upd, Nat.eqb_refl in Hd. rewrite nth_error_upd, Nat.eqb_refl, En in Hd. rewrite En. cbn [node_data] in *.
      destruct (Nat.eqb_spec v 0); [discriminate|]. rewrite !nth_error_upd in Hd. destruct (Nat.eqb_spec idx (v - 1)); [lia|]. exact Hd.
    + apply (Hs i v l' s'). unfold data in *. rewrite !nth_error_upd in Hd. destruct (Nat.eqb_spec id i); [congruence|]. exact Hd.
  - rewrite En in Hm. cbn [obind] in Hm. rewrite Ed in Hm. cbn [obind] in Hm. destruct (ld_add (LLit x os) SIf) as [d'|] eqn:Ea; [|discriminate]. cbn [obind] in Hm. injection Hm as <-. cbn [set_nodes t_nodes].
    pose proof (upd_data_unit (t_nodes st) id lits l r idx d' _ En Ed) as U. rewrite ?E3.
    destruct os as [[]|]; cbn [ld_add sem_add] in Ea; injection Ea as <-; (eapply sem_upd; [exact U| |exact Hs]); reflexivity.
Qed.

Lemma define_sem : forall fuel st id idx l st', define_unweighted fuel st id idx SIf = Some (l, st') -> sem_all (t_nodes st) -> sem_all (t_nodes st').
Proof.
  induction fuel as [|f IH]; intros st id idx l st'; cbn [define_unweighted]; [discriminate|].
  destruct (precond_unweighted (t_nodes st) id idx SIf) as [[x|pre|con]|] eqn:Ep; cbn [obind]; try discriminate.
  - intros [= _ <-]. auto.
  - destruct (recurse_calls (t_nodes st) pre) as [calls|] eqn:Ec; [|discriminate]. cbn [obind].
    assert (Hsm : forall c, In c calls -> snd c = SIf).
    { assert (Ho : u_left_only_if pre = [] /\ u_right_only_if pre = []).
      { unfold precond_unweighted in Ep. destruct (nth_error (t_nodes st) id) as [n|]; [|discriminate]. cbn [obind] in Ep. destruct (assertb _); [|discriminate]. cbn [obind] in Ep.
        destruct n as [y|lits lc rc|? ? ? ?|]; try discriminate.
        - destruct (assertb _); discriminate.
        - destruct (nth_error (t_nodes st) (nc_id lc)) as [ln|]; [|discriminate]. cbn [obind] in Ep. destruct (nth_error (t_nodes st) (nc_id rc)) as [rn|]; [|discriminate]. cbn [obind] in Ep.
          destruct (assertb _); [|discriminate]. cbn [obind] in Ep. destruct (assertb _); [|discriminate]. cbn [obind] in Ep. destruct (nth_error lits idx) as [dat|]; [|discriminate]. cbn [obind] in Ep.
          destruct (ld_missing dat SIf) as [new|] eqn:Em; [|destruct dat; discriminate].
          assert (new = SIf) as -> by (destruct dat as [|? [[]|]]; cbn in Em; congruence).
          destruct (_ || _); [destruct (assertb _); discriminate|].
          destruct (con_len _ lc) as [ll|]; [|discriminate]. cbn [obind] in Ep. destruct (con_len _ rc) as [lr|]; [|discriminate]. cbn [obind has_if has_only_if] in Ep. injection Ep as <-. auto. }
      destruct Ho as (O1 & O2). unfold recurse_calls in Ec. destruct (con_len _ _); [|discriminate]. cbn [obind] in Ec. destruct (con_len _ _); [|discriminate]. cbn [obind] in Ec.
      rewrite O1, O2 in Ec. cbn [filter map] in Ec. injection Ec as <-. intros c Hc. rewrite !app_nil_r in Hc. apply in_app_or in Hc as [Hc|Hc]; apply in_map_iff in Hc as (v & <- & _); reflexivity. }
    destruct (foldM _ calls st) as [st1|] eqn:Ef; [|discriminate]. cbn [obind].
    assert (F : sem_all (t_nodes st) -> sem_all (t_nodes st1)).
    { clear Ep Ec. revert st Ef. induction calls as [|((i & x) & sm) calls IHc]; intros st; cbn [foldM].
      - intros [= <-]. auto.
      - specialize (Hsm _ (or_introl eq_refl)) as Hh. cbn [snd] in Hh. subst sm. destruct (define_unweighted f st i x SIf) as [(y & st0)|] eqn:E0; [|discriminate]. cbn [obind snd].
        intros Ef Hs. eapply IHc; [intros c Hc; apply Hsm; now right|exact Ef|]. eapply IH; eauto. }
    destruct (get_olit st1 id idx) as [(ol & st2)|] eqn:Eg; [|discriminate]. cbn [obind]. unfold encode_unweighted.
    destruct (nth_error (t_nodes st2) id); [|discriminate]. cbn [obind]. destruct (match n with NUnit _ _ _ => _ | _ => _ end); [|discriminate]. cbn [obind].
    destruct (ld_missing l0 SIf); [|discriminate]. cbn [obind]. destruct (mark_unit st2 id idx SIf) as [st3|] eqn:Em; [|discriminate]. cbn [obind].
    destruct (lit_slice _ _); [|discriminate]. cbn [obind]. destruct (lit_slice _ _); [|discriminate]. cbn [obind]. destruct (con_len _ _); [|discriminate]. cbn [obind]. destruct (con_len _ _); [|discriminate]. cbn [obind].
    destruct (mapM _ _); [|discriminate]. cbn [obind]. destruct (mapM _ _); [|discriminate]. cbn [obind].
    intros [= _ <-] Hs. cbn [emit t_nodes]. eapply olit_mark_sem; eauto.
  - destruct (define_unweighted f st (nc_id con) (con_idx idx con) SIf) as [(il & st1)|] eqn:E1; [|discriminate]. cbn [obind].
    destruct (get_olit st1 id idx) as [(ol & st2)|] eqn:Eg; [|discriminate]. cbn [obind].
    destruct (mark_unit _ id idx SIf) as [st3|] eqn:Em; [|discriminate]. cbn [obind]. intros [= _ <-] Hs. eapply olit_mark_sem; [exact Eg| |exact Em|eauto]. reflexivity.
Qed.

Lemma outputs_sem root idxs : forall st st', foldM (encode_output root) idxs st = Some st' -> sem_all (t_nodes st) -> sem_all (t_nodes st').
Proof.
  induction idxs as [|i idxs IH]; intros st st'; cbn [foldM]; [intros [= <-]; auto|].
  destruct (encode_output root st i) as [st1|] eqn:E; [|discriminate]. cbn [obind]. intros Ef Hs. eapply IH; [exact Ef|].
  unfold encode_output in E. destruct (nth_error (t_nodes st) root); [|discriminate]. cbn [obind] in E. destruct (_ <=? _)%nat; [injection E as <-; auto|].
  destruct (define_unweighted _ st root i SIf) as [(l & st2)|] eqn:Ed; [|discriminate]. cbn [obind snd] in E. injection E as <-. eapply define_sem; eauto.
Qed.

(** ** Growing and merging *)
Lemma growd_sem vs d g d' g' : growd vs d g d' g' -> sem_all (d_nodes d) -> sem_all (d_nodes d').
Proof. intros ((new & En & Fn) & _) H id val l sem Hd. rewrite En in Hd. apply data_newd in Hd as (_ & Hd); [|auto]. eapply H; eauto. Qed.

(** all literals of [ns'] are in [ns] *)
Definition data_sub (ns ns' : list node) : Prop := forall id val l sem, data ns' id val = Some (LLit l sem) -> data ns id val = Some (LLit l sem).
Lemma data_sub_sem ns ns' : data_sub ns ns' -> sem_all ns -> sem_all ns'.
Proof. intros H S id val l sem Hd. apply H in Hd. eapply S; eauto. Qed.
Lemma data_sub_trans a b c : data_sub a b -> data_sub b c -> data_sub a c.
Proof. intros H1 H2 id val l sem Hd. apply H1, H2, Hd. Qed.

Lemma data_sub_app ns n : (forall v l s, node_data n v <> Some (LLit l s)) -> data_sub ns (ns ++ [n]).
Proof. intros H id val l sem Hd. apply data_newd in Hd as (_ & Hd); [auto|]. constructor; auto. Qed.

Lemma patch_sub ns id con ns' : patch_right ns id con = Some ns' -> data_sub ns ns'.
Proof.
  unfold patch_right. destruct (nth_error ns id) as [n|] eqn:E; [|discriminate]. cbn [obind]. destruct n as [|lits l r|? ? ? ?|]; try discriminate.
  destruct (nth_error ns (nc_id r)); [|discriminate]. cbn [obind]. destruct (assertb _); [|discriminate]. cbn [obind]. intros [= <-] i v x s. unfold data. rewrite !nth_error_upd.
  destruct (Nat.eqb_spec id i) as [<-|]; [|auto]. rewrite E. auto.
Qed.


Lemma foldM_sem {A} (f : tst -> A -> option tst) : (forall st x st', f st x = Some st' -> sem_all (t_nodes st) -> sem_all (t_nodes st')) ->
  forall xs st st', foldM f xs st = Some st' -> sem_all (t_nodes st) -> sem_all (t_nodes st').
Proof.
  intros H xs. induction xs as [|x xs IH]; intros st st'; cbn [foldM]; [intros [= <-]; auto|].
  destruct (f st x) as [st1|] eqn:E; [|discriminate]. cbn [obind]. intros Ef Hs. eapply IH; [exact Ef|]. eapply H; eauto.
Qed.

Lemma extend_clause_sem lc rc ol v st x st' : extend_clause lc rc ol v st x = Some st' -> sem_all (t_nodes st) -> sem_all (t_nodes st').
Proof.
  unfold extend_clause. destruct (assertb _); [|discriminate]. cbn [obind]. destruct (nc_is_possible _ _); [|intros [= <-]; auto].
  destruct (assertb _); [|discriminate]. cbn [obind]. destruct (define_unweighted _ st _ _ _) as [(rl & s1)|] eqn:E1; [|discriminate]. cbn [obind].
  destruct (_ =? 0)%nat; [intros [= <-] Hs; cbn [emit t_nodes]; eapply define_sem; eauto|]. destruct (assertb _); [|discriminate]. cbn [obind].
  destruct (define_unweighted _ s1 _ _ _) as [(ll & s2)|] eqn:E2; [|discriminate]. cbn [obind]. intros [= <-] Hs. cbn [emit t_nodes]. eapply define_sem; [exact E2|]. eapply define_sem; eauto.
Qed.

Lemma resize_sub ns id lits l r k : nth_error ns id = Some (NUnit lits l r) -> data_sub ns (upd id (NUnit (lits ++ repeat LNone k) l r) ns).
Proof.
  intros E i v x s. unfold data. rewrite nth_error_upd. destruct (Nat.eqb_spec id i) as [<-|]; [|auto]. rewrite E. cbn [node_data].
  destruct (v =? 0)%nat; [discriminate|]. intros H. destruct (Nat.lt_ge_cases (v - 1) (length lits)) as [L|L]; [rewrite nth_error_app1 in H by auto; exact H|].
  rewrite nth_error_app2 in H by auto. apply nth_error_In, repeat_spec in H. discriminate.
Qed.

Lemma extend_bottom_sem s b s' : extend_bottom s b = Some s' -> sem_all (t_nodes (fst s)) -> sem_all (t_nodes (fst s')).
Proof.
  destruct s as (st & orm). unfold extend_bottom. destruct (nth_error (t_nodes st) b) as [n|] eqn:En; [|discriminate]. cbn [obind]. destruct n as [|lits lc rc|? ? ? ?|]; try discriminate.
  destruct (con_len _ rc) as [rm|]; [|discriminate]. cbn [obind]. destruct (con_len _ lc) as [lm|]; [|discriminate]. cbn [obind]. destruct (assertb _); [|discriminate]. cbn [obind].
  destruct (foldM _ _ st) as [st1|] eqn:Ef; [|discriminate]. cbn [obind]. destruct (nth_error (t_nodes st1) b) as [n1|] eqn:En1; [|discriminate]. cbn [obind]. destruct n1 as [|lits1 l1 r1|? ? ? ?|]; try discriminate.
  destruct (assertb _); [|discriminate]. cbn [obind]. intros [= <-] Hs. cbn [fst set_nodes t_nodes] in *.
  eapply data_sub_sem; [apply resize_sub; exact En1|]. eapply (foldM_sem (extend_lit lc rc orm rm)); [|exact Ef|exact Hs].
  intros st2 (ol & v) st3. unfold extend_lit. destruct (nth_error (t_nodes st2) _); [|discriminate]. cbn [obind]. apply foldM_sem. intros ? ? ?. apply extend_clause_sem.
Qed.

Lemma extend_bottoms_sem bs : forall s s', foldM extend_bottom bs s = Some s' -> sem_all (t_nodes (fst s)) -> sem_all (t_nodes (fst s')).
Proof.
  induction bs as [|b bs IH]; intros s s'; cbn [foldM]; [intros [= <-]; auto|].
  destruct (extend_bottom s b) as [s1|] eqn:E; [|discriminate]. cbn [obind]. intros Ef Hs. eapply IH; [exact Ef|]. eapply extend_bottom_sem; eauto.
Qed.
