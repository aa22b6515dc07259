(** * The tool [mo2ilp]: variables that do not occur, and MCNF files *)

From Coq Require Import List Bool NArith ZArith Ascii String Lia Permutation.
From Coq Require Import ZifyBool ZifyNat ZifyN.
From Verif Require Import Spec Types TypesProofs Base ConstrSpec Constraints ConstrProofs VarSpec VarMan VarManProofs NodeDb Maps Inst InstSpec InstProofs InstReindex Opt OptSpec OptProofs OptConv OptReindex
  Text FioSpec Dimacs DimacsSpec DimacsProofs Opb OpbSpec OpbProofs OpbInst Tools ToolSpec ToolConv ToolOpb CheckSpec CheckProofs IlpSpec Mo2ilp Mo2ilpProofs.
Import ListNotations.
Open Scope list_scope.

Section Orders.
Variables (lord : list (lit * nat) -> list (lit * nat)) (cord : list (clause * nat) -> list (clause * nat)).
Hypothesis Hord : orders lord cord.

Lemma shifted_zeros {X} (f : X -> Z) (xs : list X) : shifted (map (fun _ => 0%Z) xs) (map f xs) = map f xs.
Proof. unfold shifted. induction xs as [|x xs IH]; [reflexivity|]. cbn [map combine fst snd]. now rewrite IH. Qed.

(** ** Assigning zero *)
Definition zero_step (vs : list N) (i : inst) (v : N) : inst := if existsb (N.eqb v) vs then i else inst_add_clause i [negl v].
Lemma existsb_N v vs : existsb (N.eqb v) vs = true <-> In v vs.
Proof. rewrite existsb_exists. split; [intros (x & Hx & E); apply N.eqb_eq in E; now subst|intros H; exists v; split; [exact H|apply N.eqb_refl]]. Qed.
Lemma zero_steps vs us : forall i, inst_known i -> let i' := fold_left (zero_step vs) us i in inst_known i' /\ i_pbs i' = i_pbs i /\ (forall l, In l (inst_lits i) -> In l (inst_lits i')) /\
  forall a, inst_holds a i' <-> inst_holds a i /\ forall v, In v us -> ~ In v vs -> a v = false.
Proof.
  induction us as [|u us IH]; intros i Hk; cbn [fold_left].
  - split; [exact Hk|]. split; [reflexivity|]. split; [auto|]. intros a. split; [intros H; split; [exact H|intros v []]|now intros []].
  - destruct (existsb (N.eqb u) vs) eqn:Eu.
    + assert (Ez : zero_step vs i u = i) by (unfold zero_step; now rewrite Eu). rewrite Ez. destruct (IH i Hk) as (I1 & I2 & I3 & I4). split; [exact I1|]. split; [exact I2|]. split; [exact I3|]. intros a. rewrite I4. apply existsb_N in Eu. split; intros [H1 H2]; (split; [exact H1|]).
      * intros v [<-|Hv] Hn; [contradiction|now apply H2].
      * intros v Hv. apply H2. now right.
    + assert (Ez : zero_step vs i u = inst_add_clause i [negl u]) by (unfold zero_step; now rewrite Eu). rewrite Ez. assert (Hl : forall l, In l (inst_lits (inst_add_clause i [negl u])) <-> In l (inst_lits i) \/ l = negl u).
      { intros l. unfold inst_lits, inst_add_clause, cnf_add_clause. cbn [i_cnf i_cards i_pbs]. rewrite concat_app. cbn [List.concat]. rewrite app_nil_r, !in_app_iff. cbn [In]. intuition congruence. }
      assert (Hk' : inst_known (inst_add_clause i [negl u])).
      { destruct (marks_spec [negl u] (i_next i)) as [M1 M2]. intros l H. unfold inst_add_clause. cbn [i_next]. apply Hl in H as [H| ->]; [specialize (Hk l H); lia|]. apply M2. now left. }
      destruct (IH _ Hk') as (I1 & I2 & I3 & I4). split; [exact I1|]. split; [exact I2|]. split; [intros l H; apply I3, Hl; now left|]. intros a. rewrite I4.
      assert (Hh : inst_holds a (inst_add_clause i [negl u]) <-> inst_holds a i /\ a u = false).
      { unfold inst_holds, holds, inst_add_clause, cnf_add_clause. cbn [i_cnf i_cards i_pbs]. rewrite sat_cnf_app, andb_true_iff. unfold sat_cnf at 2, sat_clause, lit_true. cbn. destruct (a u); cbn; intuition discriminate. }
      rewrite Hh. assert (Hnu : ~ In u vs) by (intros H; apply existsb_N in H; congruence). split.
      * intros [[H1 H2] H3]. split; [exact H1|]. intros v [<-|Hv] Hn; [exact H2|now apply H3].
      * intros [H1 H2]. split; [split; [exact H1|apply H2; [now left|exact Hnu]]|]. intros v Hv. apply H2. now right.
Qed.
Lemma assign_zero_spec nz p : inst_known (mo_constrs p) -> (forall o, In o (mo_objs p) -> obj_wf o /\ obj_nonempty o) -> small_weights p ->
  exists t I, to_ilp lord cord UAssignZero nz p = Some t /\ read_ilp nz t = Some I /\
    stands_for (opt_var (mo_constrs p) (mo_objs p)) (fun a => inst_holds a (mo_constrs p)) (fun a => map (obj_value a) (mo_objs p)) (fun a => ilp_holds a I) (ilp_costs I) (map (fun _ => 0%Z) (mo_objs p)) /\
    forall a v, ilp_holds a I -> (v < i_next (mo_constrs p))%N -> ~ opt_var (mo_constrs p) (mo_objs p) v -> a v = false.
Proof.
  intros Hk Hw [Hs1 Hs2]. unfold to_ilp. cbn [unused_vars obind]. set (i' := fold_left _ _ _).
  destruct (zero_steps (mopt_var_set p) (map N.of_nat (seq 0 (N.to_nat (i_next (mo_constrs p))))) (mo_constrs p) Hk) as (Z1 & Z2 & Z3 & Z4). change (fold_left (zero_step (mopt_var_set p)) _ _) with i' in Z1, Z2, Z3, Z4.
  destruct (mopt_var_set_spec p) as [_ Vi].
  assert (Hus : forall v, In v (map N.of_nat (seq 0 (N.to_nat (i_next (mo_constrs p))))) <-> (v < i_next (mo_constrs p))%N).
  { intros v. rewrite in_map_iff. setoid_rewrite in_seq. split; [intros (x & <- & H); lia|intros H; exists (N.to_nat v); lia]. }
  destruct (write_ilp_spec lord cord Hord nz (mkMopt i' (mo_objs p))) as (t & I & E1 & E2 & [S1 S2]); [exact Z1|exact Hw|split; cbn [mo_constrs mo_objs]; [rewrite Z2; exact Hs1|exact Hs2]|]. cbn [mo_constrs mo_objs] in S1, S2.
  exists t, I. split; [exact E1|]. split; [exact E2|]. split; [split|].
  - intros a Ha. destruct (S1 a Ha) as [H1 H2]. apply Z4 in H1 as [H1 _]. now split.
  - intros a Ha. set (a1 := fun v => if existsb (N.eqb v) (mopt_var_set p) then a v else false).
    assert (Hag : forall v, opt_var (mo_constrs p) (mo_objs p) v -> a1 v = a v) by (intros v Hv; subst a1; cbn beta; apply Vi, existsb_N in Hv; now rewrite Hv).
    destruct (S2 a1) as (a2 & G1 & G2 & G3).
    { apply Z4. split.
      - apply (holds_agree a); [|exact Ha]. intros v Hv. symmetry. apply Hag. now left.
      - intros v _ Hn. subst a1. cbn beta. destruct (existsb (N.eqb v) (mopt_var_set p)) eqn:Ev; [|reflexivity]. apply existsb_N in Ev. contradiction. }
    exists a2. split; [|split; [exact G2|]].
    + intros v Hv. rewrite <- (Hag v Hv). apply G1. destruct Hv as [(l & Hl & <-)|Hv]; [left; exists l; split; [now apply Z3|reflexivity]|now right].
    + rewrite G3. f_equal. apply map_ext_in. intros o Ho. apply value_agree. intros l Hl. apply Hag. right. exists o. split; [exact Ho|now apply in_map].
  - intros a v Ha Hv Hn. destruct (S1 a Ha) as [H1 _]. apply Z4 in H1 as [_ H1]. apply H1; [now apply Hus|]. intros H. apply Vi in H. contradiction.
Qed.

(** ** Removing *)
Lemma gcollect_keys {K} (keqb : K -> K -> bool) (E : forall x y, keqb x y = true <-> x = y) (xs : list (K * nat)) : NoDup (map fst (gcollect keqb xs)).
Proof.
  unfold gcollect. enough (G : forall m, NoDup (map fst m) -> NoDup (map fst (fold_left (fun m e => ginsert keqb m (fst e) (snd e)) xs m))) by (apply G; constructor).
  induction xs as [|x xs IH]; intros m H; [exact H|]. cbn [fold_left]. apply IH. now apply (ginsert_nodup _ E).
Qed.
Lemma re_obj_wf r o : obj_wf o -> (forall l l', In l (obj_vars o) -> In l' (obj_vars o) -> r (lvar l) = r (lvar l') -> lvar l = lvar l') -> obj_wf (re_obj lord cord r o).
Proof.
  intros W Hi. pose proof (re_obj_renamed lord cord Hord r o W Hi) as (_ & H2 & H3). destruct W as (W1 & W2 & W3). split; [|split].
  - intros l w Hin. apply (Permutation_in _ H2) in Hin. destruct o as [z ls cs|z u ls cs]; cbn [rename_obj obj_lits] in Hin.
    + apply in_map_iff in Hin as ([l' w'] & E & Hin). injection E as _ <-. exact (W1 l' w' Hin).
    + rewrite map_map in Hin. apply in_map_iff in Hin as (l' & E & Hin). injection E as _ <-. apply (W1 l' (or_zero u)). cbn [obj_lits]. now apply (in_map (fun l => (l, or_zero u))).
  - intros c w Hin. apply (Permutation_in _ H3) in Hin. destruct o as [z ls cs|z u ls cs]; cbn [rename_obj obj_cls] in Hin.
    + apply in_map_iff in Hin as ([c' w'] & E & Hin). injection E as <- <-. cbn [fst]. rewrite map_length. exact (W2 c' w' Hin).
    + rewrite map_map in Hin. apply in_map_iff in Hin as (c' & E & Hin). injection E as <- <-. rewrite map_length. apply (W2 c' (or_zero u)). cbn [obj_cls]. now apply (in_map (fun c => (c, or_zero u))).
  - destruct o as [z ls cs|z u ls cs]; cbn [re_obj]; [|exact W3]. split; apply gcollect_keys; [exact lit_eqb_eq|exact clause_eqb_eq'].
Qed.
Lemma ordered_total vs : forall s, (re_next s + N.of_nat (List.length vs) <= max_var_idx)%N -> exists s', foldM (fun s v => do r <- re_reindex v s; Some (snd r)) vs s = Some s' /\ (re_next s' <= re_next s + N.of_nat (List.length vs))%N.
Proof.
  induction vs as [|v vs IH]; intros s H; cbn [foldM]; [exists s; split; [reflexivity|cbn; lia]|]. cbn [List.length] in H.
  unfold re_reindex at 1. destruct (kget N.eqb (re_in s) v) as [u|]; cbn [obind snd].
  - destruct (IH s ltac:(lia)) as (s' & E & Hs). exists s'. split; [exact E|cbn [List.length]; lia].
  - unfold next_new, var_succ. destruct (N.leb_spec (re_next s + 1) max_var_idx); [|lia]. cbn [obind snd].
    match goal with |- exists s', foldM _ _ ?st = _ /\ _ => destruct (IH st) as (s' & E & Hs); [cbn [re_next]; lia|] end. cbn [re_next] in Hs. exists s'. split; [exact E|cbn [List.length]; lia].
Qed.
Lemma sorted_length vs : sorted_by N.lt vs -> forall B, (forall v, In v vs -> (v < B)%N) -> (N.of_nat (List.length vs) <= B)%N.
Proof.
  intros Hs B HB. assert (Hn : NoDup vs).
  { induction Hs as [|v vs Hv Hs IH]; [constructor|]. constructor; [intros Hin; specialize (Hv v Hin); lia|]. apply IH. intros u Hu. apply HB. now right. }
  assert (Hi : incl vs (map N.of_nat (seq 0 (N.to_nat B)))) by (intros v Hv; apply in_map_iff; exists (N.to_nat v); split; [lia|]; apply in_seq; specialize (HB v Hv); lia).
  apply (NoDup_incl_length Hn) in Hi. rewrite map_length, seq_length in Hi. lia.
Qed.
Lemma remove_some p : (forall v, opt_var (mo_constrs p) (mo_objs p) v -> (v + 1 < max_var_idx)%N) ->
  exists g cards pbs s, mopt_reindex_ordered re_reindex lord cord p (re_start 0) = Some (g, cards, pbs, map (re_obj lord cord (answer s)) (mo_objs p), s) /\ (re_next s + 1 <= max_var_idx)%N /\
    forall v v', opt_var (mo_constrs p) (mo_objs p) v -> opt_var (mo_constrs p) (mo_objs p) v' -> answer s v = answer s v' -> v = v'.
Proof.
  intros Hb. destruct (mopt_var_set_spec p) as [Vs Vi]. assert (HL : (N.of_nat (List.length (mopt_var_set p)) <= max_var_idx - 1)%N) by (apply (sorted_length _ Vs); intros v Hv; apply Vi, Hb in Hv; lia).
  assert (Hmx : (1 <= max_var_idx)%N) by (vm_compute; discriminate).
  destruct (ordered_total (mopt_var_set p) (re_start 0)) as (s & E & Hs); [cbn [re_next re_start]; lia|]. cbn [re_next re_start] in Hs.
  destruct (ordered_fold (mopt_var_set p) Vs (re_start 0) s) as (O1 & O2 & O3 & _); [reflexivity|constructor|exact E|].
  assert (Hk : forall v, opt_var (mo_constrs p) (mo_objs p) v -> kget N.eqb (re_in s) v <> None) by (intros v Hv; apply Vi in Hv; apply In_nth_error in Hv as (j & Hj); rewrite (O3 _ _ Hj); discriminate).
  unfold mopt_reindex_ordered. rewrite E. cbn [obind]. unfold mopt_reindex. rewrite (re_list_known _ (re_obj lord cord (answer s))).
  2:{ intros o Ho. apply (obj_reindex_known lord cord Hord). intros l Hl. apply Hk. right. exists o. split; [assumption|now apply in_map]. }
  cbn [obind]. rewrite inst_reindex_known by (intros v Hv; apply Hk; now left). cbn [obind]. do 4 eexists. split; [reflexivity|]. split; [lia|].
  intros v v' Hv Hv'. apply Vi in Hv, Hv'. apply In_nth_error in Hv as (j & Hj), Hv' as (j' & Hj'). unfold answer. rewrite (O3 _ _ Hj), (O3 _ _ Hj'). intros Ej. assert (j = j') as <- by lia. congruence.
Qed.

Lemma renamed_obj_parts r o o' : obj_renamed r o o' -> (forall l w, In (l, w) (obj_lits o') -> exists l', In (l', w) (obj_lits o) /\ l = rename_lit r l') /\
  (forall c w, In (c, w) (obj_cls o') -> exists c', In (c', w) (obj_cls o) /\ c = map (rename_lit r) c').
Proof.
  intros (_ & H2 & H3). split; intros x w Hin.
  - apply (Permutation_in _ H2) in Hin. destruct o as [z ls cs|z u ls cs]; cbn [rename_obj obj_lits] in *.
    + apply in_map_iff in Hin as ([l' w'] & E & Hin). injection E as <- <-. eauto.
    + rewrite map_map in Hin. apply in_map_iff in Hin as (l' & E & Hin). injection E as <- <-. exists l'. split; [now apply (in_map (fun l => (l, or_zero u)))|reflexivity].
  - apply (Permutation_in _ H3) in Hin. destruct o as [z ls cs|z u ls cs]; cbn [rename_obj obj_cls] in *.
    + apply in_map_iff in Hin as ([l' w'] & E & Hin). injection E as <- <-. eauto.
    + rewrite map_map in Hin. apply in_map_iff in Hin as (l' & E & Hin). injection E as <- <-. exists l'. split; [now apply (in_map (fun c => (c, or_zero u)))|reflexivity].
Qed.
Lemma rename_inst_lits r i n : inst_lits (mkInst (map (map (rename_lit r)) (i_cnf i)) (map (rename_card r) (i_cards i)) (map (rename_pb r) (i_pbs i)) n) = map (rename_lit r) (inst_lits i).
Proof.
  unfold inst_lits. cbn [i_cnf i_cards i_pbs]. rewrite !map_app. f_equal; [now rewrite concat_map|]. f_equal.
  - induction (i_cards i) as [|c cs IH]; [reflexivity|]. cbn [map List.concat]. now rewrite map_app, IH.
  - induction (i_pbs i) as [|c cs IH]; [reflexivity|]. cbn [map List.concat]. rewrite !map_app, IH. f_equal. cbn [rename_pb p_lits]. now rewrite !map_map.
Qed.
Lemma remove_spec nz p : (forall o, In o (mo_objs p) -> obj_wf o /\ obj_nonempty o) -> small_weights p -> (forall v, opt_var (mo_constrs p) (mo_objs p) v -> (v + 1 < max_var_idx)%N) ->
  exists t I r, to_ilp lord cord URemove nz p = Some t /\ read_ilp nz t = Some I /\
    (forall v v', opt_var (mo_constrs p) (mo_objs p) v -> opt_var (mo_constrs p) (mo_objs p) v' -> (v < v')%N -> (r v < r v')%N) /\
    (forall v u, opt_var (mo_constrs p) (mo_objs p) v -> (u < r v)%N -> exists v', opt_var (mo_constrs p) (mo_objs p) v' /\ r v' = u) /\
    stands_for (fun u => exists v, opt_var (mo_constrs p) (mo_objs p) v /\ r v = u) (fun a => inst_holds (fun v => a (r v)) (mo_constrs p)) (fun a => map (obj_value (fun v => a (r v))) (mo_objs p))
      (fun a => ilp_holds a I) (ilp_costs I) (map (fun _ => 0%Z) (mo_objs p)).
Proof.
  intros Hw [Hs1 Hs2] Hb. set (OV := opt_var (mo_constrs p) (mo_objs p)) in *. destruct (remove_some p Hb) as (g & cards & pbs & s & E & Hn & Hinj). fold OV in Hinj.
  destruct (mopt_reindex_ordered_renamed lord cord Hord p 0 g cards pbs _ s (fun o Ho => proj1 (Hw o Ho)) E) as (r & (R1 & R2 & R3 & _) & Fo & Hm & Hr & _). fold OV in Hm, Hr. set (os := map (re_obj lord cord (answer s)) (mo_objs p)) in *.
  assert (Ho : forall o', In o' os -> exists o, In o (mo_objs p) /\ obj_renamed r o o').
  { clear - Fo. induction Fo as [|o o' os os' H _ IH]; [intros ? []|]. intros x [<-|Hx]; [exists o; split; [now left|exact H]|]. destruct (IH x Hx) as (y & Hy & Hyx). exists y. split; [now right|exact Hyx]. }
  set (i' := mkInst g cards pbs (re_next s)). set (p' := mopt_compose i' os).
  assert (Hil : inst_lits i' = map (rename_lit r) (inst_lits (mo_constrs p))) by (subst i' g cards pbs; apply rename_inst_lits).
  assert (Hlits : forall l, In l (inst_lits i') -> exists l', In l' (inst_lits (mo_constrs p)) /\ l = rename_lit r l').
  { intros l. rewrite Hil. intros H. apply in_map_iff in H as (l' & <- & H). eauto. }
  assert (Hk : inst_known i').
  { intros l Hl. destruct (Hlits l Hl) as (l' & Hl' & ->). subst i'. cbn [i_next rename_lit lvar]. apply (Hr (r (lvar l'))). exists (lvar l'). split; [left; exists l'; auto|reflexivity]. }
  destruct (m_compose_known os i' Hk) as (Kc & Ko & Kh & _). destruct (mopt_compose_cnf os i') as (M1 & M2 & M3).
  assert (Et : to_ilp lord cord URemove nz p = write_ilp lord cord nz p').
  { unfold to_ilp. cbn [unused_vars]. rewrite E. cbn [obind]. unfold next_new, var_succ. destruct (N.leb_spec (re_next s + 1) max_var_idx); [|lia]. reflexivity. }
  destruct (write_ilp_spec lord cord Hord nz p') as (t & I & E1 & E2 & [S1 S2]).
  - exact Kc.
  - intros o' Ho'. change (mo_objs p') with os in Ho'. split.
    + unfold os in Ho'. apply in_map_iff in Ho' as (o & <- & Hin). apply re_obj_wf; [now apply Hw|]. intros l l' Hl Hl'. apply Hinj; right; exists o; (split; [exact Hin|now apply in_map]).
    + destruct (Ho o' Ho') as (o & Hin & Hre). destruct (renamed_obj_parts _ _ _ Hre) as [_ Hc]. intros w Hx. destruct (Hc _ _ Hx) as (c' & Hc' & Ec). destruct c' as [|x c']; [|discriminate]. now apply (proj2 (Hw o Hin) w).
  - split.
    + intros c l w Hc Hl. change (mo_constrs p') with (mo_constrs (mopt_compose i' os)) in Hc. rewrite M3 in Hc. subst i'. cbn [i_pbs] in Hc. rewrite R3 in Hc. apply in_map_iff in Hc as (d & <- & Hd). cbn [rename_pb p_lits] in Hl. apply in_map_iff in Hl as ([l' w'] & El & Hl). injection El as _ <-. exact (Hs1 d l' w' Hd Hl).
    + intros o' Ho'. destruct (Ho o' Ho') as (o & Hin & Hre). destruct (renamed_obj_parts _ _ _ Hre) as [Hl Hc]. destruct (Hs2 o Hin) as [T1 T2]. split.
      * intros l w Hx. destruct (Hl _ _ Hx) as (l' & Hl' & _). exact (T1 l' w Hl').
      * intros c w Hx. destruct (Hc _ _ Hx) as (c' & Hc' & _). exact (T2 c' w Hc').
  - exists t, I, r. split; [rewrite Et; exact E1|]. split; [exact E2|]. split; [exact Hm|]. split.
    + intros v u Hv Hu. apply Hr. assert (H : (0 <= r v < m_n_used reindexing s)%N) by (apply Hr; exists v; auto). lia.
    + assert (Hh : forall a, inst_holds a (mo_constrs p') <-> inst_holds (fun v => a (r v)) (mo_constrs p)).
      { intros a. change (mo_constrs p') with (mo_constrs (mopt_compose i' os)). rewrite Kh. subst i'. unfold inst_holds. cbn [i_cnf i_cards i_pbs]. rewrite R1, R2, R3. apply rename_holds. }
      assert (Hv : forall a, map (obj_value a) (mo_objs p') = map (obj_value (fun v => a (r v))) (mo_objs p)).
      { intros a. change (mo_objs p') with os. clear - Fo. induction Fo as [|o o' l l' H _ IH]; [reflexivity|]. cbn [map]. now rewrite IH, (renamed_value r o o' H a). }
      assert (Hz : map (fun _ => 0%Z) (mo_objs p') = map (fun _ => 0%Z) (mo_objs p)) by (change (mo_objs p') with os; subst os; now rewrite map_map).
      rewrite Hz in S1, S2. split.
      * intros a Ha. destruct (S1 a Ha) as [H1 H2]. rewrite Hv in H2. split; [now apply Hh|exact H2].
      * intros a Ha. apply Hh in Ha. destruct (S2 a Ha) as (a' & G1 & G2 & G3). rewrite Hv in G3. exists a'. split; [|now split].
        intros u (v & Hov & <-). apply G1. destruct Hov as [(l & Hl & <-)|(o & Hin & Hl)].
        { left. exists (rename_lit r l). split; [|reflexivity]. change (mo_constrs p') with (mo_constrs (mopt_compose i' os)).
          replace (inst_lits (mo_constrs (mopt_compose i' os))) with (inst_lits i') by (unfold inst_lits; now rewrite M1, M2, M3). rewrite Hil. now apply in_map. }
        { right. assert (Hx : exists o', In o' os /\ obj_renamed r o o').
          { clear - Fo Hin. induction Fo as [|x y xs ys H _ IH]; [destruct Hin|]. destruct Hin as [<-|Hin]; [exists y; split; [now left|exact H]|]. destruct (IH Hin) as (y' & Hy & H'). exists y'. split; [now right|exact H']. }
          destruct Hx as (o' & Ho' & (_ & P2 & P3)). exists o'. split; [exact Ho'|]. apply in_map_iff in Hl as (l & <- & Hl). apply in_map_iff. exists (rename_lit r l). split; [reflexivity|]. unfold obj_vars in *. apply in_app_iff in Hl as [Hl|Hl]; apply in_app_iff; [left|right].
          - apply in_map_iff in Hl as ([l' w] & El & Hl). cbn [fst] in El. subst l'. apply in_map_iff. exists (rename_lit r l, w). split; [reflexivity|]. apply (Permutation_in _ (Permutation_sym P2)). destruct o as [z ls cs|z u ls cs]; cbn [rename_obj obj_lits] in *.
            + apply in_map_iff. exists (l, w). split; [reflexivity|exact Hl].
            + apply in_map_iff in Hl as (x & El & Hl). injection El as -> <-. rewrite map_map. apply in_map_iff. exists l. split; [reflexivity|exact Hl].
          - apply in_concat in Hl as (c & Hc & Hl). apply in_map_iff in Hc as ([c' w] & Ec & Hc). cbn [fst] in Ec. subst c'. apply in_concat. exists (map (rename_lit r) c). split; [|now apply in_map]. apply in_map_iff. exists (map (rename_lit r) c, w). split; [reflexivity|].
            apply (Permutation_in _ (Permutation_sym P3)). destruct o as [z ls cs|z u ls cs]; cbn [rename_obj obj_cls] in *.
            + apply in_map_iff. exists (c, w). split; [reflexivity|exact Hc].
            + apply in_map_iff in Hc as (x & El & Hc). injection El as -> <-. rewrite map_map. apply in_map_iff. exists c. split; [reflexivity|exact Hc]. }
Qed.
End Orders.

(** ** MCNF files *)

Lemma from_cls_small xs : (Z.of_nat (list_sum (map snd xs)) <= isize_max)%Z -> obj_small (obj_from_cls xs).
Proof.
  intros H. pose proof (from_cls_total xs) as Ht. unfold soft_sum in Ht. split; intros k w Hin.
  - pose proof (ksum_in (fun _ : lit => true) _ k w Hin eq_refl). lia.
  - pose proof (ksum_in (fun _ : clause => true) _ k w Hin eq_refl). lia.
Qed.
Lemma from_cls_occurs xs c w l : In (c, w) xs -> (0 < w)%nat -> In l c -> In (lvar l) (map lvar (obj_vars (obj_from_cls xs))).
Proof.
  intros Hin Hw Hl. pose proof (from_cls_soft_sum (fun d => clause_eqb d c) xs) as E. pose proof (ksum_in (fun d => clause_eqb d c) xs c w Hin (proj2 (clause_eqb_eq' _ _) eq_refl)) as Hk. unfold soft_sum in E.
  destruct (Nat.eq_dec (ksum (fun l' => clause_eqb [neg l'] c) (obj_lits (obj_from_cls xs))) 0) as [Z0|Z0].
  - destruct (ksum_pos_in (fun d => clause_eqb d c) (obj_cls (obj_from_cls xs))) as (d & w' & Hd & Ed); [lia|]. apply clause_eqb_eq' in Ed as ->. apply in_map. exact (vars_cls _ c w' l Hd Hl).
  - destruct (ksum_pos_in (fun l' => clause_eqb [neg l'] c) (obj_lits (obj_from_cls xs))) as (l' & w' & Hd & Ed); [lia|]. apply clause_eqb_eq' in Ed as <-. destruct Hl as [<-|[]]. change (lvar (neg l')) with (lvar l'). apply in_map. exact (vars_lit _ l' w' Hd).
Qed.

Lemma map_const' {X Y} (y : Y) (xs : list X) : map (fun _ => y) xs = repeat y (List.length xs).
Proof. induction xs as [|x xs IH]; [reflexivity|]. cbn [map List.length repeat]. now rewrite IH. Qed.
Section Files.
Variables (lord : list (lit * nat) -> list (lit * nat)) (cord : list (clause * nat) -> list (clause * nat)).
Hypothesis Hord : orders lord cord.

Lemma to_ilp_spec u nz p : u <> URemove -> inst_known (mo_constrs p) -> (forall o, In o (mo_objs p) -> obj_wf o /\ obj_nonempty o) -> small_weights p ->
  exists t I, to_ilp lord cord u nz p = Some t /\ read_ilp nz t = Some I /\
    stands_for (opt_var (mo_constrs p) (mo_objs p)) (fun a => inst_holds a (mo_constrs p)) (fun a => map (obj_value a) (mo_objs p)) (fun a => ilp_holds a I) (ilp_costs I) (map (fun _ => 0%Z) (mo_objs p)).
Proof.
  intros Hu Hk Hw Hs. destruct u; [|congruence|].
  - exact (write_ilp_spec lord cord Hord nz p Hk Hw Hs).
  - destruct (assign_zero_spec lord cord Hord nz p Hk Hw Hs) as (t & I & H1 & H2 & H3 & _). eauto.
Qed.
Lemma mo2ilp_mcnf o t n es u nz : mcnf_file n es t -> u <> URemove -> (forall k, positive_softs (msofts k es) /\ (forall w, ~ In ([], w) (msofts k es)) /\ (Z.of_nat (list_sum (map snd (msofts k es))) <= isize_max)%Z) ->
  exists out I, mo2ilp lord cord FMcnf o u nz t = ROk out /\ read_ilp nz out = Some I /\
    stands_for (item_var es) (fun a => sat_cnf a (hards es) = true) (mcnf_costs (n_objs es) es) (fun a => ilp_holds a I) (ilp_costs I) (repeat 0%Z (n_objs es)).
Proof.
  intros Ht Hu Hs. destruct (mopt_of_mcnf_file n es t Ht) as (p & Ep & Eo & C1 & C2 & C3 & _ & Hk & _). unfold mo2ilp. cbn [parse_instance]. rewrite Ep. cbn [rbind].
  destruct (to_ilp_spec u nz p Hu Hk) as (out & I & E1 & E2 & [S1 S2]).
  - rewrite Eo. intros ob Hin. apply in_map_iff in Hin as (k & <- & _). split; [apply from_cls_spec|]. apply from_cls_nonempty. apply Hs.
  - split; [rewrite C3; intros c l w []|]. rewrite Eo. intros ob Hin. apply in_map_iff in Hin as (k & <- & _). apply from_cls_small. apply Hs.
  - exists out, I. rewrite E1. cbn [to_res]. split; [reflexivity|]. split; [exact E2|].
    assert (Hh : forall a, inst_holds a (mo_constrs p) <-> sat_cnf a (hards es) = true) by (intros a; rewrite <- C1; exact (holds_clauses a _ C2 C3)).
    assert (Hc : forall a, map (obj_value a) (mo_objs p) = mcnf_costs (n_objs es) es a) by (intros a; rewrite Eo; unfold mobjs, mcnf_costs; rewrite map_map; apply map_ext; intros k; apply from_cls_spec).
    assert (Hz : map (fun _ => 0%Z) (mo_objs p) = repeat 0%Z (n_objs es)).
    { rewrite Eo. unfold mobjs. now rewrite map_map, map_const', seq_length. }
    rewrite Hz in S1, S2. split.
    + intros a Ha. destruct (S1 a Ha) as [H1 H2]. rewrite Hc in H2. split; [now apply Hh|exact H2].
    + intros a Ha. apply Hh in Ha. destruct (S2 a Ha) as (a' & G1 & G2 & G3). rewrite Hc in G3. exists a'. split; [|now split]. intros v (c & x & l & Hin & Hl & <-). apply G1. destruct x as [[k w]|].
      * right. exists (obj_from_cls (msofts k es)). assert (Hk' : In (c, w) (msofts k es)) by now apply in_msofts. split.
        { rewrite Eo. unfold mobjs. apply (in_map (fun k => obj_from_cls (msofts k es))). apply in_seq. split; [lia|]. cbn [Nat.add]. assert (S k <= n_objs es)%nat; [|lia]. unfold n_objs.
          pose proof (proj1 (list_max_le (map (fun e : mitem => match snd e with Some (k0, _) => S k0 | None => 0%nat end) es) _) (le_n _)) as Hm. rewrite Forall_forall in Hm.
          apply Hm. change (S k) with ((fun e : mitem => match snd e with Some (k0, _) => S k0 | None => 0%nat end) (c, Some (k, w))). now apply in_map. }
        { apply (from_cls_occurs _ c w l Hk'); [|exact Hl]. exact (proj1 (Hs k) c w Hk'). }
      * left. exists l. split; [|reflexivity]. apply (inst_lits_cnf _ c); [rewrite C1; now apply in_hards|exact Hl].
Qed.

(** ** OPB files *)
Lemma mo2ilp_opb o t ss u nz : opb_file (first_var_idx o) ss t -> no_less ss -> Forall checkable ss -> (forall s ts e, In (SObj s ts) ss -> In e ts -> snd e <> 0%Z) -> u <> URemove ->
  exists out I, mo2ilp lord cord FOpb o u nz t = ROk out /\ read_ilp nz out = Some I /\
    stands_for (stmt_var ss) (fun a => constrs_hold a ss) (opb_costs ss) (fun a => ilp_holds a I) (ilp_costs I) (repeat 0%Z (List.length (objs_of ss))).
Proof.
  intros Ht Hl Hc Hnz Hu. pose proof (checkable_fits ss Hc) as Hf. destruct (parse_means o FOpb t _ _ _ (POpb _ ss t Ht Hl Hc)) as (p & E & M). rewrite Forall_forall in Hc.
  assert (Hobj : forall s ts, In (s, ts) (objs_of ss) -> In (SObj s ts) ss).
  { intros s ts Hin. unfold objs_of in Hin. apply in_flat_map in Hin as (x & Hx & Hin). destruct x as [? ? ?|s' ts']; [easy|]. destruct Hin as [Eq|[]]. now injection Eq as <- <-. }
  assert (Hp : i_cnf (mo_constrs p) = [] /\ i_cards (mo_constrs p) = [] /\ i_pbs (mo_constrs p) = pbs_of ss /\ inst_known (mo_constrs p) /\ Forall2 obj_read (objs_of ss) (mo_objs p)).
  { cbn [parse_instance] in E. destruct (read_file_ok o ss t Ht Hf) as (ds & Er & Hds). unfold mopt_from_opb in E. rewrite Er, add_opb_mopt_comments, Hds in E.
    destruct (add_opb_mopt_parts ss (mkMopt (inst_new 0) []) p) as (D1 & D2 & D3 & D4 & D7 & os & D5 & D6); [intros l []|exact E|]. cbn [mo_objs app] in D5. rewrite D5. repeat (split; [assumption|]). exact D6. }
  destruct Hp as (P1 & P2 & P3 & P4 & P5). destruct M as [Mh Mc Mw _ _ Ml Mo Mp _]. change (snd (mopt_decompose p)) with (mo_objs p) in *.
  assert (Hh : forall a, inst_holds a (mo_constrs p) <-> constrs_hold a ss) by (intros a; rewrite <- (Mh a); reflexivity).
  assert (Hparts : forall ob, In ob (mo_objs p) -> obj_nonempty ob /\ obj_small ob).
  { intros ob Hin. destruct (obj_read_in _ _ ob P5 Hin) as ([s ts] & Hst & Hr). destruct (objective_form _ ob Hr) as (ys & z & Eob & _ & Ev). cbn [fst snd] in Ev. destruct (increase_offset_parts z (obj_from_cls ys)) as [Q1 Q2]. rewrite <- Eob in Q1, Q2. split.
    - unfold obj_nonempty. rewrite Q2. apply from_cls_nonempty. intros w Hw. assert (H : In (map lvar [], w) (map (fun e => (map lvar (fst e), snd e)) ys)) by exact (in_map (fun e => (map lvar (fst e), snd e)) ys ([], w) Hw).
      rewrite Ev in H. apply in_map_iff in H as (e & Ee & _). discriminate.
    - assert (Hsum : (Z.of_nat (list_sum (map snd ys)) <= isize_max)%Z).
      { assert (Ew : map snd ys = map (fun e => Z.abs_nat (snd e)) ts).
        { transitivity (map snd (map (fun e => (map lvar (fst e), snd e)) ys)); [rewrite map_map; now apply map_ext|]. rewrite Ev, map_map. now apply map_ext. }
        assert (Ea : Z.of_nat (list_sum (map (fun e : lit * Z => Z.abs_nat (snd e)) ts)) = abs_coeffs ts).
        { unfold abs_coeffs. clear. induction ts as [|[l c] ts IH]; [reflexivity|]. cbn [map fold_right snd]. change (list_sum (?x :: ?r)) with (x + list_sum r)%nat. lia. }
        rewrite Ew, Ea. exact (proj1 (Hc _ (Hobj _ _ Hst))). }
      unfold obj_small. rewrite Q1, Q2. exact (from_cls_small ys Hsum). }
  unfold mo2ilp. rewrite E. cbn [rbind]. destruct (to_ilp_spec u nz p Hu P4) as (out & I & E1 & E2 & [S1 S2]).
  - intros ob Hin. split; [now apply Mw|now apply Hparts].
  - split; [|intros ob Hin; now apply Hparts]. intros c l w Hin Hlw. assert (Hin' : In c (i_pbs (fst (mopt_decompose p)))) by exact Hin. destruct (Mp c Hin') as [Hm _]. apply weight_le_total in Hlw. lia.
  - exists out, I. rewrite E1. cbn [to_res]. split; [reflexivity|]. split; [exact E2|].
    assert (Hz : map (fun _ => 0%Z) (mo_objs p) = repeat 0%Z (List.length (objs_of ss))) by (rewrite map_const'; f_equal; clear - P5; induction P5; cbn [List.length]; congruence).
    rewrite Hz in S1, S2. split.
    + intros a Ha. destruct (S1 a Ha) as [H1 H2]. rewrite Mc in H2. split; [now apply Hh|exact H2].
    + intros a Ha. apply Hh in Ha. destruct (S2 a Ha) as (a' & G1 & G2 & G3). rewrite Mc in G3. exists a'. split; [|now split]. intros v (st & e & Hst & He & <-). apply G1. destruct st as [ts op b|s ts]; cbn [stmt_terms] in He.
      * left. assert (Hv : In (lvar (fst e)) (map (fun e => lvar (fst e)) (p_lits (stmt_pb ts op b)))) by (rewrite stmt_pb_vars; exact (in_map (fun e => lvar (fst e)) _ _ He)). apply in_map_iff in Hv as ([l w] & El & Hv). cbn [fst] in El. exists l. split; [|exact El].
        apply (inst_lits_pb _ (stmt_pb ts op b) l w); [|exact Hv]. rewrite P3. unfold pbs_of. apply in_map_iff. exists (ts, op, b). split; [reflexivity|]. unfold constrs_of. apply in_flat_map. exists (SConstr ts op b). split; [exact Hst|now left].
      * right. assert (Hin : In (s, ts) (objs_of ss)) by (unfold objs_of; apply in_flat_map; exists (SObj s ts); split; [exact Hst|now left]).
        assert (Hr : exists ob, In ob (mo_objs p) /\ obj_read (s, ts) ob).
        { clear - P5 Hin. induction P5 as [|x y xs ys H _ IH]; [destruct Hin|]. destruct Hin as [->|Hin]; [exists y; split; [now left|exact H]|]. destruct (IH Hin) as (y' & Hy & H'). exists y'. split; [now right|exact H']. }
        destruct Hr as (ob & Hob & Hr). exists ob. split; [exact Hob|]. assert (Hpl : plain_stmt (SObj s ts)) by (split; [exact (proj1 (Hc _ Hst))|intros e' He'; exact (Hnz s ts e' Hst He')]).
        destruct (objective_softs lord cord (s, ts) ob Hord Hr Hpl) as (_ & _ & Hvars). apply Hvars. exact (in_map (fun e => lvar (fst e)) _ _ He).
Qed.
End Files.
