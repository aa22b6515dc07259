(** * Conversions by the command line tools *)

From Coq Require Import List Bool NArith ZArith Ascii String Lia Permutation.
From Coq Require Import ZifyBool ZifyNat ZifyN.
From Verif Require Import Spec Types Base ConstrSpec Constraints ConstrProofs VarMan NodeDb Inst InstSpec InstProofs Opt OptSpec OptProofs OptConv Text FioSpec Dimacs DimacsSpec DimacsProofs
  DimacsGrammar Opb OpbSpec OpbProofs OpbInst Tools ToolSpec ToolText ToolConv.
Import ListNotations.
Open Scope list_scope.

Lemma variable_softs_ksum xs : variable_softs xs = ksum pos_unit xs.
Proof.
  unfold variable_softs. induction xs as [|[c w] xs IH]; [reflexivity|]. cbn [filter fst ksum]. fold (pos_unit c). destruct (pos_unit c); [|exact IH]. cbn [map list_sum fold_right snd]. unfold list_sum in IH. now rewrite IH.
Qed.
Lemma from_cls_var_in xs c w l : positive_softs xs -> In (c, w) xs -> In l c -> In (lvar l) (map lvar (obj_vars (obj_from_cls xs))).
Proof.
  intros Hp Hin Hl. pose proof (Hp c w Hin) as Hw. pose proof (from_cls_soft_sum (fun d => clause_eqb d c) xs) as E. pose proof (ksum_in (fun d => clause_eqb d c) xs c w Hin (proj2 (clause_eqb_eq' _ _) eq_refl)) as Hk.
  unfold soft_sum in E. destruct (Nat.eq_dec (ksum (fun d => clause_eqb d c) (obj_cls (obj_from_cls xs))) 0) as [E0|Hne].
  - destruct (ksum_pos_in (fun l => clause_eqb [neg l] c) (obj_lits (obj_from_cls xs))) as (l' & w' & Hin' & Ec); [lia|]. apply clause_eqb_eq' in Ec. subst c. destruct Hl as [<-|[]].
    change (lvar (neg l')) with (lvar l'). apply in_map. unfold obj_vars. apply in_app_iff. left. change l' with (fst (l', w')). now apply in_map.
  - destruct (ksum_pos_in (fun d => clause_eqb d c) (obj_cls (obj_from_cls xs))) as (d & w' & Hin' & Ec); [lia|]. apply clause_eqb_eq' in Ec. subst d.
    apply in_map. unfold obj_vars. apply in_app_iff. right. apply in_concat. exists c. split; [|exact Hl]. change c with (fst (c, w')). now apply in_map.
Qed.

Lemma filter_shorter {A} (p : A -> bool) xs : (List.length (filter p xs) <= List.length xs)%nat.
Proof. induction xs as [|x xs IH]; [apply le_n|]. cbn [filter List.length]. destruct (p x); cbn [List.length]; lia. Qed.
(** ** From DIMACS to OPB *)
Section ToOpb.
Context (lord : list (lit * nat) -> list (lit * nat)) (cord : list (clause * nat) -> list (clause * nat)) (Hord : orders lord cord).

Definition same_constrs (i i' : inst) : Prop := i_cnf i' = i_cnf i /\ i_cards i' = i_cards i /\ i_pbs i' = i_pbs i.
Lemma harden_core o n f xss c : clausal_known n f (map obj_from_cls xss) c -> (forall xs, In xs xss -> opb_softs xs) ->
  (n + N.of_nat (list_sum (map (fun xs => List.length xs) xss)) <= max_var_idx)%N -> (first_var_idx o <= 2147483648)%N -> (forall d, In d f -> (Z.of_nat (List.length d) < isize_max)%Z) ->
  exists c' obs', harden_all cord c (map obj_from_cls xss) = Some (c', obs') /\
    (forall i, same_constrs c' i -> opb_inst_ok i /\ opb_writable o i) /\
    (forall ob, In ob obs' -> obj_cls ob = [] /\ opb_soft_ok (obj_lits ob) /\ (forall l w, In (l, w) (obj_lits ob) -> var_fits o l) /\ (Z.of_nat (total_weight (obj_lits ob)) + Z.abs (obj_offset ob) <= isize_max)%Z) /\
    (forall i ss lss, same_constrs c' i -> (forall a, constrs_hold a ss <-> inst_holds a i) -> Forall2 (fun ls ob => Permutation ls (obj_lits ob)) lss obs' -> (forall a, opb_costs ss a = map (lits_cost o a) lss) ->
      stands_for (fun v => (v < i_next c)%N) (fun a => sat_cnf a f = true) (fun a => map (fun xs => Z.of_nat (cls_cost a xs)) xss) (fun a => constrs_hold a ss) (opb_costs ss)
        (map (opb_shift (no_negated_lits o)) xss)).
Proof.
  intros (E1 & E2 & E3 & Hn & Hk & Ho) Hxs Hmax Hfirst Hlen.
  destruct (harden_all_spec lord cord Hord (map obj_from_cls xss) c Hk) as (c' & obs' & h & E & F1 & F2 & F3 & N' & B & Hh & D & S & X).
  { intros ob Hob. apply in_map_iff in Hob as (xs & <- & Hin). split; [apply from_cls_spec|]. split; [apply from_cls_nonempty, (Hxs xs Hin)|]. apply Ho. now apply in_map. }
  exists c', obs'. split; [exact E|].
  assert (Hsum : (list_sum (map (fun o0 => List.length (obj_cls o0)) (map obj_from_cls xss)) <= list_sum (map (fun xs => List.length xs) xss))%nat).
  { clear. induction xss as [|xs xss IH]; [apply le_n|]. cbn [map list_sum fold_right]. unfold list_sum in IH. pose proof (from_cls_length xs). lia. }
  assert (Hb : cnf_below (max_var_idx + 1) (f ++ h)).
  { intros d Hd l Hl. apply in_app_iff in Hd as [Hd|Hd]; [|specialize (B d Hd l Hl); lia]. assert (Hin : In l (inst_lits c)) by (unfold inst_lits; apply in_app_iff; left; rewrite E1; apply in_concat; eauto).
    apply Hk in Hin. lia. }
  split; [|split].
  - intros i (I1 & I2 & I3). rewrite F1, E1 in I1. rewrite F2, E2 in I2. rewrite F3, E3 in I3. split; [apply inst_ok_cnf; [exact I2|exact I3|now rewrite I1]|].
    apply writable_cnf; [exact I2|exact I3|now rewrite I1|exact Hfirst|]. rewrite I1. intros d Hd. apply in_app_iff in Hd as [Hd|Hd]; [now apply Hlen|].
    destruct (D d Hd) as (ob & [e w] & Hob & He & El). apply in_map_iff in Hob as (xs & <- & Hin). destruct (from_cls_cls xs e w He) as [w' Hin']. destruct (Hxs xs Hin) as (_ & _ & _ & Hl). specialize (Hl e w' Hin'). rewrite El. cbn [fst]. lia.
  - intros ob Hob. assert (Hex : exists xs, In xs xss /\ hardened (i_next c') (obj_from_cls xs) ob).
    { clear - Hh Hob. remember (map obj_from_cls xss) as os eqn:Eos. revert xss Eos. induction Hh as [|x y os os' Hxy _ IH]; intros xss Eos; [easy|]. destruct xss as [|xs xss]; [discriminate|]. injection Eos as -> ->.
      destruct Hob as [->|Hob]; [exists xs; split; [now left|exact Hxy]|]. destruct (IH Hob xss eq_refl) as (xs' & Hin & Hh'). exists xs'. split; [now right|exact Hh']. }
    destruct Hex as (xs & Hin & Q1 & Q2 & Q3 & Q4 & Q5). destruct (Hxs xs Hin) as (_ & _ & Htot & _). rewrite from_cls_total in Q4. rewrite from_cls_offset in Q2.
    assert (Hlv : forall l w, In (l, w) (obj_lits ob) -> (lvar l <= max_var_idx)%N).
    { intros l w Hl. assert (Hv : In l (obj_vars ob)) by (unfold obj_vars; apply in_app_iff; left; change l with (fst (l, w)); now apply in_map). apply Q3 in Hv. lia. }
    split; [exact Q1|]. split; [|split].
    + split; [exact Hlv|]. now rewrite Q4.
    + intros l w Hl. specialize (Hlv l w Hl). unfold var_fits. change max_var_idx with 2147483647%N in Hlv. change u32_max with 4294967295%N. lia.
    + rewrite Q4, Q2. lia.
  - intros i ss lss (I1 & I2 & I3) Hss HP Hcost. rewrite F1, E1 in I1. rewrite F2, E2 in I2. rewrite F3, E3 in I3.
    assert (Hhold : forall a, constrs_hold a ss <-> sat_cnf a f = true /\ sat_cnf a h = true).
    { intros a. rewrite Hss, (holds_clauses a i I2 I3), I1, sat_cnf_app. apply andb_true_iff. }
    assert (Hval : forall a, opb_costs ss a = shifted (map (opb_shift (no_negated_lits o)) xss) (map (obj_value a) obs')).
    { intros a. rewrite Hcost. clear - HP Hh Hord. revert lss HP. remember (map obj_from_cls xss) as os eqn:Eos. revert xss Eos. induction Hh as [|x ob os os' Hxy _ IH]; intros xss Eos lss HP.
      - inversion HP; subst. now destruct xss.
      - destruct xss as [|xs xss]; [discriminate|]. injection Eos as -> ->. inversion HP as [|ls ? lss' ? Hp HP']; subst. cbn [map]. unfold shifted. cbn [combine map fst snd]. f_equal; [|now apply IH].
        destruct Hxy as (Q1 & Q2 & _ & _ & Q5). unfold lits_cost, opb_shift, obj_value. rewrite Q1, Q2, from_cls_offset, variable_softs_ksum, <- from_cls_negated, <- Q5, (neg_weight_perm _ _ Hp), (wsum_perm' a _ _ Hp). cbn [cls_cost].
        destruct (no_negated_lits o); lia. }
    split.
    + intros a Ha. apply Hhold in Ha as [Ha1 Ha2]. split; [exact Ha1|]. rewrite Hval. pose proof (S a Ha2) as HS. clear - HS. remember (map obj_from_cls xss) as os eqn:Eos. revert xss Eos.
      induction HS as [|x ob os os' Hxy _ IH]; intros xss Eos; [destruct xss; [constructor|discriminate]|]. destruct xss as [|xs xss]; [discriminate|]. injection Eos as -> ->. cbn [map]. unfold shifted. cbn [combine map fst snd]. constructor; [|now apply IH].
      rewrite (proj2 (from_cls_spec xs)) in Hxy. lia.
    + intros a Ha. destruct (X a) as (a' & C & Sa & V). exists a'. split; [intros v Hv; apply C; now left|]. split.
      * apply Hhold. split; [|exact Sa]. rewrite <- Ha. apply sat_cnf_agree. intros d l Hd Hl. apply C. left. apply Hk. unfold inst_lits. apply in_app_iff. left. rewrite E1. apply in_concat. eauto.
      * rewrite Hval. f_equal. clear - V. remember (map obj_from_cls xss) as os eqn:Eos. revert xss Eos.
        induction V as [|x ob os os' Hxy _ IH]; intros xss Eos; [destruct xss; [reflexivity|discriminate]|]. destruct xss as [|xs xss]; [discriminate|]. injection Eos as -> ->. cbn [map]. f_equal; [|now apply IH].
        rewrite Hxy. apply from_cls_spec.
Qed.

Lemma stands_for_used (used used' : N -> Prop) P cost P' cost' ks : (forall v, used' v -> used v) -> stands_for used P cost P' cost' ks -> stands_for used' P cost P' cost' ks.
Proof. intros H [H1 H2]. split; [exact H1|]. intros a Ha. destruct (H2 a Ha) as (a' & Hu & Hr). exists a'. split; [intros v Hv; apply Hu, H, Hv|exact Hr]. Qed.
Lemma known_vars n f xss c : clausal_known n f (map obj_from_cls xss) c -> (forall xs, In xs xss -> positive_softs xs) ->
  (forall d l, In d f -> In l d -> (lvar l < i_next c)%N) /\ (forall xs d w l, In xs xss -> In (d, w) xs -> In l d -> (lvar l < i_next c)%N).
Proof.
  intros (E1 & E2 & E3 & Hn & Hk & Ho) Hp. split.
  - intros d l Hd Hl. apply Hk. unfold inst_lits. apply in_app_iff. left. rewrite E1. apply in_concat. eauto.
  - intros xs d w l Hin Hd Hl. pose proof (from_cls_var_in xs d w l (Hp xs Hin) Hd Hl) as H. apply in_map_iff in H as (l' & <- & H). apply (Ho (obj_from_cls xs)); [now apply in_map|exact H].
Qed.
Theorem wcnf2opb_spec o t n es : wcnf_file n es t -> (first_var_idx o <= 2147483648)%N -> opb_softs (softs es) -> (forall c, In c (hards es) -> (Z.of_nat (List.length c) < isize_max)%Z) ->
  (n + N.of_nat (List.length (softs es)) <= max_var_idx)%N ->
  exists out ss, wcnf2opb lord cord o t = ROk out /\ opb_file (first_var_idx o) ss out /\
    stands_for (item_var es) (fun a => sat_cnf a (hards es) = true) (wcnf_costs es) (fun a => constrs_hold a ss) (opb_costs ss) [opb_shift (no_negated_lits o) (softs es)].
Proof.
  intros Ht Hf Hs Hl Hn. destruct (opt_of_wcnf_file n es t Ht ltac:(lia)) as (p & Ep & Eo & Hc). unfold wcnf2opb. rewrite Ep. cbn [rbind]. unfold opt_decompose. rewrite Eo.
  assert (Hb : lits_below n (obj_vars (obj_from_cls (softs es)))) by (apply from_cls_below; intros c w Hin; apply in_softs in Hin; destruct Ht as [Hb _]; exact (Hb _ Hin)).
  pose proof (raise_clausal n (hards es) (o_constrs p) (obj_from_cls (softs es)) [obj_from_cls (softs es)] Hc Hb) as Hc'. set (c := raise_max _ _) in *.
  assert (Hc2 : clausal_known n (hards es) (map obj_from_cls [softs es]) c) by (destruct Hc' as (Q1 & Q2 & Q3 & Q4 & Q5 & Q6); repeat (split; [assumption|]); intros ob Hob; apply Q6; now right).
  destruct (harden_core o n (hards es) [softs es] c Hc2) as (c' & obs' & E & Hok & Hobs & Hst).
  { intros xs [<-|[]]. exact Hs. }
  { cbn [map list_sum fold_right]. lia. }
  { exact Hf. }
  { exact Hl. }
  cbn [map harden_all] in E. destruct (harden cord c (obj_from_cls (softs es))) as [[c1 ob]|]; [|discriminate]. cbn [obind fst snd] in E. injection E as -> <-. cbn [to_res rbind fst snd].
  assert (Hsame : same_constrs c' (o_constrs (opt_compose c' ob))) by apply raise_max_cnf. destruct (Hok _ Hsame) as [Hi Hw]. destruct (Hobs ob (or_introl eq_refl)) as (Q1 & Q2 & Q3 & Q4).
  destruct (opt_write_ok lord (proj1 Hord) o (opt_compose c' ob) Q1 Hw Q3 Q4) as [out Eout]. rewrite Eout.
  unfold opt_write_opb in Eout. destruct (iter_soft_lits lord (o_obj (opt_compose c' ob))) as [ls|] eqn:Els; [|discriminate]. pose proof (iter_soft_ok lord (proj1 Hord) _ _ Els) as HP.
  destruct (opb_write_opt o (o_constrs (opt_compose c' ob)) ls _) as [out'|] eqn:Ew; [|discriminate]. assert (out' = out) as -> by congruence.
  destruct (write_opt_file o _ ls _ out Ew Hi) as (ss & Hfile & Hss & Hcost); [apply (soft_ok_perm _ _ HP), Q2|].
  exists out, ss. split; [reflexivity|]. split; [exact Hfile|].
  apply (stands_for_used (fun v => (v < i_next c)%N)).
  - destruct (known_vars n (hards es) [softs es] c Hc2) as [K1 K2]; [intros xs [<-|[]]; apply Hs|]. intros v (d & x & l & Hin & Hl' & <-). destruct x as [w|]; [|apply (K1 d l); [now apply in_hards|exact Hl']].
    apply (K2 (softs es) d w l (or_introl eq_refl)); [now apply in_softs|exact Hl'].
  - apply (Hst _ ss [ls] Hsame Hss); [|exact Hcost]. constructor; [exact HP|constructor].
Qed.
Theorem mcnf2opb_spec o t n es : mcnf_file n es t -> (first_var_idx o <= 2147483648)%N -> (forall k, opb_softs (msofts k es)) -> (forall c, In c (hards es) -> (Z.of_nat (List.length c) < isize_max)%Z) ->
  (N.max n 1 + N.of_nat (List.length es) <= max_var_idx)%N ->
  exists out ss, mcnf2opb lord cord o t = ROk out /\ opb_file (first_var_idx o) ss out /\
    stands_for (item_var es) (fun a => sat_cnf a (hards es) = true) (mcnf_costs (n_objs es) es) (fun a => constrs_hold a ss) (opb_costs ss)
      (map (fun k => opb_shift (no_negated_lits o) (msofts k es)) (seq 0 (n_objs es))).
Proof.
  intros Ht Hf Hs Hl Hn. destruct (mopt_of_mcnf_file n es t Ht) as (p & Ep & Eo & Hc). unfold mcnf2opb. rewrite Ep. cbn [rbind]. unfold mopt_decompose. rewrite Eo.
  set (xss := map (fun k => msofts k es) (seq 0 (n_objs es))). assert (Ex : mobjs es = map obj_from_cls xss) by (unfold mobjs, xss; now rewrite map_map). rewrite Ex in *.
  set (c := inst_increase _ _). assert (Hbl : forall xs d w, In xs xss -> In (d, w) xs -> lits_below n d).
  { intros xs d w Hin Hd. apply in_map_iff in Hin as (k & <- & _). apply in_msofts in Hd. destruct Ht as [Hb _]. exact (Hb _ Hd). }
  assert (Hc2 : clausal_known (N.max n 1) (hards es) (map obj_from_cls xss) c).
  { destruct Hc as (Q1 & Q2 & Q3 & Q4 & Q5 & Q6). unfold c, inst_increase, clausal_known. cbn [i_cnf i_cards i_pbs i_next]. rewrite next_increase_max. repeat (split; [assumption|]). split; [|split].
    - unfold objs_max. assert (Hm : forall os m, (m <= N.max n 1 - 1)%N -> (forall ob, In ob os -> lits_below n (obj_vars ob)) -> (fold_left (fun v o => match obj_max_var o with Some mv => N.max v mv | None => v end) os m <= N.max n 1 - 1)%N).
      { clear. induction os as [|ob os IH]; intros m Hm Hos; [exact Hm|]. cbn [fold_left]. apply IH; [|intros ob' Hob; apply Hos; now right]. pose proof (obj_max_var_spec ob) as Hv. destruct (obj_max_var ob) as [v|]; [|exact Hm].
        destruct Hv as [(l & Hl & <-) _]. specialize (Hos ob (or_introl eq_refl) l Hl). lia. }
      specialize (Hm (map obj_from_cls xss) 0%N ltac:(lia)). rewrite N.max_lub_iff. split; [lia|]. assert (fold_left (fun v o => match obj_max_var o with Some mv => N.max v mv | None => v end) (map obj_from_cls xss) 0 <= N.max n 1 - 1)%N; [|lia].
      apply Hm. intros ob Hob. apply in_map_iff in Hob as (xs & <- & Hin). apply from_cls_below. intros d w Hd. exact (Hbl xs d w Hin Hd).
    - unfold inst_known, inst_lits. cbn [i_cnf i_cards i_pbs i_next]. intros l Hl'. apply Q5 in Hl'. lia.
    - intros ob Hob l Hl'. cbn [i_next]. specialize (Q6 ob Hob l Hl'). lia. }
  destruct (harden_core o (N.max n 1) (hards es) xss c Hc2) as (c' & obs' & E & Hok & Hobs & Hst).
  { intros xs Hin. apply in_map_iff in Hin as (k & <- & _). apply Hs. }
  { assert (Hlen : (list_sum (map (fun xs => List.length xs) xss) <= List.length es)%nat); [|lia]. unfold xss. rewrite map_map. clear.
    assert (H : forall es m, list_sum (map (fun k => List.length (msofts k es)) (seq 0 m)) = List.length (filter (fun e : mitem => match snd e with Some (k, _) => (k <? m)%nat | None => false end) es)).
    { clear. induction es as [|[c [[k w]|]] es IH]; intros m.
      - induction (seq 0 m) as [|x xs IHx]; [reflexivity|exact IHx].
      - assert (Hk : forall s m, list_sum (map (fun j => List.length (msofts j ((c, Some (k, w)) :: es))) (seq s m)) = (list_sum (map (fun j => List.length (msofts j es)) (seq s m)) + if (s <=? k) && (k <? s + m) then 1 else 0)%nat).
        { clear. intros s m. revert s. induction m as [|m IH]; intros s; [cbn [seq map list_sum fold_right]; destruct (s <=? k)%nat eqn:E1, (k <? s + 0)%nat eqn:E2; cbn [andb]; lia|]. cbn [seq map list_sum fold_right].
          change (msofts s ((c, Some (k, w)) :: es)) with ((if (k =? s)%nat then [(c, w)] else []) ++ msofts s es). rewrite app_length. unfold list_sum in IH. rewrite IH.
          destruct (Nat.eqb_spec k s) as [Hks|Hks]; destruct (s <=? k)%nat eqn:E1, (k <? s + S m)%nat eqn:E2, (S s <=? k)%nat eqn:E3, (k <? S s + m)%nat eqn:E4; cbn [andb List.length]; lia. }
        rewrite Hk, IH. cbn [filter snd]. destruct (Nat.ltb_spec k m), (Nat.leb_spec 0 k), (Nat.ltb_spec k (0 + m)); cbn [andb List.length]; lia.
      - exact (IH m). }
    rewrite H. apply filter_shorter. }
  { exact Hf. }
  { exact Hl. }
  rewrite E. cbn [to_res rbind fst snd].
  assert (Hsame : same_constrs c' (mo_constrs (mopt_compose c' obs'))) by apply mopt_compose_cnf. destruct (Hok _ Hsame) as [Hi Hw].
  unfold mopt_write_opb. assert (Hsl : exists lss, soft_lits_of lord obs' = Some lss /\ Forall2 (fun e ob => Permutation (fst e) (obj_lits ob) /\ snd e = obj_offset ob) lss obs').
  { clear - Hobs Hord. induction obs' as [|ob obs' IH]; [exists []; split; [reflexivity|constructor]|]. destruct IH as (lss & E & HF); [intros ob' Hob; apply Hobs; now right|]. cbn [soft_lits_of]. rewrite E.
    destruct (Hobs ob (or_introl eq_refl)) as (Q1 & _). pose proof (iter_soft_lits_spec lord cord Hord ob) as H. destruct (iter_soft_lits lord ob) as [ls|] eqn:Els; [|easy].
    exists ((ls, obj_offset ob) :: lss). split; [reflexivity|]. constructor; [|exact HF]. split; [|reflexivity]. cbn [fst]. exact (iter_soft_ok lord (proj1 Hord) _ _ Els). }
  change (mo_objs (mopt_compose c' obs')) with obs'. destruct Hsl as (lss & -> & HF).
  assert (Hin : forall ls z, In (ls, z) lss -> opb_soft_ok ls /\ (forall l w, In (l, w) ls -> var_fits o l) /\ (Z.of_nat (total_weight ls) + Z.abs z <= isize_max)%Z).
  { clear - HF Hobs. induction HF as [|[ls0 z0] ob lss obs' [HP Hz] _ IH]; intros ls z Hin; [easy|]. destruct Hin as [Eq|Hin]; [|apply IH; [intros ob' Hob; apply Hobs; now right|exact Hin]]. injection Eq as -> ->. cbn [fst snd] in *. subst z.
    destruct (Hobs ob (or_introl eq_refl)) as (_ & Q2 & Q3 & Q4). split; [apply (soft_ok_perm _ _ HP), Q2|]. split; [intros l w Hl; apply (Q3 l w), (Permutation_in _ HP), Hl|]. now rewrite (total_perm _ _ HP). }
  destruct (write_multi_opt_some o _ lss Hw) as [out Eout]; [intros ls z Hl'; apply (Hin ls z Hl')|]. rewrite Eout.
  destruct (write_multi_file o _ lss out Eout Hi) as (ss & Hfile & Hss & Hcost); [intros ls z Hl'; apply (Hin ls z Hl')|]. exists out, ss. split; [reflexivity|]. split; [exact Hfile|].
  apply (stands_for_used (fun v => (v < i_next c)%N)).
  - destruct (known_vars (N.max n 1) (hards es) xss c Hc2) as [K1 K2]; [intros xs Hx; apply in_map_iff in Hx as (k & <- & _); apply Hs|]. intros v (d & x & l & Hd & Hl' & <-).
    destruct x as [[k w]|]; [|apply (K1 d l); [now apply in_hards|exact Hl']]. apply (K2 (msofts k es) d w l); [|now apply in_msofts|exact Hl']. unfold xss. apply (in_map (fun k => msofts k es)). apply in_seq. split; [lia|].
    cbn [Nat.add]. assert (S k <= n_objs es)%nat; [|lia]. unfold n_objs. pose proof (proj1 (list_max_le (map (fun e : mitem => match snd e with Some (k0, _) => S k0 | None => 0%nat end) es) _) (le_n _)) as Hm. rewrite Forall_forall in Hm.
    apply Hm. change (S k) with ((fun e : mitem => match snd e with Some (k0, _) => S k0 | None => 0%nat end) (d, Some (k, w))). now apply in_map.
  - specialize (Hst _ ss (map fst lss) Hsame Hss). rewrite <- (map_map (fun k => msofts k es) (opb_shift (no_negated_lits o))). fold xss.
    assert (Em : forall a, mcnf_costs (n_objs es) es a = map (fun xs => Z.of_nat (cls_cost a xs)) xss) by (intros a; unfold mcnf_costs, xss; now rewrite map_map).
    destruct Hst as [S1 S2].
    + clear - HF. induction HF as [|e ob lss obs' [HP _] _ IH]; constructor; auto.
    + intros a. rewrite Hcost, map_map. reflexivity.
    + split; intros a Ha; rewrite Em; [now apply S1|now apply S2].
Qed.
End ToOpb.
