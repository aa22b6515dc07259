(** * Lemmas about the benchmark generator: files of clauses, and the clausal encoding of the knapsack problem *)

From Coq Require Import List Bool NArith ZArith Ascii String Arith Lia Permutation.
From Coq Require Import ZifyBool ZifyNat ZifyN.
From Verif Require Import Spec Types Base BoundSpec Constraints ConstrSpec ConstrProofs ConstrEnc EncSpec ConstrEncProofs Atomics Maps NodeDb DpwSpec Dpw DpwSingle Inst OptSpec Text TextProofs FioSpec Dimacs DimacsProofs Opb OpbSpec ToolSpec ToolText Bench BenchSpec BenchProofs.
Import ListNotations.
Open Scope list_scope.

(** ** Single upper bounds *)
Lemma dpw_ub_constr_exact ord srt : iter_order ord -> (forall ns l, Permutation (srt ns l) l) -> forall c next, p_kind c = KUb -> NoDup (map fst (p_lits c)) ->
  (forall l w, In (l, w) (p_lits c) -> (0 < w)%nat) -> lits_below next (map fst (p_lits c)) ->
  (dpw_ub_constr ord srt c next = Some CUnsat /\ forall a, ~ pb_holds a c) \/
  exists cs next', dpw_ub_constr ord srt c next = Some (COk cs next') /\ exact_clauses (map fst (p_lits c)) next next' cs (fun a => pb_holds a c).
Proof.
  intros Hord Hsrt c next Hk Hd Hw Hb. unfold dpw_ub_constr, pb_holds. rewrite Hk. destruct (Z.ltb_spec (p_b c) 0) as [Hn|Hn].
  - left. split; [reflexivity|]. intros a. lia.
  - right. destruct (dpw_ub_exact ord srt (p_lits c) (Z.abs_nat (p_b c)) next Hord Hsrt) with (t0 := mkDpw [] None [] 1 0 0%N 0 db_empty) as (cs & next' & Er & Hle & Hloc & Hs & Hc).
    + intros [l w] Hx. exact (Hw l w Hx).
    + exact Hd.
    + intros x Hx. now apply Hb, in_map.
    + exists cs, next'. split; [exact Er|]. split; [exact Hle|]. split; [exact Hloc|]. split; [intros a Ha; specialize (Hs a Ha); lia|]. intros a Ha. apply Hc. lia.
Qed.

(** ** Writing clauses *)
Definition mline (e : mitem) : mcnf_wline := match snd e with None => LMHard (fst e) | Some (k, w) => LMSoft (fst e) w k end.
Definition item_fits (e : mitem) : Prop := match snd e with None => True | Some (k, w) => is_usize (k + 1) /\ is_usize w end.
Lemma mline_some e : dimacs_lits (fst e) -> (exists t, write_mcnf_line (mline e) = Some t) /\ (exists t, write_wcnf_line (mcnf_to_wcnf (mline e)) = Some t).
Proof.
  destruct e as [c x]. cbn [fst]. intros D. unfold mline. cbn [fst snd]. destruct x as [[k w]|]; cbn [write_mcnf_line mcnf_to_wcnf write_wcnf_line]; unfold write_mo_soft, write_soft; cbn [fst snd]; split; now apply write_prefixed_some.
Qed.
Lemma mline_inv e t : write_mcnf_line (mline e) = Some t \/ write_wcnf_line (mcnf_to_wcnf (mline e)) = Some t -> dimacs_lits (fst e).
Proof.
  destruct e as [c x]. cbn [fst]. unfold mline. cbn [fst snd]. destruct x as [[k w]|]; cbn [write_mcnf_line mcnf_to_wcnf write_wcnf_line]; unfold write_mo_soft, write_soft; cbn [fst snd]; intros [H|H]; exact (write_prefixed_some_inv _ _ _ H).
Qed.
Lemma concat_opt_inv {A} (w : A -> option text) xs t : concat_opt (map w xs) = Some t -> forall x, In x xs -> exists s, w x = Some s.
Proof.
  revert t. induction xs as [|x xs IH]; intros t H y Hy; [easy|]. cbn [map concat_opt] in H. destruct (w x) as [s|] eqn:E; [|discriminate]. destruct (concat_opt (map w xs)) as [t'|]; [|discriminate].
  destruct Hy as [<-|Hy]; [eauto|]. exact (IH t' eq_refl y Hy).
Qed.
Lemma mcnf_lines_file es t : write_mcnf (map mline es) = Some t -> Forall item_fits es -> mcnf_file max_var_idx es t.
Proof.
  intros E Hf. rewrite Forall_forall in Hf. unfold write_mcnf in E. rewrite map_map in E. split.
  { intros e He. destruct (concat_opt_inv _ _ _ E e He) as [s Es]. exact (mline_inv e s (or_introl Es)). }
  destruct (concat_lines (fun e => write_mcnf_line (mline e)) mitem_text es t) as (ls & -> & Hl); [|exact E|].
  - clear E. intros [c x] t1 Hin H. pose proof (Hf _ Hin) as Hx. unfold mline in H. unfold item_fits in Hx. cbn [fst snd] in *. unfold mitem_text. cbn [fst snd]. destruct x as [[k w]|]; cbn [write_mcnf_line] in H.
    + unfold write_mo_soft in H. cbn [fst snd] in H. destruct (write_prefixed_text _ _ _ H) as (b & -> & Hb). eexists. split; [reflexivity|].
      exists (T " "), (T " "), (T " "), b. split; [lia|]. split; [apply Hx|]. split; [apply Hx|].
      split; [intros d [<-|[]]; now left|]. split; [exact one_blank|]. split; [exact one_blank|]. split; [exact Hb|]. rewrite <- !app_assoc. reflexivity.
    + destruct (write_prefixed_text _ _ _ H) as (b & -> & Hb). eexists. split; [reflexivity|]. exists (T " "), b. split; [exact one_blank|]. now split.
  - exists (map Some es), ls. split; [|split; [now left|now rewrite all_present]]. apply Forall2_map_l. eapply Forall2_weaken; [|exact Hl]. intros e l He. now apply line_content.
Qed.
Lemma wcnf_lines_file es t : write_wcnf (map mcnf_to_wcnf (map mline es)) = Some t -> Forall item_fits es -> wcnf_file max_var_idx (map in_one es) t.
Proof.
  intros E Hf. rewrite Forall_forall in Hf. unfold write_wcnf in E. rewrite !map_map in E. split.
  { intros x Hx. apply in_map_iff in Hx as (e & <- & He). destruct (concat_opt_inv _ _ _ E e He) as [s Es]. exact (mline_inv e s (or_intror Es)). }
  destruct (concat_lines (fun e => write_wcnf_line (mcnf_to_wcnf (mline e))) (fun e => witem_text (in_one e)) es t) as (ls & -> & Hl); [|exact E|].
  - clear E. intros [c x] t1 Hin H. pose proof (Hf _ Hin) as Hx. unfold mline in H. unfold item_fits in Hx. cbn [fst snd] in *. unfold witem_text, in_one. cbn [fst snd]. destruct x as [[k w]|]; cbn [write_wcnf_line mcnf_to_wcnf option_map snd] in *.
    + unfold write_soft in H. cbn [fst snd] in H. destruct (write_prefixed_text _ _ _ H) as (b & -> & Hb). eexists. split; [reflexivity|].
      exists (T " "), b. split; [apply Hx|]. split; [exact one_blank|]. split; [exact Hb|]. now rewrite <- app_assoc.
    + destruct (write_prefixed_text _ _ _ H) as (b & -> & Hb). eexists. split; [reflexivity|]. exists (T " "), b. split; [exact one_blank|]. now split.
  - left. exists (map Some (map in_one es)), ls. split; [|split; [now left|now rewrite all_present]]. apply Forall2_map_l, Forall2_map_l. eapply Forall2_weaken; [|exact Hl]. intros e l He. now apply line_content.
Qed.
Definition bench_file (single : bool) (es : list mitem) (t : text) : Prop := if single then wcnf_file max_var_idx (map in_one es) t else mcnf_file max_var_idx es t.
(** The file for the clauses yielded *)
Lemma cnf_bench {St} (next : St -> istep St mcnf_wline) s single es t : yields next s (map mline es) -> Forall item_fits es ->
  produces (fun fuel => bench_write_cnf single (drain next fuel s)) t -> bench_file single es t.
Proof.
  intros [k E] Hf [k' P]. specialize (P (k + k')%nat ltac:(lia)). rewrite (drain_mono next k s _ E (k + k') ltac:(lia)) in P. cbn [bench_write_cnf] in P. unfold bench_file. destruct single.
  - destruct (write_wcnf (map mcnf_to_wcnf (map mline es))) as [t'|] eqn:Ew; [|discriminate]. injection P as <-. now apply wcnf_lines_file.
  - destruct (write_mcnf (map mline es)) as [t'|] eqn:Ew; [|discriminate]. injection P as <-. now apply mcnf_lines_file.
Qed.
Lemma cnf_bench_some {St} (next : St -> istep St mcnf_wline) s single es : yields next s (map mline es) -> (forall e, In e es -> dimacs_lits (fst e)) ->
  exists t, produces (fun fuel => bench_write_cnf single (drain next fuel s)) t.
Proof.
  intros Hy Hd. destruct single.
  - destruct (concat_some (fun e => write_wcnf_line (mcnf_to_wcnf (mline e))) es) as [t E]; [intros e He; now apply (mline_some e), Hd|]. exists t. apply (yields_produces next (bench_write_cnf true) s _ t Hy). cbn [bench_write_cnf]. unfold write_wcnf. now rewrite !map_map, E.
  - destruct (concat_some (fun e => write_mcnf_line (mline e)) es) as [t E]; [intros e He; now apply (mline_some e), Hd|]. exists t. apply (yields_produces next (bench_write_cnf false) s _ t Hy). cbn [bench_write_cnf]. unfold write_mcnf. now rewrite map_map, E.
Qed.
Lemma in_one_hards es : hards (map in_one es) = hards es.
Proof. unfold hards. induction es as [|[c [[k w]|]] es IH]; [reflexivity|exact IH|]. cbn in *. now f_equal. Qed.

(** ** Knapsack *)
Definition knap_softs (m : nat) (k : knapsack) : list mitem :=
  List.concat (map (fun i => map (fun o => ([mkLit (N.of_nat i) false], Some (o, value_at o (nth i (ks_items k) no_item)))) (seq 0 m)) (seq 0 (List.length (ks_items k)))).
Definition knap_items (m : nat) (k : knapsack) (cs : cnf) : list mitem := map (fun c => (c, None)) cs ++ knap_softs m k.

Lemma ck_yields m k cs : (N.of_nat (List.length (ks_items k)) <= max_var_idx)%N -> (forall it, In it (ks_items k) -> List.length (it_values it) = m) -> yields (ck_next k) (KCap cs) (map mline (knap_items m k cs)).
Proof.
  intros Hn Hv. unfold knap_items. rewrite map_app, map_map. induction cs as [|c cs IH]; [|cbn [map app]; eapply yields_step; [reflexivity|exact IH]].
  cbn [map app]. eapply yields_loop; [reflexivity|]. unfold knap_softs. set (n := List.length (ks_items k)) in *.
  assert (H : forall d i, (i + d = n)%nat -> yields (ck_next k) (KSoft i 0) (map mline (List.concat (map (fun i => map (fun o => ([mkLit (N.of_nat i) false], Some (o, value_at o (nth i (ks_items k) no_item)))) (seq 0 m)) (seq i d))))); [|now apply H].
  induction d as [|d IH]; intros i Hi.
  - apply yields_end. cbn [ck_next]. fold n. now replace (n <=? i)%nat with true by lia.
  - cbn [seq map List.concat]. rewrite map_app.
    assert (Hit : nth_error (ks_items k) i = Some (nth i (ks_items k) no_item)) by (apply nth_error_nth'; fold n; lia).
    assert (Hlen : List.length (it_values (nth i (ks_items k) no_item)) = m) by (apply Hv, nth_In; fold n; lia).
    assert (H : forall e o, (o + e = m)%nat -> yields (ck_next k) (KSoft i o) (map mline (map (fun o => ([mkLit (N.of_nat i) false], Some (o, value_at o (nth i (ks_items k) no_item)))) (seq o e)) ++
      map mline (List.concat (map (fun i => map (fun o => ([mkLit (N.of_nat i) false], Some (o, value_at o (nth i (ks_items k) no_item)))) (seq 0 m)) (seq (S i) d))))); [|now apply H].
    induction e as [|e IHe]; intros o Ho.
    + eapply yields_loop; [|apply (IH (S i)); lia]. cbn [ck_next]. fold n. replace (n <=? i)%nat with false by lia. rewrite Hit. cbn [yield]. rewrite Hlen. replace (m <=? o)%nat with true by lia. now rewrite Nat.add_1_r.
    + cbn [seq map app]. eapply yields_step; [|apply (IHe (S o)); lia]. cbn [ck_next]. fold n. replace (n <=? i)%nat with false by lia. rewrite Hit. cbn [yield]. rewrite Hlen. replace (m <=? o)%nat with false by lia.
      rewrite lit_at_ok by (change max_var_idx with 2147483647%N in *; lia). cbn [yield]. rewrite (nth_error_nth' _ 0%nat) by lia. cbn [yield]. now rewrite Nat.add_1_r.
Qed.
Lemma hards_app {X} (xs ys : list (clause * option X)) : hards (xs ++ ys) = hards xs ++ hards ys. Proof. apply flat_map_app. Qed.
Lemma hards_plain {X} (cs : cnf) : hards (map (fun c => (c, @None X)) cs) = cs.
Proof. unfold hards. induction cs as [|c cs IH]; [reflexivity|]. cbn in *. now f_equal. Qed.
Lemma in_knap_softs m k e : In e (knap_softs m k) -> exists i o, (i < List.length (ks_items k))%nat /\ (o < m)%nat /\ e = ([mkLit (N.of_nat i) false], Some (o, value_at o (nth i (ks_items k) no_item))).
Proof.
  intros H. apply in_concat in H as (row & Hr & H). apply in_map_iff in Hr as (i & <- & Hi). apply in_map_iff in H as (o & <- & Ho). apply in_seq in Hi. apply in_seq in Ho. exists i, o. repeat split; lia.
Qed.
Lemma hards_none {X} (es : list (clause * option X)) : (forall e, In e es -> snd e <> None) -> hards es = [].
Proof. unfold hards. induction es as [|[c [x|]] es IH]; intros H; [reflexivity|apply IH; intros; apply H; now right|]. now destruct (H _ (or_introl eq_refl)). Qed.
Lemma knap_hards m k cs : hards (knap_items m k cs) = cs.
Proof.
  unfold knap_items. rewrite hards_app, hards_plain, hards_none; [apply app_nil_r|]. intros e He. apply in_knap_softs in He as (i & o & _ & _ & ->). discriminate.
Qed.
Lemma cls_cost_app a xs ys : cls_cost a (xs ++ ys) = (cls_cost a xs + cls_cost a ys)%nat.
Proof. induction xs as [|[c w] xs IH]; [reflexivity|]. cbn [app cls_cost]. lia. Qed.
Lemma msofts_app k xs ys : msofts k (xs ++ ys) = msofts k xs ++ msofts k ys. Proof. apply flat_map_app. Qed.
Lemma softs_app xs ys : softs (xs ++ ys) = softs xs ++ softs ys. Proof. apply flat_map_app. Qed.
Lemma msofts_plain k (cs : cnf) : msofts k (map (fun c => (c, None)) cs) = [].
Proof. induction cs as [|c cs IH]; [reflexivity|exact IH]. Qed.
Lemma left_value (a : asg) k o : sum_to (List.length (ks_items k)) (fun i => if a (N.of_nat i) then 0%nat else value_at o (nth i (ks_items k) no_item)) = (all_value k o - pick_value a k o)%nat.
Proof.
  pose proof (picked_rest a (map (value_at o) (ks_items k))) as H. rewrite map_length in H. fold (pick_value a k o) (all_value k o) in H.
  rewrite (sum_to_ext _ _ (fun i => if a (N.of_nat i) then 0%nat else nth i (map (value_at o) (ks_items k)) 0%nat)); [lia|]. intros i _. now rewrite nth_value.
Qed.
Lemma knap_cost a m k cs j : (j < m)%nat -> cls_cost a (msofts j (knap_items m k cs)) = (all_value k j - pick_value a k j)%nat.
Proof.
  intros Hj. unfold knap_items. rewrite msofts_app, msofts_plain. cbn [app]. rewrite <- left_value. unfold knap_softs, sum_to. set (n := List.length (ks_items k)).
  induction (seq 0 n) as [|i is_ IH]; [reflexivity|]. cbn [map List.concat]. rewrite msofts_app, cls_cost_app, IH, list_sum_cons. f_equal.
  set (v := fun o => value_at o (nth i (ks_items k) no_item)). change (value_at j (nth i (ks_items k) no_item)) with (v j).
  assert (H : forall l, NoDup l -> cls_cost a (msofts j (map (fun o => ([mkLit (N.of_nat i) false], Some (o, v o))) l)) = if in_dec Nat.eq_dec j l then (if a (N.of_nat i) then 0%nat else v j) else 0%nat).
  { induction l as [|o l IHl]; intros Hd; [reflexivity|]. inversion_clear Hd. cbn [map]. change (msofts j (?x :: ?y)) with (msofts j ([x] ++ y)). rewrite msofts_app, cls_cost_app, IHl by assumption. unfold msofts at 1. cbn [flat_map snd fst app].
    destruct (Nat.eqb_spec o j) as [->|Hn].
    - cbn [cls_cost sat_clause existsb app]. unfold lit_true. cbn [lvar lneg]. destruct (in_dec Nat.eq_dec j l) as [Hin|Hin]; [contradiction|]. destruct (in_dec Nat.eq_dec j (j :: l)) as [_|Hx]; [|now destruct Hx; left].
      destruct (a (N.of_nat i)); cbn; lia.
    - cbn [cls_cost app]. destruct (in_dec Nat.eq_dec j l), (in_dec Nat.eq_dec j (o :: l)) as [H1|H1]; try reflexivity; [destruct H1; now right|]. destruct H1 as [->|H1]; [easy|contradiction]. }
  rewrite H by apply seq_NoDup. destruct (in_dec Nat.eq_dec j (seq 0 m)) as [_|Hx]; [reflexivity|]. destruct Hx. apply in_seq. lia.
Qed.
Lemma knap_single_cost a m k cs : cls_cost a (softs (map in_one (knap_items m k cs))) = sum_to m (fun j => (all_value k j - pick_value a k j)%nat).
Proof.
  assert (Hs : forall es, softs (map in_one es) = flat_map (fun e : mitem => match snd e with Some (_, w) => [(fst e, w)] | None => [] end) es).
  { induction es as [|[c [[x w]|]] es IH]; [reflexivity|cbn in *; now f_equal|exact IH]. }
  assert (Hall : forall es, (forall e j w, In e es -> snd e = Some (j, w) -> (j < m)%nat) -> cls_cost a (softs (map in_one es)) = sum_to m (fun j => cls_cost a (msofts j es))).
  { induction es as [|e es IH]; intros H; [symmetry; apply (sum_to_zero m (fun j => cls_cost a (msofts j []))); reflexivity|]. change (map in_one (e :: es)) with ([in_one e] ++ map in_one es). rewrite softs_app, cls_cost_app, IH by (intros e1 j1 w1 He1; apply (H e1 j1 w1); now right).
    rewrite (sum_to_ext m (fun j => cls_cost a (msofts j (e :: es))) (fun j => (cls_cost a (msofts j [e]) + cls_cost a (msofts j es))%nat)) by (intros j _; change (e :: es) with ([e] ++ es); now rewrite msofts_app, cls_cost_app).
    rewrite sum_to_plus. f_equal. destruct e as [c [[j w]|]].
    - rewrite (sum_to_one m _ j); [|now apply (H (c, Some (j, w)) j w); [left|]|].
      + unfold msofts, softs, in_one. cbn [flat_map snd fst app option_map]. now rewrite Nat.eqb_refl.
      + intros i _ Hi. unfold msofts. cbn [flat_map snd fst app]. destruct (Nat.eqb_spec j i); [congruence|reflexivity].
    - symmetry. apply (sum_to_zero m (fun j => cls_cost a (msofts j [(c, None)]))). reflexivity. }
  rewrite Hall.
  - apply sum_to_ext. intros j Hj. now apply knap_cost.
  - intros e j w He E. unfold knap_items in He. apply in_app_iff in He as [He|He]; [apply in_map_iff in He as (c & <- & _); discriminate|].
    apply in_knap_softs in He as (i & o & _ & Ho & ->). injection E as <- _. exact Ho.
Qed.
Lemma n_objs_app xs ys : n_objs (xs ++ ys) = Nat.max (n_objs xs) (n_objs ys). Proof. unfold n_objs. rewrite map_app. apply list_max_app. Qed.
Lemma knap_n_objs m k cs : ks_items k <> [] -> n_objs (knap_items m k cs) = m.
Proof.
  intros Hne. unfold knap_items. rewrite n_objs_app. assert (n_objs (map (fun c : clause => (c, None)) cs) = 0%nat) as -> by (unfold n_objs; rewrite map_map; induction cs as [|c cs IH]; [reflexivity|exact IH]).
  rewrite Nat.max_0_l. unfold knap_softs. assert (Hr : forall i, n_objs (map (fun o => ([mkLit (N.of_nat i) false], Some (o, value_at o (nth i (ks_items k) no_item)))) (seq 0 m)) = m).
  { intros i. clear Hne. induction m as [|m' IH]; [reflexivity|]. rewrite seq_S, map_app, n_objs_app, IH. unfold n_objs. cbn [map snd list_max fold_right Nat.add]. lia. }
  destruct (List.length (ks_items k)) as [|n] eqn:E; [destruct (ks_items k); [easy|discriminate]|]. rewrite <- cons_seq. cbn [map List.concat]. rewrite n_objs_app, Hr.
  assert (forall l, (n_objs (List.concat (map (fun i => map (fun o => ([mkLit (N.of_nat i) false], Some (o, value_at o (nth i (ks_items k) no_item)))) (seq 0 m)) l)) <= m)%nat).
  { induction l as [|i l IH]; [apply Nat.le_0_l|]. cbn [map List.concat]. rewrite n_objs_app, Hr. lia. }
  specialize (H (seq 1 n)). lia.
Qed.

Section Run.
Context (ord : wmap -> wmap) (srt : list node -> list nodecon -> list nodecon) (Hord : iter_order ord) (Hsrt : forall ns l, Permutation (srt ns l) l).
Context (m : nat) (k : knapsack) (Hok : knapsack_ok m k) (Hw : forall it, In it (ks_items k) -> (1 <= it_weight it)%nat).
Lemma ck_clauses : exists cs next', ck_new ord srt k = Some (KCap cs) /\ dpw_ub_constr ord srt (knap_cap k) (N.of_nat (List.length (ks_items k))) = Some (COk cs next') /\
  exact_clauses (map (fun i => mkLit (N.of_nat i) false) (seq 0 (List.length (ks_items k)))) (N.of_nat (List.length (ks_items k))) next' cs (fun a => (pick_weight a k <= ks_capacity k)%nat).
Proof using Hord Hsrt Hok Hw.
  destruct Hok as (Hne & Hm & Hv). set (n := List.length (ks_items k)).
  assert (Ec : p_lits (knap_cap k) = map (fun i => (mkLit (N.of_nat i) false, it_weight (nth i (ks_items k) no_item))) (seq 0 n) /\ p_b (knap_cap k) = Z.of_nat (ks_capacity k)).
  { unfold knap_cap, pb_new_ub, pb_new. rewrite (convert_pos (fun i => mkLit (N.of_nat i) false) (fun i => it_weight (nth i (ks_items k) no_item))). cbn [p_lits p_b]. split; [reflexivity|lia]. }
  destruct Ec as [El Eb].
  destruct (dpw_ub_exact ord srt (p_lits (knap_cap k)) (ks_capacity k) (N.of_nat n) Hord Hsrt) with (t0 := mkDpw [] None [] 1 0 0%N 0 db_empty) as (cs & next' & Er & Hle & Hloc & Hsound & Hcomp).
  { rewrite El. intros x Hx. apply in_map_iff in Hx as (i & <- & Hi). apply in_seq in Hi. cbn [snd]. apply Hw, nth_In. fold n. lia. }
  { rewrite El, map_map. cbn [fst]. assert (Hd : forall l, NoDup l -> NoDup (map (fun i => mkLit (N.of_nat i) false) l)); [|apply Hd, seq_NoDup].
    induction l as [|x l IH]; intros Hd; [constructor|]. inversion_clear Hd. cbn [map]. constructor; [|now apply IH]. intros Hx. apply in_map_iff in Hx as (y & E & Hy). injection E as E. apply Nat2N.inj in E. now subst. }
  { rewrite El. intros x Hx. apply in_map_iff in Hx as (i & <- & Hi). apply in_seq in Hi. cbn [fst lvar]. lia. }
  assert (Hsum : forall a, wsum a (p_lits (knap_cap k)) = pick_weight a k).
  { intros a. rewrite El, (wsum_seq a (fun i => N.of_nat i)). unfold pick_weight. rewrite picked_sum, map_length. fold n. apply sum_to_ext. intros i _. rewrite nth_weight. now rewrite xorb_false_r. }
  assert (Hdc : dpw_ub_constr ord srt (knap_cap k) (N.of_nat n) = Some (COk cs next')).
  { unfold dpw_ub_constr. rewrite Eb. replace (Z.of_nat (ks_capacity k) <? 0)%Z with false by lia. rewrite Zabs2Nat.id. exact Er. }
  exists cs, next'. split; [|split; [exact Hdc|]].
  - unfold ck_new. fold n. rewrite (enumerate_map _ no_item), map_map. cbn [fst snd]. fold n. change (pb_new_ub _ _) with (knap_cap k). now rewrite Hdc.
  - split; [exact Hle|]. split; [|split].
    + intros c l Hc Hl. destruct (Hloc c l Hc Hl) as [(y & Hy & E)|H]; [|now right]. left. exists y. split; [|exact E]. rewrite El, map_map in Hy. exact Hy.
    + intros a Ha. rewrite <- Hsum. now apply Hsound.
    + intros a Ha. apply Hcomp. now rewrite Hsum.
Qed.
Lemma knap_fits cs : values_fit m k -> Forall item_fits (knap_items m k cs).
Proof using Hok.
  destruct Hok as (Hne & Hm & Hv). intros [Hmu Hvu]. apply Forall_app. split; apply Forall_forall; intros e He.
  - apply in_map_iff in He as (x & <- & Hx). exact Logic.I.
  - apply in_knap_softs in He as (i & o & Hi & Ho & ->). cbn [item_fits snd]. split; [unfold is_usize in *; lia|]. apply (Hvu (nth i (ks_items k) no_item)); [now apply nth_In|]. apply nth_In. rewrite Hv by now apply nth_In. exact Ho.
Qed.
Lemma knap_meaning : exists cs, ck_new ord srt k = Some (KCap cs) /\ knapsack_clauses m k (knap_items m k cs).
Proof using Hord Hsrt Hok Hw.
  destruct ck_clauses as (cs & next' & E & _ & Hle & _ & Hs & Hc). exists cs. split; [exact E|]. destruct Hok as (Hne & Hm & Hv). split; [now apply knap_n_objs|]. rewrite knap_hards. split; [exact Hs|]. split.
  - intros a Ha. destruct (Hc a Ha) as (a' & Hch & Hs'). exists a'. split; [|exact Hs']. intros i Hi. apply Hch. lia.
  - intros a. unfold mcnf_costs. apply map_ext_in. intros j Hj. apply in_seq in Hj. now rewrite knap_cost by lia.
Qed.
Theorem cnf_knapsack_spec : values_fit m k -> (N.of_nat (List.length (ks_items k)) <= max_var_idx)%N -> forall single t, produces (gen_cnf_knapsack ord srt single k) t ->
  exists es, knapsack_clauses m k es /\ (single = false -> mcnf_file max_var_idx es t) /\
    (single = true -> wcnf_file max_var_idx (map in_one es) t /\ forall a, cls_cost a (softs (map in_one es)) = sum_to m (fun j => (all_value k j - pick_value a k j)%nat)).
Proof using Hord Hsrt Hok Hw.
  intros Hvf Hn single t P. destruct knap_meaning as (cs & E & He). exists (knap_items m k cs). split; [exact He|]. unfold gen_cnf_knapsack in P. rewrite E in P.
  assert (Hf : bench_file single (knap_items m k cs) t) by (apply (cnf_bench (ck_next k) (KCap cs)); [apply ck_yields; [exact Hn|apply Hok]|now apply knap_fits|exact P]).
  split; intros ->; [exact Hf|]. split; [exact Hf|]. intros a. apply knap_single_cost.
Qed.
(** Nothing but an overflow of the variable indices keeps the tool from writing a file *)
Theorem cnf_knapsack_runs : exists cs next', dpw_ub_constr ord srt (knap_cap k) (N.of_nat (List.length (ks_items k))) = Some (COk cs next') /\
  ((next' <= max_var_idx)%N -> forall single, exists t, produces (gen_cnf_knapsack ord srt single k) t).
Proof using Hord Hsrt Hok Hw.
  destruct ck_clauses as (cs & next' & E & Ed & Hle & Hloc & _). exists cs, next'. split; [exact Ed|]. intros Hmax single. unfold gen_cnf_knapsack. rewrite E.
  apply (cnf_bench_some (ck_next k) (KCap cs) single (knap_items m k cs)); [apply ck_yields; [lia|apply Hok]|].
  intros e He. unfold dimacs_lits. change max_var_idx with 2147483647%N in Hmax. apply in_app_iff in He as [He|He].
  - apply in_map_iff in He as (x & <- & Hx). intros l Hl. cbn [fst] in Hl. destruct (Hloc x l Hx Hl) as [(y & Hy & <-)|H]; [|lia]. apply in_map_iff in Hy as (i & <- & Hi). apply in_seq in Hi. cbn [lvar]. lia.
  - apply in_knap_softs in He as (i & o & Hi & Ho & ->). intros l [<-|[]]. cbn [lvar]. lia.
Qed.
End Run.
