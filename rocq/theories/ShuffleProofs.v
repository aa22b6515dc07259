(** * Proofs about shuffling problems *)

From Coq Require Import List Bool NArith ZArith Ascii String Lia Permutation.
From Coq Require Import ZifyBool ZifyNat ZifyN.
From Verif Require Import Spec Types TypesProofs Base ConstrSpec Constraints ConstrProofs ConstrEnc Maps EncSpec VarSpec VarMan VarManProofs NodeDb Inst InstSpec InstProofs InstReindex ClauseProofs Opt OptSpec OptProofs OptConv OptReindex Text TextProofs FioSpec Dimacs
  DimacsSpec DimacsProofs DimacsGrammar Opb OpbSpec OpbProofs OpbInst Tools ToolSpec ToolText ToolConv ToolProofs ToolOpb ShuffleSpec.
Import ListNotations.
Open Scope list_scope.

(** ** The renaming *)

Lemma rand_start_ok sv n : permutes sv -> exists s, rand_start sv n = Some s /\ ra_next s = n /\ renaming n (fun v => rand_reindex v s).
Proof.
  intros Hs. unfold rand_start. pose proof (Hs (map N.of_nat (seq 0 (N.to_nat n)))) as P. destruct (rand_spec n _ P) as (s & E & H1 & _ & H3 & _). exists s. split; [exact E|].
  assert (Ein : ra_in s = sv (map N.of_nat (seq 0 (N.to_nat n))) /\ ra_next s = n) by (unfold rand_init in E; destruct (rand_invert _ _ _) as [out|]; [|discriminate]; cbn [obind] in E; injection E as <-; auto). destruct Ein as [Ein En].
  assert (Hlen : List.length (ra_in s) = N.to_nat n) by (rewrite Ein, (Permutation_length P), map_length, seq_length; reflexivity).
  assert (Hid : forall v, (n <= v)%N -> rand_reindex v s = v) by (intros v Hv; unfold rand_reindex; rewrite (proj2 (nth_error_None (ra_in s) (N.to_nat v))) by lia; reflexivity).
  split; [exact En|]. split; [intros u v; apply H1|]. split; [|split; [exact H3|exact Hid]]. intros u. destruct (N.ltb_spec u n) as [L|L]; [|exists u; now apply Hid].
  assert (Hin : In u (ra_in s)) by (rewrite Ein; apply (Permutation_in _ (Permutation_sym P)); apply in_map_iff; exists (N.to_nat u); rewrite in_seq; lia).
  apply In_nth_error in Hin as [k Hk]. exists (N.of_nat k). unfold rand_reindex. rewrite Nnat.Nat2N.id. now rewrite Hk.
Qed.

Lemma renaming_more n n' r : renaming n r -> (n <= n')%N -> renaming n' r.
Proof.
  intros (H1 & H2 & H3 & H4) Hl. split; [exact H1|]. split; [exact H2|]. split; [|intros v Hv; apply H4; lia].
  intros v. destruct (N.ltb_spec v n) as [L|L]; [pose proof (proj1 (H3 v) L); lia|]. now rewrite H4.
Qed.

(** ** Reindexing with a fixed renaming *)

Section Const.
Context (s : randman) (lord : list (lit * nat) -> list (lit * nat)) (cord : list (clause * nat) -> list (clause * nat)).
Let r := fun v => rand_reindex v s.
Lemma re_list_const {A} (g : A -> randman -> option (A * randman)) h xs : (forall x, g x s = Some (h x, s)) -> re_list g xs s = Some (map h xs, s).
Proof. intros H. induction xs as [|x xs IH]; [reflexivity|]. cbn [re_list map]. rewrite H. cbn [obind]. rewrite IH. reflexivity. Qed.
Lemma re_lits_const ls : re_list (re_lit rand_step) ls s = Some (map (rename_lit r) ls, s).
Proof. apply re_list_const. intros l. reflexivity. Qed.
Lemma re_cnf_const f : re_list (re_list (re_lit rand_step)) f s = Some (rename_cnf r f, s).
Proof. apply re_list_const. intros c. apply re_lits_const. Qed.
Lemma inst_reindex_const f n : inst_reindex rand_step (mkInst f [] [] n) s = Some (rename_cnf r f, [], [], s).
Proof. unfold inst_reindex. cbn [i_cnf i_cards i_pbs re_list]. rewrite re_cnf_const. reflexivity. Qed.
Lemma obj_reindex_const o : obj_reindex lord cord rand_step o s = Some (re_obj lord cord r o, s).
Proof.
  destruct o as [z ls cs|z u ls cs]; cbn [obj_reindex re_obj].
  - rewrite (re_list_const _ (ren_wlit r)) by (intros [l w]; reflexivity). cbn [obind]. rewrite (re_list_const _ (ren_wcl r)); [reflexivity|]. intros [c w]. unfold re_wcl. cbn [fst snd]. rewrite re_lits_const. reflexivity.
  - rewrite re_lits_const. cbn [obind]. change (re_list (re_list (re_lit rand_step)) cs s) with (re_list (re_list (re_lit rand_step)) cs s). rewrite re_cnf_const. reflexivity.
Qed.
Lemma mopt_reindex_const f n obs : mopt_reindex rand_step lord cord (mkMopt (mkInst f [] [] n) obs) s = Some (rename_cnf r f, [], [], map (re_obj lord cord r) obs, s).
Proof. unfold mopt_reindex. cbn [mo_objs mo_constrs]. rewrite (re_list_const _ (re_obj lord cord r)) by apply obj_reindex_const. cbn [obind]. rewrite inst_reindex_const. reflexivity. Qed.
End Const.

(** ** Shuffled objectives *)

Lemma shuffle_renamed sl sc r o ob : permutes sl -> permutes sc -> obj_renamed r o ob -> obj_renamed r o (obj_shuffle sl sc ob).
Proof.
  intros Hl Hc (H1 & H2 & H3). destruct ob as [z ls cs|z u ls cs]; [now split|]. cbn [obj_shuffle]. split; [exact H1|]. cbn [obj_lits obj_cls] in *.
  split; [rewrite <- H2; apply Permutation_map, Hl|rewrite <- H3; apply Permutation_map, Hc].
Qed.
Lemma ksum_mapped {A B} (p : B -> bool) (g : A -> B) (m : list (A * nat)) : ksum p (map (fun e => (g (fst e), snd e)) m) = ksum (fun k => p (g k)) m.
Proof. induction m as [|[k w] m IH]; [reflexivity|]. cbn [map fst snd ksum]. now rewrite IH. Qed.
Lemma renamed_soft_sum p r o ob : obj_renamed r o ob -> soft_sum p ob = soft_sum (fun d => p (map (rename_lit r) d)) o.
Proof.
  intros (_ & H2 & H3). unfold soft_sum. rewrite (ksum_perm _ _ _ H2), (ksum_perm _ _ _ H3).
  assert (El : obj_lits (rename_obj r o) = map (fun e => (rename_lit r (fst e), snd e)) (obj_lits o)) by (destruct o; cbn [rename_obj obj_lits]; rewrite ?map_map; reflexivity).
  assert (Ec : obj_cls (rename_obj r o) = map (fun e => (map (rename_lit r) (fst e), snd e)) (obj_cls o)) by (destruct o; cbn [rename_obj obj_cls]; rewrite ?map_map; reflexivity).
  rewrite El, Ec, !ksum_mapped. reflexivity.
Qed.
Lemma rename_sat_cnf a r f : sat_cnf a (rename_cnf r f) = sat_cnf (fun v => a (r v)) f.
Proof.
  unfold sat_cnf, rename_cnf. induction f as [|c f IH]; [reflexivity|]. cbn [map forallb]. rewrite IH. f_equal.
  unfold sat_clause. induction c as [|l c IHc]; [reflexivity|]. cbn [map existsb]. now rewrite IHc.
Qed.

Section Softs.
Context (lord : list (lit * nat) -> list (lit * nat)) (cord : list (clause * nat) -> list (clause * nat)) (Hord : orders lord cord).
Context (sl : list lit -> list lit) (sc : list clause -> list clause) (Hl : permutes sl) (Hc : permutes sc).
(** the soft clauses that are written *)
Lemma shuffled_softs r xs : (forall u v, r u = r v -> u = v) -> let ys := iter_soft_cls lord cord (obj_shuffle sl sc (re_obj lord cord r (obj_from_cls xs))) in
  same_softs ys (rename_softs r xs) /\ (forall c w, In (c, w) ys -> (w <= list_sum (map snd xs))%nat /\ exists d w', In (d, w') xs /\ c = map (rename_lit r) d) /\
  forall a, cls_cost a ys = cls_cost (fun v => a (r v)) xs.
Proof.
  intros Hi ys. pose proof (from_cls_spec xs) as [W V]. assert (R : obj_renamed r (obj_from_cls xs) (obj_shuffle sl sc (re_obj lord cord r (obj_from_cls xs)))).
  { apply shuffle_renamed; [exact Hl|exact Hc|]. apply re_obj_renamed; [exact Hord|exact W|]. intros l l' _ _. apply Hi. }
  set (ob := obj_shuffle sl sc _) in *.
  assert (Hk : forall p, ksum p ys = ksum (fun d => p (map (rename_lit r) d)) xs).
  { intros p. unfold ys. rewrite (ksum_perm p _ _ (iter_soft_cls_spec lord cord Hord ob)), ksum_app. transitivity (soft_sum p ob); [|rewrite (renamed_soft_sum p _ _ _ R); apply from_cls_soft_sum]. unfold soft_sum. f_equal.
    clear. induction (obj_lits ob) as [|[l w] ls IH]; [reflexivity|]. cbn [map fst snd ksum]. now rewrite IH. }
  split; [|split].
  - intros c. rewrite !soft_weight_ksum, Hk. unfold rename_softs. now rewrite ksum_mapped.
  - intros c w Hin. split.
    + pose proof (soft_sum_in lord cord ob c w Hord Hin) as Hw. rewrite (renamed_soft_sum _ _ _ _ R), from_cls_total in Hw. exact Hw.
    + pose proof (iter_soft_cls_spec lord cord Hord ob) as P. apply (Permutation_in _ P) in Hin. destruct R as (_ & R2 & R3). apply in_app_or in Hin as [Hin|Hin].
      * apply in_map_iff in Hin as ([l k] & E & Hin). injection E as <- <-. apply (Permutation_in _ R2) in Hin.
        assert (El : obj_lits (rename_obj r (obj_from_cls xs)) = map (fun e => (rename_lit r (fst e), snd e)) (obj_lits (obj_from_cls xs))) by (destruct (obj_from_cls xs); cbn [rename_obj obj_lits]; rewrite ?map_map; reflexivity).
        rewrite El in Hin. apply in_map_iff in Hin as ([l' k'] & E & Hin). injection E as <- <-. destruct (from_cls_lit xs l' k' Hin) as (w' & Hw). exists [neg l'], w'. split; [exact Hw|reflexivity].
      * apply (Permutation_in _ R3) in Hin.
        assert (Ec : obj_cls (rename_obj r (obj_from_cls xs)) = map (fun e => (map (rename_lit r) (fst e), snd e)) (obj_cls (obj_from_cls xs))) by (destruct (obj_from_cls xs); cbn [rename_obj obj_cls]; rewrite ?map_map; reflexivity).
        rewrite Ec in Hin. apply in_map_iff in Hin as ([d k'] & E & Hin). injection E as <- <-. destruct (from_cls_cls xs d k' Hin) as (w' & Hw). exists d, w'. split; [exact Hw|reflexivity].
  - intros a. pose proof (iter_soft_cls_value lord cord Hord ob a) as E. fold ys in E. rewrite (renamed_value _ _ _ R a), V in E. destruct R as [R _]. rewrite R, from_cls_offset in E. lia.
Qed.

Lemma rename_below n r c : renaming n r -> lits_below n c -> lits_below n (map (rename_lit r) c).
Proof. intros (_ & _ & H & _) Hb l Hin. apply in_map_iff in Hin as (l' & <- & Hin). cbn [rename_lit lvar]. apply (proj1 (H _)), Hb, Hin. Qed.

Section Tools.
Context (sv : list N -> list N) (Hv : permutes sv) (scl : list clause -> list clause) (Hcl : permutes scl).

Theorem shuffle_cnf_spec t n m f : cnf_file n m f t -> (n <= max_var_idx)%N -> (N.of_nat (List.length f) <= usize_max)%N ->
  exists out r f' n', shuffle_cnf sv scl t = ROk out /\ (n <= n')%N /\ (cnf_below n f -> n' = n) /\ renaming n' r /\ cnf_file n' (N.of_nat (List.length f)) f' out /\ cnf_below n' f' /\
    Permutation f' (rename_cnf r f) /\ forall a, sat_cnf a f' = sat_cnf (fun v => a (r v)) f.
Proof.
  intros H Hn Hf. unfold shuffle_cnf. rewrite (inst_of_cnf_file n m f t H Hn). cbn [rbind i_next]. set (n' := fold_left marks f n).
  destruct (marks_cnf_spec f n) as [M1 M2]. fold n' in M1, M2. assert (M3 : (n' <= 2147483647)%N) by (apply marks_cnf_tight; [exact Hn|exact (cnf_file_below _ _ _ _ H)]).
  destruct (rand_start_ok sv n' Hv) as (s & Es & En & R). rewrite Es. cbn [to_res rbind]. rewrite inst_reindex_const. cbn [to_res rbind]. set (r := fun v => rand_reindex v s) in *.
  pose proof (Hcl (rename_cnf r f)) as P. set (f' := scl (rename_cnf r f)) in *.
  assert (B : cnf_below n' f'). { intros c Hin. apply (Permutation_in _ P) in Hin. apply in_map_iff in Hin as (d & <- & Hin). apply rename_below; [exact R|exact (M2 d Hin)]. }
  unfold inst_write_dimacs. unfold not_clausal. cbn [i_cards i_pbs List.length Nat.eqb negb orb i_cnf i_next]. rewrite En.
  destruct (write_cnf_some f' n') as [out Eo]. { intros c Hin l Hl'. specialize (B c Hin l Hl'). lia. }
  rewrite Eo. cbn [to_res]. assert (L : List.length f' = List.length f) by (rewrite (Permutation_length P); apply map_length).
  exists out, r, f', n'. split; [reflexivity|]. split; [exact M1|]. split; [|split; [exact R|split; [|split; [exact B|split; [exact P|]]]]].
  - intros Hb. apply N.le_antisymm; [|exact M1]. apply marks_cnf_tight; [lia|exact Hb].
  - rewrite <- L. apply cnf_file_written; [unfold u32_max; lia|now rewrite L|exact Eo].
  - intros a. rewrite (sat_cnf_perm a _ _ P). apply rename_sat_cnf.
Qed.

Theorem shuffle_wcnf_spec t n es : wcnf_file n es t -> (n <= max_var_idx)%N -> is_usize (list_sum (map snd (softs es))) ->
  exists out r es', shuffle_wcnf lord cord sv scl sl sc t = ROk out /\ renaming n r /\ wcnf_file n es' out /\
    Permutation (hards es') (rename_cnf r (hards es)) /\ same_softs (softs es') (rename_softs r (softs es)) /\
    (forall a, sat_cnf a (hards es') = sat_cnf (fun v => a (r v)) (hards es)) /\ (forall a, wcnf_costs es' a = wcnf_costs es (fun v => a (r v))).
Proof.
  intros H Hn Hu. unfold shuffle_wcnf. destruct (opt_of_wcnf_file n es t H Hn) as (p & E & Eo & (E1 & E2 & E3 & Hin & _)). rewrite E. cbn [rbind]. rewrite Eo.
  destruct (o_constrs p) as [f cards pbs k]. cbn [i_cnf i_cards i_pbs i_next] in *. subst f cards pbs.
  destruct (rand_start_ok sv k Hv) as (s & Es & En & R). rewrite Es. cbn [to_res rbind]. rewrite mopt_reindex_const. cbn [to_res rbind map]. set (r := fun v => rand_reindex v s) in *.
  apply (renaming_more _ n) in R; [|exact Hin]. destruct H as [Hb _].
  pose proof (Hcl (rename_cnf r (hards es))) as P. set (f' := scl (rename_cnf r (hards es))) in *.
  assert (B : cnf_below n f'). { intros c Hc'. apply (Permutation_in _ P) in Hc'. apply in_map_iff in Hc' as (d & <- & Hd). apply rename_below; [exact R|]. apply in_hards in Hd. exact (Hb _ Hd). }
  destruct (shuffled_softs r (softs es) (proj1 R)) as (S1 & S2 & S3). cbv zeta in S1, S2, S3. unfold opt_write_dimacs, not_clausal. cbn [o_constrs o_obj i_cards i_pbs List.length Nat.eqb negb orb i_cnf i_next].
  set (ys := iter_soft_cls lord cord _) in *. assert (B2 : forall c w, In (c, w) ys -> lits_below n c). { intros c w Hc'. destruct (S2 c w Hc') as (_ & d & w' & Hd & ->). apply rename_below; [exact R|]. apply in_softs in Hd. exact (Hb _ Hd). }
  set (z := obj_offset _). destruct (write_wcnf_some f' ys z (Some (ra_next s))) as [out Eout].
  { intros c Hc'. apply (dimacs_below n); [exact Hn|exact (B c Hc')]. } { intros c w Hc'. apply (dimacs_below n); [exact Hn|exact (B2 c w Hc')]. }
  rewrite Eout. cbn [to_res]. exists out, r, (witems f' ys). rewrite hards_witems. unfold wcnf_costs. rewrite softs_witems. split; [reflexivity|]. split; [exact R|]. split; [|split; [exact P|split; [exact S1|split]]].
  - refine (wcnf_file_written [] f' ys _ _ n out (Forall_nil _) _ B B2 Eout). intros c w Hc'. unfold is_usize in *. destruct (S2 c w Hc') as [S2' _]. lia.
  - intros a. rewrite (sat_cnf_perm a _ _ P). apply rename_sat_cnf.
  - intros a. now rewrite S3.
Qed.

Lemma no_msofts es k : (n_objs es <= k)%nat -> msofts k es = [].
Proof.
  intros H. destruct (msofts k es) as [|[c w] xs] eqn:E; [reflexivity|]. exfalso. assert (Hin : In (c, w) (msofts k es)) by (rewrite E; now left). apply in_msofts in Hin.
  unfold n_objs in H. apply list_max_le in H.
  rewrite Forall_map, Forall_forall in H. specialize (H _ Hin). cbn [snd] in H. lia.
Qed.
Lemma n_objs_usize n es t : mcnf_file n es t -> is_usize (n_objs es).
Proof.
  intros [_ (ds & ls & H & _ & ->)]. unfold n_objs. match goal with |- is_usize ?x => enough (G : (x <= N.to_nat usize_max)%nat) by (unfold is_usize; clear - G; lia) end.
  apply list_max_le, Forall_map, Forall_forall. intros [c x] Hin. destruct (line_means_in _ _ _ _ H Hin) as [s Hs]. unfold mitem_text in Hs. cbn [snd fst] in *. destruct x as [[k w]|]; [|lia].
  destruct Hs as (? & ? & ? & ? & _ & Hk & _). unfold is_usize in Hk. lia.
Qed.

Theorem shuffle_mcnf_spec t n es : mcnf_file n es t -> (n <= max_var_idx)%N -> (forall k, is_usize (list_sum (map snd (msofts k es)))) ->
  exists out r es', shuffle_mcnf lord cord sv scl sl sc t = ROk out /\ renaming n r /\ mcnf_file n es' out /\
    Permutation (hards es') (rename_cnf r (hards es)) /\ (forall k, same_softs (msofts k es') (rename_softs r (msofts k es))) /\
    (forall a, sat_cnf a (hards es') = sat_cnf (fun v => a (r v)) (hards es)) /\ (forall m a, mcnf_costs m es' a = mcnf_costs m es (fun v => a (r v))).
Proof.
  intros H Hn Hu. pose proof (n_objs_usize n es t H) as Hno. unfold shuffle_mcnf. destruct (mopt_of_mcnf_file n es t H) as (p & E & Eo & (E1 & E2 & E3 & Hin & _)). rewrite E. cbn [rbind].
  destruct p as [[f cards pbs k] obs]. cbn [mo_constrs mo_objs i_cnf i_cards i_pbs i_next] in *. subst f cards pbs obs.
  destruct (rand_start_ok sv k Hv) as (s & Es & En & R). rewrite Es. cbn [to_res rbind]. rewrite mopt_reindex_const. cbn [to_res rbind]. set (r := fun v => rand_reindex v s) in *.
  apply (renaming_more _ n) in R; [|exact Hin]. destruct H as [Hb _].
  pose proof (Hcl (rename_cnf r (hards es))) as P. set (f' := scl (rename_cnf r (hards es))) in *.
  assert (B : cnf_below n f'). { intros c Hc'. apply (Permutation_in _ P) in Hc'. apply in_map_iff in Hc' as (d & <- & Hd). apply rename_below; [exact R|]. apply in_hards in Hd. exact (Hb _ Hd). }
  unfold mopt_write_dimacs, not_clausal. cbn [mo_constrs mo_objs i_cards i_pbs List.length Nat.eqb negb orb i_cnf i_next]. unfold mobjs. rewrite !map_map.
  set (W := fun j => iter_soft_cls lord cord (obj_shuffle sl sc (re_obj lord cord r (obj_from_cls (msofts j es))))).
  set (xss := map _ (seq 0 (n_objs es))). assert (Ex : map fst xss = map W (seq 0 (n_objs es))) by (unfold xss; rewrite map_map; reflexivity).
  assert (HW : forall j, same_softs (W j) (rename_softs r (msofts j es)) /\ (forall c w, In (c, w) (W j) -> (w <= list_sum (map snd (msofts j es)))%nat /\ exists d w', In (d, w') (msofts j es) /\ c = map (rename_lit r) d) /\
    forall a, cls_cost a (W j) = cls_cost (fun v => a (r v)) (msofts j es)) by (intros j; apply shuffled_softs; exact (proj1 R)).
  assert (B2 : forall xs z c w, In (xs, z) xss -> In (c, w) xs -> is_usize w /\ lits_below n c).
  { intros xs z c w Hx Hc'. apply in_map_iff in Hx as (j & Ej & _). injection Ej as <- _. change (In (c, w) (W j)) in Hc'. destruct (proj1 (proj2 (HW j)) c w Hc') as (Hw & d & w' & Hd & ->). split.
    - specialize (Hu j). unfold is_usize in *. lia.
    - apply rename_below; [exact R|]. apply in_msofts in Hd. exact (Hb _ Hd). }
  destruct (write_mcnf_some f' xss (Some (ra_next s))) as [out Eout].
  { intros c Hc'. apply (dimacs_below n); [exact Hn|exact (B c Hc')]. } { intros xs z c w Hx Hc'. apply (dimacs_below n); [exact Hn|exact (proj2 (B2 xs z c w Hx Hc'))]. }
  rewrite Eout. cbn [to_res]. exists out, r, (mitems f' (map fst xss)). rewrite hards_mitems.
  assert (HS : forall j, msofts j (mitems f' (map fst xss)) = if (j <? n_objs es)%nat then W j else []).
  { intros j. rewrite msofts_mitems, Ex. destruct (Nat.ltb_spec j (n_objs es)) as [L|L].
    - rewrite (nth_indep _ [] (W 0%nat)) by (now rewrite map_length, seq_length). rewrite map_nth, seq_nth by exact L. reflexivity.
    - apply nth_overflow. now rewrite map_length, seq_length. }
  split; [reflexivity|]. split; [exact R|]. split; [|split; [exact P|split; [|split]]].
  - refine (mcnf_file_written [] f' xss _ n out (Forall_nil _) _ _ B _ Eout); [unfold xss; rewrite map_length, seq_length; exact Hno|intros xs z c w Hx Hc'; exact (proj1 (B2 xs z c w Hx Hc'))|intros xs z c w Hx Hc'; exact (proj2 (B2 xs z c w Hx Hc'))].
  - intros j. rewrite HS. destruct (Nat.ltb_spec j (n_objs es)); [exact (proj1 (HW j))|]. rewrite no_msofts by assumption. intros c. reflexivity.
  - intros a. rewrite (sat_cnf_perm a _ _ P). apply rename_sat_cnf.
  - intros m a. unfold mcnf_costs. apply map_ext. intros j. rewrite HS. destruct (Nat.ltb_spec j (n_objs es)); [now rewrite (proj2 (proj2 (HW j)))|]. now rewrite no_msofts.
Qed.
End Tools.
End Softs.
