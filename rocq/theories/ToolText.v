(** * Reading and writing the files of [ToolSpec] *)

From Coq Require Import List Bool NArith ZArith Ascii String Lia.
From Coq Require Import ZifyBool ZifyNat ZifyN.
From Verif Require Import Spec Types Base Inst InstSpec InstProofs Opt OptSpec OptProofs Text TextProofs FioSpec Dimacs DimacsSpec DimacsProofs DimacsGrammar Opb OpbSpec ToolSpec.
Import ListNotations.
Open Scope list_scope.

(** ** Reading *)

Section Comments.
Context {D E : Type} (cm : text -> E) (notc : E -> bool) (content : D -> text -> Prop) (content' : E -> text -> Prop) (g : D -> E).
Hypothesis Hcontent : forall d s, content d s -> content' (g d) s.
Hypothesis Hcm : forall s, notc (cm s) = false.
Hypothesis Hg : forall d, notc (g d) = true.
Lemma line_comment d l : line_means ignored content d l ->
  exists d', line_means (fun s => Some (cm s)) content' d' l /\ filter notc (present [d']) = map g (present [d]) /\
    (forall x, d = Some x -> d' = Some (g x)).
Proof.
  intros [[Hw ->]|[(s & Hs & Hl & ->)|(x & s & Hs & Hl & ->)]].
  - exists None. split; [now left|]. now split.
  - exists (Some (cm s)). split; [right; left; eauto|]. split; [|discriminate]. cbn. now rewrite Hcm.
  - exists (Some (g x)). split; [right; right; exists (g x), s; auto|]. split; [cbn; now rewrite Hg|congruence].
Qed.
Lemma lines_comment ds ls : Forall2 (line_means ignored content) ds ls ->
  exists ds', Forall2 (line_means (fun s => Some (cm s)) content') ds' ls /\ filter notc (present ds') = map g (present ds) /\
    (forall x r, ds = Some x :: r -> exists r', ds' = Some (g x) :: r').
Proof.
  induction 1 as [|d l ds ls H _ (ds' & H1 & H2 & _)]; [exists []; repeat split; [constructor|discriminate]|].
  destruct (line_comment d l H) as (d' & Hd & E1 & E2). exists (d' :: ds'). split; [now constructor|]. split.
  - change (present (d' :: ds')) with (present ([d'] ++ ds')). change (present (d :: ds)) with (present ([d] ++ ds)).
    now rewrite !present_app, filter_app, map_app, E1, H2.
  - intros x r Er. injection Er as -> ->. rewrite (E2 x eq_refl). eauto.
Qed.
End Comments.

Lemma leading_comments {D} (content : D -> text -> Prop) ds ls : Forall2 (line_means ignored content) ds ls ->
  exists pre ls' ds', ls = pre ++ ls' /\ comment_lines pre /\ Forall2 (line_means ignored content) ds' ls' /\ present ds' = present ds /\
    (ds' = [] \/ exists x r, ds' = Some x :: r).
Proof.
  induction 1 as [|d l ds ls H Hr (pre & ls' & ds' & -> & Hp & Hds & E & Hd)].
  - exists [], [], []. repeat split; [now intros l []|constructor|now left].
  - destruct d as [x|].
    + exists [], (l :: pre ++ ls'), (Some x :: ds). split; [reflexivity|]. split; [now intros l' []|]. split; [now constructor|]. split; [reflexivity|right; eauto].
    + exists (l :: pre), ls', ds'. split; [reflexivity|]. split; [|now split].
      intros l' [<-|Hl]; [|now apply Hp]. destruct H as [[Hw _]|[(s & Hs & Hl & _)|(x & s & _ & _ & Hx)]]; [now left|right; eauto|discriminate].
Qed.

Definition cnf_notc (d : cnf_data) : bool := match d with CComment _ => false | _ => true end.
Lemma read_cnf_of n m f t : cnf_file n m f t -> exists ds, read_cnf t = ROk (n, m, ds) /\ filter cnf_notc ds = map CClause f.
Proof.
  intros (pre & hdr & h & ds & body & Hp & Hh & Hl & Hb & Ht & ->).
  destruct (lines_comment CComment cnf_notc clause_text cnf_content CClause (fun d s H => ex_intro _ d (conj eq_refl H)) (fun _ => eq_refl) (fun _ => eq_refl) ds body Hb) as (ds' & H1 & H2 & _).
  exists (present ds'). split; [|exact H2]. eapply read_cnf_file; [exact Hp|eauto|exact H1|exact Ht].
Qed.
Lemma fold_cnf_notc ds : forall i, fold_left add_cnf_data ds i = fold_left add_cnf_data (filter cnf_notc ds) i.
Proof. induction ds as [|[c|c] ds IH]; intros i; cbn [filter cnf_notc fold_left]; auto. Qed.
Lemma inst_of_cnf_file n m f t : cnf_file n m f t -> (n <= max_var_idx)%N ->
  inst_from_dimacs t = ROk (mkInst f [] [] (fold_left marks f n)).
Proof.
  intros H Hn. destruct (read_cnf_of n m f t H) as (ds & E & Eds). unfold inst_from_dimacs. rewrite E. unfold var_new.
  destruct (N.leb_spec n max_var_idx) as [_|?]; [|lia]. rewrite fold_cnf_notc, Eds, add_clauses_list. unfold inst_increase, inst_new. cbn [i_cnf i_cards i_pbs i_next app].
  rewrite next_increase_max. now replace (N.max 0 n) with n by lia.
Qed.

Definition wdata (e : witem) : wcnf_data := match snd e with None => WHard (fst e) | Some w => WSoft w (fst e) end.
Lemma read_wcnf_of n es t : wcnf_file n es t -> exists h ds, read_wcnf t = ROk (h, ds) /\ filter (fun d => negb (is_wcomment d)) ds = map wdata es /\
  (forall k, h = Some k -> (k <= n)%N).
Proof.
  intros [_ [(ds & ls & Hb & Ht & ->)|(n' & m & top & pre & hdr & h & ds & body & Hn & Hp & Hh & Hl & Hb & Ht & ->)]].
  - destruct (leading_comments _ _ _ Hb) as (pre & ls' & ds1 & -> & Hp & Hb' & E1 & Hd).
    destruct (lines_comment WComment (fun d => negb (is_wcomment d)) witem_text wcnf_content wdata) with (ds := ds1) (ls := ls') as (ds' & H1 & H2 & H3).
    + intros [c [w|]] s H; [right; exists w, c|left; exists c]; now split.
    + reflexivity.
    + now intros [c [w|]].
    + exact Hb'.
    + exists None, (present ds'). split; [|split; [|discriminate]].
      * eapply read_wcnf_file; [exact Hp|exact H1| |exact Ht]. intros d Hd'. destruct Hd as [->|(x & r & ->)].
        -- inversion Hb'; subst. inversion H1; subst. discriminate.
        -- destruct (H3 x r eq_refl) as [r' ->]. cbn in Hd'. injection Hd' as <-. now destruct x as [c [w|]].
      * now rewrite H2, E1.
  - destruct (lines_comment WComment (fun d => negb (is_wcomment d)) (old_witem_text top) (pre22_content top) wdata) with (ds := ds) (ls := body) as (ds' & H1 & H2 & _).
    + intros [c x] s (w & Hs & E). exists w, c. split; [exact Hs|]. cbn [fst snd] in *. subst x. unfold wdata. cbn [fst snd]. now destruct (top <=? N.of_nat w)%N.
    + reflexivity.
    + now intros [c [w|]].
    + exact Hb.
    + exists (Some n'), (present ds'). split; [|split; [exact H2|intros k Ek; injection Ek as <-; exact Hn]].
      eapply read_pre22_file; [exact Hp|eauto|exact H1|exact Ht].
Qed.

Definition mdata (e : mitem) : mcnf_data := match snd e with None => MHard (fst e) | Some (k, w) => MSoft (k + 1) w (fst e) end.
Definition mcnf_notc (d : mcnf_data) : bool := match d with MComment _ => false | _ => true end.
Lemma read_mcnf_of n es t : mcnf_file n es t -> exists ds, read_mcnf t = ROk ds /\ filter mcnf_notc ds = map mdata es.
Proof.
  intros [_ (ds & ls & Hb & Ht & ->)].
  destruct (lines_comment MComment mcnf_notc mitem_text mcnf_content mdata) with (ds := ds) (ls := ls) as (ds' & H1 & H2 & _).
  - intros [c [[k w]|]] s H; [right|left]; [exists (k + 1)%nat, w, c|exists c]; now split.
  - reflexivity.
  - now intros [c [[k w]|]].
  - exact Hb.
  - exists (present ds'). split; [|exact H2]. eapply read_mcnf_file; [exact H1|exact Ht].
Qed.

(** ** Writing *)

Lemma lits_text_of c : forall s, concat_opt (map write_lit c) = Some s -> lits_text c s.
Proof.
  induction c as [|l c IH]; intros s H; [now injection H as <-|]. cbn [map concat_opt] in H. unfold write_lit at 1 in H.
  destruct (to_ipasir l) as [z|] eqn:Ez; [|discriminate]. cbn [option_map] in H. destruct (concat_opt (map write_lit c)) as [s'|]; [|discriminate]. injection H as <-.
  assert (Hl : (lvar l < 2147483647)%N) by (unfold to_ipasir in Ez; destruct (Z.of_N (lvar l + 1) <=? i32_max)%Z eqn:E; [unfold i32_max in E; lia|discriminate]).
  destruct (lit_text_print l Hl) as (z' & Ez' & Et). assert (z' = z) as -> by congruence.
  cbn [lits_text]. exists (T " "), s'. split; [exact Hl|]. split; [split; [intros d [<-|[]]; now left|discriminate]|]. split; [now apply IH|]. rewrite Et, <- app_assoc. reflexivity.
Qed.
Lemma write_clause_text c t : write_clause c = Some t -> exists b, t = b ++ [nl] /\ clause_text c b.
Proof.
  unfold write_clause. destruct (concat_opt (map write_lit c)) as [s|] eqn:Es; [|discriminate]. cbn [option_map]. intros H. injection H as <-.
  exists (s ++ T "0"). split; [unfold line; now rewrite app_assoc|]. exists s. split; [now apply lits_text_of|reflexivity].
Qed.
Lemma write_prefixed_text p c t : write_prefixed p c = Some t -> exists b, t = (p ++ b) ++ [nl] /\ clause_text c b.
Proof.
  unfold write_prefixed. destruct (write_clause c) as [u|] eqn:E; [|discriminate]. cbn [option_map]. intros H. injection H as <-.
  destruct (write_clause_text c u E) as (b & -> & Hb). exists b. split; [now rewrite app_assoc|exact Hb].
Qed.
Lemma one_blank : blanks1 (T " ").
Proof. split; [intros d [<-|[]]; now left|discriminate]. Qed.
Lemma line_with_self s : line_with s s.
Proof. exists [], []. split; [now intros d []|]. split; [now intros d []|]. now rewrite app_nil_r. Qed.
Lemma line_content {D} (content : D -> text -> Prop) x l : content x l -> line_means ignored content (Some x) l.
Proof. intros H. right. right. exists x, l. split; [exact H|]. split; [apply line_with_self|reflexivity]. Qed.
Lemma line_comments {D} (content : D -> text -> Prop) l : comment_text l -> line_means ignored content None l.
Proof. intros H. right. left. exists l. split; [exact H|]. split; [apply line_with_self|reflexivity]. Qed.
Lemma comment_text_of t : forallb plain t = true -> (exists t' c, t = t' ++ [c] /\ is_white c = false) -> comment_text (T "c " ++ t).
Proof.
  intros Hp (t' & c & E & Hc). split; [|split].
  - apply plain_one_line. now rewrite forallb_app, Hp.
  - exists (T " " ++ t). reflexivity.
  - rewrite E, app_assoc, last_last. exact Hc.
Qed.
Lemma comment_text_num n s : forallb plain (T s) = true -> (exists t' c, T s = t' ++ [c] /\ is_white c = false) -> comment_text (T "c " ++ print_N n ++ T s).
Proof.
  intros Hp (t' & c & E & Hc). apply comment_text_of.
  - now rewrite forallb_app, print_N_plain, Hp.
  - exists (print_N n ++ t'), c. split; [now rewrite E, app_assoc|assumption].
Qed.
Lemma all_present {A} (xs : list A) : present (map Some xs) = xs.
Proof. induction xs as [|x xs IH]; [reflexivity|]. cbn. now f_equal. Qed.
Lemma none_present {A B} (xs : list B) : present (map (fun _ => @None A) xs) = [].
Proof. induction xs as [|x xs IH]; [reflexivity|]. exact IH. Qed.
Lemma comments_mean {D} (content : D -> text -> Prop) hs : Forall comment_text hs -> Forall2 (line_means ignored content) (map (fun _ => None) hs) hs.
Proof. induction 1; constructor; [now apply line_comments|assumption]. Qed.

Lemma cnf_file_written f n t : (n <= u32_max)%N -> (N.of_nat (List.length f) <= usize_max)%N ->
  write_cnf_annotated f n = Some t -> cnf_file n (N.of_nat (List.length f)) f t.
Proof.
  intros Hn Hm. unfold write_cnf_annotated. destruct (concat_opt (map write_clause f)) as [body|] eqn:E; [|discriminate].
  cbn [option_map]. intros H. apply Some_inj in H as <-.
  destruct (concat_lines _ _ _ _ (fun c t _ => write_clause_text c t) E) as (ls & -> & Hls).
  set (h := T "p cnf " ++ print_N n ++ T " " ++ print_nat (List.length f)).
  exists [T "c CNF file written by RustSAT"], h, h, (map Some f), ls. split; [|split; [|split; [apply line_with_self|split; [|split]]]].
  - intros l [<-|[]]. right. eexists. split; [|apply line_with_self]. change (T "c CNF file written by RustSAT") with (T "c " ++ T "CNF file written by RustSAT").
    apply comment_text_of; [reflexivity|]. exists (T "CNF file written by RustSA"), "T"%char. now split.
  - exists (T " "), (T " "), (T " "). repeat (split; [first [assumption|exact one_blank]|]). reflexivity.
  - apply Forall2_map_l. eapply Forall2_weaken; [|exact Hls]. intros c b Hb. now apply line_content.
  - left. reflexivity.
  - now rewrite all_present.
Qed.

Definition witems (f : cnf) (ss : list (clause * nat)) : list witem := map (fun c => (c, None)) f ++ map (fun e => (fst e, Some (snd e))) ss.
Lemma wcnf_file_written p f ss z n k t : Forall comment_text p -> (forall c w, In (c, w) ss -> is_usize w) -> (forall c, In c f -> lits_below k c) -> (forall c w, In (c, w) ss -> lits_below k c) ->
  write_wcnf_annotated f ss z (Some n) = Some t -> wcnf_file k (witems f ss) (as_lines p ++ t).
Proof.
  intros Hp Hw Hf Hs. unfold write_wcnf_annotated.
  destruct (concat_opt (map (write_prefixed (T "h ")) f)) as [hards|] eqn:Eh; [|discriminate].
  destruct (concat_opt (map write_soft ss)) as [sfts|] eqn:Es; [|discriminate].
  intros H. apply Some_inj in H as <-.
  destruct (concat_lines (write_prefixed (T "h ")) (fun c l => witem_text (c, None) l) f hards) as (hl & -> & Hhl).
  { intros c t _ H. destruct (write_prefixed_text _ _ _ H) as (b & -> & Hb). eexists. split; [reflexivity|]. exists (T " "), b. split; [exact one_blank|]. now split. }
  { exact Eh. }
  destruct (concat_lines write_soft (fun e l => witem_text (fst e, Some (snd e)) l) ss sfts) as (sl & -> & Hsl).
  { intros [c w] t Hin H. unfold write_soft in H. destruct (write_prefixed_text _ _ _ H) as (b & -> & Hb). eexists. split; [reflexivity|].
    exists (T " "), b. split; [now apply (Hw c)|]. split; [exact one_blank|]. split; [exact Hb|]. cbn [snd]. now rewrite <- app_assoc. }
  { exact Es. }
  split.
  - intros e He. unfold witems in He. apply in_app_iff in He as [He|He]; apply in_map_iff in He as (x & <- & Hx); cbn [fst]; [now apply Hf|]. destruct x as [c w]. now apply (Hs c w).
  - left. set (hs := p ++ [T "c WCNF file written by RustSAT"; T "c " ++ print_N n ++ T " variables";
      T "c " ++ print_nat (List.length f) ++ T " hard clauses"; T "c " ++ print_nat (List.length ss) ++ T " soft clauses"; T "c objective offset: " ++ print_Z z]).
    exists (map (fun _ => None) hs ++ map Some (witems f ss)), (hs ++ hl ++ sl). split; [|split].
    + apply Forall2_app.
      * apply comments_mean. unfold hs. apply Forall_app. split; [exact Hp|]. repeat (apply Forall_cons || apply Forall_nil).
        -- change (T "c WCNF file written by RustSAT") with (T "c " ++ T "WCNF file written by RustSAT").
           apply comment_text_of; [reflexivity|]. exists (T "WCNF file written by RustSA"), "T"%char. now split.
        -- apply comment_text_num; [reflexivity|]. exists (T " variable"), "s"%char. now split.
        -- apply comment_text_num; [reflexivity|]. exists (T " hard clause"), "s"%char. now split.
        -- apply comment_text_num; [reflexivity|]. exists (T " soft clause"), "s"%char. now split.
        -- change (T "c objective offset: ") with (T "c " ++ T "objective offset: "). rewrite <- app_assoc. apply comment_text_of.
           ++ rewrite forallb_app, print_Z_plain. reflexivity.
           ++ destruct (exists_last (print_N_not_nil (Z.abs_N z))) as (t & c & E). pose proof (print_N_last (Z.abs_N z)) as H. rewrite E, rev_app_distr in H.
              exists (T "objective offset: " ++ (if (z <? 0)%Z then T "-" else []) ++ t), c. split; [|exact H]. unfold print_Z. rewrite E. destruct (z <? 0)%Z; now rewrite <- ?app_assoc.
      * apply Forall2_map_l. unfold witems. apply Forall2_app; apply Forall2_map_l.
        -- eapply Forall2_weaken; [|exact Hhl]. intros c b Hb. now apply line_content.
        -- eapply Forall2_weaken; [|exact Hsl]. intros c b Hb. now apply line_content.
    + left. unfold hs. change (flat_map (fun l => l ++ [nl])) with as_lines. rewrite !as_lines_app. unfold as_lines, line. cbn [flat_map app]. rewrite <- ?app_assoc. reflexivity.
    + now rewrite present_app, none_present, all_present.
Qed.
Lemma hards_witems f ss : hards (witems f ss) = f.
Proof.
  unfold hards, witems. rewrite flat_map_app.
  assert (forall f : cnf, flat_map (fun e : clause * option nat => match snd e with None => [fst e] | Some _ => [] end) (map (fun c => (c, None)) f) = f) as -> by (induction f0; cbn; congruence).
  assert (flat_map (fun e : clause * option nat => match snd e with None => [fst e] | Some _ => [] end) (map (fun e => (fst e, Some (snd e))) ss) = []) as -> by (induction ss; cbn; auto).
  apply app_nil_r.
Qed.
Lemma softs_witems f ss : softs (witems f ss) = ss.
Proof.
  unfold softs, witems. rewrite flat_map_app.
  assert (forall f : cnf, flat_map (fun e : clause * option nat => match snd e with None => [] | Some w => [(fst e, w)] end) (map (fun c => (c, None)) f) = []) as -> by (induction f0; cbn; auto).
  induction ss as [|[c w] ss IH]; cbn in *; congruence.
Qed.

(** MCNF *)
Fixpoint mitems_objs (idx : nat) (os : list (list (clause * nat))) : list mitem :=
  match os with [] => [] | o :: r => map (fun e => (fst e, Some (idx, snd e))) o ++ mitems_objs (S idx) r end.
Definition mitems (f : cnf) (os : list (list (clause * nat))) : list mitem := map (fun c => (c, None)) f ++ mitems_objs 0 os.
Lemma objectives_text os : forall idx t, is_usize (idx + List.length os) -> (forall o c w, In o os -> In (c, w) o -> is_usize w) ->
  write_objectives idx os = Some t -> exists ls, t = as_lines ls /\ Forall2 mitem_text (mitems_objs idx os) ls.
Proof.
  induction os as [|o os IH]; intros idx t Hi Hw H; [injection H as <-; exists []; split; [reflexivity|constructor]|].
  cbn [write_objectives] in H. destruct (concat_opt (map (write_mo_soft idx) o)) as [t1|] eqn:E1; [|discriminate].
  destruct (write_objectives (S idx) os) as [t2|] eqn:E2; [|discriminate]. injection H as <-.
  destruct (IH (S idx) t2) as (ls2 & -> & H2); [unfold is_usize in *; cbn [List.length] in Hi; lia|intros o' c w Ho; apply (Hw o'); now right|exact E2|].
  destruct (concat_lines (write_mo_soft idx) (fun e l => mitem_text (fst e, Some (idx, snd e)) l) o t1) as (ls1 & -> & H1).
  { intros [c w] t Hin H. unfold write_mo_soft in H. destruct (write_prefixed_text _ _ _ H) as (b & -> & Hb). eexists. split; [reflexivity|].
    cbn [mitem_text fst snd]. exists (T " "), (T " "), (T " "), b. split; [lia|]. split; [unfold is_usize in *; cbn [List.length] in Hi; lia|]. split; [apply (Hw o c); [now left|exact Hin]|].
    split; [intros d [<-|[]]; now left|]. split; [exact one_blank|]. split; [exact one_blank|]. split; [exact Hb|]. rewrite <- !app_assoc. reflexivity. }
  { exact E1. }
  exists (ls1 ++ ls2). split; [now rewrite as_lines_app|]. cbn [mitems_objs]. apply Forall2_app; [now apply Forall2_map_l|exact H2].
Qed.
Lemma in_mitems_objs os : forall idx e, In e (mitems_objs idx os) -> exists o c k w, In o os /\ In (c, w) o /\ e = (c, Some (k, w)).
Proof.
  induction os as [|o os IH]; intros idx e H; [easy|]. cbn [mitems_objs] in H. apply in_app_iff in H as [H|H].
  - apply in_map_iff in H as ([c w] & <- & H). exists o, c, idx, w. split; [now left|]. now split.
  - destruct (IH _ _ H) as (o' & c & k & w & Ho & Hc & ->). exists o', c, k, w. split; [now right|]. now split.
Qed.
Lemma mcnf_file_written p f (ss : list (list (clause * nat) * Z)) n k t : Forall comment_text p -> is_usize (List.length ss) -> (forall o z c w, In (o, z) ss -> In (c, w) o -> is_usize w) ->
  (forall c, In c f -> lits_below k c) -> (forall o z c w, In (o, z) ss -> In (c, w) o -> lits_below k c) ->
  write_mcnf_annotated f ss (Some n) = Some t -> mcnf_file k (mitems f (map fst ss)) (as_lines p ++ t).
Proof.
  intros Hp Hi Hw Hf Hs. unfold write_mcnf_annotated.
  destruct (concat_opt (map (write_prefixed (T "h ")) f)) as [hards|] eqn:Eh; [|discriminate].
  destruct (write_objectives 0 (map fst ss)) as [sfts|] eqn:Es; [|discriminate].
  intros H. apply Some_inj in H as <-.
  destruct (concat_lines (write_prefixed (T "h ")) (fun c l => mitem_text (c, None) l) f hards) as (hl & -> & Hhl).
  { intros c t _ H. destruct (write_prefixed_text _ _ _ H) as (b & -> & Hb). eexists. split; [reflexivity|]. exists (T " "), b. split; [exact one_blank|]. now split. }
  { exact Eh. }
  apply objectives_text in Es as (sl & -> & Hsl).
  2:{ now rewrite map_length. }
  2:{ intros o c w Ho. apply in_map_iff in Ho as ((o' & z) & <- & Ho). now apply (Hw o' z). }
  split.
  - intros e He. unfold mitems in He. apply in_app_iff in He as [He|He].
    + apply in_map_iff in He as (x & <- & Hx). now apply Hf.
    + apply in_mitems_objs in He as (o & c & j & w & Ho & Hc & ->). apply in_map_iff in Ho as ([o' z] & <- & Ho). now apply (Hs o' z c w).
  - set (hs := p ++ [T "c MCNF file written by RustSAT"; T "c " ++ print_N n ++ T " variables";
      T "c " ++ print_nat (List.length f) ++ T " hard clauses"; T "c " ++ print_nat (List.length ss) ++ T " objectives";
      T "c ( " ++ flat_map (fun s => print_nat (List.length (fst s)) ++ T " ") ss ++ T ") soft clauses";
      T "c objective offsets: ( " ++ flat_map (fun s => print_Z (snd s) ++ T " ") ss ++ T ")"]).
    exists (map (fun _ => None) hs ++ map Some (mitems f (map fst ss))), (hs ++ hl ++ sl). split; [|split].
    + apply Forall2_app.
      * apply comments_mean. unfold hs. apply Forall_app. split; [exact Hp|]. repeat (apply Forall_cons || apply Forall_nil).
        -- change (T "c MCNF file written by RustSAT") with (T "c " ++ T "MCNF file written by RustSAT").
           apply comment_text_of; [reflexivity|]. exists (T "MCNF file written by RustSA"), "T"%char. now split.
        -- apply comment_text_num; [reflexivity|]. exists (T " variable"), "s"%char. now split.
        -- apply comment_text_num; [reflexivity|]. exists (T " hard clause"), "s"%char. now split.
        -- apply comment_text_num; [reflexivity|]. exists (T " objective"), "s"%char. now split.
        -- change (T "c ( ") with (T "c " ++ T "( "). rewrite <- app_assoc. apply comment_text_of.
           ++ rewrite !forallb_app. rewrite flat_plain; [reflexivity|]. intros x. unfold print_nat. rewrite forallb_app, print_N_plain. reflexivity.
           ++ exists (T "( " ++ flat_map (fun s : list (clause * nat) * Z => print_nat (List.length (fst s)) ++ T " ") ss ++ T ") soft clause"), "s"%char.
              split; [|reflexivity]. now rewrite <- !app_assoc.
        -- change (T "c objective offsets: ( ") with (T "c " ++ T "objective offsets: ( "). rewrite <- app_assoc. apply comment_text_of.
           ++ rewrite !forallb_app. rewrite flat_plain; [reflexivity|]. intros x. rewrite forallb_app, print_Z_plain. reflexivity.
           ++ exists (T "objective offsets: ( " ++ flat_map (fun s : list (clause * nat) * Z => print_Z (snd s) ++ T " ") ss), ")"%char.
              split; [|reflexivity]. now rewrite <- !app_assoc.
      * apply Forall2_map_l. unfold mitems. apply Forall2_app; [apply Forall2_map_l|].
        -- eapply Forall2_weaken; [|exact Hhl]. intros c b Hb. now apply line_content.
        -- eapply Forall2_weaken; [|exact Hsl]. intros c b Hb. now apply line_content.
    + left. unfold hs. change (flat_map (fun l => l ++ [nl])) with as_lines. rewrite !as_lines_app. unfold as_lines, line. cbn [flat_map app]. rewrite <- ?app_assoc. reflexivity.
    + now rewrite present_app, none_present, all_present.
Qed.
Lemma hards_mitems f os : hards (mitems f os) = f.
Proof.
  unfold hards, mitems. rewrite flat_map_app.
  assert (forall f : cnf, flat_map (fun e : clause * option (nat * nat) => match snd e with None => [fst e] | Some _ => [] end) (map (fun c => (c, None)) f) = f) as -> by (induction f0; cbn; congruence).
  assert (forall os idx, flat_map (fun e : clause * option (nat * nat) => match snd e with None => [fst e] | Some _ => [] end) (mitems_objs idx os) = []) as ->.
  { clear. induction os as [|o os IH]; intros idx; [reflexivity|]. cbn [mitems_objs]. rewrite flat_map_app, IH, app_nil_r. induction o as [|e o IHo]; [reflexivity|]. exact IHo. }
  apply app_nil_r.
Qed.
Lemma msofts_mitems f os k : msofts k (mitems f os) = nth k os [].
Proof.
  unfold msofts, mitems. rewrite flat_map_app.
  assert (forall f : cnf, flat_map (fun e : mitem => match snd e with Some (k', w) => if (k' =? k)%nat then [(fst e, w)] else [] | None => [] end) (map (fun c => (c, None)) f) = []) as -> by (induction f0; cbn; auto).
  cbn [app]. assert (H : forall os idx, flat_map (fun e : mitem => match snd e with Some (k', w) => if (k' =? k)%nat then [(fst e, w)] else [] | None => [] end) (mitems_objs idx os) =
    if (idx <=? k)%nat then nth (k - idx) os [] else []).
  { clear. induction os as [|o os IH]; intros idx; [cbn; destruct (idx <=? k)%nat; [now destruct (k - idx)%nat|reflexivity]|]. cbn [mitems_objs]. rewrite flat_map_app.
    assert (Eo : flat_map (fun e : mitem => match snd e with Some (k', w) => if (k' =? k)%nat then [(fst e, w)] else [] | None => [] end) (map (fun e => (fst e, Some (idx, snd e))) o) = if (idx =? k)%nat then o else []).
    { clear. induction o as [|[c w] o IHo]; [now destruct (idx =? k)%nat|]. cbn [map flat_map fst snd]. rewrite IHo. now destruct (idx =? k)%nat. }
    etransitivity; [apply (f_equal2 (@app _)); [exact Eo|apply IH]|]. clear Eo.
    destruct (Nat.eqb_spec idx k) as [->|Hk].
    - replace (S k <=? k)%nat with false by lia. replace (k <=? k)%nat with true by lia. rewrite Nat.sub_diag, app_nil_r. reflexivity.
    - destruct (Nat.leb_spec idx k); destruct (Nat.leb_spec (S idx) k); try lia; [|reflexivity]. replace (k - idx)%nat with (S (k - S idx)) by lia. reflexivity. }
  rewrite H. cbn [Nat.leb]. now rewrite Nat.sub_0_r.
Qed.
