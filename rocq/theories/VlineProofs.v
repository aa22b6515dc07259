(** * Proofs about value lines and solver output *)

From Coq Require Import List Bool NArith ZArith Ascii String Lia Permutation.
From Coq Require Import ZifyBool ZifyNat ZifyN.
From Verif Require Import Base Spec ConstrSpec Types TypesProofs Text TextProofs FioSpec DimacsProofs DimacsGrammar Opb OpbSpec OpbProofs Vline VlineSpec.
Import ListNotations.
Open Scope list_scope.

(** ** Assigning literals *)

Fixpoint extend_lits (s : assignment) (ls : list lit) : vres assignment verror :=
  match ls with
  | [] => VOk s
  | l :: r => match extend_lit s l with VOk s' => extend_lits s' r | x => x end
  end.

Lemma extend_lit_spec s l :
  if tern_eqb (var_value s (lvar l)) TFalse then extend_lit s l = VErr (Conflicting (lvar l))
  else exists s', extend_lit s l = VOk s' /\ forall u, var_value s' u = if (u =? lvar l)%N then tern_of_bool (negb (lneg l)) else var_value s u.
Proof.
  unfold extend_lit. destruct (assign_lit_spec s l) as (s' & E & Hv & _). rewrite E. unfold lit_value.
  destruct (var_value s (lvar l)), (lneg l); cbn; eauto.
Qed.

Lemma extend_lits_app s l1 l2 : extend_lits s (l1 ++ l2) = match extend_lits s l1 with VOk s' => extend_lits s' l2 | x => x end.
Proof.
  revert s. induction l1 as [|l l1 IH]; intros s; [reflexivity|]. cbn [app extend_lits].
  destruct (extend_lit s l); [apply IH|reflexivity..].
Qed.

(** A literal that meets a variable with value false *)
Definition clash (f : N -> tern) (ls : list lit) : Prop :=
  exists pre x post, ls = pre ++ x :: post /\ last_value (lvar x) pre (f (lvar x)) = TFalse.

Lemma clash_cons f l ls : clash f (l :: ls) <-> f (lvar l) = TFalse \/ clash (fun u => if (u =? lvar l)%N then tern_of_bool (negb (lneg l)) else f u) ls.
Proof.
  split.
  - intros (pre & x & post & E & H). destruct pre as [|y pre].
    + injection E as <- <-. now left.
    + injection E as <- ->. right. exists pre, x, post. split; [reflexivity|exact H].
  - intros [H | (pre & x & post & -> & H)].
    + exists [], l, ls. now split.
    + exists (l :: pre), x, post. split; [reflexivity|exact H].
Qed.

Lemma clash_ext f g ls : (forall u, f u = g u) -> clash f ls -> clash g ls.
Proof. intros H (pre & x & post & -> & E). exists pre, x, post. split; [reflexivity|]. now rewrite <- H. Qed.

Lemma extend_lits_spec ls : forall s,
  (exists s', extend_lits s ls = VOk s' /\ (forall v, var_value s' v = last_value v ls (var_value s v)) /\ ~ clash (var_value s) ls) \/
  (exists v, extend_lits s ls = VErr (Conflicting v) /\ clash (var_value s) ls).
Proof.
  induction ls as [|l ls IH]; intros s.
  - left. exists s. repeat split. intros (pre & x & post & E & _). now destruct pre.
  - cbn [extend_lits last_value]. pose proof (extend_lit_spec s l) as Hl.
    destruct (tern_eqb (var_value s (lvar l)) TFalse) eqn:Ef.
    + right. exists (lvar l). rewrite Hl. split; [reflexivity|]. apply clash_cons. left. now destruct (var_value s (lvar l)).
    + destruct Hl as (s1 & -> & Hs1). destruct (IH s1) as [(s' & E & Hv & Hc) | (v & E & Hc)].
      * left. exists s'. split; [exact E|]. split.
        -- intros v. now rewrite Hv, Hs1.
        -- rewrite clash_cons. intros [H | H]; [now rewrite H in Ef|]. apply Hc. revert H. apply clash_ext. intros u. now rewrite Hs1.
      * right. exists v. split; [exact E|]. apply clash_cons. right. revert Hc. now apply clash_ext.
Qed.

Lemma last_value_app v l1 : forall l2 d, last_value v (l1 ++ l2) d = last_value v l2 (last_value v l1 d).
Proof. induction l1 as [|l l1 IH]; intros l2 d; [reflexivity|]. cbn [app last_value]. apply IH. Qed.
Lemma last_value_notin v ls : forall d, ~ In v (map lvar ls) -> last_value v ls d = d.
Proof.
  induction ls as [|l ls IH]; intros d H; [reflexivity|]. cbn [last_value map In] in *.
  destruct (N.eqb_spec v (lvar l)); [intuition congruence|]. apply IH. tauto.
Qed.
Lemma last_value_false v ls :
  last_value v ls TDontCare = TFalse <-> exists l1 l2, ls = l1 ++ negl v :: l2 /\ ~ In v (map lvar l2).
Proof.
  split.
  - induction ls as [|l ls IH] using rev_ind; [discriminate|]. rewrite last_value_app. cbn [last_value].
    destruct (N.eqb_spec v (lvar l)) as [->|Hn].
    + destruct l as [u []]; [|discriminate]. intros _. exists ls, []. split; [reflexivity|]. intros [].
    + intros H. destruct (IH H) as (l1 & l2 & -> & Hi). exists l1, (l2 ++ [l]). split; [now rewrite <- app_assoc|].
      rewrite map_app, in_app_iff. cbn. intuition congruence.
  - intros (l1 & l2 & -> & H). rewrite last_value_app. cbn [last_value negl lvar lneg]. rewrite N.eqb_refl. now rewrite last_value_notin.
Qed.
Lemma clash_false_repeated f ls : (forall u, f u = TDontCare) -> clash f ls <-> false_repeated ls.
Proof.
  intros Hf. split.
  - intros (pre & x & post & -> & H). rewrite Hf in H. apply last_value_false in H as (l1 & l2 & -> & H).
    exists l1, (lvar x), l2, x, post. split; [now rewrite <- app_assoc|]. now split.
  - intros (l1 & v & l2 & x & l3 & -> & <- & H). exists (l1 ++ negl (lvar x) :: l2), x, l3. split; [now rewrite <- app_assoc|].
    rewrite Hf. apply last_value_false. eauto.
Qed.
Lemma distinct_no_repeat ls : distinct_vars ls -> ~ false_repeated ls.
Proof.
  intros H (l1 & v & l2 & x & l3 & -> & Hx & _). unfold distinct_vars in H. rewrite map_app in H. cbn [map negl lvar] in H. apply NoDup_remove_2 in H.
  apply H. rewrite map_app. cbn [map]. rewrite !in_app_iff. cbn [In]. tauto.
Qed.
Lemma distinct_last ls : distinct_vars ls -> forall v b, last_value v ls TDontCare = tern_of_bool b <-> In (mkLit v (negb b)) ls.
Proof.
  intros H v b. split.
  - clear H. induction ls as [|l ls IH] using rev_ind; [destruct b; discriminate|]. rewrite last_value_app, in_app_iff. cbn [last_value In].
    destruct (N.eqb_spec v (lvar l)) as [->|Hn]; [|auto]. destruct l as [u []], b; cbn; intros E; auto; discriminate.
  - intros Hi. apply in_split in Hi as (l1 & l2 & ->). unfold distinct_vars in H. rewrite map_app in H. cbn [map lvar] in H.
    apply NoDup_remove_2 in H. rewrite last_value_app. cbn [last_value lvar lneg]. rewrite N.eqb_refl, negb_involutive.
    apply last_value_notin. intros Hi. apply H. apply in_or_app. now right.
Qed.
Lemma describes_last s ls : distinct_vars ls -> (forall v, var_value s v = last_value v ls TDontCare) -> describes s ls.
Proof.
  intros H E v b. rewrite <- distinct_last by assumption. unfold pasg_of. rewrite E.
  destruct (last_value v ls TDontCare), b; cbn; split; congruence.
Qed.

(** ** Words *)

Definition word (w : text) : Prop := w <> [] /\ forall c, In c w -> is_white c = false.

Lemma blanks_white sp : blanks sp -> forallb is_white sp = true.
Proof. intros H. apply forallb_forall. intros c Hc. now destruct (H c Hc) as [-> | ->]. Qed.

Lemma words_from_white sp t : forallb is_white sp = true -> words_from [] (sp ++ t) = words_from [] t.
Proof. induction sp as [|c sp IH]; [reflexivity|]. cbn [forallb app words_from]. rewrite andb_true_iff. intros [-> H]. auto. Qed.
Lemma words_from_word w : forall cur t, (forall c, In c w -> is_white c = false) -> words_from cur (w ++ t) = words_from (rev w ++ cur) t.
Proof.
  induction w as [|c w IH]; intros cur t H; [reflexivity|]. cbn [app words_from rev]. rewrite (H c) by now left.
  rewrite IH by (intros; apply H; now right). now rewrite <- app_assoc.
Qed.
Lemma words_from_end cur t : cur <> [] -> stops (fun c => negb (is_white c)) t -> words_from cur t = rev cur :: words t.
Proof.
  intros Hc Ht. destruct t as [|c t]; cbn [words_from].
  - now destruct cur.
  - cbn in Ht. apply negb_false_iff in Ht. rewrite Ht. unfold words. cbn [words_from]. rewrite Ht. now destruct cur.
Qed.
Lemma words_text_stops ws t : words_text ws t -> stops (fun c => negb (is_white c)) t.
Proof.
  intros H. destruct H as [sp H | sp w ws t [H Hn] _].
  - destruct sp as [|c sp]; [exact Logic.I|]. cbn. destruct (H c) as [-> | ->]; [now left|reflexivity..].
  - destruct sp as [|c sp]; [easy|]. cbn. destruct (H c) as [-> | ->]; [now left|reflexivity..].
Qed.
Lemma words_words ws t : Forall word ws -> words_text ws t -> words t = ws.
Proof.
  intros Hw H. induction H as [sp H | sp w ws t [H _] Ht IH].
  - unfold words. rewrite <- (app_nil_r sp), words_from_white by now apply blanks_white. reflexivity.
  - inversion_clear Hw as [|? ? [Hn Hc] Hws]. unfold words. rewrite words_from_white by now apply blanks_white.
    rewrite words_from_word by assumption. rewrite app_nil_r, words_from_end.
    + now rewrite rev_involutive, IH.
    + intros E. apply Hn. now rewrite <- (rev_involutive w), E.
    + now apply words_text_stops in Ht.
Qed.

Lemma word_starts w t : word w -> stops is_white (w ++ t).
Proof. intros [Hn H]. destruct w as [|c w]; [easy|]. cbn. apply H. now left. Qed.
Lemma word_rev w : word w -> word (rev w).
Proof.
  intros [Hn H]. split.
  - intros E. apply Hn. now rewrite <- (rev_involutive w), E.
  - intros c Hc. apply H. now apply in_rev.
Qed.

(** The trimmed text of a line *)
Lemma words_trim w ws t : Forall word (w :: ws) -> words_text (w :: ws) t ->
  exists m, trim t = m /\ (ws = [] -> m = w) /\ (ws <> [] -> exists c, In c m /\ is_white c = true).
Proof.
  intros Hw H.
  assert (exists sp m sp', t = sp ++ m ++ sp' /\ blanks sp /\ blanks sp' /\ tight m /\ m <> [] /\ (ws = [] -> m = w) /\ (ws <> [] -> exists c, In c m /\ is_white c = true)) as
    (sp & m & sp' & -> & H1 & H2 & Ht & _ & Hm); [|exists m; split; [|exact Hm]; apply trim_tight; [now apply blanks_white..|exact Ht]].
  remember (w :: ws) as l eqn:E. revert w ws E. induction H as [sp H | sp w ws t [H Hn] Ht IH]; intros w0 ws0 E; [discriminate|].
  injection E as <- <-. inversion_clear Hw as [|? ? Hw0 Hws]. destruct ws as [|w' ws].
  - inversion Ht as [sp' H' |]. subst t. exists sp, w, sp'. split; [reflexivity|]. do 2 (split; [assumption|]). split; [split|].
    + rewrite <- (app_nil_r w). now apply word_starts.
    + rewrite <- (app_nil_r (rev w)). now apply word_starts, word_rev.
    + split; [apply Hw0|]. split; [reflexivity|easy].
  - destruct (IH Hws w' ws eq_refl) as (sp1 & m & sp' & -> & H1 & H2 & [Ht1 Ht2] & Hm & Hm1 & Hm2).
    exists sp, (w ++ sp1 ++ m), sp'. split; [now rewrite <- !app_assoc|].
    do 2 (split; [assumption|]). split; [split|].
    + now apply word_starts.
    + rewrite !rev_app_distr. rewrite <- app_assoc. destruct (rev m) as [|c r] eqn:Er; [|exact Ht2]. destruct Hm. now rewrite <- (rev_involutive m), Er.
    + split; [intros E; apply app_eq_nil in E as [E _]; now apply Hw0|]. split; [discriminate|]. intros _.
      assert (exists c, In c sp1 /\ is_white c = true) as (c & Hc & Hcw).
      { inversion Ht as [|sp2 w2 ws2 t2 [Hsp2 Hsp2n] Ht2' E1 E2].
        destruct sp1 as [|c sp1]; [exfalso|exists c; split; [now left|]; destruct (H1 c) as [-> | ->]; [now left|reflexivity..]].
        cbn [app] in E2. destruct sp2 as [|c sp2]; [easy|]. destruct m as [|c' m]; [easy|]. cbn [app] in E2. injection E2 as <- _.
        cbn in Ht1. destruct (Hsp2 c) as [-> | ->]; [now left|discriminate..]. }
      exists c. split; [|assumption]. rewrite !in_app_iff. auto.
Qed.

(** ** The three formats *)

Lemma digit_not_white c : is_digit c = true -> is_white c = false.
Proof. destruct c as [[] [] [] [] [] [] [] []]; (discriminate || reflexivity). Qed.
Lemma digit_not_x c : is_digit c = true -> c <> "x"%char.
Proof. now intros H ->. Qed.

Lemma lit_text_chars l c : In c (lit_text l) -> c = "-"%char \/ is_digit c = true.
Proof.
  unfold lit_text. rewrite in_app_iff. intros [H | H].
  - destruct (lneg l); [destruct H as [<- | []]; now left|destruct H].
  - right. revert c H. apply forallb_forall, print_N_digits.
Qed.
Lemma lit_text_not_nil l : lit_text l <> [].
Proof. unfold lit_text. intros E. apply app_eq_nil in E as [_ E]. now apply print_N_not_nil in E. Qed.
Lemma sat_word_word x w : sat_word x w -> word w /\ ~ In "x"%char w.
Proof.
  destruct x as [l|]; cbn [sat_word].
  - intros [_ ->]. split; [split; [apply lit_text_not_nil|]|].
    + intros c Hc. destruct (lit_text_chars l c Hc) as [-> | H]; [reflexivity|now apply digit_not_white].
    + intros Hc. now destruct (lit_text_chars l _ Hc).
  - intros ->. split; [split; [discriminate|]|]; cbn; intuition (subst; try reflexivity; discriminate).
Qed.
Lemma sat_words_word xs ws : Forall2 sat_word xs ws -> Forall word ws /\ forall w, In w ws -> ~ In "x"%char w.
Proof.
  induction 1 as [|x w xs ws H _ [IH1 IH2]]; [split; [constructor|intros ? []]|]. apply sat_word_word in H as [H1 H2].
  split; [now constructor|]. intros w' [<- | H]; auto.
Qed.
Lemma opb_word_word l w : opb_lit_text 1 l w -> word w /\ In "x"%char w.
Proof.
  intros (_ & _ & sg & Hs & ->). split; [split|].
  - intros E. apply app_eq_nil in E as [_ E]. discriminate.
  - intros c. rewrite !in_app_iff. intros [H | [H | H]].
    + destruct (lneg l); [destruct Hs as [-> | ->]; destruct H as [<- | []]; reflexivity|subst sg; destruct H].
    + destruct H as [<- | []]. reflexivity.
    + apply digit_not_white. revert c H. apply forallb_forall, print_N_digits.
  - rewrite !in_app_iff. right. left. now left.
Qed.
Lemma opb_words_word ls ws : Forall2 (opb_lit_text 1) ls ws -> Forall word ws.
Proof. induction 1 as [|l w ls ws H _ IH]; constructor; [now apply opb_word_word in H|assumption]. Qed.

Lemma has_char_in c t : has_char c t = true <-> In c t.
Proof.
  unfold has_char. rewrite existsb_exists. split.
  - intros (d & Hd & E). apply Ascii.eqb_eq in E. now subst.
  - intros H. exists c. split; [assumption|apply Ascii.eqb_refl].
Qed.
Lemma words_text_char c ws t : words_text ws t -> c <> " "%char -> c <> tab -> (In c t <-> exists w, In w ws /\ In c w).
Proof.
  intros H Hs Ht. induction H as [sp H | sp w ws t [H _] _ IH].
  - split; [intros Hc; destruct (H c Hc); contradiction|intros (? & [] & _)].
  - rewrite !in_app_iff, IH. split.
    + intros [Hc | [Hc | (w' & Hw & Hc)]]; [destruct (H c Hc); contradiction|exists w; split; [now left|assumption]|exists w'; split; [now right|assumption]].
    + intros (w' & [<- | Hw] & Hc); eauto.
Qed.

Definition is_bit (c : ascii) : bool := Ascii.eqb c "1" || Ascii.eqb c "0".
Lemma white_not_bit c : is_white c = true -> is_bit c = false.
Proof. destruct c as [[] [] [] [] [] [] [] []]; (discriminate || reflexivity). Qed.
Lemma forallb_false {A} (f : A -> bool) l x : In x l -> f x = false -> forallb f l = false.
Proof. intros H E. destruct (forallb f l) eqn:Ef; [|reflexivity]. rewrite forallb_forall in Ef. now rewrite Ef in E. Qed.

(** The format of a SAT competition line; a line without words has the other format *)
Lemma sat_format xs t : ~ looks_like_bits xs -> xs <> [] -> sat_vline xs t -> vline_format t = SatComp.
Proof.
  intros Hl Hx (ws & s & Hf & Ht & ->). destruct (sat_words_word _ _ Hf) as [Hw Hnx]. unfold vline_format.
  destruct (has_char "x" ("v"%char :: s)) eqn:Ex.
  { apply has_char_in in Ex. destruct Ex as [Ex | Ex]; [discriminate|]. apply (words_text_char _ _ _ Ht) in Ex; [|discriminate..].
    destruct Ex as (w & H1 & H2). now destruct (Hnx w H1). }
  cbn [tl]. inversion Hf as [|x w xs' ws' Hxw Hf']; subst; [easy|].
  destruct (words_trim w ws' s Hw Ht) as (m & -> & Hm1 & Hm2). destruct ws' as [|w' ws'].
  - specialize (Hm1 eq_refl). subst m. inversion Hf'; subst. destruct x as [l|]; cbn [sat_word] in Hxw.
    + destruct Hxw as [_ ->]. destruct (forallb (fun c => Ascii.eqb c "1" || Ascii.eqb c "0") (lit_text l)) eqn:E; [|now rewrite andb_false_r].
      destruct Hl. exists l. split; [reflexivity|]. intros c Hc. rewrite forallb_forall in E. specialize (E c Hc).
      apply orb_true_iff in E as [E | E]; apply Ascii.eqb_eq in E; auto.
    + subst w. reflexivity.
  - destruct (Hm2 ltac:(discriminate)) as (c & Hc & Hcw). rewrite (forallb_false _ m c Hc) by now apply (white_not_bit c). now rewrite andb_false_r.
Qed.
Lemma blank_format t : sat_vline [] t -> vline_format t = MaxSatEval /\ trim (tl t) = [].
Proof.
  intros (ws & s & Hf & Ht & ->). inversion Hf; subst. inversion Ht as [sp Hsp |]; subst. cbn [tl].
  assert (trim s = []) as E by (apply trim_white; now apply blanks_white). split; [|exact E]. unfold vline_format. cbn [tl]. rewrite E.
  destruct (has_char "x" ("v"%char :: s)) eqn:Ex; [|reflexivity]. apply has_char_in in Ex. destruct Ex as [Ex | Ex]; [discriminate|].
  destruct (Hsp _ Ex); discriminate.
Qed.

Lemma str_parse_lit l : (lvar l < 2147483647)%N ->
  exists z, str_parse_int i32_min i32_max (lit_text l) = Some z /\ z <> 0%Z /\ from_ipasir z = Some l.
Proof.
  intros Hl. destruct l as [v n]. cbn [lvar] in Hl. unfold lit_text. cbn [lneg lvar].
  exists (if n then - Z.of_N (v + 1) else Z.of_N (v + 1))%Z.
  assert (str_parse_int i32_min i32_max ((if n then ["-"%char] else []) ++ print_N (v + 1)) = Some (if n then - Z.of_N (v + 1) else Z.of_N (v + 1))%Z) as ->.
  { unfold str_parse_int. pose proof (print_N_digits (v + 1)) as Hd. pose proof (print_N_value (v + 1)) as Hv.
    destruct (print_N (v + 1)) as [|c r] eqn:Ep; [now apply print_N_not_nil in Ep|].
    change i32_max with 2147483647%Z. change i32_min with (-2147483648)%Z. destruct n; cbn [app].
    - change (Ascii.eqb "-" "-") with true. cbn iota. rewrite Hd, Hv.
      replace (-1 * Z.of_N (v + 1))%Z with (- Z.of_N (v + 1))%Z by lia.
      destruct ((-2147483648 <=? - Z.of_N (v + 1)) && (- Z.of_N (v + 1) <=? 2147483647))%Z eqn:E; [reflexivity|lia].
    - assert (Ascii.eqb c "-" = false /\ Ascii.eqb c "+" = false) as [-> ->].
      { cbn [forallb] in Hd. apply andb_true_iff in Hd as [Hd _]. split; apply Ascii.eqb_neq; intros ->; discriminate. }
      cbn iota. rewrite Hd, Hv. rewrite Z.mul_1_l.
      destruct ((-2147483648 <=? Z.of_N (v + 1)) && (Z.of_N (v + 1) <=? 2147483647))%Z eqn:E; [reflexivity|lia]. }
  split; [reflexivity|]. split; [destruct n; lia|]. unfold from_ipasir. change max_var_idx with 2147483647%N.
  destruct n.
  - destruct (- Z.of_N (v + 1) =? 0)%Z eqn:E0; [lia|]. destruct (2147483647 <? Z.abs_N (- Z.of_N (v + 1)) - 1)%N eqn:E1; [lia|]. do 2 f_equal; lia.
  - destruct (Z.of_N (v + 1) =? 0)%Z eqn:E0; [lia|]. destruct (2147483647 <? Z.abs_N (Z.of_N (v + 1)) - 1)%N eqn:E1; [lia|]. do 2 f_equal; lia.
Qed.

Lemma extend_sat_words xs ws : Forall2 sat_word xs ws -> forall s, extend_sat_comp s ws = extend_lits s (present xs).
Proof.
  induction 1 as [|x w xs ws H _ IH]; intros s; [reflexivity|]. cbn [extend_sat_comp]. destruct x as [l|]; cbn [sat_word] in H.
  - destruct H as [Hl ->]. destruct (str_parse_lit l Hl) as (z & -> & Hz & ->). destruct (Z.eqb_spec z 0); [contradiction|].
    change (present (Some l :: xs)) with (l :: present xs). cbn [extend_lits]. destruct (extend_lit s l); [apply IH|reflexivity..].
  - subst w. change (str_parse_int i32_min i32_max (T "0")) with (Some 0%Z). cbn iota. change (0 =? 0)%Z with true. cbn iota. apply IH.
Qed.
Lemma extend_pb_words ls ws : Forall2 (opb_lit_text 1) ls ws -> forall s, extend_pb_comp s ws = extend_lits s ls.
Proof.
  induction 1 as [|l w ls ws H _ IH]; intros s; [reflexivity|]. cbn [extend_pb_comp extend_lits].
  assert (parse_all (opb_literal opb_default) w = ROk l) as ->.
  { unfold parse_all. rewrite <- (app_nil_r w), (literal_text opb_default l w []); [reflexivity|exact H|exact Logic.I]. }
  destruct (extend_lit s l); [apply IH|reflexivity..].
Qed.
Lemma extend_bits bs : forall s, extend_maxsat_eval s (bits_text bs) = VOk (s ++ map tern_of_bool bs).
Proof.
  induction bs as [|b bs IH]; intros s; [now rewrite app_nil_r|]. cbn [bits_text map extend_maxsat_eval].
  destruct b; [change (Ascii.eqb "1" "0") with false; change (Ascii.eqb "1" "1") with true|change (Ascii.eqb "0" "0") with true]; cbn iota.
  - change (map (fun b : bool => if b then "1"%char else "0"%char) bs) with (bits_text bs). rewrite IH, <- app_assoc. reflexivity.
  - change (map (fun b : bool => if b then "1"%char else "0"%char) bs) with (bits_text bs). rewrite IH, <- app_assoc. reflexivity.
Qed.

(** ** One line *)

Lemma words_text_one_line ws t : words_text ws t -> (forall w, In w ws -> word w) -> one_line t.
Proof.
  intros H Hw. assert (forall sp, blanks sp -> one_line sp) as Hb by (intros sp Hsp c Hc; destruct (Hsp c Hc) as [-> | ->]; split; discriminate).
  induction H as [sp H | sp w ws t [H _] _ IH]; [auto|].
  intros c. rewrite !in_app_iff. intros [Hc | [Hc | Hc]].
  - now apply (Hb sp).
  - pose proof (proj2 (Hw w (or_introl eq_refl)) c Hc) as E. split; intros ->; discriminate.
  - revert c Hc. apply IH. intros w' Hw'. apply Hw. now right.
Qed.
Lemma cons_one_line c t : c <> nl -> c <> cr -> one_line t -> one_line (c :: t).
Proof. intros H1 H2 H d [<- | Hd]; [now split|now apply H]. Qed.
Lemma sat_vline_one_line xs t : sat_vline xs t -> one_line t.
Proof.
  intros (ws & s & Hf & Ht & ->). apply cons_one_line; [discriminate..|]. apply (words_text_one_line ws); [assumption|].
  apply Forall_forall. now apply sat_words_word in Hf as [Hw _].
Qed.
Lemma pb_vline_one_line ls t : pb_vline ls t -> one_line t.
Proof.
  intros (_ & ws & s & Hf & Ht & ->). apply cons_one_line; [discriminate..|]. apply (words_text_one_line ws); [assumption|].
  apply Forall_forall. now apply opb_words_word in Hf.
Qed.

Lemma one_line_no_nl t : one_line t -> no_nl t.
Proof. intros H Hc. now destruct (H _ Hc). Qed.
Lemma chomp_no_nl t : no_nl t -> chomp t = t.
Proof.
  intros H. unfold chomp. destruct (rev t) as [|c r] eqn:E; [now rewrite <- (rev_involutive t), E|].
  destruct (Ascii.eqb_spec c nl) as [->|]; [|reflexivity]. destruct H. apply in_rev. rewrite E. now left.
Qed.
Lemma chomp_nl t : one_line t -> chomp (t ++ [nl]) = t.
Proof.
  intros H. unfold chomp. rewrite rev_app_distr. cbn [rev app]. rewrite Ascii.eqb_refl. destruct (rev t) as [|d r] eqn:E; [now rewrite <- (rev_involutive t), E|].
  assert (d <> cr) as Hd by (apply H, in_rev; rewrite E; now left). apply Ascii.eqb_neq in Hd. rewrite Hd. now rewrite <- E, rev_involutive.
Qed.
Lemma chomp_crnl t : chomp ((t ++ [cr]) ++ [nl]) = t.
Proof.
  unfold chomp. rewrite !rev_app_distr. cbn [rev app]. rewrite !Ascii.eqb_refl. apply rev_involutive.
Qed.
Lemma lines_lines ls t : Forall one_line ls -> lines_text ls t -> lines t = ls.
Proof.
  intros Hl H. unfold lines. induction H as [|l Hn|l e ls t He _ IH]; [reflexivity| |].
  - inversion_clear Hl as [|? ? Hl0 _]. rewrite read_lines_last by (assumption || now apply one_line_no_nl). cbn [map].
    now rewrite chomp_no_nl by now apply one_line_no_nl.
  - inversion_clear Hl as [|? ? Hl0 Hls]. destruct He as [-> | ->].
    + cbn [app]. rewrite read_lines_line by now apply one_line_no_nl. cbn [map]. rewrite chomp_nl by assumption. now rewrite IH.
    + change (l ++ [cr; nl] ++ t) with (l ++ [cr] ++ nl :: t). rewrite app_assoc, read_lines_line.
      * cbn [map]. rewrite chomp_crnl. now rewrite IH.
      * intros Hc. apply in_app_or in Hc as [Hc | [Hc | []]]; [|discriminate]. revert Hc. now apply one_line_no_nl.
Qed.
Lemma lines_one t : one_line t -> t <> [] -> lines t = [t].
Proof. intros H Hn. apply lines_lines; [constructor; [assumption|constructor]|now constructor]. Qed.

Lemma extend_one t s : one_line t -> t <> [] -> extend_from_vline s t = extend_line (vline_format t) s t.
Proof.
  intros H Hn. unfold extend_from_vline. rewrite (lines_one t H Hn). cbn [extend_lines].
  destruct t as [|c t]; [easy|]. now destruct (extend_line (vline_format (c :: t)) s (c :: t)).
Qed.
Lemma sat_vline_extend xs t s : ~ looks_like_bits xs -> sat_vline xs t -> extend_from_vline s t = extend_lits s (present xs).
Proof.
  intros Hl Ht. rewrite extend_one; [|now apply sat_vline_one_line in Ht|now destruct Ht as (? & ? & _ & _ & ->)].
  destruct xs as [|x xs].
  - destruct (blank_format t Ht) as [-> E]. destruct Ht as (ws & s' & _ & _ & ->). cbn [tl] in E. unfold extend_line.
    change (Ascii.eqb "v" "v") with true. cbn iota. now rewrite E.
  - rewrite (sat_format (x :: xs) t) by (assumption || discriminate). destruct Ht as (ws & s' & Hf & Ht & ->). unfold extend_line.
    change (Ascii.eqb "v" "v") with true. cbn iota. rewrite (words_words ws); [now apply extend_sat_words|now apply sat_words_word in Hf|assumption].
Qed.
Lemma pb_vline_extend ls t s : pb_vline ls t -> extend_from_vline s t = extend_lits s ls.
Proof.
  intros Ht. rewrite extend_one; [|now apply pb_vline_one_line in Ht|now destruct Ht as (_ & ? & ? & _ & _ & ->)].
  destruct Ht as (Hn & ws & s' & Hf & Ht & ->).
  assert (vline_format ("v"%char :: s') = PbComp) as ->.
  { unfold vline_format. assert (has_char "x" ("v"%char :: s') = true) as ->; [|reflexivity]. apply has_char_in. right.
    apply (words_text_char _ _ _ Ht); [discriminate..|]. inversion Hf as [|l w ls' ws' H1 H2]; subst; [easy|]. exists w. split; [now left|now apply opb_word_word in H1]. }
  unfold extend_line. change (Ascii.eqb "v" "v") with true. cbn iota. rewrite (words_words ws); [now apply extend_pb_words|now apply opb_words_word in Hf|assumption].
Qed.
Lemma bits_word bs : bs <> [] -> word (bits_text bs).
Proof.
  intros Hn. split; [now destruct bs|]. intros c Hc. apply in_map_iff in Hc as (b & <- & _). now destruct b.
Qed.
Lemma bits_no_char bs c : is_bit c = false -> ~ In c (bits_text bs).
Proof. intros Hc H. apply in_map_iff in H as ([] & <- & _); discriminate. Qed.
Lemma bits_vline_one_line bs t : bs <> [] -> bits_vline bs t -> one_line t.
Proof.
  intros Hn [Ht ->]. apply cons_one_line; [discriminate..|]. apply (words_text_one_line _ _ Ht). intros w [<- | []]. now apply bits_word.
Qed.
Lemma bits_vline_extend bs t s : bs <> [] -> bs <> [false] -> bits_vline bs t -> extend_from_vline s t = VOk (s ++ map tern_of_bool bs).
Proof.
  intros Hn Hf Ht. rewrite extend_one; [|now apply bits_vline_one_line in Ht|now destruct Ht as [_ ->]].
  destruct Ht as [Ht ->]. set (r := tl t) in *. clearbody r. clear t.
  destruct (words_trim _ _ _ (Forall_cons _ (bits_word bs Hn) (Forall_nil _)) Ht) as (m & E & Hm & _). rewrite (Hm eq_refl) in E. clear m Hm.
  assert (vline_format ("v"%char :: r) = MaxSatEval) as ->.
  { unfold vline_format. destruct (has_char "x" ("v"%char :: r)) eqn:Ex.
    { apply has_char_in in Ex. destruct Ex as [Ex | Ex]; [discriminate|]. apply (words_text_char _ _ _ Ht) in Ex; [|discriminate..].
      destruct Ex as (w & [<- | []] & Hc). now apply bits_no_char in Hc. }
    cbn [tl]. rewrite E. destruct (has_char " " (bits_text bs)) eqn:Es; [apply has_char_in in Es; now apply bits_no_char in Es|].
    assert (text_eqb (bits_text bs) (T "0") = false) as ->.
    { destruct bs as [|b bs]; [easy|]. destruct bs as [|b' bs]; destruct b; try reflexivity; try easy. }
    assert (forallb (fun c => Ascii.eqb c "1" || Ascii.eqb c "0") (bits_text bs) = true) as ->; [|reflexivity].
    apply forallb_forall. intros c Hc. apply in_map_iff in Hc as ([] & <- & _); reflexivity. }
  unfold extend_line. change (Ascii.eqb "v" "v") with true. cbn iota. rewrite E. apply extend_bits.
Qed.

(** ** Several lines *)

Lemma extend_sat_lines xss ls : Forall2 sat_vline xss ls -> forall s, extend_lines SatComp s ls = extend_lits s (flat_map present xss).
Proof.
  induction 1 as [|xs l xss ls H _ IH]; intros s; [reflexivity|]. cbn [extend_lines flat_map]. rewrite extend_lits_app.
  destruct H as (ws & s' & Hf & Ht & ->). unfold extend_line. change (Ascii.eqb "v" "v") with true. cbn iota.
  rewrite (words_words ws); [|now apply sat_words_word in Hf|assumption]. rewrite (extend_sat_words _ _ Hf). destruct (extend_lits s (present xs)); [apply IH|reflexivity..].
Qed.
Lemma extend_pb_lines lss ls : Forall2 pb_vline lss ls -> forall s, extend_lines PbComp s ls = extend_lits s (List.concat lss).
Proof.
  induction 1 as [|xs l xss ls H _ IH]; intros s; [reflexivity|]. cbn [extend_lines List.concat]. rewrite extend_lits_app.
  destruct H as (_ & ws & s' & Hf & Ht & ->). unfold extend_line. change (Ascii.eqb "v" "v") with true. cbn iota.
  rewrite (words_words ws); [|now apply opb_words_word in Hf|assumption]. rewrite (extend_pb_words _ _ Hf). destruct (extend_lits s xs); [apply IH|reflexivity..].
Qed.
Lemma lines_text_char c ls t : lines_text ls t -> c <> nl -> c <> cr -> (In c t <-> exists l, In l ls /\ In c l).
Proof.
  intros H Hn Hr. induction H as [|l Hl|l e ls t He _ IH].
  - split; [intros []|intros (? & [] & _)].
  - split; [intros Hc; exists l; split; [now left|assumption]|intros (? & [<- | []] & Hc); assumption].
  - rewrite !in_app_iff, IH. split.
    + intros [Hc | [Hc | (l' & Hl & Hc)]]; [exists l; split; [now left|assumption]| |exists l'; split; [now right|assumption]].
      destruct He as [-> | ->]; cbn in Hc; intuition congruence.
    + intros (l' & [<- | Hl] & Hc); eauto.
Qed.

Lemma span_snd_in f c t : In c t -> f c = false -> In c (snd (span f t)).
Proof.
  induction t as [|d t IH]; [intros []|]. cbn [span]. intros H Hf. destruct (f d) eqn:E; cbn [snd].
  - destruct H as [-> | H]; [congruence|auto].
  - exact H.
Qed.
Lemma trim_in c t : In c t -> is_white c = false -> In c (trim t).
Proof.
  intros H Hw. unfold trim, trim_end, trim_start. apply in_rev. rewrite rev_involutive. apply span_snd_in; [|assumption].
  apply in_rev. rewrite rev_involutive. now apply span_snd_in.
Qed.

Lemma sat_vline_no_x xs t : sat_vline xs t -> ~ In "x"%char t.
Proof.
  intros (ws & s & Hf & Ht & ->) [H | H]; [discriminate|]. apply (words_text_char _ _ _ Ht) in H; [|discriminate..].
  destruct H as (w & H1 & H2). apply sat_words_word in Hf as [_ Hf]. now apply (Hf w).
Qed.
Lemma sat_lines_format xss ls t : (2 <= List.length xss)%nat -> Forall2 sat_vline xss ls -> lines_text ls t -> vline_format t = SatComp.
Proof.
  intros Hlen Hf Ht. unfold vline_format. destruct (has_char "x" t) eqn:Ex.
  { apply has_char_in in Ex. apply (lines_text_char _ _ _ Ht) in Ex; [|discriminate..]. destruct Ex as (l & Hl & Hx). clear -Hf Hl Hx.
    induction Hf as [|xs l' xss ls H _ IH]; [destruct Hl|]. destruct Hl as [-> | Hl]; [now apply sat_vline_no_x in H|auto]. }
  assert (In "v"%char (tl t)) as Hv.
  { inversion Hf as [|xs l xss' ls' H1 Hf']; subst; [cbn in Hlen; lia|]. inversion Hf' as [|xs' l' xss'' ls'' H1' Hf'']; subst; [cbn in Hlen; lia|].
    inversion Ht as [| |? e ? t' He Ht' E1 E2]; subst. destruct H1 as (ws & s & _ & _ & ->). cbn [app tl]. rewrite !in_app_iff. right. right.
    apply (lines_text_char _ _ _ Ht'); [discriminate..|]. exists l'. split; [now left|]. destruct H1' as (? & ? & _ & _ & ->). now left. }
  rewrite (forallb_false _ _ "v"%char (trim_in _ _ Hv eq_refl) eq_refl). now rewrite andb_false_r.
Qed.
Lemma sat_lines_extend xss ls t s : (2 <= List.length xss)%nat -> Forall2 sat_vline xss ls -> lines_text ls t ->
  extend_from_vline s t = extend_lits s (flat_map present xss).
Proof.
  intros Hlen Hf Ht. unfold extend_from_vline. rewrite (sat_lines_format _ _ _ Hlen Hf Ht).
  rewrite (lines_lines ls); [|clear -Hf; induction Hf; constructor; [now apply sat_vline_one_line in H|assumption]|assumption].
  rewrite (extend_sat_lines _ _ Hf). destruct t; [|reflexivity]. inversion Ht as [| |? e ? t' He Ht' E1 E2]; subst; [|easy|].
  - inversion Hf; subst. cbn in Hlen. lia.
  - match goal with H : _ ++ _ = [] |- _ => apply app_eq_nil in H as [_ H]; apply app_eq_nil in H as [H _] end. destruct He; congruence.
Qed.
Lemma pb_lines_extend lss ls t s : lss <> [] -> Forall2 pb_vline lss ls -> lines_text ls t -> extend_from_vline s t = extend_lits s (List.concat lss).
Proof.
  intros Hn Hf Ht. assert (In "x"%char t) as Hx.
  { apply (lines_text_char _ _ _ Ht); [discriminate..|]. inversion Hf as [|xs l lss' ls' H Hf']; subst; [easy|]. exists l. split; [now left|].
    destruct H as (Hxn & ws & s' & H & Hw & ->). right. apply (words_text_char _ _ _ Hw); [discriminate..|].
    inversion H as [|? w ? ? Hl]; subst; [easy|]. exists w. split; [now left|now apply opb_word_word in Hl]. }
  unfold extend_from_vline. assert (vline_format t = PbComp) as ->.
  { unfold vline_format. apply has_char_in in Hx. now rewrite Hx. }
  rewrite (lines_lines ls); [|clear -Hf; induction Hf; constructor; [now apply pb_vline_one_line in H|assumption]|assumption].
  rewrite (extend_pb_lines _ _ Hf). destruct t; [destruct Hx|reflexivity].
Qed.

Lemma var_value_nil v : var_value [] v = TDontCare.
Proof. rewrite var_value_nth. now destruct (vidx v). Qed.
(** The outcome for the literals of value lines *)
Lemma vlits_outcome ls : 
  (false_repeated ls -> exists v, extend_lits [] ls = VErr (Conflicting v)) /\
  (~ false_repeated ls -> exists s, extend_lits [] ls = VOk s /\ forall v, var_value s v = last_value v ls TDontCare).
Proof.
  destruct (extend_lits_spec ls []) as [(s & E & Hv & Hc) | (v & E & Hc)]; rewrite clash_false_repeated in Hc by apply var_value_nil.
  - split; [intros H; contradiction|]. intros _. exists s. split; [exact E|]. intros v. now rewrite Hv, var_value_nil.
  - split; [|intros H; contradiction]. intros _. now exists v.
Qed.

(** ** Solver output *)

Definition is_bits_line (k : out_line) : bool := match k with LBits _ => true | _ => false end.
Definition is_value (k : out_line) : bool := match k with LSat | LOther => false | _ => true end.
Definition is_sat_line (k : out_line) : bool := match k with LSat => true | _ => false end.
Definition current (sol : option assignment) : assignment := match sol with Some s => s | None => [] end.

Lemma starts_with_space a t : starts_with (T (String a " ")) t = true <-> exists r, t = a :: " "%char :: r.
Proof.
  change (T (String a " ")) with [a; " "%char]. destruct t as [|c [|d t]]; cbn [starts_with].
  - split; [discriminate|]. intros (r & E). discriminate.
  - split; [rewrite andb_false_r; discriminate|]. intros (r & E). discriminate.
  - rewrite !andb_true_iff, !Ascii.eqb_eq. split; [intros (-> & -> & _); eauto|]. intros (r & E). injection E as -> -> _. auto.
Qed.
Lemma starts_with_app p t : starts_with p (p ++ t) = true.
Proof. induction p as [|c p IH]; [reflexivity|]. cbn [app starts_with]. now rewrite Ascii.eqb_refl. Qed.

Lemma parse_other t b sol r : other_text t -> parse_output_from b sol (t :: r) = parse_output_from b sol r.
Proof.
  intros (_ & Hs & Hv). cbn [parse_output_from].
  destruct (starts_with (T "s ") t) eqn:Es; [apply starts_with_space in Es as (x & ->); now destruct (Hs x)|].
  destruct (starts_with (T "v ") t) eqn:Ev; [apply starts_with_space in Ev as (x & ->); now destruct (Hv x)|]. reflexivity.
Qed.
(** The text after the tag of a status line *)
Lemma status_trim answer t : (forall r, stops is_white (answer ++ r)) -> status_text answer t -> exists sp, starts_with (T "s ") t = true /\ starts_with (T "v ") t = false /\ trim_start (tl t) = answer ++ sp.
Proof.
  intros Ha (sp & sp' & H1 & H2 & ->). exists sp'. split; [reflexivity|]. split; [reflexivity|].
  change (tl (T "s " ++ sp ++ answer ++ sp')) with ((" "%char :: sp) ++ answer ++ sp'). apply trim_start_white; [|apply Ha].
  cbn [forallb]. now rewrite blanks_white.
Qed.
Lemma parse_sat t b sol r : status_text (T "SATISFIABLE") t -> parse_output_from b sol (t :: r) = parse_output_from true sol r.
Proof.
  intros H. apply status_trim in H as (sp & H1 & H2 & H3); [|intros; reflexivity]. cbn [parse_output_from]. rewrite H1, H2, H3. reflexivity.
Qed.
Lemma parse_value t b sol r : v_space t ->
  parse_output_from b sol (t :: r) =
  match extend_from_vline (current sol) t with VOk s => parse_output_from b (Some s) r | VErr e => VErr (BadVLine e) | VPanic => VPanic end.
Proof.
  intros (x & ->). cbn [parse_output_from]. change (starts_with (T "s ") ("v"%char :: " "%char :: x)) with false.
  change (starts_with (T "v ") ("v"%char :: " "%char :: x)) with true. cbn iota. now destruct sol.
Qed.

Definition not_like_bits (k : out_line) : Prop := match k with LSatVals xs => ~ looks_like_bits xs | LBits bs => False | _ => True end.
Lemma parse_lits ks ls : Forall2 out_line_text ks ls -> Forall not_like_bits ks -> forall b sol,
  parse_output_from b sol ls =
  match extend_lits (current sol) (out_lits ks) with
  | VOk s => if b || existsb is_sat_line ks
             then (if existsb is_value ks || match sol with Some _ => true | None => false end then VOk (OutSat s) else VErr NoVLine)
             else VErr NoSLine
  | VErr e => VErr (BadVLine e)
  | VPanic => VPanic
  end.
Proof.
  induction 1 as [|k l ks ls H Hf IH]; intros Hk b sol.
  - cbn. destruct b, sol; reflexivity.
  - inversion_clear Hk as [|? ? Hk0 Hks]. destruct k as [|xs|xs|bs|]; cbn [out_line_text] in H.
    + rewrite parse_sat by assumption. rewrite IH by assumption. cbn [existsb is_sat_line is_value]. now rewrite orb_true_r.
    + destruct H as [H1 H2]. rewrite parse_value by assumption. rewrite (sat_vline_extend xs) by assumption.
      change (out_lits (LSatVals xs :: ks)) with (present xs ++ out_lits ks). rewrite extend_lits_app.
      destruct (extend_lits (current sol) (present xs)) as [s| |]; [|reflexivity..]. rewrite IH by assumption. cbn [existsb is_sat_line is_value current].
      now rewrite !orb_true_r.
    + destruct H as [H1 H2]. rewrite parse_value by assumption. rewrite (pb_vline_extend xs) by assumption.
      change (out_lits (LPbVals xs :: ks)) with (xs ++ out_lits ks). rewrite extend_lits_app.
      destruct (extend_lits (current sol) xs) as [s| |]; [|reflexivity..]. rewrite IH by assumption. cbn [existsb is_sat_line is_value current].
      now rewrite !orb_true_r.
    + destruct Hk0.
    + rewrite parse_other by assumption. rewrite IH by assumption. reflexivity.
Qed.
Definition plain_bits (k : out_line) : Prop := match k with LBits bs => bs <> [] /\ bs <> [false] | LSatVals _ | LPbVals _ => False | _ => True end.
Lemma parse_bits ks ls : Forall2 out_line_text ks ls -> Forall plain_bits ks -> forall b sol,
  parse_output_from b sol ls =
  if b || existsb is_sat_line ks
  then (if existsb is_value ks || match sol with Some _ => true | None => false end then VOk (OutSat (current sol ++ map tern_of_bool (out_bits ks))) else VErr NoVLine)
  else VErr NoSLine.
Proof.
  induction 1 as [|k l ks ls H Hf IH]; intros Hk b sol.
  - cbn. rewrite app_nil_r. destruct b, sol; reflexivity.
  - inversion_clear Hk as [|? ? Hk0 Hks]. destruct k as [|xs|xs|bs|]; cbn [out_line_text] in H; try contradiction.
    + rewrite parse_sat by assumption. rewrite IH by assumption. cbn [existsb is_sat_line is_value]. now rewrite orb_true_r.
    + destruct H as [H1 H2], Hk0 as [Hn Hz]. rewrite parse_value by assumption. rewrite (bits_vline_extend bs) by assumption.
      change (out_bits (LBits bs :: ks)) with (bs ++ out_bits ks). rewrite IH by assumption. cbn [existsb is_sat_line is_value current].
      now rewrite !orb_true_r, map_app, <- app_assoc.
    + rewrite parse_other by assumption. rewrite IH by assumption. reflexivity.
Qed.

Lemma status_one_line answer t : one_line answer -> status_text answer t -> one_line t.
Proof.
  intros Ha (sp & sp' & H1 & H2 & ->). assert (forall sp, blanks sp -> one_line sp) as Hb by (intros x Hx c Hc; destruct (Hx c Hc) as [-> | ->]; split; discriminate).
  intros c. rewrite !in_app_iff. intros [Hc | [Hc | [Hc | Hc]]].
  - destruct Hc as [<- | [<- | []]]; split; discriminate.
  - now apply (Hb sp).
  - now apply Ha.
  - now apply (Hb sp').
Qed.
Lemma word_one_line w : word w -> one_line w.
Proof. intros [_ H] c Hc. specialize (H c Hc). split; intros ->; discriminate. Qed.
Lemma out_line_one_line k t : (forall bs, k = LBits bs -> bs <> []) -> out_line_text k t -> one_line t.
Proof.
  intros Hk H. destruct k as [|xs|xs|bs|]; cbn [out_line_text] in H.
  - revert H. apply status_one_line. intros c Hc. cbn in Hc. repeat (destruct Hc as [<- | Hc]; [split; discriminate|]). destruct Hc.
  - now apply (sat_vline_one_line xs).
  - now apply (pb_vline_one_line xs).
  - apply (bits_vline_one_line bs); [now apply Hk|tauto].
  - apply H.
Qed.
Lemma out_lines ks ls : (forall bs, In (LBits bs) ks -> bs <> []) -> Forall2 out_line_text ks ls -> Forall one_line ls.
Proof.
  intros Hb H. induction H as [|k l ks ls H _ IH]; constructor.
  - apply (out_line_one_line k); [intros bs ->; apply Hb; now left|assumption].
  - apply IH. intros bs Hi. apply Hb. now right.
Qed.
Lemma is_sat_line_in ks : existsb is_sat_line ks = true <-> In LSat ks.
Proof.
  rewrite existsb_exists. split; [intros (k & Hk & E); now destruct k|]. intros H. now exists LSat.
Qed.
Lemma is_value_in ks : existsb is_value ks = true <-> exists k, In k ks /\ is_value_line k.
Proof. rewrite existsb_exists. split; intros (k & Hk & E); exists k; (split; [assumption|]); now destruct k. Qed.

Lemma output_lits ks t : Forall not_like_bits ks -> output_text ks t ->
  parse_output t =
  match extend_lits [] (out_lits ks) with
  | VOk s => if existsb is_sat_line ks then (if existsb is_value ks then VOk (OutSat s) else VErr NoVLine) else VErr NoSLine
  | VErr e => VErr (BadVLine e)
  | VPanic => VPanic
  end.
Proof.
  intros Hk (ls & Hf & Ht). unfold parse_output. rewrite (lines_lines ls); [|apply (out_lines ks); [|assumption]|assumption].
  - rewrite (parse_lits ks ls) by assumption. cbn [current orb]. now rewrite orb_false_r.
  - intros bs Hi. rewrite Forall_forall in Hk. destruct (Hk _ Hi).
Qed.
Lemma output_bits ks t : Forall plain_bits ks -> output_text ks t ->
  parse_output t = if existsb is_sat_line ks then (if existsb is_value ks then VOk (OutSat (map tern_of_bool (out_bits ks))) else VErr NoVLine) else VErr NoSLine.
Proof.
  intros Hk (ls & Hf & Ht). unfold parse_output. rewrite (lines_lines ls); [|apply (out_lines ks); [|assumption]|assumption].
  - rewrite (parse_bits ks ls) by assumption. cbn [current orb app]. now rewrite orb_false_r.
  - intros bs Hi. rewrite Forall_forall in Hk. destruct (Hk _ Hi) as [H _]. exact H.
Qed.

Lemma parse_others os r b sol : Forall other_text os -> parse_output_from b sol (os ++ r) = parse_output_from b sol r.
Proof. induction 1 as [|o os H _ IH]; [reflexivity|]. cbn [app]. now rewrite parse_other. Qed.
Lemma output_status os l ls t : Forall other_text os -> one_line l -> Forall one_line ls -> lines_text (os ++ l :: ls) t ->
  parse_output t = parse_output_from false None (l :: ls).
Proof.
  intros Ho Hl Hls Ht. unfold parse_output. rewrite (lines_lines (os ++ l :: ls)); [now apply parse_others| |assumption].
  apply Forall_app. split; [|now constructor]. revert Ho. apply Forall_impl. intros o H. apply H.
Qed.

(** ** No panics without indices of the pseudo-Boolean format *)

Lemma extend_lit_no_panic s l : extend_lit s l <> VPanic.
Proof. pose proof (extend_lit_spec s l) as H. destruct (tern_eqb _ _); [now rewrite H|]. destruct H as (s' & -> & _). discriminate. Qed.
Lemma extend_sat_no_panic ws : forall s, extend_sat_comp s ws <> VPanic.
Proof.
  induction ws as [|w ws IH]; intros s; [discriminate|]. cbn [extend_sat_comp]. destruct (str_parse_int i32_min i32_max w) as [z|]; [|discriminate].
  destruct (z =? 0)%Z; [apply IH|]. destruct (from_ipasir z) as [l|]; [|discriminate]. pose proof (extend_lit_no_panic s l) as H.
  destruct (extend_lit s l); [apply IH|discriminate|contradiction].
Qed.
Lemma extend_maxsat_no_panic t : forall s, extend_maxsat_eval s t <> VPanic.
Proof. induction t as [|c t IH]; intros s; [discriminate|]. cbn [extend_maxsat_eval]. destruct (Ascii.eqb c "0"); [apply IH|]. destruct (Ascii.eqb c "1"); [apply IH|discriminate]. Qed.
Lemma extend_lines_no_panic f ls : f <> PbComp -> forall s, extend_lines f s ls <> VPanic.
Proof.
  intros Hf. induction ls as [|l ls IH]; intros s; [discriminate|]. cbn [extend_lines]. assert (extend_line f s l <> VPanic) as H.
  { unfold extend_line. destruct l as [|c r]; [discriminate|]. destruct (Ascii.eqb c "v"); [|discriminate].
    destruct f; [apply extend_sat_no_panic|apply extend_maxsat_no_panic|contradiction]. }
  destruct (extend_line f s l); [apply IH|discriminate|contradiction].
Qed.
Lemma extend_vline_no_panic t s : ~ In "x"%char t -> extend_from_vline s t <> VPanic.
Proof.
  intros H. unfold extend_from_vline. destruct t as [|c t]; [discriminate|]. apply extend_lines_no_panic. unfold vline_format.
  destruct (has_char "x" (c :: t)) eqn:E; [now apply has_char_in in E|]. destruct (_ && _); discriminate.
Qed.
Lemma parse_no_panic ls : Forall (fun l => ~ In "x"%char l) ls -> forall b sol, parse_output_from b sol ls <> VPanic.
Proof.
  induction 1 as [|l ls H _ IH]; intros b sol; cbn [parse_output_from].
  - destruct b, sol; discriminate.
  - assert (forall b', (if starts_with (T "v ") l then
          match (match sol with Some s => extend_from_vline s l | None => from_vline l end) with
          | VOk s => parse_output_from b' (Some s) ls
          | VErr e => VErr (BadVLine e)
          | VPanic => VPanic
          end
        else parse_output_from b' sol ls) <> VPanic) as Hv.
    { intros b'. destruct (starts_with (T "v ") l); [|apply IH]. unfold from_vline. destruct sol as [s|].
      - pose proof (extend_vline_no_panic l s H). destruct (extend_from_vline s l); [apply IH|discriminate|contradiction].
      - pose proof (extend_vline_no_panic l [] H). destruct (extend_from_vline [] l); [apply IH|discriminate|contradiction]. }
    destruct (starts_with (T "s ") l); [|apply Hv]. destruct (starts_with (T "UNSATISFIABLE") _); [discriminate|].
    destruct (_ || _); [discriminate|]. destruct (starts_with (T "SATISFIABLE") _); [apply Hv|discriminate].
Qed.
Lemma read_lines_in t l c : In l (read_lines t) -> In c l -> In c t.
Proof.
  revert l. induction t as [|d t IH]; intros l; [intros []|]. cbn [read_lines]. destruct (Ascii.eqb d nl).
  - intros [<- | H] Hc; [destruct Hc as [<- | []]; now left|right; eauto].
  - destruct (read_lines t) as [|l' ls].
    + intros [<- | []] [<- | []]. now left.
    + intros [<- | H] Hc; [|right; apply (IH l); [now right|assumption]]. destruct Hc as [<- | Hc]; [now left|]. right. apply (IH l'); [now left|assumption].
Qed.
Lemma chomp_in t c : In c (chomp t) -> In c t.
Proof.
  unfold chomp. destruct (rev t) as [|d r] eqn:E; [intros []|]. destruct (Ascii.eqb d nl); [|auto].
  intros H. apply in_rev. rewrite E. right. destruct r as [|e r']; [destruct H|]. destruct (Ascii.eqb e cr); apply in_rev in H; [now right|assumption].
Qed.
Lemma parse_output_no_panic t : ~ In "x"%char t -> parse_output t <> VPanic.
Proof.
  intros H. apply parse_no_panic, Forall_forall. intros l Hl Hx. apply in_map_iff in Hl as (l' & <- & Hl'). apply H. apply chomp_in in Hx. now apply (read_lines_in t l').
Qed.
