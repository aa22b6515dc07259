(** * Proofs about the proof writer *)

From Coq Require Import Bool NArith ZArith Ascii String List Lia.
From Coq Require Import ZifyBool ZifyNat ZifyN.
From Verif Require Import Spec Types Text TextProofs CertSpec PigeonsSpec Pigeons.
Import ListNotations.
Open Scope list_scope.

(** ** Words *)

Definition dark (c : ascii) : Prop := is_white c = false.
Definition tok (w : text) : Prop := w <> [] /\ Forall dark w.
(** the words of a text whose only blanks are spaces *)
Definition wd (t : text) (ws : list text) : Prop := Forall (fun c => is_white c = true -> c = " "%char) t /\ words t = ws.

Lemma words_from_dark w : forall cur t, Forall dark w -> words_from cur (w ++ t) = words_from (rev w ++ cur) t.
Proof.
  induction w as [|c w IH]; intros cur t H; [reflexivity|]. inversion H as [|? ? Hc Hw]; subst. cbn [app words_from]. rewrite Hc, IH by assumption.
  cbn [rev]. now rewrite <- app_assoc.
Qed.
Lemma words_from_sp a : forall cur b, words_from cur (a ++ " "%char :: b) = words_from cur a ++ words b.
Proof.
  induction a as [|c a IH]; intros cur b; cbn [app words_from].
  - change (is_white " ") with true. cbn match. destruct cur; reflexivity.
  - destruct (is_white c); [destruct cur; [apply IH|cbn [app]; now rewrite IH]|apply IH].
Qed.
Lemma wd_nil : wd [] [].
Proof. split; [constructor|reflexivity]. Qed.
Lemma wd_tok w : tok w -> wd w [w].
Proof.
  intros [Hn Hw]. split.
  - eapply Forall_impl; [|exact Hw]. unfold dark. intros c E1 E2. congruence.
  - unfold words. rewrite <- (app_nil_r w) at 1. rewrite words_from_dark by assumption. cbn [words_from]. rewrite app_nil_r.
    destruct (rev w) eqn:E; [apply (f_equal (@rev _)) in E; rewrite rev_involutive in E; contradiction|]. now rewrite <- E, rev_involutive.
Qed.
Lemma wd_sp a b ws vs : wd a ws -> wd b vs -> wd (a ++ " "%char :: b) (ws ++ vs).
Proof.
  intros [A1 A2] [B1 B2]. split.
  - apply Forall_app. split; [exact A1|]. constructor; [reflexivity|exact B1].
  - unfold words. rewrite words_from_sp. now rewrite <- A2, <- B2.
Qed.
Lemma wd_lead b vs : wd b vs -> wd (" "%char :: b) vs.
Proof. intros H. exact (wd_sp [] b [] vs wd_nil H). Qed.

Definition tokb (w : text) : bool := match w with [] => false | _ => forallb (fun c => negb (is_white c)) w end.
Lemma tokb_tok w : tokb w = true -> tok w.
Proof.
  unfold tokb. destruct w as [|c w]; [discriminate|]. intros H. split; [discriminate|]. apply Forall_forall. intros x Hx.
  rewrite forallb_forall in H. specialize (H x Hx). now destruct (is_white x) eqn:E; [|unfold dark].
Qed.
Lemma wd_spaced xs ws : Forall2 wd xs ws -> wd (spaced xs) (concat ws).
Proof.
  induction 1 as [|x w xs ws H F IH]; [apply wd_nil|]. cbn [spaced concat]. destruct xs as [|y xs].
  - inversion F; subst. cbn [concat]. now rewrite app_nil_r.
  - exact (wd_sp _ _ _ _ H IH).
Qed.
Lemma wd_spaced_toks {A} (f : A -> text) xs : Forall (fun x => tok (f x)) xs -> wd (spaced (map f xs)) (map f xs).
Proof.
  intros H. replace (map f xs) with (concat (map (fun x => [f x]) xs)) at 2 by (clear; induction xs; cbn; congruence).
  apply wd_spaced. induction H as [|x xs Hx _ IH]; cbn; [constructor|]. constructor; [now apply wd_tok|exact IH].
Qed.
Lemma wd_spaced_flat {A} (f : A -> text) (g : A -> list text) xs : Forall (fun x => wd (f x) (g x)) xs -> wd (spaced (map f xs)) (flat_map g xs).
Proof.
  intros H. rewrite flat_map_concat_map. apply wd_spaced. induction H as [|x xs Hx _ IH]; cbn; constructor; assumption.
Qed.

(** ** Numbers, identifiers and literals *)

Lemma digit_dark c : is_digit c = true -> dark c.
Proof. destruct c as [[] [] [] [] [] [] [] []]; intros H; try discriminate H; reflexivity. Qed.
Lemma name_char_dark c : name_char c = true -> dark c.
Proof. destruct c as [[] [] [] [] [] [] [] []]; intros H; try discriminate H; reflexivity. Qed.
Lemma letter_name c : is_letter c = true -> name_char c = true.
Proof. unfold name_char. now intros ->. Qed.
Lemma digits_tok t : t <> [] -> forallb is_digit t = true -> tok t.
Proof. intros Hn H. split; [exact Hn|]. apply Forall_forall. intros c Hc. rewrite forallb_forall in H. apply digit_dark. now apply H. Qed.
Lemma print_nat_tok n : tok (print_nat n).
Proof. apply digits_tok; [apply print_N_not_nil|apply print_N_digits]. Qed.
Lemma print_Z_tok z : tok (print_Z z).
Proof.
  unfold print_Z. destruct (print_nat_tok (N.to_nat (Z.abs_N z))) as [Hn H]. unfold print_nat in Hn, H. rewrite N2Nat.id in Hn, H.
  destruct (z <? 0)%Z; [|split; assumption]. split; [discriminate|]. constructor; [reflexivity|exact H].
Qed.
Lemma read_num_print n : read_num (print_nat n) = Some n.
Proof.
  unfold read_num, print_nat. destruct (print_N (N.of_nat n)) as [|c r] eqn:E; [now apply print_N_not_nil in E|]. rewrite <- E, print_N_digits, print_N_value.
  now rewrite Nat2N.id.
Qed.
Lemma print_N_first n : exists c r, print_N n = c :: r /\ is_digit c = true.
Proof.
  pose proof (print_N_digits n) as H. pose proof (print_N_not_nil n) as Hn. destruct (print_N n) as [|c r]; [contradiction|].
  cbn [forallb] in H. apply andb_true_iff in H. exists c, r. now split.
Qed.
Lemma digit_not_dash c : is_digit c = true -> Ascii.eqb c "-" = false.
Proof. intros H. now apply digit_not_char. Qed.
Lemma read_int_print z : read_int (print_Z z) = Some z.
Proof.
  unfold print_Z, read_int. destruct (Z.ltb_spec z 0) as [Hz|Hz].
  - change (Ascii.eqb "-" "-") with true. cbn match.
    pose proof (read_num_print (N.to_nat (Z.abs_N z))) as H. unfold print_nat in H. rewrite N2Nat.id in H. rewrite H. f_equal. lia.
  - destruct (print_N_first (Z.abs_N z)) as [c [r [E Hc]]]. rewrite E, (digit_not_dash c Hc), <- E.
    pose proof (read_num_print (N.to_nat (Z.abs_N z))) as H. unfold print_nat in H. rewrite N2Nat.id in H. rewrite H. f_equal. lia.
Qed.
Lemma cid_tok i : tok (p_cid i).
Proof.
  destruct i as [n|n]; cbn [p_cid]; [apply print_nat_tok|]. destruct (print_nat_tok n) as [_ H]. split; [discriminate|].
  constructor; [reflexivity|exact H].
Qed.
Lemma nonzero_pos n : 0 < n -> nonzero (Some n) = Some n.
Proof. destruct n; [lia|reflexivity]. Qed.
Lemma read_cid_print i : good_id i -> read_cid (p_cid i) = Some i.
Proof.
  destruct i as [n|n]; cbn [good_id p_cid]; intros H.
  - destruct (print_N_first (N.of_nat n)) as [c [r [E Hc]]]. unfold read_cid. change (print_nat n) with (print_N (N.of_nat n)).
    rewrite E, (digit_not_dash c Hc), <- E. change (print_N (N.of_nat n)) with (print_nat n). now rewrite read_num_print, nonzero_pos.
  - unfold read_cid. change (T "-" ++ print_nat n) with ("-"%char :: print_nat n). change (Ascii.eqb "-" "-") with true. cbn match.
    now rewrite read_num_print, nonzero_pos.
Qed.
Lemma read_cids_print is : Forall good_id is -> read_all read_cid (map p_cid is) = Some is.
Proof. induction 1 as [|i is H _ IH]; [reflexivity|]. cbn [map read_all]. now rewrite read_cid_print, IH. Qed.

Lemma name_cases v : valid_name v = true -> exists c d r, v = c :: d :: r /\ is_letter c = true /\ forallb name_char (d :: r) = true.
Proof.
  unfold valid_name. destruct v as [|c [|d r]]; try discriminate. intros H. apply andb_true_iff in H. destruct H. exists c, d, r. auto.
Qed.
Lemma name_tok v : valid_name v = true -> tok v.
Proof.
  intros H. destruct (name_cases v H) as [c [d [r [-> [Hc Hr]]]]]. split; [discriminate|]. constructor.
  - apply name_char_dark, letter_name, Hc.
  - apply Forall_forall. intros x Hx. rewrite forallb_forall in Hr. apply name_char_dark. now apply Hr.
Qed.
Lemma lit_tok l : good_lit l -> tok (p_lit l).
Proof.
  unfold good_lit, p_lit. intros H. destruct (name_tok _ H) as [Hn Hf]. destruct (fst l); [|split; assumption].
  split; [discriminate|]. constructor; [reflexivity|exact Hf].
Qed.
Lemma letter_not_tilde c : is_letter c = true -> Ascii.eqb c "~" = false.
Proof. destruct c as [[] [] [] [] [] [] [] []]; intros H; try discriminate H; reflexivity. Qed.
Lemma letter_not_dash c : is_letter c = true -> Ascii.eqb c "-" = false.
Proof. destruct c as [[] [] [] [] [] [] [] []]; intros H; try discriminate H; reflexivity. Qed.
Lemma letter_not_digit c : is_letter c = true -> is_digit c = false.
Proof. destruct c as [[] [] [] [] [] [] [] []]; intros H; try discriminate H; reflexivity. Qed.
Lemma read_lit_print l : good_lit l -> read_lit (p_lit l) = Some l.
Proof.
  destruct l as [n v]. unfold good_lit, p_lit, read_lit, read_name. cbn [fst snd]. intros H. destruct n.
  - change (T "~" ++ v) with ("~"%char :: v). change (Ascii.eqb "~" "~") with true. cbn match. now rewrite H.
  - cbn [app]. destruct (name_cases v H) as [c [d [r [E [Hc _]]]]]. subst v. rewrite (letter_not_tilde c Hc). now rewrite H.
Qed.
Lemma read_lits_print ls : Forall good_lit ls -> read_all read_lit (map p_lit ls) = Some ls.
Proof. induction 1 as [|l ls H _ IH]; [reflexivity|]. cbn [map read_all]. now rewrite read_lit_print, IH. Qed.
Lemma read_names_print vs : Forall (fun v => valid_name v = true) vs -> read_all read_name vs = Some vs.
Proof. induction 1 as [|l ls H _ IH]; [reflexivity|]. cbn [read_all]. unfold read_name at 1. now rewrite H, IH. Qed.

(** the first character tells the tokens apart *)
Definition first_is (f : ascii -> bool) (w : text) : Prop := match w with c :: _ => f c = true | [] => False end.
Lemma kw_false w s c r : T s = c :: r -> first_is (fun d => negb (Ascii.eqb d c)) w -> is_kw w s = false.
Proof.
  intros E H. unfold is_kw. rewrite E. destruct w as [|d w]; [reflexivity|]. cbn [first_is] in H. cbn [text_eqb].
  destruct (Ascii.eqb d c); [discriminate|reflexivity].
Qed.
Lemma cid_first i : first_is (fun d => is_digit d || Ascii.eqb d "-") (p_cid i).
Proof.
  destruct i as [n|n]; cbn [p_cid]; [|reflexivity]. unfold print_nat. destruct (print_N_first (N.of_nat n)) as [c [r [-> Hc]]]. cbn. now rewrite Hc.
Qed.
Lemma num_first n : first_is is_digit (print_nat n).
Proof. unfold print_nat. destruct (print_N_first (N.of_nat n)) as [c [r [-> Hc]]]. exact Hc. Qed.
Lemma int_first z : first_is (fun d => is_digit d || Ascii.eqb d "-") (print_Z z).
Proof. unfold print_Z. destruct (z <? 0)%Z; [reflexivity|]. destruct (print_N_first (Z.abs_N z)) as [c [r [-> Hc]]]. cbn. now rewrite Hc. Qed.
Lemma lit_first l : good_lit l -> first_is (fun d => is_letter d || Ascii.eqb d "~") (p_lit l).
Proof.
  intros H. unfold p_lit. destruct (fst l); [reflexivity|]. destruct (name_cases _ H) as [c [d [r [E [Hc _]]]]]. cbn [app]. rewrite E. cbn. now rewrite Hc.
Qed.
Lemma first_impl (f g : ascii -> bool) w : (forall c, f c = true -> g c = true) -> first_is f w -> first_is g w.
Proof. intros H. destruct w as [|c w]; cbn; [trivial|apply H]. Qed.
Ltac by_char := let c := fresh "c" in let H := fresh "H" in intros c H; destruct c as [[] [] [] [] [] [] [] []]; try discriminate H; reflexivity.
Ltac not_kw L := eapply kw_false; [reflexivity|eapply first_impl; [|apply L; auto]; by_char].

Definition nosemi (ws : list text) : Prop := Forall (fun w => is_kw w ";" = false) ws.
Lemma cid_semi i : is_kw (p_cid i) ";" = false.
Proof. not_kw cid_first. Qed.
Lemma num_semi n : is_kw (print_nat n) ";" = false.
Proof. not_kw num_first. Qed.
Lemma int_semi z : is_kw (print_Z z) ";" = false.
Proof. not_kw int_first. Qed.
Lemma lit_semi l : good_lit l -> is_kw (p_lit l) ";" = false.
Proof. intros H. not_kw lit_first. Qed.
Lemma name_semi v : valid_name v = true -> is_kw v ";" = false.
Proof. intros H. exact (lit_semi (false, v) H). Qed.
Lemma nosemi_map {A} (f : A -> text) xs : Forall (fun x => is_kw (f x) ";" = false) xs -> nosemi (map f xs).
Proof. induction 1; cbn; constructor; assumption. Qed.
Lemma nosemi_app a b : nosemi a -> nosemi b -> nosemi (a ++ b).
Proof. intros. now apply Forall_app. Qed.
Lemma Forall_always {A} (P : A -> Prop) xs : (forall x, P x) -> Forall P xs.
Proof. intros H. apply Forall_forall. auto. Qed.

Lemma split_none ws : nosemi ws -> split_semi ws = (ws, []).
Proof. induction 1 as [|w ws H _ IH]; [reflexivity|]. cbn [split_semi]. rewrite IH, H. reflexivity. Qed.
Lemma split_some ws r : nosemi ws -> split_semi (ws ++ T ";" :: r) = (ws, fst (split_semi r) :: snd (split_semi r)).
Proof.
  induction 1 as [|w ws H _ IH].
  - cbn [app split_semi]. destruct (split_semi r). reflexivity.
  - cbn [app split_semi]. rewrite IH, H. reflexivity.
Qed.

(** ** Sums, constraints, operations and substitutions *)

Definition sum_toks (ts : list (Z * plit)) : list text := flat_map (fun '(w, l) => [print_Z w; p_lit l]) ts.
Definition con_toks (c : pcon) : list text := sum_toks (fst c) ++ [T ">="; print_Z (snd c)].
Lemma sum_wd ts : good_sum ts -> wd (p_sum ts) (sum_toks ts).
Proof.
  intros H. unfold p_sum, sum_toks. apply wd_spaced_flat. eapply Forall_impl; [|exact H]. intros [w l] Hl. cbn [snd] in Hl.
  apply (wd_sp (print_Z w) (p_lit l) [_] [_]); apply wd_tok; [apply print_Z_tok|now apply lit_tok].
Qed.
Lemma con_wd c : good_sum (fst c) -> wd (p_con c) (con_toks c).
Proof.
  intros H. unfold p_con, con_toks. apply (wd_sp (p_sum (fst c)) (T ">=" ++ " "%char :: print_Z (snd c)) _ [_; _]); [now apply sum_wd|].
  apply (wd_sp (T ">=") (print_Z (snd c)) [_] [_]); apply wd_tok; [now apply tokb_tok|apply print_Z_tok].
Qed.
Lemma sum_nosemi ts : good_sum ts -> nosemi (sum_toks ts).
Proof.
  induction 1 as [|[w l] ts H _ IH]; [constructor|]. cbn [snd] in H. constructor; [apply int_semi|]. constructor; [now apply lit_semi|exact IH].
Qed.
Lemma con_nosemi c : good_sum (fst c) -> nosemi (con_toks c).
Proof. intros H. apply nosemi_app; [now apply sum_nosemi|]. constructor; [reflexivity|]. constructor; [apply int_semi|constructor]. Qed.
Lemma read_terms_print ts r : good_sum ts -> read_terms r = Some ([], r) -> read_terms (sum_toks ts ++ r) = Some (ts, r).
Proof.
  intros H Hr. induction H as [|[w l] ts H _ IH]; [exact Hr|]. cbn [snd] in H. unfold sum_toks. cbn [flat_map app read_terms].
  rewrite read_int_print, read_lit_print by assumption. unfold sum_toks in IH. now rewrite IH.
Qed.
Lemma read_con_print c : good_sum (fst c) -> read_con (con_toks c) = Some c.
Proof.
  intros H. unfold read_con, con_toks. rewrite read_terms_print; [|assumption|reflexivity].
  change (is_kw (T ">=") ">=") with true. cbn match. rewrite read_int_print. now destruct c.
Qed.
Lemma read_obj_print (o : pobj) : good_sum (fst o) -> snd o = 0%Z -> read_obj (sum_toks (fst o)) = Some o.
Proof.
  intros H E. unfold read_obj. rewrite <- (app_nil_r (sum_toks _)), read_terms_print; [|assumption|reflexivity]. destruct o as [ts k]. cbn in *. now rewrite E.
Qed.

Definition op_toks (o : pop) : list text :=
  match o with
  | PId i => [p_cid i] | PAx l => [p_lit l] | PAdd => [T "+"] | PMul k => [print_nat k; T "*"] | PDiv k => [print_nat k; T "d"]
  | PSat => [T "s"] | PWeak _ => [T "w"]
  end.
Lemma op_wd o : good_op o -> wd (p_op o) (op_toks o).
Proof.
  destruct o; cbn [good_op p_op op_toks]; intros H; try (apply wd_tok; now apply tokb_tok); try (apply wd_tok; apply cid_tok); try (apply wd_tok; now apply lit_tok).
  - apply (wd_sp (print_nat k) (T "*") [_] [_]); apply wd_tok; [apply print_nat_tok|now apply tokb_tok].
  - apply (wd_sp (print_nat k) (T "d") [_] [_]); apply wd_tok; [apply print_nat_tok|now apply tokb_tok].
Qed.
Lemma op_nosemi o : good_op o -> nosemi (op_toks o).
Proof.
  destruct o; cbn [good_op op_toks]; intros H; repeat (apply Forall_cons); try apply Forall_nil; try reflexivity; try apply cid_semi; try apply num_semi;
    now apply lit_semi.
Qed.
Lemma ops_nosemi ops : Forall good_op ops -> nosemi (flat_map op_toks ops).
Proof. induction 1; cbn [flat_map]; [constructor|]. apply nosemi_app; [now apply op_nosemi|assumption]. Qed.
(** the first word of an operation is not one of [*], [d], [w] *)
Definition fresh_word (ws : list text) : Prop :=
  match ws with [] => True | k :: _ => is_kw k "*" = false /\ is_kw k "d" = false /\ is_kw k "w" = false end.
Lemma kw_short w s c : T s = [c] -> 1 < List.length w -> is_kw w s = false.
Proof. intros E H. unfold is_kw. rewrite E. destruct w as [|a [|b w]]; cbn in *; [lia|lia|now rewrite andb_false_r]. Qed.
Lemma lit_length l : good_lit l -> 1 < List.length (p_lit l).
Proof.
  intros H. unfold p_lit. rewrite app_length. destruct (name_cases _ H) as [c [d [r [-> _]]]]. cbn [List.length]. lia.
Qed.
Lemma op_fresh o r : good_op o -> fresh_word (op_toks o ++ r).
Proof.
  destruct o; cbn [good_op op_toks app fresh_word]; intros H; try (repeat split; reflexivity); try (repeat split; not_kw cid_first); try (repeat split; not_kw num_first);
    try contradiction.
  repeat split; (eapply kw_short; [reflexivity|now apply lit_length]).
Qed.
Lemma ops_fresh ops : Forall good_op ops -> fresh_word (flat_map op_toks ops).
Proof. destruct 1; cbn [flat_map]; [exact Logic.I|now apply op_fresh]. Qed.
Lemma lit_not_cid l : good_lit l -> read_cid (p_lit l) = None.
Proof.
  intros H. unfold read_cid, p_lit. destruct (name_cases _ H) as [c [d [r [-> [Hc _]]]]]. destruct (fst l).
  - change (T "~" ++ c :: d :: r) with ("~"%char :: c :: d :: r). change (Ascii.eqb "~" "-") with false. cbn match.
    unfold read_num. cbn [forallb]. change (is_digit "~") with false. reflexivity.
  - cbn [app]. rewrite (letter_not_dash c Hc). unfold read_num. cbn [forallb]. now rewrite (letter_not_digit c Hc).
Qed.
Lemma read_ops_print ops : Forall good_op ops -> read_ops (flat_map op_toks ops) = Some ops.
Proof.
  induction 1 as [|o ops H Hs IH]; [reflexivity|]. cbn [flat_map]. pose proof (ops_fresh ops Hs) as HF.
  assert (Alone : forall w, op_toks o = [w] ->
            (if is_kw w "+" then Some PAdd else if is_kw w "s" then Some PSat
             else match read_cid w with Some i => Some (PId i) | None => do l <- read_lit w; Some (PAx l) end) = Some o ->
            read_ops (op_toks o ++ flat_map op_toks ops) = Some (o :: ops)).
  { intros w -> E. cbn [app read_ops]. rewrite E, IH. destruct (flat_map op_toks ops) as [|k ws]; [reflexivity|]. cbn [fresh_word] in HF.
    destruct HF as [-> [-> ->]]. reflexivity. }
  destruct o; cbn [good_op] in H; try contradiction.
  - apply (Alone _ eq_refl). replace (is_kw (p_cid i) "+") with false by (symmetry; not_kw cid_first).
    replace (is_kw (p_cid i) "s") with false by (symmetry; not_kw cid_first). now rewrite read_cid_print.
  - apply (Alone _ eq_refl). rewrite (kw_short _ "+" "+"%char eq_refl (lit_length _ H)), (kw_short _ "s" "s"%char eq_refl (lit_length _ H)).
    now rewrite lit_not_cid, read_lit_print.
  - apply (Alone _ eq_refl). reflexivity.
  - cbn [op_toks app read_ops]. change (is_kw (T "*") "*") with true. cbn match. now rewrite read_num_print, nonzero_pos, IH.
  - cbn [op_toks app read_ops]. change (is_kw (T "d") "*") with false. change (is_kw (T "d") "d") with true. cbn match.
    now rewrite read_num_print, nonzero_pos, IH.
  - apply (Alone _ eq_refl). reflexivity.
Qed.
Lemma p_ops_ok ops : good_ops ops -> exists t, p_ops ops = Some t /\ wd t (flat_map op_toks ops).
Proof.
  intros [Hn H]. exists (spaced (map p_op ops)). split.
  - unfold p_ops. now destruct ops.
  - apply wd_spaced_flat. eapply Forall_impl; [|exact H]. intros o. apply op_wd.
Qed.
Lemma op_toks_not_nil o : op_toks o <> [].
Proof. now destruct o. Qed.

Definition sub_toks (s : psub) : list text := [fst s; T "->"; match snd s with VTrue => T "1" | VFalse => T "0" | VLit l => p_lit l end].
Lemma sub_wd s : good_sub s -> wd (p_sub s) (sub_toks s).
Proof.
  intros [Hn Hv]. unfold p_sub, sub_toks.
  apply (wd_sp (fst s) (T "->" ++ " "%char :: _) [_] [_; _]); [now apply wd_tok, name_tok|].
  apply (wd_sp (T "->") _ [_] [_]); apply wd_tok; [now apply tokb_tok|]. destruct (snd s); [now apply tokb_tok|now apply tokb_tok|now apply lit_tok].
Qed.
Lemma subs_wd ss : Forall good_sub ss -> wd (spaced (map p_sub ss)) (flat_map sub_toks ss).
Proof. intros H. apply wd_spaced_flat. eapply Forall_impl; [|exact H]. intros s. apply sub_wd. Qed.
Lemma subs_nosemi ss : Forall good_sub ss -> nosemi (flat_map sub_toks ss).
Proof.
  induction 1 as [|s ss [Hn Hv] _ IH]; [constructor|]. cbn [flat_map sub_toks app]. constructor; [now apply name_semi|]. constructor; [reflexivity|].
  constructor; [|exact IH]. destruct (snd s); [reflexivity|reflexivity|now apply lit_semi].
Qed.
Lemma read_subs_print ss : Forall good_sub ss -> read_subs (flat_map sub_toks ss) = Some ss.
Proof.
  induction 1 as [|[v x] ss [Hn Hv] _ IH]; [reflexivity|]. cbn [flat_map sub_toks app read_subs fst snd] in *. change (is_kw (T "->") "->") with true. cbn match.
  unfold read_name. rewrite Hn, IH. destruct x as [| |l]; [reflexivity|reflexivity|].
  replace (is_kw (p_lit l) "1") with false by (symmetry; not_kw lit_first). replace (is_kw (p_lit l) "0") with false by (symmetry; not_kw lit_first).
  now rewrite read_lit_print.
Qed.

(** ** Lines *)

(** [t] is read as the lines [ls], whatever follows *)
Definition tx (t : text) (ls : list pline) : Prop :=
  forall rest, read_text (t ++ rest) = do r <- read_text rest; Some (ls ++ r).
Lemma tx_nil : tx [] [].
Proof. intros rest. cbn [app]. now destruct (read_text rest). Qed.
Lemma tx_app a b la lb : tx a la -> tx b lb -> tx (a ++ b) (la ++ lb).
Proof. intros A B rest. rewrite <- app_assoc, A, B. destruct (read_text rest); [|reflexivity]. now rewrite app_assoc. Qed.
Lemma chomp_line t : no_nl t -> chomp (t ++ [nl]) = match rev t with d :: r => if Ascii.eqb d cr then rev r else t | [] => [] end.
Proof.
  intros _. unfold chomp. rewrite rev_app_distr. cbn [rev app]. rewrite Ascii.eqb_refl. destruct (rev t) as [|d r] eqn:E; [reflexivity|].
  destruct (Ascii.eqb d cr); [reflexivity|]. now rewrite <- E, rev_involutive.
Qed.
Lemma tx_raw t l : no_nl t -> read_line (chomp (t ++ [nl])) = Some l -> tx (t ++ [nl]) [l].
Proof.
  intros Hn H rest. rewrite <- app_assoc. cbn [app]. unfold read_text, lines. rewrite read_lines_line by assumption. cbn [map read_all]. now rewrite H.
Qed.
Lemma wd_no_nl t ws : wd t ws -> no_nl t.
Proof. intros [H _] Hin. rewrite Forall_forall in H. specialize (H nl Hin eq_refl). discriminate H. Qed.
Lemma tx_line t ws l : wd t ws -> read_words ws = Some l -> tx (t ++ [nl]) [l].
Proof.
  intros H E. pose proof (wd_no_nl t ws H) as Hl. apply tx_raw; [exact Hl|]. destruct H as [Hf Hw].
  assert (C : chomp (t ++ [nl]) = t).
  { rewrite chomp_line by exact Hl. destruct (rev t) as [|d r] eqn:Er.
    - apply (f_equal (@rev _)) in Er. now rewrite rev_involutive in Er.
    - destruct (Ascii.eqb_spec d cr) as [->|]; [|reflexivity]. exfalso. rewrite Forall_forall in Hf.
      assert (In cr t) as Hin by (apply in_rev; rewrite Er; now left). specialize (Hf cr Hin eq_refl). discriminate Hf. }
  rewrite C. unfold read_line. now rewrite Hw.
Qed.

