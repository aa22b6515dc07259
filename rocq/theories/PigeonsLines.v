(** * Every line the proof writer writes is read as what was meant *)

From Coq Require Import Bool NArith ZArith Ascii String List Lia.
From Coq Require Import ZifyBool ZifyNat ZifyN.
From Verif Require Import Spec Types Text TextProofs CertSpec PigeonsSpec Pigeons PigeonsProofs.
Import ListNotations.
Open Scope list_scope.

Ltac kws := repeat match goal with |- context [is_kw (T ?a) ?b] => let v := eval vm_compute in (is_kw (T a) b) in change (is_kw (T a) b) with v end;
            cbn beta iota delta [orb andb tl].

Lemma split0 k args : is_kw k ";" = false -> nosemi args -> split_semi (k :: args) = (k :: args, []).
Proof. intros. apply split_none. now constructor. Qed.
Lemma split1 k args r : is_kw k ";" = false -> nosemi args -> nosemi r -> split_semi (k :: args ++ T ";" :: r) = (k :: args, [r]).
Proof. intros H1 H2 H3. change (k :: args ++ T ";" :: r) with ((k :: args) ++ T ";" :: r). rewrite split_some by now constructor. now rewrite (split_none r H3). Qed.
Lemma split2 k args r q : is_kw k ";" = false -> nosemi args -> nosemi r -> nosemi q ->
  split_semi (k :: args ++ T ";" :: r ++ T ";" :: q) = (k :: args, [r; q]).
Proof.
  intros H1 H2 H3 H4. change (k :: args ++ T ";" :: r ++ T ";" :: q) with ((k :: args) ++ T ";" :: r ++ T ";" :: q). rewrite split_some by now constructor.
  rewrite (split_some r q H3). now rewrite (split_none q H4).
Qed.
Lemma cids_nosemi is : nosemi (map p_cid is).
Proof. apply nosemi_map, Forall_always. intros. apply cid_semi. Qed.
Lemma lits_nosemi ls : Forall good_lit ls -> nosemi (map p_lit ls).
Proof. intros H. apply nosemi_map. eapply Forall_impl; [|exact H]. intros l. apply lit_semi. Qed.
Lemma one_nosemi s : is_kw (T s) ";" = false -> nosemi [T s].
Proof. intros H. constructor; [exact H|constructor]. Qed.
Lemma some_of_ok {A} (xs : list A) : xs <> [] -> some_of (Some xs) = Some xs.
Proof. now destruct xs. Qed.

Ltac start := unfold read_words; kws.
Ltac side := first [reflexivity | assumption | apply cids_nosemi | now apply lits_nosemi | now apply con_nosemi | now apply sum_nosemi | now apply subs_nosemi | now apply ops_nosemi | apply Forall_nil | now apply one_nosemi].

Lemma L_pol b ops : good_ops ops -> read_words (kw_pol b :: flat_map op_toks ops) = Some (LRule (RPol ops) false).
Proof. intros [Hn H]. destruct b; unfold kw_pol; start; (rewrite split0 by side); kws; cbn [nothing]; rewrite read_ops_print, some_of_ok by assumption; reflexivity. Qed.
Lemma L_rup b c hs : good_sum (fst c) -> Forall good_id hs -> read_words (kw_rup b :: con_toks c ++ T ";" :: map p_cid hs) = Some (LRule (RRup c hs) false).
Proof. intros Hc Hh. destruct b; unfold kw_rup; start; (rewrite split1 by side); kws; rewrite read_con_print, read_cids_print by assumption; reflexivity. Qed.
Lemma L_red c subs : good_sum (fst c) -> Forall good_sub subs -> read_words (T "red" :: con_toks c ++ T ";" :: flat_map sub_toks subs) = Some (LRule (RRed c subs) false).
Proof. intros Hc Hs. start. rewrite split1 by side. kws. rewrite read_con_print, read_subs_print by assumption. reflexivity. Qed.
Lemma L_red_begin c subs : good_sum (fst c) -> Forall good_sub subs ->
  read_words (T "red" :: con_toks c ++ T ";" :: flat_map sub_toks subs ++ T ";" :: [T "begin"]) = Some (LRule (RRed c subs) true).
Proof. intros Hc Hs. start. rewrite split2 by side. kws. rewrite read_con_print, read_subs_print by assumption. reflexivity. Qed.
Lemma L_dom c subs : good_sum (fst c) -> Forall good_sub subs -> read_words (T "dom" :: con_toks c ++ T ";" :: flat_map sub_toks subs) = Some (LRule (RDom c subs) false).
Proof. intros Hc Hs. start. rewrite split1 by side. kws. rewrite read_con_print, read_subs_print by assumption. reflexivity. Qed.
Lemma L_dom_begin c subs : good_sum (fst c) -> Forall good_sub subs ->
  read_words (T "dom" :: con_toks c ++ T ";" :: flat_map sub_toks subs ++ T ";" :: [T "begin"]) = Some (LRule (RDom c subs) true).
Proof. intros Hc Hs. start. rewrite split2 by side. kws. rewrite read_con_print, read_subs_print by assumption. reflexivity. Qed.
Lemma id_semi k s is : is_kw (T k) ";" = false -> is_kw (T s) ";" = false -> nosemi (T s :: map p_cid is).
Proof. intros _ H. constructor; [exact H|apply cids_nosemi]. Qed.
Lemma L_del is : good_ids is -> read_words (T "del" :: (T "id" :: map p_cid is) ++ T ";" :: []) = Some (LRule (RDelId is []) false).
Proof.
  intros [Hn Hi]. start. rewrite (split1 (T "del") (T "id" :: map p_cid is) []) by first [side | now apply (id_semi "del" "id")]. kws.
  rewrite read_cids_print, some_of_ok by assumption. reflexivity.
Qed.
Lemma L_del_begin is : good_ids is -> read_words (T "del" :: (T "id" :: map p_cid is) ++ T ";" :: [] ++ T ";" :: [T "begin"]) = Some (LRule (RDelId is []) true).
Proof.
  intros [Hn Hi]. start. rewrite (split2 (T "del") (T "id" :: map p_cid is) [] [T "begin"]) by first [side | now apply (id_semi "del" "id")]. kws.
  rewrite read_cids_print, some_of_ok by assumption. reflexivity.
Qed.
Lemma L_spec c : good_sum (fst c) -> read_words (T "del" :: (T "spec" :: con_toks c) ++ T ";" :: []) = Some (LRule (RDelSpec c) false).
Proof.
  intros Hc. start. rewrite (split1 (T "del") (T "spec" :: con_toks c) []) by first [side | constructor; [reflexivity|now apply con_nosemi]]. kws.
  now rewrite read_con_print.
Qed.
Lemma L_range a b : good_id a -> good_id b -> read_words [T "del"; T "range"; p_cid a; p_cid b] = Some (LRule (RDelRange a b) false).
Proof.
  intros Ha Hb. start. rewrite split0 by (try side; apply (id_semi "del" "range" [a; b]); reflexivity). kws. now rewrite !read_cid_print.
Qed.
Lemma L_core_range a b : good_id a -> good_id b -> read_words [T "core"; T "range"; p_cid a; p_cid b] = Some (LRule (RCoreRange a b) false).
Proof.
  intros Ha Hb. start. rewrite split0 by (try side; apply (id_semi "del" "range" [a; b]); reflexivity). kws. cbn [nothing]. now rewrite !read_cid_print.
Qed.
Lemma L_core is : good_ids is -> read_words (T "core" :: T "id" :: map p_cid is) = Some (LRule (RCoreId is) false).
Proof. intros [Hn Hi]. start. rewrite split0 by first [side | now apply (id_semi "del" "id")]. kws. cbn [nothing]. rewrite read_cids_print, some_of_ok by assumption. reflexivity. Qed.
Lemma L_delc is : good_ids is -> read_words (T "delc" :: map p_cid is) = Some (LRule (RDelCore is) false).
Proof. intros [Hn Hi]. start. rewrite split0 by side. kws. cbn [nothing]. rewrite read_cids_print, some_of_ok by assumption. reflexivity. Qed.
Lemma L_deld is : good_ids is -> read_words (T "deld" :: map p_cid is) = Some (LRule (RDelDerived is) false).
Proof. intros [Hn Hi]. start. rewrite split0 by side. kws. cbn [nothing]. rewrite read_cids_print, some_of_ok by assumption. reflexivity. Qed.
Lemma L_objnew (o : pobj) : snd o = 0%Z -> good_sum (fst o) -> read_words (T "obju" :: (T "new" :: sum_toks (fst o)) ++ T ";" :: []) = Some (LRule (RObjNew o) false).
Proof.
  intros E Ho. start. rewrite (split1 (T "obju") (T "new" :: sum_toks (fst o)) []) by first [side | constructor; [reflexivity|now apply sum_nosemi]]. kws.
  now rewrite read_obj_print.
Qed.
Lemma L_objdiff (o : pobj) : snd o = 0%Z -> good_sum (fst o) -> read_words (T "obju" :: (T "diff" :: sum_toks (fst o)) ++ T ";" :: []) = Some (LRule (RObjDiff o) false).
Proof.
  intros E Ho. start. rewrite (split1 (T "obju") (T "diff" :: sum_toks (fst o)) []) by first [side | constructor; [reflexivity|now apply sum_nosemi]]. kws.
  now rewrite read_obj_print.
Qed.
Lemma L_eobj (o : pobj) : snd o = 0%Z -> good_sum (fst o) -> read_words (T "eobj" :: sum_toks (fst o) ++ T ";" :: []) = Some (LRule (REqObj o) false).
Proof. intros E Ho. start. rewrite split1 by side. kws. now rewrite read_obj_print. Qed.
Lemma L_sol ls : Forall good_lit ls -> read_words (T "sol" :: map p_lit ls) = Some (LRule (RSol ls) false).
Proof. intros H. start. rewrite split0 by side. kws. cbn [nothing]. now rewrite read_lits_print. Qed.
Lemma L_solx ls : Forall good_lit ls -> read_words (T "solx" :: map p_lit ls) = Some (LRule (RSolx ls) false).
Proof. intros H. start. rewrite split0 by side. kws. cbn [nothing]. now rewrite read_lits_print. Qed.
Lemma L_soli ls : Forall good_lit ls -> read_words (T "soli" :: map p_lit ls) = Some (LRule (RSoli ls) false).
Proof. intros H. start. rewrite split0 by side. kws. cbn [nothing]. now rewrite read_lits_print. Qed.

Definition good_hint (i : option cid) : Prop := match i with Some x => good_id x | None => True end.
Definition hint_toks (i : option cid) : list text := match i with Some x => [p_cid x] | None => [] end.
Lemma hint_nosemi i : nosemi (hint_toks i).
Proof. destruct i as [x|]; [apply (cids_nosemi [x])|constructor]. Qed.
Lemma read_hint_print i : good_hint i -> read_hint [hint_toks i] = Some i.
Proof. destruct i as [x|]; [|reflexivity]. cbn [good_hint hint_toks read_hint]. intros H. now rewrite read_cid_print. Qed.
Lemma L_e c i : good_sum (fst c) -> good_hint i -> read_words (T "e" :: con_toks c ++ T ";" :: hint_toks i) = Some (LRule (REq c i) false).
Proof. intros Hc Hi. start. rewrite split1 by first [side | apply hint_nosemi]. kws. now rewrite read_con_print, read_hint_print. Qed.
Lemma L_ea c i : good_sum (fst c) -> good_hint i -> read_words (T "ea" :: con_toks c ++ T ";" :: hint_toks i) = Some (LRule (REqAdd c i) false).
Proof. intros Hc Hi. start. rewrite split1 by first [side | apply hint_nosemi]. kws. now rewrite read_con_print, read_hint_print. Qed.
Lemma L_i c i : good_sum (fst c) -> good_hint i -> read_words (T "i" :: con_toks c ++ T ";" :: hint_toks i) = Some (LRule (RImp c i) false).
Proof. intros Hc Hi. start. rewrite split1 by first [side | apply hint_nosemi]. kws. now rewrite read_con_print, read_hint_print. Qed.
Lemma L_ia c i : good_sum (fst c) -> good_hint i -> read_words (T "ia" :: con_toks c ++ T ";" :: hint_toks i) = Some (LRule (RImpAdd c i) false).
Proof. intros Hc Hi. start. rewrite split1 by first [side | apply hint_nosemi]. kws. now rewrite read_con_print, read_hint_print. Qed.

Lemma nums_nosemi n : nosemi [print_nat n].
Proof. constructor; [apply num_semi|constructor]. Qed.
Lemma L_level n : read_words [T "#"; print_nat n] = Some (LRule (RLevel n) false).
Proof. start. rewrite split0 by first [side | apply nums_nosemi]. kws. now rewrite read_num_print. Qed.
Lemma L_wipe n : read_words [T "w"; print_nat n] = Some (LRule (RWipe n) false).
Proof. start. rewrite split0 by first [side | apply nums_nosemi]. kws. now rewrite read_num_print. Qed.
Lemma L_count n : read_words [T "f"; print_nat n] = Some (LRule (RCount n) false).
Proof. start. rewrite split0 by first [side | apply nums_nosemi]. kws. now rewrite read_num_print. Qed.
Lemma L_load n vs : n <> T ";" -> Forall (fun v => valid_name v = true) vs -> read_words (T "load_order" :: n :: vs) = Some (LRule (RLoad n vs) false).
Proof.
  intros Hn Hv. start. rewrite split0.
  - kws. now rewrite read_names_print.
  - reflexivity.
  - constructor; [|eapply Forall_impl; [|exact Hv]; intros v; apply name_semi]. unfold is_kw. destruct (text_eqb n (T ";")) eqn:E; [|reflexivity].
    now apply text_eqb_eq in E.
Qed.
Lemma L_strength b : read_words [T "strengthening_to_core"; if b : bool then T "on" else T "off"] = Some (LRule (RStrength b) false).
Proof. destruct b; reflexivity. Qed.
Definition goal_tok (g : pgoal) : text := p_goal g.
Lemma goal_tok_ok g : tok (p_goal g).
Proof. destruct g as [i|n]; [apply cid_tok|]. destruct (print_nat_tok n) as [_ H]. split; [discriminate|]. constructor; [reflexivity|exact H]. Qed.
Lemma L_goal g : good_goal g -> read_words [T "proofgoal"; p_goal g] = Some (LGoal g).
Proof.
  intros H. destruct g as [i|n]; cbn [p_goal good_goal] in *.
  - start. rewrite split0 by (try side; apply (cids_nosemi [i])). kws. pose proof (cid_first i) as HF. pose proof (read_cid_print i H) as E.
    destruct (p_cid i) as [|c r]; [contradiction|]. cbn [first_is] in HF.
    replace (Ascii.eqb c "#") with false by (symmetry; revert HF; clear; destruct c as [[] [] [] [] [] [] [] []]; intros H; try discriminate H; reflexivity).
    now rewrite E.
  - start. rewrite split0 by first [side | constructor; [reflexivity|constructor]]. kws. change (T "#" ++ print_nat n) with ("#"%char :: print_nat n).
    change (Ascii.eqb "#" "#") with true. cbn beta iota. now rewrite read_num_print, nonzero_pos.
Qed.

Lemma L_output g : exists ws, wd (T "output " ++ p_guarantee g) ws /\ read_words ws = Some (LOutput g).
Proof. destruct g as [|[]|[]|[]]; eexists; (split; [split; [apply Forall_forall; intros c Hc; cbn in Hc; revert Hc; intuition (subst; (reflexivity || discriminate))|reflexivity]|reflexivity]). Qed.

Definition sol_toks (s : option (list plit)) : list text := match s with Some ls => T ":" :: map p_lit ls | None => [] end.
Definition good_sol (s : option (list plit)) : Prop := match s with Some ls => Forall good_lit ls | None => True end.
Lemma sol_nosemi s : good_sol s -> nosemi (sol_toks s).
Proof. destruct s as [ls|]; [|constructor]. intros H. constructor; [reflexivity|]. now apply lits_nosemi. Qed.
Lemma read_sol_print s : good_sol s -> read_sol (sol_toks s) = Some s.
Proof. destruct s as [ls|]; [|reflexivity]. intros H. cbn [sol_toks read_sol]. kws. now rewrite read_lits_print. Qed.
Lemma hint_part_nosemi i : nosemi (match i with Some x => [T ":"; p_cid x] | None => [] end).
Proof. destruct i as [x|]; [|constructor]. constructor; [reflexivity|]. apply (cids_nosemi [x]). Qed.
Lemma lits_wd ls : Forall good_lit ls -> wd (spaced (map p_lit ls)) (map p_lit ls).
Proof. intros H. apply wd_spaced_toks. eapply Forall_impl; [|exact H]. intros l. apply lit_tok. Qed.
Lemma cids_wd is : wd (spaced (map p_cid is)) (map p_cid is).
Proof. apply wd_spaced_toks, Forall_always, cid_tok. Qed.
Lemma kw_wd s : tokb (T s) = true -> wd (T s) [T s].
Proof. intros H. now apply wd_tok, tokb_tok. Qed.
Lemma kw_sp s t ws : tokb (T s) = true -> wd t ws -> wd (T s ++ " "%char :: t) (T s :: ws).
Proof. intros H Ht. exact (wd_sp (T s) t [T s] ws (kw_wd s H) Ht). Qed.

Lemma L_conclusion c : good_conclusion c -> exists ws, wd (T "conclusion " ++ p_conclusion c) ws /\ read_words ws = Some (LConclusion c).
Proof.
  assert (K : forall t ws, wd t ws -> nosemi ws -> read_conclusion ws = Some c -> exists vs, wd (T "conclusion " ++ t) vs /\ read_words vs = Some (LConclusion c)).
  { intros t ws H Hn E. exists (T "conclusion" :: ws). split; [exact (kw_sp "conclusion" t ws eq_refl H)|]. start. rewrite split0 by side. kws. now rewrite E. }
  destruct c as [|sol|i|lo i hi sol]; cbn [good_conclusion p_conclusion]; intros H.
  - apply (K _ [T "NONE"]); [now apply kw_wd|now apply one_nosemi|reflexivity].
  - destruct sol as [ls|].
    + apply (K _ (T "SAT" :: sol_toks (Some ls))).
      * exact (kw_sp "SAT" (T ":" ++ " "%char :: _) _ eq_refl (kw_sp ":" _ _ eq_refl (lits_wd ls H))).
      * constructor; [reflexivity|now apply sol_nosemi].
      * cbn [read_conclusion]. kws. now rewrite read_sol_print.
    + apply (K _ [T "SAT"]); [now apply kw_wd|now apply one_nosemi|reflexivity].
  - destruct i as [x|].
    + apply (K _ [T "UNSAT"; T ":"; p_cid x]).
      * exact (kw_sp "UNSAT" (T ":" ++ " "%char :: _) [_; _] eq_refl (kw_sp ":" _ [_] eq_refl (wd_tok _ (cid_tok x)))).
      * constructor; [reflexivity|]. constructor; [reflexivity|]. apply (cids_nosemi [x]).
      * cbn [read_conclusion]. kws. now rewrite read_cid_print.
    + apply (K _ [T "UNSAT"]); [now apply kw_wd|now apply one_nosemi|reflexivity].
  - destruct H as [Hi Hs]. replace (hi + 1 - 1)%Z with hi by lia.
    assert (Tl : wd (print_Z hi ++ match sol with Some ls => T " : " ++ spaced (map p_lit ls) | None => [] end) (print_Z hi :: sol_toks sol)).
    { destruct sol as [ls|].
      - exact (wd_sp (print_Z hi) (T ":" ++ " "%char :: _) [_] _ (wd_tok _ (print_Z_tok hi)) (kw_sp ":" _ _ eq_refl (lits_wd ls Hs))).
      - rewrite app_nil_r. exact (wd_tok _ (print_Z_tok hi)). }
    set (ht := match i with Some x => [T ":"; p_cid x] | None => [] end).
    apply (K _ (T "BOUNDS" :: print_Z lo :: ht ++ print_Z hi :: sol_toks sol)).
    + apply (kw_sp "BOUNDS" (print_Z lo ++ _) _ eq_refl). unfold ht. destruct i as [x|].
      * exact (wd_sp (print_Z lo) (T ":" ++ " "%char :: (p_cid x ++ " "%char :: _)) [_] (T ":" :: [p_cid x] ++ _) (wd_tok _ (print_Z_tok lo))
                 (kw_sp ":" _ _ eq_refl (wd_sp _ _ _ _ (wd_tok _ (cid_tok x)) Tl))).
      * exact (wd_sp (print_Z lo) _ [_] _ (wd_tok _ (print_Z_tok lo)) Tl).
    + constructor; [reflexivity|]. constructor; [apply int_semi|]. apply nosemi_app; [apply hint_part_nosemi|]. constructor; [apply int_semi|now apply sol_nosemi].
    + cbn [read_conclusion]. kws. rewrite read_int_print. unfold ht. destruct i as [x|]; cbn [app].
      * kws. rewrite read_cid_print by exact Hi. cbn beta iota. now rewrite read_int_print, read_sol_print.
      * destruct (sol_toks sol) as [|w ws] eqn:Es.
        -- rewrite read_int_print. rewrite <- Es. now rewrite read_sol_print.
        -- replace (is_kw (print_Z hi) ":") with false by (symmetry; not_kw int_first). rewrite read_int_print. rewrite <- Es. now rewrite read_sol_print.
Qed.
Lemma L_end : tx (T "end" ++ [nl]) [LEnd].
Proof. now apply (tx_line (T "end") [T "end"]); [apply kw_wd|]. Qed.
Lemma L_end_proof : tx (T "end pseudo-Boolean proof" ++ [nl]) [LEndProof].
Proof.
  apply (tx_line (T "end pseudo-Boolean proof") [T "end"; T "pseudo-Boolean"; T "proof"]); [|reflexivity].
  exact (kw_sp "end" (T "pseudo-Boolean" ++ " "%char :: T "proof") _ eq_refl (kw_sp "pseudo-Boolean" _ _ eq_refl (kw_wd "proof" eq_refl))).
Qed.
Lemma L_header : tx (T "pseudo-Boolean proof version 2.0" ++ [nl]) [LHeader].
Proof.
  apply (tx_line (T "pseudo-Boolean proof version 2.0") [T "pseudo-Boolean"; T "proof"; T "version"; T "2.0"]); [|reflexivity].
  exact (kw_sp "pseudo-Boolean" (T "proof" ++ " "%char :: T "version" ++ " "%char :: T "2.0") _ eq_refl
          (kw_sp "proof" (T "version" ++ " "%char :: T "2.0") _ eq_refl (kw_sp "version" _ _ eq_refl (kw_wd "2.0" eq_refl)))).
Qed.
Lemma L_blank : tx [nl] [LBlank].
Proof. exact (tx_line [] [] LBlank wd_nil eq_refl). Qed.
