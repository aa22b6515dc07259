(** * Histories of calls of the proof writer *)

From Coq Require Import Bool NArith ZArith Ascii String List Lia.
From Coq Require Import ZifyBool ZifyNat ZifyN.
From Verif Require Import Spec Types Text TextProofs CertSpec PigeonsSpec Pigeons PigeonsProofs PigeonsLines.
Import ListNotations.
Open Scope list_scope.

Definition after (p : proof) (t : text) (n : nat) : proof := mkProof (pr_next p + n) (pr_pv p) (pr_opt p) (pr_first p) (pr_default p) (pr_out p ++ t).
Lemma after_0 p : after p [] 0 = p.
Proof. unfold after. rewrite app_nil_r, Nat.add_0_r. now destruct p. Qed.
Lemma after_after p t n u m : after (after p t n) u m = after p (t ++ u) (n + m).
Proof. unfold after. cbn. now rewrite app_assoc, Nat.add_assoc. Qed.
Lemma say_after p t : say p t = after p t 0.
Proof. unfold say, after. now rewrite Nat.add_0_r. Qed.
Lemma sayln_after p t : sayln p t = after p (t ++ [nl]) 0.
Proof. apply say_after. Qed.
Lemma bump_after p n : bump p n = after p [] n.
Proof. unfold bump, after. now rewrite app_nil_r. Qed.
Ltac aft := rewrite ?say_after, ?sayln_after, ?bump_after, ?after_after, ?app_nil_r, ?Nat.add_0_r, ?Nat.add_0_l; cbn [app].

Section Hist.
Variable short : bool.

Lemma kw_pol_tok : tok (kw_pol short).
Proof. unfold kw_pol. destruct short; now apply tokb_tok. Qed.
Lemma kw_rup_tok : tok (kw_rup short).
Proof. unfold kw_rup. destruct short; now apply tokb_tok. Qed.
Lemma tok_sp k t ws : tok k -> wd t ws -> wd (k ++ " "%char :: t) (k :: ws).
Proof. intros H Ht. exact (wd_sp k t [k] ws (wd_tok k H) Ht). Qed.
Lemma con_hints k c t ws : tok k -> good_sum (fst c) -> wd t ws -> wd (k ++ T " " ++ p_con c ++ T " ; " ++ t) (k :: con_toks c ++ T ";" :: ws).
Proof.
  intros Hk Hc Ht. apply (tok_sp k (p_con c ++ " "%char :: (T ";" ++ " "%char :: t)) _ Hk). apply wd_sp; [now apply con_wd|]. exact (kw_sp ";" t ws eq_refl Ht).
Qed.
Lemma con_closed k c : tok k -> good_sum (fst c) -> wd (k ++ T " " ++ p_con c ++ T " ;") (k :: con_toks c ++ T ";" :: []).
Proof.
  intros Hk Hc. apply (tok_sp k (p_con c ++ " "%char :: T ";") _ Hk). apply wd_sp; [now apply con_wd|]. now apply kw_wd.
Qed.

Lemma der_ok d : good_der d -> exists t ws, p_der short d = Some t /\ wd t ws /\ read_words ws = Some (der_line d).
Proof.
  destruct d as [c hs|ops]; cbn [good_der p_der der_line].
  - intros [Hc Hh]. eexists. exists (kw_rup short :: con_toks c ++ T ";" :: map p_cid hs). split; [reflexivity|]. split; [|now apply L_rup].
    apply con_hints; [apply kw_rup_tok|assumption|apply cids_wd].
  - intros H. destruct (p_ops_ok ops H) as [t [E Ht]]. rewrite E. eexists. exists (kw_pol short :: flat_map op_toks ops). split; [reflexivity|].
    split; [|now apply L_pol]. apply (tok_sp (kw_pol short)); [apply kw_pol_tok|exact Ht].
Qed.
Lemma indented t ws l : wd t ws -> read_words ws = Some l -> tx (T "  " ++ t ++ [nl]) [l].
Proof. intros H E. exact (tx_line (" "%char :: " "%char :: t) ws l (wd_lead _ _ (wd_lead _ _ H)) E). Qed.
Lemma ders_ok ds : Forall good_der ds -> exists t, p_ders short (T "  ") ds = Some t /\ tx t (map der_line ds).
Proof.
  induction 1 as [|d ds H _ [t [E IH]]]; [exists []; split; [reflexivity|apply tx_nil]|].
  destruct (der_ok d H) as [u [ws [Eu [Hu Hl]]]]. cbn [p_ders map]. rewrite Eu, E. eexists. split; [reflexivity|].
  change (T "  " ++ T "  " ++ u ++ [nl] ++ t) with ((T "  " ++ T "  " ++ u) ++ [nl] ++ t). rewrite app_assoc.
  apply (tx_app _ _ [der_line d]); [|exact IH]. rewrite <- !app_assoc.
  exact (tx_line (" "%char :: " "%char :: " "%char :: " "%char :: u) ws _ (wd_lead _ _ (wd_lead _ _ (wd_lead _ _ (wd_lead _ _ Hu)))) Hl).
Qed.
Lemma goal_ok g ds : good_goal g -> Forall good_der ds -> exists t, p_goal_at short (T "  ") g ds = Some t /\ tx (t ++ [nl]) (goal_lines g ds).
Proof.
  intros Hg Hd. destruct (ders_ok ds Hd) as [t [E Ht]]. unfold p_goal_at. rewrite E. eexists. split; [reflexivity|]. unfold goal_lines.
  change (LGoal g :: map der_line ds ++ [LQed (IRel 1)]) with ([LGoal g] ++ map der_line ds ++ [LQed (IRel 1)]).
  replace ((T "  " ++ T "proofgoal " ++ p_goal g ++ [nl] ++ t ++ T "  " ++ T "qed -1") ++ [nl])
    with ((T "  " ++ (T "proofgoal " ++ p_goal g) ++ [nl]) ++ t ++ (T "  " ++ T "qed -1" ++ [nl])) by (rewrite <- !app_assoc; reflexivity).
  apply tx_app.
  - apply (indented _ [T "proofgoal"; p_goal g]); [|now apply L_goal]. exact (kw_sp "proofgoal" (p_goal g) _ eq_refl (wd_tok _ (goal_tok_ok g))).
  - apply tx_app; [exact Ht|]. apply (indented _ [T "qed"; T "-1"]); [|reflexivity]. exact (kw_sp "qed" (T "-1") _ eq_refl (kw_wd "-1" eq_refl)).
Qed.
Lemma elems_ok es : forall p, Forall good_elem es -> exists t, write_elems short p es = Some (after p t (list_sum (map elem_ids es))) /\ tx t (flat_map elem_lines es).
Proof.
  induction es as [|e es IH]; intros p H.
  - exists []. split; [now rewrite after_0|apply tx_nil].
  - inversion H as [|? ? He Hes]; subst. destruct e as [d|g ds]; cbn [write_elems flat_map elem_lines good_elem] in *.
    + destruct (der_ok d He) as [u [ws [Eu [Hu Hl]]]]. rewrite Eu. aft. edestruct IH as [t [E Ht]]; [exact Hes|]. rewrite E. aft. eexists. split; [reflexivity|].
      rewrite <- (app_assoc (T "  ") u). exact (tx_app _ t [der_line d] _ (indented u ws _ Hu Hl) Ht).
    + destruct He as [Hg Hd]. destruct (goal_ok g ds Hg Hd) as [u [Eu Hu]]. rewrite Eu. aft. edestruct IH as [t [E Ht]]; [exact Hes|]. rewrite E. aft.
      eexists. split; [reflexivity|]. now apply tx_app.
Qed.
Lemma subproof_ok p h ws r es : wd h ws -> read_words ws = Some (LRule r false) -> read_words (ws ++ T ";" :: [T "begin"]) = Some (LRule r true) ->
  Forall good_elem es -> exists t, write_subproof short (say p h) es = Some (after p t (proof_ids es)) /\ tx t (with_proof r es).
Proof.
  intros Hh E0 E1 H. destruct es as [|e es].
  - eexists. unfold write_subproof. aft. split; [reflexivity|]. now apply (tx_line h ws).
  - unfold write_subproof, with_proof, proof_ids. remember (e :: es) as l. aft. destruct (elems_ok l (after p (h ++ T " ; begin" ++ [nl]) 1) H) as [t [E Ht]].
    rewrite E. aft. eexists. split; [reflexivity|].
    match goal with |- tx ?X _ => replace X with ((((h ++ T " ; begin") ++ [nl]) ++ t) ++ (T "end" ++ [nl])) by (rewrite <- ?app_assoc; reflexivity) end.
    change (LRule r true :: flat_map elem_lines l ++ [LEnd]) with (([LRule r true] ++ flat_map elem_lines l) ++ [LEnd]).
    apply tx_app; [apply tx_app; [|exact Ht]|exact L_end].
    refine (tx_line (h ++ T " ; begin") (ws ++ T ";" :: [T "begin"]) _ _ E1).
    exact (wd_sp h (T ";" ++ " "%char :: T "begin") ws [_; _] Hh (kw_sp ";" _ _ eq_refl (kw_wd "begin" eq_refl))).
Qed.

(** ** Numbering *)
Lemma number_ders next r ds ls : number next (Some r) (map der_line ds ++ ls) = number (next + List.length ds) (Some r) ls.
Proof.
  revert next. induction ds as [|d ds IH]; intros next; cbn [map app List.length]; [now rewrite Nat.add_0_r|].
  destruct d; cbn [der_line number adds]; rewrite IH; f_equal; lia.
Qed.
Lemma number_elems next r es ls : number next (Some r) (flat_map elem_lines es ++ ls) = number (next + list_sum (map elem_ids es)) (Some r) ls.
Proof.
  revert next. induction es as [|e es IH]; intros next; [cbn; now rewrite Nat.add_0_r|].
  cbn [flat_map map]. change (list_sum (elem_ids e :: map elem_ids es)) with (elem_ids e + list_sum (map elem_ids es)). rewrite <- app_assoc.
  destruct e as [d|g ds]; cbn [elem_lines elem_ids].
  - change ([der_line d]) with (map der_line [d]). rewrite number_ders, IH. f_equal. cbn [List.length]. lia.
  - unfold goal_lines. cbn [app number]. rewrite <- app_assoc, number_ders. cbn [app number]. rewrite IH. f_equal. lia.
Qed.
Lemma number_with_proof next r es : opening r = 1 -> number next None (with_proof r es) =
  if adds r then (next + proof_ids es + 1, [(r, next + proof_ids es)]) else (next + proof_ids es, []).
Proof.
  intros Ho. unfold with_proof, proof_ids. destruct es as [|e es].
  - cbn [number]. destruct (adds r); now rewrite ?Nat.add_0_r, ?Nat.add_1_r.
  - remember (e :: es) as l. cbn [number]. rewrite number_elems, Ho. cbn [number]. rewrite Nat.add_assoc. destruct (adds r); now rewrite ?Nat.add_1_r.
Qed.

(** ** Ranges *)
Lemma range_value next lo hi : 0 < next -> good_bound next lo -> good_bound next hi ->
  exists a b, range_ends next lo hi = (if resolve next a <? resolve next b then Some (a, b) else None) /\ good_id a /\ good_id b /\
    (forall i, resolve next a <= i < resolve next b <-> in_range next lo hi i).
Proof.
  intros Hn Hlo Hhi.
  set (a := match lo with BIncl i => i | BExcl i => increment next i | BOpen => IAbs 1 end).
  set (b := match hi with BIncl i => increment next i | BExcl i => i | BOpen => IAbs next end).
  assert (Inc : forall i, good_bound next (BIncl i) -> good_id (increment next i) /\ id_value next (increment next i) = Some (resolve next i + 1) /\
                          resolve next (increment next i) = resolve next i + 1).
  { intros [n|n] [G1 G2]; cbn in *; [repeat split; lia|]. destruct (Nat.eqb_spec n 1) as [->|Hne]; cbn; [repeat split; try lia; f_equal; lia|].
    unfold rel_absolute. destruct (Nat.ltb_spec (n - 1) next); [|lia]. repeat split; try lia. f_equal. lia. }
  assert (Val : forall i, good_bound next (BIncl i) -> good_id i /\ id_value next i = Some (resolve next i)).
  { intros [n|n] [G1 G2]; cbn in *; [split; [lia|reflexivity]|]. unfold rel_absolute. destruct (Nat.ltb_spec n next); [|lia]. split; [lia|reflexivity]. }
  assert (A : good_id a /\ id_value next a = Some (resolve next a) /\ (forall i, resolve next a <= i <-> match lo with BIncl a => resolve next a <= i | BExcl a => resolve next a < i | BOpen => 1 <= i end)).
  { unfold a. destruct lo as [i|i|].
    - destruct (Val i Hlo) as [V1 V2]. repeat split; auto.
    - destruct (Inc i Hlo) as [V1 [V2 V3]]. rewrite V2, V3. repeat split; auto; lia.
    - repeat split; cbn; lia. }
  assert (B : good_id b /\ id_value next b = Some (resolve next b) /\ (forall i, i < resolve next b <-> match hi with BIncl b => i <= resolve next b | BExcl b => i < resolve next b | BOpen => i < next end)).
  { unfold b. destruct hi as [i|i|].
    - destruct (Inc i Hhi) as [V1 [V2 V3]]. rewrite V2, V3. repeat split; auto; lia.
    - destruct (Val i Hhi) as [V1 V2]. repeat split; auto.
    - repeat split; cbn; lia. }
  destruct A as [A1 [A2 A3]], B as [B1 [B2 B3]]. exists a, b. unfold range_ends. fold a b. rewrite B2, A2.
  repeat split; auto; unfold in_range in *.
  - apply A3. tauto.
  - apply B3. tauto.
  - apply A3. tauto.
  - apply B3. tauto.
Qed.
Lemma range_ok next lo hi : 0 < next -> good_bound next lo -> good_bound next hi -> (exists i, in_range next lo hi i) ->
  exists a b, range_ends next lo hi = Some (a, b) /\ good_id a /\ good_id b /\ (forall i, resolve next a <= i < resolve next b <-> in_range next lo hi i).
Proof.
  intros Hn Hlo Hhi [j Hj]. destruct (range_value next lo hi Hn Hlo Hhi) as [a [b [E [Ha [Hb HI]]]]]. exists a, b. apply HI in Hj.
  destruct (Nat.ltb_spec (resolve next a) (resolve next b)); [|lia]. auto.
Qed.
Lemma range_none next lo hi : 0 < next -> good_bound next lo -> good_bound next hi -> (range_ends next lo hi = None <-> ~ exists i, in_range next lo hi i).
Proof.
  intros Hn Hlo Hhi. destruct (range_value next lo hi Hn Hlo Hhi) as [a [b [E [Ha [Hb HI]]]]]. rewrite E.
  destruct (Nat.ltb_spec (resolve next a) (resolve next b)) as [L|L]; split; try discriminate.
  - intros N. exfalso. apply N. exists (resolve next a). apply HI. lia.
  - intros _ [i Hi]. apply HI in Hi. lia.
  - reflexivity.
Qed.

(** ** Calls *)
Definition fits (p : proof) (c : pcall) : Prop :=
  exists t ls r ids, call short p c = Some (after p t (uses c), r) /\ tx t ls /\ asks (pr_next p) c ls /\ number (pr_next p) None ls = (pr_next p + uses c, ids) /\
    (ids = [] /\ r = None \/ exists ru i, ids = [(ru, i)] /\ r = Some i).

Lemma fits_quiet p c t ws r : call short p c = quiet (sayln p t) -> uses c = 0 -> wd t ws -> read_words ws = Some (LRule r false) -> adds r = false ->
  asks (pr_next p) c [LRule r false] -> fits p c.
Proof.
  intros E U H R A K. exists (t ++ [nl]), [LRule r false], None, []. rewrite E, U. split; [now rewrite sayln_after|]. split; [now apply (tx_line t ws)|].
  split; [exact K|]. split; [cbn [number]; rewrite A; now rewrite Nat.add_0_r|now left].
Qed.
Lemma fits_added p c t ws r : call short p c = added (sayln p t) -> uses c = 1 -> wd t ws -> read_words ws = Some (LRule r false) -> adds r = true ->
  asks (pr_next p) c [LRule r false] -> fits p c.
Proof.
  intros E U H R A K. exists (t ++ [nl]), [LRule r false], (Some (pr_next p)), [(r, pr_next p)]. rewrite E, U. split.
  - unfold added, new_id. rewrite sayln_after, bump_after, after_after, app_nil_r. cbn [after pr_next]. now rewrite Nat.add_0_r.
  - split; [now apply (tx_line t ws)|]. split; [exact K|]. split; [cbn [number]; rewrite A, Nat.add_1_r; reflexivity|]. right. eauto.
Qed.

Lemma hinted_wd k c i : tokb (T k) = true -> good_sum (fst c) -> wd (hinted (T k) c i) (T k :: con_toks c ++ T ";" :: hint_toks i).
Proof.
  intros Hk Hc. unfold hinted. destruct i as [x|]; cbn [hint_toks].
  - exact (con_hints (T k) c (p_cid x) [p_cid x] (tokb_tok _ Hk) Hc (wd_tok _ (cid_tok x))).
  - rewrite app_nil_r. exact (con_closed (T k) c (tokb_tok _ Hk) Hc).
Qed.
Lemma obj_closed a b (o : pobj) : tokb (T a) = true -> tokb (T b) = true -> good_sum (fst o) ->
  wd (T a ++ " "%char :: T b ++ " "%char :: p_obj o ++ T " ;") (T a :: (T b :: sum_toks (fst o)) ++ T ";" :: []).
Proof.
  intros Ha Hb Ho. apply (kw_sp a); [exact Ha|]. apply (kw_sp b); [exact Hb|]. apply (wd_sp (p_obj o) (T ";")); [now apply sum_wd|now apply kw_wd].
Qed.

Lemma call_ok p c : 0 < pr_next p -> good_call (pr_opt p) (pr_next p) c -> fits p c.
Proof.
  intros Hp H. destruct c; cbn [good_call] in H.
  - eapply fits_quiet; [reflexivity|reflexivity| |exact (L_count n)|reflexivity|reflexivity].
    exact (kw_sp "f" (print_nat n) _ eq_refl (wd_tok _ (print_nat_tok n))).
  - exists ((T "* " ++ t) ++ [nl]), [LComment], None, []. cbn [call uses]. split; [unfold quiet; now rewrite sayln_after|]. split; [|split; [reflexivity|]].
    + apply tx_raw.
      * intros [E|[E|Hin]]; [discriminate E|discriminate E|contradiction].
      * assert (K : forall u, read_line ("*"%char :: u) = Some LComment \/ exists d r, u = d :: r /\ is_white d = false).
        { intros [|d u]; [now left|]. destruct (is_white d) eqn:E; [left|right; eauto]. unfold read_line, words. cbn [words_from]. change (is_white "*") with false. cbn match.
          rewrite E. cbn [rev app read_words]. reflexivity. }
        rewrite chomp_line by (intros [E|[E|Hin]]; [discriminate E|discriminate E|contradiction]).
        change (T "* " ++ t) with ("*"%char :: " "%char :: t). cbn [rev]. destruct (rev t) as [|d r] eqn:Er.
        -- cbn [app]. change (Ascii.eqb " " cr) with false. cbn match. destruct (K (" "%char :: t)) as [E|[d [r [E1 E2]]]]; [exact E|]. injection E1 as <- <-. discriminate E2.
        -- cbn [app]. destruct (Ascii.eqb d cr).
           ++ rewrite !rev_app_distr. cbn [rev app]. destruct (K (" "%char :: rev r)) as [E|[d' [r' [E1 E2]]]]; [exact E|]. injection E1 as <- <-. discriminate E2.
           ++ destruct (K (" "%char :: t)) as [E|[d' [r' [E1 E2]]]]; [exact E|]. injection E1 as <- <-. discriminate E2.
    + cbn [number]. split; [now rewrite Nat.add_0_r|now left].
  - destruct (p_ops_ok ops H) as [t [E Ht]]. eapply fits_added; [cbn [call]; rewrite E; reflexivity|reflexivity| |exact (L_pol short ops H)|reflexivity|reflexivity].
    exact (tok_sp (kw_pol short) t _ kw_pol_tok Ht).
  - destruct H as [Hc Hh]. eapply fits_added; [reflexivity|reflexivity| |exact (L_rup short c hints Hc Hh)|reflexivity|reflexivity]. destruct hints as [|h hs].
    + exact (con_closed _ c kw_rup_tok Hc).
    + exact (con_hints _ c _ _ kw_rup_tok Hc (cids_wd (h :: hs))).
  - destruct H as [Hi He].
    destruct (subproof_ok p (T "del id " ++ spaced (map p_cid is) ++ T " ;") (T "del" :: (T "id" :: map p_cid is) ++ T ";" :: []) (RDelId is []) proof) as [t [E Ht]].
    + apply (kw_sp "del" (T "id" ++ " "%char :: spaced (map p_cid is) ++ T " ;") _ eq_refl). apply (kw_sp "id" _ _ eq_refl).
      exact (wd_sp _ (T ";") _ [_] (cids_wd is) (kw_wd ";" eq_refl)).
    + now apply L_del.
    + pose proof (L_del_begin is Hi) as L. cbn [app] in L |- *. rewrite <- app_assoc. exact L.
    + exact He.
    + exists t, (with_proof (RDelId is []) proof), None, []. cbn [call uses]. rewrite E. split; [reflexivity|]. split; [exact Ht|]. split; [reflexivity|].
      split; [now rewrite number_with_proof|now left].
  - eapply fits_quiet; [reflexivity|reflexivity| |exact (L_spec c H)|reflexivity|reflexivity].
    exact (kw_sp "del" (T "spec" ++ " "%char :: p_con c ++ T " ;") _ eq_refl (con_closed (T "spec") c (tokb_tok (T "spec") eq_refl) H)).
  - destruct H as [Hlo [Hhi Hex]]. destruct (range_ok (pr_next p) lo hi Hp Hlo Hhi Hex) as [a [b [E [Ha [Hb HI]]]]].
    eapply fits_quiet; [cbn [call]; rewrite E; reflexivity|reflexivity| |exact (L_range a b Ha Hb)|reflexivity|exists a, b; split; [reflexivity|exact HI]].
    exact (kw_sp "del" (T "range" ++ " "%char :: p_cid a ++ " "%char :: p_cid b) _ eq_refl
             (kw_sp "range" _ _ eq_refl (wd_sp _ _ [_] [_] (wd_tok _ (cid_tok a)) (wd_tok _ (cid_tok b))))).
  - eapply fits_quiet; [reflexivity|reflexivity| |exact (L_delc is H)|reflexivity|reflexivity]. exact (kw_sp "delc" _ _ eq_refl (cids_wd is)).
  - eapply fits_quiet; [reflexivity|reflexivity| |exact (L_deld is H)|reflexivity|reflexivity]. exact (kw_sp "deld" _ _ eq_refl (cids_wd is)).
  - destruct H as [Ho [E0 [Hs ->]]]. exists ((T "obju new " ++ p_obj o ++ T " ;" ++ [nl]) ++ [nl]), [LRule (RObjNew o) false; LBlank], None, [].
    cbn [call uses]. rewrite Ho. cbn [p_obj_new]. split; [unfold quiet; rewrite sayln_after; reflexivity|].
    split; [|split; [reflexivity|split; [cbn; now rewrite Nat.add_0_r|now left]]].
    change [LRule (RObjNew o) false; LBlank] with ([LRule (RObjNew o) false] ++ [LBlank]). apply tx_app; [|exact L_blank].
    rewrite !app_assoc. rewrite <- (app_assoc (T "obju new ")). apply (tx_line _ (T "obju" :: (T "new" :: sum_toks (fst o)) ++ T ";" :: [])); [|now apply L_objnew].
    now apply (obj_closed "obju" "new").
  - destruct H as [Ho [E0 Hs]]. eapply fits_quiet; [cbn [call]; rewrite Ho; reflexivity|reflexivity| |exact (L_objdiff o E0 Hs)|reflexivity|reflexivity].
    now apply (obj_closed "obju" "diff").
  - destruct H as [Hc [Hs He]].
    destruct (subproof_ok p (T "red " ++ p_con c ++ T " ; " ++ spaced (map p_sub subs)) (T "red" :: con_toks c ++ T ";" :: flat_map sub_toks subs) (RRed c subs) proof) as [t [E Ht]].
    + exact (con_hints (T "red") c _ _ (tokb_tok (T "red") eq_refl) Hc (subs_wd subs Hs)).
    + now apply L_red.
    + pose proof (L_red_begin c subs Hc Hs) as L. cbn [app] in L |- *. rewrite <- app_assoc. cbn [app]. exact L.
    + exact He.
    + eexists t, (with_proof (RRed c subs) proof), _, _. cbn [call uses]. rewrite E. unfold added, new_id. rewrite bump_after, after_after, app_nil_r.
      split; [reflexivity|]. split; [exact Ht|]. split; [reflexivity|]. split; [rewrite number_with_proof by reflexivity; cbn [adds]; rewrite Nat.add_assoc; reflexivity|].
      right. eexists _, _. split; reflexivity.
  - destruct H as [Hc [Hs He]].
    destruct (subproof_ok p (T "dom " ++ p_con c ++ T " ; " ++ spaced (map p_sub subs)) (T "dom" :: con_toks c ++ T ";" :: flat_map sub_toks subs) (RDom c subs) proof) as [t [E Ht]].
    + exact (con_hints (T "dom") c _ _ (tokb_tok (T "dom") eq_refl) Hc (subs_wd subs Hs)).
    + now apply L_dom.
    + pose proof (L_dom_begin c subs Hc Hs) as L. cbn [app] in L |- *. rewrite <- app_assoc. cbn [app]. exact L.
    + exact He.
    + eexists t, (with_proof (RDom c subs) proof), _, _. cbn [call uses]. rewrite E. unfold added, new_id. rewrite bump_after, after_after, app_nil_r.
      split; [reflexivity|]. split; [exact Ht|]. split; [reflexivity|]. split; [rewrite number_with_proof by reflexivity; cbn [adds]; rewrite Nat.add_assoc; reflexivity|].
      right. eexists _, _. split; reflexivity.
  - eapply fits_quiet; [reflexivity|reflexivity| |exact (L_core is H)|reflexivity|reflexivity].
    exact (kw_sp "core" (T "id" ++ " "%char :: spaced (map p_cid is)) _ eq_refl (kw_sp "id" _ _ eq_refl (cids_wd is))).
  - destruct H as [Hlo [Hhi Hex]]. destruct (range_ok (pr_next p) lo hi Hp Hlo Hhi Hex) as [a [b [E [Ha [Hb HI]]]]].
    eapply fits_quiet; [cbn [call]; rewrite E; reflexivity|reflexivity| |exact (L_core_range a b Ha Hb)|reflexivity|exists a, b; split; [reflexivity|exact HI]].
    exact (kw_sp "core" (T "range" ++ " "%char :: p_cid a ++ " "%char :: p_cid b) _ eq_refl
             (kw_sp "range" _ _ eq_refl (wd_sp _ _ [_] [_] (wd_tok _ (cid_tok a)) (wd_tok _ (cid_tok b))))).
  - eapply fits_quiet; [reflexivity|reflexivity| |exact (L_sol ls H)|reflexivity|reflexivity]. exact (kw_sp "sol" _ _ eq_refl (lits_wd ls H)).
  - eapply fits_added; [reflexivity|reflexivity| |exact (L_solx ls H)|reflexivity|reflexivity]. exact (kw_sp "solx" _ _ eq_refl (lits_wd ls H)).
  - eapply fits_added; [reflexivity|reflexivity| |exact (L_soli ls H)|reflexivity|reflexivity]. exact (kw_sp "soli" _ _ eq_refl (lits_wd ls H)).
  - destruct H as [Hc Hi]. eapply fits_quiet; [reflexivity|reflexivity | |exact (L_e c i Hc Hi)|reflexivity|reflexivity]. now apply (hinted_wd "e").
  - destruct H as [Hc Hi]. eapply fits_added; [reflexivity|reflexivity | |exact (L_ea c i Hc Hi)|reflexivity|reflexivity]. now apply (hinted_wd "ea").
  - destruct H as [Ho [E0 Hs]]. eapply fits_quiet; [cbn [call]; rewrite Ho; reflexivity|reflexivity| |exact (L_eobj o E0 Hs)|reflexivity|reflexivity].
    apply (kw_sp "eobj" (p_obj o ++ T " ;") _ eq_refl). exact (wd_sp (p_obj o) (T ";") _ [_] (sum_wd _ Hs) (kw_wd ";" eq_refl)).
  - destruct H as [Hc Hi]. eapply fits_quiet; [reflexivity|reflexivity | |exact (L_i c i Hc Hi)|reflexivity|reflexivity]. now apply (hinted_wd "i").
  - destruct H as [Hc Hi]. eapply fits_added; [reflexivity|reflexivity | |exact (L_ia c i Hc Hi)|reflexivity|reflexivity]. now apply (hinted_wd "ia").
  - eapply fits_quiet; [reflexivity|reflexivity| |exact (L_level n)|reflexivity|reflexivity]. exact (kw_sp "#" (print_nat n) _ eq_refl (wd_tok _ (print_nat_tok n))).
  - eapply fits_quiet; [reflexivity|reflexivity| |exact (L_wipe n)|reflexivity|reflexivity]. exact (kw_sp "w" (print_nat n) _ eq_refl (wd_tok _ (print_nat_tok n))).
  - destruct H as [Hn [Hs Hv]]. eapply fits_quiet; [reflexivity|reflexivity| |exact (L_load name vars Hs Hv)|reflexivity|reflexivity].
    apply (kw_sp "load_order" (name ++ " "%char :: spaced vars) _ eq_refl). apply (tok_sp name); [exact Hn|].
    rewrite <- (map_id vars) at 1. rewrite <- (map_id vars) at 2. apply wd_spaced_toks. eapply Forall_impl; [|exact Hv]. intros v. apply name_tok.
  - eapply fits_quiet; [reflexivity|reflexivity| |exact (L_strength on)|reflexivity|reflexivity].
    apply (kw_sp "strengthening_to_core" (if on then T "on" else T "off") [_] eq_refl). destruct on; now apply kw_wd.
Qed.

Theorem calls_ok cs : forall p, 0 < pr_next p -> good_calls (pr_opt p) (pr_next p) cs ->
  exists p' rs t ls, calls short p cs = Some (p', rs) /\ written (pr_next p) cs rs ls (pr_next p') /\ pr_out p' = pr_out p ++ t /\ tx t ls /\
    pr_default p' = pr_default p /\ pr_first p' = pr_first p.
Proof.
  induction cs as [|c cs IH]; intros p Hp H; cbn [calls good_calls] in *.
  - exists p, [], [], []. repeat split; [constructor|now rewrite app_nil_r|apply tx_nil].
  - destruct H as [Hc Hcs]. destruct (call_ok p c Hp Hc) as [t [ls [r [ids [E [Ht [A [Hn Hr]]]]]]]]. rewrite E.
    destruct (IH (after p t (uses c))) as [p' [rs [u [ls' [E' [W [O [Hu [D F]]]]]]]]]; [cbn; lia|exact Hcs|]. rewrite E'.
    exists p', (r :: rs), (t ++ u), (ls ++ ls'). split; [reflexivity|]. split; [exact (W_cons _ _ _ _ _ _ _ _ _ _ A Hn Hr W)|].
    split; [rewrite O; cbn [after pr_out]; now rewrite app_assoc|]. split; [now apply tx_app|]. split; [exact D|exact F].
Qed.

Lemma tx_read t ls : tx t ls -> read_text t = Some ls.
Proof. intros H. rewrite <- (app_nil_r t), H. cbn. now rewrite app_nil_r. Qed.
Lemma closing_ok g c : good_conclusion c ->
  tx ((T "output " ++ p_guarantee g) ++ [nl] ++ (T "conclusion " ++ p_conclusion c) ++ [nl] ++ T "end pseudo-Boolean proof" ++ [nl]) [LOutput g; LConclusion c; LEndProof].
Proof.
  intros H. destruct (L_output g) as [ws [Hg Eg]]. destruct (L_conclusion c H) as [vs [Hc Ec]]. rewrite !(app_assoc _ [nl]).
  change [LOutput g; LConclusion c; LEndProof] with ([LOutput g] ++ [LConclusion c] ++ [LEndProof]).
  apply tx_app; [exact (tx_line _ ws _ Hg Eg)|]. apply tx_app; [exact (tx_line _ vs _ Hc Ec)|exact L_end_proof].
Qed.
Lemma start_ok n : tx (T "pseudo-Boolean proof version 2.0" ++ [nl] ++ (T "f " ++ print_nat n) ++ [nl]) [LHeader; LRule (RCount n) false].
Proof.
  rewrite (app_assoc _ [nl]). change [LHeader; LRule (RCount n) false] with ([LHeader] ++ [LRule (RCount n) false]). apply tx_app; [exact L_header|].
  apply (tx_line _ [T "f"; print_nat n]); [|apply L_count]. exact (kw_sp "f" (print_nat n) _ eq_refl (wd_tok _ (print_nat_tok n))).
Qed.

(** the whole file, concluded or dropped *)
Theorem file_ok n opt g0 c0 cs : good_calls opt (n + 1) cs ->
  exists p rs ls, calls short (proof_new n opt g0 c0) cs = Some (p, rs) /\ written (n + 1) cs rs ls (pr_next p) /\
    (forall g c, good_conclusion c -> read_text (conclude p g c) = Some (LHeader :: LRule (RCount n) false :: ls ++ [LOutput g; LConclusion c; LEndProof])) /\
    (good_conclusion c0 -> read_text (dropped p) = Some (LHeader :: LRule (RCount n) false :: ls ++ [LOutput g0; LConclusion c0; LEndProof])) /\
    (forall g c, good_conclusion c -> read_text (dropped (set_default p g c)) = Some (LHeader :: LRule (RCount n) false :: ls ++ [LOutput g; LConclusion c; LEndProof])).
Proof.
  intros H. destruct (calls_ok cs (proof_new n opt g0 c0)) as [p [rs [t [ls [E [W [O [Ht [D F]]]]]]]]]; [cbn; lia|exact H|].
  exists p, rs, ls. split; [exact E|]. split; [exact W|].
  assert (K : forall g c, good_conclusion c ->
    read_text (pr_out p ++ (T "output " ++ p_guarantee g) ++ [nl] ++ (T "conclusion " ++ p_conclusion c) ++ [nl] ++ T "end pseudo-Boolean proof" ++ [nl]) =
    Some (LHeader :: LRule (RCount n) false :: ls ++ [LOutput g; LConclusion c; LEndProof])).
  { intros g c Hc. apply tx_read. rewrite O.
    replace (LHeader :: LRule (RCount n) false :: ls ++ [LOutput g; LConclusion c; LEndProof]) with (([LHeader; LRule (RCount n) false] ++ ls) ++ [LOutput g; LConclusion c; LEndProof])
      by now rewrite <- app_assoc.
    apply tx_app; [apply tx_app|now apply closing_ok]; [|exact Ht].
    replace (pr_out (proof_new n opt g0 c0)) with (T "pseudo-Boolean proof version 2.0" ++ [nl] ++ (T "f " ++ print_nat n) ++ [nl]); [apply start_ok|].
    unfold proof_new, sayln, say. cbn [pr_out]. now rewrite <- !app_assoc. }
  split; [|split].
  - intros g c Hc. rewrite <- (K g c Hc). unfold conclude, sayln, say. cbn [pr_out]. now rewrite <- !app_assoc.
  - intros Hc. rewrite <- (K g0 c0 Hc). unfold dropped, sayln, say. cbn [pr_out pr_default]. rewrite D. cbn [proof_new sayln say pr_default fst snd]. now rewrite <- !app_assoc.
  - intros g c Hc. rewrite <- (K g c Hc). unfold dropped, set_default, sayln, say. cbn [pr_out pr_default fst snd]. now rewrite <- !app_assoc.
Qed.
End Hist.
