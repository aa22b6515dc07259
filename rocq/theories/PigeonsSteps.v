(** * The proofs of the certified encodings as text, and the meaning of operation sequences *)

From Coq Require Import Bool NArith ZArith Ascii String List Lia.
From Coq Require Import ZifyBool ZifyNat ZifyN.
From Verif Require Import Spec Types Text TextProofs CertSpec CertSem PigeonsSpec Pigeons PigeonsProofs PigeonsLines PigeonsHist.
Import ListNotations.
Open Scope list_scope.

(** ** Operation sequences *)

Lemma map_opt_app {A B} (f : A -> option B) xs ys us vs : map_opt f xs = Some us -> map_opt f ys = Some vs -> map_opt f (xs ++ ys) = Some (us ++ vs).
Proof.
  revert us. induction xs as [|x xs IH]; intros us E1 E2; cbn [map_opt app] in *.
  - injection E1 as <-. exact E2.
  - destruct (f x); [|discriminate]. destruct (map_opt f xs); [|discriminate]. injection E1 as <-. now rewrite (IH _ eq_refl E2).
Qed.
(** a sequence that leaves a constraint on the stack *)
Definition leaves (p : pstate) (ops : list pop) (c : raw) : Prop :=
  ops <> [] /\ exists os, map_opt rpn_of ops = Some os /\ forall st, rpn_run p os st = Some (c :: st).
Lemma leaves_op p ops c o r d : leaves p ops c -> rpn_of o = Some r -> (forall st, rpn_step p r (c :: st) = Some (d :: st)) -> leaves p (ops ++ [o]) d.
Proof.
  intros [Hn [os [E R]]] Eo Hr. split; [destruct ops; discriminate|]. exists (os ++ [r]). split.
  - apply map_opt_app; [exact E|]. cbn [map_opt]. now rewrite Eo.
  - intros st. rewrite rpn_run_app, R. cbn [rpn_run]. now rewrite Hr.
Qed.
Lemma push_valid c d st : valid_con c = Some (Some d) -> push c st = Some (d :: st).
Proof. unfold valid_con, push. destruct (0 <=? snd c)%Z; [|discriminate]. intros E. now injection E as ->. Qed.
Lemma valid_some c x : valid_con c = Some x -> x = Some c.
Proof. unfold valid_con. destruct (0 <=? snd c)%Z; [|discriminate]. intros E. now injection E as <-. Qed.
Lemma cp_mul_1 c : cp_mul 1 c = c.
Proof.
  destruct c as [ts b]. unfold cp_mul. cbn [fst snd]. f_equal; [|lia]. rewrite <- (map_id ts) at 2. apply map_ext. intros [l w]. f_equal. lia.
Qed.

Theorem build_ok p e : forall x, means p e = Some x -> exists ops, build e = Some ops /\ match x with None => ops = [] | Some c => leaves p ops c end.
Proof.
  induction e as [|i|l|a IHa b IHb|a IHa k|a IHa k|a IHa]; intros x H; cbn [means build] in *.
  - injection H as <-. eauto.
  - destruct i as [i|i]; [|discriminate]. destruct (ps_get p i) as [c|] eqn:E; [|discriminate]. pose proof (valid_some _ _ H); subst x. exists [PId (IAbs i)].
    split; [reflexivity|]. split; [discriminate|]. exists [OId i]. split; [reflexivity|]. intros st. cbn [rpn_run rpn_step]. rewrite E. now rewrite (push_valid c c st H).
  - destruct (lit_of l) as [y|] eqn:E; [|discriminate]. injection H as <-. exists [PAx l]. split; [reflexivity|]. split; [discriminate|]. exists [OAx y].
    split; [cbn [map_opt rpn_of]; now rewrite E|]. intros st. reflexivity.
  - destruct (means p a) as [y|]; [|discriminate]. destruct (means p b) as [z|]; [|discriminate].
    destruct (IHa y eq_refl) as [s [Es Hs]]. destruct (IHb z eq_refl) as [t [Et Ht]]. rewrite Es, Et. destruct y as [c|]; [destruct z as [d|]|].
    + exists (s ++ t ++ [PAdd]). split; [destruct Hs as [Hs _], Ht as [Ht _]; destruct s; [contradiction|]; destruct t; [contradiction|reflexivity]|].
      pose proof (valid_some _ _ H); subst x. destruct Hs as [Hns [os [Eo Ro]]], Ht as [Hnt [qs [Eq Rq]]]. split; [destruct s; [contradiction|discriminate]|].
      exists (os ++ qs ++ [OAdd]). split; [apply map_opt_app; [exact Eo|]; now apply map_opt_app|].
      intros st. rewrite rpn_run_app, Ro, rpn_run_app, Rq. cbn [rpn_run rpn_step]. now rewrite (push_valid _ _ st H).
    + injection H as <-. subst t. exists s. split; [destruct s; reflexivity|exact Hs].
    + injection H as <-. subst s. exists t. split; [reflexivity|exact Ht].
  - destruct (means p a) as [y|]; [|discriminate]. destruct (IHa y eq_refl) as [s [Es Hs]]. rewrite Es. destruct y as [c|].
    + destruct (Nat.eqb_spec k 0) as [->|Hk].
      * injection H as <-. eauto.
      * pose proof (valid_some _ _ H); subst x. destruct (Nat.ltb_spec 1 k) as [Hk1|Hk1].
        -- exists (s ++ [PMul k]). split; [destruct s; [now destruct Hs|reflexivity]|]. apply (leaves_op p s c (PMul k) (OMul k)); [exact Hs|reflexivity|].
           intros st. cbn [rpn_step]. destruct (Nat.eqb_spec k 0); [contradiction|]. now apply push_valid.
        -- exists s. split; [reflexivity|]. replace (Z.of_nat k) with 1%Z by lia. now rewrite cp_mul_1.
    + injection H as <-. subst s. destruct (k =? 0)%nat; [eauto|]. destruct (1 <? k)%nat; eauto.
  - destruct (means p a) as [y|]; [|discriminate]. destruct (IHa y eq_refl) as [s [Es Hs]]. rewrite Es. destruct y as [c|].
    + destruct (Nat.eqb_spec k 0) as [->|Hk]; [discriminate|]. pose proof (valid_some _ _ H); subst x. exists (s ++ [PDiv k]). split; [destruct s; [now destruct Hs|reflexivity]|].
      apply (leaves_op p s c (PDiv k) (ODiv k)); [exact Hs|reflexivity|]. intros st. cbn [rpn_step]. destruct (Nat.eqb_spec k 0); [contradiction|]. now apply push_valid.
    + injection H as <-. subst s. eauto.
  - destruct (means p a) as [y|]; [|discriminate]. destruct (IHa y eq_refl) as [s [Es Hs]]. rewrite Es. destruct y as [c|].
    + destruct (0 <? snd c)%Z eqn:Ec; [|discriminate]. pose proof (valid_some _ _ H); subst x. exists (s ++ [PSat]). split; [destruct s; [now destruct Hs|reflexivity]|].
      apply (leaves_op p s c PSat OSat); [exact Hs|reflexivity|]. intros st. cbn [rpn_step]. rewrite Ec. now apply push_valid.
    + injection H as <-. subst s. eauto.
Qed.
Theorem build_pol p e c : means p e = Some (Some c) -> exists ops os, build e = Some ops /\ ops <> [] /\ map_opt rpn_of ops = Some os /\ pol_result p os = Some c.
Proof.
  intros H. destruct (build_ok p e _ H) as [ops [E [Hn [os [Eo R]]]]]. exists ops, os. repeat split; auto. unfold pol_result. now rewrite R.
Qed.

(** ** Steps *)

Lemma var_of_name v : var_of (var_name v) = Some v.
Proof.
  unfold var_of, var_name. change (T "x" ++ print_N (v + 1)) with ("x"%char :: print_N (v + 1)). cbn match. change (Ascii.eqb "x" "x") with true. cbn match.
  pose proof (read_num_print (N.to_nat (v + 1))) as H. unfold print_nat in H. rewrite N2Nat.id in H. rewrite H. clear H. rewrite N.add_1_r, N2Nat.inj_succ. cbn [nonzero]. f_equal. rewrite Nat.sub_1_r. cbn [Nat.pred]. apply N2Nat.id.
Qed.
Lemma var_name_valid v : valid_name (var_name v) = true.
Proof.
  unfold valid_name, var_name. change (T "x" ++ print_N (v + 1)) with ("x"%char :: print_N (v + 1)).
  pose proof (print_N_digits (v + 1)) as H. pose proof (print_N_not_nil (v + 1)) as Hn. destruct (print_N (v + 1)) as [|d r]; [contradiction|].
  change (is_letter "x") with true. cbn [andb]. rewrite forallb_forall in H |- *. intros c Hc. unfold name_char. rewrite (H c Hc). now rewrite orb_true_r.
Qed.
Lemma lit_of_ax l : lit_of (lit_ax l) = Some l.
Proof. unfold lit_of, lit_ax. cbn [fst snd]. rewrite var_of_name. now destruct l. Qed.
Lemma lit_ax_good l : good_lit (lit_ax l).
Proof. apply var_name_valid. Qed.
Lemma map_opt_map {A B} (f : A -> B) (g : B -> option A) xs : (forall x, g (f x) = Some x) -> map_opt g (map f xs) = Some xs.
Proof. intros H. induction xs as [|x xs IH]; [reflexivity|]. cbn [map map_opt]. now rewrite H, IH. Qed.
Lemma con_of_raw c : con_of (raw_con c) = Some c.
Proof.
  destruct c as [ts b]. unfold con_of, raw_con. cbn [fst snd]. rewrite map_opt_map; [reflexivity|]. intros [l w]. now rewrite lit_of_ax.
Qed.
Lemma raw_con_good c : good_sum (fst (raw_con c)).
Proof.
  destruct c as [ts b]. unfold raw_con, good_sum. cbn [fst]. apply Forall_forall. intros [w l] H. apply in_map_iff in H. destruct H as [[x y] [E _]].
  injection E as <- <-. apply lit_ax_good.
Qed.
Lemma rpn_of_op o : rpn_of (rpn_op o) = Some o.
Proof. destruct o; cbn [rpn_op rpn_of abs_of]; try reflexivity. now rewrite lit_of_ax. Qed.

Lemma step_back s ls next : asks next (step_call s) ls -> map_opt step_of ls = Some [s].
Proof.
  destruct s as [ops|c i|c w|is]; cbn [step_call asks with_proof]; intros ->; cbn [map_opt step_of].
  - now rewrite (map_opt_map _ _ _ rpn_of_op).
  - rewrite con_of_raw. cbn [abs_of clause_raw snd fst]. change (1 =? 1)%Z with true. cbn [andb].
    rewrite map_map. rewrite (map_ext _ id) by reflexivity. rewrite map_id.
    assert (forallb (fun t => (snd t =? 1)%Z) (map (fun l : lit => (l, 1%Z)) c) = true) as -> by (apply forallb_forall; intros [l k] H; apply in_map_iff in H; destruct H as [x [E _]]; now injection E as _ <-).
    reflexivity.
  - rewrite con_of_raw. rewrite map_opt_map; [reflexivity|]. intros [v b]. unfold wit_of. cbn [fst snd]. rewrite var_of_name. now destruct b.
  - now rewrite map_opt_map.
Qed.

Definition pos_ids (p : pstate) : Prop := ps_get p 0 = None.
Lemma rpn_good p ops : pos_ids p -> forall st st', rpn_run p ops st = Some st' -> Forall good_op (map rpn_op ops).
Proof.
  intros Hp. induction ops as [|o ops IH]; intros st st' H; [constructor|]. cbn [rpn_run] in H. destruct (rpn_step p o st) as [s1|] eqn:E; [|discriminate].
  cbn [map]. constructor; [|exact (IH _ _ H)]. destruct o; cbn [rpn_op good_op good_id]; try exact Logic.I.
  - cbn [rpn_step] in E. destruct i; [|lia]. unfold pos_ids in Hp. rewrite Hp in E. discriminate.
  - apply lit_ax_good.
  - cbn [rpn_step] in E. destruct st; [discriminate|]. destruct (Nat.eqb_spec k 0); [discriminate|lia].
  - cbn [rpn_step] in E. destruct st; [discriminate|]. destruct (Nat.eqb_spec k 0); [discriminate|lia].
Qed.
Lemma step_good opt p s p' : pos_ids p -> ps_step p s p' -> good_call opt (ps_next p) (step_call s).
Proof.
  intros Hp H. destruct H as [p ops c H|p c i d H _|p c w _ _ _|p is Hn H]; cbn [step_call good_call].
  - unfold pol_result in H. destruct (rpn_run p ops []) as [st|] eqn:E; [|discriminate]. split; [|now apply (rpn_good p ops Hp [] st)].
    destruct ops; [|discriminate]. cbn in E. injection E as <-. discriminate.
  - split; [apply raw_con_good|]. constructor; [|constructor]. cbn. destruct i; [|lia]. unfold pos_ids in Hp. congruence.
  - split; [apply raw_con_good|]. split; [|constructor]. apply Forall_forall. intros [v x] Hin. apply in_map_iff in Hin. destruct Hin as [[u b] [E _]].
    injection E as <- <-. split; [apply var_name_valid|]. now destruct b.
  - split; [|constructor]. split; [destruct is; [contradiction|discriminate]|]. apply Forall_forall. intros i Hi. apply in_map_iff in Hi.
    destruct Hi as [j [<- Hj]]. destruct (H j Hj). cbn. lia.
Qed.
Lemma step_uses p s p' : ps_step p s p' -> ps_next p' = ps_next p + uses (step_call s).
Proof. destruct 1; cbn; lia. Qed.
Lemma find_filter_none {A} (f g : A -> bool) l : find f l = None -> find f (filter g l) = None.
Proof.
  intros H. induction l as [|x l IH]; [reflexivity|]. cbn [find filter] in *. destruct (f x) eqn:E; [discriminate|]. destruct (g x); [|now apply IH].
  cbn [find]. rewrite E. now apply IH.
Qed.
Lemma step_pos p s p' : 0 < ps_next p -> pos_ids p -> ps_step p s p' -> pos_ids p'.
Proof.
  unfold pos_ids, ps_get. intros Hn Hp H.
  assert (Add : forall p c, 0 < ps_next p -> match find (fun ic => (fst ic =? 0)%nat) (ps_db p) with Some ic => Some (snd ic) | None => None end = None ->
                match find (fun ic => (fst ic =? 0)%nat) (ps_db (ps_add p c)) with Some ic => Some (snd ic) | None => None end = None).
  { intros q c Hq E. cbn [ps_add ps_db find fst]. destruct (Nat.eqb_spec (ps_next q) 0); [lia|exact E]. }
  destruct H; [now apply Add|now apply Add|now apply Add|]. cbn [ps_del ps_db]. rewrite find_filter_none; [reflexivity|].
  destruct (find _ _); [discriminate|reflexivity].
Qed.
Lemma run_good opt p l p' : 0 < ps_next p -> pos_ids p -> ps_run p l p' -> good_calls opt (ps_next p) (map step_call l) /\
  ps_next p' = ps_next p + list_sum (map uses (map step_call l)).
Proof.
  intros Hn Hp H. induction H as [p|p s p1 l p2 S R IH]; [split; [exact Logic.I|cbn; lia]|].
  pose proof (step_uses p s p1 S) as U. destruct IH as [IH1 IH2]; [lia|exact (step_pos p s p1 Hn Hp S)|]. cbn [map good_calls]. split.
  - split; [now apply (step_good opt p s p1)|]. now rewrite <- U.
  - change (list_sum (uses (step_call s) :: map uses (map step_call l))) with (uses (step_call s) + list_sum (map uses (map step_call l))). lia.
Qed.
Lemma good_calls_app opt cs ds : forall next, good_calls opt next cs -> good_calls opt (next + list_sum (map uses cs)) ds -> good_calls opt next (cs ++ ds).
Proof.
  induction cs as [|c cs IH]; intros next H1 H2; cbn [good_calls app map] in *.
  - cbn in H2. now rewrite Nat.add_0_r in H2.
  - destruct H1 as [Hc H1]. split; [exact Hc|]. apply IH; [exact H1|].
    change (list_sum (uses c :: map uses cs)) with (uses c + list_sum (map uses cs)) in H2. now rewrite <- Nat.add_assoc.
Qed.
Lemma written_split cs ds : forall next rs ls last, written next (cs ++ ds) rs ls last ->
  exists rs1 rs2 ls1 ls2 mid, rs = rs1 ++ rs2 /\ ls = ls1 ++ ls2 /\ written next cs rs1 ls1 mid /\ written mid ds rs2 ls2 last.
Proof.
  induction cs as [|c cs IH]; intros next rs ls last H; cbn [app] in H.
  - exists [], rs, [], ls, next. repeat split; [constructor|exact H].
  - inversion H as [|? ? l1 n1 ids r ? rs0 l2 ? A N I W E1 E2 E3 E4]; subst. destruct (IH _ _ _ _ W) as [rs1 [rs2 [ls1 [ls2 [mid [-> [-> [W1 W2]]]]]]]].
    exists (r :: rs1), rs2, (l1 ++ ls1), ls2, mid. split; [reflexivity|]. split; [now rewrite app_assoc|]. split; [exact (W_cons _ _ _ _ _ _ _ _ _ _ A N I W1)|exact W2].
Qed.
Lemma written_steps l : forall next rs ls last, written next (map step_call l) rs ls last -> map_opt step_of ls = Some l.
Proof.
  induction l as [|s l IH]; intros next rs ls last H; cbn [map] in H.
  - inversion H; subst. reflexivity.
  - inversion H as [|? ? l1 n1 ids r ? rs0 l2 ? A N I W E1 E2 E3 E4]; subst. exact (map_opt_app step_of l1 l2 [s] l (step_back s l1 next A) (IH _ _ _ _ W)).
Qed.
(** the identifiers the model uses up are those of [uses] *)
Lemma calls_next short cs : forall p p' rs, 0 < pr_next p -> good_calls (pr_opt p) (pr_next p) cs -> calls short p cs = Some (p', rs) ->
  pr_next p' = pr_next p + list_sum (map uses cs).
Proof.
  induction cs as [|c cs IH]; intros p p' rs Hp H E; cbn [calls good_calls] in *.
  - injection E as <- <-. cbn. lia.
  - destruct H as [Hc Hcs]. destruct (call_ok short p c Hp Hc) as [t [ls [r [ids [Ec _]]]]]. rewrite Ec in E.
    destruct (calls short (after p t (uses c)) cs) as [[p2 rs2]|] eqn:E2; [|discriminate]. injection E as <- <-.
    rewrite (IH (after p t (uses c)) p2 rs2 ltac:(cbn [after pr_next]; lia) Hcs E2). cbn [after pr_next map]. change (list_sum (uses c :: map uses cs)) with (uses c + list_sum (map uses cs)). lia.
Qed.

Theorem steps_ok short n opt g0 c0 cs p l p' : good_calls opt (n + 1) cs -> pos_ids p -> ps_next p = n + 1 + list_sum (map uses cs) -> ps_run p l p' ->
  exists P rs ls0 ls, calls short (proof_new n opt g0 c0) (cs ++ map step_call l) = Some (P, rs) /\
    written (n + 1) (cs ++ map step_call l) rs (ls0 ++ ls) (pr_next P) /\ map_opt step_of ls = Some l /\ pr_next P = ps_next p' /\
    forall g c, good_conclusion c -> read_text (conclude P g c) = Some (LHeader :: LRule (RCount n) false :: (ls0 ++ ls) ++ [LOutput g; LConclusion c; LEndProof]).
Proof.
  intros Hcs Hp Hn R. destruct (run_good opt p l p') as [G N]; [lia|exact Hp|exact R|]. rewrite Hn in G, N.
  pose proof (good_calls_app opt cs (map step_call l) (n + 1) Hcs G) as GA.
  destruct (file_ok short n opt g0 c0 _ GA) as [P [rs [ls [E [W [K _]]]]]].
  destruct (written_split cs (map step_call l) _ _ _ _ W) as [rs1 [rs2 [ls1 [ls2 [mid [-> [-> [W1 W2]]]]]]]].
  exists P, (rs1 ++ rs2), ls1, ls2. split; [exact E|]. split; [exact W|]. split; [exact (written_steps l _ _ _ _ W2)|]. split; [|exact K].
  rewrite (calls_next short _ (proof_new n opt g0 c0) P _ ltac:(cbn [proof_new sayln say pr_next]; lia) GA E). rewrite map_app, list_sum_app. cbn [proof_new sayln say pr_next]. lia.
Qed.

(** ** Proof-only variables *)
Lemma proof_vars_eq k : forall p, fst (proof_vars k p) = map (fun i => T "pv" ++ print_nat i) (seq (pr_pv p) k).
Proof.
  induction k as [|k IH]; intros p; [reflexivity|]. cbn [proof_vars new_proof_var seq map].
  specialize (IH (mkProof (pr_next p) (pr_pv p + 1) (pr_opt p) (pr_first p) (pr_default p) (pr_out p))).
  destruct (proof_vars k _) as [vs p2]. cbn [fst] in *. rewrite IH. cbn [pr_pv]. now rewrite Nat.add_1_r.
Qed.
Lemma pv_name i : valid_name (T "pv" ++ print_nat i) = true /\ var_of (T "pv" ++ print_nat i) = None.
Proof.
  split; [|reflexivity]. change (T "pv" ++ print_nat i) with ("p"%char :: "v"%char :: print_nat i). unfold valid_name. cbn [forallb].
  change (is_letter "p") with true. change (name_char "v") with true. cbn [andb]. apply forallb_forall. intros c Hc. unfold name_char.
  pose proof (print_N_digits (N.of_nat i)) as H. rewrite forallb_forall in H. rewrite (H c Hc). now rewrite orb_true_r.
Qed.
Theorem proof_vars_ok k p : NoDup (fst (proof_vars k p)) /\ List.length (fst (proof_vars k p)) = k /\
  forall v, In v (fst (proof_vars k p)) -> valid_name v = true /\ forall x, v <> var_name x.
Proof.
  rewrite proof_vars_eq. split; [|split].
  - apply FinFun.Injective_map_NoDup; [|apply seq_NoDup]. intros i j E. change (T "pv" ++ print_nat i) with ("p"%char :: "v"%char :: print_nat i) in E.
    change (T "pv" ++ print_nat j) with ("p"%char :: "v"%char :: print_nat j) in E. injection E as E. apply (f_equal read_num) in E.
    rewrite !read_num_print in E. now injection E.
  - now rewrite map_length, seq_length.
  - intros v Hv. apply in_map_iff in Hv. destruct Hv as [i [<- _]]. split; [apply pv_name|]. intros x E. apply (f_equal var_of) in E.
    rewrite var_of_name in E. destruct (pv_name i) as [_ N]. rewrite N in E. discriminate.
Qed.
