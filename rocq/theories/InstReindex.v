(** * Proofs about re-indexing instances *)

From Coq Require Import List Bool NArith ZArith Lia Arith Permutation.
From Verif Require Import Spec Types Constraints ConstrSpec Base NodeDb VarSpec VarMan VarManProofs Inst InstSpec InstProofs.
Import ListNotations.

(** ** Renaming *)
Lemma rename_lit_true a r l : lit_true a (rename_lit r l) = lit_true (fun v => a (r v)) l.
Proof. reflexivity. Qed.
Lemma rename_clause_sat a r c : sat_clause a (map (rename_lit r) c) = sat_clause (fun v => a (r v)) c.
Proof. unfold sat_clause. induction c as [|l c IH]; cbn; [reflexivity|]. now rewrite IH. Qed.
Lemma rename_cnf_sat a r f : sat_cnf a (map (map (rename_lit r)) f) = sat_cnf (fun v => a (r v)) f.
Proof. unfold sat_cnf. induction f as [|c f IH]; cbn; [reflexivity|]. now rewrite rename_clause_sat, IH. Qed.
Lemma rename_count a r ls : count_true a (map (rename_lit r) ls) = count_true (fun v => a (r v)) ls.
Proof. induction ls as [|l ls IH]; cbn; [reflexivity|]. now rewrite IH. Qed.
Lemma rename_wsum a r ls : wsum a (map (fun lw => (rename_lit r (fst lw), snd lw)) ls) = wsum (fun v => a (r v)) ls.
Proof. induction ls as [|[l w] ls IH]; cbn; [reflexivity|]. now rewrite IH. Qed.

Lemma rename_holds a r f cards pbs :
  holds a (map (map (rename_lit r)) f) (map (rename_card r) cards) (map (rename_pb r) pbs) <-> holds (fun v => a (r v)) f cards pbs.
Proof.
  unfold holds. rewrite rename_cnf_sat. setoid_rewrite in_map_iff.
  assert (Hc : forall c, card_holds a (rename_card r c) <-> card_holds (fun v => a (r v)) c).
  { intros c. unfold card_holds. cbn. now rewrite rename_count. }
  assert (Hp : forall c, pb_holds a (rename_pb r c) <-> pb_holds (fun v => a (r v)) c).
  { intros c. unfold pb_holds. cbn. now rewrite rename_wsum. }
  split; intros (H1 & H2 & H3); (split; [exact H1|]).
  - split; [intros c Hi; apply Hc, H2; eauto|intros c Hi; apply Hp, H3; eauto].
  - split; [intros ? (c & <- & Hi); apply Hc; auto|intros ? (c & <- & Hi); apply Hp; auto].
Qed.

(** ** Re-indexing is a renaming *)
Section Re.
Variables t f : bool.
Notation rh := (history reindexing re_reindex N.eqb t false f).

(** what a re-indexing step does: it extends the answers, and relates input and output *)
Definition re_rel {A} (R : list (N * N) -> A -> A -> Prop) (g : A -> reman -> option (A * reman)) : Prop :=
  forall x s y s' L U, rh L U s -> g x s = Some (y, s') -> exists L' U', rh (L' ++ L) U' s' /\ R (L' ++ L) x y.
Definition mono {A} (R : list (N * N) -> A -> A -> Prop) : Prop := forall L L' x y, R L x y -> R (L' ++ L) x y.

Lemma re_list_rel {A} R (g : A -> reman -> option (A * reman)) : mono R -> re_rel R g -> re_rel (fun L => Forall2 (R L)) (re_list g).
Proof.
  intros Hm Hr xs. induction xs as [|x xs IH]; intros s ys s' L U H E; cbn in E.
  - injection E as <- <-. exists [], U. split; [exact H|constructor].
  - destruct (g x s) as [[y s1]|] eqn:E1; [|discriminate]. cbn in E. destruct (re_list g xs s1) as [[ys1 s2]|] eqn:E2; [|discriminate]. cbn in E. injection E as <- <-.
    destruct (Hr _ _ _ _ _ _ H E1) as (L1 & U1 & H1 & R1). destruct (IH _ _ _ _ _ H1 E2) as (L2 & U2 & H2 & R2).
    exists (L2 ++ L1), U2. rewrite <- app_assoc. split; [exact H2|]. constructor; [now apply Hm|exact R2].
Qed.
Lemma mono_list {A} (R : list (N * N) -> A -> A -> Prop) : mono R -> mono (fun L => Forall2 (R L)).
Proof. intros H L L' xs ys. induction 1; constructor; auto. Qed.

Definition lit_rel (L : list (N * N)) (l l' : lit) : Prop := In (lvar l, lvar l') L /\ lneg l' = lneg l.
Lemma lit_mono : mono lit_rel.
Proof. intros L L' x y [H1 H2]. split; [apply in_or_app; now right|exact H2]. Qed.
Lemma re_lit_rel : re_rel lit_rel (re_lit re_reindex).
Proof.
  intros l s l' s' L U H E. unfold re_lit in E. destruct (re_reindex (lvar l) s) as [[v s1]|] eqn:E1; [|discriminate]. cbn in E. injection E as <- <-.
  exists [(lvar l, v)], (fun u => U u \/ u = v). split; [exact (h_look _ _ _ _ _ _ _ _ _ _ _ _ H E1)|]. split; [now left|reflexivity].
Qed.
Definition card_rel L (c c' : card) : Prop := c_kind c' = c_kind c /\ c_b c' = c_b c /\ Forall2 (lit_rel L) (c_lits c) (c_lits c').
Lemma card_mono : mono card_rel.
Proof. intros L L' x y (H1 & H2 & H3). split; [auto|]. split; [auto|]. now apply (mono_list _ lit_mono). Qed.
Lemma re_card_rel : re_rel card_rel (re_card re_reindex).
Proof.
  intros c s c' s' L U H E. unfold re_card in E. destruct (re_list (re_lit re_reindex) (c_lits c) s) as [[ls s1]|] eqn:E1; [|discriminate]. cbn in E. injection E as <- <-.
  destruct (re_list_rel _ _ lit_mono re_lit_rel _ _ _ _ _ _ H E1) as (L1 & U1 & H1 & R1). exists L1, U1. split; [exact H1|]. repeat split. exact R1.
Qed.
Definition wlit_rel L (x x' : lit * nat) : Prop := lit_rel L (fst x) (fst x') /\ snd x' = snd x.
Lemma wlit_mono : mono wlit_rel.
Proof. intros L L' x y [H1 H2]. split; [now apply lit_mono|exact H2]. Qed.
Lemma re_wlit_rel : re_rel wlit_rel (re_wlit re_reindex).
Proof.
  intros x s x' s' L U H E. unfold re_wlit in E. destruct (re_lit re_reindex (fst x) s) as [[l s1]|] eqn:E1; [|discriminate]. cbn in E. injection E as <- <-.
  destruct (re_lit_rel _ _ _ _ _ _ H E1) as (L1 & U1 & H1 & R1). exists L1, U1. split; [exact H1|]. split; [exact R1|reflexivity].
Qed.
Definition pb_rel L (p p' : pb) : Prop := p_kind p' = p_kind p /\ p_b p' = p_b p /\ p_wsum p' = p_wsum p /\ Forall2 (wlit_rel L) (p_lits p) (p_lits p').
Lemma pb_mono : mono pb_rel.
Proof. intros L L' x y (H1 & H2 & H3 & H4). repeat (split; [auto|]). now apply (mono_list _ wlit_mono). Qed.
Lemma re_pb_rel : re_rel pb_rel (re_pb re_reindex).
Proof.
  intros c s c' s' L U H E. unfold re_pb in E. destruct (re_list (re_wlit re_reindex) (p_lits c) s) as [[ls s1]|] eqn:E1; [|discriminate]. cbn in E. injection E as <- <-.
  destruct (re_list_rel _ _ wlit_mono re_wlit_rel _ _ _ _ _ _ H E1) as (L1 & U1 & H1 & R1). exists L1, U1. split; [exact H1|]. repeat split. exact R1.
Qed.

(** answers as a function *)
Definition answer (s : reman) (v : N) : N := match kget N.eqb (re_in s) v with Some u => u | None => v end.
Lemma answer_in L U s v u : rh L U s -> In (v, u) L -> answer s v = u.
Proof. intros H Hi. apply rhist_ohist in H. apply (hist_oinv N.eqb N.eqb_eq) in H as [_ _ _ I4]. apply I4 in Hi. unfold answer. cbn in Hi. now rewrite Hi. Qed.

Lemma forall2_map {A B} (R : A -> B -> Prop) (g : A -> B) xs ys : Forall2 R xs ys -> (forall x y, In x xs -> R x y -> y = g x) -> ys = map g xs.
Proof. induction 1 as [|x y xs ys Hr _ IH]; intros H; cbn; [reflexivity|]. f_equal; [apply H; [now left|exact Hr]|]. apply IH. intros; apply H; [now right|auto]. Qed.

Lemma lit_rel_rename L U s l l' : rh L U s -> lit_rel L l l' -> l' = rename_lit (answer s) l.
Proof. intros H [H1 H2]. unfold rename_lit. rewrite (answer_in _ _ _ _ _ H H1), <- H2. destruct l'; reflexivity. Qed.

Lemma inst_reindex_spec i s L U g cards pbs s' : rh L U s -> inst_reindex re_reindex i s = Some (g, cards, pbs, s') ->
  exists L' U', rh (L' ++ L) U' s' /\ g = map (map (rename_lit (answer s'))) (i_cnf i) /\ cards = map (rename_card (answer s')) (i_cards i) /\
    pbs = map (rename_pb (answer s')) (i_pbs i) /\ forall v, inst_vars i v -> In (v, answer s' v) (L' ++ L).
Proof.
  intros H E. unfold inst_reindex in E.
  destruct (re_list (re_list (re_lit re_reindex)) (i_cnf i) s) as [[g0 s1]|] eqn:E1; [|discriminate]. cbn [obind] in E.
  destruct (re_list (re_card re_reindex) (i_cards i) s1) as [[cards0 s2]|] eqn:E2; [|discriminate]. cbn [obind] in E.
  destruct (re_list (re_pb re_reindex) (i_pbs i) s2) as [[pbs0 s3]|] eqn:E3; [|discriminate]. cbn [obind] in E. injection E as <- <- <- <-.
  destruct (re_list_rel _ _ (mono_list _ lit_mono) (re_list_rel _ _ lit_mono re_lit_rel) _ _ _ _ _ _ H E1) as (L1 & U1 & H1 & R1).
  destruct (re_list_rel _ _ card_mono re_card_rel _ _ _ _ _ _ H1 E2) as (L2 & U2 & H2 & R2).
  destruct (re_list_rel _ _ pb_mono re_pb_rel _ _ _ _ _ _ H2 E3) as (L3 & U3 & H3 & R3).
  apply (mono_list _ (mono_list _ lit_mono) _ L2) in R1. apply (mono_list _ (mono_list _ lit_mono) _ L3) in R1. apply (mono_list _ card_mono _ L3) in R2.
  exists (L3 ++ L2 ++ L1), U3. rewrite <- !app_assoc. split; [exact H3|].
  assert (Hl : forall ls ls', Forall2 (lit_rel (L3 ++ L2 ++ L1 ++ L)) ls ls' -> ls' = map (rename_lit (answer s3)) ls).
  { intros ls ls' F. apply (forall2_map _ _ _ _ F). intros l l' _. now apply (lit_rel_rename _ _ _ _ _ H3). }
  assert (Hin : forall ls ls', Forall2 (lit_rel (L3 ++ L2 ++ L1 ++ L)) ls ls' -> forall l, In l ls -> In (lvar l, answer s3 (lvar l)) (L3 ++ L2 ++ L1 ++ L)).
  { intros ls ls' F. induction F as [|l l' ls ls' [Hr _] _ IH]; [intros ? []|]. intros x [<-|Hx]; [|auto]. now rewrite (answer_in _ _ _ _ _ H3 Hr). }
  assert (F2in : forall A B (R : A -> B -> Prop) xs ys, Forall2 R xs ys -> forall x, In x xs -> exists y, R x y).
  { intros A B R xs ys F. induction F; [intros ? []|]. intros z [<-|Hz]; eauto. }
  split; [|split; [|split]].
  - apply (forall2_map _ _ _ _ R1). intros c c' _. apply Hl.
  - apply (forall2_map _ _ _ _ R2). intros [k ls b] [k' ls' b'] _ (K1 & K2 & K3). cbn in *. subst. unfold rename_card. cbn. f_equal. now apply Hl.
  - apply (forall2_map _ _ _ _ R3). intros [k ls ws b] [k' ls' ws' b'] _ (K1 & K2 & K3 & K4). cbn in *. subst. unfold rename_pb. cbn. f_equal.
    apply (forall2_map _ _ _ _ K4). intros [l w] [l' w'] _ [Hx Hw]. cbn in *. subst w'. f_equal. now apply (lit_rel_rename _ _ _ _ _ H3).
  - intros v (l & Hl0 & <-). apply inst_lits_inv in Hl0 as [(c & Hc & Hl0)|[(c & Hc & Hl0)|(p & w & Hp & Hl0)]].
    + destruct (F2in _ _ _ _ _ R1 c Hc) as (c' & F). now apply (Hin _ _ F).
    + destruct (F2in _ _ _ _ _ R2 c Hc) as (c' & _ & _ & F). now apply (Hin _ _ F).
    + destruct (F2in _ _ _ _ _ R3 p Hp) as (p' & _ & _ & _ & F). destruct (F2in _ _ _ _ _ F _ Hl0) as ([l' w'] & [Hr _] & _). cbn in Hr.
      now rewrite (answer_in _ _ _ _ _ H3 Hr).
Qed.

Lemma inst_reindex_inj i s L U g cards pbs s' v v' : rh L U s -> inst_reindex re_reindex i s = Some (g, cards, pbs, s') ->
  inst_vars i v -> inst_vars i v' -> answer s' v = answer s' v' -> v = v'.
Proof.
  intros H E Hv Hv' Ea. destruct (inst_reindex_spec _ _ _ _ _ _ _ _ H E) as (L' & U' & H' & _ & _ & _ & Hin).
  apply rhist_ohist in H'. apply (hist_inj N.eqb N.eqb_eq _ _ _ _ _ H' v _ v' _ (Hin _ Hv) (Hin _ Hv')). exact Ea.
Qed.
End Re.

Lemma inst_reindex_reverse i s L U g cards pbs s' : history reindexing re_reindex N.eqb false false false L U s ->
  inst_reindex re_reindex i s = Some (g, cards, pbs, s') -> forall v, inst_vars i v -> re_reverse (answer s' v) s' = Some v.
Proof.
  intros H E v Hv. destruct (inst_reindex_spec _ _ _ _ _ _ _ _ _ _ H E) as (L' & U' & H' & _ & _ & _ & Hin). now apply (rhist_out _ _ _ H'), Hin.
Qed.

(** models of the renamed instance are the models of the original instance, renamed *)
Lemma rename_inj_models i (r : N -> N) : (forall v v', inst_vars i v -> inst_vars i v' -> r v = r v' -> v = v') ->
  forall a : asg, exists a' : asg, (forall v, inst_vars i v -> a' (r v) = a v).
Proof.
  intros Hr a. set (vs := map lvar (inst_lits i)). exists (fun u => match find (fun v => (r v =? u)%N) vs with Some v => a v | None => false end).
  intros v (l & Hl & <-). destruct (find _ vs) as [v'|] eqn:E.
  - apply find_some in E as [E1 E2]. apply N.eqb_eq in E2. f_equal. apply Hr; [| |exact E2].
    + unfold vs in E1. apply in_map_iff in E1 as (x & <- & Hx). exists x. auto.
    + exists l. auto.
  - pose proof (find_none _ _ E (lvar l) ltac:(apply in_map; exact Hl)) as X. cbv beta in X. rewrite N.eqb_refl in X. discriminate.
Qed.

Lemma holds_agree a a' i : (forall v, inst_vars i v -> a v = a' v) -> inst_holds a i -> inst_holds a' i.
Proof.
  intros H (H1 & H2 & H3). split; [|split].
  - rewrite <- H1. apply sat_cnf_agree. intros c l Hc Hl. symmetry. apply H. exists l. split; [now apply (inst_lits_cnf i c)|reflexivity].
  - intros c Hc. apply (card_holds_agree a); [|auto]. intros l Hl. apply H. exists l. split; [now apply (inst_lits_card i c)|reflexivity].
  - intros c Hc. apply (pb_holds_agree a); [|auto]. intros l Hl. apply in_map_iff in Hl as ([l' w] & <- & Hl). apply H. exists l'. split; [now apply (inst_lits_pb i c l' w)|reflexivity].
Qed.

(** ** Ordered re-indexing *)
Lemma set_insert_in v s u : In u (set_insert v s) <-> u = v \/ In u s.
Proof.
  induction s as [|w s IH]; cbn; [intuition|]. destruct (N.ltb_spec v w); [cbn; intuition|]. destruct (N.eqb_spec v w) as [->|]; cbn; [intuition|]. rewrite IH. tauto.
Qed.
Lemma set_insert_sorted v s : sorted_by N.lt s -> sorted_by N.lt (set_insert v s).
Proof.
  induction 1 as [|w s Hw Hs IH]; cbn; [constructor; [intros ? []|constructor]|]. destruct (N.ltb_spec v w).
  - constructor; [|now constructor]. intros u [<-|Hu]; [auto|]. specialize (Hw u Hu). lia.
  - destruct (N.eqb_spec v w) as [->|]; [now constructor|]. constructor; [|exact IH]. intros u Hu. apply set_insert_in in Hu as [->|Hu]; [lia|auto].
Qed.
Lemma var_set_spec i : sorted_by N.lt (var_set i) /\ forall v, In v (var_set i) <-> inst_vars i v.
Proof.
  unfold var_set, inst_vars, inst_lits. generalize (concat (i_cnf i) ++ concat (map c_lits (i_cards i)) ++ map fst (concat (map p_lits (i_pbs i)))) as ls. intros ls.
  assert (H : forall s, sorted_by N.lt s -> sorted_by N.lt (fold_left (fun s l => set_insert (lvar l) s) ls s) /\
    forall v, In v (fold_left (fun s l => set_insert (lvar l) s) ls s) <-> In v s \/ exists l, In l ls /\ lvar l = v).
  { induction ls as [|l ls IH]; intros s Hs; cbn; [split; [exact Hs|]; intros v; split; [auto|intros [H|(l & [] & _)]; exact H]|].
    destruct (IH (set_insert (lvar l) s) (set_insert_sorted _ _ Hs)) as [I1 I2]. split; [exact I1|]. intros v. rewrite I2, set_insert_in. split.
    - intros [[->|H]|(l' & Hl & E)]; [right; exists l; auto|auto|right; exists l'; auto].
    - intros [H|(l' & [<-|Hl] & E)]; [auto|auto|right; eauto]. }
  destruct (H [] (sorted_nil _)) as [H1 H2]. split; [exact H1|]. intros v. rewrite H2. cbn. tauto.
Qed.

(** re-indexing a sorted list of new variables hands out consecutive variables *)
Lemma ordered_fold vs : sorted_by N.lt vs -> forall s s', (forall v, In v vs -> kget N.eqb (re_in s) v = None) -> NoDup (map fst (re_in s)) ->
  foldM (fun s v => do r <- re_reindex v s; Some (snd r)) vs s = Some s' ->
  re_next s' = (re_next s + N.of_nat (length vs))%N /\ NoDup (map fst (re_in s')) /\
  (forall j v, nth_error vs j = Some v -> kget N.eqb (re_in s') v = Some (re_next s + N.of_nat j)%N) /\
  (forall v u, kget N.eqb (re_in s) v = Some u -> kget N.eqb (re_in s') v = Some u).
Proof.
  induction 1 as [|v vs Hv Hs IH]; intros s s' Hn Hd E; cbn in E.
  - injection E as <-. cbn. split; [lia|]. split; [exact Hd|]. split; [intros [|j] v; discriminate|auto].
  - unfold re_reindex in E at 1. rewrite (Hn v (or_introl eq_refl)) in E. unfold next_new in E. destruct (var_succ (re_next s)) as [n|] eqn:Es; [|discriminate].
    apply var_succ_some in Es. cbn [obind snd] in E.
    assert (Hg : forall k, kget N.eqb (kinsert N.eqb (re_in s) (v, re_next s)) k = if (v =? k)%N then Some (re_next s) else kget N.eqb (re_in s) k).
    { intros k. now apply (kinsert_get N.eqb N.eqb_eq). }
    match type of E with foldM _ _ ?st = _ => destruct (IH st s') as (I1 & I2 & I3 & I4) end; [| |exact E|].
    + intros u Hu. cbn [re_in]. rewrite Hg. specialize (Hv u Hu). destruct (N.eqb_spec v u); [lia|]. apply Hn. now right.
    + cbn [re_in]. now apply (kinsert_dist N.eqb N.eqb_eq).
    + cbn [re_in re_next] in *. subst n. split; [cbn [length]; lia|]. split; [exact I2|]. split.
      * intros [|j] u; cbn; intros Hu.
        -- injection Hu as <-. rewrite (I4 v (re_next s)); [f_equal; lia|]. now rewrite Hg, N.eqb_refl.
        -- rewrite (I3 _ _ Hu). f_equal. lia.
      * intros u w Hu. apply I4. rewrite Hg. destruct (N.eqb_spec v u) as [->|]; [|exact Hu]. rewrite (Hn u (or_introl eq_refl)) in Hu. discriminate.
Qed.

Lemma ordered_hist t f vs : forall L U s s', history reindexing re_reindex N.eqb t false f L U s ->
  foldM (fun s v => do r <- re_reindex v s; Some (snd r)) vs s = Some s' -> exists L' U', history reindexing re_reindex N.eqb t false f L' U' s'.
Proof.
  induction vs as [|v vs IH]; intros L U s s' H E; cbn in E; [injection E as <-; eauto|].
  destruct (re_reindex v s) as [[u s1]|] eqn:E1; [|discriminate]. cbn in E. exact (IH _ _ _ _ (h_look _ _ _ _ _ _ _ _ _ _ _ _ H E1) E).
Qed.

(** all variables known: re-indexing does not change the state *)
Lemma re_known s l : kget N.eqb (re_in s) (lvar l) <> None -> re_lit re_reindex l s = Some (rename_lit (answer s) l, s).
Proof. intros H. unfold re_lit, re_reindex, rename_lit, answer. destruct (kget N.eqb (re_in s) (lvar l)); [reflexivity|congruence]. Qed.
Lemma re_list_known {A} (g : A -> reman -> option (A * reman)) r s xs : (forall x, In x xs -> g x s = Some (r x, s)) -> re_list g xs s = Some (map r xs, s).
Proof. induction xs as [|x xs IH]; intros H; cbn; [reflexivity|]. rewrite (H x) by now left. cbn. rewrite IH; [reflexivity|]. intros; apply H; now right. Qed.

Lemma inst_reindex_known i s : (forall v, inst_vars i v -> kget N.eqb (re_in s) v <> None) ->
  inst_reindex re_reindex i s = Some (map (map (rename_lit (answer s))) (i_cnf i), map (rename_card (answer s)) (i_cards i), map (rename_pb (answer s)) (i_pbs i), s).
Proof.
  intros H. assert (Hl : forall l, In l (inst_lits i) -> re_lit re_reindex l s = Some (rename_lit (answer s) l, s)) by (intros l Hl; apply re_known, H; exists l; auto).
  unfold inst_reindex. rewrite (re_list_known _ (map (rename_lit (answer s)))).
  2: { intros c Hc. apply re_list_known. intros l Hi. apply Hl. now apply (inst_lits_cnf i c). }
  cbn [obind]. rewrite (re_list_known _ (rename_card (answer s))).
  2: { intros c Hc. unfold re_card. rewrite (re_list_known _ (rename_lit (answer s))); [reflexivity|]. intros l Hi. apply Hl. now apply (inst_lits_card i c). }
  cbn [obind]. rewrite (re_list_known _ (rename_pb (answer s))); [reflexivity|].
  intros c Hc. unfold re_pb. rewrite (re_list_known _ (fun lw => (rename_lit (answer s) (fst lw), snd lw))); [reflexivity|].
  intros [l w] Hi. unfold re_wlit. cbn [fst snd]. rewrite Hl by (now apply (inst_lits_pb i c l w)). reflexivity.
Qed.

Lemma sorted_nth vs : sorted_by N.lt vs -> forall j j' v v', nth_error vs j = Some v -> nth_error vs j' = Some v' -> (v < v')%N -> (j < j')%nat.
Proof.
  induction 1 as [|w vs Hw Hs IH]; intros [|j] [|j'] v v'; cbn; try discriminate.
  - intros [= ->] [= ->]. lia.
  - intros [= ->] Hv. lia.
  - intros Hv [= ->] Hl. apply nth_error_In in Hv. specialize (Hw v Hv). lia.
  - intros H1 H2 Hl. specialize (IH _ _ _ _ H1 H2 Hl). lia.
Qed.

Lemma inst_reindex_ordered_spec i n g cards pbs s' : inst_reindex_ordered re_reindex i (re_start n) = Some (g, cards, pbs, s') ->
  let r := answer s' in
  g = map (map (rename_lit r)) (i_cnf i) /\ cards = map (rename_card r) (i_cards i) /\ pbs = map (rename_pb r) (i_pbs i) /\
  (forall v v', inst_vars i v -> inst_vars i v' -> (v < v')%N -> (r v < r v')%N) /\
  (forall u, (n <= u < re_next s')%N <-> exists v, inst_vars i v /\ r v = u) /\
  (forall v, inst_vars i v -> re_reverse (r v) s' = Some v).
Proof.
  intros E2 r. unfold inst_reindex_ordered in E2. destruct (foldM _ (var_set i) (re_start n)) as [s1|] eqn:E1; [|discriminate]. cbn [obind] in E2.
  destruct (var_set_spec i) as [Vs Vi]. destruct (ordered_fold (var_set i) Vs (re_start n) s1) as (O1 & O2 & O3 & _); [reflexivity|constructor|exact E1|].
  cbn [re_next re_start] in O1, O3.
  assert (Hk : forall v, inst_vars i v -> exists j, nth_error (var_set i) j = Some v /\ kget N.eqb (re_in s1) v = Some (n + N.of_nat j)%N /\ answer s1 v = (n + N.of_nat j)%N).
  { intros v Hv. apply Vi in Hv. apply In_nth_error in Hv as (j & Hj). exists j. split; [exact Hj|]. pose proof (O3 _ _ Hj) as Hg. split; [exact Hg|]. unfold answer. now rewrite Hg. }
  rewrite inst_reindex_known in E2 by (intros v Hv; destruct (Hk v Hv) as (j & _ & Hg & _); congruence).
  injection E2 as <- <- <- <-. subst r. repeat (split; [reflexivity|]). split; [|split].
  - intros v v' Hv Hv' Hl. destruct (Hk v Hv) as (j & Hj & _ & ->), (Hk v' Hv') as (j' & Hj' & _ & ->). pose proof (sorted_nth _ Vs _ _ _ _ Hj Hj' Hl). lia.
  - intros u. rewrite O1. split.
    + intros Hu. destruct (nth_error (var_set i) (N.to_nat (u - n))) as [v|] eqn:Ev.
      * exists v. split; [apply Vi; eapply nth_error_In; eauto|]. unfold answer. rewrite (O3 _ _ Ev). lia.
      * apply nth_error_None in Ev. lia.
    + intros (v & Hv & <-). destruct (Hk v Hv) as (j & Hj & _ & ->). assert (j < length (var_set i))%nat by (apply nth_error_Some; congruence). lia.
  - intros v Hv. destruct (ordered_hist false false _ _ _ _ _ (h_start reindexing re_reindex N.eqb false false false n) E1) as (L' & U' & H').
    destruct (Hk v Hv) as (j & Hj & Hg & ->). apply (rhist_out _ _ _ H'). apply rhist_ohist in H'. apply (hist_oinv N.eqb N.eqb_eq) in H' as [_ _ _ I4]. now apply I4.
Qed.

(** ** When re-indexing does not run out of variables *)
Definition re_def {A} (size : A -> nat) (g : A -> reman -> option (A * reman)) : Prop :=
  forall x s, (re_next s + N.of_nat (size x) <= max_var_idx)%N -> exists y s', g x s = Some (y, s') /\ (re_next s' <= re_next s + N.of_nat (size x))%N.
Lemma re_lit_def : re_def (fun _ => 1%nat) (re_lit re_reindex).
Proof.
  intros l s H. unfold re_lit, re_reindex. destruct (kget N.eqb (re_in s) (lvar l)) as [v|]; cbn [obind]; [eexists _, _; split; [reflexivity|lia]|].
  unfold next_new, var_succ. destruct (N.leb_spec (re_next s + 1) max_var_idx); [|lia]. cbn [obind]. eexists _, _. split; [reflexivity|]. cbn [re_next]. lia.
Qed.
Lemma re_list_def {A} size (g : A -> reman -> option (A * reman)) : re_def size g -> re_def (fun xs => list_sum (map size xs)) (re_list g).
Proof.
  intros Hg xs. induction xs as [|x xs IH]; intros s H; cbn [re_list map list_sum fold_right] in *.
  - eexists _, _. split; [reflexivity|lia].
  - change (fold_right Nat.add 0%nat (map size xs)) with (list_sum (map size xs)) in *.
    destruct (Hg x s ltac:(lia)) as (y & s1 & -> & H1). cbn [obind]. destruct (IH s1 ltac:(lia)) as (ys & s2 & -> & H2). cbn [obind]. eexists _, _. split; [reflexivity|lia].
Qed.
Lemma list_sum_ones {A} (xs : list A) : list_sum (map (fun _ => 1%nat) xs) = length xs.
Proof. induction xs; cbn; auto. Qed.
Lemma re_card_def : re_def (fun c => length (c_lits c)) (re_card re_reindex).
Proof.
  intros c s H. unfold re_card. rewrite <- list_sum_ones in H. destruct (re_list_def _ _ re_lit_def (c_lits c) s H) as (ls & s' & E & H').
  rewrite E. cbn [obind]. eexists _, _. split; [reflexivity|]. now rewrite list_sum_ones in H'.
Qed.
Lemma re_wlit_def : re_def (fun _ => 1%nat) (re_wlit re_reindex).
Proof. intros [l w] s H. unfold re_wlit. destruct (re_lit_def l s H) as (y & s1 & E & H1). cbn [fst snd]. rewrite E. cbn [obind]. eauto. Qed.
Lemma re_pb_def : re_def (fun c => length (p_lits c)) (re_pb re_reindex).
Proof.
  intros c s H. unfold re_pb. rewrite <- list_sum_ones in H. destruct (re_list_def _ _ re_wlit_def (p_lits c) s H) as (ls & s' & E & H').
  rewrite E. cbn [obind]. eexists _, _. split; [reflexivity|]. now rewrite list_sum_ones in H'.
Qed.
Lemma concat_sum {A} (xs : list (list A)) : list_sum (map (@length A) xs) = length (concat xs).
Proof. induction xs as [|x xs IH]; [reflexivity|]. cbn [concat map]. rewrite app_length, <- IH. reflexivity. Qed.
Lemma inst_reindex_def i s : (re_next s + N.of_nat (length (inst_lits i)) <= max_var_idx)%N -> exists g cards pbs s', inst_reindex re_reindex i s = Some (g, cards, pbs, s').
Proof.
  intros H. unfold inst_lits in H. rewrite !app_length, map_length, <- !concat_sum, !map_map in H. unfold inst_reindex.
  destruct (re_list_def _ _ (re_list_def _ _ re_lit_def) (i_cnf i) s) as (g & s1 & -> & H1).
  { rewrite (map_ext _ (@length lit)) by (intros; apply list_sum_ones). lia. }
  rewrite (map_ext _ (@length lit)) in H1 by (intros; apply list_sum_ones). cbn [obind].
  destruct (re_list_def _ _ re_card_def (i_cards i) s1 ltac:(lia)) as (cards & s2 & -> & H2). cbn [obind].
  destruct (re_list_def _ _ re_pb_def (i_pbs i) s2 ltac:(lia)) as (pbs & s3 & -> & H3). cbn [obind]. eauto.
Qed.

Lemma reindex_renamed t f i L U s g cards pbs s' : history reindexing re_reindex N.eqb t false f L U s ->
  inst_reindex re_reindex i s = Some (g, cards, pbs, s') ->
  exists r, renamed r i g cards pbs /\ (forall v, inst_vars i v -> re_reindex v s' = Some (r v, s') /\ (r v < m_n_used reindexing s')%N) /\
    forall v u, In (v, u) L -> inst_vars i v -> r v = u.
Proof.
  intros H E. exists (answer s'). destruct (inst_reindex_spec _ _ _ _ _ _ _ _ _ _ H E) as (L' & U' & H' & E1 & E2 & E3 & Hin). split; [|split].
  - split; [exact E1|]. split; [exact E2|]. split; [exact E3|]. intros v v' Hv Hv'. exact (inst_reindex_inj _ _ _ _ _ _ _ _ _ _ v v' H E Hv Hv').
  - intros v Hv. pose proof (rhist_ohist _ _ _ _ _ _ H') as Ho. apply (hist_oinv N.eqb N.eqb_eq) in Ho as [_ _ I3 I4]. specialize (Hin v Hv). apply I4 in Hin.
    split; [|exact (I3 _ _ Hin)]. cbn in Hin. unfold re_reindex. rewrite Hin. reflexivity.
  - intros v u Hi _. apply (answer_in _ _ _ _ _ _ _ H'). apply in_or_app. now right.
Qed.

Lemma renamed_models r i g cards pbs : renamed r i g cards pbs ->
  (forall a, holds a g cards pbs <-> inst_holds (fun v => a (r v)) i) /\
  (forall a, inst_holds a i -> exists a', holds a' g cards pbs /\ forall v, inst_vars i v -> a' (r v) = a v).
Proof.
  intros (-> & -> & -> & Hi). split; [intros a; apply rename_holds|]. intros a Ha. destruct (rename_inj_models i r Hi a) as (a' & Ha'). exists a'. split; [|exact Ha'].
  apply rename_holds. apply (holds_agree a); [|exact Ha]. intros v Hv. symmetry. now apply Ha'.
Qed.

Lemma reindex_ordered_renamed i n g cards pbs s' : inst_reindex_ordered re_reindex i (re_start n) = Some (g, cards, pbs, s') ->
  exists r, renamed r i g cards pbs /\ (forall v v', inst_vars i v -> inst_vars i v' -> (v < v')%N -> (r v < r v')%N) /\
  (forall u, (n <= u < m_n_used reindexing s')%N <-> exists v, inst_vars i v /\ r v = u) /\
  (forall v, inst_vars i v -> re_reverse (r v) s' = Some v).
Proof.
  intros E. destruct (inst_reindex_ordered_spec _ _ _ _ _ _ E) as (E1 & E2 & E3 & Hm & Ho & Hr). exists (answer s'). split; [|split; [exact Hm|split; [exact Ho|exact Hr]]].
  split; [exact E1|]. split; [exact E2|]. split; [exact E3|]. intros v v' Hv Hv' Eq. pose proof (Hr v Hv) as R. rewrite Eq, (Hr v' Hv') in R. congruence.
Qed.
