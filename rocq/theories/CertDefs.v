(** * The definitions a certified totalizer writes to the proof, and the clauses it derives from them *)

From Coq Require Import List Bool NArith ZArith Lia Arith.
From Coq Require Import ZifyBool ZifyNat ZifyN.
From Verif Require Import Spec Types Constraints Atomics NodeDb TotDb Base TotDbInv TotDbUnit TreeSpec CertSpec CertBase CertSound Cert.
Import ListNotations.
Open Scope nat_scope.

(** ** Counting *)

Definition cnt (a : asg) (ls : list lit) : Z := zwsum a (map (fun l => (l, 1%Z)) ls).
Definition lv (a : asg) (l : lit) : Z := if lit_true a l then 1%Z else 0%Z.
Definition len (ls : list lit) : Z := Z.of_nat (length ls).

Lemma cnt_app a xs ys : cnt a (xs ++ ys) = (cnt a xs + cnt a ys)%Z.
Proof. unfold cnt. now rewrite map_app, zwsum_app. Qed.
Lemma cnt_cons a x xs : cnt a (x :: xs) = (lv a x + cnt a xs)%Z.
Proof. reflexivity. Qed.
Lemma len_app xs ys : len (xs ++ ys) = (len xs + len ys)%Z.
Proof. unfold len. rewrite app_length. lia. Qed.
Lemma lv_neg a l : lv a (neg l) = (1 - lv a l)%Z.
Proof. unfold lv. rewrite lit_true_neg'. destruct (lit_true a l); reflexivity. Qed.
Lemma lv_bound a l : (0 <= lv a l <= 1)%Z.
Proof. unfold lv. destruct (lit_true a l); lia. Qed.
Lemma cnt_neg a ls : cnt a (map neg ls) = (len ls - cnt a ls)%Z.
Proof.
  induction ls as [|l ls IH]; [reflexivity|]. cbn [map]. rewrite !cnt_cons, IH, lv_neg. unfold len. cbn [length]. lia.
Qed.
Lemma cnt_bound a ls : (0 <= cnt a ls <= len ls)%Z.
Proof.
  induction ls as [|l ls IH]; [unfold len; cbn; lia|]. rewrite cnt_cons. pose proof (lv_bound a l). unfold len in *. cbn [length]. lia.
Qed.
Lemma cnt_all a ls : (forall l, In l ls -> lit_true a l = true) -> cnt a ls = len ls.
Proof.
  induction ls as [|l ls IH]; intros H; [reflexivity|]. rewrite cnt_cons, IH by (intros; apply H; now right).
  unfold lv, len. rewrite (H l) by now left. cbn [length]. lia.
Qed.
Lemma cnt_none a ls : (forall l, In l ls -> lit_true a l = false) -> cnt a ls = 0%Z.
Proof.
  induction ls as [|l ls IH]; intros H; [reflexivity|]. rewrite cnt_cons, IH by (intros; apply H; now right).
  unfold lv. rewrite (H l) by now left. lia.
Qed.
Lemma lit_true_ext a a' l : a (lvar l) = a' (lvar l) -> lit_true a l = lit_true a' l.
Proof. unfold lit_true. now intros ->. Qed.
Lemma cnt_ext a a' ls : (forall l, In l ls -> a (lvar l) = a' (lvar l)) -> cnt a ls = cnt a' ls.
Proof.
  induction ls as [|l ls IH]; intros H; [reflexivity|]. rewrite !cnt_cons, IH by (intros; apply H; now right).
  unfold lv. rewrite (lit_true_ext a a' l) by (apply H; now left). reflexivity.
Qed.

Lemma neg_neg l : neg (neg l) = l.
Proof. destruct l as [v b]. unfold neg. cbn. now rewrite negb_involutive. Qed.
Lemma lvar_neg' l : lvar (neg l) = lvar l.
Proof. reflexivity. Qed.

(** literals without complementary ones can all be made true *)
Lemma no_compl_model ts : no_compl ts -> exists a, forall l, In l ts -> lit_true a l = true.
Proof.
  intros H. exists (fun v => existsb (fun l => N.eqb (lvar l) v && negb (lneg l)) ts). intros l Hl. unfold lit_true.
  destruct (existsb _ ts) eqn:E.
  - apply existsb_exists in E as (x & Hx & E). apply andb_true_iff in E as (E1 & E2). apply N.eqb_eq in E1.
    destruct (lneg l) eqn:El; [|reflexivity]. exfalso. apply (H l x Hl Hx). unfold neg. rewrite El. destruct x as [v b]. cbn in *.
    subst. destruct b; [discriminate|reflexivity].
  - destruct (lneg l) eqn:El; [reflexivity|]. exfalso.
    assert (existsb (fun l0 => N.eqb (lvar l0) (lvar l) && negb (lneg l0)) ts = true); [|congruence].
    apply existsb_exists. exists l. rewrite N.eqb_refl, El. auto.
Qed.

Lemma no_compl_sub ls ls' : (forall l, In l ls' -> In l ls) -> no_compl ls -> no_compl ls'.
Proof. intros H N l l' Hl Hl'. apply N; auto. Qed.

Lemma no_compl_neg ls : no_compl ls -> no_compl (map neg ls).
Proof.
  intros N l l' Hl Hl'. apply in_map_iff in Hl as (x & <- & Hx). apply in_map_iff in Hl' as (y & <- & Hy).
  intros E. apply (N y x Hy Hx). rewrite neg_neg in E. now rewrite E.
Qed.

Lemma neg_ne l : l <> neg l.
Proof. destruct l as [v b]. unfold neg. cbn. intros [= E]. destruct b; discriminate. Qed.

(** a literal on another variable can be added *)
Lemma no_compl_cons x ls : (forall l, In l ls -> l <> neg x) -> no_compl ls -> no_compl (x :: ls).
Proof.
  intros H N l l' [<-|Hl] [<-|Hl'].
  - apply neg_ne.
  - auto.
  - intros E. apply (H l Hl). now rewrite E, neg_neg.
  - auto.
Qed.

(** ** Weighted sums *)

Definition wts : Type := list (lit * nat).
Definition zw (L : wts) : list (lit * Z) := map (fun '(l, w) => (l, Z.of_nat w)) L.
Definition wcnt (a : asg) (L : wts) : Z := zwsum a (zw L).
Definition wlen (L : wts) : Z := Z.of_nat (total_weight L).
Definition negs (L : wts) : wts := map (fun '(l, w) => (neg l, w)) L.

Lemma wcnt_cons a l w L : wcnt a ((l, w) :: L) = (Z.of_nat w * lv a l + wcnt a L)%Z.
Proof. unfold wcnt. cbn [zw map zwsum]. fold (zw L). unfold lv. destruct (lit_true a l); lia. Qed.
Lemma wcnt_app a xs ys : wcnt a (xs ++ ys) = (wcnt a xs + wcnt a ys)%Z.
Proof. unfold wcnt, zw. now rewrite map_app, zwsum_app. Qed.
Lemma wlen_cons l w L : wlen ((l, w) :: L) = (Z.of_nat w + wlen L)%Z.
Proof. unfold wlen. cbn [total_weight]. lia. Qed.
Lemma wlen_app xs ys : wlen (xs ++ ys) = (wlen xs + wlen ys)%Z.
Proof. unfold wlen. rewrite total_weight_app. lia. Qed.
Lemma wlen_nil : wlen [] = 0%Z.
Proof. reflexivity. Qed.
Lemma wcnt_nil a : wcnt a [] = 0%Z.
Proof. reflexivity. Qed.
Lemma wcnt_negs a L : wcnt a (negs L) = (wlen L - wcnt a L)%Z.
Proof. induction L as [|(l, w) L IH]; [reflexivity|]. cbn [negs map]. fold (negs L). rewrite !wcnt_cons, wlen_cons, IH, lv_neg. lia. Qed.
Lemma wcnt_bound a L : (0 <= wcnt a L <= wlen L)%Z.
Proof.
  induction L as [|(l, w) L IH]; [unfold wlen; cbn; lia|]. rewrite wcnt_cons, wlen_cons. unfold lv. destruct (lit_true a l); lia.
Qed.
Lemma wcnt_all a L : (forall l, In l (map fst L) -> lit_true a l = true) -> wcnt a L = wlen L.
Proof.
  induction L as [|(l, w) L IH]; intros H; [reflexivity|]. rewrite wcnt_cons, wlen_cons, IH by (intros; apply H; now right).
  unfold lv. rewrite (H l) by now left. lia.
Qed.
Lemma wcnt_none a L : (forall l, In l (map fst L) -> lit_true a l = false) -> wcnt a L = 0%Z.
Proof.
  induction L as [|(l, w) L IH]; intros H; [reflexivity|]. rewrite wcnt_cons, IH by (intros; apply H; now right).
  unfold lv. rewrite (H l) by now left. lia.
Qed.
Lemma wcnt_ext a a' L : (forall l, In l (map fst L) -> a (lvar l) = a' (lvar l)) -> wcnt a L = wcnt a' L.
Proof.
  induction L as [|(l, w) L IH]; intros H; [reflexivity|]. rewrite !wcnt_cons, IH by (intros; apply H; now right).
  unfold lv. rewrite (lit_true_ext a a' l) by (apply H; now left). reflexivity.
Qed.
Lemma total_ones ls : total_weight (ones ls) = length ls.
Proof. unfold ones. induction ls as [|l ls IH]; [reflexivity|]. cbn [map length total_weight]. rewrite IH. reflexivity. Qed.
Lemma wlen_ones ls : wlen (ones ls) = len ls.
Proof. unfold wlen, len. now rewrite total_ones. Qed.
Lemma wcnt_ones a ls : wcnt a (ones ls) = cnt a ls.
Proof. unfold ones. induction ls as [|l ls IH]; [reflexivity|]. cbn [map]. rewrite wcnt_cons, cnt_cons, IH. lia. Qed.
Lemma fst_ones ls : map fst (ones ls) = ls.
Proof. unfold ones. rewrite map_map. cbn [fst]. apply map_id. Qed.
Lemma fst_negs L : map fst (negs L) = map neg (map fst L).
Proof. unfold negs. rewrite !map_map. apply map_ext. now intros (l, w). Qed.
Lemma total_negs L : total_weight (negs L) = total_weight L.
Proof. induction L as [|(l, w) L IH]; [reflexivity|]. cbn [negs map total_weight]. fold (negs L). now rewrite IH. Qed.
Lemma fst_scale k L : map fst (scale k L) = map fst L.
Proof. unfold scale. rewrite map_map. apply map_ext. now intros (l, w). Qed.
Lemma wcnt_scale a k L : wcnt a (scale k L) = (Z.of_nat k * wcnt a L)%Z.
Proof. unfold scale. induction L as [|(l, w) L IH]; [unfold wcnt; cbn; lia|]. cbn [map]. rewrite !wcnt_cons, IH. nia. Qed.
Lemma total_scale k L : total_weight (scale k L) = k * total_weight L.
Proof. unfold scale. induction L as [|(l, w) L IH]; [cbn; lia|]. cbn [map total_weight]. rewrite IH. lia. Qed.
Lemma wlen_scale k L : wlen (scale k L) = (Z.of_nat k * wlen L)%Z.
Proof. unfold wlen. rewrite total_scale. lia. Qed.

(** ** The constraints written *)

Lemma fst_in (L : wts) l w : In (l, w) L -> In l (map fst L).
Proof. intros H. apply in_map_iff. exists (l, w). auto. Qed.

(** the constraint [Σ leaves >= value] *)
Lemma sum_raw L : exists r, pb_raw (pb_new_unsigned KLb L 0) = Some r /\ (forall a, slack r a = wcnt a L) /\
  (forall v, mentions r v -> exists l, In l (map fst L) /\ lvar l = v).
Proof.
  eexists. split; [reflexivity|]. split.
  - intros a. unfold slack. cbn [fst snd pb_new_unsigned p_lits p_b]. fold (zw L). fold (wcnt a L). lia.
  - intros v (l & w & Hin & E). cbn [fst pb_new_unsigned p_lits] in Hin. apply in_map_iff in Hin as ([x y] & [= <- <-] & Hin).
    exists x. split; [eapply fst_in; eauto|auto].
Qed.

Lemma neg_sum_raw L : exists r, pb_raw (pb_new_unsigned KLb (map (fun '(l, w) => (neg l, w)) L) 0) = Some r /\
  (forall a, slack r a = (wlen L - wcnt a L)%Z) /\
  (forall v, mentions r v -> exists l, In l (map fst L) /\ lvar l = v).
Proof.
  fold (negs L). destruct (sum_raw (negs L)) as (r & Hr & S & M). exists r. split; [exact Hr|]. split.
  - intros a. now rewrite S, wcnt_negs.
  - intros v Hv. destruct (M v Hv) as (l & Hl & <-). rewrite fst_negs in Hl. apply in_map_iff in Hl as (x & <- & Hx). exists x. auto.
Qed.

Lemma convert_wts L b l : (0 <= b)%Z ->
  convert_input_lits (map (fun lw => (neg (fst lw), Z.of_nat (snd lw))) L ++ [(l, b)]) =
  (negs L ++ [(l, Z.abs_nat b)], total_weight L + Z.abs_nat b, 0%Z).
Proof.
  intros Hb. induction L as [|(x, w) L IH]; cbn [negs map app convert_input_lits fst snd total_weight].
  - replace (0 <=? b)%Z with true by lia. f_equal. f_equal. lia.
  - rewrite IH. replace (0 <=? Z.of_nat w)%Z with true by lia. fold (negs L). rewrite Zabs2Nat.id. f_equal. f_equal. lia.
Qed.

Lemma impl_raw L value o : 1 <= value <= total_weight L ->
  exists c r, pb_impl_lit (pb_new_unsigned KLb L (Z.of_nat value)) o = Some c /\ pb_raw c = Some r /\
   (forall a, slack r a = (wlen L - wcnt a L - (wlen L - Z.of_nat value + 1) * (1 - lv a o))%Z) /\
   (forall v, mentions r v -> v = lvar o \/ exists l, In l (map fst L) /\ lvar l = v).
Proof.
  intros Hv. unfold pb_impl_lit. replace (pb_is_unsat _) with false.
  2:{ symmetry. unfold pb_is_unsat, pb_new_unsigned. cbn [p_kind p_b p_wsum]. rewrite sum_weights_total.
      replace (Z.of_nat value <? 0)%Z with false by lia. lia. }
  unfold pb_new_unsigned. cbn [p_kind p_wsum p_b p_lits]. rewrite sum_weights_total. set (b := (Z.of_nat (total_weight L) - Z.of_nat value + 1)%Z).
  assert (Hb : (0 <= b)%Z) by (subst b; lia). unfold pb_new_lb, pb_new. rewrite (convert_wts _ _ _ Hb).
  eexists _, _. split; [reflexivity|]. split; [reflexivity|]. split.
  - intros a. unfold slack. cbn [p_lits p_b fst snd]. rewrite map_app, zwsum_app. cbn [map zwsum].
    fold (zw (negs L)). fold (wcnt a (negs L)). rewrite wcnt_negs. unfold lv, wlen. destruct (lit_true a o); subst b; lia.
  - intros v (l & w & Hin & E). cbn [fst p_lits] in Hin. apply in_map_iff in Hin as ([x y] & [= <- <-] & Hin).
    apply in_app_or in Hin as [Hin|[Hin|[]]].
    + apply fst_in in Hin. rewrite fst_negs in Hin. apply in_map_iff in Hin as (z & <- & Hin). right. exists z. split; [auto|]. now rewrite lvar_neg' in E.
    + injection Hin as <- _. now left.
Qed.

Lemma implied_raw L value o : 1 <= value <= total_weight L ->
  exists c r, lit_impl_pb o (pb_new_unsigned KLb L (Z.of_nat value)) = Some c /\ pb_raw c = Some r /\
   (forall a, slack r a = (wcnt a L - Z.of_nat value * lv a o)%Z) /\
   (forall v, mentions r v -> v = lvar o \/ exists l, In l (map fst L) /\ lvar l = v).
Proof.
  intros Hv. unfold lit_impl_pb. replace (pb_is_unsat _) with false.
  2:{ symmetry. unfold pb_is_unsat, pb_new_unsigned. cbn [p_kind p_b p_wsum]. rewrite sum_weights_total.
      replace (Z.of_nat value <? 0)%Z with false by lia. lia. }
  unfold pb_new_unsigned. cbn [p_kind p_wsum p_b p_lits]. unfold pb_add. cbn [convert_input_lits p_kind p_lits p_wsum p_b].
  replace (0 <=? Z.of_nat value)%Z with true by lia.
  eexists _, _. split; [reflexivity|]. split; [reflexivity|]. split.
  - intros a. unfold slack. cbn [p_lits p_b fst snd]. rewrite map_app, zwsum_app. cbn [map zwsum].
    fold (zw L). fold (wcnt a L). unfold lv. rewrite lit_true_neg'. destruct (lit_true a o); cbn [negb]; lia.
  - intros v (l & w & Hin & E). cbn [fst p_lits] in Hin. apply in_map_iff in Hin as ([x y] & [= <- <-] & Hin).
    apply in_app_or in Hin as [Hin|[Hin|[]]].
    + right. exists x. split; [eapply fst_in; eauto|auto].
    + injection Hin as <- _. now left.
Qed.

(** ** Trees of unit nodes *)

Inductive utree (ns : list node) : nat -> list lit -> Prop :=
| ut_leaf id l : nth_error ns id = Some (NLeaf l) -> utree ns id [l]
| ut_unit id lits l r ls rs : nth_error ns id = Some (NUnit lits l r) -> plain_con l -> plain_con r -> nc_mult l = 1 -> nc_mult r = 1 ->
    utree ns (nc_id l) ls -> utree ns (nc_id r) rs -> length lits = length ls + length rs -> utree ns id (ls ++ rs).

Lemma utree_fun ns id ls : utree ns id ls -> forall ls', utree ns id ls' -> ls' = ls.
Proof.
  induction 1 as [id l H|id lits l r ls rs H _ _ _ _ _ IHl _ IHr _]; intros ls' H'; inversion H'; subst; try congruence.
  rewrite H in H0. injection H0 as <- <- <-. f_equal; auto.
Qed.

Lemma utree_pos ns id ls : utree ns id ls -> 1 <= length ls.
Proof. induction 1; cbn [length]; [lia|]. rewrite app_length. lia. Qed.

Lemma utree_node ns id ls : utree ns id ls -> exists n, nth_error ns id = Some n /\ is_unitlike n /\ node_max_val n = length ls /\ node_len n = length ls.
Proof.
  induction 1 as [id l H|id lits l r ls rs H]; eexists; (split; [eassumption|]); cbn; auto. rewrite app_length. auto.
Qed.

Lemma utree_skel ns ns' id ls : skel ns' = skel ns -> utree ns id ls -> utree ns' id ls.
Proof.
  intros E. induction 1 as [id l H|id lits l r ls rs H Pl Pr Ml Mr Hl IHl Hr IHr Len].
  - apply ut_leaf. eapply nth_leaf_skel; eauto.
  - destruct (unit_same_skel _ ns' _ _ _ _ E H) as (lits' & H' & L'). eapply ut_unit; eauto. lia.
Qed.

(** a node with one value is a leaf *)
Lemma utree_one ns id ls : utree ns id ls -> length ls <= 1 -> exists l, nth_error ns id = Some (NLeaf l) /\ ls = [l].
Proof.
  destruct 1 as [id l H|id lits l r ls rs H _ _ _ _ Hl Hr _]; [eauto|]. rewrite app_length. apply utree_pos in Hl, Hr. lia.
Qed.

(** ** Trees of unit and general nodes *)

Inductive gtree (ns : list node) : nat -> wts -> Prop :=
| wt_unit id ls : utree ns id ls -> gtree ns id (ones ls)
| wt_gen id lits m l r xs ys : nth_error ns id = Some (NGeneral lits m l r) -> plain_con l -> plain_con r -> 1 <= nc_mult l -> 1 <= nc_mult r ->
    gtree ns (nc_id l) xs -> gtree ns (nc_id r) ys -> m = total_weight (scale (nc_mult l) xs ++ scale (nc_mult r) ys) ->
    gtree ns id (scale (nc_mult l) xs ++ scale (nc_mult r) ys).

Lemma utree_not_gen ns id ls lits m l r : utree ns id ls -> nth_error ns id = Some (NGeneral lits m l r) -> False.
Proof. intros U H. destruct U; congruence. Qed.

Lemma gtree_fun ns id L : gtree ns id L -> forall L', gtree ns id L' -> L' = L.
Proof.
  induction 1 as [id ls U|id lits m l r xs ys H _ _ _ _ _ IHl _ IHr _]; intros L' H'; inversion H'; subst.
  - f_equal. eapply utree_fun; eauto.
  - exfalso. eapply utree_not_gen; eauto.
  - exfalso. eapply utree_not_gen; eauto.
  - assert (Q : (l0, r0) = (l, r)) by congruence. injection Q as -> ->. rewrite (IHl _ H5), (IHr _ H6). reflexivity.
Qed.

Lemma gtree_pos ns id L : gtree ns id L -> 1 <= total_weight L.
Proof.
  induction 1 as [id ls U|id lits m l r xs ys H _ _ Ml Mr _ IHl _ IHr _]; [rewrite total_ones; eapply utree_pos; eauto|].
  rewrite total_weight_app, !total_scale. nia.
Qed.

Lemma gtree_node ns id L : gtree ns id L -> exists n, nth_error ns id = Some n /\ is_dummy n = false /\ node_max_val n = total_weight L.
Proof.
  destruct 1 as [id ls U|id lits m l r xs ys H _ _ _ _ _ _ M].
  - destruct (utree_node _ _ _ U) as (n & Hn & Hu & Hm & _). exists n. rewrite total_ones. split; [auto|]. split; [destruct n; cbn in Hu; tauto || reflexivity|auto].
  - eexists. split; [exact H|]. split; [reflexivity|]. exact M.
Qed.

Lemma gen_same_skel ns ns' id lits m l r : skel ns' = skel ns -> nth_error ns id = Some (NGeneral lits m l r) ->
  exists lits', nth_error ns' id = Some (NGeneral lits' m l r) /\ map fst lits' = map fst lits.
Proof.
  intros E H. pose proof (nth_skel _ _ _ H) as K. rewrite <- E in K. apply nth_skel_inv in K as (n & Hn & K).
  destruct n; cbn in K; try discriminate. injection K as K -> -> ->. eexists. split; [exact Hn|]. apply (f_equal (map fst)) in K. rewrite !map_map in K. cbn [fst] in K. symmetry. exact K.
Qed.

Lemma gtree_skel ns ns' id L : skel ns' = skel ns -> gtree ns id L -> gtree ns' id L.
Proof.
  intros E. induction 1 as [id ls U|id lits m l r xs ys H Pl Pr Ml Mr Hl IHl Hr IHr M].
  - apply wt_unit. eapply utree_skel; eauto.
  - destruct (gen_same_skel _ ns' _ _ _ _ _ E H) as (lits' & H' & _). eapply wt_gen; eauto.
Qed.

(** a node with one value is a leaf *)
Lemma gtree_one ns id L : gtree ns id L -> total_weight L <= 1 -> exists l, nth_error ns id = Some (NLeaf l) /\ L = [(l, 1)].
Proof.
  destruct 1 as [id ls U|id lits m l r xs ys H _ _ Ml Mr Hl Hr _]; [rewrite total_ones; intros H1; destruct (utree_one _ _ _ U H1) as (l & Hl & ->); eauto|].
  rewrite total_weight_app, !total_scale. apply gtree_pos in Hl, Hr. nia.
Qed.

Lemma plain_conb_ok con : plain_con con -> plain_conb con = true.
Proof. intros (A & B & C). unfold plain_conb. rewrite A, B, C. reflexivity. Qed.

(** output literals *)
Definition olit (ns : list node) (id val : nat) : option lit := do n <- nth_error ns id; node_lit n val.

Lemma olit_data ns id val l s : data ns id val = Some (LLit l s) -> olit ns id val = Some l \/ exists lits m x y, nth_error ns id = Some (NGeneral lits m x y).
Proof.
  unfold data, olit. destruct (nth_error ns id) as [[]|]; cbn [obind node_data node_lit]; try discriminate; [|right; eauto 6].
  destruct (val =? 0); [discriminate|]. intros ->. left. reflexivity.
Qed.

Lemma olit_unit ns id lits l r val o : nth_error ns id = Some (NUnit lits l r) -> olit ns id val = Some o -> exists s, data ns id val = Some (LLit o s).
Proof.
  unfold olit, data. intros -> H. cbn [obind node_lit] in H. cbn [node_data]. destruct (val =? 0); [discriminate|].
  destruct (nth_error lits (val - 1)) as [[|x s]|]; cbn [obind ld_lit] in H; try discriminate. injection H as ->. eauto.
Qed.

Lemma olit_inner ns id n val o : nth_error ns id = Some n -> (forall l, n <> NLeaf l) -> olit ns id val = Some o -> exists s, data ns id val = Some (LLit o s).
Proof.
  intros Hn Hl H. destruct n as [l|lits l r|lits m l r|]; [now destruct (Hl l)|eapply olit_unit; eauto| |unfold olit in H; rewrite Hn in H; discriminate].
  unfold olit in H. unfold data. rewrite Hn in *. cbn [obind node_lit node_data] in *. destruct (lit_data lits val) as [[|x s]|]; cbn [obind ld_lit] in H; try discriminate.
  injection H as ->. eauto.
Qed.

(** the truth value an output stands for *)
Definition outT (oo : option lit) (n val : nat) (a : asg) : Z :=
  if val =? 0 then 1%Z else if n <? val then 0%Z else match oo with Some o => lv a o | None => 0%Z end.
Definition has_out (ns : list node) (id n val : nat) : Prop := 1 <= val <= n -> exists o, olit ns id val = Some o.

Definition fif (ns : list node) (id val : nat) (ls : list lit) (a : asg) : Z :=
  (len ls - cnt a ls - (len ls - Z.of_nat val + 1) * (1 - outT (olit ns id val) (length ls) val a))%Z.
Definition foif (ns : list node) (id val : nat) (ls : list lit) (a : asg) : Z :=
  (cnt a ls - Z.of_nat val * outT (olit ns id val) (length ls) val a)%Z.
Definition fdef (ty : semtype) := match ty with TIf => fif | TOnlyIf => foif end.

(** the same for weighted leaves *)
Definition wif (ns : list node) (id val : nat) (L : wts) (a : asg) : Z :=
  (wlen L - wcnt a L - (wlen L - Z.of_nat val + 1) * (1 - outT (olit ns id val) (total_weight L) val a))%Z.
Definition woif (ns : list node) (id val : nat) (L : wts) (a : asg) : Z :=
  (wcnt a L - Z.of_nat val * outT (olit ns id val) (total_weight L) val a)%Z.
Definition wdef (ty : semtype) := match ty with TIf => wif | TOnlyIf => woif end.

Lemma wdef_ones ty ns id val ls a : wdef ty ns id val (ones ls) a = fdef ty ns id val ls a.
Proof. destruct ty; cbn [wdef fdef]; unfold wif, woif, fif, foif; rewrite ?wlen_ones, wcnt_ones, total_ones; reflexivity. Qed.

(** the constraint of a definition *)
Definition con_is (p : pstate) (i : nat) (f : asg -> Z) : Prop := exists c, ps_get p i = Some c /\ forall a, slack c a = f a.

Definition def_ok (ns : list node) (p : pstate) (id val : nat) (d : semdefs) : Prop :=
  exists L, gtree ns id L /\ val <= total_weight L + 1 /\ has_out ns id (total_weight L) val /\
    (val <> 0 -> exists i, sd_if d = Some i /\ con_is p i (wif ns id val L)) /\
    (val <= total_weight L -> exists j, sd_only_if d = Some j /\ con_is p j (woif ns id val L)) /\
    (forall i, In i (def_ids [(id, val, d)]) -> ps_inputs p < i /\ ps_get p i <> None).

Definition grows (p p' : pstate) : Prop := ps_inputs p' = ps_inputs p /\ forall i c, ps_get p i = Some c -> ps_get p' i = Some c.

Lemma grows_refl p : grows p p.
Proof. split; auto. Qed.
Lemma grows_trans p q r : grows p q -> grows q r -> grows p r.
Proof. intros [A B] [C D]. split; [congruence|auto]. Qed.
Lemma grows_add p c : ps_ok p -> grows p (ps_add p c).
Proof.
  intros Hp. split; [reflexivity|]. intros i d Hi. rewrite ps_get_add. destruct (Nat.eqb_spec i (ps_next p)) as [->|]; [|auto].
  destruct (ps_ok_get _ _ _ Hp Hi). lia.
Qed.
Lemma con_is_grows p p' i f : grows p p' -> con_is p i f -> con_is p' i f.
Proof. intros [_ G] (c & H & S). exists c. auto. Qed.

(** states of the database with the same shape and at least the same output literals *)
Definition more (ns ns' : list node) : Prop :=
  skel ns' = skel ns /\ forall id val o, olit ns id val = Some o -> olit ns' id val = Some o.

Lemma wdef_more ns ns' id val L ty a : more ns ns' -> has_out ns id (total_weight L) val -> wdef ty ns' id val L a = wdef ty ns id val L a.
Proof.
  intros [_ M] H. unfold has_out in H. assert (E : outT (olit ns' id val) (total_weight L) val a = outT (olit ns id val) (total_weight L) val a).
  { unfold outT. destruct (Nat.eqb_spec val 0); [reflexivity|]. destruct (Nat.ltb_spec (total_weight L) val); [reflexivity|].
    destruct H as (o & Ho); [lia|]. rewrite Ho, (M _ _ _ Ho). reflexivity. }
  destruct ty; cbn [wdef]; unfold wif, woif; now rewrite E.
Qed.

Lemma has_out_more ns ns' id n val : more ns ns' -> has_out ns id n val -> has_out ns' id n val.
Proof. intros [_ M] H Hv. destruct (H Hv) as (o & Ho). eauto. Qed.

Lemma con_is_ext p i f f' : (forall a, f a = f' a) -> con_is p i f -> con_is p i f'.
Proof. intros E (c & H & S). exists c. split; [auto|]. intros a. now rewrite S. Qed.

Lemma def_ok_more ns ns' p p' id val d : more ns ns' -> grows p p' -> def_ok ns p id val d -> def_ok ns' p' id val d.
Proof.
  intros M G (L & U & V & O & A & B & D). exists L. split; [eapply gtree_skel; [apply M|auto]|]. split; [auto|].
  split; [eapply has_out_more; eauto|]. split; [|split].
  - intros H. destruct (A H) as (i & E & C). exists i. split; [auto|]. eapply con_is_ext; [|eapply con_is_grows; eauto].
    intros a. symmetry. exact (wdef_more _ _ _ _ _ TIf a M O).
  - intros H. destruct (B H) as (i & E & C). exists i. split; [auto|]. eapply con_is_ext; [|eapply con_is_grows; eauto].
    intros a. symmetry. exact (wdef_more _ _ _ _ _ TOnlyIf a M O).
  - intros i Hi. destruct (D i Hi) as (D1 & D2). destruct G as (G1 & G2). split; [lia|]. destruct (ps_get p i) eqn:E; [|congruence]. erewrite G2 by eauto. discriminate.
Qed.
