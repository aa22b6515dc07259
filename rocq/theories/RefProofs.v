(** * Encoders sharing a node database *)

From Coq Require Import List Bool NArith ZArith Lia Arith Sorted Permutation.
From Coq Require Import ZifyBool ZifyNat ZifyN.
From Verif Require Import Spec BoundSpec Types Constraints Maps Atomics NodeDb TreeSpec TotDb Totalizer Gte Base TotDbInv TotDbUnit TotDbDefine TotDbGeneral TotDbBuild TotDbGrow TotDbMerge TotWeighted TotDbHist TotalizerProofs DbWorld GteProofs RefEnc RefSpec.
Import ListNotations.

Definition ones (ls : list (lit * nat)) : Prop := forall l x, In (l, x) ls -> x = 1%nat.

(** what holds of a tree *)
Definition good_tree (g : ghost) (ns : list node) (t : nodecon * list (lit * nat)) : Prop :=
  wtree g ns (snd t) (fst t) /\ (ones (snd t) -> unit_con ns (fst t)).

(** [U]: clauses that the "if" flags in the database stand for *)
Record sinv (w : world (lit * nat)) (d : db) (T : trees) (g : ghost) (ow : owner) (U : cnf) : Prop := mkSinv {
  si_d : dinv fst (mkWorld (w_in w) (w_next w) (w_aux w) (w_all w) U (w_all w)) d g ow;
  si_U : incl U (w_ub w);
  si_nd : forall id, nth_error (d_nodes d) id <> Some NDummy;
  si_in : w_in w = concat (map snd T);
  si_T : Forall (good_tree g (d_nodes d)) T
}.

(** ** Building trees *)
Lemma unit_con_skel ns ns' con : skel ns' = skel ns -> unit_con ns con -> unit_con ns' con.
Proof.
  intros E (M & n & Hn & U). split; [auto|]. destruct (unitlike_same_skel _ ns' _ _ E Hn U) as (n' & Hn' & U' & _). eauto.
Qed.
Lemma good_tree_skel g ns ns' t : skel ns' = skel ns -> good_tree g ns t -> good_tree g ns' t.
Proof. intros E (W & O). split; [eapply wtree_skel; eauto|]. intros H. eapply unit_con_skel; eauto. Qed.
Lemma good_tree_grow vs g d g' d' t : grow vs d g d' g' -> good_tree g (d_nodes d) t -> good_tree g' (d_nodes d') t.
Proof. intros G (W & O). split; [eapply wtree_grow; eauto|]. intros H. eapply unit_con_grow; eauto. Qed.

Lemma ones_segments ls : ls <> [] -> ones ls -> segments ls = [(map fst ls, 1%nat)].
Proof.
  induction ls as [|[l x] ls IH]; [congruence|]. intros _ H. assert (x = 1%nat) as -> by (apply (H l); now left). cbn [segments map fst].
  destruct ls as [|y ls]; [reflexivity|]. rewrite IH; [reflexivity|discriminate|]. intros l0 x0 H0. apply (H l0). now right.
Qed.

Lemma weighted_unit g d ls d' con : built g d -> ls <> [] -> ones ls -> weighted_lit_tree d ls = Some (d', Some con) -> unit_con (d_nodes d') con.
Proof.
  intros B Hne H E. unfold weighted_lit_tree in E. destruct ls as [|y ls0] eqn:El; [congruence|]. rewrite <- El in *. rewrite (ones_segments ls Hne H) in E.
  destruct (lit_tree_ok g d (map fst ls) B) as (d1 & id & g1 & n & E1 & B1 & G & Hn & U & C & _).
  { rewrite El. discriminate. }
  cbn [foldM add_segment fst snd] in E. rewrite E1 in E. cbn [obind con_weighted Nat.eqb app] in E. unfold merge_balanced in E. cbn [cum_weights length merge_balanced_rec] in E.
  destruct (con_len_good (d_nodes d1) g1 (mkCon id 0 1 1 None) (proj1 B1) C) as (k & Ek & _). rewrite Ek in E. cbn [obind] in E. injection E as <- <-.
  split; [reflexivity|]. exists n. auto.
Qed.

Lemma tree_ok g d T op : built g d -> Forall (good_tree g (d_nodes d)) T -> valid_tree_op T op ->
  exists d' con ls g', tree_step d T op = Some (d', T ++ [(con, ls)]) /\ built g' d' /\ grow (map lvar (new_lits op)) d g d' g' /\
    good_tree g' (d_nodes d') (con, ls) /\ (forall v, In v (map lvar (new_lits op)) -> exists x, In x ls /\ lvar (fst x) = v) /\
    (forall x, In x ls -> In (fst x) (new_lits op) \/ exists y t, In t T /\ In y (snd t) /\ fst y = fst x).
Proof.
  intros B F V. destruct op as [ls|ls|bal is]; cbn [tree_step valid_tree_op new_lits] in *.
  - destruct (lit_tree_ok g d ls B V) as (d0 & id0 & g0 & n & E0 & _ & _ & Hn & U & _).
    destruct (lit_tree_wtree g d ls 1 B V (le_n _)) as (d' & id & g' & E & B' & G & W). rewrite E. unfold seg_lits in W. cbn [fst snd] in W.
    assert (d0 = d' /\ id0 = id) as (-> & ->) by (split; congruence).
    exists d', (con_full id), (map (fun l => (l, 1%nat)) ls), g'. split; [reflexivity|]. split; [auto|]. split; [auto|].
    split; [split; [exact W|]; intros _; split; [reflexivity|]; exists n; auto|]. split.
    + intros v Hv. apply in_map_iff in Hv as (l & <- & Hl). exists (l, 1%nat). split; [|reflexivity]. apply in_map_iff. eauto.
    + intros x Hx. apply in_map_iff in Hx as (l & <- & Hl). left. exact Hl.
  - destruct V as (V1 & V2). destruct (weighted_lit_tree_ok g d ls B V1 V2) as (d' & con & g' & E & B' & G & W). rewrite E. cbn [tree_result].
    exists d', con, ls, g'. split; [reflexivity|]. split; [auto|]. split; [auto|]. split; [split; [exact W|]; intros H; exact (weighted_unit g d ls d' con B V1 H E)|]. split.
    + intros v Hv. apply in_map_iff in Hv as (l & <- & Hl). apply in_map_iff in Hl as (x & <- & Hx). eauto.
    + intros x Hx. left. apply in_map. auto.
  - destruct V as (V1 & V2).
    assert (Hm : exists cs, mapM (nth_error T) is = Some cs /\ Forall (good_tree g (d_nodes d)) cs /\ length cs = length is /\ incl cs T).
    { clear V1. induction is as [|i is IH]; [exists []; cbn; repeat split; auto; intros ? []|]. destruct IH as (cs & E & Fc & L & Hi); [intros; apply V2; now right|].
      destruct (nth_error T i) as [c|] eqn:Ei; [|apply nth_error_None in Ei; specialize (V2 i (or_introl eq_refl)); lia].
      exists (c :: cs). cbn [mapM]. rewrite Ei. cbn [obind]. rewrite E. cbn [obind]. split; [reflexivity|]. pose proof (nth_error_In _ _ Ei) as Hc. split; [|split; [cbn; lia|]].
      - constructor; [|auto]. rewrite Forall_forall in F. auto.
      - intros x [<-|Hx]; auto. }
    destruct Hm as (cs & Em & Fc & L & Hi). rewrite Em.
    assert (F2 : Forall2 (fun c ls => wtree g (d_nodes d) ls c) (map fst cs) (map snd cs)).
    { clear -Fc. induction Fc as [|[c l] cs (H & _) Fc IH]; cbn; constructor; auto. }
    assert (Hgood : Forall (con_good (d_nodes d)) (map fst cs)).
    { clear -F2. induction F2; constructor; auto. apply (wt_good _ _ _ _ H). }
    assert (Hne : map fst cs <> []) by (destruct cs; [destruct is; [congruence|discriminate]|discriminate]).
    assert (Hr : exists d' con g', (if bal then merge_balanced d (map fst cs) else merge d (map fst cs)) = Some (d', Some con) /\ built g' d' /\ grow [] d g d' g' /\ merged g (d_nodes d) (map fst cs) g' (d_nodes d') con).
    { destruct bal; [apply merge_balanced_ok|apply merge_ok]; auto. }
    destruct Hr as (d' & con & g' & E & B' & G & M). rewrite E. cbn [tree_result].
    exists d', con, (concat (map snd cs)), g'. split; [reflexivity|]. split; [auto|]. split; [exact G|]. split; [split|split].
    + eapply merged_wtree; [right; exact (proj1 B)|exact M|exact F2].
    + intros H. destruct M as (_ & _ & _ & _ & M5 & _). apply M5. cbn [fst snd] in *. clear -Fc H. induction Fc as [|[c l] cs (W & O) Fc IH]; cbn [map fst snd concat] in *; constructor.
      * apply O. intros l0 x0 H0. eapply H. apply in_or_app. left. eauto.
      * apply IH. intros l0 x0 H0. eapply H. apply in_or_app. right. eauto.
    + intros v [].
    + intros x Hx. right. apply in_concat in Hx as (l & Hl & Hx). apply in_map_iff in Hl as (t & <- & Ht). exists x, t. auto.
Qed.

(** ** The state of an encoder *)
Lemma encoder_tree g ns T k i con ls : Forall (good_tree g ns) T -> encoder_on T k i con ls ->
  wtree g ns ls con /\ (k = KTot -> unit_con ns con).
Proof.
  intros F (E & Ft). apply nth_error_In in E. rewrite Forall_forall in F. destruct (F _ E) as (W & O). split; [exact W|]. intros ->. apply O. exact Ft.
Qed.

(** the values whose outputs are assumed to be false for an upper bound *)
Definition wvals (k : kind) (n : node) (con : nodecon) (ub : nat) : list nat :=
  match k with
  | KTot => [(ub + 1)%nat]
  | KGte m => node_vals n (nc_rev_map_round_up con (ub + 1)) (Some (nc_rev_map con (ub + m) + 1)%nat)
  end.

Lemma unit_size g ns con ls n : wtree g ns ls con -> unit_con ns con -> nth_error ns (nc_id con) = Some n -> node_len n = total_weight ls /\ is_unitlike n.
Proof.
  intros W (M & n' & Hn' & U) Hn. assert (n' = n) as -> by congruence. split; [|auto]. pose proof (wt_max _ _ _ _ W) as E. unfold cmax in E. rewrite Hn in E.
  destruct (wt_good _ _ _ _ W) as (Sc & _). rewrite simple_con_map, M in E by auto. rewrite node_len_unitlike by auto. lia.
Qed.

Lemma unit_vals n v : is_unitlike n -> In v (node_vals n 1 None) <-> (1 <= v <= node_len n)%nat.
Proof.
  destruct n; cbn [is_unitlike]; try tauto; intros _; cbn [node_vals node_len].
  - change (if (1 <=? 1)%nat && true then [1%nat] else []) with [1%nat]. split; [intros [<-|[]]; lia|]. intros. left. lia.
  - rewrite in_range_excl. lia.
Qed.

Lemma wvals_in g ns k ls con n ub v : wf_shape (skel ns) g -> wtree g ns ls con -> (k = KTot -> unit_con ns con) -> nth_error ns (nc_id con) = Some n ->
  (ub < total_weight ls)%nat -> In v (wvals k n con ub) -> In v (node_vals n 1 None) /\ (ub + 1 <= v * nc_mult con)%nat.
Proof.
  intros W Wt Hu Hn L Hv. destruct (wt_good _ _ _ _ Wt) as (Sc & M & _). destruct k as [|m]; cbn [wvals] in Hv.
  - specialize (Hu eq_refl). destruct (unit_size _ _ _ _ _ Wt Hu Hn) as (Sz & U). destruct Hv as [<-|[]]. split; [apply unit_vals; [auto|lia]|]. destruct Hu as (-> & _). lia.
  - apply (node_vals_range g _ _ _ _ _ _ W Hn) in Hv as (Hv & Hr). split; [auto|]. apply plain_round_up; auto. lia.
Qed.

(** if the sum exceeds the bound, one of the values is reached *)
Lemma wvals_reached w d T g ow U k i ls con n ub a : sinv w d T g ow U -> encoder_on T k i con ls -> nth_error (d_nodes d) (nc_id con) = Some n ->
  (ub < wsum a ls)%nat -> exists v, In v (wvals k n con ub) /\ gT g a (nc_id con) v.
Proof.
  intros I E Hn L. destruct (encoder_tree _ _ _ _ _ _ _ (si_T _ _ _ _ _ _ I) E) as (Wt & Hu). destruct (wt_good _ _ _ _ Wt) as (Sc & M & _).
  pose proof (di_built _ _ _ _ _ (si_d _ _ _ _ _ _ I)) as (W & _).
  pose proof (wt_val _ _ _ _ Wt a) as Hval. destruct k as [|m]; cbn [wvals].
  - specialize (Hu eq_refl). destruct (unit_size _ _ _ _ _ Wt Hu Hn) as (_ & Un). exists (ub + 1)%nat. split; [now left|].
    pose proof (wf_node _ _ W _ _ (nth_skel _ _ _ Hn)) as N. assert (HT : forall a v, gT g a (nc_id con) v <-> (v <= gV g a (nc_id con))%nat) by (destruct n; cbn in Un; try tauto; cbn [erase node_ok] in N; tauto).
    apply HT. unfold cval in Hval. rewrite simple_con_map in Hval by auto. destruct Hu as (Em & _). rewrite Em in Hval. lia.
  - destruct E as (_ & Ft). cbn [fits] in Ft. rewrite <- Hval in L. destruct (wt_dense _ _ _ _ Wt m Ft a ub L) as (v & (u & Tu & ->) & Bv). rewrite simple_con_map in Bv by auto.
    exists u. split; [|exact Tu]. apply (node_vals_range g _ _ _ _ _ _ W Hn). split.
    + eapply T_vals; [exact (di_inv _ _ _ _ _ (si_d _ _ _ _ _ _ I))|exact Hn|exact Tu|nia].
    + split; [apply plain_round_up; auto; lia|apply plain_rev; auto; lia].
Qed.

Lemma out_assumps_map n vals outs : out_assumps n vals = Some (Some outs) -> exists ls, outs = map neg ls /\ length ls = length vals.
Proof.
  revert outs. induction vals as [|v vals IH]; intros outs; cbn [out_assumps].
  - intros [= <-]. exists []. auto.
  - intros E. apply obind_some in E as (o & Eo & E). destruct o as [l|]; [|discriminate]. apply obind_some in E as (r & Er & E). destruct r as [r|]; [|discriminate].
    injection E as <-. destruct (IH r Er) as (ls & -> & L). exists (l :: ls). cbn [map length]. auto.
Qed.

(** the answer to an upper bound *)
Lemma enforce_ub_char w d T g ow U k i con ls ub : sinv w d T g ow U -> encoder_on T k i con ls ->
  exists n, nth_error (d_nodes d) (nc_id con) = Some n /\
  ((total_weight ls <= ub /\ ref_enforce_ub k d con ub = Some (EOk []))%nat \/
   (ub < total_weight ls)%nat /\
    ((exists outs, ref_enforce_ub k d con ub = Some (EOk (map neg outs)) /\ Forall2 (fun v l => lit_has (d_nodes d) (nc_id con) v SIf l) (wvals k n con ub) outs) \/
     (ref_enforce_ub k d con ub = Some ENotEncoded /\ exists v, In v (wvals k n con ub) /\ forall l, ~ lit_has (d_nodes d) (nc_id con) v SIf l))).
Proof.
  intros I E. destruct (encoder_tree _ _ _ _ _ _ _ (si_T _ _ _ _ _ _ I) E) as (Wt & Hu). destruct (wt_good _ _ _ _ Wt) as (Sc & M & n & Hn & D & _).
  pose proof (di_built _ _ _ _ _ (si_d _ _ _ _ _ _ I)) as (W & _). exists n. split; [exact Hn|].
  assert (Hin : (ub < total_weight ls)%nat -> forall v, In v (wvals k n con ub) -> In v (node_vals n 1 None)).
  { intros L v Hv. eapply (wvals_in g _ k ls con n ub v W Wt Hu Hn L Hv). }
  destruct k as [|m]; cbn [ref_enforce_ub].
  - specialize (Hu eq_refl). destruct (unit_size _ _ _ _ _ Wt Hu Hn) as (Sz & Un). unfold rt_enforce_ub, rt_n_lits. rewrite Hn. cbn [obind]. rewrite Sz.
    destruct (Nat.leb_spec (total_weight ls) ub) as [L|L]; [left; auto|]. right. split; [auto|]. specialize (Hin L). cbn [wvals] in *.
    specialize (Hin (ub + 1)%nat (or_introl eq_refl)). pose proof (out_if_spec g (d_nodes d) (nc_id con) n (ub + 1) W Hn D Hin) as O.
    destruct n as [x|lits cl cr|lits mx cl cr|]; cbn [is_unitlike] in Un; try tauto; cbn [out_if] in O.
    + cbn [node_len] in Sz. replace (ub =? 0)%nat with true by lia. cbn [assertb obind]. destruct O as [(l & [= <-] & Hl)|([=] & _)]. left. exists [x]. split; [reflexivity|]. constructor; [exact Hl|constructor].
    + rewrite Nat.add_sub in O. destruct (nth_error lits ub) as [dat|] eqn:Ed; cbn [obind] in *.
      * destruct O as [(l & [= Ex] & Hl)|([= Ex] & Hl)]; rewrite Ex; [left|right]; [exists [l]; split; [reflexivity|]; constructor; [exact Hl|constructor]|].
        split; [reflexivity|]. exists (ub + 1)%nat. split; [now left|auto].
      * destruct O as [(l & [=] & _)|([=] & _)].
  - unfold rg_enforce_ub, rg_weight_sum. rewrite Hn. cbn [obind]. pose proof (wt_max _ _ _ _ Wt) as Mx. unfold cmax in Mx. rewrite Hn in Mx. rewrite Mx.
    destruct (Nat.leb_spec (total_weight ls) ub) as [L|L]; [left; auto|]. right. split; [auto|]. specialize (Hin L). cbn [wvals] in Hin |- *.
    destruct (out_assumps_spec g _ (nc_id con) n _ W Hn D Hin) as [(outs & E' & Fo)|(E' & v & Hv & Hno)]; rewrite E'; cbn [obind]; [left|right]; eauto.
Qed.

(** the answer to a lower bound *)
Lemma enforce_lb_char w d T g ow U i con ls lb : sinv w d T g ow U -> encoder_on T KTot i con ls -> (1 <= lb)%nat ->
  (total_weight ls < lb /\ rt_enforce_lb d (nc_id con) lb = Some EUnsat)%nat \/
  (lb <= total_weight ls)%nat /\
   ((exists l, rt_enforce_lb d (nc_id con) lb = Some (EOk [l]) /\ lit_has (d_nodes d) (nc_id con) lb SOnlyIf l) \/
    (rt_enforce_lb d (nc_id con) lb = Some ENotEncoded /\ forall l, ~ lit_has (d_nodes d) (nc_id con) lb SOnlyIf l)).
Proof.
  intros I E Hlb. destruct (encoder_tree _ _ _ _ _ _ _ (si_T _ _ _ _ _ _ I) E) as (Wt & Hu). specialize (Hu eq_refl).
  destruct (wt_good _ _ _ _ Wt) as (Sc & M & n & Hn & D & _). destruct (unit_size _ _ _ _ _ Wt Hu Hn) as (Sz & Un).
  unfold rt_enforce_lb, rt_n_lits. rewrite Hn. cbn [obind]. rewrite Sz. destruct (Nat.ltb_spec (total_weight ls) lb) as [L|L]; [left; auto|]. right. split; [auto|].
  destruct n as [x|lits cl cr|lits mx cl cr|]; cbn [is_unitlike node_len] in *; try tauto.
  - replace (lb =? 1)%nat with true by lia. cbn [assertb obind]. left. exists x. split; [reflexivity|]. left. split; [auto|lia].
  - replace (1 <=? lb)%nat with true by lia. cbn [assertb obind]. destruct (nth_error lits (lb - 1)) as [dat|] eqn:Ed; [|apply nth_error_None in Ed; lia]. cbn [obind].
    assert (Hd : data (d_nodes d) (nc_id con) lb = Some dat).
    { unfold data. rewrite Hn. cbn [node_data]. replace (lb =? 0)%nat with false by lia. exact Ed. }
    destruct dat as [|l [s|]]; cbn [ld_has_only_if].
    + right. split; [reflexivity|]. intros l [(H & _)|(s & H & _)]; congruence.
    + destruct (has_only_if s) eqn:Es; [left; exists l; split; [reflexivity|]; right; exists (Some s); split; [auto|]; split; [discriminate|auto]|].
      right. split; [reflexivity|]. intros l' [(H & _)|(s' & H & _ & H')]; [congruence|]. assert (s' = Some s) as -> by congruence. specialize (H' eq_refl). cbn in H'. congruence.
    + right. split; [reflexivity|]. intros l' [(H & _)|(s' & H & _ & H')]; [congruence|]. assert (s' = None) as -> by congruence. specialize (H' eq_refl). discriminate.
Qed.

(** ** Encoding calls *)

(** the outputs that stay encoded: those with "only if" semantics, and if [up] those with "if" semantics *)
Definition keep (up : bool) (d d' : db) : Prop :=
  skel (d_nodes d') = skel (d_nodes d) /\
  (up = true -> forall id v l, lit_has (d_nodes d) id v SIf l -> lit_has (d_nodes d') id v SIf l) /\
  (forall id v l, lit_has (d_nodes d) id v SOnlyIf l -> lit_has (d_nodes d') id v SOnlyIf l).

Lemma keep_refl d : keep true d d.
Proof. repeat split; auto. Qed.
Lemma keep_trans u1 u2 d d1 d2 : keep u1 d d1 -> keep u2 d1 d2 -> keep (u1 && u2) d d2.
Proof.
  intros (A1 & A2 & A3) (B1 & B2 & B3). split; [congruence|]. split; [|auto]. intros E. apply andb_prop in E as (-> & ->). auto.
Qed.
Lemma keep_ext d next ow ow' st' : ext ow (mkTst (d_nodes d) next []) ow' st' -> keep true d (set_nodes_db d (t_nodes st')).
Proof.
  intros X. split; [exact (e_skel _ _ _ _ X)|]. split; [intros _|]; intros id v l H; exact (lit_has_ext _ _ _ _ _ _ _ _ X H).
Qed.
Lemma keep_reset d : keep false d (db_reset d SIf).
Proof. split; [apply reset_skel|]. split; [discriminate|]. intros id v l H. apply reset_has. exact H. Qed.

Lemma rt_ub_change_ok (w : world (lit * nat)) d g ow con ls r : dinv fst w d g ow -> wtree g (d_nodes d) ls con -> unit_con (d_nodes d) con ->
  exists d' cs nx ow', rt_ub_change d (nc_id con) r (w_next w) = Some (d', cs, nx) /\ dinv fst (log_call w false false cs nx) d' g ow' /\ keep true d d' /\ (w_next w <= nx)%N /\
    forall ub, in_rng ub r -> (ub < total_weight ls)%nat -> exists l, lit_has (d_nodes d') (nc_id con) (ub + 1) SIf l.
Proof.
  intros I Wt U. destruct (wt_good _ _ _ _ Wt) as (_ & _ & n & Hn & _). destruct (unit_size _ _ _ _ _ Wt U Hn) as (Sz & Un).
  unfold rt_ub_change, rt_n_lits. rewrite Hn. cbn [obind]. rewrite Sz. destruct (prepare_ub_range (total_weight ls) r) as (lo, hi) eqn:Er.
  assert (Hr : forall ub, in_rng ub r -> (ub < total_weight ls)%nat -> (lo <= ub < hi)%nat).
  { intros ub H1 H2. pose proof (ub_range_in _ _ _ H1 H2) as H. rewrite Er in H. cbn [fst snd] in H. lia. }
  destruct (Nat.leb_spec hi lo) as [L|L].
  - exists d, [], (w_next w), ow. split; [reflexivity|]. split; [apply dinv_noop; auto|]. split; [apply keep_refl|]. split; [lia|]. intros ub H1 H2. specialize (Hr ub H1 H2). lia.
  - pose proof (ub_range_le (total_weight ls) r) as Hle. rewrite Er in Hle. cbn [snd] in Hle.
    destruct (define_all_ok _ _ _ g ow _ (nc_id con) n (range_excl lo hi) SIf (di_inv _ _ _ _ _ I) Hn Un) as (st' & ow' & E & I' & X & Hd).
    { intros i Hi. apply in_range_excl in Hi. lia. }
    unfold rt_define. rewrite E. cbn [obind]. exists (set_nodes_db d (t_nodes st')), (t_cls st'), (t_next st'), ow'. split; [reflexivity|].
    split; [eapply dinv_call; eauto|]. split; [eapply keep_ext; eauto|]. split; [exact (e_next _ _ _ _ X)|].
    intros ub H1 H2. apply Hd. apply in_range_excl. auto.
Qed.

Lemma rt_lb_change_ok (w : world (lit * nat)) d g ow con ls r : dinv fst w d g ow -> wtree g (d_nodes d) ls con -> unit_con (d_nodes d) con ->
  exists d' cs nx ow', rt_lb_change d (nc_id con) r (w_next w) = Some (d', cs, nx) /\ dinv fst (log_call w false false cs nx) d' g ow' /\ keep true d d' /\ (w_next w <= nx)%N /\
    forall lb, in_rng lb r -> (1 <= lb <= total_weight ls)%nat -> exists l, lit_has (d_nodes d') (nc_id con) lb SOnlyIf l.
Proof.
  intros I Wt U. destruct (wt_good _ _ _ _ Wt) as (_ & _ & n & Hn & _). destruct (unit_size _ _ _ _ _ Wt U Hn) as (Sz & Un).
  unfold rt_lb_change, rt_n_lits. rewrite Hn. cbn [obind]. rewrite Sz. destruct (prepare_lb_range (total_weight ls) r) as (lo, hi) eqn:Er.
  assert (Hr : forall lb, in_rng lb r -> (1 <= lb <= total_weight ls)%nat -> (lo <= lb < hi)%nat).
  { intros ub H1 H2. pose proof (lb_range_in _ _ _ H1 H2) as H. rewrite Er in H. cbn [fst snd] in H. lia. }
  pose proof (lb_range_pos (total_weight ls) r) as Hp. rewrite Er in Hp. cbn [fst] in Hp.
  destruct (Nat.leb_spec hi lo) as [L|L].
  - exists d, [], (w_next w), ow. split; [reflexivity|]. split; [apply dinv_noop; auto|]. split; [apply keep_refl|]. split; [lia|]. intros lb H1 H2. specialize (Hr lb H1 H2). lia.
  - assert (Hle : (hi <= total_weight ls + 1)%nat).
    { clear - Er. destruct r as [[a|a|] [b|b|]]; cbn in Er; injection Er as <- <-; lia. }
    destruct (define_all_ok _ _ _ g ow _ (nc_id con) n (map (fun idx => idx - 1)%nat (range_excl lo hi)) SOnlyIf (di_inv _ _ _ _ _ I) Hn Un) as (st' & ow' & E & I' & X & Hd).
    { intros i Hi. apply in_map_iff in Hi as (j & <- & Hj). apply in_range_excl in Hj. lia. }
    unfold rt_define. rewrite E. cbn [obind]. exists (set_nodes_db d (t_nodes st')), (t_cls st'), (t_next st'), ow'. split; [reflexivity|].
    split; [eapply dinv_call; eauto|]. split; [eapply keep_ext; eauto|]. split; [exact (e_next _ _ _ _ X)|].
    intros lb H1 H2. destruct (Hd (lb - 1)%nat) as (l & Hl).
    { apply in_map_iff. exists lb. split; [reflexivity|]. apply in_range_excl. auto. }
    exists l. replace (lb - 1 + 1)%nat with lb in Hl by lia. exact Hl.
Qed.

Lemma rg_ub_change_ok (w : world (lit * nat)) d g ow con ls m r : dinv fst w d g ow -> wtree g (d_nodes d) ls con ->
  exists d' cs nx ow', rg_ub_change d con m r (w_next w) = Some (d', cs, nx) /\ dinv fst (log_call w false false cs nx) d' g ow' /\ keep true d d' /\ (w_next w <= nx)%N /\
    forall ub, in_rng ub r -> (ub < total_weight ls)%nat -> forall n v, nth_error (d_nodes d) (nc_id con) = Some n -> In v (wvals (KGte m) n con ub) -> exists l, lit_has (d_nodes d') (nc_id con) v SIf l.
Proof.
  intros I Wt. destruct (wt_good _ _ _ _ Wt) as (Sc & M & n & Hn & D & _). pose proof (proj1 (di_built _ _ _ _ _ I)) as W.
  unfold rg_ub_change, rg_weight_sum. rewrite Hn. cbn [obind]. pose proof (wt_max _ _ _ _ Wt) as Mx. unfold cmax in Mx. rewrite Hn in Mx. rewrite Mx.
  destruct (prepare_ub_range (total_weight ls) r) as (lo, hi) eqn:Er.
  assert (Hr : forall ub, in_rng ub r -> (ub < total_weight ls)%nat -> (lo <= ub < hi)%nat).
  { intros ub H1 H2. pose proof (ub_range_in _ _ _ H1 H2) as H. rewrite Er in H. cbn [fst snd] in H. lia. }
  destruct (Nat.leb_spec hi lo) as [L|L].
  - exists d, [], (w_next w), ow. split; [reflexivity|]. split; [apply dinv_noop; auto|]. split; [apply keep_refl|]. split; [lia|]. intros ub H1 H2. specialize (Hr ub H1 H2). lia.
  - set (vals := node_vals n (nc_rev_map_round_up con (lo + 1)) (Some (nc_rev_map con (hi + m) + 1)%nat)).
    destruct (define_vals_ok _ _ _ g ow _ (nc_id con) n vals (di_inv _ _ _ _ _ I) Hn D) as (st' & ow' & E & I' & X & Hd).
    { intros v Hv. apply (node_vals_range g _ _ _ _ _ _ W Hn) in Hv. tauto. }
    rewrite E. cbn [obind]. exists (set_nodes_db d (t_nodes st')), (t_cls st'), (t_next st'), ow'. split; [reflexivity|].
    split; [eapply dinv_call; eauto|]. split; [eapply keep_ext; eauto|]. split; [exact (e_next _ _ _ _ X)|].
    intros ub H1 H2 n' v Hn' Hv. specialize (Hr ub H1 H2). assert (n' = n) as -> by congruence. apply Hd. cbn [wvals] in Hv. unfold vals.
    apply (node_vals_range g _ _ _ _ _ _ W Hn) in Hv as (Hv & A & B). apply (node_vals_range g _ _ _ _ _ _ W Hn). split; [auto|].
    apply plain_round_up in A; auto. apply plain_rev in B; auto. split; [apply plain_round_up; auto; lia|apply plain_rev; auto; lia].
Qed.

Lemma reserve_ok (w : world (lit * nat)) d g ow con ls c0 : dinv fst w d g ow -> wtree g (d_nodes d) ls con -> nc_id c0 = nc_id con -> nc_div c0 = 1%nat -> con_ok (d_nodes d) c0 ->
  exists st' ow', reserve_vars (S (length (d_nodes d))) (mkTst (d_nodes d) (w_next w) []) c0 = Some st' /\
    dinv fst (log_call w false false [] (t_next st')) (set_nodes_db d (t_nodes st')) g ow' /\ keep true d (set_nodes_db d (t_nodes st')) /\ (w_next w <= t_next st')%N.
Proof.
  intros I Wt Ei Ed Hok. destruct (wt_good _ _ _ _ Wt) as (Sc & M & n & Hn & D & _).
  destruct (reserve_vars_ok _ _ _ g (S (length (d_nodes d))) ow (mkTst (d_nodes d) (w_next w) []) c0 (di_inv _ _ _ _ _ I)) as (st' & ow' & E & I' & X & C); auto.
  { rewrite Ei. eapply dinv_fuel; eauto. }
  exists st', ow'. split; [exact E|]. cbn [t_cls] in C. split; [|split; [eapply keep_ext; eauto|exact (e_next _ _ _ _ X)]]. rewrite <- C. eapply dinv_call; eauto.
Qed.

(** the world the database stands for *)
Definition shadow (w : world (lit * nat)) (U : cnf) : world (lit * nat) := mkWorld (w_in w) (w_next w) (w_aux w) (w_all w) U (w_all w).

Lemma sinv_call w d T g ow U d' ow' cs nx ub lb U0 up : sinv w d T g ow U -> keep up d d' ->
  dinv fst (log_call (shadow w U0) false false cs nx) d' g ow' -> (ub = true -> U0 = []) -> incl U0 (w_ub w) ->
  sinv (log_call w ub lb cs nx) d' T g ow' (U0 ++ cs).
Proof.
  intros [I1 I2 I3 I4 I5] (K & _) D E In0. constructor.
  - exact D.
  - cbn [log_call w_ub]. destruct ub; [rewrite E by auto; apply incl_refl|]. apply incl_app; [apply incl_appl; auto|apply incl_appr, incl_refl].
  - intros id Hid. apply nth_skel in Hid. rewrite K in Hid. apply nth_skel_inv in Hid as (n & Hn & Hne). apply (I3 id). destruct n; cbn [erase] in Hne; inversion Hne; subst; auto.
  - exact I4.
  - eapply Forall_impl; [|exact I5]. intros t. apply good_tree_skel. exact K.
Qed.

Definition enc_ok (k : kind) (c : bcall) : Prop := match k, c with KGte _, (BLb _ | BLbChange _ | BBoth _) => False | _, _ => True end.

Lemma ref_call_ok w d T g ow U k i c con ls : sinv w d T g ow U -> encoder_on T k i con ls -> enc_ok k c ->
  exists d' cs nx ow' U', ref_call k d con c (w_next w) = Some (d', cs, nx) /\ sinv (log_call w (is_ub c) (is_lb c) cs nx) d' T g ow' U' /\
    keep (negb (is_ub c) && negb (is_lb c)) d d' /\
    (forall r ub n v, ub_range c = Some r -> in_rng ub r -> (ub < total_weight ls)%nat -> nth_error (d_nodes d) (nc_id con) = Some n -> In v (wvals k n con ub) ->
       exists l, lit_has (d_nodes d') (nc_id con) v SIf l) /\
    (forall r lb, lb_range c = Some r -> in_rng lb r -> (1 <= lb <= total_weight ls)%nat -> exists l, lit_has (d_nodes d') (nc_id con) lb SOnlyIf l).
Proof.
  intros I E V. destruct (encoder_tree _ _ _ _ _ _ _ (si_T _ _ _ _ _ _ I) E) as (Wt & Hu).
  pose proof (si_d _ _ _ _ _ _ I) as D. pose proof (dinv_reset_if fst _ _ _ _ D) as D0. cbn [w_in w_next w_aux w_all w_ub w_lb] in D0.
  change (mkWorld (w_in w) (w_next w) (w_aux w) (w_all w) U (w_all w)) with (shadow w U) in D.
  change (mkWorld (w_in w) (w_next w) (w_aux w) (w_all w) [] (w_all w)) with (shadow w []) in D0.
  change (set_nodes_db d (reset_encoded (d_nodes d) SIf)) with (db_reset d SIf) in D0.
  assert (Sk : skel (d_nodes (db_reset d SIf)) = skel (d_nodes d)) by apply reset_skel.
  assert (Wt0 : wtree g (d_nodes (db_reset d SIf)) ls con) by (eapply wtree_skel; eauto).
  assert (Hi0 : incl (@nil clause) (w_ub w)) by (intros ? []). pose proof (si_U _ _ _ _ _ _ I) as HiU.
  destruct k as [|m].
  - specialize (Hu eq_refl). assert (Hu0 : unit_con (d_nodes (db_reset d SIf)) con) by (eapply unit_con_skel; eauto).
    destruct c as [|r|r|r|r|r]; cbn [ref_call is_ub is_lb negb andb ub_range lb_range].
    + destruct (reserve_ok _ _ _ _ _ _ (con_full (nc_id con)) D Wt eq_refl eq_refl) as (st' & ow' & Er & D' & K & _).
      { destruct (wt_good _ _ _ _ Wt) as (_ & _ & n & Hn & _). split; [unfold con_params; cbn; repeat split; try discriminate; lia|]. exists n. split; [exact Hn|cbn; lia]. }
      cbn [shadow w_next] in Er. unfold rt_reserve. rewrite Er. cbn [obind]. exists (set_nodes_db d (t_nodes st')), [], (t_next st'), ow', (U ++ []). split; [reflexivity|].
      split; [eapply sinv_call; eauto; discriminate|]. split; [exact K|]. split; intros; discriminate.
    + destruct (rt_ub_change_ok _ _ _ _ _ _ r D0 Wt0 Hu0) as (d' & cs & nx & ow' & Er & D' & K & _ & Hd). cbn [shadow w_next] in Er. unfold rt_ub. rewrite Er.
      exists d', cs, nx, ow', ([] ++ cs). split; [reflexivity|]. pose proof (keep_trans _ _ _ _ _ (keep_reset d) K) as K'. cbn [andb] in K'.
      split; [eapply sinv_call; eauto|]. split; [exact K'|]. split; [|discriminate]. intros r0 ub n v [= <-] H1 H2 _ [<-|[]]. auto.
    + destruct (rt_ub_change_ok _ _ _ _ _ _ r D Wt Hu) as (d' & cs & nx & ow' & Er & D' & K & _ & Hd). cbn [shadow w_next] in Er. rewrite Er.
      exists d', cs, nx, ow', (U ++ cs). split; [reflexivity|].
      split; [eapply sinv_call; eauto; discriminate|]. split; [exact K|]. split; [|discriminate]. intros r0 ub n v [= <-] H1 H2 _ [<-|[]]. auto.
    + destruct (rt_lb_change_ok _ _ _ _ _ _ r D0 Wt0 Hu0) as (d' & cs & nx & ow' & Er & D' & K & _ & Hd). cbn [shadow w_next] in Er. unfold rt_lb. rewrite Er.
      exists d', cs, nx, ow', ([] ++ cs). split; [reflexivity|]. pose proof (keep_trans _ _ _ _ _ (keep_reset d) K) as K'. cbn [andb] in K'.
      split; [eapply sinv_call; eauto|]. split; [exact K'|]. split; [discriminate|]. intros r0 lb [= <-] H1 H2. auto.
    + destruct (rt_lb_change_ok _ _ _ _ _ _ r D Wt Hu) as (d' & cs & nx & ow' & Er & D' & K & _ & Hd). cbn [shadow w_next] in Er. rewrite Er.
      exists d', cs, nx, ow', (U ++ cs). split; [reflexivity|].
      split; [eapply sinv_call; eauto; discriminate|]. split; [exact K|]. split; [discriminate|]. intros r0 lb [= <-] H1 H2. auto.
    + destruct (rt_ub_change_ok _ _ _ _ _ _ r D Wt Hu) as (d1 & c1 & n1 & ow1 & E1 & D1 & K1 & N1 & H1). cbn [shadow w_next] in E1.
      assert (Wt1 : wtree g (d_nodes d1) ls con) by (eapply wtree_skel; [apply K1|exact Wt]). assert (Hu1 : unit_con (d_nodes d1) con) by (eapply unit_con_skel; [apply K1|exact Hu]).
      destruct (rt_lb_change_ok _ _ _ _ _ _ r D1 Wt1 Hu1) as (d2 & c2 & n2 & ow2 & E2 & D2 & K2 & N2 & H2). cbn [log_call shadow w_next] in E2, N1, N2.
      unfold rt_both. rewrite E1. cbn [obind]. rewrite E2. cbn [obind]. exists d2, (c1 ++ c2), n2, ow2, (U ++ (c1 ++ c2)). split; [reflexivity|].
      apply dinv_two in D2; [|exact N1|exact N2]. pose proof (keep_trans _ _ _ _ _ K1 K2) as K'. cbn [andb] in K'.
      split; [eapply sinv_call; eauto; discriminate|]. split; [exact K'|]. split.
      * intros r0 ub n v [= <-] G1 G2 _ [<-|[]]. destruct (H1 ub G1 G2) as (l & Hl). exists l. apply K2; auto.
      * intros r0 lb [= <-] G1 G2. auto.
  - clear Hu. destruct c as [|r|r|r|r|r]; cbn [enc_ok] in V; try tauto; cbn [ref_call is_ub is_lb negb andb ub_range lb_range].
    + destruct (reserve_ok _ _ _ _ _ _ con D Wt eq_refl) as (st' & ow' & Er & D' & K & _).
      { apply (wt_good _ _ _ _ Wt). } { apply con_good_ok. apply (wt_good _ _ _ _ Wt). }
      cbn [shadow w_next] in Er. unfold rg_reserve. rewrite Er. cbn [obind]. exists (set_nodes_db d (t_nodes st')), [], (t_next st'), ow', (U ++ []). split; [reflexivity|].
      split; [eapply sinv_call; eauto; discriminate|]. split; [exact K|]. split; intros; discriminate.
    + destruct (rg_ub_change_ok _ _ _ _ _ _ m r D0 Wt0) as (d' & cs & nx & ow' & Er & D' & K & _ & Hd). cbn [shadow w_next] in Er. unfold rg_ub. rewrite Er.
      exists d', cs, nx, ow', ([] ++ cs). split; [reflexivity|]. pose proof (keep_trans _ _ _ _ _ (keep_reset d) K) as K'. cbn [andb] in K'.
      split; [eapply sinv_call; eauto|]. split; [exact K'|]. split; [|discriminate]. intros r0 ub n v [= <-] H1 H2 Hn Hv.
      destruct (node_same_skel _ (d_nodes (db_reset d SIf)) _ _ Sk Hn) as (n' & Hn' & _). apply (Hd ub H1 H2 n' v Hn').
      cbn [wvals] in *. destruct (vals_transfer _ _ _ _ _ Sk Hn Hn') as (Ev & _). rewrite Ev. exact Hv.
    + destruct (rg_ub_change_ok _ _ _ _ _ _ m r D Wt) as (d' & cs & nx & ow' & Er & D' & K & _ & Hd). cbn [shadow w_next] in Er. rewrite Er.
      exists d', cs, nx, ow', (U ++ cs). split; [reflexivity|].
      split; [eapply sinv_call; eauto; discriminate|]. split; [exact K|]. split; [|discriminate]. intros r0 ub n v [= <-] H1 H2 Hn Hv. eauto.
Qed.

(** ** Histories *)
Lemma sinv_init : sinv world0 db_empty [] ghost0 (fun _ => None) [].
Proof.
  constructor; [exact (dinv_init fst)|apply incl_refl| |reflexivity|constructor]. intros [|id]; cbn; discriminate.
Qed.

Lemma sinv_user w d T g ow U k : sinv w d T g ow U -> sinv (mkWorld (w_in w) (w_next w + k)%N (w_aux w) (w_all w) (w_ub w) (w_lb w)) d T g ow U.
Proof. intros [I1 I2 I3 I4 I5]. constructor; auto. exact (dinv_user fst _ _ _ _ k I1). Qed.

Lemma sinv_tree w d T g ow U op : sinv w d T g ow U -> valid_shared w T (STree op) ->
  exists d' con ls g', tree_step d T op = Some (d', T ++ [(con, ls)]) /\
    sinv (mkWorld (concat (map snd (T ++ [(con, ls)]))) (w_next w) (w_aux w) (w_all w) (w_ub w) (w_lb w)) d' (T ++ [(con, ls)]) g' ow U /\
    (exists new, d_nodes d' = d_nodes d ++ new) /\ grow (map lvar (new_lits op)) d g d' g'.
Proof.
  intros [I1 I2 I3 I4 I5] (V & Hl). pose proof (di_built _ _ _ _ _ I1) as B.
  destruct (tree_ok g d T op B I5 V) as (d' & con & ls & g' & E & B' & G & Gt & Hv & Hx). exists d', con, ls, g'. split; [exact E|].
  split; [|split; [destruct G as ((new & En & _) & _); eauto|exact G]].
  assert (Ei : concat (map snd (T ++ [(con, ls)])) = w_in w ++ ls) by (rewrite map_app, concat_app, I4; cbn [map snd concat]; now rewrite app_nil_r).
  assert (D : dinv fst (mkWorld (w_in w ++ ls) (w_next w) (w_aux w) (w_all w) U (w_all w)) d g ow).
  { apply (dinv_extend fst _ _ _ _ ls I1). cbn [w_next w_aux]. intros x Hin. destruct (Hx x Hin) as [H|(y & t & Ht & Hy & <-)]; [auto|].
    apply (di_lits _ _ _ _ _ I1 y). cbn [w_in]. rewrite I4. apply in_concat. exists (snd t). split; [apply in_map|]; auto. }
  constructor; cbn [w_in w_next w_aux w_all w_ub w_lb]; auto.
  - rewrite Ei. eapply dinv_grow; [exact D|exact B'|exact G|]. cbn [w_in]. intros v H. destruct (Hv v H) as (x & H1 & H2). exists x. split; [apply in_or_app; auto|auto].
  - eapply no_dummy_grow; eauto.
  - apply Forall_app. split; [|constructor; [exact Gt|constructor]]. eapply Forall_impl; [|exact I5]. intros t. eapply good_tree_grow; eauto.
Qed.

Lemma shared_inv w d T : shared w d T -> exists g ow U, sinv w d T g ow U.
Proof.
  induction 1 as [|w d T op w' d' T' _ (g & ow & U & I) V E]; [exists ghost0, (fun _ => None), []; exact sinv_init|].
  destruct op as [k|op|k i c]; cbn [sstep] in E.
  - injection E as <- <- <-. exists g, ow, U. apply sinv_user. auto.
  - destruct (sinv_tree _ _ _ _ _ _ op I V) as (d1 & con & ls & g' & E1 & I1 & _). rewrite E1 in E. injection E as <- <- <-. eauto.
  - destruct V as ((con & ls & En) & Ec). pose proof (proj1 En) as Hn. rewrite Hn in E.
    destruct (ref_call_ok _ _ _ _ _ _ _ _ _ _ _ I En Ec) as (d1 & cs & nx & ow' & U' & E1 & I1 & _). rewrite E1 in E. injection E as <- <- <-. eauto.
Qed.

(** ** The properties *)
Theorem shared_no_panic_ok : shared_no_panic.
Proof.
  intros w d T H. apply shared_inv in H as (g & ow & U & I). split.
  - intros op V. destruct op as [k|op|k i c]; cbn [sstep]; [discriminate| |].
    + destruct (sinv_tree _ _ _ _ _ _ op I V) as (d1 & con & ls & g' & -> & _). discriminate.
    + destruct V as ((con & ls & En) & Ec). rewrite (proj1 En). destruct (ref_call_ok _ _ _ _ _ _ _ _ _ _ _ I En Ec) as (d1 & cs & nx & ow' & U' & -> & _). discriminate.
  - intros k i con ls ub En. destruct (enforce_ub_char _ _ _ _ _ _ _ _ _ _ ub I En) as (n & _ & [(_ & ->)|(_ & [(outs & -> & _)|(-> & _)])]); split; discriminate.
Qed.

Lemma wsum_le_total a ls : (wsum a ls <= total_weight ls)%nat.
Proof. induction ls as [|[l x] ls IH]; cbn [wsum total_weight]; [lia|]. destruct (lit_true a l); lia. Qed.

Lemma cube_in a ls l : sat_cube a ls = true -> In l ls -> lit_true a l = true.
Proof. unfold sat_cube. rewrite forallb_forall. auto. Qed.

Lemma Forall2_in_l {A B} (R : A -> B -> Prop) xs ys x : Forall2 R xs ys -> In x xs -> exists y, In y ys /\ R x y.
Proof. induction 1; cbn; [tauto|]. intros [<-|H1]; [eauto|]. destruct (IHForall2 H1) as (z & Hz & ?). eauto. Qed.
Lemma Forall2_in_r {A B} (R : A -> B -> Prop) xs ys y : Forall2 R xs ys -> In y ys -> exists x, In x xs /\ R x y.
Proof. induction 1; cbn; [tauto|]. intros [<-|H1]; [eauto|]. destruct (IHForall2 H1) as (z & Hz & ?). eauto. Qed.

Theorem shared_ub_sound_ok : shared_ub_sound.
Proof.
  intros w d T k i con ls ub asm a H En E Sa Sc. apply shared_inv in H as (g & ow & U & I).
  destruct (enforce_ub_char _ _ _ _ _ _ _ _ _ _ ub I En) as (n & Hn & [(L & _)|(L & [(outs & E' & F)|(E' & _)])]).
  - pose proof (wsum_le_total a ls). lia.
  - rewrite E' in E. injection E as <-. destruct (Nat.le_gt_cases (wsum a ls) ub) as [|G]; [auto|]. exfalso.
    destruct (wvals_reached _ _ _ _ _ _ _ _ _ _ _ _ a I En Hn G) as (v & Hv & Tv). destruct (Forall2_in_l _ _ _ _ F Hv) as (l & Hl & Hh).
    assert (Tl : lit_true a l = true).
    { eapply (dinv_if fst); [exact (si_d _ _ _ _ _ _ I)| |exact Hh|exact Tv]. cbn [w_ub]. unfold sat_cnf in *. rewrite forallb_forall in *. intros c Hc. apply Sa. apply (si_U _ _ _ _ _ _ I). exact Hc. }
    assert (Tn : lit_true a (neg l) = true) by (eapply cube_in; [exact Sc|apply in_map; exact Hl]). rewrite lit_true_neg, Tl in Tn. discriminate.
  - congruence.
Qed.

Theorem shared_lb_sound_ok : shared_lb_sound (fun w => w_all w).
Proof.
  intros w d T i con ls lb asm a H En E Sa Sc. apply shared_inv in H as (g & ow & U & I).
  destruct (Nat.eq_dec lb 0) as [->|Hlb]; [lia|].
  destruct (enforce_lb_char _ _ _ _ _ _ _ _ _ lb I En ltac:(lia)) as [(_ & E')|(L & [(l & E' & Hh)|(E' & _)])]; [congruence| |congruence].
  rewrite E' in E. injection E as <-. apply (cube_in _ _ l) in Sc; [|now left]. destruct (encoder_tree _ _ _ _ _ _ _ (si_T _ _ _ _ _ _ I) En) as (Wt & Hu). specialize (Hu eq_refl).
  destruct (wt_good _ _ _ _ Wt) as (Sm & _). pose proof (wt_val _ _ _ _ Wt a) as Hval. unfold cval in Hval. rewrite simple_con_map in Hval by auto. rewrite (proj1 Hu) in Hval. rewrite <- Hval, Nat.mul_1_r.
  eapply lit_has_oif; [exact (di_inv _ _ _ _ _ (si_d _ _ _ _ _ _ I))| | |exact Hh|exact Sc]; cbn [t_cls t_nodes w_lb]; [rewrite app_nil_r; exact Sa|exact (si_nd _ _ _ _ _ _ I)].
Qed.

Lemma tree_value_canon w d T g ow U a con ls : sinv w d T g ow U -> wtree g (d_nodes d) ls con ->
  (gV g (canonize g ow a) (nc_id con) * nc_mult con = wsum a ls)%nat.
Proof.
  intros I Wt. destruct (dinv_canon fst _ _ _ _ a (si_d _ _ _ _ _ _ I)) as (_ & V & _). destruct (wt_good _ _ _ _ Wt) as (Sm & _ & n & Hn & _). rewrite V by (eapply nth_error_lt; eauto).
  pose proof (wt_val _ _ _ _ Wt a) as Hval. unfold cval in Hval. now rewrite simple_con_map in Hval by auto.
Qed.

Theorem shared_complete_ok : shared_complete.
Proof.
  intros w d T a H. apply shared_inv in H as (g & ow & U & I). exists (canonize g ow a). pose proof (dinv_canon fst _ _ _ _ a (si_d _ _ _ _ _ _ I)) as (C & _ & K & S). cbn [w_aux w_all] in K, S.
  split; [exact K|]. split; [exact S|]. split.
  - intros k i con ls ub asm En E L. destruct (encoder_tree _ _ _ _ _ _ _ (si_T _ _ _ _ _ _ I) En) as (Wt & Hu). pose proof (tree_value_canon _ _ _ _ _ _ a _ _ I Wt) as Hval.
    destruct (enforce_ub_char _ _ _ _ _ _ _ _ _ _ ub I En) as (n & Hn & [(_ & E')|(Lt & [(outs & E' & F)|(E' & _)])]); [rewrite E' in E; injection E as <-; reflexivity| |congruence].
    rewrite E' in E. injection E as <-. unfold sat_cube. apply forallb_forall. intros l0 Hl0. apply in_map_iff in Hl0 as (l & <- & Hl). destruct (Forall2_in_r _ _ _ _ F Hl) as (v & Hv & Hh).
    rewrite lit_true_neg. rewrite (lit_has_canon _ _ _ _ _ _ _ _ _ _ _ (di_inv _ _ _ _ _ (si_d _ _ _ _ _ _ I)) C Hh).
    pose proof (proj1 (di_built _ _ _ _ _ (si_d _ _ _ _ _ _ I))) as W. destruct (wvals_in _ _ _ _ _ _ _ _ W Wt Hu Hn Lt Hv) as (_ & Hb).
    destruct (Nat.leb_spec v (gV g (canonize g ow a) (nc_id con))) as [B|B]; [|reflexivity]. exfalso. nia.
  - intros i con ls lb asm En E L. destruct (encoder_tree _ _ _ _ _ _ _ (si_T _ _ _ _ _ _ I) En) as (Wt & Hu). specialize (Hu eq_refl). pose proof (tree_value_canon _ _ _ _ _ _ a _ _ I Wt) as Hval.
    rewrite (proj1 Hu) in Hval. destruct (Nat.eq_dec lb 0) as [->|Hlb].
    + unfold rt_enforce_lb, rt_n_lits in E. destruct (wt_good _ _ _ _ Wt) as (_ & _ & n & Hn & _). destruct (unit_size _ _ _ _ _ Wt Hu Hn) as (_ & Un).
      rewrite Hn in E. cbn [obind] in E. replace (node_len n <? 0)%nat with false in E by lia. destruct n; cbn in E; discriminate.
    + destruct (enforce_lb_char _ _ _ _ _ _ _ _ _ lb I En ltac:(lia)) as [(_ & E')|(_ & [(l & E' & Hh)|(E' & _)])]; [congruence| |congruence].
      rewrite E' in E. injection E as <-. unfold sat_cube. cbn [forallb]. rewrite andb_true_r.
      rewrite (lit_has_canon _ _ _ _ _ _ _ _ _ _ _ (di_inv _ _ _ _ _ (si_d _ _ _ _ _ _ I)) C Hh). lia.
Qed.

Lemma wvals_skel k ns ns' id n n' con ub : skel ns' = skel ns -> nth_error ns id = Some n -> nth_error ns' id = Some n' -> wvals k n' con ub = wvals k n con ub.
Proof. intros E Hn Hn'. destruct k; cbn [wvals]; [reflexivity|]. apply (vals_transfer _ _ _ _ _ E Hn Hn'). Qed.

Theorem shared_encodes_ok : shared_encodes.
Proof.
  intros w d T k i c con ls w' d' T' H (_ & V) En E. apply shared_inv in H as (g & ow & U & I). cbn [sstep] in E. rewrite (proj1 En) in E.
  destruct (ref_call_ok _ _ _ _ _ _ _ _ _ _ _ I En V) as (d1 & cs & nx & ow' & U' & E1 & I1 & K & Hub & Hlb). rewrite E1 in E. injection E as <- <- <-.
  destruct (encoder_tree _ _ _ _ _ _ _ (si_T _ _ _ _ _ _ I) En) as (Wt & _). destruct (wt_good _ _ _ _ Wt) as (_ & _ & n & Hn & _). split.
  - intros r ub Hr Hin. destruct (enforce_ub_char _ _ _ _ _ _ _ _ _ _ ub I1 En) as (n' & Hn' & [(_ & E')|(L & [(outs & E' & F)|(E' & v & Hv & Hno)])]); [eauto|eauto|exfalso].
    rewrite (wvals_skel k _ _ _ _ _ con ub (proj1 K) Hn Hn') in Hv. destruct (Hub r ub n v Hr Hin L Hn Hv) as (l & Hl). exact (Hno l Hl).
  - intros r lb Hr Hin Hlb1. assert (k = KTot) as ->. { destruct k; [reflexivity|]. destruct c; cbn in V, Hr; try tauto; discriminate. }
    destruct (enforce_lb_char _ _ _ _ _ _ _ _ _ lb I1 En Hlb1) as [(L & E')|(L & [(l & E' & _)|(E' & Hno)])].
    + right. split; [exact E'|]. intros a. pose proof (wsum_le_total a ls). lia.
    + left. eauto.
    + exfalso. destruct (Hlb r lb Hr Hin ltac:(lia)) as (l & Hl). exact (Hno l Hl).
Qed.

Lemma lit_has_fun ns id v s l l' : lit_has ns id v s l -> lit_has ns id v s l' -> l = l'.
Proof.
  intros [(H1 & _)|(x & H1 & _)] [(H2 & _)|(y & H2 & _)]; unfold data in *; try congruence; rewrite ?H1, ?H2 in *; cbn [node_data] in *; congruence.
Qed.

(** a state in which at least the same outputs are encoded *)
Lemma persist w d T g ow U w' d' T' g' ow' U' k i con ls n n' (up : Prop) : sinv w d T g ow U -> sinv w' d' T' g' ow' U' -> encoder_on T k i con ls -> encoder_on T' k i con ls ->
  nth_error (d_nodes d) (nc_id con) = Some n -> nth_error (d_nodes d') (nc_id con) = Some n' -> (forall ub, wvals k n' con ub = wvals k n con ub) ->
  (up -> forall v l, lit_has (d_nodes d) (nc_id con) v SIf l -> lit_has (d_nodes d') (nc_id con) v SIf l) ->
  (forall v l, lit_has (d_nodes d) (nc_id con) v SOnlyIf l -> lit_has (d_nodes d') (nc_id con) v SOnlyIf l) ->
  (up -> forall ub asm, ref_enforce_ub k d con ub = Some (EOk asm) -> ref_enforce_ub k d' con ub = Some (EOk asm)) /\
  (k = KTot -> forall lb asm, rt_enforce_lb d (nc_id con) lb = Some (EOk asm) -> rt_enforce_lb d' (nc_id con) lb = Some (EOk asm)).
Proof.
  intros I I' En En' Hn Hn' Ev Ku Kl. split.
  - intros Hup ub asm E. specialize (Ku Hup).
    destruct (enforce_ub_char _ _ _ _ _ _ _ _ _ _ ub I En) as (m & Hm & C). assert (m = n) as -> by congruence.
    destruct (enforce_ub_char _ _ _ _ _ _ _ _ _ _ ub I' En') as (m' & Hm' & C'). assert (m' = n') as -> by congruence. rewrite (Ev ub) in C'.
    destruct C as [(L & E1)|(L & [(outs & E1 & F)|(E1 & _)])]; [| |congruence].
    + destruct C' as [(_ & E2)|(L' & _)]; [congruence|lia].
    + destruct C' as [(L' & _)|(_ & [(outs' & E2 & F')|(E2 & v & Hv & Hno)])]; [lia| |].
      * rewrite E1 in E. rewrite E2. injection E as <-. f_equal. f_equal. f_equal. clear -F F' Ku. revert outs' F'. induction F; intros outs' F'; inversion F'; subst; [reflexivity|]. f_equal; [eapply lit_has_fun; eauto|auto].
      * exfalso. destruct (Forall2_in_l _ _ _ _ F Hv) as (l & _ & Hl). exact (Hno l (Ku _ _ Hl)).
  - intros -> lb asm E. destruct (Nat.eq_dec lb 0) as [->|Hlb].
    + exfalso. destruct (encoder_tree _ _ _ _ _ _ _ (si_T _ _ _ _ _ _ I) En) as (Wt & Hu). specialize (Hu eq_refl). unfold rt_enforce_lb, rt_n_lits in E.
      rewrite Hn in E. cbn [obind] in E. replace (node_len n <? 0)%nat with false in E by lia. destruct n; cbn in E; discriminate.
    + destruct (enforce_lb_char _ _ _ _ _ _ _ _ _ lb I En ltac:(lia)) as [(_ & E1)|(L & [(l & E1 & Hl)|(E1 & _)])]; [congruence| |congruence].
      destruct (enforce_lb_char _ _ _ _ _ _ _ _ _ lb I' En' ltac:(lia)) as [(L' & _)|(_ & [(l' & E2 & Hl')|(E2 & Hno)])]; [lia| |exfalso; exact (Hno l (Kl _ _ Hl))].
      rewrite E2, <- E, E1. do 3 f_equal. eapply lit_has_fun; eauto.
Qed.

Theorem shared_persists_ok : shared_persists adding.
Proof.
  intros w d T op w' d' T' k i con ls H V E En. apply shared_inv in H as (g & ow & U & I).
  destruct (encoder_tree _ _ _ _ _ _ _ (si_T _ _ _ _ _ _ I) En) as (Wt & _). destruct (wt_good _ _ _ _ Wt) as (_ & _ & n & Hn & _).
  destruct op as [x|op|k1 i1 c]; cbn [sstep adding] in *.
  - injection E as <- <- <-. split; [exact En|]. auto.
  - destruct (sinv_tree _ _ _ _ _ _ op I V) as (d1 & con1 & ls1 & g' & E1 & I1 & (new & En1) & G). rewrite E1 in E. injection E as <- <- <-.
    assert (En' : encoder_on (T ++ [(con1, ls1)]) k i con ls) by (destruct En as (H1 & H2); split; [rewrite nth_error_app1; [auto|eapply nth_error_lt; eauto]|auto]).
    split; [exact En'|]. assert (Hn' : nth_error (d_nodes d1) (nc_id con) = Some n) by (rewrite En1, nth_error_app1; [auto|eapply nth_error_lt; eauto]).
    assert (K : forall v s l, lit_has (d_nodes d) (nc_id con) v s l -> lit_has (d_nodes d1) (nc_id con) v s l).
    { intros v s l. unfold lit_has, data. rewrite Hn, Hn'. auto. }
    eapply (persist _ _ _ _ _ _ _ _ _ _ _ _ _ _ _ _ _ _ True) with (1 := I) (2 := I1) (3 := En) (4 := En') (5 := Hn) (6 := Hn'); auto.
  - destruct V as ((con1 & ls1 & En1) & V). rewrite (proj1 En1) in E.
    destruct (ref_call_ok _ _ _ _ _ _ _ _ _ _ _ I En1 V) as (d1 & cs & nx & ow' & U' & E1 & I1 & (K1 & K2 & K3) & _). rewrite E1 in E. injection E as <- <- <-.
    split; [exact En|]. destruct (node_same_skel _ (d_nodes d1) _ _ K1 Hn) as (n' & Hn' & _).
    eapply persist with (1 := I) (2 := I1) (3 := En) (4 := En) (5 := Hn) (6 := Hn').
    + intros ub. eapply wvals_skel; eauto.
    + intros (Eu & El) v l. apply K2. now rewrite Eu, El.
    + intros v l. apply K3.
Qed.

Theorem shared_local_ok : shared_local.
Proof.
  intros w d T H. apply shared_inv in H as (g & ow & U & I). pose proof (si_d _ _ _ _ _ _ I) as D. split.
  - intros c l Hc Hl. exact (dinv_local fst _ _ _ _ c l D Hc Hl).
  - intros v Hv. split; [exact (di_aux _ _ _ _ _ D v Hv)|]. intros x Hx E. destruct (di_lits _ _ _ _ _ D x Hx) as (_ & Hn). apply Hn. rewrite E. exact Hv.
Qed.

(** ** Next values *)
Theorem rg_next_higher_ok w d T m i con ls val : shared w d T -> encoder_on T (KGte m) i con ls ->
  exists v, rg_next_higher d con val = Some v /\ (val < v)%nat /\ forall a, (val < wsum a ls -> v <= wsum a ls)%nat.
Proof.
  intros R En. apply shared_inv in R as (g & ow & U & I). destruct (encoder_tree _ _ _ _ _ _ _ (si_T _ _ _ _ _ _ I) En) as (Ro & _). unfold rg_next_higher.
  destruct (wt_good _ _ _ _ Ro) as (Sc & M & n & Hn & _). rewrite Hn. cbn [obind]. eexists. split; [reflexivity|].
  pose proof (proj1 (di_built _ _ _ _ _ (si_d _ _ _ _ _ _ I))) as W.
  assert (Hrr : (1 <= nc_rev_map_round_up con (val + 1))%nat).
  { destruct (Nat.le_gt_cases 1 (nc_rev_map_round_up con (val + 1))) as [H|H]; [auto|]. pose proof (proj1 (plain_round_up con 0 (val + 1) Sc M) ltac:(lia)). lia. }
  assert (Hu : forall a, (val < wsum a ls)%nat -> exists u, In u (node_vals n (nc_rev_map_round_up con (val + 1)) None) /\ wsum a ls = (u * nc_mult con)%nat).
  { intros a H. pose proof (wt_val _ _ _ _ Ro a) as Hv. unfold cval in Hv. rewrite simple_con_map in Hv by auto. exists (gV g a (nc_id con)).
    split; [|lia]. apply (node_vals_above g _ _ _ _ _ W Hn Hrr). split.
    - eapply T_vals; [exact (di_inv _ _ _ _ _ (si_d _ _ _ _ _ _ I))|exact Hn| |nia]. apply (wf_TV _ _ W). rewrite skel_length. eapply nth_error_lt; eauto.
    - apply plain_round_up; auto. lia. }
  pose proof (vals_sorted_any g _ _ _ (nc_rev_map_round_up con (val + 1)) None W Hn) as St.
  destruct (node_vals n (nc_rev_map_round_up con (val + 1)) None) as [|v vs] eqn:Ev.
  - split; [lia|]. intros a H. destruct (Hu a H) as (u & [] & _).
  - rewrite simple_con_map by auto. assert (Hin : In v (node_vals n (nc_rev_map_round_up con (val + 1)) None)) by (rewrite Ev; now left).
    apply (node_vals_above g _ _ _ _ _ W Hn Hrr) in Hin as (_ & Hin). apply plain_round_up in Hin; auto. split; [lia|].
    intros a H. destruct (Hu a H) as (u & Hu1 & ->). inv St. rewrite Forall_forall in *. destruct Hu1 as [<-|Hu1]; [lia|]. apply H3 in Hu1. nia.
Qed.

Theorem rg_next_lower_ok w d T m i con ls val : shared w d T -> encoder_on T (KGte m) i con ls -> (1 <= val)%nat ->
  exists v, rg_next_lower d con val = Some v /\ (v < val)%nat /\ forall a, (wsum a ls < val -> wsum a ls <= v)%nat.
Proof.
  intros R En Hval. apply shared_inv in R as (g & ow & U & I). destruct (encoder_tree _ _ _ _ _ _ _ (si_T _ _ _ _ _ _ I) En) as (Ro & _). unfold rg_next_lower.
  destruct (wt_good _ _ _ _ Ro) as (Sc & M & n & Hn & _). rewrite Hn. cbn [obind].
  pose proof (proj1 (di_built _ _ _ _ _ (si_d _ _ _ _ _ _ I))) as W.
  set (vals := node_vals n (nc_offset con) (Some (nc_rev_map_round_up con val))).
  assert (Hvals : forall u, In u vals <-> In u (node_vals n 1 None) /\ (u * nc_mult con < val)%nat).
  { intros u. unfold vals. rewrite (node_vals_range g _ _ _ _ _ _ W Hn). pose proof (plain_round_up con u val Sc M). destruct Sc as (-> & _). intuition lia. }
  assert (Hu : forall a, (wsum a ls < val)%nat -> wsum a ls = 0%nat \/ exists u, In u vals /\ wsum a ls = (u * nc_mult con)%nat).
  { intros a H. pose proof (wt_val _ _ _ _ Ro a) as Hv. unfold cval in Hv. rewrite simple_con_map in Hv by auto.
    destruct (Nat.eq_dec (gV g a (nc_id con)) 0) as [E|E]; [left; nia|right]. exists (gV g a (nc_id con)).
    split; [|lia]. apply Hvals. split; [|lia].
    eapply T_vals; [exact (di_inv _ _ _ _ _ (si_d _ _ _ _ _ _ I))|exact Hn| |lia]. apply (wf_TV _ _ W). rewrite skel_length. eapply nth_error_lt; eauto. }
  assert (St : StronglySorted lt vals) by (eapply vals_sorted_any; eauto).
  assert (Last : forall v vs, rev vals = v :: vs -> In v vals /\ forall u, In u vals -> (u <= v)%nat).
  { intros v vs E. assert (Ev : vals = rev vs ++ [v]) by (rewrite <- (rev_involutive vals), E; reflexivity). rewrite Ev in *. split; [apply in_or_app; right; now left|].
    intros u Hu'. apply in_app_or in Hu' as [Hu'|[<-|[]]]; [|auto]. clear -St Hu'. induction (rev vs) as [|x l IH]; [destruct Hu'|]. cbn in St. inv St.
    destruct Hu' as [<-|Hu']; [|auto]. rewrite Forall_forall in *. specialize (H2 v). apply Nat.lt_le_incl, H2, in_or_app. right. now left. }
  destruct (rev vals) as [|v vs] eqn:Ev.
  - replace (1 <=? val)%nat with true by lia. cbn [assertb obind]. exists (val - 1)%nat. split; [reflexivity|]. split; [lia|]. intros a H. lia.
  - destruct (Last v vs eq_refl) as (H1 & H2). exists (nc_map con v). split; [reflexivity|]. rewrite simple_con_map by auto. apply Hvals in H1 as (_ & H1). split; [auto|].
    intros a H. destruct (Hu a H) as [H'|(u & H3 & ->)]; [lia|]. apply H2 in H3. nia.
Qed.
