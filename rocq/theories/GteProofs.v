(** * The generalized totalizer meets the specification of bound encodings *)

From Coq Require Import List Bool NArith ZArith Lia Arith Sorted Permutation.
From Coq Require Import ZifyBool ZifyNat ZifyN.
From Verif Require Import Spec BoundSpec Types Constraints Maps Atomics NodeDb TreeSpec TotDb Totalizer Gte Base TotDbInv TotDbUnit TotDbDefine TotDbGeneral TotDbBuild TotDbGrow TotDbMerge TotWeighted TotDbHist TotalizerProofs DbWorld.
Import ListNotations.

(** ** Maps *)
Lemma map_add_wsum a m l w : wsum a (map_add m l w) = (wsum a m + if lit_true a l then w else 0)%nat.
Proof.
  induction m as [|[k x] m IH]; cbn [map_add wsum]; [lia|]. destruct (lit_eqb k l) eqn:E; cbn [wsum].
  - apply lit_eqb_eq in E. subst k. destruct (lit_true a l); lia.
  - rewrite IH. lia.
Qed.
Lemma map_adds_wsum a xs m : wsum a (map_adds m xs) = (wsum a m + wsum a xs)%nat.
Proof.
  unfold map_adds. revert m. induction xs as [|[l w] xs IH]; intros m; cbn [fold_left wsum]; [lia|]. rewrite IH, map_add_wsum. lia.
Qed.
Lemma map_add_total m l w : total_weight (map_add m l w) = (total_weight m + w)%nat.
Proof.
  induction m as [|[k x] m IH]; cbn [map_add total_weight]; [lia|]. destruct (lit_eqb k l) eqn:E; cbn [total_weight]; lia.
Qed.
Lemma map_adds_total xs m : total_weight (map_adds m xs) = (total_weight m + total_weight xs)%nat.
Proof.
  unfold map_adds. revert m. induction xs as [|[l w] xs IH]; intros m; cbn [fold_left total_weight]; [lia|]. rewrite IH, map_add_total. lia.
Qed.
Lemma map_add_in m l w k x : In (k, x) (map_add m l w) -> (exists y, In (k, y) m /\ (y <= x)%nat) \/ (k = l /\ (w <= x)%nat).
Proof.
  induction m as [|[k' x'] m IH]; cbn [map_add In].
  - intros [[= <- <-]|[]]. right. auto.
  - destruct (lit_eqb k' l) eqn:E; cbn [In].
    + intros [[= <- <-]|H]; [left; exists x'; split; [auto|lia]|left; exists x; auto].
    + intros [[= <- <-]|H]; [left; exists x'; auto|]. apply IH in H as [(y & H & L)|H]; [left; exists y; auto|auto].
Qed.
Lemma map_adds_in xs m k x : In (k, x) (map_adds m xs) -> exists y, (In (k, y) m \/ In (k, y) xs) /\ (y <= x)%nat.
Proof.
  unfold map_adds. revert m. induction xs as [|[l w] xs IH]; intros m; cbn [fold_left In]; [intros H; exists x; auto|].
  intros H. apply IH in H as (y & [H|H] & L); [|exists y; auto]. apply map_add_in in H as [(z & H & L')|(-> & L')].
  - exists z. split; [auto|lia].
  - exists w. split; [auto|lia].
Qed.

(** ** Output literals *)
Lemma ld_has_if_spec dat l : ld_has_if dat = Some l -> exists s, dat = LLit l (Some s) /\ has_if s = true.
Proof. destruct dat as [|x [s|]]; cbn; try discriminate. destruct (has_if s) eqn:E; [|discriminate]. intros [= <-]. eauto. Qed.

Lemma out_if_spec g ns id n v : wf_shape (skel ns) g -> nth_error ns id = Some n -> is_dummy n = false -> In v (node_vals n 1 None) ->
  (exists l, out_if n v = Some (Some l) /\ lit_has ns id v SIf l) \/ (out_if n v = Some None /\ forall l, ~ lit_has ns id v SIf l).
Proof.
  intros W Hn D Hv. pose proof (vals_pos _ _ _ _ _ W Hn Hv) as Hb.
  assert (K : forall dat, data ns id v = Some dat -> (forall l, nth_error ns id <> Some (NLeaf l)) ->
     (exists l, ld_has_if dat = Some l /\ lit_has ns id v SIf l) \/ (ld_has_if dat = None /\ forall l, ~ lit_has ns id v SIf l)).
  { intros dat Hd Hl. destruct (ld_has_if dat) as [l|] eqn:E.
    - left. exists l. split; [auto|]. apply ld_has_if_spec in E as (s & -> & Es). right. exists (Some s). split; [auto|]. split; cbn; [auto|discriminate].
    - right. split; [auto|]. intros l [(H & _)|(s & H & H1 & _)]; [now apply Hl in H|]. assert (dat = LLit l s) as -> by congruence.
      specialize (H1 eq_refl). destruct s as [s|]; cbn in *; [|discriminate]. rewrite H1 in E. discriminate. }
  destruct n as [l|lits l r|lits m l r|]; cbn [node_vals out_if node_max_val] in *; [| | |discriminate].
  - left. exists l. split; [auto|]. left. split; [auto|lia].
  - destruct (nth_error lits (v - 1)) as [dat|] eqn:E; [|apply nth_error_None in E; lia]. cbn [obind].
    destruct (K dat) as [(x & E1 & E2)|(E1 & E2)]; rewrite ?E1; try congruence; eauto.
    unfold data. rewrite Hn. cbn [node_data]. replace (v =? 0)%nat with false by lia. auto.
  - apply filter_In in Hv as (Hv & _).
    destruct (lit_data lits v) as [dat|] eqn:E.
    + destruct (K dat) as [(x & E1 & E2)|(E1 & E2)]; rewrite ?E1; try congruence; eauto. unfold data. rewrite Hn. auto.
    + exfalso. clear -Hv E. induction lits as [|[x d] lits IH]; [destruct Hv|]. cbn [lit_data map In fst] in *.
      destruct (Nat.eqb_spec x v); [discriminate|]. destruct Hv; [congruence|auto].
Qed.

Lemma out_assumps_spec g ns id n vals : wf_shape (skel ns) g -> nth_error ns id = Some n -> is_dummy n = false ->
  (forall v, In v vals -> In v (node_vals n 1 None)) ->
  (exists outs, out_assumps n vals = Some (Some (map neg outs)) /\ Forall2 (fun v l => lit_has ns id v SIf l) vals outs) \/
  (out_assumps n vals = Some None /\ exists v, In v vals /\ forall l, ~ lit_has ns id v SIf l).
Proof.
  intros W Hn D. induction vals as [|v vals IH]; intros Hv; cbn [out_assumps].
  - left. exists []. split; [reflexivity|constructor].
  - destruct (out_if_spec g ns id n v W Hn D) as [(l & E & Hl)|(E & Hl)]; [apply Hv; now left| |]; rewrite E; cbn [obind].
    + destruct IH as [(outs & E' & F)|(E' & x & Hx & Hx')]; [intros; apply Hv; now right| |]; rewrite E'; cbn [obind option_map].
      * left. exists (l :: outs). split; [reflexivity|constructor; auto].
      * right. split; [reflexivity|]. exists x. split; [now right|auto].
    + right. split; [reflexivity|]. exists v. split; [now left|auto].
Qed.

Lemma buf_assumps_spec ub b :
  (buf_assumps ub b = Some (map (fun lw => neg (fst lw)) b) /\ forall l w, In (l, w) b -> (ub < w)%nat) \/
  (buf_assumps ub b = None /\ exists l w, In (l, w) b /\ (w <= ub)%nat).
Proof.
  induction b as [|[l w] b IH]; cbn [buf_assumps map fst]; [left; split; [auto|intros ? ? []]|].
  destruct (Nat.leb_spec w ub) as [L|L]; [right; split; [auto|]; exists l, w; split; [now left|auto]|].
  destruct IH as [(E & H)|(E & x & y & H & Hl)]; rewrite E; cbn [option_map].
  - left. split; [auto|]. intros x y [[= <- <-]|Hx]; [auto|eauto].
  - right. split; [auto|]. exists x, y. split; [now right|auto].
Qed.

(** ** Arithmetic of plain connections *)
Lemma plain_round_up con u v : simple_con con -> (1 <= nc_mult con)%nat -> (nc_rev_map_round_up con v <= u <-> v <= u * nc_mult con)%nat.
Proof.
  intros (O & D & L) M. unfold nc_rev_map_round_up, nc_rev_map, is_multiple_of. rewrite L, D, O. set (m := nc_mult con) in *.
  pose proof (Nat.div_mod_eq v m). pose proof (Nat.mod_upper_bound v m ltac:(lia)). destruct (Nat.eqb_spec (v mod m) 0) as [E|E].
  - split; intros; nia.
  - replace ((v + m) / m)%nat with (v / m + 1)%nat; [split; intros; nia|].
    replace (v + m)%nat with (v + 1 * m)%nat by lia. rewrite Nat.div_add by lia. reflexivity.
Qed.
Lemma plain_rev con u v : simple_con con -> (1 <= nc_mult con)%nat -> (u < nc_rev_map con v + 1 <-> u * nc_mult con <= v)%nat.
Proof.
  intros (O & D & L) M. unfold nc_rev_map. rewrite L, D, O. set (m := nc_mult con) in *.
  pose proof (Nat.div_mod_eq v m). pose proof (Nat.mod_upper_bound v m ltac:(lia)). split; intros; nia.
Qed.

Section Gte.
Context (ord : wmap -> wmap) (Hord : iter_order ord).

Section Units.
(** upper bounds asked for in the past and the literals returned for them *)
Context (U : list (nat * list lit)).

Record ginv_with (w : world (lit * nat)) (t : gte) (g : ghost) (ow : owner) (rls : list (lit * nat)) : Prop := mkGinv {
  gi_d : dinv fst w (gt_db t) g ow;
  gi_sum : forall a, wsum a (w_in w) = (wsum a rls + wsum a (gt_buf t))%nat;
  gi_total : total_weight (w_in w) = (total_weight rls + total_weight (gt_buf t))%nat;
  gi_root : match gt_root t with None => rls = [] | Some con => wtree g (d_nodes (gt_db t)) rls con end;
  gi_maxw : forall l x, In (l, x) rls -> (x <= gt_maxw t)%nat;
  gi_pos : forall l x, In (l, x) (gt_buf t) -> (1 <= x)%nat;
  gi_src : forall l x, In (l, x) (gt_buf t) -> exists y, In (l, y) (w_in w);
  gi_units : forall ub ls l, In (ub, ls) U -> In l ls -> (lvar l < w_next w)%N /\ forall a, (wsum a (w_in w) <= ub)%nat -> lit_true (canonize g ow a) l = true
}.

Definition ginv (w : world (lit * nat)) (t : gte) : Prop := exists g ow rls, ginv_with w t g ow rls.

Lemma weight_sum_with w t g ow rls : ginv_with w t g ow rls -> gte_weight_sum t = Some (total_weight (w_in w)).
Proof.
  intros I. unfold gte_weight_sum. assert (R := gi_root _ _ _ _ _ I). rewrite (gi_total _ _ _ _ _ I). rewrite sum_weights_acc.
  destruct (gt_root t) as [con|].
  - pose proof (wt_max _ _ _ _ R) as M. destruct (wt_good _ _ _ _ R) as (_ & _ & n & Hn & _). unfold cmax in M. rewrite Hn in *. cbn [obind]. f_equal. lia.
  - subst. cbn [obind total_weight]. f_equal. lia.
Qed.
Lemma weight_sum_ok w t : ginv w t -> gte_weight_sum t = Some (total_weight (w_in w)).
Proof. intros (g & ow & rls & I). eapply weight_sum_with; eauto. Qed.

(** the values of the root that [enforce_ub] looks at *)
Definition in_window (con : nodecon) (maxw ub v : nat) : Prop := (ub + 1 <= v * nc_mult con <= ub + maxw)%nat.

(** every output literal needed for the bound is there *)
Definition root_ready (t : gte) (ub : nat) : Prop :=
  match gt_root t with
  | None => True
  | Some con => forall n v, nth_error (d_nodes (gt_db t)) (nc_id con) = Some n -> In v (node_vals n 1 None) -> in_window con (gt_maxw t) ub v ->
                  exists l, lit_has (d_nodes (gt_db t)) (nc_id con) v SIf l
  end.

Lemma enforce_ub_cases w t g ow rls ub : ginv_with w t g ow rls ->
  (total_weight (w_in w) <= ub /\ gte_enforce_ub ord t ub = Some (EOk []))%nat \/
  (ub < total_weight (w_in w) /\ gte_enforce_ub ord t ub = Some ENotEncoded /\
     ((exists l x, In (l, x) (gt_buf t) /\ x <= ub) \/ ~ root_ready t ub))%nat \/
  (ub < total_weight (w_in w) /\ (forall l x, In (l, x) (gt_buf t) -> ub < x) /\ root_ready t ub /\
     exists outs, gte_enforce_ub ord t ub = Some (EOk (map (fun lw => neg (fst lw)) (ord (gt_buf t)) ++ map neg outs)) /\
       match gt_root t with
       | None => outs = []
       | Some con => (forall l, In l outs -> exists v, in_window con (gt_maxw t) ub v /\ lit_has (d_nodes (gt_db t)) (nc_id con) v SIf l) /\
                     (forall n v, nth_error (d_nodes (gt_db t)) (nc_id con) = Some n -> In v (node_vals n 1 None) -> in_window con (gt_maxw t) ub v ->
                        exists l, lit_has (d_nodes (gt_db t)) (nc_id con) v SIf l /\ In l outs)
       end)%nat.
Proof.
  intros I. unfold gte_enforce_ub. rewrite (weight_sum_with _ _ _ _ _ I). cbn [obind].
  destruct (Nat.leb_spec (total_weight (w_in w)) ub) as [L|L]; [left; auto|right].
  destruct (buf_assumps_spec ub (ord (gt_buf t))) as [(E & H)|(E & l & x & Hin & Hx)]; rewrite E.
  2:{ left. split; [auto|]. split; [auto|]. left. exists l, x. split; [|auto]. eapply Permutation_in; [apply Hord|eauto]. }
  assert (Hb : forall l x, In (l, x) (gt_buf t) -> (ub < x)%nat) by (intros l x Hx; apply (H l x); eapply Permutation_in; [symmetry; apply Hord|eauto]).
  assert (R := gi_root _ _ _ _ _ I). unfold root_ready. destruct (gt_root t) as [con|] eqn:Er.
  2:{ right. split; [auto|]. split; [auto|]. split; [auto|]. exists []. rewrite app_nil_r. auto. }
  destruct (wt_good _ _ _ _ R) as (Sc & M & n & Hn & D & _). rewrite Hn. cbn [obind].
  pose proof (proj1 (di_built _ _ _ _ _ (gi_d _ _ _ _ _ I))) as W.
  set (vals := node_vals n _ _).
  assert (Hvals : forall v, In v vals <-> In v (node_vals n 1 None) /\ in_window con (gt_maxw t) ub v).
  { intros v. unfold vals. rewrite (node_vals_range g _ _ _ _ _ _ W Hn). rewrite plain_round_up, plain_rev by auto. unfold in_window. tauto. }
  destruct (out_assumps_spec g _ (nc_id con) n vals W Hn D) as [(outs & E' & F)|(E' & v & Hv & Hno)].
  { intros v Hv. apply Hvals in Hv. tauto. }
  - right. rewrite E'. cbn [obind].
    assert (Fv : forall v, In v vals -> exists l, lit_has (d_nodes (gt_db t)) (nc_id con) v SIf l /\ In l outs).
    { clear -F. induction F as [|v l vals outs Hl F IH]; [intros ? []|]. intros x [<-|Hx]; [exists l; split; [auto|now left]|].
      destruct (IH x Hx) as (y & ? & ?). exists y. split; [auto|now right]. }
    assert (Fl : forall l, In l outs -> exists v, In v vals /\ lit_has (d_nodes (gt_db t)) (nc_id con) v SIf l).
    { clear -F. induction F as [|v l vals outs Hl F IH]; [intros ? []|]. intros x [<-|Hx]; [exists v; split; [now left|auto]|].
      destruct (IH x Hx) as (y & ? & ?). exists y. split; [now right|auto]. }
    split; [auto|]. split; [auto|]. split.
    + intros n' v Hn' Hv Hw. assert (n' = n) as -> by congruence. destruct (Fv v) as (l & Hl & _); [apply Hvals; auto|]. eauto.
    + exists outs. split; [reflexivity|]. split.
      * intros l Hl. destruct (Fl l Hl) as (v & Hv & Hl'). exists v. split; [apply Hvals; auto|auto].
      * intros n' v Hn' Hv Hw. assert (n' = n) as -> by congruence. apply Fv, Hvals. auto.
  - left. rewrite E'. cbn [obind]. split; [auto|]. split; [auto|]. right. intros Hr. apply Hvals in Hv as (Hv1 & Hv2).
    destruct (Hr n v eq_refl Hv1 Hv2) as (l & Hl). eapply Hno; eauto.
Qed.

(** a bound can be enforced as soon as it is ready *)
Lemma enforce_ub_ready w t ub : ginv w t -> (ub < total_weight (w_in w) -> (forall l x, In (l, x) (gt_buf t) -> ub < x) /\ root_ready t ub)%nat ->
  exists ls, gte_enforce_ub ord t ub = Some (EOk ls).
Proof.
  intros (g & ow & rls & I) H. destruct (enforce_ub_cases _ _ _ _ _ ub I) as [(L & E)|[(L & E & [(l & x & Hin & Hx)|Hn])|(L & _ & _ & outs & E & _)]]; [eauto| | |eauto].
  - destruct (H L) as (Hb & _). specialize (Hb _ _ Hin). lia.
  - destruct (H L) as (_ & Hr). tauto.
Qed.

(** ** Extending the tree *)
Lemma max_fold ls m0 : (m0 <= fold_left (fun m (lw : lit * nat) => if (m <? snd lw)%nat then snd lw else m) ls m0)%nat /\
  forall l x, In (l, x) ls -> (x <= fold_left (fun m (lw : lit * nat) => if (m <? snd lw)%nat then snd lw else m) ls m0)%nat.
Proof.
  revert m0. induction ls as [|[l x] ls IH]; intros m0; cbn [fold_left snd]; [split; [lia|intros ? ? []]|].
  destruct (IH (if (m0 <? x)%nat then x else m0)) as (H1 & H2). split; [destruct (Nat.ltb_spec m0 x); lia|].
  intros l' x' [[= <- <-]|H]; [destruct (Nat.ltb_spec m0 x); lia|eauto].
Qed.

Lemma filter_wsum a (p : lit * nat -> bool) ls : (wsum a (filter p ls) + wsum a (filter (fun x => negb (p x)) ls) = wsum a ls)%nat.
Proof. induction ls as [|[l x] ls IH]; [reflexivity|]. cbn [filter]. destruct (p (l, x)); cbn [negb wsum]; lia. Qed.
Lemma filter_total (p : lit * nat -> bool) ls : (total_weight (filter p ls) + total_weight (filter (fun x => negb (p x)) ls) = total_weight ls)%nat.
Proof. induction ls as [|[l x] ls IH]; [reflexivity|]. cbn [filter]. destruct (p (l, x)); cbn [negb total_weight]; lia. Qed.
Lemma filter_perm {B} (p : B -> bool) l1 l2 : Permutation l1 l2 -> Permutation (filter p l1) (filter p l2).
Proof.
  induction 1 as [|x l1 l2 P IH|x y l|l1 l2 l3 P1 I1 P2 I2]; cbn [filter]; auto.
  - destruct (p x); auto.
  - destruct (p x), (p y); auto. constructor.
  - etransitivity; eauto.
Qed.

Lemma extend_tree_ok w t mw : ginv w t ->
  exists t1, gte_extend_tree ord t mw = Some t1 /\ ginv w t1 /\
    gt_buf t1 = filter (fun lw => negb (weight_le (snd lw) mw)) (gt_buf t) /\
    (gt_buf t = gt_buf t1 -> t1 = t).
Proof.
  intros T. assert (T0 := T). destruct T0 as (g & ow & rls & I). unfold gte_extend_tree.
  set (p := fun lw : lit * nat => weight_le (snd lw) mw). set (new := filter p (ord (gt_buf t))).
  assert (Pn : Permutation new (filter p (gt_buf t))) by (apply filter_perm, Hord).
  assert (Keep : forall ls, filter p ls = [] -> filter (fun lw => negb (p lw)) ls = ls).
  { induction ls as [|x ls IH]; [reflexivity|]. cbn [filter]. destruct (p x); [discriminate|]. cbn [negb]. intros H. f_equal. auto. }
  assert (Drop : filter (fun lw => negb (p lw)) (gt_buf t) = gt_buf t -> new = []).
  { intros H. destruct new as [|x new'] eqn:En; [reflexivity|]. exfalso.
    assert (Hx : In x (filter p (gt_buf t))) by (eapply Permutation_in; [exact Pn|now left]). apply filter_In in Hx as (Hx & Px).
    rewrite <- H in Hx. apply filter_In in Hx as (_ & Hx). rewrite Px in Hx. discriminate. }
  destruct new as [|x0 new0] eqn:En.
  { exists t. split; [reflexivity|]. split; [auto|]. apply Permutation_nil in Pn. split; [symmetry; apply Keep; auto|auto]. }
  rewrite <- En in *. assert (Hne : new <> []) by (rewrite En; discriminate). clear x0 new0 En.
  set (srt := sort_by (fun x y => (snd x <=? snd y)%nat) new).
  assert (Ps : Permutation srt new) by apply sort_by_perm.
  assert (Hin : forall l x, In (l, x) srt -> In (l, x) (gt_buf t)).
  { intros l x H. eapply Permutation_in in H; [|exact Ps]. eapply Permutation_in in H; [|exact Pn]. apply filter_In in H. tauto. }
  assert (D := gi_d _ _ _ _ _ I).
  destruct (add_segments_ok (segments srt) g (gt_db t) [] [] (di_built _ _ _ _ _ D) (Forall2_nil _) (segments_nonempty srt)) as (d1 & cs & g1 & E1 & B1 & G1 & F1).
  { intros s Hs. apply segments_weights in Hs as (l & Hl). eapply (gi_pos _ _ _ _ _ I). eauto. }
  cbn [app] in *. rewrite segments_concat in G1. rewrite E1. cbn [obind].
  set (cs2 := cs ++ match gt_root t with Some con => [con] | None => [] end).
  set (lss2 := map seg_lits (segments srt) ++ match gt_root t with Some con => [rls] | None => [] end).
  assert (Cl : concat lss2 = srt ++ rls).
  { unfold lss2. rewrite concat_app, segments_concat. f_equal. pose proof (gi_root _ _ _ _ _ I) as R. destruct (gt_root t); cbn [concat]; [apply app_nil_r|auto]. }
  assert (F2 : Forall2 (fun c ls => wtree g1 (d_nodes d1) ls c) cs2 lss2).
  { apply Forall2_app; [exact F1|]. pose proof (gi_root _ _ _ _ _ I) as R. destruct (gt_root t); constructor; [|constructor]. eapply wtree_grow; eauto. }
  assert (Hgood : Forall (con_good (d_nodes d1)) cs2).
  { clear -F2. induction F2; constructor; auto. apply (wt_good _ _ _ _ H). }
  destruct (merge_balanced_ok g1 d1 cs2 B1 Hgood) as (d2 & con & g2 & E2 & B2 & G2 & M2).
  { intros Hc. assert (cs = []) as -> by (unfold cs2 in Hc; destruct cs; [auto|discriminate]). inv F1.
    assert (srt <> []) as Hs by (intros Hs; rewrite Hs in Ps; apply Permutation_nil in Ps; auto). apply (segments_ne srt Hs). destruct (segments srt); [auto|discriminate]. }
  rewrite E2. cbn [obind]. eexists. split; [reflexivity|].
  assert (G12 : grow (map lvar (map fst srt)) (gt_db t) g d2 g2).
  { eapply grow_trans; [exact G1|]. eapply grow_incl; [|exact G2]. intros x []. }
  split; [|split; [reflexivity|]].
  - exists g2, ow, (srt ++ rls). constructor; cbn [gt_db gt_buf gt_root gt_maxw].
    + eapply dinv_grow; [exact D|exact B2|exact G12|]. intros v Hv. rewrite map_map in Hv. apply in_map_iff in Hv as ([l x] & <- & Hx).
      apply Hin in Hx. apply (gi_src _ _ _ _ _ I) in Hx as (y & Hy). exists (l, y). auto.
    + intros a. rewrite (gi_sum _ _ _ _ _ I), wsum_app, (wsum_perm a srt new), (wsum_perm a new (filter p (gt_buf t))) by auto.
      rewrite <- (filter_wsum a p (gt_buf t)). unfold p. lia.
    + rewrite (gi_total _ _ _ _ _ I), total_weight_app, (total_weight_perm srt new), (total_weight_perm new (filter p (gt_buf t))) by auto.
      rewrite <- (filter_total p (gt_buf t)). unfold p. lia.
    + rewrite <- Cl. eapply merged_wtree; [right; exact (proj1 B1)|exact M2|exact F2].
    + intros l x H. destruct (max_fold new (gt_maxw t)) as (M1 & M3). apply in_app_or in H as [H|H].
      * apply (M3 l x). eapply Permutation_in; [exact Ps|auto].
      * apply (gi_maxw _ _ _ _ _ I) in H. lia.
    + intros l x H. apply filter_In in H as (H & _). eapply gi_pos; eauto.
    + intros l x H. apply filter_In in H as (H & _). eapply gi_src; eauto.
    + intros ub ls l H1 H2. destruct (gi_units _ _ _ _ _ I ub ls l H1 H2) as (L & K). split; [auto|]. intros a Ha. specialize (K a Ha).
      unfold lit_true in *. now rewrite (canonize_grow _ _ _ _ _ _ _ _ _ _ a (lvar l) (di_inv _ _ _ _ _ D) G12).
  - cbn [gt_buf]. intros H. exfalso. apply Hne, Drop. auto.
Qed.

(** ** Encoding *)
Lemma define_vals_ok GF GU GL g ow st id n vals : inv GF GU GL g ow st -> nth_error (t_nodes st) id = Some n -> is_dummy n = false ->
  (forall v, In v vals -> In v (node_vals n 1 None)) ->
  exists st' ow', define_vals st id vals = Some st' /\ inv GF GU GL g ow' st' /\ ext ow st ow' st' /\
    (forall v, In v vals -> exists l, lit_has (t_nodes st') id v SIf l).
Proof.
  unfold define_vals. revert ow st n. induction vals as [|v vals IH]; intros ow st n I Hn D Hv; cbn [foldM].
  - exists st, ow. split; [auto|]. split; [auto|]. split; [apply ext_refl|]. intros i [].
  - pose proof (Hv v (or_introl eq_refl)) as Hv0. pose proof (vals_pos _ _ _ _ _ (i_shape _ _ _ _ _ _ I) Hn Hv0) as Hb.
    destruct (define_weighted_ok GF GU GL g (S (length (t_nodes st))) st ow id v n I Hn D Hb) as (o & st1 & ow1 & E1 & I1 & X1 & _ & P1).
    { pose proof (wf_rk _ _ (i_shape _ _ _ _ _ _ I) id) as H. rewrite skel_length in H. specialize (H (nth_error_lt _ _ _ Hn)). lia. }
    rewrite E1. cbn [obind]. destruct o as [l|]; [|tauto]. destruct P1 as (_ & L1).
    destruct (node_same_skel _ (t_nodes st1) _ _ (e_skel _ _ _ _ X1) Hn) as (n' & Hn' & He).
    destruct (vals_transfer _ _ _ _ _ (e_skel _ _ _ _ X1) Hn Hn') as (Hvals & Hmax & Hdum).
    destruct (IH ow1 st1 n' I1 Hn' ltac:(congruence)) as (st2 & ow2 & E2 & I2 & X2 & L2).
    { intros j Hj. rewrite Hvals. apply Hv. now right. }
    exists st2, ow2. split; [exact E2|]. split; [auto|]. split; [eapply ext_trans; eauto|].
    intros j [<-|Hj]; [|auto]. exists l. eapply lit_has_ext; eauto.
Qed.

(** a later state with the same tree, in which the bounds that could be enforced still can *)
Definition keeps (t t' : gte) : Prop := forall ub ls, gte_enforce_ub ord t ub = Some (EOk ls) -> gte_enforce_ub ord t' ub = Some (EOk ls).

Lemma lit_has_fun ns id v sem l l' : lit_has ns id v sem l -> lit_has ns id v sem l' -> l = l'.
Proof.
  intros [(N1 & _)|(s & D & _)] [(N2 & _)|(s' & D' & _)]; try congruence; unfold data in *; [rewrite N1 in D'|rewrite N2 in D]; discriminate.
Qed.

Lemma out_assumps_ext ns ns' id n n' vals ls : (forall v l, out_if n v = Some (Some l) -> out_if n' v = Some (Some l)) ->
  nth_error ns id = Some n -> nth_error ns' id = Some n' -> out_assumps n vals = Some (Some ls) -> out_assumps n' vals = Some (Some ls).
Proof.
  intros H Hn Hn'. revert ls. induction vals as [|v vals IH]; intros ls; cbn [out_assumps]; [auto|].
  intros E. apply obind_some in E as (o & Eo & E). destruct o as [l|]; [|discriminate]. rewrite (H _ _ Eo). cbn [obind].
  apply obind_some in E as (r & Er & E). destruct r as [r|]; [|discriminate]. rewrite (IH _ Er). exact E.
Qed.

Lemma out_if_ext ow st ow' st' id n n' v l : ext ow st ow' st' -> nth_error (t_nodes st) id = Some n -> nth_error (t_nodes st') id = Some n' ->
  out_if n v = Some (Some l) -> (v <> 0)%nat -> out_if n' v = Some (Some l).
Proof.
  intros X Hn Hn' E Hv.
  destruct (node_same_skel _ (t_nodes st') _ _ (e_skel _ _ _ _ X) Hn) as (n2 & Hn2 & He). assert (n2 = n') as -> by congruence.
  assert (K : forall dat, data (t_nodes st) id v = Some dat -> ld_has_if dat = Some l -> exists dat', data (t_nodes st') id v = Some dat' /\ ld_has_if dat' = Some l).
  { intros dat Hd Hl. apply ld_has_if_spec in Hl as (s & -> & Hs). destruct (e_data _ _ _ _ X _ _ _ _ Hd) as (s' & Hd' & H1 & _).
    exists (LLit l s'). split; [auto|]. specialize (H1 Hs). destruct s' as [s'|]; cbn in *; [|discriminate]. now rewrite H1. }
  destruct n as [x|lits x r|lits m x r|], n' as [x'|lits' x' r'|lits' m' x' r'|]; cbn [erase] in He; try discriminate; cbn [out_if] in *.
  - congruence.
  - apply obind_some in E as (dat & Ed & E). injection E as E.
    destruct (K dat) as (dat' & Hd' & E'); [|auto|].
    { unfold data. rewrite Hn. cbn [node_data]. replace (v =? 0)%nat with false by lia. auto. }
    unfold data in Hd'. rewrite Hn' in Hd'. cbn [node_data] in Hd'. replace (v =? 0)%nat with false in Hd' by lia. rewrite Hd'. cbn [obind]. now rewrite E'.
  - destruct (lit_data lits v) as [dat|] eqn:Ed; [|discriminate]. injection E as E.
    destruct (K dat) as (dat' & Hd' & E'); [|auto|].
    { unfold data. rewrite Hn. auto. }
    unfold data in Hd'. rewrite Hn' in Hd'. cbn [node_data] in Hd'. rewrite Hd'. now rewrite E'.
Qed.

Lemma keeps_ext w t t' w' ow st ow' st' : ginv w t -> ginv w' t' -> w_in w' = w_in w -> gt_buf t' = gt_buf t -> gt_root t' = gt_root t -> gt_maxw t' = gt_maxw t ->
  t_nodes st = d_nodes (gt_db t) -> t_nodes st' = d_nodes (gt_db t') -> ext ow st ow' st' -> keeps t t'.
Proof.
  intros T T' Hin Hb Hr Hm En En' X ub ls. unfold gte_enforce_ub. rewrite (weight_sum_ok _ _ T), (weight_sum_ok _ _ T'), Hin. cbn [obind]. rewrite Hb, Hr, Hm.
  destruct (_ <=? ub)%nat; [auto|]. destruct (buf_assumps ub (ord (gt_buf t))) as [as1|]; [|discriminate].
  destruct T as (g & ow0 & rls & I). assert (R := gi_root _ _ _ _ _ I). destruct (gt_root t) as [con|]; [|auto].
  destruct (wt_good _ _ _ _ R) as (Sc & M & n & Hn & D & _). rewrite Hn. cbn [obind].
  assert (Hn0 : nth_error (t_nodes st) (nc_id con) = Some n) by congruence.
  destruct (node_same_skel _ (t_nodes st') _ _ (e_skel _ _ _ _ X) Hn0) as (n' & Hn' & He).
  destruct (vals_transfer (t_nodes st) (t_nodes st') (nc_id con) n n' (e_skel _ _ _ _ X) ltac:(congruence) Hn') as (Hvals & _).
  rewrite En' in Hn'. rewrite Hn'. cbn [obind]. intros E. apply obind_some in E as (o & Eo & E). destruct o as [as2|]; [|discriminate].
  assert (Hv : forall lo hi, node_vals n' lo hi = node_vals n lo hi).
  { intros lo hi. rewrite <- node_vals_erase, He, node_vals_erase. reflexivity. }
  rewrite Hv. 
  assert (W := proj1 (di_built _ _ _ _ _ (gi_d _ _ _ _ _ I))).
  assert (Hout : forall vals, (forall v, In v vals -> v <> 0%nat) -> out_assumps n vals = Some (Some as2) -> out_assumps n' vals = Some (Some as2)).
  { clear E Eo. revert as2. intros as2 vals. revert as2. induction vals as [|v vals IH]; intros as2 Hz; cbn [out_assumps]; [auto|].
    intros E. apply obind_some in E as (o & Eo & E). destruct o as [l|]; [|discriminate].
    rewrite (out_if_ext _ _ _ _ _ _ _ _ _ X ltac:(rewrite En; exact Hn) ltac:(rewrite En'; exact Hn') Eo) by (apply Hz; now left). cbn [obind].
    apply obind_some in E as (r & Er & E). destruct r as [r|]; [|discriminate]. rewrite (IH r); auto. intros x Hx. apply Hz. now right. }
  apply Hout in Eo; [rewrite Eo; exact E|].
  intros v Hv'. apply (node_vals_range g _ _ _ _ _ _ W Hn) in Hv' as (Hv' & _). apply (vals_pos _ _ _ _ _ W Hn) in Hv'. lia.
Qed.

Definition encoded w t (t' : gte) (cs : cnf) (next' : N) : Prop :=
  (w_next w <= next')%N /\ ginv (log_call w false false cs next') t' /\ (gt_buf t' = gt_buf t -> keeps t t').

Lemma ginv_noop w t : ginv w t -> ginv (log_call w false false [] (w_next w)) t.
Proof. intros (g & ow & rls & [I1 I2 I3 I4 I5 I6 I7 I8]). exists g, ow, rls. constructor; auto. apply dinv_noop. auto. Qed.

Lemma ginv_call w t g ow rls ow' st' : ginv_with w t g ow rls ->
  inv (w_all w) (w_ub w) (w_lb w) g ow' st' -> ext ow (mkTst (d_nodes (gt_db t)) (w_next w) []) ow' st' ->
  forall nv nc, ginv (log_call w false false (t_cls st') (t_next st'))
    (mkGte (gt_buf t) (gt_root t) (gt_maxw t) nv nc (set_nodes_db (gt_db t) (t_nodes st'))).
Proof.
  intros [I1 I2 I3 I4 I5 I6 I7 I8] I' X nv nc. exists g, ow', rls.
  constructor; cbn [gt_buf gt_root gt_maxw gt_db log_call w_in]; auto.
  - eapply dinv_call; eauto.
  - destruct (gt_root t); [|auto]. cbn [set_nodes_db d_nodes]. eapply wtree_skel; [|exact I4]. exact (e_skel _ _ _ _ X).
  - cbn [log_call w_next w_in]. intros ub ls l H1 H2. destruct (I8 ub ls l H1 H2) as (L & K). pose proof (e_next _ _ _ _ X) as Ln. cbn [t_next] in Ln. split; [lia|]. intros a Ha. specialize (K a Ha).
    unfold lit_true in *. now rewrite (canonize_ext g _ _ _ _ a (lvar l) X).
Qed.

Definition ub_ready (t : gte) (r : rng) : Prop := forall ub, in_rng ub r -> exists ls, gte_enforce_ub ord t ub = Some (EOk ls).

Lemma encode_ub_change_ok w t r : ginv w t ->
  exists t' cs next', gte_encode_ub_change ord t r (w_next w) = Some (t', cs, next') /\ encoded w t t' cs next' /\ ub_ready t' r.
Proof.
  intros T. unfold gte_encode_ub_change. rewrite (weight_sum_ok _ _ T). cbn [obind]. set (ws := total_weight (w_in w)).
  destruct (prepare_ub_range ws r) as [lo hi] eqn:Er.
  assert (Hrin : forall ub, in_rng ub r -> (ub < ws)%nat -> (lo <= ub < hi)%nat).
  { intros ub H1 H2. pose proof (ub_range_in ws r ub H1 H2) as H. rewrite Er in H. cbn [fst snd] in H. lia. }
  destruct (Nat.leb_spec hi lo) as [L|L].
  - exists t, [], (w_next w). split; [reflexivity|]. split; [split; [lia|]; split; [apply ginv_noop; auto|intros _ ? ?; auto]|].
    intros ub H. apply (enforce_ub_ready w t ub T). intros Hu. specialize (Hrin ub H Hu). lia.
  - destruct (extend_tree_ok w t (Some (hi - 1)%nat) T) as (t1 & E1 & T1 & B1 & K1). rewrite E1. cbn [obind].
    assert (Hbuf : forall ub l x, (ub < hi)%nat -> In (l, x) (gt_buf t1) -> (ub < x)%nat).
    { intros ub l x Hu Hx. rewrite B1 in Hx. apply filter_In in Hx as (_ & Hx). cbn [snd weight_le] in Hx. lia. }
    assert (T1' := T1). destruct T1' as (g1 & ow1 & rls1 & I1). assert (R := gi_root _ _ _ _ _ I1). destruct (gt_root t1) as [con|] eqn:Erc.
    + destruct (wt_good _ _ _ _ R) as (Sc & M & n & Hn & D & _). rewrite Hn. cbn [obind].
      pose proof (proj1 (di_built _ _ _ _ _ (gi_d _ _ _ _ _ I1))) as W.
      set (vals := node_vals n _ _).
      assert (Hvals : forall v, In v vals <-> In v (node_vals n 1 None) /\ (lo + 1 <= v * nc_mult con <= hi + gt_maxw t1)%nat).
      { intros v. unfold vals. rewrite (node_vals_range g1 _ _ _ _ _ _ W Hn). rewrite plain_round_up, plain_rev by auto. tauto. }
      destruct (define_vals_ok _ _ _ _ _ _ (nc_id con) n vals (di_inv _ _ _ _ _ (gi_d _ _ _ _ _ I1)) Hn D) as (st' & ow' & E & I' & X & HL).
      { intros v Hv. apply Hvals in Hv. tauto. }
      rewrite E. cbn [obind].
      pose proof (ginv_call _ _ _ _ _ _ _ I1 I' X (gt_vars t1 + (t_next st' - w_next w))%N (gt_cls t1 + length (t_cls st'))%nat) as TI. rewrite Erc in TI.
      eexists _, _, _. split; [reflexivity|]. split; [split; [exact (e_next _ _ _ _ X)|]; split; [exact TI|]|].
      * cbn [gt_buf]. intros Hb. symmetry in Hb. apply K1 in Hb. subst t1. eapply keeps_ext; [exact T|exact TI| | | | | | |exact X]; cbn; auto.
      * intros ub H. apply (enforce_ub_ready _ _ ub TI). cbn [log_call w_in]. intros Hu. specialize (Hrin ub H Hu). split.
        -- intros l x. cbn [gt_buf]. intros Hx. apply (Hbuf ub l x); [lia|auto].
        -- unfold root_ready. cbn [gt_root gt_db gt_maxw set_nodes_db d_nodes]. intros n' v Hn' Hv Hw. apply HL, Hvals.
           destruct (vals_transfer _ _ _ _ _ (e_skel _ _ _ _ X) Hn Hn') as (Hvv & _). rewrite Hvv in Hv. split; [auto|]. unfold in_window in Hw. lia.
    + exists t1, [], (w_next w). split; [reflexivity|]. split; [split; [lia|]; split; [apply ginv_noop; auto|]|].
      * intros Hb. symmetry in Hb. apply K1 in Hb. subst t1. intros ? ?; auto.
      * intros ub H. apply (enforce_ub_ready w t1 ub T1). intros Hu. specialize (Hrin ub H Hu). split; [|unfold root_ready; now rewrite Erc].
        intros l x Hx. apply (Hbuf ub l x); [lia|auto].
Qed.

Lemma reserve_ok w t : ginv w t ->
  exists t' next', gte_reserve ord t (w_next w) = Some (t', next') /\ encoded w t t' [] next'.
Proof.
  intros T. unfold gte_reserve. destruct (extend_tree_ok w t None T) as (t1 & E1 & T1 & B1 & K1). rewrite E1. cbn [obind].
  assert (T1' := T1). destruct T1' as (g1 & ow1 & rls1 & I1). assert (R := gi_root _ _ _ _ _ I1). destruct (gt_root t1) as [con|] eqn:Er.
  - pose proof (wt_good _ _ _ _ R) as C. pose proof C as (Sc & M & n & Hn & D & _).
    destruct (reserve_vars_ok _ _ _ _ (S (length (d_nodes (gt_db t1)))) _ _ con (di_inv _ _ _ _ _ (gi_d _ _ _ _ _ I1))) as (st' & ow' & E & I' & X & Ec).
    { apply con_good_ok. exact C. }
    { left. apply Sc. }
    { eapply dinv_fuel; [exact (gi_d _ _ _ _ _ I1)|exact Hn]. }
    rewrite E. cbn [obind]. eexists _, _. split; [reflexivity|].
    pose proof (ginv_call _ _ _ _ _ _ _ I1 I' X (gt_vars t1) (gt_cls t1)) as TI. rewrite Er, Ec in TI.
    split; [exact (e_next _ _ _ _ X)|]. split; [exact TI|].
    cbn [gt_buf]. intros Hb. symmetry in Hb. apply K1 in Hb. subst t1. eapply keeps_ext; [exact T|exact TI| | | | | | |exact X]; cbn; auto.
  - exists t1, (w_next w). split; [reflexivity|]. split; [lia|]. split; [apply ginv_noop; auto|].
    intros Hb. symmetry in Hb. apply K1 in Hb. subst t1. intros ? ?; auto.
Qed.

(** [encode_ub] starts over *)
Lemma ginv_reset w t : ginv w t -> ginv (mkWorld (w_in w) (w_next w) (w_aux w) (w_all w) [] (w_lb w)) (gte_reset t).
Proof.
  intros (g & ow & rls & [I1 I2 I3 I4 I5 I6 I7 I8]). exists g, ow, rls. constructor; cbn [gte_reset gt_buf gt_root gt_maxw gt_db w_in]; auto.
  - apply dinv_reset_if. auto.
  - destruct (gt_root t); [|auto]. cbn [set_nodes_db d_nodes]. eapply wtree_skel; [|exact I4]. apply reset_skel.
Qed.

Lemma encode_ub_ok w t r : ginv w t ->
  exists t' cs next', gte_encode_ub ord t r (w_next w) = Some (t', cs, next') /\ (w_next w <= next')%N /\ ginv (log_call w true false cs next') t' /\ ub_ready t' r.
Proof.
  intros T. apply ginv_reset in T. destruct (encode_ub_change_ok _ _ r T) as (t' & cs & next' & E & (N1 & T' & _) & R).
  exists t', cs, next'. split; [exact E|]. split; [exact N1|]. split; [exact T'|exact R].
Qed.

Lemma ginv_init : U = [] -> ginv world0 gte_new.
Proof.
  intros HU. exists ghost0, (fun _ => None), []. constructor; cbn [gte_new gt_db gt_buf gt_root gt_maxw world0 w_in]; auto.
  - apply dinv_init.
  - intros l x [].
  - intros l x [].
  - intros l x [].
  - rewrite HU. intros ub ls l [].
Qed.

Lemma ginv_extend w t xs : ginv w t -> (forall x, In x xs -> (1 <= snd x)%nat /\ (lvar (fst x) < w_next w)%N /\ ~ in_aux (w_aux w) (lvar (fst x))) ->
  ginv (mkWorld (w_in w ++ xs) (w_next w) (w_aux w) (w_all w) (w_ub w) (w_lb w)) (gte_extend t xs).
Proof.
  intros (g & ow & rls & [I1 I2 I3 I4 I5 I6 I7 I8]) H. exists g, ow, rls. constructor; cbn [gte_extend gt_db gt_buf gt_root gt_maxw w_in]; auto.
  - apply dinv_extend; [auto|]. intros x Hx. apply H in Hx. tauto.
  - intros a. rewrite wsum_app, I2, map_adds_wsum. lia.
  - rewrite total_weight_app, I3, map_adds_total. lia.
  - intros l x Hx. apply map_adds_in in Hx as (y & [Hy|Hy] & Hle); [apply I6 in Hy; lia|]. apply H in Hy. cbn [snd] in Hy. lia.
  - intros l x Hx. apply map_adds_in in Hx as (y & [Hy|Hy] & Hle).
    + apply I7 in Hy as (z & Hz). exists z. apply in_or_app. auto.
    + exists y. apply in_or_app. auto.
  - intros ub ls l H1 H2. destruct (I8 ub ls l H1 H2) as (L & K). split; [auto|]. intros a Ha. apply K. rewrite wsum_app in Ha. lia.
Qed.

Lemma ginv_user w t k : ginv w t -> ginv (mkWorld (w_in w) (w_next w + k)%N (w_aux w) (w_all w) (w_ub w) (w_lb w)) t.
Proof. intros (g & ow & rls & [I1 I2 I3 I4 I5 I6 I7 I8]). exists g, ow, rls. constructor; cbn [w_in w_next]; auto; [now apply dinv_user|].
  intros ub ls l H1 H2. destruct (I8 ub ls l H1 H2) as (L & K). split; [lia|auto].
Qed.

(** ** Histories *)
Notation valid w op := (valid_op (@fst lit nat) pos_weight ub_only w op).
Notation reach := (reachable (gte_enc ord) (@fst lit nat) pos_weight ub_only).

Lemma step_ok w t op : ginv w t -> valid w op -> exists w' t', step (gte_enc ord) w t op = Some (w', t') /\ ginv w' t'.
Proof.
  intros T (Ha & Hv). destruct op as [xs|k| |r|r|r|r|r]; cbn in Ha; try tauto; cbn [step gte_enc en_extend en_reserve en_ub en_ub_change].
  - eexists _, _. split; [reflexivity|]. apply ginv_extend; [auto|]. intros x Hx. apply Hv in Hx. tauto.
  - eexists _, _. split; [reflexivity|]. apply ginv_user; auto.
  - destruct (reserve_ok w t T) as (t' & n' & E & (_ & T' & _)). rewrite E. eauto.
  - destruct (encode_ub_ok w t r T) as (t' & cs & n' & E & _ & T' & _). rewrite E. cbn. eauto.
  - destruct (encode_ub_change_ok w t r T) as (t' & cs & n' & E & (_ & T' & _) & _). rewrite E. cbn. eauto.
Qed.

End Units.
Arguments gi_d {U}. Arguments gi_sum {U}. Arguments gi_total {U}. Arguments gi_root {U}. Arguments gi_maxw {U}. Arguments gi_pos {U}. Arguments gi_src {U}. Arguments gi_units {U}.
Arguments enforce_ub_cases {U}. Arguments step_ok {U}. Arguments encode_ub_ok {U}. Arguments encode_ub_change_ok {U}. Arguments reserve_ok {U}.
Notation valid w op := (valid_op (@fst lit nat) pos_weight ub_only w op).
Notation reach := (reachable (gte_enc ord) (@fst lit nat) pos_weight ub_only).

Lemma reach_ginv w t : reach w t -> ginv [] w t.
Proof.
  induction 1 as [|w s op w' s' R IH V E]; [now apply ginv_init|].
  destruct (step_ok w s op IH V) as (w2 & t2 & E2 & T2). congruence.
Qed.

Theorem gte_no_panic : no_panic (gte_enc ord) fst pos_weight ub_only.
Proof. intros w s op R V. destruct (step_ok w s op (reach_ginv _ _ R) V) as (w2 & t2 & E2 & T2). congruence. Qed.

Theorem gte_enforce_total : enforce_total (gte_enc ord) fst pos_weight ub_only.
Proof.
  intros w s R. apply reach_ginv in R as (g & ow & r & I). split; intros b; cbn [gte_enc en_enforce_ub en_enforce_lb]; [|discriminate].
  destruct (enforce_ub_cases _ _ _ _ _ b I) as [(_ & E)|[(_ & E & _)|(_ & _ & _ & outs & E & _)]]; congruence.
Qed.

Theorem gte_ub_sound : ub_sound (gte_enc ord) fst pos_weight ub_only wsum.
Proof.
  intros w s ub ls a R E Sf Sc. apply reach_ginv in R as (g & ow & rls & I). cbn [gte_enc en_enforce_ub] in E.
  destruct (enforce_ub_cases _ _ _ _ _ ub I) as [(L & _)|[(_ & E' & _)|(L & Hb & Hr & outs & E' & Ho)]]; [|congruence|].
  - pose proof (wsum_le a (w_in w)). lia.
  - rewrite E' in E. injection E as <-. unfold sat_cube in Sc. rewrite forallb_app in Sc. apply andb_true_iff in Sc as (Sc1 & Sc2).
    rewrite forallb_forall in Sc1, Sc2.
    assert (Z : wsum a (gt_buf s) = 0%nat).
    { assert (Hz : forall l x, In (l, x) (gt_buf s) -> lit_true a l = false).
      { intros l x Hx. assert (Hn : lit_true a (neg l) = true) by (apply Sc1, in_map_iff; exists (l, x); split; [reflexivity|]; eapply Permutation_in; [symmetry; apply Hord|auto]).
        rewrite lit_true_neg in Hn. destruct (lit_true a l); [discriminate|auto]. }
      clear -Hz. induction (gt_buf s) as [|[l x] b IH]; [reflexivity|]. cbn [wsum]. rewrite (Hz l x (or_introl eq_refl)), IH; [reflexivity|].
      intros l' x' H. apply (Hz l' x'). now right. }
    rewrite (gi_sum _ _ _ _ _ I), Z, Nat.add_0_r. assert (Ro := gi_root _ _ _ _ _ I). destruct (gt_root s) as [con|]; [|subst; cbn; lia].
    destruct Ho as (_ & Ho). destruct (Nat.le_gt_cases (wsum a rls) ub) as [G|G]; [auto|]. exfalso.
    rewrite <- (wt_val _ _ _ _ Ro) in G.
    destruct (wt_dense _ _ _ _ Ro (gt_maxw s) (gi_maxw _ _ _ _ _ I) a ub G) as (v & (u & Tu & ->) & Bv).
    destruct (wt_good _ _ _ _ Ro) as (Scon & M & n & Hn & _). rewrite simple_con_map in Bv by auto.
    assert (D := gi_d _ _ _ _ _ I).
    destruct (T_vals _ _ _ _ _ _ _ _ (di_inv _ _ _ _ _ D) Hn a u Tu) as (Hu & _); [nia|].
    destruct (Ho n u Hn Hu) as (l & Hl & Hin); [unfold in_window; lia|].
    assert (Hlt : lit_true a l = true) by (eapply dinv_if; eauto).
    assert (Hn' : lit_true a (neg l) = true) by (apply Sc2, in_map_iff; eauto). rewrite lit_true_neg, Hlt in Hn'. discriminate.
Qed.

Lemma enforce_canon U w s g ow rls ub ls : ginv_with U w s g ow rls -> gte_enforce_ub ord s ub = Some (EOk ls) ->
  forall a, (wsum a (w_in w) <= ub)%nat -> sat_cube (canonize g ow a) ls = true.
Proof.
  intros I E a Hle. assert (D := gi_d _ _ _ _ _ I). destruct (dinv_canon fst w _ g ow a D) as (C & V & Hv & S).
  assert (Hin : forall l x, In (l, x) (gt_buf s) -> canonize g ow a (lvar l) = a (lvar l)).
  { intros l x Hx. apply Hv. apply (gi_src _ _ _ _ _ I) in Hx as (y & Hy). apply (di_lits _ _ _ _ _ D) in Hy. tauto. }
  destruct (enforce_ub_cases _ _ _ _ _ ub I) as [(L & E')|[(_ & E' & _)|(L & Hb & Hr & outs & E' & Ho)]]; rewrite E' in E; [injection E as <-; reflexivity|discriminate|].
  injection E as <-. unfold sat_cube. rewrite forallb_app. apply andb_true_iff. rewrite !forallb_forall. rewrite (gi_sum _ _ _ _ _ I) in Hle. split.
  - intros x Hx. apply in_map_iff in Hx as ([l y] & <- & Hx). cbn [fst]. eapply Permutation_in in Hx; [|apply Hord].
    assert (Hl : lit_true (canonize g ow a) l = lit_true a l) by (unfold lit_true; now rewrite (Hin l y)).
    rewrite lit_true_neg, Hl. destruct (lit_true a l) eqn:El; [|reflexivity]. exfalso. specialize (Hb _ _ Hx).
    assert (y <= wsum a (gt_buf s))%nat; [|lia]. clear -Hx El. induction (gt_buf s) as [|[l' x'] b IH]; [destruct Hx|]. cbn [wsum].
    destruct Hx as [[= -> ->]|Hx]; [rewrite El; lia|]. specialize (IH Hx). lia.
  - intros x Hx. apply in_map_iff in Hx as (l & <- & Hl). assert (Ro := gi_root _ _ _ _ _ I). destruct (gt_root s) as [con|]; [|subst; destruct Hl].
    destruct Ho as (Ho & _). destruct (Ho l Hl) as (v & Hw & Hl'). destruct (wt_good _ _ _ _ Ro) as (Scon & M & n & Hn & _).
    rewrite lit_true_neg. pose proof (lit_has_canon _ _ _ _ _ _ _ _ _ _ _ (di_inv _ _ _ _ _ D) C Hl') as Hc. rewrite Hc, V by (eapply nth_error_lt; eauto).
    pose proof (wt_val _ _ _ _ Ro a) as Hval. unfold cval in Hval. rewrite simple_con_map in Hval by auto. unfold in_window in Hw.
    replace (v <=? gV g a (nc_id con))%nat with false; [reflexivity|]. symmetry. apply Nat.leb_gt. nia.
Qed.


Theorem gte_complete : bounds_complete (gte_enc ord) fst pos_weight ub_only wsum.
Proof.
  intros w s a R. apply reach_ginv in R as (g & ow & rls & I). assert (D := gi_d _ _ _ _ _ I).
  destruct (dinv_canon fst w _ g ow a D) as (C & V & Hv & S). exists (canonize g ow a).
  split; [auto|]. split; [auto|]. split; [|discriminate].
  intros ub ls E Hle. exact (enforce_canon _ _ _ _ _ _ _ _ I E a Hle).
Qed.

Lemma assumps_ok U w s g ow r b ls : ginv_with U w s g ow r -> gte_enforce_ub ord s b = Some (EOk ls) -> forall x, In x ls ->
  (exists y, In y (w_in w) /\ lvar (fst y) = lvar x) \/ in_aux (w_aux w) (lvar x).
Proof.
  intros I H x Hx.
  assert (D := gi_d _ _ _ _ _ I).
  destruct (enforce_ub_cases _ _ _ _ _ b I) as [(_ & E)|[(_ & E & _)|(_ & _ & _ & outs & E & Ho)]]; rewrite E in H; [injection H as <-; destruct Hx|discriminate|injection H as <-].
  apply in_app_or in Hx as [Hx|Hx].
  - apply in_map_iff in Hx as ([l y] & <- & Hy). eapply Permutation_in in Hy; [|apply Hord]. destruct (gi_src _ _ _ _ _ I _ _ Hy) as (z & Hz). left. exists (l, z). auto.
  - apply in_map_iff in Hx as (l & <- & Hl). destruct (gt_root s) as [con|]; [|subst; destruct Hl]. destruct (proj1 Ho l Hl) as (v & _ & Hv).
    destruct (lit_has_var _ _ _ _ _ _ _ _ _ _ (di_inv _ _ _ _ _ D) Hv) as [Hg|(o & Ho')]; [left; eapply di_gin; eauto|right; eapply di_ow; eauto].
Qed.

(** ** Monotonicity *)
Lemma ginv_ask U w s ub ls : ginv U w s -> gte_enforce_ub ord s ub = Some (EOk ls) -> ginv ((ub, ls) :: U) w s.
Proof.
  intros (g & ow & rls & I) E. exists g, ow, rls. assert (D := gi_d _ _ _ _ _ I). pose proof (enforce_canon U w s g ow rls ub ls I E) as C. pose proof (assumps_ok U w s g ow rls ub ls I E) as A.
  destruct I as [I1 I2 I3 I4 I5 I6 I7 I8]. constructor; auto. intros ub' ls' l [[= <- <-]|H] Hl; [|eauto]. split.
  - destruct (A l Hl) as [(x & Hx & <-)|H]; [now apply (di_lits _ _ _ _ _ D)|]. now apply (di_aux _ _ _ _ _ D).
  - intros a Ha. specialize (C a Ha). unfold sat_cube in C. rewrite forallb_forall in C. auto.
Qed.
Lemma enforced_ginv w s U : enforced (gte_enc ord) fst pos_weight ub_only w s U -> ginv U w s.
Proof.
  induction 1 as [|w s U op w' s' R IH V E|w s U ub ls R IH E]; [now apply ginv_init| |].
  - destruct (step_ok w s op IH V) as (w2 & t2 & E2 & T2). congruence.
  - now apply ginv_ask.
Qed.
Theorem gte_monotone : monotone (gte_enc ord) fst pos_weight ub_only wsum.
Proof.
  intros w s U a R. apply enforced_ginv in R as (g & ow & rls & I). destruct (dinv_canon fst w _ g ow a (gi_d _ _ _ _ _ I)) as (C & V & Hv & S). exists (canonize g ow a).
  split; [auto|]. split; [auto|]. intros ub ls Hin Ha. apply forallb_forall. intros l Hl. now apply (gi_units _ _ _ _ _ I ub ls l).
Qed.

Theorem gte_encodes_ub : encodes_ub (gte_enc ord) fst pos_weight ub_only HUb /\ encodes_ub (gte_enc ord) fst pos_weight ub_only HUbChange.
Proof.
  split; intros w s r w' s' ub R V E Hin; apply reach_ginv in R; cbn [step gte_enc en_ub en_ub_change en_enforce_ub] in *.
  - destruct (encode_ub_ok w s r R) as (t' & cs & n' & E1 & _ & _ & H). rewrite E1 in E. cbn in E. injection E as <- <-. auto.
  - destruct (encode_ub_change_ok w s r R) as (t' & cs & n' & E1 & _ & H). rewrite E1 in E. cbn in E. injection E as <- <-. auto.
Qed.

(** a bound that can be enforced stays so, with the same assumptions, as long as no buffered input is moved into the tree *)
Theorem gte_ub_persists w s op w' s' ub ls : reach w s -> valid w op -> step (gte_enc ord) w s op = Some (w', s') ->
  match op with HExtend _ | HUb _ => False | _ => True end -> gt_buf s' = gt_buf s ->
  gte_enforce_ub ord s ub = Some (EOk ls) -> gte_enforce_ub ord s' ub = Some (EOk ls).
Proof.
  intros R (Ha & V) E Hop Hb H. apply reach_ginv in R. destruct op as [xs|k| |r|r|r|r|r]; cbn in Ha; try tauto; cbn [step gte_enc en_extend en_reserve en_ub en_ub_change] in E.
  - injection E as <- <-. auto.
  - destruct (reserve_ok w s R) as (t' & n' & E1 & (_ & _ & K)). rewrite E1 in E. injection E as <- <-. now apply K.
  - destruct (encode_ub_change_ok w s r R) as (t' & cs & n' & E1 & (_ & _ & K) & _). rewrite E1 in E. cbn in E. injection E as <- <-. now apply K.
Qed.

Theorem gte_clauses_local : clauses_local (gte_enc ord) fst pos_weight ub_only.
Proof. intros w s c l R Hc Hl. apply reach_ginv in R as (g & ow & rls & I). eapply dinv_local; eauto. exact (gi_d _ _ _ _ _ I). Qed.

(** the tree and the buffer together contain the inputs *)
Theorem gte_tree w t : reach w t ->
  exists rooted, (forall a, wsum a (w_in w) = wsum a rooted + wsum a (gt_buf t))%nat /\ total_weight (w_in w) = (total_weight rooted + total_weight (gt_buf t))%nat /\
    match gt_root t with None => rooted = [] | Some con => con_leaves (d_nodes (gt_db t)) con rooted end.
Proof.
  intros R. apply reach_ginv in R as (g & ow & rls & I). exists rls. split; [exact (gi_sum _ _ _ _ _ I)|]. split; [exact (gi_total _ _ _ _ _ I)|].
  pose proof (gi_root _ _ _ _ _ I) as Ro. destruct (gt_root t); [exact (wt_leaves _ _ _ _ Ro)|exact Ro].
Qed.

(** ** Further parts of the contract *)
Theorem gte_unsat_above : unsat_above (gte_enc ord) fst pos_weight ub_only total_weight.
Proof.
  intros w s b R. apply reach_ginv in R as (g & ow & r & I). cbn [gte_enc en_enforce_ub en_enforce_lb]. split; [discriminate|].
  destruct (enforce_ub_cases _ _ _ _ _ b I) as [(_ & E)|[(_ & E & _)|(_ & _ & _ & outs & E & _)]]; congruence.
Qed.

Theorem gte_ub_trivial : ub_trivial (gte_enc ord) fst pos_weight ub_only total_weight.
Proof.
  intros w s b R Hb. apply reach_ginv in R as (g & ow & r & I). cbn [gte_enc en_enforce_ub].
  destruct (enforce_ub_cases _ _ _ _ _ b I) as [(_ & E)|[(L & _)|(L & _)]]; [eauto|lia|lia].
Qed.

Theorem gte_assumps_local : assumps_local (gte_enc ord) fst pos_weight ub_only.
Proof.
  intros w s b ls x R H Hx. apply reach_ginv in R as (g & ow & r & I). cbn [gte_enc en_enforce_ub en_enforce_lb] in H. destruct H as [H|H]; [|discriminate].
  eapply assumps_ok; eauto.
Qed.

Theorem gte_vars_grow : vars_grow (gte_enc ord) fst pos_weight ub_only.
Proof.
  intros w s op w' s' R (Ha & V) E. apply reach_ginv in R. destruct op as [xs|k| |r|r|r|r|r]; cbn in Ha; try tauto; cbn [step gte_enc en_extend en_reserve en_ub en_ub_change en_lb en_lb_change en_both] in E.
  - injection E as <- <-. cbn. lia.
  - injection E as <- <-. cbn [w_next]. lia.
  - destruct (reserve_ok w s R) as (t' & n' & E1 & N & _). rewrite E1 in E. injection E as <- <-. exact N.
  - destruct (encode_ub_ok w s r R) as (t' & cs & n' & E1 & N & _). rewrite E1 in E. injection E as <- <-. exact N.
  - destruct (encode_ub_change_ok w s r R) as (t' & cs & n' & E1 & (N & _) & _). rewrite E1 in E. injection E as <- <-. exact N.
Qed.

(** ** Next higher and lower values *)
Lemma vals_sorted_any g ns id n lo hi : wf_shape (skel ns) g -> nth_error ns id = Some n -> StronglySorted lt (node_vals n lo hi).
Proof.
  intros W Hn. destruct n as [l|lits l r|lits m l r|]; cbn [node_vals] in *.
  - destruct (_ && _); repeat constructor.
  - unfold range_excl. apply seq_sorted.
  - apply filter_sorted. pose proof (wf_node _ _ W _ _ (nth_skel _ _ _ Hn)) as N. cbn [erase node_ok] in N.
    destruct N as (_ & _ & _ & _ & _ & _ & _ & _ & _ & _ & _ & N & _). rewrite map_map in N. exact N.
  - constructor.
Qed.

Lemma node_vals_above g ns id n lo v : wf_shape (skel ns) g -> nth_error ns id = Some n -> (1 <= lo)%nat ->
  In v (node_vals n lo None) <-> In v (node_vals n 1 None) /\ (lo <= v)%nat.
Proof.
  intros W Hn Hlo. destruct n as [l|lits l r|lits m l r|]; cbn [node_vals] in *.
  - change (if (1 <=? 1)%nat && true then [1%nat] else []) with [1%nat]. destruct (Nat.leb_spec lo 1); cbn [andb].
    + split; [intros [<-|[]]|intros ([<-|[]] & _)]; [split; [left; reflexivity|lia]|left; reflexivity].
    + split; [intros []|]. intros ([<-|[]] & H'). lia.
  - rewrite !in_range_excl. lia.
  - rewrite !filter_In. rewrite !andb_true_r, !Nat.leb_le. split; [intros (H1 & H2)|intros ((H1 & H2) & H3)]; (split; [|lia]); [|auto]. split; [auto|lia].
  - cbn [In]. tauto.
Qed.

Theorem gte_next_higher_ok w t val : reach w t -> gt_buf t = [] ->
  exists v, gte_next_higher t val = Some v /\ (val < v)%nat /\ forall a, (val < wsum a (w_in w) -> v <= wsum a (w_in w))%nat.
Proof.
  intros R Hb. apply reach_ginv in R as (g & ow & rls & I). unfold gte_next_higher. assert (Ro := gi_root _ _ _ _ _ I).
  assert (Hs : forall a, wsum a (w_in w) = wsum a rls) by (intros a; rewrite (gi_sum _ _ _ _ _ I), Hb; cbn [wsum]; lia).
  destruct (gt_root t) as [con|].
  - destruct (wt_good _ _ _ _ Ro) as (Sc & M & n & Hn & _). rewrite Hn. cbn [obind]. eexists. split; [reflexivity|].
    pose proof (proj1 (di_built _ _ _ _ _ (gi_d _ _ _ _ _ I))) as W.
    assert (Hrr : (1 <= nc_rev_map_round_up con (val + 1))%nat).
    { destruct (Nat.le_gt_cases 1 (nc_rev_map_round_up con (val + 1))) as [H|H]; [auto|]. pose proof (proj1 (plain_round_up con 0 (val + 1) Sc M) ltac:(lia)). lia. }
    assert (Hu : forall a, (val < wsum a (w_in w))%nat -> exists u, In u (node_vals n (nc_rev_map_round_up con (val + 1)) None) /\ wsum a (w_in w) = (u * nc_mult con)%nat).
    { intros a H. pose proof (wt_val _ _ _ _ Ro a) as Hv. unfold cval in Hv. rewrite simple_con_map in Hv by auto. exists (gV g a (nc_id con)).
      rewrite Hs in *. split; [|lia]. apply (node_vals_above g _ _ _ _ _ W Hn Hrr). split.
      - eapply T_vals; [exact (di_inv _ _ _ _ _ (gi_d _ _ _ _ _ I))|exact Hn| |nia]. apply (wf_TV _ _ W). rewrite skel_length. eapply nth_error_lt; eauto.
      - apply plain_round_up; auto. lia. }
    pose proof (vals_sorted_any g _ _ _ (nc_rev_map_round_up con (val + 1)) None W Hn) as St.
    destruct (node_vals n (nc_rev_map_round_up con (val + 1)) None) as [|v vs] eqn:Ev.
    + split; [lia|]. intros a H. destruct (Hu a H) as (u & [] & _).
    + rewrite simple_con_map by auto. assert (Hin : In v (node_vals n (nc_rev_map_round_up con (val + 1)) None)) by (rewrite Ev; now left).
      apply (node_vals_above g _ _ _ _ _ W Hn Hrr) in Hin as (_ & Hin). apply plain_round_up in Hin; auto. split; [lia|].
      intros a H. destruct (Hu a H) as (u & Hu1 & ->). inv St. rewrite Forall_forall in *. destruct Hu1 as [<-|Hu1]; [lia|]. apply H3 in Hu1. nia.
  - exists (val + 1)%nat. split; [reflexivity|]. split; [lia|]. intros a H. lia.
Qed.

Theorem gte_next_lower_ok w t val : reach w t -> gt_buf t = [] -> (1 <= val)%nat ->
  exists v, gte_next_lower t val = Some v /\ (v < val)%nat /\ forall a, (wsum a (w_in w) < val -> wsum a (w_in w) <= v)%nat.
Proof.
  intros R Hb Hval. apply reach_ginv in R as (g & ow & rls & I). unfold gte_next_lower. assert (Ro := gi_root _ _ _ _ _ I).
  replace (val =? 0)%nat with false by lia.
  assert (Hs : forall a, wsum a (w_in w) = wsum a rls) by (intros a; rewrite (gi_sum _ _ _ _ _ I), Hb; cbn [wsum]; lia).
  destruct (gt_root t) as [con|].
  - destruct (wt_good _ _ _ _ Ro) as (Sc & M & n & Hn & _). rewrite Hn. cbn [obind]. eexists. split; [reflexivity|].
    pose proof (proj1 (di_built _ _ _ _ _ (gi_d _ _ _ _ _ I))) as W.
    set (vals := node_vals n (nc_offset con) (Some (nc_rev_map_round_up con val))).
    assert (Hvals : forall u, In u vals <-> In u (node_vals n 1 None) /\ (u * nc_mult con < val)%nat).
    { intros u. unfold vals. rewrite (node_vals_range g _ _ _ _ _ _ W Hn). pose proof (plain_round_up con u val Sc M). destruct Sc as (-> & _). intuition lia. }
    assert (Hu : forall a, (wsum a (w_in w) < val)%nat -> wsum a (w_in w) = 0%nat \/ exists u, In u vals /\ wsum a (w_in w) = (u * nc_mult con)%nat).
    { intros a H. pose proof (wt_val _ _ _ _ Ro a) as Hv. unfold cval in Hv. rewrite simple_con_map in Hv by auto.
      destruct (Nat.eq_dec (gV g a (nc_id con)) 0) as [E|E]; [left; rewrite Hs; nia|right]. exists (gV g a (nc_id con)).
      rewrite Hs in *. split; [|lia]. apply Hvals. split; [|lia].
      eapply T_vals; [exact (di_inv _ _ _ _ _ (gi_d _ _ _ _ _ I))|exact Hn| |lia]. apply (wf_TV _ _ W). rewrite skel_length. eapply nth_error_lt; eauto. }
    assert (St : StronglySorted lt vals) by (eapply vals_sorted_any; eauto).
    assert (Last : forall v vs, rev vals = v :: vs -> In v vals /\ forall u, In u vals -> (u <= v)%nat).
    { intros v vs E. assert (Ev : vals = rev vs ++ [v]) by (rewrite <- (rev_involutive vals), E; reflexivity). rewrite Ev in *. split; [apply in_or_app; right; now left|].
      intros u Hu'. apply in_app_or in Hu' as [Hu'|[<-|[]]]; [|auto]. clear -St Hu'. induction (rev vs) as [|x l IH]; [destruct Hu'|]. cbn in St. inv St.
      destruct Hu' as [<-|Hu']; [|auto]. rewrite Forall_forall in *. specialize (H2 v). apply Nat.lt_le_incl, H2, in_or_app. right. now left. }
    destruct (rev vals) as [|v vs] eqn:Ev.
    + split; [lia|]. intros a H. destruct (Hu a H) as [H'|(u & H1 & _)]; [lia|]. assert (vals = []) as Hv by (rewrite <- (rev_involutive vals), Ev; reflexivity). rewrite Hv in H1. destruct H1.
    + destruct (Last v vs eq_refl) as (H1 & H2). rewrite simple_con_map by auto. apply Hvals in H1 as (_ & H1). split; [auto|].
      intros a H. destruct (Hu a H) as [H'|(u & H3 & ->)]; [lia|]. apply H2 in H3. nia.
  - exists (val - 1)%nat. split; [reflexivity|]. split; [lia|]. intros a H. lia.
Qed.

(** ** Statistics *)
Lemma extend_tree_cls t mw t1 : gte_extend_tree ord t mw = Some t1 -> gt_cls t1 = gt_cls t.
Proof.
  unfold gte_extend_tree. destruct (filter _ _) as [|x new]; [intros [= <-]; auto|]. intros H. apply obind_some in H as ((d1 & cs) & _ & H).
  apply obind_some in H as ((d2 & o) & _ & H). destruct o; [|discriminate]. now injection H as <-.
Qed.
Lemma encode_ub_change_cls t r next t' cs n : gte_encode_ub_change ord t r next = Some (t', cs, n) -> gt_cls t' = (gt_cls t + length cs)%nat.
Proof.
  unfold gte_encode_ub_change. intros H. apply obind_some in H as (ws & _ & H). destruct (prepare_ub_range ws r) as [lo hi]. destruct (hi <=? lo)%nat; [injection H as <- <- <-; cbn; lia|].
  apply obind_some in H as (t1 & E1 & H). apply extend_tree_cls in E1. destruct (gt_root t1) as [con|]; [|injection H as <- <- <-; cbn; lia].
  apply obind_some in H as (nd & _ & H). apply obind_some in H as (st & _ & H). injection H as <- <- <-. cbn. lia.
Qed.

Theorem gte_n_clauses w t : reach w t -> gt_cls t = length (w_all w).
Proof.
  induction 1 as [|w s op w' s' R IH (Ha & V) E]; [reflexivity|]. destruct op as [xs|k| |r|r|r|r|r]; cbn in Ha; try tauto; cbn [step gte_enc en_extend en_reserve en_ub en_ub_change] in E.
  - injection E as <- <-. exact IH.
  - injection E as <- <-. exact IH.
  - destruct (gte_reserve ord s (w_next w)) as [[t1 n1]|] eqn:Er; [|discriminate]. injection E as <- <-. cbn [log_call w_all]. rewrite app_nil_r, <- IH.
    unfold gte_reserve in Er. apply obind_some in Er as (t2 & E2 & Er). apply extend_tree_cls in E2. destruct (gt_root t2); [|injection Er as <- <-; auto].
    apply obind_some in Er as (st & _ & Er). injection Er as <- <-. exact E2.
  - unfold gte_encode_ub in E. destruct (gte_encode_ub_change _ _ _ _) as [[[t1 c1] n1]|] eqn:Er; [|discriminate]. cbn in E. injection E as <- <-. cbn [log_call w_all]. rewrite app_length, <- IH.
    now apply encode_ub_change_cls in Er.
  - destruct (gte_encode_ub_change _ _ _ _) as [[[t1 c1] n1]|] eqn:Er; [|discriminate]. cbn in E. injection E as <- <-. cbn [log_call w_all]. rewrite app_length, <- IH.
    now apply encode_ub_change_cls in Er.
Qed.
End Gte.
