(** * Trees over weighted literals *)

From Coq Require Import List Bool NArith ZArith Lia Arith Sorted.
From Coq Require Import ZifyBool ZifyNat ZifyN.
From Verif Require Import Spec Types Atomics NodeDb TreeSpec TotDb Base TotDbInv TotDbUnit TotDbGeneral TotDbBuild TotDbGrow TotDbMerge.
Import ListNotations.

(** ** Segments of equal weight *)
Definition seg_lits (s : list lit * nat) : list (lit * nat) := map (fun l => (l, snd s)) (fst s).

Lemma segments_concat ls : concat (map seg_lits (segments ls)) = ls.
Proof.
  induction ls as [|[l w] ls IH]; [reflexivity|]. cbn [segments]. destruct (segments ls) as [|[seg w'] rest]; cbn [map concat seg_lits fst snd] in *; [now rewrite <- IH|].
  destruct (w =? w')%nat eqn:E; cbn [map concat seg_lits fst snd app] in *.
  - replace w' with w in IH by lia. now rewrite <- IH.
  - now rewrite <- IH.
Qed.

Lemma segments_nonempty ls : Forall (fun s => fst s <> []) (segments ls).
Proof.
  induction ls as [|[l w] ls IH]; [constructor|]. cbn [segments]. destruct (segments ls) as [|[seg w'] rest]; [repeat constructor; discriminate|].
  destruct (w =? w')%nat; constructor; cbn; try discriminate; auto. inv IH. auto.
Qed.

Lemma segments_ne ls : ls <> [] -> segments ls <> [].
Proof. destruct ls as [|[l w] ls]; [congruence|]. intros _. cbn [segments]. destruct (segments ls) as [|[seg w'] rest]; [discriminate|]. destruct (_ =? _)%nat; discriminate. Qed.

Lemma segments_weights ls s : In s (segments ls) -> exists l, In (l, snd s) ls.
Proof.
  intros H. assert (Hn := segments_nonempty ls). rewrite Forall_forall in Hn. specialize (Hn s H). destruct s as [[|l seg] w]; [exfalso; apply Hn; reflexivity|].
  exists l. rewrite <- (segments_concat ls). apply in_concat. exists (seg_lits (l :: seg, w)). split; [apply in_map; auto|]. left. reflexivity.
Qed.

(** [con] is a tree over the weighted literals [ls] *)
Definition dense (g : ghost) (con : nodecon) (W : nat) : Prop :=
  forall a t, (t < cval g a con)%nat -> exists v, reach g a con v /\ (t < v <= t + W)%nat.

Record wtree (g : ghost) (ns : list node) (ls : list (lit * nat)) (con : nodecon) : Prop := mkWtree {
  wt_good : con_good ns con;
  wt_val : forall a, cval g a con = wsum a ls;
  wt_max : cmax ns con = total_weight ls;
  wt_dense : forall W, (forall l w, In (l, w) ls -> (w <= W)%nat) -> dense g con W;
  wt_leaves : con_leaves ns con ls
}.

Lemma wtree_grow vs g d g' d' ls con : grow vs d g d' g' -> wtree g (d_nodes d) ls con -> wtree g' (d_nodes d') ls con.
Proof.
  intros G [H1 H2 H3 H4 H5]. pose proof (con_good_lt _ _ H1) as L. constructor.
  - eapply con_good_grow; eauto.
  - intros a. rewrite (cval_grow _ _ _ _ _ _ _ G L). auto.
  - rewrite (cmax_grow _ _ _ _ _ _ G L). auto.
  - intros W HW a t Ht. rewrite (cval_grow _ _ _ _ _ _ _ G L) in Ht. destruct (H4 W HW a t Ht) as (v & R & B). exists v. split; [|auto]. apply (reach_grow _ _ _ _ _ _ _ _ G L). auto.
  - eapply con_leaves_grow; eauto.
Qed.

Lemma wsum_concat a lss : wsum a (concat lss) = list_sum (map (wsum a) lss).
Proof. unfold list_sum. induction lss; cbn [concat map fold_right]; [reflexivity|]. rewrite wsum_app. congruence. Qed.
Lemma total_weight_concat lss : total_weight (concat lss) = list_sum (map total_weight lss).
Proof. unfold list_sum. induction lss; cbn [concat map fold_right]; [reflexivity|]. rewrite total_weight_app. congruence. Qed.

Lemma Forall2_map_eq {A B C} (R : A -> B -> Prop) (f : A -> C) (h : B -> C) l1 l2 :
  (forall x y, R x y -> f x = h y) -> Forall2 R l1 l2 -> map f l1 = map h l2.
Proof. intros H. induction 1; cbn; [reflexivity|]. f_equal; auto. Qed.

Lemma Forall2_mono {A B} (R R' : A -> B -> Prop) l1 l2 : (forall x y, R x y -> R' x y) -> Forall2 R l1 l2 -> Forall2 R' l1 l2.
Proof. intros H. induction 1; constructor; auto. Qed.

Lemma dense_sum g ns a W cs lss : Forall2 (fun c ls => wtree g ns ls c) cs lss -> (forall c, In c cs -> dense g c W) ->
  (forall c, In c cs -> reach g a c 0 /\ reach g a c (cval g a c)) ->
  forall t, (t < list_sum (map (cval g a) cs))%nat -> exists xs, Forall2 (reach g a) cs xs /\ (t < list_sum xs <= t + W)%nat.
Proof.
  unfold list_sum. induction 1 as [|c ls cs lss Hc F IH]; intros HD HR t; cbn [map fold_right]; [lia|]. intros Ht.
  assert (Z : forall cs', (forall c, In c cs' -> reach g a c 0) -> Forall2 (reach g a) cs' (map (fun _ => 0%nat) cs') /\ fold_right Nat.add 0%nat (map (fun _ : nodecon => 0%nat) cs') = 0%nat).
  { induction cs' as [|c' cs' IHc]; intros Hc'; cbn [map fold_right]; [split; [constructor|reflexivity]|].
    destruct IHc as (I1 & I2); [intros; apply Hc'; now right|]. split; [constructor; [apply Hc'; now left|auto]|lia]. }
  destruct (Nat.lt_ge_cases t (cval g a c)) as [L|L].
  - destruct (HD c (or_introl eq_refl) a t L) as (v & Rv & Bv). destruct (Z cs) as (Z1 & Z2); [intros; apply HR; now right|].
    exists (v :: map (fun _ => 0%nat) cs). split; [constructor; auto|]. cbn [fold_right]. lia.
  - destruct (IH (fun c' H => HD c' (or_intror H)) (fun c' H => HR c' (or_intror H)) (t - cval g a c)%nat) as (xs & Fx & Bx); [lia|].
    exists (cval g a c :: xs). split; [constructor; [apply HR; now left|auto]|]. cbn [fold_right]. lia.
Qed.

Lemma merged_wtree g0 ns0 d g cs lss con : built g0 (mkDb ns0 [] None) \/ wf_shape (skel ns0) g0 -> merged g0 ns0 cs g (d_nodes d) con ->
  Forall2 (fun c ls => wtree g0 ns0 ls c) cs lss -> wtree g (d_nodes d) (concat lss) con.
Proof.
  intros HW (M1 & M2 & M3 & M4 & M5 & M6) F. assert (W : wf_shape (skel ns0) g0) by (destruct HW as [(? & _)|?]; auto). constructor.
  - auto.
  - intros a. rewrite M2, wsum_concat. f_equal. eapply Forall2_map_eq; [|exact F]. intros c ls H. apply (wt_val _ _ _ _ H).
  - rewrite M3, total_weight_concat. f_equal. eapply Forall2_map_eq; [|exact F]. intros c ls H. apply (wt_max _ _ _ _ H).
  - intros W0 HW0 a t Ht. rewrite M2 in Ht.
    assert (Hgood : forall c, In c cs -> con_good ns0 c).
    { intros c Hc. clear -F Hc. induction F as [|x y l l' Hxy F IH]; [destruct Hc|]. destruct Hc as [<-|Hc]; [apply (wt_good _ _ _ _ Hxy)|auto]. }
    destruct (dense_sum g0 ns0 a W0 cs lss F) with (t := t) as (xs & Fx & Bx); auto.
    + intros c Hc. clear -F Hc HW0. induction F as [|x y l l' Hxy F IH]; [destruct Hc|]. destruct Hc as [<-|Hc].
      * apply (wt_dense _ _ _ _ Hxy). intros l0 w0 H0. eapply HW0. cbn [concat]. apply in_or_app. left. eauto.
      * apply IH; auto. intros l0 w0 H0. apply (HW0 l0 w0). cbn [concat]. apply in_or_app. right. auto.
    + intros c Hc. pose proof (Hgood c Hc) as Gc. pose proof (con_good_lt _ _ Gc) as Lc. destruct Gc as (Sc & _). split.
      * exists 0%nat. split; [apply (wf_T0 _ _ W); rewrite skel_length; auto|]. now rewrite simple_con_map.
      * exists (gV g0 a (nc_id c)). split; [apply (wf_TV _ _ W); rewrite skel_length; auto|reflexivity].
    + exists (list_sum xs). split; [apply M4; auto|auto].
  - apply M6. clear -F. induction F; constructor; auto. apply (wt_leaves _ _ _ _ H).
Qed.

(** a tree over unweighted literals, scaled *)
Lemma lit_tree_wtree g d ls w : built g d -> ls <> [] -> (1 <= w)%nat ->
  exists d' id g', lit_tree d ls = Some (d', Some id) /\ built g' d' /\ grow (map lvar ls) d g d' g' /\
    wtree g' (d_nodes d') (seg_lits (ls, w)) (mkCon id 0 1 w None).
Proof.
  intros B Hne Hw. destruct (lit_tree_ok g d ls B Hne) as (d' & id & g' & n & E & B' & G & Hn & U & C & V & M & I & T).
  exists d', id, g'. split; [auto|]. split; [auto|]. split; [auto|].
  assert (Sc : simple_con (mkCon id 0 1 w None)) by (repeat split).
  assert (Vs : forall a, cval g' a (mkCon id 0 1 w None) = (count_true a ls * w)%nat) by (intros a; unfold cval; rewrite simple_con_map by auto; cbn [nc_id nc_mult]; now rewrite V).
  constructor.
  - split; [auto|]. split; [cbn; lia|]. destruct C as (_ & _ & n' & E' & X). exists n'. auto.
  - intros a. rewrite Vs. clear. unfold seg_lits. cbn [fst snd]. induction ls as [|l ls IH]; [reflexivity|]. cbn [map wsum count_true]. rewrite <- IH. destruct (lit_true a l); lia.
  - unfold cmax. cbn [nc_id]. rewrite Hn, simple_con_map by auto. cbn [nc_mult]. rewrite M. clear. unfold seg_lits. cbn [fst snd]. induction ls as [|l ls IH]; [reflexivity|]. cbn [map total_weight length]. lia.
  - intros W HW a t Ht. rewrite Vs in Ht. assert (w <= W)%nat.
    { destruct ls as [|l ls]; [congruence|]. eapply (HW l w). left. reflexivity. }
    exists ((t / w + 1) * w)%nat. pose proof (Nat.div_mod_eq t w). pose proof (Nat.mod_upper_bound t w ltac:(lia)). split; [|nia].
    exists (t / w + 1)%nat. split; [|rewrite simple_con_map by auto; reflexivity]. cbn [nc_id].
    pose proof (wf_node _ _ (proj1 B') _ _ (nth_skel _ _ _ Hn)) as N.
    assert (HT : forall v, gT g' a id v <-> (v <= gV g' a id)%nat) by (destruct n; cbn in U; try tauto; cbn [erase node_ok] in N; apply N).
    apply HT. rewrite V. nia.
  - split; [repeat split|]. cbn [nc_id nc_mult]. exists (map (fun l => (l, 1%nat)) ls). split; [auto|].
    unfold seg_lits, scale. cbn [fst snd]. rewrite map_map. apply map_ext. intros l. f_equal. lia.
Qed.

Lemma add_segments_ok segs : forall g d cs0 lss0, built g d -> Forall2 (fun c ls => wtree g (d_nodes d) ls c) cs0 lss0 ->
  Forall (fun s => fst s <> []) segs -> (forall s, In s segs -> (1 <= snd s)%nat) ->
  exists d' cs g', foldM add_segment segs (d, cs0) = Some (d', cs0 ++ cs) /\ built g' d' /\ grow (map lvar (map fst (concat (map seg_lits segs)))) d g d' g' /\
    Forall2 (fun c ls => wtree g' (d_nodes d') ls c) (cs0 ++ cs) (lss0 ++ map seg_lits segs).
Proof.
  induction segs as [|[seg w] segs IH]; intros g d cs0 lss0 B F Hne Hw; cbn [foldM].
  - exists d, [], g. rewrite app_nil_r. split; [reflexivity|]. split; [auto|]. split; [apply grow_refl|]. cbn [map]. now rewrite app_nil_r.
  - inv Hne. cbn [fst] in *. destruct (lit_tree_wtree g d seg w B) as (d1 & id & g1 & E1 & B1 & G1 & T1); auto.
    { apply (Hw (seg, w)). now left. }
    unfold add_segment at 1. cbn [fst snd]. rewrite E1. cbn [obind]. unfold con_weighted.
    assert (Hw1 : (1 <= w)%nat) by (apply (Hw (seg, w)); now left). replace (w =? 0)%nat with false by lia. cbn [obind].
    destruct (IH g1 d1 (cs0 ++ [mkCon id 0 1 w None]) (lss0 ++ [seg_lits (seg, w)])) as (d2 & cs & g2 & E2 & B2 & G2 & F2); auto.
    { apply Forall2_app; [|constructor; [auto|constructor]]. eapply Forall2_mono; [|exact F]. intros c ls H. eapply wtree_grow; eauto. }
    { intros s Hs. apply Hw. now right. }
    exists d2, (mkCon id 0 1 w None :: cs), g2. rewrite <- !app_assoc in *. cbn [app] in *. split; [exact E2|]. split; [auto|]. split; [|exact F2].
    eapply grow_trans; (eapply grow_incl; [|eassumption]); cbn [map concat]; rewrite !map_app; intros x Hx; apply in_or_app; [left|now right].
    unfold seg_lits. cbn [fst snd]. rewrite !map_map. cbn [fst]. auto.
Qed.

Theorem weighted_lit_tree_ok g d ls : built g d -> ls <> [] -> (forall l w, In (l, w) ls -> (1 <= w)%nat) ->
  exists d' con g', weighted_lit_tree d ls = Some (d', Some con) /\ built g' d' /\ grow (map lvar (map fst ls)) d g d' g' /\ wtree g' (d_nodes d') ls con.
Proof.
  intros B Hne Hw. destruct (add_segments_ok (segments ls) g d [] [] B (Forall2_nil _) (segments_nonempty ls)) as (d1 & cs & g1 & E1 & B1 & G1 & F1).
  { intros s Hs. apply segments_weights in Hs as (l & Hl). eauto. }
  cbn [app] in *. rewrite segments_concat in G1.
  assert (Hgood : Forall (con_good (d_nodes d1)) cs).
  { clear -F1. induction F1; constructor; auto. apply (wt_good _ _ _ _ H). }
  destruct (merge_balanced_ok g1 d1 cs B1 Hgood) as (d2 & con & g2 & E2 & B2 & G2 & M2).
  { intros ->. inv F1. apply (segments_ne ls Hne). destruct (segments ls); [auto|discriminate]. }
  exists d2, con, g2. split.
  - unfold weighted_lit_tree. destruct ls; [congruence|]. rewrite E1. cbn [obind]. exact E2.
  - split; [auto|]. split; [eapply grow_trans; [exact G1|]; eapply grow_incl; [|exact G2]; intros x []|].
    rewrite <- (segments_concat ls). eapply merged_wtree; [right; exact (proj1 B1)|exact M2|exact F1].
Qed.

(** ** Histories of tree building *)

Definition ghost0 : ghost := mkGhost (fun _ _ => 0%nat) (fun _ _ v => v = 0%nat) (fun _ => false) (fun _ => 0%nat).

Lemma built_empty : built ghost0 db_empty.
Proof.
  assert (Hn : forall id : nat, nth_error (@nil node) id = None) by (intros []; reflexivity).
  split; [|split; cbn; discriminate].
  constructor; cbn [skel map length gV gT gin grk ghost0 db_empty d_nodes]; intros; try lia; auto; rewrite Hn in *; discriminate.
Qed.

Definition trees_ok (g : ghost) (d : db) (T : list (nodecon * list (lit * nat))) : Prop :=
  built g d /\ Forall (fun '(con, ls) => wtree g (d_nodes d) ls con) T.

Lemma tree_step_ok g d T op : trees_ok g d T -> valid_tree_op T op ->
  exists d' con ls g', tree_step d T op = Some (d', T ++ [(con, ls)]) /\ trees_ok g' d' (T ++ [(con, ls)]) /\
    (exists new, d_nodes d' = d_nodes d ++ new).
Proof.
  intros (B & F) V.
  assert (Fin : forall vs d' g' con ls, built g' d' -> grow vs d g d' g' -> wtree g' (d_nodes d') ls con -> trees_ok g' d' (T ++ [(con, ls)]) /\ exists new, d_nodes d' = d_nodes d ++ new).
  { intros vs d' g' con ls B' G W. split; [|destruct G as ((new & E & _) & _); eauto]. split; [auto|].
    apply Forall_app. split; [|constructor; [auto|constructor]]. eapply Forall_impl; [|exact F]. intros [c l] H. eapply wtree_grow; eauto. }
  destruct op as [ls|ls|bal is]; cbn [tree_step valid_tree_op] in *.
  - destruct (lit_tree_wtree g d ls 1 B V (le_n _)) as (d' & id & g' & E & B' & G & W). rewrite E. unfold seg_lits in W. cbn [fst snd] in W.
    exists d', (con_full id), (map (fun l => (l, 1%nat)) ls), g'. split; [reflexivity|]. eapply Fin; eauto.
  - destruct V as (V1 & V2). destruct (weighted_lit_tree_ok g d ls B V1 V2) as (d' & con & g' & E & B' & G & W). rewrite E. cbn [tree_result].
    exists d', con, ls, g'. split; [reflexivity|]. eapply Fin; eauto.
  - destruct V as (V1 & V2).
    assert (Hm : exists cs, mapM (nth_error T) is = Some cs /\ Forall (fun '(con, ls) => wtree g (d_nodes d) ls con) cs /\ length cs = length is).
    { clear V1. induction is as [|i is IH]; [exists []; cbn; auto|]. destruct IH as (cs & E & Fc & L); [intros; apply V2; now right|].
      destruct (nth_error T i) as [c|] eqn:Ei; [|apply nth_error_None in Ei; specialize (V2 i (or_introl eq_refl)); lia].
      exists (c :: cs). cbn [mapM]. rewrite Ei. cbn [obind]. rewrite E. cbn [obind]. split; [reflexivity|]. split; [|cbn; lia].
      constructor; [|auto]. rewrite Forall_forall in F. apply F. eapply nth_error_In; eauto. }
    destruct Hm as (cs & Em & Fc & L). rewrite Em.
    assert (F2 : Forall2 (fun c ls => wtree g (d_nodes d) ls c) (map fst cs) (map snd cs)).
    { clear -Fc. induction Fc as [|[c l] cs H Fc IH]; cbn; constructor; auto. }
    assert (Hgood : Forall (con_good (d_nodes d)) (map fst cs)).
    { clear -F2. induction F2; constructor; auto. apply (wt_good _ _ _ _ H). }
    assert (Hne : map fst cs <> []) by (destruct cs; [destruct is; [congruence|discriminate]|discriminate]).
    assert (Hr : exists d' con g', (if bal then merge_balanced d (map fst cs) else merge d (map fst cs)) = Some (d', Some con) /\ built g' d' /\ grow [] d g d' g' /\ merged g (d_nodes d) (map fst cs) g' (d_nodes d') con).
    { destruct bal; [apply merge_balanced_ok|apply merge_ok]; auto. }
    destruct Hr as (d' & con & g' & E & B' & G & M). rewrite E. cbn [tree_result].
    exists d', con, (concat (map snd cs)), g'. split; [reflexivity|]. eapply Fin; eauto. eapply merged_wtree; [right; exact (proj1 B)|exact M|exact F2].
Qed.

Lemma tree_hist_ok d T : tree_hist d T -> exists g, trees_ok g d T.
Proof.
  induction 1 as [|d T op d' T' H (g & IH) V E].
  - exists ghost0. split; [apply built_empty|constructor].
  - destruct (tree_step_ok g d T op IH V) as (d2 & con & ls & g' & E2 & K & _). rewrite E in E2. injection E2 as -> ->. eauto.
Qed.

Theorem tree_hist_leaves d T con ls : tree_hist d T -> In (con, ls) T -> con_leaves (d_nodes d) con ls.
Proof.
  intros H Hin. destruct (tree_hist_ok d T H) as (g & _ & F). rewrite Forall_forall in F. specialize (F _ Hin). apply (wt_leaves _ _ _ _ F).
Qed.

Theorem tree_hist_step d T op : tree_hist d T -> valid_tree_op T op ->
  exists d' con ls new, tree_step d T op = Some (d', T ++ [(con, ls)]) /\ d_nodes d' = d_nodes d ++ new.
Proof.
  intros H V. destruct (tree_hist_ok d T H) as (g & K). destruct (tree_step_ok g d T op K V) as (d' & con & ls & g' & E & _ & new & En).
  exists d', con, ls, new. auto.
Qed.

(** the leaves survive changes to the outputs only *)
Lemma tree_leaves_skel ns ns' id ls : skel ns' = skel ns -> tree_leaves ns id ls -> tree_leaves ns' id ls.
Proof.
  intros E. induction 1 as [id l Hn|id n l r ls rs Hn C P1 P2 T1 I1 T2 I2].
  - apply tl_leaf. eapply nth_leaf_skel; eauto.
  - destruct (node_same_skel _ ns' _ _ E Hn) as (n' & Hn' & He). eapply tl_node; eauto.
    destruct n, n'; cbn in *; try discriminate; congruence.
Qed.
