(** * Reading similarities, and the whole clustering encoding *)

From Coq Require Import List Bool NArith ZArith Ascii String Arith Lia Permutation.
From Coq Require Import ZifyBool ZifyNat ZifyN.
From Verif Require Import Spec Types BoundSpec ConstrEnc NodeDb Dpw OptSpec Text TextProofs FioSpec Dimacs ToolSpec Bench BenchSpec BenchProofs BenchCnf ClusterSpec ClusterProofs ClusterSem.
Import ListNotations.
Open Scope list_scope.

(** ** Names and indices *)
Lemma index_of_from x xs : forall s i, (fix go i xs := match xs with [] => None | y :: r => if text_eqb y x then Some i else go (S i) r end) s xs = Some i -> (s <= i)%nat /\ nth_error xs (i - s) = Some x.
Proof.
  induction xs as [|y xs IH]; intros s i H; [discriminate|]. destruct (text_eqb y x) eqn:E.
  - injection H as <-. apply text_eqb_eq in E. subst y. now rewrite Nat.sub_diag.
  - apply IH in H as [H1 H2]. split; [lia|]. replace (i - s)%nat with (S (i - S s)) by lia. exact H2.
Qed.
Lemma index_of_some x xs i : index_of x xs = Some i -> nth_error xs i = Some x.
Proof. intros H. apply index_of_from in H as [_ H]. now rewrite Nat.sub_0_r in H. Qed.
Lemma index_of_none x xs : index_of x xs = None -> ~ In x xs.
Proof.
  unfold index_of. generalize 0%nat. induction xs as [|y xs IH]; intros s H Hin; [easy|]. destruct (text_eqb y x) eqn:E; [discriminate|]. destruct Hin as [->|Hin]; [|exact (IH _ H Hin)].
  assert (text_eqb x x = true) by now apply text_eqb_eq. congruence.
Qed.
Lemma index_of_nth xs i x : NoDup xs -> nth_error xs i = Some x -> index_of x xs = Some i.
Proof.
  intros Hn H. destruct (index_of x xs) as [j|] eqn:E.
  - apply index_of_some in E. f_equal. apply (proj1 (NoDup_nth_error xs) Hn); [apply nth_error_Some; congruence|congruence].
  - apply index_of_none in E. exfalso. apply E. exact (nth_error_In _ _ H).
Qed.
Lemma add_ident_spec xs x : NoDup xs -> NoDup (add_ident xs x) /\ forall y, In y (add_ident xs x) <-> In y xs \/ y = x.
Proof.
  intros Hn. unfold add_ident. destruct (index_of x xs) as [i|] eqn:E.
  - split; [exact Hn|]. intros y. split; [now left|]. intros [H| ->]; [exact H|]. apply index_of_some in E. exact (nth_error_In _ _ E).
  - apply index_of_none in E. split.
    + apply (Permutation_NoDup (l := x :: xs)); [apply Permutation_cons_append|now constructor].
    + intros y. rewrite in_app_iff. cbn. intuition congruence.
Qed.
Lemma cl_idents_spec es : objects es (cl_idents es).
Proof.
  unfold cl_idents. assert (H : forall xs, NoDup xs -> NoDup (fold_left (fun xs e => add_ident (add_ident xs (fst (fst e))) (snd (fst e))) es xs) /\
    forall x, In x (fold_left (fun xs e => add_ident (add_ident xs (fst (fst e))) (snd (fst e))) es xs) <-> In x xs \/ mentioned es x).
  { induction es as [|e es IH]; intros xs Hn.
    - split; [exact Hn|]. intros x. cbn. split; [now left|]. intros [H|(e & [] & _)]. exact H.
    - cbn [fold_left]. destruct (add_ident_spec xs (fst (fst e)) Hn) as [N1 I1]. destruct (add_ident_spec _ (snd (fst e)) N1) as [N2 I2]. destruct (IH _ N2) as [N3 I3]. split; [exact N3|]. intros x. rewrite I3, I2, I1. split.
      + intros [[[H| ->]| ->]|(e' & He & H)]; [now left|right; exists e; split; [now left|now left]|right; exists e; split; [now left|now right]|right; exists e'; split; [now right|exact H]].
      + intros [H|(e' & [<-|He] & H)]; [tauto| |right; now exists e']. left. destruct H as [<-|<-]; tauto. }
  destruct (H [] (NoDup_nil _)) as [H1 H2]. split; [exact H1|]. intros x. rewrite H2. cbn. intuition.
Qed.

(** ** Indices of pairs *)
Fixpoint tri (m : nat) : nat := match m with O => 0%nat | S m' => (tri m' + m')%nat end.
Lemma tri_half m : (m * (m - 1) / 2)%nat = tri m.
Proof.
  assert (H : (m * (m - 1) = tri m * 2)%nat).
  { induction m as [|m IH]; [reflexivity|]. cbn [tri]. destruct m as [|m]; [reflexivity|]. replace (S m - 1)%nat with m in IH by lia. replace (S (S m) - 1)%nat with (S m) by lia. nia. }
  rewrite H. apply Nat.div_mul. lia.
Qed.
Lemma tri_mono x y : (x <= y)%nat -> (tri x <= tri y)%nat.
Proof. induction 1; [lia|]. cbn [tri]. lia. Qed.
Definition pidx (n i j : nat) : nat := (tri n - tri (n - i) + (j - i - 1))%nat.
Lemma sim_idx_pidx n i j : (i < j < n)%nat -> sim_idx i j n = Some (pidx n i j).
Proof.
  intros H. unfold sim_idx, usub, pidx. pose proof (tri_mono (n - i) n ltac:(lia)) as Hm.
  replace (n <? 1)%nat with false by lia. replace (n <? i)%nat with false by lia. cbn [obind]. replace (n - i <? 1)%nat with false by lia. cbn [obind]. rewrite !tri_half.
  replace (tri n <? tri (n - i))%nat with false by lia. cbn [obind]. replace (tri n - tri (n - i) + j <? i)%nat with false by lia. cbn [obind]. replace (tri n - tri (n - i) + j - i <? 1)%nat with false by lia. cbn [obind]. f_equal. lia.
Qed.
Lemma tri_next m : (0 < m)%nat -> tri m = (tri (m - 1) + (m - 1))%nat.
Proof. intros H. destruct m as [|m]; [lia|]. replace (S m - 1)%nat with m by lia. reflexivity. Qed.
Lemma pidx_row n i j : (i < j < n)%nat -> (tri n - tri (n - i) <= pidx n i j < tri n - tri (n - (i + 1)))%nat.
Proof.
  intros H. unfold pidx. pose proof (tri_next (n - i) ltac:(lia)) as E. replace (n - i - 1)%nat with (n - (i + 1))%nat in E by lia. pose proof (tri_mono (n - i) n ltac:(lia)). lia.
Qed.
Lemma pidx_bound n i j : (i < j < n)%nat -> (pidx n i j < tri n)%nat.
Proof. intros H. pose proof (pidx_row n i j H). lia. Qed.
Lemma pidx_inj n i j i' j' : (i < j < n)%nat -> (i' < j' < n)%nat -> pidx n i j = pidx n i' j' -> i = i' /\ j = j'.
Proof.
  intros H H' E. pose proof (pidx_row n i j H) as R. pose proof (pidx_row n i' j' H') as R'.
  assert (i = i').
  { destruct (Nat.lt_trichotomy i i') as [L|[L|L]]; [|exact L|].
    - pose proof (tri_mono (n - i') (n - (i + 1)) ltac:(lia)). lia.
    - pose proof (tri_mono (n - i) (n - (i' + 1)) ltac:(lia)). lia. }
  subst i'. unfold pidx in E. split; [reflexivity|lia].
Qed.
Lemma replace_nth_spec {A} (x : A) xs : forall i, (i < List.length xs)%nat -> exists ys, replace_nth i x xs = Some ys /\ List.length ys = List.length xs /\ forall k, nth_error ys k = if (k =? i)%nat then Some x else nth_error xs k.
Proof.
  induction xs as [|y xs IH]; intros i Hi; [cbn in Hi; lia|]. destruct i as [|i]; cbn [replace_nth].
  - exists (x :: xs). split; [reflexivity|]. split; [reflexivity|]. intros [|k]; reflexivity.
  - cbn [List.length] in Hi. destruct (IH i ltac:(lia)) as (ys & E & L & H). exists (y :: ys). rewrite E. split; [reflexivity|]. split; [cbn [List.length]; now rewrite L|]. intros [|k]; [reflexivity|]. cbn [nth_error Nat.eqb]. apply H.
Qed.

(** ** Entering the similarities *)
Lemma about_sym e x y : about e x y = about e y x.
Proof. unfold about. apply orb_comm. Qed.
Lemma pair_sim_sym smap es x y : pair_sim smap es x y = pair_sim smap es y x.
Proof. unfold pair_sim. generalize DontCare. induction es as [|e es IH]; intros s; [reflexivity|]. cbn [fold_left]. rewrite (about_sym e x y). apply IH. Qed.
Lemma about_spec e x y : about e x y = true <-> (fst (fst e) = x /\ snd (fst e) = y) \/ (fst (fst e) = y /\ snd (fst e) = x).
Proof. unfold about. rewrite orb_true_iff, !andb_true_iff, !text_eqb_eq. tauto. Qed.
Section Enter.
Context (offset : Z) (dont_care hard_threshold : nat) (ids : list text) (Hnd : NoDup ids).
Notation smap := (sim_map offset dont_care hard_threshold).
Notation n := (List.length ids).
Notation nm i := (nth i ids []).
Lemma enter_all es : (forall x, mentioned es x -> In x ids) -> forall sims s, List.length sims = tri n -> (forall i j, (i < j < n)%nat -> nth_error sims (pidx n i j) = Some (s i j)) ->
  exists sims', foldM (enter_sim offset dont_care hard_threshold ids) es sims = Some sims' /\ List.length sims' = tri n /\
    forall i j, (i < j < n)%nat -> nth_error sims' (pidx n i j) = Some (fold_left (fun s e => if about e (nm i) (nm j) then smap (snd e) else s) es (s i j)).
Proof.
  induction es as [|[[x y] z] es IH]; intros Hm sims s Hl Hs; [exists sims; auto|].
  assert (Hx : In x ids) by (apply Hm; exists (x, y, z); split; [now left|now left]). assert (Hy : In y ids) by (apply Hm; exists (x, y, z); split; [now left|now right]).
  assert (Hm' : forall x, mentioned es x -> In x ids) by (intros w (e & He & H); apply Hm; exists e; split; [now right|exact H]).
  destruct (In_nth_error _ _ Hx) as [i1 E1]. destruct (In_nth_error _ _ Hy) as [i2 E2].
  assert (L1 : (i1 < n)%nat) by (apply nth_error_Some; congruence). assert (L2 : (i2 < n)%nat) by (apply nth_error_Some; congruence).
  assert (N1 : nm i1 = x) by now apply nth_error_nth. assert (N2 : nm i2 = y) by now apply nth_error_nth.
  assert (Hinj : forall i j, (i < n)%nat -> (j < n)%nat -> nm i = nm j -> i = j) by (intros i j Hi Hj; now apply (proj1 (NoDup_nth ids []) Hnd)).
  cbn [foldM]. unfold enter_sim at 1. rewrite (index_of_nth _ _ _ Hnd E1), (index_of_nth _ _ _ Hnd E2). cbn [obind].
  destruct (Nat.eqb_spec i1 i2) as [Eq|Ne].
  - cbn [obind]. destruct (IH Hm' sims s Hl Hs) as (sims' & F & L & H). exists sims'. split; [exact F|]. split; [exact L|]. intros i j Hij. rewrite (H i j Hij). cbn [fold_left].
    replace (about (x, y, z) (nm i) (nm j)) with false; [reflexivity|]. symmetry. apply not_true_iff_false. rewrite about_spec. cbn [fst snd]. subst i2. assert (x = y) by congruence. subst y. intros [[A B]|[A B]]; assert (i = j) by (apply Hinj; [lia|lia|congruence]); lia.
  - set (p := if (i2 <? i1)%nat then (i2, i1) else (i1, i2)). assert (Hp : (fst p < snd p < n)%nat /\ (p = (i1, i2) \/ p = (i2, i1))) by (unfold p; destruct (Nat.ltb_spec i2 i1); cbn [fst snd]; split; try lia; auto). clearbody p. destruct p as [i' j']. cbn [fst snd] in Hp. destruct Hp as [Hp Hc].
    rewrite (sim_idx_pidx n i' j' Hp). cbn [obind]. destruct (replace_nth_spec (smap z) sims (pidx n i' j') ltac:(rewrite Hl; now apply pidx_bound)) as (ys & Ey & Ly & Hys). rewrite Ey. cbn [obind].
    destruct (IH Hm' ys (fun i j => if about (x, y, z) (nm i) (nm j) then smap z else s i j) ltac:(congruence)) as (sims' & F & L & H).
    { intros i j Hij. rewrite Hys. destruct (Nat.eqb_spec (pidx n i j) (pidx n i' j')) as [E|E].
      - apply pidx_inj in E as [-> ->]; [|assumption..]. replace (about (x, y, z) (nm i') (nm j')) with true; [reflexivity|]. symmetry. apply about_spec. cbn [fst snd]. destruct Hc as [Hc|Hc]; injection Hc as -> ->; rewrite N1, N2; tauto.
      - rewrite Hs by exact Hij. replace (about (x, y, z) (nm i) (nm j)) with false; [reflexivity|]. symmetry. apply not_true_iff_false. rewrite about_spec. cbn [fst snd]. intros [[A B]|[A B]]; apply E.
        + assert (i = i1) by (apply Hinj; [lia|lia|congruence]). assert (j = i2) by (apply Hinj; [lia|lia|congruence]). subst i j. destruct Hc as [Hc|Hc]; injection Hc as -> ->; [reflexivity|lia].
        + assert (i = i2) by (apply Hinj; [lia|lia|congruence]). assert (j = i1) by (apply Hinj; [lia|lia|congruence]). subst i j. destruct Hc as [Hc|Hc]; injection Hc as -> ->; [lia|reflexivity]. }
    exists sims'. split; [exact F|]. split; [exact L|]. exact H.
Qed.
End Enter.

(** ** Sums over pairs *)
Lemma index_pairs_S n : index_pairs (S n) = map (fun j => (0%nat, j)) (seq 1 n) ++ map (fun p => (S (fst p), S (snd p))) (index_pairs n).
Proof.
  unfold index_pairs. destruct n as [|n]; [reflexivity|]. replace (S (S n) - 1)%nat with (S n) by lia. cbn [seq flat_map]. replace (S (S n) - (0 + 1))%nat with (S n) by lia. f_equal.
  replace (S n - 1)%nat with n by lia. rewrite <- seq_shift. rewrite !flat_map_concat_map, concat_map, !map_map. f_equal. apply map_ext. intros i. rewrite map_map. cbn [fst snd]. replace (S i + 1)%nat with (S (i + 1)) by lia. rewrite <- (seq_shift _ (i + 1)), map_map. replace (S (S n) - S (i + 1))%nat with (S n - (i + 1))%nat by lia. reflexivity.
Qed.
Lemma pairs_of_index {A} (d : A) xs : pairs_of xs = map (fun p => (nth (fst p) xs d, nth (snd p) xs d)) (index_pairs (List.length xs)).
Proof.
  induction xs as [|x xs IH]; [reflexivity|]. cbn [pairs_of List.length]. rewrite index_pairs_S, map_app, !map_map. cbn [fst snd nth]. f_equal.
  - rewrite <- seq_shift, map_map. cbn [nth]. rewrite <- (map_map (fun i => nth i xs d) (fun y => (x, y))). f_equal. clear IH. induction xs as [|y xs IH]; [reflexivity|]. cbn [List.length seq map nth]. f_equal. rewrite <- seq_shift, map_map. exact IH.
  - exact IH.
Qed.
Lemma sum_pairs_perm {A} (h : A * A -> nat) : (forall x y, h (x, y) = h (y, x)) -> forall xs ys, Permutation xs ys -> list_sum (map h (pairs_of xs)) = list_sum (map h (pairs_of ys)).
Proof.
  intros Hs xs ys P. assert (Hp : forall l l' : list nat, Permutation l l' -> list_sum l = list_sum l') by (induction 1; rewrite ?list_sum_cons in *; lia).
  induction P as [|x xs ys P IH|x y xs|xs ys zs P1 IH1 P2 IH2]; [reflexivity| | |congruence]; cbn [pairs_of map app]; rewrite ?map_app, ?list_sum_app, ?map_map, ?list_sum_cons.
  - rewrite IH. f_equal. apply Hp. now apply Permutation_map.
  - rewrite (Hs y x), !list_sum_app. lia.
Qed.

(** ** Lines *)
Lemma ident_not_white c : is_ident c = true -> is_white c = false /\ is_multispace c = false /\ c <> "%"%char.
Proof. destruct c as [[] [] [] [] [] [] [] []]; vm_compute; intros H; try discriminate H; repeat split; discriminate. Qed.
Lemma blank_spaces sp : blanks sp -> forallb is_white sp = true /\ forallb is_multispace sp = true /\ stops is_ident sp.
Proof.
  intros H. split; [|split]; [apply forallb_forall; intros c Hc; destruct (H c Hc) as [-> | ->]; reflexivity..|]. destruct sp as [|c sp]; [exact Logic.I|]. destruct (H c (or_introl eq_refl)) as [-> | ->]; reflexivity.
Qed.
Lemma ident_reads x r : ident_text x -> stops is_ident r -> ident (x ++ r) = POk x r.
Proof.
  intros [Hx Hi] Hr. destruct x as [|c x]; [easy|]. cbn [forallb] in Hi. apply andb_true_iff in Hi as [Hc Hi]. unfold ident, pbind, one_of. cbn [app]. rewrite Hc. now rewrite (span_app _ _ _ Hi Hr).
Qed.
Lemma multispace_reads sp r : blanks1 sp -> stops is_multispace r -> multispace1 (sp ++ r) = POk tt r.
Proof.
  intros [Hb Hn] Hr. destruct (blank_spaces sp Hb) as (_ & Hm & _). destruct sp as [|c sp]; [easy|]. cbn [forallb] in Hm. apply andb_true_iff in Hm as [Hc Hm]. unfold multispace1, pbind, one_of. cbn [app]. rewrite Hc. now rewrite (span_app _ _ _ Hm Hr).
Qed.
Lemma stops_ident f x r : ident_text x -> (forall c, is_ident c = true -> f c = false) -> stops f (x ++ r).
Proof. intros [Hx Hi] Hf. destruct x as [|c x]; [easy|]. cbn [forallb] in Hi. apply andb_true_iff in Hi as [Hc _]. exact (Hf c Hc). Qed.
Lemma stops_blank sp r : blanks1 sp -> stops is_ident (sp ++ r).
Proof. intros [Hb Hn]. destruct sp as [|c sp]; [easy|]. destruct (Hb c (or_introl eq_refl)) as [-> | ->]; reflexivity. Qed.
Lemma cl_line_reads number d l : cluster_line number d l -> cl_line number l = d.
Proof.
  intros (sp & c & Hsp & -> & _ & Hd). unfold cl_line. destruct (blank_spaces sp Hsp) as (Hw & _ & _). destruct d as [[[x y] z]|].
  - destruct Hd as (sp1 & sp2 & v & Hx & Hs1 & Hy & Hs2 & Hv & Hnv & ->). cbn [fst snd] in *.
    assert (Sv : stops is_multispace v) by (destruct v as [|c v]; [exact Logic.I|exact (Hnv c v eq_refl)]).
    rewrite (trim_start_white sp _ Hw) by (apply stops_ident; [exact Hx|intros c Hc; now apply ident_not_white]).
    assert (Hper : starts_with (T "%") (x ++ sp1 ++ y ++ sp2 ++ v) = false).
    { destruct Hx as [Hx Hi]. destruct x as [|c x]; [easy|]. cbn [forallb] in Hi. apply andb_true_iff in Hi as [Hc _]. destruct (ident_not_white c Hc) as (_ & _ & Hne). change (starts_with (T "%") ((c :: x) ++ sp1 ++ y ++ sp2 ++ v)) with (Ascii.eqb "%" c && true)%bool. rewrite andb_true_r. apply Ascii.eqb_neq. congruence. }
    rewrite Hper. unfold pbind. rewrite (ident_reads x _ Hx) by now apply stops_blank. rewrite (multispace_reads sp1 _ Hs1) by (apply stops_ident; [exact Hy|intros c Hc; now apply ident_not_white]).
    rewrite (ident_reads y _ Hy) by now apply stops_blank. rewrite (multispace_reads sp2 _ Hs2 Sv). cbn [pret]. now rewrite Hv.
  - destruct Hd as [-> |[r ->]].
    + rewrite (trim_start_white sp [] Hw Logic.I). reflexivity.
    + rewrite (trim_start_white sp _ Hw) by reflexivity. reflexivity.
Qed.
Lemma chomp_nl l : one_line l -> chomp (l ++ [nl]) = l.
Proof.
  intros H. unfold chomp. rewrite rev_app_distr. cbn [rev app]. rewrite Ascii.eqb_refl. destruct (rev l) as [|d r] eqn:E; [apply (f_equal (@rev _)) in E; now rewrite rev_involutive in E|].
  assert (Hd : In d l) by (apply in_rev; rewrite E; now left). destruct (H d Hd) as [_ Hc]. destruct (Ascii.eqb_spec d cr); [contradiction|]. rewrite <- E. apply rev_involutive.
Qed.
Lemma chomp_last l : one_line l -> chomp l = l.
Proof.
  intros H. unfold chomp. destruct (rev l) as [|d r] eqn:E; [apply (f_equal (@rev _)) in E; now rewrite rev_involutive in E|].
  assert (Hd : In d l) by (apply in_rev; rewrite E; now left). destruct (H d Hd) as [Hc _]. destruct (Ascii.eqb_spec d nl); [contradiction|reflexivity].
Qed.
Lemma one_no_nl l : one_line l -> no_nl l.
Proof. intros H Hin. now destruct (H _ Hin). Qed.
Lemma lines_read ls t : Forall one_line ls -> lines_of ls t -> lines t = ls.
Proof.
  intros H [-> |(ls' & l & -> & Hl & ->)]; unfold lines.
  - rewrite <- (app_nil_r (flat_map _ ls)), read_lines_lines by (eapply Forall_impl; [|exact H]; apply one_no_nl). cbn [read_lines]. rewrite app_nil_r, map_map. rewrite <- (map_id ls) at 2. apply map_ext_in. intros l Hl. apply chomp_nl. rewrite Forall_forall in H. now apply H.
  - apply Forall_app in H as [H1 H2]. inversion H2 as [|? ? H3 _]; subst. rewrite read_lines_lines by (eapply Forall_impl; [|exact H1]; apply one_no_nl). rewrite read_lines_last; [|now apply one_no_nl|exact Hl]. rewrite map_app, map_map. cbn [map]. rewrite chomp_last by exact H3. f_equal. rewrite <- (map_id ls') at 2. apply map_ext_in. intros k Hk. apply chomp_nl. rewrite Forall_forall in H1. now apply H1.
Qed.
Lemma cluster_file_reads number es t : cluster_file number es t -> flat_map (fun l => match cl_line number l with Some e => [e] | None => [] end) (lines t) = es.
Proof.
  intros (ds & ls & F & Hl & ->). assert (Ho : Forall one_line ls) by (clear Hl; induction F as [|d l ds ls H F IH]; constructor; [now destruct H as (? & ? & ? & ? & ? & ?)|exact IH]).
  rewrite (lines_read ls t Ho Hl). clear Hl Ho. unfold present. induction F as [|d l ds ls H F IH]; [reflexivity|]. cbn [flat_map]. rewrite (cl_line_reads _ _ _ H), IH. reflexivity.
Qed.

(** ** The encoding *)
Section Encoding.
Context (number : text -> option Z) (offset : Z) (dont_care hard_threshold : nat).
Notation smap := (sim_map offset dont_care hard_threshold).
Lemma cl_new_spec es t0 : cluster_file number es t0 -> (2 <= List.length (cl_idents es))%nat ->
  exists sims, cl_new number offset dont_care hard_threshold t0 = Some (mkClustering sims (List.length (cl_idents es)) (digits (List.length (cl_idents es))) (mkCvm 0 []) (CEq 0 1 0 0)) /\
    forall m c i j, (i < j)%nat -> (j < List.length (cl_idents es))%nat -> cl_sim (at_ sims (List.length (cl_idents es)) (digits (List.length (cl_idents es))) m c) i j = Some (pair_sim smap es (nth i (cl_idents es) []) (nth j (cl_idents es) [])).
Proof.
  intros Hf Hn. unfold cl_new. rewrite (cluster_file_reads _ _ _ Hf). destruct (cl_idents_spec es) as [Hnd Hin]. set (ids := cl_idents es) in *. set (n := List.length ids) in *.
  unfold usub at 1 2. replace (n <? 2)%nat with false by lia. replace (n <? 1)%nat with false by lia. cbn [obind]. rewrite (sim_idx_pidx n (n - 2) (n - 1)) by lia. cbn [obind].
  assert (Etop : (pidx n (n - 2) (n - 1) + 1 = tri n)%nat).
  { unfold pidx. replace (n - (n - 2))%nat with 2%nat by lia. pose proof (tri_mono 2 n Hn) as Hm. cbn [tri] in Hm |- *. lia. }
  rewrite Etop. destruct (enter_all offset dont_care hard_threshold ids Hnd es ltac:(intros x Hx; now apply Hin) (repeat DontCare (tri n)) (fun _ _ => DontCare)) as (sims & F & L & H).
  - apply repeat_length.
  - intros i j Hij. apply nth_error_repeat. now apply pidx_bound.
  - exists sims. rewrite F. split; [reflexivity|]. intros m c i j Hi Hj. unfold cl_sim. cbn [at_ cl_n cl_sims]. rewrite sim_idx_pidx by lia. cbn [obind]. apply H. fold n. lia.
Qed.
(** names instead of indices *)
Definition name_label (ids : list text) (g : nat -> nat) (x : text) : nat := match index_of x ids with Some i => g i | None => 0%nat end.
Section Named.
Context (es : list entry).
Notation ids := (cl_idents es).
Notation n := (List.length ids).
Notation sim := (fun i j => pair_sim smap es (nth i ids []) (nth j ids [])).
Lemma index_valid_named f : index_valid n sim (fun i => f (nth i ids [])) <-> valid_clustering smap es f.
Proof.
  destruct (cl_idents_spec es) as [Hnd Hin]. split.
  - intros H x y Hx Hy Hne. apply Hin in Hx, Hy. destruct (In_nth _ _ [] Hx) as (i & Hi & <-). destruct (In_nth _ _ [] Hy) as (j & Hj & <-).
    destruct (Nat.lt_trichotomy i j) as [L|[-> |L]]; [exact (H i j (conj L Hj))|easy|]. destruct (H j i (conj L Hi)) as [A B]. rewrite (pair_sim_sym smap es (nth i ids [])). split; intros E; [symmetry; now apply A|intros K; now apply (B E)].
  - intros H i j Hij. apply H; [apply Hin, nth_In; lia|apply Hin, nth_In; lia|]. intros E. apply (proj1 (NoDup_nth ids []) Hnd) in E; lia.
Qed.
Lemma costs_named names f : objects es names -> index_apart n sim (fun i => f (nth i ids [])) = apart_cost smap es names f /\ index_together n sim (fun i => f (nth i ids [])) = together_cost smap es names f.
Proof.
  intros [Hnd Hin]. destruct (cl_idents_spec es) as [Hnd' Hin']. assert (P : Permutation names ids) by (apply NoDup_Permutation; [exact Hnd|exact Hnd'|intros x; now rewrite Hin, Hin']).
  unfold apart_cost, together_cost. rewrite (sum_pairs_perm (fun p => apart_weight (pair_sim smap es (fst p) (snd p)) (f (fst p) =? f (snd p))%nat)) with (ys := ids); [|intros x y; cbn [fst snd]; now rewrite pair_sim_sym, Nat.eqb_sym|exact P].
  rewrite (sum_pairs_perm (fun p => together_weight (pair_sim smap es (fst p) (snd p)) (f (fst p) =? f (snd p))%nat)) with (ys := ids); [|intros x y; cbn [fst snd]; now rewrite pair_sim_sym, Nat.eqb_sym|exact P].
  rewrite (@pairs_of_index text [] (cl_idents es)), !map_map. split; reflexivity.
Qed.
Lemma label_index g : (forall i, (i < n)%nat -> name_label ids g (nth i ids []) = g i).
Proof. intros i Hi. destruct (cl_idents_spec es) as [Hnd _]. unfold name_label. rewrite (index_of_nth ids i); [reflexivity|exact Hnd|now apply nth_error_nth']. Qed.
Lemma index_ext g h : (2 <= n)%nat -> (forall i, (i < n)%nat -> g i = h i) -> (index_valid n sim g -> index_valid n sim h) /\ index_apart n sim g = index_apart n sim h /\ index_together n sim g = index_together n sim h.
Proof.
  intros Hn H. split; [|split].
  - intros V i j Hij. rewrite <- !H by lia. exact (V i j Hij).
  - apply list_sum_ext. intros [i j] Hp. apply (index_pairs_in n Hn) in Hp. cbn [fst snd]. now rewrite !H by lia.
  - apply list_sum_ext. intros [i j] Hp. apply (index_pairs_in n Hn) in Hp. cbn [fst snd]. now rewrite !H by lia.
Qed.
End Named.

Lemma value_means_map z s : value_means dont_care hard_threshold (z - offset) s -> s = smap z.
Proof.
  unfold sim_map, saturating_map. generalize (z - offset)%Z. intros v H. unfold value_means in H.
  destruct (Nat.ltb_spec (Z.abs_nat v) dont_care); [destruct s; try reflexivity; lia|]. destruct (Nat.ltb_spec hard_threshold (Z.abs_nat v)); destruct (Z.ltb_spec 0 v); destruct s; try reflexivity; try lia; f_equal; lia.
Qed.
Lemma map_value_means z : value_means dont_care hard_threshold (z - offset) (smap z).
Proof.
  unfold sim_map, saturating_map. generalize (z - offset)%Z. intros v. 
  destruct (Nat.ltb_spec (Z.abs_nat v) dont_care); [cbn; lia|]. destruct (Nat.ltb_spec hard_threshold (Z.abs_nat v)); destruct (Z.ltb_spec 0 v); cbn; lia.
Qed.
Lemma pair_sim_ext smap' es x y : (forall e, In e es -> smap' (snd e) = smap (snd e)) -> pair_sim smap' es x y = pair_sim smap es x y.
Proof. unfold pair_sim. generalize DontCare. induction es as [|e es IH]; intros s H; [reflexivity|]. cbn [fold_left]. rewrite (H e) by now left. apply IH. intros; apply H; now right. Qed.

(** the weights *)
Lemma sim_weight es x y : (forall e, In e es -> is_usize (Z.abs_nat (snd e - offset))) -> match pair_sim smap es x y with Similar w | DisSimilar w => is_usize w | _ => True end.
Proof.
  intros H. unfold pair_sim. assert (G : forall s, match s with Similar w | DisSimilar w => is_usize w | _ => True end -> match fold_left (fun s e => if about e x y then smap (snd e) else s) es s with Similar w | DisSimilar w => is_usize w | _ => True end).
  { induction es as [|e es IH]; intros s Hs; [exact Hs|]. cbn [fold_left]. apply IH; [intros; apply H; now right|]. destruct (about e x y); [|exact Hs]. specialize (H e (or_introl eq_refl)). unfold sim_map, saturating_map.
    destruct (_ <? dont_care)%nat; [exact Logic.I|]. destruct (hard_threshold <? _)%nat; destruct (0 <? _)%Z; try exact Logic.I; exact H. }
  apply G. exact Logic.I.
Qed.
Lemma items_soft n a sim x k w : (2 <= n)%nat -> In x (cluster_items n a sim) -> snd x = Some (k, w) -> (k < 2)%nat /\ exists i j, sim i j = Similar w \/ sim i j = DisSimilar w.
Proof.
  intros Hn Hx E. apply (items_cases n a sim Hn) in Hx as (i & j & _ & Hx).
  destruct Hx as [Hx|[Hx|[Hx|[Hx|[Hx|Hx]]]]]; try (rewrite (proj1 (hard_kinds a sim i j x)) in E by tauto; discriminate).
  - unfold sim_items in Hx. destruct (sim i j) eqn:S; try easy. destruct Hx as [<-|[]]. injection E as <- <-. split; [lia|]. exists i, j. auto.
  - unfold dis_items in Hx. destruct (sim i j) eqn:S; try easy. destruct Hx as [<-|[]]. injection E as <- <-. split; [lia|]. exists i, j. auto.
Qed.
Lemma two_costs b (its : list mitem) : (forall e j w, In e its -> snd e = Some (j, w) -> (j < 2)%nat) -> cls_cost b (softs (map in_one its)) = (cls_cost b (msofts 0 its) + cls_cost b (msofts 1 its))%nat.
Proof.
  induction its as [|[c x] its IH]; intros H; [reflexivity|]. specialize (IH ltac:(intros e j w He; apply (H e j w); now right)). change ((c, x) :: its) with ([(c, x)] ++ its). rewrite map_app, softs_app, !msofts_app, !cls_cost_app.
  assert (E : cls_cost b (softs (map in_one [(c, x)])) = (cls_cost b (msofts 0 [(c, x)]) + cls_cost b (msofts 1 [(c, x)]))%nat); [|etransitivity; [exact (f_equal2 Nat.add E IH)|lia]]. destruct x as [[k w]|]; [|reflexivity]. pose proof (H (c, Some (k, w)) k w ltac:(now left) eq_refl). destruct k as [|[|k]]; [cbn; lia|cbn; lia|lia].
Qed.
Lemma costs_two b (its : list mitem) x y : cls_cost b (msofts 0 its) = x -> cls_cost b (msofts 1 its) = y -> mcnf_costs 2 its b = [Z.of_nat x; Z.of_nat y].
Proof. intros <- <-. reflexivity. Qed.
Lemma clustering_core es names t0 : cluster_file number es t0 -> objects es names -> (2 <= List.length names)%nat ->
  exists its st, cl_new number offset dont_care hard_threshold t0 = Some st /\ yields cl_step st (map mline its) /\ clustering_clauses smap es names its /\
    (forall e j w, In e its -> snd e = Some (j, w) -> (j < 2)%nat /\ exists x y, pair_sim smap es x y = Similar w \/ pair_sim smap es x y = DisSimilar w) /\
    forall e l, In e its -> In l (fst e) -> (lvar l < N.of_nat (List.length names * digits (List.length names) + List.length (pairs_of names) * (digits (List.length names) + 1)))%N.
Proof.
  intros Hf Hobj Hn. destruct (cl_idents_spec es) as [Hnd Hin]. assert (P : Permutation names (cl_idents es)) by (destruct Hobj as [N1 I1]; apply NoDup_Permutation; [exact N1|exact Hnd|intros x; now rewrite Hin, I1]).
  pose proof (Permutation_length P) as Hlen. assert (Hpl : List.length (pairs_of names) = List.length (index_pairs (List.length (cl_idents es)))).
  { assert (Hp : forall xs ys : list text, List.length xs = List.length ys -> List.length (pairs_of xs) = List.length (pairs_of ys)) by (induction xs as [|x xs IH]; intros [|y ys] E; try discriminate; [reflexivity|]; cbn [pairs_of]; injection E as E; now rewrite !app_length, !map_length, (IH ys E), E).
    rewrite (Hp _ _ Hlen), (@pairs_of_index text [] (cl_idents es)). apply map_length. }
  rewrite Hpl. rewrite Hlen in Hn |- *. destruct (cl_new_spec es t0 Hf Hn) as (sims & E & Hsim). set (n := List.length (cl_idents es)) in *. set (sim := fun i j => pair_sim smap es (nth i (cl_idents es) []) (nth j (cl_idents es) [])) in *.
  destruct (cluster_yields sims n (digits n) sim Hn Hsim) as (W & Hy & HW & Hb). exists (map (inst W) (cluster_items n (digits n) sim)). eexists. split; [exact E|]. split; [rewrite map_map; exact Hy|].
  assert (Hs2 : forall e j w, In e (map (inst W) (cluster_items n (digits n) sim)) -> snd e = Some (j, w) -> (j < 2)%nat /\ exists x y, pair_sim smap es x y = Similar w \/ pair_sim smap es x y = DisSimilar w).
  { intros e j w He Ew. apply in_map_iff in He as (x & <- & Hx). cbn [inst snd] in Ew. destruct (items_soft _ _ _ _ _ _ Hn Hx Ew) as (H1 & i & k & H2). split; [exact H1|]. now exists (nth i (cl_idents es) []), (nth k (cl_idents es) []). }
  split; [|split; [exact Hs2|]].
  - assert (Hpow : (n <= 2 ^ digits n)%nat) by (unfold digits; pose proof (Nat.log2_spec n ltac:(lia)); lia).
    destruct (clusterings n (digits n) sim Hn W HW Hpow) as [C1 C2]. split; [|split].
    + unfold n_objs. apply list_max_le. apply Forall_forall. intros k Hk. apply in_map_iff in Hk as (e & <- & He). destruct (snd e) as [[j w]|] eqn:Ee; [|lia]. destruct (Hs2 e j w He Ee). lia.
    + intros b Hb1. destruct (C1 b Hb1) as (g & Hg & A & B). exists (name_label (cl_idents es) g).
      destruct (index_ext es g (fun i => name_label (cl_idents es) g (nth i (cl_idents es) [])) Hn (fun i Hi => eq_sym (label_index es g i Hi))) as (X1 & X2 & X3). destruct (costs_named es names (name_label (cl_idents es) g) Hobj) as [Y1 Y2].
      split; [apply index_valid_named, X1, Hg|]. apply costs_two; [rewrite A, <- Y1; exact X2|rewrite B, <- Y2; exact X3].
    + intros f Hv. apply index_valid_named in Hv. destruct (C2 _ Hv) as (b & Hb1 & A & B). exists b. destruct (costs_named es names f Hobj) as [Y1 Y2]. split; [exact Hb1|]. apply costs_two; [rewrite A; exact Y1|rewrite B; exact Y2].
  - intros e l He Hl. apply in_map_iff in He as (x & <- & Hx). cbn [inst fst] in Hl. apply in_map_iff in Hl as (sl & <- & Hl). cbn [inst_lit lvar]. exact (Hb x sl Hx Hl).
Qed.
Theorem clustering_spec es names t0 : cluster_file number es t0 -> objects es names -> (2 <= List.length names)%nat -> (forall e, In e es -> is_usize (Z.abs_nat (snd e - offset))) ->
  forall single t, produces (gen_cnf_clustering number offset dont_care hard_threshold single t0) t ->
  exists items, clustering_clauses smap es names items /\ (single = false -> mcnf_file max_var_idx items t) /\
    (single = true -> wcnf_file max_var_idx (map in_one items) t /\ forall a, Z.of_nat (cls_cost a (softs (map in_one items))) = fold_right Z.add 0%Z (mcnf_costs 2 items a)).
Proof.
  intros Hf Hobj Hn Hu single t Pr. destruct (clustering_core es names t0 Hf Hobj Hn) as (its & st & E & Hy & Hc & Hs & _). exists its. split; [exact Hc|]. unfold gen_cnf_clustering in Pr. rewrite E in Pr.
  assert (Hfit : Forall item_fits its).
  { apply Forall_forall. intros e He. unfold item_fits. destruct (snd e) as [[k w]|] eqn:Ee; [|exact Logic.I]. destruct (Hs e k w He Ee) as (H1 & x & y & H2). split; [unfold is_usize; change usize_max with 18446744073709551615%N; lia|]. pose proof (sim_weight es x y Hu) as Hw. destruct H2 as [H2|H2]; rewrite H2 in Hw; exact Hw. }
  pose proof (cnf_bench cl_step st single its t Hy Hfit Pr) as Hb. split; intros ->; [exact Hb|]. split; [exact Hb|]. intros b. rewrite two_costs by (intros e j w He Ew; now apply (Hs e j w)). unfold mcnf_costs. cbn [seq map fold_right]. lia.
Qed.
Theorem clustering_runs es names t0 : cluster_file number es t0 -> objects es names -> (2 <= List.length names)%nat ->
  (N.of_nat (List.length names * digits (List.length names) + List.length (pairs_of names) * (digits (List.length names) + 1)) <= max_var_idx)%N ->
  forall single, exists t, produces (gen_cnf_clustering number offset dont_care hard_threshold single t0) t.
Proof.
  intros Hf Hobj Hn Hmax single. destruct (clustering_core es names t0 Hf Hobj Hn) as (its & st & E & Hy & _ & _ & Hb). unfold gen_cnf_clustering. rewrite E. apply (cnf_bench_some cl_step st single its Hy). intros e He l Hl. specialize (Hb e l He Hl). change max_var_idx with 2147483647%N in *. lia.
Qed.

Lemma clauses_ext smap' es names items : (forall z, value_means dont_care hard_threshold (z - offset) (smap' z)) -> clustering_clauses smap es names items -> clustering_clauses smap' es names items.
Proof.
  intros Hm (H0 & H1 & H2). assert (Hp : forall x y, pair_sim smap' es x y = pair_sim smap es x y) by (intros x y; apply pair_sim_ext; intros e _; apply value_means_map, Hm).
  assert (Ha : forall f, apart_cost smap' es names f = apart_cost smap es names f) by (intros f; apply list_sum_ext; intros p _; now rewrite Hp). assert (Ht : forall f, together_cost smap' es names f = together_cost smap es names f) by (intros f; apply list_sum_ext; intros p _; now rewrite Hp).
  assert (Hv : forall f, valid_clustering smap' es f <-> valid_clustering smap es f) by (intros f; unfold valid_clustering; split; intros H x y; specialize (H x y); rewrite Hp in *; exact H).
  split; [exact H0|]. split.
  - intros a Ha1. destruct (H1 a Ha1) as (f & F1 & F2). exists f. rewrite Hv, Ha, Ht. auto.
  - intros f Hf. apply Hv in Hf. rewrite Ha, Ht. now apply H2.
Qed.
Theorem clustering_correct smap' es names t0 : (forall z, value_means dont_care hard_threshold (z - offset) (smap' z)) -> cluster_file number es t0 -> objects es names -> (2 <= List.length names)%nat -> (forall e, In e es -> is_usize (Z.abs_nat (snd e - offset))) ->
  forall single t, produces (gen_cnf_clustering number offset dont_care hard_threshold single t0) t ->
  exists items, clustering_clauses smap' es names items /\ (single = false -> mcnf_file max_var_idx items t) /\
    (single = true -> wcnf_file max_var_idx (map in_one items) t /\ forall a, Z.of_nat (cls_cost a (softs (map in_one items))) = fold_right Z.add 0%Z (mcnf_costs 2 items a)).
Proof.
  intros Hm Hf Hobj Hn Hu single t P. destruct (clustering_spec es names t0 Hf Hobj Hn Hu single t P) as (items & H1 & H2). exists items. split; [now apply clauses_ext|exact H2].
Qed.
End Encoding.
