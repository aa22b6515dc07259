(** * Proofs about the variable managers *)

From Coq Require Import List Bool NArith Lia Permutation Arith.
From Verif Require Import Spec Types NodeDb VarSpec VarMan Base.
Import ListNotations.

Lemma var_succ_some v n : var_succ v = Some n -> n = (v + 1)%N.
Proof. unfold var_succ. destruct (_ <=? _)%N; congruence. Qed.

(** ** The map *)
Section Keyed.
Context {K : Type} (keqb : K -> K -> bool) (Hk : forall k k', keqb k k' = true <-> k = k').
Notation get := (kget keqb).

Lemma keqb_refl k : keqb k k = true.
Proof. now apply Hk. Qed.
Lemma keqb_neq k k' : k <> k' -> keqb k k' = false.
Proof. intros H. destruct (keqb k k') eqn:E; [|reflexivity]. now apply Hk in E. Qed.

Lemma kget_cons k v m k' : get ((k, v) :: m) k' = if keqb k k' then Some v else get m k'.
Proof. unfold kget. cbn. destruct (keqb k k'); reflexivity. Qed.

Lemma kget_in m k v : get m k = Some v -> In (k, v) m.
Proof.
  induction m as [|[k0 v0] m IH]; [discriminate|]. rewrite kget_cons. destruct (keqb k0 k) eqn:E.
  - apply Hk in E as ->. intros [= ->]. now left.
  - intros H. right. auto.
Qed.

Lemma in_kget m k v : NoDup (map fst m) -> In (k, v) m -> get m k = Some v.
Proof.
  induction m as [|[k0 v0] m IH]; [intros _ []|]. cbn [map fst]. intros Hd Hi. inversion_clear Hd as [|? ? Hn Hd']. rewrite kget_cons.
  destruct Hi as [[= -> ->]|Hi]; [now rewrite keqb_refl|].
  rewrite keqb_neq; [auto|]. intros ->. apply Hn. change k with (fst (k, v)). now apply in_map.
Qed.

Lemma kget_filter f m k : NoDup (map fst m) ->
  get (filter f m) k = match get m k with Some v => if f (k, v) then Some v else None | None => None end.
Proof.
  induction m as [|[k0 v0] m IH]; [reflexivity|]. cbn [map fst filter]. intros Hd. inversion_clear Hd as [|? ? Hn Hd']. rewrite kget_cons.
  destruct (keqb k0 k) eqn:E.
  - apply Hk in E as ->. destruct (f (k, v0)) eqn:Ef; [now rewrite kget_cons, keqb_refl|].
    destruct (get (filter f m) k) eqn:G; [|reflexivity]. exfalso. apply Hn. apply kget_in in G. apply filter_In in G as [G _].
    change k with (fst (k, n)). now apply in_map.
  - destruct (f (k0, v0)); [rewrite kget_cons, E|]; auto.
Qed.

Lemma filter_keys f (m : kmap K) : NoDup (map fst m) -> NoDup (map fst (filter f m)).
Proof.
  induction m as [|[k v] m IH]; [auto|]. cbn [map fst filter]. intros Hd. inversion_clear Hd as [|? ? Hn Hd'].
  destruct (f (k, v)); [|auto]. cbn [map fst]. constructor; [|auto]. intros Hi. apply Hn. apply in_map_iff in Hi as ([k0 v0] & E & Hi). cbn in E. subst k0.
  apply filter_In in Hi as [Hi _]. change k with (fst (k, v0)). now apply in_map.
Qed.

Lemma kinsert_get m k v k' : NoDup (map fst m) -> get (kinsert keqb m (k, v)) k' = if keqb k k' then Some v else get m k'.
Proof.
  intros Hd. unfold kinsert. rewrite kget_cons. destruct (keqb k k') eqn:E; [reflexivity|]. rewrite kget_filter by auto. cbn [fst].
  destruct (get m k'); [|reflexivity]. rewrite (keqb_neq k' k); [reflexivity|]. intros ->. rewrite keqb_refl in E. discriminate.
Qed.

Lemma kinsert_dist m kv : NoDup (map fst m) -> NoDup (map fst (kinsert keqb m kv)).
Proof.
  intros Hd. unfold kinsert. cbn. constructor; [|now apply filter_keys]. intros Hi. apply in_map_iff in Hi as ([k0 v0] & E & Hi).
  apply filter_In in Hi as [_ Hi]. cbn in *. subst k0. now rewrite keqb_refl in Hi.
Qed.

Lemma kextend_dist m' : forall m, NoDup (map fst m) -> NoDup (map fst (kextend keqb m m')).
Proof. induction m' as [|kv m' IH]; cbn; intros m Hd; [auto|]. apply IH. now apply kinsert_dist. Qed.

Lemma kextend_get m' k : NoDup (map fst m') -> forall m, NoDup (map fst m) ->
  get (kextend keqb m m') k = match get m' k with Some v => Some v | None => get m k end.
Proof.
  induction m' as [|[k0 v0] m' IH]; intros Hd' m Hd; [reflexivity|]. cbn [map fst] in Hd'. inversion_clear Hd' as [|? ? Hn Hd''].
  cbn [kextend fold_left]. change (fold_left (kinsert keqb) m' (kinsert keqb m (k0, v0))) with (kextend keqb (kinsert keqb m (k0, v0)) m').
  rewrite IH by (auto; now apply kinsert_dist). rewrite kinsert_get by auto. rewrite kget_cons. destruct (keqb k0 k) eqn:E; [|reflexivity].
  apply Hk in E as ->. destruct (get m' k) eqn:G; [|reflexivity]. apply kget_in in G. exfalso. apply Hn. change k with (fst (k, n)). now apply in_map.
Qed.

(** ** The object manager *)
Record oinv (L : list (K * N)) (U : vset) (s : objman K) : Prop := mkOinv {
  oi_used : forall v, U v <-> (v < ob_next s)%N;
  oi_dist : NoDup (map fst (ob_map s));
  oi_low : forall k v, get (ob_map s) k = Some v -> (v < ob_next s)%N;
  oi_live : forall k v, get (ob_map s) k = Some v <-> In (k, v) L }.

Notation hist := (history (objects keqb) (object_var keqb) keqb).

Lemma existsb_key L k : existsb (fun kv : K * N => keqb (fst kv) k) L = true <-> exists v, In (k, v) L.
Proof.
  rewrite existsb_exists. split.
  - intros ([k0 v] & Hi & E). cbn in E. apply Hk in E as ->. eauto.
  - intros (v & Hi). exists (k, v). split; [auto|]. cbn. apply keqb_refl.
Qed.

Lemma next_increase_spec v n : (fst (next_increase v n) = N.max n v) /\ (snd (next_increase v n) = true <-> (n < v)%N).
Proof. unfold next_increase. destruct (N.ltb_spec n v); cbn; split; try lia; split; congruence || lia. Qed.

Lemma next_combine_spec n m : next_combine n m = N.max n m.
Proof. unfold next_combine. destruct (N.ltb_spec n m); lia. Qed.

Lemma hist_oinv t c f L U s : hist t c f L U s -> oinv L U s.
Proof.
  induction 1 as [n|L U s v s' _ H IH E|L U s v _ H IH|L U s v s' b _ H IH E|L U s k v s' H IH E|L U s L' U' s' _ H IH H' IH'|L U s v _ H IH].
  - constructor; cbn; try tauto; try (intros; discriminate). + constructor. + intros k v; split; [discriminate|intros []].
  - destruct IH as [I1 I2 I3 I4]. cbn in E. unfold next_new in E. destruct (var_succ (ob_next s)) as [n|] eqn:Es; [|discriminate]. cbn in E.
    apply var_succ_some in Es. injection E as <- <-. constructor; cbn; auto.
    + intros u. rewrite I1. lia.
    + intros k v Hg. apply I3 in Hg. lia.
  - destruct IH as [I1 I2 I3 I4]. cbn. pose proof (next_increase_spec v (ob_next s)) as [E _]. destruct (next_increase v (ob_next s)) as [n b]. cbn in *. subst n.
    constructor; cbn; auto.
    + intros u. rewrite I1. lia.
    + intros k v0 Hg. apply I3 in Hg. lia.
  - destruct IH as [I1 I2 I3 I4]. cbn in E. unfold next_mark in E. destruct (var_succ v) as [v'|] eqn:Es; [|discriminate]. cbn in E. apply var_succ_some in Es.
    pose proof (next_increase_spec v' (ob_next s)) as [E' _]. destruct (next_increase v' (ob_next s)) as [n b']. injection E as <- <-. cbn in *. subst n.
    constructor; cbn; auto.
    + intros u. rewrite I1. lia.
    + intros k v0 Hg. apply I3 in Hg. lia.
  - destruct IH as [I1 I2 I3 I4]. unfold object_var in E. destruct (get (ob_map s) k) as [v0|] eqn:G.
    + injection E as -> ->. constructor; cbn; auto.
      * intros u. rewrite I1. specialize (I3 _ _ G). split; [intros [?| ->]; lia|auto].
      * intros k' v'. rewrite I4. split; [auto|]. intros [[= <- <-]|?]; [now apply I4|auto].
    + unfold next_new in E. destruct (var_succ (ob_next s)) as [n|] eqn:Es; [|discriminate]. cbn in E. apply var_succ_some in Es. injection E as <- <-.
      constructor; cbn [ob_next ob_map].
      * intros u. rewrite I1. lia.
      * now apply kinsert_dist.
      * intros k' v'. rewrite kinsert_get by auto. destruct (keqb k k'); [intros [= <-]; lia|]. intros Hg. apply I3 in Hg. lia.
      * intros k' v'. rewrite kinsert_get by auto. destruct (keqb k k') eqn:Ek.
        -- apply Hk in Ek as ->. split; [intros E'; injection E' as <-; now left|]. intros [E'|Hi]; [injection E' as <-; reflexivity|]. apply I4 in Hi. congruence.
        -- rewrite I4. split; [now right|]. intros [E'|Hi]; [injection E' as <- _|auto]. rewrite keqb_refl in Ek. discriminate.
  - destruct IH as [I1 I2 I3 I4]. destruct IH' as [J1 J2 J3 J4]. constructor; cbn [objects m_combine ob_next ob_map]; rewrite ?next_combine_spec.
    + intros u. rewrite I1, J1. lia.
    + now apply kextend_dist.
    + intros k v. rewrite kextend_get by auto. destruct (get (ob_map s') k) eqn:G; [intros [= ->]; apply J3 in G; lia|]. intros Hg. apply I3 in Hg. lia.
    + intros k v. rewrite kextend_get by auto. rewrite in_app_iff, filter_In. cbn [fst]. rewrite negb_true_iff.
      destruct (get (ob_map s') k) as [v'|] eqn:G.
      * apply J4 in G as G'. split; [intros [= ->]; now left|]. intros [Hi|[_ Hx]]; [apply J4 in Hi; congruence|].
        rewrite (proj2 (existsb_key L' k)) in Hx by eauto. discriminate.
      * rewrite I4. split.
        -- intros Hi. right. split; [auto|]. destruct (existsb _ L') eqn:X; [|reflexivity]. apply existsb_key in X as (v' & X). apply J4 in X. congruence.
        -- intros [Hi|[Hi _]]; [|auto]. apply J4 in Hi. congruence.
  - destruct IH as [I1 I2 I3 I4]. constructor; cbn [objects m_forget ob_next ob_map]; unfold next_forget, kretain.
    + intros u. rewrite I1. lia.
    + now apply filter_keys.
    + intros k v0. rewrite kget_filter by auto. destruct (get (ob_map s) k) eqn:G; [|discriminate]. cbn. destruct (N.ltb_spec n v); [|discriminate].
      intros [= <-]. apply I3 in G. lia.
    + intros k v0. rewrite kget_filter by auto. rewrite filter_In. cbn [snd]. rewrite <- I4. destruct (get (ob_map s) k) as [v1|] eqn:G; [|intuition discriminate].
      destruct (v1 <? v)%N eqn:Ev.
      * split; [intros [= <-]; auto|]. now intros [[= ->] _].
      * split; [discriminate|]. intros [[= <-] Hx]. congruence.
Qed.

Lemma objects_fresh t c f L U s : hist t c f L U s -> fresh_vars (objects keqb) U s.
Proof.
  intros H. apply hist_oinv in H as [I1 _ _ _]. cbn. split; [|split; [|split; [|split]]].
  - intros v s'. cbn. unfold next_new. destruct (var_succ _) as [n|] eqn:Es; [|discriminate]. cbn. intros [= <- <-]. split; [rewrite I1; lia|].
    intros u. rewrite I1. auto.
  - exact I1.
  - intros m. cbn. unfold next_max. destruct (N.eqb_spec (ob_next s) 0) as [E|E].
    + split; [discriminate|]. intros [Hm _]. apply I1 in Hm. lia.
    + split.
      * intros [= <-]. split; [apply I1; lia|]. intros u Hu. apply I1 in Hu. lia.
      * intros [Hm Hx]. apply I1 in Hm. f_equal. specialize (Hx (ob_next s - 1)%N). rewrite I1 in Hx. lia.
  - cbn. unfold next_max. destruct (N.eqb_spec (ob_next s) 0) as [E|E].
    + split; [|reflexivity]. intros _ u Hu. apply I1 in Hu. lia.
    + split; [discriminate|]. intros Hx. exfalso. apply (Hx (ob_next s - 1)%N). apply I1. lia.
  - intros v. cbn. destruct (next_increase_spec v (ob_next s)) as [_ E]. destruct (next_increase v (ob_next s)) as [n b]. cbn in *. rewrite E. split.
    + intros Hv. exists (ob_next s). split; [auto|]. rewrite I1. lia.
    + intros (u & Hu & Hn). rewrite I1 in Hn. lia.
Qed.

Lemma object_var_same t c f L U s k v : hist t c f L U s -> In (k, v) L -> object_var keqb k s = Some (v, s).
Proof. intros H Hi. apply hist_oinv in H as [_ _ _ I4]. apply I4 in Hi. unfold object_var. now rewrite Hi. Qed.

Lemma object_var_new t c f L U s k v s' : hist t c f L U s -> (forall v', ~ In (k, v') L) -> object_var keqb k s = Some (v, s') -> ~ U v.
Proof.
  intros H Hn. apply hist_oinv in H as [I1 _ _ I4]. unfold object_var. destruct (get (ob_map s) k) as [v'|] eqn:G; [apply I4 in G; now apply Hn in G|].
  unfold next_new. destruct (var_succ _) as [n|]; [|discriminate]. intros [= <- <-]. rewrite I1. lia.
Qed.

Lemma hist_inj t f L U s : hist t false f L U s -> forall k v k' v', In (k, v) L -> In (k', v') L -> (k = k' <-> v = v').
Proof.
  intros H. remember false as c in H. revert Heqc. induction H as [n|L U s v s' _ H IH E|L U s v _ H IH|L U s v s' b _ H IH E|L U s k v s' H IH E|L U s L' U' s' Hc H IH H' IH'|L U s v _ H IH]; intros Hc0; auto.
  - intros ? ? ? ? [].
  - specialize (IH Hc0). pose proof (hist_oinv _ _ _ _ _ _ H) as [I1 _ I3 I4]. intros k1 v1 k2 v2.
    assert (New : forall k' v', In (k', v') L -> k = k' <-> v = v').
    { unfold object_var in E. destruct (get (ob_map s) k) as [v0|] eqn:G.
      - injection E as -> ->. apply I4 in G. intros k' v' Hi. now apply IH.
      - unfold next_new in E. destruct (var_succ _) as [n|] eqn:Es; [|discriminate]. injection E as <- <-. intros k' v' Hi. apply I4 in Hi.
        split; [intros ->; congruence|]. intros <-. apply I3 in Hi. lia. }
    intros [[= -> ->]|H1] [[= -> ->]|H2].
    + tauto.
    + now apply New.
    + specialize (New _ _ H1). split; intros ->; symmetry; now apply New.
    + now apply IH.
  - congruence.
  - specialize (IH Hc0). intros k v1 k' v' H1 H2. apply filter_In in H1 as [H1 _]. apply filter_In in H2 as [H2 _]. now apply IH.
Qed.

Lemma object_var_distinct t f L U s k v s' k' v' : hist t false f L U s -> object_var keqb k s = Some (v, s') -> In (k', v') L -> k <> k' -> v <> v'.
Proof.
  intros H E Hi Hn. pose proof (h_look _ _ _ _ _ _ _ _ _ _ _ _ H E) as H'. pose proof (hist_inj _ _ _ _ _ H' k v k' v' (or_introl eq_refl) (or_intror Hi)). tauto.
Qed.
End Keyed.

(** ** Basic manager: an object manager without objects *)
Lemma basic_hist t c f L U s : history basic (@no_look N) no_eqb t c f L U s -> forall v, U v <-> (v < s)%N.
Proof.
  induction 1 as [n|L U s v s' _ H IH E|L U s v _ H IH|L U s v s' b _ H IH E|L U s k v s' H IH E|L U s L' U' s' _ H IH H' IH'|L U s v _ H IH]; intros u; cbn.
  - tauto.
  - cbn in E. unfold next_new in E. destruct (var_succ s) as [n|] eqn:Es; [|discriminate]. injection E as <- <-. apply var_succ_some in Es. rewrite IH. lia.
  - rewrite IH. rewrite (proj1 (next_increase_spec v s)). lia.
  - cbn in E. unfold next_mark in E. destruct (var_succ v) as [v'|] eqn:Es; [|discriminate]. apply var_succ_some in Es. cbn in E. injection E as E.
    pose proof (proj1 (next_increase_spec v' s)) as E'. rewrite E in E'. cbn in E'. rewrite IH. lia.
  - destruct k.
  - rewrite IH, IH', next_combine_spec. lia.
  - rewrite IH. unfold next_forget. lia.
Qed.

Lemma basic_fresh t c f L U s : history basic (@no_look N) no_eqb t c f L U s -> fresh_vars basic U s.
Proof.
  intros H. pose proof (basic_hist _ _ _ _ _ _ H) as I1. split; [|split; [|split; [|split]]].
  - intros v s'. cbn. unfold next_new. destruct (var_succ _) as [n|] eqn:Es; [|discriminate]. cbn. intros [= <- <-]. split; [rewrite I1; lia|].
    intros u. rewrite I1. auto.
  - exact I1.
  - intros m. cbn. unfold next_max. destruct (N.eqb_spec s 0) as [E|E].
    + split; [discriminate|]. intros [Hm _]. apply I1 in Hm. lia.
    + split.
      * intros [= <-]. split; [apply I1; lia|]. intros u Hu. apply I1 in Hu. lia.
      * intros [Hm Hx]. apply I1 in Hm. f_equal. specialize (Hx (s - 1)%N). rewrite I1 in Hx. lia.
  - cbn. unfold next_max. destruct (N.eqb_spec s 0) as [E|E].
    + split; [|reflexivity]. intros _ u Hu. apply I1 in Hu. lia.
    + split; [discriminate|]. intros Hx. exfalso. apply (Hx (s - 1)%N). apply I1. lia.
  - intros v. cbn. rewrite (proj2 (next_increase_spec v s)). split.
    + intros Hv. exists s. split; [auto|]. rewrite I1. lia.
    + intros (u & Hu & Hn). rewrite I1 in Hn. lia.
Qed.

(** ** Reindexing manager: an object manager whose objects are variables, with a reverse map *)
Definition re_obj (s : reman) : objman N := mkObj (re_next s) (re_in s).
Notation rhist := (history reindexing re_reindex N.eqb).
Notation ohist := (history (objects N.eqb) (object_var N.eqb) N.eqb).

Lemma re_obj_look k s v s' : re_reindex k s = Some (v, s') -> object_var N.eqb k (re_obj s) = Some (v, re_obj s').
Proof.
  unfold re_reindex, object_var, re_obj. cbn. destruct (kget N.eqb (re_in s) k); [now intros [= -> ->]|].
  destruct (next_new (re_next s)) as [[v0 n]|]; [|discriminate]. cbn. now intros [= <- <-].
Qed.

Lemma rhist_ohist t c f L U s : rhist t c f L U s -> ohist t c f L U (re_obj s).
Proof.
  induction 1 as [n|L U s v s' Ht H IH E|L U s v Ht H IH|L U s v s' b Ht H IH E|L U s k v s' H IH E|L U s L' U' s' Hc H IH H' IH'|L U s v Hf H IH].
  - exact (h_start _ _ _ t c f n).
  - apply (h_new _ _ _ t c f L U (re_obj s) v (re_obj s') Ht IH). cbn in *. destruct (next_new (re_next s)) as [[v0 n]|]; [|discriminate]. cbn in *. injection E as <- <-. reflexivity.
  - pose proof (h_increase _ _ _ t c f L U (re_obj s) v Ht IH) as X. cbn in *. destruct (next_increase v (re_next s)). exact X.
  - apply (h_mark _ _ _ t c f L U (re_obj s) v (re_obj s') b Ht IH). cbn in *. destruct (next_mark v (re_next s)) as [[n b0]|]; [|discriminate]. cbn in *. injection E as <- <-. reflexivity.
  - apply (h_look _ _ _ t c f L U (re_obj s)); [auto|]. now apply re_obj_look.
  - exact (h_combine _ _ _ t c f L U (re_obj s) L' U' (re_obj s') Hc IH IH').
  - exact (h_forget _ _ _ t c f L U (re_obj s) v Hf IH).
Qed.

Lemma reindexing_fresh t c f L U s : rhist t c f L U s -> fresh_vars reindexing U s.
Proof.
  intros H. apply rhist_ohist in H. apply (objects_fresh N.eqb N.eqb_eq) in H as (H1 & H2 & H3 & H4 & H5). split; [|split; [|split; [|split]]]; auto.
  - intros v s' E. cbn in *. destruct (next_new (re_next s)) as [[v0 n]|]; [|discriminate]. cbn in *. injection E as <- <-. eapply H1. reflexivity.
  - intros v. specialize (H5 v). cbn in *. destruct (next_increase v (re_next s)). exact H5.
Qed.

Lemma re_look_obj k s v o : object_var N.eqb k (re_obj s) = Some (v, o) -> exists s', re_reindex k s = Some (v, s').
Proof.
  unfold re_reindex, object_var, re_obj. cbn. destruct (kget N.eqb (re_in s) k); [intros [= -> _]; eauto|].
  destruct (next_new (re_next s)) as [[v0 n]|]; [|discriminate]. cbn. intros [= <- <-]. eauto.
Qed.

Lemma reindex_same t c f L U s k v : rhist t c f L U s -> In (k, v) L -> re_reindex k s = Some (v, s).
Proof.
  intros H Hi. apply rhist_ohist in H. apply (hist_oinv N.eqb N.eqb_eq) in H as [_ _ _ I4]. apply I4 in Hi. unfold re_reindex. cbn in Hi. now rewrite Hi.
Qed.

Lemma reindex_distinct t f L U s k v s' k' v' : rhist t false f L U s -> re_reindex k s = Some (v, s') -> In (k', v') L -> k <> k' -> v <> v'.
Proof. intros H E. apply (object_var_distinct N.eqb N.eqb_eq t f L U (re_obj s) k v (re_obj s')); [now apply rhist_ohist|now apply re_obj_look]. Qed.

Lemma reindex_new t c f L U s k v s' : rhist t c f L U s -> (forall v', ~ In (k, v') L) -> re_reindex k s = Some (v, s') -> ~ U v.
Proof. intros H Hn E. eapply (object_var_new N.eqb N.eqb_eq); [apply rhist_ohist; eauto|eauto|apply re_obj_look; eauto]. Qed.

Lemma rhist_out L U s : rhist false false false L U s ->
  N.of_nat (length (re_out s)) = re_next s /\ forall k v, In (k, v) L -> re_reverse v s = Some k.
Proof.
  intros H. remember false as t eqn:Et in H at 1. remember false as c eqn:Ec in H at 1. remember false as f eqn:Ef in H at 1.
  induction H as [n|L U s v s' Ht H IH E|L U s v Ht H IH|L U s v s' b Ht H IH E|L U s k v s' H IH E|L U s L' U' s' Hc H IH H' IH'|L U s v Hf H IH]; try congruence.
  - split; [|intros ? ? []]. cbn. rewrite map_length, seq_length. lia.
  - destruct IH as [Hl Hr]. unfold re_reindex in E. destruct (kget N.eqb (re_in s) k) as [v0|] eqn:G.
    + injection E as -> ->. split; [auto|]. intros k' v' [[= <- <-]|Hi]; [|auto].
      apply rhist_ohist in H. apply (hist_oinv N.eqb N.eqb_eq) in H as [_ _ _ I4]. apply Hr. now apply I4.
    + unfold next_new in E. destruct (var_succ _) as [n|] eqn:Es; [|discriminate]. apply var_succ_some in Es. injection E as <- <-. cbn. split; [rewrite app_length; cbn; lia|].
      unfold re_reverse in *. cbn. intros k' v' [[= <- <-]|Hi].
      * rewrite nth_error_app2 by lia. replace (N.to_nat (re_next s) - length (re_out s))%nat with 0%nat by lia. reflexivity.
      * specialize (Hr _ _ Hi). rewrite nth_error_app1; [auto|]. apply nth_error_Some. congruence.
Qed.

Lemma rhist_reverse L U s v : rhist false false false L U s -> (re_reverse v s = None <-> ~ U v).
Proof.
  intros H. destruct (rhist_out _ _ _ H) as [Hl _]. pose proof (reindexing_fresh _ _ _ _ _ _ H) as (_ & Hu & _). unfold re_reverse. rewrite nth_error_None, Hu. cbn. lia.
Qed.

(** ** Random reindexing *)
Lemma vec_set_spec {A} (x : A) : forall i s s', vec_set i x s = Some s' -> length s' = length s /\ forall j, nth_error s' j = if (j =? i)%nat then Some x else nth_error s j.
Proof.
  induction i as [|i IH]; intros [|y s] s'; cbn; try discriminate.
  - intros [= <-]. split; [reflexivity|]. intros [|j]; reflexivity.
  - destruct (vec_set i x s) as [s1|] eqn:E; [|discriminate]. intros [= <-]. destruct (IH _ _ E) as [H1 H2]. split; [cbn; lia|]. intros [|j]; [reflexivity|]. cbn. apply H2.
Qed.
Lemma vec_set_some {A} (x : A) : forall i s, (i < length s)%nat -> exists s', vec_set i x s = Some s'.
Proof.
  induction i as [|i IH]; intros [|y s]; cbn; try lia; [eauto|]. intros H. destruct (IH s ltac:(lia)) as (s' & ->). eauto.
Qed.

Lemma rand_invert_spec in_map : forall idx out, NoDup in_map -> (forall v, In v in_map -> (N.to_nat v < length out)%nat) ->
  exists out', rand_invert idx in_map out = Some out' /\ length out' = length out /\
    (forall i v, nth_error in_map i = Some v -> nth_error out' (N.to_nat v) = Some (idx + N.of_nat i)%N) /\
    (forall v, ~ In v in_map -> nth_error out' (N.to_nat v) = nth_error out (N.to_nat v)).
Proof.
  induction in_map as [|x in_map IH]; intros idx out Hd Hb.
  - exists out. split; [reflexivity|]. split; [reflexivity|]. split; [intros [|i] v; discriminate|auto].
  - inversion_clear Hd as [|? ? Hn Hd']. destruct (vec_set_some idx (N.to_nat x) out) as (out1 & E1); [apply Hb; now left|].
    destruct (vec_set_spec _ _ _ _ E1) as [L1 G1]. destruct (IH (idx + 1)%N out1 Hd') as (out' & E & L & G & R).
    { intros v Hv. rewrite L1. apply Hb. now right. }
    exists out'. split; [cbn; now rewrite E1|]. split; [lia|]. split.
    + intros [|i] v; cbn.
      * intros [= <-]. rewrite R by auto. rewrite G1, Nat.eqb_refl. f_equal. lia.
      * intros Hi. rewrite (G _ _ Hi). f_equal. lia.
    + intros v Hv. rewrite R by (intros X; apply Hv; now right). rewrite G1. destruct (Nat.eqb_spec (N.to_nat v) (N.to_nat x)) as [Ex|]; [|reflexivity].
      exfalso. apply Hv. left. lia.
Qed.

Lemma rand_spec n sh : Permutation sh (map N.of_nat (seq 0 (N.to_nat n))) ->
  exists s, rand_init n sh = Some s /\ (forall k k', rand_reindex k s = rand_reindex k' s -> k = k') /\
    (forall k, rand_reverse (rand_reindex k s) s = Some k) /\ (forall k, (k < n)%N <-> (rand_reindex k s < n)%N) /\
    (forall v s', rand_new s = Some (v, s') -> forall k, (k < n)%N -> rand_reindex k s <> v).
Proof.
  intros P. assert (Hin : forall v, In v sh <-> (v < n)%N).
  { intros v. rewrite P, in_map_iff. split.
    - intros (x & <- & Hx). apply in_seq in Hx. lia.
    - intros Hv. exists (N.to_nat v). rewrite in_seq. lia. }
  assert (Hlen : length sh = N.to_nat n) by (rewrite P, map_length, seq_length; reflexivity).
  assert (Hnd : NoDup sh).
  { rewrite P. apply FinFun.Injective_map_NoDup; [intros x y; lia|apply seq_NoDup]. }
  destruct (rand_invert_spec sh 0 (repeat 0%N (N.to_nat n)) Hnd) as (out & E & L & G & _).
  { intros v Hv. rewrite repeat_length. apply Hin in Hv. lia. }
  rewrite repeat_length in L. exists (mkRand n sh out). unfold rand_init. rewrite E. split; [reflexivity|]. unfold rand_reindex, rand_reverse, rand_new. cbn [ra_in ra_out ra_next].
  assert (Hr : forall k, match nth_error out (N.to_nat (match nth_error sh (N.to_nat k) with Some v => v | None => k end)) with Some k' => Some k' | None => Some (match nth_error sh (N.to_nat k) with Some v => v | None => k end) end = Some k).
  { intros k. destruct (nth_error sh (N.to_nat k)) as [v|] eqn:Ev.
    - rewrite (G _ _ Ev). f_equal. lia.
    - apply nth_error_None in Ev. rewrite (proj2 (nth_error_None out (N.to_nat k))) by lia. reflexivity. }
  assert (Hlow : forall k, (k < n)%N <-> (match nth_error sh (N.to_nat k) with Some v => v | None => k end < n)%N).
  { intros k. destruct (nth_error sh (N.to_nat k)) as [v|] eqn:Ev; [|tauto]. apply nth_error_In in Ev as Hi. apply Hin in Hi.
    assert (N.to_nat k < length sh)%nat by (apply nth_error_Some; congruence). lia. }
  split; [|split; [exact Hr|split; [exact Hlow|]]].
  - intros k k' Ek. pose proof (Hr k) as H1. pose proof (Hr k') as H2. rewrite Ek in H1. congruence.
  - intros v s'. unfold next_new. destruct (var_succ n) as [m|]; [|discriminate]. intros [= <- <-] k Hk. apply Hlow in Hk. lia.
Qed.
