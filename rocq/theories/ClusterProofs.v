(** * Lemmas about the encoding of correlation clustering *)

From Coq Require Import List Bool NArith ZArith Ascii String Arith Lia Permutation.
From Coq Require Import ZifyBool ZifyNat ZifyN.
From Verif Require Import Spec Types BoundSpec ConstrEnc Dpw OptSpec Text TextProofs FioSpec Dimacs ToolSpec Bench BenchSpec BenchProofs BenchCnf ClusterSpec.
Import ListNotations.
Open Scope list_scope.

(** ** Named variables *)
Lemma varid_eqb_spec x y : reflect (x = y) (varid_eqb x y).
Proof.
  apply iff_reflect. destruct x, y; cbn [varid_eqb]; split; intros H; try discriminate; try (injection H as -> -> || injection H as -> -> ->); rewrite ?andb_true_iff, ?Nat.eqb_eq in *; intuition congruence.
Qed.
(** the variables of [n] objects with [a] bits *)
Definition okid (n a : nat) (id : varid) : Prop := match id with VBin i k => (i < n /\ k < a)%nat | VEq i j k => (i < j < n /\ k < a)%nat | VSame i j => (i < j < n)%nat end.
Definition vm_tight (n a : nat) (m : cvm) : Prop := cv_next m = N.of_nat (List.length (cv_vars m)) /\ NoDup (map fst (cv_vars m)) /\ forall id, In id (map fst (cv_vars m)) -> okid n a id.
Definition vm_good (n a : nat) (m : cvm) : Prop := ((forall id v, cv_get m id = Some v -> (v < cv_next m)%N) /\ forall id id' v, cv_get m id = Some v -> cv_get m id' = Some v -> id = id') /\ vm_tight n a m.
Definition ext (m m' : cvm) : Prop := forall id v, cv_get m id = Some v -> cv_get m' id = Some v.
Lemma ext_refl m : ext m m. Proof. intros ? ? H. exact H. Qed.
Lemma ext_trans m m' m'' : ext m m' -> ext m' m'' -> ext m m''. Proof. intros H K id v E. apply K, H, E. Qed.
Definition V (m : cvm) (id : varid) : N := match cv_get m id with Some v => v | None => 0%N end.
Definition has (m : cvm) (id : varid) : Prop := cv_get m id <> None.
Lemma has_ext m m' id : ext m m' -> has m id -> has m' id /\ V m' id = V m id.
Proof. intros He H. unfold has, V in *. destruct (cv_get m id) as [v|] eqn:E; [|easy]. rewrite (He _ _ E). easy. Qed.
Lemma cv_id_spec n a m id v m' : vm_good n a m -> cv_id m id = (v, m') -> okid n a id -> vm_good n a m' /\ ext m m' /\ has m' id /\ v = V m' id.
Proof.
  intros [[Hlt Hinj] Ht] E Ho. unfold cv_id in E. destruct (cv_get m id) as [w|] eqn:G.
  - injection E as <- <-. split; [exact (conj (conj Hlt Hinj) Ht)|]. split; [apply ext_refl|]. split; [unfold has; now rewrite G|unfold V; now rewrite G].
  - injection E as <- <-. set (m' := mkCvm (cv_next m + 1) ((id, cv_next m) :: cv_vars m)).
    assert (Hg : forall id', cv_get m' id' = if varid_eqb id id' then Some (cv_next m) else cv_get m id') by (intros id'; unfold cv_get; cbn [m' cv_vars find fst]; now destruct (varid_eqb id id')).
    split; [split; [split|]|].
    + intros id' v H. rewrite Hg in H. cbn [m' cv_next]. destruct (varid_eqb id id'); [injection H as <-; lia|]. specialize (Hlt _ _ H). lia.
    + intros id1 id2 v H1 H2. rewrite Hg in H1, H2. destruct (varid_eqb_spec id id1) as [<-|N1], (varid_eqb_spec id id2) as [<-|N2]; [reflexivity| | |exact (Hinj _ _ _ H1 H2)].
      * injection H1 as <-. specialize (Hlt _ _ H2). lia.
      * injection H2 as <-. specialize (Hlt _ _ H1). lia.
    + destruct Ht as (T1 & T2 & T3). unfold vm_tight. cbn [m' cv_next cv_vars map fst List.length]. split; [lia|]. split; [constructor; [|exact T2]|intros id' [<-|H]; [exact Ho|now apply T3]].
      intros Hin. apply in_map_iff in Hin as ([id' v'] & <- & Hin). unfold cv_get in G. destruct (find _ (cv_vars m)) eqn:F; [discriminate|]. pose proof (find_none _ _ F _ Hin) as K. cbn [fst] in K. destruct (varid_eqb_spec id' id'); congruence.
    + split; [|unfold has, V; rewrite Hg; destruct (varid_eqb_spec id id); [easy|congruence]]. intros id' v H. rewrite Hg. destruct (varid_eqb_spec id id') as [<-|]; [congruence|exact H].
Qed.
Lemma cv_ids_spec n a ids : forall m vs m', vm_good n a m -> cv_ids m ids = (vs, m') -> (forall id, In id ids -> okid n a id) -> vm_good n a m' /\ ext m m' /\ (forall id, In id ids -> has m' id) /\ vs = map (V m') ids.
Proof.
  induction ids as [|id ids IH]; intros m vs m' Hm E Ho; cbn [cv_ids] in E.
  - injection E as <- <-. split; [exact Hm|]. split; [apply ext_refl|]. split; [easy|reflexivity].
  - destruct (cv_id m id) as [v m1] eqn:E1. destruct (cv_ids m1 ids) as [vs2 m2] eqn:E2. injection E as <- <-.
    destruct (cv_id_spec _ _ _ _ _ _ Hm E1 (Ho id (or_introl eq_refl))) as (H1 & X1 & K1 & ->). destruct (IH _ _ _ H1 E2 (fun x Hx => Ho x (or_intror Hx))) as (H2 & X2 & K2 & ->). destruct (has_ext _ _ _ X2 K1) as [K1' Ev].
    split; [exact H2|]. split; [exact (ext_trans _ _ _ X1 X2)|]. split; [intros x [<-|Hx]; auto|]. cbn [map]. now rewrite Ev.
Qed.

(** ** Clauses over named variables *)
Definition slit : Type := varid * bool.
Definition sitem : Type := list slit * option (nat * nat).
Definition inst_lit (W : varid -> N) (l : slit) : lit := mkLit (W (fst l)) (snd l).
Definition inst (W : varid -> N) (x : sitem) : mitem := (map (inst_lit W) (fst x), snd x).
Definition known (m : cvm) (x : sitem) : Prop := forall l, In l (fst x) -> has m (fst l).
Definition show (m : cvm) (x : sitem) : mcnf_wline := mline (inst (V m) x).
Lemma show_ext m m' x : ext m m' -> known m x -> known m' x /\ show m' x = show m x.
Proof.
  intros He Hk. split; [intros l Hl; apply (has_ext m m'); auto|]. unfold show, inst. do 2 f_equal. apply map_ext_in. intros l Hl. unfold inst_lit. f_equal. now apply (has_ext m m'), Hk.
Qed.
Lemma shows_ext m m' xs : ext m m' -> Forall (known m) xs -> Forall (known m') xs /\ map (show m') xs = map (show m) xs.
Proof.
  intros He Hk. induction Hk as [|x xs H Hk IH]; [split; [constructor|reflexivity]|]. destruct (show_ext m m' x He H) as [H1 H2]. destruct IH as [H3 H4]. split; [now constructor|]. cbn [map]. now rewrite H2, H4.
Qed.

(** ** Running the iterator *)
Section Run.
Context (sims : list similarity) (n a : nat) (sim : nat -> nat -> similarity).
Notation vm_ok := (vm_good n a).
Definition at_ (m : cvm) (c : cclause) : clustering := mkClustering sims n a m c.
Context (Hn : (2 <= n)%nat) (Hsim : forall m c i j, (i < j)%nat -> (j < n)%nat -> cl_sim (at_ m c) i j = Some (sim i j)).

(** from one state the iterator yields the lines and goes to the other state *)
Definition goes (s : clustering) (ls : list mcnf_wline) (s' : clustering) : Prop := forall ls', yields cl_step s' ls' -> yields cl_step s (ls ++ ls').
Lemma goes_refl s : goes s [] s. Proof. intros ls H. exact H. Qed.
Lemma goes_trans s ls s' ls' s'' : goes s ls s' -> goes s' ls' s'' -> goes s (ls ++ ls') s''.
Proof. intros H K r Hr. rewrite <- app_assoc. now apply H, K. Qed.
Lemma goes_loop s s' : cl_step s = ILoop s' -> goes s [] s'. Proof. intros H ls K. now apply (yields_loop _ _ _ _ H). Qed.
Lemma goes_yield s l s' : cl_step s = IYield l s' -> goes s [l] s'. Proof. intros H ls K. now apply (yields_step _ _ _ _ _ H). Qed.

(** [moves c xs c']: from the clause [c] to [c'], with any variables so far, yielding [xs] *)
Definition moves (c : cclause) (xs : list sitem) (c' : cclause) : Prop :=
  forall m, vm_ok m -> exists m', vm_ok m' /\ ext m m' /\ Forall (known m') xs /\ goes (at_ m c) (map (show m') xs) (at_ m' c').
Lemma moves_refl c : moves c [] c.
Proof. intros m Hm. exists m. split; [exact Hm|]. split; [apply ext_refl|]. split; [constructor|apply goes_refl]. Qed.
Lemma moves_trans c xs c' ys c'' : moves c xs c' -> moves c' ys c'' -> moves c (xs ++ ys) c''.
Proof.
  intros H K m Hm. destruct (H m Hm) as (m1 & H1 & X1 & K1 & G1). destruct (K m1 H1) as (m2 & H2 & X2 & K2 & G2). destruct (shows_ext m1 m2 xs X2 K1) as [K1' E].
  exists m2. split; [exact H2|]. split; [exact (ext_trans _ _ _ X1 X2)|]. split; [now apply Forall_app|]. rewrite map_app, E. exact (goes_trans _ _ _ _ _ G1 G2).
Qed.
Lemma moves_loop c c' : (forall m, cl_step (at_ m c) = ILoop (at_ m c')) -> moves c [] c'.
Proof. intros H m Hm. exists m. split; [exact Hm|]. split; [apply ext_refl|]. split; [constructor|]. now apply goes_loop. Qed.
(** a sequence of moves *)
Lemma moves_seq (K : nat -> cclause) (items : nat -> list sitem) d : forall i, (forall j, (i <= j < i + d)%nat -> moves (K j) (items j) (K (S j))) -> moves (K i) (flat_map items (seq i d)) (K (i + d)%nat).
Proof.
  induction d as [|d IH]; intros i H; [rewrite Nat.add_0_r; apply moves_refl|]. cbn [seq flat_map]. eapply moves_trans; [apply H; lia|]. replace (i + S d)%nat with (S i + d)%nat by lia. apply IH. intros j Hj. apply H. lia.
Qed.

Definition index_pairs : list (nat * nat) := flat_map (fun i => map (fun j => (i, j)) (seq (i + 1) (n - (i + 1)))) (seq 0 (n - 1)).
Lemma index_pairs_in i j : In (i, j) index_pairs <-> (i < j < n)%nat.
Proof.
  unfold index_pairs. rewrite in_flat_map. split.
  - intros (i' & Hi & H). apply in_map_iff in H as (j' & E & Hj). injection E as <- <-. apply in_seq in Hi, Hj. lia.
  - intros H. exists i. split; [apply in_seq; lia|]. apply in_map_iff. exists j. split; [reflexivity|]. apply in_seq. lia.
Qed.
(** one kind of clauses, for all pairs *)
Lemma moves_pairs (K : nat -> nat -> cclause) (items : nat * nat -> list sitem) :
  (forall i j m, (i < n - 1)%nat -> (n <= j)%nat -> cl_step (at_ m (K i j)) = ILoop (at_ m (K (i + 1) (i + 2))%nat)) ->
  (forall i j, (i < j)%nat -> (j < n)%nat -> moves (K i j) (items (i, j)) (K i (j + 1)%nat)) ->
  moves (K 0 1)%nat (flat_map items index_pairs) (K (n - 1) n)%nat.
Proof.
  intros Hrow Hone. assert (H : moves (K 0 1)%nat (flat_map (fun i => flat_map (fun j => items (i, j)) (seq (i + 1) (n - (i + 1)))) (seq 0 (n - 1))) (K (0 + (n - 1)) (0 + (n - 1) + 1))%nat).
  { apply (moves_seq (fun i => K i (i + 1)%nat)). intros i Hi. rewrite <- (app_nil_r (flat_map _ _)). eapply moves_trans.
    - apply (moves_seq (fun j => K i j)). intros j Hj. replace (S j) with (j + 1)%nat by lia. apply Hone; lia.
    - replace (S i) with (i + 1)%nat by lia. replace (i + 1 + 1)%nat with (i + 2)%nat by lia. apply moves_loop. intros m. apply Hrow; lia. }
  replace (0 + (n - 1) + 1)%nat with n in H by lia. cbn [Nat.add] in H.
  replace (flat_map items index_pairs) with (flat_map (fun i => flat_map (fun j => items (i, j)) (seq (i + 1) (n - (i + 1)))) (seq 0 (n - 1))); [exact H|].
  unfold index_pairs. generalize (seq 0 (n - 1)). induction l as [|i l IH]; [reflexivity|]. cbn [flat_map]. rewrite flat_map_app, IH. f_equal. generalize (seq (i + 1) (n - (i + 1))). induction l0 as [|j l0 IH0]; [reflexivity|]. cbn [map flat_map]. now rewrite IH0.
Qed.

(** *** The clauses *)
Definition p_ (x : varid) : slit := (x, false).
Definition n_ (x : varid) : slit := (x, true).
Definition eq_items (p : nat * nat) : list sitem :=
  let '(i, j) := p in
  match sim i j with
  | DontCare | MustLink => []
  | _ => flat_map (fun k => [([p_ (VEq i j k); p_ (VBin i k); p_ (VBin j k)], None); ([p_ (VEq i j k); n_ (VBin i k); n_ (VBin j k)], None);
                             ([n_ (VEq i j k); n_ (VBin i k); p_ (VBin j k)], None); ([n_ (VEq i j k); p_ (VBin i k); n_ (VBin j k)], None)]) (seq 0 a)
  end.
Definition same_items (p : nat * nat) : list sitem :=
  let '(i, j) := p in
  match sim i j with
  | DontCare | MustLink | CannotLink => []
  | _ => map (fun k => ([n_ (VSame i j); p_ (VEq i j k)], None)) (seq 0 a) ++ [(map (fun k => n_ (VEq i j k)) (seq 0 a) ++ [p_ (VSame i j)], None)]
  end.
Definition must_items (p : nat * nat) : list sitem :=
  let '(i, j) := p in
  match sim i j with
  | MustLink => map (fun c => (if (c mod 2 =? 0)%nat then [n_ (VBin i (c / 2)); p_ (VBin j (c / 2))] else [p_ (VBin i (c / 2)); n_ (VBin j (c / 2))], None)) (seq 0 (2 * a))
  | _ => []
  end.
Definition cannot_items (p : nat * nat) : list sitem := let '(i, j) := p in match sim i j with CannotLink => [(map (fun k => n_ (VEq i j k)) (seq 0 a), None)] | _ => [] end.
Definition sim_items (p : nat * nat) : list sitem := let '(i, j) := p in match sim i j with Similar w => [([p_ (VSame i j)], Some (0%nat, w))] | _ => [] end.
Definition dis_items (p : nat * nat) : list sitem := let '(i, j) := p in match sim i j with DisSimilar w => [([n_ (VSame i j)], Some (1%nat, w))] | _ => [] end.
Definition cluster_items : list sitem :=
  flat_map eq_items index_pairs ++ flat_map same_items index_pairs ++ flat_map must_items index_pairs ++ flat_map cannot_items index_pairs ++ flat_map sim_items index_pairs ++ flat_map dis_items index_pairs.

(** the variables are variables of the objects *)
Ltac ids := cbn [okid]; first [split; [lia|first [lia|apply Nat.div_lt_upper_bound; lia]] | lia | (let x := fresh in let k := fresh in let Hk := fresh in intros x Hk; apply in_map_iff in Hk as (k & <- & Hk); apply in_seq in Hk; cbn [okid]; lia)].
(** one clause *)
Lemma moves_one c x c' : (forall m, vm_ok m -> exists m', vm_ok m' /\ ext m m' /\ known m' x /\ cl_step (at_ m c) = IYield (show m' x) (at_ m' c')) -> moves c [x] c'.
Proof.
  intros H m Hm. destruct (H m Hm) as (m' & H1 & H2 & H3 & H4). exists m'. split; [exact H1|]. split; [exact H2|]. split; [now constructor|]. now apply goes_yield.
Qed.
Ltac guards Hi Hj := replace (n - 1 <=? _)%nat with false by lia; replace (n <=? _)%nat with false by lia.

Lemma moves_eq i j : (i < j)%nat -> (j < n)%nat -> moves (CEq i j 0 0) (eq_items (i, j)) (CEq i (j + 1) 0 0).
Proof.
  intros Hi Hj. unfold eq_items.
  assert (Hskip : sim i j = DontCare \/ sim i j = MustLink -> moves (CEq i j 0 0) [] (CEq i (j + 1) 0 0)).
  { intros Hs. apply moves_loop. intros m. unfold cl_step. cbn [at_ cl_next cl_n cl_a]. replace (n - 1 <=? i)%nat with false by lia. replace (n <=? j)%nat with false by lia. change (mkClustering sims n a m (CEq i j 0 0)) with (at_ m (CEq i j 0 0)).
    destruct (a <=? 0)%nat; [reflexivity|]. cbn [Nat.leb]. rewrite Hsim by assumption. cbn [yield]. destruct Hs as [-> | ->]; reflexivity. }
  assert (Hdo : sim i j <> DontCare -> sim i j <> MustLink -> moves (CEq i j 0 0)
    (flat_map (fun k => [([p_ (VEq i j k); p_ (VBin i k); p_ (VBin j k)], None); ([p_ (VEq i j k); n_ (VBin i k); n_ (VBin j k)], None);
                             ([n_ (VEq i j k); n_ (VBin i k); p_ (VBin j k)], None); ([n_ (VEq i j k); p_ (VBin i k); n_ (VBin j k)], None)]) (seq 0 a)) (CEq i (j + 1) 0 0)).
  { intros N1 N2. rewrite <- (app_nil_r (flat_map _ _)). eapply moves_trans; [apply (moves_seq (fun k => CEq i j k 0))|].
    - intros k Hk.
      assert (Hone : forall c x, (c < 4)%nat -> (forall W, mline (inst W x) = LMHard (match c with O => [pos (W (VEq i j k)); pos (W (VBin i k)); pos (W (VBin j k))]
          | 1%nat => [pos (W (VEq i j k)); neg (pos (W (VBin i k))); neg (pos (W (VBin j k)))] | 2%nat => [neg (pos (W (VEq i j k))); neg (pos (W (VBin i k))); pos (W (VBin j k))]
          | _ => [neg (pos (W (VEq i j k))); pos (W (VBin i k)); neg (pos (W (VBin j k)))] end)) -> (forall l, In l (fst x) -> In (fst l) [VBin i k; VBin j k; VEq i j k]) -> moves (CEq i j k c) [x] (CEq i j k (c + 1))).
      { intros c x Hc Hx Hids. apply moves_one. intros m Hm. unfold cl_step. cbn [at_ cl_next cl_n cl_a cl_vm]. replace (n - 1 <=? i)%nat with false by lia. replace (n <=? j)%nat with false by lia. replace (a <=? k)%nat with false by lia. replace (4 <=? c)%nat with false by lia.
        change (mkClustering sims n a m (CEq i j k c)) with (at_ m (CEq i j k c)). rewrite Hsim by assumption. cbn [yield].
        destruct (cv_id m (VBin i k)) as [v1 m1] eqn:E1. destruct (cv_id m1 (VBin j k)) as [v2 m2] eqn:E2. destruct (cv_id m2 (VEq i j k)) as [v3 m3] eqn:E3.
        destruct (cv_id_spec _ _ _ _ _ _ Hm E1 ltac:(ids)) as (H1 & X1 & K1 & ->). destruct (cv_id_spec _ _ _ _ _ _ H1 E2 ltac:(ids)) as (H2 & X2 & K2 & ->). destruct (cv_id_spec _ _ _ _ _ _ H2 E3 ltac:(ids)) as (H3 & X3 & K3 & ->).
        destruct (has_ext _ _ _ X2 K1) as [K1' V1]. destruct (has_ext _ _ _ X3 K1') as [K1'' V1']. destruct (has_ext _ _ _ X3 K2) as [K2' V2].
        exists m3. split; [exact H3|]. split; [exact (ext_trans _ _ _ X1 (ext_trans _ _ _ X2 X3))|]. split; [intros l Hl; destruct (Hids l Hl) as [<-|[<-|[<-|[]]]]; assumption|].
        unfold show. rewrite Hx, V1', V1, V2. destruct (sim i j); try easy; destruct c as [|[|[|[|c]]]]; reflexivity || lia. }
      change [?a1; ?a2; ?a3; ?a4] with ([a1] ++ [a2] ++ [a3] ++ [a4] ++ []).
      eapply moves_trans; [apply (Hone 0%nat); [lia|intros W; reflexivity|cbn; intuition (subst; cbn; auto)]|].
      eapply moves_trans; [apply (Hone 1%nat); [lia|intros W; reflexivity|cbn; intuition (subst; cbn; auto)]|].
      eapply moves_trans; [apply (Hone 2%nat); [lia|intros W; reflexivity|cbn; intuition (subst; cbn; auto)]|].
      eapply moves_trans; [apply (Hone 3%nat); [lia|intros W; reflexivity|cbn; intuition (subst; cbn; auto)]|].
      apply moves_loop. intros m. unfold cl_step. cbn [at_ cl_next cl_n cl_a cl_vm]. replace (n - 1 <=? i)%nat with false by lia. replace (n <=? j)%nat with false by lia. replace (a <=? k)%nat with false by lia. cbn [Nat.add Nat.leb]. unfold cl_at, at_. cbn. now replace (S k) with (k + 1)%nat by lia.
    - cbn [Nat.add]. apply moves_loop. intros m. unfold cl_step. cbn [at_ cl_next cl_n cl_a cl_vm]. replace (n - 1 <=? i)%nat with false by lia. replace (n <=? j)%nat with false by lia. now rewrite Nat.leb_refl. }
  destruct (sim i j) eqn:E; try (apply Hdo; discriminate); apply Hskip; auto.
Qed.

Lemma moves_same i j : (i < j)%nat -> (j < n)%nat -> moves (CSame i j 0) (same_items (i, j)) (CSame i (j + 1) 0).
Proof.
  intros Hi Hj. unfold same_items.
  assert (Hskip : (forall w, sim i j <> Similar w) -> (forall w, sim i j <> DisSimilar w) -> moves (CSame i j 0) [] (CSame i (j + 1) 0)).
  { intros N1 N2. apply moves_loop. intros m. unfold cl_step. cbn [at_ cl_next cl_n cl_a]. replace (n - 1 <=? i)%nat with false by lia. replace (n <=? j)%nat with false by lia. change (mkClustering sims n a m (CSame i j 0)) with (at_ m (CSame i j 0)).
    replace (a <? 0)%nat with false by lia. rewrite Hsim by assumption. cbn [yield]. destruct (sim i j) as [w|w| | |]; [now destruct (N1 w)|now destruct (N2 w)|reflexivity|reflexivity|reflexivity]. }
  assert (Hdo : sim i j <> DontCare -> sim i j <> MustLink -> sim i j <> CannotLink -> moves (CSame i j 0)
    (map (fun k => ([n_ (VSame i j); p_ (VEq i j k)], None)) (seq 0 a) ++ [(map (fun k => n_ (VEq i j k)) (seq 0 a) ++ [p_ (VSame i j)], None)]) (CSame i (j + 1) 0)).
  { intros N1 N2 N3. eapply moves_trans.
    - replace (map (fun k => ([n_ (VSame i j); p_ (VEq i j k)], None)) (seq 0 a)) with (flat_map (fun k => [([n_ (VSame i j); p_ (VEq i j k)], @None (nat * nat))]) (seq 0 a)) by (generalize (seq 0 a); induction l as [|x l IH]; [reflexivity|cbn; now rewrite IH]).
      apply (moves_seq (fun k => CSame i j k)). intros k Hk. apply moves_one. intros m Hm. unfold cl_step. cbn [at_ cl_next cl_n cl_a cl_vm]. replace (n - 1 <=? i)%nat with false by lia. replace (n <=? j)%nat with false by lia. replace (a <? k)%nat with false by lia. replace (k <? a)%nat with true by lia.
      change (mkClustering sims n a m (CSame i j k)) with (at_ m (CSame i j k)). rewrite Hsim by assumption. cbn [yield].
      destruct (cv_id m (VSame i j)) as [v1 m1] eqn:E1. destruct (cv_id m1 (VEq i j k)) as [v2 m2] eqn:E2.
      destruct (cv_id_spec _ _ _ _ _ _ Hm E1 ltac:(ids)) as (H1 & X1 & K1 & ->). destruct (cv_id_spec _ _ _ _ _ _ H1 E2 ltac:(ids)) as (H2 & X2 & K2 & ->). destruct (has_ext _ _ _ X2 K1) as [K1' V1].
      exists m2. split; [exact H2|]. split; [exact (ext_trans _ _ _ X1 X2)|]. split; [intros l [<-|[<-|[]]]; assumption|].
      unfold show, inst, inst_lit, mline. cbn [fst snd map n_ p_]. rewrite V1. replace (S k) with (k + 1)%nat by lia. destruct (sim i j); try easy; reflexivity.
    - cbn [Nat.add]. change [?x] with ([x] ++ []). eapply moves_trans; [apply (moves_one _ _ (CSame i j (a + 1)))|].
      + intros m Hm. unfold cl_step. cbn [at_ cl_next cl_n cl_a cl_vm]. replace (n - 1 <=? i)%nat with false by lia. replace (n <=? j)%nat with false by lia. rewrite Nat.ltb_irrefl.
        change (mkClustering sims n a m (CSame i j a)) with (at_ m (CSame i j a)). rewrite Hsim by assumption. cbn [yield].
        destruct (cv_id m (VSame i j)) as [v1 m1] eqn:E1. destruct (cv_ids m1 (map (VEq i j) (seq 0 a))) as [vs m2] eqn:E2.
        destruct (cv_id_spec _ _ _ _ _ _ Hm E1 ltac:(ids)) as (H1 & X1 & K1 & ->). destruct (cv_ids_spec _ _ _ _ _ _ H1 E2 ltac:(ids)) as (H2 & X2 & K2 & ->). destruct (has_ext _ _ _ X2 K1) as [K1' V1].
        exists m2. split; [exact H2|]. split; [exact (ext_trans _ _ _ X1 X2)|]. split.
        * intros l Hl. cbn [fst] in Hl. apply in_app_iff in Hl as [Hl|[<-|[]]]; [|exact K1']. apply in_map_iff in Hl as (k & <- & Hk). apply K2. cbn [fst n_]. now apply in_map.
        * unfold show, inst, inst_lit, mline. cbn [fst snd n_ p_]. rewrite map_app, !map_map. cbn [map fst snd]. rewrite <- V1. destruct (sim i j); try easy; reflexivity.
      + apply moves_loop. intros m. unfold cl_step. cbn [at_ cl_next cl_n cl_a]. replace (n - 1 <=? i)%nat with false by lia. replace (n <=? j)%nat with false by lia. now replace (a <? a + 1)%nat with true by lia. }
  destruct (sim i j) eqn:E; try (apply Hdo; discriminate); apply Hskip; intros; discriminate.
Qed.

Lemma moves_must i j : (i < j)%nat -> (j < n)%nat -> moves (CMust i j 0) (must_items (i, j)) (CMust i (j + 1) 0).
Proof.
  intros Hi Hj. unfold must_items.
  assert (Hskip : sim i j <> MustLink -> moves (CMust i j 0) [] (CMust i (j + 1) 0)).
  { intros N1. apply moves_loop. intros m. unfold cl_step. cbn [at_ cl_next cl_n cl_a]. replace (n - 1 <=? i)%nat with false by lia. replace (n <=? j)%nat with false by lia. change (mkClustering sims n a m (CMust i j 0)) with (at_ m (CMust i j 0)).
    destruct (2 * a <=? 0)%nat; [reflexivity|]. rewrite Hsim by assumption. cbn [yield]. destruct (sim i j); easy. }
  destruct (sim i j) eqn:E; try (apply Hskip; discriminate). clear Hskip.
  rewrite <- (app_nil_r (map _ _)). eapply moves_trans.
  - replace (map (fun c => (if (c mod 2 =? 0)%nat then [n_ (VBin i (c / 2)); p_ (VBin j (c / 2))] else [p_ (VBin i (c / 2)); n_ (VBin j (c / 2))], @None (nat * nat))) (seq 0 (2 * a)))
      with (flat_map (fun c => [(if (c mod 2 =? 0)%nat then [n_ (VBin i (c / 2)); p_ (VBin j (c / 2))] else [p_ (VBin i (c / 2)); n_ (VBin j (c / 2))], @None (nat * nat))]) (seq 0 (2 * a))) by (generalize (seq 0 (2 * a)); induction l as [|x l IH]; [reflexivity|cbn [flat_map map app]; now rewrite IH]).
    apply (moves_seq (fun k => CMust i j k)). intros c Hc. apply moves_one. intros m Hm. unfold cl_step. cbn [at_ cl_next cl_n cl_a cl_vm]. replace (n - 1 <=? i)%nat with false by lia. replace (n <=? j)%nat with false by lia. replace (2 * a <=? c)%nat with false by lia.
    change (mkClustering sims n a m (CMust i j c)) with (at_ m (CMust i j c)). rewrite Hsim by assumption. rewrite E. cbn [yield].
    destruct (cv_id m (VBin i (c / 2))) as [v1 m1] eqn:E1. destruct (cv_id m1 (VBin j (c / 2))) as [v2 m2] eqn:E2.
    destruct (cv_id_spec _ _ _ _ _ _ Hm E1 ltac:(ids)) as (H1 & X1 & K1 & ->). destruct (cv_id_spec _ _ _ _ _ _ H1 E2 ltac:(ids)) as (H2 & X2 & K2 & ->). destruct (has_ext _ _ _ X2 K1) as [K1' V1].
    exists m2. split; [exact H2|]. split; [exact (ext_trans _ _ _ X1 X2)|]. rewrite <- V1. replace (S c) with (c + 1)%nat by lia. unfold show, inst, inst_lit, mline. cbn [fst snd].
    destruct (c mod 2 =? 0)%nat; (split; [intros l [<-|[<-|[]]]; assumption|reflexivity]).
  - cbn [Nat.add]. apply moves_loop. intros m. unfold cl_step. cbn [at_ cl_next cl_n cl_a]. replace (n - 1 <=? i)%nat with false by lia. replace (n <=? j)%nat with false by lia. now rewrite Nat.leb_refl.
Qed.

Lemma moves_cannot i j : (i < j)%nat -> (j < n)%nat -> moves (CCannot i j) (cannot_items (i, j)) (CCannot i (j + 1)).
Proof.
  intros Hi Hj. unfold cannot_items.
  assert (Hst : forall m, cl_step (at_ m (CCannot i j)) = match sim i j with CannotLink => let '(evs, m1) := cv_ids m (map (VEq i j) (seq 0 a)) in IYield (LMHard (map (fun v => neg (pos v)) evs)) (at_ m1 (CCannot i (j + 1))) | _ => ILoop (at_ m (CCannot i (j + 1))) end).
  { intros m. unfold cl_step. cbn [at_ cl_next cl_n cl_a cl_vm]. replace (n - 1 <=? i)%nat with false by lia. replace (n <=? j)%nat with false by lia. change (mkClustering sims n a m (CCannot i j)) with (at_ m (CCannot i j)). rewrite Hsim by assumption. cbn [yield]. destruct (sim i j); reflexivity. }
  destruct (sim i j) eqn:E; try (apply moves_loop; exact Hst). apply moves_one. intros m Hm. rewrite Hst. destruct (cv_ids m (map (VEq i j) (seq 0 a))) as [vs m2] eqn:E2. destruct (cv_ids_spec _ _ _ _ _ _ Hm E2 ltac:(ids)) as (H2 & X2 & K2 & ->).
  exists m2. split; [exact H2|]. split; [exact X2|]. split.
  - intros l Hl. cbn [fst] in Hl. apply in_map_iff in Hl as (k & <- & Hk). apply K2. cbn [fst n_]. now apply in_map.
  - unfold show, inst, inst_lit, mline. cbn [fst snd n_]. now rewrite !map_map.
Qed.
Lemma moves_sim i j : (i < j)%nat -> (j < n)%nat -> moves (CSim i j) (sim_items (i, j)) (CSim i (j + 1)).
Proof.
  intros Hi Hj. unfold sim_items.
  assert (Hst : forall m, cl_step (at_ m (CSim i j)) = match sim i j with Similar w => let '(sv, m1) := cv_id m (VSame i j) in IYield (LMSoft [pos sv] w 0) (at_ m1 (CSim i (j + 1))) | _ => ILoop (at_ m (CSim i (j + 1))) end).
  { intros m. unfold cl_step. cbn [at_ cl_next cl_n cl_a cl_vm]. replace (n - 1 <=? i)%nat with false by lia. replace (n <=? j)%nat with false by lia. change (mkClustering sims n a m (CSim i j)) with (at_ m (CSim i j)). rewrite Hsim by assumption. cbn [yield]. destruct (sim i j); reflexivity. }
  destruct (sim i j) as [w|w| | |] eqn:E; try (apply moves_loop; exact Hst). apply moves_one. intros m Hm. rewrite Hst. destruct (cv_id m (VSame i j)) as [v m2] eqn:E2. destruct (cv_id_spec _ _ _ _ _ _ Hm E2 ltac:(ids)) as (H2 & X2 & K2 & ->).
  exists m2. split; [exact H2|]. split; [exact X2|]. split; [intros l [<-|[]]; exact K2|reflexivity].
Qed.
Lemma moves_dis i j : (i < j)%nat -> (j < n)%nat -> moves (CDis i j) (dis_items (i, j)) (CDis i (j + 1)).
Proof.
  intros Hi Hj. unfold dis_items.
  assert (Hst : forall m, cl_step (at_ m (CDis i j)) = match sim i j with DisSimilar w => let '(sv, m1) := cv_id m (VSame i j) in IYield (LMSoft [neg (pos sv)] w 1) (at_ m1 (CDis i (j + 1))) | _ => ILoop (at_ m (CDis i (j + 1))) end).
  { intros m. unfold cl_step. cbn [at_ cl_next cl_n cl_a cl_vm]. replace (n - 1 <=? i)%nat with false by lia. replace (n <=? j)%nat with false by lia. change (mkClustering sims n a m (CDis i j)) with (at_ m (CDis i j)). rewrite Hsim by assumption. cbn [yield]. destruct (sim i j); reflexivity. }
  destruct (sim i j) as [w|w| | |] eqn:E; try (apply moves_loop; exact Hst). apply moves_one. intros m Hm. rewrite Hst. destruct (cv_id m (VSame i j)) as [v m2] eqn:E2. destruct (cv_id_spec _ _ _ _ _ _ Hm E2 ltac:(ids)) as (H2 & X2 & K2 & ->).
  exists m2. split; [exact H2|]. split; [exact X2|]. split; [intros l [<-|[]]; exact K2|reflexivity].
Qed.

Theorem cluster_yields : exists W, yields cl_step (at_ (mkCvm 0 []) (CEq 0 1 0 0)) (map (fun x => mline (inst W x)) cluster_items) /\
  (forall x y l l', In x cluster_items -> In y cluster_items -> In l (fst x) -> In l' (fst y) -> W (fst l) = W (fst l') -> fst l = fst l') /\
  forall x l, In x cluster_items -> In l (fst x) -> (W (fst l) < N.of_nat (n * a + List.length index_pairs * (a + 1)))%N.
Proof.
  assert (H : moves (CEq 0 1 0 0) cluster_items (CDis (n - 1) n)).
  { unfold cluster_items.
    assert (Hrow : forall i j m, (i < n - 1)%nat -> (n <= j)%nat -> forall K, (K = (fun i j => CEq i j 0 0) \/ K = (fun i j => CSame i j 0) \/ K = (fun i j => CMust i j 0) \/ K = CCannot \/ K = CSim \/ K = CDis) -> cl_step (at_ m (K i j)) = ILoop (at_ m (K (i + 1) (i + 2))%nat)).
    { intros i j m Hi Hj K HK. unfold cl_step. destruct HK as [-> |[-> |[-> |[-> |[-> | ->]]]]]; cbn [at_ cl_next cl_n cl_a]; replace (n - 1 <=? i)%nat with false by lia; replace (n <=? j)%nat with true by lia; reflexivity. }
    assert (Hphase : forall K K' j m, (K = (fun i j => CEq i j 0 0) /\ K' = CSame 0 1 0 \/ K = (fun i j => CSame i j 0) /\ K' = CMust 0 1 0 \/ K = (fun i j => CMust i j 0) /\ K' = CCannot 0 1 \/ K = CCannot /\ K' = CSim 0 1 \/ K = CSim /\ K' = CDis 0 1)%nat -> cl_step (at_ m (K (n - 1)%nat j)) = ILoop (at_ m K')).
    { intros K K' j m HK. unfold cl_step. destruct HK as [[-> ->]|[[-> ->]|[[-> ->]|[[-> ->]|[-> ->]]]]]; cbn [at_ cl_next cl_n cl_a]; rewrite Nat.leb_refl; reflexivity. }
    assert (Hgo : forall K items K' ys, (forall i j m, (i < n - 1)%nat -> (n <= j)%nat -> cl_step (at_ m (K i j)) = ILoop (at_ m (K (i + 1) (i + 2))%nat)) -> (forall i j, (i < j)%nat -> (j < n)%nat -> moves (K i j) (items (i, j)) (K i (j + 1)%nat)) ->
      (forall m, cl_step (at_ m (K (n - 1)%nat n)) = ILoop (at_ m K')) -> moves K' ys (CDis (n - 1) n) -> moves (K 0 1)%nat (flat_map items index_pairs ++ ys) (CDis (n - 1) n)).
    { intros K items K' ys H1 H2 H3 H4. eapply moves_trans; [apply (moves_pairs K items H1 H2)|]. change ys with ([] ++ ys). eapply moves_trans; [apply moves_loop; exact H3|exact H4]. }
    apply (Hgo (fun i j => CEq i j 0 0) eq_items (CSame 0 1 0)); [intros i j m Hi Hj; apply (Hrow i j m Hi Hj (fun i j => CEq i j 0 0)); tauto|exact moves_eq|intros m; apply (Hphase (fun i j => CEq i j 0 0)); tauto|].
    apply (Hgo (fun i j => CSame i j 0) same_items (CMust 0 1 0)); [intros i j m Hi Hj; apply (Hrow i j m Hi Hj (fun i j => CSame i j 0)); tauto|exact moves_same|intros m; apply (Hphase (fun i j => CSame i j 0)); tauto|].
    apply (Hgo (fun i j => CMust i j 0) must_items (CCannot 0 1)); [intros i j m Hi Hj; apply (Hrow i j m Hi Hj (fun i j => CMust i j 0)); tauto|exact moves_must|intros m; apply (Hphase (fun i j => CMust i j 0)); tauto|].
    apply (Hgo CCannot cannot_items (CSim 0 1)); [intros i j m Hi Hj; apply (Hrow i j m Hi Hj CCannot); tauto|exact moves_cannot|intros m; apply (Hphase CCannot); tauto|].
    apply (Hgo CSim sim_items (CDis 0 1)); [intros i j m Hi Hj; apply (Hrow i j m Hi Hj CSim); tauto|exact moves_sim|intros m; apply (Hphase CSim); tauto|].
    apply (moves_pairs CDis dis_items); [intros i j m Hi Hj; apply (Hrow i j m Hi Hj CDis); tauto|exact moves_dis]. }
  destruct (H (mkCvm 0 [])) as (m' & [[Hlt Hinj] (T1 & T2 & T3)] & _ & Hk & Hg); [split; [split; intros; discriminate|split; [reflexivity|split; [constructor|intros ? []]]]|]. exists (V m'). split; [|split].
  - rewrite <- (app_nil_r (map _ _)). apply Hg. apply yields_end. unfold cl_step. cbn [at_ cl_next cl_n]. now rewrite Nat.leb_refl.
  - intros x y l l' Hx Hy Hl Hl' E. rewrite Forall_forall in Hk. pose proof (Hk x Hx l Hl) as K1. pose proof (Hk y Hy l' Hl') as K2. unfold has, V in *.
    destruct (cv_get m' (fst l)) as [v|] eqn:G1; [|easy]. destruct (cv_get m' (fst l')) as [v'|] eqn:G2; [|easy]. subst v'. exact (Hinj _ _ _ G1 G2).
  - intros x l Hx Hl. rewrite Forall_forall in Hk. pose proof (Hk x Hx l Hl) as K1. unfold has, V in *. destruct (cv_get m' (fst l)) as [v|] eqn:G1; [|easy]. apply Hlt in G1.
    set (all := flat_map (fun i => map (VBin i) (seq 0 a)) (seq 0 n) ++ flat_map (fun p => VSame (fst p) (snd p) :: map (VEq (fst p) (snd p)) (seq 0 a)) index_pairs).
    assert (Hall : (List.length all = n * a + List.length index_pairs * (a + 1))%nat).
    { unfold all. rewrite app_length. f_equal.
      - rewrite <- (seq_length n 0) at 2. generalize (seq 0 n). induction l0 as [|i l0 IH]; [reflexivity|]. cbn [flat_map List.length]. rewrite app_length, IH, map_length, seq_length. lia.
      - generalize index_pairs. induction l0 as [|i l0 IH]; [reflexivity|]. cbn [flat_map List.length app]. rewrite app_length, IH, map_length, seq_length. lia. }
    assert (Hle : (List.length (map fst (cv_vars m')) <= List.length all)%nat).
    { apply NoDup_incl_length; [exact T2|]. intros id Hid. apply T3 in Hid. unfold all. apply in_app_iff. destruct id as [i k|i j k|i j]; cbn [okid] in Hid.
      - left. apply in_flat_map. exists i. split; [apply in_seq; lia|]. apply in_map, in_seq. lia.
      - right. apply in_flat_map. exists (i, j). split; [now apply index_pairs_in|]. right. cbn [fst snd]. apply in_map, in_seq. lia.
      - right. apply in_flat_map. exists (i, j). split; [now apply index_pairs_in|]. now left. }
    rewrite map_length, Hall in Hle. rewrite T1 in G1. clear - G1 Hle. lia.
Qed.
End Run.
