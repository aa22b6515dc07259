(** * Invariants of the totalizer database *)

From Coq Require Import List Bool NArith ZArith Lia Arith Sorted.
From Coq Require Import ZifyBool ZifyNat ZifyN.
From Verif Require Import Spec Types Atomics AtomicsProofs NodeDb TotDb Base.
Import ListNotations.

(** ** Lists *)

Lemma upd_length {A} i (x : A) l : length (upd i x l) = length l.
Proof. revert i; induction l as [|y l IH]; intros [|i]; cbn [upd length]; auto. Qed.

Lemma nth_error_upd {A} i (x : A) l j :
  nth_error (upd i x l) j = if (i =? j)%nat then (match nth_error l j with Some _ => Some x | None => None end) else nth_error l j.
Proof.
  revert i j; induction l as [|y l IH]; intros i j.
  - destruct i, j; cbn; try reflexivity. all: now destruct (_ =? _)%nat.
  - destruct i, j; cbn [upd nth_error Nat.eqb]; try reflexivity. apply IH.
Qed.

Lemma nth_error_ext {A} (l l' : list A) : (forall i, nth_error l i = nth_error l' i) -> l = l'.
Proof.
  revert l'; induction l as [|x l IH]; intros [|y l'] H; [reflexivity|specialize (H 0%nat); discriminate..|].
  pose proof (H 0%nat) as H0. cbn in H0. injection H0 as ->. f_equal. apply IH. intros i. exact (H (S i)).
Qed.

Lemma obind_some {A B} (x : option A) (f : A -> option B) y :
  obind x f = Some y -> exists a, x = Some a /\ f a = Some y.
Proof. destruct x; cbn; [eauto|discriminate]. Qed.

Lemma foldM_ind {A S} (f : S -> A -> option S) (P : list A -> S -> Prop) l s :
  P [] s ->
  (forall done x s', (exists rest, l = done ++ x :: rest) -> P done s' -> exists s'', f s' x = Some s'' /\ P (done ++ [x]) s'') ->
  exists s', foldM f l s = Some s' /\ P l s'.
Proof.
  intros H0 Hstep.
  enough (forall rest done s', l = done ++ rest -> P done s' -> exists s'', foldM f rest s' = Some s'' /\ P l s'') as X.
  { apply (X l [] s); auto. }
  induction rest as [|x rest IH]; intros done s' El HP; cbn [foldM].
  - rewrite app_nil_r in El; subst; eauto.
  - destruct (Hstep done x s') as (s2 & E & HP2); [eauto|auto|].
    rewrite E; cbn [obind]. apply (IH (done ++ [x])); auto. now rewrite <- app_assoc.
Qed.

Lemma mapM_spec {A B} (f : A -> option B) l :
  (forall x, In x l -> exists y, f x = Some y) ->
  exists ys, mapM f l = Some ys /\ (forall x, In x l -> exists y, f x = Some y /\ In y ys) /\
             (forall y, In y ys -> exists x, In x l /\ f x = Some y).
Proof.
  induction l as [|x l IH]; intros H; cbn [mapM].
  - exists []. cbn. repeat split; intros ? [].
  - destruct (H x) as [y Ey]; [now left|]. destruct IH as (ys & E & H1 & H2); [intros; apply H; now right|].
    rewrite Ey, E; cbn [obind]. exists (y :: ys). split; [reflexivity|]. split.
    + intros z [->|Hz]; [exists y; split; [auto|now left]|].
      destruct (H1 z Hz) as (y' & ? & ?). exists y'; split; [auto|now right].
    + intros z [->|Hz]; [exists x; split; [now left|auto]|].
      destruct (H2 z Hz) as (x' & ? & ?). exists x'; split; [now right|auto].
Qed.

Lemma in_range_incl a b x : In x (range_incl a b) <-> (a <= x <= b)%nat.
Proof. unfold range_incl. rewrite in_seq. lia. Qed.
Lemma in_range_excl a b x : In x (range_excl a b) <-> (a <= x < b)%nat.
Proof. unfold range_excl. rewrite in_seq. lia. Qed.

Lemma sat_cnf_In a f c : sat_cnf a f = true -> In c f -> sat_clause a c = true.
Proof. unfold sat_cnf. rewrite forallb_forall. auto. Qed.

Lemma sat_cnf_app_iff a f g : sat_cnf a (f ++ g) = true <-> sat_cnf a f = true /\ sat_cnf a g = true.
Proof. unfold sat_cnf. rewrite forallb_app, andb_true_iff. reflexivity. Qed.

(** ** Skeletons: nodes without their output literals *)

Definition erase (n : node) : node :=
  match n with
  | NUnit lits l r => NUnit (map (fun _ => LNone) lits) l r
  | NGeneral lits m l r => NGeneral (map (fun p => (fst p, LNone)) lits) m l r
  | _ => n
  end.
Definition skel (ns : list node) : list node := map erase ns.

Lemma skel_length ns : length (skel ns) = length ns.
Proof. apply map_length. Qed.
Lemma nth_skel ns id n : nth_error ns id = Some n -> nth_error (skel ns) id = Some (erase n).
Proof. intros H. unfold skel. now rewrite nth_error_map, H. Qed.
Lemma nth_skel_inv ns id m : nth_error (skel ns) id = Some m -> exists n, nth_error ns id = Some n /\ m = erase n.
Proof. unfold skel. rewrite nth_error_map. destruct (nth_error ns id); cbn; intros [= <-]; eauto. Qed.
Lemma erase_erase n : erase (erase n) = erase n.
Proof. destruct n; cbn [erase]; rewrite ?map_map; reflexivity. Qed.
Lemma skel_skel ns : skel (skel ns) = skel ns.
Proof. unfold skel. rewrite map_map. apply map_ext, erase_erase. Qed.
Lemma skel_app ns ns' : skel (ns ++ ns') = skel ns ++ skel ns'.
Proof. apply map_app. Qed.
Lemma node_len_erase n : node_len (erase n) = node_len n.
Proof. destruct n; cbn; rewrite ?map_length; reflexivity. Qed.
Lemma node_max_val_erase n : node_max_val (erase n) = node_max_val n.
Proof. destruct n; cbn; rewrite ?map_length; reflexivity. Qed.
Lemma node_vals_erase n lo hi : node_vals (erase n) lo hi = node_vals n lo hi.
Proof. destruct n; cbn; rewrite ?map_length, ?map_map; reflexivity. Qed.
Lemma is_general_erase n : is_general (erase n) = is_general n.
Proof. now destruct n. Qed.
Lemma is_dummy_erase n : is_dummy (erase n) = is_dummy n.
Proof. now destruct n. Qed.
Lemma con_len_skel ns con : con_len (skel ns) con = con_len ns con.
Proof.
  unfold con_len, skel. rewrite nth_error_map. destruct (nth_error ns (nc_id con)); cbn; [|reflexivity].
  now rewrite node_len_erase.
Qed.

(** ** Output data of a node *)

Definition node_data (n : node) (val : nat) : option litdata :=
  match n with
  | NUnit lits _ _ => if (val =? 0)%nat then None else nth_error lits (val - 1)
  | NGeneral lits _ _ _ => lit_data lits val
  | _ => None
  end.
Definition data (ns : list node) (id val : nat) : option litdata :=
  match nth_error ns id with Some n => node_data n val | None => None end.

(** [ns'] is [ns] with the output data of node [id] at value [val] replaced by [d] *)
Definition upd_data (ns : list node) (id val : nat) (d : litdata) (ns' : list node) : Prop :=
  skel ns' = skel ns /\
  data ns' id val = Some d /\
  (forall j v, (j <> id \/ v <> val) -> data ns' j v = data ns j v) /\
  (forall j, j <> id -> nth_error ns' j = nth_error ns j).

Lemma skel_upd ns id n n' : nth_error ns id = Some n -> erase n' = erase n -> skel (upd id n' ns) = skel ns.
Proof.
  intros H E. unfold skel. apply nth_error_ext. intros j. rewrite !nth_error_map, nth_error_upd.
  destruct (Nat.eqb_spec id j) as [<-|]; [|reflexivity]. rewrite H. cbn. now rewrite E.
Qed.

Lemma map_const_upd {A B} (c : B) i (x : A) l : map (fun _ => c) (upd i x l) = map (fun _ => c) l.
Proof. revert i; induction l as [|y l IH]; intros [|i]; cbn [upd map]; auto. now rewrite IH. Qed.

Lemma upd_data_unit ns id lits l r idx d d0 :
  nth_error ns id = Some (NUnit lits l r) -> nth_error lits idx = Some d0 ->
  upd_data ns id (idx + 1) d (upd id (NUnit (upd idx d lits) l r) ns).
Proof.
  intros Hn Hd. split; [|split; [|split]].
  - apply (skel_upd _ _ _ _ Hn). cbn [erase]. now rewrite map_const_upd.
  - unfold data. rewrite nth_error_upd, Nat.eqb_refl, Hn. cbn [node_data].
    replace (idx + 1 =? 0)%nat with false by lia. replace (idx + 1 - 1)%nat with idx by lia.
    now rewrite nth_error_upd, Nat.eqb_refl, Hd.
  - intros j v Hne. unfold data. rewrite nth_error_upd. destruct (Nat.eqb_spec id j) as [<-|]; [|reflexivity].
    rewrite Hn. cbn [node_data]. destruct (Nat.eqb_spec v 0); [reflexivity|].
    rewrite nth_error_upd. destruct (Nat.eqb_spec idx (v - 1)); [lia|reflexivity].
  - intros j Hj. rewrite nth_error_upd. destruct (Nat.eqb_spec id j); [congruence|reflexivity].
Qed.

Lemma lit_data_set_eq lits val d d0 v : lit_data lits val = Some d0 ->
  lit_data (lit_data_set lits val d) v = if (v =? val)%nat then Some d else lit_data lits v.
Proof.
  induction lits as [|[x dx] lits IH]; cbn [lit_data lit_data_set]; [discriminate|].
  destruct (Nat.eqb_spec x val) as [->|Hx].
  - intros _. cbn [lit_data]. rewrite (Nat.eqb_sym v val). destruct (Nat.eqb_spec val v); reflexivity.
  - intros H. cbn [lit_data]. destruct (Nat.eqb_spec x v) as [->|]; [|auto].
    destruct (Nat.eqb_spec v val); [congruence|reflexivity].
Qed.

Lemma lit_data_set_keys lits val d : map fst (lit_data_set lits val d) = map fst lits.
Proof.
  induction lits as [|[x dx] lits IH]; cbn [lit_data_set map fst]; [reflexivity|].
  destruct (Nat.eqb_spec x val); cbn [map fst]; congruence.
Qed.

Lemma map_keys_none (lits lits' : list (nat * litdata)) : map fst lits = map fst lits' ->
  map (fun p => (fst p, LNone)) lits = map (fun p => (fst p, LNone)) lits'.
Proof.
  revert lits'; induction lits as [|[x d] lits IH]; intros [|[x' d'] lits']; cbn [map fst]; try discriminate; auto.
  intros [= -> H]. now rewrite (IH _ H).
Qed.

Lemma upd_data_general ns id lits m l r val d d0 :
  nth_error ns id = Some (NGeneral lits m l r) -> lit_data lits val = Some d0 ->
  upd_data ns id val d (upd id (NGeneral (lit_data_set lits val d) m l r) ns).
Proof.
  intros Hn Hd. split; [|split; [|split]].
  - apply (skel_upd _ _ _ _ Hn). cbn [erase]. f_equal. apply map_keys_none, lit_data_set_keys.
  - unfold data. rewrite nth_error_upd, Nat.eqb_refl, Hn. cbn [node_data].
    now rewrite (lit_data_set_eq _ _ _ _ _ Hd), Nat.eqb_refl.
  - intros j v Hne. unfold data. rewrite nth_error_upd. destruct (Nat.eqb_spec id j) as [<-|]; [|reflexivity].
    rewrite Hn. cbn [node_data]. rewrite (lit_data_set_eq _ _ _ _ _ Hd).
    destruct (Nat.eqb_spec v val); [lia|reflexivity].
  - intros j Hj. rewrite nth_error_upd. destruct (Nat.eqb_spec id j); [congruence|reflexivity].
Qed.

(** ** Connections *)

Definition con_params (con : nodecon) : Prop :=
  (1 <= nc_div con)%nat /\ (1 <= nc_mult con)%nat /\ (match nc_limit con with Some k => (1 <= k)%nat | None => True end).

Definition con_ok (ns : list node) (con : nodecon) : Prop :=
  con_params con /\ exists n, nth_error ns (nc_id con) = Some n /\ (nc_offset con <= node_len n)%nat.

Definition simple_con (con : nodecon) : Prop :=
  nc_offset con = 0%nat /\ nc_div con = 1%nat /\ nc_limit con = None.

Lemma div_ge_iff w x d : (1 <= d)%nat -> (w <= x / d <-> w * d <= x)%nat.
Proof.
  intros Hd. split; intros H.
  - pose proof (Nat.mul_div_le x d). nia.
  - apply Nat.div_le_lower_bound; nia.
Qed.

Lemma con_len_some ns con : con_ok ns con -> exists L, con_len ns con = Some L.
Proof. intros (_ & n & E & _). unfold con_len. rewrite E. cbn. eauto. Qed.

Lemma unit_con_adj ns con n L w v :
  con_params con -> nc_mult con = 1%nat -> nth_error ns (nc_id con) = Some n -> (nc_offset con <= node_len n)%nat ->
  con_len ns con = Some L -> (1 <= w <= L)%nat ->
  ((w <= nc_map con v <-> nc_rev_map con w <= v) /\ 1 <= nc_rev_map con w <= node_len n)%nat.
Proof.
  intros (Hd & _ & Hlim) Hm Hn Ho HL Hw. unfold con_len in HL. rewrite Hn in HL. cbn [obind] in HL.
  unfold nc_map, nc_rev_map. rewrite Hm, Nat.div_1_r.
  destruct (nc_limit con) as [k|]; injection HL as HL.
  - assert (Hwk : Nat.min w k = w) by lia. rewrite Hwk.
    assert (w * nc_div con <= node_len n - nc_offset con)%nat as Hle by (apply div_ge_iff; lia).
    destruct (w * nc_div con)%nat as [|y] eqn:Ey; [nia|]. rewrite <- Ey in *.
    split; [|nia]. destruct (Nat.leb_spec v (nc_offset con)).
    + split; nia.
    + rewrite Nat.mul_1_r. rewrite Nat.min_glb_iff. rewrite div_ge_iff by lia. split; [intros [? _]|]; lia.
  - assert (w * nc_div con <= node_len n - nc_offset con)%nat as Hle by (apply div_ge_iff; lia).
    split; [|nia]. destruct (Nat.leb_spec v (nc_offset con)).
    + split; nia.
    + rewrite Nat.mul_1_r, div_ge_iff by lia. lia.
Qed.

Lemma unit_con_le ns con n L v :
  con_params con -> nc_mult con = 1%nat -> nth_error ns (nc_id con) = Some n ->
  con_len ns con = Some L -> (v <= node_len n)%nat -> (nc_map con v <= L)%nat.
Proof.
  intros (Hd & _ & Hlim) Hm Hn HL Hv. unfold con_len in HL. rewrite Hn in HL. cbn [obind] in HL.
  unfold nc_map. rewrite Hm. destruct (Nat.leb_spec v (nc_offset con)); [lia|].
  assert ((v - nc_offset con) / nc_div con <= (node_len n - nc_offset con) / nc_div con)%nat
    by (apply Nat.div_le_mono; lia).
  destruct (nc_limit con); injection HL as HL; lia.
Qed.

Lemma simple_con_map con v : simple_con con -> nc_map con v = (v * nc_mult con)%nat.
Proof.
  intros (Ho & Hd & Hl). unfold nc_map. rewrite Ho, Hd, Hl, Nat.sub_0_r, Nat.div_1_r.
  destruct (Nat.leb_spec v 0); [replace v with 0%nat by lia|]; reflexivity.
Qed.

Lemma simple_con_rev con w : simple_con con -> (1 <= nc_mult con)%nat -> nc_is_possible con w = true ->
  (nc_rev_map con w * nc_mult con = w)%nat.
Proof.
  intros (Ho & Hd & Hl) Hm. unfold nc_is_possible, nc_rev_map, is_multiple_of. rewrite Ho, Hd, Hl.
  intros H. pose proof (Nat.div_mod w (nc_mult con)). lia.
Qed.

Lemma simple_con_possible con v : simple_con con -> (1 <= nc_mult con)%nat -> nc_is_possible con (v * nc_mult con) = true.
Proof.
  intros (Ho & Hd & Hl) Hm. unfold nc_is_possible, is_multiple_of. rewrite Hl. rewrite Nat.mod_mul by lia. reflexivity.
Qed.

Lemma simple_con_round_up con v w : simple_con con -> (1 <= nc_mult con)%nat ->
  (v < nc_rev_map_round_up con w <-> v * nc_mult con < w)%nat.
Proof.
  intros (Ho & Hd & Hl) Hm. unfold nc_rev_map_round_up, nc_rev_map, is_multiple_of. rewrite Ho, Hd, Hl.
  set (m := nc_mult con) in *. rewrite Nat.mul_1_r, Nat.add_0_r.
  pose proof (Nat.div_mod w m ltac:(lia)). pose proof (Nat.mod_upper_bound w m ltac:(lia)).
  destruct (Nat.eqb_spec (w mod m) 0) as [E|E].
  - split; intros; nia.
  - replace (w + m)%nat with (w + 1 * m)%nat by lia. rewrite Nat.div_add by lia. split; intros; nia.
Qed.

(** ** The invariant *)

(** Ghost state: the value of each node under an assignment, the sums reachable by choosing among its true
    leaves, the input variables and a rank witnessing that the node graph is acyclic. *)
Record ghost : Type := mkGhost { gV : asg -> nat -> nat; gT : asg -> nat -> nat -> Prop; gin : N -> bool; grk : nat -> nat }.

Definition is_unitlike (n : node) : Prop := match n with NLeaf _ | NUnit _ _ _ => True | _ => False end.

(** every value of a weighted node is a value of one of its children or the sum of one of each *)
Definition covered (ns : list node) (vals : list nat) (l r : nodecon) : Prop :=
  forall v, In v vals -> exists nl nr, nth_error ns (nc_id l) = Some nl /\ nth_error ns (nc_id r) = Some nr /\
    ((exists x, In x (node_vals nl 1 None) /\ v = x * nc_mult l)%nat \/
     (exists y, In y (node_vals nr 1 None) /\ v = y * nc_mult r)%nat \/
     (exists x y, In x (node_vals nl 1 None) /\ In y (node_vals nr 1 None) /\ v = x * nc_mult l + y * nc_mult r)%nat).

Definition node_ok (ns : list node) (g : ghost) (id : nat) (n : node) : Prop :=
  match n with
  | NLeaf l => gin g (lvar l) = true /\ (forall a, gV g a id = if lit_true a l then 1%nat else 0%nat) /\
               (forall a v, gT g a id v <-> (v <= gV g a id)%nat)
  | NUnit lits l r =>
      con_ok ns l /\ con_ok ns r /\ nc_mult l = 1%nat /\ nc_mult r = 1%nat /\
      (grk g (nc_id l) < grk g id)%nat /\ (grk g (nc_id r) < grk g id)%nat /\
      (exists nl nr, nth_error ns (nc_id l) = Some nl /\ nth_error ns (nc_id r) = Some nr /\
         is_general nl = false /\ is_general nr = false /\ (is_dummy nl = false \/ is_dummy nr = false)) /\
      (exists ll lr, con_len ns l = Some ll /\ con_len ns r = Some lr /\ length lits = (ll + lr)%nat) /\
      (forall a, gV g a id = nc_map l (gV g a (nc_id l)) + nc_map r (gV g a (nc_id r)))%nat /\
      (forall a v, gT g a id v <-> (v <= gV g a id)%nat)
  | NGeneral lits m l r =>
      con_ok ns l /\ con_ok ns r /\ simple_con l /\ simple_con r /\
      (grk g (nc_id l) < grk g id)%nat /\ (grk g (nc_id r) < grk g id)%nat /\
      (exists nl nr, nth_error ns (nc_id l) = Some nl /\ nth_error ns (nc_id r) = Some nr /\
         is_dummy nl = false /\ is_dummy nr = false) /\
      (forall v, In v (map fst lits) -> 1 <= v <= m)%nat /\
      (forall a, gV g a id = nc_map l (gV g a (nc_id l)) + nc_map r (gV g a (nc_id r)))%nat /\
      (forall a v, gT g a id v <-> exists vl vr, gT g a (nc_id l) vl /\ gT g a (nc_id r) vr /\
                                                 v = (nc_map l vl + nc_map r vr)%nat) /\
      (forall a v, gT g a id v -> (1 <= v)%nat -> In v (map fst lits)) /\
      StronglySorted lt (map fst lits) /\ In m (map fst lits) /\ covered ns (map fst lits) l r
  | NDummy => (forall a, gV g a id = 0%nat) /\ (forall a v, gT g a id v <-> v = 0%nat)
  end.

Record wf_shape (ns : list node) (g : ghost) : Prop := mkWf {
  wf_node : forall id n, nth_error ns id = Some n -> node_ok ns g id n;
  wf_rk : forall id, (id < length ns)%nat -> (grk g id < length ns)%nat;
  wf_indep : forall a a', (forall v, gin g v = true -> a v = a' v) -> forall id, (id < length ns)%nat -> gV g a id = gV g a' id;
  wf_max : forall a id n, nth_error ns id = Some n -> (gV g a id <= node_max_val n)%nat;
  wf_T : forall a id v, (id < length ns)%nat -> gT g a id v -> (v <= gV g a id)%nat;
  wf_T0 : forall a id, (id < length ns)%nat -> gT g a id 0;
  wf_TV : forall a id, (id < length ns)%nat -> gT g a id (gV g a id)
}.

Definition owner := N -> option (nat * nat).

Definition canon (g : ghost) (ow : owner) (a : asg) : Prop :=
  forall v id val, ow v = Some (id, val) -> a v = (val <=? gV g a id)%nat.

Definition sem_le_if (s : option semantics) : bool := match s with Some s => has_if s | None => false end.
Definition sem_le_oif (s : option semantics) : bool := match s with Some s => has_only_if s | None => false end.

(** [GF], [GU], [GL]: the clauses emitted by earlier calls, those of them since the "if" flags were last reset, and those
    since the "only if" flags were last reset *)
Record inv (GF GU GL : cnf) (g : ghost) (ow : owner) (st : tst) : Prop := mkInv {
  i_shape : wf_shape (skel (t_nodes st)) g;
  i_own : forall id val l s, data (t_nodes st) id val = Some (LLit l s) -> exists v, l = pos v /\ ow v = Some (id, val);
  i_ow : forall v id val, ow v = Some (id, val) -> (v < t_next st)%N /\ gin g v = false /\ (id < length (t_nodes st))%nat;
  i_in : forall v, gin g v = true -> (v < t_next st)%N;
  i_comp : forall a, canon g ow a -> sat_cnf a (GF ++ t_cls st) = true;
  i_if : forall a id val l s, sat_cnf a (GU ++ t_cls st) = true ->
           data (t_nodes st) id val = Some (LLit l s) -> sem_le_if s = true ->
           gT g a id val -> lit_true a l = true;
  i_oif : (forall id, nth_error (t_nodes st) id <> Some NDummy) ->
          forall a id val l s, sat_cnf a (GL ++ t_cls st) = true ->
           data (t_nodes st) id val = Some (LLit l s) -> sem_le_oif s = true ->
           lit_true a l = true -> (val <= gV g a id)%nat;
  i_vars : forall c l, In c (GF ++ t_cls st) -> In l c -> gin g (lvar l) = true \/ exists x, ow (lvar l) = Some x
}.

(** Progress of a state: same shape, more output literals, more semantics, more clauses *)
Record ext (ow : owner) (st : tst) (ow' : owner) (st' : tst) : Prop := mkExt {
  e_skel : skel (t_nodes st') = skel (t_nodes st);
  e_next : (t_next st <= t_next st')%N;
  e_cls : exists new, t_cls st' = t_cls st ++ new;
  e_ow : forall v x, ow v = Some x -> ow' v = Some x;
  e_ow_new : forall v x, ow' v = Some x -> ow v = Some x \/ (t_next st <= v < t_next st')%N;
  e_data : forall id val l s, data (t_nodes st) id val = Some (LLit l s) ->
    exists s', data (t_nodes st') id val = Some (LLit l s') /\
      (sem_le_if s = true -> sem_le_if s' = true) /\ (sem_le_oif s = true -> sem_le_oif s' = true)
}.

Lemma ext_refl ow st : ext ow st ow st.
Proof. constructor; auto; [lia|exists []; now rewrite app_nil_r|eauto]. Qed.

Lemma ext_trans ow1 st1 ow2 st2 ow3 st3 : ext ow1 st1 ow2 st2 -> ext ow2 st2 ow3 st3 -> ext ow1 st1 ow3 st3.
Proof.
  intros [S1 N1 [c1 C1] O1 P1 D1] [S2 N2 [c2 C2] O2 P2 D2]. constructor.
  - congruence.
  - lia.
  - exists (c1 ++ c2). now rewrite C2, C1, app_assoc.
  - auto.
  - intros v x H. destruct (P2 v x H) as [H'|H']; [|right; lia]. destruct (P1 v x H'); [auto|right; lia].
  - intros id val l s H. destruct (D1 _ _ _ _ H) as (s' & H' & A1 & B1).
    destruct (D2 _ _ _ _ H') as (s2 & H2 & A2 & B2). exists s2. auto.
Qed.

Lemma ext_incl ow st ow' st' c : ext ow st ow' st' -> In c (t_cls st) -> In c (t_cls st').
Proof. intros E H. destruct (e_cls _ _ _ _ E) as [n ->]. apply in_or_app; auto. Qed.

(** the literal representing value [val] of node [id], with at least the semantics [sem] *)
Definition sem_needs_if (s : semantics) := has_if s.
Definition lit_has (ns : list node) (id val : nat) (sem : semantics) (l : lit) : Prop :=
  (nth_error ns id = Some (NLeaf l) /\ val = 1%nat) \/
  exists s, data ns id val = Some (LLit l s) /\
    (has_if sem = true -> sem_le_if s = true) /\ (has_only_if sem = true -> sem_le_oif s = true).

Lemma nth_leaf_skel ns ns' id l : skel ns' = skel ns -> nth_error ns id = Some (NLeaf l) -> nth_error ns' id = Some (NLeaf l).
Proof.
  intros E H. apply nth_skel in H. rewrite <- E in H. apply nth_skel_inv in H as (n & Hn & Hne).
  destruct n; cbn [erase] in Hne; inversion Hne; subst; auto.
Qed.

Lemma lit_has_ext ow st ow' st' id val sem l :
  ext ow st ow' st' -> lit_has (t_nodes st) id val sem l -> lit_has (t_nodes st') id val sem l.
Proof.
  intros E [[H1 H2]|(s & H & A & B)].
  - left. split; auto. eapply nth_leaf_skel; [apply E|auto].
  - right. destruct (e_data _ _ _ _ E _ _ _ _ H) as (s' & H' & A' & B'). exists s'. auto.
Qed.

Lemma no_dummy_ext ow st ow' st' : ext ow st ow' st' ->
  (forall id, nth_error (t_nodes st') id <> Some NDummy) -> (forall id, nth_error (t_nodes st) id <> Some NDummy).
Proof.
  intros E H id Hn. apply nth_skel in Hn. rewrite <- (e_skel _ _ _ _ E) in Hn.
  apply nth_skel_inv in Hn as (n & Hn & Hne). apply (H id). destruct n; cbn [erase] in Hne; inversion Hne; subst; auto.
Qed.

Section Inv.
Variables GF GU GL : cnf.
Variable g : ghost.

Notation Inv := (inv GF GU GL g).

Lemma lit_has_if ow st a id val l : Inv ow st -> sat_cnf a (GU ++ t_cls st) = true ->
  lit_has (t_nodes st) id val SIf l -> gT g a id val -> lit_true a l = true.
Proof.
  intros I S [[Hn ->]|(s & Hd & HA & _)] HT.
  - apply nth_skel in Hn. apply (wf_node _ _ (i_shape _ _ _ _ _ _ I)) in Hn. cbn in Hn.
    destruct Hn as (_ & HV & HTe). rewrite HTe, HV in HT. destruct (lit_true a l); [auto|lia].
  - exact (i_if _ _ _ _ _ _ I a id val l s S Hd (HA eq_refl) HT).
Qed.

Lemma lit_has_oif ow st a id val l : Inv ow st -> sat_cnf a (GL ++ t_cls st) = true ->
  (forall id, nth_error (t_nodes st) id <> Some NDummy) ->
  lit_has (t_nodes st) id val SOnlyIf l -> lit_true a l = true -> (val <= gV g a id)%nat.
Proof.
  intros I S ND [[Hn ->]|(s & Hd & _ & HA)] HT.
  - apply nth_skel in Hn. apply (wf_node _ _ (i_shape _ _ _ _ _ _ I)) in Hn. cbn in Hn.
    destruct Hn as (_ & HV & _). rewrite HV, HT. auto.
  - exact (i_oif _ _ _ _ _ _ I ND a id val l s S Hd (HA eq_refl) HT).
Qed.

(** under a canonical assignment an output literal says exactly whether the value is reached *)
Lemma lit_has_canon ow st a id val sem l : Inv ow st -> canon g ow a ->
  lit_has (t_nodes st) id val sem l -> lit_true a l = (val <=? gV g a id)%nat.
Proof.
  intros I C [[Hn ->]|(s & Hd & _)].
  - apply nth_skel in Hn. apply (wf_node _ _ (i_shape _ _ _ _ _ _ I)) in Hn. cbn in Hn.
    destruct Hn as (_ & HV & _). rewrite HV. destruct (lit_true a l); reflexivity.
  - destruct (i_own _ _ _ _ _ _ I _ _ _ _ Hd) as (v & -> & Ho). unfold lit_true, pos; cbn. rewrite (C _ _ _ Ho).
    now destruct (_ <=? _)%nat.
Qed.

Lemma lit_has_var ow st id val sem l : Inv ow st -> lit_has (t_nodes st) id val sem l ->
  gin g (lvar l) = true \/ exists x, ow (lvar l) = Some x.
Proof.
  intros I [[Hn ->]|(s & Hd & _)].
  - left. apply nth_skel in Hn. apply (wf_node _ _ (i_shape _ _ _ _ _ _ I)) in Hn. apply Hn.
  - right. destruct (i_own _ _ _ _ _ _ I _ _ _ _ Hd) as (v & -> & Ho). eauto.
Qed.

Lemma data_canon ow st a id val s l : Inv ow st -> canon g ow a ->
  data (t_nodes st) id val = Some (LLit l s) -> lit_true a l = (val <=? gV g a id)%nat.
Proof.
  intros I C Hd. destruct (i_own _ _ _ _ _ _ I _ _ _ _ Hd) as (v & -> & Ho). unfold lit_true, pos; cbn.
  rewrite (C _ _ _ Ho). now destruct (_ <=? _)%nat.
Qed.

Lemma data_var ow st id val s l : Inv ow st -> data (t_nodes st) id val = Some (LLit l s) ->
  gin g (lvar l) = true \/ exists x, ow (lvar l) = Some x.
Proof. intros I Hd. right. destruct (i_own _ _ _ _ _ _ I _ _ _ _ Hd) as (v & -> & Ho). eauto. Qed.

(** *** Emitting clauses *)
Lemma inv_emit ow st cs : Inv ow st ->
  (forall a, canon g ow a -> sat_cnf a cs = true) ->
  (forall c l, In c cs -> In l c -> gin g (lvar l) = true \/ exists x, ow (lvar l) = Some x) ->
  Inv ow (emit st cs) /\ ext ow st ow (emit st cs).
Proof.
  intros [W O1 O2 I1 C If Oif Vs] Hc Hv. split.
  - constructor; cbn [emit t_nodes t_next t_cls]; auto.
    + intros a Ha. rewrite app_assoc, sat_cnf_app_iff. auto.
    + intros a id val l s S. rewrite app_assoc, sat_cnf_app_iff in S. destruct S. eauto.
    + intros ND a id val l s S. rewrite app_assoc, sat_cnf_app_iff in S. destruct S. eauto.
    + intros c l H. rewrite app_assoc in H. apply in_app_or in H as [H|H]; eauto.
  - constructor; cbn [emit t_nodes t_next t_cls]; eauto. lia.
Qed.

(** *** Reserving an output literal *)
Definition own_set (ow : owner) (v : N) (x : nat * nat) : owner := fun w => if (w =? v)%N then Some x else ow w.

Lemma inv_reserve ow st id val ns' : Inv ow st -> (id < length (t_nodes st))%nat ->
  data (t_nodes st) id val = Some LNone ->
  upd_data (t_nodes st) id val (LLit (pos (t_next st)) None) ns' ->
  let st' := mkTst ns' (t_next st + 1)%N (t_cls st) in
  let ow' := own_set ow (t_next st) (id, val) in
  Inv ow' st' /\ ext ow st ow' st'.
Proof.
  intros [W O1 O2 I1 C If Oif Vs] Hid Hd0 (Us & Ud & Uo & Un) st' ow'.
  assert (Hfresh : ow (t_next st) = None).
  { destruct (ow (t_next st)) as [[i v]|] eqn:E; [|reflexivity]. apply O2 in E. lia. }
  assert (Hmono : forall v x, ow v = Some x -> ow' v = Some x).
  { intros v x H. unfold ow', own_set. destruct (N.eqb_spec v (t_next st)); [subst; congruence|auto]. }
  assert (Hlen : length ns' = length (t_nodes st)) by (rewrite <- (skel_length ns'), Us; apply skel_length).
  assert (Hdata : forall j v, data ns' j v = if ((j =? id) && (v =? val))%nat then Some (LLit (pos (t_next st)) None) else data (t_nodes st) j v).
  { intros j v. destruct ((j =? id) && (v =? val))%nat eqn:E.
    - replace j with id by lia. replace v with val by lia. exact Ud.
    - apply Uo. lia. }
  split.
  - constructor; unfold st'; cbn [t_nodes t_next t_cls].
    + now rewrite Us.
    + intros j v l s H. rewrite Hdata in H. destruct ((j =? id) && (v =? val))%nat eqn:E.
      * injection H as <- <-. exists (t_next st). split; [reflexivity|].
        unfold ow', own_set. rewrite N.eqb_refl. repeat f_equal; lia.
      * destruct (O1 _ _ _ _ H) as (w & -> & Hw). eauto.
    + intros v j w H. unfold ow', own_set in H. destruct (N.eqb_spec v (t_next st)) as [->|].
      * injection H as <- <-. split; [lia|]. split; [|lia].
        destruct (gin g (t_next st)) eqn:E; [|reflexivity]. apply I1 in E. lia.
      * apply O2 in H. rewrite Hlen. split; [lia|]. tauto.
    + intros v H. apply I1 in H. lia.
    + intros a Ha. apply C. intros v j w H. apply Ha. auto.
    + intros a j v l s S H HA. rewrite Hdata in H. destruct ((j =? id) && (v =? val))%nat eqn:E; [|eauto].
      injection H as <- <-. discriminate.
    + intros ND a j v l s S H HA. rewrite Hdata in H. destruct ((j =? id) && (v =? val))%nat eqn:E.
      * injection H as <- <-. discriminate.
      * assert (ND' : forall i, nth_error (t_nodes st) i <> Some NDummy).
        { intros k Hk; apply nth_skel in Hk; rewrite <- Us in Hk.
          apply nth_skel_inv in Hk as (n & Hn & Hne); apply (ND k); destruct n; cbn [erase] in Hne; inversion Hne; subst; auto. }
        eauto.
    + intros c l Hc Hl. destruct (Vs c l Hc Hl) as [|[x Hx]]; eauto.
  - constructor; unfold st'; cbn [t_nodes t_next t_cls].
    + exact Us.
    + lia.
    + exists []. now rewrite app_nil_r.
    + exact Hmono.
    + intros v x H. unfold ow', own_set in H. destruct (N.eqb_spec v (t_next st)) as [->|]; [right; lia|auto].
    + intros j v l s H. rewrite Hdata. destruct ((j =? id) && (v =? val))%nat eqn:E; [|eauto].
      replace j with id in H by lia. replace v with val in H by lia. congruence.
Qed.

(** *** Marking an output literal *)
Definition sem_join (s : option semantics) (new : semantics) : semantics :=
  match s with Some s => sem_add s new | None => new end.

Lemma sem_join_if s new : has_if (sem_join s new) = sem_le_if s || has_if new.
Proof. destruct s as [[]|], new; reflexivity. Qed.
Lemma sem_join_oif s new : has_only_if (sem_join s new) = sem_le_oif s || has_only_if new.
Proof. destruct s as [[]|], new; reflexivity. Qed.

Lemma inv_mark ow st id val l s sem ns' : Inv ow st ->
  data (t_nodes st) id val = Some (LLit l s) ->
  upd_data (t_nodes st) id val (LLit l (Some (sem_join s sem))) ns' ->
  (has_if sem = true -> sem_le_if s = false -> forall a, sat_cnf a (GU ++ t_cls st) = true -> gT g a id val -> lit_true a l = true) ->
  (has_only_if sem = true -> sem_le_oif s = false -> (forall i, nth_error (t_nodes st) i <> Some NDummy) ->
     forall a, sat_cnf a (GL ++ t_cls st) = true -> lit_true a l = true -> (val <= gV g a id)%nat) ->
  Inv ow (set_nodes st ns') /\ ext ow st ow (set_nodes st ns').
Proof.
  intros [W O1 O2 I1 C If Oif Vs] Hd0 (Us & Ud & Uo & Un) HIf HOif.
  assert (Hlen : length ns' = length (t_nodes st)) by (rewrite <- (skel_length ns'), Us; apply skel_length).
  assert (Hdata : forall j v, data ns' j v = if ((j =? id) && (v =? val))%nat then Some (LLit l (Some (sem_join s sem))) else data (t_nodes st) j v).
  { intros j v. destruct ((j =? id) && (v =? val))%nat eqn:E.
    - replace j with id by lia. replace v with val by lia. exact Ud.
    - apply Uo. lia. }
  split.
  - constructor; cbn [set_nodes t_nodes t_next t_cls]; auto.
    + now rewrite Us.
    + intros j v l' s' H. rewrite Hdata in H. destruct ((j =? id) && (v =? val))%nat eqn:E; [|eauto].
      injection H as <- <-. replace j with id by lia. replace v with val by lia. eauto.
    + intros v j w H. rewrite Hlen. eauto.
    + intros a j v l' s' S H HA HT. rewrite Hdata in H. destruct ((j =? id) && (v =? val))%nat eqn:E; [|eauto].
      injection H as <- <-. replace j with id in HT by lia. replace v with val in HT by lia.
      cbn [sem_le_if] in HA. rewrite sem_join_if in HA. destruct (sem_le_if s) eqn:Es; [eauto|].
      cbn [orb] in HA. eauto.
    + intros ND a j v l' s' S H HA HT.
      assert (ND' : forall i, nth_error (t_nodes st) i <> Some NDummy).
      { intros k Hk; apply nth_skel in Hk; rewrite <- Us in Hk.
        apply nth_skel_inv in Hk as (n & Hn & Hne); apply (ND k); destruct n; cbn [erase] in Hne; inversion Hne; subst; auto. }
      rewrite Hdata in H. destruct ((j =? id) && (v =? val))%nat eqn:E; [|eauto].
      injection H as <- <-. replace j with id by lia. replace v with val by lia.
      cbn [sem_le_oif] in HA. rewrite sem_join_oif in HA. destruct (sem_le_oif s) eqn:Es; [eauto|].
      cbn [orb] in HA. eauto.
  - constructor; cbn [set_nodes t_nodes t_next t_cls]; auto.
    + lia.
    + exists []. now rewrite app_nil_r.
    + intros j v l' s' H. rewrite Hdata. destruct ((j =? id) && (v =? val))%nat eqn:E; [|eauto].
      replace j with id in H by lia. replace v with val in H by lia. rewrite Hd0 in H. injection H as <- <-.
      exists (Some (sem_join s sem)). cbn [sem_le_if sem_le_oif]. rewrite sem_join_if, sem_join_oif.
      split; [reflexivity|]. split; intros ->; reflexivity.
Qed.

End Inv.
