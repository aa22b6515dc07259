(** * Certified definitions of outputs: what the proof log of one call derives *)

From Coq Require Import List Bool NArith ZArith Lia Arith.
From Coq Require Import ZifyBool ZifyNat ZifyN.
From Verif Require Import Spec Types Constraints Atomics NodeDb TotDb Base TotDbInv TotDbUnit TreeSpec CertSpec CertBase CertSound Cert CertDefs CertSem CertStep.
Import ListNotations.
Open Scope nat_scope.

(** ** The leaves of a node *)

Lemma leaf_lits_path ns id ls : utree ns id ls -> forall fuel path, NoDup path ->
  (forall j, In j path -> j < length ns /\ exists lj, utree ns j lj /\ length ls < length lj) ->
  length ns < fuel + length path -> leaf_lits fuel ns id = Some ls.
Proof.
  induction 1 as [id l H|id lits l r ls rs H Pl Pr Ml Mr Ul IHl Ur IHr Hlen]; intros fuel path ND Hp Hf.
  - assert (id < length ns) by (apply nth_error_Some; congruence).
    assert (length path <= length ns).
    { rewrite <- (seq_length (length ns) 0). apply NoDup_incl_length; [auto|]. intros j Hj. apply in_seq. destruct (Hp _ Hj). lia. }
    destruct fuel; [lia|]. cbn [leaf_lits]. rewrite H. reflexivity.
  - assert (id < length ns) by (apply nth_error_Some; congruence).
    assert (U : utree ns id (ls ++ rs)) by (eapply ut_unit; eauto).
    pose proof (utree_pos _ _ _ Ul). pose proof (utree_pos _ _ _ Ur). pose proof (app_length ls rs) as Hal.
    assert (ND' : NoDup (id :: path)).
    { constructor; [|auto]. intros Hin. destruct (Hp _ Hin) as (_ & lj & Uj & Hl). rewrite (utree_fun _ _ _ U _ Uj) in Hl. lia. }
    assert (length (id :: path) <= length ns).
    { rewrite <- (seq_length (length ns) 0). apply NoDup_incl_length; [auto|]. intros j [<-|Hj]; apply in_seq; [lia|]. destruct (Hp _ Hj). lia. }
    cbn [length] in *. destruct fuel; [lia|]. cbn [leaf_lits]. rewrite H. cbn [obind]. rewrite (plain_conb_ok _ Pl), (plain_conb_ok _ Pr). cbn [andb assertb obind].
    assert (Hp' : forall n, n < length (ls ++ rs) -> forall j, In j (id :: path) -> j < length ns /\ exists lj, utree ns j lj /\ n < length lj).
    { intros n Hn j [<-|Hj]; [split; [auto|]; exists (ls ++ rs); split; [auto|lia]|]. destruct (Hp _ Hj) as (A & lj & B & C). split; [auto|]. exists lj. split; [auto|lia]. }
    rewrite (IHl fuel (id :: path)); [|auto|apply Hp'; lia|cbn [length]; lia]. cbn [obind].
    rewrite (IHr fuel (id :: path)); [|auto|apply Hp'; lia|cbn [length]; lia]. reflexivity.
Qed.

Lemma leaf_lits_ok ns id ls : utree ns id ls -> leaf_lits (S (length ns)) ns id = Some ls.
Proof. intros U. apply (leaf_lits_path _ _ _ U _ []); [constructor|intros j []|cbn [length]; lia]. Qed.
Lemma n_leaves_ok ns id ls : utree ns id ls -> n_leaves ns id = Some (length ls).
Proof. intros U. unfold n_leaves. rewrite (leaf_lits_ok _ _ _ U). reflexivity. Qed.

Lemma con_len_utree ns con ls : plain_con con -> utree ns (nc_id con) ls -> con_len ns con = Some (length ls).
Proof.
  intros (A & B & C) U. destruct (utree_node _ _ _ U) as (n & Hn & _ & _ & Hl). unfold con_len. rewrite Hn. cbn [obind]. rewrite A, B, C, Nat.div_1_r, Hl. f_equal. lia.
Qed.

(** ** Progress of a call *)

(** every output that is marked as encoded has a definition *)
Definition marked (k : cst) : Prop := forall id val o s,
  data (t_nodes (c_t k)) id val = Some (LLit o (Some s)) -> defs_get (c_defs k) id val <> None.

Record go (k : cst) (p : pstate) (k' : cst) (p' : pstate) : Prop := mkGo {
  go_adv : adv k p k' p';
  go_more : more (t_nodes (c_t k)) (t_nodes (c_t k'));
  go_out : keeps_out (t_nodes (c_t k)) (t_nodes (c_t k'));
  go_names : names (t_nodes (c_t k')) (t_next (c_t k'));
  go_marked : marked k -> marked k' }.

Lemma more_refl ns : more ns ns.
Proof. split; auto. Qed.
Lemma more_trans a b c : more a b -> more b c -> more a c.
Proof. intros [A B] [C D]. split; [congruence|auto]. Qed.

Lemma go_refl k p : CInv k p -> names (t_nodes (c_t k)) (t_next (c_t k)) -> go k p k p.
Proof. intros C N. constructor; [apply adv_refl; auto|apply more_refl|intros v H; exact H|auto|auto]. Qed.

Lemma go_trans k p k1 p1 k2 p2 : go k p k1 p1 -> go k1 p1 k2 p2 -> go k p k2 p2.
Proof.
  intros [A1 M1 O1 N1 K1] [A2 M2 O2 N2 K2]. constructor; [eapply adv_trans; eauto|eapply more_trans; eauto|intros v H; auto|auto|auto].
Qed.

Lemma go_inv k p k' p' : go k p k' p' -> CInv k' p'.
Proof. intros G. apply G. Qed.

Lemma go_utree k p k' p' id ls : go k p k' p' -> utree (t_nodes (c_t k)) id ls -> utree (t_nodes (c_t k')) id ls.
Proof. intros G. apply utree_skel. apply G. Qed.

(** changing the database without writing to the proof *)
Lemma go_db k p st : CInv k p -> names (t_nodes (c_t k)) (t_next (c_t k)) -> more (t_nodes (c_t k)) (t_nodes st) ->
  keeps_out (t_nodes (c_t k)) (t_nodes st) -> names (t_nodes st) (t_next st) -> (t_next (c_t k) <= t_next st)%N -> t_cls st = t_cls (c_t k) ->
  (forall id val o s, data (t_nodes st) id val = Some (LLit o s) -> (exists s', data (t_nodes (c_t k)) id val = Some (LLit o s')) \/ (t_next (c_t k) <= lvar o)%N) ->
  (marked k -> marked (with_t k st)) ->
  go k p (with_t k st) p.
Proof.
  intros C N M O N' L E F K. constructor; [|exact M|exact O|exact N'|exact K].
  constructor; [exists []; cbn; rewrite app_nil_r; split; [auto|]; split; [constructor|intros ? []]|apply grows_refl|intros ? ? ? H; exact H|].
  destruct C as [C1 C2 C3 C4 C5 C6]. constructor; cbn [c_t c_ids c_defs c_pid with_t].
  - auto.
  - auto.
  - intros id val d H. eapply def_ok_more; [exact M|apply grows_refl|auto].
  - intros id val o s H Hd i c Hi Hm. destruct (F _ _ _ _ H) as [(s' & H')|Hge]; [apply (C4 _ _ _ _ H' Hd _ _ Hi Hm)|]. specialize (C5 _ _ _ Hi Hm). lia.
  - intros i c v Hi Hm. specialize (C5 _ _ _ Hi Hm). lia.
  - rewrite E. auto.
Qed.

Lemma upd_more ns id val d ns' lits l r : nth_error ns id = Some (NUnit lits l r) -> upd_data ns id val d ns' ->
  (forall o s, data ns id val = Some (LLit o s) -> exists s', d = LLit o s') -> 1 <= val -> more ns ns' /\ keeps_out ns ns'.
Proof.
  intros Hn (S & D & Oth & Nth) Hd Hv. split.
  - split; [auto|]. intros j v o Ho. destruct (Nat.eq_dec j id) as [->|Hj].
    + destruct (olit_unit _ _ _ _ _ _ _ Hn Ho) as (s & Ds). destruct (unit_same_skel _ _ _ _ _ _ S Hn) as (lits' & Hn' & _).
      assert (X : exists s', data ns' id v = Some (LLit o s')).
      { destruct (Nat.eq_dec v val) as [->|Hne]; [|exists s; rewrite Oth by auto; auto]. destruct (Hd _ _ Ds) as (s' & ->). eauto. }
      destruct X as (s' & X). destruct (olit_data _ _ _ _ _ X) as [Q|(? & ? & ? & ? & Q)]; [auto|congruence].
    + unfold olit in *. rewrite (Nth _ Hj). exact Ho.
  - intros v (j & w & o & s & Ds & E). destruct (Nat.eq_dec j id) as [->|Hj]; [destruct (Nat.eq_dec w val) as [->|Hne]|].
    + destruct (Hd _ _ Ds) as (s' & ->). exists id, val, o, s'. auto.
    + exists id, w, o, s. rewrite Oth by auto. auto.
    + exists j, w, o, s. rewrite Oth by auto. auto.
Qed.

Lemma names_upd ns next id val o s ns' next' lits l r : nth_error ns id = Some (NUnit lits l r) -> names ns next -> upd_data ns id val (LLit o s) ns' -> (next <= next')%N ->
  ((exists s', data ns id val = Some (LLit o s')) \/ (o = pos next /\ (next < next')%N)) -> names ns' next'.
Proof.
  intros Hn [A B C] (S & D & Oth & Nth) L Hd.
  assert (Q : forall j v x sx, data ns' j v = Some (LLit x sx) -> (exists s', data ns j v = Some (LLit x s')) \/ (j = id /\ v = val /\ x = pos next /\ (next < next')%N)).
  { intros j v x sx H. destruct (Nat.eq_dec j id) as [->|]; [destruct (Nat.eq_dec v val) as [->|]|]; try (left; exists sx; rewrite <- Oth by auto; auto).
    rewrite D in H. injection H as <- <-. destruct Hd as [(s' & H')|(-> & Hl)]; [left; eauto|right; auto]. }
  assert (Lf : forall j x, nth_error ns' j = Some (NLeaf x) -> nth_error ns j = Some (NLeaf x)).
  { intros j x H. apply (nth_leaf_skel ns' ns j x (eq_sym S) H). }
  constructor.
  - intros j v x sx H. destruct (Q _ _ _ _ H) as [(s' & H')|(-> & -> & -> & Hl)]; [destruct (A _ _ _ _ H') as (A1 & A2); split; [auto|lia]|]. cbn [pos lneg lvar]. auto.
  - intros j v x sx j' v' x' sx' H H' E. destruct (Q _ _ _ _ H) as [(s1 & H1)|(-> & -> & -> & Hl)], (Q _ _ _ _ H') as [(s2 & H2)|(-> & -> & -> & Hl')].
    + exact (B _ _ _ _ _ _ _ _ H1 H2 E).
    + cbn [pos lvar] in E. apply A in H1. lia.
    + cbn [pos lvar] in E. apply A in H2. lia.
    + auto.
  - intros j x H. apply Lf in H. destruct (C _ _ H) as (C1 & C2). split; [lia|]. intros j' v o' s' H' E.
    destruct (Q _ _ _ _ H') as [(s1 & H1)|(-> & -> & -> & Hl)]; [exact (C2 _ _ _ _ H1 E)|]. cbn [pos lvar] in E. lia.
Qed.

Lemma with_t_self k : with_t k (c_t k) = k.
Proof. now destruct k. Qed.

Lemma get_olit_go k p id lits l r idx o st : CInv k p -> names (t_nodes (c_t k)) (t_next (c_t k)) ->
  nth_error (t_nodes (c_t k)) id = Some (NUnit lits l r) -> get_olit (c_t k) id idx = Some (o, st) ->
  go k p (with_t k st) p /\ olit (t_nodes st) id (idx + 1) = Some o.
Proof.
  intros C N Hn H. unfold get_olit in H. rewrite Hn in H. cbn [obind] in H. destruct (nth_error lits idx) as [[|x s]|] eqn:E; [| |discriminate]; cbn [obind] in H.
  - injection H as <- <-. set (st := mkTst _ _ _).
    assert (D0 : data (t_nodes (c_t k)) id (idx + 1) = Some LNone).
    { unfold data. rewrite Hn. cbn [node_data]. replace (idx + 1 =? 0) with false by lia. replace (idx + 1 - 1) with idx by lia. auto. }
    pose proof (upd_data_unit (t_nodes (c_t k)) id lits l r idx (LLit (pos (t_next (c_t k))) None) _ Hn E) as U.
    destruct (upd_more _ _ _ _ _ _ _ _ Hn U ltac:(intros o s X; congruence) ltac:(lia)) as (M & O).
    assert (Nn : names (t_nodes st) (t_next st)).
    { eapply names_upd; [exact Hn|exact N|exact U|cbn; lia|]. right. split; [auto|]. cbn. lia. }
    split.
    + apply go_db; auto; [cbn; lia| |].
      * intros j v o s X. destruct U as (_ & D & Oth & _). destruct (Nat.eq_dec j id) as [->|]; [destruct (Nat.eq_dec v (idx + 1)) as [->|]|]; try (left; exists s; rewrite <- Oth by auto; exact X).
        cbn [st t_nodes] in X. rewrite D in X. injection X as <- <-. right. cbn [pos lvar]. lia.
      * intros K j v o s X. cbn [with_t c_t c_defs] in *. destruct U as (S & D & Oth & _).
        destruct (Nat.eq_dec j id) as [->|]; [destruct (Nat.eq_dec v (idx + 1)) as [->|]|].
        -- cbn [st t_nodes] in X. rewrite D in X. discriminate.
        -- cbn [st t_nodes] in X. rewrite Oth in X by auto. eapply K; eauto.
        -- cbn [st t_nodes] in X. rewrite Oth in X by auto. eapply K; eauto.
    + destruct U as (S & D & _). destruct (olit_data _ _ _ _ _ D) as [Q|(? & ? & ? & ? & Q)]; [exact Q|].
      destruct (unit_same_skel _ _ _ _ _ _ S Hn) as (? & Q' & _). congruence.
  - injection H as <- <-. rewrite with_t_self. split; [now apply go_refl|]. unfold olit. rewrite Hn. cbn [obind node_lit].
    replace (idx + 1 =? 0) with false by lia. replace (idx + 1 - 1) with idx by lia. rewrite E. reflexivity.
Qed.

Lemma mark_go k p id lits l r idx sem o st : CInv k p -> names (t_nodes (c_t k)) (t_next (c_t k)) ->
  nth_error (t_nodes (c_t k)) id = Some (NUnit lits l r) -> olit (t_nodes (c_t k)) id (idx + 1) = Some o -> mark_unit (c_t k) id idx sem = Some st ->
  adv k p (with_t k st) p /\ more (t_nodes (c_t k)) (t_nodes st) /\ keeps_out (t_nodes (c_t k)) (t_nodes st) /\ names (t_nodes st) (t_next st) /\
  (marked k -> forall j v o' s, data (t_nodes st) j v = Some (LLit o' (Some s)) ->
     (j, v) <> (id, idx + 1) -> defs_get (c_defs k) j v <> None).
Proof.
  intros C N Hn Ho H. unfold mark_unit in H. rewrite Hn in H. cbn [obind] in H. destruct (nth_error lits idx) as [dat|] eqn:E; [|discriminate]. cbn [obind] in H.
  destruct (ld_add dat sem) as [dat'|] eqn:Ed; [|discriminate]. cbn [obind] in H. injection H as <-.
  destruct (olit_unit _ _ _ _ _ _ _ Hn Ho) as (s & Ds).
  assert (Dd : dat = LLit o s).
  { unfold data in Ds. rewrite Hn in Ds. cbn [node_data] in Ds. replace (idx + 1 =? 0) with false in Ds by lia. replace (idx + 1 - 1) with idx in Ds by lia. congruence. }
  subst dat. assert (Dd' : exists s', dat' = LLit o s') by (cbn [ld_add] in Ed; destruct s; injection Ed as <-; eauto). destruct Dd' as (s' & ->).
  pose proof (upd_data_unit (t_nodes (c_t k)) id lits l r idx (LLit o s') _ Hn E) as U.
  destruct (upd_more _ _ _ _ _ _ _ _ Hn U ltac:(intros o2 s2 X; rewrite Ds in X; injection X as <- <-; eauto) ltac:(lia)) as (M & O).
  assert (Nn : names (upd id (NUnit (upd idx (LLit o s') lits) l r) (t_nodes (c_t k))) (t_next (c_t k))).
  { eapply names_upd; [exact Hn|exact N|exact U|lia|]. left. eauto. }
  cbn [set_nodes t_nodes t_next]. split; [|split; [exact M|split; [exact O|split; [exact Nn|]]]].
  - constructor; [exists []; cbn; rewrite app_nil_r; split; [auto|]; split; [constructor|intros ? []]|apply grows_refl|intros ? ? ? H; exact H|].
    destruct C as [C1 C2 C3 C4 C5 C6]. constructor; cbn [c_t c_ids c_defs c_pid with_t set_nodes t_nodes t_next t_cls]; auto.
    + intros j v d H. eapply def_ok_more; [exact M|apply grows_refl|auto].
    + intros j v o2 s2 H Hd i c Hi Hm. destruct U as (_ & D & Oth & _).
      destruct (Nat.eq_dec j id) as [->|]; [destruct (Nat.eq_dec v (idx + 1)) as [->|]|].
      * rewrite D in H. injection H as <- <-. apply (C4 _ _ _ _ Ds Hd _ _ Hi Hm).
      * rewrite Oth in H by auto. apply (C4 _ _ _ _ H Hd _ _ Hi Hm).
      * rewrite Oth in H by auto. apply (C4 _ _ _ _ H Hd _ _ Hi Hm).
  - intros K j v o2 s2 H Hne. destruct U as (S & D & Oth & _).
    eapply K. rewrite <- Oth; [exact H|]. destruct (Nat.eq_dec j id) as [->|]; [|auto]. destruct (Nat.eq_dec v (idx + 1)) as [->|]; [congruence|auto].
Qed.

Lemma emit_emit t a b : emit (emit t a) b = emit t (a ++ b).
Proof. unfold emit. cbn. now rewrite app_assoc. Qed.

(** ** Encoding an output *)

Section Enc.
Variables (ns : list node) (next : N) (id : nat) (lits : list litdata) (lcon rcon : nodecon) (ls rs : list lit).
Hypothesis HN : names ns next.
Hypothesis Hnode : nth_error ns id = Some (NUnit lits lcon rcon).
Hypotheses (HPl : plain_con lcon) (HPr : plain_con rcon) (HMl : nc_mult lcon = 1) (HMr : nc_mult rcon = 1).
Hypotheses (HUl : utree ns (nc_id lcon) ls) (HUr : utree ns (nc_id rcon) rs).
Hypothesis Hlen : length lits = length ls + length rs.
Hypothesis HNC : no_compl (ls ++ rs).
Variables (pre : upre) (idx : nat) (o : lit) (llits rlits : list litdata).
Hypotheses (Pl : u_lcon pre = lcon) (Pr : u_rcon pre = rcon) (Hidx : idx < length lits) (Ho : olit ns id (idx + 1) = Some o).
Hypotheses (Sl : lit_slice ns (nc_id lcon) = Some llits) (Sr : lit_slice ns (nc_id rcon) = Some rlits).

Lemma fold_if vals : forall k p cs, CInv k p -> t_nodes (c_t k) = ns -> t_next (c_t k) = next ->
  (forall v, In v vals -> v <= length ls /\ v <= idx + 1 /\ idx + 1 - v <= length rs) ->
  mapM (if_clause pre idx o llits rlits) vals = Some cs ->
  exists k' p', foldM (if_step pre id idx o ls rs (ls ++ rs)) vals k = Some k' /\ c_t k' = emit (c_t k) cs /\ adv k p k' p' /\
    (vals <> [] -> defs_get (c_defs k') id (idx + 1) <> None).
Proof.
  induction vals as [|v vals IH]; intros k p cs C En Ex Hv Hm; cbn [mapM foldM] in *.
  - injection Hm as <-. exists k, p. split; [reflexivity|]. split; [unfold emit; rewrite app_nil_r; now destruct (c_t k)|]. split; [now apply adv_refl|congruence].
  - destruct (if_clause pre idx o llits rlits v) as [c|] eqn:E; [|discriminate]. cbn [obind] in Hm.
    destruct (mapM (if_clause pre idx o llits rlits) vals) as [cs'|] eqn:E'; [|discriminate]. cbn [obind] in Hm. injection Hm as <-.
    destruct (Hv v (or_introl eq_refl)) as (H1 & H2 & H3).
    destruct (if_step_ok ns next id lits lcon rcon ls rs HN Hnode HPl HPr HMl HMr HUl HUr Hlen HNC pre idx o llits rlits Pl Pr Hidx Ho Sl Sr k p v c C En Ex H1 H2 H3 E) as (k1 & p1 & S1 & T1 & A1 & D1).
    rewrite S1. cbn [obind].
    destruct (IH k1 p1 cs') as (k' & p' & S2 & T2 & A2 & _); [apply A1|rewrite T1; auto|rewrite T1; auto|intros; apply Hv; now right|auto|].
    exists k', p'. split; [exact S2|]. split; [rewrite T2, T1, emit_emit; reflexivity|]. split.
    + eapply adv_trans; [|exact A1|exact A2]. rewrite T2. intros w Hw. exact Hw.
    + intros _. destruct (defs_get (c_defs k1) id (idx + 1)) as [d|] eqn:Q; [|congruence]. rewrite (ad_defs _ _ _ _ A2 _ _ _ Q). discriminate.
Qed.

Lemma fold_only_if vals : forall k p cs, CInv k p -> t_nodes (c_t k) = ns -> t_next (c_t k) = next ->
  (forall v, In v vals -> v <= length ls /\ v <= idx /\ idx - v <= length rs) ->
  mapM (only_if_clause pre idx o llits rlits (length ls) (length rs)) vals = Some cs ->
  exists k' p', foldM (only_if_step pre id idx o ls rs (ls ++ rs)) vals k = Some k' /\ c_t k' = emit (c_t k) cs /\ adv k p k' p' /\
    (vals <> [] -> defs_get (c_defs k') id (idx + 1) <> None).
Proof.
  induction vals as [|v vals IH]; intros k p cs C En Ex Hv Hm; cbn [mapM foldM] in *.
  - injection Hm as <-. exists k, p. split; [reflexivity|]. split; [unfold emit; rewrite app_nil_r; now destruct (c_t k)|]. split; [now apply adv_refl|congruence].
  - destruct (only_if_clause pre idx o llits rlits (length ls) (length rs) v) as [c|] eqn:E; [|discriminate]. cbn [obind] in Hm.
    destruct (mapM (only_if_clause pre idx o llits rlits (length ls) (length rs)) vals) as [cs'|] eqn:E'; [|discriminate]. cbn [obind] in Hm. injection Hm as <-.
    destruct (Hv v (or_introl eq_refl)) as (H1 & H2 & H3).
    destruct (only_if_step_ok ns next id lits lcon rcon ls rs HN Hnode HPl HPr HMl HMr HUl HUr Hlen HNC pre idx o llits rlits Pl Pr Hidx Ho Sl Sr k p v (length ls) (length rs) c C En Ex) as (k1 & p1 & S1 & T1 & A1 & D1); auto.
    { apply con_len_utree; auto. } { apply con_len_utree; auto. }
    rewrite S1. cbn [obind].
    destruct (IH k1 p1 cs') as (k' & p' & S2 & T2 & A2 & _); [apply A1|rewrite T1; auto|rewrite T1; auto|intros; apply Hv; now right|auto|].
    exists k', p'. split; [exact S2|]. split; [rewrite T2, T1, emit_emit; reflexivity|]. split.
    + eapply adv_trans; [|exact A1|exact A2]. rewrite T2. intros w Hw. exact Hw.
    + intros _. destruct (defs_get (c_defs k1) id (idx + 1)) as [d|] eqn:Q; [|congruence]. rewrite (ad_defs _ _ _ _ A2 _ _ _ Q). discriminate.
Qed.
End Enc.

Lemma encode_cert_ok k p id lits lcon rcon ls rs pre idx o req st' :
  CInv k p -> names (t_nodes (c_t k)) (t_next (c_t k)) -> nth_error (t_nodes (c_t k)) id = Some (NUnit lits lcon rcon) ->
  plain_con lcon -> plain_con rcon -> nc_mult lcon = 1 -> nc_mult rcon = 1 ->
  utree (t_nodes (c_t k)) (nc_id lcon) ls -> utree (t_nodes (c_t k)) (nc_id rcon) rs -> length lits = length ls + length rs -> no_compl (ls ++ rs) ->
  u_lcon pre = lcon -> u_rcon pre = rcon -> idx < length lits -> olit (t_nodes (c_t k)) id (idx + 1) = Some o ->
  (forall v, In v (u_left_if pre) -> v <= length ls /\ v <= idx + 1 /\ idx + 1 - v <= length rs) ->
  (forall v, In v (u_left_only_if pre) -> v <= length ls /\ v <= idx /\ idx - v <= length rs) ->
  (u_left_if pre <> [] \/ u_left_only_if pre <> []) ->
  encode_unweighted (c_t k) id idx o req pre = Some st' ->
  exists k' p', encode_unweighted_cert k id idx o req pre (ls ++ rs) = Some k' /\ c_t k' = st' /\ go k p k' p'.
Proof.
  intros C N Hn Pl Pr Ml Mr Ul Ur Hlen NC El Er Hi Ho Hif Hoif Hne H. unfold encode_unweighted in H. unfold encode_unweighted_cert. rewrite Hn in *. cbn [obind] in *.
  destruct (nth_error lits idx) as [dat|]; [|discriminate]. cbn [obind] in *. destruct (ld_missing dat req) as [new|]; [|discriminate]. cbn [obind] in *.
  destruct (mark_unit (c_t k) id idx req) as [st1|] eqn:Em; [|discriminate]. cbn [obind] in *.
  destruct (mark_go k p id lits lcon rcon idx req o st1 C N Hn Ho Em) as (A0 & M0 & O0 & N0 & K0).
  rewrite El, Er in *. rewrite (plain_conb_ok _ Pl), (plain_conb_ok _ Pr). cbn [andb assertb obind].
  assert (Ul' : utree (t_nodes st1) (nc_id lcon) ls) by (eapply utree_skel; [apply M0|auto]).
  assert (Ur' : utree (t_nodes st1) (nc_id rcon) rs) by (eapply utree_skel; [apply M0|auto]).
  rewrite (n_leaves_ok _ _ _ Ul'). cbn [obind]. rewrite app_length. replace (length ls <=? length ls + length rs) with true by lia. cbn [assertb obind].
  rewrite firstn_app, skipn_app, firstn_all, skipn_all, Nat.sub_diag. cbn [firstn skipn]. rewrite app_nil_r, app_nil_l.
  destruct (lit_slice (t_nodes st1) (nc_id lcon)) as [llits|] eqn:Sl; [|discriminate]. cbn [obind] in H.
  destruct (lit_slice (t_nodes st1) (nc_id rcon)) as [rlits|] eqn:Sr; [|discriminate]. cbn [obind] in H.
  rewrite (con_len_utree _ _ _ Pl Ul'), (con_len_utree _ _ _ Pr Ur') in H. cbn [obind] in H.
  destruct (mapM (if_clause pre idx o llits rlits) (u_left_if pre)) as [c1|] eqn:E1; [|discriminate]. cbn [obind] in H.
  destruct (mapM (only_if_clause pre idx o llits rlits (length ls) (length rs)) (u_left_only_if pre)) as [c2|] eqn:E2; [|discriminate]. cbn [obind] in H. injection H as <-.
  destruct (unit_same_skel _ _ _ _ _ _ (proj1 M0) Hn) as (lits' & Hn' & Hl').
  assert (Ho' : olit (t_nodes st1) id (idx + 1) = Some o) by (apply M0; auto).
  rename Hl' into HL.
  destruct (fold_if (t_nodes st1) (t_next st1) id lits' lcon rcon ls rs N0 Hn' Pl Pr Ml Mr Ul' Ur' ltac:(lia) NC pre idx o llits rlits El Er ltac:(lia) Ho' Sl Sr
              (u_left_if pre) (with_t k st1) p c1 (ad_inv _ _ _ _ A0) eq_refl eq_refl Hif E1) as (k1 & p1 & S1 & T1 & A1 & D1).
  rewrite S1. cbn [obind]. cbn [with_t c_t] in T1.
  destruct (fold_only_if (t_nodes st1) (t_next st1) id lits' lcon rcon ls rs N0 Hn' Pl Pr Ml Mr Ul' Ur' ltac:(lia) NC pre idx o llits rlits El Er ltac:(lia) Ho' Sl Sr
              (u_left_only_if pre) k1 p1 c2 (ad_inv _ _ _ _ A1)) as (k2 & p2 & S2 & T2 & A2 & D2); [rewrite T1; reflexivity|rewrite T1; reflexivity|auto|auto|].
  exists k2, p2. split; [exact S2|]. assert (T : c_t k2 = emit st1 (c1 ++ c2)) by (rewrite T2, T1, emit_emit; reflexivity). split; [exact T|].
  assert (Dd : defs_get (c_defs k2) id (idx + 1) <> None).
  { destruct Hne as [X|X]; [|auto]. specialize (D1 X). destruct (defs_get (c_defs k1) id (idx + 1)) as [d|] eqn:Q; [|congruence]. rewrite (ad_defs _ _ _ _ A2 _ _ _ Q). discriminate. }
  constructor; rewrite ?T; cbn [emit t_nodes t_next]; auto.
  - eapply adv_trans; [|exact A0|eapply adv_trans; [|exact A1|exact A2]]; rewrite ?T, ?T1, ?T2; intros w Hw; exact Hw.
  - intros K j v o2 s2 Hd. rewrite T in Hd. cbn [emit t_nodes] in Hd.
    destruct (Nat.eq_dec j id) as [->|Hj']; [destruct (Nat.eq_dec v (idx + 1)) as [->|Hv]|]; [exact Dd| |].
    + specialize (K0 K _ _ _ _ Hd ltac:(congruence)). destruct (defs_get (c_defs k) id v) as [d|] eqn:Q; [|congruence].
      rewrite (ad_defs _ _ _ _ A2 _ _ _ (ad_defs _ _ _ _ A1 _ _ _ Q)). discriminate.
    + specialize (K0 K _ _ _ _ Hd ltac:(congruence)). destruct (defs_get (c_defs k) j v) as [d|] eqn:Q; [|congruence].
      rewrite (ad_defs _ _ _ _ A2 _ _ _ (ad_defs _ _ _ _ A1 _ _ _ Q)). discriminate.
Qed.

(** ** Definitions of outputs *)

Lemma foldM_app {A S} (f : S -> A -> option S) xs ys s : foldM f (xs ++ ys) s = do s' <- foldM f xs s; foldM f ys s'.
Proof. revert s. induction xs as [|x xs IH]; intros s; cbn [app foldM obind]; [reflexivity|]. destruct (f s x); cbn [obind]; auto. Qed.

Definition ucall (f : nat) (s : tst) (c : nat * nat * semantics) : option tst := let '(i, x, sm) := c in do r <- define_unweighted f s i x sm; Some (snd r).

Lemma foldM_ext {A S} (f g : S -> A -> option S) xs : (forall s x, f s x = g s x) -> forall s, foldM f xs s = foldM g xs s.
Proof. intros E. induction xs as [|x xs IH]; intros s; cbn [foldM]; [reflexivity|]. rewrite E. destruct (g s x); cbn [obind]; auto. Qed.

Definition cert_spec (f : nat) : Prop := forall k p id idx sem ls buf init need l st',
  CInv k p -> names (t_nodes (c_t k)) (t_next (c_t k)) -> utree (t_nodes (c_t k)) id ls -> no_compl ls ->
  length buf = length ls -> (init = true -> buf = ls) -> define_unweighted f (c_t k) id idx sem = Some (l, st') ->
  exists k' p' buf' init', define_unweighted_cert f k id idx sem buf init need = Some (l, k', buf', init') /\ c_t k' = st' /\ go k p k' p' /\
    length buf' = length ls /\ (init' = true -> buf' = ls) /\ (need = true -> init' = true) /\ (init = true -> init' = true) /\
    olit (t_nodes st') id (idx + 1) = Some l.

Definition sel (sem : semantics) (len : nat) (v : nat) : bool := match sem with SIf => negb (v =? 0) | _ => negb (v =? len) end.
Definition cidx (con : nodecon) (sem : semantics) (v : nat) : nat := match sem with SIf => con_idx (v - 1) con | _ => con_idx v con end.

Lemma recurse_single_ok f con sem ls : cert_spec f -> sem = SIf \/ sem = SOnlyIf -> plain_con con -> no_compl ls ->
  forall range k p buf init st',
  CInv k p -> names (t_nodes (c_t k)) (t_next (c_t k)) -> utree (t_nodes (c_t k)) (nc_id con) ls ->
  length buf = length ls -> (init = true -> buf = ls) ->
  foldM (ucall f) (map (fun v => (nc_id con, cidx con sem v, sem)) (filter (sel sem (length ls)) range)) (c_t k) = Some st' ->
  exists k' p' buf' init', recurse_single (define_unweighted_cert f) con range sem k buf init = Some (k', buf', init') /\ c_t k' = st' /\ go k p k' p' /\
    length buf' = length ls /\ (init' = true -> buf' = ls) /\ (init = true -> init' = true) /\ ((exists v, In v range /\ sel sem (length ls) v = true) -> init' = true).
Proof.
  intros IH Hsem Pc NC. unfold recurse_single. rewrite (plain_conb_ok _ Pc). cbn [assertb obind].
  induction range as [|v range IHr]; intros k p buf init st' C N U Lb Hb H.
  - cbn in H. injection H as <-. exists k, p, buf, init. split; [reflexivity|]. split; [auto|]. split; [now apply go_refl|]. split; [auto|]. split; [auto|]. split; [auto|]. intros (v & [] & _).
  - cbn [foldM filter] in *. rewrite (con_len_utree _ _ _ Pc U). cbn [obind].
    destruct (sel sem (length ls) v) eqn:Es.
    + cbn [map foldM] in H. unfold ucall at 1 in H. destruct (define_unweighted f (c_t k) (nc_id con) (cidx con sem v) sem) as [(l, st1)|] eqn:E; [|discriminate]. cbn [obind snd] in H.
      destruct (IH k p (nc_id con) (cidx con sem v) sem ls buf init true l st1 C N U NC Lb Hb E) as (k1 & p1 & b1 & i1 & E1 & T1 & G1 & L1 & B1 & Nd & Ni).
      specialize (B1 (Nd eq_refl)). subst b1 st1.
      destruct (IHr k1 p1 ls true st') as (k' & p' & b' & i' & E2 & T2 & G2 & L2 & B2 & I2 & _); [apply (go_inv _ _ _ _ G1)|apply G1|eapply go_utree; eauto|auto|auto|exact H|].
      exists k', p', b', i'. split; [|split; [exact T2|split; [eapply go_trans; eauto|split; [auto|split; [auto|split; auto]]]]].
      destruct Hsem as [-> | ->]; cbn [sel] in Es; cbn [cidx] in E1; destruct (v =? _); try discriminate; rewrite E1; cbn [obind]; exact E2.
    + destruct (IHr k p buf init st' C N U Lb Hb H) as (k' & p' & b' & i' & E2 & T2 & G2 & L2 & B2 & I2 & J2).
      exists k', p', b', i'. split; [|split; [exact T2|split; [auto|split; [auto|split; [auto|split; [auto|]]]]]].
      * destruct Hsem as [-> | ->]; cbn [sel] in Es; destruct (v =? _); try discriminate; cbn [obind]; exact E2.
      * intros (w & [->|Hw] & Hs); [congruence|]. apply J2. eauto.
Qed.

Lemma utree_unit_inv ns id lits lcon rcon ls : utree ns id ls -> nth_error ns id = Some (NUnit lits lcon rcon) ->
  exists l r, ls = l ++ r /\ plain_con lcon /\ plain_con rcon /\ nc_mult lcon = 1 /\ nc_mult rcon = 1 /\ utree ns (nc_id lcon) l /\ utree ns (nc_id rcon) r /\ length lits = length l + length r.
Proof. intros U Hn. inversion U; subst; [congruence|]. rewrite Hn in H. injection H as <- <- <-. eauto 12. Qed.

Lemma precond_inv ns id idx sem ls out : utree ns id ls -> precond_unweighted ns id idx sem = Some out ->
  (exists l, out = PReturn l /\ olit ns id (idx + 1) = Some l) \/
  (exists lits lcon rcon l r new, nth_error ns id = Some (NUnit lits lcon rcon) /\ idx < length lits /\ utree ns (nc_id lcon) l /\ utree ns (nc_id rcon) r /\
     (new = SIf \/ new = SOnlyIf \/ new = SIff) /\
     out = PContinue (mkPre lcon rcon
              (if has_if new then range_incl (idx + 1 - Nat.min (length r) (idx + 1)) (Nat.min (length l) (idx + 1)) else [])
              (if has_if new then range_incl (idx + 1 - Nat.min (length l) (idx + 1)) (Nat.min (length r) (idx + 1)) else [])
              (if has_only_if new then range_incl (idx - Nat.min (length r) idx) (Nat.min (length l) idx) else [])
              (if has_only_if new then range_incl (idx - Nat.min (length l) idx) (Nat.min (length r) idx) else []))).
Proof.
  intros U H. unfold precond_unweighted in H. destruct (nth_error ns id) as [n|] eqn:Hn; [|discriminate]. cbn [obind] in H.
  destruct (assertb (idx <? node_max_val n)) eqn:Ea; [|discriminate]. cbn [obind] in H.
  destruct n as [l|lits lcon rcon|?|]; try discriminate.
  - destruct (Nat.eqb_spec idx 0) as [->|]; [|discriminate]. injection H as <-. left. exists l. split; [auto|]. unfold olit. rewrite Hn. reflexivity.
  - destruct (utree_unit_inv _ _ _ _ _ _ U Hn) as (ll & rr & -> & Pl & Pr & Ml & Mr & Ul & Ur & Hlen).
    destruct (utree_node _ _ _ Ul) as (nl & Hnl & Hul & _). destruct (utree_node _ _ _ Ur) as (nr & Hnr & Hur & _).
    rewrite Hnl, Hnr in H. cbn [obind] in H.
    destruct (assertb (negb (is_general nl) && negb (is_general nr))); [|discriminate]. cbn [obind] in H.
    destruct (assertb ((nc_mult lcon =? 1) && (nc_mult rcon =? 1))); [|discriminate]. cbn [obind] in H.
    destruct (nth_error lits idx) as [dat|] eqn:Hd; [|discriminate]. cbn [obind] in H.
    destruct (ld_missing dat sem) as [new|] eqn:Em.
    + assert (Dl : is_dummy nl = false) by (destruct nl; cbn in Hul; tauto || reflexivity).
      assert (Dr : is_dummy nr = false) by (destruct nr; cbn in Hur; tauto || reflexivity). rewrite Dl, Dr in H. cbn [orb] in H.
      rewrite (con_len_utree _ _ _ Pl Ul), (con_len_utree _ _ _ Pr Ur) in H. cbn [obind] in H. injection H as <-.
      right. exists lits, lcon, rcon, ll, rr, new. split; [auto|]. split; [apply nth_error_Some; congruence|]. split; [auto|]. split; [auto|]. split; [destruct new; auto|reflexivity].
    + destruct dat as [|x s]; [discriminate|]. injection H as <-. left. exists x. split; [auto|]. unfold olit. rewrite Hn. cbn [obind node_lit].
      replace (idx + 1 =? 0) with false by lia. replace (idx + 1 - 1) with idx by lia. rewrite Hd. reflexivity.
Qed.

Lemma define_cert_ok : forall f, cert_spec f.
Proof.
  induction f as [|f IH]; intros k p id idx sem ls buf init need l st' C N U NC Lb Hb H; [discriminate|].
  cbn [define_unweighted] in H. cbn [define_unweighted_cert]. rewrite (n_leaves_ok _ _ _ U). cbn [obind]. rewrite Lb, Nat.eqb_refl. cbn [assertb obind].
  destruct (precond_unweighted (t_nodes (c_t k)) id idx sem) as [out|] eqn:Ep; [|discriminate]. cbn [obind] in *.
  destruct (precond_inv _ _ _ _ _ _ U Ep) as [(l0 & -> & Ho)|(lits & lcon & rcon & ll & rr & new & Hn & Hidx & Ul & Ur & Hnew & ->)].
  - injection H as <- <-. destruct (need && negb init) eqn:En.
    + rewrite (leaf_lits_ok _ _ _ U). cbn [obind]. rewrite Nat.eqb_refl. cbn [assertb obind]. exists k, p, ls, true.
      split; [reflexivity|]. split; [auto|]. split; [now apply go_refl|]. auto 7.
    + exists k, p, buf, init. split; [reflexivity|]. split; [auto|]. split; [now apply go_refl|]. split; [auto|]. split; [auto|]. split; [|auto]. intros ->. destruct init; [auto|discriminate].
  - destruct (utree_unit_inv _ _ _ _ _ _ U Hn) as (ll' & rr' & -> & Pl & Pr & Ml & Mr & Ul' & Ur' & Hlen).
    rewrite (utree_fun _ _ _ Ul _ Ul') in *. rewrite (utree_fun _ _ _ Ur _ Ur') in *. clear Ul' Ur' ll' rr'.
    set (pre := mkPre lcon rcon _ _ _ _) in *. cbv zeta in H.
    unfold recurse_calls in H. change (u_lcon pre) with lcon in *. change (u_rcon pre) with rcon in *.
    rewrite (con_len_utree _ _ _ Pl Ul), (con_len_utree _ _ _ Pr Ur) in H. cbn [obind] in H.
    rewrite (foldM_ext _ (ucall f)) in H by (intros s ((i & x) & sm); reflexivity).
    rewrite foldM_app in H.
    rewrite (plain_conb_ok _ Pl), (plain_conb_ok _ Pr). cbn [andb assertb obind]. rewrite (n_leaves_ok _ _ _ Ul). cbn [obind].
    pose proof (app_length ll rr) as Hal. replace (length ll <=? _) with true by lia. cbn [assertb obind].
    destruct (foldM (ucall f) (map _ (filter _ (u_left_if pre))) (c_t k)) as [s1|] eqn:E1; [|discriminate]. cbn [obind] in H. rewrite foldM_app in H.
    destruct (foldM (ucall f) (map _ (filter _ (u_right_if pre))) s1) as [s2|] eqn:E2; [|discriminate]. cbn [obind] in H. rewrite foldM_app in H.
    destruct (foldM (ucall f) (map _ (filter _ (u_left_only_if pre))) s2) as [s3|] eqn:E3; [|discriminate]. cbn [obind] in H.
    destruct (foldM (ucall f) (map _ (filter _ (u_right_only_if pre))) s3) as [s4|] eqn:E4; [|discriminate]. cbn [obind] in H.
    assert (NCl : no_compl ll) by (eapply no_compl_sub; [|exact NC]; intros; apply in_or_app; auto).
    assert (NCr : no_compl rr) by (eapply no_compl_sub; [|exact NC]; intros; apply in_or_app; auto).
    destruct (recurse_single_ok f lcon SIf ll IH (or_introl eq_refl) Pl NCl (u_left_if pre) k p (firstn (length ll) buf) init s1 C N Ul) as (k1 & p1 & b1 & i1 & R1 & T1 & G1 & L1 & B1 & I1 & J1).
    { rewrite firstn_length. lia. } { intros Hi. rewrite (Hb Hi), firstn_app, Nat.sub_diag, firstn_all. cbn [firstn]. apply app_nil_r. } { exact E1. }
    subst s1. rewrite R1. cbn [obind].
    destruct (recurse_single_ok f rcon SIf rr IH (or_introl eq_refl) Pr NCr (u_right_if pre) k1 p1 (skipn (length ll) buf) init s2 (go_inv _ _ _ _ G1) (go_names _ _ _ _ G1) (go_utree _ _ _ _ _ _ G1 Ur)) as (k2 & p2 & b2 & i2 & R2 & T2 & G2 & L2 & B2 & I2 & J2).
    { rewrite skipn_length. lia. } { intros Hi. rewrite (Hb Hi), skipn_app, Nat.sub_diag, skipn_all. reflexivity. } { exact E2. }
    subst s2. rewrite R2. cbn [obind]. pose proof (go_trans _ _ _ _ _ _ G1 G2) as G12.
    destruct (recurse_single_ok f lcon SOnlyIf ll IH (or_intror eq_refl) Pl NCl (u_left_only_if pre) k2 p2 b1 i1 s3 (go_inv _ _ _ _ G2) (go_names _ _ _ _ G2) (go_utree _ _ _ _ _ _ G12 Ul) L1 B1 E3) as (k3 & p3 & b3 & i3 & R3 & T3 & G3 & L3 & B3 & I3 & J3).
    subst s3. rewrite R3. cbn [obind]. pose proof (go_trans _ _ _ _ _ _ G12 G3) as G13.
    destruct (recurse_single_ok f rcon SOnlyIf rr IH (or_intror eq_refl) Pr NCr (u_right_only_if pre) k3 p3 b2 i2 s4 (go_inv _ _ _ _ G3) (go_names _ _ _ _ G3) (go_utree _ _ _ _ _ _ G13 Ur) L2 B2 E4) as (k4 & p4 & b4 & i4 & R4 & T4 & G4 & L4 & B4 & I4 & J4).
    subst s4. rewrite R4. cbn [obind]. pose proof (go_trans _ _ _ _ _ _ G13 G4) as G14.
    pose proof (utree_pos _ _ _ Ul) as Hpl. pose proof (utree_pos _ _ _ Ur) as Hpr.
    assert (Hi3 : i3 = true).
    { destruct (has_if new) eqn:Eh.
      - apply I3, J1. exists (Nat.min (length ll) (idx + 1)). subst pre. cbn [u_left_if sel]. rewrite ?Eh. split; [apply in_range_incl; lia|lia].
      - assert (Eo : has_only_if new = true) by (destruct Hnew as [-> |[-> | ->]]; cbn in *; congruence).
        apply J3. exists (idx - Nat.min (length rr) idx). subst pre. cbn [u_left_only_if sel]. rewrite ?Eo. split; [apply in_range_incl; lia|lia]. }
    assert (Hi4 : i4 = true).
    { destruct (has_if new) eqn:Eh.
      - apply I4, J2. exists (Nat.min (length rr) (idx + 1)). subst pre. cbn [u_right_if sel]. rewrite ?Eh. split; [apply in_range_incl; lia|lia].
      - assert (Eo : has_only_if new = true) by (destruct Hnew as [-> |[-> | ->]]; cbn in *; congruence).
        apply J4. exists (idx - Nat.min (length ll) idx). subst pre. cbn [u_right_only_if sel]. rewrite ?Eo. split; [apply in_range_incl; lia|lia]. }
    rewrite Hi3, Hi4. cbn [andb assertb obind]. rewrite (B3 Hi3), (B4 Hi4).
    destruct (get_olit (c_t k4) id idx) as [(o, st5)|] eqn:Eg; [|discriminate]. cbn [obind] in *.
    destruct (unit_same_skel _ _ _ _ _ _ (proj1 (go_more _ _ _ _ G14)) Hn) as (lits4 & Hn4 & HL4).
    destruct (get_olit_go k4 p4 id lits4 lcon rcon idx o st5 (go_inv _ _ _ _ G4) (go_names _ _ _ _ G4) Hn4 Eg) as (G5 & Ho).
    pose proof (go_trans _ _ _ _ _ _ G14 G5) as G15.
    destruct (unit_same_skel _ _ _ _ _ _ (proj1 (go_more _ _ _ _ G15)) Hn) as (lits5 & Hn5 & HL5).
    destruct (encode_unweighted st5 id idx o sem pre) as [st6|] eqn:E6; [|discriminate]. cbn [obind] in H. injection H as <- <-.
    destruct (encode_cert_ok (with_t k4 st5) p4 id lits5 lcon rcon ll rr pre idx o sem st6) as (k6 & p6 & R6 & T6 & G6).
    { apply (go_inv _ _ _ _ G5). } { apply G5. } { exact Hn5. } { auto. } { auto. } { auto. } { auto. }
    { exact (go_utree _ _ _ _ _ _ G15 Ul). } { exact (go_utree _ _ _ _ _ _ G15 Ur). } { lia. } { exact NC. } { reflexivity. } { reflexivity. } { lia. } { exact Ho. }
    { intros v. subst pre. cbn [u_left_if]. destruct (has_if new); [|intros []]. rewrite in_range_incl. lia. }
    { intros v. subst pre. cbn [u_left_only_if]. destruct (has_only_if new); [|intros []]. rewrite in_range_incl. lia. }
    { subst pre. cbn [u_left_if u_left_only_if]. destruct (has_if new) eqn:Eh.
      - left. intros X. assert (Y : In (Nat.min (length ll) (idx + 1)) []) by (rewrite <- X; apply in_range_incl; lia). destruct Y.
      - right. assert (Eo : has_only_if new = true) by (destruct Hnew as [-> |[-> | ->]]; cbn in *; congruence). rewrite Eo. intros X.
        assert (Y : In (Nat.min (length ll) idx) []) by (rewrite <- X; apply in_range_incl; lia). destruct Y. }
    { exact E6. }
    rewrite R6. cbn [obind]. exists k6, p6, (ll ++ rr), true. split; [reflexivity|]. split; [auto|]. split; [eapply go_trans; [exact G15|exact G6]|].
    subst st6. pose proof (proj2 (go_more _ _ _ _ G6) _ _ _ Ho). auto 7.
Qed.
