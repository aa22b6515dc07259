(** * The binary adder encoding: invariant over all histories *)

From Coq Require Import List Bool NArith ZArith Lia Arith Permutation.
From Coq Require Import ZifyBool ZifyNat ZifyN.
From Verif Require Import Spec BoundSpec Types Constraints Maps NodeDb Totalizer Adder Base AdderSem AdderNodes.
From Verif Require Import TotalizerProofs GteProofs.
Import ListNotations.

(** ** The bits of the outputs *)
Definition obit (nodes : list anode) (o : option acon) (b : option lit) : Prop :=
  match o, b with Some k, Some l => bitof nodes k = Some l | None, None => True | _, _ => False end.
Definition obits (nodes : list anode) (outs : list (option acon)) (lhs : list (option lit)) : Prop := Forall2 (obit nodes) outs lhs.

Lemma obits_length nodes outs lhs : obits nodes outs lhs -> length lhs = length outs.
Proof. induction 1; cbn; auto. Qed.
Lemma obits_mono nodes nodes' outs lhs : mono nodes nodes' -> obits nodes outs lhs -> obits nodes' outs lhs.
Proof. intros M. apply Forall2_imp. intros [k|] [l|]; cbn [obit]; auto. now apply bitof_mono. Qed.
Lemma obits_fun nodes outs l1 l2 : obits nodes outs l1 -> obits nodes outs l2 -> l1 = l2.
Proof.
  intros H. revert l2. induction H as [|o b outs bs H _ IH]; intros l2 H2; inversion H2 as [|? b2 ? bs2 Hb Hbs]; subst; [auto|]. f_equal; [|auto].
  destruct o as [k|], b as [x|], b2 as [y|]; cbn [obit] in *; try contradiction; congruence.
Qed.
Lemma obits_in nodes outs lhs l : obits nodes outs lhs -> In (Some l) lhs -> exists k, In (Some k) outs /\ bitof nodes k = Some l.
Proof.
  induction 1 as [|o b outs bs H _ IH]; [intros []|]. intros [->|Hl].
  - destruct o as [k|]; [|destruct H]. exists k. cbn. auto.
  - destruct (IH Hl) as (k & ? & ?). exists k. cbn. auto.
Qed.

Definition bvof (a : asg) (nodes : list anode) (k : acon) : bool := match bitof nodes k with Some l => lit_true a l | None => false end.
Lemma obits_hv a nodes outs lhs : obits nodes outs lhs -> hv (lit_true a) lhs = hv (bvof a nodes) outs.
Proof.
  induction 1 as [|o b outs bs H _ IH]; cbn [hv]; [auto|]. rewrite IH. f_equal. destruct o as [k|], b as [l|]; cbn [obit] in H; try contradiction; [|auto].
  cbn [oval]. unfold bvof. now rewrite H.
Qed.
Lemma obits_val inp D F nodes next outs lhs a m : good inp D F nodes next -> (forall k, In (Some k) outs -> con_ok inp m k) -> obits nodes outs lhs ->
  hv (lit_true (cval D a)) lhs = hv (cv (lit_true a) (shapes nodes)) outs.
Proof.
  intros G K H. rewrite (obits_hv _ nodes outs) by auto. clear -G K H. revert K. induction H as [|o b outs bs H _ IH]; intros K; cbn [hv]; [auto|].
  rewrite IH by (intros; apply K; now right). f_equal. destruct o as [k|], b as [l|]; cbn [obit] in H; try contradiction; [|auto]. cbn [oval]. unfold bvof. rewrite H.
  f_equal. eapply bitof_val; eauto. apply K. now left.
Qed.

Lemma enc_outs_ok inp F0 d : forall outs D nodes cs next, good inp D (F0 ++ cs) nodes next -> (forall k, In (Some k) outs -> con_ok inp (length nodes) k) ->
  exists lhs D' nodes' cs' next', enc_outs d outs (nodes, cs, next) = Some (lhs, (nodes', cs', next')) /\
    enc_post inp F0 d (length nodes) D nodes cs next D' nodes' cs' next' /\ obits nodes' outs lhs /\
    (flags_ok d (F0 ++ cs) nodes (length nodes) -> forall p' k, In (Some (APort p' k)) outs -> enc_done d (F0 ++ cs') nodes' p' k).
Proof.
  induction outs as [|o outs IH]; intros D nodes cs next G K; cbn [enc_outs].
  { exists [], D, nodes, cs, next. split; [reflexivity|]. split; [now apply enc_post_refl|]. split; [constructor|]. intros _ p' k []. }
  destruct o as [k|].
  2: { destruct (IH D nodes cs next G) as (lhs & D2 & nodes2 & cs2 & next2 & E2 & P2 & B2 & Dn2); [intros; apply K; now right|]. rewrite E2. cbn [obind fst snd].
       exists (None :: lhs), D2, nodes2, cs2, next2. split; [reflexivity|]. split; [auto|]. split; [constructor; [exact Logic.I|auto]|]. intros H p' k [H1|H1]; [discriminate|auto]. }
  assert (T : exists b D1 nodes1 cs1 next1, match k with AIn l => Some (l, (nodes, cs, next)) | APort p n => enc_bit (S n) d p n (nodes, cs, next) end = Some (b, (nodes1, cs1, next1)) /\
     enc_post inp F0 d (length nodes) D nodes cs next D1 nodes1 cs1 next1 /\ bitof nodes1 k = Some b /\ (flags_ok d (F0 ++ cs) nodes (length nodes) -> forall p' j, k = APort p' j -> enc_done d (F0 ++ cs1) nodes1 p' j)).
  { specialize (K k (or_introl eq_refl)). destruct k as [l|p j]; cbn [con_ok] in K.
    - exists l, D, nodes, cs, next. split; [reflexivity|]. split; [now apply enc_post_refl|]. split; [reflexivity|]. discriminate.
    - destruct (enc_bit_ok inp F0 (S j) d p j D nodes cs next G ltac:(lia) ltac:(lia)) as (b & D1 & nodes1 & cs1 & next1 & E & P & B & Dn).
      exists b, D1, nodes1, cs1, next1. split; [auto|]. split; [eapply enc_post_weaken; [|eauto]; lia|]. split; [auto|]. intros H1 p' j' [= <- <-]. apply Dn.
      intros x y z w Lx. apply H1. lia. }
  destruct T as (b & D1 & nodes1 & cs1 & next1 & E1 & P1 & B1 & Dn1).
  match goal with |- context [obind ?X _] => replace X with (Some (b, (nodes1, cs1, next1)) : option (lit * estate)) by (symmetry; exact E1) end. cbn [obind fst snd].
  pose proof P1 as (G1 & X1 & M1 & I1 & U1 & Fl1). assert (L1 := shapes_length _ _ (proj1 M1)).
  destruct (IH D1 nodes1 cs1 next1 G1) as (lhs & D2 & nodes2 & cs2 & next2 & E2 & P2 & B2 & Dn2); [rewrite L1; intros; apply K; now right|].
  rewrite E2. cbn [obind fst snd]. pose proof P2 as (G2 & X2 & M2 & I2 & U2 & Fl2). rewrite L1 in *.
  exists (Some b :: lhs), D2, nodes2, cs2, next2. split; [reflexivity|]. split; [eapply enc_post_trans; eauto|]. split.
  - constructor; [cbn [obit]; eapply bitof_mono; eauto|auto].
  - intros H p' j [[= ->]|Hj]; [eapply enc_done_mono; [exact M2|exact I2|]; eauto|]. apply Dn2; [|auto]. apply Fl1; [|auto]. destruct d; auto.
Qed.

(** ** All nodes are encoded *)
Definition covered (nodes : list anode) (outs : list (option acon)) : Prop :=
  forall p n, (n < length nodes)%nat -> In (Some (APort p n)) outs \/ used nodes (APort p n).
Definition all_done (d : dir) (F : cnf) (nodes : list anode) : Prop := forall p n, (n < length nodes)%nat -> cl_in d F nodes p n.

Lemma covered_done inp D F nodes next outs d : good inp D F nodes next -> covered nodes outs ->
  (forall p k, In (Some (APort p k)) outs -> enc_done d F nodes p k) -> all_done d F nodes.
Proof.
  intros G C H. assert (K : forall m p n, (length nodes - n <= m)%nat -> (n < length nodes)%nat -> enc_done d F nodes p n).
  { induction m as [|m IH]; intros p n L Ln; [lia|]. destruct (C p n Ln) as [Ho|(i & nd & Hi & Hk)]; [auto|].
    pose proof (g_kids _ _ _ _ _ G _ _ _ Hi Hk) as Ki. cbn in Ki. assert (Li : (i < length nodes)%nat) by (apply nth_error_Some; congruence).
    assert (Di : enc_done d F nodes PSum i) by (apply IH; lia). inversion Di as [p0 n0 nd0 Hn0 _ Hd]; subst. assert (nd0 = nd) as -> by congruence. apply Hd; [destruct d; reflexivity|auto]. }
  intros p n Ln. specialize (K (length nodes) p n ltac:(lia) Ln). now destruct K.
Qed.

Definition dir_rel (d : dir) : nat -> nat -> Prop := match d with DIf => ge | DOnly => le end.
Lemma dir_rel_ok d : rel_ok (dir_rel d).
Proof. destruct d; [exact rel_ge|exact rel_le]. Qed.

Lemma sat_incl a F F' : incl F F' -> sat_cnf a F' = true -> sat_cnf a F = true.
Proof. rewrite !sat_cnf_true. auto. Qed.

Lemma all_done_rel d F nodes a : all_done d F nodes -> sat_cnf a F = true -> forall n nd, nth_error nodes n = Some nd -> node_rel (dir_rel d) (bvof a nodes) n (an_sh nd).
Proof.
  intros H S n nd Hn. assert (L : (n < length nodes)%nat) by (apply nth_error_Some; congruence).
  assert (K : forall p, dir_says d (pv p (cnt (bvof a nodes) (kids (an_sh nd)))) (bvof a nodes (APort p n))).
  { intros p. destruct (H p n L) as (nd' & o & bits & Hn' & Ho & Hb & Hi). assert (nd' = nd) as -> by congruence.
    assert (bvof a nodes (APort p n) = lit_true a (o_bit o)) as -> by (unfold bvof; cbn; rewrite Hn, Ho; reflexivity).
    apply (node_clauses_spec d p bits (o_bit o) a (an_sh nd) (bvof a nodes)); [|eapply sat_incl; eauto].
    eapply Forall2_imp; [|exact Hb]. intros k b E. cbv beta in E. unfold bvof. now rewrite E. }
  pose proof (kids_cnt (bvof a nodes) (an_sh nd)) as C. pose proof (pv_split _ C) as S'. unfold node_rel. pose proof (K PSum) as K1. pose proof (K PCarry) as K2.
  set (c := cnt _ _) in *. destruct d; cbn [dir_rel dir_says] in *; destruct (pv PSum c), (pv PCarry c), (bvof a nodes (APort PSum n)), (bvof a nodes (APort PCarry n)); cbn [b2n] in *;
    try specialize (K1 eq_refl); try specialize (K2 eq_refl); try discriminate; lia.
Qed.

(** ** The comparators *)
Fixpoint enc_comp (d : dir) (lhs : list (option lit)) (val n : nat) (comp : list (option aout)) (next : N) : option (list (option aout) * cnf * N) :=
  match n with
  | O => Some (comp, [], next)
  | S n' =>
      do c <- nth_error comp val;
      match (match c with
             | Some o => if o_if o then None else Some (set_flag d o, next)
             | None => Some (set_flag d (mkOut (mkLit next false) false false), (next + 1)%N)
             end) with
      | None => enc_comp d lhs (S val) n' comp next
      | Some (o, next1) =>
          do cs <- (do _ <- assertb (val <? 2 ^ length lhs)%nat; Some (comp_clauses d val (o_bit o) lhs));
          do r <- enc_comp d lhs (S val) n' (set_nth comp val (Some o)) next1;
          let '(comp2, cs2, next2) := r in Some (comp2, cs ++ cs2, next2)
      end
  end.
Lemma enc_comp_eq d lhs n : forall val comp next,
  match d with DIf => enc_comp_if lhs val n comp next | DOnly => enc_comp_only lhs val n comp next end = enc_comp d lhs val n comp next.
Proof.
  induction n as [|n IH]; intros val comp next; [destruct d; reflexivity|]. cbn [enc_comp]. destruct d; cbn [enc_comp_if enc_comp_only].
  - destruct (nth_error comp val) as [[o|]|]; cbn [obind]; [|rewrite IH; reflexivity|reflexivity].
    destruct (o_if o); [apply IH|]. rewrite IH. reflexivity.
  - assert (C : forall rhs o, comparator_only_if rhs o lhs = (do _ <- assertb (rhs <? 2 ^ length lhs)%nat; Some (comp_clauses DOnly rhs o lhs))).
    { intros rhs o. unfold comparator_only_if, comp_clauses. destruct (assertb (rhs <? 2 ^ length lhs)%nat); cbn [obind]; [|auto]. destruct (_ =? _)%nat; reflexivity. }
    destruct (nth_error comp val) as [[o|]|]; cbn [obind]; [|rewrite IH, C; reflexivity|reflexivity].
    cbn [set_flag]. destruct (o_if o); [apply IH|]. rewrite IH, C. reflexivity.
Qed.

(** what comparator outputs stand for *)
Definition comp_def (D : defs) (nodes : list anode) (outs : list (option acon)) (comp : list (option aout)) : Prop :=
  forall k o, nth_error comp k = Some (Some o) -> lneg (o_bit o) = false /\ exists f, D (lvar (o_bit o)) = Some f /\
    forall a, f a = (k <? hv (cv (lit_true a) (shapes nodes)) outs)%nat.

Lemma good_define inp D F nodes next f : good inp D F nodes next ->
  good inp (fun v => if (v =? next)%N then Some f else D v) F nodes (next + 1) /\ dext D (fun v => if (v =? next)%N then Some f else D v) next (next + 1).
Proof.
  intros G. assert (Dn : D next = None) by (destruct (D next) as [g|] eqn:E; [apply (g_dom _ _ _ _ _ G) in E; lia|auto]).
  assert (X : dext D (fun v => if (v =? next)%N then Some f else D v) next (next + 1)).
  { constructor; [lia| |].
    - intros v g Hv. destruct (N.eqb_spec v next); [congruence|auto].
    - intros v Hv. destruct (N.eqb_spec v next); [lia|congruence]. }
  split; [|exact X]. destruct G as [G1 G2 G3 G4 G5 G6]. constructor; auto.
  - intros v g. destruct (N.eqb_spec v next); [lia|]. intros Hv. apply G1 in Hv. lia.
  - intros v Hv. apply G2 in Hv as (V1 & V2). split; [lia|]. destruct (N.eqb_spec v next); [lia|auto].
  - intros c l Hc Hl. destruct (G3 c l Hc Hl) as [?|?]; [auto|]. right. destruct (N.eqb_spec (lvar l) next); [discriminate|auto].
  - intros a. rewrite <- (G4 a). apply sat_cnf_agree. intros c l Hc Hl. unfold cval. destruct (G3 c l Hc Hl) as [Hi|Hi].
    + apply G2 in Hi as (V1 & V2). destruct (N.eqb_spec (lvar l) next); [lia|auto].
    + destruct (D (lvar l)) as [g|] eqn:E; [|congruence]. apply G1 in E. destruct (N.eqb_spec (lvar l) next); [lia|auto].
  - intros n nd p o Hn Ho. destruct (G6 _ _ _ _ Hn Ho) as (S1 & g & Dg & Hg). split; [auto|]. exists g. split; [|auto]. now apply (dx_keep _ _ _ _ X).
Qed.

Lemma flag_set d dd o : flag dd (set_flag d o) = true -> dd = d \/ flag dd o = true.
Proof. destruct d, dd; cbn; auto. Qed.
Lemma flag_keep d dd o : flag dd o = true -> flag dd (set_flag d o) = true.
Proof. destruct d, dd; cbn; auto. Qed.
Lemma flag_same d o : flag d (set_flag d o) = true.
Proof. destruct d; reflexivity. Qed.
Lemma bit_set d o : o_bit (set_flag d o) = o_bit o.
Proof. destruct d; reflexivity. Qed.

Lemma enc_comp_ok inp d nodes outs lhs m : obits nodes outs lhs -> (forall k, In (Some k) outs -> con_ok inp m k) ->
  forall n val D F comp next, good inp D F nodes next -> comp_def D nodes outs comp -> (val + n <= length comp)%nat ->
  (forall k, (val <= k < val + n)%nat -> (k < 2 ^ length outs)%nat) ->
  exists comp' cs' next' D', enc_comp d lhs val n comp next = Some (comp', cs', next') /\
    good inp D' (F ++ cs') nodes next' /\ dext D D' next next' /\ comp_def D' nodes outs comp' /\ length comp' = length comp /\
    (forall k o, nth_error comp k = Some (Some o) -> exists o', nth_error comp' k = Some (Some o') /\ o_bit o' = o_bit o /\ forall dd, flag dd o = true -> flag dd o' = true) /\
    (forall k o' dd, nth_error comp' k = Some (Some o') -> flag dd o' = true ->
       dd = d /\ incl (comp_clauses d k (o_bit o') lhs) (F ++ cs') \/ exists o, nth_error comp k = Some (Some o) /\ o_bit o' = o_bit o /\ flag dd o = true) /\
    (forall k, (val <= k < val + n)%nat -> exists o', nth_error comp' k = Some (Some o') /\ (flag d o' = true \/ flag DIf o' = true)).
Proof.
  intros B K. induction n as [|n IH]; intros val D F comp next G C L V; cbn [enc_comp].
  { exists comp, [], next, D. split; [reflexivity|]. rewrite app_nil_r. split; [auto|]. split; [apply dext_refl|]. split; [auto|]. split; [auto|].
    split; [eauto|]. split; [eauto|]. intros; lia. }
  destruct (nth_error comp val) as [c|] eqn:Ec; [|apply nth_error_None in Ec; lia]. cbn [obind].
  assert (Lv : (val < length comp)%nat) by lia.
  assert (T : (exists o, c = Some o /\ o_if o = true) \/
    exists o D1 next1, match c with Some o => if o_if o then None else Some (set_flag d o, next) | None => Some (set_flag d (mkOut (mkLit next false) false false), (next + 1)%N) end = Some (o, next1) /\
      good inp D1 F nodes next1 /\ dext D D1 next next1 /\ comp_def D1 nodes outs (set_nth comp val (Some o)) /\ flag d o = true /\
      (forall o0, c = Some o0 -> o_bit o = o_bit o0 /\ forall dd, flag dd o0 = true -> flag dd o = true) /\
      (forall dd, flag dd o = true -> dd = d \/ exists o0, c = Some o0 /\ o_bit o = o_bit o0 /\ flag dd o0 = true)).
  { destruct c as [o|].
    - destruct (o_if o) eqn:Ei; [left; eauto|]. right. exists (set_flag d o), D, next. split; [auto|]. split; [auto|]. split; [apply dext_refl|]. split; [|split; [apply flag_same|split]].
      + intros k x Hx. destruct (Nat.eq_dec k val) as [->|N]; [rewrite set_nth_same in Hx by auto; injection Hx as <-; rewrite bit_set; eauto|rewrite set_nth_other in Hx by auto; eauto].
      + intros o0 [= <-]. rewrite bit_set. split; [auto|]. intros dd. apply flag_keep.
      + intros dd H. apply flag_set in H as [->|H]; [auto|]. right. exists o. rewrite bit_set. auto.
    - right. set (o := set_flag d (mkOut (mkLit next false) false false)). destruct (good_define inp D F nodes next (fun a => val <? hv (cv (lit_true a) (shapes nodes)) outs)%nat G) as (G1 & X1).
      eexists o, _, (next + 1)%N. split; [reflexivity|]. split; [exact G1|]. split; [exact X1|]. split; [|split; [apply flag_same|split; [discriminate|]]].
      + intros k x Hx. destruct (Nat.eq_dec k val) as [->|N].
        * rewrite set_nth_same in Hx by auto. injection Hx as <-. unfold o. rewrite bit_set. cbn [o_bit lneg lvar]. split; [auto|]. rewrite N.eqb_refl. eauto.
        * rewrite set_nth_other in Hx by auto. destruct (C k x Hx) as (S1 & f & Df & Hf). split; [auto|]. exists f. split; [|auto]. now apply (dx_keep _ _ _ _ X1).
      + intros dd H. apply flag_set in H as [->|H]; [auto|]. destruct dd; discriminate H. }
  destruct T as [(o & -> & Ei)|(o & D1 & next1 & -> & G1 & X1 & C1 & Fd & Fk & Fn)].
  { rewrite Ei. destruct (IH (S val) D F comp next G C ltac:(lia)) as (comp' & cs' & next' & D' & E & G' & X' & C' & L' & P1 & P2 & P3); [intros; apply V; lia|].
    exists comp', cs', next', D'. split; [auto|]. split; [auto|]. split; [auto|]. split; [auto|]. split; [auto|]. split; [auto|]. split; [auto|].
    intros k Hk. destruct (Nat.eq_dec k val) as [->|N]; [|apply P3; lia]. destruct (P1 _ _ Ec) as (o' & E' & _ & Ff). exists o'. split; [auto|]. right. now apply Ff. }
  rewrite (obits_length _ _ _ B). replace (val <? 2 ^ length outs)%nat with true by (symmetry; apply Nat.ltb_lt, V; lia). cbn [assertb obind].
  assert (Hval : forall a, hv (lit_true (cval D1 a)) lhs = hv (cv (lit_true a) (shapes nodes)) outs) by (intros a; eapply obits_val; eauto).
  destruct (C1 val o (set_nth_same _ _ _ Lv)) as (So & f & Df & Hf).
  assert (G2 : good inp D1 (F ++ comp_clauses d val (o_bit o) lhs) nodes next1).
  { apply good_clauses; [auto| |].
    - intros a. apply comp_clauses_spec; [rewrite (obits_length _ _ _ B); apply V; lia|]. rewrite Hval. unfold lit_true, cval. rewrite So, Df, Hf. cbn [xorb].
      destruct d; cbn [comp_says]; destruct (Nat.ltb_spec val (hv (cv (lit_true a) (shapes nodes)) outs)); try discriminate; auto.
    - intros x l Hx Hl. destruct (comp_clauses_lits d val (o_bit o) lhs x l Hx Hl) as [->|(y & Hy & ->)]; [right; congruence|].
      destruct (obits_in _ _ _ _ B Hy) as (k & Hk & Eb). eapply bitof_lit; eauto. }
  destruct (IH (S val) D1 _ (set_nth comp val (Some o)) next1 G2 C1) as (comp' & cs' & next' & D' & E & G' & X' & C' & L' & P1 & P2 & P3); [rewrite set_nth_length by auto; lia|intros; apply V; lia|].
  rewrite E. cbn [obind]. rewrite <- app_assoc in *. rewrite set_nth_length in L' by auto.
  exists comp', (comp_clauses d val (o_bit o) lhs ++ cs'), next', D'. split; [reflexivity|]. split; [auto|]. split; [eapply dext_trans; eauto|]. split; [auto|]. split; [auto|].
  split; [|split].
  - intros k x Hx. destruct (Nat.eq_dec k val) as [->|N].
    + assert (c = Some x) as -> by congruence. destruct (Fk x eq_refl) as (Eb & Hfl). destruct (P1 val o (set_nth_same _ _ _ Lv)) as (o' & E' & Eb' & Hfl').
      exists o'. split; [auto|]. split; [congruence|auto].
    + apply P1. rewrite set_nth_other; auto.
  - intros k o' dd Hk Hd. destruct (P2 k o' dd Hk Hd) as [(-> & Hi)|(o1 & H1 & Eb & Hd1)]; [auto|]. destruct (Nat.eq_dec k val) as [->|N].
    + rewrite set_nth_same in H1 by auto. injection H1 as <-. destruct (Fn dd Hd1) as [->|(o0 & -> & Eb0 & Hf0)].
      * left. split; [auto|]. rewrite Eb. intros x Hx. apply in_or_app. right. apply in_or_app. auto.
      * right. exists o0. split; [auto|]. split; [congruence|auto].
    + rewrite set_nth_other in H1 by auto. eauto.
  - intros k Hk. destruct (Nat.eq_dec k val) as [->|N]; [|apply P3; lia]. destruct (P1 val o (set_nth_same _ _ _ Lv)) as (o' & E' & _ & Hfl). exists o'. split; [auto|]. left. now apply Hfl.
Qed.
