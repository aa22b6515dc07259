(** * The adder network: encoding its nodes *)

From Coq Require Import List Bool NArith ZArith Lia Arith Permutation.
From Coq Require Import ZifyBool ZifyNat ZifyN.
From Verif Require Import Spec BoundSpec Types Constraints Maps NodeDb Totalizer Adder Base AdderSem.
Import ListNotations.

(** ** The value of the nodes *)
Definition pval (p : port) (v : bool * bool) : bool := match p with PSum => fst v | PCarry => snd v end.
Definition conv (g : lit -> bool) (vs : list (bool * bool)) (k : acon) : bool :=
  match k with AIn l => g l | APort p n => pval p (nth n vs (false, false)) end.
Definition pv (p : port) (c : nat) : bool := match p with PSum => Nat.odd c | PCarry => (2 <=? c)%nat end.
Definition nval (g : lit -> bool) (vs : list (bool * bool)) (sh : shape) : bool * bool :=
  let c := cnt (conv g vs) (kids sh) in (pv PSum c, pv PCarry c).
Definition vals (g : lit -> bool) (shs : list shape) : list (bool * bool) := fold_left (fun vs sh => vs ++ [nval g vs sh]) shs [].
Definition cv (g : lit -> bool) (shs : list shape) : acon -> bool := conv g (vals g shs).

Definition con_ok (inp : N -> Prop) (n : nat) (k : acon) : Prop := match k with AIn l => inp (lvar l) | APort _ j => (j < n)%nat end.

Lemma vals_snoc g shs sh : vals g (shs ++ [sh]) = vals g shs ++ [nval g (vals g shs) sh].
Proof. unfold vals. now rewrite fold_left_app. Qed.
Lemma vals_length g shs : length (vals g shs) = length shs.
Proof. induction shs as [|sh shs IH] using rev_ind; [reflexivity|]. rewrite vals_snoc, !app_length, IH. reflexivity. Qed.
Lemma vals_app g shs shs' : exists x, vals g (shs ++ shs') = vals g shs ++ x.
Proof.
  induction shs' as [|sh shs' IH] using rev_ind; [exists []; now rewrite !app_nil_r|].
  destruct IH as (x & E). rewrite app_assoc, vals_snoc, E, <- app_assoc. eauto.
Qed.
Lemma cv_ext g inp shs shs' k : con_ok inp (length shs) k -> cv g (shs ++ shs') k = cv g shs k.
Proof.
  destruct k as [l|p n]; cbn [con_ok]; intros H; [reflexivity|]. unfold cv, conv. destruct (vals_app g shs shs') as (x & ->).
  rewrite app_nth1; [reflexivity|]. now rewrite vals_length.
Qed.
Lemma cv_node g inp shs n sh p : nth_error shs n = Some sh -> (forall k, In k (kids sh) -> con_ok inp n k) ->
  cv g shs (APort p n) = pv p (cnt (cv g shs) (kids sh)).
Proof.
  intros H K. destruct (nth_error_split _ _ H) as (l1 & l2 & -> & L). rewrite <- L in *.
  replace (l1 ++ sh :: l2) with ((l1 ++ [sh]) ++ l2) by (rewrite <- app_assoc; reflexivity).
  rewrite (cv_ext g inp (l1 ++ [sh]) l2) by (cbn; rewrite app_length; cbn; lia).
  rewrite (cnt_ext _ (cv g l1) (kids sh)).
  - unfold cv at 1, conv at 1. rewrite vals_snoc, app_nth2; rewrite vals_length; [|lia]. rewrite Nat.sub_diag. cbn [nth]. unfold nval, pval. destruct p; reflexivity.
  - intros k Hk. rewrite <- app_assoc. apply (cv_ext g inp). auto.
Qed.
Lemma kids_cnt bv sh : (cnt bv (kids sh) <= 3)%nat.
Proof. destruct sh; unfold cnt; cbn [kids map list_sum fold_right]; repeat match goal with |- context [b2n ?x] => destruct x; cbn [b2n] end; lia. Qed.
Lemma pv_split c : (c <= 3)%nat -> (2 * b2n (pv PCarry c) + b2n (pv PSum c) = c)%nat.
Proof. intros H. destruct c as [|[|[|[|c]]]]; try reflexivity. lia. Qed.
Lemma cv_rel g inp shs n sh : nth_error shs n = Some sh -> (forall k, In k (kids sh) -> con_ok inp n k) -> node_rel eq (cv g shs) n sh.
Proof.
  intros H K. unfold node_rel. rewrite !(cv_node g inp shs n sh) by auto. apply pv_split, kids_cnt.
Qed.

(** ** The clauses of a node *)
Definition dir_says (d : dir) (real out : bool) : Prop := match d with DIf => real = true -> out = true | DOnly => out = true -> real = true end.
Lemma node_clauses_spec d p bits o a sh (bv : acon -> bool) :
  Forall2 (fun k b => bv k = lit_true a b) (kids sh) bits ->
  sat_cnf a (node_clauses d p bits o) = true <-> dir_says d (pv p (cnt bv (kids sh))) (lit_true a o).
Proof.
  assert (T : forall b1 b2 b3 : bool, Nat.odd (b2n b1 + (b2n b2 + (b2n b3 + 0))) = xorb b1 (xorb b2 b3) /\ (2 <=? b2n b1 + (b2n b2 + (b2n b3 + 0)))%nat = (b1 && b2 || b1 && b3 || b2 && b3)) by (intros [] [] []; split; reflexivity).
  assert (T2 : forall b1 b2 : bool, Nat.odd (b2n b1 + (b2n b2 + 0)) = xorb b1 b2 /\ (2 <=? b2n b1 + (b2n b2 + 0))%nat = b1 && b2) by (intros [] []; split; reflexivity).
  intros H. assert (E : map (fun c => b2n (bv c)) (kids sh) = map (fun b => b2n (lit_true a b)) bits) by (induction H as [|k b ks bs Hb _ IH]; cbn [map]; [auto|now rewrite Hb, IH]).
  unfold cnt. rewrite E. assert (H' : length (kids sh) = length bits) by (clear -H; induction H; cbn; auto). clear E H. rename H' into H.
  destruct sh as [x y z|x y]; cbn [kids length] in H; destruct bits as [|b0 [|b1 [|b2 [|b3 bits]]]]; try discriminate H; clear H; cbn [map list_sum fold_right].
  - destruct d, p; cbn [node_clauses dir_says pv]; rewrite ?(proj1 (T _ _ _)), ?(proj2 (T _ _ _));
      unfold sat_cnf, sat_clause; cbn [forallb existsb]; rewrite ?lit_true_neg;
      destruct (lit_true a b0), (lit_true a b1), (lit_true a b2), (lit_true a o); cbn; intuition discriminate.
  - destruct d, p; cbn [node_clauses dir_says pv]; rewrite ?(proj1 (T2 _ _)), ?(proj2 (T2 _ _));
      unfold sat_cnf, sat_clause; cbn [forallb existsb]; rewrite ?lit_true_neg;
      destruct (lit_true a b0), (lit_true a b1), (lit_true a o); cbn; intuition discriminate.
Qed.
Lemma node_clauses_lits d p bits o c l : In c (node_clauses d p bits o) -> In l c -> lvar l = lvar o \/ exists b, In b bits /\ lvar l = lvar b.
Proof.
  destruct bits as [|x [|y [|z [|]]]]; cbn [node_clauses]; try (intros []; fail);
    destruct d, p; cbn [In]; intros H Hl; repeat (destruct H as [<-|H]; [repeat (destruct Hl as [<-|Hl]; [first [left; reflexivity | right; exists x; split; [cbn; tauto|reflexivity] | right; exists y; split; [cbn; tauto|reflexivity] | right; exists z; split; [cbn; tauto|reflexivity]]|]); destruct Hl|]); destruct H.
Qed.

(** ** The state of encoding *)
Definition bitof (nodes : list anode) (k : acon) : option lit :=
  match k with
  | AIn l => Some l
  | APort p n => match nth_error nodes n with Some nd => option_map o_bit (out_of p nd) | None => None end
  end.
Definition bits_are (nodes : list anode) (ks : list acon) (bits : list lit) : Prop := Forall2 (fun k b => bitof nodes k = Some b) ks bits.

Definition defs : Type := N -> option (asg -> bool).
Definition cval (D : defs) (a : asg) : asg := fun v => match D v with Some f => f a | None => a v end.
Definition shapes (nodes : list anode) : list shape := map an_sh nodes.

Record good (inp : N -> Prop) (D : defs) (F : cnf) (nodes : list anode) (next : N) : Prop := mkGood {
  g_dom : forall v f, D v = Some f -> (v < next)%N;
  g_inp : forall v, inp v -> (v < next)%N /\ D v = None;
  g_lits : forall c l, In c F -> In l c -> inp (lvar l) \/ D (lvar l) <> None;
  g_true : forall a, sat_cnf (cval D a) F = true;
  g_kids : forall n nd k, nth_error nodes n = Some nd -> In k (kids (an_sh nd)) -> con_ok inp n k;
  g_outs : forall n nd p o, nth_error nodes n = Some nd -> out_of p nd = Some o ->
    lneg (o_bit o) = false /\ exists f, D (lvar (o_bit o)) = Some f /\ forall a, f a = cv (lit_true a) (shapes nodes) (APort p n)
}.

Record dext (D D' : defs) (next next' : N) : Prop := mkDext {
  dx_next : (next <= next')%N;
  dx_keep : forall v f, D v = Some f -> D' v = Some f;
  dx_new : forall v, D v = None -> D' v <> None -> (next <= v < next')%N
}.
Lemma dext_refl D next : dext D D next next.
Proof. constructor; auto; [lia|congruence]. Qed.
Lemma dext_trans D D1 D2 n n1 n2 : dext D D1 n n1 -> dext D1 D2 n1 n2 -> dext D D2 n n2.
Proof.
  intros [A1 A2 A3] [B1 B2 B3]. constructor; [lia|auto|]. intros v H H2. destruct (D1 v) as [f|] eqn:E.
  - specialize (A3 v H). rewrite E in A3. specialize (A3 ltac:(discriminate)). lia.
  - specialize (B3 v E H2). lia.
Qed.

Definition mono (nodes nodes' : list anode) : Prop :=
  shapes nodes' = shapes nodes /\
  forall n nd nd' p o, nth_error nodes n = Some nd -> nth_error nodes' n = Some nd' -> out_of p nd = Some o ->
    exists o', out_of p nd' = Some o' /\ o_bit o' = o_bit o.
Lemma mono_refl nodes : mono nodes nodes.
Proof. split; [reflexivity|]. intros. exists o. split; congruence. Qed.
Lemma shapes_nth nodes nodes' n nd : shapes nodes' = shapes nodes -> nth_error nodes n = Some nd -> exists nd', nth_error nodes' n = Some nd' /\ an_sh nd' = an_sh nd.
Proof.
  intros E H. apply (map_nth_error an_sh) in H. fold (shapes nodes) in H. rewrite <- E in H. unfold shapes in H. rewrite nth_error_map in H.
  destruct (nth_error nodes' n) as [nd'|]; [|discriminate]. injection H as H. eauto.
Qed.
Lemma shapes_length nodes nodes' : shapes nodes' = shapes nodes -> length nodes' = length nodes.
Proof. intros E. rewrite <- (map_length an_sh nodes), <- (map_length an_sh nodes'). unfold shapes in E. now rewrite E. Qed.
Lemma mono_trans a b c : mono a b -> mono b c -> mono a c.
Proof.
  intros [A1 A2] [B1 B2]. split; [congruence|]. intros n nd nd' p o H H' Ho. destruct (shapes_nth a b n nd A1 H) as (nd1 & H1 & _).
  destruct (A2 _ _ _ _ _ H H1 Ho) as (o1 & Ho1 & E1). destruct (B2 _ _ _ _ _ H1 H' Ho1) as (o2 & Ho2 & E2). exists o2. split; congruence.
Qed.
Lemma bitof_mono nodes nodes' k b : mono nodes nodes' -> bitof nodes k = Some b -> bitof nodes' k = Some b.
Proof.
  intros [M1 M2]. destruct k as [l|p n]; cbn [bitof]; [auto|]. destruct (nth_error nodes n) as [nd|] eqn:E; [|discriminate].
  destruct (shapes_nth _ _ _ _ M1 E) as (nd' & E' & _). rewrite E'. destruct (out_of p nd) as [o|] eqn:Eo; [|discriminate]. cbn. intros [= <-].
  destruct (M2 _ _ _ _ _ E E' Eo) as (o' & Ho & Eb). rewrite Ho. cbn. now rewrite Eb.
Qed.
Lemma Forall2_imp {A B} (P Q : A -> B -> Prop) xs ys : (forall x y, P x y -> Q x y) -> Forall2 P xs ys -> Forall2 Q xs ys.
Proof. intros H. induction 1; constructor; auto. Qed.
Lemma Forall2_imp_in {A B} (P Q : A -> B -> Prop) xs ys : (forall x y, In x xs -> In y ys -> P x y -> Q x y) -> Forall2 P xs ys -> Forall2 Q xs ys.
Proof. intros H F. induction F; constructor; [apply H; cbn; auto|apply IHF; intros; apply H; cbn; auto]. Qed.
Lemma bits_mono nodes nodes' ks bits : mono nodes nodes' -> bits_are nodes ks bits -> bits_are nodes' ks bits.
Proof. intros M. apply Forall2_imp. intros. eapply bitof_mono; eauto. Qed.

(** the literal of a connection has its value *)
Lemma bitof_val inp D F nodes next k b a m : good inp D F nodes next -> con_ok inp m k -> bitof nodes k = Some b ->
  lit_true (cval D a) b = cv (lit_true a) (shapes nodes) k.
Proof.
  intros G K H. destruct k as [l|p n]; cbn [bitof con_ok] in *.
  - injection H as <-. cbn. unfold lit_true, cval. now rewrite (proj2 (g_inp _ _ _ _ _ G _ K)).
  - destruct (nth_error nodes n) as [nd|] eqn:E; [|discriminate]. destruct (out_of p nd) as [o|] eqn:Eo; [|discriminate]. injection H as <-.
    destruct (g_outs _ _ _ _ _ G _ _ _ _ E Eo) as (S1 & f & Df & Hf). unfold lit_true at 1, cval. rewrite S1, Df, Hf. now destruct (cv _ _ _).
Qed.
Lemma bitof_lit inp D F nodes next k b m : good inp D F nodes next -> con_ok inp m k -> bitof nodes k = Some b -> inp (lvar b) \/ D (lvar b) <> None.
Proof.
  intros G K H. destruct k as [l|p n]; cbn [bitof con_ok] in *.
  - injection H as <-. auto.
  - destruct (nth_error nodes n) as [nd|] eqn:E; [|discriminate]. destruct (out_of p nd) as [o|] eqn:Eo; [|discriminate]. injection H as <-.
    destruct (g_outs _ _ _ _ _ G _ _ _ _ E Eo) as (S1 & f & Df & Hf). right. congruence.
Qed.

(** ** Which clauses have been emitted *)
Definition cl_in (d : dir) (F : cnf) (nodes : list anode) (p : port) (n : nat) : Prop :=
  exists nd o bits, nth_error nodes n = Some nd /\ out_of p nd = Some o /\ bits_are nodes (kids (an_sh nd)) bits /\ incl (node_clauses d p bits (o_bit o)) F.
Lemma cl_in_mono d F F' nodes nodes' p n : mono nodes nodes' -> incl F F' -> cl_in d F nodes p n -> cl_in d F' nodes' p n.
Proof.
  intros M I (nd & o & bits & H & Ho & Hb & Hi). destruct (shapes_nth _ _ _ _ (proj1 M) H) as (nd' & H' & E).
  destruct (proj2 M _ _ _ _ _ H H' Ho) as (o' & Ho' & E'). exists nd', o', bits. split; [auto|]. split; [auto|]. rewrite E, E'. split; [eapply bits_mono; eauto|].
  eapply incl_tran; eauto.
Qed.

Inductive enc_done (d : dir) (F : cnf) (nodes : list anode) : port -> nat -> Prop :=
  | ed p n nd : nth_error nodes n = Some nd -> cl_in d F nodes p n ->
      (kid_dir d p = d -> forall p' k, In (APort p' k) (kids (an_sh nd)) -> enc_done d F nodes p' k) -> enc_done d F nodes p n.
Lemma enc_done_mono d F F' nodes nodes' p n : mono nodes nodes' -> incl F F' -> enc_done d F nodes p n -> enc_done d F' nodes' p n.
Proof.
  intros M I. induction 1 as [p n nd H C K IH]. destruct (shapes_nth _ _ _ _ (proj1 M) H) as (nd' & H' & E).
  econstructor; [exact H'|eapply cl_in_mono; eauto|]. rewrite E. auto.
Qed.

Definition flags_ok (d : dir) (F : cnf) (nodes : list anode) (m : nat) : Prop :=
  forall n p nd o, (n < m)%nat -> nth_error nodes n = Some nd -> out_of p nd = Some o -> flag d o = true -> enc_done d F nodes p n.

(** unchanged nodes keep their flags *)
Lemma flags_ok_mono d F F' nodes nodes' m : mono nodes nodes' -> incl F F' -> (forall j, (j < m)%nat -> nth_error nodes' j = nth_error nodes j) ->
  flags_ok d F nodes m -> flags_ok d F' nodes' m.
Proof. intros M I U H n p nd o L Hn Ho Hf. rewrite U in Hn by auto. eapply enc_done_mono; eauto. Qed.

(** ** Replacing a node *)
Lemma set_nth_same {A} (xs : list A) n x : (n < length xs)%nat -> nth_error (set_nth xs n x) n = Some x.
Proof. intros H. unfold set_nth. rewrite nth_error_app2; rewrite firstn_length; [|lia]. replace (n - Nat.min n (length xs))%nat with 0%nat by lia. reflexivity. Qed.
Lemma set_nth_other {A} (xs : list A) n j x : (n < length xs)%nat -> j <> n -> nth_error (set_nth xs n x) j = nth_error xs j.
Proof.
  intros H N. unfold set_nth. destruct (Nat.lt_ge_cases j n) as [L|L].
  - rewrite nth_error_app1 by (rewrite firstn_length; lia). rewrite <- (firstn_skipn n xs) at 2. rewrite nth_error_app1; [auto|rewrite firstn_length; lia].
  - rewrite nth_error_app2 by (rewrite firstn_length; lia). rewrite firstn_length. replace (j - Nat.min n (length xs))%nat with (S (j - n - 1))%nat by lia. cbn [nth_error].
    rewrite <- (firstn_skipn (S n) xs) at 2. rewrite nth_error_app2 by (rewrite firstn_length; lia). rewrite firstn_length. f_equal. lia.
Qed.
Lemma set_nth_length {A} (xs : list A) n x : (n < length xs)%nat -> length (set_nth xs n x) = length xs.
Proof. intros H. unfold set_nth. rewrite app_length, firstn_length. cbn [length]. rewrite skipn_length. lia. Qed.
Lemma nth_error_inj {A} (xs ys : list A) : (forall n, nth_error xs n = nth_error ys n) -> xs = ys.
Proof.
  revert ys. induction xs as [|x xs IH]; intros [|y ys] H; [auto|specialize (H 0%nat); discriminate|specialize (H 0%nat); discriminate|].
  f_equal; [specialize (H 0%nat); now injection H|apply IH; intros n; exact (H (S n))].
Qed.
Lemma set_shapes nodes n nd p o : nth_error nodes n = Some nd -> shapes (set_nth nodes n (set_out p nd o)) = shapes nodes.
Proof.
  intros H. assert (L : (n < length nodes)%nat) by (apply nth_error_Some; congruence). apply nth_error_inj. intros j. unfold shapes. rewrite !nth_error_map.
  destruct (Nat.eq_dec j n) as [->|N]; [rewrite set_nth_same, H by auto|rewrite set_nth_other by auto; reflexivity]. destruct p; reflexivity.
Qed.
Lemma out_set_same p nd o : out_of p (set_out p nd o) = Some o.
Proof. now destruct p. Qed.
Lemma out_set_other p q nd o : p <> q -> out_of q (set_out p nd o) = out_of q nd.
Proof. destruct p, q; try congruence; reflexivity. Qed.
Lemma port_dec (p q : port) : {p = q} + {p <> q}.
Proof. decide equality. Qed.
Lemma sh_set p nd o : an_sh (set_out p nd o) = an_sh nd.
Proof. now destruct p. Qed.

Lemma mono_set nodes n nd p o : nth_error nodes n = Some nd -> (forall o0, out_of p nd = Some o0 -> o_bit o = o_bit o0) -> mono nodes (set_nth nodes n (set_out p nd o)).
Proof.
  intros H E. assert (L : (n < length nodes)%nat) by (apply nth_error_Some; congruence). split; [now apply set_shapes|].
  intros j x x' q o0 Hx Hx' Ho. destruct (Nat.eq_dec j n) as [->|N].
  - rewrite set_nth_same in Hx' by auto. injection Hx' as <-. assert (x = nd) as -> by congruence.
    destruct (port_dec p q) as [<-|Nq]; [exists o; split; [apply out_set_same|apply E, Ho]|exists o0; rewrite out_set_other by auto; auto].
  - rewrite set_nth_other in Hx' by auto. assert (x = x') as <- by congruence. eauto.
Qed.

(** defining the output of a node *)
Lemma good_set inp D F nodes next n nd p d : good inp D F nodes next -> nth_error nodes n = Some nd ->
  match (match out_of p nd with
         | Some o => if flag d o then None else Some (set_flag (mark_dir d p (an_sh nd)) o, next)
         | None => Some (set_flag (mark_dir d p (an_sh nd)) (mkOut (mkLit next false) false false), (next + 1)%N)
         end) with
  | None => exists o, out_of p nd = Some o /\ flag d o = true
  | Some (o, next1) =>
      exists D1, good inp D1 F (set_nth nodes n (set_out p nd o)) next1 /\ dext D D1 next next1 /\
        mono nodes (set_nth nodes n (set_out p nd o)) /\
        (forall dd, flag dd o = true -> mark_dir d p (an_sh nd) = dd \/ exists o0, out_of p nd = Some o0 /\ flag dd o0 = true)
  end.
Proof.
  intros G H. assert (L : (n < length nodes)%nat) by (apply nth_error_Some; congruence). set (md := mark_dir d p (an_sh nd)).
  destruct (out_of p nd) as [o0|] eqn:Eo.
  - destruct (flag d o0) eqn:Ef; [exists o0; auto|]. assert (Eb : o_bit (set_flag md o0) = o_bit o0) by (destruct md; reflexivity).
    exists D. assert (M : mono nodes (set_nth nodes n (set_out p nd (set_flag md o0)))) by (apply mono_set; [auto|intros o1 E1; congruence]).
    split; [|split; [apply dext_refl|split; [exact M|]]].
    + destruct G as [G1 G2 G3 G4 G5 G6]. constructor; auto.
      * intros j x k Hx. destruct (Nat.eq_dec j n) as [->|N]; [rewrite set_nth_same in Hx by auto; injection Hx as <-; rewrite sh_set; eauto|rewrite set_nth_other in Hx by auto; eauto].
      * intros j x q o Hx Ho. rewrite set_shapes by auto. destruct (Nat.eq_dec j n) as [->|N].
        -- rewrite set_nth_same in Hx by auto. injection Hx as <-. destruct (port_dec p q) as [<-|Nq]; [|rewrite out_set_other in Ho by auto; eauto].
           rewrite out_set_same in Ho. injection Ho as <-. rewrite Eb. eauto.
        -- rewrite set_nth_other in Hx by auto. eauto.
    + intros dd Hd. destruct md, dd; cbn [set_flag flag o_if o_only] in Hd; eauto.
  - set (o := set_flag md (mkOut (mkLit next false) false false)). assert (Eb : o_bit o = mkLit next false) by (subst o; destruct md; reflexivity).
    exists (fun v => if (v =? next)%N then Some (fun a => cv (lit_true a) (shapes nodes) (APort p n)) else D v).
    assert (M : mono nodes (set_nth nodes n (set_out p nd o))) by (apply mono_set; [auto|congruence]).
    assert (Dn : D next = None) by (destruct (D next) as [f|] eqn:E; [apply (g_dom _ _ _ _ _ G) in E; lia|auto]).
    assert (X : dext D (fun v => if (v =? next)%N then Some (fun a => cv (lit_true a) (shapes nodes) (APort p n)) else D v) next (next + 1)).
    { constructor; [lia| |].
      - intros v f Hv. destruct (N.eqb_spec v next); [congruence|auto].
      - intros v Hv. destruct (N.eqb_spec v next); [lia|congruence]. }
    split; [|split; [exact X|split; [exact M|]]].
    + destruct G as [G1 G2 G3 G4 G5 G6]. constructor.
      * intros v f. destruct (N.eqb_spec v next); [lia|]. intros Hv. apply G1 in Hv. lia.
      * intros v Hv. apply G2 in Hv as (V1 & V2). split; [lia|]. destruct (N.eqb_spec v next); [lia|auto].
      * intros c l Hc Hl. destruct (G3 c l Hc Hl) as [?|?]; [auto|]. right. destruct (N.eqb_spec (lvar l) next); [discriminate|auto].
      * intros a. rewrite <- (G4 a). apply sat_cnf_agree. intros c l Hc Hl. unfold cval.
        destruct (G3 c l Hc Hl) as [Hi|Hi].
        -- apply G2 in Hi as (V1 & V2). destruct (N.eqb_spec (lvar l) next); [lia|auto].
        -- destruct (D (lvar l)) as [f|] eqn:E; [|congruence]. apply G1 in E. destruct (N.eqb_spec (lvar l) next); [lia|auto].
      * intros j x k Hx. destruct (Nat.eq_dec j n) as [->|N]; [rewrite set_nth_same in Hx by auto; injection Hx as <-; rewrite sh_set; eauto|rewrite set_nth_other in Hx by auto; eauto].
      * assert (K : forall j x q o1, nth_error nodes j = Some x -> out_of q x = Some o1 -> lneg (o_bit o1) = false /\
          exists f, (if (lvar (o_bit o1) =? next)%N then Some (fun a => cv (lit_true a) (shapes nodes) (APort p n)) else D (lvar (o_bit o1))) = Some f /\
            forall a, f a = cv (lit_true a) (shapes nodes) (APort q j)).
        { intros j x q o1 Hx Ho1. destruct (G6 _ _ _ _ Hx Ho1) as (S1 & f & Df & Hf). split; [auto|]. exists f. split; [|auto].
          apply (dx_keep _ _ _ _ X). auto. }
        intros j x q o1 Hx Ho. rewrite set_shapes by auto. destruct (Nat.eq_dec j n) as [->|N].
        -- rewrite set_nth_same in Hx by auto. injection Hx as <-. destruct (port_dec p q) as [<-|Nq]; [|rewrite out_set_other in Ho by auto; eauto].
           rewrite out_set_same in Ho. injection Ho as <-. rewrite Eb. cbn [lvar lneg]. split; [auto|]. rewrite N.eqb_refl. eauto.
        -- rewrite set_nth_other in Hx by auto. eauto.
    + intros dd Hd. subst o. destruct md, dd; cbn [set_flag flag o_if o_only] in Hd; try discriminate; auto.
Qed.

(** adding true clauses over known literals *)
Lemma good_clauses inp D F nodes next cs : good inp D F nodes next -> (forall a, sat_cnf (cval D a) cs = true) ->
  (forall c l, In c cs -> In l c -> inp (lvar l) \/ D (lvar l) <> None) -> good inp D (F ++ cs) nodes next.
Proof.
  intros [G1 G2 G3 G4 G5 G6] H1 H2. constructor; auto.
  - intros c l Hc. apply in_app_or in Hc as [Hc|Hc]; eauto.
  - intros a. unfold sat_cnf in *. rewrite forallb_app, G4, H1. reflexivity.
Qed.

Section Enc.
Context (inp : N -> Prop) (F0 : cnf).

Definition enc_post (d : dir) (m : nat) (D : defs) (nodes : list anode) (cs : cnf) (next : N) (D' : defs) (nodes' : list anode) (cs' : cnf) (next' : N) : Prop :=
  good inp D' (F0 ++ cs') nodes' next' /\ dext D D' next next' /\ mono nodes nodes' /\ incl (F0 ++ cs) (F0 ++ cs') /\
  (forall j, (m <= j)%nat -> nth_error nodes' j = nth_error nodes j) /\
  (forall dd, dd = DOnly \/ d = DIf -> flags_ok dd (F0 ++ cs) nodes m -> flags_ok dd (F0 ++ cs') nodes' m).

Lemma enc_post_refl d m D nodes cs next : good inp D (F0 ++ cs) nodes next -> enc_post d m D nodes cs next D nodes cs next.
Proof. intros G. split; [auto|]. split; [apply dext_refl|]. split; [apply mono_refl|]. split; [apply incl_refl|]. auto. Qed.

Lemma enc_post_trans d m D nodes cs next D1 nodes1 cs1 next1 D2 nodes2 cs2 next2 :
  enc_post d m D nodes cs next D1 nodes1 cs1 next1 -> enc_post d m D1 nodes1 cs1 next1 D2 nodes2 cs2 next2 -> enc_post d m D nodes cs next D2 nodes2 cs2 next2.
Proof.
  intros (A1 & A2 & A3 & A4 & A5 & A6) (B1 & B2 & B3 & B4 & B5 & B6). split; [auto|]. split; [eapply dext_trans; eauto|]. split; [eapply mono_trans; eauto|].
  split; [eapply incl_tran; eauto|]. split; [intros; rewrite B5, A5; auto|]. auto.
Qed.

(** a call for an earlier node *)
Lemma enc_post_weaken d k m D nodes cs next D' nodes' cs' next' : (k <= m)%nat -> enc_post d k D nodes cs next D' nodes' cs' next' -> enc_post d m D nodes cs next D' nodes' cs' next'.
Proof.
  intros L (A1 & A2 & A3 & A4 & A5 & A6). split; [auto|]. split; [auto|]. split; [auto|]. split; [auto|]. split; [intros; apply A5; lia|].
  intros dd Hd H. intros n p nd o Ln Hn Ho Hf. destruct (Nat.lt_ge_cases n k) as [Lk|Lk].
  - eapply A6; eauto. intros x y z w Lx. apply H. lia.
  - rewrite A5 in Hn by auto. eapply enc_done_mono; eauto.
Qed.

Definition enc_ok (f : nat) : Prop := forall d p n D nodes cs next, good inp D (F0 ++ cs) nodes next -> (n < length nodes)%nat -> (n < f)%nat ->
  exists l D' nodes' cs' next', enc_bit f d p n (nodes, cs, next) = Some (l, (nodes', cs', next')) /\
    enc_post d (S n) D nodes cs next D' nodes' cs' next' /\ bitof nodes' (APort p n) = Some l /\
    (flags_ok d (F0 ++ cs) nodes (S n) -> enc_done d (F0 ++ cs') nodes' p n).

Lemma get_bits_ok f d n : enc_ok f -> (n <= f)%nat -> forall ks D nodes cs next, good inp D (F0 ++ cs) nodes next -> (n <= length nodes)%nat ->
  (forall k, In k ks -> con_ok inp n k) ->
  exists bits D' nodes' cs' next', get_bits (fun p' k st' => if (k <? n)%nat then enc_bit f d p' k st' else None) ks (nodes, cs, next) = Some (bits, (nodes', cs', next')) /\
    enc_post d n D nodes cs next D' nodes' cs' next' /\ bits_are nodes' ks bits /\
    (flags_ok d (F0 ++ cs) nodes n -> forall p' k, In (APort p' k) ks -> enc_done d (F0 ++ cs') nodes' p' k).
Proof.
  intros IH Lf. set (g := fun p' k st' => if (k <? n)%nat then enc_bit f d p' k st' else None).
  induction ks as [|k ks IHk]; intros D nodes cs next G Ln K; cbn [get_bits].
  { exists [], D, nodes, cs, next. split; [reflexivity|]. split; [now apply enc_post_refl|]. split; [constructor|]. intros _ p' k []. }
  assert (T : exists b D1 nodes1 cs1 next1, match k with AIn l => Some (l, (nodes, cs, next)) | APort p n0 => g p n0 (nodes, cs, next) end = Some (b, (nodes1, cs1, next1)) /\
     enc_post d n D nodes cs next D1 nodes1 cs1 next1 /\ bitof nodes1 k = Some b /\ (flags_ok d (F0 ++ cs) nodes n -> forall p' j, k = APort p' j -> enc_done d (F0 ++ cs1) nodes1 p' j)).
  { specialize (K k (or_introl eq_refl)). destruct k as [l|p j]; cbn [con_ok] in K.
    - exists l, D, nodes, cs, next. split; [reflexivity|]. split; [now apply enc_post_refl|]. split; [reflexivity|]. discriminate.
    - unfold g. destruct (Nat.ltb_spec j n); [|lia]. destruct (IH d p j D nodes cs next G ltac:(lia) ltac:(lia)) as (b & D1 & nodes1 & cs1 & next1 & E & P & B & Dn).
      exists b, D1, nodes1, cs1, next1. split; [auto|]. split; [eapply enc_post_weaken; [|eauto]; lia|]. split; [auto|]. intros H1 p' j' [= <- <-]. apply Dn.
      intros x y z w Lx. apply H1. lia. }
  destruct T as (b & D1 & nodes1 & cs1 & next1 & E1 & P1 & B1 & Dn1).
  match goal with |- context [obind ?X _] => replace X with (Some (b, (nodes1, cs1, next1)) : option (lit * estate)) by (symmetry; exact E1) end. cbn [obind fst snd].
  pose proof P1 as (G1 & X1 & M1 & I1 & U1 & Fl1).
  destruct (IHk D1 nodes1 cs1 next1 G1) as (bits & D2 & nodes2 & cs2 & next2 & -> & P2 & B2 & Dn2); [rewrite (shapes_length _ _ (proj1 M1)); auto|intros; apply K; now right|].
  pose proof P2 as (G2 & X2 & M2 & I2 & U2 & Fl2). cbn [obind fst snd].
  exists (b :: bits), D2, nodes2, cs2, next2. split; [reflexivity|]. split; [eapply enc_post_trans; eauto|]. split.
  - constructor; [eapply bitof_mono; eauto|auto].
  - intros H p' j [->|Hj]; [eapply enc_done_mono; [exact M2|exact I2|]; eauto|]. apply Dn2; [|auto]. apply Fl1; [|auto]. destruct d; auto.
Qed.

Lemma mark_dir_cases d p sh : mark_dir d p sh = d \/ d = DOnly /\ mark_dir d p sh = DIf.
Proof. destruct d, p, sh; cbn; auto. Qed.

Lemma enc_bit_ok f : enc_ok f.
Proof.
  induction f as [|f IH]; [intros d p n D nodes cs next _ _ L; lia|].
  intros d p n D nodes cs next G Ln Lf. cbn [enc_bit]. destruct (nth_error nodes n) as [nd|] eqn:En; [|apply nth_error_None in En; lia]. cbn [obind].
  pose proof (good_set inp D (F0 ++ cs) nodes next n nd p d G En) as S. set (x := match out_of p nd with Some o => _ | None => _ end) in *. destruct x as [[o next1]|] eqn:Ex.
  2: { destruct S as (o & Eo & Ef). rewrite Eo. cbn [obind]. exists (o_bit o), D, nodes, cs, next. split; [reflexivity|]. split; [now apply enc_post_refl|].
       split; [cbn; rewrite En, Eo; reflexivity|]. intros H. eapply H; eauto. }
  clear x Ex. destruct S as (D1 & G1 & X1 & M1 & Hfl). set (nodes1 := set_nth nodes n (set_out p nd o)) in *.
  assert (U1 : forall j, j <> n -> nth_error nodes1 j = nth_error nodes j) by (intros; apply set_nth_other; auto).
  assert (E1 : nth_error nodes1 n = Some (set_out p nd o)) by (apply set_nth_same; auto).
  assert (Fl1 : forall dd, flags_ok dd (F0 ++ cs) nodes (S n) -> flags_ok dd (F0 ++ cs) nodes1 n).
  { intros dd H. eapply flags_ok_mono; [exact M1|apply incl_refl| |intros x y z w Lx; apply H; lia]. intros; apply U1; lia. }
  destruct (get_bits_ok f (kid_dir d p) n IH ltac:(lia) (kids (an_sh nd)) D1 nodes1 cs next1 G1) as (bits & D2 & nodes2 & cs2 & next2 & E2 & P2 & B2 & Dn2).
  { unfold nodes1. rewrite set_nth_length by auto. lia. }
  { intros k Hk. eapply (g_kids _ _ _ _ _ G); eauto. }
  match goal with |- context [obind ?X _] => replace X with (Some (bits, (nodes2, cs2, next2)) : option (list lit * estate)) by (symmetry; exact E2) end. cbn [obind]. pose proof P2 as (G2 & X2 & M2 & I2 & U2 & Fl2).
  set (new := node_clauses d p bits (o_bit o)). assert (En2 : nth_error nodes2 n = Some (set_out p nd o)) by (rewrite U2 by lia; auto).
  assert (I3 : incl (F0 ++ cs2) (F0 ++ cs2 ++ new)) by (intros c Hc; rewrite app_assoc; apply in_or_app; auto).
  assert (I : incl (F0 ++ cs) (F0 ++ cs2 ++ new)) by (eapply incl_tran; eauto).
  assert (M : mono nodes nodes2) by (eapply mono_trans; eauto).
  assert (Kok : forall k, In k (kids (an_sh nd)) -> con_ok inp n k) by (intros; eapply (g_kids _ _ _ _ _ G); eauto).
  assert (Done : flags_ok d (F0 ++ cs) nodes (S n) -> enc_done d (F0 ++ cs2 ++ new) nodes2 p n).
  { intros H. apply (ed _ _ _ _ _ (set_out p nd o)); [auto| |].
    - exists (set_out p nd o), o, bits. split; [auto|]. split; [apply out_set_same|]. rewrite sh_set. split; [auto|]. unfold new. intros c Hc. rewrite app_assoc. apply in_or_app. auto.
    - rewrite sh_set. intros Ek p' k Hk. rewrite Ek in *. eapply enc_done_mono; [apply mono_refl|exact I3|]. eauto. }
  assert (G3 : good inp D2 (F0 ++ cs2 ++ new) nodes2 next2).
  { rewrite app_assoc. apply good_clauses; [auto| |].
    - intros a. unfold new. apply (node_clauses_spec d p bits (o_bit o) (cval D2 a) (an_sh nd) (cv (lit_true a) (shapes nodes2))).
      + unfold bits_are in B2. eapply Forall2_imp_in; [|exact B2]. intros k b Hk Hb H. symmetry. eapply bitof_val; eauto.
      + assert (Bo : bitof nodes2 (APort p n) = Some (o_bit o)) by (cbn; rewrite En2, out_set_same; reflexivity).
        rewrite (bitof_val _ _ _ _ _ _ _ a (S n) G2 (Nat.lt_succ_diag_r n : con_ok inp (S n) (APort p n)) Bo). rewrite (cv_node (lit_true a) inp (shapes nodes2) n (an_sh nd) p); [destruct d; cbn; auto| |auto].
        unfold shapes. rewrite nth_error_map, En2. cbn. now rewrite sh_set.
    - intros c l Hc Hl. destruct (node_clauses_lits d p bits (o_bit o) c l Hc Hl) as [El|(b & Hb & El)]; rewrite El.
      + eapply (bitof_lit inp D2 (F0 ++ cs2) nodes2 next2 (APort p n) (o_bit o) (S n)); [auto|cbn; lia|cbn; rewrite En2, out_set_same; reflexivity].
      + assert (T : exists k, In k (kids (an_sh nd)) /\ bitof nodes2 k = Some b).
        { clear -B2 Hb. induction B2 as [|k0 b0 ks bs H B IH]; [destruct Hb|]. destruct Hb as [<-|Hb]; [exists k0; cbn; auto|]. destruct (IH Hb) as (k & ? & ?). exists k. cbn. auto. }
        destruct T as (k & Hk & Hkb). eapply bitof_lit; eauto. }
  exists (o_bit o), D2, nodes2, (cs2 ++ new), next2. split; [reflexivity|]. split; [|split; [cbn; rewrite En2, out_set_same; reflexivity|exact Done]].
  split; [exact G3|]. split; [eapply dext_trans; eauto|]. split; [exact M|]. split; [exact I|]. split; [intros j Hj; rewrite U2, U1 by lia; reflexivity|].
  intros dd Hd H. intros j q x ox Lj Hx Ho Hf. destruct (Nat.eq_dec j n) as [->|N].
  - rewrite En2 in Hx. injection Hx as <-. destruct (port_dec p q) as [<-|Nq].
    + rewrite out_set_same in Ho. injection Ho as <-. destruct (Hfl dd Hf) as [Hm|(o0 & Ho0 & Hf0)].
      * destruct (mark_dir_cases d p (an_sh nd)) as [Em|(-> & Em)]; [assert (dd = d) as -> by congruence; auto|]. destruct Hd; congruence.
      * eapply enc_done_mono; [exact M|exact I|]. eapply H; eauto.
    + rewrite out_set_other in Ho by auto. eapply enc_done_mono; [exact M|exact I|]. eapply H; eauto.
  - assert (Hk : flags_ok dd (F0 ++ cs2) nodes2 n).
    { apply Fl2; [|auto]. destruct Hd as [Hd|Hd]; [auto|]. right. rewrite Hd. reflexivity. }
    eapply enc_done_mono; [apply mono_refl|exact I3|]. eapply Hk; eauto. lia.
Qed.
End Enc.
