(** * The adder network: what building it and its comparators mean *)

From Coq Require Import List Bool NArith ZArith Lia Arith Permutation.
From Coq Require Import ZifyBool ZifyNat ZifyN.
From Verif Require Import Spec BoundSpec Types Constraints Maps NodeDb Totalizer Adder Base.
Import ListNotations.

Global Arguments Nat.odd : simpl never.
Global Arguments Nat.div2 : simpl never.
Global Arguments Nat.pow : simpl never.
Global Arguments Nat.mul : simpl never.

Definition b2n (b : bool) : nat := if b then 1 else 0.
Lemma odd_div2 n : (n = b2n (Nat.odd n) + 2 * Nat.div2 n)%nat.
Proof. rewrite (Nat.div2_odd n) at 1. unfold b2n, Nat.b2n. destruct (Nat.odd n); lia. Qed.
Lemma odd_add2 b n : Nat.odd (b2n b + 2 * n) = b.
Proof. rewrite Nat.odd_add_mul_2. now destruct b. Qed.

(** ** Sums over valuations of literals *)
Fixpoint lsum (g : lit -> bool) (xs : list (lit * nat)) : nat :=
  match xs with [] => 0 | (l, w) :: xs' => (if g l then w else 0) + lsum g xs' end%nat.

Lemma lsum_wsum a xs : lsum (lit_true a) xs = wsum a xs.
Proof. induction xs as [|[l w] xs IH]; cbn [lsum wsum]; [auto|]. now rewrite IH. Qed.
Lemma lsum_perm g xs ys : Permutation xs ys -> lsum g xs = lsum g ys.
Proof. induction 1 as [|[l w]|[l w] [l' w']|]; cbn [lsum]; lia. Qed.
Lemma lsum_app g xs ys : lsum g (xs ++ ys) = (lsum g xs + lsum g ys)%nat.
Proof. induction xs as [|[l w] xs IH]; cbn [app lsum]; lia. Qed.
Lemma lsum_map_add g m l w : lsum g (map_add m l w) = (lsum g m + if g l then w else 0)%nat.
Proof.
  induction m as [|[k x] m IH]; cbn [map_add lsum]; [lia|]. destruct (lit_eqb k l) eqn:E; cbn [lsum]; [|lia].
  apply lit_eqb_eq in E. subst k. destruct (g l); lia.
Qed.
Lemma lsum_map_adds g xs m : lsum g (map_adds m xs) = (lsum g m + lsum g xs)%nat.
Proof.
  unfold map_adds. revert m. induction xs as [|[l w] xs IH]; intros m; cbn [fold_left lsum]; [lia|]. rewrite IH, lsum_map_add. lia.
Qed.
Lemma lsum_all xs : lsum (fun _ => true) xs = list_sum (map snd xs).
Proof. induction xs as [|[l w] xs IH]; cbn [lsum map snd list_sum fold_right]; [auto|]. unfold list_sum in IH. lia. Qed.
Lemma lsum_mono g h xs : (forall l, g l = true -> h l = true) -> (lsum g xs <= lsum h xs)%nat.
Proof.
  intros H. induction xs as [|[l w] xs IH]; cbn [lsum]; [auto|]. specialize (H l). destruct (g l); [rewrite H by auto|]; destruct (h l); lia.
Qed.

(** ** Values of buckets and outputs *)
Definition cnt (bv : acon -> bool) (q : list acon) : nat := list_sum (map (fun c => b2n (bv c)) q).
Fixpoint bval (bv : acon -> bool) (bs : list (list acon)) : nat :=
  match bs with [] => 0 | q :: bs' => cnt bv q + 2 * bval bv bs' end%nat.
Definition oval {A} (bv : A -> bool) (o : option A) : nat := match o with Some c => b2n (bv c) | None => 0 end.
Fixpoint hv {A} (bv : A -> bool) (outs : list (option A)) : nat :=
  match outs with [] => 0 | o :: outs' => oval bv o + 2 * hv bv outs' end%nat.

Lemma cnt_cons bv c q : cnt bv (c :: q) = (b2n (bv c) + cnt bv q)%nat.
Proof. reflexivity. Qed.
Lemma cnt_app bv q q' : cnt bv (q ++ q') = (cnt bv q + cnt bv q')%nat.
Proof. unfold cnt. now rewrite map_app, list_sum_app. Qed.
Lemma hv_bound {A} (bv : A -> bool) outs : (hv bv outs < 2 ^ length outs)%nat.
Proof.
  induction outs as [|o outs IH]; cbn [hv length]; [cbn; lia|]. rewrite Nat.pow_succ_r'.
  assert (oval bv o <= 1)%nat by (destruct o as [c|]; cbn; [destruct (bv c); cbn|]; lia). lia.
Qed.
Lemma hv_map {A B} (bv : B -> bool) (f : A -> B) outs : hv bv (map (option_map f) outs) = hv (fun x => bv (f x)) outs.
Proof. induction outs as [|o outs IH]; cbn [map hv]; [auto|]. rewrite IH. now destruct o. Qed.
Lemma hv_ext {A} (f g : A -> bool) outs : (forall c, In (Some c) outs -> f c = g c) -> hv f outs = hv g outs.
Proof.
  induction outs as [|o outs IH]; cbn [hv]; intros H; [auto|]. rewrite IH by (intros; apply H; now right).
  destruct o as [c|]; cbn [oval]; [rewrite (H c) by now left|]; lia.
Qed.
Lemma cnt_ext f g q : (forall c, In c q -> f c = g c) -> cnt f q = cnt g q.
Proof. unfold cnt. intros H. f_equal. apply map_ext_in. intros c Hc. now rewrite H. Qed.

(** ** The comparators *)
Lemma above_lits_spec a rhs lhs : (rhs < 2 ^ length lhs)%nat ->
  match above_lits rhs lhs with
  | Some c => sat_clause a c = false <-> hv (lit_true a) lhs = rhs
  | None => hv (lit_true a) lhs <> rhs
  end.
Proof.
  revert rhs. induction lhs as [|b lhs IH]; intros rhs; cbn [above_lits hv length].
  - change (2 ^ 0)%nat with 1%nat. cbn. intros H. split; intros; [lia|auto].
  - rewrite Nat.pow_succ_r'. intros H. pose proof (odd_div2 rhs) as E. specialize (IH (Nat.div2 rhs) ltac:(lia)).
    clear H. set (r := Nat.div2 rhs) in *. clearbody r. set (h := hv (lit_true a) lhs) in *. clearbody h.
    destruct (above_lits r lhs) as [c|]; cbn [obind].
    + destruct (Nat.odd rhs); destruct b as [l|]; cbn [oval b2n] in *; unfold sat_clause in *; cbn [existsb];
        rewrite ?lit_true_neg; try destruct (lit_true a l); cbn [negb b2n orb] in *;
        try destruct (existsb (lit_true a) c); lia.
    + destruct (Nat.odd rhs); destruct b as [l|]; cbn [oval b2n] in *; try destruct (lit_true a l); cbn [b2n] in *; lia.
Qed.

Lemma comp_if_spec a rhs o lhs : (rhs < 2 ^ length lhs)%nat ->
  sat_cnf a (comp_if rhs o lhs) = true <-> (lit_true a o = false -> hv (lit_true a) lhs <= rhs)%nat.
Proof.
  revert rhs. induction lhs as [|b lhs IH]; intros rhs; cbn [comp_if hv length]; [cbn; intuition lia|].
  rewrite Nat.pow_succ_r'. intros H. pose proof (odd_div2 rhs) as E. specialize (IH (Nat.div2 rhs) ltac:(lia)).
  pose proof (above_lits_spec a (Nat.div2 rhs) lhs ltac:(lia)) as A. unfold sat_cnf in *. rewrite forallb_app, andb_true_iff, IH. clear IH.
  set (h := hv (lit_true a) lhs) in *. set (r := Nat.div2 rhs) in *.
  destruct (above_lits r lhs) as [c|]; destruct (Nat.odd rhs), b as [l|]; cbn [forallb oval b2n] in *;
    rewrite ?andb_true_r; unfold sat_clause in *; cbn [existsb]; rewrite ?existsb_app; cbn [existsb]; rewrite ?lit_true_neg, ?orb_false_r;
    repeat match goal with |- context [lit_true a ?x] => destruct (lit_true a x) end; cbn [negb b2n orb];
    try destruct (existsb (lit_true a) c); cbn [orb]; lia.
Qed.

Lemma comp_only_spec a rhs o lhs : (rhs < 2 ^ length lhs)%nat ->
  sat_cnf a (comp_only rhs o lhs) = true <-> (lit_true a o = true -> rhs <= hv (lit_true a) lhs)%nat.
Proof.
  revert rhs. induction lhs as [|b lhs IH]; intros rhs; cbn [comp_only hv length].
  { change (2 ^ 0)%nat with 1%nat. cbn. intuition lia. }
  rewrite Nat.pow_succ_r'. intros H. pose proof (odd_div2 rhs) as E. specialize (IH (Nat.div2 rhs) ltac:(lia)).
  pose proof (above_lits_spec a (Nat.div2 rhs) lhs ltac:(lia)) as A. unfold sat_cnf in *. rewrite forallb_app, andb_true_iff, IH. clear IH.
  set (h := hv (lit_true a) lhs) in *. set (r := Nat.div2 rhs) in *.
  destruct (above_lits r lhs) as [c|]; destruct (Nat.odd rhs), b as [l|]; cbn [forallb oval b2n app] in *;
    rewrite ?andb_true_r; unfold sat_clause in *; cbn [existsb]; rewrite ?existsb_app; cbn [existsb]; rewrite ?lit_true_neg, ?orb_false_r;
    repeat match goal with |- context [lit_true a ?x] => destruct (lit_true a x) end; cbn [negb b2n orb];
    try destruct (existsb (lit_true a) c); cbn [orb]; lia.
Qed.

Definition comp_clauses (d : dir) (rhs : nat) (o : lit) (lhs : list (option lit)) : cnf :=
  match d with
  | DIf => comp_if rhs o lhs
  | DOnly => if (rhs =? 2 ^ length lhs - 1)%nat then [[neg o]] else comp_only (rhs + 1) o lhs
  end.
(** what the comparator clauses say about the value of the output bits and the output *)
Definition comp_says (d : dir) (rhs h : nat) (o : bool) : Prop :=
  match d with DIf => o = false -> (h <= rhs)%nat | DOnly => o = true -> (rhs < h)%nat end.
Lemma comp_clauses_spec d a rhs o lhs : (rhs < 2 ^ length lhs)%nat ->
  sat_cnf a (comp_clauses d rhs o lhs) = true <-> comp_says d rhs (hv (lit_true a) lhs) (lit_true a o).
Proof.
  intros H. destruct d; cbn [comp_clauses comp_says]; [now apply comp_if_spec|].
  destruct (Nat.eqb_spec rhs (2 ^ length lhs - 1)) as [E|E].
  - pose proof (hv_bound (lit_true a) lhs). cbn. rewrite lit_true_neg. destruct (lit_true a o); cbn; intuition (try lia; try discriminate).
  - rewrite comp_only_spec by lia. intuition lia.
Qed.
Lemma comp_clauses_lits d rhs o lhs c l : In c (comp_clauses d rhs o lhs) -> In l c -> lvar l = lvar o \/ exists x, In (Some x) lhs /\ lvar l = lvar x.
Proof.
  assert (A : forall rhs lhs r, above_lits rhs lhs = Some r -> forall x, In x r -> exists y, In (Some y) lhs /\ lvar x = lvar y).
  { clear. intros rhs lhs. revert rhs. induction lhs as [|b lhs IH]; intros rhs r; cbn [above_lits]; [intros [= <-] x []|].
    destruct (above_lits (Nat.div2 rhs) lhs) as [r'|] eqn:E; cbn [obind]; [|discriminate].
    specialize (IH _ _ E). destruct (Nat.odd rhs), b as [y|]; try discriminate; intros [= <-] x Hx.
    - destruct Hx as [<-|Hx]; [exists y; split; [now left|reflexivity]|]. apply IH in Hx as (z & Hz & ?). exists z. split; [now right|auto].
    - destruct Hx as [<-|Hx]; [exists y; split; [now left|reflexivity]|]. apply IH in Hx as (z & Hz & ?). exists z. split; [now right|auto].
    - apply IH in Hx as (z & Hz & ?). exists z. split; [now right|auto]. }
  assert (B : forall rhs lhs, In c (comp_if rhs o lhs) -> In l c -> lvar l = lvar o \/ exists x, In (Some x) lhs /\ lvar l = lvar x).
  { clear rhs lhs. intros rhs lhs. revert rhs. induction lhs as [|b lhs IH]; intros rhs; cbn [comp_if]; [intros []|]. intros H Hl.
    apply in_app_or in H as [H|H]; [|apply IH in H as [?|(x & ? & ?)]; auto; right; exists x; split; [now right|auto]].
    destruct (Nat.odd rhs); [destruct H|]. destruct b as [y|]; [|destruct H]. destruct (above_lits (Nat.div2 rhs) lhs) as [r|] eqn:E; [|destruct H].
    destruct H as [<-|[]]. destruct Hl as [<-|Hl]; [right; exists y; split; [now left|reflexivity]|].
    apply in_app_or in Hl as [Hl|[<-|[]]]; [|auto]. destruct (A _ _ _ E _ Hl) as (z & ? & ?). right. exists z. split; [now right|auto]. }
  assert (B' : forall rhs lhs, In c (comp_only rhs o lhs) -> In l c -> lvar l = lvar o \/ exists x, In (Some x) lhs /\ lvar l = lvar x).
  { clear rhs lhs B. intros rhs lhs. revert rhs. induction lhs as [|b lhs IH]; intros rhs; cbn [comp_only]; [intros []|]. intros H Hl.
    apply in_app_or in H as [H|H]; [|apply IH in H as [?|(x & ? & ?)]; auto; right; exists x; split; [now right|auto]].
    destruct (Nat.odd rhs); [|destruct H]. destruct (above_lits (Nat.div2 rhs) lhs) as [r|] eqn:E; [|destruct H].
    destruct H as [<-|[]]. apply in_app_or in Hl as [Hl|Hl].
    { destruct b as [y|]; [|destruct Hl]. destruct Hl as [<-|[]]. right. exists y. split; [now left|reflexivity]. }
    apply in_app_or in Hl as [Hl|[<-|[]]]; [|auto]. destruct (A _ _ _ E _ Hl) as (z & ? & ?). right. exists z. split; [now right|auto]. }
  destruct d; cbn [comp_clauses]; [apply B|]. destruct (_ =? _)%nat; [|apply B'].
  intros [<-|[]] [<-|[]]. left. reflexivity.
Qed.

(** ** Relations between the values of the outputs and inputs of adders *)
Record rel_ok (R : nat -> nat -> Prop) : Prop := mkRel {
  rel_refl : forall x, R x x;
  rel_trans : forall x y z, R x y -> R y z -> R x z;
  rel_plus : forall x y z, R x y -> R (x + z)%nat (y + z)%nat;
  rel_double : forall x y, R x y -> R (2 * x)%nat (2 * y)%nat
}.
Lemma rel_eq : rel_ok (@eq nat). Proof. constructor; intros; lia. Qed.
Lemma rel_ge : rel_ok ge. Proof. constructor; intros; lia. Qed.
Lemma rel_le : rel_ok le. Proof. constructor; intros; lia. Qed.

Lemma rel_cast (R : nat -> nat -> Prop) x y x' y' : R x y -> x' = x -> y' = y -> R x' y'.
Proof. now intros H -> ->. Qed.

Definition node_rel (R : nat -> nat -> Prop) (bv : acon -> bool) (n : nat) (sh : shape) : Prop :=
  R (2 * b2n (bv (APort PCarry n)) + b2n (bv (APort PSum n)))%nat (cnt bv (kids sh)).

Lemma reduce_rel R bv (HR : rel_ok R) fuel : forall len q ns cs q', reduce fuel len q = Some (ns, cs, q') ->
  (forall i nd, nth_error ns i = Some nd -> node_rel R bv (len + i) (an_sh nd)) -> R (cnt bv q' + 2 * cnt bv cs)%nat (cnt bv q).
Proof.
  assert (base : forall len q ns cs q', match q with [a; b] => Some ([new_node (Half a b)], [APort PCarry len], [APort PSum len]) | _ => Some ([], [], q) end = Some (ns, cs, q') ->
    (forall i nd, nth_error ns i = Some nd -> node_rel R bv (len + i) (an_sh nd)) -> R (cnt bv q' + 2 * cnt bv cs)%nat (cnt bv q)).
  { intros len q ns cs q' E H. assert (T : ns = [] /\ cs = [] /\ q' = q \/ exists a b, q = [a; b] /\ ns = [new_node (Half a b)] /\ cs = [APort PCarry len] /\ q' = [APort PSum len]).
    { destruct q as [|a [|b [|c q]]]; injection E as <- <- <-; auto. right. exists a, b. auto. }
    destruct T as [(-> & -> & ->)|(a & b & -> & -> & -> & ->)].
    - replace (cnt bv q + 2 * cnt bv [])%nat with (cnt bv q) by (cbn; lia). apply (rel_refl _ HR).
    - specialize (H 0%nat _ eq_refl). unfold node_rel in H. cbn [an_sh new_node kids] in H. rewrite Nat.add_0_r in H. unfold cnt in *. cbn [map list_sum fold_right] in *.
      rewrite !Nat.add_0_r in *. rewrite Nat.add_comm. exact H. }
  induction fuel as [|f IH]; intros len q ns cs q' E H.
  - destruct q as [|a [|b [|c r]]]; cbn [reduce] in E; try discriminate; eapply base; eauto.
  - destruct q as [|a [|b [|c r]]]; cbn [reduce] in E; try (eapply base; eauto; fail).
    destruct (reduce f (S len) (r ++ [APort PSum len])) as [[[ns1 cs1] q1]|] eqn:E1; [|discriminate]. cbn [obind] in E. injection E as <- <- <-.
    specialize (IH _ _ _ _ _ E1). assert (H0 := H 0%nat _ eq_refl). unfold node_rel in H0. cbn [an_sh new_node kids] in H0. rewrite Nat.add_0_r in H0.
    specialize (IH ltac:(intros i nd Hi; specialize (H (S i) nd Hi); now replace (len + S i)%nat with (S len + i)%nat in H by lia)).
    apply (rel_plus _ HR _ _ (2 * b2n (bv (APort PCarry len)))) in IH. apply (rel_plus _ HR _ _ (cnt bv r)) in H0.
    rewrite cnt_app in IH. rewrite !cnt_cons in *. change (cnt bv []) with 0%nat in *.
    eapply (rel_trans _ HR); [eapply rel_cast; [exact IH|lia|reflexivity]|]. eapply rel_cast; [exact H0|lia|lia].
Qed.

(** *** The shape of the network *)
Definition used (ns : list anode) (k : acon) : Prop := exists i nd, nth_error ns i = Some nd /\ In k (kids (an_sh nd)).
Lemma used_app_l ns ns' k : used ns k -> used (ns ++ ns') k.
Proof. intros (i & nd & H & K). exists i, nd. split; [|auto]. rewrite nth_error_app1; [auto|]. apply nth_error_Some. congruence. Qed.
Lemma used_app_r ns ns' k : used ns' k -> used (ns ++ ns') k.
Proof. intros (i & nd & H & K). exists (length ns + i)%nat, nd. split; [|auto]. rewrite nth_error_app2 by lia. rewrite <- H. f_equal. lia. Qed.

Record grown (len : nat) (from : list acon) (ns : list anode) (rest : list acon) : Prop := mkGrown {
  gr_new : forall nd, In nd ns -> exists sh, nd = new_node sh;
  gr_kids : forall i nd k, nth_error ns i = Some nd -> In k (kids (an_sh nd)) -> In k from \/ exists p j, k = APort p (len + j) /\ (j < i)%nat;
  gr_rest : forall k, In k rest -> In k from \/ exists p j, k = APort p (len + j) /\ (j < length ns)%nat;
  gr_from : forall k, In k from -> In k rest \/ used ns k;
  gr_ports : forall p j, (j < length ns)%nat -> In (APort p (len + j)) rest \/ used ns (APort p (len + j))
}.

Lemma grown_nil len q : grown len q [] q.
Proof. constructor; cbn; auto; try (intros [] ? ?; discriminate); try (intros; lia). Qed.

Lemma grown_perm len f f' ns r r' : (forall k, In k f <-> In k f') -> (forall k, In k r <-> In k r') -> grown len f ns r -> grown len f' ns r'.
Proof.
  intros F R [G1 G2 G3 G4 G5]. constructor; auto.
  - intros. rewrite <- F. eauto.
  - intros k. rewrite <- R, <- F. auto.
  - intros k. rewrite <- R, <- F. auto.
  - intros p j. rewrite <- R. auto.
Qed.

Lemma grown_trans len f ns r ns' r' : grown len f ns r -> grown (len + length ns) r ns' r' -> grown len f (ns ++ ns') r'.
Proof.
  intros [G1 G2 G3 G4 G5] [K1 K2 K3 K4 K5]. constructor.
  - intros nd H. apply in_app_or in H as [H|H]; auto.
  - intros i nd k H Hk. destruct (Nat.lt_ge_cases i (length ns)) as [L|L].
    + rewrite nth_error_app1 in H by auto. eauto.
    + rewrite nth_error_app2 in H by auto. destruct (K2 _ _ _ H Hk) as [H1|(p & j & -> & Hj)].
      * destruct (G3 _ H1) as [?|(p & j & -> & ?)]; [auto|]. right. exists p, j. split; [auto|lia].
      * right. exists p, (length ns + j)%nat. split; [f_equal; lia|lia].
  - intros k H. rewrite app_length. destruct (K3 _ H) as [H1|(p & j & -> & Hj)].
    + destruct (G3 _ H1) as [?|(p & j & -> & ?)]; [auto|]. right. exists p, j. split; [auto|lia].
    + right. exists p, (length ns + j)%nat. split; [f_equal; lia|lia].
  - intros k H. destruct (G4 _ H) as [H1|H1]; [|right; now apply used_app_l]. destruct (K4 _ H1); [auto|right; now apply used_app_r].
  - intros p j. rewrite app_length. intros L. destruct (Nat.lt_ge_cases j (length ns)) as [L'|L'].
    + destruct (G5 p j L') as [H1|H1]; [|right; now apply used_app_l]. destruct (K4 _ H1); [auto|right; now apply used_app_r].
    + destruct (K5 p (j - length ns)%nat ltac:(lia)) as [H1|H1]; replace (len + length ns + (j - length ns))%nat with (len + j)%nat in H1 by lia; [auto|right; now apply used_app_r].
Qed.

Lemma grown_keep len f ns r keep : grown len f ns r -> grown len (f ++ keep) ns (r ++ keep).
Proof.
  intros [G1 G2 G3 G4 G5]. constructor; auto.
  - intros i nd k H Hk. destruct (G2 _ _ _ H Hk); [left; apply in_or_app|]; auto.
  - intros k H. apply in_app_or in H as [H|H]; [destruct (G3 _ H); [left; apply in_or_app|]; auto|left; apply in_or_app; auto].
  - intros k H. apply in_app_or in H as [H|H]; [destruct (G4 _ H); [left; apply in_or_app|]; auto|left; apply in_or_app; auto].
  - intros p j H. destruct (G5 p j H); [left; apply in_or_app|]; auto.
Qed.

(** one adder *)
Lemma grown_one len sh r : grown len (kids sh ++ r) [new_node sh] (APort PSum len :: APort PCarry len :: r).
Proof.
  constructor.
  - intros nd [<-|[]]. eauto.
  - intros [|[|i]] nd k; cbn; intros [= <-]; try discriminate. cbn. intros H. left. apply in_or_app. auto.
  - intros k [<-|[<-|H]]; [right; exists PSum, 0%nat; split; [f_equal|cbn]; lia|right; exists PCarry, 0%nat; split; [f_equal|cbn]; lia|left; apply in_or_app; auto].
  - intros k H. apply in_app_or in H as [H|H]; [right; exists 0%nat, (new_node sh); auto|left; cbn; auto].
  - intros p j. cbn. intros L. replace (len + j)%nat with len by lia. left. destruct p; auto.
Qed.

Lemma reduce_total fuel : forall len q, (length q <= fuel)%nat -> exists ns cs q', reduce fuel len q = Some (ns, cs, q').
Proof.
  induction fuel as [|f IH]; intros len q L; destruct q as [|a [|b [|c r]]]; cbn [reduce length] in *; try lia; eauto.
  destruct (IH (S len) (r ++ [APort PSum len])) as (ns & cs & q' & E); [rewrite app_length; cbn; lia|]. rewrite E. cbn [obind]. eauto.
Qed.

Lemma reduce_grown fuel : forall len q ns cs q', reduce fuel len q = Some (ns, cs, q') -> grown len q ns (q' ++ cs).
Proof.
  assert (base : forall len q ns cs q', match q with [a; b] => Some ([new_node (Half a b)], [APort PCarry len], [APort PSum len]) | _ => Some ([], [], q) end = Some (ns, cs, q') ->
    grown len q ns (q' ++ cs)).
  { intros len q ns cs q' E. assert (T : ns = [] /\ cs = [] /\ q' = q \/ exists a b, q = [a; b] /\ ns = [new_node (Half a b)] /\ cs = [APort PCarry len] /\ q' = [APort PSum len]).
    { destruct q as [|a [|b [|c q]]]; injection E as <- <- <-; auto. right. exists a, b. auto. }
    destruct T as [(-> & -> & ->)|(a & b & -> & -> & -> & ->)]; [rewrite app_nil_r; apply grown_nil|].
    apply (grown_one len (Half a b) []). }
  induction fuel as [|f IH]; intros len q ns cs q' E.
  - destruct q as [|a [|b [|c r]]]; cbn [reduce] in E; try discriminate; eapply base; eauto.
  - destruct q as [|a [|b [|c r]]]; cbn [reduce] in E; try (eapply base; eauto; fail).
    destruct (reduce f (S len) (r ++ [APort PSum len])) as [[[ns1 cs1] q1]|] eqn:E1; [|discriminate]. cbn [obind] in E. injection E as <- <- <-.
    apply IH in E1. apply (grown_keep _ _ _ _ [APort PCarry len]) in E1.
    pose proof (grown_one len (Full a b c) r) as G1. cbn [kids app] in G1.
    eapply grown_perm; [reflexivity| |apply (grown_trans len (a :: b :: c :: r) [new_node (Full a b c)] _ ns1 _ G1)].
    2: { cbn [length]. replace (len + 1)%nat with (S len) by lia. eapply grown_perm; [|reflexivity|exact E1]. intros k; rewrite !in_app_iff; cbn; tauto. }
    intros k. rewrite !in_app_iff. cbn. tauto.
Qed.

Lemma reduce_sizes fuel : forall len q ns cs q', reduce fuel len q = Some (ns, cs, q') ->
  (length q' <= 1)%nat /\ (2 * length cs <= length q)%nat /\ ((length q <= 1)%nat -> cs = []).
Proof.
  induction fuel as [|f IH]; intros len q ns cs q' E; destruct q as [|a [|b [|c r]]]; cbn [reduce] in E; try discriminate; try (injection E as <- <- <-; cbn; repeat split; intros; lia || auto).
  destruct (reduce f (S len) (r ++ [APort PSum len])) as [[[ns1 cs1] q1]|] eqn:E1; [|discriminate]. cbn [obind] in E. injection E as <- <- <-.
  apply IH in E1 as (H1 & H2 & H3). rewrite app_length in H2. cbn [length] in *. repeat split; [auto|lia|lia].
Qed.

(** *** The whole network *)
Definition somes {A} (xs : list (option A)) : list A := concat (map (fun o => match o with Some x => [x] | None => [] end) xs).
Lemma in_somes {A} (x : A) xs : In x (somes xs) <-> In (Some x) xs.
Proof.
  unfold somes. rewrite in_concat. split.
  - intros (l & H & Hx). apply in_map_iff in H as ([y|] & <- & H); [|destruct Hx]. destruct Hx as [<-|[]]. auto.
  - intros H. exists [x]. split; [|now left]. apply in_map_iff. exists (Some x). auto.
Qed.

Lemma build_spec R bv (HR : rel_ok R) fuel : forall len bs, (length bs + length (concat bs) < fuel)%nat ->
  exists ns outs, build fuel len bs = Some (ns, outs) /\ grown len (concat bs) ns (somes outs) /\ (length bs <= length outs)%nat /\
    ((forall i nd, nth_error ns i = Some nd -> node_rel R bv (len + i) (an_sh nd)) -> R (hv bv outs) (bval bv bs)).
Proof.
  induction fuel as [|f IH]; intros len bs L; [lia|]. destruct bs as [|q rest].
  { exists [], []. split; [reflexivity|]. split; [apply grown_nil|]. split; [auto|]. intros _. apply (rel_refl _ HR). }
  cbn [build]. destruct (reduce_total (length q) len q ltac:(lia)) as (ns & cs & q' & E). rewrite E. cbn [obind].
  destruct (reduce_sizes _ _ _ _ _ _ E) as (S1 & S2 & S3). pose proof (reduce_grown _ _ _ _ _ _ E) as G. pose proof (reduce_rel R bv HR _ _ _ _ _ _ E) as HRel.
  set (rest1 := match rest with [] => if (2 <=? length q)%nat then [[]] else [] | _ => rest end).
  assert (T : exists rest2, match rest1, cs with [], [] => Some [] | [], _ :: _ => None | r :: rs, _ => Some ((r ++ cs) :: rs) end = Some rest2 /\
     (forall k, In k (concat rest2) <-> In k (cs ++ concat rest)) /\ bval bv rest2 = (bval bv rest + cnt bv cs)%nat /\
     (length rest <= length rest2)%nat /\ (length rest2 + length (concat rest2) < f)%nat).
  { cbn [concat] in L. rewrite app_length in L. cbn [length] in L. subst rest1. destruct rest as [|r rs].
    - destruct (Nat.leb_spec 2 (length q)) as [Q|Q].
      + exists [cs]. cbn [app concat bval length]. rewrite app_nil_r. cbn [concat length] in L. split; [reflexivity|]. split; [intros k; reflexivity|]. repeat split; lia.
      + rewrite (S3 ltac:(lia)). exists []. cbn [app concat bval length]. split; [reflexivity|]. split; [intros k; reflexivity|]. cbn [cnt map list_sum fold_right]. repeat split; lia.
    - exists ((r ++ cs) :: rs). cbn [concat bval length] in *. rewrite !app_length in *. split; [reflexivity|]. split; [intros k; rewrite !in_app_iff; tauto|]. rewrite cnt_app. repeat split; lia. }
  destruct T as (rest2 & -> & Hin & Hv & Hlen & Hf). cbn [obind].
  destruct (IH (len + length ns)%nat rest2 Hf) as (ns2 & outs & E2 & G2 & L2 & R2). rewrite E2. cbn [obind fst snd].
  replace (length q' <=? 1)%nat with true by (symmetry; apply Nat.leb_le; auto). cbn [assertb obind].
  exists (ns ++ ns2), (hd_error q' :: outs). split; [reflexivity|]. split; [|split].
  - assert (Hq' : forall k, In k (somes (hd_error q' :: outs)) <-> In k q' \/ In k (somes outs)).
    { intros k. unfold somes. cbn [map concat]. rewrite in_app_iff. destruct q' as [|x [|y q']]; cbn in *; try lia; tauto. }
    cbn [concat]. apply (grown_keep _ _ _ _ (concat rest)) in G. apply (grown_keep _ _ _ _ q') in G2.
    eapply grown_perm; [reflexivity| |apply (grown_trans len (q ++ concat rest) ns _ ns2 _ G)].
    2: { eapply grown_perm; [|reflexivity|exact G2]. intros k; rewrite ?in_app_iff, ?Hin, ?in_app_iff; cbn; tauto. }
    intros k. rewrite Hq', in_app_iff. tauto.
  - cbn [length]. lia.
  - intros H. cbn [hv bval]. assert (H1 := HRel ltac:(intros i nd Hi; apply H; rewrite nth_error_app1; [auto|apply nth_error_Some; congruence])).
    assert (H2 : R (hv bv outs) (bval bv rest2)).
    { apply R2. intros i nd Hi. specialize (H (length ns + i)%nat nd). rewrite nth_error_app2 in H by lia. replace (length ns + i - length ns)%nat with i in H by lia.
      specialize (H Hi). now replace (len + (length ns + i))%nat with (len + length ns + i)%nat in H by lia. }
    rewrite Hv in H2. apply (rel_double _ HR) in H2. apply (rel_plus _ HR _ _ (cnt bv q')) in H2. apply (rel_plus _ HR _ _ (2 * bval bv rest)) in H1.
    assert (oval bv (hd_error q') = cnt bv q') as -> by (destruct q' as [|x [|y q']]; cbn in *; lia).
    eapply (rel_trans _ HR); [eapply rel_cast; [exact H2|lia|reflexivity]|]. eapply rel_cast; [exact H1|lia|lia].
Qed.

(** ** Filling the buckets *)
Lemma bval_repeat bv n : bval bv (repeat [] n) = 0%nat.
Proof. induction n as [|n IH]; cbn [repeat bval]; [auto|]. rewrite IH. cbn. lia. Qed.
Lemma bval_app bv bs bs' : bval bv (bs ++ bs') = (bval bv bs + 2 ^ length bs * bval bv bs')%nat.
Proof. induction bs as [|q bs IH]; cbn [app bval length]; [cbn; lia|]. rewrite IH, Nat.pow_succ_r'. lia. Qed.
Lemma bval_resize bv bs n : bval bv (resize bs n []) = bval bv bs.
Proof. unfold resize. rewrite bval_app, bval_repeat. lia. Qed.
Lemma concat_resize (bs : list (list acon)) n : concat (resize bs n []) = concat bs.
Proof. unfold resize. rewrite concat_app. generalize (n - length bs)%nat as m. induction m as [|m IH]; cbn [repeat concat]; [apply app_nil_r|]. exact IH. Qed.

Lemma push_bits_val bv l : forall bs w, (w < 2 ^ length bs)%nat -> bval bv (push_bits bs w l) = (bval bv bs + if bv (AIn l) then w else 0)%nat.
Proof.
  induction bs as [|q bs IH]; intros w; cbn [push_bits bval length]; [change (2 ^ 0)%nat with 1%nat; intros; destruct (bv _); lia|].
  rewrite Nat.pow_succ_r'. intros L. pose proof (odd_div2 w) as E. rewrite IH by lia.
  destruct (Nat.odd w); rewrite ?cnt_app; cbn [b2n] in E; [unfold cnt at 2; cbn [map list_sum fold_right]|]; destruct (bv (AIn l)); cbn [b2n]; lia.
Qed.
Lemma push_bits_in l k : forall bs w, In k (concat (push_bits bs w l)) -> In k (concat bs) \/ k = AIn l.
Proof.
  induction bs as [|q bs IH]; intros w; cbn [push_bits concat]; [auto|]. rewrite !in_app_iff. intros [H|H]; [|apply IH in H; tauto].
  destruct (Nat.odd w); [apply in_app_or in H as [H|[<-|[]]]|]; auto.
Qed.
Lemma push_bits_keep l k : forall bs w, In k (concat bs) -> In k (concat (push_bits bs w l)).
Proof.
  induction bs as [|q bs IH]; intros w; cbn [push_bits concat]; [auto|]. rewrite !in_app_iff. intros [H|H]; [|right; auto].
  left. destruct (Nat.odd w); [apply in_or_app|]; auto.
Qed.

Lemma bit_len_bound w : (w < 2 ^ bit_len w)%nat.
Proof. unfold bit_len. destruct (Nat.eqb_spec w 0) as [->|E]; [cbn; lia|]. apply Nat.log2_spec. lia. Qed.

Lemma add_inputs_spec bv : forall xs bs, (forall l w, In (l, w) xs -> w <> 0%nat) ->
  exists bs', add_inputs bs xs = Some bs' /\ bval bv bs' = (bval bv bs + lsum (fun l => bv (AIn l)) xs)%nat /\
    (forall k, In k (concat bs') -> In k (concat bs) \/ exists l w, k = AIn l /\ In (l, w) xs) /\ (forall k, In k (concat bs) -> In k (concat bs')).
Proof.
  induction xs as [|[l w] xs IH]; intros bs P; cbn [add_inputs lsum].
  { exists bs. repeat split; auto. }
  unfold add_input. cbn [fst snd]. replace (w =? 0)%nat with false by (symmetry; apply Nat.eqb_neq; eapply P; now left). cbn [negb assertb obind].
  set (bs1 := if (length bs <=? bit_len w)%nat then resize bs (bit_len w + 1) [] else bs).
  assert (B1 : bval bv bs1 = bval bv bs) by (subst bs1; destruct (_ <=? _)%nat; [apply bval_resize|reflexivity]).
  assert (C1 : concat bs1 = concat bs) by (subst bs1; destruct (_ <=? _)%nat; [apply concat_resize|reflexivity]).
  assert (L1 : (w < 2 ^ length bs1)%nat).
  { eapply Nat.lt_le_trans; [apply bit_len_bound|]. apply Nat.pow_le_mono_r; [lia|]. subst bs1. destruct (Nat.leb_spec (length bs) (bit_len w)); [|lia].
    unfold resize. rewrite app_length, repeat_length. lia. }
  destruct (IH (push_bits bs1 w l)) as (bs' & E & V & I1 & I2); [intros; eapply P; right; eauto|]. rewrite E. exists bs'. split; [reflexivity|]. split; [|split].
  - rewrite V, push_bits_val, B1 by auto. lia.
  - intros k H. apply I1 in H as [H|(x & y & -> & H)]; [|right; exists x, y; cbn; auto]. apply push_bits_in in H as [H| ->]; [rewrite C1 in H; auto|].
    right. exists l, w. cbn. auto.
  - intros k H. apply I2, push_bits_keep. now rewrite C1.
Qed.

Lemma push_outputs_val bv : forall bs outs, (length outs <= length bs)%nat -> bval bv (push_outputs bs outs) = (bval bv bs + hv bv outs)%nat.
Proof.
  induction bs as [|q bs IH]; intros [|o outs] L; cbn [length] in L; try lia; cbn [push_outputs bval hv]; try lia.
  destruct o as [c|]; cbn [bval]; rewrite IH by lia; rewrite ?cnt_app; cbn [oval]; [unfold cnt at 2; cbn [map list_sum fold_right]|]; lia.
Qed.
Lemma push_outputs_in k : forall bs outs, (length outs <= length bs)%nat -> (In k (concat (push_outputs bs outs)) <-> In k (concat bs) \/ In (Some k) outs).
Proof.
  induction bs as [|q bs IH]; intros [|o outs] L; cbn [length] in L; try lia; cbn [push_outputs concat In]; try tauto.
  destruct o as [c|]; cbn [concat]; rewrite !in_app_iff, IH by lia; [|intuition congruence].
  cbn [In]. intuition congruence.
Qed.
