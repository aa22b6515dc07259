(** * Proofs about the Python bindings *)

From Coq Require Import List Bool NArith ZArith Lia Arith ZifyBool ZifyNat ZifyN.
From Verif Require Import Spec Types Base Constraints VarMan NodeDb PySpec Pyapi.
Import ListNotations.

(** ** Indices and slices *)

Section Slices.
Context {X : Type}.
Implicit Types xs ys : list X.

Lemma count_zero i j k : (0 < k)%Z -> Z.to_nat (- ((i - j) / k)) = 0 -> (j <= i)%Z.
Proof. intros Hk H. destruct (Z.lt_ge_cases i j) as [L|L]; [|exact L]. assert ((i - j) / k < 0)%Z by (apply Z.div_lt_upper_bound; lia). lia. Qed.
Lemma count_none i j k : (0 < k)%Z -> (j <= i)%Z -> Z.to_nat (- ((i - j) / k)) = 0.
Proof. intros Hk H. assert (0 <= (i - j) / k)%Z by (apply Z.div_pos; lia). lia. Qed.
Lemma count_next i j k n : (0 < k)%Z -> Z.to_nat (- ((i - j) / k)) = S n -> Z.to_nat (- ((i + k - j) / k)) = n.
Proof. intros Hk H. replace (i + k - j)%Z with (i - j + 1 * k)%Z by lia. rewrite Z.div_add by lia. lia. Qed.
Lemma count_le i j k : (0 < k)%Z -> (0 <= i)%Z -> Z.to_nat (- ((i - j) / k)) <= Z.to_nat j.
Proof.
  intros Hk Hi. destruct (Z.le_gt_cases j i) as [L|L]; [rewrite count_none by lia; lia|].
  assert (i - j <= (i - j) / k)%Z by (apply Z.div_le_lower_bound; nia). lia.
Qed.

Lemma walk_ok xs j k : (0 < k)%Z -> (j <= Z.of_nat (length xs))%Z -> (Z.of_nat (length xs) <= isize_max)%Z -> forall n fuel i, (0 <= i)%Z -> Z.to_nat (- ((i - j) / k)) = n -> n < fuel ->
  exists ys, walk fuel xs i j k = Some ys /\ Forall2 (fun p y => (0 <= p)%Z /\ nth_error xs (Z.to_nat p) = Some y) (map (fun m => (i + Z.of_nat m * k)%Z) (seq 0 n)) ys.
Proof.
  intros Hk Hj Hlen. induction n as [|n IH]; intros [|fuel] i Hi Hn Hf; try lia; cbn [walk].
  - apply count_zero in Hn; [|exact Hk]. destruct (Z.ltb_spec i j); [lia|]. exists []. split; [reflexivity|constructor].
  - destruct (Z.ltb_spec i j) as [L|L]; [|rewrite count_none in Hn by lia; discriminate Hn]. destruct (Z.leb_spec (Z.of_nat (length xs)) i) as [G|G]; [lia|].
    destruct (nth_error xs (Z.to_nat i)) as [x|] eqn:Ex; [|apply nth_error_None in Ex; lia]. cbn [obind]. pose proof (count_next _ _ _ _ Hk Hn) as Hn'.
    assert (S0 : map (fun m => (i + Z.of_nat m * k)%Z) (seq 0 (S n)) = i :: map (fun m => (i + k + Z.of_nat m * k)%Z) (seq 0 n)).
    { cbn [seq map]. f_equal; [lia|]. rewrite <- seq_shift, map_map. apply map_ext. intros m. lia. }
    rewrite S0. destruct (Z.leb_spec usize_size (i + k)) as [O|O].
    + assert (n = 0) as ->. { rewrite <- Hn'. apply count_none; [exact Hk|]. unfold usize_size, isize_max in *. lia. }
      exists [x]. split; [reflexivity|]. constructor; [split; [lia|exact Ex]|constructor].
    + destruct (IH fuel (i + k)%Z ltac:(lia) Hn' ltac:(lia)) as (ys & -> & Hy). cbn [obind]. exists (x :: ys). split; [reflexivity|]. constructor; [split; [lia|exact Ex]|exact Hy].
Qed.

(** keys for which the bindings do what Python programmers expect *)
Definition plain_key (adj : bool) xs (key : pykey) : Prop :=
  match key with
  | KInt i => (0 <= i < Z.of_nat (length xs))%Z /\ (i <= i32_max)%Z \/ adj = true /\ (- Z.of_nat (length xs) <= i < 0)%Z /\ (i + Z.of_nat (length xs) <= i32_max)%Z
  | KSlice _ _ (Some k) => (0 <= k)%Z
  | _ => True
  end.
Lemma getitem_ok adj dbg xs key : (Z.of_nat (length xs) <= isize_max)%Z -> plain_key adj xs key -> py_get xs key (getitem adj dbg xs key).
Proof.
  intros Hlen Hk. unfold py_get, getitem. destruct key as [i|start stop step|]; [| |reflexivity].
  - cbn [plain_key] in Hk. unfold i32_min, i32_max in *. cbv zeta.
    assert (Hp : (if adj && (i <? 0) then i + Z.of_nat (length xs) else i)%Z = (if i <? 0 then i + Z.of_nat (length xs) else i)%Z) by (destruct (Z.ltb_spec i 0), adj; cbn [andb]; try reflexivity; destruct Hk as [Hk|[Hk _]]; [lia|discriminate Hk]).
    rewrite Hp. clear Hp. set (p := (if i <? 0 then i + Z.of_nat (length xs) else i)%Z). assert (Hq : (0 <= p < Z.of_nat (length xs) /\ p <= 2147483647)%Z) by (unfold p; destruct (Z.ltb_spec i 0); lia).
    clearbody p. clear Hk i. rename p into i, Hq into Hk. destruct (Z.ltb_spec i 0) as [L|_]; [lia|].
    replace ((0 <=? i) && (i <? Z.of_nat (length xs)))%Z with true by lia. replace ((-2147483648 <=? i) && (i <=? 2147483647))%Z with true by lia.
    destruct (Z.leb_spec (Z.of_nat (length xs)) i); [lia|]. destruct (nth_error xs (Z.to_nat i)) as [x|] eqn:E; [|apply nth_error_None in E; lia]. exists x. auto.
  - assert (Hp : (0 <= match step with Some k => k | None => 1 end)%Z) by (destruct step; cbn [plain_key] in Hk; lia). unfold slice_indices. cbv zeta.
    set (k := match step with Some k => k | None => 1%Z end) in *. clearbody k. destruct (Z.eqb_spec k 0) as [E|E]; [reflexivity|].
    destruct (Z.ltb_spec 0 k) as [L|L]; [|lia]. set (n := Z.of_nat (length xs)) in *.
    set (i := match start with Some i => clip n k i | None => 0%Z end). set (j := match stop with Some j => clip n k j | None => n end).
    assert (Hi : (0 <= i <= n)%Z). { unfold i. destruct start as [z|]; [|lia]. unfold clip. destruct (Z.ltb_spec 0 k); [|lia]. destruct (z <? 0)%Z; lia. }
    assert (Hj : (0 <= j <= n)%Z). { unfold j. destruct stop as [z|]; [|lia]. unfold clip. destruct (Z.ltb_spec 0 k); [|lia]. destruct (z <? 0)%Z; lia. }
    clearbody i j. replace ((i <? 0) || (j <? 0) || (k <? 0))%Z with false by lia. rewrite andb_false_r. unfold as_usize. 
    replace (i <? 0)%Z with false by lia. replace (j <? 0)%Z with false by lia. replace (k <? 0)%Z with false by lia.
    pose proof (count_le i j k L (proj1 Hi)) as Hc. destruct (walk_ok xs j k L (proj2 Hj) Hlen _ (S (length xs)) i (proj1 Hi) eq_refl ltac:(lia)) as (ys & -> & Hy). exists ys. split; [reflexivity|exact Hy].
Qed.
End Slices.

(** ** Iterators *)

Section Iterators.
Context {X Op : Type} (method : Op -> list X -> list X * bool).
Definition all_flagged (os : list (seqop Op)) : Prop := forall m xs, In (SModify m) os -> snd (method m xs) = true.

Lemma set_nth_length {Y} k (y : Y) l : k < length l -> length (set_nth k y l) = length l.
Proof.
  intros H. unfold set_nth. rewrite app_length, firstn_length. pose proof (skipn_length k l) as E. destruct (skipn k l) as [|z r]; cbn [length] in *; lia.
Qed.
Lemma set_nth_map {Y Z} (f : Y -> Z) k y l : map f (set_nth k y l) = set_nth k (f y) (map f l).
Proof. unfold set_nth. rewrite map_app, firstn_map, skipn_map. now destruct (skipn k l). Qed.
Lemma set_nth_at {Y} k (y : Y) l : k < length l -> nth_error (set_nth k y l) k = Some y.
Proof.
  intros H. unfold set_nth. pose proof (skipn_length k l) as E. rewrite nth_error_app2 by (rewrite firstn_length; lia). rewrite firstn_length, Nat.min_l, Nat.sub_diag by lia.
  destruct (skipn k l) as [|z r]; cbn [length] in E; [lia|reflexivity].
Qed.

Definition agree (s : @pobj X) (t : @iseq X) : Prop := po_xs s = fst t /\ po_its s = map fst (snd t) /\
  forall it, nth_error (snd t) (length (snd t) - 1) = Some it -> snd it = po_modified s.
Lemma run_ok os : forall s t, agree s t -> newest_only (length (snd t)) os -> all_flagged os ->
  exists rs, pobj_run method s os = Some rs /\ ideal_run (fun o xs => fst (method o xs)) t os = Some rs.
Proof.
  induction os as [|o os IH]; intros s t (A1 & A2 & A3) Hn Hf; [exists []; auto|].
  assert (Hf' : all_flagged os) by (intros m xs H; apply Hf; now right). cbn [pobj_run ideal_run]. destruct o as [m| |k]; cbn [pobj_step ideal_step newest_only] in *.
  - pose proof (Hf m (po_xs s) (or_introl eq_refl)) as Hfl. rewrite <- A1. destruct (method m (po_xs s)) as [xs fl] eqn:Em. cbn [snd] in Hfl. subst fl. cbn [obind fst snd].
    destruct (IH (mkPobj xs true (po_its s)) (xs, map (fun it => (fst it, true)) (snd t))) as (rs & E1 & E2); [|cbn [snd]; now rewrite map_length|exact Hf'|].
    + split; [reflexivity|]. cbn [po_its snd po_modified]. split; [now rewrite A2, map_map|]. intros it H. apply nth_error_In in H. apply in_map_iff in H as (x & <- & _). reflexivity.
    + rewrite E1, E2. exists rs. auto.
  - cbn [obind fst snd]. destruct (IH (mkPobj (po_xs s) false (po_its s ++ [0])) (fst t, snd t ++ [(0, false)])) as (rs & E1 & E2); [|cbn [snd]; rewrite app_length; cbn; now rewrite Nat.add_1_r|exact Hf'|].
    + split; [exact A1|]. cbn [po_its snd po_modified]. split; [rewrite map_app, A2; reflexivity|]. intros it H. rewrite app_length in H. cbn [length] in H.
      rewrite nth_error_app2 in H by lia. replace (length (snd t) + 1 - 1 - length (snd t)) with 0 in H by lia. injection H as <-. reflexivity.
    + rewrite E1, E2. exists rs. auto.
  - destruct Hn as [Hk Hn]. assert (Ek : k = length (snd t) - 1) by lia. destruct (nth_error (snd t) k) as [[i fl]|] eqn:Et; [|apply nth_error_None in Et; lia].
    rewrite A2, nth_error_map, Et. cbn [option_map obind fst]. pose proof Et as Et'. rewrite Ek in Et'. apply A3 in Et'. cbn [snd] in Et'. subst fl. destruct (po_modified s) eqn:Em; cbn [obind fst snd].
    + destruct (IH s t) as (rs & E1 & E2); [split; [exact A1|split; [exact A2|rewrite Em; exact A3]]|exact Hn|exact Hf'|]. rewrite E1, E2. exists (PyRuntimeError :: rs). auto.
    + rewrite A1. destruct (Nat.ltb_spec i (length (fst t))) as [L|L].
      * destruct (nth_error (fst t) i) as [x|] eqn:Ex; [|apply nth_error_None in Ex; lia]. cbn [obind fst snd].
        destruct (IH (mkPobj (fst t) false (set_nth k (S i) (map fst (snd t)))) (fst t, set_nth k (S i, false) (snd t))) as (rs & E1 & E2); [|cbn [snd]; rewrite set_nth_length by lia; exact Hn|exact Hf'|].
        -- split; [reflexivity|]. cbn [po_its snd po_modified]. split; [now rewrite set_nth_map|]. intros it H. rewrite set_nth_length in H by lia. rewrite <- Ek, set_nth_at in H by lia. injection H as <-. reflexivity.
        -- rewrite E1, E2. exists (PyOne x :: rs). auto.
      * rewrite (proj2 (nth_error_None _ _) L). cbn [obind fst snd].
        destruct (IH s t) as (rs & E1 & E2); [split; [exact A1|split; [exact A2|rewrite Em; exact A3]]|exact Hn|exact Hf'|]. rewrite E1, E2. exists (PyStop :: rs). auto.
Qed.
Lemma iterators_ok xs md os : newest_only 0 os -> all_flagged os ->
  exists rs, pobj_run method (mkPobj xs md []) os = Some rs /\ ideal_run (fun o ys => fst (method o ys)) (xs, []) os = Some rs.
Proof. intros Hn Hf. apply run_ok; [|exact Hn|exact Hf]. split; [reflexivity|]. split; [reflexivity|]. intros it H. discriminate H. Qed.
End Iterators.

(** ** Variable managers *)

Lemma pvm_fresh os : forall s vs s', pvm_run s os = Some (vs, s') -> fresh_vars s os vs /\ (s <= s')%N /\ (forall v, In v vs -> (v <= s')%N) /\ (forall n, In (VIncrease n) os -> (n <= s')%N).
Proof.
  induction os as [|[n|] os IH]; intros s vs s' E; cbn [pvm_run] in E.
  - injection E as <- <-. cbn. split; [exact Logic.I|]. split; [lia|]. split; intros ? [].
  - unfold pvm_increase, var_new in E. destruct (n <=? max_var_idx)%N; [|discriminate E]. cbn [obind] in E. apply IH in E as (E1 & E2 & E3 & E4). cbn [fresh_vars].
    assert (M : fst (next_increase n s) = N.max s n) by (unfold next_increase; destruct (N.ltb_spec s n); cbn [fst]; lia). rewrite M in *.
    split; [exact E1|]. split; [lia|]. split; [exact E3|]. intros q [H|H]; [injection H as <-; lia|auto].
  - unfold pvm_new_var, next_new, var_succ in E. destruct (N.leb_spec (s + 1) max_var_idx) as [L|L]; [|discriminate E]. cbn [obind fst snd] in E. destruct (pvm_run (s + 1) os) as [[vs1 s1]|] eqn:Er; [|discriminate E].
    cbn [obind fst snd] in E. injection E as <- <-. apply IH in Er as (E1 & E2 & E3 & E4). cbn [fresh_vars]. split; [|split; [lia|split; [intros v [<-|H]; [lia|auto]|intros n [H|H]; [discriminate H|auto]]]].
    split; [lia|]. split; [|exact E1]. unfold from_ipasir, pos. destruct (Z.eqb_spec (Z.of_N (s + 1)) 0); [lia|].
    destruct (N.ltb_spec max_var_idx (Z.abs_N (Z.of_N (s + 1)) - 1)); [lia|]. replace (Z.of_N (s + 1) <? 0)%Z with false by lia. do 2 f_equal. lia.
Qed.
Definition is_new (o : vmop) : bool := match o with VNew => true | _ => false end.
Lemma pvm_total top os : (forall n, In (VIncrease n) os -> (n <= top)%N) -> forall s, (s <= top)%N -> (top + N.of_nat (length (filter is_new os)) <= max_var_idx)%N -> exists r, pvm_run s os = Some r.
Proof.
  revert top. induction os as [|[n|] os IH]; intros top Ht s Hs Hm; cbn [pvm_run]; [eexists; reflexivity| |].
  - unfold pvm_increase, var_new. assert (n <= top)%N by (apply Ht; now left). cbn [filter is_new] in Hm. destruct (N.leb_spec n max_var_idx); [|lia]. cbn [obind].
    apply (IH top); [intros q Hq; apply Ht; now right| |exact Hm]. unfold next_increase. destruct (N.ltb_spec s n); cbn [fst]; lia.
  - unfold pvm_new_var, next_new, var_succ. cbn [filter is_new length] in Hm. destruct (N.leb_spec (s + 1) max_var_idx); [|lia]. cbn [obind fst snd].
    destruct (IH (top + 1)%N ltac:(intros q Hq; specialize (Ht q (or_intror Hq)); lia) (s + 1)%N ltac:(lia) ltac:(lia)) as (r & ->). cbn [obind]. eexists. reflexivity.
Qed.
