(** * Lemmas about the benchmark generator: pseudo-Boolean encodings *)

From Coq Require Import List Bool NArith ZArith Ascii String Arith Lia.
From Verif Require Import Spec Types Base Constraints ConstrSpec ConstrProofs Atomics Maps NodeDb Inst Text TextProofs FioSpec Dimacs DimacsProofs Opb OpbSpec OpbProofs OpbInst InstSpec ToolSpec Bench BenchSpec.
Import ListNotations.
Open Scope list_scope.

(** ** Iterators *)
Section Drain.
Context {St L : Type} (next : St -> istep St L).
Lemma drain_mono f s r : drain next f s = Some r -> forall g, (f <= g)%nat -> drain next g s = Some r.
Proof.
  revert s r. induction f as [|f IH]; intros s r H g Hg; [discriminate|]. destruct g as [|g]; [lia|]. cbn [drain] in *.
  destruct (next s) as [l s'|s'| |]; [|apply (IH s' r H); lia|exact H|exact H].
  destruct (drain next f s') as [x|] eqn:E; [|discriminate]. now rewrite (IH s' x E g ltac:(lia)).
Qed.
Definition yields (s : St) (ls : list L) : Prop := exists k, drain next k s = Some (ROk ls).
Lemma yields_end s : next s = IEnd -> yields s [].
Proof. intros H. exists 1%nat. cbn [drain]. now rewrite H. Qed.
Lemma yields_step s l s' ls : next s = IYield l s' -> yields s' ls -> yields s (l :: ls).
Proof. intros H [k E]. exists (S k). cbn [drain]. now rewrite H, E. Qed.
Lemma yields_loop s s' ls : next s = ILoop s' -> yields s' ls -> yields s ls.
Proof. intros H [k E]. exists (S k). cbn [drain]. now rewrite H. Qed.
Lemma yields_produces {X} (w : option (res (list L)) -> option (res X)) s ls x : yields s ls -> w (Some (ROk ls)) = Some (ROk x) -> produces (fun f => w (drain next f s)) x.
Proof. intros [k E] H. exists k. intros f Hf. now rewrite (drain_mono k s _ E f Hf). Qed.
End Drain.

(** ** Sums *)
Lemma list_sum_cons x xs : list_sum (x :: xs) = (x + list_sum xs)%nat. Proof. reflexivity. Qed.
Lemma list_sum_ext {A} (f g : A -> nat) xs : (forall x, In x xs -> f x = g x) -> list_sum (map f xs) = list_sum (map g xs).
Proof. intros H. f_equal. now apply map_ext_in. Qed.
Lemma sum_to_ext n f g : (forall i, (i < n)%nat -> f i = g i) -> sum_to n f = sum_to n g.
Proof. intros H. apply list_sum_ext. intros x Hx. apply in_seq in Hx. apply H. lia. Qed.
Lemma list_sum_shift {A} (f : nat -> A) n : forall k, map f (seq k n) = map (fun i => f (k + i)%nat) (seq 0 n).
Proof.
  induction n as [|n IH]; intros k; [reflexivity|]. cbn [seq map]. f_equal; [now rewrite Nat.add_0_r|]. rewrite (IH (S k)), <- (seq_shift n 0), map_map. apply map_ext. intros i. f_equal. lia.
Qed.
Lemma sum_to_zero n f : (forall i, (i < n)%nat -> f i = 0%nat) -> sum_to n f = 0%nat.
Proof. intros H. rewrite (sum_to_ext n f (fun _ => 0%nat) H). unfold sum_to. induction (seq 0 n) as [|x xs IH]; [reflexivity|exact IH]. Qed.
Lemma sum_to_S n f : sum_to (S n) f = (sum_to n f + f n)%nat.
Proof. unfold sum_to. rewrite seq_S, map_app, list_sum_app. cbn [map Nat.add]. rewrite list_sum_cons. cbn [list_sum fold_right]. now rewrite Nat.add_0_r. Qed.
Lemma sum_to_one n f i : (i < n)%nat -> (forall j, (j < n)%nat -> j <> i -> f j = 0%nat) -> sum_to n f = f i.
Proof.
  induction n as [|n IH]; intros Hi H; [lia|]. rewrite sum_to_S. destruct (Nat.eq_dec i n) as [->|Hn].
  - rewrite sum_to_zero; [reflexivity|]. intros j Hj. apply H; lia.
  - rewrite IH by (try lia; intros j Hj Hji; apply H; lia). rewrite (H n) by lia. lia.
Qed.
Lemma sum_to_plus n f g : sum_to n (fun i => f i + g i)%nat = (sum_to n f + sum_to n g)%nat.
Proof. induction n as [|n IH]; [reflexivity|]. rewrite !sum_to_S, IH. lia. Qed.
Lemma sum_to_le n f g : (forall i, (i < n)%nat -> (f i <= g i)%nat) -> (sum_to n f <= sum_to n g)%nat.
Proof. induction n as [|n IH]; intros H; [apply le_n|]. rewrite !sum_to_S. pose proof (H n). assert (sum_to n f <= sum_to n g)%nat by (apply IH; intros; apply H; lia). lia. Qed.
Lemma sum_to_nth ws : sum_to (List.length ws) (fun i => nth i ws 0%nat) = list_sum ws.
Proof.
  unfold sum_to. f_equal. induction ws as [|w ws IH]; [reflexivity|]. cbn [List.length seq map nth]. f_equal. rewrite list_sum_shift. exact IH.
Qed.
(** A segment of a list *)
Lemma segment_sum ws k n : (k + n <= List.length ws)%nat -> sum_to n (fun i => nth (k + i) ws 0%nat) = list_sum (firstn n (skipn k ws)).
Proof.
  revert k. induction n as [|n IH]; intros k H; [reflexivity|]. rewrite sum_to_S, IH by lia.
  assert (firstn (S n) (skipn k ws) = firstn n (skipn k ws) ++ [nth (k + n) ws 0%nat]) as ->; [|now rewrite list_sum_app, list_sum_cons, Nat.add_0_r].
  assert (H' : (n < List.length (skipn k ws))%nat) by (rewrite skipn_length; lia). assert (E : nth (k + n) ws 0%nat = nth n (skipn k ws) 0%nat).
  { rewrite <- (firstn_skipn k ws) at 1. rewrite app_nth2; rewrite firstn_length_le by lia; [f_equal; lia|lia]. }
  rewrite E. clear - H'. revert n H'. induction (skipn k ws) as [|x xs IH]; intros n H; [cbn in H; lia|]. destruct n as [|n]; [reflexivity|]. cbn [firstn nth app]. f_equal. apply IH. cbn in H. lia.
Qed.
Lemma list_sum_part ws k n : (list_sum (firstn n (skipn k ws)) <= list_sum ws)%nat.
Proof.
  rewrite <- (firstn_skipn k ws) at 2. rewrite list_sum_app. rewrite <- (firstn_skipn n (skipn k ws)) at 2. rewrite list_sum_app. lia.
Qed.

Lemma lit_at_ok i b : (N.of_nat i < max_var_idx)%N -> lit_at i b = Some (mkLit (N.of_nat i) b).
Proof.
  intros H. unfold lit_at. change max_var_idx with 2147483647%N in *. rewrite N.mod_small by lia. now replace (N.of_nat i <? 2147483647)%N with true by lia.
Qed.
Lemma mapM_map {A B} (f : A -> option B) (g : A -> B) xs : (forall x, In x xs -> f x = Some (g x)) -> mapM f xs = Some (map g xs).
Proof.
  induction xs as [|x xs IH]; intros H; [reflexivity|]. cbn [mapM map]. rewrite (H x (or_introl eq_refl)). cbn [obind]. rewrite IH by (intros; apply H; now right). reflexivity.
Qed.
Lemma enumerate_map {A} (xs : list A) d : enumerate xs = map (fun i => (i, nth i xs d)) (seq 0 (List.length xs)).
Proof.
  unfold enumerate. assert (H : forall k, combine (seq k (List.length xs)) xs = map (fun i => ((k + i)%nat, nth i xs d)) (seq 0 (List.length xs))); [|exact (H 0%nat)].
  induction xs as [|x xs IH]; intros k; [reflexivity|]. cbn [List.length seq combine map nth]. rewrite Nat.add_0_r. f_equal. rewrite IH, (list_sum_shift (fun i => ((k + i)%nat, match i with O => x | S m => nth m xs d end)) _ 1).
  apply map_ext. intros i. cbn [Nat.add nth]. f_equal. lia.
Qed.
(** Weighted sums over indexed literals *)
Lemma wsum_seq a (g : nat -> N) (w : nat -> nat) (s : bool) n : wsum a (map (fun i => (mkLit (g i) s, w i)) (seq 0 n)) = sum_to n (fun i => if xorb (a (g i)) s then w i else 0%nat).
Proof.
  unfold sum_to. induction (seq 0 n) as [|i xs IH]; [reflexivity|]. cbn [map wsum]. rewrite IH, list_sum_cons. unfold lit_true. cbn [lvar lneg]. destruct (a (g i)), s; reflexivity.
Qed.
Lemma zwsum_seq a (g : nat -> N) (w : nat -> nat) n : zwsum a (map (fun i => (mkLit (g i) false, Z.of_nat (w i))) (seq 0 n)) = Z.of_nat (sum_to n (fun i => if a (g i) then w i else 0%nat)).
Proof.
  unfold sum_to. induction (seq 0 n) as [|i xs IH]; [reflexivity|]. cbn [map zwsum]. rewrite IH, list_sum_cons. unfold lit_true. cbn [lvar lneg]. destruct (a (g i)); cbn; lia.
Qed.
Lemma count_seq a (g : nat -> N) n : count_true a (map (fun i => mkLit (g i) false) (seq 0 n)) = sum_to n (fun i => if a (g i) then 1%nat else 0%nat).
Proof.
  unfold sum_to. induction (seq 0 n) as [|i xs IH]; [reflexivity|]. cbn [map count_true]. rewrite IH, list_sum_cons. unfold lit_true. cbn [lvar lneg]. now destruct (a (g i)).
Qed.
Lemma total_seq (g : nat -> lit) (w : nat -> nat) n : total_weight (map (fun i => (g i, w i)) (seq 0 n)) = sum_to n w.
Proof. unfold sum_to. induction (seq 0 n) as [|i xs IH]; [reflexivity|]. cbn [map total_weight]. now rewrite IH, list_sum_cons. Qed.
Lemma total_app xs ys : total_weight (xs ++ ys) = (total_weight xs + total_weight ys)%nat.
Proof. induction xs as [|[l w] xs IH]; [reflexivity|]. cbn [app total_weight]. lia. Qed.
Lemma wsum_app a xs ys : wsum a (xs ++ ys) = (wsum a xs + wsum a ys)%nat.
Proof. induction xs as [|[l w] xs IH]; [reflexivity|]. cbn [app wsum]. lia. Qed.
(** Exactly one *)
Lemma count_one (b : nat -> bool) n : sum_to n (fun i => if b i then 1%nat else 0%nat) = 1%nat <-> exists i, (i < n)%nat /\ forall j, (j < n)%nat -> b j = (i =? j)%nat.
Proof.
  split.
  - induction n as [|n IH]; [discriminate|]. rewrite sum_to_S. destruct (b n) eqn:E; intros H.
    + exists n. split; [lia|]. intros j Hj. destruct (Nat.eqb_spec n j) as [->|Hn]; [exact E|].
      destruct (b j) eqn:Ej; [|reflexivity]. exfalso. assert (1 <= sum_to n (fun i => if b i then 1 else 0))%nat; [|lia].
      clear - Hj Hn Ej. assert (Hlt : (j < n)%nat) by lia. clear Hj Hn. induction n as [|n IHn]; [lia|]. rewrite sum_to_S. destruct (Nat.eq_dec j n) as [->|]; [rewrite Ej; lia|]. assert (j < n)%nat by lia. specialize (IHn H). lia.
    + destruct IH as (i & Hi & Hb); [lia|]. exists i. split; [lia|]. intros j Hj. destruct (Nat.eq_dec j n) as [->|]; [rewrite E; symmetry; apply Nat.eqb_neq; lia|apply Hb; lia].
  - intros (i & Hi & Hb). rewrite (sum_to_one n _ i Hi); [now rewrite Hb, Nat.eqb_refl|]. intros j Hj Hn. rewrite Hb by assumption. destruct (Nat.eqb_spec i j); [congruence|reflexivity].
Qed.

(** ** Writing lines *)
Definition wline_fits (o : opb_opts) (l : opb_wline) : Prop :=
  match l with
  | OComment _ => True
  | OClause c => opb_writable o (mkInst [c] [] [] 0)
  | OCard c => opb_writable o (mkInst [] [c] [] 0)
  | OPb c => opb_writable o (mkInst [] [] [c] 0)
  | OObjective ls => (forall l w, In (l, w) ls -> var_fits o l) /\ (Z.of_nat (total_weight ls) <= isize_max)%Z
  end.
Lemma wline_some o l : wline_fits o l -> exists t, write_opb_line o l = Some t.
Proof.
  assert (H1 : forall i x, opb_writable o i -> (forall t, opb_constraints o i = Some t -> exists t', x = Some t') -> exists t : text, x = Some t) by (intros i x H K; destruct (opb_constraints_some o i H) as [t E]; exact (K t E)).
  destruct l as [c|c|c|c|ob]; cbn [wline_fits write_opb_line]; intros H.
  - eexists. reflexivity.
  - apply (H1 _ _ H). intros t. unfold opb_constraints. cbn [i_cnf i_cards i_pbs map app concat_opt]. destruct (opb_clause o c); [eauto|discriminate].
  - apply (H1 _ _ H). intros t. unfold opb_constraints. cbn [i_cnf i_cards i_pbs map app concat_opt]. destruct (opb_card o c); [eauto|discriminate].
  - apply (H1 _ _ H). intros t. unfold opb_constraints. cbn [i_cnf i_cards i_pbs map app concat_opt]. destruct (opb_pb o c); [eauto|discriminate].
  - apply opb_objective_some; [apply H|]. destruct H. lia.
Qed.
Lemma pb_bench {St} (next : St -> istep St opb_wline) o s ls : yields next s ls -> Forall (fun l => wline_fits o l /\ wline_ok l) ls ->
  exists t ss, produces (fun fuel => bench_write_pb o (drain next fuel s)) t /\ opb_file (first_var_idx o) ss t /\
    (forall a, constrs_hold a ss <-> forall l, In l ls -> wline_holds a l) /\
    forall a, opb_costs ss a = map (fun l => (Z.of_nat (wsum a l) - lost_constant o l 0)%Z) (wline_objs ls).
Proof.
  intros Hy Hf. destruct (concat_opt_some (write_opb_line o) ls) as [t Et].
  { intros l Hl. apply wline_some. rewrite Forall_forall in Hf. now apply Hf. }
  fold (write_opb_lines o ls) in Et. destruct (write_lines_file o ls t Et) as (ss & P & F & Ln & C & O).
  { eapply Forall_impl; [|exact Hf]. intros l H. apply H. }
  exists t, ss. split; [|split; [now apply prefix_whole|split; [exact C|]]].
  - apply (yields_produces next (bench_write_pb o) s ls t Hy). cbn [bench_write_pb]. now rewrite Et.
  - intros a. unfold opb_costs. rewrite O, map_map. cbn [fst snd]. apply map_ext. intros l. pose proof (signed_sum o l a). unfold lost_constant. rewrite <- neg_weight_negated. lia.
Qed.
Lemma var_fits_at o n i s : vars_fit o n -> (i < n)%nat -> var_fits o (mkLit (N.of_nat i) s) /\ (N.of_nat i < max_var_idx)%N /\ (N.of_nat i <= max_var_idx)%N.
Proof. intros [H1 H2] Hi. unfold var_fits. cbn [lvar]. lia. Qed.

Lemma one_line_digits n : one_line (print_nat n).
Proof. intros c Hc. pose proof (print_N_digits (N.of_nat n)) as H. rewrite forallb_forall in H. apply H in Hc. split; intros ->; discriminate. Qed.
Lemma one_line_lit s : forallb (fun c => negb (Ascii.eqb c nl || Ascii.eqb c cr)) (T s) = true -> one_line (T s).
Proof. intros H c Hc. rewrite forallb_forall in H. apply H in Hc. apply negb_true_iff, orb_false_iff in Hc as [H1 H2]. split; now apply Ascii.eqb_neq. Qed.
Ltac one_line_tac := repeat first [apply one_line_app|apply one_line_digits|apply one_line_lit; reflexivity].

(** ** Knapsack *)
Lemma convert_pos (g : nat -> lit) (w : nat -> nat) n : let r := convert_input_lits (map (fun i => (g i, Z.of_nat (w i))) (seq 0 n)) in
  r = (map (fun i => (g i, w i)) (seq 0 n), sum_to n w, 0%Z).
Proof.
  unfold sum_to. induction (seq 0 n) as [|i xs IH]; [reflexivity|]. cbn [map convert_input_lits]. rewrite IH. rewrite Zabs2Nat.id, list_sum_cons. replace (0 <=? Z.of_nat (w i))%Z with true by lia. reflexivity.
Qed.
Lemma picked_sum a ws : picked a ws = sum_to (List.length ws) (fun i => if a (N.of_nat i) then nth i ws 0%nat else 0%nat). Proof. reflexivity. Qed.
Definition no_item : item := mkItem 0 [].
Lemma nth_weight k i : nth i (map it_weight (ks_items k)) 0%nat = it_weight (nth i (ks_items k) no_item).
Proof. exact (map_nth it_weight (ks_items k) no_item i). Qed.
Lemma nth_value k o i : nth i (map (value_at o) (ks_items k)) 0%nat = value_at o (nth i (ks_items k) no_item).
Proof. rewrite <- (map_nth (value_at o) (ks_items k) no_item i). f_equal. unfold value_at, no_item. cbn. now destruct o. Qed.
Definition knap_obj (k : knapsack) (o : nat) : list (lit * nat) := map (fun i => (mkLit (N.of_nat i) true, value_at o (nth i (ks_items k) no_item))) (seq 0 (List.length (ks_items k))).
Definition knap_cap (k : knapsack) : pb := pb_new_ub (map (fun i => (mkLit (N.of_nat i) false, Z.of_nat (it_weight (nth i (ks_items k) no_item)))) (seq 0 (List.length (ks_items k)))) (Z.of_nat (ks_capacity k)).

Lemma pk_yields o m k : knapsack_ok m k -> knapsack_fits o k ->
  exists c1 c2, one_line c1 /\ one_line c2 /\ yields (pk_next k) (Some KHint) (OComment c1 :: OComment c2 :: map (fun j => OObjective (knap_obj k j)) (seq 0 m) ++ [OPb (knap_cap k)]).
Proof.
  intros (Hne & Hm & Hv) (Hf & _). do 2 eexists. split; [shelve|]. split; [shelve|]. eapply yields_step; [reflexivity|]. eapply yields_step; [reflexivity|]. Unshelve. 2, 3: one_line_tac.
  assert (Hc : yields (pk_next k) (Some KCapacity) [OPb (knap_cap k)]).
  { apply (yields_step _ _ _ None); [|now apply yields_end]. cbn [pk_next]. rewrite (enumerate_map _ no_item).
    rewrite (mapM_map _ (fun x => (mkLit (N.of_nat (fst x)) false, Z.of_nat (it_weight (snd x))))).
    - cbn [yield]. rewrite map_map. reflexivity.
    - intros x Hx. apply in_map_iff in Hx as (i & <- & Hi). apply in_seq in Hi. cbn [fst snd]. rewrite lit_at_ok by (apply (var_fits_at o (List.length (ks_items k)) i false Hf); lia). reflexivity. }
  assert (H : forall d j, (j + d = m)%nat -> (1 <= d)%nat -> yields (pk_next k) (Some (KObjective j)) (map (fun j => OObjective (knap_obj k j)) (seq j d) ++ [OPb (knap_cap k)])).
  { induction d as [|d IH]; intros j Hj Hd; [lia|]. cbn [seq map app]. eapply yields_step.
    - cbn [pk_next]. rewrite (enumerate_map _ no_item). rewrite (mapM_map _ (fun x => (mkLit (N.of_nat (fst x)) true, value_at j (snd x)))).
      + cbn [yield]. rewrite map_map. cbn [fst snd]. destruct (ks_items k) as [|it its] eqn:E; [now destruct Hne|]. cbn [hd_error yield]. rewrite (Hv it (or_introl eq_refl)), <- E. reflexivity.
      + intros x Hx. apply in_map_iff in Hx as (i & <- & Hi). apply in_seq in Hi. cbn [fst snd]. rewrite lit_at_ok by (apply (var_fits_at o (List.length (ks_items k)) i false Hf); lia). cbn [obind].
        rewrite (nth_error_nth' _ 0%nat); [reflexivity|]. rewrite Hv by (apply nth_In; lia). lia.
    - replace (j + 1)%nat with (S j) by lia. destruct d as [|d].
      + replace (S j <? m)%nat with false by lia. exact Hc.
      + replace (S j <? m)%nat with true by lia. apply IH; lia. }
  apply H; lia.
Qed.
Lemma opb_pb_only o c : (forall l w, In (l, w) (p_lits c) -> var_fits o l) -> (2 * Z.of_nat (total_weight (p_lits c)) + Z.abs (p_b c) <= isize_max)%Z -> opb_writable o (mkInst [] [] [c] 0).
Proof.
  intros Hv Hw. split; [|split; [intros x []|split; [intros x []|intros x [<-|[]]; exact Hw]]].
  intros l Hl. unfold inst_lits in Hl. cbn in Hl. rewrite app_nil_r in Hl. apply in_map_iff in Hl as ([x w] & <- & Hx). exact (Hv x w Hx).
Qed.
Lemma opb_card_only o c : (forall l, In l (c_lits c) -> var_fits o l) -> (Z.of_nat (2 * List.length (c_lits c) + c_b c) <= isize_max)%Z -> opb_writable o (mkInst [] [c] [] 0).
Proof.
  intros Hv Hw. split; [|split; [intros x []|split; [intros x [<-|[]]; exact Hw|intros x []]]].
  intros l Hl. unfold inst_lits in Hl. cbn in Hl. rewrite !app_nil_r in Hl. exact (Hv l Hl).
Qed.
Lemma opb_clause_only o c : (forall l, In l c -> var_fits o l) -> (Z.of_nat (List.length c) < isize_max)%Z -> opb_writable o (mkInst [c] [] [] 0).
Proof.
  intros Hv Hw. split; [|split; [intros x [<-|[]]; exact Hw|split; [intros x []|intros x []]]].
  intros l Hl. unfold inst_lits in Hl. cbn in Hl. rewrite !app_nil_r in Hl. exact (Hv l Hl).
Qed.
Lemma wline_objs_app xs ys : wline_objs (xs ++ ys) = wline_objs xs ++ wline_objs ys. Proof. apply flat_map_app. Qed.
Lemma wline_objs_map {A} (f : A -> list (lit * nat)) xs : wline_objs (map (fun x => OObjective (f x)) xs) = map f xs.
Proof. induction xs as [|x xs IH]; [reflexivity|]. cbn. now f_equal. Qed.
Lemma picked_rest a ws : (picked a ws + sum_to (List.length ws) (fun i => if a (N.of_nat i) then 0 else nth i ws 0))%nat = list_sum ws.
Proof. rewrite picked_sum, <- sum_to_plus, <- (sum_to_nth ws). apply sum_to_ext. intros i _. destruct (a (N.of_nat i)); lia. Qed.
Lemma negated_true (g : nat -> N) (w : nat -> nat) n : negated_weight (map (fun i => (mkLit (g i) true, w i)) (seq 0 n)) = sum_to n w.
Proof. unfold sum_to. induction (seq 0 n) as [|i xs IH]; [reflexivity|]. cbn [map negated_weight lneg]. now rewrite IH, list_sum_cons. Qed.
Lemma negated_false (g : nat -> N) (w : nat -> nat) n : negated_weight (map (fun i => (mkLit (g i) false, w i)) (seq 0 n)) = 0%nat.
Proof. induction (seq 0 n) as [|i xs IH]; [reflexivity|]. exact IH. Qed.

Theorem pb_knapsack_spec o m k : knapsack_ok m k -> knapsack_fits o k ->
  exists t ss, produces (gen_pb_knapsack o k) t /\ opb_file (first_var_idx o) ss t /\
    (forall a, constrs_hold a ss <-> (pick_weight a k <= ks_capacity k)%nat) /\
    forall a, opb_costs ss a = map (fun j => ((if no_negated_lits o then 0 else Z.of_nat (all_value k j)) - Z.of_nat (pick_value a k j))%Z) (seq 0 m).
Proof.
  intros Hk Hf. destruct (pk_yields o m k Hk Hf) as (c1 & c2 & H1 & H2 & Hy). destruct Hf as (Hvf & Hw & Hval). set (n := List.length (ks_items k)) in *.
  assert (Et : forall j, sum_to n (fun i => value_at j (nth i (ks_items k) no_item)) = all_value k j).
  { intros j. unfold all_value. rewrite <- (sum_to_nth (map (value_at j) (ks_items k))), map_length. apply sum_to_ext. intros i _. now rewrite nth_value. }
  assert (Ew : sum_to n (fun i => it_weight (nth i (ks_items k) no_item)) = all_weight k).
  { unfold all_weight. rewrite <- (sum_to_nth (map it_weight (ks_items k))), map_length. apply sum_to_ext. intros i _. now rewrite nth_weight. }
  assert (El : p_lits (knap_cap k) = map (fun i => (mkLit (N.of_nat i) false, it_weight (nth i (ks_items k) no_item))) (seq 0 n) /\ p_b (knap_cap k) = Z.of_nat (ks_capacity k)).
  { unfold knap_cap, pb_new_ub, pb_new. rewrite (convert_pos (fun i => mkLit (N.of_nat i) false) (fun i => it_weight (nth i (ks_items k) no_item))). cbn [p_lits p_b]. split; [reflexivity|lia]. }
  destruct (pb_bench (pk_next k) o _ _ Hy) as (t & ss & P & F & C & O).
  { constructor; [now split|]. constructor; [now split|]. apply Forall_app. split.
    - apply Forall_forall. intros l Hl. apply in_map_iff in Hl as (j & <- & _). cbn [wline_fits wline_ok]. unfold knap_obj. fold n.
      assert (Hin : forall l w, In (l, w) (map (fun i => (mkLit (N.of_nat i) true, value_at j (nth i (ks_items k) no_item))) (seq 0 n)) -> var_fits o l /\ (lvar l <= max_var_idx)%N).
      { intros l w H. apply in_map_iff in H as (i & E & Hi). injection E as <- <-. apply in_seq in Hi. destruct (var_fits_at o n i true Hvf ltac:(lia)) as (A & _ & B). now split. }
      rewrite (total_seq (fun i => mkLit (N.of_nat i) true)), Et. split; (split; [intros l w H; apply (Hin l w H)|]); [apply Hval|]. rewrite (total_seq (fun i => mkLit (N.of_nat i) true)), Et. apply Hval.
    - constructor; [|constructor]. cbn [wline_fits wline_ok]. destruct El as [El Eb]. rewrite El, Eb.
      assert (Hin : forall l w, In (l, w) (map (fun i => (mkLit (N.of_nat i) false, it_weight (nth i (ks_items k) no_item))) (seq 0 n)) -> var_fits o l /\ (lvar l <= max_var_idx)%N /\ (Z.of_nat w <= isize_max)%Z).
      { intros l w H. pose proof (weight_le_total _ l w H) as Hle. rewrite (total_seq (fun i => mkLit (N.of_nat i) false)), Ew in Hle.
        apply in_map_iff in H as (i & E & Hi). injection E as <- <-. apply in_seq in Hi. destruct (var_fits_at o n i false Hvf ltac:(lia)) as (A & _ & B). split; [exact A|]. split; [exact B|lia]. }
      split; [|split; [unfold is_isize, isize_min; lia|intros l w H; apply (Hin l w H)]]. apply opb_pb_only; rewrite ?El, ?Eb; [intros l w H; apply (Hin l w H)|].
      rewrite (total_seq (fun i => mkLit (N.of_nat i) false)), Ew. lia. }
  exists t, ss. split; [exact P|]. split; [exact F|]. split.
  - intros a. rewrite C. assert (Hcap : pb_holds a (knap_cap k) <-> (pick_weight a k <= ks_capacity k)%nat).
    { unfold knap_cap, pb_new_ub. rewrite pb_new_spec. cbn [rel_holds]. fold n. rewrite (zwsum_seq a (fun i => N.of_nat i)). unfold pick_weight. rewrite picked_sum, map_length. fold n.
      rewrite (sum_to_ext n (fun i => if a (N.of_nat i) then nth i (map it_weight (ks_items k)) 0%nat else 0%nat) (fun i => if a (N.of_nat i) then it_weight (nth i (ks_items k) no_item) else 0%nat)); [lia|]. intros i _. now rewrite nth_weight. }
    rewrite <- Hcap. split.
    + intros H. apply (H (OPb (knap_cap k))). right. right. apply in_or_app. right. now left.
    + intros H l [<-|[<-|Hl]]; [exact Logic.I|exact Logic.I|]. apply in_app_iff in Hl as [Hl|[<-|[]]]; [|exact H]. apply in_map_iff in Hl as (j & <- & _). exact Logic.I.
  - intros a. rewrite O. change (wline_objs (OComment c1 :: OComment c2 :: ?x)) with (wline_objs x). rewrite wline_objs_app, wline_objs_map, app_nil_r, map_map. apply map_ext. intros j.
    unfold knap_obj, lost_constant. fold n. rewrite (wsum_seq a (fun i => N.of_nat i)), (negated_true (fun i => N.of_nat i)), Et. unfold pick_value. pose proof (picked_rest a (map (value_at j) (ks_items k))) as Hr.
    rewrite map_length in Hr. fold n in Hr. fold (all_value k j) in Hr. rewrite (sum_to_ext n (fun i => if xorb (a (N.of_nat i)) true then value_at j (nth i (ks_items k) no_item) else 0%nat) (fun i => if a (N.of_nat i) then 0%nat else nth i (map (value_at j) (ks_items k)) 0%nat)).
    + destruct (no_negated_lits o); lia.
    + intros i _. rewrite nth_value. now destruct (a (N.of_nat i)).
Qed.
