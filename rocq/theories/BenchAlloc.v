(** * Lemmas about the benchmark generator: assignment and facility location *)

From Coq Require Import List Bool NArith ZArith Ascii String Arith Lia.
From Verif Require Import Spec Types Base Constraints ConstrSpec ConstrProofs Atomics Maps NodeDb Inst Text TextProofs FioSpec Dimacs DimacsProofs Opb OpbSpec OpbProofs OpbInst InstSpec ToolSpec Bench BenchSpec BenchProofs.
Import ListNotations.
Open Scope list_scope.

(** A counter that runs up to [e] *)
Lemma yields_seq {St L} (next : St -> istep St L) (st : nat -> St) (ln : nat -> L) fin rest e :
  (forall j, (j < e)%nat -> next (st j) = IYield (ln j) (if (j + 1 <? e)%nat then st (j + 1)%nat else fin)) -> yields next fin rest ->
  (1 <= e)%nat -> yields next (st 0%nat) (map ln (seq 0 e) ++ rest).
Proof.
  intros Hn Hf He. assert (H : forall d j, (j + d = e)%nat -> (1 <= d)%nat -> yields next (st j) (map ln (seq j d) ++ rest)); [|now apply H].
  induction d as [|d IH]; intros j Hj Hd; [lia|]. cbn [seq map app]. eapply yields_step; [apply Hn; lia|]. destruct d as [|d].
  - replace (j + 1 <? e)%nat with false by lia. exact Hf.
  - replace (j + 1 <? e)%nat with true by lia. replace (j + 1)%nat with (S j) by lia. apply IH; lia.
Qed.
Lemma pair_index t g r n : (t < r)%nat -> (g < n)%nat -> (t * n + g < r * n)%nat.
Proof. nia. Qed.
Lemma sum_rows r n F : sum_to (r * n) F = sum_to r (fun t => sum_to n (fun g => F (t * n + g)%nat)).
Proof.
  induction r as [|r IH]; [reflexivity|]. rewrite sum_to_S, <- IH. clear IH. replace (S r * n)%nat with (r * n + n)%nat by lia.
  induction n as [|n IH] in |- *; [now rewrite !Nat.add_0_r|]. generalize (r * S n)%nat. intros k. clear. induction (S n) as [|m IH]; [now rewrite !Nat.add_0_r|]. rewrite Nat.add_succ_r, !sum_to_S, IH. lia.
Qed.
(** A table of weighted literals *)
Definition table (g : nat -> nat -> N) (w : nat -> nat -> nat) (r n : nat) : list (lit * nat) :=
  List.concat (map (fun t => map (fun i => (mkLit (g t i) false, w t i)) (seq 0 n)) (seq 0 r)).
Lemma table_in g w r n l x : In (l, x) (table g w r n) -> exists t i, (t < r)%nat /\ (i < n)%nat /\ l = mkLit (g t i) false /\ x = w t i.
Proof.
  intros H. apply in_concat in H as (row & Hr & H). apply in_map_iff in Hr as (t & <- & Ht). apply in_map_iff in H as (i & E & Hi). apply in_seq in Ht. apply in_seq in Hi. injection E as <- <-.
  exists t, i. repeat split; lia.
Qed.
Lemma table_wsum a g w r n : wsum a (table g w r n) = sum_to r (fun t => sum_to n (fun i => if a (g t i) then w t i else 0%nat)).
Proof.
  unfold table, sum_to at 1. induction (seq 0 r) as [|t ts IH]; [reflexivity|]. cbn [map List.concat]. rewrite wsum_app, IH, list_sum_cons. f_equal. rewrite (wsum_seq a (g t)). apply sum_to_ext. intros i _. now rewrite xorb_false_r.
Qed.
Lemma table_total g w r n : total_weight (table g w r n) = sum_to r (fun t => sum_to n (w t)).
Proof.
  unfold table, sum_to at 1. induction (seq 0 r) as [|t ts IH]; [reflexivity|]. cbn [map List.concat]. rewrite total_app, IH, list_sum_cons. f_equal. apply (total_seq (fun i => mkLit (g t i) false)).
Qed.
Lemma negated_app xs ys : negated_weight (xs ++ ys) = (negated_weight xs + negated_weight ys)%nat.
Proof. induction xs as [|[l w] xs IH]; [reflexivity|]. cbn [app negated_weight]. rewrite IH. destruct (lneg l); lia. Qed.
Lemma table_negated g w r n : negated_weight (table g w r n) = 0%nat.
Proof. unfold table. induction (seq 0 r) as [|t ts IH]; [reflexivity|]. cbn [map List.concat]. now rewrite negated_app, IH, (negated_false (g t)). Qed.
Lemma card_eq_lits ls b : c_lits (card_new_eq ls b) = ls /\ c_b (card_new_eq ls b) = b. Proof. now split. Qed.
Lemma exactly_one a (g : nat -> N) n : card_holds a (card_new_eq (map (fun i => mkLit (g i) false) (seq 0 n)) 1) <-> exists i, (i < n)%nat /\ forall j, (j < n)%nat -> a (g j) = (i =? j)%nat.
Proof. rewrite <- (count_one (fun i => a (g i)) n), <- (count_seq a g n). reflexivity. Qed.
Lemma card_fits o N g n : vars_fit o N -> (forall i, (i < n)%nat -> (g i < N)%nat) -> (n <= N)%nat ->
  wline_fits o (OCard (card_new_eq (map (fun i => mkLit (N.of_nat (g i)) false) (seq 0 n)) 1)) /\ wline_ok (OCard (card_new_eq (map (fun i => mkLit (N.of_nat (g i)) false) (seq 0 n)) 1)).
Proof.
  intros Hv Hg Hn. assert (Hin : forall l, In l (map (fun i => mkLit (N.of_nat (g i)) false) (seq 0 n)) -> var_fits o l /\ (lvar l <= max_var_idx)%N).
  { intros l Hl. apply in_map_iff in Hl as (i & <- & Hi). apply in_seq in Hi. destruct (var_fits_at o N (g i) false Hv) as (A & _ & B); [apply Hg; lia|]. now split. }
  split.
  - apply opb_card_only; [intros l Hl; apply (Hin l Hl)|]. change (c_lits (card_new_eq ?x _)) with x. change (c_b (card_new_eq _ ?x)) with x. rewrite map_length, seq_length.
    destruct Hv as [Hv _]. change max_var_idx with 2147483647%N in Hv. unfold isize_max. lia.
  - cbn [wline_ok]. change (c_lits (card_new_eq ?x _)) with x. intros l Hl. apply (Hin l Hl).
Qed.

(** ** Assignment *)
Definition asg_obj (p : assignment) (o : nat) : list (lit * nat) :=
  table (fun t g => N.of_nat (as_tasks p * t + g)) (fun t g => task_cost p o t g) (as_tasks p) (as_tasks p).
Definition one_task (n g : nat) : opb_wline := OCard (card_new_eq (map (fun t => mkLit (N.of_nat (n * t + g)) false) (seq 0 n)) 1).
Definition one_agent (n t : nat) : opb_wline := OCard (card_new_eq (map (fun g => mkLit (N.of_nat (n * t + g)) false) (seq 0 n)) 1).

Lemma pa_yields o p : assignment_ok p -> assignment_fits o p ->
  exists c1 c2, one_line c1 /\ one_line c2 /\ yields (pa_next p) (Some AHint)
    (OComment c1 :: OComment c2 :: map (fun j => OObjective (asg_obj p j)) (seq 0 (as_objs p)) ++ map (one_task (as_tasks p)) (seq 0 (as_tasks p)) ++ map (one_agent (as_tasks p)) (seq 0 (as_tasks p)) ++ []).
Proof.
  intros (Hn & Hm & Hl) (Hf & _). do 2 eexists. split; [shelve|]. split; [shelve|]. eapply yields_step; [reflexivity|]. eapply yields_step; [reflexivity|]. Unshelve. 2, 3: one_line_tac. set (n := as_tasks p) in *.
  assert (Hs : forall t g, (t < n)%nat -> (g < n)%nat -> as_selector p t g = Some (mkLit (N.of_nat (n * t + g)) false)).
  { intros t g Ht Hg. apply lit_at_ok. fold n. apply (var_fits_at o (n * n) (n * t + g) false Hf). nia. }
  apply (yields_seq (pa_next p) (fun j => Some (AObjective j)) _ (Some (AOneTask 0))); [|apply (yields_seq (pa_next p) (fun j => Some (AOneTask j)) _ (Some (AOneAgent 0))); [|apply (yields_seq (pa_next p) (fun j => Some (AOneAgent j)) _ None); [|now apply yields_end|exact Hn]|exact Hn]|exact Hm].
  - intros j Hj. cbn [pa_next]. fold n. rewrite (mapM_map _ (fun t => map (fun g => (mkLit (N.of_nat (n * t + g)) false, task_cost p j t g)) (seq 0 n))).
    + cbn [yield]. destruct (j + 1 <? as_objs p)%nat; reflexivity.
    + intros t Ht. apply in_seq in Ht. apply mapM_map. intros g Hg. apply in_seq in Hg. rewrite Hs by lia. cbn [obind]. unfold as_cost, as_idx. fold n.
      replace ((t <? n) && (g <? n) && (j <? as_objs p))%nat%bool with true by lia. cbn [obind]. rewrite (nth_error_nth' _ 0%nat); [reflexivity|]. rewrite Hl.
      pose proof (pair_index t g n n ltac:(lia) ltac:(lia)). pose proof (pair_index j (t * n + g) (as_objs p) (n * n) Hj ltac:(lia)). lia.
  - intros j Hj. cbn [pa_next]. fold n. rewrite (mapM_map _ (fun t => mkLit (N.of_nat (n * t + j)) false)).
    + cbn [yield]. destruct (j + 1 <? n)%nat; reflexivity.
    + intros t Ht. apply in_seq in Ht. apply Hs; lia.
  - intros j Hj. cbn [pa_next]. fold n. rewrite (mapM_map _ (fun g => mkLit (N.of_nat (n * j + g)) false)).
    + cbn [yield]. reflexivity.
    + intros g Hg. apply in_seq in Hg. apply Hs; lia.
Qed.
Lemma agents_onto n f : one_to_one n f -> forall g, (g < n)%nat -> exists t, (t < n)%nat /\ f t = g.
Proof.
  intros [H1 H2] g Hg. assert (Hin : In g (map f (seq 0 n))).
  { apply (NoDup_length_incl (l := map f (seq 0 n)) (l' := seq 0 n)).
    - assert (Hd : forall l, NoDup l -> (forall x, In x l -> (x < n)%nat) -> NoDup (map f l)).
      { induction l as [|x l IH]; intros Hd Hl; [constructor|]. inversion_clear Hd. cbn [map]. constructor; [|apply IH; [assumption|intros; apply Hl; now right]].
        intros Hx. apply in_map_iff in Hx as (y & E & Hy). apply H2 in E; [now subst|apply Hl; now right|apply Hl; now left]. }
      apply Hd; [apply seq_NoDup|]. intros x Hx. apply in_seq in Hx. lia.
    - rewrite map_length. apply le_n.
    - intros x Hx. apply in_map_iff in Hx as (t & <- & Ht). apply in_seq in Ht. apply in_seq. specialize (H1 t). lia.
    - apply in_seq. lia. }
  apply in_map_iff in Hin as (t & E & Ht). apply in_seq in Ht. exists t. split; [lia|exact E].
Qed.
(** Choosing, for every row, the only column that is selected *)
Lemma choose_columns (b : nat -> nat -> bool) r n : (forall t, (t < r)%nat -> exists i, (i < n)%nat /\ forall j, (j < n)%nat -> b t j = (i =? j)%nat) ->
  exists f, forall t, (t < r)%nat -> (f t < n)%nat /\ forall j, (j < n)%nat -> b t j = (f t =? j)%nat.
Proof.
  intros H. induction r as [|r IH]; [exists (fun _ => 0%nat); intros; lia|]. destruct IH as [f Hf]; [intros; apply H; lia|]. destruct (H r) as (i & Hi & Hb); [lia|].
  exists (fun t => if (t =? r)%nat then i else f t). intros t Ht. destruct (Nat.eqb_spec t r) as [->|Hn]; [now split|]. apply Hf. lia.
Qed.
Theorem pb_assignment_spec o p : assignment_ok p -> assignment_fits o p ->
  exists t ss, produces (gen_pb_assignment o p) t /\ opb_file (first_var_idx o) ss t /\
    (forall a, constrs_hold a ss <-> exists f, one_to_one (as_tasks p) f /\ assigns (as_tasks p) a f) /\
    forall a f, one_to_one (as_tasks p) f -> assigns (as_tasks p) a f -> opb_costs ss a = map (fun j => Z.of_nat (assignment_cost p f j)) (seq 0 (as_objs p)).
Proof.
  intros Hk Hf. destruct (pa_yields o p Hk Hf) as (c1 & c2 & H1 & H2 & Hy). destruct Hf as (Hvf & Hw). destruct Hk as (Hn & Hm & Hl). set (n := as_tasks p) in *.
  assert (Hnn : (n <= n * n)%nat) by (clear - Hn; nia).
  assert (Hix : forall t g, (t < n)%nat -> (g < n)%nat -> (n * t + g < n * n)%nat) by (clear; intros; nia).
  destruct (pb_bench (pa_next p) o _ _ Hy) as (t & ss & P & F & C & O).
  { constructor; [now split|]. constructor; [now split|]. apply Forall_app. split; [|apply Forall_app; split; [|apply Forall_app; split; [|constructor]]]; apply Forall_forall; intros l Hin; apply in_map_iff in Hin as (j & <- & Hj); apply in_seq in Hj.
    - cbn [wline_fits wline_ok]. unfold asg_obj. fold n.
      assert (Hin : forall l w, In (l, w) (table (fun t g => N.of_nat (n * t + g)) (fun t g => task_cost p j t g) n n) -> var_fits o l /\ (lvar l <= max_var_idx)%N).
      { intros l w H. apply table_in in H as (t & g & Ht & Hg & -> & _). destruct (var_fits_at o (n * n) (n * t + g) false Hvf (Hix t g Ht Hg)) as (A & _ & B). now split. }
      assert (Ht : (Z.of_nat (total_weight (table (fun t g => N.of_nat (n * t + g)) (fun t g => task_cost p j t g) n n)) <= isize_max)%Z).
      { rewrite table_total. assert (E : sum_to n (fun t => sum_to n (fun g => task_cost p j t g)) = sum_to (n * n) (fun i => nth (j * n * n + i) (as_costs p) 0%nat)).
        { rewrite sum_rows. apply sum_to_ext. intros t _. apply sum_to_ext. intros g _. unfold task_cost. fold n. f_equal. lia. }
        rewrite E, segment_sum; [pose proof (list_sum_part (as_costs p) (j * n * n) (n * n)); lia|]. rewrite Hl. assert (S j <= as_objs p)%nat by lia. clear - H. nia. }
      split; (split; [intros l w H; apply (Hin l w H)|exact Ht]).
    - apply (card_fits o (n * n) (fun t => n * t + j)%nat); [exact Hvf| |exact Hnn]. intros i Hi. apply Hix; lia.
    - apply (card_fits o (n * n) (fun g => n * j + g)%nat); [exact Hvf| |exact Hnn]. intros i Hi. apply Hix; lia. }
  exists t, ss. split; [exact P|]. split; [exact F|]. split.
  - intros a. rewrite C. split.
    + intros H. assert (Ha : forall x, (x < n)%nat -> exists i, (i < n)%nat /\ forall j, (j < n)%nat -> a (N.of_nat (n * x + j)) = (i =? j)%nat).
      { intros x Hx. apply (exactly_one a (fun g => N.of_nat (n * x + g))). apply (H (one_agent n x)). right. right. apply in_or_app. right. apply in_or_app. right. apply in_or_app. left. apply in_map, in_seq. lia. }
      assert (Ht : forall g, (g < n)%nat -> exists i, (i < n)%nat /\ forall j, (j < n)%nat -> a (N.of_nat (n * j + g)) = (i =? j)%nat).
      { intros g Hg. apply (exactly_one a (fun x => N.of_nat (n * x + g))). apply (H (one_task n g)). right. right. apply in_or_app. right. apply in_or_app. left. apply in_map, in_seq. lia. }
      destruct (choose_columns (fun x g => a (N.of_nat (n * x + g))) n n Ha) as [f Hff]. exists f. split; [split|].
      * intros x Hx. now apply Hff.
      * intros x y Hx Hy' E. destruct (Hff x Hx) as [B1 E1], (Hff y Hy') as [B2 E2]. destruct (Ht (f x) B1) as (i & _ & Hi). pose proof (Hi x Hx) as Q1. pose proof (Hi y Hy') as Q2.
        rewrite (E1 (f x) B1), Nat.eqb_refl in Q1. rewrite E, (E2 (f y) B2), Nat.eqb_refl in Q2. symmetry in Q1, Q2. apply Nat.eqb_eq in Q1, Q2. congruence.
      * intros x g Hx Hg. now apply Hff.
    + intros (f & Hff & Hr) l [<-|[<-|Hin]]; [exact Logic.I|exact Logic.I|]. rewrite !in_app_iff in Hin. destruct Hin as [Hin|[Hin|[Hin|[]]]]; apply in_map_iff in Hin as (j & <- & Hj); apply in_seq in Hj.
      * exact Logic.I.
      * apply (exactly_one a (fun x => N.of_nat (n * x + j))). destruct (agents_onto n f Hff j ltac:(lia)) as (x & Hx & E). exists x. split; [exact Hx|]. intros y Hy'. rewrite (Hr y j Hy' ltac:(lia)).
        destruct (Nat.eqb_spec (f y) j) as [E2|E2]; destruct (Nat.eqb_spec x y) as [E3|E3]; try reflexivity; exfalso; [apply E3, (proj2 Hff); congruence|congruence].
      * apply (exactly_one a (fun g => N.of_nat (n * j + g))). exists (f j). split; [apply (proj1 Hff); lia|]. intros g Hg. apply Hr; lia.
  - intros a f Hff Hr. rewrite O. change (wline_objs (OComment c1 :: OComment c2 :: ?x)) with (wline_objs x). rewrite !wline_objs_app, wline_objs_map, app_nil_r.
    assert (E0 : forall X (h : X -> card) xs, wline_objs (map (fun x => OCard (h x)) xs) = []) by (intros X h xs; induction xs as [|x xs IH]; [reflexivity|exact IH]).
    unfold one_task, one_agent. rewrite !E0, !app_nil_r, map_map. apply map_ext_in. intros j Hj. unfold lost_constant, asg_obj. fold n. rewrite table_negated, table_wsum. unfold assignment_cost. fold n.
    rewrite (sum_to_ext n _ (fun t => task_cost p j t (f t))); [destruct (no_negated_lits o); lia|]. intros x Hx. rewrite (sum_to_one n _ (f x)); [|now apply (proj1 Hff)|].
    + rewrite (Hr x (f x) Hx (proj1 Hff x Hx)), Nat.eqb_refl. reflexivity.
    + intros g Hg Hne. rewrite (Hr x g Hx Hg). destruct (Nat.eqb_spec (f x) g); [congruence|reflexivity].
Qed.

(** ** Facility location *)
Definition fac_obj (p : facloc) (o : nat) : list (lit * nat) :=
  table (fun c g => N.of_nat (c * fl_facilities p + g)) (fun c g => supply_cost p o c g) (fl_customers p) (fl_facilities p) ++
  map (fun g => (mkLit (N.of_nat (fl_facilities p * fl_customers p + g)) false, opening_cost p o g)) (seq 0 (fl_facilities p)).
Definition one_facility (nf c : nat) : opb_wline := OCard (card_new_eq (map (fun g => mkLit (N.of_nat (c * nf + g)) false) (seq 0 nf)) 1).
Definition must_open (nc nf g c : nat) : opb_wline := OClause (lit_impl_lit (mkLit (N.of_nat (c * nf + g)) false) (mkLit (N.of_nat (nf * nc + g)) false)).

Lemma pf_yields o p : facloc_ok p -> facloc_fits o p ->
  exists c1 c2, one_line c1 /\ one_line c2 /\ yields (pf_next p) (Some FHint)
    (OComment c1 :: OComment c2 :: map (fun j => OObjective (fac_obj p j)) (seq 0 (fl_objs p)) ++ map (one_facility (fl_facilities p)) (seq 0 (fl_customers p)) ++
     List.concat (map (fun g => map (must_open (fl_customers p) (fl_facilities p) g) (seq 0 (fl_customers p))) (seq 0 (fl_facilities p)))).
Proof.
  intros (Hm & Hc & Hn & Hl & Hl2) (Hf & _). do 2 eexists. split; [shelve|]. split; [shelve|]. eapply yields_step; [reflexivity|]. eapply yields_step; [reflexivity|]. Unshelve. 2, 3: one_line_tac. set (nf := fl_facilities p) in *. set (nc := fl_customers p) in *.
  assert (Hs : forall c g, (c < nc)%nat -> (g < nf)%nat -> fl_selected p c g = Some (mkLit (N.of_nat (c * nf + g)) false)).
  { intros c g Hc' Hg. apply lit_at_ok. fold nf. apply (var_fits_at o ((nc + 1) * nf) (c * nf + g) false Hf). pose proof (pair_index c g nc nf Hc' Hg). lia. }
  assert (Ho : forall g, (g < nf)%nat -> fl_open p g = Some (mkLit (N.of_nat (nf * nc + g)) false)).
  { intros g Hg. apply lit_at_ok. fold nf nc. apply (var_fits_at o ((nc + 1) * nf) (nf * nc + g) false Hf). lia. }
  apply (yields_seq (pf_next p) (fun j => Some (FObjective j)) _ (Some (FOneFacility 0))); [|apply (yields_seq (pf_next p) (fun j => Some (FOneFacility j)) _ (Some (FMustOpen 0 0))); [| |exact Hc]|exact Hm].
  - intros j Hj. cbn [pf_next]. fold nf nc. rewrite (mapM_map _ (fun c => map (fun g => (mkLit (N.of_nat (c * nf + g)) false, supply_cost p j c g)) (seq 0 nf))).
    + cbn [yield]. rewrite (mapM_map _ (fun g => (mkLit (N.of_nat (nf * nc + g)) false, opening_cost p j g))).
      * cbn [yield]. destruct (j + 1 <? fl_objs p)%nat; reflexivity.
      * intros g Hg. apply in_seq in Hg. rewrite Ho by lia. cbn [obind]. unfold fl_opening_cost. fold nf. replace ((j <? fl_objs p) && (g <? nf))%nat%bool with true by lia.
        rewrite (nth_error_nth' _ 0%nat); [reflexivity|]. rewrite Hl2. apply pair_index; lia.
    + intros c Hc'. apply in_seq in Hc'. apply mapM_map. intros g Hg. apply in_seq in Hg. rewrite Hs by lia. cbn [obind]. unfold fl_supply_cost. fold nf nc.
      replace ((j <? fl_objs p) && (c <? nc) && (g <? nf))%nat%bool with true by lia. rewrite (nth_error_nth' _ 0%nat); [reflexivity|]. rewrite Hl.
      pose proof (pair_index c g nc nf ltac:(lia) ltac:(lia)). pose proof (pair_index j (c * nf + g) (fl_objs p) (nf * nc) Hj ltac:(lia)). lia.
  - intros j Hj. cbn [pf_next]. fold nf nc. rewrite (mapM_map _ (fun g => mkLit (N.of_nat (j * nf + g)) false)).
    + cbn [yield]. destruct (j + 1 <? nc)%nat; reflexivity.
    + intros g Hg. apply in_seq in Hg. apply Hs; lia.
  - assert (H : forall d g, (g + d = nf)%nat -> (1 <= d)%nat -> yields (pf_next p) (Some (FMustOpen g 0)) (List.concat (map (fun g => map (must_open nc nf g) (seq 0 nc)) (seq g d)))); [|apply H; lia].
    induction d as [|d IH]; intros g Hg Hd; [lia|]. cbn [seq map List.concat].
    apply (yields_seq (pf_next p) (fun j => Some (FMustOpen g j)) _ (if (g + 1 <? nf)%nat then Some (FMustOpen (g + 1) 0) else None)); [| |exact Hc].
    + intros j Hj. cbn [pf_next]. rewrite Hs, Ho by lia. cbn [yield]. fold nf nc. destruct (j + 1 <? nc)%nat; reflexivity.
    + destruct d as [|d].
      * replace (g + 1 <? nf)%nat with false by lia. now apply yields_end.
      * replace (g + 1 <? nf)%nat with true by lia. replace (g + 1)%nat with (S g) by lia. apply IH; lia.
Qed.
Theorem pb_facloc_spec o p : facloc_ok p -> facloc_fits o p -> let nc := fl_customers p in let nf := fl_facilities p in
  exists t ss, produces (gen_pb_facloc o p) t /\ opb_file (first_var_idx o) ss t /\
    (forall a, constrs_hold a ss <-> exists f, supplies nc nf a f /\ forall c, (c < nc)%nat -> opened nc nf a (f c) = true) /\
    forall a f, supplies nc nf a f -> opb_costs ss a = map (fun j => Z.of_nat (facloc_cost p a f j)) (seq 0 (fl_objs p)).
Proof.
  intros Hk Hf nc nf. destruct (pf_yields o p Hk Hf) as (c1 & c2 & H1 & H2 & Hy). destruct Hf as (Hvf & Hw). destruct Hk as (Hm & Hc & Hn & Hl & Hl2). fold nc nf in Hy, Hvf, Hc, Hn, Hl, Hl2.
  assert (Hsx : forall c g, (c < nc)%nat -> (g < nf)%nat -> (c * nf + g < (nc + 1) * nf)%nat) by (intros c g A B; pose proof (pair_index c g nc nf A B); lia).
  assert (Hox : forall g, (g < nf)%nat -> (nf * nc + g < (nc + 1) * nf)%nat) by (intros; lia).
  destruct (pb_bench (pf_next p) o _ _ Hy) as (t & ss & P & F & C & O).
  { constructor; [now split|]. constructor; [now split|]. apply Forall_app. split; [|apply Forall_app; split]; apply Forall_forall; intros l Hin.
    - apply in_map_iff in Hin as (j & <- & Hj); apply in_seq in Hj. cbn [wline_fits wline_ok].
      assert (Hin : forall l w, In (l, w) (fac_obj p j) -> var_fits o l /\ (lvar l <= max_var_idx)%N).
      { intros l w H. apply in_app_iff in H as [H|H].
        - apply table_in in H as (c & g & Ht & Hg & -> & _). destruct (var_fits_at o _ (c * nf + g) false Hvf (Hsx c g Ht Hg)) as (A & _ & B). now split.
        - apply in_map_iff in H as (g & E & Hg). injection E as <- <-. apply in_seq in Hg. destruct (var_fits_at o _ (nf * nc + g) false Hvf (Hox g ltac:(lia))) as (A & _ & B). now split. }
      assert (Ht : (Z.of_nat (total_weight (fac_obj p j)) <= isize_max)%Z).
      { unfold fac_obj. fold nc nf. rewrite total_app, table_total, (total_seq (fun g => mkLit (N.of_nat (nf * nc + g)) false)).
        assert (E : sum_to nc (fun c => sum_to nf (fun g => supply_cost p j c g)) = sum_to (nc * nf) (fun i => nth (j * nf * nc + i) (fl_supply p) 0%nat)).
        { rewrite sum_rows. apply sum_to_ext. intros c _. apply sum_to_ext. intros g _. unfold supply_cost. fold nc nf. f_equal. lia. }
        assert (E2 : sum_to nf (opening_cost p j) = sum_to nf (fun i => nth (j * nf + i) (fl_opening p) 0%nat)) by reflexivity.
        rewrite E, E2, !segment_sum.
        - pose proof (list_sum_part (fl_supply p) (j * nf * nc) (nc * nf)). pose proof (list_sum_part (fl_opening p) (j * nf) nf). lia.
        - rewrite Hl2. assert (S j <= fl_objs p)%nat by lia. clear - H. nia.
        - rewrite Hl. assert (S j <= fl_objs p)%nat by lia. clear - H. nia. }
      split; (split; [intros l w H; apply (Hin l w H)|exact Ht]).
    - apply in_map_iff in Hin as (j & <- & Hj); apply in_seq in Hj. apply (card_fits o ((nc + 1) * nf) (fun g => j * nf + g)%nat); [exact Hvf| |]; [|clear; nia]. intros i Hi. apply Hsx; lia.
    - apply in_concat in Hin as (row & Hr & Hin). apply in_map_iff in Hr as (g & <- & Hg). apply in_map_iff in Hin as (c & <- & Hc'). apply in_seq in Hg. apply in_seq in Hc'.
      destruct (var_fits_at o _ (c * nf + g) false Hvf (Hsx c g ltac:(lia) ltac:(lia))) as (A & _ & B). destruct (var_fits_at o _ (nf * nc + g) false Hvf (Hox g ltac:(lia))) as (A' & _ & B').
      split; [apply opb_clause_only; [|unfold isize_max; cbn; lia]|]; intros l [<-|[<-|[]]]; assumption. }
  assert (Hopen : forall a, (forall g c, (g < nf)%nat -> (c < nc)%nat -> wline_holds a (must_open nc nf g c)) <-> forall g c, (g < nf)%nat -> (c < nc)%nat -> a (N.of_nat (c * nf + g)) = true -> opened nc nf a g = true).
  { intros a. split; intros H g c Hg Hc'; specialize (H g c Hg Hc'); unfold must_open, opened in *; cbn [wline_holds] in *.
    - intros Hs. revert H. cbn. rewrite Hs. cbn. now destruct (a (N.of_nat (nf * nc + g))).
    - cbn. destruct (a (N.of_nat (c * nf + g))); [now rewrite H|reflexivity]. }
  exists t, ss. split; [exact P|]. split; [exact F|]. split.
  - intros a. rewrite C. split.
    + intros H. assert (Ha : forall c, (c < nc)%nat -> exists i, (i < nf)%nat /\ forall j, (j < nf)%nat -> a (N.of_nat (nf * c + j)) = (i =? j)%nat).
      { intros c Hc'. rewrite (Nat.mul_comm nf c). apply (exactly_one a (fun g => N.of_nat (c * nf + g))). apply (H (one_facility nf c)). right. right. apply in_or_app. right. apply in_or_app. left. apply in_map, in_seq. lia. }
      destruct (choose_columns (fun c g => a (N.of_nat (nf * c + g))) nc nf Ha) as [f Hff]. exists f. split; [exact Hff|]. intros c Hc'. destruct (Hff c Hc') as [Hb He].
      apply (proj1 (Hopen a)) with (c := c); [|exact Hb|exact Hc'|].
      * intros g c' Hg Hc2. apply H. right. right. apply in_or_app. right. apply in_or_app. right. apply in_concat. exists (map (must_open nc nf g) (seq 0 nc)). split; [apply (in_map (fun g => map (must_open nc nf g) (seq 0 nc))), in_seq; lia|apply in_map, in_seq; lia].
      * rewrite Nat.mul_comm, He, Nat.eqb_refl by exact Hb. reflexivity.
    + intros (f & Hff & Hop) l [<-|[<-|Hin]]; [exact Logic.I|exact Logic.I|]. rewrite !in_app_iff in Hin. destruct Hin as [Hin|[Hin|Hin]].
      * apply in_map_iff in Hin as (j & <- & Hj). exact Logic.I.
      * apply in_map_iff in Hin as (c & <- & Hj); apply in_seq in Hj. apply (exactly_one a (fun g => N.of_nat (c * nf + g))). destruct (Hff c ltac:(lia)) as [Hb He]. exists (f c). split; [exact Hb|]. intros g Hg. rewrite <- (He g Hg). f_equal. lia.
      * apply in_concat in Hin as (row & Hr & Hin). apply in_map_iff in Hr as (g & <- & Hg). apply in_map_iff in Hin as (c & <- & Hc'). apply in_seq in Hg. apply in_seq in Hc'.
        apply (proj2 (Hopen a)); [|lia|lia]. clear g c Hg Hc'. intros g c Hg Hc' Hs. destruct (Hff c Hc') as [Hb He]. rewrite Nat.mul_comm, (He g Hg) in Hs. apply Nat.eqb_eq in Hs as <-. now apply Hop.
  - intros a f Hff. rewrite O. change (wline_objs (OComment c1 :: OComment c2 :: ?x)) with (wline_objs x). rewrite !wline_objs_app, wline_objs_map.
    assert (E0 : forall X (h : X -> card) xs, wline_objs (map (fun x => OCard (h x)) xs) = []) by (intros X h xs; induction xs as [|x xs IH]; [reflexivity|exact IH]).
    assert (E1 : wline_objs (List.concat (map (fun g => map (must_open nc nf g) (seq 0 nc)) (seq 0 nf))) = []).
    { assert (E2 : forall g xs, wline_objs (map (must_open nc nf g) xs) = []) by (intros g xs; induction xs as [|x xs IH]; [reflexivity|exact IH]). clear - E2; induction (seq 0 nf) as [|g gs IH]; [reflexivity|]. cbn [map List.concat]. now rewrite wline_objs_app, E2, IH. }
    unfold one_facility. rewrite E0, E1, !app_nil_r, map_map. apply map_ext_in. intros j Hj. unfold lost_constant, fac_obj, facloc_cost. fold nc nf.
    rewrite negated_app, table_negated, (negated_false (fun g => N.of_nat (nf * nc + g))), wsum_app, table_wsum, (wsum_seq a (fun g => N.of_nat (nf * nc + g))).
    rewrite (sum_to_ext nc _ (fun c => supply_cost p j c (f c))).
    + rewrite (sum_to_ext nf (fun g => if xorb (a (N.of_nat (nf * nc + g))) false then opening_cost p j g else 0%nat) (fun g => if opened nc nf a g then opening_cost p j g else 0%nat)); [destruct (no_negated_lits o); lia|]. intros g _. unfold opened. now destruct (a (N.of_nat (nf * nc + g))).
    + intros c Hc'. destruct (Hff c Hc') as [Hb He]. rewrite (sum_to_one nf _ (f c)); [|exact Hb|].
      * now rewrite Nat.mul_comm, (He (f c) Hb), Nat.eqb_refl.
      * intros g Hg Hne. rewrite Nat.mul_comm, (He g Hg). destruct (Nat.eqb_spec (f c) g); [congruence|reflexivity].
Qed.

(** ** Degenerate problems *)
Lemma no_tasks_spec o : exists t ss, produces (gen_pb_assignment o (mkAssignment 0 1 [])) t /\ opb_file (first_var_idx o) ss t /\ forall a, ~ constrs_hold a ss.
Proof.
  assert (Hy : exists c1 c2, one_line c1 /\ one_line c2 /\ yields (pa_next (mkAssignment 0 1 [])) (Some AHint) [OComment c1; OComment c2; OObjective []; OCard (card_new_eq [] 1); OCard (card_new_eq [] 1)]).
  { do 2 eexists. split; [shelve|]. split; [shelve|]. do 5 (eapply yields_step; [reflexivity|]). now apply yields_end. Unshelve. all: one_line_tac. }
  destruct Hy as (c1 & c2 & H1 & H2 & Hy). destruct (pb_bench _ o _ _ Hy) as (t & ss & P & F & C & _).
  - constructor; [now split|]. constructor; [now split|]. constructor; [split; (split; [easy|vm_compute; discriminate])|].
    assert (Hc : wline_fits o (OCard (card_new_eq [] 1)) /\ wline_ok (OCard (card_new_eq [] 1))). { split; [|intros l []]. cbn [wline_fits]. apply opb_card_only; [easy|vm_compute; discriminate]. }
    constructor; [exact Hc|]. constructor; [exact Hc|constructor].
  - exists t, ss. split; [exact P|]. split; [exact F|]. intros a Ha. apply (proj1 (C a)) with (l := OCard (card_new_eq [] 1)) in Ha; [|cbn; tauto]. vm_compute in Ha. discriminate.
Qed.
Lemma no_customers_spec o : vars_fit o 2 -> exists t ss, produces (gen_pb_facloc o (mkFacloc 1 0 2 [] [3; 4]%nat)) t /\ opb_file (first_var_idx o) ss t /\ forall a, constrs_hold a ss -> opened 0 2 a 0 = negb (opened 0 2 a 1).
Proof.
  intros Ho. set (one := OCard (card_new_eq (map (fun g => mkLit (N.of_nat (0 * 2 + g)) false) (seq 0 2)) 1)).
  assert (Hl : forall i, (i < 2)%nat -> var_fits o (mkLit (N.of_nat i) false) /\ (N.of_nat i <= max_var_idx)%N) by (intros i Hi; destruct (var_fits_at o 2 i false Ho Hi) as (A & _ & B); now split).
  assert (Hy : exists c1 c2, one_line c1 /\ one_line c2 /\ yields (pf_next (mkFacloc 1 0 2 [] [3; 4]%nat)) (Some FHint)
    [OComment c1; OComment c2; OObjective [(mkLit 0 false, 3); (mkLit 1 false, 4)]%nat; one; OClause [mkLit 0 true; mkLit 0 false]; OClause [mkLit 1 true; mkLit 1 false]]).
  { do 2 eexists. split; [shelve|]. split; [shelve|]. do 6 (eapply yields_step; [reflexivity|]). now apply yields_end. Unshelve. all: one_line_tac. }
  destruct Hy as (c1 & c2 & H1 & H2 & Hy). destruct (pb_bench _ o _ _ Hy) as (t & ss & P & F & C & _).
  - destruct (Hl 0%nat ltac:(lia)) as [A0 B0], (Hl 1%nat ltac:(lia)) as [A1 B1].
    constructor; [now split|]. constructor; [now split|]. constructor; [split; (split; [intros l w [E|[E|[]]]; injection E as <- <-; assumption|vm_compute; discriminate])|].
    constructor; [apply (card_fits o 2 (fun g => 0 * 2 + g)%nat); [exact Ho|intros; lia|lia]|].
    constructor; [split; [apply opb_clause_only; [|vm_compute; reflexivity]|]; intros l [<-|[<-|[]]]; assumption|].
    constructor; [split; [apply opb_clause_only; [|vm_compute; reflexivity]|]; intros l [<-|[<-|[]]]; assumption|constructor].
  - exists t, ss. split; [exact P|]. split; [exact F|]. intros a Ha. apply (proj1 (C a)) with (l := one) in Ha; [|cbn; tauto]. unfold opened. revert Ha. cbn. unfold lit_true. cbn. destruct (a 0%N), (a 1%N); cbn; (reflexivity || discriminate).
Qed.
