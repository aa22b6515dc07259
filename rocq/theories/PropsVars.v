(** * Property theorems about the variable managers (C35, C36, C37) *)

From Coq Require Import List Bool NArith Lia Permutation.
From Verif Require Import Spec Types VarSpec VarMan VarManProofs.
Import ListNotations.

(** ** C35: fresh variables, for every history of calls including [combine] and [forget_from] *)
Theorem C35_basic : forall L U s, history basic (@no_look N) no_eqb true true true L U s -> fresh_vars basic U s.
Proof. exact (basic_fresh true true true). Qed.
Print Assumptions C35_basic.
Example C35_basic_ex : exists L U, history basic (@no_look N) no_eqb true true true L U 6%N /\ U 5%N /\ ~ U 6%N.
Proof.
  assert (H1 : history basic (@no_look N) no_eqb true true true [] (fun u => (u < 7 /\ u < 1) \/ u <= 1)%N 2%N).
  { exact (h_mark _ _ _ _ _ _ _ _ 1%N 1%N 2%N true eq_refl (h_forget _ _ _ _ _ _ _ _ 7%N 1%N eq_refl (h_start basic (@no_look N) no_eqb true true true 7%N)) eq_refl). }
  assert (H2 : history basic (@no_look N) no_eqb true true true [] (fun u => u < 0 \/ u < 5)%N 5%N).
  { exact (h_increase _ _ _ _ _ _ _ _ 0%N 5%N eq_refl (h_start basic (@no_look N) no_eqb true true true 0%N)). }
  pose proof (h_combine _ _ _ _ _ _ _ _ _ _ _ _ eq_refl H1 H2) as H3.
  eexists _, _. split; [exact (h_new _ _ _ _ _ _ _ _ _ 5%N 6%N eq_refl H3 eq_refl)|].
  cbn. lia.
Qed.

Theorem C35_objects : forall (K : Type) keqb, (forall k k' : K, keqb k k' = true <-> k = k') ->
  forall L U s, history (objects keqb) (object_var keqb) keqb true true true L U s -> fresh_vars (objects keqb) U s.
Proof. exact (fun K keqb H => objects_fresh keqb H true true true). Qed.
Print Assumptions C35_objects.
Example C35_objects_ex : exists U s, history (objects Bool.eqb) (object_var Bool.eqb) Bool.eqb true true true [(true, 1%N); (false, 0%N)] U s /\ U 1%N /\ ~ U 2%N /\ m_max (objects Bool.eqb) s = Some 1%N.
Proof.
  eexists _, _. split; [|split; [|split]].
  - eapply h_look; [eapply h_look; [apply (h_start _ _ _ _ _ _ 0%N)|reflexivity]|reflexivity].
  - cbn. lia.
  - cbn. lia.
  - reflexivity.
Qed.

Theorem C35_reindexing : forall L U s, history reindexing re_reindex N.eqb true true true L U s -> fresh_vars reindexing U s.
Proof. exact (reindexing_fresh true true true). Qed.
Print Assumptions C35_reindexing.
Example C35_reindexing_ex : exists U s, history reindexing re_reindex N.eqb true true true [(7%N, 1%N); (9%N, 0%N)] U s /\ U 1%N /\ ~ U 2%N /\ m_max reindexing s = Some 1%N.
Proof.
  eexists _, _. split; [|split; [|split]].
  - eapply h_look; [eapply h_look; [apply (h_start _ _ _ _ _ _ 0%N)|reflexivity]|reflexivity].
  - cbn. lia.
  - cbn. lia.
  - reflexivity.
Qed.

(** [new_var] answers unless the index space is used up; the largest index itself is never handed out. *)
Theorem C35_new_var_defined : forall s, (exists v s', m_new basic s = Some (v, s')) <-> (m_n_used basic s < max_var_idx)%N.
Proof.
  intros s. cbn. unfold next_new, var_succ. destruct (N.leb_spec (s + 1) max_var_idx) as [H|H]; cbn.
  - split; [lia|]. intros _. eauto.
  - split; [|lia]. intros (v & s' & E). discriminate.
Qed.
Print Assumptions C35_new_var_defined.

(** ** C36: reindexing *)

(** The same variable always gets the same new variable, in every history. *)
Theorem C36_same : forall L U s k v, history reindexing re_reindex N.eqb true true true L U s -> In (k, v) L -> re_reindex k s = Some (v, s).
Proof. exact (reindex_same true true true). Qed.
Print Assumptions C36_same.

(** A variable seen for the first time gets one that is not in use. *)
Theorem C36_new : forall L U s k v s', history reindexing re_reindex N.eqb true true true L U s -> (forall v', ~ In (k, v') L) ->
  re_reindex k s = Some (v, s') -> ~ U v.
Proof. exact (reindex_new true true true). Qed.
Print Assumptions C36_new.

(** Distinct variables get distinct new ones, in every history without [combine]. *)
Theorem C36_distinct_partial : forall L U s k v s' k' v', history reindexing re_reindex N.eqb true false true L U s ->
  re_reindex k s = Some (v, s') -> In (k', v') L -> k <> k' -> v <> v'.
Proof. exact (reindex_distinct true true). Qed.
Print Assumptions C36_distinct_partial.

(** The reverse map undoes re-indexing, in histories of calls to [reindex]; it knows no other variables. *)
Theorem C36_reverse_partial : forall L U s, history reindexing re_reindex N.eqb false false false L U s ->
  (forall k v, In (k, v) L -> re_reverse v s = Some k) /\ (forall v, re_reverse v s = None <-> ~ U v).
Proof. intros L U s H. split; [apply (rhist_out _ _ _ H)|]. intros v. exact (rhist_reverse _ _ _ v H). Qed.
Print Assumptions C36_reverse_partial.
Theorem C36_reverse_lit_partial : forall L U s l s1 l', history reindexing re_reindex N.eqb false false false L U s ->
  reindex_lit l s = Some (l', s1) -> lneg l' = lneg l /\ reverse_lit l' s1 = Some l.
Proof.
  intros L U s l s1 l' H E. unfold reindex_lit in E. destruct (re_reindex (lvar l) s) as [[v s']|] eqn:R; [|discriminate]. cbn in E. injection E as <- <-.
  split; [reflexivity|]. unfold reverse_lit. cbn. rewrite (proj2 (rhist_out _ _ _ (h_look _ _ _ _ _ _ _ _ _ _ _ _ H R)) (lvar l) v (or_introl eq_refl)). destruct l; reflexivity.
Qed.
Print Assumptions C36_reverse_lit_partial.
Example C36_ex : exists U s, history reindexing re_reindex N.eqb false false false [(9%N, 0%N); (7%N, 1%N); (9%N, 0%N)] U s /\
  re_reverse 0 s = Some 9%N /\ re_reverse 1 s = Some 7%N /\ re_reverse 2 s = None.
Proof.
  eexists _, _. split.
  - eapply h_look; [eapply h_look; [eapply h_look; [apply (h_start _ _ _ _ _ _ 0%N)|reflexivity]|reflexivity]|reflexivity].
  - repeat split; reflexivity.
Qed.

(** After [new_var], the reverse map no longer undoes re-indexing. *)
Theorem C36_reverse_refuted : exists L U s k v k', history reindexing re_reindex N.eqb true false false L U s /\
  re_reindex k s = Some (v, s) /\ In (k, v) L /\ re_reverse v s = None /\ re_reverse k' s = Some k /\ ~ In (k, k') L.
Proof.
  eexists [(5%N, 1%N)], _, (mkRe 2 [(5%N, 1%N)] [5%N]), 5%N, 1%N, 0%N. split.
  - exact (h_look _ _ _ _ _ _ _ _ (mkRe 1 [] []) 5%N 1%N _ (h_new reindexing re_reindex N.eqb true false false _ _ _ 0%N _ eq_refl (h_start _ _ _ _ _ _ 0%N) eq_refl) eq_refl).
  - repeat split; [now left|]. intros [[=]|[]].
Qed.
Print Assumptions C36_reverse_refuted.

(** After [forget_from], the reverse map still knows a variable that is no longer in use, and maps the next one wrongly. *)
Theorem C36_forget_refuted : exists L U s k v, history reindexing re_reindex N.eqb false false true L U s /\
  In (k, v) L /\ re_reverse v s <> Some k.
Proof.
  set (s2 := mkRe 2 [(8%N, 1%N); (7%N, 0%N)] [7%N; 8%N]).
  assert (H2 : exists U, history reindexing re_reindex N.eqb false false true [(8%N, 1%N); (7%N, 0%N)] U s2).
  { eexists. eapply h_look; [eapply h_look; [apply (h_start _ _ _ _ _ _ 0%N)|reflexivity]|reflexivity]. }
  destruct H2 as (U2 & H2). pose proof (h_forget _ _ _ _ _ _ _ _ _ 1%N eq_refl H2) as H3. cbn in H3.
  eexists _, _, (mkRe 2 [(9%N, 1%N); (7%N, 0%N)] [7%N; 8%N; 9%N]), 9%N, 1%N. split; [exact (h_look _ _ _ _ _ _ _ _ _ 9%N 1%N _ H3 eq_refl)|].
  split; [now left|]. cbn. discriminate.
Qed.
Print Assumptions C36_forget_refuted.

(** [from_next_free] promises that variables below the start are mapped to themselves, but they are not. *)
Theorem C36_start_refuted : exists n k v s', (k < n)%N /\ re_reverse k (re_start n) = Some k /\ re_reindex k (re_start n) = Some (v, s') /\
  v <> k /\ re_reverse v s' = Some k /\ re_reverse k s' = Some k.
Proof. exists 3%N, 1%N, 3%N. eexists. split; [lia|]. repeat split. discriminate. Qed.
Print Assumptions C36_start_refuted.

(** After [combine], two variables can be mapped to the same one. *)
Theorem C36_combine_refuted : exists L U s k k' v, history reindexing re_reindex N.eqb false true false L U s /\
  k <> k' /\ re_reindex k s = Some (v, s) /\ re_reindex k' s = Some (v, s).
Proof.
  pose proof (fun k s' => h_look reindexing re_reindex N.eqb false true false _ _ _ k 0%N s' (h_start _ _ _ _ _ _ 0%N)) as H.
  eexists _, _, (mkRe 1 [(8%N, 0%N); (7%N, 0%N)] [7%N]), 8%N, 7%N, 0%N. split.
  - exact (h_combine _ _ _ _ _ _ _ _ _ _ _ _ eq_refl (H 7%N _ eq_refl) (H 8%N _ eq_refl)).
  - repeat split. discriminate.
Qed.
Print Assumptions C36_combine_refuted.

(** Random re-indexing, for every result of the shuffle *)
Theorem C36_random : forall n shuffled, Permutation shuffled (map N.of_nat (seq 0 (N.to_nat n))) ->
  exists s, rand_init n shuffled = Some s /\
    (forall k k', rand_reindex k s = rand_reindex k' s -> k = k') /\
    (forall k, rand_reverse (rand_reindex k s) s = Some k) /\
    (forall k, (k < n)%N <-> (rand_reindex k s < n)%N) /\
    (forall v s', rand_new s = Some (v, s') -> forall k, (k < n)%N -> rand_reindex k s <> v).
Proof. exact rand_spec. Qed.
Print Assumptions C36_random.
Example C36_random_ex : Permutation [2%N; 0%N; 1%N] (map N.of_nat (seq 0 (N.to_nat 3))) /\ option_map (rand_reindex 0) (rand_init 3 [2%N; 0%N; 1%N]) = Some 2%N.
Proof. split; [|reflexivity]. cbn. etransitivity; [apply perm_swap|]. apply perm_skip. apply perm_swap. Qed.

(** Combining breaks it: variables are mapped to the same one. *)
Theorem C36_random_combine_refuted : exists s k k', rand_init 1 [0%N] = Some s /\ k <> k' /\
  rand_reindex k (rand_combine s s) = rand_reindex k' (rand_combine s s).
Proof. eexists _, 0%N, 1%N. split; [reflexivity|]. split; [discriminate|reflexivity]. Qed.
Print Assumptions C36_random_combine_refuted.

(** ** C37: objects *)
Theorem C37_same : forall (K : Type) keqb, (forall k k' : K, keqb k k' = true <-> k = k') ->
  forall L U s k v, history (objects keqb) (object_var keqb) keqb true true true L U s -> In (k, v) L -> object_var keqb k s = Some (v, s).
Proof. exact (fun K keqb H => object_var_same keqb H true true true). Qed.
Print Assumptions C37_same.

Theorem C37_new : forall (K : Type) keqb, (forall k k' : K, keqb k k' = true <-> k = k') ->
  forall L U s k v s', history (objects keqb) (object_var keqb) keqb true true true L U s -> (forall v', ~ In (k, v') L) ->
  object_var keqb k s = Some (v, s') -> ~ U v.
Proof. exact (fun K keqb H => object_var_new keqb H true true true). Qed.
Print Assumptions C37_new.

(** Histories of any calls but [combine] *)
Theorem C37_distinct : forall (K : Type) keqb, (forall k k' : K, keqb k k' = true <-> k = k') ->
  forall L U s k v s' k' v', history (objects keqb) (object_var keqb) keqb true false true L U s ->
  object_var keqb k s = Some (v, s') -> In (k', v') L -> k <> k' -> v <> v'.
Proof. exact (fun K keqb H => object_var_distinct keqb H true true). Qed.
Print Assumptions C37_distinct.
Example C37_ex : exists U s s', history (objects Bool.eqb) (object_var Bool.eqb) Bool.eqb true false true [(true, 0%N)] U s /\
  U 2%N /\ object_var Bool.eqb false s = Some (3%N, s') /\ object_var Bool.eqb true s' = Some (0%N, s').
Proof.
  eexists _, _, _. split; [|split; [|split]].
  - eapply (h_increase _ _ _ _ _ _ _ _ _ 3%N); [reflexivity|]. eapply h_look; [apply (h_start _ _ _ _ _ _ 0%N)|reflexivity].
  - cbn. lia.
  - reflexivity.
  - reflexivity.
Qed.

(** Outside the histories of C37: with [combine], two objects can share a variable. *)
Theorem C36_objects_combine_refuted : exists L U s v, history (objects Bool.eqb) (object_var Bool.eqb) Bool.eqb false true false L U s /\
  object_var Bool.eqb true s = Some (v, s) /\ object_var Bool.eqb false s = Some (v, s).
Proof.
  pose proof (fun k s' => h_look (objects Bool.eqb) (object_var Bool.eqb) Bool.eqb false true false _ _ _ k 0%N s' (h_start _ _ _ _ _ _ 0%N)) as H.
  eexists _, _, (mkObj 1 [(false, 0%N); (true, 0%N)]), 0%N. split.
  - exact (h_combine _ _ _ _ _ _ _ _ _ _ _ _ eq_refl (H true _ eq_refl) (H false _ eq_refl)).
  - split; reflexivity.
Qed.
Print Assumptions C36_objects_combine_refuted.
