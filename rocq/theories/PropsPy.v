(** * Properties of the Python bindings: C85 *)

From Coq Require Import List Bool NArith ZArith Lia.
From Verif Require Import Spec Types Base Constraints VarMan NodeDb PySpec Pyapi PyProofs.
Import ListNotations.

(** C85 (containers), for all sequences and keys: with a non-negative index in range (that fits 32 bits), with a negative one in
    range if the interpreter adds the length to it ([adj]), with every slice whose
    step is not negative, and with keys of other types, [xs[key]] gives the element, the elements, or the exception that it
    gives for lists, with and without debug assertions. Missing: negative indices otherwise, indices out of range and negative steps,
    for which it is false (below). *)
Theorem C85_getitem_partial : forall X (adj dbg : bool) (xs : list X) key,
  (Z.of_nat (length xs) <= isize_max)%Z ->
  match key with
  | KInt i => (0 <= i < Z.of_nat (length xs))%Z /\ (i <= i32_max)%Z \/ adj = true /\ (- Z.of_nat (length xs) <= i < 0)%Z /\ (i + Z.of_nat (length xs) <= i32_max)%Z
  | KSlice _ _ (Some k) => (0 <= k)%Z
  | _ => True
  end ->
  py_get xs key (getitem adj dbg xs key).
Proof. exact @getitem_ok. Qed.
Print Assumptions C85_getitem_partial.
Example C85_getitem_ex :
  getitem false true [10; 11; 12; 13; 14] (KSlice (Some (-4)%Z) None (Some 2%Z)) = PyMany [11; 13] /\
  getitem false false [10; 11; 12; 13; 14] (KSlice (Some 1%Z) (Some (-1)%Z) None) = PyMany [11; 12; 13] /\
  getitem true true [10; 11; 12] (KInt 2) = PyOne 12 /\ getitem true true [10; 11; 12] (KInt (-3)) = PyOne 10 /\ getitem false true [10] (KSlice None None (Some 0%Z)) = PyValueError.
Proof. repeat split; vm_compute; reflexivity. Qed.

(** C85 (negative indices, finding): if they arrive as they were written, no negative index works: all those of 32 bits panic, although [-1] is the last element
    for every Python sequence. *)
Theorem C85_negative_index_refuted : forall X (dbg : bool) (xs : list X) i,
  xs <> [] -> (i32_min <= i < 0)%Z -> getitem false dbg xs (KInt i) = PyPanic /\ ~ py_get xs (KInt i) PyPanic.
Proof.
  intros X dbg xs i Hx Hi. split.
  - unfold getitem, i32_min, i32_max in *. cbn [andb]. cbv zeta. replace ((-2147483648 <=? i) && (i <=? 2147483647))%Z with true by lia. replace (i <? 0)%Z with true by lia. reflexivity.
  - unfold py_get. destruct (_ && _)%Z; [intros (x & E & _); discriminate E|intros E; discriminate E].
Qed.
Print Assumptions C85_negative_index_refuted.
Example C85_negative_index_ex : py_get [10; 11] (KInt (-1)) (PyOne 11) /\ getitem false false [10; 11] (KInt (-1)) = PyPanic.
Proof. split; [exists 11; split; reflexivity|reflexivity]. Qed.

(** C85 (indices out of range, finding): in both cases they panic ([PanicException] does not derive from [Exception]) instead of raising
    [IndexError]. *)
Theorem C85_out_of_range_refuted : forall X (adj dbg : bool) (xs : list X) i,
  (Z.of_nat (length xs) <= i <= i32_max \/ i32_min <= i < - Z.of_nat (length xs))%Z -> getitem adj dbg xs (KInt i) = PyPanic /\ forall out, py_get xs (KInt i) out -> out = PyIndexError.
Proof.
  intros X adj dbg xs i Hi. split.
  - unfold getitem, i32_min, i32_max in *. cbv zeta. set (p := (if adj && (i <? 0) then i + Z.of_nat (length xs) else i)%Z).
    assert (Hp : (Z.of_nat (length xs) <= p <= 2147483647 \/ -2147483648 <= p < 0)%Z) by (unfold p; destruct adj; cbn [andb]; [destruct (Z.ltb_spec i 0)|]; lia). clearbody p.
    replace ((-2147483648 <=? p) && (p <=? 2147483647))%Z with true by lia. destruct (Z.ltb_spec p 0); [reflexivity|]. replace (Z.of_nat (length xs) <=? p)%Z with true by lia. reflexivity.
  - intros out. unfold py_get. replace ((0 <=? _) && _)%Z with false by (destruct (Z.ltb_spec i 0); lia). auto.
Qed.
Print Assumptions C85_out_of_range_refuted.
Example C85_out_of_range_ex : getitem true true [10; 11] (KInt 2) = PyPanic /\ getitem true false [10; 11] (KInt (-3)) = PyPanic.
Proof. split; reflexivity. Qed.

(** C85 (negative steps, finding): [xs[::-1]], which reverses Python sequences, panics with debug assertions; without them it
    gives only the last element, without any error. *)
Theorem C85_negative_step_refuted :
  py_get [10; 11; 12] (KSlice None None (Some (-1)%Z)) (PyMany [12; 11; 10]) /\
  getitem true true [10; 11; 12] (KSlice None None (Some (-1)%Z)) = PyPanic /\
  getitem true false [10; 11; 12] (KSlice None None (Some (-1)%Z)) = PyMany [12].
Proof.
  split; [|split; vm_compute; reflexivity]. cbn. exists [12; 11; 10]. split; [reflexivity|]. change (slice_positions 2 (-1) (-1)) with [2; 1; 0]%Z.
  repeat (constructor; [split; [lia|reflexivity]|]). constructor.
Qed.
Print Assumptions C85_negative_step_refuted.

(** C85 (iteration over clauses), for all clauses and histories of modifications, [iter] and [next] in which [next] is called on
    the newest iterator only and [extend] is not called: the iterator gives the elements in order and then stops, and once the
    clause was modified it raises the error. Missing: [extend] and older iterators, for which it is false (below). *)
Theorem C85_iteration_partial : forall (c : clause) md os,
  newest_only 0 os -> (forall ls, ~ In (SModify (CExtend ls)) os) ->
  exists rs, pobj_run clause_method (mkPobj c md []) os = Some rs /\
    ideal_run (fun o x => match o with
                          | CAdd l => x ++ [l]
                          | CRemove l => fst (clause_remove x l)
                          | CRemoveAll l => fst (clause_remove_thorough x l)
                          | CExtend ls => x ++ ls
                          end) (c, []) os = Some rs.
Proof.
  intros c md os Hn He. destruct (iterators_ok clause_method c md os Hn) as (rs & E1 & E2).
  - intros [l|l|l|ls] xs H; try reflexivity. now apply He in H.
  - exists rs. split; [exact E1|]. rewrite <- E2. clear.
    match goal with |- ideal_run ?f _ _ = ideal_run ?g _ _ => assert (G : forall os t, ideal_run f t os = ideal_run g t os); [|apply G] end. clear.
    induction os as [|o os IH]; intros t; [reflexivity|]. cbn [ideal_run].
    match goal with |- match ?a with _ => _ end = match ?b with _ => _ end => assert (S0 : a = b) by (destruct o as [[l|l|l|ls]| |k]; reflexivity); rewrite S0; destruct b as [[t' r]|]; [|reflexivity] end.
    now rewrite IH.
Qed.
Print Assumptions C85_iteration_partial.
Example C85_iteration_ex :
  let os := [SIter; SNext 0; SModify (CAdd (pos 7)); SNext 0; SIter; SNext 1; SNext 1; SNext 1] in
  newest_only 0 os /\ pobj_run clause_method (mkPobj [pos 0; pos 1] false []) os = Some [PyOne (pos 0); PyRuntimeError; PyOne (pos 0); PyOne (pos 1); PyOne (pos 7)].
Proof. split; [cbn; repeat split; reflexivity|vm_compute; reflexivity]. Qed.

(** C85 (iteration over CNFs): for CNF formulas this holds for all modifications. *)
Theorem C85_cnf_iteration_partial : forall (f : cnf) md os, newest_only 0 os ->
  exists rs, pobj_run cnf_method (mkPobj f md []) os = Some rs /\ ideal_run (fun cs g => g ++ cs) (f, []) os = Some rs.
Proof. intros f md os Hn. exact (iterators_ok cnf_method f md os Hn (fun _ _ _ => eq_refl)). Qed.
Print Assumptions C85_cnf_iteration_partial.
Example C85_cnf_iteration_ex :
  let os := [SIter; SNext 0; SNext 0; SModify [[negl 3]]; SNext 0; SIter; SNext 1; SNext 1; SNext 1] in
  newest_only 0 os /\ pobj_run cnf_method (mkPobj [[pos 0]] false []) os = Some [PyOne [pos 0]; PyStop; PyRuntimeError; PyOne [pos 0]; PyOne [negl 3]; PyStop].
Proof. split; [cbn; repeat split; reflexivity|vm_compute; reflexivity]. Qed.

(** C85 ([extend], finding): a clause extended during an iteration is not noticed; a loop that extends the clause by what it
    sees never ends: after any number of rounds it gets another element. *)
Fixpoint extending (n : nat) (l : lit) : list (seqop clause_op) := match n with O => [] | S n' => SNext 0 :: SModify (CExtend [l]) :: extending n' l end.
Theorem C85_extend_refuted :
  (forall n l, pobj_run clause_method (mkPobj [l] false []) (SIter :: extending n l) = Some (repeat (PyOne l) n)) /\
  (forall n l, ideal_run (fun o x => fst (clause_method o x)) ([l], []) (SIter :: extending (S n) l) = Some (PyOne l :: repeat PyRuntimeError n)).
Proof.
  split; intros n l.
  - cbn [pobj_run pobj_step obind fst snd po_xs po_its app].
    assert (G : forall k, pobj_run clause_method (mkPobj (repeat l (S k)) false [k]) (extending n l) = Some (repeat (PyOne l) n)).
    { induction n as [|n IH]; intros k; [reflexivity|]. cbn [extending pobj_run pobj_step po_its nth_error obind po_modified po_xs fst snd].
      rewrite repeat_length. destruct (Nat.ltb_spec k (S k)); [|lia]. rewrite (nth_error_nth' _ l) by (rewrite repeat_length; lia). rewrite nth_repeat.
      cbn [obind fst snd clause_method po_modified po_its po_xs set_nth firstn skipn app]. cbn [pobj_run]. change [l] with (repeat l 1). rewrite <- repeat_app. replace (S k + 1) with (S (S k)) by lia. rewrite IH. reflexivity. }
    specialize (G 0). cbn [repeat] in G. rewrite G. cbn [obind]. now destruct n.
  - cbn [extending ideal_run ideal_step nth_error fst snd app set_nth firstn skipn map clause_method].
    assert (G : forall c, ideal_run (fun o x => fst (clause_method o x)) (c, [(1, true)]) (extending n l) = Some (repeat PyRuntimeError n)).
    { induction n as [|n IH]; intros c; [reflexivity|]. cbn [extending ideal_run ideal_step nth_error fst snd map]. rewrite IH. reflexivity. }
    rewrite G. reflexivity.
Qed.
Print Assumptions C85_extend_refuted.

(** C85 (several iterators, finding): creating a second iterator makes the first one forget that the clause was modified; it
    continues and never gives the literal [pos 2], which was in the clause all the time. *)
Theorem C85_nested_iteration_refuted :
  let os := [SIter; SNext 0; SModify (CRemove (pos 0)); SIter; SNext 0; SNext 0] in
  let c := [pos 0; pos 1; pos 2] in
  pobj_run clause_method (mkPobj c false []) os = Some [PyOne (pos 0); PyOne (pos 1); PyStop] /\
  ideal_run (fun o x => fst (clause_method o x)) (c, []) os = Some [PyOne (pos 0); PyRuntimeError; PyRuntimeError].
Proof. split; vm_compute; reflexivity. Qed.
Print Assumptions C85_nested_iteration_refuted.

(** C85 (variable managers), for all numbers of used variables and all histories: every new variable is larger than all used,
    marked and earlier ones, and is a valid literal as a Python number; the manager then reports at least all of them as used.
    There is no panic as long as the variables fit. *)
Theorem C85_var_manager : forall n0 os,
  (forall s vs s', pvm_new n0 = Some s -> pvm_run s os = Some (vs, s') ->
    fresh_vars n0 os vs /\ (n0 <= pvm_n_used s')%N /\ (forall v, In v vs -> (v <= pvm_n_used s')%N) /\ (forall n, In (VIncrease n) os -> (n <= pvm_n_used s')%N)) /\
  (forall top, (n0 <= top)%N -> (forall n, In (VIncrease n) os -> (n <= top)%N) ->
    (top + N.of_nat (length (filter (fun o => match o with VNew => true | _ => false end) os)) <= max_var_idx)%N ->
    exists s r, pvm_new n0 = Some s /\ pvm_run s os = Some r).
Proof.
  intros n0 os. split.
  - intros s vs s' E0 E. unfold pvm_new, var_new in E0. destruct (n0 <=? max_var_idx)%N; [|discriminate E0]. injection E0 as <-. exact (pvm_fresh os n0 vs s' E).
  - intros top H0 Hi Hm. destruct (pvm_total top os Hi n0 H0 Hm) as (r & E). exists n0, r. split; [|exact E]. unfold pvm_new, var_new. destruct (N.leb_spec n0 max_var_idx); [reflexivity|lia].
Qed.
Print Assumptions C85_var_manager.
Example C85_var_manager_ex : pvm_run 4 [VNew; VIncrease 9; VNew; VIncrease 3; VNew] = Some ([5; 10; 11]%N, 11%N).
Proof. vm_compute. reflexivity. Qed.
