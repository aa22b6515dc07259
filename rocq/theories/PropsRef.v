(** * Property theorems about encoders sharing a node database (C78) *)

From Coq Require Import List Bool NArith Arith Lia.
From Verif Require Import Spec BoundSpec NodeDb TreeSpec TotDb RefEnc RefSpec RefProofs.
Import ListNotations.

(** for the examples: a list of calls, all of them valid *)
Fixpoint srun (w : world (lit * nat)) (d : db) (T : trees) (ops : list shared_op) : option (world (lit * nat) * db * trees) :=
  match ops with
  | [] => Some (w, d, T)
  | op :: ops => match sstep w d T op with Some (w', d', T') => srun w' d' T' ops | None => None end
  end.
Fixpoint svalid (w : world (lit * nat)) (d : db) (T : trees) (ops : list shared_op) : Prop :=
  match ops with
  | [] => True
  | op :: ops => valid_shared w T op /\ match sstep w d T op with Some (w', d', T') => svalid w' d' T' ops | None => True end
  end.
Lemma srun_shared ops : forall w d T w' d' T', shared w d T -> svalid w d T ops -> srun w d T ops = Some (w', d', T') -> shared w' d' T'.
Proof.
  induction ops as [|op ops IH]; intros w d T w' d' T' H V E; cbn [srun svalid] in *; [now injection E as <- <- <-|].
  destruct V as (V1 & V2). destruct (sstep w d T op) as [((w1 & d1) & T1)|] eqn:Es; [|discriminate]. eapply IH; [|exact V2|exact E]. eapply sh_step; eauto.
Qed.

Definition all_bounds : rng := (Unb, Unb).

Ltac valid_op :=
  match goal with
  | |- valid_shared _ _ (SUserVars _) => exact Logic.I
  | |- valid_shared _ _ (STree (TLits _)) => split; [discriminate|]; intros l Hl; cbn in Hl; repeat destruct Hl as [<-|Hl]; try destruct Hl; (split; [vm_compute; reflexivity|]); intros (lo & hi & [] & _)
  | |- valid_shared _ _ (STree (TWeighted _)) =>
      split; [split; [discriminate|]; cbn; intros l x Hl; repeat destruct Hl as [[= <- <-]|Hl]; try destruct Hl; lia|];
      intros l Hl; cbn in Hl; repeat destruct Hl as [<-|Hl]; try destruct Hl; (split; [vm_compute; reflexivity|]); intros (lo & hi & [] & _)
  | |- valid_shared _ _ (STree (TMerge _ _)) => split; [split; [discriminate|]; cbn; intros j Hj; repeat destruct Hj as [<-|Hj]; try destruct Hj; lia|intros l []]
  | |- valid_shared _ _ (SEnc _ _ _) => split; [|exact Logic.I]; eexists _, _; split; [reflexivity|]; cbn; intros l x Hl; repeat destruct Hl as [[= <- <-]|Hl]; try destruct Hl; lia
  end.
Ltac valid_run := repeat (cbn [svalid]; split; [valid_op|]; match goal with |- context [sstep ?w ?d ?T ?op] => let r := eval vm_compute in (sstep w d T op) in change (sstep w d T op) with r end; cbv iota beta); exact Logic.I.

(** a totalizer on three literals and a generalized totalizer on a tree that contains the totalizer's *)
Definition ex_hist : list shared_op :=
  [SUserVars 5; STree (TLits [pos 0; pos 1; pos 2]); STree (TWeighted [(pos 3, 3%nat); (pos 4, 2%nat)]); STree (TMerge true [0%nat; 1%nat]);
   SEnc KTot 0 (BUb all_bounds); SEnc (KGte 3) 2 (BUbChange (Incl 1%nat, Incl 4%nat)); SEnc KTot 0 (BLbChange all_bounds)].
Definition ex_w : world (lit * nat) := Eval vm_compute in match srun world0 db_empty [] ex_hist with Some (w, _, _) => w | None => world0 end.
Definition ex_d : db := Eval vm_compute in match srun world0 db_empty [] ex_hist with Some (_, d, _) => d | None => db_empty end.
Definition ex_T : trees := Eval vm_compute in match srun world0 db_empty [] ex_hist with Some (_, _, T) => T | None => [] end.
Lemma ex_valid : svalid world0 db_empty [] ex_hist.
Proof. unfold ex_hist. valid_run. Qed.
Lemma ex_shared : shared ex_w ex_d ex_T.
Proof.
  apply (srun_shared ex_hist world0 db_empty []); [apply sh_start|exact ex_valid|vm_compute; reflexivity].
Qed.

(** ** C78: encoders sharing a node database *)

Theorem C78_no_panic : shared_no_panic.
Proof. exact shared_no_panic_ok. Qed.
Print Assumptions C78_no_panic.
Example C78_no_panic_ex : shared ex_w ex_d ex_T /\ length (w_all ex_w) = 33%nat /\ valid_shared ex_w ex_T (SEnc KTot 0 (BBoth all_bounds)) /\ valid_shared ex_w ex_T (STree (TMerge false [2%nat; 0%nat])).
Proof.
  split; [exact ex_shared|]. split; [vm_compute; reflexivity|]. split.
  - split; [|exact Logic.I]. eexists _, _. split; [vm_compute; reflexivity|]. cbn. intros l x H. repeat destruct H as [[= <- <-]|H]; try destruct H; reflexivity.
  - split; [split; [discriminate|]; intros j [<-|[<-|[]]]; vm_compute; lia|]. intros l [].
Qed.

(** Upper bounds hold whenever [enforce_ub] gives assumptions, whatever the other encoders of the database did in between. *)
Theorem C78_ub_sound : shared_ub_sound.
Proof. exact shared_ub_sound_ok. Qed.
Print Assumptions C78_ub_sound.
Example C78_ub_sound_ex : (exists con ls, encoder_on ex_T KTot 0 con ls /\ ref_enforce_ub KTot ex_d con 1 = Some (EOk [mkLit 8 true])) /\
  (exists con ls, encoder_on ex_T (KGte 3) 2 con ls /\ length ls = 5%nat /\ ref_enforce_ub (KGte 3) ex_d con 3 = Some (EOk [mkLit 14 true; mkLit 15 true; mkLit 17 true]) /\
     ref_enforce_ub (KGte 3) ex_d con 0 = Some ENotEncoded).
Proof.
  split; eexists _, _.
  - split; [split; [vm_compute; reflexivity|]|vm_compute; reflexivity]. cbn. intros l x H. repeat destruct H as [[= <- <-]|H]; try destruct H; reflexivity.
  - split; [split; [vm_compute; reflexivity|]|vm_compute; auto]. cbn. intros l x H. repeat destruct H as [[= <- <-]|H]; try destruct H; lia.
Qed.

(** Lower bounds of the totalizer hold under all clauses ever returned. Missing: that those since the last [encode_lb] suffice. *)
Theorem C78_lb_sound_partial : shared_lb_sound (fun w => w_all w).
Proof. exact shared_lb_sound_ok. Qed.
Print Assumptions C78_lb_sound_partial.
Example C78_lb_sound_ex : exists con ls, encoder_on ex_T KTot 0 con ls /\ rt_enforce_lb ex_d (nc_id con) 2 = Some (EOk [mkLit 8 false]).
Proof.
  eexists _, _. split; [split; [vm_compute; reflexivity|]|vm_compute; reflexivity]. cbn. intros l x H. repeat destruct H as [[= <- <-]|H]; try destruct H; reflexivity.
Qed.

(** [encode_lb] is meant to start over, but resets the wrong half of the encoding: a second call returns no clauses, and assumptions are given
    that mean nothing under the clauses since. *)
Theorem C78_lb_window_refuted : ~ shared_lb_sound (fun w => w_lb w).
Proof.
  intros H. set (ops := [SUserVars 2; STree (TLits [pos 0; pos 1]); SEnc KTot 0 (BLb all_bounds); SEnc KTot 0 (BLb all_bounds)]).
  assert (V : svalid world0 db_empty [] ops) by (unfold ops; valid_run).
  destruct (srun world0 db_empty [] ops) as [[[w d] T]|] eqn:E; [|vm_compute in E; discriminate].
  pose proof (srun_shared ops _ _ _ _ _ _ sh_start V E) as R. vm_compute in E. injection E as <- <- <-.
  specialize (H _ _ _ 0%nat (con_full 2) [(pos 0, 1%nat); (pos 1, 1%nat)] 2%nat [mkLit 3 false] (fun v => (v =? 3)%N) R).
  assert (F : (2 <= 0)%nat); [|lia]. apply H; [split; [vm_compute; reflexivity|]| | |]; [|vm_compute; reflexivity..].
  cbn. intros l x Hl. repeat destruct Hl as [[= <- <-]|Hl]; try destruct Hl; reflexivity.
Qed.
Print Assumptions C78_lb_window_refuted.

(** One variant of each assignment, the same for all encoders. *)
Theorem C78_complete : shared_complete.
Proof. exact shared_complete_ok. Qed.
Print Assumptions C78_complete.
Example C78_complete_ex : let a : asg := fun v => (v =? 1)%N || (v =? 4)%N in
  shared ex_w ex_d ex_T /\ sat_cnf a (w_all ex_w) = false /\ map (fun t => wsum a (snd t)) ex_T = [1; 2; 3]%nat.
Proof. split; [exact ex_shared|]. split; vm_compute; reflexivity. Qed.

Theorem C78_encodes : shared_encodes.
Proof. exact shared_encodes_ok. Qed.
Print Assumptions C78_encodes.
Example C78_encodes_ex : valid_shared ex_w ex_T (SEnc (KGte 4) 2 (BUbChange (Incl 0%nat, Excl 3%nat))) /\ ref_enforce_ub (KGte 4) ex_d (fst (nth 2 ex_T (con_full 0, []))) 0 = Some ENotEncoded.
Proof.
  split; [|vm_compute; reflexivity]. split; [|exact Logic.I]. eexists _, _. split; [vm_compute; reflexivity|]. cbn. intros l x H. repeat destruct H as [[= <- <-]|H]; try destruct H; lia.
Qed.

(** Trees built and ranges added later take nothing away, from any encoder. *)
Theorem C78_persists : shared_persists adding.
Proof. exact shared_persists_ok. Qed.
Print Assumptions C78_persists.
Example C78_persists_ex : valid_shared ex_w ex_T (SEnc KTot 0 (BBoth all_bounds)) /\ adding (SEnc KTot 0 (BBoth all_bounds)) /\
  exists con ls, encoder_on ex_T (KGte 3) 2 con ls /\ ref_enforce_ub (KGte 3) ex_d con 4 = Some (EOk [mkLit 15 true; mkLit 17 true; mkLit 18 true]).
Proof.
  split; [split; [|exact Logic.I]|split; [cbn; auto|]]; eexists _, _.
  - split; [vm_compute; reflexivity|]. cbn. intros l x H. repeat destruct H as [[= <- <-]|H]; try destruct H; reflexivity.
  - split; [split; [vm_compute; reflexivity|]|vm_compute; reflexivity]. cbn. intros l x H. repeat destruct H as [[= <- <-]|H]; try destruct H; lia.
Qed.

(** [encode_ub] of one encoder takes away the upper bounds of the others, *)
Theorem C78_other_encoder_refuted : exists w d T w' d' T' con ls ub asm,
  shared w d T /\ encoder_on T KTot 0 con ls /\ ref_enforce_ub KTot d con ub = Some (EOk asm) /\
  valid_shared w T (SEnc KTot 1 (BUb all_bounds)) /\ sstep w d T (SEnc KTot 1 (BUb all_bounds)) = Some (w', d', T') /\
  ref_enforce_ub KTot d' con ub = Some ENotEncoded.
Proof.
  set (ops := [SUserVars 4; STree (TLits [pos 0; pos 1]); STree (TLits [pos 2; pos 3]); SEnc KTot 0 (BUb all_bounds)]).
  assert (V : svalid world0 db_empty [] ops) by (unfold ops; valid_run).
  destruct (srun world0 db_empty [] ops) as [[[w d] T]|] eqn:E; [|vm_compute in E; discriminate].
  pose proof (srun_shared ops _ _ _ _ _ _ sh_start V E) as R. vm_compute in E. injection E as <- <- <-.
  do 6 eexists. exists (con_full 2), [(pos 0, 1%nat); (pos 1, 1%nat)], 1%nat, [mkLit 5 true]. split; [exact R|].
  split; [split; [vm_compute; reflexivity|]; cbn; intros l x Hl; repeat destruct Hl as [[= <- <-]|Hl]; try destruct Hl; reflexivity|].
  split; [vm_compute; reflexivity|].
  split; [split; [|exact Logic.I]; eexists _, _; split; [vm_compute; reflexivity|]; cbn; intros l x Hl; repeat destruct Hl as [[= <- <-]|Hl]; try destruct Hl; reflexivity|].
  split; [vm_compute; reflexivity|vm_compute; reflexivity].
Qed.
Print Assumptions C78_other_encoder_refuted.

(** and [encode_lb] takes away the upper bounds even of its own encoder. *)
Theorem C78_lb_takes_ub_refuted : ~ shared_persists (fun op => adding op \/ exists k i r, op = SEnc k i (BLb r)).
Proof.
  intros H. set (ops := [SUserVars 2; STree (TLits [pos 0; pos 1]); SEnc KTot 0 (BUb all_bounds)]).
  assert (V : svalid world0 db_empty [] ops) by (unfold ops; valid_run).
  destruct (srun world0 db_empty [] ops) as [[[w d] T]|] eqn:E; [|vm_compute in E; discriminate].
  pose proof (srun_shared ops _ _ _ _ _ _ sh_start V E) as R. vm_compute in E. injection E as <- <- <-.
  match type of R with shared ?w ?d ?T =>
    let r := eval vm_compute in (sstep w d T (SEnc KTot 0 (BLb all_bounds))) in
    match r with Some (?w', ?d', ?T') => destruct (H _ _ _ (SEnc KTot 0 (BLb all_bounds)) w' d' T' KTot 0%nat (con_full 2) [(pos 0, 1%nat); (pos 1, 1%nat)] R) as (_ & P & _) end
  end.
  - split; [|exact Logic.I]; eexists _, _; split; [vm_compute; reflexivity|]; cbn; intros l x Hl; repeat destruct Hl as [[= <- <-]|Hl]; try destruct Hl; reflexivity.
  - vm_compute. reflexivity.
  - split; [vm_compute; reflexivity|]; cbn; intros l x Hl; repeat destruct Hl as [[= <- <-]|Hl]; try destruct Hl; reflexivity.
  - specialize (P (or_intror (ex_intro _ KTot (ex_intro _ 0%nat (ex_intro _ all_bounds eq_refl)))) 1%nat [mkLit 3 true]). vm_compute in P. specialize (P eq_refl). discriminate.
Qed.
Print Assumptions C78_lb_takes_ub_refuted.

(** A lower bound of 0, which any assignment meets, panics. *)
Theorem C78_lb_zero_refuted : exists w d T con ls, shared w d T /\ encoder_on T KTot 0 con ls /\ rt_enforce_lb d (nc_id con) 0 = None.
Proof.
  exists ex_w, ex_d, ex_T. eexists _, _. split; [exact ex_shared|].
  split; [split; [vm_compute; reflexivity|]; cbn; intros l x Hl; repeat destruct Hl as [[= <- <-]|Hl]; try destruct Hl; reflexivity|]. vm_compute. reflexivity.
Qed.
Print Assumptions C78_lb_zero_refuted.

Theorem C78_local : shared_local.
Proof. exact shared_local_ok. Qed.
Print Assumptions C78_local.
Example C78_local_ex : shared ex_w ex_d ex_T /\ w_next ex_w = 20%N /\ length (w_aux ex_w) = 3%nat.
Proof. split; [exact ex_shared|]. split; vm_compute; reflexivity. Qed.

(** The next value above: no sum lies in between. *)
Theorem C78_next_higher : forall w d T m i con ls val, shared w d T -> encoder_on T (KGte m) i con ls ->
  exists v, rg_next_higher d con val = Some v /\ (val < v)%nat /\ forall a, (val < wsum a ls -> v <= wsum a ls)%nat.
Proof. exact rg_next_higher_ok. Qed.
Print Assumptions C78_next_higher.
(** The next value below a positive value. Missing: the value 0, and that the answer is a sum that can be reached. *)
Theorem C78_next_lower_partial : forall w d T m i con ls val, shared w d T -> encoder_on T (KGte m) i con ls -> (1 <= val)%nat ->
  exists v, rg_next_lower d con val = Some v /\ (v < val)%nat /\ forall a, (wsum a ls < val -> wsum a ls <= v)%nat.
Proof. exact rg_next_lower_ok. Qed.
Print Assumptions C78_next_lower_partial.

Definition ex_gte : list shared_op := [SUserVars 2; STree (TWeighted [(pos 0, 3%nat); (pos 1, 5%nat)])].
Definition exg_w : world (lit * nat) := Eval vm_compute in match srun world0 db_empty [] ex_gte with Some (w, _, _) => w | None => world0 end.
Definition exg_d : db := Eval vm_compute in match srun world0 db_empty [] ex_gte with Some (_, d, _) => d | None => db_empty end.
Definition exg_T : trees := Eval vm_compute in match srun world0 db_empty [] ex_gte with Some (_, _, T) => T | None => [] end.
Lemma ex_gte_shared : shared exg_w exg_d exg_T.
Proof. apply (srun_shared ex_gte world0 db_empty []); [apply sh_start|unfold ex_gte; valid_run|vm_compute; reflexivity]. Qed.
Example C78_next_ex : shared exg_w exg_d exg_T /\
  exists con ls, encoder_on exg_T (KGte 5) 0 con ls /\ map (rg_next_higher exg_d con) [0; 3; 4; 7; 8]%nat = map Some [3; 5; 5; 8; 9]%nat /\ map (rg_next_lower exg_d con) [8; 5; 4; 1]%nat = map Some [5; 3; 3; 0]%nat.
Proof.
  split; [exact ex_gte_shared|]. eexists _, _. split; [split; [vm_compute; reflexivity|]|vm_compute; auto]. cbn. intros l x H. repeat destruct H as [[= <- <-]|H]; try destruct H; lia.
Qed.
(** Below the least weight the answer is one less rather than 0, and for 0 itself the code panics. *)
Theorem C78_next_lower_refuted : exists w d T con ls, shared w d T /\ encoder_on T (KGte 5) 0 con ls /\
  rg_next_lower d con 3 = Some 2%nat /\ possible ls 0 /\ ~ possible ls 2 /\ rg_next_lower d con 0 = None.
Proof.
  exists exg_w, exg_d, exg_T. eexists _, _. split; [exact ex_gte_shared|].
  split; [split; [vm_compute; reflexivity|]; cbn; intros l x Hl; repeat destruct Hl as [[= <- <-]|Hl]; try destruct Hl; lia|].
  split; [vm_compute; reflexivity|]. split; [exists (fun _ => false); vm_compute; reflexivity|]. split; [|vm_compute; reflexivity].
  intros (a & Ha). cbn in Ha. unfold lit_true, pos in Ha. cbn in Ha. destruct (a 0%N), (a 1%N); cbn in Ha; discriminate.
Qed.
Print Assumptions C78_next_lower_refuted.
