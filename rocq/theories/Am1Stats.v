(** * Histories of at-most-one encoder objects *)

From Coq Require Import List Bool NArith ZArith Lia.
From Coq Require Import ZifyBool ZifyNat ZifyN.
From Verif Require Import Spec Types Base Atomics Am1 Am1Spec Am1Proofs.
Import ListNotations.

Lemma am1_correct_all k : am1_params_ok k -> am1_correct (am1_encode k).
Proof.
  intros Hk ls next f next' Hb E. destruct (am1_encode_ok k Hk ls next Hb) as (H1 & H2 & H3 & H4).
  rewrite E in *. cbn [fst snd] in *. split; [assumption|]. split; [assumption|]. split; assumption.
Qed.

(** The calls a user can make on an encoder object *)
Inductive am1_op : Type := AmExtend (ls : list lit) | AmEncode.

Fixpoint am1_run (k : am1_kind) (ops : list am1_op) (o : am1_obj) (next : N) : am1_obj * N * list cnf :=
  match ops with
  | [] => (o, next, [])
  | AmExtend ls :: ops' => am1_run k ops' (am1_extend o ls) next
  | AmEncode :: ops' =>
      let '(f, next1, o1) := am1_obj_encode k o next in
      let '(o2, next2, tr) := am1_run k ops' o1 next1 in
      (o2, next2, f :: tr)
  end.

Definition am1_added (ops : list am1_op) : list lit :=
  flat_map (fun op => match op with AmExtend ls => ls | AmEncode => [] end) ops.

(** The next free variable never decreases, also without assumptions on the literals. *)
Definition monotone (enc : list lit -> N -> cnf * N) : Prop := forall ls next, (next <= snd (enc ls next))%N.

Lemma commander_loop_mono n sub ls cs next : monotone sub -> (next <= snd (commander_loop n sub ls cs next))%N.
Proof.
  intros H. revert next; induction cs as [|[s c] cs IH]; intros next; cbn [commander_loop]; [cbn; lia|].
  pose proof (H (split_lits n ls s) next). destruct (sub (split_lits n ls s) next) as [f1 n1].
  specialize (IH n1). destruct (commander_loop n sub ls cs n1) as [f2 n2]. cbn [snd] in *. lia.
Qed.

Lemma bimander_loop_mono n p sub ls aux ss next : monotone sub -> (next <= snd (bimander_loop n p sub ls aux ss next))%N.
Proof.
  intros H. revert next; induction ss as [|s ss IH]; intros next; cbn [bimander_loop]; [cbn; lia|].
  pose proof (H (split_lits n ls s) next). destruct (sub (split_lits n ls s) next) as [f1 n1].
  specialize (IH n1). destruct (bimander_loop n p sub ls aux ss n1) as [f2 n2]. cbn [snd] in *. lia.
Qed.

Lemma am1_monotone k : monotone (am1_encode k).
Proof.
  induction k; intros ls next; cbn [am1_encode].
  - cbn; lia.
  - unfold ladder_encode. destruct (length ls <=? 1)%nat; cbn [snd]; lia.
  - unfold bitwise_encode. destruct (length ls <=? 1)%nat; cbn [snd]; lia.
  - unfold commander_encode. destruct (length ls <=? 1)%nat; [cbn [snd]; lia|].
    set (m := div_ceil (length ls) n).
    pose proof (commander_loop_mono n (am1_encode k) ls (combine (seq 0 m) (fresh_lits next m)) (next + N.of_nat m) IHk) as H.
    destruct (commander_loop n (am1_encode k) ls (combine (seq 0 m) (fresh_lits next m)) (next + N.of_nat m)) as [f1 n1].
    pose proof (IHk (fresh_lits next m) n1) as H'. destruct (am1_encode k (fresh_lits next m) n1) as [f2 n2]. cbn [snd] in *. lia.
  - unfold bimander_encode. destruct (length ls <=? 1)%nat; [cbn [snd]; lia|].
    pose proof (bimander_loop_mono n (digits2 (div_ceil (length ls) n - 1)) (am1_encode k) ls
      (fresh_lits next (digits2 (div_ceil (length ls) n - 1))) (seq 0 (div_ceil (length ls) n))
      (next + N.of_nat (digits2 (div_ceil (length ls) n - 1))) IHk). lia.
  - unfold twoproduct_encode. destruct (length ls <=? 1)%nat; [cbn [snd]; lia|].
    set (p := rows_loop (length ls) 0 (length ls)). set (q := div_ceil (length ls) p).
    pose proof (IHk (fresh_lits next p) (next + N.of_nat p + N.of_nat q)%N) as H.
    destruct (am1_encode k (fresh_lits next p) (next + N.of_nat p + N.of_nat q)%N) as [f1 n1].
    pose proof (IHk (fresh_lits (next + N.of_nat p) q) n1) as H'.
    destruct (am1_encode k (fresh_lits (next + N.of_nat p) q) n1) as [f2 n2]. cbn [snd] in *. lia.
Qed.

Lemma am1_encode_small k ls next : (length ls <= 1)%nat -> am1_encode k ls next = ([], next).
Proof.
  intros H. assert (E : (length ls <=? 1)%nat = true) by lia.
  destruct k; cbn [am1_encode]; unfold ladder_encode, bitwise_encode, commander_encode, bimander_encode, twoproduct_encode;
    rewrite ?E; try reflexivity.
  destruct ls as [|x [|y ls]]; [reflexivity|reflexivity|cbn in H; lia].
Qed.

(** One call: variables reported grow by those taken, clauses reported are those of the call. *)
Lemma am1_obj_encode_stats k o next f next' o' :
  (length (am_lits o) <= 1 -> am_n_clauses o = 0)%nat ->
  (k = AmPairwise -> am_n_vars o = 0%N) ->
  am1_obj_encode k o next = (f, next', o') ->
  (next <= next')%N /\ am_n_vars o' = (am_n_vars o + (next' - next))%N /\ am_n_clauses o' = length f /\ am_lits o' = am_lits o.
Proof.
  intros Hz Hp. unfold am1_obj_encode.
  pose proof (am1_monotone k (am_lits o) next) as Hm.
  destruct (am1_encode k (am_lits o) next) as [f0 n0] eqn:E. cbn [snd] in Hm. intros H. inv H.
  split; [assumption|]. unfold am1_stats.
  destruct k; [| | | | |].
  1: { cbn [am_n_vars am_n_clauses am_lits]. rewrite (Hp eq_refl). cbn in E. inv E. repeat split. lia. }
  all: destruct (length (am_lits o) <=? 1)%nat eqn:El;
    [rewrite am1_encode_small in E by lia; inv E; rewrite Hz by lia; repeat split; lia|].
  all: cbn [am_n_vars am_n_clauses am_lits]; repeat split; try reflexivity.
  - cbn [am1_encode] in E. unfold ladder_encode in E. rewrite El in E. inv E. lia.
  - cbn [am1_encode] in E. unfold bitwise_encode in E. rewrite El in E. inv E. lia.
Qed.

Lemma last_cons_ne {A} (x : A) l d : l <> [] -> last (x :: l) d = last l d.
Proof. destruct l; [congruence|reflexivity]. Qed.

Lemma am1_run_gen k ops o next o' next' tr :
  (length (am_lits o) <= 1 -> am_n_clauses o = 0)%nat ->
  (k = AmPairwise -> am_n_vars o = 0%N) ->
  am1_run k ops o next = (o', next', tr) ->
  (next <= next')%N /\ am_n_vars o' = (am_n_vars o + (next' - next))%N /\
  am_n_clauses o' = match tr with [] => am_n_clauses o | _ => length (last tr []) end /\
  am_lits o' = am_lits o ++ am1_added ops.
Proof.
  revert o next o' next' tr; induction ops as [|[ls|] ops IH]; intros o next o' next' tr Hz Hp; cbn [am1_run].
  - intros H. inv H. cbn. rewrite app_nil_r. repeat split; lia.
  - intros H. apply IH in H as (H1 & H2 & H3 & H4).
    + cbn [am1_extend am_lits am_n_vars am_n_clauses] in *. cbn [am1_added flat_map]. rewrite <- app_assoc in H4. auto.
    + cbn [am1_extend am_lits am_n_clauses]. rewrite app_length. intros. apply Hz. lia.
    + exact Hp.
  - destruct (am1_obj_encode k o next) as [[f n1] o1] eqn:E1.
    destruct (am1_run k ops o1 n1) as [[o2 n2] tr2] eqn:E2. intros H. inv H.
    pose proof (am1_obj_encode_stats k o next f n1 o1 Hz Hp E1) as (A1 & A2 & A3 & A4).
    apply IH in E2 as (B1 & B2 & B3 & B4).
    + split; [lia|]. split; [lia|]. split.
      * destruct tr2 as [|g tr2]; [now rewrite B3|]. rewrite last_cons_ne by discriminate. exact B3.
      * rewrite B4, A4. reflexivity.
    + rewrite A4, A3. intros Hl. unfold am1_obj_encode in E1. rewrite am1_encode_small in E1 by exact Hl. inv E1. reflexivity.
    + intros ->. unfold am1_obj_encode in E1. cbn in E1. inv E1. reflexivity.
Qed.

Lemma am1_run_stats k ls ops next o next' tr :
  am1_params_ok k ->
  am1_run k ops (am1_from ls) next = (o, next', tr) ->
  (next <= next')%N /\ am_n_vars o = (next' - next)%N /\
  am_n_clauses o = match tr with [] => 0%nat | _ => length (last tr []) end /\
  am_lits o = ls ++ am1_added ops.
Proof.
  intros _ H. apply am1_run_gen in H as (H1 & H2 & H3 & H4); cbn [am1_from am_lits am_n_clauses am_n_vars] in *; auto.
Qed.
