(** * Running concrete histories (for examples) *)

From Coq Require Import List Bool NArith Lia ZifyBool ZifyN.
From Verif Require Import Spec BoundSpec.
Import ListNotations.

Definition in_auxb (aux : list (N * N)) (v : N) : bool := existsb (fun '(lo, hi) => (lo <=? v)%N && (v <? hi)%N) aux.
Lemma in_auxb_in aux v : in_aux aux v -> in_auxb aux v = true.
Proof. intros (lo & hi & Hin & Hv). apply existsb_exists. exists (lo, hi). split; [auto|]. lia. Qed.

Section Exec.
Context {A S : Type} (E : encoder A S) (ilit : A -> lit) (iokb : A -> bool) (allowb : hop A -> bool).
Context (iok : A -> Prop) (allow : hop A -> Prop).

Definition valid_opb (w : world A) (op : hop A) : bool :=
  allowb op &&
  match op with
  | HExtend xs => forallb (fun x => iokb x && (lvar (ilit x) <? w_next w)%N && negb (in_auxb (w_aux w) (lvar (ilit x)))) xs
  | _ => true
  end.

Fixpoint run (ops : list (hop A)) (w : world A) (s : S) : option (world A * S) :=
  match ops with
  | [] => Some (w, s)
  | op :: ops' => if valid_opb w op then match step E w s op with Some (w', s') => run ops' w' s' | None => None end else None
  end.

Hypothesis iokb_ok : forall x, iokb x = true -> iok x.
Hypothesis allowb_ok : forall op, allowb op = true -> allow op.

Lemma valid_opb_ok w op : valid_opb w op = true -> valid_op ilit iok allow w op.
Proof.
  unfold valid_opb, valid_op. intros H. apply andb_true_iff in H as (H1 & H2). split; [auto|]. destruct op; auto.
  intros x Hin. rewrite forallb_forall in H2. specialize (H2 x Hin). apply andb_true_iff in H2 as (H2 & H3). apply andb_true_iff in H2 as (H2 & H4).
  split; [auto|]. split; [lia|]. intros Ha. apply in_auxb_in in Ha. rewrite Ha in H3. discriminate.
Qed.

Lemma run_reach ops w s w' s' : reachable E ilit iok allow w s -> run ops w s = Some (w', s') -> reachable E ilit iok allow w' s'.
Proof.
  revert w s. induction ops as [|op ops IH]; intros w s R H; cbn in H; [injection H as <- <-; exact R|].
  destruct (valid_opb w op) eqn:V; [|discriminate]. destruct (step E w s op) as [[w1 s1]|] eqn:Es; [|discriminate].
  eapply IH; [|exact H]. apply (reach_step _ _ _ _ w s op); [exact R|apply valid_opb_ok; exact V|exact Es].
Qed.

Lemma run_reach0 ops w s : run ops world0 (en_init E) = Some (w, s) -> reachable E ilit iok allow w s.
Proof. apply run_reach. apply reach_init. Qed.

(** with questions for upper bounds in between *)
Fixpoint run_asking (ops : list (hop A + nat)) (w : world A) (s : S) (U : list (nat * list lit)) : option (world A * S * list (nat * list lit)) :=
  match ops with
  | [] => Some (w, s, U)
  | inl op :: ops' => if valid_opb w op then match step E w s op with Some (w', s') => run_asking ops' w' s' U | None => None end else None
  | inr ub :: ops' => match en_enforce_ub E s ub with Some (EOk ls) => run_asking ops' w s ((ub, ls) :: U) | _ => None end
  end.
Lemma run_asking_enforced ops w s U w' s' U' : enforced E ilit iok allow w s U -> run_asking ops w s U = Some (w', s', U') -> enforced E ilit iok allow w' s' U'.
Proof.
  revert w s U. induction ops as [|[op|ub] ops IH]; intros w s U R H; cbn in H; [injection H as <- <- <-; exact R| |].
  - destruct (valid_opb w op) eqn:V; [|discriminate]. destruct (step E w s op) as [[w1 s1]|] eqn:Es; [|discriminate].
    eapply IH; [|exact H]. apply (enf_step _ _ _ _ w s U op); [exact R|apply valid_opb_ok; exact V|exact Es].
  - destruct (en_enforce_ub E s ub) as [[ls| |]|] eqn:Ee; try discriminate. eapply IH; [|exact H]. now apply enf_ask.
Qed.
Lemma run_asking0 ops w s U : run_asking ops world0 (en_init E) [] = Some (w, s, U) -> enforced E ilit iok allow w s U.
Proof. apply run_asking_enforced. apply enf_init. Qed.
End Exec.

(** distinct literals, decided *)
Fixpoint nodupb (ls : list lit) : bool :=
  match ls with [] => true | l :: ls' => negb (existsb (fun k => N.eqb (lvar k) (lvar l) && Bool.eqb (lneg k) (lneg l)) ls') && nodupb ls' end.

Lemma nodupb_sound ls : nodupb ls = true -> NoDup ls.
Proof.
  induction ls as [|l ls IH]; intros H; constructor; cbn in H; apply andb_prop in H as (H1 & H2); auto.
  intros Hin. apply negb_true_iff in H1.
  assert (existsb (fun k => N.eqb (lvar k) (lvar l) && Bool.eqb (lneg k) (lneg l)) ls = true); [|congruence].
  apply existsb_exists. exists l. rewrite N.eqb_refl, eqb_reflx. auto.
Qed.
