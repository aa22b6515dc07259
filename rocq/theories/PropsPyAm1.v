(** * Properties of the at-most-one encodings used from Python: C86 *)

From Coq Require Import List Bool NArith Lia.
From Verif Require Import Spec BoundSpec Types Am1 PyAm1 PyAm1Proofs.
Import ListNotations.

(** C86 (at-most-one): for every Python program with any number of at-most-one objects of all five classes that share one variable manager and are
    encoded in any order and any number of times, all clauses returned together hold, up to the variables of the encodings, for
    exactly the assignments that make at most one literal of each encoded object true. *)
Theorem C86_am1_joint : forall w s, a_hist w s ->
  (forall a, sat_cnf a (as_F w) = true -> a_met a w) /\
  (forall a, a_met a w -> exists a', (forall v, ~ in_aux (as_own w) v -> a' v = a v) /\ sat_cnf a' (as_F w) = true).
Proof. exact pyam1_joint. Qed.
Print Assumptions C86_am1_joint.

(** Every object can be encoded, and the variables of its encoding are neither those of other encodings nor of literals given to an
    object. *)
Theorem C86_am1_encode : forall w s, a_hist w s -> forall i, i < length (as_lits w) -> exists s' f, pyam1_call s (AEncode i) = Some (s', f) /\
  forall v, (pa_next s <= v < pa_next s')%N -> ~ in_aux (as_own w) v /\ forall ls l, In ls (as_lits w) -> In l ls -> lvar l <> v.
Proof.
  intros w s H i Hi. destruct (pyam1_encode_total w s H i Hi) as (s' & f & E). exists s', f. split; [exact E|]. intros v. exact (pyam1_own_fresh w s H i s' f v E).
Qed.
Print Assumptions C86_am1_encode.

Fixpoint a_run (w : aseen) (s : pyam1s) (cs : list acall) : option (aseen * pyam1s) :=
  match cs with
  | [] => Some (w, s)
  | c :: cs => match pyam1_call s c with Some (s', f) => a_run (a_see w c (pa_next s) (pa_next s') f) s' cs | None => None end
  end.
Definition a_validb (s : pyam1s) (w : aseen) (c : acall) : bool :=
  match c with ANew _ ls => forallb (fun l => (lvar l <? pa_next s)%N && negb (existsb (fun i => (fst i <=? lvar l)%N && (lvar l <? snd i)%N) (as_own w))) ls | _ => true end.
Fixpoint a_validsb (w : aseen) (s : pyam1s) (cs : list acall) : bool :=
  match cs with
  | [] => true
  | c :: cs => a_validb s w c && match pyam1_call s c with Some (s', f) => a_validsb (a_see w c (pa_next s) (pa_next s') f) s' cs | None => false end
  end.
Lemma a_run_hist cs : forall w s w' s', a_hist w s -> a_validsb w s cs = true -> a_run w s cs = Some (w', s') -> a_hist w' s'.
Proof.
  induction cs as [|c cs IH]; intros w s w' s' H V E; cbn [a_run a_validsb] in *; [injection E as <- <-; exact H|].
  destruct (pyam1_call s c) as [[s1 f]|] eqn:C; [|discriminate E]. apply andb_true_iff in V as [V1 V2]. apply (IH _ _ _ _ (ah_call w s c s1 f H ltac:(
    destruct c as [k ls| |]; try exact I; intros l Hl; apply (proj1 (forallb_forall _ _) V1) in Hl; apply andb_true_iff in Hl as [A B]; split; [apply N.ltb_lt; exact A|];
    intros (lo & hi & J & L); apply negb_true_iff in B; assert (T : existsb (fun i => (fst i <=? lvar l)%N && (lvar l <? snd i)%N) (as_own w) = true) by
      (apply existsb_exists; exists (lo, hi); split; [exact J|cbn [fst snd]; apply andb_true_iff; split; [apply N.leb_le|apply N.ltb_lt]; apply L]); congruence) C) V2 E).
Qed.
(** three objects with common literals, one of them encoded twice, and variables taken in between *)
Example C86_am1_ex : exists w s, a_hist w s /\ as_done w = [2; 0; 1; 0] /\ length (as_own w) = 4 /\ 30 <= length (as_F w) /\
  ~ a_met (fun v => (v <? 2)%N) w /\ a_met (fun v => (v =? 2)%N) w.
Proof.
  destruct (a_run (mkASeen [] [] [] []) (mkPyAm1s 7 [])
    [ANew PyLadder [pos 0; pos 1; negl 2]; AEncode 0; ANew PyBimander [pos 0; pos 2; pos 3; pos 4; pos 5; pos 6]; AEncode 1; ANewVars 2; AEncode 0;
     ANew PyCommander [pos 3; pos 4; pos 5; pos 6; pos 1]; AEncode 2]) as [[w s]|] eqn:E; [|vm_compute in E; discriminate E].
  exists w, s. split; [refine (a_run_hist _ _ _ _ _ (ah_new 7) _ E); vm_compute; reflexivity|].
  vm_compute in E. injection E as <- <-. cbn [as_done as_own as_F as_lits length]. split; [reflexivity|]. split; [reflexivity|]. split; [lia|]. split.
  - intros M. specialize (M 0 _ (or_intror (or_introl eq_refl)) eq_refl). vm_compute in M. lia.
  - intros i ls Hi Hl. cbn [as_done as_lits] in *. repeat (destruct Hi as [<-|Hi]; [cbn in Hl; injection Hl as <-; vm_compute; lia|]). destruct Hi.
Qed.
