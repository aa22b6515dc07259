(** * Properties of the dynamic polynomial watchdog used from Python: C86 *)

From Coq Require Import List Bool NArith Lia Permutation.
From Verif Require Import Spec BoundSpec Types Base Constraints Maps NodeDb Totalizer Dpw DpwSpec PySpec PyEnc PyDpw PyDpwProofs.
Import ListNotations.

Definition sorts (srt : list node -> list nodecon -> list nodecon) : Prop := forall ns l, Permutation (srt ns l) l.

(** C86 (dynamic polynomial watchdog): for every Python program that makes a dynamic polynomial watchdog from distinct literals with positive
    weights, takes variables and encodes ranges of upper bounds in any order, the assumptions of [enforce_ub] and all clauses returned hold, up to
    the variables of the encoding, for exactly the assignments that meet the bound. Missing: repeated literals and weights 0, for which it is false
    (below). *)
Theorem C86_dpw_exact_partial : forall ord srt xs, iter_order ord -> sorts srt -> forall R n own F t, d_hist ord srt xs R n own F t ->
  forall b ls, pydpw_enforce_ub t b = PyOne ls ->
  (forall a, sat_cnf a F = true -> sat_cube a ls = true -> wsum a xs <= b) /\
  (forall a, wsum a xs <= b -> exists a', (forall v, ~ in_aux own v -> a' v = a v) /\ sat_cnf a' F = true /\ sat_cube a' ls = true).
Proof. intros ord srt xs Ho Hs. exact (pydpw_exact ord Ho srt Hs xs). Qed.
Print Assumptions C86_dpw_exact_partial.

(** Every bound of every range encoded so far can be enforced. *)
Theorem C86_dpw_encoded_partial : forall ord srt xs, iter_order ord -> sorts srt -> forall R n own F t, d_hist ord srt xs R n own F t ->
  forall lo hi b, In (lo, hi) R -> lo <= b <= hi -> exists ls, pydpw_enforce_ub t b = PyOne ls.
Proof. intros ord srt xs Ho Hs. exact (pydpw_encoded ord Ho srt Hs xs). Qed.
Print Assumptions C86_dpw_encoded_partial.

(** The constructor and all calls succeed; [enforce_ub] raises at most a [RuntimeError]. *)
Theorem C86_dpw_errors_partial : forall ord srt xs, iter_order ord -> sorts srt ->
  (NoDup (map fst xs) -> (forall x, In x xs -> 1 <= snd x) -> exists t, pydpw_new ord xs = Some t) /\
  forall R n own F t, d_hist ord srt xs R n own F t ->
    (forall c, pydpw_call srt t n c <> None) /\ forall b, pydpw_enforce_ub t b = PyRuntimeError \/ exists ls, pydpw_enforce_ub t b = PyOne ls.
Proof. intros ord srt xs Ho Hs. split; [exact (pydpw_new_total ord Ho xs)|exact (pydpw_errors ord Ho srt Hs xs)]. Qed.
Print Assumptions C86_dpw_errors_partial.

(** The clauses only mention inputs and variables that the encoding took from the manager during its calls. *)
Theorem C86_dpw_variables_partial : forall ord srt xs, iter_order ord -> sorts srt -> forall R n own F t, d_hist ord srt xs R n own F t ->
  forall c l, In c F -> In l c -> (exists x, In x xs /\ lvar (fst x) = lvar l) \/ in_aux own (lvar l).
Proof. intros ord srt xs Ho Hs. exact (pydpw_local ord Ho srt Hs xs). Qed.
Print Assumptions C86_dpw_variables_partial.

Fixpoint d_run (R : list (nat * nat)) (n : N) (own : list (N * N)) (F : cnf) (t : dpw) (cs : list dcall) : option (list (nat * nat) * N * list (N * N) * cnf * dpw) :=
  match cs with
  | [] => Some (R, n, own, F, t)
  | c :: cs => match pydpw_call (fun _ l => l) t n c with Some (t', f, n') => d_run (d_range c ++ R) n' (d_own c n n' ++ own) (F ++ f) t' cs | None => None end
  end.
Lemma d_run_hist xs cs : forall R n own F t r, d_hist (fun m => m) (fun _ l => l) xs R n own F t -> d_run R n own F t cs = Some r ->
  let '(R', n', own', F', t') := r in d_hist (fun m => m) (fun _ l => l) xs R' n' own' F' t'.
Proof.
  induction cs as [|c cs IH]; intros R n own F t r H E; cbn [d_run] in *; [injection E as <-; exact H|].
  destruct (pydpw_call (fun _ l => l) t n c) as [[[t' f] n']|] eqn:C; [|discriminate E]. exact (IH _ _ _ _ _ _ (dh_call _ _ _ _ _ _ _ _ c t' f n' H C) E).
Qed.
(** three weighted literals, two ranges encoded with variables taken in between *)
Example C86_dpw_ex : exists R n own F t, d_hist (fun m => m) (fun _ l => l) [(pos 0, 3); (negl 1, 4); (pos 2, 2)] R n own F t /\ R = [(2, 3); (5, 6)] /\ 5 <= length F /\
  (exists ls, ls <> [] /\ pydpw_enforce_ub t 5 = PyOne ls) /\ (exists ls, ls <> [] /\ pydpw_enforce_ub t 2 = PyOne ls).
Proof.
  destruct (pydpw_new (fun m => m) [(pos 0, 3); (negl 1, 4); (pos 2, 2)]) as [t0|] eqn:E0; [|vm_compute in E0; discriminate E0].
  destruct (d_run [] 3 [] [] t0 [DEncodeUb 5 6; DNewVars 2; DEncodeUb 2 3]) as [r|] eqn:E; [|exfalso; revert E; vm_compute in E0; injection E0 as <-; vm_compute; discriminate].
  assert (H : let '(R', n', own', F', t') := r in d_hist (fun m => m) (fun _ l => l) [(pos 0, 3); (negl 1, 4); (pos 2, 2)] R' n' own' F' t').
  { refine (d_run_hist _ _ _ _ _ _ _ r _ E). apply dh_new; [repeat constructor; cbn; intuition discriminate| |exact E0].
    intros x [<-|[<-|[<-|[]]]]; cbn [fst snd lvar pos negl]; split; first [lia|reflexivity]. }
  vm_compute in E0. injection E0 as <-. vm_compute in E. injection E as <-. eexists _, _, _, _, _. split; [exact H|]. clear H.
  split; [reflexivity|]. split; [cbn [length]; lia|]. split; (eexists; split; [|vm_compute; reflexivity]; discriminate).
Qed.

(** C86 (dynamic polynomial watchdog, finding): a weight 0 makes the constructor panic, where the generalized totalizer accepts it. *)
Theorem C86_dpw_zero_weight_refuted : forall ord l, iter_order ord -> pydpw_new ord [(l, 0)] = None /\ exists s, pygte_weight_sum (pygte_new [(l, 0)]) = Some s.
Proof.
  intros ord l H. split; [|exists 0; reflexivity]. unfold pydpw_new, dpw_from_iter. cbn [map_collect fold_left map_insert]. unfold dpw_from.
  pose proof (H [(l, 0)]) as P. apply Permutation_sym, Permutation_length_1_inv in P. rewrite P. reflexivity.
Qed.
Print Assumptions C86_dpw_zero_weight_refuted.

(** C86 (dynamic polynomial watchdog, finding): of a literal given twice to the constructor only the last weight counts. *)
Theorem C86_dpw_constructor_refuted : forall ord x, iter_order ord -> exists t, pydpw_new ord [(x, 2); (x, 3)] = Some t /\ dp_sum t = 3 /\ pydpw_enforce_ub t 3 = PyOne [] /\
  forall a, lit_true a x = true -> wsum a [(x, 2); (x, 3)] = 5.
Proof.
  intros ord x H. assert (R : lit_eqb x x = true) by (unfold lit_eqb; rewrite N.eqb_refl; destruct (lneg x); reflexivity).
  assert (E : map_collect [(x, 2); (x, 3)] = [(x, 3)]) by (unfold map_collect; cbn [fold_left map_insert]; rewrite R; reflexivity).
  unfold pydpw_new, dpw_from_iter. rewrite E. unfold dpw_from. pose proof (H [(x, 3)]) as P. apply Permutation_sym, Permutation_length_1_inv in P. rewrite P.
  eexists. split; [reflexivity|]. split; [reflexivity|]. split; [reflexivity|]. intros a L. cbn [wsum]. rewrite L. reflexivity.
Qed.
Print Assumptions C86_dpw_constructor_refuted.
