(** * Concrete solvers, for the examples and counterexamples

    A program that tries all assignments, and a solver on top of it whose calls fail as the world says. *)

From Coq Require Import List Bool NArith Lia.
From Verif Require Import Spec Base Types TypesProofs SolverSpec Solver SolverUse SolverProofs.
Import ListNotations.

Fixpoint all_assignments (prefer : bool) (n : nat) : list (list bool) :=
  match n with O => [[]] | Datatypes.S n' => map (cons prefer) (all_assignments prefer n') ++ map (cons (negb prefer)) (all_assignments prefer n') end.
Definition asg_of (bs : list bool) : asg := fun v => nth (N.to_nat v) bs false.
(** tries all assignments, those with the value [prefer] for the first variables first *)
Definition try_all {W} (prefer : bool) (f : cnf) (n : N) (w : W) : option sout * W :=
  (Some (match find (fun bs => sat_cnf (asg_of bs) f) (all_assignments prefer (N.to_nat (n_vars_of f))) with
         | Some bs => OSat (map tern_of_bool bs)
         | None => OUnsat
         end), w).
(** fails if the first outcome in the world is [false] *)
Definition toy_add {W} (s : ext) (c : clause) (w : W * list bool) : bool * ext * (W * list bool) :=
  match snd w with
  | false :: bs => (false, s, (fst w, bs))
  | true :: bs => ext_add s c (fst w, bs)
  | [] => ext_add s c w
  end.
Definition toy_solve {W} (run : cnf -> N -> W * list bool -> option sout * (W * list bool)) (s : ext) (w : W * list bool) : option sres * ext * (W * list bool) :=
  match snd w with
  | false :: bs => (None, s, (fst w, bs))
  | true :: bs => ext_solve run s (fst w, bs)
  | [] => ext_solve run s w
  end.
Definition toy (prefer : bool) : solver ext (unit * list bool) :=
  mkSolver ext_init toy_add (toy_solve (try_all prefer)) ext_val ext_solution (fun _ => None).

Lemma in_all_assignments prefer n bs : length bs = n -> In bs (all_assignments prefer n).
Proof.
  revert bs. induction n as [|n IH]; intros [|b bs] H; try discriminate; [left; reflexivity|]. injection H as H. cbn [all_assignments]. apply in_or_app.
  destruct (Bool.eqb b prefer) eqn:E; [left|right]; apply in_map_iff; exists bs; (split; [|now apply IH]); destruct b, prefer; try discriminate; reflexivity.
Qed.
Lemma all_assignments_length prefer n bs : In bs (all_assignments prefer n) -> length bs = n.
Proof.
  revert bs. induction n as [|n IH]; cbn [all_assignments]; intros bs H; [destruct H as [<-|[]]; reflexivity|].
  apply in_app_or in H as [H|H]; apply in_map_iff in H as (b' & <- & H); cbn; f_equal; auto.
Qed.

Lemma try_all_honest W prefer : honest (W := W) (try_all prefer).
Proof.
  intros f n w. cbn [try_all fst].
  assert (Agree : forall a bs, length bs = N.to_nat (n_vars_of f) -> (forall v, (v < n_vars_of f)%N -> a v = asg_of bs v) -> sat_cnf a f = sat_cnf (asg_of bs) f).
  { intros a bs _ H. apply sat_cnf_agree. intros c Hc l Hl. apply H. now apply (n_vars_of_ge f c). }
  destruct (find _ _) as [bs|] eqn:E.
  - apply find_some in E as [Hin Hs]. apply all_assignments_length in Hin. intros a Ha. rewrite (Agree a bs Hin); [exact Hs|].
    intros v Hv. apply Ha. unfold pasg_of. rewrite var_value_nth. unfold vidx, asg_of.
    rewrite nth_indep with (d' := tern_of_bool false) by (rewrite map_length; lia). rewrite map_nth. now destruct (nth _ bs false).
  - intros a. pose proof (find_none _ _ E (map a (map N.of_nat (seq 0 (N.to_nat (n_vars_of f)))))) as H.
    rewrite (Agree a (map a (map N.of_nat (seq 0 (N.to_nat (n_vars_of f)))))).
    + apply H. apply in_all_assignments. now rewrite !map_length, seq_length.
    + now rewrite !map_length, seq_length.
    + intros v Hv. unfold asg_of. rewrite map_map. rewrite nth_indep with (d' := a (N.of_nat 0)) by (rewrite map_length, seq_length; lia).
      rewrite (map_nth (fun x => a (N.of_nat x))), seq_nth by lia. f_equal. lia.
Qed.

Lemma toy_correct prefer : correct (toy prefer) ext_reps.
Proof.
  pose proof (external_correct _ (try_all_honest (unit * list bool) prefer)) as C.
  assert (Add : forall s c (w : unit * list bool) s' w', toy_add s c w = (true, s', w') -> exists w1 w2 : unit * list bool, ext_add s c w1 = (true, s', w2)).
  { intros s c [u bs] s' w' E. unfold toy_add in E. cbn [fst snd] in E. destruct bs as [|[|] bs]; try discriminate; eauto. }
  assert (Sol : forall s (w : unit * list bool) r s' w', toy_solve (try_all prefer) s w = (Some r, s', w') -> exists w1 w2 : unit * list bool, ext_solve (try_all prefer) s w1 = (Some r, s', w2)).
  { intros s [u bs] r s' w' E. unfold toy_solve in E. cbn [fst snd] in E. destruct bs as [|[|] bs]; try discriminate; eauto. }
  constructor.
  - exact (co_init _ _ C).
  - intros s f m c w s' w' R E. apply Add in E as (w1 & w2 & E). exact (co_add _ _ C s f m c w1 s' w2 R E).
  - intros s f m w s' w' R E. apply Sol in E as (w1 & w2 & E). exact (co_sat _ _ C s f m w1 s' w2 R E).
  - intros s f m w s' w' R E. apply Sol in E as (w1 & w2 & E). exact (co_unsat _ _ C s f m w1 s' w2 R E).
  - intros s f m w s' w' R E. apply Sol in E as (w1 & w2 & E). exact (co_interrupted _ _ C s f m w1 s' w2 R E).
  - exact (co_models _ _ C).
Qed.
Lemma toy_robust prefer : robust (toy prefer) ext_reps.
Proof.
  pose proof (external_robust (try_all (W := unit * list bool) prefer)) as C.
  assert (Weak : forall s f m, ext_reps s f m -> ext_reps s f false) by (intros [g n|o] f m H; [destruct H; subst; split; reflexivity|discriminate]).
  constructor.
  - intros s f m c [u bs] s' w' R E. cbn [toy sv_add] in E. unfold toy_add in E. cbn [fst snd] in E. destruct bs as [|[|] bs].
    + exact (rb_add _ _ C s f m c _ s' w' R E).
    + exact (rb_add _ _ C s f m c _ s' w' R E).
    + injection E as <- <-. eapply Weak; eauto.
  - intros s f m [u bs] s' w' R E. cbn [toy sv_solve] in E. unfold toy_solve in E. cbn [fst snd] in E. destruct bs as [|[|] bs].
    + exact (rb_solve _ _ C s f m _ s' w' R E).
    + exact (rb_solve _ _ C s f m _ s' w' R E).
    + injection E as <- <-. eapply Weak; eauto.
Qed.

(** the incremental simulator over the program, as a solver without failures *)
Definition brute (prefer : bool) : solver (inc ext) unit := incremental (external (try_all prefer)).
Definition brute_reps := inc_reps1 ext_reps (fun s f => exists n, s = EPre f n).
Lemma brute_correct prefer : correct (brute prefer) brute_reps /\ knows_vars (brute prefer) brute_reps /\ reliable (brute prefer) brute_reps.
Proof.
  assert (O : one_shot (external (W := unit) (try_all prefer)) (fun s f => exists n, s = EPre f n)) by (apply external_one_shot; intros f n w; cbn; destruct (find _ _); split; discriminate).
  split; [apply incremental_correct1; [apply external_correct, try_all_honest|exact O]|]. split; [apply incremental_knows1|now apply incremental_reliable].
Qed.
(** the same, but with no largest variable as long as there are no literals *)
Definition strict (prefer : bool) : solver (inc ext) unit :=
  let V := brute prefer in
  mkSolver (sv_init V) (sv_add V) (sv_solve V) (sv_val V) (sv_solution V) (fun i => match concat (in_clauses i) with [] => None | _ => in_max i end).
Lemma strict_correct prefer : correct (strict prefer) brute_reps /\ knows_vars (strict prefer) brute_reps.
Proof.
  destruct (brute_correct prefer) as (C & K & _). split.
  - constructor; [exact (co_init _ _ C)|exact (co_add _ _ C)|exact (co_sat _ _ C)|exact (co_unsat _ _ C)|exact (co_interrupted _ _ C)|exact (co_models _ _ C)].
  - intros s f m c l R Hc Hl. destruct (K s f m c l R Hc Hl) as (v & E & L). exists v. split; [|exact L]. cbn [strict sv_max_var]. destruct R as (((E1 & _) & _) & _). rewrite E1.
    destruct (concat f) eqn:Ef; [|exact E]. assert (Hin : In l (concat f)) by (apply in_concat; eauto). rewrite Ef in Hin. destruct Hin.
Qed.
