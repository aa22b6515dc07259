(** * Concrete back ends that keep the promises of WrapperSpec.v, for the examples and counterexamples

    They try all assignments. The world is a list of codes, one for each call: 50 makes a call run out of memory, 1 makes a
    question be interrupted, everything else and an empty list changes nothing. *)

From Coq Require Import List Bool NArith ZArith Lia Arith ZifyBool ZifyNat ZifyN.
From Verif Require Import Spec Types Base TypesProofs SolverSpec Solver SolverUse SolverProofs SolverToy Wrappers WrapperSpec WrapperProofs.
Import ListNotations.

Definition lit_of_z (z : Z) : lit := if (z <? 0)%Z then negl (Z.to_N (- z - 1)) else pos (Z.to_N (z - 1)).
Lemma lit_of_zlit l : lit_of_z (zlit l) = l.
Proof.
  unfold lit_of_z, zlit. destruct l as [v []]; cbn [lneg lvar].
  - destruct (Z.ltb_spec (- (Z.of_N v + 1)) 0); [|lia]. unfold negl. f_equal. lia.
  - destruct (Z.ltb_spec (Z.of_N v + 1) 0); [lia|]. unfold pos. f_equal. lia.
Qed.

Definition codes := list Z.
Definition checked {B} (b b' : B) (w : codes) : Z * B * codes := if (hd 0 w =? 50)%Z then (50%Z, b, tl w) else (0%Z, b', tl w).
Lemma checked_ok {B} (b b' b1 : B) w w' : checked b b' w = (0%Z, b1, w') -> b1 = b'.
Proof. unfold checked. destruct (hd 0 w =? 50)%Z; [discriminate|]. intros E. now injection E as <- <-. Qed.
Lemma checked_codes {B} (b b' : B) w : fst (fst (checked b b' w)) = 0%Z \/ fst (fst (checked b b' w)) = out_of_mem.
Proof. unfold checked. destruct (hd 0 w =? 50)%Z; auto. Qed.

(** ** The IPASIR interface; [unknown] is the value of literals without value *)
Definition toy_answer (b : bst) (w : codes) : Z * bst * codes :=
  if (hd 0 w =? 50)%Z then (50%Z, b, tl w)
  else if (hd 0 w =? 1)%Z then (0%Z, after b BNone, tl w)
  else match fst (try_all true (bs_f b ++ tmp_list (bs_con b) ++ units (bs_as b)) 0%N tt) with
       | Some (OSat sol) => (10%Z, after b (BSat (pasg_of sol)), tl w)
       | _ => (20%Z, after b (BUnsat (bs_as b) (bs_con b)), tl w)
       end.
Definition toy_capi (unknown : Z) : capi bst codes := mkCapi
  (fun w => (mkBst [] [] [] None [] BNone, w))
  (fun b z => checked b (if (z =? 0)%Z then mkBst (bs_f b ++ [bs_open b]) [] (bs_as b) (bs_con b) (bs_con_open b) BNone
                         else mkBst (bs_f b) (bs_open b ++ [lit_of_z z]) (bs_as b) (bs_con b) (bs_con_open b) BNone))
  (fun b z => checked b (mkBst (bs_f b) [] (bs_as b ++ [lit_of_z z]) (bs_con b) [] BNone))
  toy_answer
  (fun b z => match bs_ans b with BSat p => Some (match plit p (lit_of_z z) with TTrue => z | TFalse => - z | TDontCare => unknown end)%Z | _ => None end)
  (fun b z => match bs_ans b with BUnsat ls _ => if existsb (lit_eqb (lit_of_z z)) ls then 1%Z else 0%Z | _ => 0%Z end)
  (fun b z => checked b (if (z =? 0)%Z then mkBst (bs_f b) [] (bs_as b) (Some (bs_con_open b)) [] BNone
                         else mkBst (bs_f b) [] (bs_as b) None (bs_con_open b ++ [lit_of_z z]) BNone))
  (fun b => match bs_ans b with BUnsat _ (Some _) => 1%Z | _ => 0%Z end)
  (fun b _ => toy_answer b)
  (fun b _ => checked b (mkBst (bs_f b) (bs_open b) (bs_as b) (bs_con b) (bs_con_open b) BNone))
  (fun b _ w => (mkBst (bs_f b) (bs_open b) (bs_as b) (bs_con b) (bs_con_open b) BNone, w))
  (fun b => Z.of_N (n_vars_of (bs_f b))).

(** what the back end contains, and that an answer "unsatisfiable" is right *)
Definition toy_R (b s : bst) : Prop := b = s /\ match bs_ans s with
  | BUnsat ls con => forall a, sat_cnf a (bs_f s ++ tmp_list con ++ units ls) = false
  | _ => True
  end.
Lemma toy_answers b w r b' w' : toy_answer b w = (r, b', w') -> answers b r (toy_R b').
Proof.
  intros E. unfold toy_answer in E.
  assert (Q : forall a, query b a <-> sat_cnf a (bs_f b ++ tmp_list (bs_con b) ++ units (bs_as b)) = true).
  { intros a. unfold query. rewrite !sat_cnf_app, sat_units, !andb_true_iff. destruct (bs_con b); cbn [tmp_list sat_cnf forallb]; rewrite ?andb_true_r; tauto. }
  destruct (hd 0 w =? 50)%Z; [injection E as <- <- <-; repeat split; discriminate|].
  destruct (hd 0 w =? 1)%Z; [injection E as <- <- <-; repeat split; discriminate|].
  pose proof (try_all_honest unit true (bs_f b ++ tmp_list (bs_con b) ++ units (bs_as b)) 0%N tt) as H.
  assert (T : exists o, fst (try_all true (bs_f b ++ tmp_list (bs_con b) ++ units (bs_as b)) 0%N tt) = Some o /\ o <> OUnknown) by (cbn; destruct (find _ _); eexists; split; try reflexivity; discriminate).
  destruct T as (o & T & Tn). rewrite T in E, H. destruct o as [sol| |]; [| |contradiction]; injection E as <- <- <-.
  - split; [|split; discriminate]. intros _. exists (pasg_of sol). split; [intros a Ha; now apply Q, H|split; [reflexivity|exact Logic.I]].
  - split; [discriminate|]. split; [|discriminate]. intros _. split; [intros a Hq; apply Q in Hq; now rewrite (H a) in Hq|]. split; [reflexivity|exact H].
Qed.
Lemma toy_conforming unknown : conforming (toy_capi unknown) toy_R.
Proof.
  constructor; cbn [toy_capi ca_init ca_add ca_assume ca_solve ca_failed ca_constraint_failed fst].
  - intros w. split; [reflexivity|exact Logic.I].
  - intros b s l w b' w' [<- _] E. apply checked_ok in E. rewrite E. destruct (Z.eqb_spec (zlit l) 0) as [e|e]; [now apply zlit_nonzero in e|]. rewrite lit_of_zlit. split; [reflexivity|exact Logic.I].
  - intros b s w b' w' [<- _] E. apply checked_ok in E. rewrite E. split; [reflexivity|exact Logic.I].
  - intros b s l w b' w' [<- _] Ho Hc E. apply checked_ok in E. rewrite E, lit_of_zlit. split; [reflexivity|exact Logic.I].
  - intros b s w r b' w' [<- _] _ _ E. now apply (toy_answers b w r b' w').
  - intros b s ls con [<- HR] Hans. rewrite Hans in *. split; [intros l Hl; destruct (existsb _ ls); auto|].
    intros a Hsat Hcon. specialize (HR a). rewrite !sat_cnf_app, sat_units, Hsat in HR. cbn [andb] in HR.
    assert (Hc : sat_cnf a (tmp_list con) = true). { destruct con as [c|]; [|reflexivity]. cbn [tmp_list sat_cnf forallb]. rewrite andb_true_r. apply Hcon. discriminate. }
    rewrite Hc in HR. cbn [andb] in HR.
    assert (X : exists l, In l ls /\ lit_true a l = false).
    { clear - HR. unfold sat_cube in HR. induction ls as [|l ls IH]; cbn [forallb] in HR; [discriminate HR|]. destruct (lit_true a l) eqn:El; [|exists l; split; [now left|exact El]].
      destruct (IH HR) as (l' & H1 & H2). exists l'. split; [now right|exact H2]. }
    destruct X as (l & Hl & Hf). exists l. split; [exact Hl|]. split; [|exact Hf]. rewrite lit_of_zlit.
    replace (existsb (lit_eqb l) ls) with true; [reflexivity|]. symmetry. apply existsb_exists. exists l. split; [exact Hl|apply lit_eqb_refl].
Qed.
Lemma toy_values : ipasir_values (toy_capi 0) toy_R.
Proof. intros b s p [<- _] Hp l. cbn [toy_capi ca_val]. rewrite Hp, lit_of_zlit. reflexivity. Qed.
Lemma toy_conforming_cadical : conforming_cadical (toy_capi (-1)) toy_R.
Proof.
  constructor; cbn [toy_capi ca_constrain ca_simplify ca_resize ca_declare ca_vars].
  - apply toy_conforming.
  - repeat split; intros b z w; apply checked_codes.
  - intros b s p [<- _] Hp v. cbn [toy_capi ca_val]. rewrite Hp. destruct (p v) as [x|] eqn:Ev.
    + left. intros l <-. unfold value_code, plit. rewrite lit_of_zlit, Ev. now destruct (tern_of_bool (xorb (lneg l) x)) eqn:Et; [| |destruct (xorb (lneg l) x)].
    + right. split; [reflexivity|]. intros l <-. unfold plit. now rewrite lit_of_zlit, Ev.
  - intros b s l w b' w' [<- _] _ E. apply checked_ok in E. rewrite E. destruct (Z.eqb_spec (zlit l) 0) as [e|e]; [now apply zlit_nonzero in e|]. rewrite lit_of_zlit. split; [reflexivity|exact Logic.I].
  - intros b s w b' w' [<- _] _ E. apply checked_ok in E. rewrite E. split; [reflexivity|exact Logic.I].
  - intros b s n w r b' w' [<- _] _ _ E. now apply (toy_answers b w r b' w').
  - intros b s n w b' w' [<- _] E. apply checked_ok in E. rewrite E. split; [reflexivity|exact Logic.I].
  - intros b s n w b' w' [<- _] E. injection E as <- <-. split; [reflexivity|exact Logic.I].
  - intros b s c l [<- _] Hc Hl. pose proof (n_vars_of_ge (bs_f b) c l Hc Hl). lia.
Qed.
(** without codes *)
Definition quiet {B} (A : capi B codes) : capi B unit :=
  let f (g : B -> Z -> codes -> Z * B * codes) b z (_ : unit) := let '(r, b', _) := g b z [] in (r, b', tt) in
  mkCapi (fun _ => (fst (ca_init A []), tt)) (f (ca_add A)) (f (ca_assume A)) (fun b _ => let '(r, b', _) := ca_solve A b [] in (r, b', tt)) (ca_val A) (ca_failed A)
    (f (ca_constrain A)) (ca_constraint_failed A) (f (ca_simplify A)) (f (ca_resize A)) (fun b z _ => (fst (ca_declare A b z []), tt)) (ca_vars A).
Lemma quiet_conforming {B} (A : capi B codes) R : conforming A R -> conforming (quiet A) R.
Proof.
  intros C. constructor; cbn [quiet ca_init ca_add ca_assume ca_solve ca_failed ca_constraint_failed].
  - intros w. apply (cf_init _ _ C).
  - intros b s l w b' w' HR E. destruct (ca_add A b (zlit l) []) as [[r b1] w1] eqn:E1. injection E as -> -> _. exact (cf_add _ _ C _ _ _ _ _ _ HR E1).
  - intros b s w b' w' HR E. destruct (ca_add A b 0 []) as [[r b1] w1] eqn:E1. injection E as -> -> _. exact (cf_add_end _ _ C _ _ _ _ _ HR E1).
  - intros b s l w b' w' HR Ho Hc E. destruct (ca_assume A b (zlit l) []) as [[r b1] w1] eqn:E1. injection E as -> -> _. exact (cf_assume _ _ C _ _ _ _ _ _ HR Ho Hc E1).
  - intros b s w r b' w' HR Ho Hc E. destruct (ca_solve A b []) as [[r1 b1] w1] eqn:E1. injection E as -> -> _. exact (cf_solve _ _ C _ _ _ _ _ _ HR Ho Hc E1).
  - apply (cf_failed _ _ C).
Qed.
Lemma quiet_no_codes : no_codes (quiet (toy_capi 0)).
Proof. split; intros b z w; reflexivity. Qed.

(** ** The class [Solver] *)
Definition toy_sapi : sapi sst codes := mkSapi
  (fun w => (mkSst [] 0 SNone, w))
  (fun b w => if (hd 0 w =? 50)%Z then (false, b, tl w) else (true, mkSst (ss_f b) (S (ss_n b)) (ss_ans b), tl w))
  ss_n
  (fun b c w => if (hd 0 w =? 50)%Z then (false, b, tl w) else (true, mkSst (ss_f b ++ [c]) (ss_n b) SNone, tl w))
  (fun b ls w => if (hd 0 w =? 50)%Z then (None, b, tl w)
                 else if (hd 0 w =? 1)%Z then (Some None, mkSst (ss_f b) (ss_n b) SNone, tl w)
                 else match find (fun bs => sat_cnf (asg_of bs) (ss_f b ++ units ls)) (all_assignments true (ss_n b)) with
                      | Some bs => (Some (Some true), mkSst (ss_f b) (ss_n b) (SSat (map Some bs)), tl w)
                      | None => (Some (Some false), mkSst (ss_f b) (ss_n b) (SUnsat ls), tl w)
                      end)
  (fun b => match ss_ans b with SSat m => m | _ => [] end)
  (fun b => match ss_ans b with SUnsat ls => map neg ls | _ => [] end).
Definition toy_SR (b s : sst) : Prop := b = s /\ (forall c, In c (ss_f s) -> vars_below (ss_n s) c) /\
  match ss_ans s with SUnsat ls => forall a, sat_cnf a (ss_f s) = true -> sat_cube a ls = false | _ => True end.
Lemma toy_conforming_solver : conforming_solver toy_sapi toy_SR.
Proof.
  assert (Below : forall n f ls, (forall c, In c f -> vars_below n c) -> vars_below n ls -> forall c, In c (f ++ units ls) -> vars_below n c).
  { intros n f ls Hf Hl c Hc. apply in_app_or in Hc as [Hc|Hc]; [auto|]. apply in_map_iff in Hc as (l & <- & Hin). intros l' [<- |[]]. now apply Hl. }
  constructor; cbn [toy_sapi so_init so_new_var so_n_vars so_add so_solve so_model so_conflict fst].
  - intros w. split; [reflexivity|]. split; [intros c []|exact Logic.I].
  - intros b s [<- _]. reflexivity.
  - intros b s w b' w' (<- & Hv & Ha) E. destruct (hd 0 w =? 50)%Z; [discriminate E|]. injection E as <- <-. split; [reflexivity|]. cbn. split; [|exact Ha]. intros c Hc l Hl. specialize (Hv c Hc l Hl). lia.
  - intros b s c w b' w' (<- & Hv & Ha) Hb E. destruct (hd 0 w =? 50)%Z; [discriminate E|]. injection E as <- <-. split; [reflexivity|]. cbn. split; [|exact Logic.I].
    intros c' Hc. apply in_app_or in Hc as [Hc|[<- |[]]]; auto.
  - intros b s ls w b' w' (<- & Hv & Ha) Hb E. destruct (hd 0 w =? 50)%Z; [discriminate E|]. destruct (hd 0 w =? 1)%Z; [discriminate E|].
    destruct (find _ _) as [bs|] eqn:Ef; [|discriminate E]. injection E as <- <-. apply find_some in Ef as [Hin Hs]. apply all_assignments_length in Hin.
    exists (map Some bs). split; [now rewrite map_length|]. split; [|split; [reflexivity|]; cbn; auto].
    intros a Hc. assert (Hag : sat_cnf a (ss_f b ++ units ls) = true).
    { rewrite <- Hs. apply sat_cnf_agree. intros c l Hcl Hl. apply Hc. unfold model_pasg, asg_of. pose proof (Below _ _ _ Hv Hb c Hcl l Hl) as HL. rewrite <- Hin in HL.
      rewrite nth_error_map. unfold vidx in *. destruct (nth_error bs (N.to_nat (lvar l))) as [x|] eqn:En; [|apply nth_error_None in En; lia]. cbn. f_equal. symmetry. now apply nth_error_nth. }
    rewrite sat_cnf_app, sat_units in Hag. now apply andb_true_iff in Hag.
  - intros b s ls w b' w' (<- & Hv & Ha) Hb E. destruct (hd 0 w =? 50)%Z; [discriminate E|]. destruct (hd 0 w =? 1)%Z; [discriminate E|].
    destruct (find _ _) as [bs|] eqn:Ef; [discriminate E|]. injection E as <- <-.
    assert (Hu : forall a, sat_cnf a (ss_f b) = true -> sat_cube a ls = false).
    { intros a Hsat. pose proof (find_none _ _ Ef (map a (map N.of_nat (seq 0 (ss_n b))))) as H. cbn beta in H.
      rewrite (sat_cnf_agree (asg_of (map a (map N.of_nat (seq 0 (ss_n b))))) a) in H.
      - rewrite sat_cnf_app, sat_units, Hsat in H. apply H. apply in_all_assignments. now rewrite !map_length, seq_length.
      - intros c l Hc Hl. pose proof (Below _ _ _ Hv Hb c Hc l Hl) as HL. unfold vidx in HL. unfold asg_of. rewrite map_map.
        rewrite nth_indep with (d' := a (N.of_nat 0)) by (rewrite map_length, seq_length; lia). rewrite (map_nth (fun x => a (N.of_nat x))), seq_nth by lia. f_equal. lia. }
    split; [exact Hu|]. split; [reflexivity|]. cbn. auto.
  - intros b s ls w b' w' (<- & Hv & Ha) Hb E. destruct (hd 0 w =? 50)%Z; [discriminate E|]. destruct (hd 0 w =? 1)%Z; [|destruct (find _ _); discriminate E].
    injection E as <- <-. split; [reflexivity|]. cbn. auto.
  - intros b s m (<- & _) Hm. now rewrite Hm.
  - intros b s ls (<- & _ & Ha) Hs. rewrite Hs in *. split.
    + intros l Hl. apply in_map_iff in Hl as (x & <- & Hx). now rewrite neg_neg.
    + intros a Hsat. specialize (Ha a Hsat). clear - Ha. unfold sat_cube in Ha. unfold sat_clause. induction ls as [|l ls IH]; cbn [forallb map existsb] in *; [discriminate Ha|].
      rewrite lit_true_neg. destruct (lit_true a l); cbn [negb orb andb] in *; auto.
Qed.

(** ** Kissat *)
Definition toy_kapi : kapi kst codes := mkKapi
  (fun w => (mkKst [] [] false KNone, w))
  (fun b z w => if ks_searched b then None else
     Some (if (z =? 0)%Z then mkKst (ks_f b ++ [ks_open b]) [] false KNone else mkKst (ks_f b) (ks_open b ++ [lit_of_z z]) false KNone, w))
  (fun b w => if ks_searched b then None else
     Some (if (hd 0 w =? 1)%Z then (0%Z, mkKst (ks_f b) [] true KNone, tl w)
           else match fst (try_all true (ks_f b) 0%N tt) with
                | Some (OSat sol) => (10%Z, mkKst (ks_f b) [] true (KSat (pasg_of sol)), tl w)
                | _ => (20%Z, mkKst (ks_f b) [] true KNone, tl w)
                end))
  (fun b z => match ks_ans b with KSat p => value_code p (lit_of_z z) | KNone => 0%Z end)
  (fun b _ w => (mkKst (ks_f b) (ks_open b) (ks_searched b) KNone, w)).
Lemma toy_conforming_kissat : conforming_kissat toy_kapi eq.
Proof.
  constructor; cbn [toy_kapi ki_init ki_add ki_solve ki_val ki_reserve fst].
  - reflexivity.
  - intros b s l w <- Hs. rewrite Hs. eexists _, w. split; [reflexivity|]. destruct (Z.eqb_spec (zlit l) 0) as [e|e]; [now apply zlit_nonzero in e|]. now rewrite lit_of_zlit.
  - intros b s w <- Hs. rewrite Hs. eexists _, w. split; reflexivity.
  - intros b s z w <- Hs. now rewrite Hs.
  - intros b s w <- Hs Ho. rewrite Hs. destruct (hd 0 w =? 1)%Z; [eexists _, _, _; split; [reflexivity|]; repeat split; discriminate|].
    pose proof (try_all_honest unit true (ks_f b) 0%N tt) as H.
    assert (T : exists o, fst (try_all true (ks_f b) 0%N tt) = Some o /\ o <> OUnknown) by (cbn; destruct (find _ _); eexists; split; try reflexivity; discriminate).
    destruct T as (o & T & Tn). rewrite T in *. destruct o as [sol| |]; [| |contradiction]; (eexists _, _, _; split; [reflexivity|]).
    + split; [|split; [congruence|discriminate]]. intros _. exists (pasg_of sol). auto.
    + split; [discriminate|]. auto.
  - intros b s w <- Hs. now rewrite Hs.
  - intros b s p l <- Hp. now rewrite Hp, lit_of_zlit.
  - intros b s z w b' w' <- E. now injection E as <- <-.
Qed.
