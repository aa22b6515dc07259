(** * The enumerator lists every solution once *)

From Coq Require Import List Bool NArith ZArith Ascii String Lia Permutation.
From Coq Require Import ZifyBool ZifyNat ZifyN.
From Verif Require Import Spec Types TypesProofs Base ConstrSpec Constraints ConstrProofs Maps EncSpec VarMan NodeDb Inst InstSpec InstProofs InstReindex ClauseProofs Opt OptSpec OptProofs OptConv Text TextProofs FioSpec Dimacs DimacsSpec DimacsProofs
  DimacsGrammar Opb OpbSpec OpbProofs OpbInst Vline VlineSpec VlineProofs SolverSpec SolverToy Tools ToolSpec ToolText ToolConv ToolProofs ToolOpb CheckSpec CheckProofs EnumSpec.
Import ListNotations.
Open Scope list_scope.

(** ** The literals of a solution *)

Lemma into_iter_ok_from s : forall i, (forall j, nth j s TDontCare <> TDontCare -> (i + N.of_nat j <= max_var_idx)%N) ->
  exists r, assignment_into_iter_from i s = Some r /\
    (forall l, In l r <-> (i <= lvar l)%N /\ nth (N.to_nat (lvar l - i)) s TDontCare = tern_of_bool (negb (lneg l))).
Proof.
  induction s as [|t s IH]; intros i Hi; cbn [assignment_into_iter_from].
  - exists []. split; [reflexivity|]. intros l; split; [intros []|]. intros [_ H]. destruct (N.to_nat (lvar l - i)), (lneg l); discriminate.
  - destruct (IH (i + 1)%N) as (r & E & Hin); [intros j Hj; specialize (Hi (Datatypes.S j) Hj); lia|]. rewrite E.
    assert (Hstep : forall l, (i + 1 <= lvar l)%N /\ nth (N.to_nat (lvar l - (i + 1))) s TDontCare = tern_of_bool (negb (lneg l)) <->
                              (i < lvar l)%N /\ nth (N.to_nat (lvar l - i)) (t :: s) TDontCare = tern_of_bool (negb (lneg l))).
    { intros l. split; intros [H1 H2]; (split; [lia|]).
      - replace (N.to_nat (lvar l - i)) with (Datatypes.S (N.to_nat (lvar l - (i + 1)))) by lia. exact H2.
      - replace (N.to_nat (lvar l - i)) with (Datatypes.S (N.to_nat (lvar l - (i + 1)))) in H2 by lia. exact H2. }
    assert (Hv : t <> TDontCare -> var_new i = Some i).
    { intros Ht. unfold var_new. specialize (Hi 0%nat Ht). destruct (N.leb_spec i max_var_idx); [reflexivity|lia]. }
    destruct t.
    1,2: rewrite Hv by discriminate; eexists; (split; [reflexivity|]); intros l; cbn [In]; rewrite Hin, Hstep; split;
         [ intros [<-|[H1 H2]]; [cbn [lvar lneg]; split; [lia|]; now rewrite N.sub_diag | split; [lia|assumption]]
         | intros [H1 H2]; destruct (N.eq_dec (lvar l) i) as [Heq|Hne];
           [ left; rewrite Heq, N.sub_diag in H2; cbn in H2; destruct l as [v []]; cbn in *; subst; try discriminate; reflexivity
           | right; split; [lia|assumption] ] ].
    exists r. split; [reflexivity|]. intros l. rewrite Hin, Hstep. split; intros [H1 H2]; [split; [lia|assumption]|].
    destruct (N.eq_dec (lvar l) i) as [Heq|Hne]; [|split; [lia|assumption]]. rewrite Heq, N.sub_diag in H2. cbn in H2. destruct (lneg l); discriminate.
Qed.
Lemma into_iter_ok s : (forall v, (max_var_idx < v)%N -> pasg_of s v = None) ->
  exists r, assignment_into_iter s = Some r /\ (forall l, In l r <-> pasg_of s (lvar l) = Some (negb (lneg l))).
Proof.
  intros H. destruct (into_iter_ok_from s 0) as (r & E & Hin).
  - intros j Hj. destruct (N.leb_spec (0 + N.of_nat j) max_var_idx) as [|L]; [assumption|]. specialize (H (N.of_nat j) ltac:(lia)). unfold pasg_of in H. rewrite var_value_nth in H. unfold vidx in H. rewrite Nnat.Nat2N.id in H. destruct (nth j s TDontCare); easy.
  - exists r. split; [exact E|]. intros l. rewrite Hin. unfold pasg_of. rewrite var_value_nth, N.sub_0_r. unfold vidx. destruct (nth (N.to_nat (lvar l)) s TDontCare), (lneg l); cbn; intuition (try discriminate; try lia).
Qed.
Lemma blocking s r a : (forall l, In l r <-> pasg_of s (lvar l) = Some (negb (lneg l))) -> sat_clause a (map neg r) = true <-> ~ completes a (pasg_of s).
Proof.
  intros Hr. rewrite sat_clause_true. split.
  - intros (l & Hl & Ht) Hc. apply in_map_iff in Hl as (x & <- & Hx). apply Hr in Hx. apply Hc in Hx. unfold lit_true, neg in Ht. cbn [lvar lneg] in Ht. rewrite Hx in Ht. destruct (lneg x); discriminate.
  - intros Hn. destruct (existsb (fun l => negb (lit_true a l)) r) eqn:Ex.
    + apply existsb_exists in Ex as (l & Hl & Hf). exists (neg l). split; [now apply in_map|]. unfold lit_true, neg in *. cbn [lvar lneg]. destruct (lneg l), (a (lvar l)); easy.
    + destruct Hn. intros v b Ev. assert (Hl : In (mkLit v (negb b)) r) by (apply Hr; cbn [lvar lneg]; now rewrite negb_involutive). destruct (Bool.bool_dec (a v) b) as [|N]; [assumption|]. exfalso.
      assert (Hx : existsb (fun l => negb (lit_true a l)) r = true); [|congruence]. apply existsb_exists. exists (mkLit v (negb b)). split; [exact Hl|]. unfold lit_true. cbn [lvar lneg]. destruct b, (a v); cbn; congruence.
Qed.

(** ** The rounds *)

Definition apart (s s' : assignment) : Prop := forall a, completes a (pasg_of s) -> completes a (pasg_of s') -> False.
Definition found (h : N) (g : cnf) (s : assignment) : Prop :=
  exists p, (forall a, completes a p -> sat_cnf a g = true) /\ (forall v, pasg_of s v = if (v <=? h)%N then p v else None).
Definition merge (h : N) (a : asg) (p : pasg) : asg := fun v => if (v <=? h)%N then a v else match p v with Some b => b | None => false end.
Lemma merge_completes h a p s : (forall v, pasg_of s v = if (v <=? h)%N then p v else None) -> completes a (pasg_of s) -> completes (merge h a p) p.
Proof.
  intros Hs Hc v b E. unfold merge. destruct (N.leb_spec v h) as [L|L]; [apply Hc; rewrite Hs; destruct (N.leb_spec v h); [exact E|lia]|now rewrite E].
Qed.
Lemma merge_below h a p s q : (forall v, pasg_of s v = if (v <=? h)%N then q v else None) -> completes a (pasg_of s) -> completes (merge h a p) (pasg_of s).
Proof.
  intros Hs Hc v b E. unfold merge. destruct (N.leb_spec v h) as [L|L]; [now apply Hc|]. rewrite Hs in E. destruct (N.leb_spec v h); [lia|discriminate].
Qed.

Section Run.
Context {S W : Type} (V : solver S W) (reps : S -> cnf -> bool -> Prop) (Hcor : correct V reps).

Lemma enum_next_spec h s w g m : (h <= max_var_idx)%N -> reps s g m ->
  match enum_next V h s w with
  | inl EDone => unsat g
  | inl EPanic => ~ reliable V reps
  | inl EStopped => False
  | inr (sol, s', w') => found h g sol /\ exists c, reps s' (g ++ [c]) false /\ forall a, sat_clause a c = true <-> ~ completes a (pasg_of sol)
  end.
Proof.
  intros Hh Hr. unfold enum_next. destruct (sv_solve V s w) as [[[[| |]|] s1] w1] eqn:Es.
  - pose proof (co_sat V reps Hcor _ _ _ _ _ _ Hr Es) as H1. destruct (co_models V reps Hcor _ _ H1) as (p & _ & Hsol & Hp). destruct (Hsol h) as (sol & E & Hv). rewrite E.
    destruct (into_iter_ok sol) as (r & Ei & Hin); [intros v Hvm; rewrite Hv; destruct (N.leb_spec v h); [lia|reflexivity]|]. rewrite Ei.
    destruct (sv_add V s1 (map neg r) w1) as [[[] s2] w2] eqn:Ea.
    + split; [exists p; auto|]. exists (map neg r). split; [exact (co_add V reps Hcor _ _ _ _ _ _ _ H1 Ea)|]. intros a. now apply blocking.
    + intros [R _]. specialize (R s1 g true (map neg r) w1 H1). rewrite Ea in R. discriminate.
  - exact (proj2 (co_unsat V reps Hcor _ _ _ _ _ _ Hr Es)).
  - intros [_ R]. destruct (R s g m w Hr) as [R'|R']; rewrite Es in R'; discriminate.
  - intros [_ R]. destruct (R s g m w Hr) as [R'|R']; rewrite Es in R'; discriminate.
Qed.
Lemma enum_run_spec h : (h <= max_var_idx)%N -> forall k s w g m sols e, reps s g m -> enum_run V h k s w = (sols, e) ->
  (forall sol, In sol sols -> found h g sol) /\ ForallOrdPairs apart sols /\
  (e = EDone -> forall a, sat_cnf a g = true -> exists sol, In sol sols /\ completes a (pasg_of sol)) /\
  (e = EStopped -> List.length sols = k) /\ (List.length sols <= k)%nat /\ (reliable V reps -> e <> EPanic).
Proof.
  intros Hh. induction k as [|k IH]; intros s w g m sols e Hr E; cbn [enum_run] in E.
  - injection E as <- <-. split; [intros sol []|]. split; [constructor|]. split; [discriminate|]. split; [reflexivity|]. split; [cbn; lia|discriminate].
  - pose proof (enum_next_spec h s w g m Hh Hr) as Hn. destruct (enum_next V h s w) as [x|[[sol s'] w']].
    + injection E as <- <-. split; [intros sol []|]. split; [constructor|]. split; [intros ->; intros a Ha; now rewrite Hn in Ha|].
      split; [intros ->; destruct Hn|]. split; [cbn; lia|]. intros R ->. now apply Hn.
    + destruct Hn as (Hf & c & Hr' & Hc). destruct (enum_run V h k s' w') as [sols' e'] eqn:E'. injection E as <- <-. destruct (IH s' w' (g ++ [c]) false sols' e' Hr' E') as (I1 & I2 & I3 & I4 & I5 & I6).
      assert (Hcs : forall a, sat_cnf a (g ++ [c]) = true <-> sat_cnf a g = true /\ ~ completes a (pasg_of sol)).
      { intros a. rewrite sat_cnf_app, andb_true_iff, <- Hc. unfold sat_cnf at 2. cbn [forallb]. now rewrite andb_true_r. }
      split; [intros x [<-|Hx]; [exact Hf|]; destruct (I1 x Hx) as (p & Hp & Hv); exists p; split; [intros a Ha; now apply (Hcs a), Hp|exact Hv]|].
      split; [constructor; [|exact I2]; apply Forall_forall; intros x Hx a H1 H2; destruct (I1 x Hx) as (p & Hp & Hv); destruct Hf as (q & _ & Hq)|].
      { apply (proj2 (proj1 (Hcs (merge h a p)) (Hp _ (merge_completes h a p x Hv H2)))). now apply (merge_below h a p sol q). }
      split; [|split; [intros He; cbn [List.length]; now rewrite (I4 He)|split; [cbn [List.length]; lia|exact I6]]].
      intros He a Ha. destruct Hf as (q & _ & Hq).
      destruct (existsb (fun v => match pasg_of sol v with Some b => negb (Bool.eqb (a v) b) | None => false end) (map N.of_nat (seq 0 (N.to_nat (h + 1))))) eqn:Ex.
      * destruct (I3 He a) as (x & Hx & Hxa); [|exists x; split; [now right|exact Hxa]]. apply Hcs. split; [exact Ha|]. intros Hco. apply existsb_exists in Ex as (v & _ & Ev). destruct (pasg_of sol v) as [b|] eqn:Ep; [|discriminate]. rewrite (Hco v b Ep) in Ev. now destruct b.
      * exists sol. split; [now left|]. intros v b Ep. destruct (Bool.bool_dec (a v) b) as [|Nb]; [assumption|]. exfalso. enough (Hx : existsb (fun v => match pasg_of sol v with Some b => negb (Bool.eqb (a v) b) | None => false end) (map N.of_nat (seq 0 (N.to_nat (h + 1)))) = true) by congruence.
        apply existsb_exists. exists v. split; [|rewrite Ep; destruct (a v), b; easy]. rewrite Hq in Ep. destruct (N.leb_spec v h) as [L|]; [|discriminate]. apply in_map_iff. exists (N.to_nat v). split; [lia|]. apply in_seq. lia.
Qed.
Lemma add_cnf_spec f : forall s w g m, reps s g m ->
  match add_cnf V f s w with Some (s', w') => exists m', reps s' (g ++ f) m' | None => ~ reliable V reps end.
Proof.
  induction f as [|c f IH]; intros s w g m Hr; cbn [add_cnf]; [exists m; now rewrite app_nil_r|].
  destruct (sv_add V s c w) as [[[] s'] w'] eqn:E.
  - replace (g ++ c :: f) with ((g ++ [c]) ++ f) by (rewrite <- app_assoc; reflexivity). apply (IH s' w' (g ++ [c]) false). exact (co_add V reps Hcor _ _ _ _ _ _ _ Hr E).
  - intros [R _]. specialize (R s g m c w Hr). rewrite E in R. discriminate.
Qed.
End Run.

(** ** There are no more rounds than assignments *)

Lemma all_assignments_count b n : List.length (all_assignments b n) = 2 ^ n.
Proof. induction n as [|n IH]; [reflexivity|]. cbn [all_assignments]. rewrite app_length, !map_length, IH. cbn [Nat.pow]. lia. Qed.
Definition fill (n : nat) (s : assignment) : list bool := map (fun v => match pasg_of s (N.of_nat v) with Some b => b | None => false end) (seq 0 n).
Lemma fill_completes n s : (forall v, (N.of_nat n <= v)%N -> pasg_of s v = None) -> completes (asg_of (fill n s)) (pasg_of s).
Proof.
  intros H v b E. unfold asg_of, fill. destruct (N.ltb_spec v (N.of_nat n)) as [L|L]; [|rewrite H in E by lia; discriminate].
  set (F := fun v => match pasg_of s (N.of_nat v) with Some b => b | None => false end). rewrite (nth_indep _ false (F 0%nat)) by (rewrite map_length, seq_length; lia). rewrite map_nth, seq_nth by lia. cbn [Nat.add]. unfold F. rewrite Nnat.N2Nat.id. now rewrite E.
Qed.
Lemma apart_bound n sols : (forall s v, In s sols -> (N.of_nat n <= v)%N -> pasg_of s v = None) -> ForallOrdPairs apart sols -> (List.length sols <= 2 ^ n)%nat.
Proof.
  intros Hv Ha. rewrite <- (map_length (fill n)), <- (all_assignments_count true n). apply NoDup_incl_length.
  - clear - Hv Ha. induction Ha as [|s sols H1 H2 IH]; [constructor|]. cbn [map]. constructor; [|apply IH; intros x v Hx; apply Hv; now right].
    intros Hin. apply in_map_iff in Hin as (x & E & Hx). rewrite Forall_forall in H1. apply (H1 x Hx (asg_of (fill n s))); [apply fill_completes; intros v; apply Hv; now left|]. rewrite <- E. apply fill_completes. intros v. apply Hv. now right.
  - intros bs Hin. apply in_map_iff in Hin as (s & <- & _). apply in_all_assignments. unfold fill. now rewrite map_length, seq_length.
Qed.
Lemma apart_once sols : ForallOrdPairs apart sols -> forall i j s s' a, nth_error sols i = Some s -> nth_error sols j = Some s' -> completes a (pasg_of s) -> completes a (pasg_of s') -> i = j.
Proof.
  induction 1 as [|x sols H1 H2 IH]; intros i j s s' a Ei Ej Ci Cj; [now destruct i|]. rewrite Forall_forall in H1. destruct i as [|i], j as [|j]; cbn [nth_error] in *; auto.
  - injection Ei as ->. exfalso. exact (H1 s' (nth_error_In _ _ Ej) a Ci Cj).
  - injection Ej as ->. exfalso. exact (H1 s (nth_error_In _ _ Ei) a Cj Ci).
  - f_equal. eapply IH; eassumption.
Qed.

(** ** The constraints of plain files *)

Lemma plain_pbs o fmt t P cost used p : problem_file (first_var_idx o) fmt t P cost used -> plain_file (first_var_idx o) fmt t -> parse_instance fmt o t = ROk p ->
  forall q, In q (i_pbs (fst (mopt_decompose p))) -> pb_plain q /\ ~ indivisible q.
Proof.
  intros Hp Hl E. assert (Hi : i_pbs (fst (mopt_decompose p)) = i_pbs (mo_constrs p)) by reflexivity. rewrite Hi. clear Hi.
  destruct Hp as [n m f t Ht Hn|n es t Ht Hn|n es t Ht Hn|ss t Ht Hs Hc]; cbn [parse_instance] in E.
  - rewrite (inst_of_cnf_file n m f t Ht Hn) in E. cbn [rbind] in E. injection E as <-. intros q [].
  - destruct (opt_of_wcnf_file n es t Ht Hn) as (p0 & E0 & Eo & Hk). rewrite E0 in E. cbn [rbind] in E. unfold opt_decompose in E. injection E as <-. intros q Hq.
    destruct Hk as (_ & _ & H3 & _). unfold mopt_compose in Hq. cbn [fold_left mo_constrs] in Hq. destruct (obj_max_var (o_obj p0)); cbn [raise_max inst_increase i_pbs] in Hq; rewrite H3 in Hq; destruct Hq.
  - destruct (mopt_of_mcnf_file n es t Ht) as (p0 & E0 & Eo & Hk). rewrite E0 in E. injection E as <-. destruct Hk as (_ & _ & H3 & _). rewrite H3. intros q [].
  - clear ss Ht Hs Hc. destruct (Hl eq_refl) as (ss & Ht & Hs & Hc & Hpl).
    assert (Hf : Forall stmt_fits ss) by now apply checkable_fits.
    destruct (read_file_ok o ss t Ht Hf) as (ds & Er & Hds). unfold mopt_from_opb in E. rewrite Er, add_opb_mopt_comments, Hds in E.
    destruct (add_opb_mopt_parts ss (mkMopt (inst_new 0) []) p) as (_ & _ & D3 & _); [intros l []|exact E|]. cbn [mo_constrs inst_new i_pbs app] in D3. rewrite D3. unfold pbs_of. intros q Hq.
    apply in_map_iff in Hq as ([[ts op] b] & <- & Hq). cbn [fst snd]. apply stmt_pb_ok. unfold constrs_of in Hq. apply in_flat_map in Hq as (st & Hst & Hq). destruct st as [ts' op' b'|]; [|easy]. destruct Hq as [Eq|[]]. injection Eq as -> -> ->. rewrite Forall_forall in Hpl. exact (Hpl _ Hst).
Qed.

(** ** The values of the objectives *)

Lemma lines_shown values c obs P cost used p sol : mopt_decompose p = (c, obs) -> means p P cost used ->
  exists vs, solution_lines values obs sol = Some (shown values sol vs) /\
    (forall a, completes a (pasg_of sol) -> Forall2 Z.le vs (cost a)) /\
    ((forall v, used v -> pasg_of sol v <> None) -> forall a, completes a (pasg_of sol) -> vs = cost a).
Proof.
  intros Ed [M1 M2 M3 M4 M5 M6 M7 M8 _]. rewrite Ed in *. cbn [fst snd] in *.
  assert (Hv : forall obs', (forall ob, In ob obs' -> In ob obs) -> exists vs, mapM (obj_evaluate sol) obs' = Some vs /\ List.length vs = List.length obs' /\ (forall a, completes a (pasg_of sol) -> Forall2 Z.le vs (map (obj_value a) obs')) /\
      ((forall v, used v -> pasg_of sol v <> None) -> forall a, completes a (pasg_of sol) -> vs = map (obj_value a) obs')).
  { induction obs' as [|ob obs' IH]; intros Hin; [exists []; split; [reflexivity|]; split; [reflexivity|]; split; [intros a _; constructor|reflexivity]|]. destruct IH as (vs & E1 & E0 & E2 & E3); [intros ob' H'; apply Hin; now right|].
    assert (W : obj_wf ob) by (apply M3, Hin; now left).
    destruct (evaluate_le sol ob (fun v => match pasg_of sol v with Some b => b | None => false end) W) as (v & Ev & _); [intros u b Eu; now rewrite Eu|].
    exists (v :: vs). cbn [mapM]. rewrite Ev. cbn [obind]. rewrite E1. split; [reflexivity|]. split; [cbn [List.length]; now rewrite E0|]. split.
    - intros a Ha. cbn [map]. constructor; [|now apply E2]. destruct (evaluate_le sol ob a W Ha) as (v' & Ev' & L). congruence.
    - intros Hall a Ha. cbn [map]. f_equal; [|now apply E3]. rewrite (evaluate_total sol ob a W Ha) in Ev; [congruence|]. intros l Hl Hd. apply (Hall (lvar l)); [apply (M7 ob); [apply Hin; now left|exact Hl]|].
      unfold pasg_of. unfold lit_value in Hd. destruct (lneg l), (var_value sol (lvar l)); easy. }
  destruct (Hv obs (fun _ H => H)) as (vs & E1 & E0 & E2 & E3). exists vs. split; [|split; intros; rewrite <- M2; auto].
  unfold solution_lines, shown. destruct obs as [|ob obs].
  - destruct vs; [|discriminate]. rewrite andb_false_r. cbn [obind]. unfold line. rewrite <- app_assoc. now destruct values.
  - destruct vs as [|v vs]; [discriminate|]. cbn [List.length Nat.eqb negb]. rewrite andb_true_r. destruct values.
    + rewrite E1. cbn [obind]. unfold line. rewrite <- !app_assoc. reflexivity.
    + cbn [obind]. unfold line. rewrite <- app_assoc. reflexivity.
Qed.

(** ** The enumerator *)

Section Enumerator.
Context {S W : Type} (V : solver S W) (reps : S -> cnf -> bool -> Prop) (Hcor : correct V reps).
Variables (ord ord1 ord2 ord3 ord4 : list (lit * nat) -> list (lit * nat)).
Hypotheses (O : iter_order ord) (O1 : iter_order ord1) (O2 : iter_order ord2) (O3 : iter_order ord3) (O4 : iter_order ord4).

Definition known_vars (p : mopt) (v : N) : Prop :=
  (exists l, In l (inst_lits (fst (mopt_decompose p))) /\ lvar l = v) \/ (exists ob l, In ob (snd (mopt_decompose p)) /\ In l (obj_vars ob) /\ lvar l = v).
Lemma means_known p P cost used : means p P cost used -> means p P cost (known_vars p) /\ forall v, known_vars p v -> (v < i_next (fst (mopt_decompose p)))%N.
Proof.
  intros M. split.
  - destruct M. split; auto; [intros l Hl; left; exists l; auto|intros ob l Hob Hl; right; exists ob, l; auto].
  - intros v [(l & Hl & <-)|(ob & l & Hob & Hl & <-)]; [exact (mn_known _ _ _ _ M l Hl)|exact (mn_objs _ _ _ _ M ob Hob l Hl)].
Qed.
Lemma shown_file values bs vs : bs <> [] -> bs <> [false] -> solution_file (bit_lits bs) (shown values (map tern_of_bool bs) vs).
Proof.
  intros H1 H2. assert (Eb : show_assignment (map tern_of_bool bs) = bits_text bs) by (unfold show_assignment, bits_text; rewrite map_map; apply map_ext; now intros []).
  assert (Hv : out_line_text (LBits bs) (T "v " ++ bits_text bs) /\ (LBits bs = LOther -> forall r, T "v " ++ bits_text bs <> "v"%char :: r)).
  { split; [|discriminate]. split; [now eexists|]. split; [|reflexivity]. change (tl (T "v " ++ bits_text bs)) with ([" "%char] ++ bits_text bs). rewrite <- (app_nil_r (bits_text bs)) at 2. constructor; [split; [intros c [<-|[]]; now left|discriminate]|]. constructor. intros c []. }
  assert (Hl : lines_text [T "v " ++ bits_text bs] (T "v " ++ show_assignment (map tern_of_bool bs) ++ [nl])).
  { rewrite Eb, app_assoc. rewrite <- (app_nil_r [nl]). constructor; [now left|constructor]. }
  unfold shown. destruct values; [destruct vs as [|v vs]|].
  - exists [LBits bs], [T "v " ++ bits_text bs]. split; [constructor; [exact Hv|constructor]|]. split; [exact Hl|]. right. split; [repeat constructor; assumption|]. cbn. now rewrite app_nil_r.
  - exists [LOther; LBits bs], [T "o" ++ flat_map (fun v => T " " ++ print_Z v) (v :: vs); T "v " ++ bits_text bs]. split.
    + constructor; [|constructor; [exact Hv|constructor]]. split; [|intros _ r; discriminate]. split; [|split; intros r; discriminate].
      assert (Hp : forallb plain (T "o" ++ flat_map (fun v => T " " ++ print_Z v) (v :: vs)) = true).
      { rewrite forallb_app. cbn [T forallb]. apply andb_true_iff. split; [reflexivity|]. generalize (v :: vs) as xs. clear. induction xs as [|x xs IH]; [reflexivity|]. cbn [flat_map]. now rewrite !forallb_app, print_Z_plain, IH. }
      rewrite forallb_forall in Hp. intros c Hc. specialize (Hp c Hc). split; intros ->; discriminate.
    + split; [|right; split; [repeat constructor; assumption|cbn; now rewrite app_nil_r]].
      rewrite <- !app_assoc. rewrite (app_assoc (T "o")). constructor; [now left|exact Hl].
  - exists [LBits bs], [T "v " ++ bits_text bs]. split; [constructor; [exact Hv|constructor]|]. split; [exact Hl|]. right. split; [repeat constructor; assumption|]. cbn. now rewrite app_nil_r.
Qed.
Lemma bit_lits_complete bs a : makes_true a (bit_lits bs) -> completes a (pasg_of (map tern_of_bool bs)).
Proof.
  intros Ha v b E. assert (Hin : In (mkLit v (negb b)) (bit_lits bs)).
  { unfold pasg_of in E. rewrite var_value_nth in E. unfold vidx in E. unfold bit_lits. apply in_map_iff. exists (N.to_nat v, b). cbn [fst snd]. split; [f_equal; lia|].
    assert (Hn : nth_error bs (N.to_nat v) = Some b).
    { revert E. generalize (N.to_nat v) as k. clear. induction bs as [|x bs IH]; intros [|k] E; cbn in *; try discriminate; [destruct x; cbn in E; congruence|auto]. }
    apply (nth_error_In _ (N.to_nat v)). revert Hn. change (N.to_nat v, b) with ((0 + N.to_nat v)%nat, b). generalize 0%nat as k0, (N.to_nat v) as k. clear. induction bs as [|x bs IH]; intros k0 [|k] E; cbn in *; try discriminate; [now injection E as ->; rewrite Nat.add_0_r|]. rewrite <- Nat.add_succ_comm. now apply IH. }
  specialize (Ha _ Hin). unfold lit_true in Ha. cbn [lvar lneg] in Ha. destruct b, (a v); easy.
Qed.

Lemma enumerator_spec o fmt t P cost (used : N -> Prop) : problem_file (first_var_idx o) fmt t P cost used -> plain_file (first_var_idx o) fmt t ->
  exists n, (1 <= n <= max_var_idx + 1)%N /\ forall values until fuel w,
  (forall sols ts e, enumerator ord ord1 ord2 ord3 ord4 V values fmt o t until fuel w = ROk (sols, ts, e) ->
     enumeration P n sols e /\
     Forall2 (fun s x => exists vs, x = shown values s vs /\ (forall a, completes a (pasg_of s) -> Forall2 Z.le vs (cost a)) /\
                (total_below n s -> (forall a, completes a (pasg_of s) -> vs = cost a) /\ ((2 <= n)%N -> check_solution fmt o t x = ROk (Accepted vs)))) sols ts /\
     (List.length sols <= enum_limit until fuel)%nat /\ (e = EStopped -> List.length sols = enum_limit until fuel)) /\
  (reliable V reps -> exists sols ts e, enumerator ord ord1 ord2 ord3 ord4 V values fmt o t until fuel w = ROk (sols, ts, e) /\ e <> EPanic).
Proof.
  intros Hp Hpl. destruct (parse_means o fmt t P cost used Hp) as (p & E & M0). pose proof (plain_pbs o fmt t P cost used p Hp Hpl E) as Hq. destruct (means_known p P cost used M0) as [M Hkv]. clear M0 Hp Hpl.
  destruct (mopt_decompose p) as [c obs] eqn:Ed. unfold enumerator. rewrite E. cbn [rbind]. rewrite Ed. pose proof M as M'. destruct M' as [M1 M2 M3 M4 M5 M6 M7 M8 M9]. rewrite Ed in *. cbn [fst snd] in *.
  exists (i_next c). split; [exact M9|]. intros values until fuel w. unfold max_var_of. destruct (N.eqb_spec (i_next c) 0) as [|Hnz]; [lia|]. cbn [to_res rbind].
  destruct (into_cnf_default ord ord1 ord2 ord3 ord4 c O O1 O2 O3 O4 M4 Hq) as (f & n' & Ef & (Hle & Hfr & Henc)). rewrite Ef. cbn [to_res rbind fst].
  pose proof (co_init V reps Hcor w) as Hi. destruct (sv_init V w) as [s0 w0]. cbn [fst] in Hi. pose proof (add_cnf_spec V reps Hcor f s0 w0 [] false Hi) as Ha. destruct (add_cnf V f s0 w0) as [[s1 w1]|].
  2:{ split; [discriminate|]. intros R. now destruct Ha. }
  destruct Ha as (m & Hr). cbn [app] in Hr. destruct (enum_run V (i_next c - 1) (enum_limit until fuel) s1 w1) as [sols0 e0] eqn:Er.
  destruct (enum_run_spec V reps Hcor (i_next c - 1) ltac:(lia) (enum_limit until fuel) s1 w1 f m sols0 e0 Hr Er) as (R1 & R2 & R3 & R4 & R5 & R6).
  assert (Hvars : forall s v, In s sols0 -> (i_next c <= v)%N -> pasg_of s v = None) by (intros s v Hs Hv; destruct (R1 s Hs) as (q & _ & Hqv); rewrite Hqv; destruct (N.leb_spec v (i_next c - 1)); [lia|reflexivity]).
  assert (Hen : enumeration P (i_next c) sols0 e0).
  { split; [| | |apply apart_bound; [|exact R2]; intros s v Hs Hv; apply (Hvars s v Hs); lia|].
    - intros s a Hs Hc. destruct (R1 s Hs) as (q & Hq1 & Hq2). apply M1. pose proof (proj1 Henc _ (Hq1 _ (merge_completes _ a q s Hq2 Hc))) as Hh.
      apply (holds_agree (merge (i_next c - 1) a q)); [|exact Hh]. intros v (l & Hl & <-). apply M4 in Hl. unfold merge. destruct (N.leb_spec (lvar l) (i_next c - 1)); [reflexivity|lia].
    - exact (apart_once sols0 R2).
    - exact Hvars.
    - intros He a HP. apply M1 in HP. destruct (proj2 Henc a HP) as (a' & Hch & Hsat). destruct (R3 He a' Hsat) as (s & Hs & Hc). exists s. split; [exact Hs|]. intros v b Ev. rewrite <- (Hc v b Ev). symmetry. apply Hch.
      destruct (N.ltb_spec v (i_next c)); [now left|]. rewrite (Hvars s v Hs) in Ev by assumption. discriminate. }
  assert (Hts : exists ts, mapM (solution_lines values obs) sols0 = Some ts /\ Forall2 (fun s x => exists vs, x = shown values s vs /\ (forall a, completes a (pasg_of s) -> Forall2 Z.le vs (cost a)) /\
                (total_below (i_next c) s -> (forall a, completes a (pasg_of s) -> vs = cost a) /\ ((2 <= i_next c)%N -> check_solution fmt o t x = ROk (Accepted vs)))) sols0 ts).
  { assert (Hsub : forall s, In s sols0 -> In s sols0) by auto. revert Hsub. generalize sols0 at 1 3 4 as rest. induction rest as [|s rest IH]; intros Hsub; [exists []; split; [reflexivity|constructor]|]. destruct IH as (ts & Ets & Hts); [intros x Hx; apply Hsub; now right|].
    destruct (lines_shown values c obs P cost (known_vars p) p s Ed M) as (vs & E1 & E2 & E3). exists (shown values s vs :: ts). cbn [mapM]. rewrite E1. cbn [obind]. rewrite Ets. split; [reflexivity|]. constructor; [|exact Hts].
    exists vs. split; [reflexivity|]. split; [exact E2|]. intros (bs & Hs & Hbs).
    assert (Hall : forall v, known_vars p v -> pasg_of s v <> None).
    { intros v Hv. apply Hkv in Hv. rewrite Hs. unfold pasg_of. rewrite var_value_nth. unfold vidx. rewrite (nth_indep _ TDontCare (tern_of_bool false)) by (rewrite map_length; lia). rewrite map_nth. now destruct (nth (N.to_nat v) bs false). }
    split; [intros a; now apply E3|]. intros Hn.
    assert (Hne : bs <> [] /\ bs <> [false]) by (split; intros ->; cbn in Hbs; lia). subst s.
    destruct (check_spec_means o fmt t p P cost (known_vars p) (bit_lits bs) (shown values (map tern_of_bool bs) vs) E M (shown_file values bs vs (proj1 Hne) (proj2 Hne))) as (v & Ev & _ & Hrej & Hchk).
    set (a := asg_of bs). assert (Hmk : makes_true a (bit_lits bs)).
    { intros l Hl. unfold bit_lits in Hl. apply in_map_iff in Hl as ([k b] & <- & Hkb). cbn [fst snd]. unfold lit_true, a, asg_of. cbn [lvar lneg]. rewrite Nnat.Nat2N.id.
      assert (Hn' : nth k bs false = b); [|rewrite Hn'; now destruct b]. clear - Hkb. assert (G : forall k0, In (k, b) (combine (seq k0 (List.length bs)) bs) -> (k0 <= k)%nat /\ nth (k - k0) bs false = b).
      { clear. induction bs as [|x bs IH]; intros k0 H; [destruct H|]. cbn [List.length seq combine] in H. destruct H as [H|H]; [injection H as -> ->; rewrite Nat.sub_diag; auto|]. apply IH in H as [L H]. split; [lia|]. replace (k - k0)%nat with (Datatypes.S (k - Datatypes.S k0)) by lia. exact H. }
      rewrite <- (Nat.sub_0_r k). now apply (G 0%nat). }
    pose proof (bit_lits_complete bs a Hmk) as Hca.
    assert (HPa : P a) by (apply (en_right _ _ _ _ Hen (map tern_of_bool bs)); [apply Hsub; now left|exact Hca]).
    destruct (Hchk) with (a := a) as [[_ Hv]|(r & Hv & Hr')].
    - intros u Hu. apply Hkv in Hu. apply in_map_iff. exists (mkLit u (negb (nth (N.to_nat u) bs false))). split; [reflexivity|]. unfold bit_lits. apply in_map_iff. exists (N.to_nat u, nth (N.to_nat u) bs false). cbn [fst snd]. split; [f_equal; lia|].
      apply (nth_error_In _ (N.to_nat u)). rewrite (nth_error_nth' _ (0%nat, false)) by (rewrite combine_length, seq_length; lia). rewrite combine_nth by now rewrite seq_length. rewrite seq_nth by lia. reflexivity.
    - exact Hmk.
    - rewrite Ev, Hv. f_equal. f_equal. symmetry. now apply E3.
    - destruct Hr'. exact (Hrej r Hv a HPa). }
  destruct Hts as (ts0 & Ets & Hts). rewrite Ets. cbn [to_res rbind]. split.
  - intros sols ts e Ee. injection Ee as <- <- <-. auto.
  - intros R. exists sols0, ts0, e0. split; [reflexivity|now apply R6].
Qed.
End Enumerator.
