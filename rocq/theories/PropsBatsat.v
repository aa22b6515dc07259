(** * Property C84: the solver crate of BatSat *)

From Coq Require Import List Bool NArith ZArith Lia Arith ZifyBool ZifyNat ZifyN.
From Verif Require Import Spec Types SolverSpec Solver SolverUse Wrappers WrapperSpec WrapperProofs WrapperToy PropsWrappers Batsat BatsatSpec BatsatProofs.
Import ListNotations.

(** ** A back end that keeps the promises: search through all assignments, interrupted if the next number of the world is 1 *)

Definition toy_bt : bapi sst codes := mkBapi
  (mkSst [] 0 SNone) (fun b => N.of_nat (ss_n b))
  (fun b => mkSst (ss_f b) (S (ss_n b)) (ss_ans b))
  (fun b v => mkSst (ss_f b) (Nat.max (ss_n b) (S (N.to_nat v))) (ss_ans b))
  (fun b c => mkSst (ss_f b ++ [map of_bat c]) (ss_n b) SNone)
  (fun b ls w => let '(r, b', _) := so_solve toy_sapi b (map of_bat ls) (if (hd 0 w =? 1)%Z then [1%Z] else []) in (match r with Some x => x | None => None end, b', tl w))
  (fun b l => match model_pasg (so_model toy_sapi b) (bl_var l) with Some x => Some (if bl_sign l then x else negb x) | None => None end)
  (fun b => map to_bat (so_conflict toy_sapi b)).
Definition toy_ans (x : sans) : btans := match x with SNone => BtNone | SSat m => BtSat (model_pasg m) | SUnsat ls => BtUnsat (map to_bat ls) end.
Definition toy_BR (b : sst) (s : btst) : Prop := toy_SR b b /\ s = mkBtst (cnf_bat (ss_f b)) (N.of_nat (ss_n b)) (toy_ans (ss_ans b)).
Lemma to_of_list c : map to_bat (map of_bat c) = c.
Proof. rewrite map_map, (map_ext _ (fun x => x)) by (intros; apply to_of_bat). apply map_id. Qed.
Lemma below_of n c : bvars_below (N.of_nat n) c -> vars_below n (map of_bat c).
Proof. intros H l Hl. apply in_map_iff in Hl as (x & <- & Hx). specialize (H x Hx). unfold vidx. cbn. lia. Qed.
Lemma toy_conforming_batsat : conforming_batsat toy_bt toy_BR.
Proof.
  pose proof toy_conforming_solver as T. constructor; cbn [toy_bt bt_init bt_num_vars bt_new_var bt_var_of_int bt_add bt_solve bt_value bt_core].
  - split; [exact (cs_init _ _ T [])|reflexivity].
  - intros b s (_ & ->). reflexivity.
  - intros b s (H & ->). split; [exact (cs_new_var _ _ T b b [] _ _ H eq_refl)|]. cbn. f_equal. lia.
  - intros b s v ((_ & Hv & Ha) & ->). split; [split; [reflexivity|]; split; [|exact Ha]; cbn; intros c Hc l Hl; specialize (Hv c Hc l Hl); lia|]. cbn. f_equal. lia.
  - intros b s c (H & ->) Hc. cbn in Hc. split; [exact (cs_add _ _ T b b (map of_bat c) [] _ _ H (below_of _ _ Hc) eq_refl)|]. cbn. f_equal. unfold cnf_bat. rewrite map_app. cbn. now rewrite to_of_list.
  - intros b s ls w b' w' (H & ->) Hl E. cbn in Hl. destruct (so_solve toy_sapi b (map of_bat ls) _) as [[r b1] w1] eqn:Es. destruct r as [r|]; [|discriminate E]. injection E as -> <- <-.
    destruct (cs_sat _ _ T _ _ _ _ _ _ H (below_of _ _ Hl) Es) as (m & _ & Hm & HR). exists (model_pasg m). split.
    + intros a Ha. destruct (Hm a Ha) as [H1 H2]. split; [now apply bsat_all_to|]. intros l Hin. rewrite <- (to_of_bat l), blit_true_to. unfold sat_cube in H2. rewrite forallb_forall in H2. apply H2. now apply in_map.
    + destruct HR as (-> & HR). split; [split; [reflexivity|exact HR]|reflexivity].
  - intros b s ls w b' w' (H & ->) Hl E. cbn in Hl. destruct (so_solve toy_sapi b (map of_bat ls) _) as [[r b1] w1] eqn:Es. destruct r as [r|]; [|discriminate E]. injection E as -> <- <-.
    destruct (cs_unsat _ _ T _ _ _ _ _ _ H (below_of _ _ Hl) Es) as (Hu & HR). split.
    + intros a Ha. apply bsat_all_to in Ha. specialize (Hu a Ha). clear - Hu. unfold sat_cube in Hu. induction ls as [|l ls IH]; cbn [map forallb] in Hu; [discriminate Hu|].
      destruct (lit_true a (of_bat l)) eqn:El; [destruct (IH Hu) as (x & H1 & H2); exists x; split; [now right|exact H2]|]. exists l. split; [now left|]. rewrite <- (to_of_bat l), blit_true_to. exact El.
    + destruct HR as (-> & HR). split; [split; [reflexivity|exact HR]|]. cbn. now rewrite to_of_list.
  - intros b s ls w b' w' (H & ->) Hl E. cbn in Hl. destruct (so_solve toy_sapi b (map of_bat ls) _) as [[r b1] w1] eqn:Es. destruct r as [r|].
    + injection E as -> <- <-. apply (cs_undef _ _ T _ _ _ _ _ _ H (below_of _ _ Hl)) in Es. destruct Es as (-> & HR). split; [split; [reflexivity|exact HR]|reflexivity].
    + exfalso. cbn in Es. destruct (hd 0%Z w =? 1)%Z; cbn in Es; [discriminate Es|]. destruct (find _ _); discriminate Es.
  - intros b s p l (H & ->) Hp. cbn in Hp. destruct (ss_ans b) as [|m|] eqn:Ea; try discriminate Hp. injection Hp as <-. cbn. now rewrite Ea.
  - intros b s ls (H & ->) Hs. cbn [bt_ans] in Hs. destruct (ss_ans b) as [| |ks] eqn:Ea; try discriminate Hs. injection Hs as <-. destruct (cs_conflict _ _ T _ _ _ H Ea) as (K1 & K2). split.
    + intros l Hl. apply in_map_iff in Hl as (x & <- & Hx). apply K1 in Hx. apply in_map_iff. exists (neg x). split; [|exact Hx]. now destruct x as [v []].
    + intros a Ha. rewrite bsat_clause_to. apply K2. now apply bsat_all_to in Ha.
Qed.

(** With a back end that keeps its promises the wrapper is a correct incremental solver: every answer is right, values and
    solutions are models, and cores consist of negated assumptions and follow from the clauses. *)
Theorem C84_batsat : forall B W (A : bapi B W) R, conforming_batsat A R ->
  exists reps, correct_inc (batsat A) (models (is_solver (batsat A))) reps /\ knows_vars (is_solver (batsat A)) reps /\ correct (is_solver (batsat A)) reps /\
    (* no call fails, whatever was called before *)
    (forall s f m c w, reps s f m -> fst (fst (sv_add (is_solver (batsat A)) s c w)) = true) /\
    (forall s f m w, reps s f m -> fst (fst (sv_solve (is_solver (batsat A)) s w)) <> None) /\
    (forall s f m ls w, reps s f m -> fst (fst (is_assumps (batsat A) s ls w)) <> None) /\
    (* reserving keeps clauses and values *)
    (forall s f m v, reps s f m -> reps (bat_reserve A s v) f m /\ exists h, sv_max_var (is_solver (batsat A)) (bat_reserve A s v) = Some h /\ (v <= h)%N).
Proof.
  intros B W A R C. exists (bat_reps R). destruct (batsat_correct A R C) as (H1 & H2). split; [exact H1|]. split; [exact H2|]. split; [now apply correct_inc_correct|]. split; [reflexivity|]. split; [|split].
  - intros s f m w [Hi _]. cbn [batsat is_solver sv_solve]. destruct (bat_solve A s w) as [[x s'] w'] eqn:E. destruct (bat_solve_ok A R C _ _ _ _ _ _ Hi E) as (r & -> & _). discriminate.
  - intros s f m ls w _. cbn [batsat is_assumps]. unfold bat_solve_assumps. destruct (bat_search A s ls w) as [[r s'] w']. discriminate.
  - intros s f m v [Hi Hm]. destruct (bat_reserve_ok A R C s f v Hi) as (K1 & K2 & K3). split; [|exact K3]. split; [exact K1|]. now rewrite K2.
Qed.
Print Assumptions C84_batsat.
Example C84_ex : conforming_batsat toy_bt toy_BR /\
  let V := batsat toy_bt in let s0 := fst (sv_init (is_solver V) []) in exists s1 s2 s3 s4,
    sv_add (is_solver V) s0 [pos 0; pos 1] [] = (true, s1, []) /\ sv_add (is_solver V) s1 [negl 0; pos 1] [] = (true, s2, []) /\
    is_assumps V s2 [pos 5; negl 1] [] = (Some RUnsat, s3, []) /\ is_core V s3 = Some [negl 5; pos 1] /\
    is_assumps V s3 [negl 0] [] = (Some RSat, s4, []) /\ map (sv_val (is_solver V) s4) [pos 0; negl 0; pos 1; negl 1; pos 9] = [Some TFalse; Some TTrue; Some TTrue; Some TFalse; Some TDontCare] /\
    sv_solution (is_solver V) (bat_reserve toy_bt s4 8) 2 = Some [TFalse; TTrue; TTrue] /\ sv_max_var (is_solver V) (bat_reserve toy_bt s4 8) = Some 8%N /\
    (b_sat s4, b_unsat s4, b_term s4) = (1, 1, 0).
Proof.
  split; [exact toy_conforming_batsat|]. pose (V := batsat toy_bt). pose (s1 := snd (fst (sv_add (is_solver V) (fst (sv_init (is_solver V) [])) [pos 0; pos 1] []))). pose (s2 := snd (fst (sv_add (is_solver V) s1 [negl 0; pos 1] []))).
  pose (s3 := snd (fst (is_assumps V s2 [pos 5; negl 1] []))). pose (s4 := snd (fst (is_assumps V s3 [negl 0] []))).
  cbv zeta. wit s1. wit s2. wit s3. wit s4. steps. vm_compute. reflexivity.
Qed.

(** The statistics count the answers of all calls that searched; the largest variable is that of all clauses, assumptions and reservations. *)
Theorem C84_statistics : forall B W (A : bapi B W) R, conforming_batsat A R -> forall s f log vs, bhistory A s f log vs ->
  b_sat s = count_res RSat log /\ b_unsat s = count_res RUnsat log /\ b_term s = count_res RInterrupted log /\ largest vs (sv_max_var (is_solver (batsat A)) s).
Proof.
  intros B W A R C s f log vs H. destruct (bhistory_ok A R C s f log vs H) as (_ & H1 & H2 & H3 & H4). do 3 (split; [assumption|]). cbn [batsat is_solver sv_max_var]. unfold bat_max_var. rewrite H4. apply above_largest.
Qed.
Print Assumptions C84_statistics.
Example C84_statistics_ex : let A := toy_bt in exists s f, bhistory A s f [RUnsat; RInterrupted; RSat] [0; 1; 0; 1; 3]%N /\ b_state s = BSatisfied /\ f = [[pos 0; pos 1]] /\ (b_sat s, b_unsat s, b_term s) = (1, 1, 1) /\
  sv_max_var (is_solver (batsat A)) s = Some 3%N.
Proof.
  cbv zeta. pose (s0 := fst (bat_init toy_bt [])). pose (s1 := snd (fst (bat_add toy_bt s0 [pos 0; pos 1] []))).
  assert (H1 : bhistory toy_bt s1 [[pos 0; pos 1]] [] [0; 1]%N) by exact (bh_add _ _ _ _ _ [pos 0; pos 1] [] _ _ (bh_init toy_bt []) eq_refl).
  pose (t2 := snd (fst (bat_solve_assumps toy_bt s1 [negl 0; negl 1] []))).
  assert (H2 : bhistory toy_bt t2 [[pos 0; pos 1]] [RUnsat] [0; 1; 0; 1]%N) by (apply (bh_assumps toy_bt s1 _ [] [0; 1]%N [negl 0; negl 1] [] RUnsat t2 []); [exact H1|vm_compute; reflexivity]).
  pose (t3 := snd (fst (bat_solve toy_bt t2 [1%Z]))). pose (t4 := snd (fst (bat_solve toy_bt t3 []))).
  assert (H3 : bhistory toy_bt t3 [[pos 0; pos 1]] [RUnsat; RInterrupted] [0; 1; 0; 1]%N) by (apply (bh_solve toy_bt t2 _ [RUnsat] _ [1%Z] RInterrupted t3 []); [exact H2|intros [K|K]; discriminate K|vm_compute; reflexivity]).
  assert (H4 : bhistory toy_bt t4 [[pos 0; pos 1]] [RUnsat; RInterrupted; RSat] [0; 1; 0; 1]%N) by (apply (bh_solve toy_bt t3 _ [RUnsat; RInterrupted] _ [] RSat t4 []); [exact H3|intros [K|K]; discriminate K|vm_compute; reflexivity]).
  assert (H5 : bhistory toy_bt t4 [[pos 0; pos 1]] [RUnsat; RInterrupted; RSat] [0; 1; 0; 1]%N) by (apply (bh_known toy_bt t4 _ _ _ [] RSat t4 []); [exact H4|left; reflexivity|vm_compute; reflexivity]).
  exists (bat_reserve toy_bt t4 3), [[pos 0; pos 1]]. split; [exact (bh_reserve _ _ _ _ _ 3 H5)|]. repeat split.
Qed.
