(** * Property theorems about the encoding of correlation clustering (C77) *)

From Coq Require Import List Bool NArith ZArith Ascii String Arith Lia Permutation.
From Coq Require Import ZifyBool ZifyNat ZifyN.
From Verif Require Import Spec Types Base BoundSpec Dpw OptSpec Text TextProofs FioSpec Dimacs ToolSpec Bench BenchSpec ClusterSpec ClusterProofs ClusterSem ClusterRead PropsTools PropsBench.
Import ListNotations.
Open Scope list_scope.

(** ** C77: the clauses have the clusterings as solutions, with their costs *)

(** Whatever the numbers in the file mean ([number]), the solutions of the clauses that are written are the clusterings that keep the
    constraints.  The first objective is the weight of similar objects in different clusters, the second that of dissimilar objects in one cluster.
    As a single objective the sum is written. *)
Theorem C77_clusterings : forall number offset dont_care hard_threshold smap es names t0,
  (forall z, value_means dont_care hard_threshold (z - offset) (smap z)) -> cluster_file number es t0 -> objects es names -> (2 <= List.length names)%nat ->
  (forall e, In e es -> is_usize (Z.abs_nat (snd e - offset))) ->
  forall single t, produces (gen_cnf_clustering number offset dont_care hard_threshold single t0) t ->
  exists items, clustering_clauses smap es names items /\ (single = false -> mcnf_file max_var_idx items t) /\
    (single = true -> wcnf_file max_var_idx (map in_one items) t /\ forall a, Z.of_nat (cls_cost a (softs (map in_one items))) = fold_right Z.add 0%Z (mcnf_costs 2 items a)).
Proof. exact clustering_correct. Qed.
Print Assumptions C77_clusterings.
(** A file is written if there are enough variables: a bit vector for every object, and one more with a further variable for every pair. *)
Theorem C77_written : forall number offset dont_care hard_threshold es names t0, cluster_file number es t0 -> objects es names -> (2 <= List.length names)%nat ->
  (N.of_nat (List.length names * digits (List.length names) + List.length (pairs_of names) * (digits (List.length names) + 1)) <= max_var_idx)%N ->
  forall single, exists t, produces (gen_cnf_clustering number offset dont_care hard_threshold single t0) t.
Proof. exact clustering_runs. Qed.
Print Assumptions C77_written.
(** Every value has a meaning, and only one. *)
Theorem C77_values : forall dont_care hard_threshold v, exists s, value_means dont_care hard_threshold v s /\ forall s', value_means dont_care hard_threshold v s' -> s' = s.
Proof.
  intros d h v. exists (sim_map 0 d h v). pose proof (map_value_means 0 d h v) as H. rewrite Z.sub_0_r in H. split; [exact H|]. intros s' H'. apply (value_means_map 0 d h v). now rewrite Z.sub_0_r.
Qed.
Print Assumptions C77_values.

(** Numbers of one digit, for the examples *)
Definition ex_number (t : text) : option Z :=
  match t with
  | [c] => if is_digit c then Some (Z.of_N (digit_value c)) else None
  | ["-"%char; c] => if is_digit c then Some (- Z.of_N (digit_value c))%Z else None
  | _ => None
  end.
Definition ex_sims : list entry := [(T "x_1", T "y", 3%Z); (T "y", T "z", (-2)%Z); (T "z", T "x_1", 9%Z); (T "z", T "w", (-8)%Z)].
Definition ex_sims_text : text := line (T "% a comment") ++ line (T "x_1 y 3") ++ line (T "  y z  -2") ++ line [] ++ line (T "z x_1 9") ++ T "z w -8".
Definition ex_names : list text := [T "x_1"; T "y"; T "z"; T "w"].
Ltac sp := intros ? H; repeat (destruct H as [<-|H]; [auto|]); destruct H.
Lemma ex_entry x y z v pre sp1 sp2 l : l = pre ++ x ++ sp1 ++ y ++ sp2 ++ v -> forallb (fun c => negb (Ascii.eqb c nl || Ascii.eqb c cr)) l = true -> forallb is_space pre = true ->
  (forallb is_ident x && forallb is_ident y && negb (text_eqb x []) && negb (text_eqb y []))%bool = true -> (forallb is_space sp1 && forallb is_space sp2 && negb (text_eqb sp1 []) && negb (text_eqb sp2 []))%bool = true ->
  ex_number v = Some z -> match v with c :: _ => is_multispace c = false | [] => True end -> cluster_line ex_number (Some (x, y, z)) l.
Proof.
  intros -> Ho Hp Hi Hs Hv Hm. assert (Hsp : forall t, forallb is_space t = true -> blanks t).
  { intros t H c Hc. rewrite forallb_forall in H. specialize (H c Hc). unfold is_space in H. apply orb_true_iff in H as [H|H]; apply Ascii.eqb_eq in H; auto. }
  rewrite !andb_true_iff, !negb_true_iff in Hi, Hs. destruct Hi as [[[I1 I2] I3] I4], Hs as [[[S1 S2] S3] S4].
  assert (Hne : forall t : text, text_eqb t [] = false -> t <> []) by (intros t E ->; discriminate E).
  exists pre, (x ++ sp1 ++ y ++ sp2 ++ v). split; [now apply Hsp|]. split; [reflexivity|]. split.
  - intros c Hc. rewrite forallb_forall in Ho. specialize (Ho c Hc). apply negb_true_iff, orb_false_iff in Ho as [O1 O2]. split; [now apply Ascii.eqb_neq in O1|now apply Ascii.eqb_neq in O2].
  - exists sp1, sp2, v. cbn [fst snd]. split; [split; auto|]. split; [split; auto|]. split; [split; auto|]. split; [split; auto|]. split; [exact Hv|]. split; [intros c r ->; exact Hm|reflexivity].
Qed.
Lemma ex_sims_file : cluster_file ex_number ex_sims ex_sims_text.
Proof.
  exists (None :: map Some (firstn 2 ex_sims) ++ None :: map Some (skipn 2 ex_sims)), [T "% a comment"; T "x_1 y 3"; T "  y z  -2"; []; T "z x_1 9"; T "z w -8"]. split; [|split; [|reflexivity]].
  - cbn [ex_sims firstn skipn map app]. constructor; [|constructor; [|constructor; [|constructor; [|constructor; [|constructor; [|constructor]]]]]].
    + exists [], (T "% a comment"). split; [intros ? []|]. split; [reflexivity|]. split; [intros c H; vm_compute in H; repeat (destruct H as [<-|H]; [split; discriminate|]); destruct H|]. right. eexists. reflexivity.
    + apply (ex_entry (T "x_1") (T "y") 3%Z (T "3") [] [" "%char] [" "%char]); reflexivity.
    + apply (ex_entry (T "y") (T "z") (-2)%Z (T "-2") (T "  ") [" "%char] (T "  ")); reflexivity.
    + exists [], []. split; [intros ? []|]. split; [reflexivity|]. split; [intros ? []|now left].
    + apply (ex_entry (T "z") (T "x_1") 9%Z (T "9") [] [" "%char] [" "%char]); reflexivity.
    + apply (ex_entry (T "z") (T "w") (-8)%Z (T "-8") [] [" "%char] [" "%char]); reflexivity.
  - right. exists [T "% a comment"; T "x_1 y 3"; T "  y z  -2"; []; T "z x_1 9"], (T "z w -8"). split; [reflexivity|]. split; [discriminate|reflexivity].
Qed.
Lemma ex_sims_objects : objects ex_sims ex_names.
Proof.
  split; [repeat (apply NoDup_cons; [cbn; intuition discriminate|]); apply NoDup_nil|]. intros x. unfold mentioned, ex_sims, ex_names. split.
  - intros [<-|[<-|[<-|[<-|[]]]]]; [exists (T "x_1", T "y", 3%Z)|exists (T "x_1", T "y", 3%Z)|exists (T "y", T "z", (-2)%Z)|exists (T "z", T "w", (-8)%Z)]; (split; [cbn; auto 6|cbn; auto]).
  - intros (e & [<-|[<-|[<-|[<-|[]]]]] & [<-|<-]); cbn; auto 6.
Qed.
(** A similarity of 3, a dissimilarity of 2, a must-link and a cannot-link constraint; three objects in one cluster cost 2 because two of them are dissimilar *)
Example C77_ex : cluster_file ex_number ex_sims ex_sims_text /\ objects ex_sims ex_names /\ (forall e, In e ex_sims -> is_usize (Z.abs_nat (snd e - 0))) /\
  (exists t, gen_cnf_clustering ex_number 0 1 7 false ex_sims_text 200 = Some (ROk t) /\ skipn (List.length t - 23) t = line (T "o 1 3 22 0") ++ line (T "o 2 2 -23 0")) /\
  let smap := sim_map 0 1 7 in let f := fun x => if text_eqb x (T "w") then 1%nat else 0%nat in
  valid_clustering smap ex_sims f /\ apart_cost smap ex_sims ex_names f = 0%nat /\ together_cost smap ex_sims ex_names f = 2%nat /\ pair_sim smap ex_sims (T "x_1") (T "z") = MustLink /\ ~ valid_clustering smap ex_sims (fun _ => 0%nat).
Proof.
  split; [exact ex_sims_file|]. split; [exact ex_sims_objects|]. split; [intros e [<-|[<-|[<-|[<-|[]]]]]; small|].
  split; [match goal with |- exists t, ?g = _ /\ _ => let x := eval vm_compute in g in match x with Some (ROk ?t) => exists t end end; vm_compute; split; reflexivity|].
  split; [|split; [vm_compute; reflexivity|split; [vm_compute; reflexivity|split; [vm_compute; reflexivity|]]]].
  - intros x y Hx Hy Hne. apply (proj2 ex_sims_objects) in Hx, Hy. destruct Hx as [<-|[<-|[<-|[<-|[]]]]]; destruct Hy as [<-|[<-|[<-|[<-|[]]]]]; vm_compute; (split; intros E; try reflexivity; try discriminate E; try discriminate; now destruct Hne).
  - intros H. destruct (H (T "z") (T "w")) as [_ K]; [apply (proj2 ex_sims_objects); cbn; auto|apply (proj2 ex_sims_objects); cbn; auto|discriminate|]. now apply K.
Qed.

(** The tool panics if fewer than two objects are mentioned. *)
Theorem C77_few_objects_refuted : exists es t0 names, cluster_file ex_number es t0 /\ objects es names /\ es <> [] /\ panics (gen_cnf_clustering ex_number 0 1 7 false t0).
Proof.
  exists [(T "x", T "x", 5%Z)], (T "x x 5"), [T "x"]. split; [|split; [|split; [discriminate|]]].
  - exists [Some (T "x", T "x", 5%Z)], [T "x x 5"]. split; [|split; [|reflexivity]]; [constructor; [apply (ex_entry (T "x") (T "x") 5%Z (T "5") [] [" "%char] [" "%char]); reflexivity|constructor]|].
    right. exists [], (T "x x 5"). split; [reflexivity|]. split; [discriminate|reflexivity].
  - split; [constructor; [intros []|constructor]|]. intros x. split; [intros [<-|[]]; eexists; (split; [now left|now left])|intros (e & [<-|[]] & [<-|<-]); now left].
  - exists 0%nat. intros fuel _. reflexivity.
Qed.
Print Assumptions C77_few_objects_refuted.
(** Lines that cannot be read are skipped without an error, although no comment: of two lines one is lost here, because a letter is misspelt. *)
Theorem C77_misread_refuted : exists t0 t1 t, t0 = line (T "x y 3") ++ line (T "y-z z 2") /\ t1 = line (T "x y 3") /\
  produces (gen_cnf_clustering ex_number 0 1 7 false t0) t /\ produces (gen_cnf_clustering ex_number 0 1 7 false t1) t.
Proof.
  exists (line (T "x y 3") ++ line (T "y-z z 2")), (line (T "x y 3")).
  match goal with |- exists t, _ => let x := eval vm_compute in (gen_cnf_clustering ex_number 0 1 7 false (line (T "x y 3")) 60) in match x with Some (ROk ?t) => exists t end end.
  split; [reflexivity|]. split; [reflexivity|].
  assert (E : forall fuel, gen_cnf_clustering ex_number 0 1 7 false (line (T "x y 3") ++ line (T "y-z z 2")) fuel = gen_cnf_clustering ex_number 0 1 7 false (line (T "x y 3")) fuel) by (intros fuel; reflexivity).
  match goal with |- _ /\ ?P => assert (Hp : P) end.
  { exists 60%nat. intros fuel Hf. unfold gen_cnf_clustering. destruct (cl_new ex_number 0 1 7 (line (T "x y 3"))) as [st|] eqn:Est; [|vm_compute in Est; discriminate Est].
    destruct (drain cl_step 60 st) as [r|] eqn:Ed; [|vm_compute in Est; injection Est as <-; vm_compute in Ed; discriminate Ed]. rewrite (BenchProofs.drain_mono cl_step 60 st r Ed fuel Hf), <- Ed. vm_compute in Est. injection Est as <-. vm_compute. reflexivity. }
  split; [|exact Hp]. destruct Hp as [k Hk]. exists k. intros fuel Hf. rewrite E. exact (Hk fuel Hf).
Qed.
Print Assumptions C77_misread_refuted.
