(** * Written 0-1 linear programs stand for the instances *)

From Coq Require Import List Bool NArith ZArith Ascii String Lia Permutation.
From Coq Require Import ZifyBool ZifyNat ZifyN.
From Verif Require Import Spec Types Base ConstrSpec Constraints ConstrProofs VarMan NodeDb Inst InstSpec InstProofs InstReindex Opt OptSpec OptProofs OptConv OptReindex
  Text FioSpec Dimacs DimacsSpec DimacsProofs Opb Tools ToolSpec ToolConv Pigeons PigeonsSpec PigeonsProofs IlpSpec Mo2ilp.
Import ListNotations.
Open Scope list_scope.

(** ** Rows *)

Lemma dot_zeros a n : forall j, dot a j (repeat 0%Z n) = 0%Z.
Proof. induction n as [|n IH]; intros j; [reflexivity|]. cbn [repeat dot]. rewrite IH. now destruct (a j). Qed.
Lemma add_at_spec cs : forall j z, (j < List.length cs)%nat -> exists cs', add_at j z cs = Some cs' /\ List.length cs' = List.length cs /\
  forall a i, dot a i cs' = (dot a i cs + if a (i + N.of_nat j)%N then z else 0)%Z.
Proof.
  induction cs as [|c cs IH]; intros j z Hj; [cbn in Hj; lia|]. destruct j as [|j]; cbn [add_at].
  - exists ((c + z)%Z :: cs). split; [reflexivity|]. split; [reflexivity|]. intros a i. cbn [dot]. replace (i + N.of_nat 0)%N with i by lia. destruct (a i); lia.
  - cbn [List.length] in Hj. destruct (IH j z ltac:(lia)) as (cs' & E & L & D). rewrite E. cbn [obind]. exists (c :: cs'). split; [reflexivity|]. split; [cbn [List.length]; now rewrite L|].
    intros a i. cbn [dot]. rewrite D. replace (i + 1 + N.of_nat j)%N with (i + N.of_nat (S j))%N by lia. lia.
Qed.
Lemma add_last_spec cs z n : List.length cs = S n -> exists cs', add_last z cs = Some cs' /\ List.length cs' = S n /\
  forall a, dot a 0 cs' = (dot a 0 cs + if a (N.of_nat n) then z else 0)%Z.
Proof.
  intros L. destruct (add_at_spec cs (List.length cs - 1) z ltac:(lia)) as (cs' & E & L' & D). exists cs'. split; [unfold add_last; destruct cs; [discriminate|exact E]|]. split; [lia|].
  intros a. rewrite D. replace (0 + N.of_nat (List.length cs - 1))%N with (N.of_nat n) by lia. reflexivity.
Qed.

Definition fits (B : N) (ls : list (lit * nat)) : Prop := forall l w, In (l, w) ls -> (lvar l < B)%N /\ (Z.of_nat w <= isize_max)%Z.

Lemma to_isize_some w : (Z.of_nat w <= isize_max)%Z -> to_isize w = Some (Z.of_nat w).
Proof. intros H. unfold to_isize. now destruct (Z.leb_spec (Z.of_nat w) isize_max); [|lia]. Qed.
Lemma obj_steps ls n : fits (N.of_nat n) ls -> forall cs, List.length cs = S n -> exists cs', foldM obj_step ls cs = Some cs' /\ List.length cs' = S n /\
  forall a, a (N.of_nat n) = true -> dot a 0 cs' = (dot a 0 cs + Z.of_nat (wsum a ls))%Z.
Proof.
  induction ls as [|[l w] ls IH]; intros Hf cs L; cbn [foldM].
  - exists cs. split; [reflexivity|]. split; [exact L|]. intros a _. cbn. lia.
  - destruct (Hf l w (or_introl eq_refl)) as [Hl Hw]. assert (H : exists cs1, obj_step cs (l, w) = Some cs1 /\ List.length cs1 = S n /\ forall a, a (N.of_nat n) = true -> dot a 0 cs1 = (dot a 0 cs + if lit_true a l then Z.of_nat w else 0)%Z).
    { unfold obj_step. cbn [fst snd]. rewrite (to_isize_some w Hw). cbn [obind]. unfold lit_true. destruct (lneg l).
      - destruct (add_last_spec cs (Z.of_nat w) n L) as (c1 & E1 & L1 & D1). rewrite E1. cbn [obind]. destruct (add_at_spec c1 (N.to_nat (lvar l)) (- Z.of_nat w) ltac:(lia)) as (c2 & E2 & L2 & D2).
        exists c2. split; [exact E2|]. split; [lia|]. intros a Ha. rewrite D2, D1, Ha. replace (0 + N.of_nat (N.to_nat (lvar l)))%N with (lvar l) by lia. destruct (a (lvar l)); cbn; lia.
      - destruct (add_at_spec cs (N.to_nat (lvar l)) (Z.of_nat w) ltac:(lia)) as (c2 & E2 & L2 & D2). exists c2. split; [exact E2|]. split; [lia|]. intros a _. rewrite D2.
        replace (0 + N.of_nat (N.to_nat (lvar l)))%N with (lvar l) by lia. destruct (a (lvar l)); cbn; lia. }
    destruct H as (c1 & E1 & L1 & D1). rewrite E1. cbn [obind]. destruct (IH (fun l' w' H => Hf l' w' (or_intror H)) c1 L1) as (c2 & E2 & L2 & D2).
    exists c2. split; [exact E2|]. split; [exact L2|]. intros a Ha. rewrite (D2 a Ha), (D1 a Ha). cbn [wsum]. destruct (lit_true a l); lia.
Qed.
Lemma con_steps ls n : fits (N.of_nat n) ls -> forall cs b, List.length cs = n -> exists cs' b', foldM con_step ls (cs, b) = Some (cs', b') /\ List.length cs' = n /\
  forall a, (dot a 0 cs' - b' = dot a 0 cs - b + Z.of_nat (wsum a ls))%Z.
Proof.
  induction ls as [|[l w] ls IH]; intros Hf cs b L; cbn [foldM].
  - exists cs, b. split; [reflexivity|]. split; [exact L|]. intros a. cbn. lia.
  - destruct (Hf l w (or_introl eq_refl)) as [Hl Hw]. assert (H : exists cs1 b1, con_step (cs, b) (l, w) = Some (cs1, b1) /\ List.length cs1 = n /\ forall a, (dot a 0 cs1 - b1 = dot a 0 cs - b + if lit_true a l then Z.of_nat w else 0)%Z).
    { unfold con_step. cbn [fst snd]. rewrite (to_isize_some w Hw). cbn [obind]. unfold lit_true. destruct (lneg l).
      - destruct (add_at_spec cs (N.to_nat (lvar l)) (- Z.of_nat w) ltac:(lia)) as (c2 & E2 & L2 & D2). rewrite E2. cbn [obind].
        exists c2, (b - Z.of_nat w)%Z. split; [reflexivity|]. split; [lia|]. intros a. rewrite D2. replace (0 + N.of_nat (N.to_nat (lvar l)))%N with (lvar l) by lia. destruct (a (lvar l)); cbn; lia.
      - destruct (add_at_spec cs (N.to_nat (lvar l)) (Z.of_nat w) ltac:(lia)) as (c2 & E2 & L2 & D2). rewrite E2. cbn [obind]. exists c2, b. split; [reflexivity|]. split; [lia|]. intros a. rewrite D2.
        replace (0 + N.of_nat (N.to_nat (lvar l)))%N with (lvar l) by lia. destruct (a (lvar l)); cbn; lia. }
    destruct H as (c1 & b1 & E1 & L1 & D1). rewrite E1. cbn [obind]. destruct (IH (fun l' w' H => Hf l' w' (or_intror H)) c1 b1 L1) as (c2 & b2 & E2 & L2 & D2).
    exists c2, b2. split; [exact E2|]. split; [exact L2|]. intros a. rewrite (D2 a), (D1 a). cbn [wsum]. destruct (lit_true a l); lia.
Qed.
Lemma con_row_spec n p : fits (N.of_nat n) (p_lits p) -> exists r, con_row n p = Some r /\ List.length (fst r) = n /\ forall a, row_holds a r <-> pb_holds a p.
Proof.
  intros Hf. unfold con_row. destruct (con_steps (p_lits p) n Hf (repeat 0%Z n) (p_b p) (repeat_length _ _)) as (cs & b & E & L & D). rewrite E. cbn [obind fst snd].
  eexists. split; [reflexivity|]. split; [exact L|]. intros a. specialize (D a). rewrite dot_zeros in D. unfold row_holds, pb_holds, op_code. destruct (p_kind p); cbn [Z.eqb Pos.eqb]; lia.
Qed.
Section Orders.
Variables (lord : list (lit * nat) -> list (lit * nat)) (cord : list (clause * nat) -> list (clause * nat)).
Hypothesis Hord : orders lord cord.
Lemma obj_row_spec n o : obj_cls o = [] -> fits (N.of_nat n) (obj_lits o) -> exists r, obj_row lord (S n) o = Some r /\ List.length r = S n /\
  forall a, a (N.of_nat n) = true -> dot a 0 r = obj_value a o.
Proof.
  intros Hc Hf. unfold obj_row. pose proof (iter_soft_lits_spec lord cord Hord o) as Hi. destruct (iter_soft_lits lord o) as [ls|u] eqn:Ei.
  - destruct Hi as [_ P]. assert (Hf' : fits (N.of_nat n) ls) by (intros l w H; apply Hf; exact (Permutation_in _ P H)).
    destruct (obj_steps ls n Hf' (repeat 0%Z (S n)) (repeat_length _ _)) as (c1 & E1 & L1 & D1). rewrite E1. cbn [obind]. destruct (add_last_spec c1 (obj_offset o) n L1) as (c2 & E2 & L2 & D2).
    exists c2. split; [exact E2|]. split; [exact L2|]. intros a Ha. rewrite (D2 a), (D1 a Ha), Ha, dot_zeros, <- (iter_soft_lits_value lord cord Hord o ls Ei a). lia.
  - exfalso. now apply Hi.
Qed.
End Orders.

(** ** Text *)

Lemma words_from_nl a : forall cur b, words_from cur (a ++ nl :: b) = words_from cur a ++ words b.
Proof.
  induction a as [|c a IH]; intros cur b; cbn [app words_from].
  - change (is_white nl) with true. cbn match. destruct cur; reflexivity.
  - destruct (is_white c); [destruct cur; [apply IH|cbn [app]; now rewrite IH]|apply IH].
Qed.
Lemma words_line x t : words (line x ++ t) = words x ++ words t.
Proof. unfold line. rewrite <- app_assoc. cbn [app]. apply words_from_nl. Qed.
Lemma words_lines {X} (f : X -> text) xs t : words (List.concat (map (fun x => line (f x)) xs) ++ t) = flat_map (fun x => words (f x)) xs ++ words t.
Proof. induction xs as [|x xs IH]; [reflexivity|]. cbn [map List.concat flat_map]. now rewrite <- app_assoc, words_line, IH, app_assoc. Qed.
Lemma words_spaced xs : Forall tok xs -> words (spaced xs) = xs.
Proof.
  intros H. assert (F : Forall2 wd xs (map (fun x => [x]) xs)) by (induction H; cbn [map]; constructor; [now apply wd_tok|assumption]).
  apply wd_spaced in F as [_ F]. rewrite F. clear. induction xs as [|x xs IH]; [reflexivity|]. cbn [map List.concat app]. now rewrite IH.
Qed.
Lemma words_ints zs : words (ints zs) = map print_Z zs.
Proof. apply words_spaced. apply Forall_forall. intros w H. apply in_map_iff in H as (z & <- & _). apply print_Z_tok. Qed.

Lemma take_ints_print zs r : take_ints (List.length zs) (map print_Z zs ++ r) = Some (zs, r).
Proof. induction zs as [|z zs IH]; [reflexivity|]. cbn [List.length map app take_ints]. now rewrite read_int_print, IH. Qed.
Lemma take_ints_n n zs r : List.length zs = n -> take_ints n (map print_Z zs ++ r) = Some (zs, r).
Proof. intros <-. apply take_ints_print. Qed.
Lemma take_rows_print n rows r : Forall (fun row => List.length row = n) rows -> take_rows (List.length rows) n (flat_map (map print_Z) rows ++ r) = Some (rows, r).
Proof. induction 1 as [|row rows H _ IH]; [reflexivity|]. cbn [List.length flat_map take_rows]. rewrite <- app_assoc, (take_ints_n n row _ H), IH. reflexivity. Qed.
Lemma take_words_repeat s n r : text_eqb s s = true -> take_words n s (repeat s n ++ r) = Some r.
Proof. intros H. induction n as [|n IH]; [destruct r; reflexivity|]. cbn [repeat app take_words]. now rewrite H. Qed.
Lemma pairs_flat (rs : list (Z * Z)) : pairs (flat_map (fun r => [fst r; snd r]) rs) = rs.
Proof. induction rs as [|[x y] rs IH]; [reflexivity|]. cbn [flat_map app pairs fst snd]. now rewrite IH. Qed.
Lemma combine_split {X Y} (xs : list (X * Y)) : combine (map fst xs) (map snd xs) = xs.
Proof. induction xs as [|[x y] xs IH]; [reflexivity|]. cbn [map combine fst snd]. now rewrite IH. Qed.

Definition ilp_text (nz : bool) (n : nat) (rows : list (list Z)) (crows : list (list Z * (Z * Z))) (said : list nat) (m k : nat) : text :=
  line (ints (map Z.of_nat ([n; m; k] ++ said))) ++ line [] ++
  (if nz then [] else line (spaced (repeat (T "minsum") k)) ++ line []) ++
  List.concat (map (fun r => line (ints r)) rows) ++ line [] ++
  List.concat (map (fun r => line (ints (fst r))) crows) ++ line [] ++
  List.concat (map (fun r => line (ints [fst (snd r); snd (snd r)])) crows) ++
  (if nz then [] else line [] ++ line (ints (repeat 0%Z n)) ++ line (ints (repeat 1%Z n))).
Lemma flat_map_ext' {X Y} (f g : X -> list Y) xs : (forall x, f x = g x) -> flat_map f xs = flat_map g xs.
Proof. intros H. induction xs as [|x xs IH]; [reflexivity|]. cbn [flat_map]. now rewrite H, IH. Qed.
Lemma map_repeat' {X Y} (f : X -> Y) x n : map f (repeat x n) = repeat (f x) n.
Proof. induction n as [|n IH]; [reflexivity|]. cbn [repeat map]. now rewrite IH. Qed.
Lemma words_ilp nz n rows crows said m k : words (ilp_text nz n rows crows said m k) =
  map print_Z (map Z.of_nat ([n; m; k] ++ said)) ++ (if nz then [] else repeat (T "minsum") k) ++ flat_map (map print_Z) rows ++ flat_map (map print_Z) (map fst crows) ++
  map print_Z (flat_map (fun r => [fst r; snd r]) (map snd crows)) ++ (if nz then [] else repeat (T "0") n ++ repeat (T "1") n).
Proof.
  assert (Hm : words (spaced (repeat (T "minsum") k)) = repeat (T "minsum") k) by (apply words_spaced, Forall_forall; intros w H; apply repeat_spec in H as ->; now apply tokb_tok).
  unfold ilp_text. rewrite words_line, words_ints. f_equal. rewrite words_line. cbn [app].
  assert (Hrest : forall r, words (List.concat (map (fun r => line (ints r)) rows) ++ line [] ++ List.concat (map (fun r => line (ints (fst r))) crows) ++ line [] ++ List.concat (map (fun r => line (ints [fst (snd r); snd (snd r)])) crows) ++ r) =
    flat_map (map print_Z) rows ++ flat_map (map print_Z) (map fst crows) ++ map print_Z (flat_map (fun r => [fst r; snd r]) (map snd crows)) ++ words r).
  { intros r. rewrite (words_lines ints), words_line, (words_lines (fun r => ints (fst r))), words_line, (words_lines (fun r => ints [fst (snd r); snd (snd r)])). cbn [app].
    rewrite (flat_map_ext' _ (map print_Z) rows words_ints). change (words []) with (@nil text). cbn [app]. f_equal. rewrite (flat_map_ext' _ _ crows (fun r => words_ints (fst r))). 
    rewrite (flat_map_ext' _ _ crows (fun r => words_ints [fst (snd r); snd (snd r)])). clear. f_equal; [induction crows as [|c cs IH]; [reflexivity|]; cbn [flat_map map]; now rewrite IH|]. f_equal.
    induction crows as [|c cs IH]; [reflexivity|]. cbn [flat_map map app] in *. now rewrite IH. }
  destruct nz.
  - rewrite !app_nil_l. rewrite Hrest. reflexivity.
  - rewrite <- !app_assoc. rewrite words_line, words_line, Hm, Hrest. change (words []) with (@nil text). cbn [app]. do 4 f_equal.
    rewrite words_line, words_line, words_ints. rewrite <- (app_nil_r (line (ints (repeat 1%Z n)))), words_line, words_ints. change (words []) with (@nil text). now rewrite !map_repeat', app_nil_r.
Qed.
Lemma read_written nz n rows crows x y : Forall (fun r => List.length r = n) rows -> Forall (fun r => List.length (fst r) = n) crows ->
  read_ilp nz (ilp_text nz n rows crows (if nz then [x; y] else []) (List.length crows) (List.length rows)) = Some (mkIlp n rows crows (if nz then Some (x, y) else None)).
Proof.
  intros Hr Hc. unfold read_ilp. rewrite words_ilp.
  assert (Hc' : Forall (fun r => List.length r = n) (map fst crows)) by (clear - Hc; induction Hc; cbn [map]; constructor; auto).
  assert (Hrhs : List.length (flat_map (fun r => [fst r; snd r]) (map snd crows)) = (2 * List.length crows)%nat) by (clear; induction crows as [|c cs IH]; [reflexivity|]; cbn [map flat_map app List.length]; lia).
  assert (Hneg : forall zs, existsb (fun z => (z <? 0)%Z) (map Z.of_nat zs) = false).
  { induction zs as [|z zs IH]; [reflexivity|]. cbn [map existsb]. rewrite IH. destruct (Z.ltb_spec (Z.of_nat z) 0); [lia|reflexivity]. }
  rewrite take_ints_n by now destruct nz. cbn [map app].
  change (Z.of_nat n :: Z.of_nat (List.length crows) :: Z.of_nat (List.length rows) :: map Z.of_nat (if nz then [x; y] else [])) with (map Z.of_nat ([n; List.length crows; List.length rows] ++ (if nz then [x; y] else []))).
  rewrite Hneg, !Nat2Z.id. destruct nz.
  - rewrite app_nil_l, (take_rows_print n rows _ Hr). rewrite <- (map_length fst crows) at 1. rewrite (take_rows_print n _ _ Hc'), (take_ints_n _ _ _ Hrhs), pairs_flat, combine_split. cbn [map]. now rewrite !Nat2Z.id.
  - rewrite (take_words_repeat (T "minsum")) by reflexivity. rewrite (take_rows_print n rows _ Hr). rewrite <- (map_length fst crows) at 1. rewrite (take_rows_print n _ _ Hc'), (take_ints_n _ _ _ Hrhs), pairs_flat, combine_split.
    rewrite (take_words_repeat (T "0")) by reflexivity. rewrite <- (app_nil_r (repeat (T "1") n)), (take_words_repeat (T "1")) by reflexivity. reflexivity.
Qed.

(** ** Conversion *)

Section Orders2.
Variables (lord : list (lit * nat) -> list (lit * nat)) (cord : list (clause * nat) -> list (clause * nat)).
Hypothesis Hord : orders lord cord.

Lemma relax_lits_weight es : forall n l w, In (l, w) (relax_lits es n) -> exists c, In (c, w) es.
Proof. induction es as [|[c w'] es IH]; intros n l w H; [destruct H|]. cbn [relax_lits] in H. destruct H as [H|H]; [injection H as _ <-; exists c; now left|]. destruct (IH _ _ _ H) as [c' Hc]. exists c'. now right. Qed.
Definition obj_small (o : obj) : Prop := (forall l w, In (l, w) (obj_lits o) -> (Z.of_nat w <= isize_max)%Z) /\ (forall c w, In (c, w) (obj_cls o) -> (Z.of_nat w <= isize_max)%Z).
Lemma conv_all_spec obs : forall n, (forall o, In o obs -> obj_wf o /\ obj_nonempty o /\ lits_below n (obj_vars o) /\ obj_small o) ->
  exists obs' h n', conv_all cord obs n = Some (obs', h, n') /\ (n <= n')%N /\ cnf_below n' h /\ Forall (fun o => obj_cls o = [] /\ fits n' (obj_lits o)) obs' /\
    (forall a, sat_cnf a h = true -> Forall2 (fun o o' => obj_value a o <= obj_value a o')%Z obs obs') /\
    (forall a, exists a', changes_only n n' a a' /\ sat_cnf a' h = true /\ Forall2 (fun o o' => obj_value a' o' = obj_value a o) obs obs').
Proof.
  induction obs as [|o obs IH]; intros n Hos.
  - exists [], [], n. split; [reflexivity|]. split; [lia|]. split; [intros d []|]. split; [constructor|]. split; [constructor|]. intros a. exists a. split; [intros v _; reflexivity|]. split; [reflexivity|constructor].
  - destruct (Hos o (or_introl eq_refl)) as (W & Hne & Hb & Hs1 & Hs2). destruct (convert_spec lord cord Hord o n W Hne Hb) as (o1 & h1 & n1 & E1 & N1 & W1 & C1 & B1 & V1 & [R1 R2] & es & P1 & P2 & _).
    destruct (IH n1) as (obs2 & h2 & n2 & E2 & N2 & B2 & F2 & S2 & X2).
    { intros o' Ho'. destruct (Hos o' (or_intror Ho')) as (W' & Hne' & Hb' & Hs'). split; [exact W'|]. split; [exact Hne'|]. split; [|exact Hs']. intros l Hl. specialize (Hb' l Hl). lia. }
    assert (Hb1 : cnf_below n1 h1).
    { intros d Hd l Hl. destruct (V1 d l Hd Hl) as [H|H]; [|lia]. apply in_map_iff in H as (l' & <- & Hl'). specialize (Hb l' Hl'). lia. }
    exists (o1 :: obs2), (h1 ++ h2), n2. cbn [conv_all]. rewrite E1. cbn [obind]. rewrite E2. cbn [obind]. split; [reflexivity|]. split; [lia|].
    split; [intros d Hd l Hl; apply in_app_iff in Hd as [Hd|Hd]; [specialize (Hb1 d Hd l Hl); lia|now apply (B2 d)]|]. split; [|split].
    + constructor; [|exact F2]. split; [exact C1|]. intros l w Hin. split; [specialize (B1 l (vars_lit o1 l w Hin)); lia|]. apply (Permutation_in _ P2) in Hin. apply in_app_iff in Hin as [Hin|Hin]; [now apply (Hs1 l)|].
      destruct (relax_lits_weight _ _ _ _ Hin) as [c Hc]. apply (Hs2 c). exact (Permutation_in _ P1 Hc).
    + intros a Ha. rewrite sat_cnf_app in Ha. apply andb_true_iff in Ha as [Ha1 Ha2]. constructor; [now apply R2|now apply S2].
    + intros a. destruct (R1 a) as (a1 & Ca1 & Sa1 & Va1). destruct (X2 a1) as (a2 & Ca2 & Sa2 & Va2). exists a2. split; [|split].
      * intros v Hv. rewrite Ca2, Ca1 by lia. reflexivity.
      * rewrite sat_cnf_app, Sa2, andb_true_r. now rewrite (sat_cnf_changes n1 n2 a1 a2 h1).
      * constructor; [rewrite <- Va1; exact (value_changes n1 n2 a1 a2 o1 B1 Ca2)|].
        clear - Va2 Ca1 Hos. induction Va2 as [|o' s os ss H _ IH']; constructor; [|apply IH'; intros o2 [<-|H2]; apply Hos; [now left|right; now right]]. rewrite H.
        destruct (Hos o' (or_intror (or_introl eq_refl))) as (_ & _ & G & _). exact (value_changes _ _ _ _ _ G Ca1).
Qed.

Lemma unit_lits c : forall k b, p_lits (pb_new k (map (fun l => (l, 1%Z)) c) b) = map (fun l => (l, 1%nat)) c.
Proof.
  induction c as [|l c IH]; intros k b; [reflexivity|]. specialize (IH k b). unfold pb_new in *. cbn [map convert_input_lits].
  destruct (convert_input_lits (map (fun l0 => (l0, 1%Z)) c)) as [[r s] badd]. cbn [p_lits] in IH. subst r. reflexivity.
Qed.
Lemma fits_units B ls : (forall l, In l ls -> (lvar l < B)%N) -> fits B (map (fun l => (l, 1%nat)) ls).
Proof. intros H l w Hin. apply in_map_iff in Hin as (l' & E & Hl). injection E as <- <-. split; [now apply H|]. change isize_max with 9223372036854775807%Z. lia. Qed.

Lemma write_ilp_spec nz p : inst_known (mo_constrs p) -> (forall o, In o (mo_objs p) -> obj_wf o /\ obj_nonempty o) -> small_weights p ->
  exists t I, write_ilp lord cord nz p = Some t /\ read_ilp nz t = Some I /\
    stands_for (opt_var (mo_constrs p) (mo_objs p)) (fun a => inst_holds a (mo_constrs p)) (fun a => map (obj_value a) (mo_objs p)) (fun a => ilp_holds a I) (ilp_costs I) (map (fun _ => 0%Z) (mo_objs p)).
Proof.
  intros Hk Hw [Hs1 Hs2]. unfold write_ilp. destruct (mopt_decompose p) as [c obs] eqn:E. destruct (m_decompose_known p c obs Hk E) as (-> & K1 & K2 & K3).
  assert (Ec : i_pbs c = i_pbs (mo_constrs p) /\ i_cards c = i_cards (mo_constrs p) /\ i_cnf c = i_cnf (mo_constrs p)) by (unfold mopt_decompose in E; injection E as <-; auto). destruct Ec as (Ec & _ & _).
  unfold into_pbs at 1. set (n1 := fst (next_increase (objs_max (mo_objs p) + 1) (i_next c))). assert (Hn1 : (i_next c <= n1)%N) by (subst n1; rewrite next_increase_eq; lia).
  destruct (conv_all_spec (mo_objs p) n1) as (obs' & h & n2 & E2 & N2 & B2 & F2 & S2 & X2).
  { intros o Ho. destruct (Hw o Ho) as [W Hne]. split; [exact W|]. split; [exact Hne|]. split; [intros l Hl; specialize (K2 o Ho l Hl); lia|exact (Hs2 o Ho)]. }
  rewrite E2. cbn [obind].
  set (pbs := (i_pbs c ++ map pb_of_card (i_cards c) ++ map pb_of_clause (i_cnf c)) ++ map pb_of_clause h ++ [pb_new_lb [(pos n2, 1%Z)] 1]).
  replace (N.to_nat (n2 + 1)) with (S (N.to_nat n2)) by lia. set (n := N.to_nat n2). assert (En : N.of_nat n = n2) by (subst n; lia).
  assert (Hrows : exists rows, mapM (obj_row lord (S n)) obs' = Some rows /\ Forall2 (fun o r => List.length r = S n /\ forall a, a n2 = true -> dot a 0 r = obj_value a o) obs' rows).
  { apply mapM_forall2. intros o Ho. rewrite Forall_forall in F2. destruct (F2 o Ho) as [C F]. rewrite <- En in F |- *. now apply (obj_row_spec lord cord Hord). }
  destruct Hrows as (rows & Er & Fr).
  assert (Hcrows : exists crows, mapM (con_row (S n)) pbs = Some crows /\ Forall2 (fun q r => List.length (fst r) = S n /\ forall a, row_holds a r <-> pb_holds a q) pbs crows).
  { apply mapM_forall2. intros q Hq. apply con_row_spec. replace (N.of_nat (S n)) with (n2 + 1)%N by lia. subst pbs.
    assert (Hil : forall l, In l (inst_lits c) -> (lvar l < n2 + 1)%N) by (intros l Hl; specialize (K1 l Hl); lia).
    rewrite !in_app_iff in Hq. destruct Hq as [[Hq|[Hq|Hq]]|[Hq|[<-|[]]]].
    - intros l w Hin. split; [apply Hil; exact (inst_lits_pb c q l w Hq Hin)|]. rewrite Ec in Hq. exact (Hs1 q l w Hq Hin).
    - apply in_map_iff in Hq as (d & <- & Hd). unfold pb_of_card. rewrite unit_lits. apply fits_units. intros l Hl. apply Hil. exact (inst_lits_card c d l Hd Hl).
    - apply in_map_iff in Hq as (d & <- & Hd). unfold pb_of_clause, pb_new_lb. rewrite unit_lits. apply fits_units. intros l Hl. apply Hil. exact (inst_lits_cnf c d l Hd Hl).
    - apply in_map_iff in Hq as (d & <- & Hd). unfold pb_of_clause, pb_new_lb. rewrite unit_lits. apply fits_units. intros l Hl. specialize (B2 d Hd l Hl). lia.
    - change (p_lits (pb_new_lb [(pos n2, 1%Z)] 1)) with (map (fun l => (l, 1%nat)) [pos n2]). apply fits_units. intros l [<-|[]]. cbn. lia. }
  destruct Hcrows as (crows & Ecr & Fcr). rewrite Er. cbn [obind]. rewrite Ecr. cbn [obind].
  set (x := list_sum (map (fun q => List.length (p_lits q)) pbs)). set (y := list_sum (map obj_n_softs obs')).
  assert (Lr : List.length rows = List.length obs') by (clear - Fr; induction Fr; cbn [List.length]; congruence). assert (Lc : List.length crows = List.length pbs) by (clear - Fcr; induction Fcr; cbn [List.length]; congruence).
  assert (G1 : Forall (fun r => List.length r = S n) rows) by (clear - Fr; induction Fr as [|? ? ? ? [H _]]; constructor; assumption).
  assert (G2 : Forall (fun r => List.length (fst r) = S n) crows) by (clear - Fcr; induction Fcr as [|? ? ? ? [H _]]; constructor; assumption).
  eexists. exists (mkIlp (S n) rows crows (if nz then Some (x, y) else None)). split; [reflexivity|]. split.
  { rewrite <- (read_written nz (S n) rows crows x y G1 G2). f_equal. unfold ilp_text. rewrite Lr, Lc. f_equal. f_equal. f_equal. destruct nz; [reflexivity|]. do 2 f_equal. clear. induction obs' as [|o os IH]; [reflexivity|]. cbn [map List.length repeat spaced]. destruct os; cbn [map List.length repeat spaced] in *; congruence. }
  assert (Hh : forall a, ilp_holds a (mkIlp (S n) rows crows (if nz then Some (x, y) else None)) <-> inst_holds a (mo_constrs p) /\ sat_cnf a h = true /\ a n2 = true).
  { intros a. unfold ilp_holds. cbn [il_rows]. rewrite <- (K3 a), into_pbs_holds. cbn [into_pbs fst].
    assert (Hp : Forall (row_holds a) crows <-> forall q, In q pbs -> pb_holds a q).
    { clear - Fcr. induction Fcr as [|q r qs rs [_ H] _ IH]; [split; [intros _ q []|constructor]|]. split.
      - intros F. inversion F as [|? ? F1 F2]; subst. intros q' [<-|Hq]; [now apply H|now apply IH].
      - intros F. constructor; [apply H, F; now left|apply IH; intros q' Hq; apply F; now right]. }
    rewrite Hp. subst pbs. split.
    - intros H. split; [intros q Hq; apply H, in_app_iff; now left|]. split.
      + apply sat_cnf_true. intros d Hd. apply pb_of_clause_sound, H. rewrite !in_app_iff. right. left. now apply in_map.
      + assert (Hq : pb_holds a (pb_new_lb [(pos n2, 1%Z)] 1)) by (apply H; rewrite !in_app_iff; right; right; now left). unfold pb_holds in Hq. cbn in Hq. unfold lit_true in Hq. cbn in Hq. destruct (a n2); [reflexivity|cbn in Hq; lia].
    - intros (H1 & H2 & H3) q Hq. apply in_app_iff in Hq as [Hq|Hq]; [now apply H1|]. apply in_app_iff in Hq as [Hq|[<-|[]]].
      + apply in_map_iff in Hq as (d & <- & Hd). apply pb_of_clause_sound. rewrite sat_cnf_true in H2. now apply H2.
      + unfold pb_holds. cbn. unfold lit_true. cbn. rewrite H3. cbn. lia. }
  assert (Hcost : forall a, a n2 = true -> ilp_costs (mkIlp (S n) rows crows (if nz then Some (x, y) else None)) a = map (obj_value a) obs').
  { intros a Ha. unfold ilp_costs. cbn [il_costs]. clear - Fr Ha. induction Fr as [|o r os rs [_ H] _ IH]; [reflexivity|]. cbn [map]. now rewrite (H a Ha), IH. }
  split.
  - intros a Ha. apply Hh in Ha as (H1 & H2 & H3). split; [exact H1|]. rewrite (Hcost a H3). specialize (S2 a H2). clear - S2. unfold shifted.
    induction S2 as [|o o' os os' H _ IH]; [constructor|]. cbn [map combine fst snd]. constructor; [lia|exact IH].
  - intros a Ha. destruct (X2 a) as (a1 & C1 & Sa1 & V1). set (a2 := fun v => if (v =? n2)%N then true else a1 v). assert (C2 : changes_only n2 (n2 + 1) a1 a2) by (intros v Hv; subst a2; cbn beta; now destruct (N.eqb_spec v n2); [lia|]).
    assert (Hsame : forall v, (v < n1)%N -> a2 v = a v) by (intros v Hv; rewrite C2 by lia; apply C1; lia).
    assert (Hko : forall v, opt_var (mo_constrs p) (mo_objs p) v -> (v < n1)%N).
    { intros v [(l & Hl & <-)|(o & Ho & Hv)].
      - assert (Hlc : In l (inst_lits c)) by (unfold mopt_decompose in E; injection E as <-; exact Hl). specialize (K1 l Hlc). lia.
      - apply in_map_iff in Hv as (l & <- & Hl). specialize (K2 o Ho l Hl). lia. }
    exists a2. split; [intros v Hv; apply Hsame, Hko, Hv|]. assert (Ha2 : a2 n2 = true) by (subst a2; cbn beta; now rewrite N.eqb_refl). split.
    + apply Hh. split; [|split; [|exact Ha2]].
      * apply (holds_agree a); [|exact Ha]. intros v Hv. symmetry. apply Hsame, Hko. now left.
      * now rewrite (sat_cnf_changes n2 (n2 + 1) a1 a2 h B2 C2).
    + rewrite (Hcost a2 Ha2). clear - V1 F2 C2. unfold shifted. induction V1 as [|o o' os os' H _ IH]; [reflexivity|]. inversion F2 as [|? ? [Fc Ff] F2']; subst. cbn [map combine fst snd]. rewrite (IH F2'). f_equal.
      rewrite <- H. replace (obj_value a2 o') with (obj_value a1 o'); [lia|]. apply value_agree. intros l Hl. symmetry. apply C2. left. unfold obj_vars in Hl. rewrite Fc in Hl. cbn [map List.concat] in Hl. rewrite app_nil_r in Hl.
      apply in_map_iff in Hl as ([l' w] & <- & Hl). exact (proj1 (Ff l' w Hl)).
Qed.
End Orders2.
