(** * Specification vocabulary for correlation clustering *)

From Coq Require Import List Bool NArith ZArith Ascii String Arith.
From Verif Require Import Spec Types OptSpec Text FioSpec Dimacs ToolSpec Bench BenchSpec.
Import ListNotations.
Open Scope list_scope.

(** ** The problem: similarities of named objects *)

(** Two names and a similarity value *)
Definition entry : Type := text * text * Z.
Definition mentioned (es : list entry) (x : text) : Prop := exists e, In e es /\ (fst (fst e) = x \/ snd (fst e) = x).
(** Each object once *)
Definition objects (es : list entry) (names : list text) : Prop := NoDup names /\ forall x, In x names <-> mentioned es x.
(** The entry is about the two objects *)
Definition about (e : entry) (x y : text) : bool := (text_eqb (fst (fst e)) x && text_eqb (snd (fst e)) y || text_eqb (fst (fst e)) y && text_eqb (snd (fst e)) x)%bool.
(** What is said about two objects: the last entry about them counts *)
Definition pair_sim (smap : Z -> similarity) (es : list entry) (x y : text) : similarity := fold_left (fun s e => if about e x y then smap (snd e) else s) es DontCare.

(** How a similarity value (less the offset) is to be taken: small values are ignored, large ones are constraints, the others are weights *)
Definition value_means (dont_care hard_threshold : nat) (v : Z) (s : similarity) : Prop :=
  match s with
  | DontCare => (Z.abs v < Z.of_nat dont_care)%Z
  | MustLink => (Z.of_nat dont_care <= Z.abs v /\ Z.of_nat hard_threshold < Z.abs v /\ 0 < v)%Z
  | CannotLink => (Z.of_nat dont_care <= Z.abs v /\ Z.of_nat hard_threshold < Z.abs v /\ v <= 0)%Z
  | Similar w => (Z.of_nat dont_care <= Z.abs v <= Z.of_nat hard_threshold /\ 0 < v /\ Z.of_nat w = v)%Z
  | DisSimilar w => (Z.of_nat dont_care <= Z.abs v <= Z.of_nat hard_threshold /\ v <= 0 /\ Z.of_nat w = - v)%Z
  end.

(** ** Clusterings give objects a number; objects with the same number are in one cluster *)

Definition valid_clustering (smap : Z -> similarity) (es : list entry) (f : text -> nat) : Prop :=
  forall x y, mentioned es x -> mentioned es y -> x <> y -> (pair_sim smap es x y = MustLink -> f x = f y) /\ (pair_sim smap es x y = CannotLink -> f x <> f y).
(** All pairs of elements *)
Fixpoint pairs_of {A} (xs : list A) : list (A * A) := match xs with [] => [] | x :: r => map (fun y => (x, y)) r ++ pairs_of r end.
(** The weights of similar objects in different clusters, and of dissimilar objects in one cluster *)
Definition apart_weight (s : similarity) (same : bool) : nat := match s, same with Similar w, false => w | _, _ => 0%nat end.
Definition together_weight (s : similarity) (same : bool) : nat := match s, same with DisSimilar w, true => w | _, _ => 0%nat end.
Definition apart_cost smap es names (f : text -> nat) : nat := list_sum (map (fun p => apart_weight (pair_sim smap es (fst p) (snd p)) (f (fst p) =? f (snd p))%nat) (pairs_of names)).
Definition together_cost smap es names (f : text -> nat) : nat := list_sum (map (fun p => together_weight (pair_sim smap es (fst p) (snd p)) (f (fst p) =? f (snd p))%nat) (pairs_of names)).

(** Clauses whose solutions are the clusterings, with the two costs as objectives *)
Definition clustering_clauses smap es names (items : list mitem) : Prop :=
  (n_objs items <= 2)%nat /\
  (forall a, sat_cnf a (hards items) = true -> exists f, valid_clustering smap es f /\ mcnf_costs 2 items a = [Z.of_nat (apart_cost smap es names f); Z.of_nat (together_cost smap es names f)]) /\
  (forall f, valid_clustering smap es f -> exists a, sat_cnf a (hards items) = true /\ mcnf_costs 2 items a = [Z.of_nat (apart_cost smap es names f); Z.of_nat (together_cost smap es names f)]).

(** ** The file: a line for each entry *)

Definition ident_text (x : text) : Prop := x <> [] /\ forallb is_ident x = true.
(** [Similar_thing thing_2 0.75]; what comes after the names and blanks is read as a number *)
Definition entry_text (number : text -> option Z) (e : entry) (t : text) : Prop :=
  exists sp1 sp2 v, ident_text (fst (fst e)) /\ blanks1 sp1 /\ ident_text (snd (fst e)) /\ blanks1 sp2 /\ number v = Some (snd e) /\
    (forall c r, v = c :: r -> is_multispace c = false) /\ t = fst (fst e) ++ sp1 ++ snd (fst e) ++ sp2 ++ v.
(** A comment starts with [%] *)
Definition cluster_line (number : text -> option Z) (d : option entry) (l : text) : Prop :=
  exists sp c, blanks sp /\ l = sp ++ c /\ one_line l /\ match d with Some e => entry_text number e c | None => c = [] \/ exists r, c = "%"%char :: r end.
Definition cluster_file (number : text -> option Z) (es : list entry) (t : text) : Prop :=
  exists ds ls, Forall2 (cluster_line number) ds ls /\ lines_of ls t /\ es = present ds.
