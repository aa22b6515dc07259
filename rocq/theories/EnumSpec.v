(** * Specification vocabulary for enumerating the solutions of a problem *)

From Coq Require Import List Bool NArith ZArith Ascii String.
From Verif Require Import Spec Types Text FioSpec Opb OpbSpec Tools ToolSpec CheckSpec.
Import ListNotations.
Open Scope list_scope.

(** The constraints of an OPB file are such that the encodings take them as they are (nothing in the other formats) *)
Definition plain_file (first : N) (fmt : format) (t : text) : Prop :=
  fmt = FOpb -> exists ss, opb_file first ss t /\ no_less ss /\ Forall checkable ss /\ Forall plain_stmt ss.

(** The assignments [sols] over the variables below [n] are an enumeration of the solutions [P] that ended with [e]; a variable without value
    stands for both values *)
Record enumeration (P : asg -> Prop) (n : N) (sols : list assignment) (e : estop) : Prop := {
  en_right : forall s a, In s sols -> completes a (pasg_of s) -> P a;
  en_once : forall i j s s' a, nth_error sols i = Some s -> nth_error sols j = Some s' -> completes a (pasg_of s) -> completes a (pasg_of s') -> i = j;
  en_vars : forall s v, In s sols -> (n <= v)%N -> pasg_of s v = None;
  en_bound : List.length sols <= 2 ^ N.to_nat n;
  en_all : e = EDone -> forall a, P a -> exists s, In s sols /\ completes a (pasg_of s)
}.
(** The assignment has a value for each variable below [n] *)
Definition total_below (n : N) (s : assignment) : Prop := exists bs, s = map tern_of_bool bs /\ List.length bs = N.to_nat n.
(** The lines for a solution: the values of the objectives, if there are any and they are wanted, and the values of the variables *)
Definition shown (values : bool) (s : assignment) (vs : list Z) : text :=
  (if values then match vs with [] => [] | _ => T "o" ++ flat_map (fun v => T " " ++ print_Z v) vs ++ [nl] end else []) ++ T "v " ++ show_assignment s ++ [nl].
