(** * Model of the at-most-one encodings of the Python bindings, [pyapi/src/encodings/am1.rs] *)

From Coq Require Import List Bool NArith.
From Verif Require Import Spec BoundSpec Types Am1.
Import ListNotations.

(** pyapi/src/encodings/am1.rs:61-119 the classes; the parameters of the first two are the defaults of
    src/encodings/am1/bimander.rs:29 and src/encodings/am1/commander.rs:29 *)
Inductive pyam1 : Type := PyBimander | PyBitwise | PyCommander | PyLadder | PyPairwise.
Definition pyam1_kind (k : pyam1) : am1_kind :=
  match k with
  | PyBimander => AmBimander 4 AmPairwise
  | PyBitwise => AmBitwise
  | PyCommander => AmCommander 4 AmPairwise
  | PyLadder => AmLadder
  | PyPairwise => AmPairwise
  end.

(** a program has objects of these classes and one variable manager, given by its next free variable *)
Record pyam1s : Type := mkPyAm1s { pa_next : N; pa_objs : list (pyam1 * am1_obj) }.

(** [ANew] makes an object, [AEncode i] encodes the [i]-th one, [ANewVars k] takes [k] variables for the program *)
Inductive acall : Type := ANew (k : pyam1) (ls : list lit) | AEncode (i : nat) | ANewVars (k : N).

Fixpoint set_obj {X} (i : nat) (x : X) (l : list X) : list X :=
  match l, i with [], _ => [] | _ :: l, O => x :: l | y :: l, S i => y :: set_obj i x l end.

(** pyapi/src/encodings/am1.rs:23-28 [__new__], 46-54 [encode]; the second component is the returned formula. Objects that the program does
    not have are [None]. *)
Definition pyam1_call (s : pyam1s) (c : acall) : option (pyam1s * cnf) :=
  match c with
  | ANew k ls => Some (mkPyAm1s (pa_next s) (pa_objs s ++ [(k, am1_from ls)]), [])
  | ANewVars k => Some (mkPyAm1s (pa_next s + k) (pa_objs s), [])
  | AEncode i =>
      match nth_error (pa_objs s) i with
      | None => None
      | Some (k, o) => let '(f, next, o') := am1_obj_encode (pyam1_kind k) o (pa_next s) in Some (mkPyAm1s next (set_obj i (k, o') (pa_objs s)), f)
      end
  end.

(** ** What a program sees: the literals of each object, the objects encoded so far, the intervals of variables used by the encodings and all
    clauses returned. Literals given to an object have allocated variables which are not those of an encoding. *)
Record aseen : Type := mkASeen { as_lits : list (list lit); as_done : list nat; as_own : list (N * N); as_F : cnf }.
Definition a_valid (s : pyam1s) (w : aseen) (c : acall) : Prop :=
  match c with ANew _ ls => forall l, In l ls -> (lvar l < pa_next s)%N /\ ~ in_aux (as_own w) (lvar l) | _ => True end.
Definition a_see (w : aseen) (c : acall) (n n' : N) (f : cnf) : aseen :=
  match c with
  | ANew _ ls => mkASeen (as_lits w ++ [ls]) (as_done w) (as_own w) (as_F w ++ f)
  | AEncode i => mkASeen (as_lits w) (i :: as_done w) ((n, n') :: as_own w) (as_F w ++ f)
  | ANewVars _ => mkASeen (as_lits w) (as_done w) (as_own w) (as_F w ++ f)
  end.
Inductive a_hist : aseen -> pyam1s -> Prop :=
  | ah_new n : a_hist (mkASeen [] [] [] []) (mkPyAm1s n [])
  | ah_call w s c s' f : a_hist w s -> a_valid s w c -> pyam1_call s c = Some (s', f) -> a_hist (a_see w c (pa_next s) (pa_next s') f) s'.

(** the encoded objects have at most one true literal each *)
Definition a_met (a : asg) (w : aseen) : Prop := forall i ls, In i (as_done w) -> nth_error (as_lits w) i = Some ls -> count_true a ls <= 1.
