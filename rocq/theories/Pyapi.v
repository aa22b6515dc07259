(** * Model of the Python bindings: [pyapi/src/types.rs], [pyapi/src/instances.rs]

    Objects are values; references to one object from several iterators are positions in a list. That PyO3 converts
    arguments and results between Python and Rust is not modelled. Python looks up [xs[i]] with the mapping protocol first, which
    PyO3 fills for [__getitem__] and which passes [i] as it is; the comment of the code expects that the length was added to
    negative indices, as the sequence protocol does. Both are covered: [adj] says whether it was. *)

From Coq Require Import List Bool NArith ZArith.
From Verif Require Import Spec Types Base Constraints VarMan NodeDb PySpec.
Import ListNotations.

Definition usize_size : Z := 18446744073709551616.
(** [z as usize] for an [isize] *)
Definition as_usize (z : Z) : Z := if (z <? 0)%Z then (z + usize_size)%Z else z.

(** [(cur..stop).step_by(step).map(|idx| xs[idx])]; an index outside of the sequence panics. The first argument bounds the
    number of steps: after as many steps as there are elements the index is outside. *)
Fixpoint walk {X} (fuel : nat) (xs : list X) (cur stop step : Z) : option (list X) :=
  match fuel with
  | O => Some []
  | S n => if (cur <? stop)%Z then
             if (Z.of_nat (length xs) <=? cur)%Z then None else
             do x <- nth_error xs (Z.to_nat cur);
             if (usize_size <=? cur + step)%Z then Some [x] else do r <- walk n xs (cur + step) stop step; Some (x :: r)
           else Some []
  end.
(** pyapi/src/types.rs:155-176 [Clause::__getitem__], pyapi/src/instances.rs:146-170 [Cnf::__getitem__]; [dbg]: built with
    debug assertions; [adj]: the length was added to negative indices before *)
Definition getitem {X} (adj dbg : bool) (xs : list X) (key : pykey) : pyout X :=
  match key with
  | KInt i0 =>
      let i := (if adj && (i0 <? 0) then i0 + Z.of_nat (length xs) else i0)%Z in
      if ((i32_min <=? i) && (i <=? i32_max))%Z then
        if (i <? 0)%Z then PyPanic else if (Z.of_nat (length xs) <=? i)%Z then PyPanic else
        match nth_error xs (Z.to_nat i) with Some x => PyOne x | None => PyPanic end
      else PyTypeError
  | KSlice start stop step =>
      match slice_indices (Z.of_nat (length xs)) start stop step with
      | None => PyValueError
      | Some (i, j, k) =>
          if dbg && ((i <? 0) || (j <? 0) || (k <? 0))%Z then PyPanic
          else match walk (S (length xs)) xs (as_usize i) (as_usize j) (as_usize k) with Some ys => PyMany ys | None => PyPanic end
      end
  | KOther => PyTypeError
  end.

(** ** Objects and their iterators *)

Section Objects.
(** the modifying methods: new contents, and whether the flag [modified] is set *)
Context {X Op : Type} (method : Op -> list X -> list X * bool).
Record pobj : Type := mkPobj { po_xs : list X; po_modified : bool; po_its : list nat }.
(** types.rs:178-184 [__iter__], 214-228 [ClauseIter::__next__]; instances.rs:246-252, 275-288 *)
Definition pobj_step (s : pobj) (o : seqop Op) : option (pobj * option (pyout X)) :=
  match o with
  | SModify m => let '(xs, fl) := method m (po_xs s) in Some (mkPobj xs (if fl then true else po_modified s) (po_its s), None)
  | SIter => Some (mkPobj (po_xs s) false (po_its s ++ [0]), None)
  | SNext k =>
      do i <- nth_error (po_its s) k;
      if po_modified s then Some (s, Some PyRuntimeError)
      else if (i <? length (po_xs s))%nat then
        do x <- nth_error (po_xs s) i; Some (mkPobj (po_xs s) (po_modified s) (set_nth k (S i) (po_its s)), Some (PyOne x))
      else Some (s, Some PyStop)
  end.
Fixpoint pobj_run (s : pobj) (os : list (seqop Op)) : option (list (pyout X)) :=
  match os with
  | [] => Some []
  | o :: os' => do r <- pobj_step s o; do rs <- pobj_run (fst r) os'; Some (match snd r with Some x => x :: rs | None => rs end)
  end.
End Objects.
Arguments mkPobj {X}. Arguments po_xs {X}. Arguments po_modified {X}. Arguments po_its {X}.

(** types.rs:116-135, 186-189: [add], [remove], [remove_thorough], [extend] of [Clause] *)
Inductive clause_op : Type := CAdd (l : lit) | CRemove (l : lit) | CRemoveAll (l : lit) | CExtend (ls : list lit).
Definition clause_method (o : clause_op) (c : clause) : clause * bool :=
  match o with
  | CAdd l => (c ++ [l], true)
  | CRemove l => (fst (clause_remove c l), true)
  | CRemoveAll l => (fst (clause_remove_thorough c l), true)
  | CExtend ls => (c ++ ls, false)
  end.
(** instances.rs:92-125, 172-244: all methods of [Cnf] that modify it append clauses *)
Definition cnf_method (cs : cnf) (f : cnf) : cnf * bool := (f ++ cs, true).

(** ** instances.rs:38-60 [VarManager] *)
Definition pvm_new (n_used : N) : option N := var_new n_used.
Definition pvm_increase (n_used : N) (s : N) : option (N * bool) := do v <- var_new n_used; Some (next_increase v s).
Definition pvm_new_var (s : N) : option (N * N) := do r <- next_new s; let '(v, s') := r in Some ((v + 1)%N, s').
Definition pvm_n_used (s : N) : N := s.
Fixpoint pvm_run (s : N) (os : list vmop) : option (list N * N) :=
  match os with
  | [] => Some ([], s)
  | VIncrease n :: os' => do r <- pvm_increase n s; pvm_run (fst r) os'
  | VNew :: os' => do r <- pvm_new_var s; do q <- pvm_run (snd r) os'; Some (fst r :: fst q, snd q)
  end.
