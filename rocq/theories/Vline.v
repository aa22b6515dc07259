(** * Model of value lines ([src/types/mod.rs]) and solver output ([src/instances/fio/mod.rs]) *)

From Coq Require Import List Bool NArith ZArith Ascii String.
From Verif Require Import Spec Types Text Opb.
Import ListNotations.
Open Scope list_scope.
Open Scope char_scope.

(** src/types/mod.rs:790-812 [InvalidVLine]; the details of parsing errors are not modelled *)
Inductive verror : Type :=
| EmptyLine
| InvalidTag (c : ascii)
| InvalidNumber
| InvalidLit
| Conflicting (v : N)
| InvalidCharacter (c : ascii)
| InvalidOpbLit.
(** A result, or a panic *)
Inductive vres (A E : Type) : Type := VOk (x : A) | VErr (e : E) | VPanic.
Arguments VOk {A E}. Arguments VErr {A E}. Arguments VPanic {A E}.

(** src/types/mod.rs:1044-1051, 1084-1089: the check for conflicts and the assignment of a literal *)
Definition extend_lit (s : assignment) (l : lit) : vres assignment verror :=
  let val := lit_value s l in
  if tern_eqb val TTrue && lneg l || tern_eqb val TFalse && negb (lneg l) then VErr (Conflicting (lvar l))
  else match assign_lit s l with Some s' => VOk s' | None => VPanic end.

(** src/types/mod.rs:1033-1054 [extend_sat_comp_vline], on the words after the tag *)
Fixpoint extend_sat_comp (s : assignment) (ws : list text) : vres assignment verror :=
  match ws with
  | [] => VOk s
  | w :: r =>
      match str_parse_int i32_min i32_max w with
      | None => VErr InvalidNumber
      | Some z =>
          if (z =? 0)%Z then extend_sat_comp s r
          else match from_ipasir z with
               | None => VErr InvalidLit
               | Some l => match extend_lit s l with VOk s' => extend_sat_comp s' r | x => x end
               end
      end
  end.

(** src/types/mod.rs:1057-1068 [extend_maxsat_eval_vline], on the trimmed text after the tag *)
Fixpoint extend_maxsat_eval (s : assignment) (t : text) : vres assignment verror :=
  match t with
  | [] => VOk s
  | c :: r => if Ascii.eqb c "0" then extend_maxsat_eval (s ++ [TFalse]) r
              else if Ascii.eqb c "1" then extend_maxsat_eval (s ++ [TTrue]) r
              else VErr (InvalidCharacter c)
  end.

(** src/types/mod.rs:1071-1092 [extend_pb_comp_vline], on the words after the tag *)
Fixpoint extend_pb_comp (s : assignment) (ws : list text) : vres assignment verror :=
  match ws with
  | [] => VOk s
  | w :: r =>
      match parse_all (opb_literal opb_default) w with
      | ROk l => match extend_lit s l with VOk s' => extend_pb_comp s' r | x => x end
      | RErr => VErr InvalidOpbLit
      | RPanic => VPanic
      end
  end.

(** src/types/mod.rs:832-842 [VLineFormat], 992-1011: the format of the lines *)
Inductive vformat : Type := SatComp | MaxSatEval | PbComp.
Definition has_char (c : ascii) (t : text) : bool := existsb (Ascii.eqb c) t.
Definition vline_format (lines : text) : vformat :=
  if has_char "x" lines then PbComp
  else let t := trim (tl lines) in
       if negb (has_char " " t) && negb (text_eqb t (T "0")) && forallb (fun c => Ascii.eqb c "1" || Ascii.eqb c "0") t
       then MaxSatEval else SatComp.

(** src/types/mod.rs:1013-1028: one line *)
Definition extend_line (f : vformat) (s : assignment) (line : text) : vres assignment verror :=
  match line with
  | [] => VErr EmptyLine
  | c :: r =>
      if Ascii.eqb c "v" then
        match f with
        | SatComp => extend_sat_comp s (words r)
        | MaxSatEval => extend_maxsat_eval s (trim r)
        | PbComp => extend_pb_comp s (words r)
        end
      else VErr (InvalidTag c)
  end.
Fixpoint extend_lines (f : vformat) (s : assignment) (ls : list text) : vres assignment verror :=
  match ls with
  | [] => VOk s
  | l :: r => match extend_line f s l with VOk s' => extend_lines f s' r | x => x end
  end.
(** src/types/mod.rs:988-1030 [Assignment::extend_from_vline] *)
Definition extend_from_vline (s : assignment) (t : text) : vres assignment verror :=
  match t with [] => VErr EmptyLine | _ => extend_lines (vline_format t) s (lines t) end.
(** src/types/mod.rs:972-976 [Assignment::from_vline] *)
Definition from_vline (t : text) : vres assignment verror := extend_from_vline [] t.

(** src/instances/fio/mod.rs:192-199 [SolverOutput], 221-237 [SatSolverOutputError] *)
Inductive solver_output : Type := OutSat (s : assignment) | OutUnsat | OutUnknown.
Inductive output_error : Type := BadVLine (e : verror) | NoSLine | NoVLine | InvalidSLine.

(** src/instances/fio/mod.rs:244-285 [parse_sat_solver_output] on the lines of the output *)
Fixpoint parse_output_from (is_sat : bool) (solution : option assignment) (ls : list text) : vres solver_output output_error :=
  match ls with
  | [] => if negb is_sat then VErr NoSLine else match solution with Some s => VOk (OutSat s) | None => VErr NoVLine end
  | l :: r =>
      let with_v is_sat :=
        if starts_with (T "v ") l then
          match (match solution with Some s => extend_from_vline s l | None => from_vline l end) with
          | VOk s => parse_output_from is_sat (Some s) r
          | VErr e => VErr (BadVLine e)
          | VPanic => VPanic
          end
        else parse_output_from is_sat solution r in
      if starts_with (T "s ") l then
        let t := trim_start (tl l) in
        if starts_with (T "UNSATISFIABLE") t then VOk OutUnsat
        else if starts_with (T "UNKNOWN") t || starts_with (T "INDETERMINATE") t then VOk OutUnknown
        else if starts_with (T "SATISFIABLE") t then with_v true
        else VErr InvalidSLine
      else with_v is_sat
  end.
Definition parse_output (t : text) : vres solver_output output_error := parse_output_from false None (lines t).
