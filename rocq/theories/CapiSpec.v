(** * Specification of the C interface to the encodings: what a C program sees

    Literals are non-zero integers: [n] is the variable with index [n - 1], [-n] its negation. Clauses arrive at a callback one integer
    at a time, each clause followed by a zero. The program passes the number of variables in use and finds it increased by those the
    encoding took. *)

From Coq Require Import List Bool NArith ZArith.
From Verif Require Import Spec BoundSpec.
Import ListNotations.

Definition int_holds (a : asg) (x : Z) : bool := if (0 <? x)%Z then a (Z.to_N x - 1)%N else negb (a (Z.to_N (- x) - 1)%N).

(** reading what the callback received; [None] if the last clause is not complete *)
Fixpoint int_clauses (cur xs : list Z) : option (list (list Z)) :=
  match xs with
  | [] => match cur with [] => Some [] | _ => None end
  | x :: xs' => if (x =? 0)%Z then option_map (cons (rev cur)) (int_clauses [] xs') else int_clauses (x :: cur) xs'
  end.
Definition ints_hold (a : asg) (xs : list Z) : Prop :=
  exists cls, int_clauses [] xs = Some cls /\ forall c, In c cls -> exists x, In x c /\ int_holds a x = true.

(** the sum of the weights of the inputs that hold *)
Definition int_sum (a : asg) (ins : list (Z * nat)) : nat := list_sum (map (fun '(x, w) => if int_holds a x then w else 0) ins).
Definition int_total (ins : list (Z * nat)) : nat := list_sum (map snd ins).

Inductive code : Type := Fine | NotEncoded | Unsatisfiable | InvalidState | InvalidLiteral.
Inductive ccall : Type :=
| FAdd (x : Z) (w : nat) | FReserve | FEncodeUb (lo hi : nat) | FEncodeLb (lo hi : nat) | FEnforceUb (b : nat) | FEnforceLb (b : nat).
(** the code returned, the integers passed to the callback for clauses, the assumptions given back *)
Record creply : Type := mkReply { r_code : code; r_clauses : list Z; r_assumps : list Z }.

(** all that was observed: inputs accepted, number of variables in use, integers received, intervals of variables taken by the encoding *)
Record seen : Type := mkSeen { s_in : list (Z * nat); s_used : N; s_ints : list Z; s_own : list (N * N) }.
Definition see (w : seen) (c : ccall) (n : N) (r : creply) : seen :=
  mkSeen (match c, r_code r with FAdd x wt, Fine => s_in w ++ [(x, wt)] | _, _ => s_in w end)
    n (s_ints w ++ r_clauses r) ((s_used w, n) :: s_own w).

Definition c_int (x : Z) : Prop := (-2147483648 <= x <= 2147483647)%Z.

Section Histories.
(** the functions for one encoding: given the encoding and the number of variables in use; [None] is an abort *)
Context {S : Type} (F : S -> N -> ccall -> option (S * N * creply)) (init : S).
(** the interface has functions for lower bounds; the weights it is made for *)
Context (lower : bool) (wok : nat -> Prop).

(** the contract: ranges are not empty, inputs are variables in use that the encoding did not take; zero may be passed as a literal *)
Definition in_contract (w : seen) (c : ccall) : Prop :=
  match c with
  | FAdd x wt => c_int x /\ (x <> 0%Z -> wok wt /\ (Z.to_N (Z.abs x) <= s_used w)%N /\ ~ in_aux (s_own w) (Z.to_N (Z.abs x) - 1)%N)
  | FEncodeUb lo hi => lo <= hi
  | FEncodeLb lo hi => lower = true /\ lo <= hi
  | FEnforceLb _ => lower = true
  | _ => True
  end.

(** every program: it starts with some variables, takes more in between, and calls functions within their contract *)
Inductive chist : seen -> S -> Prop :=
| ch_new n : chist (mkSeen [] n [] []) init
| ch_vars w s k : chist w s -> chist (mkSeen (s_in w) (s_used w + k)%N (s_ints w) (s_own w)) s
| ch_call w s c s' n r : chist w s -> in_contract w c -> F s (s_used w) c = Some (s', n, r) -> chist (see w c n r) s'.
End Histories.
