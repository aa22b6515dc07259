(** * Specification of variable managers

    Histories of calls to a variable manager, with what the caller knows: which variables are in use, and which answers
    were given for the keys (variables to re-index, objects) looked up. *)

From Coq Require Import List Bool NArith.
Import ListNotations.

(** The interface [ManageVars] together with [from_next_free]; [None] is a panic. *)
Record manager (S : Type) : Type := mkManager {
  m_start : N -> S;
  m_new : S -> option (N * S);
  m_max : S -> option N;
  m_increase : N -> S -> S * bool;
  m_mark : N -> S -> option (S * bool);
  m_combine : S -> S -> S;
  m_n_used : S -> N;
  m_forget : N -> S -> S
}.
Arguments m_start {S}. Arguments m_new {S}. Arguments m_max {S}. Arguments m_increase {S}.
Arguments m_mark {S}. Arguments m_combine {S}. Arguments m_n_used {S}. Arguments m_forget {S}.

(** a set of variables *)
Definition vset : Type := N -> Prop.

Section History.
Context {K S : Type} (M : manager S) (look : K -> S -> option (N * S)) (keqb : K -> K -> bool).
(** which calls the histories may contain: any of [m_new], [m_increase], [m_mark]; [m_combine]; [m_forget] *)
Variables (takes combines forgets : bool).

(** [history L U s]: after some calls the manager is [s], the variables in use are those in [U], and [L] are the answers
    given that are still valid. An answer is no longer valid once its variable was forgotten, or once the manager was
    combined with another one that gave an answer for the same key. *)
Inductive history : list (K * N) -> vset -> S -> Prop :=
| h_start n : history [] (fun v => v < n)%N (m_start M n)
| h_new L U s v s' : takes = true -> history L U s -> m_new M s = Some (v, s') -> history L (fun u => U u \/ u = v) s'
| h_increase L U s v : takes = true -> history L U s -> history L (fun u => U u \/ u < v)%N (fst (m_increase M v s))
| h_mark L U s v s' b : takes = true -> history L U s -> m_mark M v s = Some (s', b) -> history L (fun u => U u \/ u <= v)%N s'
| h_look L U s k v s' : history L U s -> look k s = Some (v, s') -> history ((k, v) :: L) (fun u => U u \/ u = v) s'
| h_combine L U s L' U' s' : combines = true -> history L U s -> history L' U' s' ->
    history (L' ++ filter (fun kv => negb (existsb (fun kv' => keqb (fst kv') (fst kv)) L')) L) (fun u => U u \/ U' u) (m_combine M s s')
| h_forget L U s v : forgets = true -> history L U s -> history (filter (fun kv => (snd kv <? v)%N) L) (fun u => U u /\ u < v)%N (m_forget M v s).
End History.

(** What a variable manager guarantees: handed-out variables are new, the reported count and maximum are right, and
    growing is reported if and only if it happened. *)
Definition fresh_vars {S} (M : manager S) (U : vset) (s : S) : Prop :=
  (forall v s', m_new M s = Some (v, s') -> ~ U v /\ forall u, U u -> (u < v)%N) /\
  (forall v, U v <-> (v < m_n_used M s)%N) /\
  (forall m, m_max M s = Some m <-> U m /\ forall u, U u -> (u <= m)%N) /\
  (m_max M s = None <-> forall u, ~ U u) /\
  (forall v, snd (m_increase M v s) = true <-> exists u, (u < v)%N /\ ~ U u).

(** No variables: a manager without keys *)
Definition no_look {S} (k : Empty_set) (s : S) : option (N * S) := match k with end.
Definition no_eqb (k k' : Empty_set) : bool := true.
