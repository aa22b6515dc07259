(** * Property theorems: at-most-one encodings (C17-C23) *)

From Coq Require Import List Bool NArith ZArith Lia.
From Verif Require Import Spec Types Base Atomics Am1 Am1Spec Am1Proofs Am1Stats.
Import ListNotations.

(** [am1_correct] is the three-part statement: soundness, completeness on fresh variables, freshness. *)

Theorem C17_pairwise : am1_correct (am1_encode AmPairwise).
Proof. apply am1_correct_all. exact I. Qed.
Print Assumptions C17_pairwise.
Example C17_pairwise_ex :
  lits_below 3 [pos 0; negl 1; pos 2] /\
  am1_encode AmPairwise [pos 0; negl 1; pos 2] 3 = ([[negl 0; pos 1]; [negl 0; negl 2]; [pos 1; negl 2]], 3%N).
Proof. split; [|reflexivity]. intros l [<-|[<-|[<-|[]]]]; reflexivity. Qed.

Theorem C18_ladder : am1_correct (am1_encode AmLadder).
Proof. apply am1_correct_all. exact I. Qed.
Print Assumptions C18_ladder.
Example C18_ladder_ex :
  am1_encode AmLadder [pos 0; pos 1; pos 2] 3 =
  ([[negl 4; pos 3]; [negl 0; negl 3]; [negl 1; pos 3]; [negl 1; negl 4]; [negl 2; pos 4]], 5%N).
Proof. reflexivity. Qed.

Theorem C19_bitwise : am1_correct (am1_encode AmBitwise).
Proof. apply am1_correct_all. exact I. Qed.
Print Assumptions C19_bitwise.
Example C19_bitwise_ex :
  am1_encode AmBitwise [pos 0; pos 1; pos 2] 3 =
  ([[negl 0; negl 3]; [negl 0; negl 4]; [negl 1; pos 3]; [negl 1; negl 4]; [negl 2; negl 3]; [negl 2; pos 4]], 5%N).
Proof. reflexivity. Qed.

(** for every group size and every (arbitrarily nested) sub-encoding *)
Theorem C20_commander : forall n sub,
  (0 < n)%nat -> am1_params_ok sub -> am1_correct (am1_encode (AmCommander n sub)).
Proof. intros n sub Hn Hs. apply am1_correct_all. now split. Qed.
Print Assumptions C20_commander.
Example C20_commander_ex :
  am1_encode (AmCommander 2 AmPairwise) [pos 0; pos 1; pos 2] 3 =
  ([[negl 0; pos 3]; [negl 1; pos 3]; [negl 0; negl 1]; [negl 2; pos 4]; [negl 3; negl 4]], 5%N) /\
  am1_params_ok (AmCommander 2 (AmBimander 3 AmLadder)).
Proof. split; [reflexivity|]. cbn. lia. Qed.

Theorem C21_bimander : forall n sub,
  (0 < n)%nat -> am1_params_ok sub -> am1_correct (am1_encode (AmBimander n sub)).
Proof. intros n sub Hn Hs. apply am1_correct_all. now split. Qed.
Print Assumptions C21_bimander.
Example C21_bimander_ex :
  am1_encode (AmBimander 2 AmPairwise) [pos 0; pos 1; pos 2] 3 =
  ([[negl 0; negl 3]; [negl 1; negl 3]; [negl 0; negl 1]; [negl 2; pos 3]], 4%N).
Proof. reflexivity. Qed.

Theorem C22_twoproduct : forall sub, am1_params_ok sub -> am1_correct (am1_encode (AmTwoProduct sub)).
Proof. intros sub Hs. apply am1_correct_all. exact Hs. Qed.
Print Assumptions C22_twoproduct.
Example C22_twoproduct_ex :
  am1_encode (AmTwoProduct AmPairwise) [pos 0; pos 1; pos 2; pos 3] 4 =
  ([[negl 0; pos 4]; [negl 0; pos 6]; [negl 1; pos 4]; [negl 1; pos 7];
    [negl 2; pos 5]; [negl 2; pos 6]; [negl 3; pos 5]; [negl 3; pos 7];
    [negl 4; negl 5]; [negl 6; negl 7]], 8%N).
Proof. reflexivity. Qed.

(** ** C23: reported sizes, over every history of extending and encoding

    [am1_run] executes a history; its trace lists the clauses of each encode call. The reported number of
    variables is the number of variables taken from the manager by all the calls together; the reported number
    of clauses is that of the most recent call. *)
Theorem C23_sizes : forall k ls ops next o next' trace,
  am1_params_ok k ->
  am1_run k ops (am1_from ls) next = (o, next', trace) ->
  (next <= next')%N /\ am_n_vars o = (next' - next)%N /\
  am_n_clauses o = match trace with [] => 0%nat | _ => length (last trace []) end /\
  am_lits o = ls ++ am1_added ops.
Proof. exact am1_run_stats. Qed.
Print Assumptions C23_sizes.
Example C23_sizes_ex :
  am1_run AmLadder [AmEncode; AmExtend [pos 2]; AmEncode] (am1_from [pos 0; pos 1]) 3 =
  (mkAm1 [pos 0; pos 1; pos 2] 5 3, 6%N,
   [[[negl 0; negl 3]; [negl 1; pos 3]];
    [[negl 5; pos 4]; [negl 0; negl 4]; [negl 1; pos 4]; [negl 1; negl 5]; [negl 2; pos 5]]]).
Proof. reflexivity. Qed.
