(** * C82: encodings through the C interface *)

From Coq Require Import List Bool NArith ZArith Lia ZifyBool ZifyN ZifyNat.
From Verif Require Import Spec BoundSpec BoundExec Types Maps NodeDb Am1 Totalizer Gte CapiSpec Capi CapiProofs CapiInst.
Import ListNotations.

(** The functions [tot_*]: every input counts one. [tot_program w s]: some C program has used one totalizer within the contract and has
    seen [w]. *)
Definition tot_api : tot -> N -> ccall -> option (tot * N * creply) := capi totalizer (fun l _ => l) true.
Definition tot_program : seen -> tot -> Prop := chist tot_api tot_new true (fun w => w = 1%nat).

(** What the callback has received are complete clauses. Assumptions enforce their bounds under these clauses, and every assignment has
    a variant, changed on variables taken by the encoding only, that satisfies them and the assumptions of every bound that it meets. *)
Theorem C82_totalizer_bounds w s : tot_program w s ->
  (exists cls, int_clauses [] (s_ints w) = Some cls) /\
  (forall b s' n r a, tot_api s (s_used w) (FEnforceUb b) = Some (s', n, r) -> r_code r = Fine ->
    ints_hold a (s_ints w) -> forallb (int_holds a) (r_assumps r) = true -> (int_sum a (s_in w) <= b)%nat) /\
  (forall b s' n r a, tot_api s (s_used w) (FEnforceLb b) = Some (s', n, r) -> r_code r = Fine ->
    ints_hold a (s_ints w) -> forallb (int_holds a) (r_assumps r) = true -> (b <= int_sum a (s_in w))%nat) /\
  (forall a, exists a', (forall v, ~ in_aux (s_own w) v -> a' v = a v) /\ ints_hold a' (s_ints w) /\
    (forall b s' n r, tot_api s (s_used w) (FEnforceUb b) = Some (s', n, r) -> r_code r = Fine -> (int_sum a (s_in w) <= b)%nat -> forallb (int_holds a') (r_assumps r) = true) /\
    (forall b s' n r, tot_api s (s_used w) (FEnforceLb b) = Some (s', n, r) -> r_code r = Fine -> (b <= int_sum a (s_in w))%nat -> forallb (int_holds a') (r_assumps r) = true)).
Proof. exact (tot_capi_bounds w s). Qed.
Print Assumptions C82_totalizer_bounds.

(** No call within the contract aborts. Zero is refused as a literal and nothing changes. Encoding aborts only if there are more variables
    than integers. After encoding a range its bounds can be enforced; "unsatisfiable" is answered for lower bounds above the number of
    inputs only. Missing: upper bounds of at least the number of inputs and the lower bound zero, for which asking aborts (refuted below). *)
Theorem C82_totalizer_calls_partial w s : tot_program w s ->
  (forall x, in_contract true (fun w => w = 1%nat) w (FAdd x 1) ->
    if (x =? 0)%Z then tot_api s (s_used w) (FAdd x 1) = Some (s, s_used w, mkReply InvalidLiteral [] [])
    else exists s', tot_api s (s_used w) (FAdd x 1) = Some (s', s_used w, mkReply Fine [] [])) /\
  (exists s' n, tot_api s (s_used w) FReserve = Some (s', n, mkReply Fine [] [])) /\
  (forall lo hi, (lo <= hi)%nat -> exists s' cs n, tot_encode_ub_change s (Incl lo, Incl hi) (s_used w) = Some (s', cs, n) /\
    ((n <= 2147483647)%N -> exists r, tot_api s (s_used w) (FEncodeUb lo hi) = Some (s', n, r) /\ r_code r = Fine /\
      forall b, (lo <= b <= hi)%nat -> (b < int_total (s_in w))%nat -> exists r', tot_api s' n (FEnforceUb b) = Some (s', n, r') /\ r_code r' = Fine)) /\
  (forall lo hi, (lo <= hi)%nat -> exists s' cs n, tot_encode_lb_change s (Incl lo, Incl hi) (s_used w) = Some (s', cs, n) /\
    ((n <= 2147483647)%N -> exists r, tot_api s (s_used w) (FEncodeLb lo hi) = Some (s', n, r) /\ r_code r = Fine /\
      forall b, (lo <= b <= hi)%nat -> (1 <= b)%nat -> exists r', tot_api s' n (FEnforceLb b) = Some (s', n, r') /\
        (r_code r' = Fine \/ r_code r' = Unsatisfiable /\ (int_total (s_in w) < b)%nat))) /\
  ((s_used w <= 2147483647)%N -> forall b,
    ((b < int_total (s_in w))%nat -> exists r, tot_api s (s_used w) (FEnforceUb b) = Some (s, s_used w, r) /\ r_clauses r = [] /\ (r_code r = Fine \/ r_code r = NotEncoded)) /\
    ((1 <= b)%nat -> exists r, tot_api s (s_used w) (FEnforceLb b) = Some (s, s_used w, r) /\ r_clauses r = [] /\
      (r_code r = Fine \/ r_code r = NotEncoded \/ r_code r = Unsatisfiable /\ (int_total (s_in w) < b)%nat))).
Proof. exact (tot_capi_calls w s). Qed.
Print Assumptions C82_totalizer_calls_partial.

(** Running a program that starts within a history *)
Fixpoint run_c {S} (F : S -> N -> ccall -> option (S * N * creply)) (w : seen) (s : S) (cs : list ccall) : option (seen * S * list creply) :=
  match cs with
  | [] => Some (w, s, [])
  | c :: cs' => match F s (s_used w) c with
                | Some (s', n, r) => match run_c F (see w c n r) s' cs' with Some (w', s'', rs) => Some (w', s'', r :: rs) | None => None end
                | None => None
                end
  end.
Fixpoint contract_c {S} (F : S -> N -> ccall -> option (S * N * creply)) lower wok (w : seen) (s : S) (cs : list ccall) : Prop :=
  match cs with
  | [] => True
  | c :: cs' => in_contract lower wok w c /\ match F s (s_used w) c with Some (s', n, r) => contract_c F lower wok (see w c n r) s' cs' | None => True end
  end.
Lemma run_c_hist {S} (F : S -> N -> ccall -> option (S * N * creply)) init lower wok cs : forall w s w' s' rs,
  chist F init lower wok w s -> contract_c F lower wok w s cs -> run_c F w s cs = Some (w', s', rs) -> chist F init lower wok w' s'.
Proof.
  induction cs as [|c cs IH]; intros w s w' s' rs H C E; cbn [run_c contract_c] in *; [now injection E as <- <- <-|].
  destruct C as [Hc C]. destruct (F s (s_used w) c) as [[[s1 n1] r1]|] eqn:Ef; [|discriminate].
  destruct (run_c F (see w c n1 r1) s1 cs) as [[[w2 s2] rs2]|] eqn:Er; [|discriminate]. injection E as <- <- <-.
  eapply IH; [|exact C|exact Er]. eapply ch_call; eassumption.
Qed.
Fixpoint contract_b {S} (F : S -> N -> ccall -> option (S * N * creply)) (lower : bool) (wok : nat -> bool) (w : seen) (s : S) (cs : list ccall) : bool :=
  match cs with
  | [] => true
  | c :: cs' =>
      match c with
      | FAdd x wt => (-2147483648 <=? x)%Z && (x <=? 2147483647)%Z &&
          ((x =? 0)%Z || wok wt && (Z.to_N (Z.abs x) <=? s_used w)%N && forallb (fun p => negb ((fst p <=? Z.to_N (Z.abs x) - 1)%N && (Z.to_N (Z.abs x) - 1 <? snd p)%N)) (s_own w))
      | FEncodeUb lo hi => (lo <=? hi)%nat
      | FEncodeLb lo hi => lower && (lo <=? hi)%nat
      | FEnforceLb _ => lower
      | _ => true
      end && match F s (s_used w) c with Some (s', n, r) => contract_b F lower wok (see w c n r) s' cs' | None => true end
  end.
Lemma contract_b_ok {S} (F : S -> N -> ccall -> option (S * N * creply)) lower wok (wokP : nat -> Prop) : (forall w, wok w = true -> wokP w) ->
  forall cs w s, contract_b F lower wok w s cs = true -> contract_c F lower wokP w s cs.
Proof.
  intros Hw. induction cs as [|c cs IH]; intros w s; cbn [contract_b contract_c]; [auto|]. rewrite andb_true_iff. intros [H1 H2]. split.
  - destruct c as [x wt| |lo hi|lo hi|b|b]; cbn [in_contract]; [|exact I|now apply Nat.leb_le|apply andb_true_iff in H1 as [H1 H3]; split; [exact H1|now apply Nat.leb_le]|exact I|exact H1]. rewrite !andb_true_iff in H1. destruct H1 as [[Ha Hb] H0].
    unfold c_int. split; [lia|]. intros Hx. apply orb_true_iff in H0 as [H0|H0]; [lia|]. rewrite !andb_true_iff in H0. destruct H0 as [[A B] C].
    split; [now apply Hw|]. split; [lia|]. intros (lo & hi & Hi & L). rewrite forallb_forall in C. specialize (C _ Hi). cbn [fst snd] in C. lia.
  - destruct (F s (s_used w) c) as [[[s' n] r]|]; [now apply IH|exact I].
Qed.
Lemma eqb_one w : (w =? 1)%nat = true -> w = 1%nat. Proof. apply Nat.eqb_eq. Qed.
Lemma leb_one w : (1 <=? w)%nat = true -> (1 <= w)%nat. Proof. apply Nat.leb_le. Qed.
Definition ex_program : list ccall := [FAdd 1 1; FAdd (-2) 1; FAdd 0 1; FAdd 3 1; FEncodeUb 0 1; FEnforceUb 1; FEncodeLb 2 2; FEnforceLb 2; FEnforceLb 4; FAdd 4 1; FEnforceUb 1].
Definition ex_seen : seen := mkSeen [] 4 [] [].
Example C82_program_ex : exists w s, tot_program w s /\ s_in w = [(1, 1%nat); (-2, 1%nat); (3, 1%nat); (4, 1%nat)]%Z /\ length (s_ints w) = 40%nat /\
  exists rs, run_c tot_api ex_seen tot_new ex_program = Some (w, s, rs) /\
    map r_code rs = [Fine; Fine; InvalidLiteral; Fine; Fine; Fine; Fine; Fine; Unsatisfiable; Fine; NotEncoded] /\
    map r_assumps rs = [[]; []; []; []; []; [-8]; []; [8]; []; []; []]%Z.
Proof.
  assert (E : exists w s rs, run_c tot_api ex_seen tot_new ex_program = Some (w, s, rs)) by (eexists _, _, _; vm_compute; reflexivity).
  destruct E as (w & s & rs & E). exists w, s. pose proof E as E'. vm_compute in E. injection E as <- <- <-.
  split; [|split; [reflexivity|split; [reflexivity|]]].
  - eapply run_c_hist; [apply (ch_new _ _ _ _ 4%N)| |exact E']. apply (contract_b_ok _ _ _ _ eqb_one). vm_compute. reflexivity.
  - eexists. split; [exact E'|split; reflexivity].
Qed.

(** Upper bounds that are trivial, and the lower bound zero, abort the program: the library answers with no assumption at all, and the
    interface takes the first one (capi/src/encodings/card.rs:107-120, 166-179). This happens right after the bound was encoded. *)
Theorem C82_trivial_bound_refuted : exists w s s' n r, tot_program w s /\ in_contract true (fun w => w = 1%nat) w (FEncodeUb 0 2) /\
  tot_api s (s_used w) (FEncodeUb 0 2) = Some (s', n, r) /\ r_code r = Fine /\ tot_api s' n (FEnforceUb 2) = None /\
  exists s'' n' r', tot_api s' n (FEncodeLb 0 2) = Some (s'', n', r') /\ r_code r' = Fine /\ tot_api s'' n' (FEnforceLb 0) = None.
Proof.
  assert (E : exists w s rs, run_c tot_api (mkSeen [] 2 [] []) tot_new [FAdd 1 1; FAdd 2 1] = Some (w, s, rs)) by (eexists _, _, _; vm_compute; reflexivity).
  destruct E as (w & s & rs & E). exists w, s. pose proof E as E'. vm_compute in E. injection E as <- <- <-.
  eexists _, _, _. split; [eapply run_c_hist; [apply (ch_new _ _ _ _ 2%N)| |exact E']; apply (contract_b_ok _ _ _ _ eqb_one); vm_compute; reflexivity|].
  split; [vm_compute; lia|]. split; [vm_compute; reflexivity|]. split; [reflexivity|]. split; [vm_compute; reflexivity|].
  eexists _, _, _. split; [vm_compute; reflexivity|]. split; vm_compute; reflexivity.
Qed.
Print Assumptions C82_trivial_bound_refuted.

(** The functions [gte_*], upper bounds on weighted sums; the order in which the hash map of inputs is iterated is arbitrary. *)
Definition gte_api (ord : wmap -> wmap) : gte -> N -> ccall -> option (gte * N * creply) := capi (gte_enc ord) pair false.
Definition gte_program (ord : wmap -> wmap) : seen -> gte -> Prop := chist (gte_api ord) gte_new false (fun w => (1 <= w)%nat).

Theorem C82_gte_bounds ord w s : iter_order ord -> gte_program ord w s ->
  (exists cls, int_clauses [] (s_ints w) = Some cls) /\
  (forall b s' n r a, gte_api ord s (s_used w) (FEnforceUb b) = Some (s', n, r) -> r_code r = Fine ->
    ints_hold a (s_ints w) -> forallb (int_holds a) (r_assumps r) = true -> (int_sum a (s_in w) <= b)%nat) /\
  (forall a, exists a', (forall v, ~ in_aux (s_own w) v -> a' v = a v) /\ ints_hold a' (s_ints w) /\
    (forall b s' n r, gte_api ord s (s_used w) (FEnforceUb b) = Some (s', n, r) -> r_code r = Fine -> (int_sum a (s_in w) <= b)%nat -> forallb (int_holds a') (r_assumps r) = true)).
Proof. intros H. exact (gte_capi_bounds ord H w s). Qed.
Print Assumptions C82_gte_bounds.

(** No call aborts, apart from encoding with more variables than integers; every bound of an encoded range can be enforced. *)
Theorem C82_gte_calls ord w s : iter_order ord -> gte_program ord w s ->
  (forall x wt, in_contract false (fun w => (1 <= w)%nat) w (FAdd x wt) ->
    if (x =? 0)%Z then gte_api ord s (s_used w) (FAdd x wt) = Some (s, s_used w, mkReply InvalidLiteral [] [])
    else exists s', gte_api ord s (s_used w) (FAdd x wt) = Some (s', s_used w, mkReply Fine [] [])) /\
  (exists s' n, gte_api ord s (s_used w) FReserve = Some (s', n, mkReply Fine [] [])) /\
  (forall lo hi, (lo <= hi)%nat -> exists s' cs n, en_ub_change (gte_enc ord) s (Incl lo, Incl hi) (s_used w) = Some (s', cs, n) /\
    ((n <= 2147483647)%N -> exists r, gte_api ord s (s_used w) (FEncodeUb lo hi) = Some (s', n, r) /\ r_code r = Fine /\
      forall b, (lo <= b <= hi)%nat -> exists r', gte_api ord s' n (FEnforceUb b) = Some (s', n, r') /\ r_code r' = Fine)) /\
  ((s_used w <= 2147483647)%N -> forall b, exists r, gte_api ord s (s_used w) (FEnforceUb b) = Some (s, s_used w, r) /\ r_clauses r = [] /\
    (r_code r = Fine \/ r_code r = NotEncoded)).
Proof. intros H. exact (gte_capi_calls ord H w s). Qed.
Print Assumptions C82_gte_calls.

Definition ex_gte : list ccall := [FAdd 1 4; FAdd (-2) 2; FAdd 3 2; FEnforceUb 9; FEncodeUb 2 5; FEnforceUb 5; FEnforceUb 8].
Example C82_gte_ex : exists w s rs, gte_program (@rev _) w s /\ run_c (gte_api (@rev _)) (mkSeen [] 3 [] []) gte_new ex_gte = Some (w, s, rs) /\
  map r_code rs = [Fine; Fine; Fine; Fine; Fine; Fine; Fine] /\ map (fun r => length (r_assumps r)) rs = [0; 0; 0; 0; 0; 2; 0]%nat /\ (s_used w > 3)%N.
Proof.
  assert (E : exists w s rs, run_c (gte_api (@rev _)) (mkSeen [] 3 [] []) gte_new ex_gte = Some (w, s, rs)) by (eexists _, _, _; vm_compute; reflexivity).
  destruct E as (w & s & rs & E). exists w, s, rs. pose proof E as E'. vm_compute in E. injection E as <- <- <-.
  split; [eapply run_c_hist; [apply (ch_new _ _ _ _ 3%N)| |exact E']; apply (contract_b_ok _ _ _ _ leb_one); vm_compute; reflexivity|]. split; [exact E'|]. split; [reflexivity|]. split; reflexivity.
Qed.

(** At-most-one encodings: the codes tell which literals were accepted; the integers received are satisfied, on the variables of the
    program, exactly if at most one accepted literal holds. *)
Theorem C82_am1 k xs n : am1_params_ok k -> Forall c_int xs -> (forall x, In x xs -> (Z.to_N (Z.abs x) <= n)%N) ->
  exists f n', am1_encode k (map int_lit (filter (fun x => negb (x =? 0)%Z) xs)) n = (f, n') /\ (n <= n')%N /\
  ((n' <= 2147483647)%N -> exists ys,
    am1_capi k xs n = Some (map (fun x => if (x =? 0)%Z then InvalidLiteral else Fine) xs, ys, n') /\
    (forall a, ints_hold a ys -> (length (filter (fun x => negb (x =? 0)%Z && int_holds a x) xs) <= 1)%nat) /\
    (forall a, (length (filter (fun x => negb (x =? 0)%Z && int_holds a x) xs) <= 1)%nat ->
      exists a', (forall v, ~ (n <= v < n')%N -> a' v = a v) /\ ints_hold a' ys)).
Proof. exact (am1_capi_ok k xs n). Qed.
Print Assumptions C82_am1.
Example C82_am1_ex : am1_capi AmPairwise [1; 0; -2; 3]%Z 3 = Some ([Fine; InvalidLiteral; Fine; Fine], [-1; 2; 0; -1; -3; 0; 2; -3; 0]%Z, 3%N) /\
  am1_params_ok (AmCommander 4 AmPairwise) /\ option_map snd (am1_capi (AmCommander 4 AmPairwise) [1; 2; -3; 0; 4; 5]%Z 5) = Some 7%N.
Proof. split; [vm_compute; reflexivity|]. split; [cbn; lia|]. vm_compute. reflexivity. Qed.
