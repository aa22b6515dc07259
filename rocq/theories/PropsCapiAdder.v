(** * C82: the binary adder through the C interface *)

From Coq Require Import List Bool NArith ZArith Lia ZifyBool ZifyN ZifyNat.
From Verif Require Import Spec BoundSpec BoundExec Types Maps NodeDb Gte Adder AdderHist CapiSpec Capi CapiProofs CapiInst CapiAdder PropsCapi.
Import ListNotations.

(** The functions [bin_adder_*]; the order in which the hash map of inputs is iterated is arbitrary. [adder_program ord lower w s]: some C
    program has used one adder within the contract, without the functions for lower bounds unless [lower], and has seen [w]. *)
Definition adder_api (ord : wmap -> wmap) : adder -> N -> ccall -> option (adder * N * creply) := capi (adder_enc ord) pair false.
Definition adder_program (ord : wmap -> wmap) (lower : bool) : seen -> adder -> Prop := chist (adder_api ord) add_new lower (fun w => (1 <= w)%nat).

(** Upper bounds: after encoding a range, every bound in it can be enforced; the assumptions and what the callback has received enforce it,
    and every assignment that meets it has a variant, changed on variables taken by the encoding only, that satisfies both. Missing:
    programs that use the functions for lower bounds as well, for which it is false (below). *)
Theorem C82_adder_upper_partial ord w s lo hi s' n r : iter_order ord -> adder_program ord false w s -> (lo <= hi)%nat ->
  adder_api ord s (s_used w) (FEncodeUb lo hi) = Some (s', n, r) -> (n <= 2147483647)%N ->
  let w' := see w (FEncodeUb lo hi) n r in
  r_code r = Fine /\ forall b, (lo <= b <= hi)%nat -> exists r', adder_api ord s' n (FEnforceUb b) = Some (s', n, r') /\ r_code r' = Fine /\
    (forall a, ints_hold a (s_ints w') -> forallb (int_holds a) (r_assumps r') = true -> (int_sum a (s_in w') <= b)%nat) /\
    (forall a, (int_sum a (s_in w') <= b)%nat -> exists a', (forall v, ~ in_aux (s_own w') v -> a' v = a v) /\ ints_hold a' (s_ints w') /\ forallb (int_holds a') (r_assumps r') = true).
Proof. intros Ho. exact (adder_capi_upper ord Ho w s lo hi s' n r). Qed.
Print Assumptions C82_adder_upper_partial.
Definition ex_adder_up : list ccall := [FAdd 1 4; FAdd (-2) 2; FAdd 0 3; FEncodeUb 1 2; FEnforceUb 2; FAdd 3 5].
Example C82_adder_upper_ex : exists w s rs s' n r, adder_program (@rev _) false w s /\ run_c (adder_api (@rev _)) (mkSeen [] 3 [] []) add_new ex_adder_up = Some (w, s, rs) /\
  map r_code rs = [Fine; Fine; InvalidLiteral; Fine; Fine; Fine] /\ adder_api (@rev _) s (s_used w) (FEncodeUb 3 7) = Some (s', n, r) /\ (n <= 2147483647)%N /\ (20 <= length (r_clauses r))%nat.
Proof.
  assert (E : exists w s rs, run_c (adder_api (@rev _)) (mkSeen [] 3 [] []) add_new ex_adder_up = Some (w, s, rs)) by (eexists _, _, _; vm_compute; reflexivity).
  destruct E as (w & s & rs & E). exists w, s, rs. pose proof E as E'. vm_compute in E. injection E as <- <- <-. eexists _, _, _.
  split; [eapply run_c_hist; [apply (ch_new _ _ _ _ 3%N)| |exact E']; apply (contract_b_ok _ _ _ _ leb_one); vm_compute; reflexivity|]. split; [exact E'|]. split; [reflexivity|].
  split; [vm_compute; reflexivity|]. split; [vm_compute; discriminate|]. apply Nat.leb_le. vm_compute. reflexivity.
Qed.

(** All programs: what the callback has received are complete clauses, assumptions for lower bounds always enforce them, and every assignment
    has a variant as above that satisfies the clauses and the assumptions for the upper bounds that it meets. *)
Theorem C82_adder_bounds ord w s : iter_order ord -> adder_program ord true w s ->
  (exists cls, int_clauses [] (s_ints w) = Some cls) /\
  (forall b s' n r a, adder_api ord s (s_used w) (FEnforceLb b) = Some (s', n, r) -> r_code r = Fine ->
    ints_hold a (s_ints w) -> forallb (int_holds a) (r_assumps r) = true -> (b <= int_sum a (s_in w))%nat) /\
  (forall a, exists a', (forall v, ~ in_aux (s_own w) v -> a' v = a v) /\ ints_hold a' (s_ints w) /\
    (forall b s' n r, adder_api ord s (s_used w) (FEnforceUb b) = Some (s', n, r) -> r_code r = Fine -> (int_sum a (s_in w) <= b)%nat -> forallb (int_holds a') (r_assumps r) = true)).
Proof. intros Ho. exact (adder_capi_bounds ord Ho w s). Qed.
Print Assumptions C82_adder_bounds.

(** Right after encoding a range of lower bounds, the assumptions for its bounds also allow everything that meets them. *)
Theorem C82_adder_lower_complete ord w s lo hi s' n r : iter_order ord -> adder_program ord true w s -> (lo <= hi)%nat ->
  adder_api ord s (s_used w) (FEncodeLb lo hi) = Some (s', n, r) ->
  let w' := see w (FEncodeLb lo hi) n r in
  r_code r = Fine /\ forall a, exists a', (forall v, ~ in_aux (s_own w') v -> a' v = a v) /\ ints_hold a' (s_ints w') /\
    forall b s'' n' r', (lo <= b <= hi)%nat -> adder_api ord s' n (FEnforceLb b) = Some (s'', n', r') -> r_code r' = Fine -> (b <= int_sum a (s_in w'))%nat ->
      forallb (int_holds a') (r_assumps r') = true.
Proof. intros Ho. exact (adder_capi_lower ord Ho w s lo hi s' n r). Qed.
Print Assumptions C82_adder_lower_complete.
Definition ex_adder_low : list ccall := [FAdd 1 4; FAdd (-2) 2; FEncodeLb 1 3; FEnforceLb 3; FAdd 3 5; FEncodeLb 6 9].
Example C82_adder_lower_ex : exists w s rs, adder_program (@rev _) true w s /\ run_c (adder_api (@rev _)) (mkSeen [] 3 [] []) add_new ex_adder_low = Some (w, s, rs) /\
  map r_code rs = [Fine; Fine; Fine; Fine; Fine; Fine] /\ exists r, adder_api (@rev _) s (s_used w) (FEnforceLb 8) = Some (s, s_used w, r) /\ r_code r = Fine /\ length (r_assumps r) = 1%nat.
Proof.
  assert (E : exists w s rs, run_c (adder_api (@rev _)) (mkSeen [] 3 [] []) add_new ex_adder_low = Some (w, s, rs)) by (eexists _, _, _; vm_compute; reflexivity).
  destruct E as (w & s & rs & E). exists w, s, rs. pose proof E as E'. vm_compute in E. injection E as <- <- <-.
  split; [eapply run_c_hist; [apply (ch_new _ _ _ _ 3%N)| |exact E']; apply (contract_b_ok _ _ _ _ leb_one); vm_compute; reflexivity|]. split; [exact E'|]. split; [reflexivity|].
  eexists. split; [vm_compute; reflexivity|split; reflexivity].
Qed.

(** [bin_adder_reserve] after adding two inputs aborts the program. *)
Theorem C82_adder_reserve_refuted : exists ord w s, iter_order ord /\ adder_program ord false w s /\ in_contract false (fun w => (1 <= w)%nat) w FReserve /\
  adder_api ord s (s_used w) FReserve = None.
Proof.
  assert (E : exists w s rs, run_c (adder_api (fun m => m)) (mkSeen [] 2 [] []) add_new [FAdd 1 1; FAdd 2 1] = Some (w, s, rs)) by (eexists _, _, _; vm_compute; reflexivity).
  destruct E as (w & s & rs & E). exists (fun m => m), w, s. pose proof E as E'. vm_compute in E. injection E as <- <- <-. split; [intros m; reflexivity|].
  split; [eapply run_c_hist; [apply (ch_new _ _ _ _ 2%N)| |exact E']; apply (contract_b_ok _ _ _ _ leb_one); vm_compute; reflexivity|]. split; [exact I|vm_compute; reflexivity].
Qed.
Print Assumptions C82_adder_reserve_refuted.

(** Encoding a lower bound and then an upper bound: all calls succeed, but the assumptions for the upper bound 1 allow both inputs. *)
Theorem C82_adder_mixed_refuted : exists ord w s r a, iter_order ord /\ adder_program ord true w s /\
  adder_api ord s (s_used w) (FEnforceUb 1) = Some (s, s_used w, r) /\ r_code r = Fine /\
  ints_hold a (s_ints w) /\ forallb (int_holds a) (r_assumps r) = true /\ int_sum a (s_in w) = 2%nat.
Proof.
  assert (E : exists w s rs, run_c (adder_api (fun m => m)) (mkSeen [] 2 [] []) add_new [FAdd 1 1; FAdd 2 1; FEncodeLb 2 2; FEncodeUb 1 1] = Some (w, s, rs)) by (eexists _, _, _; vm_compute; reflexivity).
  destruct E as (w & s & rs & E). exists (fun m => m), w, s. pose proof E as E'. vm_compute in E. injection E as <- <- <-. eexists _, (fun v => (v <? 2)%N). split; [intros m; reflexivity|].
  split; [eapply run_c_hist; [apply (ch_new _ _ _ _ 2%N)| |exact E']; apply (contract_b_ok _ _ _ _ leb_one); vm_compute; reflexivity|].
  split; [vm_compute; reflexivity|]. split; [reflexivity|]. split; [|split; vm_compute; reflexivity].
  eexists. split; [vm_compute; reflexivity|]. intros c Hc. cbn [In] in Hc.
  repeat destruct Hc as [<-|Hc]; try contradiction; try (match goal with |- exists x, In x ?c /\ _ => assert (X : existsb (int_holds (fun v => (v <? 2)%N)) c = true) by (vm_compute; reflexivity); apply existsb_exists in X; exact X end).
Qed.
Print Assumptions C82_adder_mixed_refuted.
