(** * Model of [tools/src/bin/gbmosplit.rs], which splits the objective of an instance into several objectives

    As in Tools.v, files are texts; opening and compressing files and parsing the command line are not modelled. [None] is a panic
    (failed [unwrap], index out of bounds, underflow, division by 0). Overflow of sums of weights is not modelled. *)

From Coq Require Import List Bool NArith ZArith Ascii String.
From Verif Require Import Spec Types Constraints ConstrEnc Maps NodeDb Inst Opt Text Dimacs Opb Tools.
Import ListNotations.
Open Scope list_scope.

(** ** opt.rs:156-216: the largest and the smallest weight of an objective *)

Definition max_of (ws : list nat) : nat := fold_left (fun s w => if s <? w then w else s)%nat ws 0%nat.
(** the fold starts with [usize::MAX] *)
Definition min_of (ws : list nat) : N := fold_left (fun s w => if (N.of_nat w <? s)%N then N.of_nat w else s) ws usize_max.
(** opt.rs:157-181 [max_lit_weight], [max_clause_weight]; 184-186 [max_weight] *)
Definition obj_max_lit_weight (o : obj) : nat := match o with OWeighted _ ls _ => max_of (map snd ls) | OUnweighted _ u _ _ => or_zero u end.
Definition obj_max_clause_weight (o : obj) : nat := match o with OWeighted _ _ cs => max_of (map snd cs) | OUnweighted _ u _ _ => or_zero u end.
Definition obj_max_weight (o : obj) : nat := Nat.max (obj_max_lit_weight o) (obj_max_clause_weight o).
(** opt.rs:189-211 [min_lit_weight], [min_clause_weight]; 214-216 [min_weight] *)
Definition obj_min_lit_weight (o : obj) : N := match o with OWeighted _ ls _ => min_of (map snd ls) | OUnweighted _ u _ _ => N.of_nat (or_zero u) end.
Definition obj_min_clause_weight (o : obj) : N := match o with OWeighted _ _ cs => min_of (map snd cs) | OUnweighted _ u _ _ => N.of_nat (or_zero u) end.
Definition obj_min_weight (o : obj) : N := N.min (obj_min_lit_weight o) (obj_min_clause_weight o).
(** opt.rs:315-320 [weighted] *)
Definition obj_weighted (o : obj) : bool := match o with OWeighted _ _ _ => true | OUnweighted _ _ _ _ => false end.

(** ** Splitting *)

(** gbmosplit.rs:286-303 [SplitAlg] *)
Inductive split_alg : Type := ABmo | AGcd | AGbmo.
(** gbmosplit.rs:315-325 [ObjStats]; the list of them is [SplitStats] *)
Record ostats : Type := mkOstats { s_n_softs : nat; s_weight_sum : nat; s_min_weight : N; s_max_weight : nat; s_multiplier : nat }.
Definition stats_of (o : obj) (m : nat) : ostats := mkOstats (obj_n_softs o) (obj_weight_sum o) (obj_min_weight o) (obj_max_weight o) m.

(** gbmosplit.rs:443-450 [gcd]: Euclid's algorithm. The second number gets smaller in every round, so [b + 1] rounds are enough; [None] is never
    the result (gcd_spec). *)
Fixpoint gcd_loop (fuel a b : nat) : option nat :=
  match fuel with
  | O => None
  | S f => if (b =? 0)%nat then Some a else gcd_loop f b (a mod b)
  end.
Definition gcd (a b : nat) : option nat := gcd_loop (S b) a b.

(** gbmosplit.rs:390-392: the greatest common divisor of the weights *)
Definition softs_gcd (softs : list (clause * nat)) : option nat :=
  match softs with
  | [] => None
  | e :: _ => foldM (fun g x => gcd g (snd x)) softs (snd e)
  end.
(** gbmosplit.rs:388-402: an objective for some of the soft clauses, and its statistics *)
Definition part_obj (softs : list (clause * nat)) : option (obj * ostats) :=
  do g <- softs_gcd softs;
  do es <- mapM (fun e => if (g =? 0)%nat then None else Some (fst e, (snd e / g)%nat)) softs;
  let o := obj_from_cls es in Some (o, stats_of o g).
(** the slice [xs[i..j]] *)
Definition slice {A} (i j : nat) (xs : list A) : option (list A) :=
  if ((i <=? j) && (j <=? List.length xs))%nat then Some (firstn (j - i) (skipn i xs)) else None.
(** gbmosplit.rs:379-420 [perform_split] *)
Fixpoint split_loop (sorted : list (clause * nat)) (start : nat) (ends : list nat) : option (list (obj * ostats)) :=
  match ends with
  | [] => do softs <- slice start (List.length sorted) sorted; do r <- part_obj softs; Some [r]
  | e :: ends' => do softs <- slice start (e + 1) sorted; do r <- part_obj softs; do rs <- split_loop sorted (e + 1) ends'; Some (r :: rs)
  end.
Definition perform_split (sorted : list (clause * nat)) (ends : list nat) : option (list (obj * ostats)) := split_loop sorted 0 ends.

(** gbmosplit.rs:426-438: the loop over the soft clauses; [m] is the last multiplier. If the instance is not BMO, no splits are kept. *)
Fixpoint bmo_loop (idx m sum : nat) (ends : list nat) (xs : list (clause * nat)) : list nat :=
  match xs with
  | [] => ends
  | (_, w) :: xs' =>
      if (m <? w)%nat then if (w <=? sum)%nat then [] else bmo_loop (S idx) w (sum + w) (ends ++ [(idx - 1)%nat]) xs'
      else bmo_loop (S idx) m (sum + w) ends xs'
  end.
(** gbmosplit.rs:422-441 [split_bmo]; the index of a split is never negative as the first weight is the first multiplier *)
Definition split_bmo (sorted : list (clause * nat)) : option (list (obj * ostats)) :=
  match sorted with
  | [] => None
  | e :: _ => perform_split sorted (bmo_loop 0 (snd e) 0 [] sorted)
  end.

(** gbmosplit.rs:459-466: the sums and the potential splits *)
Fixpoint sums_splits (idx sum : nat) (xs : list (clause * nat)) : list nat * list nat :=
  match xs with
  | [] => ([], [])
  | (_, w) :: xs' =>
      let sum := (sum + w)%nat in
      let '(sums, pots) := sums_splits (S idx) sum xs' in
      (sum :: sums, match xs' with (_, w') :: _ => if (sum <? w')%nat then idx :: pots else pots | [] => pots end)
  end.
(** gbmosplit.rs:468-471: the greatest common divisors, from the last weight on *)
Fixpoint gcds_loop (g : nat) (xs : list (clause * nat)) : option (list nat) :=
  match xs with
  | [] => Some []
  | (_, w) :: xs' => do g' <- gcd g w; do gs <- gcds_loop g' xs'; Some (g' :: gs)
  end.
(** gbmosplit.rs:452-473 [get_sums_pot_splits_gcds] *)
Definition get_sums_pot_splits_gcds (sorted : list (clause * nat)) : option (list nat * list nat * list nat) :=
  let '(sums, pots) := sums_splits 0 0 sorted in
  match rev sorted with
  | [] => None
  | (_, w) :: r => do gs <- gcds_loop w r; Some (sums, pots, rev (w :: gs))
  end.

(** *** Sets of numbers ([BTreeSet]): increasing lists *)

(** [insert]: the set, and if the number is new *)
Fixpoint set_insert (x : nat) (s : list nat) : list nat * bool :=
  match s with
  | [] => ([x], true)
  | y :: s' => if (x <? y)%nat then (x :: s, true) else if (x =? y)%nat then (s, false) else let '(r, b) := set_insert x s' in (y :: r, b)
  end.
(** [range(0..x).last()] and [range(lo..hi).next()] *)
Definition set_lower (x : nat) (s : list nat) : option nat := hd_error (rev (filter (fun y => y <? x)%nat s)).
Definition set_first (lo hi : nat) (s : list nat) : option nat := hd_error (filter (fun y => (lo <=? y) && (y <? hi))%nat s).

(** The result of the thorough check: [true], [false], or [false] after too many weight combinations, with their number *)
Inductive cres : Type := CYes | CNo | CStopped (n : nat).
(** How the loops go on: with the weight combinations found, or with a result *)
Inductive cstate : Type := CGo (s : list nat) | CEnd (r : cres).

Section Check.
Variables (max_combs left_sum right_sum : nat).
(** gbmosplit.rs:497-519: the combination of [w] with a known combination *)
Definition check_comb (w : nat) (s : list nat) (comb : nat) : option cstate :=
  let new := (comb + w)%nat in
  let '(s', b) := set_insert new s in
  if negb b then Some (CGo s)
  else match set_lower new s' with
       | None => None
       | Some lo =>
           if (new - lo <=? left_sum)%nat then Some (CEnd CNo)
           else if match set_first (new + 1) (right_sum + 1) s' with Some hi => (hi - new <=? left_sum)%nat | None => false end then Some (CEnd CNo)
           else if (max_combs <? List.length s')%nat then Some (CEnd (CStopped (List.length s')))
           else Some (CGo s')
       end.
Fixpoint check_combs (w : nat) (combs : list nat) (s : list nat) : option cstate :=
  match combs with
  | [] => Some (CGo s)
  | c :: combs' => do r <- check_comb w s c; match r with CGo s' => check_combs w combs' s' | CEnd _ => Some r end
  end.
(** gbmosplit.rs:520-542: [w] itself *)
Definition check_weight (w : nat) (s : list nat) : cstate :=
  let '(s', b) := set_insert w s in
  if negb b then CGo s
  else if match set_lower w s' with Some lo => (w - lo <=? left_sum)%nat | None => false end then CEnd CNo
  else if match set_first (w + 1) right_sum s' with Some hi => (hi - w <=? left_sum)%nat | None => false end then CEnd CNo
  else if (max_combs <? List.length s')%nat then CEnd (CStopped (List.length s'))
  else CGo s'.
(** gbmosplit.rs:490-543 *)
Fixpoint check_weights (ws : list nat) (s : list nat) : option cres :=
  match ws with
  | [] => Some CYes
  | w :: ws' =>
      do r <- check_combs w s s;
      match r with
      | CEnd x => Some x
      | CGo s1 => match check_weight w s1 with CEnd x => Some x | CGo s2 => check_weights ws' s2 end
      end
  end.
End Check.
(** gbmosplit.rs:480-486: the distances of neighbouring weights; [true] if one is too small. [None]: the weights are not sorted *)
Fixpoint close_weights (left_sum : nat) (ws : list nat) : option bool :=
  match ws with
  | [] => None
  | [_] => Some false
  | w :: ((w' :: _) as ws') =>
      do _ <- assertb (w <=? w')%nat;
      if (negb (w' - w =? 0) && (w' - w <? left_sum))%nat then Some true else close_weights left_sum ws'
  end.
(** gbmosplit.rs:475-545 [check_split_thorough_gbmo] *)
Definition check_split_thorough_gbmo (max_combs : nat) (right : list (clause * nat)) (left_sum : nat) : option cres :=
  let ws := map snd right in
  do c <- close_weights left_sum ws;
  if c : bool then Some CNo else check_weights max_combs left_sum (fold_left (fun s w => s + w)%nat ws 0%nat) ws [].

Definition stop_warning (n : nat) : text := T "thorough GBMO check terminated after " ++ print_nat n ++ T " checked weight combinations".
(** gbmosplit.rs:550-562: the loop over the potential splits; the splits and the warnings *)
Fixpoint gbmo_loop (alg : split_alg) (max_combs : nat) (sorted : list (clause * nat)) (sums gcds pots : list nat) : option (list nat * list text) :=
  match pots with
  | [] => Some ([], [])
  | e :: pots' =>
      do sum <- nth_error sums e;
      do g <- nth_error gcds (e + 1);
      do r <- (if (sum <? g)%nat then Some CYes
               else match alg with
                    | AGbmo => do rp <- slice (e + 1) (List.length sorted) sorted; check_split_thorough_gbmo max_combs rp sum
                    | _ => Some CNo
                    end);
      do rest <- gbmo_loop alg max_combs sorted sums gcds pots';
      match r with
      | CYes => Some (e :: fst rest, snd rest)
      | CNo => Some rest
      | CStopped n => Some (fst rest, stop_warning n :: snd rest)
      end
  end.
(** gbmosplit.rs:547-564 [split_gbmo] *)
Definition split_gbmo (alg : split_alg) (max_combs : nat) (sorted : list (clause * nat)) : option (list (obj * ostats) * list text) :=
  do r <- get_sums_pot_splits_gcds sorted; let '(sums, pots, gcds) := r in
  do r <- gbmo_loop alg max_combs sorted sums gcds pots;
  do objs <- perform_split sorted (fst r); Some (objs, snd r).

Definition offset_warning (z : Z) : text :=
  T "objective offset is not zero (" ++ print_Z z ++ T "), will be added to the lowest ranking objective".
Section Orders.
(** iteration orders of hash maps, and the sorting of soft clauses by weight *)
Variables (lord : list (lit * nat) -> list (lit * nat)) (cord : list (clause * nat) -> list (clause * nat)) (srt : list (clause * nat) -> list (clause * nat)).
Variables (ord ord1 ord2 ord3 ord4 : wmap -> wmap).

(** [objs.last_mut().unwrap().set_offset(offset)] *)
Fixpoint set_last_offset (z : Z) (os : list obj) : option (list obj) :=
  match os with
  | [] => None
  | [o] => Some [obj_set_offset z o]
  | o :: os' => do r <- set_last_offset z os'; Some (o :: r)
  end.
(** gbmosplit.rs:327-377 [split]: the instance, the statistics and the warnings *)
Definition gbmo_split (alg : split_alg) (max_combs : nat) (p : opt) : option (mopt * list ostats * list text) :=
  let '(c, ob) := opt_decompose p in
  if negb (obj_weighted ob) then Some (mopt_compose c [ob], [stats_of ob 1], [T "objective is unweighted, can't split"])
  else
    do r <- into_soft_cls lord cord ob; let '(softs, z) := r in
    let sorted := srt softs in
    do r <- match alg with ABmo => do rs <- split_bmo sorted; Some (rs, []) | _ => split_gbmo alg max_combs sorted end;
    do os <- set_last_offset z (map fst (fst r));
    Some (mopt_compose c os, map snd (fst r), (if (z =? 0)%Z then [] else [offset_warning z]) ++ snd r).

(** gbmosplit.rs:572-625 [parse_instance]; the format is given or inferred *)
Inductive in_format : Type := InWcnf | InOpb.
Inductive out_format : Type := AsInput | OutMcnf | OutOpb.
Definition read_instance (fmt : in_format) (o : opb_opts) (t : text) : res opt :=
  match fmt with InWcnf => opt_from_dimacs t | InOpb => opt_from_opb o t end.
(** gbmosplit.rs:258-266 [OutputFormat::infer]: is the output an OPB file *)
Definition writes_opb (fmt : in_format) (ofmt : out_format) : bool :=
  match ofmt with AsInput => match fmt with InWcnf => false | InOpb => true end | OutMcnf => false | OutOpb => true end.
(** gbmosplit.rs:657-662: the clauses returned by [convert_to_soft_lits] are not used *)
Fixpoint relax_all (c : inst) (obs : list obj) : option (inst * list obj) :=
  match obs with
  | [] => Some (c, [])
  | ob :: r =>
      do x <- convert_to_soft_lits cord ob (i_next c); let '(ob', _, n) := x in
      do y <- relax_all (set_next c n) r; Some (fst y, ob' :: snd y)
  end.
(** gbmosplit.rs:643-674: what is written *)
Definition gbmo_write (opb : bool) (o : opb_opts) (q : mopt) : res text :=
  if opb then
    let '(c, obs) := mopt_decompose q in
    rbind (to_res (relax_all c obs)) (fun r => mopt_write_opb o lord (mopt_compose (fst r) (snd r)))
  else
    rbind (to_res (convert_to_cnf ord ord1 ord2 ord3 ord4 (mo_constrs q))) (fun c' => mopt_write_dimacs lord cord (mkMopt c' (mo_objs q))).
(** gbmosplit.rs:627-681 [main]: if a split was found (the exit code is 0 then, and 1 otherwise), and what is written if anything is. The output
    goes to a file, or, if [to_stdout], after the messages printed there. [path] is the path of the input, if it is not the standard input.
    The messages are those without colors. *)
Definition message (kind : string) (m : text) : text := line (T kind ++ T ": " ++ m).
Definition gbmosplit (alg : split_alg) (max_combs : nat) (fmt : in_format) (ofmt : out_format) (always_dump to_stdout : bool) (path : option text)
  (o : opb_opts) (t : text) : res (bool * option text) :=
  rbind (read_instance fmt o t) (fun p =>
    rbind (to_res (gbmo_split alg max_combs p)) (fun r =>
      let '(q, _, ws) := r in
      let found := (1 <? List.length (mo_objs q))%nat in
      if found || always_dump then
        rbind (gbmo_write (writes_opb fmt ofmt) o q) (fun out =>
          let printed := match path with Some f => message "info" (T "finding splits in " ++ f) | None => [] end ++ flat_map (message "warning") ws in
          ROk (found, Some (output to_stdout printed out)))
      else ROk (found, None))).
End Orders.
