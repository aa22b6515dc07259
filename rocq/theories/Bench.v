(** * Model of the benchmark generator: tools/src/encodings and tools/src/bin/encodings.rs

    The generator reads a problem (knapsack, assignment, facility location, correlation clustering) and writes an encoding of
    it, line by line. Encodings are Rust iterators; here an iterator is a step function on states, run with fuel. *)

From Coq Require Import List Bool NArith ZArith Ascii String Arith.
From Verif Require Import Spec Types BoundSpec Constraints Atomics Maps NodeDb Dpw Text Dimacs Opb ConstrEnc.
Import ListNotations.
Open Scope list_scope.

(** ** Iterators *)

(** What [Iterator::next] does: yields a line, goes round its loop once more, ends, or panics *)
Inductive istep (St L : Type) : Type := IYield (l : L) (s : St) | ILoop (s : St) | IEnd | IPanic.
Arguments IYield {St L}. Arguments ILoop {St L}. Arguments IEnd {St L}. Arguments IPanic {St L}.
(** All lines of an iterator; [None] if the fuel does not suffice *)
Fixpoint drain {St L} (next : St -> istep St L) (fuel : nat) (s : St) : option (res (list L)) :=
  match fuel with
  | O => None
  | S f =>
      match next s with
      | IYield l s' => match drain next f s' with Some (ROk ls) => Some (ROk (l :: ls)) | r => r end
      | ILoop s' => drain next f s'
      | IEnd => Some (ROk [])
      | IPanic => Some RPanic
      end
  end.
(** A step that panics if a value is missing *)
Definition yield {St L A} (x : option A) (f : A -> istep St L) : istep St L := match x with Some a => f a | None => IPanic end.

(** src/types/mod.rs:368-373 [Lit::new], with the conversion [as u32] of the index *)
Definition lit_at (idx : nat) (negated : bool) : option lit :=
  let i := N.modulo (N.of_nat idx) 4294967296 in if (i <? max_var_idx)%N then Some (mkLit i negated) else None.

(** ** Knapsack *)

(** tools/src/encodings/knapsack.rs:8-19 [Knapsack], [ItemData] *)
Record item : Type := mkItem { it_weight : nat; it_values : list nat }.
Record knapsack : Type := mkKnapsack { ks_items : list item; ks_capacity : nat }.

(** A list with the indices of its elements: [iter().enumerate()] *)
Definition enumerate {A} (xs : list A) : list (nat * A) := combine (seq 0 (List.length xs)) xs.

(** tools/src/encodings/pb/knapsack.rs:9-20 [Line] *)
Inductive kline : Type := KHint | KDescription | KObjective (o : nat) | KCapacity.
(** tools/src/encodings/pb/knapsack.rs:39-82 [next]; the state is [next_line]. The conversions of weights and of the capacity to [isize] are not
    modelled: they are assumed to fit. *)
Definition pk_next (k : knapsack) (st : option kline) : istep (option kline) opb_wline :=
  match st with
  | None => IEnd
  | Some KHint => IYield (OComment (T "#variable= " ++ print_nat (List.length (ks_items k)) ++ T " #constraint= 1")) (Some KDescription)
  | Some KDescription => IYield (OComment (T "MO Knapsack instance generated by RustSAT")) (Some (KObjective 0))
  | Some (KObjective o) =>
      yield (mapM (fun x => do l <- lit_at (fst x) true; do v <- nth_error (it_values (snd x)) o; Some (l, v)) (enumerate (ks_items k))) (fun obj =>
      yield (hd_error (ks_items k)) (fun first =>
      IYield (OObjective obj) (Some (if (o + 1 <? List.length (it_values first))%nat then KObjective (o + 1) else KCapacity))))
  | Some KCapacity =>
      yield (mapM (fun x => do l <- lit_at (fst x) false; Some (l, Z.of_nat (it_weight (snd x)))) (enumerate (ks_items k))) (fun ls =>
      IYield (OPb (pb_new_ub ls (Z.of_nat (ks_capacity k)))) None)
  end.

(** tools/src/encodings/cnf/knapsack.rs:11-16 [Clause] *)
Inductive kclause : Type := KCap (cs : cnf) | KSoft (i o : nat).
Section Order.
Context (ord : wmap -> wmap) (srt : list node -> list nodecon -> list nodecon).
(** src/encodings/pb/mod.rs:121-144 [encode_ub_constr] for [DynamicPolyWatchdog] *)
Definition dpw_ub_constr (c : pb) (next : N) : option cres :=
  if (p_b c <? 0)%Z then Some CUnsat
  else encode_ub_at (dpw_enc srt (mkDpw [] None [] 1 0 0%N 0 db_empty)) (dpw_from_iter ord) (p_lits c) (Z.abs_nat (p_b c)) next.
(** tools/src/encodings/cnf/knapsack.rs:24-44 [Encoding::new] with [DynamicPolyWatchdog] (bin/encodings.rs:246-248); the variable manager starts empty
    and hands out the variables 0, 1, ... to the items *)
Definition ck_new (k : knapsack) : option kclause :=
  let c := pb_new_ub (map (fun x => (pos (N.of_nat (fst x)), Z.of_nat (it_weight (snd x)))) (enumerate (ks_items k))) (Z.of_nat (ks_capacity k)) in
  match dpw_ub_constr c (N.of_nat (List.length (ks_items k))) with
  | Some (COk cs _) => Some (KCap cs)
  | _ => None
  end.
End Order.
(** tools/src/encodings/cnf/knapsack.rs:50-79 [next]; [Lit::positive] asserts as [Lit::new] does *)
Definition ck_next (k : knapsack) (st : kclause) : istep kclause mcnf_wline :=
  match st with
  | KCap (c :: cs) => IYield (LMHard c) (KCap cs)
  | KCap [] => ILoop (KSoft 0 0)
  | KSoft i o =>
      if (List.length (ks_items k) <=? i)%nat then IEnd else
      yield (nth_error (ks_items k) i) (fun it =>
      if (List.length (it_values it) <=? o)%nat then ILoop (KSoft (i + 1) 0) else
      yield (lit_at i false) (fun l =>
      yield (nth_error (it_values it) o) (fun v => IYield (LMSoft [l] v o) (KSoft i (o + 1)))))
  end.

(** ** Assignment *)

(** tools/src/encodings/assignment.rs:8-13 [Assignment] *)
Record assignment : Type := mkAssignment { as_tasks : nat; as_objs : nat; as_costs : list nat }.
(** tools/src/encodings/assignment.rs:27-32 [idx], with its debug assertions *)
Definition as_idx (p : assignment) (task agent ob : nat) : option nat :=
  if ((task <? as_tasks p) && (agent <? as_tasks p) && (ob <? as_objs p))%nat
  then Some (ob * as_tasks p * as_tasks p + task * as_tasks p + agent)%nat else None.
(** tools/src/encodings/assignment.rs:34-36 [cost] *)
Definition as_cost (p : assignment) (task agent ob : nat) : option nat := do i <- as_idx p task agent ob; nth_error (as_costs p) i.

(** tools/src/encodings/pb/assignment.rs:9-22 [Line] *)
Inductive aline : Type := AHint | ADescription | AObjective (o : nat) | AOneTask (agent : nat) | AOneAgent (task : nat).
(** tools/src/encodings/pb/assignment.rs:42-43: the literal stating that a task is done by an agent *)
Definition as_selector (p : assignment) (task agent : nat) : option lit := lit_at (as_tasks p * task + agent) false.
(** tools/src/encodings/pb/assignment.rs:41-103 [next] *)
Definition pa_next (p : assignment) (st : option aline) : istep (option aline) opb_wline :=
  let n := as_tasks p in
  match st with
  | None => IEnd
  | Some AHint => IYield (OComment (T "#variable= " ++ print_nat (n * n) ++ T " #constraint= " ++ print_nat (2 * n))) (Some ADescription)
  | Some ADescription => IYield (OComment (T "MO Assignment instance generated by RustSAT")) (Some (AObjective 0))
  | Some (AObjective o) =>
      yield (mapM (fun task => mapM (fun agent => do l <- as_selector p task agent; do c <- as_cost p task agent o; Some (l, c)) (seq 0 n)) (seq 0 n)) (fun obj =>
      IYield (OObjective (List.concat obj)) (Some (if (o + 1 <? as_objs p)%nat then AObjective (o + 1) else AOneTask 0)))
  | Some (AOneTask agent) =>
      yield (mapM (fun task => as_selector p task agent) (seq 0 n)) (fun ls =>
      IYield (OCard (card_new_eq ls 1)) (Some (if (agent + 1 <? n)%nat then AOneTask (agent + 1) else AOneAgent 0)))
  | Some (AOneAgent task) =>
      yield (mapM (fun agent => as_selector p task agent) (seq 0 n)) (fun ls =>
      IYield (OCard (card_new_eq ls 1)) (if (task + 1 <? n)%nat then Some (AOneAgent (task + 1)) else None))
  end.

(** ** Facility location *)

(** tools/src/encodings/facilitylocation.rs:8-15 [FacilityLocation] *)
Record facloc : Type := mkFacloc { fl_objs : nat; fl_customers : nat; fl_facilities : nat; fl_supply : list nat; fl_opening : list nat }.
(** tools/src/encodings/facilitylocation.rs:33-38, 46-48 [cidx], [supply_cost] *)
Definition fl_supply_cost (p : facloc) (ob customer facility : nat) : option nat :=
  if ((ob <? fl_objs p) && (customer <? fl_customers p) && (facility <? fl_facilities p))%nat
  then nth_error (fl_supply p) (ob * fl_facilities p * fl_customers p + customer * fl_facilities p + facility) else None.
(** tools/src/encodings/facilitylocation.rs:40-44, 50-52 [ridx], [opening_cost] *)
Definition fl_opening_cost (p : facloc) (ob facility : nat) : option nat :=
  if ((ob <? fl_objs p) && (facility <? fl_facilities p))%nat then nth_error (fl_opening p) (ob * fl_facilities p + facility) else None.

(** tools/src/encodings/pb/facilitylocation.rs:9-23 [Line] *)
Inductive fline : Type := FHint | FDescription | FObjective (o : nat) | FOneFacility (customer : nat) | FMustOpen (fac customer : nat).
(** tools/src/encodings/pb/facilitylocation.rs:43-54: the literals stating that a facility is selected by a customer, and that it is opened *)
Definition fl_selected (p : facloc) (customer facility : nat) : option lit := lit_at (customer * fl_facilities p + facility) false.
Definition fl_open (p : facloc) (facility : nat) : option lit := lit_at (fl_facilities p * fl_customers p + facility) false.
(** tools/src/encodings/pb/facilitylocation.rs:42-123 [next] *)
Definition pf_next (p : facloc) (st : option fline) : istep (option fline) opb_wline :=
  let nc := fl_customers p in
  let nf := fl_facilities p in
  match st with
  | None => IEnd
  | Some FHint => IYield (OComment (T "#variable= " ++ print_nat ((nc + 1) * nf) ++ T " #constraint= " ++ print_nat (nc * (nf + 1)))) (Some FDescription)
  | Some FDescription => IYield (OComment (T "MO uncapacitated facility location instance generated by RustSAT")) (Some (FObjective 0))
  | Some (FObjective o) =>
      yield (mapM (fun c => mapM (fun f => do l <- fl_selected p c f; do w <- fl_supply_cost p o c f; Some (l, w)) (seq 0 nf)) (seq 0 nc)) (fun supply =>
      yield (mapM (fun f => do l <- fl_open p f; do w <- fl_opening_cost p o f; Some (l, w)) (seq 0 nf)) (fun opening =>
      IYield (OObjective (List.concat supply ++ opening)) (Some (if (o + 1 <? fl_objs p)%nat then FObjective (o + 1) else FOneFacility 0))))
  | Some (FOneFacility c) =>
      yield (mapM (fun f => fl_selected p c f) (seq 0 nf)) (fun ls =>
      IYield (OCard (card_new_eq ls 1)) (Some (if (c + 1 <? nc)%nat then FOneFacility (c + 1) else FMustOpen 0 0)))
  | Some (FMustOpen f c) =>
      yield (fl_selected p c f) (fun s => yield (fl_open p f) (fun o =>
      IYield (OClause (lit_impl_lit s o))
        (if (c + 1 <? nc)%nat then Some (FMustOpen f (c + 1)) else if (f + 1 <? fl_facilities p)%nat then Some (FMustOpen (f + 1) 0) else None)))
  end.

(** ** Correlation clustering *)

(** tools/src/encodings/cnf/clustering.rs:101-108 [Similarity] *)
Inductive similarity : Type := Similar (w : nat) | DisSimilar (w : nat) | DontCare | MustLink | CannotLink.
(** tools/src/encodings/cnf/clustering.rs:24-32 [VarId] *)
Inductive varid : Type := VBin (i k : nat) | VEq (i j k : nat) | VSame (i j : nat).
Definition varid_eqb (x y : varid) : bool :=
  match x, y with
  | VBin i k, VBin i' k' => ((i =? i') && (k =? k'))%nat
  | VEq i j k, VEq i' j' k' => ((i =? i') && (j =? j') && (k =? k'))%nat
  | VSame i j, VSame i' j' => ((i =? i') && (j =? j'))%nat
  | _, _ => false
  end.
(** tools/src/encodings/cnf/clustering.rs:34-38 [VarManager] *)
Record cvm : Type := mkCvm { cv_next : N; cv_vars : list (varid * N) }.
(** tools/src/encodings/cnf/clustering.rs:41-48 [id], 52-56 [new_var] *)
Definition cv_get (m : cvm) (id : varid) : option N := option_map snd (find (fun e => varid_eqb (fst e) id) (cv_vars m)).
Definition cv_id (m : cvm) (id : varid) : N * cvm :=
  match cv_get m id with
  | Some v => (v, m)
  | None => (cv_next m, mkCvm (cv_next m + 1) ((id, cv_next m) :: cv_vars m))
  end.
Fixpoint cv_ids (m : cvm) (ids : list varid) : list N * cvm :=
  match ids with [] => ([], m) | id :: r => let '(v, m1) := cv_id m id in let '(vs, m2) := cv_ids m1 r in (v :: vs, m2) end.

(** tools/src/encodings/cnf/clustering.rs:110-123 [Clause] *)
Inductive cclause : Type := CEq (i j k c : nat) | CSame (i j c : nat) | CMust (i j c : nat) | CCannot (i j : nat) | CSim (i j : nat) | CDis (i j : nat).
(** tools/src/encodings/cnf/clustering.rs:125-131 [Encoding] *)
Record clustering : Type := mkClustering { cl_sims : list similarity; cl_n : nat; cl_a : nat; cl_vm : cvm; cl_next : cclause }.
Definition cl_at (e : clustering) (c : cclause) : clustering := mkClustering (cl_sims e) (cl_n e) (cl_a e) (cl_vm e) c.
Definition cl_at_vm (e : clustering) (m : cvm) (c : cclause) : clustering := mkClustering (cl_sims e) (cl_n e) (cl_a e) m c.

(** [usize] subtraction *)
Definition usub (x y : nat) : option nat := if (x <? y)%nat then None else Some (x - y)%nat.
(** tools/src/encodings/cnf/clustering.rs:209-220 [sim_idx] *)
Definition sim_idx (i j n : nat) : option nat :=
  do n1 <- usub n 1; do ni <- usub n i; do ni1 <- usub ni 1;
  do x <- usub (n * n1 / 2) (ni * ni1 / 2); do y <- usub (x + j) i; usub y 1.
Definition cl_sim (e : clustering) (i j : nat) : option similarity := do x <- sim_idx i j (cl_n e); nth_error (cl_sims e) x.

(** tools/src/encodings/cnf/clustering.rs:226-404 [next] *)
Definition cl_step (e : clustering) : istep clustering mcnf_wline :=
  let n := cl_n e in
  let a := cl_a e in
  match cl_next e with
  | CEq i j k c =>
      if (n - 1 <=? i)%nat then ILoop (cl_at e (CSame 0 1 0))
      else if (n <=? j)%nat then ILoop (cl_at e (CEq (i + 1) (i + 2) 0 0))
      else if (a <=? k)%nat then ILoop (cl_at e (CEq i (j + 1) 0 0))
      else if (4 <=? c)%nat then ILoop (cl_at e (CEq i j (k + 1) 0))
      else yield (cl_sim e i j) (fun s =>
        match s with
        | DontCare | MustLink => ILoop (cl_at e (CEq i (j + 1) 0 0))
        | _ =>
            let '(v1, m1) := cv_id (cl_vm e) (VBin i k) in
            let '(v2, m2) := cv_id m1 (VBin j k) in
            let '(v3, m3) := cv_id m2 (VEq i j k) in
            let b1 := pos v1 in let b2 := pos v2 in let eql := pos v3 in
            let cl := match c with O => [eql; b1; b2] | 1%nat => [eql; neg b1; neg b2] | 2%nat => [neg eql; neg b1; b2] | _ => [neg eql; b1; neg b2] end in
            IYield (LMHard cl) (cl_at_vm e m3 (CEq i j k (c + 1)))
        end)
  | CSame i j c =>
      if (n - 1 <=? i)%nat then ILoop (cl_at e (CMust 0 1 0))
      else if (n <=? j)%nat then ILoop (cl_at e (CSame (i + 1) (i + 2) 0))
      else if (a <? c)%nat then ILoop (cl_at e (CSame i (j + 1) 0))
      else yield (cl_sim e i j) (fun s =>
        match s with
        | DontCare | MustLink | CannotLink => ILoop (cl_at e (CSame i (j + 1) 0))
        | _ =>
            let '(sv, m1) := cv_id (cl_vm e) (VSame i j) in
            let sl := pos sv in
            if (c <? a)%nat then
              let '(ev, m2) := cv_id m1 (VEq i j c) in
              IYield (LMHard [neg sl; pos ev]) (cl_at_vm e m2 (CSame i j (c + 1)))
            else
              let '(evs, m2) := cv_ids m1 (map (VEq i j) (seq 0 a)) in
              IYield (LMHard (map (fun v => neg (pos v)) evs ++ [sl])) (cl_at_vm e m2 (CSame i j (c + 1)))
        end)
  | CMust i j c =>
      if (n - 1 <=? i)%nat then ILoop (cl_at e (CCannot 0 1))
      else if (n <=? j)%nat then ILoop (cl_at e (CMust (i + 1) (i + 2) 0))
      else if (2 * a <=? c)%nat then ILoop (cl_at e (CMust i (j + 1) 0))
      else yield (cl_sim e i j) (fun s =>
        match s with
        | MustLink =>
            let '(v1, m1) := cv_id (cl_vm e) (VBin i (c / 2)) in
            let '(v2, m2) := cv_id m1 (VBin j (c / 2)) in
            let b1 := pos v1 in let b2 := pos v2 in
            IYield (LMHard (if (c mod 2 =? 0)%nat then [neg b1; b2] else [b1; neg b2])) (cl_at_vm e m2 (CMust i j (c + 1)))
        | _ => ILoop (cl_at e (CMust i (j + 1) 0))
        end)
  | CCannot i j =>
      if (n - 1 <=? i)%nat then ILoop (cl_at e (CSim 0 1))
      else if (n <=? j)%nat then ILoop (cl_at e (CCannot (i + 1) (i + 2)))
      else yield (cl_sim e i j) (fun s =>
        match s with
        | CannotLink =>
            let '(evs, m1) := cv_ids (cl_vm e) (map (VEq i j) (seq 0 a)) in
            IYield (LMHard (map (fun v => neg (pos v)) evs)) (cl_at_vm e m1 (CCannot i (j + 1)))
        | _ => ILoop (cl_at e (CCannot i (j + 1)))
        end)
  | CSim i j =>
      if (n - 1 <=? i)%nat then ILoop (cl_at e (CDis 0 1))
      else if (n <=? j)%nat then ILoop (cl_at e (CSim (i + 1) (i + 2)))
      else yield (cl_sim e i j) (fun s =>
        match s with
        | Similar w => let '(sv, m1) := cv_id (cl_vm e) (VSame i j) in IYield (LMSoft [pos sv] w 0) (cl_at_vm e m1 (CSim i (j + 1)))
        | _ => ILoop (cl_at e (CSim i (j + 1)))
        end)
  | CDis i j =>
      if (n - 1 <=? i)%nat then IEnd
      else if (n <=? j)%nat then ILoop (cl_at e (CDis (i + 1) (i + 2)))
      else yield (cl_sim e i j) (fun s =>
        match s with
        | DisSimilar w => let '(sv, m1) := cv_id (cl_vm e) (VSame i j) in IYield (LMSoft [neg (pos sv)] w 1) (cl_at_vm e m1 (CDis i (j + 1)))
        | _ => ILoop (cl_at e (CDis i (j + 1)))
        end)
  end.

(** tools/src/encodings/cnf/clustering.rs:415-433 [saturating_map] *)
Definition saturating_map (sim : Z) (dont_care hard_threshold : nat) : similarity :=
  let asim := Z.abs_nat sim in
  if (asim <? dont_care)%nat then DontCare
  else if (hard_threshold <? asim)%nat then (if (0 <? sim)%Z then MustLink else CannotLink)
  else if (0 <? sim)%Z then Similar (Z.abs_nat sim) else DisSimilar (Z.abs_nat sim).

(** A character of an identifier, tools/src/encodings/cnf/clustering.rs:407-409 [ident]; [alphanumeric1] *)
Definition is_ident (c : ascii) : bool :=
  let n := N_of_ascii c in (((48 <=? n) && (n <=? 57)) || ((65 <=? n) && (n <=? 90)) || ((97 <=? n) && (n <=? 122)) || (n =? 95))%N.
Definition ident : parser text := c <- one_of is_ident ;; (fun t => POk (c :: fst (span is_ident t)) (snd (span is_ident t))).
(** [multispace1] *)
Definition is_multispace (c : ascii) : bool := (Ascii.eqb c " " || Ascii.eqb c tab || Ascii.eqb c cr || Ascii.eqb c nl)%bool.
Definition multispace1 : parser unit := one_of is_multispace ;;; (fun t => POk tt (snd (span is_multispace t))).

Section Numbers.
(** How the rest of a line is read as a number, scaled by the multiplier and truncated (clustering.rs:154, 411-413 [scaling_map]); floating-point numbers
    are not modelled, so this is left open *)
Context (number : text -> option Z).
(** bin/encodings.rs:200-221 [clustering]: the map of similarity values *)
Context (offset : Z) (dont_care hard_threshold : nat).
Definition sim_map (z : Z) : similarity := saturating_map (z - offset) dont_care hard_threshold.

(** tools/src/encodings/cnf/clustering.rs:140-159: the part of [process_line] that parses a line; comments and lines with errors give nothing *)
Definition cl_line (full : text) : option (text * text * Z) :=
  let t := trim_start full in
  if starts_with (T "%") t then None
  else match (x <- ident ;; (multispace1 ;;; (y <- ident ;; (multispace1 ;;; pret (x, y))))) t with
       | POk (x, y) r => option_map (fun z => (x, y, z)) (number r)
       | _ => None
       end.
(** Identifiers are numbered in the order in which they occur first *)
Definition index_of (x : text) (xs : list text) : option nat :=
  (fix go i xs := match xs with [] => None | y :: r => if text_eqb y x then Some i else go (S i) r end) 0%nat xs.
Definition add_ident (xs : list text) (x : text) : list text := match index_of x xs with Some _ => xs | None => xs ++ [x] end.
Definition cl_idents (es : list (text * text * Z)) : list text := fold_left (fun xs e => add_ident (add_ident xs (fst (fst e))) (snd (fst e))) es [].

Fixpoint replace_nth {A} (i : nat) (x : A) (xs : list A) : option (list A) :=
  match xs, i with [], _ => None | _ :: r, O => Some (x :: r) | y :: r, S j => do r' <- replace_nth j x r; Some (y :: r') end.
(** tools/src/encodings/cnf/clustering.rs:178-196: entering the similarity of a pair; the warning about self-similarities is not modelled *)
Definition enter_sim (ids : list text) (sims : list similarity) (e : text * text * Z) : option (list similarity) :=
  let '(x, y, z) := e in
  do i1 <- index_of x ids; do i2 <- index_of y ids;
  if (i1 =? i2)%nat then Some sims
  else let '(i, j) := if (i2 <? i1)%nat then (i2, i1) else (i1, i2) in
       do idx <- sim_idx i j (List.length ids); replace_nth idx (sim_map z) sims.
(** tools/src/encodings/cnf/clustering.rs:134-207 [Encoding::new] *)
Definition cl_new (t : text) : option clustering :=
  let es := flat_map (fun l => match cl_line l with Some e => [e] | None => [] end) (lines t) in
  let ids := cl_idents es in
  let n := List.length ids in
  do n2 <- usub n 2; do n1 <- usub n 1; do top <- sim_idx n2 n1 n;
  do sims <- foldM (enter_sim ids) es (repeat DontCare (top + 1));
  Some (mkClustering sims n (digits n) (mkCvm 0 []) (CEq 0 1 0 0)).
End Numbers.

(** ** The tool: tools/src/bin/encodings.rs *)

(** bin/encodings.rs:293-297 [mcnf_to_wcnf] *)
Definition mcnf_to_wcnf (l : mcnf_wline) : wcnf_wline :=
  match l with LMComment c => LWComment c | LMHard c => LWHard c | LMSoft c w _ => LWSoft c w end.
(** bin/encodings.rs:288-312 [write_cnf]; a writer panics on literals that cannot be written *)
Definition bench_write_cnf (single : bool) (ls : option (res (list mcnf_wline))) : option (res text) :=
  match ls with
  | Some (ROk ls) => Some (to_res (if single then write_wcnf (map mcnf_to_wcnf ls) else write_mcnf ls))
  | Some RErr => Some RErr
  | Some RPanic => Some RPanic
  | None => None
  end.
(** bin/encodings.rs:314-326 [write_pb] *)
Definition bench_write_pb (o : opb_opts) (ls : option (res (list opb_wline))) : option (res text) :=
  match ls with
  | Some (ROk ls) => Some (to_res (write_opb_lines o ls))
  | Some RErr => Some RErr
  | Some RPanic => Some RPanic
  | None => None
  end.
(** bin/encodings.rs:332-374 [main], for given problems *)
Definition gen_pb_knapsack (o : opb_opts) (k : knapsack) (fuel : nat) : option (res text) := bench_write_pb o (drain (pk_next k) fuel (Some KHint)).
Definition gen_pb_assignment (o : opb_opts) (p : assignment) (fuel : nat) : option (res text) := bench_write_pb o (drain (pa_next p) fuel (Some AHint)).
Definition gen_pb_facloc (o : opb_opts) (p : facloc) (fuel : nat) : option (res text) := bench_write_pb o (drain (pf_next p) fuel (Some FHint)).
Definition gen_cnf_knapsack ord srt (single : bool) (k : knapsack) (fuel : nat) : option (res text) :=
  match ck_new ord srt k with
  | None => Some RPanic
  | Some st => bench_write_cnf single (drain (ck_next k) fuel st)
  end.
Definition gen_cnf_clustering number offset dont_care hard_threshold (single : bool) (t : text) (fuel : nat) : option (res text) :=
  match cl_new number offset dont_care hard_threshold t with
  | None => Some RPanic
  | Some e => bench_write_cnf single (drain cl_step fuel e)
  end.
