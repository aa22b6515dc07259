(** * Model of objectives and optimization instances, [src/instances/opt.rs] and [src/instances/multiopt.rs]

    Weights are unbounded naturals and offsets unbounded integers; the panics on overflow of [usize] and [isize] are not
    modelled. [None] is a panic. Where the code iterates over a hash map, the functions take the iteration orders
    [lord] (soft literals) and [cord] (soft clauses); the theorems only assume that these permute. Sums over a hash map do
    not depend on the order and are taken over the list. *)

From Coq Require Import List Bool NArith ZArith Arith Permutation.
From Verif Require Import Spec Types Constraints NodeDb ConstrEnc Maps VarSpec VarMan Inst.
Import ListNotations.

(** ** Hash maps with weights as values: association lists without repeated keys *)
Section WeightMap.
Context {K : Type} (keqb : K -> K -> bool).
Fixpoint gget (m : list (K * nat)) (k : K) : option nat :=
  match m with
  | [] => None
  | (k', w) :: m' => if keqb k' k then Some w else gget m' k
  end.
(** [HashMap::insert] *)
Fixpoint ginsert (m : list (K * nat)) (k : K) (w : nat) : list (K * nat) :=
  match m with
  | [] => [(k, w)]
  | (k', x) :: m' => if keqb k' k then (k', w) :: m' else (k', x) :: ginsert m' k w
  end.
(** [*map.entry(k).or_default() += w] *)
Fixpoint gadd (m : list (K * nat)) (k : K) (w : nat) : list (K * nat) :=
  match m with
  | [] => [(k, w)]
  | (k', x) :: m' => if keqb k' k then (k', x + w)%nat :: m' else (k', x) :: gadd m' k w
  end.
(** [HashMap::remove] *)
Definition gremove (m : list (K * nat)) (k : K) : list (K * nat) := filter (fun e => negb (keqb (fst e) k)) m.
(** [HashMap::from_iter] *)
Definition gcollect (xs : list (K * nat)) : list (K * nat) := fold_left (fun m e => ginsert m (fst e) (snd e)) xs [].
End WeightMap.

(** [iter().position] *)
Fixpoint position {A} (p : A -> bool) (xs : list A) : option nat :=
  match xs with
  | [] => None
  | x :: xs' => if p x then Some 0%nat else option_map S (position p xs')
  end.
(** [Vec::swap_remove] *)
Definition swap_remove {A} (i : nat) (xs : list A) : option (list A) :=
  do y <- nth_error xs (length xs - 1); do xs' <- vec_set i y xs; Some (removelast xs').

(** ** opt.rs:17-29 [IntObj], 38-40 [Objective] *)
Inductive obj : Type :=
| OWeighted (off : Z) (lits : list (lit * nat)) (cls : list (clause * nat))
| OUnweighted (off : Z) (unit_w : option nat) (lits : list lit) (cls : list clause).
(** opt.rs:48-57 [default], 61-63 [new] *)
Definition obj_new : obj := OUnweighted 0 None [] [].

(** opt.rs:296-302 [offset], 287-294 [set_offset], 304-311 [increase_offset] *)
Definition obj_offset (o : obj) : Z := match o with OWeighted z _ _ => z | OUnweighted z _ _ _ => z end.
Definition obj_set_offset (z : Z) (o : obj) : obj :=
  match o with OWeighted _ ls cs => OWeighted z ls cs | OUnweighted _ u ls cs => OUnweighted z u ls cs end.
Definition obj_increase_offset (z : Z) (o : obj) : obj := obj_set_offset (obj_offset o + z) o.

(** opt.rs:65-98 [is_empty], [constant] *)
Definition is_nil {A} (xs : list A) : bool := match xs with [] => true | _ => false end.
Definition obj_constant (o : obj) : bool :=
  match o with OWeighted _ ls cs => is_nil ls && is_nil cs | OUnweighted _ _ ls cs => is_nil ls && is_nil cs end.
Definition obj_is_empty (o : obj) : bool := obj_constant o && (obj_offset o =? 0)%Z.
(** opt.rs:100-122 [n_lits], [n_clauses], [n_softs] *)
Definition obj_n_lits (o : obj) : nat := match o with OWeighted _ ls _ => length ls | OUnweighted _ _ ls _ => length ls end.
Definition obj_n_clauses (o : obj) : nat := match o with OWeighted _ _ cs => length cs | OUnweighted _ _ _ cs => length cs end.
Definition obj_n_softs (o : obj) : nat := (obj_n_lits o + obj_n_clauses o)%nat.

Definition or_zero (u : option nat) : nat := match u with Some w => w | None => 0%nat end.
(** opt.rs:124-154 [lit_weight_sum], [clause_weight_sum], [weight_sum] *)
Definition obj_lit_weight_sum (o : obj) : nat :=
  match o with
  | OWeighted _ ls _ => fold_left (fun s e => s + snd e)%nat ls 0%nat
  | OUnweighted _ u ls _ => (length ls * or_zero u)%nat
  end.
Definition obj_clause_weight_sum (o : obj) : nat :=
  match o with
  | OWeighted _ _ cs => fold_left (fun s e => s + snd e)%nat cs 0%nat
  | OUnweighted _ u _ cs => (length cs * or_zero u)%nat
  end.
Definition obj_weight_sum (o : obj) : nat := (obj_lit_weight_sum o + obj_clause_weight_sum o)%nat.

(** opt.rs:232-285 [evaluate_no_offset]; [None] is the failing debug assertion *)
Definition obj_evaluate_no_offset (s : assignment) (o : obj) : option nat :=
  match o with
  | OWeighted _ ls cs =>
      let cost := fold_left (fun c e => if tern_eqb (lit_value s (fst e)) TTrue then c + snd e else c)%nat ls 0%nat in
      Some (fold_left (fun c e => if tern_eqb (clause_evaluate s (fst e)) TFalse then c + snd e else c)%nat cs cost)
  | OUnweighted _ u ls cs =>
      let cost := fold_left (fun c l => if tern_eqb (lit_value s l) TTrue then c + 1 else c)%nat ls 0%nat in
      let cost := fold_left (fun c cl => if tern_eqb (clause_evaluate s cl) TFalse then c + 1 else c)%nat cs cost in
      match u with
      | Some w => Some (cost * w)%nat
      | None => if (cost =? 0)%nat then Some 0%nat else None
      end
  end.
(** opt.rs:218-230 [evaluate] *)
Definition obj_evaluate (s : assignment) (o : obj) : option Z :=
  do c <- obj_evaluate_no_offset s o; Some (Z.of_nat c + obj_offset o)%Z.

(** opt.rs:322-357 [unweighted_2_weighted] *)
Definition unweighted_2_weighted (o : obj) : obj :=
  match o with
  | OWeighted _ _ _ => o
  | OUnweighted z (Some w) ls cs =>
      OWeighted z (fold_left (fun m l => gadd lit_eqb m l w) ls []) (fold_left (fun m c => gadd clause_eqb m c w) cs [])
  | OUnweighted z None _ _ => OWeighted z [] []
  end.

(** opt.rs:387-428 [add_soft_lit], and the same code for clauses in 490-526: [set_weighted] on a weighted objective, [set_unweighted] on an unweighted one *)
Definition set_weighted {K} (keqb : K -> K -> bool) (w : nat) (k : K) (m : list (K * nat)) : list (K * nat) * option nat :=
  if (w =? 0)%nat then (gremove keqb m k, gget keqb m k) else (ginsert keqb m k w, gget keqb m k).
(** the unweighted case; [inr tt]: the objective becomes weighted *)
Definition set_unweighted {K} (keqb : K -> K -> bool) (w : nat) (k : K) (u : option nat) (xs : list K)
  : option ((option nat * list K * option nat) + unit) :=
  if (w =? 0)%nat then
    match position (fun k2 => keqb k2 k) xs with
    | Some i => do xs' <- swap_remove i xs; match u with Some uw => Some (inl (u, xs', Some uw)) | None => None end
    | None => Some (inl (u, xs, None))
    end
  else match u with
       | Some uw => if (w =? uw)%nat
                    then if existsb (fun k2 => keqb k2 k) xs then Some (inl (u, xs, Some uw)) else Some (inl (u, xs ++ [k], None))
                    else Some (inr tt)
       | None => Some (inl (Some w, xs ++ [k], None))
       end.
Definition add_soft_lit (w : nat) (l : lit) (o : obj) : option (obj * option nat) :=
  match o with
  | OWeighted z ls cs => let '(ls', r) := set_weighted lit_eqb w l ls in Some (OWeighted z ls' cs, r)
  | OUnweighted z u ls cs =>
      do r <- set_unweighted lit_eqb w l u ls;
      match r with
      | inl (u', ls', r) => Some (OUnweighted z u' ls' cs, r)
      | inr _ => match unweighted_2_weighted o with
                 | OWeighted z ls cs => let '(ls', r) := set_weighted lit_eqb w l ls in Some (OWeighted z ls' cs, r)
                 | OUnweighted _ _ _ _ => None
                 end
      end
  end.
(** opt.rs:476-527 [add_soft_clause] *)
Definition add_soft_clause (w : nat) (cl : clause) (o : obj) : option (obj * option nat) :=
  match cl with
  | [] => Some (obj_increase_offset (Z.of_nat w) o, None)
  | [l] => add_soft_lit w (neg l) o
  | _ =>
      match o with
      | OWeighted z ls cs => let '(cs', r) := set_weighted clause_eqb w cl cs in Some (OWeighted z ls cs', r)
      | OUnweighted z u ls cs =>
          do r <- set_unweighted clause_eqb w cl u cs;
          match r with
          | inl (u', cs', r) => Some (OUnweighted z u' ls cs', r)
          | inr _ => match unweighted_2_weighted o with
                     | OWeighted z ls cs => let '(cs', r) := set_weighted clause_eqb w cl cs in Some (OWeighted z ls cs', r)
                     | OUnweighted _ _ _ _ => None
                     end
          end
      end
  end.

(** opt.rs:430-457 [increase_soft_lit] *)
Definition increase_soft_lit (w : nat) (l : lit) (o : obj) : obj :=
  if (w =? 0)%nat then o
  else match o with
       | OWeighted z ls cs => OWeighted z (gadd lit_eqb ls l w) cs
       | OUnweighted z (Some uw) ls cs =>
           if (w =? uw)%nat then OUnweighted z (Some uw) (ls ++ [l]) cs
           else match unweighted_2_weighted o with
                | OWeighted z ls cs => OWeighted z (gadd lit_eqb ls l w) cs
                | o' => o'
                end
       | OUnweighted z None ls cs => OUnweighted z (Some w) (ls ++ [l]) cs
       end.
(** opt.rs:459-474 [increase_soft_lit_int] *)
Definition increase_soft_lit_int (w : Z) (l : lit) (o : obj) : obj :=
  if (w <? 0)%Z then increase_soft_lit (Z.abs_nat w) (neg l) (obj_increase_offset w o) else increase_soft_lit (Z.abs_nat w) l o.
(** opt.rs:529-561 [increase_soft_clause] *)
Definition increase_soft_clause (w : nat) (cl : clause) (o : obj) : obj :=
  if (w =? 0)%nat then o
  else match cl with
       | [l] => increase_soft_lit w (neg l) o
       | _ =>
           match o with
           | OWeighted z ls cs => OWeighted z ls (gadd clause_eqb cs cl w)
           | OUnweighted z (Some uw) ls cs =>
               if (w =? uw)%nat then OUnweighted z (Some uw) ls (cs ++ [cl])
               else match unweighted_2_weighted o with
                    | OWeighted z ls cs => OWeighted z ls (gadd clause_eqb cs cl w)
                    | o' => o'
                    end
           | OUnweighted z None ls cs => OUnweighted z (Some w) ls (cs ++ [cl])
           end
       end.

(** opt.rs:563-599 [lit_weight], [clause_weight] *)
Definition get_unweighted {K} (keqb : K -> K -> bool) (k : K) (u : option nat) (xs : list K) : option (option nat) :=
  if existsb (fun k2 => keqb k2 k) xs then match u with Some w => Some (Some w) | None => None end else Some None.
Definition lit_weight (l : lit) (o : obj) : option (option nat) :=
  match o with OWeighted _ ls _ => Some (gget lit_eqb ls l) | OUnweighted _ u ls _ => get_unweighted lit_eqb l u ls end.
Definition clause_weight (c : clause) (o : obj) : option (option nat) :=
  match o with OWeighted _ _ cs => Some (gget clause_eqb cs c) | OUnweighted _ u _ cs => get_unweighted clause_eqb c u cs end.

(** opt.rs:1177-1205 [FromIterator] *)
Definition obj_from_lits (xs : list (lit * nat)) : obj := fold_left (fun o e => increase_soft_lit (snd e) (fst e) o) xs obj_new.
Definition obj_from_ilits (xs : list (lit * Z)) : obj := fold_left (fun o e => increase_soft_lit_int (snd e) (fst e) o) xs obj_new.
Definition obj_from_cls (xs : list (clause * nat)) : obj := fold_left (fun o e => increase_soft_clause (snd e) (fst e) o) xs obj_new.

(** The calls that change an objective *)
Inductive ocall : Type :=
| OAddLit (w : nat) (l : lit) | OIncLit (w : nat) (l : lit) | OIncLitInt (w : Z) (l : lit)
| OAddClause (w : nat) (c : clause) | OIncClause (w : nat) (c : clause) | OSetOffset (z : Z) | OIncOffset (z : Z).
Definition obj_call (o : obj) (k : ocall) : option obj :=
  match k with
  | OAddLit w l => option_map fst (add_soft_lit w l o)
  | OIncLit w l => Some (increase_soft_lit w l o)
  | OIncLitInt w l => Some (increase_soft_lit_int w l o)
  | OAddClause w c => option_map fst (add_soft_clause w c o)
  | OIncClause w c => Some (increase_soft_clause w c o)
  | OSetOffset z => Some (obj_set_offset z o)
  | OIncOffset z => Some (obj_increase_offset z o)
  end.

(** ** Conversions *)
Section Orders.
Variables (lord : list (lit * nat) -> list (lit * nat)) (cord : list (clause * nat) -> list (clause * nat)).

(** opt.rs:359-385 [weighted_2_unweighted]; [resize] appends copies *)
Definition copies {A} (es : list (A * nat)) : list A := fold_left (fun xs e => xs ++ repeat (fst e) (snd e)) es [].
Definition weighted_2_unweighted (o : obj) : obj :=
  match o with
  | OUnweighted _ _ _ _ => o
  | OWeighted z ls cs => OUnweighted z (Some 1%nat) (copies (lord ls)) (copies (cord cs))
  end.

(** opt.rs:601-634 [into_soft_cls] *)
Definition into_soft_cls (o : obj) : option (list (clause * nat) * Z) :=
  match o with
  | OUnweighted z u ls cs =>
      let cs' := cs ++ map (fun l => [neg l]) ls in
      do r <- mapM (fun c => match u with Some w => Some (c, w) | None => None end) cs'; Some (r, z)
  | OWeighted z ls cs => Some (cord (fold_left (fun m e => ginsert clause_eqb m [neg (fst e)] (snd e)) (lord ls) cs), z)
  end.
(** opt.rs:636-660 [into_unweighted_soft_cls] *)
Definition into_unweighted_soft_cls (o : obj) : option (list clause * nat * Z) :=
  match weighted_2_unweighted o with
  | OWeighted _ _ _ => None
  | OUnweighted z (Some w) ls cs => Some (cs ++ map (fun l => [neg l]) ls, w, z)
  | OUnweighted z None _ _ => Some ([], 1%nat, z)
  end.

(** opt.rs:662-703 [convert_to_soft_lits]; the state is the hard clauses, the soft literals and the next free variable *)
Definition relax_step {S} (put : S -> lit -> nat -> S) (st : cnf * S * N) (e : clause * nat) : option (cnf * S * N) :=
  let '(f, ls, next) := st in
  do _ <- assertb (1 <? length (fst e))%nat;
  let r := pos next in Some (cnf_add_clause f (fst e ++ [r]), put ls r (snd e), (next + 1)%N).
Definition convert_to_soft_lits (o : obj) (next : N) : option (obj * cnf * N) :=
  match o with
  | OWeighted z ls cs =>
      do st <- foldM (relax_step (fun ls r w => ginsert lit_eqb ls r w)) (cord cs) ([], ls, next);
      let '(f, ls', n) := st in Some (OWeighted z ls' [], f, n)
  | OUnweighted z u ls cs =>
      do st <- foldM (relax_step (fun ls r _ => ls ++ [r])) (map (fun c => (c, 0%nat)) cs) ([], ls, next);
      let '(f, ls', n) := st in Some (OUnweighted z u ls' [], f, n)
  end.
(** opt.rs:705-728 [into_soft_lits] *)
Definition into_soft_lits (o : obj) (next : N) : option (cnf * list (lit * nat) * Z * N) :=
  do r <- convert_to_soft_lits o next; let '(o', f, n) := r in
  match unweighted_2_weighted o' with
  | OWeighted z ls [] => Some (f, lord ls, z, n)
  | _ => None
  end.
(** opt.rs:730-768 [into_unweighted_soft_lits] *)
Definition into_unweighted_soft_lits (o : obj) (next : N) : option (cnf * list lit * nat * Z * N) :=
  do r <- convert_to_soft_lits o next; let '(o', f, n) := r in
  match o' with
  | OWeighted z ls [] => Some (f, copies (lord ls), 1%nat, z, n)
  | OUnweighted z (Some w) ls [] => Some (f, ls, w, z, n)
  | OUnweighted z None _ [] => Some ([], [], 1%nat, z, n)
  | _ => None
  end.

(** opt.rs:1062-1104, with 1126-1175 [iter_soft_lits] ([inr tt] is the error), [iter_soft_cls] *)
Definition iter_soft_lits (o : obj) : (list (lit * nat)) + unit :=
  if (0 <? obj_n_clauses o)%nat then inr tt
  else inl (match o with OWeighted _ ls _ => lord ls | OUnweighted _ u ls _ => map (fun l => (l, or_zero u)) ls end).
Definition iter_soft_cls (o : obj) : list (clause * nat) :=
  match o with
  | OWeighted _ ls cs => map (fun e => ([neg (fst e)], snd e)) (lord ls) ++ cord cs
  | OUnweighted _ u ls cs => map (fun l => ([neg l], or_zero u)) ls ++ map (fun c => (c, or_zero u)) cs
  end.

(** opt.rs:770-808 [max_var] *)
Definition find_max (mv : option N) (v : N) : option N :=
  match mv with Some m => if (m <? v)%N then Some v else Some m | None => Some v end.
Definition obj_max_var (o : obj) : option N :=
  let lits_max := fold_left (fun mv l => find_max mv (lvar l)) in
  match o with
  | OWeighted _ ls cs => fold_left (fun mv e => lits_max (fst e) mv) cs (lits_max (map fst ls) None)
  | OUnweighted _ _ ls cs => fold_left (fun mv c => lits_max c mv) cs (lits_max ls None)
  end.

(** opt.rs:810-862 [reindex] *)
Section ReindexObj.
Context {S : Type} (re : N -> S -> option (N * S)).
Definition re_wcl (cw : clause * nat) (s : S) : option ((clause * nat) * S) :=
  do r <- re_list (re_lit re) (fst cw) s; let '(c, s') := r in Some ((c, snd cw), s').
Definition obj_reindex (o : obj) (s : S) : option (obj * S) :=
  match o with
  | OWeighted z ls cs =>
      do r1 <- re_list (re_wlit re) (lord ls) s; let '(ls', s1) := r1 in
      do r2 <- re_list re_wcl (cord cs) s1; let '(cs', s2) := r2 in
      Some (OWeighted z (gcollect lit_eqb ls') (gcollect clause_eqb cs'), s2)
  | OUnweighted z u ls cs =>
      do r1 <- re_list (re_lit re) ls s; let '(ls', s1) := r1 in
      do r2 <- re_list (re_list (re_lit re)) cs s1; let '(cs', s2) := r2 in
      Some (OUnweighted z u ls' cs', s2)
  end.
End ReindexObj.

(** ** Normalization, opt.rs:892-1040 [normalize] *)

(** opt.rs:909-945: one old soft clause; state: the offset, soft literals and new soft clauses *)
Definition norm_clause (st : Z * list (lit * nat) * list (clause * nat)) (e : clause * nat) : option (Z * list (lit * nat) * list (clause * nat)) :=
  let '(z, ls, cs) := st in
  match clause_normalize (fst e) with
  | None => Some st
  | Some [] => None
  | Some [l] =>
      let weight := snd e in
      match gget lit_eqb ls l with
      | Some nw =>
          if (nw <? weight)%nat then Some ((z + Z.of_nat nw)%Z, gadd lit_eqb (gremove lit_eqb ls l) (neg l) (weight - nw), cs)
          else if (nw =? weight)%nat then Some ((z + Z.of_nat weight)%Z, gremove lit_eqb ls l, cs)
          else Some ((z + Z.of_nat weight)%Z, ginsert lit_eqb ls l (nw - weight), cs)
      | None => Some (z, gadd lit_eqb ls (neg l) weight, cs)
      end
  | Some c => Some (z, ls, gadd clause_eqb cs c (snd e))
  end.
(** opt.rs:899-973: the weighted case *)
Definition normalize_weighted (z : Z) (ls : list (lit * nat)) (cs : list (clause * nat)) : option obj :=
  do st <- foldM norm_clause (cord cs) (z, ls, []);
  let '(z', ls', cs') := st in
  match (match lord ls' with e :: _ => Some (snd e) | [] => match cord cs' with e :: _ => Some (snd e) | [] => None end end) with
  | None => Some obj_new
  | Some u =>
      if forallb (fun e => (snd e =? u)%nat) ls' && forallb (fun e => (snd e =? u)%nat) cs'
      then Some (OUnweighted z' (Some u) (sort_by lit_leb (map fst (lord ls'))) (sort_by clause_leb (map fst (cord cs'))))
      else Some (OWeighted z' ls' cs')
  end.
(** opt.rs:985-1002: the loop over the soft clauses, which moves the clauses that are kept to the front; unit clauses become literals *)
Fixpoint norm_unit_clauses (ls : list lit) (cs : list clause) : list lit * list clause :=
  match cs with
  | [] => (ls, [])
  | c :: cs' =>
      match clause_normalize c with
      | None => norm_unit_clauses ls cs'
      | Some [l] => norm_unit_clauses (ls ++ [neg l]) cs'
      | Some c' => let '(ls', cs'') := norm_unit_clauses ls cs' in (ls', c' :: cs'')
      end
  end.
(** opt.rs:1004-1010, [windows(2)] *)
Fixpoint has_dup (cs : list clause) : bool :=
  match cs with
  | c :: (d :: _) as cs' => clause_eqb c d || has_dup cs'
  | _ => false
  end.
(** [<[T]>::swap] *)
Definition vec_swap {A} (i j : nat) (xs : list A) : option (list A) :=
  do x <- nth_error xs i; do y <- nth_error xs j; do xs' <- vec_set i y xs; vec_set j x xs'.
(** opt.rs:1012-1031: the loop over the sorted soft literals. [inr] is the objective's literals and offset when a repeated literal is found;
    [inl] the final literals, offset, [next] and [end] *)
Fixpoint norm_lits_loop (fuel : nat) (w : nat) (ls : list lit) (z : Z) (nxt en : nat) : option ((list lit * Z * nat * nat) + (list lit * Z)) :=
  match fuel with
  | O => None
  | S fuel' =>
      if (nxt <? length ls - 1)%nat then
        do x <- nth_error ls nxt; do y <- nth_error ls (nxt + 1);
        if lit_eqb x (neg y) then norm_lits_loop fuel' w ls (z + Z.of_nat w) (nxt + 2) en
        else if lit_eqb x y then Some (inr (ls, z))
        else do ls' <- vec_swap en nxt ls; norm_lits_loop fuel' w ls' z (nxt + 1) (en + 1)
      else Some (inl (ls, z, nxt, en))
  end.
(** opt.rs:974-1039: the unweighted case; the subtraction [len - 1] panics for no soft literals *)
Definition normalize_unweighted (z : Z) (u : option nat) (ls : list lit) (cs : list clause) : option obj :=
  match u with
  | None => do _ <- assertb (is_nil ls); do _ <- assertb (is_nil cs); Some (OUnweighted z u ls cs)
  | Some w =>
      let '(ls1, cs1) := norm_unit_clauses ls cs in
      let cs2 := sort_by clause_leb cs1 in
      if has_dup cs2 then
        match unweighted_2_weighted (OUnweighted z u ls1 cs2) with OWeighted z ls cs => normalize_weighted z ls cs | OUnweighted _ _ _ _ => None end
      else
        let ls2 := sort_by lit_leb ls1 in
        do _ <- assertb (negb (is_nil ls2));
        do r <- norm_lits_loop (S (length ls2)) w ls2 z 0 0;
        match r with
        | inr (ls3, z') =>
            match unweighted_2_weighted (OUnweighted z' u ls3 cs2) with OWeighted z ls cs => normalize_weighted z ls cs | OUnweighted _ _ _ _ => None end
        | inl (ls3, z', nxt, en) =>
            let ls4 := firstn (en + if (nxt <? length ls3)%nat then 1 else 0) ls3 in
            Some (OUnweighted z' (if is_nil ls4 && is_nil cs2 then None else u) ls4 cs2)
        end
  end.
Definition obj_normalize (o : obj) : option obj :=
  match o with
  | OWeighted z ls cs => normalize_weighted z ls cs
  | OUnweighted z u ls cs => normalize_unweighted z u ls cs
  end.
End Orders.

(** ** Optimization instances *)

(** opt.rs:1214-1217 [Instance] *)
Record opt : Type := mkOpt { o_constrs : inst; o_obj : obj }.
Definition inst_increase (i : inst) (v : N) : inst := mkInst (i_cnf i) (i_cards i) (i_pbs i) (fst (next_increase v (i_next i))).
Definition raise_max (i : inst) (mv : option N) : inst := match mv with Some v => inst_increase i (v + 1) | None => i end.
(** opt.rs:1229-1237 [compose], 1240-1245 [decompose] *)
Definition opt_compose (i : inst) (o : obj) : opt := mkOpt (raise_max i (obj_max_var o)) o.
Definition opt_decompose (p : opt) : inst * obj := (raise_max (o_constrs p) (obj_max_var (o_obj p)), o_obj p).
(** opt.rs:1465-1475 [cost]; the outer option is a panic *)
Definition opt_cost (s : assignment) (p : opt) : option (option Z) :=
  match inst_evaluate s (o_constrs p) with
  | TTrue => do v <- obj_evaluate s (o_obj p); Some (Some v)
  | _ => Some None
  end.

Section OptOrders.
Variables (lord : list (lit * nat) -> list (lit * nat)) (cord : list (clause * nat) -> list (clause * nat)).
Variable to_cnf : inst -> option (cnf * N).
Definition raise_next (next : N) (mv : option N) : N := match mv with Some v => fst (next_increase (v + 1) next) | None => next end.
(** opt.rs:1285-1297 [into_hard_cls_soft_cls]; [to_cnf] is [SatInstance::into_cnf] *)
Definition into_hard_cls_soft_cls (p : opt) : option (cnf * (list (clause * nat) * Z) * N) :=
  do r <- to_cnf (o_constrs p); let '(f, n) := r in
  do s <- into_soft_cls lord cord (o_obj p);
  Some (f, s, raise_next n (obj_max_var (o_obj p))).
(** opt.rs:1299-1313 [into_hard_cls_soft_lits] *)
Definition into_hard_cls_soft_lits (p : opt) : option (cnf * (list (lit * nat) * Z) * N) :=
  do r <- to_cnf (o_constrs p); let '(f, n) := r in
  do s <- into_soft_lits lord cord (o_obj p) (raise_next n (obj_max_var (o_obj p)));
  let '(h, ls, z, n') := s in Some (cnf_extend f h, (ls, z), n').

(** opt.rs:1637-1681 [solve_maxsat] up to the call of the algorithm: the clauses in the solver, the objective literals and the offset *)
Definition maxsat_step (st : cnf * list (lit * nat) * N) (e : clause * nat) : option (cnf * list (lit * nat) * N) :=
  let '(f, ls, next) := st in
  match fst e with
  | [] => None
  | [l] => Some (f, ls ++ [(neg l, snd e)], next)
  | cl => let b := pos next in Some (cnf_add_clause f (cl ++ [neg b]), ls ++ [(b, snd e)], (next + 1)%N)
  end.
Definition opt_max (x y : option N) : option N :=
  match x, y with Some v, Some w => Some (N.max v w) | None, _ => y | _, None => x end.
Definition maxsat_input (p : opt) : option (cnf * list (lit * nat) * Z) :=
  do r <- to_cnf (o_constrs p); let '(f, n) := r in
  let next := match opt_max (next_max n) (obj_max_var (o_obj p)) with Some v => (v + 1)%N | None => 0%N end in
  do s <- into_soft_cls lord cord (o_obj p); let '(cs, z) := s in
  do st <- foldM maxsat_step cs (f, [], next); let '(f', ls, _) := st in Some (f', ls, z).

(** ** multiopt.rs: several objectives *)
Record mopt : Type := mkMopt { mo_constrs : inst; mo_objs : list obj }.
(** multiopt.rs:45-55 [compose], 58-67 [decompose] *)
Definition mopt_compose (i : inst) (os : list obj) : mopt := mkMopt (fold_left (fun i o => raise_max i (obj_max_var o)) os i) os.
Definition objs_max (os : list obj) : N := fold_left (fun v o => match obj_max_var o with Some mv => N.max v mv | None => v end) os 0%N.
Definition mopt_decompose (p : mopt) : inst * list obj := (inst_increase (mo_constrs p) (objs_max (mo_objs p) + 1), mo_objs p).
(** multiopt.rs:133-152 [into_hard_cls_soft_cls] *)
Definition m_into_hard_cls_soft_cls (p : mopt) : option (cnf * list (list (clause * nat) * Z) * N) :=
  do r <- to_cnf (mo_constrs p); let '(f, n) := r in
  do ss <- mapM (into_soft_cls lord cord) (mo_objs p);
  Some (f, ss, fst (next_increase (objs_max (mo_objs p) + 1) n)).
(** multiopt.rs:154-180 [into_hard_cls_soft_lits] *)
Definition m_lits_step (st : cnf * list (list (lit * nat) * Z) * N) (o : obj) : option (cnf * list (list (lit * nat) * Z) * N) :=
  let '(f, ss, n) := st in
  do s <- into_soft_lits lord cord o n; let '(h, ls, z, n') := s in Some (cnf_extend f h, ss ++ [(ls, z)], n').
Definition m_into_hard_cls_soft_lits (p : mopt) : option (cnf * list (list (lit * nat) * Z) * N) :=
  do r <- to_cnf (mo_constrs p); let '(f, n) := r in
  foldM m_lits_step (mo_objs p) (f, [], fst (next_increase (objs_max (mo_objs p)) n)).
(** multiopt.rs:342-354 [cost] *)
Definition mopt_cost (s : assignment) (p : mopt) : option (option (list Z)) :=
  match inst_evaluate s (mo_constrs p) with
  | TTrue => do vs <- mapM (obj_evaluate s) (mo_objs p); Some (Some vs)
  | _ => Some None
  end.
End OptOrders.

(** ** Re-indexing *)
Section OptReindex.
Context {S : Type} (re : N -> S -> option (N * S)).
Variables (lord : list (lit * nat) -> list (lit * nat)) (cord : list (clause * nat) -> list (clause * nat)).
(** multiopt.rs:198-207 [reindex]; opt.rs:1331-1337 [reindex] is the case of one objective *)
Definition mopt_reindex (p : mopt) (s : S) : option (cnf * list card * list pb * list obj * S) :=
  do r1 <- re_list (obj_reindex lord cord re) (mo_objs p) s; let '(os, s1) := r1 in
  do r2 <- inst_reindex re (mo_constrs p) s1; let '(f, cards, pbs, s2) := r2 in
  Some (f, cards, pbs, os, s2).
(** opt.rs:864-890 [Objective::var_set]; multiopt.rs:209-221 [var_set]; opt.rs:1339-1349 *)
Definition obj_lit_list (o : obj) : list lit :=
  match o with OWeighted _ ls cs => map fst ls ++ concat (map fst cs) | OUnweighted _ _ ls cs => ls ++ concat cs end.
Definition mopt_var_set (p : mopt) : list N :=
  fold_left (fun s o => fold_left (fun s l => set_insert (lvar l) s) (obj_lit_list o) s) (mo_objs p) (var_set (mo_constrs p)).
(** multiopt.rs:223-237 [reindex_ordered]; opt.rs:1351-1364 *)
Definition mopt_reindex_ordered (p : mopt) (s : S) : option (cnf * list card * list pb * list obj * S) :=
  do s' <- foldM (fun s v => do r <- re v s; Some (snd r)) (mopt_var_set p) s; mopt_reindex p s'.
End OptReindex.
