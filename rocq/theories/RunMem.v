(** RunMem: run containers as the memory they live in (src/containers/run.c, mixed_union.c,
    mixed_xor.c, mixed_negation.c, include/roaring/containers/run.h).

    RunC.v treats a run container as the list of its runs.  Here it is the block that [runs]
    points to, [capacity] cells long, and [n_runs].  A cell that was never written holds
    [None].  Reading such a cell, and reading or writing outside the block, is undefined
    behaviour ([None] as result).  Allocation succeeds.  Source operands that are only read
    are blocks of their own, which is what the comments in run.c ask for ("dst is distinct
    from both"); the in-place operations read and write the same block. *)
From Coq Require Import Sorted.
From Verif Require Import Base ArrayUtil BitsetC ArrayC RunC RunD Convert MixedI MixedU MixedN.

Notation "'do' x <- e ; f" := (match e with Some x => f | None => None end) (at level 200, x pattern, e at level 100, f at level 200).

(** run.h:44-48 struct run_container_s: the cells behind [runs] ([capacity] of them) and [n_runs] *)
Record rblk := RB { cells : list (option run); nruns : Z }.
Definition cap (b : rblk) : Z := zlen (cells b).
(** runs[i] as an rvalue and as an lvalue *)
Definition rget (b : rblk) (i : Z) : option run :=
  if (0 <=? i) && (i <? cap b) then nth (Z.to_nat i) (cells b) None else None.
Definition rput (b : rblk) (i : Z) (x : run) : option rblk :=
  if (0 <=? i) && (i <? cap b) then Some (RB (upd (Z.to_nat i) (Some x) (cells b)) (nruns b)) else None.
Definition set_n (b : rblk) (n : Z) : rblk := RB (cells b) n.
(** array[i] of an array container that is only read *)
Definition aget (a : list Z) (i : Z) : option Z :=
  if (0 <=? i) && (i <? zlen a) then Some (znth a i) else None.
(** perfparameters.h:21 *)
Definition RUN_DEFAULT_INIT_SIZE : Z := 0.
Definition fresh (n : Z) : list (option run) := repeat None (Z.to_nat n).
(** run.c:89-107 run_container_create_given_capacity *)
Definition create (size : Z) : rblk := RB (fresh size) 0.
(** run.c:197-217 run_container_grow *)
Definition grow_capacity (c min : Z) : Z :=
  let n := if c =? 0 then RUN_DEFAULT_INIT_SIZE else if c <? 64 then c * 2 else if c <? 1024 then c * 3 / 2 else c * 5 / 4 in
  if n <? min then min else n.
Definition grow (b : rblk) (min : Z) (copy : bool) : rblk :=
  let n := grow_capacity (cap b) min in
  RB (if copy then cells b ++ fresh (n - cap b) else fresh n) (nruns b).
(** memmove / memcpy of [count] cells to [dst] from the cells [src] of a block; cells are
    copied as they are, also those never written *)
Definition slice (l : list (option run)) (from count : Z) : list (option run) :=
  firstn (Z.to_nat count) (skipn (Z.to_nat from) l).
Definition move_cells (b : rblk) (dst from count : Z) (src : rblk) : option rblk :=
  if count =? 0 then Some b
  else if (0 <=? from) && (from + count <=? cap src) && (0 <=? dst) && (dst + count <=? cap b) then
    Some (RB (firstn (Z.to_nat dst) (cells b) ++ slice (cells src) from count ++ skipn (Z.to_nat (dst + count)) (cells b)) (nruns b))
  else None.
(** run.c:220-227 run_container_copy *)
Definition copy (src dst : rblk) : option rblk :=
  let n_runs := nruns src in
  let dst := if cap dst <? n_runs then grow dst n_runs false else dst in
  move_cells (set_n dst n_runs) 0 0 n_runs src.
(** run.h:386-389 *)
Definition is_full (b : rblk) : option bool :=
  do vl <- rget b 0; Some ((nruns b =? 1) && (fst vl =? 0) && (snd vl =? 65535)).
(** run.h:323-337 *)
Definition append (b : rblk) (vl prev : run) : option (rblk * run) :=
  let previousend := fst prev + snd prev in
  if previousend + 1 <? fst vl then
    do b' <- rput b (nruns b) vl; Some (set_n b' (nruns b + 1), vl)
  else
    let newend := fst vl + snd vl + 1 in
    if previousend <? newend then
      let prev' := (fst prev, u16 (newend - 1 - fst prev)) in
      do b' <- rput b (nruns b - 1) prev'; Some (b', prev')
    else Some (b, prev).
(** run.h:342-347 *)
Definition append_first (b : rblk) (vl : run) : option (rblk * run) :=
  do b' <- rput b (nruns b) vl; Some (set_n b' (nruns b + 1), vl).
(** run.h:358-370 *)
Definition append_value (b : rblk) (val : Z) (prev : run) : option (rblk * run) :=
  let previousend := fst prev + snd prev in
  if previousend + 1 <? val then
    do b' <- rput b (nruns b) (val, 0); Some (set_n b' (nruns b + 1), (val, 0))
  else if val =? previousend + 1 then
    let prev' := (fst prev, u16 (snd prev + 1)) in
    do b' <- rput b (nruns b - 1) prev'; Some (b', prev')
  else Some (b, prev).
(** run.h:376-382 *)
Definition append_value_first (b : rblk) (val : Z) : option (rblk * run) := append_first b (val, 0).
(** run.c:798-841 *)
Definition smart_append (b : rblk) (start length_ : Z) : option rblk :=
  let n := nruns b in
  let new := do b' <- rput b n (start, length_); Some (set_n b' (n + 1)) in
  if n =? 0 then new
  else
    do last_run <- rget b (n - 1);
    let old_end := fst last_run + snd last_run + 1 in
    if old_end <? start then new
    else if old_end =? start then rput b (n - 1) (fst last_run, u16 (snd last_run + (length_ + 1)))
    else
      let new_end := start + length_ + 1 in
      if start =? fst last_run then
        if new_end <? old_end then rput b (n - 1) (u16 new_end, u16 (old_end - new_end - 1))
        else if old_end <? new_end then rput b (n - 1) (u16 old_end, u16 (new_end - old_end - 1))
        else Some (set_n b (n - 1))
      else
        do b1 <- rput b (n - 1) (fst last_run, u16 (start - fst last_run - 1));
        if new_end <? old_end then
          do b2 <- rput b1 n (u16 new_end, u16 (old_end - new_end - 1)); Some (set_n b2 (n + 1))
        else if old_end <? new_end then
          do b2 <- rput b1 n (u16 old_end, u16 (new_end - old_end - 1)); Some (set_n b2 (n + 1))
        else Some b1.

(** The merge loop of run.c:262-280 and 323-340.  [in1] and [in2] read the next run of each
    operand; the output block is handed to them because in the in-place version one operand
    lives in it. *)
Definition input := rblk -> Z -> option run.
Fixpoint union_loop (fuel : nat) (in1 in2 : input) (n1 n2 : Z) (b : rblk) (prev : run) (p1 p2 : Z) : option rblk :=
  match fuel with
  | O => Some b
  | S f =>
    if (p2 <? n2) && (p1 <? n1) then
      do x <- in1 b p1; do y <- in2 b p2;
      if fst x <=? fst y then do (b', prev') <- append b x prev; union_loop f in1 in2 n1 n2 b' prev' (p1 + 1) p2
      else do (b', prev') <- append b y prev; union_loop f in1 in2 n1 n2 b' prev' p1 (p2 + 1)
    else if p2 <? n2 then
      do y <- in2 b p2; do (b', prev') <- append b y prev; union_loop f in1 in2 n1 n2 b' prev' p1 (p2 + 1)
    else if p1 <? n1 then
      do x <- in1 b p1; do (b', prev') <- append b x prev; union_loop f in1 in2 n1 n2 b' prev' (p1 + 1) p2
    else Some b
  end.
(** run.c:249-280 and 310-340: the first run, then the loop; [fuel] is proved sufficient *)
Definition union_runs (in1 in2 : input) (n1 n2 : Z) (b : rblk) : option rblk :=
  let fuel := S (Z.to_nat n1 + Z.to_nat n2) in
  do x <- in1 b 0; do y <- in2 b 0;
  if fst x <=? fst y then do (b', prev) <- append_first b x; union_loop fuel in1 in2 n1 n2 b' prev 1 0
  else do (b', prev) <- append_first b y; union_loop fuel in1 in2 n1 n2 b' prev 0 1.
(** run.c:231-281 run_container_union *)
Definition union (src_1 src_2 dst : rblk) : option rblk :=
  do if1 <- is_full src_1; do if2 <- is_full src_2;
  if if1 then copy src_1 dst
  else if if2 then copy src_2 dst
  else
    let neededcapacity := nruns src_1 + nruns src_2 in
    let dst := if cap dst <? neededcapacity then grow dst neededcapacity false else dst in
    union_runs (fun _ => rget src_1) (fun _ => rget src_2) (nruns src_1) (nruns src_2) (set_n dst 0).
(** run.c:285-341 run_container_union_inplace *)
Definition union_inplace (src_1 src_2 : rblk) : option rblk :=
  do if1 <- is_full src_1; do if2 <- is_full src_2;
  if if1 then Some src_1
  else if if2 then copy src_2 src_1
  else
    let maxoutput := nruns src_1 + nruns src_2 in
    let neededcapacity := maxoutput + nruns src_1 in
    let b := if cap src_1 <? neededcapacity then grow src_1 neededcapacity true else src_1 in
    do b <- move_cells b maxoutput 0 (nruns b) b;
    let input1nruns := nruns b in
    union_runs (fun b i => rget b (maxoutput + i)) (fun _ => rget src_2) input1nruns (nruns src_2) (set_n b 0).
(** The merge loop of mixed_union.c:86-107 and 138-159 *)
Fixpoint array_run_union_loop_m (fuel : nat) (inr : input) (a : list Z) (nr : Z) (b : rblk) (prev : run) (pa pr : Z) : option rblk :=
  match fuel with
  | O => Some b
  | S f =>
    if (pr <? nr) && (pa <? zlen a) then
      do x <- inr b pr; do y <- aget a pa;
      if fst x <=? y then do (b', prev') <- append b x prev; array_run_union_loop_m f inr a nr b' prev' pa (pr + 1)
      else do (b', prev') <- append_value b y prev; array_run_union_loop_m f inr a nr b' prev' (pa + 1) pr
    else if pa <? zlen a then
      do y <- aget a pa; do (b', prev') <- append_value b y prev; array_run_union_loop_m f inr a nr b' prev' (pa + 1) pr
    else if pr <? nr then
      do x <- inr b pr; do (b', prev') <- append b x prev; array_run_union_loop_m f inr a nr b' prev' pa (pr + 1)
    else Some b
  end.
Definition array_run_union_runs (inr : input) (a : list Z) (nr : Z) (b : rblk) : option rblk :=
  let fuel := S (length a + Z.to_nat nr) in
  do x <- inr b 0; do y <- aget a 0;
  if fst x <=? y then do (b', prev) <- append_first b x; array_run_union_loop_m fuel inr a nr b' prev 0 1
  else do (b', prev) <- append_value_first b y; array_run_union_loop_m fuel inr a nr b' prev 1 0.
(** mixed_union.c:66-108 array_run_container_union; n_runs of dst is not reset: the callers
    pass a container just created *)
Definition array_run_union (a : list Z) (src_2 dst : rblk) : option rblk :=
  do full <- is_full src_2;
  if full then copy src_2 dst
  else array_run_union_runs (fun _ => rget src_2) a (nruns src_2) (grow dst (2 * (zlen a + nruns src_2)) false).
(** mixed_union.c:110-160 array_run_container_inplace_union *)
Definition array_run_union_inplace (a : list Z) (src_2 : rblk) : option rblk :=
  do full <- is_full src_2;
  if full then Some src_2
  else
    let maxoutput := zlen a + nruns src_2 in
    let neededcapacity := maxoutput + nruns src_2 in
    let b := if cap src_2 <? neededcapacity then grow src_2 neededcapacity true else src_2 in
    do b <- move_cells b maxoutput 0 (nruns b) b;
    array_run_union_runs (fun b i => rget b (maxoutput + i)) a (nruns b) (set_n b 0).
(** run.c:346-380 run_container_xor *)
Fixpoint xor_loop (fuel : nat) (s1 s2 b : rblk) (p1 p2 : Z) : option rblk :=
  match fuel with
  | O => Some b
  | S f =>
    if (p1 <? nruns s1) && (p2 <? nruns s2) then
      do x <- rget s1 p1; do y <- rget s2 p2;
      if fst x <=? fst y then do b' <- smart_append b (fst x) (snd x); xor_loop f s1 s2 b' (p1 + 1) p2
      else do b' <- smart_append b (fst y) (snd y); xor_loop f s1 s2 b' p1 (p2 + 1)
    else if p1 <? nruns s1 then
      do x <- rget s1 p1; do b' <- smart_append b (fst x) (snd x); xor_loop f s1 s2 b' (p1 + 1) p2
    else if p2 <? nruns s2 then
      do y <- rget s2 p2; do b' <- smart_append b (fst y) (snd y); xor_loop f s1 s2 b' p1 (p2 + 1)
    else Some b
  end.
Definition xor (src_1 src_2 dst : rblk) : option rblk :=
  let neededcapacity := nruns src_1 + nruns src_2 in
  let dst := if cap dst <? neededcapacity then grow dst neededcapacity false else dst in
  xor_loop (S (Z.to_nat neededcapacity)) src_1 src_2 (set_n dst 0) 0 0.
(** mixed_xor.c:145-173 array_run_container_lazy_xor *)
Fixpoint array_run_xor_loop_m (fuel : nat) (a : list Z) (s b : rblk) (pa pr : Z) : option rblk :=
  match fuel with
  | O => Some b
  | S f =>
    if (pr <? nruns s) && (pa <? zlen a) then
      do x <- rget s pr; do y <- aget a pa;
      if fst x <=? y then do b' <- smart_append b (fst x) (snd x); array_run_xor_loop_m f a s b' pa (pr + 1)
      else do b' <- smart_append b y 0; array_run_xor_loop_m f a s b' (pa + 1) pr
    else if pa <? zlen a then
      do y <- aget a pa; do b' <- smart_append b y 0; array_run_xor_loop_m f a s b' (pa + 1) pr
    else if pr <? nruns s then
      do x <- rget s pr; do b' <- smart_append b (fst x) (snd x); array_run_xor_loop_m f a s b' pa (pr + 1)
    else Some b
  end.
Definition array_run_lazy_xor (a : list Z) (src_2 dst : rblk) : option rblk :=
  let dst := grow dst (zlen a + nruns src_2) false in
  array_run_xor_loop_m (S (length a + Z.to_nat (nruns src_2))) a src_2 (set_n dst 0) 0 0.
(** run.c:384-461 run_container_intersection.  [s], [e] are start and end, [xs], [xe] are
    xstart and xend; [reload] is the guarded re-reading after a step. *)
Definition reload (src : rblk) (p s e : Z) : option (Z * Z) :=
  if p <? nruns src then do x <- rget src p; Some (fst x, fst x + snd x + 1) else Some (s, e).
Fixpoint intersection_loop (fuel : nat) (s1 s2 b : rblk) (p1 p2 s e xs xe : Z) : option rblk :=
  match fuel with
  | O => Some b
  | S f =>
    if (p1 <? nruns s1) && (p2 <? nruns s2) then
      if e <=? xs then
        do (s', e') <- reload s1 (p1 + 1) s e; intersection_loop f s1 s2 b (p1 + 1) p2 s' e' xs xe
      else if xe <=? s then
        do (xs', xe') <- reload s2 (p2 + 1) xs xe; intersection_loop f s1 s2 b p1 (p2 + 1) s e xs' xe'
      else
        let lateststart := if xs <? s then s else xs in
        let emit earliestend := do b' <- rput b (nruns b) (u16 lateststart, u16 (earliestend - lateststart - 1)); Some (set_n b' (nruns b + 1)) in
        if e =? xe then
          do (s', e') <- reload s1 (p1 + 1) s e; do (xs', xe') <- reload s2 (p2 + 1) xs xe;
          do b' <- emit e; intersection_loop f s1 s2 b' (p1 + 1) (p2 + 1) s' e' xs' xe'
        else if e <? xe then
          do (s', e') <- reload s1 (p1 + 1) s e;
          do b' <- emit e; intersection_loop f s1 s2 b' (p1 + 1) p2 s' e' xs xe
        else
          do (xs', xe') <- reload s2 (p2 + 1) xs xe;
          do b' <- emit xe; intersection_loop f s1 s2 b' p1 (p2 + 1) s e xs' xe'
    else Some b
  end.
Definition intersection (src_1 src_2 dst : rblk) : option rblk :=
  do if1 <- is_full src_1; do if2 <- is_full src_2;
  if if1 then copy src_2 dst
  else if if2 then copy src_1 dst
  else
    let neededcapacity := nruns src_1 + nruns src_2 in
    let dst := if cap dst <? neededcapacity then grow dst neededcapacity false else dst in
    do x <- rget src_1 0; do y <- rget src_2 0;
    intersection_loop (S (Z.to_nat neededcapacity)) src_1 src_2 (set_n dst 0) 0 0
      (fst x) (fst x + snd x + 1) (fst y) (fst y + snd y + 1).
(** run.c:573-631 run_container_andnot *)
Definition emit (b : rblk) (x : run) : option rblk := do b' <- rput b (nruns b) x; Some (set_n b' (nruns b + 1)).
Fixpoint andnot_loop (fuel : nat) (s1 s2 b : rblk) (p1 p2 s e s2' e2 : Z) : option (rblk * Z * Z * Z) :=
  match fuel with
  | O => Some (b, p1, s, e)
  | S f =>
    if (p1 <? nruns s1) && (p2 <? nruns s2) then
      if e <=? s2' then
        do b' <- emit b (u16 s, u16 (e - s - 1));
        do (s', e') <- reload s1 (p1 + 1) s e; andnot_loop f s1 s2 b' (p1 + 1) p2 s' e' s2' e2
      else if e2 <=? s then
        do (t, u) <- reload s2 (p2 + 1) s2' e2; andnot_loop f s1 s2 b p1 (p2 + 1) s e t u
      else
        do b' <- (if s <? s2' then emit b (u16 s, u16 (s2' - s - 1)) else Some b);
        if e2 <? e then andnot_loop f s1 s2 b' p1 p2 e2 e s2' e2
        else do (s', e') <- reload s1 (p1 + 1) s e; andnot_loop f s1 s2 b' (p1 + 1) p2 s' e' s2' e2
    else Some (b, p1, s, e)
  end.
(** run.c:623-630 *)
Definition andnot_rest (src_1 b : rblk) (p1 s e : Z) : option rblk :=
  if p1 <? nruns src_1 then
    do b' <- emit b (u16 s, u16 (e - s - 1));
    if p1 + 1 <? nruns src_1 then
      do b'' <- move_cells b' (nruns b') (p1 + 1) (nruns src_1 - (p1 + 1)) src_1;
      Some (set_n b'' (nruns b' + (nruns src_1 - (p1 + 1))))
    else Some b'
  else Some b.
Definition andnot (src_1 src_2 dst : rblk) : option rblk :=
  let needed := nruns src_1 + nruns src_2 in
  let dst := set_n (if cap dst <? needed then grow dst needed false else dst) 0 in
  do x <- rget src_1 0; do y <- rget src_2 0;
  do (b, p1, s, e) <- andnot_loop (S (Z.to_nat (needed + nruns src_2))) src_1 src_2 dst 0 0
      (fst x) (fst x + snd x + 1) (fst y) (fst y + snd y + 1);
  andnot_rest src_1 b p1 s e.
(** mixed_negation.c:235-266 run_container_negation_range for range_start < range_end, up to
    the conversion of the result (Convert.v) *)
Fixpoint copy_before (fuel : nat) (src b : rblk) (range_start k : Z) : option (rblk * Z) :=
  match fuel with
  | O => Some (b, k)
  | S f =>
    if k <? nruns src then
      do x <- rget src k;
      if fst x <? range_start then
        do b' <- rput b k x; copy_before f src (set_n b' (nruns b' + 1)) range_start (k + 1)
      else Some (b, k)
    else Some (b, k)
  end.
Fixpoint append_rest (fuel : nat) (src b : rblk) (k : Z) : option rblk :=
  match fuel with
  | O => Some b
  | S f =>
    if k <? nruns src then
      do x <- rget src k; do b' <- smart_append b (fst x) (snd x); append_rest f src b' (k + 1)
    else Some b
  end.
Definition negation_range (src : rblk) (range_start range_end : Z) : option rblk :=
  let fuel := S (Z.to_nat (nruns src)) in
  do (b, k) <- copy_before fuel src (create (nruns src + 1)) range_start 0;
  do b' <- smart_append b (u16 range_start) (u16 (range_end - range_start - 1));
  append_rest fuel src b' k.
(** mixed_negation.c:318-342, the in-place part of run_container_negation_range_inplace: [n]
    is my_nbr_runs and everything is read from and written to the same block *)
Fixpoint count_before (fuel : nat) (b : rblk) (n range_start k : Z) : option Z :=
  match fuel with
  | O => Some k
  | S f =>
    if k <? n then
      do x <- rget b k; if fst x <? range_start then count_before f b n range_start (k + 1) else Some k
    else Some k
  end.
Fixpoint append_buffered (fuel : nat) (b : rblk) (n k : Z) (buffered : run) : option rblk :=
  match fuel with
  | O => Some b
  | S f =>
    if k <? n then
      do next <- (if k + 1 <? n then rget b (k + 1) else Some buffered);
      do b' <- smart_append b (fst buffered) (snd buffered);
      append_buffered f b' n (k + 1) next
    else Some b
  end.
Definition negate_in_block (b : rblk) (range_start range_end : Z) : option rblk :=
  let n := nruns b in
  let fuel := S (Z.to_nat n) in
  do k <- count_before fuel b n range_start 0;
  do buffered <- (if k <? n then rget b k else Some (0, 0));
  do b' <- smart_append (set_n b k) (u16 range_start) (u16 (range_end - range_start - 1));
  append_buffered fuel b' n k buffered.
(** the runs of a container whose first [nruns] cells have been written *)
Definition runs_of (b : rblk) : list run :=
  flat_map (fun c => match c with Some x => [x] | None => [] end) (firstn (Z.to_nat (nruns b)) (cells b)).
(** mixed_negation.c:275-342: the test whether the result fits.  The binary search of
    run_container_contains only looks at the first n_runs cells; it is taken from RunC.v. *)
Definition negation_range_inplace (src : rblk) (range_start range_end : Z) : option rblk :=
  if (cap src =? nruns src) &&
     (let r := runs_of src in
      let last_val_before_range := if 0 <? range_start then run_container_contains r (u16 (range_start - 1)) else false in
      let first_val_in_range := run_container_contains r (u16 range_start) in
      Bool.eqb last_val_before_range first_val_in_range &&
      (let last_val_in_range := run_container_contains r (u16 (range_end - 1)) in
       let first_val_past_range := if negb (range_end =? 65536) then run_container_contains r (u16 range_end) else false in
       Bool.eqb last_val_in_range first_val_past_range))
  then negation_range src range_start range_end
  else negate_in_block src range_start range_end.

(** * Proofs *)
(** [b] holds the runs [dst], has room for [room] runs and behind these the cells [rest] *)
Definition isblk (b : rblk) (room : Z) (rest : list (option run)) (dst : list run) : Prop :=
  exists j, b = RB (map Some dst ++ j ++ rest) (zlen dst) /\ zlen dst + zlen j = room.
(** a container with the runs [r] *)
Definition stores (b : rblk) (r : list run) : Prop := exists j, b = RB (map Some r ++ j) (zlen r).

Lemma zlen_map {A B} (f : A -> B) l : zlen (map f l) = zlen l.
Proof. unfold zlen. now rewrite map_length. Qed.
Lemma stores_isblk b r : stores b r <-> isblk b (cap b) [] r.
Proof.
  split.
  - intros (j & ->). exists j. rewrite app_nil_r. split; auto. unfold cap. cbn [cells]. rewrite zlen_app, zlen_map. lia.
  - intros (j & E & _). exists j. rewrite E, app_nil_r. reflexivity.
Qed.
Lemma isblk_stores b room rest r : isblk b room rest r -> stores b r.
Proof. intros (j & -> & _). exists (j ++ rest). reflexivity. Qed.
Lemma isblk_n b room rest r : isblk b room rest r -> nruns b = zlen r.
Proof. intros (j & -> & _). reflexivity. Qed.
Lemma isblk_cap b room rest r : isblk b room rest r -> cap b = room + zlen rest.
Proof. intros (j & -> & E). unfold cap. cbn [cells]. rewrite !zlen_app, zlen_map. lia. Qed.
Lemma stores_n b r : stores b r -> nruns b = zlen r.
Proof. intros (j & ->). reflexivity. Qed.
Lemma rget_at A x B n i : i = zlen A -> rget (RB (A ++ Some x :: B) n) i = Some x.
Proof.
  intros ->. unfold rget, cap. cbn [cells]. rewrite zlen_app, zlen_cons. pose proof (zlen_nonneg A). pose proof (zlen_nonneg B).
  replace ((0 <=? zlen A) && (zlen A <? zlen A + (zlen B + 1))) with true by lia.
  unfold zlen. rewrite Nat2Z.id, app_nth2 by lia. now rewrite Nat.sub_diag.
Qed.
Lemma rput_at A c B n i x : i = zlen A -> rput (RB (A ++ c :: B) n) i x = Some (RB (A ++ Some x :: B) n).
Proof.
  intros ->. unfold rput, cap. cbn [cells nruns]. rewrite zlen_app, zlen_cons. pose proof (zlen_nonneg A). pose proof (zlen_nonneg B).
  replace ((0 <=? zlen A) && (zlen A <? zlen A + (zlen B + 1))) with true by lia.
  unfold zlen. rewrite Nat2Z.id. f_equal. f_equal. clear. induction A; cbn; [reflexivity|now rewrite IHA].
Qed.
Lemma stores_get b r i : stores b r -> 0 <= i < zlen r -> rget b i = Some (rnth r i).
Proof.
  intros (j & ->) Hi. destruct (nth_split r (0,0) (n := Z.to_nat i)) as (A & B & E & L). { unfold zlen in Hi. lia. }
  unfold rnth. rewrite E at 1. rewrite map_app. cbn [map]. rewrite <- app_assoc. cbn [app].
  apply rget_at. rewrite zlen_map. unfold zlen. lia.
Qed.
Lemma put_new b room rest dst x : isblk b room rest dst -> zlen dst < room ->
  exists b', rput b (nruns b) x = Some b' /\ isblk (set_n b' (nruns b + 1)) room rest (dst ++ [x]).
Proof.
  intros (j & -> & E) H. destruct j as [|c j]. { change (zlen (@nil (option run))) with 0 in E. lia. }
  cbn [app nruns]. rewrite rput_at by now rewrite zlen_map. eexists. split; [reflexivity|].
  exists j. unfold set_n. cbn [cells]. rewrite map_app. cbn [map]. rewrite <- app_assoc. cbn [app].
  rewrite zlen_cons in E. rewrite zlen_app. change (zlen [x]) with 1. split; [reflexivity|lia].
Qed.
Lemma put_last b room rest D p x : isblk b room rest (D ++ [p]) ->
  exists b', rput b (nruns b - 1) x = Some b' /\ isblk b' room rest (D ++ [x]).
Proof.
  intros (j & -> & E). cbn [nruns]. rewrite map_app. cbn [map]. rewrite <- app_assoc. cbn [app].
  rewrite rput_at by (rewrite zlen_app, zlen_map; change (zlen [p]) with 1; lia).
  eexists. split; [reflexivity|]. exists j. rewrite map_app, <- app_assoc. cbn [map app].
  rewrite !zlen_app in *. change (zlen [x]) with 1. change (zlen [p]) with 1 in *. split; [reflexivity|lia].
Qed.
Lemma get_last b room rest D p : isblk b room rest (D ++ [p]) -> rget b (nruns b - 1) = Some p.
Proof.
  intros (j & -> & E). cbn [nruns]. rewrite map_app. cbn [map]. rewrite <- app_assoc. cbn [app].
  apply rget_at. rewrite zlen_app, zlen_map. change (zlen [p]) with 1. lia.
Qed.
Lemma pop_last b room rest D p : isblk b room rest (D ++ [p]) -> isblk (set_n b (nruns b - 1)) room rest D.
Proof.
  intros (j & -> & E). exists (Some p :: j). unfold set_n. cbn [nruns cells]. rewrite map_app, <- app_assoc. cbn [map app].
  rewrite zlen_app in *. change (zlen [p]) with 1 in *. rewrite zlen_cons. split; [|lia]. f_equal. lia.
Qed.
Lemma set_last_snoc D p x : set_last (D ++ [p]) x = D ++ [x].
Proof. unfold set_last. now rewrite removelast_last. Qed.
Lemma rnth_last D (p : run) : rnth (D ++ [p]) (zlen (D ++ [p]) - 1) = p.
Proof.
  unfold rnth. rewrite zlen_app. change (zlen [p]) with 1. replace (zlen D + 1 - 1) with (zlen D) by lia.
  unfold zlen. rewrite Nat2Z.id, app_nth2 by lia. now rewrite Nat.sub_diag.
Qed.

(** appending *)
Lemma append_ok b room rest dst x prev : isblk b room rest dst -> dst <> [] -> zlen dst < room ->
  let '(dst', prev') := run_container_append dst x prev in
  exists b', append b x prev = Some (b', prev') /\ isblk b' room rest dst' /\ dst' <> [] /\ zlen dst' <= zlen dst + 1.
Proof.
  intros I N H. unfold run_container_append, append. destruct (fst prev + snd prev + 1 <? fst x).
  - destruct (put_new _ _ _ _ x I H) as (b' & -> & I'). eexists. split; [reflexivity|]. split; auto.
    split; [now destruct dst|]. rewrite zlen_app. change (zlen [x]) with 1. lia.
  - destruct (fst prev + snd prev <? fst x + snd x + 1).
    + destruct (snoc_cases dst) as [->|(D & p & ->)]; [congruence|].
      destruct (put_last _ _ _ _ _ (fst prev, u16 (fst x + snd x + 1 - 1 - fst prev)) I) as (b' & -> & I').
      eexists. split; [reflexivity|]. rewrite set_last_snoc. split; auto. split; [now destruct D|].
      rewrite !zlen_app. change (zlen [p]) with 1. match goal with |- context [zlen [?q]] => change (zlen [q]) with 1 end. lia.
    + exists b. repeat split; auto. lia.
Qed.
Lemma append_value_ok b room rest dst v prev : isblk b room rest dst -> dst <> [] -> zlen dst < room ->
  let '(dst', prev') := run_container_append_value dst v prev in
  exists b', append_value b v prev = Some (b', prev') /\ isblk b' room rest dst' /\ dst' <> [] /\ zlen dst' <= zlen dst + 1.
Proof.
  intros I N H. unfold run_container_append_value, append_value. destruct (fst prev + snd prev + 1 <? v).
  - destruct (put_new _ _ _ _ (v, 0) I H) as (b' & -> & I'). eexists. split; [reflexivity|]. split; auto.
    split; [now destruct dst|]. rewrite zlen_app. change (zlen [(v, 0)]) with 1. lia.
  - destruct (v =? fst prev + snd prev + 1).
    + destruct (snoc_cases dst) as [->|(D & p & ->)]; [congruence|].
      destruct (put_last _ _ _ _ _ (fst prev, u16 (snd prev + 1)) I) as (b' & -> & I').
      eexists. split; [reflexivity|]. rewrite set_last_snoc. split; auto. split; [now destruct D|].
      rewrite !zlen_app. change (zlen [p]) with 1. match goal with |- context [zlen [?q]] => change (zlen [q]) with 1 end. lia.
    + exists b. repeat split; auto. lia.
Qed.
Lemma append_first_ok b room rest x : isblk b room rest [] -> 0 < room ->
  exists b', append_first b x = Some (b', x) /\ isblk b' room rest [x].
Proof.
  intros I H. unfold append_first. destruct (put_new _ _ _ _ x I H) as (b' & -> & I'). eauto.
Qed.
(** smart_append needs a free cell only when the list gets longer *)
Lemma smart_append_ok b room rest dst s l : isblk b room rest dst ->
  zlen (run_container_smart_append_exclusive dst s l) <= room ->
  exists b', smart_append b s l = Some b' /\ isblk b' room rest (run_container_smart_append_exclusive dst s l).
Proof.
  intros I. unfold run_container_smart_append_exclusive, smart_append. cbv zeta. pose proof (isblk_n _ _ _ _ I) as NB.
  destruct (snoc_cases dst) as [->|(D & p & ->)].
  - change (zlen (@nil run)) with 0 in *. replace (nruns b =? 0) with true by lia. cbn [Z.eqb orb app]. intros H. change (zlen [(s, l)]) with 1 in H.
    destruct (put_new _ _ _ _ (s, l) I) as (b' & E & I'). { change (zlen (@nil run)) with 0. lia. }
    rewrite E. eauto.
  - replace (nruns b =? 0) with false by (rewrite NB, zlen_app; change (zlen [p]) with 1; pose proof (zlen_nonneg D); lia).
    replace (zlen (D ++ [p]) =? 0) with false by (rewrite zlen_app; change (zlen [p]) with 1; pose proof (zlen_nonneg D); lia).
    rewrite (get_last _ _ _ _ _ I), rnth_last, !set_last_snoc. cbn [orb]. cbv zeta.
    destruct (fst p + snd p + 1 <? s).
    { intros H. rewrite zlen_app in H. change (zlen [(s, l)]) with 1 in H.
      destruct (put_new _ _ _ _ (s, l) I) as (b' & -> & I'); [lia|]. eauto. }
    destruct (fst p + snd p + 1 =? s). { intros _. apply (put_last _ _ _ _ _ _ I). }
    destruct (s =? fst p).
    { destruct (s + l + 1 <? fst p + snd p + 1); [intros _; apply (put_last _ _ _ _ _ _ I)|].
      destruct (fst p + snd p + 1 <? s + l + 1); [intros _; apply (put_last _ _ _ _ _ _ I)|].
      intros _. rewrite removelast_last. eexists. split; [reflexivity|]. now apply (pop_last _ _ _ _ p). }
    destruct (put_last _ _ _ _ _ (fst p, u16 (s - fst p - 1)) I) as (b1 & -> & I1).
    assert (N1 : nruns b = nruns b1). { rewrite (isblk_n _ _ _ _ I), (isblk_n _ _ _ _ I1), !zlen_app. reflexivity. }
    destruct (s + l + 1 <? fst p + snd p + 1); [|destruct (fst p + snd p + 1 <? s + l + 1)].
    + intros H. rewrite zlen_app in H. match type of H with context [zlen [?q]] => change (zlen [q]) with 1 in H end.
      rewrite N1. destruct (put_new _ _ _ _ (u16 (s + l + 1), u16 (fst p + snd p + 1 - (s + l + 1) - 1)) I1) as (b2 & -> & I2); [lia|]. eauto.
    + intros H. rewrite zlen_app in H. match type of H with context [zlen [?q]] => change (zlen [q]) with 1 in H end.
      rewrite N1. destruct (put_new _ _ _ _ (u16 (fst p + snd p + 1), u16 (s + l + 1 - (fst p + snd p + 1) - 1)) I1) as (b2 & -> & I2); [lia|]. eauto.
    + intros _. eauto.
Qed.
Lemma smart_append_len dst s l : zlen (run_container_smart_append_exclusive dst s l) <= zlen dst + 1.
Proof.
  unfold run_container_smart_append_exclusive. destruct (snoc_cases dst) as [->|(D & p & ->)].
  - cbv zeta. change (zlen (@nil run)) with 0. cbn [Z.eqb orb app]. change (zlen [(s, l)]) with 1. lia.
  - rewrite !set_last_snoc, removelast_last. cbv zeta.
    repeat match goal with |- context [if ?c then _ else _] => destruct c end; rewrite ?zlen_app;
    repeat match goal with |- context [zlen [?q]] => change (zlen [q]) with 1 end; lia.
Qed.
Lemma smart_append_ok' b room rest dst s l : isblk b room rest dst -> zlen dst < room ->
  exists b', smart_append b s l = Some b' /\ isblk b' room rest (run_container_smart_append_exclusive dst s l).
Proof. intros I H. apply smart_append_ok; auto. pose proof (smart_append_len dst s l). lia. Qed.

(** an operand at position p: what is left to read *)
Lemma rskip_in r p : 0 <= p < zlen r -> rskip p r = rnth r p :: rskip (p + 1) r.
Proof.
  intros H. unfold rskip, rnth. replace (Z.to_nat (p + 1)) with (S (Z.to_nat p)) by lia.
  assert (Z.to_nat p < length r)%nat as L by (unfold zlen in H; lia). revert L. generalize (Z.to_nat p). clear.
  induction r as [|x r IH]; intros n L; cbn [length] in L; [lia|]. destruct n; [reflexivity|]. cbn [skipn nth]. apply IH. lia.
Qed.
Lemma rskip_end r p : zlen r <= p -> rskip p r = [].
Proof. intros H. unfold rskip. apply skipn_all2. unfold zlen in H. lia. Qed.
Lemma zskip_in a p : 0 <= p < zlen a -> zskip p a = znth a p :: zskip (p + 1) a.
Proof.
  intros H. unfold zskip, znth. replace (Z.to_nat (p + 1)) with (S (Z.to_nat p)) by lia.
  assert (Z.to_nat p < length a)%nat as L by (unfold zlen in H; lia). revert L. generalize (Z.to_nat p). clear.
  induction a as [|x r IH]; intros n L; cbn [length] in L; [lia|]. destruct n; [reflexivity|]. cbn [skipn nth]. apply IH. lia.
Qed.
Lemma zskip_end a p : zlen a <= p -> zskip p a = [].
Proof. intros H. unfold zskip. apply skipn_all2. unfold zlen in H. lia. Qed.
Lemma aget_in a p : 0 <= p < zlen a -> aget a p = Some (znth a p).
Proof. intros H. unfold aget. now replace ((0 <=? p) && (p <? zlen a)) with true by lia. Qed.
(** [inp] reads the runs [r], whatever has been written to the room *)
Definition reads (inp : input) (room : Z) (rest : list (option run)) (r : list run) : Prop :=
  forall b dst, isblk b room rest dst -> forall i, 0 <= i < zlen r -> inp b i = Some (rnth r i).

Lemma union_loop_ok fuel in1 in2 room rest r1 r2 : reads in1 room rest r1 -> reads in2 room rest r2 ->
  forall b dst prev p1 p2, isblk b room rest dst -> dst <> [] -> 0 <= p1 <= zlen r1 -> 0 <= p2 <= zlen r2 ->
  zlen dst + (zlen r1 - p1) + (zlen r2 - p2) <= room ->
  exists b', union_loop fuel in1 in2 (zlen r1) (zlen r2) b prev p1 p2 = Some b' /\
             isblk b' room rest (run_union_loop fuel dst prev (rskip p1 r1) (rskip p2 r2)).
Proof.
  intros R1 R2. induction fuel as [|f IH]; intros b dst prev p1 p2 I N P1 P2 H; cbn [union_loop run_union_loop]; [eauto|].
  destruct (Z.ltb_spec p1 (zlen r1)) as [L1|L1], (Z.ltb_spec p2 (zlen r2)) as [L2|L2]; cbn [andb].
  - rewrite (R1 b dst I p1), (R2 b dst I p2), (rskip_in r1 p1), (rskip_in r2 p2) by lia.
    destruct (fst (rnth r1 p1) <=? fst (rnth r2 p2)).
    + pose proof (append_ok b room rest dst (rnth r1 p1) prev I N ltac:(lia)) as A.
      destruct (run_container_append dst (rnth r1 p1) prev) as [dst' prev']. destruct A as (b' & -> & I' & N' & L).
      rewrite <- (rskip_in r2 p2) by lia. apply IH; auto; lia.
    + pose proof (append_ok b room rest dst (rnth r2 p2) prev I N ltac:(lia)) as A.
      destruct (run_container_append dst (rnth r2 p2) prev) as [dst' prev']. destruct A as (b' & -> & I' & N' & L).
      rewrite <- (rskip_in r1 p1) by lia. apply IH; auto; lia.
  - rewrite (R1 b dst I p1), (rskip_in r1 p1), (rskip_end r2 p2) by lia.
    pose proof (append_ok b room rest dst (rnth r1 p1) prev I N ltac:(lia)) as A.
    destruct (run_container_append dst (rnth r1 p1) prev) as [dst' prev']. destruct A as (b' & -> & I' & N' & L).
    rewrite <- (rskip_end r2 p2) by lia. apply IH; auto; lia.
  - rewrite (R2 b dst I p2), (rskip_in r2 p2), (rskip_end r1 p1) by lia.
    pose proof (append_ok b room rest dst (rnth r2 p2) prev I N ltac:(lia)) as A.
    destruct (run_container_append dst (rnth r2 p2) prev) as [dst' prev']. destruct A as (b' & -> & I' & N' & L).
    rewrite <- (rskip_end r1 p1) by lia. apply IH; auto; lia.
  - rewrite (rskip_end r2 p2), (rskip_end r1 p1) by lia. eauto.
Qed.
Lemma union_runs_ok in1 in2 room rest r1 r2 b : reads in1 room rest r1 -> reads in2 room rest r2 ->
  r1 <> [] -> r2 <> [] -> isblk b room rest [] -> zlen r1 + zlen r2 <= room ->
  run_container_is_full r1 = false -> run_container_is_full r2 = false ->
  exists b', union_runs in1 in2 (zlen r1) (zlen r2) b = Some b' /\ isblk b' room rest (run_container_union r1 r2).
Proof.
  intros R1 R2 N1 N2 I H F1 F2. unfold union_runs, run_container_union. rewrite F1, F2. cbv zeta.
  assert (0 < zlen r1) by (destruct r1; [congruence|rewrite zlen_cons; pose proof (zlen_nonneg r1); lia]).
  assert (0 < zlen r2) by (destruct r2; [congruence|rewrite zlen_cons; pose proof (zlen_nonneg r2); lia]).
  rewrite (R1 b [] I 0), (R2 b [] I 0) by lia.
  replace (Z.to_nat (zlen r1)) with (length r1) by (unfold zlen; lia). replace (Z.to_nat (zlen r2)) with (length r2) by (unfold zlen; lia).
  destruct (fst (rnth r1 0) <=? fst (rnth r2 0)).
  - destruct (append_first_ok b room rest (rnth r1 0) I ltac:(lia)) as (b' & -> & I').
    cbn [run_container_append_first app].
    destruct (union_loop_ok (S (length r1 + length r2)) in1 in2 room rest r1 r2 R1 R2 b' [rnth r1 0] (rnth r1 0) 1 0 I') as (b2 & E & I2); try lia; try discriminate.
    { change (zlen [rnth r1 0]) with 1. lia. }
    exists b2. split; auto.
  - destruct (append_first_ok b room rest (rnth r2 0) I ltac:(lia)) as (b' & -> & I').
    cbn [run_container_append_first app].
    destruct (union_loop_ok (S (length r1 + length r2)) in1 in2 room rest r1 r2 R1 R2 b' [rnth r2 0] (rnth r2 0) 0 1 I') as (b2 & E & I2); try lia; try discriminate.
    { change (zlen [rnth r2 0]) with 1. lia. }
    exists b2. split; auto.
Qed.

(** allocation and copies *)
Lemma zlen_fresh n : 0 <= n -> zlen (fresh n) = n.
Proof. intros. unfold fresh, zlen. rewrite repeat_length. lia. Qed.
Lemma grow_capacity_ge c min : 0 <= c -> min <= grow_capacity c min /\ c <= grow_capacity c min.
Proof.
  intros H. unfold grow_capacity, RUN_DEFAULT_INIT_SIZE. cbv zeta.
  destruct (Z.eqb_spec c 0), (Z.ltb_spec c 64), (Z.ltb_spec c 1024);
  match goal with |- context [if ?x <? min then _ else _] => destruct (Z.ltb_spec x min) end; try lia.
  all: split; try lia; try (apply Z.div_le_lower_bound; lia). all: etransitivity; [apply Z.div_le_lower_bound with (b := 2) (q := c)|]; lia.
Qed.
Lemma cap_nonneg b : 0 <= cap b.
Proof. apply zlen_nonneg. Qed.
Lemma empty_isblk b : isblk (set_n b 0) (cap b) [] [].
Proof. exists (cells b). cbn [map app]. rewrite app_nil_r. split; [reflexivity|]. change (zlen (@nil run)) with 0. unfold cap. lia. Qed.
Definition room_for (b : rblk) (n : Z) : rblk := if cap b <? n then grow b n false else b.
Lemma room_for_cap b n : n <= cap (room_for b n).
Proof.
  unfold room_for. destruct (Z.ltb_spec (cap b) n); [|lia]. unfold grow, cap at 1. cbn [cells].
  pose proof (grow_capacity_ge (cap b) n (cap_nonneg b)). pose proof (cap_nonneg b). rewrite zlen_fresh; lia.
Qed.
Lemma copy_ok src dst r : stores src r -> exists b', copy src dst = Some b' /\ stores b' r.
Proof.
  intros S. unfold copy. rewrite (stores_n _ _ S). change (if cap dst <? zlen r then grow dst (zlen r) false else dst) with (room_for dst (zlen r)).
  pose proof (room_for_cap dst (zlen r)) as C. set (d := room_for dst (zlen r)) in *. unfold move_cells.
  pose proof (zlen_nonneg r). destruct (Z.eqb_spec (zlen r) 0) as [Z|Z].
  - eexists. split; [reflexivity|]. destruct r as [|x r]; [|rewrite zlen_cons in Z; pose proof (zlen_nonneg r); lia]. exists (cells d). reflexivity.
  - destruct S as (j & ->).
    assert (CS : zlen r <= cap (RB (map Some r ++ j) (zlen r))).
    { unfold cap. cbn [cells]. rewrite zlen_app, zlen_map. pose proof (zlen_nonneg j). lia. }
    assert (CD : cap (set_n d (zlen r)) = cap d) by reflexivity. rewrite CD.
    replace ((0 <=? 0) && (0 + zlen r <=? cap (RB (map Some r ++ j) (zlen r))) && (0 <=? 0) && (0 + zlen r <=? cap d)) with true by lia.
    eexists. split; [reflexivity|]. exists (skipn (Z.to_nat (0 + zlen r)) (cells (set_n d (zlen r)))).
    cbn [nruns set_n]. f_equal. change (Z.to_nat 0) with O. cbn [firstn app]. f_equal. unfold slice. cbn [cells]. change (Z.to_nat 0) with O. cbn [skipn].
    rewrite firstn_app. unfold zlen. rewrite Nat2Z.id, map_length, Nat.sub_diag. cbn [firstn]. rewrite app_nil_r. rewrite <- (map_length Some r). apply firstn_all.
Qed.
Lemma is_full_ok b r : stores b r -> r <> [] -> is_full b = Some (run_container_is_full r).
Proof.
  intros S N. unfold is_full. rewrite (stores_get b r 0 S). { now rewrite (stores_n _ _ S). }
  destruct r as [|x r]; [congruence|]. rewrite zlen_cons. pose proof (zlen_nonneg r). lia.
Qed.
Lemma reads_stores b r room rest : stores b r -> reads (fun _ => rget b) room rest r.
Proof. intros S c dst _ i Hi. now apply stores_get. Qed.

Theorem union_ok s1 s2 dst r1 r2 : stores s1 r1 -> stores s2 r2 -> r1 <> [] -> r2 <> [] ->
  exists b, union s1 s2 dst = Some b /\ stores b (run_container_union r1 r2).
Proof.
  intros S1 S2 N1 N2. unfold union. rewrite (is_full_ok s1 r1), (is_full_ok s2 r2) by auto.
  destruct (run_container_is_full r1) eqn:F1. { unfold run_container_union. rewrite F1. now apply copy_ok. }
  destruct (run_container_is_full r2) eqn:F2. { unfold run_container_union. rewrite F1, F2. now apply copy_ok. }
  cbv zeta. rewrite (stores_n _ _ S1), (stores_n _ _ S2).
  change (if cap dst <? zlen r1 + zlen r2 then grow dst (zlen r1 + zlen r2) false else dst) with (room_for dst (zlen r1 + zlen r2)).
  pose proof (room_for_cap dst (zlen r1 + zlen r2)) as C. set (d := room_for dst (zlen r1 + zlen r2)) in *.
  destruct (union_runs_ok (fun _ => rget s1) (fun _ => rget s2) (cap d) [] r1 r2 (set_n d 0)) as (b & E & I); auto.
  - now apply reads_stores.
  - now apply reads_stores.
  - apply empty_isblk.
  - exists b. split; auto. eapply isblk_stores; eauto.
Qed.

(** moving the runs to the end of their own block *)
Lemma moved_ok s r m : stores s r -> r <> [] -> zlen r <= m ->
  let b0 := if cap s <? m + zlen r then grow s (m + zlen r) true else s in
  exists b1 J, move_cells b0 m 0 (nruns b0) b0 = Some b1 /\ nruns b1 = zlen r /\ isblk (set_n b1 0) m (map Some r ++ J) [].
Proof.
  intros S N M b0.
  assert (exists j, b0 = RB (map Some r ++ j) (zlen r) /\ m + zlen r <= cap b0) as (j & E & C).
  { destruct S as (j & ->). unfold b0. destruct (Z.ltb_spec (cap (RB (map Some r ++ j) (zlen r))) (m + zlen r)) as [L|L].
    - unfold grow. cbn [cells nruns]. set (c := cap _) in *. exists (j ++ fresh (grow_capacity c (m + zlen r) - c)). rewrite <- app_assoc. split; auto.
      pose proof (grow_capacity_ge c (m + zlen r) (cap_nonneg _)) as (G1 & G2).
      unfold cap. cbn [cells]. rewrite app_assoc, zlen_app, zlen_fresh by lia. change (zlen (map Some r ++ j)) with c. lia.
    - exists j. split; auto. }
  assert (0 < zlen r) by (destruct r as [|x r]; [congruence|rewrite zlen_cons; pose proof (zlen_nonneg r); lia]).
  clearbody b0. subst b0. unfold move_cells. cbn [nruns].
  replace (zlen r =? 0) with false by lia.
  replace ((0 <=? 0) && (0 + zlen r <=? cap (RB (map Some r ++ j) (zlen r))) && (0 <=? m) && (m + zlen r <=? cap (RB (map Some r ++ j) (zlen r)))) with true by lia.
  unfold cap in C. cbn [cells] in *. eexists. exists (skipn (Z.to_nat (m + zlen r)) (map Some r ++ j)). split; [reflexivity|]. split; [reflexivity|].
  exists (firstn (Z.to_nat m) (map Some r ++ j)). unfold set_n. cbn [cells map app]. split.
  - f_equal. f_equal. f_equal. unfold slice. change (Z.to_nat 0) with O. cbn [skipn].
    rewrite firstn_app. unfold zlen. rewrite Nat2Z.id, map_length, Nat.sub_diag. cbn [firstn]. rewrite app_nil_r. rewrite <- (map_length Some r). apply firstn_all.
  - change (zlen (@nil run)) with 0. unfold zlen in *. rewrite firstn_length. lia.
Qed.
Lemma reads_moved r J m : reads (fun b i => rget b (m + i)) m (map Some r ++ J) r.
Proof.
  intros b dst (j & -> & E) i Hi. destruct (nth_split r (0,0) (n := Z.to_nat i)) as (A & B & Er & L). { unfold zlen in Hi. lia. }
  unfold rnth. rewrite Er at 1. rewrite map_app. cbn [map]. rewrite <- app_assoc. cbn [app].
  replace (map Some dst ++ j ++ map Some A ++ Some (nth (Z.to_nat i) r (0, 0)) :: map Some B ++ J)
    with ((map Some dst ++ j ++ map Some A) ++ Some (nth (Z.to_nat i) r (0, 0)) :: map Some B ++ J) by (rewrite <- !app_assoc; reflexivity).
  apply rget_at. rewrite !zlen_app, !zlen_map. unfold zlen in *. lia.
Qed.
Theorem union_inplace_ok s1 s2 r1 r2 : stores s1 r1 -> stores s2 r2 -> r1 <> [] -> r2 <> [] ->
  exists b, union_inplace s1 s2 = Some b /\ stores b (run_container_union r1 r2).
Proof.
  intros S1 S2 N1 N2. unfold union_inplace. rewrite (is_full_ok s1 r1), (is_full_ok s2 r2) by auto.
  destruct (run_container_is_full r1) eqn:F1. { unfold run_container_union. rewrite F1. eauto. }
  destruct (run_container_is_full r2) eqn:F2. { unfold run_container_union. rewrite F1, F2. now apply copy_ok. }
  cbv zeta. rewrite (stores_n _ _ S1), (stores_n _ _ S2).
  destruct (moved_ok s1 r1 (zlen r1 + zlen r2) S1 N1) as (b1 & J & E & N & I). { pose proof (zlen_nonneg r2). lia. }
  rewrite E, N.
  destruct (union_runs_ok (fun b i => rget b (zlen r1 + zlen r2 + i)) (fun _ => rget s2) (zlen r1 + zlen r2) (map Some r1 ++ J) r1 r2 (set_n b1 0)) as (b & E2 & I2); auto; try lia.
  - apply reads_moved.
  - now apply reads_stores.
  - exists b. split; auto. eapply isblk_stores; eauto.
Qed.

(** an array and a run container *)
Lemma array_run_union_loop_ok fuel inr room rest a r : reads inr room rest r ->
  forall b dst prev pa pr, isblk b room rest dst -> dst <> [] -> 0 <= pa <= zlen a -> 0 <= pr <= zlen r ->
  zlen dst + (zlen a - pa) + (zlen r - pr) <= room ->
  exists b', array_run_union_loop_m fuel inr a (zlen r) b prev pa pr = Some b' /\
             isblk b' room rest (array_run_union_loop fuel dst prev (zskip pa a) (rskip pr r)).
Proof.
  intros R. induction fuel as [|f IH]; intros b dst prev pa pr I N PA PR H; cbn [array_run_union_loop_m array_run_union_loop]; [eauto|].
  destruct (Z.ltb_spec pr (zlen r)) as [L1|L1], (Z.ltb_spec pa (zlen a)) as [L2|L2]; cbn [andb].
  - rewrite (R b dst I pr), (aget_in a pa), (rskip_in r pr), (zskip_in a pa) by lia.
    destruct (fst (rnth r pr) <=? znth a pa).
    + pose proof (append_ok b room rest dst (rnth r pr) prev I N ltac:(lia)) as A.
      destruct (run_container_append dst (rnth r pr) prev) as [dst' prev']. destruct A as (b' & -> & I' & N' & L).
      rewrite <- (zskip_in a pa) by lia. apply IH; auto; lia.
    + pose proof (append_value_ok b room rest dst (znth a pa) prev I N ltac:(lia)) as A.
      destruct (run_container_append_value dst (znth a pa) prev) as [dst' prev']. destruct A as (b' & -> & I' & N' & L).
      rewrite <- (rskip_in r pr) by lia. apply IH; auto; lia.
  - rewrite (R b dst I pr), (rskip_in r pr), (zskip_end a pa) by lia.
    pose proof (append_ok b room rest dst (rnth r pr) prev I N ltac:(lia)) as A.
    destruct (run_container_append dst (rnth r pr) prev) as [dst' prev']. destruct A as (b' & -> & I' & N' & L).
    rewrite <- (zskip_end a pa) by lia. apply IH; auto; lia.
  - rewrite (aget_in a pa), (zskip_in a pa), (rskip_end r pr) by lia.
    pose proof (append_value_ok b room rest dst (znth a pa) prev I N ltac:(lia)) as A.
    destruct (run_container_append_value dst (znth a pa) prev) as [dst' prev']. destruct A as (b' & -> & I' & N' & L).
    rewrite <- (rskip_end r pr) by lia. apply IH; auto; lia.
  - rewrite (rskip_end r pr), (zskip_end a pa) by lia. eauto.
Qed.
Lemma array_run_union_runs_ok inr room rest a r b : reads inr room rest r -> a <> [] -> r <> [] ->
  isblk b room rest [] -> zlen a + zlen r <= room -> run_container_is_full r = false ->
  exists b', array_run_union_runs inr a (zlen r) b = Some b' /\ isblk b' room rest (array_run_container_union a r).
Proof.
  intros R NA NR I H F. unfold array_run_union_runs, array_run_container_union. rewrite F. cbv zeta.
  assert (0 < zlen r) by (destruct r as [|x r]; [congruence|rewrite zlen_cons; pose proof (zlen_nonneg r); lia]).
  assert (0 < zlen a) by (destruct a as [|x a]; [congruence|rewrite zlen_cons; pose proof (zlen_nonneg a); lia]).
  rewrite (R b [] I 0), (aget_in a 0) by lia.
  replace (Z.to_nat (zlen r)) with (length r) by (unfold zlen; lia).
  destruct (fst (rnth r 0) <=? znth a 0).
  - destruct (append_first_ok b room rest (rnth r 0) I ltac:(lia)) as (b' & -> & I'). cbn [run_container_append_first app].
    destruct (array_run_union_loop_ok (S (length a + length r)) inr room rest a r R b' [rnth r 0] (rnth r 0) 0 1 I') as (b2 & E & I2); try lia; try discriminate.
    { change (zlen [rnth r 0]) with 1. lia. }
    exists b2. split; auto.
  - unfold append_value_first. destruct (append_first_ok b room rest (znth a 0, 0) I ltac:(lia)) as (b' & -> & I'). cbn [run_container_append_value_first app].
    destruct (array_run_union_loop_ok (S (length a + length r)) inr room rest a r R b' [(znth a 0, 0)] (znth a 0, 0) 1 0 I') as (b2 & E & I2); try lia; try discriminate.
    { change (zlen [(znth a 0, 0)]) with 1. lia. }
    exists b2. split; auto.
Qed.
Lemma grown_isblk b n : nruns b = 0 -> 0 <= n -> exists room, isblk (grow b n false) room [] [] /\ n <= room.
Proof.
  intros N H. pose proof (grow_capacity_ge (cap b) n (cap_nonneg b)) as (G & _). exists (grow_capacity (cap b) n). split; auto.
  exists (fresh (grow_capacity (cap b) n)). unfold grow. rewrite N, app_nil_r. cbn [map app]. split; [reflexivity|].
  change (zlen (@nil run)) with 0. rewrite zlen_fresh; lia.
Qed.
Theorem array_run_union_ok a s dst r : stores s r -> nruns dst = 0 -> a <> [] -> r <> [] ->
  exists b, array_run_union a s dst = Some b /\ stores b (array_run_container_union a r).
Proof.
  intros S ND NA NR. unfold array_run_union. rewrite (is_full_ok s r) by auto.
  destruct (run_container_is_full r) eqn:F. { unfold array_run_container_union. rewrite F. now apply copy_ok. }
  rewrite (stores_n _ _ S). pose proof (zlen_nonneg a). pose proof (zlen_nonneg r).
  destruct (grown_isblk dst (2 * (zlen a + zlen r)) ND ltac:(lia)) as (room & I & G).
  destruct (array_run_union_runs_ok (fun _ => rget s) room [] a r _ (reads_stores s r _ _ S) NA NR I) as (b & E & I2); auto; [lia|].
  exists b. split; auto. eapply isblk_stores; eauto.
Qed.
Theorem array_run_union_inplace_ok a s r : stores s r -> a <> [] -> r <> [] ->
  exists b, array_run_union_inplace a s = Some b /\ stores b (array_run_container_union a r).
Proof.
  intros S NA NR. unfold array_run_union_inplace. rewrite (is_full_ok s r) by auto.
  destruct (run_container_is_full r) eqn:F. { unfold array_run_container_union. rewrite F. eauto. }
  cbv zeta. rewrite (stores_n _ _ S).
  destruct (moved_ok s r (zlen a + zlen r) S NR) as (b1 & J & E & N & I). { pose proof (zlen_nonneg a). lia. }
  rewrite E, N.
  destruct (array_run_union_runs_ok (fun b i => rget b (zlen a + zlen r + i)) (zlen a + zlen r) (map Some r ++ J) a r (set_n b1 0)) as (b & E2 & I2); auto; try lia.
  - apply reads_moved.
  - exists b. split; auto. eapply isblk_stores; eauto.
Qed.

(** symmetric difference *)
Lemma xor_loop_ok fuel s1 s2 room rest r1 r2 : stores s1 r1 -> stores s2 r2 ->
  forall b dst p1 p2, isblk b room rest dst -> 0 <= p1 <= zlen r1 -> 0 <= p2 <= zlen r2 ->
  zlen dst + (zlen r1 - p1) + (zlen r2 - p2) <= room ->
  exists b', xor_loop fuel s1 s2 b p1 p2 = Some b' /\ isblk b' room rest (run_xor_loop fuel dst (rskip p1 r1) (rskip p2 r2)).
Proof.
  intros S1 S2. induction fuel as [|f IH]; intros b dst p1 p2 I P1 P2 H; cbn [xor_loop run_xor_loop]; [eauto|].
  rewrite (stores_n _ _ S1), (stores_n _ _ S2).
  destruct (Z.ltb_spec p1 (zlen r1)) as [L1|L1], (Z.ltb_spec p2 (zlen r2)) as [L2|L2]; cbn [andb].
  - rewrite (stores_get s1 r1 p1), (stores_get s2 r2 p2), (rskip_in r1 p1), (rskip_in r2 p2) by (auto; lia).
    destruct (fst (rnth r1 p1) <=? fst (rnth r2 p2)).
    + destruct (smart_append_ok' b room rest dst (fst (rnth r1 p1)) (snd (rnth r1 p1)) I ltac:(lia)) as (b' & -> & I').
      rewrite <- (rskip_in r2 p2) by lia. apply IH; auto; try lia. pose proof (smart_append_len dst (fst (rnth r1 p1)) (snd (rnth r1 p1))). lia.
    + destruct (smart_append_ok' b room rest dst (fst (rnth r2 p2)) (snd (rnth r2 p2)) I ltac:(lia)) as (b' & -> & I').
      rewrite <- (rskip_in r1 p1) by lia. apply IH; auto; try lia. pose proof (smart_append_len dst (fst (rnth r2 p2)) (snd (rnth r2 p2))). lia.
  - rewrite (stores_get s1 r1 p1), (rskip_in r1 p1), (rskip_end r2 p2) by (auto; lia).
    destruct (smart_append_ok' b room rest dst (fst (rnth r1 p1)) (snd (rnth r1 p1)) I ltac:(lia)) as (b' & -> & I').
    rewrite <- (rskip_end r2 p2) by lia. apply IH; auto; try lia. pose proof (smart_append_len dst (fst (rnth r1 p1)) (snd (rnth r1 p1))). lia.
  - rewrite (stores_get s2 r2 p2), (rskip_in r2 p2), (rskip_end r1 p1) by (auto; lia).
    destruct (smart_append_ok' b room rest dst (fst (rnth r2 p2)) (snd (rnth r2 p2)) I ltac:(lia)) as (b' & -> & I').
    rewrite <- (rskip_end r1 p1) by lia. apply IH; auto; try lia. pose proof (smart_append_len dst (fst (rnth r2 p2)) (snd (rnth r2 p2))). lia.
  - rewrite (rskip_end r2 p2), (rskip_end r1 p1) by lia. eauto.
Qed.
Theorem xor_ok s1 s2 dst r1 r2 : stores s1 r1 -> stores s2 r2 ->
  exists b, xor s1 s2 dst = Some b /\ stores b (run_container_xor r1 r2).
Proof.
  intros S1 S2. unfold xor, run_container_xor. cbv zeta. rewrite (stores_n _ _ S1), (stores_n _ _ S2).
  change (if cap dst <? zlen r1 + zlen r2 then grow dst (zlen r1 + zlen r2) false else dst) with (room_for dst (zlen r1 + zlen r2)).
  pose proof (room_for_cap dst (zlen r1 + zlen r2)) as C. set (d := room_for dst (zlen r1 + zlen r2)) in *.
  replace (Z.to_nat (zlen r1 + zlen r2)) with (length r1 + length r2)%nat by (unfold zlen; lia).
  pose proof (zlen_nonneg r1). pose proof (zlen_nonneg r2).
  destruct (xor_loop_ok (S (length r1 + length r2)) s1 s2 (cap d) [] r1 r2 S1 S2 (set_n d 0) [] 0 0 (empty_isblk d)) as (b & E & I); try lia.
  { change (zlen (@nil run)) with 0. lia. }
  exists b. split; auto. eapply isblk_stores; eauto.
Qed.
Lemma array_run_xor_loop_ok fuel a s room rest r : stores s r ->
  forall b dst pa pr, isblk b room rest dst -> 0 <= pa <= zlen a -> 0 <= pr <= zlen r ->
  zlen dst + (zlen a - pa) + (zlen r - pr) <= room ->
  exists b', array_run_xor_loop_m fuel a s b pa pr = Some b' /\ isblk b' room rest (array_run_xor_loop fuel dst (zskip pa a) (rskip pr r)).
Proof.
  intros S1. induction fuel as [|f IH]; intros b dst pa pr I PA PR H; cbn [array_run_xor_loop_m array_run_xor_loop]; [eauto|].
  rewrite (stores_n _ _ S1).
  destruct (Z.ltb_spec pr (zlen r)) as [L1|L1], (Z.ltb_spec pa (zlen a)) as [L2|L2]; cbn [andb].
  - rewrite (stores_get s r pr), (aget_in a pa), (rskip_in r pr), (zskip_in a pa) by (auto; lia).
    destruct (fst (rnth r pr) <=? znth a pa).
    + destruct (smart_append_ok' b room rest dst (fst (rnth r pr)) (snd (rnth r pr)) I ltac:(lia)) as (b' & -> & I').
      rewrite <- (zskip_in a pa) by lia. apply IH; auto; try lia. pose proof (smart_append_len dst (fst (rnth r pr)) (snd (rnth r pr))). lia.
    + destruct (smart_append_ok' b room rest dst (znth a pa) 0 I ltac:(lia)) as (b' & -> & I').
      rewrite <- (rskip_in r pr) by lia. apply IH; auto; try lia. pose proof (smart_append_len dst (znth a pa) 0). lia.
  - rewrite (stores_get s r pr), (rskip_in r pr), (zskip_end a pa) by (auto; lia).
    destruct (smart_append_ok' b room rest dst (fst (rnth r pr)) (snd (rnth r pr)) I ltac:(lia)) as (b' & -> & I').
    rewrite <- (zskip_end a pa) by lia. apply IH; auto; try lia. pose proof (smart_append_len dst (fst (rnth r pr)) (snd (rnth r pr))). lia.
  - rewrite (aget_in a pa), (zskip_in a pa), (rskip_end r pr) by lia.
    destruct (smart_append_ok' b room rest dst (znth a pa) 0 I ltac:(lia)) as (b' & -> & I').
    rewrite <- (rskip_end r pr) by lia. apply IH; auto; try lia. pose proof (smart_append_len dst (znth a pa) 0). lia.
  - rewrite (rskip_end r pr), (zskip_end a pa) by lia. eauto.
Qed.
Theorem array_run_lazy_xor_ok a s dst r : stores s r ->
  exists b, array_run_lazy_xor a s dst = Some b /\ stores b (array_run_container_lazy_xor a r).
Proof.
  intros S1. unfold array_run_lazy_xor, array_run_container_lazy_xor. cbv zeta. rewrite (stores_n _ _ S1).
  pose proof (zlen_nonneg a). pose proof (zlen_nonneg r).
  destruct (grown_isblk (set_n dst 0) (zlen a + zlen r) eq_refl ltac:(lia)) as (room & I & G).
  change (set_n (grow dst (zlen a + zlen r) false) 0) with (grow (set_n dst 0) (zlen a + zlen r) false).
  replace (Z.to_nat (zlen r)) with (length r) by (unfold zlen; lia).
  destruct (array_run_xor_loop_ok (S (length a + length r)) a s room [] r S1 _ [] 0 0 I) as (b & E & I2); try lia.
  { change (zlen (@nil run)) with 0. lia. }
  exists b. split; auto. eapply isblk_stores; eauto.
Qed.

(** intersection *)
Definition cached (r : list run) (p s e : Z) : Prop :=
  p < zlen r -> s = fst (rnth r p) /\ e = fst (rnth r p) + snd (rnth r p) + 1.
Lemma reload_ok src r p s e : stores src r -> 0 <= p -> exists s' e', reload src p s e = Some (s', e') /\ cached r p s' e'.
Proof.
  intros S H. unfold reload. rewrite (stores_n _ _ S). destruct (Z.ltb_spec p (zlen r)).
  - rewrite (stores_get src r p) by (auto; lia). do 2 eexists. split; [reflexivity|]. intros _. auto.
  - do 2 eexists. split; [reflexivity|]. intros L. lia.
Qed.
Lemma emit_ok b room rest dst x : isblk b room rest dst -> zlen dst < room -> exists b', emit b x = Some b' /\ isblk b' room rest (dst ++ [x]).
Proof. intros I H. unfold emit. destruct (put_new _ _ _ _ x I H) as (b' & -> & I'). eauto. Qed.
Lemma zlen_snoc {A} (l : list A) x : zlen (l ++ [x]) = zlen l + 1.
Proof. rewrite zlen_app. reflexivity. Qed.
Lemma intersection_loop_ok fuel s1 s2 room rest r1 r2 : stores s1 r1 -> stores s2 r2 ->
  forall b dst p1 p2 s e xs xe, isblk b room rest dst -> 0 <= p1 <= zlen r1 -> 0 <= p2 <= zlen r2 ->
  zlen dst + (zlen r1 - p1) + (zlen r2 - p2) <= room -> cached r1 p1 s e -> cached r2 p2 xs xe ->
  exists b', intersection_loop fuel s1 s2 b p1 p2 s e xs xe = Some b' /\
             isblk b' room rest (run_intersection_loop fuel dst (rskip p1 r1) (rskip p2 r2)).
Proof.
  intros S1 S2. induction fuel as [|f IH]; intros b dst p1 p2 s e xs xe I P1 P2 H C1 C2; cbn [intersection_loop run_intersection_loop]; [eauto|].
  rewrite (stores_n _ _ S1), (stores_n _ _ S2).
  destruct (Z.ltb_spec p1 (zlen r1)) as [L1|L1]; cbn [andb].
  2: { rewrite (rskip_end r1 p1) by lia. eauto. }
  destruct (Z.ltb_spec p2 (zlen r2)) as [L2|L2].
  2: { rewrite (rskip_end r2 p2) by lia. destruct (rskip p1 r1); eauto. }
  rewrite (rskip_in r1 p1), (rskip_in r2 p2) by lia. destruct (C1 L1) as (<- & <-), (C2 L2) as (<- & <-).
  destruct (reload_ok s1 r1 (p1 + 1) s e S1 ltac:(lia)) as (s' & e' & E1 & C1').
  destruct (reload_ok s2 r2 (p2 + 1) xs xe S2 ltac:(lia)) as (xs' & xe' & E2 & C2').
  destruct (e <=? xs). { rewrite E1, <- (rskip_in r2 p2) by lia. apply IH; auto; lia. }
  destruct (xe <=? s). { rewrite E2, <- (rskip_in r1 p1) by lia. apply IH; auto; lia. }
  set (ls := if xs <? s then s else xs). fold (emit b (u16 ls, u16 (e - ls - 1))). fold (emit b (u16 ls, u16 (xe - ls - 1))).
  destruct (e =? xe); [|destruct (e <? xe)].
  - rewrite E1, E2. destruct (emit_ok b room rest dst (u16 ls, u16 (e - ls - 1)) I ltac:(lia)) as (b' & -> & I').
    apply IH; auto; try lia. rewrite zlen_snoc. lia.
  - rewrite E1. destruct (emit_ok b room rest dst (u16 ls, u16 (e - ls - 1)) I ltac:(lia)) as (b' & -> & I').
    rewrite <- (rskip_in r2 p2) by lia. apply IH; auto; try lia. rewrite zlen_snoc. lia.
  - rewrite E2. destruct (emit_ok b room rest dst (u16 ls, u16 (xe - ls - 1)) I ltac:(lia)) as (b' & -> & I').
    rewrite <- (rskip_in r1 p1) by lia. apply IH; auto; try lia. rewrite zlen_snoc. lia.
Qed.
Lemma nonempty_zlen {A} (l : list A) : l <> [] -> 0 < zlen l.
Proof. destruct l as [|x l]; [congruence|]. rewrite zlen_cons. pose proof (zlen_nonneg l). lia. Qed.
Theorem intersection_ok s1 s2 dst r1 r2 : stores s1 r1 -> stores s2 r2 -> r1 <> [] -> r2 <> [] ->
  exists b, intersection s1 s2 dst = Some b /\ stores b (run_container_intersection r1 r2).
Proof.
  intros S1 S2 N1 N2. unfold intersection, run_container_intersection. rewrite (is_full_ok s1 r1), (is_full_ok s2 r2) by auto.
  destruct (run_container_is_full r1); [now apply copy_ok|]. destruct (run_container_is_full r2); [now apply copy_ok|].
  cbv zeta. rewrite (stores_n _ _ S1), (stores_n _ _ S2).
  change (if cap dst <? zlen r1 + zlen r2 then grow dst (zlen r1 + zlen r2) false else dst) with (room_for dst (zlen r1 + zlen r2)).
  pose proof (room_for_cap dst (zlen r1 + zlen r2)) as C. set (d := room_for dst (zlen r1 + zlen r2)) in *.
  pose proof (nonempty_zlen r1 N1). pose proof (nonempty_zlen r2 N2).
  rewrite (stores_get s1 r1 0), (stores_get s2 r2 0) by (auto; lia).
  replace (Z.to_nat (zlen r1 + zlen r2)) with (length r1 + length r2)%nat by (unfold zlen; lia).
  destruct (intersection_loop_ok (S (length r1 + length r2)) s1 s2 (cap d) [] r1 r2 S1 S2 (set_n d 0) [] 0 0
     (fst (rnth r1 0)) (fst (rnth r1 0) + snd (rnth r1 0) + 1) (fst (rnth r2 0)) (fst (rnth r2 0) + snd (rnth r2 0) + 1) (empty_isblk d)) as (b & E & I); try lia.
  { change (zlen (@nil run)) with 0. lia. } { intros _. auto. } { intros _. auto. }
  exists b. split; auto. eapply isblk_stores; eauto.
Qed.

(** difference *)
Lemma move_tail b room rest dst src r p : isblk b room rest dst -> stores src r -> 0 <= p < zlen r ->
  zlen dst + (zlen r - p) <= room ->
  exists b', move_cells b (nruns b) p (zlen r - p) src = Some b' /\ isblk (set_n b' (nruns b + (zlen r - p))) room rest (dst ++ rskip p r).
Proof.
  intros (j & -> & E) (k & ->) P H. unfold move_cells. replace (zlen r - p =? 0) with false by lia. cbn [nruns]. unfold cap. cbn [cells].
  pose proof (zlen_nonneg dst). pose proof (zlen_nonneg k). pose proof (zlen_nonneg rest).
  rewrite !zlen_app, !zlen_map.
  replace ((0 <=? p) && (p + (zlen r - p) <=? zlen r + zlen k) && (0 <=? zlen dst) && (zlen dst + (zlen r - p) <=? zlen dst + (zlen j + zlen rest))) with true by lia.
  eexists. split; [reflexivity|]. exists (skipn (Z.to_nat (zlen r - p)) j). unfold set_n. cbn [cells].
  assert (L : zlen (rskip p r) = zlen r - p). { unfold rskip, zlen. rewrite skipn_length. unfold zlen in P. lia. }
  split; [f_equal|].
  - rewrite map_app, <- app_assoc.
    replace (firstn (Z.to_nat (zlen dst)) (map Some dst ++ j ++ rest)) with (map Some dst).
    2: { rewrite firstn_app. unfold zlen. rewrite Nat2Z.id, map_length, Nat.sub_diag. cbn [firstn]. rewrite app_nil_r, <- (map_length Some dst). now rewrite firstn_all. }
    f_equal. f_equal.
    + unfold slice, rskip. rewrite skipn_app, map_length. replace (Z.to_nat p - length r)%nat with O by (unfold zlen in P; lia). cbn [skipn].
      rewrite firstn_app, skipn_length, map_length. replace (Z.to_nat (zlen r - p) - (length r - Z.to_nat p))%nat with O by (unfold zlen; lia).
      cbn [firstn]. rewrite app_nil_r, <- skipn_map. apply firstn_all2. rewrite skipn_length, map_length. unfold zlen. lia.
    + replace (Z.to_nat (zlen dst + (zlen r - p))) with (length (map Some dst) + Z.to_nat (zlen r - p))%nat by (rewrite map_length; unfold zlen in *; lia).
      rewrite skipn_app, skipn_all2 by lia. cbn [app].
      replace (length (map Some dst) + Z.to_nat (zlen r - p) - length (map Some dst))%nat with (Z.to_nat (zlen r - p)) by lia.
      rewrite skipn_app. replace (Z.to_nat (zlen r - p) - length j)%nat with O by (unfold zlen in *; lia). reflexivity.
  - rewrite zlen_app. lia.
  - rewrite zlen_app. assert (zlen (skipn (Z.to_nat (zlen r - p)) j) = zlen j - (zlen r - p)) by (unfold zlen in *; rewrite skipn_length; lia). lia.
Qed.
Lemma andnot_rest_ok b room rest dst s1 r1 p1 s e : isblk b room rest dst -> stores s1 r1 -> 0 <= p1 < zlen r1 ->
  zlen dst + (zlen r1 - p1) <= room ->
  exists b', andnot_rest s1 b p1 s e = Some b' /\ isblk b' room rest (dst ++ [(u16 s, u16 (e - s - 1))] ++ rskip (p1 + 1) r1).
Proof.
  intros I S1 P H. unfold andnot_rest. rewrite (stores_n _ _ S1). replace (p1 <? zlen r1) with true by lia.
  destruct (emit_ok b room rest dst (u16 s, u16 (e - s - 1)) I ltac:(lia)) as (b' & -> & I').
  destruct (Z.ltb_spec (p1 + 1) (zlen r1)).
  - destruct (move_tail b' room rest _ s1 r1 (p1 + 1) I' S1) as (b2 & -> & I2); [lia|rewrite zlen_snoc; lia|].
    eexists. split; [reflexivity|]. rewrite app_assoc. exact I2.
  - rewrite (rskip_end r1 (p1 + 1)) by lia. eauto.
Qed.
Definition brk (p2 n2 e2 s : Z) : Z := if (p2 <? n2) && (e2 <=? s) then 1 else 0.
Lemma andnot_loop_end fuel s1 s2 b p2 s e t u r1 : stores s1 r1 -> andnot_loop fuel s1 s2 b (zlen r1) p2 s e t u = Some (b, zlen r1, s, e).
Proof. intros S1. destruct fuel; cbn [andnot_loop]; auto. rewrite (stores_n _ _ S1), Z.ltb_irrefl. reflexivity. Qed.
Lemma andnot_loop_ok fuel s1 s2 room rest r1 r2 : stores s1 r1 -> stores s2 r2 ->
  (forall i, 0 <= i < zlen r1 -> 0 <= snd (rnth r1 i)) -> (forall i, 0 <= i < zlen r2 -> 0 <= snd (rnth r2 i)) ->
  forall b dst p1 p2 s e t u, isblk b room rest dst -> 0 <= p1 < zlen r1 -> 0 <= p2 <= zlen r2 -> s < e ->
  zlen dst + (zlen r1 - p1) + (zlen r2 - p2) - brk p2 (zlen r2) u s <= room -> cached r2 p2 t u ->
  zlen r1 - p1 + 2 * (zlen r2 - p2) - brk p2 (zlen r2) u s < Z.of_nat fuel ->
  exists b', (do (b, p1, s, e) <- andnot_loop fuel s1 s2 b p1 p2 s e t u; andnot_rest s1 b p1 s e) = Some b' /\
             isblk b' room rest (run_andnot_loop fuel dst s e (rskip (p1 + 1) r1) (rskip p2 r2)).
Proof.
  intros S1 S2 W1 W2. induction fuel as [|f IH]; intros b dst p1 p2 s e t u I P1 P2 SE H C F.
  { exfalso. unfold brk in *. destruct (Z.ltb_spec p2 (zlen r2)); cbn [andb] in *; [destruct (u <=? s)|]; lia. }
  cbn [andnot_loop run_andnot_loop]. rewrite (stores_n _ _ S1), (stores_n _ _ S2).
  replace (p1 <? zlen r1) with true by lia. cbn [andb].
  destruct (Z.ltb_spec p2 (zlen r2)) as [L2|L2].
  2: { rewrite (rskip_end r2 p2) by lia. apply andnot_rest_ok; auto; try lia.
       unfold brk in H. replace (p2 <? zlen r2) with false in H by lia. cbn [andb] in H. lia. }
  rewrite (rskip_in r2 p2) by lia. destruct (C L2) as (Et & Eu). rewrite <- Et in Eu |- *. rewrite <- Eu.
  assert (TU : t < u). { specialize (W2 p2 ltac:(lia)). lia. }
  unfold brk in H, F. replace (p2 <? zlen r2) with true in H, F by lia. cbn [andb] in H, F.
  (* the run at p1 is done: go on at p1+1 *)
  assert (NEXT : forall b' dst', isblk b' room rest dst' -> zlen dst' + (zlen r1 - (p1 + 1)) + (zlen r2 - p2) <= room ->
    zlen r1 - (p1 + 1) + 2 * (zlen r2 - p2) < Z.of_nat f ->
    exists b2, (do (b, p1, s, e) <- (do (s', e') <- reload s1 (p1 + 1) s e; andnot_loop f s1 s2 b' (p1 + 1) p2 s' e' t u); andnot_rest s1 b p1 s e) = Some b2 /\
      isblk b2 room rest (match rskip (p1 + 1) r1 with [] => dst' | x :: r1' => run_andnot_loop f dst' (fst x) (fst x + snd x + 1) r1' (rnth r2 p2 :: rskip (p2 + 1) r2) end)).
  { intros b' dst' I' H' F'. destruct (Z_lt_dec (p1 + 1) (zlen r1)) as [L1|L1].
    - rewrite (rskip_in r1 (p1 + 1)), <- (rskip_in r2 p2) by lia. unfold reload. rewrite (stores_n _ _ S1). replace (p1 + 1 <? zlen r1) with true by lia.
      rewrite (stores_get s1 r1 (p1 + 1)) by (auto; lia).
      replace (p1 + 1 + 1) with ((p1 + 1) + 1) by lia. apply IH; auto; try lia.
      + specialize (W1 (p1 + 1) ltac:(lia)). lia.
      + unfold brk. destruct ((p2 <? zlen r2) && (u <=? fst (rnth r1 (p1 + 1)))); lia.
      + unfold brk. destruct ((p2 <? zlen r2) && (u <=? fst (rnth r1 (p1 + 1)))); lia.
    - replace (p1 + 1) with (zlen r1) by lia. rewrite rskip_end by lia. unfold reload. rewrite (stores_n _ _ S1), Z.ltb_irrefl.
      rewrite (andnot_loop_end f s1 s2 b' p2 s e t u r1 S1). unfold andnot_rest. rewrite (stores_n _ _ S1), Z.ltb_irrefl. eauto. }
  destruct (Z.leb_spec e t).
  { replace (u <=? s) with false in H, F by lia.
    destruct (emit_ok b room rest dst (u16 s, u16 (e - s - 1)) I ltac:(lia)) as (b' & -> & I').
    apply (NEXT b' _ I'); [rewrite zlen_snoc; lia|lia]. }
  destruct (Z.leb_spec u s).
  { destruct (reload_ok s2 r2 (p2 + 1) t u S2 ltac:(lia)) as (t' & u' & -> & C'). apply IH; auto; try lia.
    - unfold brk. destruct ((p2 + 1 <? zlen r2) && (u' <=? s)); lia.
    - unfold brk. destruct ((p2 + 1 <? zlen r2) && (u' <=? s)); lia. }
  assert (M : exists b', (if s <? t then emit b (u16 s, u16 (t - s - 1)) else Some b) = Some b' /\
     isblk b' room rest (if s <? t then dst ++ [(u16 s, u16 (t - s - 1))] else dst) /\
     zlen (if s <? t then dst ++ [(u16 s, u16 (t - s - 1))] else dst) <= zlen dst + 1).
  { destruct (s <? t); [|exists b; repeat split; auto; lia].
    destruct (emit_ok b room rest dst (u16 s, u16 (t - s - 1)) I ltac:(lia)) as (b' & -> & I'). exists b'. split; auto. split; auto. rewrite zlen_snoc. lia. }
  destruct M as (b' & -> & I' & L'). set (dst' := if s <? t then _ else dst) in *. clearbody dst'.
  destruct (Z.ltb_spec u e).
  - rewrite <- (rskip_in r2 p2) by lia. apply IH; auto; try lia.
    + unfold brk. replace ((p2 <? zlen r2) && (u <=? u)) with true by lia. lia.
    + unfold brk. replace ((p2 <? zlen r2) && (u <=? u)) with true by lia. lia.
  - apply (NEXT b' dst' I'); lia.
Qed.
Lemma rwf_snd r : rwf r -> forall i, 0 <= i < zlen r -> 0 <= snd (rnth r i).
Proof.
  intros W i Hi. unfold rnth. assert (In (nth (Z.to_nat i) r (0, 0)) r) as H by (apply nth_In; unfold zlen in Hi; lia).
  destruct (nth (Z.to_nat i) r (0, 0)) as [v l]. destruct (rok_In _ _ _ _ W H). cbn [snd]. lia.
Qed.
Theorem andnot_ok s1 s2 dst r1 r2 : stores s1 r1 -> stores s2 r2 -> r1 <> [] -> r2 <> [] -> rwf r1 -> rwf r2 ->
  exists b, andnot s1 s2 dst = Some b /\ stores b (run_container_andnot r1 r2).
Proof.
  intros S1 S2 N1 N2 W1 W2. unfold andnot. cbv zeta. rewrite (stores_n _ _ S1), (stores_n _ _ S2).
  change (if cap dst <? zlen r1 + zlen r2 then grow dst (zlen r1 + zlen r2) false else dst) with (room_for dst (zlen r1 + zlen r2)).
  pose proof (room_for_cap dst (zlen r1 + zlen r2)) as C. set (d := room_for dst (zlen r1 + zlen r2)) in *.
  pose proof (nonempty_zlen r1 N1). pose proof (nonempty_zlen r2 N2).
  rewrite (stores_get s1 r1 0), (stores_get s2 r2 0) by (auto; lia).
  replace (Z.to_nat (zlen r1 + zlen r2 + zlen r2)) with (length r1 + (length r2 + length r2))%nat by (unfold zlen; lia).
  pose proof (rwf_snd r1 W1) as V1. pose proof (rwf_snd r2 W2) as V2. pose proof (V1 0 ltac:(lia)).
  destruct (andnot_loop_ok (S (length r1 + (length r2 + length r2))) s1 s2 (cap d) [] r1 r2 S1 S2 V1 V2 (set_n d 0) [] 0 0
     (fst (rnth r1 0)) (fst (rnth r1 0) + snd (rnth r1 0) + 1) (fst (rnth r2 0)) (fst (rnth r2 0) + snd (rnth r2 0) + 1) (empty_isblk d)) as (b & E & I); try lia.
  { change (zlen (@nil run)) with 0. unfold brk. destruct ((0 <? zlen r2) && _); lia. } { intros _. auto. }
  { unfold brk. destruct ((0 <? zlen r2) && _); unfold zlen; lia. }
  exists b. split; auto. destruct r1 as [|x r1]; [congruence|]. eapply isblk_stores. exact I.
Qed.

(** negation of a range *)
Lemma runs_before_app s r : let '(A, B) := runs_before r s in r = A ++ B /\ (forall x, In x A -> fst x < s) /\ (forall x B', B = x :: B' -> s <= fst x).
Proof.
  induction r as [|x r IH]; cbn [runs_before]; [repeat split; [intros x []|discriminate]|].
  destruct (Z.ltb_spec (fst x) s).
  - destruct (runs_before r s) as [A B]. destruct IH as (-> & H1 & H2). repeat split; auto. intros y [<-|Hy]; auto.
  - repeat split; [intros y []|]. intros y B' E. inversion E; subst; auto.
Qed.
Lemma append_all_len B : forall dst, zlen (append_exclusive_all dst B) <= zlen dst + zlen B.
Proof.
  induction B as [|x B IH]; intros dst; [cbn [append_exclusive_all fold_left]; unfold append_exclusive_all; cbn; pose proof (zlen_nonneg (@nil run)); change (zlen (@nil run)) with 0; lia|].
  change (append_exclusive_all dst (x :: B)) with (append_exclusive_all (run_container_smart_append_exclusive dst (fst x) (snd x)) B).
  specialize (IH (run_container_smart_append_exclusive dst (fst x) (snd x))). pose proof (smart_append_len dst (fst x) (snd x)). rewrite zlen_cons. lia.
Qed.
Lemma rnth_app2 A B i : 0 <= i -> rnth (A ++ B) (zlen A + i) = rnth B i.
Proof. intros H. unfold rnth. rewrite app_nth2 by (unfold zlen; lia). f_equal. unfold zlen. lia. Qed.
Lemma copy_before_ok fuel src r s room rest : stores src r -> forall A0 B0 b, r = A0 ++ B0 -> isblk b room rest A0 -> zlen r < room -> (length B0 < fuel)%nat ->
  let '(A, B) := runs_before B0 s in
  exists b', copy_before fuel src b s (zlen A0) = Some (b', zlen (A0 ++ A)) /\ isblk b' room rest (A0 ++ A).
Proof.
  intros S. induction fuel as [|f IH]; intros A0 B0 b E I H F; [lia|]. cbn [copy_before]. rewrite (stores_n _ _ S).
  destruct B0 as [|x B0].
  - cbn [runs_before]. rewrite app_nil_r in E. subst A0. rewrite Z.ltb_irrefl, app_nil_r. eauto.
  - assert (L : zlen A0 < zlen r). { rewrite E, zlen_app, zlen_cons. pose proof (zlen_nonneg B0). lia. }
    replace (zlen A0 <? zlen r) with true by lia. rewrite (stores_get src r (zlen A0)) by (auto; pose proof (zlen_nonneg A0); lia).
    assert (rnth r (zlen A0) = x) as ->. { rewrite E. replace (zlen A0) with (zlen A0 + 0) by lia. rewrite rnth_app2 by lia. reflexivity. }
    cbn [runs_before]. destruct (fst x <? s).
    + pose proof (isblk_n _ _ _ _ I) as NB. destruct (put_new b room rest A0 x I ltac:(lia)) as (b' & P & I'). rewrite NB in P. rewrite P.
      assert (NB' : nruns b' = nruns b). { unfold rput in P. destruct ((0 <=? zlen A0) && (zlen A0 <? cap b)); [|discriminate]. injection P as <-. reflexivity. }
      rewrite NB'. specialize (IH (A0 ++ [x]) B0 (set_n b' (nruns b + 1))). cbn [length] in F.
      assert (Ex : r = (A0 ++ [x]) ++ B0) by (rewrite <- app_assoc; exact E). specialize (IH Ex I' H ltac:(lia)).
      destruct (runs_before B0 s) as [A B]. destruct IH as (b2 & Q & I2). rewrite zlen_snoc in Q. rewrite Q.
      exists b2. rewrite <- app_assoc in I2 |- *. split; auto.
    + rewrite app_nil_r. eauto.
Qed.
Lemma append_rest_ok fuel src r room rest : stores src r -> forall A0 B0 b dst, r = A0 ++ B0 -> isblk b room rest dst -> zlen dst + zlen B0 <= room -> (length B0 < fuel)%nat ->
  exists b', append_rest fuel src b (zlen A0) = Some b' /\ isblk b' room rest (append_exclusive_all dst B0).
Proof.
  intros S. induction fuel as [|f IH]; intros A0 B0 b dst E I H F; [lia|]. cbn [append_rest]. rewrite (stores_n _ _ S).
  destruct B0 as [|x B0].
  - rewrite app_nil_r in E. subst A0. rewrite Z.ltb_irrefl. eauto.
  - rewrite zlen_cons in H. pose proof (zlen_nonneg B0). assert (L : zlen A0 < zlen r). { rewrite E, zlen_app, zlen_cons. lia. }
    replace (zlen A0 <? zlen r) with true by lia. rewrite (stores_get src r (zlen A0)) by (auto; pose proof (zlen_nonneg A0); lia).
    assert (rnth r (zlen A0) = x) as ->. { rewrite E. replace (zlen A0) with (zlen A0 + 0) by lia. rewrite rnth_app2 by lia. reflexivity. }
    destruct (smart_append_ok' b room rest dst (fst x) (snd x) I ltac:(lia)) as (b' & -> & I').
    assert (Ex : r = (A0 ++ [x]) ++ B0) by (rewrite <- app_assoc; exact E). cbn [length] in F.
    pose proof (smart_append_len dst (fst x) (snd x)).
    specialize (IH (A0 ++ [x]) B0 b' _ Ex I' ltac:(lia) ltac:(lia)). rewrite zlen_snoc in IH. exact IH.
Qed.
Theorem negation_range_ok src r s e : stores src r -> exists b, negation_range src s e = Some b /\ stores b (run_negation_runs r s e).
Proof.
  intros S. unfold negation_range, run_negation_runs. cbv zeta. rewrite (stores_n _ _ S). pose proof (zlen_nonneg r).
  replace (Z.to_nat (zlen r)) with (length r) by (unfold zlen; lia).
  assert (I0 : isblk (create (zlen r + 1)) (zlen r + 1) [] []).
  { exists (fresh (zlen r + 1)). rewrite app_nil_r. split; [reflexivity|]. change (zlen (@nil run)) with 0. rewrite zlen_fresh; lia. }
  pose proof (copy_before_ok (Datatypes.S (length r)) src r s (zlen r + 1) [] S [] r _ eq_refl I0 ltac:(lia) ltac:(lia)) as P.
  pose proof (runs_before_app s r) as Q. destruct (runs_before r s) as [A B]. destruct Q as (E & _ & _). destruct P as (b & P & I1).
  change (zlen (@nil run)) with 0 in P. cbn [app] in P, I1. rewrite P.
  assert (LR : zlen r = zlen A + zlen B) by now rewrite E, zlen_app. pose proof (zlen_nonneg B).
  destruct (smart_append_ok' b (zlen r + 1) [] A (u16 s) (u16 (e - s - 1)) I1 ltac:(lia)) as (b' & -> & I2).
  pose proof (smart_append_len A (u16 s) (u16 (e - s - 1))).
  destruct (append_rest_ok (Datatypes.S (length r)) src r (zlen r + 1) [] S A B b' _ E I2) as (b2 & -> & I3).
  - lia.
  - rewrite E, app_length. lia.
  - exists b2. split; auto. eapply isblk_stores; eauto.
Qed.

(** how many runs the negation of a range has *)
Definition b2z (b : bool) : Z := if b then 1 else 0.
Lemma cnt_ends P a b : a <= b ->
  cnt (fun x => negb (P x) && P (x + 1)) a b + b2z (P a) = cnt (run_end P) a b + b2z (P b).
Proof.
  intros H. replace b with (a + (b - a)) by lia. generalize (b - a) (Z.le_0_sub a b). intros n Hn. apply Hn in H. clear Hn b. revert n H.
  apply natlike_ind.
  - rewrite Z.add_0_r, !cnt_nil by lia. lia.
  - intros n Hn IH. unfold Z.succ. rewrite Z.add_assoc, !cnt_snoc by lia. unfold run_end at 2. unfold b2z in *. destruct (P (a + n)), (P (a + n + 1)); cbn [negb andb] in *; lia.
Qed.
Lemma negation_len r s e : rwf r -> 0 <= s < e -> e <= 65536 ->
  zlen (run_negation_runs r s e) = zlen r + b2z (Bool.eqb (rmem r (e - 1)) (rmem r e)) - b2z (negb (Bool.eqb ((0 <? s) && rmem r (s - 1)) (rmem r s))).
Proof.
  intros W H1 H2. destruct (run_negation_runs_spec r s e W H1 H2) as (W' & M). rewrite !zlen_runs by auto.
  set (P := rmem r) in *. set (Q := rmem (run_negation_runs r s e)) in *.
  assert (IN : forall x, s <= x < e -> Q x = negb (P x)). { intros x Hx. rewrite M by lia. unfold fliprange. now replace ((s <=? x) && (x <? e)) with true by lia. }
  assert (OUT : forall x, 0 <= x -> ~ s <= x < e -> Q x = P x). { intros x Hx N. rewrite M by lia. unfold fliprange. now replace ((s <=? x) && (x <? e)) with false by lia. }
  rewrite !(cnt_app _ 0 s 65536), !(cnt_app _ s (e - 1) 65536), !(cnt_app _ (e - 1) e 65536) by lia.
  assert (E4 : cnt (run_end Q) e 65536 = cnt (run_end P) e 65536). { apply cnt_ext. intros x Hx. apply run_end_ext; apply OUT; lia. }
  assert (E3 : forall F, cnt F (e - 1) e = b2z (F (e - 1))). { intros F. rewrite cnt_cons, cnt_nil by lia. unfold b2z. lia. }
  assert (E2 : cnt (run_end Q) s (e - 1) = cnt (fun x => negb (P x) && P (x + 1)) s (e - 1)).
  { apply cnt_ext. intros x Hx. unfold run_end. rewrite !IN by lia. now rewrite negb_involutive. }
  pose proof (cnt_ends P s (e - 1) ltac:(lia)) as ME. rewrite E4, !E3, E2.
  assert (run_end Q (e - 1) = negb (P (e - 1)) && negb (P e)) as ->.
  { unfold run_end. replace (e - 1 + 1) with e by lia. now rewrite (IN (e - 1)), (OUT e) by lia. }
  assert (run_end P (e - 1) = P (e - 1) && negb (P e)) as -> by (unfold run_end; now replace (e - 1 + 1) with e by lia).
  assert (E1 : cnt (run_end Q) 0 s + b2z ((0 <? s) && P (s - 1) && negb (P s)) = cnt (run_end P) 0 s + b2z ((0 <? s) && P (s - 1) && P s)).
  { destruct (Z.ltb_spec 0 s).
    - assert (SN : forall F, cnt F 0 s = cnt F 0 (s - 1) + b2z (F (s - 1))).
      { intros F. replace s with (s - 1 + 1) at 1 by lia. now rewrite cnt_snoc by lia. }
      rewrite !SN.
      assert (cnt (run_end Q) 0 (s - 1) = cnt (run_end P) 0 (s - 1)) as -> by (apply cnt_ext; intros x Hx; apply run_end_ext; apply OUT; lia).
      assert (run_end Q (s - 1) = P (s - 1) && P s) as ->.
      { unfold run_end. replace (s - 1 + 1) with s by lia. rewrite (OUT (s - 1)), (IN s) by lia. now rewrite negb_involutive. }
      assert (run_end P (s - 1) = P (s - 1) && negb (P s)) as -> by (unfold run_end; now replace (s - 1 + 1) with s by lia).
      unfold b2z. destruct (P (s - 1)), (P s); cbn; lia.
    - rewrite !cnt_nil by lia. reflexivity. }
  revert E1 ME. generalize (cnt (run_end Q) 0 s) (cnt (run_end P) 0 s) (cnt (run_end P) s (e - 1)) (cnt (fun x => negb (P x) && P (x + 1)) s (e - 1)) (cnt (run_end P) e 65536).
  intros. unfold b2z in *. destruct (0 <? s), (P (s - 1)), (P s), (P (e - 1)), (P e); cbn [andb negb Bool.eqb] in *; lia.
Qed.

(** in place: the cell after the one being processed is read before it can be overwritten *)
Lemma absorb b room c rest dst : isblk b room (c :: rest) dst -> isblk b (room + 1) rest dst.
Proof.
  intros (j & -> & E). exists (j ++ [c]). rewrite <- !app_assoc. split; [reflexivity|]. rewrite zlen_snoc. lia.
Qed.
Lemma absorb_all b room rest dst : isblk b room rest dst -> isblk b (room + zlen rest) [] dst.
Proof. intros (j & -> & E). exists (j ++ rest). rewrite app_nil_r. split; [reflexivity|]. rewrite zlen_app. lia. Qed.
Lemma isblk_get_rest b room x rest dst : isblk b room (Some x :: rest) dst -> rget b room = Some x.
Proof. intros (j & -> & E). rewrite app_assoc. apply rget_at. rewrite zlen_app, zlen_map. lia. Qed.
Lemma append_buffered_ok : forall B J c k dst b fuel n, isblk b (k + 1) (map Some B ++ J) dst -> zlen dst <= k + 1 -> n = k + 1 + zlen B ->
  0 <= k -> zlen (append_exclusive_all dst (c :: B)) <= n + zlen J -> (length B + 1 < fuel)%nat ->
  exists b', append_buffered fuel b n k c = Some b' /\ stores b' (append_exclusive_all dst (c :: B)).
Proof.
  induction B as [|c' B IH]; intros J c k dst b fuel n I LD En Hk LF F; (destruct fuel as [|f]; [lia|]); cbn [append_buffered].
  - change (zlen (@nil run)) with 0 in En. subst n. replace (k <? k + 1 + 0) with true by lia. replace (k + 1 <? k + 1 + 0) with false by lia.
    cbn [map app] in I. apply absorb_all in I.
    change (append_exclusive_all dst [c]) with (run_container_smart_append_exclusive dst (fst c) (snd c)) in *.
    destruct (smart_append_ok b _ [] dst (fst c) (snd c) I) as (b' & -> & I'); [lia|].
    destruct f; cbn [append_buffered]; replace (k + 1 <? k + 1 + 0) with false by lia; eexists; (split; [reflexivity|]); eapply isblk_stores; eauto.
  - rewrite zlen_cons in En. pose proof (zlen_nonneg B). replace (k <? n) with true by lia. replace (k + 1 <? n) with true by lia.
    cbn [map app] in I. rewrite (isblk_get_rest _ _ _ _ _ I). apply absorb in I.
    destruct (smart_append_ok' b _ _ dst (fst c) (snd c) I ltac:(lia)) as (b' & -> & I').
    change (append_exclusive_all dst (c :: c' :: B)) with (append_exclusive_all (run_container_smart_append_exclusive dst (fst c) (snd c)) (c' :: B)) in *.
    pose proof (smart_append_len dst (fst c) (snd c)). cbn [length] in F. apply (IH J); auto; try lia.
Qed.
Lemma count_before_ok fuel b r s : stores b r -> forall A0 B0, r = A0 ++ B0 -> (length B0 < fuel)%nat ->
  let '(A, B) := runs_before B0 s in count_before fuel b (zlen r) s (zlen A0) = Some (zlen (A0 ++ A)).
Proof.
  intros S. induction fuel as [|f IH]; intros A0 B0 E F; [lia|]. cbn [count_before].
  destruct B0 as [|x B0].
  - cbn [runs_before]. rewrite app_nil_r in E. subst A0. rewrite Z.ltb_irrefl, app_nil_r. reflexivity.
  - assert (L : zlen A0 < zlen r). { rewrite E, zlen_app, zlen_cons. pose proof (zlen_nonneg B0). lia. }
    replace (zlen A0 <? zlen r) with true by lia. rewrite (stores_get b r (zlen A0)) by (auto; pose proof (zlen_nonneg A0); lia).
    assert (rnth r (zlen A0) = x) as ->. { rewrite E. replace (zlen A0) with (zlen A0 + 0) by lia. rewrite rnth_app2 by lia. reflexivity. }
    cbn [runs_before]. destruct (fst x <? s); [|now rewrite app_nil_r].
    assert (Ex : r = (A0 ++ [x]) ++ B0) by (rewrite <- app_assoc; exact E). cbn [length] in F. specialize (IH (A0 ++ [x]) B0 Ex ltac:(lia)).
    destruct (runs_before B0 s) as [A B]. rewrite zlen_snoc in IH. rewrite IH, <- app_assoc. reflexivity.
Qed.
Lemma negate_in_block_ok b r s e : stores b r -> zlen (run_negation_runs r s e) <= cap b ->
  exists b', negate_in_block b s e = Some b' /\ stores b' (run_negation_runs r s e).
Proof.
  intros S. unfold negate_in_block, run_negation_runs. cbv zeta. rewrite (stores_n _ _ S).
  replace (Z.to_nat (zlen r)) with (length r) by (unfold zlen; lia).
  pose proof (count_before_ok (Datatypes.S (length r)) b r s S [] r eq_refl ltac:(lia)) as P.
  pose proof (runs_before_app s r) as Q. destruct (runs_before r s) as [A B]. destruct Q as (E & _ & _).
  change (zlen (@nil run)) with 0 in P. cbn [app] in P. rewrite P. intros LF. destruct S as (J & Eb).
  assert (LR : zlen r = zlen A + zlen B) by now rewrite E, zlen_app. pose proof (zlen_nonneg A).
  assert (CB : cap b = zlen r + zlen J). { rewrite Eb. unfold cap. cbn [cells]. rewrite zlen_app, zlen_map. reflexivity. }
  destruct B as [|c B].
  - change (zlen (@nil run)) with 0 in LR. replace (zlen A <? zlen r) with false by lia. cbn [append_exclusive_all fold_left] in *.
    change (append_exclusive_all ?d []) with d in *.
    assert (I : isblk (set_n b (zlen A)) (zlen A + zlen J) [] A).
    { exists J. rewrite app_nil_r in E |- *. split; [|lia]. subst b. unfold set_n. cbn [cells]. now rewrite E. }
    destruct (smart_append_ok _ _ [] A (u16 s) (u16 (e - s - 1)) I) as (b' & -> & I'); [lia|].
    cbn [append_buffered]. replace (zlen A <? zlen r) with false by lia. eexists. split; [reflexivity|]. eapply isblk_stores; eauto.
  - rewrite zlen_cons in LR. pose proof (zlen_nonneg B). replace (zlen A <? zlen r) with true by lia.
    assert (rget b (zlen A) = Some c) as ->. { rewrite Eb, E, map_app, <- app_assoc. cbn [map app]. apply rget_at. now rewrite zlen_map. }
    assert (I : isblk (set_n b (zlen A)) (zlen A + 1) (map Some B ++ J) A).
    { exists [Some c]. split; [|reflexivity]. subst b. unfold set_n. cbn [cells]. rewrite E, map_app, <- !app_assoc. reflexivity. }
    destruct (smart_append_ok' _ _ _ A (u16 s) (u16 (e - s - 1)) I ltac:(lia)) as (b' & -> & I').
    pose proof (smart_append_len A (u16 s) (u16 (e - s - 1))).
    apply (append_buffered_ok B J c (zlen A) _ b'); auto; try lia. rewrite E, app_length. cbn [length]. lia.
Qed.
Lemma runs_of_stores b r : stores b r -> runs_of b = r.
Proof.
  intros (j & ->). unfold runs_of. cbn [nruns cells]. rewrite firstn_app. unfold zlen. rewrite Nat2Z.id, map_length, Nat.sub_diag. cbn [firstn].
  rewrite app_nil_r, <- (map_length Some r), firstn_all. induction r as [|x r IH]; cbn; congruence.
Qed.
Theorem negation_range_inplace_ok b r s e : stores b r -> rwf r -> 0 <= s < e -> e <= 65536 ->
  exists b', negation_range_inplace b s e = Some b' /\ stores b' (run_negation_runs r s e).
Proof.
  intros S W H1 H2. unfold negation_range_inplace. rewrite (runs_of_stores b r S), (stores_n _ _ S). cbv zeta.
  match goal with |- context [if ?c then _ else _] => destruct c eqn:T end; [now apply negation_range_ok|].
  apply negate_in_block_ok; auto. pose proof (negation_len r s e W H1 H2) as L.
  assert (C : zlen r <= cap b). { destruct S as (j & ->). unfold cap. cbn [cells]. rewrite zlen_app, zlen_map. pose proof (zlen_nonneg j). lia. }
  destruct (Z.eqb_spec (cap b) (zlen r)) as [EC|NC]; cbn [andb] in T.
  - rewrite !(run_contains_spec r) in T by auto. rewrite (u16_small s), (u16_small (e - 1)) in T by lia.
    replace (if negb (e =? 65536) then rmem r (u16 e) else false) with (rmem r e) in T.
    2: { destruct (Z.eqb_spec e 65536) as [->|]; cbn [negb]; [apply rmem_oob; auto; lia|]. now rewrite u16_small by lia. }
    replace (if 0 <? s then rmem r (u16 (s - 1)) else false) with ((0 <? s) && rmem r (s - 1)) in T.
    2: { destruct (Z.ltb_spec 0 s); cbn [andb]; auto. now rewrite u16_small by lia. }
    unfold b2z in L. destruct (Bool.eqb ((0 <? s) && rmem r (s - 1)) (rmem r s)), (Bool.eqb (rmem r (e - 1)) (rmem r e)); cbn [andb negb] in *; try discriminate; lia.
  - unfold b2z in L. destruct (Bool.eqb (rmem r (e - 1)) (rmem r e)), (negb (Bool.eqb ((0 <? s) && rmem r (s - 1)) (rmem r s))); lia.
Qed.
