(** ArrBlk: array containers as the memory they live in: edits of one array, and the mixed
    operations that write an array (include/roaring/containers/array.h, src/containers/array.c,
    mixed_intersection.c, mixed_andnot.c, convert.c).

    ArrayC.v treats an array container as the list of its values.  Here it is the block that
    [array] points to, [capacity] cells long, and [cardinality].  A cell that was never written
    holds [None].  Reading such a cell, and reading or writing outside the block, is undefined
    behaviour ([None] as result).  Allocation succeeds.  Operands of other kinds are only read
    and taken as in BitsetC.v and RunC.v.  Where an operation allows its output to be its first
    input both are the same block.  (Operations on two arrays are in ArrMemC.v.) *)
From Coq Require Import Sorted.
From Verif Require Import Base BitUtil ArrayUtil BitsetC ArrayC RunC RunD Convert MixedI MixedA MixedN Containers SpecArr.

Notation "'do' x <- e ; f" := (match e with Some x => f | None => None end) (at level 200, x pattern, e at level 100, f at level 200).

(** ** Model *)
(** array.h:38-42 struct array_container_s: the cells behind [array] ([capacity] of them) and [cardinality] *)
Record ablk := AB { acells : list (option Z); an : Z }.
Definition acap (b : ablk) : Z := zlen (acells b).
(** array[i] as an rvalue and as an lvalue *)
Definition ab_get (b : ablk) (i : Z) : option Z :=
  if (0 <=? i) && (i <? acap b) then nth (Z.to_nat i) (acells b) None else None.
Definition ab_put (b : ablk) (i x : Z) : option ablk :=
  if (0 <=? i) && (i <? acap b) then Some (AB (upd (Z.to_nat i) (Some x) (acells b)) (an b)) else None.
Definition ab_set_n (b : ablk) (n : Z) : ablk := AB (acells b) n.
Definition ab_fresh (n : Z) : list (option Z) := repeat None (Z.to_nat n).
(** array.c:49-69 array_container_create_given_capacity; array.c:72-74 is the case of size 0 *)
Definition ab_create (size : Z) : ablk := AB (ab_fresh size) 0.
(** array.c:153-158 grow_capacity (ARRAY_DEFAULT_INIT_SIZE is 0), 160-162 clamp *)
Definition ab_grow_capacity (capacity : Z) : Z :=
  if capacity <=? 0 then 0 else if capacity <? 64 then capacity * 2
  else if capacity <? 1024 then capacity * 3 / 2 else capacity * 5 / 4.
Definition ab_clamp (val min max : Z) : Z := if val <? min then min else if max <? val then max else val.
(** array.c:164-183 array_container_grow: realloc keeps what fits *)
Definition ab_grow (b : ablk) (min : Z) (preserve : bool) : ablk :=
  let max := if min <=? 4096 then 4096 else 65536 in
  let n := ab_clamp (ab_grow_capacity (acap b)) min max in
  AB (if preserve then firstn (Z.to_nat n) (acells b) ++ ab_fresh (n - acap b) else ab_fresh n) (an b).
(** memmove / memcpy of [count] cells to [dst] from the cells at [from] of the block [src]; cells
    are copied as they are, also those never written.  Nothing happens when count is 0: the
    pointers may then be NULL, which the C code passes to memcpy for empty arrays *)
Definition ab_move (b : ablk) (dst : Z) (src : list (option Z)) (from count : Z) : option ablk :=
  if count =? 0 then Some b
  else if (0 <? count) && (0 <=? from) && (from + count <=? zlen src) && (0 <=? dst) && (dst + count <=? acap b) then
    Some (AB (firstn (Z.to_nat dst) (acells b) ++ firstn (Z.to_nat count) (skipn (Z.to_nat from) src) ++ skipn (Z.to_nat (dst + count)) (acells b)) (an b))
  else None.
(** array[cardinality++] = x for all x of [vs], without looking at the capacity *)
Fixpoint ab_push_all (vs : list Z) (b : ablk) : option ablk :=
  match vs with [] => Some b | x :: vs' => do b <- ab_put b (an b) x; ab_push_all vs' (ab_set_n b (an b + 1)) end.
(** array.c:77-86 array_container_create_range *)
Definition ab_create_range (min max : Z) : option ablk := ab_push_all (map u16 (zr min max)) (ab_create (max - min + 1)).
(** array.c:90-101 array_container_clone *)
Definition ab_clone (src : ablk) : option ablk := ab_move (AB (ab_fresh (acap src)) (an src)) 0 (acells src) 0 (an src).
(** array.c:129-144 array_container_shrink_to_fit: the new block and the savings *)
Definition ab_shrink_to_fit (src : ablk) : ablk * Z :=
  if an src =? acap src then (src, 0)
  else (AB (firstn (Z.to_nat (an src)) (acells src)) (an src), acap src - an src).
(** array.c:186-195 array_container_copy; 538-547 array_container_read is the same from a buffer *)
Definition ab_overwrite (cells : list (option Z)) (cardinality : Z) (dst : ablk) : option ablk :=
  let dst := if acap dst <? cardinality then ab_grow dst cardinality false else dst in
  ab_move (ab_set_n dst cardinality) 0 cells 0 cardinality.
(** array.h:265-274 array_container_append *)
Definition ab_append (b : ablk) (pos : Z) : option ablk :=
  let b := if an b =? acap b then ab_grow b (acap b + 1) true else b in
  do b <- ab_put b (an b) pos; Some (ab_set_n b (an b + 1)).
(** array_util.h:33-49 binarySearch of the first [n] cells; cf. ArrayUtil.binarySearch_loop *)
Fixpoint ab_search_loop (fuel : nat) (b : ablk) (low high ikey : Z) : option Z :=
  match fuel with
  | O => Some (- (low + 1))
  | S f =>
    if low <=? high then
      let middleIndex := Z.shiftr (low + high) 1 in
      do middleValue <- ab_get b middleIndex;
      if middleValue <? ikey then ab_search_loop f b (middleIndex + 1) high ikey
      else if ikey <? middleValue then ab_search_loop f b low (middleIndex - 1) ikey
      else Some middleIndex
    else Some (- (low + 1))
  end.
Definition ab_search (b : ablk) (n ikey : Z) : option Z := ab_search_loop (S (Z.to_nat n)) b 0 (n - 1) ikey.
(** array_util.h:107-112 count_less, 118-127 count_greater *)
Definition ab_count_less (b : ablk) (n ikey : Z) : option Z :=
  if n =? 0 then Some 0 else do pos <- ab_search b n ikey; Some (if 0 <=? pos then pos else - (pos + 1)).
Definition ab_count_greater (b : ablk) (n ikey : Z) : option Z :=
  if n =? 0 then Some 0 else do pos <- ab_search b n ikey; Some (if 0 <=? pos then n - (pos + 1) else n - (- pos - 1)).
(** array.h:283-312 array_container_try_add *)
Definition ab_try_add (b : ablk) (value max_cardinality : Z) : option (ablk * Z) :=
  let cardinality := an b in
  do at_end <- (if cardinality =? 0 then Some true else do x <- ab_get b (cardinality - 1); Some (x <? value));
  if at_end && (cardinality <? max_cardinality) then do b <- ab_append b value; Some (b, 1)
  else
    do loc <- ab_search b cardinality value;
    if 0 <=? loc then Some (b, 0)
    else if cardinality <? max_cardinality then
      let b := if an b =? acap b then ab_grow b (acap b + 1) true else b in
      let insert_idx := - loc - 1 in
      do b <- ab_move b (insert_idx + 1) (acells b) insert_idx (cardinality - insert_idx);
      do b <- ab_put b insert_idx value;
      Some (ab_set_n b (an b + 1), 1)
    else Some (b, -1).
(** array.h:315-317 array_container_add *)
Definition ab_add (b : ablk) (value : Z) : option (ablk * bool) :=
  do r <- ab_try_add b value (2^31 - 1); Some (fst r, snd r =? 1).
(** array.h:320-331 array_container_remove *)
Definition ab_remove (b : ablk) (pos : Z) : option (ablk * bool) :=
  do idx <- ab_search b (an b) pos;
  if 0 <=? idx then
    do b <- ab_move b idx (acells b) (idx + 1) (an b - idx - 1); Some (ab_set_n b (an b - 1), true)
  else Some (b, false).
(** array.h:334-362 array_container_contains; cf. ArrayC.contains_loop *)
Fixpoint ab_contains_linear (fuel : nat) (b : ablk) (i high pos : Z) : option bool :=
  match fuel with
  | O => Some false
  | S f => if i <=? high then
             do v <- ab_get b i;
             if v =? pos then Some true else if pos <? v then Some false else ab_contains_linear f b (i + 1) high pos
           else Some false
  end.
Fixpoint ab_contains_loop (fuel : nat) (b : ablk) (low high pos : Z) : option bool :=
  match fuel with
  | O => Some false
  | S f => if low + 16 <=? high then
             let mid := Z.shiftr (low + high) 1 in
             do v <- ab_get b mid;
             if v <? pos then ab_contains_loop f b (mid + 1) high pos
             else if pos <? v then ab_contains_loop f b low (mid - 1) pos
             else Some true
           else ab_contains_linear 17 b low high pos
  end.
Definition ab_contains (b : ablk) (pos : Z) : option bool := ab_contains_loop (S (Z.to_nat (an b))) b 0 (an b - 1) pos.
(** array.c:197-202 array_container_add_from_range *)
Fixpoint ab_add_from_range_loop (fuel : nat) (b : ablk) (value max step : Z) : option ablk :=
  match fuel with
  | O => Some b
  | S f => if value <? max then do b <- ab_append b (u16 value); ab_add_from_range_loop f b (value + step) max step else Some b
  end.
Definition ab_add_from_range (b : ablk) (min max step : Z) : option ablk := ab_add_from_range_loop (Z.to_nat (max - min)) b min max step.
(** array.h:474-489 array_container_add_range_nvals *)
Fixpoint ab_put_all (vs : list Z) (b : ablk) (i : Z) : option ablk :=
  match vs with [] => Some b | x :: vs' => do b <- ab_put b i x; ab_put_all vs' b (i + 1) end.
Definition ab_add_range_nvals (b : ablk) (min max nvals_less nvals_greater : Z) : option ablk :=
  let union_cardinality := nvals_less + (max - min + 1) + nvals_greater in
  let b := if acap b <? union_cardinality then ab_grow b union_cardinality true else b in
  do b <- ab_move b (union_cardinality - nvals_greater) (acells b) (an b - nvals_greater) nvals_greater;
  do b <- ab_put_all (map u16 (zr min (max + 1))) b nvals_less;
  Some (ab_set_n b union_cardinality).
(** array.h:506-513 array_container_remove_range *)
Definition ab_remove_range (b : ablk) (pos count : Z) : option ablk :=
  if count =? 0 then Some b
  else do b <- ab_move b pos (acells b) (pos + count) (an b - pos - count); Some (ab_set_n b (an b - count)).
(** containers.h:2287-2311: the branch of container_add_range that stays an array (also taken here when
    the result has more than 4096 values) *)
Definition ab_add_range (b : ablk) (min max : Z) : option ablk :=
  do nvals_greater <- ab_count_greater b (an b) (u16 max);
  do nvals_less <- ab_count_less b (an b - nvals_greater) (u16 min);
  ab_add_range_nvals b min max nvals_less nvals_greater.
(** containers.h:2377-2395: the same of container_remove_range (also taken here when nothing remains) *)
Definition ab_drop_range (b : ablk) (min max : Z) : option ablk :=
  do nvals_greater <- ab_count_greater b (an b) (u16 max);
  do nvals_less <- ab_count_less b (an b - nvals_greater) (u16 min);
  ab_remove_range b nvals_less (an b - (nvals_less + nvals_greater)).

(** src_1->array[i]: a block of its own, or the block that is being written *)
Definition input := ablk -> Z -> option Z.
Definition apart_from (src : ablk) : input := fun _ i => ab_get src i.
Definition itself : input := ab_get.
Definition ab_ready (dst : ablk) (n : Z) : ablk := if acap dst <? n then ab_grow dst n false else dst.
(** mixed_intersection.c:25-44 and mixed_andnot.c:31-38: the branchless loops; [keep] is
    bitset_container_contains(src_2, key) or its negation *)
Fixpoint ab_select_loop (n : nat) (inp : input) (keep : Z -> bool) (b : ablk) (i newcard : Z) : option ablk :=
  match n with
  | O => Some (ab_set_n b newcard)
  | S n' => do key <- inp b i; do b <- ab_put b newcard key;
            ab_select_loop n' inp keep b (i + 1) (newcard + (if keep key then 1 else 0))
  end.
(** mixed_intersection.c:19-46 array_bitset_container_intersection *)
Definition ab_and_words (inp : input) (card : Z) (bits : bset) (dst : ablk) : option ablk :=
  ab_select_loop (Z.to_nat card) inp (bitset_container_get bits) (ab_ready dst card) 0 0.
(** mixed_andnot.c:24-39 array_bitset_container_andnot *)
Definition ab_andnot_words (inp : input) (card : Z) (bits : bset) (dst : ablk) : option ablk :=
  ab_select_loop (Z.to_nat card) inp (fun key => negb (bitset_container_get bits key)) (ab_ready dst card) 0 0.
(** array_util.h:58-101 advanceUntil; cf. ArrayUtil.advanceUntil *)
Fixpoint ab_gallop (fuel : nat) (inp : input) (b : ablk) (lower spansize length_ min : Z) : option Z :=
  match fuel with
  | O => Some spansize
  | S f =>
    if lower + spansize <? length_ then
      do x <- inp b (lower + spansize);
      if x <? min then ab_gallop f inp b lower (Z.shiftl spansize 1) length_ min else Some spansize
    else Some spansize
  end.
Fixpoint ab_gallop_bin (fuel : nat) (inp : input) (b : ablk) (lower upper min : Z) : option Z :=
  match fuel with
  | O => Some upper
  | S f =>
    if lower + 1 =? upper then Some upper
    else
      let mid := Z.shiftr (lower + upper) 1 in
      do x <- inp b mid;
      if x =? min then Some mid
      else if x <? min then ab_gallop_bin f inp b mid upper min
      else ab_gallop_bin f inp b lower mid min
  end.
Definition ab_advance (inp : input) (b : ablk) (pos length_ min : Z) : option Z :=
  let lower := pos + 1 in
  if length_ <=? lower then Some lower
  else
    do x <- inp b lower;
    if min <=? x then Some lower
    else
      do spansize <- ab_gallop (S (Z.to_nat length_)) inp b lower 1 length_ min;
      let upper := if lower + spansize <? length_ then lower + spansize else length_ - 1 in
      do x <- inp b upper;
      if x =? min then Some upper
      else if x <? min then Some length_
      else ab_gallop_bin (S (Z.to_nat length_)) inp b (lower + Z.shiftr spansize 1) upper min.
(** mixed_intersection.c:86-110; [rs] are the runs from rlepos on *)
Fixpoint ab_and_runs_loop (fuel : nat) (inp : input) (card : Z) (b : ablk) (arraypos newcard : Z) (rs : list run) : option ablk :=
  match fuel with
  | O => None
  | S f =>
    if arraypos <? card then
      do arrayval <- inp b arraypos;
      match rs with
      | [] => Some (ab_set_n b newcard)
      | (v, len) :: rs' =>
        if v + len <? arrayval then ab_and_runs_loop f inp card b arraypos newcard rs'
        else if arrayval <? v then
          do p <- ab_advance inp b arraypos card v; ab_and_runs_loop f inp card b p newcard rs
        else do b <- ab_put b newcard arrayval; ab_and_runs_loop f inp card b (arraypos + 1) (newcard + 1) rs
      end
    else Some (ab_set_n b newcard)
  end.
(** mixed_intersection.c:73-111 array_run_container_intersection.  [same] is dst == src_1; [cells] are the
    cells of src_1.  Without runs the cardinality of dst stays what it is. *)
Definition ab_and_runs (same : bool) (inp : input) (cells : list (option Z)) (card : Z) (r : list run) (dst : ablk) : option ablk :=
  if run_container_is_full r then (if same then Some dst else ab_overwrite cells card dst)
  else
    let dst := ab_ready dst card in
    match r with
    | [] => Some dst
    | _ => ab_and_runs_loop (S (Z.to_nat card + length r)) inp card dst 0 0 r
    end.
(** mixed_andnot.c:395-421: (s, e) = (run_start, run_end), [rs] the runs after which_run *)
Fixpoint ab_andnot_runs_loop (fuel : nat) (inp : input) (card : Z) (b : ablk) (i dest_card s e : Z) (rs : list run) : option ablk :=
  match fuel with
  | O => None
  | S f =>
    if i <? card then
      do val <- inp b i;
      if val <? s then do b <- ab_put b dest_card val; ab_andnot_runs_loop f inp card b (i + 1) (dest_card + 1) s e rs
      else if val <=? e then ab_andnot_runs_loop f inp card b (i + 1) dest_card s e rs
      else
        match rs with
        | (v, len) :: rs' => ab_andnot_runs_loop f inp card b i dest_card v (v + len) rs'
        | [] => ab_andnot_runs_loop f inp card b i dest_card 65537 65537 []
        end
    else Some (ab_set_n b dest_card)
  end.
(** mixed_andnot.c:381-421 array_run_container_andnot *)
Definition ab_andnot_runs (inp : input) (cells : list (option Z)) (card : Z) (r : list run) (dst : ablk) : option ablk :=
  let dst := ab_ready dst card in
  match r with
  | [] => ab_move (ab_set_n dst card) 0 cells 0 card
  | (v, len) :: r' => ab_andnot_runs_loop (S (S (Z.to_nat card + length r'))) inp card dst 0 0 v (v + len) r'
  end.
(** convert.c:40-53 array_container_from_run *)
Definition ab_from_runs (r : list run) : option ablk :=
  ab_push_all (array_container_from_run r) (ab_create (run_container_cardinality r)).
(** convert.c:55-81 array_container_from_bitset, scalar branch: the words are written out from the first cell on *)
Definition ab_from_words (bits : bset) : option ablk :=
  ab_put_all (bitset_extract_setbits (b_words bits) 0) (ab_set_n (ab_create (b_card bits)) (b_card bits)) 0.
(** mixed_andnot.c:350-356 with 233-271 run_array_array_subtract (also taken here for more than 4096 values) *)
Definition ab_runs_minus (r : list run) (src : ablk) (a : list Z) : option ablk :=
  do b <- ab_put_all (run_array_array_subtract r a (-1)) (ab_create (run_container_cardinality r)) 0;
  Some (ab_set_n b (zlen (run_array_array_subtract r a (-1)))).
(** array.c:103-127 array_container_offset: [c->array[i] + offset] for i from [i] on, [n] of them *)
Fixpoint ab_offset_loop (n : nat) (c : ablk) (i offset : Z) (b : ablk) : option ablk :=
  match n with
  | O => Some b
  | S n' => do v <- ab_get c i; do r <- ab_add b (u16 (v + offset)); ab_offset_loop n' c (i + 1) offset (fst r)
  end.
(** None inside: the output is left alone *)
Definition ab_offset_low (c : ablk) (offset : Z) : option (option ablk) :=
  do lo_cap <- ab_count_less c (an c) (u16 (65536 - offset));
  if lo_cap =? 0 then Some None else do b <- ab_offset_loop (Z.to_nat lo_cap) c 0 offset (ab_create lo_cap); Some (Some b).
Definition ab_offset_high (c : ablk) (offset : Z) : option (option ablk) :=
  do lo_cap <- ab_count_less c (an c) (u16 (65536 - offset));
  let hi_cap := an c - lo_cap in
  if hi_cap =? 0 then Some None else do b <- ab_offset_loop (Z.to_nat hi_cap) c lo_cap offset (ab_create hi_cap); Some (Some b).
(** the values of an array whose first cells have been written *)
Definition ab_values (b : ablk) : list Z :=
  flat_map (fun c => match c with Some x => [x] | None => [] end) (firstn (Z.to_nat (an b)) (acells b)).

(** programs over several arrays *)
Definition bank := nat -> ablk.
Definition set_blk (m : bank) (d : nat) (b : ablk) : bank := fun i => if Nat.eqb i d then b else m i.
Definition source (m : bank) (d s : nat) : input := if Nat.eqb d s then itself else apart_from (m s).
Definition ab_step (c : acmd) (m : bank) : option (bank * aans) :=
  let to d (o : option ablk) := do b <- o; Some (set_blk m d b, ANone) in
  match c with
  | ACreate d n => to d (Some (ab_create n))
  | ARange d lo hi => to d (ab_create_range lo hi)
  | AClone d s => to d (ab_clone (m s))
  | ACopy d s => to d (ab_overwrite (acells (m s)) (an (m s)) (m d))
  | ARead d vs => to d (ab_overwrite (map Some vs) (zlen vs) (m d))
  | AShrink d => to d (Some (fst (ab_shrink_to_fit (m d))))
  | AAppend d v => to d (ab_append (m d) v)
  | AAdd d v => do r <- ab_add (m d) v; Some (set_blk m d (fst r), ABool (snd r))
  | ATryAdd d v limit => do r <- ab_try_add (m d) v limit; Some (set_blk m d (fst r), ACode (snd r))
  | ARemove d v => do r <- ab_remove (m d) v; Some (set_blk m d (fst r), ABool (snd r))
  | AContains s v => do r <- ab_contains (m s) v; Some (m, ABool r)
  | AFill d min max step => to d (ab_add_from_range (m d) min max step)
  | AAddRange d lo hi => to d (ab_add_range (m d) lo hi)
  | ARemoveRange d lo hi => to d (ab_drop_range (m d) lo hi)
  | AAnd d s (Words ws) => to d (ab_and_words (source m d s) (an (m s)) (bcard ws, ws) (m d))
  | AAnd d s (Runs r) => to d (ab_and_runs (Nat.eqb d s) (source m d s) (acells (m s)) (an (m s)) r (m d))
  | AAndNot d s (Words ws) => to d (ab_andnot_words (source m d s) (an (m s)) (bcard ws, ws) (m d))
  | AAndNot d s (Runs r) => to d (ab_andnot_runs (source m d s) (acells (m s)) (an (m s)) r (m d))
  | AFrom d (Words ws) => to d (ab_from_words (bcard ws, ws))
  | AFrom d (Runs r) => to d (ab_from_runs r)
  | ARunsMinus d r s => to d (ab_runs_minus r (m s) (ab_values (m s)))
  | AOffsetLow d s k => do o <- ab_offset_low (m s) k; match o with Some b => Some (set_blk m d b, ANone) | None => Some (m, ANone) end
  | AOffsetHigh d s k => do o <- ab_offset_high (m s) k; match o with Some b => Some (set_blk m d b, ANone) | None => Some (m, ANone) end
  end.
Fixpoint ab_run (p : list acmd) (m : bank) : option (bank * list aans) :=
  match p with
  | [] => Some (m, [])
  | c :: p' => do r <- ab_step c m; do q <- ab_run p' (fst r); Some (fst q, snd r :: snd q)
  end.

(** * Proofs *)
(** [b] holds the values [l] *)
Definition astores (b : ablk) (l : list Z) : Prop := exists j, b = AB (map Some l ++ j) (zlen l).
(** the first cells of [b] hold [out]; nothing is said about the cardinality field *)
Definition outs (b : ablk) (out : list Z) : Prop := exists j, acells b = map Some out ++ j.

Lemma zlen_map {A B} (f : A -> B) l : zlen (map f l) = zlen l.
Proof. unfold zlen. now rewrite map_length. Qed.
Lemma zlen_repeat {A} (x : A) n : zlen (repeat x n) = Z.of_nat n.
Proof. unfold zlen. now rewrite repeat_length. Qed.
Lemma fresh_zlen n : 0 <= n -> zlen (ab_fresh n) = n.
Proof. intros. unfold ab_fresh. rewrite zlen_repeat. lia. Qed.
Lemma astores_n b l : astores b l -> an b = zlen l.
Proof. intros (j & ->). reflexivity. Qed.
Lemma astores_outs b l : astores b l -> outs b l.
Proof. intros (j & ->). exists j. reflexivity. Qed.
Lemma astores_cap b l : astores b l -> zlen l <= acap b.
Proof. intros (j & ->). unfold acap. cbn [acells]. rewrite zlen_app, zlen_map. pose proof (zlen_nonneg j). lia. Qed.
Lemma outs_cap b l : outs b l -> zlen l <= acap b.
Proof. intros (j & E). unfold acap. rewrite E, zlen_app, zlen_map. pose proof (zlen_nonneg j). lia. Qed.
Lemma outs_done b l n : outs b l -> n = zlen l -> astores (ab_set_n b n) l.
Proof. intros (j & E) ->. exists j. unfold ab_set_n. now rewrite E. Qed.
Lemma outs_nil b : outs b [].
Proof. exists (acells b). reflexivity. Qed.
Lemma get_at A x B n i : i = zlen A -> ab_get (AB (A ++ Some x :: B) n) i = Some x.
Proof.
  intros ->. unfold ab_get, acap. cbn [acells]. rewrite zlen_app, zlen_cons. pose proof (zlen_nonneg A). pose proof (zlen_nonneg B).
  replace ((0 <=? zlen A) && (zlen A <? zlen A + (zlen B + 1))) with true by lia.
  unfold zlen. rewrite Nat2Z.id, app_nth2 by lia. now rewrite Nat.sub_diag.
Qed.
Lemma put_at A c B n i x : i = zlen A -> ab_put (AB (A ++ c :: B) n) i x = Some (AB (A ++ Some x :: B) n).
Proof.
  intros ->. unfold ab_put, acap. cbn [acells an]. rewrite zlen_app, zlen_cons. pose proof (zlen_nonneg A). pose proof (zlen_nonneg B).
  replace ((0 <=? zlen A) && (zlen A <? zlen A + (zlen B + 1))) with true by lia.
  unfold zlen. rewrite Nat2Z.id. f_equal. f_equal. clear. induction A; cbn; [reflexivity|now rewrite IHA].
Qed.
Lemma outs_get b l i : outs b l -> 0 <= i < zlen l -> ab_get b i = Some (znth l i).
Proof.
  intros (j & E) Hi. destruct b as [cs n]. cbn [acells] in E. subst cs.
  destruct (nth_split l 0 (n := Z.to_nat i)) as (A & B & E & L). { unfold zlen in Hi. lia. }
  unfold znth. rewrite E at 1. rewrite map_app. cbn [map]. rewrite <- app_assoc. cbn [app].
  apply get_at. rewrite zlen_map. unfold zlen. lia.
Qed.
Lemma put_out b out x : outs b out -> zlen out < acap b ->
  exists b', ab_put b (zlen out) x = Some b' /\ outs b' out /\ outs b' (out ++ [x]) /\ acap b' = acap b /\ an b' = an b.
Proof.
  intros (j & E) H. destruct b as [cs n]. cbn [acells] in E. subst cs. unfold acap in H. cbn [acells] in H. rewrite zlen_app, zlen_map in H.
  destruct j as [|c j]. { change (zlen (@nil (option Z))) with 0 in H. lia. }
  rewrite put_at by now rewrite zlen_map. eexists. split; [reflexivity|].
  split; [exists (Some x :: j); reflexivity|]. split; [exists j; rewrite map_app, <- app_assoc; reflexivity|].
  split; [unfold acap; cbn [acells]; rewrite !zlen_app, !zlen_cons; reflexivity|reflexivity].
Qed.
Lemma put_frame b n x b' i : ab_put b n x = Some b' -> n < i -> ab_get b' i = ab_get b i.
Proof.
  unfold ab_put. destruct ((0 <=? n) && (n <? acap b)) eqn:E; [|discriminate]. intros Q Hi. injection Q as <-.
  unfold ab_get, acap. cbn [acells]. assert (L : zlen (upd (Z.to_nat n) (Some x) (acells b)) = zlen (acells b)).
  { unfold zlen. f_equal. generalize (Z.to_nat n) (acells b). clear. intros k l. revert k. induction l; intros [|k]; cbn; auto. }
  rewrite L. destruct ((0 <=? i) && (i <? zlen (acells b))); [|reflexivity].
  assert (G : forall k m (l : list (option Z)), (k < m)%nat -> nth m (upd k (Some x) l) None = nth m l None).
  { intros k m l. revert k m. induction l; intros [|k] [|m] Hm; cbn; auto; try lia. apply IHl. lia. }
  apply G. lia.
Qed.

Lemma firstn_app_l {A} n (a b : list A) : (n <= length a)%nat -> firstn n (a ++ b) = firstn n a.
Proof. intros. rewrite firstn_app. replace (n - length a)%nat with O by lia. now rewrite app_nil_r. Qed.

(** ** Blocks *)
Lemma create_ok n : 0 <= n -> astores (ab_create n) [] /\ acap (ab_create n) = n.
Proof. intros H. split; [exists (ab_fresh n); reflexivity|]. unfold acap, ab_create. cbn [acells]. now apply fresh_zlen. Qed.
Lemma grow_cap b min preserve : acap b <= min -> 0 <= min -> min <= 65536 -> min <= acap (ab_grow b min preserve) <= 65536.
Proof.
  intros H H0 H1. unfold ab_grow. set (n := ab_clamp _ _ _). assert (Hn : min <= n <= 65536).
  { unfold n, ab_clamp. destruct (min <=? 4096) eqn:?; destruct (_ <? min) eqn:?; try lia; destruct (_ <? _) eqn:? in |- *; lia. }
  enough (acap (AB (if preserve then firstn (Z.to_nat n) (acells b) ++ ab_fresh (n - acap b) else ab_fresh n) (an b)) = n) by lia.
  clearbody n. unfold acap in *. cbn [acells]. destruct preserve; [|apply fresh_zlen; lia].
  rewrite zlen_app, fresh_zlen by lia. rewrite firstn_all2 by (unfold zlen in *; lia). lia.
Qed.
Lemma grow_keeps b l min : astores b l -> acap b <= min -> min <= 65536 -> astores (ab_grow b min true) l.
Proof.
  intros (j & ->) H H1. unfold ab_grow. set (n := ab_clamp _ _ _). assert (Hn : min <= n).
  { unfold n, ab_clamp. destruct (min <=? 4096) eqn:?; destruct (_ <? min) eqn:?; try lia; destruct (_ <? _) eqn:? in |- *; lia. }
  unfold acap in *. cbn [acells an] in *. rewrite firstn_all2 by (unfold zlen in *; lia). exists (j ++ ab_fresh (n - zlen (map Some l ++ j))). now rewrite app_assoc.
Qed.
Lemma grow_n b min p : an (ab_grow b min p) = an b.
Proof. reflexivity. Qed.
Lemma ready_ok b n : 0 <= n <= 65536 -> n <= acap (ab_ready b n).
Proof. intros H. unfold ab_ready. destruct (Z.ltb_spec (acap b) n); [|lia]. apply grow_cap; lia. Qed.
Lemma ready_same b l : astores b l -> ab_ready b (zlen l) = b.
Proof. intros H. apply astores_cap in H. unfold ab_ready. now replace (acap b <? zlen l) with false by lia. Qed.
Lemma clone_ok b l : astores b l -> exists b', ab_clone b = Some b' /\ astores b' l /\ acap b' = acap b.
Proof.
  intros H. pose proof (astores_cap b l H) as C. destruct H as (j & ->). unfold ab_clone, ab_move. cbn [an acells]. pose proof (zlen_nonneg l).
  unfold acap in *. cbn [acells] in *. destruct (Z.eqb_spec (zlen l) 0) as [E|E].
  - eexists. split; [reflexivity|]. destruct l; [|rewrite zlen_cons in E; pose proof (zlen_nonneg l); lia]. split; [exists (ab_fresh (zlen (map Some [] ++ j))); reflexivity|].
    cbn [acells]. apply fresh_zlen, zlen_nonneg.
  - replace ((0 <? zlen l) && (0 <=? 0) && (0 + zlen l <=? zlen (map Some l ++ j)) && (0 <=? 0) && (0 + zlen l <=? zlen (ab_fresh (zlen (map Some l ++ j))))) with true
      by (rewrite fresh_zlen by apply zlen_nonneg; lia).
    eexists. split; [reflexivity|]. change (Z.to_nat 0) with O. rewrite firstn_O, skipn_O. rewrite firstn_app_l by (rewrite map_length; unfold zlen; lia). cbn [app].
    rewrite firstn_all2 by (rewrite map_length; unfold zlen; lia). split; [eexists; reflexivity|]. cbn [acells].
    rewrite zlen_app, zlen_map. unfold zlen at 2. rewrite skipn_length. unfold ab_fresh. rewrite repeat_length. unfold zlen in *. lia.
Qed.
Lemma overwrite_ok cells l b : outs (AB cells 0) l -> zlen l <= 65536 -> exists b', ab_overwrite cells (zlen l) b = Some b' /\ astores b' l.
Proof.
  intros (j & E) H. cbn [acells] in E. subst cells. unfold ab_overwrite. fold (ab_ready b (zlen l)). pose proof (zlen_nonneg l).
  pose proof (ready_ok b (zlen l) ltac:(lia)) as R. set (d := ab_ready b (zlen l)) in *. unfold ab_move.
  destruct (Z.eqb_spec (zlen l) 0) as [E|E].
  - eexists. split; [reflexivity|]. apply outs_done; [|reflexivity]. destruct l; [apply outs_nil|]. rewrite zlen_cons in E. pose proof (zlen_nonneg l). lia.
  - replace ((0 <? zlen l) && (0 <=? 0) && (0 + zlen l <=? zlen (map Some l ++ j)) && (0 <=? 0) && (0 + zlen l <=? acap (ab_set_n d (zlen l)))) with true
      by (rewrite zlen_app, zlen_map; pose proof (zlen_nonneg j); unfold acap in *; cbn [ab_set_n acells]; lia).
    eexists. split; [reflexivity|]. change (Z.to_nat 0) with O. rewrite firstn_O, skipn_O. cbn [an ab_set_n]. rewrite firstn_app_l by (rewrite map_length; unfold zlen; lia). cbn [app].
    rewrite firstn_all2 by (rewrite map_length; unfold zlen; lia). eexists. reflexivity.
Qed.
Lemma shrink_ok b l : astores b l -> astores (fst (ab_shrink_to_fit b)) l /\ acap (fst (ab_shrink_to_fit b)) = zlen l /\ snd (ab_shrink_to_fit b) = acap b - zlen l.
Proof.
  intros H. pose proof (astores_cap b l H) as C. pose proof H as (j & ->). unfold ab_shrink_to_fit. cbn [an]. unfold acap in *. cbn [acells] in *.
  destruct (Z.eqb_spec (zlen l) (zlen (map Some l ++ j))) as [E|E]; cbn [fst snd acells].
  - split; [exact H|]. lia.
  - rewrite firstn_app_l by (rewrite map_length; unfold zlen; lia). rewrite firstn_all2 by (rewrite map_length; unfold zlen; lia).
    split; [exists []; now rewrite app_nil_r|]. rewrite zlen_map. split; reflexivity.
Qed.
Lemma append_ok b l x : astores b l -> zlen l < 65536 -> exists b', ab_append b x = Some b' /\ astores b' (l ++ [x]).
Proof.
  intros H L. pose proof (zlen_nonneg l). pose proof (astores_cap b l H). unfold ab_append. rewrite (astores_n b l H).
  set (d := if zlen l =? acap b then _ else b). assert (astores d l /\ zlen l < acap d) as (D & R).
  { unfold d. destruct (Z.eqb_spec (zlen l) (acap b)) as [E|E].
    - split; [apply grow_keeps; auto; lia|]. pose proof (grow_cap b (acap b + 1) true ltac:(lia) ltac:(lia) ltac:(lia)). lia.
    - split; [auto|lia]. }
  destruct (put_out d l x (astores_outs d l D) R) as (b' & E & _ & O & _ & N). rewrite (astores_n d l D), E. eexists. split; [reflexivity|].
  apply outs_done; [exact O|]. rewrite N, (astores_n d l D), zlen_app. reflexivity.
Qed.
Lemma push_all_ok vs : forall b l, astores b l -> zlen l + zlen vs <= acap b -> exists b', ab_push_all vs b = Some b' /\ astores b' (l ++ vs) /\ acap b' = acap b.
Proof.
  induction vs as [|x vs IH]; intros b l H L; cbn [ab_push_all].
  - exists b. now rewrite app_nil_r.
  - rewrite zlen_cons in L. pose proof (zlen_nonneg vs). destruct (put_out b l x (astores_outs b l H) ltac:(lia)) as (b1 & E & _ & O & C & N).
    rewrite (astores_n b l H), E. destruct (IH (ab_set_n b1 (an b1 + 1)) (l ++ [x])) as (b2 & E2 & S2 & C2).
    + apply outs_done; [exact O|]. rewrite N, (astores_n b l H), zlen_app. reflexivity.
    + unfold acap in *. cbn [ab_set_n acells]. rewrite zlen_app. change (zlen [x]) with 1. lia.
    + exists b2. rewrite E2. split; [reflexivity|]. split; [now rewrite <- app_assoc in S2|]. rewrite C2. exact C.
Qed.
Lemma put_all_ok vs : forall b l, outs b l -> zlen l + zlen vs <= acap b -> exists b', ab_put_all vs b (zlen l) = Some b' /\ outs b' (l ++ vs) /\ acap b' = acap b /\ an b' = an b.
Proof.
  induction vs as [|x vs IH]; intros b l H L; cbn [ab_put_all].
  - exists b. rewrite app_nil_r. auto.
  - rewrite zlen_cons in L. pose proof (zlen_nonneg vs). destruct (put_out b l x H ltac:(lia)) as (b1 & E & _ & O & C & N). rewrite E.
    destruct (IH b1 (l ++ [x]) O) as (b2 & E2 & O2 & C2 & N2). { rewrite zlen_app. change (zlen [x]) with 1. lia. }
    rewrite zlen_app in E2. change (zlen [x]) with 1 in E2. rewrite E2. exists b2. split; [reflexivity|]. rewrite <- app_assoc in O2. split; [exact O2|]. lia.
Qed.

(** ** Moves inside a block *)
Lemma split_at {A} (l : list A) n : 0 <= n <= zlen l -> exists a b, l = a ++ b /\ zlen a = n.
Proof.
  intros H. exists (firstn (Z.to_nat n) l), (skipn (Z.to_nat n) l). split; [now rewrite firstn_skipn|]. unfold zlen in *. rewrite firstn_length. lia.
Qed.
Lemma firstn_len {A} n (a b : list A) : Z.of_nat n = zlen a -> firstn n (a ++ b) = a.
Proof. intros. rewrite firstn_app_l by (unfold zlen in *; lia). apply firstn_all2. unfold zlen in *. lia. Qed.
Lemma skipn_len {A} n (a b : list A) : Z.of_nat n = zlen a -> skipn n (a ++ b) = b.
Proof. intros. rewrite skipn_app, skipn_all2 by (unfold zlen in *; lia). replace (n - length a)%nat with O by (unfold zlen in *; lia). reflexivity. Qed.
Lemma move_up A B D j n dst from count : from = zlen A -> count = zlen B -> dst = zlen A + zlen D ->
  exists D', ab_move (AB (A ++ B ++ D ++ j) n) dst (A ++ B ++ D ++ j) from count = Some (AB (A ++ D' ++ B ++ j) n) /\ zlen D' = zlen D.
Proof.
  intros -> -> ->. pose proof (zlen_nonneg A). pose proof (zlen_nonneg B). pose proof (zlen_nonneg D). pose proof (zlen_nonneg j). unfold ab_move.
  destruct (Z.eqb_spec (zlen B) 0) as [E|E].
  - destruct B as [|x B]; [|rewrite zlen_cons in E; pose proof (zlen_nonneg B); lia]. exists D. split; reflexivity.
  - unfold acap. cbn [acells an]. rewrite !zlen_app.
    match goal with |- context [if ?c then _ else None] => replace c with true by lia end.
    destruct (split_at (B ++ D) (zlen D)) as (D' & R & E1 & L1). { rewrite zlen_app. lia. }
    assert (LR : zlen R = zlen B). { apply (f_equal (@zlen _)) in E1. rewrite !zlen_app in E1. lia. }
    exists D'. split; [|exact L1]. f_equal. f_equal.
    rewrite (skipn_len (Z.to_nat (zlen A))) by lia. rewrite (firstn_len (Z.to_nat (zlen B))) by lia.
    replace (A ++ B ++ D ++ j) with ((A ++ D') ++ (R ++ j)) by (rewrite (app_assoc B D j), E1, <- !app_assoc; reflexivity).
    rewrite firstn_len by (rewrite zlen_app; lia). rewrite <- app_assoc. f_equal. f_equal. f_equal.
    replace ((A ++ D') ++ R ++ j) with (((A ++ D') ++ R) ++ j) by now rewrite <- app_assoc.
    apply skipn_len. rewrite !zlen_app. lia.
Qed.
Lemma move_down A X B j n dst from count : dst = zlen A -> from = zlen A + zlen X -> count = zlen B ->
  exists X', ab_move (AB (A ++ X ++ B ++ j) n) dst (A ++ X ++ B ++ j) from count = Some (AB (A ++ B ++ X' ++ j) n) \/
    (B = [] /\ ab_move (AB (A ++ X ++ B ++ j) n) dst (A ++ X ++ B ++ j) from count = Some (AB (A ++ X ++ j) n)).
Proof.
  intros -> -> ->. pose proof (zlen_nonneg A). pose proof (zlen_nonneg B). pose proof (zlen_nonneg X). pose proof (zlen_nonneg j). unfold ab_move.
  destruct (Z.eqb_spec (zlen B) 0) as [E|E].
  - destruct B as [|x B]; [|rewrite zlen_cons in E; pose proof (zlen_nonneg B); lia]. exists X. right. split; reflexivity.
  - unfold acap. cbn [acells an]. rewrite !zlen_app.
    match goal with |- context [if ?c then _ else None] => replace c with true by lia end.
    destruct (split_at (X ++ B) (zlen B)) as (R & X' & E1 & L1). { rewrite zlen_app. lia. }
    exists X'. left. f_equal. f_equal.
    replace (skipn (Z.to_nat (zlen A + zlen X)) (A ++ X ++ B ++ j)) with (B ++ j) by (symmetry; rewrite (app_assoc A X); apply skipn_len; rewrite zlen_app; lia).
    rewrite (firstn_len (Z.to_nat (zlen B))) by lia. rewrite firstn_len by lia. f_equal. f_equal.
    replace (A ++ X ++ B ++ j) with ((A ++ R) ++ (X' ++ j)) by (rewrite (app_assoc X B j), E1, <- !app_assoc; reflexivity).
    apply skipn_len. rewrite !zlen_app. lia.
Qed.
Lemma put_all_at vs : forall A X B n i, zlen X = zlen vs -> i = zlen A -> ab_put_all vs (AB (A ++ X ++ B) n) i = Some (AB (A ++ map Some vs ++ B) n).
Proof.
  induction vs as [|v vs IH]; intros A X B n i L ->; cbn [ab_put_all map].
  - destruct X; [reflexivity|]. rewrite zlen_cons in L. unfold zlen in L. cbn [length] in L. pose proof (zlen_nonneg X). unfold zlen in *. lia.
  - destruct X as [|c X]. { rewrite zlen_cons in L. pose proof (zlen_nonneg vs). unfold zlen in *. cbn [length] in L. lia. }
    rewrite !zlen_cons in L. cbn [app]. rewrite put_at by reflexivity.
    specialize (IH (A ++ [Some v]) X B n (zlen A + 1) ltac:(lia)). rewrite <- !app_assoc in IH. cbn [app] in IH.
    apply IH. rewrite zlen_app. reflexivity.
Qed.

(** ** Searches *)
Lemma outs_take b l n : outs b l -> outs b (ztake n l).
Proof. intros (j & E). exists (map Some (zskip n l) ++ j). rewrite E, app_assoc, <- map_app. now rewrite ztake_skip. Qed.
Lemma shiftr1 a : Z.shiftr a 1 = a / 2.
Proof. now rewrite Z.shiftr_div_pow2 by lia. Qed.
Lemma search_loop_ok b l k : outs b l -> forall f low high, 0 <= low -> high < zlen l -> ab_search_loop f b low high k = Some (binarySearch_loop f l low high k).
Proof.
  intros H. induction f as [|f IH]; intros low high L1 L2; cbn [ab_search_loop binarySearch_loop]; [reflexivity|].
  destruct (Z.leb_spec low high); [|reflexivity]. rewrite shiftr1. assert (low <= (low + high) / 2 <= high) by (split; [apply Z.div_le_lower_bound|apply Z.div_le_upper_bound]; lia).
  rewrite (outs_get b l) by (auto; lia). destruct (znth l ((low + high) / 2) <? k); [apply IH; lia|]. destruct (k <? znth l ((low + high) / 2)); [apply IH; lia|reflexivity].
Qed.
Lemma search_ok b l n k : outs b l -> n = zlen l -> ab_search b n k = Some (binarySearch l k).
Proof.
  intros H ->. unfold ab_search, binarySearch. replace (S (Z.to_nat (zlen l))) with (S (length l)) by (unfold zlen; lia). apply search_loop_ok; auto; lia.
Qed.
Lemma count_less_ok b l n k : outs b l -> n = zlen l -> ab_count_less b n k = Some (count_less l k).
Proof. intros H ->. unfold ab_count_less, count_less. destruct (zlen l =? 0); [reflexivity|]. now rewrite (search_ok b l). Qed.
Lemma count_greater_ok b l n k : outs b l -> n = zlen l -> ab_count_greater b n k = Some (count_greater l k).
Proof. intros H ->. unfold ab_count_greater, count_greater. destruct (zlen l =? 0); [reflexivity|]. rewrite (search_ok b l) by auto. destruct (0 <=? binarySearch l k); reflexivity. Qed.
Lemma contains_linear_ok b l k : outs b l -> forall f i high, 0 <= i -> high < zlen l -> ab_contains_linear f b i high k = Some (contains_linear f l i high k).
Proof.
  intros H. induction f as [|f IH]; intros i high L1 L2; cbn [ab_contains_linear contains_linear]; [reflexivity|].
  destruct (Z.leb_spec i high); [|reflexivity]. rewrite (outs_get b l) by (auto; lia). destruct (znth l i =? k); [reflexivity|]. destruct (k <? znth l i); [reflexivity|]. apply IH; lia.
Qed.
Lemma contains_loop_ok b l k : outs b l -> forall f low high, 0 <= low -> high < zlen l -> ab_contains_loop f b low high k = Some (contains_loop f l low high k).
Proof.
  intros H. induction f as [|f IH]; intros low high L1 L2; cbn [ab_contains_loop contains_loop]; [reflexivity|].
  destruct (Z.leb_spec (low + 16) high); [|now apply contains_linear_ok].
  rewrite shiftr1. assert (low <= (low + high) / 2 <= high) by (split; [apply Z.div_le_lower_bound|apply Z.div_le_upper_bound]; lia).
  rewrite (outs_get b l) by (auto; lia). destruct (znth l ((low + high) / 2) <? k); [apply IH; lia|]. destruct (k <? znth l ((low + high) / 2)); [apply IH; lia|reflexivity].
Qed.
Lemma contains_ok b l k : astores b l -> ab_contains b k = Some (array_container_contains l k).
Proof.
  intros H. unfold ab_contains, array_container_contains. rewrite (astores_n b l H). replace (S (Z.to_nat (zlen l))) with (S (length l)) by (unfold zlen; lia).
  apply contains_loop_ok; [now apply astores_outs|lia|lia].
Qed.

(** ** Single values *)
Lemma try_add_ok b l v limit : awf l -> astores b l -> zlen l < 65536 \/ amem l v = true -> 0 <= v < 65536 ->
  exists b', ab_try_add b v limit = Some (b', fst (array_container_try_add l v limit)) /\ astores b' (snd (array_container_try_add l v limit)).
Proof.
  intros W H L V. pose proof (astores_outs b l H) as O. pose proof (astores_n b l H) as N. pose proof (zlen_nonneg l). pose proof (astores_cap b l H).
  unfold ab_try_add, array_container_try_add. rewrite N.
  assert (EA : (if zlen l =? 0 then Some true else match ab_get b (zlen l - 1) with Some x => Some (x <? v) | None => None end) = Some ((zlen l =? 0) || (znth l (zlen l - 1) <? v))).
  { destruct (Z.eqb_spec (zlen l) 0); [reflexivity|]. rewrite (outs_get b l) by (auto; lia). reflexivity. }
  rewrite EA. destruct (((zlen l =? 0) || (znth l (zlen l - 1) <? v)) && (zlen l <? limit)) eqn:E.
  - cbn [fst snd]. assert (zlen l < 65536) as LL.
    { destruct L as [L|L]; [exact L|]. apply zmem_In in L. apply andb_prop in E. destruct E as [E _]. apply orb_prop in E. destruct E as [E|E].
      - lia.
      - assert (v < v); [|lia]. apply (last_lt_all l v); [apply W|intros ->; destruct L|lia|exact L]. }
    destruct (append_ok b l v H LL) as (b' & E2 & S2). rewrite E2. exists b'. split; [reflexivity|exact S2].
  - rewrite (search_ok b l) by auto. rewrite binarySearch_spec by apply W. pose proof (lb_bound l v).
    destruct (zmem v l) eqn:Em.
    + replace (0 <=? lb l v) with true by lia. cbn [fst snd]. exists b. split; [reflexivity|exact H].
    + replace (0 <=? - (lb l v + 1)) with false by lia. destruct (Z.ltb_spec (zlen l) limit); [|cbn [fst snd]; exists b; split; [reflexivity|exact H]].
      destruct L as [L|L]; [|unfold amem in L; congruence].
      set (d := if zlen l =? acap b then _ else b). assert (astores d l /\ zlen l < acap d) as (D & R).
      { unfold d. destruct (Z.eqb_spec (zlen l) (acap b)) as [E3|E3].
        - split; [apply grow_keeps; auto; lia|]. pose proof (grow_cap b (acap b + 1) true ltac:(lia) ltac:(lia) ltac:(lia)). lia.
        - split; [auto|lia]. }
      clearbody d. replace (- - (lb l v + 1) - 1) with (lb l v) by lia. destruct D as (j & ->). unfold acap in R. cbn [acells] in R. rewrite zlen_app, zlen_map in R.
      destruct j as [|c j]. { change (zlen (@nil (option Z))) with 0 in R. lia. }
      cbn [acells]. pose proof (ztake_skip (lb l v) l) as TS. set (A := ztake (lb l v) l) in *. set (B := zskip (lb l v) l) in *.
      assert (LA : zlen A = lb l v) by (apply ztake_zlen; lia). assert (LB : zlen l = zlen A + zlen B) by (rewrite <- TS, zlen_app; reflexivity).
      assert (ES : map Some l ++ c :: j = map Some A ++ map Some B ++ [c] ++ j) by (rewrite <- TS, map_app, <- app_assoc; reflexivity). rewrite ES.
      destruct (move_up (map Some A) (map Some B) [c] j (zlen l) (lb l v + 1) (lb l v) (zlen l - lb l v)) as (D' & EM & LD).
      { rewrite zlen_map. lia. } { rewrite zlen_map. lia. } { rewrite zlen_map. change (zlen [c]) with 1. lia. }
      rewrite EM. change (zlen [c]) with 1 in LD. destruct D' as [|c' [|c2 D']]; [discriminate| |rewrite !zlen_cons in LD; pose proof (zlen_nonneg D'); lia].
      cbn [app]. rewrite put_at by (rewrite zlen_map; lia). cbn [fst snd]. eexists. split; [reflexivity|]. unfold ab_set_n. cbn [acells an]. exists j.
      rewrite map_app, <- app_assoc. cbn [map app]. f_equal. rewrite zlen_app, zlen_cons. lia.
Qed.
Lemma add_ok b l v : awf l -> astores b l -> zlen l < 65536 \/ amem l v = true -> 0 <= v < 65536 ->
  exists b', ab_add b v = Some (b', snd (array_container_add l v)) /\ astores b' (fst (array_container_add l v)).
Proof.
  intros W H L V. destruct (try_add_ok b l v (2^31 - 1) W H L V) as (b' & E & S1). unfold ab_add, array_container_add. rewrite E.
  destruct (array_container_try_add l v (2^31 - 1)) as [rc l']. cbn [fst snd] in *. exists b'. split; [reflexivity|exact S1].
Qed.
Lemma drop_cells A X B j n m : m = zlen A + zlen B -> exists b, ab_move (AB (map Some A ++ X ++ map Some B ++ j) n) (zlen A) (map Some A ++ X ++ map Some B ++ j) (zlen A + zlen X) (zlen B) = Some b /\ an b = n /\ astores (ab_set_n b m) (A ++ B).
Proof.
  intros ->. destruct (move_down (map Some A) X (map Some B) j n (zlen A) (zlen A + zlen X) (zlen B)) as (X' & [E|(E0 & E)]); try (rewrite ?zlen_map; reflexivity).
  - rewrite E. eexists. split; [reflexivity|]. split; [reflexivity|]. unfold ab_set_n. cbn [acells]. exists (X' ++ j). rewrite map_app, <- app_assoc, zlen_app. reflexivity.
  - rewrite E. eexists. split; [reflexivity|]. split; [reflexivity|]. unfold ab_set_n. cbn [acells]. destruct B; [|discriminate]. exists (X ++ j). rewrite app_nil_r. change (zlen (@nil Z)) with 0. now rewrite Z.add_0_r.
Qed.
Lemma remove_range_ok b l pos count : astores b l -> 0 <= pos -> 0 <= count -> pos + count <= zlen l ->
  exists b', ab_remove_range b pos count = Some b' /\ astores b' (array_container_remove_range l pos count).
Proof.
  intros H P C L. unfold ab_remove_range, array_container_remove_range. destruct (Z.eqb_spec count 0) as [E|E]; cbn [negb]; [now exists b|].
  pose proof (ztake_skip pos l) as T1. assert (L1 : zlen (ztake pos l) = pos) by (apply ztake_zlen; lia). set (A := ztake pos l) in *.
  assert (T2 : zskip pos l = ztake count (zskip pos l) ++ zskip (pos + count) l).
  { rewrite <- (ztake_skip count (zskip pos l)) at 1. f_equal. apply zskip_zskip; lia. }
  set (X := ztake count (zskip pos l)) in *. set (B := zskip (pos + count) l) in *. assert (LX : zlen X = count). { apply ztake_zlen. rewrite zskip_zlen; lia. }
  assert (LB : zlen B = zlen l - pos - count) by (unfold B; rewrite zskip_zlen by lia; lia). rewrite (astores_n b l H). destruct H as (j & ->). cbn [acells].
  assert (ES : map Some l ++ j = map Some A ++ map Some X ++ map Some B ++ j) by (rewrite <- T1, T2, !map_app, <- !app_assoc; reflexivity). rewrite ES.
  destruct (drop_cells A (map Some X) B j (zlen l) (zlen l - count)) as (b' & EM & N & S1); [lia|]. rewrite zlen_map, L1, LX, LB in EM. rewrite EM. rewrite N.
  eexists. split; [reflexivity|exact S1].
Qed.
Lemma remove_ok b l v : awf l -> astores b l -> exists b', ab_remove b v = Some (b', snd (array_container_remove l v)) /\ astores b' (fst (array_container_remove l v)).
Proof.
  intros W H. unfold ab_remove, array_container_remove. rewrite (astores_n b l H). rewrite (search_ok b l) by (auto; now apply astores_outs).
  rewrite binarySearch_spec by apply W. pose proof (lb_bound l v). destruct (zmem v l) eqn:Em.
  - replace (0 <=? lb l v) with true by lia. cbn [fst snd]. apply zmem_In in Em. pose proof (lb_In l v) as LI. assert (lb l v < zlen l) by (apply LI; [apply W|exact Em]).
    destruct (remove_range_ok b l (lb l v) 1 H ltac:(lia) ltac:(lia) ltac:(lia)) as (b' & E & S1). unfold ab_remove_range, array_container_remove_range in *.
    change (1 =? 0) with false in *. cbn [negb] in S1. rewrite (astores_n b l H) in E. destruct (ab_move b (lb l v) (acells b) (lb l v + 1) (zlen l - lb l v - 1)) as [b1|] eqn:EM; [|discriminate].
    injection E as <-. eexists. split; [reflexivity|exact S1].
  - replace (0 <=? - (lb l v + 1)) with false by lia. cbn [fst snd]. now exists b.
Qed.

(** ** Ranges *)
Lemma create_range_ok lo hi : 0 <= lo <= hi -> hi <= 65536 -> exists b, ab_create_range lo hi = Some b /\ astores b (array_container_create_range lo hi).
Proof.
  intros H H1. destruct (create_ok (hi - lo + 1) ltac:(lia)) as (S1 & C1). unfold ab_create_range.
  destruct (push_all_ok (map u16 (zr lo hi)) _ [] S1) as (b & E & S2 & _). { rewrite zlen_map, zr_zlen, C1 by lia. unfold zlen. cbn [length]. lia. }
  exists b. split; [exact E|exact S2].
Qed.
Lemma fill_ok max step : max <= 65536 -> 0 < step -> forall f b l v, awf l -> astores b l -> 0 <= v -> (forall x, In x l -> x < v) ->
  exists b', ab_add_from_range_loop f b v max step = Some b' /\ astores b' (array_add_from_range_loop f l v max step).
Proof.
  intros HM HS. induction f as [|f IH]; intros b l v W H V A; cbn [ab_add_from_range_loop array_add_from_range_loop]; [now exists b|].
  destruct (Z.ltb_spec v max); [|now exists b].
  assert (zlen l <= v). { assert (inb 0 v l) as B. { apply Forall_forall. intros x Hx. specialize (A x Hx). pose proof (inb_In _ _ _ _ (proj2 W) Hx). lia. } pose proof (incr_inb_len 0 v l (proj1 W) B). lia. }
  destruct (append_ok b l (u16 v) H ltac:(lia)) as (b1 & E1 & S1). rewrite E1. change (u16 v) with (v mod 65536) in *. rewrite Z.mod_small in * by lia.
  destruct (append_spec l v W ltac:(lia) A) as [A1 A2]. apply IH; auto; [lia|].
  intros x Hx. apply in_app_iff in Hx. destruct Hx as [Hx|[<-|[]]]; [specialize (A x Hx)|]; lia.
Qed.
Lemma range_counts_ok b l lo hi : awf l -> astores b l -> 0 <= lo <= hi -> hi < 65536 ->
  ab_count_greater b (an b) (u16 hi) = Some (zlen l - lb l (hi + 1)) /\ ab_count_less b (an b - (zlen l - lb l (hi + 1))) (u16 lo) = Some (lb l lo).
Proof.
  intros W H H1 H2. destruct (array_range_counts l lo hi W H1 H2) as (E1 & E2). pose proof (astores_outs b l H) as O. rewrite (astores_n b l H). split.
  - rewrite (count_greater_ok b l) by auto. now rewrite E1.
  - rewrite (count_less_ok b (ztake (zlen l - (zlen l - lb l (hi + 1))) l)); [now rewrite E2|now apply outs_take|].
    pose proof (lb_bound l (hi + 1)). rewrite ztake_zlen by lia. reflexivity.
Qed.
Lemma add_range_ok b l lo hi : awf l -> astores b l -> 0 <= lo <= hi -> hi < 65536 ->
  exists b', ab_add_range b lo hi = Some b' /\ astores b' (array_container_add_range_nvals l lo hi (lb l lo) (zlen l - lb l (hi + 1))).
Proof.
  intros W H H1 H2. destruct (range_counts_ok b l lo hi W H H1 H2) as (E1 & E2). unfold ab_add_range. rewrite E1, E2. clear E1 E2.
  destruct (array_add_range_nvals_spec l lo hi W H1 H2) as (W1 & _ & L1). pose proof (awf_zlen _ W1) as L2. rewrite L1 in L2.
  pose proof (lb_bound l lo). pose proof (lb_bound l (hi + 1)). pose proof (lb_mono l lo (hi + 1) ltac:(lia)).
  unfold ab_add_range_nvals. set (u := lb l lo + (hi - lo + 1) + (zlen l - lb l (hi + 1))) in *.
  set (d := if acap b <? u then _ else b). assert (astores d l /\ u <= acap d) as (D & R).
  { unfold d. destruct (Z.ltb_spec (acap b) u).
    - split; [apply grow_keeps; auto; lia|]. apply grow_cap; lia.
    - split; [auto|lia]. }
  clearbody d. clear H. rewrite (astores_n d l D). unfold array_container_add_range_nvals in *. replace (zlen l - (zlen l - lb l (hi + 1))) with (lb l (hi + 1)) in * by lia.
  set (A := ztake (lb l lo) l) in *. set (G := zskip (lb l (hi + 1)) l) in *.
  assert (LA : zlen A = lb l lo) by (apply ztake_zlen; lia). assert (LG : zlen G = zlen l - lb l (hi + 1)) by (apply zskip_zlen; lia).
  set (X := zskip (lb l lo) (ztake (lb l (hi + 1)) l)).
  assert (T : l = A ++ X ++ G).
  { rewrite <- (ztake_skip (lb l (hi + 1)) l) at 1. fold G. rewrite app_assoc. f_equal. rewrite <- (ztake_skip (lb l lo) (ztake (lb l (hi + 1)) l)) at 1. fold X. f_equal.
    unfold A, ztake. rewrite firstn_firstn. f_equal. lia. }
  assert (LX : zlen X = lb l (hi + 1) - lb l lo). { apply (f_equal (@zlen _)) in T. rewrite !zlen_app in T. lia. }
  assert (XR : zlen X <= hi - lo + 1).
  { assert (incr X /\ inb lo (hi + 1) X) as (IX & BX); [|pose proof (incr_inb_len lo (hi + 1) X IX BX); lia].
    unfold X. rewrite zskip_ztake_filter by (try apply W; lia). split; [apply incr_filter, W|]. apply Forall_forall. intros x Hx. apply filter_In in Hx. lia. }
  destruct D as (j & ->). unfold acap in R. cbn [acells] in *. rewrite zlen_app, zlen_map in R.
  destruct (split_at j (hi - lo + 1 - zlen X)) as (D & j' & -> & LD). { pose proof (zlen_nonneg j). unfold u in R. lia. }
  assert (ES : map Some l ++ D ++ j' = (map Some A ++ map Some X) ++ map Some G ++ D ++ j') by (rewrite T at 1; rewrite !map_app, <- !app_assoc; reflexivity).
  rewrite ES. destruct (move_up (map Some A ++ map Some X) (map Some G) D j' (zlen l) (u - (zlen l - lb l (hi + 1))) (lb l (hi + 1)) (zlen l - lb l (hi + 1))) as (D' & EM & LD').
  { rewrite zlen_app, !zlen_map. lia. } { rewrite zlen_map. lia. } { rewrite zlen_app, !zlen_map. unfold u. lia. }
  rewrite EM. rewrite <- app_assoc. rewrite (app_assoc (map Some X) D'). rewrite put_all_at; [|rewrite zlen_app, !zlen_map, zr_zlen by lia; lia|rewrite zlen_map; lia].
  eexists. split; [reflexivity|]. unfold ab_set_n. cbn [acells]. exists j'. change (fun k => k mod 65536) with u16. rewrite !map_app, <- !app_assoc. f_equal. symmetry. exact L1.
Qed.
Lemma drop_range_ok b l lo hi : awf l -> astores b l -> 0 <= lo <= hi -> hi < 65536 ->
  exists b', ab_drop_range b lo hi = Some b' /\ astores b' (array_container_remove_range l (lb l lo) (lb l (hi + 1) - lb l lo)).
Proof.
  intros W H H1 H2. destruct (range_counts_ok b l lo hi W H H1 H2) as (E1 & E2). unfold ab_drop_range. rewrite E1, E2. rewrite (astores_n b l H).
  pose proof (lb_bound l lo). pose proof (lb_bound l (hi + 1)). pose proof (lb_mono l lo (hi + 1) ltac:(lia)).
  replace (zlen l - (lb l lo + (zlen l - lb l (hi + 1)))) with (lb l (hi + 1) - lb l lo) by lia. apply remove_range_ok; auto; lia.
Qed.

(** ** Loops that read one array and write another, or the same *)
Definition reads (inp : input) (b : ablk) (l : list Z) (p : Z) : Prop := forall j, p <= j < zlen l -> inp b j = Some (znth l j).
Definition framed (inp : input) : Prop := forall b n x b' i, ab_put b n x = Some b' -> n < i -> inp b' i = inp b i.
Lemma framed_itself : framed itself.
Proof. intros b n x b' i E H. now apply (put_frame b n x). Qed.
Lemma framed_apart s : framed (apart_from s).
Proof. intros b n x b' i E H. reflexivity. Qed.
Lemma reads_put inp b n x b' l p q : framed inp -> reads inp b l p -> ab_put b n x = Some b' -> n < q -> p <= q -> reads inp b' l q.
Proof. intros F R E H H1 j Hj. rewrite (F b n x b' j E ltac:(lia)). apply R. lia. Qed.
Lemma reads_later inp b l p q : reads inp b l p -> p <= q -> reads inp b l q.
Proof. intros R H j Hj. apply R. lia. Qed.
Lemma zskip_in a p : 0 <= p < zlen a -> zskip p a = znth a p :: zskip (p + 1) a.
Proof.
  intros H. unfold zskip, znth. destruct (nth_split a 0 (n := Z.to_nat p)) as (A & B & E & L). { unfold zlen in H. lia. }
  set (x := nth (Z.to_nat p) a 0) in *. clearbody x. subst a. rewrite skipn_app, skipn_all2 by lia. replace (Z.to_nat p - length A)%nat with O by lia. cbn [skipn app]. f_equal.
  rewrite skipn_app, skipn_all2 by lia. replace (Z.to_nat (p + 1) - length A)%nat with 1%nat by lia. reflexivity.
Qed.
Lemma zskip_end (a : list Z) p : zlen a <= p -> zskip p a = [].
Proof. intros. apply skipn_all2. unfold zlen in *. lia. Qed.
Lemma select_ok inp keep l : framed inp -> forall n b i out, reads inp b l i -> outs b out -> zlen out <= i -> i + Z.of_nat n = zlen l -> zlen l <= acap b ->
  exists b', ab_select_loop n inp keep b i (zlen out) = Some b' /\ astores b' (out ++ filter keep (zskip i l)).
Proof.
  intros F. induction n as [|n IH]; intros b i out R O L E C; cbn [ab_select_loop]; pose proof (zlen_nonneg out).
  - rewrite zskip_end by lia. cbn [filter]. rewrite app_nil_r. eexists. split; [reflexivity|]. now apply outs_done.
  - rewrite R by lia. destruct (put_out b out (znth l i) O ltac:(lia)) as (b1 & E1 & O1 & O2 & C1 & _). rewrite E1. rewrite zskip_in by lia. cbn [filter].
    assert (R1 : reads inp b1 l (i + 1)) by (eapply reads_put; [exact F|exact R|exact E1|lia|lia]).
    destruct (keep (znth l i)).
    + destruct (IH b1 (i + 1) (out ++ [znth l i]) R1 O2) as (b2 & E2 & S2); try (rewrite ?zlen_app; change (zlen [znth l i]) with 1; lia).
      rewrite zlen_app in E2. change (zlen [znth l i]) with 1 in E2. exists b2. split; [exact E2|]. rewrite <- app_assoc in S2. exact S2.
    + rewrite Z.add_0_r. apply IH; auto; lia.
Qed.
Lemma gallop_ok inp b l lower min : reads inp b l lower -> forall f s, 1 <= s -> ab_gallop f inp b lower s (zlen l) min = Some (gallop f l lower s (zlen l) min).
Proof.
  intros R. induction f as [|f IH]; intros s H; cbn [ab_gallop gallop]; [reflexivity|]. destruct (Z.ltb_spec (lower + s) (zlen l)); [|reflexivity].
  rewrite R by lia. cbn [andb]. destruct (_ <? min); [|reflexivity]. apply IH. rewrite Z.shiftl_mul_pow2 by lia. lia.
Qed.
Lemma gallop_range l lower min : forall f s, 1 <= s -> lower + s / 2 <= zlen l - 1 ->
  1 <= gallop f l lower s (zlen l) min /\ lower + gallop f l lower s (zlen l) min / 2 <= zlen l - 1.
Proof.
  induction f as [|f IH]; intros s H H1; cbn [gallop]; [lia|]. destruct (Z.ltb_spec (lower + s) (zlen l)); cbn [andb]; [|lia]. destruct (_ <? min); [|lia].
  assert (E : Z.shiftl s 1 = s * 2) by (rewrite Z.shiftl_mul_pow2 by lia; lia). rewrite E. apply IH; [lia|]. rewrite Z.div_mul by lia. lia.
Qed.
Lemma gallop_bin_ok inp b l p min : reads inp b l p -> forall f lower upper, p <= lower -> lower <= upper -> upper < zlen l ->
  ab_gallop_bin f inp b lower upper min = Some (gallop_bin f l lower upper min).
Proof.
  intros R. induction f as [|f IH]; intros lower upper H H1 H2; cbn [ab_gallop_bin gallop_bin]; [reflexivity|]. destruct (lower + 1 =? upper); [reflexivity|].
  rewrite shiftr1. assert (lower <= (lower + upper) / 2 <= upper) by (split; [apply Z.div_le_lower_bound|apply Z.div_le_upper_bound]; lia).
  rewrite R by lia. destruct (_ =? min); [reflexivity|]. destruct (_ <? min); apply IH; lia.
Qed.
Lemma advance_ok inp b l pos min : reads inp b l (pos + 1) -> ab_advance inp b pos (zlen l) min = Some (advanceUntil l pos (zlen l) min).
Proof.
  intros R. unfold ab_advance, advanceUntil. destruct (Z.leb_spec (zlen l) (pos + 1)); [reflexivity|]. cbn [orb]. rewrite R by lia. destruct (min <=? znth l (pos + 1)); [reflexivity|].
  replace (S (Z.to_nat (zlen l))) with (S (length l)) by (unfold zlen; lia). rewrite (gallop_ok inp b l) by (auto; lia).
  destruct (gallop_range l (pos + 1) min (S (length l)) 1) as (G1 & G2); [lia|change (1 / 2) with 0; lia|].
  set (s := gallop (S (length l)) l (pos + 1) 1 (zlen l) min) in *. clearbody s.
  assert (S2 : 0 <= s / 2 <= s) by (split; [apply Z.div_pos; lia|apply Z.div_le_upper_bound; lia]).
  set (u := if pos + 1 + s <? zlen l then _ else _). assert (pos + 1 <= u < zlen l /\ pos + 1 + s / 2 <= u) as (U1 & U2) by (unfold u; destruct (Z.ltb_spec (pos + 1 + s) (zlen l)); lia).
  rewrite R by lia. destruct (znth l u =? min); [reflexivity|]. destruct (znth l u <? min); [reflexivity|]. rewrite shiftr1.
  apply (gallop_bin_ok inp b l (pos + 1)); auto; lia.
Qed.
Lemma and_runs_loop_ok inp l : framed inp -> incr l -> forall f b p out rs lo, rok lo rs -> reads inp b l p -> outs b out -> zlen out <= p -> p <= zlen l -> zlen l <= acap b ->
  (Z.to_nat (zlen l - p) + length rs < f)%nat -> exists b', ab_and_runs_loop f inp (zlen l) b p (zlen out) rs = Some b' /\ astores b' (out ++ filter (rmem rs) (zskip p l)).
Proof.
  intros F I. induction f as [|f IH]; intros b p out rs lo RK R O L PL C FU; [lia|]. pose proof (zlen_nonneg out). cbn [ab_and_runs_loop].
  destruct (Z.ltb_spec p (zlen l)).
  2:{ rewrite zskip_end by lia. cbn [filter]. rewrite app_nil_r. eexists. split; [reflexivity|]. now apply outs_done. }
  rewrite R by lia. destruct rs as [|[v len] rs].
  { rewrite filter_none by reflexivity. rewrite app_nil_r. eexists. split; [reflexivity|]. now apply outs_done. }
  cbn [rok] in RK. destruct RK as (R1 & R2 & R3 & R4).
  assert (Ge : forall z, In z (zskip p l) -> znth l p <= z).
  { intros z Hz. assert (IS : incr (zskip p l)) by now apply incr_zskip. rewrite zskip_in in * by lia. destruct Hz as [<-|Hz]; [lia|]. pose proof (incr_head _ _ z IS Hz). lia. }
  destruct (Z.ltb_spec (v + len) (znth l p)).
  - destruct (IH b p out rs (v + len + 2) R4 R O L PL C) as (b' & E & S1); [cbn [length] in FU; lia|]. exists b'. split; [exact E|].
    replace (filter (rmem ((v, len) :: rs)) (zskip p l)) with (filter (rmem rs) (zskip p l)); [exact S1|]. apply filter_ext_In. intros z Hz. rewrite rmem_cons. unfold inrun. cbn [fst snd].
    specialize (Ge z Hz). replace (z <=? v + len) with false by lia. now rewrite andb_false_r.
  - destruct (Z.ltb_spec (znth l p) v).
    + rewrite (advance_ok inp b l p v) by (apply (reads_later inp b l p); auto; lia). rewrite advanceUntil_lb by (auto; lia). pose proof (lb_bound l v).
      assert (p < lb l v). { destruct (Z_lt_le_dec p (lb l v)); [assumption|]. assert (v <= znth l p); [|lia]. apply lb_ge; auto; lia. }
      destruct (IH b (lb l v) out ((v, len) :: rs) lo) as (b' & E & S1); auto; try lia.
      { cbn [rok]. auto. } { apply (reads_later inp b l p); auto; lia. }
      exists b'. split; [exact E|]. replace (filter (rmem ((v, len) :: rs)) (zskip p l)) with (filter (rmem ((v, len) :: rs)) (zskip (lb l v) l)); [exact S1|].
      assert (T : zskip p l = ztake (lb l v - p) (zskip p l) ++ zskip (lb l v) l).
      { rewrite <- (ztake_skip (lb l v - p) (zskip p l)) at 1. f_equal. rewrite zskip_zskip by lia. f_equal. lia. }
      rewrite T, filter_app. rewrite (filter_none _ (ztake (lb l v - p) (zskip p l))); [reflexivity|]. intros z Hz.
      assert (z < v).
      { assert (TT : ztake (lb l v) l = ztake p l ++ ztake (lb l v - p) (zskip p l)).
        { apply (app_inv_tail (zskip (lb l v) l)). rewrite <- app_assoc, <- T. now rewrite !ztake_skip. }
        assert (In z (ztake (lb l v) l)) as Hz2 by (rewrite TT; apply in_app_iff; now right).
        rewrite (proj1 (split_lb l v I)) in Hz2. apply filter_In in Hz2. lia. }
      destruct (rmem ((v, len) :: rs) z) eqn:M; [|reflexivity]. apply rmem_range with (lo := v) in M; [lia|]. cbn [rok]. repeat split; auto; lia.
    + destruct (put_out b out (znth l p) O ltac:(lia)) as (b1 & E1 & _ & O2 & C1 & _). rewrite E1.
      destruct (IH b1 (p + 1) (out ++ [znth l p]) ((v, len) :: rs) lo) as (b2 & E2 & S2); auto; try lia.
      { cbn [rok]. auto. } { eapply reads_put; [exact F|exact R|exact E1|lia|lia]. } { rewrite zlen_app. change (zlen [znth l p]) with 1. lia. }
      rewrite zlen_app in E2. change (zlen [znth l p]) with 1 in E2. exists b2. split; [exact E2|]. rewrite zskip_in by lia. cbn [filter].
      replace (rmem ((v, len) :: rs) (znth l p)) with true; [rewrite <- app_assoc in S2; exact S2|]. symmetry. rewrite rmem_cons. unfold inrun. cbn [fst snd].
      replace (v <=? znth l p) with true by lia. replace (znth l p <=? v + len) with true by lia. reflexivity.
Qed.
Lemma andnot_runs_loop_ok inp l : framed inp -> inb 0 65536 l -> forall f b p out s e rs, reads inp b l p -> outs b out -> zlen out <= p -> p <= zlen l -> zlen l <= acap b ->
  Forall (fun x => fst x + snd x < 65536) rs -> (65536 <= e -> s = e) -> (Z.to_nat (zlen l - p) + length rs + (if (e <? 65536)%Z then 1 else 0) < f)%nat ->
  exists b', ab_andnot_runs_loop f inp (zlen l) b p (zlen out) s e rs = Some b' /\ astores b' (out ++ array_run_andnot_loop f (zskip p l) s e rs).
Proof.
  intros F B. induction f as [|f IH]; intros b p out s e rs R O L PL C RB SE FU; [lia|]. pose proof (zlen_nonneg out). cbn [ab_andnot_runs_loop array_run_andnot_loop].
  destruct (Z.ltb_spec p (zlen l)).
  2:{ rewrite zskip_end by lia. rewrite app_nil_r. eexists. split; [reflexivity|]. now apply outs_done. }
  rewrite R by lia. rewrite zskip_in by lia. assert (V : 0 <= znth l p < 65536) by (apply (inb_In 0 65536 l); [exact B|apply znth_In; lia]).
  destruct (Z.ltb_spec (znth l p) s).
  - destruct (put_out b out (znth l p) O ltac:(lia)) as (b1 & E1 & _ & O2 & C1 & _). rewrite E1.
    destruct (IH b1 (p + 1) (out ++ [znth l p]) s e rs) as (b2 & E2 & S2); auto; try lia.
    { eapply reads_put; [exact F|exact R|exact E1|lia|lia]. } { rewrite zlen_app. change (zlen [znth l p]) with 1. lia. }
    rewrite zlen_app in E2. change (zlen [znth l p]) with 1 in E2. exists b2. split; [exact E2|]. rewrite <- app_assoc in S2. exact S2.
  - destruct (Z.leb_spec (znth l p) e).
    + apply IH; auto; try lia. apply (reads_later inp b l p); auto; lia.
    + rewrite <- zskip_in by lia. destruct (Z.ltb_spec e 65536); [|lia]. destruct rs as [|[v len] rs].
      * apply IH; auto; try lia. change (65537 <? 65536) with false. cbn [length] in *. lia.
      * inversion RB as [|? ? R0 RB']; subst. cbn [fst snd] in R0. apply IH; auto; try lia. destruct (Z.ltb_spec (v + len) 65536); cbn [length] in *; lia.
Qed.

(** ** Results as sets *)
Lemma seq_zrange n : forall k, map Z.of_nat (seq k n) = zrange (Z.of_nat k) n.
Proof. induction n as [|n IH]; intros k; [reflexivity|]. cbn [seq map zrange]. f_equal. rewrite IH. f_equal. lia. Qed.
Lemma members_vals P : members P = vals P.
Proof. unfold members, vals, zr, top_value. change (Z.to_nat (2 ^ 16)) with (Z.to_nat (65536 - 0)). rewrite seq_zrange. reflexivity. Qed.
Definition keeps (b : ablk) (P : vset) : Prop := astores b (members P).
Lemma keeps_vals b P : keeps b P -> astores b (vals P).
Proof. unfold keeps. now rewrite members_vals. Qed.
Lemma keeps_by b l (P : vset) : astores b l -> awf l -> (forall x, 0 <= x < 65536 -> amem l x = P x) -> keeps b P.
Proof. intros H W E. unfold keeps. rewrite members_vals. rewrite <- (proj2 (awf_vals_eq l P W) E). exact H. Qed.
Lemma amem_vals (P : vset) x : 0 <= x < 65536 -> amem (vals P) x = P x.
Proof. intros H. exact (proj1 (awf_vals_eq (vals P) P (awf_vals P)) eq_refl x H). Qed.
Lemma size_vals P : size P = zlen (vals P).
Proof. unfold size, zlen. now rewrite members_vals. Qed.
Lemma has_room l v : awf l -> 0 <= v < 65536 -> zlen l < 65536 \/ amem l v = true.
Proof.
  intros W V. destruct (amem l v) eqn:E; [auto|left]. destruct (array_add_spec l v W V) as (W1 & _ & _ & L). rewrite E in L. pose proof (awf_zlen _ W1). lia.
Qed.
Lemma source_ok m d s l : astores (m s) l -> zlen l <= 65536 ->
  framed (source m d s) /\ reads (source m d s) (ab_ready (m d) (zlen l)) l 0 /\ zlen l <= acap (ab_ready (m d) (zlen l)).
Proof.
  intros H L. pose proof (zlen_nonneg l). split; [|split; [|apply ready_ok; lia]]; unfold source; destruct (Nat.eqb_spec d s) as [->|N].
  - apply framed_itself.
  - apply framed_apart.
  - rewrite ready_same by exact H. intros j J. apply outs_get; [now apply astores_outs|lia].
  - intros j J. apply outs_get; [now apply astores_outs|lia].
Qed.
Lemma select_words_ok m d s l keep : astores (m s) l -> zlen l <= 65536 ->
  exists b, ab_select_loop (Z.to_nat (an (m s))) (source m d s) keep (ab_ready (m d) (an (m s))) 0 0 = Some b /\ astores b (filter keep l).
Proof.
  intros H L. destruct (source_ok m d s l H L) as (F & R & C). rewrite (astores_n _ _ H). pose proof (zlen_nonneg l).
  destruct (select_ok (source m d s) keep l F (Z.to_nat (zlen l)) _ 0 [] R (outs_nil _)) as (b & E & S1); try lia; [now cbn|].
  exists b. split; [exact E|]. exact S1.
Qed.
Lemma and_runs_ok m d s l r : astores (m s) l -> awf l -> rwf r -> r <> [] ->
  exists b, ab_and_runs (Nat.eqb d s) (source m d s) (acells (m s)) (an (m s)) r (m d) = Some b /\ astores b (filter (rmem r) l).
Proof.
  intros H W RW RN. pose proof (awf_zlen l W) as L. pose proof (zlen_nonneg l). unfold ab_and_runs. rewrite (astores_n _ _ H).
  pose proof (array_run_isect_filter l r W RW) as Q. unfold array_run_container_intersection in Q. destruct (run_container_is_full r).
  - rewrite <- Q. destruct (Nat.eqb_spec d s) as [->|N].
    + exists (m s). auto.
    + apply overwrite_ok; [|lia]. destruct H as (j & ->). exists j. reflexivity.
  - clear Q. destruct (source_ok m d s l H ltac:(lia)) as (F & R & C). destruct r as [|x r]; [congruence|].
    destruct (and_runs_loop_ok (source m d s) l F (proj1 W) (S (Z.to_nat (zlen l) + length (x :: r))) _ 0 [] (x :: r) 0 RW R (outs_nil _)) as (b & E & S1); try lia; [now cbn|].
    exists b. split; [exact E|exact S1].
Qed.
Lemma rok_ends r : forall lo, rok lo r -> Forall (fun x => fst x + snd x < 65536) r.
Proof. induction r as [|[v n] r IH]; intros lo H; constructor; cbn [rok fst snd] in *; [tauto|]. apply (IH (v + n + 2)). tauto. Qed.
Lemma andnot_runs_ok m d s l r : astores (m s) l -> awf l -> rwf r -> r <> [] ->
  exists b, ab_andnot_runs (source m d s) (acells (m s)) (an (m s)) r (m d) = Some b /\ astores b (filter (fun x => negb (rmem r x)) l).
Proof.
  intros H W RW RN. pose proof (awf_zlen l W) as L. pose proof (zlen_nonneg l). unfold ab_andnot_runs. rewrite (astores_n _ _ H).
  destruct (source_ok m d s l H ltac:(lia)) as (F & R & C). destruct r as [|[v n] r]; [congruence|]. destruct RW as (V1 & V2 & V3 & RK).
  destruct (andnot_runs_loop_ok (source m d s) l F (proj2 W) (S (S (Z.to_nat (zlen l) + length r))) _ 0 [] v (v + n) r R (outs_nil _)) as (b & E & S1); try lia.
  { now cbn. } { eapply rok_ends; eauto. } { destruct (Z.ltb_spec (v + n) 65536); lia. }
  exists b. split; [exact E|]. cbn [app] in S1. change (zskip 0 l) with l in S1. rewrite array_run_andnot_loop_spec in S1; try lia.
  - rewrite (filter_ext _ (fun x => negb (rmem ((v, n) :: r) x))) in S1; [exact S1|]. intros x. reflexivity.
  - apply W. - apply W. - exact RK. - destruct (Z.ltb_spec (v + n) 65536); unfold zlen; lia.
Qed.
Lemma set_n_same b n : an b = n -> ab_set_n b n = b.
Proof. intros <-. destruct b. reflexivity. Qed.
Lemma from_words_gen ws n vs : bitset_extract_setbits ws 0 = vs -> zlen vs = n -> exists b, ab_from_words (n, ws) = Some b /\ astores b vs.
Proof.
  intros E Lv. unfold ab_from_words. cbn [b_words b_card fst snd]. rewrite E. clear E. pose proof (zlen_nonneg vs). destruct (create_ok n ltac:(lia)) as (_ & C).
  destruct (put_all_ok vs (ab_set_n (ab_create n) n) [] (outs_nil _)) as (b & E1 & O1 & C1 & N1). { change (acap (ab_set_n (ab_create n) n)) with (acap (ab_create n)). rewrite C. change (zlen (@nil Z)) with 0. lia. }
  exists b. split; [exact E1|]. cbn [ab_set_n an] in N1. rewrite <- (set_n_same b _ N1). apply outs_done; [exact O1|lia].
Qed.
Lemma from_words_ok ws n : bws ws -> n = bcard ws -> exists b, ab_from_words (n, ws) = Some b /\ astores b (vals (bget ws)).
Proof.
  intros H ->. apply from_words_gen; [|unfold bcard; apply zlen_vals]. pose proof (array_from_bitset_spec (0, ws) H) as E. unfold array_container_from_bitset, b_words in E. cbn [snd] in E. exact E.
Qed.
Lemma from_runs_gen vs n : zlen vs = n -> exists b, ab_push_all vs (ab_create n) = Some b /\ astores b vs.
Proof.
  intros Lv. pose proof (zlen_nonneg vs). destruct (create_ok n ltac:(lia)) as (S0 & C).
  destruct (push_all_ok vs _ [] S0) as (b & E1 & S1 & _). { rewrite C. change (zlen (@nil Z)) with 0. lia. }
  exists b. auto.
Qed.
Lemma from_runs_ok r : rwf r -> exists b, ab_from_runs r = Some b /\ astores b (vals (rmem r)).
Proof.
  intros H. unfold ab_from_runs. rewrite array_from_run_spec, run_cardinality_spec by exact H. apply from_runs_gen. unfold rcard. apply zlen_vals.
Qed.
Lemma values_ok b l : astores b l -> ab_values b = l.
Proof.
  intros (j & ->). unfold ab_values. cbn [an acells]. rewrite firstn_len by (rewrite zlen_map; pose proof (zlen_nonneg l); lia).
  induction l as [|x l IH]; [reflexivity|]. cbn [map flat_map app]. now rewrite IH.
Qed.
Lemma from_run_zr r : forall lo, 0 <= lo -> rok lo r -> array_container_from_run r = flat_map (fun x => zr (fst x) (fst x + snd x + 1)) r.
Proof.
  unfold array_container_from_run. induction r as [|[v n] r IH]; intros lo H0 H; [reflexivity|]. cbn [flat_map fst snd] in *. destruct H as (H1 & H2 & H3 & H4).
  rewrite (IH (v + n + 2)) by (auto; lia). f_equal. rewrite <- (map_id (zr v (v + n + 1))) at 2. apply map_ext_in. intros x I. apply zr_In in I. apply u16_small. lia.
Qed.
Lemma runs_minus_gen (vs : list Z) f n : zlen vs = n -> exists b, ab_put_all (filter f vs) (ab_create n) 0 = Some b /\ outs b (filter f vs).
Proof.
  intros Lv. pose proof (filter_len_le f vs). pose proof (zlen_nonneg vs). destruct (create_ok n ltac:(lia)) as (_ & C).
  destruct (put_all_ok (filter f vs) _ [] (outs_nil (ab_create n))) as (b & E1 & O1 & _). { rewrite C. change (zlen (@nil Z)) with 0. lia. }
  exists b. auto.
Qed.
Lemma runs_minus_ok r src l : rwf r -> awf l -> exists b, ab_runs_minus r src l = Some b /\ astores b (filter (fun x => negb (zmem x l)) (vals (rmem r))).
Proof.
  intros H W. unfold ab_runs_minus. rewrite (run_array_subtract_spec l (proj1 W) (proj2 W) r 0 (-1) H) by lia.
  rewrite <- (from_run_zr r 0), array_from_run_spec, run_cardinality_spec by (auto; lia).
  assert (Lv : zlen (vals (rmem r)) = rcard r) by (unfold rcard; apply zlen_vals).
  revert Lv. generalize (rcard r). generalize (vals (rmem r)). intros vs n Lv. destruct (runs_minus_gen vs (fun x => negb (zmem x l)) n Lv) as (b & E1 & O1). rewrite E1.
  eexists. split; [reflexivity|]. now apply outs_done.
Qed.
Lemma offset_loop_ok c l off : astores c l -> forall n i b acc, awf acc -> astores b acc -> 0 <= i -> i + Z.of_nat n <= zlen l ->
  exists b', ab_offset_loop n c i off b = Some b' /\ astores b' (add_all acc (map (fun v => (v + off) mod 65536) (firstn n (zskip i l)))).
Proof.
  intros H. induction n as [|n IH]; intros i b acc W S1 I L; cbn [ab_offset_loop].
  - exists b. split; [reflexivity|]. rewrite firstn_O. exact S1.
  - rewrite (outs_get c l) by (try apply astores_outs; auto; lia). rewrite zskip_in by lia. change (firstn (S n) (znth l i :: zskip (i + 1) l)) with (znth l i :: firstn n (zskip (i + 1) l)).
    change (u16 (znth l i + off)) with ((znth l i + off) mod 65536). set (v := (znth l i + off) mod 65536). assert (V : 0 <= v < 65536) by (apply Z.mod_pos_bound; lia).
    destruct (add_ok b acc v W S1 (has_room acc v W V) V) as (b1 & E1 & S2). rewrite E1. cbn [fst].
    destruct (array_add_spec acc v W V) as (W2 & _). exact (IH (i + 1) b1 _ W2 S2 ltac:(lia) ltac:(lia)).
Qed.
Lemma offset_low_ok c l off : astores c l -> awf l -> 0 < off < 65536 -> (exists x, 0 <= x /\ x + off < 65536 /\ amem l x = true) ->
  exists b, ab_offset_low c off = Some (Some b) /\ keeps b (fun x => (off <=? x) && amem l (x - off)).
Proof.
  intros H W HO HX. unfold ab_offset_low. rewrite (count_less_ok c l) by (try apply astores_outs; auto; now apply astores_n). rewrite u16_small by lia.
  pose proof (count_less_spec l (65536 - off) (proj1 W)) as CL. pose proof (lb_bound l (65536 - off)).
  destruct (array_offset_spec l true true off W ltac:(lia)) as (Q & _). specialize (Q eq_refl). unfold array_container_offset in Q. cbn [fst andb] in Q.
  destruct (Z.eqb_spec (count_less l (65536 - off)) 0) as [E|E]; cbn [negb] in Q.
  - exfalso. destruct HX as (x & X1 & X2 & X3). specialize (Q (x + off) ltac:(lia)). cbn beta in Q. replace (x + off - off) with x in Q by lia. rewrite X3 in Q. destruct (Z.leb_spec off (x + off)); [discriminate Q|lia].
  - destruct (offset_loop_ok c l off H (Z.to_nat (count_less l (65536 - off))) 0 (ab_create (count_less l (65536 - off))) []) as (b & E1 & S1); try lia.
    { split; [constructor|constructor]. } { apply create_ok. lia. }
    rewrite E1. eexists. split; [reflexivity|]. destruct Q as (Q1 & _ & Q2). apply (keeps_by _ _ _ S1 Q1 Q2).
Qed.
Lemma offset_high_ok c l off : astores c l -> awf l -> 0 < off < 65536 -> (exists x, x < 65536 <= x + off /\ amem l x = true) ->
  exists b, ab_offset_high c off = Some (Some b) /\ keeps b (fun x => (x <? off) && amem l (x + 65536 - off)).
Proof.
  intros H W HO HX. unfold ab_offset_high. rewrite (count_less_ok c l) by (try apply astores_outs; auto; now apply astores_n). rewrite u16_small by lia.
  pose proof (count_less_spec l (65536 - off) (proj1 W)) as CL. pose proof (lb_bound l (65536 - off)). rewrite (astores_n _ _ H).
  destruct (array_offset_spec l true true off W ltac:(lia)) as (_ & Q). specialize (Q eq_refl). unfold array_container_offset in Q. cbn [snd andb] in Q. set (k := count_less l (65536 - off)) in *.
  destruct (Z.eqb_spec (zlen l - k) 0) as [E|E]; cbn [negb] in Q.
  - exfalso. destruct HX as (x & X1 & X3). specialize (Q (x + off - 65536) ltac:(lia)). cbn beta in Q. replace (x + off - 65536 + 65536 - off) with x in Q by lia. rewrite X3 in Q.
    destruct (Z.ltb_spec (x + off - 65536) off); [discriminate Q|lia].
  - destruct (offset_loop_ok c l off H (Z.to_nat (zlen l - k)) k (ab_create (zlen l - k)) []) as (b & E1 & S1); try lia.
    { split; [constructor|constructor]. } { apply create_ok. lia. }
    rewrite E1. eexists. split; [reflexivity|]. destruct Q as (Q1 & _ & Q2). rewrite firstn_all2 in S1. 2:{ pose proof (zskip_zlen k l). unfold zlen in *. lia. }
    apply (keeps_by _ _ _ S1 Q1 Q2).
Qed.

(** ** Programs *)
Definition held (m : bank) (S : sets) : Prop := forall i, keeps (m i) (S i).
Lemma held_set m S d b P : held m S -> keeps b P -> held (set_blk m d b) (set_reg S d P).
Proof. intros H K i. unfold set_blk, set_reg. destruct (Nat.eqb i d); auto. Qed.
Lemma held_as m S S' : held m S -> (forall i, S i = S' i) -> held m S'.
Proof. intros H E i. rewrite <- E. apply H. Qed.
Lemma spaced_rok r : forall k, spaced k r -> rok k r.
Proof. unfold top_value. induction r as [|[v n] r IH]; intros k H; [exact I|]. cbn [spaced rok] in *. intuition (try lia). Qed.
Lemma words_bws ws : other_ok (Words ws) -> bws ws.
Proof. intros (L & F). split; [exact F|]. unfold zlen. rewrite L. reflexivity. Qed.
Lemma held_wf (P : vset) : awf (vals P) /\ zlen (vals P) <= 65536.
Proof. split; [apply awf_vals|apply awf_zlen, awf_vals]. Qed.
Lemma members_In (P : vset) x : In x (vals P) -> value x /\ P x = true.
Proof. intros H. apply vals_In in H. exact H. Qed.

Lemma keeps_list b P : keeps b P -> exists l, astores b l /\ awf l /\ (forall x, 0 <= x < 65536 -> amem l x = P x) /\ zlen l = size P.
Proof. intros K. exists (vals P). split; [now apply keeps_vals|]. split; [apply awf_vals|]. split; [intros x; apply amem_vals|]. symmetry. apply size_vals. Qed.
Lemma add_keeps b (P : vset) v : keeps b P -> 0 <= v < 65536 -> exists b', ab_add b v = Some (b', negb (P v)) /\ keeps b' (fun x => P x || (x =? v)).
Proof.
  intros K V. destruct (keeps_list b P K) as (l & S0 & W & M & _). destruct (add_ok b l v W S0 (has_room l v W V) V) as (b' & E & S1).
  destruct (array_add_spec l v W V) as (W1 & M1 & A1 & _). exists b'. split; [now rewrite E, A1, M by exact V|].
  apply (keeps_by _ _ _ S1 W1). intros x X. now rewrite M1, M by exact X.
Qed.
Lemma try_add_keeps b (P : vset) v limit : keeps b P -> 0 <= v < 65536 ->
  exists b', ab_try_add b v limit = Some (b', add_code P v limit) /\ keeps b' (if add_code P v limit =? 1 then fun x => P x || (x =? v) else P).
Proof.
  intros K V. destruct (keeps_list b P K) as (l & S0 & W & M & Z). destruct (try_add_ok b l v limit W S0 (has_room l v W V) V) as (b' & E & S1).
  pose proof (try_add_spec l v limit W V) as T. cbn zeta in T. rewrite M in T by exact V. unfold add_code. rewrite <- Z. exists b'. destruct (P v).
  - rewrite T in *. cbn [fst snd] in *. split; [exact E|]. change (0 =? 1) with false. cbn iota. now apply (keeps_by _ _ _ S1 W).
  - destruct (zlen l <? limit).
    + destruct T as (T1 & T2 & _ & T3). rewrite T1 in E. split; [exact E|]. change (1 =? 1) with true. cbn iota. apply (keeps_by _ _ _ S1 T2). intros x X. now rewrite T3, M by exact X.
    + rewrite T in *. cbn [fst snd] in *. split; [exact E|]. change (-1 =? 1) with false. cbn iota. now apply (keeps_by _ _ _ S1 W).
Qed.
Lemma remove_keeps b (P : vset) v : keeps b P -> 0 <= v < 65536 -> exists b', ab_remove b v = Some (b', P v) /\ keeps b' (fun x => P x && negb (x =? v)).
Proof.
  intros K V. destruct (keeps_list b P K) as (l & S0 & W & M & _). destruct (remove_ok b l v W S0) as (b' & E & S1).
  destruct (array_remove_spec l v W V) as (W1 & M1 & A1 & _). exists b'. split; [now rewrite E, A1, M by exact V|].
  apply (keeps_by _ _ _ S1 W1). intros x X. now rewrite M1, M by exact X.
Qed.
Lemma runs_minus_keeps r b (P : vset) : rwf r -> keeps b P -> exists b', ab_runs_minus r b (ab_values b) = Some b' /\ keeps b' (fun x => within (Runs r) x && negb (P x)).
Proof.
  intros R K. destruct (keeps_list b P K) as (l & S0 & W & M & _). rewrite (values_ok b l S0). destruct (runs_minus_ok r b l R W) as (b' & E & S1). exists b'. split; [exact E|].
  apply (keeps_by _ _ _ S1); [apply awf_filter, awf_vals|]. intros x X. rewrite amem_filter, amem_vals by exact X. pose proof (M x X) as Q. unfold amem in Q. now rewrite Q.
Qed.

Theorem step_ok c m S : held m S -> aok c S -> exists m', ab_step c m = Some (m', snd (astep c S)) /\ held m' (fst (astep c S)).
Proof.
  intros H OK. assert (K : forall i, astores (m i) (vals (S i))) by (intros i; apply keeps_vals, H).
  assert (W : forall i, awf (vals (S i))) by (intros i; apply awf_vals). assert (L : forall i, zlen (vals (S i)) <= 65536) by (intros i; apply awf_zlen, W).
  destruct c as [d n|d lo hi|d s|d s|d vs|d|d v|d v|d v limit|d v|s v|d min max step|d lo hi|d lo hi|d s o|d s o|d o|d r s|d s k|d s k]; cbn [astep aok fst snd] in *; unfold value, top_value in *; change (2 ^ 16) with 65536 in *; cbn [ab_step].
  - (* create *) eexists. split; [reflexivity|]. apply held_set; [exact H|]. apply (keeps_by _ []); [now apply create_ok|split; constructor|]. intros x _. reflexivity.
  - (* range *) destruct (create_range_ok lo hi) as (b & E & S1); try lia. rewrite E. eexists. split; [reflexivity|]. apply held_set; [exact H|].
    rewrite array_create_range_spec in S1 by lia. eapply keeps_by; [exact S1| |].
    + apply awf_zr; lia.
    + intros x X. apply zmem_bool. rewrite zr_In. lia.
  - (* clone *) destruct (clone_ok (m s) _ (K s)) as (b & E & S1 & _). rewrite E. eexists. split; [reflexivity|]. apply held_set; [exact H|]. unfold keeps. now rewrite members_vals.
  - (* copy *) destruct (overwrite_ok (acells (m s)) (vals (S s)) (m d)) as (b & E & S1); [|apply L|].
    { destruct (K s) as (j & ->). exists j. reflexivity. }
    rewrite (astores_n _ _ (K s)), E. eexists. split; [reflexivity|]. apply held_set; [exact H|]. unfold keeps. now rewrite members_vals.
  - (* read *) destruct OK as (P & ->). rewrite members_vals. destruct (overwrite_ok (map Some (vals P)) (vals P) (m d)) as (b & E & S1); [|apply held_wf|].
    { exists []. now rewrite app_nil_r. }
    rewrite E. eexists. split; [reflexivity|]. apply held_set; [exact H|]. apply (keeps_by _ _ _ S1); [apply awf_vals|]. intros x X. unfold amem, zmem. reflexivity.
  - (* shrink *) eexists. split; [reflexivity|]. destruct (shrink_ok (m d) _ (K d)) as (S1 & _). intros i. unfold set_blk. destruct (Nat.eqb_spec i d) as [->|]; [|apply H]. unfold keeps. now rewrite members_vals.
  - (* append *) destruct OK as (V & A). assert (A' : forall x, In x (vals (S d)) -> x < v) by (intros x X; apply members_In in X; apply A; apply X).
    assert (NV : amem (vals (S d)) v = false). { apply zmem_bool. split; [|discriminate]. intros I. apply A' in I. lia. }
    destruct (has_room _ v (W d) V) as [R|R]; [|congruence].
    destruct (append_ok (m d) _ v (K d) R) as (b & E & S1). rewrite E. eexists. split; [reflexivity|]. apply held_set; [exact H|].
    destruct (append_spec _ v (W d) V A') as (W1 & M1). apply (keeps_by _ _ _ S1 W1). intros x X. rewrite M1, amem_vals by exact X. reflexivity.
  - (* add *) destruct (add_keeps (m d) (S d) v (H d) OK) as (b & E & S1). rewrite E. cbn [fst snd]. eexists. split; [reflexivity|]. now apply held_set.
  - (* try_add *) destruct (try_add_keeps (m d) (S d) v limit (H d) OK) as (b & E & S1). rewrite E. cbn [fst snd]. eexists. split; [reflexivity|]. destruct (add_code (S d) v limit =? 1); [now apply held_set|].
    intros i. unfold set_blk. destruct (Nat.eqb_spec i d) as [->|]; [exact S1|apply H].
  - (* remove *) destruct (remove_keeps (m d) (S d) v (H d) OK) as (b & E & S1). rewrite E. cbn [fst snd]. eexists. split; [reflexivity|]. now apply held_set.
  - (* contains *) rewrite (contains_ok (m s) _ v (K s)), array_contains_spec, amem_vals by (try exact OK; apply W). eexists. split; [reflexivity|exact H].
  - (* fill *) destruct OK as (O1 & O2 & O3 & A). assert (A' : forall x, In x (vals (S d)) -> x < min) by (intros x X; apply members_In in X; apply A; apply X).
    destruct (fill_ok max step O2 ltac:(lia) (Z.to_nat (max - min)) (m d) _ min (W d) (K d) ltac:(lia) A') as (b & E & S1). unfold ab_add_from_range. rewrite E. eexists. split; [reflexivity|]. apply held_set; [exact H|].
    destruct (array_add_from_range_loop_spec (Z.to_nat (max - min)) _ min max step (W d) ltac:(lia) O2 ltac:(lia) ltac:(lia) A') as (W1 & M1).
    apply (keeps_by _ _ _ S1 W1). intros x X. rewrite M1, amem_vals by exact X. reflexivity.
  - (* add range *) destruct OK as (O1 & O2). destruct (add_range_ok (m d) _ lo hi (W d) (K d) O1 O2) as (b & E & S1). rewrite E. eexists. split; [reflexivity|]. apply held_set; [exact H|].
    destruct (array_add_range_nvals_spec _ lo hi (W d) O1 O2) as (W1 & M1 & _). apply (keeps_by _ _ _ S1 W1). intros x X. rewrite M1, amem_vals by exact X. reflexivity.
  - (* remove range *) destruct OK as (O1 & O2). destruct (drop_range_ok (m d) _ lo hi (W d) (K d) O1 O2) as (b & E & S1). rewrite E. eexists. split; [reflexivity|]. apply held_set; [exact H|].
    destruct (array_remove_range_spec _ lo (hi + 1) (W d) ltac:(lia)) as (W1 & M1 & _). apply (keeps_by _ _ _ S1 W1). intros x X. rewrite M1, amem_vals by exact X.
    replace (x <? hi + 1) with (x <=? hi) by lia. reflexivity.
  - (* and *) destruct o as [ws|r].
    + pose proof (words_bws ws OK) as B. destruct (select_words_ok m d s _ (bitset_container_get (bcard ws, ws)) (K s) (L s)) as (b & E & S1). unfold ab_and_words. rewrite E. eexists. split; [reflexivity|]. apply held_set; [exact H|].
      apply (keeps_by _ _ _ S1); [now apply awf_filter|]. intros x X. rewrite amem_filter, amem_vals, bitset_get_spec by lia. reflexivity.
    + destruct OK as (RN & SP). apply spaced_rok in SP. destruct (and_runs_ok m d s _ r (K s) (W s) SP RN) as (b & E & S1). rewrite E. eexists. split; [reflexivity|]. apply held_set; [exact H|].
      apply (keeps_by _ _ _ S1); [now apply awf_filter|]. intros x X. rewrite amem_filter, amem_vals by lia. reflexivity.
  - (* and not *) destruct o as [ws|r].
    + pose proof (words_bws ws OK) as B. destruct (select_words_ok m d s _ (fun key => negb (bitset_container_get (bcard ws, ws) key)) (K s) (L s)) as (b & E & S1). unfold ab_andnot_words. rewrite E. eexists. split; [reflexivity|]. apply held_set; [exact H|].
      apply (keeps_by _ _ _ S1); [now apply awf_filter|]. intros x X. rewrite amem_filter, amem_vals, bitset_get_spec by lia. reflexivity.
    + destruct OK as (RN & SP). apply spaced_rok in SP. destruct (andnot_runs_ok m d s _ r (K s) (W s) SP RN) as (b & E & S1). rewrite E. eexists. split; [reflexivity|]. apply held_set; [exact H|].
      apply (keeps_by _ _ _ S1); [now apply awf_filter|]. intros x X. rewrite amem_filter, amem_vals by lia. reflexivity.
  - (* from *) destruct o as [ws|r].
    + destruct (from_words_ok ws _ (words_bws ws OK) eq_refl) as (b & E & S1). rewrite E. eexists. split; [reflexivity|]. apply held_set; [exact H|].
      apply (keeps_by _ _ _ S1); [apply awf_vals|]. intros x X. rewrite amem_vals by exact X. reflexivity.
    + destruct OK as (RN & SP). apply spaced_rok in SP. destruct (from_runs_ok r SP) as (b & E & S1). rewrite E. eexists. split; [reflexivity|]. apply held_set; [exact H|].
      apply (keeps_by _ _ _ S1); [apply awf_vals|]. intros x X. rewrite amem_vals by exact X. reflexivity.
  - (* runs minus *) destruct OK as (RN & SP). apply spaced_rok in SP. destruct (runs_minus_keeps r (m s) (S s) SP (H s)) as (b & E & S1). rewrite E. eexists. split; [reflexivity|]. now apply held_set.
  - (* offset low *) destruct OK as (O1 & x & X1 & X2 & X3). destruct (offset_low_ok (m s) _ k (K s) (W s) O1) as (b & E & S1).
    { exists x. rewrite amem_vals by lia. repeat split; auto; lia. }
    rewrite E. eexists. split; [reflexivity|]. apply held_set; [exact H|]. apply keeps_vals in S1. apply (keeps_by _ _ _ S1); [apply awf_vals|]. intros y Y. rewrite amem_vals by exact Y.
    destruct (Z.leb_spec k y); [|reflexivity]. cbn [andb]. apply amem_vals. lia.
  - (* offset high *) destruct OK as (O1 & x & X1 & X2 & X3). destruct (offset_high_ok (m s) _ k (K s) (W s) O1) as (b & E & S1).
    { exists x. rewrite amem_vals by lia. repeat split; auto; lia. }
    rewrite E. eexists. split; [reflexivity|]. apply held_set; [exact H|]. apply keeps_vals in S1. apply (keeps_by _ _ _ S1); [apply awf_vals|]. intros y Y. rewrite amem_vals by exact Y.
    destruct (Z.ltb_spec y k); [|reflexivity]. cbn [andb]. rewrite amem_vals by lia. f_equal. lia.
Qed.
Definition empty_bank : bank := fun _ => ab_create 0.
Definition no_values : sets := fun _ _ => false.
Lemma empty_held : held empty_bank no_values.
Proof. intros i. apply (keeps_by _ []); [now apply create_ok|split; constructor|]. intros x _. reflexivity. Qed.
Lemma run_ok p : forall m S, held m S -> alegal p S -> exists m', ab_run p m = Some (m', snd (arun p S)) /\ held m' (fst (arun p S)).
Proof.
  induction p as [|c p IH]; intros m S H OK; cbn [ab_run arun]; [exists m; auto|]. destruct OK as (O1 & O2).
  destruct (step_ok c m S H O1) as (m1 & E1 & H1). rewrite E1. cbn [fst snd]. destruct (astep c S) as [S1 a]. cbn [fst snd] in *.
  destruct (IH m1 S1 H1 O2) as (m2 & E2 & H2). rewrite E2. destruct (arun p S1) as [S2 l]. cbn [fst snd] in *. exists m2. auto.
Qed.
(** what an outside reader of the memory sees: the first [an] cells, in order, and a block at least as long *)
Definition shows (b : ablk) (P : vset) : Prop := ab_values b = members P /\ an b = size P /\ an b <= acap b.
Lemma keeps_shows b P : keeps b P -> shows b P.
Proof.
  intros K. destruct (keeps_list b P K) as (l & S0 & _ & _ & Z). split; [now apply values_ok|]. rewrite (astores_n b l S0). split; [exact Z|]. now apply astores_cap.
Qed.
Theorem programs_ok p : alegal p no_values ->
  exists m, ab_run p empty_bank = Some (m, snd (arun p no_values)) /\ forall i, shows (m i) (fst (arun p no_values) i).
Proof. intros H. destruct (run_ok p empty_bank no_values empty_held H) as (m & E & K). exists m. split; [exact E|]. intros i. apply keeps_shows, K. Qed.
Theorem shrink_exact p d m a : alegal p no_values -> ab_run p empty_bank = Some (m, a) ->
  exists b saved, ab_shrink_to_fit (m d) = (b, saved) /\ shows b (fst (arun p no_values) d) /\ acap b = size (fst (arun p no_values) d) /\ saved = acap (m d) - acap b.
Proof.
  intros H E. destruct (run_ok p empty_bank no_values empty_held H) as (m' & E' & K). rewrite E in E'. injection E' as <- _. specialize (K d).
  unfold keeps in K. destruct (shrink_ok (m d) _ K) as (S1 & C1 & V1). destruct (ab_shrink_to_fit (m d)) as [b saved] eqn:Q. cbn [fst snd] in *.
  exists b, saved. split; [reflexivity|]. split; [now apply keeps_shows|]. pose proof (size_vals (fst (arun p no_values) d)) as Z. rewrite <- members_vals in Z. rewrite Z, V1. split; [exact C1|]. now rewrite C1.
Qed.
