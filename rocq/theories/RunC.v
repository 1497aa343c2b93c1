(** RunC: run containers (include/roaring/containers/run.h, src/containers/run.c).
    A run container is the list of its first [n_runs] pairs (value, length); the pair
    stands for the integers value .. value+length.  Capacity and (re)allocation are not
    modelled (no branch on the capacity changes the stored runs).  Only scalar paths. *)
From Coq Require Import Sorted Btauto.
From Verif Require Import Base ArrayUtil BitsetC ArrayC.

(** conversion to uint16_t / uint32_t *)
Definition u16 (x : Z) : Z := x mod 65536.
Definition u32 (x : Z) : Z := x mod 2^32.

Notation run := (Z * Z)%type.
(** runs[i] *)
Definition rnth (r : list run) (i : Z) : run := nth (Z.to_nat i) r (0, 0).
Definition rset (i : Z) (x : run) (r : list run) : list run := upd (Z.to_nat i) x r.
Definition rtake (n : Z) (r : list run) : list run := firstn (Z.to_nat n) r.
Definition rskip (n : Z) (r : list run) : list run := skipn (Z.to_nat n) r.

(** The binary searches of run.h (103-180) have one shape: look at the run at the middle,
    go right ([Lt]), go left ([Gt]) or stop ([Eq]).  Result: found?, index (the found
    index or the final [low]).  [fuel] = n_runs + 1 is proved sufficient. *)
Fixpoint rle_search_loop (fuel : nat) (cmp : run -> comparison) (r : list run) (low high : Z) : bool * Z :=
  match fuel with
  | O => (false, low)
  | S f =>
    if low <=? high then
      let middleIndex := Z.shiftr (low + high) 1 in
      match cmp (rnth r middleIndex) with
      | Lt => rle_search_loop f cmp r (middleIndex + 1) high
      | Gt => rle_search_loop f cmp r low (middleIndex - 1)
      | Eq => (true, middleIndex)
      end
    else (false, low)
  end.
Definition rle_search (cmp : run -> comparison) (r : list run) : bool * Z :=
  rle_search_loop (S (length r)) cmp r 0 (zlen r - 1).
(** run.h:103-119 *)
Definition interleavedBinarySearch (r : list run) (ikey : Z) : Z :=
  let '(found, i) := rle_search (fun x => if fst x <? ikey then Lt else if ikey <? fst x then Gt else Eq) r in
  if found then i else - (i + 1).
(** run.h:124-142; max is a uint16_t *)
Definition rle16_find_run (r : list run) (ikey : Z) : Z :=
  let '(found, i) := rle_search (fun x =>
     let min := fst x in let max := u16 (fst x + snd x) in
     if max <? ikey then Lt else if ikey <? min then Gt else Eq) r in
  if found then i else - (i + 1).
(** run.h:148-167 *)
Definition rle16_count_less (r : list run) (key : Z) : Z :=
  if zlen r =? 0 then 0 else
  let '(found, i) := rle_search (fun x =>
     let min_value := fst x in let max_value := u16 (fst x + snd x) in
     if max_value + 1 <? key then Lt else if key <? min_value then Gt else Eq) r in
  i.
(** run.h:169-188 *)
Definition rle16_count_greater (r : list run) (key : Z) : Z :=
  if zlen r =? 0 then 0 else
  let '(found, i) := rle_search (fun x =>
     let min_value := fst x in let max_value := u16 (fst x + snd x) in
     if max_value <? key then Lt else if key + 1 <? min_value then Gt else Eq) r in
  if found then zlen r - (i + 1) else zlen r - i.

(** run.h:94-98 recoverRoomAtIndex: delete runs[index] *)
Definition recoverRoomAtIndex (r : list run) (index : Z) : list run := rtake index r ++ rskip (index + 1) r.
(** run.h:200-209 makeRoomAtIndex, followed by the assignment of the fresh slot *)
Definition makeRoomAtIndex (r : list run) (index : Z) (x : run) : list run := rtake index r ++ x :: rskip index r.

(** run.c:39-84 add: (new container, was absent) *)
Definition run_container_add (r : list run) (pos : Z) : list run * bool :=
  let index0 := interleavedBinarySearch r pos in
  if 0 <=? index0 then (r, false)
  else
    let index := - index0 - 2 in
    let insert := (makeRoomAtIndex r (index + 1) (pos, 0), true) in
    if 0 <=? index then
      let '(value, le) := rnth r index in
      let '(nvalue, nlength) := rnth r (index + 1) in
      let offset := pos - value in
      if offset <=? le then (r, false)
      else if offset =? le + 1 then
        if (index + 1 <? zlen r) && (nvalue =? pos + 1) then
          (recoverRoomAtIndex (rset index (value, u16 (nvalue + nlength - value)) r) (index + 1), true)
        else (rset index (value, u16 (le + 1)) r, true)
      else if (index + 1 <? zlen r) && (nvalue =? pos + 1) then
        (rset (index + 1) (pos, u16 (nlength + 1)) r, true)
      else insert
    else
      let '(value0, length0) := rnth r 0 in
      if (0 <? zlen r) && (value0 =? pos + 1) then (rset 0 (u16 (value0 - 1), u16 (length0 + 1)) r, true)
      else insert.
(** run.h:215-249 remove: (new container, was present) *)
Definition run_container_remove (r : list run) (pos : Z) : list run * bool :=
  let index0 := interleavedBinarySearch r pos in
  if 0 <=? index0 then
    let '(value, le) := rnth r index0 in
    if le =? 0 then (recoverRoomAtIndex r index0, true)
    else (rset index0 (u16 (value + 1), u16 (le - 1)) r, true)
  else
    let index := - index0 - 2 in
    if 0 <=? index then
      let '(value, le) := rnth r index in
      let offset := pos - value in
      if offset <? le then
        (makeRoomAtIndex (rset index (value, u16 (offset - 1)) r) (index + 1) (u16 (pos + 1), u16 (le - offset - 1)), true)
      else if offset =? le then (rset index (value, u16 (le - 1)) r, true)
      else (r, false)
    else (r, false).
(** run.h:252-262 contains *)
Definition run_container_contains (r : list run) (pos : Z) : bool :=
  let index0 := interleavedBinarySearch r pos in
  if 0 <=? index0 then true
  else
    let index := - index0 - 2 in
    if negb (index =? -1) then
      let '(value, le) := rnth r index in pos - value <=? le
    else false.
(** run.h:268-294 contains_range; count, stop and the differences are uint32_t *)
Fixpoint run_contains_range_loop (r : list run) (pos_start pos_end count : Z) : Z :=
  match r with
  | [] => count
  | (value, length_) :: r' =>
    let stop := value + length_ in
    if pos_end <=? value then count
    else if pos_end <=? stop then
      u32 (count + (if 0 <? u32 (pos_end - value) then u32 (pos_end - value) else 0))
    else
      let min := if 0 <? u32 (stop - pos_start) then u32 (stop - pos_start) else 0 in
      run_contains_range_loop r' pos_start pos_end (u32 (count + (if min <? length_ then min else length_)))
  end.
Definition run_container_contains_range (r : list run) (pos_start pos_end : Z) : bool :=
  let index0 := interleavedBinarySearch r (u16 pos_start) in
  let index := if index0 <? 0 then - index0 - 2 else index0 in
  if (index0 <? 0) && ((index =? -1) || (snd (rnth r index) <? u32 (pos_start - fst (rnth r index)))) then false
  else u32 (pos_end - pos_start - 1) <=? run_contains_range_loop (rskip index r) pos_start pos_end 0.
(** run.c:1046-1061 cardinality (scalar): n_runs + sum of lengths *)
Definition run_container_cardinality (r : list run) : Z := fold_left (fun s x => s + snd x) r (zlen r).
(** run.h:300-309 *)
Definition run_container_nonzero_cardinality (r : list run) : bool := 0 <? zlen r.
Definition run_container_empty (r : list run) : bool := zlen r =? 0.
(** run.h:386-389 is_full (runs[0] is read even if there is no run; the result does not
    depend on it in that case) *)
Definition run_container_is_full (r : list run) : bool :=
  (zlen r =? 1) && (fst (rnth r 0) =? 0) && (snd (rnth r 0) =? 65535).
(** run.h:323-337 append: dst container and previousrl -> new ones.  runs[n_runs-1] is
    the last element of dst. *)
Definition set_last (dst : list run) (x : run) : list run := removelast dst ++ [x].
Definition run_container_append (dst : list run) (vl prev : run) : list run * run :=
  let previousend := fst prev + snd prev in
  if previousend + 1 <? fst vl then (dst ++ [vl], vl)
  else
    let newend := fst vl + snd vl + 1 in
    if previousend <? newend then
      let prev' := (fst prev, u16 (newend - 1 - fst prev)) in (set_last dst prev', prev')
    else (dst, prev).
(** run.h:342-347 append_first; 358-370 append_value; 376-382 append_value_first *)
Definition run_container_append_first (dst : list run) (vl : run) : list run * run := (dst ++ [vl], vl).
Definition run_container_append_value (dst : list run) (val : Z) (prev : run) : list run * run :=
  let previousend := fst prev + snd prev in
  if previousend + 1 <? val then (dst ++ [(val, 0)], (val, 0))
  else if val =? previousend + 1 then
    let prev' := (fst prev, u16 (snd prev + 1)) in (set_last dst prev', prev')
  else (dst, prev).
Definition run_container_append_value_first (dst : list run) (val : Z) : list run * run := (dst ++ [(val, 0)], (val, 0)).
(** run.c:229-280 union; run.c:285-341 union_inplace runs the same loop on a copy of src_1
    moved to the end of the buffer.  The two unread suffixes stand for rlepos/xrlepos.
    Precondition of the C code: both sources nonempty (runs[0] is read unguarded); on an
    empty source the model reads (0,0). *)
Fixpoint run_union_loop (fuel : nat) (dst : list run) (prev : run) (r1 r2 : list run) : list run :=
  match fuel with
  | O => dst
  | S f =>
    match r1, r2 with
    | x :: r1', y :: r2' =>
      if fst x <=? fst y then let '(dst', prev') := run_container_append dst x prev in run_union_loop f dst' prev' r1' r2
      else let '(dst', prev') := run_container_append dst y prev in run_union_loop f dst' prev' r1 r2'
    | [], y :: r2' => let '(dst', prev') := run_container_append dst y prev in run_union_loop f dst' prev' [] r2'
    | x :: r1', [] => let '(dst', prev') := run_container_append dst x prev in run_union_loop f dst' prev' r1' []
    | [], [] => dst
    end
  end.
Definition run_container_union (r1 r2 : list run) : list run :=
  if run_container_is_full r1 then r1
  else if run_container_is_full r2 then r2
  else
    let fuel := S (length r1 + length r2) in
    if fst (rnth r1 0) <=? fst (rnth r2 0) then
      let '(dst, prev) := run_container_append_first [] (rnth r1 0) in run_union_loop fuel dst prev (rskip 1 r1) r2
    else
      let '(dst, prev) := run_container_append_first [] (rnth r2 0) in run_union_loop fuel dst prev r1 (rskip 1 r2).
(** run.c:798-841 smart_append_exclusive *)
Definition run_container_smart_append_exclusive (src : list run) (start length_ : Z) : list run :=
  let last_run := rnth src (zlen src - 1) in
  let old_end := fst last_run + snd last_run + 1 in
  if (zlen src =? 0) || (old_end <? start) then src ++ [(start, length_)]
  else if old_end =? start then set_last src (fst last_run, u16 (snd last_run + (length_ + 1)))
  else
    let new_end := start + length_ + 1 in
    if start =? fst last_run then
      if new_end <? old_end then set_last src (u16 new_end, u16 (old_end - new_end - 1))
      else if old_end <? new_end then set_last src (u16 old_end, u16 (new_end - old_end - 1))
      else removelast src
    else
      let src' := set_last src (fst last_run, u16 (start - fst last_run - 1)) in
      if new_end <? old_end then src' ++ [(u16 new_end, u16 (old_end - new_end - 1))]
      else if old_end <? new_end then src' ++ [(u16 old_end, u16 (new_end - old_end - 1))]
      else src'.
(** run.c:346-380 xor *)
Fixpoint run_xor_loop (fuel : nat) (dst r1 r2 : list run) : list run :=
  match fuel with
  | O => dst
  | S f =>
    match r1, r2 with
    | x :: r1', y :: r2' =>
      if fst x <=? fst y then run_xor_loop f (run_container_smart_append_exclusive dst (fst x) (snd x)) r1' r2
      else run_xor_loop f (run_container_smart_append_exclusive dst (fst y) (snd y)) r1 r2'
    | x :: r1', [] => run_xor_loop f (run_container_smart_append_exclusive dst (fst x) (snd x)) r1' []
    | [], y :: r2' => run_xor_loop f (run_container_smart_append_exclusive dst (fst y) (snd y)) [] r2'
    | [], [] => dst
    end
  end.
Definition run_container_xor (r1 r2 : list run) : list run := run_xor_loop (S (length r1 + length r2)) [] r1 r2.
(** run.c:385-461 intersection.  (start,end) is always the run at rlepos, (xstart,xend)
    the run at xrlepos. *)
Fixpoint run_intersection_loop (fuel : nat) (dst r1 r2 : list run) : list run :=
  match fuel with
  | O => dst
  | S f =>
    match r1, r2 with
    | x :: r1', y :: r2' =>
      let start := fst x in let end_ := start + snd x + 1 in
      let xstart := fst y in let xend := xstart + snd y + 1 in
      if end_ <=? xstart then run_intersection_loop f dst r1' r2
      else if xend <=? start then run_intersection_loop f dst r1 r2'
      else
        let lateststart := if xstart <? start then start else xstart in
        let emit e := dst ++ [(u16 lateststart, u16 (e - lateststart - 1))] in
        if end_ =? xend then run_intersection_loop f (emit end_) r1' r2'
        else if end_ <? xend then run_intersection_loop f (emit end_) r1' r2
        else run_intersection_loop f (emit xend) r1 r2'
    | _, _ => dst
    end
  end.
Definition run_container_intersection (r1 r2 : list run) : list run :=
  if run_container_is_full r1 then r2
  else if run_container_is_full r2 then r1
  else run_intersection_loop (S (length r1 + length r2)) [] r1 r2.
(** run.c:464-531 intersection_cardinality *)
Fixpoint run_intersection_card_loop (fuel : nat) (answer : Z) (r1 r2 : list run) : Z :=
  match fuel with
  | O => answer
  | S f =>
    match r1, r2 with
    | x :: r1', y :: r2' =>
      let start := fst x in let end_ := start + snd x + 1 in
      let xstart := fst y in let xend := xstart + snd y + 1 in
      if end_ <=? xstart then run_intersection_card_loop f answer r1' r2
      else if xend <=? start then run_intersection_card_loop f answer r1 r2'
      else
        let lateststart := if xstart <? start then start else xstart in
        if end_ =? xend then run_intersection_card_loop f (answer + (end_ - lateststart)) r1' r2'
        else if end_ <? xend then run_intersection_card_loop f (answer + (end_ - lateststart)) r1' r2
        else run_intersection_card_loop f (answer + (xend - lateststart)) r1 r2'
    | _, _ => answer
    end
  end.
Definition run_container_intersection_cardinality (r1 r2 : list run) : Z :=
  if run_container_is_full r1 then run_container_cardinality r2
  else if run_container_is_full r2 then run_container_cardinality r1
  else run_intersection_card_loop (S (length r1 + length r2)) 0 r1 r2.
(** run.c:533-569 intersect *)
Fixpoint run_intersect_loop (fuel : nat) (r1 r2 : list run) : bool :=
  match fuel with
  | O => false
  | S f =>
    match r1, r2 with
    | x :: r1', y :: r2' =>
      let start := fst x in let end_ := start + snd x + 1 in
      let xstart := fst y in let xend := xstart + snd y + 1 in
      if end_ <=? xstart then run_intersect_loop f r1' r2
      else if xend <=? start then run_intersect_loop f r1 r2'
      else true
    | _, _ => false
    end
  end.
Definition run_container_intersect (r1 r2 : list run) : bool :=
  if run_container_is_full r1 then negb (run_container_empty r2)
  else if run_container_is_full r2 then negb (run_container_empty r1)
  else run_intersect_loop (S (length r1 + length r2)) r1 r2.
(** run.c:573-631 andnot: start/end of the current run of src_1 (possibly shortened from
    the left), r1 = the runs after it *)
Fixpoint run_andnot_loop (fuel : nat) (dst : list run) (start end_ : Z) (r1 r2 : list run) : list run :=
  match fuel with
  | O => dst
  | S f =>
    match r2 with
    | [] => dst ++ [(u16 start, u16 (end_ - start - 1))] ++ r1
    | y :: r2' =>
      let start2 := fst y in let end2 := start2 + snd y + 1 in
      if end_ <=? start2 then
        let dst' := dst ++ [(u16 start, u16 (end_ - start - 1))] in
        match r1 with
        | [] => dst'
        | x :: r1' => run_andnot_loop f dst' (fst x) (fst x + snd x + 1) r1' r2
        end
      else if end2 <=? start then run_andnot_loop f dst start end_ r1 r2'
      else
        let dst' := if start <? start2 then dst ++ [(u16 start, u16 (start2 - start - 1))] else dst in
        if end2 <? end_ then run_andnot_loop f dst' end2 end_ r1 r2
        else
          match r1 with
          | [] => dst'
          | x :: r1' => run_andnot_loop f dst' (fst x) (fst x + snd x + 1) r1' r2
          end
    end
  end.
Definition run_container_andnot (r1 r2 : list run) : list run :=
  match r1 with
  | [] => []
  | x :: r1' => run_andnot_loop (S (length r1 + (length r2 + length r2))) [] (fst x) (fst x + snd x + 1) r1' r2
  end.
(** run.c:667-713 validate (capacity / NULL checks omitted: not modelled) *)
Fixpoint run_validate_loop (r : list run) (last_end : Z) : bool :=
  match r with
  | [] => true
  | (start, length_) :: r' =>
    let end_ := start + length_ + 1 in
    if end_ <=? start then false
    else if 65536 <? end_ then false
    else if start <? last_end then false
    else if (start =? last_end) && negb (last_end =? 0) then false
    else run_validate_loop r' end_
  end.
Definition run_container_validate (r : list run) : bool :=
  if zlen r =? 0 then false else run_validate_loop r 0.
(** run.c:739-763 iterate, 1076-1092 to_uint32_array: the values in order *)
Definition run_container_to_uint32_array (r : list run) (base : Z) : list Z :=
  flat_map (fun x => map (fun j => base + fst x + j) (zr 0 (snd x + 1))) r.
(** run.c:765-790 is_subset *)
Fixpoint run_is_subset_loop (fuel : nat) (r1 r2 : list run) : bool :=
  match fuel with
  | O => false
  | S f =>
    match r1, r2 with
    | [], _ => true
    | _ :: _, [] => false
    | (start1, l1) :: r1', (start2, l2) :: r2' =>
      let stop1 := start1 + l1 in let stop2 := start2 + l2 in
      if start1 <? start2 then false
      else if stop1 <? stop2 then run_is_subset_loop f r1' r2
      else if stop1 =? stop2 then run_is_subset_loop f r1' r2'
      else run_is_subset_loop f r1 r2'
    end
  end.
Definition run_container_is_subset (r1 r2 : list run) : bool := run_is_subset_loop (S (length r1 + length r2)) r1 r2.
(** run.h:493-500 equals *)
Definition run_eq_dec (x y : run) : {x = y} + {x <> y}.
Proof. decide equality; apply Z.eq_dec. Defined.
Definition run_container_equals (r1 r2 : list run) : bool :=
  if negb (zlen r1 =? zlen r2) then false else if list_eq_dec run_eq_dec r1 r2 then true else false.
(** run.h:523-533 create_range *)
Definition run_container_create_range (start stop : Z) : list run := [(u16 start, u16 (stop - start - 1))].
(** run.c:843-856 select (uint32 arithmetic): (element, new start_rank) *)
Fixpoint run_container_select (r : list run) (start_rank rank : Z) : option Z * Z :=
  match r with
  | [] => (None, start_rank)
  | (value, length_) :: r' =>
    if rank <=? u32 (start_rank + length_) then (Some (u32 (value + rank - start_rank)), start_rank)
    else run_container_select r' (u32 (start_rank + length_ + 1)) rank
  end.
(** run.c:858-873 rank *)
Fixpoint run_rank_loop (r : list run) (x sum : Z) : Z :=
  match r with
  | [] => sum
  | (startpoint, length_) :: r' =>
    if x <=? startpoint + length_ then
      if x <? startpoint then sum else sum + (x - startpoint) + 1
    else run_rank_loop r' x (sum + length_ + 1)
  end.
Definition run_container_rank (r : list run) (x : Z) : Z := run_rank_loop r x 0.
(** run.c:874-907 rank_many: r is the suffix at i *)
Fixpoint run_rank_many_step (r : list run) (sum x32 start_rank : Z) : list run * Z * Z :=
  match r with
  | [] => ([], sum, start_rank + sum)
  | (startpoint, length_) :: r' =>
    if x32 <=? startpoint + length_ then
      if x32 <? startpoint then (r, sum, start_rank + sum)
      else (r, sum, start_rank + sum + (x32 - startpoint) + 1)
    else run_rank_many_step r' (sum + length_ + 1) x32 start_rank
  end.
Fixpoint run_rank_many_loop (r : list run) (high start_rank sum : Z) (qs : list Z) : list Z :=
  match qs with
  | [] => []
  | x :: qs' =>
    if negb (Z.shiftr x 16 =? high) then []
    else let '(r', sum', ans) := run_rank_many_step r sum (x mod 65536) start_rank in
         ans :: run_rank_many_loop r' high start_rank sum' qs'
  end.
Definition run_container_rank_many (r : list run) (start_rank : Z) (qs : list Z) : list Z :=
  match qs with [] => [] | q :: _ => run_rank_many_loop r (Z.shiftr q 16) start_rank 0 qs end.
(** run.c:909-928 get_index *)
Fixpoint run_get_index_loop (r : list run) (x sum : Z) : Z :=
  match r with
  | [] => sum - 1
  | (startpoint, length_) :: r' =>
    if x <=? startpoint + length_ then
      if x <? startpoint then sum - 1 else sum + (x - startpoint)
    else run_get_index_loop r' x (sum + length_ + 1)
  end.
Definition run_container_get_index (r : list run) (x : Z) : Z :=
  if run_container_contains r x then run_get_index_loop r x 0 else -1.
(** run.h:555-564 minimum, maximum (uint16_t) *)
Definition run_container_minimum (r : list run) : Z := if zlen r =? 0 then 0 else fst (rnth r 0).
Definition run_container_maximum (r : list run) : Z :=
  if zlen r =? 0 then 0 else u16 (fst (rnth r (zlen r - 1)) + snd (rnth r (zlen r - 1))).
(** run.h:579-594 index_equalorlarger *)
Definition run_container_index_equalorlarger (r : list run) (x : Z) : Z :=
  let index0 := interleavedBinarySearch r x in
  if 0 <=? index0 then index0
  else
    let index := - index0 - 2 in
    if negb (index =? -1) && (x - fst (rnth r index) <=? snd (rnth r index)) then index
    else if index + 1 <? zlen r then index + 1 else -1.
(** run.h:599-623 add_range_nruns *)
Definition run_container_add_range_nruns (r : list run) (min max nruns_less nruns_greater : Z) : list run :=
  let nruns_common := zlen r - nruns_less - nruns_greater in
  if nruns_common =? 0 then makeRoomAtIndex r nruns_less (u16 min, u16 (max - min))
  else
    let common_min := fst (rnth r nruns_less) in
    let l := rnth r (nruns_less + nruns_common - 1) in
    let common_max := fst l + snd l in
    let result_min := if common_min <? min then common_min else min in
    let result_max := if max <? common_max then common_max else max in
    rtake nruns_less r ++ (u16 result_min, u16 (result_max - result_min)) :: rskip (zlen r - nruns_greater) r.
(** run.h:641-653 shift_tail *)
Definition run_container_shift_tail (r : list run) (count distance : Z) : list run :=
  let srcpos := zlen r - count in rtake (srcpos + distance) r ++ rskip srcpos r.
(** run.h:658-710 remove_range *)
Definition run_container_remove_range (r : list run) (min max : Z) : list run :=
  let first0 := rle16_find_run r (u16 min) in
  let last0 := rle16_find_run r (u16 max) in
  let f := rnth r first0 in
  if (0 <=? first0) && (fst f <? min) && (max <? fst f + snd f) then
    rset first0 (fst f, u16 (min - 1 - fst f))
      (makeRoomAtIndex r (first0 + 1) (u16 (max + 1), u16 (fst f + snd f - (max + 1))))
  else
    let '(r1, first) :=
      if 0 <=? first0 then
        if fst f <? min then (rset first0 (fst f, u16 (min - 1 - fst f)) r, first0 + 1) else (r, first0)
      else (r, - first0 - 1) in
    let '(r2, last) :=
      if 0 <=? last0 then
        let run_max := u16 (fst (rnth r1 last0) + snd (rnth r1 last0)) in
        if max <? run_max then (rset last0 (u16 (max + 1), u16 (run_max - (max + 1))) r1, last0 - 1) else (r1, last0)
      else (r1, - last0 - 1 - 1) in
    if first <=? last then run_container_shift_tail r2 (zlen r2 - (last + 1)) (- (last - first + 1)) else r2.
(** run.c:133-187 offset; None = output pointer untouched *)
Definition run_container_offset (c : list run) (wantlo wanthi : bool) (offset : Z) : option (list run) * option (list run) :=
  let top := 65536 - offset in
  let pivot := run_container_index_equalorlarger c (u16 top) in
  let split := if pivot =? -1 then false else fst (rnth c pivot) <? top in
  let lo_cap := if pivot =? -1 then zlen c else pivot + (if split then 1 else 0) in
  let hi_cap := if pivot =? -1 then 0 else zlen c - pivot in
  let shift := map (fun x : run => (u16 (fst x + offset), snd x)) in
  let lo := shift (rtake lo_cap c) in
  let hi := shift (rskip pivot c) in
  let lo' := if split then set_last lo (fst (rnth lo (zlen lo - 1)), u16 (65536 - fst (rnth lo (zlen lo - 1)) - 1)) else lo in
  let hi' := if split then rset 0 (0, u16 (snd (rnth hi 0) - (65535 - fst (rnth hi 0) + 1))) hi else hi in
  ((if wantlo && negb (lo_cap =? 0) then Some lo' else None),
   (if wanthi && negb (hi_cap =? 0) then Some hi' else None)).

(** * Proofs *)
(** canonical run lists starting at or after [lo] *)
Fixpoint rok (lo : Z) (r : list run) : Prop :=
  match r with
  | [] => True
  | (v, l) :: r' => lo <= v /\ 0 <= l /\ v + l < 65536 /\ rok (v + l + 2) r'
  end.
Definition rwf (r : list run) : Prop := rok 0 r.
Definition inrun (x : run) (y : Z) : bool := (fst x <=? y) && (y <=? fst x + snd x).
Definition rmem (r : list run) (y : Z) : bool := existsb (fun x => inrun x y) r.
Definition rcard (r : list run) : Z := cnt (rmem r) 0 65536.
Fixpoint rnext (lo : Z) (r : list run) : Z :=
  match r with [] => lo | (v, l) :: r' => rnext (v + l + 2) r' end.

Lemma u16_small x : 0 <= x < 65536 -> u16 x = x.
Proof. intros. unfold u16. now apply Z.mod_small. Qed.
Lemma u32_small x : 0 <= x < 2^32 -> u32 x = x.
Proof. intros. unfold u32. now apply Z.mod_small. Qed.

Lemma rok_weaken lo lo' r : lo' <= lo -> rok lo r -> rok lo' r.
Proof. destruct r as [|[v l] r]; cbn; intuition lia. Qed.
Lemma rok_app lo A B : rok lo (A ++ B) <-> rok lo A /\ rok (rnext lo A) B.
Proof. revert lo. induction A as [|[v l] A IH]; intros lo; cbn; [tauto|]. rewrite IH. tauto. Qed.
Lemma rnext_app lo A B : rnext lo (A ++ B) = rnext (rnext lo A) B.
Proof. revert lo. induction A as [|[v l] A IH]; intros lo; cbn; auto. Qed.
Lemma rnext_ge lo A : rok lo A -> lo <= rnext lo A.
Proof. revert lo. induction A as [|[v l] A IH]; intros lo; cbn; [lia|]. intros (H1&H2&H3&H4). apply IH in H4. lia. Qed.
Lemma rnext_le lo A m : rok lo A -> lo <= m -> (forall v l, In (v,l) A -> v + l + 2 <= m) -> rnext lo A <= m.
Proof.
  revert lo. induction A as [|[v l] A IH]; intros lo; cbn; auto. intros (H1&H2&H3&H4) Hm H.
  apply IH; auto.
Qed.
Lemma rnext_bound lo A : rok lo A -> lo <= 65537 -> rnext lo A <= 65537.
Proof.
  revert lo. induction A as [|[v l] A IH]; intros lo; cbn; auto. intros (H1&H2&H3&H4) Hm.
  apply IH; auto. lia.
Qed.
Lemma rok_In lo r v l : rok lo r -> In (v,l) r -> lo <= v /\ 0 <= l /\ v + l < 65536.
Proof.
  revert lo. induction r as [|[v' l'] r IH]; intros lo; cbn; [tauto|]. intros (H1&H2&H3&H4) [H|H].
  - inversion H; subst. lia.
  - specialize (IH _ H4 H). lia.
Qed.
Lemma rmem_app A B y : rmem (A ++ B) y = rmem A y || rmem B y.
Proof. unfold rmem. apply existsb_app. Qed.
Lemma rmem_cons x B y : rmem (x :: B) y = inrun x y || rmem B y.
Proof. reflexivity. Qed.
Lemma rmem_nil y : rmem [] y = false.
Proof. reflexivity. Qed.
Lemma rmem_In r y : rmem r y = true <-> exists v l, In (v,l) r /\ v <= y <= v + l.
Proof.
  unfold rmem. rewrite existsb_exists. split.
  - intros ([v l]&H1&H2). exists v, l. unfold inrun in H2. cbn in H2. split; auto. lia.
  - intros (v&l&H1&H2). exists (v,l). split; auto. unfold inrun. cbn. lia.
Qed.
Lemma rmem_lo lo r y : rok lo r -> y < lo -> rmem r y = false.
Proof.
  intros H Hy. destruct (rmem r y) eqn:E; auto. apply rmem_In in E. destruct E as (v&l&H1&H2).
  pose proof (rok_In _ _ _ _ H H1). lia.
Qed.
Lemma rmem_hi lo r y : rok lo r -> rnext lo r - 1 <= y -> lo - 1 <= y -> rmem r y = false.
Proof.
  revert lo. induction r as [|[v l] r IH]; intros lo; cbn [rok rnext]; auto.
  intros (H1&H2&H3&H4) Hy Hlo. rewrite rmem_cons. pose proof (rnext_ge _ _ H4).
  rewrite (IH _ H4) by lia. unfold inrun. cbn. lia.
Qed.
Lemma rmem_range lo r y : rok lo r -> rmem r y = true -> lo <= y < 65536.
Proof.
  intros H E. apply rmem_In in E. destruct E as (v&l&H1&H2). pose proof (rok_In _ _ _ _ H H1). lia.
Qed.
Lemma rmem_oob r y : rwf r -> ~ (0 <= y < 65536) -> rmem r y = false.
Proof. intros H Hy. destruct (rmem r y) eqn:E; auto. pose proof (rmem_range _ _ _ H E). lia. Qed.

(** canonical forms are unique *)
Lemma rok_unique lo r1 r2 : rok lo r1 -> rok lo r2 -> (forall y, rmem r1 y = rmem r2 y) -> r1 = r2.
Proof.
  revert lo r2. induction r1 as [|[v l] r1 IH]; intros lo [|[v2 l2] r2] H1 H2 E; auto.
  - cbn in H2. specialize (E v2). rewrite rmem_cons in E. unfold inrun in E. cbn in E. lia.
  - cbn in H1. specialize (E v). rewrite rmem_cons in E. unfold inrun in E. cbn in E. lia.
  - cbn [rok] in H1, H2. destruct H1 as (A1&A2&A3&A4), H2 as (B1&B2&B3&B4).
    assert (E' : forall y, (v <=? y) && (y <=? v + l) || rmem r1 y = (v2 <=? y) && (y <=? v2 + l2) || rmem r2 y).
    { intros y. specialize (E y). now rewrite !rmem_cons in E. }
    assert (L1 : forall y, y < v + l + 2 -> rmem r1 y = false) by (intros; eapply rmem_lo; eauto).
    assert (L2 : forall y, y < v2 + l2 + 2 -> rmem r2 y = false) by (intros; eapply rmem_lo; eauto).
    assert (v = v2).
    { destruct (Z.lt_trichotomy v v2) as [L|[L|L]]; auto.
      - specialize (E' v). rewrite (L1 v), (L2 v) in E' by lia. lia.
      - specialize (E' v2). rewrite (L1 v2), (L2 v2) in E' by lia. lia. }
    subst v2.
    assert (l = l2).
    { destruct (Z.lt_trichotomy l l2) as [L|[L|L]]; auto.
      - specialize (E' (v+l+1)). rewrite L1, L2 in E' by lia. lia.
      - specialize (E' (v+l2+1)). rewrite L1, L2 in E' by lia. lia. }
    subst l2. f_equal. apply (IH (v+l+2)); auto. intros y. specialize (E' y).
    destruct (Z_lt_dec y (v+l+2)); [now rewrite L1, L2 by lia|].
    replace (y <=? v + l) with false in E' by lia. rewrite andb_false_r in E'. exact E'.
Qed.

(** counting *)
Lemma cnt_run_cons v l r lo hi : rok (v+l+2) r -> 0 <= l -> lo <= v -> v + l + 1 <= hi ->
  cnt (rmem ((v,l)::r)) lo hi = l + 1 + cnt (rmem r) (v+l+1) hi.
Proof.
  intros H Hl H1 H2. rewrite (cnt_app _ lo v hi) by lia. rewrite (cnt_app _ v (v+l+1) hi) by lia.
  rewrite cnt_none.
  2:{ intros y Hy. rewrite rmem_cons. rewrite (rmem_lo _ _ _ H) by lia. unfold inrun. cbn. lia. }
  rewrite (cnt_full _ v).
  2: lia.
  2:{ intros y Hy. rewrite rmem_cons. unfold inrun. cbn. lia. }
  assert (cnt (rmem ((v,l)::r)) (v+l+1) hi = cnt (rmem r) (v+l+1) hi) as ->.
  { apply cnt_ext. intros y Hy. rewrite rmem_cons. unfold inrun. cbn [fst snd].
    replace (y <=? v+l) with false by lia. now rewrite andb_false_r. }
  lia.
Qed.
Lemma cnt_run_ge r lo lo' hi : rok lo' r -> lo <= lo' -> lo' <= hi -> cnt (rmem r) lo hi = cnt (rmem r) lo' hi.
Proof.
  intros H H1 H2. rewrite (cnt_app _ lo lo' hi) by lia. rewrite cnt_none; [lia|].
  intros y Hy. apply (rmem_lo lo'); auto. lia.
Qed.
Lemma run_cardinality_aux r s lo : rok lo r -> lo <= 65537 -> fold_left (fun s x => s + snd x) r (s + zlen r) = s + cnt (rmem r) lo 65536.
Proof.
  revert s lo. induction r as [|[v l] r IH]; intros s lo H Hlo; cbn [fold_left].
  - rewrite zlen_nil. rewrite cnt_none; auto.
  - cbn [rok] in H. destruct H as (H1&H2&H3&H4). rewrite cnt_run_cons by (auto; lia).
    rewrite zlen_cons. cbn [snd].
    replace (s + (zlen r + 1) + l) with ((s + l + 1) + zlen r) by lia.
    rewrite (IH _ _ H4) by lia.
    destruct (Z_le_dec (v+l+2) 65536).
    + rewrite (cnt_run_ge r (v+l+1) (v+l+2)) by (auto; lia). lia.
    + rewrite !cnt_nil by lia. lia.
Qed.
Lemma run_cardinality_spec r : rwf r -> run_container_cardinality r = rcard r.
Proof.
  intros H. unfold run_container_cardinality, rcard. replace (zlen r) with (0 + zlen r) by lia.
  rewrite (run_cardinality_aux r 0 0) by (auto; lia). lia.
Qed.
Lemma rcard_bound r : 0 <= rcard r <= 65536.
Proof. unfold rcard. pose proof (cnt_bound (rmem r) 0 65536). lia. Qed.
Lemma rcard_pos r : rwf r -> (0 < rcard r <-> r <> []).
Proof.
  intros H. split.
  - intros Hc ->. unfold rcard in Hc. rewrite cnt_none in Hc; auto. lia.
  - intros Hn. destruct r as [|[v l] r]; [easy|]. cbn in H. unfold rcard.
    rewrite cnt_run_cons by (intuition lia). pose proof (cnt_bound (rmem r) (v+l+1) 65536). lia.
Qed.
Lemma run_nonzero_spec r : rwf r -> run_container_nonzero_cardinality r = (0 <? rcard r).
Proof.
  intros H. unfold run_container_nonzero_cardinality. pose proof (rcard_pos r H) as Hp.
  destruct r as [|x r].
  - unfold rcard. rewrite cnt_none; auto.
  - assert (0 < rcard (x::r)) by (apply Hp; discriminate). rewrite zlen_cons.
    pose proof (zlen_nonneg r). lia.
Qed.
Lemma run_empty_spec r : rwf r -> run_container_empty r = (rcard r =? 0).
Proof.
  intros H. pose proof (run_nonzero_spec r H) as Hp. unfold run_container_empty, run_container_nonzero_cardinality in *.
  pose proof (rcard_bound r). pose proof (zlen_nonneg r). lia.
Qed.

(** indexing in a split list *)
Lemma rnth_mid A x B i : i = zlen A -> rnth (A ++ x :: B) i = x.
Proof. intros ->. unfold rnth, zlen. rewrite Nat2Z.id. rewrite app_nth2 by lia. now rewrite Nat.sub_diag. Qed.
Lemma rset_mid A x y B i : i = zlen A -> rset i y (A ++ x :: B) = A ++ y :: B.
Proof.
  intros ->. unfold rset, zlen. rewrite Nat2Z.id. induction A as [|a A IH]; cbn; auto. now rewrite IH.
Qed.
Lemma rtake_mid A B i : i = zlen A -> rtake i (A ++ B) = A.
Proof. intros ->. unfold rtake, zlen. rewrite Nat2Z.id. rewrite firstn_app, Nat.sub_diag, firstn_all. cbn. apply app_nil_r. Qed.
Lemma rskip_mid A B i : i = zlen A -> rskip i (A ++ B) = B.
Proof. intros ->. unfold rskip, zlen. rewrite Nat2Z.id. rewrite skipn_app, Nat.sub_diag, skipn_all. reflexivity. Qed.
Lemma rskip_mid1 A x B i : i = zlen A + 1 -> rskip i (A ++ x :: B) = B.
Proof.
  intros ->. change (A ++ x :: B) with (A ++ [x] ++ B). rewrite app_assoc. apply rskip_mid.
  rewrite zlen_app. reflexivity.
Qed.
Lemma rtake_mid1 A x B i : i = zlen A + 1 -> rtake i (A ++ x :: B) = A ++ [x].
Proof.
  intros ->. change (A ++ x :: B) with (A ++ [x] ++ B). rewrite app_assoc. apply rtake_mid.
  rewrite zlen_app. reflexivity.
Qed.
Lemma recover_mid A x B i : i = zlen A -> recoverRoomAtIndex (A ++ x :: B) i = A ++ B.
Proof. intros ->. unfold recoverRoomAtIndex. rewrite rtake_mid, rskip_mid1; auto. Qed.
Lemma makeroom_mid A x B i : i = zlen A -> makeRoomAtIndex (A ++ B) i x = A ++ x :: B.
Proof. intros ->. unfold makeRoomAtIndex. rewrite rtake_mid, rskip_mid; auto. Qed.
Lemma set_last_mid A x y : set_last (A ++ [x]) y = A ++ [y].
Proof. unfold set_last. now rewrite removelast_last. Qed.

(** splitting at a threshold *)
Lemma rok_split (f : run -> bool) r lo :
  (forall v l v' l', 0 <= l -> 0 <= l' -> v + l + 2 <= v' -> f (v',l') = true -> f (v,l) = true) ->
  rok lo r -> exists A B, r = A ++ B /\ (forall x, In x A -> f x = true) /\ (forall x, In x B -> f x = false).
Proof.
  intros Hm. revert lo. induction r as [|[v l] r IH]; intros lo H.
  - exists [], []. cbn. intuition.
  - cbn [rok] in H. destruct H as (H1&H2&H3&H4). destruct (IH _ H4) as (A&B&->&HA&HB).
    destruct (f (v,l)) eqn:E.
    + exists ((v,l)::A), B. split; auto. split; auto. intros x [<-|Hx]; auto.
    + exists [], ((v,l)::A++B). split; auto. split; [intros x []|].
      intros x [<-|Hx]; auto. destruct x as [v' l'].
      pose proof (rok_In _ _ _ _ H4 Hx). destruct (f (v',l')) eqn:E2; auto.
      rewrite <- E. symmetry. apply (Hm v l v' l'); auto; lia.
Qed.
Lemma rnth_app1 A B i : 0 <= i < zlen A -> rnth (A ++ B) i = rnth A i.
Proof. intros. unfold rnth, zlen in *. apply app_nth1. lia. Qed.
Lemma rnth_app2 A B i : zlen A <= i -> rnth (A ++ B) i = rnth B (i - zlen A).
Proof. intros. unfold rnth, zlen in *. rewrite app_nth2 by lia. f_equal. lia. Qed.
Lemma rnth_In r i : 0 <= i < zlen r -> In (rnth r i) r.
Proof. intros. unfold rnth, zlen in *. apply nth_In. lia. Qed.

Lemma rle_search_loop_spec cmp A M B fuel low high :
  (forall x, In x A -> cmp x = Lt) -> (forall x, In x M -> cmp x = Eq) -> (forall x, In x B -> cmp x = Gt) ->
  zlen M <= 1 -> 0 <= low <= zlen A -> zlen A + zlen M - 1 <= high < zlen (A++M++B) -> low <= high + 1 ->
  high - low + 1 < Z.of_nat fuel ->
  rle_search_loop fuel cmp (A++M++B) low high = (negb (zlen M =? 0), zlen A).
Proof.
  intros HA HM HB HM1. revert low high. induction fuel; intros low high H1 H2 H3 H4; [lia|].
  cbn [rle_search_loop]. pose proof (zlen_nonneg A). pose proof (zlen_nonneg M). pose proof (zlen_nonneg B).
  rewrite !zlen_app in *. destruct (low <=? high) eqn:E.
  - set (mid := Z.shiftr (low + high) 1).
    assert (low <= mid <= high). { unfold mid. rewrite Z.shiftr_div_pow2 by lia. change (2^1) with 2. dm. }
    clearbody mid. destruct (Z_lt_dec mid (zlen A)).
    + rewrite rnth_app1 by lia. rewrite HA by (apply rnth_In; lia). apply IHfuel; lia.
    + rewrite rnth_app2 by lia. destruct (Z_lt_dec (mid - zlen A) (zlen M)).
      * rewrite rnth_app1 by lia. rewrite HM by (apply rnth_In; lia).
        replace (zlen M =? 0) with false by lia. cbn. f_equal. lia.
      * rewrite rnth_app2 by lia. rewrite HB by (apply rnth_In; lia). apply IHfuel; lia.
  - replace (zlen M =? 0) with true by lia. cbn. f_equal. lia.
Qed.
Lemma rle_search_spec cmp A M B :
  (forall x, In x A -> cmp x = Lt) -> (forall x, In x M -> cmp x = Eq) -> (forall x, In x B -> cmp x = Gt) ->
  zlen M <= 1 -> rle_search cmp (A++M++B) = (negb (zlen M =? 0), zlen A).
Proof.
  intros. unfold rle_search. pose proof (zlen_nonneg A). pose proof (zlen_nonneg M). pose proof (zlen_nonneg B).
  apply rle_search_loop_spec; auto; rewrite ?zlen_app; try lia.
  unfold zlen in *. rewrite !app_length. lia.
Qed.

Lemma interleaved_spec r k lo : rok lo r ->
  exists A B, r = A ++ B /\ (forall x, In x A -> fst x < k) /\ (forall x, In x B -> k <= fst x) /\
    interleavedBinarySearch r k =
      match B with [] => -(zlen A + 1) | x :: _ => if fst x =? k then zlen A else -(zlen A + 1) end.
Proof.
  intros H. destruct (rok_split (fun x => fst x <? k) r lo) as (A&B&->&HA&HB); auto.
  { cbn. intros. lia. }
  exists A, B. split; auto. split. { intros x Hx. specialize (HA x Hx). cbn in HA. lia. }
  split. { intros x Hx. specialize (HB x Hx). cbn in HB. lia. }
  unfold interleavedBinarySearch. apply rok_app in H. destruct H as [H1 H2].
  destruct B as [|[v l] B].
  - rewrite (rle_search_spec _ A [] []).
    + reflexivity.
    + intros x Hx. now rewrite HA.
    + intros x [].
    + intros x [].
    + unfold zlen; cbn; lia.
  - cbn [fst]. destruct (Z.eqb_spec v k).
    + rewrite (rle_search_spec _ A [(v,l)] B); cbn [fst].
      * reflexivity.
      * intros x Hx. now rewrite HA.
      * intros x [<-|[]]. cbn. replace (v <? k) with false by lia. replace (k <? v) with false by lia. reflexivity.
      * intros [v' l'] Hx. cbn. cbn in H2. destruct H2 as (?&?&?&H2). pose proof (rok_In _ _ _ _ H2 Hx).
        replace (v' <? k) with false by lia. replace (k <? v') with true by lia. reflexivity.
      * unfold zlen; cbn; lia.
    + rewrite (rle_search_spec _ A [] ((v,l)::B)); cbn [fst].
      * reflexivity.
      * intros x Hx. now rewrite HA.
      * intros x [].
      * intros [v' l'] Hx. rewrite HB by auto. pose proof (HB _ Hx) as HBx. cbn in HBx. cbn [fst].
        assert (k < v').
        { destruct Hx as [Hx|Hx]; [inversion Hx; lia|]. cbn in H2. destruct H2 as (?&?&?&H2).
          pose proof (rok_In _ _ _ _ H2 Hx). specialize (HB (v,l) (or_introl eq_refl)). cbn in HB. lia. }
        replace (k <? v') with true by lia. reflexivity.
      * unfold zlen; cbn; lia.
Qed.
Lemma rle_search_split (f g : run -> bool) r lo : 0 <= lo -> rok lo r ->
  (forall v l v' l', 0 <= v -> 0 <= l -> 0 <= l' -> v + l + 2 <= v' -> v' + l' < 65536 ->
     (f (v',l') = true -> f (v,l) = true) /\ (f (v,l) = false -> g (v',l') = true)) ->
  exists A M B, r = A ++ M ++ B /\ zlen M <= 1 /\ (forall x, In x A -> f x = true) /\
    (forall x, In x M -> f x = false /\ g x = false) /\ (forall x, In x B -> f x = false /\ g x = true) /\
    rle_search (fun x => if f x then Lt else if g x then Gt else Eq) r = (negb (zlen M =? 0), zlen A).
Proof.
  intros Hlo H Hm.
  assert (S : exists A B, r = A ++ B /\ (forall x, In x A -> f x = true) /\ (forall x, In x B -> f x = false)).
  { clear -H Hm Hlo. revert lo H Hlo. induction r as [|[v l] r IH]; intros lo H Hlo.
    - exists [], []. cbn. intuition.
    - cbn [rok] in H. destruct H as (H1&H2&H3&H4). destruct (IH _ H4) as (A&B&->&HA&HB); [lia|].
      destruct (f (v,l)) eqn:E.
      + exists ((v,l)::A), B. split; auto. split; auto. intros x [<-|Hx]; auto.
      + exists [], ((v,l)::A++B). split; auto. split; [intros x []|].
        intros x [<-|Hx]; auto. destruct x as [v' l'].
        pose proof (rok_In _ _ _ _ H4 Hx). destruct (f (v',l')) eqn:E2; auto.
        rewrite <- E. symmetry. apply (Hm v l v' l'); auto; lia. }
  destruct S as (A&B&->&HA&HB). apply rok_app in H. destruct H as [H1 H2].
  assert (S : exists M B', B = M ++ B' /\ zlen M <= 1 /\ (forall x, In x M -> g x = false) /\ (forall x, In x B' -> g x = true)).
  { destruct B as [|[v l] B].
    - exists [], []. unfold zlen. cbn. intuition lia.
    - cbn [rok] in H2. destruct H2 as (B1&B2&B3&B4). pose proof (rnext_ge _ _ H1).
      assert (HB' : forall x, In x B -> g x = true).
      { intros [v' l'] Hx. pose proof (rok_In _ _ _ _ B4 Hx). apply (Hm v l v' l'); try lia. apply HB. now left. }
      destruct (g (v,l)) eqn:E.
      + exists [], ((v,l)::B). split; [reflexivity|]. split; [unfold zlen; cbn; lia|]. split; [intros x []|]. intros x [Hx|Hx]; [now subst|auto].
      + exists [(v,l)], B. repeat split; auto; try (unfold zlen; cbn; lia). intros x [<-|[]]; auto. }
  destruct S as (M&B'&->&HM1&HM&HB').
  exists A, M, B'. split; auto. split; auto. split; auto.
  split. { intros x Hx. split; auto. apply HB. apply in_or_app. auto. }
  split. { intros x Hx. split; auto. apply HB. apply in_or_app. auto. }
  apply rle_search_spec; auto.
  - intros x Hx. now rewrite HA.
  - intros x Hx. rewrite HB by (apply in_or_app; auto). now rewrite HM.
  - intros x Hx. rewrite HB by (apply in_or_app; auto). now rewrite HB'.
Qed.
Lemma find_run_spec r k lo : 0 <= lo -> rok lo r ->
  exists A M B, r = A ++ M ++ B /\ zlen M <= 1 /\ (forall v l, In (v,l) A -> v + l < k) /\
    (forall v l, In (v,l) M -> v <= k <= v + l) /\ (forall v l, In (v,l) B -> k < v) /\
    rle16_find_run r k = if zlen M =? 0 then -(zlen A + 1) else zlen A.
Proof.
  intros Hlo H.
  destruct (rle_search_split (fun x => u16 (fst x + snd x) <? k) (fun x => k <? fst x) r lo Hlo H) as (A&M&B&E&HM1&HA&HM&HB&Hs).
  { cbn. intros. rewrite !u16_small by lia. lia. }
  exists A, M, B. split; auto. split; auto.
  assert (G : forall v l, In (v,l) r -> 0 <= v /\ 0 <= l /\ v + l < 65536).
  { intros v l Hx. pose proof (rok_In _ _ _ _ H Hx). lia. }
  subst r. split; [|split; [|split]].
  - intros v l Hx. specialize (HA _ Hx). cbn in HA. specialize (G v l). rewrite in_app_iff in G.
    rewrite u16_small in HA by (intuition lia). lia.
  - intros v l Hx. specialize (HM _ Hx). cbn in HM. specialize (G v l). rewrite !in_app_iff in G.
    rewrite u16_small in HM by (intuition lia). lia.
  - intros v l Hx. specialize (HB _ Hx). cbn in HB. lia.
  - unfold rle16_find_run. cbn zeta. rewrite Hs. destruct (zlen M =? 0); reflexivity.
Qed.
Lemma rle_count_less_spec r k lo : 0 <= lo -> rok lo r ->
  exists A M B, r = A ++ M ++ B /\ zlen M <= 1 /\ (forall v l, In (v,l) A -> v + l + 1 < k) /\
    (forall v l, In (v,l) M -> v <= k <= v + l + 1) /\ (forall v l, In (v,l) B -> k < v) /\
    rle16_count_less r k = zlen A.
Proof.
  intros Hlo H.
  destruct (rle_search_split (fun x => u16 (fst x + snd x) + 1 <? k) (fun x => k <? fst x) r lo Hlo H) as (A&M&B&E&HM1&HA&HM&HB&Hs).
  { cbn. intros. rewrite !u16_small by lia. lia. }
  exists A, M, B. split; auto. split; auto.
  assert (G : forall v l, In (v,l) r -> 0 <= v /\ 0 <= l /\ v + l < 65536).
  { intros v l Hx. pose proof (rok_In _ _ _ _ H Hx). lia. }
  subst r. split; [|split; [|split]].
  - intros v l Hx. specialize (HA _ Hx). cbn in HA. specialize (G v l). rewrite in_app_iff in G.
    rewrite u16_small in HA by (intuition lia). lia.
  - intros v l Hx. specialize (HM _ Hx). cbn in HM. specialize (G v l). rewrite !in_app_iff in G.
    rewrite u16_small in HM by (intuition lia). lia.
  - intros v l Hx. specialize (HB _ Hx). cbn in HB. lia.
  - unfold rle16_count_less. cbn zeta. rewrite Hs. destruct (zlen (A ++ M ++ B) =? 0) eqn:E0; auto.
    rewrite !zlen_app in E0. pose proof (zlen_nonneg A). pose proof (zlen_nonneg M). pose proof (zlen_nonneg B). lia.
Qed.
Lemma rle_count_greater_spec r k lo : 0 <= lo -> rok lo r ->
  exists A M B, r = A ++ M ++ B /\ zlen M <= 1 /\ (forall v l, In (v,l) A -> v + l < k) /\
    (forall v l, In (v,l) M -> v - 1 <= k <= v + l) /\ (forall v l, In (v,l) B -> k + 1 < v) /\
    rle16_count_greater r k = zlen B.
Proof.
  intros Hlo H.
  destruct (rle_search_split (fun x => u16 (fst x + snd x) <? k) (fun x => k + 1 <? fst x) r lo Hlo H) as (A&M&B&E&HM1&HA&HM&HB&Hs).
  { cbn. intros. rewrite !u16_small by lia. lia. }
  exists A, M, B. split; auto. split; auto.
  assert (G : forall v l, In (v,l) r -> 0 <= v /\ 0 <= l /\ v + l < 65536).
  { intros v l Hx. pose proof (rok_In _ _ _ _ H Hx). lia. }
  subst r. split; [|split; [|split]].
  - intros v l Hx. specialize (HA _ Hx). cbn in HA. specialize (G v l). rewrite in_app_iff in G.
    rewrite u16_small in HA by (intuition lia). lia.
  - intros v l Hx. specialize (HM _ Hx). cbn in HM. specialize (G v l). rewrite !in_app_iff in G.
    rewrite u16_small in HM by (intuition lia). lia.
  - intros v l Hx. specialize (HB _ Hx). cbn in HB. lia.
  - unfold rle16_count_greater. cbn zeta. rewrite Hs. pose proof (zlen_nonneg A). pose proof (zlen_nonneg M). pose proof (zlen_nonneg B).
    rewrite !zlen_app in *. destruct (zlen A + (zlen M + zlen B) =? 0) eqn:E0; [lia|].
    destruct (zlen M =? 0) eqn:E1; cbn [negb]; lia.
Qed.

(** the last run of a prefix *)
Lemma snoc_cases {A} (l : list A) : l = [] \/ exists l' x, l = l' ++ [x].
Proof. destruct l as [|a l] using rev_ind; [now left|right; now exists l, a]. Qed.

(** facts about the position of k between A and B *)
Lemma rmem_split_lt lo A B k : rok lo (A ++ B) -> (forall x, In x A -> fst x < k) -> (forall x, In x B -> k <= fst x) ->
  rmem (A ++ B) k = (match rev A with [] => false | x :: _ => k <=? fst x + snd x end)
    || match B with [] => false | x :: _ => fst x =? k end.
Proof.
  intros H HA HB. apply rok_app in H. destruct H as [H1 H2]. rewrite rmem_app. f_equal.
  - destruct (snoc_cases A) as [->|(A'&[v l]&->)]; auto.
    rewrite rev_app_distr. cbn [rev app fst snd]. rewrite rmem_app, rmem_cons, rmem_nil, orb_false_r.
    apply rok_app in H1. destruct H1 as [H1 H3]. cbn [rok] in H3.
    assert (v < k) by (apply (HA (v,l)); apply in_or_app; cbn; auto).
    pose proof (rnext_ge _ _ H1). rewrite (rmem_hi lo A') by (auto; lia). unfold inrun. cbn. lia.
  - destruct B as [|[v l] B]; auto. cbn [fst]. cbn [rok] in H2. destruct H2 as (B1&B2&B3&B4).
    assert (k <= v) by (apply (HB (v,l)); cbn; auto).
    rewrite rmem_cons. rewrite (rmem_lo _ _ _ B4) by lia. unfold inrun. cbn. lia.
Qed.
Lemma run_contains_spec r k : rwf r -> run_container_contains r k = rmem r k.
Proof.
  intros H. destruct (interleaved_spec r k 0 H) as (A&B&->&HA&HB&E).
  rewrite (rmem_split_lt 0) by auto. unfold run_container_contains. rewrite E. clear E.
  pose proof (zlen_nonneg A).
  assert (F : forall i, i = -(zlen A + 1) -> (if 0 <=? i then true else if negb (- i - 2 =? -1) then let '(value, le) := rnth (A++B) (- i - 2) in k - value <=? le else false)
     = (match rev A with [] => false | x :: _ => k <=? fst x + snd x end)).
  { intros i ->. replace (0 <=? - (zlen A + 1)) with false by lia.
    destruct (snoc_cases A) as [->|(A'&[v l]&->)].
    - reflexivity.
    - rewrite zlen_app in *. change (zlen [(v,l)]) with 1 in *. pose proof (zlen_nonneg A').
      replace (negb (- - (zlen A' + 1 + 1) - 2 =? -1)) with true by lia.
      rewrite <- app_assoc. cbn [app]. rewrite rnth_mid by lia. rewrite rev_app_distr. cbn [rev app fst snd]. lia. }
  destruct B as [|[v l] B].
  - rewrite F by auto. now rewrite orb_false_r.
  - cbn [fst]. destruct (v =? k) eqn:E.
    + replace (0 <=? zlen A) with true by lia. now rewrite orb_true_r.
    + rewrite F by auto. now rewrite orb_false_r.
Qed.
Ltac rsimp := rewrite ?rmem_app, ?rmem_cons, ?rmem_nil; unfold inrun; cbn [fst snd].
Ltac zl := repeat match goal with
  | H : context [zlen (_ ++ _)] |- _ => rewrite zlen_app in H
  | H : context [zlen (_ :: _)] |- _ => rewrite zlen_cons in H
  end; rewrite ?zlen_app, ?zlen_cons; change (@zlen run []) with 0 in *;
  repeat match goal with l : list run |- _ => lazymatch goal with
     | _ : 0 <= zlen l |- _ => fail | _ => let N := fresh "Zln" in pose proof (zlen_nonneg l) as N end end.

Lemma run_add_spec r k : rwf r -> 0 <= k < 65536 ->
  rwf (fst (run_container_add r k)) /\
  (forall y, rmem (fst (run_container_add r k)) y = rmem r y || (y =? k)) /\
  snd (run_container_add r k) = negb (rmem r k).
Proof.
  intros H Hk. unfold run_container_add. destruct (interleaved_spec r k 0 H) as (A&B&->&HA&HB&E).
  pose proof (rmem_split_lt 0 A B k H HA HB) as Em.
  rewrite E. clear E. unfold rwf in *. pose proof (zlen_nonneg A).
  (* already a run start *)
  assert (Hfound : forall x B', B = x :: B' -> fst x = k ->
     rok 0 (A++B) /\ (forall y, rmem (A++B) y = rmem (A++B) y || (y =? k)) /\ false = negb (rmem (A++B) k)).
  { intros x B' -> Ex. rewrite Em, Ex, Z.eqb_refl, orb_true_r. split; auto. split; auto.
    intros y. destruct (Z.eqb_spec y k); [|now rewrite orb_false_r]. subst y. rewrite Em, Ex, Z.eqb_refl, !orb_true_r. reflexivity. }
  (* otherwise *)
  match goal with |- context [(if 0 <=? ?ix then _ else _)] => set (i0 := ix) end.
  assert (Hcase : (exists x B', B = x :: B' /\ fst x = k /\ i0 = zlen A) \/ (i0 = - (zlen A + 1) /\ (forall x, In x B -> k < fst x))).
  { unfold i0. apply rok_app in H. destruct H as [_ H2]. destruct B as [|[v l] B].
    - right. split; auto. intros x [].
    - cbn [fst]. destruct (Z.eqb_spec v k).
      + left. exists (v,l), B. auto.
      + right. split; auto. cbn [rok] in H2. destruct H2 as (?&?&?&H2). intros [v' l'] [Hx|Hx].
        * inversion Hx; subst. specialize (HB (v',l') (or_introl eq_refl)). cbn in *. lia.
        * pose proof (rok_In _ _ _ _ H2 Hx). specialize (HB (v,l) (or_introl eq_refl)). cbn in *. lia. }
  clearbody i0. destruct Hcase as [(x&B'&Ex&Ek&->)|[-> HB']].
  { replace (0 <=? zlen A) with true by lia. cbn [fst snd]. eapply Hfound; eauto. }
  clear Hfound HB. replace (0 <=? - (zlen A + 1)) with false by lia. cbn zeta.
  assert (Em2 : rmem (A++B) k = match rev A with [] => false | x :: _ => k <=? fst x + snd x end).
  { rewrite Em. destruct B as [|x B]; [now rewrite orb_false_r|].
    specialize (HB' x (or_introl eq_refl)). replace (fst x =? k) with false by lia. now rewrite orb_false_r. }
  clear Em. apply rok_app in H. destruct H as [H1 H2].
  destruct (snoc_cases A) as [->|(A'&[v l]&->)].
  - (* nothing before *)
    cbn [rev] in Em2. change (zlen (@nil run)) with 0. change (0 <=? - - (0 + 1) - 2) with false. cbn iota.
    cbn [app] in *. destruct B as [|[v l] B].
    + change (rnth [] 0) with ((0,0):run). cbn iota. change (0 <? zlen (@nil run)) with false. cbn [andb fst snd].
      rewrite Em2. unfold makeRoomAtIndex. change (- - (0 + 1) - 2 + 1) with 0. cbn [rtake rskip Z.to_nat firstn skipn app rok].
      split. { intuition lia. } split; auto. intros y. rsimp. lia.
    + change (rnth ((v,l)::B) 0) with (v,l). cbn iota. rewrite zlen_cons. pose proof (zlen_nonneg B).
      replace (0 <? zlen B + 1) with true by lia. cbn [andb]. rewrite Em2.
      specialize (HB' (v,l) (or_introl eq_refl)). cbn [fst] in HB'. cbn [rok] in H2. cbn [rnext] in H2.
      destruct (Z.eqb_spec v (k+1)).
      * cbn [fst snd]. rewrite !u16_small by lia. unfold rset. cbn [Z.to_nat upd rok].
        split. { replace (v - 1 + (l + 1) + 2) with (v + l + 2) by lia. intuition lia. }
        split; auto. intros y. rsimp. lia.
      * cbn [fst snd]. unfold makeRoomAtIndex. change (- - (0 + 1) - 2 + 1) with 0. cbn [rtake rskip Z.to_nat firstn skipn app rok].
        split. { intuition lia. } split; auto. intros y. rsimp. lia.
  - rewrite rev_app_distr in Em2. cbn [rev app fst snd] in Em2. rewrite Em2.
    zl. replace (- - (zlen A' + (0 + 1) + 1) - 2) with (zlen A') by lia.
    replace (0 <=? zlen A') with true by lia. rewrite <- app_assoc. cbn [app].
    rewrite rnth_mid by lia.
    apply rok_app in H1. destruct H1 as [H1 H3]. cbn [rok] in H3. destruct H3 as (C1&C2&C3&_).
    rewrite rnext_app in H2. cbn [rnext] in H2. pose proof (rnext_ge _ _ H1) as Hn.
    assert (v < k) by (apply (HA (v,l)); apply in_or_app; cbn; auto).
    assert (Em3 : rmem (A' ++ (v,l) :: B) k = (k <=? v + l)).
    { rewrite <- Em2. now rewrite <- app_assoc. }
    destruct B as [|[v2 l2] B].
    + (* no following run *)
      cbn iota. destruct (rnth (A' ++ [(v,l)]) (zlen A' + 1)) as [nv nl]. cbn iota.
      change (zlen (@nil run)) with 0 in *. replace (zlen A' + 1 <? zlen A' + (0 + 1) + 0) with false by lia.
      cbn [andb].
      destruct (Z.leb_spec (k - v) l).
      { cbn [fst snd]. split; [apply rok_app; cbn [rok]; intuition lia|]. split; [|lia]. intros y.
        destruct (Z.eqb_spec y k); [subst; rewrite Em3; lia|]. now rewrite orb_false_r. }
      destruct (Z.eqb_spec (k - v) (l + 1)).
      { cbn [fst snd]. rewrite rset_mid by auto. rewrite u16_small by lia. split; [apply rok_app; cbn [rok]; intuition lia|].
        split; [|lia]. intros y. rsimp. lia. }
      cbn [fst snd]. replace (A' ++ [(v,l)]) with ((A' ++ [(v,l)]) ++ []) by apply app_nil_r.
      rewrite makeroom_mid by (rewrite zlen_app; reflexivity). rewrite <- app_assoc. cbn [app].
      split; [apply rok_app; cbn [rok]; intuition lia|]. split; [|lia]. intros y. rewrite app_nil_r. rsimp. lia.
    + cbn [rok] in H2. destruct H2 as (D1&D2&D3&D4).
      assert (k < v2) by (apply (HB' (v2,l2)); cbn; auto).
      replace (rnth (A' ++ (v,l) :: (v2,l2) :: B) (zlen A' + 1)) with ((v2,l2):run).
      2:{ change (A' ++ (v,l)::(v2,l2)::B) with (A' ++ [(v,l)] ++ (v2,l2) :: B). rewrite app_assoc.
          symmetry. apply rnth_mid. rewrite zlen_app. reflexivity. }
      cbn iota. pose proof (zlen_nonneg B).
      rewrite zlen_cons in *. replace (zlen A' + 1 <? zlen A' + (0 + 1) + (zlen B + 1)) with true by lia. cbn [andb].
      destruct (Z.leb_spec (k - v) l).
      { cbn [fst snd]. split; [apply rok_app; cbn [rok]; intuition lia|]. split; [|lia]. intros y.
        destruct (Z.eqb_spec y k); [subst; rewrite Em3; lia|]. now rewrite orb_false_r. }
      destruct (Z.eqb_spec (k - v) (l + 1)).
      { destruct (Z.eqb_spec v2 (k+1)).
        - cbn [fst snd]. rewrite rset_mid by auto. rewrite u16_small by lia.
          change (A' ++ (v, v2 + l2 - v) :: (v2,l2) :: B) with (A' ++ [(v, v2 + l2 - v)] ++ (v2,l2) :: B).
          rewrite app_assoc. rewrite recover_mid by (rewrite zlen_app; reflexivity). rewrite <- app_assoc. cbn [app].
          split. { apply rok_app. cbn [rok]. replace (v + (v2 + l2 - v) + 2) with (v2+l2+2) by lia. intuition lia. }
          split; [|lia]. intros y. rsimp. lia.
        - cbn [fst snd]. rewrite rset_mid by auto. rewrite u16_small by lia.
          split. { apply rok_app. cbn [rok]. intuition lia. } split; [|lia]. intros y. rsimp. lia. }
      destruct (Z.eqb_spec v2 (k+1)).
      { cbn [fst snd]. change (A' ++ (v,l)::(v2,l2)::B) with (A' ++ [(v,l)] ++ (v2,l2) :: B). rewrite app_assoc.
        rewrite rset_mid by (rewrite zlen_app; reflexivity). rewrite <- app_assoc. cbn [app]. rewrite u16_small by lia.
        split. { apply rok_app. cbn [rok]. replace (k + (l2 + 1) + 2) with (v2+l2+2) by lia. intuition lia. }
        split; [|lia]. intros y. rewrite <- app_assoc. cbn [app]. rsimp. lia. }
      cbn [fst snd]. change (A' ++ (v,l)::(v2,l2)::B) with (A' ++ [(v,l)] ++ (v2,l2) :: B). rewrite app_assoc.
      rewrite makeroom_mid by (rewrite zlen_app; reflexivity). rewrite <- !app_assoc. cbn [app].
      split. { apply rok_app. cbn [rok]. intuition lia. } split; [|lia]. intros y. rsimp. lia.
Qed.
(** position of k in a canonical list, in the form used by all lookups *)
Inductive rpos (r : list run) (k : Z) : Z -> Prop :=
| rpos_start A l B : r = A ++ (k,l) :: B -> rpos r k (zlen A)
| rpos_before B : r = B -> (forall v l, In (v,l) B -> k < v) -> rpos r k (-1)
| rpos_after A v l B : r = A ++ (v,l) :: B -> v < k -> (forall v' l', In (v',l') B -> k < v') ->
    rpos r k (-(zlen A + 2)).
Lemma rpos_spec r k lo : rok lo r -> rpos r k (interleavedBinarySearch r k).
Proof.
  intros H. destruct (interleaved_spec r k lo H) as (A&B&->&HA&HB&E).
  assert (HB2 : (exists l B', B = (k,l)::B' /\ interleavedBinarySearch (A++B) k = zlen A) \/
     ((forall v l, In (v,l) B -> k < v) /\ interleavedBinarySearch (A++B) k = -(zlen A + 1))).
  { apply rok_app in H. destruct H as [_ H2]. rewrite E. destruct B as [|[v l] B].
    - right. split; auto. intros v l [].
    - cbn [fst]. destruct (Z.eqb_spec v k).
      + left. subst. eauto.
      + right. split; auto. cbn [rok] in H2. destruct H2 as (?&?&?&H2).
        assert (k <= v) by (apply (HB (v,l)); cbn; auto). intros v' l' [Hx|Hx].
        * inversion Hx; subst. lia.
        * pose proof (rok_In _ _ _ _ H2 Hx). lia. }
  destruct HB2 as [(l&B'&->&->)|[HB2 ->]].
  - econstructor 1; eauto.
  - destruct (snoc_cases A) as [->|(A'&[v l]&->)].
    + change (-(zlen (@nil run) + 1)) with (-1). econstructor 2; eauto.
    + replace (-(zlen (A' ++ [(v,l)]) + 1)) with (-(zlen A' + 2)) by (rewrite zlen_app, zlen_cons; change (zlen (@nil run)) with 0; lia).
      rewrite <- app_assoc. cbn [app]. econstructor 3; eauto. apply (HA (v,l)). apply in_or_app. cbn. auto.
Qed.
(** membership facts for a split canonical list *)
Lemma rsplit_mem lo A v l B y : rok lo (A ++ (v,l) :: B) -> lo - 1 <= y ->
  (v - 1 <= y -> rmem A y = false) /\ (y <= v + l + 1 -> rmem B y = false).
Proof.
  intros H Hy. apply rok_app in H. destruct H as [H1 H2]. cbn [rok] in H2. destruct H2 as (C1&C2&C3&C4).
  split; intros.
  - apply (rmem_hi lo); auto. lia.
  - apply (rmem_lo _ _ _ C4). lia.
Qed.
Lemma run_remove_spec r k : rwf r -> 0 <= k < 65536 ->
  rwf (fst (run_container_remove r k)) /\
  (forall y, 0 <= y -> rmem (fst (run_container_remove r k)) y = rmem r y && negb (y =? k)) /\
  snd (run_container_remove r k) = rmem r k.
Proof.
  intros H Hk. unfold run_container_remove. unfold rwf in *.
  destruct (rpos_spec r k 0 H) as [A l B ->|B -> HB|A v l B -> Hv HB].
  - zl. replace (0 <=? zlen A) with true by lia. rewrite rnth_mid by auto. cbn iota.
    assert (Hm : rmem (A ++ (k,l)::B) k = true).
    { rsimp. apply rok_app in H. cbn [rok] in H. lia. }
    rewrite Hm. pose proof (rsplit_mem _ _ _ _ _ k H) as Fk.
    assert (F : forall y, 0 <= y -> _) by (intros y Hy; exact (rsplit_mem _ _ _ _ _ y H ltac:(lia))).
    apply rok_app in H. destruct H as [H1 H2]. cbn [rok] in H2. destruct H2 as (C1&C2&C3&C4).
    destruct (Z.eqb_spec l 0).
    + cbn [fst snd]. rewrite recover_mid by auto. split; [|split; auto].
      * apply rok_app. split; auto. eapply rok_weaken; [|eauto]. lia.
      * intros y Hy. specialize (F y Hy). rsimp. lia.
    + cbn [fst snd]. rewrite rset_mid by auto. rewrite !u16_small by lia. split; [|split; auto].
      * apply rok_app. cbn [rok]. replace (k + 1 + (l - 1) + 2) with (k+l+2) by lia. intuition lia.
      * intros y Hy. specialize (F y Hy). rsimp. lia.
  - change (0 <=? -1) with false. change (0 <=? - -1 - 2) with false. cbn [fst snd].
    assert (Hm : rmem B k = false).
    { destruct (rmem B k) eqn:E; auto. apply rmem_In in E. destruct E as (v&l&E1&E2). specialize (HB _ _ E1). lia. }
    rewrite Hm. split; auto. split; auto. intros y Hy. destruct (Z.eqb_spec y k); [subst; now rewrite Hm|now rewrite andb_true_r].
  - zl. replace (0 <=? - (zlen A + 2)) with false by lia. replace (- - (zlen A + 2) - 2) with (zlen A) by lia.
    replace (0 <=? zlen A) with true by lia. rewrite rnth_mid by auto. cbn iota.
    assert (HBk : rmem B k = false).
    { destruct (rmem B k) eqn:E; auto. apply rmem_In in E. destruct E as (v'&l'&E1&E2). specialize (HB _ _ E1). lia. }
    assert (F : forall y, 0 <= y -> _) by (intros y Hy; exact (rsplit_mem _ _ _ _ _ y H ltac:(lia))).
    apply rok_app in H. destruct H as [H1 H2]. cbn [rok] in H2. destruct H2 as (C1&C2&C3&C4).
    pose proof (rnext_ge _ _ H1).
    pose proof (F k) as Fk. destruct (Z.ltb_spec (k - v) l); [|destruct (Z.eqb_spec (k - v) l)]; cbn [fst snd].
    + rewrite !u16_small by lia. rewrite rset_mid by auto.
      change (A ++ (v,k-v-1)::B) with (A ++ [(v,k-v-1)] ++ B). rewrite app_assoc.
      rewrite makeroom_mid by (rewrite zlen_app; reflexivity). rewrite <- app_assoc. cbn [app]. split; [|split].
      * apply rok_app. cbn [rok]. replace (k+1 + (l - (k - v) - 1) + 2) with (v+l+2) by lia. intuition lia.
      * intros y Hy. specialize (F y Hy). rsimp. lia.
      * rsimp. lia.
    + rewrite u16_small by lia. rewrite rset_mid by auto. split; [|split].
      * apply rok_app. cbn [rok]. split; auto. repeat split; try lia. eapply rok_weaken; [|eauto]. lia.
      * intros y Hy. specialize (F y Hy). rsimp. lia.
      * rsimp. lia.
    + split; [|split].
      * apply rok_app. cbn [rok]. intuition lia.
      * intros y Hy. specialize (F y Hy). rsimp. destruct (Z.eqb_spec y k); [|now rewrite andb_true_r].
        subst y. rewrite HBk. lia.
      * rsimp. lia.
Qed.

(** contains_range *)
Lemma contains_range_loop_bound r ps pe c lo : rok (lo+2) r -> 0 <= ps <= lo -> lo < pe - 1 -> pe <= 65536 -> 0 <= c ->
  c + (pe - lo) < 2^32 ->
  run_contains_range_loop r ps pe c <= c + (pe - lo - 2).
Proof.
  revert c lo. induction r as [|[v l] r IH]; intros c lo H H1 H2 H3 H4 H5; cbn [run_contains_range_loop]; [lia|].
  cbn [rok] in H. destruct H as (C1&C2&C3&C4).
  destruct (Z.leb_spec pe v); [lia|]. destruct (Z.leb_spec pe (v+l)).
  - rewrite (u32_small (pe - v)) by lia. replace (0 <? pe - v) with true by lia. rewrite u32_small by lia. lia.
  - rewrite (u32_small (v + l - ps)) by lia. replace (0 <? v + l - ps) with true by lia.
    replace (v + l - ps <? l) with false by lia. rewrite u32_small by lia.
    destruct (Z_lt_dec (v+l) (pe-1)).
    + specialize (IH (c+l) (v+l) C4). lia.
    + destruct r as [|[v' l'] r]; cbn [run_contains_range_loop]; [lia|].
      cbn [rok] in C4. replace (pe <=? v') with true by lia. lia.
Qed.
Lemma run_contains_range_aux A v l B ps pe : rok 0 (A ++ (v,l)::B) -> v <= ps <= v + l -> 0 <= ps < pe -> pe <= 65536 ->
  (u32 (pe - ps - 1) <=? run_contains_range_loop ((v,l)::B) ps pe 0) = (cnt (rmem (A ++ (v,l)::B)) ps pe =? pe - ps).
Proof.
  intros H Hv Hp Hpe. rewrite (u32_small (pe-ps-1)) by lia.
  assert (F : forall y, 0 <= y -> _) by (intros y Hy; exact (rsplit_mem _ _ _ _ _ y H ltac:(lia))).
  apply rok_app in H. destruct H as [H1 H2]. cbn [rok] in H2. destruct H2 as (C1&C2&C3&C4). pose proof (rnext_ge _ _ H1).
  cbn [run_contains_range_loop]. replace (pe <=? v) with false by lia. cbn [negb].
  assert (Fcov : pe - 1 <= v + l -> (cnt (rmem (A ++ (v,l)::B)) ps pe =? pe - ps) = true).
  { intros. rewrite cnt_full; [lia|lia|]. intros y Hy. rsimp. lia. }
  assert (Fun : v + l < pe - 1 -> (cnt (rmem (A ++ (v,l)::B)) ps pe =? pe - ps) = false).
  { intros. apply Z.eqb_neq. intros E. assert (E2 : rmem (A ++ (v,l)::B) (v+l+1) = true) by (apply (cnt_full_inv _ ps pe); auto; lia).
    rewrite rmem_app, rmem_cons in E2. pose proof (F (v+l+1)) as F1. destruct F1 as [F1 F2]; [lia|].
    rewrite F1, F2 in E2 by lia. unfold inrun in E2. cbn [fst snd] in E2. lia. }
  destruct (Z.leb_spec pe (v+l)).
  - rewrite (u32_small (pe-v)) by lia. replace (0 <? pe - v) with true by lia. rewrite u32_small by lia.
    rewrite Fcov by lia. lia.
  - assert (Hmin : (if 0 <? u32 (v + l - ps) then u32 (v + l - ps) else 0) = v + l - ps).
    { rewrite (u32_small (v+l-ps)) by lia. destruct (Z.ltb_spec 0 (v+l-ps)); lia. }
    rewrite Hmin. replace (if v + l - ps <? l then v + l - ps else l) with (v+l-ps) by (destruct (Z.ltb_spec (v+l-ps) l); lia).
    rewrite (u32_small (0 + (v+l-ps))) by lia.
    destruct (Z_lt_dec (v+l) (pe-1)).
    + rewrite Fun by lia. pose proof (contains_range_loop_bound B ps pe (0 + (v+l-ps)) (v+l) C4). lia.
    + rewrite Fcov by lia. destruct B as [|[v' l'] B]; cbn [run_contains_range_loop]; [lia|].
      cbn [rok] in C4. replace (pe <=? v') with true by lia. lia.
Qed.
Lemma run_contains_range_spec r ps pe : rwf r -> 0 <= ps < pe -> pe <= 65536 ->
  run_container_contains_range r ps pe = (cnt (rmem r) ps pe =? pe - ps).
Proof.
  intros H Hp Hpe. unfold run_container_contains_range. rewrite u16_small by lia. unfold rwf in *.
  assert (Fno : rmem r ps = false -> (cnt (rmem r) ps pe =? pe - ps) = false).
  { intros E. apply Z.eqb_neq. intros E2. assert (rmem r ps = true) by (apply (cnt_full_inv _ ps pe); auto; lia). congruence. }
  destruct (rpos_spec r ps 0 H) as [A l B ->|B -> HB|A v l B -> Hv HB].
  - zl. replace (zlen A <? 0) with false by lia. cbn [andb]. rewrite rskip_mid by auto.
    apply run_contains_range_aux; auto. apply rok_app in H. cbn [rok] in H. lia.
  - change (-1 <? 0) with true. cbn [andb]. change (- -1 - 2 =? -1) with true. cbn [orb].
    rewrite Fno; auto. destruct (rmem B ps) eqn:E; auto. apply rmem_In in E. destruct E as (v'&l'&E1&E2). specialize (HB _ _ E1). lia.
  - zl. replace (- (zlen A + 2) <? 0) with true by lia. cbn [andb].
    replace (- - (zlen A + 2) - 2) with (zlen A) by lia. replace (zlen A =? -1) with false by lia. cbn [orb].
    rewrite rnth_mid by auto. cbn [fst snd]. rewrite rskip_mid by auto.
    assert (Hr := H). apply rok_app in H. destruct H as [H1 H2]. cbn [rok] in H2. pose proof (rnext_ge _ _ H1).
    rewrite (u32_small (ps - v)) by lia. destruct (Z.ltb_spec l (ps - v)).
    + rewrite Fno; auto. pose proof (rsplit_mem _ _ _ _ _ ps Hr ltac:(lia)) as [F1 F2]. rsimp.
      rewrite F1 by lia. assert (rmem B ps = false) as ->; [|lia].
      destruct (rmem B ps) eqn:E; auto. apply rmem_In in E. destruct E as (v'&l'&E1&E2). specialize (HB _ _ E1). lia.
    + apply run_contains_range_aux; auto. lia.
Qed.

(** ** extrema, rank, select *)
Lemma rnth_0 x r : rnth (x::r) 0 = x. Proof. reflexivity. Qed.
Lemma run_minimum_spec r : rwf r -> r <> [] ->
  let m := run_container_minimum r in rmem r m = true /\ forall x, rmem r x = true -> m <= x.
Proof.
  intros H Hn. destruct r as [|[v l] r]; [congruence|]. cbn zeta. unfold rwf in H. cbn [rok] in H. destruct H as (H1&H2&H3&H4).
  unfold run_container_minimum. rewrite zlen_cons. pose proof (zlen_nonneg r). replace (zlen r + 1 =? 0) with false by lia.
  rewrite rnth_0. cbn [fst]. split.
  - rsimp. lia.
  - intros x Hx. pose proof (rmem_lo _ _ x H4) as F. rewrite rmem_cons in Hx. unfold inrun in Hx. cbn [fst snd] in Hx. lia.
Qed.
Lemma run_maximum_spec r : rwf r -> r <> [] ->
  let m := run_container_maximum r in rmem r m = true /\ forall x, rmem r x = true -> x <= m.
Proof.
  intros H Hn. destruct (snoc_cases r) as [->|(A&[v l]&->)]; [congruence|]. cbn zeta.
  unfold run_container_maximum. zl. replace (zlen A + (0 + 1) =? 0) with false by lia.
  rewrite rnth_mid by lia. cbn [fst snd].
  assert (F : forall y, 0 <= y -> _) by (intros y Hy; exact (rsplit_mem _ _ _ _ _ y H ltac:(lia))).
  assert (Hr := H). apply rok_app in H. destruct H as [H1 H2]. cbn [rok] in H2. pose proof (rnext_ge _ _ H1). rewrite u16_small by lia. split.
  - rsimp. lia.
  - intros x Hx. pose proof (rmem_range _ _ _ Hr Hx). specialize (F x ltac:(lia)).
    rewrite rmem_app, rmem_cons, rmem_nil in Hx. unfold inrun in Hx. cbn [fst snd] in Hx. lia.
Qed.
(** index_equalorlarger: index of the first run with a value >= k *)
Lemma run_index_eol_spec r k : rwf r -> 0 <= k < 65536 ->
  let i := run_container_index_equalorlarger r k in
  (i = -1 /\ (forall y, k <= y -> rmem r y = false)) \/
  (exists A v l B, r = A ++ (v,l) :: B /\ i = zlen A /\ k <= v + l /\ (forall v' l', In (v',l') A -> v' + l' < k)).
Proof.
  intros H Hk. cbn zeta. unfold run_container_index_equalorlarger. unfold rwf in H.
  assert (Hpre : forall A v l B, rok 0 (A ++ (v,l)::B) -> forall v' l', In (v',l') A -> v' + l' < v).
  { intros A v l B Hr v' l' Hx. apply rok_app in Hr. destruct Hr as [R1 R2]. cbn [rok] in R2.
    apply in_split in Hx. destruct Hx as (A1&A2&->). apply rok_app in R1. destruct R1 as [R1 R3].
    rewrite rnext_app in R2. cbn [rnext] in R2. cbn [rok] in R3. destruct R3 as (_&_&_&R3).
    pose proof (rnext_ge _ _ R3). lia. }
  destruct (rpos_spec r k 0 H) as [A l B ->|B -> HB|A v l B -> Hv HB].
  - right. zl. replace (0 <=? zlen A) with true by lia. exists A, k, l, B. repeat split; auto.
    + apply rok_app in H. cbn [rok] in H. lia.
    + intros v' l' Hx. eapply Hpre; eauto.
  - change (0 <=? -1) with false. change (- -1 - 2 =? -1) with true. cbn [negb andb].
    change (- -1 - 2 + 1) with 0. destruct B as [|[v l] B].
    + left. split; auto.
    + right. rewrite zlen_cons. pose proof (zlen_nonneg B). replace (0 <? zlen B + 1) with true by lia.
      exists [], v, l, B. cbn [app]. repeat split; auto; [|intros ? ? []].
      specialize (HB v l (or_introl eq_refl)). cbn [rok] in H. lia.
  - zl. replace (0 <=? - (zlen A + 2)) with false by lia. replace (- - (zlen A + 2) - 2) with (zlen A) by lia.
    replace (zlen A =? -1) with false by lia. cbn [negb andb]. rewrite rnth_mid by auto. cbn [fst snd].
    destruct (Z.leb_spec (k - v) l).
    + right. exists A, v, l, B. repeat split; auto; [lia|]. intros v' l' Hx. pose proof (Hpre _ _ _ _ H _ _ Hx). lia.
    + destruct B as [|[v2 l2] B].
      * left. change (zlen (@nil run)) with 0. replace (zlen A + 1 <? zlen A + (0+1)) with false by lia. split; auto.
        intros y Hy. pose proof (rsplit_mem _ _ _ _ _ y H ltac:(lia)). rsimp. lia.
      * right. rewrite zlen_cons. pose proof (zlen_nonneg B).
        replace (zlen A + 1 <? zlen A + (zlen B + 1 + 1)) with true by lia.
        exists (A ++ [(v,l)]), v2, l2, B. rewrite <- app_assoc. split; auto. rewrite zlen_app. split; auto.
        assert (k < v2) by (apply (HB v2 l2); cbn; auto). split.
        -- apply rok_app in H. cbn [rok] in H. lia.
        -- intros v' l' Hx. apply in_app_or in Hx. destruct Hx as [Hx|[Hx|[]]].
           ++ pose proof (Hpre _ _ _ _ H _ _ Hx). lia.
           ++ inversion Hx. subst. lia.
Qed.
Lemma run_rank_loop_spec r x s lo : rok lo r -> run_rank_loop r x s = s + cnt (rmem r) lo (x+1).
Proof.
  revert s lo. induction r as [|[v l] r IH]; intros s lo H; cbn [run_rank_loop].
  - rewrite cnt_none; auto. lia.
  - cbn [rok] in H. destruct H as (H1&H2&H3&H4). destruct (Z.leb_spec x (v+l)).
    + destruct (Z.ltb_spec x v).
      * rewrite cnt_none; [lia|]. intros y Hy. rsimp. rewrite (rmem_lo _ _ _ H4) by lia. lia.
      * rewrite (cnt_app _ lo v (x+1)) by lia. rewrite cnt_none, cnt_full; try lia.
        -- intros y Hy. rsimp. lia.
        -- intros y Hy. rsimp. rewrite (rmem_lo _ _ _ H4) by lia. lia.
    + rewrite cnt_run_cons by (auto; lia). rewrite (IH _ _ H4).
      destruct (Z_le_dec (v+l+2) (x+1)).
      * rewrite (cnt_run_ge r (v+l+1) (v+l+2)) by (auto; lia). lia.
      * lia.
Qed.
Lemma run_rank_spec r x : rwf r -> run_container_rank r x = cnt (rmem r) 0 (x+1).
Proof. intros H. unfold run_container_rank. rewrite (run_rank_loop_spec r x 0 0) by auto. lia. Qed.
Lemma run_get_index_loop_spec r x s lo : rok lo r -> rmem r x = true -> run_get_index_loop r x s = s + cnt (rmem r) lo x.
Proof.
  intros H Hm. assert (run_get_index_loop r x s = run_rank_loop r x s - 1) as ->.
  { clear H Hm. revert s. induction r as [|[v l] r IH]; intros s; cbn; [lia|].
    destruct (x <=? v + l); [destruct (x <? v); lia|apply IH]. }
  rewrite (run_rank_loop_spec r x s lo) by auto. pose proof (rmem_range _ _ _ H Hm).
  rewrite cnt_snoc by lia. rewrite Hm. lia.
Qed.
Lemma run_get_index_spec r x : rwf r -> run_container_get_index r x = if rmem r x then cnt (rmem r) 0 x else -1.
Proof.
  intros H. unfold run_container_get_index. rewrite run_contains_spec by auto. destruct (rmem r x) eqn:E; auto.
  rewrite (run_get_index_loop_spec r x 0 0) by auto. lia.
Qed.
Lemma run_rank_many_step_spec r s x sr lo : rok lo r -> lo <= 65537 -> x < 65536 ->
  exists r' s' lo', run_rank_many_step r s x sr = (r', s', sr + s + cnt (rmem r) lo (x+1)) /\ rok lo' r' /\ lo' <= 65537 /\
    forall y, x <= y < 65536 -> s' + cnt (rmem r') lo' (y+1) = s + cnt (rmem r) lo (y+1).
Proof.
  revert s lo. induction r as [|[v l] r IH]; intros s lo H Hlo Hx; cbn [run_rank_many_step].
  - exists [], s, lo. split; [|auto]. rewrite cnt_none by auto. f_equal. lia.
  - assert (Hr := H). pose proof (run_rank_loop_spec ((v,l)::r) x s lo H) as HR. cbn [run_rank_loop] in HR.
    cbn [rok] in H. destruct H as (H1&H2&H3&H4). destruct (Z.leb_spec x (v+l)).
    + destruct (Z.ltb_spec x v); exists ((v,l)::r), s, lo; (split; [f_equal; lia|auto]).
    + destruct (IH (s+l+1) _ H4) as (r'&s'&lo'&E&R&L&G); try lia.
      rewrite (run_rank_loop_spec r x _ _ H4) in HR.
      exists r', s', lo'. split; [|split; [auto|split; [auto|]]].
      * rewrite E. f_equal. lia.
      * intros y Hy. rewrite G by auto.
        rewrite <- (run_rank_loop_spec ((v,l)::r) y s lo Hr). rewrite <- (run_rank_loop_spec r y _ _ H4).
        cbn [run_rank_loop]. replace (y <=? v+l) with false by lia. reflexivity.
Qed.
Lemma run_rank_many_loop_spec qs r high sr s lo m :
  rok lo r -> lo <= 65537 -> Sorted Z.le qs -> (forall q, In q qs -> 0 <= q) ->
  (forall q, In q qs -> Z.shiftr q 16 = high -> m <= q mod 65536) ->
  forall r0, (forall y, m <= y < 65536 -> s + cnt (rmem r) lo (y+1) = cnt (rmem r0) 0 (y+1)) ->
  run_rank_many_loop r high sr s qs = map (fun q => sr + cnt (rmem r0) 0 (q mod 65536 + 1)) (same_key_prefix high qs).
Proof.
  revert r s lo m. induction qs as [|q qs IH]; intros r s lo m H Hlo Hs H0 Hm r0 HG; cbn [run_rank_many_loop same_key_prefix]; auto.
  destruct (Z.eqb_spec (Z.shiftr q 16) high) as [E|E]; cbn [negb]; auto.
  destruct (run_rank_many_step_spec r s (q mod 65536) sr lo H Hlo) as (r'&s'&lo'&E1&R&L&G); [dm|].
  rewrite E1. cbn [map]. f_equal.
  - rewrite <- HG; [lia|]. specialize (Hm q (or_introl eq_refl) E). dm.
  - apply (IH r' s' lo' (q mod 65536)); auto.
    + now apply Sorted_inv in Hs.
    + intros q' Hq. apply H0. now right.
    + intros q' Hq Eq. apply Sorted_StronglySorted in Hs; [|intros a b c; lia].
      apply StronglySorted_inv in Hs. destruct Hs as [_ Hs]. rewrite Forall_forall in Hs. specialize (Hs _ Hq).
      rewrite Z.shiftr_div_pow2 in E, Eq by lia. change (2^16) with 65536 in *.
      pose proof (H0 q (or_introl eq_refl)). pose proof (H0 q' (or_intror Hq)). dm.
    + intros y Hy. rewrite G by lia. apply HG. specialize (Hm q (or_introl eq_refl) E). lia.
Qed.
Lemma run_rank_many_spec r sr q qs : rwf r ->
  Sorted Z.le (q::qs) -> (forall q', In q' (q::qs) -> 0 <= q') ->
  run_container_rank_many r sr (q::qs) =
  map (fun q => sr + cnt (rmem r) 0 (q mod 65536 + 1)) (same_key_prefix (Z.shiftr q 16) (q::qs)).
Proof.
  intros H Hs H0. unfold run_container_rank_many. apply (run_rank_many_loop_spec _ _ _ _ _ 0 0); auto; try lia.
Qed.
Lemma run_select_aux r sr rank lo : rok lo r -> 0 <= lo <= 65537 -> 0 <= sr <= rank -> rank < 2^32 ->
  sr + cnt (rmem r) lo 65536 <= 2^32 ->
  if rank <? sr + cnt (rmem r) lo 65536 then
    exists x, lo <= x < 65536 /\ fst (run_container_select r sr rank) = Some x /\ rmem r x = true /\ cnt (rmem r) lo x = rank - sr
  else run_container_select r sr rank = (None, sr + cnt (rmem r) lo 65536).
Proof.
  revert sr lo. induction r as [|[v l] r IH]; intros sr lo H Hlo Hsr Hr Hb; cbn [run_container_select].
  - rewrite cnt_none in * by auto. replace (rank <? sr + 0) with false by lia. f_equal. lia.
  - cbn [rok] in H. destruct H as (H1&H2&H3&H4). rewrite cnt_run_cons in * by (auto; lia).
    assert (E : cnt (rmem r) (v+l+1) 65536 = cnt (rmem r) (v+l+2) 65536).
    { destruct (Z_le_dec (v+l+2) 65536); [apply cnt_run_ge; auto; lia|]. rewrite !cnt_nil by lia. lia. }
    rewrite E in *. assert (0 <= cnt (rmem r) (v+l+2) 65536) by (unfold cnt; apply zlen_nonneg).
    rewrite (u32_small (sr + l)) by lia. destruct (Z.leb_spec rank (sr+l)).
    + replace (rank <? _) with true by lia. exists (v + rank - sr). cbn [fst]. rewrite u32_small by lia.
      split; [lia|]. split; auto. split; [rsimp; lia|].
      rewrite (cnt_app _ lo v (v+rank-sr)) by lia. rewrite cnt_none, cnt_full; try lia.
      * intros y Hy. rsimp. lia.
      * intros y Hy. rsimp. rewrite (rmem_lo _ _ _ H4) by lia. lia.
    + specialize (IH (sr+l+1) (v+l+2) H4 ltac:(lia) ltac:(lia) Hr ltac:(lia)).
      replace (sr + (l + 1 + cnt (rmem r) (v+l+2) 65536)) with (sr + l + 1 + cnt (rmem r) (v+l+2) 65536) by lia.
      rewrite u32_small by lia. destruct (rank <? sr + l + 1 + cnt (rmem r) (v+l+2) 65536); auto.
      destruct IH as (x&X1&X2&X3&X4). exists x. split; [lia|]. split; auto. split; [rewrite rmem_cons, X3; apply orb_true_r|].
      rewrite cnt_run_cons by (auto; lia). rewrite (cnt_run_ge r (v+l+1) (v+l+2)) by (auto; lia). lia.
Qed.
Lemma run_select_spec r sr rank : rwf r -> 0 <= sr <= rank -> rank < 2^32 -> sr + rcard r <= 2^32 ->
  if rank <? sr + rcard r then
    exists x, 0 <= x < 65536 /\ fst (run_container_select r sr rank) = Some x /\ rmem r x = true /\ cnt (rmem r) 0 x = rank - sr
  else run_container_select r sr rank = (None, sr + rcard r).
Proof.
  intros H1 H2 H3 H4. assert (E : rcard r = cnt (rmem r) 0 65536) by reflexivity. rewrite E in *.
  pose proof (run_select_aux r sr rank 0 H1 ltac:(lia) H2 H3 H4) as G. exact G.
Qed.

(** ** comparison, listing, validation, ranges *)
Lemma run_equals_spec r1 r2 : rwf r1 -> rwf r2 ->
  (run_container_equals r1 r2 = true <-> (forall y, 0 <= y < 65536 -> rmem r1 y = rmem r2 y)).
Proof.
  intros H1 H2. unfold run_container_equals. split.
  - destruct (negb (zlen r1 =? zlen r2)); [discriminate|]. destruct (list_eq_dec run_eq_dec r1 r2); [now subst|discriminate].
  - intros E. assert (r1 = r2) as ->.
    { apply (rok_unique 0); auto. intros y. destruct (Z_le_dec 0 y); [destruct (Z_lt_dec y 65536)|].
      - apply E. lia.
      - rewrite !rmem_oob by (auto; lia). reflexivity.
      - rewrite !rmem_oob by (auto; lia). reflexivity. }
    rewrite Z.eqb_refl. cbn [negb]. destruct (list_eq_dec run_eq_dec r2 r2); congruence.
Qed.
Lemma run_is_subset_loop_spec fuel r1 r2 lo1 lo2 : rok lo1 r1 -> rok lo2 r2 ->
  (length r1 + length r2 < fuel)%nat ->
  (run_is_subset_loop fuel r1 r2 = true <-> (forall y, rmem r1 y = true -> rmem r2 y = true)).
Proof.
  revert r1 r2 lo1 lo2. induction fuel; intros r1 r2 lo1 lo2 H1 H2 Hf; [lia|]. cbn [run_is_subset_loop].
  destruct r1 as [|[s1 l1] r1].
  - split; auto. intros _ y Hy. discriminate.
  - destruct r2 as [|[s2 l2] r2].
    + cbn [rok] in H1. split; [discriminate|]. intros F. specialize (F s1). rewrite rmem_nil in F. discriminate F.
      rsimp. lia.
    + assert (R1 := H1). assert (R2 := H2). cbn [rok] in H1, H2.
      destruct H1 as (A1&A2&A3&A4), H2 as (B1&B2&B3&B4). cbn [length] in Hf.
      destruct (Z.ltb_spec s1 s2).
      * split; [discriminate|]. intros F. specialize (F s1). rewrite !rmem_cons in F. unfold inrun in F. cbn [fst snd] in F.
        rewrite (rmem_lo _ r2 _ B4) in F by lia. lia.
      * destruct (Z.ltb_spec (s1+l1) (s2+l2)).
        -- rewrite (IHfuel r1 ((s2,l2)::r2) _ _ A4 R2) by (cbn [length]; lia). split; intros F y Hy.
           ++ rewrite rmem_cons in Hy. apply orb_prop in Hy. destruct Hy as [Hy|Hy]; auto.
              unfold inrun in Hy. cbn [fst snd] in Hy. rsimp. lia.
           ++ apply F. rewrite rmem_cons, Hy. apply orb_true_r.
        -- destruct (Z.eqb_spec (s1+l1) (s2+l2)).
           ++ rewrite (IHfuel r1 r2 _ _ A4 B4) by lia. split; intros F y Hy.
              ** rewrite rmem_cons in Hy |- *. apply orb_prop in Hy. destruct Hy as [Hy|Hy].
                 --- unfold inrun in Hy |- *. cbn [fst snd] in *. lia.
                 --- rewrite (F _ Hy). apply orb_true_r.
              ** specialize (F y). rewrite !rmem_cons, Hy in F. specialize (F (orb_true_r _)).
                 pose proof (rmem_range _ _ _ A4 Hy). unfold inrun in F. cbn [fst snd] in F. lia.
           ++ rewrite (IHfuel ((s1,l1)::r1) r2 _ _ R1 B4) by (cbn [length]; lia). split; intros F y Hy.
              ** rewrite rmem_cons. rewrite (F _ Hy). apply orb_true_r.
              ** pose proof (F y Hy) as F1. rewrite rmem_cons in F1. apply orb_prop in F1. destruct F1 as [F1|F1]; auto.
                 (* y in the run [s2,s2+l2]: then s2+l2+1 is in r1 but not in r2 *)
                 exfalso. unfold inrun in F1. cbn [fst snd] in F1.
                 assert (s1 <= s2 + l2).
                 { pose proof (rmem_lo _ _ y A4). rewrite rmem_cons in Hy. unfold inrun in Hy. cbn [fst snd] in Hy. lia. }
                 assert (G : rmem ((s2,l2)::r2) (s2+l2+1) = true) by (apply F; rsimp; lia).
                 rewrite rmem_cons in G. rewrite (rmem_lo _ r2 _ B4) in G by lia. unfold inrun in G. cbn [fst snd] in G. lia.
Qed.
Lemma run_is_subset_spec r1 r2 : rwf r1 -> rwf r2 ->
  (run_container_is_subset r1 r2 = true <-> (forall y, rmem r1 y = true -> rmem r2 y = true)).
Proof. intros. apply (run_is_subset_loop_spec _ _ _ 0 0); auto. Qed.
Lemma filter_rmem_run v l r : rok (v+l+2) r -> 0 <= l ->
  filter (rmem ((v,l)::r)) (zr v (v+l+1)) = zr v (v+l+1).
Proof. intros. apply filter_all. intros y Hy. apply zr_In in Hy. rsimp. lia. Qed.
Lemma run_to_array_aux r base lo : rok lo r -> lo <= 65537 ->
  run_container_to_uint32_array r base = map (fun x => x + base) (filter (rmem r) (zr lo 65536)).
Proof.
  revert lo. induction r as [|[v l] r IH]; intros lo H Hlo.
  - rewrite filter_none by auto. reflexivity.
  - cbn [rok] in H. destruct H as (H1&H2&H3&H4). unfold run_container_to_uint32_array. cbn [flat_map].
    fold (run_container_to_uint32_array r base). rewrite (IH _ H4) by lia. cbn [fst snd].
    rewrite (zr_app lo v 65536) by lia. rewrite (zr_app v (v+l+1) 65536) by lia. rewrite !filter_app.
    rewrite (filter_none _ (zr lo v)).
    2:{ intros y Hy. apply zr_In in Hy. rsimp. rewrite (rmem_lo _ r _ H4) by lia. lia. }
    rewrite filter_rmem_run by auto. cbn [app]. rewrite map_app. f_equal.
    + assert (map (fun j => base + v + j) (zr 0 (l+1)) = zr (base+v+0) (base+v+(l+1))) as -> by apply zr_map_add.
      assert (map (fun x => x + base) (zr v (v+l+1)) = map (fun x => base + x) (zr v (v+l+1))) as ->.
      { apply map_ext. intros. lia. }
      rewrite zr_map_add. f_equal; lia.
    + f_equal. destruct (Z_le_dec (v+l+2) 65536).
      * rewrite (zr_app (v+l+1) (v+l+2) 65536) by lia. rewrite filter_app.
        rewrite (filter_none _ (zr (v+l+1) (v+l+2))).
        2:{ intros y Hy. apply zr_In in Hy. rsimp. rewrite (rmem_lo _ r _ H4) by lia. lia. }
        cbn [app]. apply filter_ext_In. intros y Hy. apply zr_In in Hy. rsimp. lia.
      * rewrite !zr_nil by lia. reflexivity.
Qed.
Lemma run_to_array_spec r base : rwf r ->
  run_container_to_uint32_array r base = map (fun x => x + base) (filter (rmem r) (zr 0 65536)).
Proof. intros. apply run_to_array_aux; auto. lia. Qed.
Lemma run_validate_loop_spec r le : 0 <= le -> Forall (fun x => 0 <= fst x < 65536 /\ 0 <= snd x < 65536) r ->
  (run_validate_loop r le = true <-> rok (if le =? 0 then 0 else le + 1) r).
Proof.
  revert le. induction r as [|[v l] r IH]; intros le Hle Hr; cbn [run_validate_loop rok]; [tauto|].
  inversion Hr as [|? ? Hx Hr']; subst. cbn [fst snd] in Hx.
  destruct (Z.leb_spec (v+l+1) v); [lia|]. destruct (Z.ltb_spec 65536 (v+l+1)).
  { split; [discriminate|intuition lia]. }
  destruct (Z.ltb_spec v le).
  { split; [discriminate|]. destruct (Z.eqb_spec le 0); intuition lia. }
  destruct (Z.eqb_spec le 0).
  - rewrite andb_false_r. rewrite IH by (auto; lia). replace (v+l+1 =? 0) with false by lia.
    replace (v+l+1+1) with (v+l+2) by lia. intuition lia.
  - cbn [negb]. rewrite andb_true_r. destruct (Z.eqb_spec v le).
    + split; [discriminate|intuition lia].
    + rewrite IH by (auto; lia). replace (v+l+1 =? 0) with false by lia.
      replace (v+l+1+1) with (v+l+2) by lia. intuition lia.
Qed.
Lemma run_validate_spec r : Forall (fun x => 0 <= fst x < 65536 /\ 0 <= snd x < 65536) r ->
  (run_container_validate r = true <-> rwf r /\ r <> []).
Proof.
  intros H. unfold run_container_validate. destruct r as [|x r].
  - cbn. split; [discriminate|tauto].
  - rewrite zlen_cons. pose proof (zlen_nonneg r). replace (zlen r + 1 =? 0) with false by lia.
    rewrite run_validate_loop_spec by (auto; lia). cbn [Z.eqb]. split; [intros; split; auto; discriminate|tauto].
Qed.
Lemma run_create_range_spec s e : 0 <= s < e -> e <= 65536 ->
  rwf (run_container_create_range s e) /\ (forall y, rmem (run_container_create_range s e) y = (s <=? y) && (y <? e)).
Proof.
  intros. unfold run_container_create_range. rewrite !u16_small by lia. split.
  - unfold rwf. cbn [rok]. intuition lia.
  - intros y. rsimp. lia.
Qed.

(** ** merging loops *)
Lemma append_run_spec D p vl lo : rok lo (D ++ [p]) -> 0 <= lo -> fst p <= fst vl -> 0 <= snd vl -> fst vl + snd vl < 65536 ->
  exists D' p', run_container_append (D ++ [p]) vl p = (D' ++ [p'], p') /\ rok lo (D' ++ [p']) /\
    fst p' <= fst vl /\ forall y, rmem (D' ++ [p']) y = rmem (D ++ [p]) y || inrun vl y.
Proof.
  destruct p as [pv pl], vl as [v l]. cbn [fst snd]. intros H Hlo H1 H2 H3.
  unfold run_container_append. cbn [fst snd].
  assert (Hr := H). apply rok_app in H. destruct H as [R1 R2]. cbn [rok] in R2. pose proof (rnext_ge _ _ R1).
  destruct (Z.ltb_spec (pv + pl + 1) v).
  - exists (D ++ [(pv,pl)]), (v,l). split; auto. split.
    + apply rok_app. split; auto. rewrite rnext_app. cbn [rnext rok]. intuition lia.
    + split; [cbn; lia|]. intros y. rsimp. lia.
  - destruct (Z.ltb_spec (pv+pl) (v+l+1)).
    + exists D, (pv, v + l - pv). rewrite u16_small by lia. replace (v+l+1-1-pv) with (v+l-pv) by lia.
      rewrite set_last_mid. split; auto. split.
      * apply rok_app. split; auto. cbn [rok]. intuition lia.
      * split; [cbn; lia|]. intros y. rsimp. lia.
    + exists D, (pv,pl). split; auto. split; auto. split; [cbn; lia|]. intros y. rsimp. lia.
Qed.
Lemma append_value_spec D p val lo : rok lo (D ++ [p]) -> 0 <= lo -> fst p <= val < 65536 ->
  exists D' p', run_container_append_value (D ++ [p]) val p = (D' ++ [p'], p') /\ rok lo (D' ++ [p']) /\
    fst p' <= val /\ forall y, rmem (D' ++ [p']) y = rmem (D ++ [p]) y || (y =? val).
Proof.
  destruct p as [pv pl]. cbn [fst snd]. intros H Hlo H1.
  unfold run_container_append_value. cbn [fst snd].
  assert (Hr := H). apply rok_app in H. destruct H as [R1 R2]. cbn [rok] in R2. pose proof (rnext_ge _ _ R1).
  destruct (Z.ltb_spec (pv + pl + 1) val).
  - exists (D ++ [(pv,pl)]), (val,0). split; auto. split.
    + apply rok_app. split; auto. rewrite rnext_app. cbn [rnext rok]. intuition lia.
    + split; [cbn; lia|]. intros y. rsimp. lia.
  - destruct (Z.eqb_spec val (pv+pl+1)).
    + exists D, (pv, pl+1). rewrite u16_small by lia.
      rewrite set_last_mid. split; auto. split.
      * apply rok_app. split; auto. cbn [rok]. intuition lia.
      * split; [cbn; lia|]. intros y. rsimp. lia.
    + exists D, (pv,pl). split; auto. split; auto. split; [cbn; lia|]. intros y. rsimp. lia.
Qed.
Lemma run_union_loop_spec fuel D p r1 r2 : rok 0 (D ++ [p]) -> rok (fst p) r1 -> rok (fst p) r2 ->
  (length r1 + length r2 < fuel)%nat ->
  let u := run_union_loop fuel (D ++ [p]) p r1 r2 in
  rok 0 u /\ u <> [] /\ forall y, rmem u y = rmem (D ++ [p]) y || rmem r1 y || rmem r2 y.
Proof.
  revert D p r1 r2. induction fuel; intros D p r1 r2 H H1 H2 Hf; [lia|]. cbn zeta. cbn [run_union_loop].
  assert (Step : forall x r1' r2', 0 <= snd x -> fst x + snd x < 65536 -> fst p <= fst x -> rok (fst x) r1' -> rok (fst x) r2' ->
     (length r1' + length r2' < fuel)%nat ->
     let u := (let '(dst', prev') := run_container_append (D ++ [p]) x p in run_union_loop fuel dst' prev' r1' r2') in
     rok 0 u /\ u <> [] /\ forall y, rmem u y = rmem (D ++ [p]) y || inrun x y || rmem r1' y || rmem r2' y).
  { intros x r1' r2' X1 X2 X3 X4 X5 X6. destruct (append_run_spec D p x 0 H) as (D'&p'&E&R&P&M); auto; try lia.
    cbn zeta. rewrite E. destruct (IHfuel D' p' r1' r2') as (U1&U2&U3); auto.
    - eapply rok_weaken; [|eauto]; lia.
    - eapply rok_weaken; [|eauto]; lia.
    - split; auto. split; auto. intros y. rewrite U3, M. reflexivity. }
  destruct r1 as [|[v1 l1] r1], r2 as [|[v2 l2] r2]; cbn [length] in Hf.
  - split; auto. split; [destruct D; discriminate|]. intros y. rsimp. now rewrite !orb_false_r.
  - cbn [rok] in H2. destruct (Step (v2,l2) [] r2) as (U1&U2&U3); cbn [fst snd] in *; try (intuition lia); [cbn; auto|..].
    { eapply rok_weaken; [|apply H2]. lia. } { cbn [length]. lia. }
    split; auto. split; auto. intros y. rewrite U3. rsimp. btauto.
  - cbn [rok] in H1. destruct (Step (v1,l1) r1 []) as (U1&U2&U3); cbn [fst snd] in *; try (intuition lia); [|cbn; auto|..].
    { eapply rok_weaken; [|apply H1]. lia. } { cbn [length]. lia. }
    split; auto. split; auto. intros y. rewrite U3. rsimp. btauto.
  - cbn [fst]. assert (H1' := H1). assert (H2' := H2). cbn [rok] in H1, H2. destruct (Z.leb_spec v1 v2).
    + destruct (Step (v1,l1) r1 ((v2,l2)::r2)) as (U1&U2&U3); cbn [fst snd] in *; try (intuition lia).
      { eapply rok_weaken; [|apply H1]. lia. } { cbn [rok]. intuition lia. } { cbn [length]. lia. }
      split; auto. split; auto. intros y. rewrite U3. rsimp. btauto.
    + destruct (Step (v2,l2) ((v1,l1)::r1) r2) as (U1&U2&U3); cbn [fst snd] in *; try (intuition lia).
      { cbn [rok]. intuition lia. } { eapply rok_weaken; [|apply H2]. lia. } { cbn [length]. lia. }
      split; auto. split; auto. intros y. rewrite U3. rsimp. btauto.
Qed.
Lemma is_full_spec r : rwf r -> run_container_is_full r = true -> r = [(0,65535)].
Proof.
  intros H. unfold run_container_is_full. destruct r as [|[v l] r]; [discriminate|].
  rewrite zlen_cons, rnth_0. cbn [fst snd]. intros E. pose proof (zlen_nonneg r).
  assert (zlen r = 0) by lia. apply zlen_0_nil in H1. subst r. do 2 f_equal; lia.
Qed.
Lemma rmem_full y : rmem [(0,65535)] y = (0 <=? y) && (y <? 65536).
Proof. rsimp. lia. Qed.
Lemma is_full_iff r : rwf r -> (run_container_is_full r = true <-> (forall y, 0 <= y < 65536 -> rmem r y = true)).
Proof.
  intros H. split.
  - intros E. rewrite (is_full_spec r H E). intros y Hy. rewrite rmem_full. lia.
  - intros E. assert (r = [(0,65535)]) as ->; [|reflexivity].
    apply (rok_unique 0); auto. { cbn [rok]. intuition lia. }
    intros y. rewrite rmem_full. destruct (Z_le_dec 0 y); [destruct (Z_lt_dec y 65536)|].
    + rewrite E by lia. lia.
    + rewrite rmem_oob by (auto; lia). lia.
    + rewrite rmem_oob by (auto; lia). lia.
Qed.
Lemma run_union_spec r1 r2 : rwf r1 -> rwf r2 -> r1 <> [] -> r2 <> [] ->
  rwf (run_container_union r1 r2) /\ run_container_union r1 r2 <> [] /\
  forall y, 0 <= y < 65536 -> rmem (run_container_union r1 r2) y = rmem r1 y || rmem r2 y.
Proof.
  intros H1 H2 N1 N2. unfold run_container_union.
  destruct (run_container_is_full r1) eqn:F1.
  { split; auto. split; auto. intros y Hy. rewrite (is_full_spec _ H1 F1), rmem_full. replace (0 <=? y) with true by lia. replace (y <? 65536) with true by lia. reflexivity. }
  destruct (run_container_is_full r2) eqn:F2.
  { split; auto. split; auto. intros y Hy. rewrite (is_full_spec _ H2 F2), rmem_full.  replace (0 <=? y) with true by lia. replace (y <? 65536) with true by lia. now rewrite orb_true_r. }
  destruct r1 as [|[v1 l1] r1]; [congruence|]. destruct r2 as [|[v2 l2] r2]; [congruence|].
  rewrite !rnth_0. cbn [fst]. change (rskip 1 ((v1,l1)::r1)) with r1. change (rskip 1 ((v2,l2)::r2)) with r2.
  unfold run_container_append_first. unfold rwf in *. assert (R1 := H1). assert (R2 := H2). cbn [rok] in H1, H2.
  destruct (Z.leb_spec v1 v2).
  - destruct (run_union_loop_spec (S (length ((v1,l1)::r1) + length ((v2,l2)::r2))) [] (v1,l1) r1 ((v2,l2)::r2)) as (U1&U2&U3).
    { cbn [app rok]. intuition lia. } { eapply rok_weaken; [|apply H1]. cbn. lia. } { cbn [rok fst]. intuition lia. } { cbn [length]. lia. }
    split; auto. split; auto. intros y _. etransitivity; [apply U3|]. cbn [app]. rsimp. btauto.
  - destruct (run_union_loop_spec (S (length ((v1,l1)::r1) + length ((v2,l2)::r2))) [] (v2,l2) ((v1,l1)::r1) r2) as (U1&U2&U3).
    { cbn [app rok]. intuition lia. } { cbn [rok fst]. intuition lia. } { eapply rok_weaken; [|apply H2]. cbn. lia. } { cbn [length]. lia. }
    split; auto. split; auto. intros y _. etransitivity; [apply U3|]. cbn [app]. rsimp. btauto.
Qed.

(** smart_append_exclusive *)
Lemma smart_append_spec dst s len : rok 0 dst -> 0 <= s -> 0 <= len -> s + len < 65536 ->
  Forall (fun x => fst x <= s) dst ->
  let E := rnext 0 dst - 1 in let N := s + len + 1 in
  let dst' := run_container_smart_append_exclusive dst s len in
  rok 0 dst' /\ (forall y, 0 <= y -> rmem dst' y = xorb (rmem dst y) ((s <=? y) && (y <=? s + len))) /\
  Forall (fun x => fst x <= (if (s <? E) then Z.min E N else s)) dst' /\
  (let E' := rnext 0 dst' - 1 in if E <=? s then E' = N else if E =? N then E' <= s else E' = Z.max E N).
Proof.
  intros H Hs Hl Hsl HF. cbn zeta. unfold run_container_smart_append_exclusive.
  destruct (snoc_cases dst) as [->|(D&[v l]&->)].
  - change (zlen (@nil run) =? 0) with true. cbn [orb app rnext]. split; [cbn [rok]; intuition lia|]. split.
    + intros y Hy. rsimp. lia.
    + split.
      * constructor; auto. cbn [fst]. replace (s <? 0 - 1) with false by lia. lia.
      * replace (0 - 1 <=? s) with true by lia. intuition lia.
  - zl. replace (zlen D + (0+1) =? 0) with false by lia. cbn [orb].
    rewrite rnth_mid by lia. cbn [fst snd]. rewrite rnext_app. cbn [rnext].
    assert (F : forall y, 0 <= y -> _) by (intros y Hy; exact (rsplit_mem _ _ _ _ _ y H ltac:(lia))).
    assert (Hr := H). apply rok_app in H. destruct H as [R1 R2]. cbn [rok] in R2. destruct R2 as (C1&C2&C3&_).
    pose proof (rnext_ge _ _ R1). apply Forall_app in HF. destruct HF as [HF1 HF2].
    inversion HF2 as [|? ? Hv _]; subst. cbn [fst] in Hv. clear HF2.
    assert (HFD : forall m, v <= m + 1 -> Forall (fun x : run => fst x <= m) D).
    { intros m Hm. apply Forall_forall. intros [v' l'] Hx. cbn [fst].
      apply in_split in Hx. destruct Hx as (D1&D2&->). apply rok_app in R1. destruct R1 as [_ R1].
      rewrite rnext_app in C1. cbn [rnext] in C1. cbn [rok] in R1. pose proof (rnext_ge _ _ (proj2 (proj2 (proj2 R1)))). lia. }
    destruct (Z.ltb_spec (v+l+1) s).
    { (* disjoint *)
      split; [apply rok_app; split; auto; rewrite rnext_app; cbn [rnext rok]; intuition lia|]. split.
      { intros y Hy. specialize (F y Hy). rsimp. lia. }
      rewrite !rnext_app. cbn [rnext]. replace (s <? v+l+2-1) with false by lia. replace (v+l+2-1 <=? s) with true by lia.
      split; [|intuition lia]. apply Forall_app. split; [|constructor; auto; cbn; lia].
      apply Forall_app. split; [apply HFD; lia|constructor; auto; cbn; lia]. }
    destruct (Z.eqb_spec (v+l+1) s).
    { (* merge *)
      rewrite set_last_mid. rewrite u16_small by lia.
      split; [apply rok_app; split; auto; cbn [rok]; intuition lia|]. split.
      { intros y Hy. specialize (F y Hy). rsimp. lia. }
      rewrite !rnext_app. cbn [rnext]. replace (s <? v+l+2-1) with false by lia. replace (v+l+2-1 <=? s) with true by lia.
      split; [|intuition lia]. apply Forall_app. split; [apply HFD; lia|constructor; auto; cbn; lia]. }
    replace (s <? v+l+2-1) with true by lia. replace (v+l+2-1 <=? s) with false by lia.
    destruct (Z.eqb_spec s v).
    + subst v. destruct (Z.ltb_spec (s+len+1) (s+l+1)); [|destruct (Z.ltb_spec (s+l+1) (s+len+1))].
      * rewrite set_last_mid. rewrite !u16_small by lia.
        split; [apply rok_app; split; auto; cbn [rok]; intuition lia|]. split.
        { intros y Hy. specialize (F y Hy). rsimp. lia. }
        rewrite !rnext_app. cbn [rnext]. replace (s+l+2-1 =? s+len+1) with false by lia. split; [|lia].
        apply Forall_app. split; [apply HFD; lia|constructor; auto; cbn; lia].
      * rewrite set_last_mid. rewrite !u16_small by lia.
        split; [apply rok_app; split; auto; cbn [rok]; intuition lia|]. split.
        { intros y Hy. specialize (F y Hy). rsimp. lia. }
        rewrite !rnext_app. cbn [rnext]. replace (s+l+2-1 =? s+len+1) with false by lia. split; [|lia].
        apply Forall_app. split; [apply HFD; lia|constructor; auto; cbn; lia].
      * rewrite removelast_last. split; auto. split.
        { intros y Hy. specialize (F y Hy). rsimp. lia. }
        replace (s+l+2-1 =? s+len+1) with true by lia. split; [apply HFD; lia|lia].
    + destruct (Z.ltb_spec (s+len+1) (v+l+1)); [|destruct (Z.ltb_spec (v+l+1) (s+len+1))]; rewrite set_last_mid; rewrite !u16_small by lia.
      * rewrite <- app_assoc. cbn [app].
        split; [apply rok_app; split; auto; cbn [rok]; intuition lia|]. split.
        { intros y Hy. specialize (F y Hy). rsimp. lia. }
        rewrite !rnext_app. cbn [rnext]. replace (v+l+2-1 =? s+len+1) with false by lia. split; [|lia].
        apply Forall_app. split; [apply HFD; lia|constructor; [cbn; lia|constructor; auto; cbn; lia]].
      * rewrite <- app_assoc. cbn [app].
        split; [apply rok_app; split; auto; cbn [rok]; intuition lia|]. split.
        { intros y Hy. specialize (F y Hy). rsimp. lia. }
        rewrite !rnext_app. cbn [rnext]. replace (v+l+2-1 =? s+len+1) with false by lia. split; [|lia].
        apply Forall_app. split; [apply HFD; lia|constructor; [cbn; lia|constructor; auto; cbn; lia]].
      * split; [apply rok_app; split; auto; cbn [rok]; intuition lia|]. split.
        { intros y Hy. specialize (F y Hy). rsimp. lia. }
        rewrite !rnext_app. cbn [rnext]. replace (v+l+2-1 =? s+len+1) with true by lia. split; [|lia].
        apply Forall_app. split; [apply HFD; lia|constructor; auto; cbn; lia].
Qed.
Lemma rok_max a b r : rok a r -> rok b r -> rok (Z.max a b) r.
Proof. destruct r as [|[v l] r]; cbn [rok]; intuition lia. Qed.
Lemma run_xor_loop_spec fuel dst r1 r2 e1 e2 m : rok 0 dst -> -1 <= e1 -> -1 <= e2 ->
  rok (e1+1) r1 -> rok (e2+1) r2 -> rok m r1 -> rok m r2 -> Forall (fun x => fst x <= m) dst ->
  (let E := rnext 0 dst - 1 in (E <= e1 \/ E = e2) /\ (E <= e2 \/ E = e1)) ->
  (length r1 + length r2 < fuel)%nat ->
  rok 0 (run_xor_loop fuel dst r1 r2) /\
  forall y, 0 <= y -> rmem (run_xor_loop fuel dst r1 r2) y = xorb (rmem dst y) (xorb (rmem r1 y) (rmem r2 y)).
Proof.
  revert dst r1 r2 e1 e2 m. induction fuel; intros dst r1 r2 e1 e2 m H He1 He2 H1 H2 M1 M2 HF HE Hf; [lia|]. cbn zeta in HE.
  cbn [run_xor_loop].
  (* consuming a run (s,len) of one list (bound e) while the other has bound e' *)
  assert (Step : forall s len e e', 0 <= len -> s + len < 65536 -> e + 1 <= s -> m <= s -> -1 <= e ->
     let E := rnext 0 dst - 1 in (E <= e \/ E = e') ->
     let N := s + len + 1 in let m' := if s <? E then Z.min E N else s in
     let dst' := run_container_smart_append_exclusive dst s len in
     rok 0 dst' /\ (forall y, 0 <= y -> rmem dst' y = xorb (rmem dst y) (inrun (s,len) y)) /\
     Forall (fun x => fst x <= m') dst' /\
     (let E' := rnext 0 dst' - 1 in (E' <= N \/ E' = e') /\ (E' <= e' \/ E' = N)) /\
     m' <= N + 1 /\ (m' <= s \/ m' <= e' + 1)).
  { intros s len e e' S1 S2 S3 S4 S5. cbn zeta. intros SE.
    destruct (smart_append_spec dst s len) as (P1&P2&P3&P4); auto; try lia.
    { eapply Forall_impl; [|apply HF]. cbn. intros; lia. }
    cbn zeta in P3, P4. split; auto. split; auto. split; auto.
    destruct (Z.leb_spec (rnext 0 dst - 1) s).
    - replace (s <? rnext 0 dst - 1) with false by lia. lia.
    - replace (s <? rnext 0 dst - 1) with true by lia. destruct (Z.eqb_spec (rnext 0 dst - 1) (s+len+1)); lia. }
  cbn zeta in Step.
  destruct r1 as [|[v1 l1] r1], r2 as [|[v2 l2] r2]; cbn [length] in Hf.
  - split; auto. intros y Hy. rsimp. now rewrite !xorb_false_r.
  - cbn [rok] in H2, M2. cbn [fst snd]. destruct (Step v2 l2 e2 e1) as (P1&P2&P3&P4&P5&P6); try lia.
    assert (K1 : rok (v2+l2+1+1) r2) by (replace (v2+l2+1+1) with (v2+l2+2) by lia; apply H2).
    destruct (IHfuel _ [] r2 e1 (v2+l2+1) _ P1 He1 ltac:(lia) I K1 I (rok_weaken _ _ _ P5 K1) P3) as [Q1 Q2]; [cbn zeta; lia|cbn [length]; lia|].
    split; auto. intros y Hy. rewrite Q2, P2 by auto. rewrite rmem_cons, rmem_nil.
    pose proof (rmem_lo _ r2 y (proj2 (proj2 (proj2 H2)))) as L2. unfold inrun in *. cbn [fst snd] in *.
    destruct (rmem dst y); lia.
  - cbn [rok] in H1, M1. cbn [fst snd]. destruct (Step v1 l1 e1 e2) as (P1&P2&P3&P4&P5&P6); try lia.
    assert (K1 : rok (v1+l1+1+1) r1) by (replace (v1+l1+1+1) with (v1+l1+2) by lia; apply H1).
    destruct (IHfuel _ r1 [] (v1+l1+1) e2 _ P1 ltac:(lia) He2 K1 I (rok_weaken _ _ _ P5 K1) I P3) as [Q1 Q2]; [cbn zeta; lia|cbn [length]; lia|].
    split; auto. intros y Hy. rewrite Q2, P2 by auto. rewrite rmem_cons, rmem_nil.
    pose proof (rmem_lo _ r1 y (proj2 (proj2 (proj2 H1)))) as L2. unfold inrun in *. cbn [fst snd] in *.
    destruct (rmem dst y); lia.
  - assert (H1' := H1). assert (H2' := H2). cbn [rok] in H1, M1, H2, M2. cbn [fst snd].
    destruct (Z.leb_spec v1 v2).
    + destruct (Step v1 l1 e1 e2) as (P1&P2&P3&P4&P5&P6); try lia.
      assert (K1 : rok (v1+l1+1+1) r1) by (replace (v1+l1+1+1) with (v1+l1+2) by lia; apply H1).
      assert (K2 : rok (if v1 <? rnext 0 dst - 1 then Z.min (rnext 0 dst - 1) (v1 + l1 + 1) else v1) ((v2,l2)::r2)).
      { cbn [rok]. intuition lia. }
      destruct (IHfuel _ r1 ((v2,l2)::r2) (v1+l1+1) e2 _ P1 ltac:(lia) He2 K1 H2' (rok_weaken _ _ _ P5 K1) K2 P3) as [Q1 Q2]; [cbn zeta; lia|cbn [length]; lia|].
      split; auto. intros y Hy. rewrite Q2, P2 by auto. rewrite (rmem_cons (v1,l1) r1).
      pose proof (rmem_lo _ r1 y (proj2 (proj2 (proj2 H1)))) as L2. unfold inrun in *. cbn [fst snd] in *.
      destruct (rmem dst y), (rmem ((v2,l2)::r2) y); lia.
    + destruct (Step v2 l2 e2 e1) as (P1&P2&P3&P4&P5&P6); try lia.
      assert (K1 : rok (v2+l2+1+1) r2) by (replace (v2+l2+1+1) with (v2+l2+2) by lia; apply H2).
      assert (K2 : rok (if v2 <? rnext 0 dst - 1 then Z.min (rnext 0 dst - 1) (v2 + l2 + 1) else v2) ((v1,l1)::r1)).
      { cbn [rok]. intuition lia. }
      destruct (IHfuel _ ((v1,l1)::r1) r2 e1 (v2+l2+1) _ P1 He1 ltac:(lia) H1' K1 K2 (rok_weaken _ _ _ P5 K1) P3) as [Q1 Q2]; [cbn zeta; lia|cbn [length]; lia|].
      split; auto. intros y Hy. rewrite Q2, P2 by auto. rewrite (rmem_cons (v2,l2) r2).
      pose proof (rmem_lo _ r2 y (proj2 (proj2 (proj2 H2)))) as L2. unfold inrun in *. cbn [fst snd] in *.
      destruct (rmem dst y), (rmem ((v1,l1)::r1) y); lia.
Qed.
Lemma run_xor_spec r1 r2 : rwf r1 -> rwf r2 ->
  rwf (run_container_xor r1 r2) /\ forall y, 0 <= y -> rmem (run_container_xor r1 r2) y = xorb (rmem r1 y) (rmem r2 y).
Proof.
  intros H1 H2. unfold run_container_xor.
  destruct (run_xor_loop_spec (S (length r1 + length r2)) [] r1 r2 (-1) (-1) 0) as [Q1 Q2]; cbn [rok rnext]; auto; try lia.
  split; auto. intros y Hy. rewrite Q2 by auto. rewrite rmem_nil. apply xorb_false_l.
Qed.

(** ** intersection *)
Lemma run_intersection_loop_spec fuel dst r1 r2 lo1 lo2 : rok 0 dst -> 0 <= lo1 -> 0 <= lo2 -> rok lo1 r1 -> rok lo2 r2 ->
  rnext 0 dst <= Z.max lo1 lo2 -> (length r1 + length r2 < fuel)%nat ->
  rok 0 (run_intersection_loop fuel dst r1 r2) /\
  forall y, rmem (run_intersection_loop fuel dst r1 r2) y = rmem dst y || (rmem r1 y && rmem r2 y).
Proof.
  revert dst r1 r2 lo1 lo2. induction fuel; intros dst r1 r2 lo1 lo2 H L1 L2 H1 H2 HN Hf; [lia|].
  cbn [run_intersection_loop].
  destruct r1 as [|[v1 l1] r1].
  { split; auto. intros y. rsimp. cbn [andb]. now rewrite orb_false_r. }
  destruct r2 as [|[v2 l2] r2].
  { split; auto. intros y. rewrite rmem_nil, andb_false_r. now rewrite orb_false_r. }
  cbn [length] in Hf. cbn [fst snd]. assert (R1 := H1). assert (R2 := H2). cbn [rok] in H1, H2.
  destruct H1 as (A1&A2&A3&A4), H2 as (B1&B2&B3&B4).
  destruct (Z.leb_spec (v1+l1+1) v2).
  { destruct (IHfuel dst r1 ((v2,l2)::r2) (v1+l1+2) lo2) as [Q1 Q2]; auto; try lia; [cbn [length]; lia|].
    split; auto. intros y. rewrite Q2. pose proof (rmem_lo v2 ((v2,l2)::r2) y) as F. cbn [rok] in F.
    rewrite (rmem_cons (v1,l1) r1). unfold inrun. cbn [fst snd]. destruct (rmem dst y); auto. cbn [orb].
    destruct (Z_lt_dec y v2); [rewrite F by (intuition lia); now rewrite !andb_false_r|].
    replace (y <=? v1+l1) with false by lia. now rewrite andb_false_r. }
  destruct (Z.leb_spec (v2+l2+1) v1).
  { destruct (IHfuel dst ((v1,l1)::r1) r2 lo1 (v2+l2+2)) as [Q1 Q2]; auto; try lia; [cbn [length]; lia|].
    split; auto. intros y. rewrite Q2. pose proof (rmem_lo v1 ((v1,l1)::r1) y) as F. cbn [rok] in F.
    rewrite (rmem_cons (v2,l2) r2). unfold inrun. cbn [fst snd]. destruct (rmem dst y); auto. cbn [orb].
    destruct (Z_lt_dec y v1); [rewrite F by (intuition lia); reflexivity|].
    replace (y <=? v2+l2) with false by lia. now rewrite andb_false_r. }
  set (ls := if v2 <? v1 then v1 else v2). assert (Hls : ls = Z.max v1 v2) by (unfold ls; destruct (Z.ltb_spec v2 v1); lia).
  clearbody ls.
  pose proof (fun lo => rmem_lo lo r1) as F1. pose proof (fun lo => rmem_lo lo r2) as F2.
  assert (Emit : forall e, e = Z.min (v1+l1+1) (v2+l2+1) ->
    rok 0 (dst ++ [(u16 ls, u16 (e - ls - 1))]) /\ rnext 0 (dst ++ [(u16 ls, u16 (e - ls - 1))]) = e + 1 /\
    (forall y, rmem (dst ++ [(u16 ls, u16 (e - ls - 1))]) y = rmem dst y || ((ls <=? y) && (y <? e)))).
  { intros e ->. rewrite !u16_small by lia. split; [|split].
    - apply rok_app. split; auto. cbn [rok]. intuition lia.
    - rewrite rnext_app. cbn [rnext]. lia.
    - intros y. rsimp. lia. }
  destruct (Z.eqb_spec (v1+l1+1) (v2+l2+1)); [|destruct (Z.ltb_spec (v1+l1+1) (v2+l2+1))].
  - destruct (Emit (v1+l1+1)) as (E1&E2&E3); [lia|].
    destruct (IHfuel (dst ++ [(u16 ls, u16 (v1+l1+1 - ls - 1))]) r1 r2 (v1+l1+2) (v2+l2+2)) as [Q1 Q2]; auto; try lia.
    split; auto. intros y. rewrite Q2, E3. rsimp. specialize (F1 (v1+l1+2) y A4). specialize (F2 (v2+l2+2) y B4). lia.
  - destruct (Emit (v1+l1+1)) as (E1&E2&E3); [lia|].
    destruct (IHfuel (dst ++ [(u16 ls, u16 (v1+l1+1 - ls - 1))]) r1 ((v2,l2)::r2) (v1+l1+2) lo2) as [Q1 Q2]; auto; try lia; [cbn [length]; lia|].
    split; auto. intros y. rewrite Q2, E3. rsimp. specialize (F1 (v1+l1+2) y A4). specialize (F2 (v2+l2+2) y B4). lia.
  - destruct (Emit (v2+l2+1)) as (E1&E2&E3); [lia|].
    destruct (IHfuel (dst ++ [(u16 ls, u16 (v2+l2+1 - ls - 1))]) ((v1,l1)::r1) r2 lo1 (v2+l2+2)) as [Q1 Q2]; auto; try lia; [cbn [length]; lia|].
    split; auto. intros y. rewrite Q2, E3. rsimp. specialize (F1 (v1+l1+2) y A4). specialize (F2 (v2+l2+2) y B4). lia.
Qed.
Lemma run_intersection_spec r1 r2 : rwf r1 -> rwf r2 ->
  rwf (run_container_intersection r1 r2) /\
  forall y, rmem (run_container_intersection r1 r2) y = rmem r1 y && rmem r2 y.
Proof.
  intros H1 H2. unfold run_container_intersection.
  destruct (run_container_is_full r1) eqn:F1.
  { split; auto. intros y. rewrite (is_full_spec _ H1 F1), rmem_full. destruct (rmem r2 y) eqn:E; [|now rewrite andb_false_r].
    pose proof (rmem_range _ _ _ H2 E). lia. }
  destruct (run_container_is_full r2) eqn:F2.
  { split; auto. intros y. rewrite (is_full_spec _ H2 F2), rmem_full. destruct (rmem r1 y) eqn:E; [|reflexivity].
    pose proof (rmem_range _ _ _ H1 E). lia. }
  destruct (run_intersection_loop_spec (S (length r1 + length r2)) [] r1 r2 0 0) as [Q1 Q2]; cbn [rok rnext]; auto; try lia.
Qed.
Lemma run_card_acc r s : fold_left (fun s x => s + snd x) r s = s + fold_left (fun s (x:run) => s + snd x) r 0.
Proof. revert s. induction r as [|x r IH]; intros s; cbn; [lia|]. rewrite IH, (IH (snd x)). lia. Qed.
Lemma run_card_snoc r x : run_container_cardinality (r ++ [x]) = run_container_cardinality r + snd x + 1.
Proof.
  unfold run_container_cardinality. rewrite zlen_app, fold_left_app. cbn [fold_left]. change (zlen [x]) with 1.
  rewrite (run_card_acc r (zlen r + 1)), (run_card_acc r (zlen r)). lia.
Qed.
Lemma run_intersection_card_loop_eq fuel dst r1 r2 lo1 lo2 : 0 <= lo1 -> 0 <= lo2 -> rok lo1 r1 -> rok lo2 r2 ->
  run_intersection_card_loop fuel (run_container_cardinality dst) r1 r2 =
  run_container_cardinality (run_intersection_loop fuel dst r1 r2).
Proof.
  revert dst r1 r2 lo1 lo2. induction fuel; intros dst r1 r2 lo1 lo2 L1 L2 H1 H2; cbn [run_intersection_card_loop run_intersection_loop]; auto.
  destruct r1 as [|[v1 l1] r1]; auto. destruct r2 as [|[v2 l2] r2]; auto.
  assert (R1 := H1). assert (R2 := H2). cbn [rok] in H1, H2. cbn [fst snd].
  destruct H1 as (A1&A2&A3&A4), H2 as (B1&B2&B3&B4).
  destruct (Z.leb_spec (v1+l1+1) v2); [apply (IHfuel _ _ _ (v1+l1+2) lo2); auto; lia|].
  destruct (Z.leb_spec (v2+l2+1) v1); [apply (IHfuel _ _ _ lo1 (v2+l2+2)); auto; lia|].
  set (ls := if v2 <? v1 then v1 else v2). assert (Hls : ls = Z.max v1 v2) by (unfold ls; destruct (Z.ltb_spec v2 v1); lia).
  clearbody ls.
  assert (Ec : forall e, e = Z.min (v1+l1+1) (v2+l2+1) -> run_container_cardinality dst + (e - ls) =
    run_container_cardinality (dst ++ [(u16 ls, u16 (e - ls - 1))])).
  { intros e ->. rewrite run_card_snoc. cbn [snd]. rewrite u16_small by lia. lia. }
  destruct (Z.eqb_spec (v1+l1+1) (v2+l2+1)); [|destruct (Z.ltb_spec (v1+l1+1) (v2+l2+1))].
  - rewrite Ec by lia. apply (IHfuel _ _ _ (v1+l1+2) (v2+l2+2)); auto; lia.
  - rewrite Ec by lia. apply (IHfuel _ _ _ (v1+l1+2) lo2); auto; lia.
  - rewrite Ec by lia. apply (IHfuel _ _ _ lo1 (v2+l2+2)); auto; lia.
Qed.
Lemma run_intersection_cardinality_spec r1 r2 : rwf r1 -> rwf r2 ->
  run_container_intersection_cardinality r1 r2 = cnt (fun y => rmem r1 y && rmem r2 y) 0 65536.
Proof.
  intros H1 H2. destruct (run_intersection_spec r1 r2 H1 H2) as [Q1 Q2].
  assert (E : run_container_intersection_cardinality r1 r2 = run_container_cardinality (run_container_intersection r1 r2)).
  { unfold run_container_intersection_cardinality, run_container_intersection.
    destruct (run_container_is_full r1); auto. destruct (run_container_is_full r2); auto.
    change 0 with (run_container_cardinality []) at 1. apply (run_intersection_card_loop_eq _ _ _ _ 0 0); auto; lia. }
  rewrite E, run_cardinality_spec by auto. unfold rcard. apply cnt_ext. auto.
Qed.
Lemma run_intersect_loop_spec fuel r1 r2 lo1 lo2 : rok lo1 r1 -> rok lo2 r2 -> (length r1 + length r2 < fuel)%nat ->
  (run_intersect_loop fuel r1 r2 = true <-> exists y, rmem r1 y = true /\ rmem r2 y = true).
Proof.
  revert r1 r2 lo1 lo2. induction fuel; intros r1 r2 lo1 lo2 H1 H2 Hf; [lia|]. cbn [run_intersect_loop].
  destruct r1 as [|[v1 l1] r1]. { split; [discriminate|]. intros (y&Hy&_). discriminate. }
  destruct r2 as [|[v2 l2] r2]. { split; [discriminate|]. intros (y&_&Hy). discriminate. }
  cbn [length] in Hf. cbn [fst snd]. assert (R1 := H1). assert (R2 := H2). cbn [rok] in H1, H2.
  destruct H1 as (A1&A2&A3&A4), H2 as (B1&B2&B3&B4).
  destruct (Z.leb_spec (v1+l1+1) v2); [|destruct (Z.leb_spec (v2+l2+1) v1)].
  - rewrite (IHfuel r1 ((v2,l2)::r2) (v1+l1+2) lo2) by (auto; cbn [length]; lia). split; intros (y&Y1&Y2); exists y; split; auto.
    + rewrite rmem_cons, Y1. apply orb_true_r.
    + assert (v2 <= y). { destruct (Z_le_dec v2 y); auto. rewrite (rmem_lo v2) in Y2; [discriminate|cbn [rok]; intuition lia|lia]. }
      rewrite rmem_cons in Y1. unfold inrun in Y1. cbn [fst snd] in Y1. lia.
  - rewrite (IHfuel ((v1,l1)::r1) r2 lo1 (v2+l2+2)) by (auto; cbn [length]; lia). split; intros (y&Y1&Y2); exists y; split; auto.
    + rewrite rmem_cons, Y2. apply orb_true_r.
    + assert (v1 <= y). { destruct (Z_le_dec v1 y); auto. rewrite (rmem_lo v1) in Y1; [discriminate|cbn [rok]; intuition lia|lia]. }
      rewrite rmem_cons in Y2. unfold inrun in Y2. cbn [fst snd] in Y2. lia.
  - split; auto. intros _. exists (Z.max v1 v2). rsimp. split; lia.
Qed.
Lemma run_intersect_spec r1 r2 : rwf r1 -> rwf r2 ->
  (run_container_intersect r1 r2 = true <-> exists y, rmem r1 y = true /\ rmem r2 y = true).
Proof.
  intros H1 H2. unfold run_container_intersect.
  assert (Ne : forall r, rwf r -> negb (run_container_empty r) = true <-> exists y, rmem r y = true).
  { intros r Hr. unfold run_container_empty. destruct r as [|[v l] r].
    - cbn. split; [discriminate|]. intros (y&Hy). discriminate.
    - rewrite zlen_cons. pose proof (zlen_nonneg r). split; [|intros _; lia]. intros _. exists v. unfold rwf in Hr. cbn [rok] in Hr. rsimp. lia. }
  destruct (run_container_is_full r1) eqn:F1.
  { rewrite Ne by auto. rewrite (is_full_spec _ H1 F1). split; intros (y&Hy).
    - exists y. rewrite rmem_full. pose proof (rmem_range _ _ _ H2 Hy). split; auto. lia.
    - exists y. tauto. }
  destruct (run_container_is_full r2) eqn:F2.
  { rewrite Ne by auto. rewrite (is_full_spec _ H2 F2). split; intros (y&Hy).
    - exists y. rewrite rmem_full. pose proof (rmem_range _ _ _ H1 Hy). split; auto. lia.
    - exists y. tauto. }
  apply (run_intersect_loop_spec _ _ _ 0 0); auto.
Qed.

(** ** difference *)
Lemma run_andnot_loop_spec fuel dst start end_ r1 r2 lo2 (b : nat) : rok 0 dst -> rnext 0 dst <= start -> start < end_ -> end_ <= 65536 ->
  rok (end_+1) r1 -> 0 <= lo2 -> rok lo2 r2 ->
  (b <= 1)%nat -> (b = 1%nat -> match r2 with [] => False | y :: _ => fst y + snd y + 1 <= start end) ->
  (length r1 + (length r2 + length r2) < fuel + b)%nat ->
  let d := run_andnot_loop fuel dst start end_ r1 r2 in
  rok 0 d /\ forall y, rmem d y = rmem dst y || (((start <=? y) && (y <? end_) || rmem r1 y) && negb (rmem r2 y)).
Proof.
  revert dst start end_ r1 r2 lo2 b.
  induction fuel; intros dst start end_ r1 r2 lo2 b H HN Hse He H1 L2 H2 Hb Hb1 Hf.
  { exfalso. destruct b as [|[|b]]; [lia| |lia]. specialize (Hb1 eq_refl). destruct r2; [tauto|]. cbn [length] in Hf. lia. }
  cbn zeta. cbn [run_andnot_loop]. pose proof (rnext_ge _ _ H).
  assert (Emit : forall e, start < e <= end_ -> rok 0 (dst ++ [(u16 start, u16 (e - start - 1))]) /\
     rnext 0 (dst ++ [(u16 start, u16 (e - start - 1))]) = e + 1 /\
     (forall y, rmem (dst ++ [(u16 start, u16 (e - start - 1))]) y = rmem dst y || ((start <=? y) && (y <? e)))).
  { intros e He'. rewrite !u16_small by lia. split; [|split].
    - apply rok_app. split; auto. cbn [rok]. intuition lia.
    - rewrite rnext_app. cbn [rnext]. lia.
    - intros y. rsimp. lia. }
  destruct r2 as [|[v2 l2] r2].
  { destruct (Emit end_) as (E1&E2&E3); [lia|].
    replace (dst ++ [(u16 start, u16 (end_-start-1))] ++ r1) with ((dst ++ [(u16 start, u16 (end_-start-1))]) ++ r1) by (symmetry; apply app_assoc).
    split.
    - apply rok_app. split; auto. rewrite E2. auto.
    - intros y. rewrite rmem_app, E3, rmem_nil. cbn [negb]. rewrite andb_true_r. now rewrite orb_assoc. }
  cbn [fst snd]. assert (R2 := H2). cbn [rok] in H2. destruct H2 as (B1&B2&B3&B4). cbn [length] in Hf.
  pose proof (fun y => rmem_lo _ r2 y B4) as F2.
  pose proof (fun y => rmem_lo _ r1 y H1) as F1.
  (* next run of the first list *)
  assert (Next : forall dst', rok 0 dst' -> rnext 0 dst' <= end_ + 1 -> b = 0%nat ->
     (forall y, rmem dst' y || (rmem r1 y && negb (rmem ((v2,l2)::r2) y)) =
                rmem dst y || (((start <=? y) && (y <? end_) || rmem r1 y) && negb (rmem ((v2,l2)::r2) y))) ->
     let d := match r1 with [] => dst' | x :: r1' => run_andnot_loop fuel dst' (fst x) (fst x + snd x + 1) r1' ((v2,l2)::r2) end in
     rok 0 d /\ forall y, rmem d y = rmem dst y || (((start <=? y) && (y <? end_) || rmem r1 y) && negb (rmem ((v2,l2)::r2) y))).
  { intros dst' D1 D2 D3 D4. cbn zeta. destruct r1 as [|[v1 l1] r1].
    - split; auto. intros y. rewrite <- D4. rewrite rmem_nil. cbn [andb]. now rewrite orb_false_r.
    - cbn [fst snd]. cbn [rok] in H1. destruct H1 as (A1&A2&A3&A4).
      destruct (IHfuel dst' v1 (v1+l1+1) r1 ((v2,l2)::r2) lo2 0%nat) as [Q1 Q2]; auto; try lia.
      + replace (v1+l1+1+1) with (v1+l1+2) by lia. auto.
      + cbn [length] in *. lia.
      + split; auto. intros y. rewrite Q2, <- D4. rewrite (rmem_cons (v1,l1) r1). unfold inrun. cbn [fst snd].
        replace (y <? v1+l1+1) with (y <=? v1+l1) by lia. reflexivity. }
  destruct (Z.leb_spec end_ v2).
  { destruct (Emit end_) as (E1&E2&E3); [lia|]. apply Next; auto; try lia.
    - destruct b as [|[|b]]; auto; [|lia]. specialize (Hb1 eq_refl). cbn [fst snd] in Hb1. lia.
    - intros y. rewrite E3. assert (G : y < v2 -> rmem ((v2,l2)::r2) y = false).
      { intros. rsimp. rewrite F2 by lia. lia. }
      destruct (rmem ((v2,l2)::r2) y); cbn [negb]; [|destruct (rmem dst y), (rmem r1 y); lia].
      rewrite !andb_false_r, !orb_false_r. destruct (rmem dst y); lia. }
  destruct (Z.leb_spec (v2+l2+1) start).
  { destruct (IHfuel dst start end_ r1 r2 (v2+l2+2) 0%nat) as [Q1 Q2]; auto; try lia.
    split; auto. intros y. rewrite Q2. rewrite (rmem_cons (v2,l2) r2). unfold inrun. cbn [fst snd].
    specialize (F1 y). destruct (rmem dst y), (rmem r1 y), (rmem r2 y); cbn [orb andb negb]; lia. }
  assert (Hb0 : b = 0%nat). { destruct b as [|[|b]]; auto; [|lia]. specialize (Hb1 eq_refl). cbn [fst snd] in Hb1. lia. }
  set (dst' := if start <? v2 then dst ++ [(u16 start, u16 (v2 - start - 1))] else dst).
  assert (HD : rok 0 dst' /\ rnext 0 dst' <= Z.max start (v2+1) /\ forall y, rmem dst' y = rmem dst y || ((start <=? y) && (y <? v2))).
  { unfold dst'. destruct (Z.ltb_spec start v2).
    - destruct (Emit v2) as (E1&E2&E3); [lia|]. split; auto. split; auto. lia.
    - split; auto. split; [lia|]. intros y. replace ((start <=? y) && (y <? v2)) with false by lia. now rewrite orb_false_r. }
  clearbody dst'. destruct HD as (D1&D2&D3).
  destruct (Z.ltb_spec (v2+l2+1) end_).
  - destruct (IHfuel dst' (v2+l2+1) end_ r1 ((v2,l2)::r2) lo2 1%nat) as [Q1 Q2]; auto; try lia.
    + intros _. cbn. lia.
    + cbn [length]. lia.
    + split; auto. intros y. rewrite Q2, D3. specialize (F1 y). specialize (F2 y). rsimp. lia.
  - apply Next; auto; try lia. intros y. rewrite D3. specialize (F1 y). specialize (F2 y). rsimp. lia.
Qed.
Lemma run_andnot_spec r1 r2 : rwf r1 -> rwf r2 ->
  rwf (run_container_andnot r1 r2) /\ forall y, rmem (run_container_andnot r1 r2) y = rmem r1 y && negb (rmem r2 y).
Proof.
  intros H1 H2. unfold run_container_andnot. destruct r1 as [|[v l] r1].
  - split; auto.
  - unfold rwf in *. cbn [rok] in H1. destruct H1 as (A1&A2&A3&A4). cbn [fst snd].
    destruct (run_andnot_loop_spec (S (length ((v,l)::r1) + (length r2 + length r2))) [] v (v+l+1) r1 r2 0 0%nat) as [Q1 Q2]; cbn [rok rnext]; auto; try lia.
    + replace (v+l+1+1) with (v+l+2) by lia. auto.
    + cbn [length]. lia.
    + split; auto. intros y. rewrite Q2. rewrite (rmem_cons (v,l) r1). unfold inrun. cbn [fst snd]. rewrite rmem_nil. cbn [orb].
      replace (y <? v+l+1) with (y <=? v+l) by lia. reflexivity.
Qed.
