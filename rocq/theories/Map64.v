(** Map64: the C++ class Roaring64Map, cpp/roaring64map.hh, a std::map from the upper 32 bits
    of a value to a 32-bit bitmap (class Roaring of cpp/roaring.hh, whose methods call the
    functions of roaring.c one for one).

    A std::map is the list of its entries in increasing order of the keys.  An iterator into
    it is the key of its entry, [None] being end(); since std::map iterators survive
    insertions and erasures elsewhere, the entry is looked up again at each use.  Using end()
    where an entry is needed is the outcome [None].  The copyOnWrite flags are not modelled
    (see Cow.v for sharing); [cap] and [sh] are as in RBinary.v and RRange.v.  The
    uint32_t overloads are those with suffix 32. *)
From Coq Require Import ZArith List Bool Lia.
From Verif Require Import Base ArrayUtil BitUtil BitsetC ArrayC RunC RunD Convert Containers RArray RBinary RPoint RRange RQuery Iter Bytes Serial.
Import ListNotations.
Local Open Scope Z_scope.
Local Opaque zr.
Notation "'let!' x := e 'in' f" := (match e with Some x => f | None => None end) (at level 200, x pattern, e at level 200, f at level 200).

(** ** std::map *)
Definition rmap := list (Z * bitmap).
Fixpoint mfind (m : rmap) (k : Z) : option bitmap :=
  match m with [] => None | (h, b) :: t => if k =? h then Some b else mfind t k end.
(** insert or overwrite *)
Fixpoint mput (m : rmap) (k : Z) (b : bitmap) : rmap :=
  match m with
  | [] => [(k, b)]
  | (h, c) :: t => if k <? h then (k, b) :: m else if k =? h then (k, b) :: t else (h, c) :: mput t k b
  end.
(** insert, emplace: an existing entry is kept *)
Definition memplace (m : rmap) (k : Z) (b : bitmap) : rmap := match mfind m k with Some _ => m | None => mput m k b end.
Definition merase (m : rmap) (k : Z) : rmap := filter (fun e => negb (fst e =? k)) m.
Fixpoint mlower (m : rmap) (k : Z) : option Z :=
  match m with [] => None | (h, _) :: t => if k <=? h then Some h else mlower t k end.
Definition mbegin (m : rmap) : option Z := option_map fst (hd_error m).
Definition mnext (m : rmap) (k : Z) : option Z := mlower m (k + 1).
Definition mlast (m : rmap) : option Z := option_map fst (hd_error (rev m)).
(** the entry before [k] *)
Definition mprev (m : rmap) (k : Z) : option Z := mlast (filter (fun e => fst e <? k) m).
(** erase(first, last) *)
Definition merase_range (m : rmap) (first last : option Z) : rmap :=
  match first with
  | None => m
  | Some a => filter (fun e => negb ((a <=? fst e) && match last with Some b => fst e <? b | None => true end)) m
  end.
Definition same_iter (a b : option Z) : bool :=
  match a, b with Some x, Some y => x =? y | None, None => true | _, _ => false end.

(** roaring64map.hh:1583-1592 *)
Definition highBytes (x : Z) : Z := x / 2^32.
Definition lowBytes (x : Z) : Z := x mod 2^32.
Definition uniteBytes (h l : Z) : Z := Z.lor (Z.shiftl h 32) l.
Definition uint32_max : Z := 2^32 - 1.
(** roaring64map.hh:1616-1620 lookupOrCreateInner: the bitmap it returns a reference to *)
Definition inner (m : rmap) (k : Z) : bitmap := match mfind m k with Some b => b | None => [] end.
(** roaring64map.hh:1701-1706 eraseIfEmpty, after a change of the entry at [k] to [b] *)
Definition mkeep (m : rmap) (k : Z) (b : bitmap) : rmap := if roaring_bitmap_is_empty b then merase m k else mput m k b.

(** ** Construction and single values *)
(** roaring64map.hh:47, 70-84, 1595-1609 *)
Definition map_new : rmap := [].
Definition map_of_roaring (r : bitmap) : rmap := memplace [] 0 r.
(** roaring64map.hh:136-141 add *)
Definition map_add32 (m : rmap) (x : Z) : rmap := mput m 0 (roaring_bitmap_add (inner m 0) x).
Definition map_add (m : rmap) (x : Z) : rmap := mput m (highBytes x) (roaring_bitmap_add (inner m (highBytes x)) (lowBytes x)).
(** roaring64map.hh:148-157 addChecked *)
Definition map_addChecked32 (m : rmap) (x : Z) : rmap * bool :=
  let '(b, c) := roaring_bitmap_add_checked (inner m 0) x in (mput m 0 b, c).
Definition map_addChecked (m : rmap) (x : Z) : rmap * bool :=
  let '(b, c) := roaring_bitmap_add_checked (inner m (highBytes x)) (lowBytes x) in (mput m (highBytes x) b, c).
(** roaring64map.hh:243-245 addMany for 32-bit values *)
Definition map_addMany32 (m : rmap) (vals : list Z) : rmap := mput m 0 (roaring_bitmap_add_many (inner m 0) vals).
(** roaring64map.hh:250-267 addMany: [last] is the key of last_inner_bitmap *)
Fixpoint add_many_loop (m : rmap) (last : option Z) (ctx : bulk_context) (vals : list Z) : rmap :=
  match vals with
  | [] => m
  | v :: vs =>
    let h := highBytes v in
    let fresh := match last with None => true | Some k => negb (h =? k) end in
    let m := if fresh then mput m h (inner m h) else m in
    let ctx := if fresh then None else ctx in
    let '(b, ctx) := roaring_bitmap_add_bulk (inner m h) ctx (lowBytes v) in
    add_many_loop (mput m h b) (Some h) ctx vs
  end.
Definition map_addMany (m : rmap) (vals : list Z) : rmap := add_many_loop m None None vals.
(** roaring64map.hh:112-121 bitmapOf; 58, 63-65, 127-131 bitmapOfList *)
Definition map_bitmapOf (vals : list Z) : rmap := fold_left map_add vals [].
Definition map_bitmapOfList (vals : list Z) : rmap := map_addMany [] vals.
(** roaring64map.hh:272-295 remove *)
Definition map_remove32 (m : rmap) (x : Z) : rmap :=
  match m with (0, b) :: _ => mkeep m 0 (roaring_bitmap_remove b x) | _ => m end.
Definition map_remove (m : rmap) (x : Z) : rmap :=
  match mfind m (highBytes x) with None => m | Some b => mkeep m (highBytes x) (roaring_bitmap_remove b (lowBytes x)) end.
(** roaring64map.hh:302-333 removeChecked *)
Definition map_removeChecked32 (m : rmap) (x : Z) : rmap * bool :=
  match m with
  | (0, b) :: _ => let '(b', c) := roaring_bitmap_remove_checked b x in if c then (mkeep m 0 b', true) else (mput m 0 b', false)
  | _ => (m, false)
  end.
Definition map_removeChecked (m : rmap) (x : Z) : rmap * bool :=
  match mfind m (highBytes x) with
  | None => (m, false)
  | Some b => let '(b', c) := roaring_bitmap_remove_checked b (lowBytes x) in
              if c then (mkeep m (highBytes x) b', true) else (mput m (highBytes x) b', false)
  end.
(** roaring64map.hh:444 clear *)
Definition map_clear (m : rmap) : rmap := [].

(** ** Ranges *)
(** roaring64map.hh:1656-1695 ensureRangePopulated: [n] slots from [slot] on; [next] is
    next_populated_iter *)
Fixpoint populate_loop (n : nat) (m : rmap) (next : option Z) (slot : Z) : rmap :=
  match n with
  | O => m
  | S n =>
    if same_iter next (Some slot) then populate_loop n m (mnext m slot) (slot + 1)
    else populate_loop n (memplace m slot []) next (slot + 1)
  end.
Definition ensureRangePopulated (m : rmap) (start_high end_high : Z) : rmap :=
  populate_loop (Z.to_nat (end_high - start_high + 1)) m (mlower m start_high) start_high.
(** roaring64map.hh:222-227: [first_intermediate] is copied to the next entries *)
Fixpoint copy_loop (n : nat) (m : rmap) (cur : option Z) (b : bitmap) : option (rmap * option Z) :=
  match n with
  | O => Some (m, cur)
  | S n => let! k := cur in let! _ := mfind m k in let m := mput m k b in copy_loop n m (mnext m k) b
  end.
(** roaring64map.hh:172-238 addRangeClosed; 162-167 addRange *)
Definition map_addRangeClosed32 (m : rmap) (min max : Z) : rmap := mput m 0 (roaring_bitmap_add_range_closed (inner m 0) min max).
Definition map_addRangeClosed (m : rmap) (min max : Z) : option rmap :=
  if max <? min then Some m else
  let start_high := highBytes min in let start_low := lowBytes min in
  let end_high := highBytes max in let end_low := lowBytes max in
  let m := ensureRangePopulated m start_high end_high in
  let! b := mfind m start_high in
  if start_high =? end_high then Some (mput m start_high (roaring_bitmap_add_range_closed b start_low end_low)) else
  let num_intermediate_bitmaps := end_high - start_high - 1 in
  let m := mput m start_high (roaring_bitmap_add_range_closed b start_low uint32_max) in
  let cur := mnext m start_high in
  let! (m, cur) :=
    (if num_intermediate_bitmaps =? 0 then Some (m, cur)
     else let! k := cur in let! b := mfind m k in
          let first_intermediate := roaring_bitmap_add_range_closed b 0 uint32_max in
          let m := mput m k first_intermediate in
          copy_loop (Z.to_nat (num_intermediate_bitmaps - 1)) m (mnext m k) first_intermediate) in
  let! k := cur in let! b := mfind m k in
  Some (mput m k (roaring_bitmap_add_range_closed b 0 end_low)).
Definition map_addRange (m : rmap) (min max : Z) : option rmap := if max <=? min then Some m else map_addRangeClosed m min (max - 1).
(** roaring64map.hh:338-343 removeRange, 348-359 and 364-439 removeRangeClosed *)
Definition map_removeRangeClosed32 (m : rmap) (min max : Z) : rmap :=
  match m with (0, b) :: _ => mkeep m 0 (roaring_bitmap_remove_range_closed b min max) | _ => m end.
(** roaring64map.hh:431-438 *)
Definition remove_tail (m : rmap) (start_iter end_iter : option Z) (end_high end_low : Z) : option rmap :=
  let m := merase_range m start_iter end_iter in
  match end_iter with
  | Some e => if e =? end_high then let! b := mfind m e in Some (mkeep m e (roaring_bitmap_remove_range_closed b 0 end_low)) else Some m
  | None => Some m
  end.
Definition map_removeRangeClosed (m : rmap) (min max : Z) : option rmap :=
  if max <? min then Some m else
  let start_high := highBytes min in let start_low := lowBytes min in
  let end_high := highBytes max in let end_low := lowBytes max in
  match mbegin m, mlast m with
  | Some first, Some last =>
    if (end_high <? first) || (last <? start_high) then Some m else
    let start_iter := mlower m start_high in
    let end_iter := mlower m end_high in
    let! s := start_iter in
    if s =? start_high then
      let! b := mfind m s in
      if same_iter start_iter end_iter then Some (mkeep m s (roaring_bitmap_remove_range_closed b start_low end_low))
      else remove_tail (mkeep m s (roaring_bitmap_remove_range_closed b start_low uint32_max)) (mnext m s) end_iter end_high end_low
    else remove_tail m start_iter end_iter end_high end_low
  | _, _ => Some m
  end.
Definition map_removeRange (m : rmap) (min max : Z) : option rmap := if max <=? min then Some m else map_removeRangeClosed m min (max - 1).
(** roaring64map.hh:892-897 flip, 903-918 and 924-981 flipClosed;
    the iterator is advanced before its entry is erased *)
Definition map_flipClosed32 (cap : Z -> Z) (m : rmap) (min max : Z) : rmap :=
  let m := match m with (0, _) :: _ => m | _ => memplace m 0 [] end in
  mkeep m 0 (roaring_bitmap_flip_inplace_closed cap (inner m 0) min max).
Fixpoint flip_loop (n : nat) (cap : Z -> Z) (m : rmap) (cur : option Z) : option (rmap * option Z) :=
  match n with
  | O => Some (m, cur)
  | S n => let! k := cur in let! b := mfind m k in
           flip_loop n cap (mkeep m k (roaring_bitmap_flip_inplace_closed cap b 0 uint32_max)) (mnext m k)
  end.
Definition map_flipClosed (cap : Z -> Z) (m : rmap) (min max : Z) : option rmap :=
  if max <? min then Some m else
  let start_high := highBytes min in let start_low := lowBytes min in
  let end_high := highBytes max in let end_low := lowBytes max in
  let m := ensureRangePopulated m start_high end_high in
  let! b := mfind m start_high in
  if start_high =? end_high then Some (mkeep m start_high (roaring_bitmap_flip_inplace_closed cap b start_low end_low)) else
  let num_intermediate_bitmaps := end_high - start_high - 1 in
  let cur := mnext m start_high in
  let m := mkeep m start_high (roaring_bitmap_flip_inplace_closed cap b start_low uint32_max) in
  let! (m, cur) := flip_loop (Z.to_nat num_intermediate_bitmaps) cap m cur in
  let! k := cur in let! b := mfind m k in
  Some (mkeep m k (roaring_bitmap_flip_inplace_closed cap b 0 end_low)).
Definition map_flip (cap : Z -> Z) (m : rmap) (min max : Z) : option rmap := if max <=? min then Some m else map_flipClosed cap m min (max - 1).

(** ** Set operations; [same] says that both operands are the same object *)
(** roaring64map.hh:506-556 operator&=: each entry is kept, changed or erased *)
Definition map_and_inplace (sh : Z -> bool) (same : bool) (m o : rmap) : rmap :=
  if same then m else
  flat_map (fun e => match mfind o (fst e) with
    | None => []
    | Some ob => let b := roaring_bitmap_and_inplace false sh (snd e) ob in if roaring_bitmap_is_empty b then [] else [(fst e, b)]
    end) m.
(** roaring64map.hh:563-622 operator-= : both iterators jump forward with lower_bound *)
Fixpoint diff_loop (n : nat) (sh : Z -> bool) (m o : rmap) (si oi : option Z) : option rmap :=
  match n with
  | O => None
  | S n =>
    match si, oi with
    | Some sk, Some ok =>
      if sk <? ok then diff_loop n sh m o (mlower m ok) oi
      else if ok <? sk then diff_loop n sh m o si (mlower o sk)
      else let! sb := mfind m sk in let! ob := mfind o ok in
           diff_loop n sh (mkeep m sk (roaring_bitmap_andnot_inplace sh sb ob)) o (mnext m sk) (mnext o ok)
    | _, _ => Some m
    end
  end.
Definition map_andnot_inplace (sh : Z -> bool) (same : bool) (m o : rmap) : option rmap :=
  if same then Some [] else diff_loop (S (2 * (length m + length o))) sh m o (mbegin m) (mbegin o).
(** roaring64map.hh:631-677 operator|= *)
Definition map_or_inplace (sh : Z -> bool) (cap : Z -> Z) (same : bool) (m o : rmap) : rmap :=
  if same then m else
  fold_left (fun m e => match mfind m (fst e) with
    | None => mput m (fst e) (snd e)
    | Some b => mput m (fst e) (roaring_bitmap_or_inplace sh cap b (snd e))
    end) o m.
(** roaring64map.hh:683-736 operator^= *)
Definition map_xor_inplace (sh : Z -> bool) (same : bool) (m o : rmap) : rmap :=
  if same then [] else
  fold_left (fun m e => match mfind m (fst e) with
    | None => mput m (fst e) (snd e)
    | Some b => mkeep m (fst e) (roaring_bitmap_xor_inplace sh b (snd e))
    end) o m.
(** roaring64map.hh:1364-1390 operators & - | ^ on a copy of the left operand *)
Definition map_and sh (m o : rmap) : rmap := map_and_inplace sh false m o.
Definition map_andnot sh (m o : rmap) : option rmap := map_andnot_inplace sh false m o.
Definition map_or sh cap (m o : rmap) : rmap := map_or_inplace sh cap false m o.
Definition map_xor sh (m o : rmap) : rmap := map_xor_inplace sh false m o.
(** roaring64map.hh:1433-1554 fastunion.  The priority queue holds the rests of the input maps
    ordered by their first key; here it is the list of the rests in input order.  The order in
    which std::priority_queue delivers rests with equal keys is not specified by the language;
    here it is the input order.  A rest whose first key is the smallest one is popped, its
    bitmap joins the group and its tail, whose keys are larger, goes back. *)
Definition heads_min (xs : list rmap) : option Z :=
  fold_left (fun acc x => match x with [] => acc | (k, _) :: _ => match acc with None => Some k | Some a => Some (Z.min a k) end end) xs None.
Definition heads_group (k : Z) (xs : list rmap) : list bitmap :=
  flat_map (fun x => match x with (h, b) :: _ => if h =? k then [b] else [] | [] => [] end) xs.
Definition heads_rest (k : Z) (xs : list rmap) : list rmap :=
  map (fun x => match x with (h, b) :: t => if h =? k then t else x | [] => [] end) xs.
Fixpoint fastunion_loop (n : nat) (cap : Z -> Z) (xs : list rmap) (result : rmap) : rmap :=
  match n with
  | O => result
  | S n => match heads_min xs with
           | None => result
           | Some k => fastunion_loop n cap (heads_rest k xs) (result ++ [(k, roaring_bitmap_or_many cap (heads_group k xs))])
           end
  end.
Definition map_fastunion (cap : Z -> Z) (inputs : list rmap) : rmap :=
  fastunion_loop (length (concat inputs)) cap inputs [].

(** ** Queries *)
(** roaring64map.hh:481-494 contains *)
Definition map_contains32 (m : rmap) (x : Z) : bool := match mfind m 0 with None => false | Some b => roaring_bitmap_contains b x end.
Definition map_contains (m : rmap) (x : Z) : bool := match mfind m (highBytes x) with None => false | Some b => roaring_bitmap_contains b (lowBytes x) end.
(** roaring64map.hh:449-476 maximum, minimum *)
Fixpoint first_nonempty (m : rmap) : option (Z * bitmap) :=
  match m with [] => None | (k, b) :: t => if roaring_bitmap_is_empty b then first_nonempty t else Some (k, b) end.
Definition map_maximum (m : rmap) : Z :=
  match first_nonempty (rev m) with Some (k, b) => uniteBytes k (roaring_bitmap_maximum b) | None => 0 end.
Definition map_minimum (m : rmap) : Z :=
  match first_nonempty m with Some (k, b) => uniteBytes k (roaring_bitmap_minimum b) | None => 2^64 - 1 end.
(** roaring64map.hh:772-778 isEmpty, 783-796 isFull (roaring.hh:394-397) *)
Definition map_isEmpty (m : rmap) : bool := forallb (fun e => roaring_bitmap_is_empty (snd e)) m.
Definition map_isFull (m : rmap) : bool := if zlen m =? 2^32 then forallb (fun e => roaring_bitmap_get_cardinality (snd e) =? 2^32) m else false.
(** roaring64map.hh:749-767 cardinality; [None] is the exception std::length_error *)
Definition map_cardinality (m : rmap) : option Z :=
  if map_isFull m then None else Some (fold_left (fun previous e => (previous + roaring_bitmap_get_cardinality (snd e)) mod 2^64) m 0).
(** roaring64map.hh:801-813 isSubset, 821-823 isStrictSubset *)
Definition map_isSubset (m r : rmap) : bool :=
  forallb (fun e => roaring_bitmap_is_empty (snd e) ||
    match mfind r (fst e) with None => false | Some b => roaring_bitmap_is_subset (snd e) b end) m.
Definition map_isStrictSubset (m r : rmap) : option bool :=
  if map_isSubset m r then let! a := map_cardinality m in let! b := map_cardinality r in Some (negb (a =? b)) else Some false.
(** roaring64map.hh:846-886 operator== *)
Fixpoint eq_loop (n : nat) (l r : rmap) : option bool :=
  match n with
  | O => None
  | S n =>
    match l, r with
    | (lk, lb) :: lt, (rk, rb) :: rt =>
      if roaring_bitmap_is_empty lb then eq_loop n lt r
      else if roaring_bitmap_is_empty rb then eq_loop n l rt
      else if negb (lk =? rk) then Some false
      else if negb (roaring_bitmap_equals lb rb) then Some false
      else eq_loop n lt rt
    | l, [] => Some (map_isEmpty l)
    | [], r => Some (map_isEmpty r)
    end
  end.
Definition map_equals (l r : rmap) : option bool := eq_loop (S (length l + length r)) l r.
(** roaring.hh:922-1018: for (uint32_t v : bitmap), by begin(), operator!= with end(), operator*
    and operator++; end() has no value and current_value UINT32_MAX *)
Fixpoint range_for_loop (n : nat) (b : bitmap) (it : iter) : option (list Z) :=
  match n with
  | O => None
  | S n =>
    if negb (it_cur it =? uint32_max) || negb (Bool.eqb (it_has it) false) then
      let! it' := roaring_uint32_iterator_advance b it in
      option_map (cons (it_cur it)) (range_for_loop n b it')
    else Some []
  end.
Definition range_for (b : bitmap) : option (list Z) :=
  let! it := roaring_iterator_init b in range_for_loop (S (Z.to_nat (roaring_bitmap_get_cardinality b))) b it.
(** roaring64map.hh:831-841 toUint64Array *)
Fixpoint map_toUint64Array (m : rmap) : option (list Z) :=
  match m with
  | [] => Some []
  | (k, b) :: t => let! l := range_for b in let! r := map_toUint64Array t in Some (map (uniteBytes k) l ++ r)
  end.
(** roaring64map.hh:1040-1049 iterate *)
Fixpoint map_iterate {S : Type} (f : S -> Z -> S * bool) (m : rmap) (s : S) : S * bool :=
  match m with
  | [] => (s, true)
  | (k, b) :: t => let '(s', should_continue) := roaring_iterate64 f b (Z.shiftl k 32) s in
                   if should_continue then map_iterate f t s' else (s', false)
  end.
(** roaring64map.hh:1057-1078 select: [Fail] is ROARING_TERMINATE, [Ok None] the result false *)
Fixpoint map_select (m : rmap) (rank : Z) : res (option Z) :=
  match m with
  | [] => Ok None
  | (k, b) :: t =>
    let sub := roaring_bitmap_get_cardinality b in
    if rank <? sub then match roaring_bitmap_select b (rank mod 2^32) with None => Fail | Some low => Ok (Some (uniteBytes k low)) end
    else map_select t ((rank - sub) mod 2^64)
  end.
(** roaring64map.hh:1083-1097 rank: the entries before [end] *)
Fixpoint sum_before (m : rmap) (last : option Z) (acc : Z) : Z :=
  match m with
  | [] => acc
  | (k, b) :: t => if same_iter (Some k) last then acc else sum_before t last ((acc + roaring_bitmap_get_cardinality b) mod 2^64)
  end.
Definition map_rank (m : rmap) (x : Z) : Z :=
  let last := mlower m (highBytes x) in
  let result := match last with
    | Some k => if k =? highBytes x then roaring_bitmap_rank (inner m k) (lowBytes x) mod 2^64 else 0
    | None => 0
    end in
  sum_before m last result.
(** roaring64map.hh:1106-1120 getIndex: int64_t, the first sum by conversion from uint64_t, the
    second a signed addition; [None] is signed overflow *)
Definition to_s64 (x : Z) : Z := (x + 2^63) mod 2^64 - 2^63.
Definition map_getIndex (m : rmap) (x : Z) : option Z :=
  match mfind m (highBytes x) with
  | None => Some (-1)
  | Some b =>
    let index := to_s64 (sum_before m (Some (highBytes x)) 0) in
    let low_idx := roaring_bitmap_get_index b (lowBytes x) in
    if low_idx <? 0 then Some (-1)
    else if (index + low_idx <? - 2^63) || (2^63 - 1 <? index + low_idx) then None
    else Some (index + low_idx)
  end.

(** ** Compression *)
(** roaring64map.hh:987-993 removeRunCompression, 1001-1007 runOptimize *)
Definition map_each (f : bitmap -> bitmap * bool) (m : rmap) : rmap * bool :=
  (map (fun e => (fst e, fst (f (snd e)))) m, fold_left (fun previous e => snd (f (snd e)) && previous) m true).
Definition map_removeRunCompression (m : rmap) : rmap * bool := map_each roaring_bitmap_remove_run_compression m.
Definition map_runOptimize (m : rmap) : rmap * bool := map_each roaring_bitmap_run_optimize m.
(** roaring64map.hh:1013-1027 shrinkToFit; the number of bytes saved depends on capacities, which
    are not modelled *)
Definition map_shrinkToFit (m : rmap) : rmap := filter (fun e => negb (roaring_bitmap_is_empty (snd e))) m.

(** ** Serialization; a pointer into the buffer is the rest of the byte list *)
(** roaring64map.hh:1230-1241 getSizeInBytes *)
Definition inner_size (portable : bool) (b : bitmap) : Z :=
  if portable then roaring_bitmap_portable_size_in_bytes b else roaring_bitmap_size_in_bytes b.
Definition map_getSizeInBytes (portable : bool) (m : rmap) : Z :=
  fold_left (fun previous e => previous + inner_size portable (snd e)) m (8 + 4 * zlen m).
(** roaring64map.hh:1131-1150 write: the buffer and the number of bytes written *)
Definition inner_write (portable : bool) (b : bitmap) (buf : list Z) : option (list Z * Z) :=
  if portable then roaring_bitmap_portable_serialize b buf else roaring_bitmap_serialize b buf.
Fixpoint write_loop (portable : bool) (m : rmap) (buf : list Z) : option (list Z * Z) :=
  match m with
  | [] => Some (buf, 0)
  | (k, b) :: t =>
    let! buf := store buf 0 (le 4 k) in
    let! (rest, n) := inner_write portable b (skipn 4 buf) in
    let! (rest2, n2) := write_loop portable t (skipn (Z.to_nat n) rest) in
    Some (firstn 4 buf ++ firstn (Z.to_nat n) rest ++ rest2, 4 + n + n2)
  end.
Definition map_write (portable : bool) (m : rmap) (buf : list Z) : option (list Z * Z) :=
  let! buf := store buf 0 (le 8 (zlen m)) in
  let! (rest, n) := write_loop portable m (skipn 8 buf) in
  Some (firstn 8 buf ++ rest, 8 + n).
(** roaring64map.hh:1164-1184 read; [Fail] is ROARING_TERMINATE.  A pointer past the end of the
    buffer is the empty list *)
Definition inner_read (portable : bool) (buf : list Z) : res bitmap :=
  if portable then roaring_bitmap_portable_deserialize buf else roaring_bitmap_deserialize buf.
Fixpoint read_loop (n : nat) (portable : bool) (buf : list Z) (result : rmap) : res rmap :=
  match n with
  | O => Ok result
  | S n =>
    match rdv 4 buf 0 with
    | None => UB
    | Some key =>
      let buf := skipn 4 buf in
      match inner_read portable buf with
      | UB => UB | Fail => Fail
      | Ok read_var => read_loop n portable (skipn (Z.to_nat (inner_size portable read_var)) buf) (memplace result key read_var)
      end
    end
  end.
Definition map_read (portable : bool) (buf : list Z) : res rmap :=
  match rdv 8 buf 0 with None => UB | Some n => read_loop (Z.to_nat n) portable (skipn 8 buf) [] end.
(** roaring64map.hh:1193-1221 readSafe; maxbytes is a size_t, [maxbytes -= tz] wraps *)
Fixpoint read_safe_loop (n : nat) (buf : list Z) (maxbytes : Z) (result : rmap) : res rmap :=
  match n with
  | O => Ok result
  | S n =>
    if maxbytes <? 4 then Fail else
    match rdv 4 buf 0 with
    | None => UB
    | Some key =>
      let buf := skipn 4 buf in
      let maxbytes := maxbytes - 4 in
      match roaring_bitmap_portable_deserialize_safe buf maxbytes with
      | UB => UB | Fail => Fail
      | Ok read_var =>
        let tz := roaring_bitmap_portable_size_in_bytes read_var in
        read_safe_loop n (skipn (Z.to_nat tz) buf) ((maxbytes - tz) mod 2^64) (memplace result key read_var)
      end
    end
  end.
Definition map_readSafe (buf : list Z) (maxbytes : Z) : res rmap :=
  if maxbytes <? 8 then Fail else
  match rdv 8 buf 0 with None => UB | Some n => read_safe_loop (Z.to_nat n) (skipn 8 buf) (maxbytes - 8) [] end.

(** ** Iterators: the key of the entry and the iterator over its bitmap *)
Record miter : Type := MIter { mi_key : option Z; mi_it : iter }.
(** roaring64map.hh:1723-1737, 1772-1776, 1872-1878: the loop looks for an entry with members *)
Fixpoint forward_loop (n : nat) (m : rmap) (k : Z) (it : iter) : option miter :=
  match n with
  | O => None
  | S n =>
    if it_has it then Some (MIter (Some k) it)
    else match mnext m k with
         | None => Some (MIter None it)
         | Some k' => let! b := mfind m k' in let! it' := roaring_iterator_init b in forward_loop n m k' it'
         end
  end.
Definition map_begin (m : rmap) : option miter :=
  match mbegin m with
  | None => Some (MIter None (raw_iter 0))
  | Some k => let! b := mfind m k in let! it := roaring_iterator_init b in forward_loop (S (length m)) m k it
  end.
Definition map_end (m : rmap) : miter := MIter None (raw_iter 0).
(** roaring64map.hh:1742-1744 operator* *)
Definition mi_deref (i : miter) : option Z := match mi_key i with None => None | Some k => Some (uniteBytes k (it_cur (mi_it i))) end.
(** roaring64map.hh:1770-1778 ++i; 1780-1789 i++ (which advances unconditionally) *)
Definition mi_incr (m : rmap) (i : miter) : option miter :=
  let! k := mi_key i in let! b := mfind m k in
  let! it := (if it_has (mi_it i) then roaring_uint32_iterator_advance b (mi_it i) else Some (mi_it i)) in
  forward_loop (S (length m)) m k it.
Definition mi_post_incr (m : rmap) (i : miter) : option miter :=
  let! k := mi_key i in let! b := mfind m k in
  let! it := roaring_uint32_iterator_advance b (mi_it i) in
  forward_loop (S (length m)) m k it.
(** roaring64map.hh:1795-1810 move_equalorlarger *)
Definition mi_seek (m : rmap) (i : miter) (x : Z) : option (miter * bool) :=
  match mlower m (highBytes x) with
  | None => Some (MIter None (mi_it i), false)
  | Some k =>
    let! b := mfind m k in let! it := roaring_iterator_init b in
    if k =? highBytes x then
      let! it := roaring_uint32_iterator_move_equalorlarger b it (lowBytes x) in
      if it_has it then Some (MIter (Some k) it, true)
      else match mnext m k with
           | None => Some (MIter None it, false)
           | Some k' => let! b := mfind m k' in let! it := roaring_iterator_init b in Some (MIter (Some k') it, true)
           end
    else Some (MIter (Some k) it, true)
  end.
(** roaring64map.hh:1817-1831 --i; 1833-1848 i-- *)
Fixpoint backward_loop (n : nat) (m : rmap) (k : Z) (it : iter) : option miter :=
  match n with
  | O => None
  | S n =>
    if it_has it then Some (MIter (Some k) it)
    else match mprev m k with
         | None => Some (MIter (Some k) it)
         | Some k' => let! b := mfind m k' in let! it' := roaring_iterator_init_last b in backward_loop n m k' it'
         end
  end.
Definition mi_decr (m : rmap) (i : miter) : option miter :=
  match mi_key i with
  | None =>
    let! k := mlast m in let! b := mfind m k in let! it := roaring_iterator_init_last b in
    if it_has it then Some (MIter (Some k) it)
    else let! it := roaring_uint32_iterator_previous b it in backward_loop (S (length m)) m k it
  | Some k => let! b := mfind m k in let! it := roaring_uint32_iterator_previous b (mi_it i) in backward_loop (S (length m)) m k it
  end.
Definition mi_post_decr (m : rmap) (i : miter) : option miter :=
  match mi_key i with
  | None => let! k := mlast m in let! b := mfind m k in let! it := roaring_iterator_init_last b in Some (MIter (Some k) it)
  | Some k => let! b := mfind m k in let! it := roaring_uint32_iterator_previous b (mi_it i) in backward_loop (S (length m)) m k it
  end.
(** roaring64map.hh:1850-1854 operator==; 1856-1860 operator!=: the right operand is looked at
    first, so the left one may be dereferenced at end() *)
Definition mi_eq (a b : miter) : option bool :=
  match mi_key a, mi_key b with
  | None, None => Some true
  | _, None => Some false
  | _, _ => let! x := mi_deref a in let! y := mi_deref b in Some (x =? y)
  end.
Definition mi_ne (a b : miter) : option bool :=
  match mi_key a, mi_key b with
  | None, None => Some false
  | _, None => Some true
  | _, _ => let! x := mi_deref a in let! y := mi_deref b in Some (negb (x =? y))
  end.
(** roaring64map.hh:1746-1768 operator <, <=, >, >= *)
Definition mi_lt (a b : miter) : option bool :=
  match mi_key a with None => Some false | _ => match mi_key b with None => Some true | _ => let! x := mi_deref a in let! y := mi_deref b in Some (x <? y) end end.
Definition mi_le (a b : miter) : option bool :=
  match mi_key b with None => Some true | _ => match mi_key a with None => Some false | _ => let! x := mi_deref a in let! y := mi_deref b in Some (x <=? y) end end.
Definition mi_gt (a b : miter) : option bool :=
  match mi_key b with None => Some false | _ => match mi_key a with None => Some true | _ => let! x := mi_deref a in let! y := mi_deref b in Some (x >? y) end end.
Definition mi_ge (a b : miter) : option bool :=
  match mi_key a with None => Some true | _ => match mi_key b with None => Some false | _ => let! x := mi_deref a in let! y := mi_deref b in Some (x >=? y) end end.
