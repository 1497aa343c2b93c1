(** R64: the 64-bit bitmap, src/roaring64.c: an adaptive radix tree over the high 48 bits
    (Art.v) whose leaves hold an index into an array of containers and a typecode.

    [None] is undefined behaviour (a NULL or wrongly typed container, a failed assertion, a
    read outside an array) or an exhausted loop bound; the proofs exclude both.
    SHARED containers (possible only through move_from_roaring32 of a copy-on-write bitmap)
    and frozen views are not values of this type.  "if (container2 != container)" tests
    pointers: when they are equal the container was updated in place and kept its type, so
    the model always stores the result.  Freed containers are not visible. *)
From Verif Require Import Base ArrayUtil BitUtil BitsetC ArrayC RunC RunD Convert Containers RArray Art.
From Verif Require Iter RQuery Frozen.
Local Opaque zr.

Notation typecode := Frozen.typecode.

(** roaring64.c:37-43 roaring64_bitmap_t (flags: only FROZEN exists; capacity is the length) *)
Record r64 := R64 { r_art : art; r_ff : Z; r_cont : list (option container) }.
Definition with_art (r : r64) (a : art) : r64 := R64 a (r_ff r) (r_cont r).
Definition set_cont (r : r64) (i : Z) (o : option container) : r64 := R64 (r_art r) (r_ff r) (upd (Z.to_nat i) o (r_cont r)).

(** roaring64.c:73-77 split_key: the six most significant bytes, most significant first *)
Definition high48 (v : Z) : list Z :=
  let h := v / 65536 in
  [h / 2^40 mod 256; h / 2^32 mod 256; h / 2^24 mod 256; h / 2^16 mod 256; h / 2^8 mod 256; h mod 256].
Definition low16 (v : Z) : Z := v mod 65536.
(** roaring64.c:81-85 combine_key; the two parts share no bits, so | is + *)
Definition combine_key (key : list Z) (low : Z) : Z := fold_left (fun acc b => acc * 256 + b) key 0 * 65536 + low.
(** roaring64.c:91-93 create_leaf, 95 get_typecode, 97 get_index *)
Definition create_leaf (index tc : Z) : Z := index * 256 + tc.
Definition get_typecode (leaf : Z) : Z := leaf mod 256.
Definition get_index (leaf : Z) : Z := leaf / 256.
(** roaring64.c:99-102 get_container, with the type the caller will assume *)
Definition slot64 (r : r64) (i : Z) : option container :=
  if (0 <=? i) && (i <? zlen (r_cont r)) then nth (Z.to_nat i) (r_cont r) None else None.
Definition get_container (r : r64) (leaf : Z) : option container :=
  do c <- slot64 r (get_index leaf);
  if get_typecode leaf =? typecode c then Some c else None.
(** roaring64.c:106-113 replace_container *)
Definition replace_container (r : r64) (leaf : Z) (c : container) : option r64 :=
  do v <- leaf_val (r_art r) leaf;
  let index := get_index v in
  do _ <- guard ((0 <=? index) && (index <? zlen (r_cont r)));
  do a <- set_leaf_val (r_art r) leaf (create_leaf index (typecode c));
  Some (with_art (set_cont r index (Some c)) a).
(** roaring64.c:118-136 extend_containers *)
Definition extend_containers (r : r64) : r64 :=
  let cap := zlen (r_cont r) in
  if r_ff r <? cap then r
  else
    let new_capacity := if cap =? 0 then 2 else if cap <? 1024 then 2 * cap else 5 * cap / 4 in
    R64 (r_art r) (r_ff r) (r_cont r ++ repeat None (Z.to_nat (new_capacity - cap))).
(** roaring64.c:138-145 next_free_container_idx *)
Definition next_free_container_idx (r : r64) : Z :=
  match find (fun i => match nth (Z.to_nat i) (r_cont r) None with None => true | Some _ => false end) (zr (r_ff r + 1) (zlen (r_cont r))) with
  | Some i => i
  | None => zlen (r_cont r)
  end.
(** roaring64.c:147-154 allocate_index *)
Definition allocate_index (r : r64) : r64 * Z :=
  let first_free := r_ff r in
  let r1 := if first_free =? zlen (r_cont r) then extend_containers r else r in
  (R64 (r_art r1) (next_free_container_idx r1) (r_cont r1), first_free).
(** roaring64.c:156-161 add_container *)
Definition add_container (r : r64) (c : container) : r64 * Z :=
  let '(r1, index) := allocate_index r in (set_cont r1 index (Some c), create_leaf index (typecode c)).
(** roaring64.c:163-169 remove_container *)
Definition remove_container (r : r64) (leaf : Z) : r64 :=
  let index := get_index leaf in
  R64 (r_art r) (if index <? r_ff r then index else r_ff r) (upd (Z.to_nat index) None (r_cont r)).
(** add_container followed by art_insert: the bitmap and the new leaf *)
Definition insert_container (r : r64) (key : list Z) (c : container) : option (r64 * Z) :=
  let '(r1, v) := add_container r c in
  do (a, lf) <- art_insert (r_art r1) key v;
  Some (with_art r1 a, lf).
(** roaring64.c:225-234 roaring64_bitmap_create *)
Definition roaring64_bitmap_create : r64 := R64 art_init_cleared 0 [].

(** the number of leaves is at most the number of container slots *)
Definition fuel64 (r : r64) : nat := S (length (r_cont r)).
(** while (it.value != NULL) { leaf = *it.value; body; art_iterator_next(&it); }; the body may
    leave the loop by returning false *)
Fixpoint each {A} (fuel : nat) (a : art) (it : iter) (body : list Z -> Z -> A -> option (A * bool)) (s : A) : option A :=
  match fuel with
  | O => None
  | S f =>
    if i_val it =? 0 then Some s
    else
      do leaf <- leaf_val a (i_val it);
      do (s1, go) <- body (i_key it) leaf s;
      if negb (go : bool) then Some s1
      else do (it1, _) <- art_iterator_next a it; each f a it1 body s1
  end.
Definition each_of {A} (r : r64) (body : list Z -> Z -> A -> option (A * bool)) (s : A) : option A :=
  do it <- art_init_iterator (r_art r) true; each (fuel64 r) (r_art r) it body s.

(** roaring64.c:259-274 roaring64_bitmap_copy, 172-179 copy_leaf_container *)
Definition copy_body (r : r64) (key : list Z) (leaf : Z) (res : r64) : option (r64 * bool) :=
  do c <- get_container r leaf;
  do (res1, _) <- insert_container res key c;
  Some (res1, true).
Definition roaring64_bitmap_copy (r : r64) : option r64 := each_of r (copy_body r) roaring64_bitmap_create.
(** roaring64.c:283-302 move_from_roaring32_offset, 304-311 roaring64_bitmap_move_from_roaring32:
    the 32-bit bitmap is left empty *)
Fixpoint move_from_roaring32_offset (dst : r64) (src : bitmap) (high_bits : Z) : option r64 :=
  match src with
  | [] => Some dst
  | (key, c) :: t =>
    do (dst1, _) <- insert_container dst (high48 (high_bits * 2^32 + key * 65536)) c;
    move_from_roaring32_offset dst1 t high_bits
  end.
Definition roaring64_bitmap_move_from_roaring32 (src : bitmap) : option (r64 * bitmap) :=
  do r <- move_from_roaring32_offset roaring64_bitmap_create src 0; Some (r, []).

(** roaring64.c:360-384 containerptr_roaring64_bitmap_add: the bitmap and the leaf *)
Definition containerptr_add (r : r64) (key : list Z) (low leaf : Z) : option (r64 * Z) :=
  if negb (leaf =? 0) then
    do v <- leaf_raw (r_art r) leaf;
    do c <- get_container r v;
    do r1 <- replace_container r leaf (container_add c low);
    Some (r1, leaf)
  else insert_container r key (container_add (CArr []) low).
(** roaring64.c:386-391 roaring64_bitmap_add *)
Definition roaring64_bitmap_add (r : r64) (val : Z) : option r64 :=
  do leaf <- art_find (r_art r) (high48 val);
  do (r1, _) <- containerptr_add r (high48 val) (low16 val) leaf;
  Some r1.
(** *leaf, its container and its cardinality *)
Definition leaf_card (r : r64) (leaf : Z) : option Z :=
  do v <- leaf_raw (r_art r) leaf; do c <- get_container r v; Some (container_get_cardinality c).
(** roaring64.c:393-407 roaring64_bitmap_add_checked *)
Definition roaring64_bitmap_add_checked (r : r64) (val : Z) : option (r64 * bool) :=
  do leaf <- art_find (r_art r) (high48 val);
  do old_cardinality <- (if negb (leaf =? 0) then leaf_card r leaf else Some 0);
  do (r1, leaf1) <- containerptr_add r (high48 val) (low16 val) leaf;
  do new_cardinality <- leaf_card r1 leaf1;
  Some (r1, negb (old_cardinality =? new_cardinality)).
(** roaring64.h:34-37 roaring64_bulk_context_t *)
Record ctx := Ctx { c_leaf : Z; c_high : list Z }.
Definition ctx0 : ctx := Ctx 0 zkey.
(** roaring64.c:409-434 roaring64_bitmap_add_bulk *)
Definition roaring64_bitmap_add_bulk (r : r64) (cx : ctx) (val : Z) : option (r64 * ctx) :=
  if negb (c_leaf cx =? 0) && (art_compare_keys (c_high cx) (high48 val) =? 0) then
    do v <- leaf_raw (r_art r) (c_leaf cx);
    do c <- get_container r v;
    do r1 <- replace_container r (c_leaf cx) (container_add c (low16 val));
    Some (r1, cx)
  else
    do leaf <- art_find (r_art r) (high48 val);
    do (r1, leaf1) <- containerptr_add r (high48 val) (low16 val) leaf;
    Some (r1, Ctx leaf1 (high48 val)).
(** roaring64.c:436-447 roaring64_bitmap_add_many, 353-358 roaring64_bitmap_of_ptr *)
Fixpoint add_many_loop (r : r64) (cx : ctx) (vals : list Z) : option r64 :=
  match vals with
  | [] => Some r
  | v :: t => do (r1, cx1) <- roaring64_bitmap_add_bulk r cx v; add_many_loop r1 cx1 t
  end.
Definition roaring64_bitmap_add_many (r : r64) (vals : list Z) : option r64 := add_many_loop r ctx0 vals.
Definition roaring64_bitmap_of_ptr (vals : list Z) : option r64 := roaring64_bitmap_add_many roaring64_bitmap_create vals.

(** roaring64.c:313-351 roaring64_bitmap_from_range; Some None is NULL *)
Fixpoint from_range_big64 (fuel : nat) (r : r64) (value max step : Z) : option r64 :=
  match fuel with
  | O => None
  | S f =>
    if value <? max then
      do r1 <- roaring64_bitmap_add r value;
      if 2^64 - 1 - step <? value then Some r1 else from_range_big64 f r1 (value + step) max step
    else Some r
  end.
Fixpoint from_range_loop64 (fuel : nat) (r : r64) (min max step : Z) : option r64 :=
  match fuel with
  | O => None
  | S f =>
    let high_bits := min / 65536 * 65536 in
    let container_min := min mod 65536 in
    let container_max := Z.min (max - high_bits) 65536 in
    do c <- container_from_range container_min container_max step;
    do (r1, _) <- insert_container r (high48 min) c;
    let gap := container_max - container_min + step - 1 in
    let increment := gap - gap mod step in
    if 2^64 - 1 - increment <? min then Some r1
    else if min + increment <? max then from_range_loop64 f r1 (min + increment) max step else Some r1
  end.
Definition roaring64_bitmap_from_range (min max step : Z) : option (option r64) :=
  if (step =? 0) || (max <=? min) then Some None
  else
    let fuel := Z.to_nat ((max - min) / step + 2) in
    if 65536 <=? step then do r <- from_range_big64 fuel roaring64_bitmap_create min max step; Some (Some r)
    else do r <- from_range_loop64 fuel roaring64_bitmap_create min max step; Some (Some r).

(** roaring64.c:449-471 add_range_closed_at *)
Definition add_range_closed_at (r : r64) (key : list Z) (min max : Z) : option r64 :=
  do leaf <- art_find (r_art r) key;
  if negb (leaf =? 0) then
    do v <- leaf_raw (r_art r) leaf;
    do c <- get_container r v;
    replace_container r leaf (container_add_range c min max)
  else do (r1, _) <- insert_container r key (container_range_of_ones min (max + 1)); Some r1.
(** a loop over consecutive high 48 bits *)
Fixpoint over_keys (keys : list Z) (f : r64 -> Z -> option r64) (r : r64) : option r64 :=
  match keys with [] => Some r | h :: t => do r1 <- f r h; over_keys t f r1 end.
(** roaring64.c:481-510 roaring64_bitmap_add_range_closed *)
Definition roaring64_bitmap_add_range_closed (r : r64) (min max : Z) : option r64 :=
  if max <? min then Some r
  else if art_compare_keys (high48 min) (high48 max) =? 0 then add_range_closed_at r (high48 min) (low16 min) (low16 max)
  else
    do r1 <- add_range_closed_at r (high48 min) (low16 min) 65535;
    do r2 <- over_keys (zr (min / 65536 + 1) (max / 65536)) (fun r current => add_range_closed_at r (high48 (current * 65536)) 0 65535) r1;
    add_range_closed_at r2 (high48 max) 0 (low16 max).
(** roaring64.c:473-479 roaring64_bitmap_add_range *)
Definition roaring64_bitmap_add_range (r : r64) (min max : Z) : option r64 :=
  if max <=? min then Some r else roaring64_bitmap_add_range_closed r min (max - 1).

(** roaring64.c:512-521 roaring64_bitmap_contains *)
Definition roaring64_bitmap_contains (r : r64) (val : Z) : option bool :=
  do leaf <- art_find (r_art r) (high48 val);
  if negb (leaf =? 0) then
    do v <- leaf_raw (r_art r) leaf; do c <- get_container r v; Some (container_contains c (low16 val))
  else Some false.
(** roaring64.c:523-578 roaring64_bitmap_contains_range: the loop state is the previous high
    48 bits or the result *)
Definition contains_range_body (r : r64) (min max : Z) (key : list Z) (leaf : Z) (s : Z + bool) : option ((Z + bool) * bool) :=
  match s with
  | inr _ => Some (s, false)
  | inl prev =>
    let max_high48_bits := (max - 1) / 65536 * 65536 in
    let current := combine_key key 0 in
    if max_high48_bits <? current then Some (inr true, false)
    else if 65536 <? current - prev then Some (inr false, false)
    else
      let container_min := if art_compare_keys key (high48 min) =? 0 then low16 min else 0 in
      let container_max := if art_compare_keys key (high48 max) =? 0 then low16 max else 65536 in
      do c <- get_container r leaf;
      if (container_min =? 0) && (container_max =? 65536) then
        if negb (container_is_full c) then Some (inr false, false) else Some (inl current, true)
      else if negb (container_contains_range c container_min container_max) then Some (inr false, false)
      else Some (inl current, true)
  end.
Definition roaring64_bitmap_contains_range (r : r64) (min max : Z) : option bool :=
  if max <=? min then Some true
  else
    do it <- art_lower_bound (r_art r) (high48 min);
    if (i_val it =? 0) || (min <? combine_key (i_key it) 0) then Some false
    else
      do s <- each (fuel64 r) (r_art r) it (contains_range_body r min max) (inl (min / 65536 * 65536));
      match s with inl prev => Some (prev =? (max - 1) / 65536 * 65536) | inr b => Some b end.
(** roaring64.c:580-599 roaring64_bitmap_contains_bulk *)
Definition roaring64_bitmap_contains_bulk (r : r64) (cx : ctx) (val : Z) : option (ctx * bool) :=
  if (c_leaf cx =? 0) || negb (art_compare_keys (c_high cx) (high48 val) =? 0) then
    do leaf <- art_find (r_art r) (high48 val);
    if leaf =? 0 then Some (cx, false)
    else
      do v <- leaf_raw (r_art r) leaf; do c <- get_container r v;
      Some (Ctx leaf (high48 val), container_contains c (low16 val))
  else
    do v <- leaf_raw (r_art r) (c_leaf cx); do c <- get_container r v;
    Some (cx, container_contains c (low16 val)).

(** roaring64.c:601-624 roaring64_bitmap_select: state = start_rank or the result *)
Definition select_body (r : r64) (rank : Z) (key : list Z) (leaf : Z) (s : Z + option Z) : option ((Z + option Z) * bool) :=
  match s with
  | inr _ => Some (s, false)
  | inl start_rank =>
    do c <- get_container r leaf;
    let cardinality := container_get_cardinality c in
    if rank <? (start_rank + cardinality) mod 2^64 then
      match fst (container_select c 0 (rank - start_rank)) with
      | Some x => Some (inr (Some (combine_key key x)), false)
      | None => Some (inr None, false)
      end
    else Some (inl (start_rank + cardinality), true)
  end.
Definition roaring64_bitmap_select (r : r64) (rank : Z) : option (option Z) :=
  do s <- each_of r (select_body r rank) (inl 0);
  match s with inl _ => Some None | inr o => Some o end.
(** roaring64.c:626-647 roaring64_bitmap_rank *)
Definition rank_body (r : r64) (val : Z) (key : list Z) (leaf : Z) (rank : Z) : option (Z * bool) :=
  do c <- get_container r leaf;
  let cmp := art_compare_keys key (high48 val) in
  if cmp <? 0 then Some (rank + container_get_cardinality c, true)
  else if cmp =? 0 then Some (rank + container_rank c (low16 val), false)
  else Some (rank, false).
Definition roaring64_bitmap_rank (r : r64) (val : Z) : option Z := do n <- each_of r (rank_body r val) 0; Some (n mod 2^64).
(** roaring64.c:649-676 roaring64_bitmap_get_index *)
Definition get_index_body (r : r64) (val : Z) (key : list Z) (leaf : Z) (s : Z + option Z) : option ((Z + option Z) * bool) :=
  match s with
  | inr _ => Some (s, false)
  | inl index =>
    do c <- get_container r leaf;
    let cmp := art_compare_keys key (high48 val) in
    if cmp <? 0 then Some (inl (index + container_get_cardinality c), true)
    else if cmp =? 0 then
      let index16 := container_get_index c (low16 val) in
      if index16 <? 0 then Some (inr None, false) else Some (inr (Some (index + index16)), false)
    else Some (inr None, false)
  end.
Definition roaring64_bitmap_get_index (r : r64) (val : Z) : option (option Z) :=
  do s <- each_of r (get_index_body r val) (inl 0);
  match s with inl _ => Some None | inr o => Some o end.

(** roaring64.c:679-704 containerptr_roaring64_bitmap_remove: whether a container was removed;
    art_erase writes the erased value into *leaf, which lies in the released slot *)
Definition containerptr_remove (r : r64) (key : list Z) (low leaf : Z) : option (r64 * bool) :=
  if leaf =? 0 then Some (r, false)
  else
    do v <- leaf_raw (r_art r) leaf;
    do c <- get_container r v;
    let c2 := container_remove c low in
    do r1 <- replace_container r leaf c2;
    if negb (container_nonzero_cardinality c2) then
      do (a, erased) <- art_erase (r_art r1) key;
      do v2 <- erased;
      Some (remove_container (with_art r1 a) v2, true)
    else Some (r1, false).
(** roaring64.c:706-713 roaring64_bitmap_remove *)
Definition roaring64_bitmap_remove (r : r64) (val : Z) : option r64 :=
  do leaf <- art_find (r_art r) (high48 val);
  do (r1, _) <- containerptr_remove r (high48 val) (low16 val) leaf;
  Some r1.
(** roaring64.c:715-732 roaring64_bitmap_remove_checked *)
Definition roaring64_bitmap_remove_checked (r : r64) (val : Z) : option (r64 * bool) :=
  do leaf <- art_find (r_art r) (high48 val);
  if leaf =? 0 then Some (r, false)
  else
    do old_cardinality <- leaf_card r leaf;
    do (r1, gone) <- containerptr_remove r (high48 val) (low16 val) leaf;
    if (gone : bool) then Some (r1, true)
    else do new_cardinality <- leaf_card r1 leaf; Some (r1, negb (new_cardinality =? old_cardinality)).
(** roaring64.c:734-767 roaring64_bitmap_remove_bulk *)
Definition roaring64_bitmap_remove_bulk (r : r64) (cx : ctx) (val : Z) : option (r64 * ctx) :=
  if negb (c_leaf cx =? 0) && (art_compare_keys (c_high cx) (high48 val) =? 0) then
    do v <- leaf_raw (r_art r) (c_leaf cx);
    do c <- get_container r v;
    let c2 := container_remove c (low16 val) in
    do r1 <- replace_container r (c_leaf cx) c2;
    if negb (container_nonzero_cardinality c2) then
      do (a, erased) <- art_erase (r_art r1) (high48 val);
      do v2 <- erased;
      Some (remove_container (with_art r1 a) v2, cx)
    else Some (r1, cx)
  else
    do leaf <- art_find (r_art r) (high48 val);
    do (r1, _) <- containerptr_remove r (high48 val) (low16 val) leaf;
    Some (r1, Ctx leaf (high48 val)).
(** roaring64.c:769-780 roaring64_bitmap_remove_many *)
Fixpoint remove_many_loop (r : r64) (cx : ctx) (vals : list Z) : option r64 :=
  match vals with
  | [] => Some r
  | v :: t => do (r1, cx1) <- roaring64_bitmap_remove_bulk r cx v; remove_many_loop r1 cx1 t
  end.
Definition roaring64_bitmap_remove_many (r : r64) (vals : list Z) : option r64 := remove_many_loop r ctx0 vals.

(** roaring64.c:782-804 remove_range_closed_at: *leaf is read after the leaf was released *)
Definition remove_range_closed_at (r : r64) (key : list Z) (min max : Z) : option r64 :=
  do leaf <- art_find (r_art r) key;
  if leaf =? 0 then Some r
  else
    do v <- leaf_raw (r_art r) leaf;
    do c <- get_container r v;
    match container_remove_range c min max with
    | Some c2 => replace_container r leaf c2
    | None =>
      do (a, erased) <- art_erase (r_art r) key;
      do _ <- erased;
      do v2 <- leaf_raw a leaf;
      Some (remove_container (with_art r a) v2)
    end.
(** roaring64.c:834-842 the loop of remove_range_closed *)
Fixpoint remove_until (fuel : nat) (r : r64) (it : iter) (max_high48 : list Z) : option r64 :=
  match fuel with
  | O => None
  | S f =>
    if negb (i_val it =? 0) && (art_compare_keys (i_key it) max_high48 <? 0) then
      do (a, it1, erased) <- art_iterator_erase (r_art r) it;
      do v <- erased;
      do _ <- get_container r v;
      remove_until f (remove_container (with_art r a) v) it1 max_high48
    else Some r
  end.
(** roaring64.c:814-844 roaring64_bitmap_remove_range_closed *)
Definition roaring64_bitmap_remove_range_closed (r : r64) (min max : Z) : option r64 :=
  if max <? min then Some r
  else if art_compare_keys (high48 min) (high48 max) =? 0 then remove_range_closed_at r (high48 min) (low16 min) (low16 max)
  else
    do r1 <- remove_range_closed_at r (high48 min) (low16 min) 65535;
    do it <- art_upper_bound (r_art r1) (high48 min);
    do r2 <- remove_until (fuel64 r1) r1 it (high48 max);
    remove_range_closed_at r2 (high48 max) 0 (low16 max).
(** roaring64.c:806-812 roaring64_bitmap_remove_range, 846-848 roaring64_bitmap_clear *)
Definition roaring64_bitmap_remove_range (r : r64) (min max : Z) : option r64 :=
  if max <=? min then Some r else roaring64_bitmap_remove_range_closed r min (max - 1).
Definition roaring64_bitmap_clear (r : r64) : option r64 := roaring64_bitmap_remove_range_closed r 0 (2^64 - 1).

(** ** Counting, extrema *)
(** roaring64.c:850-860 roaring64_bitmap_get_cardinality *)
Definition card_body (r : r64) (key : list Z) (leaf : Z) (n : Z) : option (Z * bool) :=
  do c <- get_container r leaf; Some (n + container_get_cardinality c, true).
(** the sum is a uint64: 2^64 when every value is present wraps to 0 *)
Definition roaring64_bitmap_get_cardinality (r : r64) : option Z := do n <- each_of r (card_body r) 0; Some (n mod 2^64).
(** roaring64.c:873-913 roaring64_bitmap_range_closed_cardinality *)
Definition range_card_body (r : r64) (min max : Z) (key : list Z) (leaf : Z) (n : Z) : option (Z * bool) :=
  let max_compare_result := art_compare_keys key (high48 max) in
  if 0 <? max_compare_result then Some (n, false)
  else
    do c <- get_container r leaf;
    let n1 := if max_compare_result =? 0 then n + container_rank c (low16 max) else n + container_get_cardinality c in
    let n2 := if (art_compare_keys key (high48 min) =? 0) && (0 <? low16 min) then n1 - container_rank c (low16 min - 1) else n1 in
    Some (n2, true).
Definition roaring64_bitmap_range_closed_cardinality (r : r64) (min max : Z) : option Z :=
  if max <? min then Some 0
  else
    do it <- art_lower_bound (r_art r) (high48 min);
    do n <- each (fuel64 r) (r_art r) it (range_card_body r min max) 0;
    Some (n mod 2^64).
(** roaring64.c:862-871 roaring64_bitmap_range_cardinality *)
Definition roaring64_bitmap_range_cardinality (r : r64) (min max : Z) : option Z :=
  if max <=? min then Some 0 else roaring64_bitmap_range_closed_cardinality r min (max - 1).
(** roaring64.c:915-917 roaring64_bitmap_is_empty *)
Definition roaring64_bitmap_is_empty (r : r64) : bool := art_is_empty (r_art r).
(** roaring64.c:919-927 roaring64_bitmap_minimum *)
Definition roaring64_bitmap_minimum (r : r64) : option Z :=
  do it <- art_init_iterator (r_art r) true;
  if i_val it =? 0 then Some (2^64 - 1)
  else do v <- leaf_val (r_art r) (i_val it); do c <- get_container r v; Some (combine_key (i_key it) (container_minimum c)).
(** roaring64.c:929-937 roaring64_bitmap_maximum *)
Definition roaring64_bitmap_maximum (r : r64) : option Z :=
  do it <- art_init_iterator (r_art r) false;
  if i_val it =? 0 then Some 0
  else do v <- leaf_val (r_art r) (i_val it); do c <- get_container r v; Some (combine_key (i_key it) (container_maximum c)).
(** roaring64.c:939-954 roaring64_bitmap_run_optimize *)
Fixpoint run_optimize_loop (fuel : nat) (r : r64) (it : iter) (has_run : bool) : option (r64 * bool) :=
  match fuel with
  | O => None
  | S f =>
    if i_val it =? 0 then Some (r, has_run)
    else
      do v <- leaf_val (r_art r) (i_val it);
      do c <- get_container r v;
      let c2 := convert_run_optimize c in
      do r1 <- replace_container r (i_val it) c2;
      do (it1, _) <- art_iterator_next (r_art r1) it;
      run_optimize_loop f r1 it1 (has_run || RQuery.is_run c2)
  end.
Definition roaring64_bitmap_run_optimize (r : r64) : option (r64 * bool) :=
  do it <- art_init_iterator (r_art r) true; run_optimize_loop (fuel64 r) r it false.

(** ** Comparisons *)
(** roaring64.c:1054-1073 roaring64_bitmap_equals *)
Fixpoint equals_loop (fuel : nat) (r1 r2 : r64) (it1 it2 : iter) : option bool :=
  match fuel with
  | O => None
  | S f =>
    if negb (i_val it1 =? 0) && negb (i_val it2 =? 0) then
      if negb (art_compare_keys (i_key it1) (i_key it2) =? 0) then Some false
      else
        do v1 <- leaf_val (r_art r1) (i_val it1); do c1 <- get_container r1 v1;
        do v2 <- leaf_val (r_art r2) (i_val it2); do c2 <- get_container r2 v2;
        if negb (container_equals c1 c2) then Some false
        else do (j1, _) <- art_iterator_next (r_art r1) it1; do (j2, _) <- art_iterator_next (r_art r2) it2; equals_loop f r1 r2 j1 j2
    else Some ((i_val it1 =? 0) && (i_val it2 =? 0))
  end.
(** two iterators at the first leaves, and a bound for loops over both *)
Definition both {A} (r1 r2 : r64) (loop : nat -> iter -> iter -> option A) : option A :=
  do it1 <- art_init_iterator (r_art r1) true;
  do it2 <- art_init_iterator (r_art r2) true;
  loop (fuel64 r1 + 2 * fuel64 r2)%nat it1 it2.
Definition roaring64_bitmap_equals (r1 r2 : r64) : option bool := both r1 r2 (fun f => equals_loop f r1 r2).
(** roaring64.c:1075-1105 roaring64_bitmap_is_subset *)
Fixpoint subset_loop64 (fuel : nat) (r1 r2 : r64) (it1 it2 : iter) : option bool :=
  match fuel with
  | O => None
  | S f =>
    if i_val it1 =? 0 then Some true
    else if i_val it2 =? 0 then Some false
    else
      let cmp := art_compare_keys (i_key it1) (i_key it2) in
      if cmp =? 0 then
        do v1 <- leaf_val (r_art r1) (i_val it1); do c1 <- get_container r1 v1;
        do v2 <- leaf_val (r_art r2) (i_val it2); do c2 <- get_container r2 v2;
        if negb (container_is_subset c1 c2) then Some false
        else do (j1, _) <- art_iterator_next (r_art r1) it1; do (j2, _) <- art_iterator_next (r_art r2) it2; subset_loop64 f r1 r2 j1 j2
      else if cmp <? 0 then Some false
      else do (j2, _) <- art_iterator_lower_bound (r_art r2) it2 (i_key it1); subset_loop64 f r1 r2 it1 j2
  end.
Definition roaring64_bitmap_is_subset (r1 r2 : r64) : option bool := both r1 r2 (fun f => subset_loop64 f r1 r2).
(** roaring64.c:1107-1112 roaring64_bitmap_is_strict_subset *)
Definition roaring64_bitmap_is_strict_subset (r1 r2 : r64) : option bool :=
  do n1 <- roaring64_bitmap_get_cardinality r1; do n2 <- roaring64_bitmap_get_cardinality r2;
  if n1 <? n2 then roaring64_bitmap_is_subset r1 r2 else Some false.

(** ** Set operations *)
(** the loop shared by roaring64_bitmap_and, _and_cardinality and _intersect *)
Fixpoint inter_loop {A} (fuel : nat) (r1 r2 : r64) (f2 : list Z -> container -> container -> A -> option A) (it1 it2 : iter) (s : A) : option A :=
  match fuel with
  | O => None
  | S f =>
    if negb (i_val it1 =? 0) && negb (i_val it2 =? 0) then
      let cmp := art_compare_keys (i_key it1) (i_key it2) in
      if cmp =? 0 then
        do v1 <- leaf_val (r_art r1) (i_val it1); do c1 <- get_container r1 v1;
        do v2 <- leaf_val (r_art r2) (i_val it2); do c2 <- get_container r2 v2;
        do s1 <- f2 (i_key it1) c1 c2 s;
        do (j1, _) <- art_iterator_next (r_art r1) it1; do (j2, _) <- art_iterator_next (r_art r2) it2;
        inter_loop f r1 r2 f2 j1 j2 s1
      else if cmp <? 0 then do (j1, _) <- art_iterator_lower_bound (r_art r1) it1 (i_key it2); inter_loop f r1 r2 f2 j1 it2 s
      else do (j2, _) <- art_iterator_lower_bound (r_art r2) it2 (i_key it1); inter_loop f r1 r2 f2 it1 j2 s
    else Some s
  end.
(** storing a result container unless it is empty *)
Definition emit64 (res : r64) (key : list Z) (c : container) : option r64 :=
  if container_nonzero_cardinality c then do (res1, _) <- insert_container res key c; Some res1 else Some res.
(** roaring64.c:1114-1155 roaring64_bitmap_and *)
Definition roaring64_bitmap_and (r1 r2 : r64) : option r64 :=
  both r1 r2 (fun f it1 it2 => inter_loop f r1 r2 (fun key c1 c2 res => emit64 res key (container_and c1 c2)) it1 it2 roaring64_bitmap_create).
(** roaring64.c:1157-1188 roaring64_bitmap_and_cardinality *)
Definition roaring64_bitmap_and_cardinality (r1 r2 : r64) : option Z :=
  do n <- both r1 r2 (fun f it1 it2 => inter_loop f r1 r2 (fun _ c1 c2 n => Some (n + container_and_cardinality c1 c2)) it1 it2 0);
  Some (n mod 2^64).
(** roaring64.c:1268-1298 roaring64_bitmap_intersect *)
Definition roaring64_bitmap_intersect (r1 r2 : r64) : option bool :=
  both r1 r2 (fun f it1 it2 => inter_loop f r1 r2 (fun _ c1 c2 b => Some (b || container_intersect c1 c2)) it1 it2 false).
(** roaring64.c:1376-1382, 1503-1509, 1643-1648: or, xor, andnot cardinality (uint64 arithmetic) *)
Definition roaring64_bitmap_or_cardinality (r1 r2 : r64) : option Z :=
  do c1 <- roaring64_bitmap_get_cardinality r1; do c2 <- roaring64_bitmap_get_cardinality r2;
  do inter <- roaring64_bitmap_and_cardinality r1 r2; Some ((c1 + c2 - inter) mod 2^64).
Definition roaring64_bitmap_xor_cardinality (r1 r2 : r64) : option Z :=
  do c1 <- roaring64_bitmap_get_cardinality r1; do c2 <- roaring64_bitmap_get_cardinality r2;
  do inter <- roaring64_bitmap_and_cardinality r1 r2; Some ((c1 + c2 - 2 * inter) mod 2^64).
Definition roaring64_bitmap_andnot_cardinality (r1 r2 : r64) : option Z :=
  do c1 <- roaring64_bitmap_get_cardinality r1;
  do inter <- roaring64_bitmap_and_cardinality r1 r2; Some ((c1 - inter) mod 2^64).
(** roaring64.c:1314-1320 roaring64_bitmap_jaccard_index: numerator and denominator *)
Definition roaring64_bitmap_jaccard_index (r1 r2 : r64) : option (Z * Z) :=
  do c1 <- roaring64_bitmap_get_cardinality r1; do c2 <- roaring64_bitmap_get_cardinality r2;
  do inter <- roaring64_bitmap_and_cardinality r1 r2; Some (inter, (c1 + c2 - inter) mod 2^64).
(** copying the leaf an iterator is at *)
Definition copy_at (r : r64) (it : iter) (res : r64) : option r64 :=
  do v <- leaf_val (r_art r) (i_val it); do c <- get_container r v;
  do (res1, _) <- insert_container res (i_key it) c; Some res1.
(** roaring64.c:1322-1374 roaring64_bitmap_or, 1444-1501 roaring64_bitmap_xor *)
Fixpoint union_loop64 (fuel : nat) (r1 r2 : r64) (put : r64 -> list Z -> container -> container -> option r64) (it1 it2 : iter) (res : r64) : option r64 :=
  match fuel with
  | O => None
  | S f =>
    let p1 := negb (i_val it1 =? 0) in
    let p2 := negb (i_val it2 =? 0) in
    if negb (p1 || p2) then Some res
    else
      let cmp := if p1 && p2 then art_compare_keys (i_key it1) (i_key it2) else 0 in
      if p1 && p2 && (cmp =? 0) then
        do v1 <- leaf_val (r_art r1) (i_val it1); do c1 <- get_container r1 v1;
        do v2 <- leaf_val (r_art r2) (i_val it2); do c2 <- get_container r2 v2;
        do res1 <- put res (i_key it1) c1 c2;
        do (j1, _) <- art_iterator_next (r_art r1) it1; do (j2, _) <- art_iterator_next (r_art r2) it2;
        union_loop64 f r1 r2 put j1 j2 res1
      else if (p1 && negb p2) || (cmp <? 0) then
        do res1 <- copy_at r1 it1 res; do (j1, _) <- art_iterator_next (r_art r1) it1; union_loop64 f r1 r2 put j1 it2 res1
      else
        do res1 <- copy_at r2 it2 res; do (j2, _) <- art_iterator_next (r_art r2) it2; union_loop64 f r1 r2 put it1 j2 res1
  end.
Definition roaring64_bitmap_or (r1 r2 : r64) : option r64 :=
  both r1 r2 (fun f it1 it2 => union_loop64 f r1 r2
    (fun res key c1 c2 => do (res1, _) <- insert_container res key (container_or c1 c2); Some res1) it1 it2 roaring64_bitmap_create).
Definition roaring64_bitmap_xor (r1 r2 : r64) : option r64 :=
  both r1 r2 (fun f it1 it2 => union_loop64 f r1 r2 (fun res key c1 c2 => emit64 res key (container_xor c1 c2)) it1 it2 roaring64_bitmap_create).
(** roaring64.c:1589-1641 roaring64_bitmap_andnot *)
Fixpoint andnot_loop64 (fuel : nat) (r1 r2 : r64) (it1 it2 : iter) (res : r64) : option r64 :=
  match fuel with
  | O => None
  | S f =>
    if i_val it1 =? 0 then Some res
    else
      let p2 := negb (i_val it2 =? 0) in
      let cmp := if p2 then art_compare_keys (i_key it1) (i_key it2) else 0 in
      if p2 && (cmp =? 0) then
        do v1 <- leaf_val (r_art r1) (i_val it1); do c1 <- get_container r1 v1;
        do v2 <- leaf_val (r_art r2) (i_val it2); do c2 <- get_container r2 v2;
        do res1 <- emit64 res (i_key it1) (container_andnot c1 c2);
        do (j1, _) <- art_iterator_next (r_art r1) it1; do (j2, _) <- art_iterator_next (r_art r2) it2;
        andnot_loop64 f r1 r2 j1 j2 res1
      else if negb p2 || (cmp <? 0) then
        do res1 <- copy_at r1 it1 res; do (j1, _) <- art_iterator_next (r_art r1) it1; andnot_loop64 f r1 r2 j1 it2 res1
      else do (j2, _) <- art_iterator_next (r_art r2) it2; andnot_loop64 f r1 r2 it1 j2 res
  end.
Definition roaring64_bitmap_andnot (r1 r2 : r64) : option r64 :=
  both r1 r2 (fun f it1 it2 => andnot_loop64 f r1 r2 it1 it2 roaring64_bitmap_create).

(** ** In-place set operations.  [same] says that the two arguments are the same bitmap.
    storing the result at the leaf of it1, or erasing that leaf when the result is empty; either
    way it1 moves on; *leaf1 is read after the leaf was released *)
Definition store_at (r1 : r64) (it1 : iter) (c : container) : option (r64 * iter) :=
  if negb (container_nonzero_cardinality c) then
    do (a, j1, _) <- art_iterator_erase (r_art r1) it1;
    do v <- leaf_raw a (i_val it1);
    Some (remove_container (with_art r1 a) v, j1)
  else
    do r1' <- replace_container r1 (i_val it1) c;
    do (j1, _) <- art_iterator_next (r_art r1') it1;
    Some (r1', j1).
(** erasing the leaf of it1 and its container *)
Definition erase_at64 (r1 : r64) (it1 : iter) : option (r64 * iter) :=
  do (a, j1, erased) <- art_iterator_erase (r_art r1) it1;
  do v <- erased;
  do _ <- get_container r1 v;
  Some (remove_container (with_art r1 a) v, j1).
(** roaring64.c:1191-1266 roaring64_bitmap_and_inplace *)
Fixpoint iand_loop64 (fuel : nat) (r1 r2 : r64) (it1 it2 : iter) : option r64 :=
  match fuel with
  | O => None
  | S f =>
    if i_val it1 =? 0 then Some r1
    else
      let p2 := negb (i_val it2 =? 0) in
      let cmp := if p2 then art_compare_keys (i_key it1) (i_key it2) else 0 in
      if p2 && (cmp =? 0) then
        do v1 <- leaf_val (r_art r1) (i_val it1); do c1 <- get_container r1 v1;
        do v2 <- leaf_val (r_art r2) (i_val it2); do c2 <- get_container r2 v2;
        do (r1', j1) <- store_at r1 it1 (container_iand c1 c2);
        do (j2, _) <- art_iterator_next (r_art r2) it2;
        iand_loop64 f r1' r2 j1 j2
      else if negb p2 || (cmp <? 0) then do (r1', j1) <- erase_at64 r1 it1; iand_loop64 f r1' r2 j1 it2
      else do (j2, _) <- art_iterator_lower_bound (r_art r2) it2 (i_key it1); iand_loop64 f r1 r2 it1 j2
  end.
Definition roaring64_bitmap_and_inplace (same : bool) (r1 r2 : r64) : option r64 :=
  if same then Some r1 else both r1 r2 (fun f => iand_loop64 f r1 r2).
(** roaring64.c:1384-1442 roaring64_bitmap_or_inplace; [cap] gives the allocated capacity of an
    array container, as in container_ior *)
Fixpoint ior_loop64 (fuel : nat) (cap : list Z -> Z) (r1 r2 : r64) (it1 it2 : iter) : option r64 :=
  match fuel with
  | O => None
  | S f =>
    let p1 := negb (i_val it1 =? 0) in
    let p2 := negb (i_val it2 =? 0) in
    if negb (p1 || p2) then Some r1
    else
      let cmp := if p1 && p2 then art_compare_keys (i_key it1) (i_key it2) else 0 in
      if p1 && p2 && (cmp =? 0) then
        do v1 <- leaf_val (r_art r1) (i_val it1); do c1 <- get_container r1 v1;
        do v2 <- leaf_val (r_art r2) (i_val it2); do c2 <- get_container r2 v2;
        do r1' <- replace_container r1 (i_val it1) (container_ior (cap (i_key it1)) c1 c2);
        do (j1, _) <- art_iterator_next (r_art r1') it1; do (j2, _) <- art_iterator_next (r_art r2) it2;
        ior_loop64 f cap r1' r2 j1 j2
      else if (p1 && negb p2) || (cmp <? 0) then do (j1, _) <- art_iterator_next (r_art r1) it1; ior_loop64 f cap r1 r2 j1 it2
      else
        do v2 <- leaf_val (r_art r2) (i_val it2); do c2 <- get_container r2 v2;
        let '(r1', leaf) := add_container r1 c2 in
        do (a, j1) <- art_iterator_insert (r_art r1') it1 (i_key it2) leaf;
        do (j2, _) <- art_iterator_next (r_art r2) it2;
        ior_loop64 f cap (with_art r1' a) r2 j1 j2
  end.
Definition roaring64_bitmap_or_inplace (same : bool) (cap : list Z -> Z) (r1 r2 : r64) : option r64 :=
  if same then Some r1 else both r1 r2 (fun f => ior_loop64 f cap r1 r2).
(** roaring64.c:1511-1587 roaring64_bitmap_xor_inplace *)
Fixpoint ixor_loop64 (fuel : nat) (r1 r2 : r64) (it1 it2 : iter) : option r64 :=
  match fuel with
  | O => None
  | S f =>
    let p1 := negb (i_val it1 =? 0) in
    let p2 := negb (i_val it2 =? 0) in
    if negb (p1 || p2) then Some r1
    else
      let cmp := if p1 && p2 then art_compare_keys (i_key it1) (i_key it2) else 0 in
      if p1 && p2 && (cmp =? 0) then
        do v1 <- leaf_val (r_art r1) (i_val it1); do c1 <- get_container r1 v1;
        do v2 <- leaf_val (r_art r2) (i_val it2); do c2 <- get_container r2 v2;
        do (r1', j1) <- store_at r1 it1 (container_ixor c1 c2);
        do (j2, _) <- art_iterator_next (r_art r2) it2;
        ixor_loop64 f r1' r2 j1 j2
      else if (p1 && negb p2) || (cmp <? 0) then do (j1, _) <- art_iterator_next (r_art r1) it1; ixor_loop64 f r1 r2 j1 it2
      else
        do v2 <- leaf_val (r_art r2) (i_val it2); do c2 <- get_container r2 v2;
        let '(r1', leaf) := add_container r1 c2 in
        do (a, j1) <- (if p1 then
                         do (a, j) <- art_iterator_insert (r_art r1') it1 (i_key it2) leaf;
                         do (j', _) <- art_iterator_next a j; Some (a, j')
                       else do (a, _) <- art_insert (r_art r1') (i_key it2) leaf; Some (a, it1));
        do (j2, _) <- art_iterator_next (r_art r2) it2;
        ixor_loop64 f (with_art r1' a) r2 j1 j2
  end.
(** the assertion r1 != r2 is an error *)
Definition roaring64_bitmap_xor_inplace (same : bool) (r1 r2 : r64) : option r64 :=
  if same then None else both r1 r2 (fun f => ixor_loop64 f r1 r2).
(** roaring64.c:1650-1714 roaring64_bitmap_andnot_inplace (distinct arguments, roaring64.h:470-476) *)
Fixpoint iandnot_loop64 (fuel : nat) (r1 r2 : r64) (it1 it2 : iter) : option r64 :=
  match fuel with
  | O => None
  | S f =>
    if i_val it1 =? 0 then Some r1
    else
      let p2 := negb (i_val it2 =? 0) in
      let cmp := if p2 then art_compare_keys (i_key it1) (i_key it2) else 0 in
      if p2 && (cmp =? 0) then
        do v1 <- leaf_val (r_art r1) (i_val it1); do c1 <- get_container r1 v1;
        do v2 <- leaf_val (r_art r2) (i_val it2); do c2 <- get_container r2 v2;
        do (r1', j1) <- store_at r1 it1 (container_iandnot c1 c2);
        do (j2, _) <- art_iterator_next (r_art r2) it2;
        iandnot_loop64 f r1' r2 j1 j2
      else if negb p2 || (cmp <? 0) then do (j1, _) <- art_iterator_next (r_art r1) it1; iandnot_loop64 f r1 r2 j1 it2
      else do (j2, _) <- art_iterator_next (r_art r2) it2; iandnot_loop64 f r1 r2 it1 j2
  end.
Definition roaring64_bitmap_andnot_inplace (r1 r2 : r64) : option r64 := both r1 r2 (fun f => iandnot_loop64 f r1 r2).

(** ** Flipping *)
(** roaring64.c:1720-1745 roaring64_flip_leaf *)
Definition roaring64_flip_leaf (r1 r2 : r64) (key : list Z) (min max : Z) : option r64 :=
  do leaf1 <- art_find (r_art r1) key;
  do c2 <- (if leaf1 =? 0 then Some (container_range_of_ones min max)
            else
              do v <- leaf_raw (r_art r1) leaf1; do c <- get_container r1 v;
              Some (if (min =? 0) && (65535 <? max) then container_not c else container_not_range c min max));
  emit64 r2 key c2.
(** roaring64.c:1752-1783 roaring64_flip_leaf_inplace *)
Definition roaring64_flip_leaf_inplace (cap : list Z -> Z) (r : r64) (key : list Z) (min max : Z) : option r64 :=
  do leaf <- art_find (r_art r) key;
  if leaf =? 0 then do (r1, _) <- insert_container r key (container_range_of_ones min max); Some r1
  else
    do v <- leaf_raw (r_art r) leaf; do c <- get_container r v;
    let c2 := if (min =? 0) && (65535 <? max) then container_inot (cap key) c else container_inot_range (cap key) c min max in
    if container_nonzero_cardinality c2 then replace_container r leaf c2
    else
      do (a, erased) <- art_erase (r_art r) key;
      do _ <- erased;
      do v2 <- leaf_raw a leaf;
      Some (remove_container (with_art r a) v2).
(** the bounds inside the container of the key h: roaring64.c:1829-1836 *)
Definition flip_min (min h : Z) : Z := if h =? min / 65536 then low16 min else 0.
Definition flip_max (max h : Z) : Z := if h =? max / 65536 then low16 max + 1 else 65536.
(** roaring64.c:1793-1852 roaring64_bitmap_flip_closed *)
Definition roaring64_bitmap_flip_closed (r1 : r64) (min max : Z) : option r64 :=
  if max <? min then roaring64_bitmap_copy r1
  else
    do ra <- each_of r1 (fun key leaf res =>
               if art_compare_keys key (high48 min) <? 0 then copy_body r1 key leaf res else Some (res, false)) roaring64_bitmap_create;
    do rb <- over_keys (zr (min / 65536) (max / 65536 + 1))
               (fun r2 h => roaring64_flip_leaf r1 r2 (high48 (h * 65536)) (flip_min min h) (flip_max max h)) ra;
    do it <- art_upper_bound (r_art r1) (high48 max);
    each (fuel64 r1) (r_art r1) it (copy_body r1) rb.
(** roaring64.c:1785-1791 roaring64_bitmap_flip *)
Definition roaring64_bitmap_flip (r : r64) (min max : Z) : option r64 :=
  if max <=? min then roaring64_bitmap_copy r else roaring64_bitmap_flip_closed r min (max - 1).
(** roaring64.c:1862-1891 roaring64_bitmap_flip_closed_inplace *)
Definition roaring64_bitmap_flip_closed_inplace (cap : list Z -> Z) (r : r64) (min max : Z) : option r64 :=
  if max <? min then Some r
  else over_keys (zr (min / 65536) (max / 65536 + 1))
         (fun r h => roaring64_flip_leaf_inplace cap r (high48 (h * 65536)) (flip_min min h) (flip_max max h)) r.
(** roaring64.c:1854-1860 roaring64_bitmap_flip_inplace *)
Definition roaring64_bitmap_flip_inplace (cap : list Z -> Z) (r : r64) (min max : Z) : option r64 :=
  if max <=? min then Some r else roaring64_bitmap_flip_closed_inplace cap r min (max - 1).

(** ** Enumeration *)
(** containers.h:1967-1990 container_iterate64: the values handed to the callback *)
Definition container_iterate64_seq (c : container) (base high_bits : Z) : list Z :=
  map (fun v => Z.lor high_bits v) (RQuery.container_iterate_seq c base).
(** roaring64.c:2528-2543 roaring64_bitmap_iterate *)
Definition roaring64_bitmap_iterate {A} (f : A -> Z -> A * bool) (r : r64) (s : A) : option (A * bool) :=
  each_of r (fun key leaf (p : A * bool) =>
    do c <- get_container r leaf;
    let high48 := combine_key key 0 in
    let high32 := high48 / 2^32 * 2^32 in
    let low32 := high48 mod 2^32 in
    let q := RQuery.iter_seq f (container_iterate64_seq c low32 high32) (fst p) in
    Some (q, snd q)) (s, true).

(** ** Iterators *)
(** roaring64.c:51-65 roaring64_iterator_t: [j_sat] is saturated_forward, None while it has
    never been written *)
Record iter64 := IT64 { j_it : iter; j_ci : Z; j_high : Z; j_value : Z; j_has : bool; j_sat : option bool }.
(** roaring64.c:186-195 roaring64_iterator_init_at_leaf_first, 197-206 _last *)
Definition init_at_leaf (init : container -> option (Z * Z)) (r : r64) (j : iter64) : option (iter64 * bool) :=
  let high := combine_key (i_key (j_it j)) 0 in
  do v <- leaf_val (r_art r) (i_val (j_it j));
  do c <- get_container r v;
  do (ci, low) <- init c;
  Some (IT64 (j_it j) ci high (high + low) true (j_sat j), true).
Definition init_at_leaf_first := init_at_leaf Iter.container_init_iterator.
Definition init_at_leaf_last := init_at_leaf Iter.container_init_iterator_last.
(** roaring64.c:208-223 roaring64_iterator_init_at (reinit: 2565-2573) *)
Definition iterator_init_at (r : r64) (j : iter64) (first : bool) : option iter64 :=
  do it <- art_init_iterator (r_art r) first;
  let has := negb (i_val it =? 0) in
  let j1 := IT64 it (j_ci j) (j_high j) (j_value j) has (j_sat j) in
  if has then
    do (j2, _) <- (if first then init_at_leaf_first r j1 else init_at_leaf_last r j1); Some j2
  else Some (IT64 it (j_ci j) (j_high j) (j_value j) false (Some first)).
(** roaring64.c:2552-2563 roaring64_iterator_create, _create_last: fresh memory; the fields other
    than saturated_forward are written before they are read, their initial value is immaterial *)
Definition iter64_raw : iter64 := IT64 it_zero 0 0 0 false None.
Definition roaring64_iterator_create (r : r64) : option iter64 := iterator_init_at r iter64_raw true.
Definition roaring64_iterator_create_last (r : r64) : option iter64 := iterator_init_at r iter64_raw false.
Definition set_has (j : iter64) (has : bool) : iter64 := IT64 (j_it j) (j_ci j) (j_high j) (j_value j) has (j_sat j).
(** roaring64.c:2592-2612 roaring64_iterator_advance *)
Definition roaring64_iterator_advance (r : r64) (j : iter64) : option (iter64 * bool) :=
  if i_val (j_it j) =? 0 then
    do sat <- j_sat j;
    if (sat : bool) then Some (set_has j false, false)
    else do j1 <- iterator_init_at r j true; Some (j1, j_has j1)
  else
    do v <- leaf_val (r_art r) (i_val (j_it j));
    do c <- get_container r v;
    do (ok, ci, low) <- Iter.container_iterator_next c (j_ci j) (j_value j mod 65536);
    if (ok : bool) then Some (IT64 (j_it j) ci (j_high j) (j_high j + low) true (j_sat j), true)
    else
      do (it1, more) <- art_iterator_next (r_art r) (j_it j);
      let j1 := IT64 it1 ci (j_high j) (j_value j) (j_has j) (j_sat j) in
      if (more : bool) then init_at_leaf_first r j1
      else Some (IT64 it1 ci (j_high j) (j_value j) false (Some true), false).
(** roaring64.c:2614-2635 roaring64_iterator_previous *)
Definition roaring64_iterator_previous (r : r64) (j : iter64) : option (iter64 * bool) :=
  if i_val (j_it j) =? 0 then
    do sat <- j_sat j;
    if negb sat then Some (set_has j false, false)
    else do j1 <- iterator_init_at r j false; Some (j1, j_has j1)
  else
    do v <- leaf_val (r_art r) (i_val (j_it j));
    do c <- get_container r v;
    do (ok, ci, low) <- Iter.container_iterator_prev c (j_ci j) (j_value j mod 65536);
    if (ok : bool) then Some (IT64 (j_it j) ci (j_high j) (j_high j + low) true (j_sat j), true)
    else
      do (it1, more) <- art_iterator_prev (r_art r) (j_it j);
      let j1 := IT64 it1 ci (j_high j) (j_value j) (j_has j) (j_sat j) in
      if (more : bool) then init_at_leaf_last r j1
      else Some (IT64 it1 ci (j_high j) (j_value j) false (Some false), false).
(** roaring64.c:2637-2675 roaring64_iterator_move_equalorlarger *)
Definition roaring64_iterator_move_equalorlarger (r : r64) (j : iter64) (val : Z) : option (iter64 * bool) :=
  let vh := val / 65536 * 65536 in
  do (j1, found) <-
    (if negb (j_has j) || negb (j_high j =? vh) then
       do (it1, ok) <- art_iterator_lower_bound (r_art r) (j_it j) (high48 val);
       if negb ok then Some (IT64 it1 (j_ci j) (j_high j) (j_value j) false (Some true), false)
       else Some (IT64 it1 (j_ci j) (combine_key (i_key it1) 0) (j_value j) (j_has j) (j_sat j), true)
     else Some (j, true));
  if negb found then Some (j1, false)
  else if j_high j1 =? vh then
    do v <- leaf_val (r_art r) (i_val (j_it j1));
    do c <- get_container r v;
    do (ok, ci, low) <- Iter.container_iterator_lower_bound c (j_ci j1) (j_value j1 mod 65536) (low16 val);
    if (ok : bool) then Some (IT64 (j_it j1) ci (j_high j1) (j_high j1 + low) true (j_sat j1), true)
    else
      do (it2, more) <- art_iterator_next (r_art r) (j_it j1);
      let j2 := IT64 it2 ci (j_high j1) (j_value j1) (j_has j1) (j_sat j1) in
      if negb more then Some (IT64 it2 ci (j_high j1) (j_value j1) false (Some true), false)
      else init_at_leaf_first r j2
  else init_at_leaf_first r j1.
(** roaring64.c:2677-2705 roaring64_iterator_read: the values stored; the returned count is their
    number; None also when the assertion at 2696 fails *)
Fixpoint iterator_read64 (fuel : nat) (r : r64) (j : iter64) (count : Z) : option (iter64 * list Z) :=
  match fuel with
  | O => None
  | S f =>
    if j_has j && (0 <? count) then
      do v <- leaf_val (r_art r) (i_val (j_it j));
      do c <- get_container r v;
      do (has, ci, low, out) <- Iter.container_iterator_read_into c (j_ci j) (j_value j mod 65536) (Z.min count (2^32 - 1));
      let out1 := map (fun x => j_high j + x) out in
      if (has : bool) then
        if zlen out =? count then Some (IT64 (j_it j) ci (j_high j) (j_high j + low) true (j_sat j), out1) else None
      else
        do (it1, more) <- art_iterator_next (r_art r) (j_it j);
        let j1 := IT64 it1 ci (j_high j) (j_value j) more (j_sat j) in
        do j2 <- (if (more : bool) then do (j2, _) <- init_at_leaf_first r j1; Some j2 else Some j1);
        do (j3, out2) <- iterator_read64 f r j2 (count - zlen out);
        Some (j3, out1 ++ out2)
    else Some (j, [])
  end.
Definition roaring64_iterator_read (r : r64) (j : iter64) (count : Z) : option (iter64 * list Z) :=
  iterator_read64 (S (fuel64 r)) r j count.
(** roaring64.c:2545-2550 roaring64_bitmap_to_uint64_array *)
Definition roaring64_bitmap_to_uint64_array (r : r64) : option (list Z) :=
  do j <- iterator_init_at r iter64_raw true;
  do (_, out) <- roaring64_iterator_read r j (2^64 - 1);
  Some out.
(** roaring64.c:1300-1312 roaring64_bitmap_intersect_with_range *)
Definition roaring64_bitmap_intersect_with_range (r : r64) (min max : Z) : option bool :=
  if max <=? min then Some false
  else
    do j <- iterator_init_at r iter64_raw true;
    do (j1, ok) <- roaring64_iterator_move_equalorlarger r j min;
    if negb ok then Some false else Some (j_has j1 && (j_value j1 <? max)).
