(** Iter: container iterators (containers.c:291-610) and the bitmap iterator
    roaring_uint32_iterator_t (roaring.c:1636-1850), with
    roaring_bitmap_intersect_with_range (roaring.c:2747-2766).
    [None] is an out-of-bounds read or a failed assertion. *)
From Coq Require Import ZArith List Bool Lia.
From Verif Require Import Base ArrayUtil BitUtil BitsetC ArrayC RunC RunD Convert Containers RArray RBinary RPoint RRange RQuery.
Import ListNotations.
Local Open Scope Z_scope.
Local Opaque zr.

(** ** Container iterators: state = (index, value) *)
(** scan downwards for a non-zero word: containers.c:337-343, 452-461; -1 = none *)
Fixpoint bitset_prev_loop (fuel : nat) (ws : list Z) (k word : Z) : Z :=
  match fuel with
  | O => -1
  | S f => if word =? 0 then
             if k - 1 <? 0 then -1 else bitset_prev_loop f ws (k - 1) (znth ws (k - 1))
           else k * 64 + (63 - clz word)
  end.
(** a checked read of runs[i] *)
Definition rget (r : list run) (i : Z) : option run := if (0 <=? i) && (i <? zlen r) then Some (RunC.rnth r i) else None.
(** containers.c:291-328 container_init_iterator *)
Definition container_init_iterator (c : container) : option (Z * Z) :=
  match c with
  | CBit b => let i := bitset_next_loop 1024 (b_words b) 0 (znth (b_words b) 0) in if i =? -1 then None else Some (i, u16 i)
  | CArr a => if 0 <? zlen a then Some (0, znth a 0) else None
  | CRun r => match rget r 0 with Some x => Some (0, fst x) | None => None end
  end.
(** containers.c:330-371 container_init_iterator_last *)
Definition container_init_iterator_last (c : container) : option (Z * Z) :=
  match c with
  | CBit b => let i := bitset_prev_loop 1024 (b_words b) 1023 (znth (b_words b) 1023) in if i =? -1 then None else Some (i, u16 i)
  | CArr a => if 0 <? zlen a then Some (zlen a - 1, znth a (zlen a - 1)) else None
  | CRun r => match rget r (zlen r - 1) with Some x => Some (zlen r - 1, u16 (fst x + snd x)) | None => None end
  end.
(** containers.c:373-435 container_iterator_next: (result, index, value) *)
Definition container_iterator_next (c : container) (idx v : Z) : option (bool * Z * Z) :=
  match c with
  | CBit b =>
    let i := idx + 1 in
    if i <? 0 then None
    else if 1024 <=? i / 64 then Some (false, i, v)
    else let j := bitset_next_loop 1024 (b_words b) (i / 64) (Z.land (znth (b_words b) (i / 64)) (shl64 ones64 (i mod 64))) in
         if j =? -1 then Some (false, i, v) else Some (true, j, u16 j)
  | CArr a =>
    let i := idx + 1 in
    if i <? zlen a then (if 0 <=? i then Some (true, i, znth a i) else None) else Some (false, i, v)
  | CRun r =>
    if v =? 65535 then Some (false, idx, v)
    else match rget r idx with
    | None => None
    | Some x =>
      if v <? fst x + snd x then Some (true, idx, u16 (v + 1))
      else let i := idx + 1 in
           if i <? zlen r then match rget r i with Some y => Some (true, i, fst y) | None => None end
           else Some (false, i, v)
    end
  end.
(** containers.c:437-493 container_iterator_prev *)
Definition container_iterator_prev (c : container) (idx v : Z) : option (bool * Z * Z) :=
  match c with
  | CBit b =>
    let i := idx - 1 in
    if i <? 0 then Some (false, i, v)
    else if 65536 <=? i then None
    else let j := bitset_prev_loop 1024 (b_words b) (i / 64) (Z.land (znth (b_words b) (i / 64)) (shr64 ones64 (63 - i mod 64))) in
         if j =? -1 then Some (false, i, v) else Some (true, j, u16 j)
  | CArr a =>
    let i := idx - 1 in
    if i <? 0 then Some (false, i, v) else if i <? zlen a then Some (true, i, znth a i) else None
  | CRun r =>
    if v =? 0 then Some (false, idx, v)
    else match rget r idx with
    | None => None
    | Some x =>
      let v' := u16 (v - 1) in
      if fst x <=? v' then Some (true, idx, v')
      else let i := idx - 1 in
           if i <? 0 then Some (false, i, v')
           else match rget r i with Some y => Some (true, i, u16 (fst y + snd y)) | None => None end
    end
  end.
(** containers.c:495-529 container_iterator_lower_bound *)
Definition container_iterator_lower_bound (c : container) (idx v val : Z) : option (bool * Z * Z) :=
  if container_maximum c <? val then Some (false, idx, v)
  else match c with
  | CBit b => let i := bitset_container_index_equalorlarger b val in Some (true, i, u16 i)
  | CArr a => let i := array_container_index_equalorlarger a val in
              if (0 <=? i) && (i <? zlen a) then Some (true, i, znth a i) else None
  | CRun r => let i := run_container_index_equalorlarger r val in
              match rget r i with
              | None => None
              | Some x => Some (true, i, if fst x <=? val then val else fst x)
              end
  end.
(** containers.c:531-608 container_iterator_read_into_uint32.
    read set bits: 548-555 *)
Fixpoint drain (fuel : nat) (k word count : Z) : list Z * Z * Z :=
  match fuel with
  | O => ([], word, count)
  | S f => if negb (word =? 0) && (0 <? count) then
             let '(out, w, n) := drain f k (Z.land word (word - 1)) (count - 1) in ((k * 64 + ctz word) :: out, w, n)
           else ([], word, count)
  end.
(** skip unset bits: 556-561 *)
Fixpoint skip_zero (fuel : nat) (ws : list Z) (k word : Z) : Z * Z :=
  match fuel with
  | O => (k, word)
  | S f => if (word =? 0) && (k + 1 <? 1024) then skip_zero f ws (k + 1) (znth ws (k + 1)) else (k, word)
  end.
(** the do-while at 546-562; [count] is what remains to be read *)
Fixpoint read_bits (fuel : nat) (ws : list Z) (k word count : Z) : list Z * Z * Z :=
  match fuel with
  | O => ([], k, word)
  | S f =>
    let '(out, w, n) := drain 64 k word count in
    let '(k', w') := skip_zero 1024 ws k w in
    if negb (w' =? 0) && (0 <? n) then let '(out', k'', w'') := read_bits f ws k' w' n in (out ++ out', k'', w'')
    else (out, k', w')
  end.
(** the do-while at 585-606; [count] is what remains to be read *)
Fixpoint read_runs (fuel : nat) (r : list run) (idx v count : Z) : option (bool * Z * Z * list Z) :=
  match fuel with
  | O => None
  | S f =>
    match rget r idx with
    | None => None
    | Some x =>
      let largest := fst x + snd x in
      let num := Z.min (u32 (largest - v + 1)) count in
      let out := map (fun i => v + i) (zr 0 num) in
      let v' := u16 (v + num) in
      let count' := count - num in
      let continue := fun i w => if 0 <? count' then
          match read_runs f r i w count' with Some (b, i', w', out') => Some (b, i', w', out ++ out') | None => None end
        else Some (true, i, w, out) in
      if (largest <? v') || (v' =? 0) then
        if idx + 1 <? zlen r then match rget r (idx + 1) with Some y => continue (idx + 1) (fst y) | None => None end
        else Some (false, idx + 1, v', out)
      else continue idx v'
    end
  end.
(** (result, index, value, low parts stored in buf); [consumed] is the length of the
    last component; the caller's or with high16 is applied in [roaring_uint32_iterator_read] *)
Definition container_iterator_read_into (c : container) (idx v count : Z) : option (bool * Z * Z * list Z) :=
  if count =? 0 then Some (false, idx, v, [])
  else match c with
  | CBit b =>
    if (idx <? 0) || (65536 <=? idx) then None
    else let '(out, k, w) := read_bits 1025 (b_words b) (idx / 64) (Z.land (znth (b_words b) (idx / 64)) (shl64 ones64 (idx mod 64))) count in
         if negb (w =? 0) then let i := k * 64 + ctz w in Some (true, i, u16 i, out) else Some (false, idx, v, out)
  | CArr a =>
    if (idx <? 0) || (zlen a <? idx) then None
    else let num := Z.min (zlen a - idx) count in
         let out := map (fun i => znth a (idx + i)) (zr 0 num) in
         let i := idx + num in
         if i <? zlen a then Some (true, i, znth a i, out) else Some (false, i, v, out)
  | CRun r => read_runs (S (length r)) r idx v count
  end.

(** ** The bitmap iterator.  [parent] is the argument [r]; [it_con] and [it_hb] are
    the cached container (with its type) and high bits. *)
Record iter : Type := Iter { it_idx : Z; it_has : bool; it_cur : Z; it_ci : Z; it_hb : Z; it_con : container }.
(** roaring.c:1645-1669 iter_new_container_partial_init *)
Definition iter_new_container_partial_init (r : bitmap) (it : iter) : iter :=
  if (zlen r <=? it_idx it) || (it_idx it <? 0) then Iter (it_idx it) false (2 ^ 32 - 1) (it_ci it) (it_hb it) (it_con it)
  else Iter (it_idx it) true 0 (it_ci it) (u32 (Z.shiftl (rkey r (it_idx it)) 16)) (rcon r (it_idx it)).
(** roaring.c:1675-1684 loadfirstvalue, 1690-1699 loadlastvalue *)
Definition loadwith (init : container -> option (Z * Z)) (r : bitmap) (it : iter) : option iter :=
  let it := iter_new_container_partial_init r it in
  if it_has it then
    match init (it_con it) with
    | Some (ci, value) => Some (Iter (it_idx it) true (Z.lor (it_hb it) value) ci (it_hb it) (it_con it))
    | None => None
    end
  else Some it.
Definition loadfirstvalue := loadwith container_init_iterator.
Definition loadlastvalue := loadwith container_init_iterator_last.
(** roaring.c:1706-1725 loadfirstvalue_largeorequal *)
Definition loadfirstvalue_largeorequal (r : bitmap) (it : iter) (val : Z) : option iter :=
  let it := iter_new_container_partial_init r it in
  if it_has it then
    match container_init_iterator (it_con it) with
    | Some (ci, value) =>
      match container_iterator_lower_bound (it_con it) ci value (Z.land val 65535) with
      | Some (true, ci', value') => Some (Iter (it_idx it) true (Z.lor (it_hb it) value') ci' (it_hb it) (it_con it))
      | _ => None
      end
    | None => None
    end
  else None.
Definition at_index (it : iter) (i : Z) : iter := Iter i (it_has it) (it_cur it) (it_ci it) (it_hb it) (it_con it).
(** what malloc or the stack happens to contain *)
Definition raw_iter (i : Z) : iter := Iter i false 0 0 0 (CArr []).
(** roaring.c:1727-1748 roaring_iterator_init, roaring_iterator_init_last, roaring_iterator_create *)
Definition roaring_iterator_init (r : bitmap) : option iter := loadfirstvalue r (raw_iter 0).
Definition roaring_iterator_init_last (r : bitmap) : option iter := loadlastvalue r (raw_iter (zlen r - 1)).
(** roaring.c:1759-1783 roaring_uint32_iterator_move_equalorlarger (the returned
    boolean is the new has_value, here and below) *)
Definition roaring_uint32_iterator_move_equalorlarger (r : bitmap) (it : iter) (val : Z) : option iter :=
  let i := ra_get_index r (Z.shiftr val 16) in
  if 0 <=? i then
    if container_maximum (rcon r i) <? Z.land val 65535 then loadfirstvalue r (at_index it (i + 1))
    else loadfirstvalue_largeorequal r (at_index it i) val
  else loadfirstvalue r (at_index it (- i - 1)).
(** roaring.c:1785-1801 roaring_uint32_iterator_advance *)
Definition roaring_uint32_iterator_advance (r : bitmap) (it : iter) : option iter :=
  if zlen r <=? it_idx it then Some (Iter (it_idx it) false (it_cur it) (it_ci it) (it_hb it) (it_con it))
  else if it_idx it <? 0 then loadfirstvalue r (at_index it 0)
  else match container_iterator_next (it_con it) (it_ci it) (u16 (it_cur it)) with
  | None => None
  | Some (true, ci, low16) => Some (Iter (it_idx it) true (Z.lor (it_hb it) low16) ci (it_hb it) (it_con it))
  | Some (false, ci, _) => loadfirstvalue r (Iter (it_idx it + 1) (it_has it) (it_cur it) ci (it_hb it) (it_con it))
  end.
(** roaring.c:1803-1819 roaring_uint32_iterator_previous *)
Definition roaring_uint32_iterator_previous (r : bitmap) (it : iter) : option iter :=
  if it_idx it <? 0 then Some (Iter (it_idx it) false (it_cur it) (it_ci it) (it_hb it) (it_con it))
  else if zlen r <=? it_idx it then loadlastvalue r (at_index it (zlen r - 1))
  else match container_iterator_prev (it_con it) (it_ci it) (u16 (it_cur it)) with
  | None => None
  | Some (true, ci, low16) => Some (Iter (it_idx it) true (Z.lor (it_hb it) low16) ci (it_hb it) (it_con it))
  | Some (false, ci, _) => loadlastvalue r (Iter (it_idx it - 1) (it_has it) (it_cur it) ci (it_hb it) (it_con it))
  end.
(** roaring.c:1821-1842 roaring_uint32_iterator_read: the values stored in buf; the
    returned count is their number; [None] also when the assertion at 1834 fails *)
Fixpoint iterator_read (fuel : nat) (r : bitmap) (it : iter) (count : Z) : option (iter * list Z) :=
  match fuel with
  | O => None
  | S f =>
    if it_has it && (0 <? count) then
      match container_iterator_read_into (it_con it) (it_ci it) (u16 (it_cur it)) count with
      | None => None
      | Some (b, ci, low16, out) =>
        let out := map (Z.lor (it_hb it)) out in
        if b then if zlen out =? count then Some (Iter (it_idx it) true (Z.lor (it_hb it) low16) ci (it_hb it) (it_con it), out) else None
        else match loadfirstvalue r (Iter (it_idx it + 1) (it_has it) (it_cur it) ci (it_hb it) (it_con it)) with
          | None => None
          | Some it' => match iterator_read f r it' (count - zlen out) with Some (it'', out') => Some (it'', out ++ out') | None => None end
          end
      end
    else Some (it, [])
  end.
Definition roaring_uint32_iterator_read (r : bitmap) (it : iter) (count : Z) : option (iter * list Z) :=
  iterator_read (S (length r)) r it count.
(** roaring.c:2749-2766 roaring_bitmap_intersect_with_range *)
Definition roaring_bitmap_intersect_with_range (r : bitmap) (x y : Z) : option bool :=
  if y <=? x then Some false
  else match roaring_iterator_init r with
  | None => None
  | Some it =>
    match roaring_uint32_iterator_move_equalorlarger r it (u32 x) with
    | None => None
    | Some it => Some (it_has it && negb (y <=? it_cur it))
    end
  end.
