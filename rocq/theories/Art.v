(** Art: the adaptive radix tree of src/art/art.c, at the level of its node arrays.
    One array per node type; a node is named by a reference (index and typecode); a
    freed slot stays in its array, threaded on a free list.  [None] is undefined
    behaviour: a reference that does not lead to an allocated node of that type, a
    prefix longer than its array of five bytes, or an exhausted loop bound.

    Simplifications.  A Node4/Node16 is the list of its first [count] (key, child)
    pairs and an inner node's prefix the list of its first [prefix_size] bytes: the
    array entries beyond are never read.  The byte reads keys[i]/children[i] of
    Node48 and Node256 are in range by the invariant of ArtN.v.  Pointers to nodes are
    references: the code derefs again after each allocation in the array the pointer
    leads into.  Indices do not reach 2^48.  The entries of an iterator's frame array
    above the current frame are not kept (the code writes each before reading it). *)
From Verif Require Import Base BitUtil.
Local Opaque zr.

Definition obind {A B} (e : option A) (f : A -> option B) : option B := match e with Some a => f a | None => None end.
Notation "'do' p <- e ; f" := (obind e (fun p => f)) (at level 61, p pattern, e at next level, right associativity).
Definition guard (b : bool) : option unit := if b then Some tt else None.

(** art.c:10-21, 43 and art.h: constants *)
Definition NULL_REF : Z := 0.
Definition LEAF_TYPE : Z := 1.
Definition NODE4_TYPE : Z := 2.
Definition NODE16_TYPE : Z := 3.
Definition NODE48_TYPE : Z := 4.
Definition NODE256_TYPE : Z := 5.
Definition NODE48_EMPTY_VAL : Z := 48.
Definition AVAILABLE_MASK : Z := 2^48 - 1.
Definition KEY_BYTES : Z := 6.

(** art.c:155-157 art_to_ref, 159-161 art_ref_index, 163-165 art_ref_typecode, 212-214 art_is_leaf *)
Definition art_to_ref (index typecode : Z) : Z := index * 65536 + typecode.
Definition art_ref_index (ref : Z) : Z := ref / 65536.
Definition art_ref_typecode (ref : Z) : Z := ref mod 256.
Definition art_is_leaf (ref : Z) : bool := art_ref_typecode ref =? LEAF_TYPE.

(** art.c:44-117: node structures *)
Inductive node : Type :=
| NLeaf (key : list Z) (val : Z)
| N4 (pre : list Z) (kc : list (Z * Z))
| N16 (pre : list Z) (kc : list (Z * Z))
| N48 (pre : list Z) (count avail : Z) (keys children : list Z)
| N256 (pre : list Z) (count : Z) (children : list Z).
Definition ntype (n : node) : Z :=
  match n with NLeaf _ _ => 1 | N4 _ _ => 2 | N16 _ _ => 3 | N48 _ _ _ _ _ => 4 | N256 _ _ _ => 5 end.
(** A slot of a node array.  next_free shares the bytes of the key of a leaf (art.c:44-52),
    so the value of a freed leaf stays readable. *)
Inductive slot : Type := Used (n : node) | Freed (next val : Z).
(** art.h art_t: root, first_free[t], nodes[t] (capacities[t] is its length) *)
Record art := ART { a_root : Z; a_ff : Z -> Z; a_nodes : Z -> list slot }.

Definition fset {A} (f : Z -> A) (t : Z) (v : A) : Z -> A := fun t' => if t' =? t then v else f t'.
Definition capacity (a : art) (t : Z) : Z := zlen (a_nodes a t).
Definition set_root (a : art) (r : Z) : art := ART r (a_ff a) (a_nodes a).
Definition set_ff (a : art) (t v : Z) : art := ART (a_root a) (fset (a_ff a) t v) (a_nodes a).
Definition set_slot (a : art) (t i : Z) (s : slot) : art :=
  ART (a_root a) (a_ff a) (fset (a_nodes a) t (upd (Z.to_nat i) s (a_nodes a t))).
Definition slot_at (a : art) (t i : Z) : option slot :=
  if (0 <=? i) && (i <? capacity a t) then nth_error (a_nodes a t) (Z.to_nat i) else None.

(** art.c:172-177 art_deref; stricter than the code: bits 8 to 15 of a reference must be zero *)
Definition art_deref (a : art) (r : Z) : option node :=
  if negb (r =? art_to_ref (art_ref_index r) (art_ref_typecode r)) then None else
  match slot_at a (art_ref_typecode r) (art_ref_index r) with
  | Some (Used n) => if ntype n =? art_ref_typecode r then Some n else None
  | _ => None
  end.
(** writing through the pointer art_deref returned *)
Definition art_put (a : art) (r : Z) (n : node) : art := set_slot a (art_ref_typecode r) (art_ref_index r) (Used n).

(** ** Allocation *)
(** art.c:1303-1326 art_extend (only called when the array is full) *)
Definition art_extend (a : art) (t : Z) : art :=
  let cap := capacity a t in
  let new_capacity := if cap =? 0 then 2 else if cap <? 1024 then 2 * cap else 5 * cap / 4 in
  ART (a_root a) (a_ff a) (fset (a_nodes a) t (a_nodes a t ++ map (fun i => Freed (i + 1) 0) (zr cap new_capacity))).
(** art.c:1341-1350 art_allocate_index; 1332-1335 art_next_free *)
Definition art_allocate_index (a : art) (t : Z) : option (art * Z) :=
  let ff := a_ff a t in
  if ff =? capacity a t then Some (set_ff (art_extend a t) t (ff + 1), ff)
  else match slot_at a t ff with
       | Some (Freed next _) => Some (set_ff a t next, ff)
       | _ => None
       end.
(** art.c:1148-1154 art_node_free *)
Definition art_node_free (a : art) (r : Z) : option art :=
  do n <- art_deref a r;
  let t := art_ref_typecode r in
  let v := match n with NLeaf _ v => v | _ => 0 end in
  Some (set_ff (set_slot a t (art_ref_index r) (Freed (a_ff a t) v)) t (art_ref_index r)).
(** the common part of the five create functions *)
Definition art_create (a : art) (n : node) : option (art * Z) :=
  do (a1, i) <- art_allocate_index a (ntype n);
  let r := art_to_ref i (ntype n) in Some (set_slot a1 (ntype n) i (Used n), r).
(** art.c:230-238 art_leaf_create *)
Definition art_leaf_create (a : art) (key : list Z) (val : Z) : option (art * Z) := art_create a (NLeaf key val).
(** art.c:216-221 art_init_inner_node: the prefix array has ART_KEY_BYTES - 1 bytes *)
Definition prefix_ok (pre : list Z) : option unit := guard (zlen pre <=? 5).
(** art.c:265-273 art_node4_create *)
Definition art_node4_create (a : art) (pre : list Z) : option (art * Z) :=
  do _ <- prefix_ok pre; art_create a (N4 pre []).
(** art.c:471-480 art_node16_create *)
Definition art_node16_create (a : art) (pre : list Z) : option (art * Z) :=
  do _ <- prefix_ok pre; art_create a (N16 pre []).
(** art.c:656-669 art_node48_create *)
Definition art_node48_create (a : art) (pre : list Z) : option (art * Z) :=
  do _ <- prefix_ok pre; art_create a (N48 pre 0 AVAILABLE_MASK (repeat NODE48_EMPTY_VAL 256) (repeat 0 48)).
(** art.c:865-877 art_node256_create *)
Definition art_node256_create (a : art) (pre : list Z) : option (art * Z) :=
  do _ <- prefix_ok pre; art_create a (N256 pre 0 (repeat NULL_REF 256)).

(** ** Node operations *)
(** the shifting insertion shared by Node4 and Node16: before the first larger key *)
Fixpoint kins (key child : Z) (kc : list (Z * Z)) : list (Z * Z) :=
  match kc with
  | [] => [(key, child)]
  | (k, c) :: t => if key <? k then (key, child) :: (k, c) :: t else (k, c) :: kins key child t
  end.
(** index of the first / last entry with the given key, -1 if none *)
Fixpoint kidx (key : Z) (kc : list (Z * Z)) (i : Z) : Z :=
  match kc with [] => -1 | (k, _) :: t => if k =? key then i else kidx key t (i + 1) end.
Fixpoint kidx_last (key : Z) (kc : list (Z * Z)) (i idx : Z) : Z :=
  match kc with [] => idx | (k, _) :: t => kidx_last key t (i + 1) (if k =? key then i else idx) end.
Definition kdel (i : Z) (kc : list (Z * Z)) : list (Z * Z) := firstn (Z.to_nat i) kc ++ skipn (Z.to_nat (i + 1)) kc.
Definition knth (kc : list (Z * Z)) (i : Z) : Z * Z := nth (Z.to_nat i) kc (0, 0).

(** art.c:889-894 art_node256_insert *)
Definition art_node256_insert (a : art) (r child key : Z) : option (art * Z) :=
  do n <- art_deref a r;
  match n with
  | N256 pre count children => Some (art_put a r (N256 pre (count + 1) (zupd key child children)), r)
  | _ => None
  end.
(** for (i = 0; i < n; ++i) insert(new_node, children[i], keys[i]) *)
Fixpoint insert_all (ins : art -> Z -> Z -> Z -> option (art * Z)) (a : art) (r : Z) (kc : list (Z * Z)) : option art :=
  match kc with
  | [] => Some a
  | (k, c) :: t => do (a1, _) <- ins a r c k; insert_all ins a1 r t
  end.
(** the pairs (i, children[keys[i]]) with keys[i] != EMPTY_VAL, and (i, children[i]) with
    children[i] != NULL, in the order of the loops over 0..255 *)
Definition n48_pairs (keys children : list Z) : list (Z * Z) :=
  flat_map (fun i => if znth keys i =? NODE48_EMPTY_VAL then [] else [(i, znth children (znth keys i))]) (zr 0 256).
Definition n256_pairs (children : list Z) : list (Z * Z) :=
  flat_map (fun i => if znth children i =? NULL_REF then [] else [(i, znth children i)]) (zr 0 256).
(** art.c:685-707 art_node48_insert *)
Definition art_node48_insert (a : art) (r child key : Z) : option (art * Z) :=
  do n <- art_deref a r;
  match n with
  | N48 pre count avail keys children =>
    if count <? 48 then
      let val_idx := ctz avail in
      Some (art_put a r (N48 pre (count + 1) (Z.ldiff avail (2 ^ val_idx)) (zupd key val_idx keys) (zupd val_idx child children)), r)
    else
      do (a1, r1) <- art_node256_create a pre;
      do a2 <- insert_all art_node256_insert a1 r1 (n48_pairs keys children);
      do a3 <- art_node_free a2 r;
      art_node256_insert a3 r1 child key
  | _ => None
  end.
(** art.c:497-525 art_node16_insert *)
Definition art_node16_insert (a : art) (r child key : Z) : option (art * Z) :=
  do n <- art_deref a r;
  match n with
  | N16 pre kc =>
    if zlen kc <? 16 then Some (art_put a r (N16 pre (kins key child kc)), r)
    else
      do (a1, r1) <- art_node48_create a pre;
      do a2 <- insert_all art_node48_insert a1 r1 (firstn 16 kc);
      do a3 <- art_node_free a2 r;
      art_node48_insert a3 r1 child key
  | _ => None
  end.
(** art.c:290-320 art_node4_insert *)
Definition art_node4_insert (a : art) (r child key : Z) : option (art * Z) :=
  do n <- art_deref a r;
  match n with
  | N4 pre kc =>
    if zlen kc <? 4 then Some (art_put a r (N4 pre (kins key child kc)), r)
    else
      do (a1, r1) <- art_node16_create a pre;
      do a2 <- insert_all art_node16_insert a1 r1 (firstn 4 kc);
      do a3 <- art_node_free a2 r;
      art_node16_insert a3 r1 child key
  | _ => None
  end.
(** art.c:1082-1102 art_node_insert_leaf *)
Definition art_node_insert_leaf (a : art) (r key_chunk child : Z) : option (art * Z) :=
  let t := art_ref_typecode r in
  if t =? NODE4_TYPE then art_node4_insert a r child key_chunk
  else if t =? NODE16_TYPE then art_node16_insert a r child key_chunk
  else if t =? NODE48_TYPE then art_node48_insert a r child key_chunk
  else if t =? NODE256_TYPE then art_node256_insert a r child key_chunk
  else None.

Definition node_prefix (n : node) : list Z :=
  match n with NLeaf _ _ => [] | N4 p _ | N16 p _ | N48 p _ _ _ _ | N256 p _ _ => p end.
Definition set_prefix (n : node) (p : list Z) : node :=
  match n with
  | NLeaf k v => NLeaf k v
  | N4 _ kc => N4 p kc | N16 _ kc => N16 p kc
  | N48 _ c av ks ch => N48 p c av ks ch | N256 _ c ch => N256 p c ch
  end.

(** art.c:322-361 art_node4_erase *)
Definition art_node4_erase (a : art) (r key_chunk : Z) : option (art * Z) :=
  do n <- art_deref a r;
  match n with
  | N4 pre kc =>
    let idx := kidx_last key_chunk kc 0 (-1) in
    if idx =? -1 then Some (a, r)
    else if zlen kc =? 2 then
      let '(remaining_child_key, remaining_child) := knth kc (Z.lxor idx 1) in
      do a1 <- (if art_is_leaf remaining_child then Some a
                else do m <- art_deref a remaining_child;
                     let p := pre ++ remaining_child_key :: node_prefix m in
                     do _ <- prefix_ok p; Some (art_put a remaining_child (set_prefix m p)));
      do a2 <- art_node_free a1 r;
      Some (a2, remaining_child)
    else Some (art_put a r (N4 pre (kdel idx kc)), r)
  | _ => None
  end.
(** art.c:527-553 art_node16_erase; the loop over four children expects count == 4 *)
Definition art_node16_erase (a : art) (r key_chunk : Z) : option (art * Z) :=
  do n <- art_deref a r;
  match n with
  | N16 pre kc =>
    let i := kidx key_chunk kc 0 in
    let kc' := if i =? -1 then kc else kdel i kc in
    let a0 := art_put a r (N16 pre kc') in
    if 4 <? zlen kc' then Some (a0, r)
    else
      do (a1, r1) <- art_node4_create a0 pre;
      do _ <- guard (zlen kc' =? 4);
      do a2 <- insert_all art_node4_insert a1 r1 kc';
      do a3 <- art_node_free a2 r;
      Some (a3, r1)
  | _ => None
  end.
(** art.c:709-732 art_node48_erase *)
Definition art_node48_erase (a : art) (r key_chunk : Z) : option (art * Z) :=
  do n <- art_deref a r;
  match n with
  | N48 pre count avail keys children =>
    let val_idx := znth keys key_chunk in
    if val_idx =? NODE48_EMPTY_VAL then Some (a, r)
    else
      let keys' := zupd key_chunk NODE48_EMPTY_VAL keys in
      let a0 := art_put a r (N48 pre (count - 1) (Z.lor avail (2 ^ val_idx)) keys' children) in
      if 16 <? count - 1 then Some (a0, r)
      else
        do (a1, r1) <- art_node16_create a0 pre;
        do a2 <- insert_all art_node16_insert a1 r1 (n48_pairs keys' children);
        do a3 <- art_node_free a2 r;
        Some (a3, r1)
  | _ => None
  end.
(** art.c:896-913 art_node256_erase *)
Definition art_node256_erase (a : art) (r key_chunk : Z) : option (art * Z) :=
  do n <- art_deref a r;
  match n with
  | N256 pre count children =>
    let children' := zupd key_chunk NULL_REF children in
    let a0 := art_put a r (N256 pre (count - 1) children') in
    if 48 <? count - 1 then Some (a0, r)
    else
      do (a1, r1) <- art_node48_create a0 pre;
      do a2 <- insert_all art_node48_insert a1 r1 (n256_pairs children');
      do a3 <- art_node_free a2 r;
      Some (a3, r1)
  | _ => None
  end.
(** art.c:1062-1078 art_node_erase *)
Definition art_node_erase (a : art) (r key_chunk : Z) : option (art * Z) :=
  let t := art_ref_typecode r in
  if t =? NODE4_TYPE then art_node4_erase a r key_chunk
  else if t =? NODE16_TYPE then art_node16_erase a r key_chunk
  else if t =? NODE48_TYPE then art_node48_erase a r key_chunk
  else if t =? NODE256_TYPE then art_node256_erase a r key_chunk
  else None.

(** art.c:1021-1037 art_find_child; 280-288, 487-495, 676-683, 884-887 *)
Definition art_find_child (n : node) (key : Z) : Z :=
  match n with
  | NLeaf _ _ => NULL_REF
  | N4 _ kc | N16 _ kc => let i := kidx key kc 0 in if i =? -1 then NULL_REF else snd (knth kc i)
  | N48 _ _ _ keys children => if znth keys key =? NODE48_EMPTY_VAL then NULL_REF else znth children (znth keys key)
  | N256 _ _ children => znth children key
  end.
(** art.c:1040-1058 art_replace; 363-372, 555-564, 734-740, 915-919 *)
Definition art_replace (n : node) (key new_child : Z) : option node :=
  match n with
  | NLeaf _ _ => None
  | N4 p kc => let i := kidx key kc 0 in Some (N4 p (if i =? -1 then kc else upd (Z.to_nat i) (key, new_child) kc))
  | N16 p kc => let i := kidx key kc 0 in Some (N16 p (if i =? -1 then kc else upd (Z.to_nat i) (key, new_child) kc))
  | N48 p c av keys children =>
    if znth keys key =? NODE48_EMPTY_VAL then None else Some (N48 p c av keys (zupd (znth keys key) new_child children))
  | N256 p c children => Some (N256 p c (zupd key new_child children))
  end.

(** an art_indexed_child_t: (child, index, key_chunk); None: child == NULL *)
Definition ichild := option (Z * Z * Z).
Definition kchild (kc : list (Z * Z)) (i : Z) : ichild := let '(k, c) := knth kc i in Some (c, i, k).
Definition n48_at (keys children : list Z) (i : Z) : ichild := Some (znth children (znth keys i), i, i).
Definition n256_at (children : list Z) (i : Z) : ichild := Some (znth children i, i, i).
Definition ofind (f : Z -> bool) (l : list Z) (g : Z -> ichild) : ichild := match find f l with Some i => g i | None => None end.
(** art.c:1158-1180 art_node_next_child; 374-386, 566-578, 742-756, 921-935 *)
Definition art_node_next_child (n : node) (index : Z) : ichild :=
  match n with
  | NLeaf _ _ => None
  | N4 _ kc | N16 _ kc => if zlen kc <=? index + 1 then None else kchild kc (index + 1)
  | N48 _ _ _ keys children => ofind (fun i => negb (znth keys i =? NODE48_EMPTY_VAL)) (zr (index + 1) 256) (n48_at keys children)
  | N256 _ _ children => ofind (fun i => negb (znth children i =? NULL_REF)) (zr (index + 1) 256) (n256_at children)
  end.
(** art.c:1184-1206 art_node_prev_child; 388-403, 580-595, 758-775, 937-954 *)
Definition art_node_prev_child (n : node) (index : Z) : ichild :=
  match n with
  | NLeaf _ _ => None
  | N4 _ kc | N16 _ kc => let i := Z.min index (zlen kc) - 1 in if i <? 0 then None else kchild kc i
  | N48 _ _ _ keys children =>
    ofind (fun i => negb (znth keys i =? NODE48_EMPTY_VAL)) (rev (zr 0 (Z.min index 256))) (n48_at keys children)
  | N256 _ _ children =>
    ofind (fun i => negb (znth children i =? NULL_REF)) (rev (zr 0 (Z.min index 256))) (n256_at children)
  end.
(** art.c:1211-1233 art_node_child_at; 405-416, 597-608, 777-788, 956-967 *)
Definition art_node_child_at (n : node) (index : Z) : ichild :=
  match n with
  | NLeaf _ _ => None
  | N4 _ kc | N16 _ kc => if (index <? 0) || (zlen kc <=? index) then None else kchild kc index
  | N48 _ _ _ keys children =>
    if (index <? 0) || (256 <=? index) || (48 <=? znth keys index) then None else n48_at keys children index
  | N256 _ _ children => if (index <? 0) || (256 <=? index) || (znth children index =? NULL_REF) then None else n256_at children index
  end.
(** first index whose key is at least the given one *)
Fixpoint klb (key : Z) (kc : list (Z * Z)) (i : Z) : ichild :=
  match kc with [] => None | (k, c) :: t => if key <=? k then Some (c, i, k) else klb key t (i + 1) end.
(** art.c:1237-1259 art_node_lower_bound; 418-431, 610-623, 790-803, 969-982 *)
Definition art_node_lower_bound (n : node) (key : Z) : ichild :=
  match n with
  | NLeaf _ _ => None
  | N4 _ kc | N16 _ kc => klb key kc 0
  | N48 _ _ _ keys children => ofind (fun i => negb (znth keys i =? NODE48_EMPTY_VAL)) (zr key 256) (n48_at keys children)
  | N256 _ _ children => ofind (fun i => negb (znth children i =? NULL_REF)) (zr key 256) (n256_at children)
  end.

(** ** Keys *)
(** memcmp on ranges of equal length: negative, zero or positive *)
Fixpoint memcmp (x y : list Z) : Z :=
  match x, y with
  | a :: x', b :: y' => if a <? b then -1 else if b <? a then 1 else memcmp x' y'
  | _, _ => 0
  end.
Definition zsub (l : list Z) (from len : Z) : list Z := firstn (Z.to_nat len) (skipn (Z.to_nat from) l).
(** art.c:1267-1272 art_compare_prefix *)
Definition art_compare_prefix (key1 : list Z) (from1 : Z) (key2 : list Z) (from2 len : Z) : Z :=
  memcmp (zsub key1 from1 len) (zsub key2 from2 len).
(** art.c:1275-1278 art_compare_keys *)
Definition art_compare_keys (key1 key2 : list Z) : Z := art_compare_prefix key1 0 key2 0 KEY_BYTES.
Fixpoint common (x y : list Z) : Z :=
  match x, y with a :: x', b :: y' => if a =? b then 1 + common x' y' else 0 | _, _ => 0 end.
(** art.c:1281-1297 art_common_prefix *)
Definition art_common_prefix (key1 : list Z) (from1 to1 : Z) (key2 : list Z) (from2 to2 : Z) : Z :=
  common (zsub key1 from1 (to1 - from1)) (zsub key2 from2 (to2 - from2)).
(** a checked read key[i] *)
Definition kget (key : list Z) (i : Z) : option Z := if (0 <=? i) && (i <? zlen key) then Some (znth key i) else None.

(** ** Insertion, search, removal *)
(** art.c:1354-1436 art_insert_at *)
Fixpoint art_insert_at (fuel : nat) (a : art) (ref : Z) (key : list Z) (depth new_leaf : Z) : option (art * Z) :=
  match fuel with
  | O => None
  | S f =>
    do n <- art_deref a ref;
    match n with
    | NLeaf lkey _ =>
      let cp := art_common_prefix lkey depth KEY_BYTES key depth KEY_BYTES in
      do (a1, r1) <- art_node4_create a (zsub key depth cp);
      do lc <- kget lkey (depth + cp);
      do (a2, _) <- art_node_insert_leaf a1 r1 lc ref;
      do kc <- kget key (depth + cp);
      art_node_insert_leaf a2 r1 kc new_leaf
    | _ =>
      let pre := node_prefix n in
      let cp := art_common_prefix pre 0 (zlen pre) key depth KEY_BYTES in
      if negb (cp =? zlen pre) then
        do (a1, r4) <- art_node4_create a (zsub pre 0 cp);
        do (a2, _) <- art_node4_insert a1 r4 ref (znth pre cp);
        do n' <- art_deref a2 ref;
        let a3 := art_put a2 ref (set_prefix n' (zsub pre (cp + 1) (zlen pre - cp - 1))) in
        do kc <- kget key (cp + depth);
        art_node_insert_leaf a3 r4 kc new_leaf
      else
        do key_chunk <- kget key (depth + cp);
        let child := art_find_child n key_chunk in
        if negb (child =? NULL_REF) then
          do (a1, new_child) <- art_insert_at f a child key (depth + cp + 1) new_leaf;
          if negb (new_child =? child) then
            do n1 <- art_deref a1 ref;
            do n2 <- art_replace n1 key_chunk new_child;
            Some (art_put a1 ref n2, ref)
          else Some (a1, ref)
        else art_node_insert_leaf a ref key_chunk new_leaf
    end
  end.
(** every level below the root consumes at least one byte of the key *)
Definition LEVELS : nat := 8.
(** art.c:1829-1837 art_insert: the new tree and the leaf (the C code returns a pointer to its value) *)
Definition art_insert (a : art) (key : list Z) (val : Z) : option (art * Z) :=
  do (a1, leaf) <- art_leaf_create a key val;
  if a_root a1 =? NULL_REF then Some (set_root a1 leaf, leaf)
  else do (a2, root) <- art_insert_at LEVELS a1 (a_root a1) key 0 leaf;
       Some (set_root a2 root, leaf).

(** art.c:1453-1512 art_erase_at: tree, rootmost node, value erased (None: not found) *)
Fixpoint art_erase_at (fuel : nat) (a : art) (ref : Z) (key : list Z) (depth : Z) : option (art * Z * option Z) :=
  match fuel with
  | O => None
  | S f =>
    do n <- art_deref a ref;
    match n with
    | NLeaf lkey v =>
      if negb (art_common_prefix lkey 0 KEY_BYTES key 0 KEY_BYTES =? KEY_BYTES) then Some (a, NULL_REF, None)
      else do a1 <- art_node_free a ref; Some (a1, NULL_REF, Some v)
    | _ =>
      let pre := node_prefix n in
      let cp := art_common_prefix pre 0 (zlen pre) key depth KEY_BYTES in
      if negb (cp =? zlen pre) then Some (a, NULL_REF, None)
      else
        do key_chunk <- kget key (depth + cp);
        let child := art_find_child n key_chunk in
        if child =? NULL_REF then Some (a, NULL_REF, None)
        else
          do (a1, rootmost, v) <- art_erase_at f a child key (depth + cp + 1);
          match v with
          | None => Some (a1, NULL_REF, None)
          | Some _ =>
            if rootmost =? NULL_REF then do (a2, r2) <- art_node_erase a1 ref key_chunk; Some (a2, r2, v)
            else if negb (rootmost =? child) then
              do n1 <- art_deref a1 ref;
              do n2 <- art_replace n1 key_chunk rootmost;
              Some (art_put a1 ref n2, ref, v)
            else Some (a1, ref, v)
          end
    end
  end.
(** art.c:1839-1854 art_erase *)
Definition art_erase (a : art) (key : list Z) : option (art * option Z) :=
  if a_root a =? NULL_REF then Some (a, None)
  else do (a1, r, v) <- art_erase_at LEVELS a (a_root a) key 0;
       match v with None => Some (a1, None) | Some _ => Some (set_root a1 r, v) end.

(** art.c:1516-1545 art_find_at: the leaf found or NULL *)
Fixpoint art_find_at (fuel : nat) (a : art) (ref : Z) (key : list Z) (depth : Z) : option Z :=
  match fuel with
  | O => None
  | S f =>
    do n <- art_deref a ref;
    match n with
    | NLeaf lkey _ =>
      if KEY_BYTES <=? depth then Some ref
      else if art_common_prefix lkey 0 KEY_BYTES key 0 KEY_BYTES =? KEY_BYTES then Some ref else Some NULL_REF
    | _ =>
      let pre := node_prefix n in
      if negb (art_common_prefix pre 0 (zlen pre) key depth KEY_BYTES =? zlen pre) then Some NULL_REF
      else
        do kc <- kget key (depth + zlen pre);
        let child := art_find_child n kc in
        if child =? NULL_REF then Some NULL_REF
        else art_find_at f a child key (depth + zlen pre + 1)
    end
  end.
(** art.c:1856-1861 art_find *)
Definition art_find (a : art) (key : list Z) : option Z :=
  if a_root a =? NULL_REF then Some NULL_REF else art_find_at LEVELS a (a_root a) key 0.
(** art.c:1797-1805 art_init_cleared *)
Definition art_init_cleared : art := ART NULL_REF (fun _ => 0) (fun _ => []).
(** art.c:1863-1865 art_is_empty *)
Definition art_is_empty (a : art) : bool := a_root a =? NULL_REF.

(** ** Values: reading and writing *value of a leaf *)
Definition leaf_val (a : art) (leaf : Z) : option Z :=
  match art_deref a leaf with Some (NLeaf _ v) => Some v | _ => None end.
Definition set_leaf_val (a : art) (leaf v : Z) : option art :=
  match art_deref a leaf with Some (NLeaf k _) => Some (art_put a leaf (NLeaf k v)) | _ => None end.
(** the value bytes of a leaf slot, allocated or not *)
Definition leaf_raw (a : art) (leaf : Z) : option Z :=
  match slot_at a LEAF_TYPE (art_ref_index leaf) with
  | Some (Used (NLeaf _ v)) => Some v
  | Some (Freed _ v) => Some v
  | _ => None
  end.

(** ** Iterators *)
(** art.h:141-153 art_iterator_t.  [i_val] is the leaf whose value it points to (0: NULL);
    [i_frames] are frames[frame], ..., frames[0]; the art pointer is an argument. *)
Record iter := IT { i_key : list Z; i_val : Z; i_depth : Z; i_frames : list (Z * Z) }.
Definition zkey : list Z := repeat 0 6.
Definition it_zero : iter := IT zkey 0 0 [(0, 0)].
(** art.c:1883-1885 art_iterator_ref *)
Definition art_iterator_ref (it : iter) : Z := fst (hd (0, 0) (i_frames it)).
Definition set_top (fr : list (Z * Z)) (x : Z * Z) : list (Z * Z) := x :: tl fr.
(** art.c:1894-1902 art_iterator_valid_loc *)
Definition art_iterator_valid_loc (a : art) (it : iter) (leaf : Z) : option iter :=
  match art_deref a leaf with
  | Some (NLeaf k _) => Some (IT k leaf (i_depth it) (set_top (i_frames it) (leaf, 0)))
  | _ => None
  end.
(** art.c:1906-1910 art_iterator_invalid_loc *)
Definition art_iterator_invalid_loc (it : iter) : iter := IT zkey 0 (i_depth it) (i_frames it).
(** art.c:1916-1927 art_iterator_down *)
Definition art_iterator_down (a : art) (it : iter) (ref index : Z) : option iter :=
  do n <- art_deref a ref;
  do (child, _, _) <- art_node_child_at n index;
  Some (IT (i_key it) (i_val it) (i_depth it + zlen (node_prefix n) + 1)
           ((child, 0) :: set_top (i_frames it) (ref, index))).
(** art.c:1931-1947 art_iterator_neighbor_child: the child moved to (0: none) *)
Definition art_iterator_neighbor_child (a : art) (it : iter) (forward : bool) : option (iter * Z) :=
  let '(ref, index) := hd (0, 0) (i_frames it) in
  do n <- art_deref a ref;
  match (if forward then art_node_next_child n index else art_node_prev_child n index) with
  | Some (child, i, _) => do it' <- art_iterator_down a it ref i; Some (it', child)
  | None => Some (it, NULL_REF)
  end.
(** art.c:1951-1960 art_iterator_up *)
Definition art_iterator_up (a : art) (it : iter) : option (iter * bool) :=
  match i_frames it with
  | f1 :: (ref, idx) :: fr =>
    do n <- art_deref a ref;
    Some (IT (i_key it) (i_val it) (i_depth it - (zlen (node_prefix n) + 1)) ((ref, idx) :: fr), true)
  | _ => Some (it, false)
  end.
(** art.c:1974-1993 art_node_init_iterator *)
Fixpoint art_node_init_iterator (fuel : nat) (a : art) (ref : Z) (it : iter) (first : bool) : option iter :=
  match fuel with
  | O => None
  | S f =>
    if art_is_leaf ref then art_iterator_valid_loc a it ref
    else
      do n <- art_deref a ref;
      do (child, i, _) <- (if first then art_node_next_child n (-1) else art_node_prev_child n 256);
      do it' <- art_iterator_down a it ref i;
      art_node_init_iterator f a child it' first
  end.
(** art.c:1995-2012 art_iterator_move, 1964-1970 art_iterator_up_and_move: the latter is
    inlined where the former calls it *)
Fixpoint art_iterator_move (fuel : nat) (a : art) (it : iter) (forward : bool) : option (iter * bool) :=
  match fuel with
  | O => None
  | S f =>
    do (it1, went_up) <- (if art_is_leaf (art_iterator_ref it) then art_iterator_up a it else Some (it, true));
    if negb went_up then Some (art_iterator_invalid_loc it1, false)
    else
      do (it2, child) <- art_iterator_neighbor_child a it1 forward;
      if negb (child =? NULL_REF) then do it3 <- art_node_init_iterator LEVELS a child it2 forward; Some (it3, true)
      else
        do (it3, up) <- art_iterator_up a it2;
        if negb up then Some (art_iterator_invalid_loc it3, false) else art_iterator_move f a it3 forward
  end.
Definition art_iterator_up_and_move (a : art) (it : iter) (forward : bool) : option (iter * bool) :=
  do (it1, up) <- art_iterator_up a it;
  if negb up then Some (art_iterator_invalid_loc it1, false) else art_iterator_move LEVELS a it1 forward.
(** art.c:2073-2075 art_iterator_next, 2077-2079 art_iterator_prev *)
Definition art_iterator_next (a : art) (it : iter) : option (iter * bool) := art_iterator_move LEVELS a it true.
Definition art_iterator_prev (a : art) (it : iter) : option (iter * bool) := art_iterator_move LEVELS a it false.
Definition oktrue (o : option iter) : option (iter * bool) := do it <- o; Some (it, true).
(** art.c:2016-2061 art_node_iterator_lower_bound *)
Fixpoint art_node_iterator_lower_bound (fuel : nat) (a : art) (ref : Z) (it : iter) (key : list Z) : option (iter * bool) :=
  match fuel with
  | O => None
  | S f =>
    do n <- art_deref a ref;
    match n with
    | NLeaf lkey _ =>
      if 0 <=? art_compare_keys lkey key then oktrue (art_iterator_valid_loc a it ref)
      else art_iterator_up_and_move a it true
    | _ =>
      let pre := node_prefix n in
      let c := art_compare_prefix pre 0 key (i_depth it) (zlen pre) in
      if c <? 0 then art_iterator_up_and_move a it true
      else if 0 <? c then oktrue (art_node_init_iterator LEVELS a ref it true)
      else
        do key_chunk <- kget key (i_depth it + zlen pre);
        match art_node_lower_bound n key_chunk with
        | None => art_iterator_up_and_move a it true
        | Some (child, i, k) =>
          do it1 <- art_iterator_down a it ref i;
          if key_chunk <? k then oktrue (art_node_init_iterator LEVELS a child it1 true)
          else art_node_iterator_lower_bound f a child it1 key
        end
    end
  end.
(** art.c:2063-2071 art_init_iterator *)
Definition art_init_iterator (a : art) (first : bool) : option iter :=
  if a_root a =? NULL_REF then Some it_zero else art_node_init_iterator LEVELS a (a_root a) it_zero first.
(** iterator->frame = 0; iterator->depth = 0 *)
Definition it_rewind (it : iter) : iter := IT (i_key it) (i_val it) 0 [last (i_frames it) (0, 0)].
(** art.c:2094-2112: up until the prefix is equal *)
Fixpoint lb_climb (fuel : nat) (a : art) (it : iter) (key : list Z) (cmp : Z) : option (iter * bool) :=
  match fuel with
  | O => None
  | S f =>
    if cmp =? 0 then art_node_iterator_lower_bound LEVELS a (art_iterator_ref it) it key
    else
      do (it1, up) <- art_iterator_up a it;
      if negb up then
        if cmp <? 0 then Some (art_iterator_invalid_loc it1, false)
        else oktrue (art_node_init_iterator LEVELS a (art_iterator_ref it1) it1 true)
      else
        do n <- art_deref a (art_iterator_ref it1);
        lb_climb f a it1 key (art_compare_prefix (i_key it1) 0 key 0 (i_depth it1 + zlen (node_prefix n)))
  end.
(** art.c:2081-2122 art_iterator_lower_bound *)
Definition art_iterator_lower_bound (a : art) (it : iter) (key : list Z) : option (iter * bool) :=
  if i_val it =? 0 then
    let it0 := it_rewind it in
    let root := art_iterator_ref it0 in
    if root =? NULL_REF then Some (it0, false) else art_node_iterator_lower_bound LEVELS a root it0 key
  else lb_climb LEVELS a it key (art_compare_prefix (i_key it) 0 key 0 KEY_BYTES).
(** art.c:2124-2131 art_lower_bound *)
Definition art_lower_bound (a : art) (key : list Z) : option iter :=
  if a_root a =? NULL_REF then Some it_zero
  else do (it, _) <- art_node_iterator_lower_bound LEVELS a (a_root a) it_zero key; Some it.
(** art.c:2133-2143 art_upper_bound *)
Definition art_upper_bound (a : art) (key : list Z) : option iter :=
  if a_root a =? NULL_REF then Some it_zero
  else do (it, ok) <- art_node_iterator_lower_bound LEVELS a (a_root a) it_zero key;
       if ok && (art_compare_keys (i_key it) key =? 0) then do (it', _) <- art_iterator_next a it; Some it' else Some it.
(** art.c:2145-2153 art_iterator_insert *)
Definition art_iterator_insert (a : art) (it : iter) (key : list Z) (val : Z) : option (art * iter) :=
  do (a1, _) <- art_insert a key val;
  do (it1, _) <- art_node_iterator_lower_bound LEVELS a1 (a_root a1) (it_rewind it) key;
  Some (a1, it1).
(** art.c:2155-2214 art_iterator_erase: the value erased, None if the iterator has none *)
Definition art_iterator_erase (a : art) (it : iter) : option (art * iter * option Z) :=
  if i_val it =? 0 then Some (a, it, None)
  else
    let initial_key := i_key it in
    do v <- leaf_val a (i_val it);
    do a1 <- art_node_free a (art_iterator_ref it);
    do (it1, up) <- art_iterator_up a1 it;
    if negb up then Some (set_root a1 NULL_REF, art_iterator_invalid_loc it1, Some v)
    else
      let parent := art_iterator_ref it1 in
      do pn <- art_deref a1 parent;
      do chunk <- kget (i_key it1) (i_depth it1 + zlen (node_prefix pn));
      do (a2, new_parent) <- art_node_erase a1 parent chunk;
      do (a3, it3) <-
        (if negb (new_parent =? parent) then
           let it2 := IT (i_key it1) (i_val it1) (i_depth it1)
                         (set_top (i_frames it1) (new_parent, snd (hd (0, 0) (i_frames it1)))) in
           do (it3, up2) <- art_iterator_up a2 it2;
           if up2 then
             let gp := art_iterator_ref it3 in
             do gn <- art_deref a2 gp;
             do gchunk <- kget (i_key it3) (i_depth it3 + zlen (node_prefix gn));
             do gn' <- art_replace gn gchunk new_parent;
             Some (art_put a2 gp gn', it3)
           else Some (set_root a2 new_parent, it3)
         else Some (a2, it1));
      do (it4, _) <- art_node_iterator_lower_bound LEVELS a3 (a_root a3) (it_rewind it3) initial_key;
      Some (a3, it4, Some v).
