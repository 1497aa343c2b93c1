(** OwnH: bitmaps of containers in the heap of OwnC.v, the calls of SpecOwn.v on them,
    and the proof that every allowed program runs, computes the sets of SpecOwn.v and
    releases exactly the containers it drops.

    Simplifications, besides those of OwnC.v: the searches for a key are those verified
    in RArray.v, here the entries are visited in order; the arrays of keys and pointers
    are lists (their memory is the subject of TabMem.v). *)
From Coq Require Import ZArith List Bool Lia PeanoNat Permutation.
From Verif Require Import Base ArrayUtil BitUtil BitsetC ArrayC RunC RunD Convert MixedI MixedU MixedA MixedN Containers RArray RBinary Spec Obs SpecOwn OwnC OwnN OwnL.
From Verif Require RQuery RShift Cow CowH Heap.
Import ListNotations.
Local Open Scope Z_scope.
Local Opaque zr.

(** ** Code *)
(** the entries of a roaring_array_t: key and address of the container *)
Notation entries := (list (Z * nat)).
Definition addrs (es : entries) : list nat := map snd es.
Definition memit (k : Z) (o : option nat) (t : entries) : entries := match o with Some a => (k, a) :: t | None => t end.
(** a container from container_from_range (containers.h:304-327) or
    container_range_of_ones (containers.h:288-302) *)
Definition new_opt (o : option container) : M (option nat) :=
  match o with Some c => d <- new c ;; ret (Some d) | None => ret None end.
(** containers.c:206-225 container_clone *)
Definition clone (a : nat) : M nat := c <- rd a ;; new c.
(** roaring_array.c:252-271 ra_append_copy_range; also ra_overwrite (126-167) and ra_copy *)
Fixpoint copy_all (es : entries) : M entries :=
  match es with [] => ret [] | (k, a) :: t => d <- clone a ;; t' <- copy_all t ;; ret ((k, d) :: t') end.
(** roaring_array.c:169-173 ra_clear_containers *)
Fixpoint free_all (es : entries) : M unit :=
  match es with [] => ret tt | (_, a) :: t => _ <- fr a ;; free_all t end.
(** the entry with key k goes through [act] and is removed if the answer is None
    (ra_remove_at_index, ra_remove_at_index_and_free: the container was freed by [act]);
    if there is none, the container made by [absent] is inserted: roaring.c:533-559,
    601-624, one key of 249-298, 300-337 and of 1937-2011 *)
Fixpoint update_slot (k : Z) (act : nat -> M (option nat)) (absent : M (option nat)) (es : entries) : M entries :=
  match es with
  | [] => o <- absent ;; ret (memit k o [])
  | (k', a) :: t =>
    if k =? k' then o <- act a ;; ret (memit k o t)
    else if k <? k' then o <- absent ;; ret (memit k o es)
    else t' <- update_slot k act absent t ;; ret ((k', a) :: t')
  end.
Fixpoint update_keys (ks : list Z) (act : Z -> nat -> M (option nat)) (absent : Z -> M (option nat)) (es : entries) : M entries :=
  match ks with [] => ret es | k :: ks' => es' <- update_slot k (act k) (absent k) es ;; update_keys ks' act absent es' end.
(** every entry goes through [act]: roaring.c:1410-1426, 1444-1472 *)
Fixpoint map_all (act : nat -> M (option nat)) (es : entries) : M entries :=
  match es with [] => ret [] | (k, a) :: t => o <- act a ;; t' <- map_all act t ;; ret (memit k o t') end.
(** roaring.c:779-842 and_inplace, 923-993 or_inplace, 1074-1159 xor_inplace, 1228-1320
    andnot_inplace: one loop over the two key arrays.  [keepl]: containers with a key of
    x1 only stay, otherwise they are freed (ra_advance_until_freeing,
    roaring_array.c:340-346, and roaring.c:832-838).  [cr]: containers with a key of x2
    only are copied (get_copy_of_container without copy on write,
    ra_append_copy_range). *)
Fixpoint merge_in (act : Z -> nat -> nat -> M (option nat)) (keepl cr : bool) (es1 : entries) {struct es1} : entries -> M entries :=
  fix go (es2 : entries) {struct es2} : M entries :=
  match es1, es2 with
  | [], _ => if cr then copy_all es2 else ret []
  | _, [] => if keepl then ret es1 else _ <- free_all es1 ;; ret []
  | (k1, a1) :: t1, (k2, a2) :: t2 =>
    if k1 =? k2 then o <- act k1 a1 a2 ;; t <- merge_in act keepl cr t1 t2 ;; ret (memit k1 o t)
    else if k1 <? k2 then
      if keepl then t <- merge_in act keepl cr t1 es2 ;; ret ((k1, a1) :: t)
      else _ <- fr a1 ;; merge_in act keepl cr t1 es2
    else
      if cr then d <- clone a2 ;; t <- go t2 ;; ret ((k2, d) :: t) else go t2
  end.

(** roaring.c:533-559 roaring_bitmap_add: a new empty array container is filled *)
Definition add_absent (val : Z) : M (option nat) := newac <- new (CArr []) ;; d <- container_add_mem newac val ;; ret (Some d).
Definition mem_add (v : Z) : entries -> M entries := update_slot (Z.shiftr v 16) (act_add (Z.land v 65535)) (add_absent (Z.land v 65535)).
(** roaring.c:601-624 roaring_bitmap_remove *)
Definition mem_remove (v : Z) : entries -> M entries := update_slot (Z.shiftr v 16) (act_remove (Z.land v 65535)) (ret None).
(** roaring.c:249-298 roaring_bitmap_add_range_closed *)
Definition mem_add_range (s e : Z) (es : entries) : M entries :=
  if e <? s then ret es
  else update_keys (rev (CowH.range_keys s e)) (fun k => act_add_range (CowH.part_lo s k) (CowH.part_hi e k))
         (fun k => new_opt (container_from_range (CowH.part_lo s k) (CowH.part_hi e k + 1) 1)) es.
(** roaring.c:300-337 roaring_bitmap_remove_range_closed *)
Definition mem_remove_range (s e : Z) (es : entries) : M entries :=
  if e <? s then ret es
  else update_keys (CowH.range_keys s e) (fun k => act_remove_range (CowH.part_lo s k) (CowH.part_hi e k)) (fun _ => ret None) es.
(** roaring.c:2084-2120 roaring_bitmap_flip_inplace_closed; [cap]: the capacity of the run
    container with this key *)
Definition mem_flip (cap : Z -> Z) (s e : Z) (es : entries) : M entries :=
  if e <? s then ret es
  else update_keys (CowH.range_keys s e)
         (fun k => if CowH.is_part s e k then act_flip_part (cap k) (CowH.part_lo s k) (CowH.part_hi e k + 1) else act_flip_full (cap k))
         (fun k => new_opt (Some (CowH.flip_ones s e k))) es.

(** *** Several values *)
(** the index and the container of key k *)
Fixpoint find_slot (k : Z) (es : entries) : option (nat * nat) :=
  match es with
  | [] => None
  | (k', a) :: t =>
    if k =? k' then Some (O, a) else if k <? k' then None
    else match find_slot k t with Some (i, x) => Some (S i, x) | None => None end
  end.
(** entry i gets the container o or is removed *)
Fixpoint put_slot (i : nat) (o : option nat) (es : entries) : entries :=
  match es, i with
  | [], _ => []
  | (k, _) :: t, O => memit k o t
  | e :: t, S j => e :: put_slot j o t
  end.
(** roaring.c:102-130 add_bulk_impl.  The context remembers the key, the index and the
    container of the last value; containerptr_roaring_bitmap_add (51-82) is
    roaring_bitmap_add and answers them. *)
Definition context := option (Z * nat * nat).
Definition add_bulk (v : Z) (p : entries * context) : M (entries * context) :=
  let '(es, ctx) := p in
  let key := Z.shiftr v 16 in
  let seek := es' <- mem_add v es ;;
              match find_slot key es' with Some (i, a) => ret (es', Some (key, i, a)) | None => ub end in
  match ctx with
  | Some (k, i, a) =>
    if k =? key then
      d <- container_add_mem a (Z.land v 65535) ;;
      if Nat.eqb d a then ret (es, ctx) else _ <- fr a ;; ret (put_slot i (Some d) es, Some (k, i, d))
    else seek
  | None => seek
  end.
Fixpoint add_each (vs : list Z) (p : entries * context) : M (entries * context) :=
  match vs with [] => ret p | v :: t => p' <- add_bulk v p ;; add_each t p' end.
(** roaring.c:132-155 roaring_bitmap_add_many *)
Definition mem_add_many (vs : list Z) (es : entries) : M entries := '(es', _) <- add_each vs (es, None) ;; ret es'.
(** roaring.c:663-694 roaring_bitmap_remove_many: [pos] is the entry of the last value,
    None for -1 *)
Definition remove_bulk (v : Z) (p : entries * option nat) : M (entries * option nat) :=
  let '(es, pos) := p in
  let key := Z.shiftr v 16 in
  let seek := match find_slot key es with Some (i, _) => Some i | None => None end in
  let pos := match pos with
             | Some i => match nth_error es i with Some (k, _) => if k =? key then Some i else seek | None => seek end
             | None => seek
             end in
  match pos with
  | None => ret (es, None)
  | Some i => match nth_error es i with
              | Some (_, a) => o <- act_remove (Z.land v 65535) a ;;
                               ret (put_slot i o es, match o with Some _ => Some i | None => None end)
              | None => ub
              end
  end.
Fixpoint remove_each (vs : list Z) (p : entries * option nat) : M (entries * option nat) :=
  match vs with [] => ret p | v :: t => p' <- remove_bulk v p ;; remove_each t p' end.
Definition mem_remove_many (vs : list Z) (es : entries) : M entries := '(es', _) <- remove_each vs (es, None) ;; ret es'.

(** *** A new bitmap *)
(** roaring.c:698-737 and, 844-920 or, 995-1070 xor, 1161-1224 andnot: one loop over the
    two key arrays.  [cl], [cr]: containers with a key of one operand only are copied
    (get_copy_of_container without copy on write, ra_append_copy_range). *)
Fixpoint merge_out (act : Z -> nat -> nat -> M (option nat)) (cl cr : bool) (es1 : entries) {struct es1} : entries -> M entries :=
  fix go (es2 : entries) {struct es2} : M entries :=
  match es1, es2 with
  | [], _ => if cr then copy_all es2 else ret []
  | _, [] => if cl then copy_all es1 else ret []
  | (k1, a1) :: t1, (k2, a2) :: t2 =>
    if k1 =? k2 then o <- act k1 a1 a2 ;; t <- merge_out act cl cr t1 t2 ;; ret (memit k1 o t)
    else if k1 <? k2 then
      if cl then d <- clone a1 ;; t <- merge_out act cl cr t1 es2 ;; ret ((k1, d) :: t) else merge_out act cl cr t1 es2
    else
      if cr then d <- clone a2 ;; t <- go t2 ;; ret ((k2, d) :: t) else go t2
  end.
(** roaring.c:2023-2073 roaring_bitmap_flip_closed: the entries before the range are
    copied (ra_append_copies_until), the keys of the range are flipped, the entries after
    it are copied (ra_append_copies_after) *)
Fixpoint split_at {A} (k : Z) (es : list (Z * A)) : list (Z * A) * list (Z * A) :=
  match es with
  | [] => ([], [])
  | (k', x) :: t => if k' <? k then let '(a, b) := split_at k t in ((k', x) :: a, b) else ([], es)
  end.
Fixpoint look_at {A} (k : Z) (es : list (Z * A)) : option A :=
  match es with [] => None | (k', x) :: t => if k =? k' then Some x else look_at k t end.
Fixpoint flip_keys (s e : Z) (n : nat) (k : Z) (es : entries) : M entries :=
  match n with
  | O => ret []
  | S m =>
    o <- match look_at k es with
         | Some a => if CowH.is_part s e k then new_flip_part (CowH.part_lo s k) (CowH.part_hi e k + 1) a else new_flip_full a
         | None => new_opt (Some (CowH.flip_ones s e k))
         end ;;
    t <- flip_keys s e m (k + 1) es ;; ret (memit k o t)
  end.
Definition mem_flip_new (s e : Z) (es : entries) : M entries :=
  if e <? s then copy_all es
  else
    let '(pre, rest) := split_at (Z.shiftr s 16) es in
    let '(mid, after) := split_at (Z.shiftr e 16 + 1) rest in
    x <- copy_all pre ;;
    y <- flip_keys s e (Z.to_nat (Z.shiftr e 16 - Z.shiftr s 16 + 1)) (Z.shiftr s 16) mid ;;
    z <- copy_all after ;; ret (x ++ y ++ z).
(** roaring.c:512-517, roaring_array.c:126-167 ra_overwrite *)
Definition mem_overwrite (es1 es2 : entries) : M entries := _ <- free_all es1 ;; copy_all es2.
(** bitset.c:167-228 bitset_container_offset: the lower part is made even if it is empty,
    and then serves for the upper part or is freed *)
Definition bitset_offset_mem (a : nat) (loc hic : bool) (offset : Z) : M (option nat * option nat) :=
  c <- rdB a ;;
  let b := Z.shiftr offset 6 in
  let i := offset mod 64 in
  let lows := bitset_offset_lo (b_words c) b i in
  let card := bitset_container_compute_cardinality lows in
  bc <- (if loc then d <- new (CBit (card, lows)) ;; ret (Some d) else ret None) ;;
  let lo := if card =? 0 then None else bc in
  if loc && (card =? b_card c) then ret (lo, None)
  else if negb hic then
    match bc with Some d => _ <- (if card =? 0 then fr d else ret tt) ;; ret (lo, None) | None => ub end
  else
    d <- match bc with Some d => if card =? 0 then ret d else new (CBit bitset_container_create) | None => new (CBit bitset_container_create) end ;;
    let hiws := bitset_offset_hi (b_words c) b i in
    let hicard := bitset_container_compute_cardinality hiws in
    _ <- wr d (CBit (hicard, hiws)) ;;
    if hicard =? 0 then _ <- fr d ;; ret (lo, None) else ret (lo, Some d).
(** containers.h:1519-1543 container_add_offset; array.c:103-127, run.c:133-189: the parts
    that are not empty are made *)
Definition container_offset_mem (a : nat) (loc hic : bool) (offset : Z) : M (option nat * option nat) :=
  c <- rd a ;;
  match c with
  | CBit _ => bitset_offset_mem a loc hic offset
  | _ => lo <- new_opt (fst (container_add_offset c loc hic offset)) ;; hi <- new_opt (snd (container_add_offset c loc hic offset)) ;; ret (lo, hi)
  end.
(** roaring.c:2122-2148 offset_append_with_merge: [a] goes to the end, or into the last
    container *)
Fixpoint append_merge (cap k : Z) (a : nat) (ans : entries) : M entries :=
  match ans with
  | [] => ret [(k, a)]
  | (k0, last) :: t =>
    match t with
    | [] =>
      if k0 =? k then
        d <- container_ior_mem cap last a ;; _ <- (if Nat.eqb d last then ret tt else fr last) ;; _ <- fr a ;; ret [(k0, d)]
      else ret [(k0, last); (k, a)]
    | _ => t' <- append_merge cap k a t ;; ret ((k0, last) :: t')
    end
  end.
(** roaring.c:2155-2231 roaring_bitmap_add_offset *)
Fixpoint offset_loop (cap : Z -> Z) (container_offset in_offset : Z) (es ans : entries) : M entries :=
  match es with
  | [] => ret ans
  | (key, a) :: t =>
    let k := key + container_offset in
    let lo_ptr := (0 <=? k) && (k <? 65536) in
    let hi_ptr := (0 <=? k + 1) && (k + 1 <? 65536) in
    if negb lo_ptr && negb hi_ptr then offset_loop cap container_offset in_offset t ans
    else
      '(lo, hi) <- container_offset_mem a lo_ptr hi_ptr in_offset ;;
      ans' <- match lo with Some l => append_merge (cap k) k l ans | None => ret ans end ;;
      offset_loop cap container_offset in_offset t (match hi with Some d => ans' ++ [(k + 1, d)] | None => ans' end)
  end.
Fixpoint shift_copy (container_offset : Z) (es : entries) : M entries :=
  match es with
  | [] => ret []
  | (k, a) :: t =>
    if (k + container_offset <? 0) || (65536 <=? k + container_offset) then shift_copy container_offset t
    else d <- clone a ;; t' <- shift_copy container_offset t ;; ret ((k + container_offset, d) :: t')
  end.
Definition mem_add_offset (cap : Z -> Z) (offset : Z) (bm : entries) : M entries :=
  if offset =? 0 then copy_all bm
  else
    let container_offset := Z.shiftr offset 16 in
    let in_offset := u16 (offset - container_offset * 65536) in
    if in_offset =? 0 then shift_copy container_offset bm
    else answer <- offset_loop cap container_offset in_offset bm [] ;; map_all act_repair answer.
(** roaring.c:742-757 or_many, 762-776 xor_many: [lazy] starts the result (lazy_or
    2233-2322, lazy_xor 2408-2485), [ilazy] updates it (lazy_or_inplace 2324-2406,
    lazy_xor_inplace 2487-2567), both with the loops above; then every container is
    repaired (2569-2580) *)
Fixpoint many_in (ilazy : Z -> nat -> nat -> M (option nat)) (xs : list entries) (answer : entries) : M entries :=
  match xs with [] => ret answer | x :: t => answer' <- merge_in ilazy true true answer x ;; many_in ilazy t answer' end.
Definition mem_many (lazy ilazy : Z -> nat -> nat -> M (option nat)) (xs : list entries) : M entries :=
  match xs with
  | [] => ret []
  | [x] => copy_all x
  | x0 :: x1 :: t =>
    answer <- merge_out lazy true true x0 x1 ;;
    answer' <- many_in ilazy t answer ;; map_all act_repair answer'
  end.
(** roaring_priority_queue.c:99-192 lazy_or_from_lazy_inputs: the containers of both
    bitmaps move into the answer *)
Fixpoint merge_both (act : Z -> nat -> nat -> M nat) (es1 : entries) {struct es1} : entries -> M entries :=
  fix go (es2 : entries) {struct es2} : M entries :=
  match es1, es2 with
  | [], _ => ret es2
  | _, [] => ret es1
  | (k1, a1) :: t1, (k2, a2) :: t2 =>
    if k1 =? k2 then d <- act k1 a1 a2 ;; t <- merge_both act t1 t2 ;; ret ((k1, d) :: t)
    else if k1 <? k2 then t <- merge_both act t1 es2 ;; ret ((k1, a1) :: t)
    else t <- go t2 ;; ret ((k2, a2) :: t)
  end.
(** roaring_priority_queue.c:12-96: an element of the queue is a bitmap, temporary or not.  Which one comes out next
    depends on the sizes of the bitmaps (Heap.v); here it may be any of them: the i-th, or
    the last *)
Definition element : Type := (bool * entries)%type.
Fixpoint poll {A} (i : nat) (x : A) (t : list A) : A * list A :=
  match i, t with
  | S j, y :: u => let '(z, r) := poll j y u in (z, x :: r)
  | _, _ => (x, t)
  end.
(** roaring_priority_queue.c:210-240: two elements become one, which is temporary *)
Definition heap_pair (cap : Z -> Z) (x1 x2 : element) : M entries :=
  if fst x1 && fst x2 then merge_both (act_lazy_both cap) (snd x1) (snd x2)
  else if fst x2 then merge_in (act_lazy_ior false cap) true true (snd x2) (snd x1)
  else if fst x1 then merge_in (act_lazy_ior false cap) true true (snd x1) (snd x2)
  else merge_out (new_lazy_or false) true true (snd x1) (snd x2).
(** roaring_priority_queue.c:209-241: [n]: the rounds, one less than the elements *)
Fixpoint heap_rounds (cap : Z -> Z) (n : nat) (order : list (nat * nat)) (x : element) (t : list element) : M entries :=
  match n with
  | O => ret (snd x)
  | S m =>
    let '(x1, l) := poll (fst (hd (O, O) order)) x t in
    match l with
    | [] => ret (snd x)
    | y :: u =>
      let '(x2, l') := poll (snd (hd (O, O) order)) y u in
      newb <- heap_pair cap x1 x2 ;; heap_rounds cap m (tl order) (true, newb) l'
    end
  end.
(** roaring_priority_queue.c:200-247 roaring_bitmap_or_many_heap *)
Definition mem_or_heap (cap : Z -> Z) (order : list (nat * nat)) (xs : list entries) : M entries :=
  match xs with
  | [] => ret []
  | [x] => copy_all x
  | x :: t => answer <- heap_rounds cap (length t) order (false, x) (map (pair false) t) ;; map_all act_repair answer
  end.

(** ** Programs *)
Record world := W { wheap : heap; wvars : nat -> option entries }.
Definition wput (w : world) (h : heap) (d : nat) (o : option entries) : world := W h (fun x => if Nat.eqb x d then o else wvars w x).
Definition update (w : world) (d : nat) (e : entries -> M entries) : option world :=
  match wvars w d with
  | Some es => match e es (wheap w) with Some (h, es') => Some (wput w h d (Some es')) | None => None end
  | None => None
  end.
Definition combine (w : world) (d s : nat) (e : entries -> entries -> M entries) : option world :=
  match wvars w s with Some es2 => update w d (fun es1 => e es1 es2) | None => None end.
(** a variable is assigned only while it holds no bitmap *)
Definition assign (w : world) (d : nat) (e : M entries) : option world :=
  match wvars w d with
  | None => match e (wheap w) with Some (h, es) => Some (wput w h d (Some es)) | None => None end
  | Some _ => None
  end.
Definition assign2 (w : world) (d s t : nat) (e : entries -> entries -> M entries) : option world :=
  match wvars w s, wvars w t with Some es1, Some es2 => assign w d (e es1 es2) | _, _ => None end.
Fixpoint vars_of (w : world) (ss : list nat) : option (list entries) :=
  match ss with
  | [] => Some []
  | s :: t => match wvars w s, vars_of w t with Some x, Some xs => Some (x :: xs) | _, _ => None end
  end.
Definition assign_many (w : world) (d : nat) (ss : list nat) (e : list entries -> M entries) : option world :=
  match vars_of w ss with Some xs => assign w d (e xs) | None => None end.
(** roaring.h:43-45 create; roaring.c:492-510 copy; 519-527 free; 529-531 clear *)
Definition ostep (cap : Z -> Z) (c : cmd) (w : world) : option world :=
  match c with
  | OCreate d => assign w d (ret [])
  | OCopy d s => match wvars w s with Some es => assign w d (copy_all es) | None => None end
  | OFree d => match wvars w d with
               | Some es => match free_all es (wheap w) with Some (h, _) => Some (wput w h d None) | None => None end
               | None => None
               end
  | OClear d => update w d (fun es => _ <- free_all es ;; ret [])
  | OAdd d v => update w d (mem_add v)
  | ORemove d v => update w d (mem_remove v)
  | OAddRange d lo hi => update w d (mem_add_range lo hi)
  | ORemoveRange d lo hi => update w d (mem_remove_range lo hi)
  | OFlip d lo hi => update w d (mem_flip cap lo hi)
  | OAddMany d vs => update w d (mem_add_many vs)
  | ORemoveMany d vs => update w d (mem_remove_many vs)
  | OAnd d s => combine w d s (merge_in act_iand false false)
  | OOr d s => combine w d s (merge_in (act_ior cap) true true)
  | OXor d s => combine w d s (merge_in act_ixor true true)
  | OAndnot d s => combine w d s (merge_in act_iandnot true false)
  | ONewAnd d s t => assign2 w d s t (merge_out new_and false false)
  | ONewOr d s t => assign2 w d s t (merge_out new_or true true)
  | ONewXor d s t => assign2 w d s t (merge_out new_xor true true)
  | ONewAndnot d s t => assign2 w d s t (merge_out new_andnot true false)
  | ONewFlip d s lo hi => assign2 w d s s (fun es _ => mem_flip_new lo hi es)
  | OAddOffset d s off => assign2 w d s s (fun x _ => mem_add_offset cap off x)
  | OOverwrite d s => combine w d s mem_overwrite
  | OOrMany d ss => assign_many w d ss (mem_many (new_lazy_or true) (act_lazy_ior true cap))
  | OXorMany d ss => assign_many w d ss (mem_many new_lazy_xor act_lazy_ixor)
  | OOrHeap d ss order => assign_many w d ss (mem_or_heap cap order)
  | ORunOptimize d => update w d (map_all act_run_optimize)
  | ORemoveRuns d => update w d (map_all act_remove_runs)
  end.
(** each call comes with the capacities of the run containers at that moment *)
Fixpoint orun (prog : list (cmd * (Z -> Z))) (w : world) : option world :=
  match prog with [] => Some w | (c, cap) :: t => match ostep cap c w with Some w' => orun t w' | None => None end end.
Definition ostart : world := W (H 0 (fun _ => None)) (fun _ => None).

(** what can be seen: the containers of a bitmap, the containers allocated, who holds them *)
Fixpoint contents (h : heap) (es : entries) : option bitmap :=
  match es with
  | [] => Some []
  | (k, a) :: t => match ce h a, contents h t with Some c, Some r => Some ((k, c) :: r) | _, _ => None end
  end.
Definition live (w : world) (x : nat) : Prop := ce (wheap w) x <> None.
Definition holds (w : world) (d i x : nat) : Prop := exists es k, wvars w d = Some es /\ nth_error es i = Some (k, x).
Definition bitmaps_are (w : world) (S : sets) : Prop :=
  forall d, match wvars w d, S d with
            | Some es, Some P => exists r, contents (wheap w) es = Some r /\ denotes r P
            | None, None => True
            | _, _ => False
            end.

(** ** The same on values *)
Definition vemit (k : Z) (o : option container) (t : bitmap) : bitmap := match o with Some c => (k, c) :: t | None => t end.
Fixpoint vslot (k : Z) (f : container -> option container) (absent : option container) (r : bitmap) : bitmap :=
  match r with
  | [] => vemit k absent []
  | (k', c) :: t => if k =? k' then vemit k (f c) t else if k <? k' then vemit k absent r else (k', c) :: vslot k f absent t
  end.
Fixpoint vkeys (ks : list Z) (f : Z -> container -> option container) (absent : Z -> option container) (r : bitmap) : bitmap :=
  match ks with [] => r | k :: ks' => vkeys ks' f absent (vslot k (f k) (absent k) r) end.
Definition vmap (f : container -> container) (r : bitmap) : bitmap := map (fun p => (fst p, f (snd p))) r.
Fixpoint vmerge (f : Z -> container -> container -> option container) (keepl cr : bool) (r1 : bitmap) {struct r1} : bitmap -> bitmap :=
  fix go (r2 : bitmap) {struct r2} : bitmap :=
  match r1, r2 with
  | [], _ => if cr then r2 else []
  | _, [] => if keepl then r1 else []
  | (k1, c1) :: t1, (k2, c2) :: t2 =>
    if k1 =? k2 then vemit k1 (f k1 c1 c2) (vmerge f keepl cr t1 t2)
    else if k1 <? k2 then if keepl then (k1, c1) :: vmerge f keepl cr t1 r2 else vmerge f keepl cr t1 r2
    else if cr then (k2, c2) :: go t2 else go t2
  end.
Fixpoint vflip_keys (s e : Z) (n : nat) (k : Z) (r : bitmap) : bitmap :=
  match n with
  | O => []
  | S m => vemit k (match look_at k r with
                    | Some c => card_some (if CowH.is_part s e k then container_not_range c (CowH.part_lo s k) (CowH.part_hi e k + 1) else container_not c)
                    | None => Some (CowH.flip_ones s e k)
                    end) (vflip_keys s e m (k + 1) r)
  end.
Definition vflip (s e : Z) (r : bitmap) : bitmap :=
  if e <? s then r
  else
    let '(pre, rest) := split_at (Z.shiftr s 16) r in
    let '(mid, after) := split_at (Z.shiftr e 16 + 1) rest in
    pre ++ vflip_keys s e (Z.to_nat (Z.shiftr e 16 - Z.shiftr s 16 + 1)) (Z.shiftr s 16) mid ++ after.
Fixpoint vmany (f : Z -> bitmap -> bitmap) (vs : list Z) (r : bitmap) : bitmap := match vs with [] => r | v :: t => vmany f t (f v r) end.

Definition vmany_of (f g : Z -> container -> container -> option container) (rs : list bitmap) : bitmap :=
  match rs with
  | [] => []
  | [r] => r
  | r0 :: r1 :: t => vmap container_repair_after_lazy (fold_left (vmerge g true true) t (vmerge f true true r0 r1))
  end.

(** ** The operations of Cow.v without copy on write *)
Lemma own_emit k o r : Cow.hemit k (option_map Cow.Own o) (Cow.own_all r) = Cow.own_all (vemit k o r). Proof. now destruct o. Qed.
Lemma own_slot k f absent r m : Cow.update_slot k f absent (Cow.own_all r) m = Some (m, Cow.own_all (vslot k f absent r)).
Proof.
  induction r as [|[k' c] t IH]; cbn [Cow.own_all map Cow.update_slot vslot fst snd].
  - rewrite <- own_emit. reflexivity.
  - destruct (k =? k'); [unfold Cow.bind, Cow.ret; cbn; rewrite <- own_emit; reflexivity|].
    destruct (k <? k'); [unfold Cow.ret; rewrite <- own_emit; reflexivity|].
    unfold Cow.bind. fold (Cow.own_all t). rewrite IH. reflexivity.
Qed.
Lemma own_keys f absent ks : forall r m, Cow.update_keys ks f absent (Cow.own_all r) m = Some (m, Cow.own_all (vkeys ks f absent r)).
Proof. induction ks as [|k ks IH]; intros; cbn [Cow.update_keys vkeys]; [reflexivity|]. unfold Cow.bind. rewrite own_slot. apply IH. Qed.
Lemma own_map f r m : Cow.map_writable f (Cow.own_all r) m = Some (m, Cow.own_all (vmap f r)).
Proof. induction r as [|[k c] t IH]; cbn [Cow.own_all map Cow.map_writable fst snd vmap]; [reflexivity|]. unfold Cow.bind. cbn. unfold Cow.own_all, vmap in IH. rewrite IH. reflexivity. Qed.
Lemma own_runs r m : Cow.map_runs RQuery.remove_run (Cow.own_all r) m = Some (m, Cow.own_all (vmap RQuery.remove_run r)).
Proof.
  induction r as [|[k c] t IH]; [reflexivity|]. cbn [Cow.own_all map Cow.map_runs fst snd vmap]. unfold Cow.own_all, vmap in IH. unfold Cow.bind. cbn [Cow.load Cow.unwrap]. unfold Cow.load. cbn [Cow.unwrap].
  destruct c; cbn [Cow.container_free]; unfold Cow.ret; rewrite IH; reflexivity.
Qed.
Lemma own_copy r m : Cow.ra_append_copy_range false (Cow.own_all r) m = Some (m, (Cow.own_all r, Cow.own_all r)).
Proof.
  induction r as [|[k c] t IH]; [reflexivity|]. cbn [Cow.own_all map Cow.ra_append_copy_range fst snd]. fold (Cow.own_all t). unfold Cow.bind, Cow.ra_append_copy. cbn. rewrite IH. reflexivity.
Qed.
Lemma own_clear r m : Cow.ra_clear_containers (Cow.own_all r) m = Some (m, tt).
Proof. induction r as [|[k c] t IH]; [reflexivity|]. cbn [Cow.own_all map Cow.ra_clear_containers fst snd]. fold (Cow.own_all t). unfold Cow.bind. cbn. exact IH. Qed.
Lemma own_merge act f keepl cr : (forall k c1 c2 m, act k (Cow.Own c1) (Cow.Own c2) m = Some (m, option_map Cow.Own (f k c1 c2))) ->
  forall r1 r2 m, Cow.merge_in act keepl cr false (Cow.own_all r1) (Cow.own_all r2) m = Some (m, (Cow.own_all (vmerge f keepl cr r1 r2), Cow.own_all r2)).
Proof.
  intros Ha. induction r1 as [|[k1 c1] t1 IH1].
  - intros [|[k2 c2] t2] m; destruct cr; try reflexivity. cbn [Cow.own_all map Cow.merge_in fst snd vmerge]. unfold Cow.bind.
    pose proof (own_copy ((k2, c2) :: t2) m) as E. cbn [Cow.own_all map fst snd] in E. rewrite E. reflexivity.
  - induction r2 as [|[k2 c2] t2 IH2]; intros m.
    + cbn [Cow.own_all map Cow.merge_in fst snd vmerge]. destruct keepl; [reflexivity|]. unfold Cow.bind.
      pose proof (own_clear ((k1, c1) :: t1) m) as E. cbn [Cow.own_all map fst snd] in E. rewrite E. reflexivity.
    + change (Cow.own_all ((k1, c1) :: t1)) with ((k1, Cow.Own c1) :: Cow.own_all t1) in *. change (Cow.own_all ((k2, c2) :: t2)) with ((k2, Cow.Own c2) :: Cow.own_all t2).
      cbn [Cow.merge_in]. cbn [vmerge]. destruct (k1 =? k2).
      * unfold Cow.bind. rewrite Ha, IH1. unfold Cow.ret. rewrite own_emit. reflexivity.
      * destruct (k1 <? k2).
        -- destruct keepl; unfold Cow.bind.
           ++ specialize (IH1 ((k2, c2) :: t2) m). change (Cow.own_all ((k2, c2) :: t2)) with ((k2, Cow.Own c2) :: Cow.own_all t2) in IH1. rewrite IH1. reflexivity.
           ++ cbn [Cow.container_free]. unfold Cow.ret. specialize (IH1 ((k2, c2) :: t2) m). change (Cow.own_all ((k2, c2) :: t2)) with ((k2, Cow.Own c2) :: Cow.own_all t2) in IH1. rewrite IH1. reflexivity.
        -- destruct cr; unfold Cow.bind.
           ++ unfold Cow.get_copy_of_container at 1. cbn [Cow.unwrap]. specialize (IH2 m). cbn [Cow.merge_in] in IH2. unfold Cow.bind in IH2. rewrite IH2. reflexivity.
           ++ specialize (IH2 m). cbn [Cow.merge_in] in IH2. unfold Cow.bind in IH2. rewrite IH2. reflexivity.
Qed.
Lemma own_out inl f cl cr : (forall c m, inl false (Cow.Own c) m = Some (m, (Cow.Own c, Cow.Own c))) ->
  forall r1 r2 m, Cow.merge_new inl f cl cr false false (Cow.own_all r1) (Cow.own_all r2) m = Some (m, (Cow.own_all r1, Cow.own_all r2, Cow.own_all (vmerge f cl cr r1 r2))).
Proof.
  intros Hi. induction r1 as [|[k1 c1] t1 IH1].
  - intros [|[k2 c2] t2] m; destruct cr; try reflexivity. cbn [Cow.own_all map Cow.merge_new fst snd vmerge]. unfold Cow.bind.
    pose proof (own_copy ((k2, c2) :: t2) m) as E. cbn [Cow.own_all map fst snd] in E. rewrite E. reflexivity.
  - induction r2 as [|[k2 c2] t2 IH2]; intros m.
    + cbn [Cow.own_all map Cow.merge_new fst snd vmerge]. destruct cl; [|reflexivity]. unfold Cow.bind.
      pose proof (own_copy ((k1, c1) :: t1) m) as E. cbn [Cow.own_all map fst snd] in E. rewrite E. reflexivity.
    + change (Cow.own_all ((k1, c1) :: t1)) with ((k1, Cow.Own c1) :: Cow.own_all t1) in *. change (Cow.own_all ((k2, c2) :: t2)) with ((k2, Cow.Own c2) :: Cow.own_all t2).
      cbn [Cow.merge_new]. cbn [vmerge]. destruct (k1 =? k2).
      * unfold Cow.bind, Cow.load. cbn [Cow.unwrap]. rewrite IH1. unfold Cow.ret. rewrite own_emit. reflexivity.
      * destruct (k1 <? k2).
        -- specialize (IH1 ((k2, c2) :: t2) m). change (Cow.own_all ((k2, c2) :: t2)) with ((k2, Cow.Own c2) :: Cow.own_all t2) in IH1.
           destruct cl; unfold Cow.bind; [rewrite Hi|]; rewrite IH1; reflexivity.
        -- specialize (IH2 m). cbn [Cow.merge_new] in IH2. unfold Cow.bind in IH2. destruct cr; unfold Cow.bind; [rewrite Hi|]; rewrite IH2; reflexivity.
Qed.
Lemma own_split k r : CowH.split_lt k (Cow.own_all r) = (Cow.own_all (fst (split_at k r)), Cow.own_all (snd (split_at k r))).
Proof.
  induction r as [|[k' c] t IH]; [reflexivity|]. cbn [Cow.own_all map CowH.split_lt split_at fst snd]. fold (Cow.own_all t). destruct (k' <? k); [|reflexivity].
  rewrite IH. now destruct (split_at k t).
Qed.
Lemma own_look k r : Cow.look_slot k (Cow.own_all r) = option_map Cow.Own (look_at k r).
Proof. induction r as [|[k' c] t IH]; [reflexivity|]. cbn [Cow.own_all map Cow.look_slot look_at fst snd]. fold (Cow.own_all t). now destruct (k =? k'). Qed.
Lemma own_flip_mid s e r m n : forall k, CowH.flip_mid s e n k (Cow.own_all r) m = Some (m, Cow.own_all (vflip_keys s e n k r)).
Proof.
  induction n as [|n IH]; intros k; [reflexivity|]. cbn [CowH.flip_mid vflip_keys]. rewrite own_look. unfold Cow.bind. rewrite <- own_emit. destruct (look_at k r) as [c|]; cbn [option_map]; unfold Cow.load; cbn [Cow.unwrap]; unfold Cow.ret; rewrite IH; reflexivity.
Qed.
Lemma own_flip s e r m : exists r', CowH.hflip_closed false s e (Cow.own_all r) m = Some (m, (r', Cow.own_all (vflip s e r))).
Proof.
  unfold CowH.hflip_closed, vflip. destruct (e <? s); [eexists; apply own_copy|]. rewrite own_split. destruct (split_at (Z.shiftr s 16) r) as [pre rest]. cbn [fst snd].
  rewrite own_split. destruct (split_at (Z.shiftr e 16 + 1) rest) as [mid after]. cbn [fst snd]. unfold Cow.bind. rewrite own_copy, own_flip_mid, own_copy. unfold Cow.ret. eexists. unfold Cow.own_all. rewrite !map_app. reflexivity.
Qed.
Lemma own_hval r m : Cow.hval m (Cow.own_all r) = Some r.
Proof. induction r as [|[k c] t IH]; [reflexivity|]. cbn [Cow.own_all map Cow.hval fst snd Cow.unwrap]. fold (Cow.own_all t). now rewrite IH. Qed.
Lemma own_refs l r : Cow.refs l (Cow.hs (Cow.own_all r)) = 0.
Proof. induction r as [|[k c] t IH]; [reflexivity|]. cbn. exact IH. Qed.
Lemma own_inv r : Cow.inv false [] (Cow.hs (Cow.own_all r) ++ []).
Proof. split; [intros _ []; reflexivity|]. intros l. rewrite app_nil_r. assert (E : Cow.cellat [] l = None) by (now destruct l). rewrite E. apply own_refs. Qed.
Lemma own_inv2 r1 r2 : Cow.inv false [] (Cow.hs (Cow.own_all r1) ++ Cow.hs (Cow.own_all r2) ++ []).
Proof. split; [intros _ []; reflexivity|]. intros l. rewrite app_nil_r, Cow.refs_app, !own_refs. assert (E : Cow.cellat [] l = None) by (now destruct l). now rewrite E. Qed.
(** so the sets are those of CowH.v *)
Lemma upd_den e v P Q r : CowH.upd_ok false e P Q -> e (Cow.own_all r) [] = Some ([], Cow.own_all v) -> denotes r P -> denotes v Q.
Proof.
  intros U E D. destruct (U (Cow.own_all r) [] r [] D (own_inv r) (own_hval r _)) as (m'&es'&r'&E'&_&_&V&D'). rewrite E in E'. injection E' as <- <-.
  rewrite own_hval in V. injection V as ->. exact D'.
Qed.
Lemma in_den e v P Q R r1 r2 : CowH.in_ok false e P Q R -> (e (Cow.own_all r1) (Cow.own_all r2) [] = Some ([], (Cow.own_all v, Cow.own_all r2))) ->
  denotes r1 P -> denotes r2 Q -> denotes v R.
Proof.
  intros U E D1 D2. destruct (U (Cow.own_all r1) (Cow.own_all r2) [] r1 r2 [] D1 D2 (own_inv2 r1 r2) (own_hval r1 _) (own_hval r2 _)) as (m'&a&c&r&E'&_&_&V&_&D').
  rewrite E in E'. injection E' as <- <- <-. rewrite own_hval in V. injection V as ->. exact D'.
Qed.
Lemma new_den e r' v P Q r : CowH.new_ok false e P Q -> e (Cow.own_all r) [] = Some ([], (r', Cow.own_all v)) -> denotes r P -> denotes v Q.
Proof.
  intros U E D. destruct (U (Cow.own_all r) [] r [] D (own_inv r) (own_hval r _)) as (m'&es'&a&r2&E'&_&_&_&V&D'). rewrite E in E'. injection E' as <- <- <-.
  rewrite own_hval in V. injection V as ->. exact D'.
Qed.
Lemma bin_den e v P Q R r1 r2 : CowH.bin_ok false e P Q R -> e (Cow.own_all r1) (Cow.own_all r2) [] = Some ([], (Cow.own_all r1, Cow.own_all r2, Cow.own_all v)) ->
  denotes r1 P -> denotes r2 Q -> denotes v R.
Proof.
  intros U E D1 D2. destruct (U (Cow.own_all r1) (Cow.own_all r2) [] r1 r2 [] D1 D2 (own_inv2 r1 r2) (own_hval r1 _) (own_hval r2 _)) as (m'&a&c&x&r&E'&_&_&_&_&V&D').
  rewrite E in E'. injection E' as <- <- <- <-. rewrite own_hval in V. injection V as ->. exact D'.
Qed.

(** two bitmaps that need not be canonical *)
Lemma vmerge_rep (C1 C2 C : container -> Prop) f op r1 r2 : opok C1 C2 C f op -> unionlike f -> (forall c, C1 c -> C c) -> (forall c, C2 c -> C c) ->
  gok C1 0 r1 -> gok C2 0 r2 -> bmrep C 0 (vmerge op true true r1 r2) (fun k x => f (km r1 k x) (km r2 k x)).
Proof.
  intros Hop U I1 I2 G1 G2.
  destruct (Cow.merge_new_ok false Cow.get_copy_of_container op true true C1 C2 C f (Cow.get_copy_ok false) Hop (fun b => proj1 (U b)) (fun b => proj2 (U b)) (fun _ => I1) (fun _ => I2)
    (Cow.own_all r1) (Cow.own_all r2) 0 [] r1 r2 [] G1 G2 (own_inv2 r1 r2) (own_hval r1 _) (own_hval r2 _)) as (m'&a&b&ans&r&E&_&_&_&_&V&R).
  rewrite (own_out Cow.get_copy_of_container op true true) in E by reflexivity. injection E as <- <- <- <-. rewrite own_hval in V. injection V as ->. exact R.
Qed.
Lemma fold_rep g f : opok lne cok lne f g -> unionlike f -> forall rs r P, Forall bok rs -> bmrep lne 0 r P ->
  bmrep lne 0 (fold_left (vmerge g true true) rs r) (fun k x => fold_left (fun p s => f p (km s k x)) rs (P k x)).
Proof.
  intros Hg U. induction rs as [|s t IH]; intros r P Hr R; cbn [fold_left]; [exact R|]. inversion Hr as [|? ? Hs Ht]; subst.
  apply (IH _ (fun k x => f (P k x) (km s k x))); auto.
  eapply bmrep_ext; [apply (vmerge_rep lne cok lne f g r s Hg U); auto; [apply cok_lne|apply R]|]. intros k x Hk Hx. cbn beta. f_equal. now apply R.
Qed.
Lemma vmany_of_den f0 g (f : bool -> bool -> bool) (F : zset -> zset -> zset) rs Ps : opok lne lne lne f f0 -> opok lne cok lne f g -> unionlike f -> (forall P Q v, F P Q v = f (P v) (Q v)) ->
  Forall2 denotes rs Ps -> denotes (vmany_of f0 g rs) (fold_left F Ps zempty).
Proof.
  intros H0 Hg U HF D.
  assert (FV : forall v ps p, fold_left F ps p v = fold_left (fun b P => f b (P v)) ps (p v)).
  { intros v. induction ps as [|P ps IH]; intros p; cbn [fold_left]; [reflexivity|]. rewrite IH, HF. reflexivity. }
  assert (FK : forall v, val32 v -> forall rs Ps, Forall2 denotes rs Ps -> forall b, fold_left (fun p s => f p (km s (v / 65536) (v mod 65536))) rs b = fold_left (fun b P => f b (P v)) Ps b).
  { intros v Hv xs ys X. induction X as [|r P xs ys Dr X IH]; intros b; cbn [fold_left]; [reflexivity|]. rewrite <- (den_mem r P v Dr Hv). apply IH. }
  assert (B : forall rs Ps, Forall2 denotes rs Ps -> Forall bok rs).
  { intros xs ys X. induction X; constructor; auto. eapply den_bok; eauto. }
  destruct D as [|r0 P0 rs' Ps' D0 D]; [apply den_new|]. destruct D as [|r1 P1 rs Ps D1 D]; cbn [vmany_of].
  - cbn [fold_left]. eapply den_ext; [exact D0|]. intros v Hv. rewrite HF. unfold zempty. symmetry. apply U.
  - assert (R0 : bmrep lne 0 (vmerge f0 true true r0 r1) (fun k x => f (km r0 k x) (km r1 k x))).
    { apply (vmerge_rep lne lne lne f f0 r0 r1 H0 U); auto; apply gok_cok_lne; eapply den_bok; eauto. }
    pose proof (fold_rep g f Hg U rs _ _ (B _ _ D) R0) as R. pose proof (bmrep_map lne cok container_repair_after_lazy 0 _ (proj1 R) CowH.repair_lne) as R'.
    eapply den_of_rspec; [exact R'|]. intros v Hv. cbn beta. rewrite (proj2 R) by (pose proof (CowH.val_hi v Hv); pose proof (Z.mod_pos_bound v 65536); lia).
    rewrite (FK v Hv rs Ps D), FV. cbn [fold_left]. f_equal. rewrite (proj2 (U _)). f_equal; [apply (den_mem r0 P0 v D0 Hv)|apply (den_mem r1 P1 v D1 Hv)].
Qed.

(** ** Frames *)
Definition apart (a b : list nat) : Prop := forall x, In x a -> ~ In x b.
Definition below (a : list nat) (n : nat) : Prop := forall x, In x a -> (x < n)%nat.
Lemma post_seq h F1 G1 h1 F2 G2 h2 : below F1 (nx h) -> below F2 (nx h) -> apart F1 F2 -> post h F1 G1 h1 -> post h1 F2 G2 h2 ->
  post h (F1 ++ F2) (G1 ++ G2) h2 /\ (forall x, In x G1 -> ce h2 x = ce h1 x).
Proof.
  intros B1 B2 A (W1&L1&N1&O1&U1&D1&K1) (W2&L2&N2&O2&U2&D2&K2).
  assert (X : forall x, In x G1 -> ~ In x F2).
  { intros x I J. destruct (O1 x I) as [I'|I']; [now apply (A x)|]. specialize (B2 x J). lia. }
  assert (Y : forall x, In x G1 -> ~ In x G2).
  { intros x I J. destruct (O2 x J) as [I'|I']; [now apply (X x)|]. specialize (U1 x I). lia. }
  split; [|intros x I; apply K2; auto].
  split; [exact W2|]. split; [lia|]. split.
  { clear - N1 N2 Y. induction G1 as [|g G1 IH]; [exact N2|]. inversion N1; subst. cbn. constructor.
    - intros J. apply in_app_iff in J. destruct J as [J|J]; [contradiction|]. apply (Y g); auto. now left.
    - apply IH; auto. intros x I. apply Y. now right. }
  split. { intros x I. apply in_app_iff in I. rewrite in_app_iff. destruct I as [I|I]; [destruct (O1 x I); auto|]. destruct (O2 x I); [auto|]. right. lia. }
  split. { intros x I. apply in_app_iff in I. destruct I as [I|I]; [specialize (U1 x I); lia|auto]. }
  split.
  - intros x I J. rewrite in_app_iff in I. apply in_app_iff in J. assert (~ In x G1) by tauto. assert (~ In x G2) by tauto.
    destruct J as [J|J]; [|now apply D2]. rewrite K2; auto.
  - intros x I J. rewrite in_app_iff in I, J. rewrite K2 by tauto. apply K1; tauto.
Qed.
Lemma post_perm h F F' G G' h' : Permutation F F' -> Permutation G G' -> post h F G h' -> post h F' G' h'.
Proof.
  intros PF PG (W&L&N&O&B&D&K). assert (X : forall x, In x F' <-> In x F) by (intros x; split; apply Permutation_in; [now symmetry|exact PF]).
  assert (Y : forall x, In x G' <-> In x G) by (intros x; split; apply Permutation_in; [now symmetry|exact PG]).
  split; [exact W|]. split; [exact L|]. split; [exact (Permutation_NoDup PG N)|]. split; [intros x J; rewrite X; apply O; now apply Y|]. split; [intros x J; apply B; now apply Y|].
  split; intros x J1 J2; rewrite Y in J1; rewrite X in J2; [now apply D|now apply K].
Qed.
Lemma post_nil h : wfh h -> post h [] [] h.
Proof. intros W. unfold post. cbn. split; [exact W|]. split; [lia|]. split; [constructor|]. split; [intros x []|]. split; [intros x []|]. split; [intros x _ []|auto]. Qed.
Lemma post_same h F : wfh h -> NoDup F -> below F (nx h) -> post h F F h.
Proof. intros W N B. split; [exact W|]. split; [lia|]. split; [exact N|]. split; [auto|]. split; [exact B|]. split; [intros; contradiction|auto]. Qed.

(** ** Entries and their containers *)
Definition rr (h : heap) (es : entries) (r : bitmap) : Prop := Forall2 (fun e p => fst e = fst p /\ ce h (snd e) = Some (snd p)) es r.
Lemma rr_below h es r : wfh h -> rr h es r -> below (addrs es) (nx h).
Proof. intros W R. induction R as [|[k a] [k' c] es r [E1 E2] R IH]; intros x I; [destruct I|]. destruct I as [<-|I]; [eapply wf_lt; eauto|auto]. Qed.
Lemma rr_ext h h' es r : (forall x, In x (addrs es) -> ce h' x = ce h x) -> rr h es r -> rr h' es r.
Proof.
  intros X R. induction R as [|e p es r [E1 E2] R IH]; constructor.
  - split; auto. rewrite X; auto. now left.
  - apply IH. intros x I. apply X. now right.
Qed.
Lemma rr_post h F G h' es r : wfh h -> post h F G h' -> apart (addrs es) F -> rr h es r -> rr h' es r.
Proof.
  intros W (_&_&_&O&_&_&K) A R. eapply rr_ext; [|exact R]. intros x I. pose proof (rr_below _ _ _ W R x I). apply K; [|now apply A].
  intros J. destruct (O x J) as [I'|I']; [now apply (A x)|lia].
Qed.
Lemma rr_emit h h2 k o oc t r G2 : oval h o oc -> (forall x, In x (ohs o) -> ce h2 x = ce h x) -> rr h2 t r -> G2 = addrs t ->
  rr h2 (memit k o t) (vemit k oc r) /\ addrs (memit k o t) = ohs o ++ G2.
Proof.
  intros O X R ->. destruct o as [a|], oc as [c|]; cbn in O; try contradiction; cbn; split; auto. constructor; auto. split; auto. cbn. rewrite X; auto. now left.
Qed.
Definition done (h : heap) (F : list nat) (r : bitmap) (h' : heap) (es' : entries) : Prop := post h F (addrs es') h' /\ rr h' es' r.
(** one container, then the rest *)
Lemma done_cons h k F1 o oc h1 F2 r h2 t : below F1 (nx h) -> below F2 (nx h) -> apart F1 F2 -> post h F1 (ohs o) h1 -> oval h1 o oc -> done h1 F2 r h2 t ->
  done h (F1 ++ F2) (vemit k oc r) h2 (memit k o t).
Proof.
  intros B1 B2 A P V [P2 R]. destruct (post_seq _ _ _ _ _ _ _ B1 B2 A P P2) as [P3 X].
  destruct (rr_emit h1 h2 k o oc t r _ V X R eq_refl) as [R' E]. split; [now rewrite E|exact R'].
Qed.
Lemma post_wf h F G h' : post h F G h' -> wfh h'. Proof. now intros []. Qed.
Lemma clone_wp h a c : wfh h -> ce h a = Some c -> wp (clone a) h (fun h' d => post h [] [d] h' /\ ce h' d = Some c).
Proof. intros W E. unfold clone. bnd. eapply wp_rd; [exact E|]. hp h. now apply new_wp. Qed.
Lemma copy_all_wp es : forall h r, wfh h -> rr h es r -> wp (copy_all es) h (done h [] r).
Proof.
  induction es as [|[k a] t IH]; intros h r W R; inversion R as [|x p x' r' [E1 E2] R']; subst; cbn [copy_all].
  - apply wp_ret. split; [now apply post_nil|constructor].
  - destruct p as [k' c]. cbn in E1, E2. subst k'. bnd. eapply wp_mono; [eapply clone_wp; eauto|]. intros h1 d [P V]. bnd.
    assert (R1 : rr h1 t r') by (eapply rr_post; [exact W|exact P|intros y _ []|exact R']).
    eapply wp_mono; [apply (IH h1 r'); [now apply post_wf in P|exact R1]|]. intros h2 t' D. apply wp_ret.
    apply (done_cons h k [] (Some d) (Some c) h1 [] r' h2 t'); auto; intros y [].
Qed.
Lemma free_all_wp es : forall h r, wfh h -> rr h es r -> NoDup (addrs es) -> wp (free_all es) h (fun h' _ => post h (addrs es) [] h').
Proof.
  induction es as [|[k a] t IH]; intros h r W R N; inversion R as [|x p x' r' [E1 E2] R']; subst; cbn [free_all addrs map snd].
  - apply wp_ret. now apply post_nil.
  - cbn in E2. inversion N as [|? ? N1 N2]; subst. bnd. eapply wp_mono; [eapply drop_wp; eauto|]. intros h1 [] P. cbn beta in P.
    assert (B : below (addrs t) (nx h)) by (eapply rr_below; eauto).
    assert (R1 : rr h1 t r') by (eapply rr_post; [exact W|exact P| |exact R']; intros y Iy [<-|[]]; contradiction).
    eapply wp_mono; [apply (IH h1 r'); [now apply post_wf in P|exact R1|exact N2]|]. intros h2 [] P2.
    refine (proj1 (post_seq h [a] [] h1 (addrs t) [] h2 _ B _ P P2)).
    + intros y [<-|[]]. eapply wf_lt; eauto.
    + intros y [<-|[]]. exact N1.
Qed.

Definition abs_ok (v : option container) (absent : M (option nat)) : Prop := forall h, wfh h -> wp absent h (fun h' o => post h [] (ohs o) h' /\ oval h' o v).
Lemma new_opt_ok v : abs_ok v (new_opt v).
Proof.
  intros h W. destruct v as [c|]; cbn [new_opt].
  - bnd. hp h. eapply wp_mono; [now apply new_wp|]. intros h' d [P V]. apply wp_ret. split; [exact P|exact V].
  - apply wp_ret. split; [now apply post_nil|exact I].
Qed.
Lemma ret_none_ok : abs_ok None (ret None). Proof. exact (new_opt_ok None). Qed.
Lemma add_absent_ok val : abs_ok (Some (container_add (CArr []) val)) (add_absent val).
Proof.
  intros h W. unfold add_absent. bnd. hp h. eapply wp_mono; [now apply (new_wp n f (CArr []))|]. intros h1 d [P V]. bnd.
  unfold container_add_mem, container_add. bnd. eapply wp_rd; [exact V|].
  destruct (array_container_try_add [] val 4096) as [rc l] eqn:Et.
  assert (Erc : negb (rc =? -1) = true) by (cbn in Et; injection Et as <- _; reflexivity).
  rewrite Erc. bnd. hp h1. eapply wp_wr; [exact V|]. apply wp_ret. apply wp_ret. split; [|unfold oval; cbn [ce]; cbn in Et; injection Et as _ <-; apply upd_same].
  destruct P as (W1&L&N&O&U&D&K). unfold post. cbn [nx ce ohs] in *. split; [now apply (wfh_wr _ _ _ (CArr []))|]. split; [exact L|]. split; [exact N|]. split; [exact O|]. split; [exact U|].
  split; [intros x _ []|]. intros x Nx _. rewrite upd_other by (intros ->; apply Nx; now left). apply K; auto.
Qed.
Lemma act1_wp f act h a c : act1_ok f act -> wfh h -> ce h a = Some c -> wp (act a) h (fun h' o => post h [a] (ohs o) h' /\ oval h' o (f c)).
Proof. intros A W E. exact (A h a c W E). Qed.

Definition bm_ok (v : bitmap -> bitmap) (e : entries -> M entries) : Prop :=
  forall h es r, wfh h -> rr h es r -> NoDup (addrs es) -> wp (e es) h (done h (addrs es) (v r)).
Lemma ret_bm : bm_ok (fun r => r) ret.
Proof. intros h es r W R N. apply wp_ret. split; [apply post_same; auto; eapply rr_below; eauto|exact R]. Qed.
(** an entry that stays, before the rest *)
Lemma done_keep h k a c F r h' t : wfh h -> ce h a = Some c -> ~ In a F -> below F (nx h) -> done h F r h' t -> done h (a :: F) ((k, c) :: r) h' ((k, a) :: t).
Proof.
  intros W E N B D. apply (done_cons h k [a] (Some a) (Some c) h F r h' t); auto.
  - intros x [<-|[]]. eapply wf_lt; eauto.
  - intros x [<-|[]]. exact N.
  - apply post_same; auto; [nodup|]. intros x [<-|[]]. eapply wf_lt; eauto.
Qed.
(** the rest stays, after one container *)
Lemma done_stay h1 t r : wfh h1 -> rr h1 t r -> NoDup (addrs t) -> done h1 (addrs t) r h1 t.
Proof. intros W R N. split; [apply post_same; auto; eapply rr_below; eauto|exact R]. Qed.
Lemma update_slot_ok k f act v absent : act1_ok f act -> abs_ok v absent -> bm_ok (vslot k f v) (update_slot k act absent).
Proof.
  intros Ha Hn h es. induction es as [|[k' a] t IH]; intros r W R N; inversion R as [|x p x' r' [E1 E2] R']; subst; cbn [update_slot vslot].
  - bnd. eapply wp_mono; [now apply Hn|]. intros h1 o [P V]. apply wp_ret. 
    apply (done_cons h k [] o v h1 [] [] h1 []); auto; try (intros y []). split; [apply post_nil; now apply post_wf in P|constructor].
  - destruct p as [k0 c]. cbn [fst snd] in E1, E2. subst k0. cbn [addrs map snd] in *. fold (addrs t) in *. inversion N as [|? ? N1 N2]; subst.
    assert (B : below (addrs t) (nx h)) by (eapply rr_below; eauto). assert (La : (a < nx h)%nat) by (eapply wf_lt; eauto).
    destruct (Z.eqb_spec k k') as [->|]; [|destruct (k <? k')].
    + bnd. eapply wp_mono; [eapply act1_wp; eauto|]. intros h1 o [P V]. apply wp_ret.
      apply (done_cons h k' [a] o (f c) h1 (addrs t) r' h1 t); auto.
      * intros x [<-|[]]. exact La.
      * intros x [<-|[]]. exact N1.
      * apply done_stay; auto; [now apply post_wf in P|]. eapply rr_post; [exact W|exact P| |exact R']. intros y Iy [<-|[]]. contradiction.
    + bnd. eapply wp_mono; [now apply Hn|]. intros h1 o [P V]. apply wp_ret.
      apply (done_cons h k [] o v h1 (a :: addrs t) ((k', c) :: r') h1 ((k', a) :: t)); auto; try (intros y []; fail).
      * intros x [<-|Ix]; auto.
      * apply (done_stay h1 ((k', a) :: t)); auto; [now apply post_wf in P|]. eapply rr_post; [exact W|exact P|intros y _ []|exact R].
    + bnd. eapply wp_mono; [now apply (IH r')|]. intros h1 t' D. apply wp_ret. apply done_keep; auto.
Qed.
Lemma bm_seq v1 v2 e1 e2 : bm_ok v1 e1 -> bm_ok v2 e2 -> bm_ok (fun r => v2 (v1 r)) (fun es => es' <- e1 es ;; e2 es').
Proof.
  intros H1 H2 h es r W R N. bnd. eapply wp_mono; [now apply (H1 h es r)|]. intros h1 es1 [P1 R1].
  assert (W1 : wfh h1) by now apply post_wf in P1. assert (N1 : NoDup (addrs es1)) by (now destruct P1 as (_&_&?&_)).
  eapply wp_mono; [now apply (H2 h1 es1 (v1 r))|]. intros h2 es2 [P2 R2]. split; [|exact R2].
  destruct P1 as (_&L1&_&O1&U1&D1&K1), P2 as (W2&L2&N2&O2&U2&D2&K2). pose proof (rr_below _ _ _ W R) as B.
  split; [exact W2|]. split; [lia|]. split; [exact N2|]. split.
  { intros x I. destruct (O2 x I) as [J|J]; [now apply O1|right; lia]. }
  split; [exact U2|]. split.
  - intros x I J. destruct (in_dec Nat.eq_dec x (addrs es1)) as [Y|Y]; [now apply D2|]. rewrite K2 by auto. now apply D1.
  - intros x I J. destruct (in_dec Nat.eq_dec x (addrs es1)) as [Y|Y].
    + rewrite D2 by auto. destruct (O1 x Y) as [Z|Z]; [contradiction|]. symmetry. now apply W.
    + rewrite K2 by auto. now apply K1.
Qed.
Lemma update_keys_ok f act v absent ks : (forall k, act1_ok (f k) (act k)) -> (forall k, abs_ok (v k) (absent k)) -> bm_ok (vkeys ks f v) (update_keys ks act absent).
Proof.
  intros Ha Hn. induction ks as [|k ks IH]; cbn [vkeys update_keys]; [apply ret_bm|].
  apply (bm_seq (vslot k (f k) (v k)) (vkeys ks f v) (update_slot k (act k) (absent k)) (update_keys ks act absent)); [now apply update_slot_ok|exact IH].
Qed.
Lemma map_all_ok f act : act1_ok (fun c => Some (f c)) act -> bm_ok (vmap f) (map_all act).
Proof.
  intros Ha h es. revert h. induction es as [|[k a] t IH]; intros h r W R N; inversion R as [|x p x' r' [E1 E2] R']; subst; cbn [map_all].
  - apply wp_ret. split; [now apply post_nil|constructor].
  - destruct p as [k0 c]. cbn [fst snd] in E1, E2. subst k0. cbn [addrs map snd] in *. fold (addrs t) in *. inversion N as [|? ? N1 N2]; subst.
    assert (B : below (addrs t) (nx h)) by (eapply rr_below; eauto). assert (La : (a < nx h)%nat) by (eapply wf_lt; eauto).
    bnd. eapply wp_mono; [eapply act1_wp; eauto|]. intros h1 o [P V]. bnd.
    assert (R1 : rr h1 t r') by (eapply rr_post; [exact W|exact P| |exact R']; intros y Iy [<-|[]]; contradiction).
    eapply wp_mono; [apply (IH h1 r'); auto; now apply post_wf in P|]. intros h2 t' D. apply wp_ret.
    apply (done_cons h k [a] o (Some (f c)) h1 (addrs t) (vmap f r') h2 t'); auto.
    + intros x [<-|[]]. exact La.
    + intros x [<-|[]]. exact N1.
Qed.
Lemma merge_in_ok f act keepl cr : act2_ok f act -> forall es1 es2 h r1 r2, wfh h -> rr h es1 r1 -> rr h es2 r2 -> NoDup (addrs es1) -> apart (addrs es1) (addrs es2) ->
  wp (merge_in act keepl cr es1 es2) h (done h (addrs es1) (vmerge f keepl cr r1 r2)).
Proof.
  intros Ha. induction es1 as [|[k1 a1] t1 IH1]; intros es2 h r1 r2 W R1 R2 N A.
  - inversion R1; subst. assert (X : wp (if cr then copy_all es2 else ret []) h (done h [] (if cr then r2 else []))).
    { destruct cr; [now apply copy_all_wp|]. apply wp_ret. split; [now apply post_nil|constructor]. }
    destruct es2, r2; exact X.
  - inversion R1 as [|x p x' r1' [E1 E2] R1']; subst. destruct p as [k0 c1]. cbn [fst snd] in E1, E2. subst k0.
    cbn [addrs map snd] in N, A |- *. fold (addrs t1) in *. inversion N as [|? ? N1 N2]; subst.
    assert (B : below (addrs t1) (nx h)) by (eapply rr_below; eauto). assert (La : (a1 < nx h)%nat) by (eapply wf_lt; eauto).
    revert h r2 W R1 R2 A E2 R1' B La. induction es2 as [|[k2 a2] t2 IH2]; intros h r2 W R1 R2 A E2 R1' B La.
    + inversion R2; subst. cbn [merge_in vmerge]. destruct keepl.
      * apply wp_ret. apply (done_stay h ((k1, a1) :: t1)); auto.
      * bnd. eapply wp_mono; [apply (free_all_wp ((k1, a1) :: t1) h ((k1, c1) :: r1')); auto|]. intros h1 [] P. apply wp_ret. split; [exact P|constructor].
    + inversion R2 as [|x p x' r2' [F1 F2] R2']; subst. destruct p as [k0 c2]. cbn [fst snd] in F1, F2. subst k0. cbn [addrs map snd] in A. fold (addrs t2) in A.
      assert (Ne : a1 <> a2) by (intros ->; apply (A a2); now left).
      cbn [merge_in vmerge]. destruct (Z.eqb_spec k1 k2) as [->|]; [|destruct (k1 <? k2)].
      * bnd. destruct (Ha k2 h a1 a2 c1 c2 W E2 F2 Ne) as (h1&o&Eo&P&V). exists h1, o. split; [exact Eo|]. bnd.
        assert (X1 : rr h1 t1 r1') by (eapply rr_post; [exact W|exact P| |exact R1']; intros y Iy [<-|[]]; contradiction).
        assert (X2 : rr h1 t2 r2') by (eapply rr_post; [exact W|exact P| |exact R2']; intros y Iy [<-|[]]; apply (A a1); [now left|now right]).
        eapply wp_mono; [apply (IH1 t2 h1 r1' r2'); auto; [now apply post_wf in P|intros y Iy J; apply (A y); now right]|].
        intros h2 t D. apply wp_ret. apply (done_cons h k2 [a1] o (f k2 c1 c2) h1 (addrs t1) _ h2 t); auto.
        -- intros y [<-|[]]. exact La.
        -- intros y [<-|[]]. exact N1.
      * destruct keepl.
        -- bnd. eapply wp_mono; [apply (IH1 ((k2, a2) :: t2) h r1' ((k2, c2) :: r2')); auto; intros y Iy; apply A; now right|].
           intros h2 t D. apply wp_ret. now apply done_keep.
        -- bnd. eapply wp_mono; [eapply drop_wp; eauto|]. intros h1 [] P. cbn beta in P.
           assert (X1 : rr h1 t1 r1') by (eapply rr_post; [exact W|exact P| |exact R1']; intros y Iy [<-|[]]; contradiction).
           assert (X2 : rr h1 ((k2, a2) :: t2) ((k2, c2) :: r2')) by (eapply rr_post; [exact W|exact P| |exact R2]; intros y Iy [<-|[]]; apply (A a1); [now left|exact Iy]).
           eapply wp_mono; [apply (IH1 ((k2, a2) :: t2) h1 r1' ((k2, c2) :: r2')); auto; [now apply post_wf in P|intros y Iy; apply A; now right]|].
           intros h2 t D. apply (done_cons h k1 [a1] None None h1 (addrs t1) _ h2 t); auto.
           ++ intros y [<-|[]]. exact La.
           ++ intros y [<-|[]]. exact N1.
           ++ exact I.
      * destruct cr.
        -- bnd. eapply wp_mono; [eapply clone_wp; eauto|]. intros h1 d [P V]. bnd.
           assert (W1 : wfh h1) by now apply post_wf in P.
           assert (X1 : rr h1 ((k1, a1) :: t1) ((k1, c1) :: r1')) by (eapply rr_post; [exact W|exact P|intros y _ []|exact R1]).
           assert (X2 : rr h1 t2 r2') by (eapply rr_post; [exact W|exact P|intros y _ []|exact R2']).
           inversion X1 as [|? ? ? ? [_ Y1] Y2]; subst.
           eapply wp_mono; [apply (IH2 h1 r2'); auto; [intros y Iy J; apply (A y); [exact Iy|now right]|eapply rr_below; eauto|eapply wf_lt; eauto]|].
           intros h2 t D. apply wp_ret. apply (done_cons h k2 [] (Some d) (Some c2) h1 (a1 :: addrs t1) _ h2 t); auto; try (intros y []; fail).
           intros y [<-|Iy]; auto.
        -- apply (IH2 h r2'); auto. intros y Iy J. apply (A y); [exact Iy|now right].
Qed.
(** *** New bitmaps *)
Lemma nil_below n : below [] n. Proof. intros x []. Qed.
Lemma nil_apart a : apart a []. Proof. intros x _ []. Qed.
Lemma nil_apart' a : apart [] a. Proof. intros x []. Qed.
Lemma done_app h r1 h1 es1 r2 h2 es2 : done h [] r1 h1 es1 -> done h1 [] r2 h2 es2 -> done h [] (r1 ++ r2) h2 (es1 ++ es2).
Proof.
  intros [P1 R1] [P2 R2]. destruct (post_seq h [] _ h1 [] _ h2 (nil_below _) (nil_below _) (nil_apart _) P1 P2) as [P X]. split.
  - unfold addrs in *. now rewrite map_app.
  - apply Forall2_app; [|exact R2]. exact (rr_ext h1 h2 es1 r1 X R1).
Qed.
Lemma fresh_cons h k o oc h1 r h2 t : fresh h oc h1 o -> done h1 [] r h2 t -> done h [] (vemit k oc r) h2 (memit k o t).
Proof. intros [P V] D. apply (done_cons h k [] o oc h1 [] r h2 t); auto using nil_below, nil_apart. Qed.
Lemma fresh_rr h oc h1 o es r : wfh h -> fresh h oc h1 o -> rr h es r -> rr h1 es r.
Proof. intros W [P V] R. eapply rr_post; [exact W|exact P|apply nil_apart|exact R]. Qed.
Lemma fresh_wf h oc h1 o : fresh h oc h1 o -> wfh h1. Proof. intros [P _]. now apply post_wf in P. Qed.
Lemma clone_fresh h a c : wfh h -> ce h a = Some c -> wp (clone a) h (fun h' d => fresh h (Some c) h' (Some d)).
Proof. exact (clone_wp h a c). Qed.
Lemma merge_out_ok f act cl cr : new2_ok f act -> forall es1 es2 h r1 r2, wfh h -> rr h es1 r1 -> rr h es2 r2 -> wp (merge_out act cl cr es1 es2) h (done h [] (vmerge f cl cr r1 r2)).
Proof.
  intros Ha. induction es1 as [|[k1 a1] t1 IH1]; intros es2 h r1 r2 W R1 R2.
  - inversion R1; subst. assert (X : wp (if cr then copy_all es2 else ret []) h (done h [] (if cr then r2 else []))).
    { destruct cr; [now apply copy_all_wp|]. apply wp_ret. split; [now apply post_nil|constructor]. }
    destruct es2, r2; exact X.
  - inversion R1 as [|x p x' r1' [E1 E2] R1']; subst. destruct p as [k0 c1]. cbn [fst snd] in E1, E2. subst k0.
    revert h r2 W R1 R2 E2 R1'. induction es2 as [|[k2 a2] t2 IH2]; intros h r2 W R1 R2 E2 R1'.
    + inversion R2; subst. cbn [merge_out vmerge]. destruct cl; [now apply (copy_all_wp ((k1, a1) :: t1))|]. apply wp_ret. split; [now apply post_nil|constructor].
    + inversion R2 as [|x p x' r2' [F1 F2] R2']; subst. destruct p as [k0 c2]. cbn [fst snd] in F1, F2. subst k0.
      cbn [merge_out vmerge]. destruct (Z.eqb_spec k1 k2) as [->|]; [|destruct (k1 <? k2)].
      * bnd. eapply wp_mono; [apply (Ha k2 h a1 a2 c1 c2 W E2 F2)|]. intros h1 o X. bnd.
        eapply wp_mono; [apply (IH1 t2 h1 r1' r2'); [eapply fresh_wf; eauto|eapply fresh_rr; eauto|eapply fresh_rr; eauto]|]. intros h2 t D. apply wp_ret. eapply fresh_cons; eauto.
      * destruct cl.
        -- bnd. eapply wp_mono; [eapply clone_fresh; eauto|]. intros h1 d X. cbn beta in X. bnd.
           eapply wp_mono; [apply (IH1 ((k2, a2) :: t2) h1 r1' ((k2, c2) :: r2')); [eapply fresh_wf; eauto|eapply fresh_rr; eauto|eapply fresh_rr; eauto]|].
           intros h2 t D. apply wp_ret. apply (fresh_cons h k1 (Some d) (Some c1) h1 _ h2 t X D).
        -- now apply (IH1 ((k2, a2) :: t2) h r1' ((k2, c2) :: r2')).
      * destruct cr.
        -- bnd. eapply wp_mono; [eapply clone_fresh; eauto|]. intros h1 d X. cbn beta in X. bnd.
           pose proof (fresh_rr _ _ _ _ _ _ W X R1) as Y. inversion Y as [|? ? ? ? [_ Y1] Y2]; subst.
           eapply wp_mono; [apply (IH2 h1 r2'); auto; [eapply fresh_wf; eauto|eapply fresh_rr; eauto]|].
           intros h2 t D. apply wp_ret. apply (fresh_cons h k2 (Some d) (Some c2) h1 _ h2 t X D).
        -- now apply (IH2 h r2').
Qed.
Lemma rr_look h es r k : rr h es r -> match look_at k es, look_at k r with Some a, Some c => ce h a = Some c | None, None => True | _, _ => False end.
Proof. intros R. induction R as [|[k1 a] [k2 c] es r [E1 E2] R IH]; [exact I|]. cbn in E1, E2. subst k2. cbn [look_at]. now destruct (k =? k1). Qed.
Lemma rr_split h es r k : rr h es r -> rr h (fst (split_at k es)) (fst (split_at k r)) /\ rr h (snd (split_at k es)) (snd (split_at k r)).
Proof.
  intros R. induction R as [|[k1 a] [k2 c] es r [E1 E2] R IH]; [split; constructor|]. cbn in E1, E2. subst k2. cbn [split_at]. destruct (k1 <? k).
  - destruct (split_at k es), (split_at k r). cbn [fst snd] in *. destruct IH. split; auto. constructor; auto.
  - cbn [fst snd]. split; constructor; auto.
Qed.
Lemma flip_keys_ok s e n : forall k h es r, wfh h -> rr h es r -> wp (flip_keys s e n k es) h (done h [] (vflip_keys s e n k r)).
Proof.
  induction n as [|n IH]; intros k h es r W R; cbn [flip_keys vflip_keys].
  - apply wp_ret. split; [now apply post_nil|constructor].
  - bnd. assert (X : wp (match look_at k es with Some a => if CowH.is_part s e k then new_flip_part (CowH.part_lo s k) (CowH.part_hi e k + 1) a else new_flip_full a
                              | None => new_opt (Some (CowH.flip_ones s e k)) end) h
       (fresh h (match look_at k r with Some c => card_some (if CowH.is_part s e k then container_not_range c (CowH.part_lo s k) (CowH.part_hi e k + 1) else container_not c)
                              | None => Some (CowH.flip_ones s e k) end))).
    { pose proof (rr_look h es r k R) as L. destruct (look_at k es) as [a|], (look_at k r) as [c|]; try contradiction.
      - destruct (CowH.is_part s e k); [now apply (new_flip_part_ok _ _ h a c)|now apply (new_flip_full_ok h a c)].
      - exact (new_opt_ok (Some (CowH.flip_ones s e k)) h W). }
    eapply wp_mono; [exact X|]. clear X. intros h1 o X. bnd. eapply wp_mono; [apply (IH (k + 1) h1 es r); [eapply fresh_wf; eauto|eapply fresh_rr; eauto]|].
    intros h2 t D. apply wp_ret. eapply fresh_cons; eauto.
Qed.
Lemma mem_flip_new_ok s e h es r : wfh h -> rr h es r -> wp (mem_flip_new s e es) h (done h [] (vflip s e r)).
Proof.
  intros W R. unfold mem_flip_new, vflip. destruct (e <? s); [now apply copy_all_wp|].
  destruct (rr_split h es r (Z.shiftr s 16) R) as [R1 R2]. destruct (split_at (Z.shiftr s 16) es) as [pre rest], (split_at (Z.shiftr s 16) r) as [vpre vrest]. cbn [fst snd] in R1, R2.
  destruct (rr_split h rest vrest (Z.shiftr e 16 + 1) R2) as [R3 R4]. destruct (split_at (Z.shiftr e 16 + 1) rest) as [mid after], (split_at (Z.shiftr e 16 + 1) vrest) as [vmid vafter]. cbn [fst snd] in R3, R4.
  assert (K : forall h0 v h1 x es0 r0, wfh h0 -> done h0 [] v h1 x -> rr h0 es0 r0 -> rr h1 es0 r0).
  { intros h0 v h1 x es0 r0 W0 [P _] R0. eapply rr_post; [exact W0|exact P|apply nil_apart|exact R0]. }
  bnd. eapply wp_mono; [now apply (copy_all_wp pre h vpre)|]. intros h1 x D1. assert (W1 : wfh h1) by (destruct D1 as [P _]; now apply post_wf in P).
  bnd. eapply wp_mono; [apply (flip_keys_ok s e _ _ h1 mid vmid); [exact W1|exact (K _ _ _ _ _ _ W D1 R3)]|]. intros h2 y D2. assert (W2 : wfh h2) by (destruct D2 as [P _]; now apply post_wf in P).
  bnd. eapply wp_mono; [apply (copy_all_wp after h2 vafter); [exact W2|exact (K _ _ _ _ _ _ W1 D2 (K _ _ _ _ _ _ W D1 R4))]|]. intros h3 z D3. apply wp_ret.
  eapply done_app; [exact D1|]. eapply done_app; eauto.
Qed.
Lemma mem_overwrite_ok h es1 es2 r1 r2 : wfh h -> rr h es1 r1 -> rr h es2 r2 -> NoDup (addrs es1) -> apart (addrs es1) (addrs es2) -> wp (mem_overwrite es1 es2) h (done h (addrs es1) r2).
Proof.
  intros W R1 R2 N A. unfold mem_overwrite. bnd. eapply wp_mono; [now apply (free_all_wp es1 h r1)|]. intros h1 [] P.
  assert (W1 : wfh h1) by now apply post_wf in P.
  assert (X : rr h1 es2 r2) by (eapply rr_post; [exact W|exact P| |exact R2]; intros y I1 I2; now apply (A y)).
  eapply wp_mono; [now apply (copy_all_wp es2 h1 r2)|]. intros h2 es [P2 R]. split; [|exact R].
  pose proof (proj1 (post_seq h (addrs es1) [] h1 [] (addrs es) h2 (rr_below _ _ _ W R1) (nil_below _) (nil_apart _) P P2)) as Q. now rewrite app_nil_r in Q.
Qed.

(** *** Several values *)
(** entry i has the key k and the container a, and the keys before it are smaller *)
Definition at_slot (es : entries) (k : Z) (i a : nat) : Prop :=
  exists pre after, es = pre ++ (k, a) :: after /\ length pre = i /\ forall e, In e pre -> fst e < k.
Lemma find_at k es i a : find_slot k es = Some (i, a) -> at_slot es k i a.
Proof.
  revert i a. induction es as [|[k' x] t IH]; cbn [find_slot]; [discriminate|]. intros i a. destruct (Z.eqb_spec k k') as [->|N].
  - intros E. injection E as <- <-. exists [], t. split; [reflexivity|]. split; [reflexivity|intros e []].
  - destruct (Z.ltb_spec k k'); [discriminate|]. destruct (find_slot k t) as [[j y]|]; [|discriminate]. intros E. injection E as <- <-.
    destruct (IH j y eq_refl) as (pre&after&->&<-&L). exists ((k', x) :: pre), after. split; [reflexivity|]. split; [reflexivity|].
    intros e [<-|I]; [cbn; lia|auto].
Qed.
Lemma update_at k act absent es i a h : at_slot es k i a ->
  update_slot k act absent es h = match act a h with Some (h', o) => Some (h', put_slot i o es) | None => None end.
Proof.
  intros (pre&after&->&<-&L). revert h. induction pre as [|[k' x] t IH]; intros h; cbn [app update_slot length put_slot].
  - rewrite Z.eqb_refl. unfold bind. destruct (act a h) as [[h' o]|]; reflexivity.
  - pose proof (L (k', x) (or_introl eq_refl)) as Lx. cbn in Lx. rewrite (proj2 (Z.eqb_neq k k')) by lia. rewrite (proj2 (Z.ltb_ge k k')) by lia.
    unfold bind. rewrite IH by (intros e I; apply L; now right). destruct (act a h) as [[h' o]|]; reflexivity.
Qed.
Lemma put_at es k i a d : at_slot es k i a -> at_slot (put_slot i (Some d) es) k i d.
Proof.
  intros (pre&after&->&<-&L). exists pre, after. split; [|auto]. clear L. induction pre as [|[k' x] t IH]; cbn [app put_slot length memit]; [reflexivity|]. now rewrite IH.
Qed.
Lemma put_same es k i a : at_slot es k i a -> put_slot i (Some a) es = es.
Proof. intros (pre&after&->&<-&L). clear L. induction pre as [|[k' x] t IH]; cbn [app put_slot length memit]; [reflexivity|]. now rewrite IH. Qed.
Lemma at_nth es k i a : at_slot es k i a -> nth_error es i = Some (k, a).
Proof. intros (pre&after&->&<-&_). rewrite nth_error_app2 by lia. now rewrite Nat.sub_diag. Qed.
(** a key that is not found: nothing is updated *)
Lemma find_none k act es h : find_slot k es = None -> update_slot k act (ret None) es h = Some (h, es).
Proof.
  revert h. induction es as [|[k' x] t IH]; intros h; cbn [find_slot update_slot]; [reflexivity|]. destruct (k =? k'); [discriminate|]. destruct (k <? k'); [reflexivity|].
  destruct (find_slot k t) as [[i y]|]; [discriminate|]. intros _. unfold bind. rewrite IH by reflexivity. reflexivity.
Qed.
(** after adding a value its key is found *)
Lemma add_found k act absent h es h' es' : (forall a h1 h2 o, act a h1 = Some (h2, o) -> o <> None) -> (forall h1 h2 o, absent h1 = Some (h2, o) -> o <> None) ->
  update_slot k act absent es h = Some (h', es') -> exists i a, find_slot k es' = Some (i, a).
Proof.
  intros Ha Hb. revert h h' es'. induction es as [|[k' x] t IH]; intros h h' es'; cbn [update_slot]; unfold bind.
  - destruct (absent h) as [[h1 o]|] eqn:Eo; [|discriminate]. intros E. injection E as <- <-. pose proof (Hb _ _ _ Eo) as No. destruct o as [d|]; [|now contradiction No].
    cbn [memit find_slot]. rewrite Z.eqb_refl. eauto.
  - destruct (Z.eqb_spec k k') as [->|N].
    + destruct (act x h) as [[h1 o]|] eqn:Eo; [|discriminate]. intros E. injection E as <- <-. pose proof (Ha _ _ _ _ Eo) as No. destruct o as [d|]; [|now contradiction No].
      cbn [memit find_slot]. rewrite Z.eqb_refl. eauto.
    + destruct (Z.ltb_spec k k').
      * destruct (absent h) as [[h1 o]|] eqn:Eo; [|discriminate]. intros E. injection E as <- <-. pose proof (Hb _ _ _ Eo) as No. destruct o as [d|]; [|now contradiction No].
        cbn [memit find_slot]. rewrite Z.eqb_refl. eauto.
      * destruct (update_slot k act absent t h) as [[h1 t1]|] eqn:Et; [|discriminate]. intros E. injection E as <- <-. destruct (IH _ _ _ Et) as (i&a&Ef).
        cbn [find_slot]. rewrite (proj2 (Z.eqb_neq k k')) by lia. rewrite (proj2 (Z.ltb_ge k k')) by lia. rewrite Ef. eauto.
Qed.
Definition ctx_ok (es : entries) (ctx : context) : Prop := match ctx with Some (k, i, a) => at_slot es k i a | None => True end.
(** adding through the context is adding *)
Lemma add_bulk_eq v es ctx h h' es' : ctx_ok es ctx -> mem_add v es h = Some (h', es') ->
  exists ctx', add_bulk v (es, ctx) h = Some (h', (es', ctx')) /\ ctx_ok es' ctx'.
Proof.
  intros C E. unfold add_bulk. cbv zeta.
  assert (Seek : exists ctx', (es1 <- mem_add v es ;; match find_slot (Z.shiftr v 16) es1 with Some (i, a) => ret (es1, Some (Z.shiftr v 16, i, a)) | None => ub end) h
    = Some (h', (es', ctx')) /\ ctx_ok es' ctx').
  { unfold bind. rewrite E. unfold mem_add in E. apply add_found in E.
    - destruct E as (i&a&Ef). rewrite Ef. exists (Some (Z.shiftr v 16, i, a)). split; [reflexivity|]. now apply find_at.
    - intros a h1 h2 o. unfold act_add, bind. destruct (container_add_mem a _ h1) as [[h3 d]|]; [|discriminate]. destruct (Nat.eqb d a).
      + unfold ret. intros X. injection X as _ <-. discriminate.
      + destruct (fr a h3) as [[h4 t]|]; [|discriminate]. unfold ret. intros X. injection X as _ <-. discriminate.
    - intros h1 h2 o. unfold add_absent, bind. destruct (new (CArr []) h1) as [[h3 d]|]; [|discriminate]. destruct (container_add_mem d _ h3) as [[h4 t]|]; [|discriminate].
      unfold ret. intros X. injection X as _ <-. discriminate. }
  destruct ctx as [[[k i] a]|]; [|exact Seek]. destruct (Z.eqb_spec k (Z.shiftr v 16)) as [->|]; [|exact Seek]. clear Seek.
  unfold mem_add in E. cbn [ctx_ok] in C. rewrite (update_at _ _ _ _ _ _ _ C) in E. unfold act_add, bind in E. unfold bind.
  destruct (container_add_mem a (Z.land v 65535) h) as [[h1 d]|]; [|discriminate]. destruct (Nat.eqb d a) eqn:Ed.
  - apply Nat.eqb_eq in Ed. subst d. unfold ret in E. injection E as <- <-. rewrite (put_same _ _ _ _ C). unfold ret. eexists. split; [reflexivity|exact C].
  - destruct (fr a h1) as [[h2 t]|]; [|discriminate]. unfold ret in E. injection E as <- <-. unfold ret. eexists. split; [reflexivity|]. cbn [ctx_ok]. eapply put_at; eauto.
Qed.
Definition pos_ok (es : entries) (pos : option nat) : Prop := match pos with Some i => exists k a, at_slot es k i a | None => True end.
Lemma remove_bulk_eq v es pos h h' es' : pos_ok es pos -> mem_remove v es h = Some (h', es') ->
  exists pos', remove_bulk v (es, pos) h = Some (h', (es', pos')) /\ pos_ok es' pos'.
Proof.
  intros C E. unfold remove_bulk. cbv zeta. unfold mem_remove in E. set (k := Z.shiftr v 16) in *.
  assert (Go : forall i, (exists a, at_slot es k i a) -> exists pos', (match nth_error es i with
      | Some (_, a) => o <- act_remove (Z.land v 65535) a ;; ret (put_slot i o es, match o with Some _ => Some i | None => None end) | None => ub end) h = Some (h', (es', pos')) /\ pos_ok es' pos').
  { intros i (a&A). rewrite (at_nth _ _ _ _ A). rewrite (update_at _ _ _ _ _ _ _ A) in E. unfold bind. destruct (act_remove (Z.land v 65535) a h) as [[h1 o]|]; [|discriminate].
    injection E as <- <-. unfold ret. eexists. split; [reflexivity|]. destruct o as [d|]; [|exact I]. exists k, d. eapply put_at; eauto. }
  assert (Seek : exists pos', (match (match find_slot k es with Some (i, _) => Some i | None => None end) with
      | None => ret (es, None)
      | Some i => match nth_error es i with
         | Some (_, a) => o <- act_remove (Z.land v 65535) a ;; ret (put_slot i o es, match o with Some _ => Some i | None => None end) | None => ub end
      end) h = Some (h', (es', pos')) /\ pos_ok es' pos').
  { destruct (find_slot k es) as [[i a]|] eqn:Ef.
    - apply Go. exists a. now apply find_at.
    - rewrite (find_none _ _ _ _ Ef) in E. injection E as <- <-. exists None. split; [reflexivity|exact I]. }
  destruct pos as [i|]; [|exact Seek]. destruct C as (k0&a&A). rewrite (at_nth _ _ _ _ A). destruct (Z.eqb_spec k0 k) as [->|]; [|exact Seek]. rewrite (at_nth _ _ _ _ A). 
  pose proof (Go i (ex_intro _ a A)) as X. now rewrite (at_nth _ _ _ _ A) in X.
Qed.
Fixpoint each (e : Z -> entries -> M entries) (vs : list Z) (es : entries) : M entries :=
  match vs with [] => ret es | v :: t => es' <- e v es ;; each e t es' end.
Lemma each_ok f e : (forall v, bm_ok (f v) (e v)) -> forall vs, bm_ok (vmany f vs) (each e vs).
Proof. intros E. induction vs as [|v t IH]; cbn [vmany each]; [apply ret_bm|]. apply (bm_seq (f v) (vmany f t) (e v) (each e t)); auto. Qed.
Lemma add_each_eq vs : forall es ctx h h' es', ctx_ok es ctx -> each mem_add vs es h = Some (h', es') -> exists ctx', add_each vs (es, ctx) h = Some (h', (es', ctx')).
Proof.
  induction vs as [|v t IH]; intros es ctx h h' es' C; cbn [each add_each]; unfold bind.
  - intros E. injection E as <- <-. exists ctx. reflexivity.
  - destruct (mem_add v es h) as [[h1 es1]|] eqn:E1; [|discriminate]. intros E. destruct (add_bulk_eq _ _ _ _ _ _ C E1) as (ctx1&E2&C1). rewrite E2. eapply IH; eauto.
Qed.
Lemma remove_each_eq vs : forall es pos h h' es', pos_ok es pos -> each mem_remove vs es h = Some (h', es') -> exists pos', remove_each vs (es, pos) h = Some (h', (es', pos')).
Proof.
  induction vs as [|v t IH]; intros es pos h h' es' C; cbn [each remove_each]; unfold bind.
  - intros E. injection E as <- <-. exists pos. reflexivity.
  - destruct (mem_remove v es h) as [[h1 es1]|] eqn:E1; [|discriminate]. intros E. destruct (remove_bulk_eq _ _ _ _ _ _ C E1) as (pos1&E2&C1). rewrite E2. eapply IH; eauto.
Qed.

(** ** The invariant of the machine *)
Definition owned (w : world) (d : nat) : list nat := match wvars w d with Some es => addrs es | None => [] end.
Record winv (w : world) (S : sets) : Prop := {
  i_wf : wfh (wheap w);
  i_set : forall d, match wvars w d, S d with
                    | Some es, Some P => exists r, rr (wheap w) es r /\ denotes r P
                    | None, None => True
                    | _, _ => False
                    end;
  i_nodup : forall d, NoDup (owned w d);
  i_apart : forall d d', d <> d' -> apart (owned w d) (owned w d');
  i_all : forall x, ce (wheap w) x <> None -> exists d, In x (owned w d) }.
Lemma i_rr w S d : winv w S -> forall es, wvars w d = Some es -> exists r P, S d = Some P /\ rr (wheap w) es r /\ denotes r P.
Proof. intros I es E. pose proof (i_set _ _ I d) as X. rewrite E in X. destruct (S d) as [P|]; [|contradiction]. destruct X as (r&R&D). now exists r, P. Qed.
Lemma owned_put w h d o d' : owned (wput w h d o) d' = if Nat.eqb d' d then match o with Some es => addrs es | None => [] end else owned w d'.
Proof. unfold owned, wput. cbn. now destruct (Nat.eqb d' d). Qed.
Lemma owned_below w S d : winv w S -> below (owned w d) (nx (wheap w)).
Proof.
  intros I. unfold owned. destruct (wvars w d) as [es|] eqn:E; [|intros x []]. destruct (i_rr _ _ d I es E) as (r&P&_&R&_). eapply rr_below; eauto. apply (i_wf _ _ I).
Qed.
Lemma owned_live w S d x : winv w S -> In x (owned w d) -> ce (wheap w) x <> None.
Proof.
  intros I. unfold owned. destruct (wvars w d) as [es|] eqn:E; [|intros []]. destruct (i_rr _ _ d I es E) as (r&P&_&R&_). clear - R.
  induction R as [|e p es r [_ E] R IH]; intros J; [destruct J|]. destruct J as [<-|J]; [now rewrite E|auto].
Qed.
(** the variable d is given other containers *)
Lemma winv_put w S d h' o oP : winv w S -> post (wheap w) (owned w d) (match o with Some es => addrs es | None => [] end) h' ->
  match o, oP with Some es, Some P => exists r, rr h' es r /\ denotes r P | None, None => True | _, _ => False end ->
  winv (wput w h' d o) (put_set S d oP).
Proof.
  intros I P V. set (G := match o with Some es => addrs es | None => [] end) in *. pose proof P as (W'&L&N&O&U&D&K).
  assert (X : forall d', d' <> d -> apart (owned w d') G).
  { intros d' Nd x J1 J2. destruct (O x J2) as [J|J]; [now apply (i_apart _ _ I d' d Nd x)|]. pose proof (owned_below _ _ d' I x J1). lia. }
  constructor.
  - exact W'.
  - intros d'. cbn. unfold put_set. destruct (Nat.eqb_spec d' d) as [->|Nd]; [exact V|].
    pose proof (i_set _ _ I d') as Y. destruct (wvars w d') as [es|] eqn:E; [|exact Y]. destruct (S d') as [Q|]; [|exact Y].
    destruct Y as (r&R&Dr). exists r. split; [|exact Dr]. eapply rr_post; [apply (i_wf _ _ I)|exact P| |exact R].
    pose proof (i_apart _ _ I d' d Nd) as Z. unfold owned at 1 in Z. now rewrite E in Z.
  - intros d'. rewrite owned_put. destruct (Nat.eqb_spec d' d) as [->|Nd]; [exact N|apply (i_nodup _ _ I)].
  - intros d1 d2 Nd. rewrite !owned_put. fold G. destruct (Nat.eqb_spec d1 d) as [->|N1], (Nat.eqb_spec d2 d) as [->|N2].
    + now contradiction Nd.
    + intros x J1 J2. now apply (X d2 N2 x).
    + now apply X.
    + now apply (i_apart _ _ I).
  - intros x Ex. cbn in Ex. destruct (in_dec Nat.eq_dec x G) as [J|J].
    + exists d. rewrite owned_put, Nat.eqb_refl. exact J.
    + destruct (in_dec Nat.eq_dec x (owned w d)) as [J2|J2]; [now rewrite D in Ex|]. rewrite K in Ex by auto.
      destruct (i_all _ _ I x Ex) as (d'&J'). exists d'. rewrite owned_put. destruct (Nat.eqb_spec d' d) as [->|Nd]; [contradiction|exact J'].
Qed.

Definition step_ok (cap : Z -> Z) (c : cmd) : Prop := forall w S S', winv w S -> sstep c S = Some S' -> exists w', ostep cap c w = Some w' /\ winv w' S'.
Lemma update_ok w S S' d e v f : winv w S -> on_one S d f = Some S' -> bm_ok v e -> (forall r P, denotes r P -> denotes (v r) (f P)) ->
  exists w', update w d e = Some w' /\ winv w' S'.
Proof.
  intros I Es B D. unfold on_one in Es. destruct (S d) as [P|] eqn:ES; [|discriminate]. injection Es as <-.
  pose proof (i_set _ _ I d) as X. rewrite ES in X. unfold update. destruct (wvars w d) as [es|] eqn:E; [|contradiction]. destruct X as (r&R&Dr).
  pose proof (i_nodup _ _ I d) as N. unfold owned in N. rewrite E in N.
  destruct (B (wheap w) es r (i_wf _ _ I) R N) as (h'&es'&Ee&Po&R'). rewrite Ee. eexists. split; [reflexivity|].
  apply winv_put; auto; [unfold owned; now rewrite E|]. exists (v r). auto.
Qed.
Lemma combine_ok2 w S S' d s e v g : winv w S -> on_two S d s g = Some S' ->
  (forall h es1 es2 r1 r2, wfh h -> rr h es1 r1 -> rr h es2 r2 -> NoDup (addrs es1) -> apart (addrs es1) (addrs es2) -> wp (e es1 es2) h (done h (addrs es1) (v r1 r2))) ->
  (forall r1 r2 P Q, denotes r1 P -> denotes r2 Q -> denotes (v r1 r2) (g P Q)) ->
  exists w', combine w d s e = Some w' /\ winv w' S'.
Proof.
  intros I Es A D. unfold on_two in Es. destruct (Nat.eqb_spec d s) as [|Nd]; [discriminate|]. destruct (S d) as [P|] eqn:ES; [|discriminate]. destruct (S s) as [Q|] eqn:ET; [|discriminate]. injection Es as <-.
  pose proof (i_set _ _ I d) as X. rewrite ES in X. pose proof (i_set _ _ I s) as Y. rewrite ET in Y. pose proof (i_apart _ _ I d s Nd) as Ap. pose proof (i_nodup _ _ I d) as N. unfold owned in Ap, N.
  unfold combine, update. destruct (wvars w s) as [es2|] eqn:E2; [|contradiction]. destruct (wvars w d) as [es1|] eqn:E1; [|contradiction]. destruct X as (r1&R1&D1), Y as (r2&R2&D2).
  destruct (A (wheap w) es1 es2 r1 r2 (i_wf _ _ I) R1 R2 N Ap) as (h'&es'&Ee&Po&R'). rewrite Ee. eexists. split; [reflexivity|].
  apply winv_put; auto; [unfold owned; now rewrite E1|]. eexists. split; [exact R'|auto].
Qed.
Lemma combine_ok w S S' d s act f keepl cr g : winv w S -> on_two S d s g = Some S' -> act2_ok f act ->
  (forall r1 r2 P Q, denotes r1 P -> denotes r2 Q -> denotes (vmerge f keepl cr r1 r2) (g P Q)) ->
  exists w', combine w d s (merge_in act keepl cr) = Some w' /\ winv w' S'.
Proof.
  intros I Es A D. apply (combine_ok2 w S S' d s (merge_in act keepl cr) (vmerge f keepl cr) g I Es); [|exact D].
  intros h es1 es2 r1 r2 W R1 R2 N Ap. now apply (merge_in_ok f act keepl cr A).
Qed.
Lemma assign_ok w S d e r P : winv w S -> S d = None -> wp e (wheap w) (done (wheap w) [] r) -> denotes r P ->
  exists w', assign w d e = Some w' /\ winv w' (put_set S d (Some P)).
Proof.
  intros I ES (h'&es'&Ee&Po&R') D. pose proof (i_set _ _ I d) as X. rewrite ES in X. unfold assign. destruct (wvars w d) as [es|] eqn:E; [contradiction|]. rewrite Ee. eexists. split; [reflexivity|].
  apply winv_put; auto; [unfold owned; now rewrite E|]. eexists. split; [exact R'|exact D].
Qed.
Lemma assign2_ok w S S' d s t e v g : winv w S -> to_new S d s t g = Some S' ->
  (forall h es1 es2 r1 r2, wfh h -> rr h es1 r1 -> rr h es2 r2 -> wp (e es1 es2) h (done h [] (v r1 r2))) ->
  (forall r1 r2 P Q, denotes r1 P -> denotes r2 Q -> (s = t -> r1 = r2) -> denotes (v r1 r2) (g P Q)) ->
  exists w', assign2 w d s t e = Some w' /\ winv w' S'.
Proof.
  intros I Es A D. unfold to_new in Es. destruct (S d) eqn:Ed; [discriminate|]. destruct (S s) as [P|] eqn:ES; [|discriminate]. destruct (S t) as [Q|] eqn:ET; [|discriminate]. injection Es as <-.
  pose proof (i_set _ _ I s) as X. rewrite ES in X. pose proof (i_set _ _ I t) as Y. rewrite ET in Y. unfold assign2.
  destruct (wvars w s) as [es1|] eqn:E1; [|contradiction]. destruct (wvars w t) as [es2|] eqn:E2; [|contradiction]. destruct X as (r1&R1&D1), Y as (r2&R2&D2).
  apply (assign_ok w S d _ (v r1 r2) (g P Q) I Ed); [apply A; auto; apply (i_wf _ _ I)|]. apply D; auto. intros ->. rewrite E1 in E2. injection E2 as <-.
  clear - R1 R2. revert r2 R2. induction R1 as [|[k a] [k' c] es r [X1 X2] R IH]; intros r2 R2; inversion R2 as [|? [k2 c2] ? r2' [Y1 Y2] R2']; subst; [reflexivity|]. cbn in *. subst. rewrite X2 in Y2. injection Y2 as <-. now rewrite (IH r2' R2').
Qed.

(** any number of operands *)
Lemma many_in_ok g act : act2_ok g act -> forall xs rs h es r, wfh h -> rr h es r -> NoDup (addrs es) -> Forall2 (rr h) xs rs -> Forall (fun x => apart (addrs es) (addrs x)) xs ->
  wp (many_in act xs es) h (done h (addrs es) (fold_left (vmerge g true true) rs r)).
Proof.
  intros Ha. induction xs as [|x t IH]; intros rs h es r W R N X A; inversion X as [|? r1 ? rs' R1 X']; subst; cbn [many_in fold_left].
  - now apply ret_bm.
  - inversion A as [|? ? A1 A']; subst. bnd. eapply wp_mono; [apply (merge_in_ok g act true true Ha es x h r r1); auto|]. intros h1 es1 [P1 R1'].
    assert (W1 : wfh h1) by apply P1. assert (N1 : NoDup (addrs es1)) by apply P1.
    eapply wp_mono; [apply (IH rs' h1 es1 _ W1 R1' N1)|].
    + clear - W P1 X' A'. induction X' as [|y ry t rs' Ry X' IHx]; constructor; inversion A'; subst; auto. eapply rr_post; [exact W|exact P1| |exact Ry]. intros z I J. eapply H1; eauto.
    + clear - W P1 X' A'. induction X' as [|y ry t rs' Ry X' IHx]; constructor; inversion A'; subst; auto.
      intros z I J. destruct P1 as (_&_&_&O&_). destruct (O z I) as [I'|I']; [now apply (H1 z)|]. pose proof (rr_below _ _ _ W Ry z J). lia.
    + intros h2 es2 [P2 R2]. split; [|exact R2]. eapply post_trans; [exact W|exact P1|exact P2].
Qed.
Lemma mem_many_ok f g lazy ilazy : new2_ok f lazy -> act2_ok g ilazy -> forall h xs rs, wfh h -> Forall2 (rr h) xs rs -> wp (mem_many lazy ilazy xs) h (done h [] (vmany_of f g rs)).
Proof.
  intros Hf Hg h xs rs W X. destruct X as [|x0 r0 xs rs R0 X]; cbn [mem_many vmany_of].
  { apply wp_ret. split; [now apply post_nil|constructor]. }
  destruct X as [|x1 r1 xs rs R1 X]; [now apply copy_all_wp|].
  bnd. eapply wp_mono; [apply (merge_out_ok f lazy true true Hf x0 x1 h r0 r1); auto|]. intros h1 es1 [P1 E1].
  assert (W1 : wfh h1) by apply P1. assert (N1 : NoDup (addrs es1)) by apply P1.
  bnd. eapply wp_mono; [apply (many_in_ok g ilazy Hg xs rs h1 es1 _ W1 E1 N1)|].
  - clear - W P1 X. induction X as [|y ry t rs' Ry X IHx]; constructor; auto. eapply rr_post; [exact W|exact P1|apply nil_apart|exact Ry].
  - clear - W P1 X. induction X as [|y ry t rs' Ry X IHx]; constructor; auto.
    intros z I J. destruct P1 as (_&_&_&O&_). destruct (O z I) as [[]|I']. pose proof (rr_below _ _ _ W Ry z J). lia.
  - intros h2 es2 [P2 E2]. assert (W2 : wfh h2) by apply P2. assert (N2 : NoDup (addrs es2)) by apply P2.
    eapply wp_mono; [apply (map_all_ok container_repair_after_lazy act_repair act_repair_ok h2 es2 _ W2 E2 N2)|]. intros h3 es3 [P3 E3]. split; [|exact E3].
    eapply post_trans; [exact W|exact P1|]. eapply post_trans; [exact W1|exact P2|exact P3].
Qed.
Lemma vars_of_ok w S ss Ps : winv w S -> sets_of S ss = Some Ps -> exists xs rs, vars_of w ss = Some xs /\ Forall2 (rr (wheap w)) xs rs /\ Forall2 denotes rs Ps.
Proof.
  intros I. revert Ps. induction ss as [|s t IH]; cbn [sets_of vars_of]; intros Ps E; [injection E as <-; now exists [], []|].
  destruct (S s) as [P|] eqn:ES; [|discriminate]. destruct (sets_of S t) as [Qs|]; [|discriminate]. injection E as <-. destruct (IH Qs eq_refl) as (xs&rs&E&X&D). rewrite E.
  pose proof (i_set _ _ I s) as Y. rewrite ES in Y. destruct (wvars w s) as [es|]; [|contradiction]. destruct Y as (r&R&Dr). exists (es :: xs), (r :: rs). auto.
Qed.
Lemma assign_many_ok w S S' d ss e v F : winv w S -> from_many S d ss F = Some S' ->
  (forall h xs rs, wfh h -> Forall2 (rr h) xs rs -> wp (e xs) h (done h [] (v rs))) ->
  (forall rs Ps, Forall2 denotes rs Ps -> denotes (v rs) (fold_left F Ps zempty)) ->
  exists w', assign_many w d ss e = Some w' /\ winv w' S'.
Proof.
  intros I Es A D. unfold from_many in Es. destruct (S d) eqn:Ed; [discriminate|]. destruct (sets_of S ss) as [Ps|] eqn:Ep; [|discriminate]. injection Es as <-.
  destruct (vars_of_ok w S ss Ps I Ep) as (xs&rs&Ev&X&Dr). unfold assign_many. rewrite Ev. apply (assign_ok w S d _ (v rs) _ I Ed); [apply A; auto; apply (i_wf _ _ I)|now apply D].
Qed.

(** *** The union with a queue *)
Lemma merge_both_ok f act : act3_ok f act -> forall es1 es2 h r1 r2, wfh h -> rr h es1 r1 -> rr h es2 r2 -> NoDup (addrs es1 ++ addrs es2) ->
  wp (merge_both act es1 es2) h (fun h' es' => post h (addrs es1 ++ addrs es2) (addrs es') h' /\ rr h' es' (vmerge (fun k c1 c2 => Some (f k c1 c2)) true true r1 r2)).
Proof.
  intros Ha. induction es1 as [|[k1 a1] t1 IH1]; intros es2 h r1 r2 W R1 R2 N.
  - inversion R1; subst. cbn [addrs map app] in *. fold (addrs es2) in *.
    assert (X : wp (ret es2) h (fun h' es' => post h (addrs es2) (addrs es') h' /\ rr h' es' r2)) by (apply wp_ret; now apply done_stay).
    destruct es2, r2; exact X.
  - inversion R1 as [|x p x' r1' [E1 E2] R1']; subst. destruct p as [k0 c1]. cbn [fst snd] in E1, E2. subst k0.
    revert h r2 W R1 R2 E2 R1' N. induction es2 as [|[k2 a2] t2 IH2]; intros h r2 W R1 R2 E2 R1' N.
    + inversion R2; subst. cbn [merge_both vmerge]. cbn [addrs map] in N |- *. rewrite app_nil_r in *. apply wp_ret. apply (done_stay h ((k1, a1) :: t1)); auto.
    + inversion R2 as [|x p x' r2' [F1 F2] R2']; subst. destruct p as [k0 c2]. cbn [fst snd] in F1, F2. subst k0.
      assert (B : below (addrs ((k1, a1) :: t1) ++ addrs ((k2, a2) :: t2)) (nx h)).
      { intros y J. apply in_app_iff in J as [J|J]; revert y J; eapply rr_below; eauto. }
      cbn [addrs map snd] in N, B |- *. fold (addrs t1) (addrs t2) in *.
      cbn [merge_both vmerge]. destruct (Z.eqb_spec k1 k2) as [->|]; [|destruct (k1 <? k2)].
      * assert (PM : Permutation ((a1 :: addrs t1) ++ a2 :: addrs t2) ([a1; a2] ++ addrs t1 ++ addrs t2)).
        { cbn [app]. constructor. symmetry. apply Permutation_middle. }
        apply (Permutation_NoDup PM) in N. cbn [app] in N. inversion N as [|? ? N1 N']; subst. inversion N' as [|? ? N2 N3]; subst.
        assert (Ne : a1 <> a2) by (intros ->; apply N1; now left).
        bnd. eapply wp_mono; [apply (Ha k2 h a1 a2 c1 c2 W E2 F2 Ne)|]. intros h1 d [P V]. bnd.
        assert (X1 : rr h1 t1 r1'). { eapply rr_post; [exact W|exact P| |exact R1']. intros y Iy [<-|[<-|[]]]; [apply N1; right|apply N2]; apply in_app_iff; now left. }
        assert (X2 : rr h1 t2 r2'). { eapply rr_post; [exact W|exact P| |exact R2']. intros y Iy [<-|[<-|[]]]; [apply N1; right|apply N2]; apply in_app_iff; now right. }
        eapply wp_mono; [apply (IH1 t2 h1 r1' r2'); auto; now apply post_wf in P|]. intros h2 t [P2 R]. apply wp_ret.
        destruct (post_seq h [a1; a2] [d] h1 (addrs t1 ++ addrs t2) (addrs t) h2) as [Q K]; auto.
        { intros y Iy. apply B. apply (Permutation_in _ (Permutation_sym PM)). apply in_app_iff. now left. }
        { intros y Iy. apply B. apply (Permutation_in _ (Permutation_sym PM)). apply in_app_iff. now right. }
        { intros y [<-|[<-|[]]] J; [apply N1; now right|now apply N2]. }
        split; [eapply post_perm; [exact (Permutation_sym PM)|apply Permutation_refl|exact Q]|]. constructor; [|exact R]. cbn [fst snd]. split; [reflexivity|]. rewrite K by now left. exact V.
      * inversion N as [|? ? N1 N2]; subst. bnd. eapply wp_mono; [apply (IH1 ((k2, a2) :: t2) h r1' ((k2, c2) :: r2')); auto|].
        intros h2 t D. apply wp_ret. apply (done_keep h k1 a1 c1 (addrs t1 ++ a2 :: addrs t2)); auto. intros y Iy. apply B. now right.
      * assert (PM : Permutation ((a1 :: addrs t1) ++ a2 :: addrs t2) (a2 :: (a1 :: addrs t1) ++ addrs t2)) by (symmetry; apply Permutation_middle).
        apply (Permutation_NoDup PM) in N. inversion N as [|? ? N1 N2]; subst.
        bnd. eapply wp_mono; [apply (IH2 h r2'); auto|]. intros h2 t D. apply wp_ret.
        edestruct (done_keep h k2 a2 c2 ((a1 :: addrs t1) ++ addrs t2)) as [Q K]; [exact W|exact F2|exact N1| |exact D|].
        { intros y Iy. apply B. apply (Permutation_in _ (Permutation_sym PM)). now right. }
        split; [|exact K]. eapply post_perm; [exact (Permutation_sym PM)|apply Permutation_refl|exact Q].
Qed.
Lemma poll_perm {A} i : forall (x : A) t, Permutation (x :: t) (fst (poll i x t) :: snd (poll i x t)).
Proof.
  induction i as [|i IH]; intros x t; cbn [poll]; [reflexivity|]. destruct t as [|y u]; [reflexivity|]. specialize (IH y u). destruct (poll i y u) as [z r]. cbn [fst snd] in *.
  rewrite IH. apply perm_swap.
Qed.
(** what the temporary elements own *)
Definition qown (l : list element) : list nat := flat_map (fun e : element => if fst e then addrs (snd e) else []) l.
(** [U]: the union of the elements *)
Definition q_ok (h : heap) (l : list element) (U : Z -> Z -> bool) : Prop :=
  NoDup (qown l) /\ Forall (fun e : element => fst e = false -> apart (qown l) (addrs (snd e))) l /\
  exists rs, Forall2 (fun (e : element) (r : bitmap) => rr h (snd e) r /\ gok lne 0 r) l rs /\ forall k x, 0 <= k < 65536 -> 0 <= x < 65536 -> existsb (fun r => km r k x) rs = U k x.
Lemma qown_perm l l' : Permutation l l' -> Permutation (qown l) (qown l').
Proof. intros P. unfold qown. now apply Permutation_flat_map. Qed.
Lemma existsb_perm {A} (f : A -> bool) l l' : Permutation l l' -> existsb f l = existsb f l'.
Proof.
  induction 1 as [|e l l' P IH|e e' l|l l' l'' P1 IH1 P2 IH2]; cbn [existsb]; [reflexivity|now rewrite IH| |congruence].
  rewrite !orb_assoc. f_equal. apply orb_comm.
Qed.
Lemma q_perm h l l' U : Permutation l l' -> q_ok h l U -> q_ok h l' U.
Proof.
  intros P (N&A&rs&F&E). pose proof (qown_perm _ _ P) as Q. split; [exact (Permutation_NoDup Q N)|]. split.
  - rewrite Forall_forall in *. intros e I T x J. apply (A e); auto; [apply (Permutation_in _ (Permutation_sym P)); exact I|apply (Permutation_in _ (Permutation_sym Q)); exact J].
  - destruct (Permutation_Forall2 P F) as (rs'&P'&F'). exists rs'. split; [exact F'|]. intros k x Hk Hx. rewrite <- E by auto. symmetry. now apply existsb_perm.
Qed.
Definition tmps (x : element) : list nat := if fst x then addrs (snd x) else [].
Lemma heap_pair_ok cap h x1 x2 r1 r2 : wfh h -> rr h (snd x1) r1 -> rr h (snd x2) r2 -> gok lne 0 r1 -> gok lne 0 r2 -> NoDup (tmps x1 ++ tmps x2) ->
  (fst x1 = false -> apart (tmps x2) (addrs (snd x1))) -> (fst x2 = false -> apart (tmps x1) (addrs (snd x2))) ->
  wp (heap_pair cap x1 x2) h (fun h' es' => post h (tmps x1 ++ tmps x2) (addrs es') h' /\ exists r, rr h' es' r /\ bmrep lne 0 r (fun k x => km r1 k x || km r2 k x)).
Proof.
  intros W R1 R2 G1 G2 N A1 A2. destruct x1 as [t1 e1], x2 as [t2 e2]. unfold heap_pair, tmps in *. cbn [fst snd] in *. destruct t1, t2; cbn [andb app] in *; rewrite ?app_nil_r in *.
  - eapply wp_mono; [apply (merge_both_ok _ _ (act_lazy_both_ok cap) e1 e2 h r1 r2); auto|]. intros h' es' [P R]. split; [exact P|]. eexists. split; [exact R|].
    apply (vmerge_rep lne lne lne orb); auto; [apply Heap.opok_lazy_inputs|apply ul_or].
  - eapply wp_mono; [apply (merge_in_ok _ _ true true (act_lazy_ior_ok false cap) e1 e2 h r1 r2); auto|]. intros h' es' [P R]. split; [exact P|]. eexists. split; [exact R|].
    apply (vmerge_rep lne lne lne orb); auto; [now apply opok_lazy_ior|apply ul_or].
  - eapply wp_mono; [apply (merge_in_ok _ _ true true (act_lazy_ior_ok false cap) e2 e1 h r2 r1); auto|]. intros h' es' [P R]. split; [exact P|]. eexists. split; [exact R|].
    eapply bmrep_ext; [apply (vmerge_rep lne lne lne orb); auto; [now apply opok_lazy_ior|apply ul_or]|]. intros. apply orb_comm.
  - eapply wp_mono; [apply (merge_out_ok _ _ true true (new_lazy_or_ok false) e1 e2 h r1 r2); auto|]. intros h' es' [P R]. split; [exact P|]. eexists. split; [exact R|].
    apply (vmerge_rep lne lne lne orb); auto; [now apply opok_lazy_or|apply ul_or].
Qed.
Lemma nodup_app {A} (a b : list A) : NoDup (a ++ b) -> NoDup a /\ NoDup b /\ forall x, In x a -> ~ In x b.
Proof.
  induction a as [|y a IH]; cbn [app]; intros N; [split; [constructor|split; [exact N|intros x []]]|]. inversion N as [|? ? N1 N2]; subst. destruct (IH N2) as (X&Y&Z). rewrite in_app_iff in N1.
  split; [constructor; tauto|]. split; [exact Y|]. intros x [<-|I]; [tauto|now apply Z].
Qed.
Lemma heap_round h x1 x2 l U cap : wfh h -> q_ok h (x1 :: x2 :: l) U ->
  wp (heap_pair cap x1 x2) h (fun h' es' => post h (qown (x1 :: x2 :: l)) (qown ((true, es') :: l)) h' /\ q_ok h' ((true, es') :: l) U).
Proof.
  intros W (N&A&rs&F&E). inversion F as [|? r1 ? rs1 [R1 G1] F1]; subst. inversion F1 as [|? r2 ? rs' [R2 G2] F2]; subst. clear F F1.
  inversion A as [|? ? A1 A']; subst. inversion A' as [|? ? A2 A3]; subst. clear A A'.
  assert (EO : qown (x1 :: x2 :: l) = (tmps x1 ++ tmps x2) ++ qown l) by (unfold qown, tmps; cbn [flat_map]; now rewrite app_assoc).
  rewrite EO in *. destruct (nodup_app _ _ N) as (N1&N2&N3).
  assert (BT : forall x r, rr h (snd x) r -> below (tmps x) (nx h)).
  { intros x r R. unfold tmps. destruct (fst x); [eapply rr_below; eauto|intros y []]. }
  assert (B1 : below (tmps x1 ++ tmps x2) (nx h)) by (intros y J; apply in_app_iff in J as [J|J]; revert y J; eapply BT; eauto).
  assert (B2 : below (qown l) (nx h)).
  { clear - F2 BT. induction F2 as [|x r l rs [R G] F IH]; [intros y []|]. intros y J. unfold qown in J. cbn [flat_map] in J. apply in_app_iff in J as [J|J]; [revert y J; eapply BT; eauto|now apply IH]. }
  assert (AI : forall a b, (forall y : nat, In y a -> In y ((tmps x1 ++ tmps x2) ++ qown l)) -> apart ((tmps x1 ++ tmps x2) ++ qown l) b -> apart a b) by (intros a b I J y Iy; apply J; now apply I).
  eapply wp_mono; [apply (heap_pair_ok cap h x1 x2 r1 r2); auto|].
  - intros T. eapply AI; [|apply A1; exact T]. intros y Iy. rewrite !in_app_iff. auto.
  - intros T. eapply AI; [|apply A2; exact T]. intros y Iy. rewrite !in_app_iff. auto.
  - intros h' es' (P&r&R&Gr&Mr). assert (W' : wfh h') by apply P.
    destruct (post_seq h (tmps x1 ++ tmps x2) (addrs es') h' (qown l) (qown l) h') as [Q _]; auto.
    { apply post_same; auto. intros y J. specialize (B2 y J). destruct P as (_&L&_). lia. }
    assert (Eq : qown ((true, es') :: l) = addrs es' ++ qown l) by reflexivity. split; [now rewrite Eq|]. split; [rewrite Eq; apply Q|]. rewrite Eq. split.
    + constructor; [discriminate|]. clear - A3 F2 P Q W EO. rewrite Forall_forall in *. intros e I T y J. specialize (A3 e I T).
      assert (exists r, rr h (snd e) r) as [r R].
      { clear - F2 I. induction F2 as [|x r l rs [R G] F IH]; [destruct I|destruct I as [->|I]; [now exists r|now apply IH]]. }
      destruct Q as (_&_&_&O&_). destruct (O y J) as [J'|J']; [now apply A3|]. intros Y. pose proof (rr_below _ _ _ W R y Y). lia.
    + exists (r :: rs'). split.
      * constructor; [split; auto|]. clear - A3 F2 P W N3 BT. revert A3 N3. generalize (qown l) at 1. intros q A3 N3.
        assert (X : forall e, In e l -> apart (addrs (snd e)) (tmps x1 ++ tmps x2)).
        { intros e I. destruct (fst e) eqn:T.
          - intros y Iy Jy. apply (N3 y Jy). unfold qown. apply in_flat_map. exists e. split; [exact I|]. now rewrite T.
          - rewrite Forall_forall in A3. intros y Iy Jy. apply (A3 e I T y); [rewrite in_app_iff; now left|exact Iy]. }
        clear A3 N3. induction F2 as [|x r l rs [R G] F IH]; constructor; [|apply IH; intros; apply X; now right]. split; [|exact G]. eapply rr_post; [exact W|exact P|apply X; now left|exact R].
      * intros k x Hk Hx. rewrite <- E by auto. cbn [existsb]. rewrite Mr by lia. now rewrite orb_assoc.
Qed.
Lemma heap_rounds_ok cap n : forall order h x t U, wfh h -> q_ok h (x :: t) U -> length t = n -> (n = O -> fst x = true) ->
  wp (heap_rounds cap n order x t) h (fun h' es' => post h (qown (x :: t)) (addrs es') h' /\ exists r, rr h' es' r /\ gok lne 0 r /\ forall k y, 0 <= k < 65536 -> 0 <= y < 65536 -> km r k y = U k y).
Proof.
  induction n as [|n IH]; intros order h x t U W Q L T; cbn [heap_rounds].
  - apply wp_ret. destruct t; [|discriminate]. specialize (T eq_refl). destruct Q as (N&A&rs&F&E). inversion F as [|? r ? ? [R G] F']; subst. inversion F'; subst.
    unfold qown in *. cbn [flat_map] in *. rewrite T, app_nil_r in *. split; [apply post_same; auto; eapply rr_below; eauto|]. exists r. split; [exact R|]. split; [exact G|].
    intros k y Hk Hy. rewrite <- E by auto. cbn [existsb]. now rewrite orb_false_r.
  - pose proof (poll_perm (fst (hd (O, O) order)) x t) as P1. destruct (poll (fst (hd (O, O) order)) x t) as [x1 l]. cbn [fst snd] in P1.
    pose proof (Permutation_length P1) as L1. cbn [length] in L1. destruct l as [|y u]; [cbn [length] in L1; lia|].
    pose proof (poll_perm (snd (hd (O, O) order)) y u) as P2. destruct (poll (snd (hd (O, O) order)) y u) as [x2 l']. cbn [fst snd] in P2.
    pose proof (Permutation_length P2) as L2. cbn [length] in L1, L2.
    assert (P : Permutation (x :: t) (x1 :: x2 :: l')) by (rewrite P1; now constructor).
    bnd. eapply wp_mono; [apply (heap_round h x1 x2 l' U cap W (q_perm _ _ _ _ P Q))|]. intros h1 es1 [Po Q1].
    eapply wp_mono; [apply (IH (tl order) h1 (true, es1) l' U); auto; [apply Po|lia]|]. intros h2 es2 [P3 R]. split; [|exact R].
    eapply post_trans; [exact W| |exact P3]. eapply post_perm; [exact (qown_perm _ _ (Permutation_sym P))|apply Permutation_refl|exact Po].
Qed.
Lemma mem_or_heap_ok cap order h xs rs : wfh h -> Forall2 (rr h) xs rs -> Forall bok rs ->
  wp (mem_or_heap cap order xs) h (fun h' es' => post h [] (addrs es') h' /\ exists r, rr h' es' r /\ bmrep cok 0 r (fun k x => existsb (fun r => km r k x) rs)).
Proof.
  intros W X B. destruct X as [|x r xs rs R X]; cbn [mem_or_heap].
  { apply wp_ret. split; [now apply post_nil|]. exists []. split; [constructor|]. apply bmrep_nil. auto. }
  destruct X as [|x1 r1 xs rs R1 X].
  { eapply wp_mono; [apply (copy_all_wp x h r W R)|]. intros h1 es1 [P1 E1]. split; [exact P1|]. exists r. split; [exact E1|]. inversion B; subst. eapply bmrep_ext; [apply bmrep_self; auto|].
    intros. cbn [existsb]. now rewrite orb_false_r. }
  assert (Y : Forall2 (rr h) (x :: x1 :: xs) (r :: r1 :: rs)) by auto. clear R R1 X. set (x' := x1 :: xs) in *. set (r' := r1 :: rs) in *.
  assert (Q : q_ok h ((false, x) :: map (pair false) x') (fun k y => existsb (fun r => km r k y) (r :: r'))).
  { change ((false, x) :: map (pair false) x') with (map (pair false) (x :: x')). clearbody x' r'. revert Y B. generalize (x :: x') (r :: r'). clear. intros l rs F B.
    assert (E : qown (map (pair false) l) = []) by (induction l as [|e l IH] in rs, F |- *; [reflexivity|]; inversion F; subst; unfold qown in *; cbn [map flat_map fst app]; eauto).
    split; [rewrite E; constructor|]. split; [rewrite E; apply Forall_forall; intros e _ _ y []|]. exists rs. split; [|reflexivity].
    clear E. induction F as [|e r l rs R F IH]; cbn [map]; constructor; inversion B; subst; [|auto]. split; [exact R|now apply gok_cok_lne]. }
  assert (Z0 : qown ((false, x) :: map (pair false) x') = []).
  { clear. unfold qown. cbn [flat_map fst app]. induction x' as [|e l IH]; [reflexivity|]. exact IH. }
  bnd. eapply wp_mono; [apply (heap_rounds_ok cap (length x') order h (false, x) (map (pair false) x') _ W Q); [apply map_length|unfold x'; cbn [length]; discriminate]|].
  intros h1 es1 (P1&rr1&R1&G1&M1). apply (eq_ind _ (fun l => post h l (addrs es1) h1)) with (2 := Z0) in P1. assert (W1 : wfh h1) by apply P1. assert (N1 : NoDup (addrs es1)) by apply P1.
  eapply wp_mono; [apply (map_all_ok container_repair_after_lazy act_repair act_repair_ok h1 es1 rr1 W1 R1 N1)|]. intros h2 es2 [P2 E2]. split; [eapply post_trans; [exact W|exact P1|exact P2]|].
  eexists. split; [exact E2|]. eapply bmrep_ext; [apply (bmrep_map lne cok container_repair_after_lazy 0 rr1 G1 CowH.repair_lne)|]. intros k y Hk Hy. now apply M1.
Qed.
Lemma or_heap_ok cap order w S S' d ss : winv w S -> from_many S d ss zunion = Some S' -> exists w', assign_many w d ss (mem_or_heap cap order) = Some w' /\ winv w' S'.
Proof.
  intros I Es. unfold from_many in Es. destruct (S d) eqn:Ed; [discriminate|]. destruct (sets_of S ss) as [Ps|] eqn:Ep; [|discriminate]. injection Es as <-.
  destruct (vars_of_ok w S ss Ps I Ep) as (xs&rs&Ev&X&Dr). unfold assign_many. rewrite Ev.
  assert (B : Forall bok rs) by (clear - Dr; induction Dr; constructor; auto; eapply den_bok; eauto).
  destruct (mem_or_heap_ok cap order (wheap w) xs rs (i_wf _ _ I) X B) as (h'&es'&E&P&r&R&Br).
  apply (assign_ok w S d _ r _ I Ed); [exists h', es'; split; [exact E|split; [exact P|exact R]]|].
  eapply den_of_rspec; [exact Br|]. intros v Hv. cbn beta. clear - Dr Hv.
  assert (Y : forall ps p, fold_left zunion ps p v = p v || existsb (fun P => P v) ps).
  { induction ps as [|P ps IH]; intros p; cbn [fold_left existsb]; [now rewrite orb_false_r|]. rewrite IH. unfold zunion. now rewrite orb_assoc. }
  rewrite Y. cbn [zempty orb]. induction Dr as [|r P rs Ps D Dr IH]; cbn [existsb]; [reflexivity|]. rewrite IH. f_equal. exact (den_mem r P v D Hv).
Qed.

(** *** Adding an offset *)
Fixpoint vappend (cap k : Z) (c : container) (ans : bitmap) : bitmap :=
  match ans with
  | [] => [(k, c)]
  | (k0, last) :: t =>
    match t with
    | [] => if k0 =? k then [(k0, container_ior cap last c)] else [(k0, last); (k, c)]
    | _ => (k0, last) :: vappend cap k c t
    end
  end.
Lemma vappend_eq cap k c ans : vappend cap k c ans = RShift.offset_append_with_merge cap ans k c.
Proof.
  assert (X : ans = [] \/ exists t e, ans = t ++ [e]) by (destruct ans as [|x l]; [now left|]; right; destruct (exists_last (l := x :: l)) as (t&e&->); [discriminate|eauto]).
  destruct X as [->|(t&[k0 l]&->)]; [reflexivity|].
  assert (L : zlen (t ++ [(k0, l)]) - 1 = zlen t) by (rewrite zlen_app; change (zlen [(k0, l)]) with 1; lia). unfold RShift.offset_append_with_merge. rewrite L.
  pose proof (zlen_nonneg t) as L0. replace (zlen (t ++ [(k0, l)]) =? 0) with false by lia. cbn [orb].
  assert (N : rnth (t ++ [(k0, l)]) (zlen t) = (k0, l)) by (unfold rnth, zlen; rewrite Nat2Z.id, app_nth2, Nat.sub_diag by lia; reflexivity).
  unfold rkey, rcon, ra_set_container_at_index. unfold rkey. rewrite N. cbn [fst snd].
  replace (Z.to_nat (zlen t)) with (length t) by (unfold zlen; lia). clear L L0 N.
  destruct (k0 =? k) eqn:E; cbn [negb].
  - induction t as [|[k1 c1] t IH]; cbn [app vappend length]; [rewrite E; reflexivity|]. rewrite IH. destruct t; reflexivity.
  - induction t as [|[k1 c1] t IH]; cbn [app vappend length]; [rewrite E; reflexivity|]. rewrite IH. destruct t; reflexivity.
Qed.
Lemma append_merge_ok cap k a c : forall ans h r, wfh h -> rr h ans r -> NoDup (a :: addrs ans) -> ce h a = Some c ->
  wp (append_merge cap k a ans) h (done h (a :: addrs ans) (vappend cap k c r)).
Proof.
  induction ans as [|[k0 l] t IH]; intros h r W R N E.
  - inversion R; subst. cbn [append_merge vappend]. apply wp_ret. apply (done_stay h [(k, a)]); auto. constructor; [|constructor]. now split.
  - inversion R as [|x p x' r' [E1 E2] R']; subst. destruct p as [k1 cl]. cbn [fst snd] in E1, E2. subst k1. cbn [append_merge vappend].
    cbn [addrs map snd] in N |- *. fold (addrs t) in *. inversion N as [|? ? N1 N2]; subst. cbn [In] in N1.
    assert (La : (a < nx h)%nat) by (eapply wf_lt; eauto). assert (Ll : (l < nx h)%nat) by (eapply wf_lt; eauto).
    destruct t as [|e t].
    + inversion R'; subst. cbn [addrs map] in *. destruct (k0 =? k).
      * bnd. eapply wp_mono; [apply (ior_wp cap h l a cl c); auto|]. intros h1 d X. cbn beta in X. eapply left_end; [exact W|eauto|exact X|]. intros h2 [P V].
        assert (Nd : d <> a) by (intros ->; destruct P as (_&_&_&O&_); destruct (O a (or_introl eq_refl)) as [[->|[]]|]; [now apply N1; left|lia]).
        assert (Ea : ce h2 a = Some c) by (destruct P as (_&_&_&_&_&_&K); rewrite K; [exact E|intros [->|[]]; congruence|intros [->|[]]; now apply N1; left]).
        bnd. eapply wp_mono; [eapply drop_wp; [apply P|exact Ea]|]. intros h3 [] P3. cbn beta in P3. apply wp_ret.
        destruct (post_seq h [l] [d] h2 [a] [] h3) as [Q K]; auto; try (intros x [<-|[]]; auto; fail).
        { intros x [<-|[]] [->|[]]. now apply N1; left. }
        split; [eapply post_perm; [|apply Permutation_refl|exact Q]; apply perm_swap|]. constructor; [|constructor]. cbn [fst snd]. split; [reflexivity|]. rewrite K by now left. exact V.
      * apply wp_ret. assert (Y : done h [l; a] [(k0, cl); (k, c)] h [(k0, l); (k, a)]).
        { apply (done_stay h [(k0, l); (k, a)]); auto; [constructor; [now split|constructor; [now split|constructor]]|]. cbn [addrs map snd]. constructor; [intros [->|[]]; apply N1; now left|nodup]. }
        destruct Y as [P Y]. split; [eapply post_perm; [apply perm_swap|apply Permutation_refl|exact P]|exact Y].
    + destruct r' as [|p r']; [inversion R'|]. bnd. eapply wp_mono; [apply (IH h (p :: r')); auto; constructor; [tauto|now inversion N2]|]. intros h1 t' D. apply wp_ret.
      inversion N2 as [|? ? N3 N4]; subst. destruct (done_keep h k0 l cl (a :: addrs (e :: t)) (vappend cap k c (p :: r')) h1 t' W E2) as [P Y]; [intros [->|J]; [apply N1; now left|contradiction]| |exact D|].
      { intros y [<-|J]; [exact La|]. eapply rr_below; eauto. }
      split; [eapply post_perm; [apply perm_swap|apply Permutation_refl|exact P]|exact Y].
Qed.
Definition made2 (h : heap) (v : option container * option container) (h' : heap) (p : option nat * option nat) : Prop :=
  post h [] (ohs (fst p) ++ ohs (snd p)) h' /\ oval h' (fst p) (fst v) /\ oval h' (snd p) (snd v).
Lemma wr_keep h d x b (t : bool) : wfh h -> ce h d = Some x ->
  wp (_ <- wr d (CBit b) ;; if t then _ <- fr d ;; ret None else ret (Some d)) h (fun h' o => post h [d] (ohs o) h' /\ oval h' o (if t then None else Some (CBit b))).
Proof.
  intros W E. hp h. bnd. eapply wp_wr; [exact E|]. assert (W' : wfh (H n (upd f d (Some (CBit b))))) by now apply (wfh_wr _ _ _ x).
  pose proof (made_id n (upd f d (Some (CBit b))) d (CBit b) W' (upd_same _ _ _)) as X. destruct t.
  - assert (Ld : forall y, In y [d] -> (y < n)%nat) by (intros y [<-|[]]; exact (wf_lt _ _ _ W E)).
    bnd. eapply wp_mono; [exact (free_made _ _ _ _ _ X Ld W')|]. intros h2 [] P. cbn beta in P. apply wp_ret. split; [|exact I].
    eapply post_wr; [now left|exact P].
  - apply wp_ret. destruct X as [P V]. split; [|exact V]. eapply post_wr; [now left|exact P].
Qed.
Lemma both_made h o1 v1 h1 o2 v2 h2 : post h [] (ohs o1) h1 -> oval h1 o1 v1 -> post h1 [] (ohs o2) h2 -> oval h2 o2 v2 -> made2 h (v1, v2) h2 (o1, o2).
Proof.
  intros P1 V1 P2 V2. destruct (post_seq h [] (ohs o1) h1 [] (ohs o2) h2) as [Q K]; auto using nil_below, nil_apart. split; [exact Q|]. split; [|exact V2].
  cbn [fst]. destruct o1 as [a|], v1 as [c|]; cbn [oval] in *; auto. rewrite K by now left. exact V1.
Qed.
Lemma bitset_offset_wp h a b loc hic off : wfh h -> ce h a = Some (CBit b) -> b_card b <> 0 -> loc || hic = true ->
  wp (bitset_offset_mem a loc hic off) h (made2 h (let '(lo, hi) := bitset_container_offset b loc hic off in (option_map CBit lo, option_map CBit hi))).
Proof.
  intros W E Z0 LH. unfold bitset_offset_mem, bitset_container_offset. bnd. eapply wp_rdB; [exact E|]. cbv zeta.
  set (lows := bitset_offset_lo _ _ _). set (hiws := bitset_offset_hi _ _ _). clearbody lows hiws. unfold b_card in *. cbn [fst].
  set (card := bitset_container_compute_cardinality lows). set (hicard := bitset_container_compute_cardinality hiws). clearbody card hicard.
  set (cz := bitset_container_create). clearbody cz.
  assert (TAIL : forall h1 d x (lo : option nat), wfh h1 -> ce h1 d = Some x ->
    wp (_ <- wr d (CBit (hicard, hiws)) ;; if hicard =? 0 then _ <- fr d ;; ret (lo, None) else ret (lo, Some d)) h1
      (fun h' p => fst p = lo /\ post h1 [d] (ohs (snd p)) h' /\ oval h' (snd p) (if hicard =? 0 then None else Some (CBit (hicard, hiws))))).
  { intros h1 d x lo W1 E1. destruct (wr_keep h1 d x (hicard, hiws) (hicard =? 0) W1 E1) as (h2&o&E2&P&V). exists h2, (lo, o). split; [|now split].
    unfold bind in E2 |- *. destruct (wr d (CBit (hicard, hiws)) h1) as [[h1' u]|]; [|discriminate]. destruct (hicard =? 0); [|unfold ret in *; congruence].
    destruct (fr d h1') as [[h1'' u']|]; [|discriminate]. unfold ret in *. congruence. }
  assert (VH : option_map CBit (if hicard =? 0 then None else Some (hicard, hiws)) = if hicard =? 0 then None else Some (CBit (hicard, hiws))) by (now destruct (hicard =? 0)).
  hp h. destruct loc; cbn [andb].
  - pose proof (made_new n f (CBit (card, lows)) W) as [P1 V1]. bnd. bnd. apply wp_new. apply wp_ret. set (h1 := H (S n) (upd f n (Some (CBit (card, lows))))) in *. assert (W1 : wfh h1) by apply P1.
    destruct (card =? fst b) eqn:E1.
    { replace (card =? 0) with false by lia. cbn [negb]. apply wp_ret. apply (both_made _ (Some n) (Some (CBit (card, lows))) h1 None None); auto; [now apply post_nil|exact I]. }
    destruct hic; cbn [negb].
    + destruct (card =? 0) eqn:E2; cbn [negb].
      * bnd. apply wp_ret. eapply wp_mono; [apply (TAIL h1 n _ None W1 V1)|]. intros h2 [lo hi] (EL&P2&V2). cbn [fst snd] in EL, P2, V2. subst lo. rewrite <- VH in V2.
        apply (both_made _ None None (H n f) hi _); auto; [now apply post_nil|exact I|]. eapply post_trans; [exact W|exact P1|exact P2].
      * bnd. pose proof (new_wp (S n) (upd f n (Some (CBit (card, lows)))) (CBit cz) W1) as (h2&d&Ed&P2&V2). exists h2, d. split; [exact Ed|]. eapply wp_mono; [apply (TAIL h2 d _ (Some n) (proj1 P2) V2)|]. intros h3 [lo hi] (EL&P3&V3). cbn [fst snd] in EL, P3, V3. subst lo. rewrite <- VH in V3.
        apply (both_made _ (Some n) (Some (CBit (card, lows))) h1 hi _); auto. eapply post_trans; [exact W1|exact P2|exact P3].
    + destruct (card =? 0) eqn:E2; cbn [negb].
      * bnd. eapply wp_mono; [exact (free_made _ _ _ _ _ (conj P1 V1) (nil_below _) W)|]. intros h2 [] P2. cbn beta in P2. apply wp_ret.
        apply (both_made _ None None h2 None None); auto; try exact I. apply post_nil. apply P2.
      * bnd. apply wp_ret. apply wp_ret. apply (both_made _ (Some n) (Some (CBit (card, lows))) h1 None None); auto; [now apply post_nil|exact I].
  - cbn [orb] in LH. subst hic. cbn [negb]. bnd. apply wp_ret. replace (if card =? 0 then @None nat else None) with (@None nat) by (now destruct (card =? 0)).
    bnd. pose proof (new_wp n f (CBit cz) W) as (h2&d&Ed&P2&V2). exists h2, d. split; [exact Ed|]. eapply wp_mono; [apply (TAIL h2 d _ None (proj1 P2) V2)|]. intros h3 [lo hi] (EL&P3&V3). cbn [fst snd] in EL, P3, V3. subst lo. rewrite <- VH in V3.
    apply (both_made _ None None (H n f) hi _); auto; [now apply post_nil|exact I|]. eapply post_trans; [exact W|exact P2|exact P3].
Qed.
Lemma container_offset_wp h a c loc hic off : wfh h -> ce h a = Some c -> cok c -> loc || hic = true -> wp (container_offset_mem a loc hic off) h (made2 h (container_add_offset c loc hic off)).
Proof.
  intros W E C LH. unfold container_offset_mem. bnd. eapply wp_rd; [exact E|].
  assert (X : forall v, wp (lo <- new_opt (fst v) ;; hi <- new_opt (snd v) ;; ret (lo, hi)) h (made2 h v)).
  { intros [v1 v2]. cbn [fst snd]. bnd. eapply wp_mono; [now apply new_opt_ok|]. intros h1 o1 [P1 V1]. bnd. eapply wp_mono; [apply new_opt_ok; apply P1|]. intros h2 o2 [P2 V2].
    apply wp_ret. eapply both_made; eauto. }
  destruct c as [l|b|r]; [apply X| |apply X]. cbn [container_add_offset]. apply bitset_offset_wp; auto. cbn [cok] in C. destruct C as [_ C]. lia.
Qed.
Lemma app_rr h a r b s : rr h a r -> rr h b s -> rr h (a ++ b) (r ++ s). Proof. intros. now apply Forall2_app. Qed.
Lemma offset_loop_ok cap co io es : forall r h ans va, wfh h -> rr h es r -> Forall (fun p => cok (snd p)) r -> rr h ans va -> NoDup (addrs ans) -> apart (addrs ans) (addrs es) ->
  wp (offset_loop cap co io es ans) h (done h (addrs ans) (RShift.add_offset_loop cap r co io va)).
Proof.
  induction es as [|[key a] t IH]; intros r h ans va W R C RA N A; inversion R as [|x p x' r' [E1 E2] R']; subst; cbn [offset_loop RShift.add_offset_loop]; [apply wp_ret; now apply done_stay|].
  destruct p as [k0 c]. cbn [fst snd] in E1, E2. subst k0. inversion C as [|? ? C1 C2]; subst. cbn [snd] in C1.
  assert (A' : apart (addrs ans) (addrs t)) by (intros y I J; apply (A y I); now right).
  cbv zeta. set (k := key + co). clearbody k. set (lp := (0 <=? k) && (k <? 65536)). set (hp := (0 <=? k + 1) && (k + 1 <? 65536)). clearbody lp hp.
  destruct (negb lp && negb hp) eqn:LH; [now apply IH|]. assert (LH' : lp || hp = true) by (destruct lp, hp; auto; discriminate).
  bnd. eapply wp_mono; [apply (container_offset_wp h a c lp hp io W E2 C1 LH')|]. destruct (container_add_offset c lp hp io) as [vlo vhi]. intros h1 [lo hi] (P1&V1&V2). cbn [fst snd] in *.
  assert (W1 : wfh h1) by apply P1. assert (RA1 : rr h1 ans va) by (eapply rr_post; [exact W|exact P1|apply nil_apart|exact RA]).
  assert (R1 : rr h1 t r') by (eapply rr_post; [exact W|exact P1|apply nil_apart|exact R']).
  assert (B : below (addrs ans) (nx h)) by (eapply rr_below; eauto). assert (Bt : below (addrs t) (nx h)) by (eapply rr_below; eauto).
  destruct (post_seq h (addrs ans) (addrs ans) h [] (ohs lo ++ ohs hi) h1) as [Q1 _]; auto using nil_below, nil_apart; [now apply post_same|]. rewrite app_nil_r in Q1.
  assert (NG : NoDup (addrs ans ++ ohs lo ++ ohs hi)) by apply Q1.
  assert (PM : Permutation (addrs ans ++ ohs lo ++ ohs hi) ((ohs lo ++ addrs ans) ++ ohs hi)) by (rewrite !app_assoc; apply Permutation_app_tail, Permutation_app_comm).
  pose proof (Permutation_NoDup PM NG) as NG'. destruct (nodup_app _ _ NG') as (NL&NH&NA).
  assert (B1 : below (addrs ans ++ ohs lo ++ ohs hi) (nx h1)) by (destruct Q1 as (_&_&_&_&U&_); exact U).
  assert (X : wp (match lo with Some l => append_merge (cap k) k l ans | None => ret ans end) h1
    (done h1 (ohs lo ++ addrs ans) (match vlo with Some l => RShift.offset_append_with_merge (cap k) va k l | None => va end))).
  { destruct lo as [l|], vlo as [c0|]; cbn [oval] in V1; try contradiction; cbn [ohs app] in *.
    - rewrite <- vappend_eq. now apply append_merge_ok.
    - apply wp_ret. now apply done_stay. }
  bnd. eapply wp_mono; [exact X|]. clear X. intros h2 ans1 [P2 RA2]. assert (W2 : wfh h2) by apply P2.
  assert (Bl : below (ohs lo ++ addrs ans) (nx h1)) by (intros y J; apply B1; apply (Permutation_in _ (Permutation_sym PM)); apply in_app_iff; now left).
  assert (Bh : below (ohs hi) (nx h1)) by (intros y J; apply B1; apply (Permutation_in _ (Permutation_sym PM)); apply in_app_iff; now right).
  destruct (post_seq h1 (ohs lo ++ addrs ans) (addrs ans1) h2 (ohs hi) (ohs hi) h2) as [Q2 _]; auto.
  { apply post_same; auto. intros y J. specialize (Bh y J). destruct P2 as (_&L&_). lia. }
  set (ans2 := match hi with Some d => ans1 ++ [(k + 1, d)] | None => ans1 end).
  assert (EA : addrs ans2 = addrs ans1 ++ ohs hi) by (unfold ans2, addrs; destruct hi; [now rewrite map_app|now rewrite app_nil_r]).
  assert (Q : post h (addrs ans) (addrs ans2) h2).
  { rewrite EA. eapply post_trans; [exact W|exact Q1|]. eapply post_perm; [exact (Permutation_sym PM)|apply Permutation_refl|exact Q2]. }
  eapply wp_mono; [apply (IH r' h2 ans2 (match vhi with Some h0 => match vlo with Some l => RShift.offset_append_with_merge (cap k) va k l | None => va end ++ [(k + 1, h0)]
    | None => match vlo with Some l => RShift.offset_append_with_merge (cap k) va k l | None => va end end))|].
  - exact W2.
  - eapply rr_post; [exact W|exact Q| |exact R']. intros y I J. now apply (A' y).
  - exact C2.
  - unfold ans2. destruct hi as [d|], vhi as [ch|]; cbn [oval] in V2; try contradiction; [|exact RA2]. apply app_rr; [exact RA2|]. constructor; [|constructor]. cbn [fst snd]. split; [reflexivity|].
    destruct P2 as (_&_&_&O&_&_&K). rewrite K; [exact V2| |intros J; apply (NA d J); now left]. intros J. destruct (O d J) as [J'|J']; [apply (NA d J'); now left|]. specialize (Bh d (or_introl eq_refl)). lia.
  - apply Q.
  - intros y J I. destruct Q as (_&_&_&O&_). destruct (O y J) as [J'|J']; [now apply (A' y)|]. specialize (Bt y I). lia.
  - intros h3 es3 [P3 R3]. split; [eapply post_trans; [exact W|exact Q|exact P3]|exact R3].
Qed.
Lemma shift_copy_ok co es : forall h r, wfh h -> rr h es r -> wp (shift_copy co es) h (done h [] (flat_map (fun p => let key := fst p + co in if (key <? 0) || (65536 <=? key) then [] else [(key, snd p)]) r)).
Proof.
  induction es as [|[k a] t IH]; intros h r W R; inversion R as [|x p x' r' [E1 E2] R']; subst; cbn [shift_copy flat_map]; [apply wp_ret; split; [now apply post_nil|constructor]|].
  destruct p as [k0 c]. cbn [fst snd] in *. subst k0. cbv zeta. destruct ((k + co <? 0) || (65536 <=? k + co)); cbn [app]; [now apply IH|].
  bnd. eapply wp_mono; [apply (clone_fresh h a c W E2)|]. intros h1 d Fd. pose proof (fresh_wf _ _ _ _ Fd) as W1. pose proof (fresh_rr _ _ _ _ _ _ W Fd R') as R1. bnd. eapply wp_mono; [exact (IH h1 r' W1 R1)|]. intros h2 t' D. apply wp_ret.
  exact (fresh_cons h (k + co) (Some d) (Some c) h1 _ h2 t' Fd D).
Qed.
Lemma mem_add_offset_ok cap off h es r : wfh h -> rr h es r -> bok r -> wp (mem_add_offset cap off es) h (done h [] (RShift.roaring_bitmap_add_offset cap r off)).
Proof.
  intros W R B. unfold mem_add_offset, RShift.roaring_bitmap_add_offset. destruct (off =? 0); [now apply copy_all_wp|]. cbv zeta. destruct (u16 (off - Z.shiftr off 16 * 65536) =? 0); [now apply shift_copy_ok|].
  set (io := u16 (off - Z.shiftr off 16 * 65536)). clearbody io. set (co := Z.shiftr off 16). clearbody co.
  bnd. eapply wp_mono; [apply (offset_loop_ok cap co io es r h [] []); auto; [|constructor|constructor|intros y []]|].
  - apply B.
  - intros h1 es1 [P1 R1]. assert (W1 : wfh h1) by apply P1. assert (N1 : NoDup (addrs es1)) by apply P1. eapply wp_mono; [apply (map_all_ok container_repair_after_lazy act_repair act_repair_ok h1 es1 _ W1 R1 N1)|].
    intros h2 es2 [P2 R2]. split; [eapply post_trans; [exact W|exact P1|exact P2]|exact R2].
Qed.
Lemma add_offset_step cap off w S S' d s : winv w S -> to_new S d s s (fun P _ => zshift (in32 P) off) = Some S' -> exists w', assign2 w d s s (fun x _ => mem_add_offset cap off x) = Some w' /\ winv w' S'.
Proof.
  intros I Es. unfold to_new in Es. destruct (S d) eqn:Ed; [discriminate|]. destruct (S s) as [P|] eqn:ES; [|discriminate]. injection Es as <-.
  pose proof (i_set _ _ I s) as X. rewrite ES in X. unfold assign2. destruct (wvars w s) as [es|]; [|contradiction]. destruct X as (r&R&D).
  apply (assign_ok w S d _ (RShift.roaring_bitmap_add_offset cap r off) _ I Ed); [apply mem_add_offset_ok; auto; [apply (i_wf _ _ I)|eapply den_bok; eauto]|now apply den_add_offset].
Qed.

Lemma in_range_val v : in_range v = true -> val32 v.
Proof. unfold in_range, val32. intros. apply andb_true_iff in H. destruct H. lia. Qed.
Lemma upd_bm e v P Q : CowH.upd_ok false e P Q -> (forall r, e (Cow.own_all r) [] = Some ([], Cow.own_all (v r))) -> forall r, denotes r P -> denotes (v r) Q.
Proof. intros U E r D. eapply upd_den; eauto. Qed.
Lemma mem_add_ok v : bm_ok (vslot (Z.shiftr v 16) (fun c => Some (container_add c (Z.land v 65535))) (Some (container_add (CArr []) (Z.land v 65535)))) (mem_add v).
Proof. apply update_slot_ok; [apply act_add_ok|apply add_absent_ok]. Qed.
Lemma mem_remove_ok v : bm_ok (vslot (Z.shiftr v 16) (fun c => nonzero (container_remove c (Z.land v 65535))) None) (mem_remove v).
Proof. apply update_slot_ok; [apply act_remove_ok|apply ret_none_ok]. Qed.
Lemma mem_add_range_ok s e : bm_ok (fun r => if e <? s then r else vkeys (rev (CowH.range_keys s e)) (fun k c => Some (container_add_range c (CowH.part_lo s k) (CowH.part_hi e k)))
    (fun k => container_from_range (CowH.part_lo s k) (CowH.part_hi e k + 1) 1) r) (mem_add_range s e).
Proof. unfold mem_add_range. destruct (e <? s); [apply ret_bm|]. apply update_keys_ok; intros k; [apply act_add_range_ok|apply new_opt_ok]. Qed.
Lemma mem_remove_range_ok s e : bm_ok (fun r => if e <? s then r else vkeys (CowH.range_keys s e) (fun k c => container_remove_range c (CowH.part_lo s k) (CowH.part_hi e k)) (fun _ => None) r) (mem_remove_range s e).
Proof. unfold mem_remove_range. destruct (e <? s); [apply ret_bm|]. apply update_keys_ok; intros k; [apply act_remove_range_ok|apply ret_none_ok]. Qed.
Lemma mem_flip_ok cap s e : bm_ok (fun r => if e <? s then r else vkeys (CowH.range_keys s e)
    (fun k c => CowH.nzcard (if CowH.is_part s e k then container_inot_range (cap k) c (CowH.part_lo s k) (CowH.part_hi e k + 1) else container_inot (cap k) c))
    (fun k => Some (CowH.flip_ones s e k)) r) (mem_flip cap s e).
Proof.
  unfold mem_flip. destruct (e <? s); [apply ret_bm|]. apply update_keys_ok; intros k; [|apply new_opt_ok].
  destruct (CowH.is_part s e k); [apply act_flip_part_ok|apply act_flip_full_ok].
Qed.
Lemma mem_add_many_ok vs : bm_ok (vmany (fun v => vslot (Z.shiftr v 16) (fun c => Some (container_add c (Z.land v 65535))) (Some (container_add (CArr []) (Z.land v 65535)))) vs) (mem_add_many vs).
Proof.
  intros h es r W R N. destruct (each_ok _ _ mem_add_ok vs h es r W R N) as (h'&es'&E&D). exists h', es'. split; [|exact D].
  destruct (add_each_eq vs es None h h' es' I E) as (ctx'&E'). unfold mem_add_many, bind. unfold context in E'. rewrite E'. reflexivity.
Qed.
Lemma mem_remove_many_ok vs : bm_ok (vmany (fun v => vslot (Z.shiftr v 16) (fun c => nonzero (container_remove c (Z.land v 65535))) None) vs) (mem_remove_many vs).
Proof.
  intros h es r W R N. destruct (each_ok _ _ mem_remove_ok vs h es r W R N) as (h'&es'&E&D). exists h', es'. split; [|exact D].
  destruct (remove_each_eq vs es None h h' es' I E) as (pos'&E'). unfold mem_remove_many, bind. rewrite E'. reflexivity.
Qed.
Lemma vmany_den f g (ok : Z -> bool) : (forall v r P, ok v = true -> denotes r P -> denotes (f v r) (g P v)) ->
  forall vs r P, forallb ok vs = true -> denotes r P -> denotes (vmany f vs r) (fold_left g vs P).
Proof. intros F. induction vs as [|v t IH]; intros r P Hv D; cbn [vmany fold_left]; [exact D|]. cbn in Hv. apply andb_true_iff in Hv as [H1 H2]. apply IH; auto. Qed.
Lemma clear_bm : bm_ok (fun _ => []) (fun es => _ <- free_all es ;; ret []).
Proof. intros h es r W R N. bnd. eapply wp_mono; [now apply (free_all_wp es h r)|]. intros h1 [] P. apply wp_ret. split; [exact P|constructor]. Qed.

Lemma ostep_ok cap c : step_ok cap c.
Proof.
  intros w S S' I Es. destruct c as [d|d s|d|d|d v|d v|d lo hi|d lo hi|d lo hi|d vs|d vs|d s|d s|d s|d s|d s t|d s t|d s t|d s t|d s lo hi|d s off|d s|d ss|d ss|d ss order|d|d]; cbn [sstep] in Es; cbn [ostep].
  - destruct (S d) eqn:E; [discriminate|]. injection Es as <-. apply (assign_ok w S d _ [] zempty I E); [|apply den_new]. apply wp_ret. split; [apply post_nil, (i_wf _ _ I)|constructor].
  - destruct (S d) eqn:E; [discriminate|]. destruct (S s) as [P|] eqn:E2; [|discriminate]. injection Es as <-.
    pose proof (i_set _ _ I s) as X. rewrite E2 in X. destruct (wvars w s) as [es|]; [|contradiction]. destruct X as (r&R&D).
    apply (assign_ok w S d _ r P I E); [|exact D]. apply copy_all_wp; [apply (i_wf _ _ I)|exact R].
  - destruct (S d) as [P|] eqn:E; [|discriminate]. injection Es as <-. pose proof (i_set _ _ I d) as X. rewrite E in X. destruct (wvars w d) as [es|] eqn:E2; [|contradiction]. destruct X as (r&R&D).
    pose proof (i_nodup _ _ I d) as N. unfold owned in N. rewrite E2 in N.
    destruct (free_all_wp es (wheap w) r (i_wf _ _ I) R N) as (h'&t&Ef&Po). rewrite Ef. eexists. split; [reflexivity|]. apply winv_put; auto. unfold owned. now rewrite E2.
  - eapply update_ok; [exact I|exact Es|apply clear_bm|]. intros. apply den_new.
  - destruct (in_range v) eqn:V; [|discriminate]. apply in_range_val in V. eapply update_ok; [exact I|exact Es|apply mem_add_ok|]. intros r P.
    apply upd_bm with (e := CowH.hadd v) (v := vslot _ _ _); [now apply CowH.hadd_ok|]. intros. apply own_slot.
  - destruct (in_range v) eqn:V; [|discriminate]. apply in_range_val in V. eapply update_ok; [exact I|exact Es|apply mem_remove_ok|]. intros r P.
    apply upd_bm with (e := CowH.hremove v) (v := vslot _ _ _); [now apply CowH.hremove_ok|]. intros. apply own_slot.
  - destruct (in_range lo) eqn:V1; [|discriminate]. destruct (in_range hi) eqn:V2; [|discriminate]. apply in_range_val in V1, V2. eapply update_ok; [exact I|exact Es|apply mem_add_range_ok|]. intros r P.
    eapply upd_bm with (e := CowH.hadd_range_closed lo hi); [now apply CowH.hadd_range_closed_ok|]. intros r0. unfold CowH.hadd_range_closed. destruct (hi <? lo); [reflexivity|apply own_keys].
  - destruct (in_range lo) eqn:V1; [|discriminate]. destruct (in_range hi) eqn:V2; [|discriminate]. apply in_range_val in V1, V2. eapply update_ok; [exact I|exact Es|apply mem_remove_range_ok|]. intros r P.
    eapply upd_bm with (e := CowH.hremove_range_closed lo hi); [now apply CowH.hremove_range_closed_ok|]. intros r0. unfold CowH.hremove_range_closed. destruct (hi <? lo); [reflexivity|apply own_keys].
  - destruct (in_range lo) eqn:V1; [|discriminate]. destruct (in_range hi) eqn:V2; [|discriminate]. apply in_range_val in V1, V2. eapply update_ok; [exact I|exact Es|apply (mem_flip_ok cap)|]. intros r P.
    eapply upd_bm with (e := CowH.hflip_inplace_closed cap lo hi); [now apply CowH.hflip_inplace_closed_ok|]. intros r0. unfold CowH.hflip_inplace_closed. destruct (hi <? lo); [reflexivity|apply own_keys].
  - destruct (forallb in_range vs) eqn:V; [|discriminate]. eapply update_ok; [exact I|exact Es|apply mem_add_many_ok|]. intros r P D. apply (vmany_den _ zadd in_range); auto.
    clear. intros v r P V. apply in_range_val in V. apply upd_bm with (e := CowH.hadd v) (v := vslot _ _ _); [now apply CowH.hadd_ok|]. intros. apply own_slot.
  - destruct (forallb in_range vs) eqn:V; [|discriminate]. eapply update_ok; [exact I|exact Es|apply mem_remove_many_ok|]. intros r P D. apply (vmany_den _ zdel in_range); auto.
    clear. intros v r P V. apply in_range_val in V. apply upd_bm with (e := CowH.hremove v) (v := vslot _ _ _); [now apply CowH.hremove_ok|]. intros. apply own_slot.
  - eapply combine_ok; [exact I|exact Es|apply act_iand_ok|]. intros r1 r2 P Q. eapply in_den; [apply CowH.hand_inplace_ok|]. apply own_merge. reflexivity.
  - eapply combine_ok; [exact I|exact Es|apply (act_ior_ok cap)|]. intros r1 r2 P Q. eapply in_den; [apply (CowH.hor_inplace_ok _ cap)|]. apply own_merge.
    intros k c1 c2 m. unfold Cow.act_or, Cow.bind, Cow.load. cbn [Cow.unwrap]. destruct (container_is_full c1); reflexivity.
  - eapply combine_ok; [exact I|exact Es|apply act_ixor_ok|]. intros r1 r2 P Q. eapply in_den; [apply CowH.hxor_inplace_ok|]. apply own_merge. reflexivity.
  - eapply combine_ok; [exact I|exact Es|apply act_iandnot_ok|]. intros r1 r2 P Q. eapply in_den; [apply CowH.handnot_inplace_ok|]. apply own_merge. reflexivity.
  - apply (assign2_ok w S S' d s t (merge_out new_and false false) (vmerge (fun _ c1 c2 => nonzero (container_and c1 c2)) false false) _ I Es); [intros; apply merge_out_ok; auto using new_and_ok|]. intros r1 r2 P Q D1 D2 _. revert D1 D2. eapply bin_den; [apply CowH.hand_ok|]. apply own_out. reflexivity.
  - apply (assign2_ok w S S' d s t (merge_out new_or true true) (vmerge (fun _ c1 c2 => Some (container_or c1 c2)) true true) _ I Es); [intros; apply merge_out_ok; auto using new_or_ok|]. intros r1 r2 P Q D1 D2 _. revert D1 D2. eapply bin_den; [apply CowH.hor_ok|]. apply own_out. reflexivity.
  - apply (assign2_ok w S S' d s t (merge_out new_xor true true) (vmerge (fun _ c1 c2 => nonzero (container_xor c1 c2)) true true) _ I Es); [intros; apply merge_out_ok; auto using new_xor_ok|]. intros r1 r2 P Q D1 D2 _. revert D1 D2. eapply bin_den; [apply CowH.hxor_ok|]. apply own_out. reflexivity.
  - apply (assign2_ok w S S' d s t (merge_out new_andnot true false) (vmerge (fun _ c1 c2 => nonzero (container_andnot c1 c2)) true false) _ I Es); [intros; apply merge_out_ok; auto using new_andnot_ok|]. intros r1 r2 P Q D1 D2 _. revert D1 D2. eapply bin_den; [apply CowH.handnot_ok|]. apply own_out. reflexivity.
  - destruct (in_range lo) eqn:V1; [|discriminate]. destruct (in_range hi) eqn:V2; [|discriminate]. apply in_range_val in V1, V2.
    eapply (assign2_ok w S S' d s s _ (fun r _ => vflip lo hi r)); [exact I|exact Es|intros; now apply mem_flip_new_ok|]. intros r1 r2 P Q D1 _ _. revert D1.
    destruct (own_flip lo hi r1 []) as (r'&E). eapply new_den; [now apply CowH.hflip_closed_ok|exact E].
  - now apply (add_offset_step cap off w S S' d s).
  - eapply (combine_ok2 w S S' d s mem_overwrite (fun _ r2 => r2)); [exact I|exact Es|intros; now apply mem_overwrite_ok with (r1 := r1)|]. auto.
  - eapply assign_many_ok; [exact I|exact Es|exact (mem_many_ok _ _ _ _ (new_lazy_or_ok true) (act_lazy_ior_ok true cap))|].
    intros rs Ps. eapply (vmany_of_den _ _ orb); [now apply opok_lazy_or|apply opok_lazy_ior, cok_lne|apply ul_or|reflexivity].
  - eapply assign_many_ok; [exact I|exact Es|exact (mem_many_ok _ _ _ _ new_lazy_xor_ok act_lazy_ixor_ok)|].
    intros rs Ps. eapply (vmany_of_den _ _ xorb); [now apply opok_lazy_xor|exact (opok_lazy_ixor (fun _ => false))|apply ul_xor|reflexivity].
  - now apply (or_heap_ok cap order w S S' d ss).
  - eapply update_ok; [exact I|exact Es|apply (map_all_ok convert_run_optimize), act_run_optimize_ok|]. intros r P.
    apply upd_bm with (e := Cow.map_writable convert_run_optimize); [apply CowH.run_optimize_upd|]. intros. apply own_map.
  - eapply update_ok; [exact I|exact Es|apply (map_all_ok remove_run), act_remove_runs_ok|]. intros r P.
    apply upd_bm with (e := Cow.map_runs RQuery.remove_run); [apply CowH.remove_run_upd|]. intros. apply own_runs.
Qed.
Lemma ostart_inv : winv ostart no_sets.
Proof.
  constructor; cbn.
  - intros x _. reflexivity.
  - intros d. exact I.
  - intros d. constructor.
  - intros d d' _ x [].
  - intros x E. now contradiction E.
Qed.
Lemma orun_ok prog : forall w S S', winv w S -> srun (map fst prog) S = Some S' -> exists w', orun prog w = Some w' /\ winv w' S'.
Proof.
  induction prog as [|[c cap] t IH]; intros w S S' I E; cbn [map fst srun] in E; cbn [orun].
  - injection E as <-. now exists w.
  - destruct (sstep c S) as [S1|] eqn:E1; [|discriminate]. destruct (ostep_ok cap c w S S1 I E1) as (w1&Ew&I1). rewrite Ew. eapply IH; eauto.
Qed.
Lemma contents_rr h es r : rr h es r -> contents h es = Some r.
Proof. intros R. induction R as [|[k a] [k' c] es r [E1 E2] R IH]; [reflexivity|]. cbn in *. subst. now rewrite E2, IH. Qed.
Lemma winv_bitmaps w S : winv w S -> bitmaps_are w S.
Proof.
  intros I d. pose proof (i_set _ _ I d) as X. destruct (wvars w d) as [es|]; [|exact X]. destruct (S d) as [P|]; [|exact X]. destruct X as (r&R&D). exists r. split; [now apply contents_rr|exact D].
Qed.
Lemma holds_owned w d i x : holds w d i x -> nth_error (owned w d) i = Some x.
Proof. intros (es&k&E&N). unfold owned. rewrite E. unfold addrs. now rewrite nth_error_map, N. Qed.
Lemma owned_holds w d x : In x (owned w d) -> exists i, holds w d i x.
Proof.
  intros J. destruct (In_nth_error _ _ J) as (i&E). exists i. unfold holds, owned in *. destruct (wvars w d) as [es|]; [|now destruct i]. unfold addrs in E. rewrite nth_error_map in E.
  destruct (nth_error es i) as [[k y]|] eqn:En; [|discriminate]. cbn in E. injection E as ->. exists es, k. auto.
Qed.
Lemma winv_accounted w S : winv w S -> accounted (live w) (holds w).
Proof.
  intros I. split; [|split].
  - intros d i x Hx. apply holds_owned in Hx. apply nth_error_In in Hx. eapply owned_live; eauto.
  - intros x Hx. destruct (i_all _ _ I x Hx) as (d&J). exists d. now apply owned_holds.
  - intros d i d' i' x H1 H2. apply holds_owned in H1, H2. destruct (Nat.eq_dec d d') as [->|Nd].
    + split; auto. eapply (proj1 (NoDup_nth_error _) (i_nodup _ _ I d')); [|congruence]. apply nth_error_Some. now rewrite H1.
    + exfalso. apply (i_apart _ _ I d d' Nd x); eapply nth_error_In; eauto.
Qed.
(** ** C94 *)
Lemma program_ok prog S : srun (map fst prog) no_sets = Some S ->
  exists w, orun prog ostart = Some w /\ bitmaps_are w S /\ accounted (live w) (holds w).
Proof.
  intros E. destruct (orun_ok prog ostart no_sets S ostart_inv E) as (w&Ew&I). exists w. split; [exact Ew|]. split; [now apply winv_bitmaps|now apply winv_accounted with (S := S)].
Qed.
Lemma all_freed prog S : srun (map fst prog) no_sets = Some S -> (forall d, S d = None) ->
  exists w, orun prog ostart = Some w /\ forall x, ~ live w x.
Proof.
  intros E N. destruct (program_ok prog S E) as (w&Ew&B&_&A&_). exists w. split; [exact Ew|]. intros x L. destruct (A x L) as (d&i&es&k&Ed&_).
  specialize (B d). rewrite Ed, N in B. exact B.
Qed.
