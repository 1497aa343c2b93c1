(** CowH: the bitmap operations of Cow.v as API calls on any number of bitmaps, and
    the proof that every history of calls refines the history of set operations, keeps
    the reference counters exact and never touches a released container. *)
From Coq Require Import ZArith List Bool Lia.
From Verif Require Import Base ArrayUtil BitUtil BitsetC ArrayC RunC RunD Convert MixedI MixedU MixedA MixedN Containers RArray RBinary RPoint RRange RQuery RStat RShift Bytes Serial Heap Spec Obs DerivedS Hist Cow.
Import ListNotations.
Local Open Scope Z_scope.
Local Opaque zr.

(** ** Code *)
(** the slots before the first key >= k, and the others *)
Fixpoint split_lt (k : Z) (es : hmap) : hmap * hmap :=
  match es with
  | [] => ([], [])
  | (k', h) :: t => if k' <? k then let '(a, b) := split_lt k t in ((k', h) :: a, b) else ([], es)
  end.
(** the keys k, k+1, ... *)
Fixpoint keys_up (n : nat) (k : Z) : list Z := match n with O => [] | S m => k :: keys_up m (k + 1) end.
(** the part of the range [s, e] inside the container with key k *)
Definition part_lo (s k : Z) : Z := if Z.shiftr s 16 =? k then Z.land s 65535 else 0.
Definition part_hi (e k : Z) : Z := if Z.shiftr e 16 =? k then Z.land e 65535 else 65535.
Definition range_keys (s e : Z) : list Z := keys_up (Z.to_nat (Z.shiftr e 16 - Z.shiftr s 16 + 1)) (Z.shiftr s 16).

(** roaring.c:533-559 roaring_bitmap_add (also _add_checked, 561-599) *)
Definition hadd (v : Z) (es : hmap) : M hmap :=
  update_slot (Z.shiftr v 16) (fun c => Some (container_add c (Z.land v 65535))) (Some (container_add (CArr []) (Z.land v 65535))) es.
(** roaring.c:601-624 roaring_bitmap_remove (also _remove_checked, 626-661) *)
Definition hremove (v : Z) (es : hmap) : M hmap :=
  update_slot (Z.shiftr v 16) (fun c => nonzero (container_remove c (Z.land v 65535))) None es.
(** roaring.c:132-155 roaring_bitmap_add_many: the first value is inserted to obtain
    the cached container, then all values; the cached container is not shared *)
Fixpoint hadd_list (vals : list Z) (es : hmap) : M hmap :=
  match vals with [] => ret es | v :: vs => es' <- hadd v es ;; hadd_list vs es' end.
Definition hadd_many (vals : list Z) (es : hmap) : M hmap :=
  match vals with [] => ret es | v :: _ => hadd_list (v :: vals) es end.
(** roaring.c:249-298 roaring_bitmap_add_range_closed (from the last key down) *)
Definition hadd_range_closed (s e : Z) (es : hmap) : M hmap :=
  if e <? s then ret es
  else update_keys (rev (range_keys s e)) (fun k c => Some (container_add_range c (part_lo s k) (part_hi e k)))
         (fun k => container_from_range (part_lo s k) (part_hi e k + 1) 1) es.
(** roaring.c:300-337 roaring_bitmap_remove_range_closed (keys without a container
    have nothing to remove) *)
Definition hremove_range_closed (s e : Z) (es : hmap) : M hmap :=
  if e <? s then ret es
  else update_keys (range_keys s e) (fun k c => container_remove_range c (part_lo s k) (part_hi e k)) (fun _ => None) es.
(** flipping inside one container: partially (roaring.c:1909-1962) or fully
    (1964-2011), dropped if the result is empty *)
Definition is_part (s e k : Z) : bool := (Z.shiftr s 16 =? Z.shiftr e 16) || negb ((part_lo s k =? 0) && (part_hi e k =? 65535)).
Definition nzcard (c : container) : option container := if negb (container_get_cardinality c =? 0) then Some c else None.
Definition flip_ones (s e k : Z) : container :=
  if is_part s e k then container_range_of_ones (part_lo s k) (part_hi e k + 1) else container_range_of_ones 0 65536.
(** roaring.c:2084-2120 roaring_bitmap_flip_inplace_closed *)
Definition hflip_inplace_closed (cap : Z -> Z) (s e : Z) (es : hmap) : M hmap :=
  if e <? s then ret es
  else update_keys (range_keys s e)
         (fun k c => nzcard (if is_part s e k then container_inot_range (cap k) c (part_lo s k) (part_hi e k + 1) else container_inot (cap k) c))
         (fun k => Some (flip_ones s e k)) es.
(** roaring.c:2023-2073 roaring_bitmap_flip_closed *)
Fixpoint flip_mid (s e : Z) (n : nat) (k : Z) (es : hmap) : M hmap :=
  match n with
  | O => ret []
  | S m =>
    o <- match look_slot k es with
         | Some h => c <- load h ;; ret (nzcard (if is_part s e k then container_not_range c (part_lo s k) (part_hi e k + 1) else container_not c))
         | None => ret (Some (flip_ones s e k))
         end ;;
    t <- flip_mid s e m (k + 1) es ;; ret (hemit k (option_map Own o) t)
  end.
Definition hflip_closed (cow : bool) (s e : Z) (es : hmap) : M (hmap * hmap) :=
  if e <? s then ra_append_copy_range cow es
  else
    let '(pre, rest) := split_lt (Z.shiftr s 16) es in
    let '(mid, post) := split_lt (Z.shiftr e 16 + 1) rest in
    '(pre', ans1) <- ra_append_copy_range cow pre ;;
    ans2 <- flip_mid s e (Z.to_nat (Z.shiftr e 16 - Z.shiftr s 16 + 1)) (Z.shiftr s 16) mid ;;
    '(post', ans3) <- ra_append_copy_range cow post ;;
    ret (pre' ++ mid ++ post', ans1 ++ ans2 ++ ans3).
(** roaring.h:402-430, roaring.c:2013-2021, 2075-2082: the half-open versions *)
Definition half_open {A} (s e : Z) (none : A) (closed : Z -> Z -> A) : A :=
  if (e <=? s) || (2^32 <? s) then none else closed (u32 s) (u32 (e - 1)).
(** roaring.c:2155-2231 roaring_bitmap_add_offset: a copy (offset 0), copies of the
    containers under shifted keys (multiples of 65536; containers that fall outside
    are not copied), or all new containers *)
Fixpoint hshift_keys (cow : bool) (container_offset : Z) (es : hmap) : M (hmap * hmap) :=
  match es with
  | [] => ret ([], [])
  | (k, h) :: t =>
    let key := k + container_offset in
    if (key <? 0) || (65536 <=? key) then '(t1, t2) <- hshift_keys cow container_offset t ;; ret ((k, h) :: t1, t2)
    else
      '(h1, h2) <- ra_append_copy cow h ;; '(t1, t2) <- hshift_keys cow container_offset t ;;
      ret ((k, h1) :: t1, (key, h2) :: t2)
  end.
Definition hadd_offset (cap : Z -> Z) (cow : bool) (offset : Z) (es : hmap) : M (hmap * hmap) :=
  if offset =? 0 then ra_append_copy_range cow es
  else
    let container_offset := Z.shiftr offset 16 in
    let in_offset := u16 (offset - container_offset * 65536) in
    if in_offset =? 0 then hshift_keys cow container_offset es
    else r <- load_all es ;; ret (es, own_all (roaring_bitmap_add_offset cap r offset)).

(** the binary operations *)
Definition hand (b1 b2 : bool) := merge_new get_copy_of_container (fun _ c1 c2 => nonzero (container_and c1 c2)) false false b1 b2.
Definition hor (b1 b2 : bool) := merge_new get_copy_of_container (fun _ c1 c2 => Some (container_or c1 c2)) true true b1 b2.
Definition hxor (b1 b2 : bool) := merge_new get_copy_of_container (fun _ c1 c2 => nonzero (container_xor c1 c2)) true true b1 b2.
Definition handnot (b1 b2 : bool) := merge_new ra_append_copy (fun _ c1 c2 => nonzero (container_andnot c1 c2)) true false b1 b2.
Definition lazy_or_op (_ : Z) (c1 c2 : container) : option container :=
  Some (if true && negb (is_bitset c1) && negb (is_bitset c2)
        then container_lazy_ior 0 (container_to_bitset c1) c2 else container_lazy_or c1 c2).
Definition lazy_xor_op (_ : Z) (c1 c2 : container) : option container := nonzero (container_lazy_xor c1 c2).
Definition hand_inplace (b2 : bool) :=
  merge_in (act_op (fun sh _ c1 c2 => nonzero (if sh then container_and c1 c2 else container_iand c1 c2))) false false b2.
Definition hor_inplace (cap : Z -> Z) (b2 : bool) :=
  merge_in (act_or (fun sh k c1 c2 => Some (if sh then container_or c1 c2 else container_ior (cap k) c1 c2))) true true b2.
Definition hxor_inplace (b2 : bool) :=
  merge_in (act_op (fun sh _ c1 c2 => nonzero (if sh then container_xor c1 c2 else container_ixor c1 c2))) true true b2.
Definition handnot_inplace (b2 : bool) :=
  merge_in (act_op (fun sh _ c1 c2 => nonzero (if sh then container_andnot c1 c2 else container_iandnot c1 c2))) true false b2.
Definition lazy_ior_act (cap : Z -> Z) := act_lazy_or (fun k c1 c2 => Some (
  let c1' := if negb true || is_bitset c1 then c1 else container_to_bitset c1 in container_lazy_ior (cap k) c1' c2)).
Definition lazy_ixor_act := act_op (fun sh _ c1 c2 => nonzero (if sh then container_lazy_xor c1 c2 else container_lazy_ixor c1 c2)).

(** *** The machine *)
Record world := W { wm : smem; wr : nat -> hbm }.
Definition step_res := option (world * out).
(** d is replaced by a new bitmap; the old one is freed (roaring_bitmap_free,
    roaring.c:519-527) *)
Definition free_put (d : nat) (ans : hbm) (w : world) : step_res :=
  match ra_clear_containers (hsl (wr w d)) (wm w) with
  | Some (m, _) => Some (W m (put (wr w) d ans), RNone)
  | None => None
  end.
Definition upd_reg (d : nat) (e : hmap -> M hmap) (a : bitmap -> out) (w : world) : step_res :=
  match load_all (hsl (wr w d)) (wm w) with
  | Some (m, r) => match e (hsl (wr w d)) m with
                   | Some (m', es) => Some (W m' (put (wr w) d (HB (hcow (wr w d)) es)), a r)
                   | None => None
                   end
  | None => None
  end.
Definition new_reg (d s : nat) (e : bool -> hmap -> M (hmap * hmap)) (w : world) : step_res :=
  let b := hcow (wr w s) in
  match e b (hsl (wr w s)) (wm w) with
  | Some (m, (es, ans)) => free_put d (HB b ans) (W m (put (wr w) s (HB b es)))
  | None => None
  end.
Definition new_reg2 (d s t : nat) (e : bool -> bool -> hmap -> hmap -> M (hmap * hmap * hmap)) (self : hmap -> M hmap) (w : world) : step_res :=
  let b1 := hcow (wr w s) in let b2 := hcow (wr w t) in
  if Nat.eqb s t then
    match self (hsl (wr w s)) (wm w) with
    | Some (m, ans) => free_put d (HB (b1 || b2) ans) (W m (wr w))
    | None => None
    end
  else
    match e b1 b2 (hsl (wr w s)) (hsl (wr w t)) (wm w) with
    | Some (m, (es1, es2, ans)) => free_put d (HB (b1 || b2) ans) (W m (put (put (wr w) s (HB b1 es1)) t (HB b2 es2)))
    | None => None
    end.
(** [ovw]: or, xor and their lazy versions overwrite an empty x1 by a copy of x2,
    which includes the flag (roaring.c:512-517 roaring_bitmap_overwrite) *)
Definition in_flag (ovw : bool) (r1 r2 : hbm) : bool :=
  match hsl r1, hsl r2 with [], _ :: _ => if ovw then hcow r2 else hcow r1 | _, _ => hcow r1 end.
Definition in_reg2 (d s : nat) (ovw : bool) (e : bool -> hmap -> hmap -> M (hmap * hmap)) (w : world) : step_res :=
  match e (hcow (wr w s)) (hsl (wr w d)) (hsl (wr w s)) (wm w) with
  | Some (m, (es1, es2)) =>
    Some (W m (put (put (wr w) d (HB (in_flag ovw (wr w d) (wr w s)) es1)) s (HB (hcow (wr w s)) es2)), RNone)
  | None => None
  end.
(** a new bitmap whose containers are all new; the flag is set by the caller *)
Definition fresh (d : nat) (b : bool) (r : bitmap) : world -> step_res := free_put d (HB b (own_all r)).
Definition query (s : nat) (q : bitmap -> out) (w : world) : step_res :=
  match load_all (hsl (wr w s)) (wm w) with Some (m, r) => Some (W m (wr w), q r) | None => None end.
Definition query2 (s t : nat) (q : bitmap -> bitmap -> out) (w : world) : step_res :=
  match load_all (hsl (wr w s)) (wm w) with
  | Some (m, r1) => match load_all (hsl (wr w t)) m with Some (m', r2) => Some (W m' (wr w), q r1 r2) | None => None end
  | None => None
  end.
(** or_many (roaring.c:742-757), xor_many (762-776): [ans] is the running result *)
Fixpoint many_loop (act : Z -> handle -> handle -> M (option handle)) (ss : list nat) (ans : hmap) (w : world) : option (world * hmap) :=
  match ss with
  | [] => Some (w, ans)
  | s :: ss' =>
    match merge_in act true true (hcow (wr w s)) ans (hsl (wr w s)) (wm w) with
    | Some (m, (a, es)) => many_loop act ss' a (W m (put (wr w) s (HB (hcow (wr w s)) es)))
    | None => None
    end
  end.
Definition many (d : nat) (ss : list nat) (b : bool) (op : Z -> container -> container -> option container)
    (act : Z -> handle -> handle -> M (option handle)) (w : world) : step_res :=
  match ss with
  | [] => fresh d b [] w
  | [s] => new_reg d s ra_append_copy_range w
  | s :: t :: rest =>
    let b1 := hcow (wr w s) in let b2 := hcow (wr w t) in
    let start :=
      if Nat.eqb s t then
        match merge_self op (hsl (wr w s)) (wm w) with Some (m, ans) => Some (W m (wr w), ans) | None => None end
      else
        match merge_new get_copy_of_container op true true b1 b2 (hsl (wr w s)) (hsl (wr w t)) (wm w) with
        | Some (m, (es1, es2, ans)) => Some (W m (put (put (wr w) s (HB b1 es1)) t (HB b2 es2)), ans)
        | None => None
        end in
    match start with
    | Some (w1, ans) =>
      match many_loop act rest ans w1 with
      | Some (w2, ans2) =>
        match map_writable container_repair_after_lazy ans2 (wm w2) with
        | Some (m3, ans3) => free_put d (HB (b1 || b2) ans3) (W m3 (wr w2))
        | None => None
        end
      | None => None
      end
    | None => None
    end
  end.
(** roaring.c:663-695 roaring_bitmap_remove_many: the slot is not unshared.
    container_remove (containers.h:518-548) makes its own writable copy of a shared
    container, which releases the caller's reference; the result is another pointer,
    so the shared container is then freed once more. *)
Fixpoint remove_slot_unshared (k v : Z) (es : hmap) : M hmap :=
  match es with
  | [] => ret []
  | (k', h) :: t =>
    if k =? k' then
      c <- get_writable_copy_if_shared h ;;
      _ <- match h with Own _ => ret tt | _ => container_free h end ;;
      ret (hemit k (option_map Own (nonzero (container_remove c v))) t)
    else if k <? k' then ret es
    else t' <- remove_slot_unshared k v t ;; ret ((k', h) :: t')
  end.
Fixpoint hremove_many (vals : list Z) (es : hmap) : M hmap :=
  match vals with
  | [] => ret es
  | v :: vs => es' <- remove_slot_unshared (Z.shiftr v 16) (Z.land v 65535) es ;; hremove_many vs es'
  end.
(** roaring_array.c:436-517 ra_range_uint32_array, called on a const bitmap by
    roaring_bitmap_range_uint32_array: container_unwrap_shared is given the address of
    the typecode in the array, so the typecode of every visited slot becomes the one of
    the container inside the shared block, while the pointer still points to the block.
    Modelled for a visit of all slots (offset 0 and no effective limit). *)
Fixpoint htouch_all (es : hmap) : hmap :=
  match es with [] => [] | (k, Sh l) :: t => (k, Bad l) :: htouch_all t | p :: t => p :: htouch_all t end.
Definition htouch (i : nat) (w : world) : world := W (wm w) (put (wr w) i (HB (hcow (wr w i)) (htouch_all (hsl (wr w i))))).

(** One call.  [b]: the flag the caller sets on the bitmaps it creates (functions that
    build a bitmap from nothing leave the flag off, roaring_bitmap_set_copy_on_write
    follows).  Outputs that do not depend on sharing are computed as in the other
    machine (Hist.v) from the containers.  or_many_heap is in CowQ.v. *)
Definition hstep (b : bool) (c : cmd) (o : oracle) (w : world) : step_res :=
  let cap := ocap o in let none := fun _ : bitmap => RNone in
  match c with
  | KNew d => fresh d b [] w
  | KOf d vals => fresh d b (roaring_bitmap_of_ptr vals) w
  | KFromRange d lo hi s => match roaring_bitmap_from_range range_fuel lo hi s with Some (Some r) => fresh d b r w | _ => Some (w, RNone) end
  | KCopy d s => new_reg d s ra_append_copy_range w
  | KAdd d v => upd_reg d (hadd v) none w
  | KAddChecked d v => upd_reg d (hadd v) (fun r => RBool (snd (roaring_bitmap_add_checked r v))) w
  | KRemove d v => upd_reg d (hremove v) none w
  | KRemoveChecked d v => upd_reg d (hremove v) (fun r => RBool (snd (roaring_bitmap_remove_checked r v))) w
  | KAddMany d vals => upd_reg d (hadd_many vals) none w
  | KRemoveMany d vals => upd_reg d (hremove_many vals) none w
  | KAddRange d s e => upd_reg d (half_open s e ret hadd_range_closed) none w
  | KAddRangeClosed d s e => upd_reg d (hadd_range_closed s e) none w
  | KRemoveRange d s e => upd_reg d (half_open s e ret hremove_range_closed) none w
  | KRemoveRangeClosed d s e => upd_reg d (hremove_range_closed s e) none w
  | KFlipInplace d s e => upd_reg d (half_open s e ret (hflip_inplace_closed cap)) none w
  | KFlipInplaceClosed d s e => upd_reg d (hflip_inplace_closed cap s e) none w
  | KClear d => upd_reg d (fun es => _ <- ra_clear_containers es ;; ret []) none w
  | KRunOptimize d => upd_reg d (map_writable convert_run_optimize) (fun r => RBool (snd (roaring_bitmap_run_optimize r))) w
  | KRemoveRunCompression d => upd_reg d (map_runs remove_run) (fun r => RBool (snd (roaring_bitmap_remove_run_compression r))) w
  | KFlip d s lo hi => new_reg d s (half_open lo hi ra_append_copy_range (fun a e b => hflip_closed b a e)) w
  | KFlipClosed d s lo hi => new_reg d s (fun b => hflip_closed b lo hi) w
  | KAnd d s t => new_reg2 d s t hand (merge_self (fun _ c1 c2 => nonzero (container_and c1 c2))) w
  | KOr d s t => new_reg2 d s t hor (merge_self (fun _ c1 c2 => Some (container_or c1 c2))) w
  | KXor d s t => new_reg2 d s t hxor (merge_self (fun _ c1 c2 => nonzero (container_xor c1 c2))) w
  | KAndnot d s t => new_reg2 d s t handnot (merge_self (fun _ c1 c2 => nonzero (container_andnot c1 c2))) w
  | KOrMany d ss => many d ss b lazy_or_op (lazy_ior_act cap) w
  | KOrManyHeap d ss => None
  | KXorMany d ss => many d ss b lazy_xor_op lazy_ixor_act w
  | KAddOffset d s off => new_reg d s (fun b => hadd_offset cap b off) w
  | KReloadPortable d s =>
      match load_all (hsl (wr w s)) (wm w) with
      | Some (m, r) => match reload_portable r with Ok r' => fresh d b r' w | _ => None end
      | None => None
      end
  | KReloadNative d s =>
      match load_all (hsl (wr w s)) (wm w) with
      | Some (m, r) => match reload_native r with Ok r' => fresh d b r' w | _ => None end
      | None => None
      end
  | KAndInplace d s => if Nat.eqb d s then Some (w, RNone) else in_reg2 d s false hand_inplace w
  | KOrInplace d s => in_reg2 d s true (hor_inplace cap) w
  | KXorInplace d s => in_reg2 d s true hxor_inplace w
  | KAndnotInplace d s => in_reg2 d s false handnot_inplace w
  | QContains s v => query s (fun r => RBool (roaring_bitmap_contains r v)) w
  | QContainsRange s a e => query s (fun r => RBool (roaring_bitmap_contains_range r a e)) w
  | QCardinality s => query s (fun r => RNum (roaring_bitmap_get_cardinality r)) w
  | QRangeCardinality s a e => query s (fun r => RNum (roaring_bitmap_range_cardinality r a e)) w
  | QIsEmpty s => query s (fun r => RBool (roaring_bitmap_is_empty r)) w
  | QEquals s t => query2 s t (fun x y => RBool (roaring_bitmap_equals x y)) w
  | QSubset s t => query2 s t (fun x y => RBool (roaring_bitmap_is_subset x y)) w
  | QStrictSubset s t => query2 s t (fun x y => RBool (roaring_bitmap_is_strict_subset x y)) w
  | QIntersect s t => query2 s t (fun x y => RBool (roaring_bitmap_intersect x y)) w
  | QAndCardinality s t => query2 s t (fun x y => RNum (roaring_bitmap_and_cardinality x y)) w
  | QOrCardinality s t => query2 s t (fun x y => RNum (roaring_bitmap_or_cardinality x y)) w
  | QXorCardinality s t => query2 s t (fun x y => RNum (roaring_bitmap_xor_cardinality x y)) w
  | QAndnotCardinality s t => query2 s t (fun x y => RNum (roaring_bitmap_andnot_cardinality x y)) w
  | QRank s v => query s (fun r => RNum (roaring_bitmap_rank r v)) w
  | QGetIndex s v => query s (fun r => RNum (roaring_bitmap_get_index r v)) w
  | QSelect s k => query s (fun r => ROpt (roaring_bitmap_select r k)) w
  | QMinimum s => query s (fun r => RNum (roaring_bitmap_minimum r)) w
  | QMaximum s => query s (fun r => RNum (roaring_bitmap_maximum r)) w
  | QToArray s => query s (fun r => RList (roaring_bitmap_to_uint32_array r)) w
  | QValidate s => query s (fun r => RBool (roaring_bitmap_internal_validate r)) w
  end.
Fixpoint hexec (b : bool) (tr : list (cmd * oracle)) (w : world) : option (world * list out) :=
  match tr with
  | [] => Some (w, [])
  | (c, o) :: tr' =>
    match hstep b c o w with
    | Some (w1, a) => match hexec b tr' w1 with Some (w2, l) => Some (w2, a :: l) | None => None end
    | None => None
    end
  end.
(** all bitmaps are empty and carry the flag b *)
Definition hstart (b : bool) : world := W [] (fun _ => HB b []).

(** ** Proofs: one bitmap *)
Ltac cj := repeat match goal with |- _ /\ _ => split; [solve [auto]|] end.
Definition upd_ok (b : bool) (e : hmap -> M hmap) (P Q : zset) : Prop :=
  forall es m r F, denotes r P -> inv b m (hs es ++ F) -> hval m es = Some r ->
  exists m' es' r', e es m = Some (m', es') /\ inv b m' (hs es' ++ F) /\ keeps F m m' /\ hval m' es' = Some r' /\ denotes r' Q.
Definition new_ok (b : bool) (e : hmap -> M (hmap * hmap)) (P Q : zset) : Prop :=
  forall es m r F, denotes r P -> inv b m (hs es ++ F) -> hval m es = Some r ->
  exists m' es' ans r', e es m = Some (m', (es', ans)) /\ inv b m' (hs es' ++ hs ans ++ F) /\ keeps F m m' /\
    hval m' es' = Some r /\ hval m' ans = Some r' /\ denotes r' Q.

Lemma den_rspec_eq r P r' f : denotes r P -> rspec r' f -> (forall v, val32 v -> f (v / 65536) (v mod 65536) = mem r v) -> denotes r' P.
Proof. intros D R H. eapply den_of_rspec; [exact R|]. intros v Hv. rewrite H by auto. now apply den_mem. Qed.
Lemma den_self_rspec r P r' : denotes r P -> rspec r' (km r) -> denotes r' P.
Proof. intros D R. eapply den_rspec_eq; eauto. Qed.
Lemma val_hi v : val32 v -> 0 <= v / 65536 < 65536. Proof. unfold val32. intros. dm. Qed.
Lemma upd_ret b P : upd_ok b ret P P.
Proof. intros es m r F D I V. exists m, es, r. split; [reflexivity|]. split; auto. split; [apply keeps_refl|auto]. Qed.
Lemma upd_ext b e P Q Q' : upd_ok b e P Q -> same_set Q Q' -> upd_ok b e P Q'.
Proof.
  intros H S es m r F D I V. destruct (H es m r F D I V) as (m'&es'&r'&A&B&C&E&G). exists m', es', r'. cj. eapply den_ext; eauto.
Qed.
Lemma new_ext b e P Q Q' : new_ok b e P Q -> same_set Q Q' -> new_ok b e P Q'.
Proof.
  intros H S es m r F D I V. destruct (H es m r F D I V) as (m'&es'&ans&r'&A&B&C&E&G&K). exists m', es', ans, r'. cj. eapply den_ext; eauto.
Qed.
Lemma upd_bind b e1 e2 P Q R : upd_ok b e1 P Q -> upd_ok b e2 Q R -> upd_ok b (fun es => es' <- e1 es ;; e2 es') P R.
Proof.
  intros H1 H2 es m r F D I V. destruct (H1 es m r F D I V) as (m1&es1&r1&A1&B1&C1&E1&G1). destruct (H2 es1 m1 r1 F G1 B1 E1) as (m2&es2&r2&A2&B2&C2&E2&G2).
  exists m2, es2, r2. unfold bind. rewrite A1. split; auto. split; auto. split; [kt C1 C2|auto].
Qed.
Lemma upd_slot_ok b f absent (g : bool -> Z -> bool) k P Q : 0 <= k < 65536 ->
  (forall c, cok c -> ores (f c) (fun x => g (cmem c x) x)) -> ores absent (fun x => g false x) ->
  (forall v, val32 v -> (if v / 65536 =? k then g (P v) (v mod 65536) else P v) = Q v) ->
  upd_ok b (update_slot k f absent) P Q.
Proof.
  intros Hk Hf Ha HQ es m r F D I V. destruct (update_slot_ok b k f absent g Hf Ha es 0 m r F (den_bok _ _ D) Hk I V) as (m'&es'&r'&A&B&C&E&G).
  exists m', es', r'. cj. eapply den_of_rspec; [exact G|]. intros v Hv. cbn beta. rewrite <- HQ by auto.
  rewrite <- (den_mem r P v D Hv). unfold mem. destruct (Z.eqb_spec (v / 65536) k) as [->|]; auto.
Qed.
Lemma split_of v : val32 v -> Z.shiftr v 16 = v / 65536 /\ Z.land v 65535 = v mod 65536.
Proof. intros H. destruct (val_split v H) as (A&B&_). auto. Qed.
Lemma hadd_ok b P v : val32 v -> upd_ok b (hadd v) P (zadd P v).
Proof.
  intros Hv. pose proof (val_hi v Hv). pose proof (Z.mod_pos_bound v 65536 ltac:(lia)). destruct (split_of v Hv) as [E1 E2]. unfold hadd. rewrite E1, E2.
  apply (upd_slot_ok b _ _ (fun p x => p || (x =? v mod 65536))); auto.
  - intros c Hc. apply container_add_spec; auto.
  - rewrite add_new by lia. destruct (cok_single (v mod 65536)) as [C1 C2]; [lia|]. split; auto. intros x Hx. now rewrite C2.
  - intros w Hw. unfold zadd. destruct (Z.eqb_spec (w / 65536) (v / 65536)) as [E|E], (P w); cbn [orb]; auto.
    + apply eq_iff_eq_true. rewrite !Z.eqb_eq. unfold val32 in *. split; intros; [dm|congruence].
    + symmetry. apply Z.eqb_neq. congruence.
Qed.
Lemma hremove_ok b P v : val32 v -> upd_ok b (hremove v) P (zdel P v).
Proof.
  intros Hv. pose proof (val_hi v Hv). pose proof (Z.mod_pos_bound v 65536 ltac:(lia)). destruct (split_of v Hv) as [E1 E2]. unfold hremove. rewrite E1, E2.
  apply (upd_slot_ok b _ _ (fun p x => p && negb (x =? v mod 65536))); auto.
  - intros c Hc. apply (erep_opt _ (fun x => cmem c x && negb (x =? v mod 65536))). apply container_remove_spec; auto.
  - intros x Hx. reflexivity.
  - intros w Hw. unfold zdel. destruct (Z.eqb_spec (w / 65536) (v / 65536)) as [E|E], (P w); cbn [andb]; auto.
    + f_equal. apply eq_iff_eq_true. rewrite !Z.eqb_eq. unfold val32 in *. split; intros; [dm|congruence].
    + symmetry. apply negb_true_iff, Z.eqb_neq. congruence.
Qed.
Lemma hadd_list_ok b vals : forall P, (forall v, In v vals -> val32 v) -> upd_ok b (hadd_list vals) P (zunion P (zlist vals)).
Proof.
  induction vals as [|v vs IH]; intros P Hv.
  - eapply upd_ext; [apply upd_ret|]. intros w _. unfold zunion, zlist. cbn. now rewrite orb_false_r.
  - eapply upd_ext; [apply (upd_bind b (hadd v) (hadd_list vs) P (zadd P v)); [apply hadd_ok, Hv; now left|apply IH; intros w Hw; apply Hv; now right]|].
    intros w _. unfold zunion, zadd, zlist. cbn [existsb]. now rewrite orb_assoc.
Qed.
Lemma hadd_many_ok b vals P : (forall v, In v vals -> val32 v) -> upd_ok b (hadd_many vals) P (zunion P (zlist vals)).
Proof.
  intros Hv. destruct vals as [|v vs].
  - eapply upd_ext; [apply upd_ret|]. intros w _. unfold zunion, zlist. cbn. now rewrite orb_false_r.
  - eapply upd_ext; [apply (hadd_list_ok b (v :: v :: vs) P)|].
    + intros w [<-|Hw]; apply Hv; [now left|auto].
    + intros w _. unfold zunion, zlist. cbn [existsb]. now destruct (w =? v).
Qed.

(** ranges *)
Lemma keys_up_In n : forall k j, In j (keys_up n k) <-> k <= j < k + Z.of_nat n.
Proof. induction n as [|n IH]; intros k j; cbn [keys_up In]; [lia|]. rewrite IH. lia. Qed.
Lemma keys_up_NoDup n : forall k, NoDup (keys_up n k).
Proof. induction n as [|n IH]; intros k; cbn [keys_up]; constructor; auto. rewrite keys_up_In. lia. Qed.
Lemma range_keys_In s e j : val32 s -> val32 e -> s <= e -> In j (range_keys s e) <-> s / 65536 <= j <= e / 65536.
Proof.
  intros Hs He L. unfold range_keys. destruct (split_of s Hs) as [-> _], (split_of e He) as [-> _]. rewrite keys_up_In.
  assert (s / 65536 <= e / 65536) by (apply Z.div_le_mono; lia). lia.
Qed.
Lemma range_keys_existsb s e j l : val32 s -> val32 e -> s <= e -> (forall j, In j l <-> In j (range_keys s e)) ->
  existsb (Z.eqb j) l = (s / 65536 <=? j) && (j <=? e / 65536).
Proof.
  intros Hs He L HL. apply eq_iff_eq_true. rewrite existsb_exists. split.
  - intros (x&Hx&E). apply Z.eqb_eq in E. subst x. apply (proj1 (HL j)) in Hx. apply (proj1 (range_keys_In s e j Hs He L)) in Hx. lia.
  - intros H. exists j. split; [|apply Z.eqb_refl]. apply (proj2 (HL j)). apply (proj2 (range_keys_In s e j Hs He L)). lia.
Qed.
Lemma parts s e k : val32 s -> val32 e -> s <= e -> s / 65536 <= k <= e / 65536 ->
  0 <= part_lo s k <= part_hi e k /\ part_hi e k < 65536 /\ (forall x, 0 <= x < 65536 -> rng s e k x = (part_lo s k <=? x) && (x <=? part_hi e k)).
Proof.
  intros Hs He L Hk. unfold part_lo, part_hi. destruct (split_of s Hs) as [-> ->], (split_of e He) as [-> ->]. unfold val32 in *.
  destruct (part_bounds s e k); try lia. split; auto. split; auto. intros x Hx. apply rng_part; lia.
Qed.
(** an update of the containers with keys in a range *)
Lemma upd_range_ok b ks f absent (op : bool -> bool -> bool) s e P : val32 s -> val32 e -> s <= e -> (forall p, op p false = p) ->
  NoDup ks -> (forall j, In j ks <-> In j (range_keys s e)) ->
  (forall k c, s / 65536 <= k <= e / 65536 -> cok c -> ores (f k c) (fun x => op (cmem c x) (rng s e k x))) ->
  (forall k, s / 65536 <= k <= e / 65536 -> ores (absent k) (fun x => op false (rng s e k x))) ->
  upd_ok b (update_keys ks f absent) P (fun v => op (P v) (zival s (e + 1) v)).
Proof.
  intros Hs He L Hop ND HI Hf Ha es m r F D I V.
  assert (IK : forall k, In k ks -> s / 65536 <= k <= e / 65536) by (intros k Hk; apply (proj1 (HI k)) in Hk; exact (proj1 (range_keys_In s e k Hs He L) Hk)).
  destruct (update_keys_ok b f absent (fun k p x => op p (rng s e k x)) ks) with (es := es) (m := m) (r := r) (F := F) as (m'&es'&r'&A&B&C&E&G); auto.
  - intros k Hk. apply IK in Hk. pose proof (val_hi s Hs). pose proof (val_hi e He). lia.
  - eapply den_bok; eauto.
  - exists m', es', r'. cj. eapply den_of_rspec; [exact G|]. intros v Hv. cbn beta.
    rewrite (range_keys_existsb s e _ ks) by auto. rewrite rng_val. rewrite zival_succ. rewrite <- (den_mem r P v D Hv). unfold mem.
    destruct ((s / 65536 <=? v / 65536) && (v / 65536 <=? e / 65536)) eqn:Q; auto.
    replace ((s <=? v) && (v <=? e)) with false; [now rewrite Hop|]. symmetry. rewrite <- rng_val. apply rng_out; unfold val32 in *; lia.
Qed.
Lemma zival_empty s e v : e < s -> zival s (e + 1) v = false. Proof. unfold zival. lia. Qed.
Lemma hadd_range_closed_ok b P s e : val32 s -> val32 e -> upd_ok b (hadd_range_closed s e) P (zunion P (zival s (e + 1))).
Proof.
  intros Hs He. unfold hadd_range_closed. destruct (Z.ltb_spec e s) as [L|L].
  { eapply upd_ext; [apply upd_ret|]. intros v _. unfold zunion. rewrite zival_empty by auto. now rewrite orb_false_r. }
  apply (upd_range_ok b _ _ _ orb s e P); auto.
  - apply orb_false_r.
  - apply NoDup_rev, keys_up_NoDup.
  - intros j. symmetry. apply in_rev.
  - intros k c Hk Hc. destruct (parts s e k) as (A&B&C); auto. destruct (container_add_range_spec c (part_lo s k) (part_hi e k)) as [R1 R2]; auto; try lia.
    split; auto. intros x Hx. now rewrite R2, C by auto.
  - intros k Hk. destruct (parts s e k) as (A&B&C); auto. destruct (container_from_range_spec (part_lo s k) (part_hi e k + 1) 1) as (c&E&R1&R2); try lia.
    rewrite E. split; auto. intros x Hx. rewrite R2, C by auto. unfold stepin. rewrite Z.mod_1_r. cbn [orb]. change (0 =? 0) with true. rewrite andb_true_r. f_equal. lia.
Qed.
Lemma hremove_range_closed_ok b P s e : val32 s -> val32 e -> upd_ok b (hremove_range_closed s e) P (zdiff P (zival s (e + 1))).
Proof.
  intros Hs He. unfold hremove_range_closed. destruct (Z.ltb_spec e s) as [L|L].
  { eapply upd_ext; [apply upd_ret|]. intros v _. unfold zdiff. rewrite zival_empty by auto. now rewrite andb_true_r. }
  apply (upd_range_ok b _ _ _ (fun p q => p && negb q) s e P); auto.
  - apply andb_true_r.
  - apply keys_up_NoDup.
  - tauto.
  - intros k c Hk Hc. destruct (parts s e k) as (A&B&C); auto. pose proof (container_remove_range_spec c (part_lo s k) (part_hi e k) Hc ltac:(lia) ltac:(lia)) as R.
    destruct (container_remove_range c (part_lo s k) (part_hi e k)) as [c'|].
    + destruct R as [R1 R2]. split; auto. intros x Hx. now rewrite R2, C by auto.
    + intros x Hx. rewrite C by auto. now apply R.
  - intros k Hk x Hx. reflexivity.
Qed.
Lemma nzcard_opt c P : erep c P -> ores (nzcard c) P.
Proof. intros R. unfold nzcard. rewrite card_nonzero by apply R. exact (erep_opt c P R). Qed.
Local Opaque container_range_of_ones container_not container_not_range.
(** what the flip functions do to one container *)
Lemma flip_old s e k c : val32 s -> val32 e -> s <= e -> s / 65536 <= k <= e / 65536 -> cok c ->
  erep (if is_part s e k then container_not_range c (part_lo s k) (part_hi e k + 1) else container_not c) (fun x => xorb (cmem c x) (rng s e k x)).
Proof.
  intros Hs He L Hk Hc. destruct (parts s e k) as (A&B&C); auto. destruct (is_part s e k) eqn:E.
  - destruct (container_not_range_spec c (part_lo s k) (part_hi e k + 1)) as [R1 R2]; auto; try lia. split; auto. intros x Hx. rewrite R2, fliprange_xorb, C by auto. f_equal. f_equal. lia.
  - destruct (container_not_spec c Hc) as [R1 R2]. split; auto. intros x Hx. rewrite R2, C by auto. unfold is_part in E.
    apply orb_false_iff in E as [_ E]. apply negb_false_iff in E. apply andb_true_iff in E as [E1 E2]. apply Z.eqb_eq in E1, E2. rewrite E1, E2.
    replace ((0 <=? x) && (x <=? 65535)) with true by lia. now destruct (cmem c x).
Qed.
Lemma flip_new s e k : val32 s -> val32 e -> s <= e -> s / 65536 <= k <= e / 65536 -> rep (flip_ones s e k) (fun x => rng s e k x).
Proof.
  intros Hs He L Hk. destruct (parts s e k) as (A&B&C); auto. unfold flip_ones. destruct (is_part s e k) eqn:E.
  - destruct (container_range_of_ones_spec (part_lo s k) (part_hi e k + 1)) as [R1 R2]; try lia. split; auto. intros x Hx. rewrite R2, C by auto. f_equal. lia.
  - destruct (container_range_of_ones_spec 0 65536) as [R1 R2]; [lia|lia|]. split; [exact R1|]. intros x Hx. rewrite R2, C by auto. unfold is_part in E.
    apply orb_false_iff in E as [_ E]. apply negb_false_iff in E. apply andb_true_iff in E as [E1 E2]. apply Z.eqb_eq in E1, E2. rewrite E1, E2. lia.
Qed.
Lemma hflip_inplace_closed_ok b cap P s e : val32 s -> val32 e -> upd_ok b (hflip_inplace_closed cap s e) P (zsymm P (zival s (e + 1))).
Proof.
  intros Hs He. unfold hflip_inplace_closed. destruct (Z.ltb_spec e s) as [L|L].
  { eapply upd_ext; [apply upd_ret|]. intros v _. unfold zsymm. rewrite zival_empty by auto. now rewrite xorb_false_r. }
  apply (upd_range_ok b _ _ _ xorb s e P); auto.
  - apply xorb_false_r.
  - apply keys_up_NoDup.
  - tauto.
  - intros k c Hk Hc. rewrite container_inot_eq, container_inot_range_eq. now apply nzcard_opt, flip_old.
  - intros k Hk. destruct (flip_new s e k Hs He L Hk) as [R1 R2]. split; [exact R1|]. intros x Hx. rewrite (R2 x Hx). symmetry. apply xorb_false_l.
Qed.
Lemma half_open_upd b P s e closed (op : zset -> zset -> zset) : 0 <= s -> 0 <= e <= 2^32 ->
  (forall s e, val32 s -> val32 e -> upd_ok b (closed s e) P (op P (zival s (e + 1)))) ->
  (forall I, (forall v, I v = false) -> same_set P (op P I)) ->
  upd_ok b (half_open s e ret closed) P (op P (zival s e)).
Proof.
  intros Hs He H H0. unfold half_open. destruct ((e <=? s) || (2^32 <? s)) eqn:E.
  - eapply upd_ext; [apply upd_ret|]. apply H0. intros v. unfold zival. lia.
  - assert (A : val32 s) by (red; lia). assert (B : val32 (e - 1)) by (red; lia).
    replace (u32 s) with s by (symmetry; apply Z.mod_small; exact A). replace (u32 (e - 1)) with (e - 1) by (symmetry; apply Z.mod_small; exact B).
    replace (zival s e) with (zival s (e - 1 + 1)) by (f_equal; lia). now apply H.
Qed.
Lemma half_open_new b P s e none closed (op : zset -> zset -> zset) : 0 <= s -> 0 <= e <= 2^32 ->
  (forall s e, val32 s -> val32 e -> new_ok b (closed s e) P (op P (zival s (e + 1)))) -> new_ok b none P P ->
  (forall I, (forall v, I v = false) -> same_set P (op P I)) ->
  new_ok b (half_open s e none closed) P (op P (zival s e)).
Proof.
  intros Hs He H HN H0. unfold half_open. destruct ((e <=? s) || (2^32 <? s)) eqn:E.
  - eapply new_ext; [exact HN|]. apply H0. intros v. unfold zival. lia.
  - assert (A : val32 s) by (red; lia). assert (B : val32 (e - 1)) by (red; lia).
    replace (u32 s) with s by (symmetry; apply Z.mod_small; exact A). replace (u32 (e - 1)) with (e - 1) by (symmetry; apply Z.mod_small; exact B).
    replace (zival s e) with (zival s (e - 1 + 1)) by (f_equal; lia). now apply H.
Qed.
Lemma clear_upd b P : upd_ok b (fun es => _ <- ra_clear_containers es ;; ret []) P zempty.
Proof.
  intros es m r F D I V. destruct (clear_ok b es m r F I V) as (m'&E&I'&K). exists m', [], []. unfold bind. rewrite E.
  split; [reflexivity|]. split; [exact I'|]. split; [exact K|]. split; [reflexivity|apply den_new].
Qed.
Lemma run_optimize_upd b P : upd_ok b (map_writable convert_run_optimize) P P.
Proof.
  intros es m r F D I V. pose proof (den_bok _ _ D) as B.
  destruct (map_writable_ok b convert_run_optimize cok cok (fun c H => convert_run_optimize_spec c H) es 0 m r F B I V) as (m'&E&I'&K&R).
  eexists m', _, _. split; [exact E|]. split; [eapply inv_ext; [exact I'|intros l; rsimp; rewrite hs_own; lia]|]. split; [exact K|]. split; [apply hval_own|].
  eapply den_self_rspec; eauto.
Qed.
Lemma remove_run_upd b P : upd_ok b (map_runs remove_run) P P.
Proof.
  intros es m r F D I V. pose proof (den_bok _ _ D) as B.
  destruct (map_runs_ok b remove_run (fun c H => remove_run_spec c H) es 0 m r F B I V) as (m'&es'&r'&E&I'&K&V'&R).
  exists m', es', r'. cj. eapply den_self_rspec; eauto.
Qed.
Lemma copy_new b P : new_ok b (ra_append_copy_range b) P P.
Proof.
  intros es m r F D I V. destruct (copy_range_ok b es m r F I V) as (m'&a&c&E&I'&K&V1&V2). exists m', a, c, r. auto 10.
Qed.

(** flipping into a new bitmap *)
Lemma split_lt_spec k es : forall a b, split_lt k es = (a, b) ->
  es = a ++ b /\ (forall p, In p a -> fst p < k) /\ (forall p t, b = p :: t -> k <= fst p).
Proof.
  induction es as [|[k' h] t IH]; intros a b E; cbn [split_lt] in E.
  - injection E as <- <-. split; auto. split; [intros p []|discriminate].
  - destruct (Z.ltb_spec k' k).
    + destruct (split_lt k t) as [a' b'] eqn:Es. injection E as <- <-. destruct (IH a' b' eq_refl) as (A&B&C). split; [cbn; now rewrite A at 1|].
      split; auto. intros p [<-|Hp]; auto.
    + injection E as <- <-. split; auto. split; [intros p []|]. intros p t' Ep. injection Ep as <- <-. auto.
Qed.
Lemma hval_app m a : forall b r, hval m (a ++ b) = Some r -> exists ra rb, r = ra ++ rb /\ hval m a = Some ra /\ hval m b = Some rb.
Proof.
  induction a as [|[k h] t IH]; intros b r V.
  - exists [], r. auto.
  - cbn [app] in V. apply hval_cons in V as (c&r'&->&U&V). destruct (IH b r' V) as (ra&rb&->&V1&V2). exists ((k, c) :: ra), rb. split; auto. split; auto. now apply hval_cons_eq.
Qed.
Lemma hval_app_eq m a : forall b ra rb, hval m a = Some ra -> hval m b = Some rb -> hval m (a ++ b) = Some (ra ++ rb).
Proof.
  induction a as [|[k h] t IH]; intros b ra rb V1 V2.
  - injection V1 as <-. auto.
  - apply hval_cons in V1 as (c&r'&->&U&V). cbn [app]. apply hval_cons_eq; auto.
Qed.
Lemma hval_keys m es : forall r, hval m es = Some r -> rkeys r = map fst es.
Proof. induction es as [|[k h] t IH]; intros r V; [injection V as <-; auto|]. apply hval_cons in V as (c&r'&->&U&V). cbn. f_equal. auto. Qed.
Lemma look_slot_val m k es : forall r, hval m es = Some r ->
  match look_slot k es with Some h => exists c, unwrap m h = Some c /\ look r k = Some c | None => look r k = None end.
Proof.
  induction es as [|[k' h] t IH]; intros r V.
  - injection V as <-. reflexivity.
  - apply hval_cons in V as (c&r'&->&U&V). cbn [look_slot look]. destruct (Z.eqb_spec k k'); [exists c; auto|]. now apply IH.
Qed.
Lemma flip_mid_ok s e es lo hi : val32 s -> val32 e -> s <= e -> lo = s / 65536 -> hi = e / 65536 -> 
  forall n k m r, bok r -> hval m es = Some r -> lo <= k -> k + Z.of_nat n = hi + 1 ->
  exists rm, flip_mid s e n k es m = Some (m, own_all rm) /\
    forall t P, bmrep cok (hi + 1) t P -> (forall j x, k <= j <= hi -> 0 <= x < 65536 -> P j x = xorb (km r j x) (rng s e j x)) -> bmrep cok k (rm ++ t) P.
Proof.
  intros Hs He L Elo Ehi. pose proof (val_hi s Hs). pose proof (val_hi e He).
  induction n as [|n IH]; intros k m r B V Hk Hn; cbn [flip_mid].
  - exists []. split; [reflexivity|]. intros t P R _. cbn [app]. replace k with (hi + 1) by lia. exact R.
  - assert (Hkk : s / 65536 <= k <= e / 65536) by lia.
    destruct (IH (k + 1) m r B V) as (rm&E&R); [lia|lia|].
    set (o := match look r k with Some c => nzcard (if is_part s e k then container_not_range c (part_lo s k) (part_hi e k + 1) else container_not c) | None => Some (flip_ones s e k) end).
    exists (emit k o rm). split.
    + pose proof (look_slot_val m k es r V) as LS. destruct (look_slot k es) as [h|].
      * destruct LS as (c&U&Lk). unfold bind. rewrite (load_ok _ _ _ U). unfold ret at 1. rewrite E. unfold o. rewrite Lk. destruct (nzcard _); reflexivity.
      * unfold bind, ret. rewrite E. unfold o. rewrite LS. reflexivity.
    + intros t P Rt HP. replace (emit k o rm ++ t) with (emit k o (rm ++ t)) by (destruct o; reflexivity).
      apply bmrep_emit.
      * lia.
      * assert (O : ores o (fun x => xorb (km r k x) (rng s e k x))).
        { unfold o, km. destruct (look r k) as [c|] eqn:Lk.
          - apply nzcard_opt, flip_old; auto. apply (gok_look cok 0 r k c B Lk).
          - destruct (flip_new s e k Hs He L Hkk) as [R1 R2]. split; [exact R1|]. intros x Hx. rewrite (R2 x Hx). symmetry. apply xorb_false_l. }
        clearbody o. destruct o as [c|]; cbn [ores] in O.
        -- destruct O as [O1 O2]. split; [exact O1|]. intros x Hx. rewrite (O2 x Hx). symmetry. apply HP; lia.
        -- intros x Hx. rewrite (HP k x) by lia. now apply O.
      * intros j x Hj Hx. lia.
      * apply R; [exact Rt|]. intros j x Hj Hx. apply HP; lia.
Qed.
Lemma hflip_closed_ok b P s e : val32 s -> val32 e -> new_ok b (hflip_closed b s e) P (zsymm P (zival s (e + 1))).
Proof.
  intros Hs He. unfold hflip_closed. destruct (Z.ltb_spec e s) as [L|L].
  { eapply new_ext; [apply copy_new|]. intros v _. unfold zsymm. rewrite zival_empty by auto. now rewrite xorb_false_r. }
  intros es m r F D I V. pose proof (den_bok _ _ D) as B. destruct (split_of s Hs) as [Es _], (split_of e He) as [Ee _]. rewrite Es, Ee.
  pose proof (val_hi s Hs) as Bs. pose proof (val_hi e He) as Be. assert (Lse : s / 65536 <= e / 65536) by (apply Z.div_le_mono; lia).
  destruct (split_lt (s / 65536) es) as [pre rest] eqn:S1. destruct (split_lt (e / 65536 + 1) rest) as [mid post] eqn:S2.
  apply split_lt_spec in S1 as (A1&A2&A3). apply split_lt_spec in S2 as (A4&A5&A6). subst es.
  destruct (hval_app m pre rest r V) as (r1&r23&->&V1&V23). rewrite A4 in V23. destruct (hval_app m mid post r23 V23) as (r2&r3&->&V2&V3).
  assert (I1 : inv b m (hs pre ++ hs mid ++ hs post ++ F)) by (rewrite A4 in I; iv I).
  destruct (copy_range_ok b pre m r1 (hs mid ++ hs post ++ F) I1 V1) as (m1&pre'&ans1&E1&J1&K1&W1&U1).
  assert (V2' : hval m1 mid = Some r2) by hk K1 V2. assert (V3' : hval m1 post = Some r3) by hk K1 V3.
  assert (I2 : inv b m1 (hs post ++ hs pre' ++ hs ans1 ++ hs mid ++ F)) by iv J1.
  destruct (copy_range_ok b post m1 r3 _ I2 V3') as (m2&post'&ans3&E3&J2&K2&W3&U3).
  unfold bok in B. apply gok_app in B as (B1&B23&B4). apply gok_app in B23 as (B2&B3&B5).
  assert (B2' : bok r2) by exact B2.
  destruct (flip_mid_ok s e mid (s / 65536) (e / 65536) Hs He L eq_refl eq_refl (Z.to_nat (e / 65536 - s / 65536 + 1)) (s / 65536) m1 r2 B2' V2') as (rm&Em&Rm); [lia|lia|].
  exists m2, (pre' ++ mid ++ post'), (ans1 ++ own_all rm ++ ans3), (r1 ++ rm ++ r3).
  split; [unfold bind; rewrite E1, Em, E3; reflexivity|].
  split; [eapply inv_ext; [exact J2|intros l; rsimp; rewrite ?hs_own; lia]|].
  split; [kt K1 K2|].
  split; [apply hval_app_eq; [hk K2 W1|apply hval_app_eq; [hk K2 V2'|exact W3]]|].
  split; [apply hval_app_eq; [hk K2 U1|apply hval_app_eq; [apply hval_own|exact U3]]|].
  (* keys *)
  assert (Q1 : forall y, In y (rkeys r1) -> y < s / 65536).
  { intros y Hy. rewrite (hval_keys m pre r1 V1) in Hy. apply in_map_iff in Hy as (p&<-&Hp). now apply A2. }
  assert (Q2 : forall y, In y (rkeys r2) -> y < e / 65536 + 1).
  { intros y Hy. rewrite (hval_keys m mid r2 V2) in Hy. apply in_map_iff in Hy as (p&<-&Hp). now apply A5. }
  assert (Q3 : gok cok (e / 65536 + 1) r3).
  { destruct r3 as [|[k3 c3] t3]; [apply gok_nil|]. apply gok_cons in B3 as (C1&C2&C3). apply gok_cons. split; [|auto].
    pose proof (hval_keys m post _ V3) as HK. destruct post as [|[kp hp] tp]; [discriminate|]. injection HK as HK1 HK2. specialize (A6 _ _ eq_refl). cbn [fst] in A6. lia. }
  assert (Q23 : forall y, In y (rkeys r2) -> s / 65536 <= y).
  { intros y Hy. pose proof (hval_keys m mid r2 V2) as HK. destruct r2 as [|[k2 c2] t2]; [destruct Hy|]. destruct mid as [|[kp hp] tp]; [discriminate|].
    injection HK as HK1 HK2. subst kp. assert (s / 65536 <= k2) by (apply (A3 (k2, hp) (tp ++ post)); rewrite A4; reflexivity).
    destruct Hy as [<-|Hy]; [auto|]. apply gok_cons in B2 as (C1&C2&C3). pose proof (inb_In _ _ _ _ (proj1 (proj2 C3)) Hy). lia. }
  assert (NN3 : forall j, j <= e / 65536 -> ~ In j (rkeys r3)).
  { intros j Hj Hin. pose proof (inb_In _ _ _ _ (proj1 (proj2 Q3)) Hin). lia. }
  eapply den_of_rspec with (P := fun j x => xorb (km (r1 ++ r2 ++ r3) j x) (rng s e j x)).
  - apply (bmrep_app cok 0 (s / 65536) r1 (rm ++ r3)).
    + exact B1.
    + exact Q1.
    + lia.
    + intros j x Hj Hx. rewrite rng_out by (unfold val32 in *; lia). rewrite xorb_false_r. rewrite km_app_l; auto. rewrite rkeys_app. intros Hin.
      apply in_app_or in Hin as [Hin|Hin]; [specialize (Q23 j Hin); lia|apply (NN3 j); auto; lia].
    + apply Rm.
      * split; [exact Q3|]. intros j x Hj Hx. rewrite rng_out by (unfold val32 in *; lia). rewrite xorb_false_r. rewrite km_app_r, km_app_r; auto.
        -- intros Hin. specialize (Q2 j Hin). lia.
        -- intros Hin. specialize (Q1 j Hin). lia.
      * intros j x Hj Hx. f_equal. rewrite km_app_r by (intros Hin; specialize (Q1 j Hin); lia). apply km_app_l. apply NN3. lia.
  - intros v Hv. cbn beta. rewrite rng_val. unfold zsymm. rewrite zival_succ. f_equal. now apply (den_mem (r1 ++ r2 ++ r3) P v).
Qed.
(** shifting *)
Lemma hshift_ok b co es : forall m r F, inv b m (hs es ++ F) -> hval m es = Some r ->
  exists m' es' ans, hshift_keys b co es m = Some (m', (es', ans)) /\ inv b m' (hs es' ++ hs ans ++ F) /\ keeps F m m' /\ hval m' es' = Some r /\
    hval m' ans = Some (flat_map (fun p => let key := fst p + co in if (key <? 0) || (65536 <=? key) then [] else [(key, snd p)]) r).
Proof.
  induction es as [|[k h] t IH]; intros m r F I V; cbn [hshift_keys].
  - injection V as <-. exists m, [], []. split; [reflexivity|]. split; [exact I|]. split; [apply keeps_refl|auto].
  - apply hval_cons in V as (c&r'&->&U&V). cbn [flat_map fst snd]. cbn zeta. destruct ((k + co <? 0) || (65536 <=? k + co)).
    + assert (I' : inv b m (hs t ++ h :: F)) by iv I. destruct (IH m r' (h :: F) I' V) as (m'&es'&ans&E&J&K&V1&V2).
      exists m', ((k, h) :: es'), ans. unfold bind. rewrite E. split; [reflexivity|]. split; [iv J|]. split; [kk K|]. split; [|exact V2]. apply hval_cons_eq; auto. uk K U.
    + destruct (append_copy_ok b m h c (hs t ++ F) I U) as (m1&h1&h2&E1&J1&K1&U1&U2). assert (V' : hval m1 t = Some r') by hk K1 V.
      assert (I' : inv b m1 (hs t ++ h1 :: h2 :: F)) by iv J1. destruct (IH m1 r' (h1 :: h2 :: F) I' V') as (m'&es'&ans&E&J&K&V1&V2).
      exists m', ((k, h1) :: es'), ((k + co, h2) :: ans). unfold bind. rewrite E1, E. split; [reflexivity|]. split; [iv J|]. split; [kt K1 K|].
      split; [apply hval_cons_eq; auto; uk K U1|]. cbn [app]. apply hval_cons_eq; auto. uk K U2.
Qed.
Lemma hadd_offset_ok b cap P off : new_ok b (hadd_offset cap b off) P (zshift (in32 P) off).
Proof.
  intros es m r F D I V. pose proof (den_add_offset cap r P off D) as D'. unfold hadd_offset. unfold roaring_bitmap_add_offset in D' |- *.
  destruct (off =? 0).
  - destruct (copy_range_ok b es m r F I V) as (m'&a&c&E&I'&K&V1&V2). exists m', a, c, r. auto 10.
  - cbn zeta in D' |- *. destruct (u16 (off - Z.shiftr off 16 * 65536) =? 0) eqn:Eo.
    + destruct (hshift_ok b (Z.shiftr off 16) es m r F I V) as (m'&es'&ans&E&J&K&V1&V2). eexists m', es', ans, _. split; [exact E|]. split; [exact J|]. split; [exact K|]. split; [exact V1|]. split; [exact V2|exact D'].
    + eexists m, es, _, _. unfold bind. rewrite (load_all_ok es m r V). split; [reflexivity|].
      split; [eapply inv_ext; [exact I|intros l; rsimp; rewrite hs_own; lia]|]. split; [apply keeps_refl|]. split; [exact V|]. split; [apply hval_own|exact D'].
Qed.

(** ** Proofs: two bitmaps *)
Definition bin_ok (b : bool) (e : hmap -> hmap -> M (hmap * hmap * hmap)) (P Q R : zset) : Prop :=
  forall es1 es2 m r1 r2 F, denotes r1 P -> denotes r2 Q -> inv b m (hs es1 ++ hs es2 ++ F) -> hval m es1 = Some r1 -> hval m es2 = Some r2 ->
  exists m' a c ans r, e es1 es2 m = Some (m', (a, c, ans)) /\ inv b m' (hs a ++ hs c ++ hs ans ++ F) /\ keeps F m m' /\
    hval m' a = Some r1 /\ hval m' c = Some r2 /\ hval m' ans = Some r /\ denotes r R.
Definition self_ok (e : hmap -> M hmap) (P R : zset) : Prop :=
  forall es m r, denotes r P -> hval m es = Some r -> exists ans, e es m = Some (m, own_all ans) /\ denotes ans R.
Definition in_ok (b : bool) (e : hmap -> hmap -> M (hmap * hmap)) (P Q R : zset) : Prop :=
  forall es1 es2 m r1 r2 F, denotes r1 P -> denotes r2 Q -> inv b m (hs es1 ++ hs es2 ++ F) -> hval m es1 = Some r1 -> hval m es2 = Some r2 ->
  exists m' a c r, e es1 es2 m = Some (m', (a, c)) /\ inv b m' (hs a ++ hs c ++ F) /\ keeps F m m' /\
    hval m' a = Some r /\ hval m' c = Some r2 /\ denotes r R.
Lemma den_bin r1 r2 r P Q f : denotes r1 P -> denotes r2 Q -> rspec r (fun k x => f (km r1 k x) (km r2 k x)) -> denotes r (fun v => f (P v) (Q v)).
Proof. intros D1 D2 R. eapply den_of_rspec; [exact R|]. intros v Hv. cbn beta. rewrite <- (den_mem r1 P v D1 Hv), <- (den_mem r2 Q v D2 Hv). reflexivity. Qed.
Lemma bin_ok_of b inl op cl cr f P Q : copy_ok b (inl b) -> opok cok cok cok f op -> (forall p, f p false = cl && p) -> (forall p, f false p = cr && p) ->
  bin_ok b (merge_new inl op cl cr b b) P Q (fun v => f (P v) (Q v)).
Proof.
  intros Hin Hop Hl Hr es1 es2 m r1 r2 F D1 D2 I V1 V2.
  destruct (merge_new_ok b inl op cl cr cok cok cok f Hin Hop Hl Hr (fun _ c H => H) (fun _ c H => H) es1 es2 0 m r1 r2 F (den_bok _ _ D1) (den_bok _ _ D2) I V1 V2)
    as (m'&a&c&ans&r&E&J&K&W1&W2&W&R).
  exists m', a, c, ans, r. split; [exact E|]. split; [exact J|]. split; [exact K|]. split; [exact W1|]. split; [exact W2|]. split; [exact W|]. eapply den_bin; eauto.
Qed.
Lemma self_ok_of op f P : opok cok cok cok f op -> f false false = false -> self_ok (merge_self op) P (fun v => f (P v) (P v)).
Proof.
  intros Hop Hf es m r D V. destruct (merge_self_ok op cok cok f Hop Hf es 0 m r (den_bok _ _ D) V) as (ans&r'&E&->&R).
  exists ans. split; [exact E|]. eapply den_bin; eauto.
Qed.
Lemma in_ok_of b act keepl cr f P Q : act_ok b cok cok cok f act -> (forall p, f p false = keepl && p) -> (forall p, f false p = cr && p) ->
  in_ok b (merge_in act keepl cr b) P Q (fun v => f (P v) (Q v)).
Proof.
  intros Ha Hl Hr es1 es2 m r1 r2 F D1 D2 I V1 V2.
  destruct (merge_in_ok b act keepl cr cok cok cok f Ha Hl Hr (fun _ c H => H) (fun _ c H => H) es1 es2 0 m r1 r2 F (den_bok _ _ D1) (den_bok _ _ D2) I V1 V2)
    as (m'&a&c&r&E&J&K&W&W2&R).
  exists m', a, c, r. split; [exact E|]. split; [exact J|]. split; [exact K|]. split; [exact W|]. split; [exact W2|]. eapply den_bin; eauto.
Qed.
Definition fdiff (p q : bool) : bool := p && negb q.
Lemma op_and : opok cok cok cok andb (fun _ c1 c2 => nonzero (container_and c1 c2)).
Proof. intros k c1 c2 A B. apply (erep_opt _ (fun x => cmem c1 x && cmem c2 x)). now apply container_and_spec. Qed.
Lemma op_or : opok cok cok cok orb (fun _ c1 c2 => Some (container_or c1 c2)).
Proof. intros k c1 c2 A B. exact (container_or_spec c1 c2 A B). Qed.
Lemma op_xor : opok cok cok cok xorb (fun _ c1 c2 => nonzero (container_xor c1 c2)).
Proof. intros k c1 c2 A B. apply (erep_opt _ (fun x => xorb (cmem c1 x) (cmem c2 x))). now apply container_xor_spec. Qed.
Lemma op_andnot : opok cok cok cok fdiff (fun _ c1 c2 => nonzero (container_andnot c1 c2)).
Proof. intros k c1 c2 A B. apply (erep_opt _ (fun x => cmem c1 x && negb (cmem c2 x))). now apply container_andnot_spec. Qed.
Lemma hand_ok b P Q : bin_ok b (hand b b) P Q (zinter P Q).
Proof. apply bin_ok_of with (f := andb); [apply get_copy_ok|apply op_and|intros []; auto|intros []; auto]. Qed.
Lemma hor_ok b P Q : bin_ok b (hor b b) P Q (zunion P Q).
Proof. apply bin_ok_of with (f := orb); [apply get_copy_ok|apply op_or|intros []; auto|intros []; auto]. Qed.
Lemma hxor_ok b P Q : bin_ok b (hxor b b) P Q (zsymm P Q).
Proof. apply bin_ok_of with (f := xorb); [apply get_copy_ok|apply op_xor|intros []; auto|intros []; auto]. Qed.
Lemma handnot_ok b P Q : bin_ok b (handnot b b) P Q (zdiff P Q).
Proof. apply bin_ok_of with (f := fdiff); [apply append_copy_ok|apply op_andnot|intros []; auto|intros []; auto]. Qed.
Lemma hand_inplace_ok b P Q : in_ok b (hand_inplace b) P Q (zinter P Q).
Proof.
  apply in_ok_of with (f := andb); [|intros []; auto|intros []; auto]. apply act_op_ok. intros sh k c1 c2 A B.
  pose proof (op_and k c1 c2 A B) as R. destruct sh; [exact R|]. cbn beta. rewrite container_iand_eq. exact R.
Qed.
Lemma hor_inplace_ok b cap P Q : in_ok b (hor_inplace cap b) P Q (zunion P Q).
Proof.
  apply in_ok_of with (f := orb); [|intros []; auto|intros []; auto]. apply act_or_ok.
  - intros c1 c2 A B Fu. split; auto. intros x Hx. now rewrite (proj1 (container_is_full_spec c1 A) Fu x Hx).
  - intros sh k c1 c2 A B _. destruct sh; [exact (container_or_spec c1 c2 A B)|exact (container_ior_spec (cap k) c1 c2 A B)].
Qed.
Lemma hxor_inplace_ok b P Q : in_ok b (hxor_inplace b) P Q (zsymm P Q).
Proof.
  apply in_ok_of with (f := xorb); [|intros []; auto|intros []; auto]. apply act_op_ok. intros sh k c1 c2 A B.
  pose proof (op_xor k c1 c2 A B) as R. destruct sh; [exact R|]. cbn beta. rewrite container_ixor_eq. exact R.
Qed.
Lemma handnot_inplace_ok b P Q : in_ok b (handnot_inplace b) P Q (zdiff P Q).
Proof.
  apply in_ok_of with (f := fdiff); [|intros []; auto|intros []; auto]. apply act_op_ok. intros sh k c1 c2 A B.
  apply (erep_opt _ (fun x => cmem c1 x && negb (cmem c2 x))). destruct sh; [now apply container_andnot_spec|now apply container_iandnot_spec].
Qed.
Lemma lazy_ior_act_ok b cap : act_ok b lne cok lne orb (lazy_ior_act cap).
Proof.
  pose proof (opok_lazy_ior cap true cok cok_lne) as H. apply act_lazy_or_ok.
  - intros c1 c2 A B Fu. specialize (H 0 c1 c2 A B). cbn beta in H. rewrite Fu in H. exact H.
  - intros k c1 c2 A B Fu. specialize (H k c1 c2 A B). cbn beta in H. rewrite Fu in H. exact H.
Qed.
Lemma lazy_ixor_act_ok b : act_ok b lne cok lne xorb lazy_ixor_act.
Proof. apply act_op_ok. intros sh. exact (opok_lazy_ixor (fun _ => sh)). Qed.

(** ** Proofs: all bitmaps *)
(** all slots of the bitmaps 0 .. N-1 *)
Fixpoint allh (reg : nat -> hbm) (N : nat) : list handle :=
  match N with O => [] | S n => allh reg n ++ hs (hsl (reg n)) end.
Lemma allh_put_out reg d x N : (N <= d)%nat -> allh (put reg d x) N = allh reg N.
Proof. induction N as [|n IH]; intros H; cbn [allh]; auto. rewrite IH by lia. unfold put at 1. destruct (Nat.eqb_spec n d); [lia|auto]. Qed.
Lemma put_same {A} (S : nat -> A) d x : put S d x d = x. Proof. unfold put. now rewrite Nat.eqb_refl. Qed.
Lemma put_other {A} (S : nat -> A) d x i : i <> d -> put S d x i = S i. Proof. intros H. unfold put. destruct (Nat.eqb_spec i d); [contradiction|auto]. Qed.
Lemma refs_allh_put l reg d x N : (d < N)%nat -> refs l (allh (put reg d x) N) = refs l (allh reg N) - refs l (hs (hsl (reg d))) + refs l (hs (hsl x)).
Proof.
  induction N as [|n IH]; intros H; [lia|]. cbn [allh]. rewrite !refs_app. destruct (Nat.eq_dec d n) as [->|D].
  - rewrite put_same, allh_put_out by lia. lia.
  - rewrite IH by lia. rewrite put_other by lia. lia.
Qed.
Lemma refs_allh_in l reg i N : (i < N)%nat -> refs l (hs (hsl (reg i))) <= refs l (allh reg N).
Proof.
  induction N as [|n IH]; intros H; [lia|]. cbn [allh]. rewrite !refs_app. pose proof (refs_nonneg l (hs (hsl (reg n)))). pose proof (refs_nonneg l (allh reg n)).
  destruct (Nat.eq_dec i n) as [->|D]; [lia|]. specialize (IH ltac:(lia)). lia.
Qed.
Lemma refs_allh_grow l reg N N' : (forall i, (N <= i)%nat -> hsl (reg i) = []) -> (N <= N')%nat -> refs l (allh reg N') = refs l (allh reg N).
Proof.
  intros H L. induction N' as [|n IH]; [now replace N with O by lia|]. destruct (Nat.eq_dec N (S n)) as [->|D]; auto.
  cbn [allh]. rewrite refs_app, IH by lia. rewrite H by lia. cbn. lia.
Qed.
(** The state of a run: beyond N all bitmaps are empty, every flag is b, the counters
    account for the slots of all bitmaps and the handles T, bitmap i holds the
    containers V i. *)
Definition wok (N : nat) (b : bool) (m : smem) (reg : nat -> hbm) (V : nat -> bitmap) (T : list handle) : Prop :=
  (forall i, (N <= i)%nat -> hsl (reg i) = []) /\ (forall i, hcow (reg i) = b) /\ inv b m (allh reg N ++ T) /\
  forall i, hval m (hsl (reg i)) = Some (V i).
Lemma wok_grow N N' b m reg V T : wok N b m reg V T -> (N <= N')%nat -> wok N' b m reg V T.
Proof.
  intros (A&B&C&D) L. split; [intros i Hi; apply A; lia|]. split; auto. split; auto.
  eapply inv_ext; [exact C|]. intros l. rewrite !refs_app. now rewrite (refs_allh_grow l reg N N').
Qed.
Lemma wok_ext N b m reg V V' T : wok N b m reg V T -> (forall i, V' i = V i) -> wok N b m reg V' T.
Proof. intros (A&B&C&D) H. split; auto. split; auto. split; auto. intros i. now rewrite H. Qed.
Notation blank b := (HB b []).
Lemma open1 N b m reg V T d : wok N b m reg V T -> (d < N)%nat -> inv b m (hs (hsl (reg d)) ++ allh (put reg d (blank b)) N ++ T).
Proof.
  intros (A&B&C&D) L. eapply inv_ext; [exact C|]. intros l. rewrite !refs_app. rewrite refs_allh_put by auto. cbn [hsl]. rsimp. lia.
Qed.
Lemma close1 N b m reg V T m' d es' r' T' : wok N b m reg V T -> (d < N)%nat -> inv b m' (hs es' ++ allh (put reg d (blank b)) N ++ T') ->
  keeps (allh (put reg d (blank b)) N) m m' -> hval m' es' = Some r' -> wok N b m' (put reg d (HB b es')) (put V d r') T'.
Proof.
  intros (A&B&C&D) L I K Vd. split; [intros i Hi; rewrite put_other by lia; now apply A|]. split; [intros i; unfold put; destruct (Nat.eqb i d); auto|].
  split; [eapply inv_ext; [exact I|intros l; rewrite !refs_app; rewrite !refs_allh_put by auto; cbn [hsl]; rsimp; lia]|].
  intros i. destruct (Nat.eq_dec i d) as [->|Ni]; [now rewrite !put_same|]. rewrite !put_other by auto.
  destruct (Nat.lt_ge_cases i N) as [Li|Li].
  - etransitivity; [eapply hval_keeps; [exact K|]|apply D]. intros l. pose proof (refs_allh_in l (put reg d (blank b)) i N Li) as H. now rewrite put_other in H.
  - specialize (D i). rewrite A in D |- * by auto. exact D.
Qed.
Lemma open2 N b m reg V T s t : wok N b m reg V T -> (s < N)%nat -> (t < N)%nat -> s <> t ->
  inv b m (hs (hsl (reg s)) ++ hs (hsl (reg t)) ++ allh (put (put reg s (blank b)) t (blank b)) N ++ T).
Proof.
  intros (A&B&C&D) L1 L2 NE. eapply inv_ext; [exact C|]. intros l. rewrite !refs_app. rewrite !refs_allh_put by auto. rewrite put_other by auto. cbn [hsl]. rsimp. lia.
Qed.
Lemma close2 N b m reg V T m' s t es1 es2 r1 r2 T' : wok N b m reg V T -> (s < N)%nat -> (t < N)%nat -> s <> t ->
  inv b m' (hs es1 ++ hs es2 ++ allh (put (put reg s (blank b)) t (blank b)) N ++ T') ->
  keeps (allh (put (put reg s (blank b)) t (blank b)) N) m m' -> hval m' es1 = Some r1 -> hval m' es2 = Some r2 ->
  wok N b m' (put (put reg s (HB b es1)) t (HB b es2)) (put (put V s r1) t r2) T'.
Proof.
  intros (A&B&C&D) L1 L2 NE I K V1 V2. split; [intros i Hi; rewrite !put_other by lia; now apply A|].
  split; [intros i; unfold put; destruct (Nat.eqb i t); auto; destruct (Nat.eqb i s); auto|].
  split; [eapply inv_ext; [exact I|intros l; rewrite !refs_app; rewrite !refs_allh_put by auto; rewrite !(put_other reg s _ t) by auto; cbn [hsl]; rsimp; lia]|].
  intros i. destruct (Nat.eq_dec i t) as [->|Nt]; [now rewrite !put_same|]. rewrite !(put_other _ t) by auto.
  destruct (Nat.eq_dec i s) as [->|Ns]; [now rewrite !put_same|]. rewrite !put_other by auto.
  destruct (Nat.lt_ge_cases i N) as [Li|Li].
  - etransitivity; [eapply hval_keeps; [exact K|]|apply D]. intros l. pose proof (refs_allh_in l (put (put reg s (blank b)) t (blank b)) i N Li) as H. now rewrite !put_other in H by auto.
  - specialize (D i). rewrite A in D |- * by auto. exact D.
Qed.
Lemma put_id {A} (V : nat -> A) s i : put V s (V s) i = V i.
Proof. unfold put. destruct (Nat.eqb_spec i s); subst; auto. Qed.

(** ** Proofs: the calls *)
(** the call succeeds, answers a, gives bitmap d a value that is P and changes no other *)
Definition goes (b : bool) (d : nat) (V : nat -> bitmap) (P : zset) (a : out) (res : step_res) : Prop :=
  exists N w' r, res = Some (w', a) /\ wok N b (wm w') (wr w') (put V d r) [] /\ denotes r P.
Lemma free_put_ok N b w V d ans r P : wok N b (wm w) (wr w) V (hs ans) -> hval (wm w) ans = Some r -> denotes r P ->
  goes b d V P RNone (free_put d (HB b ans) w).
Proof.
  intros H U D. apply (wok_grow N (Nat.max N (S d))) in H; [|lia]. set (N' := Nat.max N (S d)) in *. assert (L : (d < N')%nat) by lia. clearbody N'.
  pose proof (open1 _ _ _ _ _ _ d H L) as I. pose proof H as (_&_&_&HW).
  destruct (clear_ok b (hsl (wr w d)) (wm w) (V d) _ I (HW d)) as (m'&E&J&K). exists N', (W m' (put (wr w) d (HB b ans))), r.
  split; [unfold free_put; now rewrite E|]. split; [|exact D]. cbn [wm wr]. eapply close1; [exact H|exact L| | |].
  - iv J.
  - kk K.
  - hk K U.
Qed.
Lemma fresh_ok N b w V d r P : wok N b (wm w) (wr w) V [] -> denotes r P -> goes b d V P RNone (fresh d b r w).
Proof.
  intros H D. unfold fresh. apply (free_put_ok N b w V d (own_all r) r P); [|apply hval_own|exact D].
  destruct H as (A&B&C&E). split; auto. split; auto. split; auto. eapply inv_ext; [exact C|]. intros l. rsimp. rewrite hs_own. lia.
Qed.
Lemma upd_reg_ok N b w V d e a P Q : wok N b (wm w) (wr w) V [] -> denotes (V d) P -> upd_ok b e P Q -> goes b d V Q (a (V d)) (upd_reg d e a w).
Proof.
  intros H D U. apply (wok_grow N (Nat.max N (S d))) in H; [|lia]. set (N' := Nat.max N (S d)) in *. assert (L : (d < N')%nat) by lia. clearbody N'.
  pose proof (open1 _ _ _ _ _ _ d H L) as I. pose proof H as (_&Fl&_&HW).
  destruct (U (hsl (wr w d)) (wm w) (V d) _ D I (HW d)) as (m'&es'&r'&E&J&K&Vr&Dr). exists N', (W m' (put (wr w) d (HB b es'))), r'.
  split; [unfold upd_reg; rewrite (load_all_ok _ _ _ (HW d)), E, Fl; reflexivity|]. split; [|exact Dr]. cbn [wm wr]. eapply close1; [exact H|exact L|exact J| |exact Vr]. kk K.
Qed.
Lemma new_reg_ok N b w V d s e P Q : wok N b (wm w) (wr w) V [] -> denotes (V s) P -> new_ok b (e b) P Q -> goes b d V Q RNone (new_reg d s e w).
Proof.
  intros H D U. apply (wok_grow N (Nat.max N (S s))) in H; [|lia]. set (N' := Nat.max N (S s)) in *. assert (L : (s < N')%nat) by lia. clearbody N'.
  pose proof (open1 _ _ _ _ _ _ s H L) as I. pose proof H as (_&Fl&_&HW).
  destruct (U (hsl (wr w s)) (wm w) (V s) _ D I (HW s)) as (m'&es'&ans&r'&E&J&K&V1&V2&Dr). unfold new_reg. rewrite Fl. cbn zeta. rewrite E.
  apply (free_put_ok N' b _ V d ans r' Q); [|exact V2|exact Dr]. cbn [wm wr]. eapply wok_ext; [eapply close1; [exact H|exact L| | |exact V1]|].
  - iv J.
  - kk K.
  - intros i. symmetry. apply put_id.
Qed.
Lemma new_reg2_ok N b w V d s t e self P Q R : wok N b (wm w) (wr w) V [] -> denotes (V s) P -> denotes (V t) Q ->
  bin_ok b (e b b) P Q R -> (s = t -> self_ok self P R) -> goes b d V R RNone (new_reg2 d s t e self w).
Proof.
  intros H D1 D2 U1 U2. set (N' := Nat.max N (S (Nat.max s t))). apply (wok_grow N N') in H; [|lia]. assert (L1 : (s < N')%nat) by lia. assert (L2 : (t < N')%nat) by lia. clearbody N'.
  pose proof H as (_&Fl&_&HW). unfold new_reg2. rewrite !Fl, orb_diag. cbn zeta. destruct (Nat.eqb_spec s t) as [E|E].
  - subst t. destruct (U2 eq_refl (hsl (wr w s)) (wm w) (V s) D1 (HW s)) as (ans&Es&Dr). rewrite Es.
    apply (free_put_ok N' b _ V d (own_all ans) ans R); [|apply hval_own|exact Dr]. cbn [wm wr].
    destruct H as (A&B&C&G). split; auto. split; auto. split; auto. eapply inv_ext; [exact C|]. intros l. rsimp. rewrite hs_own. lia.
  - pose proof (open2 _ _ _ _ _ _ s t H L1 L2 E) as I.
    destruct (U1 _ _ (wm w) (V s) (V t) _ D1 D2 I (HW s) (HW t)) as (m'&es1&es2&ans&r&Ee&J&K&V1&V2&V3&Dr). rewrite Ee.
    apply (free_put_ok N' b _ V d ans r R); [|exact V3|exact Dr]. cbn [wm wr]. eapply wok_ext; [eapply close2; [exact H|exact L1|exact L2|exact E| | |exact V1|exact V2]|].
    + iv J.
    + kk K.
    + intros i. unfold put. destruct (Nat.eqb_spec i t); [now subst|]. destruct (Nat.eqb_spec i s); [now subst|auto].
Qed.
Lemma in_flag_same ovw b r1 r2 : hcow r1 = b -> hcow r2 = b -> in_flag ovw r1 r2 = b.
Proof. intros H1 H2. unfold in_flag. destruct (hsl r1), (hsl r2), ovw; auto. Qed.
Lemma in_reg2_ok N b w V d s ovw e P Q R : wok N b (wm w) (wr w) V [] -> denotes (V d) P -> denotes (V s) Q -> d <> s ->
  in_ok b (e b) P Q R -> goes b d V R RNone (in_reg2 d s ovw e w).
Proof.
  intros H D1 D2 NE U. set (N' := Nat.max N (S (Nat.max d s))). apply (wok_grow N N') in H; [|lia]. assert (L1 : (d < N')%nat) by lia. assert (L2 : (s < N')%nat) by lia. clearbody N'.
  pose proof H as (_&Fl&_&HW). unfold in_reg2. rewrite (in_flag_same ovw b) by auto. rewrite !Fl. pose proof (open2 _ _ _ _ _ _ d s H L1 L2 NE) as I.
  destruct (U _ _ (wm w) (V d) (V s) _ D1 D2 I (HW d) (HW s)) as (m'&es1&es2&r&Ee&J&K&V1&V2&Dr). rewrite Ee.
  eexists N', (W m' (put (put (wr w) d (HB b es1)) s (HB b es2))), r. split; [reflexivity|]. split; [|exact Dr]. cbn [wm wr].
  eapply wok_ext; [eapply close2; [exact H|exact L1|exact L2|exact NE|exact J| |exact V1|exact V2]|].
  - kk K.
  - intros i. unfold put. destruct (Nat.eqb_spec i s); subst; auto. destruct (Nat.eqb_spec s d); [congruence|auto].
Qed.
(** or_many, xor_many *)
Lemma many_loop_ok b act f : act_ok b lne cok lne f act -> (forall p, f p false = true && p) -> (forall p, f false p = true && p) ->
  forall ss N w V ans ra PA, (forall i, bok (V i)) -> wok N b (wm w) (wr w) V (hs ans) -> hval (wm w) ans = Some ra -> bmrep lne 0 ra PA ->
  exists N' w' ans' ra', many_loop act ss ans w = Some (w', ans') /\ wok N' b (wm w') (wr w') V (hs ans') /\ hval (wm w') ans' = Some ra' /\
    bmrep lne 0 ra' (fun k x => fold_left (fun p s => f p (km (V s) k x)) ss (PA k x)).
Proof.
  intros Ha Hl Hr. induction ss as [|s ss IH]; intros N w V ans ra PA BV H Va Ra; cbn [many_loop fold_left].
  - exists N, w, ans, ra. auto.
  - apply (wok_grow N (Nat.max N (S s))) in H; [|lia]. set (N' := Nat.max N (S s)) in *. assert (L : (s < N')%nat) by lia. clearbody N'.
    pose proof (open1 _ _ _ _ _ _ s H L) as I. pose proof H as (_&Fl&_&HW).
    assert (I' : inv b (wm w) (hs ans ++ hs (hsl (wr w s)) ++ allh (put (wr w) s (blank b)) N')) by iv I.
    destruct (merge_in_ok b act true true lne cok lne f Ha Hl Hr (fun _ c X => X) (fun _ c X => cok_lne c X) ans (hsl (wr w s)) 0 (wm w) ra (V s) _ (proj1 Ra) (BV s) I' Va (HW s))
      as (m'&a&es&r&E&J&K&W1&W2&R).
    rewrite Fl, E.
    assert (H' : wok N' b m' (put (wr w) s (HB b es)) V (hs a)).
    { eapply wok_ext; [eapply (close1 N' b (wm w) (wr w) V (hs ans) m' s es (V s)); [exact H|exact L| |kk K|exact W2]|intros i; symmetry; apply put_id]. iv J. }
    destruct (IH N' (W m' (put (wr w) s (HB b es))) V a r (fun k x => f (PA k x) (km (V s) k x)) BV H' W1) as (N2&w2&ans2&ra2&E2&H2&V2&R2).
    { eapply bmrep_ext; [exact R|]. intros k x Hk Hx. cbn beta. f_equal. now apply Ra. }
    exists N2, w2, ans2, ra2. split; [exact E2|]. split; [exact H2|]. split; [exact V2|exact R2].
Qed.
Lemma repair_lne c : lne c -> cok (container_repair_after_lazy c) /\ forall x, 0 <= x < 65536 -> cmem (container_repair_after_lazy c) x = cmem c x.
Proof. intros [A B]. apply (erep_rep _ (cmem c)); [now apply container_repair_spec|exact B]. Qed.
Lemma many_ok N b w V S d ss op act f : opok lne cok lne f op -> act_ok b lne cok lne f act -> (forall p, f p false = true && p) -> (forall p, f false p = true && p) ->
  wok N b (wm w) (wr w) V [] -> refines V S -> goes b d V (fun v => fold_left (fun p s => f p (S s v)) ss false) RNone (many d ss b op act w).
Proof.
  intros Hop Ha Hl Hr H RV.
  assert (BV : forall i, bok (V i)) by (intros i; eapply den_bok, RV).
  destruct ss as [|s [|t rest]]; cbn [many].
  - apply (fresh_ok N); auto. apply den_new.
  - apply (new_reg_ok N b w V d s ra_append_copy_range (S s)); auto. eapply new_ext; [apply copy_new|]. intros v _. cbn [fold_left]. now rewrite Hr.
  - set (N' := Nat.max N (Datatypes.S (Nat.max s t))). apply (wok_grow N N') in H; [|lia]. assert (L1 : (s < N')%nat) by lia. assert (L2 : (t < N')%nat) by lia. clearbody N'.
    pose proof H as (_&Fl&_&HW). rewrite !Fl, orb_diag. cbn zeta.
    assert (ST : exists w1 ans ra, (if Nat.eqb s t then
        match merge_self op (hsl (wr w s)) (wm w) with Some (m, ans) => Some (W m (wr w), ans) | None => None end
      else
        match merge_new get_copy_of_container op true true b b (hsl (wr w s)) (hsl (wr w t)) (wm w) with
        | Some (m, (es1, es2, ans)) => Some (W m (put (put (wr w) s (HB b es1)) t (HB b es2)), ans)
        | None => None
        end) = Some (w1, ans) /\ wok N' b (wm w1) (wr w1) V (hs ans) /\ hval (wm w1) ans = Some ra /\ bmrep lne 0 ra (fun k x => f (km (V s) k x) (km (V t) k x))).
    { assert (Hop' : opok cok cok lne f op) by (intros k c1 c2 A B; apply Hop; auto; now apply cok_lne).
      destruct (Nat.eqb_spec s t) as [E|E].
      - subst t. destruct (merge_self_ok op cok lne f Hop' (Hl false) (hsl (wr w s)) 0 (wm w) (V s) (BV s) (HW s)) as (ans&r'&E1&->&R). rewrite E1.
        exists (W (wm w) (wr w)), (own_all ans), ans. split; [reflexivity|]. split; [|split; [apply hval_own|exact R]]. cbn [wm wr].
        destruct H as (A&B&C&G). split; auto. split; auto. split; auto. eapply inv_ext; [exact C|]. intros l. rsimp. rewrite hs_own. lia.
      - pose proof (open2 _ _ _ _ _ _ s t H L1 L2 E) as I.
        destruct (merge_new_ok b get_copy_of_container op true true cok cok lne f (get_copy_ok b) Hop' Hl Hr (fun _ c X => cok_lne c X) (fun _ c X => cok_lne c X)
          (hsl (wr w s)) (hsl (wr w t)) 0 (wm w) (V s) (V t) _ (BV s) (BV t) I (HW s) (HW t)) as (m'&es1&es2&ans&r&Ee&J&K&V1&V2&V3&R). rewrite Ee.
        exists (W m' (put (put (wr w) s (HB b es1)) t (HB b es2))), ans, r. split; [reflexivity|]. split; [|split; [exact V3|exact R]]. cbn [wm wr].
        eapply wok_ext; [eapply (close2 N' b (wm w) (wr w) V [] m' s t es1 es2 (V s) (V t)); [exact H|exact L1|exact L2|exact E| |kk K|exact V1|exact V2]|].
        + iv J.
        + intros i. unfold put. destruct (Nat.eqb_spec i t); [now subst|]. destruct (Nat.eqb_spec i s); [now subst|auto]. }
    destruct ST as (w1&ans&ra&E1&H1&U1&R1). rewrite E1.
    destruct (many_loop_ok b act f Ha Hl Hr rest N' w1 V ans ra _ BV H1 U1 R1) as (N2&w2&ans2&ra2&E2&H2&U2&R2). rewrite E2.
    pose proof H2 as (_&_&I2&HW2). assert (I2' : inv b (wm w2) (hs ans2 ++ allh (wr w2) N2)) by iv I2.
    destruct (map_writable_ok b container_repair_after_lazy lne cok repair_lne ans2 0 (wm w2) ra2 _ (proj1 R2) I2' U2) as (m3&E3&J3&K3&R3). rewrite E3.
    eapply free_put_ok; [|apply hval_own|].
    + cbn [wm wr]. instantiate (1 := N2). destruct H2 as (A&B&C&G). split; [exact A|]. split; [exact B|]. split; [eapply inv_ext; [exact J3|intros l; rsimp; rewrite hs_own; lia]|].
      intros i. destruct (Nat.lt_ge_cases i N2) as [Li|Li].
      * etransitivity; [eapply hval_keeps; [exact K3|]|apply G]. intros l. now apply refs_allh_in.
      * specialize (G i). rewrite A in G |- * by auto. exact G.
    + eapply den_of_rspec; [exact R3|]. intros v Hv. rewrite (proj2 R2) by (pose proof (val_hi v Hv); pose proof (Z.mod_pos_bound v 65536); lia).
      cbn [fold_left]. rewrite Hr. cbn [andb]. assert (EM : forall i, km (V i) (v / 65536) (v mod 65536) = S i v) by (intros i; apply (den_mem (V i) (S i) v (RV i) Hv)).
      rewrite !EM. generalize (f (S s v) (S t v)). clear -EM. induction rest as [|j rest IH]; intros p; cbn [fold_left]; auto. rewrite EM. apply IH.
Qed.
Lemma fold_orb (S : regs) ss v : forall p, fold_left (fun p s => orb p (S s v)) ss p = p || existsb (fun s => S s v) ss.
Proof. induction ss as [|s ss IH]; intros p; cbn [fold_left existsb]; [now rewrite orb_false_r|]. rewrite IH. now rewrite orb_assoc. Qed.

(** the calls the theorems are about *)
Definition modelled (c : cmd) : Prop := match c with KRemoveMany _ _ | KOrManyHeap _ _ => False | _ => True end.
(** the bitmap a call replaces or updates *)
Definition target (c : cmd) : option nat :=
  match c with
  | KNew d | KOf d _ | KFromRange d _ _ _ | KCopy d _ | KAdd d _ | KAddChecked d _ | KRemove d _ | KRemoveChecked d _ | KAddMany d _ | KRemoveMany d _
  | KAddRange d _ _ | KAddRangeClosed d _ _ | KRemoveRange d _ _ | KRemoveRangeClosed d _ _ | KFlipInplace d _ _ | KFlipInplaceClosed d _ _
  | KClear d | KRunOptimize d | KRemoveRunCompression d | KFlip d _ _ _ | KFlipClosed d _ _ _ | KAnd d _ _ | KOr d _ _ | KXor d _ _ | KAndnot d _ _
  | KOrMany d _ | KOrManyHeap d _ | KXorMany d _ | KAddOffset d _ _ | KReloadPortable d _ | KReloadNative d _
  | KAndInplace d _ | KOrInplace d _ | KXorInplace d _ | KAndnotInplace d _ => Some d
  | _ => None
  end.
Definition stepped (b : bool) (c : cmd) (V : nat -> bitmap) (S : regs) (res : step_res) : Prop :=
  exists N w' V' a, res = Some (w', a) /\ wok N b (wm w') (wr w') V' [] /\ (forall i, target c <> Some i -> V' i = V i) /\ refines V' (spec_step c S) /\ spec_out c S a.
Lemma goes_stepped b c d V S P a res : goes b d V P a res -> target c = Some d -> refines V S -> (forall i, spec_step c S i = put S d P i) -> spec_out c S a ->
  stepped b c V S res.
Proof.
  intros (N&w'&r&E&H&D) T R HS O. exists N, w', (put V d r), a. split; [exact E|]. split; [exact H|]. split; [intros i Hi; apply put_other; congruence|]. split; [|exact O].
  intros i. rewrite HS. unfold put. destruct (Nat.eqb i d); auto.
Qed.
Lemma query_stepped N b c w V S s q : wok N b (wm w) (wr w) V [] -> refines V S -> target c = None -> spec_step c S = S -> spec_out c S (q (V s)) ->
  stepped b c V S (query s q w).
Proof.
  intros H R T HS O. pose proof H as (_&_&_&HW). unfold query. rewrite (load_all_ok _ _ _ (HW s)). exists N, (W (wm w) (wr w)), V, (q (V s)).
  split; [reflexivity|]. split; [exact H|]. split; [auto|]. rewrite HS. split; [exact R|exact O].
Qed.
Lemma query2_stepped N b c w V S s t q : wok N b (wm w) (wr w) V [] -> refines V S -> target c = None -> spec_step c S = S -> spec_out c S (q (V s) (V t)) ->
  stepped b c V S (query2 s t q w).
Proof.
  intros H R T HS O. pose proof H as (_&_&_&HW). unfold query2. rewrite (load_all_ok _ _ _ (HW s)), (load_all_ok _ _ _ (HW t)). exists N, (W (wm w) (wr w)), V, (q (V s) (V t)).
  split; [reflexivity|]. split; [exact H|]. split; [auto|]. rewrite HS. split; [exact R|exact O].
Qed.
Lemma goes_ext b d V P Q a res : goes b d V P a res -> same_set P Q -> goes b d V Q a res.
Proof. intros (N&w'&r&E&H&D) X. exists N, w', r. split; [exact E|]. split; [exact H|]. eapply den_ext; eauto. Qed.
Theorem hstep_ok N b c o w V S : wok N b (wm w) (wr w) V [] -> refines V S -> cmd_ok c S -> modelled c -> stepped b c V S (hstep b c o w).
Proof.
  intros H R K M. assert (DV : forall i, denotes (V i) (S i)) by exact R.
  assert (UPD : forall d e Q c', target c' = Some d -> upd_ok b e (S d) Q -> (forall i, spec_step c' S i = put S d Q i) -> spec_out c' S RNone ->
    stepped b c' V S (upd_reg d e (fun _ => RNone) w)).
  { intros d e Q c' T U HS O. eapply (goes_stepped b c' d V S Q RNone); [exact (upd_reg_ok N b w V d e (fun _ => RNone) (S d) Q H (R d) U)|exact T|exact R|exact HS|exact O]. }
  assert (NEW : forall d s e Q c', target c' = Some d -> new_ok b (e b) (S s) Q -> (forall i, spec_step c' S i = put S d Q i) -> spec_out c' S RNone ->
    stepped b c' V S (new_reg d s e w)).
  { intros d s e Q c' T U HS O. eapply (goes_stepped b c' d V S Q RNone); [exact (new_reg_ok N b w V d s e (S s) Q H (R s) U)|exact T|exact R|exact HS|exact O]. }
  assert (FRE : forall d r Q c', target c' = Some d -> denotes r Q -> (forall i, spec_step c' S i = put S d Q i) -> spec_out c' S RNone ->
    stepped b c' V S (fresh d b r w)).
  { intros d r Q c' T U HS O. eapply (goes_stepped b c' d V S Q RNone); [exact (fresh_ok N b w V d r Q H U)|exact T|exact R|exact HS|exact O]. }
  assert (BIN : forall d s t e self Q c', target c' = Some d -> bin_ok b (e b b) (S s) (S t) Q -> (s = t -> self_ok self (S s) Q) ->
    (forall i, spec_step c' S i = put S d Q i) -> spec_out c' S RNone -> stepped b c' V S (new_reg2 d s t e self w)).
  { intros d s t e self Q c' T U U2 HS O. eapply (goes_stepped b c' d V S Q RNone); [exact (new_reg2_ok N b w V d s t e self (S s) (S t) Q H (R s) (R t) U U2)|exact T|exact R|exact HS|exact O]. }
  assert (INP : forall d s ovw e Q c', target c' = Some d -> d <> s -> in_ok b (e b) (S d) (S s) Q ->
    (forall i, spec_step c' S i = put S d Q i) -> spec_out c' S RNone -> stepped b c' V S (in_reg2 d s ovw e w)).
  { intros d s ovw e Q c' T NE U HS O. eapply (goes_stepped b c' d V S Q RNone); [exact (in_reg2_ok N b w V d s ovw e (S d) (S s) Q H (R d) (R s) NE U)|exact T|exact R|exact HS|exact O]. }
  destruct c; cbn [cmd_ok modelled] in K, M; try contradiction M; cbn [hstep].
  - apply (FRE d [] zempty); try (intros; reflexivity). apply den_new.
  - apply (FRE d _ (zlist vals)); try (intros; reflexivity). now apply den_of_ptr.
  - destruct (den_from_range range_fuel lo hi step) as (r&E&D); try lia; [apply fuel_enough|]. rewrite E. now apply (FRE d r _ (KFromRange d lo hi step) eq_refl D).
  - apply (NEW d s _ (S s)); try (intros; reflexivity). apply copy_new.
  - apply (UPD d _ (zadd (S d) v)); try (intros; reflexivity). now apply hadd_ok.
  - eapply (goes_stepped b _ d V S (zadd (S d) v)); [exact (upd_reg_ok N b w V d _ _ (S d) _ H (R d) (hadd_ok b (S d) v K))|reflexivity|exact R|reflexivity|].
    cbn [spec_out]. now rewrite (proj2 (den_add_checked (V d) (S d) v (R d) K)).
  - apply (UPD d _ (zdel (S d) v)); try (intros; reflexivity). now apply hremove_ok.
  - eapply (goes_stepped b _ d V S (zdel (S d) v)); [exact (upd_reg_ok N b w V d _ _ (S d) _ H (R d) (hremove_ok b (S d) v K))|reflexivity|exact R|reflexivity|].
    cbn [spec_out]. now rewrite (proj2 (den_remove_checked (V d) (S d) v (R d) K)).
  - apply (UPD d _ (zunion (S d) (zlist vals))); try (intros; reflexivity). now apply hadd_many_ok.
  - apply (UPD d _ (zunion (S d) (zival a b0))); try (intros; reflexivity). apply (half_open_upd b (S d) a b0 hadd_range_closed zunion); try tauto.
    + intros. now apply hadd_range_closed_ok.
    + intros I HI v _. unfold zunion. now rewrite HI, orb_false_r.
  - destruct K. apply (UPD d _ (zunion (S d) (zival a (b0 + 1)))); try (intros; reflexivity). now apply hadd_range_closed_ok.
  - apply (UPD d _ (zdiff (S d) (zival a b0))); try (intros; reflexivity). apply (half_open_upd b (S d) a b0 hremove_range_closed zdiff); try tauto.
    + intros. now apply hremove_range_closed_ok.
    + intros I HI v _. unfold zdiff. now rewrite HI, andb_true_r.
  - destruct K. apply (UPD d _ (zdiff (S d) (zival a (b0 + 1)))); try (intros; reflexivity). now apply hremove_range_closed_ok.
  - apply (UPD d _ (zsymm (S d) (zival a b0))); try (intros; reflexivity). apply (half_open_upd b (S d) a b0 (hflip_inplace_closed (ocap o)) zsymm); try tauto.
    + intros. now apply hflip_inplace_closed_ok.
    + intros I HI v _. unfold zsymm. now rewrite HI, xorb_false_r.
  - destruct K. apply (UPD d _ (zsymm (S d) (zival a (b0 + 1)))); try (intros; reflexivity). now apply hflip_inplace_closed_ok.
  - apply (UPD d _ zempty); try (intros; reflexivity). apply clear_upd.
  - eapply (goes_stepped b _ d V S (S d)); [exact (upd_reg_ok N b w V d _ _ (S d) _ H (R d) (run_optimize_upd b (S d)))|reflexivity|exact R| |].
    + intros i. symmetry. apply put_id.
    + now eexists.
  - eapply (goes_stepped b _ d V S (S d)); [exact (upd_reg_ok N b w V d _ _ (S d) _ H (R d) (remove_run_upd b (S d)))|reflexivity|exact R| |].
    + intros i. symmetry. apply put_id.
    + now eexists.
  - apply (NEW d s _ (zsymm (S s) (zival a b0))); try (intros; reflexivity). 
    assert (X : half_open a b0 ra_append_copy_range (fun x y f => hflip_closed f x y) b = half_open a b0 (ra_append_copy_range b) (hflip_closed b)).
    { unfold half_open. now destruct ((b0 <=? a) || _). }
    rewrite X. clear X. apply (half_open_new b (S s) a b0 (ra_append_copy_range b) (hflip_closed b) zsymm); try tauto.
    + intros. now apply hflip_closed_ok.
    + apply copy_new.
    + intros I HI v _. unfold zsymm. now rewrite HI, xorb_false_r.
  - destruct K. apply (NEW d s _ (zsymm (S s) (zival a (b0 + 1)))); try (intros; reflexivity). now apply hflip_closed_ok.
  - apply (BIN d s t _ _ (zinter (S s) (S t))); try (intros; reflexivity); [apply hand_ok|intros <-; now apply (self_ok_of _ andb (S s) op_and)].
  - apply (BIN d s t _ _ (zunion (S s) (S t))); try (intros; reflexivity); [apply hor_ok|intros <-; now apply (self_ok_of _ orb (S s) op_or)].
  - apply (BIN d s t _ _ (zsymm (S s) (S t))); try (intros; reflexivity); [apply hxor_ok|intros <-; now apply (self_ok_of _ xorb (S s) op_xor)].
  - apply (BIN d s t _ _ (zdiff (S s) (S t))); try (intros; reflexivity); [apply handnot_ok|intros <-; now apply (self_ok_of _ fdiff (S s) op_andnot)].
  - eapply (goes_stepped b _ d V S); [|reflexivity|exact R|reflexivity|reflexivity].
    eapply goes_ext; [apply (many_ok N b w V S d ss lazy_or_op (lazy_ior_act (ocap o)) orb); auto; [exact (opok_lazy_or cok true cok_lne)|apply lazy_ior_act_ok|intros []; auto]|].
    intros v _. now rewrite fold_orb.
  - eapply (goes_stepped b _ d V S); [|reflexivity|exact R|reflexivity|reflexivity].
    apply (many_ok N b w V S d ss lazy_xor_op lazy_ixor_act xorb); auto; [exact (opok_lazy_xor cok cok_lne)|apply lazy_ixor_act_ok|intros []; auto|intros []; auto].
  - apply (NEW d s _ (zshift (in32 (S s)) o0)); try (intros; reflexivity). apply hadd_offset_ok.
  - pose proof H as (_&_&_&HW). rewrite (load_all_ok _ _ _ (HW s)). destruct (den_reload_portable (V s) (S s) (R s)) as (r&E&D). rewrite E. now apply (FRE d r _ (KReloadPortable d s) eq_refl D).
  - pose proof H as (_&_&_&HW). rewrite (load_all_ok _ _ _ (HW s)). destruct (den_reload_native (V s) (S s) (R s)) as (r&E&D). rewrite E. now apply (FRE d r _ (KReloadNative d s) eq_refl D).
  - destruct (Nat.eqb_spec d s) as [->|NE].
    + exists N, w, V, RNone. split; [reflexivity|]. split; [exact H|]. split; [auto|]. split; [|reflexivity]. intros i. cbn [spec_step]. unfold put. destruct (Nat.eqb_spec i s); [subst i|apply R].
      eapply den_ext; [apply R|]. intros v _. unfold zinter. now rewrite andb_diag.
    + apply (INP d s _ _ (zinter (S d) (S s))); try (intros; reflexivity); auto. apply hand_inplace_ok.
  - apply (INP d s _ _ (zunion (S d) (S s))); try (intros; reflexivity); auto. apply hor_inplace_ok.
  - apply (INP d s _ _ (zsymm (S d) (S s))); try (intros; reflexivity); auto. apply hxor_inplace_ok.
  - apply (INP d s _ _ (zdiff (S d) (S s))); try (intros; reflexivity); auto. apply handnot_inplace_ok.
  - apply (query_stepped N); auto. cbn [spec_out]. f_equal. now apply q_contains.
  - apply (query_stepped N); auto. eexists. split; [reflexivity|]. now apply q_contains_range.
  - apply (query_stepped N); auto. eexists. split; [reflexivity|]. now apply q_card.
  - apply (query_stepped N); auto. eexists. split; [reflexivity|]. now apply q_range_card.
  - apply (query_stepped N); auto. eexists. split; [reflexivity|]. now apply q_is_empty.
  - apply (query2_stepped N); auto. eexists. split; [reflexivity|]. now apply q_equals.
  - apply (query2_stepped N); auto. eexists. split; [reflexivity|]. now apply q_subset.
  - apply (query2_stepped N); auto. eexists. split; [reflexivity|]. now apply q_strict_subset.
  - apply (query2_stepped N); auto. eexists. split; [reflexivity|]. now apply q_intersect.
  - apply (query2_stepped N); auto. eexists. split; [reflexivity|]. now apply q_and_card.
  - apply (query2_stepped N); auto. eexists. split; [reflexivity|]. now apply q_or_card.
  - apply (query2_stepped N); auto. eexists. split; [reflexivity|]. now apply q_xor_card.
  - apply (query2_stepped N); auto. eexists. split; [reflexivity|]. now apply q_andnot_card.
  - apply (query_stepped N); auto. eexists. split; [reflexivity|]. now apply q_rank.
  - apply (query_stepped N); auto. eexists. split; [reflexivity|]. now apply q_get_index.
  - destruct K as [K1 K2]. apply (query_stepped N); auto. eexists. split; [reflexivity|]. apply (q_select (V s) (S s) k); auto. apply (den_select_ok (V s) (S s)); auto.
  - apply (query_stepped N); auto. eexists. split; [reflexivity|]. now apply q_minimum.
  - apply (query_stepped N); auto. eexists. split; [reflexivity|]. now apply q_maximum.
  - apply (query_stepped N); auto. eexists. split; [reflexivity|]. now apply q_to_array.
  - apply (query_stepped N); auto. cbn [spec_out]. f_equal. apply (R s).
Qed.

(** ** Histories *)
(** what bitmap i holds, read through the shared blocks; [None]: a slot dangles *)
Definition contents (w : world) (i : nat) : option bitmap := hval (wm w) (hsl (wr w i)).
(** the number of slots of the bitmaps 0 .. N-1 that refer to the shared block l *)
Definition count_refs (w : world) (N : nat) (l : nat) : Z := refs l (allh (wr w) N).
(** every block in use is referred to exactly as often as its counter says and at least
    once; nothing refers to a block that is not in use *)
Definition counters_exact (w : world) (N : nat) : Prop :=
  (forall i, (N <= i)%nat -> hsl (wr w i) = []) /\
  forall l, match cellat (wm w) l with Some (n, _) => n = count_refs w N l /\ 0 < n | None => count_refs w N l = 0 end.
Lemma wok_exact N b w V : wok N b (wm w) (wr w) V [] -> counters_exact w N.
Proof.
  intros (A&_&[_ C]&_). split; [exact A|]. intros l. specialize (C l). unfold count_refs. destruct (cellat (wm w) l) as [[n c]|]; rewrite refs_app in C; cbn [refs] in C; lia.
Qed.
Lemma hexec_ok b : forall tr N w V S, wok N b (wm w) (wr w) V [] -> refines V S -> legal (map fst tr) S -> Forall modelled (map fst tr) ->
  exists N' w' V' outs, hexec b tr w = Some (w', outs) /\ wok N' b (wm w') (wr w') V' [] /\ refines V' (spec_run (map fst tr) S) /\ agrees (map fst tr) S outs.
Proof.
  induction tr as [|[c o] tr IH]; intros N w V S H R L F; cbn [hexec map fst legal spec_run agrees] in *.
  - exists N, w, V, []. auto.
  - destruct L as [K L]. inversion F; subst. destruct (hstep_ok N b c o w V S H R K H2) as (N1&w1&V1&a&E&H1&_&R1&O). rewrite E.
    destruct (IH N1 w1 V1 (spec_step c S) H1 R1 L H3) as (N2&w2&V2&outs&E2&HW&R2&G). rewrite E2. exists N2, w2, V2, (a :: outs). auto.
Qed.
Lemma hstart_wok b : wok 0 b (wm (hstart b)) (wr (hstart b)) (fun _ => []) [].
Proof.
  split; [auto|]. split; [auto|]. split; [|auto]. split.
  - intros _ l. destruct l; reflexivity.
  - intros l. destruct l; reflexivity.
Qed.
Lemma hstart_refines : refines (fun _ => []) empty_regs. Proof. intros i. apply den_new. Qed.
(** the states a program can reach, with the sets it should hold there *)
Definition reaches (b : bool) (tr : list (cmd * oracle)) (w : world) (S : regs) : Prop :=
  Forall modelled (map fst tr) /\ legal (map fst tr) empty_regs /\ S = spec_run (map fst tr) empty_regs /\ exists outs, hexec b tr (hstart b) = Some (w, outs).
Lemma reaches_wok b tr w S : reaches b tr w S -> exists N V, wok N b (wm w) (wr w) V [] /\ refines V S.
Proof.
  intros (F&L&->&outs&E). destruct (hexec_ok b tr 0 (hstart b) _ _ (hstart_wok b) hstart_refines L F) as (N&w'&V&o'&E'&H&R&_).
  rewrite E in E'. injection E' as -> ->. exists N, V. auto.
Qed.
Theorem cow_history b tr : Forall modelled (map fst tr) -> legal (map fst tr) empty_regs ->
  exists w outs N, hexec b tr (hstart b) = Some (w, outs) /\ agrees (map fst tr) empty_regs outs /\
    (forall i, exists r, contents w i = Some r /\ denotes r (spec_run (map fst tr) empty_regs i)) /\ counters_exact w N.
Proof.
  intros F L. destruct (hexec_ok b tr 0 (hstart b) _ _ (hstart_wok b) hstart_refines L F) as (N&w&V&outs&E&H&R&G).
  exists w, outs, N. split; [exact E|]. split; [exact G|]. split; [|exact (wok_exact N b w V H)].
  intros i. exists (V i). split; [|apply R]. apply H.
Qed.
Theorem cow_frame b tr w S c o : reaches b tr w S -> modelled c -> cmd_ok c S ->
  exists w' a, hstep b c o w = Some (w', a) /\ forall i, target c <> Some i -> contents w' i = contents w i.
Proof.
  intros HR M K. destruct (reaches_wok b tr w S HR) as (N&V&H&R). destruct (hstep_ok N b c o w V S H R K M) as (N1&w1&V1&a&E&H1&Fr&_).
  exists w1, a. split; [exact E|]. intros i Hi. unfold contents. destruct H as (_&_&_&HW), H1 as (_&_&_&HW1). now rewrite HW, HW1, Fr.
Qed.
Lemma valid_empty r P : denotes r P -> same_set P zempty -> r = [].
Proof.
  intros D E. apply (q_is_empty r P D) in E. unfold roaring_bitmap_is_empty in E. destruct r as [|p t]; auto. rewrite zlen_cons in E. pose proof (zlen_nonneg t). lia.
Qed.
Theorem cow_no_leak b tr w S : reaches b tr w S -> (forall i, same_set (S i) zempty) -> forall l, cellat (wm w) l = None.
Proof.
  intros HR E l. destruct (reaches_wok b tr w S HR) as (N&V&H&R). pose proof (wok_exact N b w V H) as (A&C).
  assert (Z : forall i, hsl (wr w i) = []).
  { intros i. destruct H as (_&_&_&HW). specialize (HW i). rewrite (valid_empty (V i) (S i) (R i) (E i)) in HW. destruct (hsl (wr w i)) as [|[k h] t]; auto.
    apply hval_cons in HW as (c&r'&X&_). discriminate. }
  specialize (C l). destruct (cellat (wm w) l) as [[n c]|]; auto. exfalso. destruct C as [C1 C2]. unfold count_refs in C1.
  assert (refs l (allh (wr w) N) = 0) by (clear - Z; induction N as [|n IH]; cbn [allh]; auto; rewrite refs_app, IH, Z; reflexivity). lia.
Qed.
Lemma load_all_mem es : forall m m' r, load_all es m = Some (m', r) -> m' = m.
Proof.
  induction es as [|[k h] t IH]; intros m m' r E; cbn [load_all] in E.
  - injection E as <- _. auto.
  - unfold bind, ret in E. destruct (load h m) as [[m1 c]|] eqn:E1; [|discriminate]. destruct (load_all t m1) as [[m2 r2]|] eqn:E2; [|discriminate]. injection E as <- _.
    apply IH in E2. subst. unfold load in E1. destruct (unwrap m h); [|discriminate]. now injection E1.
Qed.
Theorem query_frame b c o w w' a : target c = None -> hstep b c o w = Some (w', a) -> w' = w.
Proof.
  intros T E. assert (Q : forall s q, query s q w = Some (w', a) -> w' = w).
  { intros s q X. unfold query in X. destruct (load_all _ _) as [[m r]|] eqn:E1; [|discriminate]. apply load_all_mem in E1. subst. injection X as <- _. now destruct w. }
  assert (Q2 : forall s t q, query2 s t q w = Some (w', a) -> w' = w).
  { intros s t q X. unfold query2 in X. destruct (load_all _ _) as [[m r]|] eqn:E1; [|discriminate]. destruct (load_all (hsl (wr w t)) m) as [[m2 r2]|] eqn:E2; [|discriminate].
    apply load_all_mem in E1. apply load_all_mem in E2. subst. injection X as <- _. now destruct w. }
  destruct c; cbn [target] in T; try discriminate T; cbn [hstep] in E; eauto.
Qed.
Theorem query_total b tr w S c o : reaches b tr w S -> modelled c -> target c = None -> cmd_ok c S -> exists a, hstep b c o w = Some (w, a) /\ spec_out c S a.
Proof.
  intros HR M T K. destruct (reaches_wok b tr w S HR) as (N&V&H&R). destruct (hstep_ok N b c o w V S H R K M) as (N1&w1&V1&a&E&_&_&_&O).
  exists a. split; [|exact O]. rewrite E. f_equal. f_equal. eapply query_frame; eauto.
Qed.

(** ** Counterexamples and a sample history *)
Ltac lg := cbn [legal cmd_ok]; repeat match goal with |- _ /\ _ => split end; try exact I; try discriminate; unfold val32; try lia;
  intros ? Hin; cbn [In] in Hin; repeat destruct Hin as [<-|Hin]; try contradiction Hin; lia.
Definition ora0 : oracle := {| osh := fun _ => true; ocap := fun _ => 0 |}.
Definition with_ora (l : list cmd) : list (cmd * oracle) := map (fun c => (c, ora0)) l.
Theorem cow_remove_many_refuted : exists l w outs i, legal l empty_regs /\ hexec true (with_ora l) (hstart true) = Some (w, outs) /\
  contents w i = None /\ (forall c, In c l -> c = KCopy 1 0 \/ target c <> Some i) /\ hexec true (with_ora (l ++ [QContains i 2])) (hstart true) = None.
Proof.
  exists [KOf 0 [1; 2; 3]; KCopy 1 0; KRemoveMany 0 [1]]. eexists. eexists. exists 1%nat.
  split; [lg|].
  split; [vm_compute; reflexivity|]. split; [vm_compute; reflexivity|]. split; [|vm_compute; reflexivity].
  intros c [<-|[<-|[<-|[]]]]; [right; discriminate|now left|right; discriminate].
Qed.
Theorem cow_range_array_refuted : exists l w S i, reaches true (with_ora l) w S /\ (exists r, contents w i = Some r /\ denotes r (S i)) /\ contents (htouch i w) i = None.
Proof.
  assert (L : legal [KOf 0 [1; 2; 3]; KCopy 1 0] empty_regs) by lg.
  assert (M : Forall modelled [KOf 0 [1; 2; 3]; KCopy 1 0]) by (repeat constructor).
  destruct (cow_history true (with_ora [KOf 0 [1; 2; 3]; KCopy 1 0]) M L) as (w&outs&N&E&_&D&_).
  exists [KOf 0 [1; 2; 3]; KCopy 1 0], w, (spec_run [KOf 0 [1; 2; 3]; KCopy 1 0] empty_regs), 1%nat.
  split; [split; [exact M|split; [exact L|split; [reflexivity|exists outs; exact E]]]|]. split; [apply D|]. clear D.
  assert (X : match hexec true (with_ora [KOf 0 [1; 2; 3]; KCopy 1 0]) (hstart true) with Some (w, _) => contents (htouch 1 w) 1 | None => None end = None) by (vm_compute; reflexivity).
  rewrite E in X. exact X.
Qed.
Definition cow_sample : list cmd :=
  [KOf 0 [1; 2; 70000]; KRunOptimize 0; KCopy 1 0; KCopy 2 1; KAdd 1 5; KOr 3 1 2; KRemove 0 70000; KXorInplace 2 3; KFlip 4 2 0 65540; KOrMany 5 [0; 1; 4]%nat; QContains 2 5; QCardinality 4].
Lemma cow_sample_ok : Forall modelled cow_sample /\ legal cow_sample empty_regs.
Proof.
  split; [repeat constructor|]. unfold cow_sample. lg.
Qed.
