(** OwnC: who frees which container.  Containers live in a heap of addresses.  Reading,
    writing or freeing an address that is not allocated, or reading a container as
    another type than it is, has no result (None).  Every function below allocates and
    frees in the places where the C function does; what it computes is the function of
    MixedI.v ... Containers.v.

    Simplifications.  A container and its buffer are one object (the buffers are the
    subject of RunMem.v and ArrBlk.v); allocation succeeds and never reuses an address;
    an object that is created and then filled is created with its contents; no container
    is shared (Cow.v has the shared ones), so that get_writable_copy_if_shared and
    container_unwrap_shared return their argument. *)
From Coq Require Import ZArith List Bool Lia PeanoNat.
From Verif Require Import Base ArrayUtil BitUtil BitsetC ArrayC RunC RunD Convert MixedI MixedU MixedA MixedN Containers RArray RBinary.
Import ListNotations.
Local Open Scope Z_scope.
Local Opaque zr.

(** ** The heap *)
(** [nx]: the next address; [ce a]: the container at address a *)
Record heap := H { nx : nat; ce : nat -> option container }.
Definition upd (f : nat -> option container) (a : nat) (o : option container) : nat -> option container :=
  fun x => if Nat.eqb x a then o else f x.
Definition M (A : Type) := heap -> option (heap * A).
Definition ret {A} (a : A) : M A := fun h => Some (h, a).
Definition bind {A B} (e : M A) (f : A -> M B) : M B := fun h => match e h with Some (h', a) => f a h' | None => None end.
Notation "x <- e ;; f" := (bind e (fun x => f)) (at level 61, e at next level, right associativity).
Notation "' p <- e ;; f" := (bind e (fun p => f)) (at level 61, p pattern, e at next level, right associativity).
(** roaring_malloc of a container *)
Definition new (c : container) : M nat := fun h => Some (H (S (nx h)) (upd (ce h) (nx h) (Some c)), nx h).
Definition rd (a : nat) : M container := fun h => match ce h a with Some c => Some (h, c) | None => None end.
Definition wr (a : nat) (c : container) : M unit :=
  fun h => match ce h a with Some _ => Some (H (nx h) (upd (ce h) a (Some c)), tt) | None => None end.
(** containers.c:47-65 container_free; bitset.c:129-133, array.c:147-151, run.c:191-195 *)
Definition fr (a : nat) : M unit :=
  fun h => match ce h a with Some _ => Some (H (nx h) (upd (ce h) a None), tt) | None => None end.
Definition ub {A} : M A := fun _ => None.
Definition rdB (a : nat) : M bset := c <- rd a ;; match c with CBit b => ret b | _ => ub end.
Definition rdA (a : nat) : M (list Z) := c <- rd a ;; match c with CArr l => ret l | _ => ub end.
Definition rdR (a : nat) : M (list run) := c <- rd a ;; match c with CRun r => ret r | _ => ub end.

(** ** Conversions *)
(** convert.c:55-81 array_container_from_bitset *)
Definition array_from_bitset (a : nat) : M nat := b <- rdB a ;; new (CArr (array_container_from_bitset b)).
(** the end of many kernels (mixed_andnot.c:88-93, 152-158, 185-191, 216-221, 503-511;
    mixed_xor.c:34-40, 77-83, 216-221, 286-291, 302-309; mixed_negation.c:214-220;
    convert.c:341-348): a bitset with at most DEFAULT_MAX_SIZE values is replaced by an
    array and freed *)
Definition settle (a : nat) : M nat :=
  b <- rdB a ;;
  if b_card b <=? 4096 then d <- array_from_bitset a ;; _ <- fr a ;; ret d else ret a.
(** convert.c:154-200 convert_run_to_efficient_container: answers c itself or a new
    container; c is not freed *)
Definition convert_run (a : nat) : M nat :=
  r <- rdR a ;;
  match convert_run_to_efficient_container r with CRun _ => ret a | c => new c end.
(** convert.c:203-208 convert_run_to_efficient_container_and_free *)
Definition convert_run_and_free (a : nat) : M nat :=
  d <- convert_run a ;; if Nat.eqb d a then ret d else _ <- fr a ;; ret d.
(** convert.c:217-321 convert_run_optimize *)
Definition run_optimize (a : nat) : M nat :=
  c <- rd a ;;
  match c with
  | CRun _ => d <- convert_run a ;; if Nat.eqb d a then ret d else _ <- fr a ;; ret d
  | _ => match convert_run_optimize c with
         | CRun r => d <- new (CRun r) ;; _ <- fr a ;; ret d
         | _ => ret a
         end
  end.

(** ** mixed_andnot.c *)
(** 495-511 *)
Definition bitset_bitset_iandnot (s1 s2 : nat) : M nat :=
  b1 <- rdB s1 ;; b2 <- rdB s2 ;; _ <- wr s1 (CBit (bitset_container_andnot b1 b2)) ;; settle s1.
(** 81-94 *)
Definition bitset_array_iandnot (s1 s2 : nat) : M nat :=
  b1 <- rdB s1 ;; l2 <- rdA s2 ;;
  let '(ws, card) := bitset_clear_list (b_words b1) (b_card b1) l2 in
  _ <- wr s1 (CBit (card, ws)) ;; settle s1.
(** 202-222 *)
Definition bitset_run_iandnot (s1 s2 : nat) : M nat :=
  b1 <- rdB s1 ;; r2 <- rdR s2 ;;
  let ws := reset_runs (b_words b1) r2 in
  _ <- wr s1 (CBit (bitset_container_compute_cardinality ws, ws)) ;; settle s1.
(** 103-151 run_bitset_container_andnot, 153-168 *)
Definition run_bitset_andnot (s1 s2 : nat) : M nat :=
  r1 <- rdR s1 ;; b2 <- rdB s2 ;;
  if run_container_cardinality r1 <=? 4096 then
    new (CArr (flat_map (fun x => map u16 (filter (fun v => negb (bitset_container_get b2 v)) (zr (fst x) (fst x + snd x + 1)))) r1))
  else
    ans <- new (CBit b2) ;;
    let ws := andnot_reset_flip (b_words b2) 0 r1 in
    _ <- wr ans (CBit (bitset_container_compute_cardinality ws, ws)) ;; settle ans.
Definition run_bitset_iandnot (s1 s2 : nat) : M nat := d <- run_bitset_andnot s1 s2 ;; _ <- fr s1 ;; ret d.
(** 276-360 run_array_container_andnot, 362-376 *)
Definition run_array_andnot (s1 s2 : nat) : M nat :=
  r1 <- rdR s1 ;; l2 <- rdA s2 ;;
  let card := run_container_cardinality r1 in
  if card <=? 32 then
    if zlen l2 =? 0 then new (CRun r1)
    else
      answer <- new (CRun (run_array_andnot_loop (Datatypes.S (length r1 + (length l2 + length l2))) []
           (fst (RunC.rnth r1 0)) (fst (RunC.rnth r1 0) + snd (RunC.rnth r1 0) + 1) (rskip 1 r1) l2)) ;;
      d <- convert_run answer ;; if Nat.eqb answer d then ret d else _ <- fr answer ;; ret d
  else if card <=? 4096 then new (CArr (run_array_array_subtract r1 l2 (-1)))
  else ans <- new (CBit (bitset_container_from_run r1)) ;; bitset_array_iandnot ans s2.
Definition run_array_iandnot (s1 s2 : nat) : M nat := d <- run_array_andnot s1 s2 ;; _ <- fr s1 ;; ret d.
(** 432-456 *)
Definition run_run_andnot (s1 s2 : nat) : M nat :=
  r1 <- rdR s1 ;; r2 <- rdR s2 ;; ans <- new (CRun (run_container_andnot r1 r2)) ;; convert_run_and_free ans.
Definition run_run_iandnot (s1 s2 : nat) : M nat := d <- run_run_andnot s1 s2 ;; _ <- fr s1 ;; ret d.
(** containers.h:1871-1938 container_iandnot; the array kernels work in the array
    (mixed_andnot.c:44-47, 424-427, 470-473) *)
Definition container_iandnot_mem (a1 a2 : nat) : M nat :=
  c1 <- rd a1 ;; c2 <- rd a2 ;;
  match c1, c2 with
  | CBit _, CBit _ => bitset_bitset_iandnot a1 a2
  | CArr l1, CArr l2 => _ <- wr a1 (CArr (array_array_container_andnot l1 l2)) ;; ret a1
  | CRun _, CRun _ => run_run_iandnot a1 a2
  | CBit _, CArr _ => bitset_array_iandnot a1 a2
  | CArr l1, CBit b2 => _ <- wr a1 (CArr (array_bitset_container_andnot l1 b2)) ;; ret a1
  | CBit _, CRun _ => bitset_run_iandnot a1 a2
  | CRun _, CBit _ => run_bitset_iandnot a1 a2
  | CArr l1, CRun r2 => _ <- wr a1 (CArr (array_run_container_andnot l1 r2)) ;; ret a1
  | CRun _, CArr _ => run_array_iandnot a1 a2
  end.

(** ** mixed_xor.c *)
(** 294-310 *)
Definition bitset_bitset_ixor (s1 s2 : nat) : M nat :=
  b1 <- rdB s1 ;; b2 <- rdB s2 ;; _ <- wr s1 (CBit (bitset_container_xor b1 b2)) ;; settle s1.
(** 278-292 *)
Definition bitset_array_ixor (s1 s2 : nat) : M nat :=
  b1 <- rdB s1 ;; l2 <- rdA s2 ;;
  let '(ws, card) := bitset_flip_list_withcard (b_words b1) (b_card b1) l2 in
  _ <- wr s1 (CBit (card, ws)) ;; settle s1.
(** 23-41 array_bitset_container_xor, 312-318 *)
Definition array_bitset_xor (s1 s2 : nat) : M nat :=
  l1 <- rdA s1 ;; b2 <- rdB s2 ;; result <- new (CBit b2) ;;
  let '(ws, card) := bitset_flip_list_withcard (b_words b2) (b_card b2) l1 in
  _ <- wr result (CBit (card, ws)) ;; settle result.
Definition array_bitset_ixor (s1 s2 : nat) : M nat := d <- array_bitset_xor s1 s2 ;; _ <- fr s1 ;; ret d.
(** 62-84 run_bitset_container_xor, 327-341 *)
Definition run_bitset_xor (s1 s2 : nat) : M nat :=
  r1 <- rdR s1 ;; b2 <- rdB s2 ;; result <- new (CBit b2) ;;
  let ws := flip_runs (b_words b2) r1 in
  _ <- wr result (CBit (bitset_container_compute_cardinality ws, ws)) ;; settle result.
Definition run_bitset_ixor (s1 s2 : nat) : M nat := d <- run_bitset_xor s1 s2 ;; _ <- fr s1 ;; ret d.
Definition bitset_run_ixor (s1 s2 : nat) : M nat := d <- run_bitset_xor s2 s1 ;; _ <- fr s1 ;; ret d.
(** 193-220 array_array_container_xor, 363-370 *)
Definition array_array_xor (s1 s2 : nat) : M nat :=
  l1 <- rdA s1 ;; l2 <- rdA s2 ;;
  if zlen l1 + zlen l2 <=? 4096 then new (CArr (array_container_xor l1 l2))
  else
    ours <- new (CBit (bitset_container_from_array l1)) ;;
    let '(ws, card) := bitset_flip_list_withcard (b_words (bitset_container_from_array l1)) (zlen l1) l2 in
    _ <- wr ours (CBit (card, ws)) ;; settle ours.
Definition array_array_ixor (s1 s2 : nat) : M nat := d <- array_array_xor s1 s2 ;; _ <- fr s1 ;; ret d.
(** 107-142 array_run_container_xor, 347-361 *)
Definition array_run_xor (s1 s2 : nat) : M nat :=
  l1 <- rdA s1 ;; r2 <- rdR s2 ;;
  if zlen l1 <? 32 then ans <- new (CRun (array_run_container_lazy_xor l1 r2)) ;; convert_run_and_free ans
  else if run_container_cardinality r2 <=? 4096 then
    temp <- new (CArr (array_container_from_run r2)) ;; d <- array_array_xor temp s1 ;; _ <- fr temp ;; ret d
  else result <- new (CBit (bitset_container_from_run r2)) ;; bitset_array_ixor result s1.
Definition array_run_ixor (s1 s2 : nat) : M nat := d <- array_run_xor s1 s2 ;; _ <- fr s1 ;; ret d.
Definition run_array_ixor (s1 s2 : nat) : M nat := d <- array_run_xor s2 s1 ;; _ <- fr s1 ;; ret d.
(** 175-182 run_run_container_xor, 372-377 *)
Definition run_run_xor (s1 s2 : nat) : M nat :=
  r1 <- rdR s1 ;; r2 <- rdR s2 ;; ans <- new (CRun (run_container_xor r1 r2)) ;; convert_run_and_free ans.
Definition run_run_ixor (s1 s2 : nat) : M nat := d <- run_run_xor s1 s2 ;; _ <- fr s1 ;; ret d.
(** containers.h:1648-1718 container_ixor *)
Definition container_ixor_mem (a1 a2 : nat) : M nat :=
  c1 <- rd a1 ;; c2 <- rd a2 ;;
  match c1, c2 with
  | CBit _, CBit _ => bitset_bitset_ixor a1 a2
  | CArr _, CArr _ => array_array_ixor a1 a2
  | CRun _, CRun _ => run_run_ixor a1 a2
  | CBit _, CArr _ => bitset_array_ixor a1 a2
  | CArr _, CBit _ => array_bitset_ixor a1 a2
  | CBit _, CRun _ => bitset_run_ixor a1 a2
  | CRun _, CBit _ => run_bitset_ixor a1 a2
  | CArr _, CRun _ => array_run_ixor a1 a2
  | CRun _, CArr _ => run_array_ixor a1 a2
  end.

(** ** mixed_intersection.c, mixed_union.c: the first operand is left to the caller *)
(** mixed_intersection.c:327-345 *)
Definition bitset_bitset_iand (s1 s2 : nat) : M nat :=
  b1 <- rdB s1 ;; b2 <- rdB s2 ;;
  let newCardinality := bitset_container_and_justcard b1 b2 in
  if 4096 <? newCardinality then _ <- wr s1 (CBit (newCardinality, b_words (bitset_container_and_nocard b1 b2))) ;; ret s1
  else new (CArr (bitset_extract_intersection_setbits (b_words b1) (b_words b2) 0)).
(** mixed_intersection.c:117-197; [inplace]: *dst == src_2 *)
Definition run_bitset_intersection (inplace : bool) (s1 s2 : nat) : M nat :=
  r1 <- rdR s1 ;; b2 <- rdB s2 ;;
  if run_container_is_full r1 then if inplace then ret s2 else new (CBit b2)
  else if run_container_cardinality r1 <=? 4096 then
    new (CArr (flat_map (fun x => map u16 (filter (fun v => bitset_container_get b2 v) (zr (fst x) (fst x + snd x + 1)))) r1))
  else
    let ws := isect_reset (b_words b2) 0 r1 in
    let b := (bitset_container_compute_cardinality ws, ws) in
    if inplace then
      _ <- wr s2 (CBit b) ;; if 4096 <? b_card b then ret s2 else array_from_bitset s2
    else
      answer <- new (CBit b2) ;; _ <- wr answer (CBit b) ;;
      if 4096 <? b_card b then ret answer
      else newanswer <- array_from_bitset answer ;; _ <- fr answer ;; ret newanswer.
(** containers.h:904-983 container_iand *)
Definition container_iand_mem (a1 a2 : nat) : M nat :=
  c1 <- rd a1 ;; c2 <- rd a2 ;;
  match c1, c2 with
  | CBit _, CBit _ => bitset_bitset_iand a1 a2
  | CArr l1, CArr l2 => _ <- wr a1 (CArr (array_container_intersection l1 l2)) ;; ret a1
  | CRun r1, CRun r2 => result <- new (CRun (run_container_intersection r1 r2)) ;; convert_run_and_free result
  | CBit b1, CArr l2 => new (CArr (array_bitset_container_intersection l2 b1))
  | CArr l1, CBit b2 => _ <- wr a1 (CArr (array_bitset_container_intersection l1 b2)) ;; ret a1
  | CBit _, CRun _ => run_bitset_intersection true a2 a1
  | CRun _, CBit _ => run_bitset_intersection false a1 a2
  | CArr l1, CRun r2 => new (CArr (array_run_container_intersection l1 r2))
  | CRun r1, CArr l2 => new (CArr (array_run_container_intersection l2 r1))
  end.
(** mixed_union.c:193-245 array_array_container_inplace_union and the test of its answer
    (containers.h:1229-1237); [cap]: the capacity of the first array *)
Definition array_array_ior (cap : Z) (s1 s2 : nat) : M nat :=
  l1 <- rdA s1 ;; l2 <- rdA s2 ;;
  if zlen l1 + zlen l2 <=? 4096 then
    if cap <? zlen l1 + zlen l2 then new (CArr (array_container_union l1 l2))
    else _ <- wr s1 (CArr (union_uint16 l1 l2)) ;; ret s1
  else
    ours <- new (CBit (array_array_bitset_union l1 l2)) ;;
    b <- rdB ours ;;
    if b_card b <=? 4096 then _ <- wr s1 (CArr (array_container_from_bitset b)) ;; _ <- fr ours ;; ret s1
    else ret ours.
(** containers.h:1209-1302 container_ior *)
Definition container_ior_mem (cap : Z) (a1 a2 : nat) : M nat :=
  c1 <- rd a1 ;; c2 <- rd a2 ;;
  match c1, c2 with
  | CBit b1, CBit b2 =>
    let b := bitset_container_or b1 b2 in
    _ <- wr a1 (CBit b) ;;
    if b_card b =? 65536 then new (CRun (run_container_create_range 0 65536)) else ret a1
  | CArr _, CArr _ => array_array_ior cap a1 a2
  | CRun r1, CRun r2 => _ <- wr a1 (CRun (run_container_union r1 r2)) ;; convert_run a1
  | CBit b1, CArr l2 => _ <- wr a1 (CBit (array_bitset_container_union l2 b1)) ;; ret a1
  | CArr l1, CBit b2 => new (CBit (array_bitset_container_union l1 b2))
  | CBit b1, CRun r2 =>
    if run_container_is_full r2 then new (CRun r2)
    else _ <- wr a1 (CBit (run_bitset_container_union r2 b1)) ;; ret a1
  | CRun r1, CBit b2 => if run_container_is_full r1 then ret a1 else new (CBit (run_bitset_container_union r1 b2))
  | CArr l1, CRun r2 => result <- new (CRun (array_run_container_union l1 r2)) ;; convert_run_and_free result
  | CRun r1, CArr l2 => _ <- wr a1 (CRun (array_run_container_union l2 r1)) ;; convert_run a1
  end.

(** ** mixed_negation.c *)
(** 204-221 bitset_container_negation_range_inplace *)
Definition bitset_inot_range (s : nat) (lo hi : Z) : M nat :=
  b <- rdB s ;;
  let ws := bitset_flip_range (b_words b) lo hi in
  _ <- wr s (CBit (bitset_container_compute_cardinality ws, ws)) ;; settle s.
(** 150-158 array_container_negation_range_inplace *)
Definition array_inot_range (s : nat) (lo hi : Z) : M nat :=
  l <- rdA s ;; d <- new (array_container_negation_range l lo hi) ;; _ <- fr s ;; ret d.
(** 229-261 run_container_negation_range *)
Definition run_not_range (s : nat) (lo hi : Z) : M nat :=
  r <- rdR s ;;
  if hi <=? lo then new (CRun r)
  else
    ans <- new (CRun (run_negation_runs r lo hi)) ;; d <- convert_run ans ;;
    if Nat.eqb d ans then ret d else _ <- fr ans ;; ret d.
(** 270-346 run_container_negation_range_inplace; [cap]: the capacity of the container *)
Definition run_inot_range (cap : Z) (s : nat) (lo hi : Z) : M nat :=
  r <- rdR s ;;
  if hi <=? lo then ret s
  else if (cap =? zlen r) &&
          (let last_val_before_range := if 0 <? lo then run_container_contains r (u16 (lo - 1)) else false in
           let first_val_in_range := run_container_contains r (u16 lo) in
           Bool.eqb last_val_before_range first_val_in_range &&
           (let last_val_in_range := run_container_contains r (u16 (hi - 1)) in
            let first_val_past_range := if negb (hi =? 65536) then run_container_contains r (u16 hi) else false in
            Bool.eqb last_val_in_range first_val_past_range))
  then ans <- run_not_range s lo hi ;; _ <- fr s ;; ret ans
  else
    _ <- wr s (CRun (run_negation_runs r lo hi)) ;; d <- convert_run s ;;
    if Nat.eqb d s then ret d else _ <- fr s ;; ret d.
(** containers.h:2058-2084 container_inot; 2090-2121 container_inot_range *)
Definition container_inot_mem (cap : Z) (a : nat) : M nat :=
  c <- rd a ;;
  match c with
  | CBit _ => bitset_inot_range a 0 65536
  | CArr l => result <- new (CBit (array_container_negation l)) ;; _ <- fr a ;; ret result
  | CRun _ => run_inot_range cap a 0 65536
  end.
Definition container_inot_range_mem (cap : Z) (a : nat) (lo hi : Z) : M nat :=
  c <- rd a ;;
  match c with
  | CBit _ => bitset_inot_range a lo hi
  | CArr _ => array_inot_range a lo hi
  | CRun _ => run_inot_range cap a lo hi
  end.

(** ** containers.h: updates of one container; the container is left to the caller *)
(** 477-509 container_add *)
Definition container_add_mem (a : nat) (val : Z) : M nat :=
  c <- rd a ;;
  match c with
  | CBit b => _ <- wr a (CBit (bitset_container_set b val)) ;; ret a
  | CArr l =>
    let '(rc, l') := array_container_try_add l val 4096 in
    if negb (rc =? -1) then _ <- wr a (CArr l') ;; ret a
    else bitset <- new (CBit (bitset_container_from_array l)) ;;
         _ <- wr bitset (CBit (fst (bitset_container_add (bitset_container_from_array l) val))) ;; ret bitset
  | CRun r => _ <- wr a (CRun (fst (run_container_add r val))) ;; ret a
  end.
(** 518-548 container_remove *)
Definition container_remove_mem (a : nat) (val : Z) : M nat :=
  c <- rd a ;;
  match c with
  | CBit b =>
    let '(b', removed) := bitset_container_remove b val in
    _ <- wr a (CBit b') ;;
    if removed then if b_card b' <=? 4096 then array_from_bitset a else ret a else ret a
  | CArr l => _ <- wr a (CArr (fst (array_container_remove l val))) ;; ret a
  | CRun r => _ <- wr a (CRun (fst (run_container_remove r val))) ;; ret a
  end.
(** convert.c:323-348 container_from_run_range *)
Definition from_run_range (a : nat) (min max : Z) : M nat :=
  r <- rdR a ;;
  let ws := set_runs (b_words bitset_container_create) r in
  let union_cardinality := fold_left (fun s x => s + (snd x + 1)) r 0 + (max - min + 1)
                           - bitset_lenrange_cardinality ws min (max - min) in
  bitset <- new (CBit (union_cardinality, bitset_set_lenrange ws min (max - min))) ;; settle bitset.
(** 2263-2344 container_add_range *)
Definition container_add_range_mem (a : nat) (min max : Z) : M nat :=
  c <- rd a ;;
  match c with
  | CBit b =>
    let union_cardinality := b_card b + (max - min + 1) - bitset_lenrange_cardinality (b_words b) min (max - min) in
    if union_cardinality =? 65536 then new (CRun (run_container_create_range 0 65536))
    else _ <- wr a (CBit (union_cardinality, bitset_set_lenrange (b_words b) min (max - min))) ;; ret a
  | CArr l =>
    let nvals_greater := count_greater l (u16 max) in
    let nvals_less := count_less (ztake (zlen l - nvals_greater) l) (u16 min) in
    let union_cardinality := nvals_less + (max - min + 1) + nvals_greater in
    if union_cardinality =? 65536 then new (CRun (run_container_create_range 0 65536))
    else if union_cardinality <=? 4096 then
      _ <- wr a (CArr (array_container_add_range_nvals l min max nvals_less nvals_greater)) ;; ret a
    else new (CBit (union_cardinality, bitset_set_lenrange (b_words (bitset_container_from_array l)) min (max - min)))
  | CRun r =>
    let nruns_greater := rle16_count_greater r (u16 max) in
    let nruns_less := rle16_count_less (rtake (zlen r - nruns_greater) r) (u16 min) in
    if (nruns_less + 1 + nruns_greater) * 4 <=? 1024 * 8
    then _ <- wr a (CRun (run_container_add_range_nruns r min max nruns_less nruns_greater)) ;; ret a
    else from_run_range a min max
  end.
(** 2352-2413 container_remove_range; NULL is None *)
Definition container_remove_range_mem (a : nat) (min max : Z) : M (option nat) :=
  c <- rd a ;;
  match c with
  | CBit b =>
    let result_cardinality := b_card b - bitset_lenrange_cardinality (b_words b) min (max - min) in
    if result_cardinality =? 0 then ret None
    else
      _ <- wr a (CBit (result_cardinality, bitset_reset_range (b_words b) min (max + 1))) ;;
      if result_cardinality <=? 4096 then d <- array_from_bitset a ;; ret (Some d) else ret (Some a)
  | CArr l =>
    let nvals_greater := count_greater l (u16 max) in
    let nvals_less := count_less (ztake (zlen l - nvals_greater) l) (u16 min) in
    let result_cardinality := nvals_less + nvals_greater in
    if result_cardinality =? 0 then ret None
    else _ <- wr a (CArr (array_container_remove_range l nvals_less (zlen l - result_cardinality))) ;; ret (Some a)
  | CRun r =>
    if zlen r =? 0 then ret None
    else if (min <=? run_container_minimum r) && (run_container_maximum r <=? max) then ret None
    else _ <- wr a (CRun (run_container_remove_range r min max)) ;; d <- convert_run a ;; ret (Some d)
  end.

(** ** What roaring.c does with the answer for one key *)
(** the nonempty container is stored, the empty one freed: roaring.c:825-833 (and),
    1114-1124 (xor), 1268-1275 (andnot) *)
Definition keep_nonzero (d : nat) : M (option nat) :=
  c <- rd d ;; if container_nonzero_cardinality c then ret (Some d) else _ <- fr d ;; ret None.
(** roaring.c:811-833 and_inplace *)
Definition act_iand (_ : Z) (a1 a2 : nat) : M (option nat) :=
  d <- container_iand_mem a1 a2 ;;
  _ <- (if Nat.eqb d a1 then ret tt else fr a1) ;; keep_nonzero d.
(** roaring.c:939-958 or_inplace *)
Definition act_ior (cap : Z -> Z) (k : Z) (a1 a2 : nat) : M (option nat) :=
  c1 <- rd a1 ;;
  if container_is_full c1 then ret (Some a1)
  else
    d <- container_ior_mem (cap k) a1 a2 ;;
    _ <- (if Nat.eqb d a1 then ret tt else fr a1) ;; ret (Some d).
(** roaring.c:1097-1125 xor_inplace; 1250-1276 andnot_inplace *)
Definition act_ixor (_ : Z) (a1 a2 : nat) : M (option nat) := d <- container_ixor_mem a1 a2 ;; keep_nonzero d.
Definition act_iandnot (_ : Z) (a1 a2 : nat) : M (option nat) := d <- container_iandnot_mem a1 a2 ;; keep_nonzero d.
(** roaring.c:540-552 add; 606-622 remove (ra_remove_at_index_and_free) *)
Definition act_add (val : Z) (a : nat) : M (option nat) :=
  d <- container_add_mem a val ;; if Nat.eqb d a then ret (Some d) else _ <- fr a ;; ret (Some d).
Definition act_remove (val : Z) (a : nat) : M (option nat) :=
  d <- container_remove_mem a val ;;
  _ <- (if Nat.eqb d a then ret tt else fr a) ;; keep_nonzero d.
(** roaring.c:280-289 add_range_closed; 316-331 remove_range_closed *)
Definition act_add_range (min max : Z) (a : nat) : M (option nat) :=
  d <- container_add_range_mem a min max ;; _ <- (if Nat.eqb d a then ret tt else fr a) ;; ret (Some d).
Definition act_remove_range (min max : Z) (a : nat) : M (option nat) :=
  o <- container_remove_range_mem a min max ;;
  _ <- (match o with Some d => if Nat.eqb d a then ret tt else fr a | None => fr a end) ;; ret o.
(** roaring.c:1937-1957 inplace_flip_container, 1990-2005 inplace_fully_flip_container *)
Definition keep_card (d : nat) : M (option nat) :=
  c <- rd d ;; if negb (container_get_cardinality c =? 0) then ret (Some d) else _ <- fr d ;; ret None.
Definition act_flip_part (cap lo hi : Z) (a : nat) : M (option nat) := d <- container_inot_range_mem cap a lo hi ;; keep_card d.
Definition act_flip_full (cap : Z) (a : nat) : M (option nat) := d <- container_inot_mem cap a ;; keep_card d.
(** roaring.c:1410-1426 run_optimize: one container *)
Definition act_run_optimize (a : nat) : M (option nat) := d <- run_optimize a ;; ret (Some d).
(** roaring.c:1444-1472 remove_run_compression: one container, not shared *)
Definition act_remove_runs (a : nat) : M (option nat) :=
  c <- rd a ;;
  match c with
  | CRun r => d <- new (convert_to_bitset_or_array_container r (run_container_cardinality r)) ;; _ <- fr a ;; ret (Some d)
  | _ => ret (Some a)
  end.

(** ** The contracts *)
Definition wfh (h : heap) : Prop := forall x, (nx h <= x)%nat -> ce h x = None.
Definition ohs (o : option nat) : list nat := match o with Some a => [a] | None => [] end.
(** from h to h' the containers F are used up and the containers G come into being (or
    stay, if they are in F too); everything else is as before *)
Definition post (h : heap) (F G : list nat) (h' : heap) : Prop :=
  wfh h' /\ (nx h <= nx h')%nat /\ NoDup G /\ (forall x, In x G -> In x F \/ (nx h <= x)%nat) /\
  (forall x, In x G -> (x < nx h')%nat) /\
  (forall x, ~ In x G -> In x F -> ce h' x = None) /\ (forall x, ~ In x G -> ~ In x F -> ce h' x = ce h x).
Definition oval (h : heap) (o : option nat) (oc : option container) : Prop :=
  match o, oc with Some a, Some c => ce h a = Some c | None, None => True | _, _ => False end.
Definition act1_ok (f : container -> option container) (act : nat -> M (option nat)) : Prop :=
  forall h a c, wfh h -> ce h a = Some c -> exists h' o, act a h = Some (h', o) /\ post h [a] (ohs o) h' /\ oval h' o (f c).
Definition act2_ok (f : Z -> container -> container -> option container) (act : Z -> nat -> nat -> M (option nat)) : Prop :=
  forall k h a1 a2 c1 c2, wfh h -> ce h a1 = Some c1 -> ce h a2 = Some c2 -> a1 <> a2 ->
  exists h' o, act k a1 a2 h = Some (h', o) /\ post h [a1] (ohs o) h' /\ oval h' o (f k c1 c2).

(** symbolic execution *)
Definition wp {A} (e : M A) (h : heap) (Q : heap -> A -> Prop) : Prop := exists h' a, e h = Some (h', a) /\ Q h' a.
Lemma wp_bind {A B} (e : M A) (f : A -> M B) h Q : wp e h (fun h1 a => wp (f a) h1 Q) -> wp (bind e f) h Q.
Proof. intros (h1&a&E&h2&b&E2&HQ). exists h2, b. unfold bind. now rewrite E. Qed.
Lemma wp_ret {A} (a : A) h (Q : heap -> A -> Prop) : Q h a -> wp (ret a) h Q. Proof. intros. now exists h, a. Qed.
Lemma wp_rd a c h (Q : heap -> container -> Prop) : ce h a = Some c -> Q h c -> wp (rd a) h Q.
Proof. intros E HQ. exists h, c. unfold rd. now rewrite E. Qed.
Lemma wp_rdB a b h (Q : heap -> bset -> Prop) : ce h a = Some (CBit b) -> Q h b -> wp (rdB a) h Q.
Proof. intros E HQ. exists h, b. unfold rdB, bind, rd. now rewrite E. Qed.
Lemma wp_rdA a l h (Q : heap -> list Z -> Prop) : ce h a = Some (CArr l) -> Q h l -> wp (rdA a) h Q.
Proof. intros E HQ. exists h, l. unfold rdA, bind, rd. now rewrite E. Qed.
Lemma wp_rdR a r h (Q : heap -> list run -> Prop) : ce h a = Some (CRun r) -> Q h r -> wp (rdR a) h Q.
Proof. intros E HQ. exists h, r. unfold rdR, bind, rd. now rewrite E. Qed.
Lemma wp_new c n f (Q : heap -> nat -> Prop) : Q (H (S n) (upd f n (Some c))) n -> wp (new c) (H n f) Q.
Proof. intros HQ. now exists (H (S n) (upd f n (Some c))), n. Qed.
Lemma wp_wr a c c0 n f (Q : heap -> unit -> Prop) : f a = Some c0 -> Q (H n (upd f a (Some c))) tt -> wp (wr a c) (H n f) Q.
Proof. intros E HQ. exists (H n (upd f a (Some c))), tt. unfold wr. cbn [ce nx]. now rewrite E. Qed.
Lemma wp_fr a c0 n f (Q : heap -> unit -> Prop) : f a = Some c0 -> Q (H n (upd f a None)) tt -> wp (fr a) (H n f) Q.
Proof. intros E HQ. exists (H n (upd f a None)), tt. unfold fr. cbn [ce nx]. now rewrite E. Qed.
Lemma wp_mono {A} (e : M A) h (Q R : heap -> A -> Prop) : wp e h Q -> (forall h' a, Q h' a -> R h' a) -> wp e h R.
Proof. intros (h'&a&E&HQ) HR. exists h', a. auto. Qed.
Lemma upd_same f a o : upd f a o a = o. Proof. unfold upd. now rewrite Nat.eqb_refl. Qed.
Lemma upd_other f a o x : x <> a -> upd f a o x = f x. Proof. intros N. unfold upd. now rewrite (proj2 (Nat.eqb_neq x a) N). Qed.
Lemma wf_lt h a c : wfh h -> ce h a = Some c -> (a < nx h)%nat.
Proof. intros W E. destruct (Nat.lt_ge_cases a (nx h)) as [L|L]; auto. rewrite (W a L) in E. discriminate. Qed.
Ltac ucase := unfold upd in *; repeat match goal with
  | |- context [Nat.eqb ?x ?y] => destruct (Nat.eqb_spec x y)
  | _ : context [Nat.eqb ?x ?y] |- _ => destruct (Nat.eqb_spec x y) end.
Ltac nodup := repeat first [apply NoDup_nil | apply NoDup_cons; [cbn [In]; intuition lia|]].

Definition made (h : heap) (F : list nat) (c : container) (h' : heap) (d : nat) : Prop := post h F [d] h' /\ ce h' d = Some c.
Lemma made_val h F c c' h' d : made h F c h' d -> c = c' -> made h F c' h' d. Proof. now intros ? <-. Qed.
Lemma made_new n f c : wfh (H n f) -> made (H n f) [] c (H (S n) (upd f n (Some c))) n.
Proof.
  intros W. split; [|cbn [ce]; apply upd_same]. unfold post, wfh in *; cbn [nx ce] in *.
  split; [intros x L; rewrite upd_other by lia; apply W; lia|]. split; [lia|]. split; [nodup|]. cbn [In].
  split; [intros x [<-|[]]; right; lia|]. split; [intros x [<-|[]]; lia|]. split; [intros x ? []|].
  intros x N _. apply upd_other. intuition.
Qed.
Lemma made_id n f a c : wfh (H n f) -> f a = Some c -> made (H n f) [a] c (H n f) a.
Proof.
  intros W E. split; [|exact E]. pose proof (wf_lt _ _ _ W E) as L. unfold post in *; cbn [nx ce In] in *.
  split; [exact W|]. split; [lia|]. split; [nodup|]. split; [intros x [<-|[]]; now left; left|]. split; [intros x [<-|[]]; exact L|].
  split; [intros x N [<-|[]]; exfalso; apply N; now left|]. auto.
Qed.
(** writing to a before a is used up *)
Lemma post_wr n f a o G h' F : In a F -> post (H n (upd f a o)) F G h' -> post (H n f) F G h'.
Proof.
  intros Ia (W&L&N&O&B&D&K). unfold post. cbn [nx ce] in *. repeat (split; auto).
  intros x N1 N2. rewrite K by auto. apply upd_other. intros ->. contradiction.
Qed.
Lemma wfh_wr n f a c0 o : wfh (H n f) -> f a = Some c0 -> wfh (H n (upd f a o)).
Proof. intros W E x L. cbn [nx ce] in *. pose proof (wf_lt _ _ _ W E) as La. cbn [nx] in La. rewrite upd_other by lia. now apply W. Qed.
Lemma wfh_new n f c : wfh (H n f) -> wfh (H (S n) (upd f n c)).
Proof. intros W x L. cbn [nx ce] in *. rewrite upd_other by lia. apply W. cbn [nx]. lia. Qed.
(** a temporary container that is used up *)
Lemma post_new n f c F G h' : wfh (H n f) -> post (H (S n) (upd f n c)) (n :: F) G h' -> post (H n f) F G h'.
Proof.
  intros W0 (W&L&N&O&B&D&K). unfold post. cbn [nx ce] in *. split; [exact W|]. split; [lia|]. split; [exact N|].
  split; [intros x I; destruct (O x I) as [[<-|I']|I']; [right; lia|now left|right; lia]|]. split; [exact B|].
  split; [intros x N1 I; apply D; auto; now right|].
  intros x N1 N2. destruct (Nat.eq_dec x n) as [->|Ne].
  - rewrite D; [|auto|now left]. symmetry. apply W0. cbn [nx]. lia.
  - rewrite K; [apply upd_other; auto|auto|]. intros [E|I]; [now apply Ne|contradiction].
Qed.
(** something is computed from a, then a is freed *)
Lemma fresh_free (e : M nat) h a ca c : wfh h -> ce h a = Some ca -> wp e h (made h [] c) ->
  wp (d <- e ;; _ <- fr a ;; ret d) h (made h [a] c).
Proof.
  intros W0 Ea (h'&d&E&(W&L&N&O&B&D&K)&V). pose proof (wf_lt _ _ _ W0 Ea) as La.
  assert (Hd : (nx h <= d)%nat) by (destruct (O d (or_introl eq_refl)) as [[]|]; auto).
  assert (Ea' : ce h' a = Some ca) by (rewrite K; [exact Ea|cbn [In]; intuition lia|intros []]).
  apply wp_bind. exists h', d. split; [exact E|]. apply wp_bind. destruct h' as [n' f']. cbn [nx ce] in *.
  eapply wp_fr; [exact Ea'|]. apply wp_ret. split; [|cbn [ce]; rewrite upd_other by lia; exact V].
  unfold post; cbn [nx ce In] in *. split; [apply (wfh_wr _ _ _ ca); auto|]. split; [exact L|]. split; [exact N|].
  split; [intros x [<-|[]]; now right|]. split; [exact B|].
  split; [intros x _ [<-|[]]; apply upd_same|].
  intros x N1 N2. rewrite upd_other by intuition. apply K; auto.
Qed.
Lemma from_bitset_wp n f a b : wfh (H n f) -> f a = Some (CBit b) ->
  wp (array_from_bitset a) (H n f) (fun h' d => h' = H (S n) (upd f n (Some (CArr (array_container_from_bitset b)))) /\ d = n).
Proof. intros W E. unfold array_from_bitset. apply wp_bind. eapply wp_rdB; [exact E|]. apply wp_new. auto. Qed.
Lemma settle_wp h a b : wfh h -> ce h a = Some (CBit b) -> wp (settle a) h (made h [a] (bitset_or_array b)).
Proof.
  intros W E. unfold settle, bitset_or_array. apply wp_bind. eapply wp_rdB; [exact E|]. destruct h as [n f]. cbn [ce] in E.
  destruct (b_card b <=? 4096).
  - eapply fresh_free; [exact W|exact E|]. eapply wp_mono; [apply from_bitset_wp; eauto|]. intros h' d [-> ->]. now apply made_new.
  - apply wp_ret. now apply made_id.
Qed.
(** a bitset is written at a, which is then settled *)
Lemma wr_settle n f a c0 b : wfh (H n f) -> f a = Some c0 -> wp (_ <- wr a (CBit b) ;; settle a) (H n f) (made (H n f) [a] (bitset_or_array b)).
Proof.
  intros W E. apply wp_bind. eapply wp_wr; [exact E|]. eapply wp_mono.
  - apply settle_wp; [apply (wfh_wr _ _ _ c0); auto|cbn [ce]; apply upd_same].
  - intros h' d [P V]. split; auto. eapply post_wr; [now left|exact P].
Qed.
Lemma wp_new_then n f c0 (e : nat -> M nat) F c : wfh (H n f) ->
  wp (e n) (H (S n) (upd f n (Some c0))) (made (H (S n) (upd f n (Some c0))) (n :: F) c) ->
  wp (x <- new c0 ;; e x) (H n f) (made (H n f) F c).
Proof. intros W E. apply wp_bind, wp_new. eapply wp_mono; [exact E|]. intros h' d [P V]. split; auto. eapply post_new; eauto. Qed.
Lemma convert_wp h a r : wfh h -> ce h a = Some (CRun r) ->
  wp (convert_run a) h (fun h' d => (d = a /\ h' = h /\ convert_run_to_efficient_container r = CRun r) \/
    (d = nx h /\ h' = H (S (nx h)) (upd (ce h) (nx h) (Some (convert_run_to_efficient_container r))))).
Proof.
  intros W E. unfold convert_run. apply wp_bind. eapply wp_rdR; [exact E|]. destruct h as [n f].
  assert (X : forall r', convert_run_to_efficient_container r = CRun r' -> r' = r).
  { intros r'. unfold convert_run_to_efficient_container. destruct (_ <=? _); [intros Y; now injection Y|]. destruct (_ <=? _); discriminate. }
  destruct (convert_run_to_efficient_container r) as [l|b|r'] eqn:Ec.
  - apply wp_new. right. auto.
  - apply wp_new. right. auto.
  - apply wp_ret. left. rewrite (X r' eq_refl). auto.
Qed.
Lemma convert_free_wp h a r : wfh h -> ce h a = Some (CRun r) ->
  wp (d <- convert_run a ;; if Nat.eqb d a then ret d else _ <- fr a ;; ret d) h (made h [a] (convert_run_to_efficient_container r)).
Proof.
  intros W E. apply wp_bind. eapply wp_mono; [apply convert_wp; eauto|]. destruct h as [n f]. pose proof (wf_lt _ _ _ W E) as L. cbn [nx ce] in *.
  intros h' d [(->&->&Ec)|(->&->)].
  - rewrite Nat.eqb_refl. apply wp_ret. rewrite Ec. now apply made_id.
  - rewrite (proj2 (Nat.eqb_neq n a)) by lia. generalize (convert_run_to_efficient_container r). intros c.
    destruct (fresh_free (new c) (H n f) a (CRun r) c) as (h2&d&X&Y); auto; [apply wp_new; now apply made_new|].
    unfold bind, new in X. cbn [nx ce] in X. exists h2, d. split; [exact X|exact Y].
Qed.
Lemma convert_and_free_wp h a r : wfh h -> ce h a = Some (CRun r) -> wp (convert_run_and_free a) h (made h [a] (convert_run_to_efficient_container r)).
Proof. apply convert_free_wp. Qed.

(** ** The kernels *)
Definition frees2 (e : nat -> nat -> M nat) (v : container -> container -> container) (h : heap) (a1 a2 : nat) (c1 c2 : container) : Prop :=
  wfh h -> ce h a1 = Some c1 -> ce h a2 = Some c2 -> a1 <> a2 -> wp (e a1 a2) h (made h [a1] (v c1 c2)).
Lemma wp_val (e : M nat) h F c c' : wp e h (made h F c) -> c = c' -> wp e h (made h F c'). Proof. now intros ? <-. Qed.
Ltac hp h := let n := fresh "n" in let f := fresh "f" in destruct h as [n f]; cbn [ce nx] in *.
Ltac bnd := apply wp_bind.
Ltac look := first [eassumption | cbn [ce nx]; first [eassumption | apply upd_same | (rewrite upd_other by lia; eassumption)]].
Lemma ba_iandnot_wp h a1 a2 b1 l2 : wfh h -> ce h a1 = Some (CBit b1) -> ce h a2 = Some (CArr l2) ->
  wp (bitset_array_iandnot a1 a2) h (made h [a1] (bitset_array_container_andnot b1 l2)).
Proof.
  intros W E1 E2. unfold bitset_array_iandnot, bitset_array_container_andnot. bnd. eapply wp_rdB; [exact E1|]. bnd. eapply wp_rdA; [exact E2|].
  destruct (bitset_clear_list (b_words b1) (b_card b1) l2) as [ws card]. hp h. now apply wr_settle with (c0 := CBit b1).
Qed.
Lemma ba_ixor_wp h a1 a2 b1 l2 : wfh h -> ce h a1 = Some (CBit b1) -> ce h a2 = Some (CArr l2) ->
  wp (bitset_array_ixor a1 a2) h (made h [a1] (array_bitset_container_xor l2 b1)).
Proof.
  intros W E1 E2. unfold bitset_array_ixor, array_bitset_container_xor. bnd. eapply wp_rdB; [exact E1|]. bnd. eapply wp_rdA; [exact E2|].
  destruct (bitset_flip_list_withcard (b_words b1) (b_card b1) l2) as [ws card]. hp h. now apply wr_settle with (c0 := CBit b1).
Qed.
(** a copy of a bitset is changed and settled *)
Lemma new_settle n f b0 b : wfh (H n f) -> wp (x <- new (CBit b0) ;; _ <- wr x (CBit b) ;; settle x) (H n f) (made (H n f) [] (bitset_or_array b)).
Proof. intros W. apply (wp_new_then n f (CBit b0) (fun x => _ <- wr x (CBit b) ;; settle x)); auto. apply wr_settle with (c0 := CBit b0); [now apply wfh_new|apply upd_same]. Qed.
Lemma new_convert n f r : wfh (H n f) -> wp (x <- new (CRun r) ;; convert_run_and_free x) (H n f) (made (H n f) [] (convert_run_to_efficient_container r)).
Proof. intros W. apply (wp_new_then n f (CRun r)); auto. apply convert_and_free_wp; [now apply wfh_new|cbn [ce]; apply upd_same]. Qed.
Lemma new_wp n f c : wfh (H n f) -> wp (new c) (H n f) (made (H n f) [] c). Proof. intros W. apply wp_new. now apply made_new. Qed.
Lemma rb_andnot_wp h a1 a2 r1 b2 : wfh h -> ce h a1 = Some (CRun r1) -> ce h a2 = Some (CBit b2) ->
  wp (run_bitset_andnot a1 a2) h (made h [] (run_bitset_container_andnot r1 b2)).
Proof.
  intros W E1 E2. unfold run_bitset_andnot, run_bitset_container_andnot. bnd. eapply wp_rdR; [exact E1|]. bnd. eapply wp_rdB; [exact E2|]. hp h.
  destruct (run_container_cardinality r1 <=? 4096); [now apply new_wp|]. now apply new_settle.
Qed.
Lemma ra_andnot_wp h a1 a2 r1 l2 : wfh h -> ce h a1 = Some (CRun r1) -> ce h a2 = Some (CArr l2) ->
  wp (run_array_andnot a1 a2) h (made h [] (run_array_container_andnot r1 l2)).
Proof.
  intros W E1 E2. unfold run_array_andnot, run_array_container_andnot. bnd. eapply wp_rdR; [exact E1|]. bnd. eapply wp_rdA; [exact E2|]. pose proof (wf_lt _ _ _ W E2) as L. hp h.
  cbv zeta. destruct (run_container_cardinality r1 <=? 32); [destruct (zlen l2 =? 0); [now apply new_wp|]|destruct (run_container_cardinality r1 <=? 4096); [now apply new_wp|]].
  - set (R := run_array_andnot_loop _ _ _ _ _ _). clearbody R.
    eapply wp_val with (c := convert_run_to_efficient_container R); [|reflexivity].
    apply (wp_new_then n f (CRun R)); auto.
    assert (X : wp (d <- convert_run n ;; if Nat.eqb d n then ret d else _ <- fr n ;; ret d) (H (S n) (upd f n (Some (CRun R))))
       (made (H (S n) (upd f n (Some (CRun R)))) [n] (convert_run_to_efficient_container R))).
    { apply convert_free_wp; [now apply wfh_new|cbn [ce]; apply upd_same]. }
    destruct X as (h'&d&Ex&Q). exists h', d. split; [|exact Q]. rewrite <- Ex. unfold bind. destruct (convert_run n _) as [[h1 d1]|]; auto. now rewrite Nat.eqb_sym.
  - apply (wp_new_then n f (CBit (bitset_container_from_run r1)) (fun ans => bitset_array_iandnot ans a2)); auto.
    apply ba_iandnot_wp; [now apply wfh_new|cbn [ce]; apply upd_same|cbn [ce]; rewrite upd_other by lia; exact E2].
Qed.
Lemma rr_andnot_wp h a1 a2 r1 r2 : wfh h -> ce h a1 = Some (CRun r1) -> ce h a2 = Some (CRun r2) ->
  wp (run_run_andnot a1 a2) h (made h [] (run_run_container_andnot r1 r2)).
Proof.
  intros W E1 E2. unfold run_run_andnot, run_run_container_andnot. bnd. eapply wp_rdR; [exact E1|]. bnd. eapply wp_rdR; [exact E2|]. hp h. now apply new_convert.
Qed.
(** the contents of a are replaced *)
Lemma wr_ret n f a c0 c : wfh (H n f) -> f a = Some c0 -> wp (_ <- wr a c ;; ret a) (H n f) (made (H n f) [a] c).
Proof.
  intros W E. bnd. eapply wp_wr; [exact E|]. apply wp_ret. destruct (made_id n (upd f a (Some c)) a c) as [P V].
  - now apply (wfh_wr _ _ _ c0).
  - apply upd_same.
  - split; auto. eapply post_wr; [now left|exact P].
Qed.
Lemma iandnot_wp h a1 a2 c1 c2 : frees2 container_iandnot_mem container_iandnot h a1 a2 c1 c2.
Proof.
  intros W E1 E2 N. unfold container_iandnot_mem, container_iandnot. bnd. eapply wp_rd; [exact E1|]. bnd. eapply wp_rd; [exact E2|].
  destruct c1 as [l1|b1|r1], c2 as [l2|b2|r2].
  - hp h. now apply wr_ret with (c0 := CArr l1).
  - hp h. now apply wr_ret with (c0 := CArr l1).
  - hp h. now apply wr_ret with (c0 := CArr l1).
  - now apply ba_iandnot_wp.
  - unfold bitset_bitset_iandnot, bitset_bitset_container_andnot. bnd. eapply wp_rdB; [exact E1|]. bnd. eapply wp_rdB; [exact E2|]. hp h. now apply wr_settle with (c0 := CBit b1).
  - unfold bitset_run_iandnot, bitset_run_container_andnot. bnd. eapply wp_rdB; [exact E1|]. bnd. eapply wp_rdR; [exact E2|]. hp h. now apply wr_settle with (c0 := CBit b1).
  - eapply fresh_free; [exact W|exact E1|]. now apply ra_andnot_wp.
  - eapply fresh_free; [exact W|exact E1|]. now apply rb_andnot_wp.
  - eapply fresh_free; [exact W|exact E1|]. now apply rr_andnot_wp.
Qed.
Lemma ab_xor_wp h a1 a2 l1 b2 : wfh h -> ce h a1 = Some (CArr l1) -> ce h a2 = Some (CBit b2) ->
  wp (array_bitset_xor a1 a2) h (made h [] (array_bitset_container_xor l1 b2)).
Proof.
  intros W E1 E2. unfold array_bitset_xor, array_bitset_container_xor. bnd. eapply wp_rdA; [exact E1|]. bnd. eapply wp_rdB; [exact E2|]. hp h.
  destruct (bitset_flip_list_withcard (b_words b2) (b_card b2) l1) as [ws card]. now apply new_settle.
Qed.
Lemma rb_xor_wp h a1 a2 r1 b2 : wfh h -> ce h a1 = Some (CRun r1) -> ce h a2 = Some (CBit b2) ->
  wp (run_bitset_xor a1 a2) h (made h [] (run_bitset_container_xor r1 b2)).
Proof.
  intros W E1 E2. unfold run_bitset_xor, run_bitset_container_xor. bnd. eapply wp_rdR; [exact E1|]. bnd. eapply wp_rdB; [exact E2|]. hp h. now apply new_settle.
Qed.
Lemma aa_xor_wp h a1 a2 l1 l2 : wfh h -> ce h a1 = Some (CArr l1) -> ce h a2 = Some (CArr l2) ->
  wp (array_array_xor a1 a2) h (made h [] (array_array_container_xor l1 l2)).
Proof.
  intros W E1 E2. unfold array_array_xor, array_array_container_xor. bnd. eapply wp_rdA; [exact E1|]. bnd. eapply wp_rdA; [exact E2|]. hp h.
  destruct (zlen l1 + zlen l2 <=? 4096); [now apply new_wp|].
  destruct (bitset_flip_list_withcard (b_words (bitset_container_from_array l1)) (zlen l1) l2) as [ws card]. now apply new_settle.
Qed.
Lemma ar_xor_wp h a1 a2 l1 r2 : wfh h -> ce h a1 = Some (CArr l1) -> ce h a2 = Some (CRun r2) ->
  wp (array_run_xor a1 a2) h (made h [] (array_run_container_xor l1 r2)).
Proof.
  intros W E1 E2. unfold array_run_xor, array_run_container_xor. bnd. eapply wp_rdA; [exact E1|]. bnd. eapply wp_rdR; [exact E2|]. pose proof (wf_lt _ _ _ W E1) as L. hp h.
  destruct (zlen l1 <? 32); [now apply new_convert|]. destruct (run_container_cardinality r2 <=? 4096).
  - apply (wp_new_then n f (CArr (array_container_from_run r2)) (fun t => d <- array_array_xor t a1 ;; _ <- fr t ;; ret d)); auto.
    eapply fresh_free; [now apply wfh_new|cbn [ce]; apply upd_same|].
    apply aa_xor_wp; [now apply wfh_new|cbn [ce]; apply upd_same|cbn [ce]; rewrite upd_other by lia; exact E1].
  - apply (wp_new_then n f (CBit (bitset_container_from_run r2)) (fun ans => bitset_array_ixor ans a1)); auto.
    apply ba_ixor_wp; [now apply wfh_new|cbn [ce]; apply upd_same|cbn [ce]; rewrite upd_other by lia; exact E1].
Qed.
Lemma rr_xor_wp h a1 a2 r1 r2 : wfh h -> ce h a1 = Some (CRun r1) -> ce h a2 = Some (CRun r2) ->
  wp (run_run_xor a1 a2) h (made h [] (run_run_container_xor r1 r2)).
Proof.
  intros W E1 E2. unfold run_run_xor, run_run_container_xor. bnd. eapply wp_rdR; [exact E1|]. bnd. eapply wp_rdR; [exact E2|]. hp h. now apply new_convert.
Qed.
Lemma ixor_wp h a1 a2 c1 c2 : frees2 container_ixor_mem container_ixor h a1 a2 c1 c2.
Proof.
  intros W E1 E2 N. unfold container_ixor_mem, container_ixor. bnd. eapply wp_rd; [exact E1|]. bnd. eapply wp_rd; [exact E2|].
  destruct c1 as [l1|b1|r1], c2 as [l2|b2|r2].
  - eapply fresh_free; [exact W|exact E1|]. now apply aa_xor_wp.
  - eapply fresh_free; [exact W|exact E1|]. now apply ab_xor_wp.
  - eapply fresh_free; [exact W|exact E1|]. now apply ar_xor_wp.
  - now apply ba_ixor_wp.
  - unfold bitset_bitset_ixor, bitset_bitset_container_xor. bnd. eapply wp_rdB; [exact E1|]. bnd. eapply wp_rdB; [exact E2|]. hp h. now apply wr_settle with (c0 := CBit b1).
  - eapply fresh_free; [exact W|exact E1|]. now apply rb_xor_wp.
  - eapply fresh_free; [exact W|exact E1|]. now apply ar_xor_wp.
  - eapply fresh_free; [exact W|exact E1|]. now apply rb_xor_wp.
  - eapply fresh_free; [exact W|exact E1|]. now apply rr_xor_wp.
Qed.
(** the first operand is left to the caller: it is still allocated, and is the answer or not *)
Definition left (h : heap) (a : nat) (c : container) (h' : heap) (d : nat) : Prop :=
  (d = a /\ made h [a] c h' a) \/
  (d <> a /\ (nx h <= d)%nat /\ (d < nx h')%nat /\ (nx h <= nx h')%nat /\ wfh h' /\ ce h' d = Some c /\ (exists c0, ce h' a = Some c0) /\ forall x, x <> a -> x <> d -> ce h' x = ce h x).
Lemma left_made h a c h' : made h [a] c h' a -> left h a c h' a. Proof. intros. now left. Qed.
Lemma left_fresh h a ca c h' d : wfh h -> ce h a = Some ca -> made h [] c h' d -> left h a c h' d.
Proof.
  intros W0 Ea [(W&L&N&O&B&D&K) V]. pose proof (wf_lt _ _ _ W0 Ea) as La. right.
  assert (Hd : (nx h <= d)%nat) by (destruct (O d (or_introl eq_refl)) as [[]|]; auto).
  split; [lia|]. split; [exact Hd|]. split; [apply B; now left|]. split; [exact L|]. split; [exact W|]. split; [exact V|]. split.
  - exists ca. rewrite K; [exact Ea|cbn [In]; intuition lia|intros []].
  - intros x N1 N2. apply K; [cbn [In]; intuition|intros []].
Qed.
(** c was written to a before *)
Lemma left_wr n f a c0 c h' d : left (H n (upd f a c0)) a c h' d -> left (H n f) a c h' d.
Proof.
  intros [(->&P&V)|(N1&N2&N3&N4&W&V&E&K)].
  - left. split; auto. split; auto. eapply post_wr; [now left|exact P].
  - right. cbn [nx ce] in *. repeat (split; [assumption|]). intros x Nx Nd. rewrite K by auto. now apply upd_other.
Qed.
Lemma wp_left_wr n f a c0 c1 c (e : M nat) : f a = Some c0 -> wp e (H n (upd f a (Some c1))) (left (H n (upd f a (Some c1))) a c) ->
  wp (_ <- wr a c1 ;; e) (H n f) (left (H n f) a c).
Proof. intros E W. bnd. eapply wp_wr; [exact E|]. eapply wp_mono; [exact W|]. intros h' d. apply left_wr. Qed.
Lemma wp_left_id (e : M nat) h a c : wp e h (fun h' d => d = a /\ made h [a] c h' a) -> wp e h (left h a c).
Proof. intros W. eapply wp_mono; [exact W|]. intros h' d [-> X]. now left. Qed.
Lemma left_wr_ret n f a c0 c : wfh (H n f) -> f a = Some c0 -> wp (_ <- wr a c ;; ret a) (H n f) (left (H n f) a c).
Proof.
  intros W E. apply (wp_left_wr _ _ _ c0); auto. apply wp_ret. left. split; auto. apply made_id; [now apply (wfh_wr _ _ _ c0)|apply upd_same].
Qed.
Lemma left_new n f a c0 c : wfh (H n f) -> f a = Some c0 -> wp (new c) (H n f) (left (H n f) a c).
Proof. intros W E. eapply wp_mono; [now apply new_wp|]. intros h' d X. eapply left_fresh; [exact W|exact E|exact X]. Qed.
Lemma left_convert n f a r : wfh (H n f) -> f a = Some (CRun r) -> wp (convert_run a) (H n f) (left (H n f) a (convert_run_to_efficient_container r)).
Proof.
  intros W E. eapply wp_mono; [apply convert_wp; eauto|]. intros h' d [(->&->&Ec)|(->&->)].
  - left. split; auto. rewrite Ec. now apply made_id.
  - eapply left_fresh; [exact W|exact E|]. now apply made_new.
Qed.
Lemma left_wr_convert n f a c0 r : wfh (H n f) -> f a = Some c0 ->
  wp (_ <- wr a (CRun r) ;; convert_run a) (H n f) (left (H n f) a (convert_run_to_efficient_container r)).
Proof. intros W E. apply (wp_left_wr _ _ _ c0); auto. apply left_convert; [now apply (wfh_wr _ _ _ c0)|apply upd_same]. Qed.
Lemma left_from_bitset n f a b : wfh (H n f) -> f a = Some (CBit b) -> wp (array_from_bitset a) (H n f) (left (H n f) a (CArr (array_container_from_bitset b))).
Proof. intros W E. eapply wp_mono; [apply from_bitset_wp; eauto|]. intros h' d [-> ->]. eapply left_fresh; [exact W|exact E|]. now apply made_new. Qed.
Lemma left_ret n f a c : wfh (H n f) -> f a = Some c -> wp (ret a) (H n f) (left (H n f) a c).
Proof. intros W E. apply wp_ret. left. split; auto. now apply made_id. Qed.
Lemma left_mono (e : M nat) h a ca c : wfh h -> ce h a = Some ca -> wp e h (made h [] c) -> wp e h (left h a c).
Proof. intros W E X. eapply wp_mono; [exact X|]. intros h' d Y. eapply left_fresh; [exact W|exact E|exact Y]. Qed.

Lemma rb_and_new_wp h a1 a2 r1 b2 : wfh h -> ce h a1 = Some (CRun r1) -> ce h a2 = Some (CBit b2) ->
  wp (run_bitset_intersection false a1 a2) h (made h [] (run_bitset_container_intersection r1 b2)).
Proof.
  intros W E1 E2. unfold run_bitset_intersection, run_bitset_container_intersection. bnd. eapply wp_rdR; [exact E1|]. bnd. eapply wp_rdB; [exact E2|]. hp h.
  destruct (run_container_is_full r1); [now apply new_wp|]. destruct (run_container_cardinality r1 <=? 4096); [now apply new_wp|]. cbv zeta.
  set (b := (bitset_container_compute_cardinality _, _)). clearbody b.
  destruct (new_settle n f b2 b W) as (h'&d&X&Y). exists h', d. split; [|exact Y]. rewrite <- X.
  unfold bind, new, wr, settle, bind, rdB, rd, bind. cbn [ce nx]. rewrite !upd_same. cbn [ret ce nx]. rewrite !upd_same. unfold ret. cbn [nx ce].
  rewrite Z.leb_antisym. destruct (4096 <? b_card b); cbn [negb]; reflexivity.
Qed.
Definition leaves2 (e : nat -> nat -> M nat) (v : container -> container -> container) (h : heap) (a1 a2 : nat) (c1 c2 : container) : Prop :=
  wfh h -> ce h a1 = Some c1 -> ce h a2 = Some c2 -> a1 <> a2 -> wp (e a1 a2) h (left h a1 (v c1 c2)).
Lemma iand_wp h a1 a2 c1 c2 : leaves2 container_iand_mem container_iand h a1 a2 c1 c2.
Proof.
  intros W E1 E2 N. unfold container_iand_mem, container_iand. bnd. eapply wp_rd; [exact E1|]. bnd. eapply wp_rd; [exact E2|].
  destruct c1 as [l1|b1|r1], c2 as [l2|b2|r2].
  - hp h. now apply left_wr_ret with (c0 := CArr l1).
  - hp h. now apply left_wr_ret with (c0 := CArr l1).
  - hp h. now apply left_new with (c0 := CArr l1).
  - hp h. now apply left_new with (c0 := CBit b1).
  - unfold bitset_bitset_iand, bitset_bitset_container_intersection. bnd. eapply wp_rdB; [exact E1|]. bnd. eapply wp_rdB; [exact E2|]. hp h. cbv zeta.
    destruct (4096 <? bitset_container_and_justcard b1 b2); [now apply left_wr_ret with (c0 := CBit b1)|now apply left_new with (c0 := CBit b1)].
  - unfold run_bitset_intersection, run_bitset_container_intersection. bnd. eapply wp_rdR; [exact E2|]. bnd. eapply wp_rdB; [exact E1|]. hp h.
    destruct (run_container_is_full r2); [now apply left_ret|]. destruct (run_container_cardinality r2 <=? 4096); [now apply left_new with (c0 := CBit b1)|]. cbv zeta.
    set (b := (bitset_container_compute_cardinality _, _)). clearbody b. unfold bitset_or_array. rewrite Z.leb_antisym.
    apply (wp_left_wr _ _ _ (CBit b1)); auto. assert (W' : wfh (H n (upd f a1 (Some (CBit b))))) by now apply (wfh_wr _ _ _ (CBit b1)).
    destruct (4096 <? b_card b); cbn [negb]; [apply left_ret; [exact W'|apply upd_same]|apply left_from_bitset; [exact W'|apply upd_same]].
  - hp h. now apply left_new with (c0 := CRun r1).
  - eapply left_mono; [exact W|exact E1|]. now apply rb_and_new_wp.
  - eapply left_mono; [exact W|exact E1|]. hp h. now apply new_convert.
Qed.
Lemma ior_wp cap h a1 a2 c1 c2 : leaves2 (container_ior_mem cap) (container_ior cap) h a1 a2 c1 c2.
Proof.
  intros W E1 E2 N. unfold container_ior_mem, container_ior. bnd. eapply wp_rd; [exact E1|]. bnd. eapply wp_rd; [exact E2|].
  destruct c1 as [l1|b1|r1], c2 as [l2|b2|r2].
  - unfold array_array_ior, array_array_container_inplace_union, bitset_or_array. bnd. eapply wp_rdA; [exact E1|]. bnd. eapply wp_rdA; [exact E2|].
    pose proof (wf_lt _ _ _ W E1) as L. hp h. destruct (zlen l1 + zlen l2 <=? 4096).
    + destruct (cap <? zlen l1 + zlen l2); [now apply left_new with (c0 := CArr l1)|now apply left_wr_ret with (c0 := CArr l1)].
    + generalize (array_array_bitset_union l1 l2). intros b. bnd. apply wp_new. bnd. eapply wp_rdB; [cbn [ce]; apply upd_same|].
      destruct (b_card b <=? 4096).
      * bnd. eapply wp_wr; [rewrite upd_other by lia; exact E1|]. bnd. eapply wp_fr; [rewrite upd_other by lia; apply upd_same|]. apply wp_ret.
        left. split; auto. split; [|cbn [ce]; rewrite upd_other by lia; apply upd_same].
        unfold post, wfh; cbn [nx ce In]. split; [intros x Lx; rewrite !upd_other by lia; apply W; cbn [nx]; lia|]. split; [lia|]. split; [nodup|].
        split; [intros x [<-|[]]; now left; left|]. split; [intros x [<-|[]]; lia|]. split; [intros x Nx [<-|[]]; exfalso; apply Nx; now left|].
        intros x Nx _. destruct (Nat.eq_dec x n) as [->|Ne]; [rewrite upd_same; symmetry; apply W; cbn [nx]; lia|].
        rewrite upd_other by auto. rewrite upd_other by (intros ->; apply Nx; now left). now rewrite upd_other.
      * apply wp_ret. eapply left_fresh; [exact W|exact E1|now apply made_new].
  - hp h. now apply left_new with (c0 := CArr l1).
  - eapply left_mono; [exact W|exact E1|]. hp h. now apply new_convert.
  - hp h. now apply left_wr_ret with (c0 := CBit b1).
  - hp h. cbv zeta. apply (wp_left_wr _ _ _ (CBit b1)); auto. assert (W' : wfh (H n (upd f a1 (Some (CBit (bitset_container_or b1 b2)))))) by now apply (wfh_wr _ _ _ (CBit b1)).
    destruct (b_card (bitset_container_or b1 b2) =? 65536); [eapply left_new; [exact W'|apply upd_same]|apply left_ret; [exact W'|apply upd_same]].
  - hp h. destruct (run_container_is_full r2); [now apply left_new with (c0 := CBit b1)|now apply left_wr_ret with (c0 := CBit b1)].
  - hp h. now apply left_wr_convert with (c0 := CRun r1).
  - hp h. destruct (run_container_is_full r1); [now apply left_ret|now apply left_new with (c0 := CRun r1)].
  - hp h. now apply left_wr_convert with (c0 := CRun r1).
Qed.
Lemma run_not_wp h a r lo hi : wfh h -> ce h a = Some (CRun r) -> wp (run_not_range a lo hi) h (made h [] (run_container_negation_range r lo hi)).
Proof.
  intros W E. unfold run_not_range, run_container_negation_range. bnd. eapply wp_rdR; [exact E|]. hp h. destruct (hi <=? lo); [now apply new_wp|].
  apply (wp_new_then n f (CRun (run_negation_runs r lo hi)) (fun x => d <- convert_run x ;; if Nat.eqb d x then ret d else _ <- fr x ;; ret d)); auto.
  apply convert_free_wp; [now apply wfh_new|cbn [ce]; apply upd_same].
Qed.
Lemma run_inot_wp cap h a r lo hi : wfh h -> ce h a = Some (CRun r) ->
  wp (run_inot_range cap a lo hi) h (made h [a] (run_container_negation_range_inplace cap r lo hi)).
Proof.
  intros W E. unfold run_inot_range, run_container_negation_range_inplace. bnd. eapply wp_rdR; [exact E|]. destruct (hi <=? lo) eqn:Eh.
  - hp h. apply wp_ret. now apply made_id.
  - match goal with |- context [if ?b then _ else _] => destruct b end.
    + eapply fresh_free; [exact W|exact E|]. now apply run_not_wp.
    + hp h. bnd. eapply wp_wr; [exact E|]. eapply wp_mono.
      * apply convert_free_wp; [now apply (wfh_wr _ _ _ (CRun r))|cbn [ce]; apply upd_same].
      * intros h' d [P V]. split; auto. eapply post_wr; [now left|exact P].
Qed.
Lemma bitset_inot_wp h a b lo hi : wfh h -> ce h a = Some (CBit b) -> wp (bitset_inot_range a lo hi) h (made h [a] (bitset_container_negation_range b lo hi)).
Proof. intros W E. unfold bitset_inot_range, bitset_container_negation_range. bnd. eapply wp_rdB; [exact E|]. hp h. now apply wr_settle with (c0 := CBit b). Qed.
Lemma inot_range_wp cap h a c lo hi : wfh h -> ce h a = Some c -> wp (container_inot_range_mem cap a lo hi) h (made h [a] (container_inot_range cap c lo hi)).
Proof.
  intros W E. unfold container_inot_range_mem, container_inot_range. bnd. eapply wp_rd; [exact E|]. destruct c as [l|b|r].
  - unfold array_inot_range. bnd. eapply wp_rdA; [exact E|]. eapply fresh_free; [exact W|exact E|]. hp h. now apply new_wp.
  - now apply bitset_inot_wp.
  - now apply run_inot_wp.
Qed.
Lemma inot_wp cap h a c : wfh h -> ce h a = Some c -> wp (container_inot_mem cap a) h (made h [a] (container_inot cap c)).
Proof.
  intros W E. unfold container_inot_mem, container_inot. bnd. eapply wp_rd; [exact E|]. destruct c as [l|b|r].
  - eapply fresh_free; [exact W|exact E|]. hp h. now apply new_wp.
  - unfold bitset_container_negation. generalize 65536. intros t. now apply bitset_inot_wp.
  - unfold run_container_negation_inplace. generalize 65536. intros t. now apply run_inot_wp.
Qed.
Lemma run_optimize_wp h a c : wfh h -> ce h a = Some c -> wp (run_optimize a) h (made h [a] (convert_run_optimize c)).
Proof.
  intros W E. unfold run_optimize. bnd. eapply wp_rd; [exact E|]. destruct c as [l|b|r].
  - destruct (convert_run_optimize (CArr l)) as [l'|b'|r'] eqn:Ec.
    + assert (CArr l = CArr l') as <- by (rewrite <- Ec; unfold convert_run_optimize in *; destruct (_ <=? _); [reflexivity|discriminate]).
      hp h. apply wp_ret. now apply made_id.
    + exfalso. unfold convert_run_optimize in Ec. destruct (_ <=? _); discriminate.
    + eapply fresh_free; [exact W|exact E|]. hp h. now apply new_wp.
  - destruct (convert_run_optimize (CBit b)) as [l'|b'|r'] eqn:Ec.
    + exfalso. unfold convert_run_optimize in Ec. destruct (_ <=? _); discriminate.
    + assert (CBit b = CBit b') as <- by (rewrite <- Ec; unfold convert_run_optimize in *; destruct (_ <=? _); [reflexivity|discriminate]).
      hp h. apply wp_ret. now apply made_id.
    + eapply fresh_free; [exact W|exact E|]. hp h. now apply new_wp.
  - cbn [convert_run_optimize]. now apply convert_free_wp.
Qed.
Definition leaves1 (e : nat -> M nat) (v : container -> container) : Prop := forall h a c, wfh h -> ce h a = Some c -> wp (e a) h (left h a (v c)).
Lemma add_wp val : leaves1 (fun a => container_add_mem a val) (fun c => container_add c val).
Proof.
  intros h a c W E. unfold container_add_mem, container_add. bnd. eapply wp_rd; [exact E|]. hp h. destruct c as [l|b|r].
  - destruct (array_container_try_add l val 4096) as [rc l']. destruct (negb (rc =? -1)); [now apply left_wr_ret with (c0 := CArr l)|].
    eapply left_mono; [exact W|exact E|]. 
    apply (wp_new_then n f (CBit (bitset_container_from_array l)) (fun x => _ <- wr x (CBit (fst (bitset_container_add (bitset_container_from_array l) val))) ;; ret x)); auto.
    apply wr_ret with (c0 := CBit (bitset_container_from_array l)); [now apply wfh_new|apply upd_same].
  - now apply left_wr_ret with (c0 := CBit b).
  - now apply left_wr_ret with (c0 := CRun r).
Qed.
Lemma remove_wp val : leaves1 (fun a => container_remove_mem a val) (fun c => container_remove c val).
Proof.
  intros h a c W E. unfold container_remove_mem, container_remove. bnd. eapply wp_rd; [exact E|]. hp h. destruct c as [l|b|r].
  - now apply left_wr_ret with (c0 := CArr l).
  - destruct (bitset_container_remove b val) as [b' removed]. apply (wp_left_wr _ _ _ (CBit b)); auto.
    assert (W' : wfh (H n (upd f a (Some (CBit b'))))) by now apply (wfh_wr _ _ _ (CBit b)).
    destruct removed; [destruct (b_card b' <=? 4096)|]; [apply left_from_bitset|apply left_ret|apply left_ret]; try exact W'; apply upd_same.
  - now apply left_wr_ret with (c0 := CRun r).
Qed.
Lemma add_range_wp min max : leaves1 (fun a => container_add_range_mem a min max) (fun c => container_add_range c min max).
Proof.
  intros h a c W E. unfold container_add_range_mem, container_add_range. bnd. eapply wp_rd; [exact E|]. destruct c as [l|b|r]; cbv zeta.
  - hp h. destruct (_ =? 65536); [now apply left_new with (c0 := CArr l)|]. destruct (_ <=? 4096); [now apply left_wr_ret with (c0 := CArr l)|now apply left_new with (c0 := CArr l)].
  - hp h. destruct (_ =? 65536); [now apply left_new with (c0 := CBit b)|now apply left_wr_ret with (c0 := CBit b)].
  - match goal with |- context [if ?x then _ else _] => destruct x end; [hp h; now apply left_wr_ret with (c0 := CRun r)|].
    eapply left_mono; [exact W|exact E|]. unfold from_run_range, container_from_run_range. bnd. eapply wp_rdR; [exact E|]. hp h. cbv zeta.
    set (b := (_, bitset_set_lenrange _ _ _)). clearbody b. fold (bitset_or_array b).
    apply (wp_new_then n f (CBit b) settle); auto. apply settle_wp; [now apply wfh_new|cbn [ce]; apply upd_same].
Qed.

(** ** One key *)
Lemma wp_elim {A} (e : M A) h (Q : heap -> A -> Prop) : wp e h Q -> exists h' a, e h = Some (h', a) /\ Q h' a. Proof. auto. Qed.
(** the caller frees the first operand unless it is the answer *)
Lemma left_end {A} h a c h1 d (k : M A) (Q : heap -> A -> Prop) : wfh h -> (exists ca, ce h a = Some ca) -> left h a c h1 d ->
  (forall h2, made h [a] c h2 d -> wp k h2 Q) -> wp (_ <- (if Nat.eqb d a then ret tt else fr a) ;; k) h1 Q.
Proof.
  intros W0 [ca Ea] [(->&X)|(N1&N2&N3&N4&W&V&[c0 E]&K)] Hk; bnd.
  - rewrite Nat.eqb_refl. apply wp_ret. now apply Hk.
  - rewrite (proj2 (Nat.eqb_neq d a) N1). destruct h1 as [n1 f1]. cbn [ce nx] in *. eapply wp_fr; [exact E|]. apply Hk.
    split; [|cbn [ce]; now rewrite upd_other by auto].
    unfold post. cbn [nx ce In]. split; [now apply (wfh_wr _ _ _ c0)|]. split; [exact N4|]. split; [nodup|].
    split; [intros x [<-|[]]; now right|]. split; [intros x [<-|[]]; exact N3|].
    split; [intros x _ [<-|[]]; apply upd_same|]. intros x Nx Na. rewrite upd_other by intuition. apply K; intuition.
Qed.
Lemma free_made h F h1 d c : made h F c h1 d -> (forall x, In x F -> (x < nx h)%nat) -> wfh h -> wp (fr d) h1 (fun h2 _ => post h F [] h2).
Proof.
  intros [(W&L&N&O&B&D&K) V] HF W0. destruct h1 as [n1 f1]. cbn [nx ce] in *. eapply wp_fr; [exact V|].
  unfold post. cbn [nx ce In]. split; [now apply (wfh_wr _ _ _ c)|]. split; [exact L|]. split; [nodup|]. split; [intros x []|]. split; [intros x []|].
  split.
  - intros x _ I. destruct (Nat.eq_dec x d) as [->|Ne]; [apply upd_same|]. rewrite upd_other by auto. apply D; auto. cbn [In]. intuition.
  - intros x _ I. destruct (Nat.eq_dec x d) as [->|Ne].
    + rewrite upd_same. symmetry. destruct (O d (or_introl eq_refl)) as [I'|I']; [contradiction|]. now apply W0.
    + rewrite upd_other by auto. apply K; auto. cbn [In]. intuition.
Qed.
Definition gone (h : heap) (a : nat) (f : option container) (h' : heap) (o : option nat) : Prop := post h [a] (ohs o) h' /\ oval h' o f.
Lemma keep_wp (t : container -> bool) h a ca h1 d c : wfh h -> ce h a = Some ca -> made h [a] c h1 d ->
  wp (c <- rd d ;; if t c then ret (Some d) else _ <- fr d ;; ret None) h1 (gone h a (if t c then Some c else None)).
Proof.
  intros W0 Ea X. pose proof (wf_lt _ _ _ W0 Ea) as La. bnd. pose proof X as [P V]. eapply wp_rd; [exact V|]. destruct (t c).
  - apply wp_ret. split; [exact P|exact V].
  - bnd. eapply wp_mono; [apply (free_made h [a] h1 d c X); auto; intros x [<-|[]]; exact La|]. intros h2 [] P2. apply wp_ret. split; [exact P2|exact I].
Qed.
Lemma keep_nonzero_wp h a ca h1 d c : wfh h -> ce h a = Some ca -> made h [a] c h1 d -> wp (keep_nonzero d) h1 (gone h a (nonzero c)).
Proof. intros. unfold keep_nonzero, nonzero. eapply (keep_wp container_nonzero_cardinality); eauto. Qed.
Definition card_some (c : container) : option container := if negb (container_get_cardinality c =? 0) then Some c else None.
Lemma keep_card_wp h a ca h1 d c : wfh h -> ce h a = Some ca -> made h [a] c h1 d -> wp (keep_card d) h1 (gone h a (card_some c)).
Proof. intros. unfold keep_card, card_some. eapply (keep_wp (fun c => negb (container_get_cardinality c =? 0))); eauto. Qed.

Lemma act_iand_ok : act2_ok (fun _ c1 c2 => nonzero (container_iand c1 c2)) act_iand.
Proof.
  intros k h a1 a2 c1 c2 W E1 E2 N. apply wp_elim. unfold act_iand. bnd. eapply wp_mono; [apply (iand_wp h a1 a2 c1 c2); auto|]. intros h1 d X. cbn beta in X.
  eapply left_end; [exact W|eauto|exact X|]. intros h2 Y. eapply keep_nonzero_wp; eauto.
Qed.
Lemma act_ior_ok cap : act2_ok (fun k c1 c2 => if container_is_full c1 then Some c1 else Some (container_ior (cap k) c1 c2)) (act_ior cap).
Proof.
  intros k h a1 a2 c1 c2 W E1 E2 N. apply wp_elim. unfold act_ior. bnd. eapply wp_rd; [exact E1|]. destruct (container_is_full c1).
  - hp h. apply wp_ret. destruct (made_id n f a1 c1 W E1) as [P V]. split; [exact P|exact V].
  - bnd. eapply wp_mono; [apply (ior_wp (cap k) h a1 a2 c1 c2); auto|]. intros h1 d X. cbn beta in X.
    eapply left_end; [exact W|eauto|exact X|]. intros h2 [P V]. apply wp_ret. split; [exact P|exact V].
Qed.
Lemma act_ixor_ok : act2_ok (fun _ c1 c2 => nonzero (container_ixor c1 c2)) act_ixor.
Proof.
  intros k h a1 a2 c1 c2 W E1 E2 N. apply wp_elim. unfold act_ixor. bnd. eapply wp_mono; [apply (ixor_wp h a1 a2 c1 c2); auto|]. intros h1 d X. eapply keep_nonzero_wp; eauto.
Qed.
Lemma act_iandnot_ok : act2_ok (fun _ c1 c2 => nonzero (container_iandnot c1 c2)) act_iandnot.
Proof.
  intros k h a1 a2 c1 c2 W E1 E2 N. apply wp_elim. unfold act_iandnot. bnd. eapply wp_mono; [apply (iandnot_wp h a1 a2 c1 c2); auto|]. intros h1 d X. eapply keep_nonzero_wp; eauto.
Qed.
Lemma act_add_ok val : act1_ok (fun c => Some (container_add c val)) (act_add val).
Proof.
  intros h a c W E. apply wp_elim. unfold act_add. bnd. eapply wp_mono; [apply (add_wp val); eauto|]. intros h1 d X.
  destruct (left_end h a _ h1 d (ret (Some d)) (gone h a (Some (container_add c val))) W (ex_intro _ _ E) X) as (h2&o&Eo&Q).
  - intros h2 [P V]. apply wp_ret. split; [exact P|exact V].
  - exists h2, o. split; [|exact Q]. rewrite <- Eo. unfold bind. destruct (Nat.eqb d a); reflexivity.
Qed.
Lemma act_remove_ok val : act1_ok (fun c => nonzero (container_remove c val)) (act_remove val).
Proof.
  intros h a c W E. apply wp_elim. unfold act_remove. bnd. eapply wp_mono; [apply (remove_wp val); eauto|]. intros h1 d X.
  eapply left_end; [exact W|eauto|exact X|]. intros h2 Y. eapply keep_nonzero_wp; eauto.
Qed.
Lemma act_add_range_ok min max : act1_ok (fun c => Some (container_add_range c min max)) (act_add_range min max).
Proof.
  intros h a c W E. apply wp_elim. unfold act_add_range. bnd. eapply wp_mono; [apply (add_range_wp min max); eauto|]. intros h1 d X.
  eapply left_end; [exact W|eauto|exact X|]. intros h2 [P V]. apply wp_ret. split; [exact P|exact V].
Qed.
Lemma drop_wp h a c : wfh h -> ce h a = Some c -> wp (fr a) h (fun h2 _ => post h [a] [] h2).
Proof. intros W E. pose proof (wf_lt _ _ _ W E) as L. hp h. apply (free_made (H n f) [a] (H n f) a c); [now apply made_id|intros x [<-|[]]; exact L|exact W]. Qed.
Lemma act_remove_range_ok min max : act1_ok (fun c => container_remove_range c min max) (act_remove_range min max).
Proof.
  intros h a c W E. apply wp_elim. unfold act_remove_range.
  assert (Some_ : forall e v, wp e h (left h a v) -> wp (o <- (d <- e ;; ret (Some d)) ;; _ <- (match o with Some d => if Nat.eqb d a then ret tt else fr a | None => fr a end) ;; ret o) h (gone h a (Some v))).
  { intros e v X. bnd. bnd. eapply wp_mono; [exact X|]. intros h1 d Y. apply wp_ret. eapply left_end; [exact W|eauto|exact Y|]. intros h2 [P V]. apply wp_ret. split; [exact P|exact V]. }
  assert (None_ : wp (o <- ret None ;; _ <- (match o with Some d => if Nat.eqb d a then ret tt else fr a | None => fr a end) ;; ret o) h (gone h a None)).
  { bnd. apply wp_ret. bnd. eapply wp_mono; [eapply drop_wp; eauto|]. intros h2 [] P. apply wp_ret. split; [exact P|exact I]. }
  assert (Skip : forall e Q, wp (o <- e c ;; _ <- (match o with Some d => if Nat.eqb d a then ret tt else fr a | None => fr a end) ;; ret o) h Q ->
     wp (o <- (c <- rd a ;; e c) ;; _ <- (match o with Some d => if Nat.eqb d a then ret tt else fr a | None => fr a end) ;; ret o) h Q).
  { intros e Q X. bnd. bnd. eapply wp_rd; [exact E|]. destruct X as (h2&o&Eo&HQ). unfold bind in Eo. destruct (e c h) as [[h1 o1]|] eqn:Ee; [|discriminate]. exists h1, o1. split; auto. now exists h2, o. }
  assert (Swap : forall (c1 : container) (e : M (option nat)) e' v, (forall x, e x = bind e' (fun d => ret (Some d)) x) -> wp (_ <- wr a c1 ;; e') h (left h a v) ->
     wp (o <- (_ <- wr a c1 ;; e) ;; _ <- (match o with Some d => if Nat.eqb d a then ret tt else fr a | None => fr a end) ;; ret o) h (gone h a (Some v))).
  { intros c1 e e' v He X. destruct (Some_ _ _ X) as (h2&o&Eo&HQ). exists h2, o. split; [|exact HQ]. rewrite <- Eo. unfold bind. destruct (wr a c1 h) as [[h1 t]|]; auto. rewrite He. unfold bind. destruct (e' h1) as [[]|]; reflexivity. }
  unfold container_remove_range_mem. apply Skip. clear Skip. destruct c as [l|b|r]; cbn [container_remove_range]; cbv zeta.
  - destruct (_ =? 0); [exact None_|]. apply Swap with (e' := ret a); [reflexivity|]. hp h. now apply left_wr_ret with (c0 := CArr l).
  - destruct (_ =? 0); [exact None_|]. destruct (_ <=? 4096).
    + apply Swap with (e' := array_from_bitset a); [reflexivity|]. hp h. apply (wp_left_wr _ _ _ (CBit b)); auto.
      apply left_from_bitset; [now apply (wfh_wr _ _ _ (CBit b))|apply upd_same].
    + apply Swap with (e' := ret a); [reflexivity|]. hp h. now apply left_wr_ret with (c0 := CBit b).
  - destruct (zlen r =? 0); [exact None_|]. destruct (_ && _); [exact None_|]. apply Swap with (e' := convert_run a); [reflexivity|].
    hp h. now apply left_wr_convert with (c0 := CRun r).
Qed.
Lemma act_flip_part_ok cap lo hi : act1_ok (fun c => card_some (container_inot_range cap c lo hi)) (act_flip_part cap lo hi).
Proof. intros h a c W E. apply wp_elim. unfold act_flip_part. bnd. eapply wp_mono; [apply (inot_range_wp cap); eauto|]. intros h1 d X. eapply keep_card_wp; eauto. Qed.
Lemma act_flip_full_ok cap : act1_ok (fun c => card_some (container_inot cap c)) (act_flip_full cap).
Proof. intros h a c W E. apply wp_elim. unfold act_flip_full. bnd. eapply wp_mono; [apply (inot_wp cap); eauto|]. intros h1 d X. eapply keep_card_wp; eauto. Qed.
Lemma act_run_optimize_ok : act1_ok (fun c => Some (convert_run_optimize c)) act_run_optimize.
Proof. intros h a c W E. apply wp_elim. unfold act_run_optimize. bnd. eapply wp_mono; [apply run_optimize_wp; eauto|]. intros h1 d [P V]. apply wp_ret. split; [exact P|exact V]. Qed.
Definition remove_run (c : container) : container := match c with CRun r => convert_to_bitset_or_array_container r (run_container_cardinality r) | _ => c end.
Lemma act_remove_runs_ok : act1_ok (fun c => Some (remove_run c)) act_remove_runs.
Proof.
  intros h a c W E. apply wp_elim. unfold act_remove_runs. bnd. eapply wp_rd; [exact E|]. destruct c as [l|b|r]; cbn [remove_run].
  1,2: hp h; apply wp_ret; destruct (made_id n f a _ W E) as [P V]; split; [exact P|exact V].
  set (v := convert_to_bitset_or_array_container r (run_container_cardinality r)). clearbody v.
  destruct (fresh_free (new v) h a (CRun r) v W E) as (h2&d&Ed&P&V); [hp h; now apply new_wp|].
  exists h2, (Some d). split; [|split; [exact P|exact V]]. unfold bind in *. destruct (new v h) as [[h1 x]|]; [|discriminate]. destruct (fr a h1) as [[h3 y]|]; [|discriminate].
  unfold ret in *. injection Ed as <- <-. reflexivity.
Qed.
