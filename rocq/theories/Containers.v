(** Containers: the container dispatch layer, include/roaring/containers/containers.h
    and src/containers/containers.c.

    Every C function below starts by unwrapping SHARED containers
    (container_unwrap_shared, or get_writable_copy_if_shared which copies); on the
    values modelled here both are the identity.  Ownership of SHARED wrappers is the
    subject of Cow.v. *)
From Coq Require Import ZArith List Bool Lia Sorted Btauto.
From Verif Require Import Base ArrayUtil BitUtil BitsetC ArrayC RunC RunD Convert MixedI MixedU MixedA MixedN.
Import ListNotations.
Open Scope Z_scope.
Local Opaque zr.

(** * Model *)
(** containers.h:231-244 get_cardinality *)
Definition container_get_cardinality (c : container) : Z :=
  match c with CBit b => b_card b | CArr a => zlen a | CRun r => run_container_cardinality r end.
(** containers.h:250-265 is_full *)
Definition container_is_full (c : container) : bool :=
  match c with
  | CBit b => b_card b =? 65536
  | CArr a => zlen a =? 65536
  | CRun r => run_container_is_full r
  end.
(** containers.h:424-438 nonzero_cardinality (bitset: bitset.h:249-256, not empty) *)
Definition container_nonzero_cardinality (c : container) : bool :=
  match c with
  | CBit b => negb (bitset_container_empty b)
  | CArr a => 0 <? zlen a
  | CRun r => run_container_nonzero_cardinality r
  end.
(** containers.h:288-301 range_of_ones: the half-open interval [range_start, range_end) *)
Definition container_range_of_ones (range_start range_end : Z) : container :=
  let cardinality := range_end - range_start + 1 in
  if cardinality <=? 2 then CArr (array_container_create_range range_start range_end)
  else CRun (run_container_create_range range_start range_end).
(** containers.h:304-329 from_range; NULL is None *)
Definition container_from_range (min max step : Z) : option container :=
  if step =? 0 then None
  else if step =? 1 then Some (container_range_of_ones min max)
  else
    let size := (max - min + step - 1) / step in
    if size <=? 4096 then Some (CArr (array_container_add_from_range [] min max step))
    else Some (CBit (bitset_container_add_from_range bitset_container_create min max step)).
(** containers.h:332-361 repair_after_lazy *)
Definition container_repair_after_lazy (c : container) : container :=
  match c with
  | CBit b =>
    let b' := (bitset_container_compute_cardinality (b_words b), b_words b) in
    if b_card b' <=? 4096 then CArr (array_container_from_bitset b') else CBit b'
  | CArr a => CArr a
  | CRun r => convert_run_to_efficient_container r
  end.
(** containers.h:451-471 to_uint32_array: the values written *)
Definition container_to_uint32_array (c : container) (base : Z) : list Z :=
  match c with
  | CBit b => bitset_container_to_uint32_array b base
  | CArr a => array_container_to_uint32_array a base
  | CRun r => run_container_to_uint32_array r base
  end.
(** containers.h:477-509 add *)
Definition container_add (c : container) (val : Z) : container :=
  match c with
  | CBit b => CBit (bitset_container_set b val)
  | CArr a =>
    let '(rc, a') := array_container_try_add a val 4096 in
    if negb (rc =? -1) then CArr a'
    else CBit (fst (bitset_container_add (bitset_container_from_array a) val))
  | CRun r => CRun (fst (run_container_add r val))
  end.
(** containers.h:518-548 remove *)
Definition container_remove (c : container) (val : Z) : container :=
  match c with
  | CBit b =>
    let '(b', removed) := bitset_container_remove b val in
    if removed then if b_card b' <=? 4096 then CArr (array_container_from_bitset b') else CBit b'
    else CBit b'
  | CArr a => CArr (fst (array_container_remove a val))
  | CRun r => CRun (fst (run_container_remove r val))
  end.
(** containers.h:553-570 contains; 576-596 contains_range *)
Definition container_contains (c : container) (val : Z) : bool :=
  match c with
  | CBit b => bitset_container_get b val
  | CArr a => array_container_contains a val
  | CRun r => run_container_contains r val
  end.
Definition container_contains_range (c : container) (range_start range_end : Z) : bool :=
  match c with
  | CBit b => bitset_container_get_range b range_start range_end
  | CArr a => array_container_contains_range a range_start range_end
  | CRun r => run_container_contains_range r range_start range_end
  end.
(** containers.h:602-649 equals *)
Definition container_equals (c1 c2 : container) : bool :=
  match c1, c2 with
  | CBit b1, CBit b2 => bitset_container_equals b1 b2
  | CBit b1, CRun r2 => run_container_equals_bitset r2 b1
  | CRun r1, CBit b2 => run_container_equals_bitset r1 b2
  | CBit b1, CArr a2 => array_container_equal_bitset a2 b1
  | CArr a1, CBit b2 => array_container_equal_bitset a1 b2
  | CArr a1, CRun r2 => run_container_equals_array r2 a1
  | CRun r1, CArr a2 => run_container_equals_array r1 a2
  | CArr a1, CArr a2 => array_container_equals a1 a2
  | CRun r1, CRun r2 => run_container_equals r1 r2
  end.
(** containers.h:655-701 is_subset *)
Definition container_is_subset (c1 c2 : container) : bool :=
  match c1, c2 with
  | CBit b1, CBit b2 => bitset_container_is_subset b1 b2
  | CBit b1, CRun r2 => bitset_container_is_subset_run b1 r2
  | CRun r1, CBit b2 => run_container_is_subset_bitset r1 b2
  | CBit _, CArr _ => false
  | CArr a1, CBit b2 => array_container_is_subset_bitset a1 b2
  | CArr a1, CRun r2 => array_container_is_subset_run a1 r2
  | CRun r1, CArr a2 => run_container_is_subset_array r1 a2
  | CArr a1, CArr a2 => array_container_is_subset a1 a2
  | CRun r1, CRun r2 => run_container_is_subset r1 r2
  end.
(** containers.h:709-788 and *)
Definition container_and (c1 c2 : container) : container :=
  match c1, c2 with
  | CBit b1, CBit b2 => bitset_bitset_container_intersection b1 b2
  | CArr a1, CArr a2 => CArr (array_container_intersection a1 a2)
  | CRun r1, CRun r2 => convert_run_to_efficient_container (run_container_intersection r1 r2)
  | CBit b1, CArr a2 => CArr (array_bitset_container_intersection a2 b1)
  | CArr a1, CBit b2 => CArr (array_bitset_container_intersection a1 b2)
  | CBit b1, CRun r2 => run_bitset_container_intersection r2 b1
  | CRun r1, CBit b2 => run_bitset_container_intersection r1 b2
  | CArr a1, CRun r2 => CArr (array_run_container_intersection a1 r2)
  | CRun r1, CArr a2 => CArr (array_run_container_intersection a2 r1)
  end.
(** containers.h:904-983 iand.  The in-place kernels (bitset_bitset_..._inplace,
    mixed_intersection.c:229-252; array_container_intersection_inplace,
    array.c:398-424; run_bitset_container_intersection with dst = src_2) compute the
    same function as the ones used by [container_and]. *)
Definition container_iand (c1 c2 : container) : container :=
  match c1, c2 with
  | CBit b1, CBit b2 => bitset_bitset_container_intersection b1 b2
  | CArr a1, CArr a2 => CArr (array_container_intersection a1 a2)
  | CRun r1, CRun r2 => convert_run_to_efficient_container (run_container_intersection r1 r2)
  | CBit b1, CArr a2 => CArr (array_bitset_container_intersection a2 b1)
  | CArr a1, CBit b2 => CArr (array_bitset_container_intersection a1 b2)
  | CBit b1, CRun r2 => run_bitset_container_intersection r2 b1
  | CRun r1, CBit b2 => run_bitset_container_intersection r1 b2
  | CArr a1, CRun r2 => CArr (array_run_container_intersection a1 r2)
  | CRun r1, CArr a2 => CArr (array_run_container_intersection a2 r1)
  end.
(** containers.h:794-842 and_cardinality *)
Definition container_and_cardinality (c1 c2 : container) : Z :=
  match c1, c2 with
  | CBit b1, CBit b2 => bitset_container_and_justcard b1 b2
  | CArr a1, CArr a2 => array_container_intersection_cardinality a1 a2
  | CRun r1, CRun r2 => run_container_intersection_cardinality r1 r2
  | CBit b1, CArr a2 => array_bitset_container_intersection_cardinality a2 b1
  | CArr a1, CBit b2 => array_bitset_container_intersection_cardinality a1 b2
  | CBit b1, CRun r2 => run_bitset_container_intersection_cardinality r2 b1
  | CRun r1, CBit b2 => run_bitset_container_intersection_cardinality r1 b2
  | CArr a1, CRun r2 => array_run_container_intersection_cardinality a1 r2
  | CRun r1, CArr a2 => array_run_container_intersection_cardinality a2 r1
  end.
(** containers.h:847-894 intersect *)
Definition container_intersect (c1 c2 : container) : bool :=
  match c1, c2 with
  | CBit b1, CBit b2 => bitset_container_intersect b1 b2
  | CArr a1, CArr a2 => array_container_intersect a1 a2
  | CRun r1, CRun r2 => run_container_intersect r1 r2
  | CBit b1, CArr a2 => array_bitset_container_intersect a2 b1
  | CArr a1, CBit b2 => array_bitset_container_intersect a1 b2
  | CBit b1, CRun r2 => run_bitset_container_intersect r2 b1
  | CRun r1, CBit b2 => run_bitset_container_intersect r1 b2
  | CArr a1, CRun r2 => array_run_container_intersect a1 r2
  | CRun r1, CArr a2 => array_run_container_intersect a2 r1
  end.
(** containers.h:991-1084 or *)
Definition container_or (c1 c2 : container) : container :=
  match c1, c2 with
  | CBit b1, CBit b2 => CBit (bitset_container_or b1 b2)
  | CArr a1, CArr a2 => array_array_container_union a1 a2
  | CRun r1, CRun r2 => convert_run_to_efficient_container (run_container_union r1 r2)
  | CBit b1, CArr a2 => CBit (array_bitset_container_union a2 b1)
  | CArr a1, CBit b2 => CBit (array_bitset_container_union a1 b2)
  | CBit b1, CRun r2 => if run_container_is_full r2 then CRun r2 else CBit (run_bitset_container_union r2 b1)
  | CRun r1, CBit b2 => if run_container_is_full r1 then CRun r1 else CBit (run_bitset_container_union r1 b2)
  | CArr a1, CRun r2 => convert_run_to_efficient_container (array_run_container_union a1 r2)
  | CRun r1, CArr a2 => convert_run_to_efficient_container (array_run_container_union a2 r1)
  end.
(** containers.h:1096-1196 lazy_or *)
Definition container_lazy_or (c1 c2 : container) : container :=
  match c1, c2 with
  | CBit b1, CBit b2 => CBit (bitset_container_or_nocard b1 b2)
  | CArr a1, CArr a2 => array_array_container_lazy_union a1 a2
  | CRun r1, CRun r2 => convert_run_to_efficient_container (run_container_union r1 r2)
  | CBit b1, CArr a2 => CBit (array_bitset_container_lazy_union a2 b1)
  | CArr a1, CBit b2 => CBit (array_bitset_container_lazy_union a1 b2)
  | CBit b1, CRun r2 => if run_container_is_full r2 then CRun r2 else CBit (run_bitset_container_lazy_union r2 b1)
  | CRun r1, CBit b2 => if run_container_is_full r1 then CRun r1 else CBit (run_bitset_container_lazy_union r1 b2)
  | CArr a1, CRun r2 => CRun (array_run_container_union a1 r2)
  | CRun r1, CArr a2 => CRun (array_run_container_union a2 r1)
  end.
(** containers.h:1209-1304 ior.  cap is the capacity of c1 when it is an array (it only
    decides whether the merge is done in place, mixed_union.c:205-249).
    run_container_union_inplace (run.c:285-341) and array_run_container_inplace_union
    (mixed_union.c:110-160) move the old runs to the end of the buffer and then run the
    same merge loop; see RunMem.v. *)
Definition container_ior (cap : Z) (c1 c2 : container) : container :=
  match c1, c2 with
  | CBit b1, CBit b2 =>
    let b := bitset_container_or b1 b2 in
    if b_card b =? 65536 then CRun (run_container_create_range 0 65536) else CBit b
  | CArr a1, CArr a2 => array_array_container_inplace_union cap a1 a2
  | CRun r1, CRun r2 => convert_run_to_efficient_container (run_container_union r1 r2)
  | CBit b1, CArr a2 => CBit (array_bitset_container_union a2 b1)
  | CArr a1, CBit b2 => CBit (array_bitset_container_union a1 b2)
  | CBit b1, CRun r2 => if run_container_is_full r2 then CRun r2 else CBit (run_bitset_container_union r2 b1)
  | CRun r1, CBit b2 => if run_container_is_full r1 then CRun r1 else CBit (run_bitset_container_union r1 b2)
  | CArr a1, CRun r2 => convert_run_to_efficient_container (array_run_container_union a1 r2)
  | CRun r1, CArr a2 => convert_run_to_efficient_container (array_run_container_union a2 r1)
  end.
(** containers.h:1316-1421 lazy_ior; LAZY_OR_BITSET_CONVERSION_TO_FULL is defined
    (perfparameters.h:34-35) *)
Definition container_lazy_ior (cap : Z) (c1 c2 : container) : container :=
  match c1, c2 with
  | CBit b1, CBit b2 =>
    let b := bitset_container_or b1 b2 in
    if b_card b =? 65536 then CRun (run_container_create_range 0 65536) else CBit b
  | CArr a1, CArr a2 => array_array_container_lazy_inplace_union cap a1 a2
  | CRun r1, CRun r2 => convert_run_to_efficient_container (run_container_union r1 r2)
  | CBit b1, CArr a2 => CBit (array_bitset_container_lazy_union a2 b1)
  | CArr a1, CBit b2 => CBit (array_bitset_container_lazy_union a1 b2)
  | CBit b1, CRun r2 => if run_container_is_full r2 then CRun r2 else CBit (run_bitset_container_lazy_union r2 b1)
  | CRun r1, CBit b2 => if run_container_is_full r1 then CRun r1 else CBit (run_bitset_container_lazy_union r1 b2)
  | CArr a1, CRun r2 => CRun (array_run_container_union a1 r2)
  | CRun r1, CArr a2 => CRun (array_run_container_union a2 r1)
  end.
(** containers.h:1432-1509 xor *)
Definition container_xor (c1 c2 : container) : container :=
  match c1, c2 with
  | CBit b1, CBit b2 => bitset_bitset_container_xor b1 b2
  | CArr a1, CArr a2 => array_array_container_xor a1 a2
  | CRun r1, CRun r2 => run_run_container_xor r1 r2
  | CBit b1, CArr a2 => array_bitset_container_xor a2 b1
  | CArr a1, CBit b2 => array_bitset_container_xor a1 b2
  | CBit b1, CRun r2 => run_bitset_container_xor r2 b1
  | CRun r1, CBit b2 => run_bitset_container_xor r1 b2
  | CArr a1, CRun r2 => array_run_container_xor a1 r2
  | CRun r1, CArr a2 => array_run_container_xor a2 r1
  end.
(** containers.h:1553-1637 lazy_xor *)
Definition container_lazy_xor (c1 c2 : container) : container :=
  match c1, c2 with
  | CBit b1, CBit b2 => CBit (bitset_container_xor_nocard b1 b2)
  | CArr a1, CArr a2 => array_array_container_lazy_xor a1 a2
  | CRun r1, CRun r2 => run_run_container_xor r1 r2
  | CBit b1, CArr a2 => CBit (array_bitset_container_lazy_xor a2 b1)
  | CArr a1, CBit b2 => CBit (array_bitset_container_lazy_xor a1 b2)
  | CBit b1, CRun r2 => CBit (run_bitset_container_lazy_xor r2 b1)
  | CRun r1, CBit b2 => CBit (run_bitset_container_lazy_xor r1 b2)
  | CArr a1, CRun r2 => CRun (array_run_container_lazy_xor a1 r2)
  | CRun r1, CArr a2 => CRun (array_run_container_lazy_xor a2 r1)
  end.
(** containers.h:1648-1720 ixor; the *_ixor kernels (mixed_xor.c:266-383) call the
    out-of-place kernels and free the first operand *)
Definition container_ixor (c1 c2 : container) : container :=
  match c1, c2 with
  | CBit b1, CBit b2 => bitset_bitset_container_xor b1 b2
  | CArr a1, CArr a2 => array_array_container_xor a1 a2
  | CRun r1, CRun r2 => run_run_container_xor r1 r2
  | CBit b1, CArr a2 => array_bitset_container_xor a2 b1
  | CArr a1, CBit b2 => array_bitset_container_xor a1 b2
  | CBit b1, CRun r2 => run_bitset_container_xor r2 b1
  | CRun r1, CBit b2 => run_bitset_container_xor r1 b2
  | CArr a1, CRun r2 => array_run_container_xor a1 r2
  | CRun r1, CArr a2 => array_run_container_xor a2 r1
  end.
(** containers.h:1732-1760 lazy_ixor *)
Definition container_lazy_ixor (c1 c2 : container) : container :=
  match c1, c2 with
  | CBit b1, CBit b2 => CBit (bitset_container_xor_nocard b1 b2)
  | CBit b1, _ =>
    let b := if b_card b1 =? -1 then (bitset_container_compute_cardinality (b_words b1), b_words b1) else b1 in
    container_ixor (CBit b) c2
  | _, _ => container_ixor c1 c2
  end.
(** containers.h:1766-1858 andnot *)
Definition container_andnot (c1 c2 : container) : container :=
  match c1, c2 with
  | CBit b1, CBit b2 => bitset_bitset_container_andnot b1 b2
  | CArr a1, CArr a2 => CArr (array_array_container_andnot a1 a2)
  | CRun r1, CRun r2 => if run_container_is_full r2 then CArr [] else run_run_container_andnot r1 r2
  | CBit b1, CArr a2 => bitset_array_container_andnot b1 a2
  | CArr a1, CBit b2 => CArr (array_bitset_container_andnot a1 b2)
  | CBit b1, CRun r2 => if run_container_is_full r2 then CArr [] else bitset_run_container_andnot b1 r2
  | CRun r1, CBit b2 => run_bitset_container_andnot r1 b2
  | CArr a1, CRun r2 => if run_container_is_full r2 then CArr [] else CArr (array_run_container_andnot a1 r2)
  | CRun r1, CArr a2 => run_array_container_andnot r1 a2
  end.
(** containers.h:1871-1938 iandnot; the *_iandnot kernels (mixed_andnot.c) compute the
    same function in place or by calling the out-of-place kernel *)
Definition container_iandnot (c1 c2 : container) : container :=
  match c1, c2 with
  | CBit b1, CBit b2 => bitset_bitset_container_andnot b1 b2
  | CArr a1, CArr a2 => CArr (array_array_container_andnot a1 a2)
  | CRun r1, CRun r2 => run_run_container_andnot r1 r2
  | CBit b1, CArr a2 => bitset_array_container_andnot b1 a2
  | CArr a1, CBit b2 => CArr (array_bitset_container_andnot a1 b2)
  | CBit b1, CRun r2 => bitset_run_container_andnot b1 r2
  | CRun r1, CBit b2 => run_bitset_container_andnot r1 b2
  | CArr a1, CRun r2 => CArr (array_run_container_andnot a1 r2)
  | CRun r1, CArr a2 => run_array_container_andnot r1 a2
  end.
(** containers.h:1992-2017 not; 2058-2084 inot (cap: capacity of a run container) *)
Definition container_not (c : container) : container :=
  match c with
  | CBit b => bitset_container_negation b
  | CArr a => CBit (array_container_negation a)
  | CRun r => run_container_negation r
  end.
Definition container_inot (cap : Z) (c : container) : container :=
  match c with
  | CBit b => bitset_container_negation b
  | CArr a => CBit (array_container_negation a)
  | CRun r => run_container_negation_inplace cap r
  end.
(** containers.h:2022-2052 not_range; 2090-2119 inot_range *)
Definition container_not_range (c : container) (range_start range_end : Z) : container :=
  match c with
  | CBit b => bitset_container_negation_range b range_start range_end
  | CArr a => array_container_negation_range a range_start range_end
  | CRun r => run_container_negation_range r range_start range_end
  end.
Definition container_inot_range (cap : Z) (c : container) (range_start range_end : Z) : container :=
  match c with
  | CBit b => bitset_container_negation_range b range_start range_end
  | CArr a => array_container_negation_range a range_start range_end
  | CRun r => run_container_negation_range_inplace cap r range_start range_end
  end.
(** containers.h:2131-2152 select: (element, new start_rank) *)
Definition container_select (c : container) (start_rank rank : Z) : option Z * Z :=
  match c with
  | CBit b => bitset_container_select b start_rank rank
  | CArr a => array_container_select a start_rank rank
  | CRun r => run_container_select r start_rank rank
  end.
(** containers.h:2154-2170 maximum; 2172-2188 minimum *)
Definition container_maximum (c : container) : Z :=
  match c with
  | CBit b => bitset_container_maximum b
  | CArr a => array_container_maximum a
  | CRun r => run_container_maximum r
  end.
Definition container_minimum (c : container) : Z :=
  match c with
  | CBit b => bitset_container_minimum b
  | CArr a => array_container_minimum a
  | CRun r => run_container_minimum r
  end.
(** containers.h:2191-2208 rank; 2211-2233 rank_many; 2236-2252 get_index *)
Definition container_rank (c : container) (x : Z) : Z :=
  match c with
  | CBit b => bitset_container_rank b x
  | CArr a => array_container_rank a x
  | CRun r => run_container_rank r x
  end.
Definition container_rank_many (c : container) (start_rank : Z) (qs : list Z) : list Z :=
  match c with
  | CBit b => bitset_container_rank_many b start_rank qs
  | CArr a => array_container_rank_many a start_rank qs
  | CRun r => run_container_rank_many r start_rank qs
  end.
Definition container_get_index (c : container) (x : Z) : Z :=
  match c with
  | CBit b => bitset_container_get_index b x
  | CArr a => array_container_get_index a x
  | CRun r => run_container_get_index r x
  end.
(** containers.h:2263-2344 add_range: the closed range [min,max] *)
Definition container_add_range (c : container) (min max : Z) : container :=
  match c with
  | CBit b =>
    let union_cardinality := b_card b + (max - min + 1) - bitset_lenrange_cardinality (b_words b) min (max - min) in
    if union_cardinality =? 65536 then CRun (run_container_create_range 0 65536)
    else CBit (union_cardinality, bitset_set_lenrange (b_words b) min (max - min))
  | CArr a =>
    let nvals_greater := count_greater a (u16 max) in
    let nvals_less := count_less (ztake (zlen a - nvals_greater) a) (u16 min) in
    let union_cardinality := nvals_less + (max - min + 1) + nvals_greater in
    if union_cardinality =? 65536 then CRun (run_container_create_range 0 65536)
    else if union_cardinality <=? 4096 then CArr (array_container_add_range_nvals a min max nvals_less nvals_greater)
    else CBit (union_cardinality, bitset_set_lenrange (b_words (bitset_container_from_array a)) min (max - min))
  | CRun r =>
    let nruns_greater := rle16_count_greater r (u16 max) in
    let nruns_less := rle16_count_less (rtake (zlen r - nruns_greater) r) (u16 min) in
    if (nruns_less + 1 + nruns_greater) * 4 <=? 1024 * 8
    then CRun (run_container_add_range_nruns r min max nruns_less nruns_greater)
    else container_from_run_range r min max
  end.
(** containers.h:2352-2416 remove_range: the closed range [min,max]; NULL is None *)
Definition container_remove_range (c : container) (min max : Z) : option container :=
  match c with
  | CBit b =>
    let result_cardinality := b_card b - bitset_lenrange_cardinality (b_words b) min (max - min) in
    if result_cardinality =? 0 then None
    else
      let b' := (result_cardinality, bitset_reset_range (b_words b) min (max + 1)) in
      if result_cardinality <=? 4096 then Some (CArr (array_container_from_bitset b')) else Some (CBit b')
  | CArr a =>
    let nvals_greater := count_greater a (u16 max) in
    let nvals_less := count_less (ztake (zlen a - nvals_greater) a) (u16 min) in
    let result_cardinality := nvals_less + nvals_greater in
    if result_cardinality =? 0 then None
    else Some (CArr (array_container_remove_range a nvals_less (zlen a - result_cardinality)))
  | CRun r =>
    if zlen r =? 0 then None
    else if (min <=? run_container_minimum r) && (run_container_maximum r <=? max) then None
    else Some (convert_run_to_efficient_container (run_container_remove_range r min max))
  end.
(** containers.h:1519-1542 add_offset.  A NULL lo/hi pointer is wantlo/wanthi = false.
    The results are left in the type of c, hence option container with that constructor. *)
Definition container_add_offset (c : container) (wantlo wanthi : bool) (offset : Z)
  : option container * option container :=
  match c with
  | CBit b => let '(lo, hi) := bitset_container_offset b wantlo wanthi offset in (option_map CBit lo, option_map CBit hi)
  | CArr a => let '(lo, hi) := array_container_offset a wantlo wanthi offset in (option_map CArr lo, option_map CArr hi)
  | CRun r => let '(lo, hi) := run_container_offset r wantlo wanthi offset in (option_map CRun lo, option_map CRun hi)
  end.
(** containers.c:102-141 internal_validate (NULL pointers and SHARED refcounts omitted) *)
Definition container_internal_validate (c : container) : bool :=
  match c with
  | CBit b => bitset_container_validate b
  | CArr a => array_container_validate a
  | CRun r => run_container_validate r
  end.

(** * Proofs *)
Lemma inb_intro lo hi l : (forall x, In x l -> lo <= x < hi) -> inb lo hi l.
Proof. intros H. apply Forall_forall. auto. Qed.
Lemma incr_map_mono f l : (forall x y, x < y -> f x < f y) -> incr l -> incr (map f l).
Proof.
  intros Hf. induction l; cbn; auto. intros [H1 H2]. split; auto.
  rewrite Forall_forall in *. intros y Hy. apply in_map_iff in Hy.
  destruct Hy as (z&<-&Hz). auto.
Qed.
Lemma cnt_ex P lo hi : 0 < cnt P lo hi <-> exists x, lo <= x < hi /\ P x = true.
Proof.
  split.
  - unfold cnt. destruct (filter P (zr lo hi)) as [|x l] eqn:E.
    + change (zlen (@nil Z)) with 0. lia.
    + intros _. assert (Hx : In x (filter P (zr lo hi))) by (rewrite E; left; auto).
      apply filter_In in Hx. rewrite zr_In in Hx. eauto.
  - intros (x&Hx&E). pose proof (cnt_bound P lo hi ltac:(lia)). destruct (Z.eq_dec (cnt P lo hi) 0); [|lia].
    rewrite (cnt_none_inv P lo hi) in E by auto. discriminate.
Qed.
Definition cne (c : container) : Prop := exists x, 0 <= x < 65536 /\ cmem c x = true.

Lemma eok_lok c : eok c -> lok c.
Proof. destruct c; cbn; intuition. split; [apply H0|right; apply H0]. Qed.
Lemma cok_eok c : cok c -> eok c.
Proof. destruct c; cbn; intuition. Qed.
Lemma cok_lok c : cok c -> lok c.
Proof. intros; now apply eok_lok, cok_eok. Qed.
Lemma rep_lrep c P : rep c P -> lrep c P.
Proof. intros [H1 H2]. split; auto. now apply cok_lok. Qed.
Lemma cok_cne c : cok c -> cne c.
Proof.
  destruct c as [a|b|r]; cbn [cok]; intros [H H'].
  - destruct a as [|x a]. { change (zlen (@nil Z)) with 0 in H'. lia. }
    exists x. assert (In x (x::a)) by (left; auto). split; [|cbn [cmem]; now apply zmem_In].
    destruct H as [_ H]. apply (inb_In _ _ _ _ H). left; auto.
  - destruct H as [_ H]. rewrite H in H'. apply (cnt_ex (bget (b_words b)) 0 65536). unfold bcard in H'. lia.
  - apply rcard_pos in H'; auto. now apply (cnt_ex (rmem r) 0 65536).
Qed.
Lemma cne_cok c : eok c -> cne c -> cok c.
Proof. intros H [x Hx]. apply (erep_rep c (cmem c)); [split; auto|eauto]. Qed.
Lemma rep_cne c P : rep c P -> exists x, 0 <= x < 65536 /\ P x = true.
Proof. intros [H1 H2]. destruct (cok_cne c H1) as (x&Hx&E). exists x. split; auto. now rewrite <- H2. Qed.
Lemma rep_ext c P Q : rep c P -> (forall x, 0 <= x < 65536 -> P x = Q x) -> rep c Q.
Proof. intros [H1 H2] H. split; auto. intros x Hx. rewrite <- H; auto. Qed.
Lemma awf_acard a : awf a -> zlen a = cnt (amem a) 0 65536.
Proof. intros H. now apply zlen_acard. Qed.

Lemma container_get_cardinality_spec c : cok c -> container_get_cardinality c = ccard c.
Proof.
  destruct c as [a|b|r]; cbn [cok container_get_cardinality]; intros [H H'].
  - now apply awf_acard.
  - apply H.
  - now apply run_cardinality_spec.
Qed.

Lemma container_is_full_spec c : cok c -> (container_is_full c = true <-> forall x, 0 <= x < 65536 -> cmem c x = true).
Proof.
  intros Hc. assert (E : ccard c = 65536 <-> forall x, 0 <= x < 65536 -> cmem c x = true).
  { unfold ccard. split; intros H.
    - apply (cnt_full_inv (cmem c) 0 65536); lia.
    - rewrite (cnt_full (cmem c) 0 65536) by (auto; lia). lia. }
  pose proof (container_get_cardinality_spec c Hc) as Hg.
  destruct c as [a|b|r]; cbn [container_is_full container_get_cardinality] in *.
  - rewrite <- E, <- Hg, Z.eqb_eq. tauto.
  - rewrite <- E, <- Hg, Z.eqb_eq. tauto.
  - apply is_full_iff. apply Hc.
Qed.
Lemma container_nonzero_spec c : lok c -> (container_nonzero_cardinality c = true <-> cne c).
Proof.
  intros H. unfold cne. rewrite <- cnt_ex. destruct c as [a|b|r]; cbn [lok container_nonzero_cardinality cmem] in *.
  - destruct H as [H _]. rewrite awf_acard by auto. rewrite Z.ltb_lt. tauto.
  - rewrite bitset_empty_spec by auto. pose proof (bcard_bound (b_words b)). fold (bcard (b_words b)). rewrite negb_true_iff, Z.eqb_neq. lia.
  - rewrite run_nonzero_spec by auto. fold (rcard r). rewrite Z.ltb_lt. tauto.
Qed.
Lemma container_nonzero_false c : lok c -> container_nonzero_cardinality c = false -> forall x, 0 <= x < 65536 -> cmem c x = false.
Proof.
  intros H H0 x Hx. destruct (cmem c x) eqn:E; auto.
  assert (cne c) by (exists x; auto). apply container_nonzero_spec in H1; auto. congruence.
Qed.
Lemma container_range_of_ones_spec s e : 0 <= s < e -> e <= 65536 ->
  rep (container_range_of_ones s e) (fun x => (s <=? x) && (x <? e)).
Proof.
  intros H H0. unfold container_range_of_ones. cbn zeta. destruct (Z.leb_spec (e - s + 1) 2).
  - rewrite array_create_range_spec by lia. split.
    + cbn [cok]. repeat split; [apply zr_incr| |rewrite zr_zlen; lia|rewrite zr_zlen; lia].
      apply inb_intro. intros x Hx. apply zr_In in Hx. lia.
    + intros x Hx. apply amem_zr.
  - destruct (run_create_range_spec s e) as [H2 H3]; auto. split.
    + cbn [cok]. split; auto. unfold run_container_create_range. discriminate.
    + intros x Hx. apply H3.
Qed.
Lemma stepin_cnt_size min max step : 0 <= min < max -> max <= 65536 -> 0 < step ->
  cnt (stepin min max step) 0 65536 = (max - min + step - 1) / step.
Proof.
  intros H H0 H1. set (n := (max - min + step - 1) / step).
  assert (Hn : (n - 1) * step < max - min <= n * step).
  { pose proof (Z.div_mod (max - min + step - 1) step ltac:(lia)) as D.
    pose proof (Z.mod_pos_bound (max - min + step - 1) step ltac:(lia)) as B. fold n in D. nia. }
  assert (0 < n) by nia.
  assert (Hi : incr (map (fun k => min + step * k) (zr 0 n))).
  { apply incr_map_mono; [intros; nia|apply zr_incr]. }
  assert (Hb : inb 0 65536 (map (fun k => min + step * k) (zr 0 n))).
  { apply inb_intro. intros x Hx. apply in_map_iff in Hx. destruct Hx as (k&<-&Hk). apply zr_In in Hk. nia. }
  assert (E : zlen (map (fun k => min + step * k) (zr 0 n)) = n) by (unfold zlen; rewrite map_length; fold (zlen (zr 0 n)); rewrite zr_zlen; lia).
  rewrite <- E. rewrite (awf_acard (map (fun k => min + step * k) (zr 0 n))) by (split; auto).
  apply cnt_ext. intros x Hx. apply eq_true_iff_eq. unfold amem. rewrite zmem_In, in_map_iff. unfold stepin.
  rewrite !andb_true_iff, Z.leb_le, Z.ltb_lt, Z.eqb_eq. split.
  - intros [[A1 A2] A3]. exists ((x - min) / step). pose proof (Z.div_mod (x - min) step ltac:(lia)). rewrite zr_In. split; [lia|].
    assert (0 <= (x - min) / step) by (apply Z.div_pos; lia). nia.
  - intros (k&<-&Hk). apply zr_In in Hk. replace (min + step * k - min) with (k * step) by lia.
    rewrite Z.mod_mul by lia. nia.
Qed.
Lemma container_from_range_spec min max step : 0 <= min < max -> max <= 65536 -> 0 < step ->
  exists c, container_from_range min max step = Some c /\ rep c (stepin min max step).
Proof.
  intros H H0 H1. unfold container_from_range. replace (step =? 0) with false by lia.
  destruct (Z.eqb_spec step 1).
  - subst. eexists. split; [reflexivity|]. eapply rep_ext; [now apply container_range_of_ones_spec|].
    intros x Hx. unfold stepin. rewrite Z.mod_1_r. cbn. now rewrite andb_true_r.
  - cbn zeta. pose proof (stepin_cnt_size min max step H H0 H1) as E.
    destruct (Z.leb_spec ((max - min + step - 1) / step) 4096).
    + eexists. split; [reflexivity|]. destruct (array_add_from_range_spec min max step) as [A1 A2]; [lia|lia|lia|].
      apply erep_rep; [apply erep_array; auto|].
      * rewrite awf_acard by auto. rewrite (cnt_ext _ (stepin min max step)) by auto. lia.
      * exists min. split; [lia|]. unfold stepin. replace (min - min) with 0 by lia. rewrite Z.mod_0_l by lia. lia.
    + eexists. split; [reflexivity|]. destruct (bitset_add_from_range_spec min max step) as [A1 A2]; [lia|lia|lia|].
      split; [|exact A2]. cbn [cok]. split; auto. destruct A1 as [A1 ->]. unfold bcard.
      rewrite (cnt_ext _ (stepin min max step)) by auto. lia.
Qed.
Lemma container_repair_spec c : lok c -> erep (container_repair_after_lazy c) (cmem c).
Proof.
  destruct c as [a|b|r]; cbn [lok container_repair_after_lazy]; intros H.
  - split; auto.
  - destruct H as [H _]. cbn zeta. apply (bitset_or_array_spec _ (b_words b)); auto. now apply compute_cardinality_spec.
  - now apply convert_run_eff_erep.
Qed.
Lemma container_to_array_spec c base : lok c ->
  container_to_uint32_array c base = map (fun x => x + base) (vals (cmem c)).
Proof.
  destruct c as [a|b|r]; cbn [lok container_to_uint32_array cmem]; intros H.
  - unfold array_container_to_uint32_array. assert (E : a = vals (amem a)) by (apply awf_vals_eq; [apply H|auto]).
    rewrite E at 1. apply map_ext. intros; lia.
  - apply bitset_to_array_spec. apply H.
  - now apply run_to_array_spec.
Qed.
Lemma container_add_spec c v : cok c -> 0 <= v < 65536 -> rep (container_add c v) (fun x => cmem c x || (x =? v)).
Proof.
  intros Hc Hv. destruct c as [a|b|r]; cbn [cok container_add cmem] in *; destruct Hc as [H H'].
  - pose proof (try_add_spec a v 4096 H Hv) as T. cbn zeta in T. destruct (array_container_try_add a v 4096) as [rc a'].
    cbn [fst snd] in T. destruct (amem a v) eqn:E.
    + injection T as -> ->. change (negb (0 =? -1)) with true. cbn iota. split; [cbn; auto|]. intros x Hx. cbn [cmem].
      destruct (Z.eqb_spec x v); [subst; rewrite E; auto|now rewrite orb_false_r].
    + destruct (Z.ltb_spec (zlen a) 4096).
      * destruct T as (->&T1&T2&T3). change (negb (1 =? -1)) with true. cbn iota. split; [cbn [cok]; split; [exact T1|lia]|]. intros x Hx. cbn [cmem]. apply T3.
      * injection T as -> ->. change (negb (-1 =? -1)) with false. cbn iota.
        destruct (bitset_from_array_spec a H) as [F1 F2]. destruct (bitset_add_spec _ v F1 Hv) as (B1&B2&B3&B4).
        split.
        -- cbn [cok]. split; auto. rewrite B4. rewrite F2 by auto. rewrite E.
           destruct F1 as [_ F1]. rewrite F1. unfold bcard. rewrite (cnt_ext _ (amem a)) by auto. rewrite <- awf_acard by auto. lia.
        -- intros x Hx. cbn [cmem]. rewrite B2 by lia. now rewrite F2.
  - destruct (bitset_add_spec b v H Hv) as (B1&B2&B3&B4). unfold bitset_container_set. split.
    + cbn [cok]. split; auto. rewrite B4. destruct (bget (b_words b) v); lia.
    + intros x Hx. cbn [cmem]. apply B2. lia.
  - destruct (run_add_spec r v H Hv) as (B1&B2&B3). split.
    + cbn [cok]. split; auto. intros E. specialize (B2 v). rewrite E in B2. cbn in B2. rewrite Z.eqb_refl, orb_true_r in B2. discriminate.
    + intros x Hx. apply B2.
Qed.
Lemma container_remove_spec c v : cok c -> 0 <= v < 65536 -> erep (container_remove c v) (fun x => cmem c x && negb (x =? v)).
Proof.
  intros Hc Hv. destruct c as [a|b|r]; cbn [cok container_remove cmem] in *; destruct Hc as [H H'].
  - destruct (array_remove_spec a v H Hv) as (A1&A2&A3&A4). apply erep_array; auto. rewrite A4. destruct (amem a v); lia.
  - destruct (bitset_remove_spec b v H Hv) as (B1&B2&B3&B4). destruct (bitset_container_remove b v) as [b' rm]. cbn [fst snd] in *.
    destruct rm.
    + destruct b' as [cc ws]. apply (bitset_or_array_spec cc ws); [apply B1|apply B1|]. intros x Hx. apply B2. lia.
    + rewrite <- B3 in B4. split; [cbn [eok]; split; auto; lia|]. intros x Hx. apply B2. lia.
  - destruct (run_remove_spec r v H Hv) as (B1&B2&B3). split; auto. intros x Hx. apply B2. lia.
Qed.
Lemma container_contains_spec c v : lok c -> 0 <= v < 65536 -> container_contains c v = cmem c v.
Proof.
  intros Hc Hv. destruct c as [a|b|r]; cbn [lok container_contains cmem] in *.
  - apply array_contains_spec. apply Hc.
  - apply bitset_get_spec. lia.
  - now apply run_contains_spec.
Qed.
Lemma container_contains_range_spec c s e : cok c -> 0 <= s < e -> e <= 65536 ->
  (container_contains_range c s e = true <-> forall x, s <= x < e -> cmem c x = true).
Proof.
  intros Hc H H0. assert (E : container_contains_range c s e = (cnt (cmem c) s e =? e - s)).
  { destruct c as [a|b|r]; cbn [cok container_contains_range cmem] in *.
    - apply array_contains_range_spec; auto. apply Hc.
    - apply bitset_get_range_spec; try lia. apply Hc.
    - apply run_contains_range_spec; auto. apply Hc. }
  rewrite E, Z.eqb_eq. split; intros A.
  - apply cnt_full_inv; auto. lia.
  - apply cnt_full; auto. lia.
Qed.
Lemma container_equals_spec c1 c2 : lok c1 -> lok c2 ->
  (container_equals c1 c2 = true <-> forall x, 0 <= x < 65536 -> cmem c1 x = cmem c2 x).
Proof.
  intros H1 H2. destruct c1 as [a1|b1|r1], c2 as [a2|b2|r2]; cbn [lok container_equals cmem] in *.
  - apply array_equals_spec; [apply H1|apply H2].
  - apply array_equal_bitset_spec; [apply H1|apply H2].
  - rewrite run_equals_array_spec; [|apply H2|apply H1]. split; intros E x Hx; symmetry; auto.
  - rewrite array_equal_bitset_spec; [|apply H2|apply H1]. split; intros E x Hx; symmetry; auto.
  - now apply bitset_equals_spec.
  - rewrite run_equals_bitset_spec; auto. split; intros E x Hx; symmetry; auto.
  - apply run_equals_array_spec; [auto|apply H2].
  - now apply run_equals_bitset_spec.
  - now apply run_equals_spec.
Qed.
Lemma container_is_subset_spec c1 c2 : cok c1 -> cok c2 ->
  (container_is_subset c1 c2 = true <-> forall x, 0 <= x < 65536 -> cmem c1 x = true -> cmem c2 x = true).
Proof.
  intros H1 H2. pose proof (cok_lok _ H1) as L1. pose proof (cok_lok _ H2) as L2.
  destruct c1 as [a1|b1|r1], c2 as [a2|b2|r2]; cbn [lok container_is_subset cmem] in *.
  - rewrite array_is_subset_spec; [|apply L1|apply L2]. split; [auto|]. intros E x Hx. apply E; [exact (amem_range a1 x (proj1 L1) Hx)|exact Hx].
  - apply array_subset_bitset_spec; [apply L1|apply L2].
  - apply array_subset_run_spec; [apply L1|apply L2].
  - split; [discriminate|]. intros E. cbn [cok] in H1, H2. destruct H1 as [[_ H1] H1'], H2 as [H2 H2'].
    pose proof (card_guard _ _ E) as C. rewrite <- awf_acard in C by auto. unfold bcard in H1. lia.
  - now apply bitset_is_subset_spec.
  - now apply bitset_subset_run_spec.
  - apply run_subset_array_spec; [auto|apply L2].
  - now apply run_subset_bitset_spec.
  - rewrite run_is_subset_spec by auto. split; [auto|]. intros E x Hx. apply E; [exact (rmem_range 0 r1 x L1 Hx)|exact Hx].
Qed.

Lemma container_and_spec c1 c2 : cok c1 -> cok c2 -> erep (container_and c1 c2) (fun x => cmem c1 x && cmem c2 x).
Proof.
  intros H1 H2. destruct c1 as [a1|b1|r1], c2 as [a2|b2|r2]; cbn [cok container_and cmem] in *; destruct H1 as [H1 H1'], H2 as [H2 H2'].
  - destruct (array_intersection_spec a1 a2 H1 H2) as [A1 A2]. apply erep_array; auto.
    rewrite awf_acard by auto. rewrite (cnt_ext _ (fun x => amem a1 x && amem a2 x)) by auto.
    assert (cnt (fun x => amem a1 x && amem a2 x) 0 65536 <= cnt (amem a1) 0 65536).
    { apply cnt_mono. intros x _ Hx. apply andb_true_iff in Hx. tauto. }
    rewrite <- awf_acard in H by auto. lia.
  - apply array_bitset_intersection_spec; auto. lia.
  - apply array_run_intersection_spec; auto. lia.
  - eapply erep_ext; [apply array_bitset_intersection_spec; auto; lia|]. intros; apply andb_comm.
  - now apply bitset_bitset_intersection_spec.
  - eapply erep_ext; [apply run_bitset_intersection_spec; auto|]. intros; apply andb_comm.
  - eapply erep_ext; [apply array_run_intersection_spec; auto; lia|]. intros; apply andb_comm.
  - now apply run_bitset_intersection_spec.
  - destruct (run_intersection_spec r1 r2 H1 H2) as [A1 A2].
    eapply erep_ext; [apply convert_run_eff_erep; auto|]. intros; apply A2.
Qed.
Lemma container_iand_eq c1 c2 : container_iand c1 c2 = container_and c1 c2.
Proof. destruct c1, c2; reflexivity. Qed.
Lemma container_and_cardinality_spec c1 c2 : cok c1 -> cok c2 ->
  container_and_cardinality c1 c2 = cnt (fun x => cmem c1 x && cmem c2 x) 0 65536.
Proof.
  intros H1 H2. destruct c1 as [a1|b1|r1], c2 as [a2|b2|r2]; cbn [cok container_and_cardinality cmem] in *; destruct H1 as [H1 H1'], H2 as [H2 H2'].
  - now apply array_intersection_cardinality_spec.
  - now apply array_bitset_intersection_cardinality_spec.
  - now apply array_run_intersection_cardinality_spec.
  - rewrite array_bitset_intersection_cardinality_spec by auto. apply cnt_ext. intros; apply andb_comm.
  - unfold bitset_container_and_justcard. apply (bitset_op_justcard_spec _ andb); [apply wordop_and|apply H1|apply H2].
  - rewrite run_bitset_intersection_cardinality_spec by auto. apply cnt_ext. intros; apply andb_comm.
  - rewrite array_run_intersection_cardinality_spec by auto. apply cnt_ext. intros; apply andb_comm.
  - now apply run_bitset_intersection_cardinality_spec.
  - now apply run_intersection_cardinality_spec.
Qed.
Lemma container_intersect_spec c1 c2 : cok c1 -> cok c2 ->
  (container_intersect c1 c2 = true <-> exists x, 0 <= x < 65536 /\ cmem c1 x = true /\ cmem c2 x = true).
Proof.
  intros H1 H2.
  assert (G : forall P, (P = negb (cnt (fun x => cmem c1 x && cmem c2 x) 0 65536 =? 0)) ->
     (P = true <-> exists x, 0 <= x < 65536 /\ cmem c1 x = true /\ cmem c2 x = true)).
  { intros P ->. pose proof (cnt_bound (fun x => cmem c1 x && cmem c2 x) 0 65536 ltac:(lia)).
    rewrite negb_true_iff, Z.eqb_neq.
    pose proof (cnt_ex (fun x => cmem c1 x && cmem c2 x) 0 65536) as E. split.
    - intros A. destruct (proj1 E) as (x&Hx&Ex); [lia|]. apply andb_true_iff in Ex. eauto.
    - intros (x&Hx&E1&E2). assert (0 < cnt (fun x => cmem c1 x && cmem c2 x) 0 65536); [|lia]. apply E. exists x. now rewrite E1, E2. }
  assert (C : cnt (fun x => cmem c1 x && cmem c2 x) 0 65536 = cnt (fun x => cmem c2 x && cmem c1 x) 0 65536)
    by (apply cnt_ext; intros; apply andb_comm).
  destruct c1 as [a1|b1|r1], c2 as [a2|b2|r2]; cbn [cok container_intersect] in *; destruct H1 as [H1 H1'], H2 as [H2 H2'].
  - apply G. cbn [cmem]. now apply array_intersect_spec.
  - apply G. cbn [cmem]. now apply array_bitset_intersect_spec.
  - apply G. cbn [cmem]. now apply array_run_intersect_spec.
  - apply G. rewrite C. cbn [cmem]. now apply array_bitset_intersect_spec.
  - apply G. cbn [cmem]. apply bitset_intersect_spec; [apply H1|apply H2].
  - apply G. rewrite C. cbn [cmem]. now apply run_bitset_intersect_spec.
  - apply G. rewrite C. cbn [cmem]. now apply array_run_intersect_spec.
  - apply G. cbn [cmem]. now apply run_bitset_intersect_spec.
  - rewrite run_intersect_spec by auto. cbn [cmem]. split.
    + intros (y&E1&E2). exists y. split; auto. exact (rmem_range 0 r1 y H1 E1).
    + intros (y&_&E). eauto.
Qed.

Lemma cne_or c1 c2 : cne c1 -> exists x, 0 <= x < 65536 /\ cmem c1 x || cmem c2 x = true.
Proof. intros (x&Hx&E). exists x. now rewrite E. Qed.
Lemma cne_or2 c1 c2 : cne c2 -> exists x, 0 <= x < 65536 /\ cmem c1 x || cmem c2 x = true.
Proof. intros (x&Hx&E). exists x. rewrite E. now rewrite orb_true_r. Qed.
Lemma full_or_l r (Q : Z -> bool) : rwf r -> run_container_is_full r = true ->
  lrep (CRun r) (fun x => rmem r x || Q x).
Proof.
  intros H F. split; auto. intros x Hx. cbn [cmem]. pose proof (proj1 (is_full_iff r H) F) as G. now rewrite G.
Qed.
Lemma full_or_r r (Q : Z -> bool) : rwf r -> run_container_is_full r = true ->
  lrep (CRun r) (fun x => Q x || rmem r x).
Proof.
  intros H F. split; auto. intros x Hx. cbn [cmem]. pose proof (proj1 (is_full_iff r H) F) as G. rewrite G by auto. now rewrite orb_true_r.
Qed.
Lemma lrep_run_rep r P : lrep (CRun r) P -> r <> [] -> rep (CRun r) P.
Proof. intros [H1 H2] H. split; auto. cbn [cok]. auto. Qed.
Lemma arr_ne a : cok (CArr a) -> a <> [].
Proof. intros [_ H] ->. change (zlen (@nil Z)) with 0 in H. lia. Qed.
Lemma container_or_spec c1 c2 : cok c1 -> cok c2 -> rep (container_or c1 c2) (fun x => cmem c1 x || cmem c2 x).
Proof.
  intros K1 K2. pose proof K1 as H1. pose proof K2 as H2.
  destruct c1 as [a1|b1|r1], c2 as [a2|b2|r2]; cbn [cok container_or cmem] in *; destruct H1 as [H1 H1'], H2 as [H2 H2'].
  - apply erep_rep; [now apply array_array_union_spec|]. apply (cne_or (CArr a1) (CArr a2)). now apply cok_cne.
  - destruct (array_bitset_union_spec a1 b2 H1 H2) as (A1&A2&A3). split; auto. cbn [cok]. split; auto. lia.
  - destruct (array_run_union_spec a1 r2) as (A1&A2&A3); auto. { now apply arr_ne. }
    eapply rep_ext; [apply convert_run_eff_spec; auto|auto].
  - destruct (array_bitset_union_spec a2 b1 H2 H1) as (A1&A2&A3). split; [cbn [cok]; split; auto; lia|].
    intros x Hx. cbn [cmem]. rewrite A3 by auto. apply orb_comm.
  - destruct (bitset_op_spec Z.lor orb b1 b2 wordop_or) as [A1 A2]; [apply H1|apply H2|]. fold bitset_container_or in A1, A2.
    split; auto. cbn [cok]. split; auto. destruct A1 as [A1 ->].
    assert (bcard (b_words b1) <= bcard (b_words (bitset_container_or b1 b2))).
    { apply cnt_mono. intros x Hx E. unfold bitset_container_or. rewrite A2 by auto. now rewrite E. }
    destruct H1 as [_ H1]. lia.
  - destruct (run_container_is_full r2) eqn:F.
    + apply lrep_run_rep; auto. now apply full_or_r.
    + destruct (run_bitset_union_spec r2 b1 H2 (proj1 H1)) as [A1 A2]. split.
      * cbn [cok]. split; auto. destruct A1 as [A1 ->].
        assert (bcard (b_words b1) <= bcard (b_words (run_bitset_container_union r2 b1))).
        { apply cnt_mono. intros x Hx E. rewrite A2 by auto. now rewrite E, orb_true_r. }
        destruct H1 as [_ H1]. lia.
      * intros x Hx. cbn [cmem]. rewrite A2 by auto. apply orb_comm.
  - destruct (array_run_union_spec a2 r1) as (A1&A2&A3); auto. { now apply arr_ne. }
    eapply rep_ext; [apply convert_run_eff_spec; auto|]. intros x Hx. rewrite A3 by auto. apply orb_comm.
  - destruct (run_container_is_full r1) eqn:F.
    + apply lrep_run_rep; auto. now apply full_or_l.
    + destruct (run_bitset_union_spec r1 b2 H1 (proj1 H2)) as [A1 A2]. split; auto.
      cbn [cok]. split; auto. destruct A1 as [A1 ->].
      assert (bcard (b_words b2) <= bcard (b_words (run_bitset_container_union r1 b2))).
      { apply cnt_mono. intros x Hx E. rewrite A2 by auto. now rewrite E, orb_true_r. }
      destruct H2 as [_ H2]. lia.
  - destruct (run_union_spec r1 r2) as (A1&A2&A3); auto.
    eapply rep_ext; [apply convert_run_eff_spec; auto|auto].
Qed.
Lemma run_full_rep P : (forall x, 0 <= x < 65536 -> P x = true) -> rep (CRun (run_container_create_range 0 65536)) P.
Proof.
  intros H. destruct (run_create_range_spec 0 65536) as [A1 A2]; try lia. split.
  - cbn [cok]. split; auto. unfold run_container_create_range. discriminate.
  - intros x Hx. cbn [cmem]. rewrite A2, H by auto. lia.
Qed.
Lemma container_ior_spec cap c1 c2 : cok c1 -> cok c2 -> rep (container_ior cap c1 c2) (fun x => cmem c1 x || cmem c2 x).
Proof.
  intros H1 H2. pose proof (container_or_spec c1 c2 H1 H2) as H.
  destruct c1 as [a1|b1|r1], c2 as [a2|b2|r2]; cbn [container_ior container_or] in *; auto.
  - cbn [cok] in *. rewrite array_array_inplace_union_eq; tauto.
  - cbn zeta. destruct (Z.eqb_spec (b_card (bitset_container_or b1 b2)) 65536); auto.
    apply run_full_rep. intros x Hx. destruct H as [[[_ Hc] _] Hm]. rewrite <- Hm by auto. cbn [cmem].
    apply (cnt_full_inv _ 0 65536); [lia| |lia]. unfold bcard in Hc. lia.
Qed.
Lemma container_lazy_or_spec c1 c2 : lok c1 -> cne c1 -> lok c2 -> cne c2 ->
  lrep (container_lazy_or c1 c2) (fun x => cmem c1 x || cmem c2 x).
Proof.
  intros H1 N1 H2 N2. assert (NA : forall a, cne (CArr a) -> a <> []) by (intros a (x&_&E) ->; discriminate).
  assert (NR : forall r, cne (CRun r) -> r <> []) by (intros a (x&_&E) ->; discriminate).
  destruct c1 as [a1|b1|r1], c2 as [a2|b2|r2]; cbn [lok container_lazy_or cmem] in *.
  - apply array_array_lazy_union_spec; [apply H1|apply H2].
  - destruct (array_bitset_lazy_union_spec a1 b2) as [A1 A2]; [apply H1|apply H2|]. split; auto.
  - destruct (array_run_union_spec a1 r2) as (A1&A2&A3); [apply H1|auto|auto|auto|]. split; auto.
  - destruct (array_bitset_lazy_union_spec a2 b1) as [A1 A2]; [apply H2|apply H1|]. split; auto.
    intros x Hx. cbn [cmem]. rewrite A2 by auto. apply orb_comm.
  - destruct (bitset_op_nocard_spec Z.lor orb b1 b2 wordop_or) as [A1 A2]; [apply H1|apply H2|]. split; auto.
  - destruct (run_container_is_full r2) eqn:F; [now apply full_or_r|].
    destruct (run_bitset_lazy_union_spec r2 b1) as [A1 A2]; [auto|apply H1|]. split; auto.
    intros x Hx. cbn [cmem]. rewrite A2 by auto. apply orb_comm.
  - destruct (array_run_union_spec a2 r1) as (A1&A2&A3); [apply H2|auto|auto|auto|]. split; auto.
    intros x Hx. cbn [cmem]. rewrite A3 by auto. apply orb_comm.
  - destruct (run_container_is_full r1) eqn:F; [now apply full_or_l|].
    destruct (run_bitset_lazy_union_spec r1 b2) as [A1 A2]; [auto|apply H2|]. split; auto.
  - destruct (run_union_spec r1 r2) as (A1&A2&A3); auto. apply rep_lrep.
    eapply rep_ext; [apply convert_run_eff_spec; auto|auto].
Qed.
Lemma container_lazy_ior_spec cap c1 c2 : lok c1 -> cne c1 -> lok c2 -> cne c2 ->
  lrep (container_lazy_ior cap c1 c2) (fun x => cmem c1 x || cmem c2 x).
Proof.
  intros H1 N1 H2 N2. pose proof (container_lazy_or_spec c1 c2 H1 N1 H2 N2) as H.
  destruct c1 as [a1|b1|r1], c2 as [a2|b2|r2]; cbn [container_lazy_ior container_lazy_or] in *; auto.
  - now rewrite array_array_lazy_inplace_union_eq.
  - clear H. cbn [lok cmem] in *. cbn zeta.
    destruct (bitset_op_spec Z.lor orb b1 b2 wordop_or) as [A1 A2]; [apply H1|apply H2|]. fold (bitset_container_or b1 b2) in A1, A2.
    destruct (Z.eqb_spec (b_card (bitset_container_or b1 b2)) 65536).
    + apply rep_lrep. apply run_full_rep. intros x Hx. rewrite <- A2 by auto.
      destruct A1 as [_ A1]. apply (cnt_full_inv _ 0 65536); [lia| |lia]. unfold bcard in A1. lia.
    + split; [apply bwf_blz; exact A1|exact A2].
Qed.
Lemma container_xor_spec c1 c2 : cok c1 -> cok c2 -> erep (container_xor c1 c2) (fun x => xorb (cmem c1 x) (cmem c2 x)).
Proof.
  intros H1 H2. destruct c1 as [a1|b1|r1], c2 as [a2|b2|r2]; cbn [cok container_xor cmem] in *; destruct H1 as [H1 H1'], H2 as [H2 H2'].
  - now apply array_array_xor_spec.
  - now apply array_bitset_xor_spec.
  - now apply array_run_xor_spec.
  - eapply erep_ext; [apply array_bitset_xor_spec; auto|]. intros; apply xorb_comm.
  - apply bitset_bitset_xor_spec; [apply H1|apply H2].
  - eapply erep_ext; [apply run_bitset_xor_spec; [auto|apply H1]|]. intros; apply xorb_comm.
  - eapply erep_ext; [apply array_run_xor_spec; auto|]. intros; apply xorb_comm.
  - apply run_bitset_xor_spec; [auto|apply H2].
  - now apply run_run_xor_spec.
Qed.
Lemma container_ixor_eq c1 c2 : container_ixor c1 c2 = container_xor c1 c2.
Proof. destruct c1, c2; reflexivity. Qed.
Lemma container_lazy_xor_spec c1 c2 : lok c1 -> lok c2 -> lrep (container_lazy_xor c1 c2) (fun x => xorb (cmem c1 x) (cmem c2 x)).
Proof.
  intros H1 H2. destruct c1 as [a1|b1|r1], c2 as [a2|b2|r2]; cbn [lok container_lazy_xor cmem] in *.
  - apply array_array_lazy_xor_spec; [apply H1|apply H2].
  - destruct (array_bitset_lazy_xor_spec a1 b2) as [A1 A2]; [apply H1|apply H2|]. split; auto.
  - destruct (array_run_lazy_xor_spec a1 r2) as [A1 A2]; [apply H1|apply H2|]. split; auto. intros x Hx. apply A2. lia.
  - destruct (array_bitset_lazy_xor_spec a2 b1) as [A1 A2]; [apply H2|apply H1|]. split; auto.
    intros x Hx. cbn [cmem]. rewrite A2 by auto. apply xorb_comm.
  - destruct (bitset_op_nocard_spec Z.lxor xorb b1 b2 wordop_xor) as [A1 A2]; [apply H1|apply H2|]. split; auto.
  - destruct (run_bitset_lazy_xor_spec r2 b1) as [A1 A2]; [auto|apply H1|]. split; auto.
    intros x Hx. cbn [cmem]. rewrite A2 by auto. apply xorb_comm.
  - destruct (array_run_lazy_xor_spec a2 r1) as [A1 A2]; [apply H2|apply H1|]. split; auto.
    intros x Hx. cbn [cmem]. rewrite A2 by lia. apply xorb_comm.
  - destruct (run_bitset_lazy_xor_spec r1 b2) as [A1 A2]; [auto|apply H2|]. split; auto.
  - apply erep_lrep. now apply run_run_xor_spec.
Qed.
(** the second operand of lazy_ixor must not itself be a lazy bitset unless the first
    one is a bitset (the code then trusts its cardinality field) *)
Lemma container_lazy_ixor_spec c1 c2 : lok c1 -> cok c2 -> lrep (container_lazy_ixor c1 c2) (fun x => xorb (cmem c1 x) (cmem c2 x)).
Proof.
  intros H1 H2. pose proof (cok_lok _ H2) as L2.
  assert (B : forall b, blz b -> let b' := (if b_card b =? -1 then (bitset_container_compute_cardinality (b_words b), b_words b) else b) in
     bwf b' /\ b_words b' = b_words b).
  { intros b [B1 B2]. cbn zeta. destruct (Z.eqb_spec (b_card b) (-1)); split; auto.
    - split; auto. cbn. now apply compute_cardinality_spec.
    - split; auto. lia. }
  destruct c1 as [a1|b1|r1]; cbn [lok container_lazy_ixor container_ixor] in *.
  - destruct c2 as [a2|b2|r2]; cbn [cok lok cmem] in *; apply erep_lrep.
    + apply array_array_xor_spec; [apply H1|apply L2].
    + apply array_bitset_xor_spec; [apply H1|apply H2].
    + apply array_run_xor_spec; [apply H1|apply H2].
  - destruct (B b1 H1) as [B1 B2]. cbn zeta in *. set (b' := if b_card b1 =? -1 then (bitset_container_compute_cardinality (b_words b1), b_words b1) else b1) in *.
    destruct c2 as [a2|b2|r2]; cbn [cok lok cmem container_ixor] in *.
    + apply erep_lrep. eapply erep_ext; [apply array_bitset_xor_spec; [apply L2|auto]|]. intros; rewrite B2. apply xorb_comm.
    + destruct (bitset_op_nocard_spec Z.lxor xorb b1 b2 wordop_xor) as [A1 A2]; [apply H1|apply L2|]. split; auto.
    + apply erep_lrep. eapply erep_ext; [apply run_bitset_xor_spec; [auto|apply B1]|]. intros; rewrite B2. apply xorb_comm.
  - destruct c2 as [a2|b2|r2]; cbn [cok lok cmem] in *; apply erep_lrep.
    + eapply erep_ext; [apply array_run_xor_spec; [apply L2|auto]|]. intros; apply xorb_comm.
    + apply run_bitset_xor_spec; [auto|apply L2].
    + now apply run_run_xor_spec.
Qed.
Lemma full_andnot r (Q : Z -> bool) : rwf r -> run_container_is_full r = true -> erep (CArr []) (fun x => Q x && negb (rmem r x)).
Proof.
  intros H F. apply erep_array; [apply awf_nil|change (zlen (@nil Z)) with 0; lia|].
  intros x Hx. pose proof (proj1 (is_full_iff r H) F x Hx) as G. rewrite G. cbn. now rewrite andb_false_r.
Qed.
Lemma container_iandnot_spec c1 c2 : cok c1 -> cok c2 -> erep (container_iandnot c1 c2) (fun x => cmem c1 x && negb (cmem c2 x)).
Proof.
  intros H1 H2. destruct c1 as [a1|b1|r1], c2 as [a2|b2|r2]; cbn [cok container_iandnot cmem] in *; destruct H1 as [H1 H1'], H2 as [H2 H2'].
  - apply array_array_andnot_spec; auto; lia.
  - apply array_bitset_andnot_spec; auto; lia.
  - apply array_run_andnot_spec; auto; lia.
  - now apply bitset_array_andnot_spec.
  - apply bitset_bitset_andnot_spec; [apply H1|apply H2].
  - apply bitset_run_andnot_spec; [auto|apply H1].
  - now apply run_array_andnot_spec.
  - apply run_bitset_andnot_spec; [auto|apply H2].
  - now apply run_run_andnot_spec.
Qed.
Lemma container_andnot_spec c1 c2 : cok c1 -> cok c2 -> erep (container_andnot c1 c2) (fun x => cmem c1 x && negb (cmem c2 x)).
Proof.
  intros H1 H2. pose proof (container_iandnot_spec c1 c2 H1 H2) as H.
  destruct c1 as [a1|b1|r1], c2 as [a2|b2|r2]; cbn [container_andnot container_iandnot] in *; auto;
  (destruct (run_container_is_full r2) eqn:F; [apply full_andnot; auto; apply H2|auto]).
Qed.
Lemma container_not_range_spec c s e : cok c -> 0 <= s <= e -> e <= 65536 ->
  erep (container_not_range c s e) (fliprange s e (cmem c)).
Proof.
  intros H H0 H1. destruct c as [a|b|r]; cbn [cok container_not_range cmem] in *; destruct H as [H H'].
  - apply array_negation_range_spec; auto; lia.
  - apply bitset_negation_range_spec; [apply H|lia|lia].
  - apply run_negation_range_spec; auto; lia.
Qed.
Lemma container_inot_range_eq cap c s e : container_inot_range cap c s e = container_not_range c s e.
Proof. destruct c; [reflexivity|reflexivity|]. apply run_negation_range_inplace_eq. Qed.
Lemma container_not_spec c : cok c -> erep (container_not c) (fun x => negb (cmem c x)).
Proof.
  intros H. assert (F : forall P x, 0 <= x < 65536 -> fliprange 0 65536 P x = negb (P x)).
  { intros P x Hx. unfold fliprange. replace (0 <=? x) with true by lia. replace (x <? 65536) with true by lia. reflexivity. }
  destruct c as [a|b|r]; cbn [cok container_not cmem] in *; destruct H as [H H'].
  - destruct (array_negation_spec a H) as [A1 A2]. split; auto. cbn [eok]. split; auto. destruct A1 as [_ ->].
    unfold bcard. rewrite (cnt_ext _ (fun x => negb (amem a x))) by auto. rewrite cnt_compl by lia. rewrite <- awf_acard by auto. lia.
  - unfold bitset_container_negation.
    apply (erep_ext _ (fliprange 0 65536 (bget (b_words b)))); [apply bitset_negation_range_spec; [apply H|lia|lia]|apply F].
  - unfold run_container_negation.
    apply (erep_ext _ (fliprange 0 65536 (rmem r))); [apply run_negation_range_spec; auto; lia|apply F].
Qed.
Lemma container_inot_eq cap c : container_inot cap c = container_not c.
Proof. destruct c; [reflexivity|reflexivity|]. apply run_negation_range_inplace_eq. Qed.

(** select: succeeds iff the rank falls in this container; [sr + card] must not wrap
    (strictly for array and bitset containers, see C08) *)
Definition select_fits (c : container) (sr : Z) : Prop :=
  match c with CRun _ => sr + ccard c <= 2^32 | _ => sr + ccard c < 2^32 end.
Lemma container_select_spec c sr rank : cok c -> 0 <= sr <= rank -> rank < 2^32 -> select_fits c sr ->
  if rank <? sr + ccard c then
    exists x, 0 <= x < 65536 /\ fst (container_select c sr rank) = Some x /\ cmem c x = true /\ cnt (cmem c) 0 x = rank - sr
  else container_select c sr rank = (None, sr + ccard c).
Proof.
  intros Hc H1 H2 H3. pose proof (container_get_cardinality_spec c Hc) as E.
  destruct c as [a|b|r]; cbn [cok container_get_cardinality container_select select_fits] in *; destruct Hc as [Hc Hc'].
  - rewrite <- E in *. now apply array_select_spec.
  - rewrite <- E in *. now apply bitset_select_spec.
  - now apply run_select_spec.
Qed.
Lemma container_minimum_spec c : cok c ->
  let m := container_minimum c in 0 <= m < 65536 /\ cmem c m = true /\ forall x, 0 <= x < 65536 -> cmem c x = true -> m <= x.
Proof.
  intros Hc. cbn zeta. pose proof (cok_cne c Hc) as N. destruct c as [a|b|r]; cbn [cok container_minimum cmem] in *.
  - destruct (array_minimum_spec a (proj1 Hc)) as [A1 A2]; [now apply arr_ne|]. split; [|auto]. exact (amem_range a _ (proj1 Hc) A1).
  - destruct Hc as [[Hc Hc2] Hc']. destruct (bitset_minimum_spec b Hc N) as (A1&A2&A3). split; auto. split; auto.
    intros x Hx E. destruct (Z_lt_le_dec x (bitset_container_minimum b)); auto. rewrite A3 in E by lia. discriminate.
  - destruct (run_minimum_spec r (proj1 Hc) (proj2 Hc)) as [A1 A2]. split; [|auto]. exact (rmem_range 0 r _ (proj1 Hc) A1).
Qed.
Lemma container_maximum_spec c : cok c ->
  let m := container_maximum c in 0 <= m < 65536 /\ cmem c m = true /\ forall x, 0 <= x < 65536 -> cmem c x = true -> x <= m.
Proof.
  intros Hc. cbn zeta. destruct c as [a|b|r]; cbn [cok container_maximum cmem] in *.
  - destruct (array_maximum_spec a (proj1 Hc)) as [A1 A2]; [now apply arr_ne|]. split; [|auto]. exact (amem_range a _ (proj1 Hc) A1).
  - destruct Hc as [[Hc Hc2] Hc']. destruct (bitset_maximum_spec b Hc ltac:(lia)) as (A1&A2&A3). split; auto. split; auto.
    intros x Hx E. destruct (Z_lt_le_dec (bitset_container_maximum b) x); auto. rewrite A3 in E by lia. discriminate.
  - destruct (run_maximum_spec r (proj1 Hc) (proj2 Hc)) as [A1 A2]. split; [|auto]. exact (rmem_range 0 r _ (proj1 Hc) A1).
Qed.
Lemma container_rank_spec c x : cok c -> 0 <= x < 65536 -> container_rank c x = cnt (cmem c) 0 (x + 1).
Proof.
  intros Hc Hx. destruct c as [a|b|r]; cbn [cok container_rank cmem] in *.
  - apply array_rank_spec; [apply Hc|lia].
  - apply bitset_rank_spec; [apply Hc|lia].
  - apply run_rank_spec. apply Hc.
Qed.
Lemma container_get_index_spec c x : cok c -> 0 <= x < 65536 ->
  container_get_index c x = if cmem c x then cnt (cmem c) 0 x else -1.
Proof.
  intros Hc Hx. destruct c as [a|b|r]; cbn [cok container_get_index cmem] in *.
  - apply array_get_index_spec; [apply Hc|lia].
  - apply bitset_get_index_spec; [apply Hc|lia].
  - apply run_get_index_spec. apply Hc.
Qed.
Lemma container_rank_many_spec c sr q qs : cok c -> Sorted Z.le (q :: qs) -> (forall q', In q' (q :: qs) -> 0 <= q') ->
  container_rank_many c sr (q :: qs) =
  map (fun q0 => sr + cnt (cmem c) 0 (q0 mod 65536 + 1)) (same_key_prefix (Z.shiftr q 16) (q :: qs)).
Proof.
  intros Hc H H0. destruct c as [a|b|r]; cbn [cok container_rank_many cmem] in *.
  - apply array_rank_many_spec; auto. apply Hc.
  - apply bitset_rank_many_spec; auto. apply Hc.
  - apply run_rank_many_spec; auto. apply Hc.
Qed.
Lemma array_range_counts a lo hi : awf a -> 0 <= lo <= hi -> hi < 65536 ->
  count_greater a (u16 hi) = zlen a - lb a (hi + 1) /\
  count_less (ztake (zlen a - (zlen a - lb a (hi + 1))) a) (u16 lo) = lb a lo.
Proof.
  intros [Hi Hb] H H0. rewrite !u16_small by lia. rewrite count_greater_spec by auto. split; auto.
  replace (zlen a - (zlen a - lb a (hi+1))) with (lb a (hi+1)) by lia.
  assert (Ht : ztake (lb a (hi+1)) a = filter (fun x => x <? hi + 1) a).
  { pose proof (zskip_ztake_filter a 0 (hi+1) Hi ltac:(lia)) as F. 
    assert (L0 : lb a 0 = 0).
    { destruct a as [|y a]; [apply lb_nil|]. apply inb_cons in Hb. apply lb_cons_ge; [auto|lia]. }
    rewrite L0 in F. change (zskip 0 ?l) with l in F. rewrite F. apply filter_ext_In. intros x Hx.
    pose proof (inb_In _ _ _ _ Hb Hx). destruct (Z.leb_spec 0 x); [reflexivity|lia]. }
  assert (Hit : incr (ztake (lb a (hi+1)) a)) by (rewrite Ht; now apply incr_filter).
  rewrite count_less_spec by auto. rewrite Ht. unfold lb. rewrite filter_filter_impl; [reflexivity|].
  intros x Hx E. lia.
Qed.

Lemma bws_set_lenrange ws s l : bws ws -> bws (bitset_set_lenrange ws s l).
Proof. intros [H1 H2]. split; [now apply wfw_set_lenrange|now rewrite zlen_set_lenrange]. Qed.
Lemma container_add_range_spec c lo hi : cok c -> 0 <= lo <= hi -> hi < 65536 ->
  rep (container_add_range c lo hi) (fun x => cmem c x || ((lo <=? x) && (x <=? hi))).
Proof.
  intros Hc H H0. destruct c as [a|b|r]; cbn [cok container_add_range cmem] in *; destruct Hc as [Hc Hc'].
  - destruct (array_range_counts a lo hi Hc H H0) as [E1 E2]. cbn zeta. rewrite E1, E2.
    destruct (array_add_range_nvals_spec a lo hi Hc H H0) as (A1&A2&A3). cbn zeta in *.
    set (n := lb a lo + (hi - lo + 1) + (zlen a - lb a (hi + 1))) in *.
    set (L := array_container_add_range_nvals a lo hi (lb a lo) (zlen a - lb a (hi + 1))) in *.
    assert (Hn : n = cnt (fun x => amem a x || ((lo <=? x) && (x <=? hi))) 0 65536).
    { rewrite <- A3, awf_acard by auto. apply cnt_ext. auto. }
    destruct (Z.eqb_spec n 65536); [|destruct (Z.leb_spec n 4096)].
    + apply run_full_rep. intros x Hx. apply (cnt_full_inv (fun x => amem a x || ((lo <=? x) && (x <=? hi))) 0 65536 ltac:(lia) ltac:(lia) x Hx).
    + split; [|intros x _; apply A2]. cbn [cok]. split; auto. split; [|lia]. pose proof (lb_bound a lo). pose proof (lb_bound a (hi+1)). lia.
    + destruct (bitset_from_array_spec a Hc) as [[F1 F0] F2]. destruct F1 as [F1 F3].
      assert (G : forall x, 0 <= x < 65536 -> bget (bitset_set_lenrange (b_words (bitset_container_from_array a)) lo (hi - lo)) x
                  = amem a x || ((lo <=? x) && (x <=? hi))).
      { intros x Hx. rewrite bitset_set_lenrange_spec by (auto; lia). rewrite F2 by auto. now replace (lo + (hi - lo)) with hi by lia. }
      split; [|exact G]. cbn [cok b_card fst]. split; [|lia]. split; cbn [b_words b_card fst snd].
      * now apply bws_set_lenrange.
      * rewrite Hn. unfold bcard. apply cnt_ext. intros; symmetry; auto.
  - destruct Hc as [[F1 F3] F0]. cbn zeta. rewrite bitset_lenrange_cardinality_spec by lia.
    replace (lo + (hi - lo) + 1) with (hi + 1) by lia.
    set (n := b_card b + (hi - lo + 1) - cnt (bget (b_words b)) lo (hi + 1)).
    assert (Hn : n = cnt (fun x => bget (b_words b) x || ((lo <=? x) && (x <=? hi))) 0 65536).
    { pose proof (cnt_app (fun x => bget (b_words b) x || ((lo <=? x) && (x <=? hi))) 0 lo 65536 ltac:(lia) ltac:(lia)) as S1.
      pose proof (cnt_app (fun x => bget (b_words b) x || ((lo <=? x) && (x <=? hi))) lo (hi+1) 65536 ltac:(lia) ltac:(lia)) as S2.
      pose proof (cnt_app (bget (b_words b)) 0 lo 65536 ltac:(lia) ltac:(lia)) as T1.
      pose proof (cnt_app (bget (b_words b)) lo (hi+1) 65536 ltac:(lia) ltac:(lia)) as T2.
      rewrite (cnt_full _ lo (hi+1)) in S2 by (try lia; intros x Hx; rewrite (proj2 (Z.leb_le lo x)), (proj2 (Z.leb_le x hi)), orb_true_r by lia; auto).
      rewrite (cnt_ext _ (bget (b_words b)) 0 lo) in S1 by (intros x Hx; replace (lo <=? x) with false by lia; apply orb_false_r).
      rewrite (cnt_ext _ (bget (b_words b)) (hi+1) 65536) in S2 by (intros x Hx; replace (x <=? hi) with false by lia; rewrite andb_false_r; apply orb_false_r).
      unfold bcard in F0. lia. }
    destruct (Z.eqb_spec n 65536).
    + apply run_full_rep. intros x Hx. apply (cnt_full_inv (fun x => bget (b_words b) x || ((lo <=? x) && (x <=? hi))) 0 65536 ltac:(lia) ltac:(lia) x Hx).
    + assert (G : forall x, 0 <= x < 65536 -> bget (bitset_set_lenrange (b_words b) lo (hi - lo)) x
                  = bget (b_words b) x || ((lo <=? x) && (x <=? hi))).
      { intros x Hx. rewrite bitset_set_lenrange_spec by (auto; lia). now replace (lo + (hi - lo)) with hi by lia. }
      split; [|exact G]. cbn [cok]. assert (b_card (n, bitset_set_lenrange (b_words b) lo (hi - lo)) = n) by reflexivity.
      split; [split|].
      * apply bws_set_lenrange. split; auto.
      * rewrite H1, Hn. unfold bcard. apply cnt_ext. intros; symmetry; now apply G.
      * rewrite H1. unfold bcard in F0. assert (cnt (bget (b_words b)) 0 65536 <= n); [|lia]. rewrite Hn.
        apply cnt_mono. intros x _ E. now rewrite E.
  - cbn zeta. fold (run_container_add_range r lo hi). destruct (_ * 4 <=? 1024 * 8).
    + destruct (run_add_range_spec r lo hi) as [A1 A2]; auto; try lia. split; [|intros; apply A2]. cbn [cok]. split; auto.
      intros E. specialize (A2 lo). rewrite E in A2. cbn in A2. replace (lo <=? lo) with true in A2 by lia.
      replace (lo <=? hi) with true in A2 by lia. rewrite orb_true_r in A2. discriminate.
    + now apply container_from_run_range_spec.
Qed.
Lemma container_remove_range_spec c lo hi : cok c -> 0 <= lo <= hi -> hi < 65536 ->
  match container_remove_range c lo hi with
  | Some c' => rep c' (fun x => cmem c x && negb ((lo <=? x) && (x <=? hi)))
  | None => forall x, 0 <= x < 65536 -> cmem c x && negb ((lo <=? x) && (x <=? hi)) = false
  end.
Proof.
  intros Hc H H0. destruct c as [a|b|r]; cbn [cok container_remove_range cmem] in *; destruct Hc as [Hc Hc'].
  - destruct (array_range_counts a lo hi Hc H H0) as [E1 E2]. cbn zeta. rewrite E1, E2.
    destruct (array_remove_range_spec a lo (hi+1) Hc ltac:(lia)) as (A1&A2&A3). cbn zeta in *.
    replace (zlen a - (lb a lo + (zlen a - lb a (hi + 1)))) with (lb a (hi+1) - lb a lo) by lia.
    set (L := array_container_remove_range a (lb a lo) (lb a (hi + 1) - lb a lo)) in *.
    assert (A2' : forall x, amem L x = amem a x && negb ((lo <=? x) && (x <=? hi))).
    { intros x. rewrite A2. f_equal. f_equal. f_equal. lia. }
    destruct (Z.eqb_spec (lb a lo + (zlen a - lb a (hi + 1))) 0).
    + intros x Hx. rewrite <- A2'. assert (L = []) as ->; [|reflexivity]. apply zlen_0_nil. lia.
    + split; [|intros x _; apply A2']. cbn [cok]. split; auto. pose proof (zlen_nonneg L). pose proof (lb_mono a lo (hi+1) ltac:(lia)). lia.
  - destruct Hc as [[F1 F3] F0]. cbn zeta. rewrite bitset_lenrange_cardinality_spec by lia.
    replace (lo + (hi - lo) + 1) with (hi + 1) by lia.
    set (n := b_card b - cnt (bget (b_words b)) lo (hi + 1)).
    assert (Hn : n = cnt (fun x => bget (b_words b) x && negb ((lo <=? x) && (x <=? hi))) 0 65536).
    { pose proof (cnt_app (fun x => bget (b_words b) x && negb ((lo <=? x) && (x <=? hi))) 0 lo 65536 ltac:(lia) ltac:(lia)) as S1.
      pose proof (cnt_app (fun x => bget (b_words b) x && negb ((lo <=? x) && (x <=? hi))) lo (hi+1) 65536 ltac:(lia) ltac:(lia)) as S2.
      pose proof (cnt_app (bget (b_words b)) 0 lo 65536 ltac:(lia) ltac:(lia)) as T1.
      pose proof (cnt_app (bget (b_words b)) lo (hi+1) 65536 ltac:(lia) ltac:(lia)) as T2.
      rewrite (cnt_none _ lo (hi+1)) in S2 by (intros x Hx; rewrite (proj2 (Z.leb_le lo x)), (proj2 (Z.leb_le x hi)) by lia; apply andb_false_r).
      rewrite (cnt_ext _ (bget (b_words b)) 0 lo) in S1 by (intros x Hx; replace (lo <=? x) with false by lia; apply andb_true_r).
      rewrite (cnt_ext _ (bget (b_words b)) (hi+1) 65536) in S2 by (intros x Hx; replace (x <=? hi) with false by lia; rewrite andb_false_r; apply andb_true_r).
      unfold bcard in F0. lia. }
    assert (G : forall x, 0 <= x < 65536 -> bget (bitset_reset_range (b_words b) lo (hi + 1)) x
                  = bget (b_words b) x && negb ((lo <=? x) && (x <=? hi))).
    { intros x Hx. rewrite bitset_reset_range_spec by (auto; lia). f_equal. f_equal. f_equal. lia. }
    assert (W : bws (bitset_reset_range (b_words b) lo (hi + 1))) by (apply bws_reset; split; auto).
    assert (C : n = bcard (bitset_reset_range (b_words b) lo (hi + 1))).
    { rewrite Hn. unfold bcard. apply cnt_ext. intros; symmetry; auto. }
    destruct (Z.eqb_spec n 0).
    + intros x Hx. apply (cnt_none_inv (fun x => bget (b_words b) x && negb ((lo <=? x) && (x <=? hi))) 0 65536); auto. lia.
    + pose proof (bitset_or_array_spec n _ _ W C G) as B. apply erep_card_pos in B.
      2:{ rewrite <- Hn. pose proof (bcard_bound (bitset_reset_range (b_words b) lo (hi + 1))). lia. }
      unfold bitset_or_array in B. change (b_card (n, bitset_reset_range (b_words b) lo (hi + 1))) with n in B.
      destruct (n <=? 4096); exact B.
  - destruct (Z.eqb_spec (zlen r) 0). { apply zlen_0_nil in e. congruence. }
    destruct (run_minimum_spec r Hc Hc') as [M1 M2]. destruct (run_maximum_spec r Hc Hc') as [M3 M4].
    destruct (run_remove_range_spec r lo hi) as [A1 A2]; auto; try lia.
    destruct ((lo <=? run_container_minimum r) && (run_container_maximum r <=? hi)) eqn:E.
    + intros x Hx. destruct (rmem r x) eqn:Ex; auto. specialize (M2 x Ex). specialize (M4 x Ex).
      replace (lo <=? x) with true by lia. replace (x <=? hi) with true by lia. reflexivity.
    + eapply rep_ext; [apply convert_run_eff_spec; auto|auto].
      intros EN. rewrite EN in A2. cbn in A2. pose proof (A2 (run_container_minimum r)) as B1. pose proof (A2 (run_container_maximum r)) as B2.
      rewrite M1 in B1. rewrite M3 in B2. cbn in B1, B2. pose proof (M2 _ M3). lia.
Qed.

(** a half of an offset container: the piece is not yet in the right size class *)
Definition ooff (o : option container) (P : Z -> bool) : Prop :=
  match o with
  | Some c => wrep c P /\ cne c
  | None => forall x, 0 <= x < 65536 -> P x = false
  end.
Lemma container_add_offset_spec c wantlo wanthi off : cok c -> 0 < off < 65536 ->
  let r := container_add_offset c wantlo wanthi off in
  (wantlo = true -> ooff (fst r) (fun x => (off <=? x) && cmem c (x - off))) /\
  (wanthi = true -> ooff (snd r) (fun x => (x <? off) && cmem c (x + 65536 - off))).
Proof.
  intros Hc H. destruct c as [a|b|r]; cbn [cok container_add_offset cmem] in *; destruct Hc as [Hc Hc']; cbn zeta.
  - destruct (array_offset_spec a wantlo wanthi off Hc ltac:(lia)) as [A1 A2]. destruct (array_container_offset a wantlo wanthi off) as [lo hi].
    cbn [fst snd] in *.
    assert (T : forall o P, oaw o P -> ooff (option_map CArr o) P).
    { intros [l|] P; cbn; auto. intros (B1&B2&B3). split; [split; auto|]. destruct l as [|x l]; [congruence|]. exists x.
      split; [apply (inb_In _ _ _ _ (proj2 B1)); left; auto|]. cbn [cmem]. apply zmem_In. left; auto. }
    split; intros W; apply T; auto.
  - destruct (bitset_offset_spec b wantlo wanthi off Hc ltac:(lia)) as [A1 A2]. destruct (bitset_container_offset b wantlo wanthi off) as [lo hi].
    cbn [fst snd] in *.
    assert (T : forall o P, obw o P -> ooff (option_map CBit o) P).
    { intros [l|] P; cbn [obw ooff option_map]; auto. intros (B1&B2&B3). split; [split; auto|]. apply cnt_ex. cbn [cmem].
      destruct B1 as [_ B1]. unfold bcard in B1. lia. }
    split; intros W; apply T; auto.
  - destruct (run_offset_spec r wantlo wanthi off Hc Hc' H) as [A1 A2]. destruct (run_container_offset r wantlo wanthi off) as [lo hi].
    cbn [fst snd] in *.
    assert (T : forall o P, orw o P -> ooff (option_map CRun o) P).
    { intros [l|] P; cbn [orw ooff option_map]; auto. intros (B1&B2&B3). split; [split; auto|]. apply cnt_ex. cbn [cmem].
      apply rcard_pos in B2; auto. }
    split; intros W; apply T; auto.
Qed.
(** internal_validate accepts exactly the valid containers, among those whose fields are
    in the ranges of their C types *)
Definition ctyped (c : container) : Prop :=
  match c with
  | CArr a => inb 0 65536 a
  | CBit b => bws (b_words b)
  | CRun r => Forall (fun x : run => 0 <= fst x < 65536 /\ 0 <= snd x < 65536) r
  end.
Lemma container_validate_spec c : ctyped c -> (container_internal_validate c = true <-> cok c).
Proof.
  destruct c as [a|b|r]; cbn [ctyped container_internal_validate cok]; intros H.
  - rewrite array_validate_spec. unfold awf. tauto.
  - now apply bitset_validate_spec.
  - now apply run_validate_spec.
Qed.
Lemma cok_ctyped c : cok c -> ctyped c.
Proof.
  destruct c as [a|b|r]; cbn [cok ctyped]; intros [H H'].
  - apply H.
  - apply H.
  - apply Forall_forall. intros [v l] Hi. destruct (rok_In _ _ _ _ H Hi) as (A&B&C). cbn. lia.
Qed.
