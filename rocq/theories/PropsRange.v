(** PropsRange: interval operations, flips and arithmetic progressions
    (C11, C12, C26, C27). *)
From Coq Require Import ZArith List Bool Lia Sorting.Sorted.
From Verif Require Import Base Convert Containers RArray RBinary RPoint RRange RQuery RStat RShift Spec Obs Hist Derived Samples.
Import ListNotations.
Local Open Scope Z_scope.
Local Opaque zr.

(** C11 *)
Theorem C11_add_range : forall r P a b, denotes r P -> 0 <= a -> 0 <= b <= 2^32 -> denotes (roaring_bitmap_add_range r a b) (zunion P (zival a b)).
Proof. exact den_add_range. Qed.
Print Assumptions C11_add_range.
Theorem C11_add_range_closed : forall r P a b, denotes r P -> val32 a -> val32 b ->
  denotes (roaring_bitmap_add_range_closed r a b) (zunion P (zival a (b + 1))).
Proof. exact den_add_range_closed. Qed.
Print Assumptions C11_add_range_closed.
Theorem C11_remove_range : forall r P a b, denotes r P -> 0 <= a -> 0 <= b <= 2^32 -> denotes (roaring_bitmap_remove_range r a b) (zdiff P (zival a b)).
Proof. exact den_remove_range. Qed.
Print Assumptions C11_remove_range.
Theorem C11_remove_range_closed : forall r P a b, denotes r P -> val32 a -> val32 b ->
  denotes (roaring_bitmap_remove_range_closed r a b) (zdiff P (zival a (b + 1))).
Proof. exact den_remove_range_closed. Qed.
Print Assumptions C11_remove_range_closed.
Theorem C11_flip : forall r P a b, denotes r P -> 0 <= a -> 0 <= b <= 2^32 -> denotes (roaring_bitmap_flip r a b) (zsymm P (zival a b)).
Proof. exact den_flip. Qed.
Print Assumptions C11_flip.
Theorem C11_flip_closed : forall r P a b, denotes r P -> val32 a -> val32 b -> denotes (roaring_bitmap_flip_closed r a b) (zsymm P (zival a (b + 1))).
Proof. exact den_flip_closed. Qed.
Print Assumptions C11_flip_closed.
Theorem C11_flip_inplace : forall cap r P a b, denotes r P -> 0 <= a -> 0 <= b <= 2^32 ->
  denotes (roaring_bitmap_flip_inplace cap r a b) (zsymm P (zival a b)).
Proof. exact den_flip_inplace. Qed.
Print Assumptions C11_flip_inplace.
Theorem C11_flip_inplace_closed : forall cap r P a b, denotes r P -> val32 a -> val32 b ->
  denotes (roaring_bitmap_flip_inplace_closed cap r a b) (zsymm P (zival a (b + 1))).
Proof. exact den_flip_inplace_closed. Qed.
Print Assumptions C11_flip_inplace_closed.
Theorem C11_contains_range : forall r P a b, denotes r P -> 0 <= a -> 0 <= b <= 2^32 ->
  (roaring_bitmap_contains_range r a b = true <-> forall v, a <= v < b -> P v = true).
Proof. exact q_contains_range. Qed.
Print Assumptions C11_contains_range.
Theorem C11_range_cardinality : forall r P a b, denotes r P -> 0 <= a -> 0 <= b <= 2^32 ->
  has_card (zinter P (zival a b)) (roaring_bitmap_range_cardinality r a b).
Proof. exact q_range_card. Qed.
Print Assumptions C11_range_cardinality.
Example C11_hypotheses : denotes sample sampleP /\ 0 <= 131000 /\ 0 <= 200000 <= 2^32.
Proof. split; [exact sample_den|lia]. Qed.
Example C11_example :
  (map roaring_bitmap_get_cardinality [roaring_bitmap_add_range sample 131000 200000; roaring_bitmap_remove_range sample 131000 200000;
    roaring_bitmap_flip sample 131000 200000; roaring_bitmap_flip_inplace (fun _ => 0) sample 131000 200000; roaring_bitmap_add_range sample 4294901760 4294967296],
   map (roaring_bitmap_contains_range sample 131072) [131172; 131173], roaring_bitmap_range_cardinality sample 131000 200000)
  = ([3 + 69000 + 31072; 3 + 31072; 3 + 69000 - 100 - 1696 + 31072; 3 + 69000 - 100 - 1696 + 31072; 32871 + 65536], [true; false], 1796).
Proof. vm_compute. reflexivity. Qed.

(** C12: bounds above 2^32.  A range that starts above 2^32 has no effect... *)
Theorem C12_start_beyond_partial : forall cap r a b, 2^32 < a ->
  roaring_bitmap_add_range r a b = r /\ roaring_bitmap_remove_range r a b = r /\ roaring_bitmap_flip r a b = r /\
  roaring_bitmap_flip_inplace cap r a b = r /\ roaring_bitmap_contains_range r a b = true /\ roaring_bitmap_range_cardinality r a b = 0.
Proof. exact range_start_beyond. Qed.
Print Assumptions C12_start_beyond_partial.
(** ... but one that starts at 2^32 exactly acts on the bottom of the universe, *)
Theorem C12_add_range_at_2_32_refuted : exists r a b v, valid r /\ 2^32 <= a < b /\ b < 2^64 /\ val32 v /\
  roaring_bitmap_contains r v = false /\ roaring_bitmap_contains (roaring_bitmap_add_range r a b) v = true.
Proof.
  exists [], (2^32), (2^32 + 1), 0. split; [apply den_new|]. unfold val32. repeat apply conj; try lia; vm_compute; reflexivity.
Qed.
Print Assumptions C12_add_range_at_2_32_refuted.
Theorem C12_remove_range_at_2_32_refuted : exists r a b v, valid r /\ 2^32 <= a < b /\ b < 2^64 /\ val32 v /\
  roaring_bitmap_contains r v = true /\ roaring_bitmap_contains (roaring_bitmap_remove_range r a b) v = false.
Proof.
  exists (roaring_bitmap_of_ptr [1; 3]), (2^32), (2^32 + 2), 1. split; [apply (den_of_ptr [1; 3]); intros v [<-|[<-|[]]]; red; lia|].
  unfold val32. repeat apply conj; try lia; vm_compute; reflexivity.
Qed.
Print Assumptions C12_remove_range_at_2_32_refuted.
Theorem C12_range_cardinality_at_2_32_refuted : exists r a b, valid r /\ 2^32 <= a < b /\ b < 2^64 /\ roaring_bitmap_range_cardinality r a b <> 0.
Proof.
  exists (roaring_bitmap_of_ptr [1; 3]), (2^32), (2^32 + 2). split; [apply (den_of_ptr [1; 3]); intros v [<-|[<-|[]]]; red; lia|].
  repeat apply conj; try lia. vm_compute. discriminate.
Qed.
Print Assumptions C12_range_cardinality_at_2_32_refuted.
(** and one that ends above 2^32 may leave the part inside the universe untouched *)
Theorem C12_end_beyond_refuted : exists r a b v, valid r /\ 0 <= a < 2^32 /\ 2^32 < b < 2^64 /\ val32 v /\ a <= v < b /\
  roaring_bitmap_contains (roaring_bitmap_add_range r a b) v = false.
Proof.
  exists [], 5, (2^32 + 1), 10. split; [apply den_new|]. unfold val32. repeat apply conj; try lia; vm_compute; reflexivity.
Qed.
Print Assumptions C12_end_beyond_refuted.
Theorem C12_contains_range_end_beyond_refuted : exists r a b v, valid r /\ 0 <= a < 2^32 /\ 2^32 < b < 2^64 /\ val32 v /\ a <= v < b /\
  roaring_bitmap_contains r v = false /\ roaring_bitmap_contains_range r a b = true.
Proof.
  exists [], 5, (2^32 + 1), 10. split; [apply den_new|]. unfold val32. repeat apply conj; try lia; vm_compute; reflexivity.
Qed.
Print Assumptions C12_contains_range_end_beyond_refuted.
Example C12_example : roaring_bitmap_add_range [] (2^32 + 1) (2^32 + 5) = [].
Proof. vm_compute. reflexivity. Qed.

(** C26: exact for steps below 2^16 and, for larger ones, whenever the counter does
    not pass 2^32 *)
Theorem C26_from_range_partial : forall fuel lo hi step, 0 <= lo < Z.min hi (2^32) -> 0 < step < 2^32 ->
  (step < 65536 \/ lo + (Z.min hi (2^32) - lo + step - 1) / step * step < 2^32) -> 70000 <= Z.of_nat fuel ->
  exists r, roaring_bitmap_from_range fuel lo hi step = Some (Some r) /\ denotes r (zprog lo (Z.min hi (2^32)) step).
Proof. exact den_from_range. Qed.
Print Assumptions C26_from_range_partial.
Theorem C26_from_range_null : forall fuel lo hi step, step = 0 \/ Z.min hi (2^32) <= lo -> roaring_bitmap_from_range fuel lo hi step = Some None.
Proof. exact from_range_null. Qed.
Print Assumptions C26_from_range_null.
(** a step of 2^16 or more up to 2^32: the loop never ends, however many iterations are granted *)
Theorem C26_termination_refuted : exists lo hi step, 0 <= lo < Z.min hi (2^32) /\ 0 < step < 2^32 /\
  forall fuel, roaring_bitmap_from_range fuel lo hi step = None.
Proof. exists 0, (2^32), 65536. split; [lia|]. split; [lia|]. apply from_range_diverges; lia. Qed.
Print Assumptions C26_termination_refuted.
(** or it ends having added values that do not belong to the progression *)
Theorem C26_members_refuted : exists lo hi step r v, 0 <= lo < Z.min hi (2^32) /\ 0 < step < 2^32 /\
  roaring_bitmap_from_range 10 lo hi step = Some (Some r) /\ val32 v /\ roaring_bitmap_contains r v = true /\ zprog lo (Z.min hi (2^32)) step v = false.
Proof.
  set (r := match roaring_bitmap_from_range 10 3884901887 4294967295 3000000000 with Some (Some r) => r | _ => [] end).
  exists 3884901887, 4294967295, 3000000000, r, 1294967295. split; [lia|]. split; [lia|]. unfold val32. split; [vm_compute; reflexivity|].
  split; [lia|]. split; vm_compute; reflexivity.
Qed.
Print Assumptions C26_members_refuted.
Example C26_example : option_map (option_map roaring_bitmap_to_uint32_array) (roaring_bitmap_from_range range_fuel 65530 65560 7)
    = Some (Some [65530; 65537; 65544; 65551; 65558])
  /\ option_map (option_map roaring_bitmap_to_uint32_array) (roaring_bitmap_from_range range_fuel 10 200020 100000) = Some (Some [10; 100010; 200010]).
Proof. vm_compute. auto. Qed.

(** C27 *)
Theorem C27_flip_involution : forall r P a b, denotes r P -> 0 <= a -> 0 <= b <= 2^32 ->
  roaring_bitmap_equals (roaring_bitmap_flip (roaring_bitmap_flip r a b) a b) r = true.
Proof. exact flip_involution. Qed.
Print Assumptions C27_flip_involution.
Theorem C27_flip_inplace_agrees : forall cap r P a b, denotes r P -> 0 <= a -> 0 <= b <= 2^32 ->
  roaring_bitmap_equals (roaring_bitmap_flip_inplace cap r a b) (roaring_bitmap_flip r a b) = true.
Proof. exact flip_inplace_agrees. Qed.
Print Assumptions C27_flip_inplace_agrees.
Example C27_example : roaring_bitmap_equals (roaring_bitmap_flip (roaring_bitmap_flip sample 3 200001) 3 200001) sample = true
  /\ roaring_bitmap_equals (roaring_bitmap_flip sample 3 200001) sample = false.
Proof. vm_compute. auto. Qed.
