(** PropsIter: iterators (C14) and intersection with a range (C11, C12). *)
From Coq Require Import ZArith List Bool Lia Sorting.Sorted.
From Verif Require Import Base Convert Containers RArray RBinary RPoint RRange RQuery RStat RShift Iter IterP Spec SpecI Obs Hist Samples DerivedI.
Import ListNotations.
Local Open Scope Z_scope.
Local Opaque zr.

(** C14: any sequence of advance, previous, move_equalorlarger and read calls, from
    either end; has_value, current_value and the values read agree with a cursor on
    the sorted list of members at every step, and no call reads out of bounds *)
Theorem C14_iterator_from_first : forall r P l cs, denotes r P -> lists P l -> Forall icmd_ok cs ->
  exists it, roaring_iterator_init r = Some it /\ (it_has it, it_cur it) = seen l 0 /\ iter_run r it cs = Some (cursor_run l 0 cs).
Proof. exact i_first. Qed.
Print Assumptions C14_iterator_from_first.
Theorem C14_iterator_from_last : forall r P l cs, denotes r P -> lists P l -> Forall icmd_ok cs ->
  exists it, roaring_iterator_init_last r = Some it /\ (it_has it, it_cur it) = seen l (len_of l - 1) /\ iter_run r it cs = Some (cursor_run l (len_of l - 1) cs).
Proof. exact i_last. Qed.
Print Assumptions C14_iterator_from_last.
Example C14_hypotheses : denotes sample sampleP /\ lists sampleP (elems sample) /\ Forall icmd_ok [ISeek 70001; IPrevious; IRead 5; IRead 0; ISeek 4294967295; IAdvance; IPrevious].
Proof. split; [exact sample_den|]. split; [exact (elems_lists _ _ sample_den)|]. repeat constructor; cbn; unfold val32; lia. Qed.
Example C14_example :
  match roaring_iterator_init sample with
  | Some it => iter_run sample it [ISeek 70001; IPrevious; IRead 5; IRead 0; ISeek 4294967295; IAdvance; IPrevious; ISeek 0; IPrevious; IPrevious; IAdvance]
  | None => None
  end = Some [(true, 131072, []); (true, 70000, []); (true, 131076, [70000; 131072; 131073; 131074; 131075]); (true, 131076, []);
     (false, 4294967295, []); (false, 4294967295, []); (true, 262142, []); (true, 1, []); (false, 4294967295, []); (false, 4294967295, []); (true, 1, [])].
Proof. vm_compute. reflexivity. Qed.

(** C11, C12 *)
Theorem C11_intersect_with_range : forall r P x y, denotes r P -> val32 x ->
  exists b, roaring_bitmap_intersect_with_range r x y = Some b /\ (b = true <-> exists v, val32 v /\ x <= v < y /\ P v = true).
Proof. exact i_range. Qed.
Print Assumptions C11_intersect_with_range.
Theorem C12_intersect_with_range_refuted : exists r P x y, denotes r P /\ 2 ^ 32 <= x /\ roaring_bitmap_intersect_with_range r x y = Some true /\
  ~ exists v, val32 v /\ x <= v < y /\ P v = true.
Proof. exact i_range_refuted. Qed.
Print Assumptions C12_intersect_with_range_refuted.
Example C11_intersect_with_range_example :
  (roaring_bitmap_intersect_with_range sample 6 70000, roaring_bitmap_intersect_with_range sample 6 70001, roaring_bitmap_intersect_with_range sample 262143 (2 ^ 40))
  = (Some false, Some true, Some false).
Proof. vm_compute. reflexivity. Qed.
