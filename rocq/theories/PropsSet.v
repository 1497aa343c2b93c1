(** PropsSet: histories, set operations, comparisons and laws (C01-C07, C34). *)
From Coq Require Import ZArith List Bool Lia Sorting.Sorted.
From Verif Require Import Base Convert Containers RArray RBinary RPoint RRange RQuery RStat RShift Spec Obs Hist Derived Samples.
Import ListNotations.
Local Open Scope Z_scope.
Local Opaque zr.

(** C01: every history of calls on any number of bitmaps, whatever containers are
    shared and whatever the spare capacities, leaves every bitmap with the members
    of the corresponding mathematical set, and every answer given on the way is
    the one required of the set. *)
Theorem C01_histories_refine_sets : forall tr : list (cmd * oracle), legal (map fst tr) empty_regs ->
  (forall i x, val32 x -> roaring_bitmap_contains (fst (exec tr empty_heap) i) x = spec_run (map fst tr) empty_regs i x) /\
  agrees (map fst tr) empty_regs (snd (exec tr empty_heap)).
Proof. exact (fun tr L => let (R, A) := exec_refines tr empty_heap empty_regs empty_refines L in conj (fun i => proj2 (R i)) A). Qed.
Print Assumptions C01_histories_refine_sets.
(** the same from any valid starting point *)
Theorem C01_histories_refine_sets_from : forall tr st S, (forall i, denotes (st i) (S i)) -> legal (map fst tr) S ->
  (forall i, denotes (fst (exec tr st) i) (spec_run (map fst tr) S i)) /\ agrees (map fst tr) S (snd (exec tr st)).
Proof. exact exec_refines. Qed.
Print Assumptions C01_histories_refine_sets_from.
Definition ex_oracle : oracle := {| osh := Z.even; ocap := fun k => k mod 7 |}.
Definition ex_trace : list (cmd * oracle) := map (fun c => (c, ex_oracle))
  [KAdd 0 5; KAddRange 0 65530 65540; KOf 1 [7; 65536; 200000; 7]; KOr 2 0 1; KFlipInplace 2 0 10; KAndInplace 0 0;
   KRemoveChecked 2 7; KXorMany 3 [0; 1; 2]%nat; KRunOptimize 3; QRank 2 65536; QEquals 0 2; QSelect 1 1; QToArray 2;
   KReloadPortable 4 3; KReloadNative 5 2; KOrManyHeap 6 [4; 5; 1]%nat; QEquals 4 3; QCardinality 6].
Example ex_trace_legal : legal (map fst ex_trace) empty_regs.
Proof.
  cbn. unfold val32. repeat apply conj; try lia; auto.
  exists 0. split; [lia|reflexivity].
Qed.
Example ex_trace_run : snd (exec ex_trace empty_heap) =
  [RNone; RNone; RNone; RNone; RNone; RNone; RBool false; RNone; RBool true; RNum 15; RBool false; ROpt (Some 65536);
   RList [0; 1; 2; 3; 4; 6; 8; 9; 65530; 65531; 65532; 65533; 65534; 65535; 65536; 65537; 65538; 65539; 200000];
   RNone; RNone; RNone; RBool true; RNum 21].
Proof. vm_compute. reflexivity. Qed.

(** C02: every bitmap of every history passes roaring_bitmap_internal_validate *)
Theorem C02_histories_stay_valid : forall tr : list (cmd * oracle), legal (map fst tr) empty_regs ->
  forall i, roaring_bitmap_internal_validate (fst (exec tr empty_heap) i) = true.
Proof. exact (fun tr L i => proj2 (proj1 (proj1 (exec_refines tr empty_heap empty_regs empty_refines L) i))). Qed.
Print Assumptions C02_histories_stay_valid.
Example C02_example : map (fun i => roaring_bitmap_internal_validate (fst (exec ex_trace empty_heap) i)) [0; 1; 2; 3]%nat = [true; true; true; true]
  /\ roaring_bitmap_internal_validate [(0, CArr [])] = false.
Proof. vm_compute. auto. Qed.

(** C03 *)
Theorem C03_and : forall a b P Q, denotes a P -> denotes b Q -> denotes (roaring_bitmap_and a b) (zinter P Q).
Proof. exact den_and. Qed.
Print Assumptions C03_and.
Theorem C03_or : forall a b P Q, denotes a P -> denotes b Q -> denotes (roaring_bitmap_or a b) (zunion P Q).
Proof. exact den_or. Qed.
Print Assumptions C03_or.
Theorem C03_xor : forall a b P Q, denotes a P -> denotes b Q -> denotes (roaring_bitmap_xor a b) (zsymm P Q).
Proof. exact den_xor. Qed.
Print Assumptions C03_xor.
Theorem C03_andnot : forall a b P Q, denotes a P -> denotes b Q -> denotes (roaring_bitmap_andnot a b) (zdiff P Q).
Proof. exact den_andnot. Qed.
Print Assumptions C03_andnot.
Example C03_hypotheses : denotes sample sampleP /\ denotes other otherP.
Proof. exact (conj sample_den other_den). Qed.
Example C03_example :
  map (fun r => (roaring_bitmap_get_cardinality r, map (fun p => (fst p, kind (snd p))) r))
    [roaring_bitmap_and sample other; roaring_bitmap_or sample other; roaring_bitmap_xor sample other; roaring_bitmap_andnot sample other]
  = [(32770, [(0, 2%nat); (2, 2%nat); (3, 1%nat)]);
     (65536 + 105, [(0, 2%nat); (1, 2%nat); (2, 3%nat); (3, 3%nat); (65535, 2%nat)]);
     (32768 + 103, [(0, 2%nat); (1, 2%nat); (2, 3%nat); (3, 1%nat); (65535, 2%nat)]);
     (101, [(0, 2%nat); (1, 2%nat); (2, 2%nat)])].
Proof. vm_compute. reflexivity. Qed.

(** C04: whatever containers of the target are shared and whatever its spare capacity *)
Theorem C04_and_inplace : forall same sh a b P Q, denotes a P -> denotes b Q -> (same = true -> a = b) ->
  denotes (roaring_bitmap_and_inplace same sh a b) (zinter P Q).
Proof. exact den_and_inplace. Qed.
Print Assumptions C04_and_inplace.
Theorem C04_or_inplace : forall sh cap a b P Q, denotes a P -> denotes b Q -> denotes (roaring_bitmap_or_inplace sh cap a b) (zunion P Q).
Proof. exact den_or_inplace. Qed.
Print Assumptions C04_or_inplace.
Theorem C04_xor_inplace : forall sh a b P Q, denotes a P -> denotes b Q -> denotes (roaring_bitmap_xor_inplace sh a b) (zsymm P Q).
Proof. exact den_xor_inplace. Qed.
Print Assumptions C04_xor_inplace.
Theorem C04_andnot_inplace : forall sh a b P Q, denotes a P -> denotes b Q -> denotes (roaring_bitmap_andnot_inplace sh a b) (zdiff P Q).
Proof. exact den_andnot_inplace. Qed.
Print Assumptions C04_andnot_inplace.
Example C04_example :
  map roaring_bitmap_get_cardinality
    [roaring_bitmap_and_inplace false Z.even sample other; roaring_bitmap_or_inplace Z.even (fun _ => 3) sample other;
     roaring_bitmap_xor_inplace Z.odd sample other; roaring_bitmap_andnot_inplace Z.even sample other]
  = [32770; 65641; 32871; 101].
Proof. vm_compute. reflexivity. Qed.

(** C05 *)
Theorem C05_cardinality : forall r P, denotes r P -> has_card P (roaring_bitmap_get_cardinality r).
Proof. exact q_card. Qed.
Print Assumptions C05_cardinality.
Theorem C05_is_empty : forall r P, denotes r P -> (roaring_bitmap_is_empty r = true <-> same_set P zempty).
Proof. exact q_is_empty. Qed.
Print Assumptions C05_is_empty.
Theorem C05_and_cardinality : forall a b P Q, denotes a P -> denotes b Q -> has_card (zinter P Q) (roaring_bitmap_and_cardinality a b).
Proof. exact q_and_card. Qed.
Print Assumptions C05_and_cardinality.
Theorem C05_or_cardinality : forall a b P Q, denotes a P -> denotes b Q -> has_card (zunion P Q) (roaring_bitmap_or_cardinality a b).
Proof. exact q_or_card. Qed.
Print Assumptions C05_or_cardinality.
Theorem C05_xor_cardinality : forall a b P Q, denotes a P -> denotes b Q -> has_card (zsymm P Q) (roaring_bitmap_xor_cardinality a b).
Proof. exact q_xor_card. Qed.
Print Assumptions C05_xor_cardinality.
Theorem C05_andnot_cardinality : forall a b P Q, denotes a P -> denotes b Q -> has_card (zdiff P Q) (roaring_bitmap_andnot_cardinality a b).
Proof. exact q_andnot_card. Qed.
Print Assumptions C05_andnot_cardinality.
(** numerator and denominator of the Jaccard index (the division is not modelled) *)
Theorem C05_jaccard : forall a b P Q, denotes a P -> denotes b Q ->
  has_card (zinter P Q) (fst (roaring_bitmap_jaccard_index a b)) /\ has_card (zunion P Q) (snd (roaring_bitmap_jaccard_index a b)).
Proof. exact q_jaccard. Qed.
Print Assumptions C05_jaccard.
(** a set has only one cardinality, so the answers are determined *)
Theorem C05_cardinality_unique : forall P n m, has_card P n -> has_card P m -> n = m.
Proof. exact has_card_unique. Qed.
Print Assumptions C05_cardinality_unique.
Example C05_example : (roaring_bitmap_get_cardinality sample, roaring_bitmap_is_empty sample, roaring_bitmap_and_cardinality sample other,
    roaring_bitmap_or_cardinality sample other, roaring_bitmap_xor_cardinality sample other, roaring_bitmap_andnot_cardinality sample other)
  = (32871, false, 32770, 65641, 32871, 101) /\ roaring_bitmap_is_empty [] = true.
Proof. vm_compute. auto. Qed.

(** C06 *)
Theorem C06_equals : forall a b P Q, denotes a P -> denotes b Q -> (roaring_bitmap_equals a b = true <-> same_set P Q).
Proof. exact q_equals. Qed.
Print Assumptions C06_equals.
Example C06_example :
  (* the same set held as a bitset and as a run *)
  let flat := fst (roaring_bitmap_remove_run_compression other) in
  map (fun p => kind (snd p)) flat <> map (fun p => kind (snd p)) other /\ roaring_bitmap_equals flat other = true /\ roaring_bitmap_equals sample other = false.
Proof. vm_compute. repeat split; auto. discriminate. Qed.

(** C07 *)
Theorem C07_is_subset : forall a b P Q, denotes a P -> denotes b Q -> (roaring_bitmap_is_subset a b = true <-> zsubset P Q).
Proof. exact q_subset. Qed.
Print Assumptions C07_is_subset.
Theorem C07_is_strict_subset : forall a b P Q, denotes a P -> denotes b Q ->
  (roaring_bitmap_is_strict_subset a b = true <-> zsubset P Q /\ ~ zsubset Q P).
Proof. exact q_strict_subset. Qed.
Print Assumptions C07_is_strict_subset.
Theorem C07_intersect : forall a b P Q, denotes a P -> denotes b Q ->
  (roaring_bitmap_intersect a b = true <-> exists v, val32 v /\ P v = true /\ Q v = true).
Proof. exact q_intersect. Qed.
Print Assumptions C07_intersect.
Example C07_example : (roaring_bitmap_is_subset evens sample, roaring_bitmap_is_strict_subset evens sample, roaring_bitmap_is_subset sample other,
  roaring_bitmap_is_strict_subset sample sample, roaring_bitmap_intersect sample other, roaring_bitmap_intersect sample (roaring_bitmap_of [2; 196609])) =
  (true, true, false, false, true, false).
Proof. vm_compute. reflexivity. Qed.

(** C34: laws, as decided by roaring_bitmap_equals on the results *)
Theorem C34_and_comm : forall a b, valid a -> valid b -> roaring_bitmap_equals (roaring_bitmap_and a b) (roaring_bitmap_and b a) = true.
Proof. exact law_and_comm. Qed.
Print Assumptions C34_and_comm.
Theorem C34_or_comm : forall a b, valid a -> valid b -> roaring_bitmap_equals (roaring_bitmap_or a b) (roaring_bitmap_or b a) = true.
Proof. exact law_or_comm. Qed.
Print Assumptions C34_or_comm.
Theorem C34_xor_comm : forall a b, valid a -> valid b -> roaring_bitmap_equals (roaring_bitmap_xor a b) (roaring_bitmap_xor b a) = true.
Proof. exact law_xor_comm. Qed.
Print Assumptions C34_xor_comm.
Theorem C34_and_assoc : forall a b c, valid a -> valid b -> valid c ->
  roaring_bitmap_equals (roaring_bitmap_and (roaring_bitmap_and a b) c) (roaring_bitmap_and a (roaring_bitmap_and b c)) = true.
Proof. exact law_and_assoc. Qed.
Print Assumptions C34_and_assoc.
Theorem C34_or_assoc : forall a b c, valid a -> valid b -> valid c ->
  roaring_bitmap_equals (roaring_bitmap_or (roaring_bitmap_or a b) c) (roaring_bitmap_or a (roaring_bitmap_or b c)) = true.
Proof. exact law_or_assoc. Qed.
Print Assumptions C34_or_assoc.
Theorem C34_xor_assoc : forall a b c, valid a -> valid b -> valid c ->
  roaring_bitmap_equals (roaring_bitmap_xor (roaring_bitmap_xor a b) c) (roaring_bitmap_xor a (roaring_bitmap_xor b c)) = true.
Proof. exact law_xor_assoc. Qed.
Print Assumptions C34_xor_assoc.
Theorem C34_and_distributes : forall a b c, valid a -> valid b -> valid c ->
  roaring_bitmap_equals (roaring_bitmap_and a (roaring_bitmap_or b c)) (roaring_bitmap_or (roaring_bitmap_and a b) (roaring_bitmap_and a c)) = true.
Proof. exact law_and_or. Qed.
Print Assumptions C34_and_distributes.
Theorem C34_or_distributes : forall a b c, valid a -> valid b -> valid c ->
  roaring_bitmap_equals (roaring_bitmap_or a (roaring_bitmap_and b c)) (roaring_bitmap_and (roaring_bitmap_or a b) (roaring_bitmap_or a c)) = true.
Proof. exact law_or_and. Qed.
Print Assumptions C34_or_distributes.
Theorem C34_de_morgan_or : forall a b, valid a -> valid b ->
  roaring_bitmap_equals (roaring_bitmap_flip (roaring_bitmap_or a b) 0 (2^32))
    (roaring_bitmap_and (roaring_bitmap_flip a 0 (2^32)) (roaring_bitmap_flip b 0 (2^32))) = true.
Proof. exact law_de_morgan_or. Qed.
Print Assumptions C34_de_morgan_or.
Theorem C34_de_morgan_and : forall a b, valid a -> valid b ->
  roaring_bitmap_equals (roaring_bitmap_flip (roaring_bitmap_and a b) 0 (2^32))
    (roaring_bitmap_or (roaring_bitmap_flip a 0 (2^32)) (roaring_bitmap_flip b 0 (2^32))) = true.
Proof. exact law_de_morgan_and. Qed.
Print Assumptions C34_de_morgan_and.
Theorem C34_xor_is_or_minus_and : forall a b, valid a -> valid b ->
  roaring_bitmap_equals (roaring_bitmap_xor a b) (roaring_bitmap_andnot (roaring_bitmap_or a b) (roaring_bitmap_and a b)) = true.
Proof. exact law_xor_def. Qed.
Print Assumptions C34_xor_is_or_minus_and.
Theorem C34_subset_by_and : forall a b, valid a -> valid b ->
  (roaring_bitmap_is_subset a b = true <-> roaring_bitmap_equals (roaring_bitmap_and a b) a = true).
Proof. exact law_subset. Qed.
Print Assumptions C34_subset_by_and.
Theorem C34_inclusion_exclusion : forall a b, valid a -> valid b ->
  roaring_bitmap_get_cardinality (roaring_bitmap_or a b) + roaring_bitmap_get_cardinality (roaring_bitmap_and a b)
  = roaring_bitmap_get_cardinality a + roaring_bitmap_get_cardinality b.
Proof. exact law_incl_excl. Qed.
Print Assumptions C34_inclusion_exclusion.
Example C34_hypotheses : valid sample /\ valid other /\ valid evens.
Proof. exact (conj sample_valid (conj other_valid (proj1 evens_den))). Qed.
