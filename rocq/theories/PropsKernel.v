(** PropsKernel: the scalar kernels on sorted 16-bit arrays and on bitset words (C33). *)
From Coq Require Import ZArith List Bool Lia Sorting.Sorted.
From Verif Require Import Base ArrayUtil ArrayC Spec Obs Derived DerivedK BitsetC.
Import ListNotations.
Local Open Scope Z_scope.
Local Opaque zr.

Theorem C33_intersect : forall A B, StronglySorted Z.lt A -> StronglySorted Z.lt B ->
  sorted_with (intersect_uint16 A B) (fun x => In x A /\ In x B) /\
  intersect_uint16_cardinality A B = Z.of_nat (length (intersect_uint16 A B)) /\
  (intersect_uint16_nonempty A B = true <-> exists x, In x A /\ In x B).
Proof. exact k_intersect. Qed.
Print Assumptions C33_intersect.
(** the skewed versions, whatever the sizes, give the same results *)
Theorem C33_intersect_skewed : forall A B, StronglySorted Z.lt A -> StronglySorted Z.lt B -> B <> [] ->
  intersect_skewed_uint16 A B = intersect_uint16 A B /\
  intersect_skewed_uint16_cardinality A B = intersect_uint16_cardinality A B /\
  intersect_skewed_uint16_nonempty A B = intersect_uint16_nonempty A B.
Proof. exact k_intersect_skewed. Qed.
Print Assumptions C33_intersect_skewed.
Theorem C33_union : forall A B, StronglySorted Z.lt A -> StronglySorted Z.lt B ->
  sorted_with (union_uint16 A B) (fun x => In x A \/ In x B) /\ sorted_with (fast_union_uint16 A B) (fun x => In x A \/ In x B).
Proof. exact k_union. Qed.
Print Assumptions C33_union.
Theorem C33_difference : forall A B, StronglySorted Z.lt A -> StronglySorted Z.lt B -> sorted_with (difference_uint16 A B) (fun x => In x A /\ ~ In x B).
Proof. exact k_difference. Qed.
Print Assumptions C33_difference.
Theorem C33_xor : forall A B, StronglySorted Z.lt A -> StronglySorted Z.lt B ->
  sorted_with (xor_uint16 A B) (fun x => (In x A /\ ~ In x B) \/ (In x B /\ ~ In x A)).
Proof. exact k_xor. Qed.
Print Assumptions C33_xor.
Theorem C33_search : forall A x, StronglySorted Z.lt A -> (0 <=? binarySearch A x = true <-> In x A) /\
  count_less A x = Z.of_nat (length (filter (fun y => y <? x) A)) /\ count_greater A x = Z.of_nat (length (filter (fun y => x <? y) A)).
Proof. exact k_search. Qed.
Print Assumptions C33_search.
Example C33_hypotheses : StronglySorted Z.lt [3; 70; 65535] /\ StronglySorted Z.lt [0; 3; 9; 50; 65535].
Proof. split; repeat constructor; lia. Qed.
Example C33_example : (intersect_uint16 [3; 70; 65535] [0; 3; 9; 50; 65535], intersect_skewed_uint16 [3; 70; 65535] [0; 3; 9; 50; 65535],
  intersect_skewed_uint16_cardinality [3; 70; 65535] [0; 3; 9; 50; 65535], union_uint16 [3; 70; 65535] [0; 3; 9], difference_uint16 [3; 70; 65535] [0; 3; 9],
  xor_uint16 [3; 70; 65535] [0; 3; 9], count_less [3; 70; 65535] 70, count_greater [3; 70; 65535] 70)
  = ([3; 65535], [3; 65535], 2, [0; 3; 9; 70; 65535], [70; 65535], [0; 9; 70; 65535], 1, 1).
Proof. vm_compute. reflexivity. Qed.
(** two bitset containers: every word of the result, its stored cardinality, and the cardinality computed without building the result *)
Theorem C33_words :
  word_claim bitset_container_or bitset_container_or_justcard orb /\ word_claim bitset_container_and bitset_container_and_justcard andb /\
  word_claim bitset_container_xor bitset_container_xor_justcard xorb /\ word_claim bitset_container_andnot bitset_container_andnot_justcard (fun a b => a && negb b).
Proof. exact k_all. Qed.
Print Assumptions C33_words.
Example C33_words_example : let b1 := (3, 7 :: repeat 0 (Z.to_nat 1023)) in let b2 := (2, 5 :: repeat 0 (Z.to_nat 1023)) in
  words1024 (b_words b1) /\ words1024 (b_words b2) /\
  (hd 0 (b_words (bitset_container_or b1 b2)), hd 0 (b_words (bitset_container_and b1 b2)), hd 0 (b_words (bitset_container_xor b1 b2)), bitset_container_andnot_justcard b1 b2) = (7, 5, 2, 1).
Proof.
  assert (H : forall w, 0 <= w < 2 ^ 64 -> words1024 (w :: repeat 0 (Z.to_nat 1023))).
  { intros w H. split; [cbn [length]; now rewrite repeat_length|]. constructor; auto. apply Forall_forall. intros x K. apply repeat_spec in K. lia. }
  split; [apply H; lia|]. split; [apply H; lia|]. vm_compute. reflexivity.
Qed.
