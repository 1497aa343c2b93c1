(** Properties C84-C86: run containers in the memory they live in. *)
From Coq Require Import ZArith List Bool Lia.
From Verif Require Import Base ArrayUtil BitUtil BitsetC ArrayC RunC RunD Convert MixedI MixedU MixedN RunMem RunMemB Spec SpecRun DerivedRun.
Import ListNotations.
Local Open Scope Z_scope.

(** In all theorems below the answer is [Some b]: no cell outside a block is touched and no
    cell is read that was never written. *)

(** C84: operations that fill a second block; what [dst] held before does not matter *)
Theorem C84_union : forall s1 s2 dst P1 P2, holds s1 P1 -> holds s2 P2 -> inhabited P1 -> inhabited P2 ->
  exists b, union s1 s2 dst = Some b /\ holds b (zunion P1 P2).
Proof. exact d_union. Qed.
Print Assumptions C84_union.
Theorem C84_array_union : forall a s dst P1 P2, array_of a P1 -> holds s P2 -> inhabited P1 -> inhabited P2 -> nruns dst = 0 ->
  exists b, array_run_union a s dst = Some b /\ holds b (zunion P1 P2).
Proof. exact d_array_union. Qed.
Print Assumptions C84_array_union.
Theorem C84_xor : forall s1 s2 dst P1 P2, holds s1 P1 -> holds s2 P2 ->
  exists b, xor s1 s2 dst = Some b /\ holds b (zsymm P1 P2).
Proof. exact d_xor. Qed.
Print Assumptions C84_xor.
Theorem C84_array_xor : forall a s dst P1 P2, array_of a P1 -> holds s P2 ->
  exists b, array_run_lazy_xor a s dst = Some b /\ holds b (zsymm P1 P2).
Proof. exact d_array_xor. Qed.
Print Assumptions C84_array_xor.
Theorem C84_intersection : forall s1 s2 dst P1 P2, holds s1 P1 -> holds s2 P2 -> inhabited P1 -> inhabited P2 ->
  exists b, intersection s1 s2 dst = Some b /\ holds b (zinter P1 P2).
Proof. exact d_intersection. Qed.
Print Assumptions C84_intersection.
Theorem C84_andnot : forall s1 s2 dst P1 P2, holds s1 P1 -> holds s2 P2 -> inhabited P1 -> inhabited P2 ->
  exists b, andnot s1 s2 dst = Some b /\ holds b (zdiff P1 P2).
Proof. exact d_andnot. Qed.
Print Assumptions C84_andnot.
Definition ex1 : rblk := ablock [(0, 4); (10, 0); (20, 79); (1000, 64535)] 0.
Definition ex2 : rblk := ablock [(3, 20); (99, 1); (500, 2)] 2.
Definition small : rblk := ablock [(7, 7)] 0.
Example C84_example :
  holds ex1 (rmem [(0, 4); (10, 0); (20, 79); (1000, 64535)]) /\ holds ex2 (rmem [(3, 20); (99, 1); (500, 2)]) /\
  option_map runs_of (union ex1 ex2 small) = Some [(0, 100); (500, 2); (1000, 64535)] /\
  option_map runs_of (xor ex1 ex2 small) = Some [(0, 2); (5, 4); (11, 8); (24, 74); (100, 0); (500, 2); (1000, 64535)] /\
  option_map runs_of (intersection ex1 ex2 small) = Some [(3, 1); (10, 0); (20, 3); (99, 0)] /\
  option_map runs_of (andnot ex1 ex2 small) = Some [(0, 2); (24, 74); (1000, 64535)] /\
  option_map runs_of (array_run_union [5; 6; 9; 65535] ex1 (create 0)) = Some [(0, 6); (9, 1); (20, 79); (1000, 64535)] /\
  option_map runs_of (array_run_lazy_xor [5; 10; 99] ex1 small) = Some [(0, 5); (20, 78); (1000, 64535)].
Proof.
  split; [apply ablock_holds; vm_compute; repeat split; discriminate|]. split; [apply ablock_holds; vm_compute; repeat split; discriminate|].
  vm_compute. repeat split.
Qed.
(** the operations that ask for values do not check for an empty operand, and the union with
    an array relies on a destination without runs *)
Example C84_needs : union (create 0) ex1 small = None /\ intersection ex1 (create 0) small = None /\ andnot (create 0) ex1 small = None /\
  option_map nruns (array_run_union [5; 6; 9; 65535] ex1 (set_n small 0)) = Some 4 /\
  option_map runs_of (array_run_union [5; 6; 9; 65535] ex1 small) = Some [(0, 6); (9, 1); (20, 79); (1000, 64535)] /\
  option_map nruns (array_run_union [5; 6; 9; 65535] ex1 small) = Some 5.
Proof. vm_compute. repeat split. Qed.

(** C85: operations that write the block they read *)
Theorem C85_union : forall s1 s2 P1 P2, holds s1 P1 -> holds s2 P2 -> inhabited P1 -> inhabited P2 ->
  exists b, union_inplace s1 s2 = Some b /\ holds b (zunion P1 P2).
Proof. exact d_union_inplace. Qed.
Print Assumptions C85_union.
Theorem C85_array_union : forall a s P1 P2, array_of a P1 -> holds s P2 -> inhabited P1 -> inhabited P2 ->
  exists b, array_run_union_inplace a s = Some b /\ holds b (zunion P1 P2).
Proof. exact d_array_union_inplace. Qed.
Print Assumptions C85_array_union.
Theorem C85_flip : forall b s e P, holds b P -> 0 <= s < e -> e <= 65536 ->
  (exists b', negation_range b s e = Some b' /\ holds b' (zsymm P (zival s e))) /\
  (exists b', negation_range_inplace b s e = Some b' /\ holds b' (zsymm P (zival s e))).
Proof. exact d_negation. Qed.
Print Assumptions C85_flip.
Example C85_example :
  option_map runs_of (union_inplace ex1 ex2) = Some [(0, 100); (500, 2); (1000, 64535)] /\
  option_map runs_of (union_inplace ex2 ex1) = Some [(0, 100); (500, 2); (1000, 64535)] /\
  option_map runs_of (array_run_union_inplace [5; 6; 9; 65535] ex1) = Some [(0, 6); (9, 1); (20, 79); (1000, 64535)] /\
  option_map runs_of (negation_range_inplace ex1 0 65536) = Some [(5, 4); (11, 8); (100, 899)] /\
  option_map (fun b => (runs_of b, cap b)) (negation_range_inplace ex1 200 2000) = Some ([(0, 4); (10, 0); (20, 79); (200, 799); (2000, 63535)], 5) /\
  option_map (fun b => (runs_of b, cap b)) (negation_range_inplace ex2 600 700) = Some ([(3, 20); (99, 1); (500, 2); (600, 99)], 5).
Proof. vm_compute. repeat split. Qed.

(** C86: edits of a block, and blocks filled from another representation *)
Theorem C86_add : forall b x P, holds b P -> 0 <= x < 65536 -> exists b', add b x = Some (b', negb (P x)) /\ holds b' (zadd P x).
Proof. exact d_add. Qed.
Print Assumptions C86_add.
Theorem C86_remove : forall b x P, holds b P -> 0 <= x < 65536 -> exists b', remove b x = Some (b', P x) /\ holds b' (zdel P x).
Proof. exact d_remove. Qed.
Print Assumptions C86_remove.
Theorem C86_ranges : forall b lo hi P, holds b P -> 0 <= lo <= hi -> hi < 65536 ->
  (exists b', add_range b lo hi = Some b' /\ holds b' (zunion P (zival lo (hi + 1)))) /\
  (exists b', remove_range b lo hi = Some b' /\ holds b' (zdiff P (zival lo (hi + 1)))).
Proof. exact d_ranges. Qed.
Print Assumptions C86_ranges.
(** the block made for the result is filled exactly *)
Theorem C86_from_array : forall a P, array_of a P -> inhabited P -> exists b, from_array a = Some b /\ holds b P /\ zlen (cells b) = nruns b.
Proof. exact d_from_array. Qed.
Print Assumptions C86_from_array.
Theorem C86_from_bitset : forall c w P, words_of w P -> exists b, from_bitset (c, w) = Some b /\ holds b P /\ zlen (cells b) = nruns b.
Proof. exact d_from_bitset. Qed.
Print Assumptions C86_from_bitset.
Theorem C86_create : forall s e, 0 <= s < e -> e <= 65536 -> exists b, create_range s e = Some b /\ holds b (zival s e).
Proof. exact d_create_range. Qed.
Print Assumptions C86_create.
Definition ex_bits : list Z := 2 ^ 64 - 1 :: 7 :: repeat 0 (Z.to_nat 1021) ++ [2 ^ 63].
Example C86_example :
  option_map (fun r => (runs_of (fst r), snd r)) (add ex1 12) = Some ([(0, 4); (10, 0); (12, 0); (20, 79); (1000, 64535)], true) /\
  option_map (fun r => (runs_of (fst r), snd r)) (add ex1 100) = Some ([(0, 4); (10, 0); (20, 80); (1000, 64535)], true) /\
  option_map (fun r => (runs_of (fst r), snd r)) (remove ex1 50) = Some ([(0, 4); (10, 0); (20, 29); (51, 48); (1000, 64535)], true) /\
  option_map (fun r => (runs_of (fst r), snd r)) (remove ex1 10) = Some ([(0, 4); (20, 79); (1000, 64535)], true) /\
  option_map runs_of (add_range ex1 5 19) = Some [(0, 99); (1000, 64535)] /\
  option_map runs_of (add_range ex1 200 300) = Some [(0, 4); (10, 0); (20, 79); (200, 100); (1000, 64535)] /\
  option_map runs_of (remove_range ex1 3 1500) = Some [(0, 2); (1501, 64034)] /\
  option_map runs_of (remove_range ex1 30 40) = Some [(0, 4); (10, 0); (20, 9); (41, 58); (1000, 64535)] /\
  option_map (fun b => (runs_of b, cap b)) (from_array [1; 2; 3; 7; 65534; 65535]) = Some ([(1, 2); (7, 0); (65534, 1)], 3) /\
  option_map (fun b => (runs_of b, cap b)) (from_bitset (-1, ex_bits)) = Some ([(0, 66); (65535, 0)], 2) /\
  option_map runs_of (create_range 0 65536) = Some [(0, 65535)].
Proof. vm_compute. repeat split. Qed.
