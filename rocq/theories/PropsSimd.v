(** PropsSimd: the operations on array containers in memory, with and without vector instructions, and the conversions of
    containers to numbers (C72-C76). *)
From Coq Require Import ZArith List Bool Lia.
From Verif Require Import Base Simd SimdM SimdU ArrMemC SimdE Spec SimdP.
Import ListNotations.
Local Open Scope Z_scope.
Local Opaque zr.

(** [avx2] and [avx512] are the CPU levels detected at run time; [fill] is the contents of fresh memory; [stk] is the place of the
    local buffers. *)
Theorem C72_union : forall avx2 fill stk M c1 c2 out, operand M c1 -> operand M c2 -> block M out -> capart out c1 -> capart out c2 ->
  inm M stk 17 -> sapart stk 17 c1 -> sapart stk 17 c2 -> sapart stk 17 out -> a_card c1 + a_card c2 <= 65536 ->
  exists M' o, array_union_mem avx2 fill stk M c1 c2 out = Some (M', o) /\ a_addr o = a_addr out /\
    outcome M M' out o stk 17 (fun x => member M c1 x \/ member M c2 x).
Proof. exact set_union. Qed.
Print Assumptions C72_union.
Theorem C72_xor : forall avx2 fill stk M c1 c2 out, operand M c1 -> operand M c2 -> block M out -> capart out c1 -> capart out c2 ->
  inm M stk 17 -> sapart stk 17 c1 -> sapart stk 17 c2 -> sapart stk 17 out -> a_card c1 + a_card c2 <= 65536 ->
  exists M' o, array_xor_mem avx2 fill stk M c1 c2 out = Some (M', o) /\ a_addr o = a_addr out /\
    outcome M M' out o stk 17 (fun x => member M c1 x /\ ~ member M c2 x \/ member M c2 x /\ ~ member M c1 x).
Proof. exact set_xor. Qed.
Print Assumptions C72_xor.
Theorem C72_andnot : forall avx2 fill M c1 c2 out, operand M c1 -> operand M c2 -> block M out -> out = c1 \/ capart out c1 /\ a_addr out <> a_addr c1 -> capart out c2 ->
  a_card c1 <= 65536 ->
  exists M' o, array_andnot_mem avx2 fill M c1 c2 out = Some (M', o) /\ a_addr o = a_addr out /\ outcome M M' out o 0 0 (fun x => member M c1 x /\ ~ member M c2 x).
Proof. exact set_andnot. Qed.
Print Assumptions C72_andnot.
Example C72_hypotheses : operand ex_mem ex_1 /\ operand ex_mem ex_2 /\ block ex_mem ex_out /\ capart ex_out ex_1 /\ capart ex_out ex_2 /\ capart ex_1 ex_2 /\
  inm ex_mem ex_stk 17 /\ sapart ex_stk 17 ex_1 /\ sapart ex_stk 17 ex_2 /\ sapart ex_stk 17 ex_out.
Proof. exact ex_hyps. Qed.
Example C72_example : let u avx2 := shown (array_union_mem avx2 (fun i => 5 * i) ex_stk ex_mem ex_1 ex_2 ex_out) in
  u true = u false /\ option_map (@length Z) (u true) = Some 40%nat /\
  shown (array_xor_mem true (fun i => 0) ex_stk ex_mem ex_1 ex_2 ex_out) = shown (array_xor_mem false (fun i => 1) ex_stk ex_mem ex_1 ex_2 ex_out) /\
  shown (array_andnot_mem true (fun i => 0) ex_mem ex_1 ex_2 ex_out) = Some [0; 6; 12; 18; 24; 30; 36; 42; 48; 54] /\
  shown (array_andnot_mem true (fun i => 0) ex_mem ex_1 ex_2 ex_1) = Some [0; 6; 12; 18; 24; 30; 36; 42; 48; 54].
Proof. vm_compute. repeat split. Qed.

(** the operand is updated where it stands, although the input and the output overlap *)
Theorem C73_union_inplace : forall lazy avx2 fill stk addr M c1 c2, operand M c1 -> operand M c2 -> capart c1 c2 ->
  inm M stk 17 -> sapart stk 17 c1 -> sapart stk 17 c2 -> a_card c1 + a_card c2 <= 4096 ->
  exists M' o, array_inplace_union_or_new lazy avx2 fill stk addr M c1 c2 = Some (M', o) /\
    holds M' o (fun x => member M c1 x \/ member M c2 x) /\ placed M c1 o /\ keeps M M' c1 stk 17.
Proof. exact set_union_inplace. Qed.
Print Assumptions C73_union_inplace.
Theorem C73_intersection_inplace : forall avx2 M c1 c2, operand M c1 -> operand M c2 -> capart c1 c2 ->
  exists M' o, array_intersection_inplace_mem avx2 M c1 c2 = Some (M', o) /\ a_addr o = a_addr c1 /\ outcome M M' c1 o 0 0 (fun x => member M c1 x /\ member M c2 x).
Proof. exact set_intersection_inplace. Qed.
Print Assumptions C73_intersection_inplace.
Example C73_example : (let u lazy avx2 := shown (array_inplace_union_or_new lazy avx2 (fun i => 0) ex_stk 9 ex_mem ex_1 ex_2) in
    u true true = u false false /\ u true false = u false true /\ u true true = u true false /\ option_map (@length Z) (u true true) = Some 40%nat) /\
  shown (array_intersection_inplace_mem true ex_mem ex_1 ex_2) = Some [3; 9; 15; 21; 27; 33; 39; 45; 51; 57].
Proof. vm_compute. repeat split. Qed.

(** conversions: exactly as many numbers as there are members are written, in order, and nothing else changes *)
Theorem C74_bitset : forall avx512 avx2 M ws out base L, Forall word_ok ws -> sorted_with L (bit_member ws) -> 0 <= out -> out + zlen L <= zlen M ->
  exists M', bitset_to_uint32_mem avx512 avx2 M ws (zlen L) out base = Some (M', zlen L) /\ zlen M' = zlen M /\
    win M' out (zlen L) = map (fun x => (x + base) mod 2 ^ 32) L /\ forall i, 0 <= i < zlen M -> ~ (out <= i < out + zlen L) -> znth M' i = znth M i.
Proof. exact bitset_conversion. Qed.
Print Assumptions C74_bitset.
Theorem C74_array : forall avx512 avx2 M a out base, 0 <= out -> out + zlen a <= zlen M ->
  exists M', array_to_uint32_mem avx512 avx2 M a out base = Some (M', zlen a) /\ zlen M' = zlen M /\
    win M' out (zlen a) = map (fun x => (x + base) mod 2 ^ 32) a /\ forall i, 0 <= i < zlen M -> ~ (out <= i < out + zlen a) -> znth M' i = znth M i.
Proof. exact array_conversion. Qed.
Print Assumptions C74_array.
Theorem C74_array_from_bitset : forall avx512 M ws out L, Forall word_ok ws -> zlen ws = 1024 -> sorted_with L (bit_member ws) -> 0 <= out -> out + zlen L <= zlen M ->
  exists M', array_from_bitset_mem avx512 M ws (zlen L) out = Some (M', zlen L) /\ zlen M' = zlen M /\ win M' out (zlen L) = L /\
    forall i, 0 <= i < zlen M -> ~ (out <= i < out + zlen L) -> znth M' i = znth M i.
Proof. exact array_of_bitset. Qed.
Print Assumptions C74_array_from_bitset.
(** the 128 words below have 8192 members, so the vector versions are used *)
Example C74_example : let ws := repeat (2 ^ 64 - 1) 128 in let M := repeat 1 (Z.to_nat 8200) in
  let sh r := option_map (fun r => (win (fst r) 4 2, win (fst r) 104 3, win (fst r) 8196 4, snd r)) r in
  let x := Some ([1; 2 ^ 32 - 100], [2 ^ 32 - 1; 0; 1], [8091; 1; 1; 1], 8192) in
  sh (bitset_to_uint32_mem true true M ws 8192 5 (2 ^ 32 - 100)) = x /\ sh (bitset_to_uint32_mem false true M ws 8192 5 (2 ^ 32 - 100)) = x.
Proof. vm_compute. split; reflexivity. Qed.
Example C74_array_example : array_to_uint32_mem true true (repeat 0 40) ex_B 3 655360 = array_to_uint32_mem false true (repeat 0 40) ex_B 3 655360 /\
  option_map (fun r => win (fst r) 2 5) (array_to_uint32_mem true true (repeat 0 40) ex_B 3 655360) = Some [0; 655361; 655363; 655365; 655367].
Proof. vm_compute. repeat split. Qed.

(** extraction into a buffer with a stated capacity *)
Theorem C75_bounded : bounded_extraction bitset_extract_setbits_avx2 (2 ^ 32) /\ bounded_extraction bitset_extract_setbits_avx512 (2 ^ 32) /\
  bounded_extraction bitset_extract_setbits_avx512_uint16 (2 ^ 16).
Proof. exact bounded_all. Qed.
Print Assumptions C75_bounded.
Theorem C75_sse_spare_partial : forall M ws out cap base L, Forall word_ok ws -> sorted_with L (bit_member ws) -> 0 <= out -> zlen L <= cap -> out + cap + 48 <= zlen M ->
  exists M', bitset_extract_setbits_sse_uint16 M ws out cap base = Some (M', zlen L) /\ zlen M' = zlen M /\ win M' out (zlen L) = map (fun x => (x + base) mod 2 ^ 16) L.
Proof. exact bounded_sse. Qed.
Print Assumptions C75_sse_spare_partial.
(** it writes beyond the capacity even if the capacity is the number of members *)
Theorem C75_sse_refuted : ~ bounded_extraction bitset_extract_setbits_sse_uint16 (2 ^ 16).
Proof. exact bounded_sse_refuted. Qed.
Print Assumptions C75_sse_refuted.
Example C75_example : (Forall word_ok [sse_word] /\ sorted_with sse_members (bit_member [sse_word])) /\
  bitset_extract_setbits_sse_uint16 (repeat 0 16) [sse_word] 0 16 0 = None /\
  option_map snd (bitset_extract_setbits_sse_uint16 (repeat 0 64) [sse_word] 0 16 0) = Some 16 /\
  option_map (fun r => (win (fst r) 0 12, snd r)) (bitset_extract_setbits_avx2 (repeat 7 12) [sse_word; 2 ^ 63] 1 10 1000) = Some ([7; 1000; 1001; 1008; 1009; 1016; 1017; 1024; 1025; 1032; 1033; 7], 10).
Proof. split; [split; [repeat constructor; vm_compute; discriminate|exact sse_members_ok]|]. vm_compute. repeat split. Qed.

(** intersection into a container that is large enough *)
Theorem C76_intersection_partial : forall avx2 fill M c1 c2 out, operand M c1 -> operand M c2 -> block M out -> capart out c1 -> capart out c2 ->
  avx2 = false \/ a_cap out < Z.min (a_card c1) (a_card c2) \/ Z.min (a_card c1) (a_card c2) = 0 \/ Z.min (a_card c1) (a_card c2) + 8 <= a_cap out ->
  Z.min (a_card c1) (a_card c2) + 8 <= 65536 ->
  exists M' o, array_intersection_mem avx2 fill M c1 c2 out = Some (M', o) /\ a_addr o = a_addr out /\ outcome M M' out o 0 0 (fun x => member M c1 x /\ member M c2 x).
Proof. exact set_intersection. Qed.
Print Assumptions C76_intersection_partial.
(** with a capacity of at least the size of the smaller operand, no growth happens, and the vector version writes past the block *)
Theorem C76_capacity_refuted : exists M c1 c2 out, operand M c1 /\ operand M c2 /\ block M out /\ capart out c1 /\ capart out c2 /\
  Z.min (a_card c1) (a_card c2) <= a_cap out /\ forall fill, array_intersection_mem true fill M c1 c2 out = None.
Proof. exact intersection_capacity_refuted. Qed.
Print Assumptions C76_capacity_refuted.
Example C76_example : shown (array_intersection_mem true (fun i => 0) ex_mem ex_1 ex_2 ex_out) = Some [3; 9; 15; 21; 27; 33; 39; 45; 51; 57] /\
  shown (array_intersection_mem false (fun i => 0) cap_mem cap_1 cap_2 cap_out) = Some [1; 2; 3; 4; 5; 6; 7; 8].
Proof. vm_compute. repeat split. Qed.

(** counting the intersection: the same number with and without vector code *)
Theorem C96_intersection_count : forall avx2 M c1 c2 L, operand M c1 -> operand M c2 -> sorted_with L (fun x => member M c1 x /\ member M c2 x) ->
  array_intersection_cardinality_mem avx2 M c1 c2 = Some (zlen L).
Proof. exact set_intersection_cardinality. Qed.
Print Assumptions C96_intersection_count.
Example C96_example : (operand ex_mem ex_1 /\ operand ex_mem ex_2) /\
  array_intersection_cardinality_mem true ex_mem ex_1 ex_2 = Some 10 /\ array_intersection_cardinality_mem false ex_mem ex_1 ex_2 = Some 10 /\
  array_intersection_cardinality_mem true ex_mem (set_card ex_1 20) (set_card ex_2 0) = Some 0 /\
  (let M := map (fun i => 2 * i) (zr 0 200) ++ [4; 7; 398] in
   let c1 := {| a_addr := 1; a_ptr := 200; a_card := 3; a_cap := 3 |} in let c2 := {| a_addr := 2; a_ptr := 0; a_card := 200; a_cap := 200 |} in
   array_intersection_cardinality_mem true M c1 c2 = Some 2 /\ array_intersection_cardinality_mem true M c2 c1 = Some 2).
Proof. split; [split; apply ex_hyps|]. vm_compute. repeat split. Qed.
