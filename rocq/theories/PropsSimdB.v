(** PropsSimdB: bitset and run containers in memory at every CPU level (C77-C79). *)
From Coq Require Import ZArith List Bool Lia.
From Verif Require Import Base Simd SimdB SimdR Spec DerivedK SimdQ.
Import ListNotations.
Local Open Scope Z_scope.
Local Opaque zr.

(** [c] is the CPU level detected at run time. *)
Theorem C77_operation : forall c o M p q out, in_memory M p -> in_memory M q -> 0 <= out -> out + 1024 <= zlen M ->
  same_or_apart out p -> same_or_apart out q ->
  exists M', container_op_mem c o M p q out = Some (M', op_how_many M o p q) /\ op_done M M' o p q out.
Proof. exact q_op. Qed.
Print Assumptions C77_operation.
Theorem C77_no_count : forall c o M p q out, in_memory M p -> in_memory M q -> 0 <= out -> out + 1024 <= zlen M ->
  same_or_apart out p -> same_or_apart out q ->
  exists M', container_op_nocard_mem c o M p q out = Some (M', -1) /\ op_done M M' o p q out.
Proof. exact q_nocard. Qed.
Print Assumptions C77_no_count.
Theorem C77_only_count : forall c o M p q, in_memory M p -> in_memory M q -> container_op_justcard_mem c o M p q = Some (op_how_many M o p q).
Proof. exact q_justcard. Qed.
Print Assumptions C77_only_count.
Theorem C77_cardinality : forall c M p, in_memory M p -> container_cardinality_mem c M p = Some (how_many (mbit M p)).
Proof. exact q_cardinality. Qed.
Print Assumptions C77_cardinality.
(** the two population counts, for any number of blocks *)
Theorem C77_popcount : forall M p size, 0 <= p -> 0 <= size -> zlen M < 2 ^ 58 ->
  (p + 4 * size <= zlen M -> harley_seal (reg1 4 p) M size = Some (M, mem_bits M p (4 * size))) /\
  (p + 8 * size <= zlen M -> vpopcount (reg1 8 p) M size = Some (M, mem_bits M p (8 * size))).
Proof. exact q_popcount. Qed.
Print Assumptions C77_popcount.
Definition ex_words : memory := map (fun i => (i * i * 2862933555777941757 + 3037000493) mod 2 ^ 64) (zr 0 3072).
Definition agree (M : memory) (p q out : Z) (o : bop) : bool :=
  match container_op_mem SCALAR o M p q out, container_op_mem AVX2 o M p q out, container_op_mem AVX512 o M p q out, container_op_justcard_mem AVX2 o M p q with
  | Some (_, a), Some (_, b), Some (_, c), Some d => (a =? b) && (b =? c) && (c =? d) && (1000 <? a) && (a <? 60000)
  | _, _, _, _ => false
  end.
Example C77_example : in_memory ex_words 0 /\ in_memory ex_words 1024 /\
  forallb (agree ex_words 0 1024 2048) [OR; AND; XOR; ANDNOT] = true /\
  option_map (fun r => firstn 3 (fst r)) (container_op_mem AVX2 ANDNOT ex_words 0 1024 0) =
  option_map (fun r => firstn 3 (fst r)) (container_op_mem SCALAR ANDNOT ex_words 0 1024 0).
Proof.
  assert (F : Forall (fun w => 0 <= w < 2 ^ 64) ex_words).
  { unfold ex_words. apply Forall_forall. intros x Hx. apply in_map_iff in Hx. destruct Hx as (i & <- & _). apply Z.mod_pos_bound. reflexivity. }
  assert (L : zlen ex_words = 3072) by (vm_compute; reflexivity).
  split; [split; [lia|split; [lia|now apply win_Forall]]|]. split; [split; [lia|split; [lia|now apply win_Forall]]|]. vm_compute. split; reflexivity.
Qed.

(** comparison of two bitset containers; a stored cardinality is unknown ([-1]) or right *)
Theorem C78_bitset : forall c M p c1 q c2, Forall (fun w => 0 <= w < 2 ^ 64) M -> 0 <= p -> p + 1024 <= zlen M -> 0 <= q -> q + 1024 <= zlen M ->
  field_ok M p c1 -> field_ok M q c2 ->
  exists r, bitset_equals_mem c M p c1 q c2 = Some r /\ (r = true <-> forall x, 0 <= x < 65536 -> mbit M p x = mbit M q x).
Proof. exact q_equals. Qed.
Print Assumptions C78_bitset.
(** comparison of [n] bytes of memory, on which the comparison of array and run containers rests *)
Theorem C78_bytes : forall c M s1 s2 n, Forall (fun b => 0 <= b < 256) M -> 0 <= s1 -> 0 <= s2 -> 0 <= n -> s1 + n <= zlen M -> s2 + n <= zlen M ->
  exists r, memequals c M s1 s2 n = Some r /\ (r = true <-> forall i, 0 <= i < n -> nth (Z.to_nat (s1 + i)) M 0 = nth (Z.to_nat (s2 + i)) M 0).
Proof. exact q_memequals. Qed.
Print Assumptions C78_bytes.
Example C78_example : let b := map (fun i => i mod 251) (zr 0 502) in
  Forall (fun b => 0 <= b < 256) b /\
  forallb (fun c => match memequals c b 0 251 251, memequals c b 0 250 109 with Some true, Some false => true | _, _ => false end) [SCALAR; AVX2; AVX512] = true /\
  forallb (fun c => match bitset_equals_mem c ex_words 0 (-1) 1024 (-1), bitset_equals_mem c ex_words 0 (-1) 0 (-1) with Some false, Some true => true | _, _ => false end) [SCALAR; AVX2; AVX512] = true.
Proof.
  split; [|vm_compute; split; reflexivity]. apply Forall_forall. intros x Hx. apply in_map_iff in Hx. destruct Hx as (i & <- & _). pose proof (Z.mod_pos_bound i 251 ltac:(lia)). lia.
Qed.

(** a run container: its number of values, and its values one after the other *)
Theorem C79_cardinality : forall c rs L, runs_from 0 rs -> sorted_with L (in_runs rs) -> run_cardinality_cpu c rs = Some (zlen L).
Proof. exact q_run_cardinality. Qed.
Print Assumptions C79_cardinality.
Theorem C79_numbers : forall avx2 M rs L out base, runs_from 0 rs -> sorted_with L (in_runs rs) -> 0 <= out -> out + zlen L <= zlen M ->
  exists M', run_to_uint32_mem avx2 M rs out base = Some (M', zlen L) /\ length M' = length M /\
    win M' out (zlen L) = map (fun x => (base + x) mod 2 ^ 32) L /\
    forall i, 0 <= i -> ~ out <= i < out + zlen L -> znth M' i = znth M i.
Proof. exact q_run_numbers. Qed.
Print Assumptions C79_numbers.
Example C79_example : let rs := map (fun i => (100 * i, 3 * i)) (zr 0 20) in
  runs_from 0 rs /\ forallb (fun c => match run_cardinality_cpu c rs with Some n => n =? 590 | None => false end) [SCALAR; AVX2; AVX512] = true /\
  run_to_uint32_mem true (repeat 7 16) [(2, 0); (5, 9)] 1 (2 ^ 32 - 7) =
    Some ([7; 2 ^ 32 - 5; 2 ^ 32 - 2; 2 ^ 32 - 1; 0; 1; 2; 3; 4; 5; 6; 7; 7; 7; 7; 7], 11) /\
  run_to_uint32_mem false (repeat 7 16) [(2, 0); (5, 9)] 1 (2 ^ 32 - 7) = run_to_uint32_mem true (repeat 7 16) [(2, 0); (5, 9)] 1 (2 ^ 32 - 7).
Proof. split; [vm_compute; repeat split; discriminate|]. vm_compute. repeat split. Qed.
