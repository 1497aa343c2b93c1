(** SimdB: the AVX2 and AVX-512 code for bitset containers: the Harley-Seal population
    count (include/roaring/bitset_util.h:270-700) and the binary operations on two
    containers (src/containers/bitset.c:250-800), with the choice of code by CPU level.

    Memory is a list of 64-bit words, an address is an index into it, an access that is
    not entirely inside the list is [None].  A 256-bit (512-bit) register is a list of
    four (eight) words, lane 0 first; an intrinsic is modelled by its documented effect on
    lanes.  The macros CROARING_AVXPOPCNTFNC and CROARING_AVXPOPCNTFNC512 repeat one text
    with three ways of obtaining register number k; here that text is written once and
    the way is a parameter ([reg1], [reg2], [reg3]). *)
From Verif Require Import Simd Base BitUtil.

(** ** Obtaining register number [k]; [n] words per register *)
Notation source := (memory -> Z -> option (memory * vec)).
(** _mm256_lddqu_si256(data + k) *)
Definition reg1 (n data : Z) : source := fun M k =>
  do a <- ldn M (data + n * k) n; Some (M, a).
(** A = avx_intrinsic(_mm256_lddqu_si256(data1 + k), _mm256_lddqu_si256(data2 + k)) *)
Definition reg2 (n : Z) (f : Z -> Z -> Z) (data1 data2 : Z) : source := fun M k =>
  do a <- ldn M (data1 + n * k) n; do b <- ldn M (data2 + n * k) n; Some (M, map2 f a b).
(** the same followed by _mm256_storeu_si256(out + k, A) *)
Definition reg3 (n : Z) (f : Z -> Z -> Z) (data1 data2 out : Z) : source := fun M k =>
  do a <- ldn M (data1 + n * k) n; do b <- ldn M (data2 + n * k) n;
  let A := map2 f a b in do M' <- stn M (out + n * k) A; Some (M', A).

(** for (; i < limit; i += step) body *)
Fixpoint upto {S : Type} (fuel : nat) (step : Z) (body : Z -> S -> option S) (i limit : Z) (s : S) : option S :=
  match fuel with
  | O => Some s
  | Datatypes.S fuel' => if i <? limit then do s' <- body i s; upto fuel' step body (i + step) limit s' else Some s
  end.

(** ** AVX2 *)
(** bitset_util.h:280-301: the two tables *)
Definition lookuppos : list Z := [4; 5; 5; 6; 5; 6; 6; 7; 5; 6; 6; 7; 6; 7; 7; 8].
Definition lookupneg : list Z := [4; 3; 3; 2; 3; 2; 2; 1; 3; 2; 2; 1; 2; 1; 1; 0].
(** _mm256_shuffle_epi8 of a table held in both halves of the register, one byte *)
Definition shuf (tab : list Z) (k : Z) : Z := if 128 <=? k then 0 else znth tab (k mod 16).
(** the four 16-bit parts of a word, lowest first *)
Definition parts16 (w : Z) : list Z := map (fun j => Z.shiftr w (16 * j) mod 65536) [0; 1; 2; 3].
(** bitset_util.h:279-307 popcount256, one 64-bit lane: _mm256_and_si256 with 0x0f on the
    bytes of v and of _mm256_srli_epi16(v, 4), two lookups, _mm256_sad_epu8 *)
Definition popcount_lane (w : Z) : Z :=
  let lo := map (fun b => Z.land b 15) (vbytes (parts16 w)) in
  let hi := map (fun b => Z.land b 15) (vbytes (map (fun x => Z.shiftr x 4) (parts16 w))) in
  zsum (map2 (fun x y => Z.abs (x - y)) (map (shuf lookuppos) lo) (map (shuf lookupneg) hi)).
Definition popcount256 (v : vec) : vec := map popcount_lane v.
(** bitset_util.h:314-319 CSA: (h, l) *)
Definition CSA (a b c : vec) : vec * vec :=
  let u := map2 Z.lxor a b in
  (map2 Z.lor (map2 Z.land a b) (map2 Z.land u c), map2 Z.lxor u c).
(** _mm256_add_epi64, _mm512_add_epi64; _mm256_slli_epi64 *)
Definition add64 (a b : vec) : vec := map2 (fun x y => (x + y) mod 2 ^ 64) a b.
Definition slli64 (v : vec) (k : Z) : vec := map (fun x => Z.shiftl x k mod 2 ^ 64) v.
Definition zero4 : vec := repeat 0 4.

(** the registers kept by the loop *)
Record hs := mk_hs { hs_total : vec; hs_ones : vec; hs_twos : vec; hs_fours : vec; hs_eights : vec }.
(** two registers into [ones] *)
Definition csa2 (get : source) (M : memory) (k : Z) (ones : vec) : option (memory * (vec * vec)) :=
  do (M, A1) <- get M k; do (M, A2) <- get M (k + 1); Some (M, CSA ones A1 A2).
(** bitset_util.h:339-365, 399-448, 480-545: the loop body *)
Definition hs_block (get : source) (i : Z) (s : memory * hs) : option (memory * hs) :=
  let '(M, mk_hs total ones twos fours eights) := s in
  do (M, (twosA, ones)) <- csa2 get M i ones;
  do (M, (twosB, ones)) <- csa2 get M (i + 2) ones;
  let (foursA, twos) := CSA twos twosA twosB in
  do (M, (twosA, ones)) <- csa2 get M (i + 4) ones;
  do (M, (twosB, ones)) <- csa2 get M (i + 6) ones;
  let (foursB, twos) := CSA twos twosA twosB in
  let (eightsA, fours) := CSA fours foursA foursB in
  do (M, (twosA, ones)) <- csa2 get M (i + 8) ones;
  do (M, (twosB, ones)) <- csa2 get M (i + 10) ones;
  let (foursA, twos) := CSA twos twosA twosB in
  do (M, (twosA, ones)) <- csa2 get M (i + 12) ones;
  do (M, (twosB, ones)) <- csa2 get M (i + 14) ones;
  let (foursB, twos) := CSA twos twosA twosB in
  let (eightsB, fours) := CSA fours foursA foursB in
  let (sixteens, eights) := CSA eights eightsA eightsB in
  Some (M, mk_hs (add64 total (popcount256 sixteens)) ones twos fours eights).
(** total = _mm256_add_epi64(total, popcount256(register k)) *)
Definition hs_one (get : source) (k : Z) (s : memory * vec) : option (memory * vec) :=
  let (M, total) := s in do (M, A1) <- get M k; Some (M, add64 total (popcount256 A1)).
(** sum of the four lanes as uint64_t *)
Definition sum4 (v : vec) : Z := (znth v 0 + znth v 1 + znth v 2 + znth v 3) mod 2 ^ 64.
(** bitset_util.h:326-383 avx2_harley_seal_popcount256, 387-466 ..._opname, 467-564
    ...andstore_opname *)
Definition harley_seal (get : source) (M : memory) (size : Z) : option (memory * Z) :=
  let limit := size - size mod 16 in
  do (M, s) <- upto (Z.to_nat size) 16 (hs_block get) 0 limit (M, mk_hs zero4 zero4 zero4 zero4 zero4);
  let total := slli64 (hs_total s) 4 in
  let total := add64 total (slli64 (popcount256 (hs_eights s)) 3) in
  let total := add64 total (slli64 (popcount256 (hs_fours s)) 2) in
  let total := add64 total (slli64 (popcount256 (hs_twos s)) 1) in
  let total := add64 total (popcount256 (hs_ones s)) in
  do (M, total) <- upto (Z.to_nat size) 1 (hs_one get) limit size (M, total);
  Some (M, sum4 total).

(** ** AVX-512 *)
(** VPOPCNT_AND_ADD (bitset_util.h:590-593); total = _mm512_add_epi64(total,
    _mm512_popcnt_epi64(register k)) *)
Definition vp_one (get : source) (k : Z) (s : memory * vec) : option (memory * vec) :=
  let (M, total) := s in do (M, A) <- get M k; Some (M, add64 total (map hamming A)).
Definition vp_block (get : source) (i : Z) (s : memory * vec) : option (memory * vec) :=
  do s <- vp_one get i s; do s <- vp_one get (i + 1) s; do s <- vp_one get (i + 2) s; vp_one get (i + 3) s.
(** bitset_util.h:597-609 sum_epu64_256, simd_sum_epu64 *)
Definition sum8 (v : vec) : Z := (sum4 (firstn 4 v) + sum4 (skipn 4 v)) mod 2 ^ 64.
(** bitset_util.h:611-630 avx512_vpopcount, 635-660 avx512_harley_seal_popcount512_opname,
    661-692 ...andstore_opname *)
Definition vpopcount (get : source) (M : memory) (size : Z) : option (memory * Z) :=
  let limit := size - size mod 4 in
  do s <- upto (Z.to_nat size) 4 (vp_block get) 0 limit (M, repeat 0 8);
  do (M, total) <- upto (Z.to_nat size) 1 (vp_one get) limit size s;
  Some (M, sum8 total).

(** ** Operations on bitset containers *)
(** a container's [words] pointer; the cardinality field is the returned number *)
Inductive cpu := SCALAR | AVX2 | AVX512.
(** the four operations and the intrinsic used: _mm256_andnot_si256(a, b) is ~a & b *)
Inductive bop := OR | AND | XOR | ANDNOT.
Definition opsymbol (o : bop) : Z -> Z -> Z :=
  match o with OR => Z.lor | AND => Z.land | XOR => Z.lxor | ANDNOT => fun a b => Z.land a (not64 b) end.
Definition avx_intrinsic (o : bop) : Z -> Z -> Z :=
  match o with OR => Z.lor | AND => Z.land | XOR => Z.lxor | ANDNOT => fun a b => Z.land (not64 a) b end.
(** conversion of a uint64_t to int32_t *)
Definition int32 (x : Z) : Z := let y := x mod 2 ^ 32 in if y <? 2 ^ 31 then y else y - 2 ^ 32.

(** bitset.c:338-390 and 499-551: eight registers per round; (A2, A1) in this order *)
Definition nocard_one (get : source) (k : Z) (M : memory) : option memory := do (M, _) <- get M k; Some M.
Definition nocard_block (get : source) (i : Z) (M : memory) : option memory :=
  do M <- nocard_one get i M; do M <- nocard_one get (i + 1) M; do M <- nocard_one get (i + 2) M; do M <- nocard_one get (i + 3) M;
  do M <- nocard_one get (i + 4) M; do M <- nocard_one get (i + 5) M; do M <- nocard_one get (i + 6) M; nocard_one get (i + 7) M.
Definition simd_nocard (n : Z) (o : bop) (M : memory) (words_1 words_2 out : Z) : option (memory * Z) :=
  do M <- upto (Z.to_nat (1024 / n)) 8 (nocard_block (reg3 n (avx_intrinsic o) words_2 words_1 out)) 0 (1024 / n) M;
  Some (M, -1).

(** bitset.c:650-669: two words per round, both computed before they are stored *)
Definition scalar_block (f : Z -> Z -> Z) (words_1 words_2 out i : Z) (s : memory * Z) : option (memory * Z) :=
  let (M, sum) := s in
  do a0 <- rd M (words_1 + i); do b0 <- rd M (words_2 + i);
  do a1 <- rd M (words_1 + (i + 1)); do b1 <- rd M (words_2 + (i + 1));
  let word_1 := f a0 b0 in let word_2 := f a1 b1 in
  do M <- wr M (out + i) word_1; do M <- wr M (out + (i + 1)) word_2;
  Some (M, sum + hamming word_1 + hamming word_2).
Definition scalar_op (f : Z -> Z -> Z) (M : memory) (words_1 words_2 out : Z) : option (memory * Z) :=
  upto (Z.to_nat 1024) 2 (scalar_block f words_1 words_2 out) 0 1024 (M, 0).
(** bitset.c:670-681 *)
Definition scalar_nocard (f : Z -> Z -> Z) (M : memory) (words_1 words_2 out : Z) : option (memory * Z) :=
  do M <- upto (Z.to_nat 1024) 1 (fun i M =>
       do a <- rd M (words_1 + i); do b <- rd M (words_2 + i); wr M (out + i) (f a b)) 0 1024 M;
  Some (M, -1).
(** bitset.c:682-695 *)
Definition scalar_justcard (f : Z -> Z -> Z) (M : memory) (words_1 words_2 : Z) : option Z :=
  upto (Z.to_nat 1024) 2 (fun i sum =>
    do a0 <- rd M (words_1 + i); do b0 <- rd M (words_2 + i);
    do a1 <- rd M (words_1 + (i + 1)); do b1 <- rd M (words_2 + (i + 1));
    Some (sum + hamming (f a0 b0) + hamming (f a1 b1))) 0 1024 0.
(** bitset.c:256-267 _scalar_bitset_container_compute_cardinality *)
Definition scalar_cardinality (M : memory) (words : Z) : option Z :=
  upto (Z.to_nat 1024) 4 (fun i sum =>
    do a <- rd M (words + i); do b <- rd M (words + (i + 1)); do c <- rd M (words + (i + 2)); do d <- rd M (words + (i + 3));
    Some (sum + hamming a + hamming b + hamming c + hamming d)) 0 1024 0.

(** bitset.c:708-721 bitset_container_opname, with 392-404 and 553-566: the new memory and dst->cardinality *)
Definition container_op_mem (c : cpu) (o : bop) (M : memory) (src_1 src_2 dst : Z) : option (memory * Z) :=
  match c with
  | AVX512 => do (M, n) <- vpopcount (reg3 8 (avx_intrinsic o) src_2 src_1 dst) M (1024 / 8); Some (M, int32 n)
  | AVX2 => do (M, n) <- harley_seal (reg3 4 (avx_intrinsic o) src_2 src_1 dst) M (1024 / 4); Some (M, int32 n)
  | SCALAR => scalar_op (opsymbol o) M src_1 src_2 dst
  end.
(** bitset.c:722-734 bitset_container_opname_nocard *)
Definition container_op_nocard_mem (c : cpu) (o : bop) (M : memory) (src_1 src_2 dst : Z) : option (memory * Z) :=
  match c with
  | AVX512 => simd_nocard 8 o M src_1 src_2 dst
  | AVX2 => simd_nocard 4 o M src_1 src_2 dst
  | SCALAR => scalar_nocard (opsymbol o) M src_1 src_2 dst
  end.
(** bitset.c:735-746 bitset_container_opname_justcard, with 406-416 and 568-579 *)
Definition container_op_justcard_mem (c : cpu) (o : bop) (M : memory) (src_1 src_2 : Z) : option Z :=
  match c with
  | AVX512 => do (_, n) <- vpopcount (reg2 8 (avx_intrinsic o) src_2 src_1) M (1024 / 8); Some (int32 n)
  | AVX2 => do (_, n) <- harley_seal (reg2 4 (avx_intrinsic o) src_2 src_1) M (1024 / 4); Some (int32 n)
  | SCALAR => scalar_justcard (opsymbol o) M src_1 src_2
  end.
(** bitset.c:269-285 bitset_container_compute_cardinality *)
Definition container_cardinality_mem (c : cpu) (M : memory) (words : Z) : option Z :=
  match c with
  | AVX512 => do (_, n) <- vpopcount (reg1 8 words) M (1024 / 8); Some (int32 n)
  | AVX2 => do (_, n) <- harley_seal (reg1 4 words) M (1024 / 4); Some (int32 n)
  | SCALAR => scalar_cardinality M words
  end.

(** * Proofs *)
Local Opaque zr.
(** ** One word *)
Lemma len_filter_sum f (l : list Z) : zlen (filter f l) = zsum (map (fun i => Z.b2z (f i)) l).
Proof. induction l as [|x l IH]; [reflexivity|]. cbn [filter map zsum]. destruct (f x); [rewrite zlen_cons|]; cbn [Z.b2z]; lia. Qed.
Lemma hamming_sum w : hamming w = zsum (map (fun i => Z.b2z (Z.testbit w i)) (zr 0 64)).
Proof. apply len_filter_sum. Qed.
Definition nib (n : Z) : Z := Z.b2z (Z.testbit n 0) + Z.b2z (Z.testbit n 1) + Z.b2z (Z.testbit n 2) + Z.b2z (Z.testbit n 3).
Lemma tables_ok : forallb (fun a => forallb (fun b => Z.abs (shuf lookuppos a - shuf lookupneg b) =? nib a + nib b) (zr 0 16)) (zr 0 16) = true.
Proof. vm_compute. reflexivity. Qed.
Lemma tables a b : 0 <= a < 16 -> 0 <= b < 16 -> Z.abs (shuf lookuppos a - shuf lookupneg b) = nib a + nib b.
Proof.
  intros Ha Hb. pose proof tables_ok as T. rewrite forallb_forall in T. specialize (T a ltac:(apply zr_In; lia)). rewrite forallb_forall in T.
  specialize (T b ltac:(apply zr_In; lia)). lia.
Qed.
Lemma land15 x : 0 <= Z.land x 15 < 16.
Proof. change 15 with (Z.ones 4). rewrite Z.land_ones by lia. apply Z.mod_pos_bound. reflexivity. Qed.
Lemma tb15 x i : 0 <= i < 4 -> Z.testbit (Z.land x 15) i = Z.testbit x i.
Proof. intros H. change 15 with (Z.ones 4). rewrite Z.land_ones by lia. apply Z.mod_pow2_bits_low. lia. Qed.
Definition nib_at (w s : Z) : Z := Z.b2z (Z.testbit w s) + Z.b2z (Z.testbit w (s + 1)) + Z.b2z (Z.testbit w (s + 2)) + Z.b2z (Z.testbit w (s + 3)).
Lemma nib_of x w s : 0 <= s -> (forall i, 0 <= i < 4 -> Z.testbit x i = Z.testbit w (s + i)) -> nib (Z.land x 15) = nib_at w s.
Proof. intros Hs H. unfold nib, nib_at. rewrite !tb15, !H by lia. rewrite Z.add_0_r. reflexivity. Qed.
Lemma tb_mod x k i : 0 <= i < k -> Z.testbit (x mod 2 ^ k) i = Z.testbit x i.
Proof. intros. apply Z.mod_pow2_bits_low. lia. Qed.
Ltac tbs := intros i Hi; change 65536 with (2 ^ 16); change 256 with (2 ^ 8); rewrite <- ?(Z.shiftr_div_pow2 _ 8) by lia;
  repeat first [rewrite tb_mod by lia | rewrite Z.shiftr_spec by lia]; f_equal; lia.
Lemma popcount_lane_eq w : popcount_lane w = hamming w.
Proof.
  unfold popcount_lane, parts16, vbytes. cbn [map flat_map app map2 zsum].
  rewrite !tables by apply land15.
  rewrite hamming_sum. with_strategy transparent [zr] change (zr 0 64) with (zrange 0 64). cbn [zrange map zsum Z.add Pos.add Pos.succ].
  rewrite (nib_of _ w 0) by (first [lia | tbs]).
  rewrite (nib_of _ w 4) by (first [lia | tbs]).
  rewrite (nib_of _ w 8) by (first [lia | tbs]).
  rewrite (nib_of _ w 12) by (first [lia | tbs]).
  rewrite (nib_of _ w 16) by (first [lia | tbs]).
  rewrite (nib_of _ w 20) by (first [lia | tbs]).
  rewrite (nib_of _ w 24) by (first [lia | tbs]).
  rewrite (nib_of _ w 28) by (first [lia | tbs]).
  rewrite (nib_of _ w 32) by (first [lia | tbs]).
  rewrite (nib_of _ w 36) by (first [lia | tbs]).
  rewrite (nib_of _ w 40) by (first [lia | tbs]).
  rewrite (nib_of _ w 44) by (first [lia | tbs]).
  rewrite (nib_of _ w 48) by (first [lia | tbs]).
  rewrite (nib_of _ w 52) by (first [lia | tbs]).
  rewrite (nib_of _ w 56) by (first [lia | tbs]).
  rewrite (nib_of _ w 60) by (first [lia | tbs]).
  unfold nib_at. cbn [Z.add Pos.add Pos.succ]. ring.
Qed.
Lemma popcount256_eq v : popcount256 v = map hamming v.
Proof. apply map_ext. exact popcount_lane_eq. Qed.
Lemma full_adder a b c : 2 * Z.b2z ((a && b) || (xorb a b && c)) + Z.b2z (xorb (xorb a b) c) = Z.b2z a + Z.b2z b + Z.b2z c.
Proof. destruct a, b, c; reflexivity. Qed.
Lemma csa_word a b c :
  2 * hamming (Z.lor (Z.land a b) (Z.land (Z.lxor a b) c)) + hamming (Z.lxor (Z.lxor a b) c) = hamming a + hamming b + hamming c.
Proof.
  rewrite !hamming_sum. induction (zr 0 64) as [|i l IH]; [reflexivity|]. cbn [map zsum].
  rewrite Z.lor_spec, !Z.lxor_spec, !Z.land_spec, Z.lxor_spec. pose proof (full_adder (Z.testbit a i) (Z.testbit b i) (Z.testbit c i)).
  rewrite Z.lor_comm in IH. rewrite Z.lor_comm in IH. lia.
Qed.

(** ** Registers *)
Definition pop (v : vec) : Z := zsum (map hamming v).
Lemma len_map2 f a b n : length a = n -> length b = n -> length (map2 f a b) = n.
Proof. revert b n. induction a as [|x a IH]; intros [|y b] n; cbn; try lia. destruct n; [lia|]. intros H1 H2. rewrite (IH b n); lia. Qed.
Lemma csa_len a b c n : length a = n -> length b = n -> length c = n -> length (fst (CSA a b c)) = n /\ length (snd (CSA a b c)) = n.
Proof. intros. unfold CSA. cbn [fst snd]. split; repeat apply len_map2; auto. Qed.
Lemma csa_pop a b c : length b = length a -> length c = length a -> 2 * pop (fst (CSA a b c)) + pop (snd (CSA a b c)) = pop a + pop b + pop c.
Proof.
  unfold CSA, pop. cbn [fst snd]. revert b c. induction a as [|x a IH]; intros [|y b] [|z c] H1 H2; cbn in H1, H2; try lia; [reflexivity|].
  cbn [map2 map zsum]. specialize (IH b c ltac:(lia) ltac:(lia)). pose proof (csa_word x y z). lia.
Qed.
(** equality modulo 2^64 *)
Definition eqm (a b : Z) : Prop := exists k, a = b + k * 2 ^ 64.
Lemma eqm_refl a : eqm a a. Proof. exists 0. lia. Qed.
Lemma eqm_mod a : eqm (a mod 2 ^ 64) a.
Proof. exists (- (a / 2 ^ 64)). pose proof (Z.div_mod a (2 ^ 64)). lia. Qed.
Lemma eqm_add a b c d : eqm a b -> eqm c d -> eqm (a + c) (b + d).
Proof. intros [k ->] [l ->]. exists (k + l). lia. Qed.
Lemma eqm_mul a b n : eqm a b -> eqm (n * a) (n * b).
Proof. intros [k ->]. exists (n * k). ring. Qed.
Lemma eqm_trans a b c : eqm a b -> eqm b c -> eqm a c.
Proof. intros [k ->] [l ->]. exists (k + l). lia. Qed.
Lemma eqm_eq a b : eqm a b -> 0 <= a < 2 ^ 64 -> 0 <= b < 2 ^ 64 -> a = b.
Proof. intros [k ->]. lia. Qed.
Lemma add64_len a b n : length a = n -> length b = n -> length (add64 a b) = n.
Proof. apply len_map2. Qed.
Lemma add64_sum a b : length a = length b -> eqm (zsum (add64 a b)) (zsum a + zsum b).
Proof.
  unfold add64. revert b. induction a as [|x a IH]; intros [|y b] H; cbn in H; try lia; [apply eqm_refl|]. cbn [map2 zsum].
  replace (x + zsum a + (y + zsum b)) with ((x + y) + (zsum a + zsum b)) by lia. apply eqm_add; [apply eqm_mod|apply IH; lia].
Qed.
Lemma slli64_sum v k : 0 <= k -> eqm (zsum (slli64 v k)) (2 ^ k * zsum v).
Proof.
  intros Hk. unfold slli64. induction v as [|x v IH]; [cbn; rewrite Z.mul_0_r; apply eqm_refl|]. cbn [map zsum]. rewrite Z.mul_add_distr_l.
  apply eqm_add; [|exact IH]. eapply eqm_trans; [apply eqm_mod|]. rewrite Z.shiftl_mul_pow2 by lia. rewrite Z.mul_comm. apply eqm_refl.
Qed.
Lemma slli64_len v k n : length v = n -> length (slli64 v k) = n.
Proof. unfold slli64. rewrite map_length. auto. Qed.
Lemma pc_len v n : length v = n -> length (popcount256 v) = n.
Proof. unfold popcount256. rewrite map_length. auto. Qed.
Lemma pc_sum v : zsum (popcount256 v) = pop v.
Proof. rewrite popcount256_eq. reflexivity. Qed.
Lemma sum4_eqm v : length v = 4%nat -> eqm (sum4 v) (zsum v).
Proof. destruct v as [|a [|b [|c [|d [|]]]]]; intros H; try discriminate H. unfold sum4. eapply eqm_trans; [apply eqm_mod|]. cbn [zsum]. change (znth [a; b; c; d] 0) with a. change (znth [a; b; c; d] 1) with b. change (znth [a; b; c; d] 2) with c. change (znth [a; b; c; d] 3) with d. exists 0. lia. Qed.
Lemma sum4_range v : 0 <= sum4 v < 2 ^ 64. Proof. apply Z.mod_pos_bound. reflexivity. Qed.
Lemma sum8_eqm v : length v = 8%nat -> eqm (sum8 v) (zsum v).
Proof.
  intros H. unfold sum8. eapply eqm_trans; [apply eqm_mod|]. rewrite <- (firstn_skipn 4 v) at 3. rewrite zsum_app.
  apply eqm_add; apply sum4_eqm; [rewrite firstn_length|rewrite skipn_length]; lia.
Qed.
Lemma sum8_range v : 0 <= sum8 v < 2 ^ 64. Proof. apply Z.mod_pos_bound. reflexivity. Qed.

(** ** A source of registers: register [k] is [V k], and [R k] holds before it is taken *)
Definition supplies (get : source) (n : nat) (size : Z) (R : Z -> memory -> Prop) (V : Z -> vec) : Prop :=
  forall k M, 0 <= k < size -> R k M -> exists M', get M k = Some (M', V k) /\ R (k + 1) M' /\ length (V k) = n.
(** population count of registers [0,k) *)
Fixpoint pops (V : Z -> vec) (k : nat) : Z := match k with O => 0 | Datatypes.S k' => pops V k' + pop (V (Z.of_nat k')) end.
Definition popk (V : Z -> vec) (k : Z) : Z := pops V (Z.to_nat k).
Lemma popk_0 V : popk V 0 = 0. Proof. reflexivity. Qed.
Lemma popk_S V k : 0 <= k -> popk V (k + 1) = popk V k + pop (V k).
Proof. intros H. unfold popk. replace (Z.to_nat (k + 1)) with (Datatypes.S (Z.to_nat k)) by lia. cbn [pops]. rewrite Z2Nat.id by lia. reflexivity. Qed.

(** the counting loops *)
Lemma upto_inv {S : Type} (P : Z -> S -> Prop) (body : Z -> S -> option S) step limit : 0 < step ->
  (forall i s, 0 <= i -> i + step <= limit -> P i s -> exists s', body i s = Some s' /\ P (i + step) s') ->
  forall fuel i s, 0 <= i <= limit -> (limit - i) mod step = 0 -> limit - i <= Z.of_nat fuel -> P i s -> exists s', upto fuel step body i limit s = Some s' /\ P limit s'.
Proof.
  intros Hst Hb. induction fuel as [|fuel IH]; intros i s Hi Hm Hf Hp.
  - cbn [upto]. exists s. split; [reflexivity|]. replace limit with i by lia. exact Hp.
  - cbn [upto]. destruct (Z.ltb_spec i limit) as [L|L].
    + assert (i + step <= limit).
      { apply Z.mod_divide in Hm; [|lia]. destruct Hm as [q Hq]. assert (1 <= q) by nia. nia. }
      destruct (Hb i s ltac:(lia) ltac:(lia) Hp) as (s' & E & Hp'). rewrite E. cbn [obind]. apply IH; try lia; [|exact Hp'].
      replace (limit - (i + step)) with ((limit - i) + (-1) * step) by lia. rewrite Z.mod_add by lia. exact Hm.
    + exists s. split; [reflexivity|]. replace limit with i by lia. exact Hp.
Qed.

Lemma csa2_ok get n size R V M k ones : supplies get n size R V -> 0 <= k -> k + 2 <= size -> R k M -> length ones = n ->
  exists M' h l, csa2 get M k ones = Some (M', (h, l)) /\ R (k + 2) M' /\ length h = n /\ length l = n /\
    2 * pop h + pop l = pop ones + (popk V (k + 2) - popk V k).
Proof.
  intros HS Hk Hl HR Lo. destruct (HS k M ltac:(lia) HR) as (M1 & E1 & R1 & L1). destruct (HS (k + 1) M1 ltac:(lia) R1) as (M2 & E2 & R2 & L2).
  unfold csa2. rewrite E1. cbn [obind]. rewrite E2. cbn [obind].
  destruct (csa_len ones (V k) (V (k + 1)) n Lo L1 L2) as [A B]. pose proof (csa_pop ones (V k) (V (k + 1)) ltac:(lia) ltac:(lia)) as P.
  destruct (CSA ones (V k) (V (k + 1))) as [h l]. cbn [fst snd] in *. exists M2, h, l. split; [reflexivity|]. replace (k + 2) with (k + 1 + 1) by lia.
  split; [exact R2|]. split; [exact A|]. split; [exact B|]. rewrite !popk_S by lia. lia.
Qed.
(** what the registers kept by the loop stand for *)
Definition hs_inv (n : nat) (V : Z -> vec) (R : Z -> memory -> Prop) (i : Z) (s : memory * hs) : Prop :=
  let '(M, mk_hs total ones twos fours eights) := s in
  R i M /\ length total = n /\ length ones = n /\ length twos = n /\ length fours = n /\ length eights = n /\
  eqm (16 * zsum total + 8 * pop eights + 4 * pop fours + 2 * pop twos + pop ones) (popk V i).
Ltac csa_step n H1 H2 H3 h l A B P := match goal with |- context [CSA ?a ?b ?c] =>
  destruct (csa_len a b c n H1 H2 H3) as [A B]; pose proof (csa_pop a b c ltac:(lia) ltac:(lia)) as P;
  destruct (CSA a b c) as [h l]; cbn [fst snd] in A, B, P end.
Ltac get2 HS R0 B0 M' h l R' A B P := match goal with |- context [csa2 ?get ?M ?k ?ones] =>
  let E := fresh "E" in
  destruct (csa2_ok get _ _ _ _ M k ones HS ltac:(lia) ltac:(lia) R0 B0) as (M' & h & l & E & R' & A & B & P); rewrite E; clear E; cbn [obind] end.
Lemma hs_block_ok get n size R V i s : supplies get n size R V -> 0 <= i -> i + 16 <= size -> hs_inv n V R i s ->
  exists s', hs_block get i s = Some s' /\ hs_inv n V R (i + 16) s'.
Proof.
  intros HS Hi Hl. destruct s as [M [total ones twos fours eights]]. intros (HR & L0 & L1 & L2 & L3 & L4 & HE). unfold hs_block.
  get2 HS HR L1 M1 a1 o1 R1 A1 O1 P1. get2 HS R1 O1 M2 a2 o2 R2 A2 O2 P2.
  csa_step n L2 A1 A2 f1 t1 F1 T1 Q1. replace (i + 2 + 2) with (i + 4) in * by lia.
  get2 HS R2 O2 M3 a3 o3 R3 A3 O3 P3. replace (i + 4 + 2) with (i + 6) in * by lia. get2 HS R3 O3 M4 a4 o4 R4 A4 O4 P4.
  csa_step n T1 A3 A4 f2 t2 F2 T2 Q2. csa_step n L3 F1 F2 e1 g1 G1 H1 Q3. replace (i + 6 + 2) with (i + 8) in * by lia.
  get2 HS R4 O4 M5 a5 o5 R5 A5 O5 P5. replace (i + 8 + 2) with (i + 10) in * by lia. get2 HS R5 O5 M6 a6 o6 R6 A6 O6 P6.
  csa_step n T2 A5 A6 f3 t3 F3 T3 Q4. replace (i + 10 + 2) with (i + 12) in * by lia.
  get2 HS R6 O6 M7 a7 o7 R7 A7 O7 P7. replace (i + 12 + 2) with (i + 14) in * by lia. get2 HS R7 O7 M8 a8 o8 R8 A8 O8 P8.
  csa_step n T3 A7 A8 f4 t4 F4 T4 Q5. csa_step n H1 F3 F4 e2 g2 G2 H2 Q6. csa_step n L4 G1 G2 x1 e3 X1 E3 Q7.
  replace (i + 14 + 2) with (i + 16) in * by lia.
  eexists. split; [reflexivity|]. cbn [hs_inv].
  split; [exact R8|]. split; [apply add64_len; [exact L0|apply pc_len; exact X1]|].
  split; [exact O8|]. split; [exact T4|]. split; [exact H2|]. split; [exact E3|].
  assert (HT : eqm (zsum (add64 total (popcount256 x1))) (zsum total + pop x1)).
  { rewrite <- pc_sum. apply add64_sum. rewrite (pc_len x1 n X1). exact L0. }
  destruct HT as [p ->]. destruct HE as [q HE]. exists (16 * p + q). lia.
Qed.
Lemma zeros_pop n : pop (repeat 0 n) = 0.
Proof. unfold pop. induction n as [|n IH]; [reflexivity|]. cbn [repeat map zsum]. rewrite IH. vm_compute. reflexivity. Qed.
Lemma hs_one_ok get n size R V k M total : supplies get n size R V -> 0 <= k < size -> R k M -> length total = n -> eqm (zsum total) (popk V k) ->
  exists M' total', hs_one get k (M, total) = Some (M', total') /\ R (k + 1) M' /\ length total' = n /\ eqm (zsum total') (popk V (k + 1)).
Proof.
  intros HS Hk HR L HE. destruct (HS k M Hk HR) as (M1 & E1 & R1 & L1). unfold hs_one. rewrite E1. cbn [obind].
  exists M1, (add64 total (popcount256 (V k))). split; [reflexivity|]. split; [exact R1|]. split; [apply add64_len; [exact L|apply pc_len; exact L1]|].
  rewrite popk_S by lia. eapply eqm_trans; [apply add64_sum; rewrite (pc_len _ n L1); exact L|]. rewrite pc_sum. apply eqm_add; [exact HE|apply eqm_refl].
Qed.
Theorem harley_seal_ok get size R V M : supplies get 4 size R V -> 0 <= size -> R 0 M -> popk V size < 2 ^ 64 ->
  exists M', harley_seal get M size = Some (M', popk V size) /\ R size M'.
Proof.
  intros HS Hz HR HB. set (limit := size - size mod 16). pose proof (Z.mod_pos_bound size 16 ltac:(lia)) as Hm.
  assert (HL : 0 <= limit <= size) by (pose proof (Z.mod_le size 16); unfold limit; lia).
  assert (HP : 0 <= popk V size).
  { unfold popk. induction (Z.to_nat size) as [|m IH]; [reflexivity|]. cbn [pops]. assert (0 <= pop (V (Z.of_nat m))); [|lia].
    unfold pop. induction (V (Z.of_nat m)) as [|x v IHv]; [reflexivity|]. cbn [map zsum]. pose proof (hamming_bound x). lia. }
  unfold harley_seal. fold limit.
  destruct (upto_inv (hs_inv 4 V R) (hs_block get) 16 limit ltac:(lia)) with (fuel := Z.to_nat size) (i := 0) (s := (M, mk_hs zero4 zero4 zero4 zero4 zero4))
    as ((M1 & [total ones twos fours eights]) & E1 & I1).
  - intros i s Hi Hl Hp. apply (hs_block_ok get 4 size R V); auto; lia.
  - lia.
  - rewrite Z.sub_0_r. unfold limit. rewrite Zminus_mod, Z.mod_mod, Z.sub_diag by lia. reflexivity.
  - lia.
  - split; [exact HR|]. repeat (split; [reflexivity|]). rewrite popk_0. unfold zero4. rewrite !zeros_pop. exists 0. cbn. lia.
  - rewrite E1. cbn [obind]. destruct I1 as (R1 & L0 & L1 & L2 & L3 & L4 & HE). cbn [hs_total hs_ones hs_twos hs_fours hs_eights].
    set (t1 := slli64 total 4). set (t2 := add64 t1 _). set (t3 := add64 t2 _). set (t4 := add64 t3 _). set (t5 := add64 t4 _).
    assert (K1 : length t1 = 4%nat) by (apply slli64_len; exact L0).
    assert (K2 : length t2 = 4%nat) by (apply add64_len; [exact K1|apply slli64_len, pc_len; exact L4]).
    assert (K3 : length t3 = 4%nat) by (apply add64_len; [exact K2|apply slli64_len, pc_len; exact L3]).
    assert (K4 : length t4 = 4%nat) by (apply add64_len; [exact K3|apply slli64_len, pc_len; exact L2]).
    assert (K5 : length t5 = 4%nat) by (apply add64_len; [exact K4|apply pc_len; exact L1]).
    assert (HT : eqm (zsum t5) (popk V limit)).
    { destruct (slli64_sum total 4 ltac:(lia)) as [z1 Z1]. fold t1 in Z1.
      destruct (add64_sum t1 (slli64 (popcount256 eights) 3)) as [z2 Z2]; [rewrite (slli64_len _ 3 4 (pc_len _ 4 L4)); exact K1|]. fold t2 in Z2.
      destruct (add64_sum t2 (slli64 (popcount256 fours) 2)) as [z3 Z3]; [rewrite (slli64_len _ 2 4 (pc_len _ 4 L3)); exact K2|]. fold t3 in Z3.
      destruct (add64_sum t3 (slli64 (popcount256 twos) 1)) as [z4 Z4]; [rewrite (slli64_len _ 1 4 (pc_len _ 4 L2)); exact K3|]. fold t4 in Z4.
      destruct (add64_sum t4 (popcount256 ones)) as [z5 Z5]; [rewrite (pc_len _ 4 L1); exact K4|]. fold t5 in Z5.
      destruct (slli64_sum (popcount256 eights) 3 ltac:(lia)) as [z6 Z6]. destruct (slli64_sum (popcount256 fours) 2 ltac:(lia)) as [z7 Z7].
      destruct (slli64_sum (popcount256 twos) 1 ltac:(lia)) as [z8 Z8]. rewrite pc_sum in *. destruct HE as [z9 Z9].
      change (2 ^ 4) with 16 in Z1. change (2 ^ 3) with 8 in Z6. change (2 ^ 2) with 4 in Z7. change (2 ^ 1) with 2 in Z8.
      exists (z1 + z2 + z3 + z4 + z5 + z6 + z7 + z8 + z9). lia. }
    clearbody t5. clear - HS HL HT K5 R1 HP HB.
    destruct (upto_inv (fun k (s : memory * vec) => R k (fst s) /\ length (snd s) = 4%nat /\ eqm (zsum (snd s)) (popk V k)) (hs_one get) 1 size ltac:(lia))
      with (fuel := Z.to_nat size) (i := limit) (s := (M1, t5)) as ((M2 & t6) & E2 & R2 & K6 & HT').
    + intros i [Mi ti] Hi Hl (A & B & C). destruct (hs_one_ok get 4 size R V i Mi ti HS ltac:(lia) A B C) as (M' & t' & E & A' & B' & C').
      exists (M', t'). auto.
    + lia.
    + apply Z.mod_1_r.
    + lia.
    + auto.
    + rewrite E2. cbn [obind]. cbn [fst snd] in *. exists M2. split; [|exact R2]. f_equal. f_equal. apply eqm_eq; [|apply sum4_range|lia].
      eapply eqm_trans; [apply sum4_eqm; exact K6|exact HT'].
Qed.
Lemma popk_nonneg V size : 0 <= popk V size.
Proof.
  unfold popk. induction (Z.to_nat size) as [|m IH]; [reflexivity|]. cbn [pops]. assert (0 <= pop (V (Z.of_nat m))); [|lia].
  unfold pop. induction (V (Z.of_nat m)) as [|x v IHv]; [reflexivity|]. cbn [map zsum]. pose proof (hamming_bound x). lia.
Qed.
(** ** AVX-512 *)
Definition vp_inv (n : nat) (V : Z -> vec) (R : Z -> memory -> Prop) (k : Z) (s : memory * vec) : Prop :=
  R k (fst s) /\ length (snd s) = n /\ eqm (zsum (snd s)) (popk V k).
Lemma vp_one_ok get n size R V k s : supplies get n size R V -> 0 <= k < size -> vp_inv n V R k s -> exists s', vp_one get k s = Some s' /\ vp_inv n V R (k + 1) s'.
Proof.
  intros HS Hk. destruct s as [M total]. intros (HR & L & HE). cbn [fst snd] in *. destruct (HS k M Hk HR) as (M1 & E1 & R1 & L1). unfold vp_one. rewrite E1. cbn [obind].
  eexists. split; [reflexivity|]. split; [exact R1|]. cbn [fst snd]. assert (length (map hamming (V k)) = n) by (rewrite map_length; exact L1). split; [apply add64_len; auto|].
  rewrite popk_S by lia. eapply eqm_trans; [apply add64_sum; congruence|]. apply eqm_add; [exact HE|apply eqm_refl].
Qed.
Theorem vpopcount_ok get size R V M : supplies get 8 size R V -> 0 <= size -> R 0 M -> popk V size < 2 ^ 64 ->
  exists M', vpopcount get M size = Some (M', popk V size) /\ R size M'.
Proof.
  intros HS Hz HR HB. pose proof (popk_nonneg V size). set (limit := size - size mod 4). pose proof (Z.mod_pos_bound size 4 ltac:(lia)) as Hm.
  assert (HL : 0 <= limit <= size) by (pose proof (Z.mod_le size 4); unfold limit; lia). unfold vpopcount. fold limit.
  destruct (upto_inv (vp_inv 8 V R) (vp_block get) 4 limit ltac:(lia)) with (fuel := Z.to_nat size) (i := 0) (s := (M, repeat 0 8)) as (s1 & E1 & I1).
  - intros i s Hi Hl Hp. unfold vp_block.
    destruct (vp_one_ok get 8 size R V i s HS ltac:(lia) Hp) as (sa & Ea & Ia). rewrite Ea. cbn [obind].
    destruct (vp_one_ok get 8 size R V (i + 1) sa HS ltac:(lia) Ia) as (sb & Eb & Ib). rewrite Eb. cbn [obind].
    replace (i + 1 + 1) with (i + 2) in Ib by lia.
    destruct (vp_one_ok get 8 size R V (i + 2) sb HS ltac:(lia) Ib) as (sc & Ec & Ic). rewrite Ec. cbn [obind].
    replace (i + 2 + 1) with (i + 3) in Ic by lia. replace (i + 4) with (i + 3 + 1) by lia. apply (vp_one_ok get 8 size R V); auto; lia.
  - lia.
  - rewrite Z.sub_0_r. unfold limit. rewrite Zminus_mod, Z.mod_mod, Z.sub_diag by lia. reflexivity.
  - lia.
  - split; [exact HR|]. split; [reflexivity|]. apply eqm_refl.
  - rewrite E1. cbn [obind].
    destruct (upto_inv (vp_inv 8 V R) (vp_one get) 1 size ltac:(lia)) with (fuel := Z.to_nat size) (i := limit) (s := s1) as ((M2 & t2) & E2 & R2 & K2 & HT).
    + intros i s Hi Hl Hp. apply (vp_one_ok get 8 size R V); auto; lia.
    + lia.
    + apply Z.mod_1_r.
    + lia.
    + exact I1.
    + rewrite E2. cbn [obind]. cbn [fst snd] in *. exists M2. split; [|exact R2]. f_equal. f_equal. apply eqm_eq; [|apply sum8_range|lia].
      eapply eqm_trans; [apply sum8_eqm; exact K2|exact HT].
Qed.

(** ** The three sources *)
Lemma map2_app f a b c d : length a = length c -> map2 f (a ++ b) (c ++ d) = map2 f a c ++ map2 f b d.
Proof. revert c. induction a as [|x a IH]; intros [|y c] H; cbn in H; try lia; [reflexivity|]. cbn [app map2]. rewrite IH by lia. reflexivity. Qed.
Lemma pop_app a b : pop (a ++ b) = pop a + pop b.
Proof. unfold pop. rewrite map_app. apply zsum_app. Qed.
Lemma win_len M p n : 0 <= p -> 0 <= n -> p + n <= zlen M -> length (win M p n) = Z.to_nat n.
Proof. intros. pose proof (win_zlen M p n H H0 H1). unfold zlen in *. lia. Qed.
Definition V1 (M : memory) (n p : Z) : Z -> vec := fun k => win M (p + n * k) n.
Definition V2 (M : memory) (n : Z) (f : Z -> Z -> Z) (p q : Z) : Z -> vec := fun k => map2 f (win M (p + n * k) n) (win M (q + n * k) n).
Lemma popk_V1 M n p k : 0 < n -> 0 <= p -> 0 <= k -> p + n * k <= zlen M -> popk (V1 M n p) k = pop (win M p (n * k)).
Proof.
  intros Hn Hp Hk. pattern k. revert k Hk. apply natlike_ind.
  - intros _. rewrite Z.mul_0_r, win_0. reflexivity.
  - intros k Hk IH Hl. unfold Z.succ in *. rewrite popk_S by lia. replace (n * (k + 1)) with (n * k + n) by lia. rewrite win_app, pop_app by nia.
    rewrite IH by nia. reflexivity.
Qed.
Lemma V2_app M n f p q k : 0 < n -> 0 <= p -> 0 <= q -> 0 <= k -> p + n * (k + 1) <= zlen M -> q + n * (k + 1) <= zlen M ->
  map2 f (win M p (n * (k + 1))) (win M q (n * (k + 1))) = map2 f (win M p (n * k)) (win M q (n * k)) ++ V2 M n f p q k.
Proof.
  intros. replace (n * (k + 1)) with (n * k + n) by lia. rewrite !win_app by nia. apply map2_app. rewrite !win_len by nia. reflexivity.
Qed.
Lemma popk_V2 M n f p q k : 0 < n -> 0 <= p -> 0 <= q -> 0 <= k -> p + n * k <= zlen M -> q + n * k <= zlen M ->
  popk (V2 M n f p q) k = pop (map2 f (win M p (n * k)) (win M q (n * k))).
Proof.
  intros Hn Hp Hq Hk. pattern k. revert k Hk. apply natlike_ind.
  - intros _ _. rewrite Z.mul_0_r, !win_0. reflexivity.
  - intros k Hk IH Hl Hl'. unfold Z.succ in *. rewrite popk_S by lia. rewrite V2_app, pop_app by lia. rewrite IH by nia. reflexivity.
Qed.
Lemma V2_len M n f p q k : 0 < n -> 0 <= p -> 0 <= q -> 0 <= k -> p + n * (k + 1) <= zlen M -> q + n * (k + 1) <= zlen M -> length (V2 M n f p q k) = Z.to_nat n.
Proof. intros. apply len_map2; apply win_len; nia. Qed.
Lemma supplies1 M n p size : 0 < n -> 0 <= p -> p + n * size <= zlen M -> supplies (reg1 n p) (Z.to_nat n) size (fun _ M' => M' = M) (V1 M n p).
Proof.
  intros Hn Hp Hl k M' Hk ->. exists M. unfold reg1. rewrite ldn_ok by nia. split; [reflexivity|]. split; [reflexivity|]. apply win_len; nia.
Qed.
Lemma supplies2 M n f p q size : 0 < n -> 0 <= p -> 0 <= q -> p + n * size <= zlen M -> q + n * size <= zlen M ->
  supplies (reg2 n f p q) (Z.to_nat n) size (fun _ M' => M' = M) (V2 M n f p q).
Proof.
  intros Hn Hp Hq Hl Hl' k M' Hk ->. exists M. unfold reg2. rewrite !ldn_ok by nia. split; [reflexivity|]. split; [reflexivity|]. apply V2_len; nia.
Qed.
(** [out] is one of the operands or apart from it *)
Definition clear_of (out p len : Z) : Prop := out = p \/ out + len <= p \/ p + len <= out.
(** the first [n k] words have been written *)
Definition written (M : memory) (n : Z) (f : Z -> Z -> Z) (p q out k : Z) (M' : memory) : Prop :=
  same_out M M' out (out + n * k) /\ win M' out (n * k) = map2 f (win M p (n * k)) (win M q (n * k)).
Lemma written_win M n f p q out k M' x len : 0 < n -> 0 <= k -> n * (k + 1) <= len -> 0 <= x -> x + len <= zlen M -> clear_of out x len ->
  written M n f p q out k M' -> win M' (x + n * k) n = win M (x + n * k) n.
Proof. intros Hn Hk Hl Hx Hb Hc [S1 _]. eapply same_win; [exact S1|..]; unfold clear_of in Hc; nia. Qed.
Lemma written_store M n f p q out k M' len : 0 < n -> 0 <= k -> n * (k + 1) <= len -> 0 <= p -> 0 <= q -> 0 <= out ->
  p + len <= zlen M -> q + len <= zlen M -> out + len <= zlen M -> written M n f p q out k M' ->
  exists M'', stn M' (out + n * k) (V2 M n f p q k) = Some M'' /\ written M n f p q out (k + 1) M''.
Proof.
  intros Hn Hk Hl Hp Hq Ho Bp Bq Bo (S1 & W1). assert (LV := V2_len M n f p q k Hn Hp Hq Hk ltac:(lia) ltac:(lia)).
  assert (LZ : zlen (V2 M n f p q k) = n) by (unfold zlen; rewrite LV; lia). assert (LM := proj1 S1).
  destruct (stn_ok M' (out + n * k) (V2 M n f p q k)) as (M2 & E & S2 & W2); [nia|nia|]. rewrite LZ in *. exists M2. split; [exact E|]. split.
  - eapply same_trans; [exact S1|exact S2|nia..].
  - rewrite V2_app by nia. replace (n * (k + 1)) with (n * k + n) by lia. destruct S2 as [L2 S2]. rewrite win_app by nia. rewrite W2, <- W1. f_equal.
    eapply same_win; [split; [exact L2|exact S2]|nia..].
Qed.
Lemma supplies3 M n f p q out size : 0 < n -> 0 <= p -> 0 <= q -> 0 <= out -> p + n * size <= zlen M -> q + n * size <= zlen M -> out + n * size <= zlen M ->
  clear_of out p (n * size) -> clear_of out q (n * size) ->
  supplies (reg3 n f p q out) (Z.to_nat n) size (written M n f p q out) (V2 M n f p q).
Proof.
  intros Hn Hp Hq Ho Bp Bq Bo Cp Cq k M' Hk HW. assert (LM := proj1 (proj1 HW)).
  destruct (written_store M n f p q out k M' (n * size)) as (M2 & E & W2); try nia; [exact HW|]. exists M2. unfold reg3. rewrite !ldn_ok by nia. cbn [obind].
  rewrite (written_win M n f p q out k M' p (n * size)), (written_win M n f p q out k M' q (n * size)) by (assumption || nia).
  fold (V2 M n f p q k). cbv zeta. rewrite E. cbn [obind]. split; [reflexivity|]. split; [exact W2|]. apply V2_len; nia.
Qed.
Lemma written_0 M n f p q out : written M n f p q out 0 M.
Proof. unfold written. rewrite Z.mul_0_r. split; [apply same_refl|reflexivity]. Qed.

(** ** Containers *)
Lemma pop_bound v : 0 <= pop v <= 64 * zlen v.
Proof. unfold pop. induction v as [|x v IH]; [split; discriminate|]. cbn [map zsum]. rewrite zlen_cons. pose proof (hamming_bound x). lia. Qed.
Lemma int32_small x : 0 <= x <= 65536 -> int32 x = x.
Proof. intros. unfold int32. rewrite Z.mod_small by lia. replace (x <? 2 ^ 31) with true by lia. reflexivity. Qed.
Lemma map2_swap f g a b : (forall x y, f x y = g y x) -> map2 f a b = map2 g b a.
Proof. intros H. revert b. induction a as [|x a IH]; intros [|y b]; cbn [map2]; try reflexivity. rewrite H, IH. reflexivity. Qed.
Lemma intrinsic_swap o x y : avx_intrinsic o x y = opsymbol o y x.
Proof. destruct o; [apply Z.lor_comm|apply Z.land_comm|apply Z.lxor_comm|apply Z.land_comm]. Qed.
Lemma map2_intrinsic o a b : map2 (avx_intrinsic o) a b = map2 (opsymbol o) b a.
Proof. apply map2_swap. apply intrinsic_swap. Qed.
Lemma V2_swap o M n p q k : V2 M n (avx_intrinsic o) p q k = V2 M n (opsymbol o) q p k.
Proof. apply map2_intrinsic. Qed.
Lemma op_len o M p q : 0 <= p -> 0 <= q -> p + 1024 <= zlen M -> q + 1024 <= zlen M -> zlen (map2 (opsymbol o) (win M p 1024) (win M q 1024)) = 1024.
Proof. intros. rewrite zlen_map2; rewrite !win_zlen by lia; reflexivity. Qed.
Ltac bound1024 L := match goal with |- context [pop ?v] => pose proof (pop_bound v) end; rewrite ?L in *.

Lemma one_word M f p q k : 0 <= p -> 0 <= q -> 0 <= k -> p + k < zlen M -> q + k < zlen M -> V2 M 1 f p q k = [f (znth M (p + k)) (znth M (q + k))].
Proof.
  intros. unfold V2. rewrite !(win_cons M _ 1) by lia. rewrite !win_0. cbn [map2]. f_equal; f_equal; f_equal; lia.
Qed.
Lemma scalar_read M f p q out k M' x i : 0 <= k -> k <= i -> i < 1024 -> 0 <= x -> x + 1024 <= zlen M -> clear_of out x 1024 ->
  written M 1 f p q out k M' -> rd M' (x + i) = Some (znth M (x + i)).
Proof.
  intros Hk Hi Hb Hx Hl Hc [[L S1] _]. rewrite rd_ok by lia. f_equal. apply S1; [lia|]. unfold clear_of in Hc. lia.
Qed.
Definition op_result (M : memory) (o : bop) (p q out : Z) (M' : memory) : Prop :=
  same_out M M' out (out + 1024) /\ win M' out 1024 = map2 (opsymbol o) (win M p 1024) (win M q 1024).
Definition op_count (M : memory) (o : bop) (p q : Z) : Z := pop (map2 (opsymbol o) (win M p 1024) (win M q 1024)).
Definition op_ready (M : memory) (p q out : Z) : Prop :=
  0 <= p /\ 0 <= q /\ 0 <= out /\ p + 1024 <= zlen M /\ q + 1024 <= zlen M /\ out + 1024 <= zlen M /\ clear_of out p 1024 /\ clear_of out q 1024.
Lemma op_count_bound M o p q : 0 <= p -> 0 <= q -> p + 1024 <= zlen M -> q + 1024 <= zlen M -> 0 <= op_count M o p q <= 65536.
Proof. intros. unfold op_count. pose proof (pop_bound (map2 (opsymbol o) (win M p 1024) (win M q 1024))) as P. rewrite op_len in P by auto. lia. Qed.
Theorem container_op_mem_ok c o M p q out : op_ready M p q out ->
  exists M', container_op_mem c o M p q out = Some (M', op_count M o p q) /\ op_result M o p q out M'.
Proof.
  intros (Hp & Hq & Ho & Bp & Bq & Bo & Cp & Cq). pose proof (op_count_bound M o p q Hp Hq Bp Bq) as HB. destruct c; unfold container_op_mem.
  - unfold scalar_op. set (f := opsymbol o).
    destruct (upto_inv (fun k (s : memory * Z) => written M 1 f p q out k (fst s) /\ snd s = popk (V2 M 1 f p q) k) (scalar_block f p q out) 2 1024 ltac:(lia))
      with (fuel := Z.to_nat 1024) (i := 0) (s := (M, 0)) as ((M1 & s1) & E1 & W1 & N1).
    + intros i [Mi si] Hi Hl [HW HN]. cbn [fst snd] in *. unfold scalar_block.
      rewrite (scalar_read M f p q out i Mi p i), (scalar_read M f p q out i Mi q i), (scalar_read M f p q out i Mi p (i + 1)), (scalar_read M f p q out i Mi q (i + 1)) by (auto; lia).
      cbn [obind]. destruct (written_store M 1 f p q out i Mi 1024) as (Ma & Ea & Wa); try lia; [exact HW|]. rewrite one_word in Ea by lia. unfold wr. rewrite Z.mul_1_l in Ea. rewrite Ea. cbn [obind].
      destruct (written_store M 1 f p q out (i + 1) Ma 1024) as (Mb & Eb & Wb); try lia; [exact Wa|]. rewrite one_word in Eb by lia. rewrite Z.mul_1_l in Eb. rewrite Eb. cbn [obind].
      eexists. split; [reflexivity|]. cbn [fst snd]. replace (i + 2) with (i + 1 + 1) by lia. split; [exact Wb|]. rewrite !popk_S, !one_word by lia. unfold pop. cbn [map zsum]. lia.
    + lia.
    + reflexivity.
    + lia.
    + split; [apply written_0|reflexivity].
    + exists M1. cbn [fst snd] in *. rewrite E1, N1. rewrite popk_V2 by lia. rewrite Z.mul_1_l. split; [reflexivity|]. exact W1.
  - change (1024 / 4) with 256.
    destruct (harley_seal_ok (reg3 4 (avx_intrinsic o) q p out) 256 (written M 4 (avx_intrinsic o) q p out) (V2 M 4 (avx_intrinsic o) q p) M) as (M' & E & W).
    + apply (supplies3 M 4 (avx_intrinsic o) q p out 256); auto; lia.
    + lia.
    + apply written_0.
    + rewrite popk_V2 by lia. rewrite map2_intrinsic. change (4 * 256) with 1024. fold (op_count M o p q). lia.
    + rewrite E. cbn [obind]. rewrite popk_V2 by lia. destruct W as [W1 W2]. change (4 * 256) with 1024 in *. rewrite map2_intrinsic in *. fold (op_count M o p q).
      rewrite int32_small by lia. exists M'. split; [reflexivity|]. split; [exact W1|exact W2].
  - change (1024 / 8) with 128.
    destruct (vpopcount_ok (reg3 8 (avx_intrinsic o) q p out) 128 (written M 8 (avx_intrinsic o) q p out) (V2 M 8 (avx_intrinsic o) q p) M) as (M' & E & W).
    + apply (supplies3 M 8 (avx_intrinsic o) q p out 128); auto; lia.
    + lia.
    + apply written_0.
    + rewrite popk_V2 by lia. rewrite map2_intrinsic. change (8 * 128) with 1024. fold (op_count M o p q). lia.
    + rewrite E. cbn [obind]. rewrite popk_V2 by lia. destruct W as [W1 W2]. change (8 * 128) with 1024 in *. rewrite map2_intrinsic in *. fold (op_count M o p q).
      rewrite int32_small by lia. exists M'. split; [reflexivity|]. split; [exact W1|exact W2].
Qed.
Lemma simd_nocard_ok n o M p q out : 0 < n -> n * (1024 / n) = 1024 -> (1024 / n) mod 8 = 0 -> op_ready M p q out ->
  exists M', simd_nocard n o M p q out = Some (M', -1) /\ op_result M o p q out M'.
Proof.
  intros Hn H1 H2 (Hp & Hq & Ho & Bp & Bq & Bo & Cp & Cq). unfold simd_nocard. set (size := 1024 / n) in *.
  assert (HS : supplies (reg3 n (avx_intrinsic o) q p out) (Z.to_nat n) size (written M n (avx_intrinsic o) q p out) (V2 M n (avx_intrinsic o) q p)).
  { apply supplies3; try lia; rewrite H1; auto. }
  assert (ST : forall i Mi, 0 <= i < size -> written M n (avx_intrinsic o) q p out i Mi -> exists Mj, nocard_one (reg3 n (avx_intrinsic o) q p out) i Mi = Some Mj /\ written M n (avx_intrinsic o) q p out (i + 1) Mj).
  { intros i Mi Hi HW. destruct (HS i Mi Hi HW) as (Mj & E & W & _). exists Mj. unfold nocard_one. rewrite E. auto. }
  assert (0 <= size) by nia.
  destruct (upto_inv (written M n (avx_intrinsic o) q p out) (nocard_block (reg3 n (avx_intrinsic o) q p out)) 8 size ltac:(lia)) with (fuel := Z.to_nat size) (i := 0) (s := M) as (M1 & E1 & W1).
  - intros i Mi Hi Hl HW. unfold nocard_block.
    destruct (ST i Mi ltac:(lia) HW) as (Ma & Ea & Wa). rewrite Ea. cbn [obind].
    destruct (ST (i + 1) Ma ltac:(lia) Wa) as (Mb & Eb & Wb). rewrite Eb. cbn [obind]. replace (i + 1 + 1) with (i + 2) in * by lia.
    destruct (ST (i + 2) Mb ltac:(lia) Wb) as (Mc & Ec & Wc). rewrite Ec. cbn [obind]. replace (i + 2 + 1) with (i + 3) in * by lia.
    destruct (ST (i + 3) Mc ltac:(lia) Wc) as (Md & Ed & Wd). rewrite Ed. cbn [obind]. replace (i + 3 + 1) with (i + 4) in * by lia.
    destruct (ST (i + 4) Md ltac:(lia) Wd) as (Me & Ee & We). rewrite Ee. cbn [obind]. replace (i + 4 + 1) with (i + 5) in * by lia.
    destruct (ST (i + 5) Me ltac:(lia) We) as (Mf & Ef & Wf). rewrite Ef. cbn [obind]. replace (i + 5 + 1) with (i + 6) in * by lia.
    destruct (ST (i + 6) Mf ltac:(lia) Wf) as (Mg & Eg & Wg). rewrite Eg. cbn [obind]. replace (i + 6 + 1) with (i + 7) in * by lia.
    replace (i + 8) with (i + 7 + 1) by lia. apply ST; [lia|exact Wg].
  - lia.
  - rewrite Z.sub_0_r. exact H2.
  - lia.
  - apply written_0.
  - rewrite E1. cbn [obind]. exists M1. split; [reflexivity|]. destruct W1 as [W1 W2]. rewrite H1, map2_intrinsic in *. split; [exact W1|exact W2].
Qed.
Theorem container_op_nocard_mem_ok c o M p q out : op_ready M p q out ->
  exists M', container_op_nocard_mem c o M p q out = Some (M', -1) /\ op_result M o p q out M'.
Proof.
  intros HR. destruct c; unfold container_op_nocard_mem; [|apply simd_nocard_ok; auto; reflexivity..].
  destruct HR as (Hp & Hq & Ho & Bp & Bq & Bo & Cp & Cq). unfold scalar_nocard. set (f := opsymbol o).
  destruct (upto_inv (written M 1 f p q out) (fun i M0 => do a <- rd M0 (p + i); do b <- rd M0 (q + i); wr M0 (out + i) (f a b)) 1 1024 ltac:(lia)) with (fuel := Z.to_nat 1024) (i := 0) (s := M) as (M1 & E1 & W1).
  - intros i Mi Hi Hl HW. rewrite (scalar_read M f p q out i Mi p i), (scalar_read M f p q out i Mi q i) by (auto; lia). cbn [obind].
    destruct (written_store M 1 f p q out i Mi 1024) as (Ma & Ea & Wa); try lia; [exact HW|]. rewrite one_word in Ea by lia. unfold wr. rewrite Z.mul_1_l in Ea. rewrite Ea. exists Ma. auto.
  - lia.
  - reflexivity.
  - lia.
  - apply written_0.
  - rewrite E1. cbn [obind]. exists M1. split; [reflexivity|]. exact W1.
Qed.
Theorem container_op_justcard_mem_ok c o M p q : 0 <= p -> 0 <= q -> p + 1024 <= zlen M -> q + 1024 <= zlen M ->
  container_op_justcard_mem c o M p q = Some (op_count M o p q).
Proof.
  intros Hp Hq Bp Bq. pose proof (op_count_bound M o p q Hp Hq Bp Bq) as HB. destruct c; unfold container_op_justcard_mem.
  - unfold scalar_justcard. set (f := opsymbol o). match goal with |- upto _ _ ?b _ _ _ = _ => set (body := b) end.
    destruct (upto_inv (fun k s => s = popk (V2 M 1 f p q) k) body 2 1024 ltac:(lia)) with (fuel := Z.to_nat 1024) (i := 0) (s := 0) as (s1 & E1 & N1).
    + intros i s Hi Hl ->. unfold body. rewrite !rd_ok by lia. cbn [obind]. eexists. split; [reflexivity|]. replace (i + 2) with (i + 1 + 1) by lia. rewrite !popk_S, !one_word by lia. unfold pop. cbn [map zsum]. lia.
    + lia.
    + reflexivity.
    + lia.
    + reflexivity.
    + rewrite E1, N1. rewrite popk_V2 by lia. rewrite Z.mul_1_l. reflexivity.
  - change (1024 / 4) with 256.
    destruct (harley_seal_ok (reg2 4 (avx_intrinsic o) q p) 256 (fun _ M' => M' = M) (V2 M 4 (avx_intrinsic o) q p) M) as (M' & E & W).
    + apply (supplies2 M 4 (avx_intrinsic o) q p 256); lia.
    + lia.
    + reflexivity.
    + rewrite popk_V2 by lia. rewrite map2_intrinsic. change (4 * 256) with 1024. fold (op_count M o p q). lia.
    + rewrite E. cbn [obind]. rewrite popk_V2 by lia. change (4 * 256) with 1024. rewrite map2_intrinsic. fold (op_count M o p q). rewrite int32_small by lia. reflexivity.
  - change (1024 / 8) with 128.
    destruct (vpopcount_ok (reg2 8 (avx_intrinsic o) q p) 128 (fun _ M' => M' = M) (V2 M 8 (avx_intrinsic o) q p) M) as (M' & E & W).
    + apply (supplies2 M 8 (avx_intrinsic o) q p 128); lia.
    + lia.
    + reflexivity.
    + rewrite popk_V2 by lia. rewrite map2_intrinsic. change (8 * 128) with 1024. fold (op_count M o p q). lia.
    + rewrite E. cbn [obind]. rewrite popk_V2 by lia. change (8 * 128) with 1024. rewrite map2_intrinsic. fold (op_count M o p q). rewrite int32_small by lia. reflexivity.
Qed.
Theorem container_cardinality_mem_ok c M p : 0 <= p -> p + 1024 <= zlen M -> container_cardinality_mem c M p = Some (pop (win M p 1024)).
Proof.
  intros Hp Bp. pose proof (pop_bound (win M p 1024)) as HB. rewrite win_zlen in HB by lia. destruct c; unfold container_cardinality_mem.
  - unfold scalar_cardinality. match goal with |- upto _ _ ?b _ _ _ = _ => set (body := b) end.
    assert (ONE : forall k, 0 <= k < 1024 -> pop (V1 M 1 p k) = hamming (znth M (p + k))).
    { intros k Hk. unfold V1. rewrite win_cons by lia. rewrite win_0. unfold pop. cbn [map zsum]. rewrite Z.mul_1_l. lia. }
    destruct (upto_inv (fun k s => s = popk (V1 M 1 p) k) body 4 1024 ltac:(lia)) with (fuel := Z.to_nat 1024) (i := 0) (s := 0) as (s1 & E1 & N1).
    + intros i s Hi Hl ->. unfold body. rewrite !rd_ok by lia. cbn [obind]. eexists. split; [reflexivity|]. replace (i + 4) with (i + 1 + 1 + 1 + 1) by lia. rewrite !popk_S, !ONE by lia.
      replace (p + (i + 1 + 1 + 1)) with (p + (i + 3)) by lia. replace (p + (i + 1 + 1)) with (p + (i + 2)) by lia. lia.
    + lia.
    + reflexivity.
    + lia.
    + reflexivity.
    + rewrite E1, N1. rewrite popk_V1 by lia. rewrite Z.mul_1_l. reflexivity.
  - change (1024 / 4) with 256.
    destruct (harley_seal_ok (reg1 4 p) 256 (fun _ M' => M' = M) (V1 M 4 p) M) as (M' & E & W).
    + apply (supplies1 M 4 p 256); lia.
    + lia.
    + reflexivity.
    + rewrite popk_V1 by lia. change (4 * 256) with 1024. lia.
    + rewrite E. cbn [obind]. rewrite popk_V1 by lia. change (4 * 256) with 1024. rewrite int32_small by lia. reflexivity.
  - change (1024 / 8) with 128.
    destruct (vpopcount_ok (reg1 8 p) 128 (fun _ M' => M' = M) (V1 M 8 p) M) as (M' & E & W).
    + apply (supplies1 M 8 p 128); lia.
    + lia.
    + reflexivity.
    + rewrite popk_V1 by lia. change (8 * 128) with 1024. lia.
    + rewrite E. cbn [obind]. rewrite popk_V1 by lia. change (8 * 128) with 1024. rewrite int32_small by lia. reflexivity.
Qed.
