(** SimdE: writing the elements of a container out as numbers: the scalar, AVX2, AVX-512 and SSE versions of
    bitset_extract_setbits, and the conversions of array containers, with their output buffers. *)
From Verif Require Import Base BitUtil SimdTab ArrayUtil Simd SimdM SimdU.

(** ** Model *)
(** The words are only read and lie outside the output buffer; the memory consists of cells of uint32_t
    ([W] = 2^32) or of uint16_t ([W] = 2^16).
    _mm256_add_epi32, _mm_add_epi16, _mm512_add_epi32, _mm512_add_epi16 *)
Definition vaddw (W : Z) (a b : vec) : vec := map2 (fun x y => (x + y) mod W) a b.
Definition row8 (tab : list Z) (b : Z) : vec := win tab (8 * b) 8.
(** bitset_util.c:697-716 (AVX2) and 801-820 (SSE): for (k = 0; k < 4; ++k), the two bytes of one round *)
Fixpoint ex_bytes (k : nat) (W : Z) (tab : list Z) (M : memory) (out : Z) (baseVec : vec) (w : Z) : option (memory * Z * vec) :=
  match k with
  | O => Some (M, out, baseVec)
  | S k' =>
    let byteA := w mod 256 in
    let byteB := Z.shiftr w 8 mod 256 in
    let w := Z.shiftr w 16 in
    let vecA := row8 tab byteA in
    let vecB := row8 tab byteB in
    let advanceA := znth lengthTable byteA in
    let advanceB := znth lengthTable byteB in
    let vecA := vaddw W baseVec vecA in
    let baseVec := vaddw W baseVec (repeat 8 8) in
    let vecB := vaddw W baseVec vecB in
    let baseVec := vaddw W baseVec (repeat 8 8) in
    do M <- stn M out vecA;
    let out := out + advanceA in
    do M <- stn M out vecB;
    let out := out + advanceB in
    ex_bytes k' W tab M out baseVec w
  end.
(** bitset_util.c:691-718 and 795-822, the main loop; [guard] is 64 and 16; gives the words from i on *)
Fixpoint ex_loop (W : Z) (tab : list Z) (guard : Z) (M : memory) (out safeout : Z) (baseVec : vec) (ws : list Z) : option (memory * Z * list Z) :=
  match ws with
  | [] => Some (M, out, [])
  | w :: ws' =>
    if out + guard <=? safeout then
      if w =? 0 then ex_loop W tab guard M out safeout (vaddw W baseVec (repeat 64 8)) ws'
      else do (M, out, baseVec) <- ex_bytes 4 W tab M out baseVec w; ex_loop W tab guard M out safeout baseVec ws'
    else Some (M, out, ws)
  end.
(** bitset_util.c:612-625, 662-673, 719-731 and 823-833, the last loop *)
Fixpoint et_word (fuel : nat) (W : Z) (M : memory) (out safeout w base : Z) : option (memory * Z) :=
  match fuel with
  | O => if w =? 0 then Some (M, out) else None
  | S f =>
    if negb (w =? 0) && (out <? safeout) then
      do M <- wr M out ((ctz w + base) mod W); et_word f W M (out + 1) safeout (Z.land w (w - 1)) base
    else Some (M, out)
  end.
Fixpoint et_loop (W : Z) (M : memory) (out safeout base : Z) (ws : list Z) : option (memory * Z) :=
  match ws with
  | [] => Some (M, out)
  | w :: ws' =>
    if out <? safeout then
      match et_word (Z.to_nat (hamming w)) W M out safeout w base with Some (M, out) => et_loop W M out safeout ((base + 64) mod W) ws' | None => None end
    else Some (M, out)
  end.
Definition ex_table (W : Z) (tab : list Z) (guard : Z) (M : memory) (ws : list Z) (out outcapacity base : Z) : option (memory * Z) :=
  let initout := out in
  let safeout := out + outcapacity in
  do (M, out, rest) <- ex_loop W tab guard M out safeout (repeat ((base - 1) mod W) 8) ws;
  let i := zlen ws - zlen rest in
  do (M, out) <- et_loop W M out safeout ((base + i * 64) mod W) rest;
  Some (M, out - initout).
(** bitset_util.c:681-733 bitset_extract_setbits_avx2 *)
Definition bitset_extract_setbits_avx2 := ex_table (2 ^ 32) vecDecodeTable 64.
(** bitset_util.c:785-836 bitset_extract_setbits_sse_uint16 *)
Definition bitset_extract_setbits_sse_uint16 := ex_table (2 ^ 16) vecDecodeTable_uint16 16.
(** _mm512_maskz_compress_epi8: the bytes of [v] whose mask bit is set, then zeros *)
Definition compress8 (m : Z) (v : list Z) : list Z :=
  let s := map snd (filter (fun p => Z.testbit m (fst p)) (combine (zr 0 64) v)) in s ++ repeat 0 (64 - length s).
(** _mm512_cvtepi8_epi32, _mm512_cvtepi8_epi16: sign extension *)
Definition sext8 (W x : Z) : Z := (if x <? 128 then x else x - 256) mod W.
(** bitset_util.c:586-610 and 643-660: the main loop; [width] is the number of lanes of one store, 16 or 32 *)
Fixpoint ez_store (n : nat) (width W : Z) (M : memory) (out vbase : Z) (v : list Z) : option memory :=
  match n with
  | O => Some M
  | S n' =>
    do M <- stn M out (map (fun x => (sext8 W x + vbase) mod W) (firstn (Z.to_nat width) v));
    ez_store n' width W M (out + width) vbase (skipn (Z.to_nat width) v)
  end.
Fixpoint ez_loop (W width : Z) (M : memory) (out safeout i base : Z) (ws : list Z) : option (memory * Z * list Z) :=
  match ws with
  | [] => Some (M, out, [])
  | v :: ws' =>
    if out + 64 <? safeout then
      let vec := compress8 v vbmi2_table in
      let advance := hamming v mod 256 in
      let vbase := (base + i * 64) mod W in
      do M <- ez_store (Z.to_nat (64 / width)) width W M out vbase vec;
      ez_loop W width M (out + advance) safeout (i + 1) base ws'
    else Some (M, out, ws)
  end.
Definition ex_compress (W width : Z) (M : memory) (ws : list Z) (out outcapacity base : Z) : option (memory * Z) :=
  let initout := out in
  let safeout := out + outcapacity in
  do (M, out, rest) <- ez_loop W width M out safeout 0 base ws;
  let i := zlen ws - zlen rest in
  do (M, out) <- et_loop W M out safeout ((base + i * 64) mod W) rest;
  Some (M, out - initout).
(** bitset_util.c:576-628 bitset_extract_setbits_avx512; 632-676 bitset_extract_setbits_avx512_uint16 *)
Definition bitset_extract_setbits_avx512 := ex_compress (2 ^ 32) 16.
Definition bitset_extract_setbits_avx512_uint16 := ex_compress (2 ^ 16) 32.
(** bitset_util.c:737-755 bitset_extract_setbits; 847-861 bitset_extract_setbits_uint16: no capacity *)
Fixpoint es_word (fuel : nat) (W : Z) (M : memory) (out w base : Z) : option (memory * Z) :=
  match fuel with
  | O => if w =? 0 then Some (M, out) else None
  | S f => if negb (w =? 0) then do M <- wr M out ((ctz w + base) mod W); es_word f W M (out + 1) (Z.land w (w - 1)) base else Some (M, out)
  end.
Fixpoint es_loop (W : Z) (M : memory) (out base : Z) (ws : list Z) : option (memory * Z) :=
  match ws with
  | [] => Some (M, out)
  | w :: ws' => match es_word (Z.to_nat (hamming w)) W M out w base with Some (M, out) => es_loop W M out ((base + 64) mod W) ws' | None => None end
  end.
Definition ex_scalar (W : Z) (M : memory) (ws : list Z) (out base : Z) : option (memory * Z) :=
  do (M, e) <- es_loop W M out base ws; Some (M, e - out).
(** bitset.c:932-955 bitset_container_to_uint32_array *)
Definition bitset_to_uint32_mem (avx512 avx2 : bool) (M : memory) (ws : list Z) (cardinality out base : Z) : option (memory * Z) :=
  if avx512 && (8192 <=? cardinality) then bitset_extract_setbits_avx512 M ws out cardinality base
  else if avx2 && (8192 <=? cardinality) then bitset_extract_setbits_avx2 M ws out cardinality base
  else ex_scalar (2 ^ 32) M ws out base.
(** convert.c:55-80 array_container_from_bitset, writing to the block at [out] *)
Definition array_from_bitset_mem (avx512 : bool) (M : memory) (ws : list Z) (cardinality out : Z) : option (memory * Z) :=
  if avx512 then bitset_extract_setbits_avx512_uint16 M ws out cardinality 0 else ex_scalar (2 ^ 16) M ws out 0.
(** array_util.c:463-485 array_container_to_uint32_array_vector16 ([width] 8) and 2140-2160
    avx512_array_container_to_uint32_array ([width] 16); the array, whose elements from i on are [a], is in other memory *)
Fixpoint tu_loop (fuel : nat) (width : Z) (M : memory) (a : list Z) (out base : Z) : option (memory * Z) :=
  match fuel with
  | O => None
  | S f =>
    if width <=? zlen a then
      do M <- stn M out (map (fun x => (x + base) mod 2 ^ 32) (firstn (Z.to_nat width) a)); tu_loop f width M (skipn (Z.to_nat width) a) (out + width) base
    else match a with
         | [] => Some (M, out)
         | x :: a' => do M <- wr M out ((base + x) mod 2 ^ 32); tu_loop f width M a' (out + 1) base
         end
  end.
(** array.c:399-425 array_container_to_uint32_array; the scalar loop is the case of width 1 *)
Definition array_to_uint32_mem (avx512 avx2 : bool) (M : memory) (a : list Z) (out base : Z) : option (memory * Z) :=
  do (M, e) <- tu_loop (S (length a)) (if avx512 then 16 else if avx2 then 8 else 1) M a out base; Some (M, e - out).

(** * Proofs *)
Local Opaque zr.
(** the list L has been written at out, with scratch stores up to hi *)
Definition adds (M : memory) (out : Z) (M' : memory) (out' : Z) (L : list Z) (hi : Z) : Prop :=
  same_out M M' out hi /\ out' = out + zlen L /\ win M' out (zlen L) = L.
Lemma adds_nil M out hi : adds M out M out [] hi.
Proof. split; [apply same_refl|]. split; [change (zlen (@nil Z)) with 0; lia|apply win_0]. Qed.
Lemma adds_app M out M1 o1 L1 M2 o2 L2 hi : adds M out M1 o1 L1 hi -> adds M1 o1 M2 o2 L2 hi -> 0 <= out -> o2 <= zlen M -> adds M out M2 o2 (L1 ++ L2) hi.
Proof.
  intros (S1 & -> & W1) (S2 & -> & W2) H0 H1. pose proof (zlen_nonneg L1). pose proof (zlen_nonneg L2). assert (zlen M1 = zlen M) by apply S1. assert (zlen M2 = zlen M1) by apply S2.
  split; [eapply same_trans; [exact S1|exact S2|lia|lia|lia|lia]|]. rewrite zlen_app. split; [lia|]. rewrite win_app by lia. rewrite W2. f_equal.
  rewrite <- W1 at 2. eapply same_win; [exact S2|lia|lia|lia|lia].
Qed.
Lemma adds_hi M out M' o L hi hi' : adds M out M' o L hi -> hi <= hi' -> adds M out M' o L hi'.
Proof. intros (S & E & W) H. split; [eapply same_weaken; [exact S|lia|lia]|auto]. Qed.
Lemma adds_len M out M' o L hi : adds M out M' o L hi -> zlen M' = zlen M. Proof. intros ((L1 & _) & _). exact L1. Qed.
Lemma adds_store M out u pad n hi : zlen (u ++ pad) = n -> 0 <= out -> out + n <= hi -> hi <= zlen M ->
  exists M', stn M out (u ++ pad) = Some M' /\ adds M out M' (out + zlen u) u hi.
Proof.
  intros Hn H0 H1 H2. rewrite zlen_app in Hn. pose proof (zlen_nonneg u). pose proof (zlen_nonneg pad).
  destruct (stn_ok M out (u ++ pad)) as (M' & S1 & S2 & S3); [lia|rewrite zlen_app; lia|]. exists M'. split; [exact S1|]. rewrite zlen_app in S2, S3.
  assert (zlen M' = zlen M) by apply S2. split; [eapply same_weaken; [exact S2|lia|lia]|]. split; [reflexivity|].
  rewrite win_app in S3 by lia. assert (EL : length (win M' out (zlen u)) = length u) by (apply Nat2Z.inj; fold (zlen (win M' out (zlen u))); fold (zlen u); apply win_zlen; lia).
  apply (f_equal (firstn (length u))) in S3. rewrite !firstn_app in S3. rewrite EL, Nat.sub_diag in S3. cbn [firstn] in S3. rewrite !app_nil_r in S3. rewrite <- EL in S3 at 1. rewrite !firstn_all in S3. exact S3.
Qed.
(** ** the decoding tables *)
Definition b8 (b : Z) : list Z := filter (Z.testbit b) (zr 0 8).
Definition row_check (tab : list Z) (b : Z) : bool :=
  (zlen (row8 tab b) =? 8) && (znth lengthTable b =? zlen (b8 b)) &&
  (if list_eq_dec Z.eq_dec (firstn (length (b8 b)) (row8 tab b)) (map (fun p => p + 1) (b8 b)) then true else false).
Lemma rows_checked : forallb (row_check vecDecodeTable) (zr 0 256) = true /\ forallb (row_check vecDecodeTable_uint16) (zr 0 256) = true.
Proof. split; vm_compute; reflexivity. Qed.
Lemma row_ok tab b : forallb (row_check tab) (zr 0 256) = true -> 0 <= b < 256 ->
  exists pad, row8 tab b = map (fun p => p + 1) (b8 b) ++ pad /\ zlen (map (fun p => p + 1) (b8 b) ++ pad) = 8 /\ znth lengthTable b = zlen (b8 b).
Proof.
  intros H Hb. rewrite forallb_forall in H. specialize (H b (proj2 (zr_In 0 256 b) Hb)). unfold row_check in H. rewrite !andb_true_iff, !Z.eqb_eq in H. destruct H as [[H1 H2] H3].
  destruct (list_eq_dec _ _ _) as [E|]; [|discriminate]. exists (skipn (length (b8 b)) (row8 tab b)). rewrite <- E, firstn_skipn. auto.
Qed.
Lemma bits_shift w a m : 0 <= a -> 0 <= m -> filter (Z.testbit w) (zr a (a + m)) = map (fun p => p + a) (filter (Z.testbit (Z.shiftr w a)) (zr 0 m)).
Proof.
  intros Ha Hm. replace (zr a (a + m)) with (map (fun x => a + x) (zr 0 m)) by (rewrite zr_map_add; f_equal; lia).
  rewrite filter_map_comm. rewrite (filter_ext_In (fun x => Z.testbit w (a + x)) (Z.testbit (Z.shiftr w a))).
  - apply map_ext. intros; lia.
  - intros x Hx. apply zr_In in Hx. rewrite Z.shiftr_spec by lia. f_equal. lia.
Qed.
Lemma b8_mod w : b8 (w mod 256) = filter (Z.testbit w) (zr 0 8).
Proof. apply filter_ext_In. intros x Hx. apply zr_In in Hx. change 256 with (2 ^ 8). apply Z.mod_pow2_bits_low. lia. Qed.
Lemma map2_repeat f x n l : length l = n -> map2 f (repeat x n) l = map (f x) l.
Proof. revert l. induction n as [|n IH]; intros [|y l] H; try discriminate; [reflexivity|]. unfold map2 in *. cbn. f_equal. apply IH. cbn in H. lia. Qed.
Lemma vaddw_row W b l : zlen (map (fun p => p + 1) l) <= 8 -> forall pad, zlen (map (fun p => p + 1) l ++ pad) = 8 ->
  vaddw W (repeat ((b - 1) mod W) 8) (map (fun p => p + 1) l ++ pad) = map (fun p => (p + b) mod W) l ++ map (fun x => ((b - 1) mod W + x) mod W) pad.
Proof.
  intros _ pad H. unfold vaddw. rewrite map2_repeat by (unfold zlen in H; lia). rewrite map_app, map_map. f_equal. apply map_ext. intros p. rewrite Zplus_mod_idemp_l. f_equal. lia.
Qed.
Lemma vaddw_const W b k : vaddw W (repeat ((b - 1) mod W) 8) (repeat k 8) = repeat ((b + k - 1) mod W) 8.
Proof.
  unfold vaddw. rewrite map2_repeat by reflexivity. cbn [repeat map]. rewrite Zplus_mod_idemp_l. replace (b - 1 + k) with (b + k - 1) by lia. reflexivity.
Qed.
Definition lanes_of (W b : Z) (l : list Z) : list Z := map (fun p => (p + b) mod W) l.
Lemma ex_bytes_ok W tab k : forallb (row_check tab) (zr 0 256) = true -> forall M out b w hi, 0 <= w -> 0 <= out -> out + 16 * Z.of_nat k <= hi -> hi <= zlen M ->
  exists M' out', ex_bytes k W tab M out (repeat ((b - 1) mod W) 8) w = Some (M', out', repeat ((b + 16 * Z.of_nat k - 1) mod W) 8) /\
    adds M out M' out' (lanes_of W b (filter (Z.testbit w) (zr 0 (16 * Z.of_nat k)))) hi.
Proof.
  intros HT. induction k as [|k IH]; intros M out b w hi Hw H0 H1 H2.
  - exists M, out. cbn [ex_bytes]. change (16 * Z.of_nat 0) with 0. rewrite Z.add_0_r. split; [reflexivity|]. rewrite zr_nil by lia. apply adds_nil.
  - cbn [ex_bytes]. destruct (row_ok tab (w mod 256) HT) as (pA & EA & LA & NA); [apply Z.mod_pos_bound; lia|].
    destruct (row_ok tab (Z.shiftr w 8 mod 256) HT) as (pB & EB & LB & NB); [apply Z.mod_pos_bound; lia|].
    rewrite EA, EB, NA, NB. rewrite !vaddw_const. replace (b + 8 + 8 - 1) with (b + 16 - 1) by lia.
    assert (QA : zlen (map (fun p => p + 1) (b8 (w mod 256))) <= 8) by (rewrite zlen_app in LA; pose proof (zlen_nonneg pA); lia).
    assert (QB : zlen (map (fun p => p + 1) (b8 (Z.shiftr w 8 mod 256))) <= 8) by (rewrite zlen_app in LB; pose proof (zlen_nonneg pB); lia).
    rewrite (vaddw_row W b _ QA pA LA). rewrite (vaddw_row W (b + 8) _ QB pB LB). fold (lanes_of W b (b8 (w mod 256))) (lanes_of W (b + 8) (b8 (Z.shiftr w 8 mod 256))).
    assert (ZA : zlen (lanes_of W b (b8 (w mod 256))) = zlen (b8 (w mod 256))) by (unfold lanes_of, zlen; rewrite map_length; reflexivity).
    assert (ZB : zlen (lanes_of W (b + 8) (b8 (Z.shiftr w 8 mod 256))) = zlen (b8 (Z.shiftr w 8 mod 256))) by (unfold lanes_of, zlen; rewrite map_length; reflexivity).
    assert (QA' : 0 <= zlen (b8 (w mod 256)) <= 8) by (unfold zlen in QA |- *; rewrite map_length in QA; lia). assert (QB' : 0 <= zlen (b8 (Z.shiftr w 8 mod 256)) <= 8) by (unfold zlen in QB |- *; rewrite map_length in QB; lia).
    destruct (adds_store M out (lanes_of W b (b8 (w mod 256))) (map (fun x => ((b - 1) mod W + x) mod W) pA) 8 hi) as (M1 & R1 & D1); [rewrite zlen_app, ZA in *; unfold zlen in *; rewrite ?map_length in *; lia|lia|lia|lia|].
    rewrite R1. cbn [obind]. rewrite ZA in D1. pose proof (adds_len _ _ _ _ _ _ D1) as L1.
    destruct (adds_store M1 (out + zlen (b8 (w mod 256))) (lanes_of W (b + 8) (b8 (Z.shiftr w 8 mod 256))) (map (fun x => ((b + 8 - 1) mod W + x) mod W) pB) 8 hi) as (M2 & R2 & D2); [rewrite zlen_app, ZB in *; unfold zlen in *; rewrite ?map_length in *; lia|lia|lia|lia|].
    rewrite R2. cbn [obind]. rewrite ZB in D2. pose proof (adds_len _ _ _ _ _ _ D2) as L2.
    set (o2 := out + zlen (b8 (w mod 256)) + zlen (b8 (Z.shiftr w 8 mod 256))) in *.
    destruct (IH M2 o2 (b + 16) (Z.shiftr w 16) hi) as (M3 & o3 & R3 & D3); [apply Z.shiftr_nonneg; lia|lia|lia|lia|].
    exists M3, o3. replace (b + 16 * Z.of_nat (Datatypes.S k) - 1) with (b + 16 + 16 * Z.of_nat k - 1) by lia. split; [exact R3|].
    assert (EF : lanes_of W b (filter (Z.testbit w) (zr 0 (16 * Z.of_nat (Datatypes.S k)))) =
      lanes_of W b (b8 (w mod 256)) ++ lanes_of W (b + 8) (b8 (Z.shiftr w 8 mod 256)) ++ lanes_of W (b + 16) (filter (Z.testbit (Z.shiftr w 16)) (zr 0 (16 * Z.of_nat k)))).
    { rewrite (zr_app 0 8) by lia. rewrite (zr_app 8 16) by lia. rewrite !filter_app. unfold lanes_of. rewrite !map_app. rewrite !b8_mod. f_equal. f_equal.
      - change 16 with (8 + 8) at 1. rewrite bits_shift by lia. rewrite map_map. apply map_ext. intros; f_equal; lia.
      - replace (16 * Z.of_nat (Datatypes.S k)) with (16 + 16 * Z.of_nat k) by lia. rewrite bits_shift by lia. rewrite map_map. apply map_ext. intros; f_equal; lia. }
    rewrite EF. assert (O3 : o3 <= zlen M).
    { destruct D3 as (_ & -> & _). assert (QC : zlen (lanes_of W (b + 16) (filter (Z.testbit (Z.shiftr w 16)) (zr 0 (16 * Z.of_nat k)))) <= 16 * Z.of_nat k).
      { unfold lanes_of, zlen. rewrite map_length. pose proof (cnt_bound (Z.testbit (Z.shiftr w 16)) 0 (16 * Z.of_nat k)) as Q. unfold cnt, zlen in Q. lia. }
      lia. }
    eapply adds_app; [exact D1| |lia|exact O3]. eapply adds_app; [exact D2|exact D3|lia|lia].
Qed.
(** ** the elements of a word array as W-bit numbers *)
Definition elems (W : Z) (ws : list Z) (b : Z) : list Z := map (fun x => x mod W) (bitset_extract_setbits ws b).
Lemma elems_nil W b : elems W [] b = []. Proof. reflexivity. Qed.
Lemma elems_cons W w ws b : isw w -> elems W (w :: ws) b = lanes_of W b (bits w) ++ elems W ws (b + 64).
Proof.
  intros Hw. unfold elems, lanes_of. cbn [bitset_extract_setbits]. rewrite map_app. f_equal. rewrite extract_word_spec; auto; [|pose proof (hamming_bound w); lia]. rewrite map_map. reflexivity.
Qed.
Lemma lanes_len W b l : zlen (lanes_of W b l) = zlen l. Proof. unfold lanes_of, zlen. rewrite map_length. reflexivity. Qed.
Lemma lanes_mod W b c l : b mod W = c mod W -> lanes_of W b l = lanes_of W c l.
Proof. intros H. apply map_ext. intros p. rewrite <- (Zplus_mod_idemp_r b), <- (Zplus_mod_idemp_r c), H. reflexivity. Qed.
Lemma elems_app W ws1 ws2 b : wfw ws1 -> elems W (ws1 ++ ws2) b = elems W ws1 b ++ elems W ws2 (b + 64 * zlen ws1).
Proof.
  revert b. induction ws1 as [|w ws1 IH]; intros b H.
  - rewrite elems_nil. cbn [app]. f_equal. change (zlen (@nil Z)) with 0. lia.
  - inversion_clear H. cbn [app]. rewrite !elems_cons by assumption. rewrite IH by assumption. rewrite <- app_assoc. f_equal. f_equal. f_equal. rewrite zlen_cons. lia.
Qed.
(** ** the main loop of the table versions *)
Lemma ex_loop_ok W tab guard : forallb (row_check tab) (zr 0 256) = true -> 0 <= guard <= 64 -> forall ws M out b safeout hi, wfw ws -> 0 <= out -> safeout + (64 - guard) <= hi -> hi <= zlen M -> out <= hi ->
  exists M' out' pre rest, ws = pre ++ rest /\ ex_loop W tab guard M out safeout (repeat ((b - 1) mod W) 8) ws = Some (M', out', rest) /\
    adds M out M' out' (elems W pre b) hi /\ (guard = 64 -> out <= safeout -> out' <= safeout) /\ out' <= hi.
Proof.
  intros HT Hg. induction ws as [|w ws IH]; intros M out b safeout hi Hw H0 H1 H2 H3.
  - exists M, out, [], []. split; [reflexivity|]. split; [reflexivity|]. split; [apply adds_nil|]. auto.
  - inversion_clear Hw as [|? ? Hw1 Hw2]. cbn [ex_loop]. destruct (Z.leb_spec (out + guard) safeout) as [Hc|Hc].
    2:{ exists M, out, [], (w :: ws). split; [reflexivity|]. split; [reflexivity|]. split; [apply adds_nil|]. auto. }
    destruct (Z.eqb_spec w 0) as [Ez|Ez].
    + rewrite vaddw_const. destruct (IH M out (b + 64) safeout hi Hw2 H0 H1 H2 H3) as (M' & o' & pre & rest & E & R & D & G & X). exists M', o', (w :: pre), rest. split; [rewrite E; reflexivity|]. split; [exact R|].
      split; [|auto]. rewrite elems_cons by assumption. rewrite (proj2 (bits_nil w Hw1) Ez). exact D.
    + destruct (ex_bytes_ok W tab 4 HT M out b w hi) as (M1 & o1 & R1 & D1); [destruct Hw1; lia|lia|lia|lia|]. change (16 * Z.of_nat 4) with 64 in *. fold (bits w) in D1.
      rewrite R1. cbn [obind]. pose proof (adds_len _ _ _ _ _ _ D1) as L1.
      assert (O1 : out <= o1 <= out + 64) by (destruct D1 as (_ & -> & _); rewrite lanes_len; fold (hamming w); pose proof (hamming_bound w); lia).
      destruct (IH M1 o1 (b + 64) safeout hi Hw2) as (M' & o' & pre & rest & E & R & D & G & X); try lia.
      exists M', o', (w :: pre), rest. split; [rewrite E; reflexivity|]. split; [exact R|]. rewrite elems_cons by assumption.
      split; [eapply adds_app; [exact D1|exact D|lia|lia]|]. split; [|exact X]. intros Eg Ho. apply G; [exact Eg|lia].
Qed.
(** ** the last loop *)
Lemma firstn_le_app {A} (l1 l2 : list A) n : firstn n (l1 ++ l2) = firstn n l1 ++ firstn (n - length l1) l2. Proof. apply firstn_app. Qed.
Lemma et_word_ok W b c : c mod W = b mod W -> forall fuel M out safeout w hi, isw w -> hamming w = Z.of_nat fuel -> 0 <= out -> safeout <= hi -> hi <= zlen M ->
  exists M' out', et_word fuel W M out safeout w c = Some (M', out') /\ adds M out M' out' (firstn (Z.to_nat (safeout - out)) (lanes_of W b (bits w))) hi /\ (out <= safeout -> out' <= safeout) /\ (safeout <= out -> out' = out).
Proof.
  intros Hb. induction fuel as [|f IH]; intros M out safeout w hi Hw Hf H0 H1 H2; cbn [et_word].
  - assert (Ew : w = 0) by (apply hamming_0; [exact Hw|lia]). rewrite Ew, Z.eqb_refl. exists M, out. split; [reflexivity|].
    rewrite (proj2 (bits_nil 0 ltac:(rewrite <- Ew; exact Hw)) eq_refl). unfold lanes_of. cbn [map]. rewrite firstn_nil. split; [apply adds_nil|auto].
  - assert (Nw : w <> 0) by (intros ->; pose proof (proj2 (hamming_0 0 Hw) eq_refl); lia). destruct (Z.eqb_spec w 0) as [|_]; [contradiction|]. cbn [negb andb].
    destruct (Z.ltb_spec out safeout) as [Hc|Hc].
    + assert (EB := bits_land_pred w Hw Nw). destruct (wr_ok M out ((ctz w + c) mod W)) as (M1 & R1 & S1 & V1); [lia|]. rewrite R1. cbn [obind]. assert (L1 : zlen M1 = zlen M) by apply S1.
      destruct (IH M1 (out + 1) safeout (Z.land w (w - 1)) hi) as (M' & o' & R & D & G & X); try lia; [apply isw_land; exact Hw|unfold hamming in *; rewrite EB, zlen_cons in Hf; lia|].
      exists M', o'. split; [exact R|]. split; [|split; [intros; apply G; lia|lia]]. rewrite EB. replace (Z.to_nat (safeout - out)) with (Datatypes.S (Z.to_nat (safeout - (out + 1)))) by lia.
      unfold lanes_of in *. cbn [map firstn]. change (?x :: ?l) with ([x] ++ l). eapply adds_app; [|exact D|lia|].
      * split; [eapply same_weaken; [exact S1|lia|lia]|]. split; [reflexivity|]. change (zlen [(ctz w + b) mod W]) with 1. rewrite win_cons by lia. replace (1 - 1) with 0 by lia. rewrite win_0, V1. f_equal. rewrite <- (Zplus_mod_idemp_r c), <- (Zplus_mod_idemp_r b), Hb. reflexivity.
      * specialize (G ltac:(lia)). lia.
    + exists M, out. split; [reflexivity|]. replace (Z.to_nat (safeout - out)) with 0%nat by lia. split; [apply adds_nil|]. auto.
Qed.
Lemma et_loop_ok W : 0 < W -> forall ws b c M out safeout hi, c mod W = b mod W -> wfw ws -> 0 <= out -> safeout <= hi -> out <= hi -> hi <= zlen M ->
  exists M' out', et_loop W M out safeout c ws = Some (M', out') /\ adds M out M' out' (firstn (Z.to_nat (safeout - out)) (elems W ws b)) hi.
Proof.
  intros HW. induction ws as [|w ws IH]; intros b c M out safeout hi Hb Hw H0 H1 H3 H2; cbn [et_loop].
  - exists M, out. split; [reflexivity|]. rewrite elems_nil, firstn_nil. apply adds_nil.
  - inversion_clear Hw as [|? ? Hw1 Hw2]. destruct (Z.ltb_spec out safeout) as [Hc|Hc].
    + destruct (et_word_ok W b c Hb (Z.to_nat (hamming w)) M out safeout w hi) as (M1 & o1 & R1 & D1 & G1 & _); try assumption; [pose proof (hamming_bound w); lia|].
      rewrite R1. pose proof (adds_len _ _ _ _ _ _ D1) as L1. specialize (G1 ltac:(lia)).
      assert (O1 : o1 = out + zlen (firstn (Z.to_nat (safeout - out)) (lanes_of W b (bits w)))) by apply D1. pose proof (zlen_nonneg (firstn (Z.to_nat (safeout - out)) (lanes_of W b (bits w)))).
      destruct (IH (b + 64) ((c + 64) mod W) M1 o1 safeout hi) as (M' & o' & R & D); try assumption; try lia; [rewrite Zmod_mod, <- (Zplus_mod_idemp_l c), <- (Zplus_mod_idemp_l b), Hb; reflexivity|].
      exists M', o'. split; [exact R|]. rewrite elems_cons by assumption. rewrite firstn_app.
      replace (Z.to_nat (safeout - out) - length (lanes_of W b (bits w)))%nat with (Z.to_nat (safeout - o1)).
      * eapply adds_app; [exact D1|exact D|lia|]. destruct D as (_ & -> & _). pose proof (firstn_length (Z.to_nat (safeout - o1)) (elems W ws (b + 64))). unfold zlen at 1. lia.
      * rewrite O1. unfold zlen. rewrite firstn_length. lia.
    + exists M, out. split; [reflexivity|]. replace (Z.to_nat (safeout - out)) with 0%nat by lia. cbn [firstn]. apply adds_nil.
Qed.
(** ** the table versions: as many elements as fit are written in order *)
Lemma ex_table_ok W tab guard M ws out cap base : 0 < W -> forallb (row_check tab) (zr 0 256) = true -> 0 <= guard <= 64 -> wfw ws -> 0 <= out -> 0 <= cap -> out + cap + (64 - guard) <= zlen M ->
  guard = 64 \/ zlen (elems W ws base) <= cap ->
  exists M' n, ex_table W tab guard M ws out cap base = Some (M', n) /\ same_out M M' out (out + cap + (64 - guard)) /\ n = Z.min cap (zlen (elems W ws base)) /\ win M' out n = firstn (Z.to_nat cap) (elems W ws base).
Proof.
  intros HW HT Hg Hw H0 Hc Hl Hd. unfold ex_table. set (hi := out + cap + (64 - guard)) in *.
  destruct (ex_loop_ok W tab guard HT Hg ws M out base (out + cap) hi) as (M1 & o1 & pre & rest & E & R & D & G & X); try assumption; try lia. rewrite R. cbn [obind].
  assert (Wp : wfw pre /\ wfw rest) by (rewrite E in Hw; apply Forall_app in Hw; exact Hw). destruct Wp as [Wp Wr]. pose proof (adds_len _ _ _ _ _ _ D) as L1.
  assert (O1 : o1 = out + zlen (elems W pre base)) by apply D. pose proof (zlen_nonneg (elems W pre base)).
  destruct (et_loop_ok W HW rest (base + 64 * zlen pre) ((base + (zlen ws - zlen rest) * 64) mod W) M1 o1 (out + cap) hi) as (M2 & o2 & R2 & D2); try assumption; try lia.
  { rewrite Zmod_mod. f_equal. rewrite E, zlen_app. lia. }
  rewrite R2. cbn [obind]. assert (EE : elems W ws base = elems W pre base ++ elems W rest (base + 64 * zlen pre)) by (rewrite E; apply elems_app; exact Wp).
  assert (Hp : zlen (elems W pre base) <= cap) by (destruct Hd as [Hd|Hd]; [specialize (G Hd ltac:(lia)); lia|rewrite EE, zlen_app in Hd; pose proof (zlen_nonneg (elems W rest (base + 64 * zlen pre))); lia]).
  assert (EF : elems W pre base ++ firstn (Z.to_nat (out + cap - o1)) (elems W rest (base + 64 * zlen pre)) = firstn (Z.to_nat cap) (elems W ws base)).
  { rewrite EE, firstn_app. rewrite (firstn_all2 (n := Z.to_nat cap) (elems W pre base)) by (unfold zlen in Hp; lia). f_equal. f_equal. rewrite O1. unfold zlen. lia. }
  assert (D3 : adds M out M2 o2 (firstn (Z.to_nat cap) (elems W ws base)) hi).
  { rewrite <- EF. eapply adds_app; [exact D|exact D2|lia|]. destruct D2 as (_ & -> & _). unfold zlen at 1. rewrite firstn_length. lia. }
  destruct D3 as (S3 & O3 & W3). assert (LN : zlen (firstn (Z.to_nat cap) (elems W ws base)) = Z.min cap (zlen (elems W ws base))) by (unfold zlen; rewrite firstn_length; lia).
  exists M2, (o2 - out). split; [reflexivity|]. split; [exact S3|]. rewrite O3. replace (out + _ - out) with (zlen (firstn (Z.to_nat cap) (elems W ws base))) by lia. split; [exact LN|exact W3].
Qed.
(** ** the scalar versions *)
Lemma es_word_ok W b c : c mod W = b mod W -> forall fuel M out w, isw w -> hamming w = Z.of_nat fuel -> 0 <= out -> out + hamming w <= zlen M ->
  exists M' out', es_word fuel W M out w c = Some (M', out') /\ adds M out M' out' (lanes_of W b (bits w)) (out + hamming w).
Proof.
  intros Hb. induction fuel as [|f IH]; intros M out w Hw Hf H0 H2; cbn [es_word].
  - assert (Ew : w = 0) by (apply hamming_0; [exact Hw|lia]). rewrite Ew, Z.eqb_refl. exists M, out. split; [reflexivity|].
    rewrite (proj2 (bits_nil 0 ltac:(rewrite <- Ew; exact Hw)) eq_refl). apply adds_nil.
  - assert (Nw : w <> 0) by (intros ->; pose proof (proj2 (hamming_0 0 Hw) eq_refl); lia). destruct (Z.eqb_spec w 0) as [|_]; [contradiction|]. cbn [negb].
    assert (EB := bits_land_pred w Hw Nw). destruct (wr_ok M out ((ctz w + c) mod W)) as (M1 & R1 & S1 & V1); [lia|]. rewrite R1. cbn [obind]. assert (L1 : zlen M1 = zlen M) by apply S1.
    assert (EH : hamming w = hamming (Z.land w (w - 1)) + 1) by (unfold hamming; rewrite EB, zlen_cons; reflexivity).
    destruct (IH M1 (out + 1) (Z.land w (w - 1))) as (M' & o' & R & D); try lia; [apply isw_land; exact Hw|].
    exists M', o'. split; [exact R|]. rewrite EB. unfold lanes_of in *. cbn [map]. change (?x :: ?l) with ([x] ++ l). eapply adds_app; [|eapply adds_hi; [exact D|lia]|lia|].
    + split; [eapply same_weaken; [exact S1|lia|lia]|]. split; [reflexivity|]. change (zlen [(ctz w + b) mod W]) with 1. rewrite win_cons by lia. replace (1 - 1) with 0 by lia. rewrite win_0, V1. f_equal. rewrite <- (Zplus_mod_idemp_r c), <- (Zplus_mod_idemp_r b), Hb. reflexivity.
    + destruct D as (_ & -> & _). pose proof (lanes_len W b (bits (Z.land w (w - 1)))) as Q. fold (hamming (Z.land w (w - 1))) in Q. unfold lanes_of in Q. rewrite Q. lia.
Qed.
Lemma es_loop_ok W : 0 < W -> forall ws b c M out, c mod W = b mod W -> wfw ws -> 0 <= out -> out + zlen (elems W ws b) <= zlen M ->
  exists M' out', es_loop W M out c ws = Some (M', out') /\ adds M out M' out' (elems W ws b) (out + zlen (elems W ws b)).
Proof.
  intros HW. induction ws as [|w ws IH]; intros b c M out Hb Hw H0 H2; cbn [es_loop].
  - exists M, out. split; [reflexivity|]. apply adds_nil.
  - inversion_clear Hw as [|? ? Hw1 Hw2]. rewrite elems_cons in * by assumption. rewrite zlen_app, lanes_len in *. fold (hamming w) in *. pose proof (hamming_bound w). pose proof (zlen_nonneg (elems W ws (b + 64))).
    destruct (es_word_ok W b c Hb (Z.to_nat (hamming w)) M out w) as (M1 & o1 & R1 & D1); try assumption; try lia. rewrite R1. pose proof (adds_len _ _ _ _ _ _ D1) as L1.
    assert (O1 : o1 = out + hamming w) by (destruct D1 as (_ & -> & _); rewrite lanes_len; reflexivity).
    destruct (IH (b + 64) ((c + 64) mod W) M1 o1) as (M' & o' & R & D); try assumption; try lia; [rewrite Zmod_mod, <- (Zplus_mod_idemp_l c), <- (Zplus_mod_idemp_l b), Hb; reflexivity|].
    exists M', o'. split; [exact R|]. eapply adds_app; [eapply adds_hi; [exact D1|lia]|eapply adds_hi; [exact D|lia]|lia|]. destruct D as (_ & -> & _). lia.
Qed.
Lemma ex_scalar_ok W M ws out base : 0 < W -> wfw ws -> 0 <= out -> out + zlen (elems W ws base) <= zlen M ->
  exists M' n, ex_scalar W M ws out base = Some (M', n) /\ same_out M M' out (out + n) /\ n = zlen (elems W ws base) /\ win M' out n = elems W ws base.
Proof.
  intros HW Hw H0 Hl. unfold ex_scalar. destruct (es_loop_ok W HW ws base base M out eq_refl Hw H0 Hl) as (M' & o & R & S1 & -> & W1). rewrite R. cbn [obind].
  exists M', (zlen (elems W ws base)). replace (out + zlen (elems W ws base) - out) with (zlen (elems W ws base)) by lia. auto.
Qed.
(** ** the AVX-512 versions *)
Lemma compress8_ok v : isw v -> exists pad, compress8 v vbmi2_table = bits v ++ pad /\ zlen (bits v ++ pad) = 64.
Proof.
  intros Hv. unfold compress8. assert (ET : vbmi2_table = zr 0 64) by (vm_compute; reflexivity). rewrite ET.
  assert (EF : forall l, map snd (filter (fun p => Z.testbit v (fst p)) (combine l l)) = filter (Z.testbit v) l).
  { induction l as [|x l IH]; [reflexivity|]. cbn [combine filter fst]. destruct (Z.testbit v x); cbn [map snd]; rewrite IH; reflexivity. }
  rewrite EF. fold (bits v). exists (repeat 0 (64 - length (bits v))). split; [reflexivity|]. rewrite zlen_app. unfold zlen at 2. rewrite repeat_length. pose proof (hamming_bound v). unfold hamming, zlen in *. lia.
Qed.
Lemma ez_store_ok W width : 0 < width -> forall n M out vb v, zlen v = Z.of_nat n * width -> 0 <= out -> out + Z.of_nat n * width <= zlen M ->
  exists M', ez_store n width W M out vb v = Some M' /\ same_out M M' out (out + Z.of_nat n * width) /\ win M' out (Z.of_nat n * width) = map (fun x => (sext8 W x + vb) mod W) v.
Proof.
  intros Hw. induction n as [|n IH]; intros M out vb v Hv H0 H1; cbn [ez_store].
  - change (Z.of_nat 0 * width) with 0 in *. exists M. split; [reflexivity|]. split; [apply same_refl|]. rewrite win_0. apply zlen_0_nil in Hv. rewrite Hv. reflexivity.
  - replace (Z.of_nat (Datatypes.S n) * width) with (width + Z.of_nat n * width) in * by lia. assert (0 <= Z.of_nat n * width) by nia.
    assert (LF : zlen (firstn (Z.to_nat width) v) = width) by (unfold zlen in *; rewrite firstn_length; lia).
    assert (LS : zlen (skipn (Z.to_nat width) v) = Z.of_nat n * width) by (unfold zlen in *; rewrite skipn_length; lia).
    assert (LM : zlen (map (fun x => (sext8 W x + vb) mod W) (firstn (Z.to_nat width) v)) = width) by (unfold zlen in *; rewrite map_length; exact LF).
    destruct (stn_ok M out (map (fun x => (sext8 W x + vb) mod W) (firstn (Z.to_nat width) v))) as (M1 & R1 & S1 & W1); [lia|lia|]. rewrite LM in S1, W1. rewrite R1. cbn [obind]. assert (L1 : zlen M1 = zlen M) by apply S1.
    destruct (IH M1 (out + width) vb (skipn (Z.to_nat width) v) LS) as (M2 & R2 & S2 & W2); [lia|lia|]. assert (L2 : zlen M2 = zlen M1) by apply S2. exists M2. split; [exact R2|].
    split; [eapply same_trans; [exact S1|exact S2|lia|lia|lia|lia]|]. rewrite win_app by lia. rewrite W2. rewrite <- (firstn_skipn (Z.to_nat width) v) at 2. rewrite map_app. f_equal. rewrite <- W1. eapply same_win; [exact S2|lia|lia|lia|lia].
Qed.
Lemma sext_lanes W vb b v : vb mod W = b mod W -> map (fun x => (sext8 W x + vb) mod W) (bits v) = lanes_of W b (bits v).
Proof.
  intros H. apply map_ext_in. intros x Hx. apply bits_In in Hx. unfold sext8. replace (x <? 128) with true by lia. rewrite Zplus_mod_idemp_l. rewrite <- (Zplus_mod_idemp_r vb), H, Zplus_mod_idemp_r. reflexivity.
Qed.
Lemma app_len_inv (l1 : vec) : forall l2 k1 k2, l1 ++ l2 = k1 ++ k2 -> zlen l1 = zlen k1 -> l1 = k1.
Proof.
  induction l1 as [|x l1 IH]; intros l2 [|y k1] k2 H L; rewrite ?zlen_cons in L; [reflexivity|pose proof (zlen_nonneg k1); change (zlen (@nil Z)) with 0 in L; lia|pose proof (zlen_nonneg l1); change (zlen (@nil Z)) with 0 in L; lia|].
  cbn [app] in H. injection H as -> H. f_equal. apply (IH l2 k1 k2 H). lia.
Qed.
Lemma ez_loop_ok W width n : 0 < width -> Z.of_nat n * width = 64 -> Z.to_nat (64 / width) = n -> forall ws M out i base safeout, wfw ws -> 0 <= out -> out <= safeout -> safeout <= zlen M ->
  exists M' out' pre rest, ws = pre ++ rest /\ ez_loop W width M out safeout i base ws = Some (M', out', rest) /\
    adds M out M' out' (elems W pre (base + i * 64)) safeout /\ out' <= safeout.
Proof.
  intros Hp Hn Hd. induction ws as [|w ws IH]; intros M out i base safeout Hw H0 H1 H2.
  - exists M, out, [], []. split; [reflexivity|]. split; [reflexivity|]. split; [apply adds_nil|]. lia.
  - inversion_clear Hw as [|? ? Hw1 Hw2]. cbn [ez_loop]. destruct (Z.ltb_spec (out + 64) safeout) as [Hc|Hc].
    2:{ exists M, out, [], (w :: ws). split; [reflexivity|]. split; [reflexivity|]. split; [apply adds_nil|]. lia. }
    destruct (compress8_ok w Hw1) as (pad & E & L). rewrite E, Hd.
    destruct (ez_store_ok W width Hp n M out ((base + i * 64) mod W) (bits w ++ pad)) as (M1 & R1 & S1 & W1); [lia|lia|lia|]. rewrite Hn in S1, W1. rewrite R1. cbn [obind]. assert (L1 : zlen M1 = zlen M) by apply S1.
    pose proof (hamming_bound w). rewrite (Z.mod_small (hamming w) 256) by lia.
    assert (D1 : adds M out M1 (out + hamming w) (lanes_of W (base + i * 64) (bits w)) safeout).
    { split; [eapply same_weaken; [exact S1|lia|lia]|]. rewrite lanes_len. fold (hamming w). split; [reflexivity|]. rewrite map_app, (sext_lanes W _ (base + i * 64)) in W1 by apply Zmod_mod.
      assert (WS : win M1 out 64 = win M1 out (hamming w) ++ win M1 (out + hamming w) (64 - hamming w)) by (rewrite <- win_app by lia; f_equal; lia).
      rewrite WS in W1. apply app_len_inv in W1; [exact W1|]. rewrite win_zlen by lia. rewrite lanes_len. reflexivity. }
    destruct (IH M1 (out + hamming w) (i + 1) base safeout Hw2) as (M' & o' & pre & rest & E2 & R & D & X); try lia.
    exists M', o', (w :: pre), rest. split; [rewrite E2; reflexivity|]. split; [exact R|]. rewrite elems_cons by assumption. replace (base + i * 64 + 64) with (base + (i + 1) * 64) by lia.
    split; [eapply adds_app; [exact D1|exact D|lia|lia]|exact X].
Qed.
Lemma ex_compress_ok W width n M ws out cap base : 0 < W -> 0 < width -> Z.of_nat n * width = 64 -> Z.to_nat (64 / width) = n -> wfw ws -> 0 <= out -> 0 <= cap -> out + cap <= zlen M ->
  exists M' k, ex_compress W width M ws out cap base = Some (M', k) /\ same_out M M' out (out + cap) /\ k = Z.min cap (zlen (elems W ws base)) /\ win M' out k = firstn (Z.to_nat cap) (elems W ws base).
Proof.
  intros HW Hp Hn Hd Hw H0 Hc Hl. unfold ex_compress.
  destruct (ez_loop_ok W width n Hp Hn Hd ws M out 0 base (out + cap) Hw H0 ltac:(lia) Hl) as (M1 & o1 & pre & rest & E & R & D & X). rewrite R. cbn [obind]. replace (base + 0 * 64) with base in D by lia.
  assert (Wp : wfw pre /\ wfw rest) by (rewrite E in Hw; apply Forall_app in Hw; exact Hw). destruct Wp as [Wp Wr]. pose proof (adds_len _ _ _ _ _ _ D) as L1.
  assert (O1 : o1 = out + zlen (elems W pre base)) by apply D. pose proof (zlen_nonneg (elems W pre base)).
  destruct (et_loop_ok W HW rest (base + 64 * zlen pre) ((base + (zlen ws - zlen rest) * 64) mod W) M1 o1 (out + cap) (out + cap)) as (M2 & o2 & R2 & D2); try assumption; try lia.
  { rewrite Zmod_mod. f_equal. rewrite E, zlen_app. lia. }
  rewrite R2. cbn [obind]. assert (EE : elems W ws base = elems W pre base ++ elems W rest (base + 64 * zlen pre)) by (rewrite E; apply elems_app; exact Wp).
  assert (EF : elems W pre base ++ firstn (Z.to_nat (out + cap - o1)) (elems W rest (base + 64 * zlen pre)) = firstn (Z.to_nat cap) (elems W ws base)).
  { rewrite EE, firstn_app. rewrite (firstn_all2 (n := Z.to_nat cap) (elems W pre base)) by (unfold zlen in *; lia). f_equal. f_equal. rewrite O1. unfold zlen. lia. }
  assert (D3 : adds M out M2 o2 (firstn (Z.to_nat cap) (elems W ws base)) (out + cap)).
  { rewrite <- EF. eapply adds_app; [exact D|exact D2|lia|]. destruct D2 as (_ & -> & _). unfold zlen at 1. rewrite firstn_length. lia. }
  destruct D3 as (S3 & O3 & W3). assert (LN : zlen (firstn (Z.to_nat cap) (elems W ws base)) = Z.min cap (zlen (elems W ws base))) by (unfold zlen; rewrite firstn_length; lia).
  exists M2, (o2 - out). split; [reflexivity|]. split; [exact S3|]. rewrite O3. replace (out + _ - out) with (zlen (firstn (Z.to_nat cap) (elems W ws base))) by lia. split; [exact LN|exact W3].
Qed.
(** ** the values written, in terms of the members of the bitset *)
Definition dump (W : Z) (ws : list Z) (base : Z) : list Z := map (fun x => (x + base) mod W) (filter (bget ws) (zr 0 (64 * zlen ws))).
Lemma elems_dump W ws base : wfw ws -> elems W ws base = dump W ws base.
Proof. intros Hw. unfold elems, dump. rewrite bitset_extract_setbits_spec by assumption. rewrite map_map. reflexivity. Qed.
Lemma dump_len W ws base : zlen (dump W ws base) = zlen (filter (bget ws) (zr 0 (64 * zlen ws))).
Proof. unfold dump, zlen. rewrite map_length. reflexivity. Qed.
Lemma rows32 : forallb (row_check vecDecodeTable) (zr 0 256) = true. Proof. vm_compute. reflexivity. Qed.
Lemma rows16 : forallb (row_check vecDecodeTable_uint16) (zr 0 256) = true. Proof. vm_compute. reflexivity. Qed.
Local Opaque vecDecodeTable vecDecodeTable_uint16 vbmi2_table.
Theorem extract_avx2_ok M ws out cap base : wfw ws -> 0 <= out -> 0 <= cap -> out + cap <= zlen M ->
  exists M' n, bitset_extract_setbits_avx2 M ws out cap base = Some (M', n) /\ same_out M M' out (out + cap) /\
    n = Z.min cap (zlen (dump (2 ^ 32) ws base)) /\ win M' out n = firstn (Z.to_nat cap) (dump (2 ^ 32) ws base).
Proof.
  intros Hw H0 Hc Hl. unfold bitset_extract_setbits_avx2. rewrite <- elems_dump by assumption.
  destruct (ex_table_ok (2 ^ 32) vecDecodeTable 64 M ws out cap base ltac:(lia) rows32 ltac:(lia) Hw H0 Hc ltac:(lia) ltac:(left; reflexivity)) as (M' & n & R & S1 & N & V).
  exists M', n. split; [exact R|]. split; [eapply same_weaken; [exact S1|lia|lia]|]. split; assumption.
Qed.
Theorem extract_avx512_ok M ws out cap base : wfw ws -> 0 <= out -> 0 <= cap -> out + cap <= zlen M ->
  exists M' n, bitset_extract_setbits_avx512 M ws out cap base = Some (M', n) /\ same_out M M' out (out + cap) /\
    n = Z.min cap (zlen (dump (2 ^ 32) ws base)) /\ win M' out n = firstn (Z.to_nat cap) (dump (2 ^ 32) ws base).
Proof.
  intros Hw H0 Hc Hl. unfold bitset_extract_setbits_avx512. rewrite <- elems_dump by assumption.
  exact (ex_compress_ok (2 ^ 32) 16 4 M ws out cap base ltac:(lia) ltac:(lia) eq_refl eq_refl Hw H0 Hc Hl).
Qed.
Theorem extract_avx512_uint16_ok M ws out cap base : wfw ws -> 0 <= out -> 0 <= cap -> out + cap <= zlen M ->
  exists M' n, bitset_extract_setbits_avx512_uint16 M ws out cap base = Some (M', n) /\ same_out M M' out (out + cap) /\
    n = Z.min cap (zlen (dump (2 ^ 16) ws base)) /\ win M' out n = firstn (Z.to_nat cap) (dump (2 ^ 16) ws base).
Proof.
  intros Hw H0 Hc Hl. unfold bitset_extract_setbits_avx512_uint16. rewrite <- elems_dump by assumption.
  exact (ex_compress_ok (2 ^ 16) 32 2 M ws out cap base ltac:(lia) ltac:(lia) eq_refl eq_refl Hw H0 Hc Hl).
Qed.
(** the SSE version needs 48 cells behind the capacity *)
Theorem extract_sse_uint16_ok M ws out cap base : wfw ws -> 0 <= out -> 0 <= cap -> out + cap + 48 <= zlen M -> zlen (dump (2 ^ 16) ws base) <= cap ->
  exists M' n, bitset_extract_setbits_sse_uint16 M ws out cap base = Some (M', n) /\ same_out M M' out (out + cap + 48) /\
    n = zlen (dump (2 ^ 16) ws base) /\ win M' out n = dump (2 ^ 16) ws base.
Proof.
  intros Hw H0 Hc Hl Hn. unfold bitset_extract_setbits_sse_uint16. rewrite <- elems_dump in * by assumption.
  destruct (ex_table_ok (2 ^ 16) vecDecodeTable_uint16 16 M ws out cap base ltac:(lia) rows16 ltac:(lia) Hw H0 Hc ltac:(lia) ltac:(right; exact Hn)) as (M' & n & R & S1 & N & V).
  exists M', n. split; [exact R|]. split; [eapply same_weaken; [exact S1|lia|lia]|]. split; [lia|]. rewrite V. apply firstn_all2. unfold zlen in Hn. lia.
Qed.
(** ** the container functions *)
Theorem bitset_to_uint32_mem_ok avx512 avx2 M ws out base : let r := dump (2 ^ 32) ws base in wfw ws -> 0 <= out -> out + zlen r <= zlen M ->
  exists M', bitset_to_uint32_mem avx512 avx2 M ws (zlen r) out base = Some (M', zlen r) /\ same_out M M' out (out + zlen r) /\ win M' out (zlen r) = r.
Proof.
  intros r Hw H0 Hl. unfold bitset_to_uint32_mem. pose proof (zlen_nonneg r) as Hr.
  assert (EF : firstn (Z.to_nat (zlen r)) r = r) by (apply firstn_all2; unfold zlen; lia).
  destruct (avx512 && (8192 <=? zlen r)).
  - destruct (extract_avx512_ok M ws out (zlen r) base Hw H0 Hr Hl) as (M' & n & R & S1 & N & V). fold r in N, V. rewrite Z.min_id in N. rewrite EF in V. subst n. exists M'. auto.
  - destruct (avx2 && (8192 <=? zlen r)).
    + destruct (extract_avx2_ok M ws out (zlen r) base Hw H0 Hr Hl) as (M' & n & R & S1 & N & V). fold r in N, V. rewrite Z.min_id in N. rewrite EF in V. subst n. exists M'. auto.
    + assert (EE := elems_dump (2 ^ 32) ws base Hw). fold r in EE. destruct (ex_scalar_ok (2 ^ 32) M ws out base) as (M' & n & R & S1 & N & V); try assumption; [lia|rewrite EE; exact Hl|]. rewrite EE in N, V. subst n. exists M'. auto.
Qed.
Theorem array_from_bitset_mem_ok avx512 M ws out : let r := filter (bget ws) (zr 0 65536) in wfw ws -> zlen ws = 1024 -> 0 <= out -> out + zlen r <= zlen M ->
  exists M', array_from_bitset_mem avx512 M ws (zlen r) out = Some (M', zlen r) /\ same_out M M' out (out + zlen r) /\ win M' out (zlen r) = r.
Proof.
  intros r Hw HL H0 Hl. unfold array_from_bitset_mem. pose proof (zlen_nonneg r) as Hr.
  assert (ED : dump (2 ^ 16) ws 0 = r).
  { unfold dump. rewrite HL. change (64 * 1024) with 65536. fold r. transitivity (map (fun x : Z => x) r); [|apply map_id]. apply map_ext_in. intros x Hx. unfold r in Hx. apply filter_In in Hx. destruct Hx as [Hx _]. apply zr_In in Hx. rewrite Z.add_0_r. apply Z.mod_small. lia. }
  assert (EF : firstn (Z.to_nat (zlen r)) r = r) by (apply firstn_all2; unfold zlen; lia).
  destruct avx512.
  - destruct (extract_avx512_uint16_ok M ws out (zlen r) 0 Hw H0 Hr Hl) as (M' & n & R & S1 & N & V). rewrite ED in N, V. rewrite Z.min_id in N. rewrite EF in V. subst n. exists M'. auto.
  - assert (EE := elems_dump (2 ^ 16) ws 0 Hw). rewrite ED in EE. destruct (ex_scalar_ok (2 ^ 16) M ws out 0) as (M' & n & R & S1 & N & V); try assumption; [lia|rewrite EE; exact Hl|]. rewrite EE in N, V. subst n. exists M'. auto.
Qed.
Lemma tu_loop_ok width base : 0 < width -> forall fuel M a out, zlen a < Z.of_nat fuel -> 0 <= out -> out + zlen a <= zlen M ->
  exists M', tu_loop fuel width M a out base = Some (M', out + zlen a) /\ same_out M M' out (out + zlen a) /\ win M' out (zlen a) = map (fun x => (x + base) mod 2 ^ 32) a.
Proof.
  intros Hp. induction fuel as [|f IH]; intros M a out Hf H0 Hl; [pose proof (zlen_nonneg a); lia|]. cbn [tu_loop]. destruct (Z.leb_spec width (zlen a)) as [Hc|Hc].
  - set (g := fun x => (x + base) mod 2 ^ 32).
    assert (LF : zlen (firstn (Z.to_nat width) a) = width) by (unfold zlen in *; rewrite firstn_length; lia).
    assert (LS : zlen (skipn (Z.to_nat width) a) = zlen a - width) by (unfold zlen in *; rewrite skipn_length; lia).
    assert (LM : zlen (map g (firstn (Z.to_nat width) a)) = width) by (unfold zlen in *; rewrite map_length; exact LF).
    destruct (stn_ok M out (map g (firstn (Z.to_nat width) a))) as (M1 & R1 & S1 & W1); [lia|lia|]. rewrite LM in S1, W1. rewrite R1. cbn [obind]. assert (L1 : zlen M1 = zlen M) by apply S1.
    destruct (IH M1 (skipn (Z.to_nat width) a) (out + width)) as (M2 & R2 & S2 & W2); [lia|lia|lia|]. rewrite LS in *. assert (L2 : zlen M2 = zlen M1) by apply S2. exists M2.
    split; [rewrite R2; f_equal; f_equal; lia|]. split; [eapply same_trans; [exact S1|exact S2|lia|lia|lia|lia]|].
    assert (WS : win M2 out (zlen a) = win M2 out width ++ win M2 (out + width) (zlen a - width)) by (rewrite <- win_app by lia; f_equal; lia). rewrite WS, W2.
    assert (WP : win M2 out width = win M1 out width) by (eapply same_win; [exact S2|lia|lia|lia|lia]).
    rewrite WP, W1. rewrite <- map_app. rewrite firstn_skipn. reflexivity.
  - destruct a as [|x a'].
    + change (zlen (@nil Z)) with 0. exists M. split; [f_equal; f_equal; lia|]. split; [apply same_refl|]. apply win_0.
    + rewrite zlen_cons in *. pose proof (zlen_nonneg a'). destruct (wr_ok M out ((base + x) mod 2 ^ 32)) as (M1 & R1 & S1 & V1); [lia|]. rewrite R1. cbn [obind]. assert (L1 : zlen M1 = zlen M) by apply S1.
      destruct (IH M1 a' (out + 1)) as (M2 & R2 & S2 & W2); [lia|lia|lia|]. assert (L2 : zlen M2 = zlen M1) by apply S2. exists M2. split; [rewrite R2; f_equal; f_equal; lia|].
      split; [eapply same_trans; [exact S1|exact S2|lia|lia|lia|lia]|]. rewrite win_cons by lia. replace (zlen a' + 1 - 1) with (zlen a') by lia. rewrite W2. cbn [map]. f_equal.
      transitivity (znth M1 out); [apply S2; lia|]. rewrite V1. f_equal. lia.
Qed.
Theorem array_to_uint32_mem_ok avx512 avx2 M a out base : 0 <= out -> out + zlen a <= zlen M ->
  exists M', array_to_uint32_mem avx512 avx2 M a out base = Some (M', zlen a) /\ same_out M M' out (out + zlen a) /\ win M' out (zlen a) = map (fun x => (x + base) mod 2 ^ 32) a.
Proof.
  intros H0 Hl. unfold array_to_uint32_mem.
  destruct (tu_loop_ok (if avx512 then 16 else if avx2 then 8 else 1) base ltac:(destruct avx512, avx2; lia) (Datatypes.S (length a)) M a out) as (M' & R & S1 & V); [unfold zlen; lia|lia|lia|].
  rewrite R. cbn [obind]. exists M'. split; [f_equal; f_equal; lia|]. auto.
Qed.
(** the SSE version writes past a buffer of exactly as many cells as there are members *)
Definition sse_word := 0x0303030303030303.
Theorem extract_sse_uint16_overflow : zlen (dump (2 ^ 16) [sse_word] 0) = 16 /\ bitset_extract_setbits_sse_uint16 (repeat 0 16) [sse_word] 0 16 0 = None.
Proof. vm_compute. split; reflexivity. Qed.
