(** SimdR: the remaining vector code for containers: the cardinality of a run container
    and its conversion to numbers (src/containers/run.c:935-1042), comparison of memory
    (src/array_util.c:2013-2134) and of bitset containers (src/containers/bitset.c:1090-1150). *)
From Verif Require Import Simd Base BitUtil SimdB.

(** ** Run containers: the runs are pairs (value, length) *)
Notation rle16 := (Z * Z)%type.
(** a run as one 32-bit cell: value in the low half *)
Definition cell32 (r : rle16) : Z := fst r + 65536 * snd r.
(** _mm256_add_epi32, _mm512_add_epi32; _mm256_srli_epi32(v, 16) *)
Definition add32 (a b : vec) : vec := map2 (fun x y => (x + y) mod 2 ^ 32) a b.
Definition srli16 (v : vec) : vec := map (fun x => Z.shiftr x 16) v.
(** run.c:946-950, 987-991: for (; k + step <= n_runs; k += step) *)
Fixpoint rc_loop (fuel : nat) (step : Z) (cells : memory) (k : Z) (total : vec) : option (Z * vec) :=
  match fuel with
  | O => Some (k, total)
  | Datatypes.S fuel' =>
    if k + step <=? zlen cells then
      do v <- ldn cells k step; rc_loop fuel' step cells (k + step) (add32 total (srli16 v))
    else Some (k, total)
  end.
(** sum += (buffer[0] + buffer[1]) + ...: int plus uint32_t, stored in an int *)
Definition sum_buffer (sum : Z) (buffer : vec) : Z := int32 (sum + zsum buffer mod 2 ^ 32).
(** the last loop: sum += runs[k].length *)
Definition rc_tail (rs : list rle16) (k sum : Z) : Z := fold_left (fun s r => s + snd r) (skipn (Z.to_nat k) rs) sum.
(** run.c:977-1003 _avx2_run_container_cardinality *)
Definition avx2_run_cardinality (rs : list rle16) : option Z :=
  let n_runs := zlen rs in
  if 8 <? n_runs then
    do (k, total) <- rc_loop (length rs) 8 (map cell32 rs) 0 (repeat 0 8);
    Some (rc_tail rs k (sum_buffer n_runs total))
  else Some (rc_tail rs 0 n_runs).
(** run.c:935-970 _avx512_run_container_cardinality *)
Definition avx512_run_cardinality (rs : list rle16) : option Z :=
  let n_runs := zlen rs in
  if 16 <? n_runs then
    do (k, total) <- rc_loop (length rs) 16 (map cell32 rs) 0 (repeat 0 16);
    let lo := firstn 8 total in let hi := skipn 8 total in
    Some (rc_tail rs k (sum_buffer (sum_buffer n_runs lo) hi))
  else Some (rc_tail rs 0 n_runs).
(** run.c:1049-1074 _scalar_run_container_cardinality, run_container_cardinality *)
Definition run_cardinality_cpu (c : cpu) (rs : list rle16) : option Z :=
  match c with
  | AVX512 => avx512_run_cardinality rs
  | AVX2 => avx2_run_cardinality rs
  | SCALAR => Some (rc_tail rs 0 (zlen rs))
  end.

(** run.c:1017-1021, 1035-1040, 1084-1089: for (; j <= le; ++j) out[outpos++] = run_start + j *)
Fixpoint ru_words (fuel : nat) (M : memory) (out run_start le j outpos : Z) : option (memory * Z) :=
  match fuel with
  | O => Some (M, outpos)
  | Datatypes.S fuel' =>
    if j <=? le then do M <- wr M (out + outpos) ((run_start + j) mod 2 ^ 32); ru_words fuel' M out run_start le (j + 1) (outpos + 1)
    else Some (M, outpos)
  end.
(** run.c:1029-1034: eight at a time *)
Fixpoint ru_vecs (fuel : nat) (M : memory) (out run_start le j outpos : Z) (delta : vec) : option (memory * (Z * Z)) :=
  match fuel with
  | O => Some (M, (j, outpos))
  | Datatypes.S fuel' =>
    if j + 8 <=? le then
      do M <- stn M (out + outpos) (map (fun d => (run_start + d) mod 2 ^ 32) delta);
      ru_vecs fuel' M out run_start le (j + 8) (outpos + 8) (map (fun d => (8 + d) mod 2 ^ 32) delta)
    else Some (M, (j, outpos))
  end.
(** run.c:1006-1044 _avx2_run_container_to_uint32_array *)
Definition ru_run (avx2 : bool) (M : memory) (out base : Z) (r : rle16) (outpos : Z) : option (memory * Z) :=
  let run_start := (base + fst r) mod 2 ^ 32 in let le := snd r in
  if negb avx2 || (le <? 8) then ru_words (Z.to_nat (le + 1)) M out run_start le 0 outpos
  else do (M, (j, outpos)) <- ru_vecs (Z.to_nat le) M out run_start le 0 outpos [0; 1; 2; 3; 4; 5; 6; 7];
       ru_words (Z.to_nat (le + 1)) M out run_start le j outpos.
Fixpoint ru_runs (avx2 : bool) (M : memory) (out base : Z) (rs : list rle16) (outpos : Z) : option (memory * Z) :=
  match rs with
  | [] => Some (M, outpos)
  | r :: rs' => do (M, outpos) <- ru_run avx2 M out base r outpos; ru_runs avx2 M out base rs' outpos
  end.
(** run.c:1076-1101 run_container_to_uint32_array *)
Definition run_to_uint32_mem (avx2 : bool) (M : memory) (rs : list rle16) (out base : Z) : option (memory * Z) :=
  ru_runs avx2 M out base rs 0.

(** ** Comparison of memory: cells are bytes *)
(** _mm256_cmpeq_epi8 and _mm256_movemask_epi8; _mm512_cmpeq_epi8_mask *)
Definition cmpeq8 (a b : list Z) : list Z := map2 (fun x y => if x =? y then 255 else 0) a b.
(** memcpy into a uint64_t: the number made of eight bytes, lowest first *)
Fixpoint le_num (bs : list Z) : Z := match bs with [] => 0 | b :: bs' => b + 256 * le_num bs' end.
(** the tests: mask == all ones; v1 == v2 *)
Definition same_mask (r1 r2 : list Z) : bool := movemask (cmpeq8 r1 r2) =? 2 ^ zlen r1 - 1.
Definition same_num (r1 r2 : list Z) : bool := le_num r1 =? le_num r2.
(** while (ptr1 < end) { load [w] bytes from both; if (they differ) return false; ptr1 += w; ptr2 += w; } *)
Fixpoint me_loop (test : list Z -> list Z -> bool) (fuel : nat) (w : Z) (M : memory) (s1 s2 i end_ : Z) : option (Z * bool) :=
  match fuel with
  | O => Some (i, true)
  | Datatypes.S fuel' =>
    if i <? end_ then
      do r1 <- ldn M (s1 + i) w; do r2 <- ldn M (s2 + i) w;
      if test r1 r2 then me_loop test fuel' w M s1 s2 (i + w) end_ else Some (i, false)
    else Some (i, true)
  end.
Definition me_vecs := me_loop same_mask.
Definition me_words := me_loop same_num.
(** array_util.c:2073-2111 _avx2_memequals; the last loop compares single bytes *)
Definition avx2_memequals (M : memory) (s1 s2 n : Z) : option bool :=
  let fuel := Z.to_nat n in
  let end8 := n / 8 * 8 in let end32 := n / 32 * 32 in
  do (i, ok) <- me_vecs fuel 32 M s1 s2 0 end32; if negb ok then Some false else
  do (i, ok) <- me_words fuel 8 M s1 s2 i end8; if negb ok then Some false else
  do (i, ok) <- me_words fuel 1 M s1 s2 i n; Some ok.
(** array_util.c:2015-2068 _avx512_memequals *)
Definition avx512_memequals (M : memory) (s1 s2 n : Z) : option bool :=
  let fuel := Z.to_nat n in
  let end8 := Z.shiftl (Z.shiftr n 3) 3 in let end32 := Z.shiftl (Z.shiftr n 5) 5 in let end64 := Z.shiftl (Z.shiftr n 6) 6 in
  do (i, ok) <- me_vecs fuel 64 M s1 s2 0 end64; if negb ok then Some false else
  do (i, ok) <- me_vecs fuel 32 M s1 s2 i end32; if negb ok then Some false else
  do (i, ok) <- me_words fuel 8 M s1 s2 i end8; if negb ok then Some false else
  do (i, ok) <- me_words fuel 1 M s1 s2 i n; Some ok.
(** array_util.c:2115-2134 memequals; memcmp(s1, s2, n) == 0 is modelled as a comparison of
    the two blocks, both of which must be readable *)
Definition memequals (c : cpu) (M : memory) (s1 s2 n : Z) : option bool :=
  if n =? 0 then Some true else
  match c with
  | AVX512 => avx512_memequals M s1 s2 n
  | AVX2 => avx2_memequals M s1 s2 n
  | SCALAR => do a <- ldn M s1 n; do b <- ldn M s2 n; Some (forallb (fun p => fst p =? snd p) (combine a b))
  end.

(** ** Comparison of bitset containers: cells are 64-bit words *)
Definition bytes8 (w : Z) : list Z := map (fun k => Z.shiftr w (8 * k) mod 256) [0; 1; 2; 3; 4; 5; 6; 7].
(** bitset.c:1094-1106, 1112-1124 *)
Fixpoint be_loop (fuel : nat) (n : Z) (M : memory) (p q i : Z) : option bool :=
  match fuel with
  | O => Some true
  | Datatypes.S fuel' =>
    do r1 <- ldn M (p + n * i) n; do r2 <- ldn M (q + n * i) n;
    if same_mask (flat_map bytes8 r1) (flat_map bytes8 r2) then be_loop fuel' n M p q (i + 1) else Some false
  end.
(** bitset.c:1128-1153 bitset_container_equals; [c1], [c2]: the cardinality fields *)
Definition bitset_equals_mem (c : cpu) (M : memory) (p c1 q c2 : Z) : option bool :=
  let known := negb (c1 =? -1) && negb (c2 =? -1) in
  if known && negb (c1 =? c2) then Some false
  else if known && (c1 =? 65536) then Some true
  else match c with
  | AVX512 => be_loop (Z.to_nat (1024 * 8 / 64)) 8 M p q 0
  | AVX2 => be_loop (Z.to_nat (1024 * 8 / 32)) 4 M p q 0
  | SCALAR => do a <- ldn M p 1024; do b <- ldn M q 1024; Some (forallb (fun p => fst p =? snd p) (combine a b))
  end.

(** * Proofs *)
(** ** Run cardinality *)
Definition lens (rs : list rle16) : Z := zsum (map snd rs).
Definition run16 (r : rle16) : Prop := 0 <= fst r < 65536 /\ 0 <= snd r < 65536.
Definition eq32 (a b : Z) : Prop := exists k, a = b + k * 2 ^ 32.
Lemma eq32_mod a : eq32 (a mod 2 ^ 32) a.
Proof. exists (- (a / 2 ^ 32)). pose proof (Z.div_mod a (2 ^ 32)). lia. Qed.
Lemma add32_sum a b : length a = length b -> eq32 (zsum (add32 a b)) (zsum a + zsum b).
Proof.
  unfold add32. revert b. induction a as [|x a IH]; intros [|y b] H; cbn in H; try lia; [exists 0; reflexivity|]. cbn [map2 zsum].
  destruct (IH b ltac:(lia)) as [k E]. destruct (eq32_mod (x + y)) as [l F]. exists (k + l). lia.
Qed.
Lemma int32_eq x y : eq32 x y -> 0 <= y < 2 ^ 31 -> int32 x = y.
Proof.
  intros [k ->] H. unfold int32. rewrite Z.mod_add by lia. rewrite Z.mod_small by lia. replace (y <? 2 ^ 31) with true by lia. reflexivity.
Qed.
Lemma srli_cell v l : 0 <= v < 65536 -> Z.shiftr (v + 65536 * l) 16 = l.
Proof. intros H. rewrite Z.shiftr_div_pow2 by lia. change (2 ^ 16) with 65536. rewrite Z.mul_comm, Z.div_add by lia. rewrite Z.div_small by lia. lia. Qed.
Lemma srli_cells rs : Forall run16 rs -> srli16 (map cell32 rs) = map snd rs.
Proof.
  unfold srli16. induction 1 as [|[v l] rs [H _] _ IH]; [reflexivity|]. cbn [map]. f_equal; [|exact IH]. unfold cell32. cbn [fst snd] in *. apply srli_cell; lia.
Qed.
Lemma rc_tail_sum rs k sum : rc_tail rs k sum = sum + lens (skipn (Z.to_nat k) rs).
Proof. unfold rc_tail, lens. generalize (skipn (Z.to_nat k) rs). intros l. revert sum. induction l as [|r l IH]; intros sum; cbn [fold_left map zsum]; [lia|]. rewrite IH. lia. Qed.
Lemma lens_app a b : lens (a ++ b) = lens a + lens b.
Proof. unfold lens. rewrite map_app. apply zsum_app. Qed.
Lemma lens_split rs k : lens rs = lens (firstn k rs) + lens (skipn k rs).
Proof. rewrite <- lens_app, firstn_skipn. reflexivity. Qed.
Lemma lens_nonneg rs : Forall run16 rs -> 0 <= lens rs.
Proof. unfold lens. induction 1 as [|r rs [_ H] _ IH]; [reflexivity|]. cbn [map zsum]. lia. Qed.
Lemma rc_loop_ok step rs : 0 < step -> Forall run16 rs -> forall fuel k total, 0 <= k <= zlen rs -> zlen rs - k <= Z.of_nat fuel ->
  length total = Z.to_nat step -> eq32 (zsum total) (lens (firstn (Z.to_nat k) rs)) ->
  exists k' total', rc_loop fuel step (map cell32 rs) k total = Some (k', total') /\ 0 <= k' <= zlen rs /\ length total' = Z.to_nat step /\
    eq32 (zsum total') (lens (firstn (Z.to_nat k') rs)).
Proof.
  intros Hs HF. induction fuel as [|fuel IH]; intros k total Hk Hf HL HE.
  - exists k, total. cbn [rc_loop]. auto.
  - cbn [rc_loop]. assert (ZL : zlen (map cell32 rs) = zlen rs) by (unfold zlen; rewrite map_length; reflexivity). rewrite ZL.
    destruct (Z.leb_spec (k + step) (zlen rs)); [|exists k, total; auto].
    rewrite ldn_ok by lia. cbn [obind].
    assert (EW : win (map cell32 rs) k step = map cell32 (firstn (Z.to_nat step) (skipn (Z.to_nat k) rs))).
    { unfold win. rewrite skipn_map, firstn_map. reflexivity. }
    rewrite EW. set (blk := firstn (Z.to_nat step) (skipn (Z.to_nat k) rs)).
    assert (LB : length blk = Z.to_nat step) by (unfold blk; rewrite firstn_length, skipn_length; unfold zlen in *; lia).
    assert (FB : Forall run16 blk).
    { unfold blk. apply Forall_forall. intros x Hx. rewrite Forall_forall in HF. apply HF. rewrite <- (firstn_skipn (Z.to_nat k) rs). apply in_app_iff. right.
      rewrite <- (firstn_skipn (Z.to_nat step) (skipn (Z.to_nat k) rs)). apply in_app_iff. left. exact Hx. }
    rewrite (srli_cells blk FB). apply IH; try lia.
    + apply len_map2; [exact HL|rewrite map_length; exact LB].
    + destruct (add32_sum total (map snd blk)) as [a E1]; [rewrite map_length; lia|]. destruct HE as [b E2].
      replace (Z.to_nat (k + step)) with (Z.to_nat k + Z.to_nat step)%nat by lia.
      assert (EA : firstn (Z.to_nat k + Z.to_nat step) rs = firstn (Z.to_nat k) rs ++ blk).
      { unfold blk. assert (LK : length (firstn (Z.to_nat k) rs) = Z.to_nat k) by (rewrite firstn_length; unfold zlen in *; lia).
        rewrite <- (firstn_skipn (Z.to_nat k) rs) at 1. rewrite firstn_app, LK. rewrite (firstn_all2 (n := (Z.to_nat k + Z.to_nat step)%nat) (firstn (Z.to_nat k) rs)) by lia.
        f_equal. f_equal. lia. }
      rewrite EA, lens_app. fold (lens blk) in E1. exists (a + b). lia.
Qed.
Lemma zsum_0 n : zsum (repeat 0 n) = 0. Proof. apply zsum_zeros. Qed.
Theorem run_cardinality_cpu_ok c rs : Forall run16 rs -> zlen rs + lens rs < 2 ^ 31 -> run_cardinality_cpu c rs = Some (zlen rs + lens rs).
Proof.
  intros HF HB. pose proof (zlen_nonneg rs) as Hz. pose proof (lens_nonneg rs HF) as Hn.
  assert (PRE : forall k, 0 <= lens (firstn k rs)).
  { intros k. apply lens_nonneg. apply Forall_forall. intros x Hx. rewrite Forall_forall in HF. apply HF. rewrite <- (firstn_skipn k rs). apply in_app_iff. auto. }
  assert (POST : forall k, 0 <= lens (skipn k rs)).
  { intros k. apply lens_nonneg. apply Forall_forall. intros x Hx. rewrite Forall_forall in HF. apply HF. rewrite <- (firstn_skipn k rs). apply in_app_iff. auto. }
  assert (E0 : rc_tail rs 0 (zlen rs) = zlen rs + lens rs) by (rewrite rc_tail_sum; reflexivity).
  destruct c; unfold run_cardinality_cpu; [rewrite E0; reflexivity| |].
  - unfold avx2_run_cardinality. destruct (8 <? zlen rs); [|rewrite E0; reflexivity].
    destruct (rc_loop_ok 8 rs ltac:(lia) HF (length rs) 0 (repeat 0 8)) as (k & total & E & Hk & HL & HE); [lia|unfold zlen; lia|reflexivity|exists 0; reflexivity|].
    rewrite E. cbn [obind]. f_equal. rewrite rc_tail_sum. pose proof (lens_split rs (Z.to_nat k)). specialize (PRE (Z.to_nat k)). specialize (POST (Z.to_nat k)).
    unfold sum_buffer. rewrite (int32_eq _ (zlen rs + lens (firstn (Z.to_nat k) rs))); [lia| |lia].
    destruct HE as [a ->]. destruct (eq32_mod (lens (firstn (Z.to_nat k) rs) + a * 2 ^ 32)) as [b ->]. exists (a + b). lia.
  - unfold avx512_run_cardinality. destruct (16 <? zlen rs); [|rewrite E0; reflexivity].
    destruct (rc_loop_ok 16 rs ltac:(lia) HF (length rs) 0 (repeat 0 16)) as (k & total & E & Hk & HL & HE); [lia|unfold zlen; lia|reflexivity|exists 0; reflexivity|].
    rewrite E. cbn [obind]. f_equal. rewrite rc_tail_sum. pose proof (lens_split rs (Z.to_nat k)). specialize (PRE (Z.to_nat k)). specialize (POST (Z.to_nat k)).
    assert (ES : zsum total = zsum (firstn 8 total) + zsum (skipn 8 total)) by (rewrite <- zsum_app, firstn_skipn; reflexivity).
    unfold sum_buffer. rewrite (int32_eq _ (zlen rs + lens (firstn (Z.to_nat k) rs))); [lia| |lia].
    destruct HE as [a HE]. destruct (eq32_mod (zsum (firstn 8 total))) as [b B]. destruct (eq32_mod (zsum (skipn 8 total))) as [d D].
    assert (I32 : forall x, eq32 (int32 x) x).
    { intros x. unfold int32. destruct (eq32_mod x) as [u U]. destruct (x mod 2 ^ 32 <? 2 ^ 31); [exists u; lia|exists (u - 1); lia]. }
    destruct (I32 (zlen rs + zsum (firstn 8 total) mod 2 ^ 32)) as [e Ee]. rewrite Ee, B, D. exists (a + b + d + e). lia.
Qed.

(** ** Conversion of runs to numbers *)
Local Opaque zr.
Definition seg (rstart a b : Z) : list Z := map (fun x => (rstart + x) mod 2 ^ 32) (zr a b).
Lemma seg_len rstart a b : a <= b -> zlen (seg rstart a b) = b - a.
Proof. intros. unfold seg, zlen. rewrite map_length. pose proof (zr_zlen a b H). unfold zlen in *. lia. Qed.
Lemma seg_app rstart a b c : a <= b -> b <= c -> seg rstart a c = seg rstart a b ++ seg rstart b c.
Proof. intros. unfold seg. rewrite (zr_app a b c) by lia. apply map_app. Qed.
(** [M'] is [M] with [vs] written at [p] *)
Definition wrote (M M' : memory) (p : Z) (vs : list Z) : Prop := same_out M M' p (p + zlen vs) /\ win M' p (zlen vs) = vs.
Lemma wrote_nil M p : wrote M M p []. Proof. split; [apply same_refl|reflexivity]. Qed.
Lemma wrote_app M1 M2 M3 p a b : 0 <= p -> p + zlen a + zlen b <= zlen M1 -> wrote M1 M2 p a -> wrote M2 M3 (p + zlen a) b -> wrote M1 M3 p (a ++ b).
Proof.
  intros Hp Hl (S1 & W1) (S2 & W2). pose proof (zlen_nonneg a). pose proof (zlen_nonneg b). unfold wrote. rewrite zlen_app. assert (L1 := proj1 S1). assert (L2 := proj1 S2). split.
  - eapply same_trans; [exact S1|exact S2|lia..].
  - rewrite win_app by lia. rewrite W2. f_equal. rewrite <- W1 at 2. eapply same_win; [exact S2|lia..].
Qed.
Lemma ru_words_ok out rstart le : forall fuel M j outpos, 0 <= out -> 0 <= outpos -> 0 <= j <= le + 1 -> le + 1 - j <= Z.of_nat fuel -> out + outpos + (le + 1 - j) <= zlen M ->
  exists M', ru_words fuel M out rstart le j outpos = Some (M', outpos + (le + 1 - j)) /\ wrote M M' (out + outpos) (seg rstart j (le + 1)).
Proof.
  induction fuel as [|fuel IH]; intros M j outpos Ho Hp Hj Hf Hl; cbn [ru_words].
  - exists M. replace (le + 1) with j by lia. split; [f_equal; f_equal; lia|]. unfold seg. rewrite zr_nil by lia. apply wrote_nil.
  - destruct (Z.leb_spec j le) as [L|L].
    + unfold wr. destruct (stn_ok M (out + outpos) [(rstart + j) mod 2 ^ 32]) as (M1 & E & S1 & W1); [lia|change (zlen [(rstart + j) mod 2 ^ 32]) with 1; lia|]. rewrite E. cbn [obind]. assert (L1 := proj1 S1).
      destruct (IH M1 (j + 1) (outpos + 1)) as (M2 & E2 & W2); try lia. exists M2. rewrite E2. split; [f_equal; f_equal; lia|].
      assert (ES : seg rstart j (j + 1) = [(rstart + j) mod 2 ^ 32]).
      { unfold seg. rewrite zr_cons by lia. rewrite zr_nil by lia. reflexivity. }
      rewrite (seg_app rstart j (j + 1)) by lia. eapply wrote_app; [lia| | |].
      * rewrite !seg_len by lia. lia.
      * rewrite ES. split; [exact S1|exact W1].
      * rewrite seg_len by lia. replace (out + outpos + (j + 1 - j)) with (out + (outpos + 1)) by lia. exact W2.
    + exists M. replace (le + 1) with j by lia. split; [f_equal; f_equal; lia|]. unfold seg. rewrite zr_nil by lia. apply wrote_nil.
Qed.
Lemma delta_next j : 0 <= j < 65536 -> map (fun d => (8 + d) mod 2 ^ 32) (zr j (j + 8)) = zr (j + 8) (j + 8 + 8).
Proof.
  intros H. do 8 (rewrite (zr_cons _ (j + 8)) by lia). rewrite (zr_nil _ (j + 8)) by lia. do 8 (rewrite (zr_cons _ (j + 8 + 8)) by lia). rewrite (zr_nil _ (j + 8 + 8)) by lia.
  cbn [map]. rewrite !Z.mod_small by lia. do 7 (f_equal; [lia|]). f_equal. lia.
Qed.
Lemma ru_vecs_ok out rstart le : le < 65536 -> forall fuel M j outpos, 0 <= out -> 0 <= outpos -> 0 <= j <= le -> le - j <= Z.of_nat fuel -> out + outpos + (le + 1 - j) <= zlen M ->
  exists M' j', ru_vecs fuel M out rstart le j outpos (zr j (j + 8)) = Some (M', (j', outpos + (j' - j))) /\ j <= j' <= le /\ wrote M M' (out + outpos) (seg rstart j j').
Proof.
  intros Hle. induction fuel as [|fuel IH]; intros M j outpos Ho Hp Hj Hf Hl; cbn [ru_vecs].
  - exists M, j. split; [f_equal; f_equal; f_equal; lia|]. split; [lia|]. unfold seg. rewrite zr_nil by lia. apply wrote_nil.
  - destruct (Z.leb_spec (j + 8) le) as [L|L].
    + fold (seg rstart j (j + 8)). assert (LS := seg_len rstart j (j + 8) ltac:(lia)).
      destruct (stn_ok M (out + outpos) (seg rstart j (j + 8))) as (M1 & E & S1 & W1); [lia|lia|]. rewrite E. cbn [obind]. assert (L1 := proj1 S1).
      rewrite delta_next by lia. destruct (IH M1 (j + 8) (outpos + 8)) as (M2 & j2 & E2 & H2 & W2); try lia. exists M2, j2. rewrite E2.
      split; [f_equal; f_equal; f_equal; lia|]. split; [lia|]. rewrite (seg_app rstart j (j + 8)) by lia. eapply wrote_app; [lia| | |].
      * rewrite !seg_len by lia. lia.
      * split; [exact S1|exact W1].
      * rewrite seg_len by lia. replace (out + outpos + (j + 8 - j)) with (out + (outpos + 8)) by lia. exact W2.
    + exists M, j. split; [f_equal; f_equal; f_equal; lia|]. split; [lia|]. unfold seg. rewrite zr_nil by lia. apply wrote_nil.
Qed.
Lemma ru_run_ok avx2 M out base r outpos : run16 r -> 0 <= out -> 0 <= outpos -> out + outpos + (snd r + 1) <= zlen M ->
  exists M', ru_run avx2 M out base r outpos = Some (M', outpos + (snd r + 1)) /\ wrote M M' (out + outpos) (seg ((base + fst r) mod 2 ^ 32) 0 (snd r + 1)).
Proof.
  intros [_ HR] Ho Hp Hl. unfold ru_run. cbv zeta. destruct (negb avx2 || (snd r <? 8)) eqn:E.
  - destruct (ru_words_ok out ((base + fst r) mod 2 ^ 32) (snd r) (Z.to_nat (snd r + 1)) M 0 outpos) as (M' & E1 & W1); try lia. rewrite Z.sub_0_r in E1. exists M'. auto.
  - change [0; 1; 2; 3; 4; 5; 6; 7] with (zr 0 (0 + 8)). destruct (ru_vecs_ok out ((base + fst r) mod 2 ^ 32) (snd r) ltac:(lia) (Z.to_nat (snd r)) M 0 outpos) as (M1 & j & E1 & Hj & W1); try lia.
    rewrite E1. cbn [obind]. assert (L1 := proj1 (proj1 W1)). destruct (ru_words_ok out ((base + fst r) mod 2 ^ 32) (snd r) (Z.to_nat (snd r + 1)) M1 j (outpos + (j - 0))) as (M2 & E2 & W2); try lia.
    exists M2. rewrite E2. split; [f_equal; f_equal; lia|]. rewrite (seg_app _ 0 j) by lia. eapply wrote_app; [lia| |exact W1|].
    + rewrite !seg_len by lia. lia.
    + rewrite seg_len by lia. replace (out + outpos + (j - 0)) with (out + (outpos + (j - 0))) by lia. exact W2.
Qed.
Definition run_numbers (base : Z) (rs : list rle16) : list Z := flat_map (fun r => map (fun x => (base + fst r + x) mod 2 ^ 32) (zr 0 (snd r + 1))) rs.
Lemma run_numbers_len base rs : Forall run16 rs -> zlen (run_numbers base rs) = zlen rs + lens rs.
Proof.
  unfold run_numbers, lens. induction 1 as [|r rs [_ H] _ IH]; [reflexivity|]. cbn [flat_map map zsum]. rewrite zlen_app, zlen_cons, IH. unfold zlen at 1. rewrite map_length. pose proof (zr_zlen 0 (snd r + 1) ltac:(lia)). unfold zlen in *. lia.
Qed.
Lemma seg_mod b n : seg (b mod 2 ^ 32) 0 n = map (fun x => (b + x) mod 2 ^ 32) (zr 0 n).
Proof. unfold seg. apply map_ext. intros x. apply Zplus_mod_idemp_l. Qed.
Lemma ru_runs_ok avx2 out base rs : Forall run16 rs -> forall M outpos, 0 <= out -> 0 <= outpos -> out + outpos + (zlen rs + lens rs) <= zlen M ->
  exists M', ru_runs avx2 M out base rs outpos = Some (M', outpos + (zlen rs + lens rs)) /\ wrote M M' (out + outpos) (run_numbers base rs).
Proof.
  induction 1 as [|r rs Hr HF IH]; intros M outpos Ho Hp Hl; cbn [ru_runs].
  - exists M. split; [f_equal; f_equal; change (zlen (@nil rle16)) with 0; change (lens []) with 0; lia|]. apply wrote_nil.
  - pose proof (lens_nonneg rs HF). pose proof (zlen_nonneg rs). destruct Hr as [Hr1 Hr2].
    assert (EL : lens (r :: rs) = snd r + lens rs) by reflexivity. rewrite EL, zlen_cons in *.
    destruct (ru_run_ok avx2 M out base r outpos) as (M1 & E1 & W1); [split; auto|lia|lia|lia|]. rewrite E1. cbn [obind]. assert (L1 := proj1 (proj1 W1)).
    destruct (IH M1 (outpos + (snd r + 1))) as (M2 & E2 & W2); try lia. exists M2. rewrite E2. split; [f_equal; f_equal; lia|].
    unfold run_numbers. cbn [flat_map]. fold (run_numbers base rs). rewrite <- (seg_mod (base + fst r)). eapply wrote_app; [lia| |exact W1|].
    + rewrite seg_len, run_numbers_len by (auto; lia). lia.
    + rewrite seg_len by lia. replace (out + outpos + (snd r + 1 - 0)) with (out + (outpos + (snd r + 1))) by lia. exact W2.
Qed.
Theorem run_to_uint32_mem_ok avx2 M rs out base : Forall run16 rs -> 0 <= out -> out + (zlen rs + lens rs) <= zlen M ->
  exists M', run_to_uint32_mem avx2 M rs out base = Some (M', zlen rs + lens rs) /\ wrote M M' out (run_numbers base rs).
Proof.
  intros HF Ho Hl. destruct (ru_runs_ok avx2 out base rs HF M 0 Ho ltac:(lia) ltac:(lia)) as (M' & E & W). rewrite Z.add_0_r in W. exists M'. auto.
Qed.

(** ** Comparison *)
Lemma movemask_range bs : 0 <= movemask bs < 2 ^ zlen bs.
Proof.
  induction bs as [|b bs IH]; [split; [discriminate|reflexivity]|]. cbn [movemask]. rewrite zlen_cons. pose proof (zlen_nonneg bs). rewrite Z.pow_add_r by lia. destruct (128 <=? b); lia.
Qed.
Lemma cmpeq8_len a b : zlen a = zlen b -> zlen (cmpeq8 a b) = zlen a.
Proof. apply zlen_map2. Qed.
Lemma mask_full a b : zlen a = zlen b -> same_mask a b = true <-> a = b.
Proof.
  unfold same_mask. rewrite Z.eqb_eq. revert b. induction a as [|x a IH]; intros [|y b] H; [split; reflexivity|unfold zlen in H; cbn in H; lia|unfold zlen in H; cbn in H; lia|].
  rewrite !zlen_cons in H. unfold cmpeq8. cbn [map2 movemask]. fold (cmpeq8 a b). rewrite zlen_cons. pose proof (zlen_nonneg a). rewrite Z.pow_add_r by lia.
  pose proof (movemask_range (cmpeq8 a b)) as HR. rewrite cmpeq8_len in HR by lia. specialize (IH b ltac:(lia)).
  destruct (Z.eqb_spec x y) as [->|N].
  - change (128 <=? 255) with true. cbv iota. split; intros E; [f_equal; apply IH; lia|]. inversion E; subst. assert (movemask (cmpeq8 b b) = 2 ^ zlen b - 1) by (apply IH; reflexivity). lia.
  - change (128 <=? 0) with false. cbv iota. split; intros E; [lia|]. inversion E. contradiction.
Qed.
Definition byte_ok (b : Z) : Prop := 0 <= b < 256.
Lemma le_num_inj a : forall b, zlen a = zlen b -> Forall byte_ok a -> Forall byte_ok b -> same_num a b = true <-> a = b.
Proof.
  intros b H HA HB. unfold same_num. rewrite Z.eqb_eq. revert b H HB. induction HA as [|x a Hx HA IH]; intros [|y b] H HB; [split; reflexivity|unfold zlen in H; cbn in H; lia|unfold zlen in H; cbn in H; lia|].
  rewrite !zlen_cons in H. inversion HB; subst. cbn [le_num]. specialize (IH b ltac:(lia) H3). unfold byte_ok in *. split; intros E; [|inversion E; subst; reflexivity].
  assert (x = y) by lia. subst y. f_equal. apply IH. lia.
Qed.

Lemma app_inv_len (a b c d : list Z) : length a = length c -> a ++ b = c ++ d <-> a = c /\ b = d.
Proof.
  revert c. induction a as [|x a IH]; intros [|y c] H; cbn in H; try lia; cbn [app]; [tauto|].
  split; intros E; [|destruct E as [E ->]; injection E as -> ->; reflexivity]. injection E as -> E. apply IH in E; [|lia]. destruct E as [-> ->]. auto.
Qed.
Lemma win_bytes M p n : 0 <= p -> 0 <= n -> p + n <= zlen M -> Forall byte_ok M -> Forall byte_ok (win M p n).
Proof.
  intros Hp Hn Hl HF. apply Forall_forall. intros x Hx. rewrite Forall_forall in HF. apply HF. unfold win in Hx.
  rewrite <- (firstn_skipn (Z.to_nat p) M). apply in_app_iff. right. rewrite <- (firstn_skipn (Z.to_nat n) (skipn (Z.to_nat p) M)). apply in_app_iff. left. exact Hx.
Qed.
Lemma me_loop_ok test w M s1 s2 end_ : 0 < w -> 0 <= s1 -> 0 <= s2 -> s1 + end_ <= zlen M -> s2 + end_ <= zlen M ->
  (forall p q, 0 <= p -> 0 <= q -> p + w <= zlen M -> q + w <= zlen M -> test (win M p w) (win M q w) = true <-> win M p w = win M q w) ->
  forall fuel i, 0 <= i <= end_ -> (end_ - i) mod w = 0 -> end_ - i <= Z.of_nat fuel ->
  exists j ok, me_loop test fuel w M s1 s2 i end_ = Some (j, ok) /\ (ok = true -> j = end_) /\ (ok = true <-> win M (s1 + i) (end_ - i) = win M (s2 + i) (end_ - i)).
Proof.
  intros Hw H1 H2 B1 B2 HT. induction fuel as [|fuel IH]; intros i Hi Hm Hf; cbn [me_loop].
  - exists i, true. split; [reflexivity|]. split; [lia|]. replace (end_ - i) with 0 by lia. split; reflexivity.
  - destruct (Z.ltb_spec i end_) as [L|L].
    + assert (i + w <= end_).
      { apply Z.mod_divide in Hm; [|lia]. destruct Hm as [q Hq]. assert (1 <= q) by nia. nia. }
      rewrite !ldn_ok by lia. cbn [obind]. specialize (HT (s1 + i) (s2 + i) ltac:(lia) ltac:(lia) ltac:(lia) ltac:(lia)).
      assert (SP : win M (s1 + i) (end_ - i) = win M (s2 + i) (end_ - i) <-> win M (s1 + i) w = win M (s2 + i) w /\ win M (s1 + (i + w)) (end_ - (i + w)) = win M (s2 + (i + w)) (end_ - (i + w))).
      { replace (end_ - i) with (w + (end_ - (i + w))) by lia. rewrite !win_app by lia. rewrite app_inv_len by (rewrite !win_len by lia; reflexivity). rewrite !Z.add_assoc. reflexivity. }
      destruct (test (win M (s1 + i) w) (win M (s2 + i) w)).
      * destruct (IH (i + w)) as (j & ok & E & A & B); try lia.
        { replace (end_ - (i + w)) with ((end_ - i) + (-1) * w) by lia. rewrite Z.mod_add by lia. exact Hm. }
        exists j, ok. split; [exact E|]. split; [exact A|]. rewrite B, SP. tauto.
      * exists i, false. split; [reflexivity|]. split; [discriminate|]. rewrite SP. split; [discriminate|]. intros [E _]. apply HT in E. discriminate E.
    + exists i, true. split; [reflexivity|]. split; [lia|]. replace (end_ - i) with 0 by lia. split; reflexivity.
Qed.
Lemma me_vecs_ok w M s1 s2 end_ fuel i : 0 < w -> 0 <= s1 -> 0 <= s2 -> s1 + end_ <= zlen M -> s2 + end_ <= zlen M -> 0 <= i <= end_ -> (end_ - i) mod w = 0 -> end_ - i <= Z.of_nat fuel ->
  exists j ok, me_vecs fuel w M s1 s2 i end_ = Some (j, ok) /\ (ok = true -> j = end_) /\ (ok = true <-> win M (s1 + i) (end_ - i) = win M (s2 + i) (end_ - i)).
Proof. intros. apply me_loop_ok; auto. intros. apply mask_full. rewrite !win_zlen by lia. reflexivity. Qed.
Lemma me_words_ok w M s1 s2 end_ fuel i : Forall byte_ok M -> 0 < w -> 0 <= s1 -> 0 <= s2 -> s1 + end_ <= zlen M -> s2 + end_ <= zlen M -> 0 <= i <= end_ -> (end_ - i) mod w = 0 -> end_ - i <= Z.of_nat fuel ->
  exists j ok, me_words fuel w M s1 s2 i end_ = Some (j, ok) /\ (ok = true -> j = end_) /\ (ok = true <-> win M (s1 + i) (end_ - i) = win M (s2 + i) (end_ - i)).
Proof. intros. apply me_loop_ok; auto. intros. apply le_num_inj; [rewrite !win_zlen by lia; reflexivity|apply win_bytes; auto; lia..]. Qed.
Lemma win_split_eq M s1 s2 a b : 0 <= s1 -> 0 <= s2 -> 0 <= a <= b -> s1 + b <= zlen M -> s2 + b <= zlen M ->
  (win M s1 b = win M s2 b <-> win M s1 a = win M s2 a /\ win M (s1 + a) (b - a) = win M (s2 + a) (b - a)).
Proof. intros. replace b with (a + (b - a)) at 1 2 by lia. rewrite !win_app by lia. apply app_inv_len. rewrite !win_len by lia. reflexivity. Qed.
Lemma down n k : 0 <= n -> 0 < k -> 0 <= n / k * k <= n.
Proof. intros. pose proof (Z.div_mod n k ltac:(lia)). pose proof (Z.mod_pos_bound n k ltac:(lia)). pose proof (Z.div_pos n k ltac:(lia) ltac:(lia)). nia. Qed.
(** multiples: the end of one loop is a multiple of the next width *)
Lemma down_step n k m : 0 <= n -> 0 < m -> k mod m = 0 -> 0 < k -> n / k * k <= n / m * m /\ (n / m * m - n / k * k) mod m = 0.
Proof.
  intros Hn Hm Hd Hk. apply Z.mod_divide in Hd; [|lia]. destruct Hd as [q ->]. pose proof (down n (q * m) Hn Hk). assert (0 < q) by nia.
  assert (E : n / (q * m) * (q * m) = n / (q * m) * q * m) by lia. split.
  - rewrite E. apply Z.mul_le_mono_nonneg_r; [lia|]. apply Z.div_le_lower_bound; [lia|]. lia.
  - rewrite E. replace (n / m * m - n / (q * m) * q * m) with ((n / m - n / (q * m) * q) * m) by lia. apply Z.mod_mul. lia.
Qed.
Lemma forallb_combine a b : length a = length b -> forallb (fun p : Z * Z => fst p =? snd p) (combine a b) = true <-> a = b.
Proof.
  revert b. induction a as [|x a IH]; intros [|y b] H; cbn in H; try lia; [split; reflexivity|]. cbn [combine forallb fst snd]. rewrite andb_true_iff, Z.eqb_eq, IH by lia.
  split; [intros [-> ->]; reflexivity|intros E; inversion E; auto].
Qed.
Theorem memequals_ok c M s1 s2 n : Forall byte_ok M -> 0 <= s1 -> 0 <= s2 -> 0 <= n -> s1 + n <= zlen M -> s2 + n <= zlen M ->
  exists r, memequals c M s1 s2 n = Some r /\ (r = true <-> win M s1 n = win M s2 n).
Proof.
  intros HF H1 H2 Hn B1 B2. unfold memequals. destruct (Z.eqb_spec n 0) as [->|NZ]; [exists true; split; [reflexivity|split; reflexivity]|].
  pose proof (down n 8 Hn ltac:(lia)) as D8. pose proof (down n 32 Hn ltac:(lia)) as D32. pose proof (down n 64 Hn ltac:(lia)) as D64.
  destruct (down_step n 32 8 Hn ltac:(lia) eq_refl ltac:(lia)) as [S1 S2]. destruct (down_step n 64 32 Hn ltac:(lia) eq_refl ltac:(lia)) as [S3 S4].
  destruct c.
  - rewrite !ldn_ok by lia. cbn [obind]. eexists. split; [reflexivity|]. apply forallb_combine. rewrite !win_len by lia. reflexivity.
  - unfold avx2_memequals. cbv zeta.
    destruct (me_vecs_ok 32 M s1 s2 (n / 32 * 32) (Z.to_nat n) 0) as (j1 & ok1 & E1 & A1 & C1); try lia. rewrite E1. cbn [obind]. rewrite !Z.sub_0_r, !Z.add_0_r in C1.
    pose proof (win_split_eq M s1 s2 (n / 32 * 32) n H1 H2 D32 B1 B2) as P1.
    destruct ok1; cbn [negb]; [|exists false; split; [reflexivity|]; rewrite P1; rewrite <- C1; split; [discriminate|intros [E _]; discriminate E]].
    rewrite (A1 eq_refl) in *.
    destruct (me_words_ok 8 M s1 s2 (n / 8 * 8) (Z.to_nat n) (n / 32 * 32)) as (j2 & ok2 & E2 & A2 & C2); try lia; auto. rewrite E2. cbn [obind].
    pose proof (win_split_eq M s1 s2 (n / 32 * 32) (n / 8 * 8) H1 H2 ltac:(lia) ltac:(lia) ltac:(lia)) as P2. pose proof (win_split_eq M s1 s2 (n / 8 * 8) n H1 H2 D8 B1 B2) as P3.
    destruct ok2; cbn [negb]; [|exists false; split; [reflexivity|]; rewrite P3, P2, <- C2; split; [discriminate|intros [[_ E] _]; discriminate E]].
    rewrite (A2 eq_refl) in *.
    destruct (me_words_ok 1 M s1 s2 n (Z.to_nat n) (n / 8 * 8)) as (j3 & ok3 & E3 & A3 & C3); try lia; auto. rewrite E3. cbn [obind].
    exists ok3. split; [reflexivity|]. rewrite P3, P2, <- C1, <- C2, <- C3. tauto.
  - unfold avx512_memequals. cbv zeta. rewrite !Z.shiftl_mul_pow2, !Z.shiftr_div_pow2 by lia. change (2 ^ 3) with 8. change (2 ^ 5) with 32. change (2 ^ 6) with 64.
    destruct (me_vecs_ok 64 M s1 s2 (n / 64 * 64) (Z.to_nat n) 0) as (j0 & ok0 & E0 & A0 & C0); try lia. rewrite E0. cbn [obind]. rewrite !Z.sub_0_r, !Z.add_0_r in C0.
    pose proof (win_split_eq M s1 s2 (n / 64 * 64) n H1 H2 D64 B1 B2) as P0.
    destruct ok0; cbn [negb]; [|exists false; split; [reflexivity|]; rewrite P0; rewrite <- C0; split; [discriminate|intros [E _]; discriminate E]].
    rewrite (A0 eq_refl) in *.
    destruct (me_vecs_ok 32 M s1 s2 (n / 32 * 32) (Z.to_nat n) (n / 64 * 64)) as (j1 & ok1 & E1 & A1 & C1); try lia; auto. rewrite E1. cbn [obind].
    pose proof (win_split_eq M s1 s2 (n / 64 * 64) (n / 32 * 32) H1 H2 ltac:(lia) ltac:(lia) ltac:(lia)) as P4.
    pose proof (win_split_eq M s1 s2 (n / 32 * 32) n H1 H2 D32 B1 B2) as P1.
    destruct ok1; cbn [negb]; [|exists false; split; [reflexivity|]; rewrite P1, P4, <- C1; split; [discriminate|intros [[_ E] _]; discriminate E]].
    rewrite (A1 eq_refl) in *.
    destruct (me_words_ok 8 M s1 s2 (n / 8 * 8) (Z.to_nat n) (n / 32 * 32)) as (j2 & ok2 & E2 & A2 & C2); try lia; auto. rewrite E2. cbn [obind].
    pose proof (win_split_eq M s1 s2 (n / 32 * 32) (n / 8 * 8) H1 H2 ltac:(lia) ltac:(lia) ltac:(lia)) as P2. pose proof (win_split_eq M s1 s2 (n / 8 * 8) n H1 H2 D8 B1 B2) as P3.
    destruct ok2; cbn [negb]; [|exists false; split; [reflexivity|]; rewrite P3, P2, <- C2; split; [discriminate|intros [[_ E] _]; discriminate E]].
    rewrite (A2 eq_refl) in *.
    destruct (me_words_ok 1 M s1 s2 n (Z.to_nat n) (n / 8 * 8)) as (j3 & ok3 & E3 & A3 & C3); try lia; auto. rewrite E3. cbn [obind].
    exists ok3. split; [reflexivity|]. rewrite P3, P2, P4, <- C0, <- C1, <- C2, <- C3. tauto.
Qed.

(** ** Bitset containers *)
Lemma bytes8_inj a b : isw a -> isw b -> bytes8 a = bytes8 b -> a = b.
Proof.
  intros Ha Hb E. apply isw_ext; auto. intros i Hi. unfold bytes8 in E. cbn [map] in E. injection E as E0 E1 E2 E3 E4 E5 E6 E7.
  assert (B : forall w k, 0 <= k -> 8 * k <= i < 8 * k + 8 -> Z.testbit (Z.shiftr w (8 * k) mod 256) (i - 8 * k) = Z.testbit w i).
  { intros w k Hk Hb'. change 256 with (2 ^ 8). rewrite Z.mod_pow2_bits_low by lia. rewrite Z.shiftr_spec by lia. f_equal. lia. }
  assert (K : i / 8 = 0 \/ i / 8 = 1 \/ i / 8 = 2 \/ i / 8 = 3 \/ i / 8 = 4 \/ i / 8 = 5 \/ i / 8 = 6 \/ i / 8 = 7) by lia.
  rewrite <- (B a (i / 8)), <- (B b (i / 8)) by lia. f_equal.
  repeat (destruct K as [K|K]; [rewrite K; assumption|]). rewrite K. assumption.
Qed.
Lemma bytes8_list a b : length a = length b -> wfw a -> wfw b -> flat_map bytes8 a = flat_map bytes8 b <-> a = b.
Proof.
  intros H HA. revert b H. induction HA as [|x a Hx HA IH]; intros [|y b] H HB; cbn in H; try lia; [split; reflexivity|]. inversion HB; subst. cbn [flat_map].
  rewrite app_inv_len by reflexivity. rewrite IH by (auto; lia). split; [intros [E ->]; f_equal; apply bytes8_inj; auto|intros E; inversion E; auto].
Qed.
Lemma flat8_len a : zlen (flat_map bytes8 a) = 8 * zlen a.
Proof. induction a as [|x a IH]; [reflexivity|]. cbn [flat_map]. rewrite zlen_app, zlen_cons, IH. change (zlen (bytes8 x)) with 8. lia. Qed.
Lemma win_wfw M p n : 0 <= p -> 0 <= n -> p + n <= zlen M -> wfw M -> wfw (win M p n).
Proof.
  intros Hp Hn Hl HF. apply Forall_forall. intros x Hx. unfold wfw in HF. rewrite Forall_forall in HF. apply HF. unfold win in Hx.
  rewrite <- (firstn_skipn (Z.to_nat p) M). apply in_app_iff. right. rewrite <- (firstn_skipn (Z.to_nat n) (skipn (Z.to_nat p) M)). apply in_app_iff. left. exact Hx.
Qed.
Lemma be_loop_ok n M p q : wfw M -> 0 < n -> 0 <= p -> 0 <= q -> forall fuel i, 0 <= i -> p + n * (i + Z.of_nat fuel) <= zlen M -> q + n * (i + Z.of_nat fuel) <= zlen M ->
  exists r, be_loop fuel n M p q i = Some r /\ (r = true <-> win M (p + n * i) (n * Z.of_nat fuel) = win M (q + n * i) (n * Z.of_nat fuel)).
Proof.
  intros HW Hn Hp Hq. induction fuel as [|fuel IH]; intros i Hi B1 B2; cbn [be_loop].
  - exists true. split; [reflexivity|]. rewrite Z.mul_0_r. split; reflexivity.
  - rewrite !ldn_ok by nia. cbn [obind]. assert (W1 := win_wfw M (p + n * i) n ltac:(nia) ltac:(lia) ltac:(nia) HW). assert (W2 := win_wfw M (q + n * i) n ltac:(nia) ltac:(lia) ltac:(nia) HW).
    assert (L1 := win_len M (p + n * i) n ltac:(nia) ltac:(lia) ltac:(nia)). assert (L2 := win_len M (q + n * i) n ltac:(nia) ltac:(lia) ltac:(nia)).
    assert (T : same_mask (flat_map bytes8 (win M (p + n * i) n)) (flat_map bytes8 (win M (q + n * i) n)) = true <-> win M (p + n * i) n = win M (q + n * i) n).
    { rewrite mask_full by (rewrite !flat8_len, !win_zlen by nia; reflexivity). apply bytes8_list; auto. congruence. }
    assert (SP : win M (p + n * i) (n * Z.of_nat (Datatypes.S fuel)) = win M (q + n * i) (n * Z.of_nat (Datatypes.S fuel)) <->
      win M (p + n * i) n = win M (q + n * i) n /\ win M (p + n * (i + 1)) (n * Z.of_nat fuel) = win M (q + n * (i + 1)) (n * Z.of_nat fuel)).
    { replace (n * Z.of_nat (Datatypes.S fuel)) with (n + n * Z.of_nat fuel) by lia. rewrite !win_app by nia. rewrite app_inv_len by congruence.
      replace (p + n * i + n) with (p + n * (i + 1)) by lia. replace (q + n * i + n) with (q + n * (i + 1)) by lia. reflexivity. }
    destruct (same_mask _ _).
    + destruct (IH (i + 1)) as (r & E & C); try nia. exists r. split; [exact E|]. rewrite C, SP. tauto.
    + exists false. split; [reflexivity|]. rewrite SP. split; [discriminate|]. intros [E _]. apply T in E. discriminate E.
Qed.
Lemma hamming_full w : isw w -> hamming w = 64 -> w = ones64.
Proof.
  intros Hw H. apply isw_ext; [exact Hw|exact isw_ones|]. intros i Hi. rewrite hamming_cnt in H. rewrite (cnt_full_inv (Z.testbit w) 0 64) by (auto; lia).
  symmetry. change ones64 with (Z.ones 64). apply Z.ones_spec_low. lia.
Qed.
Lemma pop_full v : wfw v -> pop v = 64 * zlen v -> v = repeat ones64 (length v).
Proof.
  induction 1 as [|x v Hx HV IH]; intros H; [reflexivity|]. rewrite zlen_cons in H. unfold pop in *. cbn [map zsum] in H. fold (pop v) in *. pose proof (hamming_bound x). pose proof (pop_bound v).
  cbn [length repeat]. f_equal; [apply hamming_full; [exact Hx|lia]|apply IH; lia].
Qed.
(** a cardinality field: unknown or right *)
Definition card_ok (M : memory) (p c : Z) : Prop := c = -1 \/ c = pop (win M p 1024).
Theorem bitset_equals_mem_ok c M p c1 q c2 : wfw M -> 0 <= p -> 0 <= q -> p + 1024 <= zlen M -> q + 1024 <= zlen M -> card_ok M p c1 -> card_ok M q c2 ->
  exists r, bitset_equals_mem c M p c1 q c2 = Some r /\ (r = true <-> win M p 1024 = win M q 1024).
Proof.
  intros HW Hp Hq B1 B2 C1 C2. unfold bitset_equals_mem. cbv zeta. set (known := negb (c1 =? -1) && negb (c2 =? -1)).
  assert (K : known = true -> c1 = pop (win M p 1024) /\ c2 = pop (win M q 1024)).
  { unfold known. intros H. destruct C1 as [->|C1]; [discriminate H|]. destruct C2 as [->|C2]; [destruct (c1 =? -1); discriminate H|]. auto. }
  destruct (known && negb (c1 =? c2)) eqn:E1.
  { exists false. split; [reflexivity|]. split; [discriminate|]. intros E. apply andb_true_iff in E1. destruct E1 as [A B]. destruct (K A) as [-> ->]. rewrite E, Z.eqb_refl in B. discriminate B. }
  destruct (known && (c1 =? 65536)) eqn:E2.
  { exists true. split; [reflexivity|]. split; [intros _|reflexivity]. apply andb_true_iff in E2. destruct E2 as [A B]. rewrite A in E1. cbn [andb] in E1. destruct (K A) as [K1 K2].
    assert (c1 = 65536) by lia. assert (c2 = 65536) by (destruct (Z.eqb_spec c1 c2); [lia|discriminate E1]).
    rewrite (pop_full (win M p 1024)), (pop_full (win M q 1024)); [rewrite !win_len by lia; reflexivity|apply win_wfw; auto; lia|rewrite win_zlen by lia; lia|apply win_wfw; auto; lia|rewrite win_zlen by lia; lia]. }
  destruct c.
  - rewrite !ldn_ok by lia. cbn [obind]. eexists. split; [reflexivity|]. apply forallb_combine. rewrite !win_len by lia. reflexivity.
  - change (1024 * 8 / 32) with 256. destruct (be_loop_ok 4 M p q HW ltac:(lia) Hp Hq (Z.to_nat 256) 0) as (r & E & C); [lia|rewrite Z2Nat.id by lia; lia|rewrite Z2Nat.id by lia; lia|].
    rewrite Z2Nat.id in C by lia. rewrite !Z.mul_0_r, !Z.add_0_r in C. exists r. split; [exact E|exact C].
  - change (1024 * 8 / 64) with 128. destruct (be_loop_ok 8 M p q HW ltac:(lia) Hp Hq (Z.to_nat 128) 0) as (r & E & C); [lia|rewrite Z2Nat.id by lia; lia|rewrite Z2Nat.id by lia; lia|].
    rewrite Z2Nat.id in C by lia. rewrite !Z.mul_0_r, !Z.add_0_r in C. exists r. split; [exact E|exact C].
Qed.
