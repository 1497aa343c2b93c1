(** SimdU: union of sorted arrays of 16-bit numbers in memory: union_uint16 with its
    loads and stores in program order, and the vector version union_vector16.  Input and
    output may overlap the way the in-place unions of mixed_union.c make them overlap. *)
From Verif Require Import Base BitUtil SimdTab ArrayUtil Simd SimdM.
From Coq Require Import Permutation.

(** ** Model *)
(** array_util.c:1108-1155 union_uint16.  q1, q2 are set_1 + idx_1 and set_2 + idx_2, m1, m2
    the numbers of elements from there on, q is buffer + pos; the result is the memory and
    the final buffer + pos. *)
Definition um_rest (M : memory) (q1 m1 q2 m2 q : Z) : option (memory * Z) :=
  if 0 <? m1 then do xs <- ldn M q1 m1; do M <- stn M q xs; Some (M, q + m1)
  else if 0 <? m2 then do xs <- ldn M q2 m2; do M <- stn M q xs; Some (M, q + m2)
  else Some (M, q).
Fixpoint um_loop (fuel : nat) (M : memory) (q1 m1 q2 m2 q val_1 val_2 : Z) : option (memory * Z) :=
  match fuel with
  | O => None
  | S f =>
    if val_1 <? val_2 then
      do M <- wr M q val_1;
      if m1 - 1 =? 0 then um_rest M (q1 + 1) 0 q2 m2 (q + 1)
      else do val_1 <- rd M (q1 + 1); um_loop f M (q1 + 1) (m1 - 1) q2 m2 (q + 1) val_1 val_2
    else if val_2 <? val_1 then
      do M <- wr M q val_2;
      if m2 - 1 =? 0 then um_rest M q1 m1 (q2 + 1) 0 (q + 1)
      else do val_2 <- rd M (q2 + 1); um_loop f M q1 m1 (q2 + 1) (m2 - 1) (q + 1) val_1 val_2
    else
      do M <- wr M q val_1;
      if (m1 - 1 =? 0) || (m2 - 1 =? 0) then um_rest M (q1 + 1) (m1 - 1) (q2 + 1) (m2 - 1) (q + 1)
      else do val_1 <- rd M (q1 + 1); do val_2 <- rd M (q2 + 1);
           um_loop f M (q1 + 1) (m1 - 1) (q2 + 1) (m2 - 1) (q + 1) val_1 val_2
  end.
Definition union_uint16_mem (M : memory) (set_1 size_1 set_2 size_2 buffer : Z) : option (memory * Z) :=
  if size_2 =? 0 then do xs <- ldn M set_1 size_1; do M <- stn M buffer xs; Some (M, size_1)
  else if size_1 =? 0 then do xs <- ldn M set_2 size_2; do M <- stn M buffer xs; Some (M, size_2)
  else
    do val_1 <- rd M set_1; do val_2 <- rd M set_2;
    do (M, e) <- um_loop (Z.to_nat (size_1 + size_2)) M set_1 size_1 set_2 size_2 buffer val_1 val_2;
    Some (M, e - buffer).

(** memcpy of n elements: undefined when the two regions overlap *)
Definition memcpy (M : memory) (dst src n : Z) : option memory :=
  if (dst + n <=? src) || (src + n <=? dst) || (n =? 0) then do xs <- ldn M src n; stn M dst xs else None.
(** memmove *)
Definition memmove (M : memory) (dst src n : Z) : option memory := do xs <- ldn M src n; stn M dst xs.
(** qsort with uint16_compare (array_util.c:1649-1651): the sorted rearrangement *)
Fixpoint insert (x : Z) (l : list Z) : list Z :=
  match l with [] => [x] | y :: l' => if x <=? y then x :: l else y :: insert x l' end.
Fixpoint isort (l : list Z) : list Z := match l with [] => [] | x :: l' => insert x (isort l') end.
(** array_util.c:1636-1646 unique, in place *)
Fixpoint unique_loop (fuel : nat) (M : memory) (out i len pos : Z) : option (memory * Z) :=
  match fuel with
  | O => None
  | S f =>
    if i <? len then
      do x <- rd M (out + i); do y <- rd M (out + i - 1);
      if negb (x =? y) then do M <- wr M (out + pos) x; unique_loop f M out (i + 1) len (pos + 1)
      else unique_loop f M out (i + 1) len pos
    else Some (M, pos)
  end.
Definition unique (M : memory) (out len : Z) : option (memory * Z) := unique_loop (S (Z.to_nat len)) M out 1 len 1.

(** array_util.c:1681-1708, the main loop up to one of the two breaks: pos1, pos2, V, vecMax,
    laststore, output *)
Fixpoint uv_loop (fuel : nat) (M : memory) (array1 len1 array2 len2 pos1 pos2 curA curB : Z) (vecMax laststore : vec) (output : Z)
  : option (memory * Z * Z * vec * vec * vec * Z) :=
  match fuel with
  | O => None
  | S f =>
    if curA <=? curB then
      do V <- ld8 M (array1 + 8 * pos1);
      if pos1 + 1 <? len1 then
        do curA <- rd M (array1 + 8 * (pos1 + 1));
        let '(vecMin, vecMax) := sse_merge V vecMax in
        do (M, k) <- store_unique M laststore vecMin output;
        uv_loop f M array1 len1 array2 len2 (pos1 + 1) pos2 curA curB vecMax vecMin (output + k)
      else Some (M, pos1 + 1, pos2, V, vecMax, laststore, output)
    else
      do V <- ld8 M (array2 + 8 * pos2);
      if pos2 + 1 <? len2 then
        do curB <- rd M (array2 + 8 * (pos2 + 1));
        let '(vecMin, vecMax) := sse_merge V vecMax in
        do (M, k) <- store_unique M laststore vecMin output;
        uv_loop f M array1 len1 array2 len2 pos1 (pos2 + 1) curA curB vecMax vecMin (output + k)
      else Some (M, pos1, pos2 + 1, V, vecMax, laststore, output)
  end.
(** array_util.c:1718-1740: the end, with the rest [t, t+nt) of the array whose vectors are
    used up and the rest [r, r+nr) of the other one; the 16 cells at [stk] are the local
    array [buffer] *)
Definition uv_finish (M : memory) (stk : Z) (laststore vecMax : vec) (t nt r nr output : Z) : option (memory * Z) :=
  do (M, leftoversize) <- store_unique M laststore vecMax stk;
  do M <- memcpy M (stk + leftoversize) t nt;
  let leftoversize := leftoversize + nt in
  do xs <- ldn M stk leftoversize; do M <- stn M stk (isort xs);
  do (M, leftoversize) <- unique M stk leftoversize;
  union_uint16_mem M stk leftoversize r nr output.
(** array_util.c:1656-1742 union_vector16 *)
Definition union_vector16 (M : memory) (stk array1 length1 array2 length2 output : Z) : option (memory * Z) :=
  if (length1 <? 8) || (length2 <? 8) then union_uint16_mem M array1 length1 array2 length2 output
  else
    let initoutput := output in
    let len1 := length1 / 8 in
    let len2 := length2 / 8 in
    do vA <- ld8 M array1; do vB <- ld8 M array2;
    let '(vecMin, vecMax) := sse_merge vA vB in
    do (M, k) <- store_unique M minus1v vecMin output;
    let output := output + k in
    do (M, pos1, pos2, vecMax, laststore, output) <-
      (if (1 <? len1) && (1 <? len2) then
         do curA <- rd M (array1 + 8); do curB <- rd M (array2 + 8);
         do (M, pos1, pos2, V, vecMax, laststore, output) <-
           uv_loop (Z.to_nat (len1 + len2)) M array1 len1 array2 len2 1 1 curA curB vecMax vecMin output;
         let '(vecMin, vecMax) := sse_merge V vecMax in
         do (M, k) <- store_unique M laststore vecMin output;
         Some (M, pos1, pos2, vecMax, vecMin, output + k)
       else Some (M, 1, 1, vecMax, vecMin, output));
    let len := output - initoutput in
    do (M, n) <-
      (if pos1 =? len1
       then uv_finish M stk laststore vecMax (array1 + 8 * pos1) (length1 - 8 * len1) (array2 + 8 * pos2) (length2 - 8 * pos2) output
       else uv_finish M stk laststore vecMax (array2 + 8 * pos2) (length2 - 8 * len2) (array1 + 8 * pos1) (length1 - 8 * pos1) output);
    Some (M, len + n).
(** array_util.c:1982-2011 fast_union_uint16 on a processor with AVX2 *)
Definition fast_union_uint16_avx2 (M : memory) (stk set_1 size_1 set_2 size_2 buffer : Z) : option (memory * Z) :=
  if size_1 <? size_2 then union_vector16 M stk set_1 size_1 set_2 size_2 buffer
  else union_vector16 M stk set_2 size_2 set_1 size_1 buffer.

(** mixed_union.c:207-218: array_array_container_inplace_union when src_1 (at [a], [na]
    elements) has room for both: src_1 is moved up by the size of src_2, then merged back *)
Definition array_inplace_union_mem (M : memory) (a na b nb : Z) : option (memory * Z) :=
  do M <- memmove M (a + nb) a na;
  union_uint16_mem M (a + nb) na b nb a.
(** mixed_union.c:311-354: the same in array_array_container_lazy_inplace_union, with fast_union_uint16.
    The overlapping arguments of union_vector16 are declared __restrict__ (array_util.c:1656-1658); the model
    gives the accesses in program order and does not account for reordering that licence allows. *)
Definition array_lazy_inplace_union_mem (M : memory) (stk a na b nb : Z) : option (memory * Z) :=
  do M <- memmove M (a + nb) a na;
  fast_union_uint16_avx2 M stk (a + nb) na b nb a.

(** * Proofs *)
Local Opaque sse_merge store_unique store_unique_xor.
(** ** union_uint16 *)
(** the unread part [q1,q1+m1) is not reached by the output at [q] while [m2] elements of the
    other input are unread *)
Definition clear (q1 m1 m2 q : Z) : Prop := q1 + m1 <= q \/ q + m2 <= q1.
Definition inm (M : memory) (p n : Z) : Prop := 0 <= p /\ 0 <= n /\ p + n <= zlen M.
Definition post_union (M : memory) (q e m : Z) (M' : memory) (u : list Z) : Prop :=
  same_out M M' q (q + m) /\ q <= e <= q + m /\ win M' q (e - q) = u.
Lemma um_rest_ok M q1 m1 q2 m2 q : inm M q1 m1 -> inm M q2 m2 -> 0 <= q -> q + m1 + m2 <= zlen M -> m1 = 0 \/ m2 = 0 ->
  exists M' e, um_rest M q1 m1 q2 m2 q = Some (M', e) /\ post_union M q e (m1 + m2) M' (union_uint16 (win M q1 m1) (win M q2 m2)).
Proof.
  intros (A1 & A2 & A3) (B1 & B2 & B3) Hq Hl Hz. unfold um_rest.
  destruct (Z.ltb_spec 0 m1); [|destruct (Z.ltb_spec 0 m2)].
  - rewrite ldn_ok by lia. cbn [obind]. destruct (stn_ok M q (win M q1 m1)) as (M' & S1 & S2 & S3); [lia|rewrite win_zlen; lia|].
    rewrite win_zlen in S2, S3 by lia. rewrite S1. cbn [obind]. do 2 eexists. split; [reflexivity|].
    replace m2 with 0 by lia. rewrite win_0, union_uint16_nil_r. split; [|split; [lia|]].
    + eapply same_weaken; [exact S2|lia|lia].
    + replace (q + m1 - q) with m1 by lia. exact S3.
  - rewrite ldn_ok by lia. cbn [obind]. destruct (stn_ok M q (win M q2 m2)) as (M' & S1 & S2 & S3); [lia|rewrite win_zlen; lia|].
    rewrite win_zlen in S2, S3 by lia. rewrite S1. cbn [obind]. do 2 eexists. split; [reflexivity|].
    replace m1 with 0 by lia. rewrite win_0, union_uint16_nil_l. split; [|split; [lia|]].
    + eapply same_weaken; [exact S2|lia|lia].
    + replace (q + m2 - q) with m2 by lia. exact S3.
  - do 2 eexists. split; [reflexivity|]. replace m1 with 0 by lia. replace m2 with 0 by lia. rewrite !win_0. split; [apply same_refl|].
    split; [lia|]. rewrite Z.sub_diag. reflexivity.
Qed.
Lemma wr_ok M q v : 0 <= q < zlen M -> exists M', wr M q v = Some M' /\ same_out M M' q (q + 1) /\ znth M' q = v.
Proof.
  intros H. destruct (stn_ok M q [v]) as (M' & S1 & S2 & S3); [lia|change (zlen [v]) with 1; lia|].
  change (zlen [v]) with 1 in *. exists M'. split; [exact S1|]. split; [exact S2|].
  destruct S2 as [L _]. rewrite win_cons in S3 by lia. congruence.
Qed.
Lemma post_cons M M1 M' q e m v u : same_out M M1 q (q + 1) -> znth M1 q = v -> 0 <= q -> q + 1 + m <= zlen M ->
  0 <= m -> post_union M1 (q + 1) e m M' u -> post_union M q e (m + 1) M' (v :: u).
Proof.
  intros S1 V Hq Hl Hm ((L2 & S2) & E & W). split; [|split; [lia|]].
  - eapply same_trans; [exact S1|split; [exact L2|exact S2]|lia|lia|lia|lia].
  - destruct S1 as [L1 _]. rewrite win_cons by lia. f_equal.
    + rewrite S2 by lia. exact V.
    + replace (e - q - 1) with (e - (q + 1)) by lia. exact W.
Qed.
Lemma post_weaken M q e m m' M' u : post_union M q e m M' u -> m <= m' -> post_union M q e m' M' u.
Proof. intros (A & B & C) H. split; [eapply same_weaken; [exact A|lia|lia]|]. split; [lia|exact C]. Qed.
Lemma um_loop_ok fuel : forall M q1 m1 q2 m2 q, 0 < m1 -> 0 < m2 -> inm M q1 m1 -> inm M q2 m2 -> 0 <= q -> q + m1 + m2 <= zlen M ->
  clear q1 m1 m2 q -> clear q2 m2 m1 q -> m1 + m2 <= Z.of_nat fuel ->
  exists M' e, um_loop fuel M q1 m1 q2 m2 q (znth M q1) (znth M q2) = Some (M', e) /\
    post_union M q e (m1 + m2) M' (union_uint16 (win M q1 m1) (win M q2 m2)).
Proof.
  induction fuel as [|f IH]; intros M q1 m1 q2 m2 q P1 P2 I1 I2 Hq Hl C1 C2 Hf; [lia|].
  destruct I1 as (A1 & A2 & A3), I2 as (B1 & B2 & B3). unfold clear in C1, C2. cbn [um_loop].
  rewrite (win_cons M q1 m1), (win_cons M q2 m2) by lia. rewrite union_uint16_cons.
  destruct (Z.ltb_spec (znth M q1) (znth M q2)) as [Hlt|Hge]; [|destruct (Z.ltb_spec (znth M q2) (znth M q1)) as [Hlt|Hge']].
  - destruct (wr_ok M q (znth M q1)) as (M1 & W1 & S1 & V1); [lia|]. rewrite W1. cbn [obind].
    assert (L1 : zlen M1 = zlen M) by apply S1.
    assert (E1 : win M1 (q1 + 1) (m1 - 1) = win M (q1 + 1) (m1 - 1)) by (eapply same_win; [exact S1|lia|lia|lia|lia]).
    assert (E2 : win M1 q2 m2 = win M q2 m2) by (eapply same_win; [exact S1|lia|lia|lia|lia]).
    assert (N2 : znth M1 q2 = znth M q2) by (apply S1; lia).
    rewrite <- (win_cons M q2 m2) by lia.
    destruct (Z.eqb_spec (m1 - 1) 0) as [Ez|Ez].
    + destruct (um_rest_ok M1 (q1 + 1) 0 q2 m2 (q + 1)) as (M' & e & R & P); try (split; lia); try lia.
      rewrite R. exists M', e. split; [reflexivity|]. replace (m1 + m2) with (0 + m2 + 1) by lia.
      eapply post_cons; eauto; try lia. rewrite <- E2. replace (win M (q1 + 1) (m1 - 1)) with (win M1 (q1 + 1) 0) by (rewrite Ez; reflexivity). exact P.
    + rewrite rd_ok by lia. cbn [obind]. destruct (IH M1 (q1 + 1) (m1 - 1) q2 m2 (q + 1)) as (M' & e & R & P); try (split; lia); try (unfold clear; lia); try lia.
      rewrite <- N2. rewrite R. exists M', e. split; [reflexivity|]. replace (m1 + m2) with (m1 - 1 + m2 + 1) by lia.
      eapply post_cons; eauto; try lia. rewrite <- E1, <- E2. exact P.
  - destruct (wr_ok M q (znth M q2)) as (M1 & W1 & S1 & V1); [lia|]. rewrite W1. cbn [obind].
    assert (L1 : zlen M1 = zlen M) by apply S1.
    assert (E1 : win M1 q1 m1 = win M q1 m1) by (eapply same_win; [exact S1|lia|lia|lia|lia]).
    assert (E2 : win M1 (q2 + 1) (m2 - 1) = win M (q2 + 1) (m2 - 1)) by (eapply same_win; [exact S1|lia|lia|lia|lia]).
    assert (N1 : znth M1 q1 = znth M q1) by (apply S1; lia).
    rewrite <- (win_cons M q1 m1) by lia.
    destruct (Z.eqb_spec (m2 - 1) 0) as [Ez|Ez].
    + destruct (um_rest_ok M1 q1 m1 (q2 + 1) 0 (q + 1)) as (M' & e & R & P); try (split; lia); try lia.
      rewrite R. exists M', e. split; [reflexivity|]. replace (m1 + m2) with (m1 + 0 + 1) by lia.
      eapply post_cons; eauto; try lia. rewrite <- E1. replace (win M (q2 + 1) (m2 - 1)) with (win M1 (q2 + 1) 0) by (rewrite Ez; reflexivity). exact P.
    + rewrite rd_ok by lia. cbn [obind]. destruct (IH M1 q1 m1 (q2 + 1) (m2 - 1) (q + 1)) as (M' & e & R & P); try (split; lia); try (unfold clear; lia); try lia.
      rewrite <- N1. rewrite R. exists M', e. split; [reflexivity|]. replace (m1 + m2) with (m1 + (m2 - 1) + 1) by lia.
      eapply post_cons; eauto; try lia. rewrite <- E1, <- E2. exact P.
  - destruct (wr_ok M q (znth M q1)) as (M1 & W1 & S1 & V1); [lia|]. rewrite W1. cbn [obind].
    assert (L1 : zlen M1 = zlen M) by apply S1.
    assert (E1 : win M1 (q1 + 1) (m1 - 1) = win M (q1 + 1) (m1 - 1)) by (eapply same_win; [exact S1|lia|lia|lia|lia]).
    assert (E2 : win M1 (q2 + 1) (m2 - 1) = win M (q2 + 1) (m2 - 1)) by (eapply same_win; [exact S1|lia|lia|lia|lia]).
    destruct ((m1 - 1 =? 0) || (m2 - 1 =? 0)) eqn:Hz; [apply orb_true_iff in Hz; rewrite !Z.eqb_eq in Hz|apply orb_false_iff in Hz; rewrite !Z.eqb_neq in Hz].
    + destruct (um_rest_ok M1 (q1 + 1) (m1 - 1) (q2 + 1) (m2 - 1) (q + 1)) as (M' & e & R & P); try (split; lia); try lia.
      rewrite R. exists M', e. split; [reflexivity|]. apply post_weaken with (m := (m1 - 1 + (m2 - 1)) + 1); [|lia].
      eapply post_cons; eauto; try lia. rewrite <- E1, <- E2. exact P.
    + rewrite !rd_ok by lia. cbn [obind].
      destruct (IH M1 (q1 + 1) (m1 - 1) (q2 + 1) (m2 - 1) (q + 1)) as (M' & e & R & P); try (split; lia); try (unfold clear; lia); try lia.
      rewrite R. exists M', e. split; [reflexivity|]. apply post_weaken with (m := (m1 - 1 + (m2 - 1)) + 1); [|lia].
      eapply post_cons; eauto; try lia. rewrite <- E1, <- E2. exact P.
Qed.
(** union_uint16 computes the union also when an input lies in the output buffer, behind room for the other input *)
Lemma union_uint16_mem_ok M p1 n1 p2 n2 po : inm M p1 n1 -> inm M p2 n2 -> 0 <= po -> po + n1 + n2 <= zlen M ->
  clear p1 n1 n2 po -> clear p2 n2 n1 po ->
  exists M' k, union_uint16_mem M p1 n1 p2 n2 po = Some (M', k) /\ same_out M M' po (po + n1 + n2) /\ 0 <= k <= n1 + n2 /\
    win M' po k = union_uint16 (win M p1 n1) (win M p2 n2).
Proof.
  intros (A1 & A2 & A3) (B1 & B2 & B3) Hq Hl C1 C2. unfold union_uint16_mem.
  destruct (Z.eqb_spec n2 0) as [->|]; [|destruct (Z.eqb_spec n1 0) as [->|]].
  - rewrite ldn_ok by lia. cbn [obind]. destruct (stn_ok M po (win M p1 n1)) as (M' & S1 & S2 & S3); [lia|rewrite win_zlen; lia|].
    rewrite win_zlen in S2, S3 by lia. rewrite S1. cbn [obind]. do 2 eexists. split; [reflexivity|].
    rewrite win_0, union_uint16_nil_r. split; [eapply same_weaken; [exact S2|lia|lia]|]. split; [lia|exact S3].
  - rewrite ldn_ok by lia. cbn [obind]. destruct (stn_ok M po (win M p2 n2)) as (M' & S1 & S2 & S3); [lia|rewrite win_zlen; lia|].
    rewrite win_zlen in S2, S3 by lia. rewrite S1. cbn [obind]. do 2 eexists. split; [reflexivity|].
    rewrite win_0, union_uint16_nil_l. split; [eapply same_weaken; [exact S2|lia|lia]|]. split; [lia|exact S3].
  - rewrite !rd_ok by lia. cbn [obind].
    destruct (um_loop_ok (Z.to_nat (n1 + n2)) M p1 n1 p2 n2 po) as (M' & e & R & P1 & P2 & P3); try (split; lia); try lia; auto.
    rewrite R. cbn [obind]. do 2 eexists. split; [reflexivity|]. split; [eapply same_weaken; [exact P1|lia|lia]|]. split; [lia|exact P3].
Qed.
(** ** qsort and unique *)
Lemma insert_perm x l : Permutation (insert x l) (x :: l).
Proof.
  induction l as [|y l IH]; [reflexivity|]. cbn. destruct (x <=? y); [reflexivity|].
  eapply perm_trans; [apply perm_skip; exact IH|apply perm_swap].
Qed.
Lemma isort_perm l : Permutation (isort l) l.
Proof. induction l as [|x l IH]; [reflexivity|]. cbn. eapply perm_trans; [apply insert_perm|]. apply perm_skip. exact IH. Qed.
Lemma insert_sle x l : sle l -> sle (insert x l).
Proof.
  induction l as [|y l IH]; intros H; [split; [constructor|exact H]|]. cbn [insert]. destruct (Z.leb_spec x y).
  - split; [|exact H]. constructor; [exact H0|]. destruct H as [H _]. eapply Forall_impl; [|exact H]. intros z Hz. cbv beta in *. lia.
  - destruct H as [H1 H2]. split; [|apply IH; exact H2]. apply Forall_forall. intros z Hz. apply (Permutation_in _ (insert_perm x l)) in Hz.
    rewrite Forall_forall in H1. destruct Hz as [<-|Hz]; [lia|apply H1; exact Hz].
Qed.
Lemma isort_sle l : sle (isort l).
Proof. induction l as [|x l IH]; [exact Logic.I|]. apply insert_sle. exact IH. Qed.
Lemma uniq_zlen p l : zlen (uniq p l) <= zlen l.
Proof.
  revert p. induction l as [|x l IH]; intros p; [reflexivity|]. cbn [uniq]. specialize (IH x). destruct (p =? x); rewrite ?zlen_cons; lia.
Qed.
Lemma unique_loop_ok fuel : forall M b i n pos l0, zlen l0 = n -> 0 <= b -> 1 <= pos <= i -> i <= n -> b + n <= zlen M ->
  (forall j, i - 1 <= j < n -> znth M (b + j) = znth l0 j) -> n - i < Z.of_nat fuel ->
  let u := uniq (znth l0 (i - 1)) (win l0 i (n - i)) in
  exists M', unique_loop fuel M b i n pos = Some (M', pos + zlen u) /\ same_out M M' (b + pos) (b + n) /\ win M' (b + pos) (zlen u) = u /\ pos + zlen u <= n.
Proof.
  induction fuel as [|f IH]; intros M b i n pos l0 L0 Hb Hp Hi Hl HM Hf u; [lia|]. cbn [unique_loop].
  destruct (Z.ltb_spec i n) as [Hin|Hin].
  - rewrite !rd_ok by lia. cbn [obind]. rewrite (HM i) by lia. replace (b + i - 1) with (b + (i - 1)) by lia. rewrite (HM (i - 1)) by lia.
    unfold u. rewrite (win_cons l0 i (n - i)) by lia. cbn [uniq]. rewrite (Z.eqb_sym (znth l0 i)).
    replace (n - i - 1) with (n - (i + 1)) by lia.
    assert (Ei : znth l0 i = znth l0 (i + 1 - 1)) by (f_equal; lia).
    destruct (Z.eqb_spec (znth l0 (i - 1)) (znth l0 i)) as [E|E]; cbn [negb].
    + destruct (IH M b (i + 1) n pos l0) as (M' & R & P1 & P2 & P3); try lia; try (intros j Hj; apply HM; lia). rewrite <- Ei in R, P2, P3.
      exists M'. auto.
    + destruct (wr_ok M (b + pos) (znth l0 i)) as (M1 & W1 & [L1 S1] & V1); [lia|]. rewrite W1. cbn [obind].
      destruct (IH M1 b (i + 1) n (pos + 1) l0) as (M' & R & [L2 S2] & P2 & P3); try lia.
      { intros j Hj. destruct (Z.eq_dec j pos) as [->|]; [rewrite V1; f_equal; lia|]. rewrite S1 by lia. apply HM. lia. }
      rewrite <- Ei in R, P2, P3. exists M'. rewrite zlen_cons. rewrite R.
      split; [do 2 f_equal; lia|]. split; [split; [lia|]; intros j Hj Hn; rewrite S2, S1 by lia; reflexivity|]. split; [|lia].
      set (r := uniq (znth l0 i) (win l0 (i + 1) (n - (i + 1)))) in *. pose proof (zlen_nonneg r).
      rewrite win_cons by lia. rewrite S2 by lia. rewrite V1. f_equal. replace (zlen r + 1 - 1) with (zlen r) by lia.
      replace (b + pos + 1) with (b + (pos + 1)) by lia. exact P2.
  - unfold u. replace (n - i) with 0 by lia. rewrite win_0. cbn [uniq]. change (zlen []) with 0. exists M. split; [do 2 f_equal; lia|].
    split; [apply same_refl|]. split; [reflexivity|lia].
Qed.
Lemma unique_ok M b n x l : 0 <= b -> b + n <= zlen M -> win M b n = x :: l -> zlen (x :: l) = n ->
  exists M' k, unique M b n = Some (M', k) /\ same_out M M' b (b + n) /\ k = zlen (x :: uniq x l) /\ win M' b k = x :: uniq x l /\ 1 <= k <= n.
Proof.
  intros Hb Hl HW Ln. pose proof (zlen_nonneg l). rewrite zlen_cons in Ln. unfold unique.
  destruct (unique_loop_ok (S (Z.to_nat n)) M b 1 n 1 (x :: l)) as (M' & R & [L1 S1] & P2 & P3); try lia.
  { rewrite zlen_cons. lia. }
  { intros j Hj. rewrite <- HW. rewrite znth_win by lia. reflexivity. }
  change (znth (x :: l) (1 - 1)) with x in *.
  assert (E : win (x :: l) 1 (n - 1) = l).
  { unfold win. change (Z.to_nat 1) with 1%nat. cbn [skipn]. apply firstn_all2. unfold zlen in *. lia. }
  rewrite E in R, P2, P3. exists M', (1 + zlen (uniq x l)). split; [exact R|]. pose proof (zlen_nonneg (uniq x l)).
  split; [split; [exact L1|]; intros i Hi Hn; apply S1; lia|]. rewrite zlen_cons. split; [lia|]. split; [|lia].
  rewrite win_cons by lia. f_equal; [|replace (1 + zlen (uniq x l) - 1) with (zlen (uniq x l)) by lia; exact P2].
  rewrite S1 by lia. rewrite win_cons in HW by lia. congruence.
Qed.

(** ** union_vector16 *)
Record uenv (M0 : memory) (p1 n1 p2 n2 po : Z) : Prop := {
  ue_1 : inm M0 p1 n1; ue_2 : inm M0 p2 n2; ue_0 : 0 <= po; ue_l : po + n1 + n2 <= zlen M0;
  ue_c1 : clear p1 n1 n2 po; ue_c2 : clear p2 n2 n1 po;
  ue_i1 : incr (win M0 p1 n1); ue_i2 : incr (win M0 p2 n2);
  ue_b1 : Forall (fun x => 0 <= x < 65536) (win M0 p1 n1); ue_b2 : Forall (fun x => 0 <= x < 65536) (win M0 p2 n2) }.
Lemma uenv_sym M0 p1 n1 p2 n2 po : uenv M0 p1 n1 p2 n2 po -> uenv M0 p2 n2 p1 n1 po.
Proof. intros []. constructor; auto. lia. Qed.
Record uinv (M0 : memory) (p1 n1 p2 n2 po : Z) (M : memory) (pos1 pos2 : Z) (mx old : vec) (out : Z) (W : list Z) : Prop := {
  ui_1 : 1 <= pos1 /\ 8 * pos1 <= n1; ui_2 : 1 <= pos2 /\ 8 * pos2 <= n2;
  ui_v : vinv (win M0 p1 (8 * pos1)) (win M0 (p1 + 8 * pos1) (n1 - 8 * pos1)) (win M0 p2 (8 * pos2)) (win M0 (p2 + 8 * pos2) (n2 - 8 * pos2)) W mx;
  ui_z : zlen W = 8 * (pos1 + pos2 - 1);
  ui_m : lanes mx; ui_o : lanes old; ui_l : znth old 7 = List.last W 65535;
  ui_s : same_out M0 M po (po + 8 * (pos1 + pos2 - 1));
  ui_p : out = po + zlen (uniq 65535 W); ui_w : win M po (zlen (uniq 65535 W)) = uniq 65535 W }.
Lemma uinv_sym M0 p1 n1 p2 n2 po M pos1 pos2 mx old out W :
  uinv M0 p1 n1 p2 n2 po M pos1 pos2 mx old out W -> uinv M0 p2 n2 p1 n1 po M pos2 pos1 mx old out W.
Proof.
  intros [A B C D E F G H I0 J]. constructor; auto.
  - apply vinv_sym. exact C.
  - lia.
  - replace (pos2 + pos1 - 1) with (pos1 + pos2 - 1) by lia. exact H.
Qed.
Lemma uinv_read M0 p1 n1 p2 n2 po M pos1 pos2 mx old out W i m : uenv M0 p1 n1 p2 n2 po -> uinv M0 p1 n1 p2 n2 po M pos1 pos2 mx old out W ->
  8 * pos1 <= i -> 0 <= m -> i + m <= n1 -> win M (p1 + i) m = win M0 (p1 + i) m.
Proof.
  intros [(A1 & A2 & A3) (B1 & B2 & B3) C D E1 E2 _ _ _ _] [F G _ _ _ _ _ H _ _] Hi Hm Hl. unfold clear in *.
  eapply same_win; [exact H|lia|lia|lia|]. lia.
Qed.
Lemma uinv_rd M0 p1 n1 p2 n2 po M pos1 pos2 mx old out W i : uenv M0 p1 n1 p2 n2 po -> uinv M0 p1 n1 p2 n2 po M pos1 pos2 mx old out W ->
  8 * pos1 <= i -> i < n1 -> rd M (p1 + i) = Some (znth M0 (p1 + i)).
Proof.
  intros HE HI Hi Hl. pose proof (uinv_read _ _ _ _ _ _ _ _ _ _ _ _ _ i 1 HE HI Hi ltac:(lia) ltac:(lia)) as H.
  destruct HE as [(A1 & A2 & A3) _ _ _ _ _ _ _ _ _], HI as [F _ _ _ _ _ _ [L _] _ _]. rewrite rd_ok by lia.
  rewrite (win_cons M), (win_cons M0) in H by lia. congruence.
Qed.
Lemma win_split M p n a : inm M p n -> 0 <= a <= n -> win M p n = win M p a ++ win M (p + a) (n - a).
Proof. intros (A & B & C) H. rewrite <- win_app by lia. f_equal. lia. Qed.
Lemma win_lanes M0 p n i : inm M0 p n -> Forall (fun x => 0 <= x < 65536) (win M0 p n) -> 0 <= i -> i + 8 <= n -> lanes (win M0 (p + i) 8).
Proof.
  intros (A & B & C) F Hi Hl. split.
  - apply Nat2Z.inj. change (zlen (win M0 (p + i) 8) = 8). apply win_zlen; lia.
  - rewrite (win_split M0 p n i) in F by (try (split; lia); lia). apply Forall_app in F. destruct F as [_ F].
    rewrite (win_split M0 (p + i) (n - i) 8) in F by (try (split; lia); lia). apply Forall_app in F. apply F.
Qed.
Lemma last_znth (l : list Z) d : l <> [] -> List.last l d = znth l (zlen l - 1).
Proof.
  intros H. destruct (exists_last H) as (l' & x & ->). rewrite last_last. rewrite zlen_app. change (zlen [x]) with 1.
  replace (zlen l' + 1 - 1) with (zlen l') by lia. rewrite znth_app2 by lia. rewrite Z.sub_diag. reflexivity.
Qed.
Lemma last_lanes (W v : list Z) d : lanes v -> List.last (W ++ v) d = znth v 7.
Proof.
  intros [L _]. assert (zlen v = 8) by (unfold zlen; lia). destruct v as [|x v]; [discriminate|]. rewrite last_app_cons.
  rewrite last_znth by discriminate. rewrite H. reflexivity.
Qed.
Lemma uinv_step M0 p1 n1 p2 n2 po M pos1 pos2 mx old out W : uenv M0 p1 n1 p2 n2 po ->
  uinv M0 p1 n1 p2 n2 po M pos1 pos2 mx old out W -> 8 * (pos1 + 1) <= n1 -> 8 * pos2 < n2 ->
  znth M0 (p1 + 8 * pos1) <= znth M0 (p2 + 8 * pos2) ->
  let s := sse_merge (win M0 (p1 + 8 * pos1) 8) mx in
  exists M' k, store_unique M old (fst s) out = Some (M', k) /\ uinv M0 p1 n1 p2 n2 po M' (pos1 + 1) pos2 (snd s) (fst s) (out + k) (W ++ fst s).
Proof.
  intros HE HI Hl1 Hl2 Hc s. pose proof HE as [I1 I2 E0 El C1 C2 Hi1 Hi2 Hb1 Hb2]. pose proof HI as [P1 P2 V Z0 Lm Lo La Sa Po Wo].
  assert (I1' := I1). assert (I2' := I2). destruct I1' as (A1 & A2 & A3), I2' as (B1 & B2 & B3).
  set (V1 := win M0 (p1 + 8 * pos1) 8) in *.
  assert (LV : lanes V1) by (apply (win_lanes M0 p1 n1); auto; lia).
  assert (EA : win M0 p1 n1 = win M0 p1 (8 * pos1) ++ V1 ++ win M0 (p1 + 8 * (pos1 + 1)) (n1 - 8 * (pos1 + 1))).
  { unfold V1. rewrite (win_split M0 p1 n1 (8 * pos1)) by (try assumption; lia). f_equal.
    rewrite (win_split M0 (p1 + 8 * pos1) (n1 - 8 * pos1) 8) by (try (split; lia); lia). do 2 f_equal; lia. }
  assert (EU : win M0 (p1 + 8 * pos1) (n1 - 8 * pos1) = V1 ++ win M0 (p1 + 8 * (pos1 + 1)) (n1 - 8 * (pos1 + 1))).
  { unfold V1. rewrite (win_split M0 (p1 + 8 * pos1) (n1 - 8 * pos1) 8) by (try (split; lia); lia). do 2 f_equal; lia. }
  assert (EB : win M0 p2 n2 = win M0 p2 (8 * pos2) ++ win M0 (p2 + 8 * pos2) (n2 - 8 * pos2)) by (apply win_split; [assumption|lia]).
  rewrite EU in V. rewrite EA in Hi1. rewrite EB in Hi2.
  assert (V' := V). destruct V' as (Vs & Vm & Vp & Vq).
  assert (SV : sle V1) by (apply incr_app in Hi1; destruct Hi1 as (_ & Hi1 & _); apply incr_app in Hi1; apply incr_sle; tauto).
  assert (Sm : sle mx) by (apply sle_app in Vs; tauto).
  assert (ER : win M0 p1 (8 * pos1) ++ V1 = win M0 p1 (8 * (pos1 + 1))).
  { unfold V1. rewrite <- win_app by lia. f_equal. lia. }
  apply (vinv_step _ _ _ _ _ _ _ (proj1 LV) Hi1 Hi2) in V.
  2:{ intros y Hy. rewrite EB in *. rewrite (win_cons M0 (p2 + 8 * pos2)) in Hy, Hi2 by lia.
      unfold V1. rewrite win_cons by lia. rewrite znth_cons_0. destruct Hy as [<-|Hy]; [lia|].
      apply incr_app in Hi2. destruct Hi2 as (_ & Hi2 & _). pose proof (incr_head _ _ _ Hi2 Hy). lia. }
  destruct (merge_lanes V1 mx LV Lm SV Sm) as [Ls1 Ls2]. fold s in V, Ls1, Ls2. rewrite ER in V.
  pose proof (uniq_zlen 65535 W) as Uz. pose proof (zlen_nonneg (uniq 65535 W)).
  assert (LM : zlen M = zlen M0) by apply Sa.
  destruct (store_unique_ok M old (fst s) out Lo Ls1) as (M' & R & S1 & S2 & S3); [lia|lia|].
  exists M'. eexists. split; [exact R|]. rewrite La in *. set (u := uniq (List.last W 65535) (fst s)) in *.
  pose proof (zlen_nonneg u).
  assert (UA : uniq 65535 (W ++ fst s) = uniq 65535 W ++ u) by apply uniq_app.
  constructor; auto; try lia.
  - rewrite zlen_app, Z0. destruct Ls1 as [Ls1 _]. unfold zlen. lia.
  - symmetry. apply last_lanes. exact Ls1.
  - eapply same_trans; [exact Sa|exact S1|lia|lia|lia|lia].
  - rewrite UA, zlen_app. lia.
  - rewrite UA, zlen_app. assert (LM' : zlen M' = zlen M) by apply S1. rewrite win_app by lia. f_equal.
    + rewrite <- Wo at 2. eapply same_win; [exact S1|lia|lia|lia|lia].
    + rewrite <- Po. exact S2.
Qed.
Lemma uinv_step2 M0 p1 n1 p2 n2 po M pos1 pos2 mx old out W : uenv M0 p1 n1 p2 n2 po ->
  uinv M0 p1 n1 p2 n2 po M pos1 pos2 mx old out W -> 8 * pos1 < n1 -> 8 * (pos2 + 1) <= n2 ->
  znth M0 (p2 + 8 * pos2) <= znth M0 (p1 + 8 * pos1) ->
  let s := sse_merge (win M0 (p2 + 8 * pos2) 8) mx in
  exists M' k, store_unique M old (fst s) out = Some (M', k) /\ uinv M0 p1 n1 p2 n2 po M' pos1 (pos2 + 1) (snd s) (fst s) (out + k) (W ++ fst s).
Proof.
  intros HE HI Hl1 Hl2 Hc s.
  destruct (uinv_step _ _ _ _ _ _ _ _ _ _ _ _ _ (uenv_sym _ _ _ _ _ _ HE) (uinv_sym _ _ _ _ _ _ _ _ _ _ _ _ _ HI) Hl2 Hl1 Hc) as (M' & k & R & P).
  exists M', k. split; [exact R|]. apply uinv_sym. exact P.
Qed.
Lemma uv_loop_ok M0 p1 n1 p2 n2 po : uenv M0 p1 n1 p2 n2 po -> forall fuel M pos1 pos2 mx old out W,
  uinv M0 p1 n1 p2 n2 po M pos1 pos2 mx old out W -> pos1 < n1 / 8 -> pos2 < n2 / 8 -> n1 / 8 - pos1 + (n2 / 8 - pos2) <= Z.of_nat fuel ->
  exists M1 pos1' pos2' V mx1 old1 out1, uv_loop fuel M p1 (n1 / 8) p2 (n2 / 8) pos1 pos2 (znth M0 (p1 + 8 * pos1)) (znth M0 (p2 + 8 * pos2)) mx old out =
      Some (M1, pos1', pos2', V, mx1, old1, out1) /\
    (exists M2 k W', store_unique M1 old1 (fst (sse_merge V mx1)) out1 = Some (M2, k) /\
      uinv M0 p1 n1 p2 n2 po M2 pos1' pos2' (snd (sse_merge V mx1)) (fst (sse_merge V mx1)) (out1 + k) W') /\
    (pos1' = n1 / 8 \/ pos1' < n1 / 8 /\ pos2' = n2 / 8).
Proof.
  intros HE. induction fuel as [|f IH]; intros M pos1 pos2 mx old out W HI H1 H2 Hf; [lia|].
  pose proof (Z.mul_div_le n1 8 ltac:(lia)). pose proof (Z.mul_div_le n2 8 ltac:(lia)).
  assert (HE' := uenv_sym _ _ _ _ _ _ HE). assert (HI' := uinv_sym _ _ _ _ _ _ _ _ _ _ _ _ _ HI).
  assert (ML : zlen M = zlen M0) by apply HI.
  assert (A := ue_1 _ _ _ _ _ _ HE). assert (B := ue_2 _ _ _ _ _ _ HE). destruct A as (A1 & A2 & A3), B as (B1 & B2 & B3).
  pose proof (ui_1 _ _ _ _ _ _ _ _ _ _ _ _ _ HI). pose proof (ui_2 _ _ _ _ _ _ _ _ _ _ _ _ _ HI).
  cbn [uv_loop]. destruct (Z.leb_spec (znth M0 (p1 + 8 * pos1)) (znth M0 (p2 + 8 * pos2))) as [Hc|Hc].
  - unfold ld8. rewrite ldn_ok by lia. cbn [obind].
    rewrite (uinv_read _ _ _ _ _ _ _ _ _ _ _ _ _ (8 * pos1) 8 HE HI) by lia.
    destruct (uinv_step _ _ _ _ _ _ _ _ _ _ _ _ _ HE HI ltac:(lia) ltac:(lia) Hc) as (M' & k & R & P).
    destruct (Z.ltb_spec (pos1 + 1) (n1 / 8)) as [Hn|Hn].
    + rewrite (uinv_rd _ _ _ _ _ _ _ _ _ _ _ _ _ (8 * (pos1 + 1)) HE HI) by lia. cbn [obind].
      rewrite (surjective_pairing (sse_merge _ mx)). rewrite R. cbn [obind]. eapply IH; [exact P|lia|lia|lia].
    + do 7 eexists. split; [reflexivity|]. split; [exists M', k, (W ++ fst (sse_merge (win M0 (p1 + 8 * pos1) 8) mx)); split; [exact R|exact P]|]. left. lia.
  - unfold ld8. rewrite ldn_ok by lia. cbn [obind].
    rewrite (uinv_read _ _ _ _ _ _ _ _ _ _ _ _ _ (8 * pos2) 8 HE' HI') by lia.
    destruct (uinv_step2 _ _ _ _ _ _ _ _ _ _ _ _ _ HE HI ltac:(lia) ltac:(lia) ltac:(lia)) as (M' & k & R & P).
    destruct (Z.ltb_spec (pos2 + 1) (n2 / 8)) as [Hn|Hn].
    + rewrite (uinv_rd _ _ _ _ _ _ _ _ _ _ _ _ _ (8 * (pos2 + 1)) HE' HI') by lia. cbn [obind].
      rewrite (surjective_pairing (sse_merge _ mx)). rewrite R. cbn [obind]. eapply IH; [exact P|lia|lia|lia].
    + do 7 eexists. split; [reflexivity|]. split; [exists M', k, (W ++ fst (sse_merge (win M0 (p2 + 8 * pos2) 8) mx)); split; [exact R|exact P]|]. right. lia.
Qed.
(** the final list *)
Lemma vinv_first rA uA rB uB W mx : vinv rA uA rB uB W mx -> incr rA -> (2 <= length rA)%nat -> Forall (fun x => 0 <= x < 65536) rA ->
  W ++ mx <> [] /\ znth (W ++ mx) 0 < 65535.
Proof.
  intros (Vs & Vm & Vp & _) Hi Hl Hb. destruct rA as [|a [|b rA]]; [cbn in Hl; lia|cbn in Hl; lia|].
  assert (Ha : In a (W ++ mx)) by (eapply Permutation_in; [apply Permutation_sym; exact Vp|cbn; auto]).
  destruct (W ++ mx) as [|w Wm]; [destruct Ha|]. split; [discriminate|]. rewrite znth_cons_0.
  assert (w <= a) by (destruct Ha as [->|Ha]; [lia|]; destruct Vs as [Vs _]; rewrite Forall_forall in Vs; apply Vs; exact Ha).
  destruct Hi as [Hi _]. inversion Hi; subst. inversion Hb as [|? ? ? Hb']; subst. inversion Hb'; subst. lia.
Qed.
Lemma fin_union rA uA rB uB W mx L : vinv rA uA rB uB W mx -> incr (rA ++ uA) -> incr (rB ++ uB) -> (2 <= length rA)%nat -> Forall (fun x => 0 <= x < 65536) rA ->
  incr L -> (forall x, In x L <-> In x (uniq (List.last W 65535) mx) \/ In x uA) ->
  uniq 65535 W ++ union_uint16 L uB = union_uint16 (rA ++ uA) (rB ++ uB).
Proof.
  intros V HA HB Hl Hb HL IL. assert (HA' := HA). assert (HB' := HB). apply incr_app in HA', HB'. destruct HA' as (A1 & A2 & A3), HB' as (B1 & B2 & B3).
  destruct (vinv_first _ _ _ _ _ _ V A1 Hl Hb) as [Vn Vf]. destruct V as (Vs & Vm & Vp & Vq).
  destruct (uniq_first 65535 (W ++ mx) ltac:(intros; lia) Vs) as [U1 U2]. rewrite uniq_app in U1, U2.
  apply incr_app in U1. destruct U1 as (U3 & U4 & U5).
  assert (KW : forall x, In x (uniq 65535 W) -> In x W).
  { clear. intros x. generalize 65535. induction W as [|y W IH]; intros p; cbn [uniq]; [auto|]. destruct (p =? y); cbn; firstorder. }
  assert (K2 : forall x, In x W \/ In x mx <-> In x rA \/ In x rB).
  { intros x. rewrite <- !in_app_iff. split; apply Permutation_in; [exact Vp|apply Permutation_sym; exact Vp]. }
  apply incr_ext.
  - apply incr_app. split; [exact U3|]. split; [apply union_uint16_incr; assumption|]. intros x y Hx Hy. apply union_uint16_In in Hy. rewrite IL in Hy.
    destruct Hy as [[Hy|Hy]|Hy]; [apply U5; assumption|apply Vq; auto|apply Vq; auto].
  - apply union_uint16_incr; assumption.
  - intros x. specialize (U2 x). specialize (K2 x). rewrite in_app_iff in U2. rewrite in_app_iff, !union_uint16_In, IL, !in_app_iff. rewrite in_app_iff in U2. tauto.
Qed.
Lemma left_nonempty rA uA rB uB W mx p : vinv rA uA rB uB W mx -> incr rA -> incr rB -> uniq p mx <> [].
Proof.
  intros V HA HB E. pose proof (vinv_count _ _ _ _ _ _ p V HA HB) as C. destruct V as (_ & Vm & _). apply uniq_nil in E.
  rewrite count_occ_app, E, Vm in C. cbn [repeat count_occ] in C. destruct (Z.eq_dec p p); [|congruence]. lia.
Qed.
(** memory outside the output and the stack buffer is unchanged *)
Definition same_out2 (M M' : memory) (lo hi stk n : Z) : Prop :=
  zlen M' = zlen M /\ forall i, 0 <= i -> ~ (lo <= i < hi) -> ~ (stk <= i < stk + n) -> znth M' i = znth M i.
Definition apart (p n q m : Z) : Prop := p + n <= q \/ q + m <= p.
Lemma uv_finish_ok M0 p1 n1 p2 n2 po M pos1 pos2 mx old out W stk : uenv M0 p1 n1 p2 n2 po ->
  uinv M0 p1 n1 p2 n2 po M pos1 pos2 mx old out W -> pos1 = n1 / 8 ->
  inm M0 stk 16 -> apart stk 16 p1 n1 -> apart stk 16 p2 n2 -> apart stk 16 po (n1 + n2) ->
  exists M' k, uv_finish M stk old mx (p1 + 8 * pos1) (n1 - 8 * pos1) (p2 + 8 * pos2) (n2 - 8 * pos2) out = Some (M', k) /\
    same_out2 M0 M' po (po + n1 + n2) stk 16 /\ 0 <= k /\ out - po + k <= n1 + n2 /\
    win M' po (out - po + k) = union_uint16 (win M0 p1 n1) (win M0 p2 n2).
Proof.
  intros HE HI HP (T1 & T2 & T3) Q1 Q2 Q3. unfold apart in *. pose proof HE as [I1 I2 E0 El C1 C2 Hi1 Hi2 Hb1 Hb2]. pose proof HI as [P1 P2 V Z0 Lm Lo La Sa Po Wo].
  assert (I1' := I1). assert (I2' := I2). destruct I1' as (A1 & A2 & A3), I2' as (B1 & B2 & B3). unfold clear in *.
  assert (Hm : 0 <= n1 - 8 * pos1 < 8) by (pose proof (Z.div_mod n1 8 ltac:(lia)); pose proof (Z.mod_pos_bound n1 8 ltac:(lia)); lia).
  assert (LM : zlen M = zlen M0) by apply Sa. pose proof (uniq_zlen 65535 W) as Uz. pose proof (zlen_nonneg (uniq 65535 W)).
  rewrite (win_split M0 p1 n1 (8 * pos1)) in Hi1, Hb1 |- * by (try assumption; lia).
  rewrite (win_split M0 p2 n2 (8 * pos2)) in Hi2 |- * by (try assumption; lia).
  apply Forall_app in Hb1. destruct Hb1 as [Hb1 _].
  pose proof (uinv_read _ _ _ _ _ _ _ _ _ _ _ _ _ (8 * pos1) (n1 - 8 * pos1) HE HI ltac:(lia) ltac:(lia) ltac:(lia)) as RT.
  pose proof (uinv_read _ _ _ _ _ _ _ _ _ _ _ _ _ (8 * pos2) (n2 - 8 * pos2) (uenv_sym _ _ _ _ _ _ HE) (uinv_sym _ _ _ _ _ _ _ _ _ _ _ _ _ HI) ltac:(lia) ltac:(lia) ltac:(lia)) as RR.
  unfold uv_finish. destruct (store_unique_ok M old mx stk Lo Lm) as (M1 & R1 & S1 & W1 & K1); [lia|lia|]. rewrite R1. cbn [obind].
  rewrite La in *. set (L0 := uniq (List.last W 65535) mx) in *. pose proof (zlen_nonneg L0).
  assert (L1 : zlen M1 = zlen M) by apply S1. unfold memcpy at 1.
  replace (_ || _) with true by (symmetry; rewrite !orb_true_iff, !Z.leb_le; lia). rewrite ldn_ok by lia. cbn [obind].
  assert (ET : win M1 (p1 + 8 * pos1) (n1 - 8 * pos1) = win M0 (p1 + 8 * pos1) (n1 - 8 * pos1)) by (rewrite <- RT; eapply same_win; [exact S1|lia|lia|lia|lia]).
  rewrite ET. set (T := win M0 (p1 + 8 * pos1) (n1 - 8 * pos1)) in *.
  assert (LT : zlen T = n1 - 8 * pos1) by (apply win_zlen; lia).
  destruct (stn_ok M1 (stk + zlen L0) T) as (M2 & R2 & S2 & W2); [lia|lia|]. rewrite R2. cbn [obind].
  assert (L2 : zlen M2 = zlen M1) by apply S2. rewrite ldn_ok by lia. cbn [obind].
  assert (E2 : win M2 stk (zlen L0 + (n1 - 8 * pos1)) = L0 ++ T).
  { rewrite win_app by lia. rewrite <- LT, W2. f_equal. rewrite <- W1 at 2. eapply same_win; [exact S2|lia|lia|lia|lia]. }
  rewrite E2. assert (Lsort : zlen (isort (L0 ++ T)) = zlen L0 + (n1 - 8 * pos1)).
  { unfold zlen at 1. rewrite (Permutation_length (isort_perm (L0 ++ T))). fold (zlen (L0 ++ T)). rewrite zlen_app. lia. }
  destruct (stn_ok M2 stk (isort (L0 ++ T))) as (M3 & R3 & S3 & W3); [lia|lia|]. rewrite R3. cbn [obind]. rewrite Lsort in S3, W3.
  assert (L3 : zlen M3 = zlen M2) by apply S3.
  assert (NE : L0 <> []).
  { eapply left_nonempty; [exact V| |]; [apply incr_app in Hi1|apply incr_app in Hi2]; tauto. }
  destruct (isort (L0 ++ T)) as [|x l] eqn:Es.
  { exfalso. pose proof (isort_perm (L0 ++ T)) as Hp. rewrite Es in Hp. apply Permutation_nil in Hp. destruct L0; [congruence|discriminate]. }
  destruct (unique_ok M3 stk (zlen L0 + (n1 - 8 * pos1)) x l) as (M4 & k & R4 & S4 & K4 & W4 & K5); [lia|lia|exact W3|exact Lsort|].
  rewrite R4. cbn [obind]. assert (L4 : zlen M4 = zlen M3) by apply S4.
  assert (SS : same_out M M4 stk (stk + 16)).
  { eapply same_trans; [|exact S4|apply Z.le_refl|lia|apply Z.le_refl|lia].
    eapply same_trans; [|exact S3|apply Z.le_refl|lia|apply Z.le_refl|lia].
    eapply same_trans; [exact S1|exact S2|lia|lia|lia|lia]. }
  destruct (union_uint16_mem_ok M4 stk k (p2 + 8 * pos2) (n2 - 8 * pos2) out) as (M5 & n & R5 & S5 & K6 & W5);
    try (split; lia); try (unfold clear; lia); try lia.
  exists M5, n. split; [exact R5|]. assert (L5 : zlen M5 = zlen M4) by apply S5.
  split; [|split; [lia|split; [lia|]]].
  - split; [lia|]. intros i Hi Ho Hk. destruct S5 as [_ S5]. rewrite S5 by lia. destruct SS as [_ SS]. rewrite SS by lia. apply Sa; lia.
  - rewrite win_app by lia. replace (po + (out - po)) with out by lia. rewrite W5, W4.
    replace (win M5 po (out - po)) with (uniq 65535 W).
    2:{ replace (out - po) with (zlen (uniq 65535 W)) by lia. rewrite <- Wo at 1. transitivity (win M4 po (zlen (uniq 65535 W))); symmetry.
        - eapply same_win; [exact SS|lia|lia|lia|lia].
        - eapply same_win; [exact S5|lia|lia|lia|lia]. }
    replace (win M4 (p2 + 8 * pos2) (n2 - 8 * pos2)) with (win M0 (p2 + 8 * pos2) (n2 - 8 * pos2)).
    2:{ rewrite <- RR. symmetry. eapply same_win; [exact SS|lia|lia|lia|lia]. }
    assert (Ssl : sle (x :: l)) by (rewrite <- Es; apply isort_sle).
    eapply fin_union; [exact V|exact Hi1|exact Hi2| |exact Hb1|apply uniq_incr; exact Ssl|].
    + assert (zlen (win M0 p1 (8 * pos1)) = 8 * pos1) by (apply win_zlen; lia). unfold zlen in *. lia.
    + intros y. rewrite uniq_In, <- in_app_iff, <- Es. split; apply Permutation_in; [|apply Permutation_sym]; apply isort_perm.
Qed.
Lemma union_sym A B : incr A -> incr B -> union_uint16 A B = union_uint16 B A.
Proof. intros HA HB. apply incr_ext; try (apply union_uint16_incr; assumption). intros x. rewrite !union_uint16_In. tauto. Qed.
Lemma lanes_minus1 : lanes minus1v.
Proof. split; [reflexivity|]. apply Forall_forall. intros x Hx. apply repeat_spec in Hx. lia. Qed.
(** ** The theorem about union_vector16 *)
Lemma union_vector16_ok M p1 n1 p2 n2 po stk : uenv M p1 n1 p2 n2 po ->
  inm M stk 16 -> apart stk 16 p1 n1 -> apart stk 16 p2 n2 -> apart stk 16 po (n1 + n2) ->
  exists M' k, union_vector16 M stk p1 n1 p2 n2 po = Some (M', k) /\
    same_out2 M M' po (po + n1 + n2) stk 16 /\ 0 <= k <= n1 + n2 /\ win M' po k = union_uint16 (win M p1 n1) (win M p2 n2).
Proof.
  intros HE HT Q1 Q2 Q3. unfold union_vector16.
  destruct HE as [I1 I2 E0 El C1 C2 Hi1 Hi2 Hb1 Hb2] eqn:EE. pose proof HE as HE'. clear EE.
  destruct ((n1 <? 8) || (n2 <? 8)) eqn:Hs.
  - destruct (union_uint16_mem_ok M p1 n1 p2 n2 po I1 I2 E0 El C1 C2) as (M' & k & R & [L S1] & K & W). exists M', k. split; [exact R|].
    split; [split; [exact L|]; intros i Hi Hn _; apply S1; assumption|]. split; [exact K|exact W].
  - apply orb_false_iff in Hs. rewrite !Z.ltb_ge in Hs. assert (I1' := I1). assert (I2' := I2). destruct I1' as (A1 & A2 & A3), I2' as (B1 & B2 & B3).
    pose proof (Z.mul_div_le n1 8 ltac:(lia)). pose proof (Z.mul_div_le n2 8 ltac:(lia)).
    assert (1 <= n1 / 8) by (apply Z.div_le_lower_bound; lia). assert (1 <= n2 / 8) by (apply Z.div_le_lower_bound; lia).
    unfold ld8. rewrite !ldn_ok by lia. cbn [obind].
    assert (LA : lanes (win M p1 8)) by (replace p1 with (p1 + 0) by lia; apply (win_lanes M p1 n1); auto; lia).
    assert (LB : lanes (win M p2 8)) by (replace p2 with (p2 + 0) by lia; apply (win_lanes M p2 n2); auto; lia).
    set (s := sse_merge (win M p1 8) (win M p2 8)). rewrite (surjective_pairing s).
    assert (IA := Hi1). assert (IB := Hi2). rewrite (win_split M p1 n1 8) in IA by (try assumption; lia). rewrite (win_split M p2 n2 8) in IB by (try assumption; lia).
    pose proof (vinv_init _ _ _ _ (proj1 LA) (proj1 LB) IA IB) as V. fold s in V.
    destruct (merge_lanes (win M p1 8) (win M p2 8) LA LB) as [Ls1 Ls2]; [apply incr_sle; apply incr_app in IA; tauto|apply incr_sle; apply incr_app in IB; tauto|].
    fold s in Ls1, Ls2.
    destruct (store_unique_ok M minus1v (fst s) po) as (M1 & R1 & S1 & W1 & K1); [exact lanes_minus1|exact Ls1|lia|lia|].
    change (znth minus1v 7) with 65535 in *. rewrite R1. cbn [obind]. set (u := uniq 65535 (fst s)) in *.
    assert (HI : uinv M p1 n1 p2 n2 po M1 1 1 (snd s) (fst s) (po + zlen u) (fst s)).
    { constructor; auto; try lia.
      - destruct Ls1. unfold zlen. lia.
      - rewrite <- (last_lanes [] (fst s) 65535 Ls1). reflexivity. }
    assert (FIN : forall M2 pos1 pos2 mx old out W, uinv M p1 n1 p2 n2 po M2 pos1 pos2 mx old out W -> pos1 = n1 / 8 \/ pos1 < n1 / 8 /\ pos2 = n2 / 8 ->
      exists M' k, (do (M3, n) <- (if pos1 =? n1 / 8
         then uv_finish M2 stk old mx (p1 + 8 * pos1) (n1 - 8 * (n1 / 8)) (p2 + 8 * pos2) (n2 - 8 * pos2) out
         else uv_finish M2 stk old mx (p2 + 8 * pos2) (n2 - 8 * (n2 / 8)) (p1 + 8 * pos1) (n1 - 8 * pos1) out); Some (M3, out - po + n)) = Some (M', k) /\
        same_out2 M M' po (po + n1 + n2) stk 16 /\ 0 <= k <= n1 + n2 /\ win M' po k = union_uint16 (win M p1 n1) (win M p2 n2)).
    { intros M2 pos1 pos2 mx old out W HI2 Hpos. assert (Po := ui_p _ _ _ _ _ _ _ _ _ _ _ _ _ HI2). pose proof (zlen_nonneg (uniq 65535 W)).
      destruct (Z.eqb_spec pos1 (n1 / 8)) as [E|E].
      - destruct (uv_finish_ok _ _ _ _ _ _ _ _ _ _ _ _ _ stk HE' HI2 E HT Q1 Q2 Q3) as (M' & k & R & P1 & P2 & P3 & P4).
        rewrite <- E, R. cbn [obind]. do 2 eexists. split; [reflexivity|]. split; [exact P1|]. split; [lia|exact P4].
      - assert (E2 : pos2 = n2 / 8) by lia.
        assert (Q3' : apart stk 16 po (n2 + n1)) by (unfold apart in *; lia).
        destruct (uv_finish_ok _ _ _ _ _ _ _ _ _ _ _ _ _ stk (uenv_sym _ _ _ _ _ _ HE') (uinv_sym _ _ _ _ _ _ _ _ _ _ _ _ _ HI2) E2 HT Q2 Q1 Q3') as (M' & k & R & P1 & P2 & P3 & P4).
        rewrite <- E2, R. cbn [obind]. do 2 eexists. split; [reflexivity|]. replace (po + n1 + n2) with (po + n2 + n1) by lia. split; [exact P1|]. split; [lia|].
        rewrite P4. apply union_sym; assumption. }
    destruct ((1 <? n1 / 8) && (1 <? n2 / 8)) eqn:Hb.
    + apply andb_true_iff in Hb. rewrite !Z.ltb_lt in Hb. change (p1 + 8) with (p1 + 8 * 1). change (p2 + 8) with (p2 + 8 * 1).
      rewrite (uinv_rd _ _ _ _ _ _ _ _ _ _ _ _ _ (8 * 1) HE' HI) by lia. cbn [obind].
      rewrite (uinv_rd _ _ _ _ _ _ _ _ _ _ _ _ _ (8 * 1) (uenv_sym _ _ _ _ _ _ HE') (uinv_sym _ _ _ _ _ _ _ _ _ _ _ _ _ HI)) by lia. cbn [obind].
      destruct (uv_loop_ok _ _ _ _ _ _ HE' (Z.to_nat (n1 / 8 + n2 / 8)) M1 1 1 _ _ _ _ HI) as (M2 & q1 & q2 & V2 & mx2 & old2 & out2 & R2 & (M3 & k3 & W3 & R3 & HI3) & Hpos); [lia|lia|lia|].
      rewrite R2. cbn [obind]. rewrite (surjective_pairing (sse_merge V2 mx2)). rewrite R3. cbn [obind]. eapply FIN; [exact HI3|exact Hpos].
    + apply andb_false_iff in Hb. rewrite !Z.ltb_ge in Hb. cbn [obind]. eapply FIN; [exact HI|]. lia.
Qed.
Lemma fast_union_avx2_ok M p1 n1 p2 n2 po stk : uenv M p1 n1 p2 n2 po ->
  inm M stk 16 -> apart stk 16 p1 n1 -> apart stk 16 p2 n2 -> apart stk 16 po (n1 + n2) ->
  exists M' k, fast_union_uint16_avx2 M stk p1 n1 p2 n2 po = Some (M', k) /\
    same_out2 M M' po (po + n1 + n2) stk 16 /\ 0 <= k <= n1 + n2 /\ win M' po k = union_uint16 (win M p1 n1) (win M p2 n2).
Proof.
  intros HE HT Q1 Q2 Q3. unfold fast_union_uint16_avx2. destruct (n1 <? n2); [apply union_vector16_ok; assumption|].
  destruct (union_vector16_ok M p2 n2 p1 n1 po stk (uenv_sym _ _ _ _ _ _ HE) HT Q2 Q1) as (M' & k & R & P1 & P2 & P3); [unfold apart in *; lia|].
  exists M', k. split; [exact R|]. replace (po + n1 + n2) with (po + n2 + n1) by lia. split; [exact P1|]. split; [lia|].
  rewrite P3. apply union_sym; apply HE.
Qed.

(** ** In-place unions *)
Lemma memmove_ok M dst src n : inm M src n -> inm M dst n ->
  exists M', memmove M dst src n = Some M' /\ same_out M M' dst (dst + n) /\ win M' dst n = win M src n.
Proof.
  intros (A & B & C) (D & E & F). unfold memmove. rewrite ldn_ok by lia. cbn [obind].
  destruct (stn_ok M dst (win M src n)) as (M' & S1 & S2 & S3); [lia|rewrite win_zlen; lia|]. rewrite win_zlen in S2, S3 by lia. eauto.
Qed.
(** the block of src_1 has [cap] cells at [a]; src_2 lies elsewhere *)
Lemma array_inplace_union_mem_ok M a na cap b nb : inm M a cap -> 0 <= na -> inm M b nb -> na + nb <= cap -> apart a cap b nb ->
  exists M' k, array_inplace_union_mem M a na b nb = Some (M', k) /\ same_out M M' a (a + cap) /\
    win M' a k = union_uint16 (win M a na) (win M b nb) /\ 0 <= k <= na + nb.
Proof.
  intros (A1 & A2 & A3) Hn (B1 & B2 & B3) Hc Hap. unfold apart in Hap. unfold array_inplace_union_mem.
  destruct (memmove_ok M (a + nb) a na) as (M1 & R1 & S1 & W1); try (split; lia). rewrite R1. cbn [obind].
  assert (L1 : zlen M1 = zlen M) by apply S1.
  destruct (union_uint16_mem_ok M1 (a + nb) na b nb a) as (M2 & k & R2 & S2 & K & W2); try (split; lia); try (unfold clear; lia); try lia.
  exists M2, k. split; [exact R2|]. split; [eapply same_trans; [exact S1|exact S2|lia|lia|lia|lia]|]. split; [|exact K].
  rewrite W2, W1. f_equal. eapply same_win; [exact S1|lia|lia|lia|lia].
Qed.
Lemma array_lazy_inplace_union_mem_ok M stk a na cap b nb : inm M a cap -> 0 <= na -> inm M b nb -> na + nb <= cap -> apart a cap b nb ->
  inm M stk 16 -> apart stk 16 a cap -> apart stk 16 b nb -> incr (win M a na) -> incr (win M b nb) ->
  Forall (fun x => 0 <= x < 65536) (win M a na) -> Forall (fun x => 0 <= x < 65536) (win M b nb) ->
  exists M' k, array_lazy_inplace_union_mem M stk a na b nb = Some (M', k) /\ same_out2 M M' a (a + cap) stk 16 /\
    win M' a k = union_uint16 (win M a na) (win M b nb) /\ 0 <= k <= na + nb.
Proof.
  intros (A1 & A2 & A3) Hn (B1 & B2 & B3) Hc Hap (T1 & T2 & T3) Q1 Q2 I1 I2 F1 F2. unfold apart in *. unfold array_lazy_inplace_union_mem.
  destruct (memmove_ok M (a + nb) a na) as (M1 & R1 & S1 & W1); try (split; lia). rewrite R1. cbn [obind].
  assert (L1 : zlen M1 = zlen M) by apply S1.
  assert (WB : win M1 b nb = win M b nb) by (eapply same_win; [exact S1|lia|lia|lia|lia]).
  assert (HE : uenv M1 (a + nb) na b nb a).
  { constructor; rewrite ?W1, ?WB; try assumption; try (split; lia); try (unfold clear; lia); lia. }
  destruct (fast_union_avx2_ok M1 (a + nb) na b nb a stk HE) as (M2 & k & R2 & S2 & K & W2); try (split; lia); try (unfold apart; lia).
  exists M2, k. split; [exact R2|]. split; [|split; [rewrite W2, W1, WB; reflexivity|exact K]].
  destruct S1 as [_ S1], S2 as [L2 S2]. split; [lia|]. intros i Hi Ho Hs. rewrite S2, S1 by lia. reflexivity.
Qed.
