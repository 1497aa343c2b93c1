(** SimdI: intersection of sorted arrays of 16-bit numbers with the string-compare
    instructions: intersect_vector16, intersect_vector16_inplace,
    intersect_vector16_cardinality. *)
From Verif Require Import Base BitUtil SimdTab ArrayUtil Simd SimdM SimdU SimdX.
From Coq Require Import Permutation.

(** ** Model *)
(** the number of lanes before the first zero lane *)
Fixpoint istrlen (v : vec) : nat := match v with [] => O | x :: v' => if x =? 0 then O else S (istrlen v') end.
(** _SIDD_UWORD_OPS | _SIDD_CMP_EQUAL_ANY: lane i of the second operand, if valid, equals some valid lane of the first *)
Definition eq_any (lb : nat) (vb : vec) (la : nat) (va : vec) : list bool :=
  map (fun x => existsb (Z.eqb x) (firstn lb vb)) (firstn la va) ++ repeat false (8 - la).
(** _mm_cmpestrm(v_b, 8, v_a, 8, ...) and _mm_cmpistrm(v_b, v_a, ...) with _SIDD_BIT_MASK, then _mm_extract_epi32(., 0) *)
Definition cmpestrm (v_b v_a : vec) : Z := maskb (eq_any 8 v_b 8 v_a).
Definition cmpistrm (v_b v_a : vec) : Z := maskb (eq_any (istrlen v_b) v_b (istrlen v_a) v_a).
(** array_util.c:403-407 (and 431-436, 503-507, ...): the lanes of v_a selected by the mask r are stored at [o] *)
Definition store_sel (M : memory) (v_a : vec) (r o : Z) : option (memory * Z) :=
  do M <- stn M o (shuffle8 v_a (row16 shuffle_mask16 r)); Some (M, popcnt r).
(** array_util.c:397-419 and 421-447: one iteration.  The three functions below differ in what is
    done with the matches ([emit]) and when the block of A is finished ([flush]); [s] is the state
    this needs, [mem s] its memory.  The last component is true after a break. *)
Definition iv_body {St} (mem : St -> memory) (emit : St -> vec -> Z -> option St) (flush : St -> option St) (cmp : vec -> vec -> Z) (A st_a B st_b : Z)
    (s : St) (i_a i_b : Z) (v_a v_b : vec) : option (St * Z * Z * vec * vec * bool) :=
  do s <- emit s v_a (cmp v_b v_a);
  do a_max <- rd (mem s) (A + (i_a + 8 - 1)); do b_max <- rd (mem s) (B + (i_b + 8 - 1));
  do (s, i_a, v_a, stop) <-
    (if a_max <=? b_max then
       do s <- flush s;
       if i_a + 8 =? st_a then Some (s, i_a + 8, v_a, true) else do v_a <- ld8 (mem s) (A + (i_a + 8)); Some (s, i_a + 8, v_a, false)
     else Some (s, i_a, v_a, false));
  if stop then Some (s, i_a, i_b, v_a, v_b, true)
  else if b_max <=? a_max then
    if i_b + 8 =? st_b then Some (s, i_a, i_b + 8, v_a, v_b, true)
    else do v_b <- ld8 (mem s) (B + (i_b + 8)); Some (s, i_a, i_b + 8, v_a, v_b, false)
  else Some (s, i_a, i_b, v_a, v_b, false).
(** array_util.c:397-419: while ((A[i_a] == 0) || (B[i_b] == 0)) *)
Fixpoint iv_loop1 {St} (fuel : nat) (mem : St -> memory) emit flush (A st_a B st_b : Z) (s : St) (i_a i_b : Z) (v_a v_b : vec) : option (St * Z * Z * vec * vec) :=
  match fuel with
  | O => None
  | S f =>
    do a <- rd (mem s) (A + i_a); do b <- rd (mem s) (B + i_b);
    if (a =? 0) || (b =? 0) then
      do (s, i_a, i_b, v_a, v_b, stop) <- iv_body mem emit flush cmpestrm A st_a B st_b s i_a i_b v_a v_b;
      if (stop : bool) then Some (s, i_a, i_b, v_a, v_b) else iv_loop1 f mem emit flush A st_a B st_b s i_a i_b v_a v_b
    else Some (s, i_a, i_b, v_a, v_b)
  end.
(** array_util.c:421-445: while (true) *)
Fixpoint iv_loop2 {St} (fuel : nat) (mem : St -> memory) emit flush (A st_a B st_b : Z) (s : St) (i_a i_b : Z) (v_a v_b : vec) : option (St * Z * Z) :=
  match fuel with
  | O => None
  | S f =>
    do (s, i_a, i_b, v_a, v_b, stop) <- iv_body mem emit flush cmpistrm A st_a B st_b s i_a i_b v_a v_b;
    if (stop : bool) then Some (s, i_a, i_b) else iv_loop2 f mem emit flush A st_a B st_b s i_a i_b v_a v_b
  end.
(** array_util.c:388-446 (494-558, 583-629): the vector part, giving the state, i_a, i_b *)
Definition iv_vector {St} (mem : St -> memory) emit flush (A s_a B s_b : Z) (s : St) : option (St * Z * Z) :=
  let st_a := s_a / 8 * 8 in
  let st_b := s_b / 8 * 8 in
  let fuel := S (Z.to_nat (s_a + s_b)) in
  if (0 <? st_a) && (0 <? st_b) then
    do v_a <- ld8 (mem s) A; do v_b <- ld8 (mem s) B;
    do (s, i_a, i_b, v_a, v_b) <- iv_loop1 fuel mem emit flush A st_a B st_b s 0 0 v_a v_b;
    if (i_a <? st_a) && (i_b <? st_b) then iv_loop2 fuel mem emit flush A st_a B st_b s i_a i_b v_a v_b
    else Some (s, i_a, i_b)
  else Some (s, 0, 0).
(** array_util.c:448-462: the scalar tail, on pointers and remaining lengths; the result is the final &C[count] *)
Fixpoint it_loop (fuel : nat) (M : memory) (qa ma qb mb q : Z) : option (memory * Z) :=
  match fuel with
  | O => None
  | S f =>
    if (0 <? ma) && (0 <? mb) then
      do a <- rd M qa; do b <- rd M qb;
      if a <? b then it_loop f M (qa + 1) (ma - 1) qb mb q
      else if b <? a then it_loop f M qa ma (qb + 1) (mb - 1) q
      else do M <- wr M q a; it_loop f M (qa + 1) (ma - 1) (qb + 1) (mb - 1) (q + 1)
    else Some (M, q)
  end.
(** array_util.c:631-643: the same without the store *)
Fixpoint it_count (fuel : nat) (M : memory) (qa ma qb mb count : Z) : option Z :=
  match fuel with
  | O => None
  | S f =>
    if (0 <? ma) && (0 <? mb) then
      do a <- rd M qa; do b <- rd M qb;
      if a <? b then it_count f M (qa + 1) (ma - 1) qb mb count
      else if b <? a then it_count f M qa ma (qb + 1) (mb - 1) count
      else it_count f M (qa + 1) (ma - 1) (qb + 1) (mb - 1) (count + 1)
    else Some count
  end.
(** array_util.c:385-464 intersect_vector16: the matches of each block are stored at &C[count] ("can overflow") *)
Definition emit_store (C : Z) (s : memory * Z) (v_a : vec) (r : Z) : option (memory * Z) :=
  do (M, k) <- store_sel (fst s) v_a r (C + snd s); Some (M, snd s + k).
Definition intersect_vector16 (M : memory) (A s_a B s_b C : Z) : option (memory * Z) :=
  do (s, i_a, i_b) <- iv_vector fst (emit_store C) Some A s_a B s_b (M, 0);
  do (M, e) <- it_loop (S (Z.to_nat (s_a + s_b))) (fst s) (A + i_a) (s_a - i_a) (B + i_b) (s_b - i_b) (C + snd s);
  Some (M, e - C).
(** array_util.c:574-645 intersect_vector16_cardinality *)
Definition emit_count (s : memory * Z) (v_a : vec) (r : Z) : option (memory * Z) := Some (fst s, snd s + popcnt r).
Definition intersect_vector16_cardinality (M : memory) (A s_a B s_b : Z) : option Z :=
  do (s, i_a, i_b) <- iv_vector fst emit_count Some A s_a B s_b (M, 0);
  it_count (S (Z.to_nat (s_a + s_b))) (fst s) (A + i_a) (s_a - i_a) (B + i_b) (s_b - i_b) (snd s).
(** array_util.c:486-572 intersect_vector16_inplace: the matches of the current block of A are collected
    in [tmp], a register array of 16 lanes, and stored at &A[count] when the block is finished *)
Definition ip_mem (s : memory * vec * Z * Z) : memory := let '(M, tmp, tmp_count, count) := s in M.
Definition emit_tmp (s : memory * vec * Z * Z) (v_a : vec) (r : Z) : option (memory * vec * Z * Z) :=
  let '(M, tmp, tmp_count, count) := s in
  do (tmp, k) <- store_sel tmp v_a r tmp_count; Some (M, tmp, tmp_count + k, count).
Definition flush_tmp (A : Z) (s : memory * vec * Z * Z) : option (memory * vec * Z * Z) :=
  let '(M, tmp, tmp_count, count) := s in
  do t0 <- ldn tmp 0 8; do M <- stn M (A + count) t0; do tmp <- stn tmp 0 zerov;
  Some (M, tmp, 0, count + tmp_count).
(** array_util.c:548-552: for (i = 0; i < tmp_count; i++) A[count++] = tmp[i] *)
Fixpoint copy_tmp (fuel : nat) (M : memory) (q : Z) (tmp : vec) (i tmp_count : Z) : option (memory * Z) :=
  match fuel with
  | O => None
  | S f => if i <? tmp_count then do x <- rd tmp i; do M <- wr M q x; copy_tmp f M (q + 1) tmp (i + 1) tmp_count else Some (M, q)
  end.
Definition intersect_vector16_inplace (M : memory) (A s_a B s_b : Z) : option (memory * Z) :=
  do (s, i_a, i_b) <- iv_vector ip_mem emit_tmp (flush_tmp A) A s_a B s_b (M, repeat 0 16, 0, 0);
  let '(M, tmp, tmp_count, count) := s in
  do (M, q) <- copy_tmp (S (Z.to_nat tmp_count)) M (A + count) tmp 0 tmp_count;
  let i_a := i_a + tmp_count in
  do (M, e) <- it_loop (S (Z.to_nat (s_a + s_b))) M (A + i_a) (s_a - i_a) (B + i_b) (s_b - i_b) q;
  Some (M, e - A).

(** * Proofs *)
Local Opaque sse_merge store_unique store_unique_xor shuffle8 row16 shuffle_mask16 maskb.
Lemma store_sel_ok M va bs o : lanes va -> length bs = 8%nat -> 0 <= o -> o + 8 <= zlen M ->
  exists M', store_sel M va (maskb bs) o = Some (M', zlen (sel bs va)) /\ same_out M M' o (o + 8) /\ win M' o (zlen (sel bs va)) = sel bs va /\ zlen (sel bs va) <= 8.
Proof.
  intros Hv Lb H0 H1. unfold store_sel. destruct (shuffle_mask16_row _ Lb) as [R P]. rewrite R, P.
  destruct (shuffle_keys_sel _ va Hv Lb) as (pad & E & L8). rewrite E.
  assert (LS : zlen (idxs 0 bs) = zlen (sel bs va)) by (symmetry; apply sel_zlen; destruct Hv as [Ln _]; unfold zlen; lia).
  destruct (stn_prefix M o _ pad L8 H0 H1) as (M' & S1 & S2 & S3 & S4). exists M'. rewrite S1. cbn [obind]. rewrite LS. auto.
Qed.
Lemma popcnt_sel va bs : lanes va -> length bs = 8%nat -> popcnt (maskb bs) = zlen (sel bs va).
Proof.
  intros Hv Lb. destruct (shuffle_mask16_row _ Lb) as [R P]. rewrite P. symmetry. apply sel_zlen. destruct Hv as [Ln _]. unfold zlen. lia.
Qed.
(** the lanes of [va] that occur in [vb] *)
Definition common (vb va : list Z) : list Z := filter (fun x => existsb (Z.eqb x) vb) va.
Lemma common_In vb va x : In x (common vb va) <-> In x va /\ In x vb.
Proof.
  unfold common. rewrite filter_In. rewrite existsb_exists. split.
  - intros [A (y & B & C)]. apply Z.eqb_eq in C. subst y. auto.
  - intros [A B]. split; [exact A|]. exists x. split; [exact B|apply Z.eqb_refl].
Qed.
Lemma sel_map f v : sel (map f v) v = filter f v.
Proof. induction v as [|x v IH]; [reflexivity|]. cbn. rewrite IH. reflexivity. Qed.
Lemma eq_any_full vb va : length va = 8%nat -> length vb = 8%nat -> eq_any 8 vb 8 va = map (fun x => existsb (Z.eqb x) vb) va.
Proof. intros La Lb. unfold eq_any. rewrite !firstn_all2 by lia. cbn [Nat.sub repeat]. apply app_nil_r. Qed.
Lemma istrlen_full v : (forall x, In x v -> x <> 0) -> istrlen v = length v.
Proof.
  induction v as [|x v IH]; intros H; [reflexivity|]. cbn [istrlen length]. assert (x <> 0) by (apply H; left; reflexivity).
  replace (x =? 0) with false by lia. rewrite IH; [reflexivity|]. intros y Hy. apply H. right. exact Hy.
Qed.
Lemma cmpestrm_spec vb va : length va = 8%nat -> length vb = 8%nat -> cmpestrm vb va = maskb (map (fun x => existsb (Z.eqb x) vb) va).
Proof. intros La Lb. unfold cmpestrm. rewrite eq_any_full by assumption. reflexivity. Qed.
Lemma cmpistrm_spec vb va : length va = 8%nat -> length vb = 8%nat -> (forall x, In x va -> x <> 0) -> (forall x, In x vb -> x <> 0) ->
  cmpistrm vb va = maskb (map (fun x => existsb (Z.eqb x) vb) va).
Proof. intros La Lb Za Zb. unfold cmpistrm. rewrite !istrlen_full by assumption. rewrite La, Lb, eq_any_full by assumption. reflexivity. Qed.

(** ** The state of the loops as lists: [m] bounds everything discarded, [O] are the common values up to [m] *)
Definition iinv (rA uA rB uB : list Z) (m : Z) (O : list Z) : Prop :=
  incr O /\ (forall x, In x O <-> In x (rA ++ uA) /\ In x (rB ++ uB) /\ x <= m) /\
  (forall x, In x rA -> x <= m) /\ (forall x, In x rB -> x <= m) /\
  ((forall x, In x uA -> m < x) \/ (forall x, In x uB -> m < x)) /\
  (forall x, In x (skipn 7 uA) -> m <= x) /\ (forall x, In x (skipn 7 uB) -> m <= x).
Lemma skipn7 (v u : list Z) : length v = 8%nat -> skipn 7 (v ++ u) = znth v 7 :: u.
Proof. intros L. do 8 (destruct v as [|? v]; [discriminate L|]). destruct v; [|discriminate L]. reflexivity. Qed.
Lemma incr_max8 v x : incr v -> length v = 8%nat -> In x v -> x <= znth v 7.
Proof.
  intros Hi Lv Hx. apply In_znth in Hx. destruct Hx as (i & Hi2 & <-). apply incr_znth_le; [exact Hi|lia| |]; unfold zlen in *; lia.
Qed.
Lemma in7 v : length v = 8%nat -> In (znth v 7) v.
Proof. intros L. apply znth_In. unfold zlen. lia. Qed.
Lemma iinv_init uA uB : (forall x, In x uA -> 0 <= x) -> (forall x, In x uB -> 0 <= x) -> iinv [] uA [] uB (-1) [].
Proof.
  intros HA HB. split; [exact Logic.I|]. split; [|split; [intros x []|split; [intros x []|split; [left; intros x Hx; specialize (HA x Hx); lia|split]]]].
  - intros x. cbn. split; [tauto|]. intros (A & B & C). specialize (HA x A). lia.
  - intros x Hx. assert (In x uA) as G by (rewrite <- (firstn_skipn 7 uA); apply in_app_iff; right; exact Hx). specialize (HA x G). lia.
  - intros x Hx. assert (In x uB) as G by (rewrite <- (firstn_skipn 7 uB); apply in_app_iff; right; exact Hx). specialize (HB x G). lia.
Qed.
Lemma iinv_step rA va uA rB vb uB m O (fa fb : bool) : length va = 8%nat -> length vb = 8%nat -> incr (rA ++ va ++ uA) -> incr (rB ++ vb ++ uB) ->
  iinv rA (va ++ uA) rB (vb ++ uB) m O ->
  (fa = true -> znth va 7 <= znth vb 7) -> (fb = true -> znth vb 7 <= znth va 7) -> fa = true \/ fb = true ->
  iinv (if fa then rA ++ va else rA) (if fa then uA else va ++ uA) (if fb then rB ++ vb else rB) (if fb then uB else vb ++ uB)
    (Z.min (znth va 7) (znth vb 7)) (O ++ common vb va).
Proof.
  intros La Lb HA HB (O1 & O2 & R1 & R2 & D & T1 & T2) Fa Fb Ff.
  rewrite (skipn7 va uA La) in T1. rewrite (skipn7 vb uB Lb) in T2.
  assert (HA' := HA). assert (HB' := HB). apply incr_app in HA', HB'. destruct HA' as (A1 & A2 & A3), HB' as (B1 & B2 & B3).
  apply incr_app in A2, B2. destruct A2 as (A4 & A5 & A6), B2 as (B4 & B5 & B6).
  pose proof (fun x => incr_max8 va x A4 La) as MA. pose proof (fun x => incr_max8 vb x B4 Lb) as MB. pose proof (in7 va La) as IA. pose proof (in7 vb Lb) as IB.
  set (amax := znth va 7) in *. set (bmax := znth vb 7) in *.
  assert (Ma : m <= amax) by (apply T1; left; reflexivity). assert (Mb : m <= bmax) by (apply T2; left; reflexivity).
  assert (EA : (if fa then rA ++ va else rA) ++ (if fa then uA else va ++ uA) = rA ++ va ++ uA) by (destruct fa; rewrite <- ?app_assoc; reflexivity).
  assert (EB : (if fb then rB ++ vb else rB) ++ (if fb then uB else vb ++ uB) = rB ++ vb ++ uB) by (destruct fb; rewrite <- ?app_assoc; reflexivity).
  assert (GT : forall x, In x va -> In x vb -> m < x) by (intros x Hx Hy; destruct D as [D|D]; apply D; apply in_app_iff; auto).
  split; [|split; [|split; [|split; [|split; [|split]]]]].
  - apply incr_app. split; [exact O1|]. split; [apply incr_filter; exact A4|]. intros x y Hx Hy. apply O2 in Hx. apply common_In in Hy. destruct Hy as [Hy1 Hy2].
    specialize (GT y Hy1 Hy2). lia.
  - intros x. rewrite EA, EB, in_app_iff, common_In, O2. split.
    + intros [(X1 & X2 & X3)|[X1 X2]]; [split; [exact X1|split; [exact X2|lia]]|]. rewrite !in_app_iff. specialize (MA x X1). specialize (MB x X2).
      split; [tauto|]. split; [tauto|lia].
    + intros (X1 & X2 & X3). destruct (Z_le_gt_dec x m) as [Hx|Hx]; [left; auto|right].
      rewrite !in_app_iff in X1, X2. destruct X1 as [X1|[X1|X1]]; [specialize (R1 x X1); lia| |specialize (A6 _ _ IA X1); lia].
      destruct X2 as [X2|[X2|X2]]; [specialize (R2 x X2); lia|auto|specialize (B6 _ _ IB X2); lia].
  - intros x Hx. destruct fa.
    + specialize (Fa eq_refl). apply in_app_iff in Hx. destruct Hx as [Hx|Hx]; [specialize (R1 x Hx); lia|specialize (MA x Hx); lia].
    + specialize (R1 x Hx). lia.
  - intros x Hx. destruct fb.
    + specialize (Fb eq_refl). apply in_app_iff in Hx. destruct Hx as [Hx|Hx]; [specialize (R2 x Hx); lia|specialize (MB x Hx); lia].
    + specialize (R2 x Hx). lia.
  - destruct fa; [left|destruct fb; [right|destruct Ff; discriminate]].
    + intros x Hx. specialize (A6 _ _ IA Hx). lia.
    + intros x Hx. specialize (B6 _ _ IB Hx). lia.
  - intros x Hx. destruct fa.
    + assert (In x uA) as G by (rewrite <- (firstn_skipn 7 uA); apply in_app_iff; right; exact Hx). specialize (A6 _ _ IA G). lia.
    + rewrite (skipn7 va uA La) in Hx. destruct Hx as [<-|Hx]; [fold amax; lia|specialize (A6 _ _ IA Hx); lia].
  - intros x Hx. destruct fb.
    + assert (In x uB) as G by (rewrite <- (firstn_skipn 7 uB); apply in_app_iff; right; exact Hx). specialize (B6 _ _ IB G). lia.
    + rewrite (skipn7 vb uB Lb) in Hx. destruct Hx as [<-|Hx]; [fold bmax; lia|specialize (B6 _ _ IB Hx); lia].
Qed.
Lemma iinv_len rA uA rB uB m O : incr (rA ++ uA) -> incr (rB ++ uB) -> iinv rA uA rB uB m O -> zlen O <= Z.min (zlen (rA ++ uA)) (zlen (rB ++ uB)).
Proof.
  intros HA HB (O1 & O2 & _). apply Z.min_glb; unfold zlen; apply Nat2Z.inj_le; apply NoDup_incl_length; try (apply incr_NoDup; exact O1); intros x Hx; apply O2 in Hx; tauto.
Qed.

Lemma inter_nil_l B : inter [] B = []. Proof. reflexivity. Qed.
Lemma iinv_fin rA uA rB uB m O : incr (rA ++ uA) -> incr (rB ++ uB) -> iinv rA uA rB uB m O ->
  O ++ inter uA uB = inter (rA ++ uA) (rB ++ uB).
Proof.
  intros HA HB (O1 & O2 & R1 & R2 & D & _ & _). assert (HA' := HA). assert (HB' := HB). apply incr_app in HA', HB'. destruct HA' as (A1 & A2 & A3), HB' as (B1 & B2 & B3).
  apply incr_ext.
  - apply incr_app. split; [exact O1|]. split; [apply incr_filter; exact A2|]. intros x y Hx Hy. apply O2 in Hx. apply inter_In in Hy. destruct Hy as [Y1 Y2].
    destruct D as [D|D]; [specialize (D y Y1)|specialize (D y Y2)]; lia.
  - apply incr_filter. exact HA.
  - intros x. rewrite in_app_iff, O2, !inter_In. split.
    + intros [(X1 & X2 & _)|[X1 X2]]; [auto|]. rewrite !in_app_iff. auto.
    + intros [X1 X2]. destruct (Z_le_gt_dec x m); [left; auto|right]. rewrite !in_app_iff in X1, X2.
      split; [destruct X1 as [X1|X1]; [specialize (R1 x X1); lia|exact X1]|destruct X2 as [X2|X2]; [specialize (R2 x X2); lia|exact X2]].
Qed.
(** ** The scalar tail *)
Lemma it_loop_ok fuel : forall M qa ma qb mb q m, inm M qa ma -> inm M qb mb -> 0 <= q -> q + m <= zlen M ->
  q <= qa \/ qa + ma <= q -> apart qb mb q m -> zlen (inter (win M qa ma) (win M qb mb)) <= m -> ma + mb < Z.of_nat fuel -> incr (win M qa ma) -> incr (win M qb mb) ->
  exists M' e, it_loop fuel M qa ma qb mb q = Some (M', e) /\ post_union M q e m M' (inter (win M qa ma) (win M qb mb)).
Proof.
  induction fuel as [|f IH]; intros M q1 m1 q2 m2 q m I1 I2 Hq Hl C1 C2 Hm Hf N1 N2; [destruct I1 as (? & ? & ?), I2 as (? & ? & ?); lia|].
  assert (I1' := I1). assert (I2' := I2). destruct I1' as (A1 & A2 & A3), I2' as (B1 & B2 & B3). unfold apart in C2. cbn [it_loop].
  destruct ((0 <? m1) && (0 <? m2)) eqn:Hb.
  - apply andb_true_iff in Hb. rewrite !Z.ltb_lt in Hb. destruct Hb as [P1 P2]. rewrite !rd_ok by lia. cbn [obind].
    assert (W1 := win_cons M q1 m1 A1 P1 A3). assert (W2 := win_cons M q2 m2 B1 P2 B3). rewrite W1 in N1, Hm |- *. rewrite W2 in N2, Hm |- *.
    assert (T1 : incr (win M (q1 + 1) (m1 - 1))) by (apply incr_tail in N1; exact N1). assert (T2 : incr (win M (q2 + 1) (m2 - 1))) by (apply incr_tail in N2; exact N2).
    destruct (Z.ltb_spec (znth M q1) (znth M q2)) as [Hlt|Hge]; [|destruct (Z.ltb_spec (znth M q2) (znth M q1)) as [Hlt|Hge']].
    + rewrite inter_lt_all in Hm |- * by (first [exact N2|intros b [<-|Hb]; [exact Hlt|apply (incr_head _ _ _ N2) in Hb; lia]]). rewrite <- W2 in Hm, N2 |- *.
      destruct (IH M (q1 + 1) (m1 - 1) q2 m2 q m) as (M' & e & R & P); try (split; lia); try (unfold apart; lia); try lia; try assumption.
      exists M', e. split; [exact R|exact P].
    + rewrite inter_drop_r in Hm |- * by (intros b [<-|Hb]; [exact Hlt|apply (incr_head _ _ _ N1) in Hb; lia]). rewrite <- W1 in Hm, N1 |- *.
      destruct (IH M q1 m1 (q2 + 1) (m2 - 1) q m) as (M' & e & R & P); try (split; lia); try (unfold apart; lia); try lia; try assumption.
      exists M', e. split; [exact R|exact P].
    + assert (Ev : znth M q2 = znth M q1) by lia. rewrite Ev in Hm |- *.
      assert (EI : inter (znth M q1 :: win M (q1 + 1) (m1 - 1)) (znth M q1 :: win M (q2 + 1) (m2 - 1)) = znth M q1 :: inter (win M (q1 + 1) (m1 - 1)) (win M (q2 + 1) (m2 - 1))).
      { rewrite inter_cons. replace (zmem (znth M q1) (znth M q1 :: win M (q2 + 1) (m2 - 1))) with true by (symmetry; apply zmem_In; left; reflexivity). cbn [app]. f_equal.
        apply inter_drop_r. intros a Ha. apply (incr_head _ _ _ N1) in Ha. exact Ha. }
      rewrite EI in Hm |- *. rewrite zlen_cons in Hm. pose proof (zlen_nonneg (inter (win M (q1 + 1) (m1 - 1)) (win M (q2 + 1) (m2 - 1)))) as L0.
      destruct (wr_ok M q (znth M q1)) as (M1 & X1 & S1 & V1); [lia|]. rewrite X1. cbn [obind]. assert (L1 : zlen M1 = zlen M) by apply S1.
      assert (E1 : win M1 (q1 + 1) (m1 - 1) = win M (q1 + 1) (m1 - 1)) by (eapply same_win; [exact S1|lia|lia|lia|lia]).
      assert (E2 : win M1 (q2 + 1) (m2 - 1) = win M (q2 + 1) (m2 - 1)) by (eapply same_win; [exact S1|lia|lia|lia|lia]).
      destruct (IH M1 (q1 + 1) (m1 - 1) (q2 + 1) (m2 - 1) (q + 1) (m - 1)) as (M' & e & R & P); try (split; lia); try (unfold apart; lia); try lia; try (rewrite ?E1, ?E2; first [assumption|lia]).
      exists M', e. split; [exact R|]. replace m with (m - 1 + 1) by lia.
      eapply post_cons; eauto; try lia. rewrite <- E1, <- E2. exact P.
  - apply andb_false_iff in Hb. rewrite !Z.ltb_ge in Hb. exists M, q. split; [reflexivity|].
    replace (inter (win M q1 m1) (win M q2 m2)) with (@nil Z).
    + pose proof (zlen_nonneg (inter (win M q1 m1) (win M q2 m2))). split; [apply same_refl|]. split; [lia|]. rewrite Z.sub_diag. reflexivity.
    + destruct Hb as [Hb|Hb]; [replace m1 with 0 by lia|replace m2 with 0 by lia]; rewrite win_0; [reflexivity|rewrite inter_nil_r; reflexivity].
Qed.
Lemma it_count_ok fuel : forall M qa ma qb mb c, inm M qa ma -> inm M qb mb -> ma + mb < Z.of_nat fuel -> incr (win M qa ma) -> incr (win M qb mb) ->
  it_count fuel M qa ma qb mb c = Some (c + zlen (inter (win M qa ma) (win M qb mb))).
Proof.
  induction fuel as [|f IH]; intros M q1 m1 q2 m2 c I1 I2 Hf N1 N2; [destruct I1 as (? & ? & ?), I2 as (? & ? & ?); lia|].
  assert (I1' := I1). assert (I2' := I2). destruct I1' as (A1 & A2 & A3), I2' as (B1 & B2 & B3). cbn [it_count].
  destruct ((0 <? m1) && (0 <? m2)) eqn:Hb.
  - apply andb_true_iff in Hb. rewrite !Z.ltb_lt in Hb. destruct Hb as [P1 P2]. rewrite !rd_ok by lia. cbn [obind].
    assert (W1 := win_cons M q1 m1 A1 P1 A3). assert (W2 := win_cons M q2 m2 B1 P2 B3). rewrite W1 in N1 |- *. rewrite W2 in N2 |- *.
    assert (T1 : incr (win M (q1 + 1) (m1 - 1))) by (apply incr_tail in N1; exact N1). assert (T2 : incr (win M (q2 + 1) (m2 - 1))) by (apply incr_tail in N2; exact N2).
    destruct (Z.ltb_spec (znth M q1) (znth M q2)) as [Hlt|Hge]; [|destruct (Z.ltb_spec (znth M q2) (znth M q1)) as [Hlt|Hge']].
    + rewrite IH; try (split; lia); try lia; [|exact T1|rewrite W2; exact N2].
      rewrite inter_lt_all by (first [exact N2|intros b [<-|Hb]; [exact Hlt|apply (incr_head _ _ _ N2) in Hb; lia]]). rewrite <- W2. reflexivity.
    + rewrite IH; try (split; lia); try lia; [|rewrite W1; exact N1|exact T2].
      rewrite inter_drop_r by (intros b [<-|Hb]; [exact Hlt|apply (incr_head _ _ _ N1) in Hb; lia]). rewrite <- W1. reflexivity.
    + assert (Ev : znth M q2 = znth M q1) by lia. rewrite IH; try (split; lia); try lia; [|exact T1|exact T2]. rewrite Ev.
      rewrite inter_cons. replace (zmem (znth M q1) (znth M q1 :: win M (q2 + 1) (m2 - 1))) with true by (symmetry; apply zmem_In; left; reflexivity). cbn [app].
      rewrite (inter_drop_r _ (znth M q1)) by (intros a Ha; apply (incr_head _ _ _ N1) in Ha; exact Ha). rewrite zlen_cons. f_equal. lia.
  - apply andb_false_iff in Hb. rewrite !Z.ltb_ge in Hb.
    replace (inter (win M q1 m1) (win M q2 m2)) with (@nil Z); [unfold zlen; cbn; f_equal; lia|].
    destruct Hb as [Hb|Hb]; [replace m1 with 0 by lia|replace m2 with 0 by lia]; rewrite win_0; [reflexivity|rewrite inter_nil_r; reflexivity].
Qed.
(** ** The vector loops *)
Record ienv (M0 : memory) (pa sa pb sb : Z) : Prop := {
  ie_a : inm M0 pa sa; ie_b : inm M0 pb sb; ie_ia : incr (win M0 pa sa); ie_ib : incr (win M0 pb sb);
  ie_ba : Forall (fun x => 0 <= x < 65536) (win M0 pa sa); ie_bb : Forall (fun x => 0 <= x < 65536) (win M0 pb sb) }.
(** [P s O i]: the state [s] holds the matches [O] found so far, the current block of A is at [i] *)
Record irep {St} (mem : St -> memory) (emit : St -> vec -> Z -> option St) (flush : St -> option St) (P : St -> list Z -> Z -> Prop) (M0 : memory) (pa sa pb sb : Z) : Prop := {
  ir_rd : forall s O i, P s O i -> 0 <= i -> zlen (mem s) = zlen M0 /\ (forall j, pa + i <= j < pa + sa -> znth (mem s) j = znth M0 j) /\
    (forall j, pb <= j < pb + sb -> znth (mem s) j = znth M0 j);
  ir_emit : forall s O i bs, P s O i -> 0 <= i -> i + 8 <= sa -> length bs = 8%nat -> incr (O ++ sel bs (win M0 (pa + i) 8)) ->
    zlen (O ++ sel bs (win M0 (pa + i) 8)) <= Z.min sa sb ->
    exists s', emit s (win M0 (pa + i) 8) (maskb bs) = Some s' /\ P s' (O ++ sel bs (win M0 (pa + i) 8)) i;
  ir_flush : forall s O i, P s O i -> 0 <= i -> i + 8 <= sa -> exists s', flush s = Some s' /\ P s' O (i + 8) }.
Definition iat (M0 : memory) (pa sa pb sb i_a i_b m : Z) (O : list Z) : Prop :=
  iinv (win M0 pa i_a) (win M0 (pa + i_a) (sa - i_a)) (win M0 pb i_b) (win M0 (pb + i_b) (sb - i_b)) m O.
Lemma iat_len M0 pa sa pb sb i_a i_b m O : ienv M0 pa sa pb sb -> 0 <= i_a <= sa -> 0 <= i_b <= sb -> iat M0 pa sa pb sb i_a i_b m O -> incr O /\ zlen O <= Z.min sa sb.
Proof.
  intros [IA IB NA NB _ _] Ha Hb H. split; [apply H|]. assert (IA' := IA). assert (IB' := IB). destruct IA' as (A1 & A2 & A3), IB' as (B1 & B2 & B3).
  apply iinv_len in H; [|rewrite <- (win_split M0 pa sa i_a) by assumption; exact NA|rewrite <- (win_split M0 pb sb i_b) by assumption; exact NB].
  rewrite <- (win_split M0 pa sa i_a), <- (win_split M0 pb sb i_b), !win_zlen in H by (assumption || lia). exact H.
Qed.
Definition wnd M0 p i := win M0 (p + i) 8.
Lemma iv_body_ok {St} (mem : St -> memory) emit flush P M0 pa sa pb sb cmp s i_a i_b m O : ienv M0 pa sa pb sb -> irep mem emit flush P M0 pa sa pb sb ->
  P s O i_a -> iat M0 pa sa pb sb i_a i_b m O -> 0 <= i_a -> 0 <= i_b -> i_a mod 8 = 0 -> i_b mod 8 = 0 -> i_a < sa / 8 * 8 -> i_b < sb / 8 * 8 ->
  cmp (wnd M0 pb i_b) (wnd M0 pa i_a) = maskb (map (fun x => existsb (Z.eqb x) (wnd M0 pb i_b)) (wnd M0 pa i_a)) ->
  exists s' i_a' i_b' va vb stop m' O',
    iv_body mem emit flush cmp pa (sa / 8 * 8) pb (sb / 8 * 8) s i_a i_b (wnd M0 pa i_a) (wnd M0 pb i_b) = Some (s', i_a', i_b', va, vb, stop) /\
    P s' O' i_a' /\ iat M0 pa sa pb sb i_a' i_b' m' O' /\ i_a <= i_a' <= sa /\ i_b <= i_b' <= sb /\ i_a + i_b < i_a' + i_b' /\ i_a' mod 8 = 0 /\ i_b' mod 8 = 0 /\
    (if stop then i_a' = sa / 8 * 8 \/ i_b' = sb / 8 * 8 else i_a' < sa / 8 * 8 /\ i_b' < sb / 8 * 8 /\ va = wnd M0 pa i_a' /\ vb = wnd M0 pb i_b').
Proof.
  intros E R HP HI Ga Gb Da Db Ha Hb Hc. assert (E' := E). destruct E' as [IA IB NA NB BA BB]. assert (IA' := IA). assert (IB' := IB). destruct IA' as (A1 & A2 & A3), IB' as (B1 & B2 & B3).
  assert (Fa : i_a + 8 <= sa / 8 * 8) by lia. assert (Fb : i_b + 8 <= sb / 8 * 8) by lia. assert (Ta : sa / 8 * 8 <= sa) by lia. assert (Tb : sb / 8 * 8 <= sb) by lia.
  set (sta := sa / 8 * 8) in *. set (stb := sb / 8 * 8) in *.
  assert (La := win_lanes M0 pa sa i_a IA BA Ga ltac:(lia)). assert (Lb := win_lanes M0 pb sb i_b IB BB Gb ltac:(lia)).
  assert (SA : win M0 (pa + i_a) (sa - i_a) = wnd M0 pa i_a ++ win M0 (pa + (i_a + 8)) (sa - (i_a + 8)))
    by (unfold wnd; rewrite (win_split M0 (pa + i_a) (sa - i_a) 8) by (try (split; lia); lia); f_equal; f_equal; lia).
  assert (SB : win M0 (pb + i_b) (sb - i_b) = wnd M0 pb i_b ++ win M0 (pb + (i_b + 8)) (sb - (i_b + 8)))
    by (unfold wnd; rewrite (win_split M0 (pb + i_b) (sb - i_b) 8) by (try (split; lia); lia); f_equal; f_equal; lia).
  assert (NA' := NA). assert (NB' := NB). rewrite (win_split M0 pa sa i_a), SA in NA' by (assumption || lia). rewrite (win_split M0 pb sb i_b), SB in NB' by (assumption || lia).
  assert (PA : win M0 pa i_a ++ wnd M0 pa i_a = win M0 pa (i_a + 8)) by (unfold wnd; rewrite <- win_app by lia; reflexivity).
  assert (PB : win M0 pb i_b ++ wnd M0 pb i_b = win M0 pb (i_b + 8)) by (unfold wnd; rewrite <- win_app by lia; reflexivity).
  unfold iat in HI. rewrite SA, SB in HI.
  assert (ST := fun fa fb => iinv_step _ _ _ _ _ _ m O fa fb (proj1 La) (proj1 Lb) NA' NB' HI).
  assert (ST' : forall fa fb : bool, (fa = true -> znth (wnd M0 pa i_a) 7 <= znth (wnd M0 pb i_b) 7) -> (fb = true -> znth (wnd M0 pb i_b) 7 <= znth (wnd M0 pa i_a) 7) -> fa = true \/ fb = true ->
    iat M0 pa sa pb sb (if fa then i_a + 8 else i_a) (if fb then i_b + 8 else i_b) (Z.min (znth (wnd M0 pa i_a) 7) (znth (wnd M0 pb i_b) 7)) (O ++ common (wnd M0 pb i_b) (wnd M0 pa i_a))).
  { intros fa fb X Y Z. specialize (ST fa fb X Y Z). unfold iat. destruct fa, fb; rewrite ?SA, ?SB, <- ?PA, <- ?PB; exact ST. }
  clear ST. unfold iv_body. rewrite Hc.
  assert (OK : exists s1, emit s (wnd M0 pa i_a) (maskb (map (fun x => existsb (Z.eqb x) (wnd M0 pb i_b)) (wnd M0 pa i_a))) = Some s1 /\ P s1 (O ++ common (wnd M0 pb i_b) (wnd M0 pa i_a)) i_a).
  { assert (Q := sel_map (fun x => existsb (Z.eqb x) (wnd M0 pb i_b)) (wnd M0 pa i_a)). unfold common. rewrite <- Q. unfold wnd. eapply (ir_emit _ _ _ _ _ _ _ _ _ R); [exact HP|lia|lia|rewrite map_length; apply La| |].
    - unfold wnd in Q. rewrite Q. destruct (Z_le_gt_dec (znth (wnd M0 pa i_a) 7) (znth (wnd M0 pb i_b) 7)) as [C|C].
      + apply (iat_len M0 pa sa pb sb (i_a + 8) i_b _ _ E ltac:(lia) ltac:(lia) (ST' true false (fun _ => C) ltac:(discriminate) (or_introl eq_refl))).
      + apply (iat_len M0 pa sa pb sb i_a (i_b + 8) _ _ E ltac:(lia) ltac:(lia) (ST' false true ltac:(discriminate) ltac:(lia) (or_intror eq_refl))).
    - unfold wnd in Q. rewrite Q. destruct (Z_le_gt_dec (znth (wnd M0 pa i_a) 7) (znth (wnd M0 pb i_b) 7)) as [C|C].
      + apply (iat_len M0 pa sa pb sb (i_a + 8) i_b _ _ E ltac:(lia) ltac:(lia) (ST' true false (fun _ => C) ltac:(discriminate) (or_introl eq_refl))).
      + apply (iat_len M0 pa sa pb sb i_a (i_b + 8) _ _ E ltac:(lia) ltac:(lia) (ST' false true ltac:(discriminate) ltac:(lia) (or_intror eq_refl))). }
  destruct OK as (s1 & K1 & P1). rewrite K1. cbn [obind]. destruct (ir_rd _ _ _ _ _ _ _ _ _ R _ _ _ P1 Ga) as (Z1 & Z2 & Z3).
  rewrite !rd_ok by lia. cbn [obind]. rewrite Z2, Z3 by lia.
  assert (VA : znth M0 (pa + (i_a + 8 - 1)) = znth (wnd M0 pa i_a) 7) by (unfold wnd; rewrite znth_win by lia; f_equal; lia).
  assert (VB : znth M0 (pb + (i_b + 8 - 1)) = znth (wnd M0 pb i_b) 7) by (unfold wnd; rewrite znth_win by lia; f_equal; lia).
  rewrite VA, VB. set (amax := znth (wnd M0 pa i_a) 7) in *. set (bmax := znth (wnd M0 pb i_b) 7) in *. set (m' := Z.min amax bmax) in *. set (O' := O ++ common (wnd M0 pb i_b) (wnd M0 pa i_a)) in *.
  destruct (Z.leb_spec amax bmax) as [C1|C1].
  - destruct (ir_flush _ _ _ _ _ _ _ _ _ R _ _ _ P1 Ga ltac:(lia)) as (s2 & K2 & P2). rewrite K2. cbn [obind]. destruct (ir_rd _ _ _ _ _ _ _ _ _ R _ _ _ P2 ltac:(lia)) as (Y1 & Y2 & Y3).
    destruct (Z.eqb_spec (i_a + 8) sta) as [Q|Q].
    + cbn [obind]. exists s2, (i_a + 8), i_b, (wnd M0 pa i_a), (wnd M0 pb i_b), true, m', O'. split; [reflexivity|]. split; [exact P2|].
      split; [apply (ST' true false); [intros _; exact C1|discriminate|auto]|]. repeat (split; [lia|]). left. exact Q.
    + unfold ld8. rewrite ldn_ok by lia. cbn [obind]. assert (VN : win (mem s2) (pa + (i_a + 8)) 8 = wnd M0 pa (i_a + 8)) by (apply win_ext; try lia; intros j Hj; apply Y2; lia). rewrite VN.
      destruct (Z.leb_spec bmax amax) as [C2|C2].
      * destruct (Z.eqb_spec (i_b + 8) stb) as [Q2|Q2].
        -- exists s2, (i_a + 8), (i_b + 8), (wnd M0 pa (i_a + 8)), (wnd M0 pb i_b), true, m', O'. split; [reflexivity|]. split; [exact P2|].
           split; [apply (ST' true true); [intros _; exact C1|intros _; exact C2|auto]|]. repeat (split; [lia|]). right. exact Q2.
        -- rewrite ldn_ok by lia. cbn [obind]. assert (WN : win (mem s2) (pb + (i_b + 8)) 8 = wnd M0 pb (i_b + 8)) by (apply win_ext; try lia; intros j Hj; apply Y3; lia). rewrite WN.
           exists s2, (i_a + 8), (i_b + 8), (wnd M0 pa (i_a + 8)), (wnd M0 pb (i_b + 8)), false, m', O'. split; [reflexivity|]. split; [exact P2|].
           split; [apply (ST' true true); [intros _; exact C1|intros _; exact C2|auto]|]. repeat (split; [lia|]). repeat split; lia.
      * exists s2, (i_a + 8), i_b, (wnd M0 pa (i_a + 8)), (wnd M0 pb i_b), false, m', O'. split; [reflexivity|]. split; [exact P2|].
        split; [apply (ST' true false); [intros _; exact C1|discriminate|auto]|]. repeat (split; [lia|]). repeat split; lia.
  - cbn [obind]. replace (bmax <=? amax) with true by lia. destruct (Z.eqb_spec (i_b + 8) stb) as [Q2|Q2].
    + exists s1, i_a, (i_b + 8), (wnd M0 pa i_a), (wnd M0 pb i_b), true, m', O'. split; [reflexivity|]. split; [exact P1|].
      split; [apply (ST' false true); [discriminate|intros _; lia|auto]|]. repeat (split; [lia|]). right. exact Q2.
    + unfold ld8. rewrite ldn_ok by lia. cbn [obind]. assert (WN : win (mem s1) (pb + (i_b + 8)) 8 = wnd M0 pb (i_b + 8)) by (apply win_ext; try lia; intros j Hj; apply Z3; lia). rewrite WN.
      exists s1, i_a, (i_b + 8), (wnd M0 pa i_a), (wnd M0 pb (i_b + 8)), false, m', O'. split; [reflexivity|]. split; [exact P1|].
      split; [apply (ST' false true); [discriminate|intros _; lia|auto]|]. repeat (split; [lia|]). repeat split; lia.
Qed.
Lemma nz_up M0 p n i j : inm M0 p n -> incr (win M0 p n) -> Forall (fun x => 0 <= x < 65536) (win M0 p n) -> 0 <= i <= j -> j < n ->
  znth M0 (p + i) <> 0 -> znth M0 (p + j) <> 0.
Proof.
  intros (A & B & C) N F H1 H2 H3. assert (0 <= znth M0 (p + i)).
  { rewrite <- (znth_win M0 p n i) by lia. rewrite Forall_forall in F. apply F. apply znth_In. rewrite win_zlen; lia. }
  assert (znth M0 (p + i) <= znth M0 (p + j)); [|lia].
  rewrite <- (znth_win M0 p n i), <- (znth_win M0 p n j) by lia. apply incr_znth_le; [exact N|lia| |]; rewrite ?win_zlen by lia; lia.
Qed.
Lemma wnd_nz M0 p n i : inm M0 p n -> incr (win M0 p n) -> Forall (fun x => 0 <= x < 65536) (win M0 p n) -> 0 <= i -> i + 8 <= n ->
  znth M0 (p + i) <> 0 -> forall x, In x (wnd M0 p i) -> x <> 0.
Proof.
  intros I N F H1 H2 H3 x Hx. apply In_znth in Hx. destruct Hx as (j & Hj & <-). destruct I as (A & B & C). unfold wnd in *. rewrite win_zlen in Hj by lia.
  rewrite znth_win by lia. rewrite <- Z.add_assoc. eapply nz_up with (n := n) (i := i); eauto; try lia. split; lia.
Qed.
Lemma iv_loop1_ok {St} (mem : St -> memory) emit flush P M0 pa sa pb sb : ienv M0 pa sa pb sb -> irep mem emit flush P M0 pa sa pb sb -> forall fuel s i_a i_b m O,
  P s O i_a -> iat M0 pa sa pb sb i_a i_b m O -> 0 <= i_a -> 0 <= i_b -> i_a mod 8 = 0 -> i_b mod 8 = 0 -> i_a < sa / 8 * 8 -> i_b < sb / 8 * 8 ->
  sa + sb - i_a - i_b < Z.of_nat fuel ->
  exists s' i_a' i_b' va vb m' O',
    iv_loop1 fuel mem emit flush pa (sa / 8 * 8) pb (sb / 8 * 8) s i_a i_b (wnd M0 pa i_a) (wnd M0 pb i_b) = Some (s', i_a', i_b', va, vb) /\
    P s' O' i_a' /\ iat M0 pa sa pb sb i_a' i_b' m' O' /\ 0 <= i_a' <= sa /\ 0 <= i_b' <= sb /\ i_a' mod 8 = 0 /\ i_b' mod 8 = 0 /\
    ((i_a' = sa / 8 * 8 \/ i_b' = sb / 8 * 8) \/ i_a' < sa / 8 * 8 /\ i_b' < sb / 8 * 8 /\ va = wnd M0 pa i_a' /\ vb = wnd M0 pb i_b' /\
      znth M0 (pa + i_a') <> 0 /\ znth M0 (pb + i_b') <> 0).
Proof.
  intros E R. assert (E' := E). destruct E' as [(A1 & A2 & A3) (B1 & B2 & B3) NA NB BA BB].
  induction fuel as [|f IH]; intros s i_a i_b m O HP HI Ga Gb Da Db Ha Hb Hf; [lia|]. cbn [iv_loop1].
  destruct (ir_rd _ _ _ _ _ _ _ _ _ R _ _ _ HP Ga) as (Z1 & Z2 & Z3). rewrite !rd_ok by lia. cbn [obind]. rewrite Z2, Z3 by lia.
  destruct ((znth M0 (pa + i_a) =? 0) || (znth M0 (pb + i_b) =? 0)) eqn:Hz.
  - destruct (iv_body_ok mem emit flush P M0 pa sa pb sb cmpestrm s i_a i_b m O) as (s' & i_a' & i_b' & va & vb & stop & m' & O' & K & P' & I' & Ra & Rb & Rl & D1 & D2 & St'); try assumption.
    { apply cmpestrm_spec; [apply (win_lanes M0 pa sa)|apply (win_lanes M0 pb sb)]; try assumption; try (split; lia); lia. }
    rewrite K. cbn [obind]. destruct stop.
    + exists s', i_a', i_b', va, vb, m', O'. split; [reflexivity|]. split; [exact P'|]. split; [exact I'|]. repeat (split; [lia|]). left. exact St'.
    + destruct St' as (Q1 & Q2 & -> & ->). apply (IH s' i_a' i_b' m' O'); try assumption; lia.
  - apply orb_false_iff in Hz. rewrite !Z.eqb_neq in Hz. exists s, i_a, i_b, (wnd M0 pa i_a), (wnd M0 pb i_b), m, O. split; [reflexivity|]. split; [exact HP|]. split; [exact HI|].
    repeat (split; [lia|]). right. tauto.
Qed.
Lemma iv_loop2_ok {St} (mem : St -> memory) emit flush P M0 pa sa pb sb : ienv M0 pa sa pb sb -> irep mem emit flush P M0 pa sa pb sb -> forall fuel s i_a i_b m O,
  P s O i_a -> iat M0 pa sa pb sb i_a i_b m O -> 0 <= i_a -> 0 <= i_b -> i_a mod 8 = 0 -> i_b mod 8 = 0 -> i_a < sa / 8 * 8 -> i_b < sb / 8 * 8 ->
  znth M0 (pa + i_a) <> 0 -> znth M0 (pb + i_b) <> 0 -> sa + sb - i_a - i_b < Z.of_nat fuel ->
  exists s' i_a' i_b' m' O',
    iv_loop2 fuel mem emit flush pa (sa / 8 * 8) pb (sb / 8 * 8) s i_a i_b (wnd M0 pa i_a) (wnd M0 pb i_b) = Some (s', i_a', i_b') /\
    P s' O' i_a' /\ iat M0 pa sa pb sb i_a' i_b' m' O' /\ 0 <= i_a' <= sa /\ 0 <= i_b' <= sb.
Proof.
  intros E R. assert (E' := E). destruct E' as [IA IB NA NB BA BB]. assert (IA' := IA). assert (IB' := IB). destruct IA' as (A1 & A2 & A3), IB' as (B1 & B2 & B3).
  induction fuel as [|f IH]; intros s i_a i_b m O HP HI Ga Gb Da Db Ha Hb Za Zb Hf; [lia|]. cbn [iv_loop2].
  destruct (iv_body_ok mem emit flush P M0 pa sa pb sb cmpistrm s i_a i_b m O) as (s' & i_a' & i_b' & va & vb & stop & m' & O' & K & P' & I' & Ra & Rb & Rl & D1 & D2 & St'); try assumption.
  { apply cmpistrm_spec; [apply (win_lanes M0 pa sa)|apply (win_lanes M0 pb sb)|apply (wnd_nz M0 pa sa)|apply (wnd_nz M0 pb sb)]; try assumption; lia. }
  rewrite K. cbn [obind]. destruct stop.
  - exists s', i_a', i_b', m', O'. split; [reflexivity|]. split; [exact P'|]. split; [exact I'|]. lia.
  - destruct St' as (Q1 & Q2 & -> & ->). apply (IH s' i_a' i_b' m' O'); try assumption; try lia; [apply (nz_up M0 pa sa i_a)|apply (nz_up M0 pb sb i_b)]; try assumption; lia.
Qed.
Lemma iv_vector_ok {St} (mem : St -> memory) emit flush P M0 pa sa pb sb s : ienv M0 pa sa pb sb -> irep mem emit flush P M0 pa sa pb sb -> P s [] 0 ->
  exists s' i_a i_b m O, iv_vector mem emit flush pa sa pb sb s = Some (s', i_a, i_b) /\ P s' O i_a /\ iat M0 pa sa pb sb i_a i_b m O /\ 0 <= i_a <= sa /\ 0 <= i_b <= sb.
Proof.
  intros E R HP. assert (E' := E). destruct E' as [IA IB NA NB BA BB]. assert (IA' := IA). assert (IB' := IB). destruct IA' as (A1 & A2 & A3), IB' as (B1 & B2 & B3).
  assert (I0 : iat M0 pa sa pb sb 0 0 (-1) []).
  { unfold iat. rewrite !win_0, !Z.add_0_r, !Z.sub_0_r. rewrite Forall_forall in BA, BB. apply iinv_init; intros x Hx; [specialize (BA x Hx)|specialize (BB x Hx)]; lia. }
  unfold iv_vector. destruct ((0 <? sa / 8 * 8) && (0 <? sb / 8 * 8)) eqn:Hb.
  - apply andb_true_iff in Hb. rewrite !Z.ltb_lt in Hb. destruct Hb as [Ha Hb]. destruct (ir_rd _ _ _ _ _ _ _ _ _ R _ _ _ HP ltac:(lia)) as (Z1 & Z2 & Z3).
    unfold ld8. rewrite !ldn_ok by lia. cbn [obind].
    assert (VA : win (mem s) pa 8 = wnd M0 pa 0) by (unfold wnd; rewrite Z.add_0_r; apply win_ext; try lia; intros j Hj; apply Z2; lia).
    assert (VB : win (mem s) pb 8 = wnd M0 pb 0) by (unfold wnd; rewrite Z.add_0_r; apply win_ext; try lia; intros j Hj; apply Z3; lia). rewrite VA, VB.
    destruct (iv_loop1_ok mem emit flush P M0 pa sa pb sb E R (S (Z.to_nat (sa + sb))) s 0 0 (-1) []) as (s1 & i_a & i_b & va & vb & m & O & K & P1 & I1 & Ra & Rb & D1 & D2 & F); try assumption; try reflexivity; try lia.
    rewrite K. cbn [obind]. destruct ((i_a <? sa / 8 * 8) && (i_b <? sb / 8 * 8)) eqn:Hc.
    + apply andb_true_iff in Hc. rewrite !Z.ltb_lt in Hc. destruct F as [F|(Q1 & Q2 & -> & -> & Za & Zb)]; [lia|].
      destruct (iv_loop2_ok mem emit flush P M0 pa sa pb sb E R (S (Z.to_nat (sa + sb))) s1 i_a i_b m O) as (s2 & j_a & j_b & m2 & O2 & K2 & P2 & I2 & Sa & Sb); try assumption; try lia.
      exists s2, j_a, j_b, m2, O2. auto.
    + exists s1, i_a, i_b, m, O. auto.
  - exists s, 0, 0, (-1), []. split; [reflexivity|]. split; [exact HP|]. split; [exact I0|]. lia.
Qed.
(** ** intersect_vector16 and its cardinality *)
Definition Pstore (M0 : memory) (pc mn : Z) (s : memory * Z) (O : list Z) (i : Z) : Prop :=
  same_out M0 (fst s) pc (pc + mn + 8) /\ snd s = zlen O /\ win (fst s) pc (zlen O) = O /\ zlen O <= mn.
Lemma Pstore_irep M0 pa sa pb sb pc : ienv M0 pa sa pb sb -> 0 <= pc -> pc + Z.min sa sb + 8 <= zlen M0 -> apart pc (Z.min sa sb + 8) pa sa -> apart pc (Z.min sa sb + 8) pb sb ->
  irep fst (emit_store pc) Some (Pstore M0 pc (Z.min sa sb)) M0 pa sa pb sb.
Proof.
  intros [IA IB NA NB BA BB] Hc Hl Xa Xb. assert (IA' := IA). assert (IB' := IB). destruct IA' as (A1 & A2 & A3), IB' as (B1 & B2 & B3). unfold apart in *. split.
  - intros [M c] O i ((L & S1) & _ & _ & _) Gi. cbn [fst] in *. split; [exact L|]. split; intros j Hj; apply S1; lia.
  - intros [M c] O i bs ((L & S1) & Hn & W & Hm) G1 G2 Lb Ni Lm. cbn [fst snd] in *. subst c. pose proof (zlen_nonneg O) as LO.
    assert (La := win_lanes M0 pa sa i IA BA G1 G2). unfold emit_store. cbn [fst snd].
    rewrite zlen_app in Lm. pose proof (zlen_nonneg (sel bs (win M0 (pa + i) 8))) as LS.
    destruct (store_sel_ok M _ bs (pc + zlen O) La Lb) as (M' & K & S2 & W2 & L8); [lia|lia|]. rewrite K. cbn [obind].
    eexists. split; [reflexivity|]. split; [|split; [|split]]; cbn [fst snd]; rewrite ?zlen_app.
    + eapply same_trans; [split; [exact L|exact S1]|exact S2|lia|lia|lia|lia].
    + reflexivity.
    + assert (L2 : zlen M' = zlen M) by apply S2. rewrite win_app by lia. rewrite W2. f_equal.
      transitivity (win M pc (zlen O)); [|exact W]. eapply same_win; [exact S2|lia|lia|lia|lia].
    + exact Lm.
  - intros [M c] O i H _ _. exists (M, c). split; [reflexivity|]. exact H.
Qed.
Lemma iat_fin M0 pa sa pb sb i_a i_b m O : ienv M0 pa sa pb sb -> 0 <= i_a <= sa -> 0 <= i_b <= sb -> iat M0 pa sa pb sb i_a i_b m O ->
  O ++ inter (win M0 (pa + i_a) (sa - i_a)) (win M0 (pb + i_b) (sb - i_b)) = inter (win M0 pa sa) (win M0 pb sb).
Proof.
  intros [IA IB NA NB _ _] Ha Hb H. rewrite (win_split M0 pa sa i_a), (win_split M0 pb sb i_b) in * by assumption. apply iinv_fin with m; assumption.
Qed.
Lemma inter_len A B : incr A -> zlen (inter A B) <= Z.min (zlen A) (zlen B).
Proof.
  intros N. apply Z.min_glb; unfold zlen; apply Nat2Z.inj_le; apply NoDup_incl_length; try (apply incr_NoDup, incr_filter; exact N); intros x Hx; apply inter_In in Hx; apply Hx.
Qed.
Lemma incr_suffix M p n i : inm M p n -> 0 <= i <= n -> incr (win M p n) -> incr (win M (p + i) (n - i)).
Proof. intros I H N. rewrite (win_split M p n i) in N by assumption. apply incr_app in N. apply N. Qed.
Lemma intersect_vector16_ok M pa sa pb sb pc : ienv M pa sa pb sb -> 0 <= pc -> pc + Z.min sa sb + 8 <= zlen M ->
  apart pc (Z.min sa sb + 8) pa sa -> apart pc (Z.min sa sb + 8) pb sb ->
  exists M' k, intersect_vector16 M pa sa pb sb pc = Some (M', k) /\ same_out M M' pc (pc + Z.min sa sb + 8) /\ 0 <= k <= Z.min sa sb /\
    win M' pc k = inter (win M pa sa) (win M pb sb).
Proof.
  intros E Hc Hl Xa Xb. pose proof (Pstore_irep M pa sa pb sb pc E Hc Hl Xa Xb) as R.
  assert (E' := E). destruct E' as [IA IB NA NB BA BB]. assert (IA' := IA). assert (IB' := IB). destruct IA' as (A1 & A2 & A3), IB' as (B1 & B2 & B3).
  destruct (iv_vector_ok fst (emit_store pc) Some _ M pa sa pb sb (M, 0) E R) as (s & i_a & i_b & m & O & K & P1 & I1 & Ra & Rb).
  { split; [apply same_refl|]. split; [reflexivity|]. split; [reflexivity|]. unfold zlen; cbn [length]. lia. }
  unfold intersect_vector16. rewrite K. cbn [obind]. destruct P1 as (S1 & Hn & W1 & Lm). destruct s as [M1 c]. cbn [fst snd] in *. subst c.
  pose proof (iat_fin _ _ _ _ _ _ _ _ _ E Ra Rb I1) as FIN. assert (L1 : zlen M1 = zlen M) by apply S1.
  unfold apart in Xa, Xb. pose proof (zlen_nonneg O) as LO.
  assert (E1 : win M1 (pa + i_a) (sa - i_a) = win M (pa + i_a) (sa - i_a)) by (eapply same_win; [exact S1|lia|lia|lia|lia]).
  assert (E2 : win M1 (pb + i_b) (sb - i_b) = win M (pb + i_b) (sb - i_b)) by (eapply same_win; [exact S1|lia|lia|lia|lia]).
  assert (LT : zlen (inter (win M (pa + i_a) (sa - i_a)) (win M (pb + i_b) (sb - i_b))) + zlen O <= Z.min sa sb).
  { rewrite Z.add_comm, <- zlen_app, FIN. pose proof (inter_len (win M pa sa) (win M pb sb) NA) as G. rewrite !win_zlen in G by lia. exact G. }
  destruct (it_loop_ok (S (Z.to_nat (sa + sb))) M1 (pa + i_a) (sa - i_a) (pb + i_b) (sb - i_b) (pc + zlen O) (Z.min sa sb - zlen O)) as (M2 & e & K2 & S2 & He & W2);
    try (split; lia); try (unfold apart; lia); try lia; try (rewrite ?E1, ?E2; first [lia|apply incr_suffix; assumption]).
  rewrite K2. cbn [obind]. exists M2, (e - pc). split; [reflexivity|]. split; [eapply same_trans; [exact S1|exact S2|lia|lia|lia|lia]|].
  split; [lia|]. assert (L2 : zlen M2 = zlen M1) by apply S2. replace (e - pc) with (zlen O + (e - (pc + zlen O))) by lia. rewrite win_app by lia. rewrite W2, E1, E2, <- FIN. f_equal.
  transitivity (win M1 pc (zlen O)); [|exact W1]. eapply same_win; [exact S2|lia|lia|lia|lia].
Qed.
Definition Pcount (M0 : memory) (s : memory * Z) (O : list Z) (i : Z) : Prop := s = (M0, zlen O).
Lemma intersect_vector16_cardinality_ok M pa sa pb sb : ienv M pa sa pb sb ->
  intersect_vector16_cardinality M pa sa pb sb = Some (zlen (inter (win M pa sa) (win M pb sb))).
Proof.
  intros E. assert (R : irep fst emit_count Some (Pcount M) M pa sa pb sb).
  { assert (E' := E). destruct E' as [IA IB NA NB BA BB]. split.
    - intros s O i H _. unfold Pcount in H. subst s. cbn [fst]. repeat split; reflexivity.
    - intros s O i bs H G1 G2 Lb _ _. unfold Pcount in H. subst s. unfold emit_count. cbn [fst snd]. rewrite (popcnt_sel _ _ (win_lanes M pa sa i IA BA G1 G2) Lb). eexists. split; [reflexivity|].
      unfold Pcount. rewrite zlen_app. reflexivity.
    - intros s O i H _ _. unfold Pcount in H. subst s. eexists. split; [reflexivity|]. reflexivity. }
  destruct (iv_vector_ok fst emit_count Some _ M pa sa pb sb (M, 0) E R eq_refl) as (s & i_a & i_b & m & O & K & HP & I1 & Ra & Rb); unfold Pcount in HP; subst s.
  assert (E' := E). destruct E' as [IA IB NA NB BA BB]. assert (IA' := IA). assert (IB' := IB). destruct IA' as (A1 & A2 & A3), IB' as (B1 & B2 & B3).
  unfold intersect_vector16_cardinality. rewrite K. cbn [obind fst snd].
  rewrite it_count_ok; try (split; lia); try lia; try (apply incr_suffix; assumption).
  rewrite <- (iat_fin _ _ _ _ _ _ _ _ _ E Ra Rb I1), zlen_app. reflexivity.
Qed.
(** ** intersect_vector16_inplace *)
Definition Pinpl (M0 : memory) (pa sa : Z) (s : memory * vec * Z * Z) (O : list Z) (i : Z) : Prop :=
  let '(M, tmp, tc, c) := s in
  exists OC T, O = OC ++ T /\ incr O /\ (forall x, In x T -> In x (wnd M0 pa i)) /\ (T <> [] -> i + 8 <= sa) /\ zlen OC = c /\ zlen T = tc /\ c <= i <= sa /\
    same_out M0 M pa (pa + i) /\ win M pa c = OC /\ zlen tmp = 16 /\ win tmp 0 tc = T.
Lemma T8 M0 p i T : inm M0 (p + i) 8 -> incr T -> (forall x, In x T -> In x (wnd M0 p i)) -> zlen T <= 8.
Proof.
  intros (A & B & C) N H. rewrite <- (win_zlen M0 (p + i) 8) by lia. unfold zlen. apply Nat2Z.inj_le. apply NoDup_incl_length; [apply incr_NoDup; exact N|exact H].
Qed.
Lemma sel_In bs v x : In x (sel bs v) -> In x v.
Proof.
  revert v. induction bs as [|b bs IH]; intros [|y v] H; cbn in *; try contradiction. destruct b; [destruct H as [->|H]; [left; reflexivity|right; apply IH; exact H]|right; apply IH; exact H].
Qed.
Lemma Pinpl_irep M0 pa sa pb sb : ienv M0 pa sa pb sb -> apart pa sa pb sb -> irep ip_mem emit_tmp (flush_tmp pa) (Pinpl M0 pa sa) M0 pa sa pb sb.
Proof.
  intros [IA IB NA NB BA BB] X. assert (IA' := IA). assert (IB' := IB). destruct IA' as (A1 & A2 & A3), IB' as (B1 & B2 & B3). unfold apart in *. split.
  - intros [[[M tmp] tc] c] O i (OC & T & EO & NO & HT & HT8 & Lc & Lt & Hc & (L & S1) & W & Ltmp & Wt) Gi. cbn [ip_mem].
    split; [exact L|]. split; intros j Hj; apply S1; try lia.
  - intros [[[M tmp] tc] c] O i bs (OC & T & EO & NO & HT & HT8 & Lc & Lt & Hc & (L & S1) & W & Ltmp & Wt) G1 G2 Lb Ni Lm. unfold emit_tmp.
    assert (La := win_lanes M0 pa sa i IA BA G1 G2). subst O. rewrite <- app_assoc in Ni, Lm |- *. assert (Ni' := Ni). apply incr_app in Ni'. destruct Ni' as (_ & NT & _).
    set (v := win M0 (pa + i) 8) in *. assert (HT' : forall x, In x (T ++ sel bs v) -> In x (wnd M0 pa i)).
    { intros x Hx. apply in_app_iff in Hx. destruct Hx as [Hx|Hx]; [apply HT; exact Hx|]. apply sel_In in Hx. exact Hx. }
    assert (L8 : zlen (T ++ sel bs v) <= 8) by (apply (T8 M0 pa i); [split; lia|exact NT|exact HT']). rewrite zlen_app in L8.
    pose proof (zlen_nonneg T) as LT. pose proof (zlen_nonneg (sel bs v)) as LS.
    destruct (store_sel_ok tmp v bs tc La Lb) as (tmp' & K & S2 & W2 & _); [lia|lia|]. rewrite K. cbn [obind]. eexists. split; [reflexivity|].
    exists OC, (T ++ sel bs v). split; [reflexivity|]. split; [exact Ni|]. split; [exact HT'|]. split; [lia|]. split; [exact Lc|]. split; [rewrite zlen_app; lia|]. split; [exact Hc|].
    split; [split; assumption|]. split; [exact W|]. assert (L2 : zlen tmp' = zlen tmp) by apply S2. split; [lia|].
    rewrite win_app by lia. rewrite Z.add_0_l. rewrite W2. f_equal. transitivity (win tmp 0 tc); [|exact Wt]. eapply same_win; [exact S2|lia|lia|lia|lia].
  - intros [[[M tmp] tc] c] O i (OC & T & EO & NO & HT & HT8 & Lc & Lt & Hc & (L & S1) & W & Ltmp & Wt) G1 G2. unfold flush_tmp. rewrite ldn_ok by lia. cbn [obind].
    assert (NO' := NO). rewrite EO in NO'. apply incr_app in NO'. destruct NO' as (_ & NT & _).
    assert (L8 : zlen T <= 8) by (apply (T8 M0 pa i); [split; lia|exact NT|exact HT]). pose proof (zlen_nonneg T) as LT. pose proof (zlen_nonneg OC) as LOC.
    destruct (stn_ok M (pa + c) (win tmp 0 8)) as (M' & K & S2 & W2); [lia|rewrite win_zlen; lia|]. rewrite win_zlen in S2, W2 by lia. rewrite K. cbn [obind].
    destruct (stn_ok tmp 0 zerov) as (tmp' & K2 & S3 & W3); [lia|change (zlen zerov) with 8; lia|]. rewrite K2. cbn [obind]. eexists. split; [reflexivity|].
    exists O, []. rewrite app_nil_r. split; [reflexivity|]. split; [exact NO|]. split; [intros x []|]. split; [congruence|]. split; [rewrite EO, zlen_app; lia|]. split; [reflexivity|]. split; [lia|].
    split; [eapply same_trans; [split; [exact L|exact S1]|exact S2|lia|lia|lia|lia]|]. assert (L2 : zlen M' = zlen M) by apply S2. split; [|split; [destruct S3; lia|reflexivity]].
    rewrite win_app by lia. rewrite EO. f_equal.
    + transitivity (win M pa c); [|exact W]. eapply same_win; [exact S2|lia|lia|lia|lia].
    + transitivity (firstn (Z.to_nat tc) (win M' (pa + c) 8)); [unfold win; rewrite firstn_firstn; f_equal; lia|]. rewrite W2. transitivity (win tmp 0 tc); [|exact Wt].
      unfold win. rewrite firstn_firstn. f_equal. lia.
Qed.
Lemma copy_tmp_ok fuel : forall M q tmp i tc, 0 <= i <= tc -> tc <= zlen tmp -> 0 <= q -> q + (tc - i) <= zlen M -> tc - i < Z.of_nat fuel ->
  exists M', copy_tmp fuel M q tmp i tc = Some (M', q + (tc - i)) /\ same_out M M' q (q + (tc - i)) /\ win M' q (tc - i) = win tmp i (tc - i).
Proof.
  induction fuel as [|f IH]; intros M q tmp i tc Hi Ht Hq Hl Hf; [lia|]. cbn [copy_tmp]. destruct (Z.ltb_spec i tc) as [C|C].
  - rewrite rd_ok by lia. cbn [obind]. destruct (wr_ok M q (znth tmp i)) as (M1 & K & S1 & V1); [lia|]. rewrite K. cbn [obind]. assert (L1 : zlen M1 = zlen M) by apply S1.
    destruct (IH M1 (q + 1) tmp (i + 1) tc) as (M' & K2 & S2 & W2); try lia. exists M'. split; [rewrite K2; f_equal; f_equal; lia|]. split; [eapply same_trans; [exact S1|exact S2|lia|lia|lia|lia]|].
    assert (L2 : zlen M' = zlen M1) by apply S2. rewrite (win_cons M'), (win_cons tmp) by lia. replace (tc - i - 1) with (tc - (i + 1)) by lia. rewrite W2. f_equal. transitivity (znth M1 q); [apply S2; lia|exact V1].
  - replace (tc - i) with 0 by lia. exists M. rewrite Z.add_0_r, !win_0. split; [reflexivity|]. split; [apply same_refl|reflexivity].
Qed.
(** the elements of [T], all in [l] and at most [m], push the first |T| elements of [l] to at most [m] *)
Lemma prefix_le l T m : incr l -> NoDup T -> (forall x, In x T -> In x l /\ x <= m) -> forall x, In x (firstn (length T) l) -> x <= m.
Proof.
  intros N D H x Hx. destruct (Z_le_gt_dec x m) as [|G]; [assumption|exfalso]. apply In_nth with (d := 0) in Hx. destruct Hx as (k & Hk & Ek).
  rewrite firstn_length in Hk. assert (Ek' : nth k l 0 = x) by (rewrite <- Ek; rewrite <- (firstn_skipn (length T) l) at 1; rewrite app_nth1; [reflexivity|rewrite firstn_length; lia]).
  assert (IN : incl T (firstn k l)).
  { intros y Hy. destruct (H y Hy) as [Y1 Y2]. rewrite <- (firstn_skipn k l) in Y1. apply in_app_iff in Y1. destruct Y1 as [Y1|Y1]; [exact Y1|exfalso].
    apply In_nth with (d := 0) in Y1. destruct Y1 as (j & Hj & Ej). rewrite skipn_length in Hj. assert (Ej' : nth (k + j) l 0 = y) by (rewrite <- Ej, <- (firstn_skipn k l) at 1; rewrite app_nth2 by (rewrite firstn_length; lia); f_equal; rewrite firstn_length; lia).
    assert (znth l (Z.of_nat k) <= znth l (Z.of_nat (k + j))) by (apply incr_znth_le; [exact N|lia|unfold zlen; lia|unfold zlen; lia]). unfold znth in *. rewrite !Nat2Z.id in *. lia. }
  apply NoDup_incl_length in IN; [|exact D]. rewrite firstn_length in IN. lia.
Qed.
Lemma inter_skip_le l T m B : incr l -> NoDup T -> (forall x, In x T -> In x l /\ x <= m) -> (T <> [] -> forall x, In x B -> m < x) -> inter (skipn (length T) l) B = inter l B.
Proof.
  intros N D H HB. destruct T as [|t T]; [reflexivity|]. specialize (HB ltac:(discriminate)). pose proof (prefix_le l (t :: T) m N D H) as PL. set (k := length (t :: T)) in *.
  assert (EL : inter l B = inter (firstn k l ++ skipn k l) B) by (rewrite firstn_skipn; reflexivity). rewrite EL. unfold inter at 2. rewrite filter_app.
  replace (filter (fun x => zmem x B) (firstn k l)) with (@nil Z); [reflexivity|]. symmetry. revert PL. generalize (firstn k l) as u. intros u PL. induction u as [|x u IH]; [reflexivity|].
  cbn [filter]. destruct (zmem x B) eqn:Z; [exfalso; apply zmem_In in Z; apply HB in Z; specialize (PL x (or_introl eq_refl)); lia|]. apply IH. intros y Hy. apply PL. right. exact Hy.
Qed.
Lemma intersect_vector16_inplace_ok M pa sa pb sb : ienv M pa sa pb sb -> apart pa sa pb sb ->
  exists M' k, intersect_vector16_inplace M pa sa pb sb = Some (M', k) /\ same_out M M' pa (pa + sa) /\ 0 <= k <= sa /\ win M' pa k = inter (win M pa sa) (win M pb sb).
Proof.
  intros E X. pose proof (Pinpl_irep M pa sa pb sb E X) as R. assert (E' := E). destruct E' as [IA IB NA NB BA BB]. assert (IA' := IA). assert (IB' := IB). destruct IA' as (A1 & A2 & A3), IB' as (B1 & B2 & B3).
  destruct (iv_vector_ok ip_mem emit_tmp (flush_tmp pa) _ M pa sa pb sb (M, repeat 0 16, 0, 0) E R) as (s & i_a & i_b & m & O & K & P1 & I1 & Ra & Rb).
  { exists [], []. split; [reflexivity|]. split; [exact Logic.I|]. split; [intros x []|]. split; [congruence|]. split; [reflexivity|]. split; [reflexivity|]. split; [lia|]. split; [apply same_refl|]. repeat split. }
  unfold intersect_vector16_inplace. rewrite K. cbn [obind]. destruct s as [[[M1 tmp] tc] c]. destruct P1 as (OC & T & EO & NO & HT & HT8 & Lc & Lt & Hc & S1 & W & Ltmp & Wt).
  pose proof (iat_fin _ _ _ _ _ _ _ _ _ E Ra Rb I1) as FIN. assert (L1 : zlen M1 = zlen M) by apply S1. unfold apart in X. pose proof (zlen_nonneg OC) as LOC. pose proof (zlen_nonneg T) as LT.
  assert (NT : incr T) by (rewrite EO in NO; apply incr_app in NO; apply NO).
  assert (T8' : tc <= 8 /\ i_a + tc <= sa).
  { destruct T as [|t T']; [change (zlen (@nil Z)) with 0 in Lt; lia|]. specialize (HT8 ltac:(discriminate)). rewrite <- Lt. pose proof (T8 M pa i_a (t :: T') ltac:(split; lia) NT HT). lia. }
  destruct T8' as [T8a T8b].
  destruct (copy_tmp_ok (S (Z.to_nat tc)) M1 (pa + c) tmp 0 tc) as (M2 & K2 & S2 & W2); try lia. rewrite K2. cbn [obind]. rewrite Z.sub_0_r in *. rewrite Wt in W2.
  assert (L2 : zlen M2 = zlen M1) by apply S2.
  assert (WO : win M2 pa (c + tc) = O). { rewrite win_app by lia. rewrite W2, EO. f_equal. transitivity (win M1 pa c); [|exact W]. eapply same_win; [exact S2|lia|lia|lia|lia]. }
  assert (E1 : win M2 (pa + (i_a + tc)) (sa - (i_a + tc)) = win M (pa + (i_a + tc)) (sa - (i_a + tc))).
  { transitivity (win M1 (pa + (i_a + tc)) (sa - (i_a + tc))); [eapply same_win; [exact S2|lia|lia|lia|lia]|eapply same_win; [exact S1|lia|lia|lia|lia]]. }
  assert (E2 : win M2 (pb + i_b) (sb - i_b) = win M (pb + i_b) (sb - i_b)).
  { transitivity (win M1 (pb + i_b) (sb - i_b)); [eapply same_win; [exact S2|lia|lia|lia|lia]|eapply same_win; [exact S1|lia|lia|lia|lia]]. }
  assert (SK : inter (win M (pa + (i_a + tc)) (sa - (i_a + tc))) (win M (pb + i_b) (sb - i_b)) = inter (win M (pa + i_a) (sa - i_a)) (win M (pb + i_b) (sb - i_b))).
  { destruct I1 as (J1 & J2 & J3 & J4 & J5 & _). rewrite <- (inter_skip_le (win M (pa + i_a) (sa - i_a)) T m).
    - f_equal. rewrite (win_split M (pa + i_a) (sa - i_a) tc) by (try (split; lia); lia). rewrite skipn_app, skipn_all2 by (rewrite <- (Nat2Z.id (length _)); fold (zlen (win M (pa + i_a) tc)); rewrite win_zlen by lia; unfold zlen in Lt; lia).
      replace (length T - length (win M (pa + i_a) tc))%nat with 0%nat by (apply Nat2Z.inj; pose proof (win_zlen M (pa + i_a) tc ltac:(lia) ltac:(lia) ltac:(lia)); unfold zlen in *; lia).
      cbn [skipn app]. f_equal; lia.
    - apply incr_suffix; assumption.
    - apply incr_NoDup; exact NT.
    - intros x Hx. split; [|apply J2; rewrite EO; apply in_app_iff; right; exact Hx]. specialize (HT8 ltac:(intros ->; destruct Hx)). specialize (HT x Hx).
      rewrite (win_split M (pa + i_a) (sa - i_a) 8) by (try (split; lia); lia). apply in_app_iff. left. exact HT.
    - intros Tn. destruct J5 as [J5|J5]; [exfalso|exact J5]. destruct T as [|t T']; [congruence|]. specialize (HT8 ltac:(discriminate)). specialize (HT t (or_introl eq_refl)).
      assert (t <= m) by (apply J2; rewrite EO; apply in_app_iff; right; left; reflexivity). assert (m < t); [|lia]. apply J5.
      rewrite (win_split M (pa + i_a) (sa - i_a) 8) by (try (split; lia); lia). apply in_app_iff. left. exact HT. }
  assert (LTOT : zlen (inter (win M (pa + (i_a + tc)) (sa - (i_a + tc))) (win M (pb + i_b) (sb - i_b))) <= sa - (i_a + tc)).
  { pose proof (inter_len (win M (pa + (i_a + tc)) (sa - (i_a + tc))) (win M (pb + i_b) (sb - i_b)) (incr_suffix M pa sa (i_a + tc) IA ltac:(lia) NA)) as G. rewrite win_zlen in G by lia. lia. }
  destruct (it_loop_ok (S (Z.to_nat (sa + sb))) M2 (pa + (i_a + tc)) (sa - (i_a + tc)) (pb + i_b) (sb - i_b) (pa + c + tc) (sa - (i_a + tc))) as (M3 & e & K3 & S3 & He & W3);
    try (split; lia); try (unfold apart; lia); try lia; try (rewrite ?E1, ?E2; first [lia|apply incr_suffix; (assumption || lia)]).
  rewrite K3. cbn [obind]. exists M3, (e - pa). split; [reflexivity|]. assert (L3 : zlen M3 = zlen M2) by apply S3.
  assert (S23 : same_out M1 M3 pa (pa + sa)) by (eapply same_trans; [exact S2|exact S3|lia|lia|lia|lia]).
  split; [eapply same_trans; [exact S1|exact S23|lia|lia|lia|lia]|]. split; [lia|].
  replace (e - pa) with (c + tc + (e - (pa + c + tc))) by lia. rewrite win_app by lia. replace (pa + (c + tc)) with (pa + c + tc) by lia. rewrite W3, E1, E2, SK, <- FIN. f_equal.
  transitivity (win M2 pa (c + tc)); [|exact WO]. eapply same_win; [exact S3|lia|lia|lia|lia].
Qed.
