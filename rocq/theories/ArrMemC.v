(** ArrMemC: the operations on two array containers with their blocks of memory: capacities,
    growth, the choice between vector and scalar code, and outputs that are one of the inputs. *)
From Verif Require Import Base BitUtil SimdTab ArrayUtil Simd SimdM SimdU SimdX SimdI SimdD ArrMem.

(** ** Model *)
(** array.h:43-47 struct array_container_s.  [a_addr] is the address of the struct itself, [a_ptr] the
    address of the block [array]; memory is measured in uint16_t. *)
Record acont := { a_addr : Z; a_ptr : Z; a_card : Z; a_cap : Z }.
Definition contents (M : memory) (c : acont) : list Z := win M (a_ptr c) (a_card c).
Definition set_card (c : acont) (n : Z) : acont := {| a_addr := a_addr c; a_ptr := a_ptr c; a_card := n; a_cap := a_cap c |}.
(** array.c:153-158 grow_capacity; 160-162 clamp; ARRAY_DEFAULT_INIT_SIZE is 0 (array.h:40-42) *)
Definition grow_capacity (capacity : Z) : Z :=
  if capacity <=? 0 then 0 else if capacity <? 64 then capacity * 2
  else if capacity <? 1024 then capacity * 3 / 2 else capacity * 5 / 4.
Definition clamp (val min max : Z) : Z := if val <? min then min else if max <? val then max else val.
(** array.c:164-184 array_container_grow with preserve = false.  The fresh block lies after everything
    allocated so far and has the arbitrary contents [fill]; the cells of the freed block stay in the model, and
    allocation does not fail. *)
Definition array_container_grow (fill : Z -> Z) (M : memory) (c : acont) (min : Z) : memory * acont :=
  let max := if min <=? 4096 then 4096 else 65536 in
  let new_capacity := clamp (grow_capacity (a_cap c)) min max in
  (M ++ map fill (zr 0 new_capacity), {| a_addr := a_addr c; a_ptr := zlen M; a_card := a_card c; a_cap := new_capacity |}).
(** array.c:28-53 array_container_create_given_capacity *)
Definition array_create_given_capacity (fill : Z -> Z) (M : memory) (addr size : Z) : memory * acont :=
  (M ++ map fill (zr 0 size), {| a_addr := addr; a_ptr := if 0 <? size then zlen M else 0; a_card := 0; a_cap := size |}).
(** array_util.c:1982-2011 fast_union_uint16; [avx2] is croaring_hardware_support() & ROARING_SUPPORTS_AVX2 *)
Definition fast_union_mem (avx2 : bool) (M : memory) (stk set_1 size_1 set_2 size_2 buffer : Z) : option (memory * Z) :=
  if avx2 then fast_union_uint16_avx2 M stk set_1 size_1 set_2 size_2 buffer
  else if size_1 <? size_2 then union_uint16_mem M set_1 size_1 set_2 size_2 buffer
  else union_uint16_mem M set_2 size_2 set_1 size_1 buffer.
(** array.c:207-219 *)
Definition array_union_mem (avx2 : bool) (fill : Z -> Z) (stk : Z) (M : memory) (c1 c2 out : acont) : option (memory * acont) :=
  let max_cardinality := a_card c1 + a_card c2 in
  let '(M, out) := if a_cap out <? max_cardinality then array_container_grow fill M out max_cardinality else (M, out) in
  do (M, n) <- fast_union_mem avx2 M stk (a_ptr c1) (a_card c1) (a_ptr c2) (a_card c2) (a_ptr out);
  Some (M, set_card out n).
(** array.c:224-249; out may be array_1 *)
Definition array_andnot_mem (avx2 : bool) (fill : Z -> Z) (M : memory) (c1 c2 out : acont) : option (memory * acont) :=
  let '(M, out) := if a_cap out <? a_card c1 then array_container_grow fill M out (a_card c1) else (M, out) in
  do (M, n) <-
    (if avx2 && negb (a_addr out =? a_addr c1) && negb (a_addr out =? a_addr c2)
     then difference_vector16 M (a_ptr c1) (a_card c1) (a_ptr c2) (a_card c2) (a_ptr out)
     else difference_uint16_mem M (a_ptr c1) (a_card c1) (a_ptr c2) (a_card c2) (a_ptr out));
  Some (M, set_card out n).
(** array.c:252-278 *)
Definition array_xor_mem (avx2 : bool) (fill : Z -> Z) (stk : Z) (M : memory) (c1 c2 out : acont) : option (memory * acont) :=
  let max_cardinality := a_card c1 + a_card c2 in
  let '(M, out) := if a_cap out <? max_cardinality then array_container_grow fill M out max_cardinality else (M, out) in
  do (M, n) <-
    (if avx2 then xor_vector16 M stk (a_ptr c1) (a_card c1) (a_ptr c2) (a_card c2) (a_ptr out)
     else xor_uint16_mem M (a_ptr c1) (a_card c1) (a_ptr c2) (a_card c2) (a_ptr out));
  Some (M, set_card out n).
(** array.c:286-324, on x64: the block is grown to min_card + 8, but only when it is smaller than min_card *)
Definition array_intersection_mem (avx2 : bool) (fill : Z -> Z) (M : memory) (c1 c2 out : acont) : option (memory * acont) :=
  let card_1 := a_card c1 in
  let card_2 := a_card c2 in
  let min_card := if card_1 <? card_2 then card_1 else card_2 in
  let '(M, out) := if a_cap out <? min_card then array_container_grow fill M out (min_card + 8) else (M, out) in
  do (M, n) <-
    (if card_1 * 64 <? card_2 then intersect_skewed_uint16_mem M (a_ptr c1) card_1 (a_ptr c2) card_2 (a_ptr out)
     else if card_2 * 64 <? card_1 then intersect_skewed_uint16_mem M (a_ptr c2) card_2 (a_ptr c1) card_1 (a_ptr out)
     else if avx2 then intersect_vector16 M (a_ptr c1) card_1 (a_ptr c2) card_2 (a_ptr out)
     else intersect_uint16_mem M (a_ptr c1) card_1 (a_ptr c2) card_2 (a_ptr out));
  Some (M, set_card out n).
(** array.c:373-397 *)
Definition array_intersection_inplace_mem (avx2 : bool) (M : memory) (c1 c2 : acont) : option (memory * acont) :=
  let card_1 := a_card c1 in
  let card_2 := a_card c2 in
  do (M, n) <-
    (if card_1 * 64 <? card_2 then intersect_skewed_uint16_mem M (a_ptr c1) card_1 (a_ptr c2) card_2 (a_ptr c1)
     else if card_2 * 64 <? card_1 then intersect_skewed_uint16_mem M (a_ptr c2) card_2 (a_ptr c1) card_1 (a_ptr c1)
     else if avx2 then intersect_vector16_inplace M (a_ptr c1) card_1 (a_ptr c2) card_2
     else intersect_uint16_mem M (a_ptr c1) card_1 (a_ptr c2) card_2 (a_ptr c1));
  Some (M, set_card c1 n).
(** mixed_union.c:193-222 array_array_container_inplace_union and 283-356 array_array_container_lazy_inplace_union
    for total cardinalities up to [bound] (4096 and 1024), where the result is an array container; it is
    the returned container: a new one at [addr] or src_1 itself *)
Definition array_inplace_union_or_new (lazy avx2 : bool) (fill : Z -> Z) (stk addr : Z) (M : memory) (c1 c2 : acont) : option (memory * acont) :=
  let totalCardinality := a_card c1 + a_card c2 in
  if a_cap c1 <? totalCardinality then
    let '(M, dst) := array_create_given_capacity fill M addr (2 * totalCardinality) in
    array_union_mem avx2 fill stk M c1 c2 dst
  else
    do M <- memmove M (a_ptr c1 + a_card c2) (a_ptr c1) (a_card c1);
    do (M, n) <-
      (if lazy then fast_union_mem avx2 M stk (a_ptr c1 + a_card c2) (a_card c1) (a_ptr c2) (a_card c2) (a_ptr c1)
       else union_uint16_mem M (a_ptr c1 + a_card c2) (a_card c1) (a_ptr c2) (a_card c2) (a_ptr c1));
    Some (M, set_card c1 n).

(** * Proofs *)
Local Opaque sse_merge store_unique store_unique_xor.
(** a container with its block inside the memory, holding a strictly increasing sequence of 16-bit numbers *)
Definition block (M : memory) (c : acont) : Prop := inm M (a_ptr c) (a_cap c).
Definition aok (M : memory) (c : acont) : Prop :=
  block M c /\ 0 <= a_card c <= a_cap c /\ incr (contents M c) /\ Forall (fun x => 0 <= x < 65536) (contents M c).
Definition capart (c d : acont) : Prop := apart (a_ptr c) (a_cap c) (a_ptr d) (a_cap d).
Definition sapart (stk n : Z) (c : acont) : Prop := apart stk n (a_ptr c) (a_cap c).
(** nothing that existed before changes outside the block of [c] and the [n] cells at [stk] *)
Definition keeps (M M' : memory) (c : acont) (stk n : Z) : Prop :=
  forall i, 0 <= i < zlen M -> ~ (a_ptr c <= i < a_ptr c + a_cap c) -> ~ (stk <= i < stk + n) -> znth M' i = znth M i.
Lemma win_app_l M J p n : 0 <= p -> 0 <= n -> p + n <= zlen M -> win (M ++ J) p n = win M p n.
Proof.
  intros. pose proof (zlen_nonneg J). apply list_ext_znth.
  - rewrite !win_zlen by (rewrite ?zlen_app; lia). reflexivity.
  - intros i Hi. rewrite win_zlen in Hi by (rewrite ?zlen_app; lia). rewrite !znth_win by (rewrite ?zlen_app; lia). destruct (znth_app_l M J (p + i)) as [Q|Q]; [lia|exact Q|lia].
Qed.
Lemma clamp_ge v lo hi : lo <= hi -> lo <= clamp v lo hi.
Proof. intros. unfold clamp. destruct (Z.ltb_spec v lo); [lia|]. destruct (Z.ltb_spec hi v); lia. Qed.
Lemma map_zr_len (f : Z -> Z) n : 0 <= n -> zlen (map f (zr 0 n)) = n.
Proof. intros. unfold zlen. rewrite map_length. fold (zlen (zr 0 n)). rewrite zr_zlen; lia. Qed.
(** the block of [o] is the one [out] had, or a fresh one *)
Definition placed (M : memory) (out o : acont) : Prop := a_ptr o = a_ptr out /\ a_cap o = a_cap out \/ zlen M <= a_ptr o.
(** what the growth step provides: a block of [need] cells, everything else as it was *)
Record ready (M : memory) (out : acont) (M1 : memory) (o1 : acont) (need : Z) : Prop := {
  rd_len : zlen M <= zlen M1;
  rd_old : forall p n, 0 <= p -> 0 <= n -> p + n <= zlen M -> win M1 p n = win M p n;
  rd_cell : forall i, 0 <= i < zlen M -> znth M1 i = znth M i;
  rd_blk : block M1 o1; rd_need : need <= a_cap o1;
  rd_apart : forall p n, 0 <= p -> 0 <= n -> p + n <= zlen M -> apart (a_ptr out) (a_cap out) p n -> apart (a_ptr o1) (a_cap o1) p n;
  rd_in : forall i, 0 <= i < zlen M -> a_ptr o1 <= i < a_ptr o1 + a_cap o1 -> a_ptr out <= i < a_ptr out + a_cap out;
  rd_addr : a_addr o1 = a_addr out; rd_place : placed M out o1 }.
Lemma ready_refl M out need : block M out -> need <= a_cap out -> ready M out M out need.
Proof. intros. split; auto; try lia. left; auto. Qed.
Lemma ready_grow fill M out need : 0 <= need <= 65536 -> ready M out (fst (array_container_grow fill M out need)) (snd (array_container_grow fill M out need)) need.
Proof.
  intros H. unfold array_container_grow. cbn [fst snd]. set (n := clamp _ _ _). assert (need <= n) by (apply clamp_ge; destruct (need <=? 4096) eqn:E; lia).
  assert (L : zlen (map fill (zr 0 n)) = n) by (apply map_zr_len; lia). pose proof (zlen_nonneg M). split; cbn [a_ptr a_cap a_addr].
  - rewrite zlen_app. lia.
  - intros. apply win_app_l; lia.
  - intros i Hi. destruct (znth_app_l M (map fill (zr 0 n)) i) as [Q|Q]; [lia|exact Q|lia].
  - unfold block, inm. cbn [a_ptr a_cap]. rewrite zlen_app. lia.
  - lia.
  - intros. unfold apart. lia.
  - intros. lia.
  - reflexivity.
  - right. cbn [a_ptr]. lia.
Qed.
Lemma ready_ensure fill M out need want : block M out -> 0 <= need <= want -> want <= 65536 -> (a_cap out < need \/ want <= a_cap out) ->
  exists M1 o1, (if a_cap out <? need then array_container_grow fill M out want else (M, out)) = (M1, o1) /\ ready M out M1 o1 want.
Proof.
  intros B H1 H2 H3. destruct (Z.ltb_spec (a_cap out) need).
  - pose proof (ready_grow fill M out want ltac:(lia)) as R. destruct (array_container_grow fill M out want) as [M1 o1]. exists M1, o1. split; [reflexivity|exact R].
  - exists M, out. split; [reflexivity|]. apply ready_refl; [exact B|lia].
Qed.
Lemma ready_aok M out M1 o1 need c : ready M out M1 o1 need -> aok M c -> aok M1 c /\ contents M1 c = contents M c.
Proof.
  intros R (B & C & I & F). destruct B as (B1 & B2 & B3). assert (E : contents M1 c = contents M c) by (apply (rd_old _ _ _ _ _ R); lia).
  split; [|exact E]. pose proof (rd_len _ _ _ _ _ R). split; [split; lia|]. split; [exact C|]. rewrite E. auto.
Qed.
Lemma ready_capart M out M1 o1 need c : ready M out M1 o1 need -> aok M c -> capart out c -> apart (a_ptr o1) (a_cap o1) (a_ptr c) (a_cap c).
Proof. intros R ((B1 & B2 & B3) & _) A. apply (rd_apart _ _ _ _ _ R); assumption. Qed.
Lemma aok_bounds M c : aok M c -> 0 <= a_ptr c /\ 0 <= a_card c <= a_cap c /\ a_ptr c + a_cap c <= zlen M.
Proof. intros ((B1 & B2 & B3) & C & _). lia. Qed.
(** what the kernels give, stated for the block *)
Definition done (M : memory) (c1 c2 out : acont) (stk n : Z) (M' : memory) (o : acont) (r : list Z) : Prop :=
  block M' o /\ 0 <= a_card o <= a_cap o /\ contents M' o = r /\ a_addr o = a_addr out /\ zlen M <= zlen M' /\ keeps M M' out stk n /\ placed M out o.
Lemma ready_done M c1 c2 out M1 o1 need m M' k r stk n : ready M out M1 o1 need -> same_out2 M1 M' (a_ptr o1) (a_ptr o1 + m) stk n -> 0 <= m <= need -> 0 <= k <= m -> win M' (a_ptr o1) k = r ->
  done M c1 c2 out stk n M' (set_card o1 k) r.
Proof.
  intros R (L & S) Hm Hk W. pose proof (rd_need _ _ _ _ _ R). pose proof (rd_blk _ _ _ _ _ R) as (B1 & B2 & B3). unfold done, block, set_card, contents, inm. cbn [a_ptr a_cap a_card a_addr].
  split; [lia|]. split; [lia|]. split; [exact W|]. split; [apply (rd_addr _ _ _ _ _ R)|]. split; [pose proof (rd_len _ _ _ _ _ R); lia|]. split; [|exact (rd_place _ _ _ _ _ R)].
  intros i Hi Ho Hs. rewrite <- (rd_cell _ _ _ _ _ R i Hi). apply S; [lia| |lia]. intros Hq. apply Ho. apply (rd_in _ _ _ _ _ R i Hi). lia.
Qed.
Lemma same_out_2 M M' lo hi stk n : same_out M M' lo hi -> same_out2 M M' lo hi stk n.
Proof. intros [L S]. split; [exact L|]. intros; apply S; assumption. Qed.
Lemma same_out2_le M M' lo hi stk n m : same_out2 M M' lo hi stk n -> n <= m -> same_out2 M M' lo hi stk m.
Proof. intros [L S] H. split; [exact L|]. intros; apply S; lia. Qed.

(** ** Union *)
Lemma fast_union_mem_ok avx2 M p1 n1 p2 n2 po stk : uenv M p1 n1 p2 n2 po -> inm M stk 16 -> apart stk 16 p1 n1 -> apart stk 16 p2 n2 -> apart stk 16 po (n1 + n2) ->
  exists M' k, fast_union_mem avx2 M stk p1 n1 p2 n2 po = Some (M', k) /\ same_out2 M M' po (po + (n1 + n2)) stk 16 /\ 0 <= k <= n1 + n2 /\ win M' po k = union_uint16 (win M p1 n1) (win M p2 n2).
Proof.
  intros E T A1 A2 A3. unfold fast_union_mem. destruct avx2.
  - destruct (fast_union_avx2_ok M p1 n1 p2 n2 po stk E T A1 A2 A3) as (M' & k & R & S & P). exists M', k. rewrite Z.add_assoc. auto.
  - destruct E as [I1 I2 E0 El C1 C2 N1 N2 F1 F2]. destruct (n1 <? n2).
    + destruct (union_uint16_mem_ok M p1 n1 p2 n2 po) as (M' & k & R & S & P); try assumption. exists M', k. rewrite Z.add_assoc. split; [exact R|]. split; [apply same_out_2, S|exact P].
    + destruct (union_uint16_mem_ok M p2 n2 p1 n1 po) as (M' & k & R & S & P & W); try assumption; try lia. exists M', k. replace (po + (n1 + n2)) with (po + n2 + n1) by lia. split; [exact R|]. split; [apply same_out_2, S|]. split; [lia|]. rewrite W. apply union_sym; assumption.
Qed.
Lemma array_union_mem_ok avx2 fill stk M c1 c2 out : aok M c1 -> aok M c2 -> block M out -> capart out c1 -> capart out c2 ->
  inm M stk 17 -> sapart stk 17 c1 -> sapart stk 17 c2 -> sapart stk 17 out -> a_card c1 + a_card c2 <= 65536 ->
  exists M' o, array_union_mem avx2 fill stk M c1 c2 out = Some (M', o) /\ done M c1 c2 out stk 17 M' o (union_uint16 (contents M c1) (contents M c2)).
Proof.
  intros K1 K2 BO X1 X2 T T1 T2 TO HB. unfold array_union_mem. pose proof (aok_bounds _ _ K1). pose proof (aok_bounds _ _ K2).
  destruct (ready_ensure fill M out (a_card c1 + a_card c2) (a_card c1 + a_card c2) BO) as (M1 & o1 & E & R); try lia. rewrite E.
  destruct (ready_aok _ _ _ _ _ _ R K1) as [K1' Q1]. destruct (ready_aok _ _ _ _ _ _ R K2) as [K2' Q2].
  assert (Y1 := ready_capart _ _ _ _ _ _ R K1 X1). assert (Y2 := ready_capart _ _ _ _ _ _ R K2 X2). pose proof (rd_need _ _ _ _ _ R). pose proof (rd_blk _ _ _ _ _ R) as (B1 & B2 & B3). pose proof (rd_len _ _ _ _ _ R).
  assert (T' := T). destruct T' as (U1 & U2 & U3).
  assert (YT : apart (a_ptr o1) (a_cap o1) stk 17) by (apply (rd_apart _ _ _ _ _ R); try lia; unfold sapart, apart in *; lia).
  unfold sapart, capart, apart in *.
  destruct K1' as (_ & _ & N1 & F1), K2' as (_ & _ & N2 & F2). unfold contents in *.
  destruct (fast_union_mem_ok avx2 M1 (a_ptr c1) (a_card c1) (a_ptr c2) (a_card c2) (a_ptr o1) stk) as (M' & k & Z1 & Z2 & Z3 & Z4); try (split; lia); try (unfold apart; lia).
  { constructor; try assumption; try (split; lia); try lia; unfold clear; lia. }
  rewrite Z1. cbn [obind]. exists M', (set_card o1 k). split; [reflexivity|]. rewrite Q1, Q2 in Z4.
  apply (ready_done M c1 c2 out M1 o1 (a_card c1 + a_card c2) (a_card c1 + a_card c2) M' k); try lia; try assumption. apply (same_out2_le _ _ _ _ _ 16); [exact Z2|lia].
Qed.
(** ** Symmetric difference *)
Lemma array_xor_mem_ok avx2 fill stk M c1 c2 out : aok M c1 -> aok M c2 -> block M out -> capart out c1 -> capart out c2 ->
  inm M stk 17 -> sapart stk 17 c1 -> sapart stk 17 c2 -> sapart stk 17 out -> a_card c1 + a_card c2 <= 65536 ->
  exists M' o, array_xor_mem avx2 fill stk M c1 c2 out = Some (M', o) /\ done M c1 c2 out stk 17 M' o (xor_uint16 (contents M c1) (contents M c2)).
Proof.
  intros K1 K2 BO X1 X2 T T1 T2 TO HB. unfold array_xor_mem. pose proof (aok_bounds _ _ K1). pose proof (aok_bounds _ _ K2).
  destruct (ready_ensure fill M out (a_card c1 + a_card c2) (a_card c1 + a_card c2) BO) as (M1 & o1 & E & R); try lia. rewrite E.
  destruct (ready_aok _ _ _ _ _ _ R K1) as [K1' Q1]. destruct (ready_aok _ _ _ _ _ _ R K2) as [K2' Q2].
  assert (Y1 := ready_capart _ _ _ _ _ _ R K1 X1). assert (Y2 := ready_capart _ _ _ _ _ _ R K2 X2). pose proof (rd_need _ _ _ _ _ R). pose proof (rd_blk _ _ _ _ _ R) as (B1 & B2 & B3). pose proof (rd_len _ _ _ _ _ R).
  assert (T' := T). destruct T' as (U1 & U2 & U3).
  assert (YT : apart (a_ptr o1) (a_cap o1) stk 17) by (apply (rd_apart _ _ _ _ _ R); try lia; unfold sapart, apart in *; lia).
  unfold sapart, capart, apart in *.
  destruct K1' as (_ & _ & N1 & F1), K2' as (_ & _ & N2 & F2). unfold contents in *.
  assert (G : exists M' k, (if avx2 then xor_vector16 M1 stk (a_ptr c1) (a_card c1) (a_ptr c2) (a_card c2) (a_ptr o1) else xor_uint16_mem M1 (a_ptr c1) (a_card c1) (a_ptr c2) (a_card c2) (a_ptr o1)) = Some (M', k) /\
    same_out2 M1 M' (a_ptr o1) (a_ptr o1 + a_card c1 + a_card c2) stk 17 /\ 0 <= k <= a_card c1 + a_card c2 /\ win M' (a_ptr o1) k = xor_uint16 (win M1 (a_ptr c1) (a_card c1)) (win M1 (a_ptr c2) (a_card c2))).
  { destruct avx2.
    - apply xor_vector16_ok; try (split; lia); try (unfold apart; lia). constructor; try assumption; try (split; lia); try lia; unfold clear; lia.
    - destruct (xor_uint16_mem_ok M1 (a_ptr c1) (a_card c1) (a_ptr c2) (a_card c2) (a_ptr o1)) as (M' & k & P1 & P2 & P3); try (split; lia); try lia; try (unfold apart; lia).
      exists M', k. split; [exact P1|]. split; [apply same_out_2, P2|exact P3]. }
  destruct G as (M' & k & Z1 & Z2 & Z3 & Z4). rewrite Z1. cbn [obind]. exists M', (set_card o1 k). split; [reflexivity|]. rewrite Q1, Q2 in Z4.
  apply (ready_done M c1 c2 out M1 o1 (a_card c1 + a_card c2) (a_card c1 + a_card c2) M' k); try lia; try assumption. rewrite Z.add_assoc. exact Z2.
Qed.
(** ** Difference: out is array_1, or a third container *)
Lemma array_andnot_mem_ok avx2 fill M c1 c2 out : aok M c1 -> aok M c2 -> block M out -> out = c1 \/ capart out c1 /\ a_addr out <> a_addr c1 -> capart out c2 ->
  a_card c1 <= 65536 ->
  exists M' o, array_andnot_mem avx2 fill M c1 c2 out = Some (M', o) /\ done M c1 c2 out 0 0 M' o (difference_uint16 (contents M c1) (contents M c2)).
Proof.
  intros K1 K2 BO X1 X2 HB. unfold array_andnot_mem. pose proof (aok_bounds _ _ K1). pose proof (aok_bounds _ _ K2).
  assert (G : exists M1 o1 M' k, (if a_cap out <? a_card c1 then array_container_grow fill M out (a_card c1) else (M, out)) = (M1, o1) /\ ready M out M1 o1 (a_card c1) /\
     (if avx2 && negb (a_addr o1 =? a_addr c1) && negb (a_addr o1 =? a_addr c2) then difference_vector16 M1 (a_ptr c1) (a_card c1) (a_ptr c2) (a_card c2) (a_ptr o1)
      else difference_uint16_mem M1 (a_ptr c1) (a_card c1) (a_ptr c2) (a_card c2) (a_ptr o1)) = Some (M', k) /\
     same_out M1 M' (a_ptr o1) (a_ptr o1 + a_card c1) /\ 0 <= k <= a_card c1 /\ win M' (a_ptr o1) k = difference_uint16 (contents M c1) (contents M c2)).
  { destruct X1 as [->|[X1 XA]].
    - destruct (Z.ltb_spec (a_cap c1) (a_card c1)); [lia|]. unfold capart, apart in *.
      destruct (difference_uint16_mem_ok M (a_ptr c1) (a_card c1) (a_ptr c2) (a_card c2) (a_ptr c1)) as (M' & k & P); try (split; lia); try (unfold apart; lia).
      exists M, c1, M', k. split; [reflexivity|]. split; [apply ready_refl; [exact BO|lia]|]. rewrite Z.eqb_refl. cbn [negb]. rewrite andb_false_r. cbn [andb]. exact P.
    - destruct (ready_ensure fill M out (a_card c1) (a_card c1) BO) as (M1 & o1 & E & R); try lia.
      destruct (ready_aok _ _ _ _ _ _ R K1) as [K1' Q1]. destruct (ready_aok _ _ _ _ _ _ R K2) as [K2' Q2].
      assert (Y1 := ready_capart _ _ _ _ _ _ R K1 X1). assert (Y2 := ready_capart _ _ _ _ _ _ R K2 X2). pose proof (rd_need _ _ _ _ _ R). pose proof (rd_blk _ _ _ _ _ R) as (B1 & B2 & B3). pose proof (rd_len _ _ _ _ _ R).
      destruct K1' as (_ & _ & N1 & F1), K2' as (_ & _ & N2 & F2). unfold contents, apart in *.
      exists M1, o1. rewrite <- Q1, <- Q2. destruct (avx2 && _ && _).
      + destruct (difference_vector16_ok M1 (a_ptr c1) (a_card c1) (a_ptr c2) (a_card c2) (a_ptr o1)) as (M' & k & P); try (split; lia); try (unfold apart; lia).
        { constructor; try assumption; split; lia. }
        exists M', k. split; [exact E|]. split; [exact R|]. exact P.
      + destruct (difference_uint16_mem_ok M1 (a_ptr c1) (a_card c1) (a_ptr c2) (a_card c2) (a_ptr o1)) as (M' & k & P); try (split; lia); try (unfold apart; lia).
        exists M', k. split; [exact E|]. split; [exact R|]. exact P. }
  destruct G as (M1 & o1 & M' & k & E & R & Z1 & Z2 & Z3 & Z4). rewrite E, Z1. cbn [obind]. exists M', (set_card o1 k). split; [reflexivity|].
  apply (ready_done M c1 c2 out M1 o1 (a_card c1) (a_card c1) M' k); try lia; try assumption. apply same_out_2, Z2.
Qed.
(** ** Intersection *)
Lemma min_if a b : (if a <? b then a else b) = Z.min a b. Proof. destruct (Z.ltb_spec a b); lia. Qed.
Lemma iv_vector_empty {St} (mem : St -> memory) emit flush A sa B sb s : 0 <= sa -> 0 <= sb -> Z.min sa sb < 8 -> iv_vector mem emit flush A sa B sb s = Some (s, 0, 0).
Proof.
  intros Ha Hb H. unfold iv_vector. replace ((0 <? sa / 8 * 8) && (0 <? sb / 8 * 8)) with false; [reflexivity|]. symmetry. apply andb_false_iff. rewrite !Z.ltb_ge.
  destruct (Z.lt_ge_cases sa 8); [left; rewrite Z.div_small by lia; lia|right; rewrite Z.div_small by lia; lia].
Qed.
Lemma intersect_vector16_empty M A sa B sb C : 0 <= sa -> 0 <= sb -> Z.min sa sb = 0 -> intersect_vector16 M A sa B sb C = Some (M, 0).
Proof.
  intros Ha Hb H. unfold intersect_vector16. rewrite iv_vector_empty by lia. cbn [obind fst snd]. cbn [it_loop]. replace ((0 <? sa - 0) && (0 <? sb - 0)) with false by (symmetry; apply andb_false_iff; rewrite !Z.ltb_ge; lia).
  cbn [obind]. f_equal. f_equal. lia.
Qed.
(** The condition on the capacity of out: too small for min_card, or with room for 8 more *)
Definition room (avx2 : bool) (c1 c2 out : acont) : Prop :=
  avx2 = false \/ a_cap out < Z.min (a_card c1) (a_card c2) \/ Z.min (a_card c1) (a_card c2) = 0 \/ Z.min (a_card c1) (a_card c2) + 8 <= a_cap out.
Lemma array_intersection_mem_ok avx2 fill M c1 c2 out : aok M c1 -> aok M c2 -> block M out -> capart out c1 -> capart out c2 ->
  room avx2 c1 c2 out -> Z.min (a_card c1) (a_card c2) + 8 <= 65536 ->
  exists M' o, array_intersection_mem avx2 fill M c1 c2 out = Some (M', o) /\ done M c1 c2 out 0 0 M' o (inter (contents M c1) (contents M c2)).
Proof.
  intros K1 K2 BO X1 X2 HR HB. unfold array_intersection_mem. pose proof (aok_bounds _ _ K1). pose proof (aok_bounds _ _ K2). rewrite min_if.
  set (mn := Z.min (a_card c1) (a_card c2)) in *.
  assert (G0 : exists M1 o1, (if a_cap out <? mn then array_container_grow fill M out (mn + 8) else (M, out)) = (M1, o1) /\ ready M out M1 o1 mn /\ (avx2 = false \/ mn = 0 \/ ready M out M1 o1 (mn + 8))).
  { destruct (Z.ltb_spec (a_cap out) mn) as [Hc|Hc].
    - pose proof (ready_grow fill M out (mn + 8) ltac:(lia)) as R. destruct (array_container_grow fill M out (mn + 8)) as [M1 o1]. exists M1, o1. split; [reflexivity|]. cbn [fst snd] in R.
      split; [|right; right; exact R]. destruct R; split; auto; lia.
    - exists M, out. split; [reflexivity|]. split; [apply ready_refl; [exact BO|lia]|]. unfold room in HR. fold mn in HR.
      destruct HR as [HR|[HR|[HR|HR]]]; [left; exact HR|lia|right; left; exact HR|right; right; apply ready_refl; [exact BO|lia]]. }
  destruct G0 as (M1 & o1 & E & R & R8). rewrite E.
  destruct (ready_aok _ _ _ _ _ _ R K1) as [K1' Q1]. destruct (ready_aok _ _ _ _ _ _ R K2) as [K2' Q2].
  assert (Y1 := ready_capart _ _ _ _ _ _ R K1 X1). assert (Y2 := ready_capart _ _ _ _ _ _ R K2 X2). pose proof (rd_need _ _ _ _ _ R). pose proof (rd_blk _ _ _ _ _ R) as (B1 & B2 & B3). pose proof (rd_len _ _ _ _ _ R).
  destruct K1' as (_ & _ & N1 & F1), K2' as (_ & _ & N2 & F2). unfold contents, apart in *. rewrite <- Q1, <- Q2. unfold contents in *.
  set (A := win M1 (a_ptr c1) (a_card c1)) in *. set (B := win M1 (a_ptr c2) (a_card c2)) in *.
  (* the scalar kernels stay in the first mn cells *)
  assert (G : exists M' k m, (if a_card c1 * 64 <? a_card c2 then intersect_skewed_uint16_mem M1 (a_ptr c1) (a_card c1) (a_ptr c2) (a_card c2) (a_ptr o1)
     else if a_card c2 * 64 <? a_card c1 then intersect_skewed_uint16_mem M1 (a_ptr c2) (a_card c2) (a_ptr c1) (a_card c1) (a_ptr o1)
     else if avx2 then intersect_vector16 M1 (a_ptr c1) (a_card c1) (a_ptr c2) (a_card c2) (a_ptr o1)
     else intersect_uint16_mem M1 (a_ptr c1) (a_card c1) (a_ptr c2) (a_card c2) (a_ptr o1)) = Some (M', k) /\ ready M out M1 o1 m /\
     same_out M1 M' (a_ptr o1) (a_ptr o1 + m) /\ 0 <= k <= m /\ win M' (a_ptr o1) k = inter A B).
  { destruct (Z.ltb_spec (a_card c1 * 64) (a_card c2)) as [S1|S1]; [|destruct (Z.ltb_spec (a_card c2 * 64) (a_card c1)) as [S2|S2]].
    - destruct (intersect_skewed_uint16_mem_ok M1 (a_ptr c1) (a_card c1) (a_ptr c2) (a_card c2) (a_ptr o1) mn) as (M' & P1 & P2 & P3 & P4).
      { constructor; try assumption; try (split; lia); try lia; right; unfold apart; lia. }
      exists M', (zlen (inter A B)), mn. auto.
    - destruct (intersect_skewed_uint16_mem_ok M1 (a_ptr c2) (a_card c2) (a_ptr c1) (a_card c1) (a_ptr o1) mn) as (M' & P1 & P2 & P3 & P4).
      { constructor; try assumption; try (split; lia); try lia; right; unfold apart; lia. }
      exists M', (zlen (inter B A)), mn. fold A B in P1, P2, P3, P4. split; [exact P1|]. split; [exact R|]. split; [exact P2|]. split; [exact P3|]. rewrite P4. apply inter_comm; assumption.
    - destruct avx2.
      + destruct R8 as [R8|[R8|R8]]; [discriminate| |].
        * exists M1, 0, mn. rewrite intersect_vector16_empty by lia. split; [reflexivity|]. split; [exact R|]. split; [apply same_refl|]. split; [lia|]. rewrite win_0. unfold A, B. symmetry.
          assert (Hz : a_card c1 = 0 \/ a_card c2 = 0) by lia. destruct Hz as [Hz|Hz]; rewrite Hz, win_0; [reflexivity|apply inter_nil_r].
        * pose proof (rd_need _ _ _ _ _ R8).
          destruct (intersect_vector16_ok M1 (a_ptr c1) (a_card c1) (a_ptr c2) (a_card c2) (a_ptr o1)) as (M' & k & P1 & P2 & P3 & P4); try lia; try (unfold apart; lia).
          { constructor; try assumption; split; lia. }
          exists M', k, (mn + 8). fold mn in P1, P2, P3, P4. fold A B in P4. split; [exact P1|]. split; [exact R8|]. rewrite Z.add_assoc. split; [exact P2|]. split; [lia|exact P4].
      + destruct (intersect_uint16_mem_ok M1 (a_ptr c1) (a_card c1) (a_ptr c2) (a_card c2) (a_ptr o1) mn) as (M' & k & P1 & P2 & P3 & P4); try assumption; try (split; lia); try lia; try (unfold apart; lia).
        exists M', k, mn. auto. }
  destruct G as (M' & k & m & Z1 & Rm & Z2 & Z3 & Z4). rewrite Z1. cbn [obind]. exists M', (set_card o1 k). split; [reflexivity|].
  apply (ready_done M c1 c2 out M1 o1 m m M' k); try lia; try assumption. apply same_out_2, Z2.
Qed.
(** ** Intersection into the first container *)
Lemma array_intersection_inplace_mem_ok avx2 M c1 c2 : aok M c1 -> aok M c2 -> capart c1 c2 ->
  exists M' o, array_intersection_inplace_mem avx2 M c1 c2 = Some (M', o) /\ done M c1 c2 c1 0 0 M' o (inter (contents M c1) (contents M c2)).
Proof.
  intros K1 K2 X. unfold array_intersection_inplace_mem. pose proof (aok_bounds _ _ K1). pose proof (aok_bounds _ _ K2). assert (BO : block M c1) by apply K1.
  destruct K1 as (_ & _ & N1 & F1), K2 as (_ & _ & N2 & F2). unfold contents, capart, apart in *.
  set (A := win M (a_ptr c1) (a_card c1)) in *. set (B := win M (a_ptr c2) (a_card c2)) in *.
  assert (G : exists M' k, (if a_card c1 * 64 <? a_card c2 then intersect_skewed_uint16_mem M (a_ptr c1) (a_card c1) (a_ptr c2) (a_card c2) (a_ptr c1)
     else if a_card c2 * 64 <? a_card c1 then intersect_skewed_uint16_mem M (a_ptr c2) (a_card c2) (a_ptr c1) (a_card c1) (a_ptr c1)
     else if avx2 then intersect_vector16_inplace M (a_ptr c1) (a_card c1) (a_ptr c2) (a_card c2)
     else intersect_uint16_mem M (a_ptr c1) (a_card c1) (a_ptr c2) (a_card c2) (a_ptr c1)) = Some (M', k) /\
     same_out M M' (a_ptr c1) (a_ptr c1 + a_card c1) /\ 0 <= k <= a_card c1 /\ win M' (a_ptr c1) k = inter A B).
  { destruct (Z.ltb_spec (a_card c1 * 64) (a_card c2)) as [S1|S1]; [|destruct (Z.ltb_spec (a_card c2 * 64) (a_card c1)) as [S2|S2]].
    - destruct (intersect_skewed_uint16_mem_ok M (a_ptr c1) (a_card c1) (a_ptr c2) (a_card c2) (a_ptr c1) (a_card c1)) as (M' & P1 & P2 & P3 & P4).
      { constructor; try assumption; try (split; lia); try lia; right; unfold apart; lia. }
      exists M', (zlen (inter A B)). auto.
    - destruct (intersect_skewed_uint16_mem_ok M (a_ptr c2) (a_card c2) (a_ptr c1) (a_card c1) (a_ptr c1) (a_card c1)) as (M' & P1 & P2 & P3 & P4).
      { constructor; try assumption; try (split; lia); try lia; right; unfold apart; lia. }
      exists M', (zlen (inter B A)). fold A B in P1, P2, P3, P4. split; [exact P1|]. split; [exact P2|]. split; [exact P3|]. rewrite P4. apply inter_comm; assumption.
    - destruct avx2.
      + apply intersect_vector16_inplace_ok; [constructor; try assumption; split; lia|unfold apart; lia].
      + apply intersect_uint16_mem_ok; try assumption; try (split; lia); try lia; unfold apart; lia. }
  destruct G as (M' & k & Z1 & Z2 & Z3 & Z4). rewrite Z1. cbn [obind]. exists M', (set_card c1 k). split; [reflexivity|].
  apply (ready_done M c1 c2 c1 M c1 (a_card c1) (a_card c1) M' k); try lia; try assumption; [apply ready_refl; [exact BO|lia]|]. apply same_out_2, Z2.
Qed.
(** ** Union into the first container, or a new one when there is no room *)
Lemma array_inplace_union_or_new_ok lazy avx2 fill stk addr M c1 c2 : aok M c1 -> aok M c2 -> capart c1 c2 ->
  inm M stk 17 -> sapart stk 17 c1 -> sapart stk 17 c2 -> a_card c1 + a_card c2 <= 4096 ->
  exists M' o, array_inplace_union_or_new lazy avx2 fill stk addr M c1 c2 = Some (M', o) /\
    block M' o /\ 0 <= a_card o <= a_cap o /\ contents M' o = union_uint16 (contents M c1) (contents M c2) /\ keeps M M' c1 stk 17 /\ placed M c1 o.
Proof.
  intros K1 K2 X T T1 T2 HB. unfold array_inplace_union_or_new. pose proof (aok_bounds _ _ K1). pose proof (aok_bounds _ _ K2). destruct (Z.ltb_spec (a_cap c1) (a_card c1 + a_card c2)) as [Hc|Hc].
  - unfold array_create_given_capacity. set (t := 2 * (a_card c1 + a_card c2)). assert (0 < t) by lia. replace (0 <? t) with true by lia.
    set (dst := {| a_addr := addr; a_ptr := zlen M; a_card := 0; a_cap := t |}). set (M1 := M ++ map fill (zr 0 t)).
    assert (L : zlen M1 = zlen M + t) by (unfold M1; rewrite zlen_app, map_zr_len; lia). pose proof (zlen_nonneg M).
    assert (W : forall p n, 0 <= p -> 0 <= n -> p + n <= zlen M -> win M1 p n = win M p n) by (intros; apply win_app_l; lia).
    assert (KK : forall c, aok M c -> aok M1 c /\ contents M1 c = contents M c).
    { intros c (B & C & I & F). destruct B as (B1 & B2 & B3). assert (EE : contents M1 c = contents M c) by (apply W; lia). split; [|exact EE]. split; [split; lia|]. split; [exact C|]. rewrite EE. auto. }
    destruct (KK c1 K1) as [J1 Q1]. destruct (KK c2 K2) as [J2 Q2]. destruct T as (U1 & U2 & U3). unfold capart, sapart, apart in *.
    destruct (array_union_mem_ok avx2 fill stk M1 c1 c2 dst J1 J2) as (M' & o & P & D1 & D2 & D3 & D4 & D5 & D6 & D7); try (unfold capart, sapart, apart, dst; cbn [a_ptr a_cap]; lia); try (unfold block, dst; cbn [a_ptr a_cap]; split; lia); try (split; lia).
    exists M', o. split; [exact P|]. split; [exact D1|]. split; [exact D2|]. split; [rewrite D3, Q1, Q2; reflexivity|]. split; [|right; destruct D7 as [D7|D7]; unfold dst in D7; cbn [a_ptr a_cap] in D7; lia].
    intros i Hi Ho Hs. rewrite D6; [apply znth_app1; lia|lia|unfold dst; cbn [a_ptr a_cap]; lia|exact Hs].
  - destruct K1 as (BO & _ & N1 & F1), K2 as (B2 & _ & N2 & F2). unfold contents, capart, sapart, apart in *. destruct T as (U1 & U2 & U3).
    destruct lazy.
    + destruct (memmove_ok M (a_ptr c1 + a_card c2) (a_ptr c1) (a_card c1)) as (M1 & R1 & S1 & W1); try (split; lia). rewrite R1. cbn [obind].
      assert (L1 : zlen M1 = zlen M) by apply S1.
      assert (WB : win M1 (a_ptr c2) (a_card c2) = win M (a_ptr c2) (a_card c2)) by (eapply same_win; [exact S1|lia|lia|lia|lia]).
      destruct (fast_union_mem_ok avx2 M1 (a_ptr c1 + a_card c2) (a_card c1) (a_ptr c2) (a_card c2) (a_ptr c1) stk) as (M2 & k & R2 & S2 & K & W2); try (split; lia); try (unfold apart; lia).
      { constructor; rewrite ?W1, ?WB; try assumption; try (split; lia); try (unfold clear; lia); lia. }
      rewrite R2. cbn [obind]. exists M2, (set_card c1 k). unfold set_card, block, inm, keeps. cbn [a_ptr a_cap a_card]. destruct S2 as [L2 S2]. split; [reflexivity|]. split; [lia|]. split; [lia|]. split; [rewrite W2, W1, WB; reflexivity|]. split; [|left; split; reflexivity].
      intros i Hi Ho Hs. destruct S1 as [_ S1]. rewrite S2, S1 by lia. reflexivity.
    + destruct (array_inplace_union_mem_ok M (a_ptr c1) (a_card c1) (a_cap c1) (a_ptr c2) (a_card c2)) as (M' & k & P1 & P2 & P3 & P4); try (split; lia); try lia; try (unfold apart; lia).
      unfold array_inplace_union_mem in P1. destruct (memmove M (a_ptr c1 + a_card c2) (a_ptr c1) (a_card c1)) as [M1|]; [|discriminate P1]. cbn [obind] in P1 |- *. rewrite P1. cbn [obind].
      exists M', (set_card c1 k). unfold set_card, block, inm, keeps. cbn [a_ptr a_cap a_card]. destruct P2 as [L2 S2]. split; [reflexivity|]. split; [lia|]. split; [lia|]. split; [exact P3|]. split; [|left; split; reflexivity].
      intros i Hi Ho Hs. apply S2; lia.
Qed.
