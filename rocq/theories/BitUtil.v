(** BitUtil: 64-bit words and the scalar word-array functions of
    include/roaring/bitset_util.h and src/bitset_util.c.
    A word is a Z in [0,2^64); a word array is a list of words. *)
From Verif Require Import Base.

Definition W64 : Z := 2^64.
Definition ones64 : Z := 2^64 - 1.                       (* ~UINT64_C(0) *)
Definition shl64 (w k : Z) : Z := Z.shiftl w k mod 2^64. (* w << k on uint64_t *)
Definition shr64 (w k : Z) : Z := Z.shiftr w k.          (* w >> k *)
Definition not64 (w : Z) : Z := Z.lxor w ones64.         (* ~w *)
Definition neg32 (x : Z) : Z := (- x) mod 2^32.          (* ~x + 1 on uint32_t *)
(** portability.h roaring_hamming / roaring_trailing_zeroes / roaring_leading_zeroes
    (compiler builtins): modelled by their mathematical definition. *)
Definition bits (w : Z) : list Z := filter (Z.testbit w) (zr 0 64).
Definition hamming (w : Z) : Z := zlen (bits w).
Definition ctz (w : Z) : Z := hd 64 (bits w).
Definition clz (w : Z) : Z := 63 - last (bits w) (-1).

Definition isw (w : Z) : Prop := 0 <= w < 2^64.
Definition wfw (ws : list Z) : Prop := Forall isw ws.

(** bit [x] of a word array: containers/bitset.h:183-187 bitset_container_get *)
Definition bget (ws : list Z) (x : Z) : bool := Z.testbit (znth ws (x / 64)) (x mod 64).

(** for (i = lo; i < hi; i++) words[i] = f(words[i]) *)
Definition wloop (f : Z -> Z) (lo hi : Z) (ws : list Z) : list Z :=
  fold_left (fun ws i => zupd i (f (znth ws i)) ws) (zr lo hi) ws.
Definition wmod (i : Z) (f : Z -> Z) (ws : list Z) : list Z := zupd i (f (znth ws i)) ws.

(** bitset_util.h:28-43 bitset_set_range *)
Definition bitset_set_range (ws : list Z) (start end_ : Z) : list Z :=
  if start =? end_ then ws else
  let firstword := start / 64 in
  let endword := (end_ - 1) / 64 in
  if firstword =? endword then
    wmod firstword (fun w => Z.lor w (Z.land (shl64 ones64 (start mod 64)) (shr64 ones64 (neg32 end_ mod 64)))) ws
  else
    let ws := wmod firstword (fun w => Z.lor w (shl64 ones64 (start mod 64))) ws in
    let ws := wloop (fun _ => ones64) (firstword + 1) endword ws in
    wmod endword (fun w => Z.lor w (shr64 ones64 (neg32 end_ mod 64))) ws.

(** bitset_util.h:48-67 bitset_lenrange_cardinality *)
Definition bitset_lenrange_cardinality (ws : list Z) (start lenminusone : Z) : Z :=
  let firstword := start / 64 in
  let endword := (start + lenminusone) / 64 in
  if firstword =? endword then
    hamming (Z.land (znth ws firstword)
                    (shl64 (shr64 ones64 ((63 - lenminusone) mod 2^32 mod 64)) (start mod 64)))
  else
    let answer := hamming (Z.land (znth ws firstword) (shl64 ones64 (start mod 64))) in
    let answer := fold_left (fun a i => a + hamming (znth ws i)) (zr (firstword + 1) endword) answer in
    answer + hamming (Z.land (znth ws endword)
                       (shr64 ones64 ((neg32 start - lenminusone - 1) mod 2^32 mod 64))).

(** bitset_util.h:72-93 bitset_lenrange_empty *)
Definition bitset_lenrange_empty (ws : list Z) (start lenminusone : Z) : bool :=
  let firstword := start / 64 in
  let endword := (start + lenminusone) / 64 in
  if firstword =? endword then
    Z.land (znth ws firstword)
           (shl64 (shr64 ones64 ((63 - lenminusone) mod 2^32 mod 64)) (start mod 64)) =? 0
  else if negb (Z.land (znth ws firstword) (shl64 ones64 (start mod 64)) =? 0) then false
  else if negb (forallb (fun i => znth ws i =? 0) (zr (firstword + 1) endword)) then false
  else if negb (Z.land (znth ws endword)
                  (shr64 ones64 ((neg32 start - lenminusone - 1) mod 2^32 mod 64)) =? 0) then false
  else true.

(** bitset_util.h:98-113 bitset_set_lenrange; the middle loop goes two words at a
    time and may write words[endword], which is then overwritten from temp. *)
Fixpoint set_pairs (fuel : nat) (i endword : Z) (ws : list Z) : list Z :=
  match fuel with
  | O => ws
  | S f => if i <? endword
           then set_pairs f (i + 2) endword (zupd i ones64 (zupd (i + 1) ones64 ws))
           else ws
  end.
Definition bitset_set_lenrange (ws : list Z) (start lenminusone : Z) : list Z :=
  let firstword := start / 64 in
  let endword := (start + lenminusone) / 64 in
  if firstword =? endword then
    wmod firstword (fun w => Z.lor w
      (shl64 (shr64 ones64 ((63 - lenminusone) mod 2^32 mod 64)) (start mod 64))) ws
  else
    let temp := znth ws endword in
    let ws := wmod firstword (fun w => Z.lor w (shl64 ones64 (start mod 64))) ws in
    let ws := set_pairs (Z.to_nat (endword - firstword)) (firstword + 1) endword ws in
    zupd endword (Z.lor temp (shr64 ones64 ((neg32 start - lenminusone - 1) mod 2^32 mod 64))) ws.

(** bitset_util.h:118-128 bitset_flip_range *)
Definition bitset_flip_range (ws : list Z) (start end_ : Z) : list Z :=
  if start =? end_ then ws else
  let firstword := start / 64 in
  let endword := (end_ - 1) / 64 in
  let ws := wmod firstword (fun w => Z.lxor w (not64 (shl64 ones64 (start mod 64)))) ws in
  let ws := wloop not64 firstword endword ws in
  wmod endword (fun w => Z.lxor w (shr64 ones64 (neg32 end_ mod 64))) ws.

(** bitset_util.h:133-148 bitset_reset_range *)
Definition bitset_reset_range (ws : list Z) (start end_ : Z) : list Z :=
  if start =? end_ then ws else
  let firstword := start / 64 in
  let endword := (end_ - 1) / 64 in
  if firstword =? endword then
    wmod firstword (fun w => Z.land w (not64 (Z.land (shl64 ones64 (start mod 64)) (shr64 ones64 (neg32 end_ mod 64))))) ws
  else
    let ws := wmod firstword (fun w => Z.land w (not64 (shl64 ones64 (start mod 64)))) ws in
    let ws := wloop (fun _ => 0) (firstword + 1) endword ws in
    wmod endword (fun w => Z.land w (not64 (shr64 ones64 (neg32 end_ mod 64)))) ws.

(** bitset_util.c:737-754 / 847-861: while (w != 0) { emit ctz(w)+base; w &= w-1 } *)
Fixpoint extract_word (fuel : nat) (w base : Z) : list Z :=
  match fuel with
  | O => []
  | S f => if w =? 0 then [] else (ctz w + base) :: extract_word f (Z.land w (w - 1)) base
  end.
Fixpoint bitset_extract_setbits (ws : list Z) (base : Z) : list Z :=
  match ws with
  | [] => []
  | w :: ws' => extract_word 64 w base ++ bitset_extract_setbits ws' (base + 64)
  end.
(** bitset_util.c:756-771 *)
Fixpoint bitset_extract_intersection_setbits (ws1 ws2 : list Z) (base : Z) : list Z :=
  match ws1, ws2 with
  | w1 :: ws1', w2 :: ws2' =>
    extract_word 64 (Z.land w1 w2) base ++ bitset_extract_intersection_setbits ws1' ws2' (base + 64)
  | _, _ => []
  end.

(** bitset_util.c:974-1024,1106-1138: list set/clear/flip, one element at a time *)
Definition bit (i : Z) : Z := shl64 1 i.
Definition set1 (ws : list Z) (pos : Z) : list Z :=
  wmod (Z.shiftr pos 6) (fun w => Z.lor w (bit (pos mod 64))) ws.
Definition clear1 (ws : list Z) (pos : Z) : list Z :=
  wmod (Z.shiftr pos 6) (fun w => Z.land w (not64 (bit (pos mod 64)))) ws.
Definition flip1 (ws : list Z) (pos : Z) : list Z :=
  wmod (Z.shiftr pos 6) (fun w => Z.lxor w (bit (pos mod 64))) ws.
Definition bitset_set_list (ws : list Z) (l : list Z) : list Z := fold_left set1 l ws.
Definition bitset_flip_list (ws : list Z) (l : list Z) : list Z := fold_left flip1 l ws.
Definition bitset_set_list_withcard (ws : list Z) (card : Z) (l : list Z) : list Z * Z :=
  fold_left (fun '(ws, card) pos =>
    let offset := Z.shiftr pos 6 in let index := pos mod 64 in
    let load := znth ws offset in
    let newload := Z.lor load (bit index) in
    (zupd offset newload ws, card + shr64 (Z.lxor load newload) index)) l (ws, card).
Definition bitset_clear_list (ws : list Z) (card : Z) (l : list Z) : list Z * Z :=
  fold_left (fun '(ws, card) pos =>
    let offset := Z.shiftr pos 6 in let index := pos mod 64 in
    let load := znth ws offset in
    let newload := Z.land load (not64 (bit index)) in
    (zupd offset newload ws, card - shr64 (Z.lxor load newload) index)) l (ws, card).
Definition bitset_flip_list_withcard (ws : list Z) (card : Z) (l : list Z) : list Z * Z :=
  fold_left (fun '(ws, card) pos =>
    let offset := Z.shiftr pos 6 in let index := pos mod 64 in
    let load := znth ws offset in
    let newload := Z.lxor load (bit index) in
    (zupd offset newload ws, card + (1 - 2 * shr64 (Z.land (bit index) load) index))) l (ws, card).

(** * Proofs *)

Lemma isw_bound w : 0 <= w -> (forall i, 64 <= i -> Z.testbit w i = false) -> isw w.
Proof.
  intros H0 H. split; auto. destruct (Z_lt_dec w (2^64)); auto. exfalso.
  assert (0 < w) by lia.
  pose proof (Z.bit_log2 w H1) as Hb. rewrite H in Hb; [discriminate|].
  apply Z.log2_le_pow2; lia.
Qed.
Lemma isw_high w i : isw w -> 64 <= i -> Z.testbit w i = false.
Proof.
  intros [H0 H1] Hi. destruct (Z.eq_dec w 0) as [->|]; [apply Z.bits_0|].
  apply Z.bits_above_log2; auto. apply Z.lt_le_trans with 64; auto. apply Z.log2_lt_pow2; lia.
Qed.
Lemma isw_ext a b : isw a -> isw b -> (forall i, 0 <= i < 64 -> Z.testbit a i = Z.testbit b i) -> a = b.
Proof.
  intros Ha Hb H. apply Z.bits_inj'. intros i Hi. destruct (Z_lt_dec i 64); [apply H; lia|].
  rewrite !isw_high; auto; lia.
Qed.
Lemma isw_0 : isw 0. Proof. unfold isw; lia. Qed.
Lemma isw_ones : isw ones64. Proof. unfold isw, ones64; lia. Qed.
Lemma isw_lor a b : isw a -> isw b -> isw (Z.lor a b).
Proof.
  intros Ha Hb. apply isw_bound. { apply Z.lor_nonneg. unfold isw in *; lia. }
  intros. now rewrite Z.lor_spec, !isw_high.
Qed.
Lemma isw_land a b : isw a -> isw (Z.land a b).
Proof.
  intros Ha. apply isw_bound. { apply Z.land_nonneg. unfold isw in *; lia. }
  intros. rewrite Z.land_spec, isw_high; auto.
Qed.
Lemma isw_ldiff a b : isw a -> isw (Z.ldiff a b).
Proof.
  intros Ha. apply isw_bound. { apply Z.ldiff_nonneg. unfold isw in *; lia. }
  intros. rewrite Z.ldiff_spec, isw_high; auto.
Qed.
Lemma isw_lxor a b : isw a -> isw b -> isw (Z.lxor a b).
Proof.
  intros Ha Hb. apply isw_bound. { apply Z.lxor_nonneg. unfold isw in *; lia. }
  intros. now rewrite Z.lxor_spec, !isw_high.
Qed.
Lemma isw_not a : isw a -> isw (not64 a).
Proof. intros. apply isw_lxor; auto using isw_ones. Qed.
Lemma isw_shl w k : isw (shl64 w k).
Proof. unfold isw, shl64. apply Z.mod_pos_bound. lia. Qed.
Lemma isw_shr w k : isw w -> 0 <= k -> isw (shr64 w k).
Proof.
  intros Hw Hk. apply isw_bound. { apply Z.shiftr_nonneg. unfold isw in *; lia. }
  intros i Hi. unfold shr64. rewrite Z.shiftr_spec by lia. apply isw_high; auto; lia.
Qed.
Lemma isw_bit i : isw (bit i). Proof. apply isw_shl. Qed.

Lemma tb_ones i : 0 <= i -> Z.testbit ones64 i = (i <? 64).
Proof.
  intros. unfold ones64. change (2^64 - 1) with (Z.ones 64).
  destruct (i <? 64) eqn:E; [apply Z.ones_spec_low|apply Z.ones_spec_high]; lia.
Qed.
Lemma tb_not w i : 0 <= i < 64 -> Z.testbit (not64 w) i = negb (Z.testbit w i).
Proof.
  intros. unfold not64. rewrite Z.lxor_spec, tb_ones by lia.
  replace (i <? 64) with true by lia. apply xorb_true_r.
Qed.
Lemma tb_shl w k i : 0 <= k -> 0 <= i < 64 -> Z.testbit (shl64 w k) i = (k <=? i) && Z.testbit w (i - k).
Proof.
  intros. unfold shl64. rewrite Z.mod_pow2_bits_low by lia.
  rewrite Z.shiftl_spec by lia. destruct (k <=? i) eqn:E; auto.
  rewrite Z.testbit_neg_r by lia. reflexivity.
Qed.
Lemma tb_shr w k i : 0 <= i -> Z.testbit (shr64 w k) i = Z.testbit w (i + k).
Proof. intros. unfold shr64. now rewrite Z.shiftr_spec. Qed.
Lemma tb_mask_hi k i : 0 <= k -> 0 <= i < 64 -> Z.testbit (shl64 ones64 k) i = (k <=? i).
Proof.
  intros. rewrite tb_shl by lia. destruct (k <=? i) eqn:E; auto.
  rewrite tb_ones by lia. cbn [andb]. lia.
Qed.
Lemma tb_mask_lo k i : 0 <= k -> 0 <= i -> Z.testbit (shr64 ones64 k) i = (i <? 64 - k).
Proof. intros. rewrite tb_shr by lia. rewrite tb_ones by lia. lia. Qed.
Lemma tb_bit k i : 0 <= k < 64 -> 0 <= i < 64 -> Z.testbit (bit k) i = (i =? k).
Proof.
  intros. unfold bit. rewrite tb_shl by lia. destruct (i =? k) eqn:E.
  - replace (k <=? i) with true by lia. replace (i - k) with 0 by lia. reflexivity.
  - destruct (k <=? i) eqn:E2; auto. cbn [andb]. apply Z.bits_above_log2; cbn; lia.
Qed.

(** ** hamming, ctz, clz *)
Lemma hamming_cnt w : hamming w = cnt (Z.testbit w) 0 64.
Proof. unfold hamming, cnt, bits. reflexivity. Qed.
Local Opaque zr.
Lemma hamming_bound w : 0 <= hamming w <= 64.
Proof. rewrite hamming_cnt. pose proof (cnt_bound (Z.testbit w) 0 64). lia. Qed.
Lemma bits_In w i : In i (bits w) <-> 0 <= i < 64 /\ Z.testbit w i = true.
Proof. unfold bits. rewrite filter_In, zr_In. tauto. Qed.
Lemma bits_incr w : incr (bits w).
Proof. apply incr_filter, zr_incr. Qed.
Lemma bits_nil w : isw w -> (bits w = [] <-> w = 0).
Proof.
  intros Hw. split.
  - intros H. apply isw_ext; auto using isw_0. intros i Hi. rewrite Z.bits_0.
    destruct (Z.testbit w i) eqn:E; auto. exfalso.
    assert (In i (bits w)) by (apply bits_In; auto). rewrite H in H0. destruct H0.
  - intros ->. unfold bits. apply filter_none. intros. apply Z.bits_0.
Qed.
Lemma hamming_0 w : isw w -> (hamming w = 0 <-> w = 0).
Proof.
  intros Hw. rewrite <- (bits_nil w) by auto. unfold hamming. split; [apply zlen_0_nil|intros ->; reflexivity].
Qed.
Lemma ctz_spec w : isw w -> w <> 0 ->
  0 <= ctz w < 64 /\ Z.testbit w (ctz w) = true /\ (forall j, 0 <= j < ctz w -> Z.testbit w j = false).
Proof.
  intros Hw Hn. unfold ctz. pose proof (bits_incr w) as Hi.
  destruct (bits w) as [|b l] eqn:E. { apply bits_nil in E; auto. congruence. }
  cbn [hd]. assert (In b (bits w)) as Hb by (rewrite E; now left). apply bits_In in Hb.
  split; [tauto|]. split; [tauto|]. intros j Hj. destruct (Z.testbit w j) eqn:Ej; auto.
  assert (In j (bits w)) as Hj' by (apply bits_In; lia). rewrite E in Hj'.
  destruct Hj' as [->|Hj']; [lia|]. pose proof (incr_head _ _ _ Hi Hj'). lia.
Qed.
Lemma last_In (l : list Z) d : l <> [] -> In (last l d) l.
Proof.
  intros H. destruct (exists_last H) as (l'&a&->). rewrite last_last. apply in_app_iff. right. now left.
Qed.
Lemma last_max l d x : incr l -> In x l -> x <= last l d.
Proof.
  intros Hi Hx. destruct l as [|a l]; [destruct Hx|].
  destruct (@exists_last _ (a::l)) as (l'&b&E); [discriminate|]. rewrite E in *. rewrite last_last.
  apply in_app_iff in Hx. destruct Hx as [Hx|[->|[]]]; [|lia].
  apply incr_app in Hi. destruct Hi as (_&_&H). specialize (H x b Hx (or_introl eq_refl)). lia.
Qed.
Lemma clz_spec w : isw w -> w <> 0 ->
  let m := 63 - clz w in
  0 <= m < 64 /\ Z.testbit w m = true /\ (forall j, m < j < 64 -> Z.testbit w j = false).
Proof.
  intros Hw Hn. unfold clz. cbn zeta. replace (63 - (63 - last (bits w) (-1))) with (last (bits w) (-1)) by lia.
  assert (bits w <> []) as Hne by (intros E; apply bits_nil in E; auto).
  pose proof (last_In (bits w) (-1) Hne) as Hl. apply bits_In in Hl.
  split; [tauto|]. split; [tauto|]. intros j Hj. destruct (Z.testbit w j) eqn:Ej; auto.
  assert (In j (bits w)) as Hj' by (apply bits_In; lia).
  pose proof (last_max (bits w) (-1) j (bits_incr w) Hj'). lia.
Qed.

Lemma tb_high w k j : 0 <= k <= j -> Z.testbit w j = Z.testbit (w / 2^k) (j - k).
Proof. intros. rewrite Z.div_pow2_bits by lia. f_equal. lia. Qed.
(** w & (w-1) clears the lowest set bit *)
Lemma land_pred_tb w j : isw w -> w <> 0 -> 0 <= j < 64 ->
  Z.testbit (Z.land w (w-1)) j = Z.testbit w j && negb (j =? ctz w).
Proof.
  intros Hw Hn Hj. destruct (ctz_spec w Hw Hn) as (Hk&Hb&Hl). set (k := ctz w) in *.
  assert (w mod 2^k = 0) as Hm.
  { apply Z.bits_inj'. intros i Hi. rewrite Z.bits_0. destruct (Z_lt_dec i k).
    - rewrite Z.mod_pow2_bits_low by lia. apply Hl. lia.
    - rewrite Z.mod_pow2_bits_high by lia. reflexivity. }
  assert (0 < 2^k) by (apply Z.pow_pos_nonneg; lia).
  assert (Ew : w = 2^k * (w / 2^k)) by (rewrite (Z.div_mod w (2^k)) at 1; lia).
  set (q := w / 2^k) in *.
  assert (Hq : Z.testbit q 0 = true).
  { unfold q. rewrite Z.div_pow2_bits by lia. rewrite Z.add_0_l. exact Hb. }
  rewrite Z.bit0_odd in Hq. apply Z.odd_spec in Hq. destruct Hq as (m&Hm2).
  assert (E1 : w - 1 = (2*m) * 2^k + (2^k - 1)) by nia.
  assert (E2 : w = (2*m+1) * 2^k) by nia.
  rewrite Z.land_spec. destruct (Z.lt_trichotomy j k) as [L|[L|L]].
  - rewrite (Hl j) by lia. reflexivity.
  - subst j. rewrite Z.eqb_refl. cbn [negb]. rewrite andb_false_r.
    replace (Z.testbit (w-1) k) with false; [apply andb_false_r|].
    rewrite (tb_high _ k k) by lia. rewrite Z.sub_diag, E1.
    rewrite Z.div_add_l by lia. rewrite Z.div_small by lia. rewrite Z.add_0_r.
    symmetry. apply Z.testbit_even_0.
  - replace (j =? k) with false by lia. cbn [negb]. rewrite andb_true_r.
    replace (Z.testbit (w-1) j) with (Z.testbit w j); [apply andb_diag|].
    rewrite (tb_high w k j), (tb_high (w-1) k j) by lia. rewrite E1. rewrite E2 at 1. rewrite Z.div_add_l by lia. rewrite Z.div_mul by lia.
    rewrite (Z.div_small (2^k-1)) by lia. rewrite Z.add_0_r.
    replace (j - k) with (Z.succ (j-k-1)) by lia.
    rewrite Z.testbit_odd_succ, Z.testbit_even_succ by lia. reflexivity.
Qed.
Lemma bits_land_pred w : isw w -> w <> 0 -> bits w = ctz w :: bits (Z.land w (w-1)).
Proof.
  intros Hw Hn. destruct (ctz_spec w Hw Hn) as (Hk&Hb&Hl).
  apply incr_ext.
  - apply bits_incr.
  - split; [|apply bits_incr]. rewrite Forall_forall. intros y Hy. apply bits_In in Hy.
    rewrite land_pred_tb in Hy by (auto; lia).
    destruct (Z_lt_dec (ctz w) y); auto. destruct Hy as [Hy1 Hy2].
    destruct (Z.eq_dec y (ctz w)); [subst; rewrite Z.eqb_refl, andb_false_r in Hy2; discriminate|].
    rewrite (Hl y) in Hy2 by lia. discriminate.
  - intros x. cbn [In]. rewrite !bits_In. split.
    + intros [H1 H2]. destruct (Z.eq_dec (ctz w) x); auto. right. split; auto.
      rewrite land_pred_tb by auto. rewrite H2. replace (x =? ctz w) with false by lia. reflexivity.
    + intros [<-|[H1 H2]]; auto. split; auto.
      rewrite land_pred_tb in H2 by auto. apply andb_prop in H2. tauto.
Qed.
Lemma extract_word_spec fuel w base : isw w -> hamming w <= Z.of_nat fuel ->
  extract_word fuel w base = map (fun i => i + base) (bits w).
Proof.
  revert w. induction fuel; intros w Hw Hf; cbn [extract_word].
  - pose proof (hamming_bound w). assert (hamming w = 0) as H0 by lia.
    unfold hamming in H0. apply zlen_0_nil in H0. now rewrite H0.
  - destruct (Z.eqb_spec w 0).
    + rewrite (proj2 (bits_nil w Hw)); auto.
    + rewrite IHfuel.
      * rewrite (bits_land_pred w) by auto. reflexivity.
      * now apply isw_land.
      * unfold hamming in *. rewrite (bits_land_pred w) in Hf by auto. rewrite zlen_cons in Hf. lia.
Qed.

(** ** word arrays *)
Lemma wfw_znth ws i : wfw ws -> isw (znth ws i).
Proof.
  intros H. unfold znth. destruct (Nat.lt_ge_cases (Z.to_nat i) (length ws)).
  - unfold wfw in H. rewrite Forall_forall in H. apply H. now apply nth_In.
  - rewrite nth_overflow by lia. apply isw_0.
Qed.
Lemma wfw_zupd i v ws : isw v -> wfw ws -> wfw (zupd i v ws).
Proof. intros. apply Forall_upd; auto. Qed.
Lemma wfw_wmod i f ws : (forall w, isw w -> isw (f w)) -> wfw ws -> wfw (wmod i f ws).
Proof. intros. apply wfw_zupd; auto. apply H. now apply wfw_znth. Qed.
Lemma zlen_wmod i f ws : zlen (wmod i f ws) = zlen ws.
Proof. apply zupd_zlen. Qed.
Lemma wloop_fold_inv f l ws : (forall w, isw w -> isw (f w)) -> wfw ws ->
  wfw (fold_left (fun ws i => zupd i (f (znth ws i)) ws) l ws).
Proof.
  intros Hf. revert ws. induction l; cbn [fold_left]; auto. intros. apply IHl.
  apply wfw_wmod; auto.
Qed.
Lemma wfw_wloop f lo hi ws : (forall w, isw w -> isw (f w)) -> wfw ws -> wfw (wloop f lo hi ws).
Proof. apply wloop_fold_inv. Qed.
Lemma zlen_wloop f lo hi ws : zlen (wloop f lo hi ws) = zlen ws.
Proof.
  unfold wloop. generalize (zr lo hi). intros l. revert ws.
  induction l; cbn [fold_left]; auto. intros. rewrite IHl. apply zupd_zlen.
Qed.
Lemma znth_wloop f lo hi ws j : 0 <= lo -> hi <= zlen ws -> 0 <= j ->
  znth (wloop f lo hi ws) j = if (lo <=? j) && (j <? hi) then f (znth ws j) else znth ws j.
Proof.
  intros H0 H1 Hj. unfold wloop.
  remember (Z.to_nat (hi - lo)) as n. revert lo ws H0 H1 Heqn. induction n; intros.
  - rewrite zr_nil by lia. cbn [fold_left]. replace ((lo <=? j) && (j <? hi)) with false by lia. reflexivity.
  - rewrite zr_cons by lia. cbn [fold_left]. rewrite IHn by (rewrite ?zupd_zlen; lia).
    rewrite znth_zupd by lia.
    destruct (j =? lo) eqn:E.
    + assert (j = lo) by lia. subst j.
      replace ((lo+1 <=? lo) && (lo <? hi)) with false by lia.
      replace ((lo <=? lo) && (lo <? hi)) with true by lia. reflexivity.
    + replace ((lo+1 <=? j) && (j <? hi)) with ((lo <=? j) && (j <? hi)) by lia. reflexivity.
Qed.
Lemma znth_wmod i f ws j : 0 <= i < zlen ws -> 0 <= j ->
  znth (wmod i f ws) j = if j =? i then f (znth ws i) else znth ws j.
Proof. intros. unfold wmod. now rewrite znth_zupd. Qed.

(** ** bget through updates *)
Lemma bget_wmod i f ws x : 0 <= i < zlen ws -> 0 <= x ->
  bget (wmod i f ws) x = if x / 64 =? i then Z.testbit (f (znth ws i)) (x mod 64) else bget ws x.
Proof.
  intros. unfold bget. rewrite znth_wmod by (auto; dm). destruct (x/64 =? i); auto.
Qed.
Lemma bget_wloop f lo hi ws x : 0 <= lo -> hi <= zlen ws -> 0 <= x ->
  bget (wloop f lo hi ws) x =
  if (lo <=? x/64) && (x/64 <? hi) then Z.testbit (f (znth ws (x/64))) (x mod 64) else bget ws x.
Proof.
  intros. unfold bget. rewrite znth_wloop by (auto; dm).
  destruct ((lo <=? x/64) && (x/64 <? hi)); auto.
Qed.
Lemma bget_zupd i v ws x : 0 <= i < zlen ws -> 0 <= x ->
  bget (zupd i v ws) x = if x / 64 =? i then Z.testbit v (x mod 64) else bget ws x.
Proof.
  intros. unfold bget. rewrite znth_zupd by (auto; dm). destruct (x/64 =? i); auto.
Qed.
Lemma bget_here ws i x : x / 64 = i -> Z.testbit (znth ws i) (x mod 64) = bget ws x.
Proof. intros <-. reflexivity. Qed.
Lemma neg32_mod64 e : neg32 e mod 64 = (- e) mod 64.
Proof.
  unfold neg32. change (2^32) with (64 * 2^26). rewrite Z.rem_mul_r by lia.
  rewrite Z.mul_comm, Z.mod_add by lia. apply Z.mod_mod. lia.
Qed.
Lemma mod32_64 e : e mod 2^32 mod 64 = e mod 64.
Proof.
  change (2^32) with (64 * 2^26). rewrite Z.rem_mul_r by lia.
  rewrite Z.mul_comm, Z.mod_add by lia. apply Z.mod_mod. lia.
Qed.
Lemma neg32_sub_mod64 s l : (neg32 s - l - 1) mod 2^32 mod 64 = (- (s + l + 1)) mod 64.
Proof.
  rewrite mod32_64. replace (neg32 s - l - 1) with (neg32 s + (- l - 1)) by lia.
  rewrite Z.add_mod by lia. rewrite neg32_mod64. rewrite <- Z.add_mod by lia. f_equal. lia.
Qed.
(** the last-word mask keeps exactly the positions below [e] *)
Lemma lastmask e b : 0 <= b < 64 -> Z.testbit (shr64 ones64 ((- e) mod 64)) b = (b <=? (e - 1) mod 64).
Proof.
  intros. rewrite tb_mask_lo by (try lia; dm). 
  assert (64 - (-e) mod 64 = (e-1) mod 64 + 1) by dm. lia.
Qed.
Ltac bcase := repeat match goal with
  | |- context [if ?b then _ else _] => let E := fresh "E" in destruct b eqn:E
  end.

Lemma bitset_set_range_spec ws s e x : wfw ws -> 0 <= s <= e -> e <= 64 * zlen ws -> 0 <= x ->
  bget (bitset_set_range ws s e) x = bget ws x || ((s <=? x) && (x <? e)).
Proof.
  intros Hw Hs He Hx. unfold bitset_set_range. rewrite !neg32_mod64.
  destruct (s =? e) eqn:E0. { replace ((s <=? x) && (x <? e)) with false by lia. now rewrite orb_false_r. }
  assert (0 <= s/64 <= (e-1)/64 /\ (e-1)/64 < zlen ws) by dm.
  assert (0 <= x mod 64 < 64) by dm.
  destruct (s/64 =? (e-1)/64) eqn:E1.
  - rewrite bget_wmod by lia. destruct (x/64 =? s/64) eqn:E2.
    + rewrite Z.lor_spec, Z.land_spec, tb_mask_hi, lastmask by dm. rewrite bget_here by lia. f_equal.
      dm.
    + replace ((s <=? x) && (x <? e)) with false by dm. now rewrite orb_false_r.
  - cbn zeta. rewrite bget_wmod by (rewrite ?zlen_wloop, ?zlen_wmod; lia).
    destruct (x/64 =? (e-1)/64) eqn:E2.
    + rewrite Z.lor_spec, lastmask by dm. rewrite znth_wloop by (rewrite ?zlen_wmod; dm).
      replace ((s / 64 + 1 <=? (e - 1) / 64) && ((e - 1) / 64 <? (e - 1) / 64)) with false by lia.
      rewrite znth_wmod by lia. replace ((e-1)/64 =? s/64) with false by lia.
      rewrite bget_here by lia. f_equal. dm.
    + rewrite bget_wloop by (rewrite ?zlen_wmod; lia).
      destruct ((s / 64 + 1 <=? x / 64) && (x / 64 <? (e - 1) / 64)) eqn:E3.
      * rewrite tb_ones by lia. replace ((s <=? x) && (x <? e)) with true by dm.
        rewrite orb_true_r. lia.
      * rewrite bget_wmod by lia. destruct (x/64 =? s/64) eqn:E4.
        -- rewrite Z.lor_spec, tb_mask_hi by dm. rewrite bget_here by lia. f_equal. dm.
        -- replace ((s <=? x) && (x <? e)) with false by dm. now rewrite orb_false_r.
Qed.
Lemma wfw_set_range ws s e : wfw ws -> wfw (bitset_set_range ws s e).
Proof.
  intros. unfold bitset_set_range. destruct (s =? e); auto. destruct (s/64 =? (e-1)/64).
  - apply wfw_wmod; auto. intros. apply isw_lor; auto using isw_land, isw_shl.
  - assert (0 <= neg32 e mod 64) by dm.
    apply wfw_wmod. { intros. apply isw_lor; auto. apply isw_shr; auto using isw_ones. }
    apply wfw_wloop; auto using isw_ones. apply wfw_wmod; auto. intros. apply isw_lor; auto using isw_shl.
Qed.
Lemma zlen_set_range ws s e : zlen (bitset_set_range ws s e) = zlen ws.
Proof.
  unfold bitset_set_range. destruct (s =? e); auto. destruct (s/64 =? (e-1)/64);
  now rewrite ?zlen_wmod, ?zlen_wloop, ?zlen_wmod.
Qed.
Lemma bitset_reset_range_spec ws s e x : wfw ws -> 0 <= s <= e -> e <= 64 * zlen ws -> 0 <= x ->
  bget (bitset_reset_range ws s e) x = bget ws x && negb ((s <=? x) && (x <? e)).
Proof.
  intros Hw Hs He Hx. unfold bitset_reset_range. rewrite !neg32_mod64.
  destruct (s =? e) eqn:E0. { replace ((s <=? x) && (x <? e)) with false by lia. now rewrite andb_true_r. }
  assert (0 <= s/64 <= (e-1)/64 /\ (e-1)/64 < zlen ws) by dm.
  assert (0 <= x mod 64 < 64) by dm.
  destruct (s/64 =? (e-1)/64) eqn:E1.
  - rewrite bget_wmod by lia. destruct (x/64 =? s/64) eqn:E2.
    + rewrite Z.land_spec, tb_not by dm. rewrite Z.land_spec, tb_mask_hi, lastmask by dm. rewrite bget_here by lia. do 2 f_equal.
      dm.
    + replace ((s <=? x) && (x <? e)) with false by dm. now rewrite andb_true_r.
  - cbn zeta. rewrite bget_wmod by (rewrite ?zlen_wloop, ?zlen_wmod; lia).
    destruct (x/64 =? (e-1)/64) eqn:E2.
    + rewrite Z.land_spec, tb_not, lastmask by dm. rewrite znth_wloop by (rewrite ?zlen_wmod; dm).
      replace ((s / 64 + 1 <=? (e - 1) / 64) && ((e - 1) / 64 <? (e - 1) / 64)) with false by lia.
      rewrite znth_wmod by lia. replace ((e-1)/64 =? s/64) with false by lia.
      rewrite bget_here by lia. do 2 f_equal. dm.
    + rewrite bget_wloop by (rewrite ?zlen_wmod; lia).
      destruct ((s / 64 + 1 <=? x / 64) && (x / 64 <? (e - 1) / 64)) eqn:E3.
      * rewrite Z.bits_0. replace ((s <=? x) && (x <? e)) with true by dm.
        now rewrite andb_false_r.
      * rewrite bget_wmod by lia. destruct (x/64 =? s/64) eqn:E4.
        -- rewrite Z.land_spec, tb_not, tb_mask_hi by dm. rewrite bget_here by lia. do 2 f_equal. dm.
        -- replace ((s <=? x) && (x <? e)) with false by dm. now rewrite andb_true_r.
Qed.
Lemma wfw_reset_range ws s e : wfw ws -> wfw (bitset_reset_range ws s e).
Proof.
  intros. unfold bitset_reset_range. destruct (s =? e); auto. destruct (s/64 =? (e-1)/64).
  - apply wfw_wmod; auto. intros. apply isw_land; auto.
  - apply wfw_wmod. { intros. apply isw_land; auto. }
    apply wfw_wloop; auto using isw_0. apply wfw_wmod; auto. intros. apply isw_land; auto.
Qed.
Lemma zlen_reset_range ws s e : zlen (bitset_reset_range ws s e) = zlen ws.
Proof.
  unfold bitset_reset_range. destruct (s =? e); auto. destruct (s/64 =? (e-1)/64);
  now rewrite ?zlen_wmod, ?zlen_wloop, ?zlen_wmod.
Qed.
Lemma bitset_flip_range_spec ws s e x : wfw ws -> 0 <= s <= e -> e <= 64 * zlen ws -> 0 <= x ->
  bget (bitset_flip_range ws s e) x = xorb (bget ws x) ((s <=? x) && (x <? e)).
Proof.
  intros Hw Hs He Hx. unfold bitset_flip_range. rewrite !neg32_mod64.
  destruct (s =? e) eqn:E0. { replace ((s <=? x) && (x <? e)) with false by lia. now rewrite xorb_false_r. }
  assert (0 <= s/64 <= (e-1)/64 /\ (e-1)/64 < zlen ws) by dm.
  assert (0 <= x mod 64 < 64) by dm. cbn zeta.
  rewrite bget_wmod by (rewrite ?zlen_wloop, ?zlen_wmod; lia).
  destruct (x/64 =? (e-1)/64) eqn:E2.
  - rewrite Z.lxor_spec, lastmask by dm. rewrite znth_wloop by (rewrite ?zlen_wmod; dm).
    replace ((s / 64 <=? (e - 1) / 64) && ((e - 1) / 64 <? (e - 1) / 64)) with false by lia.
    rewrite znth_wmod by lia. destruct ((e-1)/64 =? s/64) eqn:E3.
    + rewrite Z.lxor_spec, tb_not, tb_mask_hi by dm. rewrite bget_here by lia.
      rewrite xorb_assoc. f_equal.
      destruct ((s <=? x) && (x <? e)) eqn:E4; destruct (s mod 64 <=? x mod 64) eqn:E5;
        destruct (x mod 64 <=? (e-1) mod 64) eqn:E6; cbn [negb xorb]; try reflexivity; exfalso; dm.
    + rewrite bget_here by lia. f_equal. dm.
  - rewrite bget_wloop by (rewrite ?zlen_wmod; lia).
    destruct ((s / 64 <=? x / 64) && (x / 64 <? (e - 1) / 64)) eqn:E3.
    + rewrite tb_not by lia. rewrite znth_wmod by dm. destruct (x/64 =? s/64) eqn:E4.
      * rewrite Z.lxor_spec, tb_not, tb_mask_hi by dm. rewrite bget_here by lia.
        rewrite <- xorb_true_r, xorb_assoc. f_equal. rewrite xorb_true_r, negb_involutive. dm.
      * rewrite bget_here by lia. replace ((s <=? x) && (x <? e)) with true by dm. now rewrite xorb_true_r.
    + rewrite bget_wmod by lia. destruct (x/64 =? s/64) eqn:E4; [dm|].
      replace ((s <=? x) && (x <? e)) with false by dm. now rewrite xorb_false_r.
Qed.
Lemma wfw_flip_range ws s e : wfw ws -> wfw (bitset_flip_range ws s e).
Proof.
  intros. unfold bitset_flip_range. destruct (s =? e); auto. assert (0 <= neg32 e mod 64) by dm. cbn zeta.
  apply wfw_wmod. { intros. apply isw_lxor; auto. apply isw_shr; auto using isw_ones. }
  apply wfw_wloop; auto using isw_not. apply wfw_wmod; auto. intros. apply isw_lxor; auto using isw_not, isw_shl.
Qed.
Lemma zlen_flip_range ws s e : zlen (bitset_flip_range ws s e) = zlen ws.
Proof.
  unfold bitset_flip_range. destruct (s =? e); auto. cbn zeta. now rewrite ?zlen_wmod, ?zlen_wloop, ?zlen_wmod.
Qed.

(** middle mask of the one-word case of the lenrange functions *)
Lemma midmask s l b : 0 <= s -> 0 <= l -> s/64 = (s+l)/64 -> 0 <= b < 64 ->
  Z.testbit (shl64 (shr64 ones64 ((63 - l) mod 2^32 mod 64)) (s mod 64)) b
  = (s mod 64 <=? b) && (b <=? s mod 64 + l).
Proof.
  intros. rewrite mod32_64. assert (0 <= l < 64) by dm. rewrite (Z.mod_small (63-l)) by lia.
  rewrite tb_shl by dm. destruct (s mod 64 <=? b) eqn:E; auto. rewrite tb_mask_lo by lia. cbn [andb]. lia.
Qed.
Lemma znth_set_pairs fuel i e ws j : 0 <= i -> e < zlen ws -> e - i < Z.of_nat fuel -> 0 <= j -> j <> e ->
  znth (set_pairs fuel i e ws) j = if (i <=? j) && (j <? e) then ones64 else znth ws j.
Proof.
  revert i ws. induction fuel; intros i ws H0 H1 Hf Hj Hje; cbn [set_pairs].
  - replace ((i <=? j) && (j <? e)) with false by lia. reflexivity.
  - destruct (i <? e) eqn:E.
    + rewrite IHfuel by (rewrite ?zupd_zlen; lia). rewrite !znth_zupd by (rewrite ?zupd_zlen; lia).
      bcase; try lia; reflexivity.
    + replace ((i <=? j) && (j <? e)) with false by lia. reflexivity.
Qed.
Lemma zlen_set_pairs fuel i e ws : zlen (set_pairs fuel i e ws) = zlen ws.
Proof.
  revert i ws. induction fuel; intros; cbn [set_pairs]; auto. destruct (i <? e); auto.
  now rewrite IHfuel, !zupd_zlen.
Qed.
Lemma wfw_set_pairs fuel i e ws : wfw ws -> wfw (set_pairs fuel i e ws).
Proof.
  revert i ws. induction fuel; intros; cbn [set_pairs]; auto. destruct (i <? e); auto.
  apply IHfuel. auto using wfw_zupd, isw_ones.
Qed.
Lemma bitset_set_lenrange_spec ws s l x : wfw ws -> 0 <= s -> 0 <= l -> s + l < 64 * zlen ws -> 0 <= x ->
  bget (bitset_set_lenrange ws s l) x = bget ws x || ((s <=? x) && (x <=? s + l)).
Proof.
  intros Hw Hs Hl He Hx. unfold bitset_set_lenrange. rewrite !neg32_sub_mod64.
  assert (0 <= s/64 <= (s+l)/64 /\ (s+l)/64 < zlen ws) by dm.
  assert (0 <= x mod 64 < 64) by dm.
  destruct (s/64 =? (s+l)/64) eqn:E1.
  - rewrite bget_wmod by lia. destruct (x/64 =? s/64) eqn:E2.
    + rewrite Z.lor_spec, midmask by lia. rewrite bget_here by lia. f_equal. dm.
    + replace ((s <=? x) && (x <=? s+l)) with false by dm. now rewrite orb_false_r.
  - cbn zeta. rewrite bget_zupd by (rewrite ?zlen_set_pairs, ?zlen_wmod; lia).
    destruct (x/64 =? (s+l)/64) eqn:E2.
    + rewrite Z.lor_spec, lastmask by dm. rewrite bget_here by lia. f_equal.
      replace (s + l + 1 - 1) with (s+l) by lia. dm.
    + unfold bget at 1. rewrite znth_set_pairs by (rewrite ?zlen_wmod; dm).
      destruct ((s / 64 + 1 <=? x / 64) && (x / 64 <? (s+l) / 64)) eqn:E3.
      * rewrite tb_ones by lia. replace ((s <=? x) && (x <=? s+l)) with true by dm.
        rewrite orb_true_r. lia.
      * rewrite znth_wmod by dm. destruct (x/64 =? s/64) eqn:E4.
        -- rewrite Z.lor_spec, tb_mask_hi by dm. rewrite bget_here by lia. f_equal. dm.
        -- replace ((s <=? x) && (x <=? s+l)) with false by dm. now rewrite orb_false_r.
Qed.
Lemma wfw_set_lenrange ws s l : wfw ws -> wfw (bitset_set_lenrange ws s l).
Proof.
  intros. unfold bitset_set_lenrange. destruct (s/64 =? (s+l)/64).
  - apply wfw_wmod; auto. intros. apply isw_lor; auto using isw_shl.
  - cbn zeta. apply wfw_zupd.
    + apply isw_lor; [now apply wfw_znth|]. apply isw_shr; auto using isw_ones. dm.
    + apply wfw_set_pairs. apply wfw_wmod; auto. intros. apply isw_lor; auto using isw_shl.
Qed.
Lemma zlen_set_lenrange ws s l : zlen (bitset_set_lenrange ws s l) = zlen ws.
Proof.
  unfold bitset_set_lenrange. destruct (s/64 =? (s+l)/64); cbn zeta;
  now rewrite ?zupd_zlen, ?zlen_set_pairs, ?zlen_wmod.
Qed.

(** ** counting *)
Lemma cnt_restrict P lo hi a b : a <= lo -> lo <= hi -> hi <= b ->
  cnt (fun x => P x && ((lo <=? x) && (x <? hi))) a b = cnt P lo hi.
Proof.
  intros. rewrite (cnt_app _ a lo b), (cnt_app _ lo hi b) by lia.
  rewrite (cnt_none _ a lo), (cnt_none _ hi b).
  - rewrite (cnt_ext _ P lo hi); [lia|]. intros. replace ((lo <=? x) && (x <? hi)) with true by lia. now rewrite andb_true_r.
  - intros. replace ((lo <=? x) && (x <? hi)) with false by lia. now rewrite andb_false_r.
  - intros. replace ((lo <=? x) && (x <? hi)) with false by lia. now rewrite andb_false_r.
Qed.
Lemma hamming_mask w m lo hi : 0 <= lo <= hi -> hi <= 64 ->
  (forall b, 0 <= b < 64 -> Z.testbit m b = (lo <=? b) && (b <? hi)) ->
  hamming (Z.land w m) = cnt (Z.testbit w) lo hi.
Proof.
  intros. rewrite hamming_cnt. rewrite <- (cnt_restrict (Z.testbit w) lo hi 0 64) by lia.
  apply cnt_ext. intros. now rewrite Z.land_spec, H1.
Qed.
Lemma cnt_word ws i lo hi : 0 <= i -> 0 <= lo <= hi -> hi <= 64 ->
  cnt (Z.testbit (znth ws i)) lo hi = cnt (bget ws) (64*i + lo) (64*i + hi).
Proof.
  intros. replace (64*i+lo) with (lo + 64*i) by lia. replace (64*i+hi) with (hi + 64*i) by lia.
  rewrite <- cnt_shift. apply cnt_ext. intros x Hx. unfold bget.
  replace ((x+64*i)/64) with i by dm. replace ((x+64*i) mod 64) with x by dm. reflexivity.
Qed.
Lemma hamming_word ws i : 0 <= i -> hamming (znth ws i) = cnt (bget ws) (64*i) (64*i+64).
Proof.
  intros. rewrite hamming_cnt, cnt_word by lia. f_equal; lia.
Qed.
Lemma fold_hamming ws lo hi acc : 0 <= lo <= hi ->
  fold_left (fun a i => a + hamming (znth ws i)) (zr lo hi) acc = acc + cnt (bget ws) (64*lo) (64*hi).
Proof.
  intros [H0 H1]. remember (Z.to_nat (hi - lo)) as n. revert lo acc H0 H1 Heqn. induction n; intros.
  - rewrite zr_nil by lia. cbn [fold_left]. rewrite cnt_nil; lia.
  - rewrite zr_cons by lia. cbn [fold_left]. rewrite IHn by lia.
    rewrite hamming_word by lia. rewrite (cnt_app _ (64*lo) (64*lo+64) (64*hi)) by lia.
    replace (64*(lo+1)) with (64*lo+64) by lia. lia.
Qed.
Lemma bitset_lenrange_cardinality_spec ws s l : 0 <= s -> 0 <= l -> s + l < 64 * zlen ws ->
  bitset_lenrange_cardinality ws s l = cnt (bget ws) s (s + l + 1).
Proof.
  intros. unfold bitset_lenrange_cardinality.
  destruct (s/64 =? (s+l)/64) eqn:E1.
  - rewrite (hamming_mask _ _ (s mod 64) (s mod 64 + l + 1)).
    + rewrite cnt_word by dm. f_equal; dm.
    + dm.
    + dm.
    + intros. rewrite midmask by lia. dm.
  - rewrite (hamming_mask _ _ (s mod 64) 64); [|dm|dm|intros; rewrite tb_mask_hi by dm; dm].
    rewrite fold_hamming by dm. rewrite neg32_sub_mod64.
    rewrite (hamming_mask _ _ 0 ((s+l) mod 64 + 1));
      [|dm|dm|intros; rewrite lastmask by dm; replace (s+l+1-1) with (s+l) by lia; dm].
    rewrite !cnt_word by dm.
    rewrite (cnt_app _ s (64 * (s/64) + 64)) by dm.
    rewrite (cnt_app _ (64 * (s/64) + 64) (64 * ((s+l)/64)) (s+l+1)) by dm.
    replace (64 * (s/64) + s mod 64) with s by dm.
    replace (64 * ((s+l)/64) + 0) with (64 * ((s+l)/64)) by dm.
    replace (64 * ((s+l)/64) + ((s+l) mod 64 + 1)) with (s+l+1) by dm.
    replace (64 * (s/64 + 1)) with (64 * (s/64) + 64) by dm. lia.
Qed.
Lemma land_eq0_hamming w m : isw w -> (Z.land w m =? 0) = (hamming (Z.land w m) =? 0).
Proof.
  intros. pose proof (hamming_0 (Z.land w m) (isw_land w m H)). lia.
Qed.
Lemma forallb_zero_cnt ws lo hi : wfw ws -> 0 <= lo <= hi ->
  forallb (fun i => znth ws i =? 0) (zr lo hi) = (cnt (bget ws) (64*lo) (64*hi) =? 0).
Proof.
  intros Hw [H0 H1]. remember (Z.to_nat (hi - lo)) as n. revert lo H0 H1 Heqn. induction n; intros.
  - rewrite zr_nil by lia. cbn [forallb]. rewrite cnt_nil; lia.
  - rewrite zr_cons by lia. cbn [forallb]. rewrite IHn by lia.
    rewrite (cnt_app _ (64*lo) (64*lo+64) (64*hi)) by lia.
    replace (64*(lo+1)) with (64*lo+64) by lia.
    pose proof (cnt_bound (bget ws) (64*lo+64) (64*hi)).
    pose proof (hamming_0 (znth ws lo) (wfw_znth ws lo Hw)) as Hh.
    rewrite hamming_word in Hh by lia. pose proof (cnt_bound (bget ws) (64*lo) (64*lo+64)). lia.
Qed.
Lemma bitset_lenrange_empty_spec ws s l : wfw ws -> 0 <= s -> 0 <= l -> s + l < 64 * zlen ws ->
  bitset_lenrange_empty ws s l = (cnt (bget ws) s (s + l + 1) =? 0).
Proof.
  intros Hw H0 H1 H2. rewrite <- bitset_lenrange_cardinality_spec by auto.
  unfold bitset_lenrange_empty, bitset_lenrange_cardinality.
  destruct (s/64 =? (s+l)/64) eqn:E1.
  - apply land_eq0_hamming. now apply wfw_znth.
  - rewrite fold_hamming by dm. rewrite forallb_zero_cnt by (auto; dm).
    rewrite !land_eq0_hamming by (now apply wfw_znth).
    pose proof (cnt_bound (bget ws) (64 * (s/64+1)) (64 * ((s+l)/64)) ltac:(dm)).
    set (A := hamming (Z.land (znth ws (s / 64)) (shl64 ones64 (s mod 64)))).
    set (C := hamming (Z.land (znth ws ((s+l) / 64)) _)).
    pose proof (hamming_bound (Z.land (znth ws (s / 64)) (shl64 ones64 (s mod 64)))). fold A in H3.
    assert (0 <= C) by (unfold C; apply hamming_bound).
    destruct (A =? 0) eqn:EA, (cnt (bget ws) (64 * (s / 64 + 1)) (64 * ((s + l) / 64)) =? 0) eqn:EB, (C =? 0) eqn:EC;
      cbn [negb]; lia.
Qed.

(** ** extraction *)
Lemma bits_map_word ws i : 0 <= i ->
  map (fun b => b + 64*i) (bits (znth ws i)) = filter (bget ws) (zr (64*i) (64*i+64)).
Proof.
  intros Hi. apply incr_ext.
  - replace (map (fun b => b + 64*i) (bits (znth ws i))) with (map (fun b => 64*i + b) (bits (znth ws i)))
      by (apply map_ext; intros; lia). apply incr_map_add, bits_incr.
  - apply incr_filter, zr_incr.
  - intros x. rewrite in_map_iff, filter_In, zr_In. split.
    + intros (b&<-&Hb). apply bits_In in Hb. split; [lia|]. unfold bget.
      replace ((b+64*i)/64) with i by dm. replace ((b+64*i) mod 64) with b by dm. tauto.
    + intros [H1 H2]. exists (x - 64*i). split; [lia|]. apply bits_In. split; [lia|].
      unfold bget in H2. replace (x/64) with i in H2 by dm. replace (x mod 64) with (x - 64*i) in H2 by dm. auto.
Qed.
Lemma bget_cons w ws x : 0 <= x -> bget (w::ws) (x + 64) = bget ws x.
Proof.
  intros. unfold bget. replace ((x+64)/64) with (x/64+1) by dm. replace ((x+64) mod 64) with (x mod 64) by dm.
  rewrite znth_cons_pos by dm. f_equal. f_equal. lia.
Qed.
Lemma filter_map_comm {A B} (f : A -> B) p l : filter p (map f l) = map f (filter (fun x => p (f x)) l).
Proof. induction l; cbn; auto. destruct (p (f a)); cbn; now rewrite IHl. Qed.
Lemma bits_head w ws : map (fun b => b + 0) (bits w) = filter (bget (w::ws)) (zr 0 64).
Proof. exact (bits_map_word (w::ws) 0 ltac:(lia)). Qed.
Lemma bitset_extract_setbits_spec ws base : wfw ws ->
  bitset_extract_setbits ws base = map (fun x => x + base) (filter (bget ws) (zr 0 (64 * zlen ws))).
Proof.
  revert base. induction ws as [|w ws IH]; intros base Hw.
  - rewrite zr_nil by (unfold zlen; cbn; lia). reflexivity.
  - inversion_clear Hw. cbn [bitset_extract_setbits].
    rewrite extract_word_spec; auto; [|pose proof (hamming_bound w); lia].
    rewrite IH by auto. rewrite zlen_cons. pose proof (zlen_nonneg ws).
    rewrite (zr_app 0 64 (64 * (zlen ws + 1))) by lia. rewrite filter_app, map_app. apply (f_equal2 (@app Z)).
    + rewrite <- bits_head. rewrite map_map. apply map_ext. intros; lia.
    + replace (zr 64 (64 * (zlen ws + 1))) with (map (fun x => 64 + x) (zr 0 (64 * zlen ws)))
        by (rewrite zr_map_add; f_equal; lia).
      rewrite filter_map_comm, map_map.
      rewrite (filter_ext_In (fun x => bget (w::ws) (64 + x)) (bget ws)).
      * apply map_ext. intros; lia.
      * intros x Hx. apply zr_In in Hx. rewrite Z.add_comm. apply bget_cons. lia.
Qed.
Fixpoint map2 (f : Z -> Z -> Z) (l1 l2 : list Z) : list Z :=
  match l1, l2 with a :: l1', b :: l2' => f a b :: map2 f l1' l2' | _, _ => [] end.
Lemma zlen_map2 f l1 l2 : zlen l1 = zlen l2 -> zlen (map2 f l1 l2) = zlen l1.
Proof.
  revert l2. induction l1; intros [|b l2] H; auto. cbn [map2]. rewrite !zlen_cons in *. rewrite IHl1; lia.
Qed.
Lemma wfw_map2 f l1 l2 : (forall a b, isw a -> isw b -> isw (f a b)) -> wfw l1 -> wfw l2 -> wfw (map2 f l1 l2).
Proof.
  intros Hf H1. revert l2. induction H1; intros [|b l2] H2; cbn [map2]; try constructor.
  - inversion_clear H2. auto.
  - inversion_clear H2. now apply IHForall.
Qed.
Lemma znth_map2 f l1 l2 i : zlen l1 = zlen l2 -> 0 <= i < zlen l1 -> znth (map2 f l1 l2) i = f (znth l1 i) (znth l2 i).
Proof.
  revert l2 i. induction l1 as [|a l1 IH]; intros [|b l2] i H Hi;
    try (unfold zlen in *; cbn [length] in *; lia).
  rewrite !zlen_cons in *.
  cbn [map2]. destruct (Z.eq_dec i 0) as [->|]; [reflexivity|].
  rewrite !znth_cons_pos by lia. apply IH; lia.
Qed.
Lemma bitset_extract_intersection_eq ws1 ws2 base :
  bitset_extract_intersection_setbits ws1 ws2 base = bitset_extract_setbits (map2 Z.land ws1 ws2) base.
Proof.
  revert ws2 base. induction ws1; intros [|b ws2] base; try reflexivity.
  cbn [bitset_extract_intersection_setbits bitset_extract_setbits map2]. now rewrite IHws1.
Qed.

(** ** single bits and lists of bits *)
Lemma shiftr6 x : Z.shiftr x 6 = x / 64.
Proof. now rewrite Z.shiftr_div_pow2 by lia. Qed.
Lemma same_bit x p : 0 <= x -> 0 <= p -> x/64 = p/64 -> (x mod 64 =? p mod 64) = (x =? p).
Proof. intros. dm. Qed.
Lemma set1_spec ws p x : 0 <= p < 64 * zlen ws -> 0 <= x -> bget (set1 ws p) x = bget ws x || (x =? p).
Proof.
  intros. unfold set1. rewrite shiftr6. rewrite bget_wmod by dm.
  destruct (x/64 =? p/64) eqn:E.
  - rewrite Z.lor_spec, tb_bit, bget_here by (try lia; dm). rewrite same_bit by lia. reflexivity.
  - replace (x =? p) with false by dm. now rewrite orb_false_r.
Qed.
Lemma clear1_spec ws p x : 0 <= p < 64 * zlen ws -> 0 <= x -> bget (clear1 ws p) x = bget ws x && negb (x =? p).
Proof.
  intros. unfold clear1. rewrite shiftr6. rewrite bget_wmod by dm.
  destruct (x/64 =? p/64) eqn:E.
  - rewrite Z.land_spec, tb_not, tb_bit, bget_here by (try lia; dm). rewrite same_bit by lia. reflexivity.
  - replace (x =? p) with false by dm. now rewrite andb_true_r.
Qed.
Lemma flip1_spec ws p x : 0 <= p < 64 * zlen ws -> 0 <= x -> bget (flip1 ws p) x = xorb (bget ws x) (x =? p).
Proof.
  intros. unfold flip1. rewrite shiftr6. rewrite bget_wmod by dm.
  destruct (x/64 =? p/64) eqn:E.
  - rewrite Z.lxor_spec, tb_bit, bget_here by (try lia; dm). rewrite same_bit by lia. reflexivity.
  - replace (x =? p) with false by dm. now rewrite xorb_false_r.
Qed.
Lemma wfw_set1 ws p : wfw ws -> wfw (set1 ws p).
Proof. intros. apply wfw_wmod; auto. intros. apply isw_lor; auto using isw_bit. Qed.
Lemma wfw_clear1 ws p : wfw ws -> wfw (clear1 ws p).
Proof. intros. apply wfw_wmod; auto. intros. apply isw_land; auto. Qed.
Lemma wfw_flip1 ws p : wfw ws -> wfw (flip1 ws p).
Proof. intros. apply wfw_wmod; auto. intros. apply isw_lxor; auto using isw_bit. Qed.
Lemma zlen_set1 ws p : zlen (set1 ws p) = zlen ws. Proof. apply zlen_wmod. Qed.
Lemma zlen_clear1 ws p : zlen (clear1 ws p) = zlen ws. Proof. apply zlen_wmod. Qed.
Lemma zlen_flip1 ws p : zlen (flip1 ws p) = zlen ws. Proof. apply zlen_wmod. Qed.

(** change of the count when one position changes *)
Lemma cnt_upd P Q lo hi p : lo <= p < hi -> (forall x, lo <= x < hi -> x <> p -> Q x = P x) ->
  cnt Q lo hi = cnt P lo hi + (if Q p then 1 else 0) - (if P p then 1 else 0).
Proof.
  intros Hp H. rewrite (cnt_app Q lo p hi), (cnt_app P lo p hi) by lia.
  rewrite (cnt_cons Q p hi), (cnt_cons P p hi) by lia.
  rewrite (cnt_ext Q P lo p) by (intros; apply H; lia).
  rewrite (cnt_ext Q P (p+1) hi) by (intros; apply H; lia). lia.
Qed.

(** the increments computed from the words *)
Lemma incr_set w i : isw w -> 0 <= i < 64 ->
  shr64 (Z.lxor w (Z.lor w (bit i))) i = if Z.testbit w i then 0 else 1.
Proof.
  intros Hw Hi. assert (Z.lxor w (Z.lor w (bit i)) = if Z.testbit w i then 0 else bit i) as ->.
  { apply isw_ext. 
    - apply isw_lxor; auto. apply isw_lor; auto using isw_bit.
    - destruct (Z.testbit w i); auto using isw_0, isw_bit.
    - intros j Hj. rewrite Z.lxor_spec, Z.lor_spec, tb_bit by lia.
      destruct (Z.testbit w i) eqn:E; [rewrite Z.bits_0|rewrite tb_bit by lia];
        destruct (j =? i) eqn:E2; try (replace j with i in * by lia; rewrite E); destruct (Z.testbit w j); auto. }
  destruct (Z.testbit w i); unfold shr64; [apply Z.shiftr_0_l|].
  unfold bit, shl64. rewrite Z.mod_small.
  - rewrite Z.shiftr_shiftl_l by lia. now rewrite Z.sub_diag.
  - rewrite Z.shiftl_mul_pow2 by lia. rewrite Z.mul_1_l. split; [apply Z.pow_nonneg; lia|apply Z.pow_lt_mono_r; lia].
Qed.
Lemma bit_shr i : 0 <= i < 64 -> shr64 (bit i) i = 1.
Proof.
  intros. unfold bit, shl64, shr64. rewrite Z.mod_small.
  - rewrite Z.shiftr_shiftl_l by lia. now rewrite Z.sub_diag.
  - rewrite Z.shiftl_mul_pow2 by lia. rewrite Z.mul_1_l. split; [apply Z.pow_nonneg; lia|apply Z.pow_lt_mono_r; lia].
Qed.
Lemma incr_clear w i : isw w -> 0 <= i < 64 ->
  shr64 (Z.lxor w (Z.land w (not64 (bit i)))) i = if Z.testbit w i then 1 else 0.
Proof.
  intros Hw Hi. assert (Z.lxor w (Z.land w (not64 (bit i))) = if Z.testbit w i then bit i else 0) as ->.
  { apply isw_ext. 
    - apply isw_lxor; auto. apply isw_land; auto.
    - destruct (Z.testbit w i); auto using isw_0, isw_bit.
    - intros j Hj. rewrite Z.lxor_spec, Z.land_spec, tb_not, tb_bit by lia.
      destruct (Z.testbit w i) eqn:E; [rewrite tb_bit by lia|rewrite Z.bits_0];
        destruct (j =? i) eqn:E2; try (replace j with i in * by lia; rewrite E); destruct (Z.testbit w j); auto. }
  destruct (Z.testbit w i); [now apply bit_shr|apply Z.shiftr_0_l].
Qed.
Lemma incr_flip w i : isw w -> 0 <= i < 64 ->
  shr64 (Z.land (bit i) w) i = if Z.testbit w i then 1 else 0.
Proof.
  intros Hw Hi. assert (Z.land (bit i) w = if Z.testbit w i then bit i else 0) as ->.
  { apply isw_ext. 
    - apply isw_land; auto using isw_bit.
    - destruct (Z.testbit w i); auto using isw_0, isw_bit.
    - intros j Hj. rewrite Z.land_spec, tb_bit by lia.
      destruct (Z.testbit w i) eqn:E; [rewrite tb_bit by lia|rewrite Z.bits_0];
        destruct (j =? i) eqn:E2; try (replace j with i in * by lia; rewrite E); destruct (Z.testbit w j); auto. }
  destruct (Z.testbit w i); [now apply bit_shr|apply Z.shiftr_0_l].
Qed.

Section Lists.
Variable n : Z.
Definition wsn (ws : list Z) := wfw ws /\ zlen ws = n.
Lemma wsn_set1 ws p : wsn ws -> wsn (set1 ws p).
Proof. intros [? ?]. split; [now apply wfw_set1|now rewrite zlen_set1]. Qed.
Lemma wsn_clear1 ws p : wsn ws -> wsn (clear1 ws p).
Proof. intros [? ?]. split; [now apply wfw_clear1|now rewrite zlen_clear1]. Qed.
Lemma wsn_flip1 ws p : wsn ws -> wsn (flip1 ws p).
Proof. intros [? ?]. split; [now apply wfw_flip1|now rewrite zlen_flip1]. Qed.
Lemma bitset_set_list_spec l ws : wsn ws -> inb 0 (64*n) l ->
  wsn (bitset_set_list ws l) /\ (forall x, 0 <= x -> bget (bitset_set_list ws l) x = bget ws x || zmem x l).
Proof.
  revert ws. induction l as [|p l IH]; intros ws Hw Hl; cbn [bitset_set_list fold_left].
  - split; auto. intros. now rewrite orb_false_r.
  - apply inb_cons in Hl. destruct (IH (set1 ws p)) as [A B]; [now apply wsn_set1|tauto|].
    split; auto. intros x Hx. unfold bitset_set_list in B. rewrite B by auto.
    destruct Hw as [_ Hn]. rewrite set1_spec by lia. cbn [zmem existsb]. now rewrite orb_assoc.
Qed.
Lemma bitset_flip_list_spec l ws : wsn ws -> inb 0 (64*n) l -> NoDup l ->
  wsn (bitset_flip_list ws l) /\ (forall x, 0 <= x -> bget (bitset_flip_list ws l) x = xorb (bget ws x) (zmem x l)).
Proof.
  revert ws. induction l as [|p l IH]; intros ws Hw Hl Hd; cbn [bitset_flip_list fold_left].
  - split; auto. intros. now rewrite xorb_false_r.
  - apply inb_cons in Hl. inversion_clear Hd.
    destruct (IH (flip1 ws p)) as [A B]; [now apply wsn_flip1|tauto|auto|].
    split; auto. intros x Hx. unfold bitset_flip_list in B. rewrite B by auto.
    destruct Hw as [_ Hn]. rewrite flip1_spec by lia. cbn [zmem existsb]. rewrite xorb_assoc. f_equal.
    change (existsb (Z.eqb x) l) with (zmem x l).
    destruct (x =? p) eqn:E; [|destruct (zmem x l); reflexivity]. assert (x = p) by lia. subst.
    apply zmem_nIn in H. rewrite H. reflexivity.
Qed.
Lemma bitset_set_list_withcard_spec l ws c : wsn ws -> inb 0 (64*n) l ->
  c = cnt (bget ws) 0 (64*n) ->
  fst (bitset_set_list_withcard ws c l) = bitset_set_list ws l /\
  snd (bitset_set_list_withcard ws c l) = cnt (bget (bitset_set_list ws l)) 0 (64*n).
Proof.
  revert ws c. induction l as [|p l IH]; intros ws c Hw Hl Hc; cbn [bitset_set_list_withcard bitset_set_list fold_left].
  - auto.
  - apply inb_cons in Hl. rewrite incr_set by (try apply wfw_znth; try apply Hw; dm).
    apply (IH (set1 ws p)); [now apply wsn_set1|tauto|].
    destruct Hw as [Hw Hn].
    rewrite (cnt_upd (bget ws) (bget (set1 ws p)) 0 (64*n) p) by (try lia; intros; rewrite set1_spec by lia; replace (x =? p) with false by lia; apply orb_false_r).
    rewrite set1_spec by lia. rewrite Z.eqb_refl, orb_true_r. rewrite shiftr6, bget_here by auto.
    destruct (bget ws p); lia.
Qed.
Lemma bitset_clear_list_spec l ws c : wsn ws -> inb 0 (64*n) l ->
  c = cnt (bget ws) 0 (64*n) ->
  let r := bitset_clear_list ws c l in
  wsn (fst r) /\ (forall x, 0 <= x -> bget (fst r) x = bget ws x && negb (zmem x l)) /\
  snd r = cnt (bget (fst r)) 0 (64*n).
Proof.
  cbn zeta. revert ws c. induction l as [|p l IH]; intros ws c Hw Hl Hc; cbn [bitset_clear_list fold_left].
  - cbn. split; auto. split; auto. intros. now rewrite andb_true_r.
  - apply inb_cons in Hl. rewrite incr_clear by (try apply wfw_znth; try apply Hw; dm).
    rewrite shiftr6, bget_here by auto.
    destruct (IH (clear1 ws p) (c - (if bget ws p then 1 else 0))) as (A&B&C); [now apply wsn_clear1|tauto| |].
    + destruct Hw as [Hw Hn].
      rewrite (cnt_upd (bget ws) (bget (clear1 ws p)) 0 (64*n) p) by (try lia; intros; rewrite clear1_spec by lia; replace (x =? p) with false by lia; apply andb_true_r).
      rewrite clear1_spec by lia. rewrite Z.eqb_refl, andb_false_r. destruct (bget ws p); lia.
    + unfold clear1, wmod in A, B, C. rewrite shiftr6 in A, B, C. split; [exact A|]. split; [|exact C].
      intros x Hx. unfold bitset_clear_list in B. rewrite B by auto.
      destruct Hw as [_ Hn]. pose proof (clear1_spec ws p x) as Hc1. unfold clear1, wmod in Hc1. rewrite shiftr6 in Hc1.
      rewrite Hc1 by lia. cbn [zmem existsb].
      change (existsb (Z.eqb x) l) with (zmem x l). now rewrite negb_orb, andb_assoc.
Qed.
Lemma bitset_flip_list_withcard_spec l ws c : wsn ws -> inb 0 (64*n) l ->
  c = cnt (bget ws) 0 (64*n) ->
  fst (bitset_flip_list_withcard ws c l) = bitset_flip_list ws l /\
  snd (bitset_flip_list_withcard ws c l) = cnt (bget (bitset_flip_list ws l)) 0 (64*n).
Proof.
  revert ws c. induction l as [|p l IH]; intros ws c Hw Hl Hc; cbn [bitset_flip_list_withcard bitset_flip_list fold_left].
  - auto.
  - apply inb_cons in Hl. rewrite incr_flip by (try apply wfw_znth; try apply Hw; dm).
    apply (IH (flip1 ws p)); [now apply wsn_flip1|tauto|].
    destruct Hw as [Hw Hn].
    rewrite (cnt_upd (bget ws) (bget (flip1 ws p)) 0 (64*n) p) by (try lia; intros; rewrite flip1_spec by lia; replace (x =? p) with false by lia; apply xorb_false_r).
    rewrite flip1_spec by lia. rewrite Z.eqb_refl, xorb_true_r. rewrite shiftr6, bget_here by auto.
    destruct (bget ws p); cbn [negb]; lia.
Qed.
End Lists.
