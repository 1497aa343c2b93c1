(** SimdP: the statements about array containers in memory, in terms of sets. *)
From Coq Require Import Sorting.Sorted.
From Verif Require Import Base BitUtil SimdTab ArrayUtil Simd SimdM SimdU SimdX SimdI SimdD ArrMem ArrMemC SimdE Spec Obs  Derived DerivedB.
Local Opaque zr.
(** an array container in memory holding the set [A] *)
Definition holds (M : memory) (c : acont) (P : Z -> Prop) : Prop :=
  block M c /\ 0 <= a_card c <= a_cap c /\ sorted_with (contents M c) P.
Definition operand (M : memory) (c : acont) : Prop :=
  block M c /\ 0 <= a_card c <= a_cap c /\ StronglySorted Z.lt (contents M c) /\ Forall (fun x => 0 <= x < 65536) (contents M c).
Definition member (M : memory) (c : acont) (x : Z) : Prop := In x (contents M c).
(** the outcome: the container holds the set, its identity is that of [out], its block is that of [out] or a fresh one,
    and no cell outside the block of [out] and the [n] scratch cells at [stk] has changed *)
Definition outcome (M M' : memory) (out o : acont) (stk n : Z) (P : Z -> Prop) : Prop :=
  holds M' o P /\ placed M out o /\ zlen M <= zlen M' /\ keeps M M' out stk n.
Lemma operand_aok M c : operand M c -> aok M c.
Proof. intros (B & C & S & F). split; [exact B|]. split; [exact C|]. split; [|exact F]. apply incr_SS, S. Qed.
Lemma scratch_of stk n c : apart stk n (a_ptr c) (a_cap c) -> sapart stk n c. Proof. exact (fun H => H). Qed.
Lemma set_union avx2 fill stk M c1 c2 out : operand M c1 -> operand M c2 -> block M out -> capart out c1 -> capart out c2 ->
  inm M stk 17 -> sapart stk 17 c1 -> sapart stk 17 c2 -> sapart stk 17 out -> a_card c1 + a_card c2 <= 65536 ->
  exists M' o, array_union_mem avx2 fill stk M c1 c2 out = Some (M', o) /\ a_addr o = a_addr out /\ outcome M M' out o stk 17 (fun x => member M c1 x \/ member M c2 x).
Proof.
  intros K1 K2 BO X1 X2 T T1 T2 TO HB. destruct (array_union_mem_ok avx2 fill stk M c1 c2 out (operand_aok _ _ K1) (operand_aok _ _ K2) BO X1 X2 T T1 T2 TO HB) as (M' & o & R & D1 & D2 & D3 & D4 & D5 & D6 & D7).
  exists M', o. split; [exact R|]. split; [exact D4|]. split; [|auto]. split; [exact D1|]. split; [exact D2|]. rewrite D3. apply k_union; [apply K1|apply K2].
Qed.
Lemma set_xor avx2 fill stk M c1 c2 out : operand M c1 -> operand M c2 -> block M out -> capart out c1 -> capart out c2 ->
  inm M stk 17 -> sapart stk 17 c1 -> sapart stk 17 c2 -> sapart stk 17 out -> a_card c1 + a_card c2 <= 65536 ->
  exists M' o, array_xor_mem avx2 fill stk M c1 c2 out = Some (M', o) /\ a_addr o = a_addr out /\
    outcome M M' out o stk 17 (fun x => member M c1 x /\ ~ member M c2 x \/ member M c2 x /\ ~ member M c1 x).
Proof.
  intros K1 K2 BO X1 X2 T T1 T2 TO HB. destruct (array_xor_mem_ok avx2 fill stk M c1 c2 out (operand_aok _ _ K1) (operand_aok _ _ K2) BO X1 X2 T T1 T2 TO HB) as (M' & o & R & D1 & D2 & D3 & D4 & D5 & D6 & D7).
  exists M', o. split; [exact R|]. split; [exact D4|]. split; [|auto]. split; [exact D1|]. split; [exact D2|]. rewrite D3. apply k_xor; [apply K1|apply K2].
Qed.
Lemma set_andnot avx2 fill M c1 c2 out : operand M c1 -> operand M c2 -> block M out -> out = c1 \/ capart out c1 /\ a_addr out <> a_addr c1 -> capart out c2 -> a_card c1 <= 65536 ->
  exists M' o, array_andnot_mem avx2 fill M c1 c2 out = Some (M', o) /\ a_addr o = a_addr out /\ outcome M M' out o 0 0 (fun x => member M c1 x /\ ~ member M c2 x).
Proof.
  intros K1 K2 BO X1 X2 HB. destruct (array_andnot_mem_ok avx2 fill M c1 c2 out (operand_aok _ _ K1) (operand_aok _ _ K2) BO X1 X2 HB) as (M' & o & R & D1 & D2 & D3 & D4 & D5 & D6 & D7).
  exists M', o. split; [exact R|]. split; [exact D4|]. split; [|auto]. split; [exact D1|]. split; [exact D2|]. rewrite D3. apply k_difference; [apply K1|apply K2].
Qed.
Lemma operand_incr M c : operand M c -> incr (contents M c). Proof. intros (_ & _ & S & _). apply incr_SS, S. Qed.
Lemma set_intersection avx2 fill M c1 c2 out : operand M c1 -> operand M c2 -> block M out -> capart out c1 -> capart out c2 ->
  avx2 = false \/ a_cap out < Z.min (a_card c1) (a_card c2) \/ Z.min (a_card c1) (a_card c2) = 0 \/ Z.min (a_card c1) (a_card c2) + 8 <= a_cap out -> Z.min (a_card c1) (a_card c2) + 8 <= 65536 ->
  exists M' o, array_intersection_mem avx2 fill M c1 c2 out = Some (M', o) /\ a_addr o = a_addr out /\ outcome M M' out o 0 0 (fun x => member M c1 x /\ member M c2 x).
Proof.
  intros K1 K2 BO X1 X2 HR HB. destruct (array_intersection_mem_ok avx2 fill M c1 c2 out (operand_aok _ _ K1) (operand_aok _ _ K2) BO X1 X2 HR HB) as (M' & o & R & D1 & D2 & D3 & D4 & D5 & D6 & D7).
  exists M', o. split; [exact R|]. split; [exact D4|]. split; [|auto]. split; [exact D1|]. split; [exact D2|]. rewrite D3. apply inter_sorted, operand_incr, K1.
Qed.
Lemma set_intersection_inplace avx2 M c1 c2 : operand M c1 -> operand M c2 -> capart c1 c2 ->
  exists M' o, array_intersection_inplace_mem avx2 M c1 c2 = Some (M', o) /\ a_addr o = a_addr c1 /\ outcome M M' c1 o 0 0 (fun x => member M c1 x /\ member M c2 x).
Proof.
  intros K1 K2 X. destruct (array_intersection_inplace_mem_ok avx2 M c1 c2 (operand_aok _ _ K1) (operand_aok _ _ K2) X) as (M' & o & R & D1 & D2 & D3 & D4 & D5 & D6 & D7).
  exists M', o. split; [exact R|]. split; [exact D4|]. split; [|auto]. split; [exact D1|]. split; [exact D2|]. rewrite D3. apply inter_sorted, operand_incr, K1.
Qed.
(** ** The count of an intersection *)
(** a read of an array: only inside it *)
Definition cell (a : list Z) (i : Z) : option Z := if (0 <=? i) && (i <? zlen a) then Some (znth a i) else None.
(** array_util.h:58-101 advanceUntil as in ArrayUtil.v, with every read checked and no result when the fuel runs out *)
Fixpoint gallop_cells (fuel : nat) (a : list Z) (lower spansize len min : Z) : option Z :=
  match fuel with
  | O => None
  | S f =>
    if lower + spansize <? len then
      do v <- cell a (lower + spansize);
      if v <? min then gallop_cells f a lower (Z.shiftl spansize 1) len min else Some spansize
    else Some spansize
  end.
Fixpoint gallop_bin_cells (fuel : nat) (a : list Z) (lower upper min : Z) : option Z :=
  match fuel with
  | O => None
  | S f =>
    if lower + 1 =? upper then Some upper
    else
      let mid := Z.shiftr (lower + upper) 1 in
      do v <- cell a mid;
      if v =? min then Some mid
      else if v <? min then gallop_bin_cells f a mid upper min
      else gallop_bin_cells f a lower mid min
  end.
Definition advance_cells (a : list Z) (pos len min : Z) : option Z :=
  let lower := pos + 1 in
  if len <=? lower then Some lower
  else
    do v <- cell a lower;
    if min <=? v then Some lower
    else
      do spansize <- gallop_cells (S (length a)) a lower 1 len min;
      let upper := if lower + spansize <? len then lower + spansize else len - 1 in
      do u <- cell a upper;
      if u =? min then Some upper
      else if u <? min then Some len
      else gallop_bin_cells (S (length a)) a (lower + Z.shiftr spansize 1) upper min.
(** array_util.c:913-946 intersect_skewed_uint16_cardinality; [small] is the unread suffix whose head is val_s *)
Fixpoint skewed_count_cells (fuel : nat) (small large : list Z) (idx_l pos : Z) : option Z :=
  match fuel with
  | O => None
  | S f =>
    match small with
    | [] => Some pos
    | val_s :: small' =>
      do val_l <- cell large idx_l;
      if val_l <? val_s then
        do idx_l' <- advance_cells large idx_l (zlen large) val_s;
        if idx_l' =? zlen large then Some pos else skewed_count_cells f small large idx_l' pos
      else if val_s <? val_l then skewed_count_cells f small' large idx_l pos
      else
        match small' with
        | [] => Some (pos + 1)
        | val_s' :: _ =>
          do idx_l' <- advance_cells large idx_l (zlen large) val_s';
          if idx_l' =? zlen large then Some (pos + 1) else skewed_count_cells f small' large idx_l' (pos + 1)
        end
    end
  end.
Definition intersect_skewed_uint16_cardinality_mem (M : memory) (small size_s large size_l : Z) : option Z :=
  if size_s =? 0 then Some 0
  else do s <- ldn M small size_s; do l <- ldn M large size_l; skewed_count_cells (S (length s + length l)) s l 0 0.
(** array.c:325-351 array_container_intersection_cardinality, on x64.
    array_util.c:1003-1026 intersect_uint16_cardinality: its nested loops are written as one loop with one step of
    either array, or of both, at a time. *)
Definition intersect_uint16_cardinality_mem (M : memory) (A lenA B lenB : Z) : option Z :=
  it_count (S (Z.to_nat (lenA + lenB))) M A lenA B lenB 0.
Definition array_intersection_cardinality_mem (avx2 : bool) (M : memory) (c1 c2 : acont) : option Z :=
  let card_1 := a_card c1 in
  let card_2 := a_card c2 in
  if card_1 * 64 <? card_2 then intersect_skewed_uint16_cardinality_mem M (a_ptr c1) card_1 (a_ptr c2) card_2
  else if card_2 * 64 <? card_1 then intersect_skewed_uint16_cardinality_mem M (a_ptr c2) card_2 (a_ptr c1) card_1
  else if avx2 then intersect_vector16_cardinality M (a_ptr c1) card_1 (a_ptr c2) card_2
  else intersect_uint16_cardinality_mem M (a_ptr c1) card_1 (a_ptr c2) card_2.
Lemma cell_in a i : 0 <= i < zlen a -> cell a i = Some (znth a i).
Proof. intros H. unfold cell. destruct (Z.leb_spec 0 i), (Z.ltb_spec i (zlen a)); try lia. reflexivity. Qed.
Lemma gallop_cells_ok fuel : forall a lower s len min, 0 <= lower -> 1 <= s -> len <= zlen a -> len - (lower + s) < Z.of_nat fuel -> (fuel <> O) ->
  gallop_cells fuel a lower s len min = Some (gallop fuel a lower s len min).
Proof.
  induction fuel as [|f IH]; intros a lower s len min H0 H1 H2 HF NF; [congruence|]. cbn [gallop_cells gallop].
  destruct (Z.ltb_spec (lower + s) len) as [G|G]; cbn [andb]; [|reflexivity]. rewrite cell_in by lia. cbn [obind].
  destruct (znth a (lower + s) <? min); [|reflexivity]. apply IH; rewrite ?Z.shiftl_mul_pow2 by lia; try lia.
Qed.
Lemma gallop_bin_cells_ok fuel : forall a lower upper min, 0 <= lower -> lower < upper -> upper < zlen a -> upper - lower <= Z.of_nat fuel ->
  gallop_bin_cells fuel a lower upper min = Some (gallop_bin fuel a lower upper min).
Proof.
  induction fuel as [|f IH]; intros a lower upper min H0 H1 H2 HF; [lia|]. cbn [gallop_bin_cells gallop_bin].
  destruct (Z.eqb_spec (lower + 1) upper); [reflexivity|]. cbv zeta. rewrite shiftr1.
  assert (HM : lower < (lower + upper) / 2 < upper) by (split; [apply Z.lt_le_trans with (lower + 1); [lia|]; apply Z.div_le_lower_bound; lia|apply Z.div_lt_upper_bound; lia]).
  set (m := (lower + upper) / 2) in *. clearbody m. rewrite cell_in by lia. cbn [obind].
  destruct (znth a m =? min); [reflexivity|]. destruct (znth a m <? min); apply IH; lia.
Qed.
Lemma advance_cells_ok a pos min : incr a -> -1 <= pos -> pos < zlen a -> advance_cells a pos (zlen a) min = Some (advanceUntil a pos (zlen a) min).
Proof.
  intros Ha Hp Hl. unfold advance_cells, advanceUntil. cbv zeta. destruct (Z.leb_spec (zlen a) (pos + 1)) as [G|G]; cbn [orb]; [reflexivity|].
  rewrite cell_in by lia. cbn [obind]. destruct (Z.leb_spec min (znth a (pos + 1))) as [L|L]; [reflexivity|].
  rewrite gallop_cells_ok by (try discriminate; unfold zlen in *; lia). cbn [obind].
  destruct (gallop_spec (S (length a)) a (pos + 1) 1 (zlen a) min) as (A & B & C); auto; try lia.
  { unfold zlen in *; lia. }
  { rewrite shiftr1. intros. change (1 / 2) with 0. rewrite Z.add_0_r. lia. }
  set (s := gallop (S (length a)) a (pos + 1) 1 (zlen a) min) in *. clearbody s.
  set (upper := if pos + 1 + s <? zlen a then pos + 1 + s else zlen a - 1).
  assert (Hup : (upper = pos + 1 + s /\ pos + 1 + s < zlen a) \/ (upper = zlen a - 1 /\ zlen a <= pos + 1 + s)) by (unfold upper; destruct (Z.ltb_spec (pos + 1 + s) (zlen a)); lia).
  clearbody upper. rewrite cell_in by lia. cbn [obind].
  destruct (Z.eqb_spec (znth a upper) min); [reflexivity|]. destruct (Z.ltb_spec (znth a upper) min); [reflexivity|].
  rewrite !shiftr1 in *. assert (Hs : 0 <= s / 2 <= s) by (split; [apply Z.div_pos; lia|apply Z.div_le_upper_bound; lia]).
  assert (D : s / 2 < s) by (apply Z.div_lt; lia).
  apply gallop_bin_cells_ok; try lia; [|unfold zlen in *; lia].
  destruct B as [->|(B1 & B2 & B3)].
  - change (1 / 2) with 0. rewrite Z.add_0_r. destruct (Z.eq_dec (pos + 1) upper) as [Eu|]; [rewrite <- Eu in *; lia|lia].
  - destruct (Z.eq_dec (pos + 1 + s / 2) upper) as [Eu|]; [rewrite <- Eu in *; lia|lia].
Qed.
Lemma skewed_count_cells_ok fuel : forall small large idx pos, incr large -> 0 <= idx < zlen large -> zlen small + (zlen large - idx) < Z.of_nat fuel ->
  skewed_count_cells fuel small large idx pos = Some (skewed_card_loop fuel small large idx pos).
Proof.
  induction fuel as [|f IH]; intros small large idx pos Hl Hi HF; [pose proof (zlen_nonneg small); lia|]. cbn [skewed_count_cells skewed_card_loop].
  destruct small as [|v small]; [reflexivity|]. rewrite zlen_cons in HF. pose proof (zlen_nonneg small). rewrite cell_in by lia. cbn [obind]. cbv zeta.
  destruct (znth large idx <? v).
  - rewrite advance_cells_ok by (try assumption; lia). cbn [obind]. destruct (advanceUntil_raw large idx (zlen large) v) as (A & _ & _); auto; try lia.
    destruct (Z.eqb_spec (advanceUntil large idx (zlen large) v) (zlen large)); [reflexivity|]. apply IH; try assumption; rewrite ?zlen_cons; lia.
  - destruct (v <? znth large idx); [apply IH; try assumption; lia|]. destruct small as [|v' small]; [reflexivity|].
    rewrite advance_cells_ok by (try assumption; lia). cbn [obind]. destruct (advanceUntil_raw large idx (zlen large) v') as (A & _ & _); auto; try lia.
    destruct (Z.eqb_spec (advanceUntil large idx (zlen large) v') (zlen large)); [reflexivity|]. apply IH; try assumption; lia.
Qed.
Lemma intersect_skewed_uint16_cardinality_mem_ok M ps ns pl nl : inm M ps ns -> inm M pl nl -> incr (win M ps ns) -> incr (win M pl nl) -> 0 < nl ->
  intersect_skewed_uint16_cardinality_mem M ps ns pl nl = Some (zlen (inter (win M ps ns) (win M pl nl))).
Proof.
  intros (A1 & A2 & A3) (B1 & B2 & B3) Ns Nl H. unfold intersect_skewed_uint16_cardinality_mem. destruct (Z.eqb_spec ns 0) as [->|NZ]; [rewrite win_0; reflexivity|].
  assert (O1 : okr M ps ns = true) by (unfold okr; rewrite !andb_true_iff, !Z.leb_le; lia). assert (O2 : okr M pl nl = true) by (unfold okr; rewrite !andb_true_iff, !Z.leb_le; lia).
  unfold ldn. rewrite O1, O2. cbn [obind]. assert (Z1 : zlen (win M ps ns) = ns) by (apply win_zlen; lia). assert (Z2 : zlen (win M pl nl) = nl) by (apply win_zlen; lia).
  rewrite skewed_count_cells_ok; [|exact Nl|lia|unfold zlen in *; lia]. rewrite skewed_card_loop_spec; [reflexivity|exact Ns|exact Nl|lia|lia|unfold zlen in *; lia].
Qed.
Lemma set_intersection_cardinality avx2 M c1 c2 L : operand M c1 -> operand M c2 -> sorted_with L (fun x => member M c1 x /\ member M c2 x) ->
  array_intersection_cardinality_mem avx2 M c1 c2 = Some (zlen L).
Proof.
  intros K1 K2 (S & H). pose proof (operand_incr _ _ K1) as N1. pose proof (operand_incr _ _ K2) as N2.
  assert (EL : inter (contents M c1) (contents M c2) = L) by (apply incr_ext; [apply incr_inter; exact N1|apply incr_SS, S|]; intros x; rewrite inter_In, H; reflexivity).
  destruct K1 as ((A1 & A2 & A3) & C1 & _ & F1), K2 as ((B1 & B2 & B3) & C2 & _ & F2). rewrite <- EL. unfold array_intersection_cardinality_mem.
  assert (Z1 : zlen (contents M c1) = a_card c1) by (unfold contents; apply win_zlen; lia). assert (Z2 : zlen (contents M c2) = a_card c2) by (unfold contents; apply win_zlen; lia).
  destruct (Z.ltb_spec (a_card c1 * 64) (a_card c2)); [|destruct (Z.ltb_spec (a_card c2 * 64) (a_card c1))].
  - apply intersect_skewed_uint16_cardinality_mem_ok; try assumption; try (split; lia); lia.
  - rewrite (inter_comm (contents M c1)) by assumption. apply intersect_skewed_uint16_cardinality_mem_ok; try assumption; try (split; lia); lia.
  - destruct avx2; [|unfold intersect_uint16_cardinality_mem; rewrite it_count_ok; [reflexivity|split; lia|split; lia|lia|exact N1|exact N2]].
    apply intersect_vector16_cardinality_ok. constructor; try assumption; split; lia.
Qed.
Lemma set_union_inplace lazy avx2 fill stk addr M c1 c2 : operand M c1 -> operand M c2 -> capart c1 c2 ->
  inm M stk 17 -> sapart stk 17 c1 -> sapart stk 17 c2 -> a_card c1 + a_card c2 <= 4096 ->
  exists M' o, array_inplace_union_or_new lazy avx2 fill stk addr M c1 c2 = Some (M', o) /\
    holds M' o (fun x => member M c1 x \/ member M c2 x) /\ placed M c1 o /\ keeps M M' c1 stk 17.
Proof.
  intros K1 K2 X T T1 T2 HB. destruct (array_inplace_union_or_new_ok lazy avx2 fill stk addr M c1 c2 (operand_aok _ _ K1) (operand_aok _ _ K2) X T T1 T2 HB) as (M' & o & R & D1 & D2 & D3 & D4 & D5).
  exists M', o. split; [exact R|]. split; [|auto]. split; [exact D1|]. split; [exact D2|]. rewrite D3. apply k_union; [apply K1|apply K2].
Qed.
(** ** Conversions *)
(** the members of a bitset of 64 n positions, in increasing order *)
Definition word_ok (w : Z) : Prop := 0 <= w < 2 ^ 64.
Definition bit_member (ws : list Z) (x : Z) : Prop := 0 <= x < 64 * zlen ws /\ Z.testbit (znth ws (x / 64)) (x mod 64) = true.
Lemma dump_sorted ws W base L : Forall word_ok ws -> sorted_with L (bit_member ws) -> dump W ws base = map (fun x => (x + base) mod W) L.
Proof.
  intros Hw (S & H). unfold dump. f_equal. apply incr_ext; [apply incr_filter, zr_incr|apply incr_SS, S|]. intros x. rewrite filter_In, H, zr_In. unfold bit_member, bget. tauto.
Qed.
Lemma bitset_conversion avx512 avx2 M ws out base L : Forall word_ok ws -> sorted_with L (bit_member ws) -> 0 <= out -> out + zlen L <= zlen M ->
  exists M', bitset_to_uint32_mem avx512 avx2 M ws (zlen L) out base = Some (M', zlen L) /\ zlen M' = zlen M /\
    win M' out (zlen L) = map (fun x => (x + base) mod 2 ^ 32) L /\ forall i, 0 <= i < zlen M -> ~ (out <= i < out + zlen L) -> znth M' i = znth M i.
Proof.
  intros Hw HL H0 Hl. assert (ED := dump_sorted ws (2 ^ 32) base L Hw HL). assert (EL : zlen (dump (2 ^ 32) ws base) = zlen L) by (rewrite ED; unfold zlen; rewrite map_length; reflexivity).
  destruct (bitset_to_uint32_mem_ok avx512 avx2 M ws out base Hw H0) as (M' & R & (S1 & S2) & V); [rewrite EL; exact Hl|]. rewrite EL, ED in *. exists M'. split; [exact R|]. split; [exact S1|]. split; [exact V|]. intros i Hi Ho. apply S2; lia.
Qed.
Lemma array_conversion avx512 avx2 M a out base : 0 <= out -> out + zlen a <= zlen M ->
  exists M', array_to_uint32_mem avx512 avx2 M a out base = Some (M', zlen a) /\ zlen M' = zlen M /\
    win M' out (zlen a) = map (fun x => (x + base) mod 2 ^ 32) a /\ forall i, 0 <= i < zlen M -> ~ (out <= i < out + zlen a) -> znth M' i = znth M i.
Proof.
  intros H0 Hl. destruct (array_to_uint32_mem_ok avx512 avx2 M a out base H0 Hl) as (M' & R & (S1 & S2) & V). exists M'. split; [exact R|]. split; [exact S1|]. split; [exact V|]. intros i Hi Ho. apply S2; lia.
Qed.
Lemma array_of_bitset avx512 M ws out L : Forall word_ok ws -> zlen ws = 1024 -> sorted_with L (bit_member ws) -> 0 <= out -> out + zlen L <= zlen M ->
  exists M', array_from_bitset_mem avx512 M ws (zlen L) out = Some (M', zlen L) /\ zlen M' = zlen M /\ win M' out (zlen L) = L /\ forall i, 0 <= i < zlen M -> ~ (out <= i < out + zlen L) -> znth M' i = znth M i.
Proof.
  intros Hw H1 (S & H) H0 Hl. assert (EF : filter (bget ws) (zr 0 65536) = L).
  { apply incr_ext; [apply incr_filter, zr_incr|apply incr_SS, S|]. intros x. rewrite filter_In, H, zr_In. unfold bit_member, bget. rewrite H1. tauto. }
  destruct (array_from_bitset_mem_ok avx512 M ws out Hw H1 H0) as (M' & R & (S1 & S2) & V); [rewrite EF; exact Hl|]. rewrite EF in *. exists M'. split; [exact R|]. split; [exact S1|]. split; [exact V|]. intros i Hi Ho. apply S2; lia.
Qed.
(** extraction into a buffer of a given capacity: the smallest members, as many as fit *)
Definition bounded_extraction (f : memory -> list Z -> Z -> Z -> Z -> option (memory * Z)) (W : Z) : Prop :=
  forall M ws out cap base L, Forall word_ok ws -> sorted_with L (bit_member ws) -> 0 <= out -> 0 <= cap -> out + cap <= zlen M ->
  exists M', f M ws out cap base = Some (M', Z.min cap (zlen L)) /\ zlen M' = zlen M /\
    win M' out (Z.min cap (zlen L)) = map (fun x => (x + base) mod W) (firstn (Z.to_nat cap) L) /\
    forall i, 0 <= i < zlen M -> ~ (out <= i < out + cap) -> znth M' i = znth M i.
Lemma bounded_of (f : memory -> list Z -> Z -> Z -> Z -> option (memory * Z)) W :
  (forall M ws out cap base, wfw ws -> 0 <= out -> 0 <= cap -> out + cap <= zlen M ->
  exists M' n, f M ws out cap base = Some (M', n) /\ same_out M M' out (out + cap) /\
    n = Z.min cap (zlen (dump W ws base)) /\ win M' out n = firstn (Z.to_nat cap) (dump W ws base)) -> bounded_extraction f W.
Proof.
  intros F M ws out cap base L Hw HL H0 Hc Hl. destruct (F M ws out cap base Hw H0 Hc Hl) as (M' & n & R & (S1 & S2) & N & V). rewrite (dump_sorted ws W base L Hw HL) in *.
  assert (EL : zlen (map (fun x => (x + base) mod W) L) = zlen L) by (unfold zlen; rewrite map_length; reflexivity). rewrite EL in N. subst n.
  exists M'. split; [exact R|]. split; [exact S1|]. split; [rewrite V; apply firstn_map|]. intros i Hi Ho. apply S2; lia.
Qed.
Lemma bounded_all : bounded_extraction bitset_extract_setbits_avx2 (2 ^ 32) /\ bounded_extraction bitset_extract_setbits_avx512 (2 ^ 32) /\ bounded_extraction bitset_extract_setbits_avx512_uint16 (2 ^ 16).
Proof. split; [|split]; apply bounded_of; [exact extract_avx2_ok|exact extract_avx512_ok|exact extract_avx512_uint16_ok]. Qed.
Lemma bounded_sse M ws out cap base L : Forall word_ok ws -> sorted_with L (bit_member ws) -> 0 <= out -> zlen L <= cap -> out + cap + 48 <= zlen M ->
  exists M', bitset_extract_setbits_sse_uint16 M ws out cap base = Some (M', zlen L) /\ zlen M' = zlen M /\ win M' out (zlen L) = map (fun x => (x + base) mod 2 ^ 16) L.
Proof.
  intros Hw HL H0 Hc Hl. pose proof (zlen_nonneg L). assert (ED := dump_sorted ws (2 ^ 16) base L Hw HL). assert (EL : zlen (map (fun x => (x + base) mod 2 ^ 16) L) = zlen L) by (unfold zlen; rewrite map_length; reflexivity).
  destruct (extract_sse_uint16_ok M ws out cap base Hw H0 ltac:(lia) Hl) as (M' & n & R & (S1 & S2) & N & V); rewrite ED in *; [lia|]. rewrite EL in N. subst n. exists M'. auto.
Qed.
Definition sse_members : list Z := [0; 1; 8; 9; 16; 17; 24; 25; 32; 33; 40; 41; 48; 49; 56; 57].
Lemma sse_members_ok : sorted_with sse_members (bit_member [sse_word]).
Proof.
  split; [repeat constructor; lia|]. intros x. unfold bit_member. change (64 * zlen [sse_word]) with 64. split.
  - intros H. repeat (destruct H as [<-|H]; [split; [lia|vm_compute; reflexivity]|]). destruct H.
  - intros [Hx H]. assert (HX : In x (zr 0 64)) by (apply zr_In; lia). assert (C : forallb (fun x => negb (Z.testbit (znth [sse_word] (x / 64)) (x mod 64)) || zmem x sse_members) (zr 0 64) = true) by (vm_compute; reflexivity).
    rewrite forallb_forall in C. specialize (C x HX). rewrite H in C. apply zmem_In. exact C.
Qed.
Lemma bounded_sse_refuted : ~ bounded_extraction bitset_extract_setbits_sse_uint16 (2 ^ 16).
Proof.
  intros B. destruct (B (repeat 0 16) [sse_word] 0 16 0 sse_members) as (M' & R & _); [repeat constructor; unfold sse_word; lia|exact sse_members_ok|lia|lia|vm_compute; discriminate|].
  rewrite (proj2 extract_sse_uint16_overflow) in R. discriminate R.
Qed.
(** ** Intersection into a container whose capacity is at least the size of the result but not 8 larger *)
Definition cap_mem : memory := [1; 2; 3; 4; 5; 6; 7; 8] ++ [0; 1; 2; 3; 4; 5; 6; 7; 8; 9; 10; 11; 12; 13; 14; 15] ++ repeat 0 8.
Definition cap_1 : acont := {| a_addr := 1; a_ptr := 0; a_card := 8; a_cap := 8 |}.
Definition cap_2 : acont := {| a_addr := 2; a_ptr := 8; a_card := 16; a_cap := 16 |}.
Definition cap_out : acont := {| a_addr := 3; a_ptr := 24; a_card := 0; a_cap := 8 |}.
Lemma cap_operands : operand cap_mem cap_1 /\ operand cap_mem cap_2 /\ block cap_mem cap_out /\ capart cap_out cap_1 /\ capart cap_out cap_2.
Proof.
  assert (O : forall c, block cap_mem c -> 0 <= a_card c <= a_cap c -> forallb (fun x => (0 <=? x) && (x <? 65536)) (contents cap_mem c) = true -> StronglySorted Z.lt (contents cap_mem c) -> operand cap_mem c).
  { intros c B C F S. split; [exact B|]. split; [exact C|]. split; [exact S|]. apply Forall_forall. intros x Hx. rewrite forallb_forall in F. specialize (F x Hx). lia. }
  split; [apply O|split; [apply O|]]; unfold block, inm, capart, apart; cbn [cap_1 cap_2 cap_out a_ptr a_cap a_card]; change (zlen cap_mem) with 32; try lia; try (vm_compute; reflexivity); vm_compute; repeat constructor.
Qed.
Lemma intersection_capacity_refuted : exists M c1 c2 out, operand M c1 /\ operand M c2 /\ block M out /\ capart out c1 /\ capart out c2 /\
  Z.min (a_card c1) (a_card c2) <= a_cap out /\ forall fill, array_intersection_mem true fill M c1 c2 out = None.
Proof.
  exists cap_mem, cap_1, cap_2, cap_out. destruct cap_operands as (A & B & C & D & E). split; [exact A|]. split; [exact B|]. split; [exact C|]. split; [exact D|]. split; [exact E|]. split; [vm_compute; discriminate|]. intros fill. vm_compute. reflexivity.
Qed.
(** ** concrete memories for the examples *)
Definition ex_A : list Z := map (fun k => 3 * k) (zr 0 20).
Definition ex_B : list Z := map (fun k => 2 * k + 1) (zr 0 30).
Definition ex_mem : memory := ex_A ++ repeat 7 44 ++ ex_B ++ repeat 9 17.
Definition ex_1 : acont := {| a_addr := 1; a_ptr := 0; a_card := 20; a_cap := 64 |}.
Definition ex_2 : acont := {| a_addr := 2; a_ptr := 64; a_card := 30; a_cap := 30 |}.
Definition ex_out : acont := {| a_addr := 3; a_ptr := 0; a_card := 0; a_cap := 0 |}.
Definition ex_stk : Z := 94.
Fixpoint sortedb (l : list Z) : bool := match l with x :: ((y :: _) as t) => (x <? y) && sortedb t | _ => true end.
Lemma sortedb_ok l : sortedb l = true -> StronglySorted Z.lt l.
Proof.
  intros H. apply Sorted_StronglySorted; [intros a b c; lia|]. induction l as [|x l IH]; [constructor|]. destruct l as [|y l]; [repeat constructor|]. cbn [sortedb] in H. apply andb_true_iff in H. destruct H as [H1 H2]. constructor; [apply IH, H2|]. constructor. lia.
Qed.
Lemma operandb M c : (0 <=? a_ptr c) && (a_ptr c + a_cap c <=? zlen M) && (0 <=? a_card c) && (a_card c <=? a_cap c) && sortedb (contents M c) && forallb (fun x => (0 <=? x) && (x <? 65536)) (contents M c) = true -> operand M c.
Proof.
  rewrite !andb_true_iff. intros (((((A & B) & C) & D) & E) & F). split; [split; lia|]. split; [lia|]. split; [apply sortedb_ok, E|]. apply Forall_forall. intros x Hx. rewrite forallb_forall in F. specialize (F x Hx). lia.
Qed.
Lemma ex_hyps : operand ex_mem ex_1 /\ operand ex_mem ex_2 /\ block ex_mem ex_out /\ capart ex_out ex_1 /\ capart ex_out ex_2 /\ capart ex_1 ex_2 /\
  inm ex_mem ex_stk 17 /\ sapart ex_stk 17 ex_1 /\ sapart ex_stk 17 ex_2 /\ sapart ex_stk 17 ex_out.
Proof.
  split; [apply operandb; vm_compute; reflexivity|]. split; [apply operandb; vm_compute; reflexivity|].
  unfold block, inm, capart, sapart, apart, ex_stk. cbn [ex_1 ex_2 ex_out a_ptr a_cap a_card]. replace (zlen ex_mem) with 111 by (vm_compute; reflexivity). lia.
Qed.
Definition shown (r : option (memory * acont)) : option (list Z) := match r with Some (M, o) => Some (contents M o) | None => None end.
