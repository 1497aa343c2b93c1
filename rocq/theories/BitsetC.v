(** BitsetC: bitset containers (include/roaring/containers/bitset.h,
    src/containers/bitset.c).  A bitset container is (cardinality, words) with
    1024 words; cardinality -1 is BITSET_UNKNOWN_CARDINALITY.
    Allocation failure (create/clone returning NULL) is not modelled.  The AVX2,
    AVX512, NEON and inline-asm variants are not modelled: only the scalar code. *)
From Coq Require Import Sorted Btauto.
From Verif Require Import Base BitUtil.
Local Opaque zr.

Definition bset := (Z * list Z)%type.
Definition b_card (b : bset) : Z := fst b.
Definition b_words (b : bset) : list Z := snd b.

(** number of set bits *)
Definition bcard (ws : list Z) : Z := cnt (bget ws) 0 65536.
(** words are 1024 64-bit words *)
Definition bws (ws : list Z) : Prop := wfw ws /\ zlen ws = 1024.
(** well-formed with exact cardinality / with exact or unknown cardinality *)
Definition bwf (b : bset) : Prop := bws (b_words b) /\ b_card b = bcard (b_words b).
Definition blz (b : bset) : Prop := bws (b_words b) /\ (b_card b = -1 \/ b_card b = bcard (b_words b)).

(** bitset.c:51-54,63-90 clear/create *)
Definition bitset_container_create : bset := (0, repeat 0 1024).
(** bitset.c:56-60 set_all *)
Definition bitset_container_set_all : bset := (65536, repeat ones64 1024).
(** bitset.c:312-326 compute_cardinality (scalar; summed left to right) *)
Definition bitset_container_compute_cardinality (ws : list Z) : Z :=
  fold_left (fun s w => s + hamming w) ws 0.
(** bitset.h:137-151 set; 157-167 add; 171-181 remove; 183-187 get *)
Definition bitset_container_add (b : bset) (pos : Z) : bset * bool :=
  let old_word := znth (b_words b) (Z.shiftr pos 6) in
  let index := Z.land pos 63 in
  let new_word := Z.lor old_word (bit index) in
  let increment := shr64 (Z.lxor old_word new_word) index in
  ((b_card b + increment, zupd (Z.shiftr pos 6) new_word (b_words b)), 0 <? increment).
Definition bitset_container_set (b : bset) (pos : Z) : bset := fst (bitset_container_add b pos).
Definition bitset_container_remove (b : bset) (pos : Z) : bset * bool :=
  let old_word := znth (b_words b) (Z.shiftr pos 6) in
  let index := Z.land pos 63 in
  let new_word := Z.land old_word (not64 (bit index)) in
  let increment := shr64 (Z.lxor old_word new_word) index in
  ((b_card b - increment, zupd (Z.shiftr pos 6) new_word (b_words b)), 0 <? increment).
Definition bitset_container_get (b : bset) (pos : Z) : bool :=
  Z.odd (shr64 (znth (b_words b) (Z.shiftr pos 6)) (Z.land pos 63)).
(** bitset.h:195-219 get_range *)
Definition bitset_container_get_range (b : bset) (pos_start pos_end : Z) : bool :=
  let ws := b_words b in
  let start := Z.shiftr pos_start 6 in
  let end_ := Z.shiftr pos_end 6 in
  let first := not64 (shl64 1 (Z.land pos_start 63) - 1) in
  let last := shl64 1 (Z.land pos_end 63) - 1 in
  if start =? end_ then
    Z.land (Z.land (znth ws end_) first) last =? Z.land first last
  else if negb (Z.land (znth ws start) first =? first) then false
  else if (end_ <? 1024) && negb (Z.land (znth ws end_) last =? last) then false
  else forallb (fun i => znth ws i =? ones64) (zr (start + 1) (Z.min 1024 end_)).
(** bitset.h:259-267 empty *)
Definition bitset_container_empty (b : bset) : bool :=
  if b_card b =? -1 then forallb (fun w => w =? 0) (b_words b) else b_card b =? 0.
(** bitset.c:100-126 add_from_range *)
Fixpoint repeated_mask (fuel : nat) (value step mask : Z) : Z :=
  match fuel with
  | O => mask
  | S f => if value <? 64 then repeated_mask f (value + step) step (Z.lor mask (shl64 1 value)) else mask
  end.
Fixpoint add_stepping (fuel : nat) (b : bset) (value max step : Z) : bset :=
  match fuel with
  | O => b
  | S f => if value <? max then add_stepping f (fst (bitset_container_add b value)) (value + step) max step else b
  end.
Definition bitset_container_add_from_range (b : bset) (min max step : Z) : bset :=
  if step =? 0 then b
  else if 64 mod step =? 0 then
    let mask := repeated_mask 64 (min mod step) step 0 in
    let firstword := min / 64 in
    let endword := (max - 1) / 64 in
    let card := (max - min + step - 1) / step in
    let ws := b_words b in
    if firstword =? endword then
      (card, wmod firstword (fun w => Z.lor w (Z.land mask (Z.land (shl64 ones64 (min mod 64)) (shr64 ones64 (neg32 max mod 64))))) ws)
    else
      let ws := wmod firstword (fun _ => Z.land mask (shl64 ones64 (min mod 64))) ws in
      let ws := wloop (fun _ => mask) (firstword + 1) endword ws in
      (card, wmod endword (fun _ => Z.land mask (shr64 ones64 (neg32 max mod 64))) ws)
  else add_stepping (Z.to_nat (max - min)) b min max step.
(** bitset.c:167-228 offset.  [wantlo]/[wanthi]: loc/hic != NULL.  An output left
    untouched by the C code is None. *)
Definition offset_word (ws : list Z) (k i : Z) : Z :=
  Z.lor (shl64 (znth ws k) i) (shr64 (znth ws (k - 1)) (64 - i)).
Definition bitset_offset_lo (ws : list Z) (b i : Z) : list Z :=
  map (fun j => if j <? b then 0
                else if i =? 0 then znth ws (j - b)
                else if j =? b then shl64 (znth ws 0) i
                else offset_word ws (j - b) i) (zr 0 1024).
Definition bitset_offset_hi (ws : list Z) (b i : Z) : list Z :=
  map (fun j => if i =? 0 then (if j <? b then znth ws (1024 - b + j) else 0)
                else if j <? b then offset_word ws (1024 - b + j) i
                else if j =? b then shr64 (znth ws 1023) (64 - i)
                else 0) (zr 0 1024).
Definition bitset_container_offset (c : bset) (wantlo wanthi : bool) (offset : Z) : option bset * option bset :=
  let b := Z.shiftr offset 6 in
  let i := offset mod 64 in
  let lows := bitset_offset_lo (b_words c) b i in
  let lo : bset := (bitset_container_compute_cardinality lows, lows) in
  let lores := if wantlo && negb (b_card lo =? 0) then Some lo else None in
  if wantlo && (b_card lo =? b_card c) then (lores, None)
  else if negb wanthi then (lores, None)
  else
    let hiws := bitset_offset_hi (b_words c) b i in
    let hi : bset := (bitset_container_compute_cardinality hiws, hiws) in
    (lores, if b_card hi =? 0 then None else Some hi).
(** bitset.c:230-235 set_range; 237-246 intersect *)
Definition bitset_container_set_range (b : bset) (begin end_ : Z) : bset :=
  let ws := bitset_set_range (b_words b) begin end_ in
  (bitset_container_compute_cardinality ws, ws).
Definition bitset_container_intersect (b1 b2 : bset) : bool :=
  existsb (fun w => negb (w =? 0)) (map2 Z.land (b_words b1) (b_words b2)).
(** bitset.c:650-705 (scalar) the binary operations, with / without cardinality *)
Definition bitset_op (f : Z -> Z -> Z) (b1 b2 : bset) : bset :=
  let ws := map2 f (b_words b1) (b_words b2) in
  (fold_left (fun s w => s + hamming w) ws 0, ws).
Definition bitset_op_nocard (f : Z -> Z -> Z) (b1 b2 : bset) : bset :=
  (-1, map2 f (b_words b1) (b_words b2)).
Definition bitset_op_justcard (f : Z -> Z -> Z) (b1 b2 : bset) : Z :=
  fold_left (fun s w => s + hamming w) (map2 f (b_words b1) (b_words b2)) 0.
Definition andn64 (a b : Z) : Z := Z.land a (not64 b).   (* a &~ b *)
Definition bitset_container_or := bitset_op Z.lor.
Definition bitset_container_and := bitset_op Z.land.
Definition bitset_container_xor := bitset_op Z.lxor.
Definition bitset_container_andnot := bitset_op andn64.
Definition bitset_container_or_nocard := bitset_op_nocard Z.lor.
Definition bitset_container_and_nocard := bitset_op_nocard Z.land.
Definition bitset_container_xor_nocard := bitset_op_nocard Z.lxor.
Definition bitset_container_andnot_nocard := bitset_op_nocard andn64.
Definition bitset_container_or_justcard := bitset_op_justcard Z.lor.
Definition bitset_container_and_justcard := bitset_op_justcard Z.land.
Definition bitset_container_xor_justcard := bitset_op_justcard Z.lxor.
Definition bitset_container_andnot_justcard := bitset_op_justcard andn64.
(** bitset.c:932-960 to_uint32_array (scalar) *)
Definition bitset_container_to_uint32_array (b : bset) (base : Z) : list Z :=
  bitset_extract_setbits (b_words b) base.
(** bitset.c:1008-1027 validate (words pointer always non-NULL in the model) *)
Definition bitset_container_validate (b : bset) : bool :=
  if negb (b_card b =? bitset_container_compute_cardinality (b_words b)) then false
  else if b_card b <=? 4096 then false else true.
(** bitset.c:1031-1046 number_of_runs *)
Definition nruns_step (word next_word : Z) : Z :=
  hamming (Z.land (not64 word) (shl64 word 1)) + Z.land (shr64 word 63) (not64 next_word).
Fixpoint nruns_loop (word : Z) (rest : list Z) (num_runs : Z) : Z :=
  match rest with
  | [] =>
    let num_runs := num_runs + hamming (Z.land (not64 word) (shl64 word 1)) in
    if negb (Z.land word (2^63) =? 0) then num_runs + 1 else num_runs
  | next_word :: rest' => nruns_loop next_word rest' (num_runs + nruns_step word next_word)
  end.
Definition bitset_container_number_of_runs (b : bset) : Z :=
  match b_words b with [] => 0 | w :: rest => nruns_loop w rest 0 end.
(** bitset.c:1063-1075 iterate: the sequence of values handed to the callback
    (w ^= w & (~w + 1) clears the lowest bit) *)
Definition clear_lowest (w : Z) : Z := Z.lxor w (Z.land w ((not64 w + 1) mod 2^64)).
Fixpoint iterate_word (fuel : nat) (w base : Z) : list Z :=
  match fuel with
  | O => []
  | S f => if w =? 0 then [] else (ctz w + base) :: iterate_word f (clear_lowest w) base
  end.
Fixpoint bitset_iterate_seq (ws : list Z) (base : Z) : list Z :=
  match ws with
  | [] => []
  | w :: ws' => iterate_word 64 w base ++ bitset_iterate_seq ws' (base + 64)
  end.
(** bitset.c:1129-1153 equals (memcmp = equality of the word lists) *)
Definition bitset_container_equals (b1 b2 : bset) : bool :=
  let words_eq := if list_eq_dec Z.eq_dec (b_words b1) (b_words b2) then true else false in
  if negb (b_card b1 =? -1) && negb (b_card b2 =? -1) then
    if negb (b_card b1 =? b_card b2) then false
    else if b_card b1 =? 65536 then true
    else words_eq
  else words_eq.
(** bitset.c:1155-1168 is_subset *)
Definition bitset_container_is_subset (b1 b2 : bset) : bool :=
  if (negb (b_card b1 =? -1) && negb (b_card b2 =? -1)) && (b_card b2 <? b_card b1) then false
  else forallb (fun '(w1, w2) => Z.land w1 w2 =? w1) (combine (b_words b1) (b_words b2)).
(** bitset.c:1170-1199 select; start_rank is a uint32_t.  None+rank' = not in this
    container; running out of words is [roaring_unreachable], here (None, sr). *)
Fixpoint select_word (fuel : nat) (w base sr rank : Z) : option Z * Z :=
  match fuel with
  | O => (None, sr)
  | S f => if w =? 0 then (None, sr)
           else if sr =? rank then (Some (ctz w + base), sr)
           else select_word f (clear_lowest w) base ((sr + 1) mod 2^32) rank
  end.
Fixpoint select_words (ws : list Z) (i sr rank : Z) : option Z * Z :=
  match ws with
  | [] => (None, sr)
  | w :: ws' =>
    let size := hamming w in
    if rank <=? (sr + size) mod 2^32 then
      match select_word 64 w (i * 64) sr rank with
      | (Some e, sr') => (Some e, sr')
      | (None, sr') => select_words ws' (i + 1) sr' rank
      end
    else select_words ws' (i + 1) ((sr + size) mod 2^32) rank
  end.
Definition bitset_container_select (b : bset) (start_rank rank : Z) : option Z * Z :=
  let card := b_card b in
  if (start_rank + card) mod 2^32 <=? rank then (None, (start_rank + card) mod 2^32)
  else select_words (b_words b) 0 start_rank rank.
(** bitset.c:1203-1212 minimum *)
Fixpoint bitset_min_loop (ws : list Z) (i : Z) : Z :=
  match ws with
  | [] => 65535
  | w :: ws' => if negb (w =? 0) then ctz w + i * 64 else bitset_min_loop ws' (i + 1)
  end.
Definition bitset_container_minimum (b : bset) : Z := bitset_min_loop (b_words b) 0.
(** bitset.c:1215-1224 maximum: i from 1023 down to 1; word 0 is never examined *)
Fixpoint bitset_max_loop (fuel : nat) (ws : list Z) (i : Z) : Z :=
  match fuel with
  | O => 0
  | S f => let w := znth ws i in
           if negb (w =? 0) then i * 64 + 63 - clz w else bitset_max_loop f ws (i - 1)
  end.
Definition bitset_container_maximum (b : bset) : Z := bitset_max_loop 1023 (b_words b) 1023.
(** bitset.c:1227-1239 rank *)
Definition smear (x : Z) : Z := let lastpos := shl64 1 (x mod 64) in (lastpos + lastpos - 1) mod 2^64.
Definition bitset_container_rank (b : bset) (x : Z) : Z :=
  let ws := b_words b in
  fold_left (fun s i => s + hamming (znth ws i)) (zr 0 (x / 64)) 0
  + hamming (Z.land (znth ws (x / 64)) (smear x)).
(** bitset.c:1241-1261 rank_many: answers for the consumed prefix of the queries *)
Fixpoint bitset_rank_many_loop (ws : list Z) (high start_rank i sum : Z) (qs : list Z) : list Z :=
  match qs with
  | [] => []
  | x :: qs' =>
    if negb (Z.shiftr x 16 =? high) then []
    else
      let xlow := x mod 65536 in
      let count := xlow / 64 in
      let sum' := fold_left (fun s i => s + hamming (znth ws i)) (zr i count) sum in
      let i' := Z.max i count in
      (start_rank + sum' + hamming (Z.land (znth ws i') (smear xlow)))
        :: bitset_rank_many_loop ws high start_rank i' sum' qs'
  end.
Definition bitset_container_rank_many (b : bset) (start_rank : Z) (qs : list Z) : list Z :=
  match qs with
  | [] => []
  | q :: _ => bitset_rank_many_loop (b_words b) (Z.shiftr q 16) start_rank 0 0 qs
  end.
(** bitset.c:1265-1281 get_index *)
Definition bitset_container_get_index (b : bset) (x : Z) : Z :=
  if bitset_container_get b x then bitset_container_rank b x - 1 else -1.
(** bitset.c:1284-1296 index_equalorlarger *)
Fixpoint bitset_next_loop (fuel : nat) (ws : list Z) (k word : Z) : Z :=
  match fuel with
  | O => -1
  | S f => if word =? 0 then
             if k + 1 =? 1024 then -1 else bitset_next_loop f ws (k + 1) (znth ws (k + 1))
           else k * 64 + ctz word
  end.
Definition bitset_container_index_equalorlarger (b : bset) (x : Z) : Z :=
  let k := x / 64 in
  let diff := x - k * 64 in
  let word := shl64 (shr64 (znth (b_words b) k) diff) diff in
  bitset_next_loop 1024 (b_words b) k word.

(** * Proofs *)
Lemma bcard_bound ws : 0 <= bcard ws <= 65536.
Proof. pose proof (cnt_bound (bget ws) 0 65536). unfold bcard. lia. Qed.
Lemma bcard_ext ws ws' : (forall x, 0 <= x < 65536 -> bget ws x = bget ws' x) -> bcard ws = bcard ws'.
Proof. apply cnt_ext. Qed.
Lemma bget_oob ws x : bws ws -> 65536 <= x -> bget ws x = false.
Proof. intros [_ H] Hx. unfold bget. rewrite znth_overflow by dm. apply Z.bits_0. Qed.
Lemma bwf_blz b : bwf b -> blz b.
Proof. intros [H1 H2]. split; auto. Qed.
Lemma bws_ext ws ws' : bws ws -> bws ws' -> (forall x, 0 <= x < 65536 -> bget ws x = bget ws' x) -> ws = ws'.
Proof.
  intros [H1 L1] [H2 L2] H. apply list_ext_znth; [lia|]. intros i Hi.
  apply isw_ext; auto using wfw_znth. intros j Hj.
  specialize (H (64*i+j)). unfold bget in H.
  replace ((64*i+j)/64) with i in H by dm. replace ((64*i+j) mod 64) with j in H by dm. apply H. lia.
Qed.
Lemma land63 x : Z.land x 63 = x mod 64.
Proof. change 63 with (Z.ones 6). rewrite Z.land_ones by lia. reflexivity. Qed.

Lemma wfw_repeat v n : isw v -> wfw (repeat v n).
Proof. intros. apply Forall_forall. intros x Hx. apply repeat_spec in Hx. now subst. Qed.
Lemma zlen_repeat {A} (v:A) n : zlen (repeat v n) = Z.of_nat n.
Proof. unfold zlen. now rewrite repeat_length. Qed.
Lemma znth_repeat v n i : 0 <= i < Z.of_nat n -> znth (repeat v n) i = v.
Proof. intros. apply (repeat_spec n v). apply znth_In. rewrite zlen_repeat. lia. Qed.
Lemma bws_zero : bws (repeat 0 1024).
Proof. split; [apply wfw_repeat, isw_0|now rewrite zlen_repeat]. Qed.
Lemma bws_ones : bws (repeat ones64 1024).
Proof. split; [apply wfw_repeat, isw_ones|now rewrite zlen_repeat]. Qed.
Lemma bget_zero x : 0 <= x -> bget (repeat 0 1024) x = false.
Proof.
  intros. unfold bget. destruct (Z_lt_dec (x/64) 1024).
  - rewrite znth_repeat by dm. apply Z.bits_0.
  - rewrite znth_overflow by (rewrite zlen_repeat; lia). apply Z.bits_0.
Qed.
Lemma bget_ones x : 0 <= x < 65536 -> bget (repeat ones64 1024) x = true.
Proof. intros. unfold bget. rewrite znth_repeat by dm. rewrite tb_ones; dm. Qed.
Lemma create_bwf : bwf bitset_container_create.
Proof.
  split; [apply bws_zero|]. cbn [b_card b_words bitset_container_create fst snd]. symmetry. apply cnt_none.
  intros. apply bget_zero. lia.
Qed.
Lemma set_all_bwf : bwf bitset_container_set_all.
Proof.
  split; [apply bws_ones|]. cbn [b_card b_words bitset_container_set_all fst snd]. symmetry.
  unfold bcard. rewrite cnt_full; try lia. apply bget_ones.
Qed.

(** ** compute_cardinality *)
Lemma fold_hamming_list ws acc :
  fold_left (fun s w => s + hamming w) ws acc = acc + cnt (bget ws) 0 (64 * zlen ws).
Proof.
  revert acc. induction ws as [|w ws IH]; intros acc; cbn [fold_left].
  - rewrite cnt_nil; [lia|]. unfold zlen; cbn; lia.
  - rewrite IH. rewrite zlen_cons. pose proof (zlen_nonneg ws).
    rewrite (cnt_app (bget (w::ws)) 0 64 (64 * (zlen ws + 1))) by lia.
    pose proof (hamming_word (w::ws) 0 ltac:(lia)) as E. rewrite znth_cons_0 in E.
    change (64*0) with 0 in E. change (0+64) with 64 in E. rewrite <- E.
    replace (cnt (bget (w::ws)) 64 (64 * (zlen ws + 1))) with (cnt (bget ws) 0 (64 * zlen ws)); [lia|].
    replace 64 with (0 + 64) at 2 by lia. replace (64 * (zlen ws + 1)) with (64 * zlen ws + 64) by lia.
    rewrite <- cnt_shift. apply cnt_ext. intros. symmetry. apply bget_cons. lia.
Qed.
Lemma compute_cardinality_spec ws : bws ws -> bitset_container_compute_cardinality ws = bcard ws.
Proof. intros [_ H]. unfold bitset_container_compute_cardinality. rewrite fold_hamming_list, H. reflexivity. Qed.

(** ** point operations *)
Lemma bitset_get_spec b x : 0 <= x -> bitset_container_get b x = bget (b_words b) x.
Proof.
  intros. unfold bitset_container_get. rewrite shiftr6, land63. rewrite <- Z.bit0_odd.
  rewrite tb_shr by lia. reflexivity.
Qed.
Lemma bitset_add_spec b x : bwf b -> 0 <= x < 65536 ->
  bwf (fst (bitset_container_add b x)) /\
  (forall y, 0 <= y -> bget (b_words (fst (bitset_container_add b x))) y = bget (b_words b) y || (y =? x)) /\
  snd (bitset_container_add b x) = negb (bget (b_words b) x) /\
  b_card (fst (bitset_container_add b x)) = b_card b + (if bget (b_words b) x then 0 else 1).
Proof.
  intros [[Hw Hl] Hc] Hx. unfold bitset_container_add.
  rewrite shiftr6, land63. rewrite incr_set by (first [now apply wfw_znth | dm]). rewrite bget_here by auto.
  cbn [fst snd b_card b_words].
  assert (E : zupd (x/64) (Z.lor (znth (snd b) (x/64)) (bit (x mod 64))) (snd b) = set1 (snd b) x).
  { unfold set1, wmod. now rewrite shiftr6. }
  unfold b_words in *. rewrite E.
  assert (Hs : forall y, 0 <= y -> bget (set1 (snd b) x) y = bget (snd b) y || (y =? x)).
  { intros. apply set1_spec; lia. }
  split; [|split; [exact Hs|split]].
  - split; [unfold b_words; cbn [fst snd]; split; [now apply wfw_set1|now rewrite zlen_set1]|].
    cbn [b_card b_words fst snd]. rewrite Hc. unfold bcard.
    rewrite (cnt_upd (bget (snd b)) (bget (set1 (snd b) x)) 0 65536 x); [|lia|].
    + rewrite Hs, Z.eqb_refl, orb_true_r by lia. destruct (bget (snd b) x); lia.
    + intros. rewrite Hs by lia. replace (x0 =? x) with false by lia. apply orb_false_r.
  - destruct (bget (snd b) x); reflexivity.
  - unfold b_card in *. reflexivity.
Qed.
Lemma bitset_remove_spec b x : bwf b -> 0 <= x < 65536 ->
  bwf (fst (bitset_container_remove b x)) /\
  (forall y, 0 <= y -> bget (b_words (fst (bitset_container_remove b x))) y = bget (b_words b) y && negb (y =? x)) /\
  snd (bitset_container_remove b x) = bget (b_words b) x /\
  b_card (fst (bitset_container_remove b x)) = b_card b - (if bget (b_words b) x then 1 else 0).
Proof.
  intros [[Hw Hl] Hc] Hx. unfold bitset_container_remove.
  rewrite shiftr6, land63. rewrite incr_clear by (first [now apply wfw_znth | dm]). rewrite bget_here by auto.
  cbn [fst snd b_card b_words].
  assert (E : zupd (x/64) (Z.land (znth (snd b) (x/64)) (not64 (bit (x mod 64)))) (snd b) = clear1 (snd b) x).
  { unfold clear1, wmod. now rewrite shiftr6. }
  unfold b_words in *. rewrite E.
  assert (Hs : forall y, 0 <= y -> bget (clear1 (snd b) x) y = bget (snd b) y && negb (y =? x)).
  { intros. apply clear1_spec; lia. }
  split; [|split; [exact Hs|split]].
  - split; [unfold b_words; cbn [fst snd]; split; [now apply wfw_clear1|now rewrite zlen_clear1]|].
    cbn [b_card b_words fst snd]. rewrite Hc. unfold bcard.
    rewrite (cnt_upd (bget (snd b)) (bget (clear1 (snd b) x)) 0 65536 x); [|lia|].
    + rewrite Hs, Z.eqb_refl, andb_false_r by lia. destruct (bget (snd b) x); lia.
    + intros. rewrite Hs by lia. replace (x0 =? x) with false by lia. apply andb_true_r.
  - destruct (bget (snd b) x); reflexivity.
  - unfold b_card in *. reflexivity.
Qed.

(** ** word predicates as range facts *)
Lemma word_eq_iff w v : isw w -> isw v -> (w =? v) = forallb (fun b => Bool.eqb (Z.testbit w b) (Z.testbit v b)) (zr 0 64).
Proof.
  intros Hw Hv. destruct (forallb _ (zr 0 64)) eqn:E.
  - apply Z.eqb_eq, isw_ext; auto. rewrite forallb_forall in E. intros i Hi.
    specialize (E i). rewrite zr_In in E. apply eqb_prop. auto.
  - apply Z.eqb_neq. intros ->. rewrite <- not_true_iff_false in E. apply E. apply forallb_forall.
    intros. apply eqb_reflx.
Qed.
(** all bits of the mask [lo,hi) are set *)
Lemma land_mask_full w m lo hi : isw w -> isw m -> 0 <= lo <= hi -> hi <= 64 ->
  (forall b, 0 <= b < 64 -> Z.testbit m b = (lo <=? b) && (b <? hi)) ->
  (Z.land w m =? m) = (cnt (Z.testbit w) lo hi =? hi - lo).
Proof.
  intros Hw Hm Hlo Hhi Hb.
  destruct (cnt (Z.testbit w) lo hi =? hi - lo) eqn:E.
  - apply Z.eqb_eq, isw_ext; auto using isw_land. intros i Hi. rewrite Z.land_spec, Hb by auto.
    destruct ((lo <=? i) && (i <? hi)) eqn:E2; [|apply andb_false_r]. rewrite andb_true_r.
    apply (cnt_full_inv (Z.testbit w) lo hi); lia.
  - apply Z.eqb_neq. intros E2. apply Z.eqb_neq in E. apply E. apply cnt_full; [lia|].
    intros x Hx. assert (Z.testbit (Z.land w m) x = true).
    { rewrite E2, Hb by lia. lia. }
    rewrite Z.land_spec in H. apply andb_prop in H. tauto.
Qed.
Lemma cnt_two_full P a b c : a <= b -> b <= c ->
  (cnt P a c =? c - a) = (cnt P a b =? b - a) && (cnt P b c =? c - b).
Proof.
  intros. rewrite (cnt_app P a b c) by lia. pose proof (cnt_bound P a b). pose proof (cnt_bound P b c). lia.
Qed.
Lemma ones_word w i ws : wfw ws -> 0 <= i -> w = znth ws i ->
  (w =? ones64) = (cnt (bget ws) (64*i) (64*i+64) =? 64).
Proof.
  intros Hw Hi ->. pose proof (wfw_znth ws i Hw) as Hz. rewrite <- hamming_word by lia. rewrite hamming_cnt.
  destruct (cnt (Z.testbit (znth ws i)) 0 64 =? 64) eqn:E.
  - apply Z.eqb_eq, isw_ext; auto using isw_ones. intros j Hj. rewrite tb_ones by lia.
    replace (j <? 64) with true by lia. apply (cnt_full_inv _ 0 64); lia.
  - apply Z.eqb_neq. intros E2. rewrite E2 in E. rewrite cnt_full in E; try lia.
    intros. rewrite tb_ones by lia. lia.
Qed.
Lemma forallb_ones ws lo hi : wfw ws -> 0 <= lo <= hi ->
  forallb (fun i => znth ws i =? ones64) (zr lo hi) = (cnt (bget ws) (64*lo) (64*hi) =? 64*hi - 64*lo).
Proof.
  intros Hw [H0 H1]. remember (Z.to_nat (hi - lo)) as n. revert lo H0 H1 Heqn. induction n; intros.
  - rewrite zr_nil by lia. cbn [forallb]. rewrite cnt_nil; lia.
  - rewrite zr_cons by lia. cbn [forallb]. rewrite IHn by lia.
    rewrite (cnt_two_full _ (64*lo) (64*lo+64) (64*hi)) by lia.
    rewrite (ones_word _ lo ws) by auto. f_equal; [f_equal; lia|f_equal; [f_equal|]; lia].
Qed.
Lemma pow_mask k b : 0 <= k < 64 -> 0 <= b < 64 -> Z.testbit (shl64 1 k - 1) b = (b <? k).
Proof.
  intros. unfold shl64. rewrite Z.shiftl_mul_pow2, Z.mul_1_l by lia.
  rewrite Z.mod_small by (split; [apply Z.pow_nonneg; lia|apply Z.pow_lt_mono_r; lia]).
  replace (2^k - 1) with (Z.ones k) by (rewrite Z.ones_equiv; lia).
  destruct (b <? k) eqn:E; [apply Z.ones_spec_low|apply Z.ones_spec_high]; lia.
Qed.
Lemma pow_mask_isw k : 0 <= k < 64 -> isw (shl64 1 k - 1).
Proof.
  intros. unfold isw, shl64. rewrite Z.shiftl_mul_pow2, Z.mul_1_l by lia.
  assert (0 < 2^k < 2^64) by (split; [apply Z.pow_pos_nonneg; lia|apply Z.pow_lt_mono_r; lia]).
  rewrite Z.mod_small by lia. lia.
Qed.
Lemma bitset_get_range_spec b s e : bws (b_words b) -> 0 <= s -> s < e -> e <= 65536 ->
  bitset_container_get_range b s e = (cnt (bget (b_words b)) s e =? e - s).
Proof.
  intros [Hw Hl] Hs Hse He. unfold bitset_container_get_range. rewrite !shiftr6, !land63.
  set (ws := b_words b) in *. assert (0 <= s mod 64 < 64) by dm. assert (0 <= e mod 64 < 64) by dm.
  pose proof (pow_mask_isw (e mod 64) H0). pose proof (isw_not _ (pow_mask_isw (s mod 64) H)).
  destruct (s/64 =? e/64) eqn:E.
  - rewrite <- Z.land_assoc.
    rewrite (land_mask_full _ _ (s mod 64) (e mod 64)).
    + rewrite cnt_word by dm. f_equal; [f_equal|]; dm.
    + now apply wfw_znth.
    + now apply isw_land.
    + dm.
    + dm.
    + intros. rewrite Z.land_spec, tb_not, !pow_mask by lia. lia.
  - rewrite (land_mask_full (znth ws (s/64)) _ (s mod 64) 64);
      [|now apply wfw_znth|auto|lia|lia|intros; rewrite tb_not, pow_mask by lia; lia].
    rewrite cnt_word by dm.
    rewrite (cnt_two_full _ s (64 * (s/64) + 64) e) by dm.
    replace (64 * (s/64) + s mod 64) with s by dm.
    replace (64 - s mod 64) with (64 * (s/64) + 64 - s) by dm.
    destruct (cnt (bget ws) s (64 * (s/64) + 64) =? 64 * (s/64) + 64 - s); cbn [negb andb]; auto.
    destruct (e/64 <? 1024) eqn:E3.
    + cbn [andb].
      rewrite (land_mask_full (znth ws (e/64)) _ 0 (e mod 64));
        [|now apply wfw_znth|auto|lia|lia|intros; rewrite pow_mask by lia; lia].
      rewrite cnt_word by dm.
      rewrite (cnt_two_full _ (64 * (s/64) + 64) (64 * (e/64)) e) by dm.
      replace (64 * (e/64) + 0) with (64 * (e/64)) by dm.
      replace (64 * (e/64) + e mod 64) with e by dm.
      replace (e mod 64 - 0) with (e - 64 * (e/64)) by dm.
      rewrite Z.min_r by lia. rewrite forallb_ones by (auto; dm).
      replace (64 * (s/64+1)) with (64 * (s/64) + 64) by lia.
      destruct (cnt (bget ws) (64 * (e/64)) e =? e - 64 * (e/64)); cbn [negb]; [now rewrite andb_true_r|now rewrite andb_false_r].
    + cbn [andb]. assert (e = 65536) by dm. subst e. change (65536/64) with 1024 in *.
      rewrite Z.min_l by lia. rewrite forallb_ones by (auto; dm).
      f_equal; [f_equal|]; lia.
Qed.
Lemma words_zero ws : wfw ws -> forallb (fun w => w =? 0) ws = (cnt (bget ws) 0 (64 * zlen ws) =? 0).
Proof.
  intros Hw. rewrite <- (Z.add_0_l (cnt _ _ _)), <- fold_hamming_list.
  assert (forall acc, 0 <= acc -> (fold_left (fun s w => s + hamming w) ws acc =? 0) = (acc =? 0) && forallb (fun w => w =? 0) ws) as H.
  { induction Hw; cbn [fold_left forallb]; intros acc Ha; [lia|].
    pose proof (hamming_bound x). rewrite IHHw by lia. pose proof (hamming_0 x H). lia. }
  rewrite H by lia. reflexivity.
Qed.
Lemma bitset_empty_spec b : blz b -> bitset_container_empty b = (bcard (b_words b) =? 0).
Proof.
  intros [[Hw Hl] Hc]. unfold bitset_container_empty. destruct (b_card b =? -1) eqn:E.
  - rewrite words_zero by auto. rewrite Hl. reflexivity.
  - destruct Hc as [Hc|Hc]; [lia|now rewrite Hc].
Qed.

(** ** wordwise binary operations *)
Lemma bws_map2 f w1 w2 : (forall a b, isw a -> isw b -> isw (f a b)) -> bws w1 -> bws w2 -> bws (map2 f w1 w2).
Proof.
  intros Hf [H1 L1] [H2 L2]. split; [now apply wfw_map2|]. rewrite zlen_map2; lia.
Qed.
Lemma bget_map2 f g w1 w2 x : bws w1 -> bws w2 -> 0 <= x < 65536 ->
  (forall a b i, isw a -> isw b -> 0 <= i < 64 -> Z.testbit (f a b) i = g (Z.testbit a i) (Z.testbit b i)) ->
  bget (map2 f w1 w2) x = g (bget w1 x) (bget w2 x).
Proof.
  intros [H1 L1] [H2 L2] Hx H. unfold bget. rewrite znth_map2 by (try lia; dm).
  apply H; try (now apply wfw_znth). dm.
Qed.
Record wordop (f : Z -> Z -> Z) (g : bool -> bool -> bool) : Prop := {
  wo_isw : forall a b, isw a -> isw b -> isw (f a b);
  wo_tb : forall a b i, isw a -> isw b -> 0 <= i < 64 -> Z.testbit (f a b) i = g (Z.testbit a i) (Z.testbit b i) }.
Lemma wordop_or : wordop Z.lor orb.
Proof. split; [apply isw_lor|intros; apply Z.lor_spec]. Qed.
Lemma wordop_and : wordop Z.land andb.
Proof. split; [intros; now apply isw_land|intros; apply Z.land_spec]. Qed.
Lemma wordop_xor : wordop Z.lxor xorb.
Proof. split; [apply isw_lxor|intros; apply Z.lxor_spec]. Qed.
Lemma wordop_andn : wordop andn64 (fun a b => a && negb b).
Proof. split; [intros; now apply isw_land|intros; unfold andn64; now rewrite Z.land_spec, tb_not]. Qed.
Lemma bitset_op_spec f g b1 b2 : wordop f g -> bws (b_words b1) -> bws (b_words b2) ->
  bwf (bitset_op f b1 b2) /\
  (forall x, 0 <= x < 65536 -> bget (b_words (bitset_op f b1 b2)) x = g (bget (b_words b1) x) (bget (b_words b2) x)).
Proof.
  intros [Hf Hg] H1 H2. split.
  - split; cbn [b_words b_card bitset_op fst snd]; [now apply bws_map2|].
    rewrite fold_hamming_list. destruct (bws_map2 f (b_words b1) (b_words b2)) as [_ E]; auto.
    rewrite E. reflexivity.
  - intros. now apply bget_map2.
Qed.
Lemma bitset_op_nocard_spec f g b1 b2 : wordop f g -> bws (b_words b1) -> bws (b_words b2) ->
  blz (bitset_op_nocard f b1 b2) /\
  (forall x, 0 <= x < 65536 -> bget (b_words (bitset_op_nocard f b1 b2)) x = g (bget (b_words b1) x) (bget (b_words b2) x)).
Proof.
  intros [Hf Hg] H1 H2. split.
  - split; cbn [b_words b_card bitset_op_nocard fst snd]; [now apply bws_map2|auto].
  - intros. now apply bget_map2.
Qed.
Lemma bitset_op_justcard_spec f g b1 b2 : wordop f g -> bws (b_words b1) -> bws (b_words b2) ->
  bitset_op_justcard f b1 b2 = cnt (fun x => g (bget (b_words b1) x) (bget (b_words b2) x)) 0 65536.
Proof.
  intros H H1 H2. destruct (bitset_op_spec f g b1 b2 H H1 H2) as [[_ Hc] Hx].
  unfold bitset_op_justcard. unfold b_card, bitset_op in Hc. cbn [fst] in Hc. rewrite Hc.
  apply cnt_ext. exact Hx.
Qed.
Lemma bitset_intersect_spec b1 b2 : bws (b_words b1) -> bws (b_words b2) ->
  bitset_container_intersect b1 b2 = negb (cnt (fun x => bget (b_words b1) x && bget (b_words b2) x) 0 65536 =? 0).
Proof.
  intros H1 H2. rewrite <- (bitset_op_justcard_spec Z.land andb b1 b2 wordop_and H1 H2).
  unfold bitset_op_justcard. rewrite fold_hamming_list. rewrite Z.add_0_l.
  unfold bitset_container_intersect.
  assert (wfw (map2 Z.land (b_words b1) (b_words b2))) as Hw by (apply bws_map2; auto; intros; now apply isw_land).
  rewrite <- words_zero by auto. generalize (map2 Z.land (b_words b1) (b_words b2)). intros l.
  induction l; cbn; auto. rewrite IHl. now destruct (a =? 0).
Qed.
Lemma bitset_set_range_c_spec b s e : bws (b_words b) -> 0 <= s <= e -> e <= 65536 ->
  bwf (bitset_container_set_range b s e) /\
  (forall x, 0 <= x -> bget (b_words (bitset_container_set_range b s e)) x = bget (b_words b) x || ((s <=? x) && (x <? e))).
Proof.
  intros [Hw Hl] Hs He. unfold bitset_container_set_range.
  assert (bws (bitset_set_range (b_words b) s e)) by (split; [now apply wfw_set_range|now rewrite zlen_set_range]).
  split.
  - split; cbn [b_words b_card fst snd]; auto. now apply compute_cardinality_spec.
  - intros. cbn [b_words snd]. apply bitset_set_range_spec; auto; lia.
Qed.

(** ** extraction and iteration *)
Lemma bitset_to_array_spec b base : bws (b_words b) ->
  bitset_container_to_uint32_array b base = map (fun x => x + base) (filter (bget (b_words b)) (zr 0 65536)).
Proof.
  intros [Hw Hl]. unfold bitset_container_to_uint32_array. rewrite bitset_extract_setbits_spec by auto.
  now rewrite Hl.
Qed.
Lemma clear_lowest_eq w : isw w -> w <> 0 -> clear_lowest w = Z.land w (w-1).
Proof.
  intros Hw Hn. unfold clear_lowest.
  assert (E : (not64 w + 1) mod 2^64 = (- w) mod 2^64).
  { assert (not64 w = Z.lnot w mod 2^64) as ->.
    { apply isw_ext; [now apply isw_not|unfold isw; apply Z.mod_pos_bound; lia|].
      intros i Hi. rewrite tb_not by lia. rewrite Z.mod_pow2_bits_low, Z.lnot_spec by lia. reflexivity. }
    rewrite Zplus_mod_idemp_l. f_equal. unfold Z.lnot. lia. }
  rewrite E. apply isw_ext.
  - apply isw_lxor; auto. now apply isw_land.
  - now apply isw_land.
  - intros i Hi. rewrite Z.lxor_spec, !Z.land_spec. rewrite Z.mod_pow2_bits_low by lia.
    rewrite Z.bits_opp by lia. replace (Z.pred w) with (w-1) by lia.
    destruct (Z.testbit w i), (Z.testbit (w-1) i); reflexivity.
Qed.
Lemma iterate_word_eq fuel w base : isw w -> iterate_word fuel w base = extract_word fuel w base.
Proof.
  revert w. induction fuel; intros w Hw; cbn [iterate_word extract_word]; auto.
  destruct (Z.eqb_spec w 0); auto. rewrite clear_lowest_eq by auto. rewrite IHfuel; auto. now apply isw_land.
Qed.
Lemma bitset_iterate_seq_eq ws base : wfw ws -> bitset_iterate_seq ws base = bitset_extract_setbits ws base.
Proof.
  intros Hw. revert base. induction Hw; intros; [reflexivity|].
  cbn [bitset_iterate_seq bitset_extract_setbits]. rewrite iterate_word_eq, IHHw by assumption. reflexivity.
Qed.

(** ** number of runs = number of maximal intervals *)
Definition run_end (P : Z -> bool) (x : Z) : bool := P x && negb (P (x + 1)).
Lemma tb63 w : isw w -> shr64 w 63 = if Z.testbit w 63 then 1 else 0.
Proof.
  intros Hw. apply isw_ext.
  - apply isw_shr; auto; lia.
  - destruct (Z.testbit w 63); unfold isw; lia.
  - intros i Hi. rewrite tb_shr by lia. destruct (Z.eq_dec i 0) as [->|].
    + change (0+63) with 63. destruct (Z.testbit w 63); reflexivity.
    + rewrite isw_high by (auto; lia). destruct (Z.testbit w 63); [|now rewrite Z.bits_0].
      symmetry. apply Z.bits_above_log2; cbn; lia.
Qed.
Lemma nruns_word w : isw w ->
  hamming (Z.land (not64 w) (shl64 w 1)) = cnt (run_end (Z.testbit w)) 0 63.
Proof.
  intros Hw. rewrite hamming_cnt. rewrite (cnt_cons _ 0 64) by lia.
  rewrite Z.land_spec, tb_shl by lia. change (1 <=? 0) with false. rewrite andb_false_r. rewrite Z.add_0_l.
  change (0 + 1) with (0 + 1). replace 64 with (63 + 1) at 1 by lia. rewrite <- cnt_shift.
  apply cnt_ext. intros x Hx. rewrite Z.land_spec, tb_not, tb_shl by lia.
  replace (1 <=? x + 1) with true by lia. replace (x + 1 - 1) with x by lia. unfold run_end.
  cbn [andb]. apply andb_comm.
Qed.
Lemma land_bit63 w : isw w -> (Z.land w (2^63) =? 0) = negb (Z.testbit w 63).
Proof.
  intros Hw. change (2^63) with (bit 63).
  assert (E : Z.land w (bit 63) = if Z.testbit w 63 then bit 63 else 0).
  { apply isw_ext.
    - now apply isw_land.
    - destruct (Z.testbit w 63); auto using isw_0, isw_bit.
    - intros i Hi. rewrite Z.land_spec, tb_bit by lia.
      destruct (Z.eqb_spec i 63) as [->|].
      + destruct (Z.testbit w 63); [rewrite tb_bit by lia; reflexivity|now rewrite Z.bits_0].
      + rewrite andb_false_r. destruct (Z.testbit w 63); [rewrite tb_bit by lia; lia|now rewrite Z.bits_0]. }
  rewrite E. destruct (Z.testbit w 63); reflexivity.
Qed.
Lemma nruns_loop_spec rest w acc : isw w -> wfw rest ->
  nruns_loop w rest acc = acc + cnt (run_end (bget (w::rest))) 0 (64 * zlen (w::rest)).
Proof.
  revert w acc. induction rest as [|w' rest IH]; intros w acc Hw Hr; cbn [nruns_loop].
  - rewrite nruns_word, land_bit63 by auto. rewrite negb_involutive.
    change (64 * zlen [w]) with (63 + 1). rewrite cnt_snoc by lia.
    assert (cnt (run_end (bget [w])) 0 63 = cnt (run_end (Z.testbit w)) 0 63) as ->.
    { apply cnt_ext. intros x Hx. unfold run_end, bget.
      replace (x/64) with 0 by dm. replace ((x+1)/64) with 0 by dm.
      replace (x mod 64) with x by dm. replace ((x+1) mod 64) with (x+1) by dm. reflexivity. }
    assert (run_end (bget [w]) 63 = Z.testbit w 63) as ->.
    { unfold run_end, bget. change (63/64) with 0. change (63 mod 64) with 63.
      change ((63+1)/64) with 1. change ((63+1) mod 64) with 0. rewrite znth_cons_0.
      rewrite (znth_overflow [w] 1) by (unfold zlen; cbn; lia). rewrite Z.bits_0. apply andb_true_r. }
    destruct (Z.testbit w 63); lia.
  - inversion_clear Hr. rewrite IH by auto. unfold nruns_step. rewrite nruns_word by auto.
    rewrite (zlen_cons w (w'::rest)). pose proof (zlen_nonneg (w'::rest)).
    rewrite (cnt_app (run_end (bget (w::w'::rest))) 0 64) by lia.
    pose proof (cnt_snoc (run_end (bget (w::w'::rest))) 0 63 ltac:(lia)) as E63. change (63+1) with 64 in E63.
    rewrite E63. clear E63.
    assert (cnt (run_end (bget (w::w'::rest))) 0 63 = cnt (run_end (Z.testbit w)) 0 63) as ->.
    { apply cnt_ext. intros x Hx. unfold run_end, bget.
      replace (x/64) with 0 by dm. replace ((x+1)/64) with 0 by dm.
      replace (x mod 64) with x by dm. replace ((x+1) mod 64) with (x+1) by dm. reflexivity. }
    assert (cnt (run_end (bget (w::w'::rest))) 64 (64 * (zlen (w'::rest) + 1))
            = cnt (run_end (bget (w'::rest))) 0 (64 * zlen (w'::rest))) as ->.
    { change 64 with (0+64) at 1. replace (64 * (zlen (w'::rest) + 1)) with (64 * zlen (w'::rest) + 64) by lia.
      rewrite <- cnt_shift. apply cnt_ext. intros x Hx. unfold run_end.
      rewrite bget_cons by lia. replace (x + 64 + 1) with (x + 1 + 64) by lia. rewrite bget_cons by lia. reflexivity. }
    assert (Z.land (shr64 w 63) (not64 w') = if run_end (bget (w::w'::rest)) 63 then 1 else 0) as ->; [|lia].
    rewrite tb63 by auto. unfold run_end, bget. change (63/64) with 0. change (63 mod 64) with 63.
    change ((63+1)/64) with 1. change ((63+1) mod 64) with 0. rewrite znth_cons_0.
    rewrite znth_cons_pos by lia. change (1-1) with 0. rewrite znth_cons_0.
    destruct (Z.testbit w 63); cbn [andb]; [|apply Z.land_0_l].
    apply isw_ext.
    + apply isw_land. unfold isw; lia.
    + destruct (Z.testbit w' 0); cbn; unfold isw; lia.
    + intros i Hi. rewrite Z.land_spec, tb_not by lia. destruct (Z.eq_dec i 0) as [->|].
      * destruct (Z.testbit w' 0); reflexivity.
      * rewrite (Z.bits_above_log2 1 i) by (cbn; lia). cbn [andb].
        destruct (negb (Z.testbit w' 0)); [symmetry; apply Z.bits_above_log2; cbn; lia|now rewrite Z.bits_0].
Qed.
Lemma bitset_number_of_runs_spec b : bws (b_words b) ->
  bitset_container_number_of_runs b = cnt (run_end (bget (b_words b))) 0 65536.
Proof.
  intros [Hw Hl]. unfold bitset_container_number_of_runs. destruct (b_words b) as [|w rest].
  - unfold zlen in Hl. cbn in Hl. lia.
  - inversion_clear Hw. rewrite nruns_loop_spec by auto. rewrite Hl. reflexivity.
Qed.

(** ** equality, subset *)
Lemma bitset_equals_spec b1 b2 : blz b1 -> blz b2 ->
  (bitset_container_equals b1 b2 = true <-> (forall x, 0 <= x < 65536 -> bget (b_words b1) x = bget (b_words b2) x)).
Proof.
  intros [W1 C1] [W2 C2]. unfold bitset_container_equals.
  assert (Heq : (if list_eq_dec Z.eq_dec (b_words b1) (b_words b2) then true else false) = true
     <-> (forall x, 0 <= x < 65536 -> bget (b_words b1) x = bget (b_words b2) x)).
  { destruct (list_eq_dec Z.eq_dec (b_words b1) (b_words b2)) as [E|E].
    - rewrite E. tauto.
    - split; [discriminate|]. intros H. exfalso. apply E. now apply bws_ext. }
  destruct (negb (b_card b1 =? -1) && negb (b_card b2 =? -1)) eqn:E; auto.
  assert (b_card b1 = bcard (b_words b1)) as D1 by (destruct C1; auto; lia).
  assert (b_card b2 = bcard (b_words b2)) as D2 by (destruct C2; auto; lia).
  destruct (b_card b1 =? b_card b2) eqn:E2; cbn [negb].
  - destruct (b_card b1 =? 65536) eqn:E3; auto. split; auto. intros _ x Hx.
    rewrite (cnt_full_inv (bget (b_words b1)) 0 65536) by (unfold bcard in *; lia).
    rewrite (cnt_full_inv (bget (b_words b2)) 0 65536) by (unfold bcard in *; lia). reflexivity.
  - split; [discriminate|]. intros H. apply bcard_ext in H. lia.
Qed.
Lemma subset_words_spec w1 w2 : wfw w1 -> wfw w2 -> zlen w1 = zlen w2 ->
  (forallb (fun '(a, b) => Z.land a b =? a) (combine w1 w2) = true <->
   (forall x, 0 <= x < 64 * zlen w1 -> bget w1 x = true -> bget w2 x = true)).
Proof.
  intros H1. revert w2. induction H1 as [|a w1 Ha H1 IH]; intros w2 H2 Hl.
  - split; auto. intros _ x Hx. unfold zlen in Hx. cbn in Hx. lia.
  - destruct w2 as [|b w2]. { unfold zlen in Hl. cbn in Hl. lia. }
    inversion_clear H2. rewrite !zlen_cons in Hl. cbn [combine forallb].
    rewrite andb_true_iff, IH by (auto; lia). rewrite zlen_cons. split.
    + intros [Hab Hr] x Hx Hb. destruct (Z_lt_dec x 64).
      * unfold bget in *. replace (x/64) with 0 in * by dm. rewrite znth_cons_0 in *.
        apply Z.eqb_eq in Hab. rewrite <- Hab in Hb. rewrite Z.land_spec in Hb. apply andb_prop in Hb. tauto.
      * replace x with ((x-64)+64) in * by lia. rewrite bget_cons in * by lia. apply Hr; auto. lia.
    + intros Hx. split.
      * apply Z.eqb_eq, isw_ext; auto using isw_land. intros i Hi. rewrite Z.land_spec.
        destruct (Z.testbit a i) eqn:E; auto. cbn [andb].
        specialize (Hx i). unfold bget in Hx. replace (i/64) with 0 in Hx by dm. replace (i mod 64) with i in Hx by dm.
        rewrite !znth_cons_0 in Hx. apply Hx; auto. pose proof (zlen_nonneg w1). lia.
      * intros x Hx2 Hb. specialize (Hx (x+64)). rewrite !bget_cons in Hx by lia. apply Hx; auto. lia.
Qed.
Lemma bitset_is_subset_spec b1 b2 : blz b1 -> blz b2 ->
  (bitset_container_is_subset b1 b2 = true <->
   (forall x, 0 <= x < 65536 -> bget (b_words b1) x = true -> bget (b_words b2) x = true)).
Proof.
  intros [W1 C1] [W2 C2]. unfold bitset_container_is_subset.
  destruct ((negb (b_card b1 =? -1) && negb (b_card b2 =? -1)) && (b_card b2 <? b_card b1)) eqn:E.
  - split; [discriminate|]. intros H.
    pose proof (cnt_mono (bget (b_words b1)) (bget (b_words b2)) 0 65536 H) as Hm.
    unfold bcard in *. destruct C1, C2; lia.
  - destruct W1 as [H1 L1], W2 as [H2 L2]. rewrite subset_words_spec by (auto; lia). rewrite L1. reflexivity.
Qed.

(** ** minimum, maximum, next *)
Lemma word_first_bit w : isw w -> w <> 0 -> forall i, 0 <= i < 64 -> Z.testbit w i = true -> ctz w <= i.
Proof.
  intros Hw Hn i Hi H. destruct (ctz_spec w Hw Hn) as (A&B&C).
  destruct (Z_le_dec (ctz w) i); auto. rewrite C in H by lia. discriminate.
Qed.
Lemma bitset_min_loop_spec pre ws : wfw ws -> zlen (pre ++ ws) = 1024 ->
  (forall x, 0 <= x < 64 * zlen pre -> bget (pre++ws) x = false) ->
  (exists x, 0 <= x < 65536 /\ bget (pre++ws) x = true) ->
  let m := bitset_min_loop ws (zlen pre) in
  0 <= m < 65536 /\ bget (pre++ws) m = true /\ (forall x, 0 <= x < m -> bget (pre++ws) x = false).
Proof.
  intros Hw. revert pre. induction Hw as [|w ws Hw1 Hw IH]; intros pre Hl Hp Hex.
  - destruct Hex as (x&Hx&Hb). rewrite app_nil_r in *. rewrite Hp in Hb by lia. discriminate.
  - cbn [bitset_min_loop]. pose proof (zlen_nonneg pre). pose proof (zlen_nonneg ws).
    rewrite zlen_app, zlen_cons in Hl.
    assert (Hz : znth (pre ++ w :: ws) (zlen pre) = w).
    { rewrite znth_app2 by lia. rewrite Z.sub_diag. apply znth_cons_0. }
    destruct (Z.eqb_spec w 0); cbn [negb].
    + replace (pre ++ w :: ws) with ((pre ++ [w]) ++ ws) in * by (rewrite <- app_assoc; reflexivity).
      replace (zlen pre + 1) with (zlen (pre ++ [w])) by (rewrite zlen_app; unfold zlen; cbn; lia).
      apply IH; auto.
      * rewrite !zlen_app. unfold zlen in *; cbn in *; lia.
      * intros x Hx. destruct (Z_lt_dec x (64 * zlen pre)); [apply Hp; lia|].
        unfold bget. replace (x/64) with (zlen pre).
        -- rewrite Hz. subst w. apply Z.bits_0.
        -- rewrite zlen_app in Hx. assert (zlen [w] = 1) by reflexivity. dm.
    + destruct (ctz_spec w Hw1 n) as (A&B&C). split; [lia|]. split.
      * unfold bget. replace ((ctz w + zlen pre * 64)/64) with (zlen pre) by dm.
        replace ((ctz w + zlen pre * 64) mod 64) with (ctz w) by dm. now rewrite Hz.
      * intros x Hx. destruct (Z_lt_dec x (64 * zlen pre)); [apply Hp; lia|].
        unfold bget. replace (x/64) with (zlen pre) by dm. rewrite Hz. apply C. dm.
Qed.
Lemma bitset_minimum_spec b : bws (b_words b) -> (exists x, 0 <= x < 65536 /\ bget (b_words b) x = true) ->
  let m := bitset_container_minimum b in
  0 <= m < 65536 /\ bget (b_words b) m = true /\ (forall x, 0 <= x < m -> bget (b_words b) x = false).
Proof.
  intros [Hw Hl] Hex. apply (bitset_min_loop_spec [] (b_words b)); auto.
  intros x Hx. unfold zlen in Hx. cbn in Hx. lia.
Qed.
Lemma bitset_max_loop_spec fuel ws i : wfw ws -> zlen ws = 1024 -> i = Z.of_nat fuel -> i < 1024 ->
  (forall x, 64 * (i+1) <= x < 65536 -> bget ws x = false) ->
  (exists x, 64 <= x < 65536 /\ bget ws x = true) ->
  let m := bitset_max_loop fuel ws i in
  0 <= m < 65536 /\ bget ws m = true /\ (forall x, m < x < 65536 -> bget ws x = false).
Proof.
  intros Hw Hl. revert i. induction fuel; intros i Hi Hi2 Hp Hex.
  - exfalso. destruct Hex as (x&Hx&Hb). rewrite Hp in Hb by lia. discriminate.
  - cbn [bitset_max_loop]. cbn zeta. pose proof (wfw_znth ws i Hw) as Hz.
    destruct (Z.eqb_spec (znth ws i) 0); cbn [negb].
    + apply IHfuel; auto; try lia. intros x Hx. destruct (Z_lt_dec x (64*(i+1))); [|apply Hp; lia].
      unfold bget. replace (x/64) with i by dm. rewrite e. apply Z.bits_0.
    + destruct (clz_spec _ Hz n) as (A&B&C). cbn zeta in *.
      replace (i*64 + 63 - clz (znth ws i)) with (i*64 + (63 - clz (znth ws i))) by lia.
      set (m := 63 - clz (znth ws i)) in *. split; [lia|]. split.
      * unfold bget. replace ((i*64+m)/64) with i by dm. replace ((i*64+m) mod 64) with m by dm. auto.
      * intros x Hx. destruct (Z_lt_dec x (64*(i+1))); [|apply Hp; lia].
        unfold bget. replace (x/64) with i by dm. apply C. dm.
Qed.
(** needs a set bit at or above 64: true for every bitset with more than 64 values *)
Lemma bitset_maximum_spec b : bws (b_words b) -> 64 < bcard (b_words b) ->
  let m := bitset_container_maximum b in
  0 <= m < 65536 /\ bget (b_words b) m = true /\ (forall x, m < x < 65536 -> bget (b_words b) x = false).
Proof.
  intros [Hw Hl] Hc. unfold bitset_container_maximum. apply bitset_max_loop_spec; auto; try lia.
  destruct (Z.eq_dec (cnt (bget (b_words b)) 64 65536) 0) as [E|E].
  - unfold bcard in Hc. rewrite (cnt_app _ 0 64) in Hc by lia.
    pose proof (cnt_bound (bget (b_words b)) 0 64). lia.
  - unfold cnt in E. destruct (filter (bget (b_words b)) (zr 64 65536)) as [|x l] eqn:F.
    + unfold zlen in E. cbn in E. lia.
    + exists x. assert (In x (filter (bget (b_words b)) (zr 64 65536))) by (rewrite F; now left).
      rewrite filter_In, zr_In in H. tauto.
Qed.
Lemma bitset_next_loop_spec fuel ws k word x0 : wfw ws -> zlen ws = 1024 -> 0 <= k < 1024 ->
  1024 - k <= Z.of_nat fuel -> isw word -> 0 <= x0 < 64*(k+1) ->
  (forall i, 0 <= i < 64 -> Z.testbit word i = bget ws (64*k+i) && (x0 <=? 64*k+i)) ->
  (forall x, x0 <= x < 64*k -> bget ws x = false) ->
  let r := bitset_next_loop fuel ws k word in
  (r = -1 /\ forall x, x0 <= x < 65536 -> bget ws x = false) \/
  (x0 <= r < 65536 /\ bget ws r = true /\ forall x, x0 <= x < r -> bget ws x = false).
Proof.
  intros Hw Hl. revert k word. induction fuel; intros k word Hk Hf Hword Hx0 Hb Hp; [lia|].
  cbn [bitset_next_loop]. destruct (Z.eqb_spec word 0).
  - assert (Hp' : forall x, x0 <= x < 64*(k+1) -> bget ws x = false).
    { intros x Hx. destruct (Z_lt_dec x (64*k)); [apply Hp; lia|].
      specialize (Hb (x - 64*k)). replace (64*k+(x-64*k)) with x in Hb by lia.
      rewrite e, Z.bits_0 in Hb. replace (x0 <=? x) with true in Hb by lia. rewrite andb_true_r in Hb.
      symmetry. apply Hb. lia. }
    destruct (k + 1 =? 1024) eqn:E.
    + left. split; auto. intros. apply Hp'. lia.
    + apply IHfuel; auto; try lia; [now apply wfw_znth|]. intros i Hi. replace (x0 <=? 64*(k+1)+i) with true by lia. 
        rewrite andb_true_r. unfold bget. replace ((64*(k+1)+i)/64) with (k+1) by dm.
        replace ((64*(k+1)+i) mod 64) with i by dm. reflexivity.
  - right. destruct (ctz_spec word Hword n) as (A&B&C). rewrite Hb in B by lia.
    apply andb_prop in B. replace (k*64 + ctz word) with (64*k + ctz word) by lia.
    split; [lia|]. split; [tauto|]. intros x Hx.
    destruct (Z_lt_dec x (64*k)); [apply Hp; lia|].
    specialize (C (x - 64*k)). rewrite Hb in C by lia. replace (64*k+(x-64*k)) with x in C by lia.
    replace (x0 <=? x) with true in C by lia. rewrite andb_true_r in C. apply C. lia.
Qed.

Lemma bitset_index_eol_spec b x0 : bws (b_words b) -> 0 <= x0 < 65536 ->
  let r := bitset_container_index_equalorlarger b x0 in
  (r = -1 /\ forall x, x0 <= x < 65536 -> bget (b_words b) x = false) \/
  (x0 <= r < 65536 /\ bget (b_words b) r = true /\ forall x, x0 <= x < r -> bget (b_words b) x = false).
Proof.
  intros [Hw Hl] Hx. unfold bitset_container_index_equalorlarger.
  replace (x0 - x0/64*64) with (x0 mod 64) by dm.
  apply bitset_next_loop_spec; auto; try lia; try dm.
  - apply isw_shl.
  - intros i Hi. rewrite tb_shl by dm. destruct (x0 mod 64 <=? i) eqn:E; cbn [andb].
    + rewrite tb_shr by lia. replace (i - x0 mod 64 + x0 mod 64) with i by lia.
      unfold bget. replace ((64*(x0/64)+i)/64) with (x0/64) by dm.
      replace ((64*(x0/64)+i) mod 64) with i by dm. replace (x0 <=? 64*(x0/64)+i) with true by dm.
      now rewrite andb_true_r.
    + replace (x0 <=? 64*(x0/64)+i) with false by dm. now rewrite andb_false_r.
Qed.

(** ** rank *)
Lemma smear_spec x b : 0 <= x -> 0 <= b < 64 -> Z.testbit (smear x) b = (b <=? x mod 64).
Proof.
  intros Hx Hb. unfold smear, shl64. rewrite Z.shiftl_mul_pow2, Z.mul_1_l by dm.
  assert (Hm : 0 <= x mod 64 < 64) by dm. set (k := x mod 64) in *. clearbody k.
  assert (0 < 2^k < 2^64) by (split; [apply Z.pow_pos_nonneg; lia|apply Z.pow_lt_mono_r; lia]).
  rewrite (Z.mod_small (2^k)) by lia.
  replace (2^k + 2^k - 1) with (Z.ones (k+1)).
  2:{ rewrite Z.ones_equiv. rewrite Z.pow_add_r by lia. lia. }
  rewrite Z.mod_pow2_bits_low by lia.
  destruct (b <=? k) eqn:E; [apply Z.ones_spec_low|apply Z.ones_spec_high]; lia.
Qed.
Lemma hamming_smear ws x : wfw ws -> 0 <= x ->
  hamming (Z.land (znth ws (x/64)) (smear x)) = cnt (bget ws) (64*(x/64)) (x+1).
Proof.
  intros Hw Hx. rewrite (hamming_mask _ _ 0 (x mod 64 + 1)).
  - rewrite cnt_word by dm. f_equal; dm.
  - dm.
  - dm.
  - intros b Hb. rewrite smear_spec by lia. lia.
Qed.
Lemma bitset_rank_spec b x : bws (b_words b) -> 0 <= x < 65536 ->
  bitset_container_rank b x = cnt (bget (b_words b)) 0 (x+1).
Proof.
  intros [Hw Hl] Hx. unfold bitset_container_rank. rewrite fold_hamming by dm.
  rewrite hamming_smear by (auto; lia). rewrite (cnt_app _ 0 (64*(x/64)) (x+1)) by dm.
  rewrite Z.mul_0_r. lia.
Qed.
Lemma bitset_get_index_spec b x : bws (b_words b) -> 0 <= x < 65536 ->
  bitset_container_get_index b x = if bget (b_words b) x then cnt (bget (b_words b)) 0 x else -1.
Proof.
  intros Hb Hx. unfold bitset_container_get_index. rewrite bitset_get_spec by lia.
  destruct (bget (b_words b) x) eqn:E; auto. rewrite bitset_rank_spec by auto.
  rewrite cnt_snoc by lia. rewrite E. lia.
Qed.
(** queries: non-decreasing; answers the maximal prefix sharing the key [high] *)
Fixpoint same_key_prefix (high : Z) (qs : list Z) : list Z :=
  match qs with
  | [] => []
  | x :: qs' => if Z.shiftr x 16 =? high then x :: same_key_prefix high qs' else []
  end.
Lemma bitset_rank_many_loop_spec ws high sr i sum qs : wfw ws -> zlen ws = 1024 ->
  0 <= i -> sum = cnt (bget ws) 0 (64*i) ->
  Sorted Z.le qs -> (forall q, In q qs -> 0 <= q) ->
  (forall q, In q qs -> Z.shiftr q 16 = high -> i <= (q mod 65536)/64) ->
  bitset_rank_many_loop ws high sr i sum qs =
  map (fun q => sr + cnt (bget ws) 0 (q mod 65536 + 1)) (same_key_prefix high qs).
Proof.
  intros Hw Hl. revert i sum. induction qs as [|q qs IH]; intros i sum Hi Hsum Hs Hnn Hge; auto.
  cbn [bitset_rank_many_loop same_key_prefix].
  destruct (Z.eqb_spec (Z.shiftr q 16) high) as [E|]; cbn [negb]; auto. cbn [map]. cbn zeta.
  pose proof (Hge q (or_introl eq_refl) E) as Hiq. rewrite Z.max_r by lia.
  assert (0 <= q mod 65536) by dm.
  rewrite fold_hamming by lia.
  rewrite hamming_smear by (auto; lia).
  assert (Hsum' : sum + cnt (bget ws) (64 * i) (64 * (q mod 65536 / 64)) = cnt (bget ws) 0 (64 * (q mod 65536 / 64))).
  { rewrite Hsum. rewrite (cnt_app _ 0 (64*i) (64 * (q mod 65536 / 64))) by lia. lia. }
  rewrite Hsum'. f_equal.
  - rewrite (cnt_app _ 0 (64 * (q mod 65536/64)) (q mod 65536 + 1)) by dm. lia.
  - apply IH; auto; try lia.
    + now inversion_clear Hs.
    + intros; apply Hnn; now right.
    + intros q' Hq' E'. apply Sorted_StronglySorted in Hs; [|intros ? ? ?; lia].
      inversion_clear Hs. rewrite Forall_forall in H1. specialize (H1 _ Hq').
      rewrite Z.shiftr_div_pow2 in E, E' by lia. change (2^16) with 65536 in *. dm.
Qed.
Lemma bitset_rank_many_spec b sr q qs : bws (b_words b) ->
  Sorted Z.le (q::qs) -> (forall q', In q' (q::qs) -> 0 <= q') ->
  bitset_container_rank_many b sr (q::qs) =
  map (fun q => sr + cnt (bget (b_words b)) 0 (q mod 65536 + 1)) (same_key_prefix (Z.shiftr q 16) (q::qs)).
Proof.
  intros [Hw Hl] Hs Hn. unfold bitset_container_rank_many.
  apply bitset_rank_many_loop_spec; auto; try lia.
  all: first [rewrite cnt_nil; lia | intros; dm].
Qed.

(** ** select *)
Lemma select_word_spec fuel w base sr rank : isw w -> cnt (Z.testbit w) 0 64 <= Z.of_nat fuel ->
  0 <= sr <= rank -> rank < 2^32 ->
  let n := cnt (Z.testbit w) 0 64 in
  if rank <? sr + n then
    exists j, 0 <= j < 64 /\ select_word fuel w base sr rank = (Some (j + base), rank) /\
              Z.testbit w j = true /\ cnt (Z.testbit w) 0 j = rank - sr
  else sr + n < 2^32 -> select_word fuel w base sr rank = (None, sr + n).
Proof.
  revert w sr. induction fuel; intros w sr Hw Hf Hsr Hr; cbn zeta.
  - pose proof (cnt_bound (Z.testbit w) 0 64). replace (rank <? _) with false by lia.
    intros. cbn [select_word]. f_equal. lia.
  - cbn [select_word]. destruct (Z.eqb_spec w 0) as [->|Hn].
    + rewrite (cnt_none _ 0 64) by (intros; apply Z.bits_0). replace (rank <? sr + 0) with false by lia.
      intros. f_equal. lia.
    + destruct (ctz_spec w Hw Hn) as (A&B&C).
      assert (Hpos : 1 <= cnt (Z.testbit w) 0 64).
      { rewrite (cnt_app _ 0 (ctz w)) by lia. rewrite (cnt_cons _ (ctz w)) by lia. rewrite B.
        pose proof (cnt_bound (Z.testbit w) 0 (ctz w)). pose proof (cnt_bound (Z.testbit w) (ctz w + 1) 64). lia. }
      assert (Hc0 : cnt (Z.testbit w) 0 (ctz w) = 0) by (apply cnt_none; auto).
      destruct (Z.eqb_spec sr rank) as [->|Hne].
      * replace (rank <? rank + _) with true by lia. exists (ctz w). repeat split; auto; lia.
      * assert (Hb : forall i, 0 <= i < 64 -> Z.testbit (clear_lowest w) i = Z.testbit w i && negb (i =? ctz w)).
        { intros. rewrite clear_lowest_eq by auto. now apply land_pred_tb. }
        assert (Hi : isw (clear_lowest w)) by (rewrite clear_lowest_eq by auto; now apply isw_land).
        assert (Hcn : forall j, ctz w < j <= 64 -> cnt (Z.testbit (clear_lowest w)) 0 j = cnt (Z.testbit w) 0 j - 1).
        { intros j Hj. rewrite (cnt_upd (Z.testbit w) (Z.testbit (clear_lowest w)) 0 j (ctz w)).
          - rewrite Hb, B, Z.eqb_refl by lia. cbn. lia.
          - lia.
          - intros. rewrite Hb by lia. replace (x =? ctz w) with false by lia. apply andb_true_r. }
        pose proof (Hcn 64 ltac:(lia)) as H64.
        rewrite (Z.mod_small (sr+1)) by lia.
        specialize (IHfuel (clear_lowest w) (sr+1) Hi ltac:(lia) ltac:(lia) Hr). cbn zeta in IHfuel.
        rewrite H64 in IHfuel. replace (sr + 1 + (cnt (Z.testbit w) 0 64 - 1)) with (sr + cnt (Z.testbit w) 0 64) in IHfuel by lia.
        destruct (rank <? sr + cnt (Z.testbit w) 0 64); auto.
        destruct IHfuel as (j&J0&J1&J2&J3). exists j. rewrite Hb in J2 by lia. apply andb_prop in J2.
        destruct J2 as [J2 J4]. assert (ctz w < j).
        { destruct (Z_lt_dec j (ctz w)); [rewrite C in J2 by lia; discriminate|]. lia. }
        rewrite Hcn in J3 by lia. repeat split; auto; lia.
Qed.
Lemma select_words_spec ws pre sr rank : wfw ws ->
  let all := pre ++ ws in let i := zlen pre in let n := 64 * zlen all in
  0 <= sr <= rank -> rank < 2^32 ->
  rank < sr + cnt (bget all) (64*i) n -> sr + cnt (bget all) (64*i) n < 2^32 ->
  exists x, 64*i <= x < n /\ fst (select_words ws i sr rank) = Some x /\ snd (select_words ws i sr rank) = rank /\
     bget all x = true /\ cnt (bget all) (64*i) x = rank - sr.
Proof.
  intros Hw. revert pre sr. induction Hw as [|w ws Hw1 Hw IH]; intros pre sr all i n Hsr Hr Hlt Hb.
  - exfalso. subst all i n. rewrite app_nil_r in *. rewrite cnt_nil in Hlt; lia.
  - cbn [select_words]. cbn zeta. pose proof (zlen_nonneg pre) as Hp. pose proof (zlen_nonneg ws) as Hws.
    assert (Hn : n = 64 * (i + 1 + zlen ws)).
    { subst n i all. rewrite zlen_app, zlen_cons. lia. }
    assert (Hz : znth all i = w).
    { subst all i. rewrite znth_app2 by lia. rewrite Z.sub_diag. apply znth_cons_0. }
    assert (Hh : hamming w = cnt (bget all) (64*i) (64*i+64)).
    { rewrite <- Hz. apply hamming_word. lia. }
    assert (Hh2 : hamming w = cnt (Z.testbit w) 0 64) by apply hamming_cnt.
    assert (Hsplit : cnt (bget all) (64*i) n = hamming w + cnt (bget all) (64*i+64) n).
    { rewrite Hh. apply cnt_app; lia. }
    pose proof (cnt_bound (bget all) (64*i+64) n) as Hb1. pose proof (cnt_bound (bget all) (64*i) (64*i+64)) as Hb2.
    rewrite (Z.mod_small (sr + hamming w)) by lia.
    assert (Hall : all = (pre ++ [w]) ++ ws) by (subst all; rewrite <- app_assoc; reflexivity).
    assert (Hi1 : i + 1 = zlen (pre ++ [w])) by (rewrite zlen_app; reflexivity).
    assert (Hcont : forall sr', sr' = sr + hamming w -> sr' <= rank ->
      exists x, 64*i <= x < n /\ fst (select_words ws (i+1) sr' rank) = Some x /\ snd (select_words ws (i+1) sr' rank) = rank /\
        bget all x = true /\ cnt (bget all) (64*i) x = rank - sr).
    { intros sr' Hsr' Hle. specialize (IH (pre ++ [w]) sr'). cbn zeta in IH. rewrite <- Hall, <- Hi1 in IH.
      change (64 * zlen all) with n in IH. replace (64*(i+1)) with (64*i+64) in IH by lia.
      destruct IH as (x&X1&X2&X3&X4&X5); try lia.
      exists x. repeat split; auto; try lia. rewrite (cnt_app _ (64*i) (64*i+64) x) by lia. lia. }
    destruct (rank <=? sr + hamming w) eqn:E.
    + pose proof (select_word_spec 64 w (i*64) sr rank Hw1) as Hsw. cbn zeta in Hsw. rewrite <- Hh2 in Hsw.
      specialize (Hsw ltac:(lia) Hsr Hr).
      destruct (rank <? sr + hamming w) eqn:E2.
      * destruct Hsw as (j&J0&J1&J2&J3). rewrite J1. exists (64*i+j). cbn [fst snd].
        repeat split; try lia; [f_equal; lia| |].
        -- unfold bget. replace ((64*i+j)/64) with i by dm. replace ((64*i+j) mod 64) with j by dm. now rewrite Hz.
        -- rewrite <- J3. rewrite <- Hz. rewrite cnt_word by lia. f_equal; lia.
      * rewrite Hsw by lia. apply Hcont; lia.
    + apply Hcont; lia.
Qed.
(** select when the running rank does not wrap around 2^32 *)
Lemma bitset_select_spec b sr rank : bwf b -> 0 <= sr <= rank -> rank < 2^32 ->
  sr + b_card b < 2^32 ->
  let P := bget (b_words b) in
  if rank <? sr + b_card b then
    exists x, 0 <= x < 65536 /\ fst (bitset_container_select b sr rank) = Some x /\ P x = true /\ cnt P 0 x = rank - sr
  else bitset_container_select b sr rank = (None, sr + b_card b).
Proof.
  intros [[Hw Hl] Hc] Hsr Hr Hwr. cbn zeta. unfold bitset_container_select.
  pose proof (bcard_bound (b_words b)). rewrite (Z.mod_small (sr + b_card b)) by lia.
  destruct (rank <? sr + b_card b) eqn:E.
  - replace (sr + b_card b <=? rank) with false by lia.
    pose proof (select_words_spec (b_words b) [] sr rank Hw) as H2. cbn zeta in H2.
    cbn [app] in H2. rewrite Hl in H2. change (zlen []) with 0 in H2.
    change (64*0) with 0 in H2. change (64 * 1024) with 65536 in H2. unfold bcard in Hc.
    destruct H2 as (x&X1&X2&X3&X4&X5); try lia. exists x. auto.
  - replace (sr + b_card b <=? rank) with true by lia. reflexivity.
Qed.

(** ** validate *)
Lemma bitset_validate_spec b : bws (b_words b) ->
  (bitset_container_validate b = true <-> bwf b /\ 4096 < b_card b).
Proof.
  intros H. unfold bitset_container_validate. rewrite compute_cardinality_spec by auto. unfold bwf.
  destruct (Z.eqb_spec (b_card b) (bcard (b_words b))); cbn [negb].
  - destruct (b_card b <=? 4096) eqn:E; split; intros; try tauto; try discriminate.
    + lia.
    + split; [tauto|lia].
  - split; [discriminate|]. tauto.
Qed.

(** ** offset *)
Lemma znth_map_zr f n j : 0 <= j < n -> znth (map f (zr 0 n)) j = f j.
Proof.
  intros. unfold znth. rewrite nth_indep with (d' := f 0).
  - rewrite map_nth. pose proof (zr_znth 0 n j) as E. unfold znth in E. rewrite E by lia. f_equal.
  - rewrite map_length. pose proof (zr_zlen 0 n ltac:(lia)) as H0. unfold zlen in H0. lia.
Qed.
Lemma bws_map_zr f : (forall j, 0 <= j < 1024 -> isw (f j)) -> bws (map f (zr 0 1024)).
Proof.
  intros H. split.
  - apply Forall_forall. intros w Hw. apply in_map_iff in Hw. destruct Hw as (j&<-&Hj). apply zr_In in Hj. auto.
  - rewrite zlen_map. rewrite zr_zlen; lia.
Qed.
Lemma offset_word_isw ws k i : wfw ws -> 0 <= i <= 64 -> isw (offset_word ws k i).
Proof. intros. apply isw_lor; [apply isw_shl|apply isw_shr; [now apply wfw_znth|lia]]. Qed.
(** bit j of word k of the shifted bitset *)
Lemma offset_word_tb ws k i j : wfw ws -> 1 <= k -> 0 < i < 64 -> 0 <= j < 64 ->
  Z.testbit (offset_word ws k i) j = bget ws (64*k + j - i).
Proof.
  intros Hw Hk Hi Hj. unfold offset_word. rewrite Z.lor_spec, tb_shl, tb_shr by lia.
  unfold bget. destruct (i <=? j) eqn:E; cbn [andb].
  - rewrite (isw_high (znth ws (k-1))) by (first [now apply wfw_znth | lia]). rewrite orb_false_r.
    f_equal; [f_equal|]; dm.
  - cbn [orb]. f_equal; [f_equal|]; dm.
Qed.
Lemma bitset_offset_lo_spec ws off : bws ws -> 0 <= off < 65536 ->
  let lo := bitset_offset_lo ws (off/64) (off mod 64) in
  bws lo /\ forall x, 0 <= x < 65536 -> bget lo x = (off <=? x) && bget ws (x - off).
Proof.
  intros [Hw Hl] Ho. cbn zeta. unfold bitset_offset_lo. split.
  - apply bws_map_zr. intros j Hj.
    destruct (j <? off/64); auto using isw_0. destruct (off mod 64 =? 0); auto using wfw_znth.
    destruct (j =? off/64); [apply isw_shl|apply offset_word_isw; [auto|dm]].
  - intros x Hx. unfold bget at 1. rewrite znth_map_zr by dm.
    destruct (x/64 <? off/64) eqn:E1.
    { rewrite Z.bits_0. replace (off <=? x) with false by dm. reflexivity. }
    destruct (off mod 64 =? 0) eqn:E2.
    { replace (off <=? x) with true by dm. cbn [andb]. unfold bget. f_equal; [f_equal|]; dm. }
    destruct (x/64 =? off/64) eqn:E3.
    { rewrite tb_shl by dm. destruct (off mod 64 <=? x mod 64) eqn:E4; cbn [andb].
      - replace (off <=? x) with true by dm. cbn [andb]. unfold bget. f_equal; [f_equal|]; dm.
      - replace (off <=? x) with false by dm. reflexivity. }
    rewrite offset_word_tb by (auto; dm). replace (off <=? x) with true by dm. cbn [andb]. f_equal. dm.
Qed.
Lemma bitset_offset_hi_spec ws off : bws ws -> 0 <= off < 65536 ->
  let hi := bitset_offset_hi ws (off/64) (off mod 64) in
  bws hi /\ forall x, 0 <= x < 65536 -> bget hi x = (x <? off) && bget ws (x + 65536 - off).
Proof.
  intros [Hw Hl] Ho. cbn zeta. unfold bitset_offset_hi. split.
  - apply bws_map_zr. intros j Hj.
    destruct (off mod 64 =? 0). { destruct (j <? off/64); auto using isw_0, wfw_znth. }
    destruct (j <? off/64). { apply offset_word_isw; [auto|dm]. }
    destruct (j =? off/64); auto using isw_0. apply isw_shr; [now apply wfw_znth|dm].
  - intros x Hx. unfold bget at 1. rewrite znth_map_zr by dm.
    destruct (off mod 64 =? 0) eqn:E2.
    { destruct (x/64 <? off/64) eqn:E1.
      - replace (x <? off) with true by dm. cbn [andb]. unfold bget. f_equal; [f_equal|]; dm.
      - rewrite Z.bits_0. replace (x <? off) with false by dm. reflexivity. }
    destruct (x/64 <? off/64) eqn:E1.
    { rewrite offset_word_tb by (auto; dm). replace (x <? off) with true by dm. cbn [andb]. f_equal. dm. }
    destruct (x/64 =? off/64) eqn:E3.
    { rewrite tb_shr by dm. destruct (x <? off) eqn:E4; cbn [andb].
      - unfold bget. f_equal; [f_equal|]; dm.
      - apply isw_high; [now apply wfw_znth|]. dm. }
    rewrite Z.bits_0. replace (x <? off) with false by dm. reflexivity.
Qed.
Definition obw (o : option bset) (P : Z -> bool) : Prop :=
  match o with
  | Some b => bwf b /\ 0 < b_card b /\ forall x, 0 <= x < 65536 -> bget (b_words b) x = P x
  | None => forall x, 0 <= x < 65536 -> P x = false
  end.
Lemma obw_words ws P : bws ws -> (forall x, 0 <= x < 65536 -> bget ws x = P x) ->
  obw (let b := (bitset_container_compute_cardinality ws, ws) in if b_card b =? 0 then None else Some b) P.
Proof.
  intros Hw HP. cbn zeta. unfold b_card at 1. cbn [fst]. rewrite compute_cardinality_spec by auto.
  pose proof (bcard_bound ws). destruct (bcard ws =? 0) eqn:E; cbn [obw].
  - intros x Hx. rewrite <- HP by auto. apply (cnt_none_inv (bget ws) 0 65536); auto. unfold bcard in *. lia.
  - split; [|split; auto; unfold b_card; cbn; lia]. split; auto.
Qed.
Lemma bitset_offset_spec c wantlo wanthi off : bwf c -> 0 <= off < 65536 ->
  let r := bitset_container_offset c wantlo wanthi off in
  (wantlo = true -> obw (fst r) (fun x => (off <=? x) && bget (b_words c) (x - off))) /\
  (wanthi = true -> obw (snd r) (fun x => (x <? off) && bget (b_words c) (x + 65536 - off))).
Proof.
  intros [Hw Hc] Ho. cbn zeta. unfold bitset_container_offset. rewrite shiftr6.
  destruct (bitset_offset_lo_spec (b_words c) off Hw Ho) as [L1 L2].
  destruct (bitset_offset_hi_spec (b_words c) off Hw Ho) as [H1 H2].
  pose proof (obw_words _ _ L1 L2) as OL. pose proof (obw_words _ _ H1 H2) as OH. cbn zeta in OL, OH.
  set (lows := bitset_offset_lo (b_words c) (off/64) (off mod 64)) in *.
  set (hiws := bitset_offset_hi (b_words c) (off/64) (off mod 64)) in *.
  set (lo := (bitset_container_compute_cardinality lows, lows)) in *.
  set (hi := (bitset_container_compute_cardinality hiws, hiws)) in *. cbn zeta.
  assert (Hlo : wantlo = true -> obw (if wantlo && negb (b_card lo =? 0) then Some lo else None)
                   (fun x => (off <=? x) && bget (b_words c) (x - off))).
  { intros ->. cbn [andb]. destruct (b_card lo =? 0); exact OL. }
  destruct (wantlo && (b_card lo =? b_card c)) eqn:E; cbn [fst snd].
  - split; auto. intros _ x Hx. apply andb_prop in E. destruct E as [_ E].
    unfold lo, b_card at 1 in E. cbn [fst] in E. rewrite compute_cardinality_spec in E by auto.
    destruct (x <? off) eqn:Ex; auto. cbn [andb].
    (* all of c is below 65536-off *)
    assert (Hs : bcard lows = cnt (bget (b_words c)) 0 (65536 - off)).
    { unfold bcard. rewrite (cnt_app _ 0 off 65536) by lia. rewrite (cnt_none (bget lows) 0 off).
      2:{ intros. rewrite L2 by lia. replace (off <=? x0) with false by lia. reflexivity. }
      rewrite (cnt_ext (bget lows) (fun x => bget (b_words c) (x + - off))).
      - rewrite cnt_shift. rewrite Z.add_0_l. replace (off + - off) with 0 by lia. replace (65536 + - off) with (65536 - off) by lia. exact eq_refl.
      - intros. rewrite L2 by lia. replace (off <=? x0) with true by lia. rewrite Z.add_opp_r. reflexivity. }
    unfold bcard in Hc, Hs, E. rewrite (cnt_app _ 0 (65536-off) 65536) in Hc by lia.
    apply (cnt_none_inv (bget (b_words c)) (65536-off) 65536); lia.
  - destruct wanthi; cbn [negb fst snd]; split; auto. discriminate.
Qed.

(** ** add_from_range *)
Lemma repeated_mask_spec fuel v step m b : isw m -> 0 <= v -> 0 < step -> 64 - v <= Z.of_nat fuel -> 0 <= b < 64 ->
  isw (repeated_mask fuel v step m) /\
  Z.testbit (repeated_mask fuel v step m) b = Z.testbit m b || ((v <=? b) && ((b - v) mod step =? 0)).
Proof.
  revert v m. induction fuel; intros v m Hm Hv Hs Hf Hb; cbn [repeated_mask].
  - split; auto. replace (v <=? b) with false by lia. now rewrite orb_false_r.
  - destruct (v <? 64) eqn:E.
    + destruct (IHfuel (v+step) (Z.lor m (shl64 1 v))) as [I1 I2]; auto; try lia.
      { apply isw_lor; auto. apply isw_shl. }
      split; auto. rewrite I2, Z.lor_spec. change (shl64 1 v) with (bit v). rewrite tb_bit by lia.
      rewrite <- orb_assoc. f_equal. destruct (Z.eqb_spec b v) as [->|].
      * rewrite Z.sub_diag, Z.mod_0_l by lia. replace (v <=? v) with true by lia. reflexivity.
      * cbn [orb]. replace ((b - (v+step)) mod step) with ((b - v) mod step).
        2:{ replace (b - (v+step)) with (b - v + (-1)*step) by lia. now rewrite Z.mod_add by lia. }
        destruct ((b - v) mod step =? 0) eqn:Em; [|now rewrite !andb_false_r]. rewrite !andb_true_r.
        destruct (v <=? b) eqn:Ev; [|lia].
        assert (step <= b - v). { apply Z.eqb_eq in Em. apply Z.mod_divide in Em; [|lia]. destruct Em as [q Eq]. assert (0 < q) by (apply (Z.mul_pos_cancel_r q step); lia). nia. }
        lia.
    + split; auto. replace (v <=? b) with false by lia. now rewrite orb_false_r.
Qed.
Lemma step_mod64 step x min : 0 < step -> 64 mod step = 0 ->
  ((x mod 64) - (min mod step)) mod step = (x - min) mod step.
Proof.
  intros Hs Hd. apply Z.mod_divide in Hd; [|lia]. destruct Hd as [q Hq].
  rewrite Zminus_mod_idemp_r. rewrite (Z.mod_eq x 64) by lia. rewrite Hq at 1.
  replace (x - q * step * (x/64) - min) with (x - min + (- (q * (x/64))) * step) by lia.
  now rewrite Z.mod_add by lia.
Qed.
Definition stepin (min max step x : Z) : bool := (min <=? x) && (x <? max) && ((x - min) mod step =? 0).
Lemma cnt_stepin min max step : 0 <= min <= max -> max <= 65536 -> 0 < step ->
  cnt (stepin min max step) 0 65536 = (max - min + step - 1) / step.
Proof.
  intros [H0 H1] H2 Hs. rewrite (cnt_app _ 0 min 65536), (cnt_app _ min max 65536) by lia.
  rewrite (cnt_none _ 0 min) by (unfold stepin; intros; lia).
  rewrite (cnt_none _ max 65536) by (unfold stepin; intros; lia).
  rewrite (cnt_ext _ (fun x => (x - min) mod step =? 0)).
  2:{ intros. unfold stepin. lia. }
  clear H2. remember (Z.to_nat (max - min)) as n. revert max H1 Heqn. induction n; intros.
  - rewrite cnt_nil by lia. replace (max - min + step - 1) with (step - 1) by lia. rewrite Z.div_small; lia.
  - replace max with ((max-1)+1) at 1 by lia. rewrite cnt_snoc by lia.
    specialize (IHn (max-1) ltac:(lia) ltac:(lia)).
    replace (max - min + step - 1) with (max - 1 - min + 1 * step) by lia. rewrite Z.div_add by lia.
    pose proof (Z.div_mod (max-1-min) step ltac:(lia)) as Hdm. pose proof (Z.mod_pos_bound (max-1-min) step Hs) as Hr.
    set (q := (max-1-min)/step) in *. set (r := (max-1-min) mod step) in *.
    assert (IHn' : cnt (fun x => (x-min) mod step =? 0) min (max-1) = (max - 1 - min + step - 1)/step) by lia.
    rewrite IHn'. rewrite Hdm. destruct (Z.eqb_spec r 0) as [E|E].
    + replace (step * q + r + step - 1) with (step - 1 + q * step) by lia. rewrite Z.div_add by lia.
      rewrite Z.div_small by lia. lia.
    + replace (step * q + r + step - 1) with (r - 1 + (q+1) * step) by lia. rewrite Z.div_add by lia.
      rewrite Z.div_small by lia. lia.
Qed.
Lemma add_stepping_spec fuel b v max step : bwf b -> 0 <= v -> max <= 65536 -> 0 < step -> max - v <= Z.of_nat fuel ->
  bwf (add_stepping fuel b v max step) /\
  (forall y, 0 <= y < 65536 -> bget (b_words (add_stepping fuel b v max step)) y = bget (b_words b) y || stepin v max step y).
Proof.
  revert b v. induction fuel; intros b v Hb Hv Hm Hs Hf; cbn [add_stepping].
  - split; auto. intros. unfold stepin. replace ((v <=? y) && (y <? max)) with false by lia. now rewrite orb_false_r.
  - destruct (v <? max) eqn:E.
    + destruct (bitset_add_spec b v Hb ltac:(lia)) as (A1&A2&_).
      destruct (IHfuel _ (v+step) A1 ltac:(lia) Hm Hs ltac:(lia)) as [B1 B2].
      split; auto. intros y Hy. rewrite B2, A2 by lia. rewrite <- orb_assoc. f_equal. unfold stepin.
      replace ((y - (v+step)) mod step) with ((y - v) mod step).
      2:{ replace (y - (v+step)) with (y - v + (-1)*step) by lia. now rewrite Z.mod_add by lia. }
      destruct (Z.eqb_spec y v) as [->|].
      * rewrite Z.sub_diag, Z.mod_0_l by lia. cbn [orb]. lia.
      * cbn [orb]. destruct ((y - v) mod step =? 0) eqn:Em; [|now rewrite !andb_false_r]. rewrite !andb_true_r.
        destruct (v <=? y) eqn:Ev; [|lia].
        assert (step <= y - v). { apply Z.eqb_eq in Em. apply Z.mod_divide in Em; [|lia]. destruct Em as [q Eq]. assert (0 < q) by (apply (Z.mul_pos_cancel_r q step); lia). nia. }
        lia.
    + split; auto. intros. unfold stepin. replace ((v <=? y) && (y <? max)) with false by lia. now rewrite orb_false_r.
Qed.
(** called on an empty bitset only (container_from_range) *)
Lemma bitset_add_from_range_spec min max step : 0 <= min < max -> max <= 65536 -> 0 < step ->
  let b := bitset_container_add_from_range bitset_container_create min max step in
  bwf b /\ forall y, 0 <= y < 65536 -> bget (b_words b) y = stepin min max step y.
Proof.
  intros Hmm Hmax Hs. cbn zeta. unfold bitset_container_add_from_range.
  assert (Q1 : 0 <= min/64 <= (max-1)/64 /\ (max-1)/64 < 1024) by dm.
  assert (Q2 : forall y, y/64 < min/64 -> y < min) by (intros; dm).
  assert (Q3 : forall y, (max-1)/64 < y/64 -> max <= y) by (intros; dm).
  assert (Q4 : forall y, min/64 < y/64 -> min < y) by (intros; dm).
  assert (Q5 : forall y, y/64 < (max-1)/64 -> y < max) by (intros; dm).
  replace (step =? 0) with false by lia. destruct (Z.eqb_spec (64 mod step) 0) as [Hd|Hd].
  2:{ destruct (add_stepping_spec (Z.to_nat (max - min)) bitset_container_create min max step create_bwf
        ltac:(lia) ltac:(lia) Hs ltac:(lia)) as [A B]. split; [exact A|]. intros y Hy. rewrite B by auto.
      unfold bitset_container_create, b_words. cbn [snd]. rewrite bget_zero by lia. reflexivity. }
  cbn zeta.
  set (mask := repeated_mask 64 (min mod step) step 0).
  assert (Hstep64 : step <= 64). { apply Z.mod_divide in Hd; [|lia]. destruct Hd as [q Hq]. assert (0 < q) by (apply (Z.mul_pos_cancel_r q step); lia). nia. }
  pose proof (Z.mod_pos_bound min step Hs) as Hms.
  assert (Hmask : isw mask).
  { apply (repeated_mask_spec 64 (min mod step) step 0 0); auto using isw_0; lia. }
  assert (Hmb : forall y, 0 <= y -> Z.testbit mask (y mod 64) = ((y - min) mod step =? 0)).
  { intros y Hy. unfold mask.
    destruct (repeated_mask_spec 64 (min mod step) step 0 (y mod 64)) as [_ E]; auto using isw_0; try lia; try dm.
    rewrite E, Z.bits_0. cbn [orb]. rewrite step_mod64 by auto.
    destruct ((y - min) mod step =? 0) eqn:Em; [|apply andb_false_r]. rewrite andb_true_r.
    rewrite <- (step_mod64 step y min Hs Hd) in Em. apply Z.eqb_eq in Em.
    apply Z.mod_divide in Em; [|lia]. destruct Em as [q Eq].
    assert (0 <= y mod 64) by dm. assert (-1 < q) by (apply (Z.mul_lt_mono_pos_r step); lia). apply Z.leb_le. assert (0 <= q * step) by (apply Z.mul_nonneg_nonneg; lia). lia. }
  clearbody mask.
  assert (Hgoal : forall ws, bws ws -> (forall y, 0 <= y < 65536 -> bget ws y = stepin min max step y) ->
     bwf ((max - min + step - 1)/step, ws) /\ forall y, 0 <= y < 65536 -> bget (b_words ((max - min + step - 1)/step, ws)) y = stepin min max step y).
  { intros ws W1 W2. split; auto. split; auto. cbn [b_card b_words fst snd]. unfold bcard.
    rewrite (cnt_ext (bget ws) (stepin min max step)) by auto. rewrite cnt_stepin; lia. }
  change (b_words bitset_container_create) with (repeat 0 1024).
  destruct bws_zero as [Z1 Z2]. set (zs := repeat 0 1024) in *.
  assert (Zg : forall y, 0 <= y -> bget zs y = false) by (apply bget_zero). clearbody zs.
  rewrite neg32_mod64.
  assert (Hlast : forall y, 0 <= y -> y/64 = (max-1)/64 -> Z.testbit (shr64 ones64 ((-max) mod 64)) (y mod 64) = (y <? max)).
  { intros y Hy Hyy. rewrite tb_mask_lo by dm. dm. }
  assert (Hfirst : forall y, 0 <= y -> y/64 = min/64 -> Z.testbit (shl64 ones64 (min mod 64)) (y mod 64) = (min <=? y)).
  { intros y Hy Hyy. rewrite tb_mask_hi by dm. dm. }
  destruct (Z.eqb_spec (min/64) ((max-1)/64)) as [E|E]; apply Hgoal.
  - split; [apply wfw_wmod; auto|rewrite zlen_wmod; auto].
    intros. apply isw_lor; auto. now apply isw_land.
  - intros y Hy. specialize (Q2 y). specialize (Q3 y). specialize (Q4 y). specialize (Q5 y).
    rewrite bget_wmod by lia. unfold stepin. destruct (Z.eqb_spec (y/64) (min/64)) as [E2|E2].
    + rewrite Z.lor_spec, !Z.land_spec, Hmb, Hfirst, Hlast by (auto; lia).
      rewrite bget_here by auto. rewrite Zg by lia. cbn [orb]. btauto.
    + rewrite Zg by lia. replace ((min <=? y) && (y <? max)) with false by lia. reflexivity.
  - split.
    + apply wfw_wmod; [intros; now apply isw_land|]. apply wfw_wloop; auto. apply wfw_wmod; auto. intros; now apply isw_land.
    + rewrite zlen_wmod, zlen_wloop, zlen_wmod. auto.
  - intros y Hy. specialize (Q2 y). specialize (Q3 y). specialize (Q4 y). specialize (Q5 y).
    rewrite bget_wmod by (rewrite ?zlen_wloop, ?zlen_wmod; lia). unfold stepin.
    destruct (Z.eqb_spec (y/64) ((max-1)/64)) as [E2|E2].
    + rewrite Z.land_spec, Hmb, Hlast by (auto; lia). replace (min <=? y) with true by lia. btauto.
    + rewrite bget_wloop by (rewrite ?zlen_wmod; lia).
      destruct ((min/64+1 <=? y/64) && (y/64 <? (max-1)/64)) eqn:E3.
      * rewrite Hmb by lia. replace (min <=? y) with true by lia. replace (y <? max) with true by lia. reflexivity.
      * rewrite bget_wmod by lia. destruct (Z.eqb_spec (y/64) (min/64)) as [E4|E4].
        -- rewrite Z.land_spec, Hmb, Hfirst by (auto; lia). replace (y <? max) with true by lia. btauto.
        -- rewrite Zg by lia. replace ((min <=? y) && (y <? max)) with false by lia. reflexivity.
Qed.
