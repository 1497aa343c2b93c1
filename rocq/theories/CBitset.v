(** CBitset: the uncompressed bitset (src/bitset.c, include/roaring/bitset/bitset.h)
    and roaring_bitmap_to_bitset (src/roaring.c:3355-3395).
    A bitset_t is the list of the [arraysize] words of its array.  The capacity is
    not modelled: it only decides whether realloc is called, and allocation is
    assumed to succeed.  Words that the code leaves uninitialised are given by an
    arbitrary function [junk].  size_t is 64 bits wide.  Operations whose C code can
    leave the array return an option; None is an access outside the array. *)
From Coq Require Import ZArith List Bool Lia.
From Verif Require Import Base ArrayUtil BitUtil BitsetC ArrayC RunC Convert MixedI Containers RArray RQuery.
Import ListNotations.
Local Open Scope Z_scope.
Local Opaque zr.

(** SIZE_MAX / 64 *)
Definition max_words : Z := 2^58 - 1.
Definition words_of (n : Z) (w : Z) : list Z := repeat w (Z.to_nat n).

(** src/bitset.c:32-42 bitset_create; 46-61 bitset_create_with_capacity; 64-79 bitset_copy *)
Definition bitset_create : list Z := [].
Definition bitset_create_with_capacity (size : Z) : list Z := words_of ((size + 63) mod 2^64 / 64) 0.
Definition bitset_copy (ws : list Z) : list Z := ws.
(** src/bitset.c:81-83 bitset_clear; 85-87 bitset_fill *)
Definition bitset_clear (ws : list Z) : list Z := map (fun _ => 0) ws.
Definition bitset_fill (ws : list Z) : list Z := map (fun _ => ones64) ws.
(** src/bitset.c:149-176 bitset_resize; None = returns false *)
Definition bitset_resize (junk : Z -> Z) (ws : list Z) (newarraysize : Z) (padwithzeroes : bool) : option (list Z) :=
  if max_words <? newarraysize then None
  else if newarraysize <=? zlen ws then Some (zfirst newarraysize ws)
  else Some (ws ++ (if padwithzeroes then words_of (newarraysize - zlen ws) 0 else map junk (zr (zlen ws) newarraysize))).
(** src/bitset.c:238-264 bitset_grow; None = returns false *)
Definition bitset_grow (ws : list Z) (newarraysize : Z) : option (list Z) :=
  if newarraysize <? zlen ws then None
  else if max_words <? newarraysize then None
  else Some (ws ++ words_of (newarraysize - zlen ws) 0).
(** bitset/bitset.h:95-103 bitset_set; 107-120 bitset_set_to_value; 123-129 bitset_get *)
Definition grow_for (ws : list Z) (shiftedi : Z) : option (list Z) :=
  if zlen ws <=? shiftedi then bitset_grow ws (shiftedi + 1) else Some ws.
Definition bitset_set (ws : list Z) (i : Z) : list Z :=
  let shiftedi := i / 64 in
  match grow_for ws shiftedi with
  | None => ws
  | Some ws => zupd shiftedi (Z.lor (znth ws shiftedi) (shl64 1 (i mod 64))) ws
  end.
Definition bitset_set_to_value (ws : list Z) (i : Z) (flag : bool) : list Z :=
  let shiftedi := i / 64 in
  let mask := shl64 1 (i mod 64) in
  let dynmask := shl64 (if flag then 1 else 0) (i mod 64) in
  match grow_for ws shiftedi with
  | None => ws
  | Some ws => zupd shiftedi (Z.lor (Z.land (znth ws shiftedi) (not64 mask)) dynmask) ws
  end.
Definition bitset_get (ws : list Z) (i : Z) : bool :=
  let shiftedi := i / 64 in
  if zlen ws <=? shiftedi then false else negb (Z.land (znth ws shiftedi) (shl64 1 (i mod 64)) =? 0).
(** bitset/bitset.h:63-65 bitset_size_in_bytes; 68-70 bitset_size_in_bits; 73-75 bitset_size_in_words *)
Definition bitset_size_in_bytes (ws : list Z) : Z := zlen ws * 8.
Definition bitset_size_in_bits (ws : list Z) : Z := zlen ws * 64.
Definition bitset_size_in_words (ws : list Z) : Z := zlen ws.
(** src/bitset.c:89-113 bitset_shift_left *)
Definition bitset_shift_left (junk : Z -> Z) (ws : list Z) (s : Z) : option (list Z) :=
  let extra_words := s / 64 in
  let inword_shift := s mod 64 in
  let as_ := zlen ws in
  let zero_low ws := wloop (fun _ => 0) 0 extra_words ws in
  if inword_shift =? 0 then
    match bitset_resize junk ws (as_ + extra_words) false with
    | None => None
    | Some ws =>
      Some (zero_low (fold_left (fun ws i => zupd (i - 1) (znth ws (i - 1 - extra_words)) ws)
                                (rev (zr (extra_words + 1) (as_ + extra_words + 1))) ws))
    end
  else
    match bitset_resize junk ws (as_ + extra_words + 1) true with
    | None => None
    | Some ws =>
      if as_ =? 0 then None (* array[as - 1] with as = 0 *)
      else
        let ws := zupd (as_ + extra_words) (shr64 (znth ws (as_ - 1)) (64 - inword_shift)) ws in
        let ws := fold_left (fun ws i =>
                    zupd (i - 1) (Z.lor (shl64 (znth ws (i - 1 - extra_words)) inword_shift)
                                        (shr64 (znth ws (i - 2 - extra_words)) (64 - inword_shift))) ws)
                    (rev (zr (extra_words + 2) (as_ + extra_words + 1))) ws in
        Some (zero_low (zupd extra_words (shl64 (znth ws 0) inword_shift) ws))
    end.
(** src/bitset.c:115-136 bitset_shift_right.  [as - extra_words] and
    [as - extra_words - 1] are size_t: when they wrap the accesses leave the array. *)
Definition bitset_shift_right (junk : Z -> Z) (ws : list Z) (s : Z) : option (list Z) :=
  let extra_words := s / 64 in
  let inword_shift := s mod 64 in
  let as_ := zlen ws in
  if inword_shift =? 0 then
    if as_ <? extra_words then None
    else bitset_resize junk
           (fold_left (fun ws i => zupd i (znth ws (i + extra_words)) ws) (zr 0 (as_ - extra_words)) ws)
           (as_ - extra_words) false
  else
    if as_ <=? extra_words then None
    else
      let ws := fold_left (fun ws i =>
                  zupd i (Z.lor (shr64 (znth ws (i + extra_words)) inword_shift)
                                (shl64 (znth ws (i + extra_words + 1)) (64 - inword_shift))) ws)
                  (zr 0 (as_ - extra_words - 1)) ws in
      let ws := zupd (as_ - extra_words - 1) (shr64 (znth ws (as_ - 1)) inword_shift) ws in
      bitset_resize junk ws (as_ - extra_words) false.
(** src/bitset.c:178-201 bitset_count (unrolled additions in the same order) *)
Definition sum_hamming (ws : list Z) : Z := fold_left (fun s w => s + hamming w) ws 0.
Definition bitset_count (ws : list Z) : Z := sum_hamming ws.
(** src/bitset.c:219-226 bitset_empty; 228-236 bitset_minimum; 266-274 bitset_maximum *)
Definition bitset_empty (ws : list Z) : bool := forallb (fun w => w =? 0) ws.
Fixpoint bitset_minimum_from (ws : list Z) (k : Z) : Z :=
  match ws with
  | [] => 2^64 - 1
  | w :: ws' => if negb (w =? 0) then ctz w + k * 64 else bitset_minimum_from ws' (k + 1)
  end.
Definition bitset_minimum (ws : list Z) : Z := bitset_minimum_from ws 0.
Fixpoint bitset_maximum_down (n : nat) (ws : list Z) : Z :=
  match n with
  | O => 0
  | S m => let w := znth ws (Z.of_nat m) in
           if negb (w =? 0) then 63 - clz w + Z.of_nat m * 64 else bitset_maximum_down m ws
  end.
Definition bitset_maximum (ws : list Z) : Z := bitset_maximum_down (length ws) ws.
(** src/bitset.c:203-217 bitset_inplace_union; 427-443 bitset_inplace_symmetric_difference:
    the common prefix is combined, a longer second operand is copied behind it.  The
    words appended by resize are all overwritten by the memcpy. *)
Definition combine_grow (f : Z -> Z -> Z) (b1 b2 : list Z) : list Z :=
  map2 f b1 b2 ++ (if zlen b1 <? zlen b2 then zdrop (zlen b1) b2 else zdrop (zlen b2) b1).
Definition bitset_inplace_union := combine_grow Z.lor.
Definition bitset_inplace_symmetric_difference := combine_grow Z.lxor.
(** src/bitset.c:378-389 bitset_inplace_intersection; 402-410 bitset_inplace_difference *)
Definition bitset_inplace_intersection (b1 b2 : list Z) : list Z :=
  map2 Z.land b1 b2 ++ words_of (zlen b1 - zlen b2) 0.
Definition bitset_inplace_difference (b1 b2 : list Z) : list Z :=
  map2 andn64 b1 b2 ++ zdrop (zlen b2) b1.
(** src/bitset.c:337-376 bitset_union_count; 391-400 bitset_intersection_count; 412-425
    bitset_difference_count; 445-465 bitset_symmetric_difference_count *)
Definition count_grow (f : Z -> Z -> Z) (b1 b2 : list Z) : Z :=
  sum_hamming (map2 f b1 b2)
  + (if zlen b1 <? zlen b2 then sum_hamming (zdrop (zlen b1) b2) else sum_hamming (zdrop (zlen b2) b1)).
Definition bitset_union_count := count_grow Z.lor.
Definition bitset_symmetric_difference_count := count_grow Z.lxor.
Definition bitset_intersection_count (b1 b2 : list Z) : Z := sum_hamming (map2 Z.land b1 b2).
Definition bitset_difference_count (b1 b2 : list Z) : Z :=
  sum_hamming (map2 andn64 b1 b2) + sum_hamming (zdrop (zlen b2) b1).
(** src/bitset.c:279-288 bitsets_disjoint; 294-303 bitsets_intersect; 319-335
    bitset_contains_all (with any_bits_set, 306-314) *)
Definition bitsets_disjoint (b1 b2 : list Z) : bool := forallb (fun w => w =? 0) (map2 Z.land b1 b2).
Definition bitsets_intersect (b1 b2 : list Z) : bool := existsb (fun w => negb (w =? 0)) (map2 Z.land b1 b2).
Definition bitset_contains_all (b1 b2 : list Z) : bool :=
  if negb (forallb (fun '(w1, w2) => Z.land w1 w2 =? w2) (combine b1 b2)) then false
  else if zlen b1 <? zlen b2 then negb (existsb (fun w => negb (w =? 0)) (zdrop (zlen b1) b2))
  else true.
(** src/bitset.c:467-485 bitset_trim.  If no word is set, realloc to size zero is
    called, whose result is implementation-defined; the model takes the outcome
    where it returns a non-null pointer. *)
Fixpoint bitset_trim_size (n : nat) (ws : list Z) : nat :=
  match n with
  | O => O
  | S m => if znth ws (Z.of_nat m) =? 0 then bitset_trim_size m ws else n
  end.
Definition bitset_trim (ws : list Z) : list Z := firstn (bitset_trim_size (length ws) ws) ws.
(** bitset/bitset.h:199-220 bitset_next_set_bit: the new value of *i, None = returns false *)
Fixpoint next_set_word (ws : list Z) (x : Z) : option Z :=
  match ws with
  | [] => None
  | w :: ws' => if negb (w =? 0) then Some (x * 64 + ctz w) else next_set_word ws' (x + 1)
  end.
Definition bitset_next_set_bit (ws : list Z) (i : Z) : option Z :=
  let x := i / 64 in
  if zlen ws <=? x then None
  else
    let w := shr64 (znth ws x) (Z.land i 63) in
    if negb (w =? 0) then Some (i + ctz w) else next_set_word (zdrop (x + 1) ws) (x + 1).
(** bitset/bitset.h:231-263 bitset_next_set_bits: (buffer contents, new *startfrom) *)
Fixpoint next_bits_word (fuel : nat) (w base room : Z) : list Z :=
  match fuel with
  | O => []
  | S f => if w =? 0 then []
           else (ctz w + base) :: (if 1 =? room then [] else next_bits_word f (clear_lowest w) base (room - 1))
  end.
Fixpoint next_bits_words (w : Z) (rest : list Z) (base room : Z) : list Z :=
  let out := next_bits_word 64 w base room in
  if zlen out =? room then out
  else match rest with
       | [] => out
       | w' :: rest' => out ++ next_bits_words w' rest' (base + 64) (room - zlen out)
       end.
Definition bitset_next_set_bits (ws : list Z) (capacity startfrom : Z) : list Z * Z :=
  if capacity =? 0 then ([], startfrom)
  else
    let x := startfrom / 64 in
    if zlen ws <=? x then ([], startfrom)
    else
      let w := Z.land (znth ws x) (not64 (shl64 1 (Z.land startfrom 63) - 1)) in
      let buffer := next_bits_words w (zdrop (x + 1) ws) (Z.shiftl x 6) capacity in
      (buffer, if 0 <? zlen buffer then znth buffer (zlen buffer - 1) else startfrom).
(** bitset/bitset.h:268-282 bitset_for_each *)
Definition bitset_for_each {S : Type} (f : S -> Z -> S * bool) (ws : list Z) (s : S) : S * bool :=
  iter_seq f (bitset_iterate_seq ws 0) s.

(** roaring.c:3355-3395 roaring_bitmap_to_bitset.  [words] = array + (key << 10); a
    container whose writes would leave the array makes the result None. *)
Definition write_container (words : list Z) (c : container) : option (list Z) :=
  match c with
  | CBit b => let n := Z.min 1024 (zlen words) in Some (zfirst n (b_words b) ++ zdrop n words)
  | CArr a => if forallb (fun v => v / 64 <? zlen words) a then Some (bitset_set_list words a) else None
  | CRun r => if forallb (fun x => (fst x + snd x) / 64 <? zlen words) r then Some (set_runs words r) else None
  end.
Fixpoint to_bitset_loop (r : bitmap) (ws : list Z) : option (list Z) :=
  match r with
  | [] => Some ws
  | (k, c) :: t =>
    let start := Z.shiftl k 10 in
    if zlen ws <? start then None
    else match write_container (zdrop start ws) c with
         | None => None
         | Some words => to_bitset_loop t (zfirst start ws ++ words)
         end
  end.
(** result: None = out of bounds, Some (words, return value) *)
Definition roaring_bitmap_to_bitset (junk : Z -> Z) (r : bitmap) (ws : list Z) : option (list Z * bool) :=
  match bitset_resize junk ws (roaring_bitmap_maximum r / 64 + 1) true with
  | None => Some (ws, false)
  | Some ws => match to_bitset_loop r ws with None => None | Some ws => Some (ws, true) end
  end.

(** * Proofs *)
Lemma zlen_words n w : 0 <= n -> zlen (words_of n w) = n.
Proof. intros. unfold words_of, zlen. rewrite repeat_length. lia. Qed.
Lemma znth_words n i : znth (words_of n 0) i = 0.
Proof. unfold words_of, znth. apply nth_repeat. Qed.
Lemma wfw_words n : wfw (words_of n 0).
Proof. unfold wfw, words_of. apply Forall_forall. intros x H. apply repeat_spec in H. subst. apply isw_0. Qed.
Lemma wfw_app a b : wfw (a ++ b) <-> wfw a /\ wfw b.
Proof. apply Forall_app. Qed.
Lemma znth_app a b i : 0 <= i -> znth (a ++ b) i = if i <? zlen a then znth a i else znth b (i - zlen a).
Proof. intros. destruct (Z.ltb_spec i (zlen a)); [now apply znth_app1|now apply znth_app2]. Qed.
Lemma bget_app a b x : 0 <= x -> bget (a ++ b) x = if x <? 64 * zlen a then bget a x else bget b (x - 64 * zlen a).
Proof.
  intros Hx. unfold bget. rewrite znth_app by dm.
  replace (x / 64 <? zlen a) with (x <? 64 * zlen a) by (apply eq_true_iff_eq; rewrite !Z.ltb_lt; dm).
  destruct (x <? 64 * zlen a); auto. replace ((x - 64 * zlen a) / 64) with (x / 64 - zlen a) by dm. f_equal. dm.
Qed.
Lemma bget_pad a n x : 0 <= x -> bget (a ++ words_of n 0) x = bget a x.
Proof.
  intros Hx. rewrite bget_app by auto. destruct (Z.ltb_spec x (64 * zlen a)); auto.
  unfold bget. rewrite znth_words, Z.bits_0, znth_overflow by dm. now rewrite Z.bits_0.
Qed.
Lemma bget_over ws x : 64 * zlen ws <= x -> bget ws x = false.
Proof. intros. unfold bget. rewrite znth_overflow by dm. apply Z.bits_0. Qed.
Lemma znth_zfirst n ws i : 0 <= i < n -> znth (zfirst n ws) i = znth ws i.
Proof. intros. unfold znth, zfirst. rewrite <- (firstn_skipn (Z.to_nat n) ws) at 2. destruct (Nat.lt_ge_cases (Z.to_nat i) (length (firstn (Z.to_nat n) ws))) as [L|L].
  - now rewrite app_nth1. - rewrite app_nth2 by lia. rewrite nth_overflow by lia. rewrite firstn_length in L. rewrite skipn_all2 by lia. now destruct (_ - _)%nat. Qed.
Lemma znth_zdrop n ws i : 0 <= n -> 0 <= i -> znth (zdrop n ws) i = znth ws (n + i).
Proof.
  intros. unfold znth, zdrop. replace (Z.to_nat (n + i)) with (Z.to_nat n + Z.to_nat i)%nat by lia.
  generalize (Z.to_nat n) (Z.to_nat i). clear. intros n i. revert ws. induction n; intros ws; auto. destruct ws; cbn [skipn Nat.add nth]; [now destruct i|auto].
Qed.
Lemma bget_zfirst n ws x : 0 <= n -> 0 <= x -> bget (zfirst n ws) x = (x <? 64 * n) && bget ws x.
Proof.
  intros Hn Hx. unfold bget. destruct (Z.ltb_spec x (64 * n)).
  - rewrite znth_zfirst by dm. reflexivity.
  - unfold zfirst, znth. rewrite nth_overflow; [apply Z.bits_0|]. rewrite firstn_length. assert (n <= x / 64) by dm. lia.
Qed.
Lemma bget_zdrop n ws x : 0 <= n -> 0 <= x -> bget (zdrop n ws) x = bget ws (64 * n + x).
Proof.
  intros. unfold bget. rewrite znth_zdrop by dm. replace ((64 * n + x) / 64) with (n + x / 64) by dm. f_equal. dm.
Qed.
Lemma wfw_zfirst n ws : wfw ws -> wfw (zfirst n ws).
Proof. intros H. unfold zfirst, wfw in *. rewrite Forall_forall in *. intros x Hx. apply H. rewrite <- (firstn_skipn (Z.to_nat n) ws). apply in_app_iff. now left. Qed.
Lemma wfw_zdrop n ws : wfw ws -> wfw (zdrop n ws).
Proof. intros H. unfold zdrop, wfw in *. rewrite Forall_forall in *. intros x Hx. apply H. rewrite <- (firstn_skipn (Z.to_nat n) ws). apply in_app_iff. now right. Qed.

(** ** get *)
Lemma bitset_get_bget ws i : 0 <= i -> bitset_get ws i = bget ws i.
Proof.
  intros Hi. unfold bitset_get. destruct (Z.leb_spec (zlen ws) (i / 64)).
  - symmetry. apply bget_over. dm.
  - unfold bget. set (w := znth ws (i / 64)). destruct (Z.testbit w (i mod 64)) eqn:E.
    + destruct (Z.eqb_spec (Z.land w (shl64 1 (i mod 64))) 0) as [H0|]; auto. exfalso.
      assert (T : Z.testbit (Z.land w (shl64 1 (i mod 64))) (i mod 64) = true).
      { rewrite Z.land_spec, E. fold (bit (i mod 64)). rewrite tb_bit by dm. now rewrite Z.eqb_refl. }
      rewrite H0, Z.bits_0 in T. discriminate.
    + replace (Z.land w (shl64 1 (i mod 64))) with 0; auto. apply isw_ext; [apply isw_0| |].
      * rewrite Z.land_comm. apply isw_land, isw_shl.
      * intros j Hj. rewrite Z.bits_0, Z.land_spec. fold (bit (i mod 64)). rewrite tb_bit by dm. destruct (Z.eqb_spec j (i mod 64)) as [->|]; [now rewrite E|now rewrite andb_false_r].
Qed.
Lemma bget_ext_list a b : wfw a -> wfw b -> zlen a = zlen b -> (forall x, 0 <= x < 64 * zlen a -> bget a x = bget b x) -> a = b.
Proof.
  intros Wa Wb L H. apply list_ext_znth; auto. intros i Hi. apply isw_ext; [now apply wfw_znth|now apply wfw_znth|].
  intros j Hj. specialize (H (64 * i + j) ltac:(lia)). unfold bget in H. replace ((64 * i + j) / 64) with i in H by dm. replace ((64 * i + j) mod 64) with j in H by dm. exact H.
Qed.

(** ** create, clear, fill, resize, grow *)
Lemma bget_create n x : 0 <= x -> bget (words_of n 0) x = false.
Proof. intros. unfold bget. rewrite znth_words. apply Z.bits_0. Qed.
Lemma wfw_const (ws : list Z) v : isw v -> wfw (map (fun _ => v) ws).
Proof. intros H. apply Forall_forall. intros x Hx. apply in_map_iff in Hx as (y&<-&_). auto. Qed.
Lemma bget_const (ws : list Z) v x : 0 <= x < 64 * zlen ws -> bget (map (fun _ => v) ws) x = Z.testbit v (x mod 64).
Proof.
  intros. unfold bget, znth. f_equal. rewrite (nth_indep _ 0 v) by (rewrite map_length; unfold zlen in *; assert (x / 64 < Z.of_nat (length ws)) by dm; assert (0 <= x / 64) by dm; lia).
  exact (map_nth (fun _ => v) ws 0 (Z.to_nat (x / 64))).
Qed.
Lemma bget_clear ws x : 0 <= x -> bget (bitset_clear ws) x = false.
Proof.
  intros. destruct (Z_lt_dec x (64 * zlen ws)).
  - unfold bitset_clear. rewrite bget_const by lia. apply Z.bits_0.
  - apply bget_over. unfold bitset_clear. rewrite zlen_map. lia.
Qed.
Lemma bget_fill ws x : 0 <= x -> bget (bitset_fill ws) x = (x <? 64 * zlen ws).
Proof.
  intros. destruct (Z.ltb_spec x (64 * zlen ws)).
  - unfold bitset_fill. rewrite bget_const by lia. rewrite tb_ones by dm. apply Z.ltb_lt. dm.
  - apply bget_over. unfold bitset_fill. rewrite zlen_map. lia.
Qed.
Lemma resize_pad junk ws n : wfw ws -> 0 <= n <= max_words -> exists ws', bitset_resize junk ws n true = Some ws' /\ wfw ws' /\ zlen ws' = n /\
  forall x, 0 <= x -> bget ws' x = (x <? 64 * n) && bget ws x.
Proof.
  intros W Hn. unfold bitset_resize. replace (max_words <? n) with false by lia. destruct (Z.leb_spec n (zlen ws)).
  - exists (zfirst n ws). split; auto. split; [now apply wfw_zfirst|]. split; [apply zfirst_zlen; lia|]. intros. apply bget_zfirst; lia.
  - exists (ws ++ words_of (n - zlen ws) 0). split; auto. split; [apply wfw_app; split; auto; apply wfw_words|].
    split; [rewrite zlen_app, zlen_words; lia|]. intros x Hx. rewrite bget_pad by auto. destruct (Z.ltb_spec x (64 * n)); auto. apply bget_over. lia.
Qed.
Lemma grow_ok ws n : wfw ws -> zlen ws <= n <= max_words -> exists ws', bitset_grow ws n = Some ws' /\ wfw ws' /\ zlen ws' = n /\
  forall x, 0 <= x -> bget ws' x = bget ws x.
Proof.
  intros W Hn. unfold bitset_grow. replace (n <? zlen ws) with false by lia. replace (max_words <? n) with false by lia.
  exists (ws ++ words_of (n - zlen ws) 0). split; auto. split; [apply wfw_app; split; auto; apply wfw_words|].
  split; [rewrite zlen_app, zlen_words; lia|]. intros x Hx. now apply bget_pad.
Qed.
Lemma grow_for_ok ws k : wfw ws -> 0 <= k < max_words -> exists ws', grow_for ws k = Some ws' /\ wfw ws' /\ zlen ws' = Z.max (zlen ws) (k + 1) /\
  forall x, 0 <= x -> bget ws' x = bget ws x.
Proof.
  intros W Hk. unfold grow_for. destruct (Z.leb_spec (zlen ws) k).
  - destruct (grow_ok ws (k + 1) W ltac:(lia)) as (ws'&E&W'&L&B). exists ws'. repeat split; auto. lia.
  - exists ws. repeat split; auto. lia.
Qed.
Lemma grow_for_fail ws k : max_words <= k -> zlen ws <= max_words -> grow_for ws k = None.
Proof.
  intros H L. unfold grow_for. replace (zlen ws <=? k) with true by lia. unfold bitset_grow. replace (k + 1 <? zlen ws) with false by lia. now replace (max_words <? k + 1) with true by lia.
Qed.
(** bits at positions below 64 * max_words can be set; beyond, the call has no effect *)
Lemma bget_upd ws i w x : 0 <= i < 64 * zlen ws -> 0 <= x ->
  bget (zupd (i / 64) w ws) x = if x / 64 =? i / 64 then Z.testbit w (x mod 64) else bget ws x.
Proof. intros. unfold bget. rewrite znth_zupd by dm. now destruct (x / 64 =? i / 64). Qed.
Lemma set_spec ws i : wfw ws -> 0 <= i < 64 * max_words ->
  wfw (bitset_set ws i) /\ zlen (bitset_set ws i) = Z.max (zlen ws) (i / 64 + 1) /\
  forall x, 0 <= x -> bget (bitset_set ws i) x = bget ws x || (x =? i).
Proof.
  intros W Hi. unfold bitset_set. destruct (grow_for_ok ws (i / 64) W ltac:(dm)) as (ws'&E&W'&L&B). rewrite E. split; [|split].
  - apply wfw_zupd; auto. apply isw_lor; [now apply wfw_znth|apply isw_shl].
  - rewrite zupd_zlen. exact L.
  - intros x Hx. rewrite <- B by auto. rewrite bget_upd by dm. destruct (Z.eqb_spec (x / 64) (i / 64)) as [Q|Q].
    + rewrite Z.lor_spec. rewrite <- Q. fold (bget ws' x). fold (bit (i mod 64)). rewrite tb_bit by dm. f_equal. now apply same_bit.
    + replace (x =? i) with false by (symmetry; apply Z.eqb_neq; congruence). now rewrite orb_false_r.
Qed.
Lemma set_to_value_spec ws i flag : wfw ws -> 0 <= i < 64 * max_words ->
  wfw (bitset_set_to_value ws i flag) /\ zlen (bitset_set_to_value ws i flag) = Z.max (zlen ws) (i / 64 + 1) /\
  forall x, 0 <= x -> bget (bitset_set_to_value ws i flag) x = if x =? i then flag else bget ws x.
Proof.
  intros W Hi. unfold bitset_set_to_value. destruct (grow_for_ok ws (i / 64) W ltac:(dm)) as (ws'&E&W'&L&B). rewrite E. split; [|split].
  - apply wfw_zupd; auto. apply isw_lor; [now apply isw_land, wfw_znth|apply isw_shl].
  - rewrite zupd_zlen. exact L.
  - intros x Hx. rewrite <- B by auto. rewrite bget_upd by dm. destruct (Z.eqb_spec (x / 64) (i / 64)) as [Q|Q].
    + rewrite Z.lor_spec, Z.land_spec. rewrite <- Q. fold (bget ws' x). rewrite tb_not by dm. fold (bit (i mod 64)). rewrite tb_bit by dm. rewrite same_bit by (auto; lia).
      rewrite tb_shl by dm. destruct (Z.eqb_spec x i) as [->|Nx].
      * rewrite andb_false_r, Z.leb_refl, Z.sub_diag. now destruct flag.
      * cbn [negb]. rewrite andb_true_r. replace (Z.testbit (if flag then 1 else 0) (x mod 64 - i mod 64)) with false; [now rewrite andb_false_r, orb_false_r|].
        symmetry. destruct flag; [|apply Z.bits_0]. destruct (Z_lt_dec (x mod 64 - i mod 64) 0); [now apply Z.testbit_neg_r|]. assert (0 < x mod 64 - i mod 64) by dm. destruct (x mod 64 - i mod 64) eqn:Q1; try lia. destruct p; reflexivity.
    + replace (x =? i) with false by (symmetry; apply Z.eqb_neq; congruence). auto.
Qed.
Lemma set_too_large ws i : 64 * max_words <= i -> zlen ws <= max_words -> bitset_set ws i = ws /\ forall flag, bitset_set_to_value ws i flag = ws.
Proof. intros H L. unfold bitset_set, bitset_set_to_value. rewrite grow_for_fail by dm. auto. Qed.

(** ** counting *)
Lemma sum_hamming_acc ws acc : fold_left (fun s w => s + hamming w) ws acc = acc + cnt (bget ws) 0 (64 * zlen ws).
Proof.
  revert acc. induction ws as [|w ws IH]; intros acc; cbn [fold_left]. { change (zlen (@nil Z)) with 0. rewrite cnt_nil by lia. lia. }
  rewrite IH. rewrite zlen_cons. pose proof (zlen_nonneg ws). rewrite (cnt_app (bget (w :: ws)) 0 64) by lia.
  replace (cnt (bget (w :: ws)) 0 64) with (hamming w).
  2:{ rewrite hamming_cnt. apply cnt_ext. intros x Hx. unfold bget. replace (x / 64) with 0 by dm. replace (x mod 64) with x by dm. reflexivity. }
  rewrite <- Z.add_assoc. f_equal. f_equal. change 64 with (0 + 64) at 2. replace (64 * (zlen ws + 1)) with (64 * zlen ws + 64) by lia. rewrite <- cnt_shift.
  apply cnt_ext. intros x Hx. symmetry. apply bget_cons. lia.
Qed.
Lemma sum_hamming_cnt ws : sum_hamming ws = cnt (bget ws) 0 (64 * zlen ws).
Proof. unfold sum_hamming. rewrite sum_hamming_acc. lia. Qed.
Lemma cnt_bget_more ws n : 64 * zlen ws <= n -> cnt (bget ws) 0 n = cnt (bget ws) 0 (64 * zlen ws).
Proof.
  intros. pose proof (zlen_nonneg ws). rewrite (cnt_app (bget ws) 0 (64 * zlen ws) n) by lia. rewrite (cnt_none (bget ws) (64 * zlen ws) n); [lia|].
  intros x Hx. apply bget_over. lia.
Qed.

(** ** binary operations: every one acts on the words, absent words being 0 *)
Definition pointwise (f : Z -> Z -> Z) (a b c : list Z) : Prop := forall i, 0 <= i -> znth c i = f (znth a i) (znth b i).
Lemma zlen_map2_min f a b : zlen (map2 f a b) = Z.min (zlen a) (zlen b).
Proof.
  revert b. induction a as [|x a IH]; intros b.
  - cbn [map2]. change (zlen (@nil Z)) with 0. pose proof (zlen_nonneg b). lia.
  - destruct b as [|y b]; cbn [map2].
    + change (zlen (@nil Z)) with 0. pose proof (zlen_nonneg (x :: a)). lia.
    + rewrite !zlen_cons, IH. lia.
Qed.
Lemma znth_map2_min f a b i : 0 <= i < Z.min (zlen a) (zlen b) -> znth (map2 f a b) i = f (znth a i) (znth b i).
Proof.
  revert b i. induction a as [|x a IH]; intros [|y b] i Hi; try (change (zlen (@nil Z)) with 0 in Hi; lia).
  cbn [map2]. destruct (Z.eq_dec i 0) as [->|]; [reflexivity|]. rewrite !znth_cons_pos by lia. apply IH. rewrite !zlen_cons in Hi. lia.
Qed.
Lemma pw_grow f a b : (forall x, f x 0 = x) -> (forall x, f 0 x = x) -> pointwise f a b (combine_grow f a b).
Proof.
  intros F1 F2 i Hi. unfold combine_grow. rewrite znth_app by auto. rewrite zlen_map2_min. pose proof (zlen_nonneg a). pose proof (zlen_nonneg b).
  destruct (Z.ltb_spec i (Z.min (zlen a) (zlen b))). { now apply znth_map2_min. }
  destruct (Z.ltb_spec (zlen a) (zlen b)).
  - rewrite znth_zdrop by lia. rewrite (znth_overflow a) by lia. rewrite F2. f_equal. lia.
  - rewrite znth_zdrop by lia. rewrite (znth_overflow b) by lia. rewrite F1. f_equal. lia.
Qed.
Lemma pw_inter a b : pointwise Z.land a b (bitset_inplace_intersection a b).
Proof.
  intros i Hi. unfold bitset_inplace_intersection. rewrite znth_app by auto. rewrite zlen_map2_min. pose proof (zlen_nonneg a). pose proof (zlen_nonneg b).
  destruct (Z.ltb_spec i (Z.min (zlen a) (zlen b))). { now apply znth_map2_min. }
  rewrite znth_words. destruct (Z_lt_dec i (zlen a)); [rewrite (znth_overflow b) by lia; now rewrite Z.land_0_r|rewrite (znth_overflow a) by lia; now rewrite Z.land_0_l].
Qed.
Lemma andn64_0 x : isw x -> andn64 x 0 = x.
Proof. intros W. unfold andn64. apply isw_ext; auto; [now apply isw_land|]. intros i Hi. rewrite Z.land_spec, tb_not by auto. rewrite Z.bits_0. apply andb_true_r. Qed.
Lemma andn64_0l x : andn64 0 x = 0. Proof. reflexivity. Qed.
Lemma pw_diff a b : wfw a -> pointwise andn64 a b (bitset_inplace_difference a b).
Proof.
  intros W i Hi. unfold bitset_inplace_difference. rewrite znth_app by auto. rewrite zlen_map2_min. pose proof (zlen_nonneg a). pose proof (zlen_nonneg b).
  destruct (Z.ltb_spec i (Z.min (zlen a) (zlen b))). { now apply znth_map2_min. }
  rewrite znth_zdrop by lia. destruct (Z_lt_dec i (zlen a)).
  - rewrite (znth_overflow b) by lia. rewrite andn64_0 by (now apply wfw_znth). f_equal. lia.
  - rewrite (znth_overflow a i) by lia. rewrite andn64_0l. apply znth_overflow. lia.
Qed.
Lemma pw_bget f g a b c : pointwise f a b c -> (forall x y i, 0 <= i < 64 -> Z.testbit (f x y) i = g (Z.testbit x i) (Z.testbit y i)) ->
  forall x, 0 <= x -> bget c x = g (bget a x) (bget b x).
Proof. intros P G x Hx. unfold bget. rewrite P by dm. apply G. dm. Qed.
Lemma pw_wfw f a b c : wfw a -> wfw b -> pointwise f a b c -> (forall x y, isw x -> isw y -> isw (f x y)) -> wfw c.
Proof.
  intros Wa Wb P F. apply Forall_forall. intros w Hw. apply In_znth in Hw as (i&Hi&<-). rewrite P by lia. apply F; now apply wfw_znth.
Qed.
Lemma isw_andn a b : isw a -> isw (andn64 a b). Proof. apply isw_land. Qed.
Lemma union_spec a b : wfw a -> wfw b -> wfw (bitset_inplace_union a b) /\ forall x, 0 <= x -> bget (bitset_inplace_union a b) x = bget a x || bget b x.
Proof.
  intros Wa Wb. assert (P : pointwise Z.lor a b (bitset_inplace_union a b)) by (apply pw_grow; [apply Z.lor_0_r|apply Z.lor_0_l]).
  split; [apply (pw_wfw _ a b _ Wa Wb P); intros; now apply isw_lor|]. apply (pw_bget _ orb _ _ _ P). intros. apply Z.lor_spec.
Qed.
Lemma symm_spec a b : wfw a -> wfw b -> wfw (bitset_inplace_symmetric_difference a b) /\ forall x, 0 <= x -> bget (bitset_inplace_symmetric_difference a b) x = xorb (bget a x) (bget b x).
Proof.
  intros Wa Wb. assert (P : pointwise Z.lxor a b (bitset_inplace_symmetric_difference a b)) by (apply pw_grow; [apply Z.lxor_0_r|apply Z.lxor_0_l]).
  split; [apply (pw_wfw _ a b _ Wa Wb P); intros; now apply isw_lxor|]. apply (pw_bget _ xorb _ _ _ P). intros. apply Z.lxor_spec.
Qed.
Lemma inter_spec a b : wfw a -> wfw b -> wfw (bitset_inplace_intersection a b) /\ forall x, 0 <= x -> bget (bitset_inplace_intersection a b) x = bget a x && bget b x.
Proof.
  intros Wa Wb. pose proof (pw_inter a b) as P. split; [apply (pw_wfw _ a b _ Wa Wb P); intros; now apply isw_land|]. apply (pw_bget _ andb _ _ _ P). intros. apply Z.land_spec.
Qed.
Lemma diff_spec a b : wfw a -> wfw b -> wfw (bitset_inplace_difference a b) /\ forall x, 0 <= x -> bget (bitset_inplace_difference a b) x = bget a x && negb (bget b x).
Proof.
  intros Wa Wb. pose proof (pw_diff a b Wa) as P. split; [apply (pw_wfw _ a b _ Wa Wb P); intros; now apply isw_andn|].
  apply (pw_bget _ (fun p q => p && negb q) _ _ _ P). intros. unfold andn64. now rewrite Z.land_spec, tb_not.
Qed.
Lemma sum_hamming_app a b : sum_hamming (a ++ b) = sum_hamming a + sum_hamming b.
Proof. unfold sum_hamming. rewrite fold_left_app, (sum_hamming_acc b (fold_left _ a 0)), (sum_hamming_acc b 0). lia. Qed.
Lemma sum_hamming_words n : sum_hamming (words_of n 0) = 0.
Proof. rewrite sum_hamming_cnt. apply cnt_none. intros. apply bget_create. lia. Qed.
(** the counting functions count what the in-place operations would produce *)
Lemma union_count_eq a b : bitset_union_count a b = bitset_count (bitset_inplace_union a b).
Proof. unfold bitset_union_count, bitset_inplace_union, count_grow, combine_grow, bitset_count. rewrite sum_hamming_app. f_equal. now destruct (zlen a <? zlen b). Qed.
Lemma symm_count_eq a b : bitset_symmetric_difference_count a b = bitset_count (bitset_inplace_symmetric_difference a b).
Proof. unfold bitset_symmetric_difference_count, bitset_inplace_symmetric_difference, count_grow, combine_grow, bitset_count. rewrite sum_hamming_app. f_equal. now destruct (zlen a <? zlen b). Qed.
Lemma inter_count_eq a b : bitset_intersection_count a b = bitset_count (bitset_inplace_intersection a b).
Proof. unfold bitset_intersection_count, bitset_inplace_intersection, bitset_count. rewrite sum_hamming_app, sum_hamming_words. lia. Qed.
Lemma diff_count_eq a b : bitset_difference_count a b = bitset_count (bitset_inplace_difference a b).
Proof. unfold bitset_difference_count, bitset_inplace_difference, bitset_count. now rewrite sum_hamming_app. Qed.

(** ** comparisons *)
Lemma word_zero_iff ws i : wfw ws -> 0 <= i -> (znth ws i = 0 <-> forall x, 64 * i <= x < 64 * i + 64 -> bget ws x = false).
Proof.
  intros W Hi. split.
  - intros E x Hx. unfold bget. replace (x / 64) with i by dm. rewrite E. apply Z.bits_0.
  - intros H. apply isw_ext; [now apply wfw_znth|apply isw_0|]. intros j Hj. rewrite Z.bits_0. specialize (H (64 * i + j) ltac:(lia)). unfold bget in H.
    replace ((64 * i + j) / 64) with i in H by dm. now replace ((64 * i + j) mod 64) with j in H by dm.
Qed.
Lemma forallb_zero ws : forallb (fun w => w =? 0) ws = true <-> forall i, 0 <= i -> znth ws i = 0.
Proof.
  rewrite forallb_forall. split.
  - intros H i Hi. destruct (Z_lt_dec i (zlen ws)); [|apply znth_overflow; lia]. apply Z.eqb_eq, H, znth_In. lia.
  - intros H w Hw. apply In_znth in Hw as (i&Hi&<-). apply Z.eqb_eq, H. lia.
Qed.
Lemma all_zero_iff ws : wfw ws -> (forall i, 0 <= i -> znth ws i = 0) <-> (forall x, 0 <= x -> bget ws x = false).
Proof.
  intros W. split.
  - intros H x Hx. unfold bget. rewrite H by dm. apply Z.bits_0.
  - intros H i Hi. apply word_zero_iff; auto. intros x Hx. apply H. lia.
Qed.
Lemma empty_spec ws : wfw ws -> bitset_empty ws = true <-> forall x, 0 <= x -> bget ws x = false.
Proof. intros W. unfold bitset_empty. rewrite forallb_zero. now apply all_zero_iff. Qed.
Lemma existsb_nonzero ws : existsb (fun w => negb (w =? 0)) ws = negb (forallb (fun w => w =? 0) ws).
Proof. induction ws as [|w ws IH]; auto. cbn [existsb forallb]. rewrite IH. now destruct (w =? 0). Qed.
Lemma disjoint_inter a b : bitsets_disjoint a b = bitset_empty (bitset_inplace_intersection a b).
Proof.
  unfold bitsets_disjoint, bitset_empty, bitset_inplace_intersection. rewrite forallb_app.
  replace (forallb (fun w => w =? 0) (words_of (zlen a - zlen b) 0)) with true; [now rewrite andb_true_r|].
  symmetry. apply forallb_zero. intros. apply znth_words.
Qed.
Lemma intersect_inter a b : bitsets_intersect a b = negb (bitset_empty (bitset_inplace_intersection a b)).
Proof. rewrite <- disjoint_inter. apply existsb_nonzero. Qed.
Lemma disjoint_spec a b : wfw a -> wfw b -> bitsets_disjoint a b = true <-> forall x, 0 <= x -> bget a x && bget b x = false.
Proof.
  intros Wa Wb. destruct (inter_spec a b Wa Wb) as [W B]. rewrite disjoint_inter, empty_spec by auto.
  split; intros H x Hx; [rewrite <- B by auto; auto|rewrite B by auto; auto].
Qed.
Lemma combine_all (f : Z -> Z -> bool) a b :
  forallb (fun '(w1, w2) => f w1 w2) (combine a b) = true <-> forall i, 0 <= i < Z.min (zlen a) (zlen b) -> f (znth a i) (znth b i) = true.
Proof.
  revert b. induction a as [|x a IH]; intros b.
  - cbn. split; auto. intros _ i Hi. change (zlen (@nil Z)) with 0 in Hi. lia.
  - destruct b as [|y b]; cbn [combine forallb].
    + split; auto. intros _ i Hi. change (zlen (@nil Z)) with 0 in Hi. lia.
    + rewrite andb_true_iff, IH, !zlen_cons. pose proof (zlen_nonneg a). pose proof (zlen_nonneg b). split.
      * intros [Ha Hb] i Hi. destruct (Z.eq_dec i 0) as [->|]; auto. rewrite !znth_cons_pos by lia. apply Hb. lia.
      * intros Ha. split; [exact (Ha 0 ltac:(lia))|]. intros i Hi. specialize (Ha (i + 1) ltac:(lia)). rewrite !znth_cons_pos in Ha by lia. now replace (i + 1 - 1) with i in Ha by lia.
Qed.
Lemma land_sub w1 w2 : isw w2 -> Z.land w1 w2 = w2 <-> forall i, 0 <= i < 64 -> Z.testbit w2 i = true -> Z.testbit w1 i = true.
Proof.
  intros W. split.
  - intros E i Hi T. rewrite <- E, Z.land_spec in T. now apply andb_true_iff in T.
  - intros H. apply isw_ext; auto; [rewrite Z.land_comm; now apply isw_land|]. intros i Hi. rewrite Z.land_spec. specialize (H i Hi). destruct (Z.testbit w2 i); [now rewrite H|apply andb_false_r].
Qed.
Lemma contains_all_spec a b : wfw a -> wfw b -> bitset_contains_all a b = true <-> forall x, 0 <= x -> bget b x = true -> bget a x = true.
Proof.
  intros Wa Wb. unfold bitset_contains_all. pose proof (combine_all (fun w1 w2 => Z.land w1 w2 =? w2) a b) as C. cbn beta in C.
  set (t := forallb _ (combine a b)) in *. rewrite existsb_nonzero, negb_involutive.
  assert (C' : t = true <-> forall x, 0 <= x < 64 * Z.min (zlen a) (zlen b) -> bget b x = true -> bget a x = true).
  { rewrite C. split.
    - intros H x Hx. specialize (H (x / 64) ltac:(dm)). apply Z.eqb_eq in H. rewrite land_sub in H by (now apply wfw_znth). apply H. dm.
    - intros H i Hi. apply Z.eqb_eq. apply land_sub; [now apply wfw_znth|]. intros j Hj. specialize (H (64 * i + j) ltac:(lia)). unfold bget in H.
      replace ((64 * i + j) / 64) with i in H by dm. now replace ((64 * i + j) mod 64) with j in H by dm. }
  clearbody t. pose proof (zlen_nonneg a). pose proof (zlen_nonneg b). destruct t; cbn [negb].
  - destruct (Z.ltb_spec (zlen a) (zlen b)).
    + rewrite forallb_zero, all_zero_iff by (now apply wfw_zdrop). split.
      * intros Hc x Hx T. destruct (Z_lt_dec x (64 * zlen a)); [apply C'; auto; lia|]. specialize (Hc (x - 64 * zlen a) ltac:(lia)). rewrite bget_zdrop in Hc by lia.
        replace (64 * zlen a + (x - 64 * zlen a)) with x in Hc by lia. congruence.
      * intros Hc x Hx. rewrite bget_zdrop by lia. destruct (bget b (64 * zlen a + x)) eqn:E; auto. apply Hc in E; [|lia]. rewrite bget_over in E by lia. discriminate.
    + split; auto. intros _ x Hx T. destruct (Z_lt_dec x (64 * zlen b)); [apply C'; auto; lia|]. rewrite bget_over in T by lia. discriminate.
  - split; [discriminate|]. intros Hc. apply C'. intros x Hx. apply Hc. lia.
Qed.

(** ** minimum, maximum *)
Lemma minimum_from_spec ws pre : wfw ws -> (forall x, 0 <= x < 64 * zlen pre -> bget (pre ++ ws) x = false) ->
  (bitset_minimum_from ws (zlen pre) = 2^64 - 1 /\ forall x, 0 <= x -> bget (pre ++ ws) x = false) \/
  (let m := bitset_minimum_from ws (zlen pre) in 0 <= m < 64 * zlen (pre ++ ws) /\ bget (pre ++ ws) m = true /\ forall x, 0 <= x < m -> bget (pre ++ ws) x = false).
Proof.
  revert pre. induction ws as [|w ws IH]; intros pre W H; cbn [bitset_minimum_from]; pose proof (zlen_nonneg pre).
  - left. split; auto. intros x Hx. destruct (Z_lt_dec x (64 * zlen pre)); [apply H; lia|]. apply bget_over. rewrite app_nil_r. lia.
  - inversion_clear W as [|? ? Hw W']. pose proof (zlen_nonneg ws).
    assert (E : forall j, 0 <= j < 64 -> bget (pre ++ w :: ws) (64 * zlen pre + j) = Z.testbit w j).
    { intros j Hj. rewrite bget_app by lia. replace (64 * zlen pre + j <? 64 * zlen pre) with false by lia. replace (64 * zlen pre + j - 64 * zlen pre) with j by lia.
      unfold bget. replace (j / 64) with 0 by dm. now replace (j mod 64) with j by dm. }
    destruct (Z.eqb_spec w 0) as [->|N]; cbn [negb].
    + replace (pre ++ 0 :: ws) with ((pre ++ [0]) ++ ws) in * by (now rewrite <- app_assoc).
      replace (zlen pre + 1) with (zlen (pre ++ [0])) by (rewrite zlen_app; reflexivity).
      destruct (IH (pre ++ [0]) W') as [IH'|IH'].
      * intros x Hx. rewrite zlen_app in Hx. change (zlen [0]) with 1 in Hx. destruct (Z_lt_dec x (64 * zlen pre)); [apply H; lia|].
        replace x with (64 * zlen pre + (x - 64 * zlen pre)) by lia. rewrite E by lia. apply Z.bits_0.
      * left. exact IH'.
      * right. exact IH'.
    + right. destruct (ctz_spec w Hw N) as (C1&C2&C3). cbn zeta. replace (ctz w + zlen pre * 64) with (64 * zlen pre + ctz w) by lia. split; [rewrite zlen_app, zlen_cons; lia|]. split; [now rewrite E|].
      intros x Hx. destruct (Z_lt_dec x (64 * zlen pre)); [apply H; lia|]. replace x with (64 * zlen pre + (x - 64 * zlen pre)) by lia. rewrite E by lia. apply C3. lia.
Qed.
Lemma minimum_spec ws : wfw ws ->
  (bitset_minimum ws = 2^64 - 1 /\ forall x, 0 <= x -> bget ws x = false) \/
  (0 <= bitset_minimum ws < 64 * zlen ws /\ bget ws (bitset_minimum ws) = true /\ forall x, 0 <= x < bitset_minimum ws -> bget ws x = false).
Proof. intros W. apply (minimum_from_spec ws [] W). intros x Hx. change (zlen (@nil Z)) with 0 in Hx. lia. Qed.
Lemma maximum_down_spec n ws : wfw ws -> (forall x, 64 * Z.of_nat n <= x -> bget ws x = false) ->
  (bitset_maximum_down n ws = 0 /\ forall x, 0 <= x -> bget ws x = false) \/
  (0 <= bitset_maximum_down n ws /\ bget ws (bitset_maximum_down n ws) = true /\ forall x, bitset_maximum_down n ws < x -> bget ws x = false).
Proof.
  intros W. induction n as [|m IH]; intros H; cbn [bitset_maximum_down].
  - left. split; [reflexivity|]. intros x Hx. apply H. lia.
  - destruct (Z.eqb_spec (znth ws (Z.of_nat m)) 0) as [E|N]; cbn [negb].
    + apply IH. intros x Hx. destruct (Z_lt_dec x (64 * Z.of_nat (S m))); [|apply H; lia]. apply (proj1 (word_zero_iff ws (Z.of_nat m) W ltac:(lia))); auto. lia.
    + right. destruct (clz_spec (znth ws (Z.of_nat m)) (wfw_znth _ _ W) N) as (C1&C2&C3). cbn zeta in *. set (c := 63 - clz (znth ws (Z.of_nat m))) in *. clearbody c.
      assert (E : forall j, 0 <= j < 64 -> bget ws (j + Z.of_nat m * 64) = Z.testbit (znth ws (Z.of_nat m)) j).
      { intros j Hj. unfold bget. replace ((j + Z.of_nat m * 64) / 64) with (Z.of_nat m) by dm. now replace ((j + Z.of_nat m * 64) mod 64) with j by dm. }
      split; [lia|]. split; [now rewrite E|]. intros x Hx. destruct (Z_lt_dec x (64 * Z.of_nat (S m))); [|apply H; lia].
      replace x with ((x - Z.of_nat m * 64) + Z.of_nat m * 64) by lia. rewrite E by lia. apply C3. lia.
Qed.
Lemma maximum_spec ws : wfw ws ->
  (bitset_maximum ws = 0 /\ forall x, 0 <= x -> bget ws x = false) \/
  (0 <= bitset_maximum ws /\ bget ws (bitset_maximum ws) = true /\ forall x, bitset_maximum ws < x -> bget ws x = false).
Proof. intros W. apply maximum_down_spec; auto. intros x Hx. now apply bget_over. Qed.
(** ** trim *)
Lemma trim_size_le n ws : (bitset_trim_size n ws <= n)%nat.
Proof. induction n; cbn [bitset_trim_size]; [lia|]. destruct (_ =? 0); lia. Qed.
Lemma trim_size_zero n ws i : Z.of_nat (bitset_trim_size n ws) <= i < Z.of_nat n -> znth ws i = 0.
Proof.
  revert i. induction n as [|m IH]; intros i Hi; cbn [bitset_trim_size] in Hi; [lia|]. destruct (Z.eqb_spec (znth ws (Z.of_nat m)) 0) as [E|N]; [|lia].
  destruct (Z.eq_dec i (Z.of_nat m)) as [->|]; auto. apply IH. lia.
Qed.
Lemma trim_size_last n ws : (0 < bitset_trim_size n ws)%nat -> znth ws (Z.of_nat (bitset_trim_size n ws) - 1) <> 0.
Proof.
  induction n as [|m IH]; cbn [bitset_trim_size]; [lia|]. destruct (Z.eqb_spec (znth ws (Z.of_nat m)) 0) as [E|N]; auto. intros _. now replace (Z.of_nat (S m) - 1) with (Z.of_nat m) by lia.
Qed.
Lemma trim_spec ws : wfw ws -> wfw (bitset_trim ws) /\ (forall x, 0 <= x -> bget (bitset_trim ws) x = bget ws x) /\
  (zlen (bitset_trim ws) = 0 \/ znth ws (zlen (bitset_trim ws) - 1) <> 0).
Proof.
  intros W. unfold bitset_trim. set (k := bitset_trim_size (length ws) ws). assert (K : (k <= length ws)%nat) by apply trim_size_le.
  assert (L : zlen (firstn k ws) = Z.of_nat k) by (unfold zlen; rewrite firstn_length; lia).
  replace (firstn k ws) with (zfirst (Z.of_nat k) ws) in * by (unfold zfirst; now rewrite Nat2Z.id). split; [now apply wfw_zfirst|]. split.
  - intros x Hx. rewrite bget_zfirst by lia. destruct (Z.ltb_spec x (64 * Z.of_nat k)); auto. cbn [andb].
    unfold bget. destruct (Z_lt_dec (x / 64) (zlen ws)); [|rewrite znth_overflow by lia; symmetry; apply Z.bits_0].
    rewrite (trim_size_zero (length ws) ws (x / 64)); [symmetry; apply Z.bits_0|]. fold k. unfold zlen in *. dm.
  - rewrite L. destruct (Nat.eq_dec k 0) as [->|N]; [now left|]. right. apply trim_size_last. fold k. lia.
Qed.

(** ** iteration *)
Lemma bget_at pre w ws j : 0 <= j < 64 -> bget (pre ++ w :: ws) (64 * zlen pre + j) = Z.testbit w j.
Proof.
  intros Hj. pose proof (zlen_nonneg pre). rewrite bget_app by lia. replace (64 * zlen pre + j <? 64 * zlen pre) with false by lia.
  replace (64 * zlen pre + j - 64 * zlen pre) with j by lia. unfold bget. replace (j / 64) with 0 by dm. now replace (j mod 64) with j by dm.
Qed.
Lemma next_set_word_spec ws pre : wfw ws ->
  match next_set_word ws (zlen pre) with
  | Some m => 64 * zlen pre <= m /\ bget (pre ++ ws) m = true /\ forall x, 64 * zlen pre <= x < m -> bget (pre ++ ws) x = false
  | None => forall x, 64 * zlen pre <= x -> bget (pre ++ ws) x = false
  end.
Proof.
  revert pre. induction ws as [|w ws IH]; intros pre W; cbn [next_set_word]; pose proof (zlen_nonneg pre).
  - intros x Hx. apply bget_over. rewrite app_nil_r. lia.
  - inversion_clear W as [|? ? Hw W']. destruct (Z.eqb_spec w 0) as [->|N]; cbn [negb].
    + specialize (IH (pre ++ [0]) W'). rewrite <- app_assoc in IH. cbn [app] in IH. rewrite zlen_app in IH. change (zlen [0]) with 1 in IH.
      assert (Z0 : forall x, 64 * zlen pre <= x < 64 * (zlen pre + 1) -> bget (pre ++ 0 :: ws) x = false).
      { intros x Hx. replace x with (64 * zlen pre + (x - 64 * zlen pre)) by lia. rewrite bget_at by lia. apply Z.bits_0. }
      destruct (next_set_word ws (zlen pre + 1)) as [m|].
      * destruct IH as (I1&I2&I3). split; [lia|]. split; auto. intros x Hx. destruct (Z_lt_dec x (64 * (zlen pre + 1))); [apply Z0; lia|apply I3; lia].
      * intros x Hx. destruct (Z_lt_dec x (64 * (zlen pre + 1))); [apply Z0; lia|apply IH; lia].
    + destruct (ctz_spec w Hw N) as (C1&C2&C3). replace (zlen pre * 64 + ctz w) with (64 * zlen pre + ctz w) by lia. split; [lia|]. split; [now rewrite bget_at|].
      intros x Hx. replace x with (64 * zlen pre + (x - 64 * zlen pre)) by lia. rewrite bget_at by lia. apply C3. lia.
Qed.
Lemma next_set_bit_spec ws i : wfw ws -> 0 <= i ->
  match bitset_next_set_bit ws i with
  | Some m => i <= m /\ bget ws m = true /\ forall x, i <= x < m -> bget ws x = false
  | None => forall x, i <= x -> bget ws x = false
  end.
Proof.
  intros W Hi. unfold bitset_next_set_bit. destruct (Z.leb_spec (zlen ws) (i / 64)).
  { intros x Hx. apply bget_over. dm. }
  change 63 with (Z.ones 6). rewrite Z.land_ones by lia. change (2^6) with 64. set (w := shr64 (znth ws (i / 64)) (i mod 64)).
  assert (Ww : isw w) by (apply isw_shr; [now apply wfw_znth|dm]).
  assert (E : forall j, 0 <= j < 64 - i mod 64 -> bget ws (i + j) = Z.testbit w j).
  { intros j Hj. unfold w. rewrite tb_shr by lia. unfold bget. replace ((i + j) / 64) with (i / 64) by dm. f_equal. dm. }
  assert (F : forall j, 64 - i mod 64 <= j -> Z.testbit w j = false).
  { intros j Hj. unfold w. rewrite tb_shr by dm. apply isw_high; [now apply wfw_znth|dm]. }
  destruct (Z.eqb_spec w 0) as [Z0|N]; cbn [negb].
  - assert (A : forall x, i <= x < 64 * (i / 64 + 1) -> bget ws x = false).
    { intros x Hx. replace x with (i + (x - i)) by lia. rewrite E by dm. rewrite Z0. apply Z.bits_0. }
    pose proof (next_set_word_spec (zdrop (i / 64 + 1) ws) (zfirst (i / 64 + 1) ws) (wfw_zdrop _ _ W)) as S0. rewrite zfirst_zdrop, zfirst_zlen in S0 by dm.
    destruct (next_set_word _ _) as [m|].
    + destruct S0 as (I1&I2&I3). split; [dm|]. split; auto. intros x Hx. destruct (Z_lt_dec x (64 * (i / 64 + 1))); [apply A; lia|apply I3; lia].
    + intros x Hx. destruct (Z_lt_dec x (64 * (i / 64 + 1))); [apply A; lia|apply S0; lia].
  - destruct (ctz_spec w Ww N) as (C1&C2&C3). assert (ctz w < 64 - i mod 64) by (destruct (Z_lt_dec (ctz w) (64 - i mod 64)); auto; rewrite F in C2 by lia; discriminate).
    split; [lia|]. split; [rewrite E by lia; auto|]. intros x Hx. replace x with (i + (x - i)) by lia. rewrite E by lia. apply C3. lia.
Qed.
Lemma next_bits_word_eq fuel w base room : 1 <= room -> next_bits_word fuel w base room = firstn (Z.to_nat room) (iterate_word fuel w base).
Proof.
  revert w room. induction fuel as [|f IH]; intros w room Hr; cbn [next_bits_word iterate_word]. { symmetry. apply firstn_nil. }
  destruct (w =? 0). { symmetry. apply firstn_nil. }
  replace (Z.to_nat room) with (S (Z.to_nat (room - 1))) by lia. cbn [firstn]. f_equal. destruct (Z.eqb_spec 1 room) as [<-|N]; [reflexivity|]. apply IH. lia.
Qed.
Lemma next_bits_words_eq rest : forall w base room, 1 <= room -> next_bits_words w rest base room = firstn (Z.to_nat room) (bitset_iterate_seq (w :: rest) base).
Proof.
  induction rest as [|w' rest IH]; intros w base room Hr; cbn [next_bits_words bitset_iterate_seq]; rewrite next_bits_word_eq by auto; set (I := iterate_word 64 w base); clearbody I.
  - rewrite app_nil_r. now destruct (_ =? room).
  - assert (L : zlen (firstn (Z.to_nat room) I) = Z.min room (zlen I)) by (unfold zlen; rewrite firstn_length; lia). rewrite L. rewrite firstn_app. destruct (Z.eqb_spec (Z.min room (zlen I)) room).
    + replace (Z.to_nat room - length I)%nat with O by (unfold zlen in *; lia). rewrite firstn_O. now rewrite app_nil_r.
    + rewrite IH by lia. f_equal. change (bitset_iterate_seq (w' :: rest) (base + 64)) with (iterate_word 64 w' (base + 64) ++ bitset_iterate_seq rest (base + 64 + 64)). f_equal. unfold zlen in *. lia.
Qed.
Lemma next_set_bits_spec ws capacity startfrom : wfw ws -> 0 <= capacity -> 0 <= startfrom ->
  bitset_next_set_bits ws capacity startfrom =
  let out := firstn (Z.to_nat capacity) (filter (bget ws) (zr startfrom (64 * zlen ws))) in
  (out, if 0 <? zlen out then znth out (zlen out - 1) else startfrom).
Proof.
  intros W Hc Hs. unfold bitset_next_set_bits. cbn zeta. destruct (Z.eqb_spec capacity 0) as [->|Nc]; [reflexivity|].
  destruct (Z.leb_spec (zlen ws) (startfrom / 64)).
  { rewrite zr_nil by dm. cbn [filter]. rewrite firstn_nil. reflexivity. }
  change 63 with (Z.ones 6). rewrite Z.land_ones by lia. change (2^6) with 64. rewrite Z.shiftl_mul_pow2 by lia. change (2^6) with 64.
  set (x := startfrom / 64) in *. assert (Hx : 0 <= x) by (unfold x; dm). set (w := Z.land _ _).
  assert (Ww : isw w) by (apply isw_land; now apply wfw_znth). pose proof (zlen_nonneg ws).
  assert (Lw : zlen (w :: zdrop (x + 1) ws) = zlen ws - x) by (rewrite zlen_cons, zdrop_zlen by lia; lia).
  assert (Wr : wfw (w :: zdrop (x + 1) ws)) by (constructor; auto; now apply wfw_zdrop).
  assert (B : forall j, 0 <= j -> bget (w :: zdrop (x + 1) ws) j = (startfrom <=? x * 64 + j) && bget ws (x * 64 + j)).
  { intros j Hj. destruct (Z_lt_dec j 64).
    - unfold bget at 1. replace (j / 64) with 0 by dm. replace (j mod 64) with j by dm. rewrite znth_cons_0. unfold w. rewrite Z.land_spec, tb_not by lia.
      replace (Z.testbit (shl64 1 (startfrom mod 64) - 1) j) with (j <? startfrom mod 64).
      2:{ unfold shl64. rewrite Z.shiftl_mul_pow2 by dm. rewrite Z.mul_1_l. assert (2 ^ (startfrom mod 64) < 2^64) by (apply Z.pow_lt_mono_r; dm). rewrite (Z.mod_small (2 ^ (startfrom mod 64))) by (split; [apply Z.pow_nonneg; lia|auto]).
          rewrite Z.sub_1_r, <- Z.ones_equiv. symmetry. destruct (Z.ltb_spec j (startfrom mod 64)); [apply Z.ones_spec_low; lia|apply Z.ones_spec_high; dm]. }
      unfold bget. replace ((x * 64 + j) / 64) with x by dm. replace ((x * 64 + j) mod 64) with j by dm. rewrite andb_comm. f_equal. unfold x in *. apply eq_true_iff_eq. rewrite negb_true_iff, Z.ltb_ge, Z.leb_le. dm.
    - replace j with ((j - 64) + 64) at 1 by lia. rewrite bget_cons by lia. rewrite bget_zdrop by lia. replace (64 * (x + 1) + (j - 64)) with (x * 64 + j) by lia.
      replace (startfrom <=? x * 64 + j) with true; auto. symmetry. apply Z.leb_le. unfold x. dm. }
  assert (E : next_bits_words w (zdrop (x + 1) ws) (x * 64) capacity = firstn (Z.to_nat capacity) (filter (bget ws) (zr startfrom (64 * zlen ws)))).
  { rewrite next_bits_words_eq by lia. f_equal. rewrite bitset_iterate_seq_eq, bitset_extract_setbits_spec by auto. rewrite Lw. apply incr_ext.
    - rewrite (map_ext _ (fun y => x * 64 + y)) by (intros; lia). apply incr_map_add, incr_filter, zr_incr.
    - apply incr_filter, zr_incr.
    - intros y. rewrite in_map_iff, filter_In, zr_In. split.
      + intros (j&<-&Hj). apply filter_In in Hj as [Hj J3]. apply zr_In in Hj. rewrite B, andb_true_iff in J3 by lia. destruct J3 as [J2 J3]. apply Z.leb_le in J2. rewrite (Z.add_comm j). split; auto. lia.
      + intros [Y1 Y2]. assert (x * 64 <= startfrom) by (unfold x; dm). exists (y - x * 64). split; [lia|]. apply filter_In. rewrite zr_In. split; [lia|]. rewrite B by lia. replace (x * 64 + (y - x * 64)) with y by lia.
        rewrite Y2, andb_true_r. apply Z.leb_le. lia. }
  rewrite E. reflexivity.
Qed.
Lemma iterate_seq_filter ws : wfw ws -> bitset_iterate_seq ws 0 = filter (bget ws) (zr 0 (64 * zlen ws)).
Proof. intros W. rewrite bitset_iterate_seq_eq, bitset_extract_setbits_spec by auto. rewrite (map_ext _ (fun x => x)) by (intros; lia). apply map_id. Qed.

(** ** shifts *)
Lemma back_loop (F : list Z -> Z -> Z) n lo ws : 1 <= lo -> lo + Z.of_nat n <= zlen ws + 1 ->
  (forall a b i, (forall j, 0 <= j < i -> znth a j = znth b j) -> lo <= i -> F a i = F b i) ->
  let r := fold_left (fun ws i => zupd (i - 1) (F ws i) ws) (rev (zr lo (lo + Z.of_nat n))) ws in
  zlen r = zlen ws /\ forall j, 0 <= j -> znth r j = if (lo <=? j + 1) && (j + 1 <? lo + Z.of_nat n) then F ws (j + 1) else znth ws j.
Proof.
  intros Hlo. revert ws. induction n as [|n IH]; intros ws Hn HF r; subst r.
  - rewrite zr_nil by lia. cbn [rev fold_left]. split; auto. intros j Hj. now replace ((lo <=? j + 1) && (j + 1 <? lo + Z.of_nat 0)) with false by lia.
  - replace (lo + Z.of_nat (S n)) with (lo + Z.of_nat n + 1) in * by lia. rewrite zr_snoc by lia. rewrite rev_unit. cbn [fold_left].
    set (h := lo + Z.of_nat n) in *. set (ws' := zupd (h - 1) (F ws h) ws). assert (L : zlen ws' = zlen ws) by apply zupd_zlen.
    destruct (IH ws' ltac:(lia) HF) as [I1 I2]. split; [lia|]. intros j Hj. rewrite I2 by auto.
    assert (N : forall j, 0 <= j -> znth ws' j = if j =? h - 1 then F ws h else znth ws j) by (intros; apply znth_zupd; lia).
    destruct (Z.ltb_spec (j + 1) h).
    + replace (j + 1 <? h + 1) with true by lia. destruct (Z.leb_spec lo (j + 1)); cbn [andb].
      * apply HF; auto. intros j' Hj'. rewrite N by lia. now replace (j' =? h - 1) with false by lia.
      * rewrite N by lia. now replace (j =? h - 1) with false by lia.
    + rewrite andb_false_r. rewrite N by lia. destruct (Z.eqb_spec j (h - 1)) as [->|].
      * replace (h - 1 + 1) with h by lia. now replace ((lo <=? h) && (h <? h + 1)) with true by lia.
      * now replace (j + 1 <? h + 1) with false by lia; rewrite andb_false_r.
Qed.
Lemma fwd_loop (F : list Z -> Z -> Z) n lo ws : 0 <= lo -> lo + Z.of_nat n <= zlen ws ->
  (forall a b i, (forall j, i <= j -> znth a j = znth b j) -> lo <= i -> F a i = F b i) ->
  let r := fold_left (fun ws i => zupd i (F ws i) ws) (zr lo (lo + Z.of_nat n)) ws in
  zlen r = zlen ws /\ forall j, 0 <= j -> znth r j = if (lo <=? j) && (j <? lo + Z.of_nat n) then F ws j else znth ws j.
Proof.
  revert lo ws. induction n as [|n IH]; intros lo ws Hlo Hn HF r; subst r.
  - rewrite zr_nil by lia. cbn [fold_left]. split; auto. intros j Hj. now replace ((lo <=? j) && (j <? lo + Z.of_nat 0)) with false by lia.
  - rewrite zr_cons by lia. cbn [fold_left]. set (ws' := zupd lo (F ws lo) ws). assert (L : zlen ws' = zlen ws) by apply zupd_zlen.
    replace (lo + Z.of_nat (S n)) with (lo + 1 + Z.of_nat n) in * by lia.
    destruct (IH (lo + 1) ws' ltac:(lia) ltac:(lia)) as [I1 I2]. { intros a b i Hab Hi. apply HF; auto. lia. }
    split; [lia|]. intros j Hj. rewrite I2 by auto.
    assert (N : forall j, 0 <= j -> znth ws' j = if j =? lo then F ws lo else znth ws j) by (intros; apply znth_zupd; lia).
    destruct (Z.leb_spec (lo + 1) j); cbn [andb].
    + replace (lo <=? j) with true by lia. cbn [andb]. destruct (Z.ltb_spec j (lo + 1 + Z.of_nat n)).
      * apply HF; [|lia]. intros j' Hj'. rewrite N by lia. now replace (j' =? lo) with false by lia.
      * rewrite N by lia. now replace (j =? lo) with false by lia.
    + rewrite N by lia. destruct (Z.eqb_spec j lo) as [->|]. { now replace ((lo <=? lo) && (lo <? lo + 1 + Z.of_nat n)) with true by lia. }
      now replace (lo <=? j) with false by lia.
Qed.
Lemma wfw_of_znth ws : (forall i, 0 <= i -> isw (znth ws i)) -> wfw ws.
Proof. intros H. apply Forall_forall. intros w Hw. apply In_znth in Hw as (i&Hi&<-). apply H. lia. Qed.
Lemma zero_low_spec e ws : 0 <= e <= zlen ws -> zlen (wloop (fun _ => 0) 0 e ws) = zlen ws /\ forall j, 0 <= j -> znth (wloop (fun _ => 0) 0 e ws) j = if j <? e then 0 else znth ws j.
Proof.
  intros He. split; [apply zlen_wloop|]. intros j Hj. rewrite znth_wloop by lia. replace (0 <=? j) with true by lia. cbn [andb]. now destruct (j <? e).
Qed.
Lemma lor_shift_tb a b k i : isw a -> isw b -> 0 < k < 64 -> 0 <= i < 64 ->
  Z.testbit (Z.lor (shl64 a k) (shr64 b (64 - k))) i = if k <=? i then Z.testbit a (i - k) else Z.testbit b (i + 64 - k).
Proof.
  intros Wa Wb Hk Hi. rewrite Z.lor_spec, tb_shl, tb_shr by lia. destruct (Z.leb_spec k i); cbn [andb].
  - rewrite (isw_high b) by (auto; lia). apply orb_false_r.
  - cbn [orb]. f_equal. lia.
Qed.
Lemma shift_left_spec junk ws s : wfw ws -> (forall i, isw (junk i)) -> 0 <= s -> 0 < zlen ws -> zlen ws + s / 64 + 1 <= max_words ->
  exists r, bitset_shift_left junk ws s = Some r /\ wfw r /\ zlen r = zlen ws + s / 64 + (if s mod 64 =? 0 then 0 else 1) /\
    forall x, 0 <= x -> bget r x = (s <=? x) && bget ws (x - s).
Proof.
  intros W J Hs Hl Hm. unfold bitset_shift_left. set (e := s / 64) in *. set (k := s mod 64) in *. set (n := zlen ws) in *.
  assert (Hsk : s = 64 * e + k) by (unfold e, k; dm). assert (He : 0 <= e) by (unfold e; dm). assert (Hk : 0 <= k < 64) by (unfold k; dm). clearbody e k.
  destruct (Z.eqb_spec k 0) as [->|Nk].
  - unfold bitset_resize. replace (max_words <? n + e) with false by lia. fold n.
    set (ws0 := if n + e <=? n then Some (zfirst (n + e) ws) else Some (ws ++ map junk (zr n (n + e)))).
    assert (R : exists w0, ws0 = Some w0 /\ zlen w0 = n + e /\ forall j, 0 <= j < n -> znth w0 j = znth ws j).
    { unfold ws0. destruct (Z.leb_spec (n + e) n).
      - exists (zfirst (n + e) ws). split; auto. split; [apply zfirst_zlen; unfold n in *; lia|]. intros j Hj. apply znth_zfirst. lia.
      - exists (ws ++ map junk (zr n (n + e))). split; auto. split; [rewrite zlen_app, zlen_map, zr_zlen by lia; unfold n; lia|]. intros j Hj. apply znth_app1. exact Hj. }
    destruct R as (w0&->&L0&N0).
    replace (n + e + 1) with (e + 1 + Z.of_nat (Z.to_nat n)) by lia.
    destruct (back_loop (fun ws i => znth ws (i - 1 - e)) (Z.to_nat n) (e + 1) w0 ltac:(lia) ltac:(lia)) as [L1 N1]. { intros a b i Hab Hi. apply Hab. lia. }
    set (w1 := fold_left _ _ w0) in *. destruct (zero_low_spec e w1 ltac:(lia)) as [L2 N2]. set (r := wloop _ _ _ w1) in *. exists r. split; auto.
    assert (N : forall j, 0 <= j -> znth r j = if j <? e then 0 else znth ws (j - e)).
    { intros j Hj. rewrite N2 by auto. destruct (Z.ltb_spec j e); auto. rewrite N1 by auto. replace (e + 1 <=? j + 1) with true by lia. cbn [andb].
      destruct (Z.ltb_spec (j + 1) (e + 1 + Z.of_nat (Z.to_nat n))).
      - rewrite N0 by lia. f_equal. lia.
      - rewrite !znth_overflow; auto; try (unfold n in *; lia). }
    split; [apply wfw_of_znth; intros i Hi; rewrite N by auto; destruct (i <? e); [apply isw_0|now apply wfw_znth]|].
    split; [lia|]. intros x Hx. unfold bget. rewrite N by dm. destruct (Z.leb_spec s x); cbn [andb].
    + replace (x / 64 <? e) with false by dm. f_equal; [f_equal; dm|dm].
    + replace (x / 64 <? e) with true by dm. apply Z.bits_0.
  - destruct (resize_pad junk ws (n + e + 1) W ltac:(lia)) as (w0&E0&W0&L0&B0). rewrite E0. replace (n =? 0) with false by lia.
    assert (N0 : forall j, 0 <= j < n -> znth w0 j = znth ws j).
    { intros j Hj. apply isw_ext; [now apply wfw_znth|now apply wfw_znth|]. intros i Hi. specialize (B0 (64 * j + i) ltac:(lia)). replace (64 * j + i <? 64 * (n + e + 1)) with true in B0 by lia.
      unfold bget in B0. replace ((64 * j + i) / 64) with j in B0 by dm. now replace ((64 * j + i) mod 64) with i in B0 by dm. }
    set (w1 := zupd (n + e) _ w0). assert (L1 : zlen w1 = n + e + 1) by (unfold w1; rewrite zupd_zlen; auto).
    assert (N1 : forall j, 0 <= j -> znth w1 j = if j =? n + e then shr64 (znth ws (n - 1)) (64 - k) else znth w0 j).
    { intros j Hj. unfold w1. rewrite N0 by lia. apply znth_zupd; lia. }
    replace (n + e + 1) with (e + 2 + Z.of_nat (Z.to_nat (n - 1))) by lia.
    destruct (back_loop (fun ws i => Z.lor (shl64 (znth ws (i - 1 - e)) k) (shr64 (znth ws (i - 2 - e)) (64 - k))) (Z.to_nat (n - 1)) (e + 2) w1 ltac:(lia) ltac:(lia)) as [L2 N2].
    { intros a b i Hab Hi. rewrite (Hab (i - 1 - e)), (Hab (i - 2 - e)) by lia. reflexivity. }
    set (w2 := fold_left _ _ w1) in *. set (w3 := zupd e _ w2). assert (L3 : zlen w3 = n + e + 1) by (unfold w3; rewrite zupd_zlen; lia).
    assert (N3 : forall j, 0 <= j -> znth w3 j = if j =? e then shl64 (znth w2 0) k else znth w2 j) by (intros; apply znth_zupd; lia).
    destruct (zero_low_spec e w3 ltac:(lia)) as [L4 N4]. set (r := wloop _ _ _ w3) in *. exists r. split; auto.
    assert (N20 : znth w2 0 = znth ws 0).
    { rewrite N2 by lia. replace (e + 2 <=? 0 + 1) with false by lia. cbn [andb]. rewrite N1 by lia. replace (0 =? n + e) with false by lia. apply N0. lia. }
    assert (N : forall j, 0 <= j -> znth r j = if j <? e then 0 else if j =? e then shl64 (znth ws 0) k else Z.lor (shl64 (znth ws (j - e)) k) (shr64 (znth ws (j - e - 1)) (64 - k))).
    { intros j Hj. rewrite N4 by auto. destruct (Z.ltb_spec j e); auto. rewrite N3 by auto. destruct (Z.eqb_spec j e); [now rewrite N20|].
      rewrite N2 by auto. replace (e + 2 <=? j + 1) with true by lia. cbn [andb]. destruct (Z.ltb_spec (j + 1) (e + 2 + Z.of_nat (Z.to_nat (n - 1)))).
      - rewrite !N1 by lia. replace (j + 1 - 1 - e =? n + e) with false by lia. replace (j + 1 - 2 - e =? n + e) with false by lia. rewrite !N0 by lia. do 3 f_equal; lia.
      - rewrite N1 by auto. destruct (Z.eqb_spec j (n + e)) as [->|].
        + rewrite (znth_overflow ws (n + e - e)) by (unfold n; lia). replace (shl64 0 k) with 0 by (unfold shl64; now rewrite Z.shiftl_0_l). rewrite Z.lor_0_l. do 2 f_equal. lia.
        + rewrite !(znth_overflow) by (unfold n in *; lia). unfold shl64, shr64. now rewrite Z.shiftl_0_l, Z.shiftr_0_l. }
    split.
    { apply wfw_of_znth. intros i Hi. rewrite N by auto. destruct (i <? e); [apply isw_0|]. destruct (i =? e); [apply isw_shl|]. apply isw_lor; [apply isw_shl|apply isw_shr; [now apply wfw_znth|lia]]. }
    split; [lia|]. intros x Hx. unfold bget at 1. rewrite N by dm. destruct (Z.ltb_spec (x / 64) e).
    { replace (s <=? x) with false by dm. apply Z.bits_0. }
    destruct (Z.eqb_spec (x / 64) e) as [Q|Q].
    + rewrite tb_shl by dm. replace (k <=? x mod 64) with (s <=? x) by (apply eq_true_iff_eq; rewrite !Z.leb_le; dm). destruct (Z.leb_spec s x); auto. cbn [andb]. unfold bget. replace ((x - s) / 64) with 0 by dm. f_equal. dm.
    + replace (s <=? x) with true by dm. cbn [andb]. rewrite lor_shift_tb by (first [now apply wfw_znth|dm]). unfold bget. destruct (Z.leb_spec k (x mod 64)).
      * f_equal; [f_equal; dm|dm].
      * f_equal; [f_equal; dm|dm].
Qed.
Lemma shift_left_empty junk s : 0 <= s -> s / 64 + 1 <= max_words -> s mod 64 <> 0 -> bitset_shift_left junk bitset_create s = None.
Proof.
  intros Hs Hm N. unfold bitset_shift_left, bitset_create. change (zlen (@nil Z)) with 0. replace (s mod 64 =? 0) with false by lia.
  destruct (resize_pad junk [] (0 + s / 64 + 1) (Forall_nil _)) as (w0&E0&_); [dm|]. rewrite E0. reflexivity.
Qed.
Lemma shift_right_spec junk ws s : wfw ws -> 0 <= s -> s < 64 * zlen ws -> zlen ws <= max_words ->
  exists r, bitset_shift_right junk ws s = Some r /\ wfw r /\ zlen r = zlen ws - s / 64 /\ forall x, 0 <= x -> bget r x = bget ws (x + s).
Proof.
  intros W Hs Hl Hm. unfold bitset_shift_right. set (e := s / 64) in *. set (k := s mod 64) in *. set (n := zlen ws) in *.
  assert (Hsk : s = 64 * e + k) by (unfold e, k; dm). assert (He : 0 <= e) by (unfold e; dm). assert (Hk : 0 <= k < 64) by (unfold k; dm). clearbody e k.
  assert (Res : forall w, zlen w = n -> bitset_resize junk w (n - e) false = Some (zfirst (n - e) w)).
  { intros w Lw. unfold bitset_resize. replace (max_words <? n - e) with false by lia. now replace (n - e <=? zlen w) with true by lia. }
  destruct (Z.eqb_spec k 0) as [->|Nk].
  - replace (n <? e) with false by lia.
    destruct (fwd_loop (fun ws i => znth ws (i + e)) (Z.to_nat (n - e)) 0 ws ltac:(lia) ltac:(unfold n in *; lia)) as [L1 N1]. { intros a b i Hab Hi. apply Hab. lia. }
    replace (0 + Z.of_nat (Z.to_nat (n - e))) with (n - e) in * by lia. set (w1 := fold_left _ _ ws) in *. rewrite Res by exact L1. exists (zfirst (n - e) w1). split; auto.
    assert (N : forall j, 0 <= j < n - e -> znth (zfirst (n - e) w1) j = znth ws (j + e)).
    { intros j Hj. rewrite znth_zfirst by lia. rewrite N1 by lia. now replace ((0 <=? j) && (j <? n - e)) with true by lia. }
    assert (L : zlen (zfirst (n - e) w1) = n - e) by (apply zfirst_zlen; rewrite L1; unfold n in *; lia).
    assert (N' : forall j, 0 <= j -> znth (zfirst (n - e) w1) j = znth ws (j + e)).
    { intros j Hj. destruct (Z_lt_dec j (n - e)); [apply N; lia|]. rewrite !znth_overflow; auto; unfold n in *; lia. }
    split; [apply wfw_of_znth; intros i Hi; rewrite N' by auto; now apply wfw_znth|]. split; auto. intros x Hx. unfold bget. rewrite N' by dm. f_equal; [f_equal; dm|dm].
  - replace (n <=? e) with false by dm.
    destruct (fwd_loop (fun ws i => Z.lor (shr64 (znth ws (i + e)) k) (shl64 (znth ws (i + e + 1)) (64 - k))) (Z.to_nat (n - e - 1)) 0 ws ltac:(lia) ltac:(unfold n in *; lia)) as [L1 N1].
    { intros a b i Hab Hi. rewrite (Hab (i + e)), (Hab (i + e + 1)) by lia. reflexivity. }
    replace (0 + Z.of_nat (Z.to_nat (n - e - 1))) with (n - e - 1) in * by lia. set (w1 := fold_left _ _ ws) in *.
    assert (N1l : znth w1 (n - 1) = znth ws (n - 1)).
    { rewrite N1 by lia. now replace ((0 <=? n - 1) && (n - 1 <? n - e - 1)) with false by lia. }
    rewrite N1l. set (w2 := zupd (n - e - 1) _ w1). assert (L2 : zlen w2 = n) by (unfold w2; rewrite zupd_zlen; exact L1). rewrite Res by exact L2.
    exists (zfirst (n - e) w2). split; auto. assert (L : zlen (zfirst (n - e) w2) = n - e) by (apply zfirst_zlen; lia).
    assert (N' : forall j, 0 <= j -> znth (zfirst (n - e) w2) j = Z.lor (shr64 (znth ws (j + e)) k) (shl64 (znth ws (j + e + 1)) (64 - k))).
    { intros j Hj. destruct (Z_lt_dec j (n - e)).
      - rewrite znth_zfirst by lia. unfold w2. rewrite znth_zupd by (unfold n in *; lia). destruct (Z.eqb_spec j (n - e - 1)) as [->|].
        + rewrite (znth_overflow ws (n - e - 1 + e + 1)) by (unfold n; lia). replace (shl64 0 (64 - k)) with 0 by (unfold shl64; now rewrite Z.shiftl_0_l). rewrite Z.lor_0_r. do 2 f_equal. lia.
        + rewrite N1 by lia. now replace ((0 <=? j) && (j <? n - e - 1)) with true by lia.
      - rewrite !znth_overflow by (unfold n in *; lia). unfold shl64, shr64. now rewrite Z.shiftl_0_l, Z.shiftr_0_l. }
    split; [apply wfw_of_znth; intros i Hi; rewrite N' by auto; apply isw_lor; [apply isw_shr; [now apply wfw_znth|lia]|apply isw_shl]|]. split; auto.
    intros x Hx. unfold bget. rewrite N' by dm. rewrite Z.lor_comm. replace k with (64 - (64 - k)) at 2 by lia. rewrite lor_shift_tb by (first [now apply wfw_znth|dm]).
    destruct (Z.leb_spec (64 - k) (x mod 64)).
    + f_equal; [f_equal; dm|dm].
    + f_equal; [f_equal; dm|dm].
Qed.
Lemma shift_right_too_far junk ws s : 64 * zlen ws < s -> bitset_shift_right junk ws s = None.
Proof.
  intros H. unfold bitset_shift_right. destruct (Z.eqb_spec (s mod 64) 0).
  - now replace (zlen ws <? s / 64) with true by dm.
  - now replace (zlen ws <=? s / 64) with true by dm.
Qed.

(** ** conversion from a compressed bitmap *)
(** the key whose container is stored as a bitset *)
Definition bitkey (r : bitmap) (k : Z) : bool := match look r k with Some (CBit _) => true | _ => false end.
Definition isbit (c : container) : bool := match c with CBit _ => true | _ => false end.
Lemma set_runs_any r ws lo : wfw ws -> 0 <= lo -> rok lo r -> (forall x, In x r -> fst x + snd x < 64 * zlen ws) ->
  wfw (set_runs ws r) /\ zlen (set_runs ws r) = zlen ws /\ forall x, 0 <= x -> bget (set_runs ws r) x = bget ws x || rmem r x.
Proof.
  revert ws lo. induction r as [|[v l] r IH]; intros ws lo W Hlo H HB; unfold set_runs; cbn [fold_left].
  - split; auto. split; auto. intros. now rewrite orb_false_r.
  - cbn [rok] in H. destruct H as (A1&A2&A3&A4). cbn [fst snd]. fold (set_runs (bitset_set_lenrange ws v l) r).
    pose proof (HB (v, l) (or_introl eq_refl)) as V. cbn [fst snd] in V.
    destruct (IH (bitset_set_lenrange ws v l) (v + l + 2)) as (I1&I2&I3); [now apply wfw_set_lenrange|lia|auto|intros x Hx; rewrite zlen_set_lenrange; apply HB; now right|].
    split; auto. split; [now rewrite I2, zlen_set_lenrange|]. intros x Hx. rewrite I3 by auto.
    rewrite bitset_set_lenrange_spec by (auto; lia). rewrite rmem_cons. unfold inrun. cbn [fst snd]. now rewrite orb_assoc.
Qed.
Lemma write_container_spec ws c : wfw ws -> cok c -> (forall x, 0 <= x < 65536 -> cmem c x = true -> x < 64 * zlen ws) ->
  exists w, write_container ws c = Some w /\ wfw w /\ zlen w = zlen ws /\
    (forall x, 0 <= x < 65536 -> bget w x = cmem c x || (bget ws x && negb (isbit c))) /\ (forall x, 65536 <= x -> bget w x = bget ws x).
Proof.
  intros W C HB. pose proof (zlen_nonneg ws). destruct c as [a|b|r]; cbn [write_container cmem isbit negb cok] in *.
  - destruct C as [A _]. assert (HA : inb 0 (64 * zlen ws) a).
    { apply Forall_forall. intros x Hx. pose proof (amem_range a x A (proj2 (zmem_In _ _) Hx)). split; [lia|]. apply HB; [lia|]. now apply zmem_In. }
    replace (forallb _ a) with true.
    2:{ symmetry. apply forallb_forall. intros x Hx. pose proof (inb_In _ _ _ _ HA Hx). apply Z.ltb_lt. dm. }
    destruct (bitset_set_list_spec (zlen ws) a ws (conj W eq_refl) HA) as [[S1 S2] S3]. exists (bitset_set_list ws a). split; auto. split; auto. split; auto. split.
    + intros x Hx. rewrite S3 by lia. rewrite andb_true_r. apply orb_comm.
    + intros x Hx. rewrite S3 by lia. replace (zmem x a) with false; [apply orb_false_r|]. symmetry. destruct (zmem x a) eqn:E; auto. pose proof (amem_range a x A E). lia.
  - destruct C as [[[Wb Lb] _] _]. set (n := Z.min 1024 (zlen ws)). eexists. split; [reflexivity|]. split; [apply wfw_app; split; [now apply wfw_zfirst|now apply wfw_zdrop]|].
    assert (Lf : zlen (zfirst n (b_words b)) = n) by (apply zfirst_zlen; unfold n; lia).
    split; [rewrite zlen_app, Lf, zdrop_zlen by (unfold n; lia); lia|].
    assert (B : forall x, 0 <= x -> bget (zfirst n (b_words b) ++ zdrop n ws) x = if x <? 64 * n then bget (b_words b) x else bget ws x).
    { intros x Hx. rewrite bget_app, Lf by auto. destruct (Z.ltb_spec x (64 * n)).
      - rewrite bget_zfirst by (unfold n in *; lia). now replace (x <? 64 * n) with true by lia.
      - rewrite bget_zdrop by (unfold n in *; lia). f_equal. lia. }
    split; intros x Hx; rewrite B by lia.
    + rewrite andb_false_r, orb_false_r. destruct (Z.ltb_spec x (64 * n)); auto. unfold n in *. rewrite bget_over by lia. destruct (bget (b_words b) x) eqn:E; auto. specialize (HB x Hx E). lia.
    + now replace (x <? 64 * n) with false by (unfold n; lia).
  - destruct C as [R _]. assert (HR : forall x, In x r -> fst x + snd x < 64 * zlen ws).
    { intros [v l] Hx. cbn [fst snd]. destruct (rok_In 0 r v l R Hx) as (R1&R2&R3). apply HB; [lia|]. apply rmem_In. exists v, l. split; auto. lia. }
    replace (forallb _ r) with true. 2:{ symmetry. apply forallb_forall. intros x Hx. specialize (HR x Hx). apply Z.ltb_lt. dm. }
    destruct (set_runs_any r ws 0 W ltac:(lia) R HR) as (S1&S2&S3). exists (set_runs ws r). split; auto. split; auto. split; auto. split.
    + intros x Hx. rewrite S3 by lia. rewrite andb_true_r. apply orb_comm.
    + intros x Hx. rewrite S3 by lia. replace (rmem r x) with false; [apply orb_false_r|]. symmetry. destruct (rmem r x) eqn:E; auto. pose proof (rmem_range 0 r x R E). lia.
Qed.
Lemma mem_cons k c t v : mem ((k, c) :: t) v = if v / 65536 =? k then cmem c (v mod 65536) else mem t v.
Proof. unfold mem, km. cbn [look]. now destruct (v / 65536 =? k). Qed.
Lemma bitkey_cons k c t k' : bitkey ((k, c) :: t) k' = if k' =? k then isbit c else bitkey t k'.
Proof. unfold bitkey. cbn [look]. destruct (k' =? k); [now destruct c|reflexivity]. Qed.
Lemma to_bitset_loop_spec r : forall lo ws, 0 <= lo -> gok cok lo r -> wfw ws -> (forall v, 0 <= v -> mem r v = true -> v < 64 * zlen ws) ->
  exists w, to_bitset_loop r ws = Some w /\ wfw w /\ zlen w = zlen ws /\
    forall v, 0 <= v -> bget w v = mem r v || (bget ws v && negb (bitkey r (v / 65536))).
Proof.
  induction r as [|[k c] t IH]; intros lo ws Hlo G W HB; cbn [to_bitset_loop].
  - exists ws. split; auto. split; auto. split; auto. intros v Hv. unfold mem, km, bitkey. cbn [look]. now rewrite andb_true_r.
  - apply gok_cons in G as (K&C&G). rewrite Z.shiftl_mul_pow2 by lia. change (2^10) with 1024.
    destruct (container_maximum_spec c C) as (M1&M2&_). set (m := container_maximum c) in *. clearbody m.
    assert (HK : k * 1024 < zlen ws).
    { specialize (HB (65536 * k + m) ltac:(lia)). rewrite mem_cons in HB. replace ((65536 * k + m) / 65536) with k in HB by dm. rewrite Z.eqb_refl in HB. replace ((65536 * k + m) mod 65536) with m in HB by dm. specialize (HB M2). lia. }
    replace (zlen ws <? k * 1024) with false by lia.
    assert (Ld : zlen (zdrop (k * 1024) ws) = zlen ws - k * 1024) by (apply zdrop_zlen; lia).
    destruct (write_container_spec (zdrop (k * 1024) ws) c (wfw_zdrop _ _ W) C) as (w&E&Ww&Lw&Bw&Bw').
    { intros x Hx Cx. specialize (HB (65536 * k + x) ltac:(lia)). rewrite mem_cons in HB. replace ((65536 * k + x) / 65536) with k in HB by dm. rewrite Z.eqb_refl in HB. replace ((65536 * k + x) mod 65536) with x in HB by dm. specialize (HB Cx). lia. }
    rewrite E. set (w1 := zfirst (k * 1024) ws ++ w). assert (Lf : zlen (zfirst (k * 1024) ws) = k * 1024) by (apply zfirst_zlen; lia).
    assert (L1 : zlen w1 = zlen ws) by (unfold w1; rewrite zlen_app; lia).
    assert (W1 : wfw w1) by (apply wfw_app; split; [now apply wfw_zfirst|auto]).
    assert (MT : forall v, 0 <= v -> v / 65536 <= k -> mem t v = false) by (intros v Hv Hk; apply (km_below cok (k + 1)); auto; lia).
    assert (B1 : forall v, 0 <= v -> bget w1 v = if v / 65536 =? k then cmem c (v mod 65536) || (bget ws v && negb (isbit c)) else bget ws v).
    { intros v Hv. unfold w1. rewrite bget_app, Lf by auto. pose proof (Z.div_mod v 65536 ltac:(lia)) as DM. pose proof (Z.mod_pos_bound v 65536 ltac:(lia)) as MB.
      set (q := v / 65536) in *. set (o := v mod 65536) in *. clearbody q o. clear HB M1 M2 MT Ld L1 W1 HK. replace (64 * (k * 1024)) with (65536 * k) by lia. destruct (Z.ltb_spec v (65536 * k)).
      - replace (q =? k) with false by lia. rewrite bget_zfirst by lia. now replace (v <? 64 * (k * 1024)) with true by lia.
      - assert (D : bget (zdrop (k * 1024) ws) (v - 65536 * k) = bget ws v) by (rewrite bget_zdrop by lia; f_equal; lia).
        destruct (Z.eqb_spec q k).
        + rewrite Bw by lia. rewrite D. now replace (v - 65536 * k) with o by lia.
        + rewrite Bw' by lia. exact D. }
    destruct (IH (k + 1) w1 ltac:(lia) G W1) as (r'&E'&W'&L'&B').
    { intros v Hv T. rewrite L1. apply HB; auto. rewrite mem_cons. destruct (Z.eqb_spec (v / 65536) k); auto. rewrite MT in T by lia. discriminate. }
    exists r'. split; auto. split; auto. split; [lia|]. intros v Hv. rewrite B', B1, mem_cons, bitkey_cons by auto. destruct (Z.eqb_spec (v / 65536) k) as [Q|Q]; auto.
    rewrite MT by lia. replace (bitkey t (v / 65536)) with false. { cbn [orb negb]. now rewrite andb_true_r. }
    unfold bitkey. rewrite look_none; auto. destruct G as (_&GI&_). intros Hin. pose proof (inb_In _ _ _ _ GI Hin). lia.
Qed.
Lemma to_bitset_spec junk r ws : bok r -> wfw ws ->
  exists w, roaring_bitmap_to_bitset junk r ws = Some (w, true) /\ wfw w /\ zlen w <= max_words /\
    forall v, 0 <= v -> bget w v = mem r v || ((v <? 64 * (roaring_bitmap_maximum r / 64 + 1)) && bget ws v && negb (bitkey r (v / 65536))).
Proof.
  intros B W. unfold roaring_bitmap_to_bitset. set (m := roaring_bitmap_maximum r).
  assert (HM : 0 <= m < 2^32 /\ forall v, 0 <= v -> mem r v = true -> v <= m).
  { pose proof (roaring_bitmap_maximum_spec r B) as S0. fold m in S0. destruct (Z.eqb_spec (zlen r) 0) as [Z0|].
    - split; [lia|]. intros v Hv T. assert (r = []) by (destruct r; auto; rewrite zlen_cons in Z0; pose proof (zlen_nonneg r); lia). subst r. discriminate.
    - destruct S0 as [S1 S2]. split; [|intros v _ T; now apply S2]. unfold mem, km in S1. destruct (look r (m / 65536)) eqn:E; [|discriminate].
      apply look_some in E. destruct B as (_&BI&_). assert (Hk : In (m / 65536) (rkeys r)) by (unfold rkeys; now apply (in_map fst) in E). pose proof (inb_In _ _ _ _ BI Hk). dm. }
  destruct HM as [M1 M2]. destruct (resize_pad junk ws (m / 64 + 1) W) as (w0&E0&W0&L0&B0). { unfold max_words. dm. }
  rewrite E0. destruct (to_bitset_loop_spec r 0 w0 ltac:(lia) B W0) as (w&E&Ww&Lw&Bw). { intros v Hv T. specialize (M2 v Hv T). rewrite L0. dm. }
  rewrite E. exists w. split; auto. split; auto. split; [rewrite Lw, L0; unfold max_words; dm|]. intros v Hv. rewrite Bw, B0 by auto. now destruct (v <? 64 * (m / 64 + 1)).
Qed.
