(** PropsBitset: uncompressed bitsets (C42-C44) and conversion to them (C32). *)
From Coq Require Import ZArith List Bool Lia Sorting.Sorted.
From Verif Require Import Base Convert Containers RArray RPoint RRange RQuery CBitset Spec SpecB Obs Hist Samples DerivedB.
Import ListNotations.
Local Open Scope Z_scope.
Local Opaque zr.

(** C32: into a bitset with no bit set, whatever its size *)
Theorem C32_to_bitset : forall junk r P ws, denotes r P -> bden ws zempty ->
  exists w, roaring_bitmap_to_bitset junk r ws = Some (w, true) /\ bden w (in32 P).
Proof. exact b_convert. Qed.
Print Assumptions C32_to_bitset.
(** into any bitset: no access out of bounds, all members set, nothing else but old bits *)
Theorem C32_to_bitset_any_target : forall junk r P ws Q, denotes r P -> bden ws Q ->
  exists w, roaring_bitmap_to_bitset junk r ws = Some (w, true) /\ forall v, 0 <= v ->
    (in32 P v = true -> bitset_get w v = true) /\ (bitset_get w v = true -> in32 P v = true \/ Q v = true).
Proof. exact b_convert_any. Qed.
Print Assumptions C32_to_bitset_any_target.
(** old bits do survive: the conversion does not clear its target *)
Theorem C32_reused_target_refuted : forall junk, exists r P ws Q v, denotes r P /\ bden ws Q /\ pos v /\ in32 P v = false /\
  exists w, roaring_bitmap_to_bitset junk r ws = Some (w, true) /\ bitset_get w v = true.
Proof. exact b_convert_reused_refuted. Qed.
Print Assumptions C32_reused_target_refuted.
Example C32_hypotheses : denotes sample sampleP /\ bden (bitset_create_with_capacity 1000) zempty.
Proof. split; [exact sample_den|]. apply bd_capacity. lia. Qed.
Example C32_example :
  match roaring_bitmap_to_bitset (fun _ => 77) sample (bitset_create_with_capacity 1000) with
  | Some (w, b) => (b, zlen w, bitset_count w, map (bitset_get w) [5; 6; 70000; 131072; 131172; 196608; 196609; 262142; 2 ^ 40])
  | None => (false, 0, 0, [])
  end = (true, 4096, 32871, [true; false; true; true; false; true; false; true; false]).
Proof. vm_compute. reflexivity. Qed.

(** C42: any sequence of calls on any number of bitsets *)
Theorem C42_bitset_histories : forall tr, Forall bcmd_ok tr ->
  (forall i v, 0 <= v -> bitset_get (fst (bexec tr empty_bheap) i) v = bspec_run tr empty_bregs i v) /\
  bagrees tr empty_bregs (snd (bexec tr empty_bheap)).
Proof. exact (fun tr L => let (R, A) := bexec_refines tr empty_bheap empty_bregs empty_brefines L in conj (fun i => proj2 (proj2 (R i))) A). Qed.
Print Assumptions C42_bitset_histories.
Theorem C42_bitset_histories_from : forall tr st S, (forall i, bden (st i) (S i)) -> Forall bcmd_ok tr ->
  (forall i, bden (fst (bexec tr st) i) (bspec_run tr S i)) /\ bagrees tr S (snd (bexec tr st)).
Proof. exact bexec_refines. Qed.
Print Assumptions C42_bitset_histories_from.
Theorem C42_bitset_fill : forall ws P, bden ws P -> bden (bitset_fill ws) (zival 0 (bitset_size_in_bits ws)).
Proof. exact bd_fill. Qed.
Print Assumptions C42_bitset_fill.
Definition ex_btrace : list bcmd :=
  [BSet 0 5; BSet 0 200; BPut 0 130 true; BPut 0 5 false; BSet 1 200; BSet 1 1000; BCopy 2 0; BUnion 2 1; BInterCount 0 1; BUnionCount 0 1; BDiffCount 1 0; BSymmCount 0 1;
   BMin 2; BMax 2; BContainsAll 2 0; BContainsAll 0 2; BSymm 2 1; BCount 2; BIntersect 1 2; BDisjoint 1 2; BInter 2 0; BTrim 2; BNext 2 131; BNextMany 2 1 0; BClear 0; BMin 0; BEmpty 0].
Example C42_hypotheses : Forall bcmd_ok ex_btrace.
Proof. unfold ex_btrace. repeat constructor; cbn [bcmd_ok]; unfold pos; try lia; try discriminate. Qed.
Example C42_example : snd (bexec ex_btrace empty_bheap) =
  [RNone; RNone; RNone; RNone; RNone; RNone; RNone; RNone; RNum 1; RNum 3; RNum 1; RNum 2; RNum 130; RNum 1000; RBool true; RBool false; RNone; RNum 1; RBool false; RBool true; RNone; RNone;
   ROpt None; RList [130]; RNone; RNum (2 ^ 64 - 1); RBool true].
Proof. vm_compute. reflexivity. Qed.

(** C43: enumeration *)
Theorem C43_next_set_bits : forall ws P capacity i l, bden ws P -> 0 <= capacity -> 0 <= i -> positions (fun v => (i <=? v) && P v) l ->
  bitset_next_set_bits ws capacity i = (firstn (Z.to_nat capacity) l, last (firstn (Z.to_nat capacity) l) i).
Proof. exact bq_next_many. Qed.
Print Assumptions C43_next_set_bits.
Theorem C43_for_each : forall (S : Type) (f : S -> Z -> S * bool) ws P l s, bden ws P -> positions P l -> bitset_for_each f ws s = call_until f l s.
Proof. exact @bq_for_each. Qed.
Print Assumptions C43_for_each.
Definition ex_words : list Z := fold_left bitset_set [3; 63; 64; 130; 131; 700] bitset_create.
Lemma ex_words_den : bden ex_words (zlist [3; 63; 64; 130; 131; 700]).
Proof.
  unfold ex_words. cbn [fold_left]. eapply bden_ext; [repeat (apply bd_set; [|unfold pos; lia]); apply bd_create|]. intros i Hi. unfold zadd, zlist, zempty, existsb.
  rewrite orb_false_r. cbn [orb]. rewrite !orb_assoc. reflexivity.
Qed.
Example C43_hypotheses : bden ex_words (zlist [3; 63; 64; 130; 131; 700]) /\ positions (fun v => (64 <=? v) && zlist [3; 63; 64; 130; 131; 700] v) [64; 130; 131; 700].
Proof.
  split; [exact ex_words_den|]. split; [repeat constructor|]. intros v. unfold zlist, existsb. cbn [In]. rewrite andb_true_iff, !orb_true_iff, !Z.eqb_eq, Z.leb_le. lia.
Qed.
Example C43_example : (bitset_next_set_bits ex_words 3 64, bitset_next_set_bits ex_words 3 132, bitset_next_set_bits ex_words 3 701) = (([64; 130; 131], 131), ([700], 700), ([], 701)).
Proof. vm_compute. reflexivity. Qed.

(** C44: shifts, on the arguments for which they are defined *)
Theorem C44_shift_left_partial : forall junk ws P s, bden ws P -> (forall i, 0 <= junk i < 2 ^ 64) -> 0 <= s -> 0 < bitset_size_in_words ws ->
  bitset_size_in_words ws + s / 64 + 1 <= 2 ^ 58 - 1 ->
  exists r, bitset_shift_left junk ws s = Some r /\ bden r (fun v => (s <=? v) && P (v - s)).
Proof. exact bd_shift_left. Qed.
Print Assumptions C44_shift_left_partial.
Theorem C44_shift_right_partial : forall junk ws P s, bden ws P -> 0 <= s -> s < bitset_size_in_bits ws ->
  exists r, bitset_shift_right junk ws s = Some r /\ bden r (fun v => P (v + s)).
Proof. exact bd_shift_right. Qed.
Print Assumptions C44_shift_right_partial.
(** shifting an empty bitset left by a distance that is not a multiple of 64 reads
    before the array; shifting right by more than the size leaves the array *)
Theorem C44_shift_left_empty_refuted : forall junk s, 0 <= s -> s / 64 + 1 <= 2 ^ 58 - 1 -> s mod 64 <> 0 -> bitset_shift_left junk bitset_create s = None.
Proof. exact shift_left_empty. Qed.
Print Assumptions C44_shift_left_empty_refuted.
Theorem C44_shift_right_too_far_refuted : forall junk ws s, 64 * bitset_size_in_words ws < s -> bitset_shift_right junk ws s = None.
Proof. exact shift_right_too_far. Qed.
Print Assumptions C44_shift_right_too_far_refuted.
Example C44_hypotheses : bden ex_words (zlist [3; 63; 64; 130; 131; 700]) /\ 0 < bitset_size_in_words ex_words /\ 131 < bitset_size_in_bits ex_words /\ 64 * bitset_size_in_words bitset_create < 1.
Proof. split; [exact ex_words_den|]. now vm_compute. Qed.
Example C44_example :
  (match bitset_shift_left (fun _ => 99) ex_words 70 with Some r => fst (bitset_next_set_bits r 10 0) | None => [] end,
   match bitset_shift_right (fun _ => 99) ex_words 64 with Some r => fst (bitset_next_set_bits r 10 0) | None => [] end) = ([73; 133; 134; 200; 201; 770], [0; 66; 67; 636]).
Proof. vm_compute. reflexivity. Qed.
