(** PropsR64: the 64-bit bitmaps (C45-C52, C54, C55) and the radix tree that indexes them (C53). *)
From Coq Require Import ZArith List Bool Lia Sorting.Sorted.
From Verif Require Import Base Spec SpecI Spec64 SpecArt Obs.
From Verif Require Import Art ArtM R64 R64I Hist64 Derived64.
From Verif Require Samples.
Import ListNotations.
Local Open Scope Z_scope.
Local Opaque zr n48_pairs n256_pairs.

(** C45: any sequence of calls on any number of bitmaps (the second component of each call
    stands for the capacities of the containers, which the caller cannot see) *)
Theorem C45_histories_refine_sets : forall tr, legal64 (map fst tr) (fun _ => zempty) -> exists st outs, exec64 tr empty_heap64 = Some (st, outs) /\
  (forall i, denotes64 (st i) (spec_run64 (map fst tr) (fun _ => zempty) i)) /\ agrees64 (map fst tr) (fun _ => zempty) outs.
Proof. exact h_histories. Qed.
Print Assumptions C45_histories_refine_sets.
Theorem C45_histories_refine_sets_from : forall tr st S, (forall i, denotes64 (st i) (S i)) -> legal64 (map fst tr) S -> exists st1 outs, exec64 tr st = Some (st1, outs) /\
  (forall i, denotes64 (st1 i) (spec_run64 (map fst tr) S i)) /\ agrees64 (map fst tr) S outs.
Proof. exact h_histories_from. Qed.
Print Assumptions C45_histories_refine_sets_from.
Definition trace64 : list (cmd64 * (list Z -> Z)) := map (fun c => (c, fun _ => 0))
  [LOf 0 [7; 2^40]; LAddRangeClosed 0 (2^64 - 70000) (2^64 - 1); LCopy 1 0; LRemoveRange 1 0 (2^64 - 3); LFlip 2 1 (2^64 - 4) (2^64 - 1);
   LOr 3 1 2; LXorInplace 0 3; MCardinality 0; MMaximum 1; MToArray 3; LRemoveMany 3 [2^64 - 4]; MToArray 3; MEquals 1 3; MRank 0 (2^64 - 5); MSelect 0 1; LAddChecked 3 5; MContains 3 5].
Example C45_hypotheses : legal64 (map fst trace64) (fun _ => zempty).
Proof.
  cbn [trace64 map fst legal64 cmd64_ok spec_step64].
  repeat match goal with |- _ /\ _ => split end; try exact Logic.I; try discriminate; try (unfold val64; lia); try (exists 0; split; [unfold val64; lia|reflexivity]).
  - intros v [<-|[<-|[]]]; unfold val64; lia.
  - intros v [<-|[]]. split; [unfold val64; lia|reflexivity].
  - repeat constructor. intros [].
Qed.
Example C45_example : match exec64 trace64 empty_heap64 with Some (_, outs) => outs | None => [] end =
  [RNone; RNone; RNone; RNone; RNone; RNone; RNone; RNum 69998; RNum (2^64 - 1); RList [2^64 - 4; 2^64 - 3; 2^64 - 2; 2^64 - 1]; RNone; RList [2^64 - 3; 2^64 - 2; 2^64 - 1]; RBool true; RNum 69998; ROpt (Some (2^40)); RBool true; RBool true].
Proof. vm_compute. reflexivity. Qed.

(** C46 *)
Theorem C46_set_algebra : forall a b P Q cap, denotes64 a P -> denotes64 b Q ->
  gives (roaring64_bitmap_and a b) (zinter P Q) /\ gives (roaring64_bitmap_or a b) (zunion P Q) /\
  gives (roaring64_bitmap_xor a b) (zsymm P Q) /\ gives (roaring64_bitmap_andnot a b) (zdiff P Q) /\
  gives (roaring64_bitmap_and_inplace false a b) (zinter P Q) /\ gives (roaring64_bitmap_or_inplace false cap a b) (zunion P Q) /\
  gives (roaring64_bitmap_xor_inplace false a b) (zsymm P Q) /\ gives (roaring64_bitmap_andnot_inplace a b) (zdiff P Q).
Proof. exact h_algebra. Qed.
Print Assumptions C46_set_algebra.
Theorem C55_cardinalities : forall a b P Q, denotes64 a P -> denotes64 b Q ->
  counts (roaring64_bitmap_get_cardinality a) P /\
  counts (roaring64_bitmap_and_cardinality a b) (zinter P Q) /\ counts (roaring64_bitmap_or_cardinality a b) (zunion P Q) /\
  counts (roaring64_bitmap_xor_cardinality a b) (zsymm P Q) /\ counts (roaring64_bitmap_andnot_cardinality a b) (zdiff P Q) /\
  (exists i u, roaring64_bitmap_jaccard_index a b = Some (i, u) /\ card_word (zinter P Q) i /\ card_word (zunion P Q) u).
Proof. exact h_cardinalities. Qed.
Print Assumptions C55_cardinalities.
(** the 64-bit answer is the true cardinality as soon as one value is missing *)
Theorem C55_cardinalities_exact : forall P n, proper P -> (card_word P n <-> has_card64 P n).
Proof. exact h_card_word. Qed.
Print Assumptions C55_cardinalities_exact.
Theorem C46_comparisons : forall a b P Q, denotes64 a P -> denotes64 b Q ->
  (exists x, roaring64_bitmap_equals a b = Some x /\ (x = true <-> same_set64 P Q)) /\
  (exists x, roaring64_bitmap_is_subset a b = Some x /\ (x = true <-> zsubset64 P Q)) /\
  (exists x, roaring64_bitmap_intersect a b = Some x /\ (x = true <-> exists v, val64 v /\ P v = true /\ Q v = true)) /\
  (roaring64_bitmap_is_empty a = true <-> same_set64 P zempty).
Proof. exact h_comparisons. Qed.
Print Assumptions C46_comparisons.
Theorem C55_strict_subset_partial : forall a b P Q, denotes64 a P -> denotes64 b Q -> proper P -> proper Q ->
  exists x, roaring64_bitmap_is_strict_subset a b = Some x /\ (x = true <-> zsubset64 P Q /\ ~ zsubset64 Q P).
Proof. exact h_strict_subset. Qed.
Print Assumptions C55_strict_subset_partial.
(** with all 2^64 values present the cardinality is reported as 0 *)
Theorem C55_cardinality_refuted : exists r, denotes64 r zfull64 /\ roaring64_bitmap_get_cardinality r = Some 0 /\ roaring64_bitmap_is_empty r = false.
Proof. exact h_cardinality_refuted. Qed.
Print Assumptions C55_cardinality_refuted.
Theorem C55_strict_subset_refuted : exists r1 r2, denotes64 r1 zempty /\ denotes64 r2 zfull64 /\ roaring64_bitmap_is_strict_subset r1 r2 = Some false.
Proof. exact h_strict_subset_refuted. Qed.
Print Assumptions C55_strict_subset_refuted.
Example C46_hypotheses : denotes64 sample64 (zlist vs64) /\ denotes64 other64 (zlist vs64b) /\ proper (zlist vs64).
Proof. split; [exact sample64_den|]. split; [exact other64_den|exact sample64_proper]. Qed.
Definition members (o : option r64) : option (list Z) := match o with Some r => roaring64_bitmap_to_uint64_array r | None => None end.
Example C46_example : (members (roaring64_bitmap_and sample64 other64), members (roaring64_bitmap_xor_inplace false sample64 other64), members (roaring64_bitmap_andnot other64 sample64),
  roaring64_bitmap_or_cardinality sample64 other64, roaring64_bitmap_is_subset other64 sample64, roaring64_bitmap_intersect sample64 other64)
  = (Some [3; 65537; 2^40], Some [9; 65535; 65536; 2^32 + 5; 2^40 + 1; 2^64 - 1], Some [9; 2^40 + 1], Some 9, Some false, Some true).
Proof. vm_compute. reflexivity. Qed.

(** C47 *)
Theorem C47_range_updates : forall r P cap a b, denotes64 r P -> val64 a -> val64 b ->
  gives (roaring64_bitmap_add_range_closed r a b) (zunion P (zival a (b + 1))) /\ gives (roaring64_bitmap_add_range r a b) (zunion P (zival a b)) /\
  gives (roaring64_bitmap_remove_range_closed r a b) (zdiff P (zival a (b + 1))) /\ gives (roaring64_bitmap_remove_range r a b) (zdiff P (zival a b)) /\
  gives (roaring64_bitmap_flip_closed r a b) (zsymm P (zival a (b + 1))) /\ gives (roaring64_bitmap_flip r a b) (zsymm P (zival a b)) /\
  gives (roaring64_bitmap_flip_closed_inplace cap r a b) (zsymm P (zival a (b + 1))) /\ gives (roaring64_bitmap_flip_inplace cap r a b) (zsymm P (zival a b)).
Proof. exact h_ranges. Qed.
Print Assumptions C47_range_updates.
Theorem C47_range_queries : forall r P a b, denotes64 r P -> val64 a -> val64 b ->
  counts (roaring64_bitmap_range_cardinality r a b) (zinter P (zival a b)) /\ counts (roaring64_bitmap_range_closed_cardinality r a b) (zinter P (zival a (b + 1))) /\
  (exists x, roaring64_bitmap_intersect_with_range r a b = Some x /\ (x = true <-> exists v, a <= v < b /\ P v = true)).
Proof. exact h_range_queries. Qed.
Print Assumptions C47_range_queries.
Theorem C47_from_range : forall lo hi step, val64 lo -> val64 hi -> 0 <= step < 2 ^ 64 ->
  if (step =? 0) || (hi <=? lo) then roaring64_bitmap_from_range lo hi step = Some None
  else exists r, roaring64_bitmap_from_range lo hi step = Some (Some r) /\ denotes64 r (zprog lo hi step).
Proof. exact h_from_range. Qed.
Print Assumptions C47_from_range.
Example C47_hypotheses : denotes64 sample64 (zlist vs64) /\ val64 65530 /\ val64 (2 ^ 64 - 1).
Proof. split; [exact sample64_den|]. split; unfold val64; lia. Qed.
Example C47_example : (members (roaring64_bitmap_flip sample64 65535 65540), roaring64_bitmap_range_closed_cardinality sample64 65536 (2^64 - 1), roaring64_bitmap_range_cardinality sample64 65536 (2^64 - 1),
  match roaring64_bitmap_from_range (2^64 - 200000) (2^64 - 1) 70000 with Some o => members o | None => None end)
  = (Some [3; 65538; 65539; 2^32 + 5; 2^40; 2^64 - 1], Some 5, Some 4, Some [2^64 - 200000; 2^64 - 130000; 2^64 - 60000]).
Proof. vm_compute. reflexivity. Qed.

(** C48 *)
Theorem C48_rank : forall r P v, denotes64 r P -> val64 v -> counts (roaring64_bitmap_rank r v) (zinter P (zival 0 (v + 1))).
Proof. exact h_rank. Qed.
Print Assumptions C48_rank.
Theorem C48_get_index : forall r P v, denotes64 r P -> val64 v -> exists o, roaring64_bitmap_get_index r v = Some o /\
  match o with Some n => P v = true /\ has_card64 (zinter P (zival 0 v)) n | None => P v = false end.
Proof. exact h_get_index. Qed.
Print Assumptions C48_get_index.
Theorem C48_select_partial : forall r P k, denotes64 r P -> val64 k -> proper P -> exists o, roaring64_bitmap_select r k = Some o /\
  match o with Some v => val64 v /\ P v = true /\ has_card64 (zinter P (zival 0 v)) k | None => forall n, has_card64 P n -> n <= k end.
Proof. exact h_select. Qed.
Print Assumptions C48_select_partial.
(** the full universe: value k is at index k, but the last 65536 indexes are reported as out of range *)
Theorem C48_select_refuted : exists r, denotes64 r zfull64 /\ forall k, 2^64 - 65536 <= k < 2^64 -> roaring64_bitmap_select r k = Some None.
Proof. exact h_select_refuted. Qed.
Print Assumptions C48_select_refuted.
Theorem C48_minimum_maximum : forall r P, denotes64 r P ->
  (exists m, roaring64_bitmap_minimum r = Some m /\ ((val64 m /\ P m = true /\ forall v, val64 v -> P v = true -> m <= v) \/ (same_set64 P zempty /\ m = 2 ^ 64 - 1))) /\
  (exists m, roaring64_bitmap_maximum r = Some m /\ ((val64 m /\ P m = true /\ forall v, val64 v -> P v = true -> v <= m) \/ (same_set64 P zempty /\ m = 0))).
Proof. exact h_extremes. Qed.
Print Assumptions C48_minimum_maximum.
Example C48_example : (roaring64_bitmap_rank sample64 (2^40 - 1), roaring64_bitmap_get_index sample64 (2^40), roaring64_bitmap_get_index sample64 4, roaring64_bitmap_select sample64 5,
  roaring64_bitmap_select sample64 6, roaring64_bitmap_select sample64 7, roaring64_bitmap_minimum sample64, roaring64_bitmap_maximum sample64)
  = (Some 5, Some (Some 5), Some None, Some (Some (2^40)), Some (Some (2^64 - 1)), Some None, Some 3, Some (2^64 - 1)).
Proof. vm_compute. reflexivity. Qed.

(** C49: exact when no member lies in a block after the range; always complete; sound on the first block *)
Theorem C49_contains_range_partial : forall r P a b, denotes64 r P -> val64 a -> val64 b -> (forall v, val64 v -> P v = true -> v / 65536 <= (b - 1) / 65536) ->
  exists x, roaring64_bitmap_contains_range r a b = Some x /\ (x = true <-> forall v, a <= v < b -> P v = true).
Proof. exact h_contains_range. Qed.
Print Assumptions C49_contains_range_partial.
Theorem C49_contains_range_complete : forall r P a b, denotes64 r P -> val64 a -> val64 b -> (forall v, a <= v < b -> P v = true) -> roaring64_bitmap_contains_range r a b = Some true.
Proof. exact h_contains_range_complete. Qed.
Print Assumptions C49_contains_range_complete.
Theorem C49_contains_range_first_block : forall r P a b, denotes64 r P -> val64 a -> val64 b -> a < b -> roaring64_bitmap_contains_range r a b = Some true ->
  P a = true /\ forall v, a <= v < b -> v / 65536 = a / 65536 -> P v = true.
Proof. exact h_contains_range_first_block. Qed.
Print Assumptions C49_contains_range_first_block.
(** {65535, 327680} is said to contain 65535..65536 *)
Theorem C49_contains_range_refuted : exists r P a b v, denotes64 r P /\ val64 a /\ val64 b /\ roaring64_bitmap_contains_range r a b = Some true /\ a <= v < b /\ P v = false.
Proof. exact h_contains_range_refuted. Qed.
Print Assumptions C49_contains_range_refuted.
Example C49_example : (roaring64_bitmap_contains_range sample64 65535 65538, roaring64_bitmap_contains_range sample64 65535 65539, roaring64_bitmap_contains_range sample64 (2^64 - 1) (2^64 - 1)) = (Some true, Some false, Some true).
Proof. vm_compute. reflexivity. Qed.

(** C50 *)
Theorem C50_iterators_partial : forall r P l cs, denotes64 r P -> lists64 P l ->
  (ilegal64 l 0 false cs -> exists j, roaring64_iterator_create r = Some j /\ shown j = seen64 l 0 /\ iter_run64 r j cs = Some (cursor_run64 l 0 cs)) /\
  (ilegal64 l (len_of l - 1) false cs -> exists j, roaring64_iterator_create_last r = Some j /\ shown j = seen64 l (len_of l - 1) /\ iter_run64 r j cs = Some (cursor_run64 l (len_of l - 1) cs)).
Proof. exact h_iterators. Qed.
Print Assumptions C50_iterators_partial.
(** after a read to the end, advance and previous read uninitialised memory; or, if the iterator
    had been moved before the first value earlier, advance starts again from the beginning *)
Theorem C50_read_to_end_refuted : forall r P l, denotes64 r P -> lists64 P l -> proper P -> l <> [] ->
  (exists j j1, roaring64_iterator_create r = Some j /\ roaring64_iterator_read r j (2 ^ 64 - 1) = Some (j1, l) /\ shown j1 = None /\ roaring64_iterator_advance r j1 = None /\ roaring64_iterator_previous r j1 = None) /\
  (exists j j1 j2 j3 j4, roaring64_iterator_create r = Some j /\ roaring64_iterator_previous r j = Some (j1, false) /\ roaring64_iterator_advance r j1 = Some (j2, true) /\
    roaring64_iterator_read r j2 (2 ^ 64 - 1) = Some (j3, l) /\ shown j3 = None /\ roaring64_iterator_advance r j3 = Some (j4, true)).
Proof. exact h_iterator_refuted. Qed.
Print Assumptions C50_read_to_end_refuted.
Definition moves64 : list icmd := [ISeek 65536; IPrevious; IRead 3; ISeek (2^41); IAdvance; IPrevious; IRead 9; ISeek 0; IPrevious; IPrevious; IAdvance].
Example C50_hypotheses : denotes64 sample64 (zlist vs64) /\ lists64 (zlist vs64) vs64 /\ ilegal64 vs64 0 false moves64.
Proof. split; [exact sample64_den|]. split; [exact sample64_lists|]. vm_compute. repeat split; intros; discriminate. Qed.
Example C50_example : match roaring64_iterator_create sample64 with Some j => iter_run64 sample64 j moves64 | None => None end =
  Some [(Some 65536, []); (Some 65535, []); (Some (2^32 + 5), [65535; 65536; 65537]); (Some (2^64 - 1), []); (None, []); (Some (2^64 - 1), []); (None, [2^64 - 1]); (Some 3, []); (None, []); (None, []); (Some 3, [])].
Proof. vm_compute. reflexivity. Qed.

(** C51 *)
Theorem C51_bulk_partial : forall r P os, denotes64 r P -> bulk_legal os P (fun _ => False) -> exists r', run_bulk os r = Some (r', bulk_answers os P) /\ denotes64 r' (bulk_final os P).
Proof. exact h_bulk. Qed.
Print Assumptions C51_bulk_partial.
(** the excluded sequences are exactly the undefined ones *)
Theorem C51_bulk_undefined : forall r P os, denotes64 r P -> Forall (fun o => val64 (bulk_arg o)) os -> ~ bulk_legal os P (fun _ => False) -> run_bulk os r = None.
Proof. exact h_bulk_undefined. Qed.
Print Assumptions C51_bulk_undefined.
Theorem C51_bulk_without_removal : forall r P os, denotes64 r P -> Forall (fun o => val64 (bulk_arg o)) os -> (forall v, ~ In (BDrop v) os) ->
  exists r', run_bulk os r = Some (r', bulk_answers os P) /\ denotes64 r' (bulk_final os P).
Proof. exact h_bulk_without_removal. Qed.
Print Assumptions C51_bulk_without_removal.
Theorem C51_remove_many_partial : forall r P vs, denotes64 r P -> NoDup vs -> (forall v, In v vs -> val64 v /\ P v = true) ->
  exists r1, roaring64_bitmap_remove_many r vs = Some r1 /\ denotes64 r1 (zdiff P (zlist vs)).
Proof. exact h_remove_many. Qed.
Print Assumptions C51_remove_many_partial.
(** {5}, remove_many [5; 6] uses a freed container *)
Theorem C51_remove_many_refuted : exists r P vs, denotes64 r P /\ (forall v, In v vs -> val64 v) /\ roaring64_bitmap_remove_many r vs = None.
Proof. exact h_remove_many_refuted. Qed.
Print Assumptions C51_remove_many_refuted.
Definition bulk_sample : list bulk64 := [BDrop 65536; BDrop 65535; BAsk 65537; BDrop 65537; BDrop 3; BPut (2^50); BDrop 65537; BAsk 65537].
Example C51_hypotheses : denotes64 sample64 (zlist vs64) /\ bulk_legal bulk_sample (zlist vs64) (fun _ => False).
Proof.
  split; [exact sample64_den|]. cbn [bulk_sample bulk_legal bulk_arg bulk_next bulk_stale_next]. unfold val64.
  repeat match goal with |- _ /\ _ => split end; try exact Logic.I; try lia; try tauto;
    first [intros (X & _); vm_compute in X; discriminate X|intros (_ & X & _); vm_compute in X; discriminate X|intros (X & _); specialize (X 65537 eq_refl); vm_compute in X; discriminate X].
Qed.
Example C51_example : match run_bulk bulk_sample sample64 with Some (r, bs) => (members (Some r), bs) | None => (None, []) end = (Some [2^32 + 5; 2^40; 2^50; 2^64 - 1], [true; false]).
Proof. vm_compute. reflexivity. Qed.

(** C52 *)
Theorem C52_iterate : forall (A : Type) (f : A -> Z -> A * bool) r P l s, denotes64 r P -> lists64 P l -> roaring64_bitmap_iterate f r s = Some (call_until f l s).
Proof. exact @h_iterate. Qed.
Print Assumptions C52_iterate.
Theorem C52_to_array : forall r P l, denotes64 r P -> lists64 P l -> proper P -> roaring64_bitmap_to_uint64_array r = Some l.
Proof. exact h_to_array. Qed.
Print Assumptions C52_to_array.
Example C52_example : (roaring64_bitmap_to_uint64_array sample64, roaring64_bitmap_iterate (fun l v => (v :: l, negb (v =? 2^32 + 5))) sample64 []) = (Some vs64, Some ([2^32 + 5; 65537; 65536; 65535; 3], false)).
Proof. vm_compute. reflexivity. Qed.

(** C53 *)
Theorem C53_radix_tree_is_ordered_map : forall cs, Forall acmd_ok cs -> exists a outs m, map_run cs art_init_cleared = Some (a, outs) /\ arun cs kempty m outs.
Proof. exact map_run_from_empty. Qed.
Print Assumptions C53_radix_tree_is_ordered_map.
Definition atrace : list acmd := map (fun n => APut n (n * 3)) [5; 2^40; 2^40 + 256; 2^40 + 257; 70000; 2^48 - 1; 6; 2^40 + 1; 2^40 + 513] ++
  [AFind 6; AFind 7; APut 6 1; AErase 2; AErase 5; ALower 6 2; AUpper 6 2; ALast 2; AInsertHere (2^40 + 2) 9 3; AEraseFrom 70001 4; AFirst 9; AIsEmpty].
Example C53_hypotheses : Forall acmd_ok atrace.
Proof. repeat (constructor; [cbn; unfold knum; lia|]). constructor. Qed.
Example C53_example : match map_run atrace art_init_cleared with Some (_, outs) => skipn 9 outs | None => [] end =
  [OVal (Some 18); OVal None; ONone; OVal None; OVal (Some 15); OEntries [(6, 1); (70000, 210000)]; OEntries [(70000, 210000); (2^40, 3 * 2^40)];
   OEntries [(2^48 - 1, 3 * (2^48 - 1)); (2^40 + 513, 3 * (2^40 + 513))]; OEntries [(2^40 + 2, 9); (2^40 + 256, 3 * (2^40 + 256)); (2^40 + 257, 3 * (2^40 + 257))];
   OEntries [(2^40, 3 * 2^40); (2^40 + 1, 3 * (2^40 + 1)); (2^40 + 2, 9); (2^40 + 256, 3 * (2^40 + 256))];
   OEntries [(6, 1); (70000, 210000); (2^40 + 257, 3 * (2^40 + 257)); (2^40 + 513, 3 * (2^40 + 513)); (2^48 - 1, 3 * (2^48 - 1))]; OBool false].
Proof. vm_compute. reflexivity. Qed.

(** C54 *)
Theorem C54_move_from_roaring32 : forall r P, denotes r P -> exists r1, roaring64_bitmap_move_from_roaring32 r = Some (r1, []) /\ denotes64 r1 (fun v => (v <? 2 ^ 32) && P v).
Proof. exact h_move. Qed.
Print Assumptions C54_move_from_roaring32.
Example C54_hypotheses : denotes Samples.sample Samples.sampleP.
Proof. exact Samples.sample_den. Qed.
Example C54_example : match roaring64_bitmap_move_from_roaring32 Samples.sample with
  | Some (r, src) => (roaring64_bitmap_get_cardinality r, roaring64_bitmap_maximum r, src) | None => (None, None, []) end
  = (Some (RBinary.roaring_bitmap_get_cardinality Samples.sample), Some (RQuery.roaring_bitmap_maximum Samples.sample), []).
Proof. vm_compute. reflexivity. Qed.
