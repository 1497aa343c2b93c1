(** PropsQuery: rank/select, extrema, extraction, iteration by callback, bulk
    membership, statistics (C08, C09, C10, C13, C30, C31, C35). *)
From Coq Require Import ZArith List Bool Lia Sorting.Sorted.
From Verif Require Import Base Convert Containers RArray RBinary RPoint RRange RQuery RStat RShift Spec Obs Hist Derived Samples.
Import ListNotations.
Local Open Scope Z_scope.
Local Opaque zr.

(** C08 *)
Theorem C08_rank : forall r P x, denotes r P -> val32 x -> has_card (zinter P (zival 0 (x + 1))) (roaring_bitmap_rank r x).
Proof. exact q_rank. Qed.
Print Assumptions C08_rank.
Theorem C08_get_index : forall r P x, denotes r P -> val32 x ->
  if P x then has_card (zinter P (zival 0 x)) (roaring_bitmap_get_index r x) else roaring_bitmap_get_index r x = -1.
Proof. exact q_get_index. Qed.
Print Assumptions C08_get_index.
(** select is exact on every bitmap that lacks at least one value *)
Theorem C08_select_partial : forall r P k, denotes r P -> (exists v, val32 v /\ P v = false) -> val32 k ->
  match roaring_bitmap_select r k with
  | Some v => val32 v /\ P v = true /\ has_card (zinter P (zival 0 v)) k
  | None => forall n, has_card P n -> n <= k
  end.
Proof. exact (fun r P k D N K => q_select r P k D K (den_select_ok r P D N)). Qed.
Print Assumptions C08_select_partial.
Theorem C08_select_of_get_index_partial : forall r P x, denotes r P -> (exists v, val32 v /\ P v = false) -> val32 x -> P x = true ->
  roaring_bitmap_select r (roaring_bitmap_get_index r x) = Some x.
Proof. exact (fun r P x D N X M => select_of_get_index r P x D X M (den_select_ok r P D N)). Qed.
Print Assumptions C08_select_of_get_index_partial.
Theorem C08_get_index_of_select_partial : forall r P k v, denotes r P -> (exists v, val32 v /\ P v = false) -> val32 k ->
  roaring_bitmap_select r k = Some v -> roaring_bitmap_get_index r v = k.
Proof. exact (fun r P k v D N K E => get_index_of_select r P k v D K (den_select_ok r P D N) E). Qed.
Print Assumptions C08_get_index_of_select_partial.
(** the bitmap of all 2^32 values: a rank below the cardinality is not found *)
Theorem C08_select_refuted : exists r k, denotes r zfull /\ val32 k /\ (exists n, has_card zfull n /\ k < n) /\ roaring_bitmap_select r k = None.
Proof. exact select_fails_on_full. Qed.
Print Assumptions C08_select_refuted.
Example C08_hypotheses : denotes sample sampleP /\ val32 0 /\ sampleP 0 = false.
Proof. split; [exact sample_den|]. unfold val32. split; [lia|reflexivity]. Qed.
Example C08_example : (map (roaring_bitmap_rank sample) [0; 1; 70000; 196609; 4294967295], map (roaring_bitmap_get_index sample) [5; 6; 131100; 262142],
   map (roaring_bitmap_select sample) [0; 2; 31; 32870; 32871])
  = ([0; 1; 3; 104; 32871], [1; -1; 31; 32870], [Some 1; Some 70000; Some 131100; Some 262142; None]).
Proof. vm_compute. reflexivity. Qed.

(** C09: the queries are answered up to the last one whose high half does not
    exceed that of the maximum; the remaining entries of the output array are not
    written at all *)
Theorem C09_rank_many_partial : forall r P qs, denotes r P -> Sorted Z.le qs -> (forall q, In q qs -> val32 q) ->
  exists done, roaring_bitmap_rank_many r qs = map (roaring_bitmap_rank r) done /\
    exists rest, qs = done ++ rest /\
    (forall q, In q done -> exists m, val32 m /\ P m = true /\ q / 65536 <= m / 65536) /\
    (forall q, In q rest -> forall m, val32 m -> P m = true -> m / 65536 < q / 65536).
Proof. exact rank_many_prefix. Qed.
Print Assumptions C09_rank_many_partial.
Theorem C09_rank_many_refuted : exists r qs, valid r /\ Sorted Z.le qs /\ (forall q, In q qs -> val32 q) /\
  length (roaring_bitmap_rank_many r qs) <> length qs.
Proof.
  exists (roaring_bitmap_of_ptr [1]), [5; 70000]. split; [apply (den_of_ptr [1]); intros v [<-|[]]; red; lia|].
  split; [repeat constructor; lia|]. split; [intros q [<-|[<-|[]]]; red; lia|]. vm_compute. discriminate.
Qed.
Print Assumptions C09_rank_many_refuted.
Example C09_example : roaring_bitmap_rank_many sample [0; 5; 5; 131080; 196610; 262143; 262144] = [0; 2; 2; 12; 105; 32871].
Proof. vm_compute. reflexivity. Qed.

(** C10 *)
Theorem C10_minimum : forall r P, denotes r P ->
  (val32 (roaring_bitmap_minimum r) /\ P (roaring_bitmap_minimum r) = true /\ forall v, val32 v -> P v = true -> roaring_bitmap_minimum r <= v)
  \/ (same_set P zempty /\ roaring_bitmap_minimum r = 2^32 - 1).
Proof. exact q_minimum. Qed.
Print Assumptions C10_minimum.
Theorem C10_maximum : forall r P, denotes r P ->
  (val32 (roaring_bitmap_maximum r) /\ P (roaring_bitmap_maximum r) = true /\ forall v, val32 v -> P v = true -> v <= roaring_bitmap_maximum r)
  \/ (same_set P zempty /\ roaring_bitmap_maximum r = 0).
Proof. exact q_maximum. Qed.
Print Assumptions C10_maximum.
Example C10_example : (roaring_bitmap_minimum sample, roaring_bitmap_maximum sample, roaring_bitmap_maximum other, roaring_bitmap_minimum []) = (1, 262142, 4294967295, 4294967295).
Proof. vm_compute. reflexivity. Qed.

(** C13 *)
Theorem C13_to_uint32_array : forall r P, denotes r P -> lists P (roaring_bitmap_to_uint32_array r).
Proof. exact q_to_array. Qed.
Print Assumptions C13_to_uint32_array.
Theorem C13_range_uint32_array : forall r P l offset limit, denotes r P -> lists P l -> 0 <= offset -> 0 < limit -> offset + limit <= Z.of_nat (length l) ->
  roaring_bitmap_range_uint32_array r offset limit = Some (slice offset limit l).
Proof. exact range_array_slice. Qed.
Print Assumptions C13_range_uint32_array.
(** pages that reach beyond the last member: the slice followed by zeros; nothing is
    written when the page starts at or after the cardinality *)
Theorem C13_range_uint32_array_beyond : forall r P l offset limit, denotes r P -> lists P l -> 0 <= offset -> 0 < limit ->
  roaring_bitmap_range_uint32_array r offset limit =
  if offset <? Z.of_nat (length l) then Some (slice 0 limit (slice offset (Z.of_nat (length l)) l ++ repeat 0 (Z.to_nat limit))) else None.
Proof. exact range_array_gen. Qed.
Print Assumptions C13_range_uint32_array_beyond.
Example C13_example : (roaring_bitmap_range_uint32_array sample 1 4, roaring_bitmap_range_uint32_array sample 32869 4, roaring_bitmap_range_uint32_array sample 32871 4)
  = (Some [5; 70000; 131072; 131073], Some [262140; 262142; 0; 0], None).
Proof. vm_compute. reflexivity. Qed.

(** C30 *)
Theorem C30_contains_bulk : forall r P vals, denotes r P -> (forall v, In v vals -> val32 v) -> contains_bulk_list r None vals = map P vals.
Proof. exact q_contains_bulk. Qed.
Print Assumptions C30_contains_bulk.
Example C30_example : contains_bulk_list sample None [131080; 131171; 131172; 5; 5; 4294967295; 196608; 70000] = [true; true; false; true; true; false; true; true].
Proof. vm_compute. reflexivity. Qed.

(** C31 *)
Theorem C31_iterate : forall (S : Type) (f : S -> Z -> S * bool) r P l s, denotes r P -> lists P l -> roaring_iterate f r s = call_until f l s.
Proof. exact @iterate_members. Qed.
Print Assumptions C31_iterate.
Theorem C31_iterate64 : forall (S : Type) (f : S -> Z -> S * bool) r P l h s, denotes r P -> lists P l ->
  roaring_iterate64 f r h s = call_until f (map (Z.lor h) l) s.
Proof. exact @iterate64_members. Qed.
Print Assumptions C31_iterate64.
Example C31_example : roaring_iterate (fun s v => (s ++ [v], v <? 131073)) sample [] = ([1; 5; 70000; 131072; 131073], false)
  /\ roaring_iterate (fun s v => (s + v, true)) (roaring_bitmap_of [1; 70000]) 0 = (70001, true).
Proof. vm_compute. auto. Qed.

(** C35 *)
Theorem C35_statistics_partial : forall r P, denotes r P ->
  let s := roaring_bitmap_statistics r in
  has_card P (stat_cardinality s) /\ min_value s = roaring_bitmap_minimum r /\ max_value s = roaring_bitmap_maximum r /\
  n_containers s = n_array_containers s + n_run_containers s + n_bitset_containers s /\
  (stat_cardinality s < 2^32 -> n_values_array_containers s + n_values_run_containers s + n_values_bitset_containers s = stat_cardinality s).
Proof. exact statistics_members. Qed.
Print Assumptions C35_statistics_partial.
Theorem C35_value_counters_refuted : exists r, denotes r zfull /\
  let s := roaring_bitmap_statistics r in
  n_values_array_containers s + n_values_run_containers s + n_values_bitset_containers s <> stat_cardinality s.
Proof. exact statistics_wraps. Qed.
Print Assumptions C35_value_counters_refuted.
Example C35_example : let s := roaring_bitmap_statistics sample in
  (n_containers s, n_array_containers s, n_run_containers s, n_bitset_containers s, n_values_array_containers s, n_values_run_containers s, n_values_bitset_containers s, stat_cardinality s)
  = (4, 2, 1, 1, 3, 100, 32768, 32871).
Proof. vm_compute. reflexivity. Qed.
