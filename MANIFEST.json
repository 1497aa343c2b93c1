{
 "claims": [
  {
   "property": "C01",
   "status": "proved",
   "theorems": [
    "C01_histories_refine_sets",
    "C01_histories_refine_sets_from"
   ],
   "note": "Histories over any number of bitmaps; SHARED flags and spare capacities are arbitrary at every step."
  },
  {
   "property": "C02",
   "status": "proved",
   "theorems": [
    "C02_histories_stay_valid"
   ],
   "note": "Histories of the modelled operations, including writing a bitmap in the portable or native format and reading it back with the bounded readers."
  },
  {
   "property": "C03",
   "status": "proved",
   "theorems": [
    "C03_and",
    "C03_or",
    "C03_xor",
    "C03_andnot"
   ],
   "note": ""
  },
  {
   "property": "C04",
   "status": "proved",
   "theorems": [
    "C04_and_inplace",
    "C04_or_inplace",
    "C04_xor_inplace",
    "C04_andnot_inplace"
   ],
   "note": ""
  },
  {
   "property": "C05",
   "status": "proved",
   "theorems": [
    "C05_cardinality",
    "C05_is_empty",
    "C05_and_cardinality",
    "C05_or_cardinality",
    "C05_xor_cardinality",
    "C05_andnot_cardinality",
    "C05_jaccard",
    "C05_cardinality_unique"
   ],
   "note": ""
  },
  {
   "property": "C06",
   "status": "proved",
   "theorems": [
    "C06_equals"
   ],
   "note": ""
  },
  {
   "property": "C07",
   "status": "proved",
   "theorems": [
    "C07_is_subset",
    "C07_is_strict_subset",
    "C07_intersect"
   ],
   "note": ""
  },
  {
   "property": "C08",
   "status": "partial",
   "theorems": [
    "C08_rank",
    "C08_get_index",
    "C08_select_partial",
    "C08_select_of_get_index_partial",
    "C08_get_index_of_select_partial",
    "C08_select_refuted"
   ],
   "note": "rank and get_index proved in full; select proved for every bitmap that is not the full universe, refuted for the full universe held in bitsets (the uint32 running rank wraps)."
  },
  {
   "property": "C09",
   "status": "partial",
   "theorems": [
    "C09_rank_many_partial",
    "C09_rank_many_refuted"
   ],
   "note": "Exact up to the last query whose high half does not exceed the maximum's; queries after that are left unwritten (refuted)."
  },
  {
   "property": "C10",
   "status": "proved",
   "theorems": [
    "C10_minimum",
    "C10_maximum"
   ],
   "note": ""
  },
  {
   "property": "C11",
   "status": "proved",
   "theorems": [
    "C11_intersect_with_range",
    "C11_add_range",
    "C11_add_range_closed",
    "C11_remove_range",
    "C11_remove_range_closed",
    "C11_flip",
    "C11_flip_closed",
    "C11_flip_inplace",
    "C11_flip_inplace_closed",
    "C11_contains_range",
    "C11_range_cardinality"
   ],
   "note": "All bounds up to 2^32, including intersect_with_range."
  },
  {
   "property": "C12",
   "status": "partial",
   "theorems": [
    "C12_intersect_with_range_refuted",
    "C12_start_beyond_partial",
    "C12_add_range_at_2_32_refuted",
    "C12_remove_range_at_2_32_refuted",
    "C12_range_cardinality_at_2_32_refuted",
    "C12_end_beyond_refuted",
    "C12_contains_range_end_beyond_refuted"
   ],
   "note": "False of the code: the guards accept 2^32 and the casts truncate; refutations given. Ranges starting above 2^32 proved to be without effect."
  },
  {
   "property": "C13",
   "status": "proved",
   "theorems": [
    "C13_to_uint32_array",
    "C13_range_uint32_array",
    "C13_range_uint32_array_beyond"
   ],
   "note": "Slices proved; the behaviour of pages reaching past the end (zero padding, or nothing written) is stated too. Allocation failure not modelled."
  },
  {
   "property": "C14",
   "status": "proved",
   "theorems": [
    "C14_iterator_from_first",
    "C14_iterator_from_last"
   ],
   "note": "All command sequences on an unmodified bitmap; several iterators and copies do not interact because an iterator only reads the bitmap."
  },
  {
   "property": "C15",
   "status": "proved",
   "theorems": [
    "C15_portable_round_trip"
   ],
   "note": "Any destination buffer of sufficient size; trailing bytes and every shorter length covered."
  },
  {
   "property": "C16",
   "status": "proved",
   "theorems": [
    "C16_portable_safe_in_bounds",
    "C16_native_safe_in_bounds",
    "C16_accepted_header"
   ],
   "note": "Bytes beyond the given length cannot influence the result and are never read; allocation failure is not modelled."
  },
  {
   "property": "C17",
   "status": "proved",
   "theorems": [
    "C17_deserialize_size"
   ],
   "note": ""
  },
  {
   "property": "C18",
   "status": "proved",
   "theorems": [
    "C18_validate_exact",
    "C18_after_deserialization",
    "C18_native_array_always_valid"
   ],
   "note": "Validation equals the documented invariants on every value a decoder can produce."
  },
  {
   "property": "C19",
   "status": "proved",
   "theorems": [
    "C19_native_round_trip",
    "C19_unknown_tag"
   ],
   "note": ""
  },
  {
   "property": "C20",
   "status": "proved",
   "theorems": [
    "C20_frozen_round_trip",
    "C20_frozen_view_in_bounds",
    "C20_frozen_shared_undefined"
   ],
   "note": "For bitmaps without shared containers; with a shared container the code reaches an unreachable marker (proved). Alignment of the buffer is a parameter of the view."
  },
  {
   "property": "C21",
   "status": "proved",
   "theorems": [
    "C21_run_optimize",
    "C21_run_optimize_flag",
    "C21_run_optimize_bytes",
    "C21_remove_run_compression",
    "C21_remove_run_compression_effect"
   ],
   "note": "Members, flag, absence of runs and container bytes proved; shrink_to_fit only changes capacities, which are not part of the value model."
  },
  {
   "property": "C22",
   "status": "proved",
   "theorems": [
    "C22_or_many",
    "C22_or_many_heap",
    "C22_xor_many",
    "C22_lazy_programs"
   ],
   "note": "or_many, or_many_heap, xor_many and all lazy programs, for every spare capacity and sharing pattern."
  },
  {
   "property": "C23",
   "status": "proved",
   "theorems": [
    "C23_add_offset"
   ],
   "note": ""
  },
  {
   "property": "C24",
   "status": "proved",
   "theorems": [
    "C24_add_many",
    "C24_of_ptr",
    "C24_of",
    "C24_add_bulk",
    "C24_order_irrelevant"
   ],
   "note": ""
  },
  {
   "property": "C25",
   "status": "proved",
   "theorems": [
    "C25_add_checked",
    "C25_remove_checked",
    "C25_add",
    "C25_remove"
   ],
   "note": ""
  },
  {
   "property": "C26",
   "status": "partial",
   "theorems": [
    "C26_from_range_partial",
    "C26_from_range_null",
    "C26_termination_refuted",
    "C26_members_refuted"
   ],
   "note": "Proved for steps below 2^16, and for larger steps when the counter stays below 2^32; otherwise refuted (endless loop or wrong members)."
  },
  {
   "property": "C27",
   "status": "proved",
   "theorems": [
    "C27_flip_involution",
    "C27_flip_inplace_agrees"
   ],
   "note": ""
  },
  {
   "property": "C28",
   "status": "partial",
   "theorems": [
    "C28_cow_histories",
    "C28_cow_only_target_changes",
    "C28_cow_no_block_left",
    "C28_remove_many_refuted",
    "C28_cow_queue_histories",
    "C28_cow_queue_only_target_changes"
   ],
   "note": "Proved for all histories of every modelled call, or_many_heap with any polling order included (its result gets the flag from the caller, see C95), except remove_many (refuted: it releases a shared container twice); all bitmaps share the same copy-on-write flag. Leaks of unshared containers are the subject of C94."
  },
  {
   "property": "C29",
   "status": "proved",
   "theorems": [
    "C29_remove_many"
   ],
   "note": ""
  },
  {
   "property": "C30",
   "status": "proved",
   "theorems": [
    "C30_contains_bulk"
   ],
   "note": ""
  },
  {
   "property": "C31",
   "status": "proved",
   "theorems": [
    "C31_iterate",
    "C31_iterate64"
   ],
   "note": ""
  },
  {
   "property": "C32",
   "status": "partial",
   "theorems": [
    "C32_to_bitset",
    "C32_to_bitset_any_target",
    "C32_reused_target_refuted"
   ],
   "note": "Exact into a bitset without set bits; into any other bitset every member is set but old bits may stay (refuted: the target is not cleared)."
  },
  {
   "property": "C33",
   "status": "proved",
   "theorems": [
    "C33_intersect",
    "C33_intersect_skewed",
    "C33_union",
    "C33_difference",
    "C33_xor",
    "C33_search",
    "C33_words"
   ],
   "note": ""
  },
  {
   "property": "C34",
   "status": "proved",
   "theorems": [
    "C34_and_comm",
    "C34_or_comm",
    "C34_xor_comm",
    "C34_and_assoc",
    "C34_or_assoc",
    "C34_xor_assoc",
    "C34_and_distributes",
    "C34_or_distributes",
    "C34_de_morgan_or",
    "C34_de_morgan_and",
    "C34_xor_is_or_minus_and",
    "C34_subset_by_and",
    "C34_inclusion_exclusion"
   ],
   "note": ""
  },
  {
   "property": "C35",
   "status": "partial",
   "theorems": [
    "C35_statistics_partial",
    "C35_value_counters_refuted"
   ],
   "note": "Proved except that the uint32 value counters wrap on the full universe (refuted)."
  },
  {
   "property": "C36",
   "status": "proved",
   "theorems": [
    "C36_prefix_free"
   ],
   "note": ""
  },
  {
   "property": "C37",
   "status": "partial",
   "theorems": [
    "C37_portable_frozen_partial",
    "C37_portable_frozen_refuted"
   ],
   "note": "Proved for serializations below 4 GiB; refuted beyond (32-bit offsets wrap)."
  },
  {
   "property": "C38",
   "status": "partial",
   "theorems": [
    "C38_queries_change_nothing",
    "C38_queries_succeed",
    "C38_range_uint32_array_refuted"
   ],
   "note": "Proved for the queries of the machine (contains, contains_range, cardinalities, rank, index, select, minimum, maximum, comparisons, to_uint32_array, validate); refuted for range_uint32_array, which overwrites the types of shared slots."
  },
  {
   "property": "C39",
   "status": "partial",
   "theorems": [
    "C39_run_optimize_portable_size_refuted"
   ],
   "note": "False of the code: the run flags added to the header can outweigh the saved container bytes."
  },
  {
   "property": "C40",
   "status": "proved",
   "theorems": [
    "C40_writes_published_format"
   ],
   "note": ""
  },
  {
   "property": "C41",
   "status": "proved",
   "theorems": [
    "C41_reads_published_format"
   ],
   "note": ""
  },
  {
   "property": "C42",
   "status": "proved",
   "theorems": [
    "C42_bitset_histories",
    "C42_bitset_histories_from",
    "C42_bitset_fill"
   ],
   "note": "Allocation success assumed; the two-operand updates on distinct bitsets (their arguments are restrict-qualified)."
  },
  {
   "property": "C43",
   "status": "proved",
   "theorems": [
    "C43_next_set_bits",
    "C43_for_each"
   ],
   "note": ""
  },
  {
   "property": "C44",
   "status": "partial",
   "theorems": [
    "C44_shift_left_partial",
    "C44_shift_right_partial",
    "C44_shift_left_empty_refuted",
    "C44_shift_right_too_far_refuted"
   ],
   "note": "Proved when the bitset is non-empty (left) and the shift is below its size (right); outside that the code accesses memory outside the array (refuted)."
  },
  {
   "property": "C45",
   "status": "proved",
   "theorems": [
    "C45_histories_refine_sets",
    "C45_histories_refine_sets_from"
   ],
   "note": "Arguments outside the documented or safe domain are excluded by cmd64_ok: contains_range when members lie in later blocks (C49), remove_many of absent or repeated values (C51), xor/andnot in place of a bitmap with itself, select/strict_subset/to_array on the full universe of 2^64 values (C48, C55)."
  },
  {
   "property": "C46",
   "status": "proved",
   "theorems": [
    "C46_set_algebra",
    "C46_comparisons"
   ],
   "note": ""
  },
  {
   "property": "C47",
   "status": "proved",
   "theorems": [
    "C47_range_updates",
    "C47_range_queries",
    "C47_from_range"
   ],
   "note": ""
  },
  {
   "property": "C48",
   "status": "partial",
   "theorems": [
    "C48_rank",
    "C48_get_index",
    "C48_select_partial",
    "C48_select_refuted",
    "C48_minimum_maximum"
   ],
   "note": "rank (as a 64-bit number), get_index, minimum and maximum in full; select for every bitmap that is not the full universe of 2^64 values; refuted for the full universe: the running 64-bit sum wraps, and the last 65536 indexes are reported as out of range."
  },
  {
   "property": "C49",
   "status": "partial",
   "theorems": [
    "C49_contains_range_partial",
    "C49_contains_range_complete",
    "C49_contains_range_first_block",
    "C49_contains_range_refuted"
   ],
   "note": "Complete for all inputs, exact when no member lies in a block after the range, refuted in general: the loop stops with true at the first block beyond the range before checking for a gap (roaring64.c:541-545)."
  },
  {
   "property": "C50",
   "status": "partial",
   "theorems": [
    "C50_iterators_partial",
    "C50_read_to_end_refuted"
   ],
   "note": "All sequences except advance/previous directly after a read that reached the end, where roaring64_iterator_read leaves the saturation flag unset; refuted there."
  },
  {
   "property": "C51",
   "status": "partial",
   "theorems": [
    "C51_bulk_partial",
    "C51_bulk_undefined",
    "C51_bulk_without_removal",
    "C51_remove_many_partial",
    "C51_remove_many_refuted"
   ],
   "note": "Exactly characterised: the legal sequences behave as single calls, all others are undefined. remove_many refuted for values absent from the bitmap (use of a freed container)."
  },
  {
   "property": "C52",
   "status": "proved",
   "theorems": [
    "C52_iterate",
    "C52_to_array"
   ],
   "note": ""
  },
  {
   "property": "C53",
   "status": "proved",
   "theorems": [
    "C53_radix_tree_is_ordered_map"
   ],
   "note": ""
  },
  {
   "property": "C54",
   "status": "proved",
   "theorems": [
    "C54_move_from_roaring32"
   ],
   "note": ""
  },
  {
   "property": "C55",
   "status": "partial",
   "theorems": [
    "C55_cardinalities",
    "C55_cardinalities_exact",
    "C55_strict_subset_partial",
    "C55_cardinality_refuted",
    "C55_strict_subset_refuted"
   ],
   "note": "Every answer is the cardinality modulo 2^64, hence exact unless the set is the full universe; is_strict_subset exact unless an operand is the full universe, refuted there. The full universe needs 2^48 containers, so this is a limit of the interface rather than a practical defect."
  },
  {
   "property": "C56",
   "status": "partial",
   "theorems": [
    "C56_round_trip_partial",
    "C56_round_trip_refuted"
   ],
   "note": "Every bitmap that leaves at least one upper half without members; refuted for bitmaps with members under all 2^32 upper halves, whose bucket count the reader rejects (roaring64.c: buckets > UINT32_MAX)."
  },
  {
   "property": "C57",
   "status": "partial",
   "theorems": [
    "C57_format_written_partial",
    "C57_format_read_partial"
   ],
   "note": "Images shorter than 2^32 bytes (the offset header of a 32-bit part cannot describe more)."
  },
  {
   "property": "C58",
   "status": "proved",
   "theorems": [
    "C58_arbitrary_bytes"
   ],
   "note": ""
  },
  {
   "property": "C59",
   "status": "partial",
   "theorems": [
    "C59_size_of_accepted_partial",
    "C59_size_of_rejected_refuted"
   ],
   "note": "Exact for accepted inputs; refuted for rejected ones: the order of the bucket keys is not checked by portable_deserialize_size."
  },
  {
   "property": "C60",
   "status": "proved",
   "theorems": [
    "C60_validate_accepts_valid",
    "C60_validate_decides_loaded",
    "C60_validate_decides_typed"
   ],
   "note": ""
  },
  {
   "property": "C61",
   "status": "proved",
   "theorems": [
    "C61_statistics"
   ],
   "note": ""
  },
  {
   "property": "C62",
   "status": "proved",
   "theorems": [
    "C62_histories_refine_sets",
    "C62_histories_refine_sets_from",
    "C62_from_bitmap"
   ],
   "note": ""
  },
  {
   "property": "C63",
   "status": "partial",
   "theorems": [
    "C63_iterators_after_any_history",
    "C63_iterators_any_map_partial",
    "C63_iterators_any_map_refuted",
    "C63_iterators_after_shrink"
   ],
   "note": "Proved for every map reachable through the API (histories include portable reload); for arbitrary maps only without move_equalorlarger and i--, which are refuted on a map read from an image with an empty bucket (allowed by the published format): roaring64map.hh:1795-1810 and 1833-1848 do not skip empty buckets. shrinkToFit removes them and restores the full statement."
  },
  {
   "property": "C64",
   "status": "partial",
   "theorems": [
    "C64_iterator_order_partial",
    "C64_iterator_equality_refuted"
   ],
   "note": "Order operators proved for all pairs; == and != proved unless the left operand is end() and the right one is not, where roaring64map.hh:1850-1860 dereferences the end() of a std::map (undefined behaviour, refuted)."
  },
  {
   "property": "C65",
   "status": "proved",
   "theorems": [
    "C65_enumeration"
   ],
   "note": ""
  },
  {
   "property": "C66",
   "status": "proved",
   "theorems": [
    "C66_round_trip"
   ],
   "note": ""
  },
  {
   "property": "C67",
   "status": "partial",
   "theorems": [
    "C67_format_written_partial",
    "C67_format_read_partial",
    "C67_from_c_partial",
    "C67_to_c_partial"
   ],
   "note": "Images shorter than 2^32 bytes (the offset header of a 32-bit part cannot describe more)."
  },
  {
   "property": "C68",
   "status": "partial",
   "theorems": [
    "C68_untrusted_partial",
    "C68_untrusted_refuted"
   ],
   "note": "Proved for images with at most one bucket and for images that do not contain the byte pair 59 48 (cookie of a part with runs); refuted in general: readSafe (roaring64map.hh:1213-1218) subtracts the size of the bitmap it built, not the bytes consumed, and the limit wraps around (23-byte example)."
  },
  {
   "property": "C69",
   "status": "partial",
   "theorems": [
    "C69_native_round_trip_partial",
    "C69_native_round_trip_without_runs",
    "C69_native_round_trip_refuted"
   ],
   "note": "Proved unless some inner bitmap has run containers and a portable form of at least four bytes per value; refuted there: read (roaring64map.hh:1164-1184) advances by the size of the rebuilt bitmap, which differs from the bytes written. Calling removeRunCompression first always works."
  },
  {
   "property": "C70",
   "status": "partial",
   "theorems": [
    "C70_run_optimize_partial",
    "C70_remove_run_compression_partial",
    "C70_results_refuted"
   ],
   "note": "Members kept, and the results characterised: they are true exactly if every inner bitmap has a run container (roaring64map.hh:987-1007 accumulate with &&). The documented meaning is refuted in all four directions."
  },
  {
   "property": "C71",
   "status": "partial",
   "theorems": [
    "C71_select_refuted",
    "C71_index_refuted",
    "C71_select_index_partial"
   ],
   "note": "Proved if no inner bitmap is full (select) and below 2^63 smaller members (getIndex); refuted on the flat full 32-bit bitmap (inherits C08/C09) and at 2^63 (int64_t result)."
  },
  {
   "property": "C72",
   "status": "proved",
   "theorems": [
    "C72_union",
    "C72_xor",
    "C72_andnot"
   ],
   "note": "The vector paths of array_util.c are modelled on memory cells (Simd*.v, ArrMem*.v)."
  },
  {
   "property": "C73",
   "status": "proved",
   "theorems": [
    "C73_union_inplace",
    "C73_intersection_inplace"
   ],
   "note": "In-place difference (out = first operand) is C72_andnot."
  },
  {
   "property": "C74",
   "status": "proved",
   "theorems": [
    "C74_bitset",
    "C74_array",
    "C74_array_from_bitset"
   ],
   "note": ""
  },
  {
   "property": "C75",
   "status": "partial",
   "theorems": [
    "C75_bounded",
    "C75_sse_spare_partial",
    "C75_sse_refuted"
   ],
   "note": "Proved for the AVX2 and AVX-512 versions. Refuted for bitset_extract_setbits_sse_uint16 (bitset_util.c:785-836; exported, not called by the library): it checks for 16 free cells per word but may write 64; correct with 48 spare cells."
  },
  {
   "property": "C76",
   "status": "partial",
   "theorems": [
    "C76_intersection_partial",
    "C76_capacity_refuted"
   ],
   "note": "Proved unless the AVX2 path is used with an output capacity between the size of the smaller operand and 7 more (array.c:286-324 grows to min_card + 8 only if the capacity is below min_card); refuted there. The callers in the library pass fresh containers, for which the proof applies."
  },
  {
   "property": "C77",
   "status": "proved",
   "theorems": [
    "C77_operation",
    "C77_no_count",
    "C77_only_count",
    "C77_cardinality",
    "C77_popcount"
   ],
   "note": "Memory of 64-bit words; intrinsics by their documented lane effect (SimdB.v). The inline-assembly variants are not modelled."
  },
  {
   "property": "C78",
   "status": "proved",
   "theorems": [
    "C78_bitset",
    "C78_bytes"
   ],
   "note": "memequals on memory of bytes, bitset_container_equals on 64-bit words (SimdR.v)."
  },
  {
   "property": "C79",
   "status": "proved",
   "theorems": [
    "C79_cardinality",
    "C79_numbers"
   ],
   "note": "The runs are read as 32-bit cells (value + 65536 * length); runs may be adjacent but not overlap."
  },
  {
   "property": "C80",
   "status": "proved",
   "theorems": [
    "C80_shrink_to_fit"
   ],
   "note": "Nodes keep their contents and move; realloc to a smaller size is the only allocation. Model: ArtH.v, R64H.v. Containers are values here, so their own spare room is outside this model: what the call returns for it is C93."
  },
  {
   "property": "C81",
   "status": "proved",
   "theorems": [
    "C81_freeze_after_shrink",
    "C81_freeze_or_refuse",
    "C81_views_answer_like_sets",
    "C81_views_iterate",
    "C81_views_serialize"
   ],
   "note": "Less than 2^52 bytes in use. The view is taken when it is made: later changes of the buffer are outside the model. A view is read-only: the history theorem allows every call that does not change it. Bytes of nodes not covered by a field are arbitrary."
  },
  {
   "property": "C82",
   "status": "partial",
   "theorems": [
    "C82_truncated_rejected_partial",
    "C82_truncated_rejected_refuted"
   ],
   "note": "Proved for cuts below 41 bytes plus two per container. Refuted beyond: the failure path of frozen_view calls roaring64_bitmap_free on a view whose tree or container table is not set up, and the padding before the tree is not subtracted from maxbytes, so up to 7 bytes beyond the stated length are read."
  },
  {
   "property": "C83",
   "status": "partial",
   "theorems": [
    "C83_view_frozen_again_refuted"
   ],
   "note": "Refuted for every non-empty bitmap: first_free of a view is 0, so it does not count as shrunken and the size is 0."
  },
  {
   "property": "C84",
   "status": "proved",
   "theorems": [
    "C84_union",
    "C84_array_union",
    "C84_xor",
    "C84_array_xor",
    "C84_intersection",
    "C84_andnot"
   ],
   "note": "Operands and destination are distinct blocks, as the code requires; union, intersection and andnot read the first run of each operand unconditionally, hence the non-emptiness; the union with an array does not reset the run count of the destination."
  },
  {
   "property": "C85",
   "status": "proved",
   "theorems": [
    "C85_union",
    "C85_array_union",
    "C85_flip"
   ],
   "note": "Array operands are separate memory that is only read. The fit test of the in-place flip reads the container through the list model of run_container_contains, which only looks at the first n_runs cells."
  },
  {
   "property": "C86",
   "status": "proved",
   "theorems": [
    "C86_add",
    "C86_remove",
    "C86_ranges",
    "C86_from_array",
    "C86_from_bitset",
    "C86_create"
   ],
   "note": "The scan of a bitset reads the 1024 words as a list. A negative index or one beyond the block is the outcome None, as is reading an unwritten cell."
  },
  {
   "property": "C87",
   "status": "partial",
   "theorems": [
    "C87_objects",
    "C87_no_leak",
    "C87_one_owner",
    "C87_self_assignment",
    "C87_self_assignment_refuted",
    "C87_self_operator_refuted"
   ],
   "note": "Proved for every program in which no non-empty object is copy-assigned to itself. Refuted for those: r = r releases the containers of r and then copies them. r ^= r and r -= r fail an assertion of the C functions. Copy-on-write is off; a method that edits containers in place is modelled as releasing and allocating."
  },
  {
   "property": "C88",
   "status": "partial",
   "theorems": [
    "C88_iterators",
    "C88_range_for",
    "C88_end_back_refuted",
    "C88_end_dangling_refuted",
    "C88_end_shared_refuted"
   ],
   "note": "Proved for programs that only compare or copy what end() returns. Refuted otherwise: end() returns a reference to one function-local static that belongs to the first object, so --r.end() gives a value of that object, or reads it after its destruction, or moves the end of all objects."
  },
  {
   "property": "C89",
   "status": "proved",
   "theorems": [
    "C89_printf",
    "C89_equal",
    "C89_map",
    "C89_unambiguous"
   ],
   "note": "The digits written by printf and std::to_string are modelled by their documented meaning. printf() of 64-bit maps prints through the same printToSink."
  },
  {
   "property": "C90",
   "status": "proved",
   "theorems": [
    "C90_program",
    "C90_lookup",
    "C90_shrink"
   ],
   "note": "Allocation succeeds; byte-level model with unwritten bytes (TabMem.v). Chunks are addresses; the functions that edit chunks inside the range loops are arbitrary parameters."
  },
  {
   "property": "C91",
   "status": "proved",
   "theorems": [
    "C91_two_tables"
   ],
   "note": "The two tables are distinct; get_copy_of_container and container_clone are arbitrary parameters, a clone is not NULL (TabTwo.v)."
  },
  {
   "property": "C92",
   "status": "proved",
   "theorems": [
    "C92_programs",
    "C92_shrink"
   ],
   "note": "Allocation succeeds. The cells of an array are modelled with a mark for cells never written (ArrBlk.v); bitset and run operands are only read and taken as in BitsetC.v and RunC.v; in the conversions from them the written values are those of Convert.v and MixedA.v, and the stores are modelled. No runs at all as second operand is excluded (no run container is empty). Scalar branch of array_container_from_bitset. Operations on two arrays: C72."
  },
  {
   "property": "C93",
   "status": "partial",
   "theorems": [
    "C93_shrink_to_fit_partial",
    "C93_bytes_saved_refuted"
   ],
   "note": "Proved except for the number returned: array_container_shrink_to_fit and run_container_shrink_to_fit return spare entries (of 2 and 4 bytes), so the sum is less than the bytes saved as soon as one chunk has spare room. Refuted for a bitmap to which 1, 2, 3 were added (12 returned, 13 saved). roaring64_bitmap_shrink_to_fit and the C++ shrinkToFit functions add up the same numbers. Model: ShrinkMem.v on top of TabMem.v, ArrBlk.v, RunMem.v; allocation succeeds; sizes of the structs themselves, which do not change, are not counted."
  },
  {
   "property": "C94",
   "status": "proved",
   "theorems": [
    "C94_containers_are_accounted_for",
    "C94_nothing_is_leaked"
   ],
   "note": "Containers live in a heap of addresses; every kernel, in place or not, allocates and frees where the C function does, an access to an address that is not allocated or of another kind has no result. Model: OwnC.v, OwnN.v, OwnL.v (containers), OwnH.v (bitmaps, programs; add_many and remove_many with the container they remember), specification SpecOwn.v. A container and its buffer are one object, addresses are not reused, allocation succeeds. The two operands of an in-place set operation and of overwrite are different bitmaps; those of an operation with a new result may be the same. or_many, or_many_heap and xor_many, through the lazy operations, take any number of bitmaps; the queue of or_many_heap gives its elements out in any order, which covers the order of the code (Heap.v). The lazy calls on their own are not in this machine; shared containers are C28."
  },
  {
   "property": "C95",
   "status": "partial",
   "theorems": [
    "C95_results_inherit_flag",
    "C95_or_many_heap_refuted"
   ],
   "note": "Proved for every modelled call except roaring_bitmap_or_many_heap, which is refuted: the result of merging two intermediate results is a new bitmap whose flag nobody sets."
  },
  {
   "property": "C96",
   "status": "proved",
   "theorems": [
    "C96_intersection_count"
   ],
   "note": "Every read is checked: those of the vector and the plain version against the memory, those of the galloping version against the arrays (SimdI.v, SimdP.v). roaring_bitmap_and_cardinality uses the list model (C05)."
  }
 ]
}
