{"id": "C01", "title": "Histories of updates behave as a mathematical set", "statement": "Start from an empty bitmap and apply any finite sequence of add, remove, add_checked, remove_checked, add_range_closed, remove_range_closed, add_many, remove_many, flip_inplace_closed, clear, run_optimize, remove_run_compression. After the sequence roaring_bitmap_contains(r,x) is true exactly for the 32-bit values x in the set obtained by performing the same operations on a mathematical set.", "quantifier": "every finite sequence of update operations with every 32-bit argument, and every 32-bit probe x", "why_tests_cant": "The state space is the set of all histories; container representation (sorted array / 8 KB bitset / runs) depends on the whole history, so no finite test list covers the transitions.", "anchors": ["src/roaring.c: roaring_bitmap_add, roaring_bitmap_remove, roaring_bitmap_add_range_closed, roaring_bitmap_remove_range_closed, roaring_bitmap_add_many, roaring_bitmap_remove_many, roaring_bitmap_contains", "include/roaring/containers/containers.h: container_add, container_remove, container_add_range, container_remove_range"]}
{"id": "C02", "title": "Every reachable bitmap passes internal validation", "statement": "Every bitmap obtained from the public constructors through any sequence of the modelled public operations (updates, binary set operations, in-place operations, flips, offsets, optimisation, deserialization of serialized bitmaps) satisfies roaring_bitmap_internal_validate: keys strictly increasing, no empty container, arrays sorted and of size 1..4096, bitsets with correct cardinality above 4096, runs sorted, disjoint and non-adjacent.", "quantifier": "every finite expression/history built from the modelled operations", "why_tests_cant": "An invariant over all reachable states; tests can only call the validator after particular histories.", "anchors": ["src/roaring.c: roaring_bitmap_internal_validate", "src/containers/containers.c: container_internal_validate", "src/containers/array.c: array_container_validate", "src/containers/bitset.c: bitset_container_validate", "src/containers/run.c: run_container_validate"]}
{"id": "C03", "title": "Binary set operations are exact", "statement": "For valid bitmaps a and b, roaring_bitmap_and/or/xor/andnot return a bitmap whose members are exactly the intersection / union / symmetric difference / difference.", "quantifier": "every pair of valid bitmaps in any mixture of representations", "why_tests_cant": "There are 9 container type pairs times 4 operations times unbounded contents, with thresholds (4096, 32, run sizes) that change the algorithm.", "anchors": ["src/roaring.c: roaring_bitmap_and, roaring_bitmap_or, roaring_bitmap_xor, roaring_bitmap_andnot", "include/roaring/containers/containers.h: container_and, container_or, container_xor, container_andnot", "src/containers/mixed_intersection.c", "src/containers/mixed_union.c", "src/containers/mixed_xor.c", "src/containers/mixed_andnot.c"]}
{"id": "C04", "title": "In-place set operations equal the out-of-place ones", "statement": "For distinct valid bitmaps a and b, after roaring_bitmap_{and,or,xor,andnot}_inplace(a,b) the members of a are exactly those of the corresponding out-of-place result and b has the same members as before.", "quantifier": "every pair of valid bitmaps", "why_tests_cant": "In-place code shares buffers between input and output and depends on spare capacity; correctness needs all aliasing/capacity configurations.", "anchors": ["src/roaring.c: roaring_bitmap_and_inplace, roaring_bitmap_or_inplace, roaring_bitmap_xor_inplace, roaring_bitmap_andnot_inplace", "include/roaring/containers/containers.h: container_iand, container_ior, container_ixor, container_iandnot"]}
{"id": "C05", "title": "Cardinality queries are exact", "statement": "For every valid bitmap roaring_bitmap_get_cardinality is the number of members, is_empty is true exactly when there are none, and and_cardinality, or_cardinality, xor_cardinality, andnot_cardinality give the size of the corresponding set without materialising it.", "quantifier": "every valid bitmap and pair of valid bitmaps", "why_tests_cant": "Counts use separate code paths (popcount, run lengths, galloping) for every pair of representations and unbounded contents.", "anchors": ["src/roaring.c: roaring_bitmap_get_cardinality, roaring_bitmap_and_cardinality, roaring_bitmap_or_cardinality, roaring_bitmap_xor_cardinality, roaring_bitmap_andnot_cardinality, roaring_bitmap_is_empty", "include/roaring/containers/containers.h: container_get_cardinality, container_and_cardinality"]}
{"id": "C06", "title": "Equality is extensional", "statement": "roaring_bitmap_equals(a,b) returns true exactly when a and b have the same members, whatever their internal representations and histories.", "quantifier": "every pair of valid bitmaps", "why_tests_cant": "Needs both directions for all contents: two different representations of one set must compare equal and any single differing value must be noticed.", "anchors": ["src/roaring.c: roaring_bitmap_equals", "src/containers/mixed_equal.c", "include/roaring/containers/containers.h: container_equals"]}
{"id": "C07", "title": "Subset, strict subset and intersect predicates are exact", "statement": "roaring_bitmap_is_subset, is_strict_subset and intersect decide inclusion, strict inclusion and non-disjointness of the member sets.", "quantifier": "every pair of valid bitmaps", "why_tests_cant": "Decision procedures with early exits over all contents and all representation pairs.", "anchors": ["src/roaring.c: roaring_bitmap_is_subset, roaring_bitmap_is_strict_subset, roaring_bitmap_intersect", "src/containers/mixed_subset.c", "include/roaring/containers/containers.h: container_is_subset, container_intersect"]}
{"id": "C08", "title": "rank, select and get_index are exact and mutually inverse", "statement": "rank(r,x) is the number of members <= x; select(r,k) returns the k-th smallest member (0-based) and succeeds whenever k < cardinality; get_index(r,x) is rank-1 for members and -1 otherwise; consequently select(get_index(x)) = x and get_index(select(k)) = k.", "quantifier": "every valid bitmap, every 32-bit x and k", "why_tests_cant": "Universally quantified over contents, positions and representations; the extreme case (cardinality 2^32) cannot be reached in a unit test cheaply.", "anchors": ["src/roaring.c: roaring_bitmap_rank, roaring_bitmap_select, roaring_bitmap_get_index", "include/roaring/containers/containers.h: container_rank, container_select, container_get_index"]}
{"id": "C09", "title": "rank_many agrees with rank", "statement": "For a sorted sequence of queries, roaring_bitmap_rank_many writes to the output array, for every query, the same number that roaring_bitmap_rank returns.", "quantifier": "every valid bitmap and every sorted list of queries", "why_tests_cant": "Interaction of an arbitrary query list with an arbitrary container layout.", "anchors": ["src/roaring.c: roaring_bitmap_rank_many", "include/roaring/containers/containers.h: container_rank_many"]}
{"id": "C10", "title": "Minimum and maximum are exact", "statement": "On a non-empty valid bitmap roaring_bitmap_minimum/maximum return the least/greatest member; on an empty one they return UINT32_MAX/0.", "quantifier": "every valid bitmap", "why_tests_cant": "Universally quantified over contents and representation of the first/last container.", "anchors": ["src/roaring.c: roaring_bitmap_minimum, roaring_bitmap_maximum", "include/roaring/containers/containers.h: container_minimum, container_maximum"]}
{"id": "C11", "title": "Range operations are exact on in-range arguments", "statement": "For 0 <= lo <= hi <= 2^32, add_range, remove_range, flip, flip_inplace, contains_range, range_cardinality and intersect_with_range act on exactly the half-open interval [lo,hi) (and the _closed variants on [lo,hi]).", "quantifier": "every valid bitmap and every pair of bounds up to 2^32", "why_tests_cant": "All bound combinations across container boundaries and all existing contents.", "anchors": ["src/roaring.c: roaring_bitmap_add_range_closed, roaring_bitmap_remove_range_closed, roaring_bitmap_flip_closed, roaring_bitmap_flip_inplace_closed, roaring_bitmap_contains_range_closed, roaring_bitmap_range_cardinality_closed, roaring_bitmap_intersect_with_range", "include/roaring/roaring.h: roaring_bitmap_add_range, roaring_bitmap_remove_range"]}
{"id": "C12", "title": "Range arguments beyond 2^32 denote the empty part of the universe", "statement": "For 64-bit bounds that exceed 2^32, range operations behave as on the intersection of [lo,hi) with the 32-bit universe.", "quantifier": "every valid bitmap and every pair of 64-bit bounds", "why_tests_cant": "The guard is on 64-bit values, so almost the whole argument space lies outside what tests sample.", "anchors": ["include/roaring/roaring.h: roaring_bitmap_add_range, roaring_bitmap_remove_range", "src/roaring.c: roaring_bitmap_flip, roaring_bitmap_contains_range, roaring_bitmap_range_cardinality, roaring_bitmap_intersect_with_range"]}
{"id": "C13", "title": "Extraction to an array is sorted and complete; pagination slices it", "statement": "roaring_bitmap_to_uint32_array writes exactly the members in increasing order; range_uint32_array(offset,limit) writes the slice [offset, offset+limit) of that sequence.", "quantifier": "every valid bitmap, offset and limit", "why_tests_cant": "All contents and slice positions, with partial containers at either end.", "anchors": ["src/roaring_array.c: ra_to_uint32_array, ra_range_uint32_array", "include/roaring/containers/containers.h: container_to_uint32_array"]}
{"id": "C14", "title": "Iterators traverse exactly the members in order", "statement": "A fresh iterator followed by advance enumerates the members in increasing order and then stops; init_last with previous enumerates them in decreasing order; move_equalorlarger(v) positions at the least member >= v from any iterator state; read(n) returns the next min(n, remaining) members and leaves the iterator after them; any interleaving of these calls agrees with a cursor over the sorted member sequence.", "quantifier": "every valid bitmap and every sequence of iterator calls", "why_tests_cant": "Quantifies over all call sequences and all states, including leaving and re-entering both ends.", "anchors": ["src/roaring.c: roaring_iterator_init, roaring_iterator_init_last, roaring_uint32_iterator_advance, roaring_uint32_iterator_previous, roaring_uint32_iterator_move_equalorlarger, roaring_uint32_iterator_read", "src/containers/containers.c: container_init_iterator, container_iterator_next, container_iterator_prev, container_iterator_lower_bound, container_iterator_read_into_uint32"]}
{"id": "C15", "title": "Portable serialization round-trips", "statement": "For every valid bitmap r, portable_serialize writes exactly portable_size_in_bytes(r) bytes, and portable_deserialize_safe on any buffer starting with them (and declared at least that long) returns a bitmap with the same members that passes validation.", "quantifier": "every valid bitmap and every trailing data", "why_tests_cant": "Unbounded inputs; header layout switches on the presence of runs and on the number of containers.", "anchors": ["src/roaring_array.c: ra_portable_serialize, ra_portable_size_in_bytes, ra_portable_deserialize, ra_portable_header_size", "src/roaring.c: roaring_bitmap_portable_serialize, roaring_bitmap_portable_deserialize_safe"]}
{"id": "C16", "title": "Safe deserialization never reads outside the buffer", "statement": "roaring_bitmap_portable_deserialize_safe(buf,n) and roaring_bitmap_deserialize_safe(buf,n) access only bytes of buf at positions below n, whatever the content.", "quantifier": "every byte string and every length", "why_tests_cant": "The inputs are adversarial byte strings; fuzzing samples but cannot exhaust them.", "anchors": ["src/roaring_array.c: ra_portable_deserialize", "src/roaring.c: roaring_bitmap_portable_deserialize_safe, roaring_bitmap_deserialize_safe"]}
{"id": "C17", "title": "deserialize_size agrees with deserialization", "statement": "roaring_bitmap_portable_deserialize_size(buf,n) is non-zero exactly when portable_deserialize_safe(buf,n) succeeds; then it is the number of bytes the deserializer consumes and is at most n; it never reads past n.", "quantifier": "every byte string and every length", "why_tests_cant": "Relates two independently written parsers on all inputs.", "anchors": ["src/roaring_array.c: ra_portable_deserialize_size, ra_portable_deserialize"]}
{"id": "C18", "title": "internal_validate is sound and complete for the semantic invariant", "statement": "roaring_bitmap_internal_validate accepts a deserialized bitmap exactly when it is well formed, and on every accepted bitmap all query properties hold.", "quantifier": "every bitmap structure obtainable from arbitrary bytes", "why_tests_cant": "Soundness against adversarial inputs ranges over all byte strings.", "anchors": ["src/roaring.c: roaring_bitmap_internal_validate", "src/containers/array.c: array_container_validate", "src/containers/bitset.c: bitset_container_validate", "src/containers/run.c: run_container_validate"]}
{"id": "C19", "title": "Native serialization round-trips", "statement": "roaring_bitmap_serialize writes exactly size_in_bytes(r) bytes, and roaring_bitmap_deserialize / deserialize_safe of them gives a bitmap with the same members.", "quantifier": "every valid bitmap", "why_tests_cant": "Two formats chosen by a size comparison over unbounded contents.", "anchors": ["src/roaring.c: roaring_bitmap_serialize, roaring_bitmap_size_in_bytes, roaring_bitmap_deserialize, roaring_bitmap_deserialize_safe"]}
{"id": "C20", "title": "Frozen serialization round-trips", "statement": "For every valid bitmap without shared containers, frozen_serialize writes frozen_size_in_bytes(r) bytes and frozen_view of that exact buffer (aligned) yields a view with the same members; frozen_view accepts a buffer only if every zone lies inside it.", "quantifier": "every valid bitmap and every byte string", "why_tests_cant": "Zone offsets are computed from attacker-controlled counts; layout depends on all containers.", "anchors": ["src/roaring.c: roaring_bitmap_frozen_serialize, roaring_bitmap_frozen_size_in_bytes, roaring_bitmap_frozen_view"]}
{"id": "C21", "title": "Re-encoding never changes the set and run_optimize never grows it", "statement": "run_optimize, remove_run_compression and shrink_to_fit keep the members; after remove_run_compression no run container remains; run_optimize does not increase portable_size_in_bytes of any container and returns true exactly when some container is run-encoded afterwards.", "quantifier": "every valid bitmap", "why_tests_cant": "All contents; the choice is made by counting runs with word tricks.", "anchors": ["src/roaring.c: roaring_bitmap_run_optimize, roaring_bitmap_remove_run_compression, roaring_bitmap_shrink_to_fit", "src/containers/convert.c: convert_run_optimize, convert_run_to_efficient_container, convert_to_bitset_or_array_container"]}
{"id": "C22", "title": "Lazy aggregates followed by repair equal the fold of the eager operation", "statement": "or_many, or_many_heap and xor_many over any list of valid bitmaps return the union / symmetric difference of all of them and a bitmap that passes validation; any mixture of lazy_or, lazy_or_inplace (or lazy_xor, lazy_xor_inplace) followed by repair_after_lazy gives the same members as the eager operations.", "quantifier": "every finite list of valid bitmaps, both values of the conversion flag", "why_tests_cant": "Intermediate states carry unknown cardinalities and oversize containers; correctness only holds of complete histories.", "anchors": ["src/roaring.c: roaring_bitmap_or_many, roaring_bitmap_xor_many, roaring_bitmap_lazy_or, roaring_bitmap_lazy_or_inplace, roaring_bitmap_lazy_xor, roaring_bitmap_lazy_xor_inplace, roaring_bitmap_repair_after_lazy", "src/roaring_priority_queue.c: roaring_bitmap_or_many_heap", "include/roaring/containers/containers.h: container_lazy_or, container_lazy_ior, container_lazy_xor, container_lazy_ixor, container_repair_after_lazy"]}
{"id": "C23", "title": "add_offset shifts exactly", "statement": "roaring_bitmap_add_offset(r,d) contains y exactly when y-d is a member of r, for every y in the 32-bit universe; values shifted outside are dropped; the result passes validation.", "quantifier": "every valid bitmap and every signed 64-bit offset", "why_tests_cant": "All contents and offsets; containers split at arbitrary points and are re-merged.", "anchors": ["src/roaring.c: roaring_bitmap_add_offset, offset_append_with_merge", "include/roaring/containers/containers.h: container_add_offset", "src/containers/array.c: array_container_offset", "src/containers/bitset.c: bitset_container_offset", "src/containers/run.c: run_container_offset"]}
{"id": "C24", "title": "Bulk insertion equals repeated insertion in any order", "statement": "add_many(r, vals), of_ptr and add_bulk with any context history produce the set r united with vals, independently of order and duplicates.", "quantifier": "every valid bitmap and every list of values", "why_tests_cant": "Cached container pointers make the result depend on history unless proven otherwise.", "anchors": ["src/roaring.c: roaring_bitmap_add_many, roaring_bitmap_add_bulk, roaring_bitmap_of_ptr, add_bulk_impl, containerptr_roaring_bitmap_add"]}
{"id": "C25", "title": "add_checked and remove_checked report change exactly", "statement": "roaring_bitmap_add_checked returns true exactly when the value was absent before, remove_checked exactly when it was present; both have the effect of add/remove.", "quantifier": "every valid bitmap and value", "why_tests_cant": "Inferred from cardinalities across container conversions; must hold for all states.", "anchors": ["src/roaring.c: roaring_bitmap_add_checked, roaring_bitmap_remove_checked"]}
{"id": "C26", "title": "from_range builds exactly the arithmetic progression", "statement": "roaring_bitmap_from_range(lo,hi,step) with step > 0 and lo < min(hi,2^32) terminates and returns exactly {lo + i*step | lo + i*step < min(hi,2^32)}; otherwise NULL.", "quantifier": "every 64-bit lo, hi and 32-bit step", "why_tests_cant": "Termination and exactness for all bounds and steps, including wrap-around of 32-bit arithmetic.", "anchors": ["src/roaring.c: roaring_bitmap_from_range", "src/containers/convert.c: container_from_range"]}
{"id": "C27", "title": "flip is an involution and agrees with its in-place form", "statement": "flip(flip(r,lo,hi),lo,hi) has the same members as r; flip_inplace changes r to the same set flip returns; membership outside [lo,hi) is unchanged and inside it is negated.", "quantifier": "every valid bitmap and bounds up to 2^32", "why_tests_cant": "All contents and bounds across many containers.", "anchors": ["src/roaring.c: roaring_bitmap_flip_closed, roaring_bitmap_flip_inplace_closed", "src/containers/mixed_negation.c"]}
{"id": "C28", "title": "Copy-on-write copies are independent and never freed early", "statement": "With copy-on-write enabled, after any sequence of copy/update/free operations on a family of bitmaps, every update changes the members of only its target, every live container is referenced exactly as often as its counter says, no container is accessed after being freed, and freeing all bitmaps releases everything.", "quantifier": "every finite history of operations over any number of bitmaps sharing containers", "why_tests_cant": "Sharing patterns are unbounded graphs of aliases produced by histories.", "anchors": ["src/containers/containers.c: get_copy_of_container, shared_container_extract_copy, shared_container_free", "src/roaring_array.c: ra_overwrite, ra_append_copy, ra_unshare_container_at_index", "src/roaring.c: roaring_bitmap_copy, roaring_bitmap_remove_many"]}
{"id": "C29", "title": "remove_many equals repeated removal", "statement": "roaring_bitmap_remove_many(r, vals) leaves exactly the members of r not in vals and a bitmap that passes validation.", "quantifier": "every valid bitmap and every list of values", "why_tests_cant": "Cached position may be invalidated by container removal; all histories needed.", "anchors": ["src/roaring.c: roaring_bitmap_remove_many"]}
{"id": "C30", "title": "contains_bulk equals contains for any context history", "statement": "On an unmodified bitmap, any sequence of roaring_bitmap_contains_bulk calls sharing one context returns the same answers as roaring_bitmap_contains.", "quantifier": "every valid bitmap and every sequence of probes", "why_tests_cant": "The context is hidden state evolving over the entire call history.", "anchors": ["src/roaring.c: roaring_bitmap_contains_bulk"]}
{"id": "C31", "title": "Callback iteration visits a prefix of the sorted members", "statement": "roaring_iterate calls the callback on the members in increasing order, stops at the first false, and returns true exactly when every call returned true.", "quantifier": "every valid bitmap and every (stateful) callback", "why_tests_cant": "Arbitrary callback behaviour and contents.", "anchors": ["src/roaring.c: roaring_iterate, roaring_iterate64", "include/roaring/containers/containers.h: container_iterate"]}
{"id": "C32", "title": "Conversion to an uncompressed bitset is exact", "statement": "roaring_bitmap_to_bitset fills the bitset so that bit x is set exactly when x is a member.", "quantifier": "every valid bitmap", "why_tests_cant": "All contents; last container is written partially.", "anchors": ["src/roaring.c: roaring_bitmap_to_bitset"]}
{"id": "C33", "title": "Scalar kernels on sorted arrays are exact whatever the size ratio", "statement": "The intersection computed for two sorted arrays is the same set whichever of the two algorithms (merge or skewed search) the size ratio selects, and the returned cardinality/non-emptiness variants agree with it.", "quantifier": "every pair of sorted 16-bit arrays", "why_tests_cant": "Algorithm switches on size ratio; search strides make all lengths and alignments relevant.", "anchors": ["src/array_util.c: intersect_skewed_uint16, intersect_uint16, intersect_skewed_uint16_cardinality, intersect_skewed_uint16_nonempty, union_uint16, difference_uint16, xor_uint16", "src/containers/array.c: array_container_intersection"]}
{"id": "C34", "title": "Algebraic laws observable through equals", "statement": "For all valid bitmaps: and/or/xor are commutative and associative, or/and distribute, De Morgan holds with flip over the full universe, a xor b = (a or b) andnot (a and b), as decided by roaring_bitmap_equals on the results.", "quantifier": "every triple of valid bitmaps", "why_tests_cant": "Laws over all inputs.", "anchors": ["src/roaring.c: roaring_bitmap_and, roaring_bitmap_or, roaring_bitmap_xor, roaring_bitmap_andnot, roaring_bitmap_flip, roaring_bitmap_equals"]}
{"id": "C35", "title": "Statistics are consistent", "statement": "roaring_bitmap_statistics reports cardinality, minimum, maximum equal to the dedicated queries; container counts add up to n_containers and value counts to cardinality; byte counts plus the header equal portable_size_in_bytes.", "quantifier": "every valid bitmap", "why_tests_cant": "All contents.", "anchors": ["src/roaring.c: roaring_bitmap_statistics"]}
{"id": "C36", "title": "Equal sets need not serialize equally, but portable bytes determine the set", "statement": "If two valid bitmaps serialize to the same portable bytes they have the same members; bytes of one serialized bitmap are never a proper prefix of the bytes of another.", "quantifier": "every pair of valid bitmaps", "why_tests_cant": "Injectivity over all inputs.", "anchors": ["src/roaring_array.c: ra_portable_serialize"]}
{"id": "C37", "title": "Frozen deserialization of the portable format agrees with the safe one", "statement": "On every buffer produced by portable_serialize, portable_deserialize_frozen gives a bitmap with the same members as portable_deserialize_safe.", "quantifier": "every valid bitmap", "why_tests_cant": "Uses the stored offsets instead of accumulating sizes; must agree for all layouts.", "anchors": ["src/roaring.c: roaring_bitmap_portable_deserialize_frozen"]}
{"id": "C38", "title": "Read-only operations do not modify the bitmap", "statement": "Queries (contains, rank, extraction, pagination, iteration, serialization) leave members and representation unchanged, also when containers are shared by copy-on-write.", "quantifier": "every valid bitmap, with or without shared containers", "why_tests_cant": "A frame condition over all states.", "anchors": ["src/roaring_array.c: ra_range_uint32_array", "include/roaring/containers/containers.h: container_unwrap_shared"]}
{"id": "C39", "title": "run_optimize never makes the portable serialization larger", "statement": "For every valid bitmap, roaring_bitmap_portable_size_in_bytes after roaring_bitmap_run_optimize is at most its value before.", "quantifier": "every valid bitmap", "why_tests_cant": "The decision is local to each container while the header depends on the whole bitmap; the interaction only shows on particular container counts.", "anchors": ["src/roaring.c: roaring_bitmap_run_optimize", "src/roaring_array.c: ra_portable_size_in_bytes, ra_portable_header_size", "src/containers/convert.c: convert_run_optimize"]}
{"id": "C40", "title": "Serialized bytes conform to the published interchange format", "statement": "The bytes written by roaring_bitmap_portable_serialize for a bitmap with member set P form a file of the published portable format for P: cookie, container count, run flags, key/cardinality table, offset table (when present) holding the position of each container, then the containers, each in its published encoding.", "quantifier": "every valid bitmap with a serialization below 4 GiB", "why_tests_cant": "Conformance is a statement about all contents and layouts, not agreement with the library's own reader.", "anchors": ["src/roaring_array.c: ra_portable_serialize, ra_portable_header_size", "include/roaring/containers/containers.h: container_write"]}
{"id": "C41", "title": "Every conforming file is read correctly", "statement": "Every byte string below 4 GiB of the published portable format for a set P, whoever wrote it, is accepted by roaring_bitmap_portable_deserialize_safe and by roaring_bitmap_portable_deserialize_frozen, which produce a valid bitmap with member set P.", "quantifier": "every set, every conforming file for it (any admissible choice of container encodings), any trailing bytes", "why_tests_cant": "Files written by other implementations may choose encodings this library never writes.", "anchors": ["src/roaring_array.c: ra_portable_deserialize", "src/roaring.c: roaring_bitmap_portable_deserialize_frozen"]}
{"id": "C42", "title": "Uncompressed bitsets behave as sets of positions under any sequence of calls", "statement": "For any number of bitsets and any sequence of create, copy, set, set_to_value, clear, trim, in-place union/intersection/difference/symmetric difference and queries (get, count, empty, minimum, maximum, disjoint, intersect, contains_all, the four count functions, next_set_bit, next_set_bits), every answer is the one required of the mathematical sets, and the final contents are those sets; bitsets of different sizes can be mixed freely.", "quantifier": "every sequence of calls; positions below 2^64-64", "why_tests_cant": "Operands of different array sizes take different code paths (growing, zero-filling the tail); all size relations occur.", "anchors": ["src/bitset.c: bitset_grow, bitset_resize, bitset_inplace_union, bitset_inplace_intersection, bitset_union_count, bitset_contains_all, bitset_trim", "include/roaring/bitset/bitset.h: bitset_set, bitset_set_to_value, bitset_get, bitset_next_set_bit"]}
{"id": "C43", "title": "Enumerating an uncompressed bitset lists its members in order", "statement": "bitset_next_set_bits returns the next members from the given position in increasing order, as many as fit, and leaves the position at the last one; bitset_for_each calls the callback on all members in order until it returns false.", "quantifier": "every bitset, start, capacity and callback", "why_tests_cant": "All word boundaries and buffer sizes.", "anchors": ["include/roaring/bitset/bitset.h: bitset_next_set_bits, bitset_for_each"]}
{"id": "C44", "title": "Shifting an uncompressed bitset translates its members", "statement": "bitset_shift_left moves every member up by the shift; bitset_shift_right moves every member down and drops those that would become negative.", "quantifier": "every bitset and shift", "why_tests_cant": "In-place word moves with carries; every combination of word and bit distance.", "anchors": ["src/bitset.c: bitset_shift_left, bitset_shift_right"]}
{"id": "C45", "title": "Histories of calls on 64-bit bitmaps behave as mathematical sets", "statement": "For any number of 64-bit bitmaps and any sequence of creation, copy, insertion, removal, range updates, flips, run compression, set operations in and out of place, and queries (membership, ranges, cardinalities, comparisons, rank, select, index, extremes, extraction), no call touches memory it should not, every answer is the one required of the mathematical sets, and the final contents are those sets.", "quantifier": "every sequence of calls with arguments in the documented domain; any number of bitmaps", "why_tests_cant": "State is spread over a radix tree, a table of containers and free lists; sequences of calls interact through all three.", "anchors": ["src/roaring64.c: roaring64_bitmap_add, roaring64_bitmap_remove, roaring64_bitmap_or_inplace, roaring64_bitmap_flip_closed_inplace, ...", "src/art/art.c: art_insert, art_erase, art_iterator_insert, art_iterator_erase"]}
{"id": "C46", "title": "Set operations and comparisons of 64-bit bitmaps are exact", "statement": "and, or, xor, andnot and their in-place forms give exactly the intersection, union, symmetric difference and difference; equals, is_subset, intersect and is_empty answer exactly.", "quantifier": "every pair of valid 64-bit bitmaps", "why_tests_cant": "The merge over two trees has many interleavings of block keys and container kinds.", "anchors": ["src/roaring64.c: roaring64_bitmap_and, roaring64_bitmap_or, roaring64_bitmap_xor, roaring64_bitmap_andnot, *_inplace, roaring64_bitmap_equals, roaring64_bitmap_is_subset"]}
{"id": "C47", "title": "Range updates and range queries of 64-bit bitmaps are exact up to 2^64-1", "statement": "add_range, remove_range, flip (half-open and closed, in and out of place), range_cardinality, range_closed_cardinality, intersect_with_range and from_range act on exactly the values of the interval (or progression), including intervals that end at 2^64-1.", "quantifier": "every valid bitmap, every pair of 64-bit bounds, every step", "why_tests_cant": "Carries between the 48-bit key and the 16-bit part, and wrap-around at the end of the universe.", "anchors": ["src/roaring64.c: roaring64_bitmap_add_range_closed, roaring64_bitmap_remove_range_closed, roaring64_bitmap_flip_closed, roaring64_bitmap_range_closed_cardinality, roaring64_bitmap_from_range"]}
{"id": "C48", "title": "Order statistics of 64-bit bitmaps are exact", "statement": "rank, get_index, select, minimum and maximum agree with the sorted list of members.", "quantifier": "every valid 64-bit bitmap and argument", "why_tests_cant": "Ranks accumulate across containers in 64-bit arithmetic.", "anchors": ["src/roaring64.c: roaring64_bitmap_rank, roaring64_bitmap_get_index, roaring64_bitmap_select, roaring64_bitmap_minimum, roaring64_bitmap_maximum"]}
{"id": "C49", "title": "contains_range on 64-bit bitmaps is exact", "statement": "roaring64_bitmap_contains_range(r, min, max) is true exactly when every value of [min, max) is a member.", "quantifier": "every valid 64-bit bitmap and pair of bounds", "why_tests_cant": "Depends on which blocks exist around the range.", "anchors": ["src/roaring64.c: roaring64_bitmap_contains_range"]}
{"id": "C50", "title": "64-bit iterators traverse exactly the members in order", "statement": "From either end, any sequence of advance, previous, move_equalorlarger and read shows at every step the value a cursor on the sorted list of members shows, and reads the values it passes.", "quantifier": "every valid 64-bit bitmap, every sequence of iterator calls", "why_tests_cant": "The iterator combines a tree path, a container position and a saturation flag.", "anchors": ["src/roaring64.c: roaring64_iterator_advance, roaring64_iterator_previous, roaring64_iterator_move_equalorlarger, roaring64_iterator_read"]}
{"id": "C51", "title": "Bulk operations through one context equal the single operations", "statement": "Any sequence of add_bulk, remove_bulk and contains_bulk calls sharing a context has the effect and the answers of the single calls; in particular remove_many removes exactly the listed values.", "quantifier": "every valid 64-bit bitmap, every sequence of values", "why_tests_cant": "The context caches a leaf that other calls of the sequence may delete.", "anchors": ["src/roaring64.c: roaring64_bitmap_add_bulk, roaring64_bitmap_remove_bulk, roaring64_bitmap_contains_bulk, roaring64_bitmap_remove_many"]}
{"id": "C52", "title": "Enumeration of 64-bit bitmaps is sorted and complete", "statement": "roaring64_bitmap_iterate calls the callback on the members in increasing order until it returns false; roaring64_bitmap_to_uint64_array writes exactly the sorted members.", "quantifier": "every valid 64-bit bitmap and callback; for extraction, every bitmap whose cardinality fits in 64 bits", "why_tests_cant": "All container kinds and tree shapes.", "anchors": ["src/roaring64.c: roaring64_bitmap_iterate, roaring64_bitmap_to_uint64_array"]}
{"id": "C53", "title": "The radix tree is an ordered map", "statement": "Under any sequence of insertions, overwrites, erasures, lookups, walks in both directions from the ends, lower-bound and upper-bound walks, and insertions and erasures through an iterator, the tree behaves as an ordered map from six-byte keys (compared as big-endian numbers) to values.", "quantifier": "every sequence of calls, every key and value", "why_tests_cant": "Nodes grow and shrink between four layouts, with prefix compression and reuse of freed slots.", "anchors": ["src/art/art.c: art_insert, art_erase, art_find, art_lower_bound, art_upper_bound, art_iterator_next, art_iterator_prev, art_iterator_insert, art_iterator_erase"]}
{"id": "C54", "title": "Moving a 32-bit bitmap into a 64-bit bitmap preserves the members", "statement": "roaring64_bitmap_move_from_roaring32 gives a 64-bit bitmap with exactly the members of the 32-bit bitmap, which is left empty.", "quantifier": "every valid 32-bit bitmap", "why_tests_cant": "All container kinds and key sets.", "anchors": ["src/roaring64.c: roaring64_bitmap_move_from_roaring32, move_from_roaring32_offset"]}
{"id": "C55", "title": "Cardinality queries of 64-bit bitmaps are exact", "statement": "get_cardinality, and/or/xor/andnot_cardinality and the two parts of the Jaccard index are the cardinalities of the corresponding sets; is_strict_subset is exact.", "quantifier": "every pair of valid 64-bit bitmaps", "why_tests_cant": "Inclusion-exclusion in wrapping 64-bit arithmetic.", "anchors": ["src/roaring64.c: roaring64_bitmap_get_cardinality, roaring64_bitmap_or_cardinality, roaring64_bitmap_is_strict_subset, roaring64_bitmap_jaccard_index"]}
{"id": "C56", "title": "Serialized 64-bit bitmaps are read back unchanged", "statement": "roaring64_bitmap_portable_serialize writes exactly the number of bytes that portable_size_in_bytes announces and touches nothing after them; portable_deserialize_safe of those bytes, followed by anything, returns a valid bitmap with the same members and portable_deserialize_size returns their length; every proper prefix is rejected by both.", "quantifier": "every valid 64-bit bitmap, every buffer, every trailing data", "why_tests_cant": "Buckets are cut out of a tree walk and reassembled through 32-bit bitmaps.", "anchors": ["src/roaring64.c: roaring64_bitmap_portable_serialize, roaring64_bitmap_portable_size_in_bytes, roaring64_bitmap_portable_deserialize_safe, roaring64_bitmap_portable_deserialize_size"]}
{"id": "C57", "title": "The 64-bit interchange format is the published one", "statement": "The bytes written for a bitmap are an encoding of its member set in the published 64-bit format with no empty bucket, and every byte string that encodes a set in that format, including one with empty buckets, is accepted and gives that set.", "quantifier": "every valid 64-bit bitmap; every conforming byte string shorter than 2^32 bytes", "why_tests_cant": "Interoperability with other implementations depends on every byte.", "anchors": ["src/roaring64.c: roaring64_bitmap_portable_serialize, roaring64_bitmap_portable_deserialize_safe"]}
{"id": "C58", "title": "Reading untrusted bytes as a 64-bit bitmap is memory safe", "statement": "On any bytes, portable_deserialize_safe and portable_deserialize_size never depend on a byte beyond the announced length and never have undefined behaviour; what they accept is determined by the announced number of bytes alone.", "quantifier": "all byte strings, all lengths", "why_tests_cant": "The input is adversarial.", "anchors": ["src/roaring64.c: roaring64_bitmap_portable_deserialize_safe, roaring64_bitmap_portable_deserialize_size"]}
{"id": "C59", "title": "portable_deserialize_size agrees with portable_deserialize_safe", "statement": "portable_deserialize_size returns the number of bytes the bitmap occupies if portable_deserialize_safe accepts the input, and zero if there is no valid bitmap.", "quantifier": "all byte strings", "why_tests_cant": "The two functions check the input separately.", "anchors": ["src/roaring64.c: roaring64_bitmap_portable_deserialize_size, roaring64_bitmap_portable_deserialize_safe"]}
{"id": "C60", "title": "The self-check of 64-bit bitmaps is exact", "statement": "roaring64_bitmap_internal_validate is true on every valid bitmap, and on any bitmap obtained from untrusted bytes it terminates without undefined behaviour and is true exactly when the bitmap is valid.", "quantifier": "every valid 64-bit bitmap; every bitmap that portable_deserialize_safe accepts", "why_tests_cant": "The check guards every later call on untrusted data.", "anchors": ["src/roaring64.c: roaring64_bitmap_internal_validate", "src/art/art.c: art_internal_validate"]}
{"id": "C61", "title": "Statistics of 64-bit bitmaps describe the member set", "statement": "roaring64_bitmap_statistics reports the minimum, the maximum, the cardinality as a 64-bit number, and as many containers as there are blocks of 65536 values with members, split by kind with value and byte counts that are consistent with each other.", "quantifier": "every valid 64-bit bitmap", "why_tests_cant": "Sums over all containers.", "anchors": ["src/roaring64.c: roaring64_bitmap_statistics"]}
{"id": "C62", "title": "Any history of calls on C++ 64-bit maps computes the right sets", "statement": "Starting from empty maps or from any maps that stand for sets, every sequence of Roaring64Map calls with documented arguments runs without undefined behaviour, every answer is the one the member sets prescribe, and afterwards every map stands for the set the sequence prescribes.", "quantifier": "all sequences of constructors, copies, swaps, adds, removes, range updates, flips, binary and in-place operations (also with itself), unions, conversions, serialization round trips and queries; any number of maps", "why_tests_cant": "The state space is all sequences over 64-bit values; buckets appear, empty and vanish.", "anchors": ["cpp/roaring64map.hh: class Roaring64Map"]}
{"id": "C63", "title": "Iterators of the C++ 64-bit map walk the members in order", "statement": "From begin() or end(), any sequence of ++i, i++, --i, i-- and move_equalorlarger that respects the usual preconditions shows exactly the members in increasing order, and move_equalorlarger answers whether there is a member at or above the target.", "quantifier": "every map, every legal sequence of iterator calls", "why_tests_cant": "Crossing buckets in either direction depends on every bucket in between.", "anchors": ["cpp/roaring64map.hh: class Roaring64MapSetBitBiDirectionalIterator"]}
{"id": "C64", "title": "Comparing iterators of the C++ 64-bit map orders positions", "statement": "For any two iterators of one map, ==, !=, <, <=, >, >= are defined and compare the positions, end() being last.", "quantifier": "every map, every pair of reachable iterators", "why_tests_cant": "The result depends on both positions and on end().", "anchors": ["cpp/roaring64map.hh: operator==, operator!=, operator<, operator<=, operator>, operator>= of the iterator"]}
{"id": "C65", "title": "Enumerating a C++ 64-bit map yields its members once, in order", "statement": "toUint64Array writes the members in increasing order; iterate calls the function on each member in increasing order and stops at the first call that returns false.", "quantifier": "every map, every callback", "why_tests_cant": "The order spans buckets; the callback is arbitrary.", "anchors": ["cpp/roaring64map.hh: toUint64Array, iterate"]}
{"id": "C66", "title": "Portable images of C++ 64-bit maps are read back unchanged", "statement": "write fills exactly getSizeInBytes() bytes and touches nothing after them; read and readSafe of those bytes, followed by anything, return a map with the same members; readSafe refuses every shorter limit.", "quantifier": "every map, every buffer, every trailing data", "why_tests_cant": "The image concatenates one image per bucket.", "anchors": ["cpp/roaring64map.hh: write, read, readSafe, getSizeInBytes"]}
{"id": "C67", "title": "C++ 64-bit maps use the published format and interoperate with the C 64-bit bitmaps", "statement": "The portable image encodes the member set in the published 64-bit format; every conforming byte string is accepted and gives that set; images written by the C functions are read by the C++ class and conversely, with the same members.", "quantifier": "every map and every C 64-bit bitmap; every conforming byte string", "why_tests_cant": "Two separate implementations of one format.", "anchors": ["cpp/roaring64map.hh: write, read, readSafe", "src/roaring64.c: roaring64_bitmap_portable_serialize, roaring64_bitmap_portable_deserialize_safe"]}
{"id": "C68", "title": "readSafe of the C++ 64-bit map never reads beyond the announced length", "statement": "On any bytes, readSafe either throws or returns a map, without reading a byte beyond the announced length.", "quantifier": "all byte strings", "why_tests_cant": "The input is adversarial.", "anchors": ["cpp/roaring64map.hh: readSafe"]}
{"id": "C69", "title": "Native images of C++ 64-bit maps are read back unchanged", "statement": "write(buf, false) fills exactly getSizeInBytes(false) bytes, and read(buf, false) of those bytes, followed by anything, returns a map with the same members.", "quantifier": "every map", "why_tests_cant": "The reader recomputes the length of each part from what it has built.", "anchors": ["cpp/roaring64map.hh: write, read, getSizeInBytes with portable = false"]}
{"id": "C70", "title": "runOptimize and removeRunCompression of the C++ 64-bit map report what they did", "statement": "Both keep the members; runOptimize returns true exactly if the result has at least one run container; removeRunCompression returns true exactly if a change was applied.", "quantifier": "every map", "why_tests_cant": "The results of all buckets are combined.", "anchors": ["cpp/roaring64map.hh: runOptimize, removeRunCompression"]}
{"id": "C71", "title": "select and getIndex of the C++ 64-bit map answer for every member", "statement": "select(k) returns the member with exactly k smaller members whenever k is below the cardinality; getIndex(x) of a member returns the number of smaller members.", "quantifier": "every map, every rank, every value", "why_tests_cant": "Sums over all buckets; full buckets hold 2^32 values.", "anchors": ["cpp/roaring64map.hh: select, getIndex"]}
{"id": "C72", "title": "Array operations give the set result under every CPU level and write only to their output", "statement": "Union, symmetric difference and difference of two array containers, with the vector instructions the CPU has or without, leave the sorted set result in the output container, whose block has the old place or a fresh one, and change no cell outside that block and their local buffers.", "quantifier": "all pairs of sorted arrays, every placement in memory, every CPU level, every content of fresh memory", "why_tests_cant": "The vector code stores blocks of eight lanes beyond what it keeps and reads its inputs ahead; which path runs depends on the machine.", "anchors": ["src/containers/array.c: array_container_union, array_container_xor, array_container_andnot", "src/array_util.c: union_vector16, xor_vector16, difference_vector16, fast_union_uint16"]}
{"id": "C73", "title": "In-place array operations survive the overlap of input and output", "statement": "Union into the first operand (ordinary and lazy) and intersection in place give the set result although the output is written over an input that is still being read.", "quantifier": "all pairs of sorted arrays, every capacity, every CPU level", "why_tests_cant": "A value overwritten before it is read is lost only for particular interleavings of the two arrays.", "anchors": ["src/containers/mixed_union.c: array_array_container_inplace_union, array_array_container_lazy_inplace_union", "src/containers/array.c: array_container_intersection_inplace", "src/array_util.c: intersect_vector16_inplace, intersect_skewed_uint16"]}
{"id": "C74", "title": "Converting a container to numbers writes exactly its members", "statement": "Writing the members of a bitset or array container as 32-bit numbers, or of a bitset container as an array container, fills exactly as many cells as there are members, in increasing order, and touches nothing else.", "quantifier": "all bitsets and arrays, every base, every CPU level", "why_tests_cant": "The vector versions write blocks of 8, 16 or 64 lanes at a time and depend on a bound to stay in the buffer.", "anchors": ["src/containers/bitset.c: bitset_container_to_uint32_array", "src/containers/array.c: array_container_to_uint32_array", "src/containers/convert.c: array_container_from_bitset", "src/bitset_util.c: bitset_extract_setbits_avx2, bitset_extract_setbits_avx512, bitset_extract_setbits_avx512_uint16, bitset_extract_setbits"]}
{"id": "C75", "title": "Extraction respects the stated capacity of the output", "statement": "Extracting the set bits into a buffer of a stated capacity writes the smallest members, as many as fit, and no cell beyond the capacity.", "quantifier": "all bitsets, all capacities", "why_tests_cant": "Only dense words near the end of the buffer make a difference.", "anchors": ["src/bitset_util.c: bitset_extract_setbits_avx2, bitset_extract_setbits_avx512, bitset_extract_setbits_avx512_uint16, bitset_extract_setbits_sse_uint16"]}
{"id": "C76", "title": "Intersecting into an array container stays within its capacity", "statement": "The intersection of two array containers leaves the set result in the output container and writes only to its block, whatever its capacity.", "quantifier": "all pairs of sorted arrays, every capacity of the output, every CPU level", "why_tests_cant": "The eight-lane store overruns only for particular alignments of the matches.", "anchors": ["src/containers/array.c: array_container_intersection", "src/array_util.c: intersect_vector16"]}
{"id": "C77", "title": "Bitset containers combine alike on every CPU", "statement": "The union, intersection, symmetric difference and difference of two 65536-bit blocks have every bit right and report the exact number of set bits, with the portable, the AVX2 and the AVX-512 code alike, also when the result overwrites an operand; the count-only versions report the same number, and nothing outside the destination changes.", "quantifier": "all contents of both blocks, the three CPU levels, destination equal to or apart from each operand; the population counts for any number of blocks", "why_tests_cant": "The vector code accumulates carries over sixteen registers and splits the remainder; a wrong carry shows only for particular bit patterns, and a test run exercises the code of one CPU.", "anchors": ["src/containers/bitset.c: CROARING_BITSET_CONTAINER_FN", "src/containers/bitset.c: bitset_container_compute_cardinality", "include/roaring/bitset_util.h: CROARING_AVXPOPCNTFNC, CROARING_AVXPOPCNTFNC512, avx2_harley_seal_popcount256, avx512_vpopcount"]}
{"id": "C78", "title": "Comparing containers is exact on every CPU", "statement": "Two bitset containers compare equal exactly when they have the same bits, whether or not their cardinalities are known; two blocks of bytes compare equal exactly when each byte is the same; no byte outside them is read.", "quantifier": "all contents, all lengths, the three CPU levels", "why_tests_cant": "A difference in the last bytes, or in a lane a mask leaves out, is seen only with that length and position.", "anchors": ["src/array_util.c: memequals", "src/containers/bitset.c: bitset_container_equals"]}
{"id": "C79", "title": "Counting and listing the values of runs is right on every CPU", "statement": "The number of values of a run container is exact, and writing them as 32-bit numbers fills exactly that many cells in order and touches nothing else.", "quantifier": "all lists of disjoint increasing runs, every base, the three CPU levels", "why_tests_cant": "The vector code handles blocks of 8 or 16 runs and the remainder apart, and wraps modulo 2^32.", "anchors": ["src/containers/run.c: run_container_cardinality, run_container_to_uint32_array"]}
{"id": "C80", "title": "shrink_to_fit keeps a 64-bit bitmap's members and leaves no slack", "statement": "After roaring64_bitmap_shrink_to_fit the bitmap is valid and has the same members, none of its node arrays nor its container table has a free entry, and the bytes the node arrays and the container table give back are counted in the number returned.", "quantifier": "every valid 64-bit bitmap", "why_tests_cant": "Nodes and containers move in memory; every pattern of free slots would have to be tried.", "anchors": ["src/roaring64.c: roaring64_bitmap_shrink_to_fit, move_to_shrink", "src/art/art.c: art_shrink_to_fit, art_shrink_at, art_move_node_to_shrink, art_sort_free_lists"]}
{"id": "C81", "title": "The frozen format of 64-bit bitmaps round-trips, and a view answers every query", "statement": "After shrink_to_fit the frozen size is a positive multiple of 64, frozen_serialize writes exactly that many bytes, and frozen_view of those bytes (in an aligned buffer, any stated length at least that size, anything after them) gives a read-only bitmap that answers every query, iterator call, comparison, set operation, portable serialization, self-check and statistic like the original, in any history that does not change it. A bitmap with slack is refused with size 0 and nothing is written.", "quantifier": "every valid 64-bit bitmap using less than 2^52 bytes, every buffer, every history with views", "why_tests_cant": "The image mirrors the memory of the tree; offsets and alignment depend on all sizes.", "anchors": ["src/roaring64.c: roaring64_bitmap_frozen_size_in_bytes, roaring64_bitmap_frozen_serialize, roaring64_bitmap_frozen_view", "src/art/art.c: art_size_in_bytes, art_serialize, art_frozen_view"]}
{"id": "C82", "title": "Truncated frozen 64-bit data are rejected", "statement": "frozen_view of a frozen image cut short returns NULL and reads nothing beyond the stated length.", "quantifier": "every frozen image of a 64-bit bitmap and every shorter length", "why_tests_cant": "Every cut of every image.", "anchors": ["src/roaring64.c: roaring64_bitmap_frozen_view, roaring64_bitmap_free", "src/art/art.c: art_frozen_view"]}
{"id": "C83", "title": "A frozen view of a 64-bit bitmap can be frozen again", "statement": "The frozen size of a view is that of the image it was made from, and serializing it again writes an image of the same set.", "quantifier": "every frozen view of a non-empty 64-bit bitmap", "why_tests_cant": "Needs a statement about all images.", "anchors": ["src/roaring64.c: roaring64_bitmap_frozen_view, is_shrunken, roaring64_bitmap_frozen_size_in_bytes"]}
{"id": "C84", "title": "Set operations on run-encoded chunks stay inside their memory and give the set", "statement": "Union, symmetric difference, intersection and difference of two run-encoded chunks, and union and symmetric difference of an array chunk with a run-encoded one, never read or write outside a memory block, never read a cell that was not written, and leave the exact set in normal form in the destination, whatever the capacity and previous content of the destination.", "quantifier": "all non-empty operands (symmetric difference: all operands), every spare capacity of the operands, every destination block (union with an array: a destination without runs)", "why_tests_cant": "Whether the reserved capacity suffices depends on the interleaving of the two inputs; sanitizers only see the inputs tried.", "anchors": ["src/containers/run.c: run_container_union, run_container_xor, run_container_intersection, run_container_andnot, run_container_copy, run_container_grow", "src/containers/mixed_union.c: array_run_container_union", "src/containers/mixed_xor.c: array_run_container_lazy_xor"]}
{"id": "C85", "title": "Operations that overwrite a run-encoded chunk never destroy input they still need", "statement": "In-place union of two run-encoded chunks, in-place union with an array chunk, and in-place flip of a range write the block they read from; no run is overwritten before it is read, the block is never left, and the result is the exact set. The flip of a range that does not fit goes to a new block.", "quantifier": "all non-empty operands, every spare capacity, every range", "why_tests_cant": "Overlap of the input and output pointers depends on all the runs before the current one.", "anchors": ["src/containers/run.c: run_container_union_inplace", "src/containers/mixed_union.c: array_run_container_inplace_union", "src/containers/mixed_negation.c: run_container_negation_range_inplace, run_container_negation_range"]}
{"id": "C86", "title": "Editing and building run-encoded chunks fits their memory", "statement": "Adding and removing a value or a range in a run-encoded chunk answers whether the value was new or present, yields the exact set in normal form, and never leaves the block nor reads an unwritten cell. Run-encoding an array chunk or a bitset chunk fills the block made for it exactly.", "quantifier": "every run-encoded chunk with any spare capacity, every value and range; every non-empty array chunk and every bitset chunk", "why_tests_cant": "Off-by-one moves at the block end depend on capacity, position and neighbours together.", "anchors": ["src/containers/run.c: run_container_add", "include/roaring/containers/run.h: run_container_remove, makeRoomAtIndex, recoverRoomAtIndex, run_container_add_range_nruns, run_container_remove_range, run_container_shift_tail, run_container_create_range", "src/containers/convert.c: run_container_from_array, convert_run_optimize"]}
{"id": "C87", "title": "C++ bitmap objects can be created, copied, moved, assigned, swapped and destroyed in any order", "statement": "In any program that constructs Roaring objects (empty, from a list, by copy, by move), assigns them (by copy, by move, from a list), swaps them, calls their methods and operators and destroys them, every live object holds the set it should, a moved-from object is empty and usable, no released memory is used, no two objects share memory, and when all objects are destroyed nothing is left allocated. Assigning an object to itself leaves it as it is.", "quantifier": "all programs over any number of objects without copy-on-write", "why_tests_cant": "Ownership errors show up only in particular sequences of copies, moves and destructions.", "anchors": ["cpp/roaring.hh: Roaring::Roaring, Roaring::operator=, Roaring::swap, Roaring::~Roaring", "src/roaring.c: roaring_bitmap_overwrite", "src/roaring_array.c: ra_overwrite, ra_clear_containers"]}
{"id": "C88", "title": "C++ iterators are positions, and a for loop visits the members in order", "statement": "begin(), end(), ++, --, move_equalorlarger, dereferencing and the six comparisons behave like positions in the sorted list of members of the object the iterator came from, for any number of objects and iterators; for (auto x : r) visits exactly the members in order.", "quantifier": "all programs over any number of constant bitmaps and iterators", "why_tests_cant": "The end iterator is a static shared by all objects; interference needs several objects in a particular order of calls.", "anchors": ["cpp/roaring.hh: RoaringSetBitBiDirectionalIterator, Roaring::begin, Roaring::end"]}
{"id": "C89", "title": "Printing shows exactly the set", "statement": "roaring_bitmap_printf and toString() write an opening brace, the decimal numerals of the members in increasing order separated by commas, and a closing brace; two bitmaps print the same text exactly when they hold the same set, whatever their internal representation. The same holds for toString() of 64-bit maps.", "quantifier": "every valid bitmap and every valid 64-bit map", "why_tests_cant": "Separators depend on which chunk kinds are first, last or adjacent.", "anchors": ["src/roaring.c: roaring_bitmap_printf", "src/containers/array.c, bitset.c, run.c: *_printf_as_uint32_array", "cpp/roaring.hh: Roaring::toString", "cpp/roaring64map.hh: Roaring64Map::toString, printToSink"]}
{"id": "C90", "title": "The table of chunks never leaves its memory", "statement": "The pointers, keys and kinds of the chunks of a bitmap live in one allocation that grows and shrinks. Whatever chunks are appended, inserted, removed, replaced or slid down, whatever ranges of chunks are created or dropped, and whenever the table is shrunk, every access stays inside the allocation, no unwritten entry is read, the table holds exactly the expected entries in order, a key is found exactly when it is there, and shrinking reports exactly the bytes given back.", "quantifier": "all programs of table edits over tables of up to 65536 entries, every initial capacity", "why_tests_cant": "Which moves overlap and when the allocation grows depends on the whole history of sizes.", "anchors": ["src/roaring_array.c: realloc_array, extend_array, ra_init_with_capacity, ra_shrink_to_fit, ra_append, ra_insert_new_key_value_at, ra_remove_at_index, ra_downsize, ra_copy_range, ra_shift_tail", "include/roaring/roaring_array.h: ra_get_index, ra_replace_key_and_container_at_index, ra_set_container_at_index", "src/roaring.c: roaring_bitmap_add_range_closed, roaring_bitmap_remove_range_closed"]}
{"id": "C91", "title": "Moving, sharing and cloning chunks between two bitmaps keeps both tables whole", "statement": "Whatever runs of chunks are appended from one bitmap to another (moved, shared or cloned; by position, up to a key, or after a key), and whenever one bitmap is overwritten with another, every access stays inside the two allocations, the receiving table gets exactly the expected entries in order, and the other table keeps its entries (with the shared address and kind where they are now shared).", "quantifier": "all programs of edits of two tables of up to 65536 entries, every initial capacity", "why_tests_cant": "The room made once for a range is used by a loop that also rewrites the source; only long mixed sequences exercise it.", "anchors": ["src/roaring_array.c: ra_append_copy, ra_append_copies_until, ra_append_copy_range, ra_append_copies_after, ra_append_move_range, ra_append_range, ra_overwrite"]}
{"id": "C92", "title": "Array containers never leave their memory", "statement": "The values of a sparse chunk live in one allocation that grows and shrinks. Whatever values and ranges are added, appended, removed or tested, whatever arrays are created, cloned, copied, read from a buffer, shifted, cut out of runs or bitsets, or combined in place or not with bitsets and runs, every access stays inside the allocation, no unwritten entry is read, the allocation shows exactly the expected values in order, the answers are right, and shrinking leaves exactly as many entries as there are values.", "quantifier": "all programs over any number of arrays of up to 65536 values, every capacity", "why_tests_cant": "Which moves overlap, when the allocation grows and how far the write position lags behind the read position depends on the whole history.", "anchors": ["src/containers/array.c: array_container_create_given_capacity, array_container_create_range, array_container_clone, array_container_copy, array_container_grow, array_container_shrink_to_fit, array_container_add_from_range, array_container_offset, array_container_read", "include/roaring/containers/array.h: array_container_append, array_container_try_add, array_container_remove, array_container_contains, array_container_add_range_nvals, array_container_remove_range", "src/containers/mixed_intersection.c: array_bitset_container_intersection, array_run_container_intersection", "src/containers/mixed_andnot.c: array_bitset_container_andnot, array_run_container_andnot, run_array_container_andnot", "src/containers/convert.c: array_container_from_run, array_container_from_bitset"]}
{"id": "C93", "title": "shrink_to_fit keeps everything, leaves no slack and returns the bytes saved", "statement": "After roaring_bitmap_shrink_to_fit every chunk stores what it stored, chunks of other bitmaps are untouched, no chunk of the bitmap and no entry of its table has spare room, no access leaves an allocation, and the number returned is the number of bytes saved.", "quantifier": "every table of chunks reachable by edits, every heap of chunks, shared or not", "why_tests_cant": "Spare room depends on the whole history, and the memory given back is not visible to a test.", "anchors": ["src/roaring.c: roaring_bitmap_shrink_to_fit", "include/roaring/containers/containers.h: container_shrink_to_fit", "src/containers/array.c: array_container_shrink_to_fit", "src/containers/run.c: run_container_shrink_to_fit", "src/roaring_array.c: ra_shrink_to_fit", "src/roaring64.c: roaring64_bitmap_shrink_to_fit"]}
{"id": "C94", "title": "Containers are released exactly once, when the bitmap drops them", "statement": "Whatever sequence of creations, copies, updates by one value, many values or a range, flips and set operations (in place or with a new result, of two or of many bitmaps), shifts by an offset, overwrites, conversions, clears and frees a program performs on bitmaps that are not copy-on-write, no container is read, written or freed while it is not allocated, none is read as another kind than it is, every bitmap holds the set it should, and at every moment the containers allocated are exactly those the bitmaps refer to, each referred to once; after the last bitmap is freed none is left.", "quantifier": "every program, every set, every capacity of the run containers", "why_tests_cant": "Which buffer a container operation reuses, replaces or drops depends on the kinds and sizes of both operands and on spare capacity; a leak or a second free is invisible to a test that looks at the values.", "anchors": ["src/roaring.c: roaring_bitmap_and_inplace", "src/roaring.c: roaring_bitmap_or_inplace", "src/roaring.c: roaring_bitmap_xor_inplace", "src/roaring.c: roaring_bitmap_andnot_inplace", "src/roaring.c: roaring_bitmap_flip_inplace_closed", "src/roaring.c: roaring_bitmap_remove_range_closed", "src/roaring.c: roaring_bitmap_add_many", "src/roaring.c: roaring_bitmap_remove_many", "src/roaring.c: roaring_bitmap_flip_closed", "src/roaring.c: roaring_bitmap_or_many", "src/roaring.c: roaring_bitmap_xor_many", "src/roaring_priority_queue.c: roaring_bitmap_or_many_heap", "src/roaring.c: roaring_bitmap_add_offset", "src/containers/bitset.c: bitset_container_offset", "src/roaring_array.c: ra_overwrite", "include/roaring/containers/containers.h: container_iand", "include/roaring/containers/containers.h: container_ior", "include/roaring/containers/containers.h: container_ixor", "include/roaring/containers/containers.h: container_iandnot", "src/containers/mixed_andnot.c", "src/containers/mixed_xor.c", "src/containers/convert.c: convert_run_to_efficient_container_and_free"]}
{"id": "C95", "title": "Results made from copy-on-write bitmaps are copy-on-write", "statement": "If every bitmap of a program has copy-on-write enabled, then after any call that copies, updates or combines bitmaps the result has it enabled too, so that the result can be mixed with the others (the header calls mixing bitmaps with and without copy-on-write unsafe); the same with copy-on-write disabled everywhere.", "quantifier": "every state of any number of bitmaps, every call on them", "why_tests_cant": "The flag is set call by call in the code; losing it shows only later, when a bitmap without the flag holds shared containers and is copied.", "anchors": ["src/roaring.c: roaring_bitmap_copy", "src/roaring.c: roaring_bitmap_lazy_or", "src/roaring.c: roaring_bitmap_or_many", "src/roaring_priority_queue.c: lazy_or_from_lazy_inputs", "src/roaring_priority_queue.c: roaring_bitmap_or_many_heap", "src/containers/containers.c: container_clone", "include/roaring/roaring.h: roaring_bitmap_set_copy_on_write"]}
{"id": "C96", "title": "Counting an intersection of arrays gives the same number on every CPU", "statement": "The size of the intersection of two array containers, computed without building it, is the number of common members, whether the vector code, the plain code or the code for arrays of very different sizes is chosen; nothing outside the memory of the two containers' blocks needs to exist for the reads.", "quantifier": "all pairs of sorted arrays of 16-bit values, anywhere in memory, every CPU level", "why_tests_cant": "The vector code compares blocks of eight and finishes with a scalar loop; which matches fall at a block border depends on both arrays and their sizes.", "anchors": ["src/containers/array.c: array_container_intersection_cardinality", "src/array_util.c: intersect_vector16_cardinality", "src/array_util.c: intersect_uint16_cardinality", "src/array_util.c: intersect_skewed_uint16_cardinality"]}
