#!/usr/bin/env python3
"""Writes /verif/properties.jsonl (one JSON object per line)."""
import json, os
P = []
def p(id, title, statement, quantifier, why, anchors):
    P.append(dict(id=id, title=title, statement=statement, quantifier=quantifier,
                  why_tests_cant=why, anchors=anchors))

R="src/roaring.c"; RA="src/roaring_array.c"; H="include/roaring/roaring.h"; CH="include/roaring/containers/containers.h"

p("C01","Histories of updates behave as a mathematical set",
  "Start from an empty bitmap and apply any finite sequence of add, remove, add_checked, remove_checked, add_range_closed, remove_range_closed, add_many, remove_many, flip_inplace_closed, clear, run_optimize, remove_run_compression. After the sequence roaring_bitmap_contains(r,x) is true exactly for the 32-bit values x in the set obtained by performing the same operations on a mathematical set.",
  "every finite sequence of update operations with every 32-bit argument, and every 32-bit probe x",
  "The state space is the set of all histories; container representation (sorted array / 8 KB bitset / runs) depends on the whole history, so no finite test list covers the transitions.",
  [f"{R}: roaring_bitmap_add, roaring_bitmap_remove, roaring_bitmap_add_range_closed, roaring_bitmap_remove_range_closed, roaring_bitmap_add_many, roaring_bitmap_remove_many, roaring_bitmap_contains", f"{CH}: container_add, container_remove, container_add_range, container_remove_range"])
p("C02","Every reachable bitmap passes internal validation",
  "Every bitmap obtained from the public constructors through any sequence of the modelled public operations (updates, binary set operations, in-place operations, flips, offsets, optimisation, deserialization of serialized bitmaps) satisfies roaring_bitmap_internal_validate: keys strictly increasing, no empty container, arrays sorted and of size 1..4096, bitsets with correct cardinality above 4096, runs sorted, disjoint and non-adjacent.",
  "every finite expression/history built from the modelled operations",
  "An invariant over all reachable states; tests can only call the validator after particular histories.",
  [f"{R}: roaring_bitmap_internal_validate", "src/containers/containers.c: container_internal_validate", "src/containers/array.c: array_container_validate","src/containers/bitset.c: bitset_container_validate","src/containers/run.c: run_container_validate"])
p("C03","Binary set operations are exact",
  "For valid bitmaps a and b, roaring_bitmap_and/or/xor/andnot return a bitmap whose members are exactly the intersection / union / symmetric difference / difference.",
  "every pair of valid bitmaps in any mixture of representations",
  "There are 9 container type pairs times 4 operations times unbounded contents, with thresholds (4096, 32, run sizes) that change the algorithm.",
  [f"{R}: roaring_bitmap_and, roaring_bitmap_or, roaring_bitmap_xor, roaring_bitmap_andnot", f"{CH}: container_and, container_or, container_xor, container_andnot","src/containers/mixed_intersection.c","src/containers/mixed_union.c","src/containers/mixed_xor.c","src/containers/mixed_andnot.c"])
p("C04","In-place set operations equal the out-of-place ones",
  "For distinct valid bitmaps a and b, after roaring_bitmap_{and,or,xor,andnot}_inplace(a,b) the members of a are exactly those of the corresponding out-of-place result and b has the same members as before.",
  "every pair of valid bitmaps",
  "In-place code shares buffers between input and output and depends on spare capacity; correctness needs all aliasing/capacity configurations.",
  [f"{R}: roaring_bitmap_and_inplace, roaring_bitmap_or_inplace, roaring_bitmap_xor_inplace, roaring_bitmap_andnot_inplace", f"{CH}: container_iand, container_ior, container_ixor, container_iandnot"])
p("C05","Cardinality queries are exact",
  "For every valid bitmap roaring_bitmap_get_cardinality is the number of members, is_empty is true exactly when there are none, and and_cardinality, or_cardinality, xor_cardinality, andnot_cardinality give the size of the corresponding set without materialising it.",
  "every valid bitmap and pair of valid bitmaps",
  "Counts use separate code paths (popcount, run lengths, galloping) for every pair of representations and unbounded contents.",
  [f"{R}: roaring_bitmap_get_cardinality, roaring_bitmap_and_cardinality, roaring_bitmap_or_cardinality, roaring_bitmap_xor_cardinality, roaring_bitmap_andnot_cardinality, roaring_bitmap_is_empty", f"{CH}: container_get_cardinality, container_and_cardinality"])
p("C06","Equality is extensional",
  "roaring_bitmap_equals(a,b) returns true exactly when a and b have the same members, whatever their internal representations and histories.",
  "every pair of valid bitmaps",
  "Needs both directions for all contents: two different representations of one set must compare equal and any single differing value must be noticed.",
  [f"{R}: roaring_bitmap_equals","src/containers/mixed_equal.c", f"{CH}: container_equals"])
p("C07","Subset, strict subset and intersect predicates are exact",
  "roaring_bitmap_is_subset, is_strict_subset and intersect decide inclusion, strict inclusion and non-disjointness of the member sets.",
  "every pair of valid bitmaps",
  "Decision procedures with early exits over all contents and all representation pairs.",
  [f"{R}: roaring_bitmap_is_subset, roaring_bitmap_is_strict_subset, roaring_bitmap_intersect","src/containers/mixed_subset.c", f"{CH}: container_is_subset, container_intersect"])
p("C08","rank, select and get_index are exact and mutually inverse",
  "rank(r,x) is the number of members <= x; select(r,k) returns the k-th smallest member (0-based) and succeeds whenever k < cardinality; get_index(r,x) is rank-1 for members and -1 otherwise; consequently select(get_index(x)) = x and get_index(select(k)) = k.",
  "every valid bitmap, every 32-bit x and k",
  "Universally quantified over contents, positions and representations; the extreme case (cardinality 2^32) cannot be reached in a unit test cheaply.",
  [f"{R}: roaring_bitmap_rank, roaring_bitmap_select, roaring_bitmap_get_index", f"{CH}: container_rank, container_select, container_get_index"])
p("C09","rank_many agrees with rank",
  "For a sorted sequence of queries, roaring_bitmap_rank_many writes to the output array, for every query, the same number that roaring_bitmap_rank returns.",
  "every valid bitmap and every sorted list of queries",
  "Interaction of an arbitrary query list with an arbitrary container layout.",
  [f"{R}: roaring_bitmap_rank_many", f"{CH}: container_rank_many"])
p("C10","Minimum and maximum are exact",
  "On a non-empty valid bitmap roaring_bitmap_minimum/maximum return the least/greatest member; on an empty one they return UINT32_MAX/0.",
  "every valid bitmap","Universally quantified over contents and representation of the first/last container.",
  [f"{R}: roaring_bitmap_minimum, roaring_bitmap_maximum", f"{CH}: container_minimum, container_maximum"])
p("C11","Range operations are exact on in-range arguments",
  "For 0 <= lo <= hi <= 2^32, add_range, remove_range, flip, flip_inplace, contains_range, range_cardinality and intersect_with_range act on exactly the half-open interval [lo,hi) (and the _closed variants on [lo,hi]).",
  "every valid bitmap and every pair of bounds up to 2^32",
  "All bound combinations across container boundaries and all existing contents.",
  [f"{R}: roaring_bitmap_add_range_closed, roaring_bitmap_remove_range_closed, roaring_bitmap_flip_closed, roaring_bitmap_flip_inplace_closed, roaring_bitmap_contains_range_closed, roaring_bitmap_range_cardinality_closed, roaring_bitmap_intersect_with_range", f"{H}: roaring_bitmap_add_range, roaring_bitmap_remove_range"])
p("C12","Range arguments beyond 2^32 denote the empty part of the universe",
  "For 64-bit bounds that exceed 2^32, range operations behave as on the intersection of [lo,hi) with the 32-bit universe.",
  "every valid bitmap and every pair of 64-bit bounds",
  "The guard is on 64-bit values, so almost the whole argument space lies outside what tests sample.",
  [f"{H}: roaring_bitmap_add_range, roaring_bitmap_remove_range", f"{R}: roaring_bitmap_flip, roaring_bitmap_contains_range, roaring_bitmap_range_cardinality, roaring_bitmap_intersect_with_range"])
p("C13","Extraction to an array is sorted and complete; pagination slices it",
  "roaring_bitmap_to_uint32_array writes exactly the members in increasing order; range_uint32_array(offset,limit) writes the slice [offset, offset+limit) of that sequence.",
  "every valid bitmap, offset and limit","All contents and slice positions, with partial containers at either end.",
  [f"{RA}: ra_to_uint32_array, ra_range_uint32_array", f"{CH}: container_to_uint32_array"])
p("C14","Iterators traverse exactly the members in order",
  "A fresh iterator followed by advance enumerates the members in increasing order and then stops; init_last with previous enumerates them in decreasing order; move_equalorlarger(v) positions at the least member >= v from any iterator state; read(n) returns the next min(n, remaining) members and leaves the iterator after them; any interleaving of these calls agrees with a cursor over the sorted member sequence.",
  "every valid bitmap and every sequence of iterator calls",
  "Quantifies over all call sequences and all states, including leaving and re-entering both ends.",
  [f"{R}: roaring_iterator_init, roaring_iterator_init_last, roaring_uint32_iterator_advance, roaring_uint32_iterator_previous, roaring_uint32_iterator_move_equalorlarger, roaring_uint32_iterator_read","src/containers/containers.c: container_init_iterator, container_iterator_next, container_iterator_prev, container_iterator_lower_bound, container_iterator_read_into_uint32"])
p("C15","Portable serialization round-trips",
  "For every valid bitmap r, portable_serialize writes exactly portable_size_in_bytes(r) bytes, and portable_deserialize_safe on any buffer starting with them (and declared at least that long) returns a bitmap with the same members that passes validation.",
  "every valid bitmap and every trailing data",
  "Unbounded inputs; header layout switches on the presence of runs and on the number of containers.",
  [f"{RA}: ra_portable_serialize, ra_portable_size_in_bytes, ra_portable_deserialize, ra_portable_header_size", f"{R}: roaring_bitmap_portable_serialize, roaring_bitmap_portable_deserialize_safe"])
p("C16","Safe deserialization never reads outside the buffer",
  "roaring_bitmap_portable_deserialize_safe(buf,n) and roaring_bitmap_deserialize_safe(buf,n) access only bytes of buf at positions below n, whatever the content.",
  "every byte string and every length",
  "The inputs are adversarial byte strings; fuzzing samples but cannot exhaust them.",
  [f"{RA}: ra_portable_deserialize", f"{R}: roaring_bitmap_portable_deserialize_safe, roaring_bitmap_deserialize_safe"])
p("C17","deserialize_size agrees with deserialization",
  "roaring_bitmap_portable_deserialize_size(buf,n) is non-zero exactly when portable_deserialize_safe(buf,n) succeeds; then it is the number of bytes the deserializer consumes and is at most n; it never reads past n.",
  "every byte string and every length","Relates two independently written parsers on all inputs.",
  [f"{RA}: ra_portable_deserialize_size, ra_portable_deserialize"])
p("C18","internal_validate is sound and complete for the semantic invariant",
  "roaring_bitmap_internal_validate accepts a deserialized bitmap exactly when it is well formed, and on every accepted bitmap all query properties hold.",
  "every bitmap structure obtainable from arbitrary bytes",
  "Soundness against adversarial inputs ranges over all byte strings.",
  [f"{R}: roaring_bitmap_internal_validate","src/containers/array.c: array_container_validate","src/containers/bitset.c: bitset_container_validate","src/containers/run.c: run_container_validate"])
p("C19","Native serialization round-trips",
  "roaring_bitmap_serialize writes exactly size_in_bytes(r) bytes, and roaring_bitmap_deserialize / deserialize_safe of them gives a bitmap with the same members.",
  "every valid bitmap","Two formats chosen by a size comparison over unbounded contents.",
  [f"{R}: roaring_bitmap_serialize, roaring_bitmap_size_in_bytes, roaring_bitmap_deserialize, roaring_bitmap_deserialize_safe"])
p("C20","Frozen serialization round-trips",
  "For every valid bitmap without shared containers, frozen_serialize writes frozen_size_in_bytes(r) bytes and frozen_view of that exact buffer (aligned) yields a view with the same members; frozen_view accepts a buffer only if every zone lies inside it.",
  "every valid bitmap and every byte string","Zone offsets are computed from attacker-controlled counts; layout depends on all containers.",
  [f"{R}: roaring_bitmap_frozen_serialize, roaring_bitmap_frozen_size_in_bytes, roaring_bitmap_frozen_view"])
p("C21","Re-encoding never changes the set and run_optimize never grows it",
  "run_optimize, remove_run_compression and shrink_to_fit keep the members; after remove_run_compression no run container remains; run_optimize does not increase portable_size_in_bytes of any container and returns true exactly when some container is run-encoded afterwards.",
  "every valid bitmap","All contents; the choice is made by counting runs with word tricks.",
  [f"{R}: roaring_bitmap_run_optimize, roaring_bitmap_remove_run_compression, roaring_bitmap_shrink_to_fit","src/containers/convert.c: convert_run_optimize, convert_run_to_efficient_container, convert_to_bitset_or_array_container"])
p("C22","Lazy aggregates followed by repair equal the fold of the eager operation",
  "or_many, or_many_heap and xor_many over any list of valid bitmaps return the union / symmetric difference of all of them and a bitmap that passes validation; any mixture of lazy_or, lazy_or_inplace (or lazy_xor, lazy_xor_inplace) followed by repair_after_lazy gives the same members as the eager operations.",
  "every finite list of valid bitmaps, both values of the conversion flag",
  "Intermediate states carry unknown cardinalities and oversize containers; correctness only holds of complete histories.",
  [f"{R}: roaring_bitmap_or_many, roaring_bitmap_xor_many, roaring_bitmap_lazy_or, roaring_bitmap_lazy_or_inplace, roaring_bitmap_lazy_xor, roaring_bitmap_lazy_xor_inplace, roaring_bitmap_repair_after_lazy","src/roaring_priority_queue.c: roaring_bitmap_or_many_heap", f"{CH}: container_lazy_or, container_lazy_ior, container_lazy_xor, container_lazy_ixor, container_repair_after_lazy"])
p("C23","add_offset shifts exactly",
  "roaring_bitmap_add_offset(r,d) contains y exactly when y-d is a member of r, for every y in the 32-bit universe; values shifted outside are dropped; the result passes validation.",
  "every valid bitmap and every signed 64-bit offset","All contents and offsets; containers split at arbitrary points and are re-merged.",
  [f"{R}: roaring_bitmap_add_offset, offset_append_with_merge", f"{CH}: container_add_offset","src/containers/array.c: array_container_offset","src/containers/bitset.c: bitset_container_offset","src/containers/run.c: run_container_offset"])
p("C24","Bulk insertion equals repeated insertion in any order",
  "add_many(r, vals), of_ptr and add_bulk with any context history produce the set r united with vals, independently of order and duplicates.",
  "every valid bitmap and every list of values","Cached container pointers make the result depend on history unless proven otherwise.",
  [f"{R}: roaring_bitmap_add_many, roaring_bitmap_add_bulk, roaring_bitmap_of_ptr, add_bulk_impl, containerptr_roaring_bitmap_add"])
p("C25","add_checked and remove_checked report change exactly",
  "roaring_bitmap_add_checked returns true exactly when the value was absent before, remove_checked exactly when it was present; both have the effect of add/remove.",
  "every valid bitmap and value","Inferred from cardinalities across container conversions; must hold for all states.",
  [f"{R}: roaring_bitmap_add_checked, roaring_bitmap_remove_checked"])
p("C26","from_range builds exactly the arithmetic progression",
  "roaring_bitmap_from_range(lo,hi,step) with step > 0 and lo < min(hi,2^32) terminates and returns exactly {lo + i*step | lo + i*step < min(hi,2^32)}; otherwise NULL.",
  "every 64-bit lo, hi and 32-bit step","Termination and exactness for all bounds and steps, including wrap-around of 32-bit arithmetic.",
  [f"{R}: roaring_bitmap_from_range","src/containers/convert.c: container_from_range"])
p("C27","flip is an involution and agrees with its in-place form",
  "flip(flip(r,lo,hi),lo,hi) has the same members as r; flip_inplace changes r to the same set flip returns; membership outside [lo,hi) is unchanged and inside it is negated.",
  "every valid bitmap and bounds up to 2^32","All contents and bounds across many containers.",
  [f"{R}: roaring_bitmap_flip_closed, roaring_bitmap_flip_inplace_closed","src/containers/mixed_negation.c"])
p("C28","Copy-on-write copies are independent and never freed early",
  "With copy-on-write enabled, after any sequence of copy/update/free operations on a family of bitmaps, every update changes the members of only its target, every live container is referenced exactly as often as its counter says, no container is accessed after being freed, and freeing all bitmaps releases everything.",
  "every finite history of operations over any number of bitmaps sharing containers",
  "Sharing patterns are unbounded graphs of aliases produced by histories.",
  ["src/containers/containers.c: get_copy_of_container, shared_container_extract_copy, shared_container_free", f"{RA}: ra_overwrite, ra_append_copy, ra_unshare_container_at_index", f"{R}: roaring_bitmap_copy, roaring_bitmap_remove_many"])
p("C29","remove_many equals repeated removal",
  "roaring_bitmap_remove_many(r, vals) leaves exactly the members of r not in vals and a bitmap that passes validation.",
  "every valid bitmap and every list of values","Cached position may be invalidated by container removal; all histories needed.",
  [f"{R}: roaring_bitmap_remove_many"])
p("C30","contains_bulk equals contains for any context history",
  "On an unmodified bitmap, any sequence of roaring_bitmap_contains_bulk calls sharing one context returns the same answers as roaring_bitmap_contains.",
  "every valid bitmap and every sequence of probes","The context is hidden state evolving over the entire call history.",
  [f"{R}: roaring_bitmap_contains_bulk"])
p("C31","Callback iteration visits a prefix of the sorted members",
  "roaring_iterate calls the callback on the members in increasing order, stops at the first false, and returns true exactly when every call returned true.",
  "every valid bitmap and every (stateful) callback","Arbitrary callback behaviour and contents.",
  [f"{R}: roaring_iterate, roaring_iterate64", f"{CH}: container_iterate"])
p("C32","Conversion to an uncompressed bitset is exact",
  "roaring_bitmap_to_bitset fills the bitset so that bit x is set exactly when x is a member.",
  "every valid bitmap","All contents; last container is written partially.",
  [f"{R}: roaring_bitmap_to_bitset"])
p("C33","Scalar kernels on sorted arrays are exact whatever the size ratio",
  "The intersection computed for two sorted arrays is the same set whichever of the two algorithms (merge or skewed search) the size ratio selects, and the returned cardinality/non-emptiness variants agree with it.",
  "every pair of sorted 16-bit arrays","Algorithm switches on size ratio; search strides make all lengths and alignments relevant.",
  ["src/array_util.c: intersect_skewed_uint16, intersect_uint16, intersect_skewed_uint16_cardinality, intersect_skewed_uint16_nonempty, union_uint16, difference_uint16, xor_uint16","src/containers/array.c: array_container_intersection"])
p("C34","Algebraic laws observable through equals",
  "For all valid bitmaps: and/or/xor are commutative and associative, or/and distribute, De Morgan holds with flip over the full universe, a xor b = (a or b) andnot (a and b), as decided by roaring_bitmap_equals on the results.",
  "every triple of valid bitmaps","Laws over all inputs.",
  [f"{R}: roaring_bitmap_and, roaring_bitmap_or, roaring_bitmap_xor, roaring_bitmap_andnot, roaring_bitmap_flip, roaring_bitmap_equals"])
p("C35","Statistics are consistent",
  "roaring_bitmap_statistics reports cardinality, minimum, maximum equal to the dedicated queries; container counts add up to n_containers and value counts to cardinality; byte counts plus the header equal portable_size_in_bytes.",
  "every valid bitmap","All contents.",
  [f"{R}: roaring_bitmap_statistics"])
p("C36","Equal sets need not serialize equally, but portable bytes determine the set",
  "If two valid bitmaps serialize to the same portable bytes they have the same members; bytes of one serialized bitmap are never a proper prefix of the bytes of another.",
  "every pair of valid bitmaps","Injectivity over all inputs.",
  [f"{RA}: ra_portable_serialize"])
p("C37","Frozen deserialization of the portable format agrees with the safe one",
  "On every buffer produced by portable_serialize, portable_deserialize_frozen gives a bitmap with the same members as portable_deserialize_safe.",
  "every valid bitmap","Uses the stored offsets instead of accumulating sizes; must agree for all layouts.",
  [f"{R}: roaring_bitmap_portable_deserialize_frozen"])
p("C38","Read-only operations do not modify the bitmap",
  "Queries (contains, rank, extraction, pagination, iteration, serialization) leave members and representation unchanged, also when containers are shared by copy-on-write.",
  "every valid bitmap, with or without shared containers","A frame condition over all states.",
  [f"{RA}: ra_range_uint32_array", f"{CH}: container_unwrap_shared"])

p("C39","run_optimize never makes the portable serialization larger",
  "For every valid bitmap, roaring_bitmap_portable_size_in_bytes after roaring_bitmap_run_optimize is at most its value before.",
  "every valid bitmap","The decision is local to each container while the header depends on the whole bitmap; the interaction only shows on particular container counts.",
  [f"{R}: roaring_bitmap_run_optimize", f"{RA}: ra_portable_size_in_bytes, ra_portable_header_size","src/containers/convert.c: convert_run_optimize"])
p("C40","Serialized bytes conform to the published interchange format",
  "The bytes written by roaring_bitmap_portable_serialize for a bitmap with member set P form a file of the published portable format for P: cookie, container count, run flags, key/cardinality table, offset table (when present) holding the position of each container, then the containers, each in its published encoding.",
  "every valid bitmap with a serialization below 4 GiB","Conformance is a statement about all contents and layouts, not agreement with the library's own reader.",
  [f"{RA}: ra_portable_serialize, ra_portable_header_size", f"{CH}: container_write"])
p("C41","Every conforming file is read correctly",
  "Every byte string below 4 GiB of the published portable format for a set P, whoever wrote it, is accepted by roaring_bitmap_portable_deserialize_safe and by roaring_bitmap_portable_deserialize_frozen, which produce a valid bitmap with member set P.",
  "every set, every conforming file for it (any admissible choice of container encodings), any trailing bytes","Files written by other implementations may choose encodings this library never writes.",
  [f"{RA}: ra_portable_deserialize", f"{R}: roaring_bitmap_portable_deserialize_frozen"])

p("C42","Uncompressed bitsets behave as sets of positions under any sequence of calls",
  "For any number of bitsets and any sequence of create, copy, set, set_to_value, clear, trim, in-place union/intersection/difference/symmetric difference and queries (get, count, empty, minimum, maximum, disjoint, intersect, contains_all, the four count functions, next_set_bit, next_set_bits), every answer is the one required of the mathematical sets, and the final contents are those sets; bitsets of different sizes can be mixed freely.",
  "every sequence of calls; positions below 2^64-64","Operands of different array sizes take different code paths (growing, zero-filling the tail); all size relations occur.",
  ["src/bitset.c: bitset_grow, bitset_resize, bitset_inplace_union, bitset_inplace_intersection, bitset_union_count, bitset_contains_all, bitset_trim","include/roaring/bitset/bitset.h: bitset_set, bitset_set_to_value, bitset_get, bitset_next_set_bit"])
p("C43","Enumerating an uncompressed bitset lists its members in order",
  "bitset_next_set_bits returns the next members from the given position in increasing order, as many as fit, and leaves the position at the last one; bitset_for_each calls the callback on all members in order until it returns false.",
  "every bitset, start, capacity and callback","All word boundaries and buffer sizes.",
  ["include/roaring/bitset/bitset.h: bitset_next_set_bits, bitset_for_each"])
p("C44","Shifting an uncompressed bitset translates its members",
  "bitset_shift_left moves every member up by the shift; bitset_shift_right moves every member down and drops those that would become negative.",
  "every bitset and shift","In-place word moves with carries; every combination of word and bit distance.",
  ["src/bitset.c: bitset_shift_left, bitset_shift_right"])

R64="src/roaring64.c"; ART="src/art/art.c"
p("C45","Histories of calls on 64-bit bitmaps behave as mathematical sets",
  "For any number of 64-bit bitmaps and any sequence of creation, copy, insertion, removal, range updates, flips, run compression, set operations in and out of place, and queries (membership, ranges, cardinalities, comparisons, rank, select, index, extremes, extraction), no call touches memory it should not, every answer is the one required of the mathematical sets, and the final contents are those sets.",
  "every sequence of calls with arguments in the documented domain; any number of bitmaps","State is spread over a radix tree, a table of containers and free lists; sequences of calls interact through all three.",
  [f"{R64}: roaring64_bitmap_add, roaring64_bitmap_remove, roaring64_bitmap_or_inplace, roaring64_bitmap_flip_closed_inplace, ...", f"{ART}: art_insert, art_erase, art_iterator_insert, art_iterator_erase"])
p("C46","Set operations and comparisons of 64-bit bitmaps are exact",
  "and, or, xor, andnot and their in-place forms give exactly the intersection, union, symmetric difference and difference; equals, is_subset, intersect and is_empty answer exactly.",
  "every pair of valid 64-bit bitmaps","The merge over two trees has many interleavings of block keys and container kinds.",
  [f"{R64}: roaring64_bitmap_and, roaring64_bitmap_or, roaring64_bitmap_xor, roaring64_bitmap_andnot, *_inplace, roaring64_bitmap_equals, roaring64_bitmap_is_subset"])
p("C47","Range updates and range queries of 64-bit bitmaps are exact up to 2^64-1",
  "add_range, remove_range, flip (half-open and closed, in and out of place), range_cardinality, range_closed_cardinality, intersect_with_range and from_range act on exactly the values of the interval (or progression), including intervals that end at 2^64-1.",
  "every valid bitmap, every pair of 64-bit bounds, every step","Carries between the 48-bit key and the 16-bit part, and wrap-around at the end of the universe.",
  [f"{R64}: roaring64_bitmap_add_range_closed, roaring64_bitmap_remove_range_closed, roaring64_bitmap_flip_closed, roaring64_bitmap_range_closed_cardinality, roaring64_bitmap_from_range"])
p("C48","Order statistics of 64-bit bitmaps are exact",
  "rank, get_index, select, minimum and maximum agree with the sorted list of members.",
  "every valid 64-bit bitmap and argument","Ranks accumulate across containers in 64-bit arithmetic.",
  [f"{R64}: roaring64_bitmap_rank, roaring64_bitmap_get_index, roaring64_bitmap_select, roaring64_bitmap_minimum, roaring64_bitmap_maximum"])
p("C49","contains_range on 64-bit bitmaps is exact",
  "roaring64_bitmap_contains_range(r, min, max) is true exactly when every value of [min, max) is a member.",
  "every valid 64-bit bitmap and pair of bounds","Depends on which blocks exist around the range.",
  [f"{R64}: roaring64_bitmap_contains_range"])
p("C50","64-bit iterators traverse exactly the members in order",
  "From either end, any sequence of advance, previous, move_equalorlarger and read shows at every step the value a cursor on the sorted list of members shows, and reads the values it passes.",
  "every valid 64-bit bitmap, every sequence of iterator calls","The iterator combines a tree path, a container position and a saturation flag.",
  [f"{R64}: roaring64_iterator_advance, roaring64_iterator_previous, roaring64_iterator_move_equalorlarger, roaring64_iterator_read"])
p("C51","Bulk operations through one context equal the single operations",
  "Any sequence of add_bulk, remove_bulk and contains_bulk calls sharing a context has the effect and the answers of the single calls; in particular remove_many removes exactly the listed values.",
  "every valid 64-bit bitmap, every sequence of values","The context caches a leaf that other calls of the sequence may delete.",
  [f"{R64}: roaring64_bitmap_add_bulk, roaring64_bitmap_remove_bulk, roaring64_bitmap_contains_bulk, roaring64_bitmap_remove_many"])
p("C52","Enumeration of 64-bit bitmaps is sorted and complete",
  "roaring64_bitmap_iterate calls the callback on the members in increasing order until it returns false; roaring64_bitmap_to_uint64_array writes exactly the sorted members.",
  "every valid 64-bit bitmap and callback; for extraction, every bitmap whose cardinality fits in 64 bits","All container kinds and tree shapes.",
  [f"{R64}: roaring64_bitmap_iterate, roaring64_bitmap_to_uint64_array"])
p("C53","The radix tree is an ordered map",
  "Under any sequence of insertions, overwrites, erasures, lookups, walks in both directions from the ends, lower-bound and upper-bound walks, and insertions and erasures through an iterator, the tree behaves as an ordered map from six-byte keys (compared as big-endian numbers) to values.",
  "every sequence of calls, every key and value","Nodes grow and shrink between four layouts, with prefix compression and reuse of freed slots.",
  [f"{ART}: art_insert, art_erase, art_find, art_lower_bound, art_upper_bound, art_iterator_next, art_iterator_prev, art_iterator_insert, art_iterator_erase"])
p("C54","Moving a 32-bit bitmap into a 64-bit bitmap preserves the members",
  "roaring64_bitmap_move_from_roaring32 gives a 64-bit bitmap with exactly the members of the 32-bit bitmap, which is left empty.",
  "every valid 32-bit bitmap","All container kinds and key sets.",
  [f"{R64}: roaring64_bitmap_move_from_roaring32, move_from_roaring32_offset"])
p("C55","Cardinality queries of 64-bit bitmaps are exact",
  "get_cardinality, and/or/xor/andnot_cardinality and the two parts of the Jaccard index are the cardinalities of the corresponding sets; is_strict_subset is exact.",
  "every pair of valid 64-bit bitmaps","Inclusion-exclusion in wrapping 64-bit arithmetic.",
  [f"{R64}: roaring64_bitmap_get_cardinality, roaring64_bitmap_or_cardinality, roaring64_bitmap_is_strict_subset, roaring64_bitmap_jaccard_index"])
p("C56","Serialized 64-bit bitmaps are read back unchanged",
  "roaring64_bitmap_portable_serialize writes exactly the number of bytes that portable_size_in_bytes announces and touches nothing after them; portable_deserialize_safe of those bytes, followed by anything, returns a valid bitmap with the same members and portable_deserialize_size returns their length; every proper prefix is rejected by both.",
  "every valid 64-bit bitmap, every buffer, every trailing data","Buckets are cut out of a tree walk and reassembled through 32-bit bitmaps.",
  [f"{R64}: roaring64_bitmap_portable_serialize, roaring64_bitmap_portable_size_in_bytes, roaring64_bitmap_portable_deserialize_safe, roaring64_bitmap_portable_deserialize_size"])
p("C57","The 64-bit interchange format is the published one",
  "The bytes written for a bitmap are an encoding of its member set in the published 64-bit format with no empty bucket, and every byte string that encodes a set in that format, including one with empty buckets, is accepted and gives that set.",
  "every valid 64-bit bitmap; every conforming byte string shorter than 2^32 bytes","Interoperability with other implementations depends on every byte.",
  [f"{R64}: roaring64_bitmap_portable_serialize, roaring64_bitmap_portable_deserialize_safe"])
p("C58","Reading untrusted bytes as a 64-bit bitmap is memory safe",
  "On any bytes, portable_deserialize_safe and portable_deserialize_size never depend on a byte beyond the announced length and never have undefined behaviour; what they accept is determined by the announced number of bytes alone.",
  "all byte strings, all lengths","The input is adversarial.",
  [f"{R64}: roaring64_bitmap_portable_deserialize_safe, roaring64_bitmap_portable_deserialize_size"])
p("C59","portable_deserialize_size agrees with portable_deserialize_safe",
  "portable_deserialize_size returns the number of bytes the bitmap occupies if portable_deserialize_safe accepts the input, and zero if there is no valid bitmap.",
  "all byte strings","The two functions check the input separately.",
  [f"{R64}: roaring64_bitmap_portable_deserialize_size, roaring64_bitmap_portable_deserialize_safe"])
p("C60","The self-check of 64-bit bitmaps is exact",
  "roaring64_bitmap_internal_validate is true on every valid bitmap, and on any bitmap obtained from untrusted bytes it terminates without undefined behaviour and is true exactly when the bitmap is valid.",
  "every valid 64-bit bitmap; every bitmap that portable_deserialize_safe accepts","The check guards every later call on untrusted data.",
  [f"{R64}: roaring64_bitmap_internal_validate", f"{ART}: art_internal_validate"])
p("C61","Statistics of 64-bit bitmaps describe the member set",
  "roaring64_bitmap_statistics reports the minimum, the maximum, the cardinality as a 64-bit number, and as many containers as there are blocks of 65536 values with members, split by kind with value and byte counts that are consistent with each other.",
  "every valid 64-bit bitmap","Sums over all containers.",
  [f"{R64}: roaring64_bitmap_statistics"])
M64="cpp/roaring64map.hh"
p("C62","Any history of calls on C++ 64-bit maps computes the right sets",
  "Starting from empty maps or from any maps that stand for sets, every sequence of Roaring64Map calls with documented arguments runs without undefined behaviour, every answer is the one the member sets prescribe, and afterwards every map stands for the set the sequence prescribes.",
  "all sequences of constructors, copies, swaps, adds, removes, range updates, flips, binary and in-place operations (also with itself), unions, conversions, serialization round trips and queries; any number of maps","The state space is all sequences over 64-bit values; buckets appear, empty and vanish.",
  [f"{M64}: class Roaring64Map"])
p("C63","Iterators of the C++ 64-bit map walk the members in order",
  "From begin() or end(), any sequence of ++i, i++, --i, i-- and move_equalorlarger that respects the usual preconditions shows exactly the members in increasing order, and move_equalorlarger answers whether there is a member at or above the target.",
  "every map, every legal sequence of iterator calls","Crossing buckets in either direction depends on every bucket in between.",
  [f"{M64}: class Roaring64MapSetBitBiDirectionalIterator"])
p("C64","Comparing iterators of the C++ 64-bit map orders positions",
  "For any two iterators of one map, ==, !=, <, <=, >, >= are defined and compare the positions, end() being last.",
  "every map, every pair of reachable iterators","The result depends on both positions and on end().",
  [f"{M64}: operator==, operator!=, operator<, operator<=, operator>, operator>= of the iterator"])
p("C65","Enumerating a C++ 64-bit map yields its members once, in order",
  "toUint64Array writes the members in increasing order; iterate calls the function on each member in increasing order and stops at the first call that returns false.",
  "every map, every callback","The order spans buckets; the callback is arbitrary.",
  [f"{M64}: toUint64Array, iterate"])
p("C66","Portable images of C++ 64-bit maps are read back unchanged",
  "write fills exactly getSizeInBytes() bytes and touches nothing after them; read and readSafe of those bytes, followed by anything, return a map with the same members; readSafe refuses every shorter limit.",
  "every map, every buffer, every trailing data","The image concatenates one image per bucket.",
  [f"{M64}: write, read, readSafe, getSizeInBytes"])
p("C67","C++ 64-bit maps use the published format and interoperate with the C 64-bit bitmaps",
  "The portable image encodes the member set in the published 64-bit format; every conforming byte string is accepted and gives that set; images written by the C functions are read by the C++ class and conversely, with the same members.",
  "every map and every C 64-bit bitmap; every conforming byte string","Two separate implementations of one format.",
  [f"{M64}: write, read, readSafe", f"{R64}: roaring64_bitmap_portable_serialize, roaring64_bitmap_portable_deserialize_safe"])
p("C68","readSafe of the C++ 64-bit map never reads beyond the announced length",
  "On any bytes, readSafe either throws or returns a map, without reading a byte beyond the announced length.",
  "all byte strings","The input is adversarial.",
  [f"{M64}: readSafe"])
p("C69","Native images of C++ 64-bit maps are read back unchanged",
  "write(buf, false) fills exactly getSizeInBytes(false) bytes, and read(buf, false) of those bytes, followed by anything, returns a map with the same members.",
  "every map","The reader recomputes the length of each part from what it has built.",
  [f"{M64}: write, read, getSizeInBytes with portable = false"])
p("C70","runOptimize and removeRunCompression of the C++ 64-bit map report what they did",
  "Both keep the members; runOptimize returns true exactly if the result has at least one run container; removeRunCompression returns true exactly if a change was applied.",
  "every map","The results of all buckets are combined.",
  [f"{M64}: runOptimize, removeRunCompression"])
p("C71","select and getIndex of the C++ 64-bit map answer for every member",
  "select(k) returns the member with exactly k smaller members whenever k is below the cardinality; getIndex(x) of a member returns the number of smaller members.",
  "every map, every rank, every value","Sums over all buckets; full buckets hold 2^32 values.",
  [f"{M64}: select, getIndex"])

AC="src/containers/array.c"
p("C72","Array operations give the set result under every CPU level and write only to their output",
  "Union, symmetric difference and difference of two array containers, with the vector instructions the CPU has or without, leave the sorted set result in the output container, whose block has the old place or a fresh one, and change no cell outside that block and their local buffers.",
  "all pairs of sorted arrays, every placement in memory, every CPU level, every content of fresh memory","The vector code stores blocks of eight lanes beyond what it keeps and reads its inputs ahead; which path runs depends on the machine.",
  [f"{AC}: array_container_union, array_container_xor, array_container_andnot","src/array_util.c: union_vector16, xor_vector16, difference_vector16, fast_union_uint16"])
p("C73","In-place array operations survive the overlap of input and output",
  "Union into the first operand (ordinary and lazy) and intersection in place give the set result although the output is written over an input that is still being read.",
  "all pairs of sorted arrays, every capacity, every CPU level","A value overwritten before it is read is lost only for particular interleavings of the two arrays.",
  ["src/containers/mixed_union.c: array_array_container_inplace_union, array_array_container_lazy_inplace_union",f"{AC}: array_container_intersection_inplace","src/array_util.c: intersect_vector16_inplace, intersect_skewed_uint16"])
p("C74","Converting a container to numbers writes exactly its members",
  "Writing the members of a bitset or array container as 32-bit numbers, or of a bitset container as an array container, fills exactly as many cells as there are members, in increasing order, and touches nothing else.",
  "all bitsets and arrays, every base, every CPU level","The vector versions write blocks of 8, 16 or 64 lanes at a time and depend on a bound to stay in the buffer.",
  ["src/containers/bitset.c: bitset_container_to_uint32_array",f"{AC}: array_container_to_uint32_array","src/containers/convert.c: array_container_from_bitset","src/bitset_util.c: bitset_extract_setbits_avx2, bitset_extract_setbits_avx512, bitset_extract_setbits_avx512_uint16, bitset_extract_setbits"])
p("C75","Extraction respects the stated capacity of the output",
  "Extracting the set bits into a buffer of a stated capacity writes the smallest members, as many as fit, and no cell beyond the capacity.",
  "all bitsets, all capacities","Only dense words near the end of the buffer make a difference.",
  ["src/bitset_util.c: bitset_extract_setbits_avx2, bitset_extract_setbits_avx512, bitset_extract_setbits_avx512_uint16, bitset_extract_setbits_sse_uint16"])
p("C76","Intersecting into an array container stays within its capacity",
  "The intersection of two array containers leaves the set result in the output container and writes only to its block, whatever its capacity.",
  "all pairs of sorted arrays, every capacity of the output, every CPU level","The eight-lane store overruns only for particular alignments of the matches.",
  [f"{AC}: array_container_intersection","src/array_util.c: intersect_vector16"])
p("C77","Bitset containers combine alike on every CPU",
  "The union, intersection, symmetric difference and difference of two 65536-bit blocks have every bit right and report the exact number of set bits, with the portable, the AVX2 and the AVX-512 code alike, also when the result overwrites an operand; the count-only versions report the same number, and nothing outside the destination changes.",
  "all contents of both blocks, the three CPU levels, destination equal to or apart from each operand; the population counts for any number of blocks",
  "The vector code accumulates carries over sixteen registers and splits the remainder; a wrong carry shows only for particular bit patterns, and a test run exercises the code of one CPU.",
  ["src/containers/bitset.c: CROARING_BITSET_CONTAINER_FN","src/containers/bitset.c: bitset_container_compute_cardinality","include/roaring/bitset_util.h: CROARING_AVXPOPCNTFNC, CROARING_AVXPOPCNTFNC512, avx2_harley_seal_popcount256, avx512_vpopcount"])
p("C78","Comparing containers is exact on every CPU",
  "Two bitset containers compare equal exactly when they have the same bits, whether or not their cardinalities are known; two blocks of bytes compare equal exactly when each byte is the same; no byte outside them is read.",
  "all contents, all lengths, the three CPU levels",
  "A difference in the last bytes, or in a lane a mask leaves out, is seen only with that length and position.",
  ["src/array_util.c: memequals","src/containers/bitset.c: bitset_container_equals"])
p("C79","Counting and listing the values of runs is right on every CPU",
  "The number of values of a run container is exact, and writing them as 32-bit numbers fills exactly that many cells in order and touches nothing else.",
  "all lists of disjoint increasing runs, every base, the three CPU levels",
  "The vector code handles blocks of 8 or 16 runs and the remainder apart, and wraps modulo 2^32.",
  ["src/containers/run.c: run_container_cardinality, run_container_to_uint32_array"])

p("C80","shrink_to_fit keeps a 64-bit bitmap's members and leaves no slack",
  "After roaring64_bitmap_shrink_to_fit the bitmap is valid and has the same members, none of its node arrays nor its container table has a free entry, and the bytes the node arrays and the container table give back are counted in the number returned.",
  "every valid 64-bit bitmap","Nodes and containers move in memory; every pattern of free slots would have to be tried.",
  [f"{R64}: roaring64_bitmap_shrink_to_fit, move_to_shrink",f"{ART}: art_shrink_to_fit, art_shrink_at, art_move_node_to_shrink, art_sort_free_lists"])
p("C81","The frozen format of 64-bit bitmaps round-trips, and a view answers every query",
  "After shrink_to_fit the frozen size is a positive multiple of 64, frozen_serialize writes exactly that many bytes, and frozen_view of those bytes (in an aligned buffer, any stated length at least that size, anything after them) gives a read-only bitmap that answers every query, iterator call, comparison, set operation, portable serialization, self-check and statistic like the original, in any history that does not change it. A bitmap with slack is refused with size 0 and nothing is written.",
  "every valid 64-bit bitmap using less than 2^52 bytes, every buffer, every history with views","The image mirrors the memory of the tree; offsets and alignment depend on all sizes.",
  [f"{R64}: roaring64_bitmap_frozen_size_in_bytes, roaring64_bitmap_frozen_serialize, roaring64_bitmap_frozen_view",f"{ART}: art_size_in_bytes, art_serialize, art_frozen_view"])
p("C82","Truncated frozen 64-bit data are rejected",
  "frozen_view of a frozen image cut short returns NULL and reads nothing beyond the stated length.",
  "every frozen image of a 64-bit bitmap and every shorter length","Every cut of every image.",
  [f"{R64}: roaring64_bitmap_frozen_view, roaring64_bitmap_free",f"{ART}: art_frozen_view"])
p("C83","A frozen view of a 64-bit bitmap can be frozen again",
  "The frozen size of a view is that of the image it was made from, and serializing it again writes an image of the same set.",
  "every frozen view of a non-empty 64-bit bitmap","Needs a statement about all images.",
  [f"{R64}: roaring64_bitmap_frozen_view, is_shrunken, roaring64_bitmap_frozen_size_in_bytes"])
p("C84","Set operations on run-encoded chunks stay inside their memory and give the set",
  "Union, symmetric difference, intersection and difference of two run-encoded chunks, and union and symmetric difference of an array chunk with a run-encoded one, never read or write outside a memory block, never read a cell that was not written, and leave the exact set in normal form in the destination, whatever the capacity and previous content of the destination.",
  "all non-empty operands (symmetric difference: all operands), every spare capacity of the operands, every destination block (union with an array: a destination without runs)",
  "Whether the reserved capacity suffices depends on the interleaving of the two inputs; sanitizers only see the inputs tried.",
  ["src/containers/run.c: run_container_union, run_container_xor, run_container_intersection, run_container_andnot, run_container_copy, run_container_grow","src/containers/mixed_union.c: array_run_container_union","src/containers/mixed_xor.c: array_run_container_lazy_xor"])
p("C85","Operations that overwrite a run-encoded chunk never destroy input they still need",
  "In-place union of two run-encoded chunks, in-place union with an array chunk, and in-place flip of a range write the block they read from; no run is overwritten before it is read, the block is never left, and the result is the exact set. The flip of a range that does not fit goes to a new block.",
  "all non-empty operands, every spare capacity, every range",
  "Overlap of the input and output pointers depends on all the runs before the current one.",
  ["src/containers/run.c: run_container_union_inplace","src/containers/mixed_union.c: array_run_container_inplace_union","src/containers/mixed_negation.c: run_container_negation_range_inplace, run_container_negation_range"])
p("C86","Editing and building run-encoded chunks fits their memory",
  "Adding and removing a value or a range in a run-encoded chunk answers whether the value was new or present, yields the exact set in normal form, and never leaves the block nor reads an unwritten cell. Run-encoding an array chunk or a bitset chunk fills the block made for it exactly.",
  "every run-encoded chunk with any spare capacity, every value and range; every non-empty array chunk and every bitset chunk",
  "Off-by-one moves at the block end depend on capacity, position and neighbours together.",
  ["src/containers/run.c: run_container_add","include/roaring/containers/run.h: run_container_remove, makeRoomAtIndex, recoverRoomAtIndex, run_container_add_range_nruns, run_container_remove_range, run_container_shift_tail, run_container_create_range","src/containers/convert.c: run_container_from_array, convert_run_optimize"])
HH="cpp/roaring.hh"
p("C87","C++ bitmap objects can be created, copied, moved, assigned, swapped and destroyed in any order",
  "In any program that constructs Roaring objects (empty, from a list, by copy, by move), assigns them (by copy, by move, from a list), swaps them, calls their methods and operators and destroys them, every live object holds the set it should, a moved-from object is empty and usable, no released memory is used, no two objects share memory, and when all objects are destroyed nothing is left allocated. Assigning an object to itself leaves it as it is.",
  "all programs over any number of objects without copy-on-write","Ownership errors show up only in particular sequences of copies, moves and destructions.",
  [f"{HH}: Roaring::Roaring, Roaring::operator=, Roaring::swap, Roaring::~Roaring",f"{R}: roaring_bitmap_overwrite",f"{RA}: ra_overwrite, ra_clear_containers"])
p("C88","C++ iterators are positions, and a for loop visits the members in order",
  "begin(), end(), ++, --, move_equalorlarger, dereferencing and the six comparisons behave like positions in the sorted list of members of the object the iterator came from, for any number of objects and iterators; for (auto x : r) visits exactly the members in order.",
  "all programs over any number of constant bitmaps and iterators","The end iterator is a static shared by all objects; interference needs several objects in a particular order of calls.",
  [f"{HH}: RoaringSetBitBiDirectionalIterator, Roaring::begin, Roaring::end"])
p("C89","Printing shows exactly the set",
  "roaring_bitmap_printf and toString() write an opening brace, the decimal numerals of the members in increasing order separated by commas, and a closing brace; two bitmaps print the same text exactly when they hold the same set, whatever their internal representation. The same holds for toString() of 64-bit maps.",
  "every valid bitmap and every valid 64-bit map","Separators depend on which chunk kinds are first, last or adjacent.",
  [f"{R}: roaring_bitmap_printf","src/containers/array.c, bitset.c, run.c: *_printf_as_uint32_array",f"{HH}: Roaring::toString",f"{M64}: Roaring64Map::toString, printToSink"])
p("C90","The table of chunks never leaves its memory",
  "The pointers, keys and kinds of the chunks of a bitmap live in one allocation that grows and shrinks. Whatever chunks are appended, inserted, removed, replaced or slid down, whatever ranges of chunks are created or dropped, and whenever the table is shrunk, every access stays inside the allocation, no unwritten entry is read, the table holds exactly the expected entries in order, a key is found exactly when it is there, and shrinking reports exactly the bytes given back.",
  "all programs of table edits over tables of up to 65536 entries, every initial capacity","Which moves overlap and when the allocation grows depends on the whole history of sizes.",
  [f"{RA}: realloc_array, extend_array, ra_init_with_capacity, ra_shrink_to_fit, ra_append, ra_insert_new_key_value_at, ra_remove_at_index, ra_downsize, ra_copy_range, ra_shift_tail","include/roaring/roaring_array.h: ra_get_index, ra_replace_key_and_container_at_index, ra_set_container_at_index",f"{R}: roaring_bitmap_add_range_closed, roaring_bitmap_remove_range_closed"])
p("C91","Moving, sharing and cloning chunks between two bitmaps keeps both tables whole",
  "Whatever runs of chunks are appended from one bitmap to another (moved, shared or cloned; by position, up to a key, or after a key), and whenever one bitmap is overwritten with another, every access stays inside the two allocations, the receiving table gets exactly the expected entries in order, and the other table keeps its entries (with the shared address and kind where they are now shared).",
  "all programs of edits of two tables of up to 65536 entries, every initial capacity","The room made once for a range is used by a loop that also rewrites the source; only long mixed sequences exercise it.",
  [f"{RA}: ra_append_copy, ra_append_copies_until, ra_append_copy_range, ra_append_copies_after, ra_append_move_range, ra_append_range, ra_overwrite"])
p("C92","Array containers never leave their memory",
  "The values of a sparse chunk live in one allocation that grows and shrinks. Whatever values and ranges are added, appended, removed or tested, whatever arrays are created, cloned, copied, read from a buffer, shifted, cut out of runs or bitsets, or combined in place or not with bitsets and runs, every access stays inside the allocation, no unwritten entry is read, the allocation shows exactly the expected values in order, the answers are right, and shrinking leaves exactly as many entries as there are values.",
  "all programs over any number of arrays of up to 65536 values, every capacity","Which moves overlap, when the allocation grows and how far the write position lags behind the read position depends on the whole history.",
  ["src/containers/array.c: array_container_create_given_capacity, array_container_create_range, array_container_clone, array_container_copy, array_container_grow, array_container_shrink_to_fit, array_container_add_from_range, array_container_offset, array_container_read","include/roaring/containers/array.h: array_container_append, array_container_try_add, array_container_remove, array_container_contains, array_container_add_range_nvals, array_container_remove_range","src/containers/mixed_intersection.c: array_bitset_container_intersection, array_run_container_intersection","src/containers/mixed_andnot.c: array_bitset_container_andnot, array_run_container_andnot, run_array_container_andnot","src/containers/convert.c: array_container_from_run, array_container_from_bitset"])
p("C93","shrink_to_fit keeps everything, leaves no slack and returns the bytes saved",
  "After roaring_bitmap_shrink_to_fit every chunk stores what it stored, chunks of other bitmaps are untouched, no chunk of the bitmap and no entry of its table has spare room, no access leaves an allocation, and the number returned is the number of bytes saved.",
  "every table of chunks reachable by edits, every heap of chunks, shared or not","Spare room depends on the whole history, and the memory given back is not visible to a test.",
  [f"{R}: roaring_bitmap_shrink_to_fit","include/roaring/containers/containers.h: container_shrink_to_fit","src/containers/array.c: array_container_shrink_to_fit","src/containers/run.c: run_container_shrink_to_fit",f"{RA}: ra_shrink_to_fit",f"{R64}: roaring64_bitmap_shrink_to_fit"])
p("C94","Containers are released exactly once, when the bitmap drops them",
  "Whatever sequence of creations, copies, updates by one value, many values or a range, flips and set operations (in place or with a new result, of two or of many bitmaps), shifts by an offset, overwrites, conversions, clears and frees a program performs on bitmaps that are not copy-on-write, no container is read, written or freed while it is not allocated, none is read as another kind than it is, every bitmap holds the set it should, and at every moment the containers allocated are exactly those the bitmaps refer to, each referred to once; after the last bitmap is freed none is left.",
  "every program, every set, every capacity of the run containers","Which buffer a container operation reuses, replaces or drops depends on the kinds and sizes of both operands and on spare capacity; a leak or a second free is invisible to a test that looks at the values.",
  [f"{R}: roaring_bitmap_and_inplace","src/roaring.c: roaring_bitmap_or_inplace","src/roaring.c: roaring_bitmap_xor_inplace","src/roaring.c: roaring_bitmap_andnot_inplace","src/roaring.c: roaring_bitmap_flip_inplace_closed","src/roaring.c: roaring_bitmap_remove_range_closed","src/roaring.c: roaring_bitmap_add_many","src/roaring.c: roaring_bitmap_remove_many","src/roaring.c: roaring_bitmap_flip_closed","src/roaring.c: roaring_bitmap_or_many","src/roaring.c: roaring_bitmap_xor_many","src/roaring_priority_queue.c: roaring_bitmap_or_many_heap","src/roaring.c: roaring_bitmap_add_offset","src/containers/bitset.c: bitset_container_offset","src/roaring_array.c: ra_overwrite","include/roaring/containers/containers.h: container_iand","include/roaring/containers/containers.h: container_ior","include/roaring/containers/containers.h: container_ixor","include/roaring/containers/containers.h: container_iandnot","src/containers/mixed_andnot.c","src/containers/mixed_xor.c","src/containers/convert.c: convert_run_to_efficient_container_and_free"])
p("C95","Results made from copy-on-write bitmaps are copy-on-write",
  "If every bitmap of a program has copy-on-write enabled, then after any call that copies, updates or combines bitmaps the result has it enabled too, so that the result can be mixed with the others (the header calls mixing bitmaps with and without copy-on-write unsafe); the same with copy-on-write disabled everywhere.",
  "every state of any number of bitmaps, every call on them","The flag is set call by call in the code; losing it shows only later, when a bitmap without the flag holds shared containers and is copied.",
  [f"{R}: roaring_bitmap_copy","src/roaring.c: roaring_bitmap_lazy_or","src/roaring.c: roaring_bitmap_or_many","src/roaring_priority_queue.c: lazy_or_from_lazy_inputs","src/roaring_priority_queue.c: roaring_bitmap_or_many_heap","src/containers/containers.c: container_clone","include/roaring/roaring.h: roaring_bitmap_set_copy_on_write"])
p("C96","Counting an intersection of arrays gives the same number on every CPU",
  "The size of the intersection of two array containers, computed without building it, is the number of common members, whether the vector code, the plain code or the code for arrays of very different sizes is chosen; nothing outside the memory of the two containers' blocks needs to exist for the reads.",
  "all pairs of sorted arrays of 16-bit values, anywhere in memory, every CPU level","The vector code compares blocks of eight and finishes with a scalar loop; which matches fall at a block border depends on both arrays and their sizes.",
  ["src/containers/array.c: array_container_intersection_cardinality","src/array_util.c: intersect_vector16_cardinality","src/array_util.c: intersect_uint16_cardinality","src/array_util.c: intersect_skewed_uint16_cardinality"])
out=os.path.join(os.path.dirname(os.path.abspath(__file__)),"..","properties.jsonl")
with open(out,"w") as f:
    for q in P: f.write(json.dumps(q)+"\n")
print(len(P))
