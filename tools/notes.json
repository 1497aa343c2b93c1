{
 "C01": {
  "note": "Histories over any number of bitmaps; SHARED flags and spare capacities are arbitrary at every step."
 },
 "C02": {
  "note": "Histories of the modelled operations, including writing a bitmap in the portable or native format and reading it back with the bounded readers."
 },
 "C08": {
  "note": "rank and get_index proved in full; select proved for every bitmap that is not the full universe, refuted for the full universe held in bitsets (the uint32 running rank wraps)."
 },
 "C09": {
  "note": "Exact up to the last query whose high half does not exceed the maximum's; queries after that are left unwritten (refuted)."
 },
 "C11": {
  "note": "All bounds up to 2^32, including intersect_with_range."
 },
 "C12": {
  "note": "False of the code: the guards accept 2^32 and the casts truncate; refutations given. Ranges starting above 2^32 proved to be without effect."
 },
 "C13": {
  "note": "Slices proved; the behaviour of pages reaching past the end (zero padding, or nothing written) is stated too. Allocation failure not modelled."
 },
 "C21": {
  "note": "Members, flag, absence of runs and container bytes proved; shrink_to_fit only changes capacities, which are not part of the value model."
 },
 "C22": {
  "note": "or_many, or_many_heap, xor_many and all lazy programs, for every spare capacity and sharing pattern."
 },
 "C26": {
  "note": "Proved for steps below 2^16, and for larger steps when the counter stays below 2^32; otherwise refuted (endless loop or wrong members)."
 },
 "C35": {
  "note": "Proved except that the uint32 value counters wrap on the full universe (refuted)."
 },
 "C15": {
  "note": "Any destination buffer of sufficient size; trailing bytes and every shorter length covered."
 },
 "C16": {
  "note": "Bytes beyond the given length cannot influence the result and are never read; allocation failure is not modelled."
 },
 "C18": {
  "note": "Validation equals the documented invariants on every value a decoder can produce."
 },
 "C20": {
  "note": "For bitmaps without shared containers; with a shared container the code reaches an unreachable marker (proved). Alignment of the buffer is a parameter of the view."
 },
 "C37": {
  "note": "Proved for serializations below 4 GiB; refuted beyond (32-bit offsets wrap)."
 },
 "C39": {
  "note": "False of the code: the run flags added to the header can outweigh the saved container bytes."
 },
 "C14": {
  "note": "All command sequences on an unmodified bitmap; several iterators and copies do not interact because an iterator only reads the bitmap."
 },
 "C32": {
  "note": "Exact into a bitset without set bits; into any other bitset every member is set but old bits may stay (refuted: the target is not cleared)."
 },
 "C42": {
  "note": "Allocation success assumed; the two-operand updates on distinct bitsets (their arguments are restrict-qualified)."
 },
 "C43": {
  "note": ""
 },
 "C44": {
  "note": "Proved when the bitset is non-empty (left) and the shift is below its size (right); outside that the code accesses memory outside the array (refuted)."
 },
 "C28": {
  "note": "Proved for all histories of every modelled call, or_many_heap with any polling order included (its result gets the flag from the caller, see C95), except remove_many (refuted: it releases a shared container twice); all bitmaps share the same copy-on-write flag. Leaks of unshared containers are the subject of C94."
 },
 "C38": {
  "note": "Proved for the queries of the machine (contains, contains_range, cardinalities, rank, index, select, minimum, maximum, comparisons, to_uint32_array, validate); refuted for range_uint32_array, which overwrites the types of shared slots."
 },
 "C45": {
  "note": "Arguments outside the documented or safe domain are excluded by cmd64_ok: contains_range when members lie in later blocks (C49), remove_many of absent or repeated values (C51), xor/andnot in place of a bitmap with itself, select/strict_subset/to_array on the full universe of 2^64 values (C48, C55)."
 },
 "C48": {
  "note": "rank (as a 64-bit number), get_index, minimum and maximum in full; select for every bitmap that is not the full universe of 2^64 values; refuted for the full universe: the running 64-bit sum wraps, and the last 65536 indexes are reported as out of range."
 },
 "C49": {
  "note": "Complete for all inputs, exact when no member lies in a block after the range, refuted in general: the loop stops with true at the first block beyond the range before checking for a gap (roaring64.c:541-545)."
 },
 "C50": {
  "note": "All sequences except advance/previous directly after a read that reached the end, where roaring64_iterator_read leaves the saturation flag unset; refuted there."
 },
 "C51": {
  "note": "Exactly characterised: the legal sequences behave as single calls, all others are undefined. remove_many refuted for values absent from the bitmap (use of a freed container)."
 },
 "C55": {
  "note": "Every answer is the cardinality modulo 2^64, hence exact unless the set is the full universe; is_strict_subset exact unless an operand is the full universe, refuted there. The full universe needs 2^48 containers, so this is a limit of the interface rather than a practical defect."
 },
 "C56": {
  "note": "Every bitmap that leaves at least one upper half without members; refuted for bitmaps with members under all 2^32 upper halves, whose bucket count the reader rejects (roaring64.c: buckets > UINT32_MAX)."
 },
 "C57": {
  "note": "Images shorter than 2^32 bytes (the offset header of a 32-bit part cannot describe more)."
 },
 "C59": {
  "note": "Exact for accepted inputs; refuted for rejected ones: the order of the bucket keys is not checked by portable_deserialize_size."
 },
 "C63": {
  "note": "Proved for every map reachable through the API (histories include portable reload); for arbitrary maps only without move_equalorlarger and i--, which are refuted on a map read from an image with an empty bucket (allowed by the published format): roaring64map.hh:1795-1810 and 1833-1848 do not skip empty buckets. shrinkToFit removes them and restores the full statement."
 },
 "C64": {
  "note": "Order operators proved for all pairs; == and != proved unless the left operand is end() and the right one is not, where roaring64map.hh:1850-1860 dereferences the end() of a std::map (undefined behaviour, refuted)."
 },
 "C67": {
  "note": "Images shorter than 2^32 bytes (the offset header of a 32-bit part cannot describe more)."
 },
 "C68": {
  "note": "Proved for images with at most one bucket and for images that do not contain the byte pair 59 48 (cookie of a part with runs); refuted in general: readSafe (roaring64map.hh:1213-1218) subtracts the size of the bitmap it built, not the bytes consumed, and the limit wraps around (23-byte example)."
 },
 "C69": {
  "note": "Proved unless some inner bitmap has run containers and a portable form of at least four bytes per value; refuted there: read (roaring64map.hh:1164-1184) advances by the size of the rebuilt bitmap, which differs from the bytes written. Calling removeRunCompression first always works."
 },
 "C70": {
  "note": "Members kept, and the results characterised: they are true exactly if every inner bitmap has a run container (roaring64map.hh:987-1007 accumulate with &&). The documented meaning is refuted in all four directions."
 },
 "C71": {
  "note": "Proved if no inner bitmap is full (select) and below 2^63 smaller members (getIndex); refuted on the flat full 32-bit bitmap (inherits C08/C09) and at 2^63 (int64_t result)."
 },
 "C72": {
  "note": "The vector paths of array_util.c are modelled on memory cells (Simd*.v, ArrMem*.v)."
 },
 "C73": {
  "note": "In-place difference (out = first operand) is C72_andnot."
 },
 "C75": {
  "note": "Proved for the AVX2 and AVX-512 versions. Refuted for bitset_extract_setbits_sse_uint16 (bitset_util.c:785-836; exported, not called by the library): it checks for 16 free cells per word but may write 64; correct with 48 spare cells."
 },
 "C76": {
  "note": "Proved unless the AVX2 path is used with an output capacity between the size of the smaller operand and 7 more (array.c:286-324 grows to min_card + 8 only if the capacity is below min_card); refuted there. The callers in the library pass fresh containers, for which the proof applies."
 },
 "C77": {
  "note": "Memory of 64-bit words; intrinsics by their documented lane effect (SimdB.v). The inline-assembly variants are not modelled."
 },
 "C78": {
  "note": "memequals on memory of bytes, bitset_container_equals on 64-bit words (SimdR.v)."
 },
 "C79": {
  "note": "The runs are read as 32-bit cells (value + 65536 * length); runs may be adjacent but not overlap."
 },
 "C80": {
  "note": "Nodes keep their contents and move; realloc to a smaller size is the only allocation. Model: ArtH.v, R64H.v. Containers are values here, so their own spare room is outside this model: what the call returns for it is C93."
 },
 "C81": {
  "note": "Less than 2^52 bytes in use. The view is taken when it is made: later changes of the buffer are outside the model. A view is read-only: the history theorem allows every call that does not change it. Bytes of nodes not covered by a field are arbitrary."
 },
 "C82": {
  "note": "Proved for cuts below 41 bytes plus two per container. Refuted beyond: the failure path of frozen_view calls roaring64_bitmap_free on a view whose tree or container table is not set up, and the padding before the tree is not subtracted from maxbytes, so up to 7 bytes beyond the stated length are read."
 },
 "C83": {
  "note": "Refuted for every non-empty bitmap: first_free of a view is 0, so it does not count as shrunken and the size is 0."
 },
 "C84": {
  "note": "Operands and destination are distinct blocks, as the code requires; union, intersection and andnot read the first run of each operand unconditionally, hence the non-emptiness; the union with an array does not reset the run count of the destination."
 },
 "C85": {
  "note": "Array operands are separate memory that is only read. The fit test of the in-place flip reads the container through the list model of run_container_contains, which only looks at the first n_runs cells."
 },
 "C86": {
  "note": "The scan of a bitset reads the 1024 words as a list. A negative index or one beyond the block is the outcome None, as is reading an unwritten cell."
 },
 "C87": {
  "note": "Proved for every program in which no non-empty object is copy-assigned to itself. Refuted for those: r = r releases the containers of r and then copies them. r ^= r and r -= r fail an assertion of the C functions. Copy-on-write is off; a method that edits containers in place is modelled as releasing and allocating."
 },
 "C88": {
  "note": "Proved for programs that only compare or copy what end() returns. Refuted otherwise: end() returns a reference to one function-local static that belongs to the first object, so --r.end() gives a value of that object, or reads it after its destruction, or moves the end of all objects."
 },
 "C89": {
  "note": "The digits written by printf and std::to_string are modelled by their documented meaning. printf() of 64-bit maps prints through the same printToSink."
 },
 "C90": {
  "note": "Allocation succeeds; byte-level model with unwritten bytes (TabMem.v). Chunks are addresses; the functions that edit chunks inside the range loops are arbitrary parameters."
 },
 "C91": {
  "note": "The two tables are distinct; get_copy_of_container and container_clone are arbitrary parameters, a clone is not NULL (TabTwo.v)."
 },
 "C92": {
  "note": "Allocation succeeds. The cells of an array are modelled with a mark for cells never written (ArrBlk.v); bitset and run operands are only read and taken as in BitsetC.v and RunC.v; in the conversions from them the written values are those of Convert.v and MixedA.v, and the stores are modelled. No runs at all as second operand is excluded (no run container is empty). Scalar branch of array_container_from_bitset. Operations on two arrays: C72."
 },
 "C93": {
  "note": "Proved except for the number returned: array_container_shrink_to_fit and run_container_shrink_to_fit return spare entries (of 2 and 4 bytes), so the sum is less than the bytes saved as soon as one chunk has spare room. Refuted for a bitmap to which 1, 2, 3 were added (12 returned, 13 saved). roaring64_bitmap_shrink_to_fit and the C++ shrinkToFit functions add up the same numbers. Model: ShrinkMem.v on top of TabMem.v, ArrBlk.v, RunMem.v; allocation succeeds; sizes of the structs themselves, which do not change, are not counted."
 },
 "C94": {
  "note": "Containers live in a heap of addresses; every kernel, in place or not, allocates and frees where the C function does, an access to an address that is not allocated or of another kind has no result. Model: OwnC.v, OwnN.v, OwnL.v (containers), OwnH.v (bitmaps, programs; add_many and remove_many with the container they remember), specification SpecOwn.v. A container and its buffer are one object, addresses are not reused, allocation succeeds. The two operands of an in-place set operation and of overwrite are different bitmaps; those of an operation with a new result may be the same. or_many, or_many_heap and xor_many, through the lazy operations, take any number of bitmaps; the queue of or_many_heap gives its elements out in any order, which covers the order of the code (Heap.v). The lazy calls on their own are not in this machine; shared containers are C28."
 },
 "C95": {
  "note": "Proved for every modelled call except roaring_bitmap_or_many_heap, which is refuted: the result of merging two intermediate results is a new bitmap whose flag nobody sets."
 },
 "C96": {
  "note": "Every read is checked: those of the vector and the plain version against the memory, those of the galloping version against the arrays (SimdI.v, SimdP.v). roaring_bitmap_and_cardinality uses the list model (C05)."
 }
}