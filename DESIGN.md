# Formal model of CRoaring v4.3.1 in Rocq/Coq 8.16.1

## 1. Shape of the development

All files live in `rocq/theories`.  Logical layers, bottom-up:

| layer | files | what of /repo |
|---|---|---|
| base | `Base.v` | list, `Z` and bit lemmas, counting, sorted lists |
| kernels | `ArrayUtil.v`, `BitUtil.v` | scalar code of `src/array_util.c`, `array_util.h`; `bitset_util.c/.h` |
| vector kernels | `SimdTab.v` (tables, generated by `tools/gen_simdtab.py`), `Simd.v`, `SimdM.v` (instructions, memory), `SimdU.v`, `SimdX.v`, `SimdI.v`, `SimdD.v` | the SSE/AVX2 union, symmetric difference, intersection and difference of `array_util.c`, on memory cells |
| array containers in memory | `ArrMem.v`, `ArrMemC.v`, `SimdP.v` | scalar kernels and `array.c` operations with blocks, capacities and overlap, the count of an intersection; `mixed_union.c` in-place unions |
| one array container in memory | `ArrBlk.v`, `SpecArr.v` | edits of `array.h` / `array.c`, and the operations of `mixed_intersection.c`, `mixed_andnot.c`, `convert.c` that write an array: cells, capacity, unwritten cells, in-place operations |
| table of chunks in memory | `TabMem.v`, `TabTwo.v`, `SpecTab.v` | `roaring_array.c`, `roaring_array.h`, range loops of `roaring.c`: one block of bytes with three arrays, unwritten bytes, growth, memmove |
| shrinking | `ShrinkMem.v` | `roaring_bitmap_shrink_to_fit`, `container_shrink_to_fit`: the table in memory over a heap of containers with capacities |
| ownership | `SpecOwn.v`, `OwnC.v`, `OwnN.v`, `OwnL.v`, `OwnH.v` | containers that are not shared, as objects of a heap: the kernels (in place, with a new result, lazy) of `mixed_{andnot,xor,union,intersection,negation}.c`, `convert.c`, `containers.h` with every allocation and free, and programs of calls of `roaring.c` over them |
| run containers in memory | `RunMem.v`, `RunMemB.v`, `SpecRun.v`, `DerivedRun.v` | `run.c`, `run.h`, `mixed_union.c`, `mixed_xor.c`, `mixed_negation.c`, `convert.c`: blocks of cells with a capacity, unwritten cells, in-place operations |
| C++ objects | `SpecCpp.v`, `RCpp.v`, `RCppP.v` | class `Roaring` of `cpp/roaring.hh`: ownership of containers, assignments, iterators and the static of `end()` |
| text | `SpecText.v`, `Text.v` | `roaring_bitmap_printf` and the container printers, `Roaring::toString`, `Roaring64Map::toString` |
| bitset and run kernels | `SimdB.v`, `SimdR.v`, `SimdQ.v` | AVX2/AVX-512/portable `bitset.c` operations and counts with the Harley-Seal and vector popcounts of `bitset_util.h`; `memequals`; `bitset_container_equals`; run cardinality and conversion |
| conversions to numbers | `SimdE.v` | `bitset_extract_setbits*` (scalar, SSE, AVX2, AVX-512), `*_to_uint32_array`, `array_container_from_bitset` with their buffers |
| containers | `BitsetC.v`, `ArrayC.v`, `RunC.v`, `RunD.v`, `Convert.v` | `src/containers/{bitset,array,run,convert}.c` and headers |
| container pairs | `MixedI.v`, `MixedU.v`, `MixedA.v`, `MixedN.v` | `mixed_{intersection,union,xor,andnot,negation,equal,subset}.c` |
| dispatch | `Containers.v` | `containers.h`, `containers.c` |
| bitmap | `RArray.v`, `RBinary.v`, `RPoint.v`, `RRange.v`, `RQuery.v`, `RStat.v`, `RShift.v` | `roaring_array.c`, `roaring.c` at the value level |
| bytes | `Bytes.v`, `Serial.v`, `SerialP.v`, `Frozen.v`, `FrozenP.v` | portable, native and frozen formats; memory is a byte list, a read outside it is the outcome `UB` |
| iterators | `Iter.v`, `IterP.v` | container iterators (`containers.c`), `roaring_uint32_iterator_t`, `intersect_with_range` |
| aggregation | `Heap.v` | `src/roaring_priority_queue.c` (`or_many_heap`) |
| plain bitsets | `CBitset.v` | `src/bitset.c`, `bitset/bitset.h`, `roaring_bitmap_to_bitset` |
| sharing | `Cow.v`, `CowH.v`, `CowQ.v` | copy-on-write: shared blocks with counters (`containers.c`, `roaring_array.c`), and the calls of `roaring.c` as programs over slots that own or share their container |
| radix tree | `Art.v` (model), `ArtS.v`, `ArtN.v`, `ArtW.v`, `ArtT.v`, `ArtU.v`, `ArtI.v`, `ArtR.v`, `ArtL.v` (proofs), `ArtM.v` (ordered map) | `src/art/art.c`: references are (index, type) numbers into five pools with free lists; a dangling or mistyped reference is `None` |
| radix tree checks | `ArtV.v` | `art_internal_validate` and its per-node checks |
| 64-bit bytes | `R64S.v` (model and proofs), `R64V.v` | `roaring64_bitmap_portable_*`, `internal_validate`, `statistics`, `move_from_roaring32` |
| shrinking, frozen 64-bit images | `ArtH.v`, `R64H.v`; `ArtZ.v`, `R64Z.v` (models and proofs), `R64ZV.v` (views in histories), `Spec64Z.v`, `Derived64Z.v` | `art_shrink_to_fit`, `roaring64_bitmap_shrink_to_fit`; `art_serialize`, `art_frozen_view`, `roaring64_bitmap_frozen_*` |
| C++ 64-bit map | `Map64.v` (model), `Map64P/A/Q/C/I/S/T/U/N.v` (proofs), `HistMap.v` (histories) | `cpp/roaring64map.hh` over the model of the 32-bit calls: a `std::map` is a key-sorted association list, an iterator is (map position, 32-bit iterator); dereferencing past the end is `None` |
| 64-bit bitmaps | `R64.v` (model), `R64P.v` … `R64I.v` (proofs) | `src/roaring64.c`: a radix tree whose leaf values are (container index, typecode), a container table with a first-free hint; a released or mistyped slot is `None` |
| specification | `Spec.v`, `FormatSpec.v`, `SpecI.v`, `SpecB.v`, `Spec64.v`, `FormatSpec64.v`, `SpecArt.v`, `SpecMap.v` | sets of 32-bit and 64-bit integers, operation histories, cursors, ordered maps, the published portable format; no reference to the model |
| glue | `Obs.v`, `Hist.v`, `Derived.v`, `DerivedS.v`, `DerivedI.v`, `DerivedB.v`, `DerivedK.v`, `Hist64.v`, `Derived64.v`, `Derived64S.v`, `DerivedMap.v`, `FormatP.v`, `Samples.v` | "valid" and "denotes" through the API, histories, derivations, concrete samples |
| statements | `Props*.v` | only theorem statements closed by `exact`, examples, `Print Assumptions` |

Values are `Z` (C unsigned integers are `Z` with explicit `mod 2^k` where the C
code can wrap).  An array container is the list of its elements; a bitset
container is its stored cardinality (`-1` = unknown) together with the list of
its 1024 64-bit words; a run container is the list of its (value,length) pairs.
A bitmap is the list of its (key, container) pairs.  Lists abstract the C
arrays together with their length field; capacities are modelled only where
the code branches on them.

The abstraction function maps a container to its membership predicate and to
the strictly increasing list of its members; all statements are phrased with
the specification in `Spec.v`.

## 2. Trusted base

* the Coq kernel (8.16.1) and its standard library;
* for each theorem, what `Print Assumptions` lists under it in `Props*.v`
  ("Closed under the global context" everywhere: no axiom is used).  A whole-
  library check such as `coqchk -o` also lists the seven
  `Coq.ssr.ssrunder.Under_rel.*` parameters: they belong to the standard
  library's SSReflect support, which `Lia`/`ZArith` load, and no theorem here
  depends on them;
* the correspondence between the Gallina definitions and the C text.  Each
  definition carries a comment with file and lines, and says where it
  simplifies.

Modelled: every function of the files in the table of section 1, except the
ones listed here.  `tools/coverage.py` prints, file by file, the C functions
without a Gallina definition of the same name ("cited only": covered by another
definition whose comment cites its lines; "NOT": listed below, or a helper
whose effect is inlined in its caller's model).

Not modelled:

* allocation: failure of `malloc`, the growth policy of buffers (`*_grow`,
  `grow_capacity` other than those of array and run containers and of the table of chunks, `*_create_given_capacity`),
  `*_free`, `*_shrink_to_fit` of containers; the custom
  memory hooks (`memory.c`);
* SIMD and inline-assembly variants other than those of the files `Simd*.v`:
  `_asm_*`, NEON.  Hardware intrinsics are
  modelled by their documented meaning; alignment and endianness other than
  little are not modelled.  `__restrict__` on pointers that alias (in-place
  intersection) is ignored: the model runs the statements in program order;
* printing other than `roaring_bitmap_printf` and the two `toString`
  (`*_print`, `roaring_bitmap_printf_describe`, `get_full_container_name`);
* `uint32` kernels no other code uses (`intersection_uint32`,
  `intersection_uint32_card`, `union_uint32_card`);
* sharing between a frozen view of a 64-bit bitmap and its buffer: the view is
  the value the buffer has when it is made (a pointer outside it is `UB`);
* `cpp/roaring.hh`: the methods are taken as the 32-bit calls they wrap; not
  modelled are copy-on-write objects, `BulkContext`, `frozenView` and `SerializationException`s;
  `writeFrozen`/`getFrozenSizeInBytes` and `printf` of `cpp/roaring64map.hh`;
* lists abstract buffers: capacities matter only where the code branches on
  them.

## 3. Plan per property

* C01, C24, C25, C29 – model every container update; prove membership lemma
  and invariant for each; lift to bitmaps; induct over the operation list.
* C02 – invariant `wf` proved equivalent to the model of `internal_validate`
  (C18) and preserved by every operation; induction over expressions.
* C03, C04 – membership lemma for each of the pair functions per
  representation pair; merge loop over keys by induction.
* C05 – number of members = stored/calculated cardinality; inclusion–exclusion.
* C06, C07 – decision procedures proved `<->` set statement.
* C08, C09 – against `rank`/`nth` on the sorted member list; wrap-around
  of the 32-bit accumulator is in the model.
* C10 – head/last of member list.
* C11, C27 – interval membership lemmas.
* C12 – the 64-bit wrappers including the casts; expected to be refuted.
* C13 – equality of lists.
* C14 – refinement to a cursor over the member list; induction over calls.
* C15, C16, C17, C19, C20, C36, C37 – bytes as `list Z`, readers that return
  a distinct `OOB` outcome when indexing past the declared length.
* C18 – boolean model of validation against the `Prop` invariant.
* C21 – size functions and member lists.
* C22 – invariant for lazy containers, fold induction; heap order irrelevant
  to the result set (any polling order), so the pq is proved for its actual code.
* C23 – shifted membership.
* C26 – fuel-based loop with explicit non-termination statement; expected to be
  refuted for steps >= 2^16.
* C28, C38 – heap model with reference counts (`Cow.v`): a slot owns its
  container or refers to a shared block; reading a released block, releasing
  it again or reading a slot whose type was overwritten is a failed run
  (`None`).  Invariant: the counter of a block is the number of slots that
  refer to it.  Owned containers are values here (their allocation is C94);
  `or_many_heap` is added in `CowQ.v`, with any polling order;
  `remove_many` and `range_uint32_array` are refuted.
* C30, C31 – induction over probe list / callback as state transformer.
* C32, C42–C44 – words of the bitset; a machine of bitset registers refined to
  sets of positions; shifts as in-place folds.
* C33 – kernels.
* C34 – corollaries of C03, C06, C11.
* C35 – sums.
* C45–C52, C54, C55 – the bitmap is a radix tree plus a container table; the
  invariant `R64P.den` ties tree, pools and table together and gives the member
  set.  One lemma per call, then induction over histories (`Hist64.v`) and over
  iterator calls.  Cardinalities are stated modulo 2^64, exact unless all 2^64
  values are present.
* C80–C83 – shrinking: each move of a node keeps the invariant `arep`; frozen
  images: the image as an explicit byte list, the serializer writes it, the
  view reads it back; readers ignore first_free, so views run through the
  histories of C45.
* C53 – the tree as an ordered map: invariant `ArtR.arep` (the sorted list of
  entries), one lemma per call, induction over calls (`ArtM.v`).
* C56–C59 – the 64-bit writer and readers over byte lists with the outcome
  `UB`; round trip by induction over the leaves; `FormatSpec64.v` states the
  published layout independently.
* C60 – the boolean self-check against the `Prop` invariant in both directions.
* C61 – statistics as sums over the leaves.
* C62–C65 – a machine of maps (`HistMap.v`) refined to sets of 64-bit integers
  (`SpecMap.v`); invariant: keys increasing, every bucket a valid 32-bit bitmap.
* C66–C69 – portable and native images bucket by bucket; `readSafe` on arbitrary
  bytes.
* C72, C73, C76, C96 – a memory of 16-bit cells; reading or storing outside it is
  `None`; containers are (identity, pointer, cardinality, capacity); one
  invariant per vector loop, results equal to the scalar kernels of C33.
* C74, C75 – the same with 32-bit cells for the extraction loops; the decoding
  tables are checked row by row by computation.
* C77–C79 – memory of 64-bit words (bitsets), of bytes (`memequals`) and of
  32-bit cells (runs); a carry-save adder invariant for the Harley-Seal count,
  any number of registers.
* C84–C86 – a block is a list of cells, each a run or never written; reading an
  unwritten cell or leaving the block is `None`; each loop is shown to do on the
  block what the list model (`RunC.v`) does on lists, with an invariant for the
  room between the write and the read position.
* C87 – containers are blocks with one owner; invariant: every live pointer
  belongs to exactly one object and loads a bitmap that denotes its set.
* C88 – an iterator is related to a position by `ipos` of C16; iterators from
  `end()` are related by their exhausted state only.
* C89 – every printer equals one function on the sorted member list; numerals
  are injective by reading digits up to the next comma.
* C70, C71 – sums over buckets; refuted where the code accumulates wrongly.
* C90, C91 – the block is the concatenation of three lists of chunks of 8, 2 and 1
  bytes; every store and move acts on the list of rows (pointer, key, kind);
  the loops of the range calls by induction with the gap between source and
  destination as a parameter.
* C92 – `astores b l`: the first cells hold `l`; every store and move is an equation
  between lists of cells; in the loops the written prefix never passes the read
  position, so an in-place input keeps showing the rest of its values.
* C93 – loop over the rows of the table; each step replaces one object of the heap by
  its shrunk form, which is idempotent, so chunks shared by several rows are harmless.
* C94 – `post h F G h'`: from h to h' the containers F are used up, G come into being,
  everything else is as before; every kernel has such a contract, found by symbolic
  execution; the contracts compose over the entries of a bitmap; the sets are those of
  `CowH.v` without copy on write.
* C95 – `hstep` computes the flag of every bitmap; a case analysis shows that it is
  inherited.  `or_many_heap` (`CowQ.v`) is refuted by running four bitmaps through it.

## 4. Findings

Statements a user would expect and which are false of the model.  Each is a
theorem `…_refuted` in the `Props*.v` file, with a concrete witness, next to the
`…_partial` theorem that states what does hold; `MANIFEST.json` has the details.

| property | what fails |
|---|---|
| C08 | rank and get_index proved in full; select proved for every bitmap that is not the full universe, refuted for the full universe held in bitsets (the uint32 running rank wraps). |
| C09 | Exact up to the last query whose high half does not exceed the maximum's; queries after that are left unwritten (refuted). |
| C12 | False of the code: the guards accept 2^32 and the casts truncate; refutations given. Ranges starting above 2^32 proved to be without effect. |
| C26 | Proved for steps below 2^16, and for larger steps when the counter stays below 2^32; otherwise refuted (endless loop or wrong members). |
| C28 | Proved for all histories of every modelled call, or_many_heap with any polling order included (its result gets the flag from the caller, see C95), except remove_many (refuted: it releases a shared container twice); all bitmaps share the same copy-on-write flag. Leaks of unshared containers are the subject of C94. |
| C32 | Exact into a bitset without set bits; into any other bitset every member is set but old bits may stay (refuted: the target is not cleared). |
| C35 | Proved except that the uint32 value counters wrap on the full universe (refuted). |
| C37 | Proved for serializations below 4 GiB; refuted beyond (32-bit offsets wrap). |
| C38 | Proved for the queries of the machine (contains, contains_range, cardinalities, rank, index, select, minimum, maximum, comparisons, to_uint32_array, validate); refuted for range_uint32_array, which overwrites the types of shared slots. |
| C39 | False of the code: the run flags added to the header can outweigh the saved container bytes. |
| C44 | Proved when the bitset is non-empty (left) and the shift is below its size (right); outside that the code accesses memory outside the array (refuted). |
| C48 | All queries proved, select for every bitmap but the full universe; refuted there: the running sum wraps (roaring64.c:601-624) and the last 65536 indexes are reported as out of range. |
| C49 | Complete for all inputs, exact when no member lies in a block after the range, refuted in general: the loop stops with true at the first block beyond the range before checking for a gap (roaring64.c:541-545). |
| C50 | All sequences except advance/previous directly after a read that reached the end, where roaring64_iterator_read leaves the saturation flag unset; refuted there. |
| C51 | Exactly characterised: the legal sequences behave as single calls, all others are undefined. remove_many refuted for values absent from the bitmap (use of a freed container). |
| C55 | Every answer is the cardinality modulo 2^64, hence exact unless the set is the full universe; is_strict_subset exact unless an operand is the full universe, refuted there. The full universe needs 2^48 containers, so this is a limit of the interface rather than a practical defect. |
| C56 | Every bitmap that leaves at least one upper half without members; refuted for bitmaps with members under all 2^32 upper halves, whose bucket count the reader rejects (roaring64.c: buckets > UINT32_MAX). |
| C59 | Exact for accepted inputs; refuted for rejected ones: the order of the bucket keys is not checked by portable_deserialize_size. |
| C63 | Proved for every map reachable through the API (histories include portable reload); for arbitrary maps only without move_equalorlarger and i--, which are refuted on a map read from an image with an empty bucket (allowed by the published format): roaring64map.hh:1795-1810 and 1833-1848 do not skip empty buckets. shrinkToFit removes them and restores the full statement. |
| C64 | Order operators proved for all pairs; == and != proved unless the left operand is end() and the right one is not, where roaring64map.hh:1850-1860 dereferences the end() of a std::map (undefined behaviour, refuted). |
| C68 | Proved for images with at most one bucket and for images that do not contain the byte pair 59 48 (cookie of a part with runs); refuted in general: readSafe (roaring64map.hh:1213-1218) subtracts the size of the bitmap it built, not the bytes consumed, and the limit wraps around (23-byte example). |
| C69 | Proved unless some inner bitmap has run containers and a portable form of at least four bytes per value; refuted there: read (roaring64map.hh:1164-1184) advances by the size of the rebuilt bitmap, which differs from the bytes written. Calling removeRunCompression first always works. |
| C70 | Members kept, and the results characterised: they are true exactly if every inner bitmap has a run container (roaring64map.hh:987-1007 accumulate with &&). The documented meaning is refuted in all four directions. |
| C71 | Proved if no inner bitmap is full (select) and below 2^63 smaller members (getIndex); refuted on the flat full 32-bit bitmap (inherits C08/C09) and at 2^63 (int64_t result). |
| C75 | Proved for the AVX2 and AVX-512 extractions; refuted for bitset_extract_setbits_sse_uint16 (exported, not called by the library): it checks for 16 free cells per word but may write 64. |
| C76 | Proved unless the AVX2 path meets an output capacity between the size of the smaller operand and 7 more: array.c:286-324 grows only below that size, and intersect_vector16 stores eight lanes at a time. The library's own callers pass fresh containers. |
| C82 | Proved for cuts below 41 bytes plus two per container; refuted beyond: the failure path frees a view that is not set up, and the padding before the tree is not taken from the stated length. |
| C83 | Refuted for every non-empty bitmap: first_free of a view is 0, so its frozen size is 0. |
| C87 | Proved for every program without a copy assignment of a non-empty object to itself; refuted for those: `r = r` releases the containers and then copies them (roaring.hh:154-161, roaring_array.c:126-167). `r ^= r` and `r -= r` fail an assertion. |
| C88 | Proved as long as what end() returns is only compared or copied; refuted otherwise: end() returns one static object (roaring.hh:1024-1027) bound to the first object it was called on. |
| C93 | Everything proved except the count: containers report spare entries (2 or 4 bytes each) where the documentation promises bytes; refuted for {1, 2, 3}: 12 returned, 13 bytes saved. |
| C95 | Proved for every modelled call except roaring_bitmap_or_many_heap, which is refuted: the result of merging two intermediate results is a new bitmap whose flag nobody sets. |
