(** PropsSerial: the portable, native and frozen formats (C15-C20, C36, C37, C39-C41).
    Memory is a list of bytes; a read outside the list is the outcome [UB], so a
    statement about [a ++ b] with length [len a] says that nothing after [a] is read. *)
From Coq Require Import ZArith List Bool Lia Sorting.Sorted.
From Verif Require Import Base Convert Containers RArray RBinary RPoint RRange RQuery RStat RShift Bytes Serial SerialP Frozen FrozenP
  Spec FormatSpec Obs Hist Samples DerivedS FormatP.
Import ListNotations.
Local Open Scope Z_scope.
Local Opaque zr.

(** C15 *)
Theorem C15_portable_round_trip : forall r P, denotes r P -> exists out, bytes out /\ len out = roaring_bitmap_portable_size_in_bytes r /\
  (forall buf, len out <= len buf -> roaring_bitmap_portable_serialize r buf = Some (out ++ skipn (length out) buf, len out)) /\
  (forall post n, len out <= n -> exists r', roaring_bitmap_portable_deserialize_safe (out ++ post) n = Ok r' /\ denotes r' P) /\
  (forall post n, bytes post -> n < len out -> roaring_bitmap_portable_deserialize_safe (out ++ post) n = Fail) /\
  (forall post, exists r', roaring_bitmap_portable_deserialize (out ++ post) = Ok r' /\ denotes r' P).
Proof. exact s_portable. Qed.
Print Assumptions C15_portable_round_trip.
(** the bytes written for [sample]; what safe deserialization makes of [m] *)
Example C15_example :
  match roaring_bitmap_portable_serialize sample (repeat 7 (Z.to_nat 9000)) with
  | Some (m, n) => n = roaring_bitmap_portable_size_in_bytes sample /\ n = 8241 /\
      firstn 24 m = [59; 48; 3; 0; 4; 0; 0; 1; 0; 1; 0; 0; 0; 2; 0; 99; 0; 3; 0; 255; 127; 37; 0; 0] /\
      (match roaring_bitmap_portable_deserialize_safe m n with Ok r' => roaring_bitmap_equals r' sample && roaring_bitmap_internal_validate r' | _ => false end) = true /\
      roaring_bitmap_portable_deserialize_safe m (n - 1) = Fail
  | None => False
  end.
Proof. vm_compute. repeat split; reflexivity. Qed.

(** C16 *)
Theorem C16_portable_safe_in_bounds : forall a b, bytes a -> roaring_bitmap_portable_deserialize_safe (a ++ b) (len a) = roaring_bitmap_portable_deserialize_safe a (len a) /\
  roaring_bitmap_portable_deserialize_safe a (len a) <> UB /\ forall r, roaring_bitmap_portable_deserialize_safe a (len a) = Ok r -> typed r.
Proof. exact s_portable_safe. Qed.
Print Assumptions C16_portable_safe_in_bounds.
Theorem C16_native_safe_in_bounds : forall a b, bytes a -> roaring_bitmap_deserialize_safe (a ++ b) (len a) = roaring_bitmap_deserialize_safe a (len a) /\
  roaring_bitmap_deserialize_safe a (len a) <> UB /\ forall r, roaring_bitmap_deserialize_safe a (len a) = Ok r -> typed r.
Proof. exact s_native_safe. Qed.
Print Assumptions C16_native_safe_in_bounds.
(** the number of containers read is the one the header announces (bytes as in FormatSpec) *)
Theorem C16_accepted_header : forall a r, bytes a -> roaring_bitmap_portable_deserialize_safe a (len a) = Ok r ->
  (u32_at a 0 = 12346 /\ u32_at a 4 = len r) \/ (u16_at a 0 = 12347 /\ u16_at a 2 + 1 = len r).
Proof. exact s_header. Qed.
Print Assumptions C16_accepted_header.
Example C16_header_example :
  match roaring_bitmap_portable_deserialize_safe [58; 48; 0; 0; 1; 0; 0; 0; 7; 0; 1; 0; 16; 0; 0; 0; 5; 0; 9; 0] 20 with Ok r => len r = 1 | _ => False end /\
  roaring_bitmap_portable_deserialize_safe [58; 48; 0; 0; 0; 0; 0; 128] 8 = Fail.
Proof. vm_compute. split; reflexivity. Qed.
(** hostile inputs: a run cookie announcing 65536 containers, a native count wrapping 32 bits, an unknown tag *)
Example C16_example :
  bytes [59; 48; 255; 255; 255] /\
  roaring_bitmap_portable_deserialize_safe [59; 48; 255; 255; 255] 5 = Fail /\
  roaring_bitmap_deserialize_safe [1; 255; 255; 255; 255] 5 = Fail /\
  roaring_bitmap_deserialize_safe [3; 0] 2 = Fail /\
  roaring_bitmap_portable_deserialize_safe [] 0 = Fail.
Proof. split; [repeat constructor; lia|]. vm_compute. repeat split; reflexivity. Qed.

(** C17 *)
Theorem C17_deserialize_size : forall a b, bytes a -> exists s, roaring_bitmap_portable_deserialize_size (a ++ b) (len a) = Some s /\
  ((s = 0 /\ forall n, n <= len a -> roaring_bitmap_portable_deserialize_safe (a ++ b) n = Fail) \/
   (0 < s <= len a /\ exists r, typed r /\ forall n, n <= len a -> roaring_bitmap_portable_deserialize_safe (a ++ b) n = if n <? s then Fail else Ok r)).
Proof. exact s_size. Qed.
Print Assumptions C17_deserialize_size.
Example C17_example :
  match roaring_bitmap_portable_serialize sample (repeat 7 (Z.to_nat 9000)) with
  | Some (m, n) => roaring_bitmap_portable_deserialize_size m (n + 100) = Some n /\ roaring_bitmap_portable_deserialize_size m (n - 1) = Some 0
  | None => False
  end.
Proof. vm_compute. repeat split; reflexivity. Qed.

(** C18: [typed] is what any decoder guarantees (fields within the widths of their C types);
    [well_formed] spells out the documented invariants. *)
Theorem C18_validate_exact : forall r, typed r -> (roaring_bitmap_internal_validate r = true <-> well_formed r).
Proof. exact s_validate. Qed.
Print Assumptions C18_validate_exact.
Theorem C18_after_deserialization : forall a r, bytes a -> roaring_bitmap_portable_deserialize_safe a (len a) = Ok r \/ roaring_bitmap_deserialize_safe a (len a) = Ok r \/ roaring_bitmap_frozen_view true a (len a) = Ok r ->
  (roaring_bitmap_internal_validate r = true <-> well_formed r) /\
  (well_formed r -> denotes r (roaring_bitmap_contains r) /\ lists (roaring_bitmap_contains r) (roaring_bitmap_to_uint32_array r)).
Proof. exact s_validate_des. Qed.
Print Assumptions C18_after_deserialization.
Theorem C18_native_array_always_valid : forall a, bytes a -> nth 0 a 0 = 1 -> forall r, roaring_bitmap_deserialize_safe a (len a) = Ok r -> roaring_bitmap_internal_validate r = true.
Proof. exact s_native_array. Qed.
Print Assumptions C18_native_array_always_valid.
(** two containers with the same key, and an unsorted array: accepted by the decoder, rejected by validation *)
Example C18_example :
  let dup := [58; 48; 0; 0; 2; 0; 0; 0; 5; 0; 0; 0; 5; 0; 0; 0; 24; 0; 0; 0; 26; 0; 0; 0; 1; 0; 2; 0] in
  let unsorted := [58; 48; 0; 0; 1; 0; 0; 0; 5; 0; 1; 0; 16; 0; 0; 0; 9; 0; 2; 0] in
  let good := [58; 48; 0; 0; 1; 0; 0; 0; 5; 0; 1; 0; 16; 0; 0; 0; 2; 0; 9; 0] in
  map (fun b => match roaring_bitmap_portable_deserialize_safe b (len b) with Ok r => Some (roaring_bitmap_internal_validate r) | _ => None end) [dup; unsorted; good]
  = [Some false; Some false; Some true].
Proof. vm_compute. reflexivity. Qed.

(** C19 *)
Theorem C19_native_round_trip : forall r P, denotes r P -> exists out, bytes out /\ len out = roaring_bitmap_size_in_bytes r /\
  (forall buf, len out <= len buf -> roaring_bitmap_serialize r buf = Some (out ++ skipn (length out) buf, len out)) /\
  (forall post n, bytes post -> len out <= n <= len (out ++ post) -> exists r', roaring_bitmap_deserialize_safe (out ++ post) n = Ok r' /\ denotes r' P) /\
  (forall post, bytes post -> exists r', roaring_bitmap_deserialize (out ++ post) = Ok r' /\ denotes r' P).
Proof. exact s_native. Qed.
Print Assumptions C19_native_round_trip.
Theorem C19_unknown_tag : forall t rest n, 0 <= t < 256 -> t <> 1 -> t <> 2 ->
  roaring_bitmap_deserialize (t :: rest) = Fail /\ roaring_bitmap_deserialize_safe (t :: rest) n = Fail.
Proof. exact s_unknown_tag. Qed.
Print Assumptions C19_unknown_tag.
Example C19_unknown_tag_example : roaring_bitmap_deserialize [0; 1; 0; 0; 0; 0] = Fail /\ roaring_bitmap_deserialize [1; 1; 0; 0; 0; 9; 0; 0; 0] = Ok [(0, CArr [9])].
Proof. vm_compute. split; reflexivity. Qed.
(** the two encodings: an array of 32-bit values, or the portable format *)
Example C19_example :
  map (fun r => match roaring_bitmap_serialize r (repeat 0 (Z.to_nat 9000)) with
    | Some (m, n) => Some (nth 0 m 0, n, Z.eqb n (roaring_bitmap_size_in_bytes r),
        match roaring_bitmap_deserialize_safe m n with Ok r' => roaring_bitmap_equals r' r | _ => false end)
    | None => None end) [sample; roaring_bitmap_of_ptr [9; 70000; 4294967295]]
  = [Some (2, 8242, true, true); Some (1, 17, true, true)].
Proof. vm_compute. reflexivity. Qed.

(** C20: [unshared sh r] says that no container of [r] carries the SHARED flag *)
Theorem C20_frozen_round_trip : forall r P sh, denotes r P -> unshared sh r -> exists out, roaring_bitmap_frozen_size_in_bytes sh r = Some (len out) /\
  (forall buf, len out <= len buf -> roaring_bitmap_frozen_serialize sh r buf = Some (out ++ skipn (length out) buf)) /\
  (forall post, exists r', roaring_bitmap_frozen_view true (out ++ post) (len out) = Ok r' /\ denotes r' P).
Proof. exact s_frozen. Qed.
Print Assumptions C20_frozen_round_trip.
Theorem C20_frozen_view_in_bounds : forall aligned a b, bytes a -> roaring_bitmap_frozen_view aligned (a ++ b) (len a) = roaring_bitmap_frozen_view aligned a (len a) /\
  roaring_bitmap_frozen_view aligned a (len a) <> UB /\
  forall r, roaring_bitmap_frozen_view aligned a (len a) = Ok r -> aligned = true /\ typed r.
Proof. exact s_frozen_view. Qed.
Print Assumptions C20_frozen_view_in_bounds.
(** with a shared container the frozen functions run into unreachable code *)
Theorem C20_frozen_shared_undefined : forall r sh k, In k (rkeys r) -> sh k = true -> roaring_bitmap_frozen_size_in_bytes sh r = None /\ forall buf, roaring_bitmap_frozen_serialize sh r buf = None.
Proof. exact s_frozen_shared. Qed.
Print Assumptions C20_frozen_shared_undefined.
Example C20_hypotheses : denotes sample sampleP /\ unshared (fun _ => false) sample.
Proof. split; [exact sample_den|]. intros k _. reflexivity. Qed.
Example C20_example :
  match roaring_bitmap_frozen_size_in_bytes (fun _ => false) sample with
  | Some n => match roaring_bitmap_frozen_serialize (fun _ => false) sample (repeat 7 (Z.to_nat 9000)) with
    | Some m => n = 8226 /\
       (match roaring_bitmap_frozen_view true m n with Ok r' => roaring_bitmap_equals r' sample && roaring_bitmap_internal_validate r' | _ => false end) = true /\
       roaring_bitmap_frozen_view true m (n - 1) = Fail /\ roaring_bitmap_frozen_view false m n = Fail
    | None => False end
  | None => False
  end.
Proof. vm_compute. repeat split; reflexivity. Qed.

(** C36 *)
Theorem C36_prefix_free : forall r1 r2 P1 P2 buf1 buf2 m1 m2 n1 n2, denotes r1 P1 -> denotes r2 P2 ->
  roaring_bitmap_portable_size_in_bytes r1 <= len buf1 -> roaring_bitmap_portable_size_in_bytes r2 <= len buf2 ->
  roaring_bitmap_portable_serialize r1 buf1 = Some (m1, n1) -> roaring_bitmap_portable_serialize r2 buf2 = Some (m2, n2) ->
  n1 <= n2 -> firstn (Z.to_nat n1) m1 = firstn (Z.to_nat n1) m2 -> n1 = n2 /\ same_set P1 P2.
Proof. exact s_prefix_free. Qed.
Print Assumptions C36_prefix_free.
(** equal sets with different bytes *)
Example C36_example :
  let flat := fst (roaring_bitmap_remove_run_compression sample) in
  roaring_bitmap_equals flat sample = true /\ roaring_bitmap_portable_size_in_bytes flat = 8438 /\ roaring_bitmap_portable_size_in_bytes sample = 8241.
Proof. vm_compute. repeat split; reflexivity. Qed.

(** C37: proved when the serialization is below 4 GiB, false in general, because the stored offsets have 32 bits *)
Theorem C37_portable_frozen_partial : forall r P buf m n, denotes r P -> roaring_bitmap_portable_size_in_bytes r <= len buf -> roaring_bitmap_portable_size_in_bytes r < 2 ^ 32 ->
  roaring_bitmap_portable_serialize r buf = Some (m, n) -> exists r', roaring_bitmap_portable_deserialize_frozen m = Ok r' /\ denotes r' P.
Proof. exact s_portable_frozen. Qed.
Print Assumptions C37_portable_frozen_partial.
Theorem C37_portable_frozen_refuted : exists r P buf m n, denotes r P /\ roaring_bitmap_portable_size_in_bytes r <= len buf /\ roaring_bitmap_portable_serialize r buf = Some (m, n) /\
  ~ exists r', roaring_bitmap_portable_deserialize_frozen m = Ok r' /\ denotes r' P.
Proof. exact s_portable_frozen_refuted. Qed.
Print Assumptions C37_portable_frozen_refuted.
Example C37_example :
  map (fun r => match roaring_bitmap_portable_serialize r (repeat 7 (Z.to_nat 9000)) with
    | Some (m, n) => match roaring_bitmap_portable_deserialize_frozen m with Ok r' => roaring_bitmap_equals r' r | _ => false end
    | None => false end) [sample; other; roaring_bitmap_of_ptr [1; 2; 3]; roaring_bitmap_add_range (roaring_bitmap_of_ptr []) 7 9000]
  = [true; true; true; true].
Proof. vm_compute. reflexivity. Qed.

(** C39 *)
Theorem C39_run_optimize_portable_size_refuted : exists r P, denotes r P /\ roaring_bitmap_portable_size_in_bytes r < roaring_bitmap_portable_size_in_bytes (fst (roaring_bitmap_run_optimize r)).
Proof. exact s_run_optimize_grows. Qed.
Print Assumptions C39_run_optimize_portable_size_refuted.

(** C40 *)
Theorem C40_writes_published_format : forall r P buf m n, denotes r P -> roaring_bitmap_portable_size_in_bytes r <= len buf -> roaring_bitmap_portable_size_in_bytes r < 2 ^ 32 ->
  roaring_bitmap_portable_serialize r buf = Some (m, n) -> portable_format P (firstn (Z.to_nat n) m).
Proof. exact s_format. Qed.
Print Assumptions C40_writes_published_format.
Example C40_hypotheses : denotes sample sampleP /\ roaring_bitmap_portable_size_in_bytes sample <= len (repeat 7 (Z.to_nat 9000)) /\ roaring_bitmap_portable_size_in_bytes sample < 2 ^ 32.
Proof. split; [exact sample_den|]. vm_compute. split; congruence. Qed.

(** C41 *)
Theorem C41_reads_published_format : forall P out post n, portable_format P out -> len out < 2 ^ 32 -> len out <= n ->
  exists r, roaring_bitmap_portable_deserialize_safe (out ++ post) n = Ok r /\ roaring_bitmap_portable_deserialize_frozen (out ++ post) = Ok r /\ denotes r P.
Proof. exact s_foreign. Qed.
Print Assumptions C41_reads_published_format.
(** a file written by hand: {5*65536+2, 5*65536+9} *)
Example C41_example :
  let P := fun v => (v =? 327682) || (v =? 327689) in
  let out := [58; 48; 0; 0; 1; 0; 0; 0; 5; 0; 1; 0; 16; 0; 0; 0; 2; 0; 9; 0] in
  portable_format P out /\ roaring_bitmap_portable_deserialize_safe out 20 = Ok [(5, CArr [2; 9])].
Proof.
  cbv zeta. split; [|vm_compute; reflexivity].
  exists [Part 5 SortedList [2; 9] [2; 0; 9; 0]], [58; 48; 0; 0; 1; 0; 0; 0], [16].
  split; [repeat constructor|]. split; [constructor; [|constructor]|].
  - unfold part_ok. cbn [p_key p_kind p_members p_bytes]. split; [lia|]. split; [discriminate|]. split; [repeat constructor|]. split; [|split; [vm_compute; congruence|reflexivity]].
    intros x. cbn [In]. rewrite orb_true_iff, !Z.eqb_eq. lia.
  - split; [intros v Hv Pv|split; [reflexivity|split; [split; [reflexivity|]|reflexivity]]].
    + left. cbn. rewrite orb_true_iff, !Z.eqb_eq in Pv. destruct Pv; subst v; reflexivity.
    + intros [|i] Hi; [reflexivity|]. cbn in Hi. lia.
Qed.
