(** PropsR64S: serialization, self-check and statistics of the 64-bit bitmaps (C56-C61). *)
From Coq Require Import ZArith List Bool Lia Sorting.Sorted.
From Verif Require Import Base Bytes Serial.
From Verif Require Import Spec Spec64 FormatSpec FormatSpec64 Obs.
From Verif Require Import Art R64 R64S R64V Hist64 Derived64 Derived64S.
Import ListNotations.
Local Open Scope Z_scope.
Local Opaque zr n48_pairs n256_pairs.

(** C56: missing from the first statement: bitmaps with members under every one of the 2^32
    upper halves, for which the second statement refutes the property *)
Theorem C56_round_trip_partial : forall r P, denotes64 r P -> (exists h, 0 <= h < 2^32 /\ ~ inhabited_half P h) -> exists out, bytes out /\ roaring64_bitmap_portable_size_in_bytes r = Some (len out) /\
  (forall buf, len out <= len buf -> roaring64_bitmap_portable_serialize r buf = Some (out ++ skipn (length out) buf, len out)) /\
  (forall post n, bytes post -> len out <= n -> roaring64_bitmap_portable_deserialize_size (out ++ post) n = Some (len out) /\
     exists r', roaring64_bitmap_portable_deserialize_safe (out ++ post) n = Ok r' /\ denotes64 r' P) /\
  (forall post n, n < len out -> roaring64_bitmap_portable_deserialize_size (out ++ post) n = Some 0 /\ roaring64_bitmap_portable_deserialize_safe (out ++ post) n = Fail).
Proof. exact h_round_trip. Qed.
Print Assumptions C56_round_trip_partial.
Theorem C56_round_trip_refuted : exists r P out, denotes64 r P /\ roaring64_bitmap_portable_size_in_bytes r = Some (len out) /\
  (forall buf, len out <= len buf -> roaring64_bitmap_portable_serialize r buf = Some (out ++ skipn (length out) buf, len out)) /\
  forall post n, roaring64_bitmap_portable_deserialize_safe (out ++ post) n = Fail.
Proof. exact h_round_trip_refuted. Qed.
Print Assumptions C56_round_trip_refuted.
Example C56_hypotheses : denotes64 sample64 (zlist vs64) /\ exists h, 0 <= h < 2^32 /\ ~ inhabited_half (zlist vs64) h.
Proof.
  split; [exact sample64_den|]. exists 2. split; [lia|]. intros (v & V & E). unfold half in E. unfold zlist in E. apply existsb_exists in E as (x & I & E). apply Z.eqb_eq in E. unfold vs64, val32 in *. cbn [In] in I. lia.
Qed.
Definition image64 : list Z := match roaring64_bitmap_portable_serialize sample64 (repeat 0 200) with Some (m, n) => firstn (Z.to_nat n) m | None => [] end.
Example C56_example : (len image64, roaring64_bitmap_portable_size_in_bytes sample64, roaring64_bitmap_portable_deserialize_size (image64 ++ [9; 9]) 1000,
  match roaring64_bitmap_portable_deserialize_safe image64 (len image64) with Ok r => roaring64_bitmap_to_uint64_array r | _ => None end,
  match roaring64_bitmap_portable_deserialize_safe image64 (len image64 - 1) with Fail => true | _ => false end) =
  (len image64, Some (len image64), Some (len image64), Some vs64, true).
Proof. vm_compute. reflexivity. Qed.

(** C57: the 32-bit parts are compared with the published format only when the whole image is
    shorter than 2^32 bytes (offsets inside a part are 32-bit numbers) *)
Theorem C57_format_written_partial : forall r P buf m n, denotes64 r P -> roaring64_bitmap_portable_serialize r buf = Some (m, n) -> n <= len buf -> n < 2^32 ->
  roaring64_bitmap_portable_size_in_bytes r = Some n -> compact_format64 P (firstn (Z.to_nat n) m).
Proof. exact h_format. Qed.
Print Assumptions C57_format_written_partial.
Theorem C57_format_read_partial : forall P out post n, portable_format64 P out -> len out < 2^32 -> bytes post -> len out <= n ->
  roaring64_bitmap_portable_deserialize_size (out ++ post) n = Some (len out) /\
  exists r, roaring64_bitmap_portable_deserialize_safe (out ++ post) n = Ok r /\ denotes64 r P.
Proof. exact h_foreign. Qed.
Print Assumptions C57_format_read_partial.
Example C57_hypotheses : match roaring64_bitmap_portable_serialize sample64 (repeat 0 200) with Some (m, n) => n <= 200 /\ n < 2^32 /\ roaring64_bitmap_portable_size_in_bytes sample64 = Some n | None => False end.
Proof. vm_compute. repeat split; congruence. Qed.
Example C57_example : exists out, portable_format64 (zlist vs64) out /\ len out < 2^32.
Proof.
  destruct (roaring64_bitmap_portable_serialize sample64 (repeat 0 200)) as [[m n]|] eqn:E; [|vm_compute in E; discriminate].
  pose proof C57_hypotheses as H. rewrite E in H. destruct H as (A & B & C).
  assert (X : compact_format64 (zlist vs64) (firstn (Z.to_nat n) m)) by (apply (h_format sample64 (zlist vs64) (repeat 0 200) m n sample64_den E); auto).
  destruct X as (bs & X & Y & _). exists (firstn (Z.to_nat n) m). split; [exists bs; auto|]. rewrite firstn_length. lia.
Qed.

(** C58 *)
Theorem C58_arbitrary_bytes : forall a b, bytes a -> roaring64_bitmap_portable_deserialize_safe (a ++ b) (len a) = roaring64_bitmap_portable_deserialize_safe a (len a) /\
  roaring64_bitmap_portable_deserialize_safe a (len a) <> UB /\
  roaring64_bitmap_portable_deserialize_size (a ++ b) (len a) = roaring64_bitmap_portable_deserialize_size a (len a) /\
  exists s, roaring64_bitmap_portable_deserialize_size a (len a) = Some s /\ (s = 0 \/ 8 <= s <= len a) /\
    forall r, roaring64_bitmap_portable_deserialize_safe a (len a) = Ok r -> typed64 r /\ 8 <= s <= len a /\
      forall n, n <= len a -> roaring64_bitmap_portable_deserialize_safe a n = if n <? s then Fail else Ok r.
Proof. exact h_any. Qed.
Print Assumptions C58_arbitrary_bytes.
Example C58_hypotheses : bytes (image64 ++ [255; 0; 17]).
Proof. apply bytes_check; vm_compute; reflexivity. Qed.
(** a bucket count of 2^32 + 1, a truncated count, a bad inner cookie *)
Example C58_example : (roaring64_bitmap_portable_deserialize_safe [1; 0; 0; 0; 1; 0; 0; 0] 8, roaring64_bitmap_portable_deserialize_safe [1; 0; 0] 3, roaring64_bitmap_portable_deserialize_safe (le64 1 ++ le32 7 ++ le32 99) 16,
  roaring64_bitmap_portable_deserialize_size (le64 1 ++ le32 7 ++ le32 99) 16, roaring64_bitmap_portable_deserialize_size (le64 0) 8) = (Fail, Fail, Fail, Some 0, Some 8).
Proof. vm_compute. reflexivity. Qed.

(** C59: what holds is that every accepted input has exactly the reported size (C58), and that
    a zero size means rejection; the converse is refuted *)
Theorem C59_size_of_accepted_partial : forall a r, bytes a -> roaring64_bitmap_portable_deserialize_safe a (len a) = Ok r ->
  exists s, roaring64_bitmap_portable_deserialize_size a (len a) = Some s /\ 8 <= s <= len a /\ roaring64_bitmap_portable_deserialize_safe a s = Ok r.
Proof. exact h_size_accepted. Qed.
Print Assumptions C59_size_of_accepted_partial.
Theorem C59_size_of_rejected_refuted : exists a, bytes a /\ roaring64_bitmap_portable_deserialize_size a (len a) = Some 32 /\ roaring64_bitmap_portable_deserialize_safe a (len a) = Fail.
Proof. exact h_size_refuted. Qed.
Print Assumptions C59_size_of_rejected_refuted.
Example C59_hypotheses : bytes image64 /\ match roaring64_bitmap_portable_deserialize_safe image64 (len image64) with Ok _ => True | _ => False end.
Proof. split; [apply bytes_check; vm_compute; reflexivity|vm_compute; exact Logic.I]. Qed.

(** C60 *)
Theorem C60_validate_accepts_valid : forall r P, denotes64 r P -> roaring64_bitmap_internal_validate r = Some true.
Proof. exact h_validate_sound. Qed.
Print Assumptions C60_validate_accepts_valid.
Theorem C60_validate_decides_loaded : forall a r, bytes a -> roaring64_bitmap_portable_deserialize_safe a (len a) = Ok r ->
  exists b, roaring64_bitmap_internal_validate r = Some b /\ (b = true <-> exists P, denotes64 r P).
Proof. exact h_validate_loaded. Qed.
Print Assumptions C60_validate_decides_loaded.
Theorem C60_validate_decides_typed : forall r, typed64 r -> exists b, roaring64_bitmap_internal_validate r = Some b /\ (b = true <-> exists P, denotes64 r P).
Proof. exact h_validate. Qed.
Print Assumptions C60_validate_decides_typed.
(** an image whose array container is not sorted is loaded and then rejected by the self-check *)
Definition unsorted64 : list Z := le64 1 ++ le32 7 ++ le32 12346 ++ le32 1 ++ le16 3 ++ le16 1 ++ le32 16 ++ le16 9 ++ le16 4.
Example C60_hypotheses : bytes unsorted64 /\ match roaring64_bitmap_portable_deserialize_safe unsorted64 (len unsorted64) with Ok _ => True | _ => False end.
Proof. split; [apply bytes_check; vm_compute; reflexivity|vm_compute; exact Logic.I]. Qed.
Example C60_example : (roaring64_bitmap_internal_validate sample64, match roaring64_bitmap_portable_deserialize_safe unsorted64 (len unsorted64) with Ok r => roaring64_bitmap_internal_validate r | _ => None end) = (Some true, Some false).
Proof. vm_compute. reflexivity. Qed.

(** C61 *)
Theorem C61_statistics : forall r P, denotes64 r P -> exists s, roaring64_bitmap_statistics r = Some s /\
  roaring64_bitmap_minimum r = Some (s_min s) /\ roaring64_bitmap_maximum r = Some (s_max s) /\ card_word P (s_cardinality s) /\
  (exists ks, blocks_of P ks /\ s_containers s = len ks) /\
  s_containers s = s_array_containers s + s_run_containers s + s_bitset_containers s /\
  0 <= s_array_containers s /\ 0 <= s_run_containers s /\ 0 <= s_bitset_containers s /\
  s_array_containers s <= s_values_array s <= 4096 * s_array_containers s /\
  s_bytes_array s = 2 * s_values_array s /\ s_bytes_bitset s = 8192 * s_bitset_containers s /\
  (proper P -> s_values_array s + s_values_run s + s_values_bitset s = s_cardinality s /\
     4097 * s_bitset_containers s <= s_values_bitset s <= 65536 * s_bitset_containers s /\ s_run_containers s <= s_values_run s <= 65536 * s_run_containers s).
Proof. exact h_statistics. Qed.
Print Assumptions C61_statistics.
Example C61_hypotheses : denotes64 sample64 (zlist vs64) /\ proper (zlist vs64).
Proof. split; [exact sample64_den|exact sample64_proper]. Qed.
Example C61_example : match roaring64_bitmap_statistics sample64 with Some s => (s_containers s, s_array_containers s, s_values_array s, s_bytes_array s, s_min s, s_max s, s_cardinality s) | None => (0, 0, 0, 0, 0, 0, 0) end = (5, 5, 7, 14, 3, 2^64 - 1, 7).
Proof. vm_compute. reflexivity. Qed.
