(** PropsR64Z: shrinking 64-bit bitmaps (C80) and their frozen format (C81-C83). *)
From Coq Require Import ZArith List Bool Lia.
From Verif Require Import Base Bytes Serial.
From Verif Require Import Spec SpecI Spec64 Spec64Z.
From Verif Require Import Art ArtH R64 R64S R64V R64H Hist64 ArtZ R64Z R64ZV Derived64 Derived64S Derived64Z.
Import ListNotations.
Local Open Scope Z_scope.
Local Opaque zr n48_pairs n256_pairs.

(** C80: the set is kept, nothing is left to cut, and the number returned is the number of bytes
    given back by the five node arrays and the table of containers *)
Theorem C80_shrink_to_fit : forall r P, denotes64 r P -> exists r1 n, roaring64_bitmap_shrink_to_fit r = Some (r1, n) /\ denotes64 r1 P /\ is_shrunken r1 = true /\
  n = fold_left (fun s t => s + (capacity (r_art r) t - capacity (r_art r1) t) * node_size t) [1; 2; 3; 4; 5] 0 + (zlen (r_cont r) - zlen (r_cont r1)) * 8.
Proof. exact z_shrink. Qed.
Print Assumptions C80_shrink_to_fit.
Example C80_hypotheses : denotes64 sample64 (zlist vs64).
Proof. exact sample64_den. Qed.
(** a bitmap with arrays, a bitset and runs, and free slots in the middle of its tables *)
Definition mixed_trace : list (cmd64 * (list Z -> Z)) := map (fun c => (c, fun _ => 0))
  [LOf 0 [7; 2^33; 2^33 + 9; 2^40; 2^41; 2^42]; LFromRange 1 (2^34) (2^34 + 20000) 3; LOrInplace 0 1; LAddRangeClosed 0 (2^50) (2^50 + 70000); LRemove 0 (2^40); LRunOptimize 0].
Definition mixed64 : r64 := match exec64 mixed_trace empty_heap64 with Some (st, _) => st 0%nat | None => roaring64_bitmap_create end.
Definition fitted (r : r64) : r64 := match roaring64_bitmap_shrink_to_fit r with Some (r1, _) => r1 | None => r end.
Example C80_example : (is_shrunken mixed64, match roaring64_bitmap_shrink_to_fit mixed64 with Some (r1, n) => (is_shrunken r1, roaring64_bitmap_equals mixed64 r1, zlen (r_cont mixed64), zlen (r_cont r1), 0 <? n) | None => (false, None, 0, 0, false) end) =
  (false, (true, Some true, 8, 7, true)).
Proof. vm_compute. reflexivity. Qed.

(** C81: [g] stands for the bytes of the nodes that no field occupies, [flags] for the byte of
    flags; the third argument of the view is the length the caller states.  Bitmaps of 4 PiB
    and more are left out. *)
Theorem C81_freeze_after_shrink : forall r P, denotes64 r P -> exists r1 n, roaring64_bitmap_shrink_to_fit r = Some (r1, n) /\ denotes64 r1 P /\ (memory64 r1 < 2^52 ->
  forall g flags, exists img, roaring64_bitmap_frozen_size_in_bytes r1 = Some (zlen img) /\ 0 < zlen img /\ zlen img mod 64 = 0 /\
  (forall buf, zlen img <= zlen buf -> roaring64_bitmap_frozen_serialize g flags r1 buf = Some (img ++ skipn (length img) buf, zlen img)) /\
  forall post mb, zlen img <= mb -> exists v, roaring64_bitmap_frozen_view true (img ++ post) mb = Ok v /\ readable v P).
Proof. exact z_shrink_freeze. Qed.
Print Assumptions C81_freeze_after_shrink.
(** any bitmap: with slack it is refused and nothing is written, else as above *)
Theorem C81_freeze_or_refuse : forall r P, denotes64 r P -> memory64 r < 2^52 ->
  (forall g flags, exists img, roaring64_bitmap_frozen_size_in_bytes r = Some (zlen img) /\ 0 < zlen img /\ zlen img mod 64 = 0 /\
    (forall buf, zlen img <= zlen buf -> roaring64_bitmap_frozen_serialize g flags r buf = Some (img ++ skipn (length img) buf, zlen img)) /\
    forall post mb, zlen img <= mb -> exists v, roaring64_bitmap_frozen_view true (img ++ post) mb = Ok v /\ readable v P) \/
  (forall g flags, roaring64_bitmap_frozen_size_in_bytes r = Some 0 /\ forall buf, roaring64_bitmap_frozen_serialize g flags r buf = Some (buf, 0)).
Proof. exact z_freeze_or_refuse. Qed.
Print Assumptions C81_freeze_or_refuse.
(** what [readable] is good for: any history in which the registers of [K] hold views and are
    not changed *)
Theorem C81_views_answer_like_sets : forall (K : nat -> bool) tr (st : heap64) (S : regs), (forall i, if K i then readable (st i) (S i) else denotes64 (st i) (S i)) -> legal64 (map fst tr) S ->
  (forall c d, In c (map fst tr) -> changed c = Some d -> K d = false) ->
  exists st1 outs, exec64 tr st = Some (st1, outs) /\
  (forall i, if K i then readable (st1 i) (spec_run64 (map fst tr) S i) else denotes64 (st1 i) (spec_run64 (map fst tr) S i)) /\ agrees64 (map fst tr) S outs.
Proof. exact histories_with_views. Qed.
Print Assumptions C81_views_answer_like_sets.
Theorem C81_views_iterate : forall v P l cs, readable v P -> lists64 P l ->
  (ilegal64 l 0 false cs -> exists j, roaring64_iterator_create v = Some j /\ shown j = seen64 l 0 /\ iter_run64 v j cs = Some (cursor_run64 l 0 cs)) /\
  (ilegal64 l (len_of l - 1) false cs -> exists j, roaring64_iterator_create_last v = Some j /\ shown j = seen64 l (len_of l - 1) /\ iter_run64 v j cs = Some (cursor_run64 l (len_of l - 1) cs)).
Proof. exact z_iterators. Qed.
Print Assumptions C81_views_iterate.
(** the portable bytes, self-check and statistics of a view are those of a bitmap with its set *)
Theorem C81_views_serialize : forall v P, readable v P -> exists r0, denotes64 r0 P /\ roaring64_bitmap_portable_size_in_bytes v = roaring64_bitmap_portable_size_in_bytes r0 /\
  (forall buf, roaring64_bitmap_portable_serialize v buf = roaring64_bitmap_portable_serialize r0 buf) /\
  roaring64_bitmap_internal_validate v = roaring64_bitmap_internal_validate r0 /\ roaring64_bitmap_statistics v = roaring64_bitmap_statistics r0.
Proof. exact z_others. Qed.
Print Assumptions C81_views_serialize.
Definition junk85 (_ _ _ : Z) : Z := 85.
Definition frozen_image (r : r64) : list Z := match roaring64_bitmap_frozen_size_in_bytes r with Some n => match roaring64_bitmap_frozen_serialize junk85 0 r (repeat 170 (Z.to_nat n)) with Some (m, _) => m | None => [] end | None => [] end.
Definition image_mixed : list Z := Eval vm_compute in frozen_image (fitted mixed64).
Definition view_of (buf : list Z) (n : Z) : r64 := match roaring64_bitmap_frozen_view true buf n with Ok v => v | _ => roaring64_bitmap_create end.
Example C81_hypotheses : denotes64 sample64 (zlist vs64) /\ memory64 (fitted sample64) < 2^52 /\ memory64 (fitted mixed64) < 2^52.
Proof. split; [exact sample64_den|]. split; vm_compute; reflexivity. Qed.
Example C81_example : (zlen image_mixed, zlen image_mixed mod 64, roaring64_bitmap_equals (view_of (image_mixed ++ [1; 2; 3]) 99999) mixed64, roaring64_bitmap_get_cardinality (view_of image_mixed (zlen image_mixed)), roaring64_bitmap_frozen_size_in_bytes mixed64) =
  (8704, 0, Some true, roaring64_bitmap_get_cardinality mixed64, Some 0).
Proof. vm_compute. reflexivity. Qed.
Definition view_trace : list (cmd64 * (list Z -> Z)) := map (fun c => (c, fun _ => 0)) [LOf 0 [3; 4]; LOr 1 0 5; LXorInplace 0 5; MToArray 5; MIntersect 5 1; MCardinality 0; LAndnotInplace 1 5; MToArray 1; MSubset 5 0; MMaximum 5].
Example C81_view_hypotheses : legal64 (map fst view_trace) (put (fun _ => zempty) 5%nat (zlist vs64)) /\ (forall c d, In c (map fst view_trace) -> changed c = Some d -> Nat.eqb d 5 = false) /\
  (forall i, if Nat.eqb i 5 then readable (put empty_heap64 5%nat small i) (put (fun _ => zempty) 5%nat (zlist vs64) i) else denotes64 (put empty_heap64 5%nat small i) (put (fun _ => zempty) 5%nat (zlist vs64) i)).
Proof.
  split; [|split].
  - cbn [view_trace map fst legal64 cmd64_ok spec_step64]. repeat match goal with |- _ /\ _ => split end; try exact Logic.I; try discriminate; try (exists 0; split; [unfold val64; lia|reflexivity]). intros v [<-|[<-|[]]]; unfold val64; lia.
  - intros c d I. cbn [view_trace map fst In] in I. repeat (destruct I as [<-|I]; [cbn; intros E; try discriminate; injection E as <-; reflexivity|]). destruct I.
  - intros i. unfold put. destruct (Nat.eqb i 5); [|exact (proj2 (den64_iff _ _) (empty_holds i))]. unfold readable. exact small_den.
Qed.
Example C81_view_example : match exec64 view_trace (put empty_heap64 5%nat (view_of (frozen_image small) 448)) with Some (_, outs) => outs | None => [] end =
  [RNone; RNone; RNone; RList vs64; RBool true; RNum 7; RNone; RList [4]; RBool false; RNum (2^64 - 1)].
Proof. vm_compute. reflexivity. Qed.

(** C82: missing from the first statement: lengths from 41 bytes and two per container on; the
    second statement refutes it there: in the tree (k1, nodes at NULL are read), in the contents
    of the containers (k2, pointers that were never set are freed) and in the last bytes of the
    contents (k3, bytes beyond the stated length are read) *)
Theorem C82_truncated_rejected_partial : forall g flags r P buf m n, denotes64 r P -> is_shrunken r = true -> memory64 r < 2^52 -> roaring64_bitmap_frozen_size_in_bytes r = Some n -> n <= zlen buf ->
  roaring64_bitmap_frozen_serialize g flags r buf = Some (m, n) -> forall k, 0 <= k < 41 + 2 * zlen (r_cont r) -> roaring64_bitmap_frozen_view true (firstn (Z.to_nat k) m) k = Fail.
Proof. exact z_truncated. Qed.
Print Assumptions C82_truncated_rejected_partial.
Theorem C82_truncated_rejected_refuted : exists g flags r P buf m n k1 k2 k3, denotes64 r P /\ roaring64_bitmap_frozen_size_in_bytes r = Some n /\ n <= zlen buf /\ roaring64_bitmap_frozen_serialize g flags r buf = Some (m, n) /\
  0 <= k1 < k2 /\ k2 < k3 < n /\ roaring64_bitmap_frozen_view true (firstn (Z.to_nat k1) m) k1 = UB /\ roaring64_bitmap_frozen_view true (firstn (Z.to_nat k2) m) k2 = UB /\ roaring64_bitmap_frozen_view true (firstn (Z.to_nat k3) m) k3 = UB.
Proof. exact z_truncated_refuted. Qed.
Print Assumptions C82_truncated_rejected_refuted.
Example C82_hypotheses : is_shrunken (fitted sample64) = true /\ memory64 (fitted sample64) < 2^52 /\ 41 + 2 * zlen (r_cont (fitted sample64)) < zlen (frozen_image (fitted sample64)).
Proof. vm_compute. auto. Qed.
Definition verdict (n : Z) : Z := match roaring64_bitmap_frozen_view true (firstn (Z.to_nat n) (frozen_image (fitted sample64))) n with UB => 2 | Fail => 1 | Ok _ => 0 end.
Example C82_example : map verdict [0; 8; 9; 20; 50; 51; 100; zlen (frozen_image (fitted sample64))] = [1; 1; 1; 1; 1; 2; 2; 0].
Proof. vm_compute. reflexivity. Qed.

(** C83: refuted for every bitmap with a member *)
Theorem C83_view_frozen_again_refuted : forall g flags r P buf m n, denotes64 r P -> is_shrunken r = true -> memory64 r < 2^52 -> (exists x, val64 x /\ P x = true) ->
  roaring64_bitmap_frozen_size_in_bytes r = Some n -> n <= zlen buf -> roaring64_bitmap_frozen_serialize g flags r buf = Some (m, n) ->
  exists v, roaring64_bitmap_frozen_view true m (zlen m) = Ok v /\ readable v P /\ roaring64_bitmap_frozen_size_in_bytes v = Some 0 /\ forall buf, roaring64_bitmap_frozen_serialize g flags v buf = Some (buf, 0).
Proof. exact z_again_refuted. Qed.
Print Assumptions C83_view_frozen_again_refuted.
Example C83_hypotheses : denotes64 small (zlist vs64) /\ is_shrunken small = true /\ memory64 small < 2^52 /\ (exists x, val64 x /\ zlist vs64 x = true) /\ roaring64_bitmap_frozen_size_in_bytes small = Some 448.
Proof. split; [exact small_den|]. split; [vm_compute; reflexivity|]. split; [vm_compute; reflexivity|]. split; [exists 3; split; [unfold val64; lia|reflexivity]|vm_compute; reflexivity]. Qed.
Example C83_example : (roaring64_bitmap_equals (view_of image_mixed (zlen image_mixed)) mixed64, roaring64_bitmap_frozen_size_in_bytes (view_of image_mixed (zlen image_mixed))) = (Some true, Some 0).
Proof. vm_compute. reflexivity. Qed.
