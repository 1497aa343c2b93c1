(** PropsMap64: the C++ 64-bit map of bitmaps, Roaring64Map (C62-C71). *)
From Coq Require Import ZArith List Bool Lia Sorting.Sorted.
From Verif Require Import Base Containers RBinary RQuery Bytes Serial Spec SpecI Spec64 SpecMap FormatSpec FormatSpec64 Obs Map64 Map64I HistMap DerivedMap.
From Verif Require Derived Hist64 R64S.
Import ListNotations.
Local Open Scope Z_scope.
Local Opaque zr.

(** C62: any sequence of calls on any number of maps (the second component of each call stands
    for sharing flags and container capacities, which the caller cannot see) *)
Theorem C62_histories_refine_sets : forall tr, legalN (map fst tr) (fun _ => zempty) -> exists st outs, execN tr empty_heapN = Some (st, outs) /\
  (forall i, denotesN (st i) (spec_runN (map fst tr) (fun _ => zempty) i)) /\ agreesN (map fst tr) (fun _ => zempty) outs.
Proof. exact n_histories. Qed.
Print Assumptions C62_histories_refine_sets.
Theorem C62_histories_refine_sets_from : forall st S tr, (forall i, denotesN (st i) (S i)) -> legalN (map fst tr) S ->
  exists st' outs, execN tr st = Some (st', outs) /\ (forall i, denotesN (st' i) (spec_runN (map fst tr) S i)) /\ agreesN (map fst tr) S outs.
Proof. exact n_history. Qed.
Print Assumptions C62_histories_refine_sets_from.
(** a map made from a 32-bit bitmap *)
Theorem C62_from_bitmap : forall r P, denotes r P -> denotesN (map_of_roaring r) (fun v => (v <? 2^32) && P v).
Proof. exact n_of_bitmap. Qed.
Print Assumptions C62_from_bitmap.
Definition any_choice : (Z -> bool) * (Z -> Z) := (fun _ => false, fun _ => 0).
Definition traceN : list (ncmd * ((Z -> bool) * (Z -> Z))) := map (fun c => (c, any_choice))
  [NOf 0 [7; 2^40]; NAddRangeClosed 0 (2^64 - 3) (2^64 - 1); NAddRange 0 (2^32 - 2) (2^32 + 2); NCopy 1 0; NRemoveRange 1 0 (2^64 - 2); NFlipClosed 1 (2^64 - 4) (2^64 - 2); NOr 2 0 1; NXorInplace 0 2;
   NToArray 0; NToArray 1; NReload 3 2; NEquals 3 2; NCardinality 3; NRank 3 (2^40); NGetIndex 3 (2^64 - 1); NSelect 3 5; NMaximum 1; NRemoveChecked 3 7; NAddChecked32 3 7; NFastUnion 4 [1; 3]%nat; NStrictSubset 1 4].
Example C62_hypotheses : legalN (map fst traceN) (fun _ => zempty).
Proof.
  unfold traceN. cbn [map fst].
  split; [intros v [<-|[<-|[]]]; unfold val64; lia|]. do 13 (cbn [legalN]; split; [cbn [ncmd_ok]; exact Logic.I || (unfold val64; lia)|]).
  split. { split; [unfold val64; lia|]. apply (sparse_card _ (2^40 + 1) (2^64 - 4)); [lia|lia|lia|]. intros x X. cbn [spec_stepN]. unfold put, zinter, zunion, zsymm, zdiff, zival, zlist, zempty. cbn [Nat.eqb existsb]. lia. }
  split. { split; [unfold val64; lia|]. intros h H. exists 8. split; [lia|]. cbn [spec_stepN]. unfold put, zinter, zunion, zsymm, zdiff, zival, zlist, zempty. cbn [Nat.eqb existsb]. lia. }
  do 4 (cbn [legalN]; split; [cbn [ncmd_ok]; exact Logic.I || (unfold val64; lia) || (unfold val32; lia)|]).
  split; [|exact Logic.I]. exists 8. split; [unfold val64; lia|]. vm_compute. reflexivity.
Qed.
Example C62_example : option_map snd (execN traceN empty_heapN) =
  Some [RNone; RNone; RNone; RNone; RNone; RNone; RNone; RNone; RList [2^64 - 4]; RList [2^64 - 4; 2^64 - 3; 2^64 - 1]; RNone; RBool true; ROpt (Some 10); RNum 6; RNum 9; ROpt (Some (2^40)); RNum (2^64 - 1);
        RBool true; RBool true; RNone; RBool true].
Proof. vm_compute. reflexivity. Qed.

(** C63: any sequence of iterator calls, from begin() or from end() *)
Theorem C63_iterators_after_any_history : forall tr st outs i l cs, legalN (map fst tr) (fun _ => zempty) -> execN tr empty_heapN = Some (st, outs) -> lists64 (spec_runN (map fst tr) (fun _ => zempty) i) l ->
  (mlegal l 0 cs -> (let! b := map_begin (st i) in mi_run (st i) b cs) = Some (mcursor l 0 cs)) /\
  (mlegal l (len_of l) cs -> mi_run (st i) (map_end (st i)) cs = Some (mcursor l (len_of l) cs)).
Proof. exact n_iterate_history. Qed.
Print Assumptions C63_iterators_after_any_history.
(** maps with empty inner bitmaps, as read from an image that has some: missing are
    move_equalorlarger and i-- (see the refutation) *)
Theorem C63_iterators_any_map_partial : forall m P l cs, denotesN m P -> lists64 P l -> forallb plain cs = true ->
  (mlegal l 0 cs -> (let! b := map_begin m in mi_run m b cs) = Some (mcursor l 0 cs)) /\
  (mlegal l (len_of l) cs -> mi_run m (map_end m) cs = Some (mcursor l (len_of l) cs)).
Proof. exact n_iterate_any. Qed.
Print Assumptions C63_iterators_any_map_partial.
Theorem C63_iterators_any_map_refuted : exists out m P l, map_readSafe out (len out) = Ok m /\ denotesN m P /\ lists64 P l /\
  (exists cs, mlegal l (len_of l) cs /\ cs = [SMove 8] /\ mi_run m (map_end m) cs <> Some (mcursor l (len_of l) cs)) /\
  (exists cs, mlegal l (len_of l) cs /\ cs = [SPostDec] /\ mi_run m (map_end m) cs <> Some (mcursor l (len_of l) cs)).
Proof. exact n_iterate_refuted. Qed.
Print Assumptions C63_iterators_any_map_refuted.
(** shrinkToFit makes every map safe for every iterator call *)
Theorem C63_iterators_after_shrink : forall m P l cs, denotesN m P -> lists64 P l -> let m' := map_shrinkToFit m in denotesN m' P /\
  (mlegal l 0 cs -> (let! b := map_begin m' in mi_run m' b cs) = Some (mcursor l 0 cs)) /\
  (mlegal l (len_of l) cs -> mi_run m' (map_end m') cs = Some (mcursor l (len_of l) cs)).
Proof. exact n_iterate_shrunk. Qed.
Print Assumptions C63_iterators_after_shrink.
Definition moves : list mstep := [SInc; SPostInc; SDec; SMove (2^32 + 5); SDec; SDec; SMove 3; SInc; SInc; SInc; SPostDec; SPostDec].
Definition points : rmap := map_bitmapOf [3; 2^32 + 1; 2^64 - 1].
Example C63_hypotheses : mlegal [3; 2^32 + 1; 2^64 - 1] 0 moves /\ lists64 (zlist [3; 2^32 + 1; 2^64 - 1]) [3; 2^32 + 1; 2^64 - 1].
Proof.
  split; [repeat (split; [unfold mstep_ok, val64; vm_compute; intuition congruence|]); exact Logic.I|]. split; [repeat constructor; lia|].
  intros v. unfold zlist. cbn [In existsb]. unfold val64. split; [intros [<-|[<-|[<-|[]]]]; split; [lia|reflexivity|lia|reflexivity|lia|reflexivity]|]. intros (_ & E). lia.
Qed.
Example C63_example : (let! b := map_begin points in mi_run points b moves) =
  Some [(Some (2^32 + 1), None); (Some (2^64 - 1), None); (Some (2^32 + 1), None); (Some (2^64 - 1), Some true); (Some (2^32 + 1), None); (Some 3, None); (Some 3, Some true); (Some (2^32 + 1), None); (Some (2^64 - 1), None); (None, None); (Some (2^64 - 1), None); (Some (2^32 + 1), None)].
Proof. vm_compute. reflexivity. Qed.

(** C64: missing from the first statement: == and != with the left operand at end() and the right
    one elsewhere, which the second statement refutes ([None] is undefined behaviour) *)
Theorem C64_iterator_order_partial : forall tr st outs r l e1 cs1 e2 cs2, legalN (map fst tr) (fun _ => zempty) -> execN tr empty_heapN = Some (st, outs) -> lists64 (spec_runN (map fst tr) (fun _ => zempty) r) l ->
  mlegal l (start_pos l e1) cs1 -> mlegal l (start_pos l e2) cs2 ->
  let p := mfinal l (start_pos l e1) cs1 in let q := mfinal l (start_pos l e2) cs2 in
  exists i j, (let! b := start (st r) e1 in mi_go (st r) b cs1) = Some i /\ (let! b := start (st r) e2 in mi_go (st r) b cs2) = Some j /\
    mi_deref i = seen64 l p /\ mi_deref j = seen64 l q /\
    mi_lt i j = Some (p <? q) /\ mi_le i j = Some (p <=? q) /\ mi_gt i j = Some (p >? q) /\ mi_ge i j = Some (p >=? q) /\
    (p < len_of l \/ q = len_of l -> mi_eq i j = Some (p =? q) /\ mi_ne i j = Some (negb (p =? q))).
Proof. exact n_compare. Qed.
Print Assumptions C64_iterator_order_partial.
Theorem C64_iterator_equality_refuted : exists m P l, denotesN m P /\ lists64 P l /\ l = [7] /\ exists b, map_begin m = Some b /\
  mi_deref b = Some 7 /\ mi_eq (map_end m) b = None /\ mi_ne (map_end m) b = None /\ mi_eq b (map_end m) = Some false /\ mi_ne b (map_end m) = Some true.
Proof. exact n_compare_refuted. Qed.
Print Assumptions C64_iterator_equality_refuted.
Example C64_example :
  (let! i := (let! b := start points false in mi_go points b [SInc]) in
   let! j := (let! b := start points true in mi_go points b [SDec; SPostDec]) in
   let! k := start points true in
   Some [mi_lt i j; mi_le i j; mi_eq i j; mi_ne i j; mi_lt i k; mi_ge i k; mi_eq i k; mi_gt k i; mi_eq k k]) =
  Some [Some false; Some true; Some true; Some false; Some true; Some false; Some false; Some true; Some true].
Proof. vm_compute. reflexivity. Qed.

(** C65: [visit] calls the function on the members in increasing order until it answers false *)
Theorem C65_enumeration : forall (S : Type) (f : S -> Z -> S * bool) (s : S) m P, denotesN m P -> exists l, lists64 P l /\ map_toUint64Array m = Some l /\ map_iterate f m s = visit f l s.
Proof. exact n_enumerate. Qed.
Print Assumptions C65_enumeration.
Example C65_example : (map_toUint64Array points, map_iterate (fun s v => (s ++ [v], v <? 2^32)) points []) = (Some [3; 2^32 + 1; 2^64 - 1], ([3; 2^32 + 1], false)).
Proof. vm_compute. reflexivity. Qed.

(** C66: portable image *)
Theorem C66_round_trip : forall m P, denotesN m P -> exists out, bytes out /\ map_getSizeInBytes true m = len out /\
  (forall buf, len out <= len buf -> map_write true m buf = Some (out ++ skipn (length out) buf, len out)) /\
  (forall post, bytes post -> exists m', map_read true (out ++ post) = Ok m' /\ denotesN m' P) /\
  (forall post n, len out <= n < 2^64 -> exists m', map_readSafe (out ++ post) n = Ok m' /\ denotesN m' P) /\
  (forall post n, 0 <= n < len out -> n < 2^64 -> map_readSafe (out ++ post) n = Fail).
Proof. exact n_round_trip. Qed.
Print Assumptions C66_round_trip.
Definition points_image : list Z := match map_write true points (repeat 0 200) with Some (o, n) => firstn (Z.to_nat n) o | None => [] end.
Example C66_example : (len points_image, map_getSizeInBytes true points,
  match map_readSafe (points_image ++ [9]) (len points_image) with Ok m => map_toUint64Array m | _ => None end,
  match map_readSafe points_image (len points_image - 1) with Fail => true | _ => false end) = (74, 74, Some [3; 2^32 + 1; 2^64 - 1], true).
Proof. vm_compute. reflexivity. Qed.

(** C67: the published format and the C interface; missing: images of 2^32 bytes and more
    (offsets inside a part are 32-bit numbers) *)
Theorem C67_format_written_partial : forall m P buf out n, denotesN m P -> map_write true m buf = Some (out, n) -> n <= len buf -> n < 2^32 -> map_getSizeInBytes true m = n -> portable_format64 P (firstn (Z.to_nat n) out).
Proof. exact n_format. Qed.
Print Assumptions C67_format_written_partial.
Theorem C67_format_read_partial : forall P out post n, portable_format64 P out -> len out < 2^32 -> bytes post -> len out <= n < 2^64 ->
  (exists m, map_readSafe (out ++ post) n = Ok m /\ denotesN m P /\ map_getSizeInBytes true m = len out) /\ exists m, map_read true (out ++ post) = Ok m /\ denotesN m P.
Proof. exact n_foreign. Qed.
Print Assumptions C67_format_read_partial.
Theorem C67_from_c_partial : forall r P buf out n, Hist64.denotes64 r P -> R64S.roaring64_bitmap_portable_serialize r buf = Some (out, n) -> n <= len buf -> n < 2^32 -> R64S.roaring64_bitmap_portable_size_in_bytes r = Some n ->
  len out = len buf /\ exists m, map_readSafe out n = Ok m /\ denotesN m P.
Proof. exact n_from_c. Qed.
Print Assumptions C67_from_c_partial.
Theorem C67_to_c_partial : forall m P buf out n, denotesN m P -> map_write true m buf = Some (out, n) -> n = len buf -> n < 2^32 -> map_getSizeInBytes true m = n ->
  len out = n /\ R64S.roaring64_bitmap_portable_deserialize_size out n = Some n /\ exists r, R64S.roaring64_bitmap_portable_deserialize_safe out n = Ok r /\ Hist64.denotes64 r P.
Proof. exact n_to_c. Qed.
Print Assumptions C67_to_c_partial.
Example C67_example : match R64S.roaring64_bitmap_portable_deserialize_safe points_image (len points_image) with
  | Ok r => match R64S.roaring64_bitmap_portable_serialize r (repeat 0 74) with Some (o, n) => (n, match map_readSafe o n with Ok m => map_toUint64Array m | _ => None end) | None => (0, None) end
  | _ => (0, None) end = (74, Some [3; 2^32 + 1; 2^64 - 1]).
Proof. vm_compute. reflexivity. Qed.

(** C68: missing from the first statement: images with at least two buckets in which the bytes
    59, 48 (the cookie of a part with runs) occur; the second statement refutes the property *)
Theorem C68_untrusted_partial : forall a b, bytes a -> len a < 2^64 -> (forall i, ~ (nth i a 0 = 59 /\ nth (S i) a 0 = 48)) \/ (exists n, rdv 8 a 0 = Some n /\ n <= 1) ->
  map_readSafe (a ++ b) (len a) = map_readSafe a (len a) /\ map_readSafe a (len a) <> UB.
Proof. exact n_safe_partial. Qed.
Print Assumptions C68_untrusted_partial.
Theorem C68_untrusted_refuted : exists a, bytes a /\ len a < 2^64 /\ map_readSafe a (len a) = UB.
Proof. exact n_safe_refuted. Qed.
Print Assumptions C68_untrusted_refuted.
Example C68_example : (forall i, ~ (nth i points_image 0 = 59 /\ nth (S i) points_image 0 = 48)) /\ map_readSafe (firstn 40 points_image) 40 = Fail.
Proof.
  split; [|vm_compute; reflexivity]. apply no_cookie_check. vm_compute. reflexivity.
Qed.

(** C69: native image; missing from the first statement: an inner bitmap with run containers whose
    portable form is not shorter than four bytes per value; the last statement refutes the property *)
Theorem C69_native_round_trip_partial : forall m P, denotesN m P -> exists out, bytes out /\ map_getSizeInBytes false m = len out /\
  (forall buf, len out <= len buf -> map_write false m buf = Some (out ++ skipn (length out) buf, len out)) /\
  ((forall k b, In (k, b) m -> (forall p, In p b -> is_run (snd p) = false) \/ roaring_bitmap_portable_size_in_bytes b < roaring_bitmap_get_cardinality b * 4 + 4) ->
   forall post, bytes post -> exists m', map_read false (out ++ post) = Ok m' /\ denotesN m' P).
Proof. exact n_native. Qed.
Print Assumptions C69_native_round_trip_partial.
Theorem C69_native_round_trip_without_runs : forall m P, denotesN m P -> let m' := fst (map_removeRunCompression m) in denotesN m' P /\ exists out, map_getSizeInBytes false m' = len out /\
  (forall buf, len out <= len buf -> map_write false m' buf = Some (out ++ skipn (length out) buf, len out)) /\
  forall post, bytes post -> exists m2, map_read false (out ++ post) = Ok m2 /\ denotesN m2 P.
Proof. exact n_native_flat. Qed.
Print Assumptions C69_native_round_trip_without_runs.
Theorem C69_native_round_trip_refuted : exists m P buf out, denotesN m P /\ map_getSizeInBytes false m = len buf /\ map_write false m buf = Some (out, len out) /\ map_read false out = Fail.
Proof. exact n_native_refuted. Qed.
Print Assumptions C69_native_round_trip_refuted.
Example C69_example : (map_getSizeInBytes false points, match map_write false points (repeat 0 47) with Some (o, _) => match map_read false o with Ok m => map_toUint64Array m | _ => None end | None => None end) = (47, Some [3; 2^32 + 1; 2^64 - 1]).
Proof. vm_compute. reflexivity. Qed.

(** C70: the results of runOptimize and removeRunCompression say something about all inner
    bitmaps, not about some of them; the last statement refutes the documented meaning *)
Theorem C70_run_optimize_partial : forall m P, denotesN m P -> let m' := fst (map_runOptimize m) in denotesN m' P /\ (snd (map_runOptimize m) = true <-> forall k b, In (k, b) m' -> exists p, In p b /\ is_run (snd p) = true).
Proof. exact n_run_optimize. Qed.
Print Assumptions C70_run_optimize_partial.
Theorem C70_remove_run_compression_partial : forall m P, denotesN m P -> let m' := fst (map_removeRunCompression m) in denotesN m' P /\ (forall k b p, In (k, b) m' -> In p b -> is_run (snd p) = false) /\
  (snd (map_removeRunCompression m) = true <-> forall k b, In (k, b) m -> exists p, In p b /\ is_run (snd p) = true).
Proof. exact n_remove_runs. Qed.
Print Assumptions C70_remove_run_compression_partial.
Theorem C70_results_refuted :
  (exists m P, denotesN m P /\ snd (map_runOptimize m) = true /\ has_runs (fst (map_runOptimize m)) = false) /\
  (exists m P, denotesN m P /\ snd (map_runOptimize m) = false /\ has_runs (fst (map_runOptimize m)) = true) /\
  (exists m P, denotesN m P /\ snd (map_removeRunCompression m) = true /\ fst (map_removeRunCompression m) = m) /\
  (exists m P, denotesN m P /\ snd (map_removeRunCompression m) = false /\ fst (map_removeRunCompression m) <> m).
Proof. exact n_run_flag_refuted. Qed.
Print Assumptions C70_results_refuted.
Example C70_example : let flat := fst (map_removeRunCompression mixed_runs) in
  (has_runs mixed_runs, has_runs flat, snd (map_runOptimize flat), map_equals flat mixed_runs) = (true, false, false, Some true).
Proof. vm_compute. reflexivity. Qed.

(** C71: select and getIndex outside the arguments for which C62 specifies them *)
Theorem C71_select_refuted : exists m P k n, denotesN m P /\ has_card64 P n /\ 0 <= k < n /\ map_select m k = Fail.
Proof. exact n_select_refuted. Qed.
Print Assumptions C71_select_refuted.
Theorem C71_index_refuted : exists m P n i, denotesN m P /\ P (2^63) = true /\ has_card64 (zinter P (zival 0 (2^63))) n /\ map_getIndex m (2^63) = Some i /\ n <> i /\ i < 0.
Proof. exact n_index_refuted. Qed.
Print Assumptions C71_index_refuted.
Theorem C71_select_index_partial : forall m P, denotesN m P ->
  (forall k, 0 <= k < 2^64 -> (forall h, 0 <= h < 2^32 -> exists v, 0 <= v < 2^32 /\ P (h * 2^32 + v) = false) ->
     match map_select m k with
     | Ok (Some v) => val64 v /\ P v = true /\ has_card64 (zinter P (zival 0 v)) k
     | Ok None => forall n, has_card64 P n -> n <= k
     | _ => False
     end) /\
  forall v, val64 v -> (forall n, has_card64 (zinter P (zival 0 v)) n -> n < 2^63) -> exists i, map_getIndex m v = Some i /\ if P v then has_card64 (zinter P (zival 0 v)) i else i = -1.
Proof. exact n_select_index. Qed.
Print Assumptions C71_select_index_partial.
Example C71_example : (map_select points 1, map_getIndex points (2^64 - 1), map_getIndex points 4) = (Ok (Some (2^32 + 1)), Some 2, Some (-1)).
Proof. vm_compute. reflexivity. Qed.
