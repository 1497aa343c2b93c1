(** PropsUpdate: re-encoding, lazy aggregation, shifting, bulk and checked updates
    (C21-C25, C29). *)
From Coq Require Import ZArith List Bool Lia Sorting.Sorted.
From Verif Require Import Base Convert Containers RArray RBinary RPoint RRange RQuery RStat RShift Heap Spec Obs Hist Derived Samples.
Import ListNotations.
Local Open Scope Z_scope.
Local Opaque zr.

(** C21 *)
Theorem C21_run_optimize : forall r P, denotes r P -> denotes (fst (roaring_bitmap_run_optimize r)) P.
Proof. exact den_run_optimize. Qed.
Print Assumptions C21_run_optimize.
Theorem C21_run_optimize_flag : forall r P, denotes r P ->
  (snd (roaring_bitmap_run_optimize r) = true <-> exists p, In p (fst (roaring_bitmap_run_optimize r)) /\ is_run (snd p) = true).
Proof. exact run_optimize_flag. Qed.
Print Assumptions C21_run_optimize_flag.
Theorem C21_run_optimize_bytes : forall r P, denotes r P ->
  tot container_size_in_bytes (fst (roaring_bitmap_run_optimize r)) <= tot container_size_in_bytes r.
Proof. exact run_optimize_bytes. Qed.
Print Assumptions C21_run_optimize_bytes.
Theorem C21_remove_run_compression : forall r P, denotes r P -> denotes (fst (roaring_bitmap_remove_run_compression r)) P.
Proof. exact den_remove_run_compression. Qed.
Print Assumptions C21_remove_run_compression.
Theorem C21_remove_run_compression_effect : forall r P, denotes r P ->
  Forall (fun p => is_run (snd p) = false) (fst (roaring_bitmap_remove_run_compression r)) /\
  (snd (roaring_bitmap_remove_run_compression r) = true <-> exists p, In p r /\ is_run (snd p) = true).
Proof. exact remove_run_compression_effect. Qed.
Print Assumptions C21_remove_run_compression_effect.
Example C21_example :
  let flat := fst (roaring_bitmap_remove_run_compression sample) in
  (snd (roaring_bitmap_remove_run_compression sample), snd (roaring_bitmap_run_optimize flat), snd (roaring_bitmap_run_optimize evens),
   tot container_size_in_bytes flat, tot container_size_in_bytes (fst (roaring_bitmap_run_optimize flat)), roaring_bitmap_equals flat sample)
  = (true, true, false, 8398, 8204, true).
Proof. vm_compute. reflexivity. Qed.

(** C22 *)
Theorem C22_or_many : forall cap xs Ps, Forall2 denotes xs Ps -> denotes (roaring_bitmap_or_many cap xs) (fun v => existsb (fun P : zset => P v) Ps).
Proof. exact den_or_many. Qed.
Print Assumptions C22_or_many.
(** cap: the spare capacity of the array containers, which the code branches on *)
Theorem C22_or_many_heap : forall cap xs Ps, Forall2 denotes xs Ps -> denotes (roaring_bitmap_or_many_heap cap xs) (fun v => existsb (fun P : zset => P v) Ps).
Proof. exact den_or_many_heap. Qed.
Print Assumptions C22_or_many_heap.
Theorem C22_xor_many : forall sh xs Ps, Forall2 denotes xs Ps ->
  denotes (roaring_bitmap_xor_many sh xs) (fun v => fold_left (fun b (P : zset) => xorb b (P v)) Ps false).
Proof. exact den_xor_many. Qed.
Print Assumptions C22_xor_many.
(** any tree of lazy_or, lazy_or_inplace, lazy_xor and lazy_xor_inplace calls, with
    both values of the conversion flag, followed by repair_after_lazy; the second
    operand of lazy_xor_inplace is a valid bitmap *)
Theorem C22_lazy_programs : forall p : lprog, Forall valid (linputs p) -> denotes (roaring_bitmap_repair_after_lazy (leval p)) (lsem p).
Proof. exact lazy_repair. Qed.
Print Assumptions C22_lazy_programs.
Example C22_hypotheses : Forall2 denotes [sample; other; evens] [sampleP; otherP; zprog 196608 262144 2]
  /\ Forall valid (linputs (LXorI Z.even (LOrI (fun _ => 1) false (LOr true (LBase sample) (LBase other)) (LBase evens)) other)).
Proof. split; [exact (Forall2_cons _ _ sample_den (Forall2_cons _ _ other_den (Forall2_cons _ _ evens_den (Forall2_nil _))))|].
  cbn [linputs app]. exact (Forall_cons _ sample_valid (Forall_cons _ other_valid (Forall_cons _ (proj1 evens_den) (Forall_cons _ other_valid (Forall_nil _))))). Qed.
Example C22_example :
  (roaring_bitmap_equals (roaring_bitmap_or_many (fun _ => 0) [sample; other; evens]) (roaring_bitmap_or sample other),
   roaring_bitmap_equals (roaring_bitmap_or_many_heap (fun _ => 7) [sample; other; evens; []; other]) (roaring_bitmap_or sample other),
   roaring_bitmap_equals (roaring_bitmap_xor_many Z.even [sample; other; sample]) other,
   roaring_bitmap_get_cardinality (roaring_bitmap_repair_after_lazy
     (leval (LXorI Z.even (LOrI (fun _ => 1) false (LOr true (LBase sample) (LBase other)) (LBase evens)) other))))
  = (true, true, true, 101).
Proof. vm_compute. reflexivity. Qed.

(** C23: w is a member of the result exactly when w - d is a member of r *)
Theorem C23_add_offset : forall cap r P d, denotes r P -> denotes (roaring_bitmap_add_offset cap r d) (fun w => (0 <=? w - d) && (w - d <? 2^32) && P (w - d)).
Proof. exact den_add_offset. Qed.
Print Assumptions C23_add_offset.
Example C23_example : (map (fun d => roaring_bitmap_get_cardinality (roaring_bitmap_add_offset (fun _ => 0) sample d)) [70000; -6; -131073; 4294967295; 4294967294; - 2^40],
   roaring_bitmap_to_uint32_array (roaring_bitmap_add_offset (fun _ => 0) (roaring_bitmap_of [1; 65535; 65536; 4294967295]) (-2)))
  = ([32871; 32869; 32867; 0; 1; 0], [65533; 65534; 4294967293]).
Proof. vm_compute. reflexivity. Qed.

(** C24 *)
Theorem C24_add_many : forall r P vals, denotes r P -> (forall v, In v vals -> val32 v) -> denotes (roaring_bitmap_add_many r vals) (zunion P (zlist vals)).
Proof. exact den_add_many. Qed.
Print Assumptions C24_add_many.
Theorem C24_of_ptr : forall vals, (forall v, In v vals -> val32 v) -> denotes (roaring_bitmap_of_ptr vals) (zlist vals).
Proof. exact den_of_ptr. Qed.
Print Assumptions C24_of_ptr.
Theorem C24_of : forall vals, (forall v, In v vals -> val32 v) -> denotes (roaring_bitmap_of vals) (zlist vals).
Proof. exact den_of. Qed.
Print Assumptions C24_of.
(** successive add_bulk calls sharing one context *)
Theorem C24_add_bulk : forall r P vals, denotes r P -> (forall v, In v vals -> val32 v) -> denotes (fst (add_bulk_list r None vals)) (zunion P (zlist vals)).
Proof. exact den_add_bulk_list. Qed.
Print Assumptions C24_add_bulk.
Theorem C24_order_irrelevant : forall r vals vals', valid r -> (forall v, In v vals -> val32 v) -> (forall v, In v vals <-> In v vals') ->
  roaring_bitmap_equals (roaring_bitmap_add_many r vals) (fold_left roaring_bitmap_add vals' r) = true.
Proof. exact add_many_order. Qed.
Print Assumptions C24_order_irrelevant.
Example C24_example : roaring_bitmap_to_uint32_array (roaring_bitmap_add_many (roaring_bitmap_of [9; 70000]) [70001; 3; 3; 9; 140000; 70000; 2]) = [2; 3; 9; 70000; 70001; 140000]
  /\ roaring_bitmap_get_cardinality (roaring_bitmap_add_many sample [131072; 131172; 196609; 0]) = 32874.
Proof. vm_compute. auto. Qed.

(** C25 *)
Theorem C25_add_checked : forall r P v, denotes r P -> val32 v ->
  denotes (fst (roaring_bitmap_add_checked r v)) (zadd P v) /\ snd (roaring_bitmap_add_checked r v) = negb (P v).
Proof. exact den_add_checked. Qed.
Print Assumptions C25_add_checked.
Theorem C25_remove_checked : forall r P v, denotes r P -> val32 v ->
  denotes (fst (roaring_bitmap_remove_checked r v)) (zdel P v) /\ snd (roaring_bitmap_remove_checked r v) = P v.
Proof. exact den_remove_checked. Qed.
Print Assumptions C25_remove_checked.
Theorem C25_add : forall r P v, denotes r P -> val32 v -> denotes (roaring_bitmap_add r v) (zadd P v).
Proof. exact den_add. Qed.
Print Assumptions C25_add.
Theorem C25_remove : forall r P v, denotes r P -> val32 v -> denotes (roaring_bitmap_remove r v) (zdel P v).
Proof. exact den_remove. Qed.
Print Assumptions C25_remove.
Example C25_example : (map (fun v => snd (roaring_bitmap_add_checked sample v)) [1; 2; 131171; 131172; 196609],
   map (fun v => snd (roaring_bitmap_remove_checked sample v)) [1; 2; 131171; 131172; 196608]) = ([false; true; false; true; true], [true; false; true; false; true]).
Proof. vm_compute. reflexivity. Qed.

(** C29 *)
Theorem C29_remove_many : forall r P vals, denotes r P -> (forall v, In v vals -> val32 v) -> denotes (roaring_bitmap_remove_many r vals) (zdiff P (zlist vals)).
Proof. exact den_remove_many. Qed.
Print Assumptions C29_remove_many.
Example C29_example : roaring_bitmap_to_uint32_array (roaring_bitmap_remove_many (roaring_bitmap_of [1; 2; 3; 70000; 70001; 140000]) [70001; 70000; 5; 2; 2; 140000; 4000000000]) = [1; 3]
  /\ roaring_bitmap_get_cardinality (roaring_bitmap_remove_many sample [131100; 5; 196610; 196611]) = 32868.
Proof. vm_compute. auto. Qed.
