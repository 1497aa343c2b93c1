(** PropsCow: copy-on-write sharing (C28), queries on shared containers (C38), the flag of
    results (C95). *)
From Coq Require Import ZArith List Bool Lia.
From Verif Require Import Base Convert Containers RArray RPoint RRange RQuery Spec Obs Hist Cow CowH CowQ.
Import ListNotations.
Local Open Scope Z_scope.
Local Opaque zr.

(** C28: any sequence of calls on any number of bitmaps, all copy-on-write (b = true) or
    none: no call touches a released block, every answer is right, every bitmap holds
    the set it should, and every counter is the number of slots that refer to its block *)
Theorem C28_cow_histories : forall b tr, Forall modelled (map fst tr) -> legal (map fst tr) empty_regs ->
  exists w outs N, hexec b tr (hstart b) = Some (w, outs) /\ agrees (map fst tr) empty_regs outs /\
    (forall i, exists r, contents w i = Some r /\ denotes r (spec_run (map fst tr) empty_regs i)) /\ counters_exact w N.
Proof. exact cow_history. Qed.
Print Assumptions C28_cow_histories.
(** every call leaves the containers of all bitmaps but its target as they were *)
Theorem C28_cow_only_target_changes : forall b tr w S c o, reaches b tr w S -> modelled c -> cmd_ok c S ->
  exists w' a, hstep b c o w = Some (w', a) /\ forall i, target c <> Some i -> contents w' i = contents w i.
Proof. exact cow_frame. Qed.
Print Assumptions C28_cow_only_target_changes.
(** once all bitmaps are empty (freed), no shared block is left *)
Theorem C28_cow_no_block_left : forall b tr w S, reaches b tr w S -> (forall i, same_set (S i) zempty) -> forall l, cellat (wm w) l = None.
Proof. exact cow_no_leak. Qed.
Print Assumptions C28_cow_no_block_left.
(** remove_many releases a shared container twice: the other holder is left with a
    released container *)
Theorem C28_remove_many_refuted : exists l w outs i, legal l empty_regs /\ hexec true (with_ora l) (hstart true) = Some (w, outs) /\
  contents w i = None /\ (forall c, In c l -> c = KCopy 1 0 \/ target c <> Some i) /\ hexec true (with_ora (l ++ [QContains i 2])) (hstart true) = None.
Proof. exact cow_remove_many_refuted. Qed.
Print Assumptions C28_remove_many_refuted.

(** the same with unions of many bitmaps by queue (or_many_heap), whatever the order in
    which the queue hands out the bitmaps, and the flag of the result set by the caller *)
Theorem C28_cow_queue_histories : forall b tr, Forall qmodelled tr -> legal (map call_of tr) empty_regs ->
  exists w outs N, qexec b tr (hstart b) = Some (w, outs) /\ agrees (map call_of tr) empty_regs outs /\
    (forall i, exists r, contents w i = Some r /\ denotes r (spec_run (map call_of tr) empty_regs i)) /\ counters_exact w N.
Proof. exact cow_queue_history. Qed.
Print Assumptions C28_cow_queue_histories.
Theorem C28_cow_queue_only_target_changes : forall b tr w S d ss cap order, qreaches b tr w S ->
  exists w', flag_or_heap b d cap order ss w = Some (w', RNone) /\ forall i, i <> d -> contents w' i = contents w i.
Proof. exact cow_queue_frame. Qed.
Print Assumptions C28_cow_queue_only_target_changes.

(** C38: a query changes nothing at all: neither slots nor blocks nor counters *)
Theorem C38_queries_change_nothing : forall b c o w w' a, target c = None -> hstep b c o w = Some (w', a) -> w' = w.
Proof. exact query_frame. Qed.
Print Assumptions C38_queries_change_nothing.
Theorem C38_queries_succeed : forall b tr w S c o, reaches b tr w S -> modelled c -> target c = None -> cmd_ok c S ->
  exists a, hstep b c o w = Some (w, a) /\ spec_out c S a.
Proof. exact query_total. Qed.
Print Assumptions C38_queries_succeed.
(** range_uint32_array on a const bitmap overwrites the type of every shared slot it
    visits: the bitmap cannot be read afterwards *)
Theorem C38_range_uint32_array_refuted : exists l w S i, reaches true (with_ora l) w S /\ (exists r, contents w i = Some r /\ denotes r (S i)) /\ contents (htouch i w) i = None.
Proof. exact cow_range_array_refuted. Qed.
Print Assumptions C38_range_uint32_array_refuted.

Example C28_hypotheses : Forall modelled cow_sample /\ legal cow_sample empty_regs.
Proof. exact cow_sample_ok. Qed.
Example C28_example :
  match hexec true (with_ora cow_sample) (hstart true) with
  | Some (w, outs) => (outs, wm w, map (fun i => map (fun p => (fst p, match snd p with Sh l => Some l | _ => None end)) (hsl (wr w i))) [0; 1; 2; 3]%nat)
  | None => ([], [], [])
  end = ([RNone; RBool false; RNone; RNone; RNone; RNone; RNone; RNone; RNone; RNone; RBool true; RNum 65539],
    [Some (1, CArr [1; 2]); Some (1, CArr [4464])],
    [[(0, Some 0%nat)]; [(0, None); (1, Some 1%nat)]; [(0, None)]; [(0, None); (1, None)]]).
Proof. vm_compute. reflexivity. Qed.

(** C95: if all bitmaps have the flag f, then every call that does not make a bitmap from
    nothing leaves it so; [b], the flag the caller sets on bitmaps made from nothing, does
    not matter *)
Theorem C95_results_inherit_flag : forall f b c o w w' a, ~ from_nothing c -> flags f w -> hstep b c o w = Some (w', a) -> flags f w'.
Proof. exact hstep_flags. Qed.
Print Assumptions C95_results_inherit_flag.
(** or_many_heap of four copy-on-write bitmaps answers a bitmap without the flag; after
    or_inplace with a fifth, copying it is impossible.  With the flag set it is possible *)
Theorem C95_or_many_heap_refuted : exists l w w1 w2 w3, legal l empty_regs /\ (exists outs, hexec true (with_ora l) (hstart true) = Some (w, outs)) /\
  (forall i, hcow (wr w i) = true) /\ plain_or_heap 5 cap0 order0 ss0 w = Some (w1, RNone) /\ hcow (wr w1 5%nat) = false /\
  hstep true (KOrInplace 5 4) ora0 w1 = Some (w2, RNone) /\ option_map roaring_bitmap_to_uint32_array (contents w2 5) = Some [1; 65537; 131073; 196609; 262145] /\
  hstep true (KCopy 6 5) ora0 w2 = None /\
  flag_or_heap true 5 cap0 order0 ss0 w = Some w3 /\ exists w4 w5, hstep true (KOrInplace 5 4) ora0 (fst w3) = Some w4 /\ hstep true (KCopy 6 5) ora0 (fst w4) = Some w5.
Proof. exact or_many_heap_flag_refuted. Qed.
Print Assumptions C95_or_many_heap_refuted.

Definition queue_sample : list qcmd :=
  [QCall (KOf 0 [1; 2; 70000]) ora0; QCall (KOf 1 [3; 140000]) ora0; QCall (KOf 2 [2; 210000]) ora0; QCall (KOf 3 [280000]) ora0;
   QHeapOr 4 [0; 1; 2; 3]%nat cap0 order0; QHeapOr 5 [4; 4; 1]%nat cap0 []; QHeapOr 6 [5]%nat cap0 []; QCall (KRemove 5 70000) ora0; QCall (QCardinality 6) ora0; QCall (QEquals 4 6) ora0; QCall (QContains 5 70000) ora0].
Example C28_queue_hypotheses : Forall qmodelled queue_sample /\ legal (map call_of queue_sample) empty_regs.
Proof. split; [repeat constructor|]. unfold queue_sample. cbn [map call_of]. lg. Qed.
(** bitmap 4 was built from the first four, whose containers under a key of one bitmap only
    were shared with intermediate results meanwhile; bitmaps 5 and 6 share four *)
Example C28_queue_example :
  match qexec true queue_sample (hstart true) with
  | Some (w, outs) => (skipn 7 outs, map (fun i => map (fun p => (fst p, match snd p with Sh l => Some l | _ => None end)) (hsl (wr w i))) [0; 1; 4; 5; 6]%nat,
      map (option_map fst) (wm w))
  | None => ([], [], [])
  end = ([RNone; RNum 7; RBool true; RBool false],
    [[(0, None); (1, Some 0%nat)]; [(0, None); (2, Some 1%nat)];
     [(0, None); (1, None); (2, None); (3, None); (4, None)];
     [(0, Some 5%nat); (2, Some 7%nat); (3, Some 8%nat); (4, Some 9%nat)];
     [(0, Some 5%nat); (1, Some 6%nat); (2, Some 7%nat); (3, Some 8%nat); (4, Some 9%nat)]],
    [Some 1; Some 1; Some 1; Some 1; Some 1; Some 2; Some 1; Some 2; Some 2; Some 2]).
Proof. vm_compute. reflexivity. Qed.
Example C95_hypotheses : ~ from_nothing (KOr 2 0 1) /\ flags true (hstart true).
Proof. split; [intros []|]. intros i. reflexivity. Qed.
Example C95_order_of_the_queue : let q := Heap.create_pq [[(0, CArr [1])]; [(1, CArr [1])]; [(2, CArr [1])]; [(3, CArr [1])]] in
  map Heap.e_tmp (Heap.heap_step cap0 (Heap.heap_step cap0 q)) = [true; true].
Proof. exact order0_real. Qed.
