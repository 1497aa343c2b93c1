(** Property C93: shrink_to_fit of a bitmap in memory, and the number it returns. *)
From Coq Require Import ZArith List Bool Lia.
From Verif Require Import Base SpecTab ShrinkMem.
From Verif Require TabMem ArrBlk RunMem.
Import ListNotations.
Local Open Scope Z_scope.

(** C93: no undefined behaviour, every chunk of the heap stores what it stored, no chunk of the bitmap has
    a spare entry left, the table has exactly one entry per chunk, other chunks are not touched.
    Missing: the number returned is the number of bytes saved only if no chunk had a spare entry; it is
    never more. *)
Theorem C93_shrink_to_fit_partial : forall cap p h ra, 0 <= cap -> tlegal p [] -> TabMem.tab_run p (TabMem.ra_init_with_capacity cap) = Some ra ->
  Forall obj_ok h -> (forall s, In s (trun p []) -> exists q, chunk_of h s q) ->
  exists h' ra' n, roaring_bitmap_shrink_to_fit h ra = Some (h', ra', n) /\ TabMem.read_table ra' = Some (trun p []) /\
    (forall q, option_map stored (obj_at h' q) = option_map stored (obj_at h q)) /\
    (forall s q, In s (trun p []) -> chunk_of h s q -> option_map slack (obj_at h' q) = Some 0) /\ zlen (TabMem.blk ra') = 11 * size_of (trun p []) /\
    (forall q, (forall s, In s (trun p []) -> ~ chunk_of h s q) -> obj_at h' q = obj_at h q) /\
    n = sum slack h - sum slack h' + (zlen (TabMem.blk ra) - zlen (TabMem.blk ra')) /\
    n <= bytes_of h ra - bytes_of h' ra' /\
    (n = bytes_of h ra - bytes_of h' ra' <-> forall s q o, In s (trun p []) -> chunk_of h s q -> obj_at h q = Some o -> slack o = 0).
Proof. exact bitmap_shrink. Qed.
Print Assumptions C93_shrink_to_fit_partial.
Definition ex_heap : heap := [OArr (ArrBlk.AB [Some 4; Some 9; Some 11; None] 3); OShared 3 2; ORun (RunMem.RB [Some (5, 2); Some (20, 0); None; None; None] 2); OBits 1 (1 :: repeat 0 1023); OArr (ArrBlk.AB [None] 0)].
Definition ex_table : list tcmd := [TAppend (Slot 3 1 4); TInsert 0 (Slot 0 0 2); TAppend (Slot 7 3 1); TAppend (Slot 8 1 4)].
Example C93_example : tlegal ex_table [] /\ Forall obj_ok ex_heap /\ (forall s, In s (trun ex_table []) -> exists q, chunk_of ex_heap s q) /\
  (match TabMem.tab_run ex_table (TabMem.ra_init_with_capacity 6) with
   | Some ra => match roaring_bitmap_shrink_to_fit ex_heap ra with Some (h', ra', n) => Some (map slack h', n, bytes_of ex_heap ra - bytes_of h' ra') | None => None end
   | None => None end) = Some ([0; 0; 0; 0; 1], 1 + 3 + 22, 2 + 12 + 22).
Proof.
  split; [|split; [|split]].
  - cbn [tlegal ex_table]. unfold tok, slot_ok. cbn [s_key s_ptr s_kind]. repeat match goal with |- _ /\ _ => split | |- True => exact I | |- _ => vm_compute; congruence end.
  - unfold ex_heap. do 5 (apply Forall_cons; [vm_compute; try exact I; split; discriminate|]). apply Forall_nil.
  - cbn [trun ex_table tstep]. intros s [<-|[<-|[<-|[<-|[]]]]].
    + exists 0. left. split; [discriminate|]. split; [reflexivity|]. eexists. split; reflexivity.
    + exists 2. right. split; [reflexivity|]. eexists 3, _. split; [reflexivity|]. split; [discriminate|]. split; reflexivity.
    + exists 3. left. split; [discriminate|]. split; [reflexivity|]. eexists. split; reflexivity.
    + exists 2. right. split; [reflexivity|]. eexists 3, _. split; [reflexivity|]. split; [discriminate|]. split; reflexivity.
  - vm_compute. reflexivity.
Qed.
(** a bitmap to which 1, 2 and 3 were added: 12 is returned, 13 bytes are saved *)
Theorem C93_bytes_saved_refuted : exists vs h ra h' ra' n, Forall (fun v => 0 <= v < 2 ^ 32) vs /\ add_values vs [] TabMem.ra_init = Some (h, ra) /\
  roaring_bitmap_shrink_to_fit h ra = Some (h', ra', n) /\ n <> bytes_of h ra - bytes_of h' ra'.
Proof. exact add_three_shrink. Qed.
Print Assumptions C93_bytes_saved_refuted.
