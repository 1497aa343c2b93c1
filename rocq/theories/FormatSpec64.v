(** FormatSpec64: the published interchange format of 64-bit Roaring bitmaps (the format
    specification referenced in roaring64.h:517-534), independent of the model of the code:
    the number of buckets as a 64-bit integer, then for each bucket, in increasing order, its
    32 high bits and the set of low halves in the 32-bit format. *)
From Coq Require Import ZArith List Bool Sorting.Sorted.
From Verif Require Import Spec Spec64 FormatSpec.
Import ListNotations.
Local Open Scope Z_scope.

Definition le64 (v : Z) : list Z := le32 (v mod 2^32) ++ le32 (v / 2^32).
(** the members of [P] whose upper half is [h], as 32-bit values *)
Definition half (P : zset) (h : Z) : zset := fun v => P (h * 2^32 + v).
Definition inhabited_half (P : zset) (h : Z) : Prop := exists v, val32 v /\ half P h v = true.
Definition buckets_ok (P : zset) (bs : list (Z * list Z)) : Prop :=
  StronglySorted Z.lt (map fst bs) /\
  Forall (fun b => 0 <= fst b < 2^32 /\ portable_format (half P (fst b)) (snd b)) bs /\
  forall v, val64 v -> P v = true -> In (v / 2^32) (map fst bs).
Definition bucket_bytes (bs : list (Z * list Z)) : list Z := le64 (zlength bs) ++ flat_map (fun b => le32 (fst b) ++ snd b) bs.
(** a reader must accept this *)
Definition portable_format64 (P : zset) (out : list Z) : Prop := exists bs, buckets_ok P bs /\ out = bucket_bytes bs.
(** a writer emits no empty bucket *)
Definition compact_format64 (P : zset) (out : list Z) : Prop := exists bs, buckets_ok P bs /\ out = bucket_bytes bs /\ Forall (fun b => inhabited_half P (fst b)) bs.
