(** Hist: histories of API calls on any number of bitmaps refine histories of
    set operations. *)
From Coq Require Import ZArith List Bool Lia.
From Verif Require Import Base Convert Containers RArray RBinary RPoint RRange RQuery RStat RShift Bytes Serial Heap Spec Obs DerivedS.
Import ListNotations.
Local Open Scope Z_scope.
Local Opaque zr.

(** The choices the API hides: which containers are shared with another bitmap
    (copy on write) and the spare capacity of the array containers, per key. *)
Record oracle := { osh : Z -> bool; ocap : Z -> Z }.
Definition heap := nat -> bitmap.
(** iterations granted to the loop of roaring_bitmap_from_range *)
Definition range_fuel : nat := Z.to_nat 70000.

(** Write a bitmap into a zeroed buffer of the announced size, then read it back
    from that buffer with the bounded reader: roaring_bitmap_portable_size_in_bytes,
    _portable_serialize, _portable_deserialize_safe (roaring.c:1498-1537) and the native
    roaring_bitmap_size_in_bytes, _serialize, _deserialize_safe (roaring.c:1474-1609).
    This is the calling sequence the API documents, not one C function. *)
Definition reload_portable (r : bitmap) : res bitmap :=
  match roaring_bitmap_portable_serialize r (repeat 0 (Z.to_nat (roaring_bitmap_portable_size_in_bytes r))) with
  | Some (out, n) => roaring_bitmap_portable_deserialize_safe out n
  | None => UB
  end.
Definition reload_native (r : bitmap) : res bitmap :=
  match roaring_bitmap_serialize r (repeat 0 (Z.to_nat (roaring_bitmap_size_in_bytes r))) with
  | Some (out, n) => roaring_bitmap_deserialize_safe out n
  | None => UB
  end.
Lemma zeros_len n : 0 <= n -> len (repeat 0 (Z.to_nat n)) = n.
Proof. intros H. rewrite repeat_length. lia. Qed.
Lemma den_reload_portable r P : denotes r P -> exists r', reload_portable r = Ok r' /\ denotes r' P.
Proof.
  intros D. destruct (s_portable r P D) as (out&_&L&W&R&_). unfold reload_portable.
  rewrite W by (rewrite zeros_len; lia). rewrite skipn_all2 by (rewrite repeat_length; lia). apply R. lia.
Qed.
Lemma den_reload_native r P : denotes r P -> exists r', reload_native r = Ok r' /\ denotes r' P.
Proof.
  intros D. destruct (s_native r P D) as (out&_&L&W&R&_). unfold reload_native.
  rewrite W by (rewrite zeros_len; lia). rewrite skipn_all2 by (rewrite repeat_length; lia). apply R; [constructor|]. rewrite app_nil_r. lia.
Qed.

(** One API call on the registers.  Each case is the modelled C function of the
    same name; roaring_bitmap_create (roaring.h:74), roaring_bitmap_copy
    (roaring.c:492-510) and roaring_bitmap_clear (roaring.c:529-531) are the
    empty bitmap, the same entries and the empty bitmap. *)
Definition step (c : cmd) (o : oracle) (st : heap) : heap * out :=
  let sh := osh o in let cap := ocap o in
  match c with
  | KNew d => (put st d [], RNone)
  | KOf d vals => (put st d (roaring_bitmap_of_ptr vals), RNone)
  | KFromRange d lo hi s =>
      (match roaring_bitmap_from_range range_fuel lo hi s with Some (Some r) => put st d r | _ => st end, RNone)
  | KCopy d s => (put st d (st s), RNone)
  | KAdd d v => (put st d (roaring_bitmap_add (st d) v), RNone)
  | KAddChecked d v => let '(r, b) := roaring_bitmap_add_checked (st d) v in (put st d r, RBool b)
  | KRemove d v => (put st d (roaring_bitmap_remove (st d) v), RNone)
  | KRemoveChecked d v => let '(r, b) := roaring_bitmap_remove_checked (st d) v in (put st d r, RBool b)
  | KAddMany d vals => (put st d (roaring_bitmap_add_many (st d) vals), RNone)
  | KRemoveMany d vals => (put st d (roaring_bitmap_remove_many (st d) vals), RNone)
  | KAddRange d a b => (put st d (roaring_bitmap_add_range (st d) a b), RNone)
  | KAddRangeClosed d a b => (put st d (roaring_bitmap_add_range_closed (st d) a b), RNone)
  | KRemoveRange d a b => (put st d (roaring_bitmap_remove_range (st d) a b), RNone)
  | KRemoveRangeClosed d a b => (put st d (roaring_bitmap_remove_range_closed (st d) a b), RNone)
  | KFlipInplace d a b => (put st d (roaring_bitmap_flip_inplace cap (st d) a b), RNone)
  | KFlipInplaceClosed d a b => (put st d (roaring_bitmap_flip_inplace_closed cap (st d) a b), RNone)
  | KClear d => (put st d [], RNone)
  | KRunOptimize d => let '(r, b) := roaring_bitmap_run_optimize (st d) in (put st d r, RBool b)
  | KRemoveRunCompression d => let '(r, b) := roaring_bitmap_remove_run_compression (st d) in (put st d r, RBool b)
  | KFlip d s a b => (put st d (roaring_bitmap_flip (st s) a b), RNone)
  | KFlipClosed d s a b => (put st d (roaring_bitmap_flip_closed (st s) a b), RNone)
  | KAnd d s t => (put st d (roaring_bitmap_and (st s) (st t)), RNone)
  | KOr d s t => (put st d (roaring_bitmap_or (st s) (st t)), RNone)
  | KXor d s t => (put st d (roaring_bitmap_xor (st s) (st t)), RNone)
  | KAndnot d s t => (put st d (roaring_bitmap_andnot (st s) (st t)), RNone)
  | KOrMany d ss => (put st d (roaring_bitmap_or_many cap (map st ss)), RNone)
  | KOrManyHeap d ss => (put st d (roaring_bitmap_or_many_heap cap (map st ss)), RNone)
  | KXorMany d ss => (put st d (roaring_bitmap_xor_many sh (map st ss)), RNone)
  | KAddOffset d s off => (put st d (roaring_bitmap_add_offset cap (st s) off), RNone)
  | KReloadPortable d s => (match reload_portable (st s) with Ok r => put st d r | _ => st end, RNone)
  | KReloadNative d s => (match reload_native (st s) with Ok r => put st d r | _ => st end, RNone)
  | KAndInplace d s => (put st d (roaring_bitmap_and_inplace (Nat.eqb d s) sh (st d) (st s)), RNone)
  | KOrInplace d s => (put st d (roaring_bitmap_or_inplace sh cap (st d) (st s)), RNone)
  | KXorInplace d s => (put st d (roaring_bitmap_xor_inplace sh (st d) (st s)), RNone)
  | KAndnotInplace d s => (put st d (roaring_bitmap_andnot_inplace sh (st d) (st s)), RNone)
  | QContains s v => (st, RBool (roaring_bitmap_contains (st s) v))
  | QContainsRange s a b => (st, RBool (roaring_bitmap_contains_range (st s) a b))
  | QCardinality s => (st, RNum (roaring_bitmap_get_cardinality (st s)))
  | QRangeCardinality s a b => (st, RNum (roaring_bitmap_range_cardinality (st s) a b))
  | QIsEmpty s => (st, RBool (roaring_bitmap_is_empty (st s)))
  | QEquals s t => (st, RBool (roaring_bitmap_equals (st s) (st t)))
  | QSubset s t => (st, RBool (roaring_bitmap_is_subset (st s) (st t)))
  | QStrictSubset s t => (st, RBool (roaring_bitmap_is_strict_subset (st s) (st t)))
  | QIntersect s t => (st, RBool (roaring_bitmap_intersect (st s) (st t)))
  | QAndCardinality s t => (st, RNum (roaring_bitmap_and_cardinality (st s) (st t)))
  | QOrCardinality s t => (st, RNum (roaring_bitmap_or_cardinality (st s) (st t)))
  | QXorCardinality s t => (st, RNum (roaring_bitmap_xor_cardinality (st s) (st t)))
  | QAndnotCardinality s t => (st, RNum (roaring_bitmap_andnot_cardinality (st s) (st t)))
  | QRank s v => (st, RNum (roaring_bitmap_rank (st s) v))
  | QGetIndex s v => (st, RNum (roaring_bitmap_get_index (st s) v))
  | QSelect s k => (st, ROpt (roaring_bitmap_select (st s) k))
  | QMinimum s => (st, RNum (roaring_bitmap_minimum (st s)))
  | QMaximum s => (st, RNum (roaring_bitmap_maximum (st s)))
  | QToArray s => (st, RList (roaring_bitmap_to_uint32_array (st s)))
  | QValidate s => (st, RBool (roaring_bitmap_internal_validate (st s)))
  end.
Fixpoint exec (tr : list (cmd * oracle)) (st : heap) : heap * list out :=
  match tr with
  | [] => (st, [])
  | (c, o) :: tr' => let '(st1, a) := step c o st in let '(st2, l) := exec tr' st1 in (st2, a :: l)
  end.
Definition empty_heap : heap := fun _ => [].
Definition empty_regs : regs := fun _ => zempty.

Definition refines (st : heap) (S : regs) : Prop := forall i, denotes (st i) (S i).
Lemma refines_put st S d r P : refines st S -> denotes r P -> refines (put st d r) (put S d P).
Proof. intros R D i. unfold put. destruct (Nat.eqb i d); auto. Qed.
Lemma den_all_map st S ss : refines st S -> den_all (map st ss) (map S ss).
Proof. intros R. induction ss; cbn; constructor; auto. Qed.
Lemma existsb_map_fun (S : regs) ss v : existsb (fun P : zset => P v) (map S ss) = existsb (fun s => S s v) ss.
Proof. induction ss; cbn; auto. now rewrite IHss. Qed.
Lemma fold_xor_map (S : regs) ss v b : fold_left (fun b (P : zset) => xorb b (P v)) (map S ss) b = fold_left (fun b s => xorb b (S s v)) ss b.
Proof. revert b. induction ss; cbn; auto. Qed.
Lemma fuel_enough : 70000 <= Z.of_nat range_fuel. Proof. unfold range_fuel. lia. Qed.

Theorem step_refines c o st S : refines st S -> cmd_ok c S -> refines (fst (step c o st)) (spec_step c S) /\ spec_out c S (snd (step c o st)).
Proof.
  intros R K. destruct c; cbn [cmd_ok] in K; cbn [step spec_step spec_out];
    try (cbn [fst snd]; split; [apply refines_put; auto|reflexivity]).
  - apply den_new.
  - now apply den_of_ptr.
  - cbn [fst snd]. split; [|reflexivity]. destruct (den_from_range range_fuel lo hi step0) as (r&E&D); try lia; [apply fuel_enough|].
    rewrite E. now apply refines_put.
  - now apply den_add.
  - pose proof (den_add_checked (st d) (S d) v (R d) K) as [D E]. destruct (roaring_bitmap_add_checked (st d) v) as [r b]. cbn [fst snd] in *.
    split; [now apply refines_put|]. now rewrite E.
  - now apply den_remove.
  - pose proof (den_remove_checked (st d) (S d) v (R d) K) as [D E]. destruct (roaring_bitmap_remove_checked (st d) v) as [r b]. cbn [fst snd] in *.
    split; [now apply refines_put|]. now rewrite E.
  - now apply den_add_many.
  - now apply den_remove_many.
  - now apply den_add_range.
  - now apply den_add_range_closed.
  - now apply den_remove_range.
  - now apply den_remove_range_closed.
  - now apply den_flip_inplace.
  - now apply den_flip_inplace_closed.
  - apply den_new.
  - pose proof (den_run_optimize (st d) (S d) (R d)) as D. destruct (roaring_bitmap_run_optimize (st d)) as [r b]. cbn [fst snd] in *.
    split; [|now exists b]. intros i. unfold put. destruct (Nat.eqb_spec i d); [now subst|apply R].
  - pose proof (den_remove_run_compression (st d) (S d) (R d)) as D. destruct (roaring_bitmap_remove_run_compression (st d)) as [r b]. cbn [fst snd] in *.
    split; [|now exists b]. intros i. unfold put. destruct (Nat.eqb_spec i d); [now subst|apply R].
  - now apply den_flip.
  - now apply den_flip_closed.
  - now apply den_and.
  - now apply den_or.
  - now apply den_xor.
  - now apply den_andnot.
  - eapply den_ext; [apply den_or_many, den_all_map; eauto|]. intros v _. apply existsb_map_fun.
  - eapply den_ext; [apply den_or_many_heap, den_all_map; eauto|]. intros v _. apply existsb_map_fun.
  - eapply den_ext; [apply den_xor_many, den_all_map; eauto|]. intros v _. apply fold_xor_map.
  - now apply den_add_offset.
  - cbn [fst snd]. split; [|reflexivity]. destruct (den_reload_portable (st s) (S s) (R s)) as (r&E&D). rewrite E. now apply refines_put.
  - cbn [fst snd]. split; [|reflexivity]. destruct (den_reload_native (st s) (S s) (R s)) as (r&E&D). rewrite E. now apply refines_put.
  - apply den_and_inplace; auto. intros E. apply Nat.eqb_eq in E. now subst.
  - now apply den_or_inplace.
  - now apply den_xor_inplace.
  - now apply den_andnot_inplace.
  - split; auto. cbn [snd]. f_equal. now apply q_contains.
  - split; auto. cbn [snd]. eexists. split; [reflexivity|]. now apply q_contains_range.
  - split; auto. cbn [snd]. eexists. split; [reflexivity|]. now apply q_card.
  - split; auto. cbn [snd]. eexists. split; [reflexivity|]. now apply q_range_card.
  - split; auto. cbn [snd]. eexists. split; [reflexivity|]. now apply q_is_empty.
  - split; auto. cbn [snd]. eexists. split; [reflexivity|]. now apply q_equals.
  - split; auto. cbn [snd]. eexists. split; [reflexivity|]. now apply q_subset.
  - split; auto. cbn [snd]. eexists. split; [reflexivity|]. now apply q_strict_subset.
  - split; auto. cbn [snd]. eexists. split; [reflexivity|]. now apply q_intersect.
  - split; auto. cbn [snd]. eexists. split; [reflexivity|]. now apply q_and_card.
  - split; auto. cbn [snd]. eexists. split; [reflexivity|]. now apply q_or_card.
  - split; auto. cbn [snd]. eexists. split; [reflexivity|]. now apply q_xor_card.
  - split; auto. cbn [snd]. eexists. split; [reflexivity|]. now apply q_andnot_card.
  - split; auto. cbn [snd]. eexists. split; [reflexivity|]. now apply q_rank.
  - split; auto. cbn [snd]. eexists. split; [reflexivity|]. now apply q_get_index.
  - destruct K as [K1 K2]. split; auto. cbn [snd]. eexists. split; [reflexivity|]. apply (q_select (st s) (S s) k); auto. apply (den_select_ok (st s) (S s)); auto.
  - split; auto. cbn [snd]. eexists. split; [reflexivity|]. now apply q_minimum.
  - split; auto. cbn [snd]. eexists. split; [reflexivity|]. now apply q_maximum.
  - split; auto. cbn [snd]. eexists. split; [reflexivity|]. now apply q_to_array.
  - split; auto. cbn [snd]. f_equal. apply (R s).
Qed.

Theorem exec_refines tr st S : refines st S -> legal (map fst tr) S ->
  refines (fst (exec tr st)) (spec_run (map fst tr) S) /\ agrees (map fst tr) S (snd (exec tr st)).
Proof.
  revert st S. induction tr as [|[c o] tr IH]; intros st S R L; cbn [exec map fst legal spec_run agrees] in *; auto.
  destruct L as [K L]. destruct (step_refines c o st S R K) as [R1 A]. destruct (step c o st) as [st1 a]. cbn [fst snd] in *.
  destruct (IH st1 (spec_step c S) R1 L) as [R2 G]. destruct (exec tr st1) as [st2 l]. cbn [fst snd] in *. auto.
Qed.
Lemma empty_refines : refines empty_heap empty_regs. Proof. intros i. apply den_new. Qed.
