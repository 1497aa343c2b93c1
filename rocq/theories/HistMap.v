(** HistMap: histories of calls on C++ 64-bit maps refine the machine of SpecMap. *)
From Coq Require Import ZArith List Bool Lia Sorting.Sorted.
From Verif Require Import Base ArrayUtil BitUtil BitsetC ArrayC RunC RunD Convert Containers RArray RBinary RPoint RRange RQuery Iter Bytes Serial Spec SpecI Spec64 SpecMap FormatSpec64 Obs Derived Map64 Map64P Map64A Map64Q Map64C Map64I Map64S Map64T.
From Verif Require IterP DerivedI Hist64 SerialP ArtM.
Import ListNotations.
Local Open Scope Z_scope.
Local Opaque zr.

(** ** What a map stands for: keys in order and in range, valid 32-bit bitmaps, and contains *)
Definition denotesN (m : rmap) (P : zset) : Prop :=
  StronglySorted Z.lt (map fst m) /\ (forall k b, In (k, b) m -> 0 <= k < 2^32 /\ valid b) /\ forall v, val64 v -> map_contains m v = P v.
Lemma denotesN_iff m P : denotesN m P <-> mden m P.
Proof.
  split.
  - intros (A & B & C). apply mden_of; auto.
    + split; [now apply ArtM.incr_SS|]. intros k K. apply in_map_iff in K as ([j b] & <- & I). now apply (B j b).
    + intros k b F. apply mfind_In in F. now apply (B k b).
  - intros H. split; [apply ArtM.incr_SS, H|]. split; [|intros v V; now apply mden_contains]. intros k b I. destruct (mden_found m P k b H) as (K & D).
    + apply In_mfind; auto. apply H.
    + split; [exact K|apply D].
Qed.

(** ** Execution.  [sh] and [cap] are the sharing and capacity choices of the operation; None is
    undefined behaviour or failure. *)
Definition heapN := nat -> rmap.
Definition nput (st : heapN) (d : nat) (o : option rmap) : option (heapN * out) := match o with Some r => Some (put st d r, RNone) | None => None end.
Definition nput2 (st : heapN) (d : nat) (r : rmap * bool) : option (heapN * out) := Some (put st d (fst r), RBool (snd r)).
Definition nask {A} (st : heapN) (f : A -> out) (o : option A) : option (heapN * out) := match o with Some a => Some (st, f a) | None => None end.
Definition ok_res {A} (r : res A) : option A := match r with Ok a => Some a | _ => None end.
(** write into a buffer of getSizeInBytes() bytes *)
Definition image (m : rmap) : option (list Z) :=
  match map_write true m (repeat 0 (Z.to_nat (map_getSizeInBytes true m))) with Some (buf, _) => Some buf | None => None end.
Definition stepN (c : ncmd) (sh : Z -> bool) (cap : Z -> Z) (st : heapN) : option (heapN * out) :=
  match c with
  | NNew d => nput st d (Some map_new)
  | NOf d vals => nput st d (Some (map_bitmapOf vals))
  | NOfList d vals => nput st d (Some (map_bitmapOfList vals))
  | NOf32 d vals => nput st d (Some (map_of_roaring (roaring_bitmap_of_ptr vals)))
  | NCopy d s => nput st d (Some (st s))
  | NSwap d s => Some (put (put st d (st s)) s (st d), RNone)
  | NClear d => nput st d (Some (map_clear (st d)))
  | NAdd d v => nput st d (Some (map_add (st d) v))
  | NAdd32 d v => nput st d (Some (map_add32 (st d) v))
  | NAddChecked d v => nput2 st d (map_addChecked (st d) v)
  | NAddChecked32 d v => nput2 st d (map_addChecked32 (st d) v)
  | NRemove d v => nput st d (Some (map_remove (st d) v))
  | NRemove32 d v => nput st d (Some (map_remove32 (st d) v))
  | NRemoveChecked d v => nput2 st d (map_removeChecked (st d) v)
  | NRemoveChecked32 d v => nput2 st d (map_removeChecked32 (st d) v)
  | NAddMany d vals => nput st d (Some (map_addMany (st d) vals))
  | NAddMany32 d vals => nput st d (Some (map_addMany32 (st d) vals))
  | NAddRange d a b => nput st d (map_addRange (st d) a b)
  | NAddRangeClosed d a b => nput st d (map_addRangeClosed (st d) a b)
  | NAddRangeClosed32 d a b => nput st d (Some (map_addRangeClosed32 (st d) a b))
  | NRemoveRange d a b => nput st d (map_removeRange (st d) a b)
  | NRemoveRangeClosed d a b => nput st d (map_removeRangeClosed (st d) a b)
  | NRemoveRangeClosed32 d a b => nput st d (Some (map_removeRangeClosed32 (st d) a b))
  | NFlip d a b => nput st d (map_flip cap (st d) a b)
  | NFlipClosed d a b => nput st d (map_flipClosed cap (st d) a b)
  | NFlipClosed32 d a b => nput st d (Some (map_flipClosed32 cap (st d) a b))
  | NAnd d s t => nput st d (Some (map_and sh (st s) (st t)))
  | NOr d s t => nput st d (Some (map_or sh cap (st s) (st t)))
  | NXor d s t => nput st d (Some (map_xor sh (st s) (st t)))
  | NAndnot d s t => nput st d (map_andnot sh (st s) (st t))
  | NAndInplace d s => nput st d (Some (map_and_inplace sh (Nat.eqb d s) (st d) (st s)))
  | NOrInplace d s => nput st d (Some (map_or_inplace sh cap (Nat.eqb d s) (st d) (st s)))
  | NXorInplace d s => nput st d (Some (map_xor_inplace sh (Nat.eqb d s) (st d) (st s)))
  | NAndnotInplace d s => nput st d (map_andnot_inplace sh (Nat.eqb d s) (st d) (st s))
  | NFastUnion d ss => nput st d (Some (map_fastunion cap (map st ss)))
  | NRunOptimize d => nput2 st d (map_runOptimize (st d))
  | NRemoveRunCompression d => nput2 st d (map_removeRunCompression (st d))
  | NShrinkToFit d => nput st d (Some (map_shrinkToFit (st d)))
  | NReload d s => nput st d (let! buf := image (st s) in ok_res (map_read true buf))
  | NContains s v => nask st RBool (Some (map_contains (st s) v))
  | NContains32 s v => nask st RBool (Some (map_contains32 (st s) v))
  | NCardinality s => nask st ROpt (Some (map_cardinality (st s)))
  | NIsEmpty s => nask st RBool (Some (map_isEmpty (st s)))
  | NIsFull s => nask st RBool (Some (map_isFull (st s)))
  | NEquals s t => nask st RBool (map_equals (st s) (st t))
  | NSubset s t => nask st RBool (Some (map_isSubset (st s) (st t)))
  | NStrictSubset s t => nask st RBool (map_isStrictSubset (st s) (st t))
  | NRank s v => nask st RNum (Some (map_rank (st s) v))
  | NGetIndex s v => nask st RNum (map_getIndex (st s) v)
  | NSelect s k => nask st ROpt (ok_res (map_select (st s) k))
  | NMinimum s => nask st RNum (Some (map_minimum (st s)))
  | NMaximum s => nask st RNum (Some (map_maximum (st s)))
  | NToArray s => nask st RList (map_toUint64Array (st s))
  end.
Fixpoint execN (tr : list (ncmd * ((Z -> bool) * (Z -> Z)))) (st : heapN) : option (heapN * list out) :=
  match tr with
  | [] => Some (st, [])
  | (c, (sh, cap)) :: tr' =>
    match stepN c sh cap st with
    | Some (st1, a) => match execN tr' st1 with Some (st2, l) => Some (st2, a :: l) | None => None end
    | None => None
    end
  end.
Definition empty_heapN : heapN := fun _ => map_new.
Definition nholds (st : heapN) (S : regs) : Prop := forall i, mden (st i) (S i).
Lemma nholds_put st S d r P : nholds st S -> mden r P -> nholds (put st d r) (put S d P).
Proof. intros H D i. unfold put. destruct (Nat.eqb i d); auto. Qed.
Definition ngood (st : option (heapN * out)) (S : regs) (A : out -> Prop) : Prop := exists st1 o, st = Some (st1, o) /\ nholds st1 S /\ A o.
Lemma ngood_put st S d r P : nholds st S -> mden r P -> ngood (nput st d (Some r)) (put S d P) (fun o => o = RNone).
Proof. intros H D. exists (put st d r), RNone. split; auto. split; auto. now apply nholds_put. Qed.
Lemma ngood_puto st S d o P : nholds st S -> (exists r, o = Some r /\ mden r P) -> ngood (nput st d o) (put S d P) (fun o => o = RNone).
Proof. intros H (r & -> & D). now apply ngood_put. Qed.
Lemma ngood_put2 st S d r P (A : out -> Prop) : nholds st S -> mden (fst r) P /\ A (RBool (snd r)) -> ngood (nput2 st d r) (put S d P) A.
Proof. intros H (D & X). exists (put st d (fst r)), (RBool (snd r)). split; auto. split; auto. now apply nholds_put. Qed.
Lemma ngood_ask {B} st S (f : B -> out) (o : option B) (A : out -> Prop) : nholds st S -> (exists a, o = Some a /\ A (f a)) -> ngood (nask st f o) S A.
Proof. intros H (a & -> & X). exists st, (f a). auto. Qed.
Lemma image_bytes m : mokm m -> image m = Some (le 8 (zlen m) ++ gbytes m).
Proof.
  intros O. unfold image. assert (E : zlen (repeat 0 (Z.to_nat (map_getSizeInBytes true m))) = map_getSizeInBytes true m).
  { unfold zlen. rewrite repeat_length. rewrite size_bytes by auto. pose proof (zlen_nonneg (ebytes true m)). lia. }
  rewrite write_bytes by (auto; lia). f_equal. change (ebytes true m) with (gbytes m). rewrite skipn_all2; [now rewrite app_nil_r|]. revert E. rewrite size_bytes by auto. change (ebytes true m) with (gbytes m). unfold zlen. rewrite app_length, le_length. lia.
Qed.
Lemma reload m P : mden m P -> exists m', (let! buf := image m in ok_res (map_read true buf)) = Some m' /\ mden m' P /\ map fst m' = map fst m.
Proof.
  intros H. rewrite image_bytes by (eapply mokm_of; eauto). cbn [obind]. destruct (read_portable m P [] H) as (m' & E & D & F); [constructor|]. rewrite app_nil_r in E. exists m'. split; auto. rewrite E. reflexivity.
Qed.
Lemma zlist_in v l : zlist l v = true <-> In v l.
Proof. unfold zlist. rewrite existsb_exists. split; [intros (x & I & E); apply Z.eqb_eq in E; now subst|intros I; exists v; split; auto; apply Z.eqb_refl]. Qed.
Lemma Forall2_regs st S ss : nholds st S -> Forall2 mden (map st ss) (map S ss).
Proof. intros H. induction ss; constructor; auto. Qed.
Lemma stepN_holds c sh cap st S : nholds st S -> ncmd_ok c S -> ngood (stepN c sh cap st) (spec_stepN c S) (spec_outN c S).
Proof.
  intros H K. assert (W : forall i, mwf (st i)) by (intros i; apply (H i)). destruct c; cbn [ncmd_ok] in K; cbn [stepN spec_stepN spec_outN].
  - apply ngood_put; auto. apply mden_nil.
  - apply ngood_put; auto. unfold map_bitmapOf. eapply mden_ext; [apply mden_fold_add; [apply mden_nil|exact K]|]. intros v _. reflexivity.
  - apply ngood_put; auto. unfold map_bitmapOfList. eapply mden_ext; [apply mden_addMany; [apply mden_nil|exact K]|]. intros v _. reflexivity.
  - apply ngood_put; auto. eapply mden_ext; [apply mden_map_of_roaring, den_of_ptr, K|]. intros v _. cbv beta. destruct (zlist vals v) eqn:E; [|apply andb_false_r]. apply zlist_in in E. apply K in E. unfold val32 in E. rewrite andb_true_r. lia.
  - apply ngood_put; auto.
  - eexists _, _. split; [reflexivity|]. split; [|reflexivity]. apply nholds_put; auto. apply nholds_put; auto.
  - apply ngood_put; auto. apply mden_nil.
  - apply ngood_put; auto. now apply mden_add.
  - apply ngood_put; auto. rewrite add32_eq by auto. apply mden_add; auto. now apply low_split.
  - apply ngood_put2; auto. destruct (mden_add_checked (st d) (S d) v (H d) K) as (D & ->). split; [exact D|reflexivity].
  - apply ngood_put2; auto. rewrite add_checked32_eq by auto. destruct (mden_add_checked (st d) (S d) v (H d)) as (D & ->); [now apply low_split|]. split; [exact D|reflexivity].
  - apply ngood_put; auto. now apply mden_remove.
  - apply ngood_put; auto. rewrite remove32_eq by auto. apply mden_remove; auto. now apply low_split.
  - apply ngood_put2; auto. destruct (mden_remove_checked (st d) (S d) v (H d) K) as (D & ->). split; [exact D|reflexivity].
  - apply ngood_put2; auto. rewrite remove_checked32_eq by auto. destruct (mden_remove_checked (st d) (S d) v (H d)) as (D & ->); [now apply low_split|]. split; [exact D|reflexivity].
  - apply ngood_put; auto. now apply mden_addMany.
  - apply ngood_put; auto. now apply mden_addMany32.
  - apply ngood_puto; auto. now apply mden_addRange.
  - apply ngood_puto; auto. now apply mden_add_range.
  - apply ngood_put; auto. now apply mden_add_range32.
  - apply ngood_puto; auto. now apply mden_removeRange.
  - apply ngood_puto; auto. now apply mden_remove_range.
  - apply ngood_put; auto. now apply mden_remove_range32.
  - apply ngood_puto; auto. now apply mden_flip.
  - apply ngood_puto; auto. now apply mden_flip_closed.
  - apply ngood_put; auto. now apply mden_flip32.
  - apply ngood_put; auto. apply mden_and; auto. discriminate.
  - apply ngood_put; auto. apply mden_or; auto. discriminate.
  - apply ngood_put; auto. apply mden_xor; auto. discriminate.
  - apply ngood_puto; auto. apply mden_andnot; auto. discriminate.
  - apply ngood_put; auto. apply mden_and; auto. intros E. apply Nat.eqb_eq in E. now subst.
  - apply ngood_put; auto. apply mden_or; auto. intros E. apply Nat.eqb_eq in E. now subst.
  - apply ngood_put; auto. apply mden_xor; auto. intros E. apply Nat.eqb_eq in E. now subst.
  - apply ngood_puto; auto. apply mden_andnot; auto. intros E. apply Nat.eqb_eq in E. now subst.
  - apply ngood_put; auto. eapply mden_ext; [apply mden_fastunion, Forall2_regs, H|]. intros v _. cbv beta. clear. induction ss as [|i ss IH]; [reflexivity|]. cbn [map existsb]. now rewrite IH.
  - eexists _, _. split; [reflexivity|]. split; [|eexists; reflexivity]. intros i. unfold put. destruct (Nat.eqb_spec i d); [subst; now apply mden_runOptimize|apply H].
  - eexists _, _. split; [reflexivity|]. split; [|eexists; reflexivity]. intros i. unfold put. destruct (Nat.eqb_spec i d); [subst; now apply mden_removeRunCompression|apply H].
  - eexists _, _. split; [reflexivity|]. split; [|reflexivity]. intros i. unfold put. destruct (Nat.eqb_spec i d); [subst; now apply mden_shrinkToFit|apply H].
  - apply ngood_puto; auto. destruct (reload (st s) (S s) (H s)) as (m' & E & D & _). eauto.
  - apply ngood_ask; auto. eexists. split; [reflexivity|]. apply f_equal. now apply mden_contains.
  - apply ngood_ask; auto. eexists. split; [reflexivity|]. apply f_equal. now apply mden_contains32.
  - apply ngood_ask; auto. eexists. split; [reflexivity|]. eexists. split; [reflexivity|]. now apply cardinality_spec.
  - apply ngood_ask; auto. eexists. split; [reflexivity|]. eexists. split; [reflexivity|]. now apply is_empty_spec.
  - apply ngood_ask; auto. eexists. split; [reflexivity|]. eexists. split; [reflexivity|]. now apply isFull_spec.
  - apply ngood_ask; auto. destruct (equals_spec _ _ _ _ (H s) (H t)) as (b & E & X). exists b. split; auto. eexists. split; [reflexivity|]. exact X.
  - apply ngood_ask; auto. eexists. split; [reflexivity|]. eexists. split; [reflexivity|]. now apply is_subset_spec.
  - apply ngood_ask; auto. destruct (isStrictSubset_spec _ _ _ _ (H s) (H t) K) as (b & E & X). exists b. split; auto. eexists. split; [reflexivity|]. rewrite X.
    unfold zsubset64. split; intros (A & B); (split; [exact A|]); intros Q; apply B.
    + intros v V. destruct (S s v) eqn:E1, (S t v) eqn:E2; auto; [specialize (A v V E1); congruence|specialize (Q v V E2); congruence].
    + intros v V T. now rewrite (Q v V).
  - apply ngood_ask; auto. eexists. split; [reflexivity|]. eexists. split; [reflexivity|]. now apply rank_spec.
  - destruct K as (K1 & K2). apply ngood_ask; auto. destruct (getIndex_spec (st s) (S s) v (H s) K1) as (i & E & X).
    + specialize (K2 (cnt (S s) 0 v)). apply K2. apply Hist64.has_card64_cnt. unfold val64 in K1. now rewrite Hist64.cnt_window by lia.
    + exists i. split; auto. eexists. split; [reflexivity|]. exact X.
  - destruct K as (K1 & K2). apply ngood_ask; auto. pose proof (mden_select (st s) (S s) k (H s) K2 K1) as X. destruct (map_select (st s) k) as [| |o]; try contradiction. exists o. split; [reflexivity|]. eexists. split; [reflexivity|]. exact X.
  - apply ngood_ask; auto. eexists. split; [reflexivity|]. eexists. split; [reflexivity|]. now apply minimum_spec.
  - apply ngood_ask; auto. eexists. split; [reflexivity|]. eexists. split; [reflexivity|]. now apply maximum_spec.
  - apply ngood_ask; auto. eexists. split; [apply toUint64Array_spec; eapply mokm_of; eauto|]. eexists. split; [reflexivity|]. now apply elems64_lists.
Qed.
Theorem execN_holds tr : forall st S, nholds st S -> legalN (map fst tr) S -> exists st1 outs, execN tr st = Some (st1, outs) /\ nholds st1 (spec_runN (map fst tr) S) /\ agreesN (map fst tr) S outs.
Proof.
  induction tr as [|[c [sh cap]] tr IH]; intros st S H L; cbn [execN map fst legalN spec_runN agreesN] in *.
  - exists st, []. auto.
  - destruct L as (K & L). destruct (stepN_holds c sh cap st S H K) as (st1 & a & -> & H1 & A). destruct (IH st1 _ H1 L) as (st2 & l & -> & H2 & G). exists st2, (a :: l). auto.
Qed.
Lemma empty_nholds : nholds empty_heapN (fun _ => zempty).
Proof. intros i. apply mden_nil. Qed.

(** ** No empty inner bitmaps above key 0 *)
Definition all_tight (st : heapN) : Prop := forall i, tight (st i).
Lemma tight_putN st d r : all_tight st -> tight r -> all_tight (put st d r).
Proof. intros A T i. unfold put. destruct (Nat.eqb i d); auto. Qed.
Lemma nput_tight st d o st1 a : all_tight st -> (forall r, o = Some r -> tight r) -> nput st d o = Some (st1, a) -> all_tight st1.
Proof. intros A T E. unfold nput in E. destruct o as [r|]; [|discriminate]. injection E as <- _. apply tight_putN; auto. Qed.
Lemma nput2_tight st d r st1 a : all_tight st -> tight (fst r) -> nput2 st d r = Some (st1, a) -> all_tight st1.
Proof. intros A T E. unfold nput2 in E. injection E as <- _. now apply tight_putN. Qed.
Lemma nask_tight {B} st (f : B -> out) o st1 a : all_tight st -> nask st f o = Some (st1, a) -> all_tight st1.
Proof. intros A E. unfold nask in E. destruct o; [|discriminate]. injection E as <- _. exact A. Qed.
Lemma put1_tight st d r st1 a : all_tight st -> tight r -> nput st d (Some r) = Some (st1, a) -> all_tight st1.
Proof. intros A T. apply nput_tight; auto. intros x E. assert (r = x) by congruence. now subst. Qed.
Lemma of_roaring_tight r : tight (map_of_roaring r).
Proof. unfold map_of_roaring, memplace. cbn [mfind mput]. intros k K. cbn [mfind]. replace (k =? 0) with false by lia. discriminate. Qed.
Lemma stepN_tight c sh cap st S st1 o : nholds st S -> ncmd_ok c S -> all_tight st -> stepN c sh cap st = Some (st1, o) -> all_tight st1.
Proof.
  intros H K A. assert (W : forall i, mwf (st i)) by (intros i; apply (H i)). assert (SS : forall i, msorted (st i)) by (intros i; apply (W i)).
  destruct c; cbn [ncmd_ok] in K; cbn [stepN]; try apply (nask_tight _ _ _ _ _ A); try (eapply put1_tight; [exact A|]); try (eapply nput2_tight; [exact A|]); try (eapply nput_tight; [exact A|]).
  - apply tight_nil.
  - apply (tight_fold_add vals [] zempty); auto using mden_nil, tight_nil.
  - apply (tight_addMany [] zempty); auto using mden_nil, tight_nil.
  - apply of_roaring_tight.
  - apply A.
  - intros E. injection E as <- _. apply tight_putN; [apply tight_putN|]; auto.
  - apply tight_nil.
  - apply (tight_add _ (S d)); auto.
  - rewrite add32_eq by auto. apply (tight_add _ (S d)); auto. now apply low_split.
  - apply (tight_addChecked _ (S d)); auto.
  - rewrite add_checked32_eq by auto. apply (tight_addChecked _ (S d)); auto. now apply low_split.
  - apply tight_remove; auto.
  - rewrite remove32_eq by auto. apply tight_remove; auto.
  - apply (tight_removeChecked _ (S d)); auto.
  - rewrite remove_checked32_eq by auto. apply (tight_removeChecked _ (S d)); auto. now apply low_split.
  - apply (tight_addMany _ (S d)); auto.
  - apply tight_at0; auto.
  - intros r E. apply (tight_addRange _ (S d) _ _ r (H d) (proj1 K) (proj2 K) E); auto.
  - intros r E. apply (tight_add_range _ (S d) _ _ r (H d) (proj1 K) (proj2 K) E); auto.
  - apply tight_at0; auto.
  - intros r E. eapply sub_tight; [eapply removeRange_sub; eauto|auto].
  - intros r E. eapply sub_tight; [eapply remove_range_sub; eauto|auto].
  - eapply sub_tight; [apply remove_range32_sub; auto|auto].
  - intros r E. apply (tight_flip _ _ _ _ r (W d) (proj1 K) (proj2 K) E); auto.
  - intros r E. apply (tight_flip_closed _ _ _ _ r (W d) (proj1 K) (proj2 K) E); auto.
  - apply tight_flip32; auto.
  - apply and_tight; auto.
  - apply (or_tight _ _ _ _ _ (S s) (S t)); auto. discriminate.
  - apply xor_tight; auto.
  - intros r E. exact (andnot_tight _ _ _ _ _ (SS s) E (A s)).
  - apply and_tight; auto.
  - apply (or_tight _ _ _ _ _ (S d) (S s)); auto. intros E. apply Nat.eqb_eq in E. now subst.
  - apply xor_tight; auto.
  - intros r E. exact (andnot_tight _ _ _ _ _ (SS d) E (A d)).
  - apply (fastunion_tight cap _ _ (Forall2_regs st S ss H)). apply Forall_forall. intros x I. apply in_map_iff in I as (i & <- & _). apply A.
  - apply (same_keys_tight (st d) _ (S d)); auto using mden_runOptimize. apply each_keys.
  - apply (same_keys_tight (st d) _ (S d)); auto using mden_removeRunCompression. apply each_keys.
  - apply shrink_tight; auto.
  - intros r E. destruct (reload (st s) (S s) (H s)) as (m' & E' & D & F). assert (X : r = m') by congruence. subst. apply (same_keys_tight (st s) _ (S s)); auto.
Qed.
Theorem execN_tight tr : forall st S st1 outs, nholds st S -> legalN (map fst tr) S -> all_tight st -> execN tr st = Some (st1, outs) -> all_tight st1.
Proof.
  induction tr as [|[c [sh cap]] tr IH]; intros st S st1 outs H L A E; cbn [execN map fst legalN] in *; [injection E as <- _; auto|].
  destruct L as (K & L). destruct (stepN_holds c sh cap st S H K) as (s1 & a & Es & H1 & _). pose proof (stepN_tight c sh cap st S s1 a H K A Es) as A1. rewrite Es in E. destruct (execN tr s1) as [(s2, l)|] eqn:X; [|discriminate]. injection E as <- _. exact (IH s1 _ s2 l H1 L A1 X).
Qed.
Lemma empty_tight : all_tight empty_heapN. Proof. intros i. apply tight_nil. Qed.
