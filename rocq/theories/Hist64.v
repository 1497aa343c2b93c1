(** Hist64: what a 64-bit bitmap object denotes, and histories of API calls on any number of
    64-bit bitmaps. *)
From Coq Require Import ZArith List Bool Lia Sorting.Sorted.
From Verif Require Import Base BitsetC Convert Containers RArray RPoint.
From Verif Require Import R64 R64P R64Q R64K R64C R64R R64F R64B R64N R64H R64I.
From Verif Require Import Spec SpecI Spec64.
Import ListNotations.
Local Open Scope Z_scope.
Local Opaque zr.

(** a well-formed object: the tree, its node pools and the container table fit together (R64P.den);
    its members are those answered by roaring64_bitmap_contains *)
Definition wf64 (r : r64) : Prop := exists P, den r P.
Definition denotes64 (r : r64) (P : zset) : Prop := wf64 r /\ forall v, val64 v -> roaring64_bitmap_contains r v = Some (P v).
Lemma den64_iff r P : denotes64 r P <-> den r P.
Proof.
  split.
  - intros ((Q & D) & C). eapply den_ext; [exact D|]. intros v V. specialize (C v V). rewrite (roaring64_bitmap_contains_spec r Q v D V) in C. congruence.
  - intros D. split; [exists P; auto|]. intros v V. now apply roaring64_bitmap_contains_spec.
Qed.

(** ** Cardinalities *)
Lemma incr_SS l : incr l <-> StronglySorted Z.lt l.
Proof.
  induction l as [|a l IH]. { split; intros _; [constructor|exact I]. }
  rewrite incr_cons, IH. split.
  - intros [A B]. constructor; auto.
  - intros A. inversion A. auto.
Qed.
Lemma lists_from P : lists64 P (from P 0).
Proof.
  split.
  - apply incr_SS. unfold from. apply incr_filter, zr_incr.
  - intros v. unfold from. rewrite filter_In, zr_In. unfold val64. tauto.
Qed.
Lemma lists64_unique P l l' : lists64 P l -> lists64 P l' -> l = l'.
Proof. intros [A B] [A' B']. apply incr_ext; [now apply incr_SS|now apply incr_SS|]. intros x. rewrite B, B'. tauto. Qed.
Lemma lists64_from P l : lists64 P l -> l = from P 0.
Proof. intros L. eapply lists64_unique; eauto. apply lists_from. Qed.
Lemma has_card64_cnt P n : has_card64 P n <-> n = cnt P 0 (2^64).
Proof.
  split.
  - intros (l & L & ->). apply lists64_from in L. subst l. reflexivity.
  - intros ->. exists (from P 0). split; [apply lists_from|reflexivity].
Qed.
Lemma cnt_window P a b : 0 <= a -> b <= 2^64 -> cnt (zinter P (zival a b)) 0 (2^64) = cnt P a b.
Proof.
  intros A B. destruct (Z_le_dec a b) as [L|L].
  - rewrite (cnt_app (zinter P (zival a b)) 0 a (2^64)), (cnt_app (zinter P (zival a b)) a b (2^64)) by lia.
    rewrite (cnt_none (zinter P (zival a b)) 0 a), (cnt_none (zinter P (zival a b)) b (2^64)).
    + rewrite (cnt_ext (zinter P (zival a b)) P a b); [lia|]. intros x X. unfold zinter, zival. replace ((a <=? x) && (x <? b)) with true by lia. apply andb_true_r.
    + intros x X. unfold zinter, zival. replace ((a <=? x) && (x <? b)) with false by lia. apply andb_false_r.
    + intros x X. unfold zinter, zival. replace ((a <=? x) && (x <? b)) with false by lia. apply andb_false_r.
  - rewrite (cnt_nil P) by lia. apply cnt_none. intros x X. unfold zinter, zival. replace ((a <=? x) && (x <? b)) with false by lia. apply andb_false_r.
Qed.
Lemma card_word_cnt P n : n = cnt P 0 (2^64) mod 2^64 -> card_word P n.
Proof. intros E. exists (cnt P 0 (2^64)). split; auto. now apply has_card64_cnt. Qed.
Lemma card_word_window P a b n : 0 <= a -> b <= 2^64 -> n = cnt P a b mod 2^64 -> card_word (zinter P (zival a b)) n.
Proof. intros A B E. apply card_word_cnt. now rewrite cnt_window. Qed.
Lemma proper_cnt P : proper P -> cnt P 0 (2^64) < 2^64.
Proof.
  intros (v & V & F). unfold val64 in V. rewrite (cnt_app P 0 v) by lia. rewrite (cnt_app P v (v + 1)) by lia.
  rewrite (cnt_none P v (v + 1)) by (intros x X; replace x with v by lia; auto). pose proof (cnt_bound P 0 v ltac:(lia)). pose proof (cnt_bound P (v + 1) (2^64) ltac:(lia)). lia.
Qed.
Lemma not_proper_full P : cnt P 0 (2^64) < 2^64 \/ forall v, val64 v -> P v = true.
Proof.
  destruct (Z_lt_dec (cnt P 0 (2^64)) (2^64)) as [L|L]; auto. right. intros v V. destruct (P v) eqn:E; auto. exfalso. apply L, proper_cnt. exists v. auto.
Qed.

(** ** Execution.  Each case is the modelled C function of the same name; [cap] is the spare
    capacity of the array containers.  None is undefined behaviour or a failed assertion. *)
Definition heap64 := nat -> r64.
Definition lput (st : heap64) (d : nat) (o : option r64) : option (heap64 * out) := match o with Some r => Some (put st d r, RNone) | None => None end.
Definition lput2 (st : heap64) (d : nat) (o : option (r64 * bool)) : option (heap64 * out) := match o with Some (r, b) => Some (put st d r, RBool b) | None => None end.
Definition ask {A} (st : heap64) (f : A -> out) (o : option A) : option (heap64 * out) := match o with Some a => Some (st, f a) | None => None end.
Definition step64 (c : cmd64) (cap : list Z -> Z) (st : heap64) : option (heap64 * out) :=
  match c with
  | LNew d => lput st d (Some roaring64_bitmap_create)
  | LOf d vals => lput st d (roaring64_bitmap_of_ptr vals)
  | LFromRange d lo hi s => match roaring64_bitmap_from_range lo hi s with Some (Some r) => Some (put st d r, RNone) | Some None => Some (st, RNone) | None => None end
  | LCopy d s => lput st d (roaring64_bitmap_copy (st s))
  | LAdd d v => lput st d (roaring64_bitmap_add (st d) v)
  | LAddChecked d v => lput2 st d (roaring64_bitmap_add_checked (st d) v)
  | LRemove d v => lput st d (roaring64_bitmap_remove (st d) v)
  | LRemoveChecked d v => lput2 st d (roaring64_bitmap_remove_checked (st d) v)
  | LAddMany d vals => lput st d (roaring64_bitmap_add_many (st d) vals)
  | LRemoveMany d vals => lput st d (roaring64_bitmap_remove_many (st d) vals)
  | LAddRange d a b => lput st d (roaring64_bitmap_add_range (st d) a b)
  | LAddRangeClosed d a b => lput st d (roaring64_bitmap_add_range_closed (st d) a b)
  | LRemoveRange d a b => lput st d (roaring64_bitmap_remove_range (st d) a b)
  | LRemoveRangeClosed d a b => lput st d (roaring64_bitmap_remove_range_closed (st d) a b)
  | LFlipInplace d a b => lput st d (roaring64_bitmap_flip_inplace cap (st d) a b)
  | LFlipInplaceClosed d a b => lput st d (roaring64_bitmap_flip_closed_inplace cap (st d) a b)
  | LClear d => lput st d (roaring64_bitmap_clear (st d))
  | LRunOptimize d => lput2 st d (roaring64_bitmap_run_optimize (st d))
  | LShrinkToFit d => match roaring64_bitmap_shrink_to_fit (st d) with Some (r, _) => Some (put st d r, RNone) | None => None end
  | LFlip d s a b => lput st d (roaring64_bitmap_flip (st s) a b)
  | LFlipClosed d s a b => lput st d (roaring64_bitmap_flip_closed (st s) a b)
  | LAnd d s t => lput st d (roaring64_bitmap_and (st s) (st t))
  | LOr d s t => lput st d (roaring64_bitmap_or (st s) (st t))
  | LXor d s t => lput st d (roaring64_bitmap_xor (st s) (st t))
  | LAndnot d s t => lput st d (roaring64_bitmap_andnot (st s) (st t))
  | LAndInplace d s => lput st d (roaring64_bitmap_and_inplace (Nat.eqb d s) (st d) (st s))
  | LOrInplace d s => lput st d (roaring64_bitmap_or_inplace (Nat.eqb d s) cap (st d) (st s))
  | LXorInplace d s => lput st d (roaring64_bitmap_xor_inplace (Nat.eqb d s) (st d) (st s))
  | LAndnotInplace d s => lput st d (roaring64_bitmap_andnot_inplace (st d) (st s))
  | MContains s v => ask st RBool (roaring64_bitmap_contains (st s) v)
  | MContainsRange s a b => ask st RBool (roaring64_bitmap_contains_range (st s) a b)
  | MCardinality s => ask st RNum (roaring64_bitmap_get_cardinality (st s))
  | MRangeCardinality s a b => ask st RNum (roaring64_bitmap_range_cardinality (st s) a b)
  | MRangeClosedCardinality s a b => ask st RNum (roaring64_bitmap_range_closed_cardinality (st s) a b)
  | MIsEmpty s => ask st RBool (Some (roaring64_bitmap_is_empty (st s)))
  | MEquals s t => ask st RBool (roaring64_bitmap_equals (st s) (st t))
  | MSubset s t => ask st RBool (roaring64_bitmap_is_subset (st s) (st t))
  | MStrictSubset s t => ask st RBool (roaring64_bitmap_is_strict_subset (st s) (st t))
  | MIntersect s t => ask st RBool (roaring64_bitmap_intersect (st s) (st t))
  | MIntersectRange s a b => ask st RBool (roaring64_bitmap_intersect_with_range (st s) a b)
  | MAndCardinality s t => ask st RNum (roaring64_bitmap_and_cardinality (st s) (st t))
  | MOrCardinality s t => ask st RNum (roaring64_bitmap_or_cardinality (st s) (st t))
  | MXorCardinality s t => ask st RNum (roaring64_bitmap_xor_cardinality (st s) (st t))
  | MAndnotCardinality s t => ask st RNum (roaring64_bitmap_andnot_cardinality (st s) (st t))
  | MRank s v => ask st RNum (roaring64_bitmap_rank (st s) v)
  | MGetIndex s v => ask st ROpt (roaring64_bitmap_get_index (st s) v)
  | MSelect s k => ask st ROpt (roaring64_bitmap_select (st s) k)
  | MMinimum s => ask st RNum (roaring64_bitmap_minimum (st s))
  | MMaximum s => ask st RNum (roaring64_bitmap_maximum (st s))
  | MToArray s => ask st RList (roaring64_bitmap_to_uint64_array (st s))
  end.
Fixpoint exec64 (tr : list (cmd64 * (list Z -> Z))) (st : heap64) : option (heap64 * list out) :=
  match tr with
  | [] => Some (st, [])
  | (c, o) :: tr' =>
    match step64 c o st with
    | Some (st1, a) => match exec64 tr' st1 with Some (st2, l) => Some (st2, a :: l) | None => None end
    | None => None
    end
  end.
Definition empty_heap64 : heap64 := fun _ => roaring64_bitmap_create.
Definition holds (st : heap64) (S : regs) : Prop := forall i, den (st i) (S i).
Lemma holds_put st S d r P : holds st S -> den r P -> holds (put st d r) (put S d P).
Proof. intros H D i. unfold put. destruct (Nat.eqb i d); auto. Qed.
Definition good (st : option (heap64 * out)) (S : regs) (A : out -> Prop) : Prop := exists st1 o, st = Some (st1, o) /\ holds st1 S /\ A o.
Lemma good_put st S d o P Q : holds st S -> (exists r, o = Some r /\ den r P) -> (forall v, val64 v -> P v = Q v) -> good (lput st d o) (put S d Q) (fun o => o = RNone).
Proof. intros H (r & -> & D) E. exists (put st d r), RNone. split; auto. split; auto. apply holds_put; auto. eapply den_ext; eauto. Qed.
Lemma good_put2 st S d o P Q (A : out -> Prop) : holds st S -> (exists r b, o = Some (r, b) /\ den r P /\ A (RBool b)) -> (forall v, val64 v -> P v = Q v) -> good (lput2 st d o) (put S d Q) A.
Proof. intros H (r & b & -> & D & X) E. exists (put st d r), (RBool b). split; auto. split; auto. apply holds_put; auto. eapply den_ext; eauto. Qed.
Lemma good_ask {B} st S (f : B -> out) (o : option B) (A : out -> Prop) : holds st S -> (exists a, o = Some a /\ A (f a)) -> good (ask st f o) S A.
Proof. intros H (a & -> & X). exists st, (f a). auto. Qed.
Lemma zmem_zlist v l : zmem v l = zlist l v.
Proof. reflexivity. Qed.
Lemma ival_zival a b v : ival a b v = zival a (b + 1) v.
Proof. unfold ival, zival. f_equal. lia. Qed.
Lemma ival_zival' a b v : ival a (b - 1) v = zival a b v.
Proof. rewrite ival_zival. f_equal. lia. Qed.
Lemma Forall_v64 l : (forall v, In v l -> val64 v) -> Forall v64 l.
Proof. intros H. apply Forall_forall. exact H. Qed.

Lemma contains_range_exact P a b : val64 a -> val64 b -> (forall v, val64 v -> P v = true -> v / 65536 <= (b - 1) / 65536) ->
  (b <= a \/ covered P a b) <-> forall v, a <= v < b -> P v = true.
Proof.
  intros A B F. split.
  - intros [L|(e & E1 & E2 & [->|(E3 & E4 & v & V & T)])] u U; [lia|apply E2; auto|]. exfalso. unfold val64 in *. specialize (F v ltac:(lia) T). pose proof (Z.div_mod (b - 1) 65536 ltac:(lia)). pose proof (Z.mod_pos_bound (b - 1) 65536 ltac:(lia)).
    assert ((b - 1) / 65536 + 1 <= v / 65536) by (apply Z.div_le_lower_bound; lia). lia.
  - intros H. destruct (Z_le_dec b a) as [L|L]; auto. right. exists b. split; [lia|]. split; auto.
Qed.
Lemma step64_holds c cap st S : holds st S -> cmd64_ok c S -> good (step64 c cap st) (spec_step64 c S) (spec_out64 c S).
Proof.
  intros H K. destruct c; cbn [cmd64_ok] in K; cbn [step64 spec_step64 spec_out64].
  - eapply good_put; [exact H|eexists; split; [reflexivity|apply den_create]|reflexivity].
  - eapply good_put; [exact H|apply roaring64_bitmap_of_ptr_spec, Forall_v64, K|]. reflexivity.
  - destruct K as (K1 & K2 & K3 & K4). destruct (roaring64_bitmap_from_range_spec lo hi step K1 K2 ltac:(lia)) as (o & -> & X). destruct o as [r|]; [|lia]. destruct X as (_ & _ & D). eexists _, _. split; [reflexivity|]. split; [now apply holds_put|reflexivity].
  - eapply good_put; [exact H|apply roaring64_bitmap_copy_spec, H|reflexivity].
  - eapply good_put; [exact H|apply roaring64_bitmap_add_spec; auto|]. intros u _. unfold fset, zadd. destruct (u =? v); [now rewrite orb_true_r|now rewrite orb_false_r].
  - destruct (roaring64_bitmap_add_checked_spec (st d) (S d) v (H d) K) as (r & E & D). eapply good_put2; [exact H|exists r, (negb (S d v)); split; [exact E|split; [exact D|reflexivity]]|].
    intros u _. unfold fset, zadd. destruct (u =? v); [now rewrite orb_true_r|now rewrite orb_false_r].
  - eapply good_put; [exact H|apply roaring64_bitmap_remove_spec; auto|]. intros u _. unfold fset, zdel. destruct (u =? v); [now rewrite andb_false_r|now rewrite andb_true_r].
  - destruct (roaring64_bitmap_remove_checked_spec (st d) (S d) v (H d) K) as (r & E & D). eapply good_put2; [exact H|exists r, (S d v); split; [exact E|split; [exact D|reflexivity]]|].
    intros u _. unfold fset, zdel. destruct (u =? v); [now rewrite andb_false_r|now rewrite andb_true_r].
  - eapply good_put; [exact H|apply roaring64_bitmap_add_many_spec; [apply H|apply Forall_v64, K]|]. reflexivity.
  - destruct K as (K1 & K2). eapply good_put; [exact H|apply roaring64_bitmap_remove_many_present; [apply H| |exact K2|]|]; [apply Forall_v64; intros v I; now apply K1|intros v I; now apply K1|reflexivity].
  - eapply good_put; [exact H|apply roaring64_bitmap_add_range_spec; [apply H|apply K|apply K]|]. intros v _. cbv beta. rewrite ival_zival'. reflexivity.
  - eapply good_put; [exact H|apply roaring64_bitmap_add_range_closed_spec; [apply H|apply K|apply K]|]. intros v _. cbv beta. rewrite ival_zival. reflexivity.
  - eapply good_put; [exact H|apply roaring64_bitmap_remove_range_spec; [apply H|apply K|apply K]|]. intros v _. cbv beta. rewrite ival_zival'. reflexivity.
  - eapply good_put; [exact H|apply roaring64_bitmap_remove_range_closed_spec; [apply H|apply K|apply K]|]. intros v _. cbv beta. rewrite ival_zival. reflexivity.
  - eapply good_put; [exact H|apply roaring64_bitmap_flip_inplace_spec; [apply H|apply K|apply K]|]. intros v _. unfold flipset. rewrite ival_zival'. reflexivity.
  - eapply good_put; [exact H|apply roaring64_bitmap_flip_closed_inplace_spec; [apply H|apply K|apply K]|]. intros v _. unfold flipset. rewrite ival_zival. reflexivity.
  - eapply good_put; [exact H|eapply roaring64_bitmap_clear_spec, H|]. reflexivity.
  - destruct (roaring64_bitmap_run_optimize_spec (st d) (S d) (H d)) as (r & b & E & D). exists (put st d r), (RBool b). rewrite E. split; auto. split; [|eexists; eauto]. intros i. unfold put. destruct (Nat.eqb_spec i d); [now subst|apply H].
  - destruct (shrink_to_fit_ok (st d) (S d) (H d)) as (r & b & E & D & _). exists (put st d r), RNone. rewrite E. split; auto. split; [|reflexivity]. intros i. unfold put. destruct (Nat.eqb_spec i d); [now subst|apply H].
  - eapply good_put; [exact H|apply roaring64_bitmap_flip_spec; [apply H|apply K|apply K]|]. intros v _. unfold flipset. rewrite ival_zival'. reflexivity.
  - eapply good_put; [exact H|apply roaring64_bitmap_flip_closed_spec; [apply H|apply K|apply K]|]. intros v _. unfold flipset. rewrite ival_zival. reflexivity.
  - eapply good_put; [exact H|apply roaring64_bitmap_and_spec; apply H|reflexivity].
  - eapply good_put; [exact H|apply roaring64_bitmap_or_spec; apply H|reflexivity].
  - eapply good_put; [exact H|apply roaring64_bitmap_xor_spec; apply H|reflexivity].
  - eapply good_put; [exact H|apply roaring64_bitmap_andnot_spec; apply H|reflexivity].
  - destruct (Nat.eqb_spec d s) as [E|E].
    + subst s. eapply (good_put _ _ _ _ (S d)); [exact H|exists (st d); split; [reflexivity|apply H]|]. intros v _. unfold zinter. now rewrite andb_diag.
    + eapply good_put; [exact H|apply roaring64_bitmap_and_inplace_spec; apply H|reflexivity].
  - destruct (Nat.eqb_spec d s) as [E|E].
    + subst s. eapply (good_put _ _ _ _ (S d)); [exact H|exists (st d); split; [reflexivity|apply H]|]. intros v _. unfold zunion. now rewrite orb_diag.
    + eapply good_put; [exact H|apply roaring64_bitmap_or_inplace_spec; apply H|reflexivity].
  - destruct (Nat.eqb_spec d s) as [E|E]; [contradiction|]. eapply good_put; [exact H|apply roaring64_bitmap_xor_inplace_spec; apply H|reflexivity].
  - eapply good_put; [exact H|apply roaring64_bitmap_andnot_inplace_spec; apply H|reflexivity].
  - apply good_ask; auto. eexists. split; [apply roaring64_bitmap_contains_spec; auto|reflexivity].
  - destruct K as (K1 & K2 & K3). apply good_ask; auto. destruct (roaring64_bitmap_contains_range_spec (st s) (S s) a b (H s) K1 K2) as (x & E & X). exists x. split; auto. exists x. split; auto. rewrite X. now apply contains_range_exact.
  - apply good_ask; auto. eexists. split; [apply roaring64_bitmap_get_cardinality_spec, H|]. eexists. split; [reflexivity|]. now apply card_word_cnt.
  - destruct K as (K1 & K2). apply good_ask; auto. eexists. split; [apply roaring64_bitmap_range_cardinality_spec; auto|]. eexists. split; [reflexivity|]. unfold val64 in *. apply card_word_window; auto; lia.
  - destruct K as (K1 & K2). apply good_ask; auto. eexists. split; [apply roaring64_bitmap_range_closed_cardinality_spec; auto|]. eexists. split; [reflexivity|]. unfold val64 in *. apply card_word_window; auto; lia.
  - apply good_ask; auto. eexists. split; [reflexivity|]. eexists. split; [reflexivity|]. apply (den_empty (st s) (S s) (H s)).
  - apply good_ask; auto. destruct (roaring64_bitmap_equals_spec _ _ _ _ (H s) (H t)) as (b & E & X). exists b. split; auto. eexists. split; [reflexivity|]. exact X.
  - apply good_ask; auto. destruct (roaring64_bitmap_is_subset_spec _ _ _ _ (H s) (H t)) as (b & E & X). exists b. split; auto. eexists. split; [reflexivity|]. exact X.
  - destruct K as (K1 & K2). apply good_ask; auto. destruct (roaring64_bitmap_is_strict_subset_spec _ _ _ _ (H s) (H t) (proper_cnt _ K1) (proper_cnt _ K2)) as (b & E & X). exists b. split; auto. eexists. split; [reflexivity|].
    rewrite X. unfold zsubset64. split; intros (A & B); (split; [exact A|]); intros Q; apply B.
    + intros v V. destruct (S s v) eqn:E1, (S t v) eqn:E2; auto; [specialize (A v V E1); congruence|specialize (Q v V E2); congruence].
    + intros v V T. now rewrite (Q v V).
  - apply good_ask; auto. destruct (roaring64_bitmap_intersect_spec _ _ _ _ (H s) (H t)) as (b & E & X). exists b. split; auto. eexists. split; [reflexivity|]. exact X.
  - destruct K as (K1 & K2). apply good_ask; auto. destruct (roaring64_bitmap_intersect_with_range_spec (st s) (S s) a b K1 K2 (H s)) as (x & E & X). exists x. split; auto. eexists. split; [reflexivity|]. exact X.
  - apply good_ask; auto. eexists. split; [apply roaring64_bitmap_and_cardinality_spec; apply H|]. eexists. split; [reflexivity|]. now apply card_word_cnt.
  - apply good_ask; auto. eexists. split; [apply roaring64_bitmap_or_cardinality_spec; apply H|]. eexists. split; [reflexivity|]. now apply card_word_cnt.
  - apply good_ask; auto. eexists. split; [apply roaring64_bitmap_xor_cardinality_spec; apply H|]. eexists. split; [reflexivity|]. now apply card_word_cnt.
  - apply good_ask; auto. eexists. split; [apply roaring64_bitmap_andnot_cardinality_spec; apply H|]. eexists. split; [reflexivity|]. now apply card_word_cnt.
  - apply good_ask; auto. eexists. split; [apply roaring64_bitmap_rank_spec; auto|]. eexists. split; [reflexivity|]. unfold val64 in K. apply card_word_window; auto; lia.
  - apply good_ask; auto. eexists. split; [apply (roaring64_bitmap_get_index_spec (st s) (S s)); auto|]. eexists. split; [reflexivity|]. destruct (S s v) eqn:E; auto. split; auto. apply has_card64_cnt. unfold val64 in K. rewrite cnt_window by lia. reflexivity.
  - destruct K as (K1 & K2). apply good_ask; auto. destruct (roaring64_bitmap_select_spec (st s) (S s) k (H s) K1 (proper_cnt _ K2)) as (o & E & X). exists o. split; auto. eexists. split; [reflexivity|]. destruct o as [v|].
    + destruct X as (X1 & X2 & X3). split; auto. split; auto. apply has_card64_cnt. unfold v64 in X1. rewrite cnt_window by lia. auto.
    + intros n N. apply has_card64_cnt in N. lia.
  - apply good_ask; auto. destruct (roaring64_bitmap_minimum_spec (st s) (S s) (H s)) as (m & E & X). exists m. split; auto. eexists. split; [reflexivity|]. destruct X as [(X1 & X2)|X]; [right|left]; auto.
  - apply good_ask; auto. destruct (roaring64_bitmap_maximum_spec (st s) (S s) (H s)) as (m & E & X). exists m. split; auto. eexists. split; [reflexivity|]. destruct X as [(X1 & X2)|X]; [right|left]; auto.
  - apply good_ask; auto. eexists. split; [apply roaring64_bitmap_to_uint64_array_spec; [apply H|apply proper_cnt, K]|]. eexists. split; [reflexivity|]. apply lists_from.
Qed.
Theorem exec64_holds tr : forall st S, holds st S -> legal64 (map fst tr) S -> exists st1 outs, exec64 tr st = Some (st1, outs) /\ holds st1 (spec_run64 (map fst tr) S) /\ agrees64 (map fst tr) S outs.
Proof.
  induction tr as [|[c o] tr IH]; intros st S H L; cbn [exec64 map fst legal64 spec_run64 agrees64] in *.
  - exists st, []. auto.
  - destruct L as (K & L). destruct (step64_holds c o st S H K) as (st1 & a & -> & H1 & A). destruct (IH st1 _ H1 L) as (st2 & l & -> & H2 & G). exists st2, (a :: l). auto.
Qed.
Lemma empty_holds : holds empty_heap64 (fun _ => zempty).
Proof. intros i. apply den_create. Qed.

(** ** Iterators *)
Definition iter_step64 (r : r64) (j : iter64) (c : icmd) : option (iter64 * list Z) :=
  let quiet := fun o : option (iter64 * bool) => match o with Some (j, b) => if Bool.eqb b (j_has j) then Some (j, []) else None | None => None end in
  match c with
  | IAdvance => quiet (roaring64_iterator_advance r j)
  | IPrevious => quiet (roaring64_iterator_previous r j)
  | ISeek x => quiet (roaring64_iterator_move_equalorlarger r j x)
  | IRead n => roaring64_iterator_read r j n
  end.
(** has_value and value *)
Definition shown (j : iter64) : option Z := if j_has j then Some (j_value j) else None.
Fixpoint iter_run64 (r : r64) (j : iter64) (cs : list icmd) : option (list (option Z * list Z)) :=
  match cs with
  | [] => Some []
  | c :: cs =>
    match iter_step64 r j c with
    | None => None
    | Some (j', out) => match iter_run64 r j' cs with Some t => Some ((shown j', out) :: t) | None => None end
    end
  end.
(** the iterator is at index [p] of the list of members *)
Definition jix (r : r64) (P : zset) (j : iter64) (p : Z) (spent : bool) : Prop :=
  (exists v s, jat r P j (Some v) s /\ p = cnt P 0 v /\ spent = false) \/
  (exists s, jat r P j None s /\ ((spent = true /\ p = cnt P 0 (2^64)) \/ (spent = false /\ ((s = Some true /\ p = cnt P 0 (2^64)) \/ (s = Some false /\ p = -1))))).
Lemma from_cut P v : 0 <= v <= 2^64 -> from P 0 = filter P (zr 0 v) ++ from P v.
Proof. intros V. unfold from. rewrite (zr_app 0 v) by lia. apply filter_app. Qed.
Lemma len_before P v : length (filter P (zr 0 v)) = Z.to_nat (cnt P 0 v).
Proof. unfold cnt, zlen. lia. Qed.
Lemma len_from P : len_of (from P 0) = cnt P 0 (2^64). Proof. reflexivity. Qed.
Lemma nth_from P v : val64 v -> P v = true -> nth (Z.to_nat (cnt P 0 v)) (from P 0) 0 = v.
Proof. intros V T. unfold val64 in V. rewrite (from_cut P v) by lia. rewrite app_nth2 by (rewrite len_before; lia). rewrite len_before, Nat.sub_diag, from_at by auto. reflexivity. Qed.
Lemma skip_from P v : val64 v -> skipn (Z.to_nat (cnt P 0 v)) (from P 0) = from P v.
Proof. intros V. unfold val64 in V. rewrite (from_cut P v) by lia. rewrite skipn_app, len_before, Nat.sub_diag, skipn_all2 by (rewrite len_before; lia). reflexivity. Qed.
Lemma cnt_lt P v : val64 v -> P v = true -> 0 <= cnt P 0 v < cnt P 0 (2^64).
Proof.
  intros V T. unfold val64 in V. rewrite (cnt_app P 0 v (2^64)) by lia. rewrite (cnt_app P v (v + 1) (2^64)) by lia. rewrite (cnt_full P v (v + 1)) by (try lia; intros x X; replace x with v by lia; auto).
  pose proof (cnt_bound P 0 v ltac:(lia)). pose proof (cnt_bound P (v + 1) (2^64) ltac:(lia)). lia.
Qed.
Lemma jat_at r P j v s : jat r P j (Some v) s -> val64 v /\ P v = true /\ j_has j = true /\ j_value j = v.
Proof. intros (_ & l & x & t & J). pose proof (jin_block _ _ _ _ _ _ _ J) as (_ & KR & _ & _ & _ & _ & _ & T & W). split; [unfold val64; lia|]. split; auto. split; apply J. Qed.
Lemma jat_no r P j s : jat r P j None s -> j_has j = false.
Proof. intros (_ & xs & _ & _ & _ & F). exact F. Qed.
Lemma jix_seen r P j p b : jix r P j p b -> shown j = seen64 (from P 0) p /\ -1 <= p <= cnt P 0 (2^64) /\ (on_member (from P 0) p = true <-> j_has j = true).
Proof.
  unfold shown, seen64, on_member. rewrite len_from. pose proof (cnt_bound P 0 (2^64) ltac:(lia)) as CB. intros [(v & s & J & -> & _)|(s & J & Q)].
  - destruct (jat_at _ _ _ _ _ J) as (V & T & -> & ->). pose proof (cnt_lt P v V T). replace ((0 <=? cnt P 0 v) && (cnt P 0 v <? cnt P 0 (2^64))) with true by lia. rewrite nth_from by auto. split; auto. split; [lia|tauto].
  - rewrite (jat_no _ _ _ _ J). assert (X : (0 <=? p) && (p <? cnt P 0 (2^64)) = false /\ -1 <= p <= cnt P 0 (2^64)) by (destruct Q as [(_ & ->)|(_ & [(_ & ->)|(_ & ->)])]; lia). destruct X as (-> & X). split; auto. split; [auto|]. split; discriminate.
Qed.
Lemma least_next P v o : val64 v -> P v = true -> least P (v + 1) o -> match o with Some w => cnt P 0 w = cnt P 0 v + 1 | None => cnt P 0 (2^64) = cnt P 0 v + 1 end.
Proof.
  intros V T L. unfold val64 in V. assert (E : forall w, v < w -> (forall u, v + 1 <= u < w -> P u = false) -> cnt P 0 w = cnt P 0 v + 1).
  { intros w W F. rewrite (cnt_app P 0 v w) by lia. rewrite (cnt_app P v (v + 1) w) by lia. rewrite (cnt_full P v (v + 1)) by (try lia; intros x X; replace x with v by lia; auto). rewrite (cnt_none P (v + 1) w) by auto. lia. }
  destruct o as [w|]; [destruct L as (L1 & _ & L3); apply E; [lia|auto]|apply E; [lia|exact L]].
Qed.
Lemma least_first P o : least P 0 o -> match o with Some w => cnt P 0 w = 0 | None => cnt P 0 (2^64) = 0 end.
Proof. destruct o as [w|]; intros L; apply cnt_none; [apply L|exact L]. Qed.
Lemma least_at P x o : val64 x -> least P x o -> match o with Some w => cnt P 0 w = cnt P 0 x | None => cnt P 0 (2^64) = cnt P 0 x end.
Proof.
  intros X L. unfold val64 in X. destruct o as [w|]; [destruct L as (L1 & _ & L3); rewrite (cnt_app P 0 x w), (cnt_none P x w) by (auto; lia); lia|]. rewrite (cnt_app P 0 x (2^64)), (cnt_none P x (2^64)) by (auto; lia). lia.
Qed.
Lemma greatest_prev P v o : 0 <= v <= 2^64 -> greatest P v o -> match o with Some w => cnt P 0 w = cnt P 0 v - 1 | None => cnt P 0 v = 0 end.
Proof.
  intros V G. destruct o as [w|]; [|apply cnt_none; exact G]. destruct G as (G1 & G2 & G3).
  rewrite (cnt_app P 0 w v) by lia. rewrite (cnt_app P w (w + 1) v) by lia. rewrite (cnt_full P w (w + 1)) by (try lia; intros x X; replace x with w by lia; auto). rewrite (cnt_none P (w + 1) v) by (intros x X; apply G3; lia). lia.
Qed.
Lemma seek_count P x : val64 x -> len_of (filter (fun v => v <? x) (from P 0)) = cnt P 0 x.
Proof.
  intros X. unfold val64 in X. rewrite (from_cut P x) by lia. rewrite filter_app. unfold len_of. rewrite app_length. rewrite (filter_none _ (from P x)).
  - cbn [length]. rewrite Nat.add_0_r. unfold cnt, zlen. f_equal. f_equal. rewrite (filter_ext_In _ (fun _ => true)); [|intros y I; apply filter_In in I as (I & _); apply zr_In in I; lia]. clear. induction (filter P (zr 0 x)) as [|a l IH]; cbn; auto. now rewrite IH.
  - intros y I. apply filter_In in I as (I & _). apply zr_In in I. lia.
Qed.
Lemma jix_make r P j o s p : jat r P j o s -> match o with Some w => p = cnt P 0 w | None => (s = Some true /\ p = cnt P 0 (2^64)) \/ (s = Some false /\ p = -1) end -> jix r P j p false.
Proof. intros J E. destruct o as [w|]; [left; exists w, s; auto|right; exists s; split; auto]. Qed.
Lemma iter_step64_spec r P j p b c : jix r P j p b -> icmd64_ok b c -> exists j', iter_step64 r j c = Some (j', snd (cursor_step (from P 0) p c)) /\ jix r P j' (fst (cursor_step (from P 0) p c)) (spends (from P 0) p b c).
Proof.
  intros J OK. pose proof (jix_seen _ _ _ _ _ J) as (_ & PB & ON). pose proof (cnt_bound P 0 (2^64) ltac:(lia)) as CB.
  assert (HAS : forall j1 (o : option Z) s, jat r P j1 o s -> Bool.eqb (if o then true else false) (j_has j1) = true).
  { intros j1 o s J1. destruct o as [w|]; [destruct (jat_at _ _ _ _ _ J1) as (_ & _ & -> & _)|rewrite (jat_no _ _ _ _ J1)]; reflexivity. }
  destruct c as [| |x|n]; cbn [iter_step64 cursor_step fst snd spends icmd64_ok] in *; try (rewrite len_from).
  - subst b. destruct J as [(v & s & J & EP & _)|(s & J & Q)].
    + destruct (jat_at _ _ _ _ _ J) as (V & T & _). destruct (advance_at r P j v s J) as (j1 & o & -> & L & J1). rewrite (HAS _ _ _ J1). exists j1. split; auto. pose proof (least_next P v o V T L) as N. pose proof (cnt_lt P v V T).
      eapply jix_make; [exact J1|]. destruct o as [w|]; [|left; split; auto; lia]. destruct L as (L1 & L2 & _). assert (W : val64 w) by (unfold val64 in *; lia). pose proof (cnt_lt P w W L2). lia.
    + destruct Q as [(E & _)|(_ & Q)]; [discriminate|]. pose proof (advance_end r P j s J) as A. destruct Q as [(-> & ->)|(-> & ->)].
      * destruct A as (j1 & -> & J1). rewrite (HAS _ _ _ J1). exists j1. split; auto. eapply jix_make; [exact J1|]. left. split; auto. lia.
      * destruct A as (j1 & o & -> & L & J1). rewrite (HAS _ _ _ J1). exists j1. split; auto. pose proof (least_first P o L) as N. eapply jix_make; [exact J1|]. destruct o as [w|]; [|left; split; auto; lia]. lia.
  - subst b. destruct J as [(v & s & J & EP & _)|(s & J & Q)].
    + destruct (jat_at _ _ _ _ _ J) as (V & T & _). destruct (previous_at r P j v s J) as (j1 & o & -> & L & J1). rewrite (HAS _ _ _ J1). exists j1. split; auto. pose proof (greatest_prev P v o ltac:(unfold val64 in V; lia) L) as N. pose proof (cnt_lt P v V T).
      eapply jix_make; [exact J1|]. destruct o as [w|]; [|right; split; auto; lia]. destruct L as (L1 & L2 & _). assert (W : val64 w) by (unfold val64 in *; lia). pose proof (cnt_lt P w W L2). lia.
    + destruct Q as [(E & _)|(_ & Q)]; [discriminate|]. pose proof (previous_end r P j s J) as A. destruct Q as [(-> & ->)|(-> & ->)].
      * destruct A as (j1 & o & -> & L & J1). rewrite (HAS _ _ _ J1). exists j1. split; auto. pose proof (greatest_prev P (2^64) o ltac:(lia) L) as N. eapply jix_make; [exact J1|]. destruct o as [w|]; [|right; split; auto; lia].
        destruct L as (L1 & L2 & _). pose proof (cnt_lt P w L1 L2). lia.
      * destruct A as (j1 & -> & J1). rewrite (HAS _ _ _ J1). exists j1. split; auto. eapply jix_make; [exact J1|]. right. split; auto.
  - assert (JJ : exists o s, jat r P j o s) by (destruct J as [(v & s & J & _)|(s & J & _)]; eauto). destruct JJ as (o0 & s & JJ). destruct (move_equalorlarger_spec r P j o0 s x OK JJ) as (j1 & o & -> & L & J1). rewrite (HAS _ _ _ J1). exists j1. split; auto.
    rewrite seek_count by auto. pose proof (least_at P x o OK L) as N. eapply jix_make; [exact J1|]. destruct o as [w|]; [auto|left; auto].
  - destruct J as [(v & s & J & EP & EB)|(s & J & Q)].
    + destruct (jat_at _ _ _ _ _ J) as (V & T & HH & _). assert (OM : on_member (from P 0) p = true) by tauto. rewrite OM in *. cbn [fst snd andb]. subst b. cbn [orb].
      destruct (roaring64_iterator_read_at r P j v s n OK J) as (j1 & out & rest & -> & E & LO & M). exists j1. rewrite EP, (skip_from P v V), E. pose proof (cnt_lt P v V T) as CL.
      assert (CE : cnt P 0 (2^64) = cnt P 0 v + zlen out + zlen rest) by (unfold val64 in V; rewrite (cnt_app P 0 v (2^64)) by lia; change (cnt P v (2^64)) with (zlen (from P v)); rewrite E, zlen_app; lia).
      pose proof (zlen_nonneg rest) as RN. destruct rest as [|w rest].
      * change (zlen (@nil Z)) with 0 in CE. rewrite app_nil_r. rewrite firstn_all2 by (unfold zlen in LO; lia). split; auto. right. exists s. split; auto. left. replace (Z.min (cnt P 0 (2^64)) (cnt P 0 v + n)) with (cnt P 0 (2^64)) by lia. split; auto. unfold on_member. rewrite len_from. lia.
      * destruct M as (M & J1). rewrite zlen_cons in CE. pose proof (zlen_nonneg rest). rewrite firstn_app. replace (Z.to_nat n - length out)%nat with O by (unfold zlen in M; lia). rewrite firstn_all2 by (unfold zlen in M; lia). cbn [firstn]. rewrite app_nil_r. split; auto.
        left. exists w, s. split; auto. destruct (jat_at _ _ _ _ _ J1) as (V1 & T1 & _). replace (Z.min (cnt P 0 (2^64)) (cnt P 0 v + n)) with (cnt P 0 v + n) by lia.
        assert (EW : cnt P 0 w = cnt P 0 v + n).
        { assert (E1 : from P 0 = (filter P (zr 0 v) ++ out) ++ w :: rest) by (rewrite <- app_assoc, <- E; apply from_cut; unfold val64 in V; lia). assert (E2 : from P 0 = filter P (zr 0 w) ++ from P w) by (apply from_cut; unfold val64 in V1; lia).
          pose proof (proj1 (lists_from P)) as SS. apply incr_SS in SS. assert (N1 := nth_from P w V1 T1). pose proof (cnt_lt P w V1 T1) as CL1.
          assert (N2 : nth (Z.to_nat (cnt P 0 v + n)) (from P 0) 0 = w).
          { rewrite E1. rewrite app_nth2; rewrite app_length, len_before; unfold zlen in M; [|lia]. replace (_ - _)%nat with O by lia. reflexivity. }
          destruct (Z.lt_trichotomy (cnt P 0 w) (cnt P 0 v + n)) as [Q|[Q|Q]]; auto; exfalso.
          - pose proof (incr_znth (from P 0) (cnt P 0 w) (cnt P 0 v + n) SS) as X. unfold znth in X. rewrite N1, N2 in X. assert (zlen (from P 0) = cnt P 0 (2^64)) by reflexivity. lia.
          - pose proof (incr_znth (from P 0) (cnt P 0 v + n) (cnt P 0 w) SS) as X. unfold znth in X. rewrite N1, N2 in X. assert (zlen (from P 0) = cnt P 0 (2^64)) by reflexivity. lia. }
        split; auto. unfold on_member. rewrite len_from. lia.
    + assert (OM : on_member (from P 0) p = false) by (destruct (on_member (from P 0) p); auto; rewrite (jat_no _ _ _ _ J) in ON; destruct ON as (ON & _); discriminate ON; auto). rewrite OM in *. cbn [fst snd andb].
      rewrite orb_false_r. rewrite (roaring64_iterator_read_end r P j s n J). exists j. split; auto. right. exists s. auto.
Qed.
Lemma iter_run64_spec r P : forall cs j p b, jix r P j p b -> ilegal64 (from P 0) p b cs -> iter_run64 r j cs = Some (cursor_run64 (from P 0) p cs).
Proof.
  induction cs as [|c cs IH]; intros j p b J L; cbn [iter_run64 cursor_run64 ilegal64] in *; auto. destruct L as (OK & L). destruct (iter_step64_spec r P j p b c J OK) as (j1 & -> & J1).
  rewrite (IH j1 _ _ J1 L). destruct (jix_seen _ _ _ _ _ J1) as (-> & _). destruct (cursor_step (from P 0) p c). reflexivity.
Qed.
Lemma iter64_first r P l cs : den r P -> lists64 P l -> ilegal64 l 0 false cs -> exists j, roaring64_iterator_create r = Some j /\ shown j = seen64 l 0 /\ iter_run64 r j cs = Some (cursor_run64 l 0 cs).
Proof.
  intros D L K. apply lists64_from in L. subst l. destruct (roaring64_iterator_create_spec r P D) as (j & o & E & LE & J). exists j. split; auto. assert (X : jix r P j 0 false).
  { eapply jix_make; [exact J|]. pose proof (least_first P o LE) as N. destruct o; [lia|left; split; auto; lia]. }
  split; [apply (jix_seen _ _ _ _ _ X)|eapply iter_run64_spec; eauto].
Qed.
Lemma iter64_last r P l cs : den r P -> lists64 P l -> ilegal64 l (len_of l - 1) false cs -> exists j, roaring64_iterator_create_last r = Some j /\ shown j = seen64 l (len_of l - 1) /\ iter_run64 r j cs = Some (cursor_run64 l (len_of l - 1) cs).
Proof.
  intros D L K. apply lists64_from in L. subst l. destruct (roaring64_iterator_create_last_spec r P D) as (j & o & E & LE & J). exists j. split; auto. rewrite len_from in *. assert (X : jix r P j (cnt P 0 (2^64) - 1) false).
  { eapply jix_make; [exact J|]. pose proof (greatest_prev P (2^64) o ltac:(lia) LE) as N. destruct o; [lia|right; split; auto; lia]. }
  split; [apply (jix_seen _ _ _ _ _ X)|eapply iter_run64_spec; eauto].
Qed.
