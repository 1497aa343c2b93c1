(** Map64Q: queries on the map of bitmaps. *)
From Coq Require Import ZArith List Bool Lia Sorting.Sorted.
From Verif Require Import Base ArrayUtil BitUtil BitsetC ArrayC RunC RunD Convert Containers RArray RBinary RPoint RRange RQuery Iter Bytes Serial Spec Spec64 FormatSpec64 Obs Derived Map64 Map64P Map64A.
From Verif Require IterP DerivedI Hist64.
Import ListNotations.
Local Open Scope Z_scope.
Local Opaque zr.

(** ** Emptiness, comparisons *)
Lemma mokm_cons_inner k b t h : mokm ((k, b) :: t) -> inner ((k, b) :: t) h = if h =? k then b else inner t h.
Proof. intros _. unfold inner. cbn [mfind]. destruct (h =? k); reflexivity. Qed.
Lemma same_inner m o P Q : mden m P -> mden o Q -> (same_set64 P Q <-> forall h, key32 h -> same_set (half P h) (half Q h)).
Proof.
  intros H G. split.
  - intros E h K v V. unfold half. apply E. apply (join_high h v K V).
  - intros E v V. destruct (split_high v V) as (K & L & _). rewrite <- (half_at P v V), <- (half_at Q v V). now apply E.
Qed.
Lemma is_empty_spec m P : mden m P -> (map_isEmpty m = true <-> same_set64 P zempty).
Proof.
  intros H. unfold map_isEmpty. rewrite forallb_forall. split.
  - intros A v V. destruct (split_high v V) as (K & L & _). rewrite <- (half_at P v V). destruct (mfind m (highBytes v)) as [b|] eqn:F; [|eapply mden_absent; eauto].
    specialize (A _ (mfind_In m _ b F)). cbn [snd] in A. destruct (mden_found m P _ b H F) as (_ & D). apply (q_is_empty b _ D) in A. exact (A _ L).
  - intros A [k b] I. cbn [snd]. apply In_mfind in I; [|apply H]. destruct (mden_found m P k b H I) as (K & D). apply (q_is_empty b _ D). intros v V. unfold half, zempty. apply (A (k * 2^32 + v)). apply (join_high k v K V).
Qed.
Lemma is_subset_spec m o P Q : mden m P -> mden o Q -> (map_isSubset m o = true <-> zsubset64 P Q).
Proof.
  intros H G. unfold map_isSubset. rewrite forallb_forall. split.
  - intros A v V Pv. destruct (split_high v V) as (K & L & _). rewrite <- (half_at P v V) in Pv. rewrite <- (half_at Q v V).
    destruct (mfind m (highBytes v)) as [b|] eqn:F; [|rewrite (mden_absent m P _ _ H K F L) in Pv; discriminate].
    specialize (A _ (mfind_In m _ b F)). cbn [fst snd] in A. destruct (mden_found m P _ b H F) as (_ & D). apply orb_true_iff in A as [A|A].
    + apply (q_is_empty b _ D) in A. rewrite (A _ L) in Pv. discriminate.
    + destruct (mfind o (highBytes v)) as [ob|] eqn:F2; [|discriminate]. destruct (mden_found o Q _ ob G F2) as (_ & Do). apply (q_subset b ob _ _ D Do) in A. exact (A _ L Pv).
  - intros A [k b] I. cbn [fst snd]. apply In_mfind in I; [|apply H]. destruct (mden_found m P k b H I) as (K & D). destruct (roaring_bitmap_is_empty b) eqn:E; [reflexivity|]. cbn [orb].
    assert (A2 : zsubset (half P k) (half Q k)). { intros v V. unfold half. apply A. apply (join_high k v K V). }
    destruct (mfind o k) as [ob|] eqn:F2.
    + destruct (mden_found o Q _ ob G F2) as (_ & Do). now apply (q_subset b ob _ _ D Do).
    + rewrite <- E at 1. apply (q_is_empty b _ D). intros v V. unfold zempty. destruct (half P k v) eqn:X; [|reflexivity]. apply A2 in X; auto. rewrite (mden_absent o Q k v G K F2 V) in X. discriminate.
Qed.
Lemma eq_loop_spec n : forall l r, mokm l -> mokm r -> (length l + length r < n)%nat ->
  exists b, eq_loop n l r = Some b /\ (b = true <-> same_set64 (map_contains l) (map_contains r)).
Proof.
  induction n as [|n IH]; intros l r Hl Hr L; [lia|]. cbn [eq_loop].
  destruct l as [|[lk lb] lt].
  { destruct r as [|e rt].
    - exists true. split; [reflexivity|]. split; auto. intros _ v V. reflexivity.
    - exists (map_isEmpty (e :: rt)). split; [reflexivity|]. rewrite (is_empty_spec _ _ Hr). split; intros E v V; specialize (E v V); [now rewrite E|now rewrite <- E]. }
  destruct r as [|[rk rb] rt].
  { exists (map_isEmpty ((lk, lb) :: lt)). split; [reflexivity|]. rewrite (is_empty_spec _ _ Hl). split; intros E v V; specialize (E v V); [now rewrite E|now rewrite E]. }
  cbn [length] in L. destruct (mokm_tail lk lb lt Hl) as (Ol & Kl & Bl & Al & Cl). destruct (mokm_tail rk rb rt Hr) as (Or & Kr & Br & Ar & Cr).
  assert (EE : forall k b v, roaring_bitmap_is_empty b = true -> entry_set (k, b) v = false). { intros k b v E. apply empty_nil in E. subst b. unfold entry_set. cbn [snd]. replace (mem [] (lowBytes v)) with false by reflexivity. apply andb_false_r. }
  destruct (roaring_bitmap_is_empty lb) eqn:El.
  { destruct (IH lt ((rk, rb) :: rt) Ol Hr) as (b & E & S); [cbn [length]; lia|]. exists b. split; auto. rewrite S. split; intros X v V; specialize (X v V); [rewrite Cl, EE, orb_false_r by auto; auto|rewrite Cl, EE, orb_false_r in X by auto; auto]. }
  destruct (roaring_bitmap_is_empty rb) eqn:Er.
  { destruct (IH ((lk, lb) :: lt) rt Hl Or) as (b & E & S); [cbn [length]; lia|]. exists b. split; auto. rewrite S. split; intros X v V; specialize (X v V); [rewrite Cr, EE, orb_false_r by auto; auto|rewrite Cr, EE, orb_false_r in X by auto; auto]. }
  assert (NE : forall b, bok b -> roaring_bitmap_is_empty b = false -> exists v, val32 v /\ mem b v = true).
  { intros b B E. destruct b as [|[k c] t]; [discriminate|]. pose proof (q_minimum _ _ (bok_den _ B)) as [(V & M & _)|(S & _)]; [eauto|]. exfalso. apply (q_is_empty _ _ (bok_den _ B)) in S. congruence. }
  assert (ABS : forall k b t j v, mokm ((k, b) :: t) -> key32 j -> j < k -> val32 v -> map_contains ((k, b) :: t) (j * 2^32 + v) = false).
  { intros k b t j v Hm Kj Lj V. unfold map_contains. destruct (join_high j v Kj V) as (-> & _ & _). replace (mfind ((k, b) :: t) j) with (@None bitmap); [reflexivity|]. symmetry. apply mfind_None. intros [I|I]; [cbn in I; lia|]. destruct (mokm_tail k b t Hm) as (_ & _ & _ & A & _). specialize (A _ I). lia. }
  assert (HD : forall k b t v, mokm ((k, b) :: t) -> key32 k -> bok b -> val32 v -> map_contains ((k, b) :: t) (k * 2^32 + v) = mem b v).
  { intros k b t v Hm K B V. unfold map_contains. destruct (join_high k v K V) as (-> & -> & _). cbn [mfind]. rewrite Z.eqb_refl. apply (q_contains b (mem b)); auto using bok_den. }
  destruct (lk =? rk) eqn:Ek; cbn [negb].
  2:{ exists false. split; auto. split; [discriminate|]. intros S. exfalso. destruct (Z_lt_dec lk rk) as [Lt|Ge].
      - destruct (NE lb Bl El) as (v & V & M). specialize (S (lk * 2^32 + v) (proj2 (proj2 (join_high lk v Kl V)))). rewrite (HD lk lb lt v Hl Kl Bl V), (ABS rk rb rt lk v Hr Kl Lt V) in S. congruence.
      - destruct (NE rb Br Er) as (v & V & M). specialize (S (rk * 2^32 + v) (proj2 (proj2 (join_high rk v Kr V)))). rewrite (HD rk rb rt v Hr Kr Br V), (ABS lk lb lt rk v Hl Kr ltac:(lia) V) in S. congruence. }
  apply Z.eqb_eq in Ek. subst rk. pose proof (q_equals lb rb _ _ (bok_den lb Bl) (bok_den rb Br)) as QE.
  destruct (roaring_bitmap_equals lb rb) eqn:Eq; cbn [negb].
  - destruct (IH lt rt Ol Or) as (b & E & S); [lia|]. exists b. split; auto. rewrite S. assert (M : same_set (mem lb) (mem rb)) by now apply QE.
    assert (EN : forall v, val64 v -> entry_set (lk, lb) v = entry_set (lk, rb) v). { intros v V. unfold entry_set. cbn [fst snd]. f_equal. apply M. apply (split_high v V). }
    split; intros X v V.
    + rewrite Cl, Cr, EN, X by auto. reflexivity.
    + specialize (X v V). rewrite Cl, Cr, EN in X by auto. destruct (entry_set (lk, rb) v) eqn:Ev; [|now rewrite !orb_false_r in X].
      unfold entry_set in Ev. apply andb_true_iff in Ev as (Ev & _). apply Z.eqb_eq in Ev. cbn [fst] in Ev. unfold map_contains. rewrite Ev.
      replace (mfind lt lk) with (@None bitmap) by (symmetry; apply mfind_None; intros J; specialize (Al _ J); lia). replace (mfind rt lk) with (@None bitmap) by (symmetry; apply mfind_None; intros J; specialize (Ar _ J); lia). reflexivity.
  - exists false. split; auto. split; [discriminate|]. intros S. exfalso. assert (false = true) by (apply QE; intros v V; rewrite <- (HD lk lb lt v Hl Kl Bl V), <- (HD lk rb rt v Hr Kr Br V); apply S, (join_high lk v Kl V)). discriminate.
Qed.
Lemma equals_spec m o P Q : mden m P -> mden o Q -> exists b, map_equals m o = Some b /\ (b = true <-> same_set64 P Q).
Proof.
  intros H G. destruct (eq_loop_spec (S (length m + length o)) m o (mokm_of m P H) (mokm_of o Q G)) as (b & E & S); [lia|]. exists b. split; auto. rewrite S. split; intros X v V; specialize (X v V).
  - now rewrite <- (mden_contains m P v H V), <- (mden_contains o Q v G V).
  - now rewrite (mden_contains m P v H V), (mden_contains o Q v G V).
Qed.

(** ** Smallest and largest value *)
Lemma unite_eq k v : 0 <= k -> val32 v -> uniteBytes k v = k * 2^32 + v.
Proof.
  intros K V. unfold uniteBytes. rewrite Z.shiftl_mul_pow2 by lia. rewrite Z.lor_comm. unfold val32 in V. rewrite <- (Z.shiftl_mul_pow2 k 32) by lia. apply (Z.bits_inj'). intros n N. rewrite Z.lor_spec, Z.shiftl_spec by lia.
  rewrite Z.shiftl_mul_pow2 by lia. destruct (Z_lt_dec n 32) as [L|L].
  - rewrite (Z.testbit_neg_r k) by lia. rewrite orb_false_r. rewrite Z.add_comm. rewrite <- (Z.mod_pow2_bits_low (v + k * 2^32) 32 n) by lia. rewrite Z.mod_add, Z.mod_small by lia. reflexivity.
  - replace (Z.testbit v n) with false. 2:{ symmetry. destruct (Z.eq_dec v 0) as [->|Nv]; [apply Z.bits_0|]. apply Z.bits_above_log2; [lia|]. apply Z.log2_lt_pow2; [lia|]. apply Z.lt_le_trans with (2^32); [lia|]. apply Z.pow_le_mono_r; lia. }
    cbn [orb]. replace n with (n - 32 + 32) at 2 by lia. rewrite <- Z.div_pow2_bits by lia. rewrite Z.div_add_l, Z.div_small by lia. now rewrite Z.add_0_r.
Qed.
Lemma first_nonempty_in m k b : first_nonempty m = Some (k, b) -> In (k, b) m /\ roaring_bitmap_is_empty b = false.
Proof. induction m as [|[j c] t IH]; cbn [first_nonempty]; [discriminate|]. destruct (roaring_bitmap_is_empty c) eqn:E; intros X; [destruct (IH X); split; auto; now right|]. injection X as <- <-. split; [now left|auto]. Qed.
Lemma first_nonempty_none m k b : first_nonempty m = None -> In (k, b) m -> roaring_bitmap_is_empty b = true.
Proof. induction m as [|[j c] t IH]; cbn [first_nonempty]; [intros _ []|]. destruct (roaring_bitmap_is_empty c) eqn:E; [|discriminate]. intros X [I|I]; [injection I as <- <-; auto|auto]. Qed.
Lemma none_empty m P : mden m P -> (forall k b, In (k, b) m -> roaring_bitmap_is_empty b = true) -> same_set64 P zempty.
Proof. intros H A. apply (is_empty_spec m P H). unfold map_isEmpty. rewrite forallb_forall. intros [k b] I. exact (A k b I). Qed.
Lemma first_nonempty_least m k b : msorted m -> first_nonempty m = Some (k, b) -> forall j c, In (j, c) m -> roaring_bitmap_is_empty c = false -> k <= j.
Proof.
  induction m as [|[j c] t IH]; intros S; cbn [first_nonempty]; [discriminate|]. apply msorted_cons in S as (A & S). destruct (roaring_bitmap_is_empty c) eqn:E.
  - intros X j' c' [I|I] N; [injection I as <- <-; congruence|eauto].
  - intros X j' c' [I|I] N; injection X as <- <-; [injection I as <- <-; lia|]. specialize (A j'). assert (In j' (mkeys t)) by (apply in_map_iff; exists (j', c'); auto). specialize (A H). lia.
Qed.
Lemma minimum_spec m P : mden m P -> (val64 (map_minimum m) /\ P (map_minimum m) = true /\ forall v, val64 v -> P v = true -> map_minimum m <= v) \/ (same_set64 P zempty /\ map_minimum m = 2^64 - 1).
Proof.
  intros H. unfold map_minimum. destruct (first_nonempty m) as [[k b]|] eqn:E.
  - left. destruct (first_nonempty_in m k b E) as (I & N). pose proof (mden_sorted m P H) as S. pose proof (In_mfind m k b S I) as F. destruct (mden_found m P k b H F) as (K & D).
    destruct (q_minimum b _ D) as [(V & M & L)|(Z0 & _)]; [|apply (q_is_empty b _ D) in Z0; congruence]. rewrite unite_eq by (auto; unfold key32 in K; lia). destruct (join_high k _ K V) as (_ & _ & V64). split; auto. split; auto.
    intros v Vv Pv. destruct (split_high v Vv) as (Kv & Lv & Ev). rewrite <- (half_at P v Vv) in Pv. destruct (mfind m (highBytes v)) as [c|] eqn:Fv; [|rewrite (mden_absent m P _ _ H Kv Fv Lv) in Pv; discriminate].
    assert (NEc : roaring_bitmap_is_empty c = false). { destruct (roaring_bitmap_is_empty c) eqn:X; auto. destruct (mden_found m P _ c H Fv) as (_ & Dc). apply (q_is_empty c _ Dc) in X. rewrite (X _ Lv) in Pv. discriminate. }
    pose proof (first_nonempty_least m k b S E _ _ (mfind_In m _ c Fv) NEc) as LE. destruct (Z.eq_dec k (highBytes v)) as [EQ|NQ].
    + rewrite <- EQ in Pv. specialize (L _ Lv Pv). lia.
    + unfold val32, key32 in *. lia.
  - right. split; auto. eapply none_empty; eauto. intros k b. now apply first_nonempty_none.
Qed.
Lemma first_nonempty_greatest m k b : msorted m -> first_nonempty (rev m) = Some (k, b) -> forall j c, In (j, c) m -> roaring_bitmap_is_empty c = false -> j <= k.
Proof.
  induction m as [|[j c] t IH] using rev_ind; intros S; [discriminate|]. rewrite rev_app_distr. cbn [rev app first_nonempty]. unfold msorted, mkeys in *. rewrite map_app in S. apply incr_app in S as (S & _ & A).
  destruct (roaring_bitmap_is_empty c) eqn:E; intros X j' c' I N; apply in_app_iff in I as [I|[I|[]]].
  - eapply IH; eauto.
  - injection I as <- <-. congruence.
  - injection X as <- <-. specialize (A j' j (in_map fst _ _ I) (or_introl eq_refl)). lia.
  - injection I as <- <-. injection X as <- <-. lia.
Qed.
Lemma maximum_spec m P : mden m P -> (val64 (map_maximum m) /\ P (map_maximum m) = true /\ forall v, val64 v -> P v = true -> v <= map_maximum m) \/ (same_set64 P zempty /\ map_maximum m = 0).
Proof.
  intros H. unfold map_maximum. destruct (first_nonempty (rev m)) as [[k b]|] eqn:E.
  - left. destruct (first_nonempty_in (rev m) k b E) as (I & N). rewrite <- in_rev in I. pose proof (mden_sorted m P H) as S. pose proof (In_mfind m k b S I) as F. destruct (mden_found m P k b H F) as (K & D).
    destruct (q_maximum b _ D) as [(V & M & L)|(Z0 & _)]; [|apply (q_is_empty b _ D) in Z0; congruence]. rewrite unite_eq by (auto; unfold key32 in K; lia). destruct (join_high k _ K V) as (_ & _ & V64). split; auto. split; auto.
    intros v Vv Pv. destruct (split_high v Vv) as (Kv & Lv & Ev). rewrite <- (half_at P v Vv) in Pv. destruct (mfind m (highBytes v)) as [c|] eqn:Fv; [|rewrite (mden_absent m P _ _ H Kv Fv Lv) in Pv; discriminate].
    assert (NEc : roaring_bitmap_is_empty c = false). { destruct (roaring_bitmap_is_empty c) eqn:X; auto. destruct (mden_found m P _ c H Fv) as (_ & Dc). apply (q_is_empty c _ Dc) in X. rewrite (X _ Lv) in Pv. discriminate. }
    pose proof (first_nonempty_greatest m k b S E _ _ (mfind_In m _ c Fv) NEc) as LE. destruct (Z.eq_dec k (highBytes v)) as [EQ|NQ].
    + rewrite <- EQ in Pv. specialize (L _ Lv Pv). lia.
    + unfold val32, key32 in *. lia.
  - right. split; auto. eapply none_empty; eauto. intros k b I. eapply first_nonempty_none; eauto. now rewrite <- in_rev in I || (apply in_rev in I; now rewrite ?rev_involutive in *) || (apply -> in_rev; exact I).
Qed.
