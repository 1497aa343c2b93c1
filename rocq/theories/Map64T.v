(** Map64T: the calls of the C++ 64-bit map leave no empty inner bitmap behind, except at key 0. *)
From Coq Require Import ZArith List Bool Lia Sorting.Sorted.
From Verif Require Import Base ArrayUtil BitUtil BitsetC ArrayC RunC RunD Convert Containers RArray RBinary RPoint RRange RQuery Iter Bytes Serial Spec SpecI Spec64 SpecMap FormatSpec64 Obs Derived Map64 Map64P Map64A Map64Q Map64C Map64I Map64S.
From Verif Require IterP DerivedI Hist64.
Import ListNotations.
Local Open Scope Z_scope.
Local Opaque zr.

Definition tight (m : rmap) : Prop := forall k, 0 < k -> mfind m k <> Some [].
Lemma tight_no_empty m : msorted m -> tight m -> no_empty m.
Proof.
  intros S T k b I K. destruct (roaring_bitmap_is_empty b) eqn:E; auto. apply empty_nil in E. subst b. apply (In_mfind m k []) in I; auto. exfalso. now apply (T k K).
Qed.
Lemma tight_den m P : mden m P -> (forall k, 0 < k -> mhas m k = true -> exists v, val32 v /\ half P k v = true) -> tight m.
Proof.
  intros H A k K F. assert (M : mhas m k = true) by (unfold mhas; now rewrite F). destruct (A k K M) as (v & V & T). destruct (mden_found m P k [] H F) as (_ & D). rewrite <- (den_mem _ _ v D V) in T. rewrite (den_mem _ _ v den_new V) in T. discriminate.
Qed.
Lemma den_tight m P k : mden m P -> tight m -> 0 < k -> mhas m k = true -> exists v, val32 v /\ half P k v = true.
Proof.
  intros H T K M. destruct (found m k M) as (b & F). destruct (mden_found m P k b H F) as (_ & D). assert (E : roaring_bitmap_is_empty b = false). { destruct (roaring_bitmap_is_empty b) eqn:E; auto. apply empty_nil in E. subst. now apply T in F. }
  pose proof (nonempty_len b (den_bok _ _ D) E) as L. unfold blen in L. destruct (elems b) as [|v l] eqn:X; [unfold zlen in L; cbn in L; lia|]. assert (I : In v (elems b)) by (rewrite X; now left). apply (elems_lists b _ D) in I. exists v. exact I.
Qed.
Lemma key_tight m P m' Q : mden m P -> mden m' Q -> tight m ->
  (forall k, key32 k -> 0 < k -> mhas m' k = true -> (mhas m k = true /\ (forall v, val32 v -> half P k v = true -> half Q k v = true)) \/ exists v, val32 v /\ half Q k v = true) -> tight m'.
Proof.
  intros H H' T A. apply (tight_den m' Q); auto. intros k K M. destruct (A k) as [(M0 & B)|B]; auto; [apply (proj2 (proj1 H')), mhas_In, M|]. destruct (den_tight m P k H T K M0) as (v & V & X). exists v. auto.
Qed.
(** no new empty bitmaps *)
Definition sub (m m' : rmap) : Prop := forall k, mfind m' k = Some [] -> mfind m k = Some [].
Lemma sub_refl m : sub m m. Proof. intros k E. exact E. Qed.
Lemma sub_trans a b c : sub a b -> sub b c -> sub a c. Proof. intros A B k E. apply A, B, E. Qed.
Lemma sub_tight m m' : sub m m' -> tight m -> tight m'. Proof. intros S T k K E. exact (T k K (S k E)). Qed.
Lemma keep_nil m k b h : msorted m -> mfind (mkeep m k b) h = Some [] -> h <> k /\ mfind m h = Some [].
Proof.
  intros S. rewrite mfind_mkeep by auto. destruct (h =? k) eqn:E; [|intros X; split; auto; lia]. destruct (roaring_bitmap_is_empty b) eqn:B; [discriminate|]. intros X. injection X as ->. discriminate.
Qed.
Lemma sub_keep m k b : msorted m -> sub m (mkeep m k b). Proof. intros S h E. now apply keep_nil in E. Qed.
Lemma sub_filter p m : msorted m -> sub m (filter p m).
Proof. intros S h. rewrite mfind_filter by auto. destruct (mfind m h); [|discriminate]. destruct (p (h, b)); [auto|discriminate]. Qed.
Lemma tight_put m k b : msorted m -> tight m -> (b <> [] \/ k <= 0) -> tight (mput m k b).
Proof. intros S T A h H. rewrite mfind_mput by auto. destruct (h =? k) eqn:E; [|now apply T]. apply Z.eqb_eq in E. subst. destruct A as [A|A]; [congruence|lia]. Qed.
Lemma tight_nil : tight []. Proof. intros k _. discriminate. Qed.

(** ** Single values *)
Lemma half_self P x : val64 x -> P x = true -> exists v, val32 v /\ half P (highBytes x) v = true.
Proof. intros V X. destruct (split_high x V) as (K & L & E). exists (lowBytes x). split; auto. unfold half. now rewrite E. Qed.
Lemma tight_add m P x : mden m P -> val64 x -> tight m -> tight (map_add m x).
Proof.
  intros H V T. apply (key_tight m P _ (zadd P x) H (mden_add m P x H V) T). intros k K _ M. unfold map_add in M. rewrite mhas_mput in M by apply H. destruct (k =? highBytes x) eqn:E.
  - apply Z.eqb_eq in E. subst. right. apply half_self; auto. unfold zadd. now rewrite Z.eqb_refl, orb_true_r.
  - left. split; auto. intros v _ X. unfold half, zadd in *. now rewrite X.
Qed.
Lemma add_checked_fst m x : fst (map_addChecked m x) = mput m (highBytes x) (fst (roaring_bitmap_add_checked (inner m (highBytes x)) (lowBytes x))).
Proof. unfold map_addChecked. now destruct (roaring_bitmap_add_checked _ _). Qed.
Lemma tight_addChecked m P x : mden m P -> val64 x -> tight m -> tight (fst (map_addChecked m x)).
Proof.
  intros H V T. apply (key_tight m P _ (zadd P x) H (proj1 (mden_add_checked m P x H V)) T). intros k K _ M. rewrite add_checked_fst in M. rewrite mhas_mput in M by apply H. destruct (k =? highBytes x) eqn:E.
  - apply Z.eqb_eq in E. subst. right. apply half_self; auto. unfold zadd. now rewrite Z.eqb_refl, orb_true_r.
  - left. split; auto. intros v _ X. unfold half, zadd in *. now rewrite X.
Qed.
Lemma tight_remove m x : msorted m -> tight m -> tight (map_remove m x).
Proof. intros S T. unfold map_remove. destruct (mfind m (highBytes x)); auto. eapply sub_tight; [now apply sub_keep|auto]. Qed.
Lemma tight_removeChecked m P x : mden m P -> val64 x -> tight m -> tight (fst (map_removeChecked m x)).
Proof.
  intros H V T. unfold map_removeChecked. destruct (mfind m (highBytes x)) as [b|] eqn:F; auto. destruct (roaring_bitmap_remove_checked b (lowBytes x)) as [b' c] eqn:R. destruct c; cbn [fst].
  - eapply sub_tight; [apply sub_keep, H|auto].
  - destruct (mden_remove_checked m P x H V) as (D & C). unfold map_removeChecked in D, C. rewrite F, R in D, C. cbn [fst snd] in D, C.
    apply (key_tight m P _ (zdel P x) H D T). intros k K _ M. rewrite mhas_mput in M by apply H. left. split.
    + apply orb_true_iff in M as [M|M]; auto. apply Z.eqb_eq in M. subst. unfold mhas. now rewrite F.
    + intros v Vv X. unfold half, zdel in *. rewrite X. cbn [andb]. destruct (Z.eqb_spec (k * 2^32 + v) x) as [E|E]; [rewrite E in X; congruence|reflexivity].
Qed.
Lemma tight_fold_add vals : forall m P, mden m P -> (forall v, In v vals -> val64 v) -> tight m -> tight (fold_left map_add vals m).
Proof.
  induction vals as [|v vs IH]; intros m P H V T; cbn [fold_left]; auto. apply (IH _ (zadd P v)); [apply mden_add; auto; apply V; now left|intros w W; apply V; now right|]. apply (tight_add m P); auto. apply V. now left.
Qed.
Lemma tight_addMany m P vals : mden m P -> (forall v, In v vals -> val64 v) -> tight m -> tight (map_addMany m vals).
Proof. intros H V T. unfold map_addMany. rewrite (add_many_fold vals m P) by (auto; discriminate). now apply (tight_fold_add vals m P). Qed.

(** ** Ranges *)
Lemma ensure_find m a b h : mwf m -> key32 a -> key32 b -> a <= b -> mfind (ensureRangePopulated m a b) h = match mfind m h with Some c => Some c | None => if (a <=? h) && (h <=? b) then Some [] else None end.
Proof.
  intros W A B L. unfold key32 in *. destruct (populate_spec (Z.to_nat (b - a + 1)) m a W ltac:(lia) ltac:(lia)) as (_ & Q). unfold ensureRangePopulated. cbv zeta in Q. rewrite Z2Nat.id in Q by lia. rewrite Q. replace (h <? a + (b - a + 1)) with (h <=? b) by lia. reflexivity.
Qed.
Lemma put_has m k b c h : msorted m -> mfind m k = Some c -> mhas (mput m k b) h = mhas m h.
Proof. intros S F. rewrite mhas_mput by auto. destruct (h =? k) eqn:E; auto. apply Z.eqb_eq in E. subst. unfold mhas. now rewrite F. Qed.
Lemma copy_loop_keys b n : forall m cur m' cur', msorted m -> copy_loop n m cur b = Some (m', cur') -> msorted m' /\ forall h, mhas m' h = mhas m h.
Proof.
  induction n as [|n IH]; intros m cur m' cur' S E; cbn [copy_loop] in E; [injection E as <- _; auto|]. destruct cur as [k|]; cbn [obind] in E; [|discriminate]. destruct (mfind m k) as [c|] eqn:F; cbn [obind] in E; [|discriminate].
  destruct (IH _ _ _ _ (mput_sorted m k b S) E) as (S' & A). split; auto. intros h. rewrite A. eapply put_has; eauto.
Qed.
Lemma add_range_keys m a b m' h : mwf m -> val64 a -> val64 b -> map_addRangeClosed m a b = Some m' -> mhas m' h = true -> mhas m h = true \/ (a <= b /\ highBytes a <= h <= highBytes b).
Proof.
  intros W A B. unfold map_addRangeClosed. destruct (b <? a) eqn:LE; [intros E; injection E as <-; auto|]. destruct (split_high a A) as (Ka & La & Ea). destruct (split_high b B) as (Kb & Lb & Eb).
  assert (LH : highBytes a <= highBytes b) by (unfold highBytes; apply Z.div_le_mono; lia). pose proof (ensure_find m _ _ h W Ka Kb LH) as EF. destruct (populate_spec (Z.to_nat (highBytes b - highBytes a + 1)) m (highBytes a) W) as ((S1 & _) & _); [unfold key32 in *; lia..|]. fold (ensureRangePopulated m (highBytes a) (highBytes b)) in S1. set (m1 := ensureRangePopulated m (highBytes a) (highBytes b)) in *. clearbody m1.
  assert (G : mhas m1 h = true -> mhas m h = true \/ (a <= b /\ highBytes a <= h <= highBytes b)). { unfold mhas. rewrite EF. destruct (mfind m h); auto. destruct ((highBytes a <=? h) && (h <=? highBytes b)) eqn:R; [right; lia|discriminate]. }
  intros E M. apply G. clear G EF. revert E. destruct (mfind m1 (highBytes a)) as [c|] eqn:F; cbn [obind]; [|discriminate]. destruct (highBytes a =? highBytes b). { intros E. injection E as <-. now rewrite (put_has _ _ _ c) in M. }
  set (m2 := mput m1 (highBytes a) _). assert (S2 : msorted m2) by (now apply mput_sorted). assert (H2 : forall j, mhas m2 j = mhas m1 j) by (intros j; eapply put_has; eauto). clearbody m2. rewrite <- H2. set (X := if highBytes b - highBytes a - 1 =? 0 then _ else _).
  assert (KX : forall m3 cur, X = Some (m3, cur) -> msorted m3 /\ forall j, mhas m3 j = mhas m2 j).
  { unfold X. intros m3 cur. destruct (highBytes b - highBytes a - 1 =? 0); [intros E; injection E as <- _; auto|]. destruct (mnext m2 (highBytes a)) as [k|]; cbn [obind]; [|discriminate]. destruct (mfind m2 k) as [d|] eqn:F2; cbn [obind]; [|discriminate]. intros E. apply copy_loop_keys in E; [|now apply mput_sorted]. destruct E as (S3 & A3). split; auto. intros j. rewrite A3. eapply put_has; eauto. }
  clearbody X. destruct X as [(m3, cur)|]; cbn [obind]; [|discriminate]. destruct (KX m3 cur eq_refl) as (S3 & H3). destruct cur as [k|]; cbn [obind]; [|discriminate]. destruct (mfind m3 k) as [d|] eqn:F3; cbn [obind]; [|discriminate]. intros E. injection E as <-. rewrite (put_has _ _ _ d) in M by auto. now rewrite <- H3.
Qed.
Lemma ival_inhabited a b k : val64 a -> val64 b -> a <= b -> highBytes a <= k <= highBytes b -> exists v, val32 v /\ half (zival a (b + 1)) k v = true.
Proof.
  intros A B L R. destruct (split_high a A) as (Ka & La & Ea). destruct (split_high b B) as (Kb & Lb & Eb). unfold val32, key32 in *. destruct (Z.eq_dec k (highBytes a)) as [->|N].
  - exists (lowBytes a). split; auto. unfold half, zival. lia.
  - exists 0. split; [unfold val32; lia|]. unfold half, zival. lia.
Qed.
Lemma tight_add_range m P a b m' : mden m P -> val64 a -> val64 b -> map_addRangeClosed m a b = Some m' -> tight m -> tight m'.
Proof.
  intros H A B E T. destruct (mden_add_range m P a b H A B) as (m2 & E2 & D). rewrite E2 in E. injection E as ->. apply (key_tight m P _ _ H D T). intros k K _ M. destruct (add_range_keys m a b m' k (proj1 H) A B E2 M) as [X|(X & Y)].
  - left. split; auto. intros v _ Z. unfold half, zunion in *. now rewrite Z.
  - right. destruct (ival_inhabited a b k A B X Y) as (v & V & Z). exists v. split; auto. unfold half, zunion in *. rewrite Z. apply orb_true_r.
Qed.
Lemma tight_addRange m P a b m' : mden m P -> val64 a -> val64 b -> map_addRange m a b = Some m' -> tight m -> tight m'.
Proof.
  intros H A B. unfold map_addRange. destruct (b <=? a) eqn:E; [intros X; injection X as <-; auto|]. intros X. apply (tight_add_range m P a (b - 1) m'); auto. unfold val64 in *. lia.
Qed.
Lemma tight_at0 m b : msorted m -> tight m -> tight (mput m 0 b). Proof. intros S T. apply tight_put; auto. right. lia. Qed.
Lemma flip_loop_nil cap n : forall m cur m' cur', msorted m -> flip_loop n cap m cur = Some (m', cur') -> msorted m' /\ sub m m'.
Proof.
  induction n as [|n IH]; intros m cur m' cur' S E; cbn [flip_loop] in E; [injection E as <- _; split; auto using sub_refl|]. destruct cur as [k|]; cbn [obind] in E; [|discriminate]. destruct (mfind m k) as [c|]; cbn [obind] in E; [|discriminate].
  destruct (IH _ _ _ _ (mkeep_sorted m k _ S) E) as (S' & A). split; auto. eapply sub_trans; [|exact A]. now apply sub_keep.
Qed.
Lemma flip_loop_full cap n : forall m k m' cur', mwf m -> key32 k -> (forall i, k <= i <= k + Z.of_nat n -> mhas m i = true) -> flip_loop n cap m (Some k) = Some (m', cur') -> forall h, k <= h < k + Z.of_nat n -> mfind m' h <> Some [].
Proof.
  induction n as [|n IH]; intros m k m' cur' W K A E h R; [lia|]. cbn [flip_loop] in E. destruct (found m k (A k ltac:(lia))) as (c & F). rewrite F in E. cbn [obind] in E. pose proof (proj1 W) as S.
  rewrite next_present in E by (auto; apply A; lia). set (c' := roaring_bitmap_flip_inplace_closed cap c 0 uint32_max) in *. assert (W1 : mwf (mkeep m k c')) by (apply mwf_mkeep; auto). assert (K1 : key32 (k + 1)) by (apply (proj2 W), mhas_In, A; lia).
  assert (A1 : forall i, k + 1 <= i <= k + 1 + Z.of_nat n -> mhas (mkeep m k c') i = true) by (intros i I; rewrite mhas_mkeep_other by (auto; lia); apply A; lia).
  destruct (Z.eq_dec h k) as [->|N]; [|apply (IH _ _ _ _ W1 K1 A1 E); lia]. intros X. apply (flip_loop_nil cap n _ _ _ _ (proj1 W1) E) in X. apply keep_nil in X; auto. lia.
Qed.
Lemma tight_flip_closed cap m a b m' : mwf m -> val64 a -> val64 b -> map_flipClosed cap m a b = Some m' -> tight m -> tight m'.
Proof.
  intros W A B E T. revert E. unfold map_flipClosed. destruct (b <? a) eqn:LE; [intros E; injection E as <-; auto|]. destruct (split_high a A) as (Ka & La & Ea). destruct (split_high b B) as (Kb & Lb & Eb).
  assert (LH : highBytes a <= highBytes b) by (unfold highBytes; apply Z.div_le_mono; lia). pose proof (fun h => ensure_find m _ _ h W Ka Kb LH) as EF. destruct (populate_spec (Z.to_nat (highBytes b - highBytes a + 1)) m (highBytes a) W) as (W1 & _); [unfold key32 in *; lia..|]. fold (ensureRangePopulated m (highBytes a) (highBytes b)) in W1. set (m1 := ensureRangePopulated m (highBytes a) (highBytes b)) in *. clearbody m1. pose proof (proj1 W1) as S1.
  assert (T1 : forall h, 0 < h -> mfind m1 h = Some [] -> highBytes a <= h <= highBytes b). { intros h HP. rewrite EF. destruct (mfind m h) eqn:F; [intros X; injection X as ->; now apply T in F|]. destruct ((highBytes a <=? h) && (h <=? highBytes b)) eqn:R; [lia|discriminate]. }
  assert (A1 : forall i, highBytes a <= i <= highBytes b -> mhas m1 i = true). { intros i I. unfold mhas. rewrite EF. replace ((highBytes a <=? i) && (i <=? highBytes b)) with true by lia. destruct (mfind m i); reflexivity. }
  clear EF. destruct (found m1 (highBytes a) (A1 (highBytes a) ltac:(lia))) as (c & F). rewrite F. cbn [obind]. destruct (highBytes a =? highBytes b) eqn:EH. { intros E. injection E as <-. intros h HP X. apply keep_nil in X as (N & X); auto. apply T1 in X; auto. lia. }
  apply Z.eqb_neq in EH. rewrite (next_present m1) by (auto; apply A1; lia). set (m2 := mkeep m1 (highBytes a) _). assert (W2 : mwf m2) by (apply mwf_mkeep; auto). destruct (flip_loop _ cap m2 _) as [(m3, cur)|] eqn:FL; cbn [obind]; [|discriminate].
  assert (K1 : key32 (highBytes a + 1)) by (unfold key32 in *; lia). assert (A2 : forall i, highBytes a + 1 <= i <= highBytes a + 1 + Z.of_nat (Z.to_nat (highBytes b - highBytes a - 1)) -> mhas m2 i = true). { intros i I. rewrite Z2Nat.id in I by lia. unfold m2. rewrite mhas_mkeep_other by (auto; lia). apply A1. lia. }
  pose proof (flip_loop_full cap _ m2 _ m3 cur W2 K1 A2 FL) as N3. destruct (flip_loop_spec cap _ m2 _ W2 K1 A2) as (m3' & E3 & W3 & _). rewrite E3 in FL. injection FL as -> <-. destruct (flip_loop_nil cap _ _ _ _ _ (proj1 W2) E3) as (S3 & SB). cbn [obind]. rewrite Z2Nat.id in * by lia. replace (highBytes a + 1 + (highBytes b - highBytes a - 1)) with (highBytes b) in * by lia.
  destruct (mfind m3 (highBytes b)) as [e|]; cbn [obind]; [|discriminate]. intros E. injection E as <-. intros h HP X. apply keep_nil in X as (N & X); auto. pose proof X as X0. apply SB in X. apply keep_nil in X as (N2 & X); auto. apply T1 in X; auto. apply (N3 h); auto. lia.
Qed.
Lemma tight_flip cap m a b m' : mwf m -> val64 a -> val64 b -> map_flip cap m a b = Some m' -> tight m -> tight m'.
Proof.
  intros H A B. unfold map_flip. destruct (b <=? a) eqn:E; [intros X; injection X as <-; auto|]. intros X. apply (tight_flip_closed cap m a (b - 1) m'); auto. unfold val64 in *. lia.
Qed.
Lemma tight_flip32 cap m a b : msorted m -> tight m -> tight (map_flipClosed32 cap m a b).
Proof.
  intros S T. unfold map_flipClosed32. set (m1 := match m with (0, _) :: _ => m | _ => memplace m 0 [] end).
  assert (X : m1 = m \/ m1 = mput m 0 []). { unfold m1, memplace. destruct m as [|[[|k|k] b0] t]; auto; destruct (mfind _ 0); auto. }
  eapply sub_tight; [apply sub_keep|]; destruct X as [-> | ->]; auto using mput_sorted, tight_at0.
Qed.
Lemma remove_tail_sub m si ei eh el m' : msorted m -> remove_tail m si ei eh el = Some m' -> sub m m'.
Proof.
  intros S. unfold remove_tail. assert (S1 : msorted (merase_range m si ei) /\ sub m (merase_range m si ei)). { unfold merase_range. destruct si; [split; [now apply mfilter_sorted|now apply sub_filter]|split; auto using sub_refl]. }
  destruct S1 as (S1 & B). destruct ei as [e|]; [|intros E; injection E as <-; auto]. destruct (e =? eh); [|intros E; injection E as <-; auto]. destruct (mfind _ e); cbn [obind]; [|discriminate]. intros E. injection E as <-. eapply sub_trans; [exact B|now apply sub_keep].
Qed.
Lemma remove_range_sub m a b m' : msorted m -> map_removeRangeClosed m a b = Some m' -> sub m m'.
Proof.
  intros S. unfold map_removeRangeClosed. assert (R : forall r : rmap, Some r = Some m' -> r = m') by congruence. destruct (b <? a); [intros E; apply R in E; subst; apply sub_refl|]. destruct (mbegin m); [|intros E; apply R in E; subst; apply sub_refl]. destruct (mlast m); [|intros E; apply R in E; subst; apply sub_refl].
  destruct (_ || _); [intros E; apply R in E; subst; apply sub_refl|]. destruct (mlower m (highBytes a)) as [s|]; cbn [obind]; [|discriminate]. destruct (s =? highBytes a).
  - destruct (mfind m s) as [c|]; cbn [obind]; [|discriminate]. destruct (same_iter _ _); [intros E; apply R in E; subst; now apply sub_keep|]. intros E. apply remove_tail_sub in E; [|now apply mkeep_sorted]. eapply sub_trans; [|exact E]. now apply sub_keep.
  - apply remove_tail_sub. exact S.
Qed.
Lemma removeRange_sub m a b m' : msorted m -> map_removeRange m a b = Some m' -> sub m m'.
Proof. intros S. unfold map_removeRange. destruct (b <=? a); [intros E; injection E as <-; apply sub_refl|now apply remove_range_sub]. Qed.
Lemma remove_range32_sub m a b : msorted m -> sub m (map_removeRangeClosed32 m a b).
Proof. intros S. unfold map_removeRangeClosed32. destruct m as [|[[|k|k] c] t]; try apply sub_refl. now apply sub_keep. Qed.

(** ** Set operations *)
Lemma and_tight sh same m o : msorted m -> tight m -> tight (map_and_inplace sh same m o).
Proof.
  intros S T. unfold map_and_inplace. destruct same; auto. set (f := fun k (b : bitmap) => match mfind o k with None => None | Some ob => let b' := roaring_bitmap_and_inplace false sh b ob in if roaring_bitmap_is_empty b' then None else Some b' end).
  match goal with |- tight (flat_map ?g m) => set (G := g) end.
  assert (E : forall l, flat_map G l = mflat f l).
  { induction l as [|[k b] l IH]; [reflexivity|]. rewrite mflat_cons. change (flat_map G ((k, b) :: l)) with (G (k, b) ++ flat_map G l). rewrite IH. f_equal. unfold f, G. cbn [fst snd]. destruct (mfind o k); auto. cbv zeta. destruct (roaring_bitmap_is_empty _); reflexivity. }
  rewrite E. intros k K. rewrite mfind_mflat by auto. destruct (mfind m k); [|discriminate]. unfold f. destruct (mfind o k); [|discriminate]. cbv zeta. generalize (roaring_bitmap_and_inplace false sh b b0). intros r. destruct r; [discriminate|]. destruct (roaring_bitmap_is_empty _); discriminate.
Qed.
Lemma diff_loop_sub n sh : forall m o si oi m', msorted m -> diff_loop n sh m o si oi = Some m' -> sub m m'.
Proof.
  induction n as [|n IH]; intros m o si oi m' S E; cbn [diff_loop] in E; [discriminate|]. destruct si as [sk|]; [|injection E as <-; apply sub_refl]. destruct oi as [ok|]; [|injection E as <-; apply sub_refl].
  destruct (sk <? ok); [eapply IH; eauto|]. destruct (ok <? sk); [eapply IH; eauto|]. destruct (mfind m sk) as [sb|]; cbn [obind] in E; [|discriminate]. destruct (mfind o ok) as [ob|]; cbn [obind] in E; [|discriminate].
  apply IH in E; [|now apply mkeep_sorted]. eapply sub_trans; [|exact E]. now apply sub_keep.
Qed.
Lemma andnot_tight sh same m o m' : msorted m -> map_andnot_inplace sh same m o = Some m' -> tight m -> tight m'.
Proof. intros S E T. unfold map_andnot_inplace in E. destruct same; [injection E as <-; apply tight_nil|]. eapply sub_tight; [eapply diff_loop_sub; eauto|auto]. Qed.
Lemma or_keys sh cap o : forall m j, In j (mkeys (fold_left (fun m e => match mfind m (fst e) with None => mput m (fst e) (snd e) | Some b => mput m (fst e) (roaring_bitmap_or_inplace sh cap b (snd e)) end) o m)) -> In j (mkeys m) \/ In j (mkeys o).
Proof.
  induction o as [|[k c] o IH]; intros m j J; [auto|]. cbn [fold_left fst snd] in J. apply IH in J as [J|J]; [|right; now right]. destruct (mfind m k); apply mput_keys in J as [->|J]; auto; right; now left.
Qed.
Lemma or_tight sh cap same m o P Q : mden m P -> mden o Q -> (same = true -> m = o) -> tight m -> tight o -> tight (map_or_inplace sh cap same m o).
Proof.
  intros H G E T U. apply (tight_den _ (zunion P Q)); [now apply mden_or|]. intros k K M. unfold map_or_inplace in M. assert (M2 : mhas m k = true \/ mhas o k = true). { destruct same; auto. rewrite !mhas_In. apply mhas_In in M. now apply or_keys in M. }
  unfold half, zunion. destruct M2 as [M2|M2]; [destruct (den_tight m P k H T K M2) as (v & V & X)|destruct (den_tight o Q k G U K M2) as (v & V & X)]; exists v; split; auto; unfold half in X; rewrite X; auto. apply orb_true_r.
Qed.
Lemma xor_tight_loop sh o : forall m, msorted m -> (forall k b, In (k, b) o -> 0 < k -> b <> []) -> tight m ->
  tight (fold_left (fun m e => match mfind m (fst e) with None => mput m (fst e) (snd e) | Some b => mkeep m (fst e) (roaring_bitmap_xor_inplace sh b (snd e)) end) o m).
Proof.
  induction o as [|[k c] o IH]; intros m S U T; [auto|]. cbn [fold_left fst snd]. assert (U' : forall j b, In (j, b) o -> 0 < j -> b <> []) by (intros j b J; apply (U j b); now right). destruct (mfind m k); apply IH; auto using mput_sorted, mkeep_sorted.
  - eapply sub_tight; [now apply sub_keep|auto].
  - apply tight_put; auto. destruct (Z_lt_dec 0 k); [left; apply (U k c); [now left|auto]|right; lia].
Qed.
Lemma xor_tight sh same m o : msorted m -> msorted o -> tight m -> tight o -> tight (map_xor_inplace sh same m o).
Proof. intros S S' T U. unfold map_xor_inplace. destruct same; [apply tight_nil|]. apply xor_tight_loop; auto. intros k b I K ->. apply (In_mfind o k []) in I; auto. exact (U k K I). Qed.
Lemma heads_min_in xs : forall acc k, fold_left (fun acc x => match x with [] => acc | (k, _) :: _ => match acc with None => Some k | Some a => Some (Z.min a k) end end) xs acc = Some k -> acc = Some k \/ exists x, In x xs /\ In k (mkeys (x : rmap)).
Proof.
  induction xs as [|x xs IH]; intros acc k E; cbn [fold_left] in E; [auto|]. apply IH in E as [E|(y & I & J)]; [|right; exists y; split; auto; now right]. destruct x as [|[h b] t]; [auto|]. destruct acc as [a|].
  - injection E as E. destruct (Z_le_dec a h); [left; f_equal; lia|right; exists ((h, b) :: t); split; [now left|left; cbn; lia]].
  - injection E as ->. right. exists ((k, b) :: t). split; [now left|now left].
Qed.
Lemma heads_rest_keys k xs j y : In y (heads_rest k xs) -> In j (mkeys y) -> exists x, In x xs /\ In j (mkeys x).
Proof.
  unfold heads_rest. intros I J. apply in_map_iff in I as (x & E & I). exists x. split; auto. subst y. destruct x as [|[h b] t]; [auto|]. destruct (h =? k); auto. now right.
Qed.
Lemma fastunion_keys cap n : forall xs result j, In j (mkeys (fastunion_loop n cap xs result)) -> In j (mkeys result) \/ exists x, In x xs /\ In j (mkeys x).
Proof.
  induction n as [|n IH]; intros xs result j J; cbn [fastunion_loop] in J; [auto|]. destruct (heads_min xs) as [k|] eqn:E; [|auto]. apply IH in J as [J|(y & I & J)]; [|right; eapply heads_rest_keys; eauto].
  unfold mkeys in J. rewrite map_app, in_app_iff in J. destruct J as [J|[J|[]]]; [auto|]. cbn [fst] in J. subst j. unfold heads_min in E. apply heads_min_in in E as [E|E]; [discriminate|auto].
Qed.
Lemma fastunion_tight cap xs Ps : Forall2 mden xs Ps -> Forall tight xs -> tight (map_fastunion cap xs).
Proof.
  intros F T. apply (tight_den _ _ (mden_fastunion cap xs Ps F)). intros k K M. apply mhas_In in M. unfold map_fastunion in M. apply fastunion_keys in M as [[]|(x & I & J)]. apply mhas_In in J.
  assert (X : exists P, In P Ps /\ mden x P). { clear -F I. induction F as [|x0 P0 xs Ps D F IH]; [destruct I|]. destruct I as [->|I]; [exists P0; split; [now left|auto]|]. destruct (IH I) as (P & IP & D'). exists P. split; [now right|auto]. }
  destruct X as (P & IP & D). rewrite Forall_forall in T. destruct (den_tight x P k D (T x I) K J) as (v & V & X). exists v. split; auto. unfold half in *. apply existsb_exists. exists P. auto.
Qed.

(** ** Compression, reloading *)
Lemma same_keys_tight m m' P : mden m P -> mden m' P -> map fst m' = map fst m -> tight m -> tight m'.
Proof. intros H H' E T. apply (key_tight m P m' P H H' T). intros k K _ M. left. split; auto. apply mhas_In in M. apply mhas_In. unfold mkeys in *. now rewrite <- E. Qed.
Lemma each_keys f m : map fst (fst (map_each f m)) = map fst m. Proof. unfold map_each. cbn [fst]. rewrite map_map. apply map_ext. reflexivity. Qed.
Lemma shrink_tight m : msorted m -> tight m -> tight (map_shrinkToFit m). Proof. intros S T. eapply sub_tight; [now apply sub_filter|auto]. Qed.
