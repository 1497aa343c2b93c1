(** DerivedB: the bitset properties, from the lemmas of CBitset. *)
From Coq Require Import ZArith List Bool Lia Sorting.Sorted.
From Verif Require Import Base ArrayUtil BitUtil BitsetC ArrayC RunC Convert Containers RArray RQuery CBitset Spec SpecB Obs Samples.
Import ListNotations.
Local Open Scope Z_scope.
Local Opaque zr.

(** the bitset, seen through bitset_get *)
Definition bden (ws : list Z) (P : zset) : Prop := wfw ws /\ zlen ws <= max_words /\ forall i, 0 <= i -> bitset_get ws i = P i.
Lemma bden_iff ws P : bden ws P <-> wfw ws /\ zlen ws <= max_words /\ forall i, 0 <= i -> bget ws i = P i.
Proof. unfold bden. split; intros (W&L&H); split; auto; split; auto; intros i Hi; specialize (H i Hi); rewrite bitset_get_bget in * by auto; auto. Qed.
Lemma bden_ext ws P Q : bden ws P -> (forall i, 0 <= i -> P i = Q i) -> bden ws Q.
Proof. intros (W&L&H) E. split; auto. split; auto. intros i Hi. rewrite H; auto. Qed.
Lemma max_words_pos i : pos i <-> 0 <= i < 64 * max_words. Proof. unfold pos, max_words. lia. Qed.

Lemma bd_create : bden bitset_create zempty.
Proof. apply bden_iff. split; [constructor|]. split; [unfold bitset_create; change (zlen (@nil Z)) with 0; unfold max_words; lia|]. intros i Hi. apply bget_over. exact Hi. Qed.
Lemma bd_capacity n : 0 <= n <= 2^64 - 128 -> bden (bitset_create_with_capacity n) zempty.
Proof.
  intros Hn. apply bden_iff. unfold bitset_create_with_capacity. rewrite Z.mod_small by lia. split; [apply wfw_words|]. split; [rewrite zlen_words by dm; unfold max_words; dm|].
  intros i Hi. now apply bget_create.
Qed.
Lemma bd_clear ws P : bden ws P -> bden (bitset_clear ws) zempty.
Proof.
  rewrite !bden_iff. intros (W&L&H). split; [apply wfw_const, isw_0|]. split; [unfold bitset_clear; now rewrite zlen_map|]. intros i Hi. now apply bget_clear.
Qed.
Lemma bd_fill ws P : bden ws P -> bden (bitset_fill ws) (zival 0 (bitset_size_in_bits ws)).
Proof.
  rewrite !bden_iff. intros (W&L&H). split; [apply wfw_const, isw_ones|]. split; [unfold bitset_fill; now rewrite zlen_map|]. intros i Hi. rewrite bget_fill by auto.
  unfold zival, bitset_size_in_bits. replace (0 <=? i) with true by lia. cbn [andb]. f_equal. lia.
Qed.
Lemma bd_set ws P i : bden ws P -> pos i -> bden (bitset_set ws i) (zadd P i).
Proof.
  rewrite !bden_iff, max_words_pos. intros (W&L&H) Hi. destruct (set_spec ws i W Hi) as (S1&S2&S3). split; auto. split; [rewrite S2; dm|]. intros x Hx. rewrite S3, H by auto. reflexivity.
Qed.
Lemma bd_put ws P i flag : bden ws P -> pos i -> bden (bitset_set_to_value ws i flag) (if flag then zadd P i else zdel P i).
Proof.
  rewrite !bden_iff, max_words_pos. intros (W&L&H) Hi. destruct (set_to_value_spec ws i flag W Hi) as (S1&S2&S3). split; auto. split; [rewrite S2; dm|]. intros x Hx. rewrite S3, H by auto.
  destruct flag; unfold zadd, zdel; destruct (x =? i); cbn [negb]; rewrite ?orb_true_r, ?orb_false_r, ?andb_false_r, ?andb_true_r; reflexivity.
Qed.
Lemma bd_trim ws P : bden ws P -> bden (bitset_trim ws) P.
Proof.
  rewrite !bden_iff. intros (W&L&H). destruct (trim_spec ws W) as (T1&T2&_). split; auto. split.
  - unfold bitset_trim. unfold zlen in *. rewrite firstn_length. lia.
  - intros i Hi. rewrite T2 by auto. auto.
Qed.
Lemma zlen_grow f a b : zlen (combine_grow f a b) = Z.max (zlen a) (zlen b).
Proof.
  unfold combine_grow. rewrite zlen_app, zlen_map2_min. pose proof (zlen_nonneg a). pose proof (zlen_nonneg b). destruct (Z.ltb_spec (zlen a) (zlen b)); rewrite zdrop_zlen by lia; lia.
Qed.
Lemma bd_union a b P Q : bden a P -> bden b Q -> bden (bitset_inplace_union a b) (zunion P Q).
Proof.
  rewrite !bden_iff. intros (W&L&H) (W'&L'&H'). destruct (union_spec a b W W') as (S1&S2). split; auto. split; [unfold bitset_inplace_union; rewrite zlen_grow; lia|]. intros x Hx. rewrite S2, H, H' by auto. reflexivity.
Qed.
Lemma bd_symm a b P Q : bden a P -> bden b Q -> bden (bitset_inplace_symmetric_difference a b) (zsymm P Q).
Proof.
  rewrite !bden_iff. intros (W&L&H) (W'&L'&H'). destruct (symm_spec a b W W') as (S1&S2). split; auto. split; [unfold bitset_inplace_symmetric_difference; rewrite zlen_grow; lia|]. intros x Hx. rewrite S2, H, H' by auto. reflexivity.
Qed.
Lemma bd_inter a b P Q : bden a P -> bden b Q -> bden (bitset_inplace_intersection a b) (zinter P Q).
Proof.
  rewrite !bden_iff. intros (W&L&H) (W'&L'&H'). destruct (inter_spec a b W W') as (S1&S2). split; auto. split.
  - unfold bitset_inplace_intersection. rewrite zlen_app, zlen_map2_min. destruct (Z_le_dec (zlen b) (zlen a)); [rewrite zlen_words by lia; lia|].
    unfold words_of. replace (Z.to_nat (zlen a - zlen b)) with O by lia. cbn [repeat]. change (zlen (@nil Z)) with 0. lia.
  - intros x Hx. rewrite S2, H, H' by auto. reflexivity.
Qed.
Lemma bd_diff a b P Q : bden a P -> bden b Q -> bden (bitset_inplace_difference a b) (zdiff P Q).
Proof.
  rewrite !bden_iff. intros (W&L&H) (W'&L'&H'). destruct (diff_spec a b W W') as (S1&S2). split; auto. split.
  - unfold bitset_inplace_difference. rewrite zlen_app, zlen_map2_min. pose proof (zlen_nonneg b). destruct (Z_le_dec (zlen b) (zlen a)); [rewrite zdrop_zlen by lia; lia|].
    rewrite zdrop_all by lia. change (zlen (@nil Z)) with 0. lia.
  - intros x Hx. rewrite S2, H, H' by auto. reflexivity.
Qed.

(** ** queries *)
Lemma incr_sorted l : incr l -> StronglySorted Z.lt l.
Proof.
  intros H. induction l as [|x l IH]; [constructor|]. apply incr_cons in H as [H1 H2]. constructor; auto.
Qed.
Lemma sorted_unique (l l2 : list Z) : StronglySorted Z.lt l -> StronglySorted Z.lt l2 -> (forall v, In v l <-> In v l2) -> l = l2.
Proof.
  intros S2. revert l2. induction S2 as [|x l S2 IH F]; intros l2 S1 M.
  - destruct l2 as [|y l2]; auto. exfalso. apply (M y). now left.
  - destruct l2 as [|y l2]. { exfalso. apply (M x). now left. } inversion_clear S1 as [|? ? S1' F1]. rewrite Forall_forall in F, F1.
    assert (x = y). { destruct (proj1 (M x) (or_introl eq_refl)) as [->|I1]; auto. destruct (proj2 (M y) (or_introl eq_refl)) as [->|I2]; auto. specialize (F _ I2). specialize (F1 _ I1). lia. }
    subst y. f_equal. apply IH; auto. intros v. split; intros I.
    + destruct (proj1 (M v) (or_intror I)) as [<-|]; auto. specialize (F _ I). lia.
    + destruct (proj2 (M v) (or_intror I)) as [<-|]; auto. specialize (F1 _ I). lia.
Qed.
Lemma bitset_positions ws P a : wfw ws -> (forall i, 0 <= i -> bget ws i = P i) -> 0 <= a ->
  positions (fun v => (a <=? v) && P v) (filter (bget ws) (zr a (64 * zlen ws))).
Proof.
  intros W H Ha. split.
  - apply incr_sorted, incr_filter, zr_incr.
  - intros v. rewrite filter_In, zr_In, andb_true_iff, Z.leb_le. split.
    + intros [V B]. rewrite <- H by lia. split; [lia|]. split; auto. lia.
    + intros (V&V2&B). rewrite <- H in B by lia. split; auto. split; auto. destruct (Z_lt_dec v (64 * zlen ws)); auto. rewrite bget_over in B by lia. discriminate.
Qed.
Lemma positions_ext P Q l : (forall v, 0 <= v -> P v = Q v) -> positions P l -> positions Q l.
Proof.
  intros E [S H]. split; auto. intros v. rewrite H. split; intros [V B]; split; auto; [rewrite <- E|rewrite E]; auto.
Qed.
Lemma bitset_positions0 ws P : bden ws P -> positions P (filter (bget ws) (zr 0 (64 * zlen ws))).
Proof.
  rewrite bden_iff. intros (W&_&H). apply (positions_ext (fun v => (0 <=? v) && P v)). { intros v Hv. now replace (0 <=? v) with true by lia. }
  apply bitset_positions; auto. lia.
Qed.
Lemma bq_count ws P : bden ws P -> pcard P (bitset_count ws).
Proof.
  intros D. exists (filter (bget ws) (zr 0 (64 * zlen ws))). split; [now apply bitset_positions0|].
  unfold bitset_count. rewrite sum_hamming_cnt. reflexivity.
Qed.
Lemma bq_union_count a b P Q : bden a P -> bden b Q -> pcard (zunion P Q) (bitset_union_count a b).
Proof. intros. rewrite union_count_eq. apply bq_count. now apply bd_union. Qed.
Lemma bq_inter_count a b P Q : bden a P -> bden b Q -> pcard (zinter P Q) (bitset_intersection_count a b).
Proof. intros. rewrite inter_count_eq. apply bq_count. now apply bd_inter. Qed.
Lemma bq_diff_count a b P Q : bden a P -> bden b Q -> pcard (zdiff P Q) (bitset_difference_count a b).
Proof. intros. rewrite diff_count_eq. apply bq_count. now apply bd_diff. Qed.
Lemma bq_symm_count a b P Q : bden a P -> bden b Q -> pcard (zsymm P Q) (bitset_symmetric_difference_count a b).
Proof. intros. rewrite symm_count_eq. apply bq_count. now apply bd_symm. Qed.
Lemma bq_empty ws P : bden ws P -> (bitset_empty ws = true <-> none P).
Proof. rewrite bden_iff. intros (W&_&H). rewrite empty_spec by auto. unfold none. split; intros E v Hv; specialize (E v Hv); rewrite H in *; auto. Qed.
Lemma bq_min ws P : bden ws P -> least P (bitset_minimum ws) \/ none P /\ bitset_minimum ws = 2^64 - 1.
Proof.
  rewrite bden_iff. intros (W&_&H). destruct (minimum_spec ws W) as [[E N]|(V&B&N)]; [right|left].
  - split; auto. intros v Hv. rewrite <- H; auto.
  - split; [lia|]. split; [rewrite <- H; auto; lia|]. intros v Hv T. rewrite <- H in T by auto. destruct (Z_le_dec (bitset_minimum ws) v); auto. rewrite N in T by lia. discriminate.
Qed.
Lemma bq_max ws P : bden ws P -> greatest P (bitset_maximum ws) \/ none P /\ bitset_maximum ws = 0.
Proof.
  rewrite bden_iff. intros (W&_&H). destruct (maximum_spec ws W) as [[E N]|(V&B&N)]; [right|left].
  - split; auto. intros v Hv. rewrite <- H; auto.
  - split; [lia|]. split; [rewrite <- H; auto; lia|]. intros v Hv T. rewrite <- H in T by auto. destruct (Z_le_dec v (bitset_maximum ws)); auto. rewrite N in T by lia. discriminate.
Qed.
Lemma bq_disjoint a b P Q : bden a P -> bden b Q -> (bitsets_disjoint a b = true <-> none (zinter P Q)).
Proof. intros. rewrite disjoint_inter. apply bq_empty. now apply bd_inter. Qed.
Lemma bq_intersect a b P Q : bden a P -> bden b Q -> (bitsets_intersect a b = true <-> exists v, 0 <= v /\ P v = true /\ Q v = true).
Proof.
  intros D E. pose proof (bq_disjoint a b P Q D E) as J. rewrite intersect_inter, <- disjoint_inter. destruct (bitsets_disjoint a b) eqn:B; cbn [negb].
  - split; [discriminate|]. intros (v&V&P1&P2). apply proj1 in J. specialize (J eq_refl v V). unfold zinter in J. rewrite P1, P2 in J. discriminate.
  - split; auto. intros _. pose proof (bq_min _ _ (bd_inter a b P Q D E)) as [(M1&M2&_)|[N _]].
    + unfold zinter in M2. apply andb_true_iff in M2. eauto.
    + apply J in N. discriminate.
Qed.
Lemma bq_contains_all a b P Q : bden a P -> bden b Q -> (bitset_contains_all a b = true <-> forall v, 0 <= v -> Q v = true -> P v = true).
Proof.
  rewrite !bden_iff. intros (W&_&H) (W'&_&H'). rewrite contains_all_spec by auto. split; intros E v Hv T.
  - rewrite <- H by auto. rewrite <- H' in T by auto. auto.
  - rewrite H by auto. rewrite H' in T by auto. auto.
Qed.
Lemma bq_next ws P i : bden ws P -> 0 <= i ->
  match bitset_next_set_bit ws i with
  | Some m => i <= m /\ P m = true /\ (forall v, i <= v < m -> P v = false)
  | None => forall v, i <= v -> P v = false
  end.
Proof.
  rewrite bden_iff. intros (W&_&H) Hi. pose proof (next_set_bit_spec ws i W Hi) as N. destruct (bitset_next_set_bit ws i) as [m|].
  - destruct N as (N1&N2&N3). split; auto. split; [rewrite <- H by lia; auto|]. intros v Hv. rewrite <- H by lia. auto.
  - intros v Hv. rewrite <- H by lia. auto.
Qed.
Lemma bq_next_many ws P capacity i l : bden ws P -> 0 <= capacity -> 0 <= i -> positions (fun v => (i <=? v) && P v) l ->
  bitset_next_set_bits ws capacity i = (firstn (Z.to_nat capacity) l, last (firstn (Z.to_nat capacity) l) i).
Proof.
  rewrite bden_iff. intros (W&_&H) Hc Hi L. rewrite next_set_bits_spec by auto. cbn zeta.
  assert (E : l = filter (bget ws) (zr i (64 * zlen ws))).
  { destruct (bitset_positions ws P i W H Hi) as [S1 M1]. destruct L as [S2 M2]. apply sorted_unique; auto. intros v. rewrite M1, M2. tauto. }
  subst l. set (o := firstn _ _). f_equal. destruct o as [|x o]; [reflexivity|]. replace (0 <? zlen (x :: o)) with true by (rewrite zlen_cons; pose proof (zlen_nonneg o); lia).
  unfold znth. assert (LE : forall (l : list Z) d, (0 < length l)%nat -> nth (Z.to_nat (zlen l - 1)) l 0 = last l d).
  { clear. intros l d. induction l as [|x l IH]; [cbn; lia|]. intros _. destruct l as [|y l]; [reflexivity|]. change (last (x :: y :: l) d) with (last (y :: l) d). rewrite <- IH by (cbn; lia).
    replace (Z.to_nat (zlen (x :: y :: l) - 1)) with (S (Z.to_nat (zlen (y :: l) - 1))) by (unfold zlen; cbn [length]; lia). reflexivity. }
  apply LE. cbn. lia.
Qed.
Lemma bq_for_each {S : Type} (f : S -> Z -> S * bool) ws P l s : bden ws P -> positions P l -> bitset_for_each f ws s = call_until f l s.
Proof.
  intros D L. pose proof D as D'. apply bden_iff in D' as (W&_&_). unfold bitset_for_each. rewrite iterate_seq_filter by auto.
  destruct (bitset_positions0 ws P D) as [S1 M1]. destruct L as [S2 M2].
  assert (Q : filter (bget ws) (zr 0 (64 * zlen ws)) = l).
  { apply sorted_unique; auto. intros v. rewrite M1, M2. tauto. }
  rewrite Q. clear. revert s. induction l as [|v l IH]; intros s; cbn [iter_seq call_until]; [reflexivity|]. destruct (f s v) as [s1 []]; [apply IH|reflexivity].
Qed.

(** ** histories *)
Definition bheap := nat -> list Z.
Definition bstep (c : bcmd) (st : bheap) : bheap * out :=
  match c with
  | BNew d => (put st d bitset_create, RNone)
  | BNewCapacity d bits => (put st d (bitset_create_with_capacity bits), RNone)
  | BCopy d s => (put st d (bitset_copy (st s)), RNone)
  | BSet d i => (put st d (bitset_set (st d) i), RNone)
  | BPut d i flag => (put st d (bitset_set_to_value (st d) i flag), RNone)
  | BClear d => (put st d (bitset_clear (st d)), RNone)
  | BTrim d => (put st d (bitset_trim (st d)), RNone)
  | BUnion d s => (put st d (bitset_inplace_union (st d) (st s)), RNone)
  | BInter d s => (put st d (bitset_inplace_intersection (st d) (st s)), RNone)
  | BDiff d s => (put st d (bitset_inplace_difference (st d) (st s)), RNone)
  | BSymm d s => (put st d (bitset_inplace_symmetric_difference (st d) (st s)), RNone)
  | BGet s i => (st, RBool (bitset_get (st s) i))
  | BCount s => (st, RNum (bitset_count (st s)))
  | BEmpty s => (st, RBool (bitset_empty (st s)))
  | BMin s => (st, RNum (bitset_minimum (st s)))
  | BMax s => (st, RNum (bitset_maximum (st s)))
  | BDisjoint s t => (st, RBool (bitsets_disjoint (st s) (st t)))
  | BIntersect s t => (st, RBool (bitsets_intersect (st s) (st t)))
  | BContainsAll s t => (st, RBool (bitset_contains_all (st s) (st t)))
  | BUnionCount s t => (st, RNum (bitset_union_count (st s) (st t)))
  | BInterCount s t => (st, RNum (bitset_intersection_count (st s) (st t)))
  | BDiffCount s t => (st, RNum (bitset_difference_count (st s) (st t)))
  | BSymmCount s t => (st, RNum (bitset_symmetric_difference_count (st s) (st t)))
  | BNext s i => (st, ROpt (bitset_next_set_bit (st s) i))
  | BNextMany s capacity i => (st, RList (fst (bitset_next_set_bits (st s) capacity i)))
  end.
Fixpoint bexec (tr : list bcmd) (st : bheap) : bheap * list out :=
  match tr with
  | [] => (st, [])
  | c :: tr' => let '(st1, o) := bstep c st in let '(st2, os) := bexec tr' st1 in (st2, o :: os)
  end.
Definition empty_bheap : bheap := fun _ => bitset_create.
Definition brefines (st : bheap) (S : regs) : Prop := forall i, bden (st i) (S i).
Lemma brefines_put st S d r P : brefines st S -> bden r P -> brefines (put st d r) (put S d P).
Proof. intros R D i. unfold put. destruct (Nat.eqb i d); auto. Qed.
Lemma bnext_many_out ws P capacity i : bden ws P -> 0 <= capacity -> 0 <= i ->
  exists l rest, fst (bitset_next_set_bits ws capacity i) = l /\ positions (fun v => (i <=? v) && P v) (l ++ rest) /\ (rest = [] \/ Z.of_nat (length l) = capacity).
Proof.
  intros D Hc Hi. pose proof D as D'. apply bden_iff in D' as (W&_&H). pose proof (bitset_positions ws P i W H Hi) as L.
  rewrite (bq_next_many ws P capacity i _ D Hc Hi L). cbn [fst]. set (l := filter _ _) in *. exists (firstn (Z.to_nat capacity) l), (skipn (Z.to_nat capacity) l). split; auto. rewrite firstn_skipn. split; auto.
  destruct (Nat.le_gt_cases (length l) (Z.to_nat capacity)); [left; now apply skipn_all2|right; rewrite firstn_length; lia].
Qed.
Theorem bstep_refines c st S : brefines st S -> bcmd_ok c -> brefines (fst (bstep c st)) (bspec_step c S) /\ bspec_out c S (snd (bstep c st)).
Proof.
  intros R K. destruct c; cbn [bstep fst snd bspec_step bspec_out bcmd_ok] in *.
  - split; [|reflexivity]. apply brefines_put; auto. apply bd_create.
  - split; [|reflexivity]. apply brefines_put; auto. now apply bd_capacity.
  - split; [|reflexivity]. apply brefines_put; auto. apply R.
  - split; [|reflexivity]. apply brefines_put; auto. apply bd_set; auto.
  - split; [|reflexivity]. apply brefines_put; auto. apply bd_put; auto.
  - split; [|reflexivity]. apply brefines_put; auto. apply (bd_clear _ _ (R d)).
  - split; [|reflexivity]. intros i. unfold put. destruct (Nat.eqb_spec i d) as [->|]; auto. apply bd_trim. apply R.
  - split; [|reflexivity]. apply brefines_put; auto. apply bd_union; apply R.
  - split; [|reflexivity]. apply brefines_put; auto. apply bd_inter; apply R.
  - split; [|reflexivity]. apply brefines_put; auto. apply bd_diff; apply R.
  - split; [|reflexivity]. apply brefines_put; auto. apply bd_symm; apply R.
  - split; auto. destruct (R s) as (_&_&H). now rewrite H.
  - split; auto. eexists. split; [reflexivity|]. apply bq_count. apply R.
  - split; auto. eexists. split; [reflexivity|]. apply bq_empty. apply R.
  - split; auto. eexists. split; [reflexivity|]. apply bq_min. apply R.
  - split; auto. eexists. split; [reflexivity|]. apply bq_max. apply R.
  - split; auto. eexists. split; [reflexivity|]. apply bq_disjoint; apply R.
  - split; auto. eexists. split; [reflexivity|]. apply bq_intersect; apply R.
  - split; auto. eexists. split; [reflexivity|]. apply bq_contains_all; apply R.
  - split; auto. eexists. split; [reflexivity|]. apply bq_union_count; apply R.
  - split; auto. eexists. split; [reflexivity|]. apply bq_inter_count; apply R.
  - split; auto. eexists. split; [reflexivity|]. apply bq_diff_count; apply R.
  - split; auto. eexists. split; [reflexivity|]. apply bq_symm_count; apply R.
  - split; auto. eexists. split; [reflexivity|]. now apply bq_next.
  - split; auto. destruct K as [K1 K2]. destruct (bnext_many_out (st s) (S s) capacity i (R s) K1 K2) as (l&rest&E&L&O). exists l, rest. rewrite E. auto.
Qed.
Theorem bexec_refines tr : forall st (S : regs), brefines st S -> Forall bcmd_ok tr ->
  brefines (fst (bexec tr st)) (bspec_run tr S) /\ bagrees tr S (snd (bexec tr st)).
Proof.
  induction tr as [|c tr IH]; intros st S R L; cbn [bexec bspec_run bagrees]; [split; [exact R|exact I]|]. inversion_clear L as [|? ? L1 L2].
  destruct (bstep_refines c st S R L1) as [R1 O1]. destruct (bstep c st) as [st1 o]. cbn [fst snd] in *. destruct (IH st1 _ R1 L2) as [R2 O2]. destruct (bexec tr st1) as [st2 os]. cbn [fst snd] in *. auto.
Qed.
Lemma empty_brefines : brefines empty_bheap empty_bregs.
Proof. intros i. apply bd_create. Qed.

(** ** shifts *)
Lemma bd_shift_left junk ws P s : bden ws P -> (forall i, 0 <= junk i < 2^64) -> 0 <= s -> 0 < bitset_size_in_words ws -> bitset_size_in_words ws + s / 64 + 1 <= 2^58 - 1 ->
  exists r, bitset_shift_left junk ws s = Some r /\ bden r (fun v => (s <=? v) && P (v - s)).
Proof.
  rewrite bden_iff. unfold bitset_size_in_words. intros (W&L&H) J Hs Hl Hm. destruct (shift_left_spec junk ws s W J Hs Hl Hm) as (r&E&Wr&Lr&B). exists r. split; auto. apply bden_iff. split; auto.
  split; [rewrite Lr; destruct (s mod 64 =? 0); unfold max_words; lia|]. intros i Hi. rewrite B by auto. destruct (Z.leb_spec s i); auto. cbn [andb]. apply H. lia.
Qed.
Lemma bd_shift_right junk ws P s : bden ws P -> 0 <= s -> s < bitset_size_in_bits ws ->
  exists r, bitset_shift_right junk ws s = Some r /\ bden r (fun v => P (v + s)).
Proof.
  rewrite bden_iff. unfold bitset_size_in_bits. intros (W&L&H) Hs Hl. destruct (shift_right_spec junk ws s W Hs ltac:(lia) L) as (r&E&Wr&Lr&B). exists r. split; auto. apply bden_iff. split; auto.
  split; [rewrite Lr; dm|]. intros i Hi. rewrite B by auto. apply H. lia.
Qed.

(** ** conversion *)
Lemma b_convert junk r P ws : denotes r P -> bden ws zempty ->
  exists w, roaring_bitmap_to_bitset junk r ws = Some (w, true) /\ bden w (in32 P).
Proof.
  intros D Dw. apply bden_iff in Dw as (W&L&H). pose proof (den_bok _ _ D) as B. destruct (to_bitset_spec junk r ws B W) as (w&E&Ww&Lw&Bw). exists w. split; auto. apply bden_iff. split; auto.
  split; [exact Lw|]. intros i Hi. rewrite Bw, H by auto. unfold zempty. rewrite andb_false_r. cbn [andb]. rewrite orb_false_r. unfold in32. replace (0 <=? i) with true by lia. cbn [andb].
  destruct (Z.ltb_spec i (2^32)). { cbn [andb]. apply (den_mem r P); auto. red. lia. } cbn [andb]. destruct (mem r i) eqn:M; auto. apply (den_mem_true r P) in M as [V _]; auto. red in V. lia.
Qed.
(** whatever the target holds: every member is set, and nothing outside the members and the old bits *)
Lemma b_convert_any junk r P ws Q : denotes r P -> bden ws Q ->
  exists w, roaring_bitmap_to_bitset junk r ws = Some (w, true) /\ forall v, 0 <= v ->
    (in32 P v = true -> bitset_get w v = true) /\ (bitset_get w v = true -> in32 P v = true \/ Q v = true).
Proof.
  intros D Dw. apply bden_iff in Dw as (W&L&H). pose proof (den_bok _ _ D) as B. destruct (to_bitset_spec junk r ws B W) as (w&E&Ww&Lw&Bw). exists w. split; auto. intros v Hv.
  assert (M : mem r v = in32 P v).
  { unfold in32. replace (0 <=? v) with true by lia. cbn [andb]. destruct (Z.ltb_spec v (2^32)). { cbn [andb]. apply (den_mem r P); auto. red. lia. } cbn [andb]. destruct (mem r v) eqn:M; auto. apply (den_mem_true r P) in M as [V _]; auto. red in V. lia. }
  rewrite bitset_get_bget, Bw, M, H by auto. split.
  - intros ->. reflexivity.
  - rewrite orb_true_iff, !andb_true_iff. tauto.
Qed.
(** a bitset that held bit 7 keeps it *)
Lemma b_convert_reused_refuted junk : exists r P ws Q v, denotes r P /\ bden ws Q /\ pos v /\ in32 P v = false /\
  exists w, roaring_bitmap_to_bitset junk r ws = Some (w, true) /\ bitset_get w v = true.
Proof.
  exists (RPoint.roaring_bitmap_of_ptr [3; 10]), (zlist [3; 10]), [128], (zlist [7]), 7.
  split; [apply den_of_ptr; intros v Hv; cbn in Hv; red; lia|]. split.
  - split; [constructor; [red; lia|constructor]|]. split; [change (zlen [128]) with 1; unfold max_words; lia|]. intros i Hi. rewrite bitset_get_bget by auto. unfold zlist, existsb. rewrite orb_false_r.
    destruct (Z_lt_dec i 64).
    + unfold bget. replace (i / 64) with 0 by dm. replace (i mod 64) with i by dm. change (znth [128] 0) with (2^7). rewrite Z.pow2_bits_eqb by lia. apply Z.eqb_sym.
    + rewrite bget_over by (change (zlen [128]) with 1; lia). symmetry. apply Z.eqb_neq. lia.
  - split; [red; lia|]. split; [reflexivity|]. eexists. split; [vm_compute; reflexivity|reflexivity].
Qed.
