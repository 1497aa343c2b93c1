(** R64F: flips, arithmetic progressions and run compression of the 64-bit bitmap *)
From Verif Require Import Base ArrayUtil BitUtil BitsetC ArrayC RunC RunD Convert MixedI MixedU MixedA MixedN Containers RArray RBinary RPoint RRange.
From Verif Require Import Art ArtT ArtI ArtR R64 R64P R64Q R64K R64C R64R.
Local Opaque zr n48_pairs n256_pairs.

(** ** Flips *)
Lemma flip_bounds min max h : v64 min -> v64 max -> min <= max -> min / 65536 <= h <= max / 65536 -> 0 <= flip_min min h < flip_max max h /\ flip_max max h <= 65536 /\
  forall y, 0 <= y < 65536 -> ((flip_min min h <=? y) && (y <? flip_max max h)) = ival min max (h * 65536 + y).
Proof.
  intros V1 V2 L H. pose proof (v_split min) as VS1. pose proof (low_range min) as LR1. pose proof (v_split max) as VS2. pose proof (low_range max) as LR2. unfold low16 in LR1, LR2. unfold flip_min, flip_max, low16, ival.
  destruct (Z.eqb_spec h (min / 65536)); destruct (Z.eqb_spec h (max / 65536)); (split; [lia|split; [lia|]]; intros y Y; lia).
Qed.
Lemma not_or_range c P h s e cap : rep c (at_key P h) -> 0 <= s < e -> e <= 65536 ->
  erep (if (s =? 0) && (65535 <? e) then container_not c else container_not_range c s e) (fliprange s e (at_key P h)) /\
  (if (s =? 0) && (65535 <? e) then container_inot cap c else container_inot_range cap c s e) = (if (s =? 0) && (65535 <? e) then container_not c else container_not_range c s e).
Proof.
  intros (O & M) S E. split; [|rewrite container_inot_eq, container_inot_range_eq; reflexivity]. destruct (Z.eqb_spec s 0); destruct (Z.ltb_spec 65535 e); cbn [andb].
  - eapply MixedI.erep_ext; [now apply container_not_spec|]. intros y Y. cbv beta. unfold fliprange. replace ((s <=? y) && (y <? e)) with true by lia. now rewrite M.
  - eapply MixedI.erep_ext; [apply container_not_range_spec; auto; lia|]. intros y Y. cbv beta. unfold fliprange. now rewrite M.
  - eapply MixedI.erep_ext; [apply container_not_range_spec; auto; lia|]. intros y Y. cbv beta. unfold fliprange. now rewrite M.
  - eapply MixedI.erep_ext; [apply container_not_range_spec; auto; lia|]. intros y Y. cbv beta. unfold fliprange. now rewrite M.
Qed.
Lemma flip_leaf_spec r1 P r2 Q h s e : den r1 P -> den r2 Q -> 0 <= h < 2^48 -> 0 <= s < e -> e <= 65536 -> (forall y, 0 <= y < 65536 -> at_key Q h y = false) ->
  exists r3, roaring64_flip_leaf r1 r2 (high48 (h * 65536)) s e = Some r3 /\ den r3 (with_key Q h (fliprange s e (at_key P h))).
Proof.
  intros D1 D2 H S E F. destruct (high48_of h H) as (K & KE). unfold roaring64_flip_leaf. destruct (den_find r1 P h _ D1 K KE) as (lf & -> & [(l & x & t & HR & LX & KX & -> & NZ & RX & RW & G)|(-> & Z0 & INS)]); cbn [obind].
  - destruct (Z.eqb_spec (e_lf x) 0); [tauto|]. rewrite RW. cbn [obind]. rewrite G. cbn [obind]. apply (den_emit r2 Q h); auto. apply (not_or_range _ _ _ _ _ 0 RX); auto.
  - change (0 =? 0) with true. cbv beta iota. cbn [obind]. apply (den_emit r2 Q h); auto. apply rep_erep. eapply rep_ext; [apply container_range_of_ones_spec; lia|]. intros y Y. cbv beta. unfold fliprange, at_key. rewrite Z0 by auto.
    now destruct ((s <=? y) && (y <? e)).
Qed.
Definition flipset (P : Z -> bool) (min max : Z) (v : Z) : bool := xorb (P v) (ival min max v).
Lemma flip_block P Q min max h v : v64 min -> v64 max -> min <= max -> min / 65536 <= h <= max / 65536 -> h * 65536 <= v < (h + 1) * 65536 ->
  with_key Q h (fliprange (flip_min min h) (flip_max max h) (at_key P h)) v = flipset P min max v.
Proof.
  intros V1 V2 L H V. rewrite with_key_in by auto. rewrite fliprange_xorb. destruct (flip_bounds min max h V1 V2 L H) as (_ & _ & ->); [|lia]. unfold at_key, flipset. replace (h * 65536 + (v - h * 65536)) with v by lia. reflexivity.
Qed.
Lemma flip_keys r1 P min max n : den r1 P -> v64 min -> v64 max -> min <= max -> forall a r2 Q, den r2 Q -> min / 65536 <= a -> a + Z.of_nat n = max / 65536 + 1 -> (forall v, a * 65536 <= v -> Q v = false) ->
  exists r3, over_keys (zrange a n) (fun r2 h => roaring64_flip_leaf r1 r2 (high48 (h * 65536)) (flip_min min h) (flip_max max h)) r2 = Some r3 /\
  den r3 (fun v => if (a * 65536 <=? v) && (v <? (max / 65536 + 1) * 65536) then flipset P min max v else Q v).
Proof.
  intros D1 V1 V2 L. pose proof (v64_div _ V1) as DV1. pose proof (v64_div _ V2) as DV2. induction n as [|n IH]; intros a r2 Q D2 A N F; cbn [zrange over_keys].
  - exists r2. split; auto. eapply den_ext; [exact D2|]. intros v _. cbv beta. replace ((a * 65536 <=? v) && (v <? (max / 65536 + 1) * 65536)) with false by lia. reflexivity.
  - destruct (flip_bounds min max a V1 V2 L) as (B1 & B2 & _); [lia|]. destruct (flip_leaf_spec r1 P r2 Q a _ _ D1 D2 ltac:(lia) B1 B2) as (r3 & -> & D3); [intros y Y; apply F; lia|]. cbn [obind].
    destruct (IH (a + 1) r3 _ D3) as (r4 & -> & D4); [lia|lia|intros v V; rewrite with_key_gt by lia; apply F; lia|]. exists r4. split; auto. eapply den_ext; [exact D4|]. intros v _. cbv beta.
    destruct (Z_lt_dec v (a * 65536)).
    + replace ((a + 1) * 65536 <=? v) with false by lia. replace (a * 65536 <=? v) with false by lia. cbn [andb]. apply with_key_lt. lia.
    + destruct (Z_lt_dec v ((a + 1) * 65536)).
      * replace ((a + 1) * 65536 <=? v) with false by lia. replace (a * 65536 <=? v) with true by lia. replace (v <? (max / 65536 + 1) * 65536) with true by lia. cbn [andb]. apply flip_block; auto; lia.
      * replace ((a + 1) * 65536 <=? v) with true by lia. replace (a * 65536 <=? v) with true by lia. cbn [andb]. destruct (v <? _); auto. apply with_key_gt. lia.
Qed.
Lemma copy_before r P min t : v64 min -> forall lo res Q, blocks P lo t -> gets r t -> den res Q -> (forall v, lo * 65536 <= v -> Q v = false) -> lo <= 2^48 ->
  exists res1, efold (fun key leaf res => if art_compare_keys key (high48 min) <? 0 then copy_body r key leaf res else Some (res, false)) t res = Some res1 /\
  den res1 (fun v => if (lo * 65536 <=? v) && (v <? min / 65536 * 65536) then P v else Q v).
Proof.
  intros V1. induction t as [|x t IH]; intros lo res Q B G D F LL; inversion B as [? L0 Z0|? ? ? L0 K Z0 RX B']; subst; cbn [efold].
  - exists res. split; auto. eapply den_ext; [exact D|]. intros v V. cbv beta. destruct ((lo * 65536 <=? v) && (v <? min / 65536 * 65536)) eqn:E; auto. rewrite F, Z0; auto; unfold v64 in V; lia.
  - apply gets_cons in G as (G & G'). destruct (cmp_tests _ _ K V1) as (-> & _). set (h := kv (e_key x)) in *. destruct (Z.ltb_spec h (min / 65536)) as [LT|GE].
    + unfold copy_body at 1. rewrite G. cbn [obind].
      destruct (den_insert res Q h (e_key x) (e_c x) (at_key P h) D K eq_refl) as (r1 & lf & -> & D1); auto; [intros y Y; apply F; lia|]. cbn [obind negb].
      destruct (IH (h + 1) r1 _ B' G' D1) as (res1 & -> & D2); [intros v V; rewrite with_key_gt by auto; apply F; lia|pose proof (key6_range _ K); lia|]. exists res1. split; auto. eapply den_ext; [exact D2|]. intros v V. cbv beta.
      destruct (Z_lt_dec v (h * 65536)).
      * replace ((h + 1) * 65536 <=? v) with false by lia. cbn [andb]. rewrite with_key_lt by lia. destruct (Z.leb_spec (lo * 65536) v); cbn [andb]; auto. replace (v <? min / 65536 * 65536) with true by lia. rewrite F, Z0; auto.
      * destruct (Z_lt_dec v ((h + 1) * 65536)).
        -- replace ((h + 1) * 65536 <=? v) with false by lia. replace (lo * 65536 <=? v) with true by lia. replace (v <? min / 65536 * 65536) with true by lia. cbn [andb]. rewrite with_key_in by lia. unfold at_key. f_equal. lia.
        -- replace ((h + 1) * 65536 <=? v) with true by lia. replace (lo * 65536 <=? v) with true by lia. cbn [andb]. destruct (v <? _); auto. apply with_key_gt. lia.
    + cbn [obind negb]. exists res. split; auto. eapply den_ext; [exact D|]. intros v V. cbv beta. destruct ((lo * 65536 <=? v) && (v <? min / 65536 * 65536)) eqn:E; auto. rewrite F, Z0; auto; lia.
Qed.
Lemma roaring64_bitmap_flip_closed_spec r P min max : den r P -> v64 min -> v64 max -> exists r1, roaring64_bitmap_flip_closed r min max = Some r1 /\ den r1 (flipset P min max).
Proof.
  intros D V1 V2. unfold roaring64_bitmap_flip_closed. destruct (Z.ltb_spec max min) as [LT|GE].
  { destruct (roaring64_bitmap_copy_spec r P D) as (r1 & -> & D1). exists r1. split; auto. eapply den_ext; [exact D1|]. intros v _. unfold flipset, ival. replace ((min <=? v) && (v <=? max)) with false by lia. now rewrite xorb_false_r. }
  pose proof (v_split min) as VS1. pose proof (low_range min) as LR1. pose proof (v_split max) as VS2. pose proof (low_range max) as LR2. unfold low16 in LR1, LR2. pose proof (v64_div _ V1) as DV1. pose proof (v64_div _ V2) as DV2.
  assert (MD : min / 65536 <= max / 65536) by (apply Z.div_le_mono; lia).
  pose proof D as D0. apply den_Lx in D0 as (xs & H & L). rewrite (each_of_efold _ _ xs) by auto.
  destruct (copy_before r P min xs V1 0 _ _ (Lx_blocks0 _ _ L) (R_gets r [] xs H) den_create) as (ra & -> & Da); [auto|lia|]. cbn [obind].
  destruct (flip_keys r P min max (Z.to_nat (max / 65536 + 1 - min / 65536)) D V1 V2 GE (min / 65536) ra _ Da) as (rb & Eb & Db); [lia|lia|intros v V; cbv beta; replace (v <? min / 65536 * 65536) with false by lia; now rewrite andb_false_r|].
  rewrite zr_eq, Eb. cbn [obind]. clear Eb. destruct (kv_high48 max V2) as (K2 & KE2). destruct (at_upper_bound r xs (high48 max) H K2) as (it & l & t & -> & -> & A & S). rewrite KE2 in S. cbn [obind].
  rewrite (each_efold r _ (l ++ t) H t l it) by (auto; eapply R_fuel; eauto).
  destruct (copy_fold r P t (max / 65536 + 1) rb _ (Lx_blocks P t l (max / 65536 + 1) L ltac:(lia) S) (R_gets _ _ _ H) Db) as (rc & -> & Dc).
  { intros v V. cbv beta. replace (v <? (max / 65536 + 1) * 65536) with false by lia. rewrite andb_false_r. replace (v <? min / 65536 * 65536) with false by lia. now rewrite andb_false_r. }
  exists rc. split; auto. eapply den_ext; [exact Dc|]. intros v V. cbv beta. unfold flipset, ival, v64 in *. destruct (Z.leb_spec ((max / 65536 + 1) * 65536) v).
  - replace ((min <=? v) && (v <=? max)) with false by lia. now rewrite xorb_false_r.
  - replace (v <? (max / 65536 + 1) * 65536) with true by lia. rewrite andb_true_r. destruct (Z.leb_spec (min / 65536 * 65536) v); auto.
    replace ((0 * 65536 <=? v) && (v <? min / 65536 * 65536)) with true by lia. replace ((min <=? v) && (v <=? max)) with false by lia. now rewrite xorb_false_r.
Qed.
Lemma roaring64_bitmap_flip_spec r P min max : den r P -> v64 min -> v64 max -> exists r1, roaring64_bitmap_flip r min max = Some r1 /\ den r1 (flipset P min (max - 1)).
Proof.
  intros D V1 V2. unfold roaring64_bitmap_flip. destruct (Z.leb_spec max min) as [LT|GE].
  - destruct (roaring64_bitmap_copy_spec r P D) as (r1 & -> & D1). exists r1. split; auto. eapply den_ext; [exact D1|]. intros v _. unfold flipset, ival. replace ((min <=? v) && (v <=? max - 1)) with false by lia. now rewrite xorb_false_r.
  - apply roaring64_bitmap_flip_closed_spec; auto. unfold v64 in *. lia.
Qed.
Lemma flip_leaf_inplace_spec cap r P h s e : den r P -> 0 <= h < 2^48 -> 0 <= s < e -> e <= 65536 ->
  exists r1, roaring64_flip_leaf_inplace cap r (high48 (h * 65536)) s e = Some r1 /\ den r1 (with_key P h (fliprange s e (at_key P h))).
Proof.
  intros D H S E. destruct (high48_of h H) as (K & KE). unfold roaring64_flip_leaf_inplace. destruct (den_find r P h _ D K KE) as (lf & -> & [(l & x & t & HR & LX & KX & -> & NZ & RX & RW & G)|(-> & Z0 & INS)]); cbn [obind].
  - destruct (Z.eqb_spec (e_lf x) 0); [tauto|]. rewrite RW. cbn [obind]. rewrite G. cbn [obind]. cbv zeta. destruct (not_or_range (e_c x) P h s e (cap (high48 (h * 65536))) RX S E) as (RC & ->).
    set (c2 := if (s =? 0) && (65535 <? e) then container_not (e_c x) else container_not_range (e_c x) s e) in *. destruct (container_nonzero_cardinality c2) eqn:NZC.
    + destruct (erep_some _ _ RC NZC) as (O & M). destruct (den_put r P l x t c2 _ HR LX (conj O M)) as (r1 & -> & _ & _ & D1). exists r1. split; auto. now rewrite KX, KE in D1.
    + pose proof (erep_none _ _ RC NZC) as Z0. destruct (den_drop r P l x t HR LX) as (a & EA & RW2 & D1). rewrite KX in EA. rewrite EA. cbn [obind]. rewrite RW2. cbn [obind]. eexists. split; [reflexivity|]. rewrite KX, KE in D1.
      eapply den_ext; [exact D1|]. intros v _. apply with_key_ext. intros y Y. symmetry. auto.
  - change (0 =? 0) with true. cbv beta iota. destruct (INS (container_range_of_ones s e) (fliprange s e (at_key P h))) as (r1 & lf1 & -> & D1 & _).
    + eapply rep_ext; [apply container_range_of_ones_spec; lia|]. intros y Y. cbv beta. unfold fliprange, at_key. rewrite Z0 by auto. now destruct ((s <=? y) && (y <? e)).
    + cbn [obind]. exists r1. auto.
Qed.
Lemma flip_keys_inplace cap min max n : v64 min -> v64 max -> min <= max -> forall a r P, den r P -> min / 65536 <= a -> a + Z.of_nat n = max / 65536 + 1 ->
  exists r1, over_keys (zrange a n) (fun r h => roaring64_flip_leaf_inplace cap r (high48 (h * 65536)) (flip_min min h) (flip_max max h)) r = Some r1 /\
  den r1 (fun v => if (a * 65536 <=? v) && (v <? (max / 65536 + 1) * 65536) then flipset P min max v else P v).
Proof.
  intros V1 V2 L. pose proof (v64_div _ V1) as DV1. pose proof (v64_div _ V2) as DV2. induction n as [|n IH]; intros a r P D A N; cbn [zrange over_keys].
  - exists r. split; auto. eapply den_ext; [exact D|]. intros v _. cbv beta. replace ((a * 65536 <=? v) && (v <? (max / 65536 + 1) * 65536)) with false by lia. reflexivity.
  - destruct (flip_bounds min max a V1 V2 L) as (B1 & B2 & _); [lia|]. destruct (flip_leaf_inplace_spec cap r P a _ _ D ltac:(lia) B1 B2) as (r1 & -> & D1). cbn [obind].
    destruct (IH (a + 1) r1 _ D1) as (r2 & -> & D2); [lia|lia|]. exists r2. split; auto. eapply den_ext; [exact D2|]. intros v _. cbv beta.
    destruct (Z_lt_dec v (a * 65536)).
    + replace ((a + 1) * 65536 <=? v) with false by lia. replace (a * 65536 <=? v) with false by lia. cbn [andb]. apply with_key_lt. lia.
    + destruct (Z_lt_dec v ((a + 1) * 65536)).
      * replace ((a + 1) * 65536 <=? v) with false by lia. replace (a * 65536 <=? v) with true by lia. replace (v <? (max / 65536 + 1) * 65536) with true by lia. cbn [andb]. apply flip_block; auto; lia.
      * replace ((a + 1) * 65536 <=? v) with true by lia. replace (a * 65536 <=? v) with true by lia. cbn [andb]. destruct (v <? _); unfold flipset; rewrite with_key_gt by lia; reflexivity.
Qed.
Lemma roaring64_bitmap_flip_closed_inplace_spec cap r P min max : den r P -> v64 min -> v64 max -> exists r1, roaring64_bitmap_flip_closed_inplace cap r min max = Some r1 /\ den r1 (flipset P min max).
Proof.
  intros D V1 V2. unfold roaring64_bitmap_flip_closed_inplace. destruct (Z.ltb_spec max min) as [LT|GE].
  { exists r. split; auto. eapply den_ext; [exact D|]. intros v _. unfold flipset, ival. replace ((min <=? v) && (v <=? max)) with false by lia. now rewrite xorb_false_r. }
  pose proof (v_split min) as VS1. pose proof (low_range min) as LR1. pose proof (v_split max) as VS2. pose proof (low_range max) as LR2. unfold low16 in LR1, LR2. pose proof (v64_div _ V1) as DV1. pose proof (v64_div _ V2) as DV2.
  destruct (flip_keys_inplace cap min max (Z.to_nat (max / 65536 + 1 - min / 65536)) V1 V2 GE (min / 65536) r P D) as (r1 & E & D1); [lia|lia|]. rewrite zr_eq, E. exists r1. split; auto. eapply den_ext; [exact D1|]. intros v _. cbv beta.
  destruct ((min / 65536 * 65536 <=? v) && (v <? (max / 65536 + 1) * 65536)) eqn:EQ; auto. unfold flipset, ival. replace ((min <=? v) && (v <=? max)) with false by lia. now rewrite xorb_false_r.
Qed.
Lemma roaring64_bitmap_flip_inplace_spec cap r P min max : den r P -> v64 min -> v64 max -> exists r1, roaring64_bitmap_flip_inplace cap r min max = Some r1 /\ den r1 (flipset P min (max - 1)).
Proof.
  intros D V1 V2. unfold roaring64_bitmap_flip_inplace. destruct (Z.leb_spec max min) as [LT|GE].
  - exists r. split; auto. eapply den_ext; [exact D|]. intros v _. unfold flipset, ival. replace ((min <=? v) && (v <=? max - 1)) with false by lia. now rewrite xorb_false_r.
  - apply roaring64_bitmap_flip_closed_inplace_spec; auto. unfold v64 in *. lia.
Qed.

(** ** Arithmetic progressions *)
Lemma stepin_next a step max up v : 0 < step -> up mod step = 0 -> 0 <= up -> a + up <= v -> stepin a max step v = stepin (a + up) max step v.
Proof.
  intros S U U0 V. unfold stepin. replace ((v - (a + up)) mod step) with ((v - a) mod step).
  - f_equal. f_equal. lia.
  - replace (v - a) with ((v - (a + up)) + up) by lia. rewrite Z.add_mod, U, Z.add_0_r, Z.mod_mod by lia. reflexivity.
Qed.
Lemma from_range_big64_spec max step fuel : 0 < step -> v64 max -> forall value r P, den r P -> v64 value -> max - value + step < Z.of_nat fuel * step -> (0 < fuel)%nat ->
  exists r1, from_range_big64 fuel r value max step = Some r1 /\ den r1 (fun v => P v || stepin value max step v).
Proof.
  intros S VM. induction fuel as [|f IH]; intros value r P D V F F0; [lia|]. cbn [from_range_big64]. destruct (Z.ltb_spec value max) as [LT|GE].
  - destruct (roaring64_bitmap_add_spec r P value D V) as (r1 & -> & D1). cbn [obind].
    assert (ST : forall v, stepin value max step v = (v =? value) || stepin (value + step) max step v).
    { intros v. destruct (Z.eqb_spec v value) as [->|NE]; cbn [orb].
      - unfold stepin. rewrite Z.sub_diag, Z.mod_0_l by lia. lia.
      - destruct (Z_le_dec (value + step) v); [apply stepin_next; auto; [apply Z.mod_same; lia|lia]|]. unfold stepin. replace (value + step <=? v) with false by lia. cbn [andb].
        destruct (Z.leb_spec value v); cbn [andb]; auto. rewrite Z.mod_small by lia. replace (v - value =? 0) with false by lia. apply andb_false_r. }
    destruct (Z.ltb_spec (2^64 - 1 - step) value) as [OV|NO].
    + exists r1. split; auto. eapply den_ext; [exact D1|]. intros v Vv. rewrite ST. unfold fset. destruct (v =? value); cbn [orb]; [now rewrite orb_true_r|]. unfold stepin, v64 in *. replace (value + step <=? v) with false by lia. now rewrite orb_false_r.
    + destruct f as [|f].
      { lia. }
      destruct (IH (value + step) r1 _ D1) as (r2 & -> & D2); [unfold v64 in *; lia|lia|lia|]. exists r2. split; auto. eapply den_ext; [exact D2|]. intros v _. cbv beta. rewrite ST. unfold fset. destruct (v =? value); cbn [orb]; auto. now rewrite orb_true_r.
  - exists r. split; auto. eapply den_ext; [exact D|]. intros v _. cbv beta. unfold stepin. replace ((value <=? v) && (v <? max)) with false by lia. now rewrite orb_false_r.
Qed.
Lemma from_range_loop64_spec max step fuel : 0 < step < 65536 -> v64 max -> forall min r P, den r P -> v64 min -> min < max -> (forall v, min / 65536 * 65536 <= v -> P v = false) -> max - min < Z.of_nat fuel * step ->
  exists r1, from_range_loop64 fuel r min max step = Some r1 /\ den r1 (fun v => P v || stepin min max step v).
Proof.
  intros S VM. induction fuel as [|f IH]; intros min r P D V LT F FU; [lia|]. cbn [from_range_loop64]. cbv zeta.
  pose proof (v_split min) as VS. pose proof (low_range min) as LR. unfold low16 in LR. pose proof (v64_div _ V) as DV. set (h := min / 65536) in *. set (cmin := min mod 65536) in *. set (cmax := Z.min (max - h * 65536) 65536).
  assert (HC : cmin < cmax <= 65536) by lia. destruct (container_from_range_spec cmin cmax step ltac:(lia) ltac:(lia) ltac:(lia)) as (c & -> & RC). cbn [obind]. destruct (kv_high48 min V) as (K & KE). fold h in KE.
  destruct (den_insert r P h (high48 min) c (stepin cmin cmax step) D K KE) as (r1 & lf & -> & D1); [intros y Y; unfold at_key; apply F; lia|exact RC|]. cbn [obind].
  destruct (ceil_gap (cmax - cmin) step ltac:(lia) ltac:(lia)) as (U1 & U2 & U3). cbn zeta in U1, U2, U3. set (up := cmax - cmin + step - 1 - (cmax - cmin + step - 1) mod step) in *. clearbody up.
  assert (US : step <= up) by (destruct (Z_lt_dec up step); [rewrite Z.mod_small in U2 by lia; lia|lia]).
  assert (BL : forall v, h * 65536 <= v < (h + 1) * 65536 -> with_key P h (stepin cmin cmax step) v = stepin min max step v).
  { intros v Vv. rewrite with_key_in by auto. unfold stepin. replace (v - h * 65536 - cmin) with (v - min) by lia. f_equal. lia. }
  assert (AF : forall v, v < max -> (h + 1) * 65536 <= v -> stepin min max step v = stepin (min + up) max step v).
  { intros v V1 V2. assert (cmax = 65536) by lia. destruct (Z_le_dec (min + up) v); [apply stepin_next; auto; lia|]. unfold stepin at 2. replace (min + up <=? v) with false by lia. cbn [andb]. unfold stepin. destruct (Z.eqb_spec ((v - min) mod step) 0) as [E|]; [|apply andb_false_r].
    exfalso. pose proof (Z.div_mod (v - min) step ltac:(lia)). specialize (U3 ((v - min) / step) ltac:(apply Z.div_pos; lia) ltac:(lia)). lia. }
  assert (HI : forall v, max <= v -> stepin min max step v = false) by (intros v Vv; unfold stepin; replace (v <? max) with false by lia; now rewrite andb_false_r).
  assert (LO : forall v, v < min -> stepin min max step v = false) by (intros v Vv; unfold stepin; now replace (min <=? v) with false by lia).
  assert (DONE : max <= min + up \/ 2^64 <= min + up -> forall v, v64 v -> with_key P h (stepin cmin cmax step) v = P v || stepin min max step v).
  { intros OV v Vv. destruct (Z_lt_dec v (h * 65536)).
    - rewrite with_key_lt by lia. rewrite LO by lia. now rewrite orb_false_r.
    - rewrite F by lia. cbn [orb]. destruct (Z_lt_dec v ((h + 1) * 65536)); [apply BL; lia|]. rewrite with_key_gt by lia. rewrite F by lia. destruct (Z_lt_dec v max); [|now rewrite HI by lia]. rewrite AF by lia. unfold stepin. unfold v64 in Vv.
      replace (min + up <=? v) with false by lia. reflexivity. }
  destruct (Z.ltb_spec (2^64 - 1 - up) min) as [OV|NO].
  - exists r1. split; auto. eapply den_ext; [exact D1|]. apply DONE. lia.
  - destruct (Z.ltb_spec (min + up) max) as [MO|EN].
    + assert (cmax = 65536) by lia. assert (KL : h + 1 <= (min + up) / 65536) by (apply Z.div_le_lower_bound; lia).
      destruct (IH (min + up) r1 _ D1) as (r2 & -> & D2); [unfold v64 in *; lia|lia|intros v Vv; rewrite with_key_gt by lia; apply F; lia|lia|].
      exists r2. split; auto. eapply den_ext; [exact D2|]. intros v Vv. cbv beta. destruct (Z_lt_dec v (h * 65536)).
      * rewrite with_key_lt by lia. rewrite LO by lia. unfold stepin. replace (min + up <=? v) with false by lia. reflexivity.
      * rewrite (F v) by lia. cbn [orb]. destruct (Z_lt_dec v ((h + 1) * 65536)).
        -- rewrite BL by lia. unfold stepin at 2. replace (min + up <=? v) with false by lia. cbn [andb]. apply orb_false_r.
        -- rewrite with_key_gt by lia. rewrite F by lia. cbn [orb]. destruct (Z_lt_dec v max); [symmetry; apply AF; lia|]. rewrite HI by lia. unfold stepin. replace (v <? max) with false by lia. now rewrite andb_false_r.
    + exists r1. split; auto. eapply den_ext; [exact D1|]. apply DONE. lia.
Qed.
Lemma roaring64_bitmap_from_range_spec min max step : v64 min -> v64 max -> 0 <= step < 2^64 -> exists o, roaring64_bitmap_from_range min max step = Some o /\
  match o with
  | None => step = 0 \/ max <= min
  | Some r => step <> 0 /\ min < max /\ den r (stepin min max step)
  end.
Proof.
  intros V1 V2 S. unfold roaring64_bitmap_from_range. destruct (Z.eqb_spec step 0); cbn [orb]; [exists None; auto|]. destruct (Z.leb_spec max min); [exists None; auto|].
  pose proof (Z.div_mod (max - min) step ltac:(lia)) as DM. pose proof (Z.mod_pos_bound (max - min) step ltac:(lia)) as MB. assert (0 <= (max - min) / step) by (apply Z.div_pos; lia).
  set (fuel := Z.to_nat ((max - min) / step + 2)). assert (FE : Z.of_nat fuel = (max - min) / step + 2) by (unfold fuel; lia). clearbody fuel.
  destruct (Z.leb_spec 65536 step).
  - destruct (from_range_big64_spec max step fuel ltac:(lia) V2 min _ _ den_create V1) as (r1 & -> & D1); [rewrite FE; nia|lia|]. cbn [obind]. exists (Some r1). split; auto.
  - destruct (from_range_loop64_spec max step fuel ltac:(lia) V2 min _ _ den_create V1) as (r1 & -> & D1); [lia|auto|rewrite FE; nia|]. cbn [obind]. exists (Some r1). split; auto.
Qed.

(** ** Run compression *)
Lemma run_optimize_loop_spec t : forall r it l fuel P b, R r (l ++ t) -> Lx (l ++ t) P -> at_ any r it l t -> (length t < fuel)%nat ->
  exists r1 b1, run_optimize_loop fuel r it b = Some (r1, b1) /\ den r1 P.
Proof.
  induction t as [|x t IH]; intros r it l fuel P b H L A F; (destruct fuel as [|f]; [cbn in F; lia|]); cbn [run_optimize_loop].
  - rewrite (at_end _ _ _ _ A). cbn [Z.eqb]. exists r, b. split; auto. eapply den_R; eauto.
  - destruct (at_val _ _ _ _ _ _ A) as (EV & _ & NZ). rewrite EV. destruct (Z.eqb_spec (e_lf x) 0); [tauto|]. rewrite (R_val _ _ x H) by apply in_elt. cbn [obind]. rewrite (R_get _ _ x H) by apply in_elt. cbn [obind]. cbv zeta.
    pose proof (Lx_at _ _ _ _ L) as RX. destruct (R_replace r l x t (convert_run_optimize (e_c x)) H) as (r1 & -> & H1 & LN & TR). cbn [obind].
    assert (L1 : Lx (l ++ setc x (convert_run_optimize (e_c x)) :: t) P).
    { eapply Lx_ext; [apply (Lx_set _ _ _ _ _ (cmem (e_c x)) L), convert_run_optimize_spec, RX|]. intros v _. apply with_key_id. intros y Y. now apply (proj2 RX). }
    destruct (at_next any r1 it l (setc x (convert_run_optimize (e_c x))) t Logic.I (TR any it A)) as (it1 & -> & A1). cbn [obind].
    apply (IH r1 it1 (l ++ [setc x (convert_run_optimize (e_c x))]) f P); auto.
    + now rewrite <- app_assoc.
    + now rewrite <- app_assoc.
    + cbn in F. lia.
Qed.
Lemma roaring64_bitmap_run_optimize_spec r P : den r P -> exists r1 b, roaring64_bitmap_run_optimize r = Some (r1, b) /\ den r1 P.
Proof.
  intros D. apply den_Lx in D as (xs & H & L). unfold roaring64_bitmap_run_optimize. destruct (at_first r xs H) as (it & -> & A). cbn [obind].
  apply (run_optimize_loop_spec xs r it [] (fuel64 r) P); auto; [eapply at_any; eauto|]. now apply R_len.
Qed.
