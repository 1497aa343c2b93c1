(** R64R: copying, ranges and flips of the 64-bit bitmap *)
From Verif Require Import Base ArrayUtil BitUtil BitsetC ArrayC RunC RunD Convert MixedI MixedU MixedA MixedN Containers RArray RBinary RPoint.
From Verif Require Import Art ArtT ArtI ArtR R64 R64P R64Q R64K R64C.
Lemma zr_eq a b : zr a b = zrange a (Z.to_nat (b - a)). Proof. reflexivity. Qed.
Local Opaque zr n48_pairs n256_pairs.

(** ** Inserting a container under a free key *)
Lemma den_insert r Q h key c Pc : den r Q -> key6 key -> kv key = h -> (forall y, 0 <= y < 65536 -> at_key Q h y = false) -> rep c Pc ->
  exists r1 lf, insert_container r key c = Some (r1, lf) /\ den r1 (with_key Q h Pc).
Proof.
  intros D K E F RC. destruct (den_find r Q h key D K E) as (lf & _ & [(l & x & t & _ & _ & _ & _ & _ & RX & _)|(_ & _ & INS)]).
  - exfalso. apply rep_cne in RX as (y & Y & T). rewrite F in T by auto. discriminate.
  - destruct (INS c Pc RC) as (r1 & lf1 & E1 & D1 & _). exists r1, lf1. auto.
Qed.
Lemma den_emit r Q h key c Pc : den r Q -> key6 key -> kv key = h -> (forall y, 0 <= y < 65536 -> at_key Q h y = false) -> erep c Pc ->
  exists r1, emit64 r key c = Some r1 /\ den r1 (with_key Q h Pc).
Proof.
  intros D K E F RC. unfold emit64. destruct (container_nonzero_cardinality c) eqn:NZ.
  - destruct (erep_some _ _ RC NZ) as (O & M). destruct (den_insert r Q h key c Pc D K E F (conj O M)) as (r1 & lf & -> & D1). exists r1. auto.
  - exists r. split; auto. pose proof (erep_none _ _ RC NZ) as Z0. eapply den_ext; [exact D|]. intros v _. symmetry. apply with_key_id. intros y Y. rewrite F, Z0; auto.
Qed.
Lemma with_key_lt Q h Pc v : v < h * 65536 -> with_key Q h Pc v = Q v.
Proof. intros L. unfold with_key. destruct (Z.eqb_spec (v / 65536) h); auto. pose proof (v_split v). pose proof (Z.mod_pos_bound v 65536 ltac:(lia)). lia. Qed.
Lemma with_key_gt Q h Pc v : (h + 1) * 65536 <= v -> with_key Q h Pc v = Q v.
Proof. intros L. unfold with_key. destruct (Z.eqb_spec (v / 65536) h); auto. pose proof (v_split v). pose proof (Z.mod_pos_bound v 65536 ltac:(lia)). lia. Qed.
Lemma with_key_in Q h Pc v : h * 65536 <= v < (h + 1) * 65536 -> with_key Q h Pc v = Pc (v - h * 65536).
Proof.
  intros L. unfold with_key. pose proof (v_split v). pose proof (Z.mod_pos_bound v 65536 ltac:(lia)). assert (E : v / 65536 = h) by lia. rewrite E, Z.eqb_refl. f_equal. lia.
Qed.

(** ** Copying entries *)
Lemma copy_fold r P t : forall lo res Q, blocks P lo t -> gets r t -> den res Q -> (forall v, lo * 65536 <= v -> Q v = false) ->
  exists res1, efold (copy_body r) t res = Some res1 /\ den res1 (fun v => if lo * 65536 <=? v then P v else Q v).
Proof.
  induction t as [|x t IH]; intros lo res Q B G D F; inversion B as [? L0 Z0|? ? ? L0 K Z0 RX B']; subst; cbn [efold].
  - exists res. split; auto. eapply den_ext; [exact D|]. intros v V. cbv beta. destruct (Z.leb_spec (lo * 65536) v); auto. rewrite F, Z0; auto. unfold v64 in V. lia.
  - apply gets_cons in G as (G & G'). unfold copy_body at 1. rewrite G. cbn [obind]. set (h := kv (e_key x)) in *.
    destruct (den_insert res Q h (e_key x) (e_c x) (at_key P h) D K eq_refl) as (r1 & lf & -> & D1); auto; [intros y Y; apply F; lia|]. cbn [obind negb].
    destruct (IH (h + 1) r1 _ B' G' D1) as (res1 & -> & D2); [intros v V; rewrite with_key_gt by auto; apply F; lia|]. exists res1. split; auto. eapply den_ext; [exact D2|]. intros v V. cbv beta.
    destruct (Z.leb_spec ((h + 1) * 65536) v); destruct (Z.leb_spec (lo * 65536) v); try lia; auto.
    + destruct (Z_lt_dec v (h * 65536)); [rewrite with_key_lt, Z0 by lia; apply F; lia|]. rewrite with_key_in by lia. unfold at_key. f_equal. lia.
    + apply with_key_lt. lia.
Qed.
Lemma roaring64_bitmap_copy_spec r P : den r P -> exists r1, roaring64_bitmap_copy r = Some r1 /\ den r1 P.
Proof.
  intros D. apply den_Lx in D as (xs & H & L). unfold roaring64_bitmap_copy. rewrite (each_of_efold _ _ xs) by auto.
  destruct (copy_fold r P xs 0 _ _ (Lx_blocks0 _ _ L) (R_gets r [] xs H) den_create) as (r1 & -> & D1); auto. exists r1. split; auto. eapply den_ext; [exact D1|]. intros v V. cbv beta.
  destruct (Z.leb_spec (0 * 65536) v); auto. unfold v64 in V. lia.
Qed.
(** moving a 32-bit bitmap in: its containers under keys of one high half *)
Lemma move_offset_spec hi src : 0 <= hi < 2^32 -> forall lo dst Q, (forall k c, In (k, c) src -> lo <= k < 65536 /\ cok c) -> incr (map fst src) -> 0 <= lo -> den dst Q -> (forall v, hi * 2^32 + lo * 65536 <= v -> Q v = false) ->
  exists r1, move_from_roaring32_offset dst src hi = Some r1 /\ den r1 (fun v => Q v || ((v / 2^32 =? hi) && mem src (v mod 2^32))).
Proof.
  intros HI. induction src as [|[k c] src IH]; intros lo dst Q G S L0 D F; cbn [move_from_roaring32_offset].
  - exists dst. split; auto. eapply den_ext; [exact D|]. intros v _. cbv beta. unfold mem, km. cbn [look]. now rewrite andb_false_r, orb_false_r.
  - destruct (G k c (or_introl eq_refl)) as (K & O). set (u := hi * 2^32 + k * 65536). assert (U : v64 u) by (unfold v64, u; lia). destruct (kv_high48 u U) as (K6 & KE). assert (UE : u / 65536 = hi * 65536 + k) by (unfold u; replace (hi * 2^32 + k * 65536) with ((hi * 65536 + k) * 65536) by lia; now rewrite Z.div_mul by lia).
    rewrite UE in KE. destruct (den_insert dst Q _ _ c (cmem c) D K6 KE) as (r1 & lf & -> & D1); [intros y Y; apply F; lia|now split|]. cbn [obind]. cbn [map fst incr] in S. destruct S as (S1 & S2). rewrite Forall_forall in S1.
    destruct (IH (k + 1) r1 (with_key Q (hi * 65536 + k) (cmem c))) as (r2 & -> & D2); [|auto|lia|exact D1| |].
    { intros k' c' I. destruct (G k' c' (or_intror I)) as (K' & O'). split; auto. specialize (S1 k' (in_map fst _ _ I)). lia. }
    { intros v V. rewrite with_key_gt by lia. apply F. lia. }
    exists r2. split; auto. eapply den_ext; [exact D2|]. intros v V. cbv beta. pose proof (v_split v) as VS. pose proof (Z.mod_pos_bound v 65536 ltac:(lia)) as VM. pose proof (Z.div_mod v (2^32) ltac:(lia)) as VD. pose proof (Z.mod_pos_bound v (2^32) ltac:(lia)) as VB.
    unfold mem, km. cbn [look].
    assert (E1 : (v mod 2^32) mod 65536 = v mod 65536) by (rewrite (Z.mod_eq v (2^32)) by lia; replace (v - 2^32 * (v / 2^32)) with (v + (- (65536 * (v / 2^32))) * 65536) by lia; now rewrite Z.mod_add by lia).
    assert (E2 : v / 65536 = v / 2^32 * 65536 + v mod 2^32 / 65536).
    { symmetry. rewrite Z.add_comm. rewrite <- Z.div_add by lia. f_equal. lia. }
    destruct (Z.eqb_spec (v / 2^32) hi) as [EH|NH].
    + rewrite <- EH in *. destruct (Z.eqb_spec (v mod 2^32 / 65536) k) as [EK|NK].
      * rewrite (look_none src) by (intros I; apply S1 in I; lia). cbn [andb]. rewrite orb_false_r. unfold with_key. replace (v / 65536 =? v / 2^32 * 65536 + k) with true by lia. rewrite E1. rewrite F by lia. reflexivity.
      * unfold with_key. replace (v / 65536 =? v / 2^32 * 65536 + k) with false by lia. reflexivity.
    + cbn [andb]. rewrite !orb_false_r. unfold with_key. replace (v / 65536 =? hi * 65536 + k) with false; auto. symmetry. apply Z.eqb_neq. intros X. apply NH.
      assert (v mod 2^32 / 65536 < 65536) by (apply Z.div_lt_upper_bound; lia). assert (0 <= v mod 2^32 / 65536) by (apply Z.div_pos; lia). lia.
Qed.

(** ** Adding a range *)
Definition ival (a b v : Z) : bool := (a <=? v) && (v <=? b).
Lemma add_at r P v lo hi : den r P -> v64 v -> 0 <= lo <= hi -> hi < 65536 -> exists r1, add_range_closed_at r (high48 v) lo hi = Some r1 /\
  den r1 (fun u => P u || ival (v / 65536 * 65536 + lo) (v / 65536 * 65536 + hi) u).
Proof.
  intros D V L H. destruct (kv_high48 v V) as (K & E). set (h := v / 65536) in *. unfold add_range_closed_at.
  assert (EXT : forall u, v64 u -> with_key P h (fun y => at_key P h y || ((lo <=? y) && (y <=? hi))) u = P u || ival (h * 65536 + lo) (h * 65536 + hi) u).
  { intros u U. unfold with_key, at_key, ival. pose proof (v_split u). pose proof (Z.mod_pos_bound u 65536 ltac:(lia)). destruct (Z.eqb_spec (u / 65536) h) as [EH|NE].
    - rewrite <- EH, <- v_split. f_equal. lia.
    - replace ((h * 65536 + lo <=? u) && (u <=? h * 65536 + hi)) with false by lia. now rewrite orb_false_r. }
  destruct (den_find r P h _ D K E) as (lf & -> & [(l & x & t & HR & LX & KX & -> & NZ & RX & RW & G)|(-> & Z0 & INS)]); cbn [obind].
  - destruct (Z.eqb_spec (e_lf x) 0); [tauto|]. cbn [negb]. rewrite RW. cbn [obind]. rewrite G. cbn [obind].
    assert (RC : rep (container_add_range (e_c x) lo hi) (fun y => at_key P h y || ((lo <=? y) && (y <=? hi)))).
    { eapply rep_ext; [apply container_add_range_spec; auto; apply RX|]. intros y Y. cbv beta. now rewrite (proj2 RX) by auto. }
    destruct (den_put r P l x t _ _ HR LX RC) as (r1 & -> & _ & _ & D1). exists r1. split; auto. rewrite KX, E in D1. eapply den_ext; eauto.
  - change (negb (0 =? 0)) with false. cbv beta iota. destruct (INS (container_range_of_ones lo (hi + 1)) (fun y => at_key P h y || ((lo <=? y) && (y <=? hi)))) as (r1 & lf1 & -> & D1 & _).
    + eapply rep_ext; [apply container_range_of_ones_spec; lia|]. intros y Y. cbv beta. unfold at_key. rewrite Z0 by auto. cbn [orb]. f_equal. lia.
    + cbn [obind]. exists r1. split; auto. eapply den_ext; eauto.
Qed.
Lemma add_keys n : forall a r P, den r P -> 0 <= a -> a + Z.of_nat n <= 2^48 ->
  exists r1, over_keys (zrange a n) (fun r current => add_range_closed_at r (high48 (current * 65536)) 0 65535) r = Some r1 /\
  den r1 (fun u => P u || ival (a * 65536) ((a + Z.of_nat n) * 65536 - 1) u).
Proof.
  induction n as [|n IH]; intros a r P D A B; cbn [zrange over_keys].
  - exists r. split; auto. eapply den_ext; [exact D|]. intros v _. unfold ival. cbn [Z.of_nat]. replace ((a * 65536 <=? v) && (v <=? (a + 0) * 65536 - 1)) with false by lia. now rewrite orb_false_r.
  - destruct (add_at r P (a * 65536) 0 65535 D) as (r1 & -> & D1); [unfold v64; lia|lia|lia|]. rewrite Z.div_mul in D1 by lia. cbn [obind].
    destruct (IH (a + 1) r1 _ D1) as (r2 & -> & D2); [lia|lia|]. exists r2. split; auto. eapply den_ext; [exact D2|]. intros v _. cbv beta. unfold ival. destruct (P v); cbn [orb]; auto. lia.
Qed.
Lemma roaring64_bitmap_add_range_closed_spec r P min max : den r P -> v64 min -> v64 max -> exists r1, roaring64_bitmap_add_range_closed r min max = Some r1 /\ den r1 (fun v => P v || ival min max v).
Proof.
  intros D V1 V2. unfold roaring64_bitmap_add_range_closed. destruct (Z.ltb_spec max min) as [LT|GE].
  { exists r. split; auto. eapply den_ext; [exact D|]. intros v _. unfold ival. replace ((min <=? v) && (v <=? max)) with false by lia. now rewrite orb_false_r. }
  pose proof (v_split min) as VS1. pose proof (low_range min) as LR1. pose proof (v_split max) as VS2. pose proof (low_range max) as LR2. unfold low16 in LR1, LR2. pose proof (v64_div _ V1). pose proof (v64_div _ V2).
  destruct (kv_high48 min V1) as (K1 & KE1). destruct (cmp_tests (high48 min) max K1 V2) as (_ & -> & _). rewrite KE1. destruct (Z.eqb_spec (min / 65536) (max / 65536)) as [E|NE].
  - unfold low16. destruct (add_at r P min (min mod 65536) (max mod 65536) D V1) as (r1 & -> & D1); [lia|lia|]. exists r1. split; auto. eapply den_ext; [exact D1|]. intros v _. cbv beta. unfold ival. destruct (P v); cbn [orb andb]; auto. lia.
  - destruct (add_at r P min (low16 min) 65535 D V1) as (r1 & -> & D1); [unfold low16; lia|lia|]. cbn [obind].
    destruct (add_keys (Z.to_nat (max / 65536 - (min / 65536 + 1))) (min / 65536 + 1) r1 _ D1) as (r2 & E2 & D2); [lia|lia|]. rewrite zr_eq, E2. cbn [obind].
    destruct (add_at r2 _ max 0 (low16 max) D2 V2) as (r3 & -> & D3); [unfold low16; lia|unfold low16; lia|]. exists r3. split; auto. eapply den_ext; [exact D3|]. intros v _. cbv beta. unfold ival, low16. destruct (P v); cbn [orb]; auto.
    rewrite <- v_split. lia.
Qed.
Lemma roaring64_bitmap_add_range_spec r P min max : den r P -> v64 min -> v64 max -> exists r1, roaring64_bitmap_add_range r min max = Some r1 /\ den r1 (fun v => P v || ival min (max - 1) v).
Proof.
  intros D V1 V2. unfold roaring64_bitmap_add_range. destruct (Z.leb_spec max min) as [LT|GE].
  - exists r. split; auto. eapply den_ext; [exact D|]. intros v _. unfold ival. replace ((min <=? v) && (v <=? max - 1)) with false by lia. now rewrite orb_false_r.
  - apply roaring64_bitmap_add_range_closed_spec; auto. unfold v64 in *. lia.
Qed.

(** ** Removing a range *)
Lemma remove_at r P v lo hi : den r P -> v64 v -> 0 <= lo <= hi -> hi < 65536 -> exists r1, remove_range_closed_at r (high48 v) lo hi = Some r1 /\
  den r1 (fun u => P u && negb (ival (v / 65536 * 65536 + lo) (v / 65536 * 65536 + hi) u)).
Proof.
  intros D V L H. destruct (kv_high48 v V) as (K & E). set (h := v / 65536) in *. unfold remove_range_closed_at.
  assert (EXT : forall u, v64 u -> with_key P h (fun y => at_key P h y && negb ((lo <=? y) && (y <=? hi))) u = P u && negb (ival (h * 65536 + lo) (h * 65536 + hi) u)).
  { intros u U. unfold with_key, at_key, ival. pose proof (v_split u). pose proof (Z.mod_pos_bound u 65536 ltac:(lia)). destruct (Z.eqb_spec (u / 65536) h) as [EH|NE].
    - rewrite <- EH, <- v_split. f_equal. f_equal. lia.
    - replace ((h * 65536 + lo <=? u) && (u <=? h * 65536 + hi)) with false by lia. now rewrite andb_true_r. }
  destruct (den_find r P h _ D K E) as (lf & -> & [(l & x & t & HR & LX & KX & -> & NZ & RX & RW & G)|(-> & Z0 & INS)]); cbn [obind].
  - destruct (Z.eqb_spec (e_lf x) 0); [tauto|]. rewrite RW. cbn [obind]. rewrite G. cbn [obind].
    pose proof (container_remove_range_spec (e_c x) lo hi (proj1 RX) L H) as RC. destruct (container_remove_range (e_c x) lo hi) as [c2|].
    + destruct (den_put r P l x t _ _ HR LX RC) as (r1 & -> & _ & _ & D1). exists r1. split; auto. rewrite KX, E in D1. eapply den_ext; [exact D1|]. intros u U. rewrite <- EXT by auto.
      apply with_key_ext. intros y Y. now rewrite (proj2 RX).
    + destruct (den_drop r P l x t HR LX) as (a & EA & RW2 & D1). rewrite KX in EA. rewrite EA. cbn [obind]. rewrite RW2. cbn [obind]. eexists. split; [reflexivity|]. rewrite KX, E in D1.
      eapply den_ext; [exact D1|]. intros u U. rewrite <- EXT by auto. apply with_key_ext. intros y Y. specialize (RC y Y). rewrite (proj2 RX) in RC by auto. now rewrite RC.
  - change (0 =? 0) with true. cbv beta iota. exists r. split; auto. eapply den_ext; [exact D|]. intros u U. rewrite <- EXT by auto. symmetry. apply with_key_id. intros y Y. unfold at_key. now rewrite Z0.
Qed.
Lemma remove_until_spec max t : v64 max -> forall r it l fuel, R r (l ++ t) -> at_ any r it l t -> (length t < fuel)%nat -> incr (map (fun x => kv (e_key x)) t) ->
  exists r1 t1 t2, remove_until fuel r it (high48 max) = Some r1 /\ t = t1 ++ t2 /\ R r1 (l ++ t2) /\ (forall x, In x t1 -> kv (e_key x) < max / 65536) /\ (forall x, In x t2 -> max / 65536 <= kv (e_key x)).
Proof.
  intros V. induction t as [|x t IH]; intros r it l fuel H A F S; (destruct fuel as [|f]; [cbn in F; lia|]); cbn [remove_until].
  - rewrite (at_end _ _ _ _ A). cbn [Z.eqb negb andb]. exists r, [], []. split; auto. split; auto. split; auto. split; intros ? [].
  - destruct (at_val _ _ _ _ _ _ A) as (-> & -> & NZ). destruct (Z.eqb_spec (e_lf x) 0); [tauto|]. cbn [negb andb].
    assert (K : key6 (e_key x)) by (eapply R_key; [exact H|apply in_elt]). destruct (cmp_tests _ _ K V) as (-> & _). cbn [map incr] in S. destruct S as (S1 & S2). rewrite Forall_forall in S1.
    destruct (Z.ltb_spec (kv (e_key x)) (max / 65536)) as [LT|GE].
    + destruct (R_it_erase any r it l x t H A) as (a & it1 & E & _ & H1 & A1). rewrite E. cbn [obind]. rewrite (R_get _ _ x H) by apply in_elt. cbn [obind].
      destruct (IH _ it1 l f H1 A1) as (r1 & t1 & t2 & E1 & -> & H2 & B1 & B2); [cbn in F; lia|auto|]. rewrite E1. exists r1, (x :: t1), t2. split; auto. split; auto. split; auto. split; auto.
      intros z [<-|I]; auto.
    + exists r, [], (x :: t). split; auto. split; auto. split; auto. split; [intros ? []|]. intros z [<-|I]; auto. specialize (S1 _ (in_map (fun x => kv (e_key x)) _ _ I)). cbv beta in S1. lia.
Qed.
Lemma Lx_cut l t1 t2 P a b : Lx (l ++ t1 ++ t2) P -> (forall x, In x l -> kv (e_key x) < a) -> (forall x, In x t1 -> a <= kv (e_key x) < b) -> (forall x, In x t2 -> b <= kv (e_key x)) -> a <= b ->
  Lx (l ++ t2) (fun v => P v && negb (ival (a * 65536) (b * 65536 - 1) v)).
Proof.
  intros (S & F & C) A1 A2 A3 AB. split; [|split].
  - rewrite !map_app in S. rewrite map_app. revert S. generalize (map (fun x => kv (e_key x)) l), (map (fun x => kv (e_key x)) t2). intros u w. induction (map (fun x => kv (e_key x)) t1) as [|z m IH]; auto. intros S. apply IH. now apply (incr_del u z).
  - rewrite !Forall_app in *. tauto.
  - intros k y K Y. rewrite <- C by auto. unfold ival. replace (a * 65536 <=? k * 65536 + y) with (a <=? k) by lia. replace (k * 65536 + y <=? b * 65536 - 1) with (k <? b) by lia.
    rewrite !map_app. unfold km. rewrite !look_app.
    assert (N : forall u, (forall x, In x u -> kv (e_key x) <> k) -> look (map ekc u) k = None).
    { intros u U. apply look_none. unfold rkeys. rewrite map_map. intros I. apply in_map_iff in I as (x & E & I). now apply (U x I). }
    destruct (Z.leb_spec a k); destruct (Z.ltb_spec k b); cbn [andb negb]; rewrite ?andb_true_r, ?andb_false_r.
    + rewrite (N l), (N t2); auto; intros x I; [apply A3 in I|apply A1 in I]; lia.
    + rewrite (N t1); auto. intros x I. apply A2 in I. lia.
    + rewrite (N t1); auto. intros x I. apply A2 in I. lia.
    + rewrite (N t1); auto. intros x I. apply A2 in I. lia.
Qed.
Lemma R_incr_t r l t : R r (l ++ t) -> incr (map (fun x => kv (e_key x)) t).
Proof. intros H. apply R_sorted in H. rewrite map_app in H. induction (map (fun x => kv (e_key x)) l); auto. apply IHl0. apply H. Qed.
Lemma roaring64_bitmap_remove_range_closed_spec r P min max : den r P -> v64 min -> v64 max -> exists r1, roaring64_bitmap_remove_range_closed r min max = Some r1 /\ den r1 (fun v => P v && negb (ival min max v)).
Proof.
  intros D V1 V2. unfold roaring64_bitmap_remove_range_closed. destruct (Z.ltb_spec max min) as [LT|GE].
  { exists r. split; auto. eapply den_ext; [exact D|]. intros v _. unfold ival. replace ((min <=? v) && (v <=? max)) with false by lia. now rewrite andb_true_r. }
  pose proof (v_split min) as VS1. pose proof (low_range min) as LR1. pose proof (v_split max) as VS2. pose proof (low_range max) as LR2. unfold low16 in LR1, LR2. pose proof (v64_div _ V1). pose proof (v64_div _ V2).
  destruct (kv_high48 min V1) as (K1 & KE1). destruct (cmp_tests (high48 min) max K1 V2) as (_ & -> & _). rewrite KE1. destruct (Z.eqb_spec (min / 65536) (max / 65536)) as [E|NE].
  - unfold low16. destruct (remove_at r P min (min mod 65536) (max mod 65536) D V1) as (r1 & -> & D1); [lia|lia|]. exists r1. split; auto. eapply den_ext; [exact D1|]. intros v _. cbv beta. unfold ival. destruct (P v); cbn [orb andb]; auto. lia.
  - destruct (remove_at r P min (low16 min) 65535 D V1) as (r1 & -> & D1); [unfold low16; lia|lia|]. cbn [obind].
    apply den_Lx in D1 as (xs & H1 & L1). destruct (at_upper_bound r1 xs (high48 min) H1 K1) as (it & l & t & -> & -> & A & S1 & S2). rewrite KE1 in S1, S2. cbn [obind].
    destruct (remove_until_spec max t V2 r1 it l (fuel64 r1) H1 A (R_fuel _ _ _ H1) (R_incr_t _ _ _ H1)) as (r2 & t1 & t2 & -> & -> & H2 & B1 & B2). cbn [obind].
    assert (D2 : den r2 (fun v => (P v && negb (ival (min / 65536 * 65536 + low16 min) (min / 65536 * 65536 + 65535) v)) && negb (ival ((min / 65536 + 1) * 65536) (max / 65536 * 65536 - 1) v))).
    { eapply den_R; [exact H2|]. apply (Lx_cut l t1 t2 _ (min / 65536 + 1) (max / 65536) L1); auto; [|lia]. intros x I. split; [apply S2, in_app_iff; auto|auto]. }
    destruct (remove_at r2 _ max 0 (low16 max) D2 V2) as (r3 & -> & D3); [unfold low16; lia|unfold low16; lia|]. exists r3. split; auto. eapply den_ext; [exact D3|]. intros v _. cbv beta. unfold ival, low16. destruct (P v); cbn [andb]; auto.
    rewrite <- v_split. lia.
Qed.
Lemma roaring64_bitmap_remove_range_spec r P min max : den r P -> v64 min -> v64 max -> exists r1, roaring64_bitmap_remove_range r min max = Some r1 /\ den r1 (fun v => P v && negb (ival min (max - 1) v)).
Proof.
  intros D V1 V2. unfold roaring64_bitmap_remove_range. destruct (Z.leb_spec max min) as [LT|GE].
  - exists r. split; auto. eapply den_ext; [exact D|]. intros v _. unfold ival. replace ((min <=? v) && (v <=? max - 1)) with false by lia. now rewrite andb_true_r.
  - apply roaring64_bitmap_remove_range_closed_spec; auto. unfold v64 in *. lia.
Qed.
Lemma roaring64_bitmap_clear_spec r P : den r P -> exists r1, roaring64_bitmap_clear r = Some r1 /\ den r1 (fun _ => false).
Proof.
  intros D. unfold roaring64_bitmap_clear. destruct (roaring64_bitmap_remove_range_closed_spec r P 0 (2^64 - 1) D) as (r1 & -> & D1); [unfold v64; lia|unfold v64; lia|]. exists r1. split; auto. eapply den_ext; [exact D1|].
  intros v V. cbv beta. unfold ival, v64 in *. replace ((0 <=? v) && (v <=? 2^64 - 1)) with true by lia. apply andb_false_r.
Qed.
