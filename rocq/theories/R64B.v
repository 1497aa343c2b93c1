(** R64B: comparisons and set operations of two 64-bit bitmaps *)
From Verif Require Import Base ArrayUtil BitUtil BitsetC ArrayC RunC RunD Convert MixedI MixedU MixedA MixedN Containers RArray RBinary RPoint.
From Verif Require Import Art ArtT ArtI ArtR R64 R64P R64Q R64K R64C R64R.
Local Opaque zr n48_pairs n256_pairs.

(** ** Cursors: an iterator whose remaining [n] entries are those at or after the key [lo] *)
Definition cur (Q : Z -> Prop) (r : r64) (P : Z -> bool) (it : iter) (lo : Z) (n : nat) : Prop :=
  exists l t, R r (l ++ t) /\ Lx (l ++ t) P /\ at_ Q r it l t /\ esplit lo l t /\ n = length t /\ 0 <= lo <= 2^48.
Definition rt (r : r64) : Z -> Prop := rooted (r_art r).
Lemma cur_den Q r P it lo n : cur Q r P it lo n -> den r P.
Proof. intros (l & t & H & L & _). eapply den_R; eauto. Qed.
Lemma cur_bound Q r P it lo n : cur Q r P it lo n -> 0 <= lo <= 2^48.
Proof. intros (l & t & _ & _ & _ & _ & _ & B). exact B. Qed.
Lemma Lx_after P l x t : Lx (l ++ x :: t) P -> (forall z, In z l -> kv (e_key z) < kv (e_key x)) /\ forall z, In z t -> kv (e_key x) < kv (e_key z).
Proof.
  intros (I & _). rewrite map_app in I. cbn [map] in I. split; intros z Hz; destruct (incr_app_lt _ _ _ (kv (e_key z)) I) as (A & B); [apply A|apply B]; now apply (in_map (fun x => kv (e_key x))).
Qed.
Lemma esplit_next P l x t : Lx (l ++ x :: t) P -> esplit (kv (e_key x) + 1) (l ++ [x]) t.
Proof.
  intros L. apply Lx_after in L as (A & B). split.
  - intros z I. apply in_app_or in I as [I|[<-|[]]]; [specialize (A z I)|]; lia.
  - intros z I. specialize (B z I). lia.
Qed.
Lemma esplit_at P lo l x t : Lx (l ++ x :: t) P -> esplit lo l (x :: t) -> lo <= kv (e_key x) /\ forall lo', lo <= lo' <= kv (e_key x) -> esplit lo' l (x :: t).
Proof.
  intros L (A & B). apply Lx_after in L as (C & D). split; [apply B; now left|]. intros lo' H. split.
  - intros z I. specialize (A z I). lia.
  - intros z [<-|I]; [lia|]. specialize (D z I). lia.
Qed.
Lemma cur_case Q r P it lo n : cur Q r P it lo n -> Q (a_root (r_art r)) ->
  (i_val it = 0 /\ n = 0%nat /\ (forall v, lo * 65536 <= v < 2^64 -> P v = false) /\ forall lo', lo <= lo' <= 2^48 -> cur Q r P it lo' n) \/
  (exists m c vv, n = S m /\ i_val it <> 0 /\ key6 (i_key it) /\ lo <= kv (i_key it) < 2^48 /\ (forall v, lo * 65536 <= v < kv (i_key it) * 65536 -> P v = false) /\
     leaf_val (r_art r) (i_val it) = Some vv /\ get_container r vv = Some c /\ rep c (at_key P (kv (i_key it))) /\
     (exists j b, art_iterator_next (r_art r) it = Some (j, b) /\ cur Q r P j (kv (i_key it) + 1) m) /\
     (forall lo', lo <= lo' <= kv (i_key it) -> cur Q r P it lo' n)).
Proof.
  intros (l & t & H & L & A & S & -> & B) HQ. pose proof (Lx_blocks P t l lo L B S) as BL. destruct t as [|x t].
  - left. split; [eapply at_end; eauto|]. split; auto. inversion BL; subst. split; auto. intros lo' LO. exists l, []. split; auto. split; auto. split; auto. split; [|split; [auto|lia]].
    split; [|intros x []]. intros x I. destruct S as (S & _). specialize (S x I). lia.
  - right. inversion BL as [|? ? ? L0 K Z0 RX B']; subst. destruct (at_val _ _ _ _ _ _ A) as (-> & -> & NZ). pose proof (key6_range _ K). exists (length t), (e_c x), (eval x).
    split; auto. split; auto. split; auto. split; [lia|]. split; auto. split; [eapply R_val; eauto; apply in_elt|]. split; [eapply R_get; eauto; apply in_elt|]. split; auto. split.
    + destruct (at_next Q r it l x t HQ A) as (j & EN & AN). exists j, (some t). split; auto. exists (l ++ [x]), t. rewrite <- app_assoc. split; auto. split; auto. split; auto. split; [eapply esplit_next; eauto|]. split; auto. lia.
    + intros lo' LO. exists l, (x :: t). split; auto. split; auto. split; auto. split; [eapply esplit_at; eauto|]. split; auto. lia.
Qed.
Lemma cur_lower r P it lo n key : cur (rt r) r P it lo n -> i_val it <> 0 -> key6 key -> kv (i_key it) < kv key ->
  exists j b m, art_iterator_lower_bound (r_art r) it key = Some (j, b) /\ cur (rt r) r P j (kv key) m /\ (m < n)%nat.
Proof.
  intros (l & t & H & L & A & S & -> & B) NZ K LT. destruct (at_it_lower_bound r _ it l t key H A K) as (j & l' & t' & E & SP & A' & S'). exists j, (some t'), (length t'). split; auto. split.
  - exists l', t'. rewrite <- SP. split; auto. split; auto. split; auto. split; auto. split; auto. pose proof (key6_range _ K). lia.
  - destruct t as [|x t]; [exfalso; apply NZ; eapply at_end; eauto|]. destruct (at_val _ _ _ _ _ _ A) as (_ & EK & _). rewrite EK in LT. symmetry in SP. apply app_eq_app in SP as (k & [(-> & E2)|(-> & E2)]).
    + destruct k as [|z k]; [|cbn in E2; injection E2 as <- ->; cbn [length]; rewrite app_length; lia]. cbn in E2. subst t'. destruct S' as (_ & S'). specialize (S' x (or_introl eq_refl)). lia.
    + assert (I : In x t') by (rewrite E2; apply in_elt). destruct S' as (_ & S'). specialize (S' x I). lia.
Qed.
Lemma cur_first r P : den r P -> exists it n, art_init_iterator (r_art r) true = Some it /\ cur (rt r) r P it 0 n /\ (n < fuel64 r)%nat.
Proof.
  intros D. apply den_Lx in D as (xs & H & L). destruct (at_first r xs H) as (it & E & A). exists it, (length xs). split; auto. split; [|now apply R_len].
  exists [], xs. split; auto. split; auto. split; auto. split; [|split; [auto|lia]]. split; [intros x []|]. intros x I. pose proof (key6_range _ (R_key _ _ _ H I)). lia.
Qed.
Lemma both_start {A} r1 r2 P1 P2 (loop : nat -> iter -> iter -> option A) (C : A -> Prop) : den r1 P1 -> den r2 P2 ->
  (forall fuel it1 it2 n1 n2, cur (rt r1) r1 P1 it1 0 n1 -> cur (rt r2) r2 P2 it2 0 n2 -> (n1 + 2 * n2 < fuel)%nat -> exists s, loop fuel it1 it2 = Some s /\ C s) ->
  exists s, both r1 r2 loop = Some s /\ C s.
Proof.
  intros D1 D2 H. destruct (cur_first r1 P1 D1) as (it1 & n1 & E1 & C1 & F1). destruct (cur_first r2 P2 D2) as (it2 & n2 & E2 & C2 & F2). unfold both. rewrite E1. cbn [obind]. rewrite E2. cbn [obind].
  apply (H _ it1 it2 n1 n2); auto. lia.
Qed.
Lemma cmp_two k1 k2 : key6 k1 -> key6 k2 -> (art_compare_keys k1 k2 <? 0) = (kv k1 <? kv k2) /\ (art_compare_keys k1 k2 =? 0) = (kv k1 =? kv k2).
Proof.
  intros K1 K2. destruct (cmp_keys k1 k2 K1 K2) as (A & B & _). split.
  - destruct (Z.ltb_spec (art_compare_keys k1 k2) 0); destruct (Z.ltb_spec (kv k1) (kv k2)); auto; lia.
  - destruct (Z.eqb_spec (art_compare_keys k1 k2) 0) as [E|N]; destruct (Z.eqb_spec (kv k1) (kv k2)) as [E'|N']; auto; exfalso.
    + apply N'. f_equal. now apply B.
    + apply N, B, key6_inj; auto.
Qed.
Lemma rt_root r : rt r (a_root (r_art r)). Proof. reflexivity. Qed.

(** ** Comparisons *)
Lemma block_eq P1 P2 h c1 c2 : rep c1 (at_key P1 h) -> rep c2 (at_key P2 h) -> (container_equals c1 c2 = true <-> forall v, h * 65536 <= v < (h + 1) * 65536 -> P1 v = P2 v).
Proof.
  intros (O1 & M1) (O2 & M2). rewrite container_equals_spec by now apply cok_lok. split.
  - intros H v V. specialize (H (v - h * 65536) ltac:(lia)). rewrite M1, M2 in H by lia. unfold at_key in H. now replace (h * 65536 + (v - h * 65536)) with v in H by lia.
  - intros H y Y. rewrite M1, M2 by auto. apply H. lia.
Qed.
Lemma block_sub P1 P2 h c1 c2 : rep c1 (at_key P1 h) -> rep c2 (at_key P2 h) -> (container_is_subset c1 c2 = true <-> forall v, h * 65536 <= v < (h + 1) * 65536 -> P1 v = true -> P2 v = true).
Proof.
  intros (O1 & M1) (O2 & M2). rewrite container_is_subset_spec by auto. split.
  - intros H v V. specialize (H (v - h * 65536) ltac:(lia)). rewrite M1, M2 in H by lia. unfold at_key in H. now replace (h * 65536 + (v - h * 65536)) with v in H by lia.
  - intros H y Y. rewrite M1, M2 by auto. apply H. lia.
Qed.
Lemma rep_some c P h : rep c (at_key P h) -> exists v, h * 65536 <= v < (h + 1) * 65536 /\ P v = true.
Proof. intros H. apply rep_cne in H as (y & Y & T). exists (h * 65536 + y). split; [lia|exact T]. Qed.
Lemma equals_loop_spec r1 r2 P1 P2 : forall fuel it1 it2 lo n1 n2, cur (rt r1) r1 P1 it1 lo n1 -> cur (rt r2) r2 P2 it2 lo n2 -> (n1 + 2 * n2 < fuel)%nat ->
  exists b, equals_loop fuel r1 r2 it1 it2 = Some b /\ (b = true <-> forall v, lo * 65536 <= v < 2^64 -> P1 v = P2 v).
Proof.
  induction fuel as [|f IH]; intros it1 it2 lo n1 n2 C1 C2 F; [lia|]. cbn [equals_loop].
  destruct (cur_case _ _ _ _ _ _ C1 (rt_root r1)) as [(-> & _ & Z1 & _)|(m1 & c1 & v1 & -> & NZ1 & K1 & L1 & Z1 & EV1 & EC1 & R1 & (j1 & b1 & EN1 & N1) & _)];
  destruct (cur_case _ _ _ _ _ _ C2 (rt_root r2)) as [(-> & _ & Z2 & _)|(m2 & c2 & v2 & -> & NZ2 & K2 & L2 & Z2 & EV2 & EC2 & R2 & (j2 & b2 & EN2 & N2) & _)].
  - exists true. split; auto. split; auto. intros _ v V. now rewrite Z1, Z2.
  - destruct (Z.eqb_spec (i_val it2) 0); [tauto|]. cbn [Z.eqb negb andb]. exists false. split; auto. split; [discriminate|]. intros H. exfalso. destruct (rep_some _ _ _ R2) as (v & V & T). rewrite <- H, Z1 in T by lia. discriminate.
  - destruct (Z.eqb_spec (i_val it1) 0); [tauto|]. cbn [Z.eqb negb andb]. exists false. split; auto. split; [discriminate|]. intros H. exfalso. destruct (rep_some _ _ _ R1) as (v & V & T). rewrite H, Z2 in T by lia. discriminate.
  - destruct (Z.eqb_spec (i_val it1) 0); [tauto|]. destruct (Z.eqb_spec (i_val it2) 0); [tauto|]. cbn [negb andb]. destruct (cmp_two _ _ K1 K2) as (_ & ->). destruct (Z.eqb_spec (kv (i_key it1)) (kv (i_key it2))) as [E|NE]; cbn [negb].
    + rewrite EV1. cbn [obind]. rewrite EC1. cbn [obind]. rewrite EV2. cbn [obind]. rewrite EC2. cbn [obind]. rewrite <- E in *. pose proof (block_eq _ _ _ _ _ R1 R2) as BE. set (h := kv (i_key it1)) in *. destruct (container_equals c1 c2); cbn [negb].
      * rewrite EN1. cbn [obind]. rewrite EN2. cbn [obind]. destruct (IH j1 j2 (h + 1) m1 m2 N1 N2 ltac:(lia)) as (b & -> & HB). exists b. split; auto. rewrite HB. split.
        -- intros H v V. destruct (Z_lt_dec v (h * 65536)); [rewrite Z1, Z2 by lia; auto|]. destruct (Z_lt_dec v ((h + 1) * 65536)); [apply BE; auto; lia|apply H; lia].
        -- intros H v V. apply H. lia.
      * exists false. split; auto. split; [discriminate|]. intros H. apply BE. intros v V. apply H. lia.
    + exists false. split; auto. split; [discriminate|]. intros H. exfalso. destruct (Z_lt_dec (kv (i_key it1)) (kv (i_key it2))).
      * destruct (rep_some _ _ _ R1) as (v & V & T). rewrite H, Z2 in T by lia. discriminate.
      * destruct (rep_some _ _ _ R2) as (v & V & T). rewrite <- H, Z1 in T by lia. discriminate.
Qed.
Lemma roaring64_bitmap_equals_spec r1 r2 P1 P2 : den r1 P1 -> den r2 P2 -> exists b, roaring64_bitmap_equals r1 r2 = Some b /\ (b = true <-> forall v, v64 v -> P1 v = P2 v).
Proof.
  intros D1 D2. unfold roaring64_bitmap_equals. apply (both_start r1 r2 P1 P2 (fun f => equals_loop f r1 r2) (fun b => b = true <-> forall v, v64 v -> P1 v = P2 v) D1 D2).
  intros fuel it1 it2 n1 n2 C1 C2 F. apply (equals_loop_spec r1 r2 P1 P2 fuel it1 it2 0 n1 n2 C1 C2 F).
Qed.
Lemma subset_loop64_spec r1 r2 P1 P2 : forall fuel it1 it2 lo n1 n2, cur (rt r1) r1 P1 it1 lo n1 -> cur (rt r2) r2 P2 it2 lo n2 -> (n1 + 2 * n2 < fuel)%nat ->
  exists b, subset_loop64 fuel r1 r2 it1 it2 = Some b /\ (b = true <-> forall v, lo * 65536 <= v < 2^64 -> P1 v = true -> P2 v = true).
Proof.
  induction fuel as [|f IH]; intros it1 it2 lo n1 n2 C1 C2 F; [lia|]. cbn [subset_loop64].
  destruct (cur_case _ _ _ _ _ _ C1 (rt_root r1)) as [(-> & _ & Z1 & _)|(m1 & c1 & v1 & E1 & NZ1 & K1 & L1 & Z1 & EV1 & EC1 & R1 & (j1 & b1 & EN1 & N1) & W1)].
  { exists true. split; auto. split; auto. intros _ v V T. rewrite Z1 in T by auto. discriminate. }
  destruct (Z.eqb_spec (i_val it1) 0); [tauto|].
  destruct (cur_case _ _ _ _ _ _ C2 (rt_root r2)) as [(-> & _ & Z2 & _)|(m2 & c2 & v2 & E2 & NZ2 & K2 & L2 & Z2 & EV2 & EC2 & R2 & (j2 & b2 & EN2 & N2) & W2)].
  { exists false. split; auto. split; [discriminate|]. intros H. exfalso. destruct (rep_some _ _ _ R1) as (v & V & T). apply H in T; [|lia]. rewrite Z2 in T by lia. discriminate. }
  destruct (Z.eqb_spec (i_val it2) 0); [tauto|]. destruct (cmp_two _ _ K1 K2) as (CL & CE). cbv zeta. rewrite CE, CL. destruct (Z.eqb_spec (kv (i_key it1)) (kv (i_key it2))) as [E|NE].
  - rewrite EV1. cbn [obind]. rewrite EC1. cbn [obind]. rewrite EV2. cbn [obind]. rewrite EC2. cbn [obind]. rewrite <- E in *. pose proof (block_sub _ _ _ _ _ R1 R2) as BE. set (h := kv (i_key it1)) in *. destruct (container_is_subset c1 c2); cbn [negb].
    + rewrite EN1. cbn [obind]. rewrite EN2. cbn [obind]. destruct (IH j1 j2 (h + 1) m1 m2 N1 N2 ltac:(lia)) as (b & -> & HB). exists b. split; auto. rewrite HB. split.
      * intros H v V T. destruct (Z_lt_dec v (h * 65536)); [rewrite Z1 in T by lia; discriminate|]. destruct (Z_lt_dec v ((h + 1) * 65536)); [apply BE; auto; lia|apply H; auto; lia].
      * intros H v V. apply H. lia.
    + exists false. split; auto. split; [discriminate|]. intros H. apply BE. intros v V. apply H. lia.
  - destruct (Z.ltb_spec (kv (i_key it1)) (kv (i_key it2))).
    + exists false. split; auto. split; [discriminate|]. intros H1. exfalso. destruct (rep_some _ _ _ R1) as (v & V & T). apply H1 in T; [|lia]. rewrite Z2 in T by lia. discriminate.
    + destruct (cur_lower r2 P2 it2 lo n2 (i_key it1) C2 NZ2 K1 ltac:(lia)) as (j & b & m & -> & CJ & LM). cbn [obind].
      destruct (IH it1 j _ n1 m (W1 (kv (i_key it1)) ltac:(lia)) CJ ltac:(lia)) as (b' & -> & HB). exists b'. split; auto. rewrite HB. split; intros HH v V T; [|apply HH; auto; lia]. destruct (Z_lt_dec v (kv (i_key it1) * 65536)); [rewrite Z1 in T by lia; discriminate|]. apply HH; auto. lia.
Qed.
Lemma roaring64_bitmap_is_subset_spec r1 r2 P1 P2 : den r1 P1 -> den r2 P2 -> exists b, roaring64_bitmap_is_subset r1 r2 = Some b /\ (b = true <-> forall v, v64 v -> P1 v = true -> P2 v = true).
Proof.
  intros D1 D2. unfold roaring64_bitmap_is_subset. apply (both_start r1 r2 P1 P2 (fun f => subset_loop64 f r1 r2) (fun b => b = true <-> forall v, v64 v -> P1 v = true -> P2 v = true) D1 D2).
  intros fuel it1 it2 n1 n2 C1 C2 F. apply (subset_loop64_spec r1 r2 P1 P2 fuel it1 it2 0 n1 n2 C1 C2 F).
Qed.
Lemma cnt_sub_lt P1 P2 lo hi : (forall v, lo <= v < hi -> P1 v = true -> P2 v = true) -> cnt P1 lo hi <= cnt P2 lo hi /\ (cnt P1 lo hi = cnt P2 lo hi -> forall v, lo <= v < hi -> P1 v = P2 v).
Proof.
  intros S. split; [apply cnt_mono; auto|]. intros E v V. destruct (P1 v) eqn:T1; [symmetry; auto|]. destruct (P2 v) eqn:T2; auto. exfalso.
  rewrite !(cnt_app _ lo v hi) in E by lia. rewrite !(cnt_cons _ v hi) in E by lia. rewrite T1, T2 in E.
  pose proof (cnt_mono P1 P2 lo v ltac:(intros; apply S; auto; lia)). pose proof (cnt_mono P1 P2 (v + 1) hi ltac:(intros; apply S; auto; lia)). lia.
Qed.
(** the comparison of cardinalities is right unless the second bitmap is the whole universe,
    whose cardinality wraps to zero *)
Lemma roaring64_bitmap_is_strict_subset_spec r1 r2 P1 P2 : den r1 P1 -> den r2 P2 -> cnt P1 0 (2^64) < 2^64 -> cnt P2 0 (2^64) < 2^64 ->
  exists b, roaring64_bitmap_is_strict_subset r1 r2 = Some b /\ (b = true <-> (forall v, v64 v -> P1 v = true -> P2 v = true) /\ ~ (forall v, v64 v -> P1 v = P2 v)).
Proof.
  intros D1 D2 S1 S2. unfold roaring64_bitmap_is_strict_subset. rewrite (roaring64_bitmap_get_cardinality_spec r1 P1 D1). cbn [obind]. rewrite (roaring64_bitmap_get_cardinality_spec r2 P2 D2). cbn [obind].
  pose proof (cnt_bound P1 0 (2^64) ltac:(lia)). pose proof (cnt_bound P2 0 (2^64) ltac:(lia)). rewrite !Z.mod_small by lia. destruct (Z.ltb_spec (cnt P1 0 (2^64)) (cnt P2 0 (2^64))) as [LT|GE].
  - destruct (roaring64_bitmap_is_subset_spec r1 r2 P1 P2 D1 D2) as (b & -> & HB). exists b. split; auto. rewrite HB. split; [|tauto]. intros SS. split; auto. intros EQ. rewrite (cnt_ext P1 P2) in LT by exact EQ. lia.
  - exists false. split; auto. split; [discriminate|]. intros (SS & NE). exfalso. apply NE. destruct (cnt_sub_lt P1 P2 0 (2^64) SS) as (LE & EQ). apply EQ. lia.
Qed.

(** ** Intersections *)
Definition below (P : Z -> bool) (lo : Z) : Z -> bool := fun v => (v <? lo * 65536) && P v.
Lemma below_gap P lo lo' v : lo <= lo' -> (forall v, lo * 65536 <= v < lo' * 65536 -> P v = false) -> below P lo v = below P lo' v.
Proof.
  intros L G. unfold below. destruct (Z.ltb_spec v (lo * 65536)); destruct (Z.ltb_spec v (lo' * 65536)); try lia; cbn [andb]; auto; symmetry; apply G; lia.
Qed.
Lemma below_step P h Pc v : (forall y, 0 <= y < 65536 -> Pc y = at_key P h y) -> with_key (below P h) h Pc v = below P (h + 1) v.
Proof.
  intros E. destruct (Z_lt_dec v (h * 65536)).
  - rewrite with_key_lt by lia. unfold below. replace (v <? h * 65536) with true by lia. now replace (v <? (h + 1) * 65536) with true by lia.
  - destruct (Z_lt_dec v ((h + 1) * 65536)).
    + rewrite with_key_in by lia. rewrite E by lia. unfold below, at_key. replace (v <? (h + 1) * 65536) with true by lia. cbn [andb]. f_equal. lia.
    + rewrite with_key_gt by lia. unfold below. replace (v <? h * 65536) with false by lia. now replace (v <? (h + 1) * 65536) with false by lia.
Qed.
Lemma below_free P h y : 0 <= y -> at_key (below P h) h y = false.
Proof. intros Y. unfold at_key, below. now replace (h * 65536 + y <? h * 65536) with false by lia. Qed.
Lemma below_end P v : v64 v -> below P (2^48) v = P v.
Proof. unfold v64, below. intros V. now replace (v <? 2^48 * 65536) with true by lia. Qed.
Lemma below_0 P v : v64 v -> below P 0 v = false.
Proof. unfold v64, below. intros V. now replace (v <? 0 * 65536) with false by lia. Qed.

Definition gapped {A} (J : Z -> A -> Prop) (P1 P2 : Z -> bool) : Prop :=
  forall lo lo' s, J lo s -> lo <= lo' -> (forall v, lo * 65536 <= v < lo' * 65536 -> P1 v = false \/ P2 v = false) -> J lo' s.
Lemma inter_loop_spec {A} r1 r2 P1 P2 (f2 : list Z -> container -> container -> A -> option A) (J : Z -> A -> Prop) : gapped J P1 P2 ->
  (forall key c1 c2 s, key6 key -> J (kv key) s -> rep c1 (at_key P1 (kv key)) -> rep c2 (at_key P2 (kv key)) -> exists s1, f2 key c1 c2 s = Some s1 /\ J (kv key + 1) s1) ->
  forall fuel it1 it2 lo n1 n2 s, cur (rt r1) r1 P1 it1 lo n1 -> cur (rt r2) r2 P2 it2 lo n2 -> J lo s -> (n1 + 2 * n2 < fuel)%nat ->
  exists s1, inter_loop fuel r1 r2 f2 it1 it2 s = Some s1 /\ J (2^48) s1.
Proof.
  intros GAP STEP. induction fuel as [|f IH]; intros it1 it2 lo n1 n2 s C1 C2 HJ F; [lia|]. cbn [inter_loop]. pose proof (cur_bound _ _ _ _ _ _ C1) as LB.
  destruct (cur_case _ _ _ _ _ _ C1 (rt_root r1)) as [(-> & _ & Z1 & _)|(m1 & c1 & v1 & E1 & NZ1 & K1 & L1 & Z1 & EV1 & EC1 & R1 & (j1 & b1 & EN1 & N1) & W1)].
  { cbn [Z.eqb negb andb]. exists s. split; auto. apply (GAP lo _ s HJ); [lia|]. intros v V. left. apply Z1. lia. }
  destruct (Z.eqb_spec (i_val it1) 0); [tauto|]. cbn [negb andb].
  destruct (cur_case _ _ _ _ _ _ C2 (rt_root r2)) as [(-> & _ & Z2 & _)|(m2 & c2 & v2 & E2 & NZ2 & K2 & L2 & Z2 & EV2 & EC2 & R2 & (j2 & b2 & EN2 & N2) & W2)].
  { cbn [Z.eqb negb andb]. exists s. split; auto. apply (GAP lo _ s HJ); [lia|]. intros v V. right. apply Z2. lia. }
  destruct (Z.eqb_spec (i_val it2) 0); [tauto|]. cbn [negb]. destruct (cmp_two _ _ K1 K2) as (CL & CE). cbv zeta. rewrite CE, CL. destruct (Z.eqb_spec (kv (i_key it1)) (kv (i_key it2))) as [E|NE].
  - rewrite EV1. cbn [obind]. rewrite EC1. cbn [obind]. rewrite EV2. cbn [obind]. rewrite EC2. cbn [obind]. rewrite <- E in R2, N2, L2.
    destruct (STEP (i_key it1) c1 c2 s K1) as (s1 & -> & J1); auto; [apply (GAP lo _ s HJ); [lia|]; intros v V; first [left; apply Z1; lia|right; apply Z2; lia]|]. cbn [obind]. rewrite EN1. cbn [obind]. rewrite EN2. cbn [obind]. apply (IH j1 j2 (kv (i_key it1) + 1) m1 m2); auto. lia.
  - destruct (Z.ltb_spec (kv (i_key it1)) (kv (i_key it2))).
    + destruct (cur_lower r1 P1 it1 lo n1 (i_key it2) C1 NZ1 K2 ltac:(lia)) as (j & b & m & -> & CJ & LM). cbn [obind]. apply (IH j it2 (kv (i_key it2)) m n2); auto; [apply W2; lia|apply (GAP lo _ s HJ); [lia|]; intros v V; first [left; apply Z1; lia|right; apply Z2; lia]|lia].
    + destruct (cur_lower r2 P2 it2 lo n2 (i_key it1) C2 NZ2 K1 ltac:(lia)) as (j & b & m & -> & CJ & LM). cbn [obind]. apply (IH it1 j (kv (i_key it1)) n1 m); auto; [apply W1; lia|apply (GAP lo _ s HJ); [lia|]; intros v V; first [left; apply Z1; lia|right; apply Z2; lia]|lia].
Qed.
Lemma inter_start {A} r1 r2 P1 P2 (f2 : list Z -> container -> container -> A -> option A) (J : Z -> A -> Prop) (C : A -> Prop) s : den r1 P1 -> den r2 P2 -> gapped J P1 P2 ->
  (forall key c1 c2 s, key6 key -> J (kv key) s -> rep c1 (at_key P1 (kv key)) -> rep c2 (at_key P2 (kv key)) -> exists s1, f2 key c1 c2 s = Some s1 /\ J (kv key + 1) s1) ->
  J 0 s -> (forall s, J (2^48) s -> C s) -> exists s1, both r1 r2 (fun f it1 it2 => inter_loop f r1 r2 f2 it1 it2 s) = Some s1 /\ C s1.
Proof.
  intros D1 D2 GAP STEP J0 JC. apply (both_start r1 r2 P1 P2 (fun f it1 it2 => inter_loop f r1 r2 f2 it1 it2 s) C D1 D2). intros fuel it1 it2 n1 n2 C1 C2 F.
  destruct (inter_loop_spec r1 r2 P1 P2 f2 J GAP STEP fuel it1 it2 0 n1 n2 s C1 C2 J0 F) as (s1 & -> & J1). exists s1. split; auto.
Qed.
Lemma and_gap P1 P2 lo lo' : (forall v, lo * 65536 <= v < lo' * 65536 -> P1 v = false \/ P2 v = false) -> forall v, lo * 65536 <= v < lo' * 65536 -> P1 v && P2 v = false.
Proof. intros H v V. destruct (H v V) as [->| ->]; auto. apply andb_false_r. Qed.
Lemma erep_and c1 c2 P1 P2 : rep c1 P1 -> rep c2 P2 -> erep (container_and c1 c2) (fun y => P1 y && P2 y).
Proof. intros (O1 & M1) (O2 & M2). eapply MixedI.erep_ext; [now apply container_and_spec|]. intros y Y. cbv beta. now rewrite M1, M2. Qed.
Lemma roaring64_bitmap_and_spec r1 r2 P1 P2 : den r1 P1 -> den r2 P2 -> exists r, roaring64_bitmap_and r1 r2 = Some r /\ den r (fun v => P1 v && P2 v).
Proof.
  intros D1 D2. unfold roaring64_bitmap_and. apply (inter_start r1 r2 P1 P2 _ (fun lo s => den s (below (fun v => P1 v && P2 v) lo)) (fun r => den r (fun v => P1 v && P2 v)) _ D1 D2).
  - intros lo lo' s J L G. eapply den_ext; [exact J|]. intros v _. apply below_gap; auto. now apply and_gap.
  - intros key c1 c2 s K J R1 R2. destruct (den_emit s _ (kv key) key (container_and c1 c2) (at_key (fun v => P1 v && P2 v) (kv key)) J K eq_refl) as (s1 & -> & D3).
    + intros y Y. apply below_free. lia.
    + eapply MixedI.erep_ext; [apply (erep_and _ _ _ _ R1 R2)|]. intros; reflexivity.
    + exists s1. split; auto. eapply den_ext; [exact D3|]. intros v _. now apply below_step.
  - eapply den_ext; [apply den_create|]. intros v V. symmetry. now apply below_0.
  - intros s J. eapply den_ext; [exact J|]. intros v V. now apply below_end.
Qed.
Lemma block_cnt P h : cnt (at_key P h) 0 65536 = cnt P (h * 65536) ((h + 1) * 65536).
Proof. rewrite cnt_at. f_equal; lia. Qed.
Lemma roaring64_bitmap_and_cardinality_spec r1 r2 P1 P2 : den r1 P1 -> den r2 P2 -> roaring64_bitmap_and_cardinality r1 r2 = Some (cnt (fun v => P1 v && P2 v) 0 (2^64) mod 2^64).
Proof.
  intros D1 D2. unfold roaring64_bitmap_and_cardinality.
  destruct (inter_start r1 r2 P1 P2 (fun _ c1 c2 n => Some (n + container_and_cardinality c1 c2)) (fun lo n => 0 <= lo /\ n = cnt (fun v => P1 v && P2 v) 0 (lo * 65536)) (fun n => n = cnt (fun v => P1 v && P2 v) 0 (2^64)) 0 D1 D2) as (n & -> & ->).
  - intros lo lo' s (L0 & ->) L G. split; [lia|]. rewrite (cnt_app _ 0 (lo * 65536) (lo' * 65536)) by lia. rewrite (cnt_none _ (lo * 65536)) by now apply and_gap. lia.
  - intros key c1 c2 s K (L0 & ->) (O1 & M1) (O2 & M2). eexists. split; [reflexivity|]. split; [lia|]. rewrite container_and_cardinality_spec by auto. rewrite (cnt_ext (fun x => cmem c1 x && cmem c2 x) (at_key (fun v => P1 v && P2 v) (kv key))) by (intros y Y; cbv beta; now rewrite M1, M2).
    rewrite block_cnt. rewrite (cnt_app _ 0 (kv key * 65536) ((kv key + 1) * 65536)) by lia. reflexivity.
  - split; [lia|]. rewrite cnt_nil by lia. reflexivity.
  - intros s (_ & ->). reflexivity.
  - reflexivity.
Qed.
Lemma roaring64_bitmap_intersect_spec r1 r2 P1 P2 : den r1 P1 -> den r2 P2 -> exists b, roaring64_bitmap_intersect r1 r2 = Some b /\ (b = true <-> exists v, v64 v /\ P1 v = true /\ P2 v = true).
Proof.
  intros D1 D2. unfold roaring64_bitmap_intersect.
  apply (inter_start r1 r2 P1 P2 _ (fun lo b => 0 <= lo /\ (b = true <-> exists v, 0 <= v < lo * 65536 /\ P1 v = true /\ P2 v = true)) (fun b => b = true <-> exists v, v64 v /\ P1 v = true /\ P2 v = true) _ D1 D2).
  - intros lo lo' b (L0 & J) L G. split; [lia|]. rewrite J. split; intros (v & V & T1 & T2); exists v; (split; [|auto]); [lia|]. destruct (Z_lt_dec v (lo * 65536)); [lia|]. exfalso. destruct (G v ltac:(lia)); congruence.
  - intros key c1 c2 b K (L0 & J) (O1 & M1) (O2 & M2). eexists. split; [reflexivity|]. split; [lia|]. pose proof (container_intersect_spec c1 c2 O1 O2) as CI. rewrite orb_true_iff, J, CI. split.
    + intros [(v & V & T)|(y & Y & T1 & T2)]; [exists v; split; [lia|auto]|]. rewrite M1 in T1 by auto. rewrite M2 in T2 by auto. exists (kv key * 65536 + y). split; [lia|]. auto.
    + intros (v & V & T1 & T2). destruct (Z_lt_dec v (kv key * 65536)); [left; exists v; split; [lia|auto]|]. right. exists (v - kv key * 65536). split; [lia|]. rewrite M1, M2 by lia. unfold at_key. now replace (kv key * 65536 + (v - kv key * 65536)) with v by lia.
  - split; [lia|]. split; [discriminate|]. intros (v & V & _). lia.
  - intros b (_ & J). rewrite J. reflexivity.
Qed.
Lemma mod_sub a b c d n : 0 < n -> (a mod n + b mod n - c * (d mod n)) mod n = (a + b - c * d) mod n.
Proof.
  intros N. rewrite (Zminus_mod (a mod n + b mod n)), <- Zplus_mod, Zmult_mod_idemp_r, <- Zminus_mod. reflexivity.
Qed.
Lemma roaring64_bitmap_or_cardinality_spec r1 r2 P1 P2 : den r1 P1 -> den r2 P2 -> roaring64_bitmap_or_cardinality r1 r2 = Some (cnt (fun v => P1 v || P2 v) 0 (2^64) mod 2^64).
Proof.
  intros D1 D2. unfold roaring64_bitmap_or_cardinality. rewrite (roaring64_bitmap_get_cardinality_spec r1 P1 D1). cbn [obind]. rewrite (roaring64_bitmap_get_cardinality_spec r2 P2 D2). cbn [obind]. rewrite (roaring64_bitmap_and_cardinality_spec r1 r2 P1 P2 D1 D2). cbn [obind].
  f_equal. pose proof (mod_sub (cnt P1 0 (2^64)) (cnt P2 0 (2^64)) 1 (cnt (fun v => P1 v && P2 v) 0 (2^64)) (2^64) ltac:(lia)) as M. rewrite !Z.mul_1_l in M. rewrite M. f_equal. pose proof (cnt_incl_excl P1 P2 0 (2^64)). lia.
Qed.
Lemma cnt_diff P1 P2 lo hi : lo <= hi -> cnt (fun v => P1 v && negb (P2 v)) lo hi + cnt (fun v => P1 v && P2 v) lo hi = cnt P1 lo hi.
Proof.
  intros L. rewrite <- cnt_incl_excl. rewrite (cnt_none (fun x => P1 x && negb (P2 x) && (P1 x && P2 x))) by (intros v _; destruct (P1 v), (P2 v); reflexivity).
  rewrite Z.add_0_r. apply cnt_ext. intros v _. destruct (P1 v), (P2 v); reflexivity.
Qed.
Lemma cnt_xor P1 P2 lo hi : lo <= hi -> cnt (fun v => xorb (P1 v) (P2 v)) lo hi = cnt P1 lo hi + cnt P2 lo hi - 2 * cnt (fun v => P1 v && P2 v) lo hi.
Proof.
  intros L. pose proof (cnt_incl_excl P1 P2 lo hi). pose proof (cnt_diff (fun v => P1 v || P2 v) (fun v => P1 v && P2 v) lo hi L) as D. cbv beta in D.
  rewrite (cnt_ext (fun v => (P1 v || P2 v) && negb (P1 v && P2 v)) (fun v => xorb (P1 v) (P2 v))) in D by (intros v _; destruct (P1 v), (P2 v); reflexivity).
  rewrite (cnt_ext (fun v => (P1 v || P2 v) && (P1 v && P2 v)) (fun v => P1 v && P2 v)) in D by (intros v _; destruct (P1 v), (P2 v); reflexivity). lia.
Qed.
Lemma roaring64_bitmap_xor_cardinality_spec r1 r2 P1 P2 : den r1 P1 -> den r2 P2 -> roaring64_bitmap_xor_cardinality r1 r2 = Some (cnt (fun v => xorb (P1 v) (P2 v)) 0 (2^64) mod 2^64).
Proof.
  intros D1 D2. unfold roaring64_bitmap_xor_cardinality. rewrite (roaring64_bitmap_get_cardinality_spec r1 P1 D1). cbn [obind]. rewrite (roaring64_bitmap_get_cardinality_spec r2 P2 D2). cbn [obind]. rewrite (roaring64_bitmap_and_cardinality_spec r1 r2 P1 P2 D1 D2). cbn [obind].
  f_equal. rewrite mod_sub by lia. rewrite cnt_xor by lia. reflexivity.
Qed.
Lemma roaring64_bitmap_andnot_cardinality_spec r1 r2 P1 P2 : den r1 P1 -> den r2 P2 -> roaring64_bitmap_andnot_cardinality r1 r2 = Some (cnt (fun v => P1 v && negb (P2 v)) 0 (2^64) mod 2^64).
Proof.
  intros D1 D2. unfold roaring64_bitmap_andnot_cardinality. rewrite (roaring64_bitmap_get_cardinality_spec r1 P1 D1). cbn [obind]. rewrite (roaring64_bitmap_and_cardinality_spec r1 r2 P1 P2 D1 D2). cbn [obind].
  f_equal. rewrite <- Zminus_mod. f_equal. pose proof (cnt_diff P1 P2 0 (2^64) ltac:(lia)). lia.
Qed.
Lemma roaring64_bitmap_jaccard_spec r1 r2 P1 P2 : den r1 P1 -> den r2 P2 -> roaring64_bitmap_jaccard_index r1 r2 = Some (cnt (fun v => P1 v && P2 v) 0 (2^64) mod 2^64, cnt (fun v => P1 v || P2 v) 0 (2^64) mod 2^64).
Proof.
  intros D1 D2. unfold roaring64_bitmap_jaccard_index. rewrite (roaring64_bitmap_get_cardinality_spec r1 P1 D1). cbn [obind]. rewrite (roaring64_bitmap_get_cardinality_spec r2 P2 D2). cbn [obind]. rewrite (roaring64_bitmap_and_cardinality_spec r1 r2 P1 P2 D1 D2). cbn [obind].
  assert (OC : (cnt P1 0 (2^64) mod 2^64 + cnt P2 0 (2^64) mod 2^64 - cnt (fun v => P1 v && P2 v) 0 (2^64) mod 2^64) mod 2^64 = cnt (fun v => P1 v || P2 v) 0 (2^64) mod 2^64); [|now rewrite OC].
  pose proof (mod_sub (cnt P1 0 (2^64)) (cnt P2 0 (2^64)) 1 (cnt (fun v => P1 v && P2 v) 0 (2^64)) (2^64) ltac:(lia)) as M. rewrite !Z.mul_1_l in M. rewrite M. f_equal. pose proof (cnt_incl_excl P1 P2 0 (2^64)). lia.
Qed.

(** ** Unions and symmetric differences *)
Lemma copy_step r P it res (O : Z -> bool) m c vv : den res (below O (kv (i_key it))) -> key6 (i_key it) -> leaf_val (r_art r) (i_val it) = Some vv -> get_container r vv = Some c -> rep c (at_key P (kv (i_key it))) ->
  m = kv (i_key it) -> (forall v, m * 65536 <= v < (m + 1) * 65536 -> P v = O v) -> exists res1, copy_at r it res = Some res1 /\ den res1 (below O (m + 1)).
Proof.
  intros D K EV EC RC -> EQ. unfold copy_at. rewrite EV. cbn [obind]. rewrite EC. cbn [obind]. destruct (den_insert res _ (kv (i_key it)) (i_key it) c (at_key P (kv (i_key it))) D K eq_refl) as (r1 & lf & -> & D1); [intros y Y; apply below_free; lia|exact RC|]. cbn [obind].
  exists r1. split; auto. eapply den_ext; [exact D1|]. intros v _. apply below_step. intros y Y. apply EQ. lia.
Qed.
Lemma union_loop64_spec r1 r2 P1 P2 (op : bool -> bool -> bool) put : (forall b, op b false = b) -> (forall b, op false b = b) -> 
  (forall key c1 c2 s, key6 key -> den s (below (fun v => op (P1 v) (P2 v)) (kv key)) -> rep c1 (at_key P1 (kv key)) -> rep c2 (at_key P2 (kv key)) ->
     exists s1, put s key c1 c2 = Some s1 /\ den s1 (below (fun v => op (P1 v) (P2 v)) (kv key + 1))) ->
  forall fuel it1 it2 lo n1 n2 s, cur (rt r1) r1 P1 it1 lo n1 -> cur (rt r2) r2 P2 it2 lo n2 -> den s (below (fun v => op (P1 v) (P2 v)) lo) -> (n1 + 2 * n2 < fuel)%nat ->
  exists s1, union_loop64 fuel r1 r2 put it1 it2 s = Some s1 /\ den s1 (fun v => op (P1 v) (P2 v)).
Proof.
  intros OR OL STEP. induction fuel as [|f IH]; intros it1 it2 lo n1 n2 s C1 C2 D F; [lia|]. cbn [union_loop64]. cbv zeta. pose proof (cur_bound _ _ _ _ _ _ C1) as LB. set (O := fun v => op (P1 v) (P2 v)) in *.
  assert (GP : forall lo', lo <= lo' -> (forall v, lo * 65536 <= v < lo' * 65536 -> P1 v = false /\ P2 v = false) -> den s (below O lo')).
  { intros lo' L G. eapply den_ext; [exact D|]. intros v _. apply below_gap; auto. intros u U. unfold O. destruct (G u U) as (-> & ->). apply OR. }
  destruct (cur_case _ _ _ _ _ _ C1 (rt_root r1)) as [(E1 & -> & Z1 & W1)|(m1 & c1 & v1 & E1 & NZ1 & K1 & L1 & Z1 & EV1 & EC1 & R1 & (j1 & b1 & EN1 & N1) & W1)];
  destruct (cur_case _ _ _ _ _ _ C2 (rt_root r2)) as [(E2 & -> & Z2 & W2)|(m2 & c2 & v2 & E2 & NZ2 & K2 & L2 & Z2 & EV2 & EC2 & R2 & (j2 & b2 & EN2 & N2) & W2)].
  - rewrite E1, E2. cbn [Z.eqb negb orb]. exists s. split; auto. eapply den_ext; [apply (GP (2^48)); [lia|]|intros v V; now apply below_end]. intros v V. split; [apply Z1|apply Z2]; lia.
  - rewrite E1. destruct (Z.eqb_spec (i_val it2) 0); [tauto|]. cbn [Z.eqb Z.ltb negb orb andb]. change (0 <? 0) with false. cbv iota.
    destruct (copy_step r2 P2 it2 s O _ c2 v2 (GP (kv (i_key it2)) ltac:(lia) ltac:(intros v V; split; [apply Z1|apply Z2]; lia)) K2 EV2 EC2 R2 eq_refl) as (s1 & -> & D1); [intros v V; unfold O; now rewrite Z1, OL by lia|]. cbn [obind]. rewrite EN2. cbn [obind].
    apply (IH it1 j2 (kv (i_key it2) + 1) 0%nat m2); auto; [apply W1; lia|lia].
  - rewrite E2. destruct (Z.eqb_spec (i_val it1) 0); [tauto|]. cbn [Z.eqb negb orb andb].
    destruct (copy_step r1 P1 it1 s O _ c1 v1 (GP (kv (i_key it1)) ltac:(lia) ltac:(intros v V; split; [apply Z1|apply Z2]; lia)) K1 EV1 EC1 R1 eq_refl) as (s1 & -> & D1); [intros v V; unfold O; now rewrite Z2, OR by lia|]. cbn [obind]. rewrite EN1. cbn [obind].
    apply (IH j1 it2 (kv (i_key it1) + 1) m1 0%nat); auto; [apply W2; lia|lia].
  - destruct (Z.eqb_spec (i_val it1) 0); [tauto|]. destruct (Z.eqb_spec (i_val it2) 0); [tauto|]. cbn [negb orb andb]. destruct (cmp_two _ _ K1 K2) as (-> & ->). destruct (Z.eqb_spec (kv (i_key it1)) (kv (i_key it2))) as [E|NE].
    + rewrite EV1. cbn [obind]. rewrite EC1. cbn [obind]. rewrite EV2. cbn [obind]. rewrite EC2. cbn [obind]. rewrite <- E in R2, N2, L2, Z2.
      destruct (STEP (i_key it1) c1 c2 s K1) as (s1 & -> & J1); auto; [apply GP; auto; lia|]. cbn [obind]. rewrite EN1. cbn [obind]. rewrite EN2. cbn [obind]. apply (IH j1 j2 (kv (i_key it1) + 1) m1 m2); auto. lia.
    + destruct (Z.ltb_spec (kv (i_key it1)) (kv (i_key it2))).
      * destruct (copy_step r1 P1 it1 s O _ c1 v1 (GP (kv (i_key it1)) ltac:(lia) ltac:(intros v V; split; [apply Z1|apply Z2]; lia)) K1 EV1 EC1 R1 eq_refl) as (s1 & -> & D1); [intros v V; unfold O; now rewrite Z2, OR by lia|]. cbn [obind]. rewrite EN1. cbn [obind].
        apply (IH j1 it2 (kv (i_key it1) + 1) m1 n2); auto; [apply W2; lia|lia].
      * destruct (copy_step r2 P2 it2 s O _ c2 v2 (GP (kv (i_key it2)) ltac:(lia) ltac:(intros v V; split; [apply Z1|apply Z2]; lia)) K2 EV2 EC2 R2 eq_refl) as (s1 & -> & D1); [intros v V; unfold O; now rewrite Z1, OL by lia|]. cbn [obind]. rewrite EN2. cbn [obind].
        apply (IH it1 j2 (kv (i_key it2) + 1) n1 m2); auto; [apply W1; lia|lia].
Qed.
Lemma den_create0 O : den roaring64_bitmap_create (below O 0).
Proof. eapply den_ext; [apply den_create|]. intros v V. symmetry. now apply below_0. Qed.
Lemma roaring64_bitmap_or_spec r1 r2 P1 P2 : den r1 P1 -> den r2 P2 -> exists r, roaring64_bitmap_or r1 r2 = Some r /\ den r (fun v => P1 v || P2 v).
Proof.
  intros D1 D2. unfold roaring64_bitmap_or. apply (both_start r1 r2 P1 P2 _ (fun r => den r (fun v => P1 v || P2 v)) D1 D2). intros fuel it1 it2 n1 n2 C1 C2 F.
  apply (union_loop64_spec r1 r2 P1 P2 orb) with (lo := 0) (n1 := n1) (n2 := n2); auto.
  - intros []; reflexivity.
  - intros key c1 c2 s K J (O1 & M1) (O2 & M2). destruct (den_insert s _ (kv key) key (container_or c1 c2) (fun x => cmem c1 x || cmem c2 x) J K eq_refl) as (s1 & lf & -> & D3); [intros y Y; apply below_free; lia|now apply container_or_spec|]. cbn [obind].
    exists s1. split; auto. eapply den_ext; [exact D3|]. intros v _. apply below_step. intros y Y. cbv beta. now rewrite M1, M2.
  - apply (den_create0 (fun v => P1 v || P2 v)).
Qed.
Lemma roaring64_bitmap_xor_spec r1 r2 P1 P2 : den r1 P1 -> den r2 P2 -> exists r, roaring64_bitmap_xor r1 r2 = Some r /\ den r (fun v => xorb (P1 v) (P2 v)).
Proof.
  intros D1 D2. unfold roaring64_bitmap_xor. apply (both_start r1 r2 P1 P2 _ (fun r => den r (fun v => xorb (P1 v) (P2 v))) D1 D2). intros fuel it1 it2 n1 n2 C1 C2 F.
  apply (union_loop64_spec r1 r2 P1 P2 xorb) with (lo := 0) (n1 := n1) (n2 := n2); auto.
  - intros []; reflexivity.
  - intros []; reflexivity.
  - intros key c1 c2 s K J (O1 & M1) (O2 & M2). destruct (den_emit s _ (kv key) key (container_xor c1 c2) (fun x => xorb (cmem c1 x) (cmem c2 x)) J K eq_refl) as (s1 & -> & D3); [intros y Y; apply below_free; lia|now apply container_xor_spec|].
    exists s1. split; auto. eapply den_ext; [exact D3|]. intros v _. apply below_step. intros y Y. cbv beta. now rewrite M1, M2.
  - apply (den_create0 (fun v => xorb (P1 v) (P2 v))).
Qed.
(** ** Differences *)
Lemma andnot_loop64_spec r1 r2 P1 P2 : let O := fun v => P1 v && negb (P2 v) in
  forall fuel it1 it2 lo n1 n2 s, cur (rt r1) r1 P1 it1 lo n1 -> cur (rt r2) r2 P2 it2 lo n2 -> den s (below O lo) -> (n1 + 2 * n2 < fuel)%nat ->
  exists s1, andnot_loop64 fuel r1 r2 it1 it2 s = Some s1 /\ den s1 O.
Proof.
  intros O. induction fuel as [|f IH]; intros it1 it2 lo n1 n2 s C1 C2 D F; [lia|]. cbn [andnot_loop64]. cbv zeta. pose proof (cur_bound _ _ _ _ _ _ C1) as LB.
  assert (GP : forall lo', lo <= lo' -> (forall v, lo * 65536 <= v < lo' * 65536 -> P1 v = false) -> den s (below O lo')).
  { intros lo' L G. eapply den_ext; [exact D|]. intros v _. apply below_gap; auto. intros u U. unfold O. now rewrite G. }
  destruct (cur_case _ _ _ _ _ _ C1 (rt_root r1)) as [(E1 & -> & Z1 & W1)|(m1 & c1 & v1 & E1 & NZ1 & K1 & L1 & Z1 & EV1 & EC1 & R1 & (j1 & b1 & EN1 & N1) & W1)].
  { rewrite E1. cbn [Z.eqb]. exists s. split; auto. eapply den_ext; [apply (GP (2^48)); [lia|]|intros v V; now apply below_end]. intros v V. apply Z1; lia. }
  destruct (Z.eqb_spec (i_val it1) 0); [tauto|].
  destruct (cur_case _ _ _ _ _ _ C2 (rt_root r2)) as [(E2 & -> & Z2 & W2)|(m2 & c2 & v2 & E2 & NZ2 & K2 & L2 & Z2 & EV2 & EC2 & R2 & (j2 & b2 & EN2 & N2) & W2)].
  - rewrite E2. cbn [Z.eqb negb orb andb].
    destruct (copy_step r1 P1 it1 s O _ c1 v1 (GP (kv (i_key it1)) ltac:(lia) ltac:(intros v V; apply Z1; lia)) K1 EV1 EC1 R1 eq_refl) as (s1 & -> & D1); [intros v V; unfold O; rewrite Z2 by lia; now rewrite andb_true_r|]. cbn [obind]. rewrite EN1. cbn [obind].
    apply (IH j1 it2 (kv (i_key it1) + 1) m1 0%nat); auto; [apply W2; lia|lia].
  - destruct (Z.eqb_spec (i_val it2) 0); [tauto|]. cbn [negb orb andb]. destruct (cmp_two _ _ K1 K2) as (-> & ->). destruct (Z.eqb_spec (kv (i_key it1)) (kv (i_key it2))) as [E|NE].
    + rewrite EV1. cbn [obind]. rewrite EC1. cbn [obind]. rewrite EV2. cbn [obind]. rewrite EC2. cbn [obind]. rewrite <- E in R2, N2, L2, Z2. destruct R1 as (O1 & M1), R2 as (O2 & M2).
      destruct (den_emit s _ (kv (i_key it1)) (i_key it1) (container_andnot c1 c2) (fun x => cmem c1 x && negb (cmem c2 x)) (GP (kv (i_key it1)) ltac:(lia) Z1) K1 eq_refl) as (s1 & -> & D3); [intros y Y; apply below_free; lia|now apply container_andnot_spec|]. cbn [obind].
      rewrite EN1. cbn [obind]. rewrite EN2. cbn [obind]. apply (IH j1 j2 (kv (i_key it1) + 1) m1 m2); auto; [|lia].
      eapply den_ext; [exact D3|]. intros v _. apply below_step. intros y Y. cbv beta. now rewrite M1, M2.
    + destruct (Z.ltb_spec (kv (i_key it1)) (kv (i_key it2))).
      * destruct (copy_step r1 P1 it1 s O _ c1 v1 (GP (kv (i_key it1)) ltac:(lia) ltac:(intros v V; apply Z1; lia)) K1 EV1 EC1 R1 eq_refl) as (s1 & -> & D1); [intros v V; unfold O; rewrite Z2 by lia; now rewrite andb_true_r|]. cbn [obind]. rewrite EN1. cbn [obind].
        apply (IH j1 it2 (kv (i_key it1) + 1) m1 n2); auto; [apply W2; lia|lia].
      * rewrite EN2. cbn [obind]. apply (IH it1 j2 (kv (i_key it2) + 1) n1 m2); auto; [apply W1; lia|apply GP; [lia|intros v V; apply Z1; lia]|lia].
Qed.
Lemma roaring64_bitmap_andnot_spec r1 r2 P1 P2 : den r1 P1 -> den r2 P2 -> exists r, roaring64_bitmap_andnot r1 r2 = Some r /\ den r (fun v => P1 v && negb (P2 v)).
Proof.
  intros D1 D2. unfold roaring64_bitmap_andnot. apply (both_start r1 r2 P1 P2 _ (fun r => den r (fun v => P1 v && negb (P2 v))) D1 D2). intros fuel it1 it2 n1 n2 C1 C2 F.
  apply (andnot_loop64_spec r1 r2 P1 P2 fuel it1 it2 0 n1 n2); auto. apply den_create0.
Qed.
