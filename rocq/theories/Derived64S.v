(** Derived64S: serialization, self-check and statistics of 64-bit bitmaps in the vocabulary of Spec64. *)
From Coq Require Import ZArith List Bool Lia Sorting.Sorted.
From Verif Require Import Base ArrayUtil BitUtil BitsetC ArrayC RunC RunD Convert Containers RArray RBinary RPoint.
From Verif Require Import Bytes Serial SerialP.
From Verif Require Import Obs.
From Verif Require Import Art ArtT ArtI ArtR R64 R64P R64Q R64C R64S R64V.
From Verif Require Import Spec Spec64 Hist64 Derived64 FormatSpec FormatSpec64.
From Verif Require RQuery DerivedS FormatP.
Import ListNotations.
Local Open Scope Z_scope.
Local Opaque zr n48_pairs n256_pairs.
Notation len l := (Z.of_nat (length l)).

(** ** Groups and members *)
Lemma look_lift b h k : (forall x, In x (rkeys b) -> 0 <= x < 65536) -> look (map (lift h) b) k = if k / 65536 =? h then look b (k mod 65536) else None.
Proof.
  induction b as [|[k' c] b IH]; intros K; cbn [map look lift fst snd]. { now destruct (k / 65536 =? h). }
  rewrite IH by (intros x Hx; apply K; now right). pose proof (K k' (or_introl eq_refl)) as K0. pose proof (Z.div_mod k 65536 ltac:(lia)) as DM. pose proof (Z.mod_pos_bound k 65536 ltac:(lia)) as MB.
  destruct (Z.eqb_spec k (h * 65536 + k')) as [E|N].
  - assert (k / 65536 = h) as D by (rewrite E, Z.div_add_l by lia; rewrite Z.div_small; lia). rewrite (proj2 (Z.eqb_eq _ _) D). rewrite (proj2 (Z.eqb_eq (k mod 65536) k')) by lia. reflexivity.
  - destruct (Z.eqb_spec (k / 65536) h) as [D|D]; auto. rewrite (proj2 (Z.eqb_neq (k mod 65536) k')) by lia. reflexivity.
Qed.
Lemma look_ungroup gs k : Forall part_of32 gs -> incr (map fst gs) ->
  look (ungroup gs) k = match find (fun g => k / 65536 =? fst g) gs with Some g => look (snd g) (k mod 65536) | None => None end.
Proof.
  induction 1 as [|[h b] t (HH & B) T IH]; intros S; auto. cbn [map fst] in S. destruct S as [S1 S2]. change (ungroup ((h, b) :: t)) with (map (lift h) b ++ ungroup t). rewrite look_app, look_lift.
  - cbn [find fst]. destruct (Z.eqb_spec (k / 65536) h) as [E|N]; [|now apply IH]. cbn [snd]. destruct (look b (k mod 65536)) eqn:L; auto. rewrite IH by auto.
    destruct (find _ t) as [g|] eqn:F; auto. apply List.find_some in F as (I & E2). apply Z.eqb_eq in E2. rewrite Forall_forall in S1. apply (in_map fst) in I. apply S1 in I. lia.
  - intros x Hx. destruct B as (_ & B & _). eapply inb_In; eauto.
Qed.
Lemma km_ungroup gs k y : Forall part_of32 gs -> incr (map fst gs) ->
  km (ungroup gs) k y = match find (fun g => k / 65536 =? fst g) gs with Some g => km (snd g) (k mod 65536) y | None => false end.
Proof. intros F S. unfold km. rewrite look_ungroup by auto. now destruct (find _ gs). Qed.
Lemma find_group (gs : list (Z * bitmap)) h b : incr (map fst gs) -> In (h, b) gs -> find (fun g => h =? fst g) gs = Some (h, b).
Proof.
  induction gs as [|[h0 b0] t IH]; cbn [map fst find]; intros S I; [destruct I|]. destruct S as [S1 S2]. rewrite Forall_forall in S1. destruct I as [E|I].
  - injection E as -> ->. now rewrite Z.eqb_refl.
  - destruct (Z.eqb_spec h h0) as [->|]; [|now apply IH]. apply (in_map fst) in I. apply S1 in I. cbn in I. lia.
Qed.
Lemma key_split h v : 0 <= h < 2^32 -> val32 v -> (h * 2^32 + v) / 65536 / 65536 = h /\ (h * 2^32 + v) / 65536 mod 65536 = v / 65536 /\ (h * 2^32 + v) mod 65536 = v mod 65536 /\ val64 (h * 2^32 + v).
Proof.
  unfold val32, val64. intros H V. replace (h * 2^32 + v) with (h * 65536 * 65536 + v) by lia.
  assert (D : (h * 65536 * 65536 + v) / 65536 = h * 65536 + v / 65536) by (rewrite Z.div_add_l; lia). rewrite D.
  assert (0 <= v / 65536 < 65536) by (split; [apply Z.div_pos; lia|apply Z.div_lt_upper_bound; lia]).
  split; [rewrite Z.div_add_l by lia; rewrite (Z.div_small (v / 65536)); lia|]. split; [rewrite Z.add_comm, Z.mod_add by lia; apply Z.mod_small; lia|]. split; [rewrite Z.add_comm, Z.mod_add by lia; reflexivity|]. lia.
Qed.
Lemma split64 v : val64 v -> 0 <= v / 2^32 < 2^32 /\ val32 (v mod 2^32) /\ v = v / 2^32 * 2^32 + v mod 2^32.
Proof.
  unfold val64, val32. intros V. split; [split; [apply Z.div_pos; lia|apply Z.div_lt_upper_bound; lia]|]. split; [apply Z.mod_pos_bound; lia|]. pose proof (Z.div_mod v (2^32) ltac:(lia)). lia.
Qed.
(** membership in a grouped bitmap, half by half *)
Lemma mem_group gs h v : Forall part_of32 gs -> incr (map fst gs) -> 0 <= h < 2^32 -> val32 v ->
  mem (ungroup gs) (h * 2^32 + v) = match find (fun g => h =? fst g) gs with Some g => mem (snd g) v | None => false end.
Proof.
  intros F S H V. unfold mem. rewrite km_ungroup by auto. destruct (key_split h v H V) as (-> & -> & -> & _). reflexivity.
Qed.
Lemma bok_nonempty b : bok b -> b <> [] -> exists v, val32 v /\ mem b v = true.
Proof.
  intros (S & I & C) N. destruct b as [|[k c] t]; [congruence|]. inversion C as [|? ? C1 _]; subst. cbn [snd] in C1. destruct (cok_cne c C1) as (x & Hx & M).
  assert (K : 0 <= k < 65536) by (apply (inb_In 0 65536 _ k I); now left).
  exists (k * 65536 + x). split; [unfold val32; lia|]. unfold mem, km. rewrite Z.div_add_l, (Z.div_small x), Z.add_0_r by lia. rewrite Z.add_comm, Z.mod_add, Z.mod_small by lia. cbn [look]. now rewrite Z.eqb_refl.
Qed.

Definition group_set (es : bitmap) (P : zset) : Prop := g48 0 es /\ forall v, val64 v -> mem es v = P v.
Lemma group_half es P h b : group_set es P -> In (h, b) (groups kf0 es) -> denotes b (half P h) /\ inhabited_half P h.
Proof.
  intros (G & M) I. destruct (groups_ok es G) as (A & S). pose proof (group_part _ A) as A2. rewrite Forall_forall in A. destruct (A _ I) as (HH & B & N). cbn [fst snd] in *.
  assert (X : forall v, val32 v -> mem b v = half P h v).
  { intros v V. unfold half. destruct (key_split h v HH V) as (_ & _ & _ & V64). rewrite <- M by auto. rewrite <- (ungroup_groups es) at 1. rewrite mem_group by auto. now rewrite (find_group _ h b S I). }
  split; [apply den_iff; split; auto|]. destruct (bok_nonempty b B N) as (v & V & E). exists v. split; auto. rewrite <- X; auto.
Qed.
Lemma group_heads es P h : group_set es P -> 0 <= h < 2^32 -> (In h (map fst (groups kf0 es)) <-> inhabited_half P h).
Proof.
  intros G HH. split.
  - intros I. apply in_map_iff in I as ([h' b] & E & I). cbn in E. subst h'. eapply group_half; eauto.
  - intros (v & V & E). destruct G as (G & M). destruct (groups_ok es G) as (A & S). pose proof (group_part _ A) as A2. unfold half in E. destruct (key_split h v HH V) as (_ & _ & _ & V64). rewrite <- M in E by auto.
    rewrite <- (ungroup_groups es) in E. rewrite mem_group in E by auto. destruct (find _ (groups kf0 es)) as [g|] eqn:F; [|discriminate]. apply List.find_some in F as (I & E2). apply Z.eqb_eq in E2. subst h. now apply in_map.
Qed.
Lemma heads_range es P h : group_set es P -> In h (map fst (groups kf0 es)) -> 0 <= h < 2^32.
Proof. intros (G & _) I. destruct (groups_ok es G) as (A & _). rewrite Forall_forall in A. apply in_map_iff in I as (g & <- & I). now apply A. Qed.
(** a strictly increasing list missing one value of its range is shorter than the range *)
Lemma incr_missing l n h : incr l -> inb 0 n l -> 0 <= h < n -> ~ In h l -> zlen l < n.
Proof.
  intros S B H N. set (f := fun x => if x <? h then x else x - 1).
  assert (S2 : incr (map f l)).
  { assert (X : forall m, incr m -> ~ In h m -> incr (map f m)).
    { induction m as [|a m IH]; cbn [map]; auto. intros [A1 A2] NI. split; [|apply IH; auto; intros Q; apply NI; now right]. rewrite Forall_forall in *. intros y Y. apply in_map_iff in Y as (x & <- & Y). pose proof (A1 _ Y).
      assert (a <> h) by (intros ->; apply NI; now left). assert (x <> h) by (intros ->; apply NI; now right). unfold f. destruct (Z.ltb_spec a h), (Z.ltb_spec x h); lia. }
    now apply X. }
  assert (B2 : inb 0 (n - 1) (map f l)).
  { unfold inb in *. rewrite Forall_map. rewrite Forall_forall in *. intros x Hx. pose proof (B x Hx). assert (x <> h) by congruence. unfold f. destruct (Z.ltb_spec x h); lia. }
  pose proof (incr_inb_len 0 (n - 1) _ S2 B2 ltac:(lia)) as L. rewrite zlen_map in L. lia.
Qed.
Lemma groups_short es P : group_set es P -> (exists h, 0 <= h < 2^32 /\ ~ inhabited_half P h) -> zlen (groups kf0 es) < 2^32.
Proof.
  intros G (h & HH & N). rewrite <- (zlen_map fst). apply (incr_missing _ _ h); auto.
  - apply (groups_ok es (proj1 G)).
  - apply inb_intro. intros x Hx. eapply heads_range; eauto.
  - rewrite (group_heads es P h G HH). exact N.
Qed.
Lemma covers_len l n : 0 <= n -> (forall h, 0 <= h < n -> In h l) -> n <= zlen l.
Proof.
  intros N H. assert (I : incl (zr 0 n) l) by (intros h Hh; apply zr_In in Hh; auto).
  pose proof (NoDup_incl_length (incr_NoDup _ (zr_incr 0 n)) I) as X. pose proof (zr_zlen 0 n N) as Y. unfold zlen in *. lia.
Qed.
Lemma groups_all es P : group_set es P -> (forall h, 0 <= h < 2^32 -> inhabited_half P h) -> zlen (groups kf0 es) = 2^32.
Proof.
  intros G H. pose proof (groups_len es (proj1 G)) as L. rewrite <- (zlen_map fst) in *. set (l := map fst (groups kf0 es)) in *.
  apply Z.le_antisymm; [exact L|]. apply covers_len; [lia|]. intros h Hh. apply (group_heads es P h G Hh). now apply H.
Qed.
Lemma den_group r P : denotes64 r P -> exists xs, R r xs /\ Forall (fun x => cok (e_c x)) xs /\ group_set (map ekc xs) P.
Proof.
  intros D. apply den64_iff in D. destruct D as (xs & H & C & M). exists xs. split; auto. split; auto. split; [eapply R_g48; eauto|exact M].
Qed.
Lemma R_same r1 ys es P : R r1 ys -> map ekc ys = es -> group_set es P -> denotes64 r1 P.
Proof.
  intros H E (G & M). apply den64_iff. exists ys. split; auto. split; [|now rewrite E]. destruct G as (_ & _ & G). rewrite <- E in G. rewrite Forall_map in G. exact G.
Qed.

(** ** Round trip *)
Lemma safe_ok b n r s : des64 b n = Ok (r, s) -> roaring64_bitmap_portable_deserialize_safe b n = Ok r.
Proof. intros E. unfold roaring64_bitmap_portable_deserialize_safe. now rewrite E. Qed.
Lemma short_fails out n post r s : bytes out -> des64 out (zlen out) = Ok (r, s) -> s = zlen out -> n < zlen out ->
  roaring64_bitmap_portable_deserialize_safe (out ++ post) n = Fail /\ roaring64_bitmap_portable_deserialize_size (out ++ post) n = Some 0.
Proof.
  intros B E ES L. destruct (des64_any out post n B ltac:(lia)) as (E1 & E2 & _ & _). destruct (des64_any out [] (zlen out) B ltac:(lia)) as (_ & _ & _ & A). rewrite E in A. destruct A as (_ & _ & _ & A).
  destruct (A n ltac:(lia)) as (A1 & A2). rewrite E2, A2. unfold roaring64_bitmap_portable_deserialize_safe. rewrite E1, A1. rewrite (proj2 (Z.ltb_lt n s)) by lia. auto.
Qed.
Lemma h_round_trip r P : denotes64 r P -> (exists h, 0 <= h < 2^32 /\ ~ inhabited_half P h) -> exists out, bytes out /\ roaring64_bitmap_portable_size_in_bytes r = Some (len out) /\
  (forall buf, len out <= len buf -> roaring64_bitmap_portable_serialize r buf = Some (out ++ skipn (length out) buf, len out)) /\
  (forall post n, bytes post -> len out <= n -> roaring64_bitmap_portable_deserialize_size (out ++ post) n = Some (len out) /\
     exists r', roaring64_bitmap_portable_deserialize_safe (out ++ post) n = Ok r' /\ denotes64 r' P) /\
  (forall post n, n < len out -> roaring64_bitmap_portable_deserialize_size (out ++ post) n = Some 0 /\ roaring64_bitmap_portable_deserialize_safe (out ++ post) n = Fail).
Proof.
  intros D M. destruct (den_group r P D) as (xs & H & C & G). pose proof (groups_short _ P G M) as L. destruct (serialize64_bytes r xs [] H C) as (E1 & _). cbv zeta in E1.
  exists (out64 (map ekc xs)). split; [apply out64_bytes|]. split; [exact E1|]. split; [|split].
  - intros buf LB. destruct (serialize64_bytes r xs buf H C) as (_ & E2). cbv zeta in E2. now apply E2.
  - intros post n BP LN. destruct (des64_back r xs post n H C L BP LN) as (r1 & ys & E2 & H1 & EY & E3). split; [exact E3|]. exists r1. split; [exact (safe_ok _ _ _ _ E2)|]. exact (R_same r1 ys _ P H1 EY G).
  - intros post n LN. destruct (des64_back r xs [] (zlen (out64 (map ekc xs))) H C L (Forall_nil _) (Z.le_refl _)) as (r1 & ys & E2 & _). rewrite app_nil_r in E2.
    destruct (short_fails _ n post _ _ (out64_bytes _) E2 eq_refl LN) as (A & B). auto.
Qed.
(** every half inhabited: the count of 2^32 is written and then refused *)
Lemma h_round_trip_full r P : denotes64 r P -> (forall h, 0 <= h < 2^32 -> inhabited_half P h) -> exists out, bytes out /\ roaring64_bitmap_portable_size_in_bytes r = Some (len out) /\
  (forall buf, len out <= len buf -> roaring64_bitmap_portable_serialize r buf = Some (out ++ skipn (length out) buf, len out)) /\
  (forall post n, roaring64_bitmap_portable_deserialize_safe (out ++ post) n = Fail).
Proof.
  intros D M. destruct (den_group r P D) as (xs & H & C & G). pose proof (groups_all _ P G M) as L. destruct (serialize64_bytes r xs [] H C) as (E1 & _). cbv zeta in E1.
  exists (out64 (map ekc xs)). split; [apply out64_bytes|]. split; [exact E1|]. split.
  - intros buf LB. destruct (serialize64_bytes r xs buf H C) as (_ & E2). cbv zeta in E2. now apply E2.
  - intros post n. unfold roaring64_bitmap_portable_deserialize_safe. now rewrite (des64_full r xs post n H C L).
Qed.
Lemma h_round_trip_refuted : exists r P out, denotes64 r P /\ roaring64_bitmap_portable_size_in_bytes r = Some (len out) /\
  (forall buf, len out <= len buf -> roaring64_bitmap_portable_serialize r buf = Some (out ++ skipn (length out) buf, len out)) /\
  forall post n, roaring64_bitmap_portable_deserialize_safe (out ++ post) n = Fail.
Proof.
  destruct full_bitmap as (r & _ & D). destruct (h_round_trip_full r zfull64 D) as (out & _ & A & B & C).
  - intros h HH. exists 0. split; [unfold val32; lia|]. unfold half, zfull64. lia.
  - exists r, zfull64, out. auto.
Qed.

(** ** The published format *)
Lemma le_le64 v : 0 <= v -> le 8 v = le64 v.
Proof.
  intros V. unfold le64, le32. assert (E : le 8 v = [v mod 256; v / 256 mod 256; v / 65536 mod 256; v / 16777216 mod 256; v / 2^32 mod 256; v / 2^32 / 256 mod 256; v / 2^32 / 65536 mod 256; v / 2^32 / 16777216 mod 256]).
  { cbn [le]. rewrite !Z.div_div by lia. reflexivity. }
  rewrite E. assert (M : forall a b, 0 < a -> 0 < b -> a * 256 * b = 2^32 -> (v mod 2^32) / a mod 256 = v / a mod 256).
  { intros a b A B Q. rewrite <- Q. replace (a * 256 * b) with (a * (256 * b)) by lia. rewrite Z.rem_mul_r by lia. rewrite Z.mul_comm, Z.div_add by lia. rewrite (Z.div_small (v mod a)) by (apply Z.mod_pos_bound; lia). rewrite Z.add_0_l.
    rewrite Z.rem_mul_r by lia. rewrite Z.mul_comm, Z.mod_add by lia. apply Z.mod_mod. lia. }
  cbn [app]. rewrite (M 256 65536), (M 65536 256), (M 16777216 1) by lia. pose proof (M 1 16777216 ltac:(lia) ltac:(lia) eq_refl) as M1. rewrite !Z.div_1_r in M1. rewrite M1. reflexivity.
Qed.
Lemma gbytes_app_eq gs : gbytes gs = flat_map (fun b => le32 (fst b) ++ snd b) (map (fun g => (fst g, pbytes (snd g))) gs).
Proof. unfold gbytes. induction gs as [|[h b] t IH]; auto. cbn [flat_map map fst snd]. rewrite IH, FormatP.le_le32. reflexivity. Qed.
Lemma gbytes_le gs g : In g gs -> zlen (pbytes (snd g)) <= zlen (gbytes gs).
Proof.
  induction gs as [|g0 t IH]; [intros []|]. unfold gbytes. cbn [flat_map]. fold (gbytes t). rewrite !zlen_app. pose proof (zlen_nonneg (le 4 (fst g0))). pose proof (zlen_nonneg (pbytes (snd g0))). pose proof (zlen_nonneg (gbytes t)).
  intros [->|I]; [lia|]. specialize (IH I). lia.
Qed.
Lemma h_format r P buf m n : denotes64 r P -> roaring64_bitmap_portable_serialize r buf = Some (m, n) -> n <= len buf -> n < 2^32 -> roaring64_bitmap_portable_size_in_bytes r = Some n -> compact_format64 P (firstn (Z.to_nat n) m).
Proof.
  intros D E LB LN SZ. destruct (den_group r P D) as (xs & H & C & G). destruct (serialize64_bytes r xs buf H C) as (E1 & E2). cbv zeta in E1, E2. rewrite E1 in SZ. injection SZ as SZ. rewrite E2 in E by (rewrite SZ; exact LB). assert (X : forall (a b : list Z) (c d : Z), Some (a, c) = Some (b, d) -> b = a) by congruence. apply X in E. subst m. clear X. rewrite <- SZ in *. clear E1 E2.
  rewrite (firstn_app_l (Z.to_nat (zlen (out64 (map ekc xs))))) by (unfold zlen; lia). set (gs := groups kf0 (map ekc xs)) in *. destruct (groups_ok _ (proj1 G)) as (GO & GI). fold gs in GO, GI.
  exists (map (fun g => (fst g, pbytes (snd g))) gs). unfold buckets_ok, bucket_bytes. rewrite map_map. cbn [fst]. split; [split; [now apply incr_SS|split]|split].
  - rewrite Forall_map. rewrite Forall_forall. intros [h b] I. cbn [fst snd]. destruct (group_half _ P h b G I) as (Db & _). rewrite Forall_forall in GO. split; [exact (proj1 (GO _ I))|].
    apply FormatP.format_conforms; auto. pose proof (den_bok _ _ Db) as B. pose proof (RQuery.bok_typed b B) as [_ TD]. pose proof (gok_size cok 0 b B ltac:(lia)) as SB. rewrite <- (pbytes_zlen b TD ltac:(lia)).
    apply gbytes_le in I. cbn [snd] in I. unfold out64 in LN. fold gs in LN. rewrite zlen_app in LN. pose proof (zlen_nonneg (le 8 (zlen gs))). lia.
  - intros v V Pv. destruct (split64 v V) as (HH & V32 & EV). apply (group_heads _ P _ G HH). exists (v mod 2^32). split; auto. unfold half. now rewrite <- EV.
  - unfold out64. fold gs. rewrite <- gbytes_app_eq, le_le64 by apply zlen_nonneg. unfold zlength, zlen. now rewrite map_length.
  - rewrite Forall_map. rewrite Forall_forall. intros [h b] I. cbn [fst]. exact (proj2 (group_half _ P h b G I)).
Qed.
Lemma parts_read P bs : Forall (fun b => 0 <= fst b < 2^32 /\ portable_format (half P (fst b)) (snd b)) bs -> Forall (fun b => zlen (snd b) < 2^32) bs ->
  exists gs, Forall part_of32 gs /\ map (fun g => (fst g, pbytes (snd g))) gs = bs /\ Forall (fun g => denotes (snd g) (half P (fst g))) gs.
Proof.
  induction bs as [|[h o] bs IH]; intros F L; [exists []; auto|]. inversion F as [|? ? (HH & FO) F2]; subst. inversion L as [|? ? L1 L2]; subst. cbn [fst snd] in *.
  destruct (FormatP.format_read _ o FO L1) as (b & D & E). destruct (IH F2 L2) as (gs & A & B & C). exists ((h, b) :: gs). split; [constructor; auto; split; auto; exact (den_bok _ _ D)|]. cbn [map fst snd]. rewrite E, B. split; auto.
Qed.
Lemma h_foreign P out post n : portable_format64 P out -> len out < 2^32 -> bytes post -> len out <= n ->
  roaring64_bitmap_portable_deserialize_size (out ++ post) n = Some (len out) /\
  exists r, roaring64_bitmap_portable_deserialize_safe (out ++ post) n = Ok r /\ denotes64 r P.
Proof.
  intros (bs & (S & F & CV) & ->) L BP LN. fold (zlen (bucket_bytes bs)) in *. unfold bucket_bytes in *. set (body := flat_map (fun b => le32 (fst b) ++ snd b) bs) in *.
  assert (LB : Forall (fun b => 4 + zlen (snd b) <= zlen body) bs /\ 4 * zlen bs <= zlen body).
  { unfold body. clear. induction bs as [|[h o] t [I1 I2]]; [split; [constructor|reflexivity]|]. cbn [flat_map fst snd]. rewrite !zlen_app, zlen_cons. change (zlen (le32 h)) with 4. pose proof (zlen_nonneg o) as Z0. pose proof (zlen_nonneg (flat_map (fun b => le32 (fst b) ++ snd b) t)) as Z1.
    split; [|lia]. constructor; [cbn [snd]; lia|]. eapply Forall_impl; [|exact I1]. intros q X. cbv beta in X. lia. }
  destruct LB as (LB1 & LB2). rewrite zlen_app in *. pose proof (zlen_nonneg (le64 (zlength bs))) as Z0. pose proof (zlen_nonneg body) as Z1.
  destruct (parts_read P bs F) as (gs & A & B & C). { eapply Forall_impl; [|exact LB1]. intros b X. cbv beta in X. lia. }
  assert (EB : body = gbytes gs) by (unfold body; now rewrite gbytes_app_eq, B).
  assert (EL : zlen bs = zlen gs) by (rewrite <- B, zlen_map; reflexivity). assert (E8 : le64 (zlength bs) = le 8 (zlen gs)) by (rewrite le_le64 by apply zlen_nonneg; f_equal; exact EL).
  assert (SI : incr (map fst gs)). { apply incr_SS. rewrite <- B, map_map in S. exact S. }
  rewrite E8, EB in *. rewrite le_zlen in *. change (Z.of_nat 8) with 8 in *. rewrite <- app_assoc. destruct (des64_groups gs post n A SI ltac:(lia) BP LN) as (r1 & ys & E1 & H1 & EY & E2).
  split; [exact E2|]. exists r1. split; [exact (safe_ok _ _ _ _ E1)|].
  assert (CK : Forall (fun p : Z * container => cok (snd p)) (ungroup gs)).
  { unfold ungroup. apply Forall_flat_map. eapply Forall_impl; [|exact A]. intros [h b] (_ & _ & _ & X). rewrite Forall_map. cbn [snd] in *. exact X. }
  apply den64_iff. exists ys. split; auto. split. { rewrite <- EY in CK. rewrite Forall_map in CK. exact CK. }
  intros v V. rewrite EY. destruct (split64 v V) as (HH & V32 & EV). rewrite EV at 1. rewrite mem_group by auto. destruct (find _ gs) as [g|] eqn:FD.
  - apply List.find_some in FD as (I & E3). apply Z.eqb_eq in E3. rewrite Forall_forall in C. rewrite (den_mem _ _ _ (C g I) V32). unfold half. rewrite <- E3, <- EV. reflexivity.
  - destruct (P v) eqn:PV; auto. exfalso. specialize (CV v V PV). rewrite <- B, map_map in CV. cbn [fst] in CV. apply in_map_iff in CV as (g & E3 & I). pose proof (List.find_none _ _ FD g I) as X. cbn in X. rewrite E3, Z.eqb_refl in X. discriminate.
Qed.

(** ** Arbitrary bytes *)
(** what a reader has built: a well-formed tree over containers whose fields are within their C types *)
Definition typed64 (r : r64) : Prop := exists xs, R r xs /\ Forall (fun x => ctyped (e_c x)) xs.
Lemma h_any a b : bytes a -> roaring64_bitmap_portable_deserialize_safe (a ++ b) (len a) = roaring64_bitmap_portable_deserialize_safe a (len a) /\
  roaring64_bitmap_portable_deserialize_safe a (len a) <> UB /\
  roaring64_bitmap_portable_deserialize_size (a ++ b) (len a) = roaring64_bitmap_portable_deserialize_size a (len a) /\
  exists s, roaring64_bitmap_portable_deserialize_size a (len a) = Some s /\ (s = 0 \/ 8 <= s <= len a) /\
    forall r, roaring64_bitmap_portable_deserialize_safe a (len a) = Ok r -> typed64 r /\ 8 <= s <= len a /\
      forall n, n <= len a -> roaring64_bitmap_portable_deserialize_safe a n = if n <? s then Fail else Ok r.
Proof.
  intros B. destruct (des64_any a b (zlen a) B ltac:(lia)) as (E1 & E2 & (s & E3 & RS) & E4). fold (zlen a). unfold roaring64_bitmap_portable_deserialize_safe at 1 2 3. rewrite E1.
  split; [reflexivity|]. split. { destruct (des64 a (zlen a)) as [| |[r1 s1]]; [destruct E4|discriminate|discriminate]. } split; [exact E2|]. exists s. split; [exact E3|]. split; [exact RS|].
  intros r E. unfold roaring64_bitmap_portable_deserialize_safe in E. destruct (des64 a (zlen a)) as [| |[r1 s1]]; try discriminate. injection E as ->. destruct E4 as (T & RR & E5 & M). rewrite E3 in E5. injection E5 as ->.
  split; [exact T|]. split; [exact RR|]. intros n N. destruct (M n N) as (X & _). unfold roaring64_bitmap_portable_deserialize_safe. rewrite X. now destruct (n <? s1).
Qed.
Lemma wf_typed r xs : R r xs -> Forall (fun x => cok (e_c x)) xs -> typed64 r.
Proof. intros H C. exists xs. split; auto. eapply Forall_impl; [|exact C]. intros x. apply cok_ctyped. Qed.
Lemma h_validate r : typed64 r -> exists b, roaring64_bitmap_internal_validate r = Some b /\ (b = true <-> exists P, denotes64 r P).
Proof.
  intros (xs & H & T). destruct (internal_validate64 r xs H T) as (b & E & I). exists b. split; auto. rewrite I. split.
  - intros C. exists (mem (map ekc xs)). apply den64_iff. exists xs. auto.
  - intros (P & D). apply den64_iff in D. destruct D as (ys & H2 & C & _). destruct (internal_validate64 r ys H2) as (b2 & E2 & I2). { eapply Forall_impl; [|exact C]. intros x. apply cok_ctyped. }
    apply I. rewrite E in E2. injection E2 as <-. now apply I2.
Qed.
Lemma h_validate_sound r P : denotes64 r P -> roaring64_bitmap_internal_validate r = Some true.
Proof.
  intros D. pose proof D as D0. apply den64_iff in D0. destruct D0 as (xs & H & C & _). destruct (h_validate r (wf_typed r xs H C)) as (b & -> & I). f_equal. apply I. eauto.
Qed.
Lemma h_validate_loaded a r : bytes a -> roaring64_bitmap_portable_deserialize_safe a (len a) = Ok r ->
  exists b, roaring64_bitmap_internal_validate r = Some b /\ (b = true <-> exists P, denotes64 r P).
Proof. intros B E. destruct (h_any a [] B) as (_ & _ & _ & s & _ & _ & X). apply h_validate. now apply (X r E). Qed.

Lemma bytes_check l : forallb (fun b => (0 <=? b) && (b <? 256)) l = true -> bytes l.
Proof. intros H. rewrite forallb_forall in H. apply Forall_forall. intros b I. apply H in I. lia. Qed.
Lemma h_size_accepted a r : bytes a -> roaring64_bitmap_portable_deserialize_safe a (len a) = Ok r ->
  exists s, roaring64_bitmap_portable_deserialize_size a (len a) = Some s /\ 8 <= s <= len a /\ roaring64_bitmap_portable_deserialize_safe a s = Ok r.
Proof.
  intros B E. destruct (h_any a [] B) as (_ & _ & _ & s & E1 & _ & X). destruct (X r E) as (_ & RS & M). exists s. split; auto. split; auto. rewrite M by lia. now rewrite (proj2 (Z.ltb_ge s s)) by lia.
Qed.

(** ** deserialize_size does not look at the order of the buckets *)
Definition out_of_order : list Z := le64 2 ++ (le32 1 ++ le32 12346 ++ le32 0) ++ (le32 0 ++ le32 12346 ++ le32 0).
Lemma h_size_refuted : exists a, bytes a /\ roaring64_bitmap_portable_deserialize_size a (len a) = Some 32 /\ roaring64_bitmap_portable_deserialize_safe a (len a) = Fail.
Proof. exists out_of_order. split; [repeat (constructor; [vm_compute; split; congruence|]); constructor|split; vm_compute; reflexivity]. Qed.

(** ** Statistics *)
(** the blocks of 65536 values that have members *)
Definition blocks_of (P : zset) (ks : list Z) : Prop := StronglySorted Z.lt ks /\ forall k, In k ks <-> exists v, val64 v /\ P v = true /\ v / 65536 = k.
Lemma km_in l k y : km l k y = true -> In k (map fst l).
Proof. unfold km. destruct (look l k) as [c|] eqn:LK; [|discriminate]. intros _. apply look_some in LK. now apply (in_map fst) in LK. Qed.
Lemma h_statistics r P : denotes64 r P -> exists s, roaring64_bitmap_statistics r = Some s /\
  roaring64_bitmap_minimum r = Some (s_min s) /\ roaring64_bitmap_maximum r = Some (s_max s) /\ card_word P (s_cardinality s) /\
  (exists ks, blocks_of P ks /\ s_containers s = len ks) /\
  s_containers s = s_array_containers s + s_run_containers s + s_bitset_containers s /\
  0 <= s_array_containers s /\ 0 <= s_run_containers s /\ 0 <= s_bitset_containers s /\
  s_array_containers s <= s_values_array s <= 4096 * s_array_containers s /\
  s_bytes_array s = 2 * s_values_array s /\ s_bytes_bitset s = 8192 * s_bitset_containers s /\
  (proper P -> s_values_array s + s_values_run s + s_values_bitset s = s_cardinality s /\
     4097 * s_bitset_containers s <= s_values_bitset s <= 65536 * s_bitset_containers s /\ s_run_containers s <= s_values_run s <= 65536 * s_run_containers s).
Proof.
  intros D. apply den64_iff in D. apply den_Lx in D as (xs & H & L). destruct (statistics64_spec r P xs H L) as (mn & mx & s & E1 & E2 & E3 & NC & S1 & S2 & S3 & S4 & S5 & S6 & S7 & S8 & S9 & S10 & S11 & S12 & S13 & S14).
  exists s. rewrite S1, S2. split; auto. split; auto. split; auto. split.
  { exists (cnt P 0 (2^64)). split; [|exact S3]. now apply has_card64_cnt. }
  split.
  { destruct L as (SI & F & M). exists (map (fun x => kv (e_key x)) xs). split; [|rewrite NC; unfold zlen; now rewrite map_length]. split; [now apply incr_SS|]. intros k. rewrite Forall_forall in F. split.
    - intros I. apply in_map_iff in I as (x & <- & I). destruct (F x I) as (K & C). apply key6_range in K. destruct (cok_cne _ C) as (y & Y & CM). exists (kv (e_key x) * 65536 + y).
      split; [unfold val64; lia|]. split; [|rewrite Z.div_add_l by lia; rewrite (Z.div_small y); lia]. rewrite <- M by auto. unfold km. rewrite (look_In (map ekc xs) (kv (e_key x)) (e_c x)); auto.
      + unfold rkeys. rewrite map_map. exact SI.
      + apply (in_map ekc) in I. exact I.
    - intros (v & V & PV & <-). unfold val64 in V. pose proof (Z.div_mod v 65536 ltac:(lia)) as DM. pose proof (Z.mod_pos_bound v 65536 ltac:(lia)) as MB.
      assert (0 <= v / 65536 < 2^48) as KB by (split; [apply Z.div_pos; lia|apply Z.div_lt_upper_bound; lia]). specialize (M (v / 65536) (v mod 65536) KB MB). replace (v / 65536 * 65536 + v mod 65536) with v in M by lia. rewrite PV in M.
      apply km_in in M. rewrite map_map in M. exact M. }
  repeat match goal with |- _ /\ _ => split end; auto; try (apply S10; fail); try lia. intros PP. assert (PC : cnt P 0 (2^64) < 2^64) by now apply proper_cnt. split; [now apply S9|]. split; [now apply S11|now apply S12].
Qed.
