(** Derived64Z: shrink_to_fit and the frozen format of 64-bit bitmaps in terms of sets. *)
From Coq Require Import ZArith List Bool Lia.
From Verif Require Import Base ArrayUtil BitUtil BitsetC ArrayC RunC RunD Convert Containers RArray.
From Verif Require Import Bytes Serial SerialP.
From Verif Require Import Art ArtS ArtN ArtW ArtT ArtU ArtI ArtR ArtL ArtH ArtZ R64 R64P R64S R64V R64H R64Z Hist64 R64ZV.
From Verif Require Import Spec SpecI Spec64 Spec64Z Derived64.
Import ListNotations.
Local Open Scope Z_scope.
Local Opaque zr n48_pairs n256_pairs.

Lemma z_shrink r P : denotes64 r P -> exists r1 n, roaring64_bitmap_shrink_to_fit r = Some (r1, n) /\ denotes64 r1 P /\ is_shrunken r1 = true /\
  n = fold_left (fun s t => s + (capacity (r_art r) t - capacity (r_art r1) t) * node_size t) [1; 2; 3; 4; 5] 0 + (zlen (r_cont r) - zlen (r_cont r1)) * 8.
Proof. intros H. apply den64_iff in H. destruct (shrink_to_fit_ok r P H) as (r1 & n & E & D & S & F). exists r1, n. split; [exact E|]. split; [now apply den64_iff|]. now split. Qed.
Lemma z_shrunk r P : denotes64 r P -> is_shrunken r = true -> memory64 r < 2^52 -> exists xs, shrunk r xs /\ forall v, v64 v -> mem (map ekc xs) v = P v.
Proof. intros H S M. apply den64_iff in H. destruct H as (xs & H & F & E). exists xs. split; [now constructor|exact E]. Qed.
Lemma z_view g flags r xs post mb P : shrunk r xs -> (forall v, v64 v -> mem (map ekc xs) v = P v) -> zlen (image64z g flags r xs) <= mb ->
  exists v, roaring64_bitmap_frozen_view true (image64z g flags r xs ++ post) mb = Ok v /\ readable v P /\ r_ff v = 0 /\ r_cont v = r_cont r.
Proof.
  intros S E M. destruct (frozen_view_ok g flags r xs post mb S M) as (b & V & A). eexists. split; [exact V|]. split; [|split; reflexivity]. unfold readable. cbn [r_art r_cont]. apply den64_iff. exists xs. destruct S as [H F SK _]. split; [|split; auto].
  unfold is_shrunken in SK. apply andb_prop in SK as (_ & SK). apply Z.eqb_eq in SK. split; cbn [r_art r_cont r_ff]; [exact A|]. rewrite <- SK. exact (proj2 H).
Qed.
(** the frozen bytes of a bitmap [r] with the set [P]: the size reported, the bytes written into
    any buffer of that size, and what a view of them contains *)
Definition frozen_ok (r : r64) (P : zset) : Prop := forall g flags, exists img, roaring64_bitmap_frozen_size_in_bytes r = Some (zlen img) /\ 0 < zlen img /\ zlen img mod 64 = 0 /\
  (forall buf, zlen img <= zlen buf -> roaring64_bitmap_frozen_serialize g flags r buf = Some (img ++ skipn (length img) buf, zlen img)) /\
  forall post mb, zlen img <= mb -> exists v, roaring64_bitmap_frozen_view true (img ++ post) mb = Ok v /\ readable v P.
Lemma z_round_trip r P : denotes64 r P -> is_shrunken r = true -> memory64 r < 2^52 -> frozen_ok r P.
Proof.
  intros H S M g flags. destruct (z_shrunk r P H S M) as (xs & SK & E). destruct (parts_zlen g flags r xs SK) as (P1 & P1m & P1b & PA & P2 & P3 & P3m & P3b & P4 & P5 & P5m & P5b). destruct (shrunk_facts r xs SK) as (L & _ & _ & _ & T0 & B0 & R0 & A0 & _).
  exists (image64z g flags r xs). destruct (frozen_serialize_ok g flags r xs (image64z g flags r xs) SK ltac:(lia)) as (Z & _). split; [exact Z|]. split; [pose proof (zlen_nonneg xs); lia|]. split; [exact P5m|]. split.
  - intros buf B. now destruct (frozen_serialize_ok g flags r xs buf SK B) as (_ & _ & W).
  - intros post mb B. destruct (z_view g flags r xs post mb P SK E B) as (v & V & D & _). eauto.
Qed.
Lemma z_shrink_freeze r P : denotes64 r P -> exists r1 n, roaring64_bitmap_shrink_to_fit r = Some (r1, n) /\ denotes64 r1 P /\ (memory64 r1 < 2^52 -> frozen_ok r1 P).
Proof. intros H. destruct (z_shrink r P H) as (r1 & n & E & D & S & _). exists r1, n. split; [exact E|]. split; [exact D|]. now apply z_round_trip. Qed.
(** a bitmap with slack is refused with 0 and nothing is written *)
Lemma z_slack g flags r buf : is_shrunken r = false -> roaring64_bitmap_frozen_size_in_bytes r = Some 0 /\ roaring64_bitmap_frozen_serialize g flags r buf = Some (buf, 0).
Proof. intros S. unfold roaring64_bitmap_frozen_size_in_bytes, roaring64_bitmap_frozen_serialize. rewrite S. split; reflexivity. Qed.
Lemma z_freeze_or_refuse r P : denotes64 r P -> memory64 r < 2^52 -> frozen_ok r P \/
  (forall g flags, roaring64_bitmap_frozen_size_in_bytes r = Some 0 /\ forall buf, roaring64_bitmap_frozen_serialize g flags r buf = Some (buf, 0)).
Proof.
  intros H M. destruct (is_shrunken r) eqn:S; [left; now apply z_round_trip|right]. intros g flags. split; [apply (z_slack g flags r [] S)|]. intros buf. now apply z_slack.
Qed.
Lemma z_iterators v P l cs : readable v P -> lists64 P l ->
  (ilegal64 l 0 false cs -> exists j, roaring64_iterator_create v = Some j /\ shown j = seen64 l 0 /\ iter_run64 v j cs = Some (cursor_run64 l 0 cs)) /\
  (ilegal64 l (len_of l - 1) false cs -> exists j, roaring64_iterator_create_last v = Some j /\ shown j = seen64 l (len_of l - 1) /\ iter_run64 v j cs = Some (cursor_run64 l (len_of l - 1) cs)).
Proof.
  intros H L. destruct (readable_reff v P H) as (r0 & D & E). rewrite E. apply den64_iff in D. split; intros K.
  - destruct (iter64_first r0 P l cs D L K) as (j & A & B & C). exists j. rewrite create_reff, iter_run_reff. auto.
  - destruct (iter64_last r0 P l cs D L K) as (j & A & B & C). exists j. rewrite create_last_reff, iter_run_reff. auto.
Qed.
Lemma z_others v P : readable v P -> exists r0, denotes64 r0 P /\ roaring64_bitmap_portable_size_in_bytes v = roaring64_bitmap_portable_size_in_bytes r0 /\
  (forall buf, roaring64_bitmap_portable_serialize v buf = roaring64_bitmap_portable_serialize r0 buf) /\
  roaring64_bitmap_internal_validate v = roaring64_bitmap_internal_validate r0 /\ roaring64_bitmap_statistics v = roaring64_bitmap_statistics r0.
Proof. intros H. destruct (readable_reff v P H) as (r0 & D & E). exists r0. rewrite E. split; [exact D|]. split; [reflexivity|]. split; [reflexivity|]. split; reflexivity. Qed.

(** ** Truncation *)
Lemma rd_cut n buf off k : 0 <= off -> 0 <= k -> off + k <= n -> rd (firstn (Z.to_nat n) buf) off k = rd buf off k.
Proof.
  intros A B C. unfold rd. assert (Z : zlen (firstn (Z.to_nat n) buf) = Z.min n (zlen buf)) by (unfold zlen; rewrite firstn_length; lia). rewrite Z.
  replace (off + k <=? Z.min n (zlen buf)) with (off + k <=? zlen buf) by lia. destruct ((0 <=? off) && (0 <=? k) && (off + k <=? zlen buf)) eqn:E; auto. f_equal. rewrite skipn_firstn_comm, firstn_firstn. f_equal. lia.
Qed.
Lemma z_truncated g flags r P buf m n : denotes64 r P -> is_shrunken r = true -> memory64 r < 2^52 -> roaring64_bitmap_frozen_size_in_bytes r = Some n -> n <= zlen buf ->
  roaring64_bitmap_frozen_serialize g flags r buf = Some (m, n) -> forall k, 0 <= k < 41 + 2 * zlen (r_cont r) -> roaring64_bitmap_frozen_view true (firstn (Z.to_nat k) m) k = Fail.
Proof.
  intros H S M EN LB ES k K. destruct (z_shrunk r P H S M) as (xs & SK & E). destruct (parts_zlen g flags r xs SK) as (P1 & P1m & P1b & PA & P2 & P3 & P3m & P3b & P4 & P5 & P5m & P5b). destruct (shrunk_facts r xs SK) as (L & _ & _ & _ & T0 & B0 & R0 & A0 & MM & _).
  destruct (frozen_serialize_ok g flags r xs (image64z g flags r xs) SK ltac:(lia)) as (Z & _). rewrite Z in EN. injection EN as EN. rewrite <- EN in LB.
  destruct (frozen_serialize_ok g flags r xs buf SK LB) as (_ & _ & W). assert (EM : image64z g flags r xs ++ skipn (length (image64z g flags r xs)) buf = m) by (rewrite W in ES; apply (f_equal (fun o => match o with Some p => fst p | None => [] end)) in ES; exact ES). pose proof (zlen_nonneg xs) as NX.
  assert (BH : exists u, m = header flags r xs ++ u). { rewrite <- EM. unfold image64z, part4, part3, part2, part1. rewrite <- !app_assoc. eexists. reflexivity. }
  assert (LM : 41 + 2 * zlen (r_cont r) <= zlen m). { rewrite <- EM, zlen_app. pose proof (zlen_nonneg (skipn (length (image64z g flags r xs)) buf)). lia. }
  assert (RC : rdv 8 m 1 = Some (zlen (r_cont r))).
  { destruct BH as (u & ->). unfold header. rewrite <- !app_assoc. apply (rdv_le 8 [flags]); [reflexivity|]. change (256 ^ Z.of_nat 8) with (2^64). lia. }
  set (cap := zlen (r_cont r)) in *. set (f := firstn (Z.to_nat k) m).
  assert (LF : zlen f = k) by (unfold f, zlen in *; rewrite firstn_length; lia).
  unfold roaring64_bitmap_frozen_view. cbn [negb]. destruct (Z.ltb_spec k 1); [reflexivity|]. cbv zeta. destruct (Z.ltb_spec (k - 1) 8); [reflexivity|].
  assert (RF : rdv 8 f 1 = Some cap). { unfold rdv, f. rewrite rd_cut by lia. exact RC. } rewrite RF.
  assert (U1 : ArtZ.u64 (cap * 2) = 2 * cap). { unfold ArtZ.u64. rewrite Z.mod_small by lia. lia. } rewrite U1.
  destruct (Z.ltb_spec (k - 1 - 8) (2 * cap)); [reflexivity|]. destruct (Z.ltb_spec (k - 1 - 8 - 2 * cap) (8 * 3)); [reflexivity|].
  destruct (rdv_some 8 f (9 + 2 * cap)) as (tb & ->); [lia|lia|]. destruct (rdv_some 8 f (9 + 2 * cap + 8)) as (tr & ->); [lia|lia|]. destruct (rdv_some 8 f (9 + 2 * cap + 16)) as (ta & ->); [lia|lia|].
  unfold art_frozen_view. replace (k - 1 - 8 - 2 * cap - 24 <? 8) with true by lia. reflexivity.
Qed.
Definition small : r64 := match roaring64_bitmap_shrink_to_fit sample64 with Some (r, _) => r | None => sample64 end.
Lemma small_den : denotes64 small (zlist vs64).
Proof. destruct (z_shrink sample64 _ sample64_den) as (r1 & n & E & D & _). unfold small. rewrite E. exact D. Qed.
Definition small_image : list Z * Z := match roaring64_bitmap_frozen_serialize (fun _ _ _ => 85) 0 small (repeat 170 (Z.to_nat 512)) with Some p => p | None => ([], 0) end.
Lemma some_eq {A} (o : option A) d : o <> None -> o = Some (match o with Some p => p | None => d end).
Proof. destruct o; congruence. Qed.
Lemma z_truncated_refuted : exists g flags r P buf m n k1 k2 k3, denotes64 r P /\ roaring64_bitmap_frozen_size_in_bytes r = Some n /\ n <= zlen buf /\ roaring64_bitmap_frozen_serialize g flags r buf = Some (m, n) /\
  0 <= k1 < k2 /\ k2 < k3 < n /\ roaring64_bitmap_frozen_view true (firstn (Z.to_nat k1) m) k1 = UB /\ roaring64_bitmap_frozen_view true (firstn (Z.to_nat k2) m) k2 = UB /\ roaring64_bitmap_frozen_view true (firstn (Z.to_nat k3) m) k3 = UB.
Proof.
  exists (fun _ _ _ => 85), 0, small, (zlist vs64), (repeat 170 (Z.to_nat 512)).
  exists (fst small_image), 448, 100, 390, 396. split; [exact small_den|]. split; [vm_compute; reflexivity|]. split; [unfold zlen; rewrite repeat_length; lia|]. split.
  { rewrite (some_eq (roaring64_bitmap_frozen_serialize _ _ _ _) ([], 0)) by (vm_compute; discriminate). f_equal. }
  split; [lia|]. split; [lia|]. split; [|split]; vm_compute; reflexivity.
Qed.
(** ** A view frozen again *)
Lemma z_again g flags v P : readable v P -> r_ff v = 0 -> (exists x, val64 x /\ P x = true) -> roaring64_bitmap_frozen_size_in_bytes v = Some 0 /\ forall buf, roaring64_bitmap_frozen_serialize g flags v buf = Some (buf, 0).
Proof.
  intros H F (x & V & T). assert (S : is_shrunken v = false).
  { unfold is_shrunken. rewrite F. destruct (Z.eqb_spec 0 (zlen (r_cont v))) as [E|]; [|apply andb_false_r]. exfalso. unfold readable in H. apply den64_iff in H. destruct H as (xs & (A & PL) & _ & M).
    cbn [r_cont r_ff] in PL. apply pool_len in PL. rewrite map_length in PL. unfold zlen in E. destruct xs; [|cbn [length] in PL; lia]. specialize (M x V). cbn in M. congruence. }
  split; [apply (z_slack g flags v [] S)|]. intros buf. now apply z_slack.
Qed.
Lemma z_again_refuted g flags r P buf m n : denotes64 r P -> is_shrunken r = true -> memory64 r < 2^52 -> (exists x, val64 x /\ P x = true) ->
  roaring64_bitmap_frozen_size_in_bytes r = Some n -> n <= zlen buf -> roaring64_bitmap_frozen_serialize g flags r buf = Some (m, n) ->
  exists v, roaring64_bitmap_frozen_view true m (zlen m) = Ok v /\ readable v P /\ roaring64_bitmap_frozen_size_in_bytes v = Some 0 /\ forall buf, roaring64_bitmap_frozen_serialize g flags v buf = Some (buf, 0).
Proof.
  intros H S M NE EN LB ES. destruct (z_shrunk r P H S M) as (xs & SK & E). destruct (frozen_serialize_ok g flags r xs (image64z g flags r xs) SK ltac:(lia)) as (Z & _). rewrite Z in EN. injection EN as EN. rewrite <- EN in LB.
  destruct (frozen_serialize_ok g flags r xs buf SK LB) as (_ & _ & W). assert (EM : image64z g flags r xs ++ skipn (length (image64z g flags r xs)) buf = m) by (rewrite W in ES; apply (f_equal (fun o => match o with Some p => fst p | None => [] end)) in ES; exact ES).
  destruct (z_view g flags r xs (skipn (length (image64z g flags r xs)) buf) (zlen m) P SK E) as (v & V & D & F & _). { rewrite <- EM, zlen_app. pose proof (zlen_nonneg (skipn (length (image64z g flags r xs)) buf)). lia. }
  rewrite EM in V. exists v. split; [exact V|]. split; [exact D|]. now apply (z_again g flags v P).
Qed.
