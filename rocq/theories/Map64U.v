(** Map64U: readSafe on arbitrary bytes. *)
From Coq Require Import ZArith List Bool Lia Sorting.Sorted.
From Verif Require Import Base ArrayUtil BitUtil BitsetC ArrayC RunC RunD Convert Containers RArray RBinary RPoint RRange RQuery Iter Bytes Serial SerialP Spec Spec64 Obs Map64 Map64P Map64S.
From Verif Require R64S IterP.
Import ListNotations.
Local Open Scope Z_scope.
Local Opaque zr.

Definition csizes (cs : list container) : Z := fold_right (fun c n => container_size_in_bytes c + n) 0 cs.
(** what the container loop consumes is the size of what it returns *)
Lemma pair_up_len n : forall l, length l = (2 * n)%nat -> length (pair_up l) = n.
Proof.
  induction n as [|n IH]; intros l E; [destruct l; cbn in *; auto; lia|]. destruct l as [|a [|b t]]; cbn [length] in E; try lia. cbn [pair_up length]. f_equal. apply IH. lia.
Qed.
Lemma read_containers_size buf m hasrun bmo kc : bytes buf -> forall n k off rb cs rb', read_containers buf m hasrun bmo kc n k off rb = Ok (cs, rb') ->
  rb' = rb + csizes cs /\ length cs = n /\ (hasrun = false -> existsb is_run cs = false).
Proof.
  intros BB. induction n as [|n IH]; intros k off rb cs rb' E; cbn [read_containers] in E.
  - assert (cs = [] /\ rb' = rb) as (-> & ->) by (split; congruence). cbn. repeat split; lia.
  - destruct (rdv 2 buf (kc + 2 * (2 * k + 1))) as [tmp|] eqn:RT; [|discriminate]. destruct (read_isrun buf hasrun bmo k) as [isrun|] eqn:RI; [|discriminate].
    apply rdv_range in RT; auto. change (256 ^ Z.of_nat 2) with 65536 in RT.
    assert (NR : hasrun = false -> isrun = false) by (intros ->; cbn in RI; congruence).
    assert (STEP : forall c off' rbx, (hasrun = false -> is_run c = false) -> rbx = rb + container_size_in_bytes c ->
      match read_containers buf m hasrun bmo kc n (k + 1) off' rbx with Ok (cs, rb) => Ok (c :: cs, rb) | Fail => Fail | UB => UB end = Ok (cs, rb') ->
      rb' = rb + csizes cs /\ length cs = S n /\ (hasrun = false -> existsb is_run cs = false)).
    { intros c off' rbx NC EX X. destruct (read_containers buf m hasrun bmo kc n (k + 1) off' rbx) as [| |[cs1 rb1]] eqn:E1; try discriminate. assert (cs = c :: cs1 /\ rb' = rb1) as (-> & ->) by (split; congruence).
      destruct (IH _ _ _ _ _ E1) as (A & B & C). cbn [csizes fold_right length existsb]. fold (csizes cs1). split; [lia|]. split; [lia|]. intros H. rewrite NC, C by auto. reflexivity. }
    destruct ((4096 <? tmp + 1) && negb isrun) eqn:T1.
    + destruct (m <? rb + 8192); [discriminate|]. destruct (bitset_container_read (tmp + 1) buf off) as [s|] eqn:RB; [|discriminate]. revert E. apply STEP; auto.
    + destruct isrun.
      * destruct (m <? rb + 2); [discriminate|]. destruct (rdv 2 buf off) as [nr|] eqn:RN; [|discriminate]. destruct (m <? rb + 2 + nr * 4); [discriminate|]. destruct (run_container_read buf off) as [x|] eqn:RR; [|discriminate].
        revert E. apply STEP; [intros H; now specialize (NR H)|]. unfold run_container_read in RR. rewrite RN in RR. cbn [obind] in RR. destruct (rd buf (off + 2) (nr * 4)) as [l|]; [|discriminate]. cbn [option_map] in RR. assert (x = pair_up (le_vals 2 (2 * Z.to_nat nr) l)) as -> by congruence.
        apply rdv_range in RN; auto. change (256 ^ Z.of_nat 2) with 65536 in RN. cbn [container_size_in_bytes]. unfold zlen. rewrite (pair_up_len (Z.to_nat nr)) by apply le_vals_length. lia.
      * destruct (m <? rb + (tmp + 1) * 2); [discriminate|]. destruct (array_container_read (tmp + 1) buf off) as [x|] eqn:RA; [|discriminate]. revert E. apply STEP; auto.
        unfold array_container_read in RA. destruct (rd buf off ((tmp + 1) * 2)) as [l|]; [|discriminate]. cbn [option_map] in RA. assert (x = le_vals 2 (Z.to_nat (tmp + 1)) l) as -> by congruence. cbn [container_size_in_bytes]. rewrite le_vals_zlen. lia.
Qed.
Lemma read_keys_len buf kc n : forall k ks, read_keys buf kc n k = Some ks -> length ks = n.
Proof.
  induction n as [|n IH]; intros k ks E; cbn [read_keys] in E; [injection E as <-; reflexivity|]. destruct (rdv 2 buf _) as [v|]; [|discriminate]. cbn [obind] in E. destruct (read_keys buf kc n (k + 1)) as [t|] eqn:F; [|discriminate]. injection E as <-. cbn. f_equal. eauto.
Qed.
Lemma size_combine (ks : list Z) cs h : length ks = length cs -> fold_left (fun count p => count + container_size_in_bytes (snd p)) (combine ks cs) h = h + csizes cs.
Proof.
  revert cs h. induction ks as [|k ks IH]; intros [|c cs] h E; cbn in *; try lia. rewrite IH by lia. fold (csizes cs). lia.
Qed.
Lemma run_combine (ks : list Z) cs : length ks = length cs -> existsb (fun p => is_run (snd p)) (combine ks cs) = existsb is_run cs.
Proof. revert cs. induction ks as [|k ks IH]; intros [|c cs] E; cbn in *; try lia; auto. rewrite IH by lia. reflexivity. Qed.
(** unless the cookie announces runs, the number of bytes consumed is the size of the result *)
Lemma deserialize_consumed buf m r n c : bytes buf -> rdv 4 buf 0 = Some c -> Z.land c 65535 <> 12347 -> ra_portable_deserialize buf m = Ok (r, n) -> n = ra_portable_size_in_bytes r.
Proof.
  intros BB RC NR. unfold ra_portable_deserialize. destruct (m <? 4); [discriminate|]. rewrite RC. replace (Z.land c 65535 =? 12347) with false by lia. cbn [negb andb orb]. destruct (c =? 12346); cbn [negb]; [|discriminate].
  destruct (m <? 4 + 4); [discriminate|]. destruct (rdv 4 buf 4) as [v|]; [|discriminate]. set (s := s32 v). destruct (Z.ltb_spec s 0); [discriminate|]. destruct (Z.ltb_spec 65536 s); [discriminate|].
  destruct (m <? 4 + 4 + 0 + s * 4); [discriminate|]. destruct (read_keys buf (4 + 4 + 0) (Z.to_nat s) 0) as [ks|] eqn:RK; [|discriminate]. destruct (m <? 4 + 4 + 0 + s * 4 + s * 4); [discriminate|].
  destruct (read_containers buf m false (4 + 4) (4 + 4 + 0) (Z.to_nat s) 0 (4 + 4 + 0 + s * 4 + s * 4) (4 + 4 + 0 + s * 4 + s * 4)) as [| |[cs rb]] eqn:RR; try discriminate.
  destruct (read_containers_size buf m false _ _ BB _ _ _ _ _ _ RR) as (A & B & C). specialize (C eq_refl). apply read_keys_len in RK. intros X. assert (r = combine ks cs /\ n = rb) as (-> & ->) by (split; congruence).
  unfold ra_portable_size_in_bytes. rewrite size_combine by lia. unfold ra_portable_header_size. unfold ra_has_run_container. rewrite run_combine by lia. rewrite C. unfold zlen. rewrite combine_length, RK, B, Nat.min_id. rewrite Z2Nat.id by lia. unfold u32. rewrite Z.mod_small by lia. lia.
Qed.

Definition no_run_cookie (a : list Z) : Prop := forall i, ~ (nth i a 0 = 59 /\ nth (S i) a 0 = 48).
Lemma no_run_skipn n a : no_run_cookie a -> no_run_cookie (skipn n a).
Proof. intros H i. rewrite !IterP.nth_skipn'. intros X. apply (H (n + i)%nat). now replace (n + S i)%nat with (S (n + i)) in X by lia. Qed.

Lemma cookie_bytes a c : bytes a -> rdv 4 a 0 = Some c -> Z.land c 65535 = 12347 -> nth 0 a 0 = 59 /\ nth 1 a 0 = 48.
Proof.
  intros B R E. pose proof (rdv_inv _ _ _ _ R) as (_ & L). change (Z.of_nat 4) with 4 in L. destruct a as [|b0 [|b1 [|b2 [|b3 t]]]]; try (unfold zlen in L; cbn [length] in L; lia).
  unfold rdv in R. rewrite rd_some in R by (change (Z.of_nat 4) with 4; lia). change (Z.to_nat (Z.of_nat 4)) with 4%nat in R. change (Z.to_nat 0) with 0%nat in R. cbn [skipn firstn option_map le_val] in R. assert (c = b0 + 256 * b1 + (b2 + 256 * b3) * 2^16) as -> by (match type of R with Some ?v = _ => assert (c = v) as -> by congruence end; lia).
  inversion B as [|? ? B0 B']; subst. inversion B' as [|? ? B1 B'']; subst. inversion B'' as [|? ? B2 B3]; subst. inversion B3 as [|? ? B4 _]; subst. change 65535 with (Z.ones 16) in E. rewrite Z.land_ones in E by lia. cbn [nth].
  rewrite Z.mod_add in E by lia. rewrite Z.mod_small in E by lia. lia.
Qed.
Lemma read_safe_any n : forall a b m acc, bytes a -> no_run_cookie a -> 0 <= m <= zlen a -> m < 2^64 ->
  read_safe_loop n (a ++ b) m acc = read_safe_loop n a m acc /\ read_safe_loop n a m acc <> UB.
Proof.
  induction n as [|n IH]; intros a b m acc BA NC M MB; cbn [read_safe_loop]; [split; auto; discriminate|]. destruct (Z.ltb_spec m 4); [split; auto; discriminate|].
  destruct (rdv_in_range 4 a b 0 ltac:(lia) ltac:(change (Z.of_nat 4) with 4; lia)) as (-> & key & ->). destruct (R64S.skip_app 4 a b ltac:(lia)) as (-> & LA & BA'). specialize (BA' BA). apply (no_run_skipn 4) in NC. set (a' := skipn 4 a) in *. change (Z.of_nat 4) with 4 in LA.
  destruct (portable_deserialize_safe_any a' b (m - 4) BA' ltac:(lia)) as (E & _ & O). unfold roaring_bitmap_portable_deserialize_safe. rewrite E. unfold des_ok in O. destruct (ra_portable_deserialize a' (m - 4)) as [| |[r s]] eqn:D; [easy|split; auto; discriminate|].
  destruct O as (_ & S & T & SZ). unfold roaring_bitmap_portable_size_in_bytes. destruct (rdv_in_range 4 a' b 0 ltac:(lia) ltac:(change (Z.of_nat 4) with 4; lia)) as (_ & c & RC).
  assert (s = ra_portable_size_in_bytes r) as <-. { apply (deserialize_consumed a' (m - 4) r s c); auto. intros X. exact (NC 0%nat (cookie_bytes a' c BA' RC X)). }
  destruct (R64S.skip_app (Z.to_nat s) a' b ltac:(lia)) as (-> & LS & BS). rewrite Z.mod_small by lia. apply IH; [exact (BS BA')|now apply no_run_skipn|lia|lia].
Qed.
Lemma readSafe_any a b m : bytes a -> no_run_cookie a -> 0 <= m <= zlen a -> m < 2^64 -> map_readSafe (a ++ b) m = map_readSafe a m /\ map_readSafe a m <> UB.
Proof.
  intros BA NC M MB. unfold map_readSafe. destruct (Z.ltb_spec m 8); [split; auto; discriminate|]. destruct (rdv_in_range 8 a b 0 ltac:(lia) ltac:(change (Z.of_nat 8) with 8; lia)) as (-> & n & ->). destruct (R64S.skip_app 8 a b ltac:(lia)) as (-> & LA & BA').
  change (Z.of_nat 8) with 8 in LA. apply read_safe_any; [exact (BA' BA)|now apply no_run_skipn|lia|lia].
Qed.
(** at most one bucket: whatever the bytes *)
Lemma readSafe_one a b m n : bytes a -> 0 <= m <= zlen a -> m < 2^64 -> rdv 8 a 0 = Some n -> n <= 1 -> map_readSafe (a ++ b) m = map_readSafe a m /\ map_readSafe a m <> UB.
Proof.
  intros BA M MB RN N1. unfold map_readSafe. destruct (Z.ltb_spec m 8); [split; auto; discriminate|]. destruct (rdv_in_range 8 a b 0 ltac:(lia) ltac:(change (Z.of_nat 8) with 8; lia)) as (-> & _). rewrite RN. destruct (R64S.skip_app 8 a b ltac:(lia)) as (-> & LA & BA'). change (Z.of_nat 8) with 8 in LA. specialize (BA' BA). set (a' := skipn 8 a) in *.
  assert (T : Z.to_nat n = 0%nat \/ Z.to_nat n = 1%nat) by lia. destruct T as [-> | ->]; cbn [read_safe_loop]; [split; auto; discriminate|]. destruct (Z.ltb_spec (m - 8) 4); [split; auto; discriminate|].
  destruct (rdv_in_range 4 a' b 0 ltac:(lia) ltac:(change (Z.of_nat 4) with 4; lia)) as (-> & key & ->). destruct (R64S.skip_app 4 a' b ltac:(lia)) as (-> & LA' & BA''). change (Z.of_nat 4) with 4 in LA'. specialize (BA'' BA').
  destruct (portable_deserialize_safe_any (skipn 4 a') b (m - 8 - 4) BA'' ltac:(lia)) as (E & _ & O). unfold roaring_bitmap_portable_deserialize_safe. rewrite E. unfold des_ok in O. destruct (ra_portable_deserialize (skipn 4 a') (m - 8 - 4)) as [| |[r s]]; [easy|split; auto; discriminate|]. split; auto. discriminate.
Qed.
