(** DerivedS: the serialization properties in the vocabulary of Spec and Obs. *)
From Coq Require Import ZArith List Bool Lia Sorting.Sorted.
From Verif Require Import Base ArrayUtil BitUtil BitsetC ArrayC RunC RunD Convert Containers RArray RBinary RPoint RRange RQuery RStat RShift
  Bytes Serial SerialP Frozen FrozenP Spec Obs FormatSpec.
Import ListNotations.
Local Open Scope Z_scope.
Local Opaque zr.

(** * Sizes *)
Lemma csize_bound c : cok c -> container_size_in_bytes c <= 131074.
Proof.
  destruct c as [a|b|x]; cbn [cok container_size_in_bytes]; intros H; try lia.
  pose proof (rwf_zlen x (proj1 H)). lia.
Qed.
Lemma portable_size_bound r : bok r -> 0 <= ra_portable_size_in_bytes r < 2 ^ 34.
Proof.
  intros B. rewrite ra_size_tot. pose proof (gok_size cok 0 r B ltac:(lia)) as SZ. pose proof (zlen_nonneg r). pose proof (tot_size_nonneg r).
  pose proof (header_small r ltac:(lia)) as HS.
  assert (T : tot container_size_in_bytes r <= 131074 * zlen r).
  { destruct B as (_&_&D). clear - D. induction D as [|[k c] t D T IH]; cbn [tot]; [change (zlen (@nil entry)) with 0; lia|]. rewrite zlen_cons. cbn [snd] in D.
    pose proof (csize_bound c D). lia. }
  lia.
Qed.
(** * Monotonicity in the declared size *)
Lemma read_containers_mono buf m hasrun bmo kc : bytes buf -> forall n k off rb cs s, read_containers buf m hasrun bmo kc n k off rb = Ok (cs, s) ->
  rb <= s /\ forall m', rb <= m' -> read_containers buf m' hasrun bmo kc n k off rb = if m' <? s then Fail else Ok (cs, s).
Proof.
  intros BB. induction n as [|n IH]; intros k off rb cs s E. { cbn in E. injection E as <- <-. split; [lia|]. intros m' H. cbn. now rewrite (proj2 (Z.ltb_ge m' rb)) by lia. }
  cbn [read_containers] in *. destruct (rdv 2 buf (kc + 2 * (2 * k + 1))) as [tmp|] eqn:E1; [|discriminate]. destruct (read_isrun buf hasrun bmo k) as [isrun|]; [|discriminate].
  pose proof (rdv_range 2 buf _ tmp BB E1) as TB.
  assert (NEXT : forall c off' rb', rb <= rb' ->
    match read_containers buf m hasrun bmo kc n (k + 1) off' rb' with Ok (cs, rb) => Ok (c :: cs, rb) | Fail => Fail | UB => UB end = Ok (cs, s) ->
    rb' <= s /\ forall m', rb' <= m' -> match read_containers buf m' hasrun bmo kc n (k + 1) off' rb' with Ok (cs, rb) => Ok (c :: cs, rb) | Fail => Fail | UB => UB end =
      if m' <? s then Fail else Ok (cs, s)).
  { intros c off' rb' L X. destruct (read_containers buf m hasrun bmo kc n (k + 1) off' rb') as [| |[cs' s']] eqn:E2; try discriminate. injection X as <- <-.
    destruct (IH _ _ _ _ _ E2) as [I1 I2]. split; auto. intros m' H. rewrite I2 by auto. now destruct (m' <? s'). }
  destruct ((4096 <? tmp + 1) && negb isrun).
  - destruct (m <? rb + 8192); [discriminate|]. destruct (bitset_container_read (tmp + 1) buf off) as [b|]; [|discriminate].
    apply NEXT in E as [F1 F2]; [|lia]. split; [lia|]. intros m' H. destruct (Z.ltb_spec m' (rb + 8192)); [|now apply F2]. now rewrite (proj2 (Z.ltb_lt m' s)) by lia.
  - destruct isrun.
    + destruct (m <? rb + 2); [discriminate|]. destruct (rdv 2 buf off) as [nr|] eqn:E3; [|discriminate]. pose proof (rdv_range 2 buf _ nr BB E3) as NB.
      destruct (m <? rb + 2 + nr * 4); [discriminate|]. destruct (run_container_read buf off) as [x|]; [|discriminate].
      apply NEXT in E as [F1 F2]; [|lia]. split; [lia|]. intros m' H. destruct (Z.ltb_spec m' (rb + 2)). { now rewrite (proj2 (Z.ltb_lt m' s)) by lia. }
      destruct (Z.ltb_spec m' (rb + 2 + nr * 4)); [|now apply F2]. now rewrite (proj2 (Z.ltb_lt m' s)) by lia.
    + destruct (m <? rb + (tmp + 1) * 2); [discriminate|]. destruct (array_container_read (tmp + 1) buf off) as [a|]; [|discriminate].
      apply NEXT in E as [F1 F2]; [|lia]. split; [lia|]. intros m' H. destruct (Z.ltb_spec m' (rb + (tmp + 1) * 2)); [|now apply F2]. now rewrite (proj2 (Z.ltb_lt m' s)) by lia.
Qed.
Lemma portable_deserialize_mono buf m r s : bytes buf -> ra_portable_deserialize buf m = Ok (r, s) ->
  forall m', ra_portable_deserialize buf m' = if m' <? s then Fail else Ok (r, s).
Proof.
  intros BB E m'. unfold ra_portable_deserialize in *. destruct (m <? 4); [discriminate|]. destruct (rdv 4 buf 0) as [ck|]; [|discriminate].
  destruct (negb (Z.land ck 65535 =? 12347) && negb (ck =? 12346)); [discriminate|]. cbv zeta in *. set (hasrun := Z.land ck 65535 =? 12347) in *.
  set (body := fun (m size off rb : Z) => if size <? 0 then Fail else
      if 65536 <? size then Fail else
      let s := if hasrun then (size + 7) / 8 else 0 in
      let rb := rb + s in
      if hasrun && (m <? rb) then Fail else
      let bmo := off in
      let kc := off + s in
      let rb := rb + size * 4 in
      if m <? rb then Fail else
      let off := kc + size * 4 in
      match read_keys buf kc (Z.to_nat size) 0 with
      | None => UB
      | Some keys =>
        let offsets := negb hasrun || (4 <=? size) in
        let rb := if offsets then rb + size * 4 else rb in
        if offsets && (m <? rb) then Fail else
        let off := if offsets then off + size * 4 else off in
        match read_containers buf m hasrun bmo kc (Z.to_nat size) 0 off rb with
        | Ok (cs, rb) => Ok (combine keys cs, rb)
        | Fail => Fail
        | UB => UB
        end
      end).
  assert (BODY : forall size off rb, body m size off rb = Ok (r, s) -> rb <= s /\ forall m', rb <= m' -> body m' size off rb = if m' <? s then Fail else Ok (r, s)).
  { clear E. intros size off rb. unfold body. cbv zeta. destruct (Z.ltb_spec size 0); [discriminate|]. destruct (65536 <? size); [discriminate|].
    set (fl := if hasrun then (size + 7) / 8 else 0). assert (FP : 0 <= fl). { unfold fl. destruct hasrun; [apply Z.div_pos|]; lia. }
    destruct (hasrun && (m <? rb + fl)); [discriminate|]. destruct (m <? rb + fl + size * 4); [discriminate|].
    destruct (read_keys buf (off + fl) (Z.to_nat size) 0) as [keys|]; [|discriminate].
    set (offsets := negb hasrun || (4 <=? size)). set (rb2 := if offsets then rb + fl + size * 4 + size * 4 else rb + fl + size * 4).
    assert (R2 : rb + fl + size * 4 <= rb2) by (unfold rb2; destruct offsets; lia).
    destruct (offsets && (m <? rb2)); [discriminate|].
    destruct (read_containers buf m hasrun off (off + fl) (Z.to_nat size) 0 (if offsets then off + fl + size * 4 + size * 4 else off + fl + size * 4) rb2) as [| |[cs s']] eqn:E; try discriminate.
    intros X. injection X as <- <-. destruct (read_containers_mono _ _ _ _ _ BB _ _ _ _ _ _ E) as [F1 F2]. split; [lia|]. intros m0 H0.
    destruct (hasrun && (m0 <? rb + fl)) eqn:M1.
    { apply andb_true_iff in M1 as [_ M1]. apply Z.ltb_lt in M1. now rewrite (proj2 (Z.ltb_lt m0 s')) by lia. }
    destruct (Z.ltb_spec m0 (rb + fl + size * 4)). { now rewrite (proj2 (Z.ltb_lt m0 s')) by lia. }
    destruct (offsets && (m0 <? rb2)) eqn:M2.
    { apply andb_true_iff in M2 as [_ M2]. apply Z.ltb_lt in M2. now rewrite (proj2 (Z.ltb_lt m0 s')) by lia. }
    rewrite F2. { now destruct (m0 <? s'). }
    unfold rb2 in *. destruct offsets; [|lia]. cbn [andb] in M2. apply Z.ltb_ge in M2. lia. }
  fold (body m (Z.shiftr ck 16 + 1) 4 4) in E. fold (body m' (Z.shiftr ck 16 + 1) 4 4).
  destruct hasrun.
  - apply BODY in E as [F1 F2]. destruct (Z.ltb_spec m' 4). { now rewrite (proj2 (Z.ltb_lt m' s)) by lia. } apply F2. lia.
  - destruct (m <? 4 + 4); [discriminate|]. destruct (rdv 4 buf 4) as [v|]; [|discriminate]. fold (body m (s32 v) (4 + 4) (4 + 4)) in E. fold (body m' (s32 v) (4 + 4) (4 + 4)).
    apply BODY in E as [F1 F2]. destruct (Z.ltb_spec m' 4). { now rewrite (proj2 (Z.ltb_lt m' s)) by lia. }
    destruct (Z.ltb_spec m' (4 + 4)). { now rewrite (proj2 (Z.ltb_lt m' s)) by lia. } apply F2. lia.
Qed.
(** * Properties *)
Notation len l := (Z.of_nat (length l)).
Lemma s_portable r P : denotes r P -> exists out, bytes out /\ len out = roaring_bitmap_portable_size_in_bytes r /\
  (forall buf, len out <= len buf -> roaring_bitmap_portable_serialize r buf = Some (out ++ skipn (length out) buf, len out)) /\
  (forall post n, len out <= n -> exists r', roaring_bitmap_portable_deserialize_safe (out ++ post) n = Ok r' /\ denotes r' P) /\
  (forall post n, bytes post -> n < len out -> roaring_bitmap_portable_deserialize_safe (out ++ post) n = Fail) /\
  (forall post, exists r', roaring_bitmap_portable_deserialize (out ++ post) = Ok r' /\ denotes r' P).
Proof.
  intros D. pose proof (den_bok _ _ D) as B. pose proof (bok_typed r B) as [TK TD]. pose proof (gok_size cok 0 r B ltac:(lia)) as SZ.
  pose proof (pbytes_zlen r TD ltac:(lia)) as PZ. pose proof (portable_size_bound r B) as SB. exists (pbytes r).
  assert (BB : bytes (pbytes r)) by now apply pbytes_bytes.
  split; auto. split; [exact PZ|]. split; [|split; [|split]].
  - intros buf H. now apply portable_serialize_bytes.
  - intros post n H. exists r. split; auto. unfold roaring_bitmap_portable_deserialize_safe. rewrite portable_round_trip; auto. rewrite <- PZ. exact H.
  - intros post n BP H. unfold roaring_bitmap_portable_deserialize_safe.
    assert (BPP : bytes (pbytes r ++ post)) by (apply bytes_app; auto).
    rewrite (portable_deserialize_mono (pbytes r ++ post) (ra_portable_size_in_bytes r) r (ra_portable_size_in_bytes r) BPP) by (apply portable_round_trip; auto; lia).
    rewrite (proj2 (Z.ltb_lt n _)); auto. rewrite <- PZ. exact H.
  - intros post. exists r. split; auto. unfold roaring_bitmap_portable_deserialize, roaring_bitmap_portable_deserialize_safe. rewrite portable_round_trip; auto. lia.
Qed.
Lemma s_portable_safe a b : bytes a -> roaring_bitmap_portable_deserialize_safe (a ++ b) (len a) = roaring_bitmap_portable_deserialize_safe a (len a) /\
  roaring_bitmap_portable_deserialize_safe a (len a) <> UB /\ forall r, roaring_bitmap_portable_deserialize_safe a (len a) = Ok r -> typed r.
Proof.
  intros BA. destruct (portable_deserialize_safe_any a b (zlen a) BA ltac:(lia)) as (E&_&O). unfold roaring_bitmap_portable_deserialize_safe, zlen in *. rewrite E. split; auto.
  unfold des_ok in O. destruct (ra_portable_deserialize a (len a)) as [| |[r n]]; [easy| |]; (split; [discriminate|]); intros r'; [discriminate|].
  intros X. assert (r = r') as <- by congruence. tauto.
Qed.
Lemma s_native_safe a b : bytes a -> roaring_bitmap_deserialize_safe (a ++ b) (len a) = roaring_bitmap_deserialize_safe a (len a) /\
  roaring_bitmap_deserialize_safe a (len a) <> UB /\ forall r, roaring_bitmap_deserialize_safe a (len a) = Ok r -> typed r.
Proof.
  intros BA. destruct (deserialize_safe_any a b (zlen a) BA ltac:(lia)) as [E O]. unfold zlen in *. rewrite E. split; auto.
  unfold nat_ok in O. destruct (roaring_bitmap_deserialize_safe a (len a)) as [| |r]; [easy| |]; (split; [discriminate|]); intros r'; [discriminate|].
  intros X. assert (r = r') as <- by congruence. auto.
Qed.
Lemma s_size a b : bytes a -> exists s, roaring_bitmap_portable_deserialize_size (a ++ b) (len a) = Some s /\
  ((s = 0 /\ forall n, n <= len a -> roaring_bitmap_portable_deserialize_safe (a ++ b) n = Fail) \/
   (0 < s <= len a /\ exists r, typed r /\ forall n, n <= len a -> roaring_bitmap_portable_deserialize_safe (a ++ b) n = if n <? s then Fail else Ok r)).
Proof.
  intros BA. assert (PRE : forall n, n <= zlen a -> roaring_bitmap_portable_deserialize_safe (a ++ b) n = roaring_bitmap_portable_deserialize_safe a n).
  { intros n H. unfold roaring_bitmap_portable_deserialize_safe. destruct (portable_deserialize_safe_any a b n BA H) as (->&_). reflexivity. }
  destruct (portable_deserialize_safe_any a b (zlen a) BA ltac:(lia)) as (_&E2&O). unfold roaring_bitmap_portable_deserialize_size. fold (zlen a). rewrite E2.
  unfold des_ok in O. destruct (ra_portable_deserialize a (zlen a)) as [| |[r s]] eqn:E; [easy| |].
  - rewrite O. exists 0. split; auto. left. split; auto. intros n H. rewrite PRE by auto. unfold roaring_bitmap_portable_deserialize_safe.
    destruct (portable_deserialize_safe_any a b n BA H) as (_&_&O'). unfold des_ok in O'. destruct (ra_portable_deserialize a n) as [| |[r s]] eqn:E'; [easy|auto|].
    rewrite (portable_deserialize_mono a n r s BA E' (zlen a)) in E. rewrite (proj2 (Z.ltb_ge (zlen a) s)) in E by lia. discriminate.
  - destruct O as (-> & L & T & _). exists s. split; auto. right. split; [unfold zlen in *; lia|]. exists r. split; auto. intros n H. rewrite PRE by auto.
    unfold roaring_bitmap_portable_deserialize_safe. rewrite (portable_deserialize_mono a _ r s BA E n). now destruct (n <? s).
Qed.
(** a bitmap structure with the shape the library promises, container by container *)
Definition bits_of (ws : list Z) (x : Z) : bool := Z.testbit (nth (Z.to_nat (x / 64)) ws 0) (x mod 64).
Definition wf_container (c : container) : Prop :=
  match c with
  | CArr a => StronglySorted Z.lt a /\ 1 <= len a <= 4096
  | CBit (n, ws) => 4096 < n /\ exists l, StronglySorted Z.lt l /\ (forall x, In x l <-> 0 <= x < 65536 /\ bits_of ws x = true) /\ n = len l
  | CRun x => x <> [] /\ StronglySorted (fun p q : run => fst p + snd p + 1 < fst q) x /\ Forall (fun p : run => fst p + snd p < 65536) x
  end.
Definition well_formed (r : bitmap) : Prop := StronglySorted Z.lt (map fst r) /\ Forall (fun p => wf_container (snd p)) r.
Lemma rok_iff x lo : Forall (fun p : run => 0 <= fst p < 65536 /\ 0 <= snd p < 65536) x ->
  (rok lo x <-> Forall (fun p : run => lo <= fst p) x /\ StronglySorted (fun p q : run => fst p + snd p + 1 < fst q) x /\ Forall (fun p : run => fst p + snd p < 65536) x).
Proof.
  intros T. revert lo. induction T as [|[v l] x [T1 T2] T IH]; intros lo. { cbn. repeat split; constructor. }
  cbn [rok fst snd] in *. rewrite IH. split.
  - intros (A&B&C&D&E&F). repeat split.
    + constructor; auto. eapply Forall_impl; [|exact D]. cbn. intros p. lia.
    + constructor; auto. eapply Forall_impl; [|exact D]. cbn. intros p. lia.
    + constructor; auto.
  - intros (A&B&C). inversion A; inversion B; inversion C; subst. cbn [fst snd] in *. repeat split; auto; try lia.
    match goal with H : Forall (fun q : run => v + l + 1 < fst q) x |- _ => eapply Forall_impl; [|exact H] end. cbn. intros p. lia.
Qed.
Lemma bits_card ws n : (exists l, StronglySorted Z.lt l /\ (forall x, In x l <-> 0 <= x < 65536 /\ bits_of ws x = true) /\ n = len l) <-> n = bcard ws.
Proof.
  split.
  - intros (l&S&I&->). symmetry. apply (cnt_list (bget ws) 0 65536 l).
    + now apply incr_SS.
    + apply inb_intro. intros x Hx. now apply I in Hx.
    + intros x Hx. rewrite I. change (bits_of ws x) with (bget ws x). tauto.
  - intros ->. exists (filter (bget ws) (zr 0 65536)). split; [|split].
    + apply incr_SS. apply incr_filter. apply zr_incr.
    + intros x. rewrite filter_In, zr_In. change (bits_of ws x) with (bget ws x). tauto.
    + reflexivity.
Qed.
Lemma wf_cok c : ctyped c -> (wf_container c <-> cok c).
Proof.
  destruct c as [a|[n ws]|x]; cbn [ctyped wf_container cok]; intros T.
  - unfold awf. rewrite <- incr_SS. unfold zlen. tauto.
  - unfold bwf. cbn [b_words b_card fst snd] in *. rewrite bits_card. tauto.
  - unfold rwf. rewrite (rok_iff x 0 T). split; intros H; [|tauto]. repeat split; try tauto. eapply Forall_impl; [|exact T]. cbn. intros p. lia.
Qed.
Lemma s_validate r : typed r -> (roaring_bitmap_internal_validate r = true <-> well_formed r).
Proof.
  intros T. rewrite roaring_bitmap_internal_validate_spec by auto. destruct T as [TK TD]. unfold bok, gok, well_formed. rewrite <- incr_SS. unfold rkeys in *.
  assert (E : Forall (fun p : entry => wf_container (snd p)) r <-> Forall (fun p : entry => cok (snd p)) r).
  { rewrite !Forall_forall in *. split; intros H p Hp; apply wf_cok; auto. }
  rewrite E. tauto.
Qed.
Lemma s_validate_des a r : bytes a -> roaring_bitmap_portable_deserialize_safe a (len a) = Ok r \/ roaring_bitmap_deserialize_safe a (len a) = Ok r \/ roaring_bitmap_frozen_view true a (len a) = Ok r ->
  (roaring_bitmap_internal_validate r = true <-> well_formed r) /\
  (well_formed r -> denotes r (roaring_bitmap_contains r) /\ lists (roaring_bitmap_contains r) (roaring_bitmap_to_uint32_array r)).
Proof.
  intros BA H. assert (T : typed r).
  { destruct H as [H|[H|H]]; [now apply (s_portable_safe a [] BA)|now apply (s_native_safe a [] BA)|].
    destruct (frozen_view_any true a [] (zlen a) BA ltac:(lia)) as [_ O]. unfold zlen in O. rewrite H in O. exact O. }
  split; [now apply s_validate|]. intros W. assert (D : denotes r (roaring_bitmap_contains r)) by (apply den_self; split; auto; now apply s_validate). split; auto. now apply q_to_array.
Qed.
(** native array format: whatever the bytes, the result is a proper bitmap *)
Lemma s_native_array a : bytes a -> nth 0 a 0 = 1 -> forall r, roaring_bitmap_deserialize_safe a (len a) = Ok r -> roaring_bitmap_internal_validate r = true.
Proof.
  intros BA F r E. unfold roaring_bitmap_deserialize_safe in E. destruct (Z.ltb_spec (len a) 1); [discriminate|].
  destruct (rdv_in_range 1 a [] 0) as [_ [v R]]; [lia|unfold zlen; lia|]. assert (V : v = 1).
  { destruct a as [|x a]; [cbn in *; lia|]. cbn in F. subst x. change (1 :: a) with ([] ++ [1] ++ a) in R. rewrite (rdv_at 1 [] [1]) in R by reflexivity. now injection R as <-. }
  subst v. rewrite R in E. change (1 =? 1) with true in E. cbv iota in E. destruct (Z.ltb_spec (len a) (1 + 4)); [discriminate|].
  destruct (rdv_in_range 4 a [] 1) as [_ [card RC]]; [lia|unfold zlen; lia|]. rewrite RC in E.
  destruct (Z.ltb_spec (len a) (1 + 4 + card * 4)) as [|HL]; [discriminate|].
  destruct (native_array_read a [] (len a) BA ltac:(unfold zlen; lia) card R RC ltac:(lia)) as (l&_&L2&_&L3&_). rewrite app_nil_r in L3.
  unfold roaring_bitmap_deserialize_safe in L3. rewrite (proj2 (Z.ltb_ge (len a) 1)) in L3 by lia. rewrite R in L3. change (1 =? 1) with true in L3. cbv iota in L3.
  rewrite (proj2 (Z.ltb_ge (len a) (1 + 4))) in L3 by lia. rewrite RC in L3. rewrite (proj2 (Z.ltb_ge (len a) (1 + 4 + card * 4))) in L3 by lia.
  rewrite E in L3. injection L3 as ->. destruct (roaring_bitmap_of_spec l) as [O _]. { rewrite Forall_forall in L2. exact L2. }
  now apply valid_bok in O as [_ O].
Qed.
Lemma s_native r P : denotes r P -> exists out, bytes out /\ len out = roaring_bitmap_size_in_bytes r /\
  (forall buf, len out <= len buf -> roaring_bitmap_serialize r buf = Some (out ++ skipn (length out) buf, len out)) /\
  (forall post n, bytes post -> len out <= n <= len (out ++ post) -> exists r', roaring_bitmap_deserialize_safe (out ++ post) n = Ok r' /\ denotes r' P) /\
  (forall post, bytes post -> exists r', roaring_bitmap_deserialize (out ++ post) = Ok r' /\ denotes r' P).
Proof.
  intros D. pose proof (den_bok _ _ D) as B. pose proof (nbytes_zlen r B) as NZ. pose proof (portable_size_bound r B) as SB. exists (nbytes r).
  assert (G : forall post n, bytes post -> len (nbytes r) <= n <= len (nbytes r ++ post) -> exists r', roaring_bitmap_deserialize_safe (nbytes r ++ post) n = Ok r' /\
    roaring_bitmap_deserialize (nbytes r ++ post) = Ok r' /\ denotes r' P).
  { intros post n BP H. destruct (native_round_trip r post n B BP) as (r'&E1&E2&B'&M). { rewrite <- NZ. exact H. } exists r'. split; auto. split; [apply E2; lia|].
    apply den_iff. split; auto. intros v Hv. rewrite M. now apply den_mem. }
  split; [|split; [exact NZ|split; [|split]]].
  - unfold nbytes. destruct (_ <? _); (constructor; [lia|]); [now apply pbytes_bytes|]. apply bytes_app. split; [apply le_bytes|apply les_bytes].
  - intros buf H. now apply serialize_bytes.
  - intros post n BP H. destruct (G post n BP H) as (r'&?&_&?). eauto.
  - intros post BP. destruct (G post (len (nbytes r ++ post)) BP) as (r'&_&?&?); [|eauto]. rewrite app_length. lia.
Qed.
Lemma s_frozen r P sh : denotes r P -> unshared sh r -> exists out, roaring_bitmap_frozen_size_in_bytes sh r = Some (len out) /\
  (forall buf, len out <= len buf -> roaring_bitmap_frozen_serialize sh r buf = Some (out ++ skipn (length out) buf)) /\
  (forall post, exists r', roaring_bitmap_frozen_view true (out ++ post) (len out) = Ok r' /\ denotes r' P).
Proof.
  intros D U. pose proof (den_bok _ _ D) as B. pose proof (bok_typed r B) as [TK TD]. exists (fbytes r). split; [|split].
  - now apply frozen_size_spec.
  - intros buf H. now apply frozen_serialize_bytes.
  - intros post. exists r. split; auto. now apply frozen_round_trip.
Qed.
Lemma s_frozen_view aligned a b : bytes a -> roaring_bitmap_frozen_view aligned (a ++ b) (len a) = roaring_bitmap_frozen_view aligned a (len a) /\
  roaring_bitmap_frozen_view aligned a (len a) <> UB /\
  forall r, roaring_bitmap_frozen_view aligned a (len a) = Ok r -> aligned = true /\ typed r.
Proof.
  intros BA. destruct (frozen_view_any aligned a b (zlen a) BA ltac:(lia)) as [E O]. fold (zlen a). split; auto.
  destruct aligned; [|split; [discriminate|intros r; discriminate]].
  unfold nat_ok in O. destruct (roaring_bitmap_frozen_view true a (zlen a)) as [| |r]; [easy| |]; (split; [discriminate|]); intros r'; [discriminate|].
  intros X. assert (r = r') as <- by congruence. auto.
Qed.
Lemma s_frozen_shared r sh k : In k (rkeys r) -> sh k = true -> roaring_bitmap_frozen_size_in_bytes sh r = None /\ forall buf, roaring_bitmap_frozen_serialize sh r buf = None.
Proof.
  intros I S. assert (E : existsb (fun p : entry => sh (fst p)) r = true).
  { unfold rkeys in I. apply in_map_iff in I as (p&<-&I). apply existsb_exists. exists p. auto. }
  unfold roaring_bitmap_frozen_size_in_bytes, roaring_bitmap_frozen_serialize. rewrite E. auto.
Qed.
Lemma s_portable_out r P buf m n : denotes r P -> roaring_bitmap_portable_size_in_bytes r <= len buf -> roaring_bitmap_portable_serialize r buf = Some (m, n) ->
  m = pbytes r ++ skipn (length (pbytes r)) buf /\ n = zlen (pbytes r) /\ zlen (pbytes r) = ra_portable_size_in_bytes r.
Proof.
  intros D L E. pose proof (den_bok _ _ D) as B. pose proof (bok_typed r B) as [TK TD]. pose proof (gok_size cok 0 r B ltac:(lia)) as SZ.
  pose proof (pbytes_zlen r TD ltac:(lia)) as PZ. unfold roaring_bitmap_portable_serialize, roaring_bitmap_portable_size_in_bytes in *. rewrite portable_serialize_bytes in E; auto.
  - split; [|split]; congruence.
  - rewrite PZ. exact L.
Qed.
Lemma s_prefix_free r1 r2 P1 P2 buf1 buf2 m1 m2 n1 n2 : denotes r1 P1 -> denotes r2 P2 ->
  roaring_bitmap_portable_size_in_bytes r1 <= len buf1 -> roaring_bitmap_portable_size_in_bytes r2 <= len buf2 ->
  roaring_bitmap_portable_serialize r1 buf1 = Some (m1, n1) -> roaring_bitmap_portable_serialize r2 buf2 = Some (m2, n2) ->
  n1 <= n2 -> firstn (Z.to_nat n1) m1 = firstn (Z.to_nat n1) m2 -> n1 = n2 /\ same_set P1 P2.
Proof.
  intros D1 D2 L1 L2 E1 E2 N F. destruct (s_portable_out _ _ _ _ _ D1 L1 E1) as (->&->&Z1). destruct (s_portable_out _ _ _ _ _ D2 L2 E2) as (->&->&Z2).
  pose proof (den_bok _ _ D1) as B1. pose proof (den_bok _ _ D2) as B2.
  assert (PE : pbytes r2 = pbytes r1 ++ skipn (length (pbytes r1)) (pbytes r2)).
  { rewrite <- (firstn_skipn (length (pbytes r1)) (pbytes r2)) at 1. f_equal. rewrite firstn_app_l in F by (unfold zlen; lia). symmetry. etransitivity; [exact F|].
    unfold zlen. rewrite Nat2Z.id. rewrite firstn_app. replace (length (pbytes r1) - length (pbytes r2))%nat with 0%nat by (unfold zlen in N; lia). cbn. now rewrite app_nil_r. }
  pose proof (portable_round_trip r2 [] (ra_portable_size_in_bytes r2) B2 ltac:(lia)) as R2. rewrite app_nil_r in R2. rewrite PE in R2.
  pose proof (portable_round_trip r1 (skipn (length (pbytes r1)) (pbytes r2)) (ra_portable_size_in_bytes r2) B1 ltac:(lia)) as R1. rewrite R1 in R2.
  assert (r1 = r2) as <- by congruence. split; auto.
  intros v Hv. rewrite <- (den_mem r1 P1), <- (den_mem r1 P2); auto.
Qed.
Lemma s_portable_frozen r P buf m n : denotes r P -> roaring_bitmap_portable_size_in_bytes r <= len buf -> roaring_bitmap_portable_size_in_bytes r < 2 ^ 32 ->
  roaring_bitmap_portable_serialize r buf = Some (m, n) -> exists r', roaring_bitmap_portable_deserialize_frozen m = Ok r' /\ denotes r' P.
Proof.
  intros D L S E. destruct (s_portable_out _ _ _ _ _ D L E) as (->&->&_). exists r. split; auto. apply portable_frozen_round_trip; auto. now apply den_bok in D.
Qed.
Lemma s_portable_frozen_refuted : exists r P buf m n, denotes r P /\ roaring_bitmap_portable_size_in_bytes r <= len buf /\ roaring_bitmap_portable_serialize r buf = Some (m, n) /\
  ~ exists r', roaring_bitmap_portable_deserialize_frozen m = Ok r' /\ denotes r' P.
Proof.
  pose proof huge_bok as B. assert (D : denotes huge (mem huge)). { apply den_iff. split; auto. }
  pose proof (bok_typed _ B) as [_ TD]. pose proof (gok_size cok 0 _ B ltac:(lia)) as SZ. pose proof (pbytes_zlen huge TD ltac:(lia)) as PZ.
  exists huge, (mem huge), (pbytes huge), (pbytes huge ++ skipn (length (pbytes huge)) (pbytes huge)), (zlen (pbytes huge)). split; [exact D|].
  split; [unfold roaring_bitmap_portable_size_in_bytes; rewrite <- PZ; apply Z.le_refl|]. split; [apply portable_serialize_bytes; [exact TD|apply Z.le_refl]|].
  intros (r'&E&D'). pose proof (huge_portable_frozen _ r' E (den_bok _ _ D')) as M.
  rewrite (den_mem r' (mem huge) _ D') in M by (unfold val32; lia). apply huge_mem in M. discriminate M.
Qed.
(** forty-nine containers: {0,1,2,3} and forty-eight singletons *)
Definition growing : list Z := [0; 1; 2; 3] ++ map (fun k => 65536 * Z.of_nat k) (seq 1 48).
Lemma s_run_optimize_grows : exists r P, denotes r P /\ roaring_bitmap_portable_size_in_bytes r < roaring_bitmap_portable_size_in_bytes (fst (roaring_bitmap_run_optimize r)).
Proof.
  exists (roaring_bitmap_of_ptr growing), (zlist growing). split; [|vm_compute; reflexivity].
  apply den_of_ptr. intros v Hv. unfold growing in Hv. apply in_app_or in Hv as [Hv|Hv]; [cbn in Hv; red; lia|].
  apply in_map_iff in Hv as (k&<-&Hk). apply in_seq in Hk. red. lia.
Qed.
(** * Counts announced by an accepted header *)
Lemma read_keys_len buf kc n : forall k l, read_keys buf kc n k = Some l -> length l = n.
Proof.
  induction n; intros k l; cbn [read_keys]. { intros [= <-]. reflexivity. }
  unfold obind. destruct (rdv 2 buf (kc + 2 * (2 * k))); [|discriminate]. destruct (read_keys buf kc n (k + 1)) as [t|] eqn:E; [|discriminate].
  cbn. intros [= <-]. cbn. now rewrite (IHn _ _ E).
Qed.
Lemma read_containers_len buf m h bmo kc n : forall k off rb l e, read_containers buf m h bmo kc n k off rb = Ok (l, e) -> length l = n.
Proof.
  induction n; intros k off rb l e; cbn [read_containers]. { intros [= <- _]. reflexivity. }
  destruct (rdv 2 buf (kc + 2 * (2 * k + 1))); [|discriminate]. destruct (read_isrun buf h bmo k) as [i|]; [|discriminate]. cbv zeta.
  assert (N : forall c off rb, match read_containers buf m h bmo kc n (k + 1) off rb with Ok (cs, rb) => Ok (c :: cs, rb) | Fail => Fail | UB => UB end = Ok (l, e) -> length l = S n).
  { intros c off' rb'. destruct (read_containers buf m h bmo kc n (k + 1) off' rb') as [| |[cs e']] eqn:E; try discriminate. intros [= <- _]. cbn. now rewrite (IHn _ _ _ _ _ E). }
  destruct ((4096 <? z + 1) && negb i).
  { destruct (m <? rb + 8192); [discriminate|]. destruct (bitset_container_read (z + 1) buf off); [|discriminate]. apply N. }
  destruct i.
  { destruct (m <? rb + 2); [discriminate|]. destruct (rdv 2 buf off) as [q|]; [|discriminate]. destruct (m <? rb + 2 + q * 4); [discriminate|].
    destruct (run_container_read buf off); [|discriminate]. apply N. }
  destruct (m <? rb + (z + 1) * 2); [discriminate|]. destruct (array_container_read (z + 1) buf off); [|discriminate]. apply N.
Qed.
Lemma rdv4_at buf off v : 0 <= off -> rdv 4 buf off = Some v -> v = u32_at buf (Z.to_nat off).
Proof.
  intros H. unfold rdv, rd. destruct ((0 <=? off) && (0 <=? Z.of_nat 4) && (off + Z.of_nat 4 <=? zlen buf)) eqn:G; [|discriminate].
  apply andb_true_iff in G as [_ G]. apply Z.leb_le in G. unfold zlen in G. cbn [option_map]. intros E. assert (v = le_val (firstn 4 (skipn (Z.to_nat off) buf))) as -> by (symmetry; injection E; auto). clear E.
  unfold u32_at, u16_at. set (n := Z.to_nat off) in *. rewrite <- (firstn_skipn n buf).
  assert (L : length (firstn n buf) = n) by (rewrite firstn_length; lia). set (p := firstn n buf) in *. assert (L2 : (length (skipn n buf) >= 4)%nat) by (rewrite skipn_length; lia).
  set (q := skipn n buf) in *. clearbody p q. rewrite <- L. rewrite skipn_app, skipn_all, Nat.sub_diag. cbn [app skipn].
  rewrite !app_nth2 by lia. replace (length p - length p)%nat with 0%nat by lia. replace (length p + 1 - length p)%nat with 1%nat by lia.
  replace (length p + 2 - length p)%nat with 2%nat by lia. replace (length p + 2 + 1 - length p)%nat with 3%nat by lia.
  do 4 (destruct q as [|? q]; [cbn in L2; lia|]). cbn [firstn le_val nth]. lia.
Qed.
Lemma u16_range buf i : bytes buf -> 0 <= u16_at buf i < 65536.
Proof.
  intros B. assert (N : forall j, 0 <= nth j buf 0 < 256). { intros j. destruct (nth_in_or_default j buf 0) as [K| ->]; [|lia]. unfold bytes in B. rewrite Forall_forall in B. now apply B. }
  unfold u16_at. pose proof (N i). pose proof (N (i + 1)%nat). lia.
Qed.
Lemma s_header a r : bytes a -> roaring_bitmap_portable_deserialize_safe a (len a) = Ok r ->
  (u32_at a 0 = 12346 /\ u32_at a 4 = len r) \/ (u16_at a 0 = 12347 /\ u16_at a 2 + 1 = len r).
Proof.
  intros B. unfold roaring_bitmap_portable_deserialize_safe. destruct (ra_portable_deserialize a (len a)) as [| |[r' n]] eqn:E; try discriminate.
  intros X. assert (r' = r) as -> by congruence. clear X. revert E. unfold ra_portable_deserialize. cbv zeta. destruct (len a <? 4); [discriminate|].
  destruct (rdv 4 a 0) as [ck|] eqn:C; [|discriminate]. pose proof (rdv4_at _ 0 _ ltac:(lia) C) as EC. change (Z.to_nat 0) with 0%nat in EC.
  pose proof (u16_range a 0 B) as R0. pose proof (u16_range a 2 B) as R2. unfold u32_at in EC. cbn [Nat.add] in EC.
  assert (L16 : Z.land ck 65535 = u16_at a 0). { change 65535 with (Z.ones 16). rewrite Z.land_ones by lia. subst ck. change (2 ^ 16) with 65536. rewrite Z.mul_comm, Z_mod_plus_full, Z.mod_small; lia. }
  assert (H16 : Z.shiftr ck 16 = u16_at a 2). { rewrite Z.shiftr_div_pow2 by lia. subst ck. change (2 ^ 16) with 65536. rewrite Z.mul_comm, Z.div_add by lia. rewrite Z.div_small; lia. }
  rewrite L16, H16.
  assert (K : forall hr bmo kc off rb k s, 0 <= s ->
     (match read_keys a kc (Z.to_nat s) k with None => UB | Some keys =>
        if (negb hr || (4 <=? s)) && (len a <? (if negb hr || (4 <=? s) then rb + s * 4 else rb)) then Fail else
        match read_containers a (len a) hr bmo kc (Z.to_nat s) 0 off (if negb hr || (4 <=? s) then rb + s * 4 else rb) with Ok (cs, rb) => Ok (combine keys cs, rb) | Fail => Fail | UB => UB end end) = Ok (r, n) -> len r = s).
  { intros hr bmo kc off rb k s H0. destruct (read_keys a kc (Z.to_nat s) k) as [ks|] eqn:EK; [|discriminate]. destruct (_ && _); [discriminate|].
    destruct (read_containers a (len a) hr bmo kc (Z.to_nat s) 0 off _) as [| |[cs e]] eqn:ER; try discriminate. intros X. assert (r = combine ks cs) as -> by congruence.
    rewrite combine_length, (read_keys_len _ _ _ _ _ EK), (read_containers_len _ _ _ _ _ _ _ _ _ _ _ ER), Nat.min_id. lia. }
  destruct (Z.eqb_spec (u16_at a 0) 12347) as [E1|E1]; cbn [negb andb].
  - intros X. right. split; [exact E1|]. revert X. destruct (Z.ltb_spec (u16_at a 2 + 1) 0); [discriminate|]. destruct (65536 <? u16_at a 2 + 1); [discriminate|].
    destruct (len a <? _); [discriminate|]. destruct (len a <? _); [discriminate|]. intros X. symmetry. apply (K true _ _ _ _ _ (u16_at a 2 + 1)) in X; [exact X|lia].
  - destruct (Z.eqb_spec ck 12346) as [E2|E2]; cbn [negb]; [|discriminate]. intros X. left. split; [unfold u32_at; cbn [Nat.add]; lia|]. revert X.
    destruct (len a <? _); [discriminate|]. destruct (rdv 4 a 4) as [v|] eqn:V; [|discriminate]. pose proof (rdv4_at _ 4 _ ltac:(lia) V) as EV. change (Z.to_nat 4) with 4%nat in EV.
    pose proof (u16_range a 4 B). pose proof (u16_range a 6 B). assert (VR : 0 <= v < 2 ^ 32) by (rewrite EV; unfold u32_at; cbn [Nat.add]; lia).
    destruct (Z.ltb_spec (s32 v) 0) as [N0|N0]; [discriminate|]. assert (SV : s32 v = v). { unfold s32 in *. destruct (Z.ltb_spec v (2 ^ 31)); lia. } rewrite SV in *.
    destruct (65536 <? v); [discriminate|]. destruct (len a <? _); [discriminate|]. intros X. rewrite <- EV. symmetry. apply (K false _ _ _ _ _ v) in X; [exact X|lia].
Qed.
Lemma s_unknown_tag t rest n : 0 <= t < 256 -> t <> 1 -> t <> 2 ->
  roaring_bitmap_deserialize (t :: rest) = Fail /\ roaring_bitmap_deserialize_safe (t :: rest) n = Fail.
Proof.
  intros H A B. assert (E : rdv 1 (t :: rest) 0 = Some t).
  { unfold rdv, rd. rewrite zlen_cons. pose proof (zlen_nonneg rest). destruct (Z.leb_spec (0 + Z.of_nat 1) (zlen rest + 1)); [|lia]. change ((0 <=? 0) && (0 <=? Z.of_nat 1) && true) with true. cbv iota. cbn [option_map]. f_equal. change (t + 256 * 0 = t). lia. }
  unfold roaring_bitmap_deserialize, roaring_bitmap_deserialize_safe. rewrite E. destruct (Z.eqb_spec t 1); [lia|]. destruct (Z.eqb_spec t 2); [lia|]. split; auto. now destruct (n <? 1).
Qed.
