(** SerialP: proofs about the portable and native formats. *)
From Coq Require Import ZArith List Bool Lia.
From Verif Require Import Base ArrayUtil BitUtil BitsetC ArrayC RunC RunD Convert Containers RArray RBinary RPoint RRange RQuery RStat Bytes Serial.
Import ListNotations.
Local Open Scope Z_scope.
Local Opaque zr.

(** * The byte string written *)
Definition keycards (r : bitmap) : list Z := flat_map (fun p : entry => le 2 (fst p) ++ le 2 (u16 (container_get_cardinality (snd p) - 1))) r.
Fixpoint offs (r : bitmap) (start : Z) : list Z :=
  match r with [] => [] | (_, c) :: t => start :: offs t (u32 (start + container_size_in_bytes c)) end.
Definition payloads (r : bitmap) : list Z := flat_map (fun p : entry => payload (snd p)) r.
Definition has_offsets (r : bitmap) : bool := negb (ra_has_run_container r) || (4 <=? zlen r).
Definition start_offset (r : bitmap) : Z :=
  let size := zlen r in
  u32 (if ra_has_run_container r then if size <? 4 then 4 + 4 * size + (size + 7) / 8 else 4 + 8 * size + (size + 7) / 8 else 4 + 4 + 4 * size + 4 * size).
Definition head_bytes (r : bitmap) : list Z :=
  if ra_has_run_container r then le 4 (Z.lor 12347 (u32 (Z.shiftl (zlen r - 1) 16))) ++ run_flags r else le 4 12346 ++ le 4 (zlen r).
Definition offset_bytes (r : bitmap) : list Z := if has_offsets r then les 4 (offs r (start_offset r)) else [].
Definition pbytes (r : bitmap) : list Z := head_bytes r ++ keycards r ++ offset_bytes r ++ payloads r.

Definition writes (f : list Z * Z -> option (list Z * Z)) (bs : list Z) : Prop :=
  forall pre rest st, cursor st pre rest -> zlen bs <= zlen rest ->
  exists st', f st = Some st' /\ cursor st' (pre ++ bs) (skipn (length bs) rest).
Lemma writes_wr bs adv : adv = zlen bs -> writes (wr bs adv) bs.
Proof. intros E pre rest st C H. now apply wr_cursor. Qed.
Lemma writes_nil : writes Some [].
Proof. intros pre rest st C _. exists st. rewrite app_nil_r. split; auto. Qed.
Lemma writes_bind f g a b : writes f a -> writes g b -> writes (fun st => obind (f st) g) (a ++ b).
Proof.
  intros F G pre rest st C H. rewrite zlen_app in H. pose proof (zlen_nonneg a). pose proof (zlen_nonneg b).
  destruct (F pre rest st C) as (st1&E1&C1); [lia|]. rewrite E1. cbn [obind].
  destruct (G _ _ _ C1) as (st2&E2&C2). { unfold zlen in *. rewrite skipn_length. lia. }
  exists st2. split; auto. rewrite app_assoc, app_length, <- skipn_skipn'. exact C2.
Qed.
Lemma run_words_zlen x : zlen (run_words x) = 2 * zlen x.
Proof. induction x as [|[a b] t IH]; auto. change (run_words ((a, b) :: t)) with (a :: b :: run_words t). rewrite !zlen_cons, IH. lia. Qed.
Lemma payload_zlen c : ctyped c -> zlen (payload c) = container_size_in_bytes c.
Proof.
  destruct c as [a|b|x]; cbn [ctyped payload container_size_in_bytes]; intros H.
  - rewrite les_zlen. lia.
  - rewrite les_zlen. destruct H as [_ ->]. reflexivity.
  - rewrite zlen_app, le_zlen, les_zlen, run_words_zlen. lia.
Qed.
Lemma keycards_cons k c t : keycards ((k, c) :: t) = le 2 k ++ le 2 (u16 (container_get_cardinality c - 1)) ++ keycards t.
Proof. unfold keycards. cbn [flat_map fst snd]. now rewrite <- app_assoc. Qed.
Lemma payloads_cons k c t : payloads ((k, c) :: t) = payload c ++ payloads t. Proof. reflexivity. Qed.
Lemma keycards_zlen r : zlen (keycards r) = 4 * zlen r.
Proof. induction r as [|[k c] t IH]; auto. rewrite keycards_cons, !zlen_app, !le_zlen, zlen_cons, IH. lia. Qed.
Lemma keycards_app a b : keycards (a ++ b) = keycards a ++ keycards b. Proof. apply flat_map_app. Qed.
Lemma payloads_app a b : payloads (a ++ b) = payloads a ++ payloads b. Proof. apply flat_map_app. Qed.
Lemma offs_zlen r s : zlen (offs r s) = zlen r.
Proof. revert s. induction r as [|[k c] t IH]; intros s; auto. cbn [offs]. now rewrite !zlen_cons, IH. Qed.
Lemma set_run_bits_zlen r i bm : zlen (set_run_bits r i bm) = zlen bm.
Proof. revert i bm. induction r as [|[k c] t IH]; intros i bm; cbn [set_run_bits]; auto. rewrite IH. destruct (is_run c); auto. apply zupd_zlen. Qed.
Lemma run_flags_zlen r : zlen (run_flags r) = (zlen r + 7) / 8.
Proof.
  unfold run_flags. rewrite set_run_bits_zlen. unfold zlen at 1. rewrite repeat_length. rewrite Z2Nat.id; auto.
  pose proof (zlen_nonneg r). apply Z.div_pos; lia.
Qed.
Lemma writes_keycards r : writes (write_keycards r) (keycards r).
Proof.
  induction r as [|[k c] t IH]. { apply writes_nil. } rewrite keycards_cons. cbn [write_keycards].
  apply writes_bind. { apply writes_wr. now rewrite le_zlen. } apply writes_bind; auto. apply writes_wr. now rewrite le_zlen.
Qed.
Lemma writes_offsets r s : writes (write_offsets r s) (les 4 (offs r s)).
Proof.
  revert s. induction r as [|[k c] t IH]; intros s. { apply writes_nil. } cbn [offs write_offsets]. rewrite les_cons.
  apply writes_bind; auto. apply writes_wr. now rewrite le_zlen.
Qed.
Lemma writes_containers r : Forall (fun p : entry => ctyped (snd p)) r -> writes (write_containers r) (payloads r).
Proof.
  induction 1 as [|[k c] t D T IH]. { apply writes_nil. } rewrite payloads_cons. cbn [write_containers].
  apply writes_bind; auto. apply writes_wr. symmetry. now apply payload_zlen.
Qed.
Theorem portable_serialize_bytes r buf : Forall (fun p : entry => ctyped (snd p)) r -> zlen (pbytes r) <= zlen buf ->
  ra_portable_serialize r buf = Some (pbytes r ++ skipn (length (pbytes r)) buf, zlen (pbytes r)).
Proof.
  intros D H. unfold ra_portable_serialize.
  assert (T : writes (fun st => obind (write_keycards r st) (fun st =>
    obind (if negb (ra_has_run_container r) || (4 <=? zlen r) then write_offsets r (start_offset r) st else Some st) (write_containers r)))
    (keycards r ++ offset_bytes r ++ payloads r)).
  { apply writes_bind; [apply writes_keycards|]. unfold offset_bytes, has_offsets.
    destruct (negb (ra_has_run_container r) || (4 <=? zlen r)).
    - apply writes_bind; [apply writes_offsets|]. now apply writes_containers.
    - cbn [obind app]. now apply writes_containers. }
  assert (HS : writes (fun st => obind (if ra_has_run_container r
       then obind (wr (le 4 (Z.lor 12347 (u32 (Z.shiftl (zlen r - 1) 16)))) 4 st) (wr (run_flags r) ((zlen r + 7) / 8))
       else obind (wr (le 4 12346) 4 st) (wr (le 4 (zlen r)) 4))
     (fun st => obind (write_keycards r st) (fun st =>
       obind (if negb (ra_has_run_container r) || (4 <=? zlen r) then write_offsets r (start_offset r) st else Some st) (write_containers r)))) (pbytes r)).
  { unfold pbytes. apply writes_bind.
    - unfold head_bytes. destruct (ra_has_run_container r); apply writes_bind; apply writes_wr; rewrite ?le_zlen, ?run_flags_zlen; auto.
    - exact T. }
  destruct (HS [] buf (buf, 0)) as (st'&E&C); [reflexivity|exact H|].
  cbn [app] in C. red in C. subst st'. rewrite <- E. unfold start_offset.
  destruct (ra_has_run_container r).
  - destruct (wr (le 4 (Z.lor 12347 (u32 (Z.shiftl (zlen r - 1) 16)))) 4 (buf, 0)) as [s1|]; cbn [obind]; auto.
    destruct (wr (run_flags r) ((zlen r + 7) / 8) s1) as [s2|]; cbn [obind]; auto.
  - destruct (wr (le 4 12346) 4 (buf, 0)) as [s1|]; cbn [obind]; auto.
    destruct (wr (le 4 (zlen r)) 4 s1) as [s2|]; cbn [obind]; auto.
Qed.

(** ** Sizes *)
Lemma ra_size_tot r : ra_portable_size_in_bytes r = ra_portable_header_size r + tot container_size_in_bytes r.
Proof.
  unfold ra_portable_size_in_bytes. generalize (ra_portable_header_size r) as z. induction r as [|[k c] t IH]; intros z; cbn [fold_left tot snd].
  - lia.
  - rewrite IH. lia.
Qed.
Lemma payloads_zlen r : Forall (fun p : entry => ctyped (snd p)) r -> zlen (payloads r) = tot container_size_in_bytes r.
Proof. induction 1 as [|[k c] t D T IH]; auto. rewrite payloads_cons, zlen_app, payload_zlen, IH by auto. reflexivity. Qed.
Lemma pbytes_zlen r : Forall (fun p : entry => ctyped (snd p)) r -> zlen r <= 65536 -> zlen (pbytes r) = ra_portable_size_in_bytes r.
Proof.
  intros D L. pose proof (zlen_nonneg r). rewrite ra_size_tot. unfold pbytes. rewrite !zlen_app, keycards_zlen, payloads_zlen by auto.
  unfold ra_portable_header_size, head_bytes, offset_bytes, has_offsets. assert (0 <= (zlen r + 7) / 8 <= 65536) by dm.
  destruct (ra_has_run_container r); cbn [negb orb].
  - rewrite zlen_app, le_zlen, run_flags_zlen. destruct (Z.ltb_spec (zlen r) 4).
    + rewrite (proj2 (Z.leb_gt 4 (zlen r))) by lia. rewrite u32_in by lia. rewrite zlen_nil. lia.
    + rewrite (proj2 (Z.leb_le 4 (zlen r))) by lia. rewrite u32_in by lia. rewrite les_zlen, offs_zlen. lia.
  - rewrite zlen_app, !le_zlen, les_zlen, offs_zlen. rewrite u32_in by lia. lia.
Qed.

(** ** The run flags *)
Definition flagbit (bm : list Z) (j : Z) : bool := Z.testbit (znth bm (j / 8)) (j mod 8).
Lemma land_bit b m : 0 <= m -> negb (Z.land b (Z.shiftl 1 m) =? 0) = Z.testbit b m.
Proof.
  intros Hm. rewrite Z.shiftl_1_l. destruct (Z.testbit b m) eqn:T.
  - destruct (Z.eqb_spec (Z.land b (2 ^ m)) 0) as [E|E]; auto. exfalso.
    assert (X : Z.testbit (Z.land b (2 ^ m)) m = true) by (rewrite Z.land_spec, T, Z.pow2_bits_true; auto). rewrite E, Z.bits_0 in X. discriminate.
  - replace (Z.land b (2 ^ m)) with 0; auto. symmetry. apply Z.bits_inj'. intros n Hn. rewrite Z.land_spec, Z.bits_0, Z.pow2_bits_eqb by auto.
    destruct (Z.eqb_spec m n); [subst; rewrite T; auto|apply andb_false_r].
Qed.
Lemma znth_pos_cons x l i : 0 < i -> znth (x :: l) i = znth l (i - 1).
Proof. apply znth_cons_pos. Qed.
Definition isr (r : bitmap) (j : Z) : bool := match nth_error r (Z.to_nat j) with Some p => is_run (snd p) | None => false end.
Lemma flagbit_set bm i j : 0 <= i < 8 * zlen bm -> 0 <= j -> 
  flagbit (zupd (i / 8) (Z.lor (znth bm (i / 8)) (Z.shiftl 1 (i mod 8))) bm) j = flagbit bm j || (i =? j).
Proof.
  intros Hi Hj. unfold flagbit. assert (0 <= i / 8 < zlen bm) by dm. assert (0 <= j / 8) by (apply Z.div_pos; lia).
  rewrite znth_zupd by auto. assert (M : 0 <= i mod 8) by (apply Z.mod_pos_bound; lia). assert (N : 0 <= j mod 8) by (apply Z.mod_pos_bound; lia). destruct (Z.eqb_spec (j / 8) (i / 8)) as [E|E].
  - rewrite Z.lor_spec, E. f_equal. rewrite Z.shiftl_1_l, Z.pow2_bits_eqb by auto.
    destruct (Z.eqb_spec (i mod 8) (j mod 8)) as [F|F]; destruct (Z.eqb_spec i j) as [G|G]; auto; exfalso; [apply G|apply F; now subst].
    rewrite (Z.div_mod i 8), (Z.div_mod j 8) by lia. now rewrite E, F.
  - destruct (Z.eqb_spec i j) as [G|G]; [subst; contradiction|]. now rewrite orb_false_r.
Qed.
Lemma set_run_bits_flag r i bm j : 0 <= i -> i + zlen r <= 8 * zlen bm -> 0 <= j ->
  flagbit (set_run_bits r i bm) j = flagbit bm j || ((i <=? j) && isr r (j - i)).
Proof.
  revert i bm. induction r as [|[k c] t IH]; intros i bm Hi L Hj; cbn [set_run_bits].
  - unfold isr. destruct (Z.to_nat (j - i)); cbn; now rewrite andb_false_r, orb_false_r.
  - rewrite zlen_cons in L. pose proof (zlen_nonneg t). rewrite IH; try lia. 2:{ destruct (is_run c); rewrite ?zupd_zlen; lia. }
    assert (F : flagbit (if is_run c then zupd (i / 8) (Z.lor (znth bm (i / 8)) (Z.shiftl 1 (i mod 8))) bm else bm) j = flagbit bm j || (is_run c && (i =? j))).
    { destruct (is_run c); cbn [andb]; [apply flagbit_set; lia|now rewrite orb_false_r]. }
    rewrite F, <- orb_assoc. f_equal. destruct (Z.eqb_spec i j) as [E|E].
    + subst j. rewrite (proj2 (Z.leb_gt (i + 1) i)), (proj2 (Z.leb_le i i)) by lia. rewrite Z.sub_diag. cbn. now rewrite andb_true_r, orb_false_r.
    + rewrite andb_false_r. cbn [orb]. destruct (Z.leb_spec (i + 1) j).
      * rewrite (proj2 (Z.leb_le i j)) by lia. cbn [andb]. unfold isr. replace (Z.to_nat (j - i)) with (S (Z.to_nat (j - (i + 1)))) by lia. reflexivity.
      * rewrite (proj2 (Z.leb_gt i j)) by lia. reflexivity.
Qed.
Lemma run_flags_flag r j : 0 <= j < zlen r -> flagbit (run_flags r) j = isr r j.
Proof.
  intros H. unfold run_flags. rewrite set_run_bits_flag; try lia.
  - rewrite (proj2 (Z.leb_le 0 j)), Z.sub_0_r by lia. cbn [andb]. replace (flagbit _ j) with false; auto.
    unfold flagbit, znth. rewrite nth_repeat. now rewrite Z.bits_0.
  - unfold zlen at 2. rewrite repeat_length, Z2Nat.id by (apply Z.div_pos; lia). dm.
Qed.
Lemma lor_byte a b : 0 <= a < 256 -> 0 <= b < 256 -> 0 <= Z.lor a b < 256.
Proof.
  intros A B. split. { apply Z.lor_nonneg. lia. }
  destruct (Z.eq_dec (Z.lor a b) 0) as [E|E]; [lia|].
  assert (0 <= Z.lor a b) by (apply Z.lor_nonneg; lia).
  apply (Z.log2_lt_pow2 _ 8); [lia|]. rewrite Z.log2_lor by lia.
  destruct (Z.max_spec (Z.log2 a) (Z.log2 b)) as [[_ ->]|[_ ->]].
  - destruct (Z.eq_dec b 0); [subst; cbn; lia|]. apply Z.log2_lt_pow2; lia.
  - destruct (Z.eq_dec a 0); [subst; cbn; lia|]. apply Z.log2_lt_pow2; lia.
Qed.
Lemma bytes_znth l i : bytes l -> 0 <= znth l i < 256.
Proof.
  intros H. unfold znth. destruct (Nat.lt_ge_cases (Z.to_nat i) (length l)) as [A|A].
  - unfold bytes in H. rewrite Forall_forall in H. apply H. now apply nth_In.
  - rewrite nth_overflow by auto. lia.
Qed.
Lemma set_run_bits_bytes r i bm : bytes bm -> bytes (set_run_bits r i bm).
Proof.
  revert i bm. induction r as [|[k c] t IH]; intros i bm H; cbn [set_run_bits]; auto. apply IH. destruct (is_run c); auto.
  apply Forall_upd; auto. apply lor_byte. { now apply bytes_znth. }
  rewrite Z.shiftl_1_l. pose proof (Z.mod_pos_bound i 8 ltac:(lia)). split; [apply Z.pow_nonneg; lia|]. change 256 with (2 ^ 8). apply Z.pow_lt_mono_r; lia.
Qed.
Lemma run_flags_bytes r : bytes (run_flags r).
Proof. apply set_run_bits_bytes. apply Forall_forall. intros x Hx. apply repeat_spec in Hx. lia. Qed.
Lemma pbytes_bytes r : bytes (pbytes r).
Proof.
  unfold pbytes. rewrite !bytes_app. repeat split.
  - unfold head_bytes. destruct (ra_has_run_container r); apply bytes_app; split; try apply le_bytes. apply run_flags_bytes.
  - induction r as [|[k c] t IH]; [constructor|]. rewrite keycards_cons, !bytes_app. repeat split; auto using le_bytes.
  - unfold offset_bytes. destruct (has_offsets r); [apply les_bytes|constructor].
  - induction r as [|[k c] t IH]; [constructor|]. rewrite payloads_cons, bytes_app. split; auto.
    destruct c; cbn [payload]; rewrite ?bytes_app; auto using les_bytes, le_bytes.
Qed.

(** ** Reading back *)
Lemma rdv1_at pre l post off j : off = zlen pre -> 0 <= j < zlen l -> rdv 1 (pre ++ l ++ post) (off + j) = Some (znth l j).
Proof.
  intros -> H. assert (E : l = zfirst j l ++ znth l j :: zdrop (j + 1) l).
  { unfold znth. rewrite <- (zdrop_S 0 j l) by lia. now rewrite zfirst_zdrop. }
  rewrite E at 1. rewrite <- app_assoc, app_assoc. cbn [app]. change (znth l j :: ?x) with ([znth l j] ++ x).
  rewrite (rdv_at 1 (pre ++ zfirst j l) [znth l j]). { cbn [le_val]. f_equal. lia. }
  - rewrite zlen_app, zfirst_zlen by lia. reflexivity.
  - reflexivity.
Qed.
Lemma read_isrun_flags pre r post bmo j : bmo = zlen pre -> 0 <= j < zlen r -> read_isrun (pre ++ run_flags r ++ post) true bmo j = Some (isr r j).
Proof.
  intros E H. unfold read_isrun. rewrite rdv1_at; auto. 2:{ rewrite run_flags_zlen. dm. }
  cbn [option_map]. rewrite land_bit by (apply Z.mod_pos_bound; lia). f_equal. apply run_flags_flag. auto.
Qed.
Lemma read_keys_back pre post r : Forall (fun k => 0 <= k < 65536) (rkeys r) ->
  forall d t, r = d ++ t -> read_keys (pre ++ keycards r ++ post) (zlen pre) (length t) (zlen d) = Some (rkeys t).
Proof.
  intros K d t. revert d. induction t as [|[k c] t IH]; intros d E; auto. cbn [length read_keys].
  assert (B : 0 <= k < 65536). { rewrite Forall_forall in K. apply K. subst r. unfold rkeys. rewrite map_app. apply in_or_app. right. now left. }
  replace (rdv 2 (pre ++ keycards r ++ post) (zlen pre + 2 * (2 * zlen d))) with (Some k).
  - cbn [obind]. replace (zlen d + 1) with (zlen (d ++ [(k, c)])) by (rewrite zlen_app; reflexivity). rewrite IH. { reflexivity. } subst r. now rewrite <- app_assoc.
  - symmetry. subst r. rewrite keycards_app, keycards_cons. rewrite <- !app_assoc. rewrite app_assoc. apply rdv_le; auto.
    rewrite zlen_app, keycards_zlen. lia.
Qed.
Lemma read_card_back pre post r d k c t off : r = d ++ (k, c) :: t -> cok c -> off = zlen pre ->
  rdv 2 (pre ++ keycards r ++ post) (off + 2 * (2 * zlen d + 1)) = Some (container_get_cardinality c - 1).
Proof.
  intros -> D ->. rewrite keycards_app, keycards_cons. rewrite <- !app_assoc.
  replace (pre ++ keycards d ++ le 2 k ++ le 2 (u16 (container_get_cardinality c - 1)) ++ keycards t ++ post)
    with ((pre ++ keycards d ++ le 2 k) ++ le 2 (u16 (container_get_cardinality c - 1)) ++ keycards t ++ post) by (now rewrite <- !app_assoc).
  pose proof (ccard_le c D). rewrite u16_small by lia. apply rdv_le; [|change (256 ^ Z.of_nat 2) with 65536; lia].
  rewrite !zlen_app, keycards_zlen, le_zlen. lia.
Qed.
Lemma pair_up_words x : pair_up (run_words x) = x.
Proof. induction x as [|[a b] t IH]; auto. change (run_words ((a, b) :: t)) with (a :: b :: run_words t). cbn [pair_up]. now rewrite IH. Qed.
Lemma run_words_range x : rwf x -> Forall (fun v => 0 <= v < 65536) (run_words x).
Proof.
  intros R. assert (T : forall a b, In (a, b) x -> 0 <= a < 65536 /\ 0 <= b < 65536).
  { intros a b Hi. destruct (rok_In _ _ _ _ R Hi) as (A&B&C). lia. }
  clear R. revert T. induction x as [|[a b] y IH]; intros T; [constructor|].
  change (run_words ((a, b) :: y)) with (a :: b :: run_words y). destruct (T a b) as [A B]; [now left|].
  constructor; auto. constructor; auto. apply IH. intros. apply T. now right.
Qed.
Lemma rd_mid pre a post off n : off = zlen pre -> n = zlen a -> rd (pre ++ a ++ post) off n = Some a.
Proof. apply rd_at. Qed.
Lemma array_read_back pre a post : inb 0 65536 a -> array_container_read (zlen a) (pre ++ les 2 a ++ post) (zlen pre) = Some a.
Proof.
  intros H. unfold array_container_read. rewrite rd_mid; auto. 2:{ rewrite les_zlen. lia. } cbn [option_map]. f_equal.
  replace (Z.to_nat (zlen a)) with (length a) by (unfold zlen; lia). rewrite <- (app_nil_r (les 2 a)). now apply le_vals_les.
Qed.
Lemma bitset_read_back pre b post card : bws (b_words b) -> card = b_card b -> bitset_container_read card (pre ++ les 8 (b_words b) ++ post) (zlen pre) = Some b.
Proof.
  intros [W L] ->. unfold bitset_container_read. rewrite rd_mid; auto. 2:{ rewrite les_zlen, L. reflexivity. } cbn [option_map]. f_equal.
  rewrite <- (app_nil_r (les 8 (b_words b))). replace 1024%nat with (length (b_words b)) by (unfold zlen in L; lia).
  rewrite le_vals_les; [now destruct b|]. exact W.
Qed.
Lemma run_read_back pre x post : rwf x -> zlen x < 65536 -> run_container_read (pre ++ payload (CRun x) ++ post) (zlen pre) = Some x.
Proof.
  intros R L. unfold run_container_read. cbn [payload]. pose proof (zlen_nonneg x). rewrite <- app_assoc, rdv_le; auto.
  2:{ unfold u16. apply Z.mod_pos_bound. lia. }
  cbn [obind]. rewrite u16_small by lia. rewrite app_assoc. rewrite rd_mid.
  - cbn [option_map]. f_equal. rewrite <- (app_nil_r (les 2 (run_words x))).
    replace (2 * Z.to_nat (zlen x))%nat with (length (run_words x)). 2:{ pose proof (run_words_zlen x). unfold zlen in *. lia. }
    rewrite le_vals_les by exact (run_words_range x R). apply pair_up_words.
  - now rewrite zlen_app, le_zlen.
  - rewrite les_zlen, run_words_zlen. lia.
Qed.
Lemma size_nonneg c : 0 <= container_size_in_bytes c.
Proof. destruct c; cbn [container_size_in_bytes]; try lia; match goal with |- context [zlen ?l] => pose proof (zlen_nonneg l) end; lia. Qed.
Lemma tot_size_nonneg r : 0 <= tot container_size_in_bytes r.
Proof. induction r as [|[k c] t IH]; cbn [tot]; [lia|]. pose proof (size_nonneg c). lia. Qed.
Lemma rwf_zlen x : rwf x -> 2 * zlen x <= 65537.
Proof.
  unfold rwf. assert (G : forall x lo, 0 <= lo -> rok lo x -> 2 * zlen x <= Z.max 0 (65537 - lo)).
  { clear. induction x as [|[v l] t IH]; intros lo L R; [change (2 * 0 <= Z.max 0 (65537 - lo)); lia|]. cbn [rok] in R. destruct R as (A&B&C&D).
    specialize (IH (v + l + 2) ltac:(lia) D). rewrite zlen_cons. lia. }
  intros R. specialize (G x 0 ltac:(lia) R). lia.
Qed.
Lemma ccard_arr a : cok (CArr a) -> container_get_cardinality (CArr a) = zlen a. Proof. reflexivity. Qed.
Lemma read_containers_back buf maxbytes hasrun bmo kc r tail :
  Forall (fun p : entry => cok (snd p)) r ->
  (forall d k c t, r = d ++ (k, c) :: t -> rdv 2 buf (kc + 2 * (2 * zlen d + 1)) = Some (container_get_cardinality c - 1) /\
     read_isrun buf hasrun bmo (zlen d) = Some (is_run c)) ->
  forall t d pre rb, r = d ++ t -> buf = pre ++ payloads t ++ tail -> rb + tot container_size_in_bytes t <= maxbytes ->
  read_containers buf maxbytes hasrun bmo kc (length t) (zlen d) (zlen pre) rb = Ok (map snd t, rb + tot container_size_in_bytes t).
Proof.
  intros D Hr. induction t as [|[k c] t IH]; intros d pre rb E B L. { cbn. now rewrite Z.add_0_r. }
  cbn [length read_containers map snd]. destruct (Hr d k c t E) as [-> ->].
  assert (Dc : cok c). { subst r. apply Forall_app in D as [_ D]. now inversion D. }
  assert (Dt : ctyped c) by now apply cok_ctyped.
  rewrite payloads_cons, <- app_assoc in B. cbn [tot] in *. pose proof (tot_size_nonneg t). pose proof (size_nonneg c) as SN.
  assert (REC : read_containers buf maxbytes hasrun bmo kc (length t) (zlen d + 1) (zlen pre + container_size_in_bytes c) (rb + container_size_in_bytes c)
    = Ok (map snd t, rb + container_size_in_bytes c + tot container_size_in_bytes t)).
  { replace (zlen d + 1) with (zlen (d ++ [(k, c)])) by (rewrite zlen_app; reflexivity).
    replace (zlen pre + container_size_in_bytes c) with (zlen (pre ++ payload c)) by (now rewrite zlen_app, payload_zlen).
    apply IH; [subst r; now rewrite <- app_assoc|subst buf; now rewrite <- app_assoc|lia]. }
  rewrite Z.add_assoc. pose proof (ccard_le c Dc) as CB. replace (container_get_cardinality c - 1 + 1) with (container_get_cardinality c) by lia.
  destruct c as [a|b|x]; cbn [is_run negb andb].
  - rewrite ccard_arr in * by auto. cbn [cok] in Dc. rewrite (proj2 (Z.ltb_ge 4096 (zlen a))) by lia. cbn [andb].
    cbn [container_size_in_bytes] in *. rewrite (proj2 (Z.ltb_ge maxbytes _)) by lia.
    replace (array_container_read (zlen a) buf (zlen pre)) with (Some a). 2:{ symmetry. subst buf. apply array_read_back. exact Dt. }
    now rewrite REC.
  - cbn [cok] in Dc. destruct Dc as [Db Dc]. assert (CE : container_get_cardinality (CBit b) = b_card b) by reflexivity. rewrite CE in *.
    rewrite (proj2 (Z.ltb_lt 4096 (b_card b))) by lia. cbn [andb]. cbn [container_size_in_bytes] in *. rewrite (proj2 (Z.ltb_ge maxbytes _)) by lia.
    replace (bitset_container_read (b_card b) buf (zlen pre)) with (Some b). 2:{ symmetry. subst buf. now apply bitset_read_back. }
    now rewrite REC.
  - rewrite andb_false_r. cbn [cok] in Dc. pose proof (rwf_zlen x (proj1 Dc)) as LX. cbn [container_size_in_bytes] in *. pose proof (zlen_nonneg x).
    rewrite (proj2 (Z.ltb_ge maxbytes (rb + 2))) by lia.
    replace (rdv 2 buf (zlen pre)) with (Some (zlen x)).
    2:{ symmetry. subst buf. cbn [payload]. rewrite <- app_assoc. rewrite u16_small by lia. apply rdv_le; auto. change (256 ^ Z.of_nat 2) with 65536. lia. }
    rewrite (proj2 (Z.ltb_ge maxbytes (rb + 2 + zlen x * 4))) by lia.
    replace (run_container_read buf (zlen pre)) with (Some x). 2:{ symmetry. subst buf. apply run_read_back; [apply Dc|lia]. }
    replace (rb + 2 + zlen x * 4) with (rb + (2 + 4 * zlen x)) by lia. now rewrite REC.
Qed.
Lemma combine_split r : combine (rkeys r) (map snd r) = r.
Proof. unfold rkeys. induction r as [|[k c] t IH]; auto. cbn [map combine fst snd]. now rewrite IH. Qed.
Lemma isr_split d k c t : isr (d ++ (k, c) :: t) (zlen d) = is_run c.
Proof. unfold isr. replace (Z.to_nat (zlen d)) with (length d) by (unfold zlen; lia). rewrite nth_error_app2, Nat.sub_diag by lia. reflexivity. Qed.
Lemma has_run_false r d k c t : ra_has_run_container r = false -> r = d ++ (k, c) :: t -> is_run c = false.
Proof.
  intros H ->. unfold ra_has_run_container in H. rewrite existsb_app in H. apply orb_false_iff in H as [_ H]. cbn in H. now apply orb_false_iff in H.
Qed.
Lemma cookie_run size : 1 <= size <= 65536 ->
  let c := Z.lor 12347 (u32 (Z.shiftl (size - 1) 16)) in 0 <= c < 256 ^ Z.of_nat 4 /\ Z.land c 65535 = 12347 /\ Z.shiftr c 16 + 1 = size.
Proof.
  intros H c. assert (E : c = 12347 + (size - 1) * 65536).
  { unfold c, u32. rewrite Z.shiftl_mul_pow2 by lia. rewrite Z.mod_small by lia. rewrite Z.lor_comm. change (2 ^ 16) with 65536.
    assert (ND : Z.land ((size - 1) * 65536) 12347 = 0).
    { apply Z.bits_inj'. intros n Hn. rewrite Z.land_spec, Z.bits_0. change 65536 with (2 ^ 16). destruct (Z_lt_dec n 16).
      + rewrite Z.mul_pow2_bits_low by lia. reflexivity.
      + rewrite (Z.bits_above_log2 12347 n); [apply andb_false_r|lia|]. change (Z.log2 12347) with 13. lia. }
    symmetry. rewrite Z.add_comm, <- Z.lxor_lor by auto. now apply Z.add_nocarry_lxor. }
  rewrite E. split; [change (256 ^ Z.of_nat 4) with 4294967296; lia|]. split.
  - change 65535 with (Z.ones 16). rewrite Z.land_ones by lia. change (2 ^ 16) with 65536. rewrite Z_mod_plus_full. reflexivity.
  - rewrite Z.shiftr_div_pow2 by lia. change (2 ^ 16) with 65536. rewrite Z_div_plus_full by lia. change (12347 / 65536) with 0. lia.
Qed.
(** reading what was written, whatever follows it *)
Theorem portable_round_trip r post maxbytes : bok r -> ra_portable_size_in_bytes r <= maxbytes ->
  ra_portable_deserialize (pbytes r ++ post) maxbytes = Ok (r, ra_portable_size_in_bytes r).
Proof.
  intros B L. pose proof (bok_typed r B) as [TK TD]. assert (D : Forall (fun p : entry => cok (snd p)) r) by apply B.
  pose proof (gok_size cok 0 r B ltac:(lia)) as SZ. pose proof (zlen_nonneg r) as SP.
  rewrite <- pbytes_zlen in * by (auto; lia). pose proof (payloads_zlen r TD) as PZ.
  pose proof (tot_size_nonneg r) as TP.
  unfold ra_portable_deserialize. unfold pbytes in *. rewrite !zlen_app, keycards_zlen in *.
  unfold head_bytes, offset_bytes, has_offsets in *. destruct (ra_has_run_container r) eqn:HR; cbn [negb orb andb] in *.
  - assert (S1 : 1 <= zlen r). { destruct r; [discriminate|]. rewrite zlen_cons. pose proof (zlen_nonneg r). lia. }
    destruct (cookie_run (zlen r) ltac:(lia)) as (C1&C2&C3). set (ck := Z.lor 12347 (u32 (Z.shiftl (zlen r - 1) 16))) in *. clearbody ck.
    assert (FZ : 0 <= (zlen r + 7) / 8) by (apply Z.div_pos; lia).
    rewrite zlen_app, le_zlen, run_flags_zlen in *. set (ob := if 4 <=? zlen r then les 4 (offs r (start_offset r)) else []) in *.
    assert (OZ : zlen ob = if 4 <=? zlen r then 4 * zlen r else 0). { unfold ob. destruct (4 <=? zlen r); auto. rewrite les_zlen, offs_zlen. lia. }
    pose proof (zlen_nonneg ob). 
    rewrite (proj2 (Z.ltb_ge maxbytes 4)) by lia.
    replace (rdv 4 (((le 4 ck ++ run_flags r) ++ keycards r ++ ob ++ payloads r) ++ post) 0) with (Some ck).
    2:{ symmetry. rewrite <- !app_assoc. apply (rdv_le 4 []); auto. }
    rewrite C2, Z.eqb_refl. cbn [negb andb]. rewrite C3.
    rewrite (proj2 (Z.ltb_ge (zlen r) 0)), (proj2 (Z.ltb_ge 65536 (zlen r))) by lia.
    rewrite (proj2 (Z.ltb_ge maxbytes (4 + (zlen r + 7) / 8))), (proj2 (Z.ltb_ge maxbytes (4 + (zlen r + 7) / 8 + zlen r * 4))) by lia.
    set (buf := ((le 4 ck ++ run_flags r) ++ keycards r ++ ob ++ payloads r) ++ post).
    assert (E1 : buf = (le 4 ck ++ run_flags r) ++ keycards r ++ (ob ++ payloads r ++ post)) by (unfold buf; now rewrite <- !app_assoc).
    assert (E2 : buf = le 4 ck ++ run_flags r ++ (keycards r ++ ob ++ payloads r ++ post)) by (unfold buf; now rewrite <- !app_assoc).
    assert (E3 : buf = (le 4 ck ++ run_flags r ++ keycards r ++ ob) ++ payloads r ++ post) by (unfold buf; now rewrite <- !app_assoc).
    replace (4 + (zlen r + 7) / 8) with (zlen (le 4 ck ++ run_flags r)) by (rewrite zlen_app, le_zlen, run_flags_zlen; reflexivity).
    replace (read_keys buf (zlen (le 4 ck ++ run_flags r)) (Z.to_nat (zlen r)) 0) with (Some (rkeys r)).
    2:{ symmetry. rewrite E1. replace (Z.to_nat (zlen r)) with (length r) by (unfold zlen; lia). now apply (read_keys_back _ _ r TK [] r). }
    cbn [orb]. replace (if 4 <=? zlen r then zlen (le 4 ck ++ run_flags r) + zlen r * 4 + zlen r * 4 else zlen (le 4 ck ++ run_flags r) + zlen r * 4)
      with (zlen (le 4 ck ++ run_flags r ++ keycards r ++ ob)).
    2:{ rewrite !zlen_app, keycards_zlen, OZ. destruct (4 <=? zlen r); lia. }
    assert (PT : zlen (le 4 ck ++ run_flags r ++ keycards r ++ ob) + tot container_size_in_bytes r <= maxbytes). { rewrite !zlen_app, keycards_zlen, le_zlen, run_flags_zlen. lia. }
    rewrite (proj2 (Z.ltb_ge maxbytes _)) by lia. rewrite andb_false_r.
    replace (Z.to_nat (zlen r)) with (length r) by (unfold zlen; lia).
    rewrite (read_containers_back buf maxbytes true 4 _ r post D) with (d := []) (pre := le 4 ck ++ run_flags r ++ keycards r ++ ob); auto.
    + rewrite combine_split. do 2 f_equal. rewrite !zlen_app, keycards_zlen, le_zlen, run_flags_zlen. lia.
    + intros d k c t E. split.
      * rewrite E1. apply (read_card_back _ _ r d k c t); auto. subst r. apply Forall_app in D as [_ D]. now inversion D.
      * rewrite E2. rewrite read_isrun_flags; auto. { subst r. now rewrite isr_split. } subst r. rewrite zlen_app, zlen_cons. pose proof (zlen_nonneg d). pose proof (zlen_nonneg t). lia.
  - rewrite zlen_app, !le_zlen, les_zlen, offs_zlen in *. set (ob := les 4 (offs r (start_offset r))) in *.
    assert (OZ : zlen ob = 4 * zlen r). { unfold ob. rewrite les_zlen, offs_zlen. lia. }
    rewrite (proj2 (Z.ltb_ge maxbytes 4)), (proj2 (Z.ltb_ge maxbytes (4 + 4))) by lia.
    replace (rdv 4 (((le 4 12346 ++ le 4 (zlen r)) ++ keycards r ++ ob ++ payloads r) ++ post) 0) with (Some 12346).
    2:{ symmetry. rewrite <- !app_assoc. apply (rdv_le 4 []); auto. change (256 ^ Z.of_nat 4) with 4294967296. lia. }
    replace (rdv 4 (((le 4 12346 ++ le 4 (zlen r)) ++ keycards r ++ ob ++ payloads r) ++ post) 4) with (Some (zlen r)).
    2:{ symmetry. rewrite <- !app_assoc. apply rdv_le; auto. change (256 ^ Z.of_nat 4) with 4294967296. lia. }
    change (Z.land 12346 65535 =? 12347) with false. cbn [negb andb orb Z.eqb Pos.eqb].
    replace (s32 (zlen r)) with (zlen r). 2:{ unfold s32. rewrite (proj2 (Z.ltb_lt (zlen r) (2^31))); lia. }
    rewrite (proj2 (Z.ltb_ge (zlen r) 0)), (proj2 (Z.ltb_ge 65536 (zlen r))) by lia.
    set (buf := ((le 4 12346 ++ le 4 (zlen r)) ++ keycards r ++ ob ++ payloads r) ++ post).
    assert (E1 : buf = (le 4 12346 ++ le 4 (zlen r)) ++ keycards r ++ (ob ++ payloads r ++ post)) by (unfold buf; now rewrite <- !app_assoc).
    assert (E3 : buf = (le 4 12346 ++ le 4 (zlen r) ++ keycards r ++ ob) ++ payloads r ++ post) by (unfold buf; now rewrite <- !app_assoc).
    change (4 + 4 + 0) with 8. rewrite (proj2 (Z.ltb_ge maxbytes (8 + zlen r * 4))), (proj2 (Z.ltb_ge maxbytes (8 + zlen r * 4 + zlen r * 4))) by lia.
    replace (read_keys buf 8 (Z.to_nat (zlen r)) 0) with (Some (rkeys r)).
    2:{ symmetry. rewrite E1. replace (Z.to_nat (zlen r)) with (length r) by (unfold zlen; lia). now apply (read_keys_back (le 4 12346 ++ le 4 (zlen r)) _ r TK [] r). }
    replace (8 + zlen r * 4 + zlen r * 4) with (zlen (le 4 12346 ++ le 4 (zlen r) ++ keycards r ++ ob)).
    2:{ rewrite !zlen_app, keycards_zlen, !le_zlen, OZ. lia. }
    replace (Z.to_nat (zlen r)) with (length r) by (unfold zlen; lia).
    rewrite (read_containers_back buf maxbytes false (4 + 4) 8 r post D) with (d := []) (pre := le 4 12346 ++ le 4 (zlen r) ++ keycards r ++ ob); auto.
    + rewrite combine_split. do 2 f_equal. rewrite !zlen_app, keycards_zlen, !le_zlen. lia.
    + intros d k c t E. split.
      * rewrite E1. apply (read_card_back (le 4 12346 ++ le 4 (zlen r)) _ r d k c t); auto. subst r. apply Forall_app in D as [_ D]. now inversion D.
      * cbn [read_isrun]. now rewrite (has_run_false r d k c t).
    + rewrite !zlen_app, keycards_zlen, !le_zlen. lia.
Qed.

(** * Arbitrary input *)
Lemma rd_in_range a b off n : 0 <= off -> 0 <= n -> off + n <= zlen a -> rd (a ++ b) off n = rd a off n /\ exists l, rd a off n = Some l.
Proof. intros. split; [now apply rd_prefix|]. rewrite rd_some by lia. eauto. Qed.
Lemma rdv_in_range w a b off : 0 <= off -> off + Z.of_nat w <= zlen a -> rdv w (a ++ b) off = rdv w a off /\ exists v, rdv w a off = Some v.
Proof. intros. split; [now apply rdv_prefix|]. apply rdv_some; lia. Qed.
Lemma read_isrun_in a b hasrun bmo k : 0 <= bmo -> 0 <= k -> (hasrun = true -> bmo + k / 8 < zlen a) ->
  read_isrun (a ++ b) hasrun bmo k = read_isrun a hasrun bmo k /\ exists v, read_isrun a hasrun bmo k = Some v.
Proof.
  intros B K H. unfold read_isrun. destruct hasrun; [|eauto]. assert (0 <= k / 8) by (apply Z.div_pos; lia).
  destruct (rdv_in_range 1 a b (bmo + k / 8)) as [E [v F]]; [lia|specialize (H eq_refl); lia|]. rewrite E, F. cbn. eauto.
Qed.
Lemma pair_up_range w l : Forall (fun v => 0 <= v < w) l -> Forall (fun x : run => 0 <= fst x < w /\ 0 <= snd x < w) (pair_up l).
Proof.
  revert l. fix IH 1. intros [|u [|v l]] H; cbn [pair_up]; try constructor.
  - inversion H as [|? ? A H']. inversion H'. cbn. auto.
  - apply IH. inversion H as [|? ? A H']. now inversion H'.
Qed.
Lemma pair_up_zlen n : forall l, length l = (2 * n)%nat -> zlen (pair_up l) = Z.of_nat n.
Proof.
  induction n; intros l E. { destruct l; [reflexivity|discriminate]. }
  destruct l as [|u [|v l]]; cbn [length] in E; try lia. cbn [pair_up]. rewrite zlen_cons, IHn; lia.
Qed.
Definition read_ok (n : nat) (maxbytes rb : Z) (x : res (list container * Z)) (y : res Z) : Prop :=
  match x with
  | UB => False
  | Fail => y = Fail
  | Ok (cs, rb') => y = Ok rb' /\ rb <= rb' <= maxbytes /\ length cs = n /\ Forall ctyped cs
  end.
Lemma read_containers_safe a b maxbytes hasrun bmo kc : bytes a -> 0 <= bmo -> 0 <= kc -> maxbytes <= zlen a ->
  forall n k off rb, 0 <= k -> 0 <= off -> off = rb -> rb <= maxbytes -> kc + 4 * (k + Z.of_nat n) <= zlen a ->
  (hasrun = true -> bmo + (k + Z.of_nat n + 7) / 8 <= zlen a) ->
  read_containers (a ++ b) maxbytes hasrun bmo kc n k off rb = read_containers a maxbytes hasrun bmo kc n k off rb /\
  size_containers (a ++ b) maxbytes hasrun bmo kc n k off rb = size_containers a maxbytes hasrun bmo kc n k off rb /\
  read_ok n maxbytes rb (read_containers a maxbytes hasrun bmo kc n k off rb) (size_containers a maxbytes hasrun bmo kc n k off rb).
Proof.
  intros BA HB HK HM. induction n as [|n IH]; intros k off rb Pk Po Eo Hr Hkc Hbm.
  { cbn. repeat split; auto; lia. }
  cbn [read_containers size_containers].
  destruct (rdv_in_range 2 a b (kc + 2 * (2 * k + 1))) as [E1 [tmp F1]]; [lia|lia|]. rewrite E1, F1.
  assert (TB : 0 <= tmp < 65536) by exact (rdv_range 2 a _ tmp BA F1).
  destruct (read_isrun_in a b hasrun bmo k HB Pk) as [E2 [isrun F2]]. { intros T. specialize (Hbm T). dm. } rewrite E2, F2.
  assert (Hbm' : hasrun = true -> bmo + (k + 1 + Z.of_nat n + 7) / 8 <= zlen a). { intros T. specialize (Hbm T). now replace (k + 1 + Z.of_nat n + 7) with (k + Z.of_nat (S n) + 7) by lia. }
  assert (STEP : forall c off' rb', ctyped c -> off' = rb' -> rb <= rb' -> rb' <= maxbytes ->
    (match read_containers (a ++ b) maxbytes hasrun bmo kc n (k + 1) off' rb' with Ok (cs, rb) => Ok (c :: cs, rb) | Fail => Fail | UB => UB end) =
    (match read_containers a maxbytes hasrun bmo kc n (k + 1) off' rb' with Ok (cs, rb) => Ok (c :: cs, rb) | Fail => Fail | UB => UB end) /\
    size_containers (a ++ b) maxbytes hasrun bmo kc n (k + 1) off' rb' = size_containers a maxbytes hasrun bmo kc n (k + 1) off' rb' /\
    read_ok (S n) maxbytes rb (match read_containers a maxbytes hasrun bmo kc n (k + 1) off' rb' with Ok (cs, rb) => Ok (c :: cs, rb) | Fail => Fail | UB => UB end)
      (size_containers a maxbytes hasrun bmo kc n (k + 1) off' rb')).
  { intros c off' rb' Tc Eo' G1 G2. destruct (IH (k + 1) off' rb') as (I1&I2&I3); try lia; auto. rewrite I1, I2. repeat split; auto.
    unfold read_ok in *. destruct (read_containers a maxbytes hasrun bmo kc n (k + 1) off' rb') as [| |[cs rb'']]; auto.
    destruct I3 as (J1&J2&J3&J4). repeat split; auto; try lia. cbn. lia. }
  destruct ((4096 <? tmp + 1) && negb isrun).
  - destruct (Z.ltb_spec maxbytes (rb + 8192)). { repeat split. }
    unfold bitset_container_read. destruct (rd_in_range a b off 8192) as [E3 [l F3]]; try lia. rewrite E3, F3. cbn [option_map].
    apply STEP; try lia. cbn [ctyped b_words snd]. split; [|now rewrite le_vals_zlen].
    exact (le_vals_range 8 1024 l (rd_bytes _ _ _ _ BA F3)).
  - destruct isrun.
    + destruct (Z.ltb_spec maxbytes (rb + 2)). { repeat split. }
      unfold run_container_read. destruct (rdv_in_range 2 a b off) as [E3 [nr F3]]; try lia. rewrite E3, F3. cbn [obind].
      assert (NB : 0 <= nr < 65536) by exact (rdv_range 2 a _ nr BA F3).
      destruct (Z.ltb_spec maxbytes (rb + 2 + nr * 4)). { repeat split. }
      destruct (rd_in_range a b (off + 2) (nr * 4)) as [E4 [l F4]]; try lia. rewrite E4, F4. cbn [option_map].
      rewrite (pair_up_zlen (Z.to_nat nr)) by apply le_vals_length.
      replace (off + (2 + 4 * Z.of_nat (Z.to_nat nr))) with (off + 2 + nr * 4) by lia. apply STEP; try lia.
      cbn [ctyped]. apply pair_up_range. exact (le_vals_range 2 _ l (rd_bytes _ _ _ _ BA F4)).
    + destruct (Z.ltb_spec maxbytes (rb + (tmp + 1) * 2)). { repeat split. }
      unfold array_container_read. destruct (rd_in_range a b off ((tmp + 1) * 2)) as [E3 [l F3]]; try lia. rewrite E3, F3. cbn [option_map].
      apply STEP; try lia. cbn [ctyped]. exact (le_vals_range 2 _ l (rd_bytes _ _ _ _ BA F3)).
Qed.
Lemma read_keys_safe a b kc : bytes a -> 0 <= kc -> forall n k, 0 <= k -> kc + 4 * (k + Z.of_nat n) <= zlen a ->
  read_keys (a ++ b) kc n k = read_keys a kc n k /\ exists ks, read_keys a kc n k = Some ks /\ length ks = n /\ inb 0 65536 ks.
Proof.
  intros BA HK. induction n as [|n IH]; intros k Pk L. { cbn. split; auto. exists []. repeat split; constructor. }
  cbn [read_keys]. destruct (rdv_in_range 2 a b (kc + 2 * (2 * k))) as [E [v F]]; try lia. rewrite E, F. cbn [obind].
  destruct (IH (k + 1)) as (I1&ks&I2&I3&I4); try lia. rewrite I1, I2. cbn [option_map]. split; auto. exists (v :: ks). repeat split; cbn; auto.
  constructor; auto. exact (rdv_range 2 a _ v BA F).
Qed.
(** what a reader may answer about [maxbytes] bytes *)
Definition des_ok (maxbytes : Z) (x : res (bitmap * Z)) (y : res Z) : Prop :=
  match x with
  | UB => False
  | Fail => y = Fail
  | Ok (r, n) => y = Ok n /\ 4 <= n <= maxbytes /\ typed r /\ zlen r <= 65536
  end.
Lemma Forall_combine_snd {A B} (P : B -> Prop) (l : list A) (m : list B) : Forall P m -> Forall (fun p => P (snd p)) (combine l m).
Proof. revert m. induction l; intros m H; cbn; [constructor|]. destruct m; [constructor|]. inversion H; subst. constructor; auto. Qed.
Lemma combine_typed ks cs n : length ks = n -> length cs = n -> inb 0 65536 ks -> Forall ctyped cs -> typed (combine ks cs) /\ zlen (combine ks cs) = Z.of_nat n.
Proof.
  intros A B K D. split; [split|].
  - replace (rkeys (combine ks cs)) with ks; auto. unfold rkeys. revert cs n A B D. clear K. induction ks as [|x ks IH]; intros [|c cs] n A B D; cbn in *; auto; try lia.
    f_equal. inversion D. apply (IH cs (length ks)); auto; lia.
  - now apply (Forall_combine_snd ctyped).
  - unfold zlen. rewrite combine_length. lia.
Qed.
Theorem portable_deserialize_safe_any a b maxbytes : bytes a -> maxbytes <= zlen a ->
  ra_portable_deserialize (a ++ b) maxbytes = ra_portable_deserialize a maxbytes /\
  ra_portable_deserialize_size (a ++ b) maxbytes = ra_portable_deserialize_size a maxbytes /\
  des_ok maxbytes (ra_portable_deserialize a maxbytes) (ra_portable_deserialize_size a maxbytes).
Proof.
  intros BA HM. unfold ra_portable_deserialize, ra_portable_deserialize_size.
  destruct (Z.ltb_spec maxbytes 4). { cbn. auto. }
  destruct (rdv_in_range 4 a b 0) as [E [ck F]]; try lia. rewrite E, F.
  destruct (negb (Z.land ck 65535 =? 12347) && negb (ck =? 12346)). { cbn. auto. }
  set (hasrun := Z.land ck 65535 =? 12347).
  assert (BODY : forall size off rb, off = rb -> 4 <= rb <= maxbytes ->
    let body1 buf := (if size <? 0 then Fail else
      if 65536 <? size then Fail else
      let s := if hasrun then (size + 7) / 8 else 0 in
      let rb := rb + s in
      if hasrun && (maxbytes <? rb) then Fail else
      let bmo := off in
      let kc := off + s in
      let rb := rb + size * 4 in
      if maxbytes <? rb then Fail else
      let off := kc + size * 4 in
      match read_keys buf kc (Z.to_nat size) 0 with
      | None => UB
      | Some keys =>
        let offsets := negb hasrun || (4 <=? size) in
        let rb := if offsets then rb + size * 4 else rb in
        if offsets && (maxbytes <? rb) then Fail else
        let off := if offsets then off + size * 4 else off in
        match read_containers buf maxbytes hasrun bmo kc (Z.to_nat size) 0 off rb with
        | Ok (cs, rb) => Ok (combine keys cs, rb)
        | Fail => Fail
        | UB => UB
        end
      end) in
    let body2 buf := (if (65536 <? size) || (size <? 0) then Fail else
      let s := if hasrun then (size + 7) / 8 else 0 in
      let bytestotal := rb + s in
      if hasrun && (maxbytes <? bytestotal) then Fail else
      let bmo := off in
      let kc := off + s in
      let bytestotal := bytestotal + size * 4 in
      if maxbytes <? bytestotal then Fail else
      let off := kc + size * 4 in
      let offsets := negb hasrun || (4 <=? size) in
      let bytestotal := if offsets then bytestotal + size * 4 else bytestotal in
      if offsets && (maxbytes <? bytestotal) then Fail else
      let off := if offsets then off + size * 4 else off in
      size_containers buf maxbytes hasrun bmo kc (Z.to_nat size) 0 off bytestotal) in
    body1 (a ++ b) = body1 a /\ body2 (a ++ b) = body2 a /\ des_ok maxbytes (body1 a) (body2 a)).
  { clear E F. intros size off rb -> HR. cbv zeta. destruct (Z.ltb_spec size 0). { rewrite orb_true_r. cbn. auto. }
    destruct (Z.ltb_spec 65536 size). { cbn. auto. } cbn [orb].
    set (s := if hasrun then (size + 7) / 8 else 0). assert (SP : 0 <= s). { unfold s. destruct hasrun; [apply Z.div_pos|]; lia. }
    destruct (hasrun && (maxbytes <? rb + s)) eqn:M1. { cbn. auto. }
    destruct (Z.ltb_spec maxbytes (rb + s + size * 4)). { cbn. auto. }
    destruct (read_keys_safe a b (rb + s) BA ltac:(lia) (Z.to_nat size) 0) as (K1&ks&K2&K3&K4); try lia. rewrite K1, K2.
    set (offsets := negb hasrun || (4 <=? size)). set (rb2 := if offsets then rb + s + size * 4 + size * 4 else rb + s + size * 4).
    destruct (offsets && (maxbytes <? rb2)) eqn:M2. { cbn. auto. }
    assert (R2 : rb <= rb2 <= maxbytes). { unfold rb2 in *. destruct offsets; [|lia]. cbn [andb] in M2. apply Z.ltb_ge in M2. lia. }
    destruct (read_containers_safe a b maxbytes hasrun rb (rb + s) BA ltac:(lia) ltac:(lia) HM (Z.to_nat size) 0 rb2 rb2) as (I1&I2&I3); [lia|lia|reflexivity|lia|rewrite Z2Nat.id by lia; lia| |].
    { intros T. unfold s in *. rewrite T in *. rewrite Z2Nat.id by lia. rewrite Z.add_0_l. lia. }
    rewrite I1, I2. split; auto. split; auto. unfold read_ok in I3. destruct (read_containers a maxbytes hasrun rb (rb + s) (Z.to_nat size) 0 rb2 rb2) as [| |[cs n]]; cbn; auto.
    destruct I3 as (J1&J2&J3&J4). destruct (combine_typed ks cs _ K3 J3 K4 J4) as [T1 T2]. repeat split; auto; try apply T1; lia. }
  cbv zeta in BODY. destruct hasrun.
  - apply BODY; lia.
  - destruct (Z.ltb_spec maxbytes (4 + 4)). { cbn. auto. }
    destruct (rdv_in_range 4 a b 4) as [E3 [v F3]]; try lia. rewrite E3, F3. apply BODY; lia.
Qed.

(** * Native format *)
Lemma run_gap x : rwf x -> run_container_cardinality x + zlen x <= 65537.
Proof.
  unfold rwf, run_container_cardinality. intros R.
  assert (G : forall x lo s, 0 <= lo -> rok lo x -> fold_left (fun s (y : run) => s + snd y) x s + 2 * zlen x <= s + Z.max 0 (65537 - lo)).
  { clear. induction x as [|[v l] t IH]; intros lo s L R; cbn [fold_left].
    - change (s + 2 * 0 <= s + Z.max 0 (65537 - lo)). lia.
    - cbn [rok snd] in *. destruct R as (A&B&C&D). specialize (IH (v + l + 2) (s + l) ltac:(lia) D). rewrite zlen_cons. lia. }
  specialize (G x 0 (zlen x) ltac:(lia) R). lia.
Qed.
Lemma size_vs_card c : cok c -> container_size_in_bytes c <= 8192 + 4 * (65536 - container_get_cardinality c).
Proof.
  intros D. pose proof (ccard_le c D) as CB. destruct c as [a|b|x]; cbn [container_size_in_bytes container_get_cardinality cok] in *; try lia.
  pose proof (run_gap x (proj1 D)). lia.
Qed.
Lemma tot_size_vs_card r : Forall (fun p : entry => cok (snd p)) r ->
  tot container_size_in_bytes r <= 8192 * zlen r + 4 * (65536 * zlen r - tot container_get_cardinality r) /\ tot container_get_cardinality r <= 65536 * zlen r.
Proof.
  induction 1 as [|[k c] t D T IH]. { change (0 <= 8192 * 0 + 4 * (65536 * 0 - 0) /\ 0 <= 65536 * 0). lia. } cbn [tot snd] in *. rewrite zlen_cons. pose proof (size_vs_card c D). pose proof (ccard_le c D). lia.
Qed.
Lemma header_small r : zlen r <= 65536 -> 0 <= ra_portable_header_size r <= 700000.
Proof.
  intros L. pose proof (zlen_nonneg r). unfold ra_portable_header_size. assert (0 <= (zlen r + 7) / 8 <= 8192 + 1) by dm.
  destruct (ra_has_run_container r); [destruct (zlen r <? 4)|]; rewrite u32_in by lia; lia.
Qed.
Lemma array_format_card r : bok r -> roaring_bitmap_get_cardinality r * 4 + 4 <= ra_portable_size_in_bytes r -> 0 <= roaring_bitmap_get_cardinality r < 2^32.
Proof.
  intros B H. rewrite roaring_bitmap_get_cardinality_spec in * by auto. pose proof (cnt_bound (mem r) 0 (2^32) ltac:(lia)) as CB. fold (bcardinal r) in CB.
  split; [lia|]. destruct (Z.eq_dec (bcardinal r) (2^32)) as [E|E]; [|lia]. exfalso.
  pose proof (gok_size cok 0 r B ltac:(lia)) as SZ. rewrite ra_size_tot in H. pose proof (header_small r ltac:(lia)).
  destruct (tot_size_vs_card r) as [T1 T2]; [apply B|]. rewrite tot_cardinal in * by auto. lia.
Qed.
Definition nbytes (r : bitmap) : list Z :=
  if ra_portable_size_in_bytes r <? roaring_bitmap_get_cardinality r * 4 + 4 then 2 :: pbytes r
  else 1 :: le 4 (roaring_bitmap_get_cardinality r) ++ les 4 (elems r).
Lemma nbytes_zlen r : bok r -> zlen (nbytes r) = roaring_bitmap_size_in_bytes r.
Proof.
  intros B. unfold nbytes, roaring_bitmap_size_in_bytes, roaring_bitmap_portable_size_in_bytes.
  destruct (ra_portable_size_in_bytes r <? roaring_bitmap_get_cardinality r * 4 + 4).
  - rewrite zlen_cons, pbytes_zlen; auto. { apply (bok_typed r B). } pose proof (gok_size cok 0 r B ltac:(lia)). lia.
  - rewrite zlen_cons, zlen_app, le_zlen, les_zlen, elems_zlen, <- roaring_bitmap_get_cardinality_spec by auto. lia.
Qed.
Lemma store_cursor pre rest bs : zlen bs <= zlen rest -> store (pre ++ rest) (zlen pre) bs = Some ((pre ++ bs) ++ skipn (length bs) rest).
Proof.
  intros H. destruct (wr_cursor bs (zlen bs) (pre ++ rest, zlen pre) pre rest eq_refl H eq_refl) as (st&E&C).
  unfold wr in E. cbn [fst snd] in E. destruct (store (pre ++ rest) (zlen pre) bs) as [m|]; [|discriminate]. inversion E as [E']. rewrite <- E' in C. red in C. congruence.
Qed.
Theorem serialize_bytes r buf : bok r -> zlen (nbytes r) <= zlen buf ->
  roaring_bitmap_serialize r buf = Some (nbytes r ++ skipn (length (nbytes r)) buf, zlen (nbytes r)).
Proof.
  intros B H. pose proof (nbytes_zlen r B) as NZ. unfold roaring_bitmap_serialize, roaring_bitmap_portable_size_in_bytes. unfold nbytes in *. pose proof (gok_size cok 0 r B ltac:(lia)) as SZ.
  pose proof (bok_typed r B) as [_ TD].
  destruct (ra_portable_size_in_bytes r <? roaring_bitmap_get_cardinality r * 4 + 4).
  - rewrite zlen_cons in *. pose proof (zlen_nonneg (pbytes r)).
    destruct buf as [|b0 buf]. { change (zlen (@nil Z)) with 0 in H. lia. } rewrite zlen_cons in H.
    pose proof (store_cursor [] (b0 :: buf) [2]) as S1. cbn [app] in S1. change (zlen (@nil Z)) with 0 in S1.
    rewrite S1 by (rewrite !zlen_cons; change (zlen (@nil Z)) with 0; pose proof (zlen_nonneg buf); lia). clear S1.
    cbn [app length skipn obind]. unfold roaring_bitmap_portable_serialize. rewrite portable_serialize_bytes; auto. lia.
  - rewrite (roaring_bitmap_to_uint32_array_spec r 0 B). rewrite zlen_cons, zlen_app, le_zlen, les_zlen in *. pose proof (zlen_nonneg (elems r)).
    pose proof (store_cursor [] buf [1]) as S1. cbn [app] in S1. change (zlen (@nil Z)) with 0 in S1. rewrite S1 by (change (zlen [1]) with 1; lia).
    cbn [obind length]. clear S1. set (r1 := skipn 1 buf). assert (L1 : zlen r1 = zlen buf - 1). { unfold r1, zlen in *. rewrite skipn_length. lia. }
    pose proof (store_cursor [1] r1 (le 4 (roaring_bitmap_get_cardinality r))) as S2. change (zlen [1]) with 1 in S2. cbn [app] in *. rewrite S2 by (rewrite le_zlen; lia).
    clear S2. cbn [obind]. rewrite le_length. set (r2 := skipn 4 r1). assert (L2 : zlen r2 = zlen r1 - 4). { unfold r2, zlen in *. rewrite skipn_length. lia. }
    pose proof (store_cursor (1 :: le 4 (roaring_bitmap_get_cardinality r)) r2 (les 4 (elems r))) as S3.
    rewrite zlen_cons, le_zlen in S3. change (Z.of_nat 4 + 1) with 5 in S3. cbn [app] in *. rewrite S3 by (rewrite les_zlen; lia).
    cbn [obind]. do 2 f_equal.
    + cbn [length app skipn]. do 2 f_equal. unfold r2, r1. rewrite !skipn_skipn', app_length, le_length. reflexivity.
    + rewrite elems_zlen, <- roaring_bitmap_get_cardinality_spec by auto. lia.
Qed.
Lemma read_elems_any a b : bytes a -> forall n i r ctx, 0 <= i -> 5 + 4 * (i + Z.of_nat n) <= zlen a ->
  exists l, length l = n /\ Forall (fun v => 0 <= v < 2^32) l /\
  (forall j, 0 <= j < Z.of_nat n -> rdv 4 a (5 + 4 * (i + j)) = Some (znth l j)) /\
  read_elems (a ++ b) n i r ctx = Ok (fst (add_bulk_list r ctx l)) /\ read_elems a n i r ctx = Ok (fst (add_bulk_list r ctx l)).
Proof.
  intros BA. induction n as [|n IH]; intros i r ctx Pi L. { exists []. repeat split; auto. intros; lia. }
  cbn [read_elems]. destruct (rdv_in_range 4 a b (5 + 4 * i)) as [E [v F]]; try lia. rewrite E, F.
  destruct (roaring_bitmap_add_bulk r ctx v) as [r' ctx'] eqn:A. destruct (IH (i + 1) r' ctx') as (l&L1&L2&LJ&L3&L4); try lia.
  exists (v :: l). rewrite L3, L4. unfold add_bulk_list. cbn [fold_left]. unfold roaring_bitmap_add_bulk in A. rewrite A. repeat split; auto.
  - cbn. lia.
  - constructor; auto. exact (rdv_range 4 a _ v BA F).
  - intros j Hj. destruct (Z.eq_dec j 0) as [->|J]. { now rewrite Z.add_0_r. }
    rewrite znth_cons_pos by lia. rewrite <- LJ by lia. f_equal. lia.
Qed.
Lemma rdv_les pre l post w j : Forall (fun v => 0 <= v < 256 ^ Z.of_nat w) l -> 0 <= j < zlen l ->
  rdv w (pre ++ les w l ++ post) (zlen pre + Z.of_nat w * j) = Some (znth l j).
Proof.
  intros F H. assert (E : l = zfirst j l ++ znth l j :: zdrop (j + 1) l). { unfold znth. rewrite <- (zdrop_S 0 j l) by lia. now rewrite zfirst_zdrop. }
  rewrite E at 1. rewrite les_app, les_cons, <- !app_assoc. rewrite app_assoc. apply rdv_le.
  - rewrite zlen_app, les_zlen, zfirst_zlen by lia. lia.
  - rewrite Forall_forall in F. apply F. now apply znth_In.
Qed.
Theorem native_array_read a b max : bytes a -> max <= zlen a -> forall card, rdv 1 a 0 = Some 1 -> rdv 4 a 1 = Some card -> 5 + card * 4 <= max ->
  exists l, zlen l = card /\ Forall (fun v => 0 <= v < 2^32) l /\ (forall j, 0 <= j < card -> rdv 4 a (5 + 4 * j) = Some (znth l j)) /\
  roaring_bitmap_deserialize_safe (a ++ b) max = Ok (roaring_bitmap_of l) /\ roaring_bitmap_deserialize (a ++ b) = Ok (roaring_bitmap_of l).
Proof.
  intros BA HM card R1 R4 L. pose proof (rdv_range 4 a 1 card BA R4) as CB.
  destruct (read_elems_any a b BA (Z.to_nat card) 0 [] None) as (l&L1&L2&LJ&L3&L4); try lia. exists l.
  split; [unfold zlen; lia|]. split; auto. split. { intros j Hj. rewrite <- LJ by lia. f_equal. }
  unfold roaring_bitmap_deserialize_safe, roaring_bitmap_deserialize. rewrite !rdv_prefix by lia. rewrite R1, R4. cbn [Z.eqb Pos.eqb].
  rewrite !(proj2 (Z.ltb_ge max _)) by lia. rewrite L3. auto.
Qed.
(** outcome on arbitrary input *)
Definition nat_ok (x : res bitmap) : Prop := match x with UB => False | Fail => True | Ok r => typed r end.
Theorem deserialize_safe_any a b max : bytes a -> max <= zlen a ->
  roaring_bitmap_deserialize_safe (a ++ b) max = roaring_bitmap_deserialize_safe a max /\ nat_ok (roaring_bitmap_deserialize_safe a max).
Proof.
  intros BA HM. unfold roaring_bitmap_deserialize_safe. destruct (Z.ltb_spec max 1). { cbn. auto. }
  destruct (rdv_in_range 1 a b 0) as [E [v F]]; try lia. rewrite E, F. destruct (v =? 1).
  - destruct (Z.ltb_spec max (1 + 4)). { cbn. auto. } destruct (rdv_in_range 4 a b 1) as [E4 [card F4]]; try lia. rewrite E4, F4.
    pose proof (rdv_range 4 a 1 card BA F4) as CB. destruct (Z.ltb_spec max (1 + 4 + card * 4)). { cbn. auto. }
    destruct (read_elems_any a b BA (Z.to_nat card) 0 [] None) as (l&L1&L2&_&L3&L4); try lia. rewrite L3, L4. split; auto. cbn.
    apply bok_typed. apply (roaring_bitmap_of_spec l). intros w Hw. rewrite Forall_forall in L2. now apply L2.
  - destruct (v =? 2); [|cbn; auto]. destruct a as [|b0 a]. { unfold zlen in HM. cbn in HM. lia. } cbn [app tl]. rewrite zlen_cons in HM.
    assert (BA' : bytes a) by now inversion BA. destruct (portable_deserialize_safe_any a b (max - 1) BA') as (P1&P2&P3); [lia|].
    unfold roaring_bitmap_portable_deserialize_safe. rewrite P1. split; auto. unfold des_ok in P3.
    destruct (ra_portable_deserialize a (max - 1)) as [| |[r n]]; cbn; auto. apply P3.
Qed.
Theorem native_round_trip r post max : bok r -> bytes post -> roaring_bitmap_size_in_bytes r <= max <= zlen (nbytes r ++ post) ->
  exists r', roaring_bitmap_deserialize_safe (nbytes r ++ post) max = Ok r' /\
  (ra_portable_size_in_bytes r < 2^64 -> roaring_bitmap_deserialize (nbytes r ++ post) = Ok r') /\ bok r' /\ (forall v, mem r' v = mem r v).
Proof.
  intros B BP [HM Q]. pose proof (nbytes_zlen r B) as NZ. unfold roaring_bitmap_size_in_bytes, roaring_bitmap_portable_size_in_bytes in *. unfold nbytes in *.
  destruct (Z.ltb_spec (ra_portable_size_in_bytes r) (roaring_bitmap_get_cardinality r * 4 + 4)) as [C|C].
  - exists r. pose proof (ra_size_tot r) as ST. pose proof (tot_size_nonneg r). pose proof (gok_size cok 0 r B ltac:(lia)). pose proof (header_small r ltac:(lia)).
    split; [|split; [|auto]].
    + unfold roaring_bitmap_deserialize_safe. rewrite (proj2 (Z.ltb_ge max 1)) by lia.
      replace (rdv 1 ((2 :: pbytes r) ++ post) 0) with (Some 2). 2:{ symmetry. apply (rdv_at 1 [] [2]); reflexivity. }
      cbn [Z.eqb Pos.eqb app tl]. unfold roaring_bitmap_portable_deserialize_safe. rewrite portable_round_trip by (auto; lia). reflexivity.
    + intros SB. unfold roaring_bitmap_deserialize.
      replace (rdv 1 ((2 :: pbytes r) ++ post) 0) with (Some 2). 2:{ symmetry. apply (rdv_at 1 [] [2]); reflexivity. }
      cbn [Z.eqb Pos.eqb app tl]. unfold roaring_bitmap_portable_deserialize, roaring_bitmap_portable_deserialize_safe. rewrite portable_round_trip by (auto; lia). reflexivity.
  - pose proof (array_format_card r B C) as CB. set (card := roaring_bitmap_get_cardinality r) in *.
    assert (EZ : zlen (elems r) = card). { rewrite elems_zlen by auto. symmetry. now apply roaring_bitmap_get_cardinality_spec. }
    assert (ER : Forall (fun v => 0 <= v < 2^32) (elems r)). { apply Forall_forall. intros v Hv. apply (elems_In cok 0 r v B) in Hv; [|lia].
      destruct (Z_lt_dec v 0) as [X|X]; [rewrite mem_oob in Hv; [discriminate|auto|lia]|]. destruct (Z_lt_dec v (2^32)) as [Y|Y]; [lia|]. rewrite mem_oob in Hv; [discriminate|auto|lia]. }
    set (a := 1 :: le 4 card ++ les 4 (elems r)) in *.
    assert (BA : bytes a). { constructor; [lia|]. apply bytes_app. split; [apply le_bytes|apply les_bytes]. }
    assert (ZA : zlen a = card * 4 + 4 + 1) by exact NZ.
    assert (R4 : rdv 4 a 1 = Some card). { unfold a. change (1 :: le 4 card ++ les 4 (elems r)) with ([1] ++ le 4 card ++ les 4 (elems r)). apply rdv_le; auto. }
    assert (R1 : rdv 1 a 0 = Some 1). { unfold a. change (1 :: ?x) with ([] ++ [1] ++ x). apply (rdv_at 1 [] [1]); reflexivity. }
    assert (BAP : bytes (a ++ post)) by (apply bytes_app; auto).
    destruct (native_array_read (a ++ post) [] max BAP Q card) as (l&L1&L2&LJ&L3&L4).
      { rewrite rdv_prefix by lia. auto. } { rewrite rdv_prefix by lia. auto. } { lia. }
      assert (EL : l = elems r).
      { apply list_ext_znth. { now rewrite EZ. } intros i Hi. assert (X : Some (znth l i) = Some (znth (elems r) i)); [|congruence].
        rewrite <- LJ by lia. rewrite rdv_prefix by lia. unfold a. replace (1 :: le 4 card ++ les 4 (elems r)) with ((1 :: le 4 card) ++ les 4 (elems r) ++ []) by (rewrite app_nil_r; reflexivity).
        replace 5 with (zlen (1 :: le 4 card)) by (rewrite zlen_cons, le_zlen; reflexivity). apply (rdv_les (1 :: le 4 card) (elems r) [] 4); auto. lia. }
      subst l. rewrite app_nil_r in L3, L4. destruct (roaring_bitmap_of_spec (elems r)) as [O1 O2]. { rewrite Forall_forall in ER. exact ER. }
      exists (roaring_bitmap_of (elems r)). repeat split; auto; try apply O1. intros v. rewrite O2. destruct (mem r v) eqn:M.
      * apply zmem_In. apply (elems_In cok 0 r v B); auto; lia.
      * apply zmem_nIn. intros X. apply (elems_In cok 0 r v B) in X; [congruence|lia].
Qed.
