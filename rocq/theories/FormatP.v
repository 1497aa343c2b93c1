(** FormatP: the bytes written by portable_serialize follow FormatSpec. *)
From Coq Require Import ZArith List Bool Lia Sorting.Sorted.
From Verif Require Import Base ArrayUtil BitUtil BitsetC ArrayC RunC RunD Convert Containers RArray RBinary RPoint RRange RQuery RStat RShift
  Bytes Serial SerialP Frozen FrozenP Spec Obs FormatSpec DerivedS.
Import ListNotations.
Local Open Scope Z_scope.
Local Opaque zr.

Lemma le_le16 v : le 2 v = le16 v. Proof. reflexivity. Qed.
Lemma le_le32 v : le 4 v = le32 v.
Proof. unfold le32. cbn [le]. rewrite !Z.div_div by lia. reflexivity. Qed.
Lemma les_le16 l : les 2 l = flat_map le16 l. Proof. reflexivity. Qed.
Lemma les_le32 l : les 4 l = flat_map le32 l.
Proof. unfold les. apply flat_map_ext. apply le_le32. Qed.
(** ** bits of bytes *)
Lemma nth_le w v j : (j < w)%nat -> nth j (le w v) 0 = v / 256 ^ Z.of_nat j mod 256.
Proof.
  revert v j. induction w as [|w IH]; intros v j H; [lia|]. cbn [le]. destruct j as [|j]. { cbn. now rewrite Z.div_1_r. }
  cbn [nth]. rewrite IH by lia. rewrite Z.div_div by (try lia; apply Z.pow_pos_nonneg; lia). do 2 f_equal. rewrite Nat2Z.inj_succ, Z.pow_succ_r by lia. reflexivity.
Qed.
Lemma nth_les w l i j : (j < w)%nat -> (i < length l)%nat -> nth (w * i + j) (les w l) 0 = nth j (le w (nth i l 0)) 0.
Proof.
  intros J. revert i. induction l as [|v l IH]; intros i I; [cbn in I; lia|]. rewrite les_cons. destruct i as [|i].
  - rewrite Nat.mul_0_r. cbn [Nat.add nth]. apply app_nth1. now rewrite le_length.
  - cbn [nth length] in *. rewrite app_nth2 by (rewrite le_length; lia). rewrite le_length. replace (w * S i + j - w)%nat with (w * i + j)%nat by lia. apply IH. lia.
Qed.
Lemma words_bits ws x : zlen ws = 1024 -> 0 <= x < 65536 -> byte_bit (les 8 ws) x = bget ws x.
Proof.
  intros L H. unfold byte_bit, bget, znth. set (i := Z.to_nat (x / 64)). set (j := Z.to_nat ((x mod 64) / 8)).
  assert (A : 0 <= x mod 64 < 64) by (apply Z.mod_pos_bound; lia). assert (B : 0 <= x / 64 < 1024) by dm. assert (C : 0 <= x mod 64 / 8 < 8) by dm.
  replace (Z.to_nat (x / 8)) with (8 * i + j)%nat. 2:{ unfold i, j. dm. }
  rewrite nth_les by (unfold i, j, zlen in *; lia). rewrite nth_le by lia. set (v := nth i ws 0).
  change 256 with (2 ^ 8) at 2. rewrite Z.mod_pow2_bits_low by (apply Z.mod_pos_bound; lia).
  replace (256 ^ Z.of_nat j) with (2 ^ (8 * Z.of_nat j)) by (rewrite Z.pow_mul_r by lia; reflexivity).
  rewrite <- Z.shiftr_div_pow2 by lia. rewrite Z.shiftr_spec by (apply Z.mod_pos_bound; lia). f_equal. unfold j. rewrite Z2Nat.id by lia. dm.
Qed.
Lemma flags_bits r i : 0 <= i -> byte_bit (run_flags r) i = isr r i.
Proof.
  intros H. change (byte_bit (run_flags r) i) with (flagbit (run_flags r) i). unfold run_flags. pose proof (zlen_nonneg r). rewrite set_run_bits_flag; try lia.
  - rewrite (proj2 (Z.leb_le 0 i)), Z.sub_0_r by lia. cbn [andb]. replace (flagbit _ i) with false; auto.
    unfold flagbit, znth. rewrite nth_repeat. now rewrite Z.bits_0.
  - unfold zlen at 2. rewrite repeat_length, Z2Nat.id by (apply Z.div_pos; lia). dm.
Qed.
(** ** The parts of a bitmap *)
Definition ckind_of (c : container) : ckind := match c with CArr _ => SortedList | CBit _ => BitString | CRun _ => RunList end.
Definition part_of (p : entry) : part := Part (fst p) (ckind_of (snd p)) (filter (cmem (snd p)) (zr 0 65536)) (payload (snd p)).
Lemma members_len c : zlength (filter (cmem c) (zr 0 65536)) = ccard c. Proof. reflexivity. Qed.
Lemma part_ok_of r P p : denotes r P -> In p r -> part_ok P (part_of p).
Proof.
  intros D I. pose proof (den_bok _ _ D) as B. pose proof (bok_typed r B) as [TK TD]. destruct p as [k c].
  assert (Dc : cok c). { destruct B as (_&_&F). rewrite Forall_forall in F. exact (F _ I). }
  assert (Kc : 0 <= k < 65536). { unfold inb in TK. rewrite Forall_forall in TK. apply TK. unfold rkeys. apply in_map_iff. exists (k, c). auto. }
  assert (LK : look r k = Some c) by (apply look_In; auto; apply B).
  assert (MM : forall x, 0 <= x < 65536 -> cmem c x = P (65536 * k + x)).
  { intros x Hx. rewrite <- (den_mem r P) by (auto; red; lia). rewrite mem_split by auto. unfold km. now rewrite LK. }
  pose proof (ccard_pos c Dc) as CP.
  unfold part_ok. cbn [part_of p_key p_kind p_members p_bytes fst snd]. split; auto. split; [|split; [|split]].
  - intros E. change (ccard c) with (zlen (filter (cmem c) (zr 0 65536))) in CP. rewrite E in CP. change (zlen (@nil Z)) with 0 in CP. lia.
  - apply incr_SS. apply incr_filter, zr_incr.
  - intros x. rewrite filter_In, zr_In. split; intros [X Y]; split; auto; now rewrite MM in *.
  - rewrite members_len. destruct c as [a|b|x]; cbn [ckind_of cok payload] in *.
    + assert (E : filter (cmem (CArr a)) (zr 0 65536) = a).
      { apply incr_ext; [apply incr_filter, zr_incr|apply Dc|]. intros y. rewrite filter_In, zr_In. cbn [cmem]. destruct Dc as [[_ IB] _].
        unfold inb in IB. rewrite Forall_forall in IB. split; [intros [_ Y]|intros Y; split; [now apply IB|]]; now apply zmem_In. }
      split; [|rewrite les_le16; now rewrite E]. change (ccard (CArr a)) with (zlen (filter (cmem (CArr a)) (zr 0 65536))). rewrite E. lia.
    + destruct Dc as [[[Wf WL] BC] Dc]. split; [|split; [|split]].
      * change (ccard (CBit b)) with (bcard (b_words b)). lia.
      * change (zlen (les 8 (b_words b)) = 8192). rewrite les_zlen, WL. reflexivity.
      * apply les_bytes.
      * intros y Hy. rewrite words_bits by auto. rewrite filter_In, zr_In. cbn [cmem]. tauto.
    + destruct Dc as [R NE]. pose proof (rwf_zlen x R) as LX. exists x.
      assert (T : Forall (fun p : run => 0 <= fst p < 65536 /\ 0 <= snd p < 65536) x).
      { pose proof (cok_ctyped (CRun x) (conj R NE)) as T. exact T. }
      pose proof (proj1 (rok_iff x 0 T) R) as (Q1&Q2&Q3). split; [|split; [|split; [|split]]].
      * rewrite u16_small by (pose proof (zlen_nonneg x); lia). rewrite le_le16. f_equal. clear. induction x as [|[s n] x IH]; auto.
        change (run_words ((s, n) :: x)) with (s :: n :: run_words x). rewrite !les_cons, IH. cbn [flat_map fst snd]. now rewrite <- app_assoc, !le_le16.
      * unfold zlength. unfold zlen in LX. lia.
      * exact Q2.
      * rewrite Forall_forall in *. intros q Hq. specialize (T q Hq). specialize (Q3 q Hq). lia.
      * intros y. rewrite filter_In, zr_In. cbn [cmem]. unfold rmem. rewrite existsb_exists. rewrite Forall_forall in *. split.
        -- intros [_ (q&Hq&Y)]. exists q. split; auto. unfold inrun in Y. apply andb_true_iff in Y as [Y1 Y2]. apply Z.leb_le in Y1, Y2. lia.
        -- intros (q&Hq&Y). specialize (T q Hq). specialize (Q3 q Hq). cbn in Q3. split; [lia|]. exists q. split; auto. unfold inrun. apply andb_true_iff. split; apply Z.leb_le; lia.
Qed.
Lemma parts_runs r : existsb is_runs (map part_of r) = ra_has_run_container r.
Proof. unfold ra_has_run_container. induction r as [|[k c] t IH]; auto. cbn [map existsb]. rewrite IH. f_equal. destruct c; reflexivity. Qed.
Lemma parts_bytes r : flat_map p_bytes (map part_of r) = payloads r.
Proof. unfold payloads. induction r as [|[k c] t IH]; auto. cbn [map flat_map]. now rewrite IH. Qed.
Theorem format_conforms r P : denotes r P -> ra_portable_size_in_bytes r < 2 ^ 32 -> portable_format P (pbytes r).
Proof.
  intros D SL. pose proof (den_bok _ _ D) as B. pose proof (bok_typed r B) as [TK TD]. pose proof (gok_size cok 0 r B ltac:(lia)) as SZ. pose proof (zlen_nonneg r) as SP.
  assert (NL : zlength (map part_of r) = zlen r) by (unfold zlength, zlen; now rewrite map_length).
  assert (KE : map p_key (map part_of r) = rkeys r) by (unfold rkeys; rewrite map_map; reflexivity).
  exists (map part_of r), (head_bytes r), (if has_offsets r then offs r (start_offset r) else []). split; [|split; [|split; [|split; [|split]]]].
  - rewrite KE. apply incr_SS. apply B.
  - apply Forall_forall. intros q Hq. apply in_map_iff in Hq as (p&<-&Hp). now apply (part_ok_of r P).
  - intros v Hv HP. rewrite KE. rewrite <- (den_mem r P v D Hv) in HP. rewrite mem_km in HP. unfold km in HP.
    destruct (look r (v / 65536)) as [c|] eqn:E; [|discriminate]. apply look_some in E. unfold rkeys. apply in_map_iff. exists (v / 65536, c). auto.
  - unfold head_ok, head_bytes. rewrite parts_runs, NL. destruct (ra_has_run_container r) eqn:HR.
    + exists (run_flags r). assert (S1 : 1 <= zlen r). { destruct r; [discriminate|]. rewrite zlen_cons. pose proof (zlen_nonneg r). lia. }
      split; [|split; [|split]].
      * f_equal. rewrite <- le_le32. f_equal. destruct (cookie_run (zlen r) ltac:(lia)) as (C1&C2&C3). set (ck := Z.lor 12347 (u32 (Z.shiftl (zlen r - 1) 16))) in *.
        change 65535 with (Z.ones 16) in C2. rewrite Z.land_ones in C2 by lia. rewrite Z.shiftr_div_pow2 in C3 by lia.
        rewrite (Z.div_mod ck (2 ^ 16)) by lia. rewrite C2. lia.
      * exact (run_flags_zlen r).
      * apply run_flags_bytes.
      * intros i Hi. rewrite flags_bits by auto. unfold isr. rewrite nth_error_map. destruct (nth_error r (Z.to_nat i)) as [[k c]|]; auto. cbn. now destruct c.
    + now rewrite !le_le32.
  - unfold offsets_ok. rewrite parts_runs, NL. unfold has_offsets in *.
    destruct (ra_has_run_container r && (zlen r <? 4)) eqn:E.
    { apply andb_true_iff in E as [-> E]. apply Z.ltb_lt in E. cbn [negb orb]. now rewrite (proj2 (Z.leb_gt 4 (zlen r))) by lia. }
    assert (HO : has_offsets r = true). { unfold has_offsets. destruct (ra_has_run_container r); auto. cbn [andb negb orb] in *. apply Z.ltb_ge in E. now apply Z.leb_le. }
    unfold has_offsets in HO. rewrite HO. split. { exact (offs_zlen r (start_offset r)). }
    intros i Hi. rewrite map_length in Hi. destruct (start_offset_poff r ltac:(lia) HO) as [S1 S2]. rewrite skipn_map, parts_bytes.
    assert (ES : exists d k c t, r = d ++ (k, c) :: t /\ length d = i).
    { exists (firstn i r). destruct (skipn i r) as [|[k c] t] eqn:ESK.
      - exfalso. assert (Q : length (skipn i r) = 0%nat) by now rewrite ESK. rewrite skipn_length in Q. lia.
      - exists k, c, t. rewrite <- ESK. split; [symmetry; apply firstn_skipn|]. rewrite firstn_length. lia. }
    destruct ES as (d&k&c&t&ER&LD). 
    assert (SK : skipn i r = (k, c) :: t). { rewrite ER. apply skipn_app_l. auto. } rewrite SK.
    assert (NE : nth i (offs r (start_offset r)) 0 = u32 (start_offset r + tot container_size_in_bytes d)).
    { pose proof (offs_split k c t d (start_offset r) S2) as OS. rewrite <- ER in OS. unfold znth, zlen in OS. rewrite Nat2Z.id, LD in OS. exact OS. }
    rewrite NE, S1. pose proof (pbytes_zlen r TD ltac:(lia)) as PZ.
    assert (PE : zlen (pbytes r) = poff r + tot container_size_in_bytes d + zlen (payloads ((k, c) :: t))).
    { unfold poff, pbytes. rewrite !zlen_app. rewrite ER at 4. rewrite payloads_app, zlen_app. rewrite (payloads_zlen d). 2:{ rewrite ER in TD. now apply Forall_app in TD. } lia. }
    unfold zlength. fold (zlen (pbytes r)). fold (zlen (payloads ((k, c) :: t))). unfold u32. pose proof (zlen_nonneg (payloads ((k, c) :: t))). pose proof (tot_size_nonneg d).
    rewrite Z.mod_small by lia. lia.
  - unfold pbytes. f_equal. rewrite <- parts_bytes. f_equal.
    + unfold keycards. rewrite (flat_map_concat_map _ r), (flat_map_concat_map _ (map part_of r)), map_map. f_equal. apply map_ext_in. intros [k c] Hp.
      cbn [fst snd part_of p_key p_members]. rewrite !le_le16.
      assert (Dc : cok c). { destruct B as (_&_&F). rewrite Forall_forall in F. exact (F _ Hp). }
      pose proof (ccard_le c Dc). rewrite container_get_cardinality_spec in * by auto. rewrite u16_small by lia. reflexivity.
    + f_equal. unfold offset_bytes. destruct (has_offsets r); auto. apply les_le32.
Qed.
(** ** Every file of the format is the serialization of a bitmap *)
Lemma byte_ext a b : 0 <= a < 256 -> 0 <= b < 256 -> (forall i, 0 <= i < 8 -> Z.testbit a i = Z.testbit b i) -> a = b.
Proof.
  intros A B H. apply Z.bits_inj'. intros n Hn. destruct (Z_lt_dec n 8) as [L|L]; [apply H; lia|].
  rewrite <- (Z.mod_small a (2 ^ 8)), <- (Z.mod_small b (2 ^ 8)) by (change (2 ^ 8) with 256; lia). now rewrite !Z.mod_pow2_bits_high by lia.
Qed.
Lemma bytes_ext a b : bytes a -> bytes b -> zlen a = zlen b -> (forall i, 0 <= i < 8 * zlen a -> byte_bit a i = byte_bit b i) -> a = b.
Proof.
  intros BA BB L H. apply list_ext_znth; auto. intros i Hi. apply byte_ext; try (apply bytes_znth; auto).
  intros j Hj. specialize (H (8 * i + j) ltac:(lia)). unfold byte_bit in H. replace ((8 * i + j) / 8) with i in H by dm. replace ((8 * i + j) mod 8) with j in H by dm. exact H.
Qed.
Lemma filter_members l (f : Z -> bool) : StronglySorted Z.lt l -> (forall x, In x l <-> 0 <= x < 65536 /\ f x = true) -> filter f (zr 0 65536) = l.
Proof. intros S H. apply incr_ext; [apply incr_filter, zr_incr|now apply incr_SS|]. intros x. rewrite filter_In, zr_In, H. tauto. Qed.
Lemma part_back P p : part_ok P p -> exists c, cok c /\ part_of (p_key p, c) = p.
Proof.
  destruct p as [k kd ms bs]. unfold part_ok. cbn [p_key p_kind p_members p_bytes]. intros (Kb&NE&SS&HM&HK).
  assert (IB : inb 0 65536 ms). { apply inb_intro. intros x Hx. now apply HM in Hx. }
  assert (LP : 1 <= zlen ms). { destruct ms; [easy|]. rewrite zlen_cons. pose proof (zlen_nonneg ms). lia. }
  destruct kd.
  - destruct HK as [L E]. exists (CArr ms). assert (Dc : cok (CArr ms)). { cbn. split; [split; [now apply incr_SS|auto]|]. unfold zlength in L. fold (zlen ms) in L. lia. }
    split; auto. unfold part_of. cbn [fst snd ckind_of payload]. rewrite les_le16, <- E. f_equal. apply filter_members; auto. intros x. cbn [cmem]. unfold amem. rewrite zmem_In.
    split; [intros X; split; auto; now apply HM in X|tauto].
  - destruct HK as (L&BL&BB&HB). set (ws := le_vals 8 1024 bs). unfold zlength in BL. assert (EW : les 8 ws = bs). { apply les_vals; auto. lia. }
    assert (WW : bws ws). { split; [exact (le_vals_range 8 1024 bs BB)|apply le_vals_zlen]. }
    clearbody ws.
    assert (FM : filter (bget ws) (zr 0 65536) = ms).
    { apply filter_members; auto. intros x. split; [intros X; assert (0 <= x < 65536) by (now apply HM in X)|intros [X Y]].
      - split; auto. rewrite <- words_bits by (auto; apply WW). rewrite EW. now apply HB.
      - rewrite <- words_bits in Y by (auto; apply WW). rewrite EW in Y. now apply HB. }
    exists (CBit (zlen ms, ws)). split.
    + cbn [cok]. split; [|exact L]. split; [exact WW|]. cbn [b_card b_words fst snd]. unfold bcard, cnt. now rewrite FM.
    + unfold part_of. cbn [fst snd ckind_of payload cmem b_words]. rewrite EW. now rewrite FM.
  - destruct HK as (runs&E&LR&SR&FR&HR). assert (T : Forall (fun p : run => 0 <= fst p < 65536 /\ 0 <= snd p < 65536) runs).
    { eapply Forall_impl; [|exact FR]. cbn. intros q. lia. }
    assert (RW : rwf runs). { apply rok_iff; auto. repeat split; auto. - eapply Forall_impl; [|exact FR]. cbn. intros q. lia. - eapply Forall_impl; [|exact FR]. cbn. intros q. lia. }
    exists (CRun runs). split.
    + cbn. split; auto. intros ->. destruct ms as [|m ms]; [easy|]. destruct (proj1 (HR m) (or_introl eq_refl)) as (q&[]&_).
    + unfold part_of. cbn [fst snd ckind_of payload cmem]. f_equal.
      * apply filter_members; auto. intros x. rewrite HR. unfold rmem. rewrite existsb_exists. split.
        -- intros (q&Hq&Y). rewrite Forall_forall in FR. specialize (FR q Hq). split; [lia|]. exists q. split; auto. unfold inrun. apply andb_true_iff. split; apply Z.leb_le; lia.
        -- intros [_ (q&Hq&Y)]. exists q. split; auto. unfold inrun in Y. apply andb_true_iff in Y as [Y1 Y2]. apply Z.leb_le in Y1, Y2. lia.
      * rewrite E. unfold zlength in *. fold (zlen runs) in *. rewrite u16_small by (pose proof (zlen_nonneg runs); lia). rewrite le_le16. f_equal.
        clear. induction runs as [|[s n] x IH]; auto.
        change (run_words ((s, n) :: x)) with (s :: n :: run_words x). rewrite !les_cons, IH. cbn [flat_map fst snd]. now rewrite <- app_assoc, !le_le16.
Qed.
Lemma parts_back P ps : Forall (part_ok P) ps -> exists r, Forall (fun p : entry => cok (snd p)) r /\ map part_of r = ps.
Proof.
  induction 1 as [|p ps H F IH]; [exists []; split; auto|]. destruct IH as (r&D&E). destruct (part_back P p H) as (c&Dc&Ec). exists ((p_key p, c) :: r). split; [now constructor|].
  cbn [map]. now rewrite Ec, E.
Qed.
Theorem format_read P out : portable_format P out -> zlen out < 2 ^ 32 -> exists r, denotes r P /\ pbytes r = out.
Proof.
  intros (ps&h&ofs&SK&PO&CV&HH&HO&EO) L. destruct (parts_back P ps PO) as (r&D&E). exists r.
  assert (KE : map p_key ps = rkeys r). { subst ps. unfold rkeys. rewrite map_map. reflexivity. } rewrite KE in *.
  assert (NL : zlength ps = zlen r) by (subst ps; unfold zlength, zlen; now rewrite map_length).
  assert (B : bok r). { split; [now apply incr_SS|]. split; auto. apply inb_intro. intros k Hk. rewrite <- KE in Hk. apply in_map_iff in Hk as (p&<-&Hp).
    rewrite Forall_forall in PO. exact (proj1 (PO p Hp)). }
  assert (DN : denotes r P).
  { apply den_iff. split; auto. intros v Hv. rewrite mem_km. unfold km. assert (0 <= v mod 65536 < 65536) by (apply Z.mod_pos_bound; lia).
    destruct (look r (v / 65536)) as [c|] eqn:EL.
    - apply look_some in EL. assert (IP : In (part_of (v / 65536, c)) ps) by (subst ps; now apply in_map). rewrite Forall_forall in PO. destruct (PO _ IP) as (_&_&_&M&_).
      cbn [part_of p_key p_members fst snd] in M. specialize (M (v mod 65536)). rewrite filter_In, zr_In in M. replace (65536 * (v / 65536) + v mod 65536) with v in M by dm.
      destruct (cmem c (v mod 65536)), (P v); auto; [symmetry|]; apply M; auto.
    - destruct (P v) eqn:EP; auto. exfalso. specialize (CV v Hv EP). unfold rkeys in CV. apply in_map_iff in CV as ([k c]&Ek&I). cbn in Ek. subst k.
      rewrite (look_In r (v / 65536) c) in EL; [discriminate|apply B|auto]. }
  split; auto. pose proof (bok_typed r B) as [TK TD]. pose proof (gok_size cok 0 r B ltac:(lia)) as SZ. pose proof (zlen_nonneg r) as SP.
  assert (HR : existsb is_runs ps = ra_has_run_container r) by (subst ps; apply parts_runs). unfold head_ok, offsets_ok in *. rewrite HR, NL in *.
  assert (EH : head_bytes r = h).
  { unfold head_bytes. destruct (ra_has_run_container r) eqn:HRR.
    - destruct HH as (fl&->&LF&BF&HF). assert (S1 : 1 <= zlen r). { destruct r; [discriminate|]. rewrite zlen_cons. pose proof (zlen_nonneg r). lia. }
      f_equal.
      + rewrite <- le_le32. f_equal. destruct (cookie_run (zlen r) ltac:(lia)) as (C1&C2&C3). set (ck := Z.lor 12347 (u32 (Z.shiftl (zlen r - 1) 16))) in *.
        change 65535 with (Z.ones 16) in C2. rewrite Z.land_ones in C2 by lia. rewrite Z.shiftr_div_pow2 in C3 by lia.
        rewrite (Z.div_mod ck (2 ^ 16)) by lia. rewrite C2. lia.
      + apply bytes_ext; [apply run_flags_bytes|exact BF| |].
        * rewrite run_flags_zlen. symmetry. exact LF.
        * intros i Hi. rewrite flags_bits, HF by lia. subst ps. unfold isr. rewrite nth_error_map. destruct (nth_error r (Z.to_nat i)) as [[k c]|]; auto. cbn. now destruct c.
    - subst h. now rewrite !le_le32. }
  assert (PB : flat_map p_bytes ps = payloads r) by (subst ps; apply parts_bytes).
  assert (EK : keycards r = flat_map (fun p => le16 (p_key p) ++ le16 (zlength (p_members p) - 1)) ps).
  { subst ps. unfold keycards. rewrite (flat_map_concat_map _ r), (flat_map_concat_map _ (map part_of r)), map_map. f_equal. apply map_ext_in. intros [k c] Hp.
    cbn [fst snd part_of p_key p_members]. rewrite !le_le16.
    assert (Dc : cok c). { rewrite Forall_forall in D. exact (D _ Hp). }
    pose proof (ccard_le c Dc). rewrite container_get_cardinality_spec in * by auto. rewrite u16_small by lia. reflexivity. }
  rewrite <- EK, PB, <- EH in EO.
  assert (EF : offset_bytes r = flat_map le32 ofs).
  { unfold offset_bytes. destruct (ra_has_run_container r && (zlen r <? 4)) eqn:X.
    { subst ofs. apply andb_true_iff in X as [X1 X2]. apply Z.ltb_lt in X2. unfold has_offsets. rewrite X1. cbn [negb orb]. now rewrite (proj2 (Z.leb_gt 4 (zlen r))) by lia. }
    assert (HOF : has_offsets r = true). { unfold has_offsets. destruct (ra_has_run_container r); auto. cbn [andb negb orb] in *. apply Z.ltb_ge in X. now apply Z.leb_le. }
    destruct HO as [OL ON]. rewrite HOF. rewrite <- les_le32. f_equal. destruct (start_offset_poff r ltac:(lia) HOF) as [S1 S2].
    apply list_ext_znth. { rewrite offs_zlen. symmetry. exact OL. }
    intros i Hi. rewrite offs_zlen in Hi. specialize (ON (Z.to_nat i)). 
    assert (ES : exists d k c t, r = d ++ (k, c) :: t /\ length d = Z.to_nat i).
    { exists (firstn (Z.to_nat i) r). unfold zlen in Hi. destruct (skipn (Z.to_nat i) r) as [|[k c] t] eqn:ESK.
      - exfalso. assert (Q : length (skipn (Z.to_nat i) r) = 0%nat) by now rewrite ESK. rewrite skipn_length in Q. lia.
      - exists k, c, t. rewrite <- ESK. split; [symmetry; apply firstn_skipn|]. rewrite firstn_length. lia. }
    destruct ES as (d&k&c&t&ER&LD).
    assert (SKI : skipn (Z.to_nat i) r = (k, c) :: t). { rewrite ER. apply skipn_app_l. auto. }
    unfold znth. rewrite ON. 2:{ subst ps. rewrite map_length. unfold zlen in Hi. lia. }
    replace (flat_map p_bytes (skipn (Z.to_nat i) ps)) with (payloads ((k, c) :: t)). 2:{ subst ps. now rewrite skipn_map, parts_bytes, SKI. }
    pose proof (offs_split k c t d (start_offset r) S2) as OS. rewrite <- ER in OS. unfold znth in OS. replace (Z.to_nat (zlen d)) with (Z.to_nat i) in OS by (unfold zlen; lia).
    rewrite OS, S1. unfold zlength. fold (zlen out) (zlen (payloads ((k, c) :: t))).
    assert (PE : zlen out = poff r + tot container_size_in_bytes d + zlen (payloads ((k, c) :: t))).
    { assert (OBL : zlen (flat_map le32 ofs) = zlen (offset_bytes r)).
      { unfold offset_bytes. rewrite HOF. rewrite <- les_le32, !les_zlen, offs_zlen. unfold zlength in OL. fold (zlen ofs) in OL. lia. }
      rewrite EO. unfold poff. rewrite !zlen_app, OBL. rewrite ER at 4. rewrite payloads_app, zlen_app. rewrite (payloads_zlen d). 2:{ rewrite ER in TD. now apply Forall_app in TD. } lia. }
    unfold u32. pose proof (zlen_nonneg (payloads ((k, c) :: t))). pose proof (tot_size_nonneg d). pose proof (zlen_nonneg (head_bytes r ++ keycards r ++ offset_bytes r)) as PP. fold (poff r) in PP.
    rewrite Z.mod_small by lia. lia. }
  unfold pbytes. rewrite EF. now rewrite EO.
Qed.
Lemma s_format r P buf m n : denotes r P -> roaring_bitmap_portable_size_in_bytes r <= len buf -> roaring_bitmap_portable_size_in_bytes r < 2 ^ 32 ->
  roaring_bitmap_portable_serialize r buf = Some (m, n) -> portable_format P (firstn (Z.to_nat n) m).
Proof.
  intros D L S E. destruct (s_portable_out _ _ _ _ _ D L E) as (->&->&_). rewrite firstn_app_l by (unfold zlen; lia). now apply format_conforms.
Qed.
Lemma s_foreign P out post n : portable_format P out -> len out < 2 ^ 32 -> len out <= n ->
  exists r, roaring_bitmap_portable_deserialize_safe (out ++ post) n = Ok r /\ roaring_bitmap_portable_deserialize_frozen (out ++ post) = Ok r /\ denotes r P.
Proof.
  intros F L N. destruct (format_read P out F L) as (r&D&<-). pose proof (den_bok _ _ D) as B. pose proof (bok_typed r B) as [_ TD]. pose proof (gok_size cok 0 r B ltac:(lia)) as SZ.
  pose proof (pbytes_zlen r TD ltac:(lia)) as PZ. fold (zlen (pbytes r)) in *. exists r. split; [|split; auto].
  - unfold roaring_bitmap_portable_deserialize_safe. now rewrite portable_round_trip by (auto; lia).
  - apply portable_frozen_round_trip; auto. lia.
Qed.
