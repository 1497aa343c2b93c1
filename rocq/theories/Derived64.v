(** Derived64: the statements about 64-bit bitmaps in the vocabulary of Spec64. *)
From Coq Require Import ZArith List Bool Lia Sorting.Sorted.
From Verif Require Import Base ArrayUtil BitUtil BitsetC ArrayC RunC RunD Convert MixedI MixedU MixedA MixedN Containers RArray RBinary RPoint.
From Verif Require Import Obs.
From Verif Require Import Art ArtT ArtI ArtR R64 R64P R64Q R64K R64C R64R R64F R64B R64N R64I.
From Verif Require Import Spec SpecI Spec64 Hist64.
From Verif Require RQuery.
Import ListNotations.
Local Open Scope Z_scope.
Local Opaque zr n48_pairs n256_pairs.

Lemma d64_den r P : denotes64 r P -> den r P.
Proof. apply den64_iff. Qed.
Lemma d64_of r P : den r P -> denotes64 r P.
Proof. apply den64_iff. Qed.
Lemma d64_ext r P Q : den r P -> (forall v, val64 v -> P v = Q v) -> denotes64 r Q.
Proof. intros D E. apply d64_of. eapply den_ext; eauto. Qed.

(** ** Histories *)
Lemma h_histories tr : legal64 (map fst tr) (fun _ => zempty) -> exists st outs, exec64 tr empty_heap64 = Some (st, outs) /\
  (forall i, denotes64 (st i) (spec_run64 (map fst tr) (fun _ => zempty) i)) /\ agrees64 (map fst tr) (fun _ => zempty) outs.
Proof.
  intros L. destruct (exec64_holds tr empty_heap64 (fun _ => zempty) empty_holds L) as (st & outs & E & H & A). exists st, outs. split; auto. split; auto. intros i. apply d64_of, H.
Qed.
Lemma h_histories_from tr st S : (forall i, denotes64 (st i) (S i)) -> legal64 (map fst tr) S -> exists st1 outs, exec64 tr st = Some (st1, outs) /\
  (forall i, denotes64 (st1 i) (spec_run64 (map fst tr) S i)) /\ agrees64 (map fst tr) S outs.
Proof.
  intros H L. destruct (exec64_holds tr st S) as (st1 & outs & E & H1 & A); auto. { intros i. apply d64_den, H. }
  exists st1, outs. split; auto. split; auto. intros i. apply d64_of, H1.
Qed.

(** ** contains_range *)
Lemma h_contains_range r P a b : denotes64 r P -> val64 a -> val64 b -> (forall v, val64 v -> P v = true -> v / 65536 <= (b - 1) / 65536) ->
  exists x, roaring64_bitmap_contains_range r a b = Some x /\ (x = true <-> forall v, a <= v < b -> P v = true).
Proof.
  intros D A B H. destruct (roaring64_bitmap_contains_range_spec r P a b (d64_den _ _ D) A B) as (x & E & I). exists x. split; auto. rewrite I. now apply contains_range_exact.
Qed.
Lemma h_contains_range_complete r P a b : denotes64 r P -> val64 a -> val64 b -> (forall v, a <= v < b -> P v = true) -> roaring64_bitmap_contains_range r a b = Some true.
Proof.
  intros D A B H. destruct (roaring64_bitmap_contains_range_spec r P a b (d64_den _ _ D) A B) as (x & E & I). rewrite E. f_equal. apply I.
  destruct (Z_le_dec b a); [left; auto|right]. exists b. split; [lia|]. split; [|left; reflexivity]. intros v V. apply H. lia.
Qed.
Lemma h_contains_range_first_block r P a b : denotes64 r P -> val64 a -> val64 b -> a < b -> roaring64_bitmap_contains_range r a b = Some true -> P a = true /\ forall v, a <= v < b -> v / 65536 = a / 65536 -> P v = true.
Proof.
  intros D A B L E. destruct (roaring64_bitmap_contains_range_spec r P a b (d64_den _ _ D) A B) as (x & E2 & I). rewrite E in E2. injection E2 as <-. destruct I as (I & _). destruct (I eq_refl) as [X|(e & Le & AT & C)]; [lia|].
  assert (forall v, a <= v < b -> v / 65536 = a / 65536 -> P v = true) as G.
  { intros v V EB. destruct (Z_lt_dec v e) as [Y|Y]; [apply AT; lia|]. destruct C as [->|(M & _)]; [lia|]. exfalso.
    assert (a / 65536 < e / 65536). { apply Z.div_lt_upper_bound; [lia|]. pose proof (Z.div_mod e 65536 ltac:(lia)). lia. }
    pose proof (Z.div_le_mono e v 65536 ltac:(lia) ltac:(lia)). lia. }
  split; auto. apply G; [lia|reflexivity].
Qed.
Lemma h_contains_range_refuted : exists r P a b v, denotes64 r P /\ val64 a /\ val64 b /\ roaring64_bitmap_contains_range r a b = Some true /\ a <= v < b /\ P v = false.
Proof.
  assert (F : Forall v64 [65535; 327680]) by (repeat constructor; lia). destruct (roaring64_bitmap_of_ptr_spec _ F) as (r & E & D).
  exists r, (fun v => zmem v [65535; 327680]), 65535, 65537, 65536. split; [now apply d64_of|]. split; [unfold val64; lia|]. split; [unfold val64; lia|]. split; [|split; [lia|reflexivity]].
  clear D. vm_compute in E. injection E as <-. vm_compute. reflexivity.
Qed.

(** ** The whole universe *)
Lemma full_bitmap : exists r, roaring64_bitmap_add_range_closed roaring64_bitmap_create 0 (2^64 - 1) = Some r /\ denotes64 r zfull64.
Proof.
  destruct (roaring64_bitmap_add_range_closed_spec roaring64_bitmap_create (fun _ => false) 0 (2^64 - 1) den_create) as (r & E & D); [unfold v64; lia|unfold v64; lia|].
  exists r. split; [exact E|]. eapply d64_ext; [exact D|]. intros v V. unfold val64 in V. unfold ival, zfull64. cbn [orb]. lia.
Qed.
Lemma cnt_zfull64 : cnt zfull64 0 (2^64) = 2^64.
Proof. rewrite cnt_full; [lia|lia|]. intros x _. reflexivity. Qed.
Lemma h_cardinality_refuted : exists r, denotes64 r zfull64 /\ roaring64_bitmap_get_cardinality r = Some 0 /\ roaring64_bitmap_is_empty r = false.
Proof.
  destruct full_bitmap as (r & _ & D). exists r. split; auto. pose proof (d64_den _ _ D) as D'. split.
  - rewrite (roaring64_bitmap_get_cardinality_spec r _ D'), cnt_zfull64. reflexivity.
  - apply not_true_iff_false. intros H. pose proof (proj1 (den_empty r _ D') H 0) as Y. unfold v64 in Y. specialize (Y ltac:(lia)). discriminate Y.
Qed.
Lemma h_strict_subset_refuted : exists r1 r2, denotes64 r1 zempty /\ denotes64 r2 zfull64 /\ roaring64_bitmap_is_strict_subset r1 r2 = Some false.
Proof.
  destruct full_bitmap as (r & _ & D). exists roaring64_bitmap_create, r. split; [apply d64_of, den_create|]. split; auto. pose proof (d64_den _ _ D) as D'.
  assert (E1 : roaring64_bitmap_get_cardinality roaring64_bitmap_create = Some 0) by reflexivity.
  assert (E2 : roaring64_bitmap_get_cardinality r = Some 0) by (rewrite (roaring64_bitmap_get_cardinality_spec r _ D'), cnt_zfull64; reflexivity).
  unfold roaring64_bitmap_is_strict_subset. rewrite E1, E2. reflexivity.
Qed.

(** ** Bulk calls *)
Definition bulk_of (o : bulk64) : bulk_op := match o with BPut v => BAdd v | BDrop v => BRemove v | BAsk v => BContains v end.
Lemma bulk_val_of o : bulk_val (bulk_of o) = bulk_arg o.
Proof. now destruct o. Qed.
Lemma gone_iff P h : block_empty P h = true <-> gone P h.
Proof.
  unfold block_empty, gone. split.
  - intros E v V. apply Z.eqb_eq in E. apply (cnt_none_inv P (h * 65536) (h * 65536 + 65536)); auto; lia.
  - intros G. apply Z.eqb_eq. apply cnt_none. intros x X. apply G. symmetry. apply (Z.div_unique x 65536 h (x - h * 65536)); lia.
Qed.
Lemma bulk_set_next o P v : bulk_set (bulk_of o) P v = bulk_next o P v.
Proof. destruct o; cbn; auto; unfold fset, zadd, zdel; destruct (v =? v0); cbn; now rewrite ?orb_true_r, ?orb_false_r, ?andb_false_r, ?andb_true_r. Qed.
Lemma gone_ext P Q h : (forall v, P v = Q v) -> gone P h -> gone Q h.
Proof. intros E G v V. rewrite <- E. auto. Qed.
Lemma bulk_next_ext o P Q v : (forall v, P v = Q v) -> bulk_next o P v = bulk_next o Q v.
Proof. intros E. destruct o; cbn; unfold zadd, zdel; now rewrite E. Qed.
Lemma bulk_legal_spec os : forall P P' st (stale : Z -> Prop), (forall v, P v = P' v) -> (forall h, stale h <-> st = Some h) -> Forall (fun o => val64 (bulk_arg o)) os ->
  match bulk_spec (map bulk_of os) P st with
  | Some (Q, bs) => bulk_legal os P' stale /\ (forall v, Q v = bulk_final os P' v) /\ bs = bulk_answers os P'
  | None => ~ bulk_legal os P' stale
  end.
Proof.
  induction os as [|o os IH]; intros P P' st stale E S F; cbn [map bulk_spec bulk_legal bulk_final bulk_answers].
  - auto.
  - inversion F; subst. rewrite bulk_val_of. destruct (hits st (bulk_arg o)) eqn:HI.
    + intros (_ & N & _). apply N. apply S. destruct st as [h|]; cbn in HI; [|discriminate]. apply Z.eqb_eq in HI. now subst.
    + assert (NS : ~ stale (bulk_arg o / 65536)). { intros X. apply S in X. subst st. cbn in HI. lia. }
      specialize (IH (bulk_set (bulk_of o) P) (bulk_next o P') (bulk_stale (bulk_of o) P st) (bulk_stale_next o P' stale)).
      assert (A1 : forall v, bulk_set (bulk_of o) P v = bulk_next o P' v) by (intros v; rewrite bulk_set_next; now apply bulk_next_ext).
      assert (A2 : forall h, bulk_stale_next o P' stale h <-> bulk_stale (bulk_of o) P st = Some h).
      { intros h. destruct o as [v|v|v]; cbn [bulk_stale_next bulk_stale bulk_of].
        - split; [tauto|discriminate].
        - rewrite E. destruct (P' v) eqn:EP; cbn [andb].
          + assert (block_empty (fset P v false) (v / 65536) = true <-> gone (zdel P' v) (v / 65536)) as G.
            { rewrite gone_iff. split; apply gone_ext; intros x; [|symmetry]; apply (A1 x). }
            destruct (block_empty (fset P v false) (v / 65536)).
            * split; [intros (-> & _); auto|]. intros X. injection X as <-. split; auto. split; auto. now apply G.
            * split; [|discriminate]. intros (-> & _ & X). apply G in X. discriminate.
          + split; [intros (_ & X & _); congruence|discriminate].
        - assert (block_empty P (v / 65536) = true <-> gone P' (v / 65536)) as G by (rewrite gone_iff; split; apply gone_ext; auto).
          destruct (block_empty P (v / 65536)).
          + rewrite <- S. tauto.
          + split; [|discriminate]. intros (X & _). apply G in X. discriminate. }
      specialize (IH A1 A2 H2). destruct (bulk_spec (map bulk_of os) (bulk_set (bulk_of o) P) (bulk_stale (bulk_of o) P st)) as [[Q bs]|].
      * destruct IH as (I1 & I2 & I3). split; auto. split; auto. destruct o; cbn [bulk_of]; auto. rewrite E. cbn [bulk_next] in I3. now rewrite I3.
      * tauto.
Qed.
Definition run_bulk (os : list bulk64) (r : r64) : option (r64 * list bool) := bulk_run (map bulk_of os) r ctx0.
Lemma h_bulk r P os : denotes64 r P -> bulk_legal os P (fun _ => False) -> exists r', run_bulk os r = Some (r', bulk_answers os P) /\ denotes64 r' (bulk_final os P).
Proof.
  intros D L. assert (F : Forall (fun o => val64 (bulk_arg o)) os).
  { clear D. revert P L. generalize (fun _ : Z => False). induction os as [|o os IH]; intros st P L; [constructor|]. cbn [bulk_legal] in L. destruct L as (A & _ & B). constructor; eauto. }
  pose proof (bulk_legal_spec os P P None (fun _ => False) (fun _ => eq_refl)) as S. assert (forall h : Z, False <-> None = Some h) as X by (intros h; split; [tauto|discriminate]). specialize (S X F). clear X.
  pose proof (bulk_run_spec (map bulk_of os) r P (d64_den _ _ D)) as R. assert (Forall (fun o => v64 (bulk_val o)) (map bulk_of os)) as F'. { rewrite Forall_map. eapply Forall_impl; [|exact F]. intros o V. now rewrite bulk_val_of. }
  specialize (R F'). destruct (bulk_spec (map bulk_of os) P None) as [[Q bs]|]; [|tauto]. destruct S as (_ & S2 & ->). destruct R as (r' & E & D'). exists r'. split; auto. eapply d64_ext; [exact D'|]. auto.
Qed.
Lemma h_bulk_undefined r P os : denotes64 r P -> Forall (fun o => val64 (bulk_arg o)) os -> ~ bulk_legal os P (fun _ => False) -> run_bulk os r = None.
Proof.
  intros D F L. pose proof (bulk_legal_spec os P P None (fun _ => False) (fun _ => eq_refl)) as S. assert (forall h : Z, False <-> None = Some h) as X by (intros h; split; [tauto|discriminate]). specialize (S X F). clear X.
  pose proof (bulk_run_spec (map bulk_of os) r P (d64_den _ _ D)) as R. assert (Forall (fun o => v64 (bulk_val o)) (map bulk_of os)) as F'. { rewrite Forall_map. eapply Forall_impl; [|exact F]. intros o V. now rewrite bulk_val_of. }
  specialize (R F'). destruct (bulk_spec (map bulk_of os) P None) as [[Q bs]|]; [tauto|exact R].
Qed.
Lemma no_drop_legal os : forall P, Forall (fun o => val64 (bulk_arg o)) os -> (forall v, ~ In (BDrop v) os) -> forall st : Z -> Prop, (forall h, ~ st h) -> bulk_legal os P st.
Proof.
  induction os as [|o os IH]; intros P F N st S; cbn [bulk_legal]; auto. inversion F; subst. split; auto. split; auto. apply IH; auto.
  - intros v I. apply (N v). right. auto.
  - intros h. destruct o as [v|v|v]; cbn [bulk_stale_next]; auto; [exfalso; apply (N v); left; reflexivity|]. intros (_ & X). exact (S h X).
Qed.
Lemma h_bulk_without_removal r P os : denotes64 r P -> Forall (fun o => val64 (bulk_arg o)) os -> (forall v, ~ In (BDrop v) os) ->
  exists r', run_bulk os r = Some (r', bulk_answers os P) /\ denotes64 r' (bulk_final os P).
Proof. intros D F N. apply h_bulk; auto. apply no_drop_legal; auto. Qed.
Lemma h_remove_many r P vs : denotes64 r P -> NoDup vs -> (forall v, In v vs -> val64 v /\ P v = true) -> exists r1, roaring64_bitmap_remove_many r vs = Some r1 /\ denotes64 r1 (zdiff P (zlist vs)).
Proof.
  intros D ND H. destruct (roaring64_bitmap_remove_many_present r P vs (d64_den _ _ D)) as (r1 & E & D1); auto.
  - apply Forall_forall. intros v I. apply H, I.
  - intros v I. apply H, I.
  - exists r1. split; auto. eapply d64_ext; [exact D1|]. intros v _. reflexivity.
Qed.
Lemma h_remove_many_refuted : exists r P vs, denotes64 r P /\ (forall v, In v vs -> val64 v) /\ roaring64_bitmap_remove_many r vs = None.
Proof.
  destruct remove_many_stale as (r & vs & E & F & N). assert (F5 : Forall v64 [5]) by (repeat constructor; lia). destruct (roaring64_bitmap_of_ptr_spec [5] F5) as (r' & E' & D).
  rewrite E in E'. injection E' as <-. exists r, (fun v => zmem v [5]), vs. split; [now apply d64_of|]. split; auto. intros v I. rewrite Forall_forall in F. now apply F.
Qed.

(** ** Enumeration *)
Lemma h_iterate {A} (f : A -> Z -> A * bool) r P l s : denotes64 r P -> lists64 P l -> roaring64_bitmap_iterate f r s = Some (call_until f l s).
Proof.
  intros D L. apply lists64_from in L. subst l. rewrite (roaring64_bitmap_iterate_spec f r P s (d64_den _ _ D)). f_equal.
Qed.
Lemma h_to_array r P l : denotes64 r P -> lists64 P l -> proper P -> roaring64_bitmap_to_uint64_array r = Some l.
Proof.
  intros D L X. apply lists64_from in L. subst l. apply roaring64_bitmap_to_uint64_array_spec; [now apply d64_den|]. now apply proper_cnt.
Qed.

(** ** Iterators *)
Lemma h_iterators r P l cs : denotes64 r P -> lists64 P l ->
  (ilegal64 l 0 false cs -> exists j, roaring64_iterator_create r = Some j /\ shown j = seen64 l 0 /\ iter_run64 r j cs = Some (cursor_run64 l 0 cs)) /\
  (ilegal64 l (len_of l - 1) false cs -> exists j, roaring64_iterator_create_last r = Some j /\ shown j = seen64 l (len_of l - 1) /\ iter_run64 r j cs = Some (cursor_run64 l (len_of l - 1) cs)).
Proof. intros D L. apply d64_den in D. split; intros H; [now apply (iter64_first r P)|now apply (iter64_last r P)]. Qed.
Lemma h_iterator_refuted r P l : denotes64 r P -> lists64 P l -> proper P -> l <> [] ->
  (exists j j1, roaring64_iterator_create r = Some j /\ roaring64_iterator_read r j (2^64 - 1) = Some (j1, l) /\ shown j1 = None /\ roaring64_iterator_advance r j1 = None /\ roaring64_iterator_previous r j1 = None) /\
  (exists j j1 j2 j3 j4, roaring64_iterator_create r = Some j /\ roaring64_iterator_previous r j = Some (j1, false) /\ roaring64_iterator_advance r j1 = Some (j2, true) /\
    roaring64_iterator_read r j2 (2^64 - 1) = Some (j3, l) /\ shown j3 = None /\ roaring64_iterator_advance r j3 = Some (j4, true)).
Proof.
  intros D L X N. pose proof (lists64_from _ _ L) as EL. apply proper_cnt in X. destruct l as [|v l]; [congruence|]. pose proof (proj1 (proj2 L v) (or_introl eq_refl)) as (V & PV). apply d64_den in D. rewrite EL. split.
  - destruct (read_then_advance_undefined r P v D X V PV) as (j & j1 & A & B & C & E & F). exists j, j1. unfold shown. rewrite C. split; [exact A|]. split; [exact B|]. split; [reflexivity|]. split; [exact E|exact F].
  - destruct (read_then_advance_wraps r P v D X V PV) as (j & j1 & j2 & j3 & j4 & w & A & B & C & E & F & G & _). exists j, j1, j2, j3, j4. unfold shown. rewrite F. split; [exact A|]. split; [exact B|]. split; [exact C|]. split; [exact E|]. split; [reflexivity|exact G].
Qed.

(** ** From 32-bit bitmaps *)
Lemma h_move r P : denotes r P -> exists r1, roaring64_bitmap_move_from_roaring32 r = Some (r1, []) /\ denotes64 r1 (fun v => (v <? 2^32) && P v).
Proof.
  intros D. apply den_iff in D as (B & M). pose proof (move_offset_spec 0 r ltac:(lia) 0 roaring64_bitmap_create (fun _ => false)) as S.
  destruct S as (r1 & E & D1); auto; try lia; try apply den_create.
  - intros k c I. destruct B as (_ & B1 & B2). unfold inb in B1. rewrite Forall_forall in B1, B2. assert (In k (rkeys r)) as IK by (apply in_map_iff; exists (k, c); auto). specialize (B1 k IK). specialize (B2 (k, c) I). split; [lia|exact B2].
  - exact (proj1 B).
  - exists r1. unfold roaring64_bitmap_move_from_roaring32. rewrite E. cbn [obind]. split; [reflexivity|]. eapply d64_ext; [exact D1|]. intros v V. unfold val64 in V. cbn [orb].
    destruct (Z.ltb_spec v (2^32)) as [L|L].
    + rewrite Z.div_small, Z.mod_small by lia. cbn [Z.eqb andb]. apply M. unfold val32. lia.
    + assert (1 <= v / 2^32) by (apply Z.div_le_lower_bound; lia). replace (v / 2^32 =? 0) with false by lia. reflexivity.
Qed.

(** ** Set algebra and cardinalities *)
Definition gives (o : option r64) (P : zset) : Prop := exists r, o = Some r /\ denotes64 r P.
Lemma gives_of o P Q : (exists r, o = Some r /\ den r P) -> (forall v, val64 v -> P v = Q v) -> gives o Q.
Proof. intros (r & E & D) X. exists r. split; auto. eapply d64_ext; eauto. Qed.
Lemma h_algebra a b P Q cap : denotes64 a P -> denotes64 b Q ->
  gives (roaring64_bitmap_and a b) (zinter P Q) /\ gives (roaring64_bitmap_or a b) (zunion P Q) /\
  gives (roaring64_bitmap_xor a b) (zsymm P Q) /\ gives (roaring64_bitmap_andnot a b) (zdiff P Q) /\
  gives (roaring64_bitmap_and_inplace false a b) (zinter P Q) /\ gives (roaring64_bitmap_or_inplace false cap a b) (zunion P Q) /\
  gives (roaring64_bitmap_xor_inplace false a b) (zsymm P Q) /\ gives (roaring64_bitmap_andnot_inplace a b) (zdiff P Q).
Proof.
  intros D1 D2. apply d64_den in D1, D2.
  split; [eapply gives_of; [apply (roaring64_bitmap_and_spec a b P Q D1 D2)|reflexivity]|].
  split; [eapply gives_of; [apply (roaring64_bitmap_or_spec a b P Q D1 D2)|reflexivity]|].
  split; [eapply gives_of; [apply (roaring64_bitmap_xor_spec a b P Q D1 D2)|reflexivity]|].
  split; [eapply gives_of; [apply (roaring64_bitmap_andnot_spec a b P Q D1 D2)|reflexivity]|].
  split; [eapply gives_of; [apply (roaring64_bitmap_and_inplace_spec a b P Q D1 D2)|reflexivity]|].
  split; [eapply gives_of; [apply (roaring64_bitmap_or_inplace_spec cap a b P Q D1 D2)|reflexivity]|].
  split; [eapply gives_of; [apply (roaring64_bitmap_xor_inplace_spec a b P Q D1 D2)|reflexivity]|].
  eapply gives_of; [apply (roaring64_bitmap_andnot_inplace_spec a b P Q D1 D2)|reflexivity].
Qed.
Lemma h_algebra_same a P cap : denotes64 a P ->
  gives (roaring64_bitmap_and_inplace true a a) P /\ gives (roaring64_bitmap_or_inplace true cap a a) P.
Proof. intros D. split; exists a; split; auto. Qed.
Definition counts (o : option Z) (P : zset) : Prop := exists n, o = Some n /\ card_word P n.
Lemma h_cardinalities a b P Q : denotes64 a P -> denotes64 b Q ->
  counts (roaring64_bitmap_get_cardinality a) P /\
  counts (roaring64_bitmap_and_cardinality a b) (zinter P Q) /\ counts (roaring64_bitmap_or_cardinality a b) (zunion P Q) /\
  counts (roaring64_bitmap_xor_cardinality a b) (zsymm P Q) /\ counts (roaring64_bitmap_andnot_cardinality a b) (zdiff P Q) /\
  (exists i u, roaring64_bitmap_jaccard_index a b = Some (i, u) /\ card_word (zinter P Q) i /\ card_word (zunion P Q) u).
Proof.
  intros D1 D2. apply d64_den in D1, D2.
  split; [eexists; split; [apply (roaring64_bitmap_get_cardinality_spec a P D1)|now apply card_word_cnt]|].
  split; [eexists; split; [apply (roaring64_bitmap_and_cardinality_spec a b P Q D1 D2)|now apply card_word_cnt]|].
  split; [eexists; split; [apply (roaring64_bitmap_or_cardinality_spec a b P Q D1 D2)|now apply card_word_cnt]|].
  split; [eexists; split; [apply (roaring64_bitmap_xor_cardinality_spec a b P Q D1 D2)|now apply card_word_cnt]|].
  split; [eexists; split; [apply (roaring64_bitmap_andnot_cardinality_spec a b P Q D1 D2)|now apply card_word_cnt]|].
  eexists _, _. split; [apply (roaring64_bitmap_jaccard_spec a b P Q D1 D2)|]. split; now apply card_word_cnt.
Qed.
Lemma h_card_word P n : proper P -> (card_word P n <-> has_card64 P n).
Proof.
  intros X. apply proper_cnt in X. pose proof (cnt_bound P 0 (2^64) ltac:(lia)) as B. split.
  - intros (m & C & ->). apply has_card64_cnt in C. apply has_card64_cnt. rewrite Z.mod_small by lia. exact C.
  - intros C. exists n. split; auto. apply has_card64_cnt in C. rewrite Z.mod_small by lia. reflexivity.
Qed.
Lemma h_comparisons a b P Q : denotes64 a P -> denotes64 b Q ->
  (exists x, roaring64_bitmap_equals a b = Some x /\ (x = true <-> same_set64 P Q)) /\
  (exists x, roaring64_bitmap_is_subset a b = Some x /\ (x = true <-> zsubset64 P Q)) /\
  (exists x, roaring64_bitmap_intersect a b = Some x /\ (x = true <-> exists v, val64 v /\ P v = true /\ Q v = true)) /\
  (roaring64_bitmap_is_empty a = true <-> same_set64 P zempty).
Proof.
  intros D1 D2. apply d64_den in D1, D2. split; [apply (roaring64_bitmap_equals_spec a b P Q D1 D2)|]. split; [apply (roaring64_bitmap_is_subset_spec a b P Q D1 D2)|].
  split; [apply (roaring64_bitmap_intersect_spec a b P Q D1 D2)|]. apply (den_empty a P D1).
Qed.
Lemma h_strict_subset a b P Q : denotes64 a P -> denotes64 b Q -> proper P -> proper Q ->
  exists x, roaring64_bitmap_is_strict_subset a b = Some x /\ (x = true <-> zsubset64 P Q /\ ~ zsubset64 Q P).
Proof.
  intros D1 D2 X Y. apply d64_den in D1, D2. destruct (roaring64_bitmap_is_strict_subset_spec a b P Q D1 D2 (proper_cnt _ X) (proper_cnt _ Y)) as (x & E & I). exists x. split; auto. rewrite I. unfold zsubset64. split; intros (A & B); (split; [exact A|]); intros G; apply B.
  - intros v V. destruct (P v) eqn:E1, (Q v) eqn:E2; auto; [specialize (A v V E1); congruence|specialize (G v V E2); congruence].
  - intros v V T. now rewrite (G v V).
Qed.

(** ** Ranges, up to and including the last value *)
Lemma h_ranges r P cap a b : denotes64 r P -> val64 a -> val64 b ->
  gives (roaring64_bitmap_add_range_closed r a b) (zunion P (zival a (b + 1))) /\ gives (roaring64_bitmap_add_range r a b) (zunion P (zival a b)) /\
  gives (roaring64_bitmap_remove_range_closed r a b) (zdiff P (zival a (b + 1))) /\ gives (roaring64_bitmap_remove_range r a b) (zdiff P (zival a b)) /\
  gives (roaring64_bitmap_flip_closed r a b) (zsymm P (zival a (b + 1))) /\ gives (roaring64_bitmap_flip r a b) (zsymm P (zival a b)) /\
  gives (roaring64_bitmap_flip_closed_inplace cap r a b) (zsymm P (zival a (b + 1))) /\ gives (roaring64_bitmap_flip_inplace cap r a b) (zsymm P (zival a b)).
Proof.
  intros D A B. apply d64_den in D.
  split; [eapply gives_of; [apply (roaring64_bitmap_add_range_closed_spec r P a b D A B)|]; intros v _; cbv beta; now rewrite ival_zival|].
  split; [eapply gives_of; [apply (roaring64_bitmap_add_range_spec r P a b D A B)|]; intros v _; cbv beta; now rewrite ival_zival'|].
  split; [eapply gives_of; [apply (roaring64_bitmap_remove_range_closed_spec r P a b D A B)|]; intros v _; cbv beta; now rewrite ival_zival|].
  split; [eapply gives_of; [apply (roaring64_bitmap_remove_range_spec r P a b D A B)|]; intros v _; cbv beta; now rewrite ival_zival'|].
  split; [eapply gives_of; [apply (roaring64_bitmap_flip_closed_spec r P a b D A B)|]; intros v _; unfold flipset; now rewrite ival_zival|].
  split; [eapply gives_of; [apply (roaring64_bitmap_flip_spec r P a b D A B)|]; intros v _; unfold flipset; now rewrite ival_zival'|].
  split; [eapply gives_of; [apply (roaring64_bitmap_flip_closed_inplace_spec cap r P a b D A B)|]; intros v _; unfold flipset; now rewrite ival_zival|].
  eapply gives_of; [apply (roaring64_bitmap_flip_inplace_spec cap r P a b D A B)|]; intros v _; unfold flipset; now rewrite ival_zival'.
Qed.
Lemma h_range_queries r P a b : denotes64 r P -> val64 a -> val64 b ->
  counts (roaring64_bitmap_range_cardinality r a b) (zinter P (zival a b)) /\ counts (roaring64_bitmap_range_closed_cardinality r a b) (zinter P (zival a (b + 1))) /\
  (exists x, roaring64_bitmap_intersect_with_range r a b = Some x /\ (x = true <-> exists v, a <= v < b /\ P v = true)).
Proof.
  intros D A B. apply d64_den in D. unfold val64 in *.
  split; [eexists; split; [apply (roaring64_bitmap_range_cardinality_spec r P a b D A B)|]; apply card_word_window; auto; lia|].
  split; [eexists; split; [apply (roaring64_bitmap_range_closed_cardinality_spec r P a b D A B)|]; apply card_word_window; auto; lia|].
  apply (roaring64_bitmap_intersect_with_range_spec r P a b A B D).
Qed.
Lemma h_from_range lo hi step : val64 lo -> val64 hi -> 0 <= step < 2^64 ->
  if (step =? 0) || (hi <=? lo) then roaring64_bitmap_from_range lo hi step = Some None
  else exists r, roaring64_bitmap_from_range lo hi step = Some (Some r) /\ denotes64 r (zprog lo hi step).
Proof.
  intros A B C. destruct (roaring64_bitmap_from_range_spec lo hi step A B C) as (o & -> & X). destruct o as [r|].
  - destruct X as (X1 & X2 & D). replace ((step =? 0) || (hi <=? lo)) with false by lia. exists r. split; auto. now apply d64_of.
  - replace ((step =? 0) || (hi <=? lo)) with true by lia. reflexivity.
Qed.

(** ** Order statistics *)
Lemma h_rank r P v : denotes64 r P -> val64 v -> counts (roaring64_bitmap_rank r v) (zinter P (zival 0 (v + 1))).
Proof. intros D V. apply d64_den in D. unfold val64 in *. eexists. split; [apply (roaring64_bitmap_rank_spec r P v D V)|]. apply card_word_window; auto; lia. Qed.
Lemma h_get_index r P v : denotes64 r P -> val64 v -> exists o, roaring64_bitmap_get_index r v = Some o /\
  match o with Some n => P v = true /\ has_card64 (zinter P (zival 0 v)) n | None => P v = false end.
Proof.
  intros D V. apply d64_den in D. eexists. split; [apply (roaring64_bitmap_get_index_spec r P v D V)|]. destruct (P v) eqn:E; auto. split; auto. apply has_card64_cnt. unfold val64 in V. rewrite cnt_window by lia. reflexivity.
Qed.
Lemma h_select r P k : denotes64 r P -> val64 k -> proper P -> exists o, roaring64_bitmap_select r k = Some o /\
  match o with Some v => val64 v /\ P v = true /\ has_card64 (zinter P (zival 0 v)) k | None => forall n, has_card64 P n -> n <= k end.
Proof.
  intros D V X. apply d64_den in D. destruct (roaring64_bitmap_select_spec r P k D V (proper_cnt _ X)) as (o & E & Y). exists o. split; auto. destruct o as [v|].
  - destruct Y as (Y1 & Y2 & Y3). split; auto. split; auto. apply has_card64_cnt. unfold v64 in Y1. rewrite cnt_window by lia. auto.
  - intros n N. apply has_card64_cnt in N. lia.
Qed.
(** the 64-bit sum wraps at the last block of the full universe: none of its values is found *)
Lemma select_fold_full r k t : 2^64 - 65536 <= k < 2^64 -> forall lo, blocks zfull64 lo t -> gets r t -> exists n, efold (select_body r k) t (inl (lo * 65536)) = Some (inl n).
Proof.
  intros K. induction t as [|x t IH]; intros lo B G; pose proof (blocks_lo _ _ _ B) as LB; inversion B as [? L0 Z0|? ? ? L0 KK Z0 RX B']; subst; cbn [efold]; [eauto|].
  apply gets_cons in G as (G & G'). unfold select_body at 1. rewrite G. cbn [obind]. cbv zeta. set (h := kv (e_key x)) in *. pose proof (key6_range _ KK) as KR. fold h in KR.
  assert (h = lo). { destruct (Z.eq_dec h lo) as [|N]; auto. exfalso. specialize (Z0 (lo * 65536) ltac:(lia)). discriminate Z0. }
  assert (E : container_get_cardinality (e_c x) = 65536). { rewrite (block_card _ _ _ RX). rewrite cnt_full; [fold h; lia|lia|]. intros y _. reflexivity. }
  rewrite E. replace (lo * 65536 + 65536) with ((h + 1) * 65536) by lia. assert (M : ((h + 1) * 65536) mod 2^64 <= k).
  { destruct (Z.eq_dec (h + 1) (2^48)) as [->|N]; [change ((2^48 * 65536) mod 2^64) with 0; lia|]. rewrite Z.mod_small by lia. lia. }
  destruct (Z.ltb_spec k (((h + 1) * 65536) mod 2^64)); [lia|]. apply (IH _ B' G').
Qed.
Lemma h_select_refuted : exists r, denotes64 r zfull64 /\ forall k, 2^64 - 65536 <= k < 2^64 -> roaring64_bitmap_select r k = Some None.
Proof.
  destruct full_bitmap as (r & _ & D). exists r. split; auto. intros k K. apply d64_den in D. apply den_Lx in D as (xs & H & L). unfold roaring64_bitmap_select. rewrite (each_of_efold _ _ xs) by auto.
  destruct (select_fold_full r k xs K 0 (Lx_blocks0 _ _ L) (R_gets r [] xs H)) as (n & E). change (0 * 65536) with 0 in E. rewrite E. reflexivity.
Qed.
Lemma h_extremes r P : denotes64 r P ->
  (exists m, roaring64_bitmap_minimum r = Some m /\ ((val64 m /\ P m = true /\ forall v, val64 v -> P v = true -> m <= v) \/ (same_set64 P zempty /\ m = 2^64 - 1))) /\
  (exists m, roaring64_bitmap_maximum r = Some m /\ ((val64 m /\ P m = true /\ forall v, val64 v -> P v = true -> v <= m) \/ (same_set64 P zempty /\ m = 0))).
Proof.
  intros D. apply d64_den in D. split.
  - destruct (roaring64_bitmap_minimum_spec r P D) as (m & E & X). exists m. split; auto. destruct X as [(X1 & X2)|X]; [right|left]; auto.
  - destruct (roaring64_bitmap_maximum_spec r P D) as (m & E & X). exists m. split; auto. destruct X as [(X1 & X2)|X]; [right|left]; auto.
Qed.

(** ** A concrete bitmap with five blocks, for the examples *)
Definition vs64 : list Z := [3; 65535; 65536; 65537; 2^32 + 5; 2^40; 2^64 - 1].
Definition sample64 : r64 := match roaring64_bitmap_of_ptr vs64 with Some r => r | None => roaring64_bitmap_create end.
Definition vs64b : list Z := [3; 9; 65537; 2^40; 2^40 + 1].
Definition other64 : r64 := match roaring64_bitmap_of_ptr vs64b with Some r => r | None => roaring64_bitmap_create end.
Lemma of_ptr_den vs r : (forall v, In v vs -> val64 v) -> roaring64_bitmap_of_ptr vs = Some r -> denotes64 r (zlist vs).
Proof. intros F E. destruct (roaring64_bitmap_of_ptr_spec vs (Forall_v64 vs F)) as (r' & E' & D). rewrite E in E'. injection E' as <-. now apply d64_of. Qed.
Lemma sample64_den : denotes64 sample64 (zlist vs64).
Proof.
  unfold sample64. assert (F : forall v, In v vs64 -> val64 v) by (intros v I; unfold vs64, val64 in *; cbn [In] in I; lia).
  destruct (roaring64_bitmap_of_ptr_spec vs64 (Forall_v64 _ F)) as (r & -> & D). now apply d64_of.
Qed.
Lemma other64_den : denotes64 other64 (zlist vs64b).
Proof.
  unfold other64. assert (F : forall v, In v vs64b -> val64 v) by (intros v I; unfold vs64b, val64 in *; cbn [In] in I; lia).
  destruct (roaring64_bitmap_of_ptr_spec vs64b (Forall_v64 _ F)) as (r & -> & D). now apply d64_of.
Qed.
Lemma sample64_lists : lists64 (zlist vs64) vs64.
Proof.
  split; [repeat constructor; reflexivity|]. intros v. unfold zlist. rewrite existsb_exists. split.
  - intros I. split; [unfold vs64, val64 in *; cbn [In] in I; lia|]. exists v. split; auto. apply Z.eqb_refl.
  - intros (_ & x & I & E). apply Z.eqb_eq in E. now subst.
Qed.
Lemma sample64_proper : proper (zlist vs64).
Proof. exists 4. split; [unfold val64; lia|reflexivity]. Qed.
