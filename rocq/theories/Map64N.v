(** Map64N: the native form of the map; bitmaps without run containers. *)
From Coq Require Import ZArith List Bool Lia Sorting.Sorted.
From Verif Require Import Base ArrayUtil BitUtil BitsetC ArrayC RunC RunD Convert Containers RArray RBinary RPoint RRange RQuery RStat Iter Bytes Serial SerialP Spec Spec64 Obs Map64 Map64P Map64S.
Import ListNotations.
Local Open Scope Z_scope.
Local Opaque zr.

Definition runless (r : bitmap) : Prop := forall p, In p r -> is_run (snd p) = false.
Lemma runless_flag r : runless r -> ra_has_run_container r = false.
Proof. intros H. unfold ra_has_run_container. destruct (existsb _ r) eqn:E; auto. apply existsb_exists in E as (p & I & X). now rewrite (H p I) in X. Qed.
Lemma add_runless c v : is_run c = false -> is_run (container_add c v) = false.
Proof. destruct c as [a|b|x]; cbn [container_add is_run]; auto. intros _. destruct (array_container_try_add a v 4096) as (rc & a'). now destruct (negb _). Qed.
Lemma upd_in {A} n (v : A) l x : In x (upd n v l) -> x = v \/ In x l.
Proof. revert n. induction l as [|h t IH]; intros [|n] I; cbn [upd] in I; try tauto; destruct I as [->|I]; cbn; auto. apply IH in I. tauto. Qed.
Lemma point_runless r v : runless r -> runless (roaring_bitmap_add r v).
Proof.
  intros H p I. unfold roaring_bitmap_add in I. destruct (0 <=? _).
  - apply upd_in in I as [->|I]; [|now apply H]. cbn [snd]. apply add_runless. unfold rcon, rnth. destruct (nth_in_or_default (Z.to_nat (ra_get_index r (Z.shiftr v 16))) r dflt) as [J| ->]; [now apply H|reflexivity].
  - unfold ra_insert_new_key_value_at, zfirst, zdrop in I. apply in_app_iff in I as [I|[<-|I]]; [apply H|cbn [snd]; now apply add_runless|apply H]; rewrite <- (firstn_skipn (Z.to_nat (- ra_get_index r (Z.shiftr v 16) - 1)) r); apply in_app_iff; auto.
Qed.
Lemma fold_runless vs : forall r, runless r -> runless (fold_left roaring_bitmap_add vs r).
Proof. induction vs as [|v vs IH]; intros r H; cbn [fold_left]; auto. apply IH. now apply point_runless. Qed.
Lemma of_runless vs : (forall v, In v vs -> 0 <= v < 2^32) -> runless (roaring_bitmap_of vs).
Proof. intros V. unfold roaring_bitmap_of. rewrite add_bulk_list_spec by (auto; exact Logic.I || apply bok_nil). apply fold_runless. intros p []. Qed.

(** the size of a bitmap without runs depends on its members only *)
Definition plain_size (n : Z) : Z := if n <=? 4096 then 2 * n else 8192.
Lemma runless_csize c : cok c -> is_run c = false -> container_size_in_bytes c = plain_size (ccard c).
Proof.
  intros C R. rewrite <- container_get_cardinality_spec by auto. unfold plain_size. destruct c as [a|b|x]; cbn [container_size_in_bytes container_get_cardinality is_run cok] in *; [| |discriminate].
  - replace (_ <=? 4096) with true by lia. lia.
  - replace (_ <=? 4096) with false by lia. reflexivity.
Qed.
Definition keysum (g : Z -> Z) (ks : list Z) : Z := fold_right (fun k n => g k + n) 0 ks.
Lemma tot_keysum r f g : (forall k c, In (k, c) r -> f c = g k) -> tot f r = keysum g (rkeys r).
Proof. induction r as [|[k c] t IH]; intros H; [reflexivity|]. cbn [tot rkeys map fst keysum fold_right]. rewrite (H k c) by (left; reflexivity). f_equal. apply IH. intros k' c' I. apply H. now right. Qed.
Lemma keys_members r k : bok r -> (In k (rkeys r) <-> 0 <= k < 65536 /\ exists x, 0 <= x < 65536 /\ km r k x = true).
Proof.
  intros (S & K & C). split.
  - intros I. unfold inb in K. rewrite Forall_forall in K. split; [now apply K|]. apply in_map_iff in I as ([k' c] & E & I). cbn [fst] in E. subst k'. rewrite Forall_forall in C. specialize (C _ I). cbn [snd] in C. apply cok_card_pos in C. unfold ccard in C.
    apply cnt_ex in C as (x & X & M). exists x. split; auto. unfold km. now rewrite (look_In r k c S I).
  - intros (_ & x & X & M). unfold km in M. destruct (look r k) as [c|] eqn:L; [|discriminate]. apply look_some in L. now apply (in_map fst) in L.
Qed.
Lemma runless_size r r' : bok r -> bok r' -> runless r -> runless r' -> (forall v, mem r v = mem r' v) -> ra_portable_size_in_bytes r = ra_portable_size_in_bytes r'.
Proof.
  intros B B' R R' M. assert (KM : forall k x, 0 <= x < 65536 -> km r k x = km r' k x). { intros k x X. specialize (M (k * 65536 + x)). rewrite !mem_km in M. replace ((k * 65536 + x) / 65536) with k in M by (apply Z.div_unique with x; lia). replace ((k * 65536 + x) mod 65536) with x in M by (apply Z.mod_unique with k; lia). exact M. }
  assert (KE : rkeys r = rkeys r'). { apply incr_ext; [apply B|apply B'|]. intros k. rewrite !keys_members by auto. split; intros (K & x & X & E); (split; auto; exists x; split; auto); [now rewrite <- KM|now rewrite KM]. }
  assert (T : forall q, bok q -> runless q -> tot container_size_in_bytes q = keysum (fun k => plain_size (cnt (km q k) 0 65536)) (rkeys q)).
  { intros q (S & K & C) Q. apply tot_keysum. intros k c I. rewrite Forall_forall in C. rewrite (runless_csize c) by (try exact (C _ I); exact (Q _ I)). f_equal. unfold ccard. apply cnt_ext. intros x _. unfold km. now rewrite (look_In q k c S I). }
  rewrite !ra_size_tot, (T r), (T r') by auto. f_equal.
  - unfold ra_portable_header_size. rewrite !runless_flag by auto. replace (zlen r') with (zlen r); auto. transitivity (zlen (rkeys r)); [unfold zlen, rkeys; now rewrite map_length|]. rewrite KE. unfold zlen, rkeys. now rewrite map_length.
  - rewrite KE. clear -KM. induction (rkeys r') as [|k ks IH]; cbn [keysum fold_right]; auto. rewrite (cnt_ext (km r k) (km r' k)) by auto. apply f_equal. exact IH.
Qed.
(** a bitmap without runs is read back at its own size from either native form *)
Lemma rereads_runless b : bok b -> runless b -> rereads false b.
Proof.
  intros B R. destruct (Z.ltb_spec (ra_portable_size_in_bytes b) (roaring_bitmap_get_cardinality b * 4 + 4)) as [L|L]; [now apply rereads_native|].
  intros post BP. cbn [ibytes inner_read inner_size]. pose proof (nbytes_zlen b B) as NZ. pose proof (array_format_card b B L) as CB. pose proof (zlen_nonneg post).
  destruct (native_round_trip b post (zlen (nbytes b ++ post)) B BP) as (r' & _ & E & B' & M); [rewrite zlen_app; lia|]. specialize (E ltac:(pose proof (psize_small b B); lia)). exists r'. split; auto.
  assert (D : forall Q, denotes b Q -> denotes r' Q). { intros Q D. apply den_iff. split; auto. intros v V. rewrite M. apply den_iff in D. now apply D. }
  split; auto. assert (X : runless r').
  { unfold nbytes in E. replace (_ <? _) with false in E by lia. set (card := roaring_bitmap_get_cardinality b) in *. set (a := 1 :: le 4 card ++ les 4 (elems b)) in *.
    assert (BA : bytes (a ++ post)). { apply bytes_app. split; auto. constructor; [lia|]. apply bytes_app. split; [apply le_bytes|apply les_bytes]. }
    assert (EZ : zlen (elems b) = card). { rewrite elems_zlen by auto. symmetry. now apply roaring_bitmap_get_cardinality_spec. }
    destruct (native_array_read (a ++ post) [] (zlen (a ++ post)) BA ltac:(lia) card) as (l & L1 & L2 & _ & _ & L4).
    - apply (rdv_le 1 [] 1 ((le 4 card ++ les 4 (elems b)) ++ post)); [reflexivity|cbn; lia].
    - unfold a. change ((1 :: le 4 card ++ les 4 (elems b)) ++ post) with (([1] ++ le 4 card ++ les 4 (elems b)) ++ post). rewrite <- !app_assoc. apply (rdv_le 4 [1] card); [reflexivity|exact CB].
    - unfold a. rewrite zlen_app, zlen_cons, zlen_app, le_zlen, les_zlen. lia.
    - rewrite app_nil_r in L4. rewrite L4 in E. assert (r' = roaring_bitmap_of l) as -> by congruence. apply of_runless. rewrite Forall_forall in L2. exact L2. }
  assert (S : ra_portable_size_in_bytes r' = ra_portable_size_in_bytes b) by (apply runless_size; auto). assert (C : roaring_bitmap_get_cardinality r' = roaring_bitmap_get_cardinality b). { rewrite !roaring_bitmap_get_cardinality_spec by auto. unfold bcardinal. apply cnt_ext. auto. }
  unfold roaring_bitmap_size_in_bytes, roaring_bitmap_portable_size_in_bytes. now rewrite S, C.
Qed.
