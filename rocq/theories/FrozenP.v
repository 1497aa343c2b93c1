(** FrozenP: proofs about the frozen formats. *)
From Coq Require Import ZArith List Bool Lia.
From Verif Require Import Base ArrayUtil BitUtil BitsetC ArrayC RunC RunD Convert Containers RArray RBinary RPoint RRange RQuery RStat Bytes Serial SerialP Frozen.
Import ListNotations.
Local Open Scope Z_scope.
Local Opaque zr.

Definition isB (c : container) : bool := match c with CBit _ => true | _ => false end.
Definition isA (c : container) : bool := match c with CArr _ => true | _ => false end.
Definition zone (f : container -> bool) (r : bitmap) : list Z := flat_map (fun p : entry => if f (snd p) then zone_bytes (snd p) else []) r.
Definition fcounts (r : bitmap) : list Z := map (fun p : entry => frozen_count (snd p)) r.
Definition fcodes (r : bitmap) : list Z := map (fun p : entry => typecode (snd p)) r.
Definition fheader (r : bitmap) : Z := Z.lor (u32 (Z.shiftl (zlen r) 15)) 13766.
Definition fbytes (r : bitmap) : list Z :=
  zone isB r ++ zone is_run r ++ zone isA r ++ les 2 (rkeys r) ++ les 2 (fcounts r) ++ fcodes r ++ le 4 (fheader r).

Lemma store_mid A X B Y off : off = zlen A -> zlen X = zlen Y -> store (A ++ X ++ B) off Y = Some (A ++ Y ++ B).
Proof.
  intros -> E. rewrite store_cursor by (rewrite zlen_app; pose proof (zlen_nonneg B); lia). f_equal. rewrite <- app_assoc. do 2 f_equal.
  apply skipn_app_l. unfold zlen in E. lia.
Qed.
Lemma split_at n (l : list Z) : 0 <= n <= zlen l -> exists a b, l = a ++ b /\ zlen a = n /\ zlen b = zlen l - n.
Proof. intros H. exists (zfirst n l), (zdrop n l). rewrite zfirst_zdrop, zfirst_zlen, zdrop_zlen by lia. auto. Qed.
Lemma zone_size_nonneg c : 0 <= zone_size c.
Proof. destruct c; cbn [zone_size]; try lia; match goal with |- context [zlen ?l] => pose proof (zlen_nonneg l) end; lia. Qed.
Lemma tot_zone_nonneg r : 0 <= tot (onB zone_size) r /\ 0 <= tot (onR zone_size) r /\ 0 <= tot (onA zone_size) r.
Proof. induction r as [|[k c] t IH]; cbn [tot]; [lia|]. pose proof (zone_size_nonneg c). destruct c; cbn [onA onB onR] in *; lia. Qed.
Lemma zone_bytes_zlen c : ctyped c -> zlen (zone_bytes c) = zone_size c.
Proof.
  destruct c as [a|b|x]; cbn [ctyped zone_bytes zone_size]; intros H.
  - rewrite les_zlen. lia.
  - rewrite les_zlen. destruct H as [_ ->]. reflexivity.
  - rewrite les_zlen, run_words_zlen. lia.
Qed.
Lemma zone_cons f k c t : zone f ((k, c) :: t) = (if f c then zone_bytes c else []) ++ zone f t. Proof. reflexivity. Qed.
Lemma zone_app f a b : zone f (a ++ b) = zone f a ++ zone f b. Proof. apply flat_map_app. Qed.
Lemma zones_zlen r : Forall (fun p : entry => ctyped (snd p)) r ->
  zlen (zone isB r) = tot (onB zone_size) r /\ zlen (zone is_run r) = tot (onR zone_size) r /\ zlen (zone isA r) = tot (onA zone_size) r.
Proof.
  induction 1 as [|[k c] t D T IH]; auto. cbn [snd tot] in *. rewrite !zone_cons, !zlen_app. destruct IH as (->&->&->). pose proof (zone_bytes_zlen c D).
  destruct c; cbn [isB isA is_run onA onB onR] in *; change (zlen (@nil Z)) with 0; lia.
Qed.
Lemma frozen_loop_bytes t : Forall (fun p : entry => ctyped (snd p)) t ->
  forall i B1 B2 R1 R2 A1 A2 K C1 C2 T bz rz az cz,
  zlen B2 = tot (onB zone_size) t -> zlen R2 = tot (onR zone_size) t -> zlen A2 = tot (onA zone_size) t -> zlen C2 = 2 * zlen t ->
  bz = zlen B1 -> rz = zlen (B1 ++ B2 ++ R1) -> az = zlen (B1 ++ B2 ++ R1 ++ R2 ++ A1) -> cz + 2 * i = zlen (B1 ++ B2 ++ R1 ++ R2 ++ A1 ++ A2 ++ K ++ C1) ->
  frozen_loop t i bz rz az cz (B1 ++ B2 ++ R1 ++ R2 ++ A1 ++ A2 ++ K ++ C1 ++ C2 ++ T) =
  Some (B1 ++ zone isB t ++ R1 ++ zone is_run t ++ A1 ++ zone isA t ++ K ++ C1 ++ les 2 (fcounts t) ++ T).
Proof.
  induction 1 as [|[k c] t D TD IH]; intros i B1 B2 R1 R2 A1 A2 K C1 C2 T bz rz az cz HB HR HA HC Ebz Erz Eaz Ecz.
  { cbn [tot frozen_loop] in *. rewrite (zlen_0_nil B2), (zlen_0_nil R2), (zlen_0_nil A2) by auto. change (zlen (@nil entry)) with 0 in HC. rewrite (zlen_0_nil C2) by lia. reflexivity. }
  cbn [snd] in D. rewrite zlen_cons in HC. pose proof (tot_zone_nonneg t) as (N1&N2&N3). pose proof (zlen_nonneg t).
  destruct (split_at 2 C2) as (Ca&Cb&->&LCa&LCb); [lia|]. pose proof (zone_bytes_zlen c D) as ZB. pose proof (zone_size_nonneg c) as ZN.
  rewrite !zone_cons. cbn [fcounts map snd]. rewrite les_cons. fold (fcounts t).
  cbn [frozen_loop]. destruct c as [a|b|x]; cbn [isB isA is_run app tot onA onB onR] in *.
  - destruct (split_at (zone_size (CArr a)) A2) as (Aa&Ab&->&LAa&LAb); [lia|].
    replace (B1 ++ B2 ++ R1 ++ R2 ++ A1 ++ (Aa ++ Ab) ++ K ++ C1 ++ (Ca ++ Cb) ++ T)
      with ((B1 ++ B2 ++ R1 ++ R2 ++ A1) ++ Aa ++ (Ab ++ K ++ C1 ++ Ca ++ Cb ++ T)) by now rewrite <- !app_assoc.
    rewrite (store_mid _ _ _ (zone_bytes (CArr a))) by (auto; lia). cbn [obind].
    replace ((B1 ++ B2 ++ R1 ++ R2 ++ A1) ++ zone_bytes (CArr a) ++ Ab ++ K ++ C1 ++ Ca ++ Cb ++ T)
      with ((B1 ++ B2 ++ R1 ++ R2 ++ A1 ++ zone_bytes (CArr a) ++ Ab ++ K ++ C1) ++ Ca ++ (Cb ++ T)) by now rewrite <- !app_assoc.
    rewrite (store_mid _ _ _ (le 2 (frozen_count (CArr a)))).
    2:{ rewrite Ecz. rewrite !zlen_app. lia. } 2:{ rewrite le_zlen. lia. } cbn [obind].
    replace ((B1 ++ B2 ++ R1 ++ R2 ++ A1 ++ zone_bytes (CArr a) ++ Ab ++ K ++ C1) ++ le 2 (frozen_count (CArr a)) ++ Cb ++ T)
      with (B1 ++ B2 ++ R1 ++ R2 ++ (A1 ++ zone_bytes (CArr a)) ++ Ab ++ K ++ (C1 ++ le 2 (frozen_count (CArr a))) ++ Cb ++ T) by now rewrite <- !app_assoc.
    rewrite IH; auto; try lia.
    + now rewrite <- !app_assoc.
    + subst az. rewrite !zlen_app, ZB. cbn [zone_size]. lia.
    + transitivity (cz + 2 * i + 2); [lia|]. rewrite Ecz. rewrite !zlen_app, le_zlen, ZB. lia.
  - destruct (split_at (zone_size (CBit b)) B2) as (Ba&Bb&->&LBa&LBb); [lia|].
    replace (B1 ++ (Ba ++ Bb) ++ R1 ++ R2 ++ A1 ++ A2 ++ K ++ C1 ++ (Ca ++ Cb) ++ T)
      with (B1 ++ Ba ++ (Bb ++ R1 ++ R2 ++ A1 ++ A2 ++ K ++ C1 ++ Ca ++ Cb ++ T)) by now rewrite <- !app_assoc.
    rewrite (store_mid _ _ _ (zone_bytes (CBit b))) by (auto; lia). cbn [obind].
    replace (B1 ++ zone_bytes (CBit b) ++ Bb ++ R1 ++ R2 ++ A1 ++ A2 ++ K ++ C1 ++ Ca ++ Cb ++ T)
      with ((B1 ++ zone_bytes (CBit b) ++ Bb ++ R1 ++ R2 ++ A1 ++ A2 ++ K ++ C1) ++ Ca ++ (Cb ++ T)) by now rewrite <- !app_assoc.
    rewrite (store_mid _ _ _ (le 2 (frozen_count (CBit b)))).
    2:{ rewrite Ecz. rewrite !zlen_app. lia. } 2:{ rewrite le_zlen. lia. } cbn [obind].
    replace ((B1 ++ zone_bytes (CBit b) ++ Bb ++ R1 ++ R2 ++ A1 ++ A2 ++ K ++ C1) ++ le 2 (frozen_count (CBit b)) ++ Cb ++ T)
      with ((B1 ++ zone_bytes (CBit b)) ++ Bb ++ R1 ++ R2 ++ A1 ++ A2 ++ K ++ (C1 ++ le 2 (frozen_count (CBit b))) ++ Cb ++ T) by now rewrite <- !app_assoc.
    rewrite IH; auto; try lia.
    + now rewrite <- !app_assoc.
    + subst bz. rewrite zlen_app, ZB. reflexivity.
    + subst rz. rewrite !zlen_app, ZB. lia.
    + subst az. rewrite !zlen_app, ZB. lia.
    + transitivity (cz + 2 * i + 2); [lia|]. rewrite Ecz. rewrite !zlen_app, le_zlen, ZB. lia.
  - destruct (split_at (zone_size (CRun x)) R2) as (Ra&Rb&->&LRa&LRb); [lia|].
    replace (B1 ++ B2 ++ R1 ++ (Ra ++ Rb) ++ A1 ++ A2 ++ K ++ C1 ++ (Ca ++ Cb) ++ T)
      with ((B1 ++ B2 ++ R1) ++ Ra ++ (Rb ++ A1 ++ A2 ++ K ++ C1 ++ Ca ++ Cb ++ T)) by now rewrite <- !app_assoc.
    rewrite (store_mid _ _ _ (zone_bytes (CRun x))) by (auto; lia). cbn [obind].
    replace ((B1 ++ B2 ++ R1) ++ zone_bytes (CRun x) ++ Rb ++ A1 ++ A2 ++ K ++ C1 ++ Ca ++ Cb ++ T)
      with ((B1 ++ B2 ++ R1 ++ zone_bytes (CRun x) ++ Rb ++ A1 ++ A2 ++ K ++ C1) ++ Ca ++ (Cb ++ T)) by now rewrite <- !app_assoc.
    rewrite (store_mid _ _ _ (le 2 (frozen_count (CRun x)))).
    2:{ rewrite Ecz. rewrite !zlen_app. lia. } 2:{ rewrite le_zlen. lia. } cbn [obind].
    replace ((B1 ++ B2 ++ R1 ++ zone_bytes (CRun x) ++ Rb ++ A1 ++ A2 ++ K ++ C1) ++ le 2 (frozen_count (CRun x)) ++ Cb ++ T)
      with (B1 ++ B2 ++ (R1 ++ zone_bytes (CRun x)) ++ Rb ++ A1 ++ A2 ++ K ++ (C1 ++ le 2 (frozen_count (CRun x))) ++ Cb ++ T) by now rewrite <- !app_assoc.
    rewrite IH; auto; try lia.
    + now rewrite <- !app_assoc.
    + subst rz. rewrite !zlen_app, ZB. cbn [zone_size]. lia.
    + subst az. rewrite !zlen_app, ZB. lia.
    + transitivity (cz + 2 * i + 2); [lia|]. rewrite Ecz. rewrite !zlen_app, le_zlen, ZB. lia.
Qed.
Definition unshared (sh : Z -> bool) (r : bitmap) : Prop := forall k, In k (rkeys r) -> sh k = false.
Lemma unshared_existsb sh r : unshared sh r -> existsb (fun p : entry => sh (fst p)) r = false.
Proof.
  intros H. destruct (existsb (fun p : entry => sh (fst p)) r) eqn:E; auto. apply existsb_exists in E as (p&Hp&E). rewrite H in E; [discriminate|]. now apply in_map.
Qed.
Lemma zone_size_tot r : fold_left (fun n (p : entry) => n + zone_size (snd p)) r 0 = tot (onB zone_size) r + tot (onR zone_size) r + tot (onA zone_size) r.
Proof.
  assert (G : forall s, fold_left (fun n (p : entry) => n + zone_size (snd p)) r s = s + tot zone_size r).
  { induction r as [|[k c] t IH]; intros s; cbn [fold_left tot snd]; [lia|]. rewrite IH. lia. }
  rewrite G, (tot_split zone_size). lia.
Qed.
Lemma fbytes_zlen r : Forall (fun p : entry => ctyped (snd p)) r -> zlen (fbytes r) = tot (onB zone_size) r + tot (onR zone_size) r + tot (onA zone_size) r + 5 * zlen r + 4.
Proof.
  intros D. destruct (zones_zlen r D) as (Z1&Z2&Z3). unfold fbytes. rewrite !zlen_app, !les_zlen, le_zlen, Z1, Z2, Z3. unfold fcounts, fcodes, rkeys. rewrite !zlen_map. lia.
Qed.
Theorem frozen_size_spec sh r : unshared sh r -> Forall (fun p : entry => ctyped (snd p)) r -> roaring_bitmap_frozen_size_in_bytes sh r = Some (zlen (fbytes r)).
Proof.
  intros U D. unfold roaring_bitmap_frozen_size_in_bytes. rewrite unshared_existsb by auto. rewrite zone_size_tot, fbytes_zlen by auto. apply f_equal. lia.
Qed.
Theorem frozen_serialize_bytes sh r buf : unshared sh r -> Forall (fun p : entry => ctyped (snd p)) r -> zlen (fbytes r) <= zlen buf ->
  roaring_bitmap_frozen_serialize sh r buf = Some (fbytes r ++ skipn (length (fbytes r)) buf).
Proof.
  intros U D L. unfold roaring_bitmap_frozen_serialize. rewrite unshared_existsb by auto. pose proof (fbytes_zlen r D) as FZ.
  destruct (zones_zlen r D) as (Z1&Z2&Z3). pose proof (tot_zone_nonneg r) as (N1&N2&N3). pose proof (zlen_nonneg r) as N4.
  set (zb := tot (onB zone_size) r) in *. set (zrn := tot (onR zone_size) r) in *. set (za := tot (onA zone_size) r) in *.
  destruct (split_at zb buf) as (B2&x1&->&L1&M1); [lia|]. destruct (split_at zrn x1) as (R2&x2&->&L2&M2); [lia|]. destruct (split_at za x2) as (A2&x3&->&L3&M3); [lia|].
  destruct (split_at (2 * zlen r) x3) as (K&x4&->&L4&M4); [lia|]. destruct (split_at (2 * zlen r) x4) as (C2&x5&->&L5&M5); [lia|].
  destruct (split_at (zlen r) x5) as (TC&x6&->&L6&M6); [lia|]. destruct (split_at 4 x6) as (H&post&->&L7&M7); [lia|].
  pose proof (frozen_loop_bytes r D 0 [] B2 [] R2 [] A2 K [] C2 (TC ++ H ++ post) 0 zb (zb + zrn) (zb + zrn + za + 2 * zlen r)) as FL.
  cbn [app] in FL. rewrite FL; auto; clear FL; try (rewrite ?app_nil_r, ?zlen_app; lia).
  cbn [obind].
  replace (zone isB r ++ zone is_run r ++ zone isA r ++ K ++ les 2 (fcounts r) ++ TC ++ H ++ post)
    with ((zone isB r ++ zone is_run r ++ zone isA r) ++ K ++ (les 2 (fcounts r) ++ TC ++ H ++ post)) by now rewrite <- !app_assoc.
  rewrite (store_mid _ _ _ (les 2 (rkeys r))). 2:{ rewrite !zlen_app. lia. } 2:{ rewrite les_zlen, zlen_rkeys. lia. } cbn [obind].
  replace ((zone isB r ++ zone is_run r ++ zone isA r) ++ les 2 (rkeys r) ++ les 2 (fcounts r) ++ TC ++ H ++ post)
    with ((zone isB r ++ zone is_run r ++ zone isA r ++ les 2 (rkeys r) ++ les 2 (fcounts r)) ++ TC ++ (H ++ post)) by now rewrite <- !app_assoc.
  rewrite (store_mid _ _ _ (map (fun p => typecode (snd p)) r)). 2:{ rewrite !zlen_app, !les_zlen, zlen_rkeys. unfold fcounts. rewrite zlen_map. lia. } 2:{ rewrite zlen_map. lia. } cbn [obind].
  fold (fcodes r).
  replace ((zone isB r ++ zone is_run r ++ zone isA r ++ les 2 (rkeys r) ++ les 2 (fcounts r)) ++ fcodes r ++ H ++ post)
    with ((zone isB r ++ zone is_run r ++ zone isA r ++ les 2 (rkeys r) ++ les 2 (fcounts r) ++ fcodes r) ++ H ++ post) by now rewrite <- !app_assoc.
  rewrite (store_mid _ _ _ (le 4 (Z.lor (u32 (Z.shiftl (zlen r) 15)) 13766))).
  2:{ rewrite !zlen_app, !les_zlen, zlen_rkeys. unfold fcounts, fcodes. rewrite !zlen_map. lia. } 2:{ rewrite le_zlen. lia. }
  fold (fheader r). f_equal.
  replace (skipn (length (fbytes r)) (B2 ++ R2 ++ A2 ++ K ++ C2 ++ TC ++ H ++ post)) with post.
  { unfold fbytes. now rewrite <- !app_assoc. }
  symmetry. replace (B2 ++ R2 ++ A2 ++ K ++ C2 ++ TC ++ H ++ post) with ((B2 ++ R2 ++ A2 ++ K ++ C2 ++ TC ++ H) ++ post) by now rewrite <- !app_assoc.
  apply skipn_app_l. enough (zlen (fbytes r) = zlen (B2 ++ R2 ++ A2 ++ K ++ C2 ++ TC ++ H)) by (unfold zlen in *; lia). rewrite !zlen_app. lia.
Qed.
(** * Reading back *)
Ltac ok3 := match goal with |- Ok (?a, ?b, ?c) = Ok (?d, ?e, ?f) => replace a with d by lia; replace b with e by lia; replace c with f by lia; reflexivity end.
Lemma zlen_snoc {A} (d : list A) x : zlen (d ++ [x]) = zlen d + 1. Proof. now rewrite zlen_app. Qed.
Lemma frozen_count_range c : 0 <= frozen_count c < 65536.
Proof. destruct c; cbn [frozen_count]; unfold u16; apply Z.mod_pos_bound; lia. Qed.
Lemma frozen_zones_back buf counts typecodes r :
  (forall d k c t, r = d ++ (k, c) :: t -> rdv 1 buf (typecodes + zlen d) = Some (typecode c) /\ rdv 2 buf (counts + 2 * zlen d) = Some (frozen_count c)) ->
  Forall (fun p : entry => cok (snd p)) r ->
  forall t d bs rs as_, r = d ++ t ->
  frozen_zones buf counts typecodes (length t) (zlen d) bs rs as_ = Ok (bs + tot (onB zone_size) t, rs + tot (onR zone_size) t, as_ + tot (onA zone_size) t).
Proof.
  intros Hr D. induction t as [|[k c] t IH]; intros d bs rs as_ E. { cbn. now rewrite !Z.add_0_r. }
  cbn [length frozen_zones]. destruct (Hr d k c t E) as [-> ->].
  assert (Dc : cok c). { subst r. apply Forall_app in D as [_ D]. now inversion D. }
  assert (E' : r = (d ++ [(k, c)]) ++ t) by (subst r; now rewrite <- app_assoc).
  specialize (IH (d ++ [(k, c)])). rewrite zlen_snoc in IH. cbn [tot].
  destruct c as [a|b|x]; cbn [typecode onA onB onR frozen_count zone_size cok] in *; rewrite ?Z.eqb_refl; cbn [Z.eqb Pos.eqb orb].
  - rewrite u16_small by lia. rewrite IH by auto. ok3.
  - rewrite IH by auto. ok3.
  - pose proof (rwf_zlen x (proj1 Dc)). pose proof (zlen_nonneg x). rewrite u16_small by lia. rewrite IH by auto. ok3.
Qed.
Lemma zone_read_back f k c t : f c = true -> zone f ((k, c) :: t) = zone_bytes c ++ zone f t.
Proof. intros H. now rewrite zone_cons, H. Qed.
Lemma frozen_containers_back buf keys counts typecodes r tB tR tA :
  (forall d k c t, r = d ++ (k, c) :: t -> rdv 1 buf (typecodes + zlen d) = Some (typecode c) /\ rdv 2 buf (counts + 2 * zlen d) = Some (frozen_count c) /\
    rdv 2 buf (keys + 2 * zlen d) = Some k) ->
  Forall (fun p : entry => cok (snd p)) r ->
  forall t d pB pR pA, r = d ++ t -> buf = pB ++ zone isB t ++ tB -> buf = pR ++ zone is_run t ++ tR -> buf = pA ++ zone isA t ++ tA ->
  frozen_containers buf keys counts typecodes (length t) (zlen d) (zlen pB) (zlen pR) (zlen pA) = Ok t.
Proof.
  intros Hr D. induction t as [|[k c] t IH]; intros d pB pR pA E EB ER EA; auto.
  cbn [length frozen_containers]. destruct (Hr d k c t E) as (->&->&->).
  assert (Dc : cok c). { subst r. apply Forall_app in D as [_ D]. now inversion D. }
  pose proof (cok_ctyped c Dc) as Tc. pose proof (zone_bytes_zlen c Tc) as ZB.
  assert (E' : r = (d ++ [(k, c)]) ++ t) by (subst r; now rewrite <- app_assoc).
  specialize (IH (d ++ [(k, c)])). rewrite zlen_snoc in IH. rewrite !zone_cons in *.
  destruct c as [a|b|x]; cbn [typecode isA isB is_run app] in *; cbn [Z.eqb Pos.eqb].
  - rewrite <- app_assoc in EA. assert (CE : frozen_count (CArr a) + 1 = zlen a). { cbn [frozen_count]. cbn [cok] in Dc. rewrite u16_small; lia. } rewrite CE.
    replace (array_container_read (zlen a) buf (zlen pA)) with (Some a). 2:{ symmetry. rewrite EA. apply array_read_back. exact Tc. }
    replace (zlen pA + 2 * zlen a) with (zlen (pA ++ zone_bytes (CArr a))) by (rewrite zlen_app, ZB; cbn [zone_size]; lia).
    rewrite IH; auto. now rewrite <- app_assoc.
  - rewrite <- app_assoc in EB. pose proof (ccard_le (CBit b) Dc) as CB. assert (CG : container_get_cardinality (CBit b) = b_card b) by reflexivity. rewrite CG in CB. cbn [cok] in Dc.
    assert (CE : frozen_count (CBit b) + 1 = b_card b). { cbn [frozen_count]. rewrite (proj2 (Z.eqb_neq (b_card b) (-1))) by lia. cbn [negb]. rewrite u16_small; lia. }
    replace (bitset_container_read (frozen_count (CBit b) + 1) buf (zlen pB)) with (Some b). 2:{ symmetry. rewrite EB. apply bitset_read_back; auto. }
    replace (zlen pB + 8192) with (zlen (pB ++ zone_bytes (CBit b))) by (rewrite zlen_app, ZB; cbn [zone_size]; lia).
    rewrite IH; auto. now rewrite <- app_assoc.
  - rewrite <- app_assoc in ER. cbn [cok] in Dc. pose proof (rwf_zlen x (proj1 Dc)) as LX. pose proof (zlen_nonneg x).
    assert (CE : frozen_count (CRun x) = zlen x). { cbn [frozen_count]. rewrite u16_small; lia. } rewrite CE.
    replace (rd buf (zlen pR) (zlen x * 4)) with (Some (zone_bytes (CRun x))). 2:{ symmetry. rewrite ER. now apply rd_at. }
    replace (zlen pR + 4 * zlen x) with (zlen (pR ++ zone_bytes (CRun x))) by (rewrite zlen_app, ZB; cbn [zone_size]; lia).
    rewrite IH; auto. 2:{ now rewrite <- app_assoc. } do 3 f_equal. cbn [zone_bytes].
    rewrite <- (app_nil_r (les 2 (run_words x))).
    replace (2 * Z.to_nat (zlen x))%nat with (length (run_words x)). 2:{ pose proof (run_words_zlen x). unfold zlen in *. lia. }
    rewrite le_vals_les by exact (run_words_range x (proj1 Dc)). f_equal. apply pair_up_words.
Qed.
Lemma fheader_spec r : zlen r <= 65536 -> 0 <= fheader r < 256 ^ Z.of_nat 4 /\ Z.land (fheader r) 32767 = 13766 /\ Z.shiftr (fheader r) 15 = zlen r.
Proof.
  intros H. pose proof (zlen_nonneg r). assert (E : fheader r = 13766 + zlen r * 32768).
  { unfold fheader, u32. rewrite Z.shiftl_mul_pow2 by lia. rewrite Z.mod_small by lia. change (2 ^ 15) with 32768.
    assert (ND : Z.land (zlen r * 32768) 13766 = 0).
    { apply Z.bits_inj'. intros n Hn. rewrite Z.land_spec, Z.bits_0. change 32768 with (2 ^ 15). destruct (Z_lt_dec n 15).
      + rewrite Z.mul_pow2_bits_low by lia. reflexivity.
      + rewrite (Z.bits_above_log2 13766 n); [apply andb_false_r|lia|]. change (Z.log2 13766) with 13. lia. }
    symmetry. rewrite Z.add_comm, <- Z.lxor_lor by auto. now apply Z.add_nocarry_lxor. }
  rewrite E. split; [change (256 ^ Z.of_nat 4) with 4294967296; lia|]. split.
  - change 32767 with (Z.ones 15). rewrite Z.land_ones by lia. change (2 ^ 15) with 32768. rewrite Z_mod_plus_full. reflexivity.
  - rewrite Z.shiftr_div_pow2 by lia. change (2 ^ 15) with 32768. rewrite Z_div_plus_full by lia. change (13766 / 32768) with 0. lia.
Qed.
Lemma znth_map_split {A} (f : A -> Z) d x t : znth (map f (d ++ x :: t)) (zlen d) = f x.
Proof.
  unfold znth, zlen. rewrite Nat2Z.id. rewrite map_app. cbn [map]. rewrite app_nth2; rewrite map_length; [|lia]. now rewrite Nat.sub_diag.
Qed.
Theorem frozen_round_trip r post : bok r -> roaring_bitmap_frozen_view true (fbytes r ++ post) (zlen (fbytes r)) = Ok r.
Proof.
  intros B. pose proof (bok_typed r B) as [TK TD]. assert (D : Forall (fun p : entry => cok (snd p)) r) by apply B.
  pose proof (gok_size cok 0 r B ltac:(lia)) as SZ. pose proof (zlen_nonneg r) as SP.
  pose proof (fbytes_zlen r TD) as FZ. destruct (zones_zlen r TD) as (Z1&Z2&Z3). pose proof (tot_zone_nonneg r) as (N1&N2&N3).
  destruct (fheader_spec r ltac:(lia)) as (H1&H2&H3).
  unfold roaring_bitmap_frozen_view. cbn [negb]. rewrite (proj2 (Z.ltb_ge (zlen (fbytes r)) 4)) by lia.
  set (buf := fbytes r ++ post).
  assert (LK : zlen (les 2 (rkeys r)) = 2 * zlen r) by (rewrite les_zlen, zlen_rkeys; lia).
  assert (LC : zlen (les 2 (fcounts r)) = 2 * zlen r) by (unfold fcounts; rewrite les_zlen, zlen_map; lia).
  assert (LT : zlen (fcodes r) = zlen r) by (unfold fcodes; now rewrite zlen_map).
  assert (EH : buf = (zone isB r ++ zone is_run r ++ zone isA r ++ les 2 (rkeys r) ++ les 2 (fcounts r) ++ fcodes r) ++ le 4 (fheader r) ++ post)
    by (unfold buf, fbytes; now rewrite <- !app_assoc).
  assert (ET : buf = (zone isB r ++ zone is_run r ++ zone isA r ++ les 2 (rkeys r) ++ les 2 (fcounts r)) ++ fcodes r ++ (le 4 (fheader r) ++ post))
    by (unfold buf, fbytes; now rewrite <- !app_assoc).
  assert (EC : buf = (zone isB r ++ zone is_run r ++ zone isA r ++ les 2 (rkeys r)) ++ les 2 (fcounts r) ++ (fcodes r ++ le 4 (fheader r) ++ post))
    by (unfold buf, fbytes; now rewrite <- !app_assoc).
  assert (EK : buf = (zone isB r ++ zone is_run r ++ zone isA r) ++ les 2 (rkeys r) ++ (les 2 (fcounts r) ++ fcodes r ++ le 4 (fheader r) ++ post))
    by (unfold buf, fbytes; now rewrite <- !app_assoc).
  assert (EA : buf = (zone isB r ++ zone is_run r) ++ zone isA r ++ (les 2 (rkeys r) ++ les 2 (fcounts r) ++ fcodes r ++ le 4 (fheader r) ++ post))
    by (unfold buf, fbytes; now rewrite <- !app_assoc).
  assert (ER : buf = zone isB r ++ zone is_run r ++ (zone isA r ++ les 2 (rkeys r) ++ les 2 (fcounts r) ++ fcodes r ++ le 4 (fheader r) ++ post))
    by (unfold buf, fbytes; now rewrite <- !app_assoc).
  assert (EB : buf = [] ++ zone isB r ++ (zone is_run r ++ zone isA r ++ les 2 (rkeys r) ++ les 2 (fcounts r) ++ fcodes r ++ le 4 (fheader r) ++ post))
    by (unfold buf, fbytes; now rewrite <- !app_assoc).
  clearbody buf.
  replace (rdv 4 buf (zlen (fbytes r) - 4)) with (Some (fheader r)).
  2:{ symmetry. rewrite EH. apply rdv_le; auto. rewrite !zlen_app. lia. }
  rewrite H2, H3. cbn [negb Z.eqb Pos.eqb]. change (Z.eqb 13766 13766) with true. cbn [negb].
  rewrite (proj2 (Z.ltb_ge (zlen (fbytes r)) (4 + zlen r * (1 + 2 + 2)))) by lia.
  set (keys := zlen (fbytes r) - 4 - zlen r * 5). set (counts := zlen (fbytes r) - 4 - zlen r * 3). set (tcs := zlen (fbytes r) - 4 - zlen r * 1).
  assert (Hr : forall d k c t, r = d ++ (k, c) :: t -> rdv 1 buf (tcs + zlen d) = Some (typecode c) /\ rdv 2 buf (counts + 2 * zlen d) = Some (frozen_count c) /\
    rdv 2 buf (keys + 2 * zlen d) = Some k).
  { intros d k c t E. assert (0 <= zlen d < zlen r). { pose proof (zlen_nonneg d). pose proof (zlen_nonneg t). rewrite E, zlen_app, zlen_cons. lia. }
    repeat split.
    - rewrite ET. replace (Some (typecode c)) with (Some (znth (fcodes r) (zlen d))).
      + apply rdv1_at; [|lia]. rewrite !zlen_app. unfold tcs. lia.
      + f_equal. unfold fcodes. rewrite E. apply (znth_map_split (fun p : entry => typecode (snd p)) d (k, c) t).
    - rewrite EC. replace (Some (frozen_count c)) with (Some (znth (fcounts r) (zlen d))).
      + replace counts with (zlen (zone isB r ++ zone is_run r ++ zone isA r ++ les 2 (rkeys r))) by (rewrite !zlen_app; unfold counts; lia).
        change (2 * zlen d) with (Z.of_nat 2 * zlen d). apply rdv_les. { unfold fcounts. apply Forall_forall. intros v Hv. apply in_map_iff in Hv as (p&<-&_). apply frozen_count_range. }
        unfold fcounts. rewrite zlen_map. lia.
      + f_equal. unfold fcounts. rewrite E. apply (znth_map_split (fun p : entry => frozen_count (snd p)) d (k, c) t).
    - rewrite EK. replace (Some k) with (Some (znth (rkeys r) (zlen d))).
      + replace keys with (zlen (zone isB r ++ zone is_run r ++ zone isA r)) by (rewrite !zlen_app; unfold keys; lia).
        change (2 * zlen d) with (Z.of_nat 2 * zlen d). apply rdv_les. { exact TK. } rewrite zlen_rkeys. lia.
      + f_equal. unfold rkeys. rewrite E. apply (znth_map_split (@fst Z container) d (k, c) t). }
  replace (Z.to_nat (zlen r)) with (length r) by (unfold zlen; lia).
  pose proof (frozen_zones_back buf counts tcs r) as FB. change 0 with (zlen (@nil entry)) at 1. rewrite FB; auto; clear FB.
  2:{ intros d k c t E. destruct (Hr d k c t E) as (?&?&?). auto. }
  rewrite !Z.add_0_l. rewrite (proj2 (Z.eqb_eq _ _)) by lia. cbn [negb].
  rewrite <- Z1, <- Z2. rewrite <- zlen_app.
  pose proof (frozen_containers_back buf keys counts tcs r _ _ _ Hr D r [] _ _ _ eq_refl EB ER EA) as FC.
  exact FC.
Qed.
(** * Any bytes *)
Lemma rd_in_range' a b off n : 0 <= off -> 0 <= n -> off + n <= zlen a -> rd (a ++ b) off n = rd a off n /\ exists l, rd a off n = Some l.
Proof. intros. split; [now apply rd_prefix|]. rewrite rd_some by lia. eauto. Qed.
Lemma frozen_zones_safe a b counts tcs : bytes a -> 0 <= counts -> 0 <= tcs ->
  forall n i bs rs as_, 0 <= i -> counts + 2 * (i + Z.of_nat n) <= zlen a -> tcs + (i + Z.of_nat n) <= zlen a ->
  frozen_zones (a ++ b) counts tcs n i bs rs as_ = frozen_zones a counts tcs n i bs rs as_ /\
  match frozen_zones a counts tcs n i bs rs as_ with UB => False | Fail => True | Ok (x, y, z) => bs <= x /\ rs <= y /\ as_ <= z end.
Proof.
  intros BA HC HT. induction n as [|n IH]; intros i bs rs as_ Pi L1 L2. { cbn. repeat split; lia. }
  cbn [frozen_zones]. destruct (rdv_in_range 1 a b (tcs + i)) as [E1 [tc F1]]; try lia. rewrite E1, F1.
  destruct (rdv_in_range 2 a b (counts + 2 * i)) as [E2 [cn F2]]; try lia. rewrite E2, F2.
  pose proof (rdv_range 2 a _ cn BA F2) as CB.
  assert (G : forall x y z, bs <= x -> rs <= y -> as_ <= z -> frozen_zones (a ++ b) counts tcs n (i + 1) x y z = frozen_zones a counts tcs n (i + 1) x y z /\
    match frozen_zones a counts tcs n (i + 1) x y z with UB => False | Fail => True | Ok (x, y, z) => bs <= x /\ rs <= y /\ as_ <= z end).
  { intros x y z Hx Hy Hz. destruct (IH (i + 1) x y z) as [I1 I2]; try lia. split; auto. destruct (frozen_zones a counts tcs n (i + 1) x y z) as [| |[[x' y'] z']]; auto. lia. }
  destruct (tc =? 1). { apply G; lia. } destruct (tc =? 3); cbn [orb]. { apply G; lia. } destruct (tc =? 2). { apply G; lia. } auto.
Qed.
Lemma frozen_containers_safe a b keys counts tcs : bytes a -> 0 <= keys -> 0 <= counts -> 0 <= tcs ->
  forall n i bs rs as_ x y z bz rz az, 0 <= i -> keys + 2 * (i + Z.of_nat n) <= zlen a -> counts + 2 * (i + Z.of_nat n) <= zlen a -> tcs + (i + Z.of_nat n) <= zlen a ->
  frozen_zones a counts tcs n i bs rs as_ = Ok (x, y, z) -> 0 <= bz -> 0 <= rz -> 0 <= az ->
  bz + (x - bs) <= zlen a -> rz + (y - rs) <= zlen a -> az + (z - as_) <= zlen a ->
  exists r, frozen_containers (a ++ b) keys counts tcs n i bz rz az = Ok r /\ frozen_containers a keys counts tcs n i bz rz az = Ok r /\ typed r /\ zlen r = Z.of_nat n.
Proof.
  intros BA HK HC HT. induction n as [|n IH]; intros i bs rs as_ x y z bz rz az Pi L0 L1 L2 FZ Pb Pr Pa Hb Hr Ha.
  { exists []. repeat split; constructor. }
  cbn [frozen_zones frozen_containers] in *. destruct (rdv_in_range 1 a b (tcs + i)) as [E1 [tc F1]]; try lia. rewrite E1, F1 in *.
  destruct (rdv_in_range 2 a b (counts + 2 * i)) as [E2 [cn F2]]; try lia. rewrite E2, F2 in *.
  destruct (rdv_in_range 2 a b (keys + 2 * i)) as [E3 [key F3]]; try lia. rewrite E3, F3 in *.
  pose proof (rdv_range 2 a _ cn BA F2) as CB. pose proof (rdv_range 2 a _ key BA F3) as KB. change (256 ^ Z.of_nat 2) with 65536 in *.
  assert (LEQ : forall bs rs as_, frozen_zones a counts tcs n (i + 1) bs rs as_ = Ok (x, y, z) -> bs <= x /\ rs <= y /\ as_ <= z).
  { intros b0 r0 a0 E. destruct (frozen_zones_safe a b counts tcs BA HC HT n (i + 1) b0 r0 a0) as [_ G]; try lia. now rewrite E in G. }
  assert (FIN : forall c t1 t2 (r : bitmap), t1 = Ok r -> t2 = Ok r -> typed r -> zlen r = Z.of_nat n -> ctyped c ->
    exists r', match t1 with Ok t => Ok ((key, c) :: t) | Fail => Fail | UB => UB end = Ok r' /\
      match t2 with Ok t => Ok ((key, c) :: t) | Fail => Fail | UB => UB end = Ok r' /\ typed r' /\ zlen r' = Z.of_nat (S n)).
  { intros c t1 t2 r -> -> [T1 T2] Z' Tc. exists ((key, c) :: r). repeat split; auto; try (constructor; auto). rewrite zlen_cons. lia. }
  destruct (tc =? 1).
  - specialize (LEQ _ _ _ FZ). unfold bitset_container_read. destruct (rd_in_range' a b bz 8192) as [E4 [l F4]]; try lia. rewrite E4, F4. cbn [option_map].
    destruct (IH (i + 1) _ _ _ x y z (bz + 8192) rz az ltac:(lia) ltac:(lia) ltac:(lia) ltac:(lia) FZ) as (r&G1&G2&G3&G4); try lia.
    eapply FIN; eauto. cbn [ctyped b_words snd]. split; [|now rewrite le_vals_zlen]. exact (le_vals_range 8 1024 l (rd_bytes _ _ _ _ BA F4)).
  - destruct (tc =? 3); cbn [orb] in *.
    + specialize (LEQ _ _ _ FZ). destruct (rd_in_range' a b rz (cn * 4)) as [E4 [l F4]]; try lia. rewrite E4, F4.
      destruct (IH (i + 1) _ _ _ x y z bz (rz + 4 * cn) az ltac:(lia) ltac:(lia) ltac:(lia) ltac:(lia) FZ) as (r&G1&G2&G3&G4); try lia.
      eapply FIN; eauto. cbn [ctyped]. apply pair_up_range. exact (le_vals_range 2 _ l (rd_bytes _ _ _ _ BA F4)).
    + destruct (tc =? 2); [|discriminate]. specialize (LEQ _ _ _ FZ).
      unfold array_container_read. destruct (rd_in_range' a b az ((cn + 1) * 2)) as [E4 [l F4]]; try lia. rewrite E4, F4. cbn [option_map].
      destruct (IH (i + 1) _ _ _ x y z bz rz (az + 2 * (cn + 1)) ltac:(lia) ltac:(lia) ltac:(lia) ltac:(lia) FZ) as (r&G1&G2&G3&G4); try lia.
      eapply FIN; eauto. cbn [ctyped]. exact (le_vals_range 2 _ l (rd_bytes _ _ _ _ BA F4)).
Qed.
Theorem frozen_view_any aligned a b length : bytes a -> length <= zlen a ->
  roaring_bitmap_frozen_view aligned (a ++ b) length = roaring_bitmap_frozen_view aligned a length /\ nat_ok (roaring_bitmap_frozen_view aligned a length).
Proof.
  intros BA L. unfold roaring_bitmap_frozen_view. destruct aligned; cbn [negb]; [|cbn; auto]. destruct (Z.ltb_spec length 4). { cbn; auto. }
  destruct (rdv_in_range 4 a b (length - 4)) as [E1 [h F1]]; try (change (Z.of_nat 4) with 4; lia). rewrite E1, F1.
  pose proof (rdv_range 4 a _ h BA F1) as HB.
  destruct (Z.land h 32767 =? 13766); cbn [negb]; [|cbn; auto].
  set (num := Z.shiftr h 15). assert (NP : 0 <= num) by (apply Z.shiftr_nonneg; lia).
  destruct (Z.ltb_spec length (4 + num * (1 + 2 + 2))). { cbn; auto. }
  destruct (frozen_zones_safe a b (length - 4 - num * 3) (length - 4 - num * 1) BA ltac:(lia) ltac:(lia) (Z.to_nat num) 0 0 0 0) as [G1 G2]; try lia.
  rewrite G1. destruct (frozen_zones a (length - 4 - num * 3) (length - 4 - num * 1) (Z.to_nat num) 0 0 0 0) as [| |[[x y] z]] eqn:FZ; [easy|cbn; auto|].
  destruct (Z.eqb_spec length (x + y + z + 5 * num + 4)) as [EL|]; cbn [negb]; [|cbn; auto].
  destruct (frozen_containers_safe a b (length - 4 - num * 5) (length - 4 - num * 3) (length - 4 - num * 1) BA ltac:(lia) ltac:(lia) ltac:(lia) (Z.to_nat num) 0 0 0 0 x y z 0 x (x + y)
    ltac:(lia) ltac:(lia) ltac:(lia) ltac:(lia) FZ) as (r&R1&R2&R3&_); try lia.
  rewrite R1, R2. cbn. auto.
Qed.
(** * portable_deserialize_frozen *)
Lemma tot_app f a b : tot f (a ++ b) = tot f a + tot f b.
Proof. induction a as [|[k c] t IH]; cbn [app tot]; [lia|]. rewrite IH. lia. Qed.
Lemma offs_split k c t d s : 0 <= s < 2 ^ 32 -> znth (offs (d ++ (k, c) :: t) s) (zlen d) = u32 (s + tot container_size_in_bytes d).
Proof.
  revert s. induction d as [|[k' c'] d IH]; intros s H.
  { cbn [tot app offs]. change (znth (s :: offs t (u32 (s + container_size_in_bytes c))) (zlen (@nil entry))) with s. unfold u32. rewrite Z.add_0_r, Z.mod_small; auto. }
  cbn [app offs tot]. rewrite zlen_cons. pose proof (zlen_nonneg d).
  assert (E : forall a l, znth (a :: l) (zlen d + 1) = znth l (zlen d)).
  { intros a l. unfold znth. replace (Z.to_nat (zlen d + 1)) with (S (Z.to_nat (zlen d))) by lia. reflexivity. }
  rewrite E, IH. 2:{ unfold u32. apply Z.mod_pos_bound. lia. }
  unfold u32. rewrite Zplus_mod_idemp_l. f_equal. lia.
Qed.
Lemma offs_range r s : 0 <= s < 2 ^ 32 -> Forall (fun v => 0 <= v < 256 ^ Z.of_nat 4) (offs r s).
Proof.
  revert s. induction r as [|[k c] t IH]; intros s H; cbn [offs]; constructor.
  - change (256 ^ Z.of_nat 4) with (2 ^ 32). auto.
  - apply IH. unfold u32. apply Z.mod_pos_bound. lia.
Qed.
Lemma read_key_back pre post r d k c t off : r = d ++ (k, c) :: t -> 0 <= k < 65536 -> off = zlen pre ->
  rdv 2 (pre ++ keycards r ++ post) (off + 2 * (2 * zlen d)) = Some k.
Proof.
  intros -> B ->. rewrite keycards_app, keycards_cons. rewrite <- !app_assoc. rewrite app_assoc. apply rdv_le; auto. rewrite zlen_app, keycards_zlen. lia.
Qed.
Lemma pfrozen_containers_back buf hasrun bmo dh oh r tail off0 :
  Forall (fun p : entry => cok (snd p)) r ->
  (forall d k c t, r = d ++ (k, c) :: t -> rdv 2 buf (dh + 2 * (2 * zlen d + 1)) = Some (container_get_cardinality c - 1) /\
     read_isrun buf hasrun bmo (zlen d) = Some (is_run c) /\ rdv 2 buf (dh + 2 * (2 * zlen d)) = Some k /\
     match oh with Some o => rdv 4 buf (o + 4 * zlen d) = Some (off0 + tot container_size_in_bytes d) | None => True end) ->
  forall t d pre off, r = d ++ t -> buf = pre ++ payloads t ++ tail -> zlen pre = off0 + tot container_size_in_bytes d -> (oh = None -> off = zlen pre) ->
  pfrozen_containers buf hasrun bmo dh oh (length t) (zlen d) off = Ok t.
Proof.
  intros D Hr. induction t as [|[k c] t IH]; intros d pre off E B L O; auto.
  cbn [length pfrozen_containers]. destruct (Hr d k c t E) as (->&->&->&HO).
  assert (Dc : cok c). { subst r. apply Forall_app in D as [_ D]. now inversion D. }
  assert (Dt : ctyped c) by now apply cok_ctyped.
  rewrite payloads_cons, <- app_assoc in B.
  assert (POS : match oh with Some o => rdv 4 buf (o + 4 * zlen d) | None => Some off end = Some (zlen pre)).
  { destruct oh; [rewrite HO; now f_equal|]. f_equal. now apply O. }
  rewrite POS.
  assert (REC : forall adv, adv = container_size_in_bytes c ->
    pfrozen_containers buf hasrun bmo dh oh (length t) (zlen d + 1) (match oh with Some _ => off | None => off + adv end) = Ok t).
  { intros adv ->. rewrite <- (zlen_snoc d (k, c)). apply (IH _ (pre ++ payload c)).
    - subst r. now rewrite <- app_assoc.
    - subst buf. now rewrite <- app_assoc.
    - rewrite zlen_app, payload_zlen by auto. rewrite L, tot_app. cbn [tot]. lia.
    - intros ->. rewrite zlen_app, payload_zlen by auto. rewrite O; auto. }
  pose proof (ccard_le c Dc) as CB. replace (container_get_cardinality c - 1 + 1) with (container_get_cardinality c) by lia.
  destruct c as [a|b|x]; cbn [is_run negb andb].
  - rewrite ccard_arr in * by auto. cbn [cok] in Dc. rewrite (proj2 (Z.ltb_ge 4096 (zlen a))) by lia. cbn [andb].
    replace (array_container_read (zlen a) buf (zlen pre)) with (Some a). 2:{ symmetry. subst buf. apply array_read_back. exact Dt. }
    now rewrite REC by (cbn [container_size_in_bytes]; lia).
  - cbn [cok] in Dc. destruct Dc as [Db Dc]. assert (CE : container_get_cardinality (CBit b) = b_card b) by reflexivity. rewrite CE in *.
    rewrite (proj2 (Z.ltb_lt 4096 (b_card b))) by lia. cbn [andb].
    replace (bitset_container_read (b_card b) buf (zlen pre)) with (Some b). 2:{ symmetry. subst buf. now apply bitset_read_back. }
    now rewrite REC by reflexivity.
  - rewrite andb_false_r. cbn [cok] in Dc. pose proof (rwf_zlen x (proj1 Dc)) as LX. pose proof (zlen_nonneg x).
    replace (run_container_read buf (zlen pre)) with (Some x). 2:{ symmetry. subst buf. apply run_read_back; [apply Dc|lia]. }
    now rewrite REC by reflexivity.
Qed.
(** what the headers of a portable serialization say, for the frozen reader *)
Definition poff (r : bitmap) : Z := zlen (head_bytes r ++ keycards r ++ offset_bytes r).
Lemma start_offset_poff r : zlen r <= 65536 -> has_offsets r = true -> start_offset r = poff r /\ 0 <= start_offset r < 2 ^ 32.
Proof.
  intros L HO. pose proof (zlen_nonneg r). unfold start_offset, poff, offset_bytes. rewrite HO. rewrite !zlen_app, keycards_zlen, les_zlen, offs_zlen.
  unfold head_bytes, has_offsets in *. assert (0 <= (zlen r + 7) / 8 <= 8192) by (split; [apply Z.div_pos; lia|]; dm).
  destruct (ra_has_run_container r); cbn [negb orb] in HO; rewrite zlen_app, ?le_zlen, ?run_flags_zlen.
  - apply Z.leb_le in HO. rewrite (proj2 (Z.ltb_ge (zlen r) 4)) by lia. unfold u32. rewrite Z.mod_small by lia. lia.
  - unfold u32. rewrite Z.mod_small by lia. lia.
Qed.
Lemma pfrozen_open r post : bok r -> exists hasrun bmo dh oh, oh = (if has_offsets r then Some (dh + zlen r * 4) else None) /\
  roaring_bitmap_portable_deserialize_frozen (pbytes r ++ post) = pfrozen_containers (pbytes r ++ post) hasrun bmo dh oh (length r) 0 (poff r) /\
  dh = zlen (head_bytes r) /\
  forall d k c t, r = d ++ (k, c) :: t -> rdv 2 (pbytes r ++ post) (dh + 2 * (2 * zlen d + 1)) = Some (container_get_cardinality c - 1) /\
     read_isrun (pbytes r ++ post) hasrun bmo (zlen d) = Some (is_run c) /\ rdv 2 (pbytes r ++ post) (dh + 2 * (2 * zlen d)) = Some k /\
     match oh with Some o => rdv 4 (pbytes r ++ post) (o + 4 * zlen d) = Some (u32 (poff r + tot container_size_in_bytes d)) | None => True end.
Proof.
  intros B. pose proof (bok_typed r B) as [TK TD]. assert (D : Forall (fun p : entry => cok (snd p)) r) by apply B.
  pose proof (gok_size cok 0 r B ltac:(lia)) as SZ. pose proof (zlen_nonneg r) as SP.
  assert (HD : forall d k c t, r = d ++ (k, c) :: t -> cok c /\ 0 <= k < 65536 /\ 0 <= zlen d < zlen r).
  { intros d k c t E. repeat split.
    - rewrite E in D. apply Forall_app in D as [_ D]. now inversion D.
    - unfold inb in TK. rewrite Forall_forall in TK. apply TK. rewrite E. unfold rkeys. rewrite map_app. apply in_or_app. right. now left.
    - unfold inb in TK. rewrite Forall_forall in TK. apply TK. rewrite E. unfold rkeys. rewrite map_app. apply in_or_app. right. now left.
    - apply zlen_nonneg.
    - rewrite E, zlen_app, zlen_cons. pose proof (zlen_nonneg t). lia. }
  assert (E1 : pbytes r ++ post = head_bytes r ++ keycards r ++ (offset_bytes r ++ payloads r ++ post)) by (unfold pbytes; now rewrite <- !app_assoc).
  assert (E2 : pbytes r ++ post = (head_bytes r ++ keycards r) ++ offset_bytes r ++ (payloads r ++ post)) by (unfold pbytes; now rewrite <- !app_assoc).
  assert (OFF : has_offsets r = true -> forall d k c t, r = d ++ (k, c) :: t ->
    rdv 4 (pbytes r ++ post) (zlen (head_bytes r) + zlen r * 4 + 4 * zlen d) = Some (u32 (poff r + tot container_size_in_bytes d))).
  { intros HO d k c t E. destruct (HD d k c t E) as (_&_&HL). destruct (start_offset_poff r ltac:(lia) HO) as [S1 S2]. rewrite E2. unfold offset_bytes. rewrite HO.
    replace (zlen (head_bytes r) + zlen r * 4) with (zlen (head_bytes r ++ keycards r)) by (rewrite zlen_app, keycards_zlen; lia).
    change (4 * zlen d) with (Z.of_nat 4 * zlen d). rewrite rdv_les; [|now apply offs_range|rewrite offs_zlen; lia].
    f_equal. rewrite <- S1. rewrite E at 1. now apply offs_split. }
  assert (KC : forall d k c t, r = d ++ (k, c) :: t -> rdv 2 (pbytes r ++ post) (zlen (head_bytes r) + 2 * (2 * zlen d + 1)) = Some (container_get_cardinality c - 1) /\
    rdv 2 (pbytes r ++ post) (zlen (head_bytes r) + 2 * (2 * zlen d)) = Some k).
  { intros d k c t E. destruct (HD d k c t E) as (Hc&Hk&_). rewrite E1. split; [now apply (read_card_back _ _ r d k c t)|now apply (read_key_back _ _ r d k c t)]. }
  unfold roaring_bitmap_portable_deserialize_frozen. destruct (ra_has_run_container r) eqn:HR.
  - assert (S1 : 1 <= zlen r). { destruct r; [discriminate|]. rewrite zlen_cons. pose proof (zlen_nonneg r). lia. }
    destruct (cookie_run (zlen r) ltac:(lia)) as (C1&C2&C3).
    assert (HE : head_bytes r = le 4 (Z.lor 12347 (u32 (Z.shiftl (zlen r - 1) 16))) ++ run_flags r) by (unfold head_bytes; now rewrite HR).
    set (ck := Z.lor 12347 (u32 (Z.shiftl (zlen r - 1) 16))) in *. clearbody ck.
    assert (HZ : zlen (head_bytes r) = 4 + (zlen r + 7) / 8) by (rewrite HE, zlen_app, le_zlen, run_flags_zlen; reflexivity).
    replace (rdv 4 (pbytes r ++ post) 0) with (Some ck). 2:{ symmetry. rewrite E1, HE. rewrite <- !app_assoc. apply (rdv_le 4 []); auto. }
    rewrite (proj2 (Z.eqb_neq ck 12346)). 2:{ intros ->. discriminate C2. } rewrite C2, C3. change (12347 =? 12347) with true.
    exists true, 4, (4 + (zlen r + 7) / 8), (if has_offsets r then Some (4 + (zlen r + 7) / 8 + zlen r * 4) else None).
    split; [auto|]. split; [|split; [auto|]].
    + unfold poff, offset_bytes, has_offsets. rewrite HR. cbn [negb orb]. replace (Z.to_nat (zlen r)) with (length r) by (unfold zlen; lia).
      destruct (4 <=? zlen r); rewrite !zlen_app, keycards_zlen, HZ, ?les_zlen, ?offs_zlen; f_equal; try (change (zlen (@nil Z)) with 0); lia.
    + intros d k c t E. rewrite <- HZ. destruct (KC d k c t E) as [K1 K2]. destruct (HD d k c t E) as (_&_&HL). repeat split; auto.
      * rewrite E1, HE, <- app_assoc. rewrite read_isrun_flags; auto. rewrite E. now rewrite isr_split.
      * destruct (has_offsets r) eqn:HO; auto. exact (OFF eq_refl d k c t E).
  - assert (HE : head_bytes r = le 4 12346 ++ le 4 (zlen r)) by (unfold head_bytes; now rewrite HR).
    assert (HZ : zlen (head_bytes r) = 8) by (rewrite HE, zlen_app, !le_zlen; reflexivity).
    assert (HO : has_offsets r = true) by (unfold has_offsets; now rewrite HR).
    replace (rdv 4 (pbytes r ++ post) 0) with (Some 12346). 2:{ symmetry. rewrite E1, HE. rewrite <- !app_assoc. apply (rdv_le 4 []); auto. change (256 ^ Z.of_nat 4) with 4294967296. lia. }
    change (12346 =? 12346) with true.
    replace (rdv 4 (pbytes r ++ post) 4) with (Some (zlen r)). 2:{ symmetry. rewrite E1, HE. rewrite <- !app_assoc. apply rdv_le; auto. change (256 ^ Z.of_nat 4) with 4294967296. lia. }
    replace (s32 (zlen r)) with (zlen r). 2:{ unfold s32. rewrite (proj2 (Z.ltb_lt (zlen r) (2^31))); lia. }
    exists false, 0, 8, (Some (8 + zlen r * 4)). rewrite HO. split; [auto|]. split; [|split; [auto|]].
    + replace (Z.to_nat (zlen r)) with (length r) by (unfold zlen; lia). f_equal. unfold poff, offset_bytes. rewrite HO.
      rewrite !zlen_app, keycards_zlen, HZ, les_zlen, offs_zlen. lia.
    + intros d k c t E. rewrite <- HZ. destruct (KC d k c t E) as [K1 K2]. repeat split; auto.
      * cbn [read_isrun]. f_equal. symmetry. exact (has_run_false r d k c t HR E).
      * exact (OFF HO d k c t E).
Qed.
Theorem portable_frozen_round_trip r post : bok r -> ra_portable_size_in_bytes r < 2 ^ 32 ->
  roaring_bitmap_portable_deserialize_frozen (pbytes r ++ post) = Ok r.
Proof.
  intros B L. pose proof (bok_typed r B) as [TK TD]. assert (D : Forall (fun p : entry => cok (snd p)) r) by apply B.
  pose proof (gok_size cok 0 r B ltac:(lia)) as SZ.
  destruct (pfrozen_open r post B) as (hasrun&bmo&dh&oh&Eoh&E&Edh&H). rewrite E.
  rewrite <- pbytes_zlen in L by (auto; lia).
  assert (PZ : zlen (pbytes r) = poff r + tot container_size_in_bytes r).
  { unfold poff, pbytes. rewrite !zlen_app, payloads_zlen by auto. lia. }
  apply (pfrozen_containers_back (pbytes r ++ post) hasrun bmo dh oh r post (poff r) D) with (d := []) (pre := head_bytes r ++ keycards r ++ offset_bytes r).
  - intros d k c t Es. destruct (H d k c t Es) as (H1&H2&H3&H4). repeat split; auto. destruct oh; auto. rewrite H4. f_equal. unfold u32. rewrite Z.mod_small; auto.
    pose proof (zlen_nonneg (head_bytes r ++ keycards r ++ offset_bytes r)) as PP. fold (poff r) in PP.
    pose proof (tot_size_nonneg d). assert (TE : tot container_size_in_bytes r = tot container_size_in_bytes d + (container_size_in_bytes c + tot container_size_in_bytes t)) by (rewrite Es, tot_app; reflexivity). pose proof (tot_size_nonneg t). pose proof (size_nonneg c). lia.
  - reflexivity.
  - unfold pbytes. now rewrite <- !app_assoc.
  - cbn [tot]. unfold poff. lia.
  - reflexivity.
Qed.
(** * Portable serializations longer than 4 GiB
    65536 containers of 32768 runs each: the 32-bit offset of the container with key 32764 wraps
    to 73724, which is the position of the 16382nd key in the header. *)
Definition alternate : list run := map (fun i => (2 * i, 0)) (zr 0 32768).
Definition huge : bitmap := map (fun k => (k, CRun alternate)) (zr 0 65536).
Lemma alternate_rok n : forall a lo, lo <= 2 * a -> 0 <= a -> a + Z.of_nat n <= 32768 -> rok lo (map (fun i => (2 * i, 0)) (zr a (a + Z.of_nat n))).
Proof.
  induction n as [|n IH]; intros a lo L A H. { rewrite zr_nil by lia. exact I. }
  rewrite zr_cons by lia. cbn [map rok]. repeat split; try lia. replace (a + Z.of_nat (S n)) with (a + 1 + Z.of_nat n) by lia. apply IH; lia.
Qed.
Lemma alternate_rwf : rwf alternate.
Proof. unfold alternate. change 32768 with (0 + Z.of_nat (Z.to_nat 32768)). apply alternate_rok; lia. Qed.
Lemma alternate_zlen : zlen alternate = 32768.
Proof. unfold alternate. rewrite zlen_map. now rewrite zr_zlen by lia. Qed.
Lemma alternate_mem y : rmem alternate y = true -> y mod 2 = 0.
Proof.
  unfold rmem. intros H. apply existsb_exists in H as (x&Hx&H). unfold alternate in Hx. apply in_map_iff in Hx as (i&<-&_). unfold inrun in H. cbn [fst snd] in H.
  apply andb_true_iff in H as [H1 H2]. apply Z.leb_le in H1, H2. replace y with (i * 2) by lia. apply Z_mod_mult.
Qed.
Lemma huge_rkeys : rkeys huge = zr 0 65536.
Proof. unfold huge, rkeys. rewrite map_map. cbn [fst]. apply map_id. Qed.
Lemma huge_bok : bok huge.
Proof.
  unfold bok, gok. rewrite huge_rkeys. split; [apply zr_incr|split].
  - apply Forall_forall. intros x Hx. now apply zr_In in Hx.
  - unfold huge. apply Forall_forall. intros p Hp. apply in_map_iff in Hp as (k&<-&_). cbn [snd cok]. split; [apply alternate_rwf|].
    intros E. pose proof alternate_zlen as L. rewrite E in L. discriminate L.
Qed.
Lemma huge_mem v : mem huge v = true -> v mod 2 = 0.
Proof.
  rewrite mem_km. unfold km. destruct (look huge (v / 65536)) as [c|] eqn:E; [|discriminate]. apply look_some in E. unfold huge in E. apply in_map_iff in E as (k&[= _ <-]&_).
  cbn [cmem]. intros H. apply alternate_mem in H. dm.
Qed.
Lemma huge_split k : 0 <= k < 65536 -> exists d t, huge = d ++ (k, CRun alternate) :: t /\ zlen d = k /\ tot container_size_in_bytes d = 131074 * k.
Proof.
  intros H. exists (map (fun k => (k, CRun alternate)) (zr 0 k)), (map (fun k => (k, CRun alternate)) (zr (k + 1) 65536)). repeat split.
  - unfold huge. rewrite (zr_app 0 k 65536) by lia. rewrite map_app. now rewrite (zr_cons k 65536) by lia.
  - rewrite zlen_map, zr_zlen; lia.
  - assert (G : forall l, tot container_size_in_bytes (map (fun k => (k, CRun alternate)) l) = 131074 * zlen l).
    { induction l as [|x l IH]; auto. cbn [map tot]. rewrite IH, zlen_cons. cbn [container_size_in_bytes]. rewrite alternate_zlen. lia. }
    rewrite G, zr_zlen; lia.
Qed.
Lemma pfrozen_nth buf hasrun bmo dh o : forall n i off r, pfrozen_containers buf hasrun bmo dh (Some o) n i off = Ok r ->
  forall j, 0 <= j < Z.of_nat n -> read_isrun buf hasrun bmo (i + j) = Some true ->
  exists p x k, rdv 4 buf (o + 4 * (i + j)) = Some p /\ run_container_read buf p = Some x /\ rdv 2 buf (dh + 2 * (2 * (i + j))) = Some k /\ In (k, CRun x) r.
Proof.
  induction n as [|n IH]; intros i off r E j Hj T; [lia|]. cbn [pfrozen_containers] in E.
  destruct (rdv 2 buf (dh + 2 * (2 * i + 1))) as [tmp|] eqn:E1; [|discriminate]. destruct (read_isrun buf hasrun bmo i) as [isrun|] eqn:E2; [|discriminate].
  destruct (rdv 2 buf (dh + 2 * (2 * i))) as [key|] eqn:E3; [|discriminate]. destruct (rdv 4 buf (o + 4 * i)) as [p|] eqn:E4; [|discriminate].
  assert (REC : forall c, match pfrozen_containers buf hasrun bmo dh (Some o) n (i + 1) off with Ok t => Ok ((key, c) :: t) | Fail => Fail | UB => UB end = Ok r ->
    1 <= j -> exists p x k, rdv 4 buf (o + 4 * (i + j)) = Some p /\ run_container_read buf p = Some x /\ rdv 2 buf (dh + 2 * (2 * (i + j))) = Some k /\ In (k, CRun x) r).
  { intros c Ec J. destruct (pfrozen_containers buf hasrun bmo dh (Some o) n (i + 1) off) as [| |t] eqn:E5; try discriminate. injection Ec as <-.
    destruct (IH _ _ _ E5 (j - 1)) as (p'&x&k&G1&G2&G3&G4); try lia. { now replace (i + 1 + (j - 1)) with (i + j) by lia. }
    replace (i + 1 + (j - 1)) with (i + j) in * by lia. exists p', x, k. repeat split; auto. now right. }
  destruct (Z.eq_dec j 0) as [->|NJ].
  - rewrite Z.add_0_r in *. rewrite E2 in T. injection T as ->. rewrite andb_false_r in E. destruct (run_container_read buf p) as [x|] eqn:E5; [|discriminate].
    destruct (pfrozen_containers buf hasrun bmo dh (Some o) n (i + 1) off) as [| |t]; try discriminate. injection E as <-.
    exists p, x, key. repeat split; auto. now left.
  - destruct ((4096 <? tmp + 1) && negb isrun).
    + destruct (bitset_container_read (tmp + 1) buf p) as [b|]; [|discriminate]. apply (REC _ E). lia.
    + destruct isrun.
      * destruct (run_container_read buf p) as [x|]; [|discriminate]. apply (REC _ E). lia.
      * destruct (array_container_read (tmp + 1) buf p) as [a|]; [|discriminate]. apply (REC _ E). lia.
Qed.
Lemma run_container_read_first buf p p0 p2 p4 n x v l : p0 = p -> p2 = p + 2 -> p4 = p + 4 -> rdv 2 buf p0 = Some n -> 1 <= n -> rdv 2 buf p2 = Some v -> rdv 2 buf p4 = Some l ->
  run_container_read buf p = Some x -> exists t, x = (v, l) :: t.
Proof.
  intros -> -> -> E1 N E2 E3 E. unfold run_container_read in E. rewrite E1 in E. cbn [obind] in E.
  destruct (rd buf (p + 2) (n * 4)) as [bs|] eqn:E4; [|discriminate]. cbn [option_map] in E. injection E as <-.
  apply rd_inv in E4 as (P&_&Q&EB&L). unfold rdv in E2, E3. rewrite rd_some in E2, E3 by (change (Z.of_nat 2) with 2; lia). cbn [option_map] in *.
  change (Z.to_nat (Z.of_nat 2)) with 2%nat in *. assert (v = le_val (firstn 2 (skipn (Z.to_nat (p + 2)) buf))) as -> by congruence.
  assert (l = le_val (firstn 2 (skipn (Z.to_nat (p + 4)) buf))) as -> by congruence. clear E2 E3.
  assert (S1 : exists m, (2 * Z.to_nat n)%nat = S (S m)) by (exists (2 * Z.to_nat n - 2)%nat; lia). destruct S1 as [m SE]. match goal with |- context [le_vals 2 ?q bs] => replace q with (S (S m)) by lia end.
  cbn [le_vals pair_up]. exists (pair_up (le_vals 2 m (skipn 2 (skipn 2 bs)))). f_equal. subst bs. f_equal.
  - f_equal. rewrite firstn_firstn. f_equal. lia.
  - f_equal. rewrite skipn_firstn_comm. rewrite firstn_firstn. rewrite skipn_skipn'. f_equal; [lia|]. f_equal. lia.
Qed.
Theorem huge_portable_frozen post r' : roaring_bitmap_portable_deserialize_frozen (pbytes huge ++ post) = Ok r' -> bok r' -> mem r' (65536 * 32764 + 32767) = true.
Proof.
  intros E B. destruct (pfrozen_open huge post huge_bok) as (hasrun&bmo&dh&oh&Eoh&EP&Edh&H).
  assert (LZ : zlen huge = 65536). { rewrite <- zlen_rkeys, huge_rkeys, zr_zlen; lia. }
  assert (HR : ra_has_run_container huge = true).
  { unfold ra_has_run_container. apply existsb_exists. exists (0, CRun alternate). split; auto. unfold huge. apply in_map_iff. exists 0. split; auto. apply zr_In. lia. }
  assert (HO : has_offsets huge = true) by (unfold has_offsets; rewrite LZ; apply orb_true_r).
  rewrite HO in Eoh. subst oh. rewrite EP in E.
  assert (HZ : zlen (head_bytes huge) = 8196). { unfold head_bytes. rewrite HR. rewrite zlen_app, le_zlen, run_flags_zlen, LZ. reflexivity. }
  assert (PO : poff huge = 532484). { unfold poff, offset_bytes. rewrite HO. rewrite !zlen_app, keycards_zlen, les_zlen, offs_zlen, HZ, LZ. reflexivity. }
  assert (CC : container_get_cardinality (CRun alternate) - 1 = 32767) by (vm_compute; reflexivity).
  destruct (huge_split 32764 ltac:(lia)) as (d&t&Ed&Ld&Td). destruct (H d _ _ t Ed) as (_&HI&HK&HP). rewrite Ld in *. cbn [is_run] in HI. rewrite PO, Td in HP.
  change (u32 (532484 + 131074 * 32764)) with 73724 in HP.
  destruct (pfrozen_nth _ _ _ _ _ _ _ _ _ E 32764) as (p&x&k&G1&G2&G3&G4).
  { pose proof LZ as LZ'. unfold zlen in LZ'. rewrite LZ'. lia. }
  { exact HI. }
  rewrite Z.add_0_l in *. rewrite HP in G1. injection G1 as <-. rewrite HK in G3. injection G3 as <-.
  destruct (huge_split 16382 ltac:(lia)) as (d1&t1&Ed1&Ld1&_). destruct (H d1 _ _ t1 Ed1) as (J1&_&J2&_). rewrite Ld1 in *.
  destruct (huge_split 16383 ltac:(lia)) as (d2&t2&Ed2&Ld2&_). destruct (H d2 _ _ t2 Ed2) as (_&_&J3&_). rewrite Ld2 in *.
  rewrite Edh, HZ in *. rewrite CC in J1.
  set (buf := pbytes huge ++ post) in *. clearbody buf.
  destruct (run_container_read_first buf 73724 (8196 + 2 * (2 * 16382)) (8196 + 2 * (2 * 16382 + 1)) (8196 + 2 * (2 * 16383)) 16382 x 32767 16383 ltac:(lia) ltac:(lia) ltac:(lia) J2 ltac:(lia) J1 J3 G2) as (y&->).
  rewrite mem_split by lia. unfold km. rewrite (look_In r' 32764 (CRun ((32767, 16383) :: y))); auto. apply B.
Qed.
