(** Map64S: serialization of the map of bitmaps. *)
From Coq Require Import ZArith List Bool Lia Sorting.Sorted.
From Verif Require Import Base ArrayUtil BitUtil BitsetC ArrayC RunC RunD Convert Containers RArray RBinary RPoint RRange RQuery Iter Bytes Serial SerialP Spec Spec64 FormatSpec FormatSpec64 Obs Derived Map64 Map64P Map64A Map64Q Map64C Map64I.
From Verif Require FormatP R64S Derived64S Derived64 RStat DerivedS.
Import ListNotations.
Local Open Scope Z_scope.
Local Opaque zr.

Notation gbytes := R64S.gbytes.
Notation part_of32 := R64S.part_of32.
Definition mbytes (m : rmap) : list Z := le 8 (zlen m) ++ gbytes m.
(** what the program writes for one entry, either way *)
Definition ibytes (portable : bool) (b : bitmap) : list Z := if portable then pbytes b else nbytes b.
Definition ebytes (portable : bool) (m : rmap) : list Z := flat_map (fun e => le 4 (fst e) ++ ibytes portable (snd e)) m.
Lemma ebytes_portable m : ebytes true m = gbytes m. Proof. reflexivity. Qed.
Lemma mok_parts m : mokm m -> Forall part_of32 m /\ incr (map fst m).
Proof. intros O. split; [|apply O]. apply Forall_forall. intros [k b] I. destruct (mok_in m k b O I) as (K & B). split; auto. Qed.
Lemma ibytes_zlen p b : bok b -> zlen (ibytes p b) = inner_size p b.
Proof. intros B. destruct p; cbn [ibytes inner_size]; [|now apply nbytes_zlen]. destruct (R64S.group_typed b B). now apply pbytes_zlen. Qed.
Lemma ebytes_zlen p m acc : Forall part_of32 m -> fold_left (fun previous e => previous + inner_size p (snd e)) m (acc + 4 * zlen m) = acc + zlen (ebytes p m).
Proof.
  intros F. revert acc. induction F as [|[k b] t (K & B) F IH]; intros acc; [unfold zlen; cbn [fold_left length ebytes flat_map]; lia|]. cbn [fold_left fst snd ebytes flat_map] in *. rewrite !zlen_app, le_zlen, ibytes_zlen by auto.
  replace (acc + 4 * zlen ((k, b) :: t) + inner_size p b) with (acc + 4 + inner_size p b + 4 * zlen t) by (rewrite zlen_cons; lia). rewrite IH. unfold ebytes. lia.
Qed.
Lemma size_bytes p m : mokm m -> map_getSizeInBytes p m = 8 + zlen (ebytes p m).
Proof. intros O. unfold map_getSizeInBytes. apply ebytes_zlen. now apply mok_parts. Qed.
Lemma inner_write_bytes p b buf : bok b -> zlen (ibytes p b) <= zlen buf -> inner_write p b buf = Some (ibytes p b ++ skipn (length (ibytes p b)) buf, zlen (ibytes p b)).
Proof. intros B L. destruct p; cbn [ibytes inner_write] in *; [|now apply serialize_bytes]. destruct (R64S.group_typed b B). now apply portable_serialize_bytes. Qed.
Lemma store_head buf bs : zlen bs <= zlen buf -> store buf 0 bs = Some (bs ++ skipn (length bs) buf).
Proof. intros L. exact (store_cursor [] buf bs L). Qed.
Lemma write_loop_bytes p m : Forall part_of32 m -> forall buf, zlen (ebytes p m) <= zlen buf -> write_loop p m buf = Some (ebytes p m ++ skipn (length (ebytes p m)) buf, zlen (ebytes p m)).
Proof.
  induction 1 as [|[k b] t (K & B) F IH]; intros buf L; [reflexivity|]. cbn [write_loop ebytes flat_map fst snd] in *. fold (ebytes p t) in *. rewrite !zlen_app, le_zlen in L. change (Z.of_nat 4) with 4 in L. pose proof (zlen_nonneg (ibytes p b)) as N1. pose proof (zlen_nonneg (ebytes p t)) as N2.
  rewrite store_head by (rewrite le_zlen; change (Z.of_nat 4) with 4; lia). assert (LN : length (le 4 k) = 4%nat) by apply le_length. rewrite (skipn_app_l 4) by auto. rewrite LN. set (r1 := skipn 4 buf). assert (R1 : zlen r1 = zlen buf - 4) by (unfold r1, zlen in *; rewrite skipn_length; lia).
  rewrite inner_write_bytes by (auto; lia). rewrite (skipn_app_l (Z.to_nat (zlen (ibytes p b)))) by (unfold zlen; lia). set (r2 := skipn (length (ibytes p b)) r1). assert (R2 : zlen r2 = zlen r1 - zlen (ibytes p b)) by (unfold r2, zlen in *; rewrite skipn_length; lia).
  rewrite IH by lia. rewrite (firstn_app_l 4) by auto. rewrite (firstn_app_l (Z.to_nat (zlen (ibytes p b)))) by (unfold zlen; lia).
  assert (EQ : skipn (length ((le 4 k ++ ibytes p b) ++ ebytes p t)) buf = skipn (length (ebytes p t)) r2) by (unfold r2, r1; rewrite !skipn_skipn', !app_length, LN; f_equal; lia). rewrite EQ.
  f_equal. f_equal; [now rewrite <- !app_assoc|]. rewrite !zlen_app, le_zlen. change (Z.of_nat 4) with 4. lia.
Qed.
Lemma write_bytes p m buf : mokm m -> map_getSizeInBytes p m <= zlen buf ->
  let out := le 8 (zlen m) ++ ebytes p m in map_write p m buf = Some (out ++ skipn (length out) buf, map_getSizeInBytes p m).
Proof.
  intros O L. cbv zeta. rewrite size_bytes in * by auto. unfold map_write. pose proof (zlen_nonneg (ebytes p m)) as N. assert (LN : length (le 8 (zlen m)) = 8%nat) by apply le_length. rewrite store_head by (rewrite le_zlen; change (Z.of_nat 8) with 8; lia). rewrite LN. rewrite (skipn_app_l 8) by auto.
  destruct (mok_parts m O) as (F & _). set (r1 := skipn 8 buf). assert (R1 : zlen r1 = zlen buf - 8) by (unfold r1, zlen in *; rewrite skipn_length; lia). rewrite write_loop_bytes by (auto; lia). rewrite (firstn_app_l 8) by auto. f_equal. f_equal. rewrite app_length, LN. unfold r1. rewrite skipn_skipn'. now rewrite app_assoc.
Qed.

(** ** Reading back *)
Lemma mput_snoc (acc : rmap) k b : (forall j, In j (mkeys acc) -> j < k) -> memplace acc k b = acc ++ [(k, b)].
Proof.
  intros A. unfold memplace. replace (mfind acc k) with (@None bitmap) by (symmetry; apply mfind_None; intros I; specialize (A k I); lia). induction acc as [|[h c] t IH]; [reflexivity|]. cbn [mput app]. specialize (A h (or_introl eq_refl)) as Ah. replace (k <? h) with false by lia. replace (k =? h) with false by lia. rewrite IH; [reflexivity|]. intros j J. apply A. now right.
Qed.
Definition rereads (p : bool) (b : bitmap) : Prop := forall post, bytes post -> exists r', inner_read p (ibytes p b ++ post) = Ok r' /\ inner_size p r' = inner_size p b /\ forall Q, denotes b Q -> denotes r' Q.
Lemma ebytes_bytes p m : Forall part_of32 m -> bytes (ebytes p m).
Proof.
  induction 1 as [|[k b] t (K & B) F IH]; [constructor|]. cbn [ebytes flat_map fst snd]. apply bytes_app. split; auto. apply bytes_app. split; [apply le_bytes|]. destruct p; cbn [ibytes]; [apply pbytes_bytes|]. unfold nbytes. destruct (_ <? _).
  - constructor; [lia|apply pbytes_bytes].
  - constructor; [lia|]. apply bytes_app. split; [apply le_bytes|apply les_bytes].
Qed.
Definition reread (acc m m' : rmap) : Prop := map fst m' = map fst m /\ Forall2 (fun e e' => forall Q, denotes (snd e) Q -> denotes (snd e') Q) m m'.
Lemma read_loop_back p m : Forall part_of32 m -> incr (map fst m) -> Forall (fun e => rereads p (snd e)) m -> forall acc post, bytes post -> (forall j k, In j (mkeys acc) -> In k (mkeys m) -> j < k) ->
  exists m', read_loop (length m) p (ebytes p m ++ post) acc = Ok (acc ++ m') /\ map fst m' = map fst m /\ Forall2 (fun e e' => forall Q, denotes (snd e) Q -> denotes (snd e') Q) m m'.
Proof.
  induction 1 as [|[k b] t (K & B) F IH]; intros S R acc post BP A; cbn [length read_loop].
  - exists []. rewrite app_nil_r. auto.
  - inversion R as [|? ? R1 R2]; subst. cbn [fst snd] in *. cbn [ebytes flat_map fst snd]. fold (ebytes p t). rewrite <- !app_assoc.
    replace (rdv 4 _ 0) with (Some k) by (symmetry; apply (rdv_le 4 [] k); [reflexivity|]; change (256 ^ Z.of_nat 4) with (2^32); exact K). rewrite (skipn_app_l 4) by (now rewrite le_length).
    destruct (R1 (ebytes p t ++ post)) as (r' & E & Z & D). { apply bytes_app. split; auto. now apply ebytes_bytes. } rewrite E, Z. rewrite <- (ibytes_zlen p b B). rewrite (skipn_app_l (Z.to_nat (zlen (ibytes p b)))) by (unfold zlen; lia). cbn [map fst] in S. apply incr_cons in S as (S1 & S2). rewrite Forall_forall in S1.
    rewrite mput_snoc by (intros j J; apply A; auto; now left). destruct (IH S2 R2 (acc ++ [(k, r')]) post BP) as (m' & E' & M' & D').
    { intros j i J I. unfold mkeys in J. rewrite map_app, in_app_iff in J. destruct J as [J|[J|[]]]; [apply A; auto; now right|]. cbn in J. subst j. now apply S1. }
    exists ((k, r') :: m'). rewrite E', <- app_assoc. split; auto. split; [cbn [map fst]; now rewrite M'|]. constructor; auto.
Qed.
Lemma reread_den m m' P : mden m P -> map fst m' = map fst m -> Forall2 (fun e e' => forall Q, denotes (snd e) Q -> denotes (snd e') Q) m m' -> mden m' P.
Proof.
  intros H E D. assert (MF : forall h, match mfind m h with Some b => exists b', mfind m' h = Some b' /\ forall Q, denotes b Q -> denotes b' Q | None => mfind m' h = None end).
  { clear H. intros h. revert m' E D. induction m as [|[k b] t IH]; intros m' E D; inversion D as [|? [k' b'] ? t' D1 D2]; subst; [reflexivity|]. cbn [map fst snd] in *. injection E as -> E. cbn [mfind]. destruct (h =? k); [eauto|]. now apply IH. }
  destruct H as ((S & W) & I). split; [split; unfold msorted, mkeys in *; now rewrite E|]. intros h Kh. specialize (I h Kh). unfold inner in *. specialize (MF h). destruct (mfind m h); [destruct MF as (b' & -> & X); auto|now rewrite MF].
Qed.
Lemma Forall2_refl_den m : Forall2 (fun e e' : Z * bitmap => forall Q, denotes (snd e) Q -> denotes (snd e') Q) m m.
Proof. induction m; constructor; auto. Qed.
Lemma read_back p m P post : mden m P -> Forall (fun e => rereads p (snd e)) m -> bytes post -> exists m', map_read p ((le 8 (zlen m) ++ ebytes p m) ++ post) = Ok m' /\ mden m' P /\ map fst m' = map fst m.
Proof.
  intros H R BP. pose proof (mokm_of m P H) as O. destruct (mok_parts m O) as (F & S). pose proof (mokm_len m O). pose proof (zlen_nonneg m). unfold map_read. rewrite <- app_assoc.
  replace (rdv 8 _ 0) with (Some (zlen m)) by (symmetry; apply (rdv_le 8 [] (zlen m)); [reflexivity|]; change (256 ^ Z.of_nat 8) with (2^64); lia). rewrite (skipn_app_l 8) by (now rewrite le_length). replace (Z.to_nat (zlen m)) with (length m) by (unfold zlen; lia).
  destruct (read_loop_back p m F S R [] post BP) as (m' & E & M & D); [intros j k []|]. exists m'. split; auto. split; auto. now apply (reread_den m m').
Qed.
Lemma psize_pos b : bok b -> 4 <= ra_portable_size_in_bytes b.
Proof.
  intros B. destruct (R64S.group_typed b B) as (CT & ZB). rewrite <- (pbytes_zlen b CT ZB). unfold pbytes, head_bytes. rewrite !zlen_app. pose proof (zlen_nonneg (keycards b)). pose proof (zlen_nonneg (offset_bytes b)). pose proof (zlen_nonneg (payloads b)). destruct (ra_has_run_container b); rewrite zlen_app, !le_zlen; pose proof (zlen_nonneg (run_flags b)); lia.
Qed.
(** every bitmap is far below the limit of SIZE_MAX bytes *)
Lemma psize_small b : bok b -> ra_portable_size_in_bytes b < 2^64 - 1.
Proof.
  intros B. rewrite ra_size_tot. pose proof (gok_size cok 0 b B ltac:(lia)) as SZ. pose proof (header_small b ltac:(lia)). assert (D : Forall (fun p : entry => cok (snd p)) b) by apply B. destruct (tot_size_vs_card b D) as (T & _).
  rewrite RStat.tot_cardinal in T by auto. rewrite <- elems_zlen in T by auto. pose proof (zlen_nonneg (elems b)). lia.
Qed.
Lemma rereads_portable b : bok b -> rereads true b.
Proof.
  intros B post BP. exists b. cbn [ibytes inner_read inner_size]. unfold roaring_bitmap_portable_deserialize, roaring_bitmap_portable_deserialize_safe. rewrite portable_round_trip by (auto; pose proof (psize_small b B); lia). auto.
Qed.
(** the native form is the portable one with a tag when that is shorter than four bytes per value *)
Lemma rereads_native b : bok b -> ra_portable_size_in_bytes b < roaring_bitmap_get_cardinality b * 4 + 4 -> rereads false b.
Proof.
  intros B L post BP. exists b. cbn [ibytes inner_read inner_size]. unfold nbytes. replace (_ <? _) with true by lia. unfold roaring_bitmap_deserialize. cbn [app tl].
  replace (rdv 1 (2 :: pbytes b ++ post) 0) with (Some 2). 2:{ symmetry. apply (rdv_le 1 [] 2 (pbytes b ++ post)); [reflexivity|]. cbn. lia. }
  cbn [Z.eqb Pos.eqb]. unfold roaring_bitmap_portable_deserialize, roaring_bitmap_portable_deserialize_safe. rewrite portable_round_trip by (auto; pose proof (psize_small b B); lia). auto.
Qed.
Lemma rereads_empty : rereads false [].
Proof.
  intros post BP. exists []. cbn [ibytes inner_read inner_size]. change (nbytes []) with (1 :: le 4 0 ++ []). rewrite app_nil_r. unfold roaring_bitmap_deserialize.
  replace (rdv 1 ((1 :: le 4 0) ++ post) 0) with (Some 1) by (symmetry; apply (rdv_le 1 [] 1 (le 4 0 ++ post)); [reflexivity|cbn; lia]). cbn [Z.eqb Pos.eqb].
  replace (rdv 4 ((1 :: le 4 0) ++ post) 1) with (Some 0) by (symmetry; apply (rdv_le 4 [1] 0 post); [reflexivity|cbn; lia]). cbn [Z.to_nat read_elems]. auto.
Qed.
Lemma read_portable m P post : mden m P -> bytes post -> exists m', map_read true ((le 8 (zlen m) ++ gbytes m) ++ post) = Ok m' /\ mden m' P /\ map fst m' = map fst m.
Proof.
  intros H BP. rewrite <- ebytes_portable. apply read_back; auto. apply Forall_forall. intros [k b] I. cbn [snd]. apply rereads_portable. eapply mok_in; eauto using mokm_of.
Qed.

(** ** readSafe *)
Lemma short_inner b n post : bok b -> n < ra_portable_size_in_bytes b -> roaring_bitmap_portable_deserialize_safe (pbytes b ++ post) n = Fail.
Proof.
  intros B L. destruct (R64S.group_typed b B) as (CT & ZB). pose proof (pbytes_zlen b CT ZB) as PZ. pose proof (portable_round_trip b [] (ra_portable_size_in_bytes b) B ltac:(lia)) as RT. rewrite app_nil_r in RT.
  destruct (portable_deserialize_safe_any (pbytes b) post n (pbytes_bytes b) ltac:(lia)) as (E & _ & _). unfold roaring_bitmap_portable_deserialize_safe. rewrite E. pose proof (DerivedS.portable_deserialize_mono (pbytes b) _ b _ (pbytes_bytes b) RT n) as M. rewrite M. now replace (n <? ra_portable_size_in_bytes b) with true by lia.
Qed.
Lemma read_safe_back m : Forall part_of32 m -> incr (map fst m) -> forall acc post n, 0 <= n < 2^64 -> (forall j k, In j (mkeys acc) -> In k (mkeys m) -> j < k) ->
  read_safe_loop (length m) (gbytes m ++ post) n acc = if n <? zlen (gbytes m) then Fail else Ok (acc ++ m).
Proof.
  induction 1 as [|[k b] t (K & B) F IH]; intros S acc post n N A; cbn [length read_safe_loop].
  - rewrite app_nil_r. change (zlen (gbytes [])) with 0. now replace (n <? 0) with false by lia.
  - cbn [fst snd] in *. unfold R64S.gbytes. cbn [flat_map fst snd]. fold (gbytes t). rewrite !zlen_app, le_zlen. change (Z.of_nat 4) with 4. destruct (R64S.group_typed b B) as (CT & ZB). pose proof (pbytes_zlen b CT ZB) as PZ. pose proof (psize_pos b B) as PP. pose proof (zlen_nonneg (gbytes t)) as NT. rewrite PZ.
    destruct (n <? 4) eqn:N4; [now replace (n <? _) with true by lia|]. rewrite <- !app_assoc.
    replace (rdv 4 _ 0) with (Some k) by (symmetry; apply (rdv_le 4 [] k); [reflexivity|]; change (256 ^ Z.of_nat 4) with (2^32); exact K). rewrite (skipn_app_l 4) by (now rewrite le_length).
    destruct (Z_lt_dec (n - 4) (ra_portable_size_in_bytes b)) as [L|L].
    + rewrite short_inner by (auto; lia). now replace (n <? _) with true by lia.
    + unfold roaring_bitmap_portable_deserialize_safe. rewrite portable_round_trip by (auto; lia). unfold roaring_bitmap_portable_size_in_bytes. rewrite Z.mod_small by lia. rewrite <- PZ. rewrite (skipn_app_l (Z.to_nat (zlen (pbytes b)))) by (unfold zlen; lia). cbn [map fst] in S. apply incr_cons in S as (S1 & S2). rewrite Forall_forall in S1.
      rewrite mput_snoc by (intros j J; apply A; auto; now left). assert (A2 : forall j i, In j (mkeys (acc ++ [(k, b)])) -> In i (mkeys t) -> j < i).
      { intros j i J I. unfold mkeys in J. rewrite map_app, in_app_iff in J. destruct J as [J|[J|[]]]; [apply A; auto; now right|]. cbn in J. subst j. now apply S1. }
      rewrite IH by (auto; lia).
      rewrite PZ. replace (n - 4 - ra_portable_size_in_bytes b <? zlen (gbytes t)) with (n <? 4 + ra_portable_size_in_bytes b + zlen (gbytes t)) by lia. rewrite <- app_assoc. reflexivity.
Qed.
Lemma readSafe_back m n post : mokm m -> 0 <= n < 2^64 -> map_readSafe ((le 8 (zlen m) ++ gbytes m) ++ post) n = if n <? map_getSizeInBytes true m then Fail else Ok m.
Proof.
  intros O N. rewrite size_bytes by auto. change (ebytes true m) with (gbytes m). destruct (mok_parts m O) as (F & S). pose proof (mokm_len m O). pose proof (zlen_nonneg m). pose proof (zlen_nonneg (gbytes m)). unfold map_readSafe. rewrite <- app_assoc.
  destruct (n <? 8) eqn:N8; [now replace (n <? _) with true by lia|].
  replace (rdv 8 _ 0) with (Some (zlen m)) by (symmetry; apply (rdv_le 8 [] (zlen m)); [reflexivity|]; change (256 ^ Z.of_nat 8) with (2^64); lia). rewrite (skipn_app_l 8) by (now rewrite le_length). replace (Z.to_nat (zlen m)) with (length m) by (unfold zlen; lia).
  rewrite read_safe_back by (auto; try lia; intros j k []). replace (n - 8 <? zlen (gbytes m)) with (n <? 8 + zlen (gbytes m)) by lia. reflexivity.
Qed.

(** ** The published format *)
Lemma map_format m P : mden m P -> map_getSizeInBytes true m < 2^32 -> portable_format64 P (le 8 (zlen m) ++ gbytes m).
Proof.
  intros H L. pose proof (mokm_of m P H) as O. rewrite size_bytes in L by auto. change (ebytes true m) with (gbytes m) in L. exists (map (fun g => (fst g, pbytes (snd g))) m). unfold buckets_ok, bucket_bytes. rewrite map_map. cbn [fst]. split; [split; [|split]|].
  - apply incr_SS. apply O.
  - rewrite Forall_map, Forall_forall. intros [k b] I. cbn [fst snd]. apply In_mfind in I as F; [|apply O]. destruct (mden_found m P k b H F) as (K & D). split; auto. pose proof (den_bok _ _ D) as B. destruct (R64S.group_typed b B) as (CT & ZB). apply FormatP.format_conforms; auto.
    rewrite <- (pbytes_zlen b CT ZB). pose proof (Derived64S.gbytes_le m (k, b) I) as X. cbn [snd] in X. lia.
  - intros v V Pv. destruct (mfind m (v / 2^32)) as [b|] eqn:F; [apply mfind_In in F; exact (in_map fst _ _ F)|]. destruct (split_high v V) as (K & Lv & E). rewrite <- (half_at P v V) in Pv. rewrite (mden_absent m P _ _ H K F Lv) in Pv. discriminate.
  - rewrite <- Derived64S.gbytes_app_eq, Derived64S.le_le64 by apply zlen_nonneg. unfold zlength, zlen. now rewrite map_length.
Qed.
(** whoever wrote it *)
Lemma format_map P out : portable_format64 P out -> zlen out < 2^32 -> exists m, mden m P /\ out = le 8 (zlen m) ++ gbytes m /\ map_getSizeInBytes true m = zlen out.
Proof.
  intros (bs & (S & F & CV) & ->) L. unfold bucket_bytes in *. set (body := flat_map (fun b => le32 (fst b) ++ snd b) bs) in *.
  assert (LB : Forall (fun b => 4 + zlen (snd b) <= zlen body) bs).
  { unfold body. clear. induction bs as [|[h o] t I1]; [constructor|]. cbn [flat_map fst snd]. rewrite !zlen_app. change (zlen (le32 h)) with 4. pose proof (zlen_nonneg o) as Z0. pose proof (zlen_nonneg (flat_map (fun b => le32 (fst b) ++ snd b) t)) as Z1.
    constructor; [cbn [snd]; lia|]. eapply Forall_impl; [|exact I1]. intros q X. cbv beta in X. lia. }
  rewrite zlen_app in L. pose proof (zlen_nonneg (le64 (zlength bs))) as Z0. pose proof (zlen_nonneg body) as Z1.
  destruct (Derived64S.parts_read P bs F) as (gs & A & B & C). { eapply Forall_impl; [|exact LB]. intros b X. cbv beta in X. lia. }
  assert (EB : body = gbytes gs) by (unfold body; now rewrite Derived64S.gbytes_app_eq, B).
  assert (EL : zlen bs = zlen gs) by (rewrite <- B, zlen_map; reflexivity). assert (E8 : le64 (zlength bs) = le 8 (zlen gs)) by (rewrite Derived64S.le_le64 by apply zlen_nonneg; f_equal; exact EL).
  assert (SI : incr (map fst gs)). { apply incr_SS. rewrite <- B, map_map in S. exact S. }
  assert (H : mden gs P).
  { split; [split; [exact SI|]|].
    - intros k I. apply in_map_iff in I as (g & <- & I). rewrite Forall_forall in A. apply (A g I).
    - intros h K. unfold inner. destruct (mfind gs h) as [b|] eqn:FM; [apply mfind_In in FM; rewrite Forall_forall in C; exact (C _ FM)|]. eapply den_ext; [exact den_new|]. intros v V. unfold zempty. destruct (half P h v) eqn:PV; auto. exfalso. unfold half in PV. destruct (join_high h v K V) as (E1 & _ & V64). apply CV in PV; auto. unfold highBytes in E1. rewrite E1 in PV. rewrite <- B, map_map in PV. cbn [fst] in PV. apply mfind_None in FM. now apply FM. }
  exists gs. split; auto. split; [now rewrite E8, EB|]. rewrite size_bytes by eauto using mokm_of. change (ebytes true gs) with (gbytes gs); rewrite zlen_app, E8, EB, le_zlen. reflexivity.
Qed.
