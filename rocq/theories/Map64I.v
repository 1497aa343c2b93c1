(** Map64I: iterators of the map of bitmaps as positions in the list of members. *)
From Coq Require Import ZArith List Bool Lia Sorting.Sorted.
From Verif Require Import Base ArrayUtil BitUtil BitsetC ArrayC RunC RunD Convert Containers RArray RBinary RPoint RRange RQuery Iter Bytes Serial Spec SpecI Spec64 SpecMap FormatSpec64 Obs Derived Map64 Map64P Map64A Map64Q Map64C.
From Verif Require IterP DerivedI Hist64.
Import ListNotations.
Local Open Scope Z_scope.
Local Opaque zr.

(** the calls on an iterator; the result of move_equalorlarger *)
Definition mi_step (m : rmap) (i : miter) (c : mstep) : option (miter * option bool) :=
  match c with
  | SInc => option_map (fun j => (j, None)) (mi_incr m i)
  | SPostInc => option_map (fun j => (j, None)) (mi_post_incr m i)
  | SDec => option_map (fun j => (j, None)) (mi_decr m i)
  | SPostDec => option_map (fun j => (j, None)) (mi_post_decr m i)
  | SMove x => option_map (fun r => (fst r, Some (snd r))) (mi_seek m i x)
  end.
Fixpoint mi_run (m : rmap) (i : miter) (cs : list mstep) : option (list (option Z * option bool)) :=
  match cs with
  | [] => Some []
  | c :: cs => let! (j, o) := mi_step m i c in option_map (cons (mi_deref j, o)) (mi_run m j cs)
  end.

Definition blen (b : bitmap) : Z := zlen (elems b).
Lemma elems64_app a b : elems64 (a ++ b) = elems64 a ++ elems64 b. Proof. apply flat_map_app. Qed.
Lemma elems64_one k b : elems64 [(k, b)] = map (fun v => k * 2^32 + v) (elems b). Proof. unfold elems64. cbn [flat_map fst snd]. apply app_nil_r. Qed.
Lemma elems64_cons k b t : elems64 ((k, b) :: t) = map (fun v => k * 2^32 + v) (elems b) ++ elems64 t. Proof. reflexivity. Qed.
Lemma zlen_snoc m k b : zlen (elems64 (m ++ [(k, b)])) = zlen (elems64 m) + blen b.
Proof. now rewrite elems64_app, elems64_one, zlen_app, zlen_map. Qed.
Lemma mok_in m k b : mokm m -> In (k, b) m -> key32 k /\ bok b.
Proof. intros H I. apply In_mfind in I; [|apply H]. destruct (mden_found m _ k b H I) as (K & D). split; auto. now apply den_bok in D. Qed.
Lemma mfind_mid m1 k b m2 : msorted (m1 ++ (k, b) :: m2) -> mfind (m1 ++ (k, b) :: m2) k = Some b.
Proof. intros S. apply In_mfind; auto. apply in_app_iff. right. now left. Qed.
Lemma mid_keys m1 k b m2 : msorted (m1 ++ (k, b) :: m2) -> (forall j, In j (mkeys m1) -> j < k) /\ (forall j, In j (mkeys m2) -> k < j) /\ msorted m2.
Proof.
  unfold msorted, mkeys. rewrite map_app. cbn [map fst]. intros S. apply incr_app in S as (S1 & S2 & A). apply incr_cons in S2 as (S2 & S3). split; [|split; auto].
  - intros j J. apply A; auto. now left.
  - rewrite Forall_forall in S2. exact S2.
Qed.
Lemma mnext_mid m1 k b m2 : msorted (m1 ++ (k, b) :: m2) -> mnext (m1 ++ (k, b) :: m2) k = mbegin m2.
Proof.
  intros S. destruct (mid_keys m1 k b m2 S) as (A & B & S2). unfold mnext. induction m1 as [|[j c] t IH].
  - cbn [app mlower]. replace (k + 1 <=? k) with false by lia. destruct m2 as [|[j c] t]; [reflexivity|]. cbn [mlower mbegin hd_error option_map fst]. specialize (B j (or_introl eq_refl)). now replace (k + 1 <=? j) with true by lia.
  - cbn [app mlower]. specialize (A j (or_introl eq_refl)) as Aj. replace (k + 1 <=? j) with false by lia. apply IH; [|intros i I; apply A; now right]. cbn [app] in S. apply msorted_cons in S. apply S.
Qed.
Lemma mprev_mid m1 k b m2 : msorted (m1 ++ (k, b) :: m2) -> mprev (m1 ++ (k, b) :: m2) k = mlast m1.
Proof.
  intros S. destruct (mid_keys m1 k b m2 S) as (A & B & _). unfold mprev. f_equal. rewrite filter_app. cbn [filter fst]. replace (k <? k) with false by lia.
  rewrite filter_all; [rewrite filter_none; [apply app_nil_r|]|].
  - intros [j c] I. specialize (B j (in_map fst _ _ I)). cbn [fst]. lia.
  - intros [j c] I. specialize (A j (in_map fst _ _ I)). cbn [fst]. lia.
Qed.

(** [i] stands at position [p] *)
Definition mat (m : rmap) (i : miter) (p : Z) : Prop :=
  match mi_key i with
  | None => p = zlen (elems64 m)
  | Some k => exists m1 b m2 q, m = m1 ++ (k, b) :: m2 /\ IterP.ipos b (mi_it i) q /\ 0 <= q < blen b /\ p = zlen (elems64 m1) + q
  end.
Lemma forward_spec m : mokm m -> forall n m1 k b m2 it q, m = m1 ++ (k, b) :: m2 -> IterP.ipos b it q -> 0 <= q -> (length m2 < n)%nat ->
  exists i, forward_loop n m k it = Some i /\ mat m i (zlen (elems64 m1) + q).
Proof.
  intros O. pose proof (proj1 (proj1 O)) as S. induction n as [|n IH]; intros m1 k b m2 it q E I Q L; [lia|]. cbn [forward_loop]. destruct (mok_in m k b O ltac:(rewrite E; apply in_app_iff; right; now left)) as (K & B). destruct (IterP.ipos_obs b it q B I) as (R & Hh & _). fold (blen b) in *. destruct (it_has it).
  - eexists. split; [reflexivity|]. unfold mat. cbn [mi_key mi_it]. exists m1, b, m2, q. symmetry in Hh. apply andb_true_iff in Hh. repeat split; auto; lia.
  - assert (EQ : q = blen b) by (symmetry in Hh; apply andb_false_iff in Hh; lia). rewrite E in S |- *. rewrite (mnext_mid m1 k b m2 S). rewrite <- E in S |- *. destruct m2 as [|[k' b'] m3]; cbn [mbegin hd_error option_map fst].
    + eexists. split; [reflexivity|]. unfold mat. cbn [mi_key]. rewrite E, zlen_snoc. lia.
    + assert (E' : m = (m1 ++ [(k, b)]) ++ (k', b') :: m3) by (rewrite <- app_assoc; exact E). replace (mfind m k') with (Some b') by (symmetry; rewrite E'; apply mfind_mid; now rewrite <- E').
      destruct (mok_in m k' b' O ltac:(rewrite E'; apply in_app_iff; right; now left)) as (K' & B'). destruct (IterP.init_pos b' B') as (it' & -> & I').
      destruct (IH (m1 ++ [(k, b)]) k' b' m3 it' 0 E' I' ltac:(lia) ltac:(cbn [length] in L; lia)) as (i & -> & M). exists i. split; auto. rewrite zlen_snoc in M. replace (zlen (elems64 m1) + q) with (zlen (elems64 m1) + blen b + 0) by lia. exact M.
Qed.
Lemma begin_spec m : mokm m -> exists i, map_begin m = Some i /\ mat m i 0.
Proof.
  intros O. unfold map_begin. destruct m as [|[k b] t]; cbn [mbegin hd_error option_map fst].
  - eexists. split; [reflexivity|]. reflexivity.
  - cbn [mfind]; rewrite Z.eqb_refl. destruct (mok_in _ k b O (or_introl eq_refl)) as (K & B). destruct (IterP.init_pos b B) as (it & -> & I). apply (forward_spec _ O _ [] k b t it 0); auto; try lia; cbn [length]; lia.
Qed.
Lemma mat_bounds m i p : mokm m -> mat m i p -> 0 <= p <= zlen (elems64 m) /\ (mi_key i = None <-> p = zlen (elems64 m)).
Proof.
  intros O. unfold mat. destruct (mi_key i) as [k|].
  - intros (m1 & b & m2 & q & -> & _ & Q & ->). rewrite elems64_app, elems64_cons, !zlen_app, zlen_map. fold (blen b). pose proof (zlen_nonneg (elems64 m1)). pose proof (zlen_nonneg (elems64 m2)). split; [lia|]. split; [discriminate|lia].
  - intros ->. pose proof (zlen_nonneg (elems64 m)). split; [lia|]. tauto.
Qed.
Lemma mat_deref m i p : mokm m -> mat m i p -> mi_deref i = seen64 (elems64 m) p.
Proof.
  intros O M. destruct (mat_bounds m i p O M) as (R & N). unfold mi_deref, seen64, on_member, len_of. fold (zlen (elems64 m)). unfold mat in M. destruct (mi_key i) as [k|].
  - assert (p <> zlen (elems64 m)) by (intros X; apply N in X; discriminate). replace ((0 <=? p) && (p <? zlen (elems64 m))) with true by lia. destruct M as (m1 & b & m2 & q & E & I & Q & ->). destruct (mok_in m k b O ltac:(rewrite E; apply in_app_iff; right; now left)) as (K & B).
    destruct (IterP.ipos_obs b _ q B I) as (_ & Hh & Hc). fold (blen b) in Hh. replace ((0 <=? q) && (q <? blen b)) with true in Hh by lia. rewrite Hh in Hc. rewrite Hc. f_equal. fold (znth (elems64 m) (zlen (elems64 m1) + q)). rewrite E, elems64_app, elems64_cons. rewrite znth_app2 by lia. rewrite znth_app1 by (rewrite zlen_map; fold (blen b); lia).
    replace (zlen (elems64 m1) + q - zlen (elems64 m1)) with q by lia. unfold znth at 2. rewrite (nth_indep _ 0 (k * 2^32 + 0)) by (rewrite map_length; unfold blen, zlen in Q; lia). rewrite (map_nth (fun v => k * 2^32 + v)). apply unite_eq; [unfold key32 in K; lia|]. apply (proj2 (elems_bok b B)). apply znth_In. exact Q.
  - replace ((0 <=? p) && (p <? zlen (elems64 m))) with false by lia. reflexivity.
Qed.
Lemma incr_spec m i p : mokm m -> mat m i p -> p < zlen (elems64 m) -> (exists j, mi_incr m i = Some j /\ mat m j (p + 1)) /\ exists j, mi_post_incr m i = Some j /\ mat m j (p + 1).
Proof.
  intros O M L. destruct (mat_bounds m i p O M) as (R & N). unfold mi_incr, mi_post_incr. unfold mat in M. destruct (mi_key i) as [k|]; [|lia].
  destruct M as (m1 & b & m2 & q & E & I & Q & ->). destruct (mok_in m k b O ltac:(rewrite E; apply in_app_iff; right; now left)) as (K & B). pose proof (proj1 (proj1 O)) as S. replace (mfind m k) with (Some b) by (symmetry; rewrite E; apply mfind_mid; now rewrite <- E).
  destruct (IterP.ipos_obs b _ q B I) as (_ & Hh & _). fold (blen b) in Hh. replace ((0 <=? q) && (q <? blen b)) with true in Hh by lia. rewrite Hh. destruct (IterP.advance_pos b _ q B I) as (it' & -> & I'). fold (blen b) in I'. rewrite Z.min_r in I' by lia.
  destruct (forward_spec m O (Datatypes.S (length m)) m1 k b m2 it' (q + 1) E I' ltac:(lia)) as (j & Ej & Mj); [rewrite E, app_length; cbn [length]; lia|]. rewrite Z.add_assoc in Mj. split; exists j; auto.
Qed.
Lemma last_split {A} (l : list A) : l <> [] -> exists l' x, l = l' ++ [x].
Proof. intros N. destruct (exists_last N) as (l' & x & E). eauto. Qed.
Lemma mlast_snoc m k b : mlast (m ++ [(k, b)]) = Some k.
Proof. unfold mlast. rewrite rev_app_distr. reflexivity. Qed.
Lemma backward_spec m : mokm m -> forall n m1 k b m2 it q, m = m1 ++ (k, b) :: m2 -> IterP.ipos b it q -> q < blen b -> 0 <= zlen (elems64 m1) + q -> (length m1 < n)%nat ->
  exists i, backward_loop n m k it = Some i /\ mat m i (zlen (elems64 m1) + q).
Proof.
  intros O. pose proof (proj1 (proj1 O)) as S. induction n as [|n IH]; intros m1 k b m2 it q E I Q P0 L; [lia|]. cbn [backward_loop]. destruct (mok_in m k b O ltac:(rewrite E; apply in_app_iff; right; now left)) as (K & B). destruct (IterP.ipos_obs b it q B I) as (R & Hh & _). fold (blen b) in *. destruct (it_has it).
  - eexists. split; [reflexivity|]. unfold mat. cbn [mi_key mi_it]. exists m1, b, m2, q. symmetry in Hh. apply andb_true_iff in Hh. repeat split; auto; lia.
  - assert (EQ : q = -1) by (symmetry in Hh; apply andb_false_iff in Hh; lia). subst q. rewrite E in S |- *. rewrite (mprev_mid m1 k b m2 S). rewrite <- E in S |- *.
    destruct (last_split m1) as (m0 & [k' b'] & E1); [intros ->; change (zlen (elems64 [])) with 0 in P0; lia|]. subst m1. rewrite mlast_snoc. assert (E' : m = m0 ++ (k', b') :: (k, b) :: m2) by (rewrite <- app_assoc in E; exact E). replace (mfind m k') with (Some b') by (symmetry; rewrite E'; apply mfind_mid; now rewrite <- E').
    destruct (mok_in m k' b' O ltac:(rewrite E'; apply in_app_iff; right; now left)) as (K' & B'). destruct (IterP.init_last_pos b' B') as (it' & -> & I'). fold (blen b') in I'. rewrite zlen_snoc in P0 |- *. rewrite app_length in L. cbn [length] in L.
    destruct (IH m0 k' b' _ it' (blen b' - 1) E' I' ltac:(lia) ltac:(lia) ltac:(lia)) as (i & -> & M). exists i. split; auto. replace (zlen (elems64 m0) + blen b' + -1) with (zlen (elems64 m0) + (blen b' - 1)) by lia. exact M.
Qed.
(** no empty bitmaps, except possibly at key 0 *)
Definition no_empty (m : rmap) : Prop := forall k b, In (k, b) m -> 0 < k -> roaring_bitmap_is_empty b = false.
Lemma nonempty_len b : bok b -> roaring_bitmap_is_empty b = false -> 0 < blen b.
Proof.
  intros B E. unfold blen. destruct (elems b) as [|v l] eqn:X; [|rewrite zlen_cons; pose proof (zlen_nonneg l); lia]. exfalso. enough (roaring_bitmap_is_empty b = true) by congruence. apply (q_is_empty b _ (bok_den b B)). intros v V. unfold zempty. destruct (mem b v) eqn:M; auto. exfalso. assert (I : In v (elems b)) by (apply (elems_lists b _ (bok_den b B)); auto). rewrite X in I. destruct I.
Qed.
Lemma decr_spec m i p : mokm m -> mat m i p -> 0 < p -> (exists j, mi_decr m i = Some j /\ mat m j (p - 1)) /\ (mi_key i <> None \/ no_empty m -> exists j, mi_post_decr m i = Some j /\ mat m j (p - 1)).
Proof.
  intros O M L. destruct (mat_bounds m i p O M) as (R & N). unfold mi_decr, mi_post_decr. pose proof (proj1 (proj1 O)) as S. unfold mat in M. destruct (mi_key i) as [k|].
  - destruct M as (m1 & b & m2 & q & E & I & Q & ->). destruct (mok_in m k b O ltac:(rewrite E; apply in_app_iff; right; now left)) as (K & B). replace (mfind m k) with (Some b) by (symmetry; rewrite E; apply mfind_mid; now rewrite <- E).
    destruct (IterP.previous_pos b _ q B I) as (it' & -> & I'). rewrite Z.max_r in I' by lia. destruct (backward_spec m O (Datatypes.S (length m)) m1 k b m2 it' (q - 1) E I' ltac:(lia) ltac:(lia)) as (j & Ej & Mj); [rewrite E, app_length; cbn [length]; lia|]. replace (zlen (elems64 m1) + (q - 1)) with (zlen (elems64 m1) + q - 1) in Mj by lia. split; [|intros _]; exists j; auto.
  - destruct (last_split m) as (m0 & [k b] & E); [intros ->; change (zlen (elems64 [])) with 0 in M; lia|]. assert (EM : mlast m = Some k) by (rewrite E; apply mlast_snoc). rewrite EM. replace (mfind m k) with (Some b) by (symmetry; rewrite E; apply mfind_mid; now rewrite <- E).
    destruct (mok_in m k b O ltac:(rewrite E; apply in_app_iff; right; now left)) as (K & B). destruct (IterP.init_last_pos b B) as (it' & -> & I'). fold (blen b) in I'. destruct (IterP.ipos_obs b it' _ B I') as (R' & Hh & _). fold (blen b) in *. assert (EP : p = zlen (elems64 m0) + blen b) by (rewrite M, E; apply zlen_snoc).
    assert (HAS : it_has it' = true -> mat m (MIter (Some k) it') (p - 1)). { intros X. rewrite X in Hh. symmetry in Hh. apply andb_true_iff in Hh. unfold mat. cbn [mi_key mi_it]. exists m0, b, [], (blen b - 1). repeat split; auto; lia. }
    split.
    + destruct (it_has it') eqn:HH; [eexists; split; [reflexivity|auto]|]. destruct (IterP.previous_pos b _ _ B I') as (it2 & -> & I2).
      assert (Q1 : blen b - 1 = -1) by (symmetry in Hh; apply andb_false_iff in Hh; unfold blen in *; pose proof (zlen_nonneg (elems b)); lia). rewrite Q1 in I2. change (Z.max (-1) (-1 - 1)) with (-1) in I2.
      destruct (backward_spec m O (Datatypes.S (length m)) m0 k b [] it2 (-1) E I2 ltac:(lia) ltac:(lia)) as (j & Ej & Mj); [rewrite E, app_length; cbn [length]; lia|]. exists j. split; auto. replace (p - 1) with (zlen (elems64 m0) + -1) by lia. exact Mj.
    + intros [X|X]; [congruence|]. eexists. split; [reflexivity|]. apply HAS. rewrite Hh. enough (0 < blen b) by lia. destruct (Z_lt_dec 0 k) as [PK|PK]; [exact (nonempty_len b B (X k b ltac:(rewrite E; apply in_app_iff; right; now left) PK))|].
      assert (E0 : m0 = []). { destruct m0 as [|[j c] t]; auto. exfalso. rewrite E in S. destruct (mid_keys ((j, c) :: t) k b [] S) as (A1 & _). specialize (A1 j (or_introl eq_refl)). destruct (mok_in m j c O ltac:(rewrite E; now left)) as (KJ & _). unfold key32 in *. lia. }
      subst m0. change (zlen (elems64 [])) with 0 in EP. lia.
Qed.
Lemma lb_all l x : (forall v, In v l -> v < x) -> lb l x = zlen l.
Proof. intros A. unfold lb. rewrite filter_all; auto. intros v I. specialize (A v I). lia. Qed.
Lemma lb_zero l x : (forall v, In v l -> x <= v) -> lb l x = 0.
Proof. intros A. unfold lb. rewrite filter_none; auto. intros v I. specialize (A v I). lia. Qed.
Lemma lb_shift d l x : lb (map (fun v => d + v) l) (d + x) = lb l x.
Proof. unfold lb. induction l as [|a l IH]; [reflexivity|]. cbn [map filter]. destruct (a <? x) eqn:E; [replace (d + a <? d + x) with true by lia|replace (d + a <? d + x) with false by lia]; rewrite ?zlen_cons; lia. Qed.
Lemma elems64_block m v : (forall k b, In (k, b) m -> key32 k /\ bok b) -> In v (elems64 m) -> exists k, In k (mkeys m) /\ k * 2^32 <= v < (k + 1) * 2^32.
Proof.
  intros A I. apply in_flat_map in I as ([k b] & I & J). apply in_map_iff in J as (w & <- & J). cbn [fst snd] in *. exists k. split; [exact (in_map fst _ _ I)|]. destruct (A k b I) as (_ & B). apply (proj2 (elems_bok b B)) in J. lia.
Qed.
Lemma mlower_split m h : mlower m h = match mlower m h with Some k => Some k | None => None end. Proof. now destruct (mlower m h). Qed.
Lemma seek_spec m i x : mokm m -> no_empty m -> val64 x -> exists j, mi_seek m i x = Some (j, lb (elems64 m) x <? zlen (elems64 m)) /\ mat m j (lb (elems64 m) x).
Proof.
  intros O NE V. pose proof (proj1 (proj1 O)) as S. unfold mi_seek. destruct (split_high x V) as (K & L & EX). unfold val32, key32 in K, L. assert (AM : forall k b, In (k, b) m -> key32 k /\ bok b) by (intros; now apply (mok_in m)).
  destruct (mlower m (highBytes x)) as [k|] eqn:ML.
  - destruct (mlower_Some m _ k S ML) as (F & G & N). apply mhas_In in F. apply in_map_iff in F as ([k0 b] & E0 & I0). cbn in E0. subst k0. destruct (in_split _ _ I0) as (m1 & m2 & E). destruct (AM k b I0) as (Kk & B). rewrite E in S. destruct (mid_keys m1 k b m2 S) as (A1 & A2 & S2).
    replace (mfind m k) with (Some b) by (symmetry; rewrite E; now apply mfind_mid). destruct (IterP.init_pos b B) as (it & -> & I).
    assert (AM1 : forall k b, In (k, b) m1 -> key32 k /\ bok b) by (intros k' b' J; apply AM; rewrite E; apply in_app_iff; auto). assert (AM2 : forall k b, In (k, b) m2 -> key32 k /\ bok b) by (intros k' b' J; apply AM; rewrite E; apply in_app_iff; right; now right).
    assert (L1 : lb (elems64 m1) x = zlen (elems64 m1)). { apply lb_all. intros v Iv. destruct (elems64_block m1 v AM1 Iv) as (j & J & R). assert (j < highBytes x). { destruct (Z_lt_dec j (highBytes x)); auto. exfalso. assert (X : mhas m j = true) by (apply mhas_In; rewrite E; unfold mkeys; rewrite map_app, in_app_iff; auto). rewrite N in X; [discriminate|]. specialize (A1 j J). lia. } lia. }
    assert (L2 : lb (elems64 m2) x = 0). { apply lb_zero. intros v Iv. destruct (elems64_block m2 v AM2 Iv) as (j & J & R). specialize (A2 j J). lia. }
    assert (LB : lb (elems64 m) x = zlen (elems64 m1) + lb (map (fun v => k * 2^32 + v) (elems b)) x) by (rewrite E, elems64_app, elems64_cons, !lb_app, L1, L2; lia).
    assert (ZL : zlen (elems64 m) = zlen (elems64 m1) + blen b + zlen (elems64 m2)) by (rewrite E, elems64_app, elems64_cons, !zlen_app, zlen_map; unfold blen; lia).
    pose proof (zlen_nonneg (elems64 m2)) as Z2.
    destruct (k =? highBytes x) eqn:EK.
    + apply Z.eqb_eq in EK. destruct (IterP.seek_pos b it 0 (lowBytes x) B I ltac:(lia)) as (it2 & -> & I2). assert (LK : lb (map (fun v => k * 2^32 + v) (elems b)) x = lb (elems b) (lowBytes x)) by (rewrite <- (lb_shift (k * 2^32) (elems b) (lowBytes x)); rewrite EK, EX; reflexivity). rewrite LK in LB. destruct (IterP.ipos_obs b it2 _ B I2) as (R2 & Hh & _). fold (blen b) in *. pose proof (lb_bound (elems b) (lowBytes x)) as LBB. fold (blen b) in LBB. destruct (it_has it2).
      * symmetry in Hh. apply andb_true_iff in Hh. rewrite LB. replace (_ <? zlen (elems64 m)) with true by lia. eexists. split; [reflexivity|]. unfold mat. cbn [mi_key mi_it]. exists m1, b, m2, (lb (elems b) (lowBytes x)). repeat split; auto; lia.
      * assert (EQ : lb (elems b) (lowBytes x) = blen b) by (symmetry in Hh; apply andb_false_iff in Hh; lia). rewrite E. rewrite (mnext_mid m1 k b m2 S). rewrite <- E. rewrite LB, EQ. destruct m2 as [|[k' b'] m3]; cbn [mbegin hd_error option_map fst].
        { change (zlen (elems64 [])) with 0 in *. replace (_ <? zlen (elems64 m)) with false by lia. eexists. split; [reflexivity|]. unfold mat. cbn [mi_key]. lia. }
        assert (E' : m = (m1 ++ [(k, b)]) ++ (k', b') :: m3) by (rewrite <- app_assoc; exact E). replace (mfind m k') with (Some b') by (symmetry; rewrite E'; apply mfind_mid; rewrite <- E', E; exact S).
        assert (I0' : In (k', b') m) by (rewrite E'; apply in_app_iff; right; now left). destruct (AM k' b' I0') as (K' & B'). destruct (IterP.init_pos b' B') as (it' & -> & I'). assert (KK : 0 < k') by (specialize (A2 k' (or_introl eq_refl)); unfold key32 in *; lia). pose proof (nonempty_len b' B' (NE k' b' I0' KK)) as NB'. rewrite elems64_cons, zlen_app, zlen_map in ZL, Z2. fold (blen b') in ZL, Z2. pose proof (zlen_nonneg (elems64 m3)). replace (_ <? zlen (elems64 m)) with true by lia.
        eexists. split; [reflexivity|]. unfold mat. cbn [mi_key mi_it]. exists (m1 ++ [(k, b)]), b', m3, 0. rewrite zlen_snoc. repeat split; auto; lia.
    + apply Z.eqb_neq in EK. pose proof (nonempty_len b B (NE k b I0 ltac:(lia))) as NB. assert (LK : lb (map (fun v => k * 2^32 + v) (elems b)) x = 0). { apply lb_zero. intros v Iv. apply in_map_iff in Iv as (w & <- & Iw). apply (proj2 (elems_bok b B)) in Iw. lia. }
      rewrite LB, LK. replace (_ <? zlen (elems64 m)) with true by lia. eexists. split; [reflexivity|]. unfold mat. cbn [mi_key mi_it]. exists m1, b, m2, 0. repeat split; auto; lia.
  - assert (LB : lb (elems64 m) x = zlen (elems64 m)). { apply lb_all. intros v Iv. destruct (elems64_block m v AM Iv) as (j & J & R). assert (j < highBytes x). { destruct (Z_lt_dec j (highBytes x)); auto. exfalso. apply mhas_In in J. rewrite (mlower_None m _ j ML) in J by lia. discriminate. } lia. }
    rewrite LB, Z.ltb_irrefl. eexists. split; [reflexivity|]. unfold mat. cbn [mi_key]. reflexivity.
Qed.

(** ** Histories of calls *)
Definition plain (c : mstep) : bool := match c with SInc | SPostInc | SDec => true | _ => false end.
Lemma step_spec m i p c : mokm m -> mat m i p -> (no_empty m \/ plain c = true) -> mstep_ok (elems64 m) p c ->
  exists j, mi_step m i c = Some (j, mstep_out (elems64 m) p c) /\ mat m j (mstep_pos (elems64 m) p c).
Proof.
  intros O M NE K. unfold mstep_ok, mstep_pos, mstep_out, mi_step, len_of in *. fold (zlen (elems64 m)) in *. destruct c as [| | | |x].
  - destruct (proj1 (incr_spec m i p O M K)) as (j & -> & Mj). exists j. auto.
  - destruct (proj2 (incr_spec m i p O M K)) as (j & -> & Mj). exists j. auto.
  - destruct (proj1 (decr_spec m i p O M K)) as (j & -> & Mj). exists j. auto.
  - destruct NE as [NE|NE]; [|discriminate]. destruct (proj2 (decr_spec m i p O M K)) as (j & -> & Mj); auto. exists j. auto.
  - destruct NE as [NE|NE]; [|discriminate]. destruct (seek_spec m i x O NE K) as (j & -> & Mj). exists j. auto.
Qed.
Lemma run_spec m cs : mokm m -> (no_empty m \/ forallb plain cs = true) -> forall i p, mat m i p -> mlegal (elems64 m) p cs -> mi_run m i cs = Some (mcursor (elems64 m) p cs).
Proof.
  intros O. induction cs as [|c cs IH]; intros NE i p M K; [reflexivity|]. cbn [mi_run mcursor]. destruct K as (K & KS). destruct (step_spec m i p c O M) as (j & -> & Mj); auto.
  { destruct NE as [NE|NE]; auto. cbn [forallb] in NE. apply andb_true_iff in NE. right. apply NE. }
  rewrite (mat_deref m j _ O Mj). rewrite (IH ltac:(destruct NE as [NE|NE]; auto; cbn [forallb] in NE; apply andb_true_iff in NE; right; apply NE) j _ Mj KS). reflexivity.
Qed.
Lemma mden_run m P l cs : mden m P -> lists64 P l -> (no_empty m \/ forallb plain cs = true) ->
  (mlegal l 0 cs -> (let! i := map_begin m in mi_run m i cs) = Some (mcursor l 0 cs)) /\
  (mlegal l (len_of l) cs -> mi_run m (map_end m) cs = Some (mcursor l (len_of l) cs)).
Proof.
  intros H L NE. pose proof (mokm_of m P H) as O. rewrite (Hist64.lists64_unique P l (elems64 m) L (elems64_lists m P H)). split; intros K.
  - destruct (begin_spec m O) as (i & -> & M). now apply run_spec.
  - apply run_spec; auto. reflexivity.
Qed.
Lemma shrink_no_empty m : no_empty (map_shrinkToFit m).
Proof. intros k b I _. unfold map_shrinkToFit in I. apply filter_In in I as (_ & I). cbn [snd] in I. now destruct (roaring_bitmap_is_empty b). Qed.

(** ** Comparisons of two iterators on one map *)
Lemma seen_znth l p : 0 <= p < zlen l -> seen64 l p = Some (znth l p).
Proof. intros R. unfold seen64, on_member, len_of. fold (zlen l). now replace ((0 <=? p) && (p <? zlen l)) with true by lia. Qed.
Lemma znth_order l a b : incr l -> 0 <= a < zlen l -> 0 <= b < zlen l -> (znth l a ?= znth l b) = (a ?= b).
Proof.
  intros S A B. assert (ST : forall i j, 0 <= i < j -> j < zlen l -> znth l i < znth l j).
  { clear -S. induction l as [|x l IH]; intros i j I J; [unfold zlen in J; cbn in J; lia|]. apply incr_cons in S as (F & S). rewrite zlen_cons in J. rewrite (znth_cons_pos x l j) by lia. destruct (Z.eq_dec i 0) as [->|N].
    - rewrite znth_cons_0. rewrite Forall_forall in F. apply F, znth_In. lia.
    - rewrite znth_cons_pos by lia. apply IH; auto; lia. }
  destruct (Z.compare_spec a b) as [->|L|L]; [apply Z.compare_refl|apply Z.compare_lt_iff|apply Z.compare_gt_iff]; apply ST; lia.
Qed.
Lemma compare_spec64 m i j p q : mokm m -> mat m i p -> mat m j q ->
  mi_lt i j = Some (p <? q) /\ mi_le i j = Some (p <=? q) /\ mi_gt i j = Some (p >? q) /\ mi_ge i j = Some (p >=? q) /\
  (mi_key i <> None \/ mi_key j = None -> mi_eq i j = Some (p =? q) /\ mi_ne i j = Some (negb (p =? q))).
Proof.
  intros O M N. destruct (mat_bounds m i p O M) as (R1 & N1). destruct (mat_bounds m j q O N) as (R2 & N2). pose proof (mat_deref m i p O M) as D1. pose proof (mat_deref m j q O N) as D2. unfold mi_lt, mi_le, mi_gt, mi_ge, mi_eq, mi_ne. destruct (elems64_wf m O) as (S & _).
  destruct (mi_key i) as [k|] eqn:Ki; destruct (mi_key j) as [k'|] eqn:Kj.
  - assert (A : p <> zlen (elems64 m)) by (intros X; apply N1 in X; congruence). assert (B : q <> zlen (elems64 m)) by (intros X; apply N2 in X; congruence). rewrite D1, D2, !seen_znth by lia.
    pose proof (znth_order _ p q S ltac:(lia) ltac:(lia)) as C. unfold Z.ltb, Z.leb, Z.gtb, Z.geb. rewrite !Z.eqb_compare, C. repeat split.
  - assert (A : p <> zlen (elems64 m)) by (intros X; apply N1 in X; congruence). assert (B : q = zlen (elems64 m)) by tauto. repeat split; try (f_equal; lia).
  - assert (A : p = zlen (elems64 m)) by tauto. assert (B : q <> zlen (elems64 m)) by (intros X; apply N2 in X; congruence). repeat split; try (f_equal; lia); destruct H as [X|X]; congruence.
  - assert (A : p = zlen (elems64 m)) by tauto. assert (B : q = zlen (elems64 m)) by tauto. repeat split; try (f_equal; lia).
Qed.
