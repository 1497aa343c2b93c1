(** Map64A: set operations, comparisons and counting on the map of bitmaps. *)
From Coq Require Import ZArith List Bool Lia.
From Verif Require Import Base ArrayUtil BitUtil BitsetC ArrayC RunC RunD Convert Containers RArray RBinary RPoint RRange RQuery Iter Bytes Serial Spec Spec64 FormatSpec64 Obs Derived Map64 Map64P.
Import ListNotations.
Local Open Scope Z_scope.
Local Opaque zr.

(** ** Intersection *)
Lemma mden_and sh same m o P Q : mden m P -> mden o Q -> (same = true -> m = o) -> mden (map_and_inplace sh same m o) (zinter P Q).
Proof.
  intros H G E. unfold map_and_inplace. destruct same.
  { rewrite <- (E eq_refl) in G. apply (mden_ext m P); auto. intros v V. unfold zinter. rewrite <- (mden_contains m P v H V), <- (mden_contains m Q v G V). now rewrite andb_diag. }
  set (f := fun k b => match mfind o k with Some ob => let b' := roaring_bitmap_and_inplace false sh b ob in if roaring_bitmap_is_empty b' then None else Some b' | None => None end).
  match goal with |- mden ?t _ => assert (X : t = mflat f m) end.
  { unfold mflat. apply flat_map_ext. intros [k b]. unfold f. cbn [fst snd]. destruct (mfind o k); [|reflexivity]. cbv zeta. destruct (roaring_bitmap_is_empty (roaring_bitmap_and_inplace false sh b b0)); reflexivity. }
  rewrite X. clear X. split; [apply mwf_flat; apply H|]. intros h K. unfold inner. rewrite mfind_mflat by apply H.
  assert (Z0 : (forall v, val32 v -> half P h v && half Q h v = false) -> denotes [] (half (zinter P Q) h)). { intros Z0. eapply den_ext; [exact den_new|]. intros v V. symmetry. exact (Z0 v V). }
  destruct (mfind m h) as [b|] eqn:F.
  - unfold f. destruct (mfind o h) as [ob|] eqn:F2.
    + destruct (mden_found m P h b H F) as (_ & Db). destruct (mden_found o Q h ob G F2) as (_ & Do).
      assert (D : denotes (roaring_bitmap_and_inplace false sh b ob) (half (zinter P Q) h)) by (apply (den_ext _ (zinter (half P h) (half Q h))); [apply den_and_inplace; auto; discriminate|intros v V; reflexivity]).
      cbv zeta. destruct (roaring_bitmap_is_empty (roaring_bitmap_and_inplace false sh b ob)) eqn:Y; auto. apply empty_nil in Y. now rewrite Y in D.
    + apply Z0. intros v V. rewrite (mden_absent o Q h v G K F2 V). apply andb_false_r.
  - apply Z0. intros v V. rewrite (mden_absent m P h v H K F V). reflexivity.
Qed.

(** ** Difference *)
Definition mcount (m : rmap) (f : Z) : nat := length (filter (fun e => f <=? fst e) m).
Lemma mcount_mono m f f' : f <= f' -> (mcount m f' <= mcount m f)%nat.
Proof.
  intros L. unfold mcount. induction m as [|[k b] t IH]; cbn [filter fst]; [lia|]. destruct (f' <=? k) eqn:E, (f <=? k) eqn:E2; cbn [length]; lia.
Qed.
Lemma mcount_drop m f f' k : mhas m k = true -> f <= k < f' -> (mcount m f' < mcount m f)%nat.
Proof.
  intros F R. pose proof (fun t => mcount_mono t f f' ltac:(lia)) as M. unfold mcount in *. induction m as [|[j b] t IH]; [discriminate|]. cbn [filter fst]. unfold mhas in F. cbn [mfind] in F. destruct (k =? j) eqn:E.
  - replace (f' <=? j) with false by lia. replace (f <=? j) with true by lia. cbn [length]. specialize (M t). lia.
  - specialize (IH F). destruct (f' <=? j) eqn:E2, (f <=? j) eqn:E3; cbn [length]; lia.
Qed.
Lemma mcount_mput m k b f : msorted m -> mhas m k = true -> mcount (mput m k b) f = mcount m f.
Proof.
  unfold mcount. induction m as [|[j c] t IH]; intros S F; [discriminate|]. apply msorted_cons in S as (A & S). unfold mhas in F. cbn [mfind] in F. cbn [mput].
  destruct (k =? j) eqn:E. { apply Z.eqb_eq in E. subst. rewrite Z.ltb_irrefl. cbn [filter fst]. destruct (f <=? j); reflexivity. }
  assert (In k (mkeys t)) by (apply mhas_In; exact F). specialize (A _ H). replace (k <? j) with false by lia. cbn [filter fst]. specialize (IH S F). destruct (f <=? j); cbn [length]; lia.
Qed.
Lemma mcount_erase m k f : k < f -> mcount (merase m k) f = mcount m f.
Proof.
  intros L. unfold mcount, merase. induction m as [|[j c] t IH]; [reflexivity|]. cbn [filter fst]. destruct (j =? k) eqn:E; cbn [negb].
  - replace (f <=? j) with false by lia. exact IH.
  - cbn [filter fst]. destruct (f <=? j); cbn [length]; lia.
Qed.
Lemma mcount_mkeep m k b f : msorted m -> mhas m k = true -> k < f -> mcount (mkeep m k b) f = mcount m f.
Proof. intros S F L. unfold mkeep. destruct (roaring_bitmap_is_empty b); [now apply mcount_erase|now apply mcount_mput]. Qed.
Lemma mcount_all m f : (mcount m f <= length m)%nat.
Proof. unfold mcount. induction m as [|[j c] t IH]; cbn [filter fst length]; [lia|]. destruct (f <=? j); cbn [length]; lia. Qed.
Definition diff_from (f : Z) (P Q : zset) : zset := fun v => P v && negb ((f <=? highBytes v) && Q v).
Lemma diff_loop_spec sh o Q n : mden o Q -> forall m P f, mden m P -> (mcount m f + mcount o f < n)%nat ->
  exists m', diff_loop n sh m o (mlower m f) (mlower o f) = Some m' /\ mden m' (diff_from f P Q).
Proof.
  intros G. induction n as [|n IH]; intros m P f H L; [lia|]. cbn [diff_loop]. pose proof (mden_sorted m P H) as S. pose proof (mden_sorted o Q G) as So.
  assert (STOP : forall f2, (f2 = f \/ f <= f2) -> (forall h, f <= h < f2 -> mhas m h = false \/ mhas o h = false) -> same_set64 (diff_from f2 P Q) (diff_from f P Q)).
  { intros f2 L2 N v V. unfold diff_from. destruct (split_high v V) as (K & Lv & _). destruct (f <=? highBytes v) eqn:E1, (f2 <=? highBytes v) eqn:E2; auto; try lia. cbn [andb negb]. rewrite <- (half_at Q v V), <- (half_at P v V).
    destruct (N (highBytes v) ltac:(lia)) as [X|X]; unfold mhas in X.
    - destruct (mfind m (highBytes v)) eqn:F; [discriminate|]. rewrite (mden_absent m P _ _ H K F Lv). reflexivity.
    - destruct (mfind o (highBytes v)) eqn:F; [discriminate|]. rewrite (mden_absent o Q _ _ G K F Lv). reflexivity. }
  assert (DONE : (forall h, f <= h -> mhas m h = false \/ mhas o h = false) -> mden m (diff_from f P Q)).
  { intros N. apply (mden_ext m P); auto. intros v V. unfold diff_from. destruct (split_high v V) as (K & Lv & _). destruct (f <=? highBytes v) eqn:E1; [|now rewrite andb_true_r]. cbn [andb]. rewrite <- (half_at Q v V), <- (half_at P v V).
    destruct (N (highBytes v) ltac:(lia)) as [X|X]; unfold mhas in X.
    - destruct (mfind m (highBytes v)) eqn:F; [discriminate|]. rewrite (mden_absent m P _ _ H K F Lv). reflexivity.
    - destruct (mfind o (highBytes v)) eqn:F; [discriminate|]. rewrite (mden_absent o Q _ _ G K F Lv). now rewrite andb_true_r. }
  destruct (mlower m f) as [sk|] eqn:E1. 2:{ exists m. split; auto. apply DONE. intros h R. left. eapply mlower_None; eauto. }
  destruct (mlower o f) as [ok|] eqn:E2. 2:{ exists m. split; auto. apply DONE. intros h R. right. eapply mlower_None; eauto. }
  destruct (mlower_Some m f sk S E1) as (F1 & L1 & N1). destruct (mlower_Some o f ok So E2) as (F2 & L2 & N2).
  destruct (sk <? ok) eqn:C1; [|destruct (ok <? sk) eqn:C2].
  - rewrite <- (mlower_self o ok So F2). destruct (IH m P ok H) as (m' & E' & D'). { pose proof (mcount_drop m f ok sk F1 ltac:(lia)). pose proof (mcount_mono o f ok ltac:(lia)). lia. }
    exists m'. split; auto. apply (mden_ext m' _ _ D'). apply STOP; [lia|]. intros h R. right. apply N2. lia.
  - rewrite <- (mlower_self m sk S F1). destruct (IH m P sk H) as (m' & E' & D'). { pose proof (mcount_drop o f sk ok F2 ltac:(lia)). pose proof (mcount_mono m f sk ltac:(lia)). lia. }
    exists m'. split; auto. apply (mden_ext m' _ _ D'). apply STOP; [lia|]. intros h R. left. apply N1. lia.
  - assert (EQ : ok = sk) by lia. subst ok. destruct (found m sk F1) as (sb & Fs). destruct (found o sk F2) as (ob & Fo). rewrite Fs, Fo.
    destruct (mden_found m P sk sb H Fs) as (K & Ds). destruct (mden_found o Q sk ob G Fo) as (_ & Do).
    set (m1 := mkeep m sk (roaring_bitmap_andnot_inplace sh sb ob)). set (P1 := fun v => P v && negb ((highBytes v =? sk) && Q v)).
    assert (H1 : mden m1 P1).
    { apply (mden_keep m P); auto.
      - eapply den_ext; [apply (den_andnot_inplace sh _ _ _ _ Ds Do)|]. intros v V. unfold half, P1, zdiff. destruct (join_high sk v K V) as (Ej & _ & _). rewrite Ej, Z.eqb_refl. reflexivity.
      - intros h Kh N v V. unfold half, P1. destruct (join_high h v Kh V) as (Ej & _ & _). rewrite Ej. replace (h =? sk) with false by lia. now rewrite andb_true_r. }
    unfold mnext. replace (mlower m (sk + 1)) with (mlower m1 (sk + 1)).
    2:{ apply mlower_ext; auto. { apply H1. } intros i I. unfold m1. rewrite mhas_mkeep_other by (auto; lia). reflexivity. }
    destruct (IH m1 P1 (sk + 1) H1) as (m' & E' & D').
    { unfold m1. rewrite mcount_mkeep by (auto; lia). pose proof (mcount_drop m f (sk + 1) sk F1 ltac:(lia)). pose proof (mcount_mono o f (sk + 1) ltac:(lia)). lia. }
    exists m'. split; auto. apply (mden_ext m' _ _ D'). intros v V. rewrite <- (STOP sk) by (auto; try lia; intros h R; left; apply N1; lia). unfold diff_from, P1. destruct (P v), (Q v); cbn [andb negb]; rewrite ?andb_true_r, ?andb_false_r; cbn [andb negb]; auto.
    destruct (highBytes v =? sk) eqn:X1, (sk + 1 <=? highBytes v) eqn:X2, (sk <=? highBytes v) eqn:X3; auto; lia.
Qed.
Lemma mlower_begin m : mwf m -> mlower m 0 = mbegin m.
Proof. intros (S & B). destruct m as [|[k b] t]; [reflexivity|]. cbn [mlower]. assert (K : key32 k) by (apply B; left; reflexivity). unfold key32 in K. replace (0 <=? k) with true by lia. reflexivity. Qed.
Lemma mden_andnot sh same m o P Q : mden m P -> mden o Q -> (same = true -> m = o) -> exists m', map_andnot_inplace sh same m o = Some m' /\ mden m' (zdiff P Q).
Proof.
  intros H G E. unfold map_andnot_inplace. destruct same.
  { rewrite <- (E eq_refl) in G. exists []. split; auto. apply (mden_ext [] zempty); [exact mden_nil|]. intros v V. unfold zdiff, zempty. rewrite <- (mden_contains m P v H V), <- (mden_contains m Q v G V). destruct (map_contains m v); reflexivity. }
  rewrite <- (mlower_begin m (proj1 H)), <- (mlower_begin o (proj1 G)).
  destruct (diff_loop_spec sh o Q (S (2 * (length m + length o))) G m P 0 H) as (m' & E' & D'). { pose proof (mcount_all m 0). pose proof (mcount_all o 0). lia. }
  exists m'. split; auto. apply (mden_ext m' _ _ D'). intros v V. unfold diff_from, zdiff. destruct (split_high v V) as (K & _). unfold key32 in K. replace (0 <=? highBytes v) with true by lia. reflexivity.
Qed.

(** ** Union and symmetric difference *)
Definition entry_set (e : Z * bitmap) : zset := fun v => (highBytes v =? fst e) && mem (snd e) (lowBytes v).
Lemma mden_set o Q v : mden o Q -> val64 v -> Q v = match mfind o (highBytes v) with Some b => mem b (lowBytes v) | None => false end.
Proof.
  intros G V. destruct (split_high v V) as (K & L & _). rewrite <- (half_at Q v V). destruct (mfind o (highBytes v)) as [b|] eqn:F; [|eapply mden_absent; eauto].
  destruct (mden_found o Q _ b G F) as (_ & D). symmetry. apply (den_mem _ _ _ D L).
Qed.
Lemma fold_entries (op : bool -> bool -> bool) (step : rmap -> Z * bitmap -> rmap) :
  (forall a, op a false = a) ->
  (forall m P k b, mden m P -> key32 k -> bok b -> mden (step m (k, b)) (fun v => op (P v) (entry_set (k, b) v))) ->
  forall o m P, mden m P -> mwf o -> (forall k b, mfind o k = Some b -> bok b) ->
  mden (fold_left step o m) (fun v => op (P v) (match mfind o (highBytes v) with Some b => mem b (lowBytes v) | None => false end)).
Proof.
  intros O1 ST. induction o as [|[k b] t IH]; intros m P H (S & B) V; cbn [fold_left].
  { apply (mden_ext m P); auto. intros v _. cbn [mfind]. now rewrite O1. }
  assert (K : key32 k) by (apply B; left; reflexivity). pose proof S as S0. apply msorted_cons in S as (A & S).
  assert (Bb : bok b) by (apply (V k); cbn [mfind]; now rewrite Z.eqb_refl).
  assert (FT : forall j c, mfind t j = Some c -> mfind ((k, b) :: t) j = Some c). { intros j c F. apply In_mfind; auto. right. now apply mfind_In. }
  eapply mden_ext; [apply (IH _ _ (ST m P k b H K Bb))|].
  - split; auto. intros j J. apply B. right. exact J.
  - intros j c F. apply (V j c). auto.
  - intros v Vv. cbn [mfind]. unfold entry_set. cbn [fst snd]. destruct (highBytes v =? k) eqn:E; cbn [andb].
    + apply Z.eqb_eq in E. rewrite E. replace (mfind t k) with (@None bitmap); [now rewrite O1|]. symmetry. apply mfind_None. intros J. specialize (A _ J). lia.
    + now rewrite O1.
Qed.
Lemma half_entry k b h v : key32 h -> val32 v -> half (entry_set (k, b)) h v = (h =? k) && mem b v.
Proof. intros K V. unfold half, entry_set. destruct (join_high h v K V) as (E1 & E2 & _). now rewrite E1, E2. Qed.
Lemma bok_den b : bok b -> denotes b (mem b). Proof. intros B. apply den_iff. auto. Qed.
Lemma or_step sh cap m P k b : mden m P -> key32 k -> bok b ->
  mden (match mfind m k with None => mput m k b | Some c => mput m k (roaring_bitmap_or_inplace sh cap c b) end) (fun v => P v || entry_set (k, b) v).
Proof.
  intros H K B. assert (OTHER : forall h, key32 h -> h <> k -> same_set (half P h) (half (fun v => P v || entry_set (k, b) v) h)).
  { intros h Kh N v V. unfold half at 2. fold (half P h v). fold (half (entry_set (k, b)) h v). rewrite half_entry by auto. replace (h =? k) with false by lia. cbn [andb]. now rewrite orb_false_r. }
  assert (AT : forall v, val32 v -> half (fun v => P v || entry_set (k, b) v) k v = half P k v || mem b v).
  { intros v V. unfold half at 1. fold (half P k v). fold (half (entry_set (k, b)) k v). rewrite half_entry by auto. now rewrite Z.eqb_refl. }
  destruct (mfind m k) as [c|] eqn:F; apply (mden_put m P); auto.
  - destruct (mden_found m P k c H F) as (_ & Dc). eapply den_ext; [apply (den_or_inplace sh cap _ _ _ _ Dc (bok_den b B))|]. intros v V. rewrite AT by auto. reflexivity.
  - eapply den_ext; [exact (bok_den b B)|]. intros v V. rewrite AT by auto. now rewrite (mden_absent m P k v H K F V).
Qed.
Lemma xor_step sh m P k b : mden m P -> key32 k -> bok b ->
  mden (match mfind m k with None => mput m k b | Some c => mkeep m k (roaring_bitmap_xor_inplace sh c b) end) (fun v => xorb (P v) (entry_set (k, b) v)).
Proof.
  intros H K B. assert (OTHER : forall h, key32 h -> h <> k -> same_set (half P h) (half (fun v => xorb (P v) (entry_set (k, b) v)) h)).
  { intros h Kh N v V. unfold half at 2. fold (half P h v). fold (half (entry_set (k, b)) h v). rewrite half_entry by auto. replace (h =? k) with false by lia. cbn [andb]. now rewrite xorb_false_r. }
  assert (AT : forall v, val32 v -> half (fun v => xorb (P v) (entry_set (k, b) v)) k v = xorb (half P k v) (mem b v)).
  { intros v V. unfold half at 1. fold (half P k v). fold (half (entry_set (k, b)) k v). rewrite half_entry by auto. now rewrite Z.eqb_refl. }
  destruct (mfind m k) as [c|] eqn:F; [apply (mden_keep m P)|apply (mden_put m P)]; auto.
  - destruct (mden_found m P k c H F) as (_ & Dc). eapply den_ext; [apply (den_xor_inplace sh _ _ _ _ Dc (bok_den b B))|]. intros v V. rewrite AT by auto. reflexivity.
  - eapply den_ext; [exact (bok_den b B)|]. intros v V. rewrite AT by auto. now rewrite (mden_absent m P k v H K F V), xorb_false_l.
Qed.
Lemma mden_bok m P k b : mden m P -> mfind m k = Some b -> bok b.
Proof. intros H F. destruct (mden_found m P k b H F) as (_ & D). eapply den_bok; eauto. Qed.
Lemma mden_or sh cap same m o P Q : mden m P -> mden o Q -> (same = true -> m = o) -> mden (map_or_inplace sh cap same m o) (zunion P Q).
Proof.
  intros H G E. unfold map_or_inplace. destruct same.
  { rewrite <- (E eq_refl) in G. apply (mden_ext m P); auto. intros v V. unfold zunion. rewrite <- (mden_contains m P v H V), <- (mden_contains m Q v G V). now rewrite orb_diag. }
  eapply mden_ext; [apply (fold_entries orb (fun m e => match mfind m (fst e) with None => mput m (fst e) (snd e) | Some b => mput m (fst e) (roaring_bitmap_or_inplace sh cap b (snd e)) end)) with (P := P); auto|].
  - apply orb_false_r.
  - intros m0 P0 k b H0 K B. cbn [fst snd]. now apply or_step.
  - apply G.
  - intros k b F. eapply mden_bok; eauto.
  - intros v V. cbv beta. unfold zunion. now rewrite <- (mden_set o Q v G V).
Qed.
Lemma mden_xor sh same m o P Q : mden m P -> mden o Q -> (same = true -> m = o) -> mden (map_xor_inplace sh same m o) (zsymm P Q).
Proof.
  intros H G E. unfold map_xor_inplace. destruct same.
  { rewrite <- (E eq_refl) in G. apply (mden_ext [] zempty); [exact mden_nil|]. intros v V. unfold zsymm, zempty. rewrite <- (mden_contains m P v H V), <- (mden_contains m Q v G V). now rewrite xorb_nilpotent. }
  eapply mden_ext; [apply (fold_entries xorb (fun m e => match mfind m (fst e) with None => mput m (fst e) (snd e) | Some b => mkeep m (fst e) (roaring_bitmap_xor_inplace sh b (snd e)) end)) with (P := P); auto|].
  - apply xorb_false_r.
  - intros m0 P0 k b H0 K B. cbn [fst snd]. now apply xor_step.
  - apply G.
  - intros k b F. eapply mden_bok; eauto.
  - intros v V. cbv beta. unfold zsymm. now rewrite <- (mden_set o Q v G V).
Qed.

(** ** fastunion *)
Lemma heads_min_spec xs : forall acc, (match fold_left (fun acc (x : rmap) => match x with [] => acc | (k, _) :: _ => match acc with None => Some k | Some a => Some (Z.min a k) end end) xs acc with
  | None => acc = None /\ Forall (fun x => x = []) xs
  | Some r => (acc = Some r \/ exists b t, In ((r, b) :: t) xs) /\ (forall a, acc = Some a -> r <= a) /\ (forall k b t, In ((k, b) :: t) xs -> r <= k)
  end).
Proof.
  induction xs as [|x xs IH]; intros acc; cbn [fold_left].
  { destruct acc as [r|]; [|auto]. split; auto. split; [intros a E; injection E as ->; lia|intros k b t []]. }
  destruct x as [|[k b] t].
  - specialize (IH acc). destruct (fold_left _ xs acc) as [r|].
    + destruct IH as (A & B & C). split; [|split; auto]. { destruct A as [A|(b & t & A)]; auto. right. exists b, t. now right. } intros k b t [I|I]; [discriminate|eauto].
    + destruct IH as (A & B). split; auto.
  - set (acc' := match acc with None => Some k | Some a => Some (Z.min a k) end). specialize (IH acc'). destruct (fold_left _ xs acc') as [r|].
    + destruct IH as (A & B & C). assert (RK : r <= k). { destruct acc as [a|]; unfold acc' in B; [specialize (B _ eq_refl); lia|specialize (B _ eq_refl); lia]. } split; [|split].
      * destruct A as [A|(b' & t' & A)]; [|right; exists b', t'; now right]. unfold acc' in A. destruct acc as [a|].
        -- injection A as A. destruct (Z.min_spec a k) as [(_ & M)|(_ & M)]; [left; congruence|right; exists b, t; left; congruence].
        -- injection A as A. right. exists b, t. left. congruence.
      * intros a E. subst acc. unfold acc' in B. specialize (B _ eq_refl). lia.
      * intros j c u [I|I]; [injection I as <- <- <-; auto|eauto].
    + destruct IH as (A & _). unfold acc' in A. destruct acc; discriminate.
Qed.
Lemma heads_min_cases xs : match heads_min xs with
  | None => Forall (fun x => x = []) xs
  | Some r => (exists b t, In ((r, b) :: t) xs) /\ (forall k b t, In ((k, b) :: t) xs -> r <= k)
  end.
Proof.
  pose proof (heads_min_spec xs None) as H. unfold heads_min. match goal with |- match ?t with _ => _ end => destruct t as [r|] eqn:E end; unfold rmap in *; rewrite E in H.
  - destruct H as ([X|X] & _ & M); [discriminate|]. split; auto.
  - apply H.
Qed.
Definition any (xs : list rmap) : zset := fun v => existsb (fun x => map_contains x v) xs.
Definition mokm (m : rmap) : Prop := mden m (map_contains m).
Lemma mokm_of m P : mden m P -> mokm m.
Proof. intros H. apply (mden_ext m P); auto. intros v V. symmetry. now apply mden_contains. Qed.
Lemma mokm_tail k b t : mokm ((k, b) :: t) -> mokm t /\ key32 k /\ bok b /\ (forall j, In j (mkeys t) -> k < j) /\ forall v, val64 v -> map_contains ((k, b) :: t) v = map_contains t v || entry_set (k, b) v.
Proof.
  intros H. pose proof (proj1 (proj1 H)) as S. pose proof (proj2 (proj1 H)) as B. pose proof S as S0. apply msorted_cons in S as (A & S).
  assert (FT : forall j c, mfind t j = Some c -> mfind ((k, b) :: t) j = Some c). { intros j c F. apply In_mfind; auto. right. now apply mfind_In. }
  assert (Fk : mfind ((k, b) :: t) k = Some b) by (cbn [mfind]; now rewrite Z.eqb_refl).
  assert (Bb : bok b) by (eapply mden_bok; eauto). split; [|split; [apply B; left; reflexivity|split; [exact Bb|split; [exact A|]]]].
  - apply mden_of; auto. { split; auto. intros j J. apply B. right. exact J. } intros j c F. eapply (mden_valid _ _ j c H). auto.
  - intros v V. destruct (split_high v V) as (K & L & _). unfold map_contains, entry_set. cbn [mfind fst snd]. destruct (highBytes v =? k) eqn:E; cbn [andb].
    + apply Z.eqb_eq in E. rewrite E. replace (mfind t k) with (@None bitmap). 2:{ symmetry. apply mfind_None. intros J. specialize (A _ J). lia. } cbn [orb]. rewrite (q_contains b (mem b)); auto using bok_den.
    + now rewrite orb_false_r.
Qed.
Lemma group_spec k xs : Forall mokm xs -> (forall j b t, In ((j, b) :: t) xs -> k <= j) ->
  Forall bok (heads_group k xs) /\ Forall mokm (heads_rest k xs) /\ (forall j b t, In ((j, b) :: t) (heads_rest k xs) -> k < j) /\
  (forall v, val64 v -> any xs v = any (heads_rest k xs) v || ((highBytes v =? k) && existsb (fun b => mem b (lowBytes v)) (heads_group k xs))) /\
  (length (concat xs) = length (concat (heads_rest k xs)) + length (heads_group k xs))%nat.
Proof.
  unfold heads_group, heads_rest, any. induction xs as [|x xs IH]; intros F M; cbn [flat_map map concat existsb].
  { split; [constructor|]. split; [constructor|]. split; [intros j b t []|]. split; [|reflexivity]. intros v V. cbn. now rewrite andb_false_r. }
  inversion F as [|x0 xs0 Fx Fxs]. subst. destruct IH as (I1 & I2 & I3 & I4 & I5); auto. { intros j b t I. apply (M j b t). now right. }
  destruct x as [|[h b] t].
  - cbn [app length]. split; auto. split; [constructor; auto|]. split; [intros j b t [I|I]; [discriminate|eauto]|]. split; auto.
  - destruct (mokm_tail h b t Fx) as (Ot & Kh & Bb & At & Ct). specialize (M h b t (or_introl eq_refl)). destruct (h =? k) eqn:E.
    + apply Z.eqb_eq in E. subst h. cbn [app]. split; [constructor; auto|]. split; [constructor; auto|]. split; [|split].
      * intros j c u [I|I]; [|eauto]. apply At. rewrite I. left. reflexivity.
      * intros v V. rewrite Ct, I4 by auto. unfold entry_set. cbn [fst snd existsb]. match goal with |- context [existsb ?f (map ?g xs)] => generalize (existsb f (map g xs)) end. match goal with |- context [existsb ?f (flat_map ?g xs)] => generalize (existsb f (flat_map g xs)) end. intros u w. destruct (map_contains t v), (highBytes v =? k), (mem b (lowBytes v)), u, w; reflexivity.
      * unfold rmap in *. rewrite ?app_length. cbn [length app]. rewrite ?app_length. lia.
    + cbn [app]. split; auto. split; [constructor; auto|]. split; [|split].
      * intros j c u [I|I]; [injection I as <- <- <-; lia|eauto].
      * intros v V. rewrite I4 by auto. now rewrite orb_assoc.
      * unfold rmap in *. rewrite ?app_length. cbn [length app]. rewrite ?app_length. lia.
Qed.
Lemma den_group cap bs : Forall bok bs -> denotes (roaring_bitmap_or_many cap bs) (fun v => existsb (fun b => mem b v) bs).
Proof.
  intros B. eapply den_ext; [apply (den_or_many cap bs (map mem bs))|].
  - unfold den_all. induction B; cbn [map]; constructor; auto using bok_den.
  - intros v V. induction bs as [|b bs IH]; [reflexivity|]. cbn [map existsb]. rewrite IH; auto. now inversion B.
Qed.
Lemma mput_last m k b : (forall j, In j (mkeys m) -> j < k) -> m ++ [(k, b)] = mput m k b.
Proof.
  induction m as [|[h c] t IH]; intros A; cbn [mput app]; [reflexivity|]. assert (h < k) by (apply A; left; reflexivity). replace (k <? h) with false by lia. replace (k =? h) with false by lia. rewrite IH; auto. intros j J. apply A. right. exact J.
Qed.
Lemma fastunion_loop_spec cap n : forall xs m P, mden m P -> Forall mokm xs -> (forall j b t i, In ((j, b) :: t) xs -> In i (mkeys m) -> i < j) -> (length (concat xs) <= n)%nat ->
  mden (fastunion_loop n cap xs m) (zunion P (any xs)).
Proof.
  induction n as [|n IH]; intros xs m P H F A L; cbn [fastunion_loop].
  { apply (mden_ext m P); auto. intros v V. unfold zunion, any. assert (C : concat xs = []) by (destruct (concat xs); [auto|cbn in L; lia]). replace (existsb (fun x => map_contains x v) xs) with false; [now rewrite orb_false_r|]. symmetry. clear -C. induction xs as [|x xs IH]; [reflexivity|]. cbn [concat] in C. apply app_eq_nil in C as (-> & C). cbn [existsb]. rewrite IH by auto. reflexivity. }
  pose proof (heads_min_cases xs) as HM. destruct (heads_min xs) as [k|].
  - destruct HM as ((b0 & t0 & X) & MIN).
    destruct (group_spec k xs F MIN) as (G1 & G2 & G3 & G4 & G5).
    assert (K : key32 k). { rewrite Forall_forall in F. apply (mokm_tail k b0 t0). auto. }
    assert (G0 : (0 < length (heads_group k xs))%nat). { clear -X. unfold heads_group. induction xs as [|x xs IH]; [destruct X|]. cbn [flat_map]. rewrite app_length. destruct X as [->|X]; [rewrite Z.eqb_refl; cbn [length]; lia|]. specialize (IH X). lia. }
    assert (AK : forall j, In j (mkeys m) -> j < k) by (intros j J; eapply A; eauto). match goal with |- mden (fastunion_loop _ _ _ ?t) _ => replace t with (mput m k (roaring_bitmap_or_many cap (heads_group k xs))) by (symmetry; apply mput_last; auto) end.
    set (Q := fun v => P v || ((highBytes v =? k) && existsb (fun b => mem b (lowBytes v)) (heads_group k xs))).
    assert (H1 : mden (mput m k (roaring_bitmap_or_many cap (heads_group k xs))) Q).
    { apply (mden_put m P); auto.
      - eapply den_ext; [apply (den_group cap _ G1)|]. intros v V. unfold half, Q. destruct (join_high k v K V) as (E1 & E2 & V64). rewrite E1, E2, Z.eqb_refl. fold (half P k v). rewrite (mden_absent m P k v H K); auto. apply mfind_None. intros J. specialize (AK _ J). lia.
      - intros h Kh N v V. unfold half, Q. destruct (join_high h v Kh V) as (E1 & _ & _). rewrite E1. replace (h =? k) with false by lia. now rewrite orb_false_r. }
    eapply mden_ext; [apply (IH (heads_rest k xs) _ Q H1 G2)|].
    + intros j b t i I J. apply mput_keys in J as [->|J]; [eauto|]. pose proof (G3 _ _ _ I). pose proof (AK _ J). lia.
    + lia.
    + intros v V. unfold zunion, Q. rewrite (G4 v V). rewrite <- orb_assoc. f_equal. apply orb_comm.
  - pose proof HM as N. apply (mden_ext m P); auto. intros v V. unfold zunion, any. replace (existsb (fun x => map_contains x v) xs) with false; [now rewrite orb_false_r|]. symmetry. clear -N. induction N as [|x xs E N IH]; [reflexivity|]. cbn [existsb]. rewrite IH, E. reflexivity.
Qed.
Lemma mden_fastunion cap xs Ps : Forall2 mden xs Ps -> mden (map_fastunion cap xs) (fun v => existsb (fun P : zset => P v) Ps).
Proof.
  intros F. eapply mden_ext; [apply (fastunion_loop_spec cap (length (concat xs)) xs [] zempty mden_nil)|].
  - clear -F. induction F; constructor; auto. eapply mokm_of; eauto.
  - intros j b t i _ [].
  - lia.
  - intros v V. unfold zunion, zempty, any. cbn [orb]. clear -F V. induction F as [|x P xs Ps D F IH]; [reflexivity|]. cbn [existsb]. rewrite IH, (mden_contains x P v D V). reflexivity.
Qed.
