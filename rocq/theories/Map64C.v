(** Map64C: counting, selecting and listing on the map of bitmaps. *)
From Coq Require Import ZArith List Bool Lia Sorting.Sorted.
From Verif Require Import Base ArrayUtil BitUtil BitsetC ArrayC RunC RunD Convert Containers RArray RBinary RPoint RRange RQuery Iter Bytes Serial Spec Spec64 FormatSpec64 Obs Derived Map64 Map64P Map64A Map64Q.
From Verif Require IterP DerivedI Hist64.
Import ListNotations.
Local Open Scope Z_scope.
Local Opaque zr.

(** ** Counting by blocks *)
Definition card (b : bitmap) : Z := roaring_bitmap_get_cardinality b.
Definition csum (m : rmap) (h : Z) : Z := fold_right (fun e s => (if fst e <? h then card (snd e) else 0) + s) 0 m.
Lemma card_cnt b P : denotes b P -> card b = cnt P 0 (2^32).
Proof. intros D. apply has_card_iff. now apply q_card. Qed.
Lemma card_range b : bok b -> 0 <= card b <= 2^32.
Proof. intros B. rewrite (card_cnt b _ (bok_den b B)). pose proof (cnt_bound (mem b) 0 (2^32) ltac:(lia)). lia. Qed.
Lemma cnt_at P k x : cnt P (k * 2^32) (k * 2^32 + x) = cnt (half P k) 0 x.
Proof. unfold half. rewrite (cnt_ext (fun v => P (k * 2^32 + v)) (fun v => P (v + k * 2^32))) by (intros; f_equal; lia). rewrite (cnt_shift P 0 x (k * 2^32)). f_equal; lia. Qed.
Lemma entry_cnt k b x : key32 k -> bok b -> 0 <= x <= 2^32 -> cnt (entry_set (k, b)) (k * 2^32) (k * 2^32 + x) = cnt (mem b) 0 x.
Proof. intros K B X. rewrite cnt_at. apply cnt_ext. intros v V. unfold half, entry_set. cbn [fst snd]. destruct (join_high k v K ltac:(unfold val32; lia)) as (-> & -> & _). now rewrite Z.eqb_refl. Qed.
Lemma entry_out k b x : x < k * 2^32 \/ (k + 1) * 2^32 <= x -> entry_set (k, b) x = false.
Proof.
  intros X. unfold entry_set, highBytes. cbn [fst snd]. replace (x / 2^32 =? k) with false; [reflexivity|]. symmetry. apply Z.eqb_neq. intros E. pose proof (Z.div_mod x (2^32) ltac:(lia)). pose proof (Z.mod_pos_bound x (2^32) ltac:(lia)). lia.
Qed.
Lemma entry_cnt_all k b h : key32 k -> bok b -> 0 <= h <= 2^32 -> cnt (entry_set (k, b)) 0 (h * 2^32) = if k <? h then card b else 0.
Proof.
  intros K B H. unfold key32 in K. destruct (k <? h) eqn:E.
  - rewrite (cnt_app _ 0 (k * 2^32)), (cnt_app _ (k * 2^32) (k * 2^32 + 2^32)) by lia. rewrite entry_cnt by (auto; lia). rewrite (cnt_none _ 0), (cnt_none _ (k * 2^32 + 2^32)) by (intros; apply entry_out; lia). rewrite (card_cnt b _ (bok_den b B)). lia.
  - apply cnt_none. intros x X. apply entry_out. lia.
Qed.
Lemma head_split k b t x : mokm ((k, b) :: t) -> 0 <= x <= 2^64 -> cnt (map_contains ((k, b) :: t)) 0 x = cnt (map_contains t) 0 x + cnt (entry_set (k, b)) 0 x.
Proof.
  intros H X. destruct (mokm_tail k b t H) as (Ot & K & B & A & C). rewrite (cnt_ext _ (fun v => map_contains t v || entry_set (k, b) v)) by (intros; apply C; unfold val64; lia).
  pose proof (cnt_incl_excl (map_contains t) (entry_set (k, b)) 0 x) as E. rewrite (cnt_none (fun v => map_contains t v && entry_set (k, b) v)) in E; [lia|].
  intros v V. destruct (entry_set (k, b) v) eqn:Ev; [|apply andb_false_r]. unfold entry_set in Ev. apply andb_true_iff in Ev as (Ev & _). apply Z.eqb_eq in Ev. cbn [fst] in Ev. unfold map_contains. rewrite Ev.
  replace (mfind t k) with (@None bitmap); [reflexivity|]. symmetry. apply mfind_None. intros J. specialize (A _ J). lia.
Qed.
Lemma cnt_before m h : mokm m -> 0 <= h <= 2^32 -> cnt (map_contains m) 0 (h * 2^32) = csum m h.
Proof.
  intros H Hh. induction m as [|[k b] t IH]; [cbn [csum fold_right]; apply cnt_none; reflexivity|]. rewrite (head_split k b t) by (auto; lia). destruct (mokm_tail k b t H) as (Ot & K & B & A & C). rewrite IH by auto. rewrite entry_cnt_all by auto.
  unfold csum. cbn [fold_right fst snd]. lia.
Qed.
Lemma mokm_keys m : mokm m -> inb 0 (2^32) (mkeys m).
Proof.
  intros H. apply Forall_forall. intros k I. apply in_map_iff in I as ([j b] & E & I). cbn in E. subst j. apply In_mfind in I; [|apply H]. destruct (mden_found m _ k b H I) as (K & _). exact K.
Qed.
Lemma zlen_rmap (m : rmap) : zlen m = zlen (mkeys m).
Proof. unfold mkeys. now rewrite zlen_map. Qed.
Lemma mokm_len m : mokm m -> zlen m <= 2^32.
Proof. intros H. rewrite zlen_rmap. pose proof (incr_inb_len 0 (2^32) (mkeys m) (proj1 (proj1 H)) (mokm_keys m H) ltac:(lia)). lia. Qed.
Lemma csum_bound m h : mokm m -> 0 <= csum m h <= 2^32 * zlen m.
Proof.
  intros H. induction m as [|[k b] t IH]; [unfold csum, zlen; cbn [fold_right length]; lia|]. destruct (mokm_tail k b t H) as (Ot & K & B & A & C). specialize (IH Ot). rewrite zlen_cons. unfold csum in *. cbn [fold_right fst snd]. pose proof (card_range b B). destruct (k <? h); lia.
Qed.
Lemma csum_full m : mokm m -> (csum m (2^32) = 2^32 * zlen m <-> forallb (fun e => roaring_bitmap_get_cardinality (snd e) =? 2^32) m = true).
Proof.
  intros H. induction m as [|[k b] t IH]; [unfold csum, zlen; cbn [fold_right forallb length]; split; auto; lia|]. destruct (mokm_tail k b t H) as (Ot & K & B & A & C). specialize (IH Ot). rewrite zlen_cons. pose proof (csum_bound t (2^32) Ot) as CB. unfold csum in *. cbn [fold_right fst snd forallb]. unfold key32 in K. replace (k <? 2^32) with true by lia. pose proof (card_range b B). rewrite andb_true_iff, <- IH. unfold card in *. split; [intros; split; lia|intros (X & Y); apply Z.eqb_eq in X; lia].
Qed.
Lemma total_full m : mokm m -> (csum m (2^32) = 2^64 <-> map_isFull m = true).
Proof.
  intros H. unfold map_isFull. pose proof (mokm_len m H) as L. pose proof (csum_bound m (2^32) H). destruct (zlen m =? 2^32) eqn:E.
  - apply Z.eqb_eq in E. rewrite <- csum_full by auto. rewrite E. split; intros; lia.
  - apply Z.eqb_neq in E. split; [intros; lia|discriminate].
Qed.
Lemma fold_total m acc : mokm m -> 0 <= acc < 2^64 -> fold_left (fun previous e => (previous + roaring_bitmap_get_cardinality (snd e)) mod 2^64) m acc = (acc + csum m (2^32)) mod 2^64.
Proof.
  intros H. revert acc. induction m as [|[k b] t IH]; intros acc R; cbn [fold_left fst snd]; [unfold csum; cbn [fold_right]; rewrite Z.mod_small; lia|]. destruct (mokm_tail k b t H) as (Ot & K & B & A & C).
  rewrite IH by (auto; apply Z.mod_pos_bound; lia). unfold csum. cbn [fold_right fst snd]. unfold key32 in K. replace (k <? 2^32) with true by lia. rewrite Zplus_mod_idemp_l. f_equal. unfold card. lia.
Qed.
Lemma mden_total m P : mden m P -> cnt P 0 (2^64) = csum m (2^32).
Proof. intros H. rewrite <- (cnt_before m (2^32) (mokm_of m P H)) by lia. change (2^32 * 2^32) with (2^64). apply cnt_ext. intros x X. symmetry. apply (mden_contains m P x H). unfold val64. lia. Qed.
Lemma cnt_missing P lo hi : lo <= hi -> cnt P lo hi < hi - lo -> exists v, lo <= v < hi /\ P v = false.
Proof.
  intros L C. assert (NC : cnt (fun x => negb (P x)) lo hi <> 0) by (rewrite cnt_compl by lia; lia). unfold cnt in NC. destruct (filter (fun x => negb (P x)) (zr lo hi)) as [|v l] eqn:Ef; [exfalso; apply NC; reflexivity|].
  assert (I : In v (filter (fun x => negb (P x)) (zr lo hi))) by (rewrite Ef; now left). apply filter_In in I as (I & Pv). exists v. split; [now apply zr_In in I|destruct (P v); auto; discriminate].
Qed.
Lemma isFull_spec m P : mden m P -> (map_isFull m = true <-> ~ proper P).
Proof.
  intros H. rewrite <- (total_full m (mokm_of m P H)), <- (mden_total m P H). split.
  - intros E G. apply Hist64.proper_cnt in G. lia.
  - intros N. destruct (Hist64.not_proper_full P) as [L|F].
    + exfalso. apply N.
      pose proof (cnt_missing P 0 (2^64) ltac:(lia) ltac:(lia)) as X.
      destruct X as (v & V & Pv). exists v. auto.
    + rewrite (cnt_full P 0 (2^64)); [lia|lia|]. intros x X. apply F. exact X.
Qed.
Lemma cardinality_spec m P : mden m P -> match map_cardinality m with Some n => has_card64 P n | None => ~ proper P end.
Proof.
  intros H. unfold map_cardinality. destruct (map_isFull m) eqn:E; [now apply (isFull_spec m P H)|].
  rewrite fold_total by (eauto using mokm_of; lia). rewrite Z.add_0_l. apply Hist64.has_card64_cnt. rewrite (mden_total m P H). apply Z.mod_small.
  pose proof (mokm_of m P H) as O. pose proof (csum_bound m (2^32) O). pose proof (mokm_len m O). pose proof (total_full m O) as T. rewrite E in T.
  assert (csum m (2^32) <> 2^64) by (intros X; apply T in X; discriminate). nia.
Qed.
Lemma isStrictSubset_spec m o P Q : mden m P -> mden o Q -> proper Q -> exists b, map_isStrictSubset m o = Some b /\ (b = true <-> zsubset64 P Q /\ ~ same_set64 P Q).
Proof.
  intros H G PQ. unfold map_isStrictSubset. pose proof (is_subset_spec m o P Q H G) as S. destruct (map_isSubset m o).
  - assert (S2 : zsubset64 P Q) by now apply S. assert (PP : proper P). { destruct PQ as (v & V & F). exists v. split; auto. destruct (P v) eqn:E; auto. apply S2 in E; auto. congruence. }
    pose proof (cardinality_spec m P H) as C1. pose proof (cardinality_spec o Q G) as C2. destruct (map_cardinality m) as [a|]; [|contradiction]. destruct (map_cardinality o) as [b|]; [|contradiction].
    exists (negb (a =? b)). split; [reflexivity|]. apply Hist64.has_card64_cnt in C1, C2. rewrite negb_true_iff, Z.eqb_neq. split.
    + intros N. split; auto. intros E. apply N. rewrite C1, C2. apply cnt_ext. intros x X. apply E. exact X.
    + intros (_ & N) E. apply N. intros v V. destruct (P v) eqn:Pv; [symmetry; now apply S2|]. destruct (Q v) eqn:Qv; auto. exfalso.
      assert (LT : cnt P 0 (2^64) < cnt Q 0 (2^64)); [|lia]. unfold val64 in V. rewrite (cnt_app P 0 v (2^64)), (cnt_app Q 0 v (2^64)), (cnt_cons P v), (cnt_cons Q v), Pv, Qv by lia.
      pose proof (cnt_mono P Q 0 v (fun x X => S2 x ltac:(unfold val64; lia))). pose proof (cnt_mono P Q (v + 1) (2^64) (fun x X => S2 x ltac:(unfold val64; lia))). lia.
  - exists false. split; auto. split; [discriminate|]. intros (X & _). now apply S in X.
Qed.

(** ** rank, getIndex *)
Lemma csum_zero t h : (forall j, In j (mkeys t) -> h <= j) -> csum t h = 0.
Proof.
  induction t as [|[k b] t IH]; intros A; [reflexivity|]. unfold csum in *. cbn [fold_right fst snd]. rewrite IH by (intros j J; apply A; now right). specialize (A k (or_introl eq_refl)). replace (k <? h) with false by lia. lia.
Qed.
Lemma sum_before_spec m h acc : mokm m -> 0 <= acc < 2^64 -> sum_before m (mlower m h) acc = (acc + csum m h) mod 2^64.
Proof.
  intros H. revert acc. induction m as [|[k b] t IH]; intros acc R; [cbn [sum_before csum fold_right]; rewrite Z.mod_small; lia|]. destruct (mokm_tail k b t H) as (Ot & K & B & A & C). cbn [sum_before mlower]. destruct (h <=? k) eqn:E.
  - unfold same_iter. rewrite Z.eqb_refl. rewrite csum_zero; [rewrite Z.mod_small; lia|]. intros j [J|J]; [cbn in J; lia|]. specialize (A j J). lia.
  - assert (NS : same_iter (Some k) (mlower t h) = false).
    { unfold same_iter. destruct (mlower t h) as [j|] eqn:L; auto. apply Z.eqb_neq. apply mlower_Some in L as (X & _); [|apply Ot]. intros ->. apply mhas_In in X. specialize (A _ X). lia. }
    rewrite NS. rewrite IH by (auto; apply Z.mod_pos_bound; lia). rewrite Zplus_mod_idemp_l. f_equal. unfold csum. cbn [fold_right fst snd]. replace (k <? h) with true by lia. unfold card. lia.
Qed.
Lemma cnt_upto P x : val64 x -> cnt P 0 x = cnt P 0 (highBytes x * 2^32) + cnt (half P (highBytes x)) 0 (lowBytes x).
Proof. intros V. destruct (split_high x V) as (K & L & E). unfold key32, val32 in *. rewrite <- cnt_at. rewrite (cnt_app P 0 (highBytes x * 2^32) x) by lia. do 2 f_equal. lia. Qed.
Lemma mden_below m P h : mden m P -> 0 <= h <= 2^32 -> cnt P 0 (h * 2^32) = csum m h.
Proof. intros H Hh. rewrite <- (cnt_before m h (mokm_of m P H) Hh). apply cnt_ext. intros x X. symmetry. apply (mden_contains m P x H). unfold val64. lia. Qed.
Lemma rank_spec m P x : mden m P -> val64 x -> card_word (zinter P (zival 0 (x + 1))) (map_rank m x).
Proof.
  intros H V. destruct (split_high x V) as (K & L & E). unfold map_rank. pose proof (mokm_of m P H) as O.
  set (res := match mlower m (highBytes x) with Some k => _ | None => _ end). assert (R : res = cnt (half P (highBytes x)) 0 (lowBytes x + 1)).
  { unfold res. destruct (mlower m (highBytes x)) as [j|] eqn:M.
    - destruct (mlower_Some m _ j (mden_sorted m P H) M) as (F & G & N). destruct (j =? highBytes x) eqn:EJ.
      + apply Z.eqb_eq in EJ. subst j. pose proof (q_rank _ _ _ (mden_inner m P _ H K) L) as Q. apply has_card_iff in Q. rewrite Q. unfold val32 in L. rewrite <- Obs.cnt_window by lia. apply Z.mod_small. pose proof (cnt_bound (half P (highBytes x)) 0 (lowBytes x + 1) ltac:(lia)). lia.
      + apply Z.eqb_neq in EJ. symmetry. apply cnt_none. intros v Hv. unfold val32 in L. eapply mden_absent; eauto; [|unfold val32; lia]. apply mfind_None. intros X. apply mhas_In in X. rewrite N in X by lia. discriminate.
    - symmetry. apply cnt_none. intros v Hv. unfold val32 in L. eapply mden_absent; eauto; [|unfold val32; lia]. apply mfind_None. intros X. apply mhas_In in X. rewrite (mlower_None m _ _ M) in X by lia. discriminate. }
  rewrite R. unfold val32, key32 in *. pose proof (cnt_bound (half P (highBytes x)) 0 (lowBytes x + 1) ltac:(lia)). rewrite sum_before_spec by (auto; lia). unfold val64 in V. apply Hist64.card_word_window; try lia. f_equal.
  rewrite <- (mden_below m P) by (auto; lia). rewrite <- cnt_at. rewrite (cnt_app P 0 (highBytes x * 2^32) (x + 1)) by lia. rewrite Z.add_comm. do 2 f_equal. lia.
Qed.
Lemma s64_small x : 0 <= x < 2^63 -> to_s64 x = x.
Proof. intros X. unfold to_s64. rewrite Z.mod_small; lia. Qed.
Lemma getIndex_spec m P x : mden m P -> val64 x -> cnt P 0 x < 2^63 ->
  exists i, map_getIndex m x = Some i /\ if P x then has_card64 (zinter P (zival 0 x)) i else i = -1.
Proof.
  intros H V B. destruct (split_high x V) as (K & L & E). unfold map_getIndex. pose proof (mokm_of m P H) as O. destruct (mfind m (highBytes x)) as [b|] eqn:F.
  2:{ exists (-1). split; auto. rewrite <- (half_at P x V). rewrite (mden_absent m P _ _ H K F L). reflexivity. }
  destruct (mden_found m P _ b H F) as (_ & D). pose proof (q_get_index b _ (lowBytes x) D L) as Q. rewrite <- (half_at P x V).
  assert (S : sum_before m (Some (highBytes x)) 0 = cnt P 0 (highBytes x * 2^32)).
  { unfold key32 in K. rewrite <- (mlower_self m (highBytes x)) by (try apply (mden_sorted m P H); unfold mhas; now rewrite F). rewrite sum_before_spec by (auto; lia). rewrite (mden_below m P) by (auto; lia). apply Z.mod_small.
    rewrite <- (mden_below m P) by (auto; lia). pose proof (cnt_bound P 0 (highBytes x * 2^32) ltac:(lia)). lia. }
  rewrite (cnt_upto P x V) in B. unfold val32, key32 in *. pose proof (cnt_bound P 0 (highBytes x * 2^32) ltac:(lia)) as B1. pose proof (cnt_bound (half P (highBytes x)) 0 (lowBytes x) ltac:(lia)) as B2.
  rewrite S, s64_small by lia. destruct (half P (highBytes x) (lowBytes x)) eqn:Px.
  - apply has_card_iff in Q. rewrite <- Obs.cnt_window in Q by lia. rewrite Q. replace (_ <? 0) with false by lia. set (s := cnt P 0 (highBytes x * 2^32) + cnt (half P (highBytes x)) 0 (lowBytes x)) in *. replace ((s <? - 2^63) || (2^63 - 1 <? s)) with false by lia.
    exists s. split; auto. apply Hist64.has_card64_cnt. unfold val64 in V. rewrite Hist64.cnt_window by lia. unfold s. symmetry. now apply cnt_upto.
  - rewrite Q. exists (-1). auto.
Qed.

(** ** select *)
Lemma select_spec m k : mokm m -> (forall j b, In (j, b) m -> exists v, val32 v /\ mem b v = false) -> 0 <= k < 2^64 ->
  match map_select m k with
  | Ok (Some v) => val64 v /\ map_contains m v = true /\ cnt (map_contains m) 0 v = k
  | Ok None => cnt (map_contains m) 0 (2^64) <= k
  | _ => False
  end.
Proof.
  revert k. induction m as [|[j b] t IH]; intros k H N Hk.
  { cbn [map_select]. rewrite cnt_none by reflexivity. lia. }
  cbn [map_select]. destruct (mokm_tail j b t H) as (Ot & K & B & A & C). pose proof (card_range b B) as CR. fold (card b). unfold key32 in K. assert (E0 : cnt (entry_set (j, b)) 0 (2^64) = card b) by (change (2^64) with (2^32 * 2^32); rewrite entry_cnt_all by (auto; lia); replace (j <? 2^32) with true by lia; auto).
  assert (TN : forall x, 0 <= x < (j + 1) * 2^32 -> map_contains t x = false).
  { intros x X. unfold map_contains. replace (mfind t (highBytes x)) with (@None bitmap); [reflexivity|]. symmetry. apply mfind_None. intros J. apply A in J. revert J. unfold highBytes. intros J. assert (x / 2^32 < j + 1) by (apply Z.div_lt_upper_bound; lia). lia. }
  destruct (k <? card b) eqn:E.
  - rewrite Z.mod_small by lia. pose proof (q_select b (mem b) k (bok_den b B) ltac:(unfold val32; lia) (den_select_ok b _ (bok_den b B) (N j b (or_introl eq_refl)))) as Q. destruct (roaring_bitmap_select b k) as [low|].
    + destruct Q as (V & M & Q). apply has_card_iff in Q. unfold val32 in V. rewrite <- Obs.cnt_window in Q by lia. rewrite unite_eq by (auto; lia). destruct (join_high j low K V) as (EH & EL & V64). split; auto.
      split. { rewrite C by auto. unfold entry_set. cbn [fst snd]. now rewrite EH, EL, Z.eqb_refl, M, orb_true_r. }
      unfold val64 in V64. rewrite head_split by (auto; lia). rewrite (cnt_none (map_contains t)) by (intros x X; apply TN; lia). rewrite (cnt_app _ 0 (j * 2^32)) by lia. rewrite (cnt_none _ 0 (j * 2^32)) by (intros; apply entry_out; lia). rewrite entry_cnt by (auto; lia). lia.
    + specialize (Q (card b) ltac:(apply has_card_iff, card_cnt; now apply bok_den)). lia.
  - rewrite (Z.mod_small (k - card b)) by lia. specialize (IH (k - card b) Ot (fun j' b' I => N j' b' (or_intror I)) ltac:(lia)). destruct (map_select t (k - card b)) as [| |[v|]]; try contradiction.
    + destruct IH as (V & M & Q). split; auto. split; [rewrite C, M by auto; reflexivity|]. unfold val64 in V. rewrite head_split by (auto; lia). rewrite Q. assert ((j + 1) * 2^32 <= v). { destruct (Z_le_dec ((j + 1) * 2^32) v); auto. rewrite TN in M by lia. exact (False_ind _ (Bool.diff_false_true M)). }
      assert (cnt (entry_set (j, b)) 0 v = card b). { rewrite <- E0. rewrite (cnt_app _ 0 v (2^64)) by lia. rewrite (cnt_none _ v) by (intros; apply entry_out; lia). lia. } lia.
    + rewrite head_split by (auto; lia). lia.
Qed.
Lemma mden_select m P k : mden m P -> (forall h, key32 h -> exists v, val32 v /\ P (h * 2^32 + v) = false) -> 0 <= k < 2^64 ->
  match map_select m k with
  | Ok (Some v) => val64 v /\ P v = true /\ has_card64 (zinter P (zival 0 v)) k
  | Ok None => forall n, has_card64 P n -> n <= k
  | _ => False
  end.
Proof.
  intros H N Hk. pose proof (mokm_of m P H) as O. assert (N2 : forall j b, In (j, b) m -> exists v, val32 v /\ mem b v = false).
  { intros j b I. apply In_mfind in I; [|apply H]. destruct (mden_found m P j b H I) as (K & D). destruct (N j K) as (v & V & F). exists v. split; auto. rewrite (den_mem b _ v D V). exact F. }
  pose proof (select_spec m k O N2 Hk) as S. assert (E : forall x, 0 <= x < 2^64 -> map_contains m x = P x) by (intros; now apply (mden_contains m P)). destruct (map_select m k) as [| |[v|]]; auto.
  - destruct S as (V & M & Q). split; auto. split; [rewrite <- E; auto|]. apply Hist64.has_card64_cnt. unfold val64 in V. rewrite Hist64.cnt_window by lia. rewrite <- Q. apply cnt_ext. intros x X. apply E. lia.
  - intros n Cn. apply Hist64.has_card64_cnt in Cn. rewrite (cnt_ext _ P) in S by auto. lia.
Qed.

(** ** Listing *)
Definition elems64 (m : rmap) : list Z := flat_map (fun e => map (fun v => fst e * 2^32 + v) (elems (snd e))) m.
Lemma elems_bok b : bok b -> incr (elems b) /\ forall v, In v (elems b) -> 0 <= v < 2^32.
Proof. intros B. destruct (elems_lists b _ (bok_den b B)) as (S & A). split; [now apply incr_SS|]. intros v I. apply A in I as (V & _). exact V. Qed.
Lemma elems64_wf m : mokm m -> incr (elems64 m) /\ forall v, In v (elems64 m) <-> val64 v /\ map_contains m v = true.
Proof.
  induction m as [|[k b] t IH]; intros H. { split; [exact I|]. intros v. cbn. split; [tauto|]. intros (_ & X). discriminate. }
  destruct (mokm_tail k b t H) as (Ot & K & B & A & C). destruct (IH Ot) as (S & M). destruct (elems_bok b B) as (S1 & B1). unfold elems64 in *. cbn [flat_map fst snd].
  assert (BK : forall v, In v (map (fun x => k * 2^32 + x) (elems b)) -> k * 2^32 <= v < (k + 1) * 2^32). { intros v I. apply in_map_iff in I as (x & <- & I). apply B1 in I. lia. }
  split.
  - apply incr_app. split; [|split; auto].
    + clear -S1. induction (elems b) as [|a l IHl]; cbn [map]; [exact I|]. apply incr_cons in S1 as (X & Y). apply incr_cons. split; auto. apply Forall_forall. intros y I. apply in_map_iff in I as (x & <- & I). rewrite Forall_forall in X; specialize (X x I). lia.
    + intros x y Ix Iy. apply BK in Ix. apply M in Iy as (V & X). unfold map_contains in X. destruct (mfind t (highBytes y)) as [c|] eqn:F; [|discriminate]. apply mfind_In in F. specialize (A (highBytes y) (in_map fst _ _ F)). destruct (split_high y V) as (Ky & Ly & Ey). unfold val32 in Ly. lia.
  - intros v. rewrite in_app_iff, M. split.
    + intros [I|(V & X)]; [|split; auto; rewrite C by auto; now rewrite X]. apply in_map_iff in I as (x & <- & I). assert (Vx : val32 x) by (apply B1 in I; exact I). destruct (join_high k x K Vx) as (EH & EL & V). split; auto. rewrite C by auto. unfold entry_set. cbn [fst snd]. rewrite EH, EL, Z.eqb_refl.
      assert (X : mem b x = true) by (apply (elems_lists b _ (bok_den b B)) in I; apply I). rewrite X. now rewrite orb_true_r.
    + intros (V & X). rewrite C in X by auto. apply orb_true_iff in X as [X|X]; [right; auto|]. left. unfold entry_set in X. cbn [fst snd] in X. apply andb_true_iff in X as (X & Y). apply Z.eqb_eq in X. destruct (split_high v V) as (Kv & Lv & Ev). apply in_map_iff. exists (lowBytes v). split; [lia|]. apply (elems_lists b _ (bok_den b B)). auto.
Qed.
Lemma elems64_lists m P : mden m P -> lists64 P (elems64 m).
Proof.
  intros H. destruct (elems64_wf m (mokm_of m P H)) as (S & M). split; [now apply incr_SS|]. intros v. rewrite M. split; intros (V & X); split; auto; [now rewrite <- (mden_contains m P v H V)|now rewrite (mden_contains m P v H V)].
Qed.
Lemma range_for_loop_spec b : bok b -> forall n it p, IterP.ipos b it p -> 0 <= p -> (Z.to_nat (zlen (elems b) - p) < n)%nat -> range_for_loop n b it = Some (skipn (Z.to_nat p) (elems b)).
Proof.
  intros B. induction n as [|n IH]; intros it p I P0 L; [lia|]. cbn [range_for_loop]. destruct (IterP.ipos_obs b it p B I) as (R & Hh & Hc).
  destruct (it_has it) eqn:E.
  - replace (negb (it_cur it =? uint32_max) || negb (Bool.eqb true false)) with true by (cbn; now rewrite orb_true_r). destruct (IterP.advance_pos b it p B I) as (it' & -> & I'). symmetry in Hh. apply andb_true_iff in Hh as (_ & Hh). rewrite Z.min_r in I' by lia. rewrite (IH it' (p + 1)) by (auto; lia). cbn [option_map]. rewrite Hc. f_equal. unfold znth, zlen in *. replace (Z.to_nat (p + 1)) with (S (Z.to_nat p)) by lia.
    assert (LP : (Z.to_nat p < length (elems b))%nat) by lia. clear -LP. revert LP. generalize (Z.to_nat p), (elems b). intros q l. revert q. induction l as [|a l IHl]; intros [|q] LP; cbn in LP |- *; try lia; auto. apply IHl. lia.
  - rewrite Hc. unfold uint32_max. cbn [Bool.eqb negb]. replace (2^32 - 1 =? _) with true by (symmetry; apply Z.eqb_eq; reflexivity). cbn [negb orb]. rewrite skipn_all2; auto. unfold zlen in *. symmetry in Hh. apply andb_false_iff in Hh. lia.
Qed.
Lemma range_for_spec b : bok b -> range_for b = Some (elems b).
Proof.
  intros B. unfold range_for. destruct (IterP.init_pos b B) as (it & E & I). rewrite E. rewrite (range_for_loop_spec b B _ it 0 I) by (try lia; rewrite roaring_bitmap_get_cardinality_spec by auto; rewrite elems_zlen by auto; lia). reflexivity.
Qed.
Lemma toUint64Array_spec m : mokm m -> map_toUint64Array m = Some (elems64 m).
Proof.
  induction m as [|[k b] t IH]; intros H; [reflexivity|]. destruct (mokm_tail k b t H) as (Ot & K & B & A & C). cbn [map_toUint64Array]. rewrite range_for_spec by auto. rewrite IH by auto. unfold elems64. cbn [flat_map fst snd]. do 2 f_equal. apply map_ext_in. intros v I. unfold key32 in K. apply unite_eq; [lia|]. exact (proj2 (elems_bok b B) v I).
Qed.
Lemma call_until_app {S} (f : S -> Z -> S * bool) l l' s : call_until f (l ++ l') s = let '(s', go) := call_until f l s in if go then call_until f l' s' else (s', false).
Proof. revert s. induction l as [|a l IH]; intros s; cbn [app call_until]; [reflexivity|]. destruct (f s a) as [s' [|]]; auto. Qed.
Lemma iterate_spec {S} (f : S -> Z -> S * bool) m s : mokm m -> map_iterate f m s = call_until f (elems64 m) s.
Proof.
  revert s. induction m as [|[k b] t IH]; intros s H; [reflexivity|]. destruct (mokm_tail k b t H) as (Ot & K & B & A & C). cbn [map_iterate]. rewrite (iterate64_members f b _ (elems b) _ s (bok_den b B) (elems_lists b _ (bok_den b B))).
  unfold elems64. cbn [flat_map fst snd]. fold (elems64 t). rewrite call_until_app. replace (map (Z.lor (Z.shiftl k 32)) (elems b)) with (map (fun v => k * 2^32 + v) (elems b)).
  2:{ apply map_ext_in. intros v I. unfold key32 in K. symmetry. apply (unite_eq k v); [lia|]. exact (proj2 (elems_bok b B) v I). }
  destruct (call_until f (map (fun v => k * 2^32 + v) (elems b)) s) as [s' [|]]; auto.
Qed.

(** ** Compression *)
Lemma map_each_flat f (m : rmap) : map (fun e => (fst e, fst (f (snd e)))) m = mflat (fun _ b => Some (fst (f b : bitmap * bool))) m.
Proof. induction m as [|[k b] t IH]; [reflexivity|]. rewrite mflat_cons. cbn [map fst snd app]. now rewrite IH. Qed.
Lemma mden_each f m P : mden m P -> (forall b Q, denotes b Q -> denotes (fst (f b)) Q) -> mden (fst (map_each f m)) P.
Proof.
  intros H D. unfold map_each. cbn [fst]. rewrite map_each_flat. pose proof (mden_sorted m P H) as S. split.
  - split; [now apply mflat_sorted|]. destruct H as ((_ & W) & _). intros k J. apply W. eapply mflat_keys; eauto.
  - intros h K. unfold inner. rewrite mfind_mflat by auto. pose proof (mden_inner m P h H K) as X. unfold inner in X. destruct (mfind m h); auto.
Qed.
Lemma mden_removeRunCompression m P : mden m P -> mden (fst (map_removeRunCompression m)) P.
Proof. intros H. apply mden_each; auto. intros b Q D. now apply den_remove_run_compression. Qed.
Lemma mden_runOptimize m P : mden m P -> mden (fst (map_runOptimize m)) P.
Proof. intros H. apply mden_each; auto. intros b Q D. now apply den_run_optimize. Qed.
Lemma mden_shrinkToFit m P : mden m P -> mden (map_shrinkToFit m) P.
Proof.
  intros H. unfold map_shrinkToFit. rewrite mflat_filter. pose proof (mden_sorted m P H) as S. split.
  - split; [now apply mflat_sorted|]. destruct H as ((_ & W) & _). intros k J. apply W. eapply mflat_keys; eauto.
  - intros h K. unfold inner. rewrite mfind_mflat by auto. pose proof (mden_inner m P h H K) as X. unfold inner in X. destruct (mfind m h) as [b|]; auto. cbn [snd]. destruct (roaring_bitmap_is_empty b) eqn:E; cbn [negb]; auto. apply empty_nil in E. now subst b.
Qed.
