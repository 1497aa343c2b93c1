(** RStat: bitmap statistics, the size effect of run_optimize, and the behaviour of
    select and of the statistics counters on the bitmap holding all 2^32 values. *)
From Verif Require Import Base ArrayUtil BitUtil BitsetC ArrayC RunC RunD Convert MixedI MixedU MixedA MixedN Containers RArray RBinary RPoint RRange RQuery.
Local Opaque zr.

(** ** Sums over the containers *)
Fixpoint tot (f : container -> Z) (r : bitmap) : Z := match r with [] => 0 | (_, c) :: t => f c + tot f t end.
Definition onA (f : container -> Z) (c : container) : Z := match c with CArr _ => f c | _ => 0 end.
Definition onB (f : container -> Z) (c : container) : Z := match c with CBit _ => f c | _ => 0 end.
Definition onR (f : container -> Z) (c : container) : Z := match c with CRun _ => f c | _ => 0 end.
Definition one (c : container) : Z := 1.
Lemma tot_split f r : tot f r = tot (onA f) r + tot (onB f) r + tot (onR f) r.
Proof. induction r as [|[k c] t IH]; cbn [tot]; auto. destruct c; cbn [onA onB onR]; lia. Qed.
Lemma tot_one r : tot one r = zlen r.
Proof. induction r as [|[k c] t IH]; auto. cbn [tot]. rewrite zlen_cons. unfold one at 1. lia. Qed.
Lemma tot_ge0 f r : bok r -> (forall c, cok c -> 0 <= f c) -> 0 <= tot f r.
Proof. intros (_&_&B) H. induction B as [|[k c] t D]; cbn [tot snd] in *; [lia|]. specialize (H c D). lia. Qed.
Lemma tot_le f g r : bok r -> (forall c, cok c -> f c <= g c) -> tot f r <= tot g r.
Proof. intros (_&_&B) H. induction B as [|[k c] t D]; cbn [tot snd] in *; [lia|]. specialize (H c D). lia. Qed.
Lemma tot_card lo r : gok cok lo r -> tot container_get_cardinality r = zlen (elems r).
Proof.
  revert lo. induction r as [|[k c] t IH]; intros lo G; auto. apply gok_cons in G as (K&D&T). cbn [tot]. rewrite elems_cons, zlen_app, celems_zlen.
  rewrite (IH _ T), container_get_cardinality_spec; auto.
Qed.
Lemma gok_Forall C lo r : gok C lo r -> Forall (fun p : entry => C (snd p)) r.
Proof. intros H; apply H. Qed.

(** ** statistics *)
Lemma u32_acc s x t : u32 (u32 (s + x) + t) = u32 (s + (x + t)).
Proof. unfold u32. rewrite Zplus_mod_idemp_l. f_equal. lia. Qed.
Definition stat_typed (s : roaring_statistics) : Prop :=
  Forall (fun v => 0 <= v < 2^32) [n_array_containers s; n_run_containers s; n_bitset_containers s; n_values_array_containers s;
    n_values_run_containers s; n_values_bitset_containers s; n_bytes_array_containers s; n_bytes_run_containers s; n_bytes_bitset_containers s].
Lemma u32_range v : 0 <= u32 v < 2^32. Proof. unfold u32. apply Z.mod_pos_bound. lia. Qed.
Lemma stat_step_typed s c : stat_typed s -> stat_typed (stat_step s c).
Proof.
  intros H. unfold stat_typed in *. rewrite !Forall_cons_iff in *. destruct c; cbn; intuition (auto; try apply u32_range).
Qed.
Lemma stat_fold r s : stat_typed s ->
  fold_left (fun s (p : entry) => stat_step s (snd p)) r s =
  mkStat (n_containers s) (u32 (n_array_containers s + tot (onA one) r)) (u32 (n_run_containers s + tot (onR one) r)) (u32 (n_bitset_containers s + tot (onB one) r))
    (u32 (n_values_array_containers s + tot (onA container_get_cardinality) r)) (u32 (n_values_run_containers s + tot (onR container_get_cardinality) r)) (u32 (n_values_bitset_containers s + tot (onB container_get_cardinality) r))
    (u32 (n_bytes_array_containers s + tot (onA container_size_in_bytes) r)) (u32 (n_bytes_run_containers s + tot (onR container_size_in_bytes) r)) (u32 (n_bytes_bitset_containers s + tot (onB container_size_in_bytes) r))
    (max_value s) (min_value s) (stat_cardinality s + tot container_get_cardinality r).
Proof.
  revert s. induction r as [|[k c] t IH]; intros s H; cbn [fold_left tot].
  - rewrite !Z.add_0_r. unfold stat_typed in H. rewrite !Forall_cons_iff in H. rewrite !u32_in by tauto. now destruct s.
  - cbn [snd]. rewrite IH by now apply stat_step_typed. destruct c; cbn [stat_step onA onB onR n_containers n_array_containers n_run_containers n_bitset_containers
      n_values_array_containers n_values_run_containers n_values_bitset_containers n_bytes_array_containers n_bytes_run_containers n_bytes_bitset_containers max_value min_value stat_cardinality];
    rewrite ?u32_acc, ?Z.add_0_l, ?Z.add_assoc; reflexivity.
Qed.
Lemma roaring_bitmap_statistics_eq r :
  roaring_bitmap_statistics r =
  mkStat (zlen r) (u32 (tot (onA one) r)) (u32 (tot (onR one) r)) (u32 (tot (onB one) r))
    (u32 (tot (onA container_get_cardinality) r)) (u32 (tot (onR container_get_cardinality) r)) (u32 (tot (onB container_get_cardinality) r))
    (u32 (tot (onA container_size_in_bytes) r)) (u32 (tot (onR container_size_in_bytes) r)) (u32 (tot (onB container_size_in_bytes) r))
    (roaring_bitmap_maximum r) (roaring_bitmap_minimum r) (tot container_get_cardinality r).
Proof.
  unfold roaring_bitmap_statistics. rewrite stat_fold. { cbn [n_containers n_array_containers n_run_containers n_bitset_containers
      n_values_array_containers n_values_run_containers n_values_bitset_containers n_bytes_array_containers n_bytes_run_containers n_bytes_bitset_containers max_value min_value stat_cardinality]. now rewrite !Z.add_0_l. }
  unfold stat_typed. cbn. repeat constructor; lia.
Qed.
Lemma tot_cardinal r : bok r -> tot container_get_cardinality r = bcardinal r.
Proof. intros B. rewrite (tot_card 0) by auto. now apply elems_zlen. Qed.
Lemma ccard_le c : cok c -> container_get_cardinality c <= 65536 /\ 0 < container_get_cardinality c.
Proof. intros D. rewrite container_get_cardinality_spec by auto. pose proof (ccard_pos c D). unfold ccard in *. pose proof (cnt_bound (cmem c) 0 65536 ltac:(lia)). lia. Qed.
Definition stats_sound (r : bitmap) : Prop :=
  let s := roaring_bitmap_statistics r in
  stat_cardinality s = bcardinal r /\ min_value s = roaring_bitmap_minimum r /\ max_value s = roaring_bitmap_maximum r /\
  n_containers s = n_array_containers s + n_run_containers s + n_bitset_containers s /\
  (bcardinal r < 2^32 -> n_values_array_containers s + n_values_run_containers s + n_values_bitset_containers s = stat_cardinality s).
Theorem roaring_bitmap_statistics_spec r : bok r -> stats_sound r.
Proof.
  intros B. unfold stats_sound. rewrite roaring_bitmap_statistics_eq.
  cbn [n_containers n_array_containers n_run_containers n_bitset_containers n_values_array_containers n_values_run_containers n_values_bitset_containers n_bytes_array_containers n_bytes_run_containers n_bytes_bitset_containers max_value min_value stat_cardinality].
  split; [now apply tot_cardinal|]. split; auto. split; auto.
  assert (P1 : forall f : (container -> Z) -> container -> Z, (f = onA \/ f = onB \/ f = onR) -> 0 <= tot (f one) r /\ 0 <= tot (f container_get_cardinality) r).
  { intros f Hf. split; apply tot_ge0; auto; intros c D; pose proof (ccard_le c D); destruct Hf as [->|[->| ->]]; destruct c; cbn [onA onB onR]; unfold one; lia. }
  pose proof (P1 onA ltac:(auto)). pose proof (P1 onB ltac:(auto)). pose proof (P1 onR ltac:(auto)).
  pose proof (tot_split one r) as T1. rewrite tot_one in T1. pose proof (gok_size cok 0 r B ltac:(lia)). split.
  - rewrite !u32_in by lia. lia.
  - intros HC. rewrite tot_cardinal by auto. pose proof (tot_split container_get_cardinality r) as T2. rewrite tot_cardinal in T2 by auto. rewrite !u32_in by lia. lia.
Qed.
(** the byte counters are the exact totals per kind when those fit 32 bits *)
Theorem statistics_bytes r : bok r -> tot (onR container_size_in_bytes) r < 2^32 ->
  let s := roaring_bitmap_statistics r in
  n_bytes_array_containers s + n_bytes_run_containers s + n_bytes_bitset_containers s = tot container_size_in_bytes r.
Proof.
  intros B HR. rewrite roaring_bitmap_statistics_eq. cbn [n_bytes_array_containers n_bytes_run_containers n_bytes_bitset_containers].
  pose proof (gok_size cok 0 r B ltac:(lia)). pose proof (tot_split container_size_in_bytes r).
  assert (SB : forall c, cok c -> 0 <= onA container_size_in_bytes c <= 8192 /\ 0 <= onB container_size_in_bytes c <= 8192 /\ 0 <= onR container_size_in_bytes c).
  { intros [a|b|x] D; cbn [onA onB onR container_size_in_bytes]; try lia.
    - destruct D as [_ D]. lia.
    - pose proof (zlen_nonneg x). lia. }
  assert (M : forall f, (forall c, cok c -> 0 <= f c <= 8192) -> 0 <= tot f r <= 8192 * 65536).
  { intros f Hf. split; [apply tot_ge0; auto; intros; now apply Hf|].
    apply Z.le_trans with (tot (fun _ => 8192) r).
    - apply tot_le; auto. intros; now apply Hf.
    - assert (E : tot (fun _ => 8192) r = 8192 * zlen r). { clear. induction r as [|[k c] t IH]; auto. cbn [tot]. rewrite zlen_cons. lia. } lia. }
  pose proof (M (onA container_size_in_bytes) ltac:(intros; apply SB; auto)). pose proof (M (onB container_size_in_bytes) ltac:(intros; apply SB; auto)).
  assert (0 <= tot (onR container_size_in_bytes) r) by (apply tot_ge0; auto; intros; now apply SB).
  rewrite !u32_in by lia. lia.
Qed.

(** ** run_optimize and sizes *)
Lemma convert_run_eff_size x : cok (CRun x) -> container_size_in_bytes (convert_run_to_efficient_container x) <= container_size_in_bytes (CRun x).
Proof.
  intros D. pose proof (convert_run_eff_spec x (proj1 D) (proj2 D)) as [R1 R2]. revert R1 R2. unfold convert_run_to_efficient_container.
  unfold run_container_serialized_size_in_bytes, bitset_container_serialized_size_in_bytes, array_container_serialized_size_in_bytes. cbn zeta.
  rewrite run_cardinality_spec by apply D. set (m := if 1024 * 8 <? rcard x * 2 + 2 then 1024 * 8 else rcard x * 2 + 2).
  destruct (Z.leb_spec (2 + 4 * zlen x) m) as [L|L]; [intros; apply Z.le_refl|]. assert (m = 8192 \/ m = 2 + 2 * rcard x) by (unfold m; destruct (Z.ltb_spec (1024 * 8) (rcard x * 2 + 2)); lia). clearbody m.
  destruct (Z.leb_spec (rcard x) 4096) as [L2|L2]; intros R1 R2.
  - match type of R1 with cok (CArr ?a) => assert (E : zlen a = rcard x) end.
    { destruct R1 as [R1 _]. rewrite awf_acard by auto. unfold rcard. rewrite (cnt_ext (amem _) (rmem x)); auto. }
    cbn [container_size_in_bytes]. rewrite E. lia.
  - cbn [container_size_in_bytes]. lia.
Qed.
Theorem convert_run_optimize_size c : cok c -> container_size_in_bytes (convert_run_optimize c) <= container_size_in_bytes c.
Proof.
  destruct c as [a|b|x]; intros D; cbn [convert_run_optimize].
  - unfold array_container_serialized_size_in_bytes, run_container_serialized_size_in_bytes. destruct (Z.leb_spec (zlen a * 2 + 2) (2 + 4 * array_container_number_of_runs a)); [lia|].
    cbn [container_size_in_bytes]. rewrite convert_run_optimize_nruns by (try apply D; now apply arr_ne). lia.
  - unfold bitset_container_serialized_size_in_bytes, run_container_serialized_size_in_bytes. destruct (Z.leb_spec (1024 * 8) (2 + 4 * bitset_container_number_of_runs b)); [lia|].
    cbn [container_size_in_bytes]. rewrite run_from_bitset_nruns by apply D. lia.
  - now apply convert_run_eff_size.
Qed.
Theorem run_optimize_container_bytes r : bok r -> tot container_size_in_bytes (fst (roaring_bitmap_run_optimize r)) <= tot container_size_in_bytes r.
Proof.
  intros B. apply gok_Forall in B. cbn [roaring_bitmap_run_optimize fst]. induction B as [|[k c] t D B IH]; cbn [map tot fst snd] in *; [lia|].
  pose proof (convert_run_optimize_size c D). lia.
Qed.

(** ** All 2^32 values *)
Definition all_values_run : bitmap := roaring_bitmap_add_range [] 0 (2^32).
Definition all_values_flat : bitmap := fst (roaring_bitmap_remove_run_compression all_values_run).
Lemma all_values_run_spec : bspec all_values_run (fun v => (0 <=? v) && (v <? 2^32)).
Proof.
  destruct (add_range_mem [] 0 (2^32)) as [A1 A2]; [apply bok_nil|lia|lia|]. split; auto.
Qed.
Lemma flat_spec r P : bspec r P -> bspec (fst (roaring_bitmap_remove_run_compression r)) P.
Proof.
  intros [A1 A2]. destruct (roaring_bitmap_remove_run_compression_spec r A1) as [[B1 B2] _]. split; [exact B1|]. intros v. rewrite B2. apply A2.
Qed.
Lemma all_values_flat_spec : bspec all_values_flat (fun v => (0 <=? v) && (v <? 2^32)).
Proof. exact (flat_spec _ _ all_values_run_spec). Qed.
Lemma full_bcardinal r : bspec r (fun v => (0 <=? v) && (v <? 2^32)) -> bcardinal r = 2^32.
Proof. intros [_ H]. unfold bcardinal. rewrite cnt_full; [lia|lia|]. intros v Hv. rewrite H. lia. Qed.
Lemma full_flat_bitsets r : bspec r (fun v => (0 <=? v) && (v <? 2^32)) -> Forall (fun p : entry => is_run (snd p) = false) r ->
  Forall (fun p : entry => exists b, snd p = CBit b) r.
Proof.
  intros [B M] N. apply Forall_forall. intros [k c] Hp. rewrite Forall_forall in N. specialize (N _ Hp). cbn [snd] in *.
  pose proof (gok_Forall _ _ _ B) as D. rewrite Forall_forall in D. specialize (D _ Hp). cbn [snd] in D.
  destruct c as [a|b|x]; [|eauto|discriminate]. exfalso.
  pose proof (look_In _ _ _ (gok_incr _ _ _ B) Hp) as L. pose proof (gok_look _ _ _ _ _ B L) as [_ K].
  destruct D as [D1 D2]. rewrite awf_acard in D2 by auto. rewrite cnt_full in D2; [lia|lia|]. intros x Hx.
  specialize (M (65536 * k + x)). rewrite mem_split in M by auto. unfold km in M. rewrite L in M. cbn [cmem] in M. rewrite M. lia.
Qed.
Lemma flat_bitsets : Forall (fun p : entry => exists b, snd p = CBit b) all_values_flat.
Proof.
  apply full_flat_bitsets; [exact all_values_flat_spec|].
  exact (proj1 (proj2 (roaring_bitmap_remove_run_compression_spec all_values_run (proj1 all_values_run_spec)))).
Qed.
Opaque all_values_run all_values_flat.
Lemma tot_onB f r : Forall (fun p : entry => exists b, snd p = CBit b) r -> tot (onB f) r = tot f r.
Proof. induction 1 as [|[k c] t [b E]]; auto. cbn [tot snd] in *. subst. cbn [onB]. lia. Qed.
Lemma statistics_wrap r : bspec r (fun v => (0 <=? v) && (v <? 2^32)) -> Forall (fun p : entry => exists b, snd p = CBit b) r ->
  let s := roaring_bitmap_statistics r in
  stat_cardinality s = 2^32 /\ n_values_array_containers s + n_values_run_containers s + n_values_bitset_containers s = 0.
Proof.
  intros S F. pose proof (proj1 S) as B. pose proof (full_bcardinal _ S) as C. cbn zeta. rewrite roaring_bitmap_statistics_eq.
  cbn [stat_cardinality n_values_array_containers n_values_run_containers n_values_bitset_containers]. pose proof (tot_cardinal _ B) as T. split; [lia|].
  rewrite (tot_onB container_get_cardinality _ F). rewrite T, C. pose proof (tot_split container_get_cardinality r) as T2.
  rewrite (tot_onB container_get_cardinality _ F) in T2.
  assert (0 <= tot (onA container_get_cardinality) r /\ 0 <= tot (onR container_get_cardinality) r).
  { split; apply tot_ge0; auto; intros c D; pose proof (ccard_le c D); destruct c; cbn [onA onR]; lia. }
  replace (tot (onA container_get_cardinality) r) with 0 by lia. replace (tot (onR container_get_cardinality) r) with 0 by lia. reflexivity.
Qed.
(** statistics reports 0 values in bitset containers although all 65536 containers are
    bitset containers holding 2^32 values *)
Theorem statistics_values_wrap :
  let s := roaring_bitmap_statistics all_values_flat in
  stat_cardinality s = 2^32 /\ n_values_array_containers s + n_values_run_containers s + n_values_bitset_containers s = 0.
Proof. exact (statistics_wrap _ all_values_flat_spec flat_bitsets). Qed.
(** select fails for every rank that falls in the last container *)
Lemma select_loop_wrap r lo sr rank b k : gok cok lo (r ++ [(k, CBit b)]) -> 0 <= lo -> 0 <= sr -> sr + zlen (elems (r ++ [(k, CBit b)])) = 2^32 ->
  sr + zlen (elems r) <= rank < 2^32 -> select_loop (r ++ [(k, CBit b)]) sr rank = None.
Proof.
  revert lo sr. induction r as [|[k0 c] t IH]; intros lo sr G Hlo Hs E Hr; cbn [app select_loop] in *.
  - apply gok_cons in G as (K&D&_). cbn [elems flat_map fst snd] in E. rewrite app_nil_r, celems_zlen in E.
    rewrite <- container_get_cardinality_spec in E by auto. cbn [container_get_cardinality] in E. cbn [container_select]. unfold bitset_container_select.
    rewrite E. rewrite Z.mod_same by lia. change (zlen (elems [])) with 0 in Hr. now replace (0 <=? rank) with true by lia.
  - apply gok_cons in G as (K&D&T). rewrite elems_cons, zlen_app, celems_zlen in *. pose proof (zlen_nonneg (elems t)).
    assert (P : 0 < zlen (elems (t ++ [(k, CBit b)]))).
    { rewrite elems_app, zlen_app. cbn [elems flat_map fst snd]. rewrite app_nil_r, celems_zlen. apply gok_app in T as (_&T&_). apply gok_cons in T as (_&T&_). pose proof (ccard_pos _ T). lia. }
    pose proof (ccard_pos c D). pose proof (container_select_spec c sr rank D ltac:(lia) ltac:(lia)) as S. assert (F : select_fits c sr) by (unfold select_fits; destruct c; lia). specialize (S F).
    replace (rank <? sr + ccard c) with false in S by (pose proof (ccard_pos c D); lia). rewrite S. apply (IH (k0 + 1)); auto; lia.
Qed.
Lemma select_full_fails r : bspec r (fun v => (0 <=? v) && (v <? 2^32)) -> Forall (fun p : entry => exists b, snd p = CBit b) r ->
  bcardinal r = 2^32 /\ mem r (2^32 - 1) = true /\ roaring_bitmap_select r (2^32 - 1) = None.
Proof.
  intros S F. destruct S as [B M]. pose proof (full_bcardinal r (conj B M)) as C. split; [exact C|]. split; [now rewrite M|].
  pose proof (elems_zlen _ B) as L. unfold roaring_bitmap_select.
  destruct (snoc_cases r) as [E|(t&[k c]&E)]. { rewrite E in L, C. rewrite C in L. change (zlen (elems [])) with 0 in L. discriminate. }
  rewrite E in F. apply Forall_app in F as [_ F]. apply Forall_inv in F as [b Eb]. cbn [snd] in Eb. subst c. rewrite E in *.
  apply (select_loop_wrap t 0); auto; try lia. rewrite elems_app, zlen_app in L. cbn [elems flat_map fst snd] in L. rewrite app_nil_r, celems_zlen in L.
  apply gok_app in B as (_&B&_). apply gok_cons in B as (_&B&_). pose proof (ccard_pos _ B). lia.
Qed.
Theorem select_all_values_fails : bcardinal all_values_flat = 2^32 /\ mem all_values_flat (2^32 - 1) = true /\ roaring_bitmap_select all_values_flat (2^32 - 1) = None.
Proof. exact (select_full_fails _ all_values_flat_spec flat_bitsets). Qed.
(** pages of size zero write nothing *)
Theorem range_uint32_array_zero r offset : roaring_bitmap_range_uint32_array r offset 0 = None \/ roaring_bitmap_range_uint32_array r offset 0 = Some [].
Proof.
  unfold roaring_bitmap_range_uint32_array. destruct (range_array_loop _ _ _ _ _ _ _) as [fs [[d c]|]]; auto.
Qed.
