(** Map64P: the map of bitmaps denotes a set of 64-bit values; each update has the effect of the
    set operation, whatever empty bitmaps the map holds. *)
From Coq Require Import ZArith List Bool Lia.
From Verif Require Import Base ArrayUtil BitUtil BitsetC ArrayC RunC RunD Convert Containers RArray RBinary RPoint RRange RQuery Iter Bytes Serial Spec Spec64 FormatSpec64 Obs Derived Map64.
Import ListNotations.
Local Open Scope Z_scope.
Local Opaque zr.

(** ** std::map *)
Definition mkeys (m : rmap) : list Z := map fst m.
Definition mhas (m : rmap) (k : Z) : bool := match mfind m k with Some _ => true | None => false end.
Definition msorted (m : rmap) : Prop := incr (mkeys m).
Lemma msorted_cons k b t : msorted ((k, b) :: t) <-> (forall j, In j (mkeys t) -> k < j) /\ msorted t.
Proof. unfold msorted, mkeys. cbn [map fst]. rewrite incr_cons, Forall_forall. tauto. Qed.
Lemma mhas_In m k : mhas m k = true <-> In k (mkeys m).
Proof.
  unfold mhas. induction m as [|[h b] t IH]; cbn [mfind mkeys map fst In]. { split; [discriminate|tauto]. }
  destruct (k =? h) eqn:E. { apply Z.eqb_eq in E. subst. split; auto. }
  apply Z.eqb_neq in E. rewrite IH. unfold mkeys. split; [auto|]. intros [X|X]; [congruence|auto].
Qed.
Lemma mfind_None m k : mfind m k = None <-> ~ In k (mkeys m).
Proof. rewrite <- mhas_In. unfold mhas. destruct (mfind m k); split; intros; congruence. Qed.
Lemma mfind_In m k b : mfind m k = Some b -> In (k, b) m.
Proof. induction m as [|[h c] t IH]; cbn [mfind]; [discriminate|]. destruct (k =? h) eqn:E; intros X; [apply Z.eqb_eq in E; left; congruence|right; auto]. Qed.
Lemma In_mfind m k b : msorted m -> In (k, b) m -> mfind m k = Some b.
Proof.
  induction m as [|[h c] t IH]; [intros _ []|]. intros S [E|I]; cbn [mfind].
  - inversion E. subst. now rewrite Z.eqb_refl.
  - apply msorted_cons in S as (A & S). destruct (k =? h) eqn:E; [|auto]. apply Z.eqb_eq in E. subst. specialize (A h). assert (In h (mkeys t)) by (apply in_map_iff; exists (h, b); auto). specialize (A H). lia.
Qed.
Lemma mfind_above m k j : msorted m -> (forall i, In i (mkeys m) -> j < i) -> k <= j -> mfind m k = None.
Proof. intros _ A L. apply mfind_None. intros I. specialize (A _ I). lia. Qed.
Lemma mput_keys m k b j : In j (mkeys (mput m k b)) <-> j = k \/ In j (mkeys m).
Proof.
  induction m as [|[h c] t IH]; cbn [mput]. { cbn. intuition. }
  destruct (k <? h). { cbn. intuition. }
  destruct (k =? h) eqn:E. { apply Z.eqb_eq in E. subst. cbn. intuition. }
  cbn [mkeys map fst In]. unfold mkeys in IH. rewrite IH. intuition.
Qed.
Lemma mput_sorted m k b : msorted m -> msorted (mput m k b).
Proof.
  induction m as [|[h c] t IH]; cbn [mput]; intros S. { apply msorted_cons. split; [intros j []|exact S]. }
  pose proof S as S0. apply msorted_cons in S as (A & S). destruct (k <? h) eqn:E.
  { apply msorted_cons. split; [|exact S0]. intros j [J|J]; [cbn in J; lia|]. specialize (A j J). lia. }
  destruct (k =? h) eqn:E2. { apply Z.eqb_eq in E2. subst. apply msorted_cons. auto. }
  apply msorted_cons. split; [|auto]. intros j J. apply mput_keys in J as [J|J]; [lia|auto].
Qed.
Lemma mfind_mput m k b h : msorted m -> mfind (mput m k b) h = if h =? k then Some b else mfind m h.
Proof.
  induction m as [|[j c] t IH]; cbn [mput mfind]; intros S; [reflexivity|]. apply msorted_cons in S as (A & S).
  destruct (k <? j) eqn:E. { cbn [mfind]. reflexivity. }
  destruct (k =? j) eqn:E2. { cbn [mfind]. apply Z.eqb_eq in E2. subst. destruct (h =? j); reflexivity. }
  cbn [mfind]. rewrite IH by auto. destruct (h =? j) eqn:E3; [|reflexivity]. replace (h =? k) with false by lia. reflexivity.
Qed.
(** entries kept, changed or dropped one by one *)
Definition mflat (f : Z -> bitmap -> option bitmap) (m : rmap) : rmap :=
  flat_map (fun e => match f (fst e) (snd e) with Some b => [(fst e, b)] | None => [] end) m.
Lemma mflat_cons f k b t : mflat f ((k, b) :: t) = match f k b with Some c => [(k, c)] | None => [] end ++ mflat f t.
Proof. reflexivity. Qed.
Lemma mflat_keys f m j : In j (mkeys (mflat f m)) -> In j (mkeys m).
Proof.
  induction m as [|[h c] t IH]; [auto|]. rewrite mflat_cons. unfold mkeys in *. rewrite map_app, in_app_iff. cbn [map fst In]. intros [I|I]; [|auto]. destruct (f h c); cbn in I; intuition.
Qed.
Lemma mflat_sorted f m : msorted m -> msorted (mflat f m).
Proof.
  induction m as [|[h c] t IH]; [auto|]. intros S. apply msorted_cons in S as (A & S). rewrite mflat_cons. destruct (f h c); cbn [app]; [|auto]. apply msorted_cons. split; [|auto]. intros j J. apply A. eapply mflat_keys; eauto.
Qed.
Lemma mfind_mflat f m h : msorted m -> mfind (mflat f m) h = match mfind m h with Some b => f h b | None => None end.
Proof.
  induction m as [|[j c] t IH]; [reflexivity|]. intros S. apply msorted_cons in S as (A & S). rewrite mflat_cons. cbn [mfind].
  destruct (h =? j) eqn:E.
  - apply Z.eqb_eq in E. subst. destruct (f j c) eqn:F; cbn [app mfind]; [now rewrite Z.eqb_refl|]. apply mfind_None. intros I. apply mflat_keys in I. specialize (A _ I). lia.
  - destruct (f j c) eqn:F; cbn [app mfind]; [rewrite E|]; auto.
Qed.
Lemma mflat_filter p m : filter p m = mflat (fun k b => if p (k, b) then Some b else None) m.
Proof. induction m as [|[h c] t IH]; [reflexivity|]. rewrite mflat_cons. cbn [filter]. destruct (p (h, c)); cbn [app]; rewrite IH; reflexivity. Qed.
Lemma mfilter_sorted p m : msorted m -> msorted (filter p m).
Proof. rewrite mflat_filter. apply mflat_sorted. Qed.
Lemma mfind_filter p m h : msorted m -> mfind (filter p m) h = match mfind m h with Some b => if p (h, b) then Some b else None | None => None end.
Proof. intros S. rewrite mflat_filter, mfind_mflat by auto. reflexivity. Qed.
Lemma mfind_merase m k h : msorted m -> mfind (merase m k) h = if h =? k then None else mfind m h.
Proof. intros S. unfold merase. rewrite mfind_filter by auto. cbn [fst]. destruct (h =? k); destruct (mfind m h); reflexivity. Qed.
Lemma merase_sorted m k : msorted m -> msorted (merase m k).
Proof. apply mfilter_sorted. Qed.
Lemma mlower_Some m k j : msorted m -> mlower m k = Some j -> mhas m j = true /\ k <= j /\ forall i, k <= i < j -> mhas m i = false.
Proof.
  unfold mhas. induction m as [|[h c] t IH]; cbn [mlower mfind]; [discriminate|]. intros S. apply msorted_cons in S as (A & S). destruct (k <=? h) eqn:E.
  - intros X. injection X as <-. rewrite Z.eqb_refl. split; auto. split; [lia|]. intros i I. replace (i =? h) with false by lia. replace (mfind t i) with (@None bitmap); auto. symmetry. apply mfind_None. intros J. specialize (A _ J). lia.
  - intros X. destruct (IH S X) as (F & L & N). assert (In j (mkeys t)) by (apply mhas_In; exact F). specialize (A _ H). replace (j =? h) with false by lia. split; auto. split; auto. intros i I. replace (i =? h) with false by lia. auto.
Qed.
Lemma mlower_None m k i : mlower m k = None -> k <= i -> mhas m i = false.
Proof.
  unfold mhas. induction m as [|[h c] t IH]; cbn [mlower mfind]; [auto|]. destruct (k <=? h) eqn:E; [discriminate|]. intros X L. replace (i =? h) with false by lia. auto.
Qed.
Lemma mlower_is m k j : msorted m -> mhas m j = true -> k <= j -> (forall i, k <= i < j -> mhas m i = false) -> mlower m k = Some j.
Proof.
  intros S F L N. destruct (mlower m k) as [i|] eqn:E.
  - destruct (mlower_Some m k i S E) as (F2 & L2 & N2). f_equal. destruct (Z.lt_trichotomy i j) as [X|[X|X]]; auto; exfalso.
    + rewrite N in F2 by lia. discriminate.
    + rewrite N2 in F by lia. discriminate.
  - rewrite (mlower_None m k j E L) in F. discriminate.
Qed.
Lemma mlower_none_is m k : (forall i, k <= i -> mhas m i = false) -> mlower m k = None.
Proof.
  induction m as [|[h c] t IH]; intros N; cbn [mlower]; [reflexivity|]. destruct (k <=? h) eqn:E.
  - specialize (N h ltac:(lia)). unfold mhas in N. cbn [mfind] in N. rewrite Z.eqb_refl in N. discriminate.
  - apply IH. intros i I. specialize (N i I). unfold mhas in *. cbn [mfind] in N. replace (i =? h) with false in N by lia. exact N.
Qed.
Lemma mlower_ext m m' k : msorted m -> msorted m' -> (forall i, k <= i -> mhas m i = mhas m' i) -> mlower m k = mlower m' k.
Proof.
  intros S S' E. destruct (mlower m' k) as [j|] eqn:X.
  - destruct (mlower_Some m' k j S' X) as (F & L & N). apply mlower_is; auto; [now rewrite E|]. intros i I. rewrite E by lia. auto.
  - apply mlower_none_is. intros i I. rewrite E by auto. eapply mlower_None; eauto.
Qed.
Lemma mlower_self m k : msorted m -> mhas m k = true -> mlower m k = Some k.
Proof. intros S F. apply mlower_is; auto; [lia|]. intros i I. lia. Qed.
Lemma mlower_skip m k : msorted m -> mhas m k = false -> mlower m k = mlower m (k + 1).
Proof.
  intros S F. destruct (mlower m (k + 1)) as [j|] eqn:X.
  - destruct (mlower_Some m _ j S X) as (F2 & L & N). apply mlower_is; auto; [lia|]. intros i I. destruct (Z.eq_dec i k); [now subst|]. apply N. lia.
  - apply mlower_none_is. intros i I. destruct (Z.eq_dec i k); [now subst|]. eapply mlower_None; eauto. lia.
Qed.
Lemma mhas_mput m k b h : msorted m -> mhas (mput m k b) h = (h =? k) || mhas m h.
Proof. intros S. unfold mhas. rewrite mfind_mput by auto. destruct (h =? k); reflexivity. Qed.
Lemma inner_mput m k b h : msorted m -> inner (mput m k b) h = if h =? k then b else inner m h.
Proof. intros S. unfold inner. rewrite mfind_mput by auto. destruct (h =? k); reflexivity. Qed.
Lemma empty_nil b : roaring_bitmap_is_empty b = true -> b = [].
Proof. unfold roaring_bitmap_is_empty. destruct b; [auto|]. unfold zlen. cbn [length]. intros X. apply Z.eqb_eq in X. lia. Qed.
Lemma mkeep_sorted m k b : msorted m -> msorted (mkeep m k b).
Proof. intros S. unfold mkeep. destruct (roaring_bitmap_is_empty b); [now apply merase_sorted|now apply mput_sorted]. Qed.
Lemma mfind_mkeep m k b h : msorted m -> mfind (mkeep m k b) h = if h =? k then (if roaring_bitmap_is_empty b then None else Some b) else mfind m h.
Proof. intros S. unfold mkeep. destruct (roaring_bitmap_is_empty b); [rewrite mfind_merase|rewrite mfind_mput]; auto. Qed.
Lemma inner_mkeep m k b h : msorted m -> inner (mkeep m k b) h = if h =? k then b else inner m h.
Proof.
  intros S. unfold inner. rewrite mfind_mkeep by auto. destruct (h =? k); [|reflexivity]. destruct (roaring_bitmap_is_empty b) eqn:E; [|reflexivity]. apply empty_nil in E. auto.
Qed.
Lemma mhas_mkeep_other m k b h : msorted m -> h <> k -> mhas (mkeep m k b) h = mhas m h.
Proof. intros S N. unfold mhas. rewrite mfind_mkeep by auto. replace (h =? k) with false by lia. reflexivity. Qed.
Lemma mkeep_keys m k b j : msorted m -> In j (mkeys (mkeep m k b)) -> j = k \/ In j (mkeys m).
Proof.
  intros S. rewrite <- !mhas_In. destruct (Z.eq_dec j k); [auto|]. rewrite mhas_mkeep_other by auto. auto.
Qed.
Lemma memplace_sorted m k b : msorted m -> msorted (memplace m k b).
Proof. intros S. unfold memplace. destruct (mfind m k); [auto|now apply mput_sorted]. Qed.
Lemma mfind_memplace m k b h : msorted m -> mfind (memplace m k b) h = if h =? k then Some (match mfind m k with Some c => c | None => b end) else mfind m h.
Proof.
  intros S. unfold memplace. destruct (mfind m k) eqn:E.
  - destruct (h =? k) eqn:E2; [|reflexivity]. apply Z.eqb_eq in E2. congruence.
  - now rewrite mfind_mput.
Qed.

(** ** Denotation *)
Definition key32 (k : Z) : Prop := 0 <= k < 2^32.
Definition mwf (m : rmap) : Prop := msorted m /\ forall k, In k (mkeys m) -> key32 k.
Definition mden (m : rmap) (P : zset) : Prop := mwf m /\ forall h, key32 h -> denotes (inner m h) (half P h).
Lemma mden_sorted m P : mden m P -> msorted m. Proof. intros H. apply H. Qed.
Lemma mden_inner m P h : mden m P -> key32 h -> denotes (inner m h) (half P h). Proof. intros H. apply H. Qed.
Lemma mden_found m P k b : mden m P -> mfind m k = Some b -> key32 k /\ denotes b (half P k).
Proof.
  intros H F. assert (K : key32 k) by (apply (proj2 (proj1 H)), mhas_In; unfold mhas; now rewrite F). split; auto. pose proof (mden_inner m P k H K) as D. unfold inner in D. now rewrite F in D.
Qed.
Lemma same_set_sym P Q : same_set P Q -> same_set Q P. Proof. intros H v V. symmetry. auto. Qed.
Lemma mden_absent m P k v : mden m P -> key32 k -> mfind m k = None -> val32 v -> half P k v = false.
Proof. intros H K F V. pose proof (mden_inner m P k H K) as D. unfold inner in D. rewrite F in D. rewrite <- (den_mem _ _ _ D V). now rewrite (den_mem _ _ _ den_new V). Qed.
Lemma mden_ext m P Q : mden m P -> same_set64 P Q -> mden m Q.
Proof.
  intros (W & D) E. split; auto. intros h K. eapply den_ext; [exact (D h K)|]. intros v V. unfold half. apply E. unfold val64, val32, key32 in *. lia.
Qed.
Lemma split_high x : val64 x -> key32 (highBytes x) /\ val32 (lowBytes x) /\ highBytes x * 2^32 + lowBytes x = x.
Proof. unfold val64, key32, val32, highBytes, lowBytes. intros V. pose proof (Z.div_mod x (2^32) ltac:(lia)). pose proof (Z.mod_pos_bound x (2^32) ltac:(lia)). split; [|lia]. split; [apply Z.div_pos; lia|apply Z.div_lt_upper_bound; lia]. Qed.
Lemma join_high h v : key32 h -> val32 v -> highBytes (h * 2^32 + v) = h /\ lowBytes (h * 2^32 + v) = v /\ val64 (h * 2^32 + v).
Proof.
  unfold val64, key32, val32, highBytes, lowBytes. intros K V. split; [|split; [|lia]].
  - rewrite Z.div_add_l, Z.div_small by lia. lia.
  - rewrite Z.add_comm, Z.mod_add, Z.mod_small by lia. lia.
Qed.
Lemma half_at P x : val64 x -> half P (highBytes x) (lowBytes x) = P x.
Proof. intros V. unfold half. now rewrite (proj2 (proj2 (split_high x V))). Qed.
Lemma mden_contains m P x : mden m P -> val64 x -> map_contains m x = P x.
Proof.
  intros H V. destruct (split_high x V) as (K & L & _). rewrite <- (half_at P x V). unfold map_contains. destruct (mfind m (highBytes x)) as [b|] eqn:F.
  - apply q_contains; auto. eapply mden_found; eauto.
  - symmetry. eapply mden_absent; eauto.
Qed.
Lemma mden_contains32 m P x : mden m P -> val32 x -> map_contains32 m x = P x.
Proof.
  intros H V. unfold map_contains32. destruct (mfind m 0) as [b|] eqn:F.
  - apply (q_contains b (half P 0)); auto. eapply mden_found; eauto.
  - symmetry. apply (mden_absent m P 0 x H); auto. unfold key32; lia.
Qed.
Lemma mden_of m P : mwf m -> (forall k b, mfind m k = Some b -> valid b) -> (forall v, val64 v -> map_contains m v = P v) -> mden m P.
Proof.
  intros W A C. split; auto. intros h K. unfold inner. destruct (mfind m h) as [b|] eqn:F.
  - split; [eauto|]. intros v V. destruct (join_high h v K V) as (E1 & E2 & V64). unfold half. rewrite <- C by auto. unfold map_contains. rewrite E1, E2, F. reflexivity.
  - eapply den_ext; [exact den_new|]. intros v V. destruct (join_high h v K V) as (E1 & E2 & V64). unfold half. rewrite <- C by auto. unfold map_contains. now rewrite E1, F.
Qed.
Lemma mden_valid m P k b : mden m P -> mfind m k = Some b -> valid b.
Proof. intros H F. destruct (mden_found m P k b H F) as (_ & D). apply D. Qed.
Lemma mwf_mput m k b : mwf m -> key32 k -> mwf (mput m k b).
Proof. intros (S & B) K. split; [now apply mput_sorted|]. intros j J. apply mput_keys in J as [->|J]; auto. Qed.
Lemma mwf_mkeep m k b : mwf m -> key32 k -> mwf (mkeep m k b).
Proof. intros (S & B) K. split; [now apply mkeep_sorted|]. intros j J. apply mkeep_keys in J as [->|J]; auto. Qed.
Lemma mwf_flat f m : mwf m -> mwf (mflat f m).
Proof. intros (S & B). split; [now apply mflat_sorted|]. intros j J. apply B. eapply mflat_keys; eauto. Qed.
Lemma mwf_filter p m : mwf m -> mwf (filter p m).
Proof. rewrite mflat_filter. apply mwf_flat. Qed.
(** replacing one bitmap *)
Lemma mden_put m P Q k b : mden m P -> key32 k -> denotes b (half Q k) -> (forall h, key32 h -> h <> k -> same_set (half P h) (half Q h)) -> mden (mput m k b) Q.
Proof.
  intros (W & D) K Db E. split; [now apply mwf_mput|]. intros h KH. rewrite inner_mput by apply W. destruct (h =? k) eqn:X; [apply Z.eqb_eq in X; now subst|]. eapply den_ext; [exact (D h KH)|]. apply E; auto; lia.
Qed.
Lemma mden_keep m P Q k b : mden m P -> key32 k -> denotes b (half Q k) -> (forall h, key32 h -> h <> k -> same_set (half P h) (half Q h)) -> mden (mkeep m k b) Q.
Proof.
  intros (W & D) K Db E. split; [now apply mwf_mkeep|]. intros h KH. rewrite inner_mkeep by apply W. destruct (h =? k) eqn:X; [apply Z.eqb_eq in X; now subst|]. eapply den_ext; [exact (D h KH)|]. apply E; auto; lia.
Qed.
Lemma mden_nil : mden [] zempty.
Proof. split; [split; [exact Logic.I|intros k []]|]. intros h K. exact den_new. Qed.
Lemma mden_map_of_roaring r P : denotes r P -> mden (map_of_roaring r) (fun v => (v <? 2^32) && P v).
Proof.
  intros D. change (map_of_roaring r) with (mput [] 0 r). apply (mden_put _ zempty); auto using mden_nil. { unfold key32; lia. }
  - eapply den_ext; [exact D|]. intros v V. unfold half. replace (0 * 2^32 + v) with v by lia. unfold val32 in V. replace (v <? 2^32) with true by lia. reflexivity.
  - intros h K N v V. unfold half, zempty. unfold key32, val32 in *. replace (h * 2^32 + v <? 2^32) with false by lia. reflexivity.
Qed.

(** ** Single values *)
Lemma half_add P x : val64 x -> (same_set (zadd (half P (highBytes x)) (lowBytes x)) (half (zadd P x) (highBytes x))) /\ forall h, key32 h -> h <> highBytes x -> same_set (half P h) (half (zadd P x) h).
Proof.
  intros V. destruct (split_high x V) as (K & L & E). split; [|intros h KH N]; intros v Vv; unfold half, zadd.
  - f_equal. unfold val32, key32 in *. lia.
  - destruct (join_high h v KH Vv) as (E1 & _ & _). destruct (h * 2^32 + v =? x) eqn:X; [|now rewrite orb_false_r]. apply Z.eqb_eq in X. rewrite X in E1. congruence.
Qed.
Lemma half_del P x : val64 x -> (same_set (zdel (half P (highBytes x)) (lowBytes x)) (half (zdel P x) (highBytes x))) /\ forall h, key32 h -> h <> highBytes x -> same_set (half P h) (half (zdel P x) h).
Proof.
  intros V. destruct (split_high x V) as (K & L & E). split; [|intros h KH N]; intros v Vv; unfold half, zdel.
  - f_equal. f_equal. unfold val32, key32 in *. lia.
  - destruct (join_high h v KH Vv) as (E1 & _ & _). destruct (h * 2^32 + v =? x) eqn:X; [|now rewrite andb_true_r]. apply Z.eqb_eq in X. rewrite X in E1. congruence.
Qed.
Lemma mden_add m P x : mden m P -> val64 x -> mden (map_add m x) (zadd P x).
Proof.
  intros H V. destruct (split_high x V) as (K & L & E). destruct (half_add P x V) as (A & B). apply (mden_put m P); auto.
  eapply den_ext; [|exact A]. apply den_add; auto. now apply mden_inner.
Qed.
Lemma low_split x : val32 x -> highBytes x = 0 /\ lowBytes x = x /\ val64 x.
Proof. unfold val32, val64, highBytes, lowBytes. intros V. rewrite Z.div_small, Z.mod_small by lia. lia. Qed.
Lemma add32_eq m x : val32 x -> map_add32 m x = map_add m x.
Proof. intros V. destruct (low_split x V) as (E1 & E2 & _). unfold map_add32, map_add. now rewrite E1, E2. Qed.
Lemma mden_add_checked m P x : mden m P -> val64 x -> mden (fst (map_addChecked m x)) (zadd P x) /\ snd (map_addChecked m x) = negb (P x).
Proof.
  intros H V. destruct (split_high x V) as (K & L & E). destruct (half_add P x V) as (A & B). unfold map_addChecked.
  pose proof (den_add_checked (inner m (highBytes x)) (half P (highBytes x)) (lowBytes x) (mden_inner m P _ H K) L) as X.
  destruct (roaring_bitmap_add_checked (inner m (highBytes x)) (lowBytes x)) as [b c]. cbn [fst snd] in *. destruct X as (D & ->). split.
  - apply (mden_put m P); auto. eapply den_ext; [exact D|exact A].
  - f_equal. now apply half_at.
Qed.
Lemma add_checked32_eq m x : val32 x -> map_addChecked32 m x = map_addChecked m x.
Proof. intros V. destruct (low_split x V) as (E1 & E2 & _). unfold map_addChecked32, map_addChecked. now rewrite E1, E2. Qed.
Lemma mden_remove m P x : mden m P -> val64 x -> mden (map_remove m x) (zdel P x).
Proof.
  intros H V. destruct (split_high x V) as (K & L & E). destruct (half_del P x V) as (A & B). unfold map_remove. destruct (mfind m (highBytes x)) as [b|] eqn:F.
  - apply (mden_keep m P); auto. eapply den_ext; [|exact A]. apply den_remove; auto. eapply mden_found; eauto.
  - apply (mden_ext m P); auto. intros v Vv. unfold zdel. destruct (v =? x) eqn:X; [|now rewrite andb_true_r]. apply Z.eqb_eq in X. subst v. rewrite <- (half_at P x V), (mden_absent m P (highBytes x) (lowBytes x) H K F L). reflexivity.
Qed.
Lemma mfind0 m : mwf m -> match m with (0, b) :: _ => mfind m 0 = Some b | _ => mfind m 0 = None end.
Proof.
  intros (S & B). destruct m as [|[k b] t]; [reflexivity|]. assert (K : key32 k) by (apply B; left; reflexivity).
  apply msorted_cons in S as (A & _). destruct k as [|k|k]; [reflexivity| |unfold key32 in K; lia]. apply mfind_None. intros [I|I]; [discriminate|]. specialize (A _ I). lia.
Qed.
Lemma remove32_eq m x : mwf m -> val32 x -> map_remove32 m x = map_remove m x.
Proof. intros W V. destruct (low_split x V) as (E1 & E2 & _). unfold map_remove32, map_remove. rewrite E1, E2. pose proof (mfind0 m W) as F. destruct m as [|[[|k|k] b] t]; rewrite F; reflexivity. Qed.
Lemma mden_remove_checked m P x : mden m P -> val64 x -> mden (fst (map_removeChecked m x)) (zdel P x) /\ snd (map_removeChecked m x) = P x.
Proof.
  intros H V. destruct (split_high x V) as (K & L & E). destruct (half_del P x V) as (A & B). unfold map_removeChecked. destruct (mfind m (highBytes x)) as [b|] eqn:F.
  - destruct (mden_found m P _ b H F) as (_ & Db). pose proof (den_remove_checked b (half P (highBytes x)) (lowBytes x) Db L) as X. destruct (roaring_bitmap_remove_checked b (lowBytes x)) as [b' c]. cbn [fst snd] in *. destruct X as (D & X). rewrite (half_at P x V) in X. subst c.
    assert (D' : denotes b' (half (zdel P x) (highBytes x))) by (eapply den_ext; [exact D|exact A]).
    destruct (P x); cbn [fst snd]; split; auto; [apply (mden_keep m P)|apply (mden_put m P)]; auto.
  - cbn [fst snd]. split.
    + apply (mden_ext m P); auto. intros v Vv. unfold zdel. destruct (v =? x) eqn:X; [|now rewrite andb_true_r]. apply Z.eqb_eq in X. subst v. rewrite <- (half_at P x V), (mden_absent m P (highBytes x) (lowBytes x) H K F L). reflexivity.
    + rewrite <- (half_at P x V). symmetry. eapply mden_absent; eauto.
Qed.
Lemma remove_checked32_eq m x : mwf m -> val32 x -> map_removeChecked32 m x = map_removeChecked m x.
Proof. intros W V. destruct (low_split x V) as (E1 & E2 & _). unfold map_removeChecked32, map_removeChecked. rewrite E1, E2. pose proof (mfind0 m W) as F. destruct m as [|[[|k|k] b] t]; rewrite F; reflexivity. Qed.
Lemma mden_addMany32 m P vals : mden m P -> (forall v, In v vals -> val32 v) -> mden (map_addMany32 m vals) (zunion P (zlist vals)).
Proof.
  intros H V. assert (K : key32 0) by (unfold key32; lia). apply (mden_put m P); auto.
  - eapply den_ext; [apply (den_add_many _ (half P 0)); [now apply mden_inner|exact V]|]. intros v Vv. unfold half, zunion. replace (0 * 2^32 + v) with v by lia. reflexivity.
  - intros h KH N v Vv. unfold half, zunion. replace (zlist vals (h * 2^32 + v)) with false; [now rewrite orb_false_r|]. symmetry. rewrite <- zmem_zlist. destruct (zmem (h * 2^32 + v) vals) eqn:X; auto. apply zmem_In in X. specialize (V _ X). unfold val32, key32 in *. lia.
Qed.

Lemma mput_mput m k b c : msorted m -> mput (mput m k b) k c = mput m k c.
Proof.
  induction m as [|[h d] t IH]; intros S; cbn [mput]. { rewrite Z.ltb_irrefl, Z.eqb_refl. reflexivity. }
  apply msorted_cons in S as (A & S). destruct (k <? h) eqn:E; cbn [mput]. { rewrite Z.ltb_irrefl, Z.eqb_refl. reflexivity. }
  destruct (k =? h) eqn:E2; cbn [mput]. { rewrite Z.ltb_irrefl, Z.eqb_refl. reflexivity. }
  rewrite E, E2, IH by auto. reflexivity.
Qed.
Lemma add_many_fold vals : forall m P last ctx, mden m P -> (forall v, In v vals -> val64 v) -> (forall k, last = Some k -> key32 k /\ ctx_ok (inner m k) ctx) ->
  add_many_loop m last ctx vals = fold_left map_add vals m.
Proof.
  induction vals as [|v vs IH]; intros m P last ctx H V C; [reflexivity|]. cbn [add_many_loop fold_left].
  assert (Vv : val64 v) by (apply V; now left). destruct (split_high v Vv) as (K & L & _). set (h := highBytes v) in *.
  pose proof (mden_sorted m P H) as S. pose proof (den_bok _ _ (mden_inner m P h H K)) as B.
  set (fresh := match last with None => true | Some k => negb (h =? k) end).
  assert (C' : ctx_ok (inner m h) (if fresh then None else ctx)).
  { unfold fresh. destruct last as [k|]; [|exact Logic.I]. destruct (h =? k) eqn:E; [|exact Logic.I]. apply Z.eqb_eq in E. rewrite E. now apply C. }
  assert (I : inner (if fresh then mput m h (inner m h) else m) h = inner m h) by (destruct fresh; auto; rewrite inner_mput, Z.eqb_refl by auto; auto).
  rewrite I. clearbody fresh. set (cx := if fresh then None else ctx) in *.
  assert (G : forall c1 : bulk_context, ctx_ok (inner m h) c1 -> (let '(b, ctx0) := roaring_bitmap_add_bulk (inner m h) c1 (lowBytes v) in add_many_loop (mput (if fresh then mput m h (inner m h) else m) h b) (Some h) ctx0 vs) = fold_left map_add vs (map_add m v)).
  { clear cx C'. intros c1 C1. destruct (add_bulk_spec (inner m h) c1 (lowBytes v) B C1 L) as (A1 & A2). unfold roaring_bitmap_add_bulk.
    destruct (add_bulk_impl (inner m h) c1 (lowBytes v)) as [b ctx'] eqn:E. cbn [fst snd] in A1, A2. subst b.
    assert (M : mput (if fresh then mput m h (inner m h) else m) h (roaring_bitmap_add (inner m h) (lowBytes v)) = map_add m v) by (destruct fresh; [rewrite mput_mput by auto|]; reflexivity).
    rewrite M. apply (IH _ (zadd P v)); [now apply mden_add|intros w W; apply V; now right|].
    intros k X. injection X as <-. split; auto. unfold map_add. fold h. rewrite inner_mput, Z.eqb_refl by auto. exact A2. }
  exact (G cx C').
Qed.
Lemma mden_fold_add vals : forall m P, mden m P -> (forall v, In v vals -> val64 v) -> mden (fold_left map_add vals m) (zunion P (zlist vals)).
Proof.
  induction vals as [|v vs IH]; intros m P H V; cbn [fold_left].
  - apply (mden_ext m P); auto. intros w W. unfold zunion, zlist. cbn. now rewrite orb_false_r.
  - eapply mden_ext; [apply (IH _ (zadd P v)); [apply mden_add; auto; apply V; now left|intros w W; apply V; now right]|]. intros w W. unfold zunion, zlist, zadd. cbn [existsb]. destruct (P w), (w =? v), (existsb (Z.eqb w) vs); reflexivity.
Qed.
Lemma mden_addMany m P vals : mden m P -> (forall v, In v vals -> val64 v) -> mden (map_addMany m vals) (zunion P (zlist vals)).
Proof. intros H V. unfold map_addMany. rewrite (add_many_fold vals m P) by (auto; discriminate). now apply mden_fold_add. Qed.

(** ** Ranges *)
Lemma populate_spec n : forall m slot, mwf m -> 0 <= slot -> slot + Z.of_nat n <= 2^32 -> let m' := populate_loop n m (mlower m slot) slot in
  mwf m' /\ forall h, mfind m' h = match mfind m h with Some b => Some b | None => if (slot <=? h) && (h <? slot + Z.of_nat n) then Some [] else None end.
Proof.
  induction n as [|n IH]; intros m slot W L U; cbn [populate_loop]; cbv zeta.
  { split; auto. intros h. replace ((slot <=? h) && (h <? slot + Z.of_nat 0)) with false by lia. destruct (mfind m h); reflexivity. }
  pose proof (proj1 W) as S. destruct (mfind m slot) as [b|] eqn:F.
  - assert (X : mlower m slot = Some slot) by (apply mlower_self; auto; unfold mhas; now rewrite F). rewrite X. unfold same_iter. rewrite Z.eqb_refl.
    destruct (IH m (slot + 1) W ltac:(lia) ltac:(lia)) as (W' & Q). split; [exact W'|]. intros h. unfold mnext. rewrite Q. destruct (mfind m h) eqn:Fh; [reflexivity|]. destruct (Z.eq_dec h slot); [congruence|]. replace (slot + 1 <=? h) with (slot <=? h) by lia. replace (slot + 1 + Z.of_nat n) with (slot + Z.of_nat (Datatypes.S n)) by lia. reflexivity.
  - assert (X : same_iter (mlower m slot) (Some slot) = false).
    { destruct (mlower m slot) as [j|] eqn:E; [|reflexivity]. unfold same_iter. destruct (j =? slot) eqn:E2; auto. apply Z.eqb_eq in E2. subst j. apply mlower_Some in E as (E & _); auto. unfold mhas in E. rewrite F in E. discriminate. }
    rewrite X. assert (M : memplace m slot [] = mput m slot []) by (unfold memplace; now rewrite F). rewrite M.
    assert (Y : mlower m slot = mlower (mput m slot []) (slot + 1)).
    { rewrite mlower_skip by (auto; unfold mhas; now rewrite F). apply mlower_ext; auto using mput_sorted. intros i I. rewrite mhas_mput by auto. replace (i =? slot) with false by lia. reflexivity. }
    rewrite Y. destruct (IH (mput m slot []) (slot + 1)) as (W' & Q); [apply mwf_mput; auto; unfold key32; lia|lia|lia|]. split; [exact W'|]. intros h. rewrite Q, mfind_mput by auto. destruct (h =? slot) eqn:E.
    + apply Z.eqb_eq in E. subst h. rewrite F. replace ((slot <=? slot) && (slot <? slot + Z.of_nat (Datatypes.S n))) with true by lia. reflexivity.
    + destruct (mfind m h); [reflexivity|]. replace (slot + 1 <=? h) with (slot <=? h) by lia. replace (slot + 1 + Z.of_nat n) with (slot + Z.of_nat (Datatypes.S n)) by lia. reflexivity.
Qed.
Lemma ensure_spec m P a b : mden m P -> key32 a -> key32 b -> a <= b -> let m' := ensureRangePopulated m a b in
  mden m' P /\ forall h, a <= h <= b -> mhas m' h = true.
Proof.
  intros (W & D) A B L. unfold key32 in *. destruct (populate_spec (Z.to_nat (b - a + 1)) m a W ltac:(lia) ltac:(lia)) as (W' & Q). unfold ensureRangePopulated. cbv zeta in *. rewrite Z2Nat.id in Q by lia. split.
  - split; auto. intros h K. unfold inner. rewrite Q. specialize (D h K). unfold inner in D. destruct (mfind m h); auto. destruct ((a <=? h) && (h <? a + (b - a + 1))); auto.
  - intros h H. unfold mhas. rewrite Q. replace ((a <=? h) && (h <? a + (b - a + 1))) with true by lia. destruct (mfind m h); reflexivity.
Qed.
Lemma next_present m k : msorted m -> mhas m (k + 1) = true -> mnext m k = Some (k + 1).
Proof. intros S F. unfold mnext. now apply mlower_self. Qed.
Lemma found m k : mhas m k = true -> exists b, mfind m k = Some b. Proof. unfold mhas. destruct (mfind m k); [eauto|discriminate]. Qed.
Definition above (a : Z) : zset := fun v => a <=? v.
Lemma half_ival a b h v : val64 a -> val64 b -> key32 h -> val32 v ->
  half (zival a (b + 1)) h v =
  if (h <? highBytes a) || (highBytes b <? h) then false
  else ((if h =? highBytes a then lowBytes a <=? v else true) && (if h =? highBytes b then v <=? lowBytes b else true)).
Proof.
  intros A B K V. destruct (split_high a A) as (Ka & La & Ea). destruct (split_high b B) as (Kb & Lb & Eb). unfold half, zival. unfold key32, val32 in *.
  destruct (Z.lt_trichotomy h (highBytes a)) as [X|[X|X]].
  - replace (h <? highBytes a) with true by lia. cbn [orb]. lia.
  - replace (h <? highBytes a) with false by lia. replace (h =? highBytes a) with true by lia. cbn [orb]. destruct (Z.lt_trichotomy h (highBytes b)) as [Y|[Y|Y]].
    + replace (highBytes b <? h) with false by lia. replace (h =? highBytes b) with false by lia. lia.
    + replace (highBytes b <? h) with false by lia. replace (h =? highBytes b) with true by lia. lia.
    + replace (highBytes b <? h) with true by lia. lia.
  - replace (h <? highBytes a) with false by lia. replace (h =? highBytes a) with false by lia. cbn [orb]. destruct (Z.lt_trichotomy h (highBytes b)) as [Y|[Y|Y]].
    + replace (highBytes b <? h) with false by lia. replace (h =? highBytes b) with false by lia. lia.
    + replace (highBytes b <? h) with false by lia. replace (h =? highBytes b) with true by lia. lia.
    + replace (highBytes b <? h) with true by lia. lia.
Qed.
Lemma val32_max : val32 uint32_max. Proof. unfold val32, uint32_max. lia. Qed.
Lemma val32_0 : val32 0. Proof. unfold val32. lia. Qed.
Lemma copy_loop_spec b n : forall m k, mwf m -> key32 k -> (forall i, k <= i <= k + Z.of_nat n -> mhas m i = true) ->
  exists m', copy_loop n m (Some k) b = Some (m', Some (k + Z.of_nat n)) /\ mwf m' /\ (forall h, mhas m' h = mhas m h) /\
  forall h, inner m' h = if (k <=? h) && (h <? k + Z.of_nat n) then b else inner m h.
Proof.
  induction n as [|n IH]; intros m k W K A; cbn [copy_loop].
  { exists m. replace (k + Z.of_nat 0) with k by lia. split; auto. split; auto. split; auto. intros h. replace ((k <=? h) && (h <? k)) with false by lia. reflexivity. }
  destruct (found m k (A k ltac:(lia))) as (c & ->). pose proof (proj1 W) as S.
  assert (W1 : mwf (mput m k b)) by (apply mwf_mput; auto).
  assert (H1 : forall h, mhas (mput m k b) h = mhas m h). { intros h. rewrite mhas_mput by auto. destruct (h =? k) eqn:E; [|reflexivity]. apply Z.eqb_eq in E. subst. now rewrite (A k ltac:(lia)). }
  rewrite next_present by (try apply W1; rewrite H1; apply A; lia).
  assert (K1 : key32 (k + 1)) by (apply (proj2 W), mhas_In, A; lia).
  destruct (IH (mput m k b) (k + 1) W1 K1) as (m' & E & W' & H' & I'). { intros i I. rewrite H1. apply A. lia. }
  exists m'. replace (k + Z.of_nat (Datatypes.S n)) with (k + 1 + Z.of_nat n) by lia. split; auto. split; auto. split; [intros h; now rewrite H', H1|]. intros h. rewrite I', inner_mput by auto.
  destruct (h =? k) eqn:E2; [apply Z.eqb_eq in E2; subst h|]; [|replace (k + 1 <=? h) with (k <=? h) by lia; reflexivity].
  replace ((k + 1 <=? k) && (k <? k + 1 + Z.of_nat n)) with false by lia. replace ((k <=? k) && (k <? k + 1 + Z.of_nat n)) with true by lia. reflexivity.
Qed.
Lemma mden_add_range m P a b : mden m P -> val64 a -> val64 b -> exists m', map_addRangeClosed m a b = Some m' /\ mden m' (zunion P (zival a (b + 1))).
Proof.
  intros H A B. unfold map_addRangeClosed. destruct (b <? a) eqn:LE.
  { exists m. split; auto. apply (mden_ext m P); auto. intros v V. unfold zunion, zival. replace ((a <=? v) && (v <? b + 1)) with false by lia. now rewrite orb_false_r. }
  destruct (split_high a A) as (Ka & La & Ea). destruct (split_high b B) as (Kb & Lb & Eb).
  assert (LH : highBytes a <= highBytes b) by (unfold highBytes; apply Z.div_le_mono; lia).
  destruct (ensure_spec m P _ _ H Ka Kb LH) as (H1 & A1). set (m1 := ensureRangePopulated m (highBytes a) (highBytes b)) in *.
  assert (HV : forall h v, key32 h -> val32 v -> half (zunion P (zival a (b + 1))) h v = half P h v || half (zival a (b + 1)) h v) by reflexivity.
  destruct (found m1 (highBytes a) (A1 (highBytes a) ltac:(lia))) as (c & F). rewrite F. destruct (mden_found m1 P _ c H1 F) as (_ & Dc).
  destruct (highBytes a =? highBytes b) eqn:EH.
  { apply Z.eqb_eq in EH. eexists. split; [reflexivity|]. apply (mden_put m1 P); auto.
    - eapply den_ext; [apply (den_add_range_closed _ _ _ _ Dc La Lb)|]. intros v V. rewrite HV by auto. rewrite half_ival by auto. rewrite <- EH, Z.eqb_refl, Z.ltb_irrefl. cbn [orb]. unfold zunion, zival. f_equal. lia.
    - intros h K N v V. rewrite HV, half_ival by auto. replace ((h <? highBytes a) || (highBytes b <? h)) with true by lia. now rewrite orb_false_r. }
  apply Z.eqb_neq in EH.
  set (m2 := mput m1 (highBytes a) (roaring_bitmap_add_range_closed c (lowBytes a) uint32_max)).
  pose proof (mden_sorted _ _ H1) as S1. assert (W2 : mwf m2) by (apply mwf_mput; auto; apply H1).
  assert (A2 : forall h, highBytes a <= h <= highBytes b -> mhas m2 h = true). { intros h HH. unfold m2. rewrite mhas_mput by auto. rewrite (A1 h HH). apply orb_true_r. }
  assert (I2 : forall h, inner m2 h = if h =? highBytes a then roaring_bitmap_add_range_closed c (lowBytes a) uint32_max else inner m1 h) by (intros h; unfold m2; now rewrite inner_mput).
  rewrite (next_present m2) by (try apply W2; apply A2; lia).
  (* the bitmaps in between *)
  set (X := if highBytes b - highBytes a - 1 =? 0 then _ else _).
  assert (MID : exists m3, X = Some (m3, Some (highBytes b)) /\ mwf m3 /\ mhas m3 (highBytes b) = true /\ (inner m3 (highBytes b) = inner m2 (highBytes b)) /\ (forall h, (h <= highBytes a \/ highBytes b < h) -> inner m3 h = inner m2 h) /\
    forall h, highBytes a < h < highBytes b -> denotes (inner m3 h) (fun _ => true)).
  { unfold X. destruct (highBytes b - highBytes a - 1 =? 0) eqn:E.
    - apply Z.eqb_eq in E. exists m2. replace (highBytes a + 1) with (highBytes b) by lia. split; auto. split; auto. split; [apply A2; lia|]. split; auto. split; auto. intros h HH. lia.
    - apply Z.eqb_neq in E. assert (K1 : key32 (highBytes a + 1)) by (unfold key32 in *; lia).
      destruct (found m2 (highBytes a + 1) (A2 (highBytes a + 1) ltac:(lia))) as (d & F2). rewrite F2.
      assert (Dd : denotes d (half P (highBytes a + 1))). { replace d with (inner m1 (highBytes a + 1)); [now apply mden_inner|]. transitivity (inner m2 (highBytes a + 1)); [rewrite I2; replace (highBytes a + 1 =? highBytes a) with false by lia; reflexivity|]. unfold inner. now rewrite F2. }
      set (full := roaring_bitmap_add_range_closed d 0 uint32_max).
      assert (Df : denotes full (fun _ => true)). { eapply den_ext; [apply (den_add_range_closed _ _ _ _ Dd val32_0 val32_max)|]. intros v V. unfold zunion, zival, uint32_max. unfold val32 in V. replace ((0 <=? v) && (v <? 2^32 - 1 + 1)) with true by lia. apply orb_true_r. }
      set (m2' := mput m2 (highBytes a + 1) full). assert (W2' : mwf m2') by (apply mwf_mput; auto).
      assert (A2' : forall h, highBytes a <= h <= highBytes b -> mhas m2' h = true). { intros h HH. unfold m2'. rewrite mhas_mput by apply W2. rewrite (A2 h HH). apply orb_true_r. }
      rewrite (next_present m2') by (try apply W2'; apply A2'; lia).
      destruct (copy_loop_spec full (Z.to_nat (highBytes b - highBytes a - 1 - 1)) m2' (highBytes a + 1 + 1) W2') as (m3 & E3 & W3 & H3 & I3).
      { apply (proj2 W2'), mhas_In, A2'. lia. } { intros i I. rewrite Z2Nat.id in I by lia. apply A2'. lia. }
      rewrite Z2Nat.id in E3, I3 by lia. exists m3. rewrite E3. replace (highBytes a + 1 + 1 + (highBytes b - highBytes a - 1 - 1)) with (highBytes b) in * by lia. split; auto. split; auto. split; [rewrite H3; apply A2'; lia|].
      assert (I4 : forall h, inner m3 h = if (highBytes a + 1 <=? h) && (h <? highBytes b) then full else inner m2 h).
      { intros h. rewrite I3. unfold m2'. rewrite inner_mput by apply W2. destruct (h =? highBytes a + 1) eqn:E5.
        - replace ((highBytes a + 1 <=? h) && (h <? highBytes b)) with true by lia. destruct ((highBytes a + 1 + 1 <=? h) && (h <? highBytes b)); reflexivity.
        - replace (highBytes a + 1 + 1 <=? h) with (highBytes a + 1 <=? h) by lia. reflexivity. }
      split; [rewrite I4; replace ((highBytes a + 1 <=? highBytes b) && (highBytes b <? highBytes b)) with false by lia; reflexivity|].
      split; intros h HH; rewrite I4; [replace ((highBytes a + 1 <=? h) && (h <? highBytes b)) with false by lia; reflexivity|replace ((highBytes a + 1 <=? h) && (h <? highBytes b)) with true by lia; exact Df]. }
  destruct MID as (m3 & -> & W3 & H3 & IB & IO & IM). destruct (found m3 _ H3) as (e & F3). rewrite F3. eexists. split; [reflexivity|].
  split; [apply mwf_mput; auto|]. intros h K. rewrite inner_mput by apply W3.
  assert (IE : e = inner m1 (highBytes b)). { transitivity (inner m3 (highBytes b)); [unfold inner; now rewrite F3|]. rewrite IB, I2. replace (highBytes b =? highBytes a) with false by lia. reflexivity. }
  destruct (h =? highBytes b) eqn:E1.
  { apply Z.eqb_eq in E1. subst h. rewrite IE. eapply den_ext; [apply (den_add_range_closed _ (half P (highBytes b)) _ _ (mden_inner _ _ _ H1 Kb) val32_0 Lb)|]. intros v V. rewrite HV, half_ival by auto. rewrite Z.eqb_refl. replace ((highBytes b <? highBytes a) || (highBytes b <? highBytes b)) with false by lia. replace (highBytes b =? highBytes a) with false by lia. unfold zunion, zival. unfold val32 in V. f_equal. lia. }
  destruct (h =? highBytes a) eqn:E2.
  { apply Z.eqb_eq in E2. subst h. rewrite IO by lia. rewrite I2, Z.eqb_refl. eapply den_ext; [apply (den_add_range_closed _ _ _ _ Dc La val32_max)|]. intros v V. rewrite HV, half_ival by auto. rewrite Z.eqb_refl, E1. replace ((highBytes a <? highBytes a) || (highBytes b <? highBytes a)) with false by lia. unfold zunion, zival, uint32_max. unfold val32 in V. f_equal. lia. }
  assert (OUT : h < highBytes a \/ highBytes b < h \/ highBytes a < h < highBytes b) by lia. destruct OUT as [O|[O|O]].
  - rewrite IO, I2, E2 by lia. eapply den_ext; [now apply (mden_inner m1 P)|]. intros v V. rewrite HV, half_ival by auto. replace (h <? highBytes a) with true by lia. cbn [orb]. now rewrite orb_false_r.
  - rewrite IO, I2, E2 by lia. eapply den_ext; [now apply (mden_inner m1 P)|]. intros v V. rewrite HV, half_ival by auto. replace ((h <? highBytes a) || (highBytes b <? h)) with true by lia. now rewrite orb_false_r.
  - eapply den_ext; [exact (IM h O)|]. intros v V. rewrite HV, half_ival by auto. replace ((h <? highBytes a) || (highBytes b <? h)) with false by lia. rewrite E1, E2. now rewrite orb_true_r.
Qed.
Lemma mden_add_range32 m P a b : mden m P -> val32 a -> val32 b -> mden (map_addRangeClosed32 m a b) (zunion P (zival a (b + 1))).
Proof.
  intros H A B. assert (K0 : key32 0) by (unfold key32; lia). apply (mden_put m P); auto.
  - eapply den_ext; [apply (den_add_range_closed _ (half P 0) _ _ (mden_inner _ _ _ H K0) A B)|]. intros v V. unfold half, zunion, zival. replace (0 * 2^32 + v) with v by lia. reflexivity.
  - intros h K N v V. unfold half, zunion, zival. unfold key32, val32 in *. replace ((a <=? h * 2^32 + v) && (h * 2^32 + v <? b + 1)) with false by lia. now rewrite orb_false_r.
Qed.
Lemma mden_addRange m P a b : mden m P -> val64 a -> val64 b -> exists m', map_addRange m a b = Some m' /\ mden m' (zunion P (zival a b)).
Proof.
  intros H A B. unfold map_addRange. destruct (b <=? a) eqn:E.
  - exists m. split; auto. apply (mden_ext m P); auto. intros v V. unfold zunion, zival. replace ((a <=? v) && (v <? b)) with false by lia. now rewrite orb_false_r.
  - destruct (mden_add_range m P a (b - 1) H A) as (m' & E2 & D); [unfold val64 in *; lia|]. exists m'. split; auto. now replace (b - 1 + 1) with b in D by lia.
Qed.
(** flips *)
Lemma flip_loop_spec cap n : forall m k, mwf m -> key32 k -> (forall i, k <= i <= k + Z.of_nat n -> mhas m i = true) ->
  exists m', flip_loop n cap m (Some k) = Some (m', Some (k + Z.of_nat n)) /\ mwf m' /\ (forall h, k + Z.of_nat n <= h -> mhas m' h = mhas m h) /\
  forall h, inner m' h = if (k <=? h) && (h <? k + Z.of_nat n) then roaring_bitmap_flip_inplace_closed cap (inner m h) 0 uint32_max else inner m h.
Proof.
  induction n as [|n IH]; intros m k W K A; cbn [flip_loop].
  { exists m. replace (k + Z.of_nat 0) with k by lia. split; auto. split; auto. split; auto. intros h. replace ((k <=? h) && (h <? k)) with false by lia. reflexivity. }
  destruct (found m k (A k ltac:(lia))) as (c & F). rewrite F. pose proof (proj1 W) as S. set (c' := roaring_bitmap_flip_inplace_closed cap c 0 uint32_max).
  assert (W1 : mwf (mkeep m k c')) by (apply mwf_mkeep; auto).
  rewrite next_present by (auto; apply A; lia).
  assert (K1 : key32 (k + 1)) by (apply (proj2 W), mhas_In, A; lia).
  destruct (IH (mkeep m k c') (k + 1) W1 K1) as (m' & E & W' & H' & I'). { intros i I. rewrite mhas_mkeep_other by (auto; lia). apply A. lia. }
  exists m'. replace (k + Z.of_nat (Datatypes.S n)) with (k + 1 + Z.of_nat n) by lia. split; auto. split; auto. split; [intros h L; rewrite H' by auto; apply mhas_mkeep_other; auto; lia|]. intros h. rewrite I', inner_mkeep by auto.
  destruct (h =? k) eqn:E2; [apply Z.eqb_eq in E2; subst h|]; [|replace (k + 1 <=? h) with (k <=? h) by lia; reflexivity].
  replace ((k + 1 <=? k) && (k <? k + 1 + Z.of_nat n)) with false by lia. replace ((k <=? k) && (k <? k + 1 + Z.of_nat n)) with true by lia. unfold c', inner. now rewrite F.
Qed.
Lemma mden_flip_closed cap m P a b : mden m P -> val64 a -> val64 b -> exists m', map_flipClosed cap m a b = Some m' /\ mden m' (zsymm P (zival a (b + 1))).
Proof.
  intros H A B. unfold map_flipClosed. destruct (b <? a) eqn:LE.
  { exists m. split; auto. apply (mden_ext m P); auto. intros v V. unfold zsymm, zival. replace ((a <=? v) && (v <? b + 1)) with false by lia. now rewrite xorb_false_r. }
  destruct (split_high a A) as (Ka & La & Ea). destruct (split_high b B) as (Kb & Lb & Eb).
  assert (LH : highBytes a <= highBytes b) by (unfold highBytes; apply Z.div_le_mono; lia).
  destruct (ensure_spec m P _ _ H Ka Kb LH) as (H1 & A1). set (m1 := ensureRangePopulated m (highBytes a) (highBytes b)) in *.
  assert (HV : forall h v, key32 h -> val32 v -> half (zsymm P (zival a (b + 1))) h v = xorb (half P h v) (half (zival a (b + 1)) h v)) by reflexivity.
  destruct (found m1 (highBytes a) (A1 (highBytes a) ltac:(lia))) as (c & F). rewrite F. destruct (mden_found m1 P _ c H1 F) as (_ & Dc).
  destruct (highBytes a =? highBytes b) eqn:EH.
  { apply Z.eqb_eq in EH. eexists. split; [reflexivity|]. apply (mden_keep m1 P); auto.
    - eapply den_ext; [apply (den_flip_inplace_closed cap _ _ _ _ Dc La Lb)|]. intros v V. rewrite HV by auto. rewrite half_ival by auto. rewrite <- EH, Z.eqb_refl, Z.ltb_irrefl. cbn [orb]. unfold zsymm, zival. f_equal. lia.
    - intros h K N v V. rewrite HV, half_ival by auto. replace ((h <? highBytes a) || (highBytes b <? h)) with true by lia. now rewrite xorb_false_r. }
  apply Z.eqb_neq in EH. pose proof (mden_sorted _ _ H1) as S1.
  set (m2 := mkeep m1 (highBytes a) (roaring_bitmap_flip_inplace_closed cap c (lowBytes a) uint32_max)).
  assert (W2 : mwf m2) by (apply mwf_mkeep; auto; apply H1).
  assert (A2 : forall h, highBytes a < h <= highBytes b -> mhas m2 h = true). { intros h HH. unfold m2. rewrite mhas_mkeep_other by (auto; lia). apply A1. lia. }
  assert (I2 : forall h, inner m2 h = if h =? highBytes a then roaring_bitmap_flip_inplace_closed cap c (lowBytes a) uint32_max else inner m1 h) by (intros h; unfold m2; now rewrite inner_mkeep).
  rewrite (next_present m1) by (auto; apply A1; lia).
  assert (K1 : key32 (highBytes a + 1)) by (unfold key32 in *; lia).
  destruct (flip_loop_spec cap (Z.to_nat (highBytes b - highBytes a - 1)) m2 (highBytes a + 1) W2 K1) as (m3 & E3 & W3 & H3 & I3). { intros i I. rewrite Z2Nat.id in I by lia. apply A2. lia. }
  rewrite Z2Nat.id in E3, H3, I3 by lia. replace (highBytes a + 1 + (highBytes b - highBytes a - 1)) with (highBytes b) in * by lia. rewrite E3.
  destruct (found m3 (highBytes b)) as (e & F3). { rewrite H3 by lia. apply A2. lia. } rewrite F3. eexists. split; [reflexivity|].
  split; [apply mwf_mkeep; auto|]. intros h K. rewrite inner_mkeep by apply W3.
  assert (IE : e = inner m1 (highBytes b)). { transitivity (inner m3 (highBytes b)); [unfold inner; now rewrite F3|]. rewrite I3. replace ((highBytes a + 1 <=? highBytes b) && (highBytes b <? highBytes b)) with false by lia. rewrite I2. replace (highBytes b =? highBytes a) with false by lia. reflexivity. }
  destruct (h =? highBytes b) eqn:E1.
  { apply Z.eqb_eq in E1. subst h. rewrite IE. eapply den_ext; [apply (den_flip_inplace_closed cap _ (half P (highBytes b)) _ _ (mden_inner _ _ _ H1 Kb) val32_0 Lb)|]. intros v V. rewrite HV, half_ival by auto. rewrite Z.eqb_refl. replace ((highBytes b <? highBytes a) || (highBytes b <? highBytes b)) with false by lia. replace (highBytes b =? highBytes a) with false by lia. unfold zsymm, zival. unfold val32 in V. f_equal. lia. }
  rewrite I3, I2. destruct (h =? highBytes a) eqn:E2.
  { apply Z.eqb_eq in E2. subst h. replace ((highBytes a + 1 <=? highBytes a) && (highBytes a <? highBytes b)) with false by lia. eapply den_ext; [apply (den_flip_inplace_closed cap _ _ _ _ Dc La val32_max)|]. intros v V. rewrite HV, half_ival by auto. rewrite Z.eqb_refl, E1. replace ((highBytes a <? highBytes a) || (highBytes b <? highBytes a)) with false by lia. unfold zsymm, zival, uint32_max. unfold val32 in V. f_equal. lia. }
  assert (OUT : h < highBytes a \/ highBytes b < h \/ highBytes a < h < highBytes b) by lia. destruct OUT as [O|[O|O]].
  - replace ((highBytes a + 1 <=? h) && (h <? highBytes b)) with false by lia. eapply den_ext; [now apply (mden_inner m1 P)|]. intros v V. rewrite HV, half_ival by auto. replace (h <? highBytes a) with true by lia. cbn [orb]. now rewrite xorb_false_r.
  - replace ((highBytes a + 1 <=? h) && (h <? highBytes b)) with false by lia. eapply den_ext; [now apply (mden_inner m1 P)|]. intros v V. rewrite HV, half_ival by auto. replace ((h <? highBytes a) || (highBytes b <? h)) with true by lia. now rewrite xorb_false_r.
  - replace ((highBytes a + 1 <=? h) && (h <? highBytes b)) with true by lia. eapply den_ext; [apply (den_flip_inplace_closed cap _ (half P h) _ _ (mden_inner m1 P h H1 K) val32_0 val32_max)|]. intros v V. rewrite HV, half_ival by auto. replace ((h <? highBytes a) || (highBytes b <? h)) with false by lia. rewrite E1, E2. unfold zsymm, zival, uint32_max. unfold val32 in V. f_equal. lia.
Qed.
Lemma mden_flip cap m P a b : mden m P -> val64 a -> val64 b -> exists m', map_flip cap m a b = Some m' /\ mden m' (zsymm P (zival a b)).
Proof.
  intros H A B. unfold map_flip. destruct (b <=? a) eqn:E.
  - exists m. split; auto. apply (mden_ext m P); auto. intros v V. unfold zsymm, zival. replace ((a <=? v) && (v <? b)) with false by lia. now rewrite xorb_false_r.
  - destruct (mden_flip_closed cap m P a (b - 1) H A) as (m' & E2 & D); [unfold val64 in *; lia|]. exists m'. split; auto. now replace (b - 1 + 1) with b in D by lia.
Qed.
Lemma mden_flip32 cap m P a b : mden m P -> val32 a -> val32 b -> mden (map_flipClosed32 cap m a b) (zsymm P (zival a (b + 1))).
Proof.
  intros H A B. assert (K0 : key32 0) by (unfold key32; lia). unfold map_flipClosed32.
  set (m1 := match m with (0, _) :: _ => m | _ => memplace m 0 [] end).
  assert (H1 : mden m1 P).
  { assert (X : m1 = m \/ (m1 = mput m 0 [] /\ mfind m 0 = None)).
    { unfold m1. pose proof (mfind0 m (proj1 H)) as F. destruct m as [|[[|k|k] b0] t]; auto; right; unfold memplace; rewrite F; auto. }
    destruct X as [->|(-> & F)]; auto. apply (mden_put m P); auto; [|intros h K N v V; reflexivity]. pose proof (mden_inner m P 0 H K0) as D. unfold inner in D. now rewrite F in D. }
  apply (mden_keep m1 P); auto.
  - eapply den_ext; [apply (den_flip_inplace_closed cap _ (half P 0) _ _ (mden_inner _ _ _ H1 K0) A B)|]. intros v V. unfold half, zsymm, zival. replace (0 * 2^32 + v) with v by lia. reflexivity.
  - intros h K N v V. unfold half, zsymm, zival. unfold key32, val32 in *. replace ((a <=? h * 2^32 + v) && (h * 2^32 + v <? b + 1)) with false by lia. now rewrite xorb_false_r.
Qed.
(** removal *)
Lemma mbegin_spec m k : mwf m -> mbegin m = Some k -> mhas m k = true /\ forall j, mhas m j = true -> k <= j.
Proof.
  intros (S & _) E. destruct m as [|[h b] t]; [discriminate|]. cbn in E. injection E as <-. split. { unfold mhas. cbn [mfind]. now rewrite Z.eqb_refl. }
  intros j J. apply mhas_In in J as [J|J]; [cbn in J; lia|]. apply msorted_cons in S as (A & _). specialize (A j J). lia.
Qed.
Lemma mlast_spec m k : mwf m -> mlast m = Some k -> mhas m k = true /\ forall j, mhas m j = true -> j <= k.
Proof.
  intros (S & _) E. unfold mlast in E. destruct (rev m) as [|[h b] t] eqn:R; [discriminate|]. cbn in E. injection E as <-.
  assert (M : m = rev t ++ [(h, b)]) by (rewrite <- (rev_involutive m), R; reflexivity). unfold msorted, mkeys in S. rewrite M, map_app in S. apply incr_app in S as (_ & _ & C). split.
  - apply mhas_In. rewrite M. unfold mkeys. rewrite map_app, in_app_iff. right. left. reflexivity.
  - intros j J. apply mhas_In in J. rewrite M in J. unfold mkeys in J. rewrite map_app, in_app_iff in J. destruct J as [J|[J|[]]]; [|cbn in J; lia]. specialize (C j h J (or_introl eq_refl)). lia.
Qed.
Lemma mlast_none m : mlast m = None -> m = [].
Proof. unfold mlast. destruct (rev m) eqn:R; [|discriminate]. intros _. rewrite <- (rev_involutive m), R. reflexivity. Qed.
Lemma erase_between m m' a b h : msorted m -> msorted m' -> (forall i, a <= i -> mhas m i = mhas m' i) -> a <= b ->
  mfind (merase_range m' (mlower m a) (mlower m b)) h = if (a <=? h) && (h <? b) then None else mfind m' h.
Proof.
  intros S S' E L. rewrite (mlower_ext m m' a S S' E). rewrite (mlower_ext m m' b S S') by (intros; apply E; lia). clear m S E. unfold merase_range.
  destruct (mlower m' a) as [x|] eqn:X.
  - destruct (mlower_Some m' a x S' X) as (Fx & Lx & Nx). rewrite mfind_filter by auto. cbn [fst].
    destruct (mfind m' h) as [c|] eqn:F; [|destruct ((a <=? h) && (h <? b)); reflexivity].
    assert (Hh : mhas m' h = true) by (unfold mhas; now rewrite F).
    assert (E1 : (x <=? h) = (a <=? h)). { destruct (Z_lt_dec h a); [lia|]. destruct (Z_lt_dec h x); [rewrite Nx in Hh by lia; discriminate|]. lia. }
    assert (E2 : (a <= h) -> match mlower m' b with Some y => h <? y | None => true end = (h <? b)).
    { intros La. destruct (mlower m' b) as [y|] eqn:Y.
      - destruct (mlower_Some m' b y S' Y) as (Fy & Ly & Ny). destruct (Z_lt_dec h b); [lia|]. destruct (Z_lt_dec h y); [rewrite Ny in Hh by lia; discriminate|]. lia.
      - destruct (Z_lt_dec h b); [lia|]. rewrite (mlower_None m' b h Y) in Hh by lia. discriminate. }
    rewrite E1. destruct (a <=? h) eqn:La; [|reflexivity]. rewrite E2 by lia. cbn [andb]. destruct (h <? b); reflexivity.
  - destruct ((a <=? h) && (h <? b)) eqn:R; [|reflexivity]. assert (Hh : mhas m' h = false) by (apply (mlower_None m' a); auto; lia). unfold mhas in Hh. destruct (mfind m' h); [discriminate|reflexivity].
Qed.
Lemma merase_range_wf m a b : mwf m -> mwf (merase_range m a b).
Proof. intros W. destruct a; [|exact W]. now apply mwf_filter. Qed.
Lemma remove_tail_spec m m1 P Q lo hb lb : msorted m -> mden m1 P -> (forall i, lo <= i -> mhas m i = mhas m1 i) -> lo <= hb -> key32 hb -> val32 lb ->
  (forall h v, key32 h -> val32 v -> h < lo \/ hb < h -> half Q h v = half P h v) -> (forall h v, key32 h -> val32 v -> lo <= h < hb -> half Q h v = false) ->
  (forall v, val32 v -> half Q hb v = half P hb v && (lb <? v)) ->
  exists m', remove_tail m1 (mlower m lo) (mlower m hb) hb lb = Some m' /\ mden m' Q.
Proof.
  intros S H E L Kb Lb O M B. pose proof (proj1 H) as W1. pose proof (proj1 W1) as S1. unfold remove_tail. set (m2 := merase_range m1 (mlower m lo) (mlower m hb)).
  assert (W2 : mwf m2) by (apply merase_range_wf; auto).
  assert (F2 : forall h, mfind m2 h = if (lo <=? h) && (h <? hb) then None else mfind m1 h) by (intros h; apply erase_between; auto).
  assert (I2 : forall h, inner m2 h = if (lo <=? h) && (h <? hb) then [] else inner m1 h) by (intros h; unfold inner; rewrite F2; destruct ((lo <=? h) && (h <? hb)); reflexivity).
  assert (D2 : forall h, key32 h -> h <> hb -> denotes (inner m2 h) (half Q h)).
  { intros h K N. rewrite I2. destruct ((lo <=? h) && (h <? hb)) eqn:R.
    - eapply den_ext; [exact den_new|]. intros v V. rewrite M by (auto; lia). reflexivity.
    - eapply den_ext; [apply (mden_inner m1 P); auto|]. intros v V. symmetry. apply O; auto. lia. }
  assert (EB : mhas m hb = mhas m1 hb) by (apply E; lia).
  assert (NO : mhas m hb = false -> mden m2 Q).
  { intros X. rewrite EB in X. split; auto. intros h K. destruct (Z.eq_dec h hb) as [->|N]; [|auto]. rewrite I2. replace ((lo <=? hb) && (hb <? hb)) with false by lia. unfold mhas in X. destruct (mfind m1 hb) eqn:F; [discriminate|].
    pose proof (mden_inner m1 P hb H Kb) as Di. eapply den_ext; [exact Di|]. intros v V. rewrite B by auto. now rewrite (mden_absent m1 P hb v H Kb F V). }
  destruct (mlower m hb) as [e|] eqn:EE.
  - destruct (mlower_Some m hb e S EE) as (Fe & Le & Ne). destruct (e =? hb) eqn:X.
    + apply Z.eqb_eq in X. subst e. rewrite F2. replace ((lo <=? hb) && (hb <? hb)) with false by lia. rewrite EB in Fe. destruct (found m1 hb Fe) as (c & Fc). rewrite Fc. eexists. split; [reflexivity|].
      split; [now apply mwf_mkeep|]. intros h K. rewrite inner_mkeep by apply W2. destruct (h =? hb) eqn:X; [apply Z.eqb_eq in X; subst h|apply D2; auto; lia].
      destruct (mden_found m1 P hb c H Fc) as (_ & Dc). eapply den_ext; [apply (den_remove_range_closed _ _ _ _ Dc val32_0 Lb)|]. intros v V. rewrite B by auto. unfold zdiff, zival. unfold val32 in V. f_equal. lia.
    + exists m2. split; auto. apply NO. apply Ne. lia.
  - exists m2. split; auto. apply NO. apply (mlower_None m hb); auto. lia.
Qed.
Lemma mden_remove_range m P a b : mden m P -> val64 a -> val64 b -> exists m', map_removeRangeClosed m a b = Some m' /\ mden m' (zdiff P (zival a (b + 1))).
Proof.
  intros H A B. unfold map_removeRangeClosed.
  assert (SAME : (forall v, val64 v -> a <= v <= b -> P v = false) -> mden m (zdiff P (zival a (b + 1)))).
  { intros N. apply (mden_ext m P); auto. intros v V. unfold zdiff, zival. destruct ((a <=? v) && (v <? b + 1)) eqn:E; [rewrite (N v V) by lia; reflexivity|now rewrite andb_true_r]. }
  destruct (b <? a) eqn:LE. { exists m. split; auto. apply SAME. intros v V X. lia. }
  destruct (split_high a A) as (Ka & La & Ea). destruct (split_high b B) as (Kb & Lb & Eb).
  assert (LH : highBytes a <= highBytes b) by (unfold highBytes; apply Z.div_le_mono; lia).
  assert (ABSENT : (forall h, highBytes a <= h <= highBytes b -> mhas m h = false) -> forall v, val64 v -> a <= v <= b -> P v = false).
  { intros N v V R. destruct (split_high v V) as (Kv & Lv & Ev). rewrite <- (half_at P v V). apply (mden_absent m P); auto. assert (X : highBytes a <= highBytes v <= highBytes b) by (unfold highBytes; split; apply Z.div_le_mono; lia). specialize (N _ X). unfold mhas in N. destruct (mfind m (highBytes v)); [discriminate|reflexivity]. }
  pose proof (proj1 H) as W. pose proof (proj1 W) as S.
  destruct (mbegin m) as [fk|] eqn:EB.
  2:{ exists m. destruct (mlast m); (split; [reflexivity|]); apply SAME, ABSENT; intros h _; destruct m; try discriminate; reflexivity. }
  destruct (mlast m) as [lk|] eqn:EL. 2:{ apply mlast_none in EL. subst m. discriminate. }
  destruct (mbegin_spec m fk W EB) as (_ & FB). destruct (mlast_spec m lk W EL) as (LK & FL).
  destruct ((highBytes b <? fk) || (lk <? highBytes a)) eqn:OUT.
  { exists m. split; auto. apply SAME, ABSENT. intros h R. destruct (mhas m h) eqn:X; auto. pose proof (FB h X). pose proof (FL h X). lia. }
  destruct (mlower m (highBytes a)) as [s|] eqn:ES. 2:{ rewrite (mlower_None m (highBytes a) lk ES) in LK by lia. discriminate. }
  destruct (mlower_Some m _ s S ES) as (Fs & Ls & Ns). destruct (found m s Fs) as (c & Fc).
  assert (HV : forall h v, key32 h -> val32 v -> half (zdiff P (zival a (b + 1))) h v = half P h v && negb (half (zival a (b + 1)) h v)) by reflexivity.
  destruct (s =? highBytes a) eqn:Es.
  - apply Z.eqb_eq in Es. subst s. rewrite Fc. destruct (mden_found m P _ c H Fc) as (_ & Dc). destruct (Z.eq_dec (highBytes a) (highBytes b)) as [EH|EH].
    + rewrite <- EH, ES. unfold same_iter. rewrite Z.eqb_refl. eexists. split; [reflexivity|]. apply (mden_keep m P); auto.
      * eapply den_ext; [apply (den_remove_range_closed _ _ _ _ Dc La Lb)|]. intros v V. rewrite HV, half_ival by auto. rewrite <- EH, Z.eqb_refl, Z.ltb_irrefl. cbn [orb]. unfold zdiff, zival. f_equal. f_equal. lia.
      * intros h K N v V. rewrite HV, half_ival by auto. replace ((h <? highBytes a) || (highBytes b <? h)) with true by lia. now rewrite andb_true_r.
    + assert (X : same_iter (Some (highBytes a)) (mlower m (highBytes b)) = false).
      { destruct (mlower m (highBytes b)) as [e|] eqn:EE; [|reflexivity]. destruct (mlower_Some m _ e S EE) as (_ & Le & _). unfold same_iter. lia. }
      rewrite X. set (m1 := mkeep m (highBytes a) _). set (Q1 := fun v => P v && negb ((highBytes v =? highBytes a) && (a <=? v))).
      assert (D1 : mden m1 Q1).
      { apply (mden_keep m P); auto.
        - eapply den_ext; [apply (den_remove_range_closed _ _ _ _ Dc La val32_max)|]. intros v V. unfold half, Q1. destruct (join_high (highBytes a) v Ka V) as (E1 & _ & _). rewrite E1, Z.eqb_refl. unfold zdiff, zival, half, uint32_max. unfold val32 in V. f_equal. f_equal. lia.
        - intros h K N v V. unfold half, Q1. destruct (join_high h v K V) as (E1 & _ & _). rewrite E1. replace (h =? highBytes a) with false by lia. now rewrite andb_true_r. }
      unfold mnext. apply (remove_tail_spec m m1 Q1); auto; try lia.
      * intros i I. unfold m1. rewrite mhas_mkeep_other by (auto; lia). reflexivity.
      * intros h v K V R. rewrite HV, half_ival by auto. unfold half, Q1. destruct (join_high h v K V) as (E1 & _ & _). rewrite E1. destruct (Z.eq_dec h (highBytes a)) as [Y|Y].
        -- rewrite Y, Z.eqb_refl. replace ((highBytes a <? highBytes a) || (highBytes b <? highBytes a)) with false by lia. replace (highBytes a =? highBytes b) with false by lia. unfold val32 in V. f_equal. f_equal. lia.
        -- replace (h =? highBytes a) with false by lia. replace ((h <? highBytes a) || (highBytes b <? h)) with true by lia. reflexivity.
      * intros h v K V R. rewrite HV, half_ival by auto. replace ((h <? highBytes a) || (highBytes b <? h)) with false by lia. replace (h =? highBytes a) with false by lia. replace (h =? highBytes b) with false by lia. apply andb_false_r.
      * intros v V. rewrite HV, half_ival by auto. unfold half, Q1. destruct (join_high (highBytes b) v Kb V) as (E1 & _ & _). rewrite E1, Z.eqb_refl. replace ((highBytes b <? highBytes a) || (highBytes b <? highBytes b)) with false by lia. replace (highBytes b =? highBytes a) with false by lia. cbn [andb negb]. rewrite andb_true_r. f_equal. lia.
  - assert (NA : mhas m (highBytes a) = false) by (apply Ns; lia).
    assert (PA : forall v, val32 v -> half P (highBytes a) v = false). { intros v V. apply (mden_absent m P); auto. unfold mhas in NA. destruct (mfind m (highBytes a)); [discriminate|reflexivity]. }
    destruct (Z.eq_dec (highBytes a) (highBytes b)) as [EH|EH].
    + rewrite <- ES, EH. apply (remove_tail_spec m m P); auto; try lia.
      * intros h v K V R. rewrite HV, half_ival by auto. replace ((h <? highBytes a) || (highBytes b <? h)) with true by lia. apply andb_true_r.
      * intros v V. rewrite HV by auto. rewrite <- EH, (PA v V). reflexivity.
    + rewrite <- ES, mlower_skip by auto. apply (remove_tail_spec m m P); auto; try lia.
      * intros h v K V R. rewrite HV, half_ival by auto. destruct (Z.eq_dec h (highBytes a)) as [Y|Y]; [rewrite Y, (PA v V); reflexivity|]. replace ((h <? highBytes a) || (highBytes b <? h)) with true by lia. apply andb_true_r.
      * intros h v K V R. rewrite HV, half_ival by auto. replace ((h <? highBytes a) || (highBytes b <? h)) with false by lia. replace (h =? highBytes a) with false by lia. replace (h =? highBytes b) with false by lia. apply andb_false_r.
      * intros v V. rewrite HV, half_ival by auto. rewrite Z.eqb_refl. replace ((highBytes b <? highBytes a) || (highBytes b <? highBytes b)) with false by lia. replace (highBytes b =? highBytes a) with false by lia. cbn [andb]. f_equal. lia.
Qed.
Lemma mden_removeRange m P a b : mden m P -> val64 a -> val64 b -> exists m', map_removeRange m a b = Some m' /\ mden m' (zdiff P (zival a b)).
Proof.
  intros H A B. unfold map_removeRange. destruct (b <=? a) eqn:E.
  - exists m. split; auto. apply (mden_ext m P); auto. intros v V. unfold zdiff, zival. replace ((a <=? v) && (v <? b)) with false by lia. now rewrite andb_true_r.
  - destruct (mden_remove_range m P a (b - 1) H A) as (m' & E2 & D); [unfold val64 in *; lia|]. exists m'. split; auto. now replace (b - 1 + 1) with b in D by lia.
Qed.
Lemma mden_remove_range32 m P a b : mden m P -> val32 a -> val32 b -> mden (map_removeRangeClosed32 m a b) (zdiff P (zival a (b + 1))).
Proof.
  intros H A B. assert (K0 : key32 0) by (unfold key32; lia). pose proof (mfind0 m (proj1 H)) as F. unfold map_removeRangeClosed32.
  assert (X : (exists c t, m = (0, c) :: t) \/ ((match m with (0, b0) :: _ => mkeep m 0 (roaring_bitmap_remove_range_closed b0 a b) | _ => m end) = m /\ mfind m 0 = None)).
  { destruct m as [|[[|k|k] c] t]; auto. left. eauto. }
  destruct X as [(c & t & ->)|(-> & N)].
  - destruct (mden_found _ P 0 c H F) as (_ & Dc). apply (mden_keep _ P); auto.
    + eapply den_ext; [apply (den_remove_range_closed _ _ _ _ Dc A B)|]. intros v V. unfold half, zdiff, zival. replace (0 * 2^32 + v) with v by lia. reflexivity.
    + intros h K NE v V. unfold half, zdiff, zival. unfold key32, val32 in *. replace ((a <=? h * 2^32 + v) && (h * 2^32 + v <? b + 1)) with false by lia. now rewrite andb_true_r.
  - apply (mden_ext m P); auto. intros v V. unfold zdiff, zival. destruct ((a <=? v) && (v <? b + 1)) eqn:R; [|now rewrite andb_true_r]. cbn [negb]. rewrite andb_false_r. unfold val32 in *. change (P v) with (P v). replace v with (0 * 2^32 + v) by lia. apply (mden_absent m P 0 v H K0 N). unfold val32. lia.
Qed.
