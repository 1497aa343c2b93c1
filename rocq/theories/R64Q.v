(** R64Q: point updates and queries of the 64-bit bitmap *)
From Verif Require Import Base ArrayUtil BitUtil BitsetC ArrayC RunC RunD Convert MixedI MixedU MixedA MixedN Containers RArray RBinary RPoint.
From Verif Require Import Art ArtT ArtR R64 R64P.
Local Opaque zr n48_pairs n256_pairs.

(** ** Entries as sets *)
Definition Lx (xs : list ent) (P : Z -> bool) : Prop := incr (map (fun x => kv (e_key x)) xs) /\ Forall (fun x => key6 (e_key x) /\ cok (e_c x)) xs /\
  forall k y, 0 <= k < 2^48 -> 0 <= y < 65536 -> km (map ekc xs) k y = P (k * 65536 + y).
Lemma den_Lx r P : den r P <-> exists xs, R r xs /\ Lx xs P.
Proof.
  split.
  - intros D. apply den_inv in D as (xs & A & B & C & D). exists xs. split; auto. split; [eapply R_sorted; eauto|]. split; auto.
    rewrite Forall_forall in *. intros x I. split; auto. eapply R_key; eauto.
  - intros (xs & A & B & C & D). eapply den_km; eauto. eapply Forall_impl; [|exact C]. cbn. tauto.
Qed.
Definition at_key (P : Z -> bool) (h : Z) : Z -> bool := fun y => P (h * 65536 + y).
Definition with_key (P : Z -> bool) (h : Z) (Pc : Z -> bool) : Z -> bool := fun v => if v / 65536 =? h then Pc (v mod 65536) else P v.
Lemma with_key_eq P h Pc y : 0 <= y < 65536 -> with_key P h Pc (h * 65536 + y) = Pc y.
Proof. intros Y. unfold with_key. rewrite Z.div_add_l, Z.div_small, Z.add_0_r, Z.eqb_refl by lia. now rewrite Z.add_comm, Z.mod_add, Z.mod_small by lia. Qed.
Lemma with_key_ne P h Pc k y : 0 <= y < 65536 -> k <> h -> with_key P h Pc (k * 65536 + y) = P (k * 65536 + y).
Proof. intros Y N. unfold with_key. rewrite Z.div_add_l, Z.div_small, Z.add_0_r by lia. now destruct (Z.eqb_spec k h). Qed.
Lemma km_mid l x t k y : ~ In (kv (e_key x)) (map (fun x => kv (e_key x)) l) ->
  km (map ekc (l ++ x :: t)) k y = if k =? kv (e_key x) then cmem (e_c x) y else km (map ekc (l ++ t)) k y.
Proof.
  induction l as [|z l IH]; intros N; cbn [app map ekc km look].
  - unfold km. cbn [look ekc]. now destruct (k =? kv (e_key x)).
  - unfold km in *. cbn [app map look ekc] in *. rewrite Z.eqb_sym. destruct (Z.eqb_spec (kv (e_key z)) k) as [<-|NE].
    + destruct (Z.eqb_spec (kv (e_key z)) (kv (e_key x))) as [E|_]; auto. exfalso. apply N. now left.
    + apply IH. intros I. apply N. now right.
Qed.
Lemma incr_mid_notin (l : list Z) x t : incr (l ++ x :: t) -> ~ In x l /\ ~ In x t.
Proof.
  intros H. split; intros I; destruct (incr_app_lt l x t x H) as (A & B).
  - specialize (A I). lia.
  - specialize (B I). lia.
Qed.
Lemma Lx_mid l x t P : Lx (l ++ x :: t) P -> ~ In (kv (e_key x)) (map (fun x => kv (e_key x)) (l ++ t)).
Proof.
  intros (A & _). rewrite map_app in *. cbn [map] in A. apply incr_mid_notin in A. rewrite in_app_iff. tauto.
Qed.
Lemma Lx_at l x t P : Lx (l ++ x :: t) P -> rep (e_c x) (at_key P (kv (e_key x))).
Proof.
  intros H. pose proof (Lx_mid _ _ _ _ H) as N. destruct H as (A & B & C). rewrite Forall_forall in B. destruct (B x (in_elt _ _ _)) as (K & O).
  split; auto. intros y Y. unfold at_key. rewrite <- C by (auto using key6_range). rewrite km_mid, Z.eqb_refl; auto.
  rewrite map_app, in_app_iff in N. tauto.
Qed.
Lemma Lx_miss xs P key : Lx xs P -> key6 key -> ~ In key (map e_key xs) -> forall y, 0 <= y < 65536 -> P (kv key * 65536 + y) = false.
Proof.
  intros (A & B & C) K N y Y. rewrite <- C by (auto using key6_range). unfold km. rewrite look_none; auto. unfold rkeys. rewrite map_map. intros I.
  apply in_map_iff in I as (x & E & I). cbn in E. apply N. apply in_map_iff. exists x. split; auto. rewrite Forall_forall in B. apply key6_inj; auto. now apply B.
Qed.
Lemma incr_del (l : list Z) x t : incr (l ++ x :: t) -> incr (l ++ t).
Proof.
  induction l as [|y l IH]; cbn [app incr]; [tauto|]. intros (A & B). split; auto. rewrite Forall_app in *. destruct A as (A1 & A2). inversion A2; auto.
Qed.
Lemma Lx_set l x t P c Pc : Lx (l ++ x :: t) P -> rep c Pc -> Lx (l ++ setc x c :: t) (with_key P (kv (e_key x)) Pc).
Proof.
  intros H (O & M). pose proof (Lx_mid _ _ _ _ H) as N. destruct H as (A & B & C). rewrite map_app, in_app_iff in N. split; [|split].
  - rewrite map_app in *. exact A.
  - rewrite Forall_app, Forall_cons_iff in *. cbn [e_key setc e_c]. tauto.
  - intros k y K Y. rewrite km_mid by (cbn [setc e_key]; tauto). cbn [setc e_key e_c]. destruct (Z.eqb_spec k (kv (e_key x))) as [->|NE].
    + rewrite with_key_eq; auto.
    + rewrite with_key_ne, <- C, km_mid by (auto; tauto). destruct (Z.eqb_spec k (kv (e_key x))); [tauto|reflexivity].
Qed.
Lemma Lx_del l x t P : Lx (l ++ x :: t) P -> Lx (l ++ t) (with_key P (kv (e_key x)) (fun _ => false)).
Proof.
  intros H. pose proof (Lx_mid _ _ _ _ H) as N. destruct H as (A & B & C). split; [|split].
  - rewrite map_app in *. cbn [map] in A. eapply incr_del; eauto.
  - rewrite Forall_app, Forall_cons_iff in *. tauto.
  - intros k y K Y. destruct (Z.eq_dec k (kv (e_key x))) as [->|NE].
    + rewrite with_key_eq by auto. unfold km. rewrite look_none; auto. unfold rkeys. now rewrite map_map.
    + rewrite with_key_ne, <- C by auto. rewrite map_app, in_app_iff in N. rewrite km_mid by tauto. destruct (Z.eqb_spec k (kv (e_key x))); [tauto|reflexivity].
Qed.
Lemma Lx_ins r l t P key lf i c Pc : Lx (l ++ t) P -> R r (l ++ Ent key lf i c :: t) -> rep c Pc -> Lx (l ++ Ent key lf i c :: t) (with_key P (kv key) Pc).
Proof.
  intros (A & B & C) H (O & M). pose proof (R_sorted _ _ H) as S. pose proof (R_key _ _ _ H (in_elt _ _ _)) as K6. split; [exact S|]. split.
  - rewrite Forall_app, Forall_cons_iff in *. cbn [e_key e_c] in *. tauto.
  - intros k y K Y. rewrite map_app in S. cbn [map e_key] in S. apply incr_mid_notin in S as (N & _). rewrite km_mid by auto. cbn [e_key e_c].
    destruct (Z.eqb_spec k (kv key)) as [->|NE]; [rewrite with_key_eq; auto|rewrite with_key_ne; auto].
Qed.
Lemma Lx_nil P : (forall v, v64 v -> P v = false) -> Lx [] P.
Proof. intros H. split; [exact Logic.I|]. split; [constructor|]. intros k y K Y. rewrite H by now apply v64_kx. reflexivity. Qed.
Lemma Lx_ext xs P Q : Lx xs P -> (forall v, v64 v -> P v = Q v) -> Lx xs Q.
Proof. intros (A & B & C) E. split; auto. split; auto. intros k y K Y. rewrite <- E by now apply v64_kx. auto. Qed.
Lemma den_R r xs P : R r xs -> Lx xs P -> den r P.
Proof. intros. apply den_Lx. eauto. Qed.
Lemma den_create : den roaring64_bitmap_create (fun _ => false).
Proof. eapply den_R; [apply R_create|]. now apply Lx_nil. Qed.

(** finding the container of a key *)
Lemma den_find r P h key : den r P -> key6 key -> kv key = h -> exists lf, art_find (r_art r) key = Some lf /\
  ((exists l x t, R r (l ++ x :: t) /\ Lx (l ++ x :: t) P /\ e_key x = key /\ lf = e_lf x /\ lf <> 0 /\ rep (e_c x) (at_key P h) /\
      leaf_raw (r_art r) lf = Some (eval x) /\ get_container r (eval x) = Some (e_c x)) \/
   (lf = 0 /\ (forall y, 0 <= y < 65536 -> P (h * 65536 + y) = false) /\
      forall c Pc, rep c Pc -> exists r1 lf1, insert_container r key c = Some (r1, lf1) /\ den r1 (with_key P h Pc) /\
        (exists l x t, R r1 (l ++ x :: t) /\ Lx (l ++ x :: t) (with_key P h Pc) /\ e_key x = key /\ e_lf x = lf1 /\ e_c x = c))).
Proof.
  intros D K E. apply den_Lx in D as (xs & H & L). destruct (R_find r xs key H K) as (lf & F & [(l & x & t & -> & KX & -> & NZ)|(-> & N)]); eexists; (split; [exact F|]).
  - left. exists l, x, t. split; auto. split; auto. split; auto. split; auto. split; auto. split; [rewrite <- E, <- KX; eapply Lx_at; eauto|].
    split; [eapply R_raw; eauto; apply in_elt|eapply R_get; eauto; apply in_elt].
  - right. split; auto. split; [intros y Y; rewrite <- E; eapply Lx_miss; eauto|].
    intros c Pc RC. destruct (R_insert r xs key c H K N) as (r1 & lf & l & t & i & EI & -> & H1). exists r1, lf. split; auto.
    pose proof (Lx_ins _ _ _ _ _ _ _ _ _ L H1 RC) as L1. rewrite E in L1. split; [eapply den_R; eauto|]. exists l, (Ent key lf i c), t. auto.
Qed.
Lemma den_put r P l x t c Pc : R r (l ++ x :: t) -> Lx (l ++ x :: t) P -> rep c Pc -> exists r1, replace_container r (e_lf x) c = Some r1 /\
  R r1 (l ++ setc x c :: t) /\ Lx (l ++ setc x c :: t) (with_key P (kv (e_key x)) Pc) /\ den r1 (with_key P (kv (e_key x)) Pc).
Proof.
  intros H L RC. destruct (R_replace r l x t c H) as (r1 & E & H1 & _). exists r1. split; auto. split; auto. pose proof (Lx_set _ _ _ _ _ _ L RC) as L1. split; auto. eapply den_R; eauto.
Qed.
Lemma den_drop r P l x t : R r (l ++ x :: t) -> Lx (l ++ x :: t) P -> exists a, art_erase (r_art r) (e_key x) = Some (a, Some (eval x)) /\ leaf_raw a (e_lf x) = Some (eval x) /\
  den (remove_container (with_art r a) (eval x)) (with_key P (kv (e_key x)) (fun _ => false)).
Proof.
  intros H L. destruct (R_erase r l x t H) as (a & E & RW & H1). exists a. split; auto. split; auto. eapply den_R; [exact H1|]. now apply Lx_del.
Qed.

(** ** Points *)
Definition fset (P : Z -> bool) (val : Z) (b : bool) : Z -> bool := fun v => if v =? val then b else P v.
Lemma v64_div v : v64 v -> 0 <= v / 65536 < 2^48.
Proof. unfold v64. intros. split; [apply Z.div_pos; lia|apply Z.div_lt_upper_bound; lia]. Qed.
Lemma v_split v : v = v / 65536 * 65536 + v mod 65536.
Proof. pose proof (Z.div_mod v 65536 ltac:(lia)). lia. Qed.
Lemma low_range v : 0 <= low16 v < 65536. Proof. apply Z.mod_pos_bound. lia. Qed.
Lemma at_low P v : at_key P (v / 65536) (low16 v) = P v.
Proof. unfold at_key, low16. now rewrite <- v_split. Qed.
Lemma v_eqb u v : (u =? v) = (u / 65536 =? v / 65536) && (u mod 65536 =? v mod 65536).
Proof.
  pose proof (v_split u). pose proof (v_split v). destruct (Z.eqb_spec u v) as [->|N]; [now rewrite !Z.eqb_refl|].
  destruct (Z.eqb_spec (u / 65536) (v / 65536)); auto. destruct (Z.eqb_spec (u mod 65536) (v mod 65536)); auto. congruence.
Qed.
Lemma fset_key P val b : forall v, with_key P (val / 65536) (fun y => if y =? low16 val then b else at_key P (val / 65536) y) v = fset P val b v.
Proof.
  intros v. unfold with_key, fset, at_key, low16. rewrite (v_eqb v val). destruct (Z.eqb_spec (v / 65536) (val / 65536)) as [E|]; cbn [andb]; auto.
  rewrite <- E, <- v_split. reflexivity.
Qed.
Lemma rep_add c P y : rep c P -> 0 <= y < 65536 -> rep (container_add c y) (fun x => if x =? y then true else P x).
Proof.
  intros (O & M) Y. eapply rep_ext; [apply container_add_spec; auto|]. intros x X. cbn. rewrite M by auto. destruct (x =? y); [apply orb_true_r|apply orb_false_r].
Qed.
Lemma rep_new y (P : Z -> bool) : 0 <= y < 65536 -> (forall x, 0 <= x < 65536 -> P x = false) -> rep (container_add (CArr []) y) (fun x => if x =? y then true else P x).
Proof.
  intros Y N. rewrite add_new by auto. split.
  - cbn. unfold zlen. cbn. split; [|lia]. split; [cbn; auto|]. repeat constructor; lia.
  - intros x X. cbn. unfold amem, zmem. cbn. rewrite orb_false_r. rewrite N by auto. now destruct (x =? y).
Qed.
Lemma containerptr_add_spec r P val : den r P -> v64 val -> exists lf r1 lf1, art_find (r_art r) (high48 val) = Some lf /\
  containerptr_add r (high48 val) (low16 val) lf = Some (r1, lf1) /\ den r1 (fset P val true) /\
  (exists l x t, R r1 (l ++ x :: t) /\ Lx (l ++ x :: t) (fset P val true) /\ e_key x = high48 val /\ e_lf x = lf1) /\
  (if lf =? 0 then forall y, 0 <= y < 65536 -> at_key P (val / 65536) y = false else exists c, leaf_card r lf = Some (container_get_cardinality c) /\ rep c (at_key P (val / 65536))).
Proof.
  intros D V. destruct (kv_high48 val V) as (K & E). destruct (den_find r P _ _ D K E) as (lf & F & [(l & x & t & H & L & KX & LF & NZ & RX & RW & G)|(-> & Z0 & INS)]).
  - subst lf. exists (e_lf x). unfold containerptr_add. destruct (Z.eqb_spec (e_lf x) 0); [tauto|]. cbn [negb]. rewrite RW. cbn [obind]. rewrite G. cbn [obind].
    destruct (den_put r P l x t _ _ H L (rep_add _ _ _ RX (low_range val))) as (r1 & E1 & H1 & L1 & D1). rewrite E1. cbn [obind].
    exists r1, (e_lf x). rewrite KX, E in *. assert (X : forall v, v64 v -> with_key P (val / 65536) (fun y => if y =? low16 val then true else at_key P (val / 65536) y) v = fset P val true v) by (intros; apply fset_key).
    split; auto. split; auto. split; [eapply den_ext; [exact D1|exact X]|]. split.
    + exists l, (setc x (container_add (e_c x) (low16 val))), t. split; auto. split; [eapply Lx_ext; eauto|]. auto.
    + exists (e_c x). split; auto. unfold leaf_card. rewrite RW. cbn [obind]. now rewrite G.
  - exists 0. unfold containerptr_add. change (negb (0 =? 0)) with false. cbn match.
    destruct (INS _ _ (rep_new (low16 val) (at_key P (val / 65536)) (low_range val) Z0)) as (r1 & lf1 & E1 & D1 & l & x & t & H1 & L1 & KX & LF & _).
    assert (X : forall v, v64 v -> with_key P (val / 65536) (fun y => if y =? low16 val then true else at_key P (val / 65536) y) v = fset P val true v) by (intros; apply fset_key).
    exists r1, lf1. split; auto. split; auto. split; [eapply den_ext; [exact D1|exact X]|]. split; [|exact Z0]. exists l, x, t. split; auto. split; [eapply Lx_ext; eauto|]. auto.
Qed.
Lemma roaring64_bitmap_add_spec r P val : den r P -> v64 val -> exists r1, roaring64_bitmap_add r val = Some r1 /\ den r1 (fset P val true).
Proof.
  intros D V. destruct (containerptr_add_spec r P val D V) as (lf & r1 & lf1 & F & E & D1 & _). exists r1. unfold roaring64_bitmap_add. rewrite F. cbn [obind]. now rewrite E.
Qed.
Lemma cnt_one P y lo hi b : lo <= y < hi -> cnt (fun x => if x =? y then b else P x) lo hi = cnt P lo hi + (if b then 1 else 0) - (if P y then 1 else 0).
Proof.
  intros H. rewrite !(cnt_app _ lo y hi) by lia. rewrite !(cnt_cons _ y hi) by lia. rewrite Z.eqb_refl.
  rewrite (cnt_ext (fun x => if x =? y then b else P x) P lo y) by (intros x X; destruct (Z.eqb_spec x y); auto; lia).
  rewrite (cnt_ext (fun x => if x =? y then b else P x) P (y + 1) hi) by (intros x X; destruct (Z.eqb_spec x y); auto; lia). lia.
Qed.
Lemma rep_gcard c P : rep c P -> container_get_cardinality c = cnt P 0 65536.
Proof. intros H. rewrite container_get_cardinality_spec by apply H. now apply rep_card. Qed.
Lemma R_leaf_card r l x t : R r (l ++ x :: t) -> leaf_card r (e_lf x) = Some (container_get_cardinality (e_c x)).
Proof. intros H. unfold leaf_card. rewrite (R_raw _ _ _ H (in_elt _ _ _)). cbn [obind]. now rewrite (R_get _ _ _ H (in_elt _ _ _)). Qed.
Lemma roaring64_bitmap_add_checked_spec r P val : den r P -> v64 val -> exists r1, roaring64_bitmap_add_checked r val = Some (r1, negb (P val)) /\ den r1 (fset P val true).
Proof.
  intros D V. destruct (containerptr_add_spec r P val D V) as (lf & r1 & lf1 & F & E & D1 & (l & x & t & H & L & KX & LX) & OLD). exists r1.
  unfold roaring64_bitmap_add_checked. rewrite F. cbn [obind]. destruct (kv_high48 val V) as (K & KE).
  pose proof (Lx_at _ _ _ _ L) as RX. rewrite KX, KE in RX. apply rep_gcard in RX.
  assert (Q : cnt (at_key (fset P val true) (val / 65536)) 0 65536 = cnt (at_key P (val / 65536)) 0 65536 + 1 - (if P val then 1 else 0)).
  { rewrite (cnt_ext _ (fun y => if y =? low16 val then true else at_key P (val / 65536) y)).
    - rewrite cnt_one by apply low_range. now rewrite at_low.
    - intros y Y. unfold at_key, fset, low16. rewrite (v_eqb _ val). rewrite Z.div_add_l, (Z.div_small y), Z.add_0_r, Z.eqb_refl by lia. rewrite Z.add_comm, Z.mod_add, (Z.mod_small y) by lia. cbn. now rewrite Z.add_comm. }
  assert (OC : exists n, (if negb (lf =? 0) then leaf_card r lf else Some 0) = Some n /\ n = cnt (at_key P (val / 65536)) 0 65536).
  { destruct (lf =? 0); cbn [negb].
    - exists 0. split; auto. symmetry. now apply cnt_none.
    - destruct OLD as (c & -> & RC). exists (container_get_cardinality c). split; auto. now apply rep_gcard. }
  destruct OC as (n & -> & ->). cbn [obind]. rewrite E. cbn [obind]. rewrite <- LX, (R_leaf_card _ _ _ _ H). cbn [obind]. rewrite RX, Q. split; auto. do 2 f_equal. destruct (P val); cbn [negb]; f_equal; lia.
Qed.
Lemma rep_remove c P y : rep c P -> 0 <= y < 65536 -> erep (container_remove c y) (fun x => if x =? y then false else P x).
Proof.
  intros (O & M) Y. eapply MixedI.erep_ext; [apply container_remove_spec; auto|]. intros x X. cbn. rewrite M by auto. destruct (x =? y); [apply andb_false_r|apply andb_true_r].
Qed.
Lemma with_key_ext P h Pc Pc' v : (forall y, 0 <= y < 65536 -> Pc y = Pc' y) -> with_key P h Pc v = with_key P h Pc' v.
Proof. intros E. unfold with_key. destruct (v / 65536 =? h); auto. apply E, Z.mod_pos_bound. lia. Qed.
Lemma with_key_id P h Pc v : (forall y, 0 <= y < 65536 -> Pc y = at_key P h y) -> with_key P h Pc v = P v.
Proof. intros E. unfold with_key. destruct (Z.eqb_spec (v / 65536) h) as [<-|]; auto. rewrite E by (apply Z.mod_pos_bound; lia). unfold at_key. now rewrite <- v_split. Qed.
Lemma get_removed r x : get_container (remove_container r (eval x)) (eval x) = None.
Proof.
  unfold get_container, remove_container, slot64, eval. destruct (leaf_parts (e_ix x) (e_c x)) as (-> & ->). cbn [r_cont]. destruct ((0 <=? e_ix x) && _) eqn:E; auto.
  replace (nth (Z.to_nat (e_ix x)) (upd (Z.to_nat (e_ix x)) None (r_cont r)) None) with (@None container); auto.
  destruct (Nat.ltb_spec (Z.to_nat (e_ix x)) (length (r_cont r))).
  - symmetry. rewrite upd_nth by auto. now rewrite Nat.eqb_refl.
  - symmetry. apply nth_overflow. now rewrite upd_length.
Qed.
(** storing a possibly empty container: replace, then erase when it is empty *)
Lemma put_or_drop r P l x t c Pc : R r (l ++ x :: t) -> Lx (l ++ x :: t) P -> erep c Pc -> exists r1, replace_container r (e_lf x) c = Some r1 /\
  if container_nonzero_cardinality c
  then R r1 (l ++ setc x c :: t) /\ Lx (l ++ setc x c :: t) (with_key P (kv (e_key x)) Pc)
  else exists a, art_erase (r_art r1) (e_key x) = Some (a, Some (eval (setc x c))) /\ leaf_raw a (e_lf x) = Some (eval (setc x c)) /\
    den (remove_container (with_art r1 a) (eval (setc x c))) (with_key P (kv (e_key x)) Pc).
Proof.
  intros H L RC. destruct (R_replace r l x t c H) as (r1 & E & H1 & _). exists r1. split; auto. destruct (container_nonzero_cardinality c) eqn:NZ.
  - destruct (erep_some _ _ RC NZ) as (O & M). split; auto. apply Lx_set; auto. now split.
  - pose proof (erep_none _ _ RC NZ) as Z0. destruct (R_erase r1 l (setc x c) t H1) as (a & EA & RW & H2). exists a. split; auto. split; auto.
    eapply den_R; [exact H2|]. eapply Lx_ext; [apply (Lx_del _ _ _ _ L)|]. intros v _. apply with_key_ext. intros y Y. symmetry. auto.
Qed.
Lemma containerptr_remove_spec r P val : den r P -> v64 val -> exists lf, art_find (r_art r) (high48 val) = Some lf /\
  ((lf = 0 /\ P val = false /\ forall v, v64 v -> fset P val false v = P v) \/
   exists l x t, R r (l ++ x :: t) /\ Lx (l ++ x :: t) P /\ e_key x = high48 val /\ lf = e_lf x /\ lf <> 0 /\ rep (e_c x) (at_key P (val / 65536)) /\
   exists r1 gone, containerptr_remove r (high48 val) (low16 val) lf = Some (r1, gone) /\ den r1 (fset P val false) /\
     if (gone : bool) then P val = true /\ (forall y, 0 <= y < 65536 -> at_key (fset P val false) (val / 65536) y = false) /\
       exists v, leaf_raw (r_art r1) lf = Some v /\ get_container r1 v = None
     else exists c, R r1 (l ++ setc x c :: t) /\ Lx (l ++ setc x c :: t) (fset P val false)).
Proof.
  intros D V. destruct (kv_high48 val V) as (K & E). destruct (den_find r P _ _ D K E) as (lf & F & [(l & x & t & H & L & KX & LF & NZ & RX & RW & G)|(-> & Z0 & INS)]); eexists; (split; [exact F|]).
  - right. exists l, x, t. split; auto. split; auto. split; auto. split; auto. split; auto. split; auto. subst lf. unfold containerptr_remove.
    destruct (Z.eqb_spec (e_lf x) 0); [tauto|]. rewrite RW. cbn [obind]. rewrite G. cbn [obind]. cbv zeta.
    pose proof (rep_remove _ _ _ RX (low_range val)) as RC.
    destruct (put_or_drop r P l x t _ _ H L RC) as (r1 & E1 & W). rewrite E1. cbn [obind]. rewrite KX, E in W.
    assert (X : forall v, v64 v -> with_key P (val / 65536) (fun y => if y =? low16 val then false else at_key P (val / 65536) y) v = fset P val false v) by (intros; apply fset_key).
    destruct (container_nonzero_cardinality (container_remove (e_c x) (low16 val))) eqn:NZC; cbn [negb].
    + destruct W as (H1 & L1). exists r1, false. split; auto. apply (Lx_ext _ _ _ L1) in X. split; [eapply den_R; eauto|]. eauto.
    + destruct W as (a & EA & RW1 & D1). rewrite EA. cbn [obind]. eexists _, true. split; [reflexivity|]. split; [eapply den_ext; eauto|].
      pose proof (erep_none _ _ RC NZC) as Z0. cbn beta in Z0. assert (Z1 : forall y, 0 <= y < 65536 -> at_key (fset P val false) (val / 65536) y = false).
      { intros y Y. unfold at_key, fset. destruct (Z.eqb_spec (val / 65536 * 65536 + y) val) as [|NE]; auto. specialize (Z0 y Y). destruct (Z.eqb_spec y (low16 val)) as [EY|]; auto.
        exfalso. apply NE. rewrite EY. unfold low16. symmetry. apply v_split. }
      split; [|split; [exact Z1|exists (eval (setc x (container_remove (e_c x) (low16 val)))); split; [exact RW1|apply get_removed]]]. destruct (P val) eqn:PV; auto. exfalso. apply rep_cne in RX as (y & Y & T). specialize (Z0 y Y). destruct (Z.eqb_spec y (low16 val)) as [EY|]; [rewrite EY in T|congruence].
      rewrite at_low in T. congruence.
  - left. assert (PV : P val = false) by (rewrite (v_split val); apply Z0, Z.mod_pos_bound; lia). split; auto. split; auto.
    intros v _. unfold fset. destruct (Z.eqb_spec v val) as [->|]; auto.
Qed.
Lemma roaring64_bitmap_remove_spec r P val : den r P -> v64 val -> exists r1, roaring64_bitmap_remove r val = Some r1 /\ den r1 (fset P val false).
Proof.
  intros D V. unfold roaring64_bitmap_remove. destruct (containerptr_remove_spec r P val D V) as (lf & -> & [(-> & PV & X)|(l & x & t & _ & _ & _ & _ & _ & _ & r1 & gone & E & D1 & _)]); cbn [obind].
  - exists r. split; auto. eapply den_ext; [exact D|]. intros v Vv. symmetry. auto.
  - exists r1. rewrite E. cbn [obind]. auto.
Qed.
Lemma roaring64_bitmap_remove_checked_spec r P val : den r P -> v64 val -> exists r1, roaring64_bitmap_remove_checked r val = Some (r1, P val) /\ den r1 (fset P val false).
Proof.
  intros D V. unfold roaring64_bitmap_remove_checked. destruct (containerptr_remove_spec r P val D V) as (lf & -> & [(-> & PV & X)|(l & x & t & H & L & KX & LF & NZ & RX & r1 & gone & E & D1 & W)]); cbn [obind].
  - exists r. cbn [Z.eqb]. rewrite PV. split; auto. eapply den_ext; [exact D|]. intros v Vv. symmetry. auto.
  - destruct (Z.eqb_spec lf 0); [tauto|]. replace (leaf_card r lf) with (Some (container_get_cardinality (e_c x))) by (rewrite LF; symmetry; eapply R_leaf_card; eauto). cbn [obind]. rewrite E. cbn [obind]. exists r1. destruct gone.
    + destruct W as (-> & _). auto.
    + destruct W as (c & H1 & L1). rewrite LF. pose proof (R_leaf_card _ _ _ _ H1) as LC. cbn [setc e_lf e_c] in LC. rewrite LC. cbn [obind]. split; auto. do 2 f_equal.
      destruct (kv_high48 val V) as (K & KE). pose proof (Lx_at _ _ _ _ L1) as RC. cbn [setc e_key e_c] in RC. rewrite KX, KE in RC. rewrite (rep_gcard _ _ RC), (rep_gcard _ _ RX).
      rewrite (cnt_ext (at_key (fset P val false) (val / 65536)) (fun y => if y =? low16 val then false else at_key P (val / 65536) y)).
      * rewrite cnt_one by apply low_range. rewrite at_low. destruct (P val); cbn [negb]; f_equal; lia.
      * intros y Y. unfold at_key, fset, low16. rewrite (v_eqb _ val). rewrite Z.div_add_l, (Z.div_small y), Z.add_0_r, Z.eqb_refl by lia. rewrite Z.add_comm, Z.mod_add, (Z.mod_small y) by lia. cbn. now rewrite Z.add_comm.
Qed.
Lemma roaring64_bitmap_contains_spec r P val : den r P -> v64 val -> roaring64_bitmap_contains r val = Some (P val).
Proof.
  intros D V. unfold roaring64_bitmap_contains. destruct (kv_high48 val V) as (K & E). destruct (den_find r P _ _ D K E) as (lf & -> & [(l & x & t & H & L & KX & LF & NZ & RX & RW & G)|(-> & Z0 & INS)]); cbn [obind].
  - destruct (Z.eqb_spec lf 0); [tauto|]. cbn [negb]. rewrite RW. cbn [obind]. rewrite G. cbn [obind]. f_equal. destruct RX as (O & M).
    rewrite container_contains_spec by (auto using cok_lok, low_range). rewrite M by apply low_range. apply at_low.
  - cbn. f_equal. symmetry. rewrite (v_split val). apply Z0, Z.mod_pos_bound. lia.
Qed.
(** the denotation is what contains answers *)
Lemma den_contains r P v : den r P -> v64 v -> (P v = true <-> roaring64_bitmap_contains r v = Some true).
Proof. intros D V. rewrite (roaring64_bitmap_contains_spec r P v D V). split; congruence. Qed.
