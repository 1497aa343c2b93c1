(** R64P: the invariant of a 64-bit bitmap and its primitive updates *)
From Coq Require Import Permutation.
From Verif Require Import Base ArrayUtil BitUtil BitsetC ArrayC RunC RunD Convert Containers RArray Art ArtS ArtN ArtW ArtT ArtU ArtI ArtR ArtL R64.
Local Opaque zr n48_pairs n256_pairs.

(** ** Keys *)
Definition v64 (v : Z) : Prop := 0 <= v < 2^64.
Lemma kv_high48 v : v64 v -> key6 (high48 v) /\ kv (high48 v) = v / 65536.
Proof.
  intros H. assert (Hh : 0 <= v / 65536 < 2^48) by (unfold v64 in H; split; [apply Z.div_pos; lia|apply Z.div_lt_upper_bound; lia]).
  unfold high48. set (h := v / 65536) in *. clearbody h. split.
  - split; [reflexivity|]. repeat (constructor; [apply Z.mod_pos_bound; lia|]). constructor.
  - unfold kv. cbn [kva].
    replace (h / 2^16) with (h / 2^8 / 256) by (rewrite Z.div_div by lia; reflexivity).
    replace (h / 2^24) with (h / 2^8 / 256 / 256) by (rewrite !Z.div_div by lia; reflexivity).
    replace (h / 2^32) with (h / 2^8 / 256 / 256 / 256) by (rewrite !Z.div_div by lia; reflexivity).
    replace (h / 2^40) with (h / 2^8 / 256 / 256 / 256 / 256) by (rewrite !Z.div_div by lia; reflexivity).
    change (2^8) with 256.
    assert (h / 256 / 256 / 256 / 256 / 256 < 256) by (rewrite !Z.div_div by lia; apply Z.div_lt_upper_bound; lia).
    assert (0 <= h / 256 / 256 / 256 / 256 / 256) by (rewrite !Z.div_div by lia; apply Z.div_pos; lia).
    rewrite (Z.mod_small (h / 256 / 256 / 256 / 256 / 256)) by lia.
    pose proof (Z.div_mod h 256 ltac:(lia)). pose proof (Z.div_mod (h / 256) 256 ltac:(lia)).
    pose proof (Z.div_mod (h / 256 / 256) 256 ltac:(lia)). pose proof (Z.div_mod (h / 256 / 256 / 256) 256 ltac:(lia)).
    pose proof (Z.div_mod (h / 256 / 256 / 256 / 256) 256 ltac:(lia)). lia.
Qed.
Lemma combine_kv k low : combine_key k low = kv k * 65536 + low.
Proof.
  unfold combine_key, kv. do 2 f_equal. generalize 0. induction k as [|b k IH]; intros acc; cbn [fold_left kva]; auto.
Qed.
Lemma high48_of h : 0 <= h < 2^48 -> key6 (high48 (h * 65536)) /\ kv (high48 (h * 65536)) = h.
Proof.
  intros H. destruct (kv_high48 (h * 65536)) as (A & B); [unfold v64; lia|]. split; auto. rewrite B. now rewrite Z.div_mul by lia.
Qed.
Lemma key6_range k : key6 k -> 0 <= kv k < 2^48.
Proof. intros (L & B). pose proof (kv_range k B) as H. rewrite L in H. exact H. Qed.
Lemma key6_inj k k' : key6 k -> key6 k' -> kv k = kv k' -> k = k'.
Proof. intros (L & B) (L' & B') E. apply kv_inj; auto. congruence. Qed.
Lemma high48_same u v : u / 65536 = v / 65536 -> high48 u = high48 v.
Proof. intros E. unfold high48. now rewrite E. Qed.
Lemma cmp_high k v : key6 k -> v64 v -> (art_compare_keys k (high48 v) < 0 <-> kv k < v / 65536) /\ (art_compare_keys k (high48 v) = 0 <-> kv k = v / 65536) /\
  (0 < art_compare_keys k (high48 v) <-> v / 65536 < kv k).
Proof.
  intros K V. destruct (kv_high48 v V) as (K' & E). destruct (cmp_keys k (high48 v) K K') as (A & B & C). rewrite E in *. split; [exact A|]. split; [|exact C].
  rewrite B. split; intros X; [subst; auto|]. apply key6_inj; auto. congruence.
Qed.
Lemma cmp_high2 u v : v64 u -> v64 v -> (art_compare_keys (high48 u) (high48 v) < 0 <-> u / 65536 < v / 65536) /\ (art_compare_keys (high48 u) (high48 v) = 0 <-> u / 65536 = v / 65536) /\
  (0 < art_compare_keys (high48 u) (high48 v) <-> v / 65536 < u / 65536).
Proof. intros U V. destruct (kv_high48 u U) as (K & E). pose proof (cmp_high (high48 u) v K V) as H. now rewrite E in H. Qed.

(** ** Leaf values *)
Lemma typecode_range c : 1 <= typecode c <= 3. Proof. destruct c; cbn; lia. Qed.
Lemma leaf_parts i c : get_index (create_leaf i (typecode c)) = i /\ get_typecode (create_leaf i (typecode c)) = typecode c.
Proof.
  pose proof (typecode_range c). unfold get_index, get_typecode, create_leaf. split.
  - rewrite Z.div_add_l by lia. rewrite Z.div_small by lia. lia.
  - rewrite Z.add_comm, Z.mod_add by lia. apply Z.mod_small. lia.
Qed.
Lemma raw_of_val a lf v : leaf_val a lf = Some v -> leaf_raw a lf = Some v.
Proof.
  unfold leaf_val. destruct (art_deref a lf) as [n|] eqn:E; [|discriminate]. intros H. pose proof (deref_type _ _ _ E) as T.
  unfold leaf_raw. unfold art_deref in E. rewrite T in E. destruct (negb _) in E; [discriminate|].
  destruct (slot_at a (ntype n) (art_ref_index lf)) as [s|] eqn:S; [|discriminate]. destruct s as [m|? ?]; [|discriminate].
  destruct (ntype m =? ntype n); [|discriminate]. injection E as ->. destruct n; try discriminate. change (ntype (NLeaf _ _)) with LEAF_TYPE in S. rewrite S. exact H.
Qed.

(** ** The pool of containers: slots and first_free *)
Definition slot_of (cs : list (option container)) (i : Z) : option container := nth (Z.to_nat i) cs None.
Definition pool (cs : list (option container)) (ff : Z) (m : list (Z * container)) : Prop :=
  (forall i c, In (i, c) m -> 0 <= i /\ slot_of cs i = Some c) /\ NoDup (map fst m) /\
  (forall i, 0 <= i -> slot_of cs i <> None -> In i (map fst m)) /\
  0 <= ff <= zlen cs /\ (forall i, 0 <= i < ff -> slot_of cs i <> None) /\ (ff < zlen cs -> slot_of cs ff = None).

Lemma slot_in cs i : 0 <= i -> slot_of cs i <> None -> i < zlen cs.
Proof. intros H N. unfold slot_of in N. destruct (Z.ltb_spec i (zlen cs)); auto. exfalso. apply N, nth_overflow. unfold zlen in *. lia. Qed.
Lemma slot_upd cs i j o : 0 <= i < zlen cs -> 0 <= j -> slot_of (upd (Z.to_nat i) o cs) j = if j =? i then o else slot_of cs j.
Proof.
  intros I J. unfold slot_of. rewrite upd_nth by (unfold zlen in *; lia).
  destruct (Z.eqb_spec j i) as [->|N]; [now rewrite Nat.eqb_refl|]. replace (Z.to_nat j =? Z.to_nat i)%nat with false by (symmetry; apply Nat.eqb_neq; lia). reflexivity.
Qed.
Lemma pool_perm cs ff m m' : Permutation m m' -> pool cs ff m -> pool cs ff m'.
Proof.
  intros P (A & B & C & D). split; [|split; [|split; [|exact D]]].
  - intros i c H. apply A. eapply Permutation_in; [|exact H]. now apply Permutation_sym.
  - eapply Permutation_NoDup; [|exact B]. now apply Permutation_map.
  - intros i I N. eapply Permutation_in; [apply Permutation_map; exact P|]. now apply C.
Qed.
Lemma pool_len cs ff m : pool cs ff m -> (length m <= length cs)%nat.
Proof.
  intros (A & B & _). rewrite <- (map_length fst m).
  rewrite <- (map_length Z.to_nat). rewrite <- (seq_length (length cs) 0). apply NoDup_incl_length.
  - clear - A B. assert (H : forall i, In i (map fst m) -> 0 <= i) by (intros i H; apply in_map_iff in H as ([j c] & <- & H); apply A in H; apply H).
    clear A. induction (map fst m) as [|x l IH]; cbn; [constructor|]. inversion B; subst. constructor; [|apply IH; auto; intros; apply H; now right].
    intros X. apply in_map_iff in X as (y & E & Y). assert (y = x) by (pose proof (H x (or_introl eq_refl)); pose proof (H y (or_intror Y)); lia). now subst.
  - intros n H. apply in_map_iff in H as (i & <- & H). apply in_map_iff in H as ([j c] & <- & H). apply A in H as (J & S). cbn. apply in_seq.
    assert (j < zlen cs) by (apply slot_in; [auto|congruence]). unfold zlen in *. lia.
Qed.
(** remove_container *)
Lemma pool_remove cs ff i c m : pool cs ff ((i, c) :: m) -> pool (upd (Z.to_nat i) None cs) (if i <? ff then i else ff) m.
Proof.
  intros (A & B & C & D & E & F). destruct (A i c (or_introl eq_refl)) as (I & S). inversion B as [|? ? N ND]; subst.
  assert (IL : i < zlen cs) by (apply slot_in; [auto|congruence]). cbn [fst] in N.
  assert (L : zlen (upd (Z.to_nat i) None cs) = zlen cs) by (unfold zlen; now rewrite upd_length).
  unfold pool. rewrite L. repeat match goal with |- _ /\ _ => split end.
  - intros j d H. destruct (A j d (or_intror H)) as (J & T). split; auto. rewrite slot_upd by lia.
    destruct (Z.eqb_spec j i) as [->|]; auto. exfalso. apply N. now apply (in_map fst) in H.
  - auto.
  - intros j J. rewrite slot_upd by lia. destruct (Z.eqb_spec j i) as [->|X]; [congruence|]. intros H. destruct (C j J H) as [K|K]; auto. cbn in K. congruence.
  - destruct (i <? ff); lia.
  - destruct (i <? ff); lia.
  - intros j J. rewrite slot_upd by (destruct (i <? ff); lia). destruct (Z.eqb_spec j i) as [->|X]; [destruct (Z.ltb_spec i ff); lia|]. apply E. destruct (Z.ltb_spec i ff); lia.
  - intros H. rewrite slot_upd by (destruct (Z.ltb_spec i ff); lia). destruct (Z.ltb_spec i ff); [now rewrite Z.eqb_refl|]. destruct (Z.eqb_spec ff i); auto.
Qed.
(** replace_container *)
Lemma pool_set cs ff i c d m : pool cs ff ((i, c) :: m) -> pool (upd (Z.to_nat i) (Some d) cs) ff ((i, d) :: m).
Proof.
  intros (A & B & C & D & E & F). destruct (A i c (or_introl eq_refl)) as (I & S). inversion B as [|? ? N ND]; subst.
  assert (IL : i < zlen cs) by (apply slot_in; [auto|congruence]). cbn [fst] in N.
  assert (L : zlen (upd (Z.to_nat i) (Some d) cs) = zlen cs) by (unfold zlen; now rewrite upd_length).
  unfold pool. rewrite L. repeat match goal with |- _ /\ _ => split end; auto; try lia.
  - intros j e [H|H].
    + injection H as <- <-. split; auto. rewrite slot_upd by lia. now rewrite Z.eqb_refl.
    + destruct (A j e (or_intror H)) as (J & T). split; auto. rewrite slot_upd by lia.
      destruct (Z.eqb_spec j i) as [->|]; auto. exfalso. apply N. now apply (in_map fst) in H.
  - intros j J. rewrite slot_upd by lia. cbn [map fst In]. destruct (Z.eqb_spec j i) as [->|X]; [now left|]. intros H. destruct (C j J H); [now left|now right].
  - intros j J. rewrite slot_upd by lia. destruct (Z.eqb_spec j i); [congruence|]. now apply E.
  - intros H. rewrite slot_upd by lia. destruct (Z.eqb_spec ff i) as [->|]; [|auto]. rewrite (F H) in S. discriminate.
Qed.
(** add_container *)
Lemma next_free_spec r : let n := next_free_container_idx r in
  0 <= r_ff r < zlen (r_cont r) -> r_ff r < n <= zlen (r_cont r) /\ (forall i, r_ff r < i < n -> slot_of (r_cont r) i <> None) /\ (n < zlen (r_cont r) -> slot_of (r_cont r) n = None).
Proof.
  cbn zeta. intros H. unfold next_free_container_idx.
  assert (G : forall l lo, l = zr lo (zlen (r_cont r)) -> r_ff r < lo <= zlen (r_cont r) ->
    match find (fun i => match nth (Z.to_nat i) (r_cont r) None with None => true | Some _ => false end) l with
    | Some n => lo <= n < zlen (r_cont r) /\ (forall i, lo <= i < n -> slot_of (r_cont r) i <> None) /\ slot_of (r_cont r) n = None
    | None => forall i, lo <= i < zlen (r_cont r) -> slot_of (r_cont r) i <> None
    end).
  { induction l as [|x l IH]; intros lo E B; cbn [find].
    - intros i I. exfalso. assert (In i (zr lo (zlen (r_cont r)))) by now apply zr_In. now rewrite <- E in *.
    - destruct (Z.eqb_spec lo (zlen (r_cont r))) as [->|NE].
      { exfalso. assert (In x (zr (zlen (r_cont r)) (zlen (r_cont r)))) as X by (rewrite <- E; now left). apply zr_In in X. lia. }
      rewrite zr_cons in E by lia. injection E as -> ->. specialize (IH (lo + 1) eq_refl ltac:(lia)). unfold slot_of in *.
      destruct (nth (Z.to_nat lo) (r_cont r) None) eqn:X.
      + destruct (find _ (zr (lo + 1) (zlen (r_cont r)))).
        * destruct IH as (P1 & P2 & P3). split; [lia|]. split; auto. intros i I. destruct (Z.eq_dec i lo) as [->|]; [congruence|]. apply P2. lia.
        * intros i I. destruct (Z.eq_dec i lo) as [->|]; [congruence|]. apply IH. lia.
      + split; [lia|]. split; [lia|]. exact X. }
  specialize (G _ (r_ff r + 1) eq_refl ltac:(lia)). destruct (find _ _).
  - destruct G as (P1 & P2 & P3). split; [lia|]. split; auto. intros; apply P2; lia.
  - split; [lia|]. split; [|lia]. intros i I. apply G. lia.
Qed.
Lemma pool_add r c m : pool (r_cont r) (r_ff r) m -> exists r1 i, add_container r c = (r1, create_leaf i (typecode c)) /\ r_art r1 = r_art r /\
  pool (r_cont r1) (r_ff r1) ((i, c) :: m).
Proof.
  intros P. pose proof P as (A & B & C & D & E & F). unfold add_container, allocate_index.
  set (r1 := if r_ff r =? zlen (r_cont r) then extend_containers r else r).
  assert (X : r_art r1 = r_art r /\ r_ff r1 = r_ff r /\ pool (r_cont r1) (r_ff r1) m /\ r_ff r < zlen (r_cont r1)).
  { subst r1. destruct (Z.eqb_spec (r_ff r) (zlen (r_cont r))) as [EQ|NE]; [|split; [reflexivity|]; split; [reflexivity|]; split; [exact P|lia]].
    unfold extend_containers. replace (r_ff r <? zlen (r_cont r)) with false by lia. cbn [r_art r_ff r_cont].
    set (nc := if zlen (r_cont r) =? 0 then 2 else if zlen (r_cont r) <? 1024 then 2 * zlen (r_cont r) else 5 * zlen (r_cont r) / 4).
    assert (NC : zlen (r_cont r) < nc).
    { subst nc. destruct (Z.eqb_spec (zlen (r_cont r)) 0); [lia|]. destruct (Z.ltb_spec (zlen (r_cont r)) 1024); [lia|]. apply Z.lt_le_trans with ((4 * zlen (r_cont r) + 4) / 4); [|apply Z.div_le_mono; lia].
      rewrite (Z.mul_comm 4), Z.div_add_l by lia. change (4/4) with 1. lia. }
    assert (SL : forall i, 0 <= i -> slot_of (r_cont r ++ repeat None (Z.to_nat (nc - zlen (r_cont r)))) i = slot_of (r_cont r) i).
    { intros i I. unfold slot_of. destruct (Z.ltb_spec i (zlen (r_cont r))); [rewrite app_nth1; auto; unfold zlen in *; lia|].
      rewrite app_nth2, (nth_overflow (r_cont r)) by (unfold zlen in *; lia). apply nth_repeat. }
    assert (LN : zlen (r_cont r ++ repeat None (Z.to_nat (nc - zlen (r_cont r)))) = nc) by (rewrite zlen_app; unfold zlen at 2; rewrite repeat_length; lia).
    split; auto. split; auto. split; [|lia]. unfold pool. rewrite LN. repeat match goal with |- _ /\ _ => split end; auto; try lia.
    - intros i d H. rewrite SL by (apply A in H; lia). auto.
    - intros i I. rewrite SL by auto. auto.
    - intros i I. rewrite SL by lia. auto.
    - intros _. rewrite SL by lia. unfold slot_of. apply nth_overflow. unfold zlen in *. lia. }
  clearbody r1. destruct X as (XA & XF & (A1 & B1 & C1 & D1 & E1 & F1) & XL). rewrite XF in *.
  exists (set_cont (R64 (r_art r1) (next_free_container_idx r1) (r_cont r1)) (r_ff r) (Some c)), (r_ff r). split; [reflexivity|]. split; [exact XA|].
  unfold set_cont. cbn [r_cont r_ff r_art]. pose proof (next_free_spec r1) as NF. cbn zeta in NF. rewrite XF in NF. destruct NF as (N1 & N2 & N3); [lia|].
  set (n := next_free_container_idx r1) in *. clearbody n.
  assert (L : zlen (upd (Z.to_nat (r_ff r)) (Some c) (r_cont r1)) = zlen (r_cont r1)) by (unfold zlen; now rewrite upd_length).
  specialize (F1 XL).
  unfold pool. rewrite L. repeat match goal with |- _ /\ _ => split end; try lia.
  - intros j e [H|H].
    + injection H as <- <-. split; [lia|]. rewrite slot_upd by lia. now rewrite Z.eqb_refl.
    + destruct (A1 j e H) as (J & T). split; auto. rewrite slot_upd by lia. destruct (Z.eqb_spec j (r_ff r)) as [->|]; auto. congruence.
  - cbn [map fst]. constructor; auto. intros H. apply in_map_iff in H as ([j e] & Q & H). cbn in Q. subst. apply A1 in H as (_ & H). congruence.
  - intros j J. rewrite slot_upd by lia. cbn [map fst In]. destruct (Z.eqb_spec j (r_ff r)) as [->|]; [now left|]. right. auto.
  - intros j J. rewrite slot_upd by lia. destruct (Z.eqb_spec j (r_ff r)) as [->|]; [congruence|]. destruct (Z.ltb_spec j (r_ff r)); [apply E1; lia|apply N2; lia].
  - intros H. rewrite slot_upd by lia. destruct (Z.eqb_spec n (r_ff r)) as [->|]; [lia|]. auto.
Qed.

(** ** The invariant: the entries of the tree in key order, each with its leaf, slot and container *)
Record ent := Ent { e_key : list Z; e_lf : Z; e_ix : Z; e_c : container }.
Definition eval (x : ent) : Z := create_leaf (e_ix x) (typecode (e_c x)).
Definition efl (x : ent) : list Z * (Z * Z) := (e_key x, (e_lf x, eval x)).
Definition eix (x : ent) : Z * container := (e_ix x, e_c x).
Definition ekc (x : ent) : Z * container := (kv (e_key x), e_c x).
Definition setc (x : ent) (c : container) : ent := Ent (e_key x) (e_lf x) (e_ix x) c.
Definition R (r : r64) (xs : list ent) : Prop := arep (r_art r) (map efl xs) /\ pool (r_cont r) (r_ff r) (map eix xs).

Lemma R_len r xs : R r xs -> (length xs < fuel64 r)%nat.
Proof. intros (_ & P). apply pool_len in P. rewrite map_length in P. unfold fuel64. lia. Qed.
Lemma R_key r xs x : R r xs -> In x xs -> key6 (e_key x).
Proof. intros (A & _) H. eapply (arep_keys _ _ (e_key x) (e_lf x, eval x)); [exact A|]. now apply (in_map efl) in H. Qed.
Lemma R_sorted r xs : R r xs -> incr (map (fun x => kv (e_key x)) xs).
Proof. intros (A & _). apply arep_sorted in A. rewrite map_map in A. exact A. Qed.
Lemma R_keys r xs : R r xs -> incr (rkeys (map ekc xs)).
Proof. intros H. apply R_sorted in H. unfold rkeys. rewrite map_map. exact H. Qed.
Lemma R_get r xs x : R r xs -> In x xs -> get_container r (eval x) = Some (e_c x).
Proof.
  intros (_ & P) H. destruct P as (A & _). destruct (A (e_ix x) (e_c x)) as (I & S); [now apply (in_map eix) in H|].
  unfold get_container, eval, slot64. destruct (leaf_parts (e_ix x) (e_c x)) as (-> & ->).
  assert (e_ix x < zlen (r_cont r)) by (apply slot_in; [auto|congruence]). replace ((0 <=? e_ix x) && (e_ix x <? zlen (r_cont r))) with true by lia.
  unfold slot_of in S. rewrite S. cbn [obind]. now rewrite Z.eqb_refl.
Qed.
Lemma R_val r xs x : R r xs -> In x xs -> leaf_val (r_art r) (e_lf x) = Some (eval x).
Proof. intros (A & _) H. apply (arep_leaf_val (r_art r) (map efl xs) (e_key x)); [exact A|]. now apply (in_map efl) in H. Qed.
Lemma R_raw r xs x : R r xs -> In x xs -> leaf_raw (r_art r) (e_lf x) = Some (eval x).
Proof. intros H I. apply raw_of_val. eapply R_val; eauto. Qed.
Lemma R_lf r xs x : R r xs -> In x xs -> e_lf x <> 0.
Proof. intros (A & _) H. eapply (arep_leaf _ _ (e_key x) (e_lf x) (eval x)); [exact A|]. now apply (in_map efl) in H. Qed.
Lemma R_create : R roaring64_bitmap_create [].
Proof.
  split; [apply arep_cleared|]. unfold pool, slot_of. cbn [r_cont r_ff roaring64_bitmap_create map].
  split; [intros ? ? []|]. split; [constructor|]. split; [intros i _ H; now destruct (Z.to_nat i)|]. change (zlen (@nil (option container))) with 0.
  split; [lia|]. split; intros; lia.
Qed.
Lemma efl_keys xs : map fst (map efl xs) = map e_key xs.
Proof. rewrite map_map. reflexivity. Qed.
Lemma R_find r xs key : R r xs -> key6 key -> exists lf, art_find (r_art r) key = Some lf /\
  ((exists l x t, xs = l ++ x :: t /\ e_key x = key /\ lf = e_lf x /\ lf <> 0) \/ (lf = 0 /\ ~ In key (map e_key xs))).
Proof.
  intros H K. destruct (arep_find _ _ key (proj1 H) K) as (lf & E & [(v & I)|(-> & N)]).
  - exists lf. split; auto. left. apply in_map_iff in I as (x & X & I). injection X as X1 X2 X3. apply in_split in I as (l & t & ->).
    exists l, x, t. repeat split; auto. rewrite <- X2. eapply R_lf; [exact H|]. apply in_elt.
  - exists 0. split; auto. right. split; auto. now rewrite efl_keys in N.
Qed.
Lemma R_replace r l x t c : R r (l ++ x :: t) -> exists r1, replace_container r (e_lf x) c = Some r1 /\ R r1 (l ++ setc x c :: t) /\
  length (r_cont r1) = length (r_cont r) /\
  (forall (Q : Z -> Prop) it, ipos Q (r_art r) it (map efl l) (map efl (x :: t)) -> ipos Q (r_art r1) it (map efl l) (map efl (setc x c :: t))).
Proof.
  intros H. pose proof H as (A & P). unfold replace_container. rewrite (R_val _ _ x H) by apply in_elt. cbn [obind].
  unfold eval. destruct (leaf_parts (e_ix x) (e_c x)) as (-> & _).
  assert (P' : pool (r_cont r) (r_ff r) ((e_ix x, e_c x) :: map eix (l ++ t))).
  { eapply pool_perm; [|exact P]. rewrite !map_app. cbn [map]. apply Permutation_sym, Permutation_middle. }
  pose proof P' as (S & _). destruct (S (e_ix x) (e_c x) (or_introl eq_refl)) as (I & SL).
  assert (e_ix x < zlen (r_cont r)) by (apply slot_in; [auto|congruence]).
  unfold guard. replace ((0 <=? e_ix x) && (e_ix x <? zlen (r_cont r))) with true by lia. cbn [obind].
  rewrite map_app in A. cbn [map] in A. unfold efl at 2 in A.
  destruct (arep_set (r_art r) _ _ _ _ _ (create_leaf (e_ix x) (typecode c)) A) as (a & E & A'). rewrite E. cbn [obind].
  eexists. split; [reflexivity|]. split; [|split].
  - split.
    + cbn [with_art r_art]. rewrite map_app. cbn [map]. exact A'.
    + cbn [with_art r_ff r_cont set_cont]. eapply pool_perm; [|apply (pool_set _ _ _ _ c _ P')]. rewrite !map_app. cbn [map]. apply Permutation_middle.
  - cbn [with_art r_cont set_cont]. now rewrite upd_length.
  - intros Q it IP. cbn [with_art r_art]. cbn [map] in *. unfold efl at 2 in IP.
    destruct (ipos_set Q (r_art r) it _ _ _ _ _ (create_leaf (e_ix x) (typecode c)) (proj1 A) IP) as (a2 & E2 & IP'). rewrite E in E2. injection E2 as <-. exact IP'.
Qed.
Lemma map_split {A B} (f : A -> B) xs l r : map f xs = l ++ r -> exists l' r', xs = l' ++ r' /\ l = map f l' /\ r = map f r'.
Proof.
  revert l. induction xs as [|x xs IH]; intros [|y l] E; cbn in E.
  - destruct r; [|discriminate]. now exists [], [].
  - discriminate.
  - exists [], (x :: xs). auto.
  - injection E as <- E. destruct (IH _ E) as (l' & r' & -> & -> & ->). now exists (x :: l'), r'.
Qed.
(** adding a container and a leaf for it, with either way of inserting in the tree *)
Lemma R_add r xs key c : R r xs -> key6 key -> ~ In key (map e_key xs) -> exists r1 i, add_container r c = (r1, create_leaf i (typecode c)) /\ r_art r1 = r_art r /\
  (forall a lf l t, xs = l ++ t -> arep a (map efl l ++ (key, (lf, create_leaf i (typecode c))) :: map efl t) -> R (with_art r1 a) (l ++ Ent key lf i c :: t)).
Proof.
  intros (A & P) K N. destruct (pool_add r c _ P) as (r1 & i & E & EA & P1). exists r1, i. split; auto. split; auto.
  intros a lf l t -> H. split.
  - cbn [with_art r_art]. rewrite map_app. exact H.
  - cbn [with_art r_cont r_ff]. eapply pool_perm; [|exact P1]. rewrite !map_app. cbn [map]. apply Permutation_middle.
Qed.
Lemma R_insert r xs key c : R r xs -> key6 key -> ~ In key (map e_key xs) -> exists r1 lf l t i, insert_container r key c = Some (r1, lf) /\ xs = l ++ t /\
  R r1 (l ++ Ent key lf i c :: t).
Proof.
  intros H K N. destruct (R_add r xs key c H K N) as (r1 & i & E & EA & G). unfold insert_container. rewrite E, EA.
  destruct (arep_insert (r_art r) _ key (create_leaf i (typecode c)) (proj1 H) K) as (a & lf & l & t & EI & ES & AR); [now rewrite efl_keys|].
  rewrite EI. cbn [obind]. apply map_split in ES as (l' & t' & -> & -> & ->).
  exists (with_art r1 a), lf, l', t', i. split; auto.
Qed.
Lemma incr_app_lt (l : list Z) x t y : incr (l ++ x :: t) -> (In y l -> y < x) /\ (In y t -> x < y).
Proof.
  induction l as [|z l IH]; cbn [app incr In]; intros H.
  - destruct H as (F & _). rewrite Forall_forall in F. split; [tauto|apply F].
  - destruct H as (F & H). rewrite Forall_forall in F. destruct (IH H) as (A & B). split; [|exact B].
    intros [<-|I]; [apply F; apply in_elt|auto].
Qed.
Lemma R_append r xs key c : R r xs -> key6 key -> (forall x, In x xs -> kv (e_key x) < kv key) -> exists r1 lf x, insert_container r key c = Some (r1, lf) /\
  R r1 (xs ++ [x]) /\ ekc x = (kv key, c) /\ e_key x = key.
Proof.
  intros H K L. assert (N : ~ In key (map e_key xs)).
  { intros I. apply in_map_iff in I as (x & E & I). apply L in I. rewrite E in I. lia. }
  destruct (R_insert r xs key c H K N) as (r1 & lf & l & t & i & E & -> & H1). exists r1, lf, (Ent key lf i c). split; auto.
  assert (t = []) as ->.
  { destruct t as [|y t]; auto. exfalso. specialize (L y (in_elt _ _ _)). apply R_sorted in H1. rewrite map_app in H1. cbn [map e_key] in H1.
    apply incr_app_lt with (y := kv (e_key y)) in H1 as (_ & H1). specialize (H1 (or_introl eq_refl)). lia. }
  rewrite app_nil_r in *. split; [exact H1|]. split; reflexivity.
Qed.
Lemma R_erase r l x t : R r (l ++ x :: t) -> exists a, art_erase (r_art r) (e_key x) = Some (a, Some (eval x)) /\ leaf_raw a (e_lf x) = Some (eval x) /\
  R (remove_container (with_art r a) (eval x)) (l ++ t).
Proof.
  intros (A & P). rewrite map_app in A. cbn [map] in A. unfold efl at 2 in A. destruct (arep_erase_raw _ _ _ _ _ _ A) as (a & E & A' & RW). exists a. split; auto. split; auto.
  split; [rewrite map_app; exact A'|]. unfold remove_container, eval. destruct (leaf_parts (e_ix x) (e_c x)) as (-> & _). cbn [with_art r_ff r_cont].
  apply (pool_remove _ _ _ (e_c x)). eapply pool_perm; [|exact P]. rewrite !map_app. cbn [map]. apply Permutation_sym, Permutation_middle.
Qed.
Lemma R_it_erase (Q : Z -> Prop) r it l x t : R r (l ++ x :: t) -> ipos Q (r_art r) it (map efl l) (map efl (x :: t)) ->
  exists a it', art_iterator_erase (r_art r) it = Some (a, it', Some (eval x)) /\ leaf_raw a (e_lf x) = Some (eval x) /\
    R (remove_container (with_art r a) (eval x)) (l ++ t) /\ ipos any a it' (map efl l) (map efl t).
Proof.
  intros (A & P) IP. rewrite map_app in A. cbn [map] in A, IP. unfold efl at 2 in A. unfold efl at 2 in IP.
  destruct (arep_iterator_erase_raw Q _ _ _ _ _ _ _ A IP) as (a & it' & E & A' & IP' & RW). exists a, it'. split; auto. split; auto. split; [|exact IP'].
  split; [rewrite map_app; exact A'|]. unfold remove_container, eval. destruct (leaf_parts (e_ix x) (e_c x)) as (-> & _). cbn [with_art r_ff r_cont].
  apply (pool_remove _ _ _ (e_c x)). eapply pool_perm; [|exact P]. rewrite !map_app. cbn [map]. apply Permutation_sym, Permutation_middle.
Qed.
Lemma remove_len r v : length (r_cont (remove_container r v)) = length (r_cont r).
Proof. unfold remove_container. cbn. apply upd_length. Qed.

(** ** Iterators over the entries *)
Definition at_ (Q : Z -> Prop) (r : r64) (it : iter) (l t : list ent) : Prop := ipos Q (r_art r) it (map efl l) (map efl t).
Lemma at_first r xs : R r xs -> exists it, art_init_iterator (r_art r) true = Some it /\ at_ (rooted (r_art r)) r it [] xs.
Proof. intros (A & _). exact (arep_first _ _ A). Qed.
Lemma at_end Q r it l : at_ Q r it l [] -> i_val it = 0.
Proof. apply ipos_end. Qed.
Lemma at_val Q r it l x t : at_ Q r it l (x :: t) -> i_val it = e_lf x /\ i_key it = e_key x /\ e_lf x <> 0.
Proof. intros H. exact (ipos_val _ _ _ _ _ _ _ _ H). Qed.
Lemma at_next (Q : Z -> Prop) r it l x t : Q (a_root (r_art r)) -> at_ Q r it l (x :: t) -> exists it', art_iterator_next (r_art r) it = Some (it', some t) /\ at_ Q r it' (l ++ [x]) t.
Proof.
  intros HQ H. destruct (ipos_next Q _ _ _ _ _ HQ H) as (it' & E & P). exists it'. unfold at_. rewrite map_app. split; auto.
  rewrite E. do 2 f_equal. now destruct t.
Qed.
Lemma at_any Q r it l t : at_ Q r it l t -> at_ any r it l t.
Proof. apply ipos_any. Qed.
Lemma map_efl_inj xs : forall ys, NoDup (map eix xs) -> map efl xs = map efl ys -> map eix xs = map eix ys -> xs = ys.
Proof.
  induction xs as [|x xs IH]; intros [|y ys] N E F; try discriminate; auto. cbn [map] in *. inversion N; subst. injection E as E1 E2 E3 E. injection F as F1 F2 F.
  f_equal; [|auto]. destruct x, y; cbn in *; congruence.
Qed.

(** the loop of [each] over the entries it visits *)
Fixpoint efold {A} (body : list Z -> Z -> A -> option (A * bool)) (xs : list ent) (s : A) : option A :=
  match xs with
  | [] => Some s
  | x :: t => do (s1, go) <- body (e_key x) (eval x) s; if negb (go : bool) then Some s1 else efold body t s1
  end.
Lemma each_efold {A} r (body : list Z -> Z -> A -> option (A * bool)) xs : R r xs -> forall t l it s fuel, xs = l ++ t -> at_ any r it l t -> (length t < fuel)%nat ->
  each fuel (r_art r) it body s = efold body t s.
Proof.
  intros H. induction t as [|x t IH]; intros l it s fuel E P F; destruct fuel as [|f]; cbn [length] in F; try lia; cbn [each efold].
  - now rewrite (at_end _ _ _ _ P).
  - destruct (at_val _ _ _ _ _ _ P) as (V & K & NZ). rewrite V, K. destruct (Z.eqb_spec (e_lf x) 0); [tauto|].
    rewrite (R_val r xs x H) by (subst; apply in_elt). cbn [obind]. destruct (body (e_key x) (eval x) s) as [[s1 [|]]|]; cbn [obind negb]; auto.
    destruct (at_next any r it l x t Logic.I P) as (it' & -> & P'). cbn [obind]. apply (IH (l ++ [x])); auto; [now rewrite <- app_assoc|lia].
Qed.
Lemma each_of_efold {A} r (body : list Z -> Z -> A -> option (A * bool)) xs s : R r xs -> each_of r body s = efold body xs s.
Proof.
  intros H. unfold each_of. destruct (at_first r xs H) as (it & -> & P). cbn [obind].
  apply (each_efold r body xs H xs [] it s); auto; [eapply at_any; eauto|now apply R_len].
Qed.
(** the entries at or after a key *)
Definition esplit (h : Z) (l t : list ent) : Prop := (forall x, In x l -> kv (e_key x) < h) /\ (forall x, In x t -> h <= kv (e_key x)).
Lemma lsplit_esplit key l t : lsplit key (map efl l) (map efl t) -> esplit (kv key) l t.
Proof. intros (A & B). split; intros x I; [apply (A (efl x))|apply (B (efl x))]; now apply (in_map efl). Qed.
Lemma at_lower_bound r xs key : R r xs -> key6 key -> exists it l t, art_lower_bound (r_art r) key = Some it /\ xs = l ++ t /\ at_ any r it l t /\ esplit (kv key) l t.
Proof.
  intros (A & _) K. destruct (arep_lower_bound _ _ key A K) as (it & l & t & E & S & P & L). apply map_split in S as (l' & t' & -> & -> & ->).
  exists it, l', t'. split; auto. split; auto. split; auto. now apply lsplit_esplit.
Qed.
Lemma at_upper_bound r xs key : R r xs -> key6 key -> exists it l t, art_upper_bound (r_art r) key = Some it /\ xs = l ++ t /\ at_ any r it l t /\ esplit (kv key + 1) l t.
Proof.
  intros (A & _) K. destruct (arep_upper_bound _ _ key A K) as (it & l & t & E & S & P & L1 & L2). apply map_split in S as (l' & t' & -> & -> & ->).
  exists it, l', t'. split; auto. split; auto. split; auto. split; intros x I; apply (in_map efl) in I; [apply L1 in I|apply L2 in I]; unfold ik, efl in I; cbn [fst] in I; lia.
Qed.
Lemma at_it_lower_bound r xs it l t key : R r xs -> at_ (rooted (r_art r)) r it l t -> key6 key -> exists it' l' t', art_iterator_lower_bound (r_art r) it key = Some (it', some t') /\
  xs = l' ++ t' /\ at_ (rooted (r_art r)) r it' l' t' /\ esplit (kv key) l' t'.
Proof.
  intros (A & _) P K. destruct (ipos_lower_bound (rooted (r_art r)) _ _ _ _ _ key A P) as (it' & l' & t' & E & S & P' & L); auto; [reflexivity|].
  apply map_split in S as (l2 & t2 & -> & -> & ->). exists it', l2, t2. split; [rewrite E; do 2 f_equal; now destruct t2|]. split; auto. split; auto. now apply lsplit_esplit.
Qed.

(** ** Keyed lists with 48-bit keys *)
Definition g48 (lo : Z) (r : bitmap) : Prop := incr (rkeys r) /\ inb lo (2^48) (rkeys r) /\ Forall (fun p => cok (snd p)) r.
Lemma g48_nil lo : g48 lo []. Proof. repeat split; constructor. Qed.
Lemma g48_cons lo k c t : g48 lo ((k, c) :: t) <-> lo <= k < 2^48 /\ cok c /\ g48 (k + 1) t.
Proof.
  unfold g48, rkeys, inb. cbn [map fst incr]. rewrite !Forall_cons_iff, !Forall_forall. cbn [fst snd]. split.
  - intros ((A & B) & (C & D) & E & F). repeat match goal with |- _ /\ _ => split end; auto; try lia; intros x I; specialize (A x I); specialize (D x I); lia.
  - intros (A & B & C & D & E). repeat match goal with |- _ /\ _ => split end; auto; try lia; intros x I; specialize (D x I); lia.
Qed.
Lemma g48_weaken lo lo' r : g48 lo r -> lo' <= lo -> g48 lo' r.
Proof. intros (A & B & C) H. split; auto. split; auto. unfold inb in *. rewrite Forall_forall in *. intros x I. specialize (B x I). lia. Qed.
Lemma g48_below lo r k x : g48 lo r -> k < lo -> km r k x = false.
Proof.
  intros (A & B & C) H. unfold km. rewrite look_none; auto. intros I. unfold inb in B. rewrite Forall_forall in B. apply B in I. lia.
Qed.
Lemma g48_app lo a b : g48 lo (a ++ b) -> g48 lo a /\ g48 lo b.
Proof.
  revert lo. induction a as [|[k c] a IH]; intros lo H; [split; [apply g48_nil|exact H]|]. cbn [app] in H. apply g48_cons in H as (A & B & C). apply IH in C as (C & D).
  split; [now apply g48_cons|]. eapply g48_weaken; [exact D|lia].
Qed.
Lemma R_g48 r xs : R r xs -> Forall (fun x => cok (e_c x)) xs -> g48 0 (map ekc xs).
Proof.
  intros H C. split; [eapply R_keys; eauto|]. split.
  - unfold inb, rkeys. rewrite map_map. rewrite Forall_forall. intros k I. apply in_map_iff in I as (x & <- & I). cbn. apply key6_range. eapply R_key; eauto.
  - rewrite Forall_map. exact C.
Qed.
(** ** Denotation *)
Definition den (r : r64) (P : Z -> bool) : Prop := exists xs, R r xs /\ Forall (fun x => cok (e_c x)) xs /\ forall v, v64 v -> mem (map ekc xs) v = P v.
Lemma den_ext r P Q : den r P -> (forall v, v64 v -> P v = Q v) -> den r Q.
Proof. intros (xs & A & B & C) E. exists xs. split; auto. split; auto. intros v V. now rewrite C, E. Qed.
(** by key and low part *)
Lemma den_km r xs P : R r xs -> Forall (fun x => cok (e_c x)) xs ->
  (forall k x, 0 <= k < 2^48 -> 0 <= x < 65536 -> km (map ekc xs) k x = P (k * 65536 + x)) -> den r P.
Proof.
  intros H C K. exists xs. split; auto. split; auto. intros v V. unfold mem. rewrite K.
  - f_equal. pose proof (Z.div_mod v 65536 ltac:(lia)). lia.
  - unfold v64 in V. split; [apply Z.div_pos; lia|apply Z.div_lt_upper_bound; lia].
  - apply Z.mod_pos_bound. lia.
Qed.
Lemma mem_km r k x : 0 <= k < 2^48 -> 0 <= x < 65536 -> mem r (k * 65536 + x) = km r k x.
Proof. intros K X. unfold mem. rewrite Z.div_add_l, Z.div_small, Z.add_0_r by lia. now rewrite Z.add_comm, Z.mod_add, Z.mod_small by lia. Qed.
Lemma v64_kx k x : 0 <= k < 2^48 -> 0 <= x < 65536 -> v64 (k * 65536 + x).
Proof. unfold v64. lia. Qed.
Lemma den_inv r P : den r P -> exists xs, R r xs /\ Forall (fun x => cok (e_c x)) xs /\ g48 0 (map ekc xs) /\
  forall k x, 0 <= k < 2^48 -> 0 <= x < 65536 -> km (map ekc xs) k x = P (k * 65536 + x).
Proof.
  intros (xs & A & B & C). exists xs. split; auto. split; auto. split; [eapply R_g48; eauto|]. intros k x K X. rewrite <- mem_km by auto. apply C. now apply v64_kx.
Qed.
