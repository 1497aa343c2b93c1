(** R64V: the self-check and the statistics of a 64-bit bitmap. *)
From Verif Require Import Base ArrayUtil BitUtil BitsetC ArrayC RunC RunD Convert Containers RArray Art ArtS ArtN ArtT ArtR ArtV R64 R64P R64Q R64C.
From Verif Require RQuery.
Local Opaque zr n48_pairs n256_pairs.

(** ** The code *)
(** roaring64.c:1039-1046 roaring64_leaf_internal_validate, 1048-1052 roaring64_bitmap_internal_validate *)
Definition roaring64_leaf_internal_validate (r : r64) (leaf : Z) : option bool :=
  do c <- get_container r leaf; Some (container_internal_validate c).
Definition roaring64_bitmap_internal_validate (r : r64) : option bool := art_internal_validate (r_art r) (roaring64_leaf_internal_validate r).

(** roaring_types.h:108-136 roaring64_statistics_t (all fields are uint64) *)
Record stat64 := Stat64 {
  s_containers : Z; s_array_containers : Z; s_run_containers : Z; s_bitset_containers : Z;
  s_values_array : Z; s_values_run : Z; s_values_bitset : Z;
  s_bytes_array : Z; s_bytes_run : Z; s_bytes_bitset : Z;
  s_max : Z; s_min : Z; s_cardinality : Z }.
Definition u64 (x : Z) : Z := x mod 2^64.
(** roaring64.c:1004-1036: one pass of the loop *)
Definition stat_body (r : r64) (key : list Z) (leaf : Z) (s : stat64) : option (stat64 * bool) :=
  do c <- get_container r leaf;
  let card := container_get_cardinality c in
  let sbytes := RQuery.container_size_in_bytes c in
  let s1 := match c with
    | CBit _ => Stat64 (u64 (s_containers s + 1)) (s_array_containers s) (s_run_containers s) (u64 (s_bitset_containers s + 1))
        (s_values_array s) (s_values_run s) (u64 (s_values_bitset s + card)) (s_bytes_array s) (s_bytes_run s) (u64 (s_bytes_bitset s + sbytes))
        (s_max s) (s_min s) (u64 (s_cardinality s + card))
    | CArr _ => Stat64 (u64 (s_containers s + 1)) (u64 (s_array_containers s + 1)) (s_run_containers s) (s_bitset_containers s)
        (u64 (s_values_array s + card)) (s_values_run s) (s_values_bitset s) (u64 (s_bytes_array s + sbytes)) (s_bytes_run s) (s_bytes_bitset s)
        (s_max s) (s_min s) (u64 (s_cardinality s + card))
    | CRun _ => Stat64 (u64 (s_containers s + 1)) (s_array_containers s) (u64 (s_run_containers s + 1)) (s_bitset_containers s)
        (s_values_array s) (u64 (s_values_run s + card)) (s_values_bitset s) (s_bytes_array s) (u64 (s_bytes_run s + sbytes)) (s_bytes_bitset s)
        (s_max s) (s_min s) (u64 (s_cardinality s + card))
    end in
  Some (s1, true).
(** roaring64.c:998-1037 roaring64_bitmap_statistics *)
Definition roaring64_bitmap_statistics (r : r64) : option stat64 :=
  do mn <- roaring64_bitmap_minimum r; do mx <- roaring64_bitmap_maximum r;
  each_of r (stat_body r) (Stat64 0 0 0 0 0 0 0 0 0 0 mx mn 0).

(** ** The self-check accepts exactly the bitmaps whose containers are all sound *)
Lemma forallb_Forall {A} (p : A -> bool) (Q : A -> Prop) l : (forall x, In x l -> (p x = true <-> Q x)) -> (forallb p l = true <-> Forall Q l).
Proof.
  intros H. rewrite forallb_forall, Forall_forall. split; intros G x I; apply H; auto.
Qed.
Lemma internal_validate64 r xs : R r xs -> Forall (fun x => ctyped (e_c x)) xs ->
  exists b, roaring64_bitmap_internal_validate r = Some b /\ (b = true <-> Forall (fun x => cok (e_c x)) xs).
Proof.
  intros H T. unfold roaring64_bitmap_internal_validate.
  set (fb := fun v => match get_container r v with Some c => container_internal_validate c | None => false end).
  rewrite (internal_validate_ok (r_art r) (map efl xs) (roaring64_leaf_internal_validate r) fb); [|exact (proj1 H)|].
  - eexists. split; [reflexivity|]. rewrite Forall_forall in T. rewrite (forallb_Forall _ (fun e => exists x, In x xs /\ e = efl x /\ cok (e_c x))).
    + rewrite !Forall_forall. split.
      * intros G x I. destruct (G (efl x) (in_map efl _ _ I)) as (y & Y & E & C). unfold efl in E. assert (EV : eval x = eval y) by congruence. pose proof (R_get r xs x H I) as G1. pose proof (R_get r xs y H Y) as G2. rewrite EV in G1. congruence.
      * intros G e I. apply in_map_iff in I as (x & <- & I). exists x. auto.
    + intros e I. apply in_map_iff in I as (x & <- & I). unfold vok, fb. cbn [efl snd]. rewrite (R_get r xs x H I). rewrite container_validate_spec by auto. split; [eauto|].
      intros (y & Y & E & C). unfold efl in E. assert (EV : eval x = eval y) by congruence. pose proof (R_get r xs x H I) as G1. pose proof (R_get r xs y H Y) as G2. rewrite EV in G1. congruence.
  - intros k l v I. apply in_map_iff in I as (x & E & I). assert (EV : v = eval x) by (unfold efl in E; congruence). subst v. unfold fb, roaring64_leaf_internal_validate. now rewrite (R_get r xs x H I).
Qed.

(** ** Statistics *)
Fixpoint etot (f : container -> Z) (xs : list ent) : Z := match xs with [] => 0 | x :: t => f (e_c x) + etot f t end.
Definition ofA (f : container -> Z) (c : container) : Z := match c with CArr _ => f c | _ => 0 end.
Definition ofR (f : container -> Z) (c : container) : Z := match c with CRun _ => f c | _ => 0 end.
Definition ofB (f : container -> Z) (c : container) : Z := match c with CBit _ => f c | _ => 0 end.
Definition uno (_ : container) : Z := 1.
Definition reduced (s : stat64) : Prop :=
  Forall (fun x => 0 <= x < 2^64) [s_containers s; s_array_containers s; s_run_containers s; s_bitset_containers s; s_values_array s; s_values_run s; s_values_bitset s;
    s_bytes_array s; s_bytes_run s; s_bytes_bitset s; s_cardinality s].
Lemma u64_in x : 0 <= x < 2^64 -> u64 x = x.
Proof. intros. now apply Z.mod_small. Qed.
Lemma u64_range x : 0 <= u64 x < 2^64.
Proof. apply Z.mod_pos_bound. lia. Qed.
Lemma u64_acc x y : u64 (u64 x + y) = u64 (x + y).
Proof. unfold u64. apply Z.add_mod_idemp_l. lia. Qed.
Lemma stat_fold64 r xs : (forall x, In x xs -> get_container r (eval x) = Some (e_c x)) -> forall s, reduced s ->
  efold (stat_body r) xs s = Some (Stat64 (u64 (s_containers s + etot uno xs))
    (u64 (s_array_containers s + etot (ofA uno) xs)) (u64 (s_run_containers s + etot (ofR uno) xs)) (u64 (s_bitset_containers s + etot (ofB uno) xs))
    (u64 (s_values_array s + etot (ofA container_get_cardinality) xs)) (u64 (s_values_run s + etot (ofR container_get_cardinality) xs)) (u64 (s_values_bitset s + etot (ofB container_get_cardinality) xs))
    (u64 (s_bytes_array s + etot (ofA RQuery.container_size_in_bytes) xs)) (u64 (s_bytes_run s + etot (ofR RQuery.container_size_in_bytes) xs)) (u64 (s_bytes_bitset s + etot (ofB RQuery.container_size_in_bytes) xs))
    (s_max s) (s_min s) (u64 (s_cardinality s + etot container_get_cardinality xs))).
Proof.
  induction xs as [|x t IH]; intros G s D; cbn [efold etot].
  - unfold reduced in D. destruct s as [a b c d e f g h i j k l m]. cbn [s_containers s_array_containers s_run_containers s_bitset_containers s_values_array s_values_run s_values_bitset s_bytes_array s_bytes_run s_bytes_bitset s_max s_min s_cardinality] in *.
    repeat match goal with H : Forall _ (_ :: _) |- _ => inversion H; subst; clear H end. rewrite !Z.add_0_r, !u64_in by assumption. reflexivity.
  - unfold stat_body at 1. rewrite (G x (or_introl eq_refl)). cbn [obind].
    assert (D' : forall s', reduced s' -> efold (stat_body r) t s' = _) by (intros s' D'; exact (IH (fun y I => G y (or_intror I)) s' D')). clear IH.
    unfold reduced in D. repeat match goal with H : Forall _ (_ :: _) |- _ => inversion H; subst; clear H end.
    destruct (e_c x) as [a|b|z] eqn:EC; cbn [negb]; (rewrite D'; [|unfold reduced; repeat constructor; cbn [s_containers s_array_containers s_run_containers s_bitset_containers s_values_array s_values_run s_values_bitset s_bytes_array s_bytes_run s_bytes_bitset s_max s_min s_cardinality]; first [apply u64_range|assumption|lia]]);
    cbn [s_containers s_array_containers s_run_containers s_bitset_containers s_values_array s_values_run s_values_bitset s_bytes_array s_bytes_run s_bytes_bitset s_max s_min s_cardinality];
    cbn [ofA ofB ofR uno]; rewrite !u64_acc, ?Z.add_0_l, ?Z.add_assoc; reflexivity.
Qed.
Lemma etot_split f xs : etot f xs = etot (ofA f) xs + etot (ofR f) xs + etot (ofB f) xs.
Proof. induction xs as [|x t IH]; cbn [etot]; [reflexivity|]. rewrite IH. destruct (e_c x); cbn [ofA ofR ofB]; lia. Qed.
Lemma etot_bound f g lo hi xs : Forall (fun x => cok (e_c x)) xs -> (forall c, cok c -> lo * g c <= f c <= hi * g c) -> lo * etot g xs <= etot f xs <= hi * etot g xs.
Proof. intros C H. induction C as [|x t D C IH]; cbn [etot]; [lia|]. specialize (H _ D). lia. Qed.
Lemma etot_ext f g xs : Forall (fun x => cok (e_c x)) xs -> (forall c, cok c -> f c = g c) -> etot f xs = etot g xs.
Proof. intros C H. induction C as [|x t D C IH]; cbn [etot]; [lia|]. rewrite (H _ D). lia. Qed.
Lemma etot_scale k f xs : etot (fun c => k * f c) xs = k * etot f xs.
Proof. induction xs as [|x t IH]; cbn [etot]; lia. Qed.
Lemma etot_uno xs : etot uno xs = zlen xs.
Proof. induction xs as [|x t IH]; cbn [etot]; [reflexivity|]. rewrite zlen_cons, IH. unfold uno. lia. Qed.
Lemma card_efold r xs : (forall x, In x xs -> get_container r (eval x) = Some (e_c x)) -> forall n, efold (card_body r) xs n = Some (n + etot container_get_cardinality xs).
Proof.
  induction xs as [|x t IH]; intros G n; cbn [efold etot]; [now rewrite Z.add_0_r|]. unfold card_body at 1. rewrite (G x (or_introl eq_refl)). cbn [obind negb]. rewrite IH by (intros; apply G; now right). f_equal. lia.
Qed.
Lemma keys48 r xs : R r xs -> zlen xs <= 2^48.
Proof.
  intros H. pose proof (R_sorted r xs H) as S. assert (B : inb 0 (2^48) (map (fun x => kv (e_key x)) xs)).
  { unfold inb. rewrite Forall_forall. intros k I. apply in_map_iff in I as (x & <- & I). apply key6_range. exact (R_key r xs x H I). }
  pose proof (incr_inb_len 0 (2^48) _ S B). rewrite zlen_map in *. lia.
Qed.
Lemma card_range c : cok c -> match c with CArr _ => 1 <= container_get_cardinality c <= 4096 | CBit _ => 4097 <= container_get_cardinality c <= 65536 | CRun _ => 1 <= container_get_cardinality c <= 65536 end.
Proof.
  intros D. pose proof (container_get_cardinality_spec c D) as E. destruct (cok_cne c D) as (x & Hx & M). unfold ccard in E. pose proof (cnt_bound (cmem c) 0 65536 ltac:(lia)) as Q.
  assert (P : 0 < cnt (cmem c) 0 65536). { destruct (Z_lt_dec 0 (cnt (cmem c) 0 65536)); auto. rewrite (cnt_none_inv (cmem c) 0 65536 ltac:(lia) x Hx) in M. discriminate. }
  destruct c as [a|b|z]; cbn [container_get_cardinality cok] in *; lia.
Qed.
(** what the statistics say *)
Definition stats64_sound (P : Z -> bool) (mn mx : Z) (s : stat64) : Prop :=
  s_min s = mn /\ s_max s = mx /\ s_cardinality s = cnt P 0 (2^64) mod 2^64 /\
  s_containers s = s_array_containers s + s_run_containers s + s_bitset_containers s /\
  0 <= s_array_containers s /\ 0 <= s_run_containers s /\ 0 <= s_bitset_containers s /\
  (s_values_array s + s_values_run s + s_values_bitset s) mod 2^64 = s_cardinality s /\
  (cnt P 0 (2^64) < 2^64 -> s_values_array s + s_values_run s + s_values_bitset s = s_cardinality s) /\
  s_array_containers s <= s_values_array s <= 4096 * s_array_containers s /\
  (cnt P 0 (2^64) < 2^64 -> 4097 * s_bitset_containers s <= s_values_bitset s <= 65536 * s_bitset_containers s) /\
  (cnt P 0 (2^64) < 2^64 -> s_run_containers s <= s_values_run s <= 65536 * s_run_containers s) /\
  s_bytes_array s = 2 * s_values_array s /\ s_bytes_bitset s = 8192 * s_bitset_containers s.
Lemma statistics64_spec r P xs : R r xs -> Lx xs P -> exists mn mx s, roaring64_bitmap_minimum r = Some mn /\ roaring64_bitmap_maximum r = Some mx /\
  roaring64_bitmap_statistics r = Some s /\ s_containers s = zlen xs /\ stats64_sound P mn mx s.
Proof.
  intros H L. assert (D : den r P) by (apply den_Lx; eauto). destruct (roaring64_bitmap_minimum_spec r P D) as (mn & E1 & _). destruct (roaring64_bitmap_maximum_spec r P D) as (mx & E2 & _).
  assert (EC : etot container_get_cardinality xs = cnt P 0 (2^64)).
  { pose proof (card_fold r P xs 0 0 (Lx_blocks0 _ _ L) (R_gets r [] xs H)) as F. rewrite (card_efold r xs (R_gets r [] xs H)) in F. assert (X : forall a b : Z, Some a = Some b -> a = b) by congruence. apply X in F. rewrite !Z.add_0_l, Z.mul_0_l in F. exact F. }
  exists mn, mx. unfold roaring64_bitmap_statistics. rewrite E1, E2. cbn [obind]. rewrite (each_of_efold r (stat_body r) xs) by auto. rewrite stat_fold64; [|exact (R_gets r [] xs H)|unfold reduced; repeat constructor; cbn; lia].
  eexists. split; [reflexivity|]. split; [reflexivity|]. split; [reflexivity|].
  assert (CK : Forall (fun x => cok (e_c x)) xs) by (destruct L as (_ & L & _); eapply Forall_impl; [|exact L]; cbn; tauto).
  pose proof (keys48 r xs H) as LX. pose proof (zlen_nonneg xs) as NX. rewrite <- etot_uno in LX, NX. unfold stats64_sound. rewrite <- EC. clear EC E1 E2 D H L.
  cbn [s_containers s_array_containers s_run_containers s_bitset_containers s_values_array s_values_run s_values_bitset s_bytes_array s_bytes_run s_bytes_bitset s_max s_min s_cardinality]. rewrite !Z.add_0_l.
  pose proof (etot_split uno xs) as S1. pose proof (etot_split container_get_cardinality xs) as S2.
  pose proof (etot_bound (ofA uno) uno 0 1 xs CK ltac:(intros [] _; unfold ofA, ofR, ofB, uno; lia)) as B1. pose proof (etot_bound (ofR uno) uno 0 1 xs CK ltac:(intros [] _; unfold ofA, ofR, ofB, uno; lia)) as B2. pose proof (etot_bound (ofB uno) uno 0 1 xs CK ltac:(intros [] _; unfold ofA, ofR, ofB, uno; lia)) as B3.
  assert (BA : etot (ofA uno) xs <= etot (ofA container_get_cardinality) xs <= 4096 * etot (ofA uno) xs).
  { rewrite <- (Z.mul_1_l (etot (ofA uno) xs)) at 1. apply etot_bound; auto. intros c D. destruct c; cbn [ofA uno]; try lia. pose proof (card_range _ D) as X. cbn [container_get_cardinality] in *. unfold uno. lia. }
  assert (BR : etot (ofR uno) xs <= etot (ofR container_get_cardinality) xs <= 65536 * etot (ofR uno) xs).
  { rewrite <- (Z.mul_1_l (etot (ofR uno) xs)) at 1. apply etot_bound; auto. intros c D. destruct c; cbn [ofR uno]; try lia. pose proof (card_range _ D) as X. cbn [container_get_cardinality] in *. unfold uno. lia. }
  assert (BB : 4097 * etot (ofB uno) xs <= etot (ofB container_get_cardinality) xs <= 65536 * etot (ofB uno) xs).
  { apply etot_bound; auto. intros c D. destruct c; cbn [ofB uno]; try lia. pose proof (card_range _ D) as X. cbn [container_get_cardinality] in *. unfold uno. lia. }
  assert (ZA : etot (ofA RQuery.container_size_in_bytes) xs = 2 * etot (ofA container_get_cardinality) xs).
  { rewrite <- etot_scale. apply etot_ext; auto. intros [] _; cbn [ofA RQuery.container_size_in_bytes container_get_cardinality]; lia. }
  assert (ZB : etot (ofB RQuery.container_size_in_bytes) xs = 8192 * etot (ofB uno) xs).
  { rewrite <- etot_scale. apply etot_ext; auto. intros [] _; cbn [ofB RQuery.container_size_in_bytes]; unfold uno; lia. }
  pose proof (etot_uno xs) as U0. rewrite ZA, ZB. clear ZA ZB CK. set (cA := etot (ofA container_get_cardinality) xs) in *. set (cR := etot (ofR container_get_cardinality) xs) in *. set (cB := etot (ofB container_get_cardinality) xs) in *. set (ct := etot container_get_cardinality xs) in *.
  set (nA := etot (ofA uno) xs) in *. set (nR := etot (ofR uno) xs) in *. set (nB := etot (ofB uno) xs) in *. set (n := etot uno xs) in *. clearbody cA cR cB ct nA nR nB n. rewrite (u64_in n), (u64_in nA), (u64_in nR), (u64_in nB), (u64_in cA), (u64_in (2 * cA)), (u64_in (8192 * nB)) by lia.
  split; [exact U0|]. split; [reflexivity|]. split; [reflexivity|]. split; [reflexivity|]. split; [lia|]. split; [lia|]. split; [lia|]. split; [lia|]. split.
  { unfold u64. rewrite (Z.add_assoc cA) || idtac. rewrite Z.add_mod_idemp_r by lia. replace (cA + cR mod 2^64 + cB) with (cR mod 2^64 + (cA + cB)) by lia. rewrite Z.add_mod_idemp_l by lia. f_equal. lia. }
  split. { intros Q. rewrite !u64_in by lia. lia. } split; [lia|]. split. { intros Q. rewrite !u64_in by lia. lia. } split. { intros Q. rewrite !u64_in by lia. lia. } split; lia.
Qed.
