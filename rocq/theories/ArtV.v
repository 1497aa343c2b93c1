(** ArtV: art_internal_validate, the self-check of the radix tree.
    The error text written through [reason] is not modelled; the result is. *)
From Verif Require Import Base BitUtil Art ArtS ArtN ArtT ArtL ArtR.
Local Opaque zr n48_pairs n256_pairs.

(** ** The code *)
(** the loop of art.c:450-467 and 635-652: keys strictly increasing, no later child equal
    to this one, then the child itself *)
Fixpoint validate_kc (rec : Z -> Z -> option bool) (prev : option Z) (kc : list (Z * Z)) : option bool :=
  match kc with
  | [] => Some true
  | (k, c) :: t =>
    if match prev with Some p => k <=? p | None => false end then Some false
    else if existsb (fun q => snd q =? c) t then Some false
    else do b <- rec k c; if b : bool then validate_kc rec (Some k) t else Some false
  end.
(** art.c:436-469 art_node4_internal_validate *)
Definition art_node4_internal_validate (rec : Z -> Z -> option bool) (kc : list (Z * Z)) : option bool :=
  if zlen kc =? 0 then Some false else if 4 <? zlen kc then Some false else if zlen kc =? 1 then Some false
  else validate_kc rec None kc.
(** art.c:625-654 art_node16_internal_validate *)
Definition art_node16_internal_validate (rec : Z -> Z -> option bool) (kc : list (Z * Z)) : option bool :=
  if zlen kc <=? 4 then Some false else if 16 <? zlen kc then Some false else validate_kc rec None kc.
(** art.c:814-829: used_children, or None when a slot is used twice or holds a null child *)
Fixpoint n48_used (l keys children : list Z) (used : Z) : option Z :=
  match l with
  | [] => Some used
  | i :: t =>
    let ci := znth keys i in
    if ci =? NODE48_EMPTY_VAL then n48_used t keys children used
    else if Z.testbit used ci then None
    else if znth children ci =? NULL_REF then None
    else n48_used t keys children (Z.lor used (Z.shiftl 1 ci))
  end.
(** art.c:836-849: some child equals a later one *)
Fixpoint has_dups (l : list Z) : bool :=
  match l with [] => false | x :: t => existsb (Z.eqb x) t || has_dups t end.
(** art.c:852-861 *)
Fixpoint n48_rec (rec : Z -> Z -> option bool) (l keys children : list Z) : option bool :=
  match l with
  | [] => Some true
  | i :: t =>
    if znth keys i =? NODE48_EMPTY_VAL then n48_rec rec t keys children
    else do b <- rec i (znth children (znth keys i)); if b : bool then n48_rec rec t keys children else Some false
  end.
(** art.c:805-863 art_node48_internal_validate; the two nested loops over the set bits of
    used_children are over the list of its bits (BitUtil.extract_word) *)
Definition art_node48_internal_validate (rec : Z -> Z -> option bool) (count avail : Z) (keys children : list Z) : option bool :=
  if count <=? 16 then Some false else if 48 <? count then Some false else
  match n48_used (zr 0 256) keys children 0 with
  | None => Some false
  | Some used =>
    if negb (used =? Z.lxor avail AVAILABLE_MASK) then Some false
    else if has_dups (map (znth children) (extract_word 64 used 0)) then Some false
    else n48_rec rec (zr 0 256) keys children
  end.
(** art.c:994-1013 *)
Fixpoint n256_rec (rec : Z -> Z -> option bool) (l children : list Z) (count actual : Z) : option bool :=
  match l with
  | [] => Some (actual =? count)
  | i :: t =>
    if znth children i =? NULL_REF then n256_rec rec t children count actual
    else if existsb (fun j => znth children i =? znth children j) t then Some false
    else do b <- rec i (znth children i); if b : bool then n256_rec rec t children count (actual + 1) else Some false
  end.
(** art.c:984-1017 art_node256_internal_validate *)
Definition art_node256_internal_validate (rec : Z -> Z -> option bool) (count : Z) (children : list Z) : option bool :=
  if count <=? 48 then Some false else if 256 <? count then Some false else n256_rec rec (zr 0 256) children count 0.
(** art.c:2216-2274 art_internal_validate_at; [cur] is the first validator.depth bytes of
    validator.current_key *)
Fixpoint art_internal_validate_at (fuel : nat) (a : art) (cb : Z -> option bool) (ref : Z) (cur : list Z) : option bool :=
  match fuel with
  | O => None
  | S f =>
    if ref =? NULL_REF then Some false
    else do n <- art_deref a ref;
    if art_is_leaf ref then
      match n with
      | NLeaf key v => if negb (art_compare_prefix key 0 cur 0 (zlen cur) =? 0) then Some false else cb v
      | _ => None
      end
    else if KEY_BYTES <? zlen cur + zlen (node_prefix n) + 1 then Some false
    else
      let cur1 := cur ++ node_prefix n in
      let rec := fun k c => art_internal_validate_at f a cb c (cur1 ++ [k]) in
      match n with
      | NLeaf _ _ => None
      | N4 _ kc => art_node4_internal_validate rec kc
      | N16 _ kc => art_node16_internal_validate rec kc
      | N48 _ count avail keys children => art_node48_internal_validate rec count avail keys children
      | N256 _ count children => art_node256_internal_validate rec count children
      end
  end.
(** art.c:2280-2309 art_internal_validate (the inner loop over i repeats one test capacity times) *)
Definition art_internal_validate (a : art) (cb : Z -> option bool) : option bool :=
  if a_root a =? NULL_REF then Some true
  else if existsb (fun t => (0 <? capacity a t) && (capacity a t <? a_ff a t)) [1; 2; 3; 4; 5] then Some false
  else art_internal_validate_at LEVELS a cb (a_root a) [].

(** ** Node checks reduce to the children *)
Fixpoint vkids (rec : Z -> Z -> option bool) (kc : list (Z * Z)) : option bool :=
  match kc with
  | [] => Some true
  | (k, c) :: t => do b <- rec k c; if b : bool then vkids rec t else Some false
  end.
Lemma validate_kc_ok rec kc : forall prev, incr (map fst kc) -> (forall p k, prev = Some p -> In k (map fst kc) -> p < k) -> NoDup (map snd kc) ->
  validate_kc rec prev kc = vkids rec kc.
Proof.
  induction kc as [|[k c] t IH]; intros prev I P N; auto. cbn [validate_kc vkids map fst snd] in *. destruct I as [I1 I2]. inversion N as [|? ? N1 N2]; subst.
  assert (E : match prev with Some p => k <=? p | None => false end = false).
  { destruct prev as [p|]; auto. specialize (P p k eq_refl (or_introl eq_refl)). lia. }
  rewrite E. clear E. assert (E : existsb (fun q : Z * Z => snd q =? c) t = false).
  { apply Bool.not_true_is_false. intros X. apply existsb_exists in X as (q & Q & X). apply N1. apply in_map_iff. exists q. split; auto. lia. }
  rewrite E. clear E. destruct (rec k c) as [[]|]; cbn [obind]; auto. apply IH; auto.
  intros p k' [= <-] Hk. rewrite Forall_forall in I1. exact (I1 _ Hk).
Qed.
Lemma has_dups_spec l : has_dups l = false <-> NoDup l.
Proof.
  induction l as [|x t IH]; cbn; [split; auto; constructor|]. rewrite Bool.orb_false_iff, IH. split.
  - intros [A B]. constructor; auto. intros H. apply (Bool.not_true_iff_false (existsb (Z.eqb x) t)) in A. apply A. apply existsb_exists. exists x. rewrite Z.eqb_refl. auto.
  - intros H. inversion H; subst. split; auto. apply Bool.not_true_is_false. intros X. apply existsb_exists in X as (y & Y & E). apply Z.eqb_eq in E. now subst.
Qed.
Lemma n48_rec_pairs rec keys children l : n48_rec rec l keys children =
  vkids rec (map (fun i => (i, znth children (znth keys i))) (filter (fun i => negb (znth keys i =? NODE48_EMPTY_VAL)) l)).
Proof.
  induction l as [|i t IH]; auto. cbn [n48_rec filter]. destruct (znth keys i =? NODE48_EMPTY_VAL); cbn [negb map vkids]; auto.
  destruct (rec i _) as [[]|]; cbn [obind]; auto.
Qed.
Lemma n48_used_ok keys children l : forall used,
  (forall i, In i l -> 0 <= znth keys i <= 48) -> NoDup l ->
  (forall i j, In i l -> In j l -> znth keys i = znth keys j -> znth keys i <> 48 -> i = j) ->
  (forall i, In i l -> znth keys i <> 48 -> Z.testbit used (znth keys i) = false /\ znth children (znth keys i) <> 0) ->
  exists u, n48_used l keys children used = Some u /\
    forall j, 0 <= j -> Z.testbit u j = Z.testbit used j || existsb (fun i => (znth keys i =? j) && negb (j =? 48)) l.
Proof.
  induction l as [|i t IH]; intros used B N D U; cbn [n48_used existsb]. { exists used. split; auto. intros. now rewrite Bool.orb_false_r. }
  inversion N as [|? ? N1 N2]; subst. unfold NODE48_EMPTY_VAL. destruct (Z.eqb_spec (znth keys i) 48) as [E|E].
  - destruct (IH used) as (u & E1 & E2); auto; [intros; apply B; now right|intros; apply D; auto; now right|intros; apply U; auto; now right|].
    exists u. split; auto. intros j Hj. rewrite E2 by auto. f_equal. rewrite E. destruct (48 =? j) eqn:?, (j =? 48) eqn:?; cbn; auto; lia.
  - destruct (U i (or_introl eq_refl) E) as [U1 U2]. rewrite U1. unfold NULL_REF. rewrite (proj2 (Z.eqb_neq _ 0) U2). pose proof (B i (or_introl eq_refl)) as Bi.
    assert (T1 : forall j, 0 <= j -> Z.testbit (Z.lor used (Z.shiftl 1 (znth keys i))) j = Z.testbit used j || (znth keys i =? j)).
    { intros j Hj. rewrite Z.lor_spec. f_equal. rewrite Z.shiftl_1_l. rewrite Z.pow2_bits_eqb by lia. reflexivity. }
    destruct (IH (Z.lor used (Z.shiftl 1 (znth keys i)))) as (u & E1 & E2); auto.
    + intros; apply B; now right.
    + intros; apply D; auto; now right.
    + intros x Hx Nx. pose proof (B x (or_intror Hx)). rewrite T1 by lia. destruct (U x (or_intror Hx) Nx) as [-> V]. split; auto. cbn. apply Z.eqb_neq. intros Q.
      apply N1. rewrite (D i x); auto; [now left|now right].
    + exists u. split; auto. intros j Hj. rewrite E2, T1 by auto. rewrite <- Bool.orb_assoc. f_equal. destruct (Z.eqb_spec (znth keys i) j); cbn; auto. subst j.
      rewrite (proj2 (Z.eqb_neq _ 48) E). reflexivity.
Qed.
Lemma In_zr256 i : In i (zr 0 256) <-> 0 <= i < 256.
Proof. apply zr_In. Qed.
Lemma NoDup_pairs_inj (f : Z -> Z) l i j : NoDup (map f l) -> In i l -> In j l -> f i = f j -> i = j.
Proof.
  induction l as [|x t IH]; cbn; [tauto|]. intros N Hi Hj E. inversion N as [|? ? N1 N2]; subst.
  destruct Hi as [->|Hi], Hj as [->|Hj]; auto.
  - destruct N1. rewrite E. now apply in_map.
  - destruct N1. rewrite <- E. now apply in_map.
Qed.
Lemma NoDup_map_inj {A} (f : A -> Z) l : NoDup l -> (forall i j, In i l -> In j l -> f i = f j -> i = j) -> NoDup (map f l).
Proof.
  induction 1 as [|x t N1 N2 IH]; intros D; cbn; constructor.
  - intros H. apply in_map_iff in H as (y & E & Y). apply N1. rewrite (D x y); auto; [now left|now right].
  - apply IH. intros i j Hi Hj. apply D; now right.
Qed.
Lemma NoDup_snd_key (l : list (Z * Z)) i j c : NoDup (map snd l) -> In (i, c) l -> In (j, c) l -> i = j.
Proof.
  induction l as [|[k d] t IH]; cbn; [tauto|]. intros N Hi Hj. inversion N as [|? ? N1 N2]; subst.
  destruct Hi as [Ei|Hi], Hj as [Ej|Hj]; auto; try congruence.
  - injection Ei as -> ->. destruct N1. apply (in_map snd) in Hj. exact Hj.
  - injection Ej as -> ->. destruct N1. apply (in_map snd) in Hi. exact Hi.
Qed.
Lemma n48_ok rec pre count avail keys children : wf (N48 pre count avail keys children) -> 17 <= zlen (n48_pairs keys children) -> NoDup (map snd (n48_pairs keys children)) ->
  art_node48_internal_validate rec count avail keys children = vkids rec (n48_pairs keys children).
Proof.
  intros (PL & (KI & KF) & LK & LC & CT & B & D & AV & AB) LO N. cbn [kids] in *. unfold art_node48_internal_validate.
  assert (I48 : forall i, 0 <= i < 256 -> znth keys i <> 48 -> In (i, znth children (znth keys i)) (n48_pairs keys children)) by (intros; apply n48_In; auto).
  assert (NZ : NoDup (zr 0 256)) by (apply incr_NoDup, zr_incr).
  destruct (n48_used_ok keys children (zr 0 256) 0) as (u & E1 & E2); auto.
  { intros i H. apply B. now apply In_zr256. }
  { intros i j Hi Hj. apply D; now apply In_zr256. }
  { intros i H X. split; [apply Z.bits_0|]. rewrite Forall_forall in KF. apply In_zr256 in H. exact (proj2 (KF _ (I48 i H X))). }
  assert (UB : forall j, 0 <= j -> (Z.testbit u j = true <-> exists i, 0 <= i < 256 /\ znth keys i = j /\ j <> 48)).
  { intros j Hj. rewrite E2, Z.bits_0 by auto. cbn [orb]. rewrite existsb_exists. split.
    - intros (i & Hi & X). exists i. apply In_zr256 in Hi. lia.
    - intros (i & Hi & X & Y). exists i. split; [now apply In_zr256|]. lia. }
  assert (EU : u = Z.lxor avail AVAILABLE_MASK).
  { apply Z.bits_inj'. intros j Hj. rewrite Z.lxor_spec. unfold AVAILABLE_MASK. change (2^48 - 1) with (Z.ones 48). rewrite Z.testbit_ones_nonneg by lia.
    apply Bool.eq_true_iff_eq. rewrite UB by auto. destruct (Z.ltb_spec j 48) as [J|J].
    - rewrite Bool.xorb_true_r, Bool.negb_true_iff, <- Bool.not_true_iff_false, AB by lia. split.
      + intros (i & Hi & X & _) Y. exact (Y i Hi X).
      + intros X. destruct (existsb (fun i => znth keys i =? j) (zr 0 256)) eqn:Z.
        * apply existsb_exists in Z as (i & Hi & Z). exists i. apply In_zr256 in Hi. lia.
        * exfalso. apply X. intros i Hi Y. apply Bool.not_true_iff_false in Z. apply Z. apply existsb_exists. exists i. split; [now apply In_zr256|lia].
    - rewrite Bool.xorb_false_r. split.
      + intros (i & Hi & X & Y). pose proof (B i Hi). lia.
      + intros X. exfalso. rewrite (Z.bits_above_log2 avail j) in X; [discriminate|lia|]. destruct (Z.eq_dec avail 0) as [->|]; [cbn; lia|]. apply Z.log2_lt_pow2; [lia|]. pose proof (Z.pow_le_mono_r 2 48 j). lia. }
  pose proof (zlen_nonneg (n48_pairs keys children)) as ZN.
  assert (U48 : 0 <= u < 2^48).
  { assert (0 <= u) as U0. { rewrite EU. apply Z.lxor_nonneg. unfold AVAILABLE_MASK. lia. } split; auto. destruct (Z.eq_dec u 0) as [->|]; [lia|]. apply Z.log2_lt_pow2; [lia|].
    destruct (Z.lt_ge_cases (Z.log2 u) 48) as [|G]; auto. pose proof (Z.bit_log2 u ltac:(lia)) as X. apply UB in X; [|lia]. destruct X as (i & Hi & X & Y). pose proof (B i Hi). lia. }
  assert (C48 : count <= 48).
  { subst count. rewrite n48_pairs_of in *. unfold pairs_of. rewrite zlen_map. set (l := filter _ _). assert (ND : NoDup (map (znth keys) l)).
    { apply NoDup_map_inj; [now apply NoDup_filter|]. intros i j Hi Hj E. apply filter_In in Hi as [Hi Ni], Hj as [Hj _]. apply In_zr256 in Hi, Hj. apply D; auto. unfold NODE48_EMPTY_VAL in Ni. lia. }
    assert (IN : incl (map (znth keys) l) (zr 0 48)).
    { intros x Hx. apply in_map_iff in Hx as (i & <- & Hi). apply filter_In in Hi as [Hi Ni]. apply In_zr256 in Hi. pose proof (B i Hi). unfold NODE48_EMPTY_VAL in Ni. apply zr_In. lia. }
    pose proof (NoDup_incl_length ND IN) as X. rewrite map_length in X. pose proof (zr_zlen 0 48 ltac:(lia)) as Y. unfold zlen in *. lia. }
  rewrite (proj2 (Z.leb_gt count 16)) by lia. rewrite (proj2 (Z.ltb_ge 48 count)) by lia. rewrite E1. rewrite (proj2 (Z.eqb_eq u _) EU). cbn [negb].
  assert (W : isw u) by (unfold isw; lia).
  assert (HD : has_dups (map (znth children) (extract_word 64 u 0)) = false).
  { apply has_dups_spec. rewrite extract_word_spec; [|exact W|pose proof (hamming_bound u); lia]. rewrite (map_ext (fun i => i + 0) (fun i => i)) by (intros; lia). rewrite map_id. apply NoDup_map_inj; [apply incr_NoDup, bits_incr|].
    intros x y Hx Hy E. apply bits_In in Hx, Hy. destruct Hx as [Rx Tx], Hy as [Ry Ty]. apply UB in Tx, Ty; try lia. destruct Tx as (i & Hi & <- & Ni), Ty as (j & Hj & <- & Nj).
    pose proof (I48 i Hi Ni) as Pi. pose proof (I48 j Hj Nj) as Pj. rewrite <- E in Pj. rewrite (NoDup_snd_key (n48_pairs keys children) i j _ N Pi Pj). reflexivity. }
  rewrite HD. rewrite n48_rec_pairs. rewrite n48_pairs_of. reflexivity.
Qed.

Lemma n256_rec_ok rec children count l : forall actual, NoDup (map (znth children) (filter (fun i => negb (znth children i =? NULL_REF)) l)) ->
  n256_rec rec l children count actual =
  (do b <- vkids rec (map (fun i => (i, znth children i)) (filter (fun i => negb (znth children i =? NULL_REF)) l));
   if b : bool then Some (actual + zlen (filter (fun i => negb (znth children i =? NULL_REF)) l) =? count) else Some false).
Proof.
  induction l as [|i t IH]; intros actual N; cbn [n256_rec filter map vkids obind]. { rewrite zlen_nil, Z.add_0_r. reflexivity. }
  cbn [filter] in N. unfold NULL_REF in *. destruct (Z.eqb_spec (znth children i) 0) as [E|E]; cbn [negb] in *; [auto|]. cbn [map vkids] in *. inversion N as [|? ? N1 N2]; subst.
  assert (X : existsb (fun j => znth children i =? znth children j) t = false).
  { apply Bool.not_true_is_false. intros X. apply existsb_exists in X as (j & J & X). apply N1. apply in_map_iff. exists j. split; [lia|]. apply filter_In. split; auto. lia. }
  rewrite X. clear X. destruct (rec i _) as [[]|]; cbn [obind]; auto. rewrite IH by auto. rewrite zlen_cons. destruct (vkids rec _) as [[]|]; cbn [obind]; auto. do 2 f_equal. lia.
Qed.
Lemma filter_len (p : Z -> bool) l : (length (filter p l) <= length l)%nat.
Proof. induction l; cbn; auto. destruct (p a); cbn; lia. Qed.
Lemma n256_ok rec pre count children : wf (N256 pre count children) -> 49 <= zlen (n256_pairs children) -> NoDup (map snd (n256_pairs children)) ->
  art_node256_internal_validate rec count children = vkids rec (n256_pairs children).
Proof.
  intros (PL & (KI & KF) & LC & CT) LO N. cbn [kids] in *. unfold art_node256_internal_validate.
  assert (C : count <= 256).
  { subst count. rewrite n256_pairs_of. unfold pairs_of. rewrite zlen_map. pose proof (filter_len (fun i => negb (znth children i =? NULL_REF)) (zr 0 256)) as X. pose proof (zr_zlen 0 256 ltac:(lia)) as Y. unfold zlen in *. lia. }
  rewrite (proj2 (Z.leb_gt count 48)) by lia. rewrite (proj2 (Z.ltb_ge 256 count)) by lia. rewrite n256_pairs_of in *. unfold pairs_of in *. rewrite map_map in N. cbn [snd] in N.
  rewrite n256_rec_ok by exact N. rewrite zlen_map in CT. rewrite <- CT. cbn [Z.add]. rewrite Z.eqb_refl. destruct (vkids rec _) as [[]|]; reflexivity.
Qed.

(** ** Subtrees *)
Lemma tref_nodup ch : NoDup (refsl ch) -> NoDup (map snd (krefs ch)).
Proof.
  induction ch as [|[k t] ch IH]; intros N; cbn; [constructor|]. rewrite refsl_cons in N. apply NoDup_app_iff in N as (N1 & N2 & N3). constructor; [|now apply IH].
  intros H. apply in_map_iff in H as ([k2 r2] & E & H). cbn in E. subst r2. apply in_map_iff in H as ([k3 t3] & E & H). injection E as -> E.
  apply (N3 (tref t)); [apply tref_refs|]. unfold refsl. apply in_flat_map. exists (k2, t3). split; auto. cbn [snd]. rewrite <- E. apply tref_refs.
Qed.
Lemma vref a r n : art_deref a r = Some n -> ntype n = art_ref_typecode r /\ r <> 0.
Proof. intros H. split; [symmetry; now apply (deref_type a)|]. intros ->. rewrite deref_zero in H. discriminate. Qed.
Lemma cmp_prefix_ok p s : art_compare_prefix (p ++ s) 0 p 0 (zlen p) = 0.
Proof.
  unfold art_compare_prefix, zsub. cbn [Z.to_nat skipn]. unfold zlen. rewrite Nat2Z.id, firstn_app, Nat.sub_diag, firstn_O, app_nil_r, firstn_all. induction p as [|x p IH]; cbn; auto. now rewrite Z.ltb_irrefl.
Qed.
Definition vok (fb : Z -> bool) (e : entry) : bool := fb (snd (snd e)).
Lemma validate_at_ok a cb fb t : forall fuel p, holds a t -> wft p t -> NoDup (refs t) -> 7 - zlen p <= Z.of_nat fuel ->
  (forall k l v, In (k, (l, v)) (flat t) -> cb v = Some (fb v)) ->
  art_internal_validate_at fuel a cb (tref t) p = Some (forallb (vok fb) (flat t)).
Proof.
  induction t as [r k v|r pre ch IH] using T_ind'; intros fuel p H W N F C.
  - cbn [holds] in H. cbn [wft] in W. destruct W as (LK & BK & s & ->). rewrite zlen_app in LK. pose proof (zlen_nonneg s). destruct fuel as [|f]; [lia|]. cbn [art_internal_validate_at tref].
    destruct (vref _ _ _ H) as [TY R0]. unfold NULL_REF. rewrite (proj2 (Z.eqb_neq r 0) R0). rewrite H. cbn [obind]. unfold art_is_leaf, LEAF_TYPE. rewrite <- TY. cbn [ntype Z.eqb]. rewrite cmp_prefix_ok. cbn [Z.eqb negb flat forallb]. unfold vok. cbn [snd].
    cbn [Pos.eqb]. rewrite (C _ _ _ (or_introl eq_refl)), Bool.andb_true_r. reflexivity.
  - apply holds_TN in H. destruct H as ((n & D & WF & LO & PRE & KD) & HL). apply wft_TN in W. destruct W as (LP & BP & KI & KB & L2 & WL). pose proof (zlen_nonneg pre) as ZP.
    destruct fuel as [|f]; [lia|]. cbn [art_internal_validate_at tref]. destruct (vref _ _ _ D) as [TY R0]. unfold NULL_REF. rewrite (proj2 (Z.eqb_neq r 0) R0). rewrite D. cbn [obind].
    assert (TL : art_is_leaf r = false). { unfold art_is_leaf, LEAF_TYPE. rewrite <- TY. destruct n; try reflexivity. destruct WF as (_ & _ & []). }
    rewrite TL, PRE. unfold KEY_BYTES. rewrite (proj2 (Z.ltb_ge 6 _)) by lia. cbv zeta. set (rec := fun k c => art_internal_validate_at f a cb c ((p ++ pre) ++ [k])).
    rewrite refs_TN in N. inversion N as [|? ? _ N2]; subst. pose proof (tref_nodup _ N2) as ND. rewrite <- KD in ND.
    assert (VK : vkids rec (kids n) = Some (forallb (vok fb) (flatl ch))).
    { rewrite KD. clear KD ND LO D WF L2 KI KB N. revert N2 HL WL C. rewrite flat_TN. induction ch as [|[k t] ch IHc]; intros N2 HL WL C; auto. rewrite krefs_cons, flatl_cons, forallb_app. cbn [vkids].
      inversion IH as [|? ? IH1 IH2]; subst. cbn [snd] in IH1. rewrite refsl_cons in N2. apply NoDup_app_iff in N2 as (NA & NB & _). cbn in HL, WL. destruct HL as [H1 H2], WL as [W1 W2].
      assert (RE : rec k (tref t) = Some (forallb (vok fb) (flat t))).
      { unfold rec. apply IH1; auto. - rewrite !zlen_app, zlen_cons, zlen_nil. lia. - intros k0 l v X. apply (C k0 l). rewrite flatl_cons. apply in_or_app. now left. }
      rewrite RE. cbn [obind]. destruct (forallb _ (flat t)); cbn [andb]; auto. apply IHc; auto. intros k0 l v X. apply (C k0 l). rewrite flatl_cons. apply in_or_app. now right. }
    rewrite flat_TN. rewrite <- VK. destruct n as [k v|q kc|q kc|q ct av ks cs|q ct cs]; cbn [kids lo] in *.
    + destruct WF as (_ & _ & []).
    + unfold art_node4_internal_validate. destruct WF as (_ & (KO & _) & L4). cbn [kids] in KO. rewrite (proj2 (Z.eqb_neq (zlen kc) 0)) by lia. rewrite (proj2 (Z.ltb_ge 4 (zlen kc))) by lia. rewrite (proj2 (Z.eqb_neq (zlen kc) 1)) by lia. apply validate_kc_ok; auto. discriminate.
    + unfold art_node16_internal_validate. destruct WF as (_ & (KO & _) & L4). cbn [kids] in KO. rewrite (proj2 (Z.leb_gt (zlen kc) 4)) by lia. rewrite (proj2 (Z.ltb_ge 16 (zlen kc))) by lia. apply validate_kc_ok; auto. discriminate.
    + now apply (n48_ok rec q).
    + now apply (n256_ok rec q).
Qed.
(** ** The whole tree: the check succeeds exactly when the callback accepts every value *)
Lemma chain_head l ff fl : chain l ff fl -> 0 <= ff <= zlen l.
Proof. destruct fl as [|i fl]; cbn; [intros ->; pose proof (zlen_nonneg l); lia|]. intros (-> & next & v & S & _). apply sget_range in S. lia. Qed.
Lemma internal_validate_ok a fl cb fb : arep a fl -> (forall k l v, In (k, (l, v)) fl -> cb v = Some (fb v)) ->
  art_internal_validate a cb = Some (forallb (vok fb) fl).
Proof.
  intros (S & A) C. unfold art_internal_validate, NULL_REF. destruct A as [(Z0 & -> & _)|(t & (TR & H & W & N & _) & ->)]. { rewrite Z0. reflexivity. }
  rewrite <- TR. assert (R0 : tref t <> 0). { destruct t as [r k v|r pre ch]; cbn [tref]; [exact (proj2 (vref _ _ _ H))|]. apply holds_TN in H as ((n & D & _) & _). exact (proj2 (vref _ _ _ D)). }
  rewrite (proj2 (Z.eqb_neq _ 0) R0).
  assert (E : existsb (fun t0 => (0 <? capacity a t0) && (capacity a t0 <? a_ff a t0)) [1; 2; 3; 4; 5] = false).
  { apply Bool.not_true_is_false. intros X. apply existsb_exists in X as (ty & I & X). assert (1 <= ty <= 5) as HT. { cbn in I. lia. } destruct (S ty HT) as (f & CH & _). apply chain_head in CH. unfold capacity in X. lia. }
  rewrite E. apply validate_at_ok; auto. rewrite zlen_nil. unfold LEVELS. lia.
Qed.
