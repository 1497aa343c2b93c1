(** Simd: the 128-bit vector code of src/array_util.c (x64 with AVX2), part 1: memory,
    the intrinsics it uses, sse_merge, store_unique, store_unique_xor.

    Memory is a list of 16-bit cells, an address is an index into it; an access that is
    not entirely inside the list is [None].  A vector register of eight 16-bit lanes is a
    list of eight numbers, lane 0 first.  An intrinsic is modelled by its documented
    effect on lanes; the ones that act on bytes go through [vbytes]. *)
From Verif Require Import Base BitUtil SimdTab.

Definition obind {A B} (o : option A) (f : A -> option B) : option B := match o with Some x => f x | None => None end.
Notation "'do' p <- e ; f" := (obind e (fun p => f)) (at level 61, p pattern, e at next level, right associativity).

(** ** Memory *)
Notation memory := (list Z).
Definition win (M : memory) (p n : Z) : list Z := firstn (Z.to_nat n) (skipn (Z.to_nat p) M).
Definition okr (M : memory) (p n : Z) : bool := (0 <=? p) && (0 <=? n) && (p + n <=? zlen M).
(** read of [n] cells / write of a block of cells: memcpy, memmove, vector load and store *)
Definition ldn (M : memory) (p n : Z) : option (list Z) := if okr M p n then Some (win M p n) else None.
Definition stn (M : memory) (p : Z) (vs : list Z) : option memory :=
  if okr M p (zlen vs) then Some (firstn (Z.to_nat p) M ++ vs ++ skipn (Z.to_nat (p + zlen vs)) M) else None.
Definition rd (M : memory) (p : Z) : option Z := if okr M p 1 then Some (znth M p) else None.
Definition wr (M : memory) (p v : Z) : option memory := stn M p [v].

(** ** Intrinsics *)
Notation vec := (list Z).
Definition map2 (f : Z -> Z -> Z) (a b : vec) : vec := map (fun p => f (fst p) (snd p)) (combine a b).
(** _mm_lddqu_si128/_mm_loadu_si128 and _mm_storeu_si128 at the address of a 16-bit cell *)
Definition ld8 (M : memory) (p : Z) : option vec := ldn M p 8.
(** _mm_min_epu16, _mm_max_epu16 *)
Definition vmin (a b : vec) : vec := map2 Z.min a b.
Definition vmax (a b : vec) : vec := map2 Z.max a b.
(** _mm_alignr_epi8(hi, lo, 2k): the 32 bytes hi:lo shifted right by 2k bytes, low half *)
Definition alignr (hi lo : vec) (k : nat) : vec := firstn 8 (skipn k (lo ++ hi)).
(** _mm_cmpeq_epi16, _mm_or_si128 on such masks, _mm_setzero_si128 *)
Definition cmpeq16 (a b : vec) : vec := map2 (fun x y => if x =? y then 65535 else 0) a b.
Definition vor (a b : vec) : vec := map2 Z.lor a b.
Definition zerov : vec := repeat 0 8.
(** _mm_packs_epi16(a, b): the sixteen lanes as signed numbers, saturated to signed bytes *)
Definition sat8 (x : Z) : Z :=
  let s := if x <? 32768 then x else x - 65536 in
  let t := if s <? -128 then -128 else if 127 <? s then 127 else s in t mod 256.
Definition packs16 (a b : vec) : list Z := map sat8 (a ++ b).
(** _mm_movemask_epi8: the top bits of the sixteen bytes *)
Fixpoint movemask (bs : list Z) : Z :=
  match bs with [] => 0 | b :: bs' => (if 128 <=? b then 1 else 0) + 2 * movemask bs' end.
(** the bytes of a register, lowest first, and back *)
Definition vbytes (v : vec) : list Z := flat_map (fun x => [x mod 256; x / 256]) v.
Fixpoint vlanes (bs : list Z) : vec := match bs with a :: b :: bs' => (a + 256 * b) :: vlanes bs' | _ => [] end.
(** _mm_shuffle_epi8 *)
Definition shuffle8 (v : vec) (key : list Z) : vec :=
  vlanes (map (fun k => if 128 <=? k then 0 else znth (vbytes v) (k mod 16)) key).
(** load of the 16 bytes number [m] of a byte table *)
Definition row16 (tab : list Z) (m : Z) : list Z := win tab (16 * m) 16.
(** _mm_popcnt_u32 *)
Definition popcnt (m : Z) : Z := hamming m.
(** _mm_set1_epi16(-1) *)
Definition minus1v : vec := repeat 65535 8.

(** array_util.c:1246-1275 sse_merge: (vecMin, vecMax) *)
Definition merge_step (s : vec * vec) : vec * vec :=
  let vecTmp := alignr (fst s) (fst s) 1 in (vmin vecTmp (snd s), vmax vecTmp (snd s)).
Definition sse_merge (vInput1 vInput2 : vec) : vec * vec :=
  let vecTmp := vmin vInput1 vInput2 in
  let vecMax := vmax vInput1 vInput2 in
  let s := merge_step (vecTmp, vecMax) in
  let s := merge_step s in
  let s := merge_step s in
  let s := merge_step s in
  let s := merge_step s in
  let s := merge_step s in
  let s := merge_step s in
  (alignr (fst s) (fst s) 1, snd s).

(** array_util.c:1620-1632 store_unique: the new memory and the number of new values *)
Definition store_unique (M : memory) (old newval : vec) (output : Z) : option (memory * Z) :=
  let vecTmp := alignr newval old 7 in
  let m := movemask (packs16 (cmpeq16 vecTmp newval) zerov) in
  let numberofnewvalues := 8 - popcnt m in
  let val := shuffle8 newval (row16 uniqshuf m) in
  do M' <- stn M output val; Some (M', numberofnewvalues).
(** array_util.c:1746-1762 store_unique_xor *)
Definition store_unique_xor (M : memory) (old newval : vec) (output : Z) : option (memory * Z) :=
  let vecTmp1 := alignr newval old 6 in
  let vecTmp2 := alignr newval old 7 in
  let equalleft := cmpeq16 vecTmp2 vecTmp1 in
  let equalright := cmpeq16 vecTmp2 newval in
  let m := movemask (packs16 (vor equalleft equalright) zerov) in
  let numberofnewvalues := 8 - popcnt m in
  let val := shuffle8 vecTmp2 (row16 uniqshuf m) in
  do M' <- stn M output val; Some (M', numberofnewvalues).

(** * Proofs *)

(** ** memory *)
Lemma okr_iff M p n : okr M p n = true <-> 0 <= p /\ 0 <= n /\ p + n <= zlen M.
Proof. unfold okr. lia. Qed.
Lemma win_zlen M p n : 0 <= p -> 0 <= n -> p + n <= zlen M -> zlen (win M p n) = n.
Proof. unfold win, zlen. intros. rewrite firstn_length, skipn_length. lia. Qed.
Lemma znth_win M p n i : 0 <= p -> 0 <= i < n -> znth (win M p n) i = znth M (p + i).
Proof.
  unfold win, znth. intros.
  replace (Z.to_nat (p + i)) with (Z.to_nat p + Z.to_nat i)%nat by lia.
  rewrite <- (firstn_skipn (Z.to_nat n) (skipn (Z.to_nat p) M)) at 1.
  destruct (Nat.lt_ge_cases (Z.to_nat i) (length (firstn (Z.to_nat n) (skipn (Z.to_nat p) M)))) as [L|L].
  - assert (E : nth (Z.to_nat i) (firstn (Z.to_nat n) (skipn (Z.to_nat p) M)) 0
              = nth (Z.to_nat i) (skipn (Z.to_nat p) M) 0).
    { rewrite <- (firstn_skipn (Z.to_nat n) (skipn (Z.to_nat p) M)) at 2. rewrite app_nth1; auto. }
    rewrite firstn_skipn. rewrite E.
    clear. revert M. induction (Z.to_nat p) as [|k IH]; intros M; [reflexivity|].
    destruct M; [destruct (Z.to_nat i); reflexivity|]. cbn. apply IH.
  - rewrite firstn_skipn. rewrite nth_overflow by lia.
    rewrite firstn_length, skipn_length in L. rewrite nth_overflow; [reflexivity|lia].
Qed.
Lemma stn_some M p vs : 0 <= p -> p + zlen vs <= zlen M ->
  exists M', stn M p vs = Some M' /\ zlen M' = zlen M /\
    (forall i, 0 <= i -> znth M' i = if (p <=? i) && (i <? p + zlen vs) then znth vs (i - p) else znth M i).
Proof.
  intros Hp Hl. pose proof (zlen_nonneg vs). unfold stn.
  replace (okr M p (zlen vs)) with true by (symmetry; apply okr_iff; lia).
  eexists; split; [reflexivity|].
  assert (L1 : zlen (firstn (Z.to_nat p) M) = p) by (unfold zlen in *; rewrite firstn_length; lia).
  split.
  - rewrite !zlen_app, L1. unfold zlen at 2. rewrite skipn_length. unfold zlen in *. lia.
  - intros i Hi. destruct (Z_lt_dec i p).
    + replace ((p <=? i) && (i <? p + zlen vs)) with false by lia.
      rewrite znth_app1 by lia. unfold znth.
      rewrite <- (firstn_skipn (Z.to_nat p) M) at 2. rewrite app_nth1; [reflexivity|]. unfold zlen in *. lia.
    + rewrite znth_app2 by lia. rewrite L1. destruct (Z_lt_dec i (p + zlen vs)).
      * replace ((p <=? i) && (i <? p + zlen vs)) with true by lia. apply znth_app1; lia.
      * replace ((p <=? i) && (i <? p + zlen vs)) with false by lia.
        rewrite znth_app2 by lia. unfold znth.
        rewrite <- (firstn_skipn (Z.to_nat (p + zlen vs)) M) at 2.
        rewrite app_nth2; rewrite firstn_length; unfold zlen in *; [|lia].
        f_equal. lia.
Qed.
Lemma win_ext M M' p n : 0 <= p -> 0 <= n -> p + n <= zlen M -> zlen M' = zlen M ->
  (forall i, p <= i < p + n -> znth M' i = znth M i) -> win M' p n = win M p n.
Proof.
  intros. apply list_ext_znth.
  - rewrite !win_zlen by lia. reflexivity.
  - rewrite win_zlen by lia. intros i Hi. rewrite !znth_win by lia. apply H3. lia.
Qed.
Lemma win_cons M p n : 0 <= p -> 0 < n -> p + n <= zlen M -> win M p n = znth M p :: win M (p + 1) (n - 1).
Proof.
  intros. apply list_ext_znth.
  - rewrite zlen_cons, !win_zlen by lia. lia.
  - rewrite win_zlen by lia. intros i Hi. rewrite znth_win by lia.
    destruct (Z.eq_dec i 0) as [->|].
    + rewrite znth_cons_0. f_equal; lia.
    + rewrite znth_cons_pos by lia. rewrite znth_win by lia. f_equal; lia.
Qed.
Lemma win_app M p a b : 0 <= p -> 0 <= a -> 0 <= b -> p + a + b <= zlen M -> win M p (a + b) = win M p a ++ win M (p + a) b.
Proof.
  intros. apply list_ext_znth.
  - rewrite zlen_app, !win_zlen by lia. lia.
  - rewrite win_zlen by lia. intros i Hi. rewrite znth_win by lia. destruct (Z_lt_dec i a).
    + rewrite znth_app1 by (rewrite win_zlen; lia). rewrite znth_win by lia. reflexivity.
    + rewrite znth_app2 by (rewrite win_zlen; lia). rewrite win_zlen by lia. rewrite znth_win by lia. f_equal; lia.
Qed.
Lemma win_0 M p : win M p 0 = []. Proof. reflexivity. Qed.
Lemma win_of M p vs : 0 <= p -> p + zlen vs <= zlen M -> (forall i, 0 <= i < zlen vs -> znth M (p + i) = znth vs i) -> win M p (zlen vs) = vs.
Proof.
  intros. pose proof (zlen_nonneg vs). apply list_ext_znth; rewrite win_zlen by lia; [reflexivity|].
  intros i Hi. rewrite znth_win by lia. auto.
Qed.
(** memory unchanged outside [lo,hi) *)
Definition same_out (M M' : memory) (lo hi : Z) : Prop :=
  zlen M' = zlen M /\ forall i, 0 <= i -> ~ (lo <= i < hi) -> znth M' i = znth M i.
Lemma same_refl M lo hi : same_out M M lo hi. Proof. split; auto. Qed.
Lemma same_trans M1 M2 M3 a b c d lo hi : same_out M1 M2 a b -> same_out M2 M3 c d ->
  lo <= a -> lo <= c -> b <= hi -> d <= hi -> same_out M1 M3 lo hi.
Proof.
  intros [L1 H1] [L2 H2] ? ? ? ?. split; [lia|]. intros i Hi Hn. rewrite H2, H1 by lia. reflexivity.
Qed.
Lemma same_weaken M1 M2 a b lo hi : same_out M1 M2 a b -> lo <= a -> b <= hi -> same_out M1 M2 lo hi.
Proof. intros [L1 H1] ? ?. split; [lia|]. intros i Hi Hn. apply H1; lia. Qed.
Lemma same_win M M' lo hi p n : same_out M M' lo hi -> 0 <= p -> 0 <= n -> p + n <= zlen M -> (p + n <= lo \/ hi <= p) -> win M' p n = win M p n.
Proof. intros [L H] ? ? ? ?. apply win_ext; auto. intros. apply H; lia. Qed.
Lemma stn_ok M p vs : 0 <= p -> p + zlen vs <= zlen M ->
  exists M', stn M p vs = Some M' /\ same_out M M' p (p + zlen vs) /\ win M' p (zlen vs) = vs.
Proof.
  intros Hp Hl. pose proof (zlen_nonneg vs). destruct (stn_some M p vs Hp Hl) as (M' & E & L & N). exists M'. split; [exact E|]. split.
  - split; [exact L|]. intros i Hi Hn. rewrite N by lia. replace ((p <=? i) && (i <? p + zlen vs)) with false by lia. reflexivity.
  - apply win_of; try lia. intros i Hi. rewrite N by lia. replace ((p <=? p + i) && (p + i <? p + zlen vs)) with true by lia. f_equal; lia.
Qed.
Lemma ldn_ok M p n : 0 <= p -> 0 <= n -> p + n <= zlen M -> ldn M p n = Some (win M p n).
Proof. intros. unfold ldn. replace (okr M p n) with true by (symmetry; apply okr_iff; lia). reflexivity. Qed.
Lemma rd_ok M p : 0 <= p < zlen M -> rd M p = Some (znth M p).
Proof. intros. unfold rd. replace (okr M p 1) with true by (symmetry; apply okr_iff; lia). reflexivity. Qed.

(** ** sse_merge, by the zero-one principle *)
(** nondecreasing lists *)
Fixpoint sle (l : list Z) : Prop := match l with [] => True | x :: l' => Forall (fun y => x <= y) l' /\ sle l' end.
Definition th (t x : Z) : Z := if t <=? x then 1 else 0.
Definition mp (f : Z -> Z) (s : vec * vec) : vec * vec := (map f (fst s), map f (snd s)).
Lemma map2_map (f g : Z -> Z -> Z) (h : Z -> Z) a b : (forall x y, h (f x y) = g (h x) (h y)) ->
  map h (map2 f a b) = map2 g (map h a) (map h b).
Proof.
  intros H. unfold map2. revert b. induction a as [|x a IH]; intros [|y b]; cbn; try reflexivity. rewrite H, IH. reflexivity.
Qed.
Lemma th_min t x y : th t (Z.min x y) = Z.min (th t x) (th t y).
Proof. unfold th. destruct (Z.leb_spec t x), (Z.leb_spec t y), (Z.leb_spec t (Z.min x y)); lia. Qed.
Lemma th_max t x y : th t (Z.max x y) = Z.max (th t x) (th t y).
Proof. unfold th. destruct (Z.leb_spec t x), (Z.leb_spec t y), (Z.leb_spec t (Z.max x y)); lia. Qed.
Lemma map_alignr f a b k : map f (alignr a b k) = alignr (map f a) (map f b) k.
Proof. unfold alignr. rewrite <- firstn_map, <- skipn_map, map_app. reflexivity. Qed.
Lemma mp_step t s : mp (th t) (merge_step s) = merge_step (mp (th t) s).
Proof.
  unfold merge_step, mp, vmin, vmax. cbn [fst snd]. f_equal.
  - rewrite (map2_map Z.min Z.min) by apply th_min. rewrite map_alignr. reflexivity.
  - rewrite (map2_map Z.max Z.max) by apply th_max. rewrite map_alignr. reflexivity.
Qed.
Lemma mp_merge t a b : mp (th t) (sse_merge a b) = sse_merge (map (th t) a) (map (th t) b).
Proof.
  unfold sse_merge. cbv zeta.
  assert (E : merge_step (vmin (map (th t) a) (map (th t) b), vmax (map (th t) a) (map (th t) b)) = mp (th t) (merge_step (vmin a b, vmax a b))).
  { rewrite mp_step. unfold mp. cbn [fst snd]. unfold vmin, vmax.
    rewrite (map2_map Z.min Z.min) by apply th_min. rewrite (map2_map Z.max Z.max) by apply th_max. reflexivity. }
  rewrite E. rewrite <- !mp_step. generalize (merge_step (merge_step (merge_step (merge_step (merge_step (merge_step (merge_step (vmin a b, vmax a b)))))))).
  intros [p q]. unfold mp. cbn [fst snd]. rewrite map_alignr. reflexivity.
Qed.
Definition stair (k n : nat) : list Z := repeat 0 k ++ repeat 1 (n - k).
Lemma th_stair t l : sle l -> exists k, (k <= length l)%nat /\ map (th t) l = stair k (length l).
Proof.
  induction l as [|x l IH]; intros H.
  - exists O. split; [lia|reflexivity].
  - destruct H as [F Sl]. destruct (IH Sl) as (k & Hk & E). cbn [map length]. unfold th at 1.
    destruct (Z.leb_spec t x).
    + exists O. split; [lia|]. unfold stair. cbn. f_equal.
      clear -F H. induction l as [|y l IH]; [reflexivity|]. inversion F; subst. cbn. unfold th at 1.
      destruct (Z.leb_spec t y); [|lia]. f_equal. apply IH. assumption.
    + exists (S k). split; [lia|]. rewrite E. unfold stair. cbn. reflexivity.
Qed.
Definition check_stairs : bool :=
  forallb (fun k1 => forallb (fun k2 =>
    let s := sse_merge (stair k1 8) (stair k2 8) in
    (length (fst s) =? 8)%nat && (length (snd s) =? 8)%nat &&
    (if list_eq_dec Z.eq_dec (fst s ++ snd s) (stair (k1 + k2) 16) then true else false))
    (seq 0 9)) (seq 0 9).
Lemma stairs_ok : check_stairs = true. Proof. vm_compute. reflexivity. Qed.
Lemma stairs k1 k2 : (k1 <= 8)%nat -> (k2 <= 8)%nat ->
  let s := sse_merge (stair k1 8) (stair k2 8) in
  length (fst s) = 8%nat /\ length (snd s) = 8%nat /\ fst s ++ snd s = stair (k1 + k2) 16.
Proof.
  intros H1 H2. pose proof stairs_ok as C. unfold check_stairs in C. rewrite forallb_forall in C.
  specialize (C k1). rewrite forallb_forall in C. specialize (C ltac:(apply in_seq; lia) k2 ltac:(apply in_seq; lia)).
  cbv zeta in C |- *. apply andb_true_iff in C as [C C3]. apply andb_true_iff in C as [C1 C2].
  apply Nat.eqb_eq in C1, C2. destruct (list_eq_dec _ _ _) as [E|] in C3; [|discriminate]. auto.
Qed.
Lemma stair_tail x l k n : x :: l = stair k n -> exists k' n', l = stair k' n'.
Proof.
  unfold stair. destruct k as [|k]; cbn.
  - destruct (n - 0)%nat as [|m]; [discriminate|]. cbn. intros E. exists O, m. cbn. rewrite Nat.sub_0_r. congruence.
  - intros E. exists k, (n - 1)%nat. replace (n - 1 - k)%nat with (n - S k)%nat by lia. congruence.
Qed.
Lemma ones_all x l n : map (th x) l = repeat 1 n -> Forall (fun y => x <= y) l.
Proof.
  revert n. induction l as [|y l IHl]; intros n E; [constructor|]. destruct n; [discriminate|]. cbn in E.
  assert (E1 : th x y = 1) by congruence. assert (E2 : map (th x) l = repeat 1 n) by congruence. constructor; [|eauto].
  unfold th in E1. destruct (Z.leb_spec x y); lia.
Qed.
Lemma sle_stairs l : (forall t, exists k n, map (th t) l = stair k n) -> sle l.
Proof.
  induction l as [|x l IH]; intros H; [exact Logic.I|]. split.
  - destruct (H x) as (k & n & E). cbn in E. replace (th x x) with 1 in E by (unfold th; rewrite Z.leb_refl; reflexivity).
    unfold stair in E. destruct k; [|discriminate]. cbn in E. rewrite Nat.sub_0_r in E. destruct n; [discriminate|]. cbn in E.
    apply (ones_all x l n). congruence.
  - apply IH. intros t. destruct (H t) as (k & n & E). cbn in E. exact (stair_tail _ _ _ _ E).
Qed.
Fixpoint zsum (l : list Z) : Z := match l with [] => 0 | x :: l' => x + zsum l' end.
Lemma zsum_app a b : zsum (a ++ b) = zsum a + zsum b.
Proof. induction a as [|x a IH]; cbn; [reflexivity|]. rewrite IH. lia. Qed.
Lemma zsum_zeros k : zsum (repeat 0 k) = 0.
Proof. induction k; cbn; [reflexivity|]. rewrite IHk. reflexivity. Qed.
Lemma zsum_ones k : zsum (repeat 1 k) = Z.of_nat k.
Proof. induction k as [|k IH]; [reflexivity|]. cbn [repeat zsum]. rewrite IH. lia. Qed.
Lemma zsum_stair k n : (k <= n)%nat -> zsum (stair k n) = Z.of_nat n - Z.of_nat k.
Proof. intros. unfold stair. rewrite zsum_app, zsum_zeros, zsum_ones. lia. Qed.
Lemma count_th l x : Z.of_nat (count_occ Z.eq_dec l x) = zsum (map (th x) l) - zsum (map (th (x + 1)) l).
Proof.
  induction l as [|y l IH]; [reflexivity|]. cbn [map zsum count_occ]. unfold th at 1 3.
  destruct (Z.eq_dec y x), (Z.leb_spec x y), (Z.leb_spec (x + 1) y); lia.
Qed.
Lemma perm_th a b : (forall t, zsum (map (th t) a) = zsum (map (th t) b)) -> Permutation a b.
Proof.
  intros H. apply (Permutation_count_occ Z.eq_dec). intros x. apply Nat2Z.inj. rewrite !count_th, !H. reflexivity.
Qed.
Local Opaque sse_merge.
Lemma sse_merge_spec a b : length a = 8%nat -> length b = 8%nat -> sle a -> sle b ->
  let s := sse_merge a b in
  length (fst s) = 8%nat /\ length (snd s) = 8%nat /\ sle (fst s ++ snd s) /\ Permutation (fst s ++ snd s) (a ++ b).
Proof.
  intros La Lb Sa Sb s.
  assert (K : forall t, exists k1 k2, (k1 <= 8)%nat /\ (k2 <= 8)%nat /\ map (th t) a = stair k1 8 /\ map (th t) b = stair k2 8 /\
              length (fst s) = 8%nat /\ length (snd s) = 8%nat /\ map (th t) (fst s ++ snd s) = stair (k1 + k2) 16).
  { intros t. destruct (th_stair t a Sa) as (k1 & H1 & E1). destruct (th_stair t b Sb) as (k2 & H2 & E2).
    rewrite La in H1, E1. rewrite Lb in H2, E2. exists k1, k2. split; [exact H1|]. split; [exact H2|]. split; [exact E1|]. split; [exact E2|].
    pose proof (mp_merge t a b) as E. rewrite E1, E2 in E. fold s in E.
    destruct (stairs k1 k2 H1 H2) as (A & B & C). rewrite <- E in A, B, C. unfold mp in A, B, C. cbn [fst snd] in A, B, C.
    rewrite map_length in A, B. rewrite <- map_app in C. auto. }
  destruct (K 0) as (_ & _ & _ & _ & _ & _ & L1 & L2 & _). split; [exact L1|]. split; [exact L2|]. split.
  - apply sle_stairs. intros t. destruct (K t) as (k1 & k2 & _ & _ & _ & _ & _ & _ & E). eauto.
  - apply perm_th. intros t. destruct (K t) as (k1 & k2 & H1 & H2 & E1 & E2 & _ & _ & E). rewrite E.
    rewrite map_app, zsum_app, E1, E2, !zsum_stair by lia. lia.
Qed.

(** ** store_unique *)
Definition lanes (v : vec) : Prop := length v = 8%nat /\ Forall (fun x => 0 <= x < 65536) v.
(** mask bits, kept lanes *)
Fixpoint maskb (bs : list bool) : Z := match bs with [] => 0 | b :: bs' => (if b then 1 else 0) + 2 * maskb bs' end.
Fixpoint sel (bs : list bool) (v : vec) : vec :=
  match bs, v with b :: bs', x :: v' => if b then x :: sel bs' v' else sel bs' v' | _, _ => [] end.
Fixpoint idxs (k : Z) (bs : list bool) : list Z :=
  match bs with [] => [] | b :: bs' => if b then k :: idxs (k + 1) bs' else idxs (k + 1) bs' end.
Definition eqs (a b : vec) : list bool := map (fun p => fst p =? snd p) (combine a b).
Definition lane_key (k : option Z) : list Z := match k with Some i => [2 * i; 2 * i + 1] | None => [255; 255] end.
Definition keys_of (bs : list bool) : list (option Z) :=
  let l := map Some (idxs 0 bs) in l ++ repeat None (8 - length l).
Fixpoint bvecs (n : nat) : list (list bool) :=
  match n with O => [[]] | S m => map (cons true) (bvecs m) ++ map (cons false) (bvecs m) end.
Lemma bvecs_all n bs : length bs = n -> In bs (bvecs n).
Proof.
  revert bs. induction n as [|n IH]; intros [|b bs] H; try discriminate; [left; reflexivity|].
  cbn. apply in_app_iff. destruct b; [left|right]; apply in_map, IH; cbn in H; lia.
Qed.
Definition check_uniqshuf : bool :=
  forallb (fun bs => (if list_eq_dec Z.eq_dec (row16 uniqshuf (maskb bs)) (flat_map lane_key (keys_of (map negb bs))) then true else false) &&
                     (8 - popcnt (maskb bs) =? zlen (idxs 0 (map negb bs)))) (bvecs 8).
Lemma uniqshuf_ok : check_uniqshuf = true. Proof. vm_compute. reflexivity. Qed.
Definition check_shuffle_mask16 : bool :=
  forallb (fun bs => (if list_eq_dec Z.eq_dec (row16 shuffle_mask16 (maskb bs)) (flat_map lane_key (keys_of bs)) then true else false) &&
                     (popcnt (maskb bs) =? zlen (idxs 0 bs))) (bvecs 8).
Lemma shuffle_mask16_ok : check_shuffle_mask16 = true. Proof. vm_compute. reflexivity. Qed.
Lemma uniqshuf_row bs : length bs = 8%nat ->
  row16 uniqshuf (maskb bs) = flat_map lane_key (keys_of (map negb bs)) /\ 8 - popcnt (maskb bs) = zlen (idxs 0 (map negb bs)).
Proof.
  intros L. pose proof uniqshuf_ok as C. unfold check_uniqshuf in C. rewrite forallb_forall in C. specialize (C bs (bvecs_all 8 bs L)).
  apply andb_true_iff in C as [C1 C2]. apply Z.eqb_eq in C2. split; [|exact C2]. revert C1. destruct (list_eq_dec _ _ _); [auto|discriminate].
Qed.
Lemma shuffle_mask16_row bs : length bs = 8%nat ->
  row16 shuffle_mask16 (maskb bs) = flat_map lane_key (keys_of bs) /\ popcnt (maskb bs) = zlen (idxs 0 bs).
Proof.
  intros L. pose proof shuffle_mask16_ok as C. unfold check_shuffle_mask16 in C. rewrite forallb_forall in C. specialize (C bs (bvecs_all 8 bs L)).
  apply andb_true_iff in C as [C1 C2]. apply Z.eqb_eq in C2. split; [|exact C2]. revert C1. destruct (list_eq_dec _ _ _); [auto|discriminate].
Qed.
Lemma vbytes_znth v i : 0 <= i < zlen v -> znth (vbytes v) (2 * i) = znth v i mod 256 /\ znth (vbytes v) (2 * i + 1) = znth v i / 256.
Proof.
  revert i. induction v as [|x v IH]; intros i Hi; [unfold zlen in Hi; cbn in Hi; lia|]. rewrite zlen_cons in Hi.
  change (vbytes (x :: v)) with (x mod 256 :: x / 256 :: vbytes v). destruct (Z.eq_dec i 0) as [->|]; [split; reflexivity|].
  rewrite (znth_cons_pos x v i) by lia. destruct (IH (i - 1)) as [A B]; [lia|].
  rewrite (znth_cons_pos _ _ (2 * i)), (znth_cons_pos _ _ (2 * i - 1)) by lia.
  rewrite (znth_cons_pos _ _ (2 * i + 1)), (znth_cons_pos _ _ (2 * i + 1 - 1)) by lia.
  replace (2 * i - 1 - 1) with (2 * (i - 1)) by lia. replace (2 * i + 1 - 1 - 1) with (2 * (i - 1) + 1) by lia. auto.
Qed.
Lemma shuffle8_keys v ks : lanes v -> (forall i, In (Some i) ks -> 0 <= i < 8) ->
  shuffle8 v (flat_map lane_key ks) = map (fun k => match k with Some i => znth v i | None => 0 end) ks.
Proof.
  intros [L F]. unfold shuffle8. induction ks as [|k ks IH]; intros H; [reflexivity|].
  cbn [flat_map]. rewrite map_app. assert (IH' := IH (fun i Hi => H i (or_intror Hi))).
  destruct k as [i|]; cbn [lane_key map app vlanes]; rewrite IH'.
  - specialize (H i (or_introl eq_refl)). replace (128 <=? 2 * i) with false by lia. replace (128 <=? 2 * i + 1) with false by lia.
    rewrite !Z.mod_small by lia. destruct (vbytes_znth v i) as [A B]; [unfold zlen; lia|]. rewrite A, B.
    f_equal. pose proof (Z.div_mod (znth v i) 256). lia.
  - reflexivity.
Qed.
Lemma idxs_range k bs i : In i (idxs k bs) -> k <= i < k + zlen bs.
Proof.
  revert k. induction bs as [|b bs IH]; intros k H; [destruct H|]. rewrite zlen_cons. pose proof (zlen_nonneg bs). cbn in H.
  destruct b; [destruct H as [<-|H]; [lia|]|]; apply IH in H; lia.
Qed.
Lemma sel_idxs bs v : zlen bs <= zlen v -> forall u, map (znth (u ++ v)) (idxs (zlen u) bs) = sel bs v.
Proof.
  revert v. induction bs as [|b bs IH]; intros v L u; [reflexivity|]. rewrite zlen_cons in L. pose proof (zlen_nonneg bs).
  destruct v as [|x v]; [unfold zlen in L; cbn in L; lia|]. rewrite zlen_cons in L.
  assert (E : map (znth (u ++ x :: v)) (idxs (zlen u + 1) bs) = sel bs v).
  { specialize (IH v ltac:(lia) (u ++ [x])). rewrite <- app_assoc in IH. cbn in IH. rewrite zlen_app in IH. exact IH. }
  cbn. destruct b; [|exact E]. cbn. rewrite E. f_equal. rewrite znth_app2 by lia. rewrite Z.sub_diag. reflexivity.
Qed.
Lemma sel_zlen bs v : zlen bs <= zlen v -> zlen (sel bs v) = zlen (idxs 0 bs).
Proof. intros L. rewrite <- (sel_idxs bs v L []). rewrite zlen_map. reflexivity. Qed.
Lemma shuffle_keys_sel bs v : lanes v -> length bs = 8%nat ->
  exists pad, shuffle8 v (flat_map lane_key (keys_of bs)) = sel bs v ++ pad /\ zlen (sel bs v ++ pad) = 8.
Proof.
  intros Hv L. unfold keys_of. set (pad := repeat (@None Z) (8 - length (map Some (idxs 0 bs)))).
  assert (Lv : zlen bs = zlen v) by (destruct Hv as [L' _]; unfold zlen; lia).
  exists (map (fun k => match k with Some i => znth v i | None => 0 end) pad).
  assert (E : shuffle8 v (flat_map lane_key (map Some (idxs 0 bs) ++ pad)) = sel bs v ++ map (fun k => match k with Some i => znth v i | None => 0 end) pad).
  { rewrite shuffle8_keys; [|exact Hv|].
    - rewrite map_app, map_map. f_equal. rewrite <- (sel_idxs bs v) with (u := []) by lia. reflexivity.
    - intros i H. apply in_app_iff in H as [H|H].
      + apply in_map_iff in H as (j & E & H). assert (j = i) by congruence. subst j. apply idxs_range in H. unfold zlen in H. lia.
      + apply repeat_spec in H. discriminate. }
  split; [exact E|].
  assert (Lb : zlen (idxs 0 bs) <= 8).
  { rewrite <- (sel_zlen bs v) by lia. assert (G : forall bs v, zlen (sel bs v) <= zlen bs).
    { clear. induction bs as [|b bs IH]; intros v; [reflexivity|]. destruct v as [|x v]; [apply zlen_nonneg|].
      cbn. specialize (IH v). destruct b; rewrite ?zlen_cons; lia. }
    specialize (G bs v). unfold zlen in G at 2. lia. }
  rewrite zlen_app, sel_zlen, zlen_map by lia. subst pad. unfold zlen at 2. rewrite repeat_length, map_length. unfold zlen in *. lia.
Qed.
Lemma movemask_app a b : movemask (a ++ b) = movemask a + 2 ^ zlen a * movemask b.
Proof.
  induction a as [|x a IH]; [change (2 ^ zlen (@nil Z)) with 1; cbn [app movemask]; lia|]. cbn [app movemask]. rewrite IH, zlen_cons. rewrite Z.pow_add_r by (pose proof (zlen_nonneg a); lia). lia.
Qed.
Lemma movemask_eqs bs : movemask (packs16 (map (fun b : bool => if b then 65535 else 0) bs) zerov) = maskb bs.
Proof.
  unfold packs16. rewrite map_app, movemask_app. replace (movemask (map sat8 zerov)) with 0 by reflexivity. rewrite Z.mul_0_r, Z.add_0_r.
  induction bs as [|b bs IH]; [reflexivity|]. cbn [map movemask maskb]. rewrite IH. destruct b; reflexivity.
Qed.
Lemma cmpeq_eqs a b : cmpeq16 a b = map (fun b : bool => if b then 65535 else 0) (eqs a b).
Proof. unfold cmpeq16, map2, eqs. rewrite map_map. reflexivity. Qed.
Lemma vor_eqs a b : length a = length b -> vor (map (fun b : bool => if b then 65535 else 0) a) (map (fun b : bool => if b then 65535 else 0) b) =
  map (fun b : bool => if b then 65535 else 0) (map (fun p => fst p || snd p) (combine a b)).
Proof.
  revert b. induction a as [|x a IH]; intros [|y b] L; try discriminate; [reflexivity|]. cbn in L. unfold vor, map2 in *. cbn.
  rewrite IH by lia. destruct x, y; reflexivity.
Qed.
(** the values of a list that differ from their predecessor *)
Fixpoint uniq (p : Z) (l : list Z) : list Z :=
  match l with [] => [] | x :: l' => if p =? x then uniq x l' else x :: uniq x l' end.
(** the values, except the last one, that differ from both neighbours *)
Fixpoint xuniq (p : Z) (l : list Z) : list Z :=
  match l with
  | x :: ((y :: _) as l') => if (x =? p) || (x =? y) then xuniq x l' else x :: xuniq x l'
  | _ => []
  end.
Ltac lanes8 H v := let L := fresh in destruct H as [L ?]; do 8 (destruct v as [|? v]; [discriminate L|]); destruct v; [|discriminate L].
Lemma in_firstn_skipn {A} n m (l : list A) x : In x (firstn n (skipn m l)) -> In x l.
Proof.
  intros H. rewrite <- (firstn_skipn m l). apply in_app_iff. right. rewrite <- (firstn_skipn n (skipn m l)). apply in_app_iff. left. exact H.
Qed.
Lemma app_len_inv (a b c d : list Z) : length a = length c -> a ++ b = c ++ d -> a = c.
Proof.
  revert c. induction a as [|x a IH]; intros [|y c] L E; try discriminate; [reflexivity|]. cbn in L, E.
  assert (x = y) by congruence. assert (a ++ b = c ++ d) by congruence. subst. f_equal. apply IH; auto.
Qed.
Lemma stn_prefix M o u pad : zlen (u ++ pad) = 8 -> 0 <= o -> o + 8 <= zlen M ->
  exists M', stn M o (u ++ pad) = Some M' /\ same_out M M' o (o + 8) /\ win M' o (zlen u) = u /\ zlen u <= 8.
Proof.
  intros L8 H0 H1. destruct (stn_ok M o (u ++ pad)) as (M' & S1 & S2 & S3); [lia|lia|].
  exists M'. split; [exact S1|]. rewrite L8 in S2. split; [exact S2|].
  rewrite zlen_app in L8. pose proof (zlen_nonneg pad). pose proof (zlen_nonneg u). split; [|lia].
  rewrite zlen_app in S3. destruct S2 as [SL _]. rewrite win_app in S3 by lia.
  apply (app_len_inv _ _ _ _) in S3; [exact S3|]. apply Nat2Z.inj.
  change (zlen (win M' o (zlen u)) = zlen u). apply win_zlen; lia.
Qed.
Lemma store_unique_ok M old nv o : lanes old -> lanes nv -> 0 <= o -> o + 8 <= zlen M ->
  exists M', store_unique M old nv o = Some (M', zlen (uniq (znth old 7) nv)) /\ same_out M M' o (o + 8) /\
    win M' o (zlen (uniq (znth old 7) nv)) = uniq (znth old 7) nv /\ zlen (uniq (znth old 7) nv) <= 8.
Proof.
  intros Ho Hn H0 H1. unfold store_unique.
  rewrite cmpeq_eqs, movemask_eqs.
  assert (Lb : length (eqs (alignr nv old 7) nv) = 8%nat).
  { clear -Ho Hn. lanes8 Ho old. lanes8 Hn nv. reflexivity. }
  destruct (uniqshuf_row _ Lb) as [R P]. rewrite R, P.
  assert (Lb' : length (map negb (eqs (alignr nv old 7) nv)) = 8%nat) by (rewrite map_length; exact Lb).
  destruct (shuffle_keys_sel _ nv Hn Lb') as (pad & E & L8). rewrite E.
  assert (SU : sel (map negb (eqs (alignr nv old 7) nv)) nv = uniq (znth old 7) nv).
  { clear -Ho Hn. lanes8 Ho old. lanes8 Hn nv. cbv [znth nth Z.to_nat Pos.to_nat Pos.iter_op Nat.add]. cbn.
    repeat match goal with |- context [?a =? ?b] => destruct (a =? b); cbn end; reflexivity. }
  assert (LS : zlen (idxs 0 (map negb (eqs (alignr nv old 7) nv))) = zlen (uniq (znth old 7) nv)).
  { rewrite <- SU. symmetry. apply sel_zlen. destruct Hn as [Ln _]. unfold zlen. lia. }
  rewrite LS. rewrite SU in L8 |- *. destruct (stn_prefix M o _ pad L8 H0 H1) as (M' & S1 & S2 & S3 & S4).
  exists M'. rewrite S1. auto.
Qed.
Lemma store_unique_xor_ok M old nv o : lanes old -> lanes nv -> 0 <= o -> o + 8 <= zlen M ->
  let u := xuniq (znth old 6) (znth old 7 :: nv) in
  exists M', store_unique_xor M old nv o = Some (M', zlen u) /\ same_out M M' o (o + 8) /\ win M' o (zlen u) = u /\ zlen u <= 8.
Proof.
  intros Ho Hn H0 H1 u. unfold store_unique_xor.
  set (e1 := eqs (alignr nv old 7) (alignr nv old 6)). set (e2 := eqs (alignr nv old 7) nv).
  rewrite !cmpeq_eqs. fold e1 e2.
  assert (L1 : length e1 = 8%nat) by (clear -Ho Hn; lanes8 Ho old; lanes8 Hn nv; reflexivity).
  assert (L2 : length e2 = 8%nat) by (clear -Ho Hn; lanes8 Ho old; lanes8 Hn nv; reflexivity).
  rewrite vor_eqs by lia. rewrite movemask_eqs. set (e := map (fun p : bool * bool => fst p || snd p) (combine e1 e2)).
  assert (Lb : length e = 8%nat) by (unfold e; rewrite map_length, combine_length; lia).
  destruct (uniqshuf_row _ Lb) as [R P]. rewrite R, P.
  assert (Lb' : length (map negb e) = 8%nat) by (rewrite map_length; exact Lb).
  assert (Ha : lanes (alignr nv old 7)).
  { clear -Ho Hn. split; [lanes8 Ho old; lanes8 Hn nv; reflexivity|].
    apply Forall_forall. intros x Hx. unfold alignr in Hx. apply in_firstn_skipn in Hx.
    destruct Ho as [_ Fo], Hn as [_ Fn]. rewrite Forall_forall in Fo, Fn. apply in_app_iff in Hx as [Hx|Hx]; auto. }
  destruct (shuffle_keys_sel _ _ Ha Lb') as (pad & E & L8). rewrite E.
  assert (SU : sel (map negb e) (alignr nv old 7) = u).
  { clear -Ho Hn. subst e e1 e2 u. lanes8 Ho old. lanes8 Hn nv. cbv [znth nth Z.to_nat Pos.to_nat Pos.iter_op Nat.add]. cbn.
    repeat match goal with |- context [?a =? ?b] => destruct (a =? b); cbn end; reflexivity. }
  assert (LS : zlen (idxs 0 (map negb e)) = zlen u).
  { rewrite <- SU. symmetry. apply sel_zlen. destruct Ha as [Ln _]. unfold zlen. lia. }
  rewrite LS. rewrite SU in L8 |- *. destruct (stn_prefix M o _ pad L8 H0 H1) as (M' & S1 & S2 & S3 & S4).
  exists M'. rewrite S1. auto.
Qed.
