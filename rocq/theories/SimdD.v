(** SimdD: difference of sorted arrays of 16-bit numbers with the string-compare
    instructions: difference_vector16. *)
From Verif Require Import Base BitUtil SimdTab ArrayUtil Simd SimdM SimdU SimdX SimdI.

(** ** Model *)
(** array_util.c:697-739: the main loop; [mask] is runningmask_a_found_in_b *)
Fixpoint dv_loop (fuel : nat) (A st_a B st_b C : Z) (M : memory) (i_a i_b : Z) (v_a v_b : vec) (mask count : Z) : option (memory * Z * Z * vec * Z * Z) :=
  match fuel with
  | O => None
  | S f =>
    let mask := Z.lor mask (cmpistrm v_b v_a) in
    do a_max <- rd M (A + (i_a + 8 - 1)); do b_max <- rd M (B + (i_b + 8 - 1));
    do (M, i_a, v_a, mask, count, stop) <-
      (if a_max <=? b_max then
         do (M, k) <- store_sel M v_a (Z.lxor mask 255) (C + count);
         if i_a + 8 =? st_a then Some (M, i_a + 8, v_a, mask, count + k, true)
         else do v_a <- ld8 M (A + (i_a + 8)); Some (M, i_a + 8, v_a, 0, count + k, false)
       else Some (M, i_a, v_a, mask, count, false));
    if (stop : bool) then Some (M, i_a, i_b, v_a, mask, count)
    else if b_max <=? a_max then
      if i_b + 8 =? st_b then Some (M, i_a, i_b + 8, v_a, mask, count)
      else do v_b <- ld8 M (B + (i_b + 8)); dv_loop f A st_a B st_b C M i_a (i_b + 8) v_a v_b mask count
    else dv_loop f A st_a B st_b C M i_a i_b v_a v_b mask count
  end.
(** array_util.c:744-763: the unfinished block of A against the remaining elements of B, padded with zeros in buffer[8] *)
Definition dv_unfinished (M : memory) (B s_b C i_b : Z) (v_a : vec) (mask count : Z) : option (memory * Z) :=
  do xs <- ldn M (B + i_b) (s_b - i_b); do v_b <- stn (repeat 0 8) 0 xs;
  let mask := Z.lor mask (cmpistrm v_b v_a) in
  do (M, k) <- store_sel M v_a (Z.lxor mask 255) (C + count);
  Some (M, count + k).
(** array_util.c:787-789: for (i = 0; i < s_a - i_a; i++) C[count + i] = A[i + i_a] *)
Fixpoint dcopy (fuel : nat) (M : memory) (q qa n : Z) : option memory :=
  match fuel with
  | O => None
  | S f => if 0 <? n then do x <- rd M qa; do M <- wr M q x; dcopy f M (q + 1) (qa + 1) (n - 1) else Some M
  end.
(** array_util.c:767-793: the scalar tail and the copy of what is left of A, on pointers and
    remaining lengths; [alias] is C == A; the result is the final &C[count] *)
Fixpoint dt_loop (fuel : nat) (alias : bool) (M : memory) (qa ma qb mb q : Z) : option (memory * Z) :=
  match fuel with
  | O => None
  | S f =>
    if (0 <? ma) && (0 <? mb) then
      do a <- rd M qa; do b <- rd M qb;
      if b <? a then dt_loop f alias M qa ma (qb + 1) (mb - 1) q
      else if a <? b then do M <- wr M q a; dt_loop f alias M (qa + 1) (ma - 1) qb mb (q + 1)
      else dt_loop f alias M (qa + 1) (ma - 1) (qb + 1) (mb - 1) q
    else if 0 <? ma then
      if alias then (if q <? qa then do M <- memmove M q qa ma; Some (M, q + ma) else Some (M, q + ma))
      else do M <- dcopy (S (Z.to_nat ma)) M q qa ma; Some (M, q + ma)
    else Some (M, q)
  end.
(** array_util.c:683-794: after the leading zeros *)
Definition dv_rest (M : memory) (A s_a B s_b C count : Z) : option (memory * Z) :=
  let st_a := s_a / 8 * 8 in
  let st_b := s_b / 8 * 8 in
  let fuel := S (Z.to_nat (s_a + s_b)) in
  do (M, i_a, i_b, count) <-
    (if (0 <? st_a) && (0 <? st_b) then
       do v_a <- ld8 M A; do v_b <- ld8 M B;
       do (M, i_a, i_b, v_a, mask, count) <- dv_loop fuel A st_a B st_b C M 0 0 v_a v_b 0 count;
       if i_a <? st_a then do (M, count) <- dv_unfinished M B s_b C i_b v_a mask count; Some (M, i_a + 8, i_b, count)
       else Some (M, i_a, i_b, count)
     else Some (M, 0, 0, count));
  do (M, e) <- dt_loop fuel (C =? A) M (A + i_a) (s_a - i_a) (B + i_b) (s_b - i_b) (C + count);
  Some (M, e - C).
(** array_util.c:657-795 difference_vector16 *)
Definition difference_vector16 (M : memory) (A s_a B s_b C : Z) : option (memory * Z) :=
  if s_a =? 0 then Some (M, 0)
  else if s_b =? 0 then
    if A =? C then Some (M, s_a) else do M <- memcpy M C A s_a; Some (M, s_a)
  else
    do a0 <- rd M A; do b0 <- rd M B;
    if (a0 =? 0) || (b0 =? 0) then
      if (a0 =? 0) && (b0 =? 0) then dv_rest M (A + 1) (s_a - 1) (B + 1) (s_b - 1) C 0
      else if a0 =? 0 then do M <- wr M C 0; dv_rest M (A + 1) (s_a - 1) B s_b C 1
      else dv_rest M A s_a (B + 1) (s_b - 1) C 0
    else dv_rest M A s_a B s_b C 0.

(** * Proofs *)
Local Opaque shuffle8 row16 shuffle_mask16.
Lemma maskb_cons b bs : maskb (b :: bs) = 2 * maskb bs + Z.b2z b.
Proof. cbn [maskb]. destruct b; cbn [Z.b2z]; lia. Qed.
Lemma maskb_bits bs n : Z.testbit (maskb bs) (Z.of_nat n) = nth n bs false.
Proof.
  revert n. induction bs as [|b bs IH]; intros n; [cbn; rewrite Z.testbit_0_l; destruct n; reflexivity|].
  rewrite maskb_cons. destruct n as [|n]; [apply Z.testbit_0_r|]. rewrite Nat2Z.inj_succ, Z.testbit_succ_r by lia. apply IH.
Qed.
Lemma maskb_inj a x : (forall n, Z.testbit x (Z.of_nat n) = nth n a false) -> x = maskb a.
Proof.
  intros H. apply Z.bits_inj'. intros n Hn. rewrite <- (Z2Nat.id n) by lia. rewrite H, maskb_bits. reflexivity.
Qed.
Lemma maskb_lor f g (v : list Z) : Z.lor (maskb (map f v)) (maskb (map g v)) = maskb (map (fun x => f x || g x) v).
Proof.
  apply maskb_inj. intros n. rewrite Z.lor_spec, !maskb_bits. revert n. induction v as [|x v IH]; intros [|n]; cbn; auto.
Qed.
Lemma maskb_lxor f (v : list Z) : length v = 8%nat -> Z.lxor (maskb (map f v)) 255 = maskb (map (fun x => negb (f x)) v).
Proof.
  intros L. apply maskb_inj. intros n. rewrite Z.lxor_spec, !maskb_bits. change 255 with (maskb (repeat true 8)). rewrite <- L, maskb_bits. clear L.
  revert n. induction v as [|x v IH]; intros [|n]; cbn [map nth repeat length]; first [reflexivity|apply IH|destruct (f x); reflexivity].
Qed.
Lemma maskb_zero f (v : list Z) : (forall x, In x v -> f x = false) -> 0 = maskb (map f v).
Proof. induction v as [|x v IH]; intros H; [reflexivity|]. cbn [map]. rewrite maskb_cons, <- IH, (H x) by (auto with datatypes). reflexivity. Qed.
Lemma existsb_zmem x l : existsb (Z.eqb x) l = zmem x l.
Proof.
  destruct (zmem x l) eqn:E.
  - apply zmem_In in E. apply existsb_exists. exists x. split; [exact E|apply Z.eqb_refl].
  - apply zmem_nIn in E. destruct (existsb (Z.eqb x) l) eqn:F; [|reflexivity]. apply existsb_exists in F. destruct F as (y & F1 & F2). apply Z.eqb_eq in F2. subst y. contradiction.
Qed.
Lemma istrlen_pad l k : (forall x, In x l -> x <> 0) -> istrlen (l ++ repeat 0 k) = length l.
Proof.
  induction l as [|x l IH]; intros H; [destruct k; reflexivity|]. cbn [app istrlen length]. assert (x <> 0) by (apply H; left; reflexivity).
  replace (x =? 0) with false by lia. rewrite IH; [reflexivity|]. intros y Hy. apply H. right. exact Hy.
Qed.
Lemma cmpistrm_pad l k va : length va = 8%nat -> (forall x, In x va -> x <> 0) -> (forall x, In x l -> x <> 0) ->
  cmpistrm (l ++ repeat 0 k) va = maskb (map (fun x => zmem x l) va).
Proof.
  intros La Za Zl. unfold cmpistrm. rewrite istrlen_pad by exact Zl. rewrite (istrlen_full va) by exact Za. rewrite La. unfold eq_any.
  rewrite (firstn_all2 va) by lia. cbn [Nat.sub repeat]. rewrite app_nil_r. f_equal. apply map_ext. intros x. rewrite firstn_app, Nat.sub_diag, firstn_all, firstn_O, app_nil_r. apply existsb_zmem.
Qed.
Lemma map_zmem_ext u v (va : list Z) : (forall x, In x va -> (In x u <-> In x v)) -> map (fun x => zmem x u) va = map (fun x => zmem x v) va.
Proof.
  intros H. apply map_ext_in. intros x Hx. specialize (H x Hx). destruct (zmem x v) eqn:E; [apply zmem_In; apply zmem_In in E; tauto|apply zmem_nIn; apply zmem_nIn in E; tauto].
Qed.
Definition diff (A B : list Z) : list Z := filter (fun x => negb (zmem x B)) A.
Lemma diff_app u v B : diff (u ++ v) B = diff u B ++ diff v B. Proof. apply filter_app. Qed.
Lemma diff_ext u B B' : (forall x, In x u -> (In x B <-> In x B')) -> diff u B = diff u B'.
Proof.
  intros H. unfold diff. apply filter_ext_in. intros x Hx. specialize (H x Hx). f_equal. destruct (zmem x B') eqn:E; [apply zmem_In; apply zmem_In in E; tauto|apply zmem_nIn; apply zmem_nIn in E; tauto].
Qed.
(** emitting the lanes of a block that were not found *)
Lemma store_diff_ok M va B o : lanes va -> 0 <= o -> o + 8 <= zlen M ->
  exists M', store_sel M va (Z.lxor (maskb (map (fun x => zmem x B) va)) 255) o = Some (M', zlen (diff va B)) /\ same_out M M' o (o + 8) /\ win M' o (zlen (diff va B)) = diff va B /\ zlen (diff va B) <= 8.
Proof.
  intros Hv H0 H1. rewrite maskb_lxor by apply Hv. destruct (store_sel_ok M va (map (fun x => negb (zmem x B)) va) o Hv) as (M' & K & S1 & W & L); [rewrite map_length; apply Hv|lia|lia|].
  rewrite sel_map in *. exists M'. auto.
Qed.
(** ** The tail *)
Lemma dcopy_ok fuel : forall M q qa n, 0 <= n -> inm M qa n -> inm M q n -> apart qa n q n -> n < Z.of_nat fuel ->
  exists M', dcopy fuel M q qa n = Some M' /\ same_out M M' q (q + n) /\ win M' q n = win M qa n.
Proof.
  induction fuel as [|f IH]; intros M q qa n Hn (A1 & A2 & A3) (B1 & B2 & B3) X Hf; [lia|]. unfold apart in X. cbn [dcopy]. destruct (Z.ltb_spec 0 n) as [C|C].
  - rewrite rd_ok by lia. cbn [obind]. destruct (wr_ok M q (znth M qa)) as (M1 & K & S1 & V1); [lia|]. rewrite K. cbn [obind]. assert (L1 : zlen M1 = zlen M) by apply S1.
    destruct (IH M1 (q + 1) (qa + 1) (n - 1)) as (M' & K2 & S2 & W2); try (split; lia); try (unfold apart; lia); try lia.
    assert (L2 : zlen M' = zlen M1) by apply S2. exists M'. split; [exact K2|]. split; [eapply same_trans; [exact S1|exact S2|lia|lia|lia|lia]|].
    rewrite (win_cons M'), (win_cons M qa) by lia. rewrite W2. f_equal; [transitivity (znth M1 q); [apply S2; lia|exact V1]|]. eapply same_win; [exact S1|lia|lia|lia|lia].
  - replace n with 0 by lia. exists M. rewrite Z.add_0_r, !win_0. split; [reflexivity|]. split; [apply same_refl|reflexivity].
Qed.
Lemma dt_loop_ok fuel : forall M qa ma qb mb q, inm M qa ma -> inm M qb mb -> 0 <= q -> q + ma <= zlen M ->
  apart qa ma q ma -> apart qb mb q ma -> ma + mb < Z.of_nat fuel ->
  exists M' e, dt_loop fuel false M qa ma qb mb q = Some (M', e) /\ post_union M q e ma M' (difference_uint16 (win M qa ma) (win M qb mb)).
Proof.
  induction fuel as [|f IH]; intros M q1 m1 q2 m2 q I1 I2 Hq Hl C1 C2 Hf; [destruct I1 as (? & ? & ?), I2 as (? & ? & ?); lia|].
  assert (I1' := I1). assert (I2' := I2). destruct I1' as (A1 & A2 & A3), I2' as (B1 & B2 & B3). unfold apart in C1, C2. cbn [dt_loop].
  destruct ((0 <? m1) && (0 <? m2)) eqn:Hb.
  - apply andb_true_iff in Hb. rewrite !Z.ltb_lt in Hb. destruct Hb as [P1 P2]. rewrite !rd_ok by lia. cbn [obind].
    assert (W1 := win_cons M q1 m1 A1 P1 A3). assert (W2 := win_cons M q2 m2 B1 P2 B3). rewrite W1, W2, difference_uint16_cons.
    destruct (Z.ltb_spec (znth M q2) (znth M q1)) as [Hlt|Hge]; [|destruct (Z.ltb_spec (znth M q1) (znth M q2)) as [Hlt|Hge']].
    + replace (znth M q1 <? znth M q2) with false by lia. replace (znth M q1 =? znth M q2) with false by lia. rewrite <- W1.
      apply IH; try (split; lia); try (unfold apart; lia); lia.
    + rewrite <- W2. destruct (wr_ok M q (znth M q1)) as (M1 & X1 & S1 & V1); [lia|]. rewrite X1. cbn [obind]. assert (L1 : zlen M1 = zlen M) by apply S1.
      assert (E1 : win M1 (q1 + 1) (m1 - 1) = win M (q1 + 1) (m1 - 1)) by (eapply same_win; [exact S1|lia|lia|lia|lia]).
      assert (E2 : win M1 q2 m2 = win M q2 m2) by (eapply same_win; [exact S1|lia|lia|lia|lia]).
      destruct (IH M1 (q1 + 1) (m1 - 1) q2 m2 (q + 1)) as (M' & e & R & P); try (split; lia); try (unfold apart; lia); try lia.
      exists M', e. split; [exact R|]. replace m1 with (m1 - 1 + 1) at 1 by lia. eapply post_cons; eauto; try lia. rewrite <- E1, <- E2. exact P.
    + replace (znth M q1 =? znth M q2) with true by lia. destruct (IH M (q1 + 1) (m1 - 1) (q2 + 1) (m2 - 1) q) as (M' & e & R & P); try (split; lia); try (unfold apart; lia); try lia.
      exists M', e. split; [exact R|]. eapply post_weaken; [exact P|lia].
  - apply andb_false_iff in Hb. rewrite !Z.ltb_ge in Hb. destruct (Z.ltb_spec 0 m1) as [P|P].
    + replace m2 with 0 by lia. destruct (dcopy_ok (S (Z.to_nat m1)) M q q1 m1) as (M' & K & S1 & W); try (split; lia); try (unfold apart; lia); try lia. rewrite K. cbn [obind].
      exists M', (q + m1). split; [reflexivity|]. rewrite win_0. split; [exact S1|]. split; [lia|]. replace (q + m1 - q) with m1 by lia. rewrite W.
      destruct (win M q1 m1); reflexivity.
    + exists M, q. split; [reflexivity|]. replace m1 with 0 by lia. rewrite win_0. split; [apply same_refl|]. split; [lia|]. rewrite Z.sub_diag. destruct (win M q2 m2); reflexivity.
Qed.
(** ** The main loop *)
Lemma blk M p n i : inm M p n -> incr (win M p n) -> 0 <= i -> i + 8 <= n ->
  win M p n = win M p i ++ wnd M p i ++ win M (p + (i + 8)) (n - (i + 8)) /\ win M p (i + 8) = win M p i ++ wnd M p i /\
  (forall x, In x (wnd M p i) -> x <= znth M (p + (i + 7))) /\ In (znth M (p + (i + 7))) (wnd M p i) /\
  (forall y, In y (win M (p + (i + 8)) (n - (i + 8))) -> znth M (p + (i + 7)) < y) /\ (forall x y, In x (win M p i) -> In y (wnd M p i) -> x < y).
Proof.
  intros (A & B & C) N Hi Hl.
  assert (E1 : win M p (i + 8) = win M p i ++ wnd M p i) by (unfold wnd; rewrite <- win_app by lia; reflexivity).
  assert (E2 : win M p n = win M p i ++ wnd M p i ++ win M (p + (i + 8)) (n - (i + 8))).
  { rewrite app_assoc, <- E1. rewrite <- win_app by lia. f_equal. lia. }
  rewrite E2 in N. apply incr_app in N. destruct N as (N1 & N2 & N3). apply incr_app in N2. destruct N2 as (N4 & N5 & N6).
  assert (L : length (wnd M p i) = 8%nat) by (apply Nat2Z.inj; change (zlen (win M (p + i) 8) = 8); apply win_zlen; lia).
  assert (V : znth M (p + (i + 7)) = znth (wnd M p i) 7) by (unfold wnd; rewrite znth_win by lia; f_equal; lia). rewrite V.
  split; [exact E2|]. split; [exact E1|]. split; [intros x Hx; apply incr_max8; assumption|]. split; [apply in7; exact L|]. split; [intros y Hy; apply N6; [apply in7; exact L|exact Hy]|].
  intros x y Hx Hy. apply N3; [exact Hx|apply in_app_iff; left; exact Hy].
Qed.
Definition dinv (M0 : memory) (pa sa pb sb C q0 : Z) (M : memory) (i_a count : Z) : Prop :=
  same_out M0 M q0 (q0 + sa) /\ C + count = q0 + zlen (diff (win M0 pa i_a) (win M0 pb sb)) /\
  win M q0 (zlen (diff (win M0 pa i_a) (win M0 pb sb))) = diff (win M0 pa i_a) (win M0 pb sb).
Lemma diff_len u B : zlen (diff u B) <= zlen u.
Proof. unfold diff, zlen. apply Nat2Z.inj_le. induction u as [|x u IH]; cbn; [lia|]. destruct (negb (zmem x B)); cbn; lia. Qed.
(** emitting the block at [i_a], the matches of which are the elements of [F] *)
Lemma dinv_emit M0 pa sa pb sb C q0 M i_a count F : inm M0 pa sa -> incr (win M0 pa sa) -> Forall (fun x => 0 <= x < 65536) (win M0 pa sa) -> inm M0 q0 sa ->
  dinv M0 pa sa pb sb C q0 M i_a count -> 0 <= i_a -> i_a + 8 <= sa -> (forall x, In x (wnd M0 pa i_a) -> (In x F <-> In x (win M0 pb sb))) ->
  exists M' k, store_sel M (wnd M0 pa i_a) (Z.lxor (maskb (map (fun x => zmem x F) (wnd M0 pa i_a))) 255) (C + count) = Some (M', k) /\
    dinv M0 pa sa pb sb C q0 M' (i_a + 8) (count + k).
Proof.
  intros IA NA BA (Q1 & Q2 & Q3) (S1 & E1 & W1) Hi Hl HF. destruct (blk M0 pa sa i_a IA NA Hi Hl) as (_ & D2 & _). assert (IA' := IA). destruct IA' as (A1 & A2 & A3).
  assert (L1 : zlen M = zlen M0) by apply S1. pose proof (diff_len (win M0 pa i_a) (win M0 pb sb)) as LD. rewrite win_zlen in LD by lia.
  pose proof (zlen_nonneg (diff (win M0 pa i_a) (win M0 pb sb))) as LN. set (O := diff (win M0 pa i_a) (win M0 pb sb)) in *.
  destruct (store_diff_ok M (wnd M0 pa i_a) F (C + count)) as (M' & K & S2 & W2 & L8); [apply (win_lanes M0 pa sa); assumption|lia|lia|].
  rewrite (diff_ext _ F (win M0 pb sb) HF) in *. exists M', (zlen (diff (wnd M0 pa i_a) (win M0 pb sb))). split; [exact K|].
  assert (L2 : zlen M' = zlen M) by apply S2. pose proof (zlen_nonneg (diff (wnd M0 pa i_a) (win M0 pb sb))) as LN2. split; [|split].
  - eapply same_trans; [exact S1|exact S2|lia|lia|lia|lia].
  - rewrite D2, diff_app, zlen_app. fold O. lia.
  - rewrite D2, diff_app, zlen_app. fold O. rewrite win_app by lia. f_equal.
    + transitivity (win M q0 (zlen O)); [|exact W1]. eapply same_win; [exact S2|lia|lia|lia|lia].
    + rewrite <- E1. exact W2.
Qed.
Lemma zmem_app x u v : zmem x (u ++ v) = zmem x u || zmem x v. Proof. apply existsb_app. Qed.
Lemma mask_app u v (va : list Z) : Z.lor (maskb (map (fun x => zmem x u) va)) (maskb (map (fun x => zmem x v) va)) = maskb (map (fun x => zmem x (u ++ v)) va).
Proof. rewrite maskb_lor. f_equal. apply map_ext. intros x. symmetry. apply zmem_app. Qed.
Lemma dv_loop_ok M0 pa sa pb sb C q0 : ienv M0 pa sa pb sb -> (forall x, In x (win M0 pa sa) -> x <> 0) -> (forall x, In x (win M0 pb sb) -> x <> 0) ->
  inm M0 q0 sa -> apart q0 sa pa sa -> apart q0 sa pb sb -> forall fuel M i_a i_b count,
  dinv M0 pa sa pb sb C q0 M i_a count -> 0 <= i_a -> 0 <= i_b -> i_a mod 8 = 0 -> i_b mod 8 = 0 -> i_a < sa / 8 * 8 -> i_b < sb / 8 * 8 ->
  (forall x, In x (win M0 pb i_b) -> x <= znth M0 (pa + (i_a + 7))) -> sa + sb - i_a - i_b < Z.of_nat fuel ->
  exists M' i_a' i_b' va mask count',
    dv_loop fuel pa (sa / 8 * 8) pb (sb / 8 * 8) C M i_a i_b (wnd M0 pa i_a) (wnd M0 pb i_b) (maskb (map (fun x => zmem x (win M0 pb i_b)) (wnd M0 pa i_a))) count =
      Some (M', i_a', i_b', va, mask, count') /\
    dinv M0 pa sa pb sb C q0 M' i_a' count' /\ 0 <= i_a' <= sa / 8 * 8 /\ 0 <= i_b' <= sb /\
    ((i_a' = sa / 8 * 8 /\ forall x y, In x (win M0 pb i_b') -> In y (win M0 (pa + i_a') (sa - i_a')) -> x < y) \/
     (i_a' + 8 <= sa / 8 * 8 /\ i_b' = sb / 8 * 8 /\ va = wnd M0 pa i_a' /\ mask = maskb (map (fun x => zmem x (win M0 pb i_b')) va) /\
      forall x, In x (win M0 pb i_b') -> x <= znth M0 (pa + (i_a' + 7)))).
Proof.
  intros E ZA ZB IQ XA XB. assert (E' := E). destruct E' as [IA IB NA NB BA BB]. assert (IA' := IA). assert (IB' := IB). destruct IA' as (A1 & A2 & A3), IB' as (B1 & B2 & B3).
  assert (IQ' := IQ). destruct IQ' as (Q1 & Q2 & Q3). unfold apart in XA, XB.
  induction fuel as [|f IH]; intros M i_a i_b count HI Ga Gb Da Db Ha Hb I3 Hf; [lia|].
  assert (Fa : i_a + 8 <= sa / 8 * 8) by lia. assert (Fb : i_b + 8 <= sb / 8 * 8) by lia. assert (Ta : sa / 8 * 8 <= sa) by lia. assert (Tb : sb / 8 * 8 <= sb) by lia.
  assert (Ka : i_a + 8 < sa / 8 * 8 -> i_a + 8 + 8 <= sa / 8 * 8) by lia. assert (Kb : i_b + 8 < sb / 8 * 8 -> i_b + 8 + 8 <= sb / 8 * 8) by lia. assert (Ta8 : (i_a + 8) mod 8 = 0) by lia. assert (Tb8 : (i_b + 8) mod 8 = 0) by lia.
  set (sta := sa / 8 * 8) in *. set (stb := sb / 8 * 8) in *. clearbody sta stb.
  destruct (blk M0 pa sa i_a IA NA Ga ltac:(lia)) as (PA1 & PA2 & PA3 & PA4 & PA5 & PA6). destruct (blk M0 pb sb i_b IB NB Gb ltac:(lia)) as (PB1 & PB2 & PB3 & PB4 & PB5 & PB6).
  assert (La := win_lanes M0 pa sa i_a IA BA Ga ltac:(lia)). assert (Lb := win_lanes M0 pb sb i_b IB BB Gb ltac:(lia)). fold (wnd M0 pa i_a) in La. fold (wnd M0 pb i_b) in Lb.
  assert (CM : cmpistrm (wnd M0 pb i_b) (wnd M0 pa i_a) = maskb (map (fun x => zmem x (wnd M0 pb i_b)) (wnd M0 pa i_a))).
  { rewrite cmpistrm_spec; [reflexivity|apply La|apply Lb| |].
    - intros x Hx. apply ZA. rewrite PA1, !in_app_iff. auto.
    - intros x Hx. apply ZB. rewrite PB1, !in_app_iff. auto. }
  cbn [dv_loop]. rewrite CM, mask_app, <- PB2. assert (HI' := HI). destruct HI' as (S1 & E1 & W1). assert (L1 : zlen M = zlen M0) by apply S1. rewrite !rd_ok by lia. cbn [obind].
  replace (znth M (pa + (i_a + 8 - 1))) with (znth M0 (pa + (i_a + 7))) by (symmetry; replace (i_a + 8 - 1) with (i_a + 7) by lia; apply S1; lia).
  replace (znth M (pb + (i_b + 8 - 1))) with (znth M0 (pb + (i_b + 7))) by (symmetry; replace (i_b + 8 - 1) with (i_b + 7) by lia; apply S1; lia).
  set (amax := znth M0 (pa + (i_a + 7))) in *. set (bmax := znth M0 (pb + (i_b + 7))) in *.
  assert (RB : forall x, In x (win M0 pb (i_b + 8)) -> x <= Z.max amax bmax) by (intros x Hx; rewrite PB2, in_app_iff in Hx; destruct Hx as [Hx|Hx]; [specialize (I3 x Hx)|specialize (PB3 x Hx)]; lia).
  destruct (Z.leb_spec amax bmax) as [C1|C1].
  - destruct (dinv_emit M0 pa sa pb sb C q0 M i_a count (win M0 pb (i_b + 8)) IA NA BA IQ HI Ga ltac:(lia)) as (M1 & k & K & HI1).
    { intros x Hx. rewrite PB1, PB2, !in_app_iff. split; [tauto|]. intros [G|[G|G]]; [tauto|tauto|exfalso]. specialize (PA3 x Hx). specialize (PB5 x G). lia. }
    rewrite K. cbn [obind]. assert (HI1' := HI1). destruct HI1' as (S2 & _ & _). assert (L2 : zlen M1 = zlen M0) by apply S2.
    destruct (Z.eqb_spec (i_a + 8) sta) as [Q|Q].
    + exists M1, (i_a + 8), i_b, (wnd M0 pa i_a), (maskb (map (fun x => zmem x (win M0 pb (i_b + 8))) (wnd M0 pa i_a))), (count + k). split; [reflexivity|]. split; [exact HI1|]. split; [lia|]. split; [lia|].
      left. split; [exact Q|]. intros x y Hx Hy. specialize (I3 x Hx). specialize (PA5 y Hy). lia.
    + specialize (Ka ltac:(lia)). unfold ld8. rewrite ldn_ok by lia. cbn [obind].
      assert (VN : win M1 (pa + (i_a + 8)) 8 = wnd M0 pa (i_a + 8)) by (apply win_ext; try lia; intros j Hj; apply S2; lia). rewrite VN.
      destruct (blk M0 pa sa (i_a + 8) IA NA ltac:(lia) ltac:(lia)) as (PC1 & PC2 & PC3 & PC4 & PC5 & PC6).
      assert (UP : forall y, In y (wnd M0 pa (i_a + 8)) -> amax < y) by (intros y Hy; apply PC6; [rewrite PA2, in_app_iff; right; exact PA4|exact Hy]).
      assert (AN : amax < znth M0 (pa + (i_a + 8 + 7))) by (apply UP; exact PC4).
      destruct (Z.leb_spec bmax amax) as [C2|C2].
      * assert (RB' : forall x, In x (win M0 pb (i_b + 8)) -> x <= amax) by (intros x Hx; specialize (RB x Hx); lia).
        assert (Z0 : 0 = maskb (map (fun x => zmem x (win M0 pb (i_b + 8))) (wnd M0 pa (i_a + 8)))).
        { apply maskb_zero. intros x Hx. apply zmem_nIn. intros G. specialize (RB' x G). specialize (UP x Hx). lia. }
        destruct (Z.eqb_spec (i_b + 8) stb) as [Q4|Q4].
        -- exists M1, (i_a + 8), (i_b + 8), (wnd M0 pa (i_a + 8)), 0, (count + k).
           split; [reflexivity|]. split; [exact HI1|]. split; [lia|]. split; [lia|]. right. split; [lia|]. split; [exact Q4|]. split; [reflexivity|]. split; [exact Z0|].
           intros x Hx. specialize (RB' x Hx). lia.
        -- specialize (Kb ltac:(lia)). rewrite ldn_ok by lia. cbn [obind]. assert (WN : win M1 (pb + (i_b + 8)) 8 = wnd M0 pb (i_b + 8)) by (apply win_ext; try lia; intros j Hj; apply S2; lia). rewrite WN.
           specialize (IH M1 (i_a + 8) (i_b + 8) (count + k)). rewrite <- Z0 in IH. apply IH; try assumption; try lia; intros x Hx; specialize (RB' x Hx); lia.
      * assert (Z0 : 0 = maskb (map (fun x => zmem x (win M0 pb i_b)) (wnd M0 pa (i_a + 8)))).
        { apply maskb_zero. intros x Hx. apply zmem_nIn. intros G. specialize (I3 x G). specialize (UP x Hx). lia. }
        specialize (IH M1 (i_a + 8) i_b (count + k)). rewrite <- Z0 in IH. apply IH; try assumption; try lia; intros x Hx; specialize (I3 x Hx); lia.
  - cbn [obind]. replace (bmax <=? amax) with true by lia. assert (RB' : forall x, In x (win M0 pb (i_b + 8)) -> x <= amax) by (intros x Hx; specialize (RB x Hx); lia).
    destruct (Z.eqb_spec (i_b + 8) stb) as [Q4|Q4].
    + exists M, i_a, (i_b + 8), (wnd M0 pa i_a), (maskb (map (fun x => zmem x (win M0 pb (i_b + 8))) (wnd M0 pa i_a))), count. split; [reflexivity|]. split; [exact HI|]. split; [lia|]. split; [lia|].
      right. split; [lia|]. split; [exact Q4|]. split; [reflexivity|]. split; [reflexivity|]. exact RB'.
    + specialize (Kb ltac:(lia)). unfold ld8. rewrite ldn_ok by lia. cbn [obind]. assert (WN : win M (pb + (i_b + 8)) 8 = wnd M0 pb (i_b + 8)) by (apply win_ext; try lia; intros j Hj; apply S1; lia). rewrite WN.
      apply IH; try assumption; lia.
Qed.
Lemma skipn_rep (x : Z) n k : skipn k (repeat x n) = repeat x (n - k).
Proof. revert k. induction n as [|n IH]; intros [|k]; cbn; auto. Qed.
Lemma dv_unfinished_ok M0 pa sa pb sb C q0 M i_a count : ienv M0 pa sa pb sb -> (forall x, In x (win M0 pa sa) -> x <> 0) -> (forall x, In x (win M0 pb sb) -> x <> 0) ->
  inm M0 q0 sa -> apart q0 sa pb sb -> dinv M0 pa sa pb sb C q0 M i_a count -> 0 <= i_a -> i_a + 8 <= sa ->
  exists M' k, dv_unfinished M pb sb C (sb / 8 * 8) (wnd M0 pa i_a) (maskb (map (fun x => zmem x (win M0 pb (sb / 8 * 8))) (wnd M0 pa i_a))) count = Some (M', count + k) /\
    dinv M0 pa sa pb sb C q0 M' (i_a + 8) (count + k).
Proof.
  intros [IA IB NA NB BA BB] ZA ZB IQ XB HI Ga Gl. assert (IA' := IA). assert (IB' := IB). destruct IA' as (A1 & A2 & A3), IB' as (B1 & B2 & B3).
  assert (IQ' := IQ). destruct IQ' as (Q1 & Q2 & Q3). unfold apart in XB. assert (HI' := HI). destruct HI' as (S1 & _ & _). assert (L1 : zlen M = zlen M0) by apply S1.
  destruct (blk M0 pa sa i_a IA NA Ga Gl) as (PA1 & PA2 & PA3 & PA4 & PA5 & PA6). assert (La := win_lanes M0 pa sa i_a IA BA Ga Gl). fold (wnd M0 pa i_a) in La.
  assert (Tb : 0 <= sb / 8 * 8 <= sb) by lia. assert (Ur : 0 <= sb - sb / 8 * 8 < 8) by lia. set (stb := sb / 8 * 8) in *. clearbody stb.
  assert (SB := win_split M0 pb sb stb IB Tb). set (rest := win M0 (pb + stb) (sb - stb)) in *.
  assert (LR : zlen rest = sb - stb) by (apply win_zlen; lia).
  unfold dv_unfinished. rewrite ldn_ok by lia. cbn [obind]. replace (win M (pb + stb) (sb - stb)) with rest by (symmetry; eapply same_win; [exact S1|lia|lia|lia|lia]).
  assert (BUF : stn (repeat 0 8) 0 rest = Some (rest ++ repeat 0 (8 - length rest))).
  { unfold stn. replace (okr (repeat 0 8) 0 (zlen rest)) with true by (symmetry; apply okr_iff; change (zlen (repeat 0 8)) with 8; lia). f_equal. cbn [Z.to_nat firstn app]. f_equal.
    rewrite Z.add_0_l. unfold zlen. rewrite Nat2Z.id. apply skipn_rep. }
  rewrite BUF. cbn [obind]. rewrite cmpistrm_pad; [|apply La|intros x Hx; apply ZA; rewrite PA1, !in_app_iff; auto|intros x Hx; apply ZB; rewrite SB, in_app_iff; auto].
  rewrite mask_app, <- SB. destruct (dinv_emit M0 pa sa pb sb C q0 M i_a count (win M0 pb sb) IA NA BA IQ HI Ga Gl) as (M1 & k & K & HI1); [tauto|].
  rewrite K. cbn [obind]. exists M1, k. auto.
Qed.
Lemma dv_rest_ok M0 pa sa pb sb C c0 : ienv M0 pa sa pb sb -> (forall x, In x (win M0 pa sa) -> x <> 0) -> (forall x, In x (win M0 pb sb) -> x <> 0) ->
  inm M0 (C + c0) sa -> apart (C + c0) sa pa sa -> apart (C + c0) sa pb sb -> C <> pa ->
  exists M' k, dv_rest M0 pa sa pb sb C c0 = Some (M', c0 + k) /\ same_out M0 M' (C + c0) (C + c0 + sa) /\ 0 <= k <= sa /\ win M' (C + c0) k = diff (win M0 pa sa) (win M0 pb sb).
Proof.
  intros E ZA ZB IQ XA XB Hne. assert (E' := E). destruct E' as [IA IB NA NB BA BB]. assert (IA' := IA). assert (IB' := IB). destruct IA' as (A1 & A2 & A3), IB' as (B1 & B2 & B3).
  assert (IQ' := IQ). destruct IQ' as (Q1 & Q2 & Q3). set (q0 := C + c0) in *.
  assert (V : exists M i_a i_b count,
    (if (0 <? sa / 8 * 8) && (0 <? sb / 8 * 8) then
       do v_a <- ld8 M0 pa; do v_b <- ld8 M0 pb;
       do (M, i_a, i_b, v_a, mask, count) <- dv_loop (S (Z.to_nat (sa + sb))) pa (sa / 8 * 8) pb (sb / 8 * 8) C M0 0 0 v_a v_b 0 c0;
       if i_a <? sa / 8 * 8 then do (M, count) <- dv_unfinished M pb sb C i_b v_a mask count; Some (M, i_a + 8, i_b, count)
       else Some (M, i_a, i_b, count)
     else Some (M0, 0, 0, c0)) = Some (M, i_a, i_b, count) /\
    dinv M0 pa sa pb sb C q0 M i_a count /\ 0 <= i_a <= sa /\ 0 <= i_b <= sb /\ (forall x y, In x (win M0 pb i_b) -> In y (win M0 (pa + i_a) (sa - i_a)) -> x < y)).
  { assert (I0 : dinv M0 pa sa pb sb C q0 M0 0 c0) by (split; [apply same_refl|]; rewrite win_0; split; [unfold zlen; cbn; lia|reflexivity]).
    destruct ((0 <? sa / 8 * 8) && (0 <? sb / 8 * 8)) eqn:Hb.
    - apply andb_true_iff in Hb. rewrite !Z.ltb_lt in Hb. destruct Hb as [Ha Hb]. unfold ld8. rewrite !ldn_ok by lia. cbn [obind].
      destruct (dv_loop_ok M0 pa sa pb sb C q0 E ZA ZB IQ XA XB (S (Z.to_nat (sa + sb))) M0 0 0 c0 I0) as (M1 & i_a & i_b & va & mask & count & K & HI & Ra & Rb & F); try reflexivity; try lia; try (intros x []).
      rewrite <- (maskb_zero (fun x => zmem x (win M0 pb 0))) in K by reflexivity. unfold wnd in K. rewrite !Z.add_0_r in K. rewrite K. cbn [obind].
      destruct F as [[F1 F2]|(F1 & F2 & F3 & F4 & F5)].
      + replace (i_a <? sa / 8 * 8) with false by lia. exists M1, i_a, i_b, count. split; [reflexivity|]. split; [exact HI|]. split; [lia|]. split; [lia|]. exact F2.
      + replace (i_a <? sa / 8 * 8) with true by lia. subst va mask i_b.
        destruct (dv_unfinished_ok M0 pa sa pb sb C q0 M1 i_a count E ZA ZB IQ XB HI ltac:(lia) ltac:(lia)) as (M2 & k & K2 & HI2). rewrite K2. cbn [obind].
        exists M2, (i_a + 8), (sb / 8 * 8), (count + k). split; [reflexivity|]. split; [exact HI2|]. split; [lia|]. split; [lia|].
        destruct (blk M0 pa sa i_a IA NA ltac:(lia) ltac:(lia)) as (PA1 & PA2 & PA3 & PA4 & PA5 & PA6). intros x y Hx Hy. specialize (F5 x Hx). specialize (PA5 y Hy). lia.
    - exists M0, 0, 0, c0. split; [reflexivity|]. split; [exact I0|]. split; [lia|]. split; [lia|]. intros x y []. }
  destruct V as (M & i_a & i_b & count & K & (S1 & E1 & W1) & Ra & Rb & LT). unfold dv_rest. rewrite K. cbn [obind]. replace (C =? pa) with false by lia.
  assert (L1 : zlen M = zlen M0) by apply S1. unfold apart in XA, XB. set (O := diff (win M0 pa i_a) (win M0 pb sb)) in *.
  pose proof (diff_len (win M0 pa i_a) (win M0 pb sb)) as LD. rewrite win_zlen in LD by lia. fold O in LD. pose proof (zlen_nonneg O) as LN.
  assert (X1 : win M (pa + i_a) (sa - i_a) = win M0 (pa + i_a) (sa - i_a)) by (eapply same_win; [exact S1|lia|lia|lia|lia]).
  assert (X2 : win M (pb + i_b) (sb - i_b) = win M0 (pb + i_b) (sb - i_b)) by (eapply same_win; [exact S1|lia|lia|lia|lia]).
  destruct (dt_loop_ok (S (Z.to_nat (sa + sb))) M (pa + i_a) (sa - i_a) (pb + i_b) (sb - i_b) (C + count)) as (M2 & e & K2 & S2 & He & W2); try (split; lia); try (unfold apart; lia); try lia.
  rewrite K2. cbn [obind]. exists M2, (e - q0). split; [f_equal; f_equal; lia|]. assert (L2 : zlen M2 = zlen M) by apply S2.
  split; [eapply same_trans; [exact S1|exact S2|lia|lia|lia|lia]|]. split; [lia|].
  replace (e - q0) with (zlen O + (e - (C + count))) by lia. rewrite win_app by lia. rewrite <- E1, W2, X1, X2.
  rewrite difference_uint16_spec by (apply incr_suffix; assumption). fold (diff (win M0 (pa + i_a) (sa - i_a)) (win M0 (pb + i_b) (sb - i_b))).
  rewrite (win_split M0 pa sa i_a IA Ra), diff_app. fold O. f_equal.
  - transitivity (win M q0 (zlen O)); [|exact W1]. eapply same_win; [exact S2|lia|lia|lia|lia].
  - apply diff_ext. intros x Hx. rewrite (win_split M0 pb sb i_b IB Rb), in_app_iff. split; [tauto|]. intros [G|G]; [exfalso; specialize (LT x x G Hx); lia|exact G].
Qed.
Lemma dv_rest_nil M pa pb sb C c0 : 0 <= sb -> dv_rest M pa 0 pb sb C c0 = Some (M, c0).
Proof. intros H. unfold dv_rest. cbn [Z.div Z.mul Z.ltb]. cbn. f_equal. f_equal. lia. Qed.
Lemma dv_rest_ok' M0 pa sa pb sb C c0 : ienv M0 pa sa pb sb -> (forall x, In x (win M0 pa sa) -> x <> 0) -> (forall x, In x (win M0 pb sb) -> x <> 0) ->
  inm M0 (C + c0) sa -> apart (C + c0) sa pa sa -> apart (C + c0) sa pb sb -> C <> pa \/ sa = 0 ->
  exists M' k, dv_rest M0 pa sa pb sb C c0 = Some (M', c0 + k) /\ same_out M0 M' (C + c0) (C + c0 + sa) /\ 0 <= k <= sa /\ win M' (C + c0) k = diff (win M0 pa sa) (win M0 pb sb).
Proof.
  intros E ZA ZB IQ XA XB Hne. destruct (Z.eq_dec sa 0) as [->|Hz].
  - destruct E as [_ (_ & B2 & _) _ _ _ _]. exists M0, 0. rewrite dv_rest_nil by lia. rewrite Z.add_0_r. split; [reflexivity|]. split; [apply same_refl|]. split; [lia|]. rewrite !win_0. reflexivity.
  - apply dv_rest_ok; try assumption. tauto.
Qed.
Lemma nz_of p n M : 0 < n -> inm M p n -> incr (win M p n) -> Forall (fun x => 0 <= x < 65536) (win M p n) -> znth M p <> 0 -> forall x, In x (win M p n) -> x <> 0.
Proof.
  intros Hn (A & B & C) N F H x Hx. rewrite (win_cons M p n) in * by lia. assert (0 <= znth M p) by (rewrite Forall_forall in F; apply (F (znth M p)); left; reflexivity).
  destruct Hx as [<-|Hx]; [exact H|]. apply (incr_head _ _ _ N) in Hx. lia.
Qed.
Lemma nz_tail p n M : 0 < n -> inm M p n -> incr (win M p n) -> Forall (fun x => 0 <= x < 65536) (win M p n) -> forall x, In x (win M (p + 1) (n - 1)) -> x <> 0.
Proof.
  intros Hn (A & B & C) N F x Hx. rewrite (win_cons M p n) in * by lia. assert (0 <= znth M p) by (rewrite Forall_forall in F; apply (F (znth M p)); left; reflexivity).
  apply (incr_head _ _ _ N) in Hx. lia.
Qed.
Lemma env_tail p n M : 0 < n -> inm M p n -> incr (win M p n) -> Forall (fun x => 0 <= x < 65536) (win M p n) ->
  inm M (p + 1) (n - 1) /\ incr (win M (p + 1) (n - 1)) /\ Forall (fun x => 0 <= x < 65536) (win M (p + 1) (n - 1)).
Proof.
  intros Hn (A & B & C) N F. rewrite (win_cons M p n) in * by lia. split; [split; lia|]. split; [apply incr_tail in N; exact N|inversion F; assumption].
Qed.
Lemma difference_vector16_ok M pa sa pb sb pc : ienv M pa sa pb sb -> inm M pc sa -> apart pc sa pa sa -> apart pc sa pb sb ->
  exists M' k, difference_vector16 M pa sa pb sb pc = Some (M', k) /\ same_out M M' pc (pc + sa) /\ 0 <= k <= sa /\ win M' pc k = difference_uint16 (win M pa sa) (win M pb sb).
Proof.
  intros [IA IB NA NB BA BB] IQ XA XB. rewrite difference_uint16_spec by assumption. fold (diff (win M pa sa) (win M pb sb)). unfold difference_vector16.
  assert (IA' := IA). assert (IB' := IB). destruct IA' as (A1 & A2 & A3), IB' as (B1 & B2 & B3). assert (IQ' := IQ). destruct IQ' as (Q1 & Q2 & Q3). unfold apart in XA, XB.
  destruct (Z.eqb_spec sa 0) as [Za|Za].
  { subst sa. exists M, 0. split; [reflexivity|]. split; [apply same_refl|]. split; [lia|]. rewrite !win_0. reflexivity. }
  destruct (Z.eqb_spec sb 0) as [Zb|Zb].
  { subst sb. replace (pa =? pc) with false by lia. destruct (memcpy_ok M pc pa sa) as (M1 & K & S1 & W); try (split; lia); [unfold apart; lia|]. rewrite K. cbn [obind].
    exists M1, sa. split; [reflexivity|]. split; [exact S1|]. split; [lia|]. rewrite W, win_0. unfold diff. cbn. generalize (win M pa sa) as l. induction l as [|x l IH]; [reflexivity|]. cbn. f_equal. exact IH. }
  destruct (env_tail pa sa M ltac:(lia) IA NA BA) as (IA2 & NA2 & BA2). destruct (env_tail pb sb M ltac:(lia) IB NB BB) as (IB2 & NB2 & BB2).
  pose proof (nz_tail pa sa M ltac:(lia) IA NA BA) as TA. pose proof (nz_tail pb sb M ltac:(lia) IB NB BB) as TB.
  assert (WA := win_cons M pa sa A1 ltac:(lia) A3). assert (WB := win_cons M pb sb B1 ltac:(lia) B3).
  rewrite !rd_ok by lia. cbn [obind].
  destruct (Z.eqb_spec (znth M pa) 0) as [HA|HA]; destruct (Z.eqb_spec (znth M pb) 0) as [HB|HB]; cbn [orb andb].
  - destruct (dv_rest_ok' M (pa + 1) (sa - 1) (pb + 1) (sb - 1) pc 0) as (M1 & k & K & S1 & Hk & W); try assumption; try (split; assumption); try (unfold apart; lia); try (split; lia); try lia.
    rewrite Z.add_0_r in *. exists M1, k. split; [exact K|]. split; [eapply same_weaken; [exact S1|lia|lia]|]. split; [lia|]. rewrite W, WA, WB. unfold diff at 2. cbn [filter].
    replace (zmem (znth M pa) (znth M pb :: win M (pb + 1) (sb - 1))) with true by (symmetry; apply zmem_In; left; lia). cbn [negb].
    apply diff_ext. intros x Hx. specialize (TA x Hx). cbn [In]. rewrite HB. intuition lia.
  - pose proof (nz_of pb sb M ltac:(lia) IB NB BB HB) as ZB. destruct (wr_ok M pc 0) as (M1 & K1 & S1 & V1); [lia|]. rewrite K1. cbn [obind]. assert (L1 : zlen M1 = zlen M) by apply S1.
    assert (E1 : win M1 (pa + 1) (sa - 1) = win M (pa + 1) (sa - 1)) by (eapply same_win; [exact S1|lia|lia|lia|lia]).
    assert (E2 : win M1 pb sb = win M pb sb) by (eapply same_win; [exact S1|lia|lia|lia|lia]).
    destruct (dv_rest_ok' M1 (pa + 1) (sa - 1) pb sb pc 1) as (M2 & k & K & S2 & Hk & W); try (rewrite ?E1, ?E2; assumption); try (split; rewrite ?E1, ?E2; try assumption; split; lia); try (unfold apart; lia); try (split; lia); try lia.
    assert (L2 : zlen M2 = zlen M1) by apply S2. exists M2, (1 + k). split; [exact K|]. split; [eapply same_trans; [exact S1|exact S2|lia|lia|lia|lia]|]. split; [lia|].
    rewrite win_cons by lia. replace (1 + k - 1) with k by lia. rewrite W, E1, E2, WA. unfold diff at 2. cbn [filter].
    replace (zmem (znth M pa) (win M pb sb)) with false by (symmetry; apply zmem_nIn; intros G; apply ZB in G; lia). cbn [negb]. f_equal.
    transitivity (znth M1 pc); [apply S2; lia|]. rewrite V1. lia.
  - pose proof (nz_of pa sa M ltac:(lia) IA NA BA HA) as ZA.
    destruct (dv_rest_ok' M pa sa (pb + 1) (sb - 1) pc 0) as (M1 & k & K & S1 & Hk & W); try assumption; try (split; assumption); try (unfold apart; lia); try (split; lia); try lia.
    rewrite Z.add_0_r in *. exists M1, k. split; [exact K|]. split; [exact S1|]. split; [lia|]. rewrite W, WB.
    apply diff_ext. intros x Hx. specialize (ZA x Hx). cbn [In]. rewrite HB. intuition lia.
  - pose proof (nz_of pa sa M ltac:(lia) IA NA BA HA) as ZA. pose proof (nz_of pb sb M ltac:(lia) IB NB BB HB) as ZB.
    destruct (dv_rest_ok' M pa sa pb sb pc 0) as (M1 & k & K & S1 & Hk & W); try assumption; try (split; assumption); try (unfold apart; lia); try (split; lia); try lia.
    rewrite Z.add_0_r in *. exists M1, k. auto.
Qed.
