(** ArrMem: the scalar kernels on sorted arrays of 16-bit numbers, on memory, so that
    the calls in which the output overlaps an input can be studied:
    intersect_uint16, intersect_skewed_uint16, difference_uint16. *)
From Verif Require Import Base BitUtil SimdTab ArrayUtil Simd SimdM SimdU SimdX SimdI SimdD.

(** ** Model *)
(** array_util.c:978-1001 intersect_uint16.  [lab] is the program point: 0 the test *A < *B,
    1 the label SKIP_FIRST_COMPARE, 2 the test *A > *B; ma and mb are endA - A and endB - B. *)
Inductive lab := LAB_LT | LAB_SKIP | LAB_GT.
Fixpoint im_loop (fuel : nat) (l : lab) (M : memory) (A ma B mb out : Z) : option (memory * Z) :=
  match fuel with
  | O => None
  | S f =>
    match l with
    | LAB_LT => do a <- rd M A; do b <- rd M B; im_loop f (if a <? b then LAB_SKIP else LAB_GT) M A ma B mb out
    | LAB_SKIP => if ma - 1 =? 0 then Some (M, out) else im_loop f LAB_LT M (A + 1) (ma - 1) B mb out
    | LAB_GT =>
      do a <- rd M A; do b <- rd M B;
      if b <? a then (if mb - 1 =? 0 then Some (M, out) else im_loop f LAB_GT M A ma (B + 1) (mb - 1) out)
      else if a =? b then
        do M <- wr M out a;
        if ma - 1 =? 0 then Some (M, out + 1)
        else if mb - 1 =? 0 then Some (M, out + 1)
        else im_loop f LAB_LT M (A + 1) (ma - 1) (B + 1) (mb - 1) (out + 1)
      else im_loop f LAB_SKIP M A ma B mb out
    end
  end.
Definition intersect_uint16_mem (M : memory) (A lenA B lenB out : Z) : option (memory * Z) :=
  if (lenA =? 0) || (lenB =? 0) then Some (M, 0)
  else do (M, e) <- im_loop (3 + 3 * Z.to_nat (lenA + lenB)) LAB_LT M A lenA B lenB out; Some (M, e - out).
(** array_util.c:1157-1195 difference_uint16; m1, m2 are length1 - k1 and length2 - k2 *)
Fixpoint du_loop (fuel : nat) (M : memory) (a1 m1 a2 m2 out s1 s2 : Z) : option (memory * Z) :=
  match fuel with
  | O => None
  | S f =>
    if s1 <? s2 then
      do M <- wr M out s1;
      if m1 - 1 =? 0 then Some (M, out + 1)
      else do s1 <- rd M (a1 + 1); du_loop f M (a1 + 1) (m1 - 1) a2 m2 (out + 1) s1 s2
    else if s1 =? s2 then
      if m1 - 1 =? 0 then Some (M, out)
      else if m2 - 1 =? 0 then do M <- memmove M out (a1 + 1) (m1 - 1); Some (M, out + (m1 - 1))
      else do s1 <- rd M (a1 + 1); do s2 <- rd M (a2 + 1); du_loop f M (a1 + 1) (m1 - 1) (a2 + 1) (m2 - 1) out s1 s2
    else
      if m2 - 1 =? 0 then do M <- memmove M out a1 m1; Some (M, out + m1)
      else do s2 <- rd M (a2 + 1); du_loop f M a1 m1 (a2 + 1) (m2 - 1) out s1 s2
  end.
Definition difference_uint16_mem (M : memory) (a1 length1 a2 length2 a_out : Z) : option (memory * Z) :=
  if length1 =? 0 then Some (M, 0)
  else if length2 =? 0 then
    if a1 =? a_out then Some (M, length1) else do M <- memcpy M a_out a1 length1; Some (M, length1)
  else
    do s1 <- rd M a1; do s2 <- rd M a2;
    do (M, e) <- du_loop (Z.to_nat (length1 + length2)) M a1 length1 a2 length2 a_out s1 s2; Some (M, e - a_out).
(** array_util.c:805-849 binarySearch4 and binarySearch2: all the searches are done before anything is
    written; each is this one ([b] is the base pointer) *)
Fixpoint bs_loop (fuel : nat) (M : memory) (b n target : Z) : option Z :=
  match fuel with
  | O => None
  | S f =>
    if 1 <? n then
      let half := Z.shiftr n 1 in
      do x <- rd M (b + half);
      bs_loop f M (if x <? target then b + half else b) (n - half) target
    else Some b
  end.
Definition bs_mem (M : memory) (array n target : Z) : option Z :=
  do b <- bs_loop (S (Z.to_nat n)) M array n target;
  do x <- rd M b; Some ((if x <? target then 1 else 0) + (b - array)).
(** if ((index + idx_l < size_l) && (large[idx_l + index] == target)) buffer[pos++] = target *)
Definition hit_mem (M : memory) (large size_l idx_l index target out : Z) : option (memory * Z) :=
  if index + idx_l <? size_l then
    do x <- rd M (large + (idx_l + index));
    if x =? target then do M <- wr M out target; Some (M, out + 1) else Some (M, out)
  else Some (M, out).
(** array_util.c:866-889: the blocks of four; gives the memory, the remaining part of small, idx_l and &buffer[pos] *)
Fixpoint sk4_loop (fuel : nat) (M : memory) (s ms large size_l idx_l out : Z) : option (memory * Z * Z * Z * Z) :=
  match fuel with
  | O => None
  | S f =>
    if (4 <=? ms) && (idx_l <? size_l) then
      do t1 <- rd M s; do t2 <- rd M (s + 1); do t3 <- rd M (s + 2); do t4 <- rd M (s + 3);
      do i1 <- bs_mem M (large + idx_l) (size_l - idx_l) t1; do i2 <- bs_mem M (large + idx_l) (size_l - idx_l) t2;
      do i3 <- bs_mem M (large + idx_l) (size_l - idx_l) t3; do i4 <- bs_mem M (large + idx_l) (size_l - idx_l) t4;
      do (M, out) <- hit_mem M large size_l idx_l i1 t1 out; do (M, out) <- hit_mem M large size_l idx_l i2 t2 out;
      do (M, out) <- hit_mem M large size_l idx_l i3 t3 out; do (M, out) <- hit_mem M large size_l idx_l i4 t4 out;
      sk4_loop f M (s + 4) (ms - 4) large size_l (idx_l + i4) out
    else Some (M, s, ms, idx_l, out)
  end.
(** array_util.c:890-903: the block of two *)
Definition sk2 (M : memory) (s ms large size_l idx_l out : Z) : option (memory * Z * Z * Z * Z) :=
  if (2 <=? ms) && (idx_l <? size_l) then
    do t1 <- rd M s; do t2 <- rd M (s + 1);
    do i1 <- bs_mem M (large + idx_l) (size_l - idx_l) t1; do i2 <- bs_mem M (large + idx_l) (size_l - idx_l) t2;
    do (M, out) <- hit_mem M large size_l idx_l i1 t1 out; do (M, out) <- hit_mem M large size_l idx_l i2 t2 out;
    Some (M, s + 2, ms - 2, idx_l + i2, out)
  else Some (M, s, ms, idx_l, out).
(** array_util.c:904-910: the last one, by binarySearch of the unread part of large *)
Definition sk1 (M : memory) (s ms large size_l idx_l out : Z) : option (memory * Z) :=
  if (1 <=? ms) && (idx_l <? size_l) then
    do val_s <- rd M s; do w <- ldn M (large + idx_l) (size_l - idx_l);
    if 0 <=? binarySearch w val_s then do M <- wr M out val_s; Some (M, out + 1) else Some (M, out)
  else Some (M, out).
(** array_util.c:857-912 intersect_skewed_uint16 *)
Definition intersect_skewed_uint16_mem (M : memory) (small size_s large size_l buffer : Z) : option (memory * Z) :=
  if size_s =? 0 then Some (M, 0)
  else
    do (M, s, ms, idx_l, out) <- sk4_loop (S (Z.to_nat size_s)) M small size_s large size_l 0 buffer;
    do (M, s, ms, idx_l, out) <- sk2 M s ms large size_l idx_l out;
    do (M, out) <- sk1 M s ms large size_l idx_l out;
    Some (M, out - buffer).

(** * Proofs *)
(** ** intersect_uint16: the output may be the first array *)
Lemma inter_eq_cons a A b B : incr (a :: A) -> a = b -> inter (a :: A) (b :: B) = a :: inter A B.
Proof.
  intros N <-. rewrite inter_cons. replace (zmem a (a :: B)) with true by (symmetry; apply zmem_In; left; reflexivity). cbn [app]. f_equal.
  apply inter_drop_r. intros x Hx. apply (incr_head _ _ _ N) in Hx. exact Hx.
Qed.
Definition im_pre (l : lab) (M : memory) (qa qb : Z) : Prop := match l with LAB_LT => True | LAB_SKIP => znth M qa < znth M qb | LAB_GT => True end.
Definition im_cost (l : lab) : Z := match l with LAB_LT => 2 | LAB_SKIP => 0 | LAB_GT => 1 end.
Lemma im_loop_ok fuel : forall l M qa ma qb mb q m, inm M qa ma -> inm M qb mb -> 0 < ma -> 0 < mb -> 0 <= q -> q + m <= zlen M ->
  q <= qa \/ qa + ma <= q -> apart qb mb q m -> zlen (inter (win M qa ma) (win M qb mb)) <= m -> im_pre l M qa qb ->
  3 * (ma + mb) + im_cost l < Z.of_nat fuel -> incr (win M qa ma) -> incr (win M qb mb) ->
  exists M' e, im_loop fuel l M qa ma qb mb q = Some (M', e) /\ post_union M q e m M' (inter (win M qa ma) (win M qb mb)).
Proof.
  induction fuel as [|f IH]; intros l M q1 m1 q2 m2 q m I1 I2 P1 P2 Hq Hl C1 C2 Hm Hp Hf N1 N2; [destruct l; cbn [im_cost] in Hf; lia|].
  assert (I1' := I1). assert (I2' := I2). destruct I1' as (A1 & A2 & A3), I2' as (B1 & B2 & B3). unfold apart in C2.
  assert (W1 := win_cons M q1 m1 A1 P1 A3). assert (W2 := win_cons M q2 m2 B1 P2 B3).
  assert (N1' := N1). assert (N2' := N2). rewrite W1 in N1'. rewrite W2 in N2'.
  assert (T1 : incr (win M (q1 + 1) (m1 - 1))) by (apply incr_tail in N1'; exact N1'). assert (T2 : incr (win M (q2 + 1) (m2 - 1))) by (apply incr_tail in N2'; exact N2').
  cbn [im_loop]. destruct l; cbn [im_pre im_cost] in Hp, Hf.
  - rewrite !rd_ok by lia. cbn [obind]. apply IH; try assumption; destruct (Z.ltb_spec (znth M q1) (znth M q2)); cbn [im_pre im_cost]; lia.
  - assert (EI : inter (win M q1 m1) (win M q2 m2) = inter (win M (q1 + 1) (m1 - 1)) (win M q2 m2)).
    { rewrite W1. apply inter_lt_all; [exact N2|]. rewrite W2. intros b [<-|Hb]; [exact Hp|apply (incr_head _ _ _ N2') in Hb; lia]. }
    rewrite EI in Hm |- *. destruct (Z.eqb_spec (m1 - 1) 0) as [Ez|Ez].
    + exists M, q. rewrite Ez, win_0, inter_nil_l in Hm |- *. change (zlen (@nil Z)) with 0 in Hm. split; [reflexivity|]. split; [apply same_refl|]. split; [lia|]. rewrite Z.sub_diag. reflexivity.
    + apply IH; try assumption; try (split; lia); try (unfold apart; lia); cbn [im_pre im_cost]; try lia; exact Logic.I.
  - rewrite !rd_ok by lia. cbn [obind]. destruct (Z.ltb_spec (znth M q2) (znth M q1)) as [Hlt|Hge].
    + assert (EI : inter (win M q1 m1) (win M q2 m2) = inter (win M q1 m1) (win M (q2 + 1) (m2 - 1))).
      { rewrite W2. apply inter_drop_r. rewrite W1. intros b [<-|Hb]; [exact Hlt|apply (incr_head _ _ _ N1') in Hb; lia]. }
      rewrite EI in Hm |- *. destruct (Z.eqb_spec (m2 - 1) 0) as [Ez|Ez].
      * exists M, q. rewrite Ez, win_0, inter_nil_r in Hm |- *. change (zlen (@nil Z)) with 0 in Hm. split; [reflexivity|]. split; [apply same_refl|]. split; [lia|]. rewrite Z.sub_diag. reflexivity.
      * apply IH; try assumption; try (split; lia); try (unfold apart; lia); cbn [im_pre im_cost]; try lia; exact Logic.I.
    + destruct (Z.eqb_spec (znth M q1) (znth M q2)) as [He|He].
      * assert (EI : inter (win M q1 m1) (win M q2 m2) = znth M q1 :: inter (win M (q1 + 1) (m1 - 1)) (win M (q2 + 1) (m2 - 1))) by (rewrite W1, W2; apply inter_eq_cons; assumption).
        rewrite EI in Hm |- *. rewrite zlen_cons in Hm. pose proof (zlen_nonneg (inter (win M (q1 + 1) (m1 - 1)) (win M (q2 + 1) (m2 - 1)))) as L0.
        destruct (wr_ok M q (znth M q1)) as (M1 & X1 & S1 & V1); [lia|]. rewrite X1. cbn [obind]. assert (L1 : zlen M1 = zlen M) by apply S1.
        assert (E1 : win M1 (q1 + 1) (m1 - 1) = win M (q1 + 1) (m1 - 1)) by (eapply same_win; [exact S1|lia|lia|lia|lia]).
        assert (E2 : win M1 (q2 + 1) (m2 - 1) = win M (q2 + 1) (m2 - 1)) by (eapply same_win; [exact S1|lia|lia|lia|lia]).
        assert (PN : inter (win M (q1 + 1) (m1 - 1)) (win M (q2 + 1) (m2 - 1)) = [] -> post_union M q (q + 1) m M1 (znth M q1 :: inter (win M (q1 + 1) (m1 - 1)) (win M (q2 + 1) (m2 - 1)))).
        { intros ->. replace m with (m - 1 + 1) by lia. eapply post_cons; eauto; try lia. split; [apply same_refl|]. split; [lia|]. rewrite Z.sub_diag. reflexivity. }
        destruct (Z.eqb_spec (m1 - 1) 0) as [Ez|Ez]; [|destruct (Z.eqb_spec (m2 - 1) 0) as [Ez2|Ez2]].
        -- exists M1, (q + 1). split; [reflexivity|]. apply PN. rewrite Ez, win_0. reflexivity.
        -- exists M1, (q + 1). split; [reflexivity|]. apply PN. rewrite Ez2, win_0. apply inter_nil_r.
        -- destruct (IH LAB_LT M1 (q1 + 1) (m1 - 1) (q2 + 1) (m2 - 1) (q + 1) (m - 1)) as (M' & e & R & P); try (split; lia); try (unfold apart; lia); cbn [im_pre im_cost]; try lia; try (rewrite ?E1, ?E2; first [assumption|lia]); try exact Logic.I.
           exists M', e. split; [exact R|]. replace m with (m - 1 + 1) by lia. eapply post_cons; eauto; try lia. rewrite <- E1, <- E2. exact P.
      * apply IH; try assumption; cbn [im_pre im_cost]; lia.
Qed.
Lemma intersect_uint16_mem_ok M pa na pb nb po m : inm M pa na -> inm M pb nb -> incr (win M pa na) -> incr (win M pb nb) -> inm M po m ->
  po <= pa \/ pa + na <= po -> apart pb nb po m -> Z.min na nb <= m ->
  exists M' k, intersect_uint16_mem M pa na pb nb po = Some (M', k) /\ same_out M M' po (po + m) /\ 0 <= k <= m /\ win M' po k = inter (win M pa na) (win M pb nb).
Proof.
  intros IA IB NA NB (Q1 & Q2 & Q3) XA XB Hm. assert (IA' := IA). assert (IB' := IB). destruct IA' as (A1 & A2 & A3), IB' as (B1 & B2 & B3). unfold intersect_uint16_mem.
  pose proof (inter_len (win M pa na) (win M pb nb) NA) as LI. rewrite !win_zlen in LI by lia.
  destruct ((na =? 0) || (nb =? 0)) eqn:Hz; [apply orb_true_iff in Hz; rewrite !Z.eqb_eq in Hz|apply orb_false_iff in Hz; rewrite !Z.eqb_neq in Hz].
  - exists M, 0. split; [reflexivity|]. split; [apply same_refl|]. split; [lia|]. rewrite win_0. destruct Hz as [-> | ->]; rewrite win_0; [reflexivity|rewrite inter_nil_r; reflexivity].
  - destruct (im_loop_ok (3 + 3 * Z.to_nat (na + nb)) LAB_LT M pa na pb nb po m) as (M' & e & K & S1 & He & W); try assumption; cbn [im_cost]; try lia; [exact Logic.I|].
    rewrite K. cbn [obind]. exists M', (e - po). split; [reflexivity|]. split; [exact S1|]. split; [lia|exact W].
Qed.
(** ** difference_uint16: the output may be the first array *)
Lemma difference_nil_r A : difference_uint16 A [] = A. Proof. destruct A; reflexivity. Qed.
Lemma difference_nil_l B : difference_uint16 [] B = []. Proof. destruct B; reflexivity. Qed.
Lemma du_loop_ok fuel : forall M q1 m1 q2 m2 q, 0 < m1 -> 0 < m2 -> inm M q1 m1 -> inm M q2 m2 -> 0 <= q -> q + m1 <= zlen M ->
  q <= q1 \/ q1 + m1 <= q -> apart q2 m2 q m1 -> m1 + m2 <= Z.of_nat fuel ->
  exists M' e, du_loop fuel M q1 m1 q2 m2 q (znth M q1) (znth M q2) = Some (M', e) /\
    post_union M q e m1 M' (difference_uint16 (win M q1 m1) (win M q2 m2)).
Proof.
  induction fuel as [|f IH]; intros M q1 m1 q2 m2 q P1 P2 I1 I2 Hq Hl C1 C2 Hf; [lia|].
  destruct I1 as (A1 & A2 & A3), I2 as (B1 & B2 & B3). unfold apart in C2. cbn [du_loop].
  assert (W1 := win_cons M q1 m1 A1 P1 A3). assert (W2 := win_cons M q2 m2 B1 P2 B3). rewrite W1, W2, difference_uint16_cons.
  destruct (Z.ltb_spec (znth M q1) (znth M q2)) as [Hlt|Hge]; [|destruct (Z.eqb_spec (znth M q1) (znth M q2)) as [He|He]].
  - rewrite <- W2. destruct (wr_ok M q (znth M q1)) as (M1 & X1 & S1 & V1); [lia|]. rewrite X1. cbn [obind]. assert (L1 : zlen M1 = zlen M) by apply S1.
    assert (E1 : win M1 (q1 + 1) (m1 - 1) = win M (q1 + 1) (m1 - 1)) by (eapply same_win; [exact S1|lia|lia|lia|lia]).
    assert (E2 : win M1 q2 m2 = win M q2 m2) by (eapply same_win; [exact S1|lia|lia|lia|lia]).
    assert (V2 : znth M1 q2 = znth M q2) by (apply S1; lia). destruct (Z.eqb_spec (m1 - 1) 0) as [Ez|Ez].
    + exists M1, (q + 1). split; [reflexivity|]. apply (post_weaken _ _ _ (m1 - 1 + 1)); [|lia]. eapply post_cons; eauto; try lia. rewrite Ez, win_0, difference_nil_l. split; [apply same_refl|]. split; [lia|]. rewrite Z.sub_diag. reflexivity.
    + rewrite rd_ok by lia. cbn [obind]. rewrite <- V2. destruct (IH M1 (q1 + 1) (m1 - 1) q2 m2 (q + 1)) as (M' & e & R & P); try (split; lia); try (unfold apart; lia); try lia.
      exists M', e. split; [exact R|]. apply (post_weaken _ _ _ (m1 - 1 + 1)); [|lia]. eapply post_cons; eauto; try lia. rewrite <- E1, <- E2. exact P.
  - destruct (Z.eqb_spec (m1 - 1) 0) as [Ez|Ez]; [|destruct (Z.eqb_spec (m2 - 1) 0) as [Ez2|Ez2]].
    + exists M, q. split; [reflexivity|]. rewrite Ez, win_0, difference_nil_l. split; [apply same_refl|]. split; [lia|]. rewrite Z.sub_diag. reflexivity.
    + rewrite Ez2, win_0, difference_nil_r. destruct (memmove_ok M q (q1 + 1) (m1 - 1)) as (M' & K & S1 & W); try (split; lia). rewrite K. cbn [obind].
      exists M', (q + (m1 - 1)). split; [reflexivity|]. split; [eapply same_weaken; [exact S1|lia|lia]|]. split; [lia|]. replace (q + (m1 - 1) - q) with (m1 - 1) by lia. exact W.
    + rewrite !rd_ok by lia. cbn [obind]. destruct (IH M (q1 + 1) (m1 - 1) (q2 + 1) (m2 - 1) q) as (M' & e & R & P); try (split; lia); try (unfold apart; lia); try lia.
      exists M', e. split; [exact R|]. eapply post_weaken; [exact P|lia].
  - rewrite <- W1. destruct (Z.eqb_spec (m2 - 1) 0) as [Ez2|Ez2].
    + rewrite Ez2, win_0, difference_nil_r. destruct (memmove_ok M q q1 m1) as (M' & K & S1 & W); try (split; lia). rewrite K. cbn [obind].
      exists M', (q + m1). split; [reflexivity|]. split; [exact S1|]. split; [lia|]. replace (q + m1 - q) with m1 by lia. exact W.
    + rewrite !rd_ok by lia. cbn [obind]. apply IH; try (split; lia); try (unfold apart; lia); lia.
Qed.
Lemma difference_uint16_mem_ok M pa na pb nb po : inm M pa na -> inm M pb nb -> inm M po na -> po = pa \/ apart po na pa na -> apart pb nb po na ->
  exists M' k, difference_uint16_mem M pa na pb nb po = Some (M', k) /\ same_out M M' po (po + na) /\ 0 <= k <= na /\ win M' po k = difference_uint16 (win M pa na) (win M pb nb).
Proof.
  intros IA IB (Q1 & Q2 & Q3) XA XB. assert (IA' := IA). assert (IB' := IB). destruct IA' as (A1 & A2 & A3), IB' as (B1 & B2 & B3). unfold difference_uint16_mem. unfold apart in *.
  destruct (Z.eqb_spec na 0) as [Za|Za].
  { subst na. exists M, 0. split; [reflexivity|]. split; [apply same_refl|]. split; [lia|]. rewrite !win_0, difference_nil_l. reflexivity. }
  destruct (Z.eqb_spec nb 0) as [Zb|Zb].
  { subst nb. rewrite (win_0 M pb), difference_nil_r. destruct (Z.eqb_spec pa po) as [Ep|Ep].
    - subst po. exists M, na. split; [reflexivity|]. split; [apply same_refl|]. split; [lia|reflexivity].
    - destruct (memcpy_ok M po pa na) as (M1 & K & S1 & W); try (split; lia); [unfold apart; lia|]. rewrite K. cbn [obind]. exists M1, na. split; [reflexivity|]. split; [exact S1|]. split; [lia|exact W]. }
  rewrite !rd_ok by lia. cbn [obind]. destruct (du_loop_ok (Z.to_nat (na + nb)) M pa na pb nb po) as (M' & e & K & S1 & He & W); try assumption; try lia; try (unfold apart; lia).
  rewrite K. cbn [obind]. exists M', (e - po). split; [reflexivity|]. split; [exact S1|]. split; [lia|exact W].
Qed.
(** ** intersect_skewed_uint16: the output may be either array *)
Lemma bs_loop_ok fuel : forall M L n b m t, inm M L n -> incr (win M L n) -> 0 <= b -> 1 <= m -> b + m <= n -> m <= Z.of_nat fuel + 1 ->
  bs_loop (Datatypes.S fuel) M (L + b) m t = Some (L + bsearch1_loop fuel (win M L n) b m t).
Proof.
  induction fuel as [|f IH]; intros M L n b m t I1 N Hb Hm Hn Hf; assert (I1' := I1); destruct I1' as (A1 & A2 & A3); cbn [bs_loop bsearch1_loop].
  - destruct (Z.ltb_spec 1 m); [lia|reflexivity].
  - destruct (Z.ltb_spec 1 m) as [H|H]; [|reflexivity]. assert (1 <= Z.shiftr m 1 < m) by (rewrite shiftr1; dm). rewrite rd_ok by lia. cbn [obind].
    rewrite znth_win by lia. rewrite <- Z.add_assoc. destruct (znth M (L + (b + Z.shiftr m 1)) <? t).
    + apply IH; try assumption; lia.
    + apply IH; try assumption; lia.
Qed.
Lemma bs_mem_ok M L n t : inm M L n -> 0 < n -> incr (win M L n) -> bs_mem M L n t = Some (lb (win M L n) t).
Proof.
  intros I1 Hn N. assert (I1' := I1). destruct I1' as (A1 & A2 & A3). pose proof (win_zlen M L n A1 A2 A3) as LW.
  assert (EL : length (win M L n) = Z.to_nat n) by (unfold zlen in LW; lia).
  unfold bs_mem. replace L with (L + 0) at 1 by lia. rewrite (bs_loop_ok (Z.to_nat n) M L n 0 n t) by (try assumption; lia). cbn [obind].
  destruct (bsearch1_loop_spec (Z.to_nat n) (win M L n) 0 n t) as (R1 & R2 & R3); try assumption; try lia.
  rewrite rd_ok by lia. cbn [obind]. f_equal. rewrite <- bsearch1_spec by (first [assumption|intros E; rewrite E in LW; change (zlen (@nil Z)) with 0 in LW; lia]).
  unfold bsearch1. rewrite EL, LW. cbn zeta. rewrite znth_win by lia. lia.
Qed.
Record skenv (M0 : memory) (ps ns pl nl po m : Z) : Prop := {
  sk_s : inm M0 ps ns; sk_l : inm M0 pl nl; sk_o : inm M0 po m; sk_is : incr (win M0 ps ns); sk_il : incr (win M0 pl nl);
  sk_as : po <= ps \/ apart po m ps ns; sk_al : po <= pl \/ apart po m pl nl; sk_m : Z.min ns nl <= m }.
Definition skout (M0 : memory) (ps k pl nl : Z) : list Z := inter (win M0 ps k) (win M0 pl nl).
(** k targets are done, the cells of small from kb on and the cells of large from lo on are as at the start *)
Record skinv (M0 : memory) (ps ns pl nl po m : Z) (M : memory) (k kb lo : Z) : Prop := {
  ki_same : same_out M0 M po (po + m);
  ki_out : win M po (zlen (skout M0 ps k pl nl)) = skout M0 ps k pl nl;
  ki_s : forall j, kb <= j < ns -> znth M (ps + j) = znth M0 (ps + j);
  ki_l : forall j, lo <= j < nl -> znth M (pl + j) = znth M0 (pl + j) }.
Lemma skout_len M0 ps ns pl nl po m k : skenv M0 ps ns pl nl po m -> 0 <= k <= ns -> 0 <= zlen (skout M0 ps k pl nl) <= Z.min k m /\ zlen (skout M0 ps k pl nl) <= nl.
Proof.
  intros [S L O IS IL AS AL Hm] Hk. destruct S as (S1 & S2 & S3), L as (L1 & L2 & L3). unfold skout.
  pose proof (inter_len (win M0 ps k) (win M0 pl nl)) as Q. rewrite !win_zlen in Q by lia.
  assert (incr (win M0 ps k)) by (rewrite (win_split M0 ps ns k) in IS by (try lia; split; lia); apply incr_app in IS; apply IS).
  specialize (Q H). pose proof (zlen_nonneg (inter (win M0 ps k) (win M0 pl nl))). lia.
Qed.
Lemma hit_mem_ok M0 ps ns pl nl po m M k kb lo idx : skenv M0 ps ns pl nl po m -> skinv M0 ps ns pl nl po m M k kb lo -> 0 <= k < kb -> kb <= ns ->
  0 <= idx <= nl -> (forall j, 0 <= j < idx -> znth M0 (pl + j) < znth M0 (ps + k)) ->
  let t := znth M0 (ps + k) in let i := lb (win M0 (pl + idx) (nl - idx)) t in lo <= idx + i ->
  exists M', hit_mem M pl nl idx i t (po + zlen (skout M0 ps k pl nl)) = Some (M', po + zlen (skout M0 ps (k + 1) pl nl)) /\
    skinv M0 ps ns pl nl po m M' (k + 1) kb (idx + i) /\ 0 <= i <= nl - idx.
Proof.
  intros E KI Hk Hkb Hi Hlow t i Hlo. assert (E' := E). destruct E' as [S L O IS IL AS AL Hm].
  pose proof (skout_len _ _ _ _ _ _ _ k E ltac:(lia)) as QL. pose proof (skout_len _ _ _ _ _ _ _ (k + 1) E ltac:(lia)) as QL2.
  destruct KI as [KS KO K1 K2]. assert (LM : zlen M = zlen M0) by apply KS.
  destruct S as (S1 & S2 & S3), L as (L1 & L2 & L3), O as (O1 & O2 & O3).
  assert (SP : win M0 pl nl = win M0 pl idx ++ win M0 (pl + idx) (nl - idx)) by (apply win_split; [split; lia|lia]).
  assert (IU : incr (win M0 (pl + idx) (nl - idx))) by (rewrite SP in IL; apply incr_app in IL; apply IL).
  assert (Ei : idx + i = lb (win M0 pl nl) t).
  { rewrite SP, lb_app. f_equal. rewrite lb_all; [rewrite win_zlen by lia; reflexivity|]. intros y Hy. apply In_znth in Hy. destruct Hy as (j & Hj & <-). rewrite win_zlen in Hj by lia. rewrite znth_win by lia. apply Hlow. lia. }
  pose proof (lb_bound (win M0 pl nl) t) as LB. rewrite win_zlen in LB by lia.
  pose proof (lb_bound (win M0 (pl + idx) (nl - idx)) t) as LB2. rewrite win_zlen in LB2 by lia. fold i in LB2.
  assert (W1 : win M0 ps (k + 1) = win M0 ps k ++ [t]).
  { rewrite win_app by lia. f_equal. rewrite win_cons by lia. replace (1 - 1) with 0 by lia. rewrite win_0. reflexivity. }
  assert (SO : skout M0 ps (k + 1) pl nl = skout M0 ps k pl nl ++ (if zmem t (win M0 pl nl) then [t] else [])).
  { unfold skout. rewrite W1. unfold inter. rewrite filter_app. reflexivity. }
  assert (IW1 : incr (win M0 ps (k + 1))) by (rewrite (win_split M0 ps ns (k + 1)) in IS by (try lia; split; lia); apply incr_app in IS; apply IS).
  (* the outputs so far are below t and in large *)
  assert (QK : zlen (skout M0 ps k pl nl) <= idx + i).
  { rewrite Ei. unfold lb, zlen. apply Nat2Z.inj_le. apply NoDup_incl_length.
    - apply incr_NoDup. unfold skout. apply incr_inter. rewrite W1 in IW1. apply incr_app in IW1. apply IW1.
    - intros x Hx. unfold skout in Hx. apply inter_In in Hx. destruct Hx as [Hx1 Hx2]. apply filter_In. split; [exact Hx2|]. rewrite W1 in IW1. apply incr_app in IW1. destruct IW1 as (_ & _ & IW1). specialize (IW1 x t Hx1 ltac:(left; reflexivity)). lia. }
  unfold hit_mem. pose proof (lb_In (win M0 pl nl) t IL) as LI. rewrite win_zlen in LI by lia. rewrite <- Ei in LI.
  destruct (Z.ltb_spec (i + idx) nl) as [Hn|Hn].
  - rewrite rd_ok by lia. cbn [obind]. rewrite K2 by lia. rewrite znth_win in LI by lia. destruct (Z.eqb_spec (znth M0 (pl + (idx + i))) t) as [He|He].
    + assert (ZT : zmem t (win M0 pl nl) = true) by (apply zmem_In, LI; split; [lia|exact He]). rewrite ZT in SO. assert (ZL : zlen (skout M0 ps (k + 1) pl nl) = zlen (skout M0 ps k pl nl) + 1) by (rewrite SO, zlen_app; reflexivity).
      destruct (wr_ok M (po + zlen (skout M0 ps k pl nl)) t) as (M1 & X1 & T1 & V1); [lia|]. rewrite X1. cbn [obind]. exists M1. split; [rewrite ZL, Z.add_assoc; reflexivity|].
      split; [|lia]. assert (T1' := T1). destruct T1' as (LM1 & T2). split.
      * eapply same_trans; [exact KS|exact T1|lia|lia|lia|lia].
      * rewrite ZL, win_app by lia. rewrite SO. f_equal.
        -- transitivity (win M po (zlen (skout M0 ps k pl nl))); [|exact KO]. eapply same_win; [exact T1|lia|lia|lia|lia].
        -- rewrite win_cons by lia. replace (1 - 1) with 0 by lia. rewrite win_0, V1. reflexivity.
      * intros j Hj. rewrite <- K1 by lia. unfold apart in *. apply T2; lia.
      * intros j Hj. destruct (Z.eq_dec (pl + j) (po + zlen (skout M0 ps k pl nl))) as [Eq|Ne].
        -- rewrite Eq, V1. assert (j = idx + i) by (unfold apart in *; lia). subst j. rewrite <- Eq. symmetry. exact He.
        -- rewrite <- K2 by lia. apply T2; lia.
    + assert (ZT : zmem t (win M0 pl nl) = false) by (apply zmem_nIn; intros Q; apply LI in Q; destruct Q; contradiction). rewrite ZT, app_nil_r in SO. exists M. rewrite SO. split; [reflexivity|]. split; [|lia].
      split; [exact KS|rewrite SO; exact KO|exact K1|intros; apply K2; lia].
  - assert (ZT : zmem t (win M0 pl nl) = false) by (apply zmem_nIn; intros Q; apply LI in Q; lia). rewrite ZT, app_nil_r in SO. exists M. rewrite SO. split; [reflexivity|]. split; [|lia].
    split; [exact KS|rewrite SO; exact KO|exact K1|intros; apply K2; lia].
Qed.
Definition sklow (M0 : memory) (ps ns pl k idx : Z) : Prop := forall j k', 0 <= j < idx -> k <= k' < ns -> znth M0 (pl + j) < znth M0 (ps + k').
Lemma small_lt M0 ps ns a b : inm M0 ps ns -> incr (win M0 ps ns) -> 0 <= a -> a < b -> b < ns -> znth M0 (ps + a) < znth M0 (ps + b).
Proof.
  intros (S1 & S2 & S3) N Ha Hab Hb. rewrite <- (znth_win M0 ps ns a), <- (znth_win M0 ps ns b) by lia. apply incr_znth; try assumption. rewrite win_zlen by lia. lia.
Qed.
Lemma sklow_step M0 ps ns pl nl po m k c idx : skenv M0 ps ns pl nl po m -> sklow M0 ps ns pl k idx -> 0 <= k <= c -> c < ns -> 0 <= idx <= nl ->
  sklow M0 ps ns pl (c + 1) (idx + lb (win M0 (pl + idx) (nl - idx)) (znth M0 (ps + c))).
Proof.
  intros [S L O IS IL AS AL Hm] Lw Hk Hc Hi j k' Hj Hk'. destruct (Z.lt_ge_cases j idx) as [H|H]; [apply Lw; lia|].
  destruct L as (L1 & L2 & L3).
  assert (IU : incr (win M0 (pl + idx) (nl - idx))) by (rewrite (win_split M0 pl nl idx) in IL by (try lia; split; lia); apply incr_app in IL; apply IL).
  pose proof (lb_lt _ (znth M0 (ps + c)) (j - idx) IU ltac:(lia)) as Q. pose proof (lb_bound (win M0 (pl + idx) (nl - idx)) (znth M0 (ps + c))) as LB. rewrite win_zlen in LB by lia.
  rewrite znth_win in Q by lia. replace (pl + idx + (j - idx)) with (pl + j) in Q by lia. pose proof (small_lt M0 ps ns c k' S IS ltac:(lia) ltac:(lia) ltac:(lia)). lia.
Qed.
Lemma skinv_kb M0 ps ns pl nl po m M k kb kb' lo : skinv M0 ps ns pl nl po m M k kb lo -> kb <= kb' -> skinv M0 ps ns pl nl po m M k kb' lo.
Proof. intros [A B C D] H. split; auto. intros; apply C; lia. Qed.
Lemma skinv_reads M0 ps ns pl nl po m M k idx : skenv M0 ps ns pl nl po m -> skinv M0 ps ns pl nl po m M k k idx -> 0 <= k -> 0 <= idx < nl ->
  (forall j, k <= j < ns -> rd M (ps + j) = Some (znth M0 (ps + j))) /\
  (forall t, bs_mem M (pl + idx) (nl - idx) t = Some (lb (win M0 (pl + idx) (nl - idx)) t)) /\
  ldn M (pl + idx) (nl - idx) = Some (win M0 (pl + idx) (nl - idx)).
Proof.
  intros E [KS KO K1 K2] Hk Hi. destruct E as [S L O IS IL AS AL Hm]. assert (LM : zlen M = zlen M0) by apply KS. destruct S as (S1 & S2 & S3), L as (L1 & L2 & L3).
  assert (EW : win M (pl + idx) (nl - idx) = win M0 (pl + idx) (nl - idx)).
  { apply win_ext; try lia. intros i Hi'. replace i with (pl + (i - pl)) by lia. apply K2. lia. }
  assert (IU : incr (win M0 (pl + idx) (nl - idx))) by (rewrite (win_split M0 pl nl idx) in IL by (try lia; split; lia); apply incr_app in IL; apply IL).
  split; [|split].
  - intros j Hj. rewrite rd_ok by lia. rewrite K1 by lia. reflexivity.
  - intros t. rewrite bs_mem_ok; [rewrite EW; reflexivity|split; lia|lia|rewrite EW; exact IU].
  - rewrite ldn_ok by lia. rewrite EW. reflexivity.
Qed.
Lemma sk4_loop_ok M0 ps ns pl nl po m : skenv M0 ps ns pl nl po m -> forall fuel M k idx, skinv M0 ps ns pl nl po m M k k idx -> sklow M0 ps ns pl k idx ->
  0 <= k <= ns -> 0 <= idx <= nl -> ns - k < Z.of_nat fuel ->
  exists M' k' idx', sk4_loop fuel M (ps + k) (ns - k) pl nl idx (po + zlen (skout M0 ps k pl nl)) = Some (M', ps + k', ns - k', idx', po + zlen (skout M0 ps k' pl nl)) /\
    skinv M0 ps ns pl nl po m M' k' k' idx' /\ sklow M0 ps ns pl k' idx' /\ k <= k' <= ns /\ 0 <= idx' <= nl /\ (idx' = nl \/ ns - k' < 4).
Proof.
  intros E. induction fuel as [|f IH]; intros M k idx KI Lw Hk Hi Hf; [lia|]. cbn [sk4_loop].
  destruct ((4 <=? ns - k) && (idx <? nl)) eqn:Hz; [apply andb_true_iff in Hz; rewrite Z.leb_le, Z.ltb_lt in Hz|apply andb_false_iff in Hz; rewrite Z.leb_gt, Z.ltb_ge in Hz].
  2:{ exists M, k, idx. split; [reflexivity|]. split; [exact KI|]. split; [exact Lw|]. lia. }
  destruct (skinv_reads _ _ _ _ _ _ _ _ _ _ E KI ltac:(lia) ltac:(lia)) as (R1 & R2 & _).
  rewrite <- !(Z.add_assoc ps k). rewrite !R1 by lia. cbn [obind]. rewrite !R2. cbn [obind].
  set (w := win M0 (pl + idx) (nl - idx)) in *. assert (SL := sk_s _ _ _ _ _ _ _ E). assert (SI := sk_is _ _ _ _ _ _ _ E).
  assert (T1 := small_lt M0 ps ns k (k + 1) SL SI ltac:(lia) ltac:(lia) ltac:(lia)). assert (T2 := small_lt M0 ps ns (k + 1) (k + 2) SL SI ltac:(lia) ltac:(lia) ltac:(lia)).
  assert (T3 := small_lt M0 ps ns (k + 2) (k + 3) SL SI ltac:(lia) ltac:(lia) ltac:(lia)).
  assert (B1 := lb_mono w _ _ (Z.lt_le_incl _ _ T1)). assert (B2 := lb_mono w _ _ (Z.lt_le_incl _ _ T2)). assert (B3 := lb_mono w _ _ (Z.lt_le_incl _ _ T3)).
  pose proof (lb_bound w (znth M0 (ps + k))) as B0.
  assert (KJ := skinv_kb _ _ _ _ _ _ _ _ _ _ (k + 4) _ KI ltac:(lia)).
  destruct (hit_mem_ok _ _ _ _ _ _ _ _ _ _ _ idx E KJ ltac:(lia) ltac:(lia) ltac:(lia)) as (M1 & H1 & K1 & C1); [intros; apply Lw; lia|fold w; lia|]. fold w in H1, K1. rewrite H1. cbn [obind].
  destruct (hit_mem_ok _ _ _ _ _ _ _ _ _ _ _ idx E K1 ltac:(lia) ltac:(lia) ltac:(lia)) as (M2 & H2 & K2 & C2); [intros; apply Lw; lia|fold w; lia|]. fold w in H2, K2. rewrite H2. cbn [obind].
  replace (k + 1 + 1) with (k + 2) in * by lia.
  destruct (hit_mem_ok _ _ _ _ _ _ _ _ _ _ _ idx E K2 ltac:(lia) ltac:(lia) ltac:(lia)) as (M3 & H3 & K3 & C3); [intros; apply Lw; lia|fold w; lia|]. fold w in H3, K3. rewrite H3. cbn [obind].
  replace (k + 2 + 1) with (k + 3) in * by lia.
  destruct (hit_mem_ok _ _ _ _ _ _ _ _ _ _ _ idx E K3 ltac:(lia) ltac:(lia) ltac:(lia)) as (M4 & H4 & K4 & C4); [intros; apply Lw; lia|fold w; lia|]. fold w in H4, K4, C4. rewrite H4. cbn [obind].
  replace (k + 3 + 1) with (k + 4) in * by lia.
  pose proof (sklow_step _ _ _ _ _ _ _ k (k + 3) idx E Lw ltac:(lia) ltac:(lia) ltac:(lia)) as Lw'. replace (k + 3 + 1) with (k + 4) in Lw' by lia. fold w in Lw'.
  replace (ns - k - 4) with (ns - (k + 4)) by lia.
  destruct (IH M4 (k + 4) _ K4 Lw') as (M' & k' & idx' & X1 & X2 & X3 & X4 & X5 & X6); try lia.
  exists M', k', idx'. split; [exact X1|]. split; [exact X2|]. split; [exact X3|]. lia.
Qed.
Lemma sk2_ok M0 ps ns pl nl po m M k idx : skenv M0 ps ns pl nl po m -> skinv M0 ps ns pl nl po m M k k idx -> sklow M0 ps ns pl k idx ->
  0 <= k <= ns -> 0 <= idx <= nl -> (idx = nl \/ ns - k < 4) ->
  exists M' k' idx', sk2 M (ps + k) (ns - k) pl nl idx (po + zlen (skout M0 ps k pl nl)) = Some (M', ps + k', ns - k', idx', po + zlen (skout M0 ps k' pl nl)) /\
    skinv M0 ps ns pl nl po m M' k' k' idx' /\ sklow M0 ps ns pl k' idx' /\ k <= k' <= ns /\ 0 <= idx' <= nl /\ (idx' = nl \/ ns - k' < 2).
Proof.
  intros E KI Lw Hk Hi Hd. unfold sk2.
  destruct ((2 <=? ns - k) && (idx <? nl)) eqn:Hz; [apply andb_true_iff in Hz; rewrite Z.leb_le, Z.ltb_lt in Hz|apply andb_false_iff in Hz; rewrite Z.leb_gt, Z.ltb_ge in Hz].
  2:{ exists M, k, idx. split; [reflexivity|]. split; [exact KI|]. split; [exact Lw|]. lia. }
  destruct (skinv_reads _ _ _ _ _ _ _ _ _ _ E KI ltac:(lia) ltac:(lia)) as (R1 & R2 & _).
  rewrite <- !(Z.add_assoc ps k). rewrite !R1 by lia. cbn [obind]. rewrite !R2. cbn [obind].
  set (w := win M0 (pl + idx) (nl - idx)) in *. assert (SL := sk_s _ _ _ _ _ _ _ E). assert (SI := sk_is _ _ _ _ _ _ _ E).
  assert (T1 := small_lt M0 ps ns k (k + 1) SL SI ltac:(lia) ltac:(lia) ltac:(lia)). assert (B1 := lb_mono w _ _ (Z.lt_le_incl _ _ T1)).
  pose proof (lb_bound w (znth M0 (ps + k))) as B0.
  assert (KJ := skinv_kb _ _ _ _ _ _ _ _ _ _ (k + 2) _ KI ltac:(lia)).
  destruct (hit_mem_ok _ _ _ _ _ _ _ _ _ _ _ idx E KJ ltac:(lia) ltac:(lia) ltac:(lia)) as (M1 & H1 & K1 & C1); [intros; apply Lw; lia|fold w; lia|]. fold w in H1, K1. rewrite H1. cbn [obind].
  destruct (hit_mem_ok _ _ _ _ _ _ _ _ _ _ _ idx E K1 ltac:(lia) ltac:(lia) ltac:(lia)) as (M2 & H2 & K2 & C2); [intros; apply Lw; lia|fold w; lia|]. fold w in H2, K2, C2. rewrite H2. cbn [obind].
  replace (k + 1 + 1) with (k + 2) in * by lia.
  pose proof (sklow_step _ _ _ _ _ _ _ k (k + 1) idx E Lw ltac:(lia) ltac:(lia) ltac:(lia)) as Lw'. replace (k + 1 + 1) with (k + 2) in Lw' by lia. fold w in Lw'.
  replace (ns - k - 2) with (ns - (k + 2)) by lia. exists M2, (k + 2), (idx + lb w (znth M0 (ps + (k + 1)))).
  split; [reflexivity|]. split; [exact K2|]. split; [exact Lw'|]. lia.
Qed.
(** nothing of small after k is in large once large is used up *)
Lemma skout_end M0 ps ns pl nl po m k idx : skenv M0 ps ns pl nl po m -> sklow M0 ps ns pl k idx -> 0 <= k <= ns -> (idx = nl \/ k = ns) -> skout M0 ps k pl nl = inter (win M0 ps ns) (win M0 pl nl).
Proof.
  intros [S L O IS IL AS AL Hm] Lw Hk [-> | ->]; [|reflexivity]. unfold skout. rewrite (win_split M0 ps ns k S Hk). unfold inter. rewrite filter_app. rewrite (filter_none _ (win M0 (ps + k) (ns - k))); [rewrite app_nil_r; reflexivity|].
  destruct S as (S1 & S2 & S3), L as (L1 & L2 & L3). intros x Hx. apply zmem_nIn. intros Hy. apply In_znth in Hx, Hy. destruct Hx as (i & Hi & <-), Hy as (j & Hj & Ej). rewrite win_zlen in Hi, Hj by lia. rewrite !znth_win in Ej by lia.
  specialize (Lw j (k + i) ltac:(lia) ltac:(lia)). rewrite Z.add_assoc in Lw. lia.
Qed.
Lemma sk1_ok M0 ps ns pl nl po m M k idx : skenv M0 ps ns pl nl po m -> skinv M0 ps ns pl nl po m M k k idx -> sklow M0 ps ns pl k idx ->
  0 <= k <= ns -> 0 <= idx <= nl -> (idx = nl \/ ns - k < 2) -> let r := inter (win M0 ps ns) (win M0 pl nl) in
  exists M', sk1 M (ps + k) (ns - k) pl nl idx (po + zlen (skout M0 ps k pl nl)) = Some (M', po + zlen r) /\ same_out M0 M' po (po + m) /\ win M' po (zlen r) = r.
Proof.
  intros E KI Lw Hk Hi Hd r. unfold sk1.
  destruct ((1 <=? ns - k) && (idx <? nl)) eqn:Hz; [apply andb_true_iff in Hz; rewrite Z.leb_le, Z.ltb_lt in Hz|apply andb_false_iff in Hz; rewrite Z.leb_gt, Z.ltb_ge in Hz].
  2:{ exists M. rewrite (skout_end _ _ _ _ _ _ _ _ _ E Lw Hk) by lia. split; [reflexivity|]. destruct KI as [KS KO _ _]. rewrite (skout_end _ _ _ _ _ _ _ _ _ E Lw Hk) in KO by lia. split; assumption. }
  destruct (skinv_reads _ _ _ _ _ _ _ _ _ _ E KI ltac:(lia) ltac:(lia)) as (R1 & _ & R3). rewrite R1 by lia. cbn [obind]. rewrite R3. cbn [obind].
  set (w := win M0 (pl + idx) (nl - idx)) in *.
  assert (KJ := skinv_kb _ _ _ _ _ _ _ _ _ _ (k + 1) _ KI ltac:(lia)). pose proof (lb_bound w (znth M0 (ps + k))) as B0.
  destruct (hit_mem_ok _ _ _ _ _ _ _ _ _ _ _ idx E KJ ltac:(lia) ltac:(lia) ltac:(lia)) as (M1 & H1 & K1 & C1); [intros; apply Lw; lia|fold w; lia|]. fold w in H1, K1, C1.
  assert (EW : w = win M0 (pl + idx) (nl - idx)) by reflexivity. assert (E' := E). destruct E' as [S L O IS IL AS AL Hm]. destruct S as (S1 & S2 & S3), L as (L1 & L2 & L3).
  assert (IU : incr w) by (rewrite EW; rewrite (win_split M0 pl nl idx) in IL by (try lia; split; lia); apply incr_app in IL; apply IL).
  assert (LW : zlen w = nl - idx) by (rewrite EW; apply win_zlen; lia).
  assert (G : (if 0 <=? binarySearch w (znth M0 (ps + k)) then do M2 <- wr M (po + zlen (skout M0 ps k pl nl)) (znth M0 (ps + k)); Some (M2, po + zlen (skout M0 ps k pl nl) + 1) else Some (M, po + zlen (skout M0 ps k pl nl))) = Some (M1, po + zlen (skout M0 ps (k + 1) pl nl))).
  { rewrite <- H1. rewrite binarySearch_mem by exact IU. unfold hit_mem. pose proof (lb_In w (znth M0 (ps + k)) IU) as LI. rewrite LW in LI.
    destruct KI as [KS KO Q1 Q2]. assert (LM : zlen M = zlen M0) by apply KS.
    destruct (Z.ltb_spec (lb w (znth M0 (ps + k)) + idx) nl) as [Hn|Hn].
    - rewrite rd_ok by lia. cbn [obind]. rewrite Q2 by lia. rewrite EW in LI. rewrite znth_win in LI by (rewrite <- ?EW; lia). rewrite <- EW in LI.
      replace (pl + idx + lb w (znth M0 (ps + k))) with (pl + (idx + lb w (znth M0 (ps + k)))) in LI by lia.
      destruct (Z.eqb_spec (znth M0 (pl + (idx + lb w (znth M0 (ps + k))))) (znth M0 (ps + k))) as [He|He].
      + replace (zmem (znth M0 (ps + k)) w) with true by (symmetry; apply zmem_In, LI; split; [lia|exact He]). reflexivity.
      + replace (zmem (znth M0 (ps + k)) w) with false by (symmetry; apply zmem_nIn; intros Hin; apply LI in Hin; destruct Hin as [_ Hin]; contradiction). reflexivity.
    - replace (zmem (znth M0 (ps + k)) w) with false by (symmetry; apply zmem_nIn; intros Hin; apply LI in Hin; lia). reflexivity. }
  rewrite G. assert (k + 1 = ns) by lia. assert (ER : skout M0 ps (k + 1) pl nl = r) by (unfold skout, r; f_equal; f_equal; lia). rewrite ER. exists M1. split; [reflexivity|].
  destruct K1 as [KS KO _ _]. rewrite ER in KO. split; assumption.
Qed.
Lemma intersect_skewed_uint16_mem_ok M ps ns pl nl po m : skenv M ps ns pl nl po m -> let r := inter (win M ps ns) (win M pl nl) in
  exists M', intersect_skewed_uint16_mem M ps ns pl nl po = Some (M', zlen r) /\ same_out M M' po (po + m) /\ 0 <= zlen r <= m /\ win M' po (zlen r) = r.
Proof.
  intros E r. pose proof (skout_len _ _ _ _ _ _ _ ns E) as QL. unfold skout in QL. fold r in QL. assert (E' := E). destruct E' as [S L O IS IL AS AL Hm]. destruct S as (S1 & S2 & S3).
  specialize (QL ltac:(lia)). unfold intersect_skewed_uint16_mem. destruct (Z.eqb_spec ns 0) as [Hz|Hz].
  { exists M. unfold r in *. rewrite Hz, win_0, inter_nil_l. split; [reflexivity|]. split; [apply same_refl|]. split; [change (zlen (@nil Z)) with 0; destruct O; lia|apply win_0]. }
  assert (Z0 : skout M ps 0 pl nl = []) by (unfold skout; rewrite win_0; reflexivity).
  assert (KI : skinv M ps ns pl nl po m M 0 0 0) by (split; [apply same_refl|rewrite Z0; apply win_0|reflexivity|reflexivity]).
  destruct L as (L1 & L2 & L3).
  destruct (sk4_loop_ok _ _ _ _ _ _ _ E (Datatypes.S (Z.to_nat ns)) M 0 0 KI) as (M1 & k1 & x1 & H1 & K1 & W1 & C1 & D1 & F1); try lia; [intros j k' Hj; lia|].
  rewrite Z0 in H1. change (zlen (@nil Z)) with 0 in H1. rewrite !Z.add_0_r, Z.sub_0_r in H1. rewrite H1. cbn [obind].
  destruct (sk2_ok _ _ _ _ _ _ _ _ _ _ E K1 W1) as (M2 & k2 & x2 & H2 & K2 & W2 & C2 & D2 & F2); try lia. rewrite H2. cbn [obind].
  destruct (sk1_ok _ _ _ _ _ _ _ _ _ _ E K2 W2) as (M3 & H3 & G3 & V3); try lia. rewrite H3. cbn [obind]. fold r in V3 |- *. exists M3.
  split; [f_equal; f_equal; lia|]. split; [exact G3|]. split; [lia|exact V3].
Qed.
