(** SimdX: symmetric difference of sorted arrays of 16-bit numbers in memory: xor_uint16 and
    the vector version xor_vector16. *)
From Verif Require Import Base BitUtil SimdTab ArrayUtil Simd SimdM SimdU.
From Coq Require Import Permutation.

(** ** Model *)
(** array_util.c:1202-1231 xor_uint16; pointers and remaining lengths as in SimdU.um_loop *)
Fixpoint xm_loop (fuel : nat) (M : memory) (q1 m1 q2 m2 q : Z) : option (memory * Z) :=
  match fuel with
  | O => None
  | S f =>
    if (0 <? m1) && (0 <? m2) then
      do v1 <- rd M q1; do v2 <- rd M q2;
      if v1 =? v2 then xm_loop f M (q1 + 1) (m1 - 1) (q2 + 1) (m2 - 1) q
      else if v1 <? v2 then do M <- wr M q v1; xm_loop f M (q1 + 1) (m1 - 1) q2 m2 (q + 1)
      else do M <- wr M q v2; xm_loop f M q1 m1 (q2 + 1) (m2 - 1) (q + 1)
    else if 0 <? m1 then do M <- memcpy M q q1 m1; Some (M, q + m1)
    else if 0 <? m2 then do M <- memcpy M q q2 m2; Some (M, q + m2)
    else Some (M, q)
  end.
Definition xor_uint16_mem (M : memory) (array_1 card_1 array_2 card_2 out : Z) : option (memory * Z) :=
  do (M, e) <- xm_loop (S (Z.to_nat (card_1 + card_2))) M array_1 card_1 array_2 card_2 out;
  Some (M, e - out).
(** array_util.c:1767-1776 unique_xor, in place; pos is a uint32_t *)
Fixpoint unique_xor_loop (fuel : nat) (M : memory) (out i len pos : Z) : option (memory * Z) :=
  match fuel with
  | O => None
  | S f =>
    if i <? len then
      do x <- rd M (out + i); do y <- rd M (out + i - 1);
      if negb (x =? y) then do M <- wr M (out + pos) x; unique_xor_loop f M out (i + 1) len (pos + 1)
      else unique_xor_loop f M out (i + 1) len ((pos - 1) mod 4294967296)
    else Some (M, pos)
  end.
Definition unique_xor (M : memory) (out len : Z) : option (memory * Z) := unique_xor_loop (S (Z.to_nat len)) M out 1 len 1.
(** array_util.c:1810-1836, the main loop up to one of the two breaks *)
Fixpoint xv_loop (fuel : nat) (M : memory) (array1 len1 array2 len2 pos1 pos2 curA curB : Z) (vecMax laststore : vec) (output : Z)
  : option (memory * Z * Z * vec * vec * vec * Z) :=
  match fuel with
  | O => None
  | S f =>
    if curA <=? curB then
      do V <- ld8 M (array1 + 8 * pos1);
      if pos1 + 1 <? len1 then
        do curA <- rd M (array1 + 8 * (pos1 + 1));
        let '(vecMin, vecMax) := sse_merge V vecMax in
        do (M, k) <- store_unique_xor M laststore vecMin output;
        xv_loop f M array1 len1 array2 len2 (pos1 + 1) pos2 curA curB vecMax vecMin (output + k)
      else Some (M, pos1 + 1, pos2, V, vecMax, laststore, output)
    else
      do V <- ld8 M (array2 + 8 * pos2);
      if pos2 + 1 <? len2 then
        do curB <- rd M (array2 + 8 * (pos2 + 1));
        let '(vecMin, vecMax) := sse_merge V vecMax in
        do (M, k) <- store_unique_xor M laststore vecMin output;
        xv_loop f M array1 len1 array2 len2 pos1 (pos2 + 1) curA curB vecMax vecMin (output + k)
      else Some (M, pos1, pos2 + 1, V, vecMax, laststore, output)
  end.
(** array_util.c:1847-1878: the end; [t] and [r] as in SimdU.uv_finish, the 17 cells at [stk] are
    the local array [buffer] *)
Definition xv_finish (M : memory) (stk : Z) (laststore vecMax : vec) (t nt r nr output : Z) : option (memory * Z) :=
  do (M, leftoversize) <- store_unique_xor M laststore vecMax stk;
  let vec7 := znth vecMax 7 in
  let vec6 := znth vecMax 6 in
  do (M, leftoversize) <- (if negb (vec7 =? vec6) then do M <- wr M (stk + leftoversize) vec7; Some (M, leftoversize + 1)
                           else Some (M, leftoversize));
  do M <- memcpy M (stk + leftoversize) t nt;
  let leftoversize := leftoversize + nt in
  if leftoversize =? 0 then do M <- memcpy M output r nr; Some (M, nr)
  else
    do xs <- ldn M stk leftoversize; do M <- stn M stk (isort xs);
    do (M, leftoversize) <- unique_xor M stk leftoversize;
    xor_uint16_mem M stk leftoversize r nr output.
(** array_util.c:1778-1880 xor_vector16 *)
Definition xor_vector16 (M : memory) (stk array1 length1 array2 length2 output : Z) : option (memory * Z) :=
  if (length1 <? 8) || (length2 <? 8) then xor_uint16_mem M array1 length1 array2 length2 output
  else
    let initoutput := output in
    let len1 := length1 / 8 in
    let len2 := length2 / 8 in
    do vA <- ld8 M array1; do vB <- ld8 M array2;
    let '(vecMin, vecMax) := sse_merge vA vB in
    do (M, k) <- store_unique_xor M minus1v vecMin output;
    let output := output + k in
    do (M, pos1, pos2, vecMax, laststore, output) <-
      (if (1 <? len1) && (1 <? len2) then
         do curA <- rd M (array1 + 8); do curB <- rd M (array2 + 8);
         do (M, pos1, pos2, V, vecMax, laststore, output) <-
           xv_loop (Z.to_nat (len1 + len2)) M array1 len1 array2 len2 1 1 curA curB vecMax vecMin output;
         let '(vecMin, vecMax) := sse_merge V vecMax in
         do (M, k) <- store_unique_xor M laststore vecMin output;
         Some (M, pos1, pos2, vecMax, vecMin, output + k)
       else Some (M, 1, 1, vecMax, vecMin, output));
    let len := output - initoutput in
    do (M, n) <-
      (if pos1 =? len1
       then xv_finish M stk laststore vecMax (array1 + 8 * pos1) (length1 - 8 * len1) (array2 + 8 * pos2) (length2 - 8 * pos2) output
       else xv_finish M stk laststore vecMax (array2 + 8 * pos2) (length2 - 8 * len2) (array1 + 8 * pos1) (length1 - 8 * pos1) output);
    Some (M, len + n).

(** * Proofs *)
Local Opaque sse_merge store_unique store_unique_xor.
(** ** xor_uint16 *)
Lemma memcpy_ok M dst src n : inm M src n -> inm M dst n -> apart dst n src n ->
  exists M', memcpy M dst src n = Some M' /\ same_out M M' dst (dst + n) /\ win M' dst n = win M src n.
Proof.
  intros H1 H2 Ha. destruct (memmove_ok M dst src n H1 H2) as (M' & R & P). exists M'. split; [|exact P]. unfold memcpy.
  unfold apart in Ha. replace (_ || _) with true by (symmetry; rewrite !orb_true_iff, !Z.leb_le; lia). exact R.
Qed.
Lemma xm_loop_ok fuel : forall M q1 m1 q2 m2 q, inm M q1 m1 -> inm M q2 m2 -> 0 <= q -> q + m1 + m2 <= zlen M ->
  apart q1 m1 q (m1 + m2) -> apart q2 m2 q (m1 + m2) -> m1 + m2 < Z.of_nat fuel ->
  exists M' e, xm_loop fuel M q1 m1 q2 m2 q = Some (M', e) /\ post_union M q e (m1 + m2) M' (xor_uint16 (win M q1 m1) (win M q2 m2)).
Proof.
  induction fuel as [|f IH]; intros M q1 m1 q2 m2 q I1 I2 Hq Hl C1 C2 Hf; [destruct I1 as (? & ? & ?), I2 as (? & ? & ?); lia|].
  assert (I1' := I1). assert (I2' := I2). destruct I1' as (A1 & A2 & A3), I2' as (B1 & B2 & B3). unfold apart in C1, C2. cbn [xm_loop].
  destruct ((0 <? m1) && (0 <? m2)) eqn:Hb.
  - apply andb_true_iff in Hb. rewrite !Z.ltb_lt in Hb. destruct Hb as [P1 P2]. rewrite !rd_ok by lia. cbn [obind].
    rewrite (win_cons M q1 m1), (win_cons M q2 m2) by lia. rewrite xor_uint16_cons.
    destruct (Z.eqb_spec (znth M q1) (znth M q2)) as [He|He]; [|destruct (Z.ltb_spec (znth M q1) (znth M q2)) as [Hlt|Hge]].
    + destruct (IH M (q1 + 1) (m1 - 1) (q2 + 1) (m2 - 1) q) as (M' & e & R & P); try (split; lia); try (unfold apart; lia); try lia.
      exists M', e. split; [exact R|]. eapply post_weaken; [exact P|lia].
    + destruct (wr_ok M q (znth M q1)) as (M1 & W1 & S1 & V1); [lia|]. rewrite W1. cbn [obind]. assert (L1 : zlen M1 = zlen M) by apply S1.
      destruct (IH M1 (q1 + 1) (m1 - 1) q2 m2 (q + 1)) as (M' & e & R & P); try (split; lia); try (unfold apart; lia); try lia.
      exists M', e. split; [exact R|]. rewrite <- (win_cons M q2 m2) by lia. replace (m1 + m2) with (m1 - 1 + m2 + 1) by lia.
      eapply post_cons; eauto; try lia.
      replace (win M (q1 + 1) (m1 - 1)) with (win M1 (q1 + 1) (m1 - 1)) by (eapply same_win; [exact S1|lia|lia|lia|lia]).
      replace (win M q2 m2) with (win M1 q2 m2) by (eapply same_win; [exact S1|lia|lia|lia|lia]). exact P.
    + destruct (wr_ok M q (znth M q2)) as (M1 & W1 & S1 & V1); [lia|]. rewrite W1. cbn [obind]. assert (L1 : zlen M1 = zlen M) by apply S1.
      destruct (IH M1 q1 m1 (q2 + 1) (m2 - 1) (q + 1)) as (M' & e & R & P); try (split; lia); try (unfold apart; lia); try lia.
      exists M', e. split; [exact R|]. rewrite <- (win_cons M q1 m1) by lia. replace (m1 + m2) with (m1 + (m2 - 1) + 1) by lia.
      eapply post_cons; eauto; try lia.
      replace (win M (q2 + 1) (m2 - 1)) with (win M1 (q2 + 1) (m2 - 1)) by (eapply same_win; [exact S1|lia|lia|lia|lia]).
      replace (win M q1 m1) with (win M1 q1 m1) by (eapply same_win; [exact S1|lia|lia|lia|lia]). exact P.
  - apply andb_false_iff in Hb. rewrite !Z.ltb_ge in Hb. destruct (Z.ltb_spec 0 m1); [|destruct (Z.ltb_spec 0 m2)].
    + replace m2 with 0 in * by lia. destruct (memcpy_ok M q q1 m1) as (M' & R & S1 & W); try (split; lia); [unfold apart; lia|]. rewrite R. cbn [obind].
      exists M', (q + m1). split; [reflexivity|]. rewrite win_0, xor_uint16_nil_r. split; [eapply same_weaken; [exact S1|lia|lia]|]. split; [lia|].
      replace (q + m1 - q) with m1 by lia. exact W.
    + replace m1 with 0 in * by lia. destruct (memcpy_ok M q q2 m2) as (M' & R & S1 & W); try (split; lia); [unfold apart; lia|]. rewrite R. cbn [obind].
      exists M', (q + m2). split; [reflexivity|]. rewrite win_0, xor_uint16_nil_l. split; [eapply same_weaken; [exact S1|lia|lia]|]. split; [lia|].
      replace (q + m2 - q) with m2 by lia. exact W.
    + replace m1 with 0 by lia. replace m2 with 0 by lia. exists M, q. split; [reflexivity|]. rewrite !win_0. split; [apply same_refl|]. split; [lia|].
      rewrite Z.sub_diag. reflexivity.
Qed.
Lemma xor_uint16_mem_ok M p1 n1 p2 n2 po : inm M p1 n1 -> inm M p2 n2 -> 0 <= po -> po + n1 + n2 <= zlen M ->
  apart p1 n1 po (n1 + n2) -> apart p2 n2 po (n1 + n2) ->
  exists M' k, xor_uint16_mem M p1 n1 p2 n2 po = Some (M', k) /\ same_out M M' po (po + n1 + n2) /\ 0 <= k <= n1 + n2 /\
    win M' po k = xor_uint16 (win M p1 n1) (win M p2 n2).
Proof.
  intros I1 I2 Hq Hl C1 C2. unfold xor_uint16_mem. assert (I1' := I1). assert (I2' := I2). destruct I1' as (A1 & A2 & A3), I2' as (B1 & B2 & B3).
  destruct (xm_loop_ok (S (Z.to_nat (n1 + n2))) M p1 n1 p2 n2 po I1 I2 Hq Hl C1 C2) as (M' & e & R & P1 & P2 & P3); [lia|].
  rewrite R. cbn [obind]. do 2 eexists. split; [reflexivity|]. split; [eapply same_weaken; [exact P1|lia|lia]|]. split; [lia|exact P3].
Qed.

(** ** Values occurring once *)
Definition xset (X l : list Z) : Prop := incr X /\ forall x, In x X <-> count_occ Z.eq_dec l x = 1%nat.
Lemma count_pos l x : In x l <-> (1 <= count_occ Z.eq_dec l x)%nat.
Proof. rewrite (count_occ_In Z.eq_dec). lia. Qed.
Lemma count_cons y l x : count_occ Z.eq_dec (y :: l) x = ((if Z.eq_dec y x then 1 else 0) + count_occ Z.eq_dec l x)%nat.
Proof. cbn. destruct (Z.eq_dec y x); lia. Qed.
Lemma xset_nil : xset [] []. Proof. split; [exact Logic.I|]. intros x. cbn. split; [tauto|lia]. Qed.
(** like [xuniq], including the last value *)
Fixpoint xsel (p : Z) (l : list Z) : list Z :=
  match l with
  | [] => []
  | x :: l' =>
    match l' with
    | [] => if x =? p then [] else [x]
    | y :: _ => if (x =? p) || (x =? y) then xsel x l' else x :: xsel x l'
    end
  end.
Lemma xsel_spec l : forall p, sle (p :: l) -> incr (xsel p l) /\ forall x, In x (xsel p l) <-> x <> p /\ count_occ Z.eq_dec l x = 1%nat.
Proof.
  induction l as [|x [|y l] IH]; intros p Hs.
  - split; [exact Logic.I|]. intros x. cbn. lia.
  - cbn [xsel]. destruct (Z.eqb_spec x p) as [->|N].
    + split; [exact Logic.I|]. intros z. cbn [In]. rewrite count_cons. cbn. destruct (Z.eq_dec p z); lia.
    + split; [split; [constructor|exact Logic.I]|]. intros z. cbn [In]. rewrite count_cons. cbn. destruct (Z.eq_dec x z); lia.
  - destruct Hs as [F Hs]. destruct (IH x Hs) as [I1 I2]. cbn [xsel] in *.
    assert (Hp : p <= x) by (inversion F; lia).
    assert (GE : forall z, In z (y :: l) -> x <= z) by (destruct Hs as [Hs _]; rewrite Forall_forall in Hs; exact Hs).
    destruct (Z.eqb_spec x p) as [E|N]; cbn [orb]; [|destruct (Z.eqb_spec x y) as [E|N2]].
    + subst p. split; [exact I1|]. intros z. rewrite I2, (count_cons x). destruct (Z.eq_dec x z); lia.
    + split; [exact I1|]. intros z. rewrite I2, (count_cons x). destruct (Z.eq_dec x z) as [<-|Nz].
      * subst y. rewrite (count_cons x). destruct (Z.eq_dec x x); lia.
      * split; intros [A B]; split; try lia. intros ->. assert (In p (y :: l)) as G by (apply count_pos; lia). specialize (GE p G). lia.
    + assert (NI : count_occ Z.eq_dec (y :: l) x = 0%nat).
      { destruct (count_occ Z.eq_dec (y :: l) x) eqn:C; [reflexivity|exfalso]. assert (In x (y :: l)) as G by (apply count_pos; lia).
        destruct G as [G|G]; [lia|]. destruct Hs as [_ [Hs _]]. rewrite Forall_forall in Hs. specialize (Hs x G). specialize (GE y (or_introl eq_refl)). lia. }
      split.
      * split; [|exact I1]. apply Forall_forall. intros z Hz. apply I2 in Hz. assert (In z (y :: l)) as G by (apply count_pos; lia). specialize (GE z G). lia.
      * intros z. cbn [In]. rewrite I2, (count_cons x). destruct (Z.eq_dec x z) as [<-|Nz]; [lia|].
        split; [intros [?|[A B]]; [lia|]|intros [A B]; right; lia]. split; [|lia]. intros ->. assert (In p (y :: l)) as G by (apply count_pos; lia). specialize (GE p G). lia.
Qed.
Lemma xsel_first p l : (l <> [] -> znth l 0 <> p) -> sle l -> xset (xsel p l) l.
Proof.
  destruct l as [|x l]; intros H Hs; [exact xset_nil|]. rewrite znth_cons_0 in H. assert (N : x <> p) by (apply H; discriminate).
  assert (E : xsel p (x :: l) = xsel (x - 1) (x :: l)).
  { cbn [xsel]. replace (x =? p) with false by lia. replace (x =? x - 1) with false by lia. reflexivity. }
  rewrite E. destruct (xsel_spec (x :: l) (x - 1)) as [A B].
  { split; [|exact Hs]. destruct Hs as [Hs _]. constructor; [lia|]. eapply Forall_impl; [|exact Hs]. intros z Hz. cbv beta in *. lia. }
  split; [exact A|]. intros z. rewrite B. split; [tauto|]. intros C. split; [|exact C]. intros ->.
  assert (In (x - 1) (x :: l)) as G by (apply count_pos; lia). destruct Hs as [Hs _]. rewrite Forall_forall in Hs. destruct G as [G|G]; [lia|].
  specialize (Hs _ G). lia.
Qed.
Lemma xuniq_app l y z b : forall p, xuniq p (l ++ y :: z :: b) = xuniq p (l ++ [y; z]) ++ xuniq y (z :: b).
Proof.
  induction l as [|x l IH]; intros p.
  - cbn [app]. change (xuniq p (y :: z :: b)) with (if (y =? p) || (y =? z) then xuniq y (z :: b) else y :: xuniq y (z :: b)).
    change (xuniq p [y; z]) with (if (y =? p) || (y =? z) then @nil Z else [y]). destruct ((y =? p) || (y =? z)); reflexivity.
  - cbn [app]. specialize (IH x). destruct l as [|w l].
    + cbn [app] in *. change (xuniq p (x :: y :: z :: b)) with (if (x =? p) || (x =? y) then xuniq x (y :: z :: b) else x :: xuniq x (y :: z :: b)).
      change (xuniq p [x; y; z]) with (if (x =? p) || (x =? y) then xuniq x [y; z] else x :: xuniq x [y; z]).
      rewrite IH. destruct ((x =? p) || (x =? y)); reflexivity.
    + cbn [app] in *.
      change (xuniq p (x :: w :: l ++ y :: z :: b)) with (if (x =? p) || (x =? w) then xuniq x (w :: l ++ y :: z :: b) else x :: xuniq x (w :: l ++ y :: z :: b)).
      change (xuniq p (x :: w :: l ++ [y; z])) with (if (x =? p) || (x =? w) then xuniq x (w :: l ++ [y; z]) else x :: xuniq x (w :: l ++ [y; z])).
      rewrite IH. destruct ((x =? p) || (x =? w)); reflexivity.
Qed.
Lemma xsel_last l y z : forall p, xsel p (l ++ [y; z]) = xuniq p (l ++ [y; z]) ++ (if z =? y then [] else [z]).
Proof.
  induction l as [|x l IH]; intros p.
  - cbn [app xsel xuniq]. destruct ((y =? p) || (y =? z)); destruct (z =? y); reflexivity.
  - cbn [app]. specialize (IH x). destruct l as [|w l].
    + cbn [app] in *. change (xsel p [x; y; z]) with (if (x =? p) || (x =? y) then xsel x [y; z] else x :: xsel x [y; z]).
      change (xuniq p [x; y; z]) with (if (x =? p) || (x =? y) then xuniq x [y; z] else x :: xuniq x [y; z]).
      rewrite IH. destruct ((x =? p) || (x =? y)); reflexivity.
    + cbn [app] in *.
      change (xsel p (x :: w :: l ++ [y; z])) with (if (x =? p) || (x =? w) then xsel x (w :: l ++ [y; z]) else x :: xsel x (w :: l ++ [y; z])).
      change (xuniq p (x :: w :: l ++ [y; z])) with (if (x =? p) || (x =? w) then xuniq x (w :: l ++ [y; z]) else x :: xuniq x (w :: l ++ [y; z])).
      rewrite IH. destruct ((x =? p) || (x =? w)); reflexivity.
Qed.
Lemma xuniq_zlen l : forall p x, zlen (xuniq p (x :: l)) <= zlen l.
Proof.
  induction l as [|y l IH]; intros p x; [reflexivity|]. specialize (IH x y).
  change (xuniq p (x :: y :: l)) with (if (x =? p) || (x =? y) then xuniq x (y :: l) else x :: xuniq x (y :: l)).
  destruct ((x =? p) || (x =? y)); rewrite ?zlen_cons in *; lia.
Qed.
(** what xor_vector16 has stored after moving out [W]; the last value is still pending *)
Definition em (W : list Z) : list Z := xuniq 65535 (65535 :: 65535 :: W).
Lemma em_eq W : em W = xuniq 65535 (65535 :: W).
Proof. unfold em. change (xuniq 65535 (65535 :: 65535 :: W)) with (if (65535 =? 65535) || (65535 =? 65535) then xuniq 65535 (65535 :: W) else 65535 :: xuniq 65535 (65535 :: W)). reflexivity. Qed.
Lemma em_zlen W : zlen (em W) <= zlen W.
Proof. rewrite em_eq. apply xuniq_zlen. Qed.
Definition tail2 (W : list Z) (y z : Z) : Prop := exists l, 65535 :: 65535 :: W = l ++ [y; z].
Lemma tail2_lanes W v : lanes v -> tail2 (W ++ v) (znth v 6) (znth v 7).
Proof.
  intros H. exists (65535 :: 65535 :: W ++ firstn 6 v). lanes8 H v. cbv [znth nth Z.to_nat Pos.to_nat Pos.iter_op Nat.add]. cbn [firstn].
  cbn [app]. do 2 f_equal. rewrite <- app_assoc. reflexivity.
Qed.
Lemma em_app W y z b : tail2 W y z -> em (W ++ b) = em W ++ xuniq y (z :: b).
Proof.
  intros [l E]. unfold em. change (65535 :: 65535 :: W ++ b) with ((65535 :: 65535 :: W) ++ b). rewrite E, <- app_assoc. cbn [app]. apply xuniq_app.
Qed.
Lemma em_all W mx y z : tail2 W y z -> lanes mx ->
  em W ++ xuniq y (z :: mx) ++ (if znth mx 7 =? znth mx 6 then [] else [znth mx 7]) = xsel 65535 (65535 :: 65535 :: W ++ mx).
Proof.
  intros H Hm. rewrite app_assoc, <- (em_app W y z mx H). destruct (tail2_lanes W mx Hm) as [l E]. unfold em. rewrite E. symmetry. apply xsel_last.
Qed.
Lemma em_all_xset rA uA rB uB W mx y z : vinv rA uA rB uB W mx -> incr rA -> (2 <= length rA)%nat -> Forall (fun x => 0 <= x < 65536) rA ->
  tail2 W y z -> lanes mx -> xset (em W ++ xuniq y (z :: mx) ++ (if znth mx 7 =? znth mx 6 then [] else [znth mx 7])) (W ++ mx).
Proof.
  intros V Hi Hl Hb H Hm. rewrite (em_all W mx y z H Hm). destruct (vinv_first _ _ _ _ _ _ V Hi Hl Hb) as [N F]. destruct V as (Vs & _).
  destruct (W ++ mx) as [|w l] eqn:E; [congruence|]. rewrite znth_cons_0 in F.
  assert (E2 : xsel 65535 (65535 :: 65535 :: w :: l) = xsel 65535 (w :: l)).
  { cbn [xsel]. rewrite !Z.eqb_refl. reflexivity. }
  rewrite E2. apply xsel_first; [|exact Vs]. intros _. rewrite znth_cons_0. lia.
Qed.
Lemma xset_zlen X l : xset X l -> zlen X <= zlen l.
Proof.
  intros [I1 I2]. unfold zlen. apply Nat2Z.inj_le. apply NoDup_incl_length; [apply incr_NoDup; exact I1|]. intros x Hx. apply I2 in Hx. apply count_pos. lia.
Qed.
(** ** unique_xor *)
Lemma win_snoc M p n : 0 <= p -> 0 <= n -> p + n + 1 <= zlen M -> win M p (n + 1) = win M p n ++ [znth M (p + n)].
Proof. intros. rewrite win_app by lia. f_equal. rewrite win_cons by lia. reflexivity. Qed.
Lemma unique_xor_loop_ok fuel : forall M b i n pos l0 X, zlen l0 = n -> 0 <= b -> 1 <= i <= n -> b + n <= zlen M -> n < 4294967296 ->
  sle l0 -> (forall x, (count_occ Z.eq_dec l0 x <= 2)%nat) ->
  (forall j, i - 1 <= j < n -> znth M (b + j) = znth l0 j) -> xset X (win l0 0 i) -> pos = zlen X -> win M b pos = X -> n - i < Z.of_nat fuel ->
  exists M' Y, unique_xor_loop fuel M b i n pos = Some (M', zlen Y) /\ same_out M M' b (b + n) /\ xset Y l0 /\ win M' b (zlen Y) = Y.
Proof.
  induction fuel as [|f IH]; intros M b i n pos l0 X L0 Hb Hi Hl Hn Hs HC HM HX Hp HW Hf; [lia|]. cbn [unique_xor_loop].
  assert (Hpi : zlen X <= i) by (pose proof (xset_zlen _ _ HX) as K; rewrite win_zlen in K by lia; exact K).
  pose proof (zlen_nonneg X) as X0.
  destruct (Z.ltb_spec i n) as [Hin|Hin].
  - rewrite !rd_ok by lia. cbn [obind]. rewrite (HM i) by lia. replace (b + i - 1) with (b + (i - 1)) by lia. rewrite (HM (i - 1)) by lia.
    assert (EP : win l0 0 (i + 1) = win l0 0 i ++ [znth l0 i]) by (rewrite win_snoc by lia; reflexivity).
    assert (EP0 : win l0 0 i = win l0 0 (i - 1) ++ [znth l0 (i - 1)]) by (replace i with (i - 1 + 1) at 1 by lia; rewrite win_snoc by lia; reflexivity).
    assert (EL : l0 = win l0 0 (i + 1) ++ win l0 (i + 1) (n - (i + 1))).
    { rewrite <- (win_app l0 0 (i + 1)) by lia. unfold win. cbn [skipn Z.to_nat]. symmetry. apply firstn_all2. unfold zlen in L0. lia. }
    assert (Sp : sle (win l0 0 (i + 1))) by (rewrite EL in Hs; apply sle_app in Hs; tauto). rewrite EP in Sp. apply sle_app in Sp. destruct Sp as (Sp & _ & Sx).
    assert (Spp := Sp). rewrite EP0 in Spp. apply sle_app in Spp. destruct Spp as (_ & _ & Spp).
    assert (MX : forall x, In x (win l0 0 i) -> x <= znth l0 (i - 1)).
    { intros x Hx. rewrite EP0 in Hx. apply in_app_iff in Hx. destruct Hx as [Hx|[<-|[]]]; [|lia]. apply Spp; [exact Hx|left; reflexivity]. }
    assert (PI : In (znth l0 (i - 1)) (win l0 0 i)) by (rewrite EP0; apply in_app_iff; right; left; reflexivity).
    assert (Sx' : forall x, In x (win l0 0 i) -> x <= znth l0 i) by (intros x Hx; apply Sx; [exact Hx|left; reflexivity]).
    destruct HX as [X1 X2].
    destruct (Z.eqb_spec (znth l0 i) (znth l0 (i - 1))) as [E|E]; cbn [negb].
    + (* second copy: the first one is the last value kept *)
      set (v := znth l0 (i - 1)) in *.
      assert (C1 : count_occ Z.eq_dec (win l0 0 i) v = 1%nat).
      { assert (1 <= count_occ Z.eq_dec (win l0 0 i) v)%nat by (apply count_pos; exact PI).
        specialize (HC v). rewrite EL, EP, !count_occ_app, E in HC. rewrite (count_cons v) in HC. destruct (Z.eq_dec v v); [lia|congruence]. }
      assert (VX : In v X) by (apply X2; exact C1).
      assert (NX : X <> []) by (intros ->; destruct VX). destruct (exists_last NX) as (X' & w & ->).
      assert (w = v).
      { apply incr_app in X1. destruct X1 as (_ & _ & X1). apply in_app_iff in VX. destruct VX as [VX|[->|[]]]; [|reflexivity].
        assert (v < w) by (apply X1; [exact VX|left; reflexivity]). assert (In w (X' ++ [w])) as G by (apply in_app_iff; right; left; reflexivity).
        apply X2 in G. assert (In w (win l0 0 i)) as G2 by (apply count_pos; lia). specialize (MX w G2). lia. }
      subst w. assert (Lx : zlen (X' ++ [v]) = zlen X' + 1) by (rewrite zlen_app; reflexivity). pose proof (zlen_nonneg X').
      rewrite Hp, Lx. replace ((zlen X' + 1 - 1) mod 4294967296) with (zlen X') by (rewrite Z.mod_small; lia).
      apply (IH M b (i + 1) n (zlen X') l0 X'); try lia; try assumption; try (intros j Hj; apply HM; lia).
      * split; [apply incr_app in X1; tauto|]. intros x. rewrite EP, count_occ_app, E. specialize (X2 x). rewrite in_app_iff in X2.
        rewrite (count_cons v). cbn [count_occ]. apply incr_app in X1. destruct X1 as (_ & _ & X1). destruct (Z.eq_dec v x) as [<-|Nv].
        -- split; [|lia]. intros G. specialize (X1 v v G (or_introl eq_refl)). lia.
        -- rewrite Nat.add_0_l, Nat.add_0_r. rewrite <- X2. cbn [In]. intuition.
      * rewrite Hp, Lx in HW. rewrite win_snoc in HW by lia. apply app_inj_tail in HW. tauto.
    + assert (GT : znth l0 (i - 1) < znth l0 i) by (specialize (Sx' _ PI); lia). set (v := znth l0 i) in *.
      destruct (wr_ok M (b + pos) v) as (M1 & W1 & [L1 S1] & V1); [lia|]. rewrite W1. cbn [obind].
      destruct (IH M1 b (i + 1) n (pos + 1) l0 (X ++ [v])) as (M' & Y & R & S2 & P); try lia; try assumption.
      * intros j Hj. destruct (Z.eq_dec j pos) as [->|]; [rewrite V1; unfold v; f_equal; lia|]. rewrite S1 by lia. apply HM. lia.
      * split.
        -- apply incr_app. split; [exact X1|]. split; [split; [constructor|exact Logic.I]|]. intros x y Hx [<-|[]]. apply X2 in Hx.
           assert (In x (win l0 0 i)) as G by (apply count_pos; lia). specialize (MX x G). lia.
        -- intros x. rewrite EP, count_occ_app, in_app_iff, X2. fold v. rewrite (count_cons v). cbn [count_occ In]. destruct (Z.eq_dec v x) as [<-|Nv].
           ++ assert (count_occ Z.eq_dec (win l0 0 i) v = 0%nat); [|lia]. destruct (count_occ Z.eq_dec (win l0 0 i) v) eqn:C; [reflexivity|].
              assert (In v (win l0 0 i)) as G by (apply count_pos; lia). specialize (MX v G). lia.
           ++ lia.
      * rewrite zlen_app. change (zlen [v]) with 1. lia.
      * rewrite win_snoc by lia. rewrite V1. f_equal. transitivity (win M b pos); [|exact HW]. eapply same_win with (lo := b + pos) (hi := b + pos + 1); [split; [exact L1|exact S1]|lia|lia|lia|lia].
      * exists M', Y. split; [exact R|]. split; [|exact P]. eapply same_trans; [split; [exact L1|exact S1]|exact S2|lia|lia|lia|lia].
  - exists M, X. rewrite Hp. split; [reflexivity|]. split; [apply same_refl|].
    assert (E : win l0 0 i = l0) by (unfold win; cbn [skipn Z.to_nat]; apply firstn_all2; unfold zlen in L0; lia). rewrite E in HX. split; [exact HX|].
    rewrite <- Hp. exact HW.
Qed.
Lemma unique_xor_ok M b l n : 0 <= b -> b + n <= zlen M -> win M b n = l -> zlen l = n -> 1 <= n < 4294967296 -> sle l ->
  (forall x, (count_occ Z.eq_dec l x <= 2)%nat) ->
  exists M' Y, unique_xor M b n = Some (M', zlen Y) /\ same_out M M' b (b + n) /\ xset Y l /\ win M' b (zlen Y) = Y.
Proof.
  intros Hb Hl HW Ln Hn Hs HC. unfold unique_xor.
  assert (E1 : win l 0 1 = [znth l 0]) by (rewrite win_cons by lia; reflexivity).
  eapply (unique_xor_loop_ok _ M b 1 n 1 l [znth l 0]); try lia; try assumption.
  - intros j Hj. rewrite <- HW. rewrite znth_win by lia. reflexivity.
  - rewrite E1. split; [split; [constructor|exact Logic.I]|]. intros x. rewrite count_cons. cbn. destruct (Z.eq_dec (znth l 0) x); lia.
  - reflexivity.
  - rewrite win_cons by lia. rewrite <- HW at 1. rewrite znth_win by lia. rewrite Z.add_0_r. reflexivity.
Qed.

(** ** xor_vector16 *)
Record xinv (M0 : memory) (p1 n1 p2 n2 po : Z) (M : memory) (pos1 pos2 : Z) (mx old : vec) (out : Z) (W : list Z) : Prop := {
  xi_1 : 1 <= pos1 /\ 8 * pos1 <= n1; xi_2 : 1 <= pos2 /\ 8 * pos2 <= n2;
  xi_v : vinv (win M0 p1 (8 * pos1)) (win M0 (p1 + 8 * pos1) (n1 - 8 * pos1)) (win M0 p2 (8 * pos2)) (win M0 (p2 + 8 * pos2) (n2 - 8 * pos2)) W mx;
  xi_z : zlen W = 8 * (pos1 + pos2 - 1);
  xi_m : lanes mx; xi_o : lanes old; xi_l : tail2 W (znth old 6) (znth old 7);
  xi_s : same_out M0 M po (po + 8 * (pos1 + pos2 - 1));
  xi_p : out = po + zlen (em W); xi_w : win M po (zlen (em W)) = em W }.
Lemma xinv_sym M0 p1 n1 p2 n2 po M pos1 pos2 mx old out W :
  xinv M0 p1 n1 p2 n2 po M pos1 pos2 mx old out W -> xinv M0 p2 n2 p1 n1 po M pos2 pos1 mx old out W.
Proof.
  intros [A B C D E F G H I0 J]. constructor; auto.
  - apply vinv_sym. exact C.
  - lia.
  - replace (pos2 + pos1 - 1) with (pos1 + pos2 - 1) by lia. exact H.
Qed.
Lemma xinv_read M0 p1 n1 p2 n2 po M pos1 pos2 mx old out W i m : uenv M0 p1 n1 p2 n2 po -> xinv M0 p1 n1 p2 n2 po M pos1 pos2 mx old out W ->
  8 * pos1 <= i -> 0 <= m -> i + m <= n1 -> win M (p1 + i) m = win M0 (p1 + i) m.
Proof.
  intros [(A1 & A2 & A3) (B1 & B2 & B3) C D E1 E2 _ _ _ _] [F G _ _ _ _ _ H _ _] Hi Hm Hl. unfold clear in *.
  eapply same_win; [exact H|lia|lia|lia|]. lia.
Qed.
Lemma xinv_rd M0 p1 n1 p2 n2 po M pos1 pos2 mx old out W i : uenv M0 p1 n1 p2 n2 po -> xinv M0 p1 n1 p2 n2 po M pos1 pos2 mx old out W ->
  8 * pos1 <= i -> i < n1 -> rd M (p1 + i) = Some (znth M0 (p1 + i)).
Proof.
  intros HE HI Hi Hl. pose proof (xinv_read _ _ _ _ _ _ _ _ _ _ _ _ _ i 1 HE HI Hi ltac:(lia) ltac:(lia)) as H.
  destruct HE as [(A1 & A2 & A3) _ _ _ _ _ _ _ _ _], HI as [F _ _ _ _ _ _ [L _] _ _]. rewrite rd_ok by lia.
  rewrite (win_cons M), (win_cons M0) in H by lia. congruence.
Qed.
Lemma xinv_step M0 p1 n1 p2 n2 po M pos1 pos2 mx old out W : uenv M0 p1 n1 p2 n2 po ->
  xinv M0 p1 n1 p2 n2 po M pos1 pos2 mx old out W -> 8 * (pos1 + 1) <= n1 -> 8 * pos2 < n2 ->
  znth M0 (p1 + 8 * pos1) <= znth M0 (p2 + 8 * pos2) ->
  let s := sse_merge (win M0 (p1 + 8 * pos1) 8) mx in
  exists M' k, store_unique_xor M old (fst s) out = Some (M', k) /\ xinv M0 p1 n1 p2 n2 po M' (pos1 + 1) pos2 (snd s) (fst s) (out + k) (W ++ fst s).
Proof.
  intros HE HI Hl1 Hl2 Hc s. pose proof HE as [I1 I2 E0 El C1 C2 Hi1 Hi2 Hb1 Hb2]. pose proof HI as [P1 P2 V Z0 Lm Lo La Sa Po Wo].
  assert (I1' := I1). assert (I2' := I2). destruct I1' as (A1 & A2 & A3), I2' as (B1 & B2 & B3).
  set (V1 := win M0 (p1 + 8 * pos1) 8) in *.
  assert (LV : lanes V1) by (apply (win_lanes M0 p1 n1); auto; lia).
  assert (EA : win M0 p1 n1 = win M0 p1 (8 * pos1) ++ V1 ++ win M0 (p1 + 8 * (pos1 + 1)) (n1 - 8 * (pos1 + 1))).
  { unfold V1. rewrite (win_split M0 p1 n1 (8 * pos1)) by (try assumption; lia). f_equal.
    rewrite (win_split M0 (p1 + 8 * pos1) (n1 - 8 * pos1) 8) by (try (split; lia); lia). do 2 f_equal; lia. }
  assert (EU : win M0 (p1 + 8 * pos1) (n1 - 8 * pos1) = V1 ++ win M0 (p1 + 8 * (pos1 + 1)) (n1 - 8 * (pos1 + 1))).
  { unfold V1. rewrite (win_split M0 (p1 + 8 * pos1) (n1 - 8 * pos1) 8) by (try (split; lia); lia). do 2 f_equal; lia. }
  assert (EB : win M0 p2 n2 = win M0 p2 (8 * pos2) ++ win M0 (p2 + 8 * pos2) (n2 - 8 * pos2)) by (apply win_split; [assumption|lia]).
  rewrite EU in V. rewrite EA in Hi1. rewrite EB in Hi2.
  assert (V' := V). destruct V' as (Vs & Vm & Vp & Vq).
  assert (SV : sle V1) by (apply incr_app in Hi1; destruct Hi1 as (_ & Hi1 & _); apply incr_app in Hi1; apply incr_sle; tauto).
  assert (Sm : sle mx) by (apply sle_app in Vs; tauto).
  assert (ER : win M0 p1 (8 * pos1) ++ V1 = win M0 p1 (8 * (pos1 + 1))).
  { unfold V1. rewrite <- win_app by lia. f_equal. lia. }
  apply (vinv_step _ _ _ _ _ _ _ (proj1 LV) Hi1 Hi2) in V.
  2:{ intros y Hy. rewrite EB in *. rewrite (win_cons M0 (p2 + 8 * pos2)) in Hy, Hi2 by lia.
      unfold V1. rewrite win_cons by lia. rewrite znth_cons_0. destruct Hy as [<-|Hy]; [lia|].
      apply incr_app in Hi2. destruct Hi2 as (_ & Hi2 & _). pose proof (incr_head _ _ _ Hi2 Hy). lia. }
  destruct (merge_lanes V1 mx LV Lm SV Sm) as [Ls1 Ls2]. fold s in V, Ls1, Ls2. rewrite ER in V.
  pose proof (em_zlen W) as Uz. pose proof (zlen_nonneg (em W)).
  assert (LM : zlen M = zlen M0) by apply Sa.
  destruct (store_unique_xor_ok M old (fst s) out Lo Ls1) as (M' & R & S1 & S2 & S3); [lia|lia|].
  exists M'. eexists. split; [exact R|]. set (u := xuniq (znth old 6) (znth old 7 :: fst s)) in *.
  pose proof (zlen_nonneg u).
  assert (UA : em (W ++ fst s) = em W ++ u) by (apply em_app; exact La).
  constructor; auto; try lia.
  - rewrite zlen_app, Z0. destruct Ls1 as [Ls1 _]. unfold zlen. lia.
  - apply tail2_lanes. exact Ls1.
  - eapply same_trans; [exact Sa|exact S1|lia|lia|lia|lia].
  - rewrite UA, zlen_app. lia.
  - rewrite UA, zlen_app. assert (LM' : zlen M' = zlen M) by apply S1. rewrite win_app by lia. f_equal.
    + rewrite <- Wo at 2. eapply same_win; [exact S1|lia|lia|lia|lia].
    + rewrite <- Po. exact S2.
Qed.
Lemma xinv_step2 M0 p1 n1 p2 n2 po M pos1 pos2 mx old out W : uenv M0 p1 n1 p2 n2 po ->
  xinv M0 p1 n1 p2 n2 po M pos1 pos2 mx old out W -> 8 * pos1 < n1 -> 8 * (pos2 + 1) <= n2 ->
  znth M0 (p2 + 8 * pos2) <= znth M0 (p1 + 8 * pos1) ->
  let s := sse_merge (win M0 (p2 + 8 * pos2) 8) mx in
  exists M' k, store_unique_xor M old (fst s) out = Some (M', k) /\ xinv M0 p1 n1 p2 n2 po M' pos1 (pos2 + 1) (snd s) (fst s) (out + k) (W ++ fst s).
Proof.
  intros HE HI Hl1 Hl2 Hc s.
  destruct (xinv_step _ _ _ _ _ _ _ _ _ _ _ _ _ (uenv_sym _ _ _ _ _ _ HE) (xinv_sym _ _ _ _ _ _ _ _ _ _ _ _ _ HI) Hl2 Hl1 Hc) as (M' & k & R & P).
  exists M', k. split; [exact R|]. apply xinv_sym. exact P.
Qed.
Lemma xv_loop_ok M0 p1 n1 p2 n2 po : uenv M0 p1 n1 p2 n2 po -> forall fuel M pos1 pos2 mx old out W,
  xinv M0 p1 n1 p2 n2 po M pos1 pos2 mx old out W -> pos1 < n1 / 8 -> pos2 < n2 / 8 -> n1 / 8 - pos1 + (n2 / 8 - pos2) <= Z.of_nat fuel ->
  exists M1 pos1' pos2' V mx1 old1 out1, xv_loop fuel M p1 (n1 / 8) p2 (n2 / 8) pos1 pos2 (znth M0 (p1 + 8 * pos1)) (znth M0 (p2 + 8 * pos2)) mx old out =
      Some (M1, pos1', pos2', V, mx1, old1, out1) /\
    (exists M2 k W', store_unique_xor M1 old1 (fst (sse_merge V mx1)) out1 = Some (M2, k) /\
      xinv M0 p1 n1 p2 n2 po M2 pos1' pos2' (snd (sse_merge V mx1)) (fst (sse_merge V mx1)) (out1 + k) W') /\
    (pos1' = n1 / 8 \/ pos1' < n1 / 8 /\ pos2' = n2 / 8).
Proof.
  intros HE. induction fuel as [|f IH]; intros M pos1 pos2 mx old out W HI H1 H2 Hf; [lia|].
  pose proof (Z.mul_div_le n1 8 ltac:(lia)). pose proof (Z.mul_div_le n2 8 ltac:(lia)).
  assert (HE' := uenv_sym _ _ _ _ _ _ HE). assert (HI' := xinv_sym _ _ _ _ _ _ _ _ _ _ _ _ _ HI).
  assert (ML : zlen M = zlen M0) by apply HI.
  assert (A := ue_1 _ _ _ _ _ _ HE). assert (B := ue_2 _ _ _ _ _ _ HE). destruct A as (A1 & A2 & A3), B as (B1 & B2 & B3).
  pose proof (xi_1 _ _ _ _ _ _ _ _ _ _ _ _ _ HI). pose proof (xi_2 _ _ _ _ _ _ _ _ _ _ _ _ _ HI).
  cbn [xv_loop]. destruct (Z.leb_spec (znth M0 (p1 + 8 * pos1)) (znth M0 (p2 + 8 * pos2))) as [Hc|Hc].
  - unfold ld8. rewrite ldn_ok by lia. cbn [obind].
    rewrite (xinv_read _ _ _ _ _ _ _ _ _ _ _ _ _ (8 * pos1) 8 HE HI) by lia.
    destruct (xinv_step _ _ _ _ _ _ _ _ _ _ _ _ _ HE HI ltac:(lia) ltac:(lia) Hc) as (M' & k & R & P).
    destruct (Z.ltb_spec (pos1 + 1) (n1 / 8)) as [Hn|Hn].
    + rewrite (xinv_rd _ _ _ _ _ _ _ _ _ _ _ _ _ (8 * (pos1 + 1)) HE HI) by lia. cbn [obind].
      rewrite (surjective_pairing (sse_merge _ mx)). rewrite R. cbn [obind]. eapply IH; [exact P|lia|lia|lia].
    + do 7 eexists. split; [reflexivity|]. split; [exists M', k, (W ++ fst (sse_merge (win M0 (p1 + 8 * pos1) 8) mx)); split; [exact R|exact P]|]. left. lia.
  - unfold ld8. rewrite ldn_ok by lia. cbn [obind].
    rewrite (xinv_read _ _ _ _ _ _ _ _ _ _ _ _ _ (8 * pos2) 8 HE' HI') by lia.
    destruct (xinv_step2 _ _ _ _ _ _ _ _ _ _ _ _ _ HE HI ltac:(lia) ltac:(lia) ltac:(lia)) as (M' & k & R & P).
    destruct (Z.ltb_spec (pos2 + 1) (n2 / 8)) as [Hn|Hn].
    + rewrite (xinv_rd _ _ _ _ _ _ _ _ _ _ _ _ _ (8 * (pos2 + 1)) HE' HI') by lia. cbn [obind].
      rewrite (surjective_pairing (sse_merge _ mx)). rewrite R. cbn [obind]. eapply IH; [exact P|lia|lia|lia].
    + do 7 eexists. split; [reflexivity|]. split; [exists M', k, (W ++ fst (sse_merge (win M0 (p2 + 8 * pos2) 8) mx)); split; [exact R|exact P]|]. right. lia.
Qed.
(** the final list *)
Lemma fin_xor rA uA rB uB W mx X L0 L : vinv rA uA rB uB W mx -> incr (rA ++ uA) -> incr (rB ++ uB) ->
  xset (X ++ L0) (W ++ mx) -> (forall x, In x X -> In x W) -> xset L (L0 ++ uA) ->
  X ++ xor_uint16 L uB = xor_uint16 (rA ++ uA) (rB ++ uB).
Proof.
  intros (Vs & Vm & Vp & Vq) HA HB [F1 F2] HX [L1 L2]. assert (HA' := HA). assert (HB' := HB). apply incr_app in HA', HB'.
  destruct HA' as (A1 & A2 & A3), HB' as (B1 & B2 & B3). apply incr_app in F1. destruct F1 as (X1 & X2 & X3).
  assert (CC : forall l x, incr l -> (In x l -> count_occ Z.eq_dec l x = 1%nat) /\ (~ In x l -> count_occ Z.eq_dec l x = 0%nat)).
  { intros l x Hl. pose proof (incr_count l x Hl). rewrite count_pos. lia. }
  assert (LI : forall x, In x L <-> (In x L0 /\ ~ In x uA) \/ (~ In x L0 /\ In x uA)).
  { intros x. rewrite L2, count_occ_app. destruct (CC L0 x X2), (CC uA x A2). destruct (in_dec Z.eq_dec x L0), (in_dec Z.eq_dec x uA);
      repeat match goal with H : ?P -> _, K : ?P |- _ => specialize (H K) | H : ~ ?P -> _, K : ?P |- _ => clear H | H : ?P -> _, K : ~ ?P |- _ => clear H end; split; try tauto; lia. }
  assert (FI : forall x, In x X \/ In x L0 <-> (In x rA /\ ~ In x rB) \/ (~ In x rA /\ In x rB)).
  { intros x. rewrite <- in_app_iff, F2. rewrite (proj1 (Permutation_count_occ Z.eq_dec _ _) Vp x), count_occ_app. destruct (CC rA x A1), (CC rB x B1).
    destruct (in_dec Z.eq_dec x rA), (in_dec Z.eq_dec x rB);
      repeat match goal with H : ?P -> _, K : ?P |- _ => specialize (H K) | H : ~ ?P -> _, K : ?P |- _ => clear H | H : ?P -> _, K : ~ ?P |- _ => clear H end; split; try tauto; lia. }
  apply incr_ext.
  - apply incr_app. split; [exact X1|]. split; [apply xor_uint16_incr; assumption|]. intros x y Hx Hy. apply xor_uint16_incl in Hy. rewrite LI in Hy.
    destruct Hy as [[[Hy _]|[_ Hy]]|Hy]; [apply X3; assumption|apply Vq; auto|apply Vq; auto].
  - apply xor_uint16_incr; assumption.
  - intros x. rewrite in_app_iff, !xor_uint16_In by assumption. rewrite !in_app_iff.
    assert (N1 : ~ (In x rA /\ In x uA)) by (intros [U1 U2]; specialize (A3 x x U1 U2); lia).
    assert (N2 : ~ (In x rB /\ In x uB)) by (intros [U1 U2]; specialize (B3 x x U1 U2); lia).
    assert (N3 : ~ (In x X /\ In x L0)) by (intros [U1 U2]; specialize (X3 x x U1 U2); lia).
    assert (N4 : In x X -> ~ In x uA /\ ~ In x uB).
    { intros U. split; intros U2; [specialize (Vq x x (HX x U) (or_introl U2))|specialize (Vq x x (HX x U) (or_intror U2))]; lia. }
    specialize (LI x). specialize (FI x). clear - LI FI N1 N2 N3 N4.
    destruct (in_dec Z.eq_dec x X), (in_dec Z.eq_dec x L0), (in_dec Z.eq_dec x uA), (in_dec Z.eq_dec x uB); try tauto;
      destruct (in_dec Z.eq_dec x rA), (in_dec Z.eq_dec x rB); tauto.
Qed.
Lemma xuniq_In l : forall p x y, In y (xuniq p (x :: l)) -> (x = p -> y <> x) -> In y (x :: l).
Proof.
  induction l as [|z l IH]; intros p x y H _; [destruct H|].
  change (xuniq p (x :: z :: l)) with (if (x =? p) || (x =? z) then xuniq x (z :: l) else x :: xuniq x (z :: l)) in H.
  destruct (Z.eq_dec y z) as [->|N]; [right; left; reflexivity|].
  destruct ((x =? p) || (x =? z)); [|destruct H as [<-|H]; [left; reflexivity|]]; right; eapply IH; eauto; congruence.
Qed.
Lemma em_In W y : In y (em W) -> In y W.
Proof.
  rewrite em_eq. destruct W as [|w W]; [intros []|].
  change (xuniq 65535 (65535 :: w :: W)) with (if (65535 =? 65535) || (65535 =? w) then xuniq 65535 (w :: W) else 65535 :: xuniq 65535 (w :: W)).
  change (65535 =? 65535) with true. cbn [orb]. intros H. destruct (Z.eq_dec y w) as [->|N]; [left; reflexivity|]. eapply xuniq_In; eauto.
Qed.
Lemma xv_finish_ok M0 p1 n1 p2 n2 po M pos1 pos2 mx old out W stk : uenv M0 p1 n1 p2 n2 po ->
  apart p1 n1 po (n1 + n2) -> apart p2 n2 po (n1 + n2) ->
  xinv M0 p1 n1 p2 n2 po M pos1 pos2 mx old out W -> pos1 = n1 / 8 ->
  inm M0 stk 17 -> apart stk 17 p1 n1 -> apart stk 17 p2 n2 -> apart stk 17 po (n1 + n2) ->
  exists M' k, xv_finish M stk old mx (p1 + 8 * pos1) (n1 - 8 * pos1) (p2 + 8 * pos2) (n2 - 8 * pos2) out = Some (M', k) /\
    same_out2 M0 M' po (po + n1 + n2) stk 17 /\ 0 <= k /\ out - po + k <= n1 + n2 /\
    win M' po (out - po + k) = xor_uint16 (win M0 p1 n1) (win M0 p2 n2).
Proof.
  intros HE D1 D2 HI HP (T1 & T2 & T3) Q1 Q2 Q3. unfold apart in *. pose proof HE as [I1 I2 E0 El C1 C2 Hi1 Hi2 Hb1 Hb2]. pose proof HI as [P1 P2 V Z0 Lm Lo La Sa Po Wo].
  assert (I1' := I1). assert (I2' := I2). destruct I1' as (A1 & A2 & A3), I2' as (B1 & B2 & B3). clear C1 C2.
  assert (Hm : 0 <= n1 - 8 * pos1 < 8) by (pose proof (Z.div_mod n1 8 ltac:(lia)); pose proof (Z.mod_pos_bound n1 8 ltac:(lia)); lia).
  assert (LM : zlen M = zlen M0) by apply Sa. pose proof (em_zlen W) as Uz. pose proof (zlen_nonneg (em W)).
  rewrite (win_split M0 p1 n1 (8 * pos1)) in Hi1, Hb1 |- * by (try assumption; lia).
  rewrite (win_split M0 p2 n2 (8 * pos2)) in Hi2 |- * by (try assumption; lia).
  apply Forall_app in Hb1. destruct Hb1 as [Hb1 _].
  pose proof (xinv_read _ _ _ _ _ _ _ _ _ _ _ _ _ (8 * pos1) (n1 - 8 * pos1) HE HI ltac:(lia) ltac:(lia) ltac:(lia)) as RT.
  pose proof (xinv_read _ _ _ _ _ _ _ _ _ _ _ _ _ (8 * pos2) (n2 - 8 * pos2) (uenv_sym _ _ _ _ _ _ HE) (xinv_sym _ _ _ _ _ _ _ _ _ _ _ _ _ HI) ltac:(lia) ltac:(lia) ltac:(lia)) as RR.
  assert (XS := em_all_xset _ _ _ _ _ _ _ _ V (proj1 (proj1 (incr_app _ _) Hi1)) ltac:(assert (zlen (win M0 p1 (8 * pos1)) = 8 * pos1) by (apply win_zlen; lia); unfold zlen in *; lia) Hb1 La Lm).
  unfold xv_finish. destruct (store_unique_xor_ok M old mx stk Lo Lm) as (M1 & R1 & S1 & W1 & K1); [lia|lia|]. rewrite R1. cbn [obind].
  set (L0a := xuniq (znth old 6) (znth old 7 :: mx)) in *. pose proof (zlen_nonneg L0a).
  set (L0 := L0a ++ (if znth mx 7 =? znth mx 6 then [] else [znth mx 7])) in *.
  assert (L1 : zlen M1 = zlen M) by apply S1.
  assert (STEP : exists M2, (if negb (znth mx 7 =? znth mx 6) then do M <- wr M1 (stk + zlen L0a) (znth mx 7); Some (M, zlen L0a + 1) else Some (M1, zlen L0a)) = Some (M2, zlen L0) /\
            same_out M M2 stk (stk + 17) /\ win M2 stk (zlen L0) = L0 /\ zlen L0 <= 9).
  { unfold L0. destruct (znth mx 7 =? znth mx 6); cbn [negb].
    - rewrite app_nil_r. exists M1. split; [reflexivity|]. split; [eapply same_weaken; [exact S1|lia|lia]|]. split; [exact W1|lia].
    - destruct (wr_ok M1 (stk + zlen L0a) (znth mx 7)) as (M2 & R2 & S2 & V2); [lia|]. rewrite R2. cbn [obind]. exists M2.
      rewrite zlen_app. change (zlen [znth mx 7]) with 1. assert (L2 : zlen M2 = zlen M1) by apply S2.
      split; [reflexivity|]. split; [eapply same_trans; [exact S1|exact S2|lia|lia|lia|lia]|]. split; [|lia].
      rewrite win_snoc by lia. rewrite V2. f_equal. rewrite <- W1 at 2. eapply same_win; [exact S2|lia|lia|lia|lia]. }
  destruct STEP as (M2 & R2 & S2 & W2 & K2). rewrite R2. cbn [obind]. clear R2 W1 R1. pose proof (zlen_nonneg L0).
  assert (L2 : zlen M2 = zlen M) by apply S2.
  destruct (memcpy_ok M2 (stk + zlen L0) (p1 + 8 * pos1) (n1 - 8 * pos1)) as (M3 & R3 & S3 & W3); try (split; lia); [unfold apart; lia|]. rewrite R3. cbn [obind].
  assert (L3 : zlen M3 = zlen M2) by apply S3.
  assert (ET : win M2 (p1 + 8 * pos1) (n1 - 8 * pos1) = win M0 (p1 + 8 * pos1) (n1 - 8 * pos1)) by (rewrite <- RT; eapply same_win; [exact S2|lia|lia|lia|lia]).
  rewrite ET in W3. set (T := win M0 (p1 + 8 * pos1) (n1 - 8 * pos1)) in *.
  assert (LT : zlen T = n1 - 8 * pos1) by (apply win_zlen; lia).
  assert (E3 : win M3 stk (zlen L0 + (n1 - 8 * pos1)) = L0 ++ T).
  { rewrite win_app by lia. rewrite W3. f_equal. rewrite <- W2 at 2. eapply same_win; [exact S3|lia|lia|lia|lia]. }
  assert (S13 : same_out M M3 stk (stk + 17)) by (eapply same_trans; [exact S2|exact S3|lia|lia|lia|lia]).
  assert (XL := xset_zlen _ _ XS). rewrite !zlen_app in XL. assert (zlen mx = 8) by (destruct Lm as [Lm _]; unfold zlen; lia).
  set (R := win M0 (p2 + 8 * pos2) (n2 - 8 * pos2)) in *.
  (* common end *)
  assert (FIN : forall M4 M5 L n, same_out M M4 stk (stk + 17) -> xset L (L0 ++ T) -> same_out M4 M5 out (po + n1 + n2) -> 0 <= n -> out - po + n <= n1 + n2 ->
    win M5 out n = xor_uint16 L R -> 
    same_out2 M0 M5 po (po + n1 + n2) stk 17 /\ 0 <= n /\ out - po + n <= n1 + n2 /\
    win M5 po (out - po + n) = xor_uint16 (win M0 p1 (8 * pos1) ++ T) (win M0 p2 (8 * pos2) ++ R)).
  { intros M4 M5 L n S4 XSL S5 Hn Hn2 W5. assert (L4 : zlen M4 = zlen M) by apply S4. assert (L5 : zlen M5 = zlen M4) by apply S5.
    split; [|split; [exact Hn|split; [exact Hn2|]]].
    - split; [lia|]. intros i Hi Ho Hk. destruct S5 as [_ S5]. rewrite S5 by lia. destruct S4 as [_ S4]. rewrite S4 by lia. apply Sa; lia.
    - rewrite win_app by lia. replace (po + (out - po)) with out by lia. rewrite W5.
      replace (win M5 po (out - po)) with (em W).
      2:{ replace (out - po) with (zlen (em W)) by lia. rewrite <- Wo at 1. transitivity (win M4 po (zlen (em W))); symmetry.
          - eapply same_win; [exact S4|lia|lia|lia|lia].
          - eapply same_win; [exact S5|lia|lia|lia|lia]. }
      eapply fin_xor; [exact V|exact Hi1|exact Hi2|exact XS|exact (em_In W)|exact XSL]. }
  destruct (Z.eqb_spec (zlen L0 + (n1 - 8 * pos1)) 0) as [Hz|Hz].
  - destruct (memcpy_ok M3 out (p2 + 8 * pos2) (n2 - 8 * pos2)) as (M5 & R5 & S5 & W5); try (split; lia); [unfold apart; lia|]. rewrite R5. cbn [obind].
    do 2 eexists. split; [reflexivity|]. eapply (FIN M3 M5 []); [exact S13| | |lia|lia|].
    + replace (L0 ++ T) with (@nil Z); [exact xset_nil|]. symmetry. rewrite <- E3, Hz. reflexivity.
    + eapply same_weaken; [exact S5|lia|lia].
    + rewrite xor_uint16_nil_l, W5. rewrite <- RR. eapply same_win; [exact S13|lia|lia|lia|lia].
  - rewrite ldn_ok by lia. cbn [obind]. rewrite E3.
    assert (Lsort : zlen (isort (L0 ++ T)) = zlen L0 + (n1 - 8 * pos1)).
    { unfold zlen at 1. rewrite (Permutation_length (isort_perm (L0 ++ T))). fold (zlen (L0 ++ T)). rewrite zlen_app. lia. }
    destruct (stn_ok M3 stk (isort (L0 ++ T))) as (M4 & R4 & S4 & W4); [lia|lia|]. rewrite R4. cbn [obind]. rewrite Lsort in S4, W4.
    assert (L4 : zlen M4 = zlen M3) by apply S4.
    assert (IL0 : incr L0) by (destruct XS as [XS _]; apply incr_app in XS; tauto).
    assert (IT : incr T) by (apply incr_app in Hi1; tauto).
    destruct (unique_xor_ok M4 stk (isort (L0 ++ T)) (zlen L0 + (n1 - 8 * pos1))) as (M5 & Y & R5 & S5 & XY & W5); [lia|lia|exact W4|exact Lsort|lia|apply isort_sle| |].
    { intros x. rewrite (proj1 (Permutation_count_occ Z.eq_dec _ _) (isort_perm _) x), count_occ_app. pose proof (incr_count L0 x IL0). pose proof (incr_count T x IT). lia. }
    rewrite R5. cbn [obind]. assert (L5 : zlen M5 = zlen M4) by apply S5.
    assert (XY' : xset Y (L0 ++ T)).
    { destruct XY as [Y1 Y2]. split; [exact Y1|]. intros x. rewrite Y2. rewrite (proj1 (Permutation_count_occ Z.eq_dec _ _) (isort_perm _) x). tauto. }
    assert (KY := xset_zlen _ _ XY'). rewrite zlen_app in KY. pose proof (zlen_nonneg Y).
    assert (SS : same_out M M5 stk (stk + 17)).
    { eapply same_trans; [|exact S5|apply Z.le_refl|lia|apply Z.le_refl|lia].
      eapply same_trans; [exact S13|exact S4|lia|lia|lia|lia]. }
    destruct (xor_uint16_mem_ok M5 stk (zlen Y) (p2 + 8 * pos2) (n2 - 8 * pos2) out) as (M6 & n & R6 & S6 & K6 & W6);
      try (split; lia); try (unfold apart; lia); try lia.
    exists M6, n. split; [exact R6|]. eapply (FIN M5 M6 Y n); [exact SS|exact XY'| |lia|lia|].
    + eapply same_weaken; [exact S6|lia|lia].
    + rewrite W6, W5. f_equal. rewrite <- RR. eapply same_win; [exact SS|lia|lia|lia|lia].
Qed.
Lemma xor_sym A B : incr A -> incr B -> xor_uint16 A B = xor_uint16 B A.
Proof. intros HA HB. apply incr_ext; try (apply xor_uint16_incr; assumption). intros x. rewrite !xor_uint16_In by assumption. tauto. Qed.
(** ** The theorem about xor_vector16 *)
Lemma xor_vector16_ok M p1 n1 p2 n2 po stk : uenv M p1 n1 p2 n2 po -> apart p1 n1 po (n1 + n2) -> apart p2 n2 po (n1 + n2) ->
  inm M stk 17 -> apart stk 17 p1 n1 -> apart stk 17 p2 n2 -> apart stk 17 po (n1 + n2) ->
  exists M' k, xor_vector16 M stk p1 n1 p2 n2 po = Some (M', k) /\
    same_out2 M M' po (po + n1 + n2) stk 17 /\ 0 <= k <= n1 + n2 /\ win M' po k = xor_uint16 (win M p1 n1) (win M p2 n2).
Proof.
  intros HE' D1 D2 HT Q1 Q2 Q3. unfold xor_vector16.
  pose proof HE' as [I1 I2 E0 El C1 C2 Hi1 Hi2 Hb1 Hb2].
  destruct ((n1 <? 8) || (n2 <? 8)) eqn:Hs.
  - destruct (xor_uint16_mem_ok M p1 n1 p2 n2 po I1 I2 E0 El D1 D2) as (M' & k & R & [L S1] & K & W). exists M', k. split; [exact R|].
    split; [split; [exact L|]; intros i Hi Hn _; apply S1; assumption|]. split; [exact K|exact W].
  - apply orb_false_iff in Hs. rewrite !Z.ltb_ge in Hs. assert (I1' := I1). assert (I2' := I2). destruct I1' as (A1 & A2 & A3), I2' as (B1 & B2 & B3).
    pose proof (Z.mul_div_le n1 8 ltac:(lia)). pose proof (Z.mul_div_le n2 8 ltac:(lia)).
    assert (1 <= n1 / 8) by (apply Z.div_le_lower_bound; lia). assert (1 <= n2 / 8) by (apply Z.div_le_lower_bound; lia).
    unfold ld8. rewrite !ldn_ok by lia. cbn [obind].
    assert (LA : lanes (win M p1 8)) by (replace p1 with (p1 + 0) by lia; apply (win_lanes M p1 n1); auto; lia).
    assert (LB : lanes (win M p2 8)) by (replace p2 with (p2 + 0) by lia; apply (win_lanes M p2 n2); auto; lia).
    set (s := sse_merge (win M p1 8) (win M p2 8)). rewrite (surjective_pairing s).
    assert (IA := Hi1). assert (IB := Hi2). rewrite (win_split M p1 n1 8) in IA by (try assumption; lia). rewrite (win_split M p2 n2 8) in IB by (try assumption; lia).
    pose proof (vinv_init _ _ _ _ (proj1 LA) (proj1 LB) IA IB) as V. fold s in V.
    destruct (merge_lanes (win M p1 8) (win M p2 8) LA LB) as [Ls1 Ls2]; [apply incr_sle; apply incr_app in IA; tauto|apply incr_sle; apply incr_app in IB; tauto|].
    fold s in Ls1, Ls2.
    destruct (store_unique_xor_ok M minus1v (fst s) po) as (M1 & R1 & S1 & W1 & K1); [exact lanes_minus1|exact Ls1|lia|lia|].
    change (znth minus1v 7) with 65535 in *. change (znth minus1v 6) with 65535 in *. rewrite <- em_eq in *. rewrite R1. cbn [obind].
    assert (HI : xinv M p1 n1 p2 n2 po M1 1 1 (snd s) (fst s) (po + zlen (em (fst s))) (fst s)).
    { constructor; auto; try lia.
      - destruct Ls1. unfold zlen. lia.
      - exact (tail2_lanes [] (fst s) Ls1). }
    assert (FIN : forall M2 pos1 pos2 mx old out W, xinv M p1 n1 p2 n2 po M2 pos1 pos2 mx old out W -> pos1 = n1 / 8 \/ pos1 < n1 / 8 /\ pos2 = n2 / 8 ->
      exists M' k, (do (M3, n) <- (if pos1 =? n1 / 8
         then xv_finish M2 stk old mx (p1 + 8 * pos1) (n1 - 8 * (n1 / 8)) (p2 + 8 * pos2) (n2 - 8 * pos2) out
         else xv_finish M2 stk old mx (p2 + 8 * pos2) (n2 - 8 * (n2 / 8)) (p1 + 8 * pos1) (n1 - 8 * pos1) out); Some (M3, out - po + n)) = Some (M', k) /\
        same_out2 M M' po (po + n1 + n2) stk 17 /\ 0 <= k <= n1 + n2 /\ win M' po k = xor_uint16 (win M p1 n1) (win M p2 n2)).
    { intros M2 pos1 pos2 mx old out W HI2 Hpos. assert (Po := xi_p _ _ _ _ _ _ _ _ _ _ _ _ _ HI2). pose proof (zlen_nonneg (em W)).
      destruct (Z.eqb_spec pos1 (n1 / 8)) as [E|E].
      - destruct (xv_finish_ok _ _ _ _ _ _ _ _ _ _ _ _ _ stk HE' D1 D2 HI2 E HT Q1 Q2 Q3) as (M' & k & R & P1 & P2 & P3 & P4).
        rewrite <- E, R. cbn [obind]. do 2 eexists. split; [reflexivity|]. split; [exact P1|]. split; [lia|exact P4].
      - assert (E2 : pos2 = n2 / 8) by lia.
        assert (Q3' : apart stk 17 po (n2 + n1)) by (unfold apart in *; lia).
        assert (D1' : apart p1 n1 po (n2 + n1)) by (unfold apart in *; lia). assert (D2' : apart p2 n2 po (n2 + n1)) by (unfold apart in *; lia).
        destruct (xv_finish_ok _ _ _ _ _ _ _ _ _ _ _ _ _ stk (uenv_sym _ _ _ _ _ _ HE') D2' D1' (xinv_sym _ _ _ _ _ _ _ _ _ _ _ _ _ HI2) E2 HT Q2 Q1 Q3') as (M' & k & R & P1 & P2 & P3 & P4).
        rewrite <- E2, R. cbn [obind]. do 2 eexists. split; [reflexivity|]. replace (po + n1 + n2) with (po + n2 + n1) by lia. split; [exact P1|]. split; [lia|].
        rewrite P4. apply xor_sym; assumption. }
    destruct ((1 <? n1 / 8) && (1 <? n2 / 8)) eqn:Hb.
    + apply andb_true_iff in Hb. rewrite !Z.ltb_lt in Hb. change (p1 + 8) with (p1 + 8 * 1). change (p2 + 8) with (p2 + 8 * 1).
      rewrite (xinv_rd _ _ _ _ _ _ _ _ _ _ _ _ _ (8 * 1) HE' HI) by lia. cbn [obind].
      rewrite (xinv_rd _ _ _ _ _ _ _ _ _ _ _ _ _ (8 * 1) (uenv_sym _ _ _ _ _ _ HE') (xinv_sym _ _ _ _ _ _ _ _ _ _ _ _ _ HI)) by lia. cbn [obind].
      destruct (xv_loop_ok _ _ _ _ _ _ HE' (Z.to_nat (n1 / 8 + n2 / 8)) M1 1 1 _ _ _ _ HI) as (M2 & q1 & q2 & V2 & mx2 & old2 & out2 & R2 & (M3 & k3 & W3 & R3 & HI3) & Hpos); [lia|lia|lia|].
      rewrite R2. cbn [obind]. rewrite (surjective_pairing (sse_merge V2 mx2)). rewrite R3. cbn [obind]. eapply FIN; [exact HI3|exact Hpos].
    + apply andb_false_iff in Hb. rewrite !Z.ltb_ge in Hb. cbn [obind]. eapply FIN; [exact HI|]. lia.
Qed.
