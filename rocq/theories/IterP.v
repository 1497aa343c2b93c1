(** IterP: the iterators follow the sorted sequence of members. *)
From Coq Require Import ZArith List Bool Lia.
From Verif Require Import Base ArrayUtil BitUtil BitsetC ArrayC RunC RunD Convert Containers RArray RBinary RPoint RRange RQuery Bytes Iter.
Import ListNotations.
Local Open Scope Z_scope.
Local Opaque zr.

Lemma nth_skipn' {A} n (l : list A) i d : nth i (skipn n l) d = nth (n + i) l d.
Proof. revert l. induction n; intros [|x l]; auto. destruct i; reflexivity. cbn [skipn Nat.add nth]. apply IHn. Qed.
Lemma nth_firstn' {A} n (l : list A) i d : (i < n)%nat -> nth i (firstn n l) d = nth i l d.
Proof. revert n l. induction i; intros [|n] [|x l] H; auto; try lia. cbn. apply IHi. lia. Qed.
(** * Scanning words *)
Lemma bitset_prev_loop_spec fuel ws k word x0 : wfw ws -> zlen ws = 1024 -> 0 <= k < 1024 -> k < Z.of_nat fuel -> isw word -> 64 * k <= x0 < 65536 ->
  (forall i, 0 <= i < 64 -> Z.testbit word i = bget ws (64*k+i) && (64*k+i <=? x0)) ->
  (forall x, 64*(k+1) <= x <= x0 -> bget ws x = false) ->
  let r := bitset_prev_loop fuel ws k word in
  (r = -1 /\ forall x, 0 <= x <= x0 -> bget ws x = false) \/
  (0 <= r <= x0 /\ bget ws r = true /\ forall x, r < x <= x0 -> bget ws x = false).
Proof.
  intros Hw Hl. revert k word. induction fuel; intros k word Hk Hf Hword Hx0 Hb Hp; [lia|].
  cbn [bitset_prev_loop]. destruct (Z.eqb_spec word 0).
  - assert (Hp' : forall x, 64*k <= x <= x0 -> bget ws x = false).
    { intros x Hx. destruct (Z_lt_dec x (64*(k+1))); [|apply Hp; lia].
      specialize (Hb (x - 64*k)). replace (64*k+(x-64*k)) with x in Hb by lia.
      rewrite e, Z.bits_0 in Hb. replace (x <=? x0) with true in Hb by lia. rewrite andb_true_r in Hb.
      symmetry. apply Hb. lia. }
    destruct (k - 1 <? 0) eqn:E.
    + left. split; auto. intros. apply Hp'. lia.
    + apply IHfuel; [lia|lia|now apply wfw_znth|lia| |].
      * intros i Hi. replace (64*(k-1)+i <=? x0) with true by lia. 
        rewrite andb_true_r. unfold bget. replace ((64*(k-1)+i)/64) with (k-1) by dm.
        replace ((64*(k-1)+i) mod 64) with i by dm. reflexivity.
      * intros x Hx. apply Hp'. lia.
  - right. destruct (clz_spec word Hword n) as (A&B&C). cbn zeta in *. set (m := 63 - clz word) in *. rewrite Hb in B by lia.
    apply andb_prop in B. replace (k*64 + m) with (64*k + m) by lia.
    split; [lia|]. split; [tauto|]. intros x Hx.
    destruct (Z_lt_dec x (64*(k+1))); [|apply Hp; lia].
    specialize (C (x - 64*k)). rewrite Hb in C by lia. replace (64*k+(x-64*k)) with x in C by lia.
    replace (x <=? x0) with true in C by lia. rewrite andb_true_r in C. apply C. lia.
Qed.
(** what remains to be scanned at word [k] with the bits [word] left in it *)
Definition rem (ws : list Z) (k word : Z) : list Z := map (fun b => k * 64 + b) (bits word) ++ filter (bget ws) (zr (64 * (k + 1)) 65536).
Lemma rem_nil ws k : 1023 <= k -> rem ws k 0 = [].
Proof. intros. unfold rem. rewrite (proj2 (bits_nil 0 isw_0) eq_refl). cbn [map app]. rewrite zr_nil by lia. reflexivity. Qed.
Lemma rem_cons ws k w : isw w -> w <> 0 -> rem ws k w = (k * 64 + ctz w) :: rem ws k (Z.land w (w - 1)).
Proof. intros. unfold rem. rewrite (bits_land_pred w) by auto. reflexivity. Qed.
Lemma rem_word ws k : 0 <= k -> rem ws k (znth ws k) = filter (bget ws) (zr (64 * k) (64 * (k + 1))) ++ filter (bget ws) (zr (64 * (k + 1)) 65536).
Proof.
  intros K. unfold rem. f_equal. unfold bits. replace (64 * (k + 1)) with (64 * k + 64) by lia. replace (zr (64 * k) (64 * k + 64)) with (map (fun b => k * 64 + b) (zr 0 64)).
  2:{ rewrite zr_map_add. f_equal; lia. }
  rewrite filter_map_comm. f_equal. apply filter_ext_In. intros i Hi. apply zr_In in Hi. unfold bget. replace ((k * 64 + i) / 64) with k by dm. now replace ((k * 64 + i) mod 64) with i by dm.
Qed.
Lemma rem_next ws k : 0 <= k < 1023 -> rem ws k 0 = rem ws (k + 1) (znth ws (k + 1)).
Proof.
  intros K. rewrite rem_word by lia. rewrite <- filter_app, <- zr_app by lia. unfold rem. rewrite (proj2 (bits_nil 0 isw_0) eq_refl). reflexivity.
Qed.
Lemma rem_mask ws i : 0 <= i < 65536 -> rem ws (i / 64) (Z.land (znth ws (i / 64)) (shl64 ones64 (i mod 64))) = filter (bget ws) (zr i 65536).
Proof.
  intros I. rewrite (zr_app i (64 * (i / 64 + 1)) 65536) by dm. rewrite filter_app. unfold rem. f_equal. unfold bits.
  set (k := i / 64) in *. assert (K : 64 * k <= i < 64 * k + 64) by (subst k; dm). assert (IM : i mod 64 = i - 64 * k) by (subst k; dm). 
  transitivity (map (fun b => k * 64 + b) (filter (fun b => bget ws (k * 64 + b)) (zr (i mod 64) 64))).
  - f_equal. rewrite (zr_app 0 (i mod 64) 64) by dm. rewrite filter_app. rewrite filter_none.
    + cbn [app]. apply filter_ext_In. intros b Hb. apply zr_In in Hb. rewrite Z.land_spec, tb_mask_hi by dm. replace (i mod 64 <=? b) with true by lia. rewrite andb_true_r.
      unfold bget. replace ((k * 64 + b) / 64) with k by dm. now replace ((k * 64 + b) mod 64) with b by dm.
    + intros b Hb. apply zr_In in Hb. rewrite Z.land_spec, tb_mask_hi by dm. replace (i mod 64 <=? b) with false by lia. apply andb_false_r.
  - rewrite <- filter_map_comm with (f := fun b => k * 64 + b) (p := bget ws). f_equal. rewrite zr_map_add. f_equal; lia.
Qed.
Lemma hamming_pred w : isw w -> w <> 0 -> hamming w = hamming (Z.land w (w - 1)) + 1.
Proof. intros. unfold hamming. rewrite (bits_land_pred w) by auto. apply zlen_cons. Qed.
Local Opaque rem hamming isw.
Lemma drain_spec fuel : forall k w n out w' n', isw w -> hamming w <= Z.of_nat fuel -> 0 <= n -> drain fuel k w n = (out, w', n') ->
  isw w' /\ 0 <= n' /\ n' = n - zlen out /\ (w' = 0 \/ n' = 0) /\ (forall ws, rem ws k w = out ++ rem ws k w').
Proof.
  induction fuel as [|f IH]; intros k w n out w' n' Hw Hh Hn E; cbn [drain] in E.
  - injection E as <- <- <-. change (zlen (@nil Z)) with 0. split; [exact Hw|]. split; [lia|]. split; [lia|]. split; [|reflexivity]. left. apply hamming_0; auto. pose proof (hamming_bound w). lia.
  - destruct (Z.eqb_spec w 0) as [Z0|Z0]; cbn [negb andb] in E.
    + injection E as <- <- <-. change (zlen (@nil Z)) with 0. split; [exact Hw|]. split; [lia|]. split; [lia|]. split; [now left|reflexivity].
    + destruct (Z.ltb_spec 0 n) as [L|L].
      * destruct (drain f k (Z.land w (w - 1)) (n - 1)) as [[o w1] n1] eqn:E1. injection E as <- <- <-.
        apply IH in E1 as (A&B&C&D&R); [|now apply isw_land| |lia].
        2:{ rewrite hamming_pred in Hh by auto. lia. }
        rewrite zlen_cons. split; [exact A|]. split; [lia|]. split; [lia|]. split; [exact D|]. intros ws. rewrite rem_cons by auto. now rewrite R.
      * injection E as <- <- <-. change (zlen (@nil Z)) with 0. split; [exact Hw|]. split; [lia|]. split; [lia|]. split; [right; lia|reflexivity].
Qed.
Lemma skip_zero_spec ws fuel : wfw ws -> forall k w k' w', isw w -> 0 <= k < 1024 -> 1023 - k <= Z.of_nat fuel -> skip_zero fuel ws k w = (k', w') ->
  isw w' /\ k <= k' < 1024 /\ rem ws k w = rem ws k' w' /\ (w' = 0 -> k' = 1023) /\ (w = 0 -> w' <> 0 -> k < k').
Proof.
  intros Hw. induction fuel as [|f IH]; intros k w k' w' W K F E; cbn [skip_zero] in E.
  - injection E as <- <-. split; [exact W|]. split; [lia|]. split; [reflexivity|]. split; [lia|congruence].
  - destruct (Z.eqb_spec w 0) as [Z0|Z0]; cbn [andb] in E.
    + destruct (Z.ltb_spec (k + 1) 1024) as [L|L].
      * apply IH in E as (A&B&C&D&G); try lia; [|now apply wfw_znth]. split; [exact A|]. split; [lia|]. split; [subst w; now rewrite rem_next by lia|]. split; [exact D|lia].
      * injection E as <- <-. split; [exact W|]. split; [lia|]. split; [reflexivity|]. split; [lia|congruence].
    + injection E as <- <-. split; [exact W|]. split; [lia|]. split; [reflexivity|]. split; [congruence|congruence].
Qed.
Lemma drain64_spec k w n out w' n' : isw w -> 0 <= n -> drain 64 k w n = (out, w', n') ->
  isw w' /\ 0 <= n' /\ n' = n - zlen out /\ (w' = 0 \/ n' = 0) /\ (forall ws, rem ws k w = out ++ rem ws k w').
Proof. intros W N E. apply (drain_spec 64 k w n out w' n'); auto. pose proof (hamming_bound w). lia. Qed.
Lemma skip1024_spec ws k w k' w' : wfw ws -> isw w -> 0 <= k < 1024 -> skip_zero 1024 ws k w = (k', w') ->
  isw w' /\ k <= k' < 1024 /\ rem ws k w = rem ws k' w' /\ (w' = 0 -> k' = 1023) /\ (w = 0 -> w' <> 0 -> k < k').
Proof. intros Hw W K E. apply (skip_zero_spec ws 1024 Hw k w k' w'); auto. lia. Qed.
Lemma read_bits_step f ws k w n : read_bits (S f) ws k w n =
    let '(out, w, n) := drain 64 k w n in
    let '(k', w') := skip_zero 1024 ws k w in
    if negb (w' =? 0) && (0 <? n) then let '(out', k'', w'') := read_bits f ws k' w' n in (out ++ out', k'', w'')
    else (out, k', w').
Proof. reflexivity. Qed.
Local Opaque drain skip_zero.
Lemma read_bits_spec ws : wfw ws -> forall fuel k w n out k' w', isw w -> 0 <= k < 1024 -> 1024 - k <= Z.of_nat fuel -> 0 < n -> read_bits fuel ws k w n = (out, k', w') ->
  isw w' /\ 0 <= k' < 1024 /\ rem ws k w = out ++ rem ws k' w' /\ (w' = 0 -> rem ws k' w' = [] /\ zlen out <= n) /\ (w' <> 0 -> zlen out = n).
Proof.
  intros Hw. induction fuel as [|f IH]; intros k w n out k' w' W K F N E; [lia|]. rewrite read_bits_step in E.
  destruct (drain 64 k w n) as [[o w1] n1] eqn:E1. apply drain64_spec in E1 as (W1&N1&N2&D1&R1); [|exact W|lia].
  destruct (skip_zero 1024 ws k w1) as [k2 w2] eqn:E2. apply skip1024_spec in E2 as (W2&K2&R2&Z2&G2); [|exact Hw|exact W1|lia].
  destruct (Z.eqb_spec w2 0) as [Z0|Z0]; cbn [negb andb] in E.
  - injection E as <- <- <-. split; [exact W2|]. split; [lia|]. split; [now rewrite R1, R2|]. split; [|congruence]. intros _. split; [subst w2; apply rem_nil; lia|lia].
  - destruct (Z.ltb_spec 0 n1) as [L|L].
    + destruct (read_bits f ws k2 w2 n1) as [[o' k3] w3] eqn:E3. injection E as <- <- <-. assert (w1 = 0) by lia. specialize (G2 H Z0).
      apply IH in E3 as (A&B&C&D&G); [|exact W2|lia|lia|lia].
      rewrite zlen_app. split; [exact A|]. split; [lia|]. split; [rewrite R1, R2, C; now rewrite app_assoc|]. split; intros H'; [apply D in H' as [H' H'']; split; [exact H'|lia]|apply G in H'; lia].
    + injection E as <- <- <-. split; [exact W2|]. split; [lia|]. split; [now rewrite R1, R2|]. split; [congruence|]. intros _. lia.
Qed.

(** * Container iterators *)
(** the iterator state (i, v) points at the member v of c *)
Definition cat (c : container) (i v : Z) : Prop :=
  0 <= v < 65536 /\ cmem c v = true /\
  match c with
  | CBit _ => i = v
  | CArr a => 0 <= i < zlen a /\ znth a i = v
  | CRun r => exists A s l B, r = A ++ (s, l) :: B /\ i = zlen A /\ s <= v <= s + l
  end.
Lemma rget_mid A (x : run) B i : i = zlen A -> rget (A ++ x :: B) i = Some x.
Proof.
  intros ->. unfold rget. rewrite zlen_app, zlen_cons. pose proof (zlen_nonneg A). pose proof (zlen_nonneg B).
  rewrite (proj2 (Z.leb_le 0 (zlen A))), (proj2 (Z.ltb_lt _ _)) by lia. cbn [andb]. now rewrite RunC.rnth_mid.
Qed.
Lemma cinit c : cok c -> exists i v, container_init_iterator c = Some (i, v) /\ cat c i v /\ forall x, 0 <= x < v -> cmem c x = false.
Proof.
  intros D. pose proof (cok_cne c D) as N. destruct c as [a|b|r]; cbn [cok container_init_iterator] in *; unfold cat; cbn [cmem] in *.
  - destruct D as [[I B] L]. destruct a as [|x a]; [change (zlen (@nil Z)) with 0 in L; lia|]. rewrite zlen_cons in *. pose proof (zlen_nonneg a). rewrite (proj2 (Z.ltb_lt 0 _)) by lia. rewrite znth_cons_0.
    exists 0, x. apply inb_cons in B as [B _]. split; auto. split.
    + split; auto. split; [apply zmem_In; now left|]. split; [lia|reflexivity].
    + intros y Hy. apply zmem_nIn. intros [->|IH]; [lia|]. pose proof (incr_head _ _ _ I IH). lia.
  - destruct D as [[[W L] _] _]. destruct (bitset_next_loop_spec 1024 (b_words b) 0 (znth (b_words b) 0) 0 W L) as [[E F]|(E&F&G)]; try lia.
    + now apply wfw_znth.
    + intros i Hi. replace (0 <=? 64 * 0 + i) with true by lia. rewrite andb_true_r. unfold bget. replace ((64 * 0 + i) / 64) with 0 by dm. now replace ((64 * 0 + i) mod 64) with i by dm.
    + destruct N as (x&Hx&Hx'). cbn in Hx'. rewrite F in Hx' by lia. discriminate.
    + set (j := bitset_next_loop 1024 (b_words b) 0 (znth (b_words b) 0)) in *. clearbody j. rewrite (proj2 (Z.eqb_neq j (-1))) by lia. exists j, (u16 j). rewrite u16_small by lia. repeat split; auto; lia.
  - destruct D as [W NE]. destruct r as [|[s l] r]; [easy|]. assert (RG : rget ((s, l) :: r) 0 = Some (s, l)) by exact (rget_mid [] (s, l) r 0 eq_refl). rewrite RG. cbn [fst]. exists 0, s. cbn [rok] in W. unfold rwf in W. cbn [rok] in W. 
    split; auto. split.
    + split; [lia|]. split; [rewrite rmem_cons; apply orb_true_iff; left; unfold inrun; cbn [fst snd]; apply andb_true_iff; split; apply Z.leb_le; lia|].
      exists [], s, l, r. repeat split; auto; lia.
    + intros x Hx. apply (rmem_lo s); [|lia]. cbn [rok]. intuition lia.
Qed.
Lemma cinit_last c : cok c -> exists i v, container_init_iterator_last c = Some (i, v) /\ cat c i v /\ forall x, v < x < 65536 -> cmem c x = false.
Proof.
  intros D. pose proof (cok_cne c D) as N. destruct c as [a|b|r]; cbn [cok container_init_iterator_last] in *; unfold cat; cbn [cmem] in *.
  - destruct D as [[I B] L]. rewrite (proj2 (Z.ltb_lt 0 _)) by lia.
    exists (zlen a - 1), (znth a (zlen a - 1)). pose proof (znth_In a (zlen a - 1) ltac:(lia)) as IN. pose proof (inb_In _ _ _ _ B IN). split; auto. split.
    + split; auto. split; [now apply zmem_In|]. split; [lia|reflexivity].
    + intros y Hy. apply zmem_nIn. intros H'. apply In_znth in H' as (j&J&<-). pose proof (incr_znth_le a j (zlen a - 1) I ltac:(lia) ltac:(lia) ltac:(lia)). lia.
  - destruct D as [[[W L] _] _]. destruct (bitset_prev_loop_spec 1024 (b_words b) 1023 (znth (b_words b) 1023) 65535 W L) as [[E F]|(E&F&G)]; try lia.
    + now apply wfw_znth.
    + intros i Hi. replace (64 * 1023 + i <=? 65535) with true by lia. rewrite andb_true_r. unfold bget. replace ((64 * 1023 + i) / 64) with 1023 by dm. now replace ((64 * 1023 + i) mod 64) with i by dm.
    + destruct N as (x&Hx&Hx'). cbn in Hx'. rewrite F in Hx' by lia. discriminate.
    + set (j := bitset_prev_loop 1024 (b_words b) 1023 (znth (b_words b) 1023)) in *. clearbody j. rewrite (proj2 (Z.eqb_neq j (-1))) by lia. exists j, (u16 j). rewrite u16_small by lia. split; [reflexivity|]. split; [repeat split; auto; lia|].
      intros x Hx. apply G. lia.
  - destruct D as [W NE]. destruct (snoc_cases r) as [->|(A&[s l]&->)]; [easy|]. rewrite zlen_app. change (zlen [(s, l)]) with 1. rewrite (rget_mid A (s, l) []) by lia. cbn [fst snd].
    unfold rwf in W. pose proof W as W'. apply rok_app in W' as [W1 W2]. cbn [rok] in W2. pose proof (rnext_ge _ _ W1). rewrite u16_small by lia. exists (zlen A + 1 - 1), (s + l). split; auto. split.
    + split; [lia|]. split; [apply rmem_In; exists s, l; split; [apply in_or_app; right; now left|lia]|].
      exists A, s, l, []. repeat split; auto; lia.
    + intros x Hx. rewrite rmem_app, rmem_cons, rmem_nil, orb_false_r. apply orb_false_iff. split.
      * apply (rmem_hi 0); auto; lia.
      * unfold inrun. cbn [fst snd]. apply andb_false_iff. right. apply Z.leb_gt. lia.
Qed.
Lemma amid a i v x : incr a -> 0 <= i < zlen a -> znth a i = v -> amem a x = true -> v < x -> i + 1 < zlen a /\ znth a (i + 1) <= x.
Proof.
  intros I L E M G. apply zmem_In, In_znth in M as (j&J&<-). assert (i < j). { destruct (Z_lt_le_dec i j); auto. pose proof (incr_znth_le a j i I ltac:(lia) ltac:(lia) ltac:(lia)). lia. }
  split; [lia|]. apply incr_znth_le; auto; lia.
Qed.
Lemma amid' a i v x : incr a -> 0 <= i < zlen a -> znth a i = v -> amem a x = true -> x < v -> 0 <= i - 1 /\ x <= znth a (i - 1).
Proof.
  intros I L E M G. apply zmem_In, In_znth in M as (j&J&<-). assert (j < i). { destruct (Z_lt_le_dec j i); auto. pose proof (incr_znth_le a i j I ltac:(lia) ltac:(lia) ltac:(lia)). lia. }
  split; [lia|]. apply incr_znth_le; auto; lia.
Qed.
Lemma cnext c i v : cok c -> cat c i v ->
  (exists i' v', container_iterator_next c i v = Some (true, i', v') /\ cat c i' v' /\ v < v' /\ forall x, v < x < v' -> cmem c x = false) \/
  (exists i' v', container_iterator_next c i v = Some (false, i', v') /\ forall x, v < x < 65536 -> cmem c x = false).
Proof.
  intros D (V&M&H). destruct c as [a|b|r]; cbn [cok container_iterator_next] in *; unfold cat; cbn [cmem] in *.
  - destruct D as [[I B] L]. destruct H as [H1 H2]. destruct (Z.ltb_spec (i + 1) (zlen a)) as [Q|Q].
    + left. rewrite (proj2 (Z.leb_le 0 (i + 1))) by lia. exists (i + 1), (znth a (i + 1)). pose proof (znth_In a (i + 1) ltac:(lia)) as IN. pose proof (inb_In _ _ _ _ B IN).
      pose proof (incr_znth a i (i + 1) I ltac:(lia) ltac:(lia) ltac:(lia)). split; auto. split; [split; auto; split; [now apply zmem_In|auto with zarith]|]. split; [lia|].
      intros x Hx. destruct (amem a x) eqn:X; auto. apply (amid a i v) in X; auto; lia.
    + right. eexists _, _. split; [reflexivity|]. intros x Hx. destruct (amem a x) eqn:X; auto. apply (amid a i v) in X; auto; lia.
  - subst i. destruct D as [[[W L] _] _]. rewrite (proj2 (Z.ltb_ge (v + 1) 0)) by lia. destruct (Z.leb_spec 1024 ((v + 1) / 64)) as [Q|Q].
    + right. eexists _, _. split; [reflexivity|]. intros x Hx. assert (v + 1 >= 65536) by dm. lia.
    + set (k := (v + 1) / 64) in *. assert (K : 64 * k <= v + 1 < 64 * k + 64) by (subst k; dm). assert (IM : (v + 1) mod 64 = v + 1 - 64 * k) by (subst k; dm). rewrite IM.
      destruct (bitset_next_loop_spec 1024 (b_words b) k (Z.land (znth (b_words b) k) (shl64 ones64 (v + 1 - 64 * k))) (v + 1) W L) as [[E F]|(E&F&G)]; try lia.
      * apply isw_land, wfw_znth; auto.
      * intros j J. rewrite Z.land_spec, tb_mask_hi by lia. unfold bget. replace ((64 * k + j) / 64) with k by dm. replace ((64 * k + j) mod 64) with j by dm. f_equal.
        apply eq_true_iff_eq. rewrite !Z.leb_le. lia.
      * right. rewrite E. change (-1 =? -1) with true. cbv iota. eexists _, _. split; [reflexivity|]. intros x Hx. apply F. lia.
      * left. set (j := bitset_next_loop _ _ _ _) in *. clearbody j. rewrite (proj2 (Z.eqb_neq j (-1))) by lia. exists j, (u16 j). rewrite u16_small by lia. split; [reflexivity|]. split; [repeat split; auto; lia|]. split; [lia|]. intros x Hx. apply G. lia.
  - destruct H as (A&s&l&B&->&->&S). destruct D as [W NE]. unfold rwf in W. pose proof W as W'. apply rok_app in W' as [W1 W2]. cbn [rok] in W2. destruct W2 as (W2&W3&W4&W5).
    pose proof (rnext_ge _ _ W1) as G0.
    assert (HA : forall x, s <= x -> rmem A x = false). { intros x Hx. apply (rmem_hi 0); auto; lia. }
    destruct (Z.eqb_spec v 65535) as [E|E]; [right; eexists _, _; split; [reflexivity|]; intros; lia|]. rewrite rget_mid by reflexivity. cbn [fst snd].
    destruct (Z.ltb_spec v (s + l)) as [Q|Q].
    + left. exists (zlen A), (u16 (v + 1)). rewrite u16_small by lia. split; auto. split; [|split; [lia|intros; lia]]. split; [lia|]. split; [|exists A, s, l, B; repeat split; auto; lia].
      apply rmem_In. exists s, l. split; [apply in_or_app; right; now left|lia].
    + destruct B as [|[s2 l2] B].
      * right. rewrite zlen_app. change (zlen [(s, l)]) with 1. rewrite (proj2 (Z.ltb_ge (zlen A + 1) (zlen A + 1))) by lia. eexists _, _. split; [reflexivity|].
        intros x Hx. rewrite rmem_app, rmem_cons, rmem_nil, HA by lia. unfold inrun. cbn [fst snd orb]. rewrite orb_false_r. apply andb_false_iff. right. apply Z.leb_gt. lia.
      * left. rewrite zlen_app, !zlen_cons. pose proof (zlen_nonneg B). rewrite (proj2 (Z.ltb_lt (zlen A + 1) _)) by lia.
        change (A ++ (s, l) :: (s2, l2) :: B) with (A ++ [(s, l)] ++ (s2, l2) :: B). rewrite app_assoc. rewrite rget_mid by (rewrite zlen_app; reflexivity). cbn [fst].
        exists (zlen A + 1), s2. split; auto. cbn [rok] in W5. destruct W5 as (W5&W6&W7&W8). split; [split; [lia|split]|split; [lia|]].
        -- apply rmem_In. exists s2, l2. split; [apply in_or_app; right; now left|lia].
        -- exists (A ++ [(s, l)]), s2, l2, B. rewrite zlen_app. change (zlen [(s, l)]) with 1. repeat split; auto; lia.
        -- intros x Hx. rewrite <- app_assoc. cbn [app]. rewrite rmem_app, rmem_cons, HA by lia. unfold inrun. cbn [fst snd orb]. rewrite (proj2 (Z.leb_gt x (s + l))) by lia. rewrite andb_false_r. cbn [orb].
           apply (rmem_lo s2); [|lia]. cbn [rok]. intuition lia.
Qed.
Lemma cprev c i v : cok c -> cat c i v ->
  (exists i' v', container_iterator_prev c i v = Some (true, i', v') /\ cat c i' v' /\ v' < v /\ forall x, v' < x < v -> cmem c x = false) \/
  (exists i' v', container_iterator_prev c i v = Some (false, i', v') /\ forall x, 0 <= x < v -> cmem c x = false).
Proof.
  intros D (V&M&H). destruct c as [a|b|r]; cbn [cok container_iterator_prev] in *; unfold cat; cbn [cmem] in *.
  - destruct D as [[I B] L]. destruct H as [H1 H2]. destruct (Z.ltb_spec (i - 1) 0) as [Q|Q].
    + right. eexists _, _. split; [reflexivity|]. intros x Hx. destruct (amem a x) eqn:X; auto. apply (amid' a i v) in X; auto; lia.
    + left. rewrite (proj2 (Z.ltb_lt (i - 1) (zlen a))) by lia. exists (i - 1), (znth a (i - 1)). pose proof (znth_In a (i - 1) ltac:(lia)) as IN. pose proof (inb_In _ _ _ _ B IN).
      pose proof (incr_znth a (i - 1) i I ltac:(lia) ltac:(lia) ltac:(lia)). split; auto. split; [split; auto; split; [now apply zmem_In|auto with zarith]|]. split; [lia|].
      intros x Hx. destruct (amem a x) eqn:X; auto. apply (amid' a i v) in X; auto; lia.
  - subst i. destruct D as [[[W L] _] _]. destruct (Z.ltb_spec (v - 1) 0) as [Q|Q].
    + right. eexists _, _. split; [reflexivity|]. intros x Hx. lia.
    + rewrite (proj2 (Z.leb_gt 65536 (v - 1))) by lia. set (k := (v - 1) / 64) in *. assert (K : 64 * k <= v - 1 < 64 * k + 64) by (subst k; dm). assert (IM : (v - 1) mod 64 = v - 1 - 64 * k) by (subst k; dm). rewrite IM.
      destruct (bitset_prev_loop_spec 1024 (b_words b) k (Z.land (znth (b_words b) k) (shr64 ones64 (63 - (v - 1 - 64 * k)))) (v - 1) W L) as [[E F]|(E&F&G)]; try lia.
      * apply isw_land, wfw_znth; auto.
      * intros j J. rewrite Z.land_spec, tb_mask_lo by lia. unfold bget. replace ((64 * k + j) / 64) with k by dm. replace ((64 * k + j) mod 64) with j by dm. f_equal.
        apply eq_true_iff_eq. rewrite Z.leb_le, Z.ltb_lt. lia.
      * right. rewrite E. change (-1 =? -1) with true. cbv iota. eexists _, _. split; [reflexivity|]. intros x Hx. apply F. lia.
      * left. set (j := bitset_prev_loop _ _ _ _) in *. clearbody j. rewrite (proj2 (Z.eqb_neq j (-1))) by lia. exists j, (u16 j). rewrite u16_small by lia. split; [reflexivity|]. split; [repeat split; auto; lia|]. split; [lia|]. intros x Hx. apply G. lia.
  - destruct H as (A&s&l&B&->&->&S). destruct D as [W NE]. unfold rwf in W. pose proof W as W'. apply rok_app in W' as [W1 W2]. cbn [rok] in W2. destruct W2 as (W2&W3&W4&W5).
    pose proof (rnext_ge _ _ W1) as G0.
    assert (HB : forall x, x < s -> inrun (s, l) x = false /\ rmem B x = false).
    { intros x Hx. split; [unfold inrun; cbn [fst snd]; apply andb_false_iff; left; apply Z.leb_gt; lia|]. apply (rmem_lo (s + l + 2)); auto. lia. }
    destruct (Z.eqb_spec v 0) as [E|E]; [right; eexists _, _; split; [reflexivity|]; intros; lia|]. rewrite rget_mid by reflexivity. cbn [fst snd]. rewrite (u16_small (v - 1)) by lia.
    destruct (Z.leb_spec s (v - 1)) as [Q|Q].
    + left. exists (zlen A), (v - 1). split; auto. split; [|split; [lia|intros; lia]]. split; [lia|]. split; [|exists A, s, l, B; repeat split; auto; lia].
      apply rmem_In. exists s, l. split; [apply in_or_app; right; now left|lia].
    + destruct (snoc_cases A) as [->|(A'&[s2 l2]&->)].
      * right. change (zlen (@nil run)) with 0. change (0 - 1 <? 0) with true. cbv iota. eexists _, _. split; [reflexivity|].
        intros x Hx. cbn [app]. rewrite rmem_cons. destruct (HB x ltac:(lia)) as [-> ->]. reflexivity.
      * left. rewrite zlen_app. change (zlen [(s2, l2)]) with 1. pose proof (zlen_nonneg A'). rewrite (proj2 (Z.ltb_ge (zlen A' + 1 - 1) 0)) by lia.
        rewrite <- app_assoc. cbn [app]. rewrite rget_mid by lia. cbn [fst snd]. apply rok_app in W1 as [W1 W6]. cbn [rok] in W6. pose proof (rnext_ge _ _ W1). rewrite rnext_app in W2. cbn [rnext] in W2.
        rewrite u16_small by lia. exists (zlen A' + 1 - 1), (s2 + l2). split; auto. split; [split; [lia|split]|split; [lia|]].
        -- apply rmem_In. exists s2, l2. split; [apply in_or_app; right; now left|lia].
        -- exists A', s2, l2, ((s, l) :: B). repeat split; auto; lia.
        -- intros x Hx. rewrite rmem_app, !rmem_cons. destruct (HB x ltac:(lia)) as [-> ->]. rewrite (rmem_hi 0 A') by (auto; lia). cbn [orb]. rewrite orb_false_r.
           unfold inrun. cbn [fst snd]. apply andb_false_iff. right. apply Z.leb_gt. lia.
Qed.
Lemma clower c i v x : cok c -> 0 <= x < 65536 ->
  (container_iterator_lower_bound c i v x = Some (false, i, v) /\ container_maximum c < x /\ forall y, x <= y < 65536 -> cmem c y = false) \/
  (exists i' v', container_iterator_lower_bound c i v x = Some (true, i', v') /\ cat c i' v' /\ x <= v' /\ forall y, x <= y < v' -> cmem c y = false).
Proof.
  intros D X. destruct (container_maximum_spec c D) as (M1&M2&M3). cbn zeta in *. unfold container_iterator_lower_bound. set (m := container_maximum c) in *. clearbody m.
  destruct (Z.ltb_spec m x) as [Q|Q].
  - left. split; auto. split; auto. intros y Y. destruct (cmem c y) eqn:E; auto. apply M3 in E; lia.
  - right. unfold cat. destruct c as [a|b|r]; cbn [cok cmem] in *.
    + destruct D as [[I B] L]. rewrite array_index_eol_spec by (split; auto). pose proof (lb_bound a x). assert (LB : lb a x < zlen a).
      { destruct (Z_lt_le_dec (lb a x) (zlen a)); auto. apply zmem_In, In_znth in M2 as (j&J&J2). assert (zlen a = lb a x) by lia. pose proof (lb_lt a x j I ltac:(lia)). lia. }
      rewrite (proj2 (Z.ltb_lt (lb a x) (zlen a))) by lia. rewrite (proj2 (Z.leb_le 0 (lb a x))), (proj2 (Z.ltb_lt (lb a x) (zlen a))) by lia. cbn [andb].
      exists (lb a x), (znth a (lb a x)). pose proof (znth_In a (lb a x) ltac:(lia)) as IN. pose proof (inb_In _ _ _ _ B IN). pose proof (lb_ge a x (lb a x) I ltac:(lia)).
      split; auto. split; [split; auto; split; [now apply zmem_In|auto with zarith]|]. split; auto.
      intros y Y. apply zmem_nIn. intros IY. apply In_znth in IY as (j&J&<-). destruct (Z_lt_le_dec j (lb a x)) as [Z1|Z1].
      * pose proof (lb_lt a x j I ltac:(lia)). lia.
      * pose proof (incr_znth_le a (lb a x) j I ltac:(lia) ltac:(lia) ltac:(lia)). lia.
    + destruct D as [[BW _] _]. destruct (bitset_index_eol_spec b x BW X) as [[E F]|(E&F&G)].
      * rewrite F in M2 by lia. discriminate.
      * set (j := bitset_container_index_equalorlarger b x) in *. clearbody j. exists j, (u16 j). rewrite u16_small by lia. repeat split; auto; lia.
    + destruct D as [W NE]. destruct (run_index_eol_spec r x W X) as [[E F]|(A&s&l&B&ER&EI&G&HA)].
      * rewrite F in M2 by lia. discriminate.
      * set (j := run_container_index_equalorlarger r x) in *. clearbody j. subst j r. rewrite rget_mid by reflexivity. cbn [fst]. unfold rwf in W. pose proof W as W'. apply rok_app in W' as [W1 W2]. cbn [rok] in W2.
        pose proof (rnext_ge _ _ W1). set (v' := if s <=? x then x else s). assert (V' : s <= v' <= s + l /\ x <= v' /\ (v' = x \/ v' = s)). { unfold v'. destruct (Z.leb_spec s x); lia. } clearbody v'.
        exists (zlen A), v'. split; auto. split; [split; [lia|split]|split; [lia|]].
        -- apply rmem_In. exists s, l. split; [apply in_or_app; right; now left|lia].
        -- exists A, s, l, B. repeat split; auto; lia.
        -- intros y Y. assert (y < s) by lia. destruct (rmem (A ++ (s, l) :: B) y) eqn:E; auto. apply rmem_In in E as (s3&l3&E&E2). apply in_app_or in E as [E|E].
           ++ specialize (HA _ _ E). lia.
           ++ assert (R : rok s ((s, l) :: B)) by (cbn [rok]; intuition lia). pose proof (rok_In _ _ _ _ R E). lia.
Qed.
(** ** Reading *)
Lemma read_runs_spec : forall fuel A s l B v n, rok 0 (A ++ (s, l) :: B) -> s <= v <= s + l -> 0 < n -> zlen B < Z.of_nat fuel ->
  exists b i' v' out, read_runs fuel (A ++ (s, l) :: B) (zlen A) v n = Some (b, i', v', out) /\
  exists rest, filter (rmem (A ++ (s, l) :: B)) (zr v 65536) = out ++ rest /\
   match rest with [] => b = false /\ zlen out <= n | w :: _ => b = true /\ zlen out = n /\ v' = w /\ cat (CRun (A ++ (s, l) :: B)) i' v' end.
Proof.
  induction fuel as [|f IH]; intros A s l B v n W V N F; [pose proof (zlen_nonneg B); lia|]. cbn [read_runs]. rewrite rget_mid by reflexivity. cbn [fst snd].
  pose proof W as W'. apply rok_app in W' as [W1 W2]. cbn [rok] in W2. destruct W2 as (W2&W3&W4&W5). pose proof (rnext_ge _ _ W1) as G0. rewrite (u32_small (s + l - v + 1)) by lia.
  set (num := Z.min (s + l - v + 1) n). set (r := A ++ (s, l) :: B) in *.
  assert (OUT : map (fun i => v + i) (zr 0 num) = zr v (v + num)). { rewrite zr_map_add. f_equal; lia. } rewrite OUT.
  assert (ZO : zlen (zr v (v + num)) = num) by (rewrite zr_zlen; lia).
  assert (HR : forall x, s <= x <= s + l -> rmem r x = true). { intros x Hx. apply rmem_In. exists s, l. split; [apply in_or_app; right; now left|lia]. }
  assert (FR : filter (rmem r) (zr v 65536) = zr v (v + num) ++ filter (rmem r) (zr (v + num) 65536)).
  { rewrite (zr_app v (v + num) 65536) by lia. rewrite filter_app. f_equal. apply filter_all. intros x Hx. apply zr_In in Hx. apply HR. lia. }
  destruct (Z_le_dec (s + l - v + 1) n) as [Q|Q].
  - (* the run is exhausted *)
    assert (NE : num = s + l - v + 1) by lia. assert (EX : (s + l <? u16 (v + num)) || (u16 (v + num) =? 0) = true).
    { rewrite NE. replace (v + (s + l - v + 1)) with (s + l + 1) by lia. destruct (Z.eq_dec (s + l) 65535) as [Z1|Z1]; [rewrite Z1; apply orb_true_iff; right; reflexivity|].
      rewrite u16_small by lia. apply orb_true_iff. left. apply Z.ltb_lt. lia. }
    rewrite EX. destruct B as [|[s2 l2] B].
    + assert (ZR : zlen r = zlen A + 1) by (unfold r; rewrite zlen_app; reflexivity). rewrite ZR. rewrite (proj2 (Z.ltb_ge (zlen A + 1) (zlen A + 1))) by lia. eexists _, _, _, _. split; [reflexivity|]. exists [].
      split; [|split; [reflexivity|lia]]. rewrite FR. f_equal. apply filter_none. intros x Hx. apply zr_In in Hx. unfold r. rewrite rmem_app, rmem_cons, rmem_nil, orb_false_r. apply orb_false_iff.
      split; [apply (rmem_hi 0); auto; lia|]. unfold inrun. cbn [fst snd]. apply andb_false_iff. right. apply Z.leb_gt. lia.
    + assert (ZR : zlen r = zlen A + (zlen B + 1 + 1)) by (unfold r; rewrite zlen_app, !zlen_cons; reflexivity). rewrite ZR. rewrite zlen_cons in F. pose proof (zlen_nonneg B). rewrite (proj2 (Z.ltb_lt (zlen A + 1) _)) by lia. cbn [rok] in W5. destruct W5 as (W5&W6&W7&W8).
      assert (RA : r = (A ++ [(s, l)]) ++ (s2, l2) :: B) by (unfold r; now rewrite <- app_assoc).
      assert (ZA : zlen A + 1 = zlen (A ++ [(s, l)])) by (rewrite zlen_app; reflexivity).
      assert (RG : rget r (zlen A + 1) = Some (s2, l2)) by (rewrite RA; now apply rget_mid). rewrite RG. cbn [fst].
      assert (FS : filter (rmem r) (zr (v + num) 65536) = filter (rmem r) (zr s2 65536)).
      { rewrite (zr_app (v + num) s2 65536) by lia. rewrite filter_app. rewrite filter_none; auto. intros x Hx. apply zr_In in Hx. unfold r. rewrite rmem_app, rmem_cons. apply orb_false_iff.
        split; [apply (rmem_hi 0); auto; lia|]. apply orb_false_iff. split; [unfold inrun; cbn [fst snd]; apply andb_false_iff; right; apply Z.leb_gt; lia|]. apply (rmem_lo s2); [|lia]. cbn [rok]. intuition lia. }
      destruct (Z.ltb_spec 0 (n - num)) as [L|L].
      * destruct (IH (A ++ [(s, l)]) s2 l2 B s2 (n - num)) as (b&i'&v'&out&E&rest&E2&E3); try lia; [now rewrite <- RA|]. rewrite <- RA, <- ZA in E. rewrite E. eexists _, _, _, _. split; [reflexivity|].
        exists rest. split; [rewrite FR, FS, RA, E2; apply app_assoc|]. rewrite zlen_app, ZO. rewrite <- RA in E3. destruct rest; [|intuition auto; lia]. destruct E3. split; auto; lia.
      * eexists _, _, _, _. split; [reflexivity|]. exists (filter (rmem r) (zr s2 65536)). split; [now rewrite FR, FS|]. rewrite zr_cons by lia. cbn [filter].
        assert (M2 : rmem r s2 = true). { rewrite RA. apply rmem_In. exists s2, l2. split; [apply in_or_app; right; now left|lia]. } rewrite M2. split; auto. split; [lia|]. split; auto.
        split; [lia|]. split; [exact M2|]. exists (A ++ [(s, l)]), s2, l2, B. repeat split; auto; lia.
  - assert (NE : num = n) by lia. rewrite u16_small by lia. rewrite (proj2 (Z.ltb_ge (s + l) (v + num))), (proj2 (Z.eqb_neq (v + num) 0)) by lia. cbn [orb].
    rewrite (proj2 (Z.ltb_ge 0 (n - num))) by lia. eexists _, _, _, _. split; [reflexivity|]. exists (filter (rmem r) (zr (v + num) 65536)). split; auto.
    rewrite zr_cons by lia. cbn [filter]. rewrite (HR (v + num)) by lia. split; auto. split; [lia|]. split; auto. split; [lia|]. split; [apply HR; lia|]. exists A, s, l, B. repeat split; auto; lia.
Qed.
Lemma filter_arr a i v : awf a -> 0 <= i < zlen a -> znth a i = v -> filter (amem a) (zr v 65536) = skipn (Z.to_nat i) a.
Proof.
  intros [I B] L E. apply incr_ext; [apply incr_filter, zr_incr| |].
  - rewrite <- (firstn_skipn (Z.to_nat i) a) in I. now apply incr_app in I.
  - intros x. rewrite filter_In, zr_In. unfold amem. rewrite zmem_In. split.
    + intros [X IX]. apply In_znth in IX as (j&J&<-). assert (i <= j). { destruct (Z_lt_le_dec j i); auto. pose proof (incr_znth a j i I ltac:(lia) ltac:(lia) ltac:(lia)). lia. }
      unfold znth. replace (Z.to_nat j) with (Z.to_nat i + Z.to_nat (j - i))%nat by lia. rewrite <- nth_skipn'. apply nth_In. rewrite skipn_length. unfold zlen in *. lia.
    + intros IX. assert (In x a). { rewrite <- (firstn_skipn (Z.to_nat i) a). apply in_or_app. now right. } pose proof (inb_In _ _ _ _ B H). split; auto. split; [|lia].
      apply In_nth with (d := 0) in IX as (j&J&<-). rewrite nth_skipn'. rewrite skipn_length in J. unfold zlen in *. 
      pose proof (incr_znth_le a i (i + Z.of_nat j) I ltac:(lia) ltac:(lia) ltac:(unfold zlen; lia)) as Q. unfold znth in *. replace (Z.to_nat (i + Z.of_nat j)) with (Z.to_nat i + j)%nat in Q by lia. lia.
Qed.
Lemma cread c i v n : cok c -> cat c i v -> 0 < n ->
  exists b i' v' out rest, container_iterator_read_into c i v n = Some (b, i', v', out) /\ filter (cmem c) (zr v 65536) = out ++ rest /\
   match rest with [] => b = false /\ zlen out <= n | w :: _ => b = true /\ zlen out = n /\ v' = w /\ cat c i' v' end.
Proof.
  intros D (V&M&H) N. unfold container_iterator_read_into. rewrite (proj2 (Z.eqb_neq n 0)) by lia. destruct c as [a|b|r]; cbn [cok cmem] in *.
  - destruct D as [AW L]. destruct H as [H1 H2]. rewrite (proj2 (Z.ltb_ge i 0)), (proj2 (Z.ltb_ge (zlen a) i)) by lia. cbn [orb]. rewrite (filter_arr a i v AW H1 H2).
    set (num := Z.min (zlen a - i) n).
    assert (E : map (fun j => znth a (i + j)) (zr 0 num) = firstn (Z.to_nat num) (skipn (Z.to_nat i) a)).
    { apply list_ext_znth.
      - rewrite zlen_map, zr_zlen by lia. unfold zlen in *. rewrite firstn_length, skipn_length. lia.
      - intros j J. rewrite zlen_map, zr_zlen in J by lia. unfold znth at 1. rewrite (nth_indep _ 0 (znth a (i + 0))) by (rewrite map_length; pose proof (zr_zlen 0 num ltac:(lia)) as Z1; unfold zlen in Z1; lia).
        rewrite (map_nth (fun j => znth a (i + j))). pose proof (zr_znth 0 num j ltac:(lia)) as Z2. unfold znth in Z2 at 1. rewrite Z2. unfold znth. rewrite nth_firstn' by lia. rewrite nth_skipn'. f_equal. lia. }
    rewrite E. assert (ZO : zlen (firstn (Z.to_nat num) (skipn (Z.to_nat i) a)) = num). { rewrite <- E, zlen_map, zr_zlen; lia. }
    destruct (Z.ltb_spec (i + num) (zlen a)) as [Q|Q].
    + assert (NN : num = n) by lia. eexists _, _, _, _, (skipn (Z.to_nat num) (skipn (Z.to_nat i) a)). split; [reflexivity|]. split; [now rewrite firstn_skipn|].
      destruct (skipn (Z.to_nat num) (skipn (Z.to_nat i) a)) as [|w t] eqn:ES.
      { exfalso. assert (Z3 : length (skipn (Z.to_nat num) (skipn (Z.to_nat i) a)) = 0%nat) by now rewrite ES. rewrite !skipn_length in Z3. unfold zlen in *. lia. }
      assert (EW : znth a (i + num) = w). { unfold znth. replace (Z.to_nat (i + num)) with (Z.to_nat i + (Z.to_nat num + 0))%nat by lia. rewrite <- nth_skipn', <- nth_skipn'. now rewrite ES. }
      split; auto. split; [lia|]. split; auto. pose proof (znth_In a (i + num) ltac:(lia)) as IN. split; [exact (inb_In _ _ _ _ (proj2 AW) IN)|]. split; [now apply zmem_In|split; [lia|auto]].
    + eexists _, _, _, _, []. split; [reflexivity|]. split; [|split; auto; lia]. rewrite app_nil_r. rewrite firstn_all2; auto. rewrite skipn_length. unfold zlen in *. lia.
  - subst i. destruct D as [[[W L] _] _]. rewrite (proj2 (Z.ltb_ge v 0)), (proj2 (Z.leb_gt 65536 v)) by lia. cbn [orb].
    destruct (read_bits 1025 (b_words b) (v / 64) (Z.land (znth (b_words b) (v / 64)) (shl64 ones64 (v mod 64))) n) as [[out k] w] eqn:E.
    apply read_bits_spec in E as (A&B&C&D&G); auto; try dm; [|apply isw_land, wfw_znth; auto]. rewrite rem_mask in C by lia.
    destruct (Z.eqb_spec w 0) as [Z0|Z0]; cbn [negb].
    + destruct (D Z0) as [D1 D2]. eexists _, _, _, _, []. split; [reflexivity|]. split; [now rewrite C, D1|]. auto.
    + eexists _, _, _, _, (rem (b_words b) k w). split; [reflexivity|]. split; auto. rewrite rem_cons by auto. split; auto. split; auto.
      destruct (ctz_spec w A Z0) as (Z1&_&_).
      assert (IN : In (k * 64 + ctz w) (filter (bget (b_words b)) (zr v 65536))). { rewrite C. apply in_or_app. right. rewrite rem_cons by auto. now left. }
      apply filter_In in IN as [IN1 IN2]. apply zr_In in IN1. rewrite u16_small by lia. split; auto. split; [lia|]. split; auto.
  - destruct H as (A&s&l&B&->&->&SV). destruct D as [W NE]. destruct (read_runs_spec (S (length (A ++ (s, l) :: B))) A s l B v n W SV N) as (b&i'&v'&out&E&rest&E2&E3).
    { rewrite app_length. cbn [length]. unfold zlen. lia. } exists b, i', v', out, rest. auto.
Qed.

(** * The bitmap iterator *)
(** [it] stands at position [p] of the sorted members (-1 before, length after) *)
Definition ipos (r : bitmap) (it : iter) (p : Z) : Prop :=
  (p = -1 /\ it_idx it < 0 /\ it_has it = false /\ it_cur it = 2 ^ 32 - 1) \/
  (p = zlen (elems r) /\ zlen r <= it_idx it /\ it_has it = false /\ it_cur it = 2 ^ 32 - 1) \/
  (exists r1 k c r2 v, r = r1 ++ (k, c) :: r2 /\ it_idx it = zlen r1 /\ it_has it = true /\ it_con it = c /\ it_hb it = 65536 * k /\
     it_cur it = 65536 * k + v /\ cat c (it_ci it) v /\ p = zlen (elems r1) + cnt (cmem c) 0 v).
Lemma lor_hb k x : 0 <= x < 65536 -> Z.lor (65536 * k) x = 65536 * k + x.
Proof. intros X. rewrite Z.lor_comm. replace (65536 * k) with (Z.shiftl k 16) by (rewrite Z.shiftl_mul_pow2 by lia; lia). rewrite lor_key by auto. rewrite Z.shiftl_mul_pow2 by lia. lia. Qed.
Lemma mid_entry r1 k c r2 : rkey (r1 ++ (k, c) :: r2) (zlen r1) = k /\ rcon (r1 ++ (k, c) :: r2) (zlen r1) = c.
Proof.
  unfold rkey, rcon. rewrite rnth_app2 by lia. rewrite Z.sub_diag. split; reflexivity.
Qed.
Lemma bok_mid r1 k c r2 : bok (r1 ++ (k, c) :: r2) -> cok c /\ 0 <= k < 65536 /\ (forall k', In k' (rkeys r1) -> k' < k) /\ (forall k', In k' (rkeys r2) -> k < k').
Proof.
  intros (I&B&F). unfold rkeys in *. rewrite map_app in I, B. cbn [map fst] in I, B. split; [rewrite Forall_forall in F; exact (F (k, c) ltac:(apply in_or_app; right; now left))|].
  split; [apply (inb_In _ _ _ k B); apply in_or_app; right; now left|]. apply incr_app in I as (I1&I2&I3). split.
  - intros k' H. apply I3; auto. now left.
  - intros k' H. exact (incr_head _ _ _ I2 H).
Qed.
Lemma partial_in r1 k c r2 it : it_idx it = zlen r1 -> 0 <= k < 65536 ->
  iter_new_container_partial_init (r1 ++ (k, c) :: r2) it = Iter (zlen r1) true 0 (it_ci it) (65536 * k) c.
Proof.
  intros E K. unfold iter_new_container_partial_init. rewrite E. rewrite zlen_app, zlen_cons. pose proof (zlen_nonneg r1). pose proof (zlen_nonneg r2).
  rewrite (proj2 (Z.leb_gt _ (zlen r1))), (proj2 (Z.ltb_ge (zlen r1) 0)) by lia. cbn [orb]. destruct (mid_entry r1 k c r2) as [-> ->].
  rewrite Z.shiftl_mul_pow2 by lia. rewrite u32_small by lia. f_equal. lia.
Qed.
Lemma partial_out r it : zlen r <= it_idx it \/ it_idx it < 0 ->
  iter_new_container_partial_init r it = Iter (it_idx it) false (2 ^ 32 - 1) (it_ci it) (it_hb it) (it_con it).
Proof.
  intros H. unfold iter_new_container_partial_init. destruct H as [H|H].
  - now rewrite (proj2 (Z.leb_le _ _) H).
  - now rewrite (proj2 (Z.ltb_lt _ _) H), orb_true_r.
Qed.
Lemma loadfirst_pos r1 r2 it : bok (r1 ++ r2) -> it_idx it = zlen r1 -> exists it', loadfirstvalue (r1 ++ r2) it = Some it' /\ ipos (r1 ++ r2) it' (zlen (elems r1)) /\ it_idx it' = it_idx it.
Proof.
  intros B E. unfold loadfirstvalue, loadwith. destruct r2 as [|[k c] r2].
  - rewrite app_nil_r in *. rewrite partial_out by lia. cbn [it_has]. eexists. split; [reflexivity|]. split; auto. right; left. repeat split; auto. cbn. lia.
  - destruct (bok_mid _ _ _ _ B) as (D&K&_). rewrite partial_in by auto. cbn [it_has it_con it_hb it_idx].
    destruct (cinit c D) as (i&v&->&C&N). eexists. split; [reflexivity|]. split; [|now cbn]. right; right. exists r1, k, c, r2, v. cbn [it_idx it_has it_con it_hb it_cur it_ci].
    repeat split; auto; try apply C. + apply lor_hb, C. + rewrite cnt_none by auto. lia.
Qed.
Lemma elems_snoc r k c : zlen (elems (r ++ [(k, c)])) = zlen (elems r) + ccard c.
Proof. rewrite elems_app, zlen_app, elems_cons, app_nil_r, celems_zlen. reflexivity. Qed.
Lemma cnt_after P v : 0 <= v < 65536 -> P v = true -> (forall x, v < x < 65536 -> P x = false) -> cnt P 0 65536 = cnt P 0 v + 1.
Proof. intros V M N. rewrite (cnt_app P 0 v 65536), (cnt_cons P v) by lia. rewrite M, (cnt_none P (v + 1)) by (intros; apply N; lia). lia. Qed.
Lemma cnt_next P v w : 0 <= v < w -> P v = true -> (forall x, v < x < w -> P x = false) -> cnt P 0 w = cnt P 0 v + 1.
Proof. intros V M N. rewrite (cnt_app P 0 v w), (cnt_cons P v) by lia. rewrite M, (cnt_none P (v + 1)) by (intros; apply N; lia). lia. Qed.
Lemma loadlast_pos r1 r2 it : bok (r1 ++ r2) -> it_idx it = zlen r1 - 1 -> exists it', loadlastvalue (r1 ++ r2) it = Some it' /\ ipos (r1 ++ r2) it' (zlen (elems r1) - 1).
Proof.
  intros B E. unfold loadlastvalue, loadwith. destruct (snoc_cases r1) as [->|(r0&[k c]&->)].
  - change (zlen (@nil entry)) with 0 in E. rewrite partial_out by lia. cbn [it_has]. eexists. split; [reflexivity|]. left. cbn. repeat split; auto. lia.
  - rewrite <- app_assoc in *. cbn [app] in *. destruct (bok_mid _ _ _ _ B) as (D&K&_). rewrite zlen_app in E. change (zlen [(k, c)]) with 1 in E. rewrite partial_in by (auto; lia). cbn [it_has it_con it_hb it_idx].
    destruct (cinit_last c D) as (i&v&->&C&N). eexists. split; [reflexivity|]. right; right. exists r0, k, c, r2, v. cbn [it_idx it_has it_con it_hb it_cur it_ci].
    repeat split; auto; try apply C. + apply lor_hb, C. + rewrite elems_snoc. unfold ccard. rewrite (cnt_after _ v); auto; try apply C. lia.
Qed.
(** ** observations at a position *)
Lemma ipos_obs r it p : bok r -> ipos r it p -> -1 <= p <= zlen (elems r) /\ it_has it = ((0 <=? p) && (p <? zlen (elems r))) /\ it_cur it = if it_has it then znth (elems r) p else 2 ^ 32 - 1.
Proof.
  intros B [(->&A&H1&H2)|[(->&A&H1&H2)|(r1&k&c&r2&v&->&A&H1&H2&H3&H4&C&->)]]; rewrite ?H1, ?H2.
  - pose proof (zlen_nonneg (elems r)). split; [lia|]. split; reflexivity.
  - pose proof (zlen_nonneg (elems r)). split; [lia|]. split; [|reflexivity]. now rewrite Z.ltb_irrefl, andb_false_r.
  - destruct C as (V&M&_). destruct (bok_mid _ _ _ _ B) as (D&K&_). rewrite elems_app, elems_cons, !zlen_app, celems_zlen. pose proof (zlen_nonneg (elems r1)). pose proof (zlen_nonneg (elems r2)).
    assert (CB : 0 <= cnt (cmem c) 0 v < ccard c). { unfold ccard. rewrite (cnt_app _ 0 v 65536), (cnt_cons _ v) by lia. rewrite M. pose proof (cnt_bound (cmem c) 0 v). pose proof (cnt_bound (cmem c) (v + 1) 65536). lia. }
    split; [lia|]. split.
    + symmetry. apply andb_true_iff. split; [apply Z.leb_le|apply Z.ltb_lt]; lia.
    + rewrite H4. rewrite znth_app2 by lia. rewrite znth_app1 by (rewrite celems_zlen; lia). replace (zlen (elems r1) + cnt (cmem c) 0 v - zlen (elems r1)) with (cnt (cmem c) 0 v) by lia. rewrite znth_celems by auto. lia.
Qed.
Lemma u16_cur k v : 0 <= v < 65536 -> u16 (65536 * k + v) = v.
Proof. intros V. unfold u16. replace (65536 * k + v) with (v + k * 65536) by lia. rewrite Z.mod_add by lia. now apply Z.mod_small. Qed.
Lemma init_pos r : bok r -> exists it, roaring_iterator_init r = Some it /\ ipos r it 0.
Proof. intros B. destruct (loadfirst_pos [] r (raw_iter 0) B eq_refl) as (it&E&I&_). exists it. auto. Qed.
Lemma init_last_pos r : bok r -> exists it, roaring_iterator_init_last r = Some it /\ ipos r it (zlen (elems r) - 1).
Proof.
  intros B. rewrite <- (app_nil_r r) in B. destruct (loadlast_pos r [] (raw_iter (zlen r - 1)) B eq_refl) as (it&E&I). rewrite app_nil_r in *. exists it. auto.
Qed.
Lemma advance_pos r it p : bok r -> ipos r it p -> exists it', roaring_uint32_iterator_advance r it = Some it' /\ ipos r it' (Z.min (zlen (elems r)) (p + 1)).
Proof.
  intros B H. pose proof (ipos_obs _ _ _ B H) as (OB&OH&_). unfold roaring_uint32_iterator_advance. destruct H as [(->&A&H1&H2)|[(->&A&H1&H2)|(r1&k&c&r2&v&->&A&H1&H2&H3&H4&C&->)]].
  - pose proof (zlen_nonneg r). rewrite (proj2 (Z.leb_gt (zlen r) (it_idx it))), (proj2 (Z.ltb_lt (it_idx it) 0)) by lia. pose proof (zlen_nonneg (elems r)). replace (Z.min _ (-1 + 1)) with 0 by lia.
    destruct (loadfirst_pos [] r (at_index it 0) B eq_refl) as (it'&E&I&_). exists it'. auto.
  - rewrite (proj2 (Z.leb_le (zlen r) (it_idx it))) by lia. eexists. split; [reflexivity|]. replace (Z.min _ _) with (zlen (elems r)) by lia. right; left. cbn. auto.
  - rewrite A. rewrite zlen_app, zlen_cons. pose proof (zlen_nonneg r1). pose proof (zlen_nonneg r2). rewrite (proj2 (Z.leb_gt _ (zlen r1))), (proj2 (Z.ltb_ge (zlen r1) 0)) by lia.
    destruct (bok_mid _ _ _ _ B) as (D&K&_). rewrite H2, H4, H3, u16_cur by apply C. 
    rewrite H1 in OH. symmetry in OH. apply andb_true_iff in OH as [_ OH]. apply Z.ltb_lt in OH. rewrite Z.min_r by lia.
    destruct (cnext c (it_ci it) v D C) as [(i'&v'&E&C'&L&N)|(i'&v'&E&N)]; rewrite E.
    + eexists. split; [reflexivity|]. right; right. exists r1, k, c, r2, v'. cbn [it_idx it_has it_con it_hb it_cur it_ci]. destruct C as (C1&C2&_).
      repeat split; auto; try apply C'. * apply lor_hb, C'. * rewrite (cnt_next _ v v'); auto; lia.
    + assert (EE : r1 ++ (k, c) :: r2 = (r1 ++ [(k, c)]) ++ r2) by now rewrite <- app_assoc. rewrite EE in *.
      destruct (loadfirst_pos (r1 ++ [(k, c)]) r2 (Iter (zlen r1 + 1) (it_has it) (65536 * k + v) i' (65536 * k) c) B) as (it'&E'&I&_); [cbn; rewrite zlen_app; reflexivity|].
      exists it'. split; auto. rewrite elems_snoc in I. unfold ccard in I. rewrite (cnt_after _ v) in I; auto; try apply C. now rewrite Z.add_assoc in I.
Qed.
Lemma previous_pos r it p : bok r -> ipos r it p -> exists it', roaring_uint32_iterator_previous r it = Some it' /\ ipos r it' (Z.max (-1) (p - 1)).
Proof.
  intros B H. pose proof (ipos_obs _ _ _ B H) as (OB&OH&_). unfold roaring_uint32_iterator_previous. destruct H as [(->&A&H1&H2)|[(->&A&H1&H2)|(r1&k&c&r2&v&->&A&H1&H2&H3&H4&C&->)]].
  - rewrite (proj2 (Z.ltb_lt (it_idx it) 0)) by lia. eexists. split; [reflexivity|]. replace (Z.max _ _) with (-1) by lia. left. cbn. auto.
  - pose proof (zlen_nonneg r). rewrite (proj2 (Z.ltb_ge (it_idx it) 0)), (proj2 (Z.leb_le (zlen r) (it_idx it))) by lia. pose proof (zlen_nonneg (elems r)). replace (Z.max _ _) with (zlen (elems r) - 1) by lia.
    rewrite <- (app_nil_r r) in B. destruct (loadlast_pos r [] (at_index it (zlen r - 1)) B eq_refl) as (it'&E&I). rewrite app_nil_r in *. exists it'. auto.
  - rewrite A. rewrite zlen_app, zlen_cons. pose proof (zlen_nonneg r1). pose proof (zlen_nonneg r2). rewrite (proj2 (Z.ltb_ge (zlen r1) 0)), (proj2 (Z.leb_gt _ (zlen r1))) by lia.
    destruct (bok_mid _ _ _ _ B) as (D&K&_). rewrite H2, H4, H3, u16_cur by apply C. pose proof (zlen_nonneg (elems r1)). pose proof (cnt_bound (cmem c) 0 v ltac:(destruct C; lia)) as CBv.
    rewrite Z.max_r by lia.
    destruct (cprev c (it_ci it) v D C) as [(i'&v'&E&C'&L&N)|(i'&v'&E&N)]; rewrite E.
    + eexists. split; [reflexivity|]. right; right. exists r1, k, c, r2, v'. cbn [it_idx it_has it_con it_hb it_cur it_ci]. destruct C' as (C1&C2&C3).
      split; auto. split; auto. split; auto. split; auto. split; auto. split; [now apply lor_hb|]. split; [split; auto|]. rewrite (cnt_next _ v' v); auto; lia.
    + destruct (loadlast_pos r1 ((k, c) :: r2) (Iter (zlen r1 - 1) (it_has it) (65536 * k + v) i' (65536 * k) c) B eq_refl) as (it'&E'&I).
      exists it'. split; auto. rewrite cnt_none by auto. now rewrite Z.add_0_r.
Qed.
Lemma lb_map_add l k x : lb (map (fun y => y + k) l) (x + k) = lb l x.
Proof.
  unfold lb. rewrite filter_map_comm, zlen_map. f_equal. apply filter_ext. intros y. apply eq_true_iff_eq. rewrite !Z.ltb_lt. lia.
Qed.
Lemma in_elems_key r x : In x (elems r) -> exists k c, In (k, c) r /\ 65536 * k <= x < 65536 * k + 65536.
Proof.
  intros H. unfold elems in H. apply in_flat_map in H as ([k c]&H&H2). cbn [fst snd] in H2. apply celems_In in H2 as [H2 _]. exists k, c. auto.
Qed.
Lemma seek_pos r it p x : bok r -> ipos r it p -> 0 <= x < 2 ^ 32 -> exists it', roaring_uint32_iterator_move_equalorlarger r it x = Some it' /\ ipos r it' (lb (elems r) x).
Proof.
  intros B H X. clear H. unfold roaring_uint32_iterator_move_equalorlarger. change 65535 with (Z.ones 16). rewrite Z.land_ones, Z.shiftr_div_pow2 by lia. change (2 ^ 16) with 65536.
  assert (I : incr (rkeys r)) by apply B. rewrite ra_get_index_eq by auto. pose proof (lb_bound (rkeys r) (x / 65536)) as LB. set (h := x / 65536) in *. set (l := x mod 65536).
  assert (HL : x = 65536 * h + l /\ 0 <= l < 65536) by (subst h l; dm).
  assert (LOW : forall q, (forall k', In k' (rkeys q) -> k' < h) -> lb (elems q) x = zlen (elems q)).
  { intros q Hq. apply lb_all. intros y Hy. apply in_elems_key in Hy as (k'&c'&IN&Y). assert (k' < h) by (apply Hq; unfold rkeys; apply in_map_iff; exists (k', c'); auto). lia. }
  assert (HIGH : forall q, (forall k', In k' (rkeys q) -> h < k') -> lb (elems q) x = 0).
  { intros q Hq. apply lb_none. intros y Hy. apply in_elems_key in Hy as (k'&c'&IN&Y). assert (h < k') by (apply Hq; unfold rkeys; apply in_map_iff; exists (k', c'); auto). lia. }
  destruct (zmem h (rkeys r)) eqn:Z.
  - apply zmem_In in Z as Z'. apply lb_In in Z' as [Z1 Z2]; auto. rewrite (proj2 (Z.leb_le 0 _)) by lia.
    assert (ES : exists r1 c r2, r = r1 ++ (h, c) :: r2 /\ zlen r1 = lb (rkeys r) h).
    { apply zmem_In in Z. unfold rkeys in Z. apply in_map_iff in Z as ([k c]&<-&IN). cbn [fst] in *. apply in_split in IN as (r1&r2&->). exists r1, c, r2. split; auto.
      destruct (bok_mid _ _ _ _ B) as (_&_&K1&K2). unfold rkeys. rewrite map_app. cbn [map fst]. rewrite lb_app. rewrite lb_all by exact K1. rewrite lb_none; [unfold rkeys; rewrite zlen_map; lia|]. intros y [<-|Y]; [lia|]. specialize (K2 y Y). lia. }
    destruct ES as (r1&c&r2&->&ZL). rewrite <- ZL. destruct (mid_entry r1 h c r2) as [_ ->]. destruct (bok_mid _ _ _ _ B) as (D&K&K1&K2).
    assert (LBV : lb (elems (r1 ++ (h, c) :: r2)) x = zlen (elems r1) + cnt (cmem c) 0 l).
    { rewrite elems_app, elems_cons, !lb_app. rewrite LOW, (HIGH r2) by auto. unfold celems. replace x with (l + 65536 * h) by lia. rewrite lb_map_add. rewrite vals_lb by lia. lia. }
    assert (EE : r1 ++ (h, c) :: r2 = (r1 ++ [(h, c)]) ++ r2) by now rewrite <- app_assoc.
    destruct (Z.ltb_spec (container_maximum c) l) as [Q|Q].
    + rewrite LBV. rewrite EE in *. destruct (loadfirst_pos (r1 ++ [(h, c)]) r2 (at_index it (zlen r1 + 1)) B) as (it'&E'&I'&_); [cbn; rewrite zlen_app; reflexivity|]. exists it'. split; auto.
      rewrite elems_snoc in I'. replace (cnt (cmem c) 0 l) with (ccard c); auto. unfold ccard. rewrite (cnt_app _ 0 l 65536) by lia. rewrite (cnt_none _ l 65536); [lia|].
      intros y Y. destruct (cmem c y) eqn:M; auto. destruct (container_maximum_spec c D) as (_&_&M3). apply M3 in M; lia.
    + unfold loadfirstvalue_largeorequal. rewrite partial_in by (auto; reflexivity). cbn [it_has it_con it_hb it_idx]. destruct (cinit c D) as (i0&v0&->&_&_).
      change 65535 with (Z.ones 16). rewrite Z.land_ones by lia. change (2 ^ 16) with 65536. fold l.
      destruct (clower c i0 v0 l D ltac:(lia)) as [(_&M&_)|(i'&v'&E&C&L&N)]; [lia|]. rewrite E. eexists. split; [reflexivity|]. rewrite LBV. right; right. exists r1, h, c, r2, v'. cbn [it_idx it_has it_con it_hb it_cur it_ci].
      repeat split; auto; try apply C. * apply lor_hb, C. * rewrite (cnt_app _ 0 l v') by lia. rewrite (cnt_none _ l v') by auto. lia.
  - pose proof (zlen_rkeys r) as ZR. rewrite (proj2 (Z.leb_gt 0 _)) by lia. replace (- - (lb (rkeys r) h + 1) - 1) with (lb (rkeys r) h) by lia. set (j := lb (rkeys r) h) in *.
    set (r1 := zfirst j r). set (r2 := zdrop j r). assert (ER : r = r1 ++ r2) by (symmetry; apply firstn_skipn). assert (Z1 : zlen r1 = j) by (unfold r1, zfirst, zlen in *; rewrite firstn_length; lia).
    assert (K1 : forall k', In k' (rkeys r1) -> k' < h).
    { intros k' IN. apply In_znth in IN as (i&Hi&<-). rewrite zlen_rkeys, Z1 in Hi. assert (EQ : znth (rkeys r1) i = znth (rkeys r) i). { rewrite ER. unfold rkeys. rewrite map_app. rewrite znth_app1; auto. rewrite zlen_map. lia. }
      rewrite EQ. apply lb_lt; auto. }
    assert (K2 : forall k', In k' (rkeys r2) -> h < k').
    { intros k' IN. assert (IN2 : In k' (rkeys r)) by (rewrite ER; unfold rkeys; rewrite map_app; apply in_or_app; now right). apply In_znth in IN as (i&Hi&Ek). rewrite zlen_rkeys in Hi.
      assert (EQ : znth (rkeys r2) i = znth (rkeys r) (j + i)). { rewrite ER. unfold rkeys. rewrite map_app. rewrite znth_app2 by (rewrite zlen_map; lia). f_equal. rewrite zlen_map. lia. }
      assert (zlen r = zlen r1 + zlen r2) by (rewrite ER at 1; apply zlen_app).
      assert (h <= k'). { rewrite <- Ek, EQ. apply lb_ge; auto. fold j. lia. } assert (k' <> h) by (intros ->; apply zmem_In in IN2; congruence). lia. }
    assert (LBV : lb (elems r) x = zlen (elems r1)). { rewrite ER, elems_app, lb_app, LOW, HIGH by auto. lia. }
    rewrite LBV. rewrite ER in B |- *. destruct (loadfirst_pos r1 r2 (at_index it j) B) as (it'&E'&I'&_); [cbn; lia|]. exists it'. auto.
Qed.
(** ** reading *)
Lemma pos_suffix r1 k c r2 v : 0 <= v < 65536 ->
  zdrop (zlen (elems r1) + cnt (cmem c) 0 v) (elems (r1 ++ (k, c) :: r2)) = map (fun x => x + 65536 * k) (filter (cmem c) (zr v 65536)) ++ elems r2.
Proof.
  intros V. rewrite elems_app, elems_cons. unfold celems, vals. rewrite (zr_app 0 v 65536) by lia. rewrite filter_app, map_app, <- app_assoc, app_assoc. unfold zdrop.
  replace (Z.to_nat (zlen (elems r1) + cnt (cmem c) 0 v)) with (length (elems r1 ++ map (fun x => x + 65536 * k) (filter (cmem c) (zr 0 v)))).
  - rewrite skipn_app, skipn_all, Nat.sub_diag. reflexivity.
  - rewrite app_length, map_length. unfold cnt, zlen. lia.
Qed.
Lemma read_pos : forall fuel r it p n, bok r -> ipos r it p -> 0 <= p -> 0 <= n -> Z.max 0 (zlen r - it_idx it) < Z.of_nat fuel ->
  exists it' out, iterator_read fuel r it n = Some (it', out) /\ ipos r it' (p + zlen out) /\ zdrop p (elems r) = out ++ zdrop (p + zlen out) (elems r) /\
    zlen out <= n /\ (zlen out = n \/ p + zlen out = zlen (elems r)).
Proof.
  induction fuel as [|f IH]; intros r it p n B H P N F; [lia|]. cbn [iterator_read].
  assert (STOP : n = 0 \/ p = zlen (elems r) -> exists it' out, Some (it, []) = Some (it', out) /\ ipos r it' (p + zlen out) /\ zdrop p (elems r) = out ++ zdrop (p + zlen out) (elems r) /\
    zlen out <= n /\ (zlen out = n \/ p + zlen out = zlen (elems r))).
  { intros Q. exists it, (@nil Z). change (zlen (@nil Z)) with 0. rewrite Z.add_0_r. split; auto. split; auto. split; [reflexivity|]. split; [lia|]. lia. }
  destruct (Z.ltb_spec 0 n) as [L|L]; [|rewrite andb_false_r; apply STOP; lia]. rewrite andb_true_r.
  pose proof (ipos_obs _ _ _ B H) as (OB&OH&_).
  destruct H as [(->&_)|[(->&A&H1&H2)|(r1&k&c&r2&v&->&A&H1&H2&H3&H4&C&->)]]; [lia| |].
  - rewrite H1. apply STOP. now right.
  - rewrite H1. destruct (bok_mid _ _ _ _ B) as (D&K&_). rewrite H2, H4, H3, u16_cur by apply C.
    destruct (cread c (it_ci it) v n D C L) as (b&i'&v'&out&rest&E&E2&E3). rewrite E.
    assert (OR : forall x, In x (out ++ rest) -> 0 <= x < 65536). { rewrite <- E2. intros x IN. apply filter_In in IN as [IN _]. apply zr_In in IN. destruct C. lia. }
    assert (MO : map (Z.lor (65536 * k)) out = map (fun x => x + 65536 * k) out). { apply map_ext_in. intros x IN. rewrite lor_hb; [lia|]. apply OR. apply in_or_app. now left. }
    assert (SUF := pos_suffix r1 k c r2 v ltac:(apply C)). set (r := r1 ++ (k, c) :: r2) in *. rewrite E2, map_app, <- app_assoc in SUF. rewrite MO. rewrite zlen_map.
    set (o := map (fun x => x + 65536 * k) out) in *. assert (ZO : zlen o = zlen out) by apply zlen_map. set (p := zlen (elems r1) + cnt (cmem c) 0 v) in *.
    assert (SUF2 : zdrop (p + zlen o) (elems r) = map (fun x => x + 65536 * k) rest ++ elems r2).
    { unfold zdrop in *. pose proof (zlen_nonneg o). replace (Z.to_nat (p + zlen o)) with (Z.to_nat p + length o)%nat by (unfold zlen in *; lia). rewrite <- Bytes.skipn_skipn'. rewrite SUF. rewrite skipn_app, skipn_all, Nat.sub_diag. reflexivity. }
    destruct rest as [|w rest].
    + destruct E3 as [-> E3]. rewrite app_nil_r in E2. cbn [map app] in SUF2.
      assert (EE : r = (r1 ++ [(k, c)]) ++ r2) by (unfold r; now rewrite <- app_assoc).
      assert (B' := B). rewrite EE in B'.
      destruct (loadfirst_pos (r1 ++ [(k, c)]) r2 (Iter (it_idx it + 1) true (65536 * k + v) i' (65536 * k) c) B') as (it'&E'&I'&IX); [cbn; rewrite A, zlen_app; reflexivity|].
      rewrite <- EE in E', I'. rewrite E'. cbn [it_idx] in IX.
      assert (PE : zlen (elems (r1 ++ [(k, c)])) = p + zlen o).
      { rewrite elems_snoc. unfold ccard, p. rewrite (cnt_app (cmem c) 0 v 65536) by (destruct C; lia). assert (zlen o = cnt (cmem c) v 65536) by (rewrite ZO; unfold cnt; now rewrite E2). lia. }
      rewrite PE in I'. destruct (IH r it' (p + zlen o) (n - zlen out) B I') as (it2&out2&E4&I4&S4&L4&T4).
      * pose proof (zlen_nonneg o). lia.
      * lia.
      * rewrite IX. assert (zlen r = zlen r1 + (zlen r2 + 1)) by (unfold r; now rewrite zlen_app, zlen_cons). pose proof (zlen_nonneg r2). lia.
      * rewrite E4. exists it2, (o ++ out2). split; auto. rewrite zlen_app, Z.add_assoc. split; auto. split; [|lia]. rewrite SUF. cbn [map app]. rewrite <- SUF2, S4. apply app_assoc.
    + destruct E3 as (->&E3&->&C'). rewrite (proj2 (Z.eqb_eq (zlen out) n)) by auto. eexists _, o. split; [reflexivity|].
      assert (IW : v <= w < 65536 /\ cmem c w = true). { assert (IN : In w (filter (cmem c) (zr v 65536))) by (rewrite E2; apply in_or_app; right; now left). apply filter_In in IN as [IN M]. apply zr_In in IN. auto. }
      split; [|split; [now rewrite SUF, SUF2|lia]]. right; right. exists r1, k, c, r2, w. cbn [it_idx it_has it_con it_hb it_cur it_ci].
      repeat split; auto; try apply C'; try lia. * apply lor_hb, C'.
      * unfold p. rewrite (cnt_app (cmem c) 0 v w) by (destruct C; lia).
        assert (zlen out = cnt (cmem c) v w); [|lia]. unfold cnt. f_equal. apply incr_ext; [|apply incr_filter, zr_incr|].
        { assert (IF : incr (filter (cmem c) (zr v 65536))) by (apply incr_filter, zr_incr). rewrite E2 in IF. now apply incr_app in IF. }
        assert (IF : incr (out ++ w :: rest)) by (rewrite <- E2; apply incr_filter, zr_incr). apply incr_app in IF as (_&IF2&IF3).
        intros y. rewrite filter_In, zr_In. split.
        -- intros IN. assert (IY : In y (filter (cmem c) (zr v 65536))) by (rewrite E2; apply in_or_app; now left). apply filter_In in IY as [IY M]. apply zr_In in IY. specialize (IF3 y w IN (or_introl eq_refl)). split; auto. lia.
        -- intros [Y M]. assert (IY : In y (out ++ w :: rest)) by (rewrite <- E2; apply filter_In; split; auto; apply zr_In; lia). apply in_app_or in IY as [IY|[->|IY]]; auto; [lia|]. pose proof (incr_head _ _ _ IF2 IY). lia.
Qed.
