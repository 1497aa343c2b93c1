(** MixedA: src/containers/mixed_andnot.c. *)
From Coq Require Import ZArith List Bool Lia Sorted Btauto.
From Verif Require Import Base ArrayUtil BitUtil BitsetC ArrayC RunC RunD Convert MixedI MixedU.
Import ListNotations.
Open Scope Z_scope.
Local Opaque zr.

(** ** Model *)
(** mixed_andnot.c:24-48 (the in-place variant writes at an index <= the one read) *)
Definition array_bitset_container_andnot (a : list Z) (b : bset) : list Z :=
  filter (fun key => negb (bitset_container_get b key)) a.
(** mixed_andnot.c:54-73 and in place 81-98 *)
Definition bitset_array_container_andnot (b : bset) (a : list Z) : container :=
  let '(ws, card) := bitset_clear_list (b_words b) (b_card b) a in bitset_or_array (card, ws).
(** mixed_andnot.c:104-150 run_bitset_container_andnot, and 159-169 *)
Fixpoint andnot_reset_flip (ws : list Z) (last_pos : Z) (r : list run) : list Z :=
  match r with
  | [] => bitset_reset_range ws last_pos 65536
  | (v, l) :: r' =>
    andnot_reset_flip (bitset_flip_range (bitset_reset_range ws last_pos v) v (v + l + 1)) (v + l + 1) r'
  end.
Definition run_bitset_container_andnot (r : list run) (b : bset) : container :=
  if run_container_cardinality r <=? 4096 then
    CArr (flat_map (fun x => map u16 (filter (fun v => negb (bitset_container_get b v)) (zr (fst x) (fst x + snd x + 1)))) r)
  else
    let ws := andnot_reset_flip (b_words b) 0 r in
    bitset_or_array (bitset_container_compute_cardinality ws, ws).
(** mixed_andnot.c:175-200 and in place 205-225 *)
Definition reset_runs (ws : list Z) (r : list run) : list Z :=
  fold_left (fun ws x => bitset_reset_range ws (fst x) (fst x + snd x + 1)) r ws.
Definition bitset_run_container_andnot (b : bset) (r : list run) : container :=
  let ws := reset_runs (b_words b) r in bitset_or_array (bitset_container_compute_cardinality ws, ws).
(** mixed_andnot.c:233-270 run_array_array_subtract; [pos] is in_array_pos *)
Fixpoint subtract_inner (is a : list Z) (next pos : Z) : list Z * Z :=
  match is with
  | [] => ([], pos)
  | i :: is' =>
    if i =? next then
      let '(next', pos') := if zlen a <=? pos + 1 then (0, pos) else (znth a (pos + 1), pos + 1) in
      subtract_inner is' a next' pos'
    else let '(out, p) := subtract_inner is' a next pos in (i :: out, p)
  end.
Fixpoint run_array_array_subtract (r : list run) (a : list Z) (pos : Z) : list Z :=
  match r with
  | [] => []
  | (v, l) :: r' =>
    let pos := advanceUntil a pos (zlen a) v in
    if zlen a <=? pos then zr v (v + l + 1) ++ run_array_array_subtract r' a pos
    else
      let next := znth a pos in
      if v + l + 1 <=? next then zr v (v + l + 1) ++ run_array_array_subtract r' a (pos - 1)
      else
        let '(out, pos') := subtract_inner (zr v (v + l + 1)) a next pos in
        out ++ run_array_array_subtract r' a (pos' - 1)
  end.
(** mixed_andnot.c:277-361 run_array_container_andnot.  The loop of the small case:
    (start,end_) is the current, possibly shortened, run; r1 the runs after it. *)
Fixpoint run_array_andnot_loop (fuel : nat) (dst : list run) (start end_ : Z) (r1 : list run) (a : list Z) : list run :=
  match fuel with
  | O => dst
  | S f =>
    match a with
    | [] => dst ++ [(u16 start, u16 (end_ - start - 1))] ++ r1
    | xstart :: a' =>
      if end_ <=? xstart then
        let dst' := dst ++ [(u16 start, u16 (end_ - start - 1))] in
        match r1 with
        | [] => dst'
        | x :: r1' => run_array_andnot_loop f dst' (fst x) (fst x + snd x + 1) r1' a
        end
      else if xstart + 1 <=? start then run_array_andnot_loop f dst start end_ r1 a'
      else
        let dst' := if start <? xstart then dst ++ [(u16 start, u16 (xstart - start - 1))] else dst in
        if xstart + 1 <? end_ then run_array_andnot_loop f dst' (xstart + 1) end_ r1 a
        else
          match r1 with
          | [] => dst'
          | x :: r1' => run_array_andnot_loop f dst' (fst x) (fst x + snd x + 1) r1' a
          end
    end
  end.
(** runs[0] is read unguarded: precondition r non-empty *)
Definition run_array_container_andnot (r : list run) (a : list Z) : container :=
  let card := run_container_cardinality r in
  if card <=? 32 then
    if zlen a =? 0 then CRun r
    else
      convert_run_to_efficient_container
        (run_array_andnot_loop (S (length r + (length a + length a))) []
           (fst (rnth r 0)) (fst (rnth r 0) + snd (rnth r 0) + 1) (rskip 1 r) a)
  else if card <=? 4096 then CArr (run_array_array_subtract r a (-1))
  else bitset_array_container_andnot (bitset_container_from_run r) a.
(** mixed_andnot.c:381-421 array_run_container_andnot: (s,e) = (run_start,run_end), rs the
    runs after which_run; one step of the do-while per loop turn *)
Fixpoint array_run_andnot_loop (fuel : nat) (l : list Z) (s e : Z) (rs : list run) : list Z :=
  match fuel with
  | O => []
  | S f =>
    match l with
    | [] => []
    | val :: l' =>
      if val <? s then val :: array_run_andnot_loop f l' s e rs
      else if val <=? e then array_run_andnot_loop f l' s e rs
      else
        match rs with
        | (v, len) :: rs' => array_run_andnot_loop f l v (v + len) rs'
        | [] => array_run_andnot_loop f l 65537 65537 []
        end
    end
  end.
Definition array_run_container_andnot (a : list Z) (r : list run) : list Z :=
  match r with
  | [] => a
  | (v, l) :: r' => array_run_andnot_loop (S (S (length a + length r'))) a v (v + l) r'
  end.
(** mixed_andnot.c:436-447 *)
Definition run_run_container_andnot (r1 r2 : list run) : container :=
  convert_run_to_efficient_container (run_container_andnot r1 r2).
(** mixed_andnot.c:464-476 *)
Definition array_array_container_andnot (a b : list Z) : list Z := array_container_andnot a b.
(** mixed_andnot.c:482-496, in place 504-517 *)
Definition bitset_bitset_container_andnot (b1 b2 : bset) : container := bitset_or_array (bitset_container_andnot b1 b2).

(** * Proofs *)
Lemma array_bitset_andnot_spec a b : awf a -> zlen a <= 4096 ->
  erep (CArr (array_bitset_container_andnot a b)) (fun x => amem a x && negb (bget (b_words b) x)).
Proof.
  intros W L. unfold array_bitset_container_andnot.
  rewrite (filter_ext_In _ (fun x => negb (bget (b_words b) x)) a).
  - now apply erep_filter.
  - intros x I. destruct W as [_ B]. eapply inb_In in B; eauto. rewrite bitset_get_spec by lia. reflexivity.
Qed.
Lemma bitset_array_andnot_spec b a : bwf b -> awf a ->
  erep (bitset_array_container_andnot b a) (fun x => bget (b_words b) x && negb (amem a x)).
Proof.
  intros [W E] [I B]. unfold bitset_array_container_andnot.
  destruct (clear_list_ok (b_words b) a (b_card b) W B E) as (A1 & A2 & A3).
  destruct (bitset_clear_list (b_words b) (b_card b) a) as [ws c]. cbn [fst snd] in *.
  apply bitset_or_array_spec; auto. intros x Hx. rewrite A2 by lia. reflexivity.
Qed.
Lemma andnot_reset_flip_spec r : forall ws last, bws ws -> 0 <= last <= 65536 -> rok last r ->
  bws (andnot_reset_flip ws last r) /\
  forall x, 0 <= x < 65536 -> bget (andnot_reset_flip ws last r) x =
    if x <? last then bget ws x else rmem r x && negb (bget ws x).
Proof.
  induction r as [|[v l] r IH]; intros ws last W L R; cbn [andnot_reset_flip].
  - split; [now apply bws_reset|]. intros x Hx. destruct W as [W1 W2]. rewrite bitset_reset_range_spec by (auto; lia).
    rewrite rmem_nil. destruct (bget ws x); destruct (Z.ltb_spec x last); lia.
  - cbn [rok] in R. destruct R as (R1 & R2 & R3 & R4).
    assert (bws (bitset_reset_range ws last v)) as W' by (now apply bws_reset).
    destruct (IH (bitset_flip_range (bitset_reset_range ws last v) v (v + l + 1)) (v + l + 1)) as [A B].
    { now apply bws_flip. } { lia. } { eapply rok_weaken; [|eassumption]. lia. }
    split; auto. intros x Hx. rewrite B by auto. destruct W as [W1 W2], W' as [W3 W4].
    rewrite bitset_flip_range_spec by (auto; lia). rewrite bitset_reset_range_spec by (auto; lia).
    rewrite rmem_cons. unfold inrun. cbn [fst snd].
    pose proof (rmem_lo (v + l + 2) r x R4) as F.
    destruct (bget ws x), (rmem r x); destruct (Z.ltb_spec x (v + l + 1)), (Z.ltb_spec x last); lia.
Qed.
Lemma erep_vals P Q : cnt Q 0 65536 <= 4096 -> (forall x, 0 <= x < 65536 -> P x = true -> Q x = true) -> erep (CArr (vals P)) P.
Proof.
  intros H I. split; cbn [eok cmem].
  - split; [apply awf_vals|]. rewrite zlen_vals. pose proof (cnt_mono P Q 0 65536 I). lia.
  - intros x Hx. now apply amem_vals.
Qed.
Lemma run_bitset_andnot_spec r b : rwf r -> bws (b_words b) ->
  erep (run_bitset_container_andnot r b) (fun x => rmem r x && negb (bget (b_words b) x)).
Proof.
  intros R W. unfold run_bitset_container_andnot. rewrite run_cardinality_spec by auto.
  destruct (Z.leb_spec (rcard r) 4096).
  - rewrite (flat_map_filter_runs (fun v => negb (bitset_container_get b v))) by auto.
    eapply erep_ext; [apply (erep_vals _ (rmem r)); [exact H|]|].
    + intros x Hx T. now apply andb_true_iff in T.
    + intros x Hx. cbn beta. rewrite bitset_get_spec by lia. reflexivity.
  - destruct (andnot_reset_flip_spec r (b_words b) 0 W ltac:(lia) R) as [A B].
    apply bitset_or_array_spec; auto; [now apply compute_cardinality_spec|].
    intros x Hx. rewrite B by auto. replace (x <? 0) with false by lia. reflexivity.
Qed.
Lemma reset_runs_spec r : forall ws lo, bws ws -> 0 <= lo -> rok lo r ->
  bws (reset_runs ws r) /\ forall x, 0 <= x -> bget (reset_runs ws r) x = bget ws x && negb (rmem r x).
Proof.
  unfold reset_runs. induction r as [|[v l] r IH]; intros ws lo W L R; cbn [fold_left fst snd].
  - split; auto. intros x Hx. rewrite rmem_nil. now rewrite andb_true_r.
  - cbn [rok] in R. destruct R as (R1 & R2 & R3 & R4).
    destruct (IH (bitset_reset_range ws v (v + l + 1)) (v + l + 2)) as [A B]; auto; [now apply bws_reset|lia|].
    split; auto. intros x Hx. rewrite B by auto. destruct W as [W1 W2].
    rewrite bitset_reset_range_spec by (auto; lia). rewrite rmem_cons. unfold inrun. cbn [fst snd].
    destruct (bget ws x), (rmem r x); lia.
Qed.
Lemma bitset_run_andnot_spec b r : rwf r -> bws (b_words b) ->
  erep (bitset_run_container_andnot b r) (fun x => bget (b_words b) x && negb (rmem r x)).
Proof.
  intros R W. destruct (reset_runs_spec r (b_words b) 0 W ltac:(lia) R) as [A B].
  apply bitset_or_array_spec; auto; [now apply compute_cardinality_spec|].
  intros x Hx. now rewrite B by lia.
Qed.

Lemma subtract_inner_spec a : incr a -> inb 0 65536 a -> forall n i next pos,
  (pos = lb a i /\ pos < zlen a /\ next = znth a pos) \/ (pos = zlen a - 1 /\ lb a i = zlen a /\ next = 0 /\ 0 < i) ->
  0 <= i -> 0 < zlen a ->
  let '(out, pos') := subtract_inner (zr i (i + Z.of_nat n)) a next pos in
  out = filter (fun x => negb (zmem x a)) (zr i (i + Z.of_nat n)) /\
  0 <= pos' < zlen a /\ pos' <= lb a (i + Z.of_nat n).
Proof.
  intros Ia Ba. induction n as [|n IH]; intros i next pos St Hi Hz.
  - rewrite zr_nil by lia. cbn [subtract_inner filter]. replace (i + Z.of_nat 0) with i by lia.
    pose proof (lb_bound a i). split; auto. lia.
  - rewrite zr_cons by lia. cbn [subtract_inner].
    replace (i + Z.of_nat (S n)) with (i + 1 + Z.of_nat n) by lia. cbn [filter].
    pose proof (lb_succ a i Ia) as Ls. pose proof (lb_bound a i) as Lb.
    destruct St as [(S1 & S2 & S3)|(S1 & S2 & S3 & S4)].
    + assert (zmem i a = (i =? next)) as Em.
      { apply zmem_bool. rewrite lb_In by auto. rewrite <- S1, <- S3. rewrite Z.eqb_eq. split; intros; lia. }
      rewrite Em. destruct (Z.eqb_spec i next); rewrite Em in Ls.
      * cbn [negb]. destruct (Z.leb_spec (zlen a) (pos + 1)).
        -- apply (IH (i + 1)); auto; lia.
        -- apply (IH (i + 1)); auto; lia.
      * cbn [negb]. specialize (IH (i + 1) next pos).
        destruct (subtract_inner (zr (i + 1) (i + 1 + Z.of_nat n)) a next pos) as [out p].
        destruct IH as (A1 & A2 & A3); [left; repeat split; auto; lia|lia|lia|].
        split; [now rewrite A1|]. split; auto.
    + assert (zmem i a = false) as Em.
      { apply zmem_nIn. rewrite lb_In by auto. lia. }
      rewrite Em in *. destruct (Z.eqb_spec i next); [lia|]. cbn [negb].
      specialize (IH (i + 1) next pos).
      destruct (subtract_inner (zr (i + 1) (i + 1 + Z.of_nat n)) a next pos) as [out p].
      destruct IH as (A1 & A2 & A3); [right; repeat split; auto; lia|lia|lia|].
      split; [now rewrite A1|]. split; auto.
Qed.
Lemma run_array_subtract_spec a : incr a -> inb 0 65536 a -> forall r lo pos, rok lo r -> 0 <= lo -> -1 <= pos ->
  (forall j, 0 <= j <= pos -> j < zlen a -> znth a j < lo) ->
  run_array_array_subtract r a pos = filter (fun x => negb (zmem x a)) (flat_map (fun x => zr (fst x) (fst x + snd x + 1)) r).
Proof.
  intros Ia Ba. induction r as [|[v l] r IH]; intros lo pos R L P Hp; [reflexivity|].
  cbn [rok] in R. destruct R as (R1 & R2 & R3 & R4). cbn [run_array_array_subtract flat_map fst snd].
  rewrite filter_app. pose proof (zlen_nonneg a) as Zn.
  assert (zlen a <= advanceUntil a pos (zlen a) v /\ lb a v = zlen a \/
          advanceUntil a pos (zlen a) v = lb a v /\ lb a v < zlen a) as Adv.
  { destruct (Z_lt_dec pos (zlen a)).
    - rewrite advanceUntil_lb by (auto; try lia; intros; specialize (Hp pos); lia).
      pose proof (lb_bound a v). lia.
    - left. unfold advanceUntil. replace (zlen a <=? pos + 1) with true by lia. cbn [orb].
      split; [lia|]. apply lb_all. intros y I. apply In_znth in I. destruct I as [j [J1 <-]].
      specialize (Hp j). lia. }
  assert (Nofilter : lb a v = lb a (v + l + 1) -> filter (fun x => negb (zmem x a)) (zr v (v + l + 1)) = zr v (v + l + 1)).
  { intros E. apply filter_all. intros x I. apply zr_In in I. apply negb_true_iff, zmem_nIn. rewrite lb_In by auto.
    intros [J1 J2]. pose proof (lb_mono a v x ltac:(lia)). pose proof (lb_mono a (x + 1) (v + l + 1) ltac:(lia)).
    pose proof (lb_succ a x Ia) as Ls. replace (zmem x a) with true in Ls; [lia|].
    symmetry. apply zmem_In. apply lb_In; auto. }
  destruct Adv as [[D1 D2]|[D1 D2]].
  - replace (zlen a <=? advanceUntil a pos (zlen a) v) with true by lia. f_equal.
    + symmetry. apply Nofilter. pose proof (lb_mono a v (v + l + 1) ltac:(lia)). pose proof (lb_bound a (v + l + 1)). lia.
    + apply (IH (v + l + 2)); auto; try lia. intros j J1 J2.
      assert (znth a j < v); [|lia]. apply (lb_lt a v j Ia). lia.
  - rewrite D1. pose proof (lb_bound a v) as Lb. replace (zlen a <=? lb a v) with false by lia.
    destruct (Z.leb_spec (v + l + 1) (znth a (lb a v))).
    + f_equal.
      * symmetry. apply Nofilter. symmetry. apply lb_unique; auto; [intros j J; pose proof (lb_lt a v j Ia J); lia|].
        intros j J. pose proof (incr_znth_le a (lb a v) j Ia). lia.
      * apply (IH (v + l + 2)); auto; try lia. intros j J1 J2. pose proof (lb_lt a v j Ia). lia.
    + pose proof (subtract_inner_spec a Ia Ba (Z.to_nat (l + 1)) v (znth a (lb a v)) (lb a v)) as Sp.
      replace (v + Z.of_nat (Z.to_nat (l + 1))) with (v + l + 1) in Sp by lia.
      destruct (subtract_inner (zr v (v + l + 1)) a (znth a (lb a v)) (lb a v)) as [out pos'].
      destruct Sp as (A1 & A2 & A3); [left; auto|lia|lia|]. rewrite A1. f_equal.
      apply (IH (v + l + 2)); auto; try lia. intros j J1 J2. pose proof (lb_lt a (v + l + 1) j Ia). lia.
Qed.

Lemma run_array_andnot_loop_spec fuel dst start end_ r1 a (b : nat) : rok 0 dst -> rnext 0 dst <= start -> start < end_ -> end_ <= 65536 ->
  rok (end_+1) r1 -> incr a -> inb 0 65536 a ->
  (b <= 1)%nat -> (b = 1%nat -> match a with [] => False | y :: _ => y + 1 <= start end) ->
  (length r1 + (length a + length a) < fuel + b)%nat ->
  let d := run_array_andnot_loop fuel dst start end_ r1 a in
  rok 0 d /\ forall y, rmem d y = rmem dst y || (((start <=? y) && (y <? end_) || rmem r1 y) && negb (amem a y)).
Proof.
  revert dst start end_ r1 a b.
  induction fuel; intros dst start end_ r1 a b H HN Hse He H1 Ia Ba Hb Hb1 Hf.
  { exfalso. destruct b as [|[|b]]; [lia| |lia]. specialize (Hb1 eq_refl). destruct a; [tauto|]. cbn [length] in Hf. lia. }
  cbn zeta. cbn [run_array_andnot_loop]. pose proof (rnext_ge _ _ H).
  assert (Emit : forall e, start < e <= end_ -> rok 0 (dst ++ [(u16 start, u16 (e - start - 1))]) /\
     rnext 0 (dst ++ [(u16 start, u16 (e - start - 1))]) = e + 1 /\
     (forall y, rmem (dst ++ [(u16 start, u16 (e - start - 1))]) y = rmem dst y || ((start <=? y) && (y <? e)))).
  { intros e He'. rewrite !u16_small by lia. split; [|split].
    - apply rok_app. split; auto. cbn [rok]. intuition lia.
    - rewrite rnext_app. cbn [rnext]. lia.
    - intros y. rsimp. lia. }
  destruct a as [|v2 a].
  { destruct (Emit end_) as (E1&E2&E3); [lia|].
    replace (dst ++ [(u16 start, u16 (end_-start-1))] ++ r1) with ((dst ++ [(u16 start, u16 (end_-start-1))]) ++ r1) by (symmetry; apply app_assoc).
    split.
    - apply rok_app. split; auto. rewrite E2. auto.
    - intros y. rewrite rmem_app, E3. unfold amem. cbn [zmem existsb negb]. rewrite andb_true_r. now rewrite orb_assoc. }
  cbn [length] in Hf. assert (Ia' := Ia). assert (Ba' := Ba). apply incr_cons in Ia. destruct Ia as [I1 I2]. apply inb_cons in Ba. destruct Ba as [B1 B2].
  assert (F2 : forall y, y <= v2 -> amem a y = false).
  { intros y Hy. apply zmem_nIn. intros I. rewrite Forall_forall in I1. specialize (I1 y I). lia. }
  pose proof (fun y => rmem_lo _ r1 y H1) as F1.
  assert (Ac : forall y, amem (v2 :: a) y = (y =? v2) || amem a y) by (intros; apply zmem_cons).
  assert (Next : forall dst', rok 0 dst' -> rnext 0 dst' <= end_ + 1 -> b = 0%nat ->
     (forall y, rmem dst' y || (rmem r1 y && negb (amem (v2 :: a) y)) =
                rmem dst y || (((start <=? y) && (y <? end_) || rmem r1 y) && negb (amem (v2 :: a) y))) ->
     let d := match r1 with [] => dst' | x :: r1' => run_array_andnot_loop fuel dst' (fst x) (fst x + snd x + 1) r1' (v2 :: a) end in
     rok 0 d /\ forall y, rmem d y = rmem dst y || (((start <=? y) && (y <? end_) || rmem r1 y) && negb (amem (v2 :: a) y))).
  { intros dst' D1 D2 D3 D4. cbn zeta. destruct r1 as [|[v1 l1] r1].
    - split; auto. intros y. rewrite <- D4. rewrite rmem_nil. cbn [andb]. now rewrite orb_false_r.
    - cbn [fst snd]. cbn [rok] in H1. destruct H1 as (A1&A2&A3&A4).
      destruct (IHfuel dst' v1 (v1+l1+1) r1 (v2 :: a) 0%nat) as [Q1 Q2]; auto; try lia.
      + replace (v1+l1+1+1) with (v1+l1+2) by lia. auto.
      + cbn [length] in *. lia.
      + split; auto. intros y. rewrite Q2, <- D4. rewrite (rmem_cons (v1,l1) r1). unfold inrun. cbn [fst snd].
        replace (y <? v1+l1+1) with (y <=? v1+l1) by lia. reflexivity. }
  destruct (Z.leb_spec end_ v2).
  { destruct (Emit end_) as (E1&E2&E3); [lia|]. apply Next; [auto|lia| |].
    - destruct b as [|[|b]]; [auto| |lia]. specialize (Hb1 eq_refl). cbn [fst snd] in Hb1. lia.
    - intros y. rewrite E3. assert (G : y < v2 -> amem (v2 :: a) y = false).
      { intros. rewrite Ac. rewrite F2 by lia. lia. }
      destruct (amem (v2 :: a) y); cbn [negb]; [|destruct (rmem dst y), (rmem r1 y); lia].
      rewrite !andb_false_r, !orb_false_r. destruct (rmem dst y); lia. }
  destruct (Z.leb_spec (v2+1) start).
  { destruct (IHfuel dst start end_ r1 a 0%nat) as [Q1 Q2]; auto; try lia.
    split; auto. intros y. rewrite Q2. rewrite Ac.
    specialize (F1 y). destruct (rmem dst y), (rmem r1 y), (amem a y); cbn [orb andb negb]; lia. }
  assert (Hb0 : b = 0%nat). { destruct b as [|[|b]]; [auto| |lia]. specialize (Hb1 eq_refl). cbn [fst snd] in Hb1. lia. }
  set (dst' := if start <? v2 then dst ++ [(u16 start, u16 (v2 - start - 1))] else dst).
  assert (HD : rok 0 dst' /\ rnext 0 dst' <= Z.max start (v2+1) /\ forall y, rmem dst' y = rmem dst y || ((start <=? y) && (y <? v2))).
  { unfold dst'. destruct (Z.ltb_spec start v2).
    - destruct (Emit v2) as (E1&E2&E3); [lia|]. split; auto. split; auto. lia.
    - split; auto. split; [lia|]. intros y. replace ((start <=? y) && (y <? v2)) with false by lia. now rewrite orb_false_r. }
  clearbody dst'. destruct HD as (D1&D2&D3).
  destruct (Z.ltb_spec (v2+1) end_).
  - destruct (IHfuel dst' (v2+1) end_ r1 (v2 :: a) 1%nat) as [Q1 Q2]; auto; try lia.
    + cbn [length]. lia.
    + split; auto. intros y. rewrite Q2, D3. specialize (F1 y). specialize (F2 y). rewrite Ac. destruct (rmem dst y), (rmem r1 y), (amem a y); lia.
  - apply Next; auto; try lia. intros y. rewrite D3. specialize (F1 y). specialize (F2 y). rewrite Ac. destruct (rmem dst y), (rmem r1 y), (amem a y); lia.
Qed.
Lemma flat_map_zr_vals r : rwf r -> flat_map (fun x => zr (fst x) (fst x + snd x + 1)) r = vals (rmem r).
Proof.
  intros R. rewrite <- array_from_run_spec by auto. unfold array_container_from_run.
  rewrite !flat_map_concat_map. f_equal. apply map_ext_in. intros [v l] I. cbn [fst snd].
  destruct (rok_In 0 r v l R I) as (A & B & C).
  rewrite <- (map_id (zr v (v + l + 1))) at 1. apply map_ext_in. intros x Ix. apply zr_In in Ix. symmetry. apply u16_small. lia.
Qed.
Lemma run_array_andnot_spec r a : rwf r -> r <> [] -> awf a ->
  erep (run_array_container_andnot r a) (fun x => rmem r x && negb (amem a x)).
Proof.
  intros R Nr [Ia Ba]. unfold run_array_container_andnot. destruct (Z.leb_spec (run_container_cardinality r) 32).
  - destruct (Z.eqb_spec (zlen a) 0) as [E|E].
    + apply zlen_0_nil in E. subst a. split; cbn [eok cmem]; auto. intros x _. unfold amem. cbn. now rewrite andb_true_r.
    + destruct r as [|[v l] r]; [congruence|]. rewrite rnth_0. cbn [fst snd]. change (rskip 1 ((v,l)::r)) with r.
      unfold rwf in R. cbn [rok] in R. destruct R as (R1 & R2 & R3 & R4).
      destruct (run_array_andnot_loop_spec (S (length ((v,l)::r) + (length a + length a))) [] v (v+l+1) r a 0%nat) as [Q1 Q2];
        cbn [rok rnext]; auto; try lia.
      { replace (v+l+1+1) with (v+l+2) by lia. auto. } { cbn [length]. lia. }
      eapply erep_ext; [now apply convert_run_eff_erep|]. intros x Hx. rewrite Q2. rewrite rmem_nil, rmem_cons. unfold inrun. cbn [fst snd orb].
      replace (x <? v + l + 1) with (x <=? v + l) by lia. reflexivity.
  - destruct (Z.leb_spec (run_container_cardinality r) 4096).
    + rewrite (run_array_subtract_spec a Ia Ba r 0) by (auto; lia). rewrite flat_map_zr_vals by auto.
      assert (filter (fun x => negb (zmem x a)) (vals (rmem r)) = vals (fun x => rmem r x && negb (amem a x))) as E.
      { unfold vals. generalize (zr 0 65536). induction l as [|y l IH]; [reflexivity|]. cbn [filter]. unfold amem in *.
        destruct (rmem r y); cbn [filter andb]; rewrite IH; auto. }
      rewrite E. apply (erep_vals _ (rmem r)).
      * rewrite run_cardinality_spec in * by auto. unfold rcard in *. lia.
      * intros x Hx T. now apply andb_true_iff in T.
    + destruct (bitset_from_run_spec r R) as (W & _ & M). eapply erep_ext; [apply bitset_array_andnot_spec; [auto|split; auto]|].
      intros x Hx. cbn beta. now rewrite M.
Qed.
Lemma array_run_andnot_loop_spec fuel : forall l s e rs, incr l -> inb 0 65536 l -> s <= e -> rok (e + 2) rs ->
  (length l + length rs + (if (e <? 65536)%Z then 1 else 0) < fuel)%nat -> (65536 <= e -> s = e) ->
  array_run_andnot_loop fuel l s e rs = filter (fun x => negb ((s <=? x) && (x <=? e) || rmem rs x)) l.
Proof.
  induction fuel as [|f IH]; intros l s e rs Il Bl Hse R F Hs; [lia|]. cbn [array_run_andnot_loop].
  destruct l as [|v l]; [reflexivity|]. assert (Il' := Il). assert (Bl' := Bl). apply incr_cons in Il. destruct Il as [I1 I2].
  apply inb_cons in Bl. destruct Bl as [B1 B2]. rewrite Forall_forall in I1. cbn [filter].
  destruct (Z.ltb_spec v s).
  - replace (rmem rs v) with false by (symmetry; apply (rmem_lo (e + 2)); auto; lia).
    replace (s <=? v) with false by lia. cbn [andb orb negb]. f_equal. apply IH; auto. cbn [length] in F. lia.
  - destruct (Z.leb_spec v e).
    + replace (s <=? v) with true by lia. cbn [andb orb negb]. apply IH; auto. cbn [length] in F. lia.
    + replace (s <=? v) with true by lia. cbn [andb orb]. destruct rs as [|[v2 l2] rs].
      * rewrite IH; auto; try lia; [|replace (e <? 65536) with true in F by lia; cbn [length] in *; change (65537 <? 65536) with false; cbv iota; lia].
        change (filter (fun x => negb ((65537 <=? x) && (x <=? 65537) || rmem [] x)) (v :: l) =
                if negb (rmem [] v) then v :: filter (fun x => negb ((s <=? x) && (x <=? e) || rmem [] x)) l
                else filter (fun x => negb ((s <=? x) && (x <=? e) || rmem [] x)) l).
        rewrite rmem_nil. cbn [filter negb]. rewrite rmem_nil. replace ((65537 <=? v) && (v <=? 65537)) with false by lia. cbn [orb negb].
        f_equal. apply filter_ext_In. intros x I. specialize (I1 x I). pose proof (inb_In _ _ _ _ B2 I). rewrite rmem_nil. lia.
      * cbn [rok] in R. destruct R as (R1 & R2 & R3 & R4).
        rewrite IH; auto; try lia; [|replace (e <? 65536) with true in F by lia; cbn [length] in *; destruct (Z.ltb_spec (v2 + l2) 65536); lia].
        transitivity (filter (fun x => negb ((s <=? x) && (x <=? e) || rmem ((v2, l2) :: rs) x)) (v :: l)).
        -- apply filter_ext_In. intros x I. rewrite rmem_cons. unfold inrun. cbn [fst snd].
           assert (v <= x) by (destruct I as [->|I]; [lia|specialize (I1 x I); lia]).
           replace (x <=? e) with false by lia. rewrite andb_false_r. reflexivity.
        -- cbn [filter]. replace (s <=? v) with true by lia. replace (v <=? e) with false by lia. reflexivity.
Qed.
Lemma array_run_andnot_spec a r : awf a -> zlen a <= 4096 -> rwf r ->
  erep (CArr (array_run_container_andnot a r)) (fun x => amem a x && negb (rmem r x)).
Proof.
  intros [Ia Ba] L R. unfold array_run_container_andnot. destruct r as [|[v l] r].
  - split; cbn [eok cmem]; auto; [split; auto; split; auto|]. intros x _. now rewrite rmem_nil, andb_true_r.
  - unfold rwf in R. cbn [rok] in R. destruct R as (R1 & R2 & R3 & R4).
    rewrite array_run_andnot_loop_spec; auto; try lia; [|destruct (v + l <? 65536); lia].
    eapply erep_ext; [apply erep_filter; [split; auto|auto]|]. intros x Hx. cbn beta. rewrite rmem_cons. reflexivity.
Qed.
Lemma run_run_andnot_spec r1 r2 : rwf r1 -> rwf r2 ->
  erep (run_run_container_andnot r1 r2) (fun x => rmem r1 x && negb (rmem r2 x)).
Proof.
  intros R1 R2. destruct (run_andnot_spec r1 r2 R1 R2) as [W M]. eapply erep_ext; [now apply convert_run_eff_erep|].
  intros x Hx. now rewrite M by lia.
Qed.
Lemma array_array_andnot_spec a b : awf a -> awf b -> zlen a <= 4096 ->
  erep (CArr (array_array_container_andnot a b)) (fun x => amem a x && negb (amem b x)).
Proof.
  intros A B L. destruct (array_andnot_spec a b A B) as [W M]. apply erep_array; auto.
  unfold array_array_container_andnot, array_container_andnot. rewrite difference_uint16_spec by (apply A || apply B).
  pose proof (filter_len_le (fun x => negb (zmem x b)) a). lia.
Qed.
Lemma bitset_bitset_andnot_spec b1 b2 : bws (b_words b1) -> bws (b_words b2) ->
  erep (bitset_bitset_container_andnot b1 b2) (fun x => bget (b_words b1) x && negb (bget (b_words b2) x)).
Proof.
  intros W1 W2. unfold bitset_bitset_container_andnot, bitset_container_andnot.
  destruct (bitset_op_spec andn64 (fun a b => a && negb b) b1 b2 wordop_andn W1 W2) as [[W E] M].
  rewrite (surjective_pairing (bitset_op andn64 b1 b2)). now apply bitset_or_array_spec.
Qed.
