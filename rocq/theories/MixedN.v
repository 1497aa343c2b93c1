(** MixedN: src/containers/mixed_negation.c, mixed_equal.c and mixed_subset.c. *)
From Coq Require Import ZArith List Bool Lia Sorted Btauto.
From Verif Require Import Base ArrayUtil BitUtil BitsetC ArrayC RunC RunD Convert MixedI MixedU MixedA.
Import ListNotations.
Open Scope Z_scope.
Local Opaque zr.

(** ** mixed_negation.c *)
(** mixed_negation.c:32-43 array_container_negation *)
Definition array_container_negation (a : list Z) : bset :=
  if zlen a =? 0 then bitset_container_set_all
  else let '(ws, c) := bitset_clear_list (repeat ones64 1024) 65536 a in (c, ws).
(** mixed_negation.c:137-152: the loop over the flipped range; seg = src->array[in_pos..last_index] *)
Fixpoint negation_loop (vs : list Z) (seg : list Z) : list Z :=
  match vs with
  | [] => []
  | v :: vs' =>
    match seg with
    | [] => u16 v :: negation_loop vs' []
    | s :: seg' => if negb (u16 v =? s) then u16 v :: negation_loop vs' seg else negation_loop vs' seg'
    end
  end.
(** mixed_negation.c:97-159 array_container_negation_range.  arr->cardinality is set to
    new_cardinality; the list produced has exactly that length (array_negation_range_len). *)
Definition negation_new_cardinality (a : list Z) (range_start range_end : Z) : Z :=
  let si := binarySearch a (u16 range_start) in
  let start_index := if si <? 0 then - si - 1 else si in
  let li := binarySearch a (u16 (range_end - 1)) in
  let last_index := if li <? 0 then - li - 2 else li in
  let current_values_in_range := last_index - start_index + 1 in
  let new_values_in_range := (range_end - range_start) - current_values_in_range in
  zlen a + (new_values_in_range - current_values_in_range).
Definition array_container_negation_range (a : list Z) (range_start range_end : Z) : container :=
  if range_end <=? range_start then CArr a
  else
    let si := binarySearch a (u16 range_start) in
    let start_index := if si <? 0 then - si - 1 else si in
    let li := binarySearch a (u16 (range_end - 1)) in
    let last_index := if li <? 0 then - li - 2 else li in
    let new_cardinality := negation_new_cardinality a range_start range_end in
    if 4096 <? new_cardinality then
      CBit (new_cardinality, bitset_flip_range (b_words (bitset_container_from_array a)) range_start range_end)
    else if new_cardinality =? 0 then CArr []
    else
      CArr (ztake start_index a
            ++ negation_loop (zr range_start range_end) (zskip start_index (ztake (last_index + 1) a))
            ++ zskip (last_index + 1) a).
(** mixed_negation.c:182-203, in place 214-227 *)
Definition bitset_container_negation_range (b : bset) (range_start range_end : Z) : container :=
  let ws := bitset_flip_range (b_words b) range_start range_end in
  bitset_or_array (bitset_container_compute_cardinality ws, ws).
(** mixed_negation.c:235-266 run_container_negation_range *)
Fixpoint runs_before (r : list run) (range_start : Z) : list run * list run :=
  match r with
  | [] => ([], [])
  | x :: r' => if fst x <? range_start then let '(A, B) := runs_before r' range_start in (x :: A, B) else ([], r)
  end.
Definition append_exclusive_all (dst r : list run) : list run :=
  fold_left (fun d x => run_container_smart_append_exclusive d (fst x) (snd x)) r dst.
Definition run_negation_runs (r : list run) (range_start range_end : Z) : list run :=
  let '(A, B) := runs_before r range_start in
  append_exclusive_all (run_container_smart_append_exclusive A (u16 range_start) (u16 (range_end - range_start - 1))) B.
Definition run_container_negation_range (r : list run) (range_start range_end : Z) : container :=
  if range_end <=? range_start then CRun r
  else convert_run_to_efficient_container (run_negation_runs r range_start range_end).
(** mixed_negation.c:275-348 run_container_negation_range_inplace: the test on the capacity
    selects between the copying version and appending into the same buffer; at the level
    of values both are the same list of appends. *)
Definition run_container_negation_range_inplace (cap : Z) (r : list run) (range_start range_end : Z) : container :=
  if range_end <=? range_start then CRun r
  else if (cap =? zlen r) &&
          (let last_val_before_range := if 0 <? range_start then run_container_contains r (u16 (range_start - 1)) else false in
           let first_val_in_range := run_container_contains r (u16 range_start) in
           Bool.eqb last_val_before_range first_val_in_range &&
           (let last_val_in_range := run_container_contains r (u16 (range_end - 1)) in
            let first_val_past_range := if negb (range_end =? 65536) then run_container_contains r (u16 range_end) else false in
            Bool.eqb last_val_in_range first_val_past_range))
       then run_container_negation_range r range_start range_end
  else convert_run_to_efficient_container (run_negation_runs r range_start range_end).
(** mixed_negation.c:52-57, 66-92 *)
Definition bitset_container_negation (b : bset) : container := bitset_container_negation_range b 0 65536.
Definition run_container_negation (r : list run) : container := run_container_negation_range r 0 65536.
Definition run_container_negation_inplace (cap : Z) (r : list run) : container := run_container_negation_range_inplace cap r 0 65536.

(** ** mixed_equal.c *)
(** mixed_equal.c:9-33 array_container_equal_bitset: None is "return false", Some the rest of the array *)
Fixpoint array_equal_word (fuel : nat) (w base : Z) (a : list Z) : option (list Z) :=
  match fuel with
  | O => Some a
  | S f =>
    if w =? 0 then Some a
    else
      match a with
      | [] => None
      | y :: a' => if negb (y =? u16 (ctz w + base)) then None else array_equal_word f (clear_lowest w) base a'
      end
  end.
Fixpoint array_equal_words (ws : list Z) (base : Z) (a : list Z) : option (list Z) :=
  match ws with
  | [] => Some a
  | w :: ws' => match array_equal_word 64 w base a with None => None | Some a' => array_equal_words ws' (base + 64) a' end
  end.
Definition array_container_equal_bitset (a : list Z) (b : bset) : bool :=
  if negb (b_card b =? -1) && negb (b_card b =? zlen a) then false
  else match array_equal_words (b_words b) 0 a with Some rest => zlen rest =? 0 | None => false end.
(** mixed_equal.c:35-55 run_container_equals_array *)
Fixpoint run_equals_array_loop (r : list run) (a : list Z) (pos : Z) : bool :=
  match r with
  | [] => true
  | (run_start, le) :: r' =>
    if negb (znth a pos =? run_start) then false
    else if negb (znth a (pos + le) =? run_start + le) then false
    else run_equals_array_loop r' a (pos + (le + 1))
  end.
Definition run_container_equals_array (r : list run) (a : list Z) : bool :=
  if negb (run_container_cardinality r =? zlen a) then false else run_equals_array_loop r a 0.
(** mixed_equal.c:57-82 run_container_equals_bitset *)
Definition run_container_equals_bitset (r : list run) (b : bset) : bool :=
  let bitset_card := if negb (b_card b =? -1) then b_card b else bitset_container_compute_cardinality (b_words b) in
  if negb (bitset_card =? run_container_cardinality r) then false
  else
    forallb (fun x : run => if negb (snd x =? 0) then bitset_container_get_range b (fst x) (fst x + snd x + 1)
                            else bitset_container_get b (fst x)) r.

(** ** mixed_subset.c *)
(** mixed_subset.c:10-23 *)
Definition array_container_is_subset_bitset (a : list Z) (b : bset) : bool :=
  if negb (b_card b =? -1) && (b_card b <? zlen a) then false
  else forallb (fun v => bitset_container_get b v) a.
(** mixed_subset.c:25-46 *)
Fixpoint run_subset_array_loop (r : list run) (a : list Z) (stop_pos : Z) : bool :=
  match r with
  | [] => true
  | (start, le) :: r' =>
    let stop := start + le in
    let start_pos := advanceUntil a stop_pos (zlen a) start in
    let stop_pos := advanceUntil a stop_pos (zlen a) stop in
    if stop_pos =? zlen a then false
    else if negb (stop_pos - start_pos =? stop - start) || negb (znth a start_pos =? start) || negb (znth a stop_pos =? stop) then false
    else run_subset_array_loop r' a stop_pos
  end.
Definition run_container_is_subset_array (r : list run) (a : list Z) : bool :=
  if zlen a <? run_container_cardinality r then false else run_subset_array_loop r a (-1).
(** mixed_subset.c:48-69 *)
Fixpoint array_subset_run_loop (fuel : nat) (a : list Z) (r : list run) : bool :=
  match fuel with
  | O => false
  | S f =>
    match a, r with
    | [], _ => true
    | _ :: _, [] => false
    | x :: a', (start, le) :: r' =>
      if x <? start then false
      else if start + le <? x then array_subset_run_loop f a r'
      else array_subset_run_loop f a' r
    end
  end.
Definition array_container_is_subset_run (a : list Z) (r : list run) : bool :=
  if run_container_cardinality r <? zlen a then false
  else array_subset_run_loop (S (length a + length r)) a r.
(** mixed_subset.c:71-95 *)
Definition run_container_is_subset_bitset (r : list run) (b : bset) : bool :=
  let card := if negb (b_card b =? -1) then b_card b else bitset_container_compute_cardinality (b_words b) in
  if card <? run_container_cardinality r then false
  else forallb (fun x : run => forallb (fun j => bitset_container_get b j) (zr (fst x) (fst x + snd x + 1))) r.
(** mixed_subset.c:97-140: w is what is left of the current word, rest the words after it *)
Fixpoint bitset_subset_run_loop (fuel : nat) (w : Z) (rest : list Z) (base : Z) (r : list run) : bool :=
  match fuel with
  | O => false
  | S f =>
    match r with
    | [] => (w =? 0) && forallb (fun w => w =? 0) rest
    | (start, le) :: r' =>
      if w =? 0 then
        match rest with [] => true | w' :: rest' => bitset_subset_run_loop f w' rest' (base + 64) r end
      else
        let v := u16 (base + ctz w) in
        if v <? start then false
        else if start + le <? v then bitset_subset_run_loop f w rest base r'
        else bitset_subset_run_loop f (clear_lowest w) rest base r
    end
  end.
Definition bitset_container_is_subset_run (b : bset) (r : list run) : bool :=
  if negb (b_card b =? -1) && (run_container_cardinality r <? b_card b) then false
  else
    match b_words b with
    | [] => true
    | w :: rest => bitset_subset_run_loop (Z.to_nat (66561 + zlen r)) w rest 0 r
    end.

(** * Proofs *)
Lemma wfw_cons w ws : wfw (w :: ws) <-> isw w /\ wfw ws.
Proof. unfold wfw. split; [intros H; now inversion_clear H|intros []; now constructor]. Qed.
Lemma zskip_zskip p n (a : list Z) : 0 <= p -> 0 <= n -> zskip n (zskip p a) = zskip (p + n) a.
Proof. intros. unfold zskip. rewrite Z2Nat.inj_add by lia. rewrite Nat.add_comm. revert a. induction (Z.to_nat p) as [|k IH]; intros a; [now rewrite Nat.add_0_r|].
  rewrite Nat.add_succ_r. destruct a as [|x a]; [now rewrite !skipn_nil|]. cbn [skipn]. apply IH. Qed.
Lemma app_inv_zlen (A B C D : list Z) : A ++ B = C ++ D -> zlen A = zlen C -> A = C /\ B = D.
Proof. revert C. induction A as [|x A IH]; intros [|y C] H L; unfold zlen in *; cbn [length app] in *; try lia; auto.
  injection H as -> H. destruct (IH C H); [lia|]. split; congruence. Qed.
Lemma array_negation_spec a : awf a ->
  bwf (array_container_negation a) /\
  forall x, 0 <= x < 65536 -> bget (b_words (array_container_negation a)) x = negb (amem a x).
Proof.
  intros [Ia Ba]. unfold array_container_negation. destruct set_all_bwf as [W E].
  destruct (Z.eqb_spec (zlen a) 0) as [Z0|N0].
  - apply zlen_0_nil in Z0. subst a. split; [split; assumption|].
    intros x Hx. change (amem [] x) with false. cbn [negb].
    apply (cnt_full_inv (bget (b_words bitset_container_set_all)) 0 65536); [lia| |lia].
    transitivity (b_card bitset_container_set_all); [symmetry; exact E|reflexivity].
  - assert (Full : forall x, 0 <= x < 65536 -> bget (repeat ones64 1024) x = true).
    { intros x Hx. apply (cnt_full_inv (bget (b_words bitset_container_set_all)) 0 65536); [lia| |lia].
      transitivity (b_card bitset_container_set_all); [symmetry; exact E|reflexivity]. }
    destruct (clear_list_ok (repeat ones64 1024) a 65536 W Ba E) as (A1 & A2 & A3).
    destruct (bitset_clear_list (repeat ones64 1024) 65536 a) as [ws c]. cbn [fst snd] in *.
    split; [split; auto|]. intros x Hx. unfold b_words. cbn [snd]. rewrite A2 by lia. now rewrite Full by lia.
Qed.

(** flipping a range *)
Definition fliprange (s e : Z) (P : Z -> bool) (x : Z) : bool := if (s <=? x) && (x <? e) then negb (P x) else P x.
Lemma fliprange_xorb s e P x : fliprange s e P x = xorb (P x) ((s <=? x) && (x <? e)).
Proof. unfold fliprange. destruct ((s <=? x) && (x <? e)), (P x); reflexivity. Qed.

Lemma negation_loop_spec seg : forall n lo, incr seg -> inb lo (lo + Z.of_nat n) seg -> 0 <= lo -> lo + Z.of_nat n <= 65536 ->
  negation_loop (zr lo (lo + Z.of_nat n)) seg = filter (fun x => negb (zmem x seg)) (zr lo (lo + Z.of_nat n)).
Proof.
  intros n. revert seg. induction n as [|n IH]; intros seg lo I B L H.
  - rewrite zr_nil by lia. reflexivity.
  - rewrite zr_cons by lia. cbn [negation_loop]. rewrite u16_small by lia.
    replace (lo + Z.of_nat (S n)) with (lo + 1 + Z.of_nat n) in * by lia. cbn [filter].
    destruct seg as [|s seg].
    + cbn [zmem existsb negb]. f_equal. apply IH; auto; try lia. constructor.
    + assert (I' := I). assert (B' := B). apply incr_cons in I. destruct I as [I1 I2]. apply inb_cons in B. destruct B as [B1 B2].
      rewrite Forall_forall in I1. destruct (Z.eqb_spec lo s) as [->|N]; cbn [negb].
      * rewrite zmem_cons. rewrite Z.eqb_refl. cbn [orb negb].
        rewrite IH; auto; try lia.
        -- apply filter_ext_In. intros x Ix. apply zr_In in Ix. rewrite zmem_cons. replace (x =? s) with false by lia. reflexivity.
        -- apply Forall_forall. intros x Ix. specialize (I1 x Ix). eapply inb_In in B2; eauto. lia.
      * assert (zmem lo (s :: seg) = false) as E.
        { apply zmem_nIn. intros [J|J]; [lia|]. specialize (I1 lo J). lia. }
        rewrite E. cbn [negb]. f_equal. apply IH; auto; try lia.
        apply Forall_forall. intros x [<-|Ix]; [lia|]. specialize (I1 x Ix). eapply inb_In in B2; eauto. lia.
Qed.
Lemma zskip_ztake_filter a s e : incr a -> s <= e ->
  zskip (lb a s) (ztake (lb a e) a) = filter (fun x => (s <=? x) && (x <? e)) a.
Proof.
  intros I H. destruct (split_lb a e I) as [E1 _]. rewrite E1.
  assert (lb a s = lb (filter (fun y => y <? e) a) s) as E2.
  { rewrite <- E1. rewrite <- (ztake_skip (lb a e) a) at 1. rewrite lb_app.
    rewrite (lb_none (zskip (lb a e) a)); [lia|]. intros y Iy. destruct (split_lb a e I) as [_ E3]. rewrite E3 in Iy.
    apply filter_In in Iy. lia. }
  rewrite E2. destruct (split_lb (filter (fun y => y <? e) a) s (incr_filter _ _ I)) as [_ E3]. rewrite E3.
  clear. induction a as [|y a IH]; [reflexivity|]. cbn [filter].
  destruct (Z.ltb_spec y e); cbn [filter]; destruct (Z.leb_spec s y); cbn [andb]; rewrite IH; reflexivity.
Qed.
Lemma negation_idx a s e : incr a -> 0 <= s < e -> e <= 65536 ->
  (let si := binarySearch a (u16 s) in (if si <? 0 then - si - 1 else si) = lb a s) /\
  (let li := binarySearch a (u16 (e - 1)) in (if li <? 0 then - li - 2 else li) = lb a e - 1).
Proof.
  intros I H1 H2. cbn zeta. rewrite !u16_small by lia. rewrite !binarySearch_spec by auto.
  pose proof (lb_bound a s). pose proof (lb_bound a (e - 1)). pose proof (lb_succ a (e - 1) I) as L. replace (e - 1 + 1) with e in L by lia.
  destruct (zmem s a), (zmem (e - 1) a); split; zcases; lia.
Qed.
Lemma flip_cnt P s e : 0 <= s <= e -> e <= 65536 ->
  cnt (fliprange s e P) 0 65536 = cnt P 0 65536 + (e - s) - 2 * cnt P s e.
Proof.
  intros H1 H2. rewrite (cnt_app (fliprange s e P) 0 s) by lia. rewrite (cnt_app (fliprange s e P) s e) by lia.
  rewrite (cnt_app P 0 s) by lia. rewrite (cnt_app P s e 65536) by lia.
  rewrite (cnt_ext (fliprange s e P) P 0 s) by (intros; unfold fliprange; replace (s <=? x) with false by lia; reflexivity).
  rewrite (cnt_ext (fliprange s e P) P e 65536) by (intros; unfold fliprange; replace (x <? e) with false by lia; now rewrite andb_false_r).
  rewrite (cnt_ext (fliprange s e P) (fun x => negb (P x)) s e)
    by (intros; unfold fliprange; replace (s <=? x) with true by lia; replace (x <? e) with true by lia; reflexivity).
  rewrite cnt_compl by lia. lia.
Qed.
Lemma negation_newcard a s e : awf a -> 0 <= s < e -> e <= 65536 ->
  negation_new_cardinality a s e = cnt (fliprange s e (amem a)) 0 65536.
Proof.
  intros [I B] H1 H2. unfold negation_new_cardinality. destruct (negation_idx a s e I H1 H2) as [E1 E2]. cbn zeta in *.
  rewrite E1, E2. rewrite flip_cnt by lia. rewrite (zlen_acard a) by (split; auto). fold (acard a).
  rewrite !lb_cnt by (try (split; auto); lia). rewrite (cnt_app (amem a) 0 s e) by lia. lia.
Qed.
(** the values written by the array branch: exactly new_cardinality of them *)
Lemma array_negation_list a s e : awf a -> 0 <= s < e -> e <= 65536 ->
  ztake (lb a s) a ++ negation_loop (zr s e) (zskip (lb a s) (ztake (lb a e - 1 + 1) a)) ++ zskip (lb a e - 1 + 1) a
  = vals (fliprange s e (amem a)).
Proof.
  intros [I B] H1 H2. replace (lb a e - 1 + 1) with (lb a e) by lia.
  rewrite zskip_ztake_filter by (auto; lia).
  pose proof (negation_loop_spec (filter (fun x => (s <=? x) && (x <? e)) a) (Z.to_nat (e - s)) s) as NL.
  replace (s + Z.of_nat (Z.to_nat (e - s))) with e in NL by lia.
  rewrite NL; [|now apply incr_filter| |lia|lia].
  2:{ apply Forall_forall. intros x Ix. apply filter_In in Ix. lia. }
  destruct (split_lb a s I) as [S1 _]. destruct (split_lb a e I) as [_ S2]. rewrite S1, S2.
  assert (Im : forall x, In x a <-> amem a x = true) by (intros; unfold amem; now rewrite zmem_In).
  assert (Ib : forall x, In x a -> 0 <= x < 65536) by (intros x Ix; eapply inb_In in B; eauto).
  apply incr_ext.
  - apply incr_app. split; [now apply incr_filter|]. split.
    + apply incr_app. split; [apply incr_filter, zr_incr|]. split; [now apply incr_filter|].
      intros x y Ix Iy. apply filter_In in Ix, Iy. destruct Ix as [Ix _]. apply zr_In in Ix. lia.
    + intros x y Ix Iy. apply filter_In in Ix. apply in_app_iff in Iy. destruct Iy as [Iy|Iy]; apply filter_In in Iy; destruct Iy as [Iy Jy]; [apply zr_In in Iy|]; lia.
  - apply awf_vals.
  - intros x. rewrite vals_In. rewrite !in_app_iff, !filter_In, zr_In. unfold fliprange.
    rewrite negb_true_iff, zmem_nIn, filter_In. specialize (Im x). specialize (Ib x).
    destruct (Z.leb_spec s x), (Z.ltb_spec x e), (amem a x); cbn [andb negb]; intuition (try lia; try discriminate).
Qed.
Lemma array_negation_range_len a s e : awf a -> 0 <= s < e -> e <= 65536 ->
  zlen (vals (fliprange s e (amem a))) = negation_new_cardinality a s e.
Proof. intros. rewrite negation_newcard by auto. apply zlen_vals. Qed.
Lemma array_negation_range_spec a s e : awf a -> zlen a <= 4096 -> 0 <= s -> e <= 65536 ->
  erep (array_container_negation_range a s e) (fliprange s e (amem a)).
Proof.
  intros W L H1 H2. unfold array_container_negation_range. destruct (Z.leb_spec e s) as [H|H].
  - apply erep_array; auto. intros x Hx. unfold fliprange. replace ((s <=? x) && (x <? e)) with false by lia. reflexivity.
  - destruct (negation_idx a s e (proj1 W) ltac:(lia) H2) as [E1 E2]. cbn zeta in *. rewrite E1, E2.
    rewrite negation_newcard by (auto; lia).
    destruct (Z.ltb_spec 4096 (cnt (fliprange s e (amem a)) 0 65536)).
    + destruct (bitset_from_array_spec a W) as ([W1 W2] & M).
      assert (forall x, 0 <= x < 65536 -> bget (bitset_flip_range (b_words (bitset_container_from_array a)) s e) x = fliprange s e (amem a) x) as G.
      { intros x Hx. destruct W1 as [W1 W3]. rewrite bitset_flip_range_spec by (auto; lia). rewrite M by lia. symmetry. apply fliprange_xorb. }
      split; cbn [eok cmem].
      * unfold bwf, b_card, b_words. cbn [fst snd]. repeat split; try (now apply bws_flip); try lia.
        unfold bcard. apply cnt_ext. intros. symmetry. now apply G.
      * intros x Hx. now apply G.
    + destruct (Z.eqb_spec (cnt (fliprange s e (amem a)) 0 65536) 0).
      * apply erep_array; [apply awf_nil|change (zlen (@nil Z)) with 0; lia|]. intros x Hx. symmetry. now apply (cnt_none_inv (fliprange s e (amem a)) 0 65536).
      * rewrite array_negation_list by (auto; lia). apply (erep_vals _ (fliprange s e (amem a))); auto.
Qed.
Lemma bitset_negation_range_spec b s e : bws (b_words b) -> 0 <= s <= e -> e <= 65536 ->
  erep (bitset_container_negation_range b s e) (fliprange s e (bget (b_words b))).
Proof.
  intros W H1 H2. unfold bitset_container_negation_range. apply bitset_or_array_spec.
  - now apply bws_flip.
  - apply compute_cardinality_spec. now apply bws_flip.
  - intros x Hx. destruct W as [W W3]. rewrite bitset_flip_range_spec by (auto; lia). symmetry. apply fliprange_xorb.
Qed.

Lemma runs_before_spec s r : forall lo, rok lo r -> let '(A, B) := runs_before r s in
  r = A ++ B /\ Forall (fun x => fst x < s) A /\ rok (Z.max lo s) B.
Proof.
  induction r as [|[v l] r IH]; intros lo R; cbn [runs_before fst].
  - repeat split; auto.
  - assert (R' := R). cbn [rok] in R. destruct R as (R1 & R2 & R3 & R4). destruct (Z.ltb_spec v s).
    + specialize (IH _ R4). destruct (runs_before r s) as [A B]. destruct IH as (I1 & I2 & I3).
      split; [now rewrite I1|]. split; [constructor; auto|]. eapply rok_weaken; [|exact I3]. lia.
    + split; auto. split; auto. cbn [rok]. repeat split; auto; lia.
Qed.
Lemma append_exclusive_all_loop r : forall dst f, (length r < f)%nat -> append_exclusive_all dst r = run_xor_loop f dst [] r.
Proof.
  unfold append_exclusive_all. induction r as [|x r IH]; intros dst f F; (destruct f; [cbn [length] in F; lia|]); cbn [fold_left run_xor_loop]; auto.
  apply IH. cbn [length] in F. lia.
Qed.
Lemma run_negation_runs_spec r s e : rwf r -> 0 <= s < e -> e <= 65536 ->
  rwf (run_negation_runs r s e) /\ forall x, 0 <= x -> rmem (run_negation_runs r s e) x = fliprange s e (rmem r) x.
Proof.
  intros R H1 H2. unfold run_negation_runs. pose proof (runs_before_spec s r 0 R) as RB.
  destruct (runs_before r s) as [A B]. destruct RB as (E & FA & RBk). subst r.
  rewrite !u16_small by lia. unfold rwf in R. apply rok_app in R. destruct R as [RA RB].
  assert (append_exclusive_all (run_container_smart_append_exclusive A s (e - s - 1)) B =
          run_xor_loop (S (S (length B))) A [(s, e - s - 1)] B) as ->.
  { rewrite (append_exclusive_all_loop B _ (S (length B))) by lia. cbn [run_xor_loop fst snd].
    destruct B as [|[v l] B]; [reflexivity|]. cbn [rok] in RBk. cbn [fst]. replace (s <=? v) with true by lia. reflexivity. }
  pose proof (rnext_ge 0 A RA) as NG.
  destruct (run_xor_loop_spec (S (S (length B))) A [(s, e - s - 1)] B (-1) (rnext 0 A - 1) s) as [Q1 Q2]; auto; try lia.
  - cbn [rok]. repeat split; auto; lia.
  - now replace (rnext 0 A - 1 + 1) with (rnext 0 A) by lia.
  - cbn [rok]. repeat split; auto; lia.
  - eapply rok_weaken; [|exact RBk]. lia.
  - eapply Forall_impl; [|exact FA]. cbn beta. intros; lia.
  - split; auto. intros x Hx. rewrite Q2 by lia. rewrite fliprange_xorb, rmem_app, rmem_cons, rmem_nil. unfold inrun. cbn [fst snd].
    rewrite orb_false_r. replace (x <=? s + (e - s - 1)) with (x <? e) by lia.
    assert (rmem A x = true -> rmem B x = true -> False) as D.
    { intros M1 M2. destruct (Z_lt_dec x (rnext 0 A)) as [Y|Y].
      - rewrite (rmem_lo _ B x RB Y) in M2. discriminate.
      - rewrite (rmem_hi 0 A x RA) in M1 by lia. discriminate. }
    destruct (rmem A x), (rmem B x), ((s <=? x) && (x <? e)); cbn; auto; exfalso; auto.
Qed.
Lemma run_negation_range_spec r s e : rwf r -> 0 <= s -> e <= 65536 ->
  erep (run_container_negation_range r s e) (fliprange s e (rmem r)).
Proof.
  intros R H1 H2. unfold run_container_negation_range. destruct (Z.leb_spec e s).
  - split; cbn [eok cmem]; auto. intros x Hx. unfold fliprange. replace ((s <=? x) && (x <? e)) with false by lia. reflexivity.
  - destruct (run_negation_runs_spec r s e R ltac:(lia) H2) as [W M]. eapply erep_ext; [now apply convert_run_eff_erep|].
    intros x Hx. apply M. lia.
Qed.
Lemma run_negation_range_inplace_eq cap r s e :
  run_container_negation_range_inplace cap r s e = run_container_negation_range r s e.
Proof.
  unfold run_container_negation_range_inplace, run_container_negation_range.
  destruct (e <=? s); auto. match goal with |- (if ?b then _ else _) = _ => destruct b end; reflexivity.
Qed.

(** ** equality *)
Fixpoint strip (l a : list Z) : option (list Z) :=
  match l with
  | [] => Some a
  | x :: l' => match a with [] => None | y :: a' => if negb (y =? x) then None else strip l' a' end
  end.
Lemma strip_app l1 : forall l2 a, strip (l1 ++ l2) a = match strip l1 a with None => None | Some a' => strip l2 a' end.
Proof. induction l1 as [|x l1 IH]; intros l2 a; cbn [app strip]; auto. destruct a as [|y a]; auto. destruct (negb (y =? x)); auto. Qed.
Lemma strip_spec l : forall a, (match strip l a with Some r => zlen r =? 0 | None => false end) = true <-> a = l.
Proof.
  induction l as [|x l IH]; intros a; cbn [strip].
  - rewrite Z.eqb_eq. split; [apply zlen_0_nil|now intros ->].
  - destruct a as [|y a]; [split; discriminate|]. destruct (Z.eqb_spec y x); cbn [negb].
    + subst. rewrite IH. split; [now intros ->|congruence].
    + split; [discriminate|congruence].
Qed.
Lemma array_equal_word_eq f : forall w base a, isw w -> 0 <= base -> base + 64 <= 65536 ->
  array_equal_word f w base a = strip (extract_word f w base) a.
Proof.
  induction f as [|f IH]; intros w base a Hw B1 B2; cbn [array_equal_word extract_word]; auto.
  destruct (Z.eqb_spec w 0); auto. cbn [strip]. destruct (ctz_spec w Hw n) as [C _]. rewrite u16_small by lia.
  destruct a as [|y a]; auto. destruct (negb (y =? ctz w + base)); auto.
  rewrite clear_lowest_eq by auto. apply IH; auto. apply isw_land; auto.
Qed.
Lemma array_equal_words_eq ws : forall base a, wfw ws -> 0 <= base -> base + 64 * zlen ws <= 65536 ->
  array_equal_words ws base a = strip (bitset_extract_setbits ws base) a.
Proof.
  induction ws as [|w ws IH]; intros base a W B1 B2; cbn [array_equal_words bitset_extract_setbits]; auto.
  apply wfw_cons in W. destruct W as [W1 W2]. rewrite zlen_cons in B2. pose proof (zlen_nonneg ws).
  rewrite strip_app, array_equal_word_eq by (auto; lia). destruct (strip (extract_word 64 w base) a); auto. apply IH; auto; lia.
Qed.
Lemma awf_vals_eq a P : awf a -> (a = vals P <-> forall x, 0 <= x < 65536 -> amem a x = P x).
Proof.
  intros [I B]. split.
  - intros -> x Hx. now apply amem_vals.
  - intros H. apply incr_ext; auto; [apply awf_vals|]. intros x. rewrite vals_In, <- zmem_In. fold (amem a x). split.
    + intros M. assert (0 <= x < 65536) by (apply zmem_In in M; eapply inb_In in B; eauto). split; auto. now rewrite <- H.
    + intros [Hx M]. now rewrite H.
Qed.
Lemma array_equal_bitset_spec a b : awf a -> blz b ->
  array_container_equal_bitset a b = true <-> forall x, 0 <= x < 65536 -> amem a x = bget (b_words b) x.
Proof.
  intros A [W C]. unfold array_container_equal_bitset.
  assert (Eq : match array_equal_words (b_words b) 0 a with Some rest => zlen rest =? 0 | None => false end = true <->
    forall x, 0 <= x < 65536 -> amem a x = bget (b_words b) x).
  { destruct W as [W1 W2]. rewrite array_equal_words_eq by (auto; lia). rewrite strip_spec.
    fold (array_container_from_bitset b). rewrite array_from_bitset_spec by (split; auto). now apply awf_vals_eq. }
  destruct (Z.eqb_spec (b_card b) (-1)); cbn [negb andb]; auto.
  destruct (Z.eqb_spec (b_card b) (zlen a)); cbn [negb]; auto.
  split; [discriminate|]. intros H. exfalso. apply n0. rewrite zlen_acard by auto. destruct C as [C|C]; [lia|]. rewrite C.
  unfold bcard, acard. apply cnt_ext. intros. symmetry. now apply H.
Qed.
Lemma incr_contig l v n : incr l -> zlen l = n -> 0 < n -> znth l 0 = v -> znth l (n - 1) = v + n - 1 -> l = zr v (v + n).
Proof.
  intros I L N Z0 Z1.
  assert (forall k : nat, Z.of_nat k < n -> v + Z.of_nat k <= znth l (Z.of_nat k)) as G0.
  { induction k as [|k IH]; intros Hk; [change (Z.of_nat 0) with 0; lia|].
    pose proof (incr_znth l (Z.of_nat k) (Z.of_nat (S k)) I). lia. }
  assert (forall k : nat, Z.of_nat k < n -> znth l (n - 1 - Z.of_nat k) <= v + n - 1 - Z.of_nat k) as G1.
  { induction k as [|k IH]; intros Hk; [replace (n - 1 - Z.of_nat 0) with (n - 1) by lia; lia|].
    pose proof (incr_znth l (n - 1 - Z.of_nat (S k)) (n - 1 - Z.of_nat k) I). lia. }
  assert (forall i, 0 <= i < n -> znth l i = v + i) as G.
  { intros i Hi. specialize (G0 (Z.to_nat i)). specialize (G1 (Z.to_nat (n - 1 - i))).
    rewrite Z2Nat.id in * by lia. replace (n - 1 - (n - 1 - i)) with i in G1 by lia. lia. }
  apply incr_ext; auto; [apply zr_incr|]. intros x. rewrite zr_In. split.
  - intros Ix. apply In_znth in Ix. destruct Ix as [i [Hi <-]]. rewrite G; lia.
  - intros Hx. replace x with (znth l (x - v)); [apply znth_In; lia|]. rewrite G; lia.
Qed.
Lemma zskip_0 (l : list Z) : zskip 0 l = l. Proof. reflexivity. Qed.
Lemma run_equals_array_loop_spec a : incr a -> forall r lo pos, rok lo r -> 0 <= pos ->
  pos + zlen (flat_map (fun x : run => zr (fst x) (fst x + snd x + 1)) r) = zlen a ->
  run_equals_array_loop r a pos = true <-> zskip pos a = flat_map (fun x : run => zr (fst x) (fst x + snd x + 1)) r.
Proof.
  intros I. induction r as [|[v l] r IH]; intros lo pos R P L; cbn [run_equals_array_loop flat_map fst snd] in *.
  - split; auto. intros _. apply zlen_0_nil. change (zlen (@nil Z)) with 0 in L. rewrite zskip_zlen by lia. lia.
  - cbn [rok] in R. destruct R as (R1 & R2 & R3 & R4). rewrite zlen_app in L. rewrite zr_zlen in L by lia.
    set (F := flat_map (fun x : run => zr (fst x) (fst x + snd x + 1)) r) in *. pose proof (zlen_nonneg F).
    assert (S : zskip pos a = ztake (l + 1) (zskip pos a) ++ zskip (pos + (l + 1)) a).
    { rewrite <- (ztake_skip (l + 1) (zskip pos a)) at 1. f_equal. apply zskip_zskip; lia. }
    assert (L1 : zlen (ztake (l + 1) (zskip pos a)) = l + 1) by (apply ztake_zlen; rewrite zskip_zlen by lia; lia).
    assert (Nth : forall i, 0 <= i < l + 1 -> znth (ztake (l + 1) (zskip pos a)) i = znth a (pos + i)).
    { intros i Hi. rewrite <- znth_zskip by lia. rewrite S at 2. now rewrite znth_app1 by lia. }
    specialize (IH (v + l + 2) (pos + (l + 1)) R4 ltac:(lia) ltac:(lia)).
    split.
    + intros H0. destruct (Z.eqb_spec (znth a pos) v) as [E1|]; [|discriminate]. cbn [negb] in H0.
      destruct (Z.eqb_spec (znth a (pos + l)) (v + l)) as [E2|]; [|discriminate]. cbn [negb] in H0. apply IH in H0.
      rewrite S, H0. f_equal. replace (v + l + 1) with (v + (l + 1)) by lia. apply incr_contig; auto; try lia.
      * pose proof (incr_zskip pos a I) as Q. rewrite S in Q. apply incr_app in Q. tauto.
      * rewrite Nth by lia. now replace (pos + 0) with pos by lia.
      * rewrite Nth by lia. replace (pos + (l + 1 - 1)) with (pos + l) by lia. lia.
    + intros H0. rewrite S in H0.
      assert (ztake (l + 1) (zskip pos a) = zr v (v + l + 1) /\ zskip (pos + (l + 1)) a = F) as [E1 E2].
      { apply app_inv_zlen in H0; auto. rewrite L1, zr_zlen by lia. lia. }
      pose proof (Nth 0 ltac:(lia)) as N0. pose proof (Nth l ltac:(lia)) as N1. rewrite E1 in N0, N1. rewrite zr_znth in N0, N1 by lia.
      replace (pos + 0) with pos in N0 by lia. rewrite <- N0, <- N1. replace (v + 0 =? v) with true by lia. rewrite Z.eqb_refl. cbn [negb].
      now apply IH.
Qed.
Lemma run_equals_array_spec r a : rwf r -> awf a ->
  run_container_equals_array r a = true <-> forall x, 0 <= x < 65536 -> rmem r x = amem a x.
Proof.
  intros R A. unfold run_container_equals_array. rewrite run_cardinality_spec by auto.
  destruct (Z.eqb_spec (rcard r) (zlen a)) as [E|N]; cbn [negb].
  - rewrite (run_equals_array_loop_spec a (proj1 A) r 0 0); auto; try lia.
    + rewrite zskip_0, flat_map_zr_vals by auto. rewrite (awf_vals_eq a _ A). split; intros H x Hx; symmetry; now apply H.
    + rewrite flat_map_zr_vals by auto. rewrite zlen_vals. exact E.
  - split; [discriminate|]. intros H. exfalso. apply N. rewrite zlen_acard by auto. unfold rcard, acard. now apply cnt_ext.
Qed.
Lemma subset_cnt_eq P Q lo hi : (forall x, lo <= x < hi -> P x = true -> Q x = true) -> cnt P lo hi = cnt Q lo hi ->
  forall x, lo <= x < hi -> P x = Q x.
Proof.
  intros S E x Hx. destruct (P x) eqn:EP; [symmetry; auto|]. destruct (Q x) eqn:EQ; auto. exfalso.
  pose proof (cnt_mono P (fun y => Q y && negb (y =? x)) lo hi) as M.
  rewrite (cnt_app (fun y => Q y && negb (y =? x)) lo x) in M by lia. rewrite (cnt_app (fun y => Q y && negb (y =? x)) x (x + 1)) in M by lia.
  rewrite (cnt_ext (fun y => Q y && negb (y =? x)) Q lo x) in M by (intros y Hy; replace (y =? x) with false by lia; apply andb_true_r).
  rewrite (cnt_ext (fun y => Q y && negb (y =? x)) Q (x + 1) hi) in M by (intros y Hy; replace (y =? x) with false by lia; apply andb_true_r).
  rewrite (cnt_none (fun y => Q y && negb (y =? x)) x (x + 1)) in M by (intros y Hy; replace (y =? x) with true by lia; apply andb_false_r).
  rewrite (cnt_app Q lo x hi) in E by lia. rewrite (cnt_app Q x (x + 1) hi) in E by lia.
  rewrite (cnt_full Q x (x + 1)) in E; [|lia|intros y Hy; replace y with x by lia; auto].
  assert (cnt P lo hi <= cnt Q lo x + (0 + cnt Q (x + 1) hi)); [|lia].
  apply M. intros y Hy Py. rewrite (S y Hy Py). destruct (Z.eqb_spec y x); [congruence|reflexivity].
Qed.
Lemma forallb_runs r (f : run -> bool) P : rwf r ->
  (forall v l, In (v, l) r -> f (v, l) = true <-> forall x, v <= x <= v + l -> P x = true) ->
  (forallb f r = true <-> forall x, 0 <= x < 65536 -> rmem r x = true -> P x = true).
Proof.
  intros R H. rewrite forallb_forall. split.
  - intros G x Hx M. apply existsb_exists in M. destruct M as [[v l] [I J]]. unfold inrun in J. cbn [fst snd] in J.
    apply (proj1 (H v l I) (G _ I)). lia.
  - intros G [v l] I. apply H; auto. intros x Hx. pose proof (rok_In 0 r v l R I). apply G; [lia|].
    apply existsb_exists. exists (v, l). split; auto. unfold inrun. cbn [fst snd]. lia.
Qed.
Lemma run_equals_bitset_spec r b : rwf r -> blz b ->
  run_container_equals_bitset r b = true <-> forall x, 0 <= x < 65536 -> rmem r x = bget (b_words b) x.
Proof.
  intros R [W C]. unfold run_container_equals_bitset. rewrite run_cardinality_spec by auto. rewrite compute_cardinality_spec by auto.
  assert ((if negb (b_card b =? -1) then b_card b else bcard (b_words b)) = bcard (b_words b)) as -> by (destruct (Z.eqb_spec (b_card b) (-1)); cbn [negb]; lia).
  destruct (Z.eqb_spec (bcard (b_words b)) (rcard r)) as [E|N]; cbn [negb].
  - rewrite (forallb_runs r _ (bget (b_words b))); auto.
    + split.
      * intros H. apply subset_cnt_eq; auto. 
      * intros H x Hx M. now rewrite <- H.
    + intros v l I. pose proof (rok_In 0 r v l R I) as B. cbn [fst snd]. destruct (Z.eqb_spec l 0) as [->|]; cbn [negb].
      * rewrite bitset_get_spec by lia. split; [intros H x Hx; now replace x with v by lia|intros H; apply H; lia].
      * rewrite bitset_get_range_spec by (auto; lia). rewrite Z.eqb_eq. split.
        -- intros H x Hx. apply (cnt_full_inv _ v (v + l + 1)); auto; lia.
        -- intros H. apply cnt_full; [lia|]. intros; apply H; lia.
  - split; [discriminate|]. intros H. exfalso. apply N. unfold bcard, rcard. symmetry. now apply cnt_ext.
Qed.
(** ** subset *)
Lemma card_guard P Q : (forall x, 0 <= x < 65536 -> P x = true -> Q x = true) -> cnt P 0 65536 <= cnt Q 0 65536.
Proof. apply cnt_mono. Qed.
Lemma array_subset_bitset_spec a b : awf a -> blz b ->
  array_container_is_subset_bitset a b = true <-> forall x, 0 <= x < 65536 -> amem a x = true -> bget (b_words b) x = true.
Proof.
  intros A [W C]. unfold array_container_is_subset_bitset.
  assert (G : forallb (fun v => bitset_container_get b v) a = true <-> forall x, 0 <= x < 65536 -> amem a x = true -> bget (b_words b) x = true).
  { rewrite forallb_forall. split.
    - intros H x Hx M. rewrite <- bitset_get_spec by lia. apply H. now apply zmem_In.
    - intros H x I. pose proof (inb_In _ _ _ _ (proj2 A) I). rewrite bitset_get_spec by lia. apply H; auto. now apply zmem_In. }
  destruct (negb (b_card b =? -1) && (b_card b <? zlen a)) eqn:E; auto.
  split; [discriminate|]. intros H. exfalso. apply card_guard in H. fold (acard a) in H. rewrite <- zlen_acard in H by auto. unfold bcard in C. lia.
Qed.
Lemma run_subset_array_loop_spec a : awf a -> forall r lo pos, rok lo r -> 0 <= lo -> -1 <= pos < zlen a -> (0 <= pos -> znth a pos < lo) ->
  run_subset_array_loop r a pos = true <-> forall x, rmem r x = true -> amem a x = true.
Proof.
  intros A. induction r as [|[v l] r IH]; intros lo pos R L P Hp; cbn [run_subset_array_loop].
  - split; auto. intros _ x M. rewrite rmem_nil in M. discriminate.
  - cbn [rok] in R. destruct R as (R1 & R2 & R3 & R4). pose proof (proj1 A) as I.
    rewrite !advanceUntil_lb by (auto; lia). pose proof (lb_bound a v). pose proof (lb_bound a (v + l)).
    assert (Run : ((lb a (v + l) =? zlen a) = false /\
       negb (lb a (v + l) - lb a v =? v + l - v) || negb (znth a (lb a v) =? v) || negb (znth a (lb a (v + l)) =? v + l) = false)
       <-> forall x, v <= x <= v + l -> amem a x = true).
    { transitivity ((cnt (amem a) v (v + (l + 1)) =? l + 1) = true).
      - rewrite cnt_block by (auto; lia). replace (v + (l + 1) - 1) with (v + l) by lia.
        assert (amem a v = (lb a v <? zlen a) && (znth a (lb a v) =? v)) as Ev.
        { apply zmem_bool. rewrite lb_In by auto. lia. }
        rewrite Ev. assert (forall k, 0 <= k < zlen a -> znth a k = v + l -> lb a (v + l) = k) as U.
        { intros k Hk Ek. apply lb_unique; auto; [lia| |]; intros j Hj; [pose proof (incr_znth a j k I)|pose proof (incr_znth_le a k j I)]; lia. }
        specialize (U (lb a v + (l + 1) - 1)). replace (lb a v + (l + 1) - 1) with (lb a v + l) in * by lia. split.
        + intros [G1 G2]. replace (lb a v + l) with (lb a (v + l)) by lia. lia.
        + intros G. assert (lb a v + l < zlen a) by lia. rewrite U by lia. lia.
      - rewrite Z.eqb_eq. split.
        + intros G x Hx. apply (cnt_full_inv _ v (v + (l + 1))); auto; lia.
        + intros G. rewrite cnt_full; [lia|lia|]. intros; apply G; lia. }
    assert (Split : (forall x, rmem ((v, l) :: r) x = true -> amem a x = true) <->
      (forall x, v <= x <= v + l -> amem a x = true) /\ (forall x, rmem r x = true -> amem a x = true)).
    { split.
      - intros G. split; intros x Hx; apply G; rewrite rmem_cons; [unfold inrun; cbn [fst snd]; lia|rewrite Hx; apply orb_true_r].
      - intros [G1 G2] x Hx. rewrite rmem_cons in Hx. apply orb_true_iff in Hx. destruct Hx as [Hx|Hx]; auto.
        apply G1. unfold inrun in Hx. cbn [fst snd] in Hx. lia. }
    rewrite Split, <- Run. destruct (Z.eqb_spec (lb a (v + l)) (zlen a)); [split; [discriminate|intros [[? _] _]; discriminate]|].
    destruct (negb (lb a (v + l) - lb a v =? v + l - v) || negb (znth a (lb a v) =? v) || negb (znth a (lb a (v + l)) =? v + l)) eqn:E.
    + split; [discriminate|intros [[_ ?] _]; discriminate].
    + rewrite (IH (v + l + 2)); auto; try lia. tauto.
Qed.
Lemma run_subset_array_spec r a : rwf r -> awf a ->
  run_container_is_subset_array r a = true <-> forall x, 0 <= x < 65536 -> rmem r x = true -> amem a x = true.
Proof.
  intros R A. unfold run_container_is_subset_array. rewrite run_cardinality_spec by auto. destruct (Z.ltb_spec (zlen a) (rcard r)).
  - split; [discriminate|]. intros G. exfalso. apply card_guard in G. fold (acard a) (rcard r) in G. rewrite <- zlen_acard in G by auto. lia.
  - destruct (Z.eq_dec (zlen a) 0) as [E|E].
    + apply zlen_0_nil in E. subst a. change (zlen (@nil Z)) with 0 in H.
      assert (r = []) as ->. { destruct r as [|p r']; auto. exfalso. assert (0 < rcard (p :: r')); [|lia]. apply rcard_pos; auto. discriminate. }
      cbn [run_subset_array_loop]. split; auto; try (intros ? ? ? M; rewrite rmem_nil in M; discriminate).
    + pose proof (zlen_nonneg a). rewrite (run_subset_array_loop_spec a A r 0 (-1)) by (auto; lia).
      split; intros G x; auto. intros M. apply G; auto. pose proof (rmem_range 0 r x R M). lia.
Qed.
Lemma array_subset_run_loop_spec fuel : forall a r lo, incr a -> rok lo r -> (length a + length r < fuel)%nat ->
  array_subset_run_loop fuel a r = true <-> forall x, In x a -> rmem r x = true.
Proof.
  induction fuel as [|f IH]; intros a r lo I R F; [lia|]. cbn [array_subset_run_loop].
  destruct a as [|x a]; [split; auto; intros _ x []|].
  destruct r as [|[v l] r].
  - split; [discriminate|]. intros G. specialize (G x (or_introl eq_refl)). rewrite rmem_nil in G. discriminate.
  - assert (R' := R). cbn [rok] in R. destruct R as (R1 & R2 & R3 & R4). assert (I' := I). apply incr_cons in I. destruct I as [I1 I2]. rewrite Forall_forall in I1.
    cbn [length] in F. destruct (Z.ltb_spec x v); [|destruct (Z.ltb_spec (v + l) x)].
    + split; [discriminate|]. intros G. specialize (G x (or_introl eq_refl)). rewrite rmem_cons in G. unfold inrun in G. cbn [fst snd] in G.
      rewrite (rmem_lo (v + l + 2)) in G by (auto; lia). lia.
    + rewrite (IH (x :: a) r (v + l + 2)); auto; [|cbn [length]; lia]. split; intros G y Iy; specialize (G y Iy).
      * rewrite rmem_cons, G. apply orb_true_r.
      * rewrite rmem_cons in G. unfold inrun in G. cbn [fst snd] in G. assert (x <= y) by (destruct Iy as [<-|Iy]; [lia|specialize (I1 y Iy); lia]).
        replace (y <=? v + l) with false in G by lia. rewrite andb_false_r in G. auto.
    + rewrite (IH a ((v, l) :: r) lo); auto; [|cbn [length]; lia]. split; intros G y Iy; [|apply G; now right].
      destruct Iy as [<-|Iy]; auto. rewrite rmem_cons. unfold inrun. cbn [fst snd]. lia.
Qed.
Lemma array_subset_run_spec a r : awf a -> rwf r ->
  array_container_is_subset_run a r = true <-> forall x, 0 <= x < 65536 -> amem a x = true -> rmem r x = true.
Proof.
  intros A R. unfold array_container_is_subset_run. rewrite run_cardinality_spec by auto. destruct (Z.ltb_spec (rcard r) (zlen a)).
  - split; [discriminate|]. intros G. exfalso. apply card_guard in G. fold (acard a) (rcard r) in G. rewrite <- zlen_acard in G by auto. lia.
  - rewrite (array_subset_run_loop_spec _ a r 0) by (auto; try lia; apply A). split; intros G x.
    + intros Hx M. apply G. now apply zmem_In.
    + intros I. apply G; [eapply inb_In; [apply A|auto]|now apply zmem_In].
Qed.
Lemma run_subset_bitset_spec r b : rwf r -> blz b ->
  run_container_is_subset_bitset r b = true <-> forall x, 0 <= x < 65536 -> rmem r x = true -> bget (b_words b) x = true.
Proof.
  intros R [W C]. unfold run_container_is_subset_bitset. rewrite run_cardinality_spec by auto. rewrite compute_cardinality_spec by auto.
  assert ((if negb (b_card b =? -1) then b_card b else bcard (b_words b)) = bcard (b_words b)) as -> by (destruct (Z.eqb_spec (b_card b) (-1)); cbn [negb]; lia).
  destruct (Z.ltb_spec (bcard (b_words b)) (rcard r)).
  - split; [discriminate|]. intros G. exfalso. apply card_guard in G. fold (rcard r) (bcard (b_words b)) in G. lia.
  - apply forallb_runs; auto. intros v l I. cbn [fst snd]. pose proof (rok_In 0 r v l R I). rewrite forallb_forall. split; intros G x Hx.
    + rewrite <- bitset_get_spec by lia. apply G. apply zr_In. lia.
    + apply zr_In in Hx. rewrite bitset_get_spec by lia. apply G. lia.
Qed.
Lemma extract_setbits_nil ws : forall base, wfw ws -> (forallb (fun w => w =? 0) ws = true <-> bitset_extract_setbits ws base = []).
Proof.
  induction ws as [|w ws IH]; intros base W; cbn [forallb bitset_extract_setbits]; [tauto|].
  apply wfw_cons in W. destruct W as [W1 W2]. rewrite andb_true_iff, (IH (base + 64) W2).
  rewrite extract_word_spec; auto; [|unfold hamming; pose proof (hamming_bound w); unfold hamming in *; lia].
  rewrite Z.eqb_eq, <- bits_nil by auto. split.
  - intros [-> ->]. reflexivity.
  - intros H. apply app_eq_nil in H. destruct H as [H1 H2]. split; auto. now apply map_eq_nil in H1.
Qed.
Lemma extract_setbits_lo ws base x : wfw ws -> In x (bitset_extract_setbits ws base) -> base <= x.
Proof.
  intros W I. rewrite bitset_extract_setbits_spec in I by auto. apply in_map_iff in I. destruct I as [y [<- I]].
  apply filter_In in I. destruct I as [I _]. apply zr_In in I. lia.
Qed.
Lemma extract_setbits_cons w ws base : isw w ->
  bitset_extract_setbits (w :: ws) base = map (fun i => i + base) (bits w) ++ bitset_extract_setbits ws (base + 64).
Proof.
  intros Hw. cbn [bitset_extract_setbits]. rewrite extract_word_spec; auto.
  pose proof (hamming_bound w). change (Z.of_nat 64) with 64. lia.
Qed.
Local Opaque bitset_extract_setbits extract_word bits.
Lemma bitset_subset_run_loop_spec : forall fuel w rest base r lo, isw w -> wfw rest -> rok lo r -> 0 <= base -> base + 64 + 64 * zlen rest <= 65536 ->
  let L := map (fun i => i + base) (bits w) ++ bitset_extract_setbits rest (base + 64) in
  zlen L + zlen rest + zlen r < Z.of_nat fuel ->
  bitset_subset_run_loop fuel w rest base r = true <-> forall x, In x L -> rmem r x = true.
Proof.
  induction fuel as [|f IH]; intros w rest base r lo Hw Wr R B1 B2 L F; cbn [bitset_subset_run_loop].
  { pose proof (zlen_nonneg L). pose proof (zlen_nonneg rest). pose proof (zlen_nonneg r). lia. }
  destruct r as [|[v l] r].
  - rewrite andb_true_iff, (extract_setbits_nil rest (base + 64) Wr), Z.eqb_eq, <- (bits_nil w Hw). split.
    + intros [E1 E2] x I. unfold L in I. rewrite E1, E2 in I. destruct I.
    + intros G. assert (L = []) as E. { destruct L as [|y L']; auto. specialize (G y (or_introl eq_refl)). rewrite rmem_nil in G. discriminate. }
      unfold L in E. apply app_eq_nil in E. destruct E as [E1 E2]. split; auto. now apply map_eq_nil in E1.
  - cbn [rok] in R. destruct R as (R1 & R2 & R3 & R4). rewrite zlen_cons in F.
    destruct (Z.eqb_spec w 0) as [E|N].
    + assert (bits w = []) as Bn by (now apply bits_nil). destruct rest as [|w' rest].
      * split; auto. intros _ x I. unfold L in I. rewrite Bn in I. destruct I.
      * apply wfw_cons in Wr. destruct Wr as [W1 W2]. rewrite zlen_cons in *.
        assert (L = map (fun i => i + (base + 64)) (bits w') ++ bitset_extract_setbits rest (base + 64 + 64)) as EL.
        { unfold L. rewrite Bn. cbn [map app]. now apply extract_setbits_cons. }
        rewrite EL in *. apply (IH w' rest (base + 64) ((v, l) :: r) v); auto; try lia.
        -- cbn [rok]. repeat split; auto; lia.
        -- rewrite zlen_cons. lia.
    + destruct (ctz_spec w Hw N) as (C1 & _). rewrite u16_small by (pose proof (zlen_nonneg rest); lia).
      pose proof (bits_land_pred w Hw N) as BL.
      set (L' := map (fun i => i + base) (bits (Z.land w (w - 1))) ++ bitset_extract_setbits rest (base + 64)).
      assert (EL : L = (base + ctz w) :: L'). { unfold L, L'. rewrite BL. cbn [map app]. f_equal. lia. }
      assert (Mn : forall x, In x L -> base + ctz w <= x).
      { intros x I. unfold L in I. apply in_app_iff in I. destruct I as [I|I].
        - apply in_map_iff in I. destruct I as [y [<- I]]. pose proof (bits_incr w) as Q. rewrite BL in Q, I. apply incr_cons in Q. destruct Q as [Q _].
          rewrite Forall_forall in Q. destruct I as [<-|I]; [lia|]. specialize (Q y I). lia.
        - apply extract_setbits_lo in I; auto. lia. }
      destruct (Z.ltb_spec (base + ctz w) v); [|destruct (Z.ltb_spec (v + l) (base + ctz w))].
      * split; [discriminate|]. intros G. specialize (G (base + ctz w)). rewrite EL in G. specialize (G (or_introl eq_refl)).
        rewrite rmem_cons in G. unfold inrun in G. cbn [fst snd] in G. rewrite (rmem_lo (v + l + 2)) in G by (auto; lia). lia.
      * rewrite (IH w rest base r (v + l + 2)); [|auto|auto|auto|lia|lia|fold L; lia]. fold L. split; intros G x I; specialize (G x I); specialize (Mn x I).
        -- rewrite rmem_cons, G. apply orb_true_r.
        -- rewrite rmem_cons in G. unfold inrun in G. cbn [fst snd] in G. replace (x <=? v + l) with false in G by lia. rewrite andb_false_r in G. auto.
      * rewrite clear_lowest_eq by auto. rewrite EL in F |- *. rewrite zlen_cons in F.
        rewrite (IH (Z.land w (w - 1)) rest base ((v, l) :: r) v); auto; try lia.
        -- fold L'. split; intros G x I; [|apply G; now right]. destruct I as [<-|I]; auto. rewrite rmem_cons. unfold inrun. cbn [fst snd]. lia.
        -- now apply isw_land.
        -- cbn [rok]. repeat split; auto; lia.
        -- fold L'. rewrite zlen_cons. lia.
Qed.
Lemma bitset_subset_run_spec b r : blz b -> rwf r ->
  bitset_container_is_subset_run b r = true <-> forall x, 0 <= x < 65536 -> bget (b_words b) x = true -> rmem r x = true.
Proof.
  intros [W C] R. unfold bitset_container_is_subset_run. rewrite run_cardinality_spec by auto.
  destruct (negb (b_card b =? -1) && (rcard r <? b_card b)) eqn:E.
  - split; [discriminate|]. intros H. exfalso. apply card_guard in H. fold (rcard r) (bcard (b_words b)) in H. lia.
  - assert (G : (forall x, In x (bitset_extract_setbits (b_words b) 0) -> rmem r x = true) <->
       forall x, 0 <= x < 65536 -> bget (b_words b) x = true -> rmem r x = true).
    { fold (array_container_from_bitset b). rewrite array_from_bitset_spec by auto. split; intros H x.
      - intros Hx M. apply H. now apply vals_In.
      - intros I. apply vals_In in I. now apply H. }
    rewrite <- G. clear G.
    assert (zlen (bitset_extract_setbits (b_words b) 0) <= 65536) as Lb.
    { fold (array_container_from_bitset b). rewrite array_from_bitset_spec by auto. rewrite zlen_vals. pose proof (cnt_bound (bget (b_words b)) 0 65536). lia. }
    destruct W as [W1 W2]. destruct (b_words b) as [|w rest]; [change (zlen (@nil Z)) with 0 in W2; lia|].
    apply wfw_cons in W1. destruct W1 as [Ww Wr]. rewrite zlen_cons in W2.
    assert (bitset_extract_setbits (w :: rest) 0 = map (fun i => i + 0) (bits w) ++ bitset_extract_setbits rest (0 + 64)) as EL.
    { now apply extract_setbits_cons. }
    rewrite EL in *. apply (bitset_subset_run_loop_spec _ w rest 0 r 0); auto; try lia.
Qed.
