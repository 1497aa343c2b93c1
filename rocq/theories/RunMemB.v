(** RunMemB: the operations that edit a run container in its block (adding and removing a
    value or a range) and those that fill a fresh block with runs; memory model of RunMem.v. *)
From Coq Require Import Sorted.
From Verif Require Bytes.
From Verif Require Import Base ArrayUtil BitUtil BitsetC ArrayC RunC RunD Convert MixedI MixedU MixedN RunMem.

(** run.h:103-188: the shape of the four binary searches, see rle_search_loop in RunC.v *)
Fixpoint search_loop (fuel : nat) (cmp : run -> comparison) (b : rblk) (low high : Z) : option (bool * Z) :=
  match fuel with
  | O => Some (false, low)
  | S f =>
    if low <=? high then
      let middleIndex := Z.shiftr (low + high) 1 in
      do x <- rget b middleIndex;
      match cmp x with
      | Lt => search_loop f cmp b (middleIndex + 1) high
      | Gt => search_loop f cmp b low (middleIndex - 1)
      | Eq => Some (true, middleIndex)
      end
    else Some (false, low)
  end.
Definition search (cmp : run -> comparison) (b : rblk) (n : Z) : option (bool * Z) :=
  search_loop (S (Z.to_nat n)) cmp b 0 (n - 1).
(** run.h:103-119 interleavedBinarySearch *)
Definition interleaved (b : rblk) (n ikey : Z) : option Z :=
  do (found, i) <- search (fun x => if fst x <? ikey then Lt else if ikey <? fst x then Gt else Eq) b n;
  Some (if found then i else - (i + 1)).
(** run.h:124-142 rle16_find_run *)
Definition find_run (b : rblk) (n ikey : Z) : option Z :=
  do (found, i) <- search (fun x =>
     let min := fst x in let max := u16 (fst x + snd x) in
     if max <? ikey then Lt else if ikey <? min then Gt else Eq) b n;
  Some (if found then i else - (i + 1)).
(** run.h:148-167 rle16_count_less *)
Definition count_less (b : rblk) (n key : Z) : option Z :=
  if n =? 0 then Some 0 else
  do (found, i) <- search (fun x =>
     let min_value := fst x in let max_value := u16 (fst x + snd x) in
     if max_value + 1 <? key then Lt else if key <? min_value then Gt else Eq) b n;
  Some i.
(** run.h:169-188 rle16_count_greater *)
Definition count_greater (b : rblk) (n key : Z) : option Z :=
  if n =? 0 then Some 0 else
  do (found, i) <- search (fun x =>
     let min_value := fst x in let max_value := u16 (fst x + snd x) in
     if max_value <? key then Lt else if key + 1 <? min_value then Gt else Eq) b n;
  Some (if found then n - (i + 1) else n - i).
(** run.h:94-98 recoverRoomAtIndex *)
Definition recover_room (b : rblk) (index : Z) : option rblk :=
  do b' <- move_cells b index (1 + index) (nruns b - index - 1) b; Some (set_n b' (nruns b - 1)).
(** run.h:200-209 makeRoomAtIndex *)
Definition make_room (b : rblk) (index : Z) : option rblk :=
  let b := if cap b <? nruns b + 1 then grow b (nruns b + 1) true else b in
  do b' <- move_cells b (1 + index) index (nruns b - index) b; Some (set_n b' (nruns b + 1)).
(** run.c:38-85 run_container_add.  The two assignments to the fields of the fresh cell are
    one write here, as everywhere below. *)
Definition add (b : rblk) (pos : Z) : option (rblk * bool) :=
  let n := nruns b in
  do index0 <- interleaved b n pos;
  if 0 <=? index0 then Some (b, false)
  else
    let index := - index0 - 2 in
    let insert := do b1 <- make_room b (index + 1); do b2 <- rput b1 (index + 1) (pos, 0); Some (b2, true) in
    if 0 <=? index then
      do (value, le) <- rget b index;
      let offset := pos - value in
      if offset <=? le then Some (b, false)
      else if offset =? le + 1 then
        do next <- (if index + 1 <? n then rget b (index + 1) else Some (0, 0));
        if (index + 1 <? n) && (fst next =? pos + 1) then
          do b1 <- rput b index (value, u16 (fst next + snd next - value));
          do b2 <- recover_room b1 (index + 1); Some (b2, true)
        else do b1 <- rput b index (value, u16 (le + 1)); Some (b1, true)
      else
        do next <- (if index + 1 <? n then rget b (index + 1) else Some (0, 0));
        if (index + 1 <? n) && (fst next =? pos + 1) then
          do b1 <- rput b (index + 1) (pos, u16 (snd next + 1)); Some (b1, true)
        else insert
    else
      do first <- (if 0 <? n then rget b 0 else Some (0, 0));
      if (0 <? n) && (fst first =? pos + 1) then
        do b1 <- rput b 0 (u16 (fst first - 1), u16 (snd first + 1)); Some (b1, true)
      else insert.
(** run.h:215-249 run_container_remove *)
Definition remove (b : rblk) (pos : Z) : option (rblk * bool) :=
  let n := nruns b in
  do index0 <- interleaved b n pos;
  if 0 <=? index0 then
    do (value, le) <- rget b index0;
    if le =? 0 then do b1 <- recover_room b index0; Some (b1, true)
    else do b1 <- rput b index0 (u16 (value + 1), u16 (le - 1)); Some (b1, true)
  else
    let index := - index0 - 2 in
    if 0 <=? index then
      do (value, le) <- rget b index;
      let offset := pos - value in
      if offset <? le then
        do b1 <- rput b index (value, u16 (offset - 1));
        do b2 <- make_room b1 (index + 1);
        do b3 <- rput b2 (index + 1) (u16 (pos + 1), u16 (le - offset - 1)); Some (b3, true)
      else if offset =? le then do b1 <- rput b index (value, u16 (le - 1)); Some (b1, true)
      else Some (b, false)
    else Some (b, false).
(** run.h:599-623 run_container_add_range_nruns *)
Definition add_range_nruns (b : rblk) (min max nruns_less nruns_greater : Z) : option rblk :=
  let n := nruns b in
  let nruns_common := n - nruns_less - nruns_greater in
  if nruns_common =? 0 then
    do b1 <- make_room b nruns_less; rput b1 nruns_less (u16 min, u16 (max - min))
  else
    do f <- rget b nruns_less;
    do l <- rget b (nruns_less + nruns_common - 1);
    let common_min := fst f in let common_max := fst l + snd l in
    let result_min := if common_min <? min then common_min else min in
    let result_max := if max <? common_max then common_max else max in
    do b1 <- rput b nruns_less (u16 result_min, u16 (result_max - result_min));
    do b2 <- move_cells b1 (nruns_less + 1) (n - nruns_greater) nruns_greater b1;
    Some (set_n b2 (nruns_less + 1 + nruns_greater)).
(** containers.h:2314-2329: the run counts and the call of add_range_nruns *)
Definition add_range (b : rblk) (min max : Z) : option rblk :=
  do nruns_greater <- count_greater b (nruns b) (u16 max);
  do nruns_less <- count_less b (nruns b - nruns_greater) (u16 min);
  add_range_nruns b min max nruns_less nruns_greater.
(** run.h:641-653 run_container_shift_tail *)
Definition shift_tail (b : rblk) (count distance : Z) : option rblk :=
  let b := if (0 <? distance) && (cap b <? count + distance) then grow b (count + distance) true else b in
  let srcpos := nruns b - count in
  do b' <- move_cells b (srcpos + distance) srcpos count b; Some (set_n b' (nruns b + distance)).
(** run.h:658-710 run_container_remove_range *)
Definition remove_range (b : rblk) (min max : Z) : option rblk :=
  let n := nruns b in
  do first0 <- find_run b n (u16 min);
  do last0 <- find_run b n (u16 max);
  do f <- (if 0 <=? first0 then rget b first0 else Some (0, 0));
  if (0 <=? first0) && (fst f <? min) && (max <? fst f + snd f) then
    do b1 <- make_room b (first0 + 1);
    do g <- rget b1 first0;
    do b2 <- rput b1 (first0 + 1) (u16 (max + 1), u16 (fst g + snd g - (max + 1)));
    rput b2 first0 (fst g, u16 (min - 1 - fst g))
  else
    do (b1, first) <-
      (if 0 <=? first0 then
         if fst f <? min then do b1 <- rput b first0 (fst f, u16 (min - 1 - fst f)); Some (b1, first0 + 1) else Some (b, first0)
       else Some (b, - first0 - 1));
    do (b2, last) <-
      (if 0 <=? last0 then
         do l <- rget b1 last0;
         let run_max := u16 (fst l + snd l) in
         if max <? run_max then do b2 <- rput b1 last0 (u16 (max + 1), u16 (run_max - (max + 1))); Some (b2, last0 - 1) else Some (b1, last0)
       else Some (b1, - last0 - 1 - 1));
    if first <=? last then shift_tail b2 (nruns b2 - (last + 1)) (- (last - first + 1)) else Some b2.
(** convert.c:84-88 add_run *)
Definition put_run (b : rblk) (s e : Z) : option rblk := emit b (u16 s, u16 (e - s)).
(** convert.c:90-110 run_container_from_array, also inlined at 233-258 *)
Fixpoint from_array_loop (a : list Z) (b : rblk) (run_start prev : Z) : option (rblk * Z * Z) :=
  match a with
  | [] => Some (b, run_start, prev)
  | cur :: a' =>
    if cur =? prev + 1 then from_array_loop a' b run_start cur
    else do b' <- (if run_start =? -1 then Some b else put_run b run_start prev); from_array_loop a' b' cur cur
  end.
Definition from_array (a : list Z) : option rblk :=
  let answer := create (array_container_number_of_runs a) in
  if zlen a =? 0 then Some answer
  else do (b, run_start, prev) <- from_array_loop a answer (-1) (-2); put_run b run_start prev.
(** convert.c:277-315 the scan of a bitset for runs *)
Fixpoint from_bitset_loop (fuel : nat) (ws : list Z) (b : rblk) (long_ctr cur_word : Z) : option rblk :=
  match fuel with
  | O => Some b
  | S f =>
    let '(ctr1, cur1) := skip_zero 1024 ws long_ctr cur_word in
    if cur1 =? 0 then Some b else
    let run_start := ctz cur1 + 64 * ctr1 in
    let '(ctr2, cur2) := skip_ones 1024 ws ctr1 (Z.lor cur1 (cur1 - 1)) in
    if cur2 =? ones64 then put_run b run_start (64 + ctr2 * 64 - 1)
    else
      let run_end := ctz (not64 cur2) + ctr2 * 64 in
      do b' <- put_run b run_start (run_end - 1);
      from_bitset_loop f ws b' ctr2 (Z.land cur2 (cur2 + 1))
  end.
Definition from_bitset (bs : bset) : option rblk :=
  from_bitset_loop (Z.to_nat 65537) (b_words bs) (create (bitset_container_number_of_runs bs)) 0 (znth (b_words bs) 0).
(** run.h:523-533 run_container_create_range *)
Definition create_range (start stop : Z) : option rblk :=
  do (b, _) <- append_first (create 1) (u16 start, u16 (stop - start - 1)); Some b.

(** * Proofs *)
(** the searches stay inside the runs *)
Lemma search_loop_ok fuel cmp b r : (forall i, 0 <= i < zlen r -> rget b i = Some (rnth r i)) -> forall low high, 0 <= low -> high < zlen r ->
  search_loop fuel cmp b low high = Some (rle_search_loop fuel cmp r low high).
Proof.
  intros S. induction fuel as [|f IH]; intros low high L H; cbn [search_loop rle_search_loop]; auto.
  destruct (Z.leb_spec low high); auto. cbv zeta. rewrite Z.shiftr_div_pow2 by lia. change (2 ^ 1) with 2.
  assert (low <= (low + high) / 2 <= high) by (split; [apply Z.div_le_lower_bound|apply Z.div_le_upper_bound]; lia).
  rewrite S by lia. destruct (cmp (rnth r ((low + high) / 2))); auto; apply IH; lia.
Qed.
Lemma rle_search_range fuel cmp r : forall low high, 0 <= low -> low <= high + 1 -> high < zlen r ->
  let '(found, i) := rle_search_loop fuel cmp r low high in 0 <= i <= zlen r /\ (found = true -> i < zlen r).
Proof.
  induction fuel as [|f IH]; intros low high L M H; cbn [rle_search_loop]; [split; [lia|discriminate]|].
  destruct (Z.leb_spec low high); [|split; [lia|discriminate]]. cbv zeta. rewrite Z.shiftr_div_pow2 by lia. change (2 ^ 1) with 2.
  assert (low <= (low + high) / 2 <= high) by (split; [apply Z.div_le_lower_bound|apply Z.div_le_upper_bound]; lia).
  destruct (cmp _); [split; lia|apply IH; lia|apply IH; lia].
Qed.
Lemma rnth_app1 A B i : 0 <= i < zlen A -> rnth (A ++ B) i = rnth A i.
Proof. intros H. unfold rnth. rewrite app_nth1; auto. unfold zlen in H. lia. Qed.
Lemma search_ok cmp b r A : stores b (r ++ A) -> search cmp b (zlen r) = Some (rle_search cmp r).
Proof.
  intros S. unfold search, rle_search. replace (Z.to_nat (zlen r)) with (length r) by (unfold zlen; lia).
  apply search_loop_ok; try lia. intros i Hi. rewrite (stores_get b _ i S), rnth_app1; auto. rewrite zlen_app. pose proof (zlen_nonneg A). lia.
Qed.
Lemma rle_search_in cmp r : let '(found, i) := rle_search cmp r in 0 <= i <= zlen r /\ (found = true -> i < zlen r).
Proof. apply rle_search_range; pose proof (zlen_nonneg r); lia. Qed.
Lemma interleaved_ok b r k : stores b r -> interleaved b (zlen r) k = Some (interleavedBinarySearch r k) /\
  (0 <= interleavedBinarySearch r k < zlen r \/ - zlen r - 1 <= interleavedBinarySearch r k < 0).
Proof.
  intros S. unfold interleaved, interleavedBinarySearch. rewrite (search_ok _ b r []) by now rewrite app_nil_r.
  match goal with |- context [rle_search ?c r] => pose proof (rle_search_in c r) as P; destruct (rle_search c r) as [f i] end.
  split; [reflexivity|]. destruct f; [left|right]; intuition lia.
Qed.
Lemma find_run_ok b r k : stores b r -> find_run b (zlen r) k = Some (rle16_find_run r k) /\
  (0 <= rle16_find_run r k < zlen r \/ - zlen r - 1 <= rle16_find_run r k < 0).
Proof.
  intros S. unfold find_run, rle16_find_run. rewrite (search_ok _ b r []) by now rewrite app_nil_r.
  match goal with |- context [rle_search ?c r] => pose proof (rle_search_in c r) as P; destruct (rle_search c r) as [f i] end.
  split; [reflexivity|]. destruct f; [left|right]; intuition lia.
Qed.
Lemma count_greater_ok b r k : stores b r -> count_greater b (zlen r) k = Some (rle16_count_greater r k) /\ 0 <= rle16_count_greater r k <= zlen r.
Proof.
  intros S. unfold count_greater, rle16_count_greater. destruct (Z.eqb_spec (zlen r) 0); [split; [reflexivity|lia]|].
  rewrite (search_ok _ b r []) by now rewrite app_nil_r.
  match goal with |- context [rle_search ?c r] => pose proof (rle_search_in c r) as P; destruct (rle_search c r) as [f i] end.
  split; [reflexivity|]. destruct f; intuition lia.
Qed.
Lemma count_less_ok b r A k : stores b (r ++ A) -> count_less b (zlen r) k = Some (rle16_count_less r k) /\ 0 <= rle16_count_less r k <= zlen r.
Proof.
  intros S. unfold count_less, rle16_count_less. destruct (Z.eqb_spec (zlen r) 0); [split; [reflexivity|lia]|].
  rewrite (search_ok _ b r A) by auto.
  match goal with |- context [rle_search ?c r] => pose proof (rle_search_in c r) as P; destruct (rle_search c r) as [f i] end.
  split; [reflexivity|]. lia.
Qed.

(** moving cells inside one block *)
Lemma firstn_zlen {A} (l m : list A) : firstn (Z.to_nat (zlen l)) (l ++ m) = l.
Proof. unfold zlen. rewrite Nat2Z.id, firstn_app, Nat.sub_diag, firstn_all. cbn [firstn]. apply app_nil_r. Qed.
Lemma skipn_zlen {A} (l m : list A) : skipn (Z.to_nat (zlen l)) (l ++ m) = m.
Proof. unfold zlen. rewrite Nat2Z.id, skipn_app, Nat.sub_diag, skipn_all. reflexivity. Qed.
(** cells [A ++ M ++ B ++ D], the part B moved to the left over M *)
Lemma move_left A M B D n dst from count : dst = zlen A -> from = zlen (A ++ M) -> count = zlen B ->
  exists J, move_cells (RB (A ++ M ++ B ++ D) n) dst from count (RB (A ++ M ++ B ++ D) n) = Some (RB (A ++ B ++ J) n).
Proof.
  intros -> -> ->. unfold move_cells. pose proof (zlen_nonneg A). pose proof (zlen_nonneg M). pose proof (zlen_nonneg B). pose proof (zlen_nonneg D).
  destruct (Z.eqb_spec (zlen B) 0) as [Z|Z].
  - destruct B; [|rewrite zlen_cons in Z; pose proof (zlen_nonneg B); lia]. exists (M ++ D). reflexivity.
  - unfold cap. cbn [cells nruns]. rewrite !zlen_app.
    replace ((0 <=? zlen A + zlen M) && (zlen A + zlen M + zlen B <=? zlen A + (zlen M + (zlen B + zlen D))) && (0 <=? zlen A) && (zlen A + zlen B <=? zlen A + (zlen M + (zlen B + zlen D)))) with true by lia.
    eexists. rewrite firstn_zlen. unfold slice.
    replace (zlen A + zlen M) with (zlen (A ++ M)) by apply zlen_app.
    rewrite (app_assoc A M (B ++ D)) at 1. rewrite skipn_zlen, firstn_zlen. reflexivity.
Qed.
(** cells [A ++ B ++ c :: D], the part B moved to the right by one *)
Lemma move_right A B c D n dst from count : dst = zlen A + 1 -> from = zlen A -> count = zlen B ->
  exists x, move_cells (RB (A ++ B ++ c :: D) n) dst from count (RB (A ++ B ++ c :: D) n) = Some (RB (A ++ x :: B ++ D) n).
Proof.
  intros -> -> ->. unfold move_cells. pose proof (zlen_nonneg A). pose proof (zlen_nonneg B). pose proof (zlen_nonneg D).
  destruct (Z.eqb_spec (zlen B) 0) as [Z|Z].
  - destruct B; [|rewrite zlen_cons in Z; pose proof (zlen_nonneg B); lia]. exists c. reflexivity.
  - unfold cap. cbn [cells nruns]. rewrite !zlen_app, zlen_cons.
    replace ((0 <=? zlen A) && (zlen A + zlen B <=? zlen A + (zlen B + (zlen D + 1))) && (0 <=? zlen A + 1) && (zlen A + 1 + zlen B <=? zlen A + (zlen B + (zlen D + 1)))) with true by lia.
    destruct B as [|x B]; [now change (zlen (@nil (option run))) with 0 in Z|]. exists x.
    replace (firstn (Z.to_nat (zlen A + 1)) (A ++ (x :: B) ++ c :: D)) with (A ++ [x]).
    2: { replace (zlen A + 1) with (zlen (A ++ [x])) by (rewrite zlen_app; reflexivity).
         replace (A ++ (x :: B) ++ c :: D) with ((A ++ [x]) ++ B ++ c :: D) by (rewrite <- app_assoc; reflexivity). now rewrite firstn_zlen. }
    unfold slice. rewrite skipn_zlen, firstn_zlen.
    replace (skipn (Z.to_nat (zlen A + 1 + zlen (x :: B))) (A ++ (x :: B) ++ c :: D)) with D.
    2: { replace (zlen A + 1 + zlen (x :: B)) with (zlen (A ++ (x :: B) ++ [c])) by (rewrite !zlen_app; change (zlen [c]) with 1; lia).
         replace (A ++ (x :: B) ++ c :: D) with ((A ++ (x :: B) ++ [c]) ++ D) by (rewrite <- !app_assoc; reflexivity). now rewrite skipn_zlen. }
    rewrite <- app_assoc. reflexivity.
Qed.
Lemma split_at r i : 0 <= i <= zlen r -> r = rtake i r ++ rskip i r /\ zlen (rtake i r) = i.
Proof.
  intros H. unfold rtake, rskip. split; [now rewrite firstn_skipn|]. unfold zlen in *. rewrite firstn_length. lia.
Qed.
Lemma put_ok b r i x : stores b r -> 0 <= i < zlen r -> exists b', rput b i x = Some b' /\ stores b' (rset i x r).
Proof.
  intros (j & ->) Hi. destruct (nth_split r (0,0) (n := Z.to_nat i)) as (A & B & E & L). { unfold zlen in Hi. lia. }
  set (y := nth (Z.to_nat i) r (0,0)) in *. clearbody y. subst r. rewrite map_app. cbn [map]. rewrite <- app_assoc. cbn [app].
  rewrite rput_at by (rewrite zlen_map; unfold zlen; lia). eexists. split; [reflexivity|]. exists j.
  unfold rset. rewrite <- L.
  assert (U : upd (length A) x (A ++ y :: B) = A ++ x :: B). { clear. induction A; cbn; [reflexivity|now rewrite IHA]. }
  rewrite U, map_app, <- app_assoc. cbn [map app]. f_equal. rewrite !zlen_app, !zlen_cons. reflexivity.
Qed.
Lemma make_room_ok b r i : stores b r -> 0 <= i <= zlen r ->
  exists b1, make_room b i = Some b1 /\ (forall k, 0 <= k < i -> rget b1 k = Some (rnth r k)) /\
    forall x, exists b2, rput b1 i x = Some b2 /\ stores b2 (makeRoomAtIndex r i x).
Proof.
  intros S Hi. unfold make_room. rewrite (stores_n _ _ S).
  assert (exists c D, (if cap b <? zlen r + 1 then grow b (zlen r + 1) true else b) = RB (map Some r ++ c :: D) (zlen r)) as (c & D & ->).
  { destruct S as (j & ->). destruct (Z.ltb_spec (cap (RB (map Some r ++ j) (zlen r))) (zlen r + 1)) as [L|L].
    - unfold grow. cbn [cells nruns]. set (cp := cap _) in *. pose proof (grow_capacity_ge cp (zlen r + 1) (cap_nonneg _)) as (G1 & G2).
      rewrite <- app_assoc. destruct (j ++ fresh (grow_capacity cp (zlen r + 1) - cp)) as [|c D] eqn:E; [exfalso|eauto].
      apply (f_equal zlen) in E. rewrite zlen_app, zlen_fresh in E by lia. change (zlen (@nil (option run))) with 0 in E. pose proof (zlen_nonneg j). lia.
    - destruct j as [|c D]; eauto. exfalso. unfold cap in L. cbn [cells] in L. rewrite app_nil_r, zlen_map in L. lia. }
  clear S b. destruct (split_at r i Hi) as (E & L). cbn [nruns]. unfold makeRoomAtIndex. set (A := rtake i r) in *. set (B := rskip i r) in *. clearbody A B. subst r i.
  rewrite map_app, <- app_assoc. rewrite zlen_app in *. rewrite (Z.add_comm 1 (zlen A)).
  destruct (move_right (map Some A) (map Some B) c D (zlen A + zlen B) (zlen A + 1) (zlen A) (zlen A + zlen B - zlen A)) as (x & ->).
  { now rewrite zlen_map. } { now rewrite zlen_map. } { rewrite zlen_map. lia. }
  eexists. split; [reflexivity|]. split.
  - intros k Hk. unfold set_n. cbn [cells]. rewrite rnth_app1 by lia.
    assert (SA : stores (RB (map Some A ++ x :: map Some B ++ D) (zlen A)) A) by (eexists; reflexivity).
    rewrite <- (stores_get _ A k SA) by lia. reflexivity.
  - intros y. unfold set_n. cbn [cells]. rewrite rput_at by now rewrite zlen_map. eexists. split; [reflexivity|].
    exists D. rewrite map_app, <- app_assoc. cbn [map app]. f_equal. rewrite zlen_app, zlen_cons. lia.
Qed.
Lemma recover_room_ok b r i : stores b r -> 0 <= i < zlen r -> exists b1, recover_room b i = Some b1 /\ stores b1 (recoverRoomAtIndex r i).
Proof.
  intros S Hi. unfold recover_room, recoverRoomAtIndex. rewrite (stores_n _ _ S). destruct S as (j & ->).
  destruct (split_at r i ltac:(lia)) as (E & L). rewrite (rskip_in r i) in E by lia. set (A := rtake i r) in *. set (B := rskip (i + 1) r) in *. set (y := rnth r i) in *.
  clearbody A B y. subst r i. rewrite map_app, <- app_assoc. cbn [map app]. rewrite zlen_app, zlen_cons in *.
  destruct (move_left (map Some A) [Some y] (map Some B) j (zlen A + (zlen B + 1)) (zlen A) (1 + zlen A) (zlen A + (zlen B + 1) - zlen A - 1)) as (J & M).
  { now rewrite zlen_map. } { rewrite zlen_app, zlen_map. change (zlen [Some y]) with 1. lia. } { rewrite zlen_map. lia. }
  cbn [app] in M. rewrite M. eexists. split; [reflexivity|]. exists J. unfold set_n. cbn [cells]. rewrite map_app, <- app_assoc. f_equal. rewrite zlen_app. lia.
Qed.
Lemma zlen_rset i x r : zlen (rset i x r) = zlen r.
Proof. unfold rset, zlen. now rewrite upd_length. Qed.
Lemma add_ok b r pos : stores b r -> exists b', add b pos = Some (b', snd (run_container_add r pos)) /\ stores b' (fst (run_container_add r pos)).
Proof.
  intros S. unfold add, run_container_add. rewrite (stores_n _ _ S). destruct (interleaved_ok b r pos S) as (-> & I). cbv zeta.
  set (i0 := interleavedBinarySearch r pos) in *. clearbody i0.
  destruct (Z.leb_spec 0 i0) as [L|L]; [eauto|].
  assert (INS : exists b', (do b1 <- make_room b (- i0 - 2 + 1); do b2 <- rput b1 (- i0 - 2 + 1) (pos, 0); Some (b2, true)) = Some (b', true) /\
                           stores b' (makeRoomAtIndex r (- i0 - 2 + 1) (pos, 0))).
  { destruct (make_room_ok b r (- i0 - 2 + 1) S ltac:(lia)) as (b1 & -> & _ & P). destruct (P (pos, 0)) as (b2 & -> & S2). eauto. }
  destruct (Z.leb_spec 0 (- i0 - 2)) as [L1|L1].
  - rewrite (stores_get b r) by (auto; lia). destruct (rnth r (- i0 - 2)) as [v l]. destruct (rnth r (- i0 - 2 + 1)) as [nv nl] eqn:En.
    assert (NX : (if - i0 - 2 + 1 <? zlen r then rget b (- i0 - 2 + 1) else Some (0, 0)) = Some (if - i0 - 2 + 1 <? zlen r then (nv, nl) else (0, 0))).
    { destruct (Z.ltb_spec (- i0 - 2 + 1) (zlen r)); [|reflexivity]. rewrite (stores_get b r) by (auto; lia). now rewrite En. }
    rewrite NX. clear NX.
    destruct (pos - v <=? l); [eauto|].
    assert (C : (- i0 - 2 + 1 <? zlen r) && (fst (if - i0 - 2 + 1 <? zlen r then (nv, nl) else (0, 0)) =? pos + 1) = (- i0 - 2 + 1 <? zlen r) && (nv =? pos + 1)).
    { destruct (- i0 - 2 + 1 <? zlen r); reflexivity. }
    rewrite C. clear C. destruct (Z.ltb_spec (- i0 - 2 + 1) (zlen r)) as [L2|L2]; cbn [andb fst snd].
    + destruct (pos - v =? l + 1); destruct (nv =? pos + 1); [| | |now cbn [fst snd]].
      * destruct (put_ok b r (- i0 - 2) (v, u16 (nv + nl - v)) S ltac:(lia)) as (b1 & -> & S1).
        destruct (recover_room_ok b1 _ (- i0 - 2 + 1) S1) as (b2 & -> & S2); [rewrite zlen_rset; lia|]. eauto.
      * destruct (put_ok b r (- i0 - 2) (v, u16 (l + 1)) S ltac:(lia)) as (b1 & -> & S1). eauto.
      * destruct (put_ok b r (- i0 - 2 + 1) (pos, u16 (nl + 1)) S ltac:(lia)) as (b1 & -> & S1). eauto.
    + destruct (pos - v =? l + 1).
      * destruct (put_ok b r (- i0 - 2) (v, u16 (l + 1)) S ltac:(lia)) as (b1 & -> & S1). eauto.
      * now cbn [fst snd].
  - destruct (rnth r 0) as [v0 l0] eqn:E0. destruct (Z.ltb_spec 0 (zlen r)) as [L2|L2]; cbn [andb].
    + rewrite (stores_get b r) by (auto; lia). rewrite E0. cbn [fst snd]. destruct (v0 =? pos + 1); [|now cbn [fst snd]].
      destruct (put_ok b r 0 (u16 (v0 - 1), u16 (l0 + 1)) S ltac:(lia)) as (b1 & -> & S1). eauto.
    + now cbn [fst snd].
Qed.
Lemma remove_ok b r pos : stores b r -> exists b', remove b pos = Some (b', snd (run_container_remove r pos)) /\ stores b' (fst (run_container_remove r pos)).
Proof.
  intros S. unfold remove, run_container_remove. rewrite (stores_n _ _ S). destruct (interleaved_ok b r pos S) as (-> & I). cbv zeta.
  set (i0 := interleavedBinarySearch r pos) in *. clearbody i0.
  destruct (Z.leb_spec 0 i0) as [L|L].
  - rewrite (stores_get b r) by (auto; lia). destruct (rnth r i0) as [v l]. destruct (l =? 0).
    + destruct (recover_room_ok b r i0 S ltac:(lia)) as (b2 & -> & S2). eauto.
    + destruct (put_ok b r i0 (u16 (v + 1), u16 (l - 1)) S ltac:(lia)) as (b1 & -> & S1). eauto.
  - destruct (Z.leb_spec 0 (- i0 - 2)) as [L1|L1]; [|eauto]. rewrite (stores_get b r) by (auto; lia). destruct (rnth r (- i0 - 2)) as [v l].
    destruct (pos - v <? l).
    + destruct (put_ok b r (- i0 - 2) (v, u16 (pos - v - 1)) S ltac:(lia)) as (b1 & -> & S1).
      destruct (make_room_ok b1 _ (- i0 - 2 + 1) S1) as (b2 & -> & _ & P); [rewrite zlen_rset; lia|].
      destruct (P (u16 (pos + 1), u16 (l - (pos - v) - 1))) as (b3 & -> & S3). eauto.
    + destruct (pos - v =? l); [|eauto]. destruct (put_ok b r (- i0 - 2) (v, u16 (l - 1)) S ltac:(lia)) as (b1 & -> & S1). eauto.
Qed.
Lemma put_mid b A y B x i : stores b (A ++ y :: B) -> i = zlen A -> exists b', rput b i x = Some b' /\ stores b' (A ++ x :: B).
Proof.
  intros S ->. destruct (put_ok b _ (zlen A) x S) as (b' & E & S').
  { rewrite zlen_app, zlen_cons. pose proof (zlen_nonneg A). pose proof (zlen_nonneg B). lia. }
  exists b'. split; auto. rewrite rset_mid in S' by auto. exact S'.
Qed.
(** dropping the middle part of the runs *)
Lemma drop_mid b A M B dst from count n : stores b (A ++ M ++ B) -> dst = zlen A -> from = zlen (A ++ M) -> count = zlen B -> n = zlen (A ++ B) ->
  exists b', move_cells b dst from count b = Some b' /\ stores (set_n b' n) (A ++ B).
Proof.
  intros (j & ->) -> -> -> ->. rewrite !map_app, <- !app_assoc.
  destruct (move_left (map Some A) (map Some M) (map Some B) j (zlen (A ++ M ++ B)) (zlen A) (zlen (A ++ M)) (zlen B)) as (J & ->).
  { now rewrite zlen_map. } { rewrite !zlen_app, !zlen_map. reflexivity. } { now rewrite zlen_map. }
  eexists. split; [reflexivity|]. exists J. unfold set_n. cbn [cells]. rewrite map_app, <- app_assoc. reflexivity.
Qed.
Lemma add_range_ok b r min max : stores b r -> rwf r -> 0 <= min -> min <= max -> max < 65536 ->
  exists b', add_range b min max = Some b' /\ stores b' (run_container_add_range r min max).
Proof.
  intros S W H0 H1 H2. destruct (add_range_split r min max W H0 H1 H2) as (A & M & B & E & _ & _ & _ & G & L).
  unfold add_range, run_container_add_range. rewrite (stores_n _ _ S). rewrite !u16_small by lia.
  destruct (count_greater_ok b r max S) as (-> & _). rewrite G in *.
  assert (T : rtake (zlen r - zlen B) r = A ++ M).
  { rewrite E, app_assoc. apply rtake_mid. rewrite !zlen_app. lia. }
  rewrite T in L. rewrite T.
  assert (S' : stores b ((A ++ M) ++ B)) by (rewrite <- app_assoc, <- E; exact S).
  destruct (count_less_ok b (A ++ M) B min S') as (CL & _).
  replace (zlen r - zlen B) with (zlen (A ++ M)) by (rewrite E, !zlen_app; lia). rewrite CL, L. clear CL G L T S'.
  unfold add_range_nruns, run_container_add_range_nruns. rewrite (stores_n _ _ S). cbv zeta.
  pose proof (zlen_nonneg A). pose proof (zlen_nonneg B). pose proof (zlen_nonneg M).
  assert (ZR : zlen r = zlen A + zlen M + zlen B) by (rewrite E, !zlen_app; lia).
  destruct (Z.eqb_spec (zlen r - zlen A - zlen B) 0) as [Z|Z].
  - destruct (make_room_ok b r (zlen A) S ltac:(lia)) as (b1 & -> & _ & P). apply P.
  - rewrite !(stores_get b r) by (auto; lia). 
    destruct M as [|y M]; [change (zlen (@nil run)) with 0 in *; lia|].
    subst r. cbn [app] in S. match goal with |- context [rput b (zlen A) ?x] => set (z := x); destruct (put_mid b A y (M ++ B) z (zlen A) S eq_refl) as (b1 & -> & S1) end.
    replace (A ++ z :: M ++ B) with ((A ++ [z]) ++ M ++ B) in S1 by (rewrite <- app_assoc; reflexivity).
    destruct (drop_mid b1 (A ++ [z]) M B (zlen A + 1) (zlen (A ++ (y :: M) ++ B) - zlen B) (zlen B) (zlen A + 1 + zlen B) S1) as (b2 & -> & S2).
    { now rewrite zlen_snoc. } { rewrite !zlen_app, zlen_cons. change (zlen [z]) with 1. lia. } { reflexivity. } { rewrite zlen_app, zlen_snoc. reflexivity. }
    eexists. split; [reflexivity|]. rewrite rtake_mid by auto. rewrite app_assoc, rskip_mid by (rewrite !zlen_app; lia).
    rewrite <- app_assoc in S2. exact S2.
Qed.
Lemma shift_tail_ok b r first last : stores b r -> 0 <= first <= last -> last < zlen r ->
  exists b', shift_tail b (zlen r - (last + 1)) (- (last - first + 1)) = Some b' /\ stores b' (run_container_shift_tail r (zlen r - (last + 1)) (- (last - first + 1))).
Proof.
  intros S H1 H2. unfold shift_tail, run_container_shift_tail. replace (0 <? - (last - first + 1)) with false by lia. cbn [andb]. rewrite (stores_n _ _ S).
  replace (zlen r - (zlen r - (last + 1))) with (last + 1) by lia. replace (last + 1 + - (last - first + 1)) with first by lia.
  destruct (split_at r first ltac:(lia)) as (E & L). destruct (split_at (rskip first r) (last + 1 - first)) as (E2 & L2).
  { assert (Q := f_equal zlen E). rewrite zlen_app in Q. lia. }
  assert (Q : rskip (last + 1 - first) (rskip first r) = rskip (last + 1) r).
  { unfold rskip. rewrite Bytes.skipn_skipn'. f_equal. lia. }
  rewrite Q in E2. rewrite E2 in E. 
  assert (S' := S). rewrite E in S'.
  assert (ZL := f_equal zlen E). rewrite !zlen_app in ZL.
  destruct (drop_mid b (rtake first r) (rtake (last + 1 - first) (rskip first r)) (rskip (last + 1) r) first (last + 1) (zlen r - (last + 1)) (zlen r + - (last - first + 1)) S') as (b' & -> & S2); try (rewrite ?zlen_app; lia).
  eauto.
Qed.
Lemma remove_range_ok b r min max : stores b r -> exists b', remove_range b min max = Some b' /\ stores b' (run_container_remove_range r min max).
Proof.
  intros S. unfold remove_range, run_container_remove_range. rewrite (stores_n _ _ S). cbv zeta.
  destruct (find_run_ok b r (u16 min) S) as (-> & I1). destruct (find_run_ok b r (u16 max) S) as (-> & I2).
  set (f0 := rle16_find_run r (u16 min)) in *. set (l0 := rle16_find_run r (u16 max)) in *. clearbody f0 l0.
  assert (F : (if 0 <=? f0 then rget b f0 else Some (0, 0)) = Some (if 0 <=? f0 then rnth r f0 else (0, 0))).
  { destruct (Z.leb_spec 0 f0); [|reflexivity]. apply stores_get; auto. lia. }
  rewrite F. clear F.
  assert (C : (0 <=? f0) && (fst (if 0 <=? f0 then rnth r f0 else (0, 0)) <? min) && (max <? fst (if 0 <=? f0 then rnth r f0 else (0, 0)) + snd (if 0 <=? f0 then rnth r f0 else (0, 0)))
            = (0 <=? f0) && (fst (rnth r f0) <? min) && (max <? fst (rnth r f0) + snd (rnth r f0))).
  { destruct (0 <=? f0); reflexivity. }
  rewrite C. destruct ((0 <=? f0) && (fst (rnth r f0) <? min) && (max <? fst (rnth r f0) + snd (rnth r f0))) eqn:SP; clear C.
  - destruct (make_room_ok b r (f0 + 1) S ltac:(lia)) as (b1 & -> & RD & P). rewrite RD by lia.
    match goal with |- context [rput b1 _ ?x] => destruct (P x) as (b2 & -> & S2) end. apply put_ok; auto.
    unfold makeRoomAtIndex. rewrite zlen_app, zlen_cons. destruct (split_at r (f0 + 1) ltac:(lia)) as (_ & ->). pose proof (zlen_nonneg (rskip (f0 + 1) r)). lia.
  - clear SP.
    assert (P1 : exists b1 r1 first, (if 0 <=? f0 then
         if fst (if 0 <=? f0 then rnth r f0 else (0, 0)) <? min
         then do b1 <- rput b f0 (fst (if 0 <=? f0 then rnth r f0 else (0, 0)), u16 (min - 1 - fst (if 0 <=? f0 then rnth r f0 else (0, 0)))); Some (b1, f0 + 1) else Some (b, f0)
       else Some (b, - f0 - 1)) = Some (b1, first) /\
      (if 0 <=? f0 then if fst (rnth r f0) <? min then (rset f0 (fst (rnth r f0), u16 (min - 1 - fst (rnth r f0))) r, f0 + 1) else (r, f0) else (r, - f0 - 1)) = (r1, first) /\
      stores b1 r1 /\ zlen r1 = zlen r /\ 0 <= first).
    { destruct (Z.leb_spec 0 f0).
      - destruct (fst (rnth r f0) <? min).
        + destruct (put_ok b r f0 (fst (rnth r f0), u16 (min - 1 - fst (rnth r f0))) S ltac:(lia)) as (b1 & -> & S1).
          do 3 eexists. split; [reflexivity|]. split; [reflexivity|]. split; [exact S1|]. rewrite zlen_rset. lia.
        + do 3 eexists. split; [reflexivity|]. split; [reflexivity|]. split; [exact S|]. lia.
      - do 3 eexists. split; [reflexivity|]. split; [reflexivity|]. split; [exact S|]. lia. }
    destruct P1 as (b1 & r1 & first & -> & -> & S1 & Z1 & FI). clear S.
    assert (P2 : exists b2 r2 last, (if 0 <=? l0 then
         do l <- rget b1 l0;
         if max <? u16 (fst l + snd l) then do b2 <- rput b1 l0 (u16 (max + 1), u16 (u16 (fst l + snd l) - (max + 1))); Some (b2, l0 - 1) else Some (b1, l0)
       else Some (b1, - l0 - 1 - 1)) = Some (b2, last) /\
      (if 0 <=? l0 then if max <? u16 (fst (rnth r1 l0) + snd (rnth r1 l0)) then (rset l0 (u16 (max + 1), u16 (u16 (fst (rnth r1 l0) + snd (rnth r1 l0)) - (max + 1))) r1, l0 - 1) else (r1, l0)
       else (r1, - l0 - 1 - 1)) = (r2, last) /\
      stores b2 r2 /\ zlen r2 = zlen r /\ last < zlen r).
    { destruct (Z.leb_spec 0 l0).
      - rewrite (stores_get b1 r1) by (auto; lia). destruct (max <? u16 _).
        + match goal with |- context [rput b1 l0 ?x] => destruct (put_ok b1 r1 l0 x S1 ltac:(lia)) as (b2 & -> & S2) end.
          do 3 eexists. split; [reflexivity|]. split; [reflexivity|]. split; [exact S2|]. rewrite zlen_rset. lia.
        + do 3 eexists. split; [reflexivity|]. split; [reflexivity|]. split; [exact S1|]. lia.
      - do 3 eexists. split; [reflexivity|]. split; [reflexivity|]. split; [exact S1|]. lia. }
    destruct P2 as (b2 & r2 & last & -> & -> & S2 & Z2 & LA).
    destruct (Z.leb_spec first last); [|eauto]. rewrite (stores_n _ _ S2). apply shift_tail_ok; auto; lia.
Qed.

(** filling a fresh block; the block has exactly as many cells as the final result has runs *)
Lemma put_run_ok b room dst s e : isblk b room [] dst -> zlen dst < room -> exists b', put_run b s e = Some b' /\ isblk b' room [] (add_run dst s e).
Proof. intros I H. apply emit_ok; auto. Qed.
Lemma zlen_add_run d s e : zlen (add_run d s e) = zlen d + 1.
Proof. apply zlen_snoc. Qed.
Lemma from_array_loop_len a d s p : zlen d <= zlen (fst (fst (run_from_array_loop a d s p))).
Proof.
  revert d s p. induction a as [|c a IH]; intros d s p; cbn [run_from_array_loop]; [cbn [fst]; lia|].
  destruct (c =? p + 1); [apply IH|]. destruct (s =? -1); [apply IH|]. specialize (IH (add_run d s p) c c). rewrite zlen_add_run in IH. lia.
Qed.
Lemma from_array_loop_ok a room : forall b d s p, isblk b room [] d -> zlen (fst (fst (run_from_array_loop a d s p))) <= room ->
  exists b', from_array_loop a b s p = Some (b', snd (fst (run_from_array_loop a d s p)), snd (run_from_array_loop a d s p)) /\
             isblk b' room [] (fst (fst (run_from_array_loop a d s p))).
Proof.
  induction a as [|c a IH]; intros b d s p I L; cbn [from_array_loop run_from_array_loop] in *; [eauto|].
  destruct (c =? p + 1); [now apply IH|]. destruct (s =? -1); [now apply IH|].
  pose proof (from_array_loop_len a (add_run d s p) c c) as Q. rewrite zlen_add_run in Q.
  destruct (put_run_ok b room d s p I ltac:(lia)) as (b' & -> & I'). now apply IH.
Qed.
Lemma create_isblk n : 0 <= n -> isblk (create n) n [] [].
Proof. intros H. unfold create. exists (fresh n). cbn [map app]. rewrite app_nil_r. split; [reflexivity|]. rewrite zlen_fresh by auto. reflexivity. Qed.
Lemma from_array_ok a : awf a -> a <> [] -> exists b, from_array a = Some b /\ stores b (run_container_from_array a) /\ cap b = zlen (run_container_from_array a).
Proof.
  intros W N. pose proof (convert_run_optimize_nruns a W N) as Q. unfold from_array, run_container_from_array.
  destruct (Z.eqb_spec (zlen a) 0) as [Z|Z]; [apply nonempty_zlen in N; lia|].
  set (n := array_container_number_of_runs a) in *.
  destruct (run_from_array_loop a [] (-1) (-2)) as [[d s] p] eqn:E. rewrite zlen_add_run in Q. pose proof (zlen_nonneg d).
  destruct (from_array_loop_ok a n (create n) [] (-1) (-2)) as (b & -> & I). { apply create_isblk. lia. } { rewrite E. cbn [fst]. lia. }
  rewrite E in *. cbn [fst snd] in *. destruct (put_run_ok b n d s p I ltac:(lia)) as (b' & -> & I'). eexists. split; [reflexivity|].
  split; [eapply isblk_stores; eauto|]. destruct I' as (j & -> & L). unfold cap. cbn [cells]. rewrite app_nil_r, zlen_app, zlen_map. rewrite zlen_add_run in L |- *. lia.
Qed.
Lemma from_bitset_loop_len fuel ws : forall d c w, zlen d <= zlen (run_from_bitset_loop fuel ws d c w).
Proof.
  induction fuel as [|f IH]; intros d c w; cbn [run_from_bitset_loop]; [lia|]. destruct (skip_zero 1024 ws c w) as [c1 w1]. destruct (w1 =? 0); [lia|].
  destruct (skip_ones 1024 ws c1 _) as [c2 w2]. destruct (w2 =? ones64); [rewrite zlen_add_run; lia|].
  match goal with |- _ <= zlen (run_from_bitset_loop _ _ ?d' ?c' ?w') => specialize (IH d' c' w') end. rewrite zlen_add_run in IH. lia.
Qed.
Lemma from_bitset_loop_ok fuel ws room : forall b d c w, isblk b room [] d -> zlen (run_from_bitset_loop fuel ws d c w) <= room ->
  exists b', from_bitset_loop fuel ws b c w = Some b' /\ isblk b' room [] (run_from_bitset_loop fuel ws d c w).
Proof.
  induction fuel as [|f IH]; intros b d c w I L; cbn [from_bitset_loop run_from_bitset_loop] in *; [eauto|].
  destruct (skip_zero 1024 ws c w) as [c1 w1]. destruct (w1 =? 0); [eauto|].
  destruct (skip_ones 1024 ws c1 _) as [c2 w2]. destruct (w2 =? ones64); [apply put_run_ok; auto; rewrite zlen_add_run in L; lia|].
  match type of L with zlen (run_from_bitset_loop _ _ ?d' ?c' ?w') <= _ => pose proof (from_bitset_loop_len f ws d' c' w') as Q end. rewrite zlen_add_run in Q.
  match goal with |- context [put_run b ?s ?e] => destruct (put_run_ok b room d s e I ltac:(lia)) as (b' & -> & I') end. now apply IH.
Qed.
Lemma from_bitset_ok bs : bws (b_words bs) -> exists b, from_bitset bs = Some b /\ stores b (run_container_from_bitset bs) /\ cap b = zlen (run_container_from_bitset bs).
Proof.
  intros W. pose proof (run_from_bitset_nruns bs W) as Q. unfold from_bitset, run_container_from_bitset in *. set (n := bitset_container_number_of_runs bs) in *.
  match type of Q with zlen ?x = _ => pose proof (zlen_nonneg x) end.
  destruct (from_bitset_loop_ok (Z.to_nat 65537) (b_words bs) n (create n) [] 0 (znth (b_words bs) 0)) as (b & E & I). { apply create_isblk. lia. } { lia. }
  exists b. split; [exact E|]. split; [eapply isblk_stores; exact I|]. destruct I as (j & -> & L). unfold cap. cbn [cells]. rewrite app_nil_r, zlen_app, zlen_map. lia.
Qed.
Lemma create_range_ok start stop : exists b, create_range start stop = Some b /\ stores b [(u16 start, u16 (stop - start - 1))].
Proof.
  unfold create_range. eexists. split; [reflexivity|]. exists []. reflexivity.
Qed.
