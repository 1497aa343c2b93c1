(** ArrayC: array containers (include/roaring/containers/array.h, src/containers/array.c).
    An array container is the list of its first [cardinality] uint16 values.  Capacity and
    (re)allocation are not part of the model: no branch of this code that depends on the
    capacity changes the stored values.  Only the scalar paths are modelled. *)
From Coq Require Import Sorted Btauto.
From Verif Require Import Base ArrayUtil BitsetC.

(** decide all integer comparisons of the goal, then propositional reasoning *)
Ltac zcases :=
  repeat match goal with
  | |- context [?a <? ?b] => destruct (Z.ltb_spec a b)
  | |- context [?a <=? ?b] => destruct (Z.leb_spec a b)
  | |- context [?a =? ?b] => destruct (Z.eqb_spec a b)
  end; cbn [andb orb negb xorb]; try (subst; intuition (auto; (lia || congruence))).

Definition awf (l : list Z) : Prop := incr l /\ inb 0 65536 l.
Definition ztake (n : Z) (l : list Z) : list Z := firstn (Z.to_nat n) l.

(** array.c:77-86 create_range *)
Definition array_container_create_range (min max : Z) : list Z := map (fun k => k mod 65536) (zr min max).
(** array.h:265-274 append *)
Definition array_container_append (l : list Z) (pos : Z) : list Z := l ++ [pos].
(** array.h:283-312 try_add: (result code, new array) *)
Definition array_container_try_add (l : list Z) (value max_cardinality : Z) : Z * list Z :=
  let card := zlen l in
  if ((card =? 0) || (znth l (card - 1) <? value)) && (card <? max_cardinality)
  then (1, array_container_append l value)
  else
    let loc := binarySearch l value in
    if 0 <=? loc then (0, l)
    else if card <? max_cardinality then
      let insert_idx := - loc - 1 in (1, ztake insert_idx l ++ value :: zskip insert_idx l)
    else (-1, l).
(** array.h:315-317 add (max_cardinality = INT32_MAX) *)
Definition array_container_add (l : list Z) (value : Z) : list Z * bool :=
  let '(rc, l') := array_container_try_add l value (2^31 - 1) in (l', rc =? 1).
(** array.h:320-331 remove *)
Definition array_container_remove (l : list Z) (pos : Z) : list Z * bool :=
  let idx := binarySearch l pos in
  if 0 <=? idx then (ztake idx l ++ zskip (idx + 1) l, true) else (l, false).
(** array.h:334-362 contains: bisection down to 16 elements, then linear scan *)
Fixpoint contains_linear (fuel : nat) (l : list Z) (i high pos : Z) : bool :=
  match fuel with
  | O => false
  | S f => if i <=? high then
             let v := znth l i in
             if v =? pos then true else if pos <? v then false else contains_linear f l (i + 1) high pos
           else false
  end.
Fixpoint contains_loop (fuel : nat) (l : list Z) (low high pos : Z) : bool :=
  match fuel with
  | O => false
  | S f => if low + 16 <=? high then
             let mid := Z.shiftr (low + high) 1 in
             let v := znth l mid in
             if v <? pos then contains_loop f l (mid + 1) high pos
             else if pos <? v then contains_loop f l low (mid - 1) pos
             else true
           else contains_linear 17 l low high pos
  end.
Definition array_container_contains (l : list Z) (pos : Z) : bool :=
  contains_loop (S (length l)) l 0 (zlen l - 1) pos.
(** array.h:369-392 contains_range ([range_end-1] cast to uint16) *)
Definition array_container_contains_range (l : list Z) (range_start range_end : Z) : bool :=
  let range_count := range_end - range_start in
  if range_count <=? 0 then true
  else if zlen l <? range_count then false
  else
    let start := binarySearch l (range_start mod 65536) in
    (0 <=? start) && (start + range_count <=? zlen l)
    && (znth l (start + range_count - 1) =? (range_end - 1) mod 65536).
(** array.c:103-127 offset; [wantlo]/[wanthi]: loc/hic != NULL; None = output untouched *)
Definition add_all (l : list Z) (vs : list Z) : list Z :=
  fold_left (fun l v => fst (array_container_add l v)) vs l.
Definition array_container_offset (c : list Z) (wantlo wanthi : bool) (offset : Z) : option (list Z) * option (list Z) :=
  let top := 65536 - offset in
  let lo_cap := count_less c top in
  let lo := add_all [] (map (fun v => (v + offset) mod 65536) (ztake lo_cap c)) in
  let hi_cap := zlen c - lo_cap in
  let hi := add_all [] (map (fun v => (v + offset) mod 65536) (zskip lo_cap c)) in
  ((if wantlo && negb (lo_cap =? 0) then Some lo else None),
   (if wanthi && negb (hi_cap =? 0) then Some hi else None)).
(** array.h:395-404 minimum, maximum *)
Definition array_container_minimum (l : list Z) : Z := if zlen l =? 0 then 0 else znth l 0.
Definition array_container_maximum (l : list Z) : Z := if zlen l =? 0 then 0 else znth l (zlen l - 1).
(** array.h:407-415 rank; 445-453 get_index; 456-467 index_equalorlarger *)
Definition array_container_rank (l : list Z) (x : Z) : Z :=
  let idx := binarySearch l x in if 0 <=? idx then idx + 1 else - idx - 1.
Definition array_container_get_index (l : list Z) (x : Z) : Z :=
  let idx := binarySearch l x in if 0 <=? idx then idx else -1.
Definition array_container_index_equalorlarger (l : list Z) (x : Z) : Z :=
  let idx := binarySearch l x in
  if 0 <=? idx then idx
  else let candidate := - idx - 1 in if candidate <? zlen l then candidate else -1.
(** array.h:419-442 rank_many: answers for the consumed prefix.  Note [pos = idx + 1]
    although idx is relative to pos. *)
Fixpoint array_rank_many_loop (l : list Z) (high start_rank pos : Z) (qs : list Z) : list Z :=
  match qs with
  | [] => []
  | x :: qs' =>
    if negb (Z.shiftr x 16 =? high) then []
    else
      let idx := binarySearch (zskip pos l) (x mod 65536) in
      if 0 <=? idx then (start_rank + pos + (idx + 1)) :: array_rank_many_loop l high start_rank (idx + 1) qs'
      else (start_rank + pos + (- idx - 1)) :: array_rank_many_loop l high start_rank pos qs'
  end.
Definition array_container_rank_many (l : list Z) (start_rank : Z) (qs : list Z) : list Z :=
  match qs with [] => [] | q :: _ => array_rank_many_loop l (Z.shiftr q 16) start_rank 0 qs end.
(** array.h:473-489 add_range_nvals; 506-513 remove_range *)
Definition array_container_add_range_nvals (l : list Z) (min max nvals_less nvals_greater : Z) : list Z :=
  ztake nvals_less l ++ map (fun k => k mod 65536) (zr min (max + 1)) ++ zskip (zlen l - nvals_greater) l.
Definition array_container_remove_range (l : list Z) (pos count : Z) : list Z :=
  if negb (count =? 0) then ztake pos l ++ zskip (pos + count) l else l.
(** array.c:197-202 add_from_range (step is uint16; callers pass 0 < step) *)
Fixpoint array_add_from_range_loop (fuel : nat) (l : list Z) (value max step : Z) : list Z :=
  match fuel with
  | O => l
  | S f => if value <? max then array_add_from_range_loop f (array_container_append l (value mod 65536)) (value + step) max step
           else l
  end.
Definition array_container_add_from_range (l : list Z) (min max step : Z) : list Z :=
  array_add_from_range_loop (Z.to_nat (max - min)) l min max step.
(** array.c:207-218 union; 224-245 andnot; 252-276 xor *)
Definition array_container_union (a b : list Z) : list Z := fast_union_uint16 a b.
Definition array_container_andnot (a b : list Z) : list Z := difference_uint16 a b.
Definition array_container_xor (a b : list Z) : list Z := xor_uint16 a b.
(** array.c:286-323 intersection; 373-397 intersection_inplace computes the same
    function with the output written over the first argument *)
Definition array_container_intersection (a b : list Z) : list Z :=
  if zlen a * 64 <? zlen b then intersect_skewed_uint16 a b
  else if zlen b * 64 <? zlen a then intersect_skewed_uint16 b a
  else intersect_uint16 a b.
(** array.c:327-351 intersection_cardinality; 353-368 intersect *)
Definition array_container_intersection_cardinality (a b : list Z) : Z :=
  if zlen a * 64 <? zlen b then intersect_skewed_uint16_cardinality a b
  else if zlen b * 64 <? zlen a then intersect_skewed_uint16_cardinality b a
  else intersect_uint16_cardinality a b.
Definition array_container_intersect (a b : list Z) : bool :=
  if zlen a * 64 <? zlen b then intersect_skewed_uint16_nonempty a b
  else if zlen b * 64 <? zlen a then intersect_skewed_uint16_nonempty b a
  else intersect_uint16_nonempty a b.
(** array.c:399-425 to_uint32_array (scalar) *)
Definition array_container_to_uint32_array (l : list Z) (base : Z) : list Z := map (fun v => base + v) l.
(** array.c:454-490 validate (capacity and pointer checks omitted: capacities and NULL are
    not modelled) *)
Fixpoint array_increasing (prev : Z) (l : list Z) : bool :=
  match l with [] => true | x :: l' => if x <=? prev then false else array_increasing x l' end.
Definition array_container_validate (l : list Z) : bool :=
  if 4096 <? zlen l then false
  else if zlen l =? 0 then false
  else match l with [] => true | x :: l' => array_increasing x l' end.
(** array.c:493-502 number_of_runs *)
Fixpoint array_nruns_loop (l : list Z) (prev nr : Z) : Z :=
  match l with
  | [] => nr
  | p :: l' => array_nruns_loop l' p (if negb (p =? prev + 1) then nr + 1 else nr)
  end.
Definition array_container_number_of_runs (l : list Z) : Z := array_nruns_loop l (-2) 0.
(** array.c:515-536 is_subset *)
Fixpoint array_subset_loop (a : list Z) : list Z -> bool :=
  fix go (b : list Z) : bool :=
  match a, b with
  | [], _ => true
  | _ :: _, [] => false
  | x :: a', y :: b' =>
    if x =? y then array_subset_loop a' b' else if y <? x then go b' else false
  end.
Definition array_container_is_subset (a b : list Z) : bool :=
  if zlen b <? zlen a then false else array_subset_loop a b.
(** array.h:220-228 equals *)
Definition array_container_equals (a b : list Z) : bool :=
  if negb (zlen a =? zlen b) then false else if list_eq_dec Z.eq_dec a b then true else false.
(** array.h:242-253 select: the comparison is done in uint32 arithmetic *)
Definition array_container_select (l : list Z) (start_rank rank : Z) : option Z * Z :=
  let card := zlen l in
  if (start_rank + card) mod 2^32 <=? rank then (None, (start_rank + card) mod 2^32)
  else (Some (znth l ((rank - start_rank) mod 2^32)), start_rank).

(** * Proofs *)
Definition amem (l : list Z) (x : Z) : bool := zmem x l.
Definition acard (l : list Z) : Z := cnt (amem l) 0 65536.

Lemma zmem_bool x l (b : bool) : (In x l <-> b = true) -> zmem x l = b.
Proof.
  intros H. destruct b.
  - apply zmem_In. tauto.
  - apply zmem_nIn. intros Hc. apply H in Hc. discriminate.
Qed.
Lemma zlen_acard l : awf l -> zlen l = acard l.
Proof.
  intros [Hi Hb]. symmetry. apply cnt_list; auto. intros. unfold amem. apply zmem_In.
Qed.
Lemma lb_cnt l x : awf l -> 0 <= x -> lb l x = cnt (amem l) 0 x.
Proof.
  intros [Hi Hb] Hx. unfold lb. symmetry. apply cnt_list.
  - now apply incr_filter.
  - apply Forall_forall. intros y Hy. apply filter_In in Hy. destruct Hy as [Hy1 Hy2].
    pose proof (inb_In _ _ _ _ Hb Hy1). lia.
  - intros y Hy. unfold amem. rewrite zmem_In, filter_In. split; [intros; split; auto; lia|tauto].
Qed.
Lemma ztake_zlen n l : 0 <= n <= zlen l -> zlen (ztake n l) = n.
Proof. intros. unfold ztake, zlen in *. rewrite firstn_length. lia. Qed.
Lemma ztake_skip n l : ztake n l ++ zskip n l = l.
Proof. apply firstn_skipn. Qed.
Lemma split_lb l x : incr l ->
  ztake (lb l x) l = filter (fun y => y <? x) l /\ zskip (lb l x) l = filter (fun y => x <=? y) l.
Proof.
  induction l as [|a l IH]; intros H; auto. pose proof (incr_tail _ _ H) as Ht. specialize (IH Ht).
  destruct IH as [I1 I2]. cbn [filter]. destruct (a <? x) eqn:E.
  - rewrite lb_cons_lt by lia. pose proof (lb_bound l x).
    unfold ztake, zskip in *. replace (Z.to_nat (1 + lb l x)) with (S (Z.to_nat (lb l x))) by lia.
    cbn [firstn skipn]. replace (x <=? a) with false by lia. split; [now f_equal|auto].
  - rewrite lb_cons_ge by (auto; lia). replace (x <=? a) with true by lia. cbn.
    split.
    + symmetry. apply filter_none. intros y Hy. pose proof (incr_head _ _ _ H Hy). lia.
    + f_equal. symmetry. apply filter_all. intros y Hy. pose proof (incr_head _ _ _ H Hy). lia.
Qed.
Lemma incr_mid A v B : incr A -> incr B -> (forall x, In x A -> x < v) -> (forall x, In x B -> v < x) -> incr (A ++ v :: B).
Proof.
  intros HA HB H1 H2. apply incr_app. repeat split; auto.
  - apply Forall_forall. auto.
  - intros x y Hx [<-|Hy]; auto. specialize (H1 _ Hx). specialize (H2 _ Hy). lia.
Qed.
Lemma last_lt_all l v : incr l -> l <> [] -> znth l (zlen l - 1) < v -> forall x, In x l -> x < v.
Proof.
  intros Hi Hn Hv x Hx. apply In_znth in Hx. destruct Hx as (i&Hi1&<-).
  pose proof (incr_znth_le l i (zlen l - 1) Hi). lia.
Qed.
Lemma append_spec l v : awf l -> 0 <= v < 65536 -> (forall x, In x l -> x < v) ->
  awf (l ++ [v]) /\ (forall y, amem (l++[v]) y = amem l y || (y =? v)).
Proof.
  intros [Hi Hb] Hv Hlt. split; [split|].
  - apply incr_mid; cbn; auto. tauto.
  - apply inb_app. split; auto. repeat constructor; lia.
  - intros y. unfold amem. apply zmem_bool. rewrite in_app_iff, orb_true_iff, zmem_In. cbn. zcases.
Qed.
Lemma try_add_spec l v mc : awf l -> 0 <= v < 65536 ->
  let r := array_container_try_add l v mc in
  if amem l v then r = (0, l)
  else if zlen l <? mc then
    fst r = 1 /\ awf (snd r) /\ zlen (snd r) = zlen l + 1 /\ (forall y, amem (snd r) y = amem l y || (y =? v))
  else r = (-1, l).
Proof.
  intros [Hi Hb] Hv. cbn zeta. unfold array_container_try_add.
  destruct (((zlen l =? 0) || (znth l (zlen l - 1) <? v)) && (zlen l <? mc)) eqn:E.
  - apply andb_prop in E. destruct E as [E1 E2].
    assert (Hlt : forall x, In x l -> x < v).
    { destruct l as [|a l0]; [intros x []|]. apply last_lt_all; auto; [discriminate|].
      apply orb_prop in E1. destruct E1 as [E1|E1]; [|lia].
      rewrite zlen_cons in E1. pose proof (zlen_nonneg l0). lia. }
    destruct (amem l v) eqn:Em. { apply zmem_In in Em. apply Hlt in Em. lia. }
    rewrite E2. cbn [fst snd]. destruct (append_spec l v (conj Hi Hb) Hv Hlt) as [A1 A2].
    split; auto. split; auto. split; auto. unfold array_container_append. rewrite zlen_app. reflexivity.
  - rewrite binarySearch_spec by auto. unfold amem. pose proof (lb_bound l v) as Hl.
    destruct (zmem v l) eqn:Em.
    + replace (0 <=? lb l v) with true by lia. reflexivity.
    + replace (0 <=? -(lb l v + 1)) with false by lia.
      destruct (zlen l <? mc); auto. cbn [fst snd].
      replace (- - (lb l v + 1) - 1) with (lb l v) by lia.
      destruct (split_lb l v Hi) as [S1 S2].
      assert (Hlen : zlen (ztake (lb l v) l) = lb l v) by (apply ztake_zlen; lia).
      assert (Hlen2 : zlen (zskip (lb l v) l) = zlen l - lb l v) by (apply zskip_zlen; lia).
      split; auto. split; [|split].
      * rewrite S1, S2. split.
        -- apply incr_mid; auto using incr_filter; intros x Hx; apply filter_In in Hx.
           ++ lia.
           ++ destruct Hx as [Hx1 Hx2]. destruct (Z.eq_dec x v) as [->|]; [|lia].
              apply zmem_nIn in Em. tauto.
        -- apply inb_app. split; [now apply inb_filter|]. apply inb_cons. split; [auto|now apply inb_filter].
      * rewrite zlen_app, zlen_cons. lia.
      * intros y. apply zmem_bool. rewrite in_app_iff, orb_true_iff, zmem_In. cbn [In].
        assert (In y l <-> In y (ztake (lb l v) l) \/ In y (zskip (lb l v) l)) as -> by (rewrite <- in_app_iff, ztake_skip; tauto).
        zcases.
Qed.
Lemma awf_zlen l : awf l -> zlen l <= 65536.
Proof. intros [Hi Hb]. pose proof (incr_inb_len 0 65536 l Hi Hb). lia. Qed.
Lemma array_add_spec l v : awf l -> 0 <= v < 65536 ->
  awf (fst (array_container_add l v)) /\
  (forall y, amem (fst (array_container_add l v)) y = amem l y || (y =? v)) /\
  snd (array_container_add l v) = negb (amem l v) /\
  zlen (fst (array_container_add l v)) = zlen l + (if amem l v then 0 else 1).
Proof.
  intros Hw Hv. pose proof (try_add_spec l v (2^31-1) Hw Hv) as H. cbn zeta in H.
  unfold array_container_add. destruct (array_container_try_add l v (2^31-1)) as [rc l'].
  cbn [fst snd] in *. pose proof (awf_zlen l Hw).
  replace (zlen l <? 2^31 - 1) with true in H by lia.
  destruct (amem l v) eqn:E.
  - inversion H; subst. repeat split; try apply Hw; try lia. intros y.
    destruct (Z.eqb_spec y v) as [->|]; [rewrite E; reflexivity|now rewrite orb_false_r].
  - destruct H as (->&H1&H2&H3). repeat split; try apply H1; auto.
Qed.
Lemma array_remove_spec l v : awf l -> 0 <= v < 65536 ->
  awf (fst (array_container_remove l v)) /\
  (forall y, amem (fst (array_container_remove l v)) y = amem l y && negb (y =? v)) /\
  snd (array_container_remove l v) = amem l v /\
  zlen (fst (array_container_remove l v)) = zlen l - (if amem l v then 1 else 0).
Proof.
  intros [Hi Hb] Hv. unfold array_container_remove. rewrite binarySearch_spec by auto.
  pose proof (lb_bound l v) as Hl. unfold amem. destruct (zmem v l) eqn:Em.
  - replace (0 <=? lb l v) with true by lia. cbn [fst snd].
    destruct (split_lb l v Hi) as [S1 _]. destruct (split_lb l (v+1) Hi) as [_ S2].
    rewrite lb_succ in S2 by auto. rewrite Em in S2. rewrite S1, S2.
    assert (Hlt : lb l v < zlen l). { apply zmem_In in Em. apply lb_In in Em; auto. tauto. }
    assert (zlen (filter (fun y => y <? v) l) = lb l v) by reflexivity.
    assert (zlen (filter (fun y => v + 1 <=? y) l) = zlen l - (lb l v + 1)).
    { rewrite <- S2. apply zskip_zlen. lia. }
    repeat split.
    + apply incr_app. repeat split; try now apply incr_filter. intros x y Hx Hy.
      apply filter_In in Hx, Hy. lia.
    + apply inb_app. split; now apply inb_filter.
    + intros y. apply zmem_bool. rewrite in_app_iff, !filter_In, andb_true_iff, zmem_In. zcases.
    + rewrite zlen_app. lia.
  - replace (0 <=? -(lb l v + 1)) with false by lia. cbn [fst snd]. repeat split; auto; try lia.
    intros y. destruct (Z.eqb_spec y v) as [->|]; [now rewrite Em|now rewrite andb_true_r].
Qed.
Lemma contains_linear_spec fuel l i high pos : incr l -> 0 <= i -> high < zlen l -> high - i < Z.of_nat fuel ->
  (contains_linear fuel l i high pos = true <-> exists j, i <= j <= high /\ znth l j = pos).
Proof.
  intros Hi. revert i. induction fuel; intros i H0 H1 H2; cbn [contains_linear].
  - split; [discriminate|]. intros (j&Hj&_). lia.
  - destruct (i <=? high) eqn:E.
    + destruct (Z.eqb_spec (znth l i) pos).
      * split; auto. intros _. exists i. split; auto. lia.
      * destruct (pos <? znth l i) eqn:E2.
        -- split; [discriminate|]. intros (j&Hj&He).
           pose proof (incr_znth_le l i j Hi). lia.
        -- rewrite IHfuel by lia. split; intros (j&Hj&He).
           ++ exists j. split; auto. lia.
           ++ exists j. split; auto. destruct (Z.eq_dec i j); [subst; congruence|lia].
    + split; [discriminate|]. intros (j&Hj&_). lia.
Qed.
Lemma contains_loop_spec fuel l low high pos : incr l -> 0 <= low -> high < zlen l -> high - low < Z.of_nat fuel ->
  (contains_loop fuel l low high pos = true <-> exists j, low <= j <= high /\ znth l j = pos).
Proof.
  intros Hi. revert low high. induction fuel; intros low high H0 H1 H2; cbn [contains_loop].
  - split; [discriminate|]. intros (j&Hj&_). lia.
  - destruct (low + 16 <=? high) eqn:E; [|apply contains_linear_spec; auto; lia].
    cbn zeta. rewrite shiftr1. assert (low <= (low+high)/2 <= high) by dm. set (m := (low+high)/2) in *. clearbody m.
    destruct (znth l m <? pos) eqn:E1; [|destruct (pos <? znth l m) eqn:E2].
    + rewrite IHfuel by lia. split; intros (j&Hj&He); exists j; split; auto; try lia.
      destruct (Z_le_dec j m); [|lia]. pose proof (incr_znth_le l j m Hi). lia.
    + rewrite IHfuel by lia. split; intros (j&Hj&He); exists j; split; auto; try lia.
      destruct (Z_le_dec m j); [|lia]. pose proof (incr_znth_le l m j Hi). lia.
    + split; auto. intros _. exists m. split; auto. lia.
Qed.
Lemma array_contains_spec l x : incr l -> array_container_contains l x = amem l x.
Proof.
  intros Hi. unfold amem. symmetry. apply zmem_bool.
  unfold array_container_contains. rewrite contains_loop_spec; auto; try lia.
  2:{ unfold zlen. lia. }
  split.
  - intros H. apply In_znth in H. destruct H as (i&H1&H2). exists i. split; auto. lia.
  - intros (j&Hj&<-). apply znth_In. lia.
Qed.
Lemma cnt_block l s n : awf l -> 0 <= s -> 0 < n -> s + n <= 65536 ->
  (cnt (amem l) s (s+n) =? n) =
  (amem l s && (lb l s + n <=? zlen l) && (znth l (lb l s + n - 1) =? s + n - 1)).
Proof.
  intros [Hi Hb] Hs Hn Hm.
  assert (Hin : forall j, amem l j = true <-> lb l j < zlen l /\ znth l (lb l j) = j).
  { intros j. unfold amem. rewrite zmem_In. now apply lb_In. }
  assert (Hdiff : lb l (s+n-1) = lb l s + cnt (amem l) s (s+n-1)).
  { rewrite !lb_cnt by (try split; auto; lia). rewrite (cnt_app _ 0 s (s+n-1)) by lia. lia. }
  pose proof (cnt_bound (amem l) s (s+n-1)) as Hcb.
  pose proof (lb_bound l s) as Hlb.
  replace (s+n) with (s+n-1+1) at 1 by lia. rewrite cnt_snoc by lia.
  destruct (cnt (amem l) s (s+n-1) + (if amem l (s+n-1) then 1 else 0) =? n) eqn:E.
  - destruct (amem l (s+n-1)) eqn:E2; [|lia]. assert (Hc : cnt (amem l) s (s+n-1) = n - 1) by lia.
    apply Hin in E2. destruct E2 as [E3 E4]. rewrite Hdiff, Hc in E3, E4.
    assert (amem l s = true) as ->.
    { destruct (Z.eq_dec n 1) as [->|]; [|apply (cnt_full_inv (amem l) s (s+n-1)); lia].
      apply Hin. replace (lb l s + (1-1)) with (lb l s) in * by lia. split; [lia|]. rewrite E4. lia. }
    replace (lb l s + n - 1) with (lb l s + (n-1)) by lia. rewrite E4. lia.
  - symmetry. destruct (amem l s && (lb l s + n <=? zlen l) && (znth l (lb l s + n - 1) =? s + n - 1)) eqn:E2; auto.
    apply andb_prop in E2. destruct E2 as [E2 E3]. apply andb_prop in E2. destruct E2 as [E2 E4].
    exfalso. apply Hin in E2. destruct E2 as [E5 E6].
    (* the last element of the block is at its index *)
    assert (Hlast : amem l (s+n-1) = true).
    { unfold amem. apply zmem_In. replace (s+n-1) with (znth l (lb l s + n - 1)) by lia. apply znth_In. lia. }
    rewrite Hlast in E. apply Hin in Hlast. destruct Hlast as [L1 L2].
    assert (lb l (s+n-1) = lb l s + n - 1).
    { apply (incr_znth_inj l); auto; try lia. }
    lia.
Qed.
Lemma array_contains_range_spec l s e : awf l -> 0 <= s < e -> e <= 65536 ->
  array_container_contains_range l s e = (cnt (amem l) s e =? e - s).
Proof.
  intros Hw Hs He. unfold array_container_contains_range. cbn zeta.
  replace (e - s <=? 0) with false by lia. rewrite !Z.mod_small by lia.
  pose proof (cnt_block l s (e-s) Hw) as Hb. replace (s + (e-s)) with e in Hb by lia.
  rewrite Hb by lia. rewrite binarySearch_spec by apply Hw. pose proof (lb_bound l s).
  destruct (zlen l <? e - s) eqn:E.
  - replace (lb l s + (e-s) <=? zlen l) with false by lia. now rewrite andb_false_r.
  - unfold amem. destruct (zmem s l).
    + replace (0 <=? lb l s) with true by lia. reflexivity.
    + replace (0 <=? -(lb l s + 1)) with false by lia. reflexivity.
Qed.

Lemma add_all_spec vs l : awf l -> inb 0 65536 vs ->
  awf (add_all l vs) /\ forall y, amem (add_all l vs) y = amem l y || zmem y vs.
Proof.
  revert l. induction vs as [|v vs IH]; intros l Hw Hv; cbn [add_all fold_left].
  - split; auto. intros. cbn. now rewrite orb_false_r.
  - apply inb_cons in Hv. destruct (array_add_spec l v Hw) as (A&B&_); [tauto|].
    destruct (IH (fst (array_container_add l v)) A) as [C D]; [tauto|]. split; auto.
    intros y. fold (add_all (fst (array_container_add l v)) vs). rewrite D, B, zmem_cons. btauto.
Qed.
Definition oaw (o : option (list Z)) (P : Z -> bool) : Prop :=
  match o with
  | Some l => awf l /\ l <> [] /\ forall x, 0 <= x < 65536 -> amem l x = P x
  | None => forall x, 0 <= x < 65536 -> P x = false
  end.
Lemma map_ne {A B} (f : A -> B) l : l <> [] -> map f l <> [].
Proof. destruct l; cbn; congruence. Qed.
Lemma array_offset_spec c wantlo wanthi off : awf c -> 0 <= off < 65536 ->
  let r := array_container_offset c wantlo wanthi off in
  (wantlo = true -> oaw (fst r) (fun x => (off <=? x) && amem c (x - off))) /\
  (wanthi = true -> oaw (snd r) (fun x => (x <? off) && amem c (x + 65536 - off))).
Proof.
  intros [Hi Hb] Ho. cbn zeta. unfold array_container_offset. cbn [fst snd].
  rewrite count_less_spec by auto. destruct (split_lb c (65536 - off) Hi) as [S1 S2].
  pose proof (lb_bound c (65536-off)) as Hlb.
  assert (L1 : zlen (ztake (lb c (65536-off)) c) = lb c (65536-off)) by (apply ztake_zlen; lia).
  assert (L2 : zlen (zskip (lb c (65536-off)) c) = zlen c - lb c (65536-off)) by (apply zskip_zlen; lia).
  rewrite S1 in *. rewrite S2 in *. set (n := lb c (65536-off)) in *.
  assert (W0 : awf []) by (split; cbn; auto; constructor).
  assert (Hmod : forall m, inb 0 65536 (map (fun v => (v+off) mod 65536) m)).
  { intros m. apply Forall_forall. intros x Hx. apply in_map_iff in Hx. destruct Hx as (y&<-&_). dm. }
  split; intros ->; cbn [andb].
  - destruct (Z.eqb_spec n 0) as [E|E]; cbn [negb oaw].
    + intros x Hx. destruct (off <=? x) eqn:Ex; auto. cbn [andb]. apply zmem_nIn. intros Hc.
      assert (In (x-off) (filter (fun y => y <? 65536 - off) c)) by (apply filter_In; split; auto; lia).
      rewrite E in L1. apply zlen_0_nil in L1. rewrite L1 in H. inversion H.
    + destruct (add_all_spec (map (fun v => (v+off) mod 65536) (filter (fun y => y <? 65536-off) c)) [] W0 (Hmod _)) as [A1 A2].
      assert (Hm : forall x, 0 <= x < 65536 -> amem (add_all [] (map (fun v => (v+off) mod 65536) (filter (fun y => y <? 65536-off) c))) x = (off <=? x) && amem c (x - off)).
      { intros x Hx. rewrite A2. cbn [amem zmem existsb orb]. apply zmem_bool. rewrite in_map_iff. split.
        - intros (y&Hy&Hf). apply filter_In in Hf. destruct Hf as [Hf1 Hf2].
          pose proof (inb_In _ _ _ _ Hb Hf1). rewrite Z.mod_small in Hy by lia.
          apply andb_true_iff. split; [lia|]. apply zmem_In. replace (x-off) with y by lia. auto.
        - intros Hx2. apply andb_prop in Hx2. destruct Hx2 as [Hx2 Hx3]. apply zmem_In in Hx3.
          exists (x-off). split; [rewrite Z.mod_small; lia|]. apply filter_In. split; auto. lia. }
      split; auto. split; auto. intros Hnil.
      assert (Hne : filter (fun y => y <? 65536 - off) c <> []).
      { intros Hz. rewrite Hz in L1. unfold zlen in L1; cbn in L1. lia. }
      destruct (filter (fun y => y <? 65536 - off) c) as [|y l'] eqn:Ef; [congruence|].
      assert (In y c /\ (y <? 65536 - off) = true) as [Hy1 Hy2] by (apply (filter_In (fun y => y <? 65536 - off)); rewrite Ef; now left).
      pose proof (inb_In _ _ _ _ Hb Hy1). specialize (Hm (y+off) ltac:(lia)). rewrite Hnil in Hm.
      replace (y + off - off) with y in Hm by lia. apply zmem_In in Hy1. unfold amem in Hm. rewrite Hy1 in Hm.
      cbn in Hm. lia.
  - destruct (Z.eqb_spec (zlen c - n) 0) as [E|E]; cbn [negb oaw].
    + intros x Hx. destruct (x <? off) eqn:Ex; auto. cbn [andb]. apply zmem_nIn. intros Hc.
      assert (In (x+65536-off) (filter (fun y => 65536 - off <=? y) c)) by (apply filter_In; split; auto; lia).
      rewrite E in L2. apply zlen_0_nil in L2. rewrite L2 in H. inversion H.
    + destruct (add_all_spec (map (fun v => (v+off) mod 65536) (filter (fun y => 65536-off <=? y) c)) [] W0 (Hmod _)) as [A1 A2].
      assert (Hwrap : forall y, 65536 - off <= y < 65536 -> (y + off) mod 65536 = y + off - 65536).
      { intros y Hy. clear - Hy Ho. dm. }
      assert (Hm : forall x, 0 <= x < 65536 -> amem (add_all [] (map (fun v => (v+off) mod 65536) (filter (fun y => 65536-off <=? y) c))) x = (x <? off) && amem c (x + 65536 - off)).
      { intros x Hx. rewrite A2. cbn [amem zmem existsb orb]. apply zmem_bool. rewrite in_map_iff. split.
        - intros (y&Hy&Hf). apply filter_In in Hf. destruct Hf as [Hf1 Hf2].
          pose proof (inb_In _ _ _ _ Hb Hf1). rewrite Hwrap in Hy by lia.
          apply andb_true_iff. split; [lia|]. apply zmem_In. replace (x+65536-off) with y by lia. auto.
        - intros Hx2. apply andb_prop in Hx2. destruct Hx2 as [Hx2 Hx3]. apply zmem_In in Hx3.
          exists (x+65536-off). split; [rewrite Hwrap; lia|]. apply filter_In. split; auto. lia. }
      split; auto. split; auto. intros Hnil.
      assert (Hne : filter (fun y => 65536 - off <=? y) c <> []).
      { intros Hz. rewrite Hz in L2. unfold zlen in L2; cbn in L2. unfold zlen in E. lia. }
      destruct (filter (fun y => 65536 - off <=? y) c) as [|y l'] eqn:Ef; [congruence|].
      assert (In y c /\ (65536 - off <=? y) = true) as [Hy1 Hy2] by (apply (filter_In (fun y => 65536 - off <=? y)); rewrite Ef; now left).
      pose proof (inb_In _ _ _ _ Hb Hy1). specialize (Hm (y+off-65536) ltac:(lia)). rewrite Hnil in Hm.
      replace (y + off - 65536 + 65536 - off) with y in Hm by lia. apply zmem_In in Hy1. unfold amem in Hm. rewrite Hy1 in Hm.
      cbn in Hm. lia.
Qed.

(** ** minimum, maximum, rank *)
Lemma array_minimum_spec l : awf l -> l <> [] ->
  let m := array_container_minimum l in amem l m = true /\ forall x, amem l x = true -> m <= x.
Proof.
  intros [Hi Hb] Hn. destruct l as [|a l]; [congruence|]. cbn zeta.
  assert (array_container_minimum (a::l) = a) as ->.
  { unfold array_container_minimum. rewrite zlen_cons. pose proof (zlen_nonneg l).
    replace (zlen l + 1 =? 0) with false by lia. apply znth_cons_0. }
  unfold amem. split.
  - apply zmem_In. now left.
  - intros x Hx. apply zmem_In in Hx. destruct Hx as [->|Hx]; [lia|]. pose proof (incr_head _ _ _ Hi Hx). lia.
Qed.
Lemma array_maximum_spec l : awf l -> l <> [] ->
  let m := array_container_maximum l in amem l m = true /\ forall x, amem l x = true -> x <= m.
Proof.
  intros [Hi Hb] Hn. cbn zeta. unfold array_container_maximum.
  assert (0 < zlen l). { destruct l; [congruence|]. rewrite zlen_cons. pose proof (zlen_nonneg l). lia. }
  replace (zlen l =? 0) with false by lia. unfold amem. split.
  - apply zmem_In, znth_In. lia.
  - intros x Hx. apply zmem_In, In_znth in Hx. destruct Hx as (i&Hi2&<-). apply incr_znth_le; auto; lia.
Qed.
Lemma array_rank_spec l x : awf l -> 0 <= x -> array_container_rank l x = cnt (amem l) 0 (x+1).
Proof.
  intros Hw Hx. rewrite <- lb_cnt by (auto; lia). rewrite lb_succ by apply Hw.
  unfold array_container_rank. rewrite binarySearch_spec by apply Hw. pose proof (lb_bound l x).
  destruct (zmem x l).
  - replace (0 <=? lb l x) with true by lia. lia.
  - replace (0 <=? -(lb l x + 1)) with false by lia. lia.
Qed.
Lemma array_get_index_spec l x : awf l -> 0 <= x ->
  array_container_get_index l x = if amem l x then cnt (amem l) 0 x else -1.
Proof.
  intros Hw Hx. rewrite <- lb_cnt by (auto; lia).
  unfold array_container_get_index, amem. rewrite binarySearch_spec by apply Hw. pose proof (lb_bound l x).
  destruct (zmem x l).
  - replace (0 <=? lb l x) with true by lia. lia.
  - replace (0 <=? -(lb l x + 1)) with false by lia. lia.
Qed.
Lemma array_index_eol_spec l x : awf l ->
  array_container_index_equalorlarger l x = if lb l x <? zlen l then lb l x else -1.
Proof.
  intros Hw. unfold array_container_index_equalorlarger. rewrite binarySearch_spec by apply Hw. pose proof (lb_bound l x).
  destruct (zmem x l) eqn:E.
  - replace (0 <=? lb l x) with true by lia. apply zmem_In, lb_In in E; [|apply Hw].
    replace (lb l x <? zlen l) with true by lia. reflexivity.
  - replace (0 <=? -(lb l x + 1)) with false by lia. cbn zeta. replace (- - (lb l x + 1) - 1) with (lb l x) by lia.
    reflexivity.
Qed.
Lemma lb_zskip l p x : incr l -> 0 <= p <= lb l x -> lb (zskip p l) x = lb l x - p.
Proof.
  intros Hi Hp. pose proof (lb_bound l x). rewrite <- (ztake_skip p l) at 2. rewrite lb_app.
  rewrite (lb_all (ztake p l)).
  - rewrite ztake_zlen by lia. lia.
  - intros y Hy. apply In_znth in Hy. destruct Hy as (i&Hi2&<-). rewrite ztake_zlen in Hi2 by lia.
    assert (znth (ztake p l) i = znth l i) as ->.
    { rewrite <- (ztake_skip p l) at 2. rewrite znth_app1; auto. rewrite ztake_zlen; lia. }
    apply lb_lt; auto. lia.
Qed.
Lemma array_rank_many_loop_spec l high sr pos qs : awf l -> 0 <= pos ->
  Sorted Z.le qs -> (forall q, In q qs -> 0 <= q) ->
  (forall q, In q qs -> Z.shiftr q 16 = high -> pos <= lb l (q mod 65536 + 1)) ->
  array_rank_many_loop l high sr pos qs =
  map (fun q => sr + cnt (amem l) 0 (q mod 65536 + 1)) (same_key_prefix high qs).
Proof.
  intros Hw. revert pos. induction qs as [|q qs IH]; intros pos Hp Hs Hnn Hge; auto.
  cbn [array_rank_many_loop same_key_prefix].
  destruct (Z.eqb_spec (Z.shiftr q 16) high) as [E|]; cbn [negb]; auto. cbn [map]. cbn zeta.
  pose proof (Hge q (or_introl eq_refl) E) as Hpq. pose proof (proj1 Hw) as Hi.
  set (x := q mod 65536) in *. assert (Hx : 0 <= x < 65536) by (unfold x; dm).
  rewrite binarySearch_spec by now apply incr_zskip.
  pose proof (lb_bound l x) as Hlx. pose proof (lb_bound l (x+1)) as Hlx1.
  rewrite <- (lb_cnt l (x+1)) by (auto; lia).
  assert (Hsucc := lb_succ l x Hi).
  assert (Hsucc2 := lb_succ (zskip pos l) x (incr_zskip pos l Hi)).
  assert (Hz1 : lb (zskip pos l) (x+1) = lb l (x+1) - pos) by (apply lb_zskip; auto; lia).
  assert (Hnext : forall p', 0 <= p' <= lb l (x+1) ->
    array_rank_many_loop l high sr p' qs = map (fun q => sr + cnt (amem l) 0 (q mod 65536 + 1)) (same_key_prefix high qs)).
  { intros p' Hp'. apply IH; try lia.
    - now inversion_clear Hs.
    - intros; apply Hnn; now right.
    - intros q' Hq' E'. apply Sorted_StronglySorted in Hs; [|intros ? ? ?; lia].
      inversion_clear Hs. rewrite Forall_forall in H0. specialize (H0 _ Hq').
      assert (lb l (x+1) <= lb l (q' mod 65536 + 1)); [|lia]. apply lb_mono.
      rewrite Z.shiftr_div_pow2 in E, E' by lia. change (2^16) with 65536 in *. unfold x. dm. }
  pose proof (lb_bound (zskip pos l) x) as Hzb.
  destruct (zmem x (zskip pos l)) eqn:Em.
  - replace (0 <=? lb (zskip pos l) x) with true by lia. f_equal; [lia|]. apply Hnext. lia.
  - replace (0 <=? -(lb (zskip pos l) x + 1)) with false by lia. f_equal; [lia|]. apply Hnext. lia.
Qed.
Lemma array_rank_many_spec l sr q qs : awf l ->
  Sorted Z.le (q::qs) -> (forall q', In q' (q::qs) -> 0 <= q') ->
  array_container_rank_many l sr (q::qs) =
  map (fun q => sr + cnt (amem l) 0 (q mod 65536 + 1)) (same_key_prefix (Z.shiftr q 16) (q::qs)).
Proof.
  intros Hw Hs Hn. unfold array_container_rank_many.
  apply array_rank_many_loop_spec; auto; try lia.
  intros. pose proof (lb_bound l (q0 mod 65536 + 1)). lia.
Qed.
Lemma array_select_spec l sr rank : awf l -> 0 <= sr <= rank -> rank < 2^32 -> sr + zlen l < 2^32 ->
  if rank <? sr + zlen l then
    exists x, 0 <= x < 65536 /\ fst (array_container_select l sr rank) = Some x /\ amem l x = true /\ cnt (amem l) 0 x = rank - sr
  else array_container_select l sr rank = (None, sr + zlen l).
Proof.
  intros Hw Hsr Hr Hb. unfold array_container_select. pose proof (zlen_nonneg l).
  rewrite (Z.mod_small (sr + zlen l)) by lia. destruct (rank <? sr + zlen l) eqn:E.
  - replace (sr + zlen l <=? rank) with false by lia. cbn [fst]. rewrite Z.mod_small by lia.
    exists (znth l (rank - sr)). assert (In (znth l (rank-sr)) l) by (apply znth_In; lia).
    pose proof (inb_In _ _ _ _ (proj2 Hw) H0). split; auto. split; auto. split; [now apply zmem_In|].
    rewrite <- lb_cnt by (auto; lia). apply lb_unique; try apply Hw; try lia.
    + intros j Hj. apply incr_znth; try apply Hw; lia.
    + intros j Hj. apply incr_znth_le; try apply Hw; lia.
  - replace (sr + zlen l <=? rank) with true by lia. reflexivity.
Qed.

(** ** ranges *)
Lemma map_mod_zr lo hi : 0 <= lo -> hi <= 65536 -> map (fun k => k mod 65536) (zr lo hi) = zr lo hi.
Proof.
  intros. rewrite <- map_id. apply map_ext_in. intros k Hk. apply zr_In in Hk. apply Z.mod_small. lia.
Qed.
Lemma awf_zr lo hi : 0 <= lo -> hi <= 65536 -> awf (zr lo hi).
Proof.
  intros. split; [apply zr_incr|]. apply Forall_forall. intros x Hx. apply zr_In in Hx. lia.
Qed.
Lemma amem_zr lo hi x : amem (zr lo hi) x = (lo <=? x) && (x <? hi).
Proof. unfold amem. apply zmem_bool. rewrite zr_In. lia. Qed.
Lemma array_create_range_spec lo hi : 0 <= lo -> hi <= 65536 -> array_container_create_range lo hi = zr lo hi.
Proof. intros. unfold array_container_create_range. now rewrite map_mod_zr. Qed.
Lemma array_add_range_nvals_spec l lo hi : awf l -> 0 <= lo <= hi -> hi < 65536 ->
  let r := array_container_add_range_nvals l lo hi (lb l lo) (zlen l - lb l (hi+1)) in
  awf r /\ (forall x, amem r x = amem l x || ((lo <=? x) && (x <=? hi))) /\
  zlen r = lb l lo + (hi - lo + 1) + (zlen l - lb l (hi+1)).
Proof.
  intros [Hi Hb] Hlo Hhi. cbn zeta. unfold array_container_add_range_nvals.
  rewrite map_mod_zr by lia. replace (zlen l - (zlen l - lb l (hi+1))) with (lb l (hi+1)) by lia.
  pose proof (lb_bound l lo). pose proof (lb_bound l (hi+1)).
  assert (L1 : zlen (ztake (lb l lo) l) = lb l lo) by (apply ztake_zlen; lia).
  assert (L2 : zlen (zskip (lb l (hi+1)) l) = zlen l - lb l (hi+1)) by (apply zskip_zlen; lia).
  destruct (split_lb l lo Hi) as [S1 _]. destruct (split_lb l (hi+1) Hi) as [_ S2].
  split; [|split].
  - rewrite S1, S2. split.
    + apply incr_app. split; [now apply incr_filter|]. split.
      * apply incr_app. split; [apply zr_incr|]. split; [now apply incr_filter|].
        intros x y Hx Hy. apply zr_In in Hx. apply filter_In in Hy. lia.
      * intros x y Hx Hy. apply filter_In in Hx. apply in_app_iff in Hy. rewrite zr_In, filter_In in Hy. lia.
    + apply inb_app. split; [now apply inb_filter|]. apply inb_app. split; [|now apply inb_filter].
      apply awf_zr; lia.
  - intros x. rewrite S1, S2. unfold amem. apply zmem_bool.
    rewrite !in_app_iff, !filter_In, zr_In, orb_true_iff, zmem_In. zcases.
  - rewrite !zlen_app, zr_zlen by lia. lia.
Qed.
Lemma array_remove_range_spec l lo hi : awf l -> lo <= hi ->
  let r := array_container_remove_range l (lb l lo) (lb l hi - lb l lo) in
  awf r /\ (forall x, amem r x = amem l x && negb ((lo <=? x) && (x <? hi))) /\
  zlen r = zlen l - (lb l hi - lb l lo).
Proof.
  intros [Hi Hb] Hlo. cbn zeta. unfold array_container_remove_range.
  pose proof (lb_bound l lo). pose proof (lb_bound l hi). pose proof (lb_mono l lo hi Hlo).
  destruct (split_lb l lo Hi) as [S1 S1']. destruct (split_lb l hi Hi) as [S2' S2].
  destruct (Z.eqb_spec (lb l hi - lb l lo) 0) as [E|E]; cbn [negb].
  - split; [split; auto|]. split; [|lia]. intros x. unfold amem.
    destruct (zmem x l) eqn:Em; auto. cbn [andb]. symmetry. apply negb_true_iff.
    assert (Hx : In x (ztake (lb l lo) l) \/ In x (zskip (lb l lo) l)).
    { apply in_app_iff. rewrite ztake_skip. now apply zmem_In. }
    rewrite S1 in Hx. replace (lb l lo) with (lb l hi) in Hx by lia. rewrite S2 in Hx. rewrite !filter_In in Hx. lia.
  - replace (lb l lo + (lb l hi - lb l lo)) with (lb l hi) by lia.
    assert (L1 : zlen (ztake (lb l lo) l) = lb l lo) by (apply ztake_zlen; lia).
    assert (L2 : zlen (zskip (lb l hi) l) = zlen l - lb l hi) by (apply zskip_zlen; lia).
    rewrite S1, S2 in *. split; [split|split].
    + apply incr_app. split; [now apply incr_filter|]. split; [now apply incr_filter|].
      intros x y Hx Hy. apply filter_In in Hx, Hy. lia.
    + apply inb_app. split; now apply inb_filter.
    + intros x. unfold amem. apply zmem_bool. rewrite in_app_iff, !filter_In, andb_true_iff, zmem_In. zcases.
    + rewrite zlen_app. lia.
Qed.
Lemma array_add_from_range_loop_spec fuel l v max step : awf l -> 0 <= v -> max <= 65536 -> 0 < step ->
  max - v <= Z.of_nat fuel -> (forall x, In x l -> x < v) ->
  let r := array_add_from_range_loop fuel l v max step in
  awf r /\ forall y, amem r y = amem l y || stepin v max step y.
Proof.
  revert l v. induction fuel; intros l v Hw Hv Hm Hs Hf Hlt; cbn zeta; cbn [array_add_from_range_loop].
  - split; auto. intros. unfold stepin. replace ((v <=? y) && (y <? max)) with false by lia. now rewrite orb_false_r.
  - destruct (v <? max) eqn:E.
    + rewrite Z.mod_small by lia. destruct (append_spec l v Hw ltac:(lia) Hlt) as [A1 A2].
      destruct (IHfuel (array_container_append l v) (v+step)) as [B1 B2]; auto; try lia.
      { intros x Hx. apply in_app_iff in Hx. destruct Hx as [Hx|[<-|[]]]; [specialize (Hlt _ Hx)|]; lia. }
      split; auto. intros y. rewrite B2. unfold array_container_append. rewrite A2. rewrite <- orb_assoc. f_equal. unfold stepin.
      replace ((y - (v+step)) mod step) with ((y - v) mod step).
      2:{ replace (y - (v+step)) with (y - v + (-1)*step) by lia. now rewrite Z.mod_add by lia. }
      destruct (Z.eqb_spec y v) as [->|].
      * rewrite Z.sub_diag, Z.mod_0_l by lia. cbn [orb]. lia.
      * cbn [orb]. destruct ((y - v) mod step =? 0) eqn:Em; [|now rewrite !andb_false_r]. rewrite !andb_true_r.
        destruct (v <=? y) eqn:Ev; [|lia].
        assert (step <= y - v). { apply Z.eqb_eq in Em. apply Z.mod_divide in Em; [|lia]. destruct Em as [q Eq]. assert (0 < q) by (apply (Z.mul_pos_cancel_r q step); lia). nia. }
        lia.
    + split; auto. intros. unfold stepin. replace ((v <=? y) && (y <? max)) with false by lia. now rewrite orb_false_r.
Qed.
Lemma array_add_from_range_spec min max step : 0 <= min <= max -> max <= 65536 -> 0 < step ->
  let r := array_container_add_from_range [] min max step in
  awf r /\ forall y, amem r y = stepin min max step y.
Proof.
  intros. apply (array_add_from_range_loop_spec (Z.to_nat (max-min)) [] min max step); auto; try lia.
  - split; cbn; auto; constructor.
  - intros x [].
Qed.

(** ** binary operations *)
Lemma awf_sub a b : awf a -> incr b -> (forall x, In x b -> In x a) -> awf b.
Proof. intros [Hi Hb] H1 H2. split; auto. apply (inb_incl _ _ b a); auto. Qed.
Lemma array_union_spec a b : awf a -> awf b ->
  awf (array_container_union a b) /\ forall x, amem (array_container_union a b) x = amem a x || amem b x.
Proof.
  intros [Ha1 Ha2] [Hb1 Hb2]. unfold array_container_union. split; [split|].
  - now apply fast_union_uint16_incr.
  - apply Forall_forall. intros x Hx. apply fast_union_uint16_In in Hx.
    destruct Hx as [Hx|Hx]; [apply (inb_In _ _ _ _ Ha2 Hx)|apply (inb_In _ _ _ _ Hb2 Hx)].
  - intros x. unfold amem. apply zmem_bool. rewrite fast_union_uint16_In, orb_true_iff, !zmem_In. tauto.
Qed.
Lemma array_andnot_spec a b : awf a -> awf b ->
  awf (array_container_andnot a b) /\ forall x, amem (array_container_andnot a b) x = amem a x && negb (amem b x).
Proof.
  intros [Ha1 Ha2] [Hb1 Hb2]. unfold array_container_andnot. split.
  - apply (awf_sub a); [split; auto|now apply difference_uint16_incr|]. intros x Hx.
    apply difference_uint16_In in Hx; tauto.
  - intros x. unfold amem. apply zmem_bool.
    rewrite difference_uint16_In, andb_true_iff, negb_true_iff, zmem_In, zmem_nIn by auto. tauto.
Qed.
Lemma array_xor_spec a b : awf a -> awf b ->
  awf (array_container_xor a b) /\ forall x, amem (array_container_xor a b) x = xorb (amem a x) (amem b x).
Proof.
  intros [Ha1 Ha2] [Hb1 Hb2]. unfold array_container_xor. split; [split|].
  - now apply xor_uint16_incr.
  - apply Forall_forall. intros x Hx. apply xor_uint16_In in Hx; auto.
    destruct Hx as [[Hx _]|[_ Hx]]; [apply (inb_In _ _ _ _ Ha2 Hx)|apply (inb_In _ _ _ _ Hb2 Hx)].
  - intros x. unfold amem. apply zmem_bool. rewrite xor_uint16_In by auto.
    destruct (zmem x a) eqn:E1, (zmem x b) eqn:E2; rewrite ?zmem_In, ?zmem_nIn in *; cbn; tauto || (split; [tauto|discriminate]).
Qed.
Lemma array_intersection_eq a b : awf a -> awf b -> array_container_intersection a b = inter a b.
Proof.
  intros [Ha1 Ha2] [Hb1 Hb2]. unfold array_container_intersection.
  destruct (zlen a * 64 <? zlen b); [now apply intersect_skewed_uint16_spec|].
  destruct (zlen b * 64 <? zlen a); [|now apply intersect_uint16_spec].
  rewrite intersect_skewed_uint16_spec by auto. now apply inter_comm.
Qed.
Lemma awf_inter a b : awf a -> awf (inter a b).
Proof.
  intros H. apply (awf_sub a); auto; [apply incr_inter, H|]. intros x Hx. apply inter_In in Hx. tauto.
Qed.
Lemma amem_inter a b x : amem (inter a b) x = amem a x && amem b x.
Proof. unfold amem. apply zmem_bool. rewrite inter_In, andb_true_iff, !zmem_In. tauto. Qed.
Lemma array_intersection_spec a b : awf a -> awf b ->
  awf (array_container_intersection a b) /\ forall x, amem (array_container_intersection a b) x = amem a x && amem b x.
Proof.
  intros Ha Hb. rewrite array_intersection_eq by auto. split; [now apply awf_inter|]. apply amem_inter.
Qed.
Lemma skew_ne (a b : list Z) : zlen a * 64 < zlen b -> b <> [].
Proof. intros H ->. pose proof (zlen_nonneg a). unfold zlen in *. cbn in H. lia. Qed.
Lemma array_intersection_cardinality_spec a b : awf a -> awf b ->
  array_container_intersection_cardinality a b = cnt (fun x => amem a x && amem b x) 0 65536.
Proof.
  intros Ha Hb. transitivity (zlen (inter a b)).
  - unfold array_container_intersection_cardinality. destruct Ha, Hb.
    destruct (zlen a * 64 <? zlen b) eqn:E.
    { apply intersect_skewed_uint16_cardinality_spec; auto. apply (skew_ne a). lia. }
    destruct (zlen b * 64 <? zlen a) eqn:E2.
    { rewrite intersect_skewed_uint16_cardinality_spec; auto; [now rewrite inter_comm|]. apply (skew_ne b). lia. }
    rewrite intersect_uint16_cardinality_eq. now rewrite intersect_uint16_spec.
  - rewrite zlen_acard by now apply awf_inter. apply cnt_ext. intros. apply amem_inter.
Qed.
Lemma array_intersect_spec a b : awf a -> awf b ->
  array_container_intersect a b = negb (cnt (fun x => amem a x && amem b x) 0 65536 =? 0).
Proof.
  intros Ha Hb. transitivity (negb (zlen (inter a b) =? 0)).
  - unfold array_container_intersect. destruct Ha, Hb.
    destruct (zlen a * 64 <? zlen b) eqn:E.
    { apply intersect_skewed_uint16_nonempty_spec; auto. apply (skew_ne a). lia. }
    destruct (zlen b * 64 <? zlen a) eqn:E2.
    { rewrite intersect_skewed_uint16_nonempty_spec; auto; [now rewrite inter_comm|]. apply (skew_ne b). lia. }
    rewrite intersect_uint16_nonempty_eq. now rewrite intersect_uint16_spec.
  - rewrite zlen_acard by now apply awf_inter. f_equal. f_equal. apply cnt_ext. intros. apply amem_inter.
Qed.

(** ** validate, subset, equality, runs *)
Lemma array_increasing_spec l prev : array_increasing prev l = true <-> incr (prev :: l).
Proof.
  revert prev. induction l as [|x l IH]; intros prev; cbn [array_increasing].
  - cbn. split; auto.
  - rewrite incr_cons. destruct (x <=? prev) eqn:E.
    + split; [discriminate|]. intros [H _]. inversion_clear H. lia.
    + rewrite IH. split.
      * intros H. split; auto. apply incr_cons in H as H2. constructor; [lia|].
        destruct H2 as [H2 _]. eapply Forall_impl; [|apply H2]. cbn. intros; lia.
      * tauto.
Qed.
Lemma array_validate_spec l : array_container_validate l = true <-> incr l /\ 1 <= zlen l <= 4096.
Proof.
  unfold array_container_validate. pose proof (zlen_nonneg l).
  destruct (4096 <? zlen l) eqn:E1; [split; [discriminate|lia]|].
  destruct (zlen l =? 0) eqn:E2; [split; [discriminate|lia]|].
  destruct l; [discriminate E2|]. rewrite array_increasing_spec. split; [intros; split; auto; lia|tauto].
Qed.
Lemma array_subset_loop_cons x a y b : array_subset_loop (x::a) (y::b) =
  if x =? y then array_subset_loop a b else if y <? x then array_subset_loop (x::a) b else false.
Proof. reflexivity. Qed.
Lemma array_subset_loop_spec a b : incr a -> incr b ->
  (array_subset_loop a b = true <-> forall x, In x a -> In x b).
Proof.
  revert b. induction a as [|x a IH]; intros b Ha Hb.
  - destruct b; cbn; split; auto; intros; contradiction.
  - induction b as [|y b IHb].
    + cbn. split; [discriminate|]. intros H. destruct (H x); auto.
    + rewrite array_subset_loop_cons. pose proof (incr_tail _ _ Ha). pose proof (incr_tail _ _ Hb).
      destruct (Z.eqb_spec x y) as [->|Hne].
      * rewrite IH by auto. split.
        -- intros Hs z [->|Hz]; [now left|right; auto].
        -- intros Hs z Hz. destruct (Hs z (or_intror Hz)) as [->|]; auto.
           pose proof (incr_head _ _ _ Ha Hz). lia.
      * destruct (y <? x) eqn:E.
        -- rewrite IHb by auto. split.
           ++ intros Hs z Hz. right. auto.
           ++ intros Hs z Hz. destruct (Hs z Hz) as [<-|]; auto.
              destruct Hz as [<-|Hz]; [congruence|]. pose proof (incr_head _ _ _ Ha Hz). lia.
        -- split; [discriminate|]. intros Hs. destruct (Hs x) as [->|Hx]; [now left|lia|].
           pose proof (incr_head _ _ _ Hb Hx). lia.
Qed.
Lemma array_is_subset_spec a b : awf a -> awf b ->
  (array_container_is_subset a b = true <-> forall x, amem a x = true -> amem b x = true).
Proof.
  intros [Ha1 Ha2] [Hb1 Hb2]. unfold array_container_is_subset.
  assert (Hloop : array_subset_loop a b = true <-> forall x, amem a x = true -> amem b x = true).
  { rewrite array_subset_loop_spec by auto. unfold amem.
    split; intros H x; specialize (H x); rewrite !zmem_In in *; auto. }
  destruct (zlen b <? zlen a) eqn:E; auto. split; [discriminate|]. intros H.
  assert (NoDup a) by now apply incr_NoDup. assert (incl a b).
  { intros x Hx. apply zmem_In. apply H. now apply zmem_In. }
  pose proof (NoDup_incl_length H0 H1). unfold zlen in E. lia.
Qed.
Lemma array_equals_spec a b : awf a -> awf b ->
  (array_container_equals a b = true <-> forall x, 0 <= x < 65536 -> amem a x = amem b x).
Proof.
  intros [Ha1 Ha2] [Hb1 Hb2]. unfold array_container_equals. split.
  - destruct (negb (zlen a =? zlen b)); [discriminate|].
    destruct (list_eq_dec Z.eq_dec a b) as [->|]; [auto|discriminate].
  - intros H. assert (a = b) as ->.
    { apply incr_ext; auto. intros x. split; intros Hx.
      - pose proof (inb_In _ _ _ _ Ha2 Hx) as Hr. specialize (H x Hr). unfold amem in H.
        apply zmem_In in Hx. rewrite Hx in H. now apply zmem_In.
      - pose proof (inb_In _ _ _ _ Hb2 Hx) as Hr. specialize (H x Hr). unfold amem in H.
        apply zmem_In in Hx. rewrite Hx in H. now apply zmem_In. }
    rewrite Z.eqb_refl. cbn. destruct (list_eq_dec Z.eq_dec b b); congruence.
Qed.
(** number of runs = number of run ends *)
Definition run_start (P : Z -> bool) (x : Z) : bool := P x && negb (P (x - 1)).
Lemma run_start_end P n : 0 <= n -> P (-1) = false ->
  cnt (run_start P) 0 n = cnt (run_end P) 0 n + (if (0 <? n) && P (n-1) && P n then 1 else 0).
Proof.
  intros Hn Hm. remember (Z.to_nat n) as k. revert n Hn Heqk. induction k; intros.
  - rewrite !cnt_nil by lia. replace (0 <? n) with false by lia. reflexivity.
  - replace n with (n-1+1) at 1 2 by lia. rewrite !cnt_snoc by lia. rewrite (IHk (n-1)) by lia.
    change (run_start P (n-1)) with (P (n-1) && negb (P (n-1-1))).
    change (run_end P (n-1)) with (P (n-1) && negb (P (n-1+1))). replace (n-1+1) with n by lia.
    replace (0 <? n) with true by lia. cbn [andb].
    destruct (Z.eq_dec n 1) as [->|].
    + change (1-1-1) with (-1). change (1-1) with 0. rewrite Hm. change (0 <? 0) with false. cbn [andb].
      destruct (P 0), (P 1); cbn; lia.
    + replace (0 <? n - 1) with true by lia. cbn [andb].
      destruct (P (n-1-1)), (P (n-1)), (P n); cbn; lia.
Qed.
Lemma run_start_end_full P : P (-1) = false -> P 65536 = false ->
  cnt (run_start P) 0 65536 = cnt (run_end P) 0 65536.
Proof.
  intros H1 H2. rewrite run_start_end by (auto; lia). rewrite H2, andb_false_r. lia.
Qed.
Lemma array_nruns_loop_spec l prev nr : incr l -> inb 0 65536 l -> (forall x, In x l -> prev < x) -> -2 <= prev ->
  array_nruns_loop l prev nr =
  nr + zlen (filter (fun x => negb (zmem (x-1) (prev :: l))) l).
Proof.
  revert prev nr. induction l as [|p l IH]; intros prev nr Hi Hb Hlt Hp; cbn [array_nruns_loop].
  - unfold zlen. cbn. lia.
  - apply inb_cons in Hb. destruct Hb as [Hp2 Hb]. pose proof (incr_tail _ _ Hi) as Ht.
    assert (Hlt2 : forall x, In x l -> p < x) by (intros; eapply incr_head; eauto).
    rewrite IH by (auto; lia). cbn [filter].
    assert (Hfe : filter (fun x => negb (zmem (x-1) (prev :: p :: l))) l = filter (fun x => negb (zmem (x-1) (p :: l))) l).
    { apply filter_ext_In. intros x Hx. f_equal. rewrite (zmem_cons (x-1) prev). specialize (Hlt2 _ Hx).
      specialize (Hlt p (or_introl eq_refl)). replace (x - 1 =? prev) with false by lia. reflexivity. }
    rewrite Hfe.
    assert (Hh : zmem (p-1) (prev :: p :: l) = (p =? prev + 1)).
    { rewrite !zmem_cons. replace (p-1 =? p) with false by lia.
      assert (zmem (p-1) l = false) as ->. { apply zmem_nIn. intros Hc. specialize (Hlt2 _ Hc). lia. }
      lia. }
    rewrite Hh. destruct (negb (p =? prev + 1)); rewrite ?zlen_cons; lia.
Qed.
Lemma array_number_of_runs_spec l : awf l ->
  array_container_number_of_runs l = cnt (run_end (amem l)) 0 65536.
Proof.
  intros [Hi Hb]. unfold array_container_number_of_runs.
  assert (Hout : forall x, x < 0 \/ 65536 <= x -> amem l x = false).
  { intros x Hx. apply zmem_nIn. intros Hc. pose proof (inb_In _ _ _ _ Hb Hc). lia. }
  rewrite <- run_start_end_full by (apply Hout; lia).
  rewrite array_nruns_loop_spec; auto; try lia.
  2:{ intros x Hx. pose proof (inb_In _ _ _ _ Hb Hx). lia. }
  rewrite Z.add_0_l. symmetry. apply cnt_list.
  - now apply incr_filter.
  - now apply inb_filter.
  - intros x Hx. unfold run_start, amem. rewrite filter_In, andb_true_iff, zmem_In.
    rewrite zmem_cons. replace (x-1 =? -2) with false by lia. reflexivity.
Qed.
