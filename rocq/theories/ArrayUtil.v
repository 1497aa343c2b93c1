(** ArrayUtil: the scalar kernels of include/roaring/array_util.h and
    src/array_util.c on sorted arrays of 16-bit (or 32-bit) integers.
    A C pair (pointer, length) is the list of the elements it denotes; a pointer
    increment is taking the tail / [skipn].  Writing to an output pointer that is
    returned as a length is producing the output list. *)
From Verif Require Import Base.

(** specification index: number of elements smaller than [x] *)
Definition lb (l : list Z) (x : Z) : Z := zlen (filter (fun y => y <? x) l).

(** array_util.h:33-49 binarySearch.  [fuel] bounds the number of loop turns
    (the loop halves [low,high]; fuel = length+1 is proved sufficient). *)
Fixpoint binarySearch_loop (fuel : nat) (a : list Z) (low high ikey : Z) : Z :=
  match fuel with
  | O => -(low + 1)
  | S f =>
    if low <=? high then
      let middleIndex := Z.shiftr (low + high) 1 in
      let middleValue := znth a middleIndex in
      if middleValue <? ikey then binarySearch_loop f a (middleIndex + 1) high ikey
      else if ikey <? middleValue then binarySearch_loop f a low (middleIndex - 1) ikey
      else middleIndex
    else -(low + 1)
  end.
Definition binarySearch (a : list Z) (ikey : Z) : Z :=
  binarySearch_loop (S (length a)) a 0 (zlen a - 1) ikey.

(** array_util.h:58-101 advanceUntil (galloping search). *)
Fixpoint gallop (fuel : nat) (a : list Z) (lower spansize length_ min : Z) : Z :=
  match fuel with
  | O => spansize
  | S f =>
    if (lower + spansize <? length_) && (znth a (lower + spansize) <? min)
    then gallop f a lower (Z.shiftl spansize 1) length_ min
    else spansize
  end.
Fixpoint gallop_bin (fuel : nat) (a : list Z) (lower upper min : Z) : Z :=
  match fuel with
  | O => upper
  | S f =>
    if lower + 1 =? upper then upper
    else
      let mid := Z.shiftr (lower + upper) 1 in
      if znth a mid =? min then mid
      else if znth a mid <? min then gallop_bin f a mid upper min
      else gallop_bin f a lower mid min
  end.
Definition advanceUntil (a : list Z) (pos length_ min : Z) : Z :=
  let lower := pos + 1 in
  if (length_ <=? lower) || (min <=? znth a lower) then lower
  else
    let spansize := gallop (S (length a)) a lower 1 length_ min in
    let upper := if lower + spansize <? length_ then lower + spansize else length_ - 1 in
    if znth a upper =? min then upper
    else if znth a upper <? min then length_
    else gallop_bin (S (length a)) a (lower + Z.shiftr spansize 1) upper min.

(** array_util.h:107-112 count_less, 118-127 count_greater *)
Definition count_less (a : list Z) (ikey : Z) : Z :=
  if zlen a =? 0 then 0 else
  let pos := binarySearch a ikey in
  if 0 <=? pos then pos else -(pos + 1).
Definition count_greater (a : list Z) (ikey : Z) : Z :=
  if zlen a =? 0 then 0 else
  let pos := binarySearch a ikey in
  if 0 <=? pos then zlen a - (pos + 1) else zlen a - (- pos - 1).

(** array_util.c:805-849 binarySearch4/binarySearch2: the 2 or 4 searches are
    independent, each one is [bsearch1] (base pointer = offset [b]). *)
Fixpoint bsearch1_loop (fuel : nat) (a : list Z) (b n target : Z) : Z :=
  match fuel with
  | O => b
  | S f =>
    if 1 <? n then
      let half := Z.shiftr n 1 in
      let b' := if znth a (b + half) <? target then b + half else b in
      bsearch1_loop f a b' (n - half) target
    else b
  end.
Definition bsearch1 (a : list Z) (target : Z) : Z :=
  let b := bsearch1_loop (length a) a 0 (zlen a) target in
  (if znth a b <? target then 1 else 0) + b.

(** array_util.c:857-910 intersect_skewed_uint16.  [small]/[large] are the
    unread suffixes.  If [large] is empty no further match is possible (the
    three loops/conditionals are all guarded by idx_l < size_l). *)
Definition hit (large : list Z) (index target : Z) : list Z :=
  if (index <? zlen large) && (znth large index =? target) then [target] else [].
Definition zskip (n : Z) (l : list Z) := skipn (Z.to_nat n) l.
Definition skewed_tail1 (small large : list Z) : list Z :=
  match small, large with
  | val_s :: _, _ :: _ => if 0 <=? binarySearch large val_s then [val_s] else []
  | _, _ => []
  end.
Definition skewed_tail2 (small large : list Z) : list Z :=
  match small, large with
  | t1 :: t2 :: small', _ :: _ =>
    let i1 := bsearch1 large t1 in let i2 := bsearch1 large t2 in
    hit large i1 t1 ++ hit large i2 t2 ++ skewed_tail1 small' (zskip i2 large)
  | _, _ => skewed_tail1 small large
  end.
Fixpoint intersect_skewed_uint16 (small large : list Z) : list Z :=
  match small, large with
  | t1 :: t2 :: t3 :: t4 :: small', _ :: _ =>
    let i1 := bsearch1 large t1 in let i2 := bsearch1 large t2 in
    let i3 := bsearch1 large t3 in let i4 := bsearch1 large t4 in
    hit large i1 t1 ++ hit large i2 t2 ++ hit large i3 t3 ++ hit large i4 t4
    ++ intersect_skewed_uint16 small' (zskip i4 large)
  | _, _ => skewed_tail2 small large
  end.

(** array_util.c:913-946 intersect_skewed_uint16_cardinality and 948-973
    intersect_skewed_uint16_nonempty: [small] is the unread suffix whose head is
    val_s; large is indexed because advanceUntil needs the position. *)
Fixpoint skewed_card_loop (fuel : nat) (small large : list Z) (idx_l pos : Z) : Z :=
  match fuel with
  | O => pos
  | S f =>
    match small with
    | [] => pos
    | val_s :: small' =>
      let val_l := znth large idx_l in
      if val_l <? val_s then
        let idx_l' := advanceUntil large idx_l (zlen large) val_s in
        if idx_l' =? zlen large then pos else skewed_card_loop f small large idx_l' pos
      else if val_s <? val_l then
        skewed_card_loop f small' large idx_l pos
      else
        match small' with
        | [] => pos + 1
        | val_s' :: _ =>
          let idx_l' := advanceUntil large idx_l (zlen large) val_s' in
          if idx_l' =? zlen large then pos + 1
          else skewed_card_loop f small' large idx_l' (pos + 1)
        end
    end
  end.
Definition intersect_skewed_uint16_cardinality (small large : list Z) : Z :=
  match small with
  | [] => 0
  | _ => skewed_card_loop (S (length small + length large)) small large 0 0
  end.
Fixpoint skewed_nonempty_loop (fuel : nat) (small large : list Z) (idx_l : Z) : bool :=
  match fuel with
  | O => false
  | S f =>
    match small with
    | [] => false
    | val_s :: small' =>
      let val_l := znth large idx_l in
      if val_l <? val_s then
        let idx_l' := advanceUntil large idx_l (zlen large) val_s in
        if idx_l' =? zlen large then false else skewed_nonempty_loop f small large idx_l'
      else if val_s <? val_l then skewed_nonempty_loop f small' large idx_l
      else true
    end
  end.
Definition intersect_skewed_uint16_nonempty (small large : list Z) : bool :=
  match small with
  | [] => false
  | _ => skewed_nonempty_loop (S (length small + length large)) small large 0
  end.

(** array_util.c:978-1001 intersect_uint16 (the goto-structured loop is the
    two-pointer merge: smaller head is skipped, equal heads are emitted). *)
Fixpoint intersect_uint16 (A : list Z) : list Z -> list Z :=
  fix go (B : list Z) : list Z :=
    match A, B with
    | a :: A', b :: B' =>
      if a <? b then intersect_uint16 A' B
      else if b <? a then go B'
      else a :: intersect_uint16 A' B'
    | _, _ => []
    end.
(** array_util.c:1003-1026 *)
Fixpoint intersect_uint16_cardinality (A : list Z) : list Z -> Z :=
  fix go (B : list Z) : Z :=
    match A, B with
    | a :: A', b :: B' =>
      if a <? b then intersect_uint16_cardinality A' B
      else if b <? a then go B'
      else 1 + intersect_uint16_cardinality A' B'
    | _, _ => 0
    end.
(** array_util.c:1028-1049 *)
Fixpoint intersect_uint16_nonempty (A : list Z) : list Z -> bool :=
  fix go (B : list Z) : bool :=
    match A, B with
    | a :: A', b :: B' =>
      if a <? b then intersect_uint16_nonempty A' B
      else if b <? a then go B'
      else true
    | _, _ => false
    end.
(** array_util.c:1108-1155 union_uint16; also 1889-1936 union_uint32, same text. *)
Fixpoint union_uint16 (A : list Z) : list Z -> list Z :=
  fix go (B : list Z) : list Z :=
    match A, B with
    | [], _ => B
    | _, [] => A
    | a :: A', b :: B' =>
      if a <? b then a :: union_uint16 A' B
      else if b <? a then b :: go B'
      else a :: union_uint16 A' B'
    end.
(** array_util.c:1157-1200 difference_uint16 *)
Fixpoint difference_uint16 (A : list Z) : list Z -> list Z :=
  fix go (B : list Z) : list Z :=
    match A, B with
    | [], _ => []
    | _, [] => A
    | a :: A', b :: B' =>
      if a <? b then a :: difference_uint16 A' B
      else if a =? b then difference_uint16 A' B'
      else go B'
    end.
(** array_util.c:1202-1231 xor_uint16 *)
Fixpoint xor_uint16 (A : list Z) : list Z -> list Z :=
  fix go (B : list Z) : list Z :=
    match A, B with
    | [], _ => B
    | _, [] => A
    | a :: A', b :: B' =>
      if a =? b then xor_uint16 A' B'
      else if a <? b then a :: xor_uint16 A' B
      else b :: go B'
    end.
(** array_util.c:1982-2011 fast_union_uint16 (scalar path). *)
Definition fast_union_uint16 (A B : list Z) : list Z :=
  if zlen A <? zlen B then union_uint16 A B else union_uint16 B A.

(** * Proofs *)

(** ** lb *)
Lemma lb_bound l x : 0 <= lb l x <= zlen l.
Proof.
  unfold lb. pose proof (filter_len_le (fun y => y <? x) l).
  pose proof (zlen_nonneg (filter (fun y => y <? x) l)). lia.
Qed.
Lemma lb_nil x : lb [] x = 0. Proof. reflexivity. Qed.
Lemma lb_cons_lt a l x : a < x -> lb (a::l) x = 1 + lb l x.
Proof. intros. unfold lb. cbn [filter]. replace (a <? x) with true by lia. rewrite zlen_cons. lia. Qed.
Lemma lb_cons_ge a l x : incr (a::l) -> x <= a -> lb (a::l) x = 0.
Proof.
  intros H Hx. unfold lb. cbn [filter]. replace (a <? x) with false by lia.
  rewrite filter_none; auto. intros y Hy. pose proof (incr_head _ _ _ H Hy). lia.
Qed.
Lemma lb_lt l x i : incr l -> 0 <= i < lb l x -> znth l i < x.
Proof.
  revert i. induction l as [|a l IH]; intros i H Hi; [rewrite lb_nil in Hi; lia|].
  destruct (Z_lt_dec a x).
  - rewrite lb_cons_lt in Hi by lia. destruct (Z.eq_dec i 0) as [->|]; [rewrite znth_cons_0; lia|].
    rewrite znth_cons_pos by lia. apply IH; eauto using incr_tail; lia.
  - rewrite lb_cons_ge in Hi by (auto; lia). lia.
Qed.
Lemma lb_ge l x i : incr l -> lb l x <= i < zlen l -> x <= znth l i.
Proof.
  revert i. induction l as [|a l IH]; intros i H Hi; [unfold zlen in Hi; cbn in Hi; pose proof (lb_bound [] x); lia|].
  rewrite zlen_cons in Hi. destruct (Z_lt_dec a x).
  - rewrite lb_cons_lt in Hi by lia. pose proof (lb_bound l x).
    rewrite znth_cons_pos by lia. apply IH; eauto using incr_tail; lia.
  - pose proof (lb_bound (a::l) x). destruct (Z.eq_dec i 0) as [->|]; [rewrite znth_cons_0; lia|].
    rewrite znth_cons_pos by lia.
    assert (a < znth l (i-1)); [|lia]. apply (incr_head _ _ _ H). apply znth_In. lia.
Qed.
Lemma lb_unique l x i : incr l -> 0 <= i <= zlen l ->
  (forall j, 0 <= j < i -> znth l j < x) -> (forall j, i <= j < zlen l -> x <= znth l j) -> lb l x = i.
Proof.
  intros H Hi H1 H2. pose proof (lb_bound l x).
  destruct (Z.lt_trichotomy (lb l x) i) as [L|[L|L]]; auto.
  - specialize (H1 (lb l x) ltac:(lia)). pose proof (lb_ge l x (lb l x) H). lia.
  - specialize (H2 i ltac:(lia)). pose proof (lb_lt l x i H). lia.
Qed.
Lemma lb_In l x : incr l -> (In x l <-> lb l x < zlen l /\ znth l (lb l x) = x).
Proof.
  intros H. split.
  - intros Hx. apply In_znth in Hx. destruct Hx as (i&Hi&E).
    assert (lb l x = i) as ->.
    { apply lb_unique; auto; try lia; intros j Hj.
      - pose proof (incr_znth l j i H). lia.
      - pose proof (incr_znth_le l i j H). lia. }
    split; auto; lia.
  - intros [H1 H2]. rewrite <- H2. apply znth_In. pose proof (lb_bound l x). lia.
Qed.
Lemma lb_app l1 l2 x : lb (l1++l2) x = lb l1 x + lb l2 x.
Proof. unfold lb. now rewrite filter_app, zlen_app. Qed.
Lemma lb_all l x : (forall y, In y l -> y < x) -> lb l x = zlen l.
Proof. intros H. unfold lb. rewrite filter_all; auto. intros y Hy. specialize (H y Hy). lia. Qed.
Lemma lb_none l x : (forall y, In y l -> x <= y) -> lb l x = 0.
Proof. intros H. unfold lb. rewrite filter_none; auto. intros y Hy. specialize (H y Hy). lia. Qed.
Lemma lb_mono l x y : x <= y -> lb l x <= lb l y.
Proof.
  intros. unfold lb. induction l as [|a l IH]; cbn [filter]; [lia|].
  destruct (a <? x) eqn:E1, (a <? y) eqn:E2; rewrite ?zlen_cons; lia.
Qed.

(** ** splitting at an index *)
Lemma zskip_zlen n l : 0 <= n <= zlen l -> zlen (zskip n l) = zlen l - n.
Proof. intros. unfold zskip, zlen in *. rewrite skipn_length. lia. Qed.
Lemma zskip_In n l x : In x (zskip n l) -> In x l.
Proof. unfold zskip. intros. rewrite <- (firstn_skipn (Z.to_nat n) l). apply in_app_iff. auto. Qed.
Lemma incr_zskip n l : incr l -> incr (zskip n l).
Proof.
  intros. rewrite <- (firstn_skipn (Z.to_nat n) l) in H. apply incr_app in H. tauto.
Qed.
Lemma znth_zskip n l i : 0 <= n -> 0 <= i -> znth (zskip n l) i = znth l (n + i).
Proof.
  intros. unfold znth, zskip. replace (Z.to_nat (n+i)) with (Z.to_nat n + Z.to_nat i)%nat by lia.
  generalize (Z.to_nat n). intros m. revert l. induction m; cbn; auto.
  destruct l; cbn; auto. destruct (Z.to_nat i); auto.
Qed.

(** ** binarySearch *)
Lemma shiftr1 a : Z.shiftr a 1 = a / 2.
Proof. rewrite Z.shiftr_div_pow2 by lia. reflexivity. Qed.
Lemma shiftl1 a : Z.shiftl a 1 = a * 2.
Proof. rewrite Z.shiftl_mul_pow2 by lia. reflexivity. Qed.

Lemma binarySearch_loop_spec fuel a low high k :
  incr a -> 0 <= low -> high < zlen a -> low <= high + 1 -> high - low + 1 < Z.of_nat fuel ->
  (forall j, 0 <= j < low -> znth a j < k) ->
  (forall j, high < j < zlen a -> k < znth a j) ->
  binarySearch_loop fuel a low high k = if zmem k a then lb a k else -(lb a k + 1).
Proof.
  revert low high. induction fuel; intros low high Ha H0 H1 H2 Hf HL HH; [lia|].
  cbn [binarySearch_loop]. destruct (low <=? high) eqn:E.
  - rewrite shiftr1. set (m := (low+high)/2).
    assert (low <= m <= high) by (unfold m; dm).
    destruct (znth a m <? k) eqn:E1; [|destruct (k <? znth a m) eqn:E2].
    + apply IHfuel; auto; try lia. intros j Hj.
      pose proof (incr_znth_le a j m Ha). lia.
    + apply IHfuel; auto; try lia. intros j Hj.
      pose proof (incr_znth_le a m j Ha). lia.
    + assert (znth a m = k) as Em by lia.
      assert (In k a) as Hin by (rewrite <- Em; apply znth_In; lia).
      rewrite (proj2 (zmem_In k a) Hin).
      symmetry. apply lb_unique; auto; try lia; intros j Hj.
      * pose proof (incr_znth a j m Ha). lia.
      * pose proof (incr_znth_le a m j Ha). lia.
  - assert (lb a k = low) as EL.
    { apply lb_unique; auto; try lia. all: (intros j Hj; specialize (HH j); lia). }
    destruct (zmem k a) eqn:Em.
    + apply zmem_In, In_znth in Em. destruct Em as (j&Hj&Ej).
      destruct (Z_lt_dec j low); [specialize (HL j)|specialize (HH j)]; lia.
    + lia.
Qed.
Lemma binarySearch_spec a k : incr a ->
  binarySearch a k = if zmem k a then lb a k else -(lb a k + 1).
Proof.
  intros H. apply binarySearch_loop_spec; auto; pose proof (zlen_nonneg a); unfold zlen in *; try lia.
Qed.
Lemma binarySearch_mem a k : incr a -> (0 <=? binarySearch a k) = zmem k a.
Proof.
  intros H. rewrite binarySearch_spec by auto. pose proof (lb_bound a k). destruct (zmem k a); lia.
Qed.
Lemma count_less_spec a k : incr a -> count_less a k = lb a k.
Proof.
  intros H. unfold count_less. destruct (zlen a =? 0) eqn:E.
  - pose proof (lb_bound a k). lia.
  - rewrite binarySearch_mem by auto. rewrite binarySearch_spec by auto. destruct (zmem k a); lia.
Qed.
(** number of elements greater than k *)
Lemma lb_succ a k : incr a -> lb a (k+1) = lb a k + (if zmem k a then 1 else 0).
Proof.
  induction a as [|x a IH]; intros H; auto.
  pose proof (incr_tail _ _ H) as Ht. specialize (IH Ht). cbn [zmem existsb].
  change (existsb (Z.eqb k) a) with (zmem k a).
  destruct (Z_lt_dec x k).
  - rewrite !lb_cons_lt by lia. rewrite IH. replace (k =? x) with false by lia. cbn [orb]. lia.
  - destruct (Z.eqb_spec k x).
    + subst. rewrite lb_cons_lt by lia. rewrite lb_cons_ge by (auto; lia). cbn [orb].
      rewrite lb_none; [lia|]. intros y Hy. pose proof (incr_head _ _ _ H Hy). lia.
    + rewrite !lb_cons_ge by (auto; lia). cbn [orb].
      destruct (zmem k a) eqn:E; auto. apply zmem_In in E.
      pose proof (incr_head _ _ _ H E). lia.
Qed.
Lemma count_greater_spec a k : incr a -> count_greater a k = zlen a - lb a (k+1).
Proof.
  intros H. unfold count_greater. rewrite lb_succ by auto. destruct (zlen a =? 0) eqn:E.
  - apply Z.eqb_eq in E. apply zlen_0_nil in E. subst. reflexivity.
  - rewrite binarySearch_mem by auto. rewrite binarySearch_spec by auto. destruct (zmem k a); lia.
Qed.

(** ** advanceUntil: first index after [pos] whose element is >= min *)
Lemma gallop_spec fuel a lower s len min :
  0 <= lower -> 1 <= s -> len <= zlen a -> len - (lower + s) < Z.of_nat fuel ->
  incr a -> znth a lower < min ->
  (lower + Z.shiftr s 1 < len -> znth a (lower + Z.shiftr s 1) < min) -> 
  (s = 1 \/ lower + Z.shiftr s 1 < len) ->
  (s = 1 \/ s mod 2 = 0) ->
  let s' := gallop fuel a lower s len min in
  1 <= s' /\ (s' = 1 \/ (s' mod 2 = 0 /\ lower + Z.shiftr s' 1 < len /\ znth a (lower + Z.shiftr s' 1) < min)) /\
  (lower + s' < len -> min <= znth a (lower + s')).
Proof.
  revert s. induction fuel; intros s Hl Hs Hlen Hf Ha Hm Hprev Hor Hev.
  - cbn [gallop]. split; [lia|]. split; [|lia]. destruct Hev; auto. destruct Hor; auto.
  - cbn [gallop]. destruct ((lower + s <? len) && (znth a (lower + s) <? min)) eqn:E.
    + rewrite shiftl1. apply IHfuel; auto; try lia;
        try (rewrite shiftr1; replace (s*2/2) with s by dm; lia).
    + split; [lia|]. split; [|lia]. destruct Hev; auto. destruct Hor; auto.
Qed.
Lemma gallop_bin_spec fuel a lower upper min :
  incr a -> 0 <= lower -> lower < upper -> upper < zlen a -> upper - lower <= Z.of_nat fuel ->
  znth a lower < min -> min <= znth a upper ->
  let r := gallop_bin fuel a lower upper min in
  lower < r <= upper /\ min <= znth a r /\ znth a (r-1) < min.
Proof.
  revert lower upper. induction fuel; intros lower upper Ha H0 H1 H2 Hf HL HU; [lia|].
  cbn [gallop_bin]. destruct (lower + 1 =? upper) eqn:E.
  - cbn zeta. replace (upper - 1) with lower by lia. lia.
  - rewrite shiftr1. set (m := (lower+upper)/2). assert (lower < m < upper) by (unfold m; dm).
    destruct (znth a m =? min) eqn:E1; [|destruct (znth a m <? min) eqn:E2].
    + cbn zeta. pose proof (incr_znth a (m-1) m Ha). lia.
    + destruct (IHfuel m upper) as (A&B&C); auto; try lia. all: cbn zeta; lia.
    + destruct (IHfuel lower m) as (A&B&C); auto; try lia. all: cbn zeta; lia.
Qed.
Lemma advanceUntil_raw a pos len min : incr a -> -1 <= pos -> pos < len -> len <= zlen a ->
  let r := advanceUntil a pos len min in
  pos < r <= len /\ (r < len -> min <= znth a r) /\ (r > pos + 1 -> znth a (r-1) < min).
Proof.
  intros Ha Hp Hpl Hl. unfold advanceUntil. cbn zeta.
  destruct ((len <=? pos+1) || (min <=? znth a (pos+1))) eqn:E; [lia|].
  destruct (gallop_spec (S (length a)) a (pos+1) 1 len min) as (A&B&C); auto; try lia.
  { unfold zlen in *; lia. }
  { rewrite shiftr1. intros. change (1/2) with 0. rewrite Z.add_0_r. lia. }
  set (s := gallop (S (length a)) a (pos + 1) 1 len min) in *. clearbody s.
  set (upper := if pos + 1 + s <? len then pos + 1 + s else len - 1).
  assert (pos+1 <= upper < len) by (unfold upper; destruct (pos+1+s <? len) eqn:?; lia).
  assert (Hup : (upper = pos+1+s /\ pos+1+s < len) \/ (upper = len-1 /\ len <= pos+1+s))
    by (unfold upper; destruct (pos+1+s <? len) eqn:?; lia).
  clearbody upper.
  destruct (znth a upper =? min) eqn:E1.
  { split; [lia|]. split; [lia|]. intros.
    pose proof (incr_znth a (upper-1) upper Ha). lia. }
  destruct (znth a upper <? min) eqn:E2.
  { split; [lia|]. split; [lia|]. intros.
    assert (upper = len - 1) by (destruct Hup as [[-> ?]|[? ?]]; lia). subst upper. lia. }
  assert (pos + 1 + s / 2 < upper).
  { destruct B as [->|(B1&B2&B3)].
    - change (1/2) with 0. destruct (Z.eq_dec (pos+1) upper) as [Eu|]; [rewrite <- Eu in *; lia|lia].
    - rewrite shiftr1 in B2, B3. destruct (Z.eq_dec (pos+1+s/2) upper) as [Eu|]; [rewrite <- Eu in *; lia|].
      dm. }
  rewrite !shiftr1 in *. assert (0 <= s/2) by dm.
  destruct (gallop_bin_spec (S (length a)) a (pos + 1 + s/2) upper min) as (D&F&G); auto; try lia.
  { unfold zlen in *; lia. }
  { destruct B as [->|(B1&B2&B3)]; [change (1/2) with 0; rewrite Z.add_0_r; lia|auto]. }
Qed.
(** When everything up to and including [pos] is < min the result is [lb]. *)
Lemma advanceUntil_lb a pos min : incr a -> -1 <= pos < zlen a ->
  (0 <= pos -> znth a pos < min) -> advanceUntil a pos (zlen a) min = lb a min.
Proof.
  intros Ha Hp Hm. destruct (advanceUntil_raw a pos (zlen a) min) as (A&B&C); auto; try lia.
  set (r := advanceUntil a pos (zlen a) min) in *. symmetry. apply lb_unique; auto; try lia.
  - intros j Hj. destruct (Z_le_dec j pos).
    + pose proof (incr_znth_le a j pos Ha). lia.
    + pose proof (incr_znth_le a j (r-1) Ha). lia.
  - intros j Hj. pose proof (incr_znth_le a r j Ha). lia.
Qed.

(** ** branchless search *)
Lemma bsearch1_loop_spec fuel a b n t :
  incr a -> 0 <= b -> 1 <= n -> b + n <= zlen a -> n <= Z.of_nat fuel + 1 ->
  (forall j, 0 <= j < b -> znth a j < t) -> (forall j, b + n <= j < zlen a -> t <= znth a j) ->
  (b > 0 -> znth a b < t) ->
  let r := bsearch1_loop fuel a b n t in
  0 <= r < zlen a /\ (forall j, 0 <= j < r -> znth a j < t) /\ (forall j, r + 1 <= j < zlen a -> t <= znth a j).
Proof.
  revert b n. induction fuel; intros b n Ha Hb Hn Hbn Hf HL HH HB.
  - cbn [bsearch1_loop]. cbn zeta. split; [lia|]. split; auto. intros. apply HH. lia.
  - cbn [bsearch1_loop]. destruct (1 <? n) eqn:E.
    + rewrite shiftr1. assert (1 <= n/2 < n) by dm.
      destruct (znth a (b + n/2) <? t) eqn:E1.
      * apply IHfuel; auto; try lia.
        -- intros j Hj. pose proof (incr_znth_le a j (b+n/2) Ha). lia.
        -- intros j Hj. apply HH. lia.
      * apply IHfuel; auto; try lia.
        intros j Hj. assert (n - n/2 >= n/2) by dm. 
        pose proof (incr_znth_le a (b+n/2) j Ha). lia.
    + cbn zeta. split; [lia|]. split; auto. intros. apply HH. lia.
Qed.
Lemma bsearch1_spec a t : incr a -> a <> [] -> bsearch1 a t = lb a t.
Proof.
  intros Ha Hne. unfold bsearch1.
  assert (1 <= zlen a) by (destruct a; [congruence|rewrite zlen_cons; pose proof (zlen_nonneg a); lia]).
  destruct (bsearch1_loop_spec (length a) a 0 (zlen a) t) as (A&B&C); auto; try lia.
  { unfold zlen; lia. }
  set (r := bsearch1_loop (length a) a 0 (zlen a) t) in *. clearbody r. cbn zeta.
  symmetry. apply lb_unique; auto; destruct (znth a r <? t) eqn:E; try lia; intros j Hj.
  all: destruct (Z.eq_dec j r); [subst; lia|]; first [apply B; lia | apply C; lia].
Qed.
Lemma hit_spec a t : incr a -> hit a (lb a t) t = if zmem t a then [t] else [].
Proof.
  intros Ha. unfold hit. destruct (zmem t a) eqn:E.
  - apply zmem_In, lb_In in E; auto. replace ((lb a t <? zlen a) && (znth a (lb a t) =? t)) with true by lia. auto.
  - destruct ((lb a t <? zlen a) && (znth a (lb a t) =? t)) eqn:E2; auto.
    apply zmem_nIn in E. exfalso. apply E. apply lb_In; auto. lia.
Qed.

(** specification of intersection: keep the elements of the first list *)
Definition inter (A B : list Z) := filter (fun x => zmem x B) A.
Lemma inter_In A B x : In x (inter A B) <-> In x A /\ In x B.
Proof. unfold inter. rewrite filter_In, zmem_In. tauto. Qed.
Lemma inter_nil_r A : inter A [] = [].
Proof. unfold inter. apply filter_none. auto. Qed.
Lemma incr_inter A B : incr A -> incr (inter A B).
Proof. apply incr_filter. Qed.

(** dropping the part of [large] below an already processed target is harmless *)
Lemma zmem_zskip_lb large t x : incr large -> t < x -> zmem x (zskip (lb large t) large) = zmem x large.
Proof.
  intros Ha Hx. destruct (zmem x large) eqn:E.
  - apply zmem_In. apply zmem_In in E. rewrite <- (firstn_skipn (Z.to_nat (lb large t)) large) in E.
    apply in_app_iff in E. destruct E as [E|E]; auto. exfalso.
    apply In_nth with (d:=0) in E. destruct E as (n&Hn&En).
    rewrite firstn_length in Hn.
    assert (znth large (Z.of_nat n) < t).
    { apply lb_lt; auto. pose proof (lb_bound large t). lia. }
    unfold znth in H. rewrite Nat2Z.id in H.
    rewrite <- (firstn_skipn (Z.to_nat (lb large t)) large), app_nth1 in H by (rewrite firstn_length; lia).
    lia.
  - apply zmem_nIn. apply zmem_nIn in E. intros H. apply E. now apply zskip_In in H.
Qed.
Lemma inter_ext A B B' : (forall x, In x A -> zmem x B = zmem x B') -> inter A B = inter A B'.
Proof. intros. unfold inter. now apply filter_ext_In. Qed.
Lemma inter_skip small large t : incr large -> incr (t::small) ->
  inter small (zskip (lb large t) large) = inter small large.
Proof.
  intros. apply inter_ext. intros x Hx. apply zmem_zskip_lb; auto.
  apply (incr_head _ _ _ H0 Hx).
Qed.
Lemma skewed_tail1_spec small large : incr large -> incr small -> (length small <= 1)%nat ->
  skewed_tail1 small large = inter small large.
Proof.
  intros Hl Hs Hn. destruct small as [|t [|? ?]]; cbn in Hn; try lia; cbn [skewed_tail1].
  - reflexivity.
  - destruct large as [|l0 large]; [reflexivity|].
    rewrite binarySearch_mem by auto. unfold inter. cbn [filter]. destruct (zmem t (l0::large)); auto.
Qed.
Lemma inter_cons t s l : inter (t::s) l = (if zmem t l then [t] else []) ++ inter s l.
Proof. unfold inter. cbn [filter]. destruct (zmem t l); reflexivity. Qed.
Lemma skewed_tail2_spec small large : incr large -> incr small -> (length small <= 3)%nat ->
  skewed_tail2 small large = inter small large.
Proof.
  intros Hl Hs Hn. destruct small as [|t1 [|t2 small]].
  - destruct large; reflexivity.
  - destruct large as [|l0 large]; [now rewrite inter_nil_r|]. cbn [skewed_tail2].
    now apply skewed_tail1_spec.
  - destruct large as [|l0 large]; [rewrite inter_nil_r; destruct small; reflexivity|].
    cbn [skewed_tail2]. cbn zeta.
    rewrite !bsearch1_spec by (auto; discriminate). rewrite !hit_spec by auto.
    rewrite skewed_tail1_spec.
    + rewrite inter_skip by (eauto using incr_tail). now rewrite !inter_cons.
    + now apply incr_zskip.
    + eauto using incr_tail.
    + cbn in Hn. lia.
Qed.
Lemma intersect_skewed_uint16_spec small large : incr large -> incr small ->
  intersect_skewed_uint16 small large = inter small large.
Proof.
  remember (length small) as n. revert small large Heqn.
  induction n as [n IH] using (well_founded_induction lt_wf). intros small large Hn Hl Hs.
  destruct small as [|t1 [|t2 [|t3 [|t4 small]]]]; try (apply skewed_tail2_spec; auto; cbn; lia).
  destruct large as [|l0 large]; [now rewrite inter_nil_r|].
  cbn [intersect_skewed_uint16]. cbn zeta.
  rewrite !bsearch1_spec by (auto; discriminate). rewrite !hit_spec by auto.
  rewrite (IH (length small)).
  - rewrite inter_skip by (eauto using incr_tail). now rewrite !inter_cons.
  - subst n. cbn. lia.
  - reflexivity.
  - now apply incr_zskip.
  - eauto 10 using incr_tail.
Qed.

(** ** merge intersection *)
Lemma inter_lt_all a A B : incr B -> (forall b, In b B -> a < b) -> inter (a::A) B = inter A B.
Proof.
  intros. rewrite inter_cons. replace (zmem a B) with false; auto.
  symmetry. apply zmem_nIn. intros Hin. specialize (H0 a Hin). lia.
Qed.
Lemma zmem_cons x a l : zmem x (a::l) = (x =? a) || zmem x l.
Proof. reflexivity. Qed.
Lemma inter_drop_r A b B : (forall a, In a A -> b < a) -> inter A (b::B) = inter A B.
Proof.
  intros H. apply inter_ext. intros x Hx. rewrite zmem_cons.
  specialize (H x Hx). replace (x =? b) with false by lia. reflexivity.
Qed.
Lemma intersect_uint16_cons a A b B : intersect_uint16 (a::A) (b::B) =
  if a <? b then intersect_uint16 A (b::B) else if b <? a then intersect_uint16 (a::A) B else a :: intersect_uint16 A B.
Proof. reflexivity. Qed.
Lemma intersect_uint16_spec A B : incr A -> incr B -> intersect_uint16 A B = inter A B.
Proof.
  revert B. induction A as [|a A IH]; intros B HA HB; [destruct B; reflexivity|].
  induction B as [|b B IHB]; [now rewrite inter_nil_r|].
  rewrite intersect_uint16_cons. destruct (a <? b) eqn:E1; [|destruct (b <? a) eqn:E2].
  - rewrite IH by eauto using incr_tail. symmetry. apply inter_lt_all; auto.
    intros y [<-|Hy]; [lia|]. pose proof (incr_head _ _ _ HB Hy). lia.
  - rewrite inter_drop_r; [apply IHB; eauto using incr_tail|].
    intros y [<-|Hy]; [lia|]. pose proof (incr_head _ _ _ HA Hy). lia.
  - assert (a = b) by lia. subst b. rewrite IH by eauto using incr_tail.
    rewrite inter_cons, zmem_cons, Z.eqb_refl. cbn [orb app]. f_equal. symmetry.
    apply inter_drop_r. intros y Hy. apply (incr_head _ _ _ HA Hy).
Qed.
Lemma intersect_uint16_cardinality_eq A B : intersect_uint16_cardinality A B = zlen (intersect_uint16 A B).
Proof.
  revert B. induction A as [|a A IH]; intros B; [destruct B; reflexivity|].
  induction B as [|b B IHB]; [reflexivity|]. cbn [intersect_uint16_cardinality intersect_uint16].
  destruct (a <? b); [apply IH|]. destruct (b <? a); [apply IHB|]. rewrite IH, zlen_cons. lia.
Qed.
Lemma intersect_uint16_nonempty_eq A B : intersect_uint16_nonempty A B = negb (zlen (intersect_uint16 A B) =? 0).
Proof.
  revert B. induction A as [|a A IH]; intros B; [destruct B; reflexivity|].
  induction B as [|b B IHB]; [reflexivity|]. cbn [intersect_uint16_nonempty intersect_uint16].
  destruct (a <? b); [apply IH|]. destruct (b <? a); [apply IHB|].
  rewrite zlen_cons. pose proof (zlen_nonneg (intersect_uint16 A B)). lia.
Qed.

(** ** union, difference, xor: increasing result + membership *)
Lemma union_uint16_nil_l B : union_uint16 [] B = B. Proof. destruct B; reflexivity. Qed.
Lemma union_uint16_nil_r A : union_uint16 A [] = A. Proof. destruct A; reflexivity. Qed.
Lemma union_uint16_cons a A b B : union_uint16 (a::A) (b::B) =
  if a <? b then a :: union_uint16 A (b::B) else if b <? a then b :: union_uint16 (a::A) B else a :: union_uint16 A B.
Proof. reflexivity. Qed.
Lemma union_uint16_In A B x : In x (union_uint16 A B) <-> In x A \/ In x B.
Proof.
  revert B. induction A as [|a A IH]; intros B; [rewrite union_uint16_nil_l; cbn; tauto|].
  induction B as [|b B IHB]; [cbn; tauto|]. rewrite union_uint16_cons.
  destruct (a <? b) eqn:E1; [cbn [In]; rewrite IH; cbn [In]; tauto|].
  destruct (b <? a) eqn:E2; cbn [In]; [rewrite IHB; cbn [In]; tauto|]. rewrite IH.
  assert (a = b) by lia. subst. tauto.
Qed.
Lemma union_uint16_incr A B : incr A -> incr B -> incr (union_uint16 A B).
Proof.
  revert B. induction A as [|a A IH]; intros B HA HB; [now rewrite union_uint16_nil_l|].
  induction B as [|b B IHB]; auto. rewrite union_uint16_cons.
  destruct (a <? b) eqn:E1; [|destruct (b <? a) eqn:E2].
  - split; [|apply IH; eauto using incr_tail]. rewrite Forall_forall. intros y Hy.
    apply union_uint16_In in Hy. destruct Hy as [Hy|[<-|Hy]]; try lia.
    + apply (incr_head _ _ _ HA Hy).
    + pose proof (incr_head _ _ _ HB Hy). lia.
  - split; [|apply IHB; eauto using incr_tail]. rewrite Forall_forall. intros y Hy.
    apply union_uint16_In in Hy. destruct Hy as [[<-|Hy]|Hy]; try lia.
    + pose proof (incr_head _ _ _ HA Hy). lia.
    + apply (incr_head _ _ _ HB Hy).
  - split; [|apply IH; eauto using incr_tail]. rewrite Forall_forall. intros y Hy.
    apply union_uint16_In in Hy. destruct Hy as [Hy|Hy].
    + apply (incr_head _ _ _ HA Hy).
    + pose proof (incr_head _ _ _ HB Hy). lia.
Qed.
Lemma fast_union_uint16_In A B x : In x (fast_union_uint16 A B) <-> In x A \/ In x B.
Proof. unfold fast_union_uint16. destruct (zlen A <? zlen B); rewrite union_uint16_In; tauto. Qed.
Lemma fast_union_uint16_incr A B : incr A -> incr B -> incr (fast_union_uint16 A B).
Proof. intros. unfold fast_union_uint16. destruct (zlen A <? zlen B); apply union_uint16_incr; auto. Qed.

Lemma difference_uint16_cons a A b B : difference_uint16 (a::A) (b::B) =
  if a <? b then a :: difference_uint16 A (b::B) else if a =? b then difference_uint16 A B else difference_uint16 (a::A) B.
Proof. reflexivity. Qed.
Lemma difference_uint16_spec A B : incr A -> incr B -> difference_uint16 A B = filter (fun x => negb (zmem x B)) A.
Proof.
  revert B. induction A as [|a A IH]; intros B HA HB; [destruct B; reflexivity|].
  induction B as [|b B IHB].
  { cbn. f_equal. symmetry. apply filter_all. auto. }
  rewrite difference_uint16_cons. cbn [filter].
  destruct (a <? b) eqn:E1; [|destruct (a =? b) eqn:E2].
  - replace (zmem a (b::B)) with false; cbn [negb].
    + f_equal. apply IH; eauto using incr_tail.
    + symmetry. apply zmem_nIn. intros [<-|Hy]; try lia. pose proof (incr_head _ _ _ HB Hy). lia.
  - assert (a = b) by lia. subst b. rewrite zmem_cons, Z.eqb_refl. cbn [orb negb].
    rewrite IH by eauto using incr_tail. apply filter_ext_In. intros x Hx. rewrite zmem_cons.
    pose proof (incr_head _ _ _ HA Hx). replace (x =? a) with false by lia. reflexivity.
  - rewrite IHB by eauto using incr_tail. cbn [filter]. rewrite zmem_cons, E2. cbn [orb].
    assert (filter (fun x => negb (zmem x B)) A = filter (fun x => negb (zmem x (b::B))) A) as ->; auto.
    apply filter_ext_In. intros x Hx. rewrite zmem_cons.
    pose proof (incr_head _ _ _ HA Hx). replace (x =? b) with false by lia. reflexivity.
Qed.
Lemma difference_uint16_In A B x : incr A -> incr B -> (In x (difference_uint16 A B) <-> In x A /\ ~ In x B).
Proof.
  intros. rewrite difference_uint16_spec by auto. rewrite filter_In, negb_true_iff, zmem_nIn. tauto.
Qed.
Lemma difference_uint16_incr A B : incr A -> incr B -> incr (difference_uint16 A B).
Proof. intros. rewrite difference_uint16_spec by auto. now apply incr_filter. Qed.

Lemma xor_uint16_nil_l B : xor_uint16 [] B = B. Proof. destruct B; reflexivity. Qed.
Lemma xor_uint16_nil_r A : xor_uint16 A [] = A. Proof. destruct A; reflexivity. Qed.
Lemma xor_uint16_cons a A b B : xor_uint16 (a::A) (b::B) =
  if a =? b then xor_uint16 A B else if a <? b then a :: xor_uint16 A (b::B) else b :: xor_uint16 (a::A) B.
Proof. reflexivity. Qed.
Lemma xor_uint16_In A B x : incr A -> incr B ->
  (In x (xor_uint16 A B) <-> (In x A /\ ~ In x B) \/ (~ In x A /\ In x B)).
Proof.
  revert B. induction A as [|a A IH]; intros B HA HB; [rewrite xor_uint16_nil_l; cbn; tauto|].
  induction B as [|b B IHB]; [cbn; tauto|]. rewrite xor_uint16_cons.
  assert (forall y, In y A -> a < y) as HA' by (intros; eapply incr_head; eauto).
  assert (forall y, In y B -> b < y) as HB' by (intros; eapply incr_head; eauto).
  destruct (a =? b) eqn:E1; [|destruct (a <? b) eqn:E2].
  - rewrite IH by eauto using incr_tail. assert (a = b) by lia. subst b. cbn [In].
    destruct (Z.eq_dec a x); [subst|tauto].
    assert (~ In x A) by (let H := fresh in intros H; specialize (HA' x H); lia).
    assert (~ In x B) by (let H := fresh in intros H; specialize (HB' x H); lia). tauto.
  - cbn [In]. rewrite IH by eauto using incr_tail. cbn [In].
    destruct (Z.eq_dec a x); [subst|tauto].
    assert (~ In x A) by (let H := fresh in intros H; specialize (HA' x H); lia).
    assert (~ In x B) by (let H := fresh in intros H; specialize (HB' x H); lia).
    assert (b <> x) by lia. tauto.
  - cbn [In]. rewrite IHB by eauto using incr_tail. cbn [In].
    destruct (Z.eq_dec b x); [subst|tauto].
    assert (~ In x A) by (let H := fresh in intros H; specialize (HA' x H); lia).
    assert (~ In x B) by (let H := fresh in intros H; specialize (HB' x H); lia).
    assert (a <> x) by lia. tauto.
Qed.
Lemma xor_uint16_incl A B x : In x (xor_uint16 A B) -> In x A \/ In x B.
Proof.
  revert B. induction A as [|a A IH]; intros B; [rewrite xor_uint16_nil_l; cbn; tauto|].
  induction B as [|b B IHB]; [cbn; tauto|]. rewrite xor_uint16_cons.
  destruct (a =? b); [|destruct (a <? b)].
  - intros H. apply IH in H. cbn. tauto.
  - intros [H|H]; [cbn; tauto|]. apply IH in H. cbn in *. tauto.
  - intros [H|H]; [cbn; tauto|]. apply IHB in H. cbn in *. tauto.
Qed.
Lemma xor_uint16_incr A B : incr A -> incr B -> incr (xor_uint16 A B).
Proof.
  revert B. induction A as [|a A IH]; intros B HA HB; [now rewrite xor_uint16_nil_l|].
  induction B as [|b B IHB]; auto. rewrite xor_uint16_cons.
  destruct (a =? b) eqn:E1; [|destruct (a <? b) eqn:E2].
  - apply IH; eauto using incr_tail.
  - split; [|apply IH; eauto using incr_tail]. rewrite Forall_forall. intros y Hy.
    apply xor_uint16_incl in Hy. destruct Hy as [Hy|[<-|Hy]]; try lia.
    + apply (incr_head _ _ _ HA Hy).
    + pose proof (incr_head _ _ _ HB Hy). lia.
  - split; [|apply IHB; eauto using incr_tail]. rewrite Forall_forall. intros y Hy.
    apply xor_uint16_incl in Hy. destruct Hy as [[<-|Hy]|Hy]; try lia.
    + pose proof (incr_head _ _ _ HA Hy). lia.
    + apply (incr_head _ _ _ HB Hy).
Qed.

(** ** skewed cardinality / nonempty *)
Lemma inter_suffix small large i : incr large -> 0 <= i <= zlen large ->
  (forall j s, 0 <= j < i -> In s small -> znth large j < s) ->
  inter small (zskip i large) = inter small large.
Proof.
  intros Hl Hi H. apply inter_ext. intros s Hs. destruct (zmem s large) eqn:E.
  - apply zmem_In. apply zmem_In, In_znth in E. destruct E as (j&Hj&E).
    destruct (Z_lt_dec j i). { specialize (H j s). lia. }
    rewrite <- E. replace j with (i + (j - i)) by lia. rewrite <- znth_zskip by lia.
    apply znth_In. rewrite zskip_zlen by lia. lia.
  - apply zmem_nIn. apply zmem_nIn in E. intros Hx. apply E. now apply zskip_In in Hx.
Qed.
Lemma skewed_card_loop_spec fuel small large idx pos :
  incr small -> incr large -> 0 <= idx < zlen large ->
  (forall j s, 0 <= j < idx -> In s small -> znth large j < s) ->
  zlen small + (zlen large - idx) < Z.of_nat fuel ->
  skewed_card_loop fuel small large idx pos = pos + zlen (inter small large).
Proof.
  revert small idx pos. induction fuel; intros small idx pos Hs Hl Hi HJ Hf.
  { pose proof (zlen_nonneg small); lia. }
  cbn [skewed_card_loop]. destruct small as [|s small']; [cbn; rewrite zlen_nil; lia|].
  rewrite zlen_cons in Hf. cbn zeta.
  assert (forall y, In y small' -> s < y) as Hgt by (intros; eapply incr_head; eauto).
  pose proof (zlen_nonneg small').
  destruct (znth large idx <? s) eqn:E1; [|destruct (s <? znth large idx) eqn:E2].
  - rewrite advanceUntil_lb by (auto; lia).
    pose proof (lb_bound large s).
    assert (idx < lb large s).
    { destruct (Z_lt_dec idx (lb large s)); auto. pose proof (lb_ge large s idx Hl). lia. }
    destruct (lb large s =? zlen large) eqn:E3.
    + replace (inter (s::small') large) with (@nil Z); [rewrite zlen_nil; lia|].
      symmetry. unfold inter. apply filter_none. intros x Hx. apply zmem_nIn. intros Hin.
      apply In_znth in Hin. destruct Hin as (j&Hj&E).
      pose proof (lb_lt large s j Hl). destruct Hx as [<-|Hx]; [lia|]. specialize (Hgt x Hx). lia.
    + rewrite IHfuel; auto; try lia.
      * intros j y Hj Hy. pose proof (lb_lt large s j Hl).
        destruct Hy as [<-|Hy]; [lia|]. specialize (Hgt y Hy). lia.
      * rewrite zlen_cons. lia.
  - rewrite IHfuel; auto; try lia; eauto using incr_tail.
    + rewrite inter_cons. replace (zmem s large) with false; auto.
      symmetry. apply zmem_nIn. intros Hin. apply In_znth in Hin. destruct Hin as (j&Hj&E).
      destruct (Z_lt_dec j idx).
      * specialize (HJ j s ltac:(lia) (or_introl eq_refl)). lia.
      * pose proof (incr_znth_le large idx j Hl). lia.
    + intros j y Hj Hy. apply HJ; auto. now right.
  - assert (znth large idx = s) as Es by lia.
    assert (zmem s large = true) as Em by (apply zmem_In; rewrite <- Es; apply znth_In; lia).
    rewrite inter_cons, Em. cbn [app]. rewrite zlen_cons.
    destruct small' as [|s' small'']; [cbn; rewrite zlen_nil; lia|].
    assert (s < s') by (apply Hgt; now left).
    rewrite advanceUntil_lb by (auto; lia). pose proof (lb_bound large s').
    assert (idx < lb large s').
    { destruct (Z_lt_dec idx (lb large s')); auto. pose proof (lb_ge large s' idx Hl). lia. }
    assert (forall y, In y small'' -> s' < y) as Hgt'
      by (intros; eapply incr_head; [eapply incr_tail; eauto|]; auto).
    destruct (lb large s' =? zlen large) eqn:E3.
    + replace (inter (s'::small'') large) with (@nil Z); [rewrite zlen_nil; lia|].
      symmetry. unfold inter. apply filter_none. intros x Hx. apply zmem_nIn. intros Hin.
      apply In_znth in Hin. destruct Hin as (j&Hj&E).
      pose proof (lb_lt large s' j Hl). destruct Hx as [<-|Hx]; [lia|]. specialize (Hgt' x Hx). lia.
    + rewrite IHfuel; auto; try lia; eauto using incr_tail.
      intros j y Hj Hy. pose proof (lb_lt large s' j Hl).
      destruct Hy as [<-|Hy]; [lia|]. specialize (Hgt' y Hy). lia.
Qed.
Lemma intersect_skewed_uint16_cardinality_spec small large :
  incr small -> incr large -> large <> [] ->
  intersect_skewed_uint16_cardinality small large = zlen (inter small large).
Proof.
  intros Hs Hl Hne. unfold intersect_skewed_uint16_cardinality.
  destruct small as [|s small]; auto.
  assert (1 <= zlen large) by (destruct large; [congruence|rewrite zlen_cons; pose proof (zlen_nonneg large); lia]).
  rewrite skewed_card_loop_spec; auto; try lia. unfold zlen. lia.
Qed.
Lemma skewed_nonempty_loop_spec fuel small large idx :
  incr small -> incr large -> 0 <= idx < zlen large ->
  (forall j s, 0 <= j < idx -> In s small -> znth large j < s) ->
  zlen small + (zlen large - idx) < Z.of_nat fuel ->
  skewed_nonempty_loop fuel small large idx = negb (zlen (inter small large) =? 0).
Proof.
  revert small idx. induction fuel; intros small idx Hs Hl Hi HJ Hf.
  { pose proof (zlen_nonneg small); lia. }
  cbn [skewed_nonempty_loop]. destruct small as [|s small']; [reflexivity|].
  rewrite zlen_cons in Hf. cbn zeta.
  assert (forall y, In y small' -> s < y) as Hgt by (intros; eapply incr_head; eauto).
  pose proof (zlen_nonneg small').
  destruct (znth large idx <? s) eqn:E1; [|destruct (s <? znth large idx) eqn:E2].
  - rewrite advanceUntil_lb by (auto; lia).
    pose proof (lb_bound large s).
    assert (idx < lb large s).
    { destruct (Z_lt_dec idx (lb large s)); auto. pose proof (lb_ge large s idx Hl). lia. }
    destruct (lb large s =? zlen large) eqn:E3.
    + replace (inter (s::small') large) with (@nil Z); [reflexivity|].
      symmetry. unfold inter. apply filter_none. intros x Hx. apply zmem_nIn. intros Hin.
      apply In_znth in Hin. destruct Hin as (j&Hj&E).
      pose proof (lb_lt large s j Hl). destruct Hx as [<-|Hx]; [lia|]. specialize (Hgt x Hx). lia.
    + rewrite IHfuel; auto; try lia.
      * intros j y Hj Hy. pose proof (lb_lt large s j Hl).
        destruct Hy as [<-|Hy]; [lia|]. specialize (Hgt y Hy). lia.
      * rewrite zlen_cons. lia.
  - rewrite IHfuel; auto; try lia; eauto using incr_tail.
    + rewrite inter_cons. replace (zmem s large) with false; auto.
      symmetry. apply zmem_nIn. intros Hin. apply In_znth in Hin. destruct Hin as (j&Hj&E).
      destruct (Z_lt_dec j idx).
      * specialize (HJ j s ltac:(lia) (or_introl eq_refl)). lia.
      * pose proof (incr_znth_le large idx j Hl). lia.
    + intros j y Hj Hy. apply HJ; auto. now right.
  - assert (znth large idx = s) as Es by lia.
    assert (zmem s large = true) as Em by (apply zmem_In; rewrite <- Es; apply znth_In; lia).
    rewrite inter_cons, Em. cbn [app]. rewrite zlen_cons. pose proof (zlen_nonneg (inter small' large)). lia.
Qed.
Lemma intersect_skewed_uint16_nonempty_spec small large :
  incr small -> incr large -> large <> [] ->
  intersect_skewed_uint16_nonempty small large = negb (zlen (inter small large) =? 0).
Proof.
  intros Hs Hl Hne. unfold intersect_skewed_uint16_nonempty.
  destruct small as [|s small]; auto.
  assert (1 <= zlen large) by (destruct large; [congruence|rewrite zlen_cons; pose proof (zlen_nonneg large); lia]).
  rewrite skewed_nonempty_loop_spec; auto; try lia. unfold zlen. lia.
Qed.
(** intersection is symmetric as a set, hence as an increasing list *)
Lemma inter_comm A B : incr A -> incr B -> inter A B = inter B A.
Proof.
  intros. apply incr_ext; auto using incr_inter. intros x. rewrite !inter_In. tauto.
Qed.
