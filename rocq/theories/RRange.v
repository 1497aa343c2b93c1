(** RRange: roaring.c operations on ranges of values: from_range, add_range,
    remove_range, range_cardinality, contains_range, flip. *)
From Verif Require Import Base ArrayUtil BitUtil BitsetC ArrayC RunC RunD Convert MixedI MixedU MixedA MixedN Containers RArray RBinary RPoint.
Local Opaque zr.

(** ** Code *)
(** roaring.c:249-298 roaring_bitmap_add_range_closed: the loop over the keys from
    max_key down to min_key; [n] keys remain, the current one is min_key + n - 1
    (the uint32 condition key != min_key - 1 stops after min_key, also for 0) *)
Fixpoint add_range_loop (n : nat) (r : bitmap) (min max min_key max_key src dst : Z) : bitmap :=
  match n with
  | O => r
  | S m =>
    let key := min_key + Z.of_nat m in
    let container_min := if min_key =? key then Z.land min 65535 else 0 in
    let container_max := if max_key =? key then Z.land max 65535 else 65535 in
    if (0 <=? src) && (rkey r src =? key) then
      let new_container := container_add_range (rcon r src) container_min container_max in
      add_range_loop m (ra_replace_key_and_container_at_index r dst key new_container) min max min_key max_key (src - 1) (dst - 1)
    else
      match container_from_range container_min (container_max + 1) 1 with
      | Some new_container =>
        add_range_loop m (ra_replace_key_and_container_at_index r dst key new_container) min max min_key max_key src (dst - 1)
      | None => r
      end
  end.
Definition roaring_bitmap_add_range_closed (r : bitmap) (min max : Z) : bitmap :=
  if max <? min then r
  else
    let min_key := Z.shiftr min 16 in
    let max_key := Z.shiftr max 16 in
    let num_required_containers := max_key - min_key + 1 in
    let suffix_length := count_greater (rkeys r) max_key in
    let prefix_length := count_less (ztake (zlen r - suffix_length) (rkeys r)) min_key in
    let common_length := zlen r - prefix_length - suffix_length in
    let r' := if common_length <? num_required_containers
              then ra_shift_tail r suffix_length (num_required_containers - common_length) else r in
    add_range_loop (Z.to_nat num_required_containers) r' min max min_key max_key
      (prefix_length + common_length - 1) (zlen r' - suffix_length - 1).
(** roaring.c:300-337 roaring_bitmap_remove_range_closed *)
Fixpoint remove_range_loop (fuel : nat) (r : bitmap) (min max min_key max_key src dst : Z) : bitmap :=
  match fuel with
  | O => r
  | S f =>
    if (src <? zlen r) && (rkey r src <=? max_key) then
      let container_min := if min_key =? rkey r src then Z.land min 65535 else 0 in
      let container_max := if max_key =? rkey r src then Z.land max 65535 else 65535 in
      match container_remove_range (rcon r src) container_min container_max with
      | Some new_container =>
        remove_range_loop f (ra_replace_key_and_container_at_index r dst (rkey r src) new_container)
          min max min_key max_key (src + 1) (dst + 1)
      | None => remove_range_loop f r min max min_key max_key (src + 1) dst
      end
    else if dst <? src then ra_shift_tail r (zlen r - src) (dst - src) else r
  end.
Definition roaring_bitmap_remove_range_closed (r : bitmap) (min max : Z) : bitmap :=
  if max <? min then r
  else
    let min_key := Z.shiftr min 16 in
    let max_key := Z.shiftr max 16 in
    let src := count_less (rkeys r) min_key in
    remove_range_loop (S (length r)) r min max min_key max_key src src.
(** roaring.h:402-408 roaring_bitmap_add_range; 424-430 roaring_bitmap_remove_range
    (uint64 arguments, truncated by the casts to uint32) *)
Definition roaring_bitmap_add_range (r : bitmap) (min max : Z) : bitmap :=
  if (max <=? min) || (2^32 <? min) then r else roaring_bitmap_add_range_closed r (u32 min) (u32 (max - 1)).
Definition roaring_bitmap_remove_range (r : bitmap) (min max : Z) : bitmap :=
  if (max <=? min) || (2^32 <? min) then r else roaring_bitmap_remove_range_closed r (u32 min) (u32 (max - 1)).

(** roaring.c:218-247 roaring_bitmap_from_range.  [from_range_big] is the loop for
    step >= 2^16, whose uint32 counter wraps; None means that [fuel] iterations
    were not enough.  [from_range_loop] is the do-while over the containers. *)
Fixpoint from_range_big (fuel : nat) (value max step : Z) (answer : bitmap) : option bitmap :=
  match fuel with
  | O => None
  | S f => if value <? max then from_range_big f (u32 (value + step)) max step (roaring_bitmap_add answer value)
           else Some answer
  end.
Fixpoint from_range_loop (fuel : nat) (min_tmp max step : Z) (answer : bitmap) : option bitmap :=
  match fuel with
  | O => None
  | S f =>
    let key := Z.shiftr min_tmp 16 in
    let container_min := Z.land min_tmp 65535 in
    let container_max := Z.min (max - Z.shiftl key 16) 65536 in
    match container_from_range container_min container_max step with
    | None => None
    | Some container =>
      let answer' := answer ++ [(key, container)] in
      let gap := container_max - container_min + step - 1 in
      let min_tmp' := min_tmp + (gap - gap mod step) in
      if min_tmp' <? max then from_range_loop f min_tmp' max step answer' else Some answer'
    end
  end.
(** outer None: not terminated within the fuel; [Some None]: NULL *)
Definition roaring_bitmap_from_range (fuel : nat) (min max step : Z) : option (option bitmap) :=
  let max := if 2^32 <=? max then 2^32 else max in
  if step =? 0 then Some None
  else if max <=? min then Some None
  else if 65536 <=? step then option_map Some (from_range_big fuel min max step [])
  else option_map Some (from_range_loop fuel min max step []).

(** roaring.c:1341-1390 roaring_bitmap_range_cardinality_closed; 1331-1339 the
    half-open version *)
Fixpoint range_card_loop (fuel : nat) (r : bitmap) (i maxhb range_end card : Z) : Z :=
  match fuel with
  | O => card
  | S f =>
    if i <? zlen r then
      let key := rkey r i in
      if key <? maxhb then range_card_loop f r (i + 1) maxhb range_end (card + container_get_cardinality (rcon r i))
      else if key =? maxhb then card + container_rank (rcon r i) (Z.land range_end 65535)
      else card
    else card
  end.
Definition roaring_bitmap_range_cardinality_closed (r : bitmap) (range_start range_end : Z) : Z :=
  if range_end <? range_start then 0
  else
    let minhb := Z.shiftr range_start 16 in
    let maxhb := Z.shiftr range_end 16 in
    let i := ra_get_index r minhb in
    if 0 <=? i then
      let card := if minhb =? maxhb then container_rank (rcon r i) (Z.land range_end 65535)
                  else container_get_cardinality (rcon r i) in
      let card := if negb (Z.land range_start 65535 =? 0)
                  then card - container_rank (rcon r i) (Z.land range_start 65535 - 1) else card in
      range_card_loop (S (length r)) r (i + 1) maxhb range_end card
    else range_card_loop (S (length r)) r (- i - 1) maxhb range_end 0.
Definition roaring_bitmap_range_cardinality (r : bitmap) (range_start range_end : Z) : Z :=
  if (range_end <=? range_start) || (2^32 <? range_start) then 0
  else roaring_bitmap_range_cardinality_closed r (u32 range_start) (u32 (range_end - 1)).

(** roaring.c:2863-2907 roaring_bitmap_contains_range_closed; 2850-2857 half-open *)
Fixpoint all_full (n : nat) (r : bitmap) (i : Z) : bool :=
  match n with
  | O => true
  | S m => if negb (container_is_full (rcon r i)) then false else all_full m r (i + 1)
  end.
Definition roaring_bitmap_contains_range_closed (r : bitmap) (range_start range_end : Z) : bool :=
  if range_end <? range_start then true
  else if range_end =? range_start then roaring_bitmap_contains r range_start
  else
    let hb_rs := Z.shiftr range_start 16 in
    let hb_re := Z.shiftr range_end 16 in
    let span := hb_re - hb_rs in
    let hlc_sz := zlen r in
    if hlc_sz <? span + 1 then false
    else
      let is_ := ra_get_index r hb_rs in
      let ie := ra_get_index r hb_re in
      if (ie <? 0) || (is_ <? 0) || negb (ie - is_ =? span) || (hlc_sz <=? ie) then false
      else
        let lb_rs := Z.land range_start 65535 in
        let lb_re := Z.land range_end 65535 + 1 in
        if hb_rs =? hb_re then container_contains_range (rcon r is_) lb_rs lb_re
        else if negb (container_contains_range (rcon r is_) lb_rs 65536) then false
        else if negb (container_contains_range (rcon r ie) 0 lb_re) then false
        else all_full (Z.to_nat (ie - (is_ + 1))) r (is_ + 1).
Definition roaring_bitmap_contains_range (r : bitmap) (range_start range_end : Z) : bool :=
  if (range_end <=? range_start) || (2^32 <? range_start) then true
  else roaring_bitmap_contains_range_closed r (u32 range_start) (u32 (range_end - 1)).

(** roaring_array.c:244-250 ra_append_copies_until; 273-281 ra_append_copies_after *)
Fixpoint ra_append_copies_until (sa : bitmap) (stopping_key : Z) : bitmap :=
  match sa with
  | [] => []
  | (k, c) :: t => if stopping_key <=? k then [] else (k, c) :: ra_append_copies_until t stopping_key
  end.
Definition ra_append_copies_after (ra sa : bitmap) (before_start : Z) : bitmap :=
  let start_location := ra_get_index sa before_start in
  let start_location := if 0 <=? start_location then start_location + 1 else - start_location - 1 in
  ra_append_copy_range ra sa start_location (zlen sa).
(** roaring.c:1909-1935 insert_flipped_container; 1964-1987 insert_fully_flipped_container *)
Definition insert_flipped_container (ans x1 : bitmap) (hb lb_start lb_end : Z) : bitmap :=
  let i := ra_get_index x1 hb in
  let j := ra_get_index ans hb in
  if 0 <=? i then
    let flipped := container_not_range (rcon x1 i) lb_start (lb_end + 1) in
    if negb (container_get_cardinality flipped =? 0) then ra_insert_new_key_value_at ans (- j - 1) hb flipped else ans
  else ra_insert_new_key_value_at ans (- j - 1) hb (container_range_of_ones lb_start (lb_end + 1)).
Definition insert_fully_flipped_container (ans x1 : bitmap) (hb : Z) : bitmap :=
  let i := ra_get_index x1 hb in
  let j := ra_get_index ans hb in
  if 0 <=? i then
    let flipped := container_not (rcon x1 i) in
    if negb (container_get_cardinality flipped =? 0) then ra_insert_new_key_value_at ans (- j - 1) hb flipped else ans
  else ra_insert_new_key_value_at ans (- j - 1) hb (container_range_of_ones 0 65536).
(** roaring.c:1937-1962 inplace_flip_container; 1989-2011 inplace_fully_flip_container.
    [cap k] stands for the capacity of the run container at key k. *)
Definition inplace_flip_container (cap : Z -> Z) (x1 : bitmap) (hb lb_start lb_end : Z) : bitmap :=
  let i := ra_get_index x1 hb in
  if 0 <=? i then
    let flipped := container_inot_range (cap hb) (rcon x1 i) lb_start (lb_end + 1) in
    if negb (container_get_cardinality flipped =? 0) then ra_set_container_at_index x1 i flipped
    else ra_remove_at_index x1 i
  else ra_insert_new_key_value_at x1 (- i - 1) hb (container_range_of_ones lb_start (lb_end + 1)).
Definition inplace_fully_flip_container (cap : Z -> Z) (x1 : bitmap) (hb : Z) : bitmap :=
  let i := ra_get_index x1 hb in
  if 0 <=? i then
    let flipped := container_inot (cap hb) (rcon x1 i) in
    if negb (container_get_cardinality flipped =? 0) then ra_set_container_at_index x1 i flipped
    else ra_remove_at_index x1 i
  else ra_insert_new_key_value_at x1 (- i - 1) hb (container_range_of_ones 0 65536).
(** roaring.c:2023-2073 roaring_bitmap_flip_closed and 2084-2120
    roaring_bitmap_flip_inplace_closed share the same control structure:
    [part hb lo hi] handles a partial container, [full hb] a full one; the loop
    runs over hb = hb_start .. hb_end *)
Fixpoint flip_full_loop (full : bitmap -> Z -> bitmap) (n : nat) (hb : Z) (ans : bitmap) : bitmap :=
  match n with O => ans | S m => flip_full_loop full m (hb + 1) (full ans hb) end.
Definition flip_body (part : bitmap -> Z -> Z -> Z -> bitmap) (full : bitmap -> Z -> bitmap)
    (ans : bitmap) (hb_start lb_start hb_end lb_end : Z) : bitmap :=
  if hb_start =? hb_end then part ans hb_start lb_start lb_end
  else
    let '(ans, hb_start) := if 0 <? lb_start then (part ans hb_start lb_start 65535, hb_start + 1) else (ans, hb_start) in
    let hb_end := if negb (lb_end =? 65535) then hb_end - 1 else hb_end in
    let ans := flip_full_loop full (Z.to_nat (hb_end + 1 - hb_start)) hb_start ans in
    if negb (lb_end =? 65535) then part ans (hb_end + 1) 0 lb_end else ans.
Definition roaring_bitmap_flip_closed (x1 : bitmap) (range_start range_end : Z) : bitmap :=
  if range_end <? range_start then x1
  else
    let hb_start := Z.shiftr range_start 16 in
    let lb_start := u16 range_start in
    let hb_end := Z.shiftr range_end 16 in
    let lb_end := u16 range_end in
    let ans := ra_append_copies_until x1 hb_start in
    let ans := flip_body (fun a => insert_flipped_container a x1) (fun a => insert_fully_flipped_container a x1)
                 ans hb_start lb_start hb_end lb_end in
    ra_append_copies_after ans x1 hb_end.
(** roaring.c:2013-2021 roaring_bitmap_flip *)
Definition roaring_bitmap_flip (x1 : bitmap) (range_start range_end : Z) : bitmap :=
  if (range_end <=? range_start) || (2^32 <? range_start) then x1
  else roaring_bitmap_flip_closed x1 (u32 range_start) (u32 (range_end - 1)).
Definition roaring_bitmap_flip_inplace_closed (cap : Z -> Z) (x1 : bitmap) (range_start range_end : Z) : bitmap :=
  if range_end <? range_start then x1
  else flip_body (inplace_flip_container cap) (inplace_fully_flip_container cap)
         x1 (Z.shiftr range_start 16) (u16 range_start) (Z.shiftr range_end 16) (u16 range_end).
(** roaring.c:2075-2082 roaring_bitmap_flip_inplace *)
Definition roaring_bitmap_flip_inplace (cap : Z -> Z) (x1 : bitmap) (range_start range_end : Z) : bitmap :=
  if (range_end <=? range_start) || (2^32 <? range_start) then x1
  else roaring_bitmap_flip_inplace_closed cap x1 (u32 range_start) (u32 (range_end - 1)).

(** ** Proofs *)
Lemma split_at C lo r x : gok C lo r -> exists a b, r = a ++ b /\ (forall y, In y (rkeys a) -> y < x) /\ (forall y, In y (rkeys b) -> x <= y) /\
  zlen a = lb (rkeys r) x /\ gok C lo a /\ gok C lo b.
Proof.
  intros G. assert (I := gok_incr _ _ _ G). pose proof (lb_bound (rkeys r) x) as Bd. rewrite zlen_rkeys in Bd.
  exists (zfirst (lb (rkeys r) x) r), (zdrop (lb (rkeys r) x) r). split; [now rewrite zfirst_zdrop|]. 
  split; [|split; [|split; [apply zfirst_zlen; lia|split; [now apply gok_zfirst|now apply gok_zdrop]]]].
  - intros y Hy. apply In_znth in Hy as (q&Hq&E). rewrite zlen_rkeys, zfirst_zlen in Hq by lia.
    rewrite <- E. replace (znth (rkeys (zfirst (lb (rkeys r) x) r)) q) with (znth (rkeys r) q).
    + apply lb_lt; auto.
    + rewrite <- (zfirst_zdrop (lb (rkeys r) x) r) at 1. rewrite rkeys_app. apply znth_app1. rewrite zlen_rkeys, zfirst_zlen; lia.
  - intros y Hy. apply In_znth in Hy as (q&Hq&E). rewrite zlen_rkeys, zdrop_zlen in Hq by lia.
    rewrite <- E. rewrite rkeys_zdrop. change (zdrop (lb (rkeys r) x) (rkeys r)) with (zskip (lb (rkeys r) x) (rkeys r)). replace (znth (zskip (lb (rkeys r) x) (rkeys r)) q) with (znth (rkeys r) (lb (rkeys r) x + q)).
    + apply (lb_ge (rkeys r) x); auto. rewrite zlen_rkeys. lia.
    + symmetry. apply znth_zskip; lia.
Qed.
Definition rng (lo hi k x : Z) : bool := (lo <=? 65536 * k + x) && (65536 * k + x <=? hi).
Lemma rng_part lo hi k x : 0 <= lo <= hi -> hi < 2^32 -> lo / 65536 <= k <= hi / 65536 -> 0 <= x < 65536 ->
  rng lo hi k x = ((if lo / 65536 =? k then lo mod 65536 else 0) <=? x) && (x <=? (if hi / 65536 =? k then hi mod 65536 else 65535)).
Proof.
  intros. unfold rng. destruct (Z.eqb_spec (lo / 65536) k), (Z.eqb_spec (hi / 65536) k); f_equal; dm.
Qed.
Lemma rng_out lo hi k x : 0 <= lo <= hi -> 0 <= x < 65536 -> ~ (lo / 65536 <= k <= hi / 65536) -> rng lo hi k x = false.
Proof. intros. unfold rng. apply andb_false_iff. dm. Qed.
Lemma part_bounds lo hi k : 0 <= lo <= hi -> hi < 2^32 -> lo / 65536 <= k <= hi / 65536 ->
  0 <= (if lo / 65536 =? k then lo mod 65536 else 0) <= (if hi / 65536 =? k then hi mod 65536 else 65535) /\
  (if hi / 65536 =? k then hi mod 65536 else 65535) < 65536.
Proof. intros. destruct (Z.eqb_spec (lo / 65536) k), (Z.eqb_spec (hi / 65536) k); dm. Qed.

Lemma snoc_cases {A} (l : list A) : l = [] \/ exists l' a, l = l' ++ [a].
Proof. destruct (rev l) as [|a t] eqn:E; [left|right; exists (rev t), a]; apply (f_equal (@rev A)) in E; rewrite rev_involutive in E; auto. Qed.
Lemma cons_snoc {A} (a : A) l : exists l' b, a :: l = l' ++ [b] /\ zlen l' = zlen l.
Proof.
  destruct (snoc_cases (a :: l)) as [E|(l'&b&E)]; [discriminate|]. exists l', b. split; auto.
  apply (f_equal zlen) in E. rewrite zlen_cons, zlen_app, zlen_cons in E. change (zlen (@nil A)) with 0 in E. lia.
Qed.
Lemma replace_at pre e post k c i : zlen pre = i -> ra_replace_key_and_container_at_index (pre ++ e :: post) i k c = pre ++ (k, c) :: post.
Proof. intros <-. destruct e. apply replace_at_mid. Qed.
Lemma gok_keys_len lo hi (r : bitmap) : gok cok lo r -> (forall y, In y (rkeys r) -> y < hi) -> lo <= hi -> zlen r <= hi - lo.
Proof.
  intros (A&B&_) H Hl. rewrite <- zlen_rkeys. apply incr_inb_len; auto. apply Forall_forall. intros y Hy. specialize (H y Hy).
  pose proof (inb_In _ _ _ _ B Hy). lia.
Qed.
Lemma gok_snoc lo hi (r : bitmap) c : gok cok lo r -> (forall y, In y (rkeys r) -> y < hi) -> lo <= hi < 65536 -> cok c -> gok cok lo (r ++ [(hi, c)]).
Proof.
  intros. apply gok_app. split; auto. split. { apply gok_cons. split; [lia|]. split; auto. apply gok_nil. }
  intros x y Hx [Hy|[]]. cbn in Hy. subst. auto.
Qed.
Lemma gok_lastlt (lo : Z) (r : bitmap) k c : gok cok lo (r ++ [(k, c)]) -> gok cok lo r /\ cok c /\ lo <= k < 65536 /\ forall y, In y (rkeys r) -> y < k.
Proof.
  intros G. apply gok_app in G as (G1&G2&G3). apply gok_cons in G2 as (G2&G4&_). split; auto. split; auto. split; auto.
  intros y Hy. apply G3; auto. now left.
Qed.
Lemma km_snoc (r : bitmap) hi c k x : (forall y, In y (rkeys r) -> y < hi) -> km (r ++ [(hi, c)]) k x = if k =? hi then cmem c x else km r k x.
Proof.
  intros H. destruct (Z.eqb_spec k hi).
  - subst. rewrite km_app_r by now apply not_below. apply km_head.
  - apply km_app_l. intros [E|[]]. cbn in E. lia.
Qed.
Lemma add_range_loop_spec min max A n M1 J D (min_key := min / 65536) (max_key := max / 65536) :
  0 <= min <= max -> max < 2^32 -> (forall y, In y (rkeys A) -> y < min_key) ->
  gok cok min_key M1 -> (forall y, In y (rkeys M1) -> y < min_key + Z.of_nat n) ->
  zlen M1 + zlen J = Z.of_nat n -> min_key + Z.of_nat n <= max_key + 1 ->
  exists D', add_range_loop n (A ++ M1 ++ J ++ D) min max min_key max_key (zlen A + zlen M1 - 1) (zlen A + Z.of_nat n - 1) = A ++ D' ++ D /\
   gok cok min_key D' /\ (forall y, In y (rkeys D') -> y < min_key + Z.of_nat n) /\
   (forall k x, min_key <= k < min_key + Z.of_nat n -> 0 <= x < 65536 -> km D' k x = km M1 k x || rng min max k x).
Proof.
  intros Hmm Hmx HA. revert M1 J D. induction n as [|n IH]; intros M1 J D GM KM HL Hn.
  - pose proof (zlen_nonneg M1). pose proof (zlen_nonneg J). assert (M1 = []) by (apply zlen_0_nil; lia).
    assert (J = []) by (apply zlen_0_nil; lia). subst. exists []. cbn. split; auto. split; [apply gok_nil|].
    split; [intros ? []|]. intros. lia.
  - cbn [add_range_loop]. set (key := min_key + Z.of_nat n).
    assert (MK : 0 <= min_key /\ max_key < 65536) by (unfold min_key, max_key; dm).
    assert (LM : forall v, 0 <= v < 2^32 -> Z.land v 65535 = v mod 65536) by (intros; apply val_split; auto).
    rewrite !LM by lia.
    destruct (part_bounds min max key Hmm Hmx ltac:(fold min_key max_key; lia)) as [P1 P2].
    pose proof (fun x => rng_part min max key x Hmm Hmx ltac:(fold min_key max_key; lia)) as P3.
    fold min_key max_key in P1, P2, P3.
    set (cmin := if min_key =? key then min mod 65536 else 0) in *.
    set (cmax := if max_key =? key then max mod 65536 else 65535) in *.
    assert (HIT : (exists M1' c, M1 = M1' ++ [(key, c)]) \/ ((forall y, In y (rkeys M1) -> y < key) /\ (exists J2 e, J = J2 ++ [e]) /\
       (0 <=? zlen A + zlen M1 - 1) && (rkey (A ++ M1 ++ J ++ D) (zlen A + zlen M1 - 1) =? key) = false)).
    { destruct (snoc_cases M1) as [E|(M1'&[k c]&E)].
      - right. subst M1. split; [intros ? []|]. split.
        + destruct (snoc_cases J) as [E|(J2&e&E)]; [|eauto]. subst J. change (zlen (@nil entry)) with 0 in HL. lia.
        + change (zlen (@nil entry)) with 0. cbn [app]. destruct (snoc_cases A) as [E|(A'&[k c]&E)].
          * subst A. reflexivity.
          * apply andb_false_iff. right. subst A. rewrite zlen_app. change (zlen [(k, c)]) with 1.
            replace (zlen A' + 1 + 0 - 1) with (zlen A') by lia. rewrite <- app_assoc. cbn [app]. rewrite rkey_mid.
            assert (k < min_key) by (apply HA; rewrite rkeys_app; apply in_or_app; right; now left). lia.
      - assert (Hk : k <= key). { specialize (KM k). rewrite E, rkeys_app in KM. cbn in KM. rewrite in_app_iff in KM. cbn in KM. specialize (KM ltac:(auto)). lia. }
        destruct (Z.eq_dec k key) as [Ek|Ek]. { left. subst k. eauto. }
        right. assert (KM' : forall y, In y (rkeys M1) -> y < key).
        { intros y Hy. rewrite E in GM, Hy. apply gok_lastlt in GM as (_&_&_&GL). rewrite rkeys_app, in_app_iff in Hy.
          destruct Hy as [Hy|[Hy|[]]]; [specialize (GL y Hy); lia|cbn in Hy; lia]. }
        split; auto. split.
        + destruct (snoc_cases J) as [EJ|(J2&e&EJ)]; [|eauto]. subst J. change (zlen (@nil entry)) with 0 in HL.
          pose proof (gok_keys_len min_key key M1 GM KM' ltac:(lia)). lia.
        + apply andb_false_iff. right. subst M1. rewrite zlen_app. change (zlen [(k, c)]) with 1.
          replace (zlen A + (zlen M1' + 1) - 1) with (zlen (A ++ M1')) by (rewrite zlen_app; lia).
          replace (A ++ (M1' ++ [(k, c)]) ++ J ++ D) with ((A ++ M1') ++ (k, c) :: J ++ D) by (rewrite <- !app_assoc; reflexivity).
          rewrite rkey_mid. lia. }
    assert (FIN : forall M1'' J2 c', gok cok min_key M1'' -> (forall y, In y (rkeys M1'') -> y < key) -> zlen M1'' + zlen J2 = Z.of_nat n ->
       cok c' -> (forall x, 0 <= x < 65536 -> cmem c' x = km M1 key x || rng min max key x) ->
       (forall k x, k < key -> km M1'' k x = km M1 k x) ->
       exists D', add_range_loop n (A ++ M1'' ++ J2 ++ (key, c') :: D) min max min_key max_key (zlen A + zlen M1'' - 1) (zlen A + Z.of_nat n - 1) = A ++ D' ++ D /\
        gok cok min_key D' /\ (forall y, In y (rkeys D') -> y < min_key + Z.of_nat (S n)) /\
        (forall k x, min_key <= k < min_key + Z.of_nat (S n) -> 0 <= x < 65536 -> km D' k x = km M1 k x || rng min max k x)).
    { intros M1'' J2 c' F1 F2 F3 F4 F5 F6. destruct (IH M1'' J2 ((key, c') :: D) F1 F2 F3 ltac:(lia)) as (D'&R1&R2&R3&R4).
      exists (D' ++ [(key, c')]). split. { rewrite R1. rewrite <- app_assoc. reflexivity. }
      split. { apply gok_snoc; auto; lia. }
      split. { intros y Hy. rewrite rkeys_app, in_app_iff in Hy. destruct Hy as [Hy|[Hy|[]]]; [specialize (R3 y Hy); lia|cbn in Hy; lia]. }
      intros k x Hk Hx. rewrite km_snoc by auto. destruct (Z.eqb_spec k key) as [E|E]; [subst; auto|]. rewrite R4 by lia. rewrite F6 by lia. auto. }
    destruct HIT as [(M1'&c&E)|(KM'&(J2&e&EJ)&EF)].
    + subst M1. rewrite zlen_app in *. change (zlen [(key, c)]) with 1 in *.
      replace (zlen A + (zlen M1' + 1) - 1) with (zlen (A ++ M1')) by (rewrite zlen_app; lia).
      replace (A ++ (M1' ++ [(key, c)]) ++ J ++ D) with ((A ++ M1') ++ (key, c) :: J ++ D) by (rewrite <- !app_assoc; reflexivity).
      rewrite rkey_mid, rcon_mid, Z.eqb_refl. pose proof (zlen_nonneg (A ++ M1')). replace (0 <=? zlen (A ++ M1')) with true by lia. cbn [andb].
      apply gok_lastlt in GM as (G1&G2&G3&G4).
      destruct (container_add_range_spec c cmin cmax G2 P1 P2) as [O1 O2].
      destruct (cons_snoc (key, c) J) as (J2&e&EJ&LJ).
      replace ((A ++ M1') ++ (key, c) :: J ++ D) with ((A ++ M1' ++ J2) ++ e :: D)
        by (change ((key, c) :: J ++ D) with (((key, c) :: J) ++ D); rewrite EJ; rewrite <- !app_assoc; reflexivity).
      rewrite replace_at by (rewrite !zlen_app; lia).
      replace (zlen (A ++ M1') - 1) with (zlen A + zlen M1' - 1) by (rewrite zlen_app; lia).
      replace (zlen A + Z.of_nat (S n) - 1 - 1) with (zlen A + Z.of_nat n - 1) by lia.
      replace ((A ++ M1' ++ J2) ++ (key, container_add_range c cmin cmax) :: D) with (A ++ M1' ++ J2 ++ (key, container_add_range c cmin cmax) :: D)
        by (rewrite <- !app_assoc; reflexivity).
      apply FIN; auto; try lia.
      * intros x Hx. rewrite O2 by auto. rewrite (km_snoc M1' key c key x) by auto. rewrite Z.eqb_refl, P3 by auto. reflexivity.
      * intros k x Hk. rewrite (km_snoc M1' key c k x) by auto. replace (k =? key) with false by lia. reflexivity.
    + rewrite EF. destruct (container_from_range_spec cmin (cmax + 1) 1 ltac:(lia) ltac:(lia) ltac:(lia)) as (c'&E'&O1&O2). rewrite E'.
      subst J. rewrite zlen_app in HL. change (zlen [e]) with 1 in HL.
      replace (A ++ M1 ++ (J2 ++ [e]) ++ D) with ((A ++ M1 ++ J2) ++ e :: D) by (rewrite <- !app_assoc; reflexivity).
      rewrite replace_at by (rewrite !zlen_app; lia).
      replace (zlen A + Z.of_nat (S n) - 1 - 1) with (zlen A + Z.of_nat n - 1) by lia.
      replace ((A ++ M1 ++ J2) ++ (key, c') :: D) with (A ++ M1 ++ J2 ++ (key, c') :: D) by (rewrite <- !app_assoc; reflexivity).
      apply FIN; auto; try lia.
      intros x Hx. rewrite O2 by auto. rewrite P3 by auto. unfold stepin. rewrite Z.mod_1_r. change (0 =? 0) with true. rewrite andb_true_r.
      assert (ENM : km M1 key x = false) by (unfold km; rewrite look_none; auto; now apply not_below). rewrite ENM. cbn [orb]. f_equal. lia.
Qed.
Lemma shift_tail_pos a b d : 0 < d -> exists J, ra_shift_tail (a ++ b) (zlen b) d = a ++ J ++ b /\ zlen J = d.
Proof.
  intros. unfold ra_shift_tail. replace (0 <? d) with true by lia. replace (zlen (a ++ b) - zlen b) with (zlen a) by (rewrite zlen_app; lia).
  rewrite zfirst_app, zdrop_app by auto. eexists. split; [reflexivity|]. apply zfirst_zlen.
  rewrite zlen_app. unfold zlen. rewrite repeat_length. lia.
Qed.
Theorem roaring_bitmap_add_range_closed_spec r min max : bok r -> 0 <= min < 2^32 -> 0 <= max < 2^32 ->
  rspec (roaring_bitmap_add_range_closed r min max) (fun k x => km r k x || rng min max k x).
Proof.
  intros B Hmin Hmax. unfold roaring_bitmap_add_range_closed. destruct (Z.ltb_spec max min).
  - eapply bmrep_ext; [apply bmrep_self; exact B|]. intros. cbn beta. replace (rng min max k x) with false; [now rewrite orb_false_r|].
    unfold rng. symmetry. apply andb_false_iff. lia.
  - destruct (val_split min Hmin) as (E1&_&K1&_). destruct (val_split max Hmax) as (E2&_&K2&_). rewrite E1, E2.
    set (min_key := min / 65536) in *. set (max_key := max / 65536) in *.
    assert (KK : min_key <= max_key) by (unfold min_key, max_key; dm).
    assert (I := gok_incr _ _ _ B). rewrite count_greater_spec by auto. rewrite zlen_rkeys.
    destruct (split_at cok 0 r (max_key + 1) B) as (AB&S&E&L1&G1&Z1&GAB&GS).
    destruct (split_at cok 0 AB min_key GAB) as (A&M&EA&L2&G2&Z2&GA&GM).
    rewrite <- Z1. replace (zlen r - (zlen r - zlen AB)) with (zlen AB) by lia.
    assert (ET : ztake (zlen AB) (rkeys r) = rkeys AB).
    { rewrite E, rkeys_app. apply (zfirst_app (zlen AB) (rkeys AB)). apply zlen_rkeys. }
    rewrite ET. rewrite count_less_spec by (apply (gok_incr _ _ _ GAB)). rewrite <- Z2. cbn zeta.
    assert (ZR : zlen r = zlen A + zlen M + zlen S) by (rewrite E, EA, !zlen_app; lia).
    assert (ZA : zlen AB = zlen A + zlen M) by (rewrite EA, zlen_app; lia).
    replace (zlen r - zlen AB) with (zlen S) by lia. replace (zlen r - zlen A - zlen S) with (zlen M) by lia.
    assert (GM' : gok cok min_key M).
    { destruct GM as (X&Y&W). split; auto. split; auto. apply Forall_forall. intros y Hy. specialize (G2 y Hy). pose proof (inb_In _ _ _ _ Y Hy). lia. }
    assert (KM : forall y, In y (rkeys M) -> y < max_key + 1) by (intros; apply L1; rewrite EA, rkeys_app, in_app_iff; auto).
    pose proof (gok_keys_len min_key (max_key + 1) M GM' KM ltac:(lia)) as ZM.
    assert (EX : exists J, (if zlen M <? max_key - min_key + 1 then ra_shift_tail r (zlen S) (max_key - min_key + 1 - zlen M) else r)
       = A ++ M ++ J ++ S /\ zlen M + zlen J = max_key - min_key + 1).
    { destruct (Z.ltb_spec (zlen M) (max_key - min_key + 1)).
      - rewrite E. destruct (shift_tail_pos AB S (max_key - min_key + 1 - zlen M) ltac:(lia)) as (J&EJ&ZJ). exists J. rewrite EJ, EA.
        rewrite <- app_assoc. split; auto. lia.
      - exists []. rewrite E, EA. rewrite <- app_assoc. split; auto. change (zlen (@nil entry)) with 0. lia. }
    destruct EX as (J&EJ&ZJ). rewrite EJ.
    replace (zlen (A ++ M ++ J ++ S) - zlen S - 1) with (zlen A + Z.of_nat (Z.to_nat (max_key - min_key + 1)) - 1) by (rewrite !zlen_app; lia).
    destruct (add_range_loop_spec min max A (Z.to_nat (max_key - min_key + 1)) M J S ltac:(lia) ltac:(lia) L2 GM')
      as (D'&R1&R2&R3&R4); try (fold min_key max_key; lia).
    { intros y Hy. specialize (KM y Hy). fold min_key. lia. }
    fold min_key max_key in R1, R2, R3, R4. rewrite R1.
    apply (bmrep_app cok 0 min_key); auto; try lia.
    + intros k y Hk Hy. rewrite rng_out by (fold min_key max_key; lia). rewrite orb_false_r. rewrite E, EA, <- app_assoc.
      symmetry. apply km_app_l. rewrite rkeys_app, in_app_iff. intros [Hin|Hin]; [specialize (G2 _ Hin)|specialize (G1 _ Hin)]; lia.
    + apply (bmrep_app cok min_key (max_key + 1)); auto; try lia.
      * intros y Hy. specialize (R3 y Hy). lia.
      * intros k y Hk Hy. rewrite R4 by lia. f_equal. rewrite E, EA, <- app_assoc.
        rewrite km_app_r by (intros Hin; specialize (L2 _ Hin); lia). symmetry. apply km_app_l. intros Hin. specialize (G1 _ Hin). lia.
      * split.
        -- destruct GS as (X&Y&W). split; auto. split; auto. apply Forall_forall. intros y Hy. specialize (G1 y Hy). pose proof (inb_In _ _ _ _ Y Hy). lia.
        -- intros k x Hk Hx. rewrite rng_out by (fold min_key max_key; lia). rewrite orb_false_r. rewrite E.
           symmetry. apply km_app_r. intros Hin. specialize (L1 _ Hin). lia.
Qed.

(** ** remove_range *)
Lemma shift_tail_neg pre junk rest : ra_shift_tail (pre ++ junk ++ rest) (zlen rest) (zlen pre - zlen (pre ++ junk)) = pre ++ rest.
Proof.
  unfold ra_shift_tail. pose proof (zlen_nonneg junk). rewrite !zlen_app. replace (0 <? zlen pre - (zlen pre + zlen junk)) with false by lia.
  replace (zlen pre + (zlen junk + zlen rest) - zlen rest + (zlen pre - (zlen pre + zlen junk))) with (zlen pre) by lia.
  replace (zlen pre + (zlen junk + zlen rest) - zlen rest) with (zlen (pre ++ junk)) by (rewrite zlen_app; lia).
  rewrite zfirst_app by auto. f_equal. rewrite app_assoc. now apply zdrop_app.
Qed.
Lemma junk_step (out junk rest : bitmap) s1 c1 c : exists junk', ra_replace_key_and_container_at_index (out ++ junk ++ (s1, c1) :: rest) (zlen out) s1 c
   = (out ++ [(s1, c)]) ++ junk' ++ rest /\ zlen junk' = zlen junk.
Proof.
  unfold ra_replace_key_and_container_at_index. destruct junk as [|j junk0].
  - exists []. cbn [app]. rewrite zupd_app by auto. rewrite <- app_assoc. auto.
  - exists (junk0 ++ [(s1, c1)]). cbn [app]. rewrite zupd_app by auto. rewrite <- !app_assoc. cbn [app]. split; auto.
    rewrite zlen_app, !zlen_cons. reflexivity.
Qed.
Lemma remove_range_loop_spec min max fuel out junk rest lo (min_key := min / 65536) (max_key := max / 65536) :
  0 <= min <= max -> max < 2^32 -> gok cok lo rest -> min_key <= lo -> zlen rest < Z.of_nat fuel ->
  exists res, remove_range_loop fuel (out ++ junk ++ rest) min max min_key max_key (zlen (out ++ junk)) (zlen out) = out ++ res /\
  bmrep cok lo res (fun k x => km rest k x && negb (rng min max k x)).
Proof.
  intros Hmm Hmx. revert out junk rest lo. induction fuel as [|fu IH]; intros out junk rest lo G Hlo Hfu; [pose proof (zlen_nonneg rest); lia|].
  cbn [remove_range_loop]. pose proof (zlen_nonneg out). pose proof (zlen_nonneg junk). pose proof (zlen_nonneg rest).
  assert (LM : forall v, 0 <= v < 2^32 -> Z.land v 65535 = v mod 65536) by (intros; apply val_split; auto).
  assert (FIN : forall rest, (if zlen out <? zlen (out ++ junk) then ra_shift_tail (out ++ junk ++ rest) (zlen (out ++ junk ++ rest) - zlen (out ++ junk)) (zlen out - zlen (out ++ junk)) else out ++ junk ++ rest) = out ++ rest).
  { intros. destruct (Z.ltb_spec (zlen out) (zlen (out ++ junk))) as [L|L].
    - replace (zlen (out ++ junk ++ rest0) - zlen (out ++ junk)) with (zlen rest0) by (rewrite !zlen_app; lia). apply shift_tail_neg.
    - assert (junk = []) by (apply zlen_0_nil; rewrite zlen_app in L; lia). subst. reflexivity. }
  rewrite FIN. destruct rest as [|[s1 c1] rest].
  - rewrite !app_nil_r. replace (zlen (out ++ junk) <? zlen (out ++ junk)) with false by lia. cbn [andb]. exists [].
    rewrite app_nil_r. split; auto. apply bmrep_nil. auto.
  - rewrite zlen_cons in Hfu. pose proof (zlen_nonneg rest).
    replace (zlen (out ++ junk) <? zlen (out ++ junk ++ (s1, c1) :: rest)) with true by (rewrite !zlen_app, zlen_cons; lia).
    assert (EK : rkey (out ++ junk ++ (s1, c1) :: rest) (zlen (out ++ junk)) = s1) by (rewrite app_assoc; apply rkey_mid).
    assert (EC : rcon (out ++ junk ++ (s1, c1) :: rest) (zlen (out ++ junk)) = c1) by (rewrite app_assoc; apply rcon_mid).
    rewrite !EK, !EC. clear EK EC. cbn [andb]. destruct (Z.leb_spec s1 max_key) as [L|L].
    + pose proof G as G0. apply gok_cons in G as (K&D&T). rewrite !LM by lia.
      destruct (part_bounds min max s1 Hmm Hmx ltac:(fold min_key max_key; lia)) as [P1 P2].
      pose proof (fun x => rng_part min max s1 x Hmm Hmx ltac:(fold min_key max_key; lia)) as P3.
      fold min_key max_key in P1, P2, P3.
      set (cmin := if min_key =? s1 then min mod 65536 else 0) in *.
      set (cmax := if max_key =? s1 then max mod 65536 else 65535) in *.
      pose proof (container_remove_range_spec c1 cmin cmax D P1 P2) as R.
      destruct (container_remove_range c1 cmin cmax) as [c|].
      * destruct (junk_step out junk rest s1 c1 c) as (junk'&EX&EJ). rewrite EX. destruct R as [O1 O2].
        destruct (IH (out ++ [(s1, c)]) junk' rest (s1 + 1) T ltac:(lia) ltac:(lia)) as (res&R1&R2).
        replace (zlen ((out ++ [(s1, c)]) ++ junk')) with (zlen (out ++ junk) + 1) in R1
          by (rewrite !zlen_app, zlen_cons; change (zlen (@nil entry)) with 0; lia).
        replace (zlen (out ++ [(s1, c)])) with (zlen out + 1) in R1 by (rewrite zlen_app; reflexivity).
        rewrite R1. exists ((s1, c) :: res). split; [now rewrite <- app_assoc|].
        apply bmrep_cons; auto.
        -- intros x Hx. rewrite km_head, P3 by auto. apply O2; auto.
        -- intros j x Hj Hx. rewrite km_tail by lia. kmb T. auto.
        -- eapply bmrep_ext; [apply R2|]. intros. cbn beta. now rewrite !km_tail by lia.
      * destruct (IH out (junk ++ [(s1, c1)]) rest (s1 + 1) T ltac:(lia) ltac:(lia)) as (res&R1&R2).
        replace (zlen (out ++ junk ++ [(s1, c1)])) with (zlen (out ++ junk) + 1) in R1
          by (rewrite !zlen_app, zlen_cons; change (zlen (@nil entry)) with 0; lia).
        rewrite <- !app_assoc in R1. cbn [app] in R1. exists res. split; auto.
        apply (bmrep_emit cok lo s1 None); auto.
        -- intros x Hx. rewrite km_head, P3 by auto. apply R; auto.
        -- intros j x Hj Hx. rewrite !km_tail by lia. kmb T. auto.
        -- eapply bmrep_ext; [apply R2|]. intros. cbn beta. now rewrite !km_tail by lia.
    + exists ((s1, c1) :: rest). split; auto. eapply bmrep_ext; [apply bmrep_self; exact G|].
      intros k x Hk Hx. cbn beta. apply gok_cons in G as (K&D&T). destruct (Z_lt_dec k s1).
      * rewrite km_tail by lia. kmb T. auto.
      * rewrite rng_out by (fold min_key max_key; lia). now rewrite andb_true_r.
Qed.
Theorem roaring_bitmap_remove_range_closed_spec r min max : bok r -> 0 <= min < 2^32 -> 0 <= max < 2^32 ->
  rspec (roaring_bitmap_remove_range_closed r min max) (fun k x => km r k x && negb (rng min max k x)).
Proof.
  intros B Hmin Hmax. unfold roaring_bitmap_remove_range_closed. destruct (Z.ltb_spec max min).
  - eapply bmrep_ext; [apply bmrep_self; exact B|]. intros. cbn beta. replace (rng min max k x) with false; [now rewrite andb_true_r|].
    unfold rng. symmetry. apply andb_false_iff. lia.
  - destruct (val_split min Hmin) as (E1&_&K1&_). destruct (val_split max Hmax) as (E2&_&K2&_). rewrite E1, E2.
    rewrite count_less_spec by (apply (gok_incr _ _ _ B)).
    destruct (split_at cok 0 r (min / 65536) B) as (A&M&E&L1&G1&Z1&GA&GM). rewrite <- Z1.
    assert (GM' : gok cok (min / 65536) M).
    { destruct GM as (X&Y&W). split; auto. split; auto. apply Forall_forall. intros y Hy. specialize (G1 y Hy). pose proof (inb_In _ _ _ _ Y Hy). lia. }
    assert (FU : zlen M < Z.of_nat (S (length r))) by (rewrite E, app_length; unfold zlen; lia).
    cbn zeta. set (fu := S (length r)) in *. clearbody fu.
    destruct (remove_range_loop_spec min max fu A [] M (min / 65536) ltac:(lia) ltac:(lia) GM' ltac:(lia) FU) as (res&R1&R2).
    cbn [app] in R1. rewrite app_nil_r in R1. rewrite E. rewrite R1.
    apply (bmrep_app cok 0 (min / 65536)); auto; try lia.
    + intros k y Hk Hy. rewrite rng_out by lia. rewrite andb_true_r. symmetry. apply km_app_l. intros Hin. specialize (G1 _ Hin). lia.
    + eapply bmrep_ext; [exact R2|]. intros. cbn beta. f_equal. symmetry. apply km_app_r. intros Hin. specialize (L1 _ Hin). lia.
Qed.

(** ** from_range *)
Lemma ceil_gap d step : 0 < d -> 0 < step -> let g := d + step - 1 in
  let up := g - g mod step in d <= up < d + step /\ up mod step = 0 /\ forall m, 0 <= m -> d <= m * step -> up <= m * step.
Proof.
  intros Hd Hs. cbn zeta. pose proof (Z.div_mod (d + step - 1) step ltac:(lia)) as DM. pose proof (Z.mod_pos_bound (d + step - 1) step ltac:(lia)) as MB.
  assert (E : d + step - 1 - (d + step - 1) mod step = ((d + step - 1) / step) * step) by lia.
  split; [lia|]. split; [rewrite E; apply Z.mod_mul; lia|].
  intros m Hm Hd2. rewrite E. apply Z.mul_le_mono_nonneg_r; [lia|].
  assert ((d + step - 1) / step < m + 1); [|lia]. apply Z.div_lt_upper_bound; lia.
Qed.
Lemma from_range_loop_spec max step fuel min_tmp answer : 0 < step < 65536 -> 0 <= min_tmp < max -> max <= 2^32 ->
  (max - 1) / 65536 - min_tmp / 65536 < Z.of_nat fuel ->
  exists res, from_range_loop fuel min_tmp max step answer = Some (answer ++ res) /\
  bmrep cok (min_tmp / 65536) res (fun k x => stepin min_tmp max step (65536 * k + x)).
Proof.
  intros Hs. revert min_tmp answer. induction fuel as [|fu IH]; intros m0 answer Hm Hmx Hfu.
  - assert (m0 / 65536 <= (max - 1) / 65536) by (apply Z.div_le_mono; lia). lia.
  - cbn [from_range_loop]. destruct (val_split m0 ltac:(lia)) as (E1&E2&K1&K2). rewrite E1, E2.
    set (key := m0 / 65536) in *. set (cmin := m0 mod 65536) in *. assert (EM : m0 = 65536 * key + cmin) by (unfold key, cmin; dm).
    rewrite Z.shiftl_mul_pow2 by lia. change (2 ^ 16) with 65536.
    set (cmax := Z.min (max - key * 65536) 65536). assert (HC : cmin < cmax <= 65536) by lia.
    destruct (container_from_range_spec cmin cmax step ltac:(lia) ltac:(lia) ltac:(lia)) as (c&E'&O1&O2). rewrite E'. cbn zeta.
    destruct (ceil_gap (cmax - cmin) step ltac:(lia) ltac:(lia)) as (U1&U2&U3). cbn zeta in U1, U2, U3.
    replace (cmax - cmin + step - 1 - (cmax - cmin + step - 1) mod step) with ((cmax - cmin) + step - 1 - ((cmax - cmin) + step - 1) mod step) by reflexivity.
    set (up := cmax - cmin + step - 1 - (cmax - cmin + step - 1) mod step) in *. clearbody up.
    assert (HD : forall x, 0 <= x < 65536 -> cmem c x = stepin m0 max step (65536 * key + x)).
    { intros x Hx. rewrite O2 by auto. unfold stepin. f_equal; [|f_equal; f_equal; lia]. f_equal; lia. }
    assert (HT : forall k x, key < k < 65536 -> 0 <= x < 65536 -> stepin m0 max step (65536 * k + x) = stepin (m0 + up) max step (65536 * k + x)).
    { intros k x Hk Hx. unfold stepin. set (v := 65536 * k + x). assert (Hv : 65536 * (key + 1) <= v) by (unfold v; lia).
      destruct (Z.ltb_spec v max); [|now rewrite !andb_false_r]. assert (cmax = 65536) by lia.
      replace ((v - m0) mod step) with ((v - (m0 + up)) mod step).
      - replace (m0 <=? v) with true by lia. destruct (Z.eqb_spec ((v - (m0 + up)) mod step) 0) as [Q|Q]; [|now rewrite !andb_false_r].
        assert (Q' : (v - m0) mod step = 0).
        { replace (v - m0) with ((v - (m0 + up)) + up) by lia. rewrite Z.add_mod, Q, U2 by lia. now rewrite Z.mod_0_l by lia. }
        assert (v - m0 = (v - m0) / step * step) by (pose proof (Z.div_mod (v - m0) step ltac:(lia)); lia).
        specialize (U3 ((v - m0) / step) ltac:(apply Z.div_pos; lia) ltac:(lia)). now replace (m0 + up <=? v) with true by lia.
      - replace (v - m0) with (v - (m0 + up) + up) by lia. rewrite (Z.add_mod (v - (m0 + up)) up) by lia. rewrite U2, Z.add_0_r. now rewrite Z.mod_mod by lia. }
    assert (HB : forall j x, key <= j < key -> 0 <= x < 65536 -> stepin m0 max step (65536 * j + x) = false) by (intros; lia).
    destruct (Z.ltb_spec (m0 + up) max) as [L|L].
    + assert (cmax = 65536) by lia. assert (65536 * (key + 1) <= m0 + up) by lia.
      assert (KL : key + 1 <= (m0 + up) / 65536) by dm.
      destruct (IH (m0 + up) (answer ++ [(key, c)]) ltac:(lia) Hmx ltac:(lia)) as (res&R1&R2). rewrite R1.
      exists ((key, c) :: res). split; [now rewrite <- app_assoc|]. apply bmrep_cons; auto; try lia.
      apply (bmrep_skip cok (key + 1) ((m0 + up) / 65536)); [|lia|].
      * eapply bmrep_ext; [exact R2|]. intros k x Hk Hx. cbn beta. symmetry. apply HT; auto; lia.
      * intros j x Hj Hx. rewrite HT by lia. unfold stepin. replace (m0 + up <=? 65536 * j + x) with false by dm. reflexivity.
    + exists [(key, c)]. split; auto. apply bmrep_cons; auto; try lia. apply bmrep_nil. intros k x Hk Hx. rewrite HT by lia.
      unfold stepin. destruct (Z.leb_spec (m0 + up) (65536 * k + x)), (Z.ltb_spec (65536 * k + x) max); auto; lia.
Qed.
Lemma from_range_big_spec max step n fuel value answer : 0 < step -> 0 <= value -> max <= 2^32 ->
  max <= value + Z.of_nat n * step < 2^32 -> (n < fuel)%nat -> bok answer ->
  exists r, from_range_big fuel value max step answer = Some r /\ bok r /\
  forall v, mem r v = mem answer v || stepin value max step v.
Proof.
  intros Hs. revert fuel value answer. induction n as [|n IH]; intros fuel value answer Hv Hmx Hn Hf B; destruct fuel as [|fuel]; try lia; cbn [from_range_big].
  - replace (value <? max) with false by lia. exists answer. split; auto. split; auto. intros v. unfold stepin.
    destruct (Z.leb_spec value v), (Z.ltb_spec v max); cbn [andb]; try lia; now rewrite orb_false_r.
  - destruct (Z.ltb_spec value max).
    + assert (value + step < 2^32) by nia. unfold u32. rewrite Z.mod_small by lia.
      destruct (roaring_bitmap_add_spec answer value B ltac:(lia)) as [B' M].
      destruct (IH fuel (value + step) (roaring_bitmap_add answer value) ltac:(lia) Hmx ltac:(lia) ltac:(lia) B') as (r&R1&R2&R3).
      exists r. split; auto. split; auto. intros v. rewrite R3, M. unfold stepin.
      destruct (Z.eqb_spec v value).
      * subst v. replace (value <=? value) with true by lia. replace (value <? max) with true by lia. rewrite Z.sub_diag, Z.mod_0_l by lia.
        change (0 =? 0) with true. cbn [andb orb]. now rewrite orb_true_r.
      * f_equal. replace ((v - (value + step)) mod step) with ((v - value) mod step)
          by (replace (v - value) with (v - (value + step) + 1 * step) by lia; apply Z.mod_add; lia).
        destruct (Z.leb_spec (value + step) v) as [L|L]; destruct (Z.leb_spec value v) as [L'|L']; auto; try lia.
        cbn [andb]. rewrite Z.mod_small by lia. replace (v - value =? 0) with false by lia. now rewrite andb_false_r.
    + exists answer. split; auto. split; auto. intros v. unfold stepin.
      destruct (Z.leb_spec value v), (Z.ltb_spec v max); cbn [andb]; try lia; now rewrite orb_false_r.
Qed.
(** in range: the last multiple of step not below max still fits in 32 bits (or step < 2^16) *)
Theorem roaring_bitmap_from_range_spec fuel min max step : 0 <= min -> 0 <= max -> 0 < step < 2^32 ->
  let max' := Z.min max (2^32) in
  min < max' ->
  (step < 65536 \/ min + (max' - min + step - 1) / step * step < 2^32) -> 70000 <= Z.of_nat fuel ->
  exists r, roaring_bitmap_from_range fuel min max step = Some (Some r) /\ bok r /\ forall v, mem r v = stepin min max' step v.
Proof.
  intros Hmin Hmax Hs max' Hlt Hst HF. unfold roaring_bitmap_from_range.
  replace (if 2 ^ 32 <=? max then 2 ^ 32 else max) with max' by (unfold max'; destruct (Z.leb_spec (2^32) max); lia).
  assert (Hm' : max' <= 2^32) by (unfold max'; lia). clearbody max'.
  replace (step =? 0) with false by lia. replace (max' <=? min) with false by lia.
  destruct (Z.leb_spec 65536 step).
  - destruct Hst as [Hst|Hst]; [lia|].
    pose proof (Z.div_mod (max' - min + step - 1) step ltac:(lia)) as DM. pose proof (Z.mod_pos_bound (max' - min + step - 1) step ltac:(lia)) as MB.
    set (q := (max' - min + step - 1) / step) in *. assert (0 <= q) by (apply Z.div_pos; lia).
    assert (q < 65537) by nia.
    destruct (from_range_big_spec max' step (Z.to_nat q) fuel min [] ltac:(lia) Hmin Hm') as (r&R1&R2&R3).
    + rewrite Z2Nat.id by lia. split; [nia|lia].
    + apply Nat2Z.inj_lt. rewrite Z2Nat.id by lia. lia.
    + apply bok_nil.
    + exists r. rewrite R1. split; auto.
  - destruct (from_range_loop_spec max' step fuel min [] ltac:(lia) ltac:(lia) Hm') as (res&R1&R2).
    + assert ((max' - 1) / 65536 < 65536) by (apply Z.div_lt_upper_bound; lia). assert (0 <= min / 65536) by (apply Z.div_pos; lia). lia.
    + exists res. rewrite R1. split; auto. assert (B : bok res) by (eapply gok_weaken; [apply R2|apply Z.div_pos; lia]). split; auto.
      assert (R' : rspec res (fun k x => stepin min max' step (65536 * k + x))).
      { apply (bmrep_skip cok 0 (min / 65536)); auto; [apply Z.div_pos; lia|]. intros j x Hj Hx. unfold stepin. replace (min <=? 65536 * j + x) with false by dm. reflexivity. }
      intros v. destruct (Z_lt_dec v 0).
      { rewrite mem_oob by (auto; lia). unfold stepin. now replace (min <=? v) with false by lia. }
      destruct (Z_le_dec (2^32) v).
      { rewrite mem_oob by (auto; lia). unfold stepin. replace (v <? max') with false by lia. now rewrite andb_false_r. }
      rewrite (bmrep_mem res _ R') by lia. f_equal. dm.
Qed.
(** the 32-bit counter wraps: with step >= 2^16 the loop may never end, or may
    insert values outside of the range *)
Theorem from_range_big_diverges fuel value answer step : 0 <= value < 2^32 -> from_range_big fuel value (2^32) step answer = None.
Proof.
  revert value answer. induction fuel as [|f IH]; intros value answer Hv; cbn [from_range_big]; auto.
  replace (value <? 2^32) with true by lia. apply IH. unfold u32. apply Z.mod_pos_bound. lia.
Qed.

(** ** range_cardinality *)
Lemma kcnt_rng r s e : 0 <= s -> s <= e + 1 -> e < 2^32 -> kcnt (fun k x => km r k x && rng s e k x) 0 = cnt (mem r) s (e + 1).
Proof.
  intros. rewrite kcnt_all. rewrite <- (cnt_restrict (mem r) s (e + 1) 0 (2^32)) by lia. apply cnt_ext. intros v Hv. unfold mem, rng. f_equal.
  replace (65536 * (v / 65536) + v mod 65536) with v by dm. f_equal. lia.
Qed.
Lemma cnt_below P n : 0 <= n < 65536 -> cnt (fun x => P x && (x <=? n)) 0 65536 = cnt P 0 (n + 1).
Proof.
  intros. rewrite <- (cnt_restrict P 0 (n + 1) 0 65536) by lia. apply cnt_ext. intros x Hx. f_equal. lia.
Qed.
Lemma cnt_between P a b : 0 <= a <= b + 1 -> b < 65536 -> cnt (fun x => P x && ((a <=? x) && (x <=? b))) 0 65536 = cnt P 0 (b + 1) - cnt P 0 a.
Proof.
  intros. rewrite (cnt_app P 0 a (b + 1)) by lia. rewrite <- (cnt_restrict P a (b + 1) 0 65536) by lia.
  rewrite (cnt_ext (fun x => P x && ((a <=? x) && (x <=? b))) (fun x => P x && ((a <=? x) && (x <? b + 1)))); [lia|].
  intros. do 2 f_equal. lia.
Qed.
Lemma range_card_loop_spec r (B : bok r) e fuel i lo card : 0 <= e < 2^32 -> 0 <= i <= zlen r -> gok cok lo (zdrop i r) -> 0 <= lo <= 65536 ->
  zlen r - i < Z.of_nat fuel ->
  range_card_loop fuel r i (e / 65536) e card = card + kcnt (fun k x => km (zdrop i r) k x && (65536 * k + x <=? e)) lo.
Proof.
  intros He. revert i lo card. induction fuel as [|fu IH]; intros i lo card Hi G Hlo Hfu; [lia|]. cbn [range_card_loop].
  destruct (Z.ltb_spec i (zlen r)).
  - rewrite (rdrop_S r i) in G by lia. apply gok_cons in G as (K&D&T). cbn zeta. rewrite (rdrop_S r i) by lia.
    set (k0 := rkey r i) in *. set (c := rcon r i) in *.
    assert (HB : forall j x, lo <= j < k0 -> 0 <= x < 65536 -> km ((k0, c) :: zdrop (i + 1) r) j x && (65536 * j + x <=? e) = false).
    { intros j x Hj Hx. rewrite km_tail by lia. kmb T. auto. }
    rewrite (kcnt_step _ lo k0) by (auto; lia).
    rewrite (cnt_ext (fun x => km ((k0, c) :: zdrop (i + 1) r) k0 x && (65536 * k0 + x <=? e)) (fun x => cmem c x && (65536 * k0 + x <=? e)))
      by (intros; now rewrite km_head).
    rewrite (kcnt_ext _ (fun k x => km (zdrop (i + 1) r) k x && (65536 * k + x <=? e)) (k0 + 1))
      by (try lia; intros; now rewrite km_tail by lia).
    destruct (Z.ltb_spec k0 (e / 65536)); [|destruct (Z.eqb_spec k0 (e / 65536))].
    + rewrite (IH (i + 1) (k0 + 1)) by (auto; lia). rewrite container_get_cardinality_spec by auto. unfold ccard.
      rewrite (cnt_ext (fun x => cmem c x && (65536 * k0 + x <=? e)) (cmem c)); [lia|].
      intros x Hx. replace (65536 * k0 + x <=? e) with true by dm. apply andb_true_r.
    + destruct (val_split e He) as (_&E2&_&H2). rewrite E2. rewrite container_rank_spec by auto. rewrite <- cnt_below by lia.
      rewrite (kcnt_none _ (k0 + 1)); try lia.
      rewrite Z.add_0_r. rewrite (cnt_ext (fun x => cmem c x && (x <=? e mod 65536)) (fun x => cmem c x && (65536 * k0 + x <=? e))); [lia|].
      intros x Hx. f_equal. dm.
    + rewrite (kcnt_none _ (k0 + 1)) by (try lia; intros k x Hk Hx; replace (65536 * k + x <=? e) with false by dm; apply andb_false_r).
      rewrite cnt_none; [lia|]. intros x Hx. replace (65536 * k0 + x <=? e) with false by dm. apply andb_false_r.
  - rewrite (zdrop_all i) by lia. rewrite kcnt_none; try lia. intros. reflexivity.
Qed.
Theorem roaring_bitmap_range_cardinality_closed_spec r s e : bok r -> 0 <= s < 2^32 -> 0 <= e < 2^32 ->
  roaring_bitmap_range_cardinality_closed r s e = cnt (mem r) s (e + 1).
Proof.
  intros B Hs He. unfold roaring_bitmap_range_cardinality_closed. destruct (Z.ltb_spec e s).
  { rewrite cnt_nil by lia. auto. }
  destruct (val_split s Hs) as (S1&S2&S3&S4). destruct (val_split e He) as (E1&E2&E3&E4). rewrite S1, S2, E1, E2. cbn zeta.
  rewrite <- kcnt_rng by lia. set (k0 := s / 65536) in *.
  assert (LE : forall k x, k0 < k -> 0 <= x < 65536 -> rng s e k x = (65536 * k + x <=? e)).
  { intros k x Hk Hx. unfold rng. replace (s <=? 65536 * k + x) with true by (unfold k0 in *; dm). reflexivity. }
  destruct (get_index_cases r k0 B) as [(pre&c&post&E&I&D&L&G)|(pre&post&E&I&L&G)]; rewrite I; pose proof (zlen_nonneg pre).
  - replace (0 <=? zlen pre) with true by lia.
    assert (EC : rcon r (zlen pre) = c) by (rewrite E; apply rcon_mid). rewrite EC.
    assert (EZ : zdrop (zlen pre + 1) r = post).
    { rewrite E. replace (pre ++ (k0, c) :: post) with ((pre ++ [(k0, c)]) ++ post) by (rewrite <- app_assoc; reflexivity). apply zdrop_app. rewrite zlen_app. reflexivity. }
    assert (ZL : zlen r = zlen pre + 1 + zlen post) by (rewrite E, zlen_app, zlen_cons; lia). pose proof (zlen_nonneg post).
    assert (GP : gok cok (k0 + 1) post).
    { pose proof B as B'. rewrite E in B'. apply gok_app in B' as (_&B'&_). apply gok_cons in B'. tauto. }
    rewrite (range_card_loop_spec r B e _ (zlen pre + 1) (k0 + 1)); try lia; [|now rewrite EZ|unfold zlen; lia].
    rewrite EZ. rewrite (kcnt_step (fun k x => km r k x && rng s e k x) 0 k0); try lia.
    2:{ intros j x Hj Hx. replace (rng s e j x) with false; [apply andb_false_r|]. unfold rng. symmetry. apply andb_false_iff. unfold k0 in *. dm. }
    rewrite (kcnt_ext (fun k x => km r k x && rng s e k x) (fun k x => km post k x && (65536 * k + x <=? e)) (k0 + 1)); try lia.
    2:{ intros k x Hk Hx. rewrite LE by lia. f_equal. rewrite E. unfold km. rewrite look_app. rewrite (look_none pre) by (intros Hin; specialize (L _ Hin); lia).
        cbn [look]. replace (k =? k0) with false by lia. reflexivity. }
    f_equal.
    set (hi := if k0 =? e / 65536 then e mod 65536 else 65535). set (lo := s mod 65536) in *.
    assert (HH : lo <= hi < 65536) by (unfold lo, hi, k0; destruct (Z.eqb_spec (s / 65536) (e / 65536)); dm).
    rewrite (cnt_ext (fun x => km r k0 x && rng s e k0 x) (fun x => cmem c x && ((lo <=? x) && (x <=? hi)))).
    2:{ intros x Hx. f_equal; [rewrite E; now apply km_at|]. unfold rng. unfold lo, hi, k0 in *. destruct (Z.eqb_spec (s / 65536) (e / 65536)); f_equal; dm. }
    rewrite cnt_between by lia.
    assert (C1 : (if k0 =? e / 65536 then container_rank c (e mod 65536) else container_get_cardinality c) = cnt (cmem c) 0 (hi + 1)).
    { unfold hi. destruct (k0 =? e / 65536); [apply container_rank_spec; auto|]. rewrite container_get_cardinality_spec by auto. reflexivity. }
    rewrite C1. destruct (Z.eqb_spec lo 0) as [Q|Q]; cbn [negb].
    + rewrite Q. rewrite (cnt_nil (cmem c) 0 0) by lia. lia.
    + rewrite container_rank_spec by (auto; lia). replace (lo - 1 + 1) with lo by lia. reflexivity.
  - replace (0 <=? - zlen pre - 1) with false by lia. replace (- (- zlen pre - 1) - 1) with (zlen pre) by lia.
    assert (EZ : zdrop (zlen pre) r = post) by (rewrite E; now apply zdrop_app).
    assert (ZL : zlen r = zlen pre + zlen post) by (rewrite E, zlen_app; lia). pose proof (zlen_nonneg post).
    assert (GP : gok cok (k0 + 1) post).
    { pose proof B as B'. rewrite E in B'. apply gok_app in B' as (_&B'&_). destruct B' as (X&Y&W). split; auto. split; auto.
      apply Forall_forall. intros y Hy. specialize (G y Hy). pose proof (inb_In _ _ _ _ Y Hy). lia. }
    rewrite (range_card_loop_spec r B e _ (zlen pre) (k0 + 1)); try lia; [|now rewrite EZ|unfold zlen in *; lia].
    rewrite EZ. rewrite (kcnt_skip (fun k x => km r k x && rng s e k x) 0 (k0 + 1)); try lia.
    + rewrite Z.add_0_l. apply kcnt_ext; [lia|]. intros k x Hk Hx. rewrite LE by lia. f_equal. rewrite E. unfold km. rewrite look_app.
      rewrite (look_none pre) by (intros Hin; specialize (L _ Hin); lia). reflexivity.
    + intros j x Hj Hx. destruct (Z.eq_dec j k0).
      * rewrite E. rewrite (km_gap pre k0) by auto. reflexivity.
      * replace (rng s e j x) with false; [apply andb_false_r|]. unfold rng. symmetry. apply andb_false_iff. unfold k0 in *. dm.
Qed.

(** ** contains_range *)
Lemma lb_step_bound r k n : incr (rkeys r) -> lb (rkeys r) (k + Z.of_nat n) - lb (rkeys r) k <= Z.of_nat n.
Proof.
  intros I. induction n as [|n IH]; [cbn; rewrite Z.add_0_r; lia|]. replace (k + Z.of_nat (S n)) with (k + Z.of_nat n + 1) by lia.
  rewrite lb_succ by auto. destruct (zmem (k + Z.of_nat n) (rkeys r)); lia.
Qed.
Lemma lb_consecutive r k n : incr (rkeys r) ->
  (lb (rkeys r) (k + Z.of_nat n) - lb (rkeys r) k = Z.of_nat n <-> forall j, k <= j < k + Z.of_nat n -> In j (rkeys r)).
Proof.
  intros I. induction n as [|n IH].
  - cbn. rewrite Z.add_0_r. split; [intros; lia|intros; lia].
  - replace (k + Z.of_nat (S n)) with (k + Z.of_nat n + 1) by lia. rewrite lb_succ by auto. pose proof (lb_step_bound r k n I).
    destruct (zmem (k + Z.of_nat n) (rkeys r)) eqn:Z.
    + apply zmem_In in Z. split.
      * intros Hd j Hj. destruct (Z.eq_dec j (k + Z.of_nat n)); [subst; auto|]. apply IH; lia.
      * intros Hj. assert (lb (rkeys r) (k + Z.of_nat n) - lb (rkeys r) k = Z.of_nat n) by (apply IH; intros; apply Hj; lia). lia.
    + apply zmem_nIn in Z. split; [lia|]. intros Hj. exfalso. apply Z. apply Hj. lia.
Qed.
Lemma mem_key r v : mem r v = true -> In (v / 65536) (rkeys r).
Proof.
  unfold mem, km. destruct (look r (v / 65536)) eqn:E; [|discriminate]. intros _. apply look_some in E. apply (in_map fst) in E. exact E.
Qed.
Lemma get_index_lb r k : bok r -> In k (rkeys r) -> ra_get_index r k = lb (rkeys r) k.
Proof. intros B H. rewrite ra_get_index_eq by (apply (gok_incr _ _ _ B)). apply zmem_In in H. now rewrite H. Qed.
Lemma get_index_ge r k : bok r -> (0 <= ra_get_index r k <-> In k (rkeys r)).
Proof.
  intros B. rewrite ra_get_index_eq by (apply (gok_incr _ _ _ B)). pose proof (lb_bound (rkeys r) k).
  destruct (zmem k (rkeys r)) eqn:E; [apply zmem_In in E|apply zmem_nIn in E]; split; intros; auto; try lia. contradiction.
Qed.
Lemma all_full_spec r n i : all_full n r i = true <-> forall j, i <= j < i + Z.of_nat n -> container_is_full (rcon r j) = true.
Proof.
  revert i. induction n as [|n IH]; intros i; cbn [all_full].
  - split; auto. intros. lia.
  - destruct (container_is_full (rcon r i)) eqn:F; cbn [negb].
    + rewrite IH. split; intros H j Hj; [|apply H; lia]. destruct (Z.eq_dec j i); [subst; auto|apply H; lia].
    + split; [discriminate|]. intros H. rewrite H in F by lia. discriminate.
Qed.
Lemma look_index r k : bok r -> In k (rkeys r) -> look r k = Some (rcon r (lb (rkeys r) k)) /\ cok (rcon r (lb (rkeys r) k)).
Proof.
  intros B H. apply (lb_In _ _ (gok_incr _ _ _ B)) in H as [H1 H2]. pose proof (lb_bound (rkeys r) k). rewrite zlen_rkeys in *.
  rewrite znth_rkeys in H2 by lia. assert (L : look r k = Some (rcon r (lb (rkeys r) k))) by (rewrite <- H2 at 1; apply look_at; auto; lia).
  split; auto. apply (gok_look cok 0 r k _ B L).
Qed.
Theorem roaring_bitmap_contains_range_closed_spec r s e : bok r -> 0 <= s < 2^32 -> 0 <= e < 2^32 ->
  (roaring_bitmap_contains_range_closed r s e = true <-> forall v, s <= v <= e -> mem r v = true).
Proof.
  intros B Hs He. unfold roaring_bitmap_contains_range_closed. destruct (Z.ltb_spec e s).
  { split; auto. intros. lia. }
  destruct (Z.eqb_spec e s).
  { rewrite roaring_bitmap_contains_spec by auto. split; [intros H1 v Hv; now replace v with s by lia|intros H1; apply H1; lia]. }
  destruct (val_split s Hs) as (S1&S2&S3&S4). destruct (val_split e He) as (E1&E2&E3&E4). rewrite S1, S2, E1, E2. cbn zeta.
  set (ks := s / 65536) in *. set (ke := e / 65536) in *. assert (KK : ks <= ke) by (unfold ks, ke; dm).
  pose proof (gok_incr _ _ _ B) as I.
  assert (ALLK : (forall v, s <= v <= e -> mem r v = true) -> forall j, ks <= j <= ke -> In j (rkeys r)).
  { intros H1 j Hj. destruct (Z.eq_dec j ks) as [->|]. { apply mem_key. apply H1. lia. }
    replace j with ((65536 * j) / 65536) by dm. apply mem_key. apply H1. unfold ks, ke in *. dm. }
  assert (LBK : forall j, ks <= j <= ke -> lb (rkeys r) (ks + Z.of_nat (Z.to_nat (j - ks))) = lb (rkeys r) j) by (intros; f_equal; lia).
  destruct (Z.ltb_spec (zlen r) (ke - ks + 1)) as [L|L].
  { split; [discriminate|]. intros H1. exfalso. specialize (ALLK H1).
    assert (lb (rkeys r) (ks + Z.of_nat (Z.to_nat (ke + 1 - ks))) - lb (rkeys r) ks = Z.of_nat (Z.to_nat (ke + 1 - ks))).
    { apply lb_consecutive; auto. intros. apply ALLK. lia. }
    pose proof (lb_bound (rkeys r) (ks + Z.of_nat (Z.to_nat (ke + 1 - ks)))). pose proof (lb_bound (rkeys r) ks). rewrite zlen_rkeys in *. lia. }
  assert (CONS : ((ra_get_index r ke <? 0) || (ra_get_index r ks <? 0) || negb (ra_get_index r ke - ra_get_index r ks =? ke - ks) || (zlen r <=? ra_get_index r ke)) = false
     <-> forall j, ks <= j <= ke -> In j (rkeys r)).
  { split.
    - intros H1. apply orb_false_iff in H1 as [H1 _]. apply orb_false_iff in H1 as [H1 H2]. apply orb_false_iff in H1 as [H3 H4].
      apply negb_false_iff, Z.eqb_eq in H2. assert (A1 : In ke (rkeys r)) by (apply get_index_ge; auto; lia).
      assert (A2 : In ks (rkeys r)) by (apply get_index_ge; auto; lia). rewrite !get_index_lb in H2 by auto.
      intros j Hj. destruct (Z.eq_dec j ke); [subst; auto|].
      apply (proj1 (lb_consecutive r ks (Z.to_nat (ke - ks)) I)); [rewrite LBK by lia; lia|lia].
    - intros H1. assert (A1 := H1 ke ltac:(lia)). assert (A2 := H1 ks ltac:(lia)). rewrite !get_index_lb by auto.
      assert (A3 := proj2 (lb_consecutive r ks (Z.to_nat (ke - ks)) I) ltac:(intros; apply H1; lia)). rewrite LBK in A3 by lia.
      pose proof (lb_bound (rkeys r) ks). apply (lb_In _ _ I) in A1. rewrite zlen_rkeys in *. lia. }
  destruct ((ra_get_index r ke <? 0) || (ra_get_index r ks <? 0) || negb (ra_get_index r ke - ra_get_index r ks =? ke - ks) || (zlen r <=? ra_get_index r ke)).
  { split; [discriminate|]. intros H1. specialize (ALLK H1). apply CONS in ALLK. discriminate. }
  pose proof (proj1 CONS eq_refl) as AK. clear CONS ALLK. rewrite !get_index_lb by (auto; apply AK; lia).
  assert (CK : forall j, ks <= j <= ke -> lb (rkeys r) j = lb (rkeys r) ks + (j - ks)).
  { intros j Hj. assert (A3 := proj2 (lb_consecutive r ks (Z.to_nat (j - ks)) I) ltac:(intros; apply AK; lia)). rewrite LBK in A3 by lia. lia. }
  assert (MK : forall v, s <= v <= e -> mem r v = cmem (rcon r (lb (rkeys r) (v / 65536))) (v mod 65536)).
  { intros v Hv. unfold mem, km. destruct (look_index r (v / 65536) B) as [L1 L2]; [apply AK; unfold ks, ke; dm|]. now rewrite L1. }
  assert (CO : forall j, ks <= j <= ke -> cok (rcon r (lb (rkeys r) j))) by (intros; apply look_index; auto).
  destruct (Z.eqb_spec ks ke) as [EK|EK].
  - rewrite container_contains_range_spec; [|apply CO; lia|unfold ks, ke in *; dm|dm]. split.
    + intros H1 v Hv. rewrite MK by lia. replace (v / 65536) with ks by (unfold ks, ke in *; dm). apply H1. unfold ks, ke in *. dm.
    + intros H1 x Hx. specialize (H1 (65536 * ks + x) ltac:(unfold ks, ke in *; dm)). rewrite MK in H1 by (unfold ks, ke in *; dm).
      replace ((65536 * ks + x) / 65536) with ks in H1 by dm. replace ((65536 * ks + x) mod 65536) with x in H1 by dm. auto.
  - pose proof (container_contains_range_spec (rcon r (lb (rkeys r) ks)) (s mod 65536) 65536 (CO ks ltac:(lia)) ltac:(lia) ltac:(lia)) as C1.
    pose proof (container_contains_range_spec (rcon r (lb (rkeys r) ke)) 0 (e mod 65536 + 1) (CO ke ltac:(lia)) ltac:(lia) ltac:(lia)) as C2.
    pose proof (all_full_spec r (Z.to_nat (lb (rkeys r) ke - (lb (rkeys r) ks + 1))) (lb (rkeys r) ks + 1)) as C3.
    pose proof (CK ke ltac:(lia)) as CE. rewrite CE in C3 |- *.
    replace (Z.of_nat (Z.to_nat (lb (rkeys r) ks + (ke - ks) - (lb (rkeys r) ks + 1)))) with (ke - ks - 1) in C3 by lia.
    rewrite <- CE in C3 |- * at 1.
    transitivity ((forall x, s mod 65536 <= x < 65536 -> cmem (rcon r (lb (rkeys r) ks)) x = true) /\
      (forall x, 0 <= x < e mod 65536 + 1 -> cmem (rcon r (lb (rkeys r) ke)) x = true) /\
      (forall j, lb (rkeys r) ks + 1 <= j < lb (rkeys r) ks + 1 + (ke - ks - 1) -> container_is_full (rcon r j) = true)).
    { rewrite <- C1, <- C2, <- C3. rewrite CE.
      destruct (container_contains_range (rcon r (lb (rkeys r) ks)) (s mod 65536) 65536); cbn [negb]; [|intuition].
      destruct (container_contains_range (rcon r (lb (rkeys r) ks + (ke - ks))) 0 (e mod 65536 + 1)); cbn [negb]; intuition. }
    split.
    + intros (H1&H2&H3) v Hv. rewrite MK by lia. destruct (Z.eq_dec (v / 65536) ks) as [Q|Q].
      { rewrite Q. apply H1. unfold ks in *. dm. }
      destruct (Z.eq_dec (v / 65536) ke) as [Q'|Q'].
      { rewrite Q'. apply H2. unfold ke in *. dm. }
      assert (ks < v / 65536 < ke) by (unfold ks, ke in *; dm).
      apply (container_is_full_spec _ (CO (v / 65536) ltac:(lia))); [|dm]. apply H3. rewrite (CK (v / 65536)) by lia. lia.
    + intros H1. assert (H2 : forall j x, ks <= j <= ke -> 0 <= x < 65536 -> s <= 65536 * j + x <= e -> cmem (rcon r (lb (rkeys r) j)) x = true).
      { intros j x Hj Hx Hv. specialize (H1 _ Hv). rewrite MK in H1 by auto. replace ((65536 * j + x) / 65536) with j in H1 by dm.
        replace ((65536 * j + x) mod 65536) with x in H1 by dm. auto. }
      repeat split.
      * intros x Hx. apply H2; unfold ks, ke in *; dm.
      * intros x Hx. apply H2; unfold ks, ke in *; dm.
      * intros j Hj. replace j with (lb (rkeys r) (ks + (j - lb (rkeys r) ks))) by (rewrite CK by lia; lia).
        apply container_is_full_spec; [apply CO; lia|]. intros x Hx. apply H2; unfold ks, ke in *; dm.
Qed.

(** ** flip *)
Lemma card_nonzero c : eok c -> negb (container_get_cardinality c =? 0) = container_nonzero_cardinality c.
Proof.
  intros O1. apply eq_iff_eq_true. rewrite (get_cardinality_eok _ O1). rewrite (container_nonzero_spec _ (eok_lok _ O1)). rewrite negb_true_iff, Z.eqb_neq.
  unfold cne, ccard. split.
  - intros C0. apply cnt_pos_ex in C0. exact C0.
  - intros (x&Hx&Ex) C0. rewrite (cnt_none_inv (cmem c) 0 65536 C0) in Ex by lia. discriminate.
Qed.
Lemma flip_body_inv (Inv : Z -> bitmap -> Prop) s e part full a : 0 <= s <= e -> e < 2^32 ->
  (forall h a lo hi, s / 65536 <= h <= e / 65536 -> 0 <= lo <= hi -> hi < 65536 ->
     (forall x, 0 <= x < 65536 -> rng s e h x = (lo <=? x) && (x <? hi + 1)) -> Inv h a -> Inv (h + 1) (part a h lo hi)) ->
  (forall h a, s / 65536 <= h <= e / 65536 -> (forall x, 0 <= x < 65536 -> rng s e h x = true) -> Inv h a -> Inv (h + 1) (full a h)) ->
  Inv (s / 65536) a -> Inv (e / 65536 + 1) (flip_body part full a (s / 65536) (s mod 65536) (e / 65536) (e mod 65536)).
Proof.
  intros Hs He HP HF H0. unfold flip_body. destruct (Z.eqb_spec (s / 65536) (e / 65536)) as [E|E].
  - rewrite <- E. apply HP; auto; try dm. intros x Hx. unfold rng. f_equal; dm.
  - assert (LT : s / 65536 < e / 65536) by dm.
    assert (LOOP : forall n h a', s / 65536 <= h -> (s mod 65536 = 0 \/ s / 65536 < h) ->
       h + Z.of_nat n = (if negb (e mod 65536 =? 65535) then e / 65536 else e / 65536 + 1) -> Inv h a' -> Inv (h + Z.of_nat n) (flip_full_loop full n h a')).
    { induction n as [|n IH]; intros h a' Hh HZ Hn HI; cbn [flip_full_loop]; [now rewrite Z.add_0_r|].
      replace (h + Z.of_nat (S n)) with (h + 1 + Z.of_nat n) by lia. apply IH; try lia. apply HF; auto.
      - destruct (e mod 65536 =? 65535); cbn [negb] in Hn; lia.
      - intros x Hx. unfold rng. apply andb_true_iff. split; [destruct HZ; dm|]. destruct (Z.eqb_spec (e mod 65536) 65535); cbn [negb] in Hn; dm. }
    assert (P1 : exists h a', (if 0 <? s mod 65536 then (part a (s / 65536) (s mod 65536) 65535, s / 65536 + 1) else (a, s / 65536)) = (a', h) /\
       Inv h a' /\ s / 65536 <= h <= e / 65536 /\ (s mod 65536 = 0 \/ s / 65536 < h)).
    { destruct (Z.ltb_spec 0 (s mod 65536)); eexists _, _; (split; [reflexivity|]).
      - split; [|lia]. apply HP; auto; try dm. intros x Hx. unfold rng. f_equal; dm.
      - split; [auto|]. dm. }
    destruct P1 as (h&a'&EQ&HI&Hh&HZ). rewrite EQ. cbn zeta.
    destruct (Z.eqb_spec (e mod 65536) 65535) as [F|F]; cbn [negb].
    + replace (e / 65536 + 1) with (h + Z.of_nat (Z.to_nat (e / 65536 + 1 - h))) at 1 by lia. apply LOOP; auto; try lia.
      replace (e mod 65536 =? 65535) with true by lia. cbn [negb]. lia.
    + replace (e / 65536 - 1 + 1) with (e / 65536) by lia. apply HP; auto; try dm.
      * intros x Hx. unfold rng. f_equal; dm.
      * replace (e / 65536) with (h + Z.of_nat (Z.to_nat (e / 65536 - h))) at 1 by lia. apply LOOP; auto; try lia.
        replace (e mod 65536 =? 65535) with false by lia. cbn [negb]. lia.
Qed.

(** in place *)
Definition flip_inv (x1 : bitmap) s e (h : Z) (a : bitmap) : Prop :=
  rspec a (fun k x => if k <? h then xorb (km x1 k x) (rng s e k x) else km x1 k x).
Lemma flip_step x1 s e h a a' P : flip_inv x1 s e h a -> rspec a' (kset a h P) -> 0 <= h < 65536 ->
  (forall x, 0 <= x < 65536 -> P x = xorb (km x1 h x) (rng s e h x)) -> flip_inv x1 s e (h + 1) a'.
Proof.
  intros (A1&A2) (B1&B2) Hh HP. split; auto. intros k x Hk Hx. rewrite B2 by lia. unfold kset. destruct (Z.eqb_spec k h).
  - subst. rewrite HP by auto. replace (h <? h + 1) with true by lia. auto.
  - rewrite A2 by lia. destruct (Z.ltb_spec k h), (Z.ltb_spec k (h + 1)); auto; lia.
Qed.
Lemma inplace_flip_spec a h fl (P : Z -> bool) (ones : container) (Q : Z -> bool) : bok a -> 0 <= h < 65536 ->
  (forall c, cok c -> erep (fl c) (fun x => xorb (cmem c x) (Q x))) -> rep ones Q ->
  rspec (let i := ra_get_index a h in
    if 0 <=? i then
      let flipped := fl (rcon a i) in
      if negb (container_get_cardinality flipped =? 0) then ra_set_container_at_index a i flipped else ra_remove_at_index a i
    else ra_insert_new_key_value_at a (- i - 1) h ones) (kset a h (fun x => xorb (km a h x) (Q x))).
Proof.
  intros B Hh Hfl (R1&R2). cbn zeta.
  destruct (get_index_cases a h B) as [(pre&c&post&E&I&D&L&G)|(pre&post&E&I&L&G)]; rewrite I; pose proof (zlen_nonneg pre).
  - replace (0 <=? zlen pre) with true by lia. replace (rcon a (zlen pre)) with c by (rewrite E; symmetry; apply rcon_mid).
    specialize (Hfl c D). rewrite card_nonzero by apply Hfl. unfold bok in B. rewrite E in B |- *.
    destruct (container_nonzero_cardinality (fl c)) eqn:N.
    + rewrite set_at_mid. apply erep_some with (P := fun x => xorb (cmem c x) (Q x)) in N as [N1 N2]; auto.
      apply gok_mid_set; auto. intros x Hx. rewrite N2 by auto. rewrite km_at by auto. reflexivity.
    + rewrite remove_at_mid. destruct (gok_mid_rem cok 0 pre h c post B) as (X1&X2). split; auto.
      intros k x Hk Hx. rewrite X2 by auto. unfold kset. destruct (Z.eqb_spec k h); auto. rewrite km_at by auto. symmetry.
      apply (erep_none (fl c) (fun x => xorb (cmem c x) (Q x))); auto.
  - replace (0 <=? - zlen pre - 1) with false by lia. replace (- (- zlen pre - 1) - 1) with (zlen pre) by lia. unfold bok in B. rewrite E in B |- *.
    rewrite insert_at_mid. apply gok_mid_ins; auto. intros x Hx. rewrite (km_gap pre h) by auto. rewrite R2 by auto. now rewrite xorb_false_l.
Qed.
Theorem roaring_bitmap_flip_inplace_closed_rspec cap x1 s e : bok x1 -> 0 <= s < 2^32 -> 0 <= e < 2^32 ->
  rspec (roaring_bitmap_flip_inplace_closed cap x1 s e) (fun k x => xorb (km x1 k x) (rng s e k x)).
Proof.
  intros B Hs He. unfold roaring_bitmap_flip_inplace_closed. destruct (Z.ltb_spec e s).
  { split; auto. intros k x Hk Hx. replace (rng s e k x) with false; [now rewrite xorb_false_r|]. unfold rng. lia. }
  destruct (val_split s Hs) as (S1&S2&S3&S4). destruct (val_split e He) as (E1&E2&E3&E4). rewrite S1, E1. change (u16 s) with (s mod 65536). change (u16 e) with (e mod 65536).
  assert (R : flip_inv x1 s e (e / 65536 + 1) (flip_body (inplace_flip_container cap) (inplace_fully_flip_container cap) x1 (s / 65536) (s mod 65536) (e / 65536) (e mod 65536))).
  { apply (flip_body_inv (flip_inv x1 s e)); try lia.
    - intros h a lo hi Hh Hlo Hhi HR HI. assert (Hb : 0 <= h < 65536) by dm. pose proof HI as (BA&KA).
      eapply flip_step; [exact HI|unfold inplace_flip_container; cbn zeta; rewrite container_inot_range_eq; apply (inplace_flip_spec a h (fun c => container_not_range c lo (hi + 1)) (fun _ => true) (container_range_of_ones lo (hi + 1)) (fun x => (lo <=? x) && (x <? hi + 1))); auto| |].
      + intros c Hc. pose proof (container_not_range_spec c lo (hi + 1) Hc ltac:(lia) ltac:(lia)) as (F1&F2). split; auto. intros x Hx. rewrite F2 by auto. apply fliprange_xorb.
      + apply container_range_of_ones_spec; lia.
      + auto.
      + intros x Hx. cbn beta. rewrite KA by lia. replace (h <? h) with false by lia. rewrite HR by auto. reflexivity.
    - intros h a Hh HR HI. assert (Hb : 0 <= h < 65536) by dm. pose proof HI as (BA&KA).
      eapply flip_step; [exact HI|unfold inplace_fully_flip_container; cbn zeta; rewrite container_inot_eq; apply (inplace_flip_spec a h (fun c => container_not c) (fun _ => true) (container_range_of_ones 0 65536) (fun x => true)); auto| |].
      + intros c Hc. exact (container_not_spec c Hc).
      + destruct (container_range_of_ones_spec 0 65536 ltac:(lia) ltac:(lia)) as (F1&F2). split; auto. intros x Hx. rewrite F2 by auto. lia.
      + auto.
      + intros x Hx. cbn beta. rewrite KA by lia. replace (h <? h) with false by lia. rewrite HR by auto. reflexivity.
    - split; auto. intros k x Hk Hx. destruct (Z.ltb_spec k (s / 65536)); auto. rewrite rng_out by lia. now rewrite xorb_false_r. }
  destruct R as (R1&R2). split; auto. intros k x Hk Hx. rewrite R2 by auto. destruct (Z.ltb_spec k (e / 65536 + 1)); auto.
  rewrite rng_out by lia. now rewrite xorb_false_r.
Qed.

(** into a new bitmap: ans only has keys below h *)
Lemma append_copies_until_spec x1 k lo : gok cok lo x1 ->
  exists post, x1 = ra_append_copies_until x1 k ++ post /\ (forall y, In y (rkeys (ra_append_copies_until x1 k)) -> y < k) /\ (forall y, In y (rkeys post) -> k <= y).
Proof.
  revert lo. induction x1 as [|[k0 c] t IH]; intros lo G; cbn [ra_append_copies_until].
  - exists []. split; auto. split; intros y [].
  - apply gok_cons in G as (H1&H2&H3). destruct (Z.leb_spec k k0).
    + exists ((k0, c) :: t). split; auto. split; [intros y []|]. intros y [<-|Hy]; [cbn; lia|]. pose proof (inb_In _ _ _ _ (proj1 (proj2 H3)) Hy). lia.
    + destruct (IH (k0 + 1) H3) as (post&E&F1&F2). exists post. cbn [app]. split; [f_equal; auto|]. split; auto. intros y [<-|Hy]; [cbn; lia|auto].
Qed.
Definition flipn_inv (x1 : bitmap) s e (h : Z) (a : bitmap) : Prop :=
  bok a /\ (forall y, In y (rkeys a) -> y < h) /\ forall k x, 0 <= k < h -> 0 <= x < 65536 -> km a k x = xorb (km x1 k x) (rng s e k x).
Lemma insert_flip_spec x1 s e a h fl (ones : container) (Q : Z -> bool) : bok x1 -> flipn_inv x1 s e h a -> 0 <= h < 65536 ->
  (forall x, 0 <= x < 65536 -> rng s e h x = Q x) ->
  (forall c, cok c -> erep (fl c) (fun x => xorb (cmem c x) (Q x))) -> rep ones Q ->
  flipn_inv x1 s e (h + 1) (let i := ra_get_index x1 h in let j := ra_get_index a h in
    if 0 <=? i then
      let flipped := fl (rcon x1 i) in
      if negb (container_get_cardinality flipped =? 0) then ra_insert_new_key_value_at a (- j - 1) h flipped else a
    else ra_insert_new_key_value_at a (- j - 1) h ones).
Proof.
  intros B (BA&KA&MA) Hh HQ Hfl (R1&R2). cbn zeta.
  assert (J : - ra_get_index a h - 1 = zlen a).
  { destruct (get_index_cases a h BA) as [(pre&c&post&E&I&D&L&G)|(pre&post&E&I&L&G)].
    - exfalso. specialize (KA h). rewrite E, rkeys_app in KA. assert (h < h); [|lia]. apply KA. apply in_or_app. right. now left.
    - rewrite I. destruct post as [|[kp cp] t]; [rewrite app_nil_r in E; subst; lia|]. exfalso.
      assert (kp < h) by (apply KA; rewrite E, rkeys_app; apply in_or_app; right; now left). assert (h < kp) by (apply G; now left). lia. }
  assert (INS : forall c', cok c' -> (forall x, 0 <= x < 65536 -> cmem c' x = xorb (km x1 h x) (Q x)) -> flipn_inv x1 s e (h + 1) (ra_insert_new_key_value_at a (- ra_get_index a h - 1) h c')).
  { intros c' K1 K2. rewrite J. rewrite <- (app_nil_r a) at 1. rewrite insert_at_mid. split; [|split].
    - apply gok_snoc; auto; lia.
    - intros y Hy. rewrite rkeys_app in Hy. apply in_app_or in Hy as [Hy|[<-|[]]]; [specialize (KA y Hy); lia|cbn; lia].
    - intros k x Hk Hx. rewrite km_snoc by auto. destruct (Z.eqb_spec k h); [|apply MA; lia]. subst. rewrite K2, HQ by auto. reflexivity. }
  destruct (get_index_cases x1 h B) as [(pre&c&post&E&I&D&L&G)|(pre&post&E&I&L&G)]; rewrite I; pose proof (zlen_nonneg pre).
  - replace (0 <=? zlen pre) with true by lia. replace (rcon x1 (zlen pre)) with c by (rewrite E; symmetry; apply rcon_mid).
    specialize (Hfl c D). rewrite card_nonzero by apply Hfl.
    destruct (container_nonzero_cardinality (fl c)) eqn:N.
    + apply erep_some with (P := fun x => xorb (cmem c x) (Q x)) in N as [N1 N2]; auto.
      apply INS; auto. intros x Hx. rewrite N2 by auto. rewrite E. rewrite km_at by auto. reflexivity.
    + split; auto. split. { intros y Hy. specialize (KA y Hy). lia. }
      intros k x Hk Hx. destruct (Z.eq_dec k h); [|apply MA; lia]. subst k. rewrite HQ by auto. rewrite E at 1. rewrite km_at by auto.
      rewrite (erep_none (fl c) (fun x => xorb (cmem c x) (Q x))) by auto. unfold km. rewrite look_none; auto. now apply not_below.
  - replace (0 <=? - zlen pre - 1) with false by lia. apply INS; auto. intros x Hx. rewrite E. rewrite (km_gap pre h) by auto. rewrite R2 by auto. now rewrite xorb_false_l.
Qed.
Theorem roaring_bitmap_flip_closed_rspec x1 s e : bok x1 -> 0 <= s < 2^32 -> 0 <= e < 2^32 ->
  rspec (roaring_bitmap_flip_closed x1 s e) (fun k x => xorb (km x1 k x) (rng s e k x)).
Proof.
  intros B Hs He. unfold roaring_bitmap_flip_closed. destruct (Z.ltb_spec e s).
  { split; auto. intros k x Hk Hx. replace (rng s e k x) with false; [now rewrite xorb_false_r|]. unfold rng. lia. }
  destruct (val_split s Hs) as (S1&S2&S3&S4). destruct (val_split e He) as (E1&E2&E3&E4). rewrite S1, E1. change (u16 s) with (s mod 65536). change (u16 e) with (e mod 65536). cbn zeta.
  set (a0 := ra_append_copies_until x1 (s / 65536)).
  assert (I0 : flipn_inv x1 s e (s / 65536) a0).
  { destruct (append_copies_until_spec x1 (s / 65536) 0 B) as (post&E&F1&F2). fold a0 in E, F1. split; [|split]; auto.
    - pose proof B as B'. unfold bok in B'. rewrite E in B'. apply gok_app in B'. apply B'.
    - intros k x Hk Hx. rewrite rng_out by lia. rewrite xorb_false_r. rewrite E. rewrite km_app_l; auto. intros Hin. specialize (F2 k Hin). lia. }
  assert (R : flipn_inv x1 s e (e / 65536 + 1) (flip_body (fun a => insert_flipped_container a x1) (fun a => insert_fully_flipped_container a x1) a0 (s / 65536) (s mod 65536) (e / 65536) (e mod 65536))).
  { apply (flip_body_inv (flipn_inv x1 s e)); try lia; auto.
    - intros h a lo hi Hh Hlo Hhi HR HI. assert (Hb : 0 <= h < 65536) by dm.
      apply (insert_flip_spec x1 s e a h (fun c => container_not_range c lo (hi + 1)) (container_range_of_ones lo (hi + 1)) (fun x => (lo <=? x) && (x <? hi + 1))); auto.
      + intros c Hc. pose proof (container_not_range_spec c lo (hi + 1) Hc ltac:(lia) ltac:(lia)) as (F1&F2). split; auto. intros x Hx. rewrite F2 by auto. apply fliprange_xorb.
      + apply container_range_of_ones_spec; lia.
    - intros h a Hh HR HI. assert (Hb : 0 <= h < 65536) by dm.
      apply (insert_flip_spec x1 s e a h (fun c => container_not c) (container_range_of_ones 0 65536) (fun x => true)); auto.
      + intros c Hc. exact (container_not_spec c Hc).
      + destruct (container_range_of_ones_spec 0 65536 ltac:(lia) ltac:(lia)) as (F1&F2). split; auto. intros x Hx. rewrite F2 by auto. lia. }
  set (a1 := flip_body _ _ _ _ _ _ _) in *. clearbody a1. destruct R as (R1&R2&R3). unfold ra_append_copies_after, ra_append_copy_range.
  set (st := if 0 <=? ra_get_index x1 (e / 65536) then ra_get_index x1 (e / 65536) + 1 else - ra_get_index x1 (e / 65536) - 1).
  assert (ST : exists pre post, x1 = pre ++ post /\ st = zlen pre /\ (forall y, In y (rkeys pre) -> y < e / 65536 + 1) /\ (forall y, In y (rkeys post) -> e / 65536 + 1 <= y)).
  { destruct (get_index_cases x1 (e / 65536) B) as [(pre&c&post&E&I&D&L&G)|(pre&post&E&I&L&G)]; unfold st; rewrite I; pose proof (zlen_nonneg pre).
    - replace (0 <=? zlen pre) with true by lia. exists (pre ++ [(e / 65536, c)]), post. rewrite <- app_assoc. split; auto.
      split; [rewrite zlen_app; reflexivity|]. split.
      + intros y Hy. rewrite rkeys_app in Hy. apply in_app_or in Hy as [Hy|[<-|[]]]; [specialize (L y Hy); lia|cbn; lia].
      + intros y Hy. specialize (G y Hy). lia.
    - replace (0 <=? - zlen pre - 1) with false by lia. exists pre, post. split; auto. split; [lia|]. split.
      + intros y Hy. specialize (L y Hy). lia.
      + intros y Hy. specialize (G y Hy). lia. }
  clearbody st. destruct ST as (pre&post&E&->&F1&F2).
  assert (EZ : zfirst (zlen x1 - zlen pre) (zdrop (zlen pre) x1) = post).
  { rewrite E at 2. rewrite zdrop_app by auto. apply zfirst_all. rewrite E, zlen_app. lia. }
  rewrite EZ.
  assert (GP : gok cok 0 post) by (pose proof B as B'; unfold bok in B'; rewrite E in B'; apply gok_app in B'; apply B').
  split.
  - apply gok_app. split; auto. split; auto. intros y z Hy Hz. specialize (R2 y Hy). specialize (F2 z Hz). lia.
  - intros k x Hk Hx. destruct (Z_lt_dec k (e / 65536 + 1)).
    + rewrite km_app_l by (intros Hin; specialize (F2 k Hin); lia). apply R3; lia.
    + rewrite km_app_r by (intros Hin; specialize (R2 k Hin); lia). rewrite rng_out by lia. rewrite xorb_false_r.
      rewrite E. rewrite km_app_r by (intros Hin; specialize (F1 k Hin); lia). reflexivity.
Qed.

(** ** Element-wise statements and the half-open interfaces *)
Lemma rspec_mem r P v : rspec r P -> 0 <= v < 2^32 -> mem r v = P (v / 65536) (v mod 65536).
Proof. intros (B&H) Hv. unfold mem. apply H; dm. Qed.
Lemma rng_val s e v : rng s e (v / 65536) (v mod 65536) = (s <=? v) && (v <=? e).
Proof. unfold rng. replace (65536 * (v / 65536) + v mod 65536) with v by dm. reflexivity. Qed.
(** r' is well formed and its members are given by P *)
Definition bspec (r' : bitmap) (P : Z -> bool) : Prop := bok r' /\ forall v, mem r' v = P v.
Lemma rspec_bspec r r' s e f P : bok r -> 0 <= s < 2^32 -> 0 <= e < 2^32 -> rspec r' (fun k x => f (km r k x) (rng s e k x)) ->
  f false false = false -> (forall v, P v = f (mem r v) ((s <=? v) && (v <=? e))) -> bspec r' P.
Proof.
  intros B Hs He R F0 HP. split; [apply R|]. intros v. rewrite HP. destruct (Z_lt_dec v 0) as [L|L]; [|destruct (Z_le_dec (2^32) v) as [L'|L']].
  - rewrite !mem_oob by (auto; try apply R; lia). replace ((s <=? v) && (v <=? e)) with false by lia. auto.
  - rewrite !mem_oob by (auto; try apply R; lia). replace ((s <=? v) && (v <=? e)) with false by lia. auto.
  - rewrite (rspec_mem _ _ v R) by lia. now rewrite rng_val.
Qed.
Lemma bspec_same r P : bok r -> (forall v, P v = mem r v) -> bspec r P.
Proof. intros B H. split; auto. Qed.
Theorem add_range_closed_mem r s e : bok r -> 0 <= s < 2^32 -> 0 <= e < 2^32 ->
  bspec (roaring_bitmap_add_range_closed r s e) (fun v => mem r v || ((s <=? v) && (v <=? e))).
Proof. intros. eapply (rspec_bspec r _ s e orb); auto. apply roaring_bitmap_add_range_closed_spec; auto. Qed.
Theorem remove_range_closed_mem r s e : bok r -> 0 <= s < 2^32 -> 0 <= e < 2^32 ->
  bspec (roaring_bitmap_remove_range_closed r s e) (fun v => mem r v && negb ((s <=? v) && (v <=? e))).
Proof. intros. eapply (rspec_bspec r _ s e (fun a b => a && negb b)); auto. apply roaring_bitmap_remove_range_closed_spec; auto. Qed.
Theorem flip_closed_mem r s e : bok r -> 0 <= s < 2^32 -> 0 <= e < 2^32 ->
  bspec (roaring_bitmap_flip_closed r s e) (fun v => xorb (mem r v) ((s <=? v) && (v <=? e))).
Proof. intros. eapply (rspec_bspec r _ s e xorb); auto. apply roaring_bitmap_flip_closed_rspec; auto. Qed.
Theorem flip_inplace_closed_mem cap r s e : bok r -> 0 <= s < 2^32 -> 0 <= e < 2^32 ->
  bspec (roaring_bitmap_flip_inplace_closed cap r s e) (fun v => xorb (mem r v) ((s <=? v) && (v <=? e))).
Proof. intros. eapply (rspec_bspec r _ s e xorb); auto. apply roaring_bitmap_flip_inplace_closed_rspec; auto. Qed.

Lemma u32_in v : 0 <= v < 2^32 -> u32 v = v.
Proof. intros. unfold u32. apply Z.mod_small. lia. Qed.
Ltac half := rewrite !u32_in by lia.
Theorem add_range_mem r a b : bok r -> 0 <= a -> 0 <= b <= 2^32 -> bspec (roaring_bitmap_add_range r a b) (fun v => mem r v || ((a <=? v) && (v <? b))).
Proof.
  intros B Ha Hb. unfold roaring_bitmap_add_range. destruct (Z.leb_spec b a); cbn [orb].
  - apply bspec_same; auto. intros v. replace ((a <=? v) && (v <? b)) with false by lia. apply orb_false_r.
  - replace (2^32 <? a) with false by lia. half. destruct (add_range_closed_mem r a (b - 1) B) as (X&Y); try lia. split; auto.
    intros v. rewrite Y. do 2 f_equal. lia.
Qed.
Theorem remove_range_mem r a b : bok r -> 0 <= a -> 0 <= b <= 2^32 -> bspec (roaring_bitmap_remove_range r a b) (fun v => mem r v && negb ((a <=? v) && (v <? b))).
Proof.
  intros B Ha Hb. unfold roaring_bitmap_remove_range. destruct (Z.leb_spec b a); cbn [orb].
  - apply bspec_same; auto. intros v. replace ((a <=? v) && (v <? b)) with false by lia. apply andb_true_r.
  - replace (2^32 <? a) with false by lia. half. destruct (remove_range_closed_mem r a (b - 1) B) as (X&Y); try lia. split; auto.
    intros v. rewrite Y. do 3 f_equal. lia.
Qed.
Theorem flip_mem r a b : bok r -> 0 <= a -> 0 <= b <= 2^32 -> bspec (roaring_bitmap_flip r a b) (fun v => xorb (mem r v) ((a <=? v) && (v <? b))).
Proof.
  intros B Ha Hb. unfold roaring_bitmap_flip. destruct (Z.leb_spec b a); cbn [orb].
  - apply bspec_same; auto. intros v. replace ((a <=? v) && (v <? b)) with false by lia. apply xorb_false_r.
  - replace (2^32 <? a) with false by lia. half. destruct (flip_closed_mem r a (b - 1) B) as (X&Y); try lia. split; auto.
    intros v. rewrite Y. do 2 f_equal. lia.
Qed.
Theorem flip_inplace_mem cap r a b : bok r -> 0 <= a -> 0 <= b <= 2^32 -> bspec (roaring_bitmap_flip_inplace cap r a b) (fun v => xorb (mem r v) ((a <=? v) && (v <? b))).
Proof.
  intros B Ha Hb. unfold roaring_bitmap_flip_inplace. destruct (Z.leb_spec b a); cbn [orb].
  - apply bspec_same; auto. intros v. replace ((a <=? v) && (v <? b)) with false by lia. apply xorb_false_r.
  - replace (2^32 <? a) with false by lia. half. destruct (flip_inplace_closed_mem cap r a (b - 1) B) as (X&Y); try lia. split; auto.
    intros v. rewrite Y. do 2 f_equal. lia.
Qed.
Theorem range_cardinality_cnt r a b : bok r -> 0 <= a -> 0 <= b <= 2^32 -> roaring_bitmap_range_cardinality r a b = cnt (mem r) a b.
Proof.
  intros B Ha Hb. unfold roaring_bitmap_range_cardinality. destruct (Z.leb_spec b a); cbn [orb].
  - now rewrite cnt_nil by lia.
  - replace (2^32 <? a) with false by lia. half. rewrite roaring_bitmap_range_cardinality_closed_spec by (auto; lia). now replace (b - 1 + 1) with b by lia.
Qed.
Theorem contains_range_iff r a b : bok r -> 0 <= a -> 0 <= b <= 2^32 ->
  (roaring_bitmap_contains_range r a b = true <-> forall v, a <= v < b -> mem r v = true).
Proof.
  intros B Ha Hb. unfold roaring_bitmap_contains_range. destruct (Z.leb_spec b a); cbn [orb].
  - split; auto. intros. lia.
  - replace (2^32 <? a) with false by lia. half. rewrite roaring_bitmap_contains_range_closed_spec by (auto; lia).
    split; intros HH v Hv; apply HH; lia.
Qed.

(** ** Beyond 2^32: what the truncating casts do *)
(** a start of exactly 2^32 passes the guard and becomes 0 *)
Theorem add_range_at_2_32 r b : 2^32 < b -> roaring_bitmap_add_range r (2^32) b = roaring_bitmap_add_range_closed r 0 (u32 (b - 1)).
Proof. intros. unfold roaring_bitmap_add_range. replace (b <=? 2^32) with false by lia. rewrite Z.ltb_irrefl. cbn [orb]. f_equal. Qed.
(** an end beyond 2^32 is reduced modulo 2^32: nothing is added if the result
    lies below the start *)
Theorem add_range_end_wraps r a b : 0 <= a < b -> a <= 2^32 -> u32 (b - 1) < u32 a -> roaring_bitmap_add_range r a b = r.
Proof.
  intros. unfold roaring_bitmap_add_range. replace (b <=? a) with false by lia. replace (2^32 <? a) with false by lia. cbn [orb].
  unfold roaring_bitmap_add_range_closed. now replace (u32 (b - 1) <? u32 a) with true by lia.
Qed.
