(** RBinary: set operations between two bitmaps (src/roaring.c): the loops over the
    two key arrays.  Positions pos1/pos2 are indices as in the C code.  Appending to
    the answer is producing the next element of the resulting list; the in-place
    variants rewrite the list of the first operand at the indices the code uses.
    Loops carry fuel (the sum of the sizes is proved sufficient).
    Parameters [sh] and [cap] stand for state that is not part of a bitmap value:
    [sh k] tells whether the container of x1 under key k is reached through a SHARED
    wrapper, [cap k] is the allocated capacity of that container.  All results are
    proved for every choice of [sh] and [cap]. *)
From Verif Require Import Base ArrayUtil BitUtil BitsetC ArrayC RunC RunD Convert MixedI MixedU MixedA MixedN Containers RArray.
Local Opaque zr.

Definition ofuel (x1 x2 : bitmap) : nat := S (length x1 + length x2).
Definition nonzero (c : container) : option container := if container_nonzero_cardinality c then Some c else None.
Definition emit (k : Z) (o : option container) (t : bitmap) : bitmap :=
  match o with Some c => (k, c) :: t | None => t end.

(** ** Unions and symmetric differences.
    roaring_bitmap_or (roaring.c:844-920), _xor (995-1070), _lazy_or (2233-2322) and
    _lazy_xor (2408-2485) share this loop; they differ in what is done with two
    containers of the same key ([op]; None: the result is empty and dropped).  The C
    loop leaves with break as soon as a position reaches its length and then appends
    the rest of the other operand. *)
Fixpoint union_loop (fuel : nat) (op : Z -> container -> container -> option container) (x1 x2 : bitmap) (pos1 pos2 : Z) : bitmap :=
  match fuel with
  | O => []
  | S f =>
    if pos1 =? zlen x1 then ra_append_copy_range [] x2 pos2 (zlen x2)
    else if pos2 =? zlen x2 then ra_append_copy_range [] x1 pos1 (zlen x1)
    else
      let s1 := rkey x1 pos1 in let s2 := rkey x2 pos2 in
      if s1 =? s2 then emit s1 (op s1 (rcon x1 pos1) (rcon x2 pos2)) (union_loop f op x1 x2 (pos1 + 1) (pos2 + 1))
      else if s1 <? s2 then (s1, rcon x1 pos1) :: union_loop f op x1 x2 (pos1 + 1) pos2
      else (s2, rcon x2 pos2) :: union_loop f op x1 x2 pos1 (pos2 + 1)
  end.
Definition union_op (op : Z -> container -> container -> option container) (x1 x2 : bitmap) : bitmap :=
  if 0 =? zlen x1 then x2 else if 0 =? zlen x2 then x1 else union_loop (ofuel x1 x2) op x1 x2 0 0.

(** In place: roaring_bitmap_or_inplace (923-992), _xor_inplace (1074-1158),
    _lazy_or_inplace (2324-2406), _lazy_xor_inplace (2487-2567). *)
Fixpoint iunion_loop (fuel : nat) (op : Z -> container -> container -> option container) (x1 x2 : bitmap) (pos1 pos2 : Z) : bitmap :=
  match fuel with
  | O => x1
  | S f =>
    if pos1 =? zlen x1 then ra_append_copy_range x1 x2 pos2 (zlen x2)
    else if pos2 =? zlen x2 then x1
    else
      let s1 := rkey x1 pos1 in let s2 := rkey x2 pos2 in
      if s1 =? s2 then
        match op s1 (rcon x1 pos1) (rcon x2 pos2) with
        | Some c => iunion_loop f op (ra_set_container_at_index x1 pos1 c) x2 (pos1 + 1) (pos2 + 1)
        | None => iunion_loop f op (ra_remove_at_index x1 pos1) x2 pos1 (pos2 + 1)
        end
      else if s1 <? s2 then iunion_loop f op x1 x2 (pos1 + 1) pos2
      else iunion_loop f op (ra_insert_new_key_value_at x1 pos1 s2 (rcon x2 pos2)) x2 (pos1 + 1) (pos2 + 1)
  end.
Definition iunion_op (op : Z -> container -> container -> option container) (x1 x2 : bitmap) : bitmap :=
  if 0 =? zlen x2 then x1 else if 0 =? zlen x1 then x2 else iunion_loop (ofuel x1 x2) op x1 x2 0 0.

Definition roaring_bitmap_or (x1 x2 : bitmap) : bitmap := union_op (fun _ c1 c2 => Some (container_or c1 c2)) x1 x2.
Definition roaring_bitmap_xor (x1 x2 : bitmap) : bitmap := union_op (fun _ c1 c2 => nonzero (container_xor c1 c2)) x1 x2.
Definition roaring_bitmap_or_inplace (sh : Z -> bool) (cap : Z -> Z) (x1 x2 : bitmap) : bitmap :=
  iunion_op (fun k c1 c2 => Some (if container_is_full c1 then c1
                                  else if sh k then container_or c1 c2 else container_ior (cap k) c1 c2)) x1 x2.
Definition roaring_bitmap_xor_inplace (sh : Z -> bool) (x1 x2 : bitmap) : bitmap :=
  iunion_op (fun k c1 c2 => nonzero (if sh k then container_xor c1 c2 else container_ixor c1 c2)) x1 x2.

(** containers.h:154-173 container_to_bitset *)
Definition container_to_bitset (c : container) : container :=
  match c with
  | CBit b => CBit b
  | CArr a => CBit (bitset_container_from_array a)
  | CRun r => CBit (bitset_container_from_run r)
  end.
Definition is_bitset (c : container) : bool := match c with CBit _ => true | _ => false end.
(** roaring.c:2233-2322; the bitset made by the conversion has no spare capacity to speak
    of: the capacity argument of container_lazy_ior only matters for two arrays *)
Definition roaring_bitmap_lazy_or (x1 x2 : bitmap) (bitsetconversion : bool) : bitmap :=
  union_op (fun _ c1 c2 => Some (
    if bitsetconversion && negb (is_bitset c1) && negb (is_bitset c2)
    then container_lazy_ior 0 (container_to_bitset c1) c2 else container_lazy_or c1 c2)) x1 x2.
Definition roaring_bitmap_lazy_or_inplace (cap : Z -> Z) (x1 x2 : bitmap) (bitsetconversion : bool) : bitmap :=
  iunion_op (fun k c1 c2 => Some (
    if container_is_full c1 then c1
    else let c1' := if negb bitsetconversion || is_bitset c1 then c1 else container_to_bitset c1 in
         container_lazy_ior (cap k) c1' c2)) x1 x2.
Definition roaring_bitmap_lazy_xor (x1 x2 : bitmap) : bitmap :=
  union_op (fun _ c1 c2 => nonzero (container_lazy_xor c1 c2)) x1 x2.
Definition roaring_bitmap_lazy_xor_inplace (sh : Z -> bool) (x1 x2 : bitmap) : bitmap :=
  iunion_op (fun k c1 c2 => nonzero (if sh k then container_lazy_xor c1 c2 else container_lazy_ixor c1 c2)) x1 x2.
(** roaring.c:2569-2580 repair_after_lazy *)
Definition roaring_bitmap_repair_after_lazy (r : bitmap) : bitmap :=
  map (fun p => (fst p, container_repair_after_lazy (snd p))) r.
(** roaring.c:742-757 or_many (LAZY_OR_BITSET_CONVERSION is true, roaring.c / roaring_types);
    762-776 xor_many *)
Definition roaring_bitmap_or_many (cap : Z -> Z) (xs : list bitmap) : bitmap :=
  match xs with
  | [] => []
  | [x] => x
  | x0 :: x1 :: rest =>
    roaring_bitmap_repair_after_lazy
      (fold_left (fun ans x => roaring_bitmap_lazy_or_inplace cap ans x true) rest (roaring_bitmap_lazy_or x0 x1 true))
  end.
Definition roaring_bitmap_xor_many (sh : Z -> bool) (xs : list bitmap) : bitmap :=
  match xs with
  | [] => []
  | [x] => x
  | x0 :: x1 :: rest =>
    roaring_bitmap_repair_after_lazy
      (fold_left (fun ans x => roaring_bitmap_lazy_xor_inplace sh ans x) rest (roaring_bitmap_lazy_xor x0 x1))
  end.

(** ** Intersection: roaring.c:698-737 *)
Fixpoint and_loop (fuel : nat) (x1 x2 : bitmap) (pos1 pos2 : Z) : bitmap :=
  match fuel with
  | O => []
  | S f =>
    if (pos1 <? zlen x1) && (pos2 <? zlen x2) then
      let s1 := rkey x1 pos1 in let s2 := rkey x2 pos2 in
      if s1 =? s2 then emit s1 (nonzero (container_and (rcon x1 pos1) (rcon x2 pos2))) (and_loop f x1 x2 (pos1 + 1) (pos2 + 1))
      else if s1 <? s2 then and_loop f x1 x2 (ra_advance_until x1 s2 pos1) pos2
      else and_loop f x1 x2 pos1 (ra_advance_until x2 s1 pos2)
    else []
  end.
Definition roaring_bitmap_and (x1 x2 : bitmap) : bitmap := and_loop (ofuel x1 x2) x1 x2 0 0.

(** roaring.c:779-841 and_inplace.  The test x1 == x2 compares addresses: [same] says
    whether the caller passed the same bitmap twice (then x1 = x2 as values too). *)
Fixpoint iand_loop (fuel : nat) (sh : Z -> bool) (x1 x2 : bitmap) (pos1 pos2 intersection_size : Z) : bitmap :=
  match fuel with
  | O => ra_downsize x1 intersection_size
  | S f =>
    if (pos1 <? zlen x1) && (pos2 <? zlen x2) then
      let s1 := rkey x1 pos1 in let s2 := rkey x2 pos2 in
      if s1 =? s2 then
        let c := if sh s1 then container_and (rcon x1 pos1) (rcon x2 pos2) else container_iand (rcon x1 pos1) (rcon x2 pos2) in
        if container_nonzero_cardinality c
        then iand_loop f sh (ra_replace_key_and_container_at_index x1 intersection_size s1 c) x2 (pos1 + 1) (pos2 + 1) (intersection_size + 1)
        else iand_loop f sh x1 x2 (pos1 + 1) (pos2 + 1) intersection_size
      else if s1 <? s2 then iand_loop f sh x1 x2 (ra_advance_until_freeing (S (length x1)) x1 s2 pos1) pos2 intersection_size
      else iand_loop f sh x1 x2 pos1 (ra_advance_until x2 s1 pos2) intersection_size
    else ra_downsize x1 intersection_size
  end.
Definition roaring_bitmap_and_inplace (same : bool) (sh : Z -> bool) (x1 x2 : bitmap) : bitmap :=
  if same then x1 else iand_loop (ofuel x1 x2) sh x1 x2 0 0 0.

(** ** Difference: roaring.c:1161-1223; in place 1228-1320 *)
Fixpoint andnot_loop (fuel : nat) (x1 x2 : bitmap) (pos1 pos2 : Z) : bitmap :=
  match fuel with
  | O => []
  | S f =>
    if pos1 =? zlen x1 then []
    else if pos2 =? zlen x2 then ra_append_copy_range [] x1 pos1 (zlen x1)
    else
      let s1 := rkey x1 pos1 in let s2 := rkey x2 pos2 in
      if s1 =? s2 then emit s1 (nonzero (container_andnot (rcon x1 pos1) (rcon x2 pos2))) (andnot_loop f x1 x2 (pos1 + 1) (pos2 + 1))
      else if s1 <? s2 then
        let next_pos1 := ra_advance_until x1 s2 pos1 in
        ra_append_copy_range [] x1 pos1 next_pos1 ++ andnot_loop f x1 x2 next_pos1 pos2
      else andnot_loop f x1 x2 pos1 (ra_advance_until x2 s1 pos2)
  end.
Definition roaring_bitmap_andnot (x1 x2 : bitmap) : bitmap :=
  if 0 =? zlen x1 then [] else if 0 =? zlen x2 then x1 else andnot_loop (ofuel x1 x2) x1 x2 0 0.

Definition iandnot_finish (x1 : bitmap) (pos1 intersection_size : Z) : bitmap :=
  if pos1 <? zlen x1 then
    let x1' := if intersection_size <? pos1 then ra_copy_range x1 pos1 (zlen x1) intersection_size else x1 in
    ra_downsize x1' (intersection_size + (zlen x1 - pos1))
  else ra_downsize x1 intersection_size.
Fixpoint iandnot_loop (fuel : nat) (sh : Z -> bool) (x1 x2 : bitmap) (pos1 pos2 intersection_size : Z) : bitmap :=
  match fuel with
  | O => x1
  | S f =>
    if (pos1 =? zlen x1) || (pos2 =? zlen x2) then iandnot_finish x1 pos1 intersection_size
    else
      let s1 := rkey x1 pos1 in let s2 := rkey x2 pos2 in
      if s1 =? s2 then
        let c := if sh s1 then container_andnot (rcon x1 pos1) (rcon x2 pos2) else container_iandnot (rcon x1 pos1) (rcon x2 pos2) in
        if container_nonzero_cardinality c
        then iandnot_loop f sh (ra_replace_key_and_container_at_index x1 intersection_size s1 c) x2 (pos1 + 1) (pos2 + 1) (intersection_size + 1)
        else iandnot_loop f sh x1 x2 (pos1 + 1) (pos2 + 1) intersection_size
      else if s1 <? s2 then
        let x1' := if negb (pos1 =? intersection_size)
                   then ra_replace_key_and_container_at_index x1 intersection_size s1 (rcon x1 pos1) else x1 in
        iandnot_loop f sh x1' x2 (pos1 + 1) pos2 (intersection_size + 1)
      else iandnot_loop f sh x1 x2 pos1 (ra_advance_until x2 s1 pos2) intersection_size
  end.
Definition roaring_bitmap_andnot_inplace (sh : Z -> bool) (x1 x2 : bitmap) : bitmap :=
  if 0 =? zlen x2 then x1 else if 0 =? zlen x1 then [] else iandnot_loop (ofuel x1 x2) sh x1 x2 0 0 0.

(** ** Counting and testing: and_cardinality roaring.c:2768-2796, intersect 2718-2747,
    is_subset 1875-1907, equals 1852-1873, get_cardinality 1322-1329 *)
Fixpoint and_card_loop (fuel : nat) (x1 x2 : bitmap) (pos1 pos2 answer : Z) : Z :=
  match fuel with
  | O => answer
  | S f =>
    if (pos1 <? zlen x1) && (pos2 <? zlen x2) then
      let s1 := rkey x1 pos1 in let s2 := rkey x2 pos2 in
      if s1 =? s2 then and_card_loop f x1 x2 (pos1 + 1) (pos2 + 1) (answer + container_and_cardinality (rcon x1 pos1) (rcon x2 pos2))
      else if s1 <? s2 then and_card_loop f x1 x2 (ra_advance_until x1 s2 pos1) pos2 answer
      else and_card_loop f x1 x2 pos1 (ra_advance_until x2 s1 pos2) answer
    else answer
  end.
Definition roaring_bitmap_and_cardinality (x1 x2 : bitmap) : Z := and_card_loop (ofuel x1 x2) x1 x2 0 0 0.
Fixpoint intersect_loop (fuel : nat) (x1 x2 : bitmap) (pos1 pos2 : Z) : bool :=
  match fuel with
  | O => false
  | S f =>
    if (pos1 <? zlen x1) && (pos2 <? zlen x2) then
      let s1 := rkey x1 pos1 in let s2 := rkey x2 pos2 in
      if s1 =? s2 then
        if container_intersect (rcon x1 pos1) (rcon x2 pos2) then true else intersect_loop f x1 x2 (pos1 + 1) (pos2 + 1)
      else if s1 <? s2 then intersect_loop f x1 x2 (ra_advance_until x1 s2 pos1) pos2
      else intersect_loop f x1 x2 pos1 (ra_advance_until x2 s1 pos2)
    else false
  end.
Definition roaring_bitmap_intersect (x1 x2 : bitmap) : bool := intersect_loop (ofuel x1 x2) x1 x2 0 0.
Fixpoint subset_loop (fuel : nat) (x1 x2 : bitmap) (pos1 pos2 : Z) : bool :=
  match fuel with
  | O => false
  | S f =>
    if (pos1 <? zlen x1) && (pos2 <? zlen x2) then
      let s1 := rkey x1 pos1 in let s2 := rkey x2 pos2 in
      if s1 =? s2 then
        if negb (container_is_subset (rcon x1 pos1) (rcon x2 pos2)) then false else subset_loop f x1 x2 (pos1 + 1) (pos2 + 1)
      else if s1 <? s2 then false
      else subset_loop f x1 x2 pos1 (ra_advance_until x2 s1 pos2)
    else pos1 =? zlen x1
  end.
Definition roaring_bitmap_is_subset (x1 x2 : bitmap) : bool := subset_loop (ofuel x1 x2) x1 x2 0 0.
Fixpoint keys_equal (r1 r2 : bitmap) : bool :=
  match r1, r2 with
  | [], [] => true
  | (k1, _) :: t1, (k2, _) :: t2 => if negb (k1 =? k2) then false else keys_equal t1 t2
  | _, _ => false
  end.
Fixpoint containers_equal (r1 r2 : bitmap) : bool :=
  match r1, r2 with
  | [], [] => true
  | (_, c1) :: t1, (_, c2) :: t2 => if negb (container_equals c1 c2) then false else containers_equal t1 t2
  | _, _ => false
  end.
Definition roaring_bitmap_equals (r1 r2 : bitmap) : bool :=
  if negb (zlen r1 =? zlen r2) then false
  else if negb (keys_equal r1 r2) then false else containers_equal r1 r2.
Definition roaring_bitmap_get_cardinality (r : bitmap) : Z :=
  fold_left (fun card p => card + container_get_cardinality (snd p)) r 0.
(** roaring.c:2806-2827 or/andnot/xor cardinalities (uint64 arithmetic, no wrap: all
    intermediate values are proved to stay in range); 2909-2914 is_strict_subset *)
Definition roaring_bitmap_or_cardinality (x1 x2 : bitmap) : Z :=
  roaring_bitmap_get_cardinality x1 + roaring_bitmap_get_cardinality x2 - roaring_bitmap_and_cardinality x1 x2.
Definition roaring_bitmap_andnot_cardinality (x1 x2 : bitmap) : Z :=
  roaring_bitmap_get_cardinality x1 - roaring_bitmap_and_cardinality x1 x2.
Definition roaring_bitmap_xor_cardinality (x1 x2 : bitmap) : Z :=
  roaring_bitmap_get_cardinality x1 + roaring_bitmap_get_cardinality x2 - 2 * roaring_bitmap_and_cardinality x1 x2.
Definition roaring_bitmap_is_strict_subset (x1 x2 : bitmap) : bool :=
  (roaring_bitmap_get_cardinality x1 <? roaring_bitmap_get_cardinality x2) && roaring_bitmap_is_subset x1 x2.
(** roaring.c:2798-2804 jaccard_index: the numerator and denominator of the final
    floating-point division *)
Definition roaring_bitmap_jaccard_index (x1 x2 : bitmap) : Z * Z :=
  let inter := roaring_bitmap_and_cardinality x1 x2 in
  (inter, roaring_bitmap_get_cardinality x1 + roaring_bitmap_get_cardinality x2 - inter).

(** ** Proofs *)
Definition copy_range_all x pos : 0 <= pos <= zlen x -> ra_append_copy_range [] x pos (zlen x) = zdrop pos x.
Proof. intros. unfold ra_append_copy_range. cbn [app]. apply zfirst_all. rewrite zdrop_zlen; lia. Qed.

Definition opok (C1 C2 C : container -> Prop) (f : bool -> bool -> bool) (op : Z -> container -> container -> option container) : Prop :=
  forall k c1 c2, C1 c1 -> C2 c2 ->
  match op k c1 c2 with
  | Some c => C c /\ forall x, 0 <= x < 65536 -> cmem c x = f (cmem c1 x) (cmem c2 x)
  | None => forall x, 0 <= x < 65536 -> f (cmem c1 x) (cmem c2 x) = false
  end.
Definition unionlike (f : bool -> bool -> bool) : Prop := forall b, f b false = b /\ f false b = b.

Lemma bmrep_emit (C : container -> Prop) lo k o t P : lo <= k < 65536 ->
  (match o with Some c => C c /\ forall x, 0 <= x < 65536 -> cmem c x = P k x | None => forall x, 0 <= x < 65536 -> P k x = false end) ->
  (forall j x, lo <= j < k -> 0 <= x < 65536 -> P j x = false) -> bmrep C (k + 1) t P -> bmrep C lo (emit k o t) P.
Proof.
  intros Hk Ho Hlo Ht. destruct o as [c|]; cbn [emit].
  - destruct Ho. now apply bmrep_cons.
  - apply (bmrep_skip C lo (k + 1)); auto; try lia. intros j x Hj Hx.
    destruct (Z.eq_dec j k); [subst; auto|]. apply Hlo; lia.
Qed.

Ltac kmb H := rewrite (km_below _ _ _ _ _ H) by lia.

Lemma union_loop_spec C1 C2 (C : container -> Prop) f op (Hf : unionlike f) (Hop : opok C1 C2 C f op)
  (I1 : forall c, C1 c -> C c) (I2 : forall c, C2 c -> C c) x1 x2 fuel pos1 pos2 lo :
  0 <= pos1 <= zlen x1 -> 0 <= pos2 <= zlen x2 -> gok C1 lo (zdrop pos1 x1) -> gok C2 lo (zdrop pos2 x2) ->
  (zlen x1 - pos1) + (zlen x2 - pos2) < Z.of_nat fuel ->
  bmrep C lo (union_loop fuel op x1 x2 pos1 pos2) (fun k x => f (km (zdrop pos1 x1) k x) (km (zdrop pos2 x2) k x)).
Proof.
  revert pos1 pos2 lo. induction fuel as [|fu IH]; intros pos1 pos2 lo Hp1 Hp2 G1 G2 Hfu; [lia|]. cbn [union_loop].
  destruct (Z.eqb_spec pos1 (zlen x1)); [|destruct (Z.eqb_spec pos2 (zlen x2))].
  - rewrite copy_range_all by lia. rewrite (zdrop_all pos1) by lia.
    eapply bmrep_ext; [apply bmrep_self; eapply gok_impl; [apply I2|apply G2]|]. intros. cbn beta. rewrite km_nil. symmetry. apply Hf.
  - rewrite copy_range_all by lia. rewrite (zdrop_all pos2) by lia.
    eapply bmrep_ext; [apply bmrep_self; eapply gok_impl; [apply I1|apply G1]|]. intros. cbn beta. rewrite km_nil. symmetry. apply Hf.
  - cbn zeta. rewrite (rdrop_S x1 pos1) in * by lia. rewrite (rdrop_S x2 pos2) in * by lia.
    apply gok_cons in G1 as (K1&D1&T1). apply gok_cons in G2 as (K2&D2&T2).
    set (s1 := rkey x1 pos1) in *. set (s2 := rkey x2 pos2) in *.
    set (c1 := rcon x1 pos1) in *. set (c2 := rcon x2 pos2) in *.
    destruct (Z.eqb_spec s1 s2) as [E|E]; [|destruct (Z.ltb_spec s1 s2) as [L|L]].
    + rewrite <- E in *. apply bmrep_emit; auto.
      * specialize (Hop s1 c1 c2 D1 D2). destruct (op s1 c1 c2); [destruct Hop; split; auto|];
          intros; rewrite !km_head; auto.
      * intros j x Hj Hx. rewrite !km_tail by lia. kmb T1. kmb T2. apply Hf.
      * eapply bmrep_ext; [apply IH; auto; lia|]. intros. cbn beta. now rewrite !km_tail by lia.
    + apply bmrep_cons; auto.
      * intros x Hx. rewrite km_head, km_tail by lia. kmb T2. symmetry. apply Hf.
      * intros j x Hj Hx. rewrite !km_tail by lia. kmb T1. kmb T2. apply Hf.
      * eapply bmrep_ext; [apply IH; auto; try lia|].
        -- rewrite (rdrop_S x2 pos2) by lia. apply gok_cons. fold s2 c2. repeat split; try apply T2; auto; lia.
        -- intros. cbn beta. rewrite (rdrop_S x2 pos2) by lia. fold s2 c2. now rewrite (km_tail s1) by lia.
    + apply bmrep_cons; auto.
      * intros x Hx. rewrite km_head, km_tail by lia. kmb T1. symmetry. apply Hf.
      * intros j x Hj Hx. rewrite !km_tail by lia. kmb T1. kmb T2. apply Hf.
      * eapply bmrep_ext; [apply IH; auto; try lia|].
        -- rewrite (rdrop_S x1 pos1) by lia. apply gok_cons. fold s1 c1. repeat split; try apply T1; auto; lia.
        -- intros. cbn beta. rewrite (rdrop_S x1 pos1) by lia. fold s1 c1. now rewrite (km_tail s2) by lia.
Qed.
Lemma union_op_spec C1 C2 (C : container -> Prop) f op (Hf : unionlike f) (Hop : opok C1 C2 C f op)
  (I1 : forall c, C1 c -> C c) (I2 : forall c, C2 c -> C c) x1 x2 :
  gok C1 0 x1 -> gok C2 0 x2 -> bmrep C 0 (union_op op x1 x2) (fun k x => f (km x1 k x) (km x2 k x)).
Proof.
  intros G1 G2. unfold union_op. pose proof (zlen_nonneg x1). pose proof (zlen_nonneg x2).
  destruct (Z.eqb_spec 0 (zlen x1)) as [E|E]; [|destruct (Z.eqb_spec 0 (zlen x2)) as [E2|E2]].
  - symmetry in E. apply zlen_0_nil in E. subst x1.
    eapply bmrep_ext; [apply bmrep_self; eapply gok_impl; [apply I2|apply G2]|]. intros. cbn beta. rewrite km_nil. symmetry. apply Hf.
  - symmetry in E2. apply zlen_0_nil in E2. subst x2.
    eapply bmrep_ext; [apply bmrep_self; eapply gok_impl; [apply I1|apply G1]|]. intros. cbn beta. rewrite km_nil. symmetry. apply Hf.
  - apply (union_loop_spec C1 C2); auto; try lia. unfold ofuel, zlen. lia.
Qed.

(** in place: entries before pos1 are final, the rest behaves like the functional loop *)
Lemma iunion_loop_spec C1 C2 (C : container -> Prop) f op (Hf : unionlike f) (Hop : opok C1 C2 C f op)
  (I1 : forall c, C1 c -> C c) (I2 : forall c, C2 c -> C c) x2 fuel x1 pos1 pos2 lo :
  0 <= pos1 <= zlen x1 -> 0 <= pos2 <= zlen x2 -> gok C1 lo (zdrop pos1 x1) -> gok C2 lo (zdrop pos2 x2) ->
  (zlen x1 - pos1) + (zlen x2 - pos2) < Z.of_nat fuel ->
  exists out, iunion_loop fuel op x1 x2 pos1 pos2 = zfirst pos1 x1 ++ out /\
  bmrep C lo out (fun k x => f (km (zdrop pos1 x1) k x) (km (zdrop pos2 x2) k x)).
Proof.
  revert x1 pos1 pos2 lo. induction fuel as [|fu IH]; intros x1 pos1 pos2 lo Hp1 Hp2 G1 G2 Hfu; [lia|]. cbn [iunion_loop].
  destruct (Z.eqb_spec pos1 (zlen x1)); [|destruct (Z.eqb_spec pos2 (zlen x2))].
  - exists (zdrop pos2 x2). split.
    + unfold ra_append_copy_range. f_equal; [symmetry; apply zfirst_all; lia|]. apply zfirst_all. rewrite zdrop_zlen; lia.
    + rewrite (zdrop_all pos1) by lia.
      eapply bmrep_ext; [apply bmrep_self; eapply gok_impl; [apply I2|apply G2]|]. intros. cbn beta. rewrite km_nil. symmetry. apply Hf.
  - exists (zdrop pos1 x1). rewrite zfirst_zdrop. split; auto. rewrite (zdrop_all pos2) by lia.
    eapply bmrep_ext; [apply bmrep_self; eapply gok_impl; [apply I1|apply G1]|]. intros. cbn beta. rewrite km_nil. symmetry. apply Hf.
  - cbn zeta. pose proof (rkeys_split x1 pos1 ltac:(lia)) as S1.
    assert (HL : zlen (zfirst pos1 x1) = pos1) by (apply zfirst_zlen; lia).
    rewrite (rdrop_S x1 pos1) in * by lia. rewrite (rdrop_S x2 pos2) in * by lia.
    apply gok_cons in G1 as (K1&D1&T1). apply gok_cons in G2 as (K2&D2&T2).
    set (s1 := rkey x1 pos1) in *. set (s2 := rkey x2 pos2) in *.
    set (c1 := rcon x1 pos1) in *. set (c2 := rcon x2 pos2) in *.
    set (pre := zfirst pos1 x1) in *. set (post := zdrop (pos1 + 1) x1) in *.
    assert (ZL : zlen x1 = pos1 + 1 + zlen post) by (rewrite S1, zlen_app, zlen_cons; lia).
    pose proof (zlen_nonneg post) as Hpp.
    destruct (Z.eqb_spec s1 s2) as [E|E]; [|destruct (Z.ltb_spec s1 s2) as [L|L]].
    + rewrite <- E in *. pose proof (Hop s1 c1 c2 D1 D2) as Ho. destruct (op s1 c1 c2) as [c|].
      * destruct Ho as (Ho1&Ho2).
        assert (EX : ra_set_container_at_index x1 pos1 c = (pre ++ [(s1, c)]) ++ post).
        { unfold ra_set_container_at_index. fold s1. rewrite S1 at 1. rewrite zupd_app by auto. now rewrite <- app_assoc. }
        rewrite EX. destruct (IH ((pre ++ [(s1, c)]) ++ post) (pos1 + 1) (pos2 + 1) (s1 + 1)) as (out&O1&O2).
        { rewrite !zlen_app, zlen_cons. change (zlen (@nil entry)) with 0. lia. }
        { lia. }
        { rewrite zdrop_app by (rewrite zlen_app, zlen_cons; change (zlen (@nil entry)) with 0; lia). auto. }
        { auto. }
        { rewrite !zlen_app, zlen_cons. change (zlen (@nil entry)) with 0. lia. }
        rewrite zdrop_app in O2 by (rewrite zlen_app, zlen_cons; change (zlen (@nil entry)) with 0; lia).
        rewrite zfirst_app in O1 by (rewrite zlen_app, zlen_cons; change (zlen (@nil entry)) with 0; lia).
        exists ((s1, c) :: out). split; [rewrite O1, <- app_assoc; reflexivity|].
        apply bmrep_cons; auto.
        -- intros. rewrite !km_head. auto.
        -- intros j x Hj Hx. rewrite !km_tail by lia. kmb T1. kmb T2. apply Hf.
        -- eapply bmrep_ext; [apply O2|]. intros. cbn beta. now rewrite !km_tail by lia.
      * assert (EX : ra_remove_at_index x1 pos1 = pre ++ post) by reflexivity.
        rewrite EX. destruct (IH (pre ++ post) pos1 (pos2 + 1) (s1 + 1)) as (out&O1&O2).
        { rewrite zlen_app. lia. }
        { lia. }
        { rewrite zdrop_app by auto. auto. }
        { auto. }
        { rewrite zlen_app. lia. }
        rewrite zdrop_app in O2 by auto. rewrite zfirst_app in O1 by auto.
        exists out. split; auto.
        apply (bmrep_emit C lo s1 None); auto.
        -- intros. rewrite !km_head. auto.
        -- intros j x Hj Hx. rewrite !km_tail by lia. kmb T1. kmb T2. apply Hf.
        -- eapply bmrep_ext; [apply O2|]. intros. cbn beta. now rewrite !km_tail by lia.
    + destruct (IH x1 (pos1 + 1) pos2 (s1 + 1)) as (out&O1&O2).
      { lia. } { lia. } { auto. }
      { rewrite (rdrop_S x2 pos2) by lia. apply gok_cons. fold s2 c2. repeat split; try apply T2; auto; lia. }
      { lia. }
      exists ((s1, c1) :: out). split.
      * rewrite O1. assert (E3 : zfirst (pos1 + 1) x1 = pre ++ [(s1, c1)]).
        { rewrite S1. change (pre ++ (s1, c1) :: post) with (pre ++ [(s1, c1)] ++ post). rewrite app_assoc.
          apply zfirst_app. rewrite zlen_app, zlen_cons; change (zlen (@nil entry)) with 0; lia. }
        rewrite E3, <- app_assoc. reflexivity.
      * apply bmrep_cons; auto.
        -- intros x Hx. rewrite km_head, km_tail by lia. kmb T2. symmetry. apply Hf.
        -- intros j x Hj Hx. rewrite !km_tail by lia. kmb T1. kmb T2. apply Hf.
        -- eapply bmrep_ext; [apply O2|]. intros. cbn beta. rewrite (rdrop_S x2 pos2) by lia. fold s2 c2 post. now rewrite (km_tail s1) by lia.
    + assert (EX : ra_insert_new_key_value_at x1 pos1 s2 c2 = (pre ++ [(s2, c2)]) ++ ((s1, c1) :: post)).
      { unfold ra_insert_new_key_value_at. fold pre. rewrite (rdrop_S x1 pos1) by lia. fold s1 c1 post. now rewrite <- app_assoc. }
      rewrite EX. destruct (IH ((pre ++ [(s2, c2)]) ++ ((s1, c1) :: post)) (pos1 + 1) (pos2 + 1) (s2 + 1)) as (out&O1&O2).
      { rewrite !zlen_app, !zlen_cons. change (zlen (@nil entry)) with 0. lia. }
      { lia. }
      { rewrite zdrop_app by (rewrite zlen_app, zlen_cons; change (zlen (@nil entry)) with 0; lia).
        apply gok_cons. repeat split; try apply T1; auto; lia. }
      { auto. }
      { rewrite !zlen_app, !zlen_cons. change (zlen (@nil entry)) with 0. lia. }
      rewrite zdrop_app in O2 by (rewrite zlen_app, zlen_cons; change (zlen (@nil entry)) with 0; lia).
      rewrite zfirst_app in O1 by (rewrite zlen_app, zlen_cons; change (zlen (@nil entry)) with 0; lia).
      exists ((s2, c2) :: out). split; [rewrite O1, <- app_assoc; reflexivity|].
      apply bmrep_cons; auto.
      * intros x Hx. rewrite km_head, km_tail by lia. kmb T1. symmetry. apply Hf.
      * intros j x Hj Hx. rewrite !km_tail by lia. kmb T1. kmb T2. apply Hf.
      * eapply bmrep_ext; [apply O2|]. intros. cbn beta. now rewrite (km_tail s2) by lia.
Qed.
Lemma iunion_op_spec C1 C2 (C : container -> Prop) f op (Hf : unionlike f) (Hop : opok C1 C2 C f op)
  (I1 : forall c, C1 c -> C c) (I2 : forall c, C2 c -> C c) x1 x2 :
  gok C1 0 x1 -> gok C2 0 x2 -> bmrep C 0 (iunion_op op x1 x2) (fun k x => f (km x1 k x) (km x2 k x)).
Proof.
  intros G1 G2. unfold iunion_op. pose proof (zlen_nonneg x1). pose proof (zlen_nonneg x2).
  destruct (Z.eqb_spec 0 (zlen x2)) as [E|E]; [|destruct (Z.eqb_spec 0 (zlen x1)) as [E2|E2]].
  - symmetry in E. apply zlen_0_nil in E. subst x2.
    eapply bmrep_ext; [apply bmrep_self; eapply gok_impl; [apply I1|apply G1]|]. intros. cbn beta. rewrite km_nil. symmetry. apply Hf.
  - symmetry in E2. apply zlen_0_nil in E2. subst x1.
    eapply bmrep_ext; [apply bmrep_self; eapply gok_impl; [apply I2|apply G2]|]. intros. cbn beta. rewrite km_nil. symmetry. apply Hf.
  - destruct (iunion_loop_spec C1 C2 C f op Hf Hop I1 I2 x2 (ofuel x1 x2) x1 0 0 0) as (out&O1&O2); auto; try lia.
    { unfold ofuel, zlen. lia. }
    rewrite O1. exact O2.
Qed.

(** instances *)
Lemma ul_or : unionlike orb. Proof. intros []; auto. Qed.
Lemma ul_xor : unionlike xorb. Proof. intros []; auto. Qed.
Definition rspec (r : bitmap) (P : Z -> Z -> bool) : Prop := bmrep cok 0 r P.

Lemma erep_opt c P : erep c P ->
  match nonzero c with
  | Some c' => cok c' /\ forall x, 0 <= x < 65536 -> cmem c' x = P x
  | None => forall x, 0 <= x < 65536 -> P x = false
  end.
Proof.
  intros (He&Hx). unfold nonzero. destruct (container_nonzero_cardinality c) eqn:E.
  - split; auto. apply cne_cok; auto. apply container_nonzero_spec; auto. now apply eok_lok.
  - intros x H. rewrite <- Hx by auto. apply container_nonzero_false; auto. now apply eok_lok.
Qed.
Definition lne (c : container) : Prop := lok c /\ cne c.
Lemma cok_lne c : cok c -> lne c. Proof. split; [now apply cok_lok|now apply cok_cne]. Qed.
Lemma lrep_opt c P : lrep c P ->
  match nonzero c with
  | Some c' => lne c' /\ forall x, 0 <= x < 65536 -> cmem c' x = P x
  | None => forall x, 0 <= x < 65536 -> P x = false
  end.
Proof.
  intros (He&Hx). unfold nonzero. destruct (container_nonzero_cardinality c) eqn:E.
  - split; auto. split; auto. apply container_nonzero_spec; auto.
  - intros x H. rewrite <- Hx by auto. apply container_nonzero_false; auto.
Qed.
Lemma lrep_or_lne c c1 c2 : lrep c (fun x => cmem c1 x || cmem c2 x) -> cne c1 -> lne c.
Proof.
  intros (H&Hx) (x&B&E). split; auto. exists x. split; auto. rewrite Hx by auto. now rewrite E.
Qed.

Theorem roaring_bitmap_or_spec x1 x2 : bok x1 -> bok x2 ->
  rspec (roaring_bitmap_or x1 x2) (fun k x => km x1 k x || km x2 k x).
Proof.
  intros. apply (union_op_spec cok cok cok orb); auto; [apply ul_or|]. intros k c1 c2 A B. apply (container_or_spec c1 c2); auto.
Qed.
Theorem roaring_bitmap_xor_spec x1 x2 : bok x1 -> bok x2 ->
  rspec (roaring_bitmap_xor x1 x2) (fun k x => xorb (km x1 k x) (km x2 k x)).
Proof.
  intros. apply (union_op_spec cok cok cok xorb); auto; [apply ul_xor|]. intros k c1 c2 A B.
  apply erep_opt. now apply container_xor_spec.
Qed.
Theorem roaring_bitmap_or_inplace_spec sh cap x1 x2 : bok x1 -> bok x2 ->
  rspec (roaring_bitmap_or_inplace sh cap x1 x2) (fun k x => km x1 k x || km x2 k x).
Proof.
  intros. apply (iunion_op_spec cok cok cok orb); auto; [apply ul_or|]. intros k c1 c2 A B.
  destruct (container_is_full c1) eqn:F.
  - split; auto. intros. pose proof (proj1 (container_is_full_spec c1 A) F x H1). rewrite H2. reflexivity.
  - destruct (sh k); [apply (container_or_spec c1 c2)|apply (container_ior_spec (cap k) c1 c2)]; auto.
Qed.
Theorem roaring_bitmap_xor_inplace_spec sh x1 x2 : bok x1 -> bok x2 ->
  rspec (roaring_bitmap_xor_inplace sh x1 x2) (fun k x => xorb (km x1 k x) (km x2 k x)).
Proof.
  intros. apply (iunion_op_spec cok cok cok xorb); auto; [apply ul_xor|]. intros k c1 c2 A B.
  destruct (sh k); [|rewrite container_ixor_eq]; apply (erep_opt _ (fun x => xorb (cmem c1 x) (cmem c2 x))); now apply container_xor_spec.
Qed.

(** lazy operations *)
Lemma container_to_bitset_spec c : lok c -> lrep (container_to_bitset c) (cmem c).
Proof.
  intros H. destruct c as [a|b|r]; cbn [container_to_bitset].
  - destruct (bitset_from_array_spec a (proj1 H)) as (A&B). split; [now apply bwf_blz|]. intros. cbn [cmem]. now apply B.
  - split; auto.
  - destruct (bitset_from_run_spec r H) as (A&_&B). split; [now apply bwf_blz|]. intros. cbn [cmem]. now apply B.
Qed.
Lemma cne_ext c c' : cne c -> (forall x, 0 <= x < 65536 -> cmem c' x = cmem c x) -> cne c'.
Proof. intros (x&B&E) H. exists x. split; auto. rewrite H; auto. Qed.
Lemma opok_lazy_or (C2 : container -> Prop) conv (HC : forall c, C2 c -> lne c) : opok lne C2 lne orb (fun _ c1 c2 => Some (
    if conv && negb (is_bitset c1) && negb (is_bitset c2)
    then container_lazy_ior 0 (container_to_bitset c1) c2 else container_lazy_or c1 c2)).
Proof.
  intros k c1 c2 (A1&A2) B. apply HC in B as (B1&B2). destruct (conv && negb (is_bitset c1) && negb (is_bitset c2)).
  - destruct (container_to_bitset_spec c1 A1) as (D1&D2).
    assert (N : cne (container_to_bitset c1)) by (apply (cne_ext c1); auto).
    pose proof (container_lazy_ior_spec 0 _ c2 D1 N B1 B2) as R. split.
    + eapply lrep_or_lne; eauto.
    + intros x Hx. rewrite (proj2 R x Hx). now rewrite D2 by auto.
  - pose proof (container_lazy_or_spec c1 c2 A1 A2 B1 B2) as R. split; [eapply lrep_or_lne; eauto|apply R].
Qed.
Lemma is_full_lok c : lok c -> container_is_full c = true -> forall x, 0 <= x < 65536 -> cmem c x = true.
Proof.
  intros H F. destruct c as [a|b|r].
  - cbn [container_is_full lok] in *. destruct H. lia.
  - assert (K : cok (CBit b)).
    { cbn [container_is_full lok] in *. apply Z.eqb_eq in F. destruct H as (W&[H|H]); [lia|].
      split; [split; auto|]. lia. }
    now apply container_is_full_spec.
  - cbn [container_is_full lok cmem] in *. apply is_full_iff; auto.
Qed.
Lemma opok_lazy_ior cap conv (C2 : container -> Prop) (HC : forall c, C2 c -> lne c) : opok lne C2 lne orb (fun k c1 c2 => Some (
    if container_is_full c1 then c1
    else let c1' := if negb conv || is_bitset c1 then c1 else container_to_bitset c1 in
         container_lazy_ior (cap k) c1' c2)).
Proof.
  intros k c1 c2 (A1&A2) B. apply HC in B as (B1&B2). destruct (container_is_full c1) eqn:F.
  - split; [split; auto|]. intros x Hx. now rewrite (is_full_lok c1 A1 F x Hx).
  - cbn zeta. set (c1' := if negb conv || is_bitset c1 then c1 else container_to_bitset c1).
    assert (D : lrep c1' (cmem c1)).
    { unfold c1'. destruct (negb conv || is_bitset c1); [split; auto|now apply container_to_bitset_spec]. }
    destruct D as (D1&D2). assert (N : cne c1') by (apply (cne_ext c1); auto).
    pose proof (container_lazy_ior_spec (cap k) c1' c2 D1 N B1 B2) as R. split.
    + eapply lrep_or_lne; eauto.
    + intros x Hx. rewrite (proj2 R x Hx). now rewrite D2 by auto.
Qed.
Lemma opok_lazy_xor (C2 : container -> Prop) (HC : forall c, C2 c -> lne c) : opok lne C2 lne xorb (fun _ c1 c2 => nonzero (container_lazy_xor c1 c2)).
Proof.
  intros k c1 c2 (A1&A2) B. apply HC in B as (B1&B2).
  apply (lrep_opt _ (fun x => xorb (cmem c1 x) (cmem c2 x))). now apply container_lazy_xor_spec.
Qed.
Lemma opok_lazy_ixor (sh : Z -> bool) : opok lne cok lne xorb (fun k c1 c2 => nonzero (if sh k then container_lazy_xor c1 c2 else container_lazy_ixor c1 c2)).
Proof.
  intros k c1 c2 (A1&A2) B. apply (lrep_opt _ (fun x => xorb (cmem c1 x) (cmem c2 x))).
  destruct (sh k); [apply container_lazy_xor_spec|apply container_lazy_ixor_spec]; auto. now apply cok_lok.
Qed.
Lemma gok_cok_lne lo r : gok cok lo r -> gok lne lo r.
Proof. apply gok_impl. apply cok_lne. Qed.

Theorem roaring_bitmap_lazy_or_spec x1 x2 conv : gok lne 0 x1 -> gok lne 0 x2 ->
  bmrep lne 0 (roaring_bitmap_lazy_or x1 x2 conv) (fun k x => km x1 k x || km x2 k x).
Proof. intros. apply (union_op_spec lne lne lne orb); auto; [apply ul_or|now apply opok_lazy_or]. Qed.
Theorem roaring_bitmap_lazy_or_inplace_spec cap x1 x2 conv : gok lne 0 x1 -> gok lne 0 x2 ->
  bmrep lne 0 (roaring_bitmap_lazy_or_inplace cap x1 x2 conv) (fun k x => km x1 k x || km x2 k x).
Proof. intros. apply (iunion_op_spec lne lne lne orb); auto; [apply ul_or|now apply opok_lazy_ior]. Qed.
Theorem roaring_bitmap_lazy_xor_spec x1 x2 : gok lne 0 x1 -> gok lne 0 x2 ->
  bmrep lne 0 (roaring_bitmap_lazy_xor x1 x2) (fun k x => xorb (km x1 k x) (km x2 k x)).
Proof. intros. apply (union_op_spec lne lne lne xorb); auto; [apply ul_xor|now apply opok_lazy_xor]. Qed.
Theorem roaring_bitmap_lazy_xor_inplace_spec sh x1 x2 : gok lne 0 x1 -> gok cok 0 x2 ->
  bmrep lne 0 (roaring_bitmap_lazy_xor_inplace sh x1 x2) (fun k x => xorb (km x1 k x) (km x2 k x)).
Proof. intros. apply (iunion_op_spec lne cok lne xorb); auto; [apply ul_xor|apply opok_lazy_ixor|apply cok_lne]. Qed.

Lemma look_map f r k : look (map (fun p => (fst p, f (snd p))) r) k = option_map f (look r k).
Proof. induction r as [|[k' c] r IH]; cbn; auto. destruct (k =? k'); auto. Qed.
Lemma gok_map (C D : container -> Prop) f lo r : gok C lo r -> (forall c, C c -> D (f c)) -> gok D lo (map (fun p => (fst p, f (snd p))) r).
Proof.
  intros (A&B&E) H. unfold gok. assert (K : rkeys (map (fun p => (fst p, f (snd p))) r) = rkeys r).
  { unfold rkeys. rewrite map_map. reflexivity. }
  rewrite K. repeat split; auto. apply Forall_map. eapply Forall_impl; [|apply E]. cbn. auto.
Qed.
(** mapping a membership-preserving function over the containers *)
Lemma bmrep_map (C D : container -> Prop) f lo r : gok C lo r ->
  (forall c, C c -> D (f c) /\ forall x, 0 <= x < 65536 -> cmem (f c) x = cmem c x) ->
  bmrep D lo (map (fun p => (fst p, f (snd p))) r) (km r).
Proof.
  intros G H. split; [eapply gok_map; eauto; intros; now apply H|]. intros k x Hk Hx.
  unfold km. rewrite look_map. destruct (look r k) eqn:E; cbn; auto. apply H; auto. apply (gok_look C lo r k c G E).
Qed.
Theorem roaring_bitmap_repair_spec r : gok lne 0 r -> rspec (roaring_bitmap_repair_after_lazy r) (km r).
Proof.
  intros G. apply (bmrep_map lne cok); auto. intros c (A&B).
  destruct (container_repair_spec c A) as (E1&E2). split; auto. apply cne_cok; auto. apply (cne_ext c); auto.
Qed.
Theorem roaring_bitmap_or_many_spec cap xs : Forall bok xs ->
  rspec (roaring_bitmap_or_many cap xs) (fun k x => existsb (fun r => km r k x) xs).
Proof.
  intros H. destruct xs as [|x0 [|x1 rest]]; cbn [roaring_bitmap_or_many].
  - apply bmrep_nil. auto.
  - inversion H. eapply bmrep_ext; [apply bmrep_self; auto|]. intros. cbn. now rewrite orb_false_r.
  - inversion H as [|? ? B0 H1 E1]; subst. inversion H1 as [|? ? B1 H2 E2]; subst. clear H H1.
    assert (F : forall rest ans P, Forall bok rest -> bmrep lne 0 ans P ->
       bmrep lne 0 (fold_left (fun ans x => roaring_bitmap_lazy_or_inplace cap ans x true) rest ans)
         (fun k x => P k x || existsb (fun r => km r k x) rest)).
    { clear. induction rest as [|x rest IH]; intros ans P Hr Ha.
      - cbn. eapply bmrep_ext; eauto. intros. cbn. now rewrite orb_false_r.
      - inversion Hr as [|? ? B0 H1 E1]; subst. cbn [fold_left]. eapply bmrep_ext.
        + apply IH; auto. eapply bmrep_ext; [apply roaring_bitmap_lazy_or_inplace_spec; [apply Ha|now apply gok_cok_lne]|].
          intros. cbn beta. rewrite (proj2 Ha) by auto. reflexivity.
        + intros. cbn. now rewrite orb_assoc. }
    pose proof (F rest _ _ H2 (roaring_bitmap_lazy_or_spec x0 x1 true (gok_cok_lne 0 _ B0) (gok_cok_lne 0 _ B1))) as R.
    eapply bmrep_ext; [apply roaring_bitmap_repair_spec; apply R|]. intros. rewrite (proj2 R) by auto.
    cbn. now rewrite orb_assoc.
Qed.
Theorem roaring_bitmap_xor_many_spec sh xs : Forall bok xs ->
  rspec (roaring_bitmap_xor_many sh xs) (fun k x => fold_left (fun b r => xorb b (km r k x)) xs false).
Proof.
  intros H. destruct xs as [|x0 [|x1 rest]]; cbn [roaring_bitmap_xor_many].
  - apply bmrep_nil. auto.
  - inversion H. eapply bmrep_ext; [apply bmrep_self; auto|]. intros k y _ _. cbn. now destruct (km x0 k y).
  - inversion H as [|? ? B0 H1 E1]; subst. inversion H1 as [|? ? B1 H2 E2]; subst. clear H H1.
    assert (F : forall rest ans P, Forall bok rest -> bmrep lne 0 ans P ->
       bmrep lne 0 (fold_left (fun ans x => roaring_bitmap_lazy_xor_inplace sh ans x) rest ans)
         (fun k x => fold_left (fun b r => xorb b (km r k x)) rest (P k x))).
    { clear. induction rest as [|x rest IH]; intros ans P Hr Ha; auto.
      inversion Hr as [|? ? B0 H1 E1]; subst. cbn [fold_left].
      apply (IH _ (fun k y => xorb (P k y) (km x k y))); auto.
      eapply bmrep_ext; [apply roaring_bitmap_lazy_xor_inplace_spec; [apply Ha|auto]|].
      intros. cbn beta. rewrite (proj2 Ha) by auto. reflexivity. }
    pose proof (F rest _ _ H2 (roaring_bitmap_lazy_xor_spec x0 x1 (gok_cok_lne 0 _ B0) (gok_cok_lne 0 _ B1))) as R.
    eapply bmrep_ext; [apply roaring_bitmap_repair_spec; apply R|]. intros. rewrite (proj2 R) by auto.
    cbn [fold_left]. now rewrite xorb_false_l.
Qed.

(** ** Intersection-like loops *)
Lemma gok_incr C lo r : gok C lo r -> incr (rkeys r). Proof. intros H; apply H. Qed.
Lemma erep_some c P : erep c P -> container_nonzero_cardinality c = true -> cok c /\ forall x, 0 <= x < 65536 -> cmem c x = P x.
Proof. intros H E. pose proof (erep_opt c P H) as R. unfold nonzero in R. now rewrite E in R. Qed.
Lemma erep_none c P : erep c P -> container_nonzero_cardinality c = false -> forall x, 0 <= x < 65536 -> P x = false.
Proof. intros H E. pose proof (erep_opt c P H) as R. unfold nonzero in R. now rewrite E in R. Qed.

(** position [pos] of r, all later keys >= lo, entries before have keys < lo *)
Lemma adv_step r x pos : gok cok 0 r -> 0 <= pos < zlen r -> rkey r pos < x ->
  let j := ra_advance_until r x pos in
  pos < j <= zlen r /\ gok cok x (zdrop j r) /\
  (forall k y, x <= k -> km (zdrop pos r) k y = km (zdrop j r) k y).
Proof.
  intros G Hp Hx. cbn zeta. destruct (ra_advance_until_spec r x pos (gok_incr _ _ _ G)) as (A&B&D); [lia|auto|].
  split; [auto|]. split.
  - eapply gok_zdrop_ge; eauto. lia.
  - intros. eapply km_zdrop_ge; eauto; try lia. intros. apply B. lia.
Qed.

Lemma and_loop_spec x1 x2 (B1 : bok x1) (B2 : bok x2) fuel pos1 pos2 lo :
  0 <= pos1 <= zlen x1 -> 0 <= pos2 <= zlen x2 -> gok cok lo (zdrop pos1 x1) -> gok cok lo (zdrop pos2 x2) ->
  (zlen x1 - pos1) + (zlen x2 - pos2) < Z.of_nat fuel ->
  bmrep cok lo (and_loop fuel x1 x2 pos1 pos2) (fun k x => km (zdrop pos1 x1) k x && km (zdrop pos2 x2) k x).
Proof.
  revert pos1 pos2 lo. induction fuel as [|fu IH]; intros pos1 pos2 lo Hp1 Hp2 G1 G2 Hfu; [lia|]. cbn [and_loop].
  destruct (Z.ltb_spec pos1 (zlen x1)); [destruct (Z.ltb_spec pos2 (zlen x2))|]; cbn [andb].
  - cbn zeta. rewrite (rdrop_S x1 pos1) in G1 by lia. rewrite (rdrop_S x2 pos2) in G2 by lia.
    apply gok_cons in G1 as (K1&D1&T1). apply gok_cons in G2 as (K2&D2&T2).
    destruct (Z.eqb_spec (rkey x1 pos1) (rkey x2 pos2)) as [E|E]; [|destruct (Z.ltb_spec (rkey x1 pos1) (rkey x2 pos2)) as [L|L]].
    + rewrite (rdrop_S x1 pos1), (rdrop_S x2 pos2) by lia. rewrite <- E in *.
      set (s1 := rkey x1 pos1) in *. apply bmrep_emit; auto.
      * pose proof (erep_opt _ _ (container_and_spec _ _ D1 D2)) as R.
        destruct (nonzero (container_and (rcon x1 pos1) (rcon x2 pos2))); [destruct R; split; auto|]; intros; rewrite !km_head; auto.
      * intros j x Hj Hx. rewrite !km_tail by lia. kmb T1. auto.
      * eapply bmrep_ext; [apply IH; auto; lia|]. intros. cbn beta. now rewrite !km_tail by lia.
    + destruct (adv_step x1 (rkey x2 pos2) pos1 B1 ltac:(lia) L) as (A&G&M).
      apply (bmrep_skip cok lo (rkey x2 pos2)).
      * eapply bmrep_ext; [apply IH; auto; try lia|].
        -- rewrite (rdrop_S x2 pos2) by lia. apply gok_cons. repeat split; try apply T2; auto; lia.
        -- intros. cbn beta. rewrite (M k x) by lia. auto.
      * lia.
      * intros j x Hj Hx. rewrite (rdrop_S x2 pos2) by lia. rewrite (km_tail (rkey x2 pos2)) by lia. kmb T2. apply andb_false_r.
    + destruct (adv_step x2 (rkey x1 pos1) pos2 B2 ltac:(lia) ltac:(lia)) as (A&G&M).
      apply (bmrep_skip cok lo (rkey x1 pos1)).
      * eapply bmrep_ext; [apply IH; auto; try lia|].
        -- rewrite (rdrop_S x1 pos1) by lia. apply gok_cons. repeat split; try apply T1; auto; lia.
        -- intros. cbn beta. rewrite (M k x) by lia. auto.
      * lia.
      * intros j x Hj Hx. rewrite (rdrop_S x1 pos1) by lia. rewrite (km_tail (rkey x1 pos1)) by lia. kmb T1. auto.
  - rewrite (zdrop_all pos2) by lia. apply bmrep_nil. intros. rewrite km_nil. apply andb_false_r.
  - rewrite (zdrop_all pos1) by lia. apply bmrep_nil. intros. now rewrite km_nil.
Qed.
Theorem roaring_bitmap_and_spec x1 x2 : bok x1 -> bok x2 ->
  rspec (roaring_bitmap_and x1 x2) (fun k x => km x1 k x && km x2 k x).
Proof.
  intros. pose proof (zlen_nonneg x1). pose proof (zlen_nonneg x2).
  apply (and_loop_spec x1 x2); auto; try lia. unfold ofuel, zlen. lia.
Qed.

(** linear scan over the unread suffix *)
Lemma adv_freeing_app fuel pre rest x : incr (rkeys rest) -> zlen rest < Z.of_nat fuel ->
  exists a b, rest = a ++ b /\ ra_advance_until_freeing fuel (pre ++ rest) x (zlen pre) = zlen (pre ++ a) /\
    (forall y, In y (rkeys a) -> y < x) /\ (forall y, In y (rkeys b) -> x <= y).
Proof.
  revert pre rest. induction fuel as [|f IH]; intros pre rest Hi Hf; [pose proof (zlen_nonneg rest); lia|].
  cbn [ra_advance_until_freeing]. destruct rest as [|[k c] rest].
  - exists [], []. rewrite !app_nil_r. rewrite Z.ltb_irrefl. cbn [andb]. repeat split; auto; intros y [].
  - rewrite zlen_app, zlen_cons. pose proof (zlen_nonneg pre). pose proof (zlen_nonneg rest).
    replace (zlen pre <? zlen pre + (zlen rest + 1)) with true by lia. cbn [andb].
    assert (E : rkey (pre ++ (k, c) :: rest) (zlen pre) = k).
    { unfold rkey. rewrite rnth_app2 by lia. rewrite Z.sub_diag. reflexivity. }
    rewrite E. destruct (Z.ltb_spec k x).
    + rewrite zlen_cons in Hf. destruct (IH (pre ++ [(k, c)]) rest) as (a&b&A1&A2&A3&A4).
      { cbn in Hi. apply Hi. } { lia. }
      exists ((k, c) :: a), b. subst rest. split; auto. rewrite <- app_assoc in A2. cbn [app] in A2.
      replace (zlen (pre ++ [(k, c)])) with (zlen pre + 1) in A2 by (rewrite zlen_app; reflexivity). rewrite A2.
      split; [now rewrite <- app_assoc|]. split; auto. intros y [<-|Hy]; auto.
    + exists [], ((k, c) :: rest). rewrite app_nil_r. repeat split; auto; [intros y []|].
      intros y [<-|Hy]; auto. cbn [fst]. pose proof (incr_head k (rkeys rest) y Hi Hy). lia.
Qed.

(** the in-place loop: x1 = out ++ junk ++ unread; the written prefix [out] never overtakes
    the read position *)
Lemma iand_loop_spec sh x2 (B2 : bok x2) fuel out junk rest pos2 lo :
  0 <= pos2 <= zlen x2 -> gok cok lo rest -> gok cok lo (zdrop pos2 x2) ->
  zlen rest + (zlen x2 - pos2) < Z.of_nat fuel ->
  exists res, iand_loop fuel sh (out ++ junk ++ rest) x2 (zlen (out ++ junk)) pos2 (zlen out) = out ++ res /\
  bmrep cok lo res (fun k x => km rest k x && km (zdrop pos2 x2) k x).
Proof.
  revert out junk rest pos2 lo. induction fuel as [|fu IH]; intros out junk rest pos2 lo Hp2 G1 G2 Hfu; [pose proof (zlen_nonneg rest); lia|].
  cbn [iand_loop]. pose proof (zlen_nonneg out). pose proof (zlen_nonneg junk). pose proof (zlen_nonneg rest).
  assert (DS : forall r, ra_downsize (out ++ r) (zlen out) = out) by (intros; unfold ra_downsize; now apply zfirst_app).
  destruct rest as [|[s1 c1] rest].
  - exists []. rewrite !app_nil_r. rewrite Z.ltb_irrefl. cbn [andb]. rewrite DS. split; auto. apply bmrep_nil. auto.
  - rewrite zlen_cons in Hfu. pose proof (zlen_nonneg rest).
    replace (zlen (out ++ junk) <? zlen (out ++ junk ++ (s1, c1) :: rest)) with true by (rewrite !zlen_app, zlen_cons; lia).
    destruct (Z.ltb_spec pos2 (zlen x2)); cbn [andb].
    + cbn zeta.
      assert (EN : rnth (out ++ junk ++ (s1, c1) :: rest) (zlen (out ++ junk)) = (s1, c1)).
      { rewrite app_assoc. rewrite rnth_app2 by lia. rewrite Z.sub_diag. reflexivity. }
      assert (EK : rkey (out ++ junk ++ (s1, c1) :: rest) (zlen (out ++ junk)) = s1) by (unfold rkey; now rewrite EN).
      assert (EC : rcon (out ++ junk ++ (s1, c1) :: rest) (zlen (out ++ junk)) = c1) by (unfold rcon; now rewrite EN).
      rewrite !EK, !EC. clear EN EK EC.
      rewrite (rdrop_S x2 pos2) in G2 by lia.
      apply gok_cons in G1 as (K1&D1&T1). apply gok_cons in G2 as (K2&D2&T2).
      destruct (Z.eqb_spec s1 (rkey x2 pos2)) as [E|E]; [|destruct (Z.ltb_spec s1 (rkey x2 pos2)) as [L|L]].
      * rewrite (rdrop_S x2 pos2) by lia. rewrite <- E in *.
        set (c := if sh s1 then container_and c1 (rcon x2 pos2) else container_iand c1 (rcon x2 pos2)).
        assert (Rc : erep c (fun x => cmem c1 x && cmem (rcon x2 pos2) x)).
        { unfold c. destruct (sh s1); [|rewrite container_iand_eq]; now apply container_and_spec. }
        clearbody c. destruct (container_nonzero_cardinality c) eqn:N.
        -- destruct (erep_some _ _ Rc N) as (O1&O2).
           assert (EX : exists junk', ra_replace_key_and_container_at_index (out ++ junk ++ (s1, c1) :: rest) (zlen out) s1 c
                          = (out ++ [(s1, c)]) ++ junk' ++ rest /\ zlen junk' = zlen junk).
           { unfold ra_replace_key_and_container_at_index. destruct junk as [|j junk].
             - exists []. cbn [app]. rewrite zupd_app by auto. rewrite <- app_assoc. auto.
             - exists (junk ++ [(s1, c1)]). cbn [app]. rewrite zupd_app by auto. rewrite <- !app_assoc. cbn [app]. split; auto.
               rewrite zlen_app, !zlen_cons. reflexivity. }
           destruct EX as (junk'&EX&EJ). rewrite EX.
           destruct (IH (out ++ [(s1, c)]) junk' rest (pos2 + 1) (s1 + 1)) as (res&R1&R2); auto; try lia.
           replace (zlen ((out ++ [(s1, c)]) ++ junk')) with (zlen (out ++ junk) + 1) in R1
             by (rewrite !zlen_app, zlen_cons; change (zlen (@nil entry)) with 0; lia).
           replace (zlen (out ++ [(s1, c)])) with (zlen out + 1) in R1 by (rewrite zlen_app; reflexivity).
           rewrite R1. exists ((s1, c) :: res). split; [now rewrite <- app_assoc|].
           apply bmrep_cons; auto.
           ++ intros x Hx. rewrite !km_head. auto.
           ++ intros j x Hj Hx. rewrite !km_tail by lia. kmb T1. auto.
           ++ eapply bmrep_ext; [apply R2|]. intros. cbn beta. now rewrite !km_tail by lia.
        -- destruct (IH out (junk ++ [(s1, c1)]) rest (pos2 + 1) (s1 + 1)) as (res&R1&R2); auto; try lia.
           replace (zlen (out ++ junk ++ [(s1, c1)])) with (zlen (out ++ junk) + 1) in R1
             by (rewrite !zlen_app, zlen_cons; change (zlen (@nil entry)) with 0; lia).
           rewrite <- !app_assoc in R1. cbn [app] in R1. exists res. split; auto.
           apply (bmrep_emit cok lo s1 None); auto.
           ++ intros x Hx. rewrite !km_head. apply (erep_none _ _ Rc N); auto.
           ++ intros j x Hj Hx. rewrite !km_tail by lia. kmb T1. auto.
           ++ eapply bmrep_ext; [apply R2|]. intros. cbn beta. now rewrite !km_tail by lia.
      * assert (Hfl : zlen ((s1, c1) :: rest) < Z.of_nat (S (length (out ++ junk ++ (s1, c1) :: rest)))).
        { unfold zlen. rewrite !app_length. lia. }
        assert (G1' : gok cok lo ((s1, c1) :: rest)) by (apply gok_cons; auto).
        destruct (adv_freeing_app _ (out ++ junk) ((s1, c1) :: rest) (rkey x2 pos2) (gok_incr _ _ _ G1') Hfl) as (a&b&A1&A2&A3&A4).
        rewrite <- app_assoc in A2. rewrite A2. rewrite A1 in *.
        assert (La : 0 < zlen a).
        { destruct a as [|p a]; [|rewrite zlen_cons; pose proof (zlen_nonneg a); lia].
          cbn [app] in A1. subst b. specialize (A4 s1 (or_introl eq_refl)). lia. }
        assert (Lr : zlen a + zlen b = zlen rest + 1) by (rewrite <- zlen_app, <- A1, zlen_cons; auto).
        apply gok_app in G1' as (Ga&Gb&Gab).
        assert (Gb' : gok cok (rkey x2 pos2) b).
        { destruct Gb as (Gb1&Gb2&Gb3). split; auto. split; auto. apply inb_intro. intros y Hy.
          pose proof (inb_In _ _ _ _ Gb2 Hy). specialize (A4 y Hy). lia. }
        destruct (IH out (junk ++ a) b pos2 (rkey x2 pos2)) as (res&R1&R2); auto; try lia.
        { rewrite (rdrop_S x2 pos2) by lia. apply gok_cons. repeat split; try apply T2; auto; lia. }
        replace (zlen ((out ++ junk) ++ a)) with (zlen (out ++ junk ++ a)) by now rewrite app_assoc.
        rewrite <- app_assoc in R1. rewrite R1. exists res. split; auto.
        apply (bmrep_skip cok lo (rkey x2 pos2)).
        -- eapply bmrep_ext; [apply R2|]. intros. cbn beta. rewrite (km_app_r a b); auto.
           intros Hin. specialize (A3 _ Hin). lia.
        -- lia.
        -- intros j x Hj Hx. rewrite (rdrop_S x2 pos2) by lia. rewrite (km_tail (rkey x2 pos2)) by lia. kmb T2. apply andb_false_r.
      * destruct (adv_step x2 s1 pos2 B2 ltac:(lia) ltac:(lia)) as (A&G&M).
        destruct (IH out junk ((s1, c1) :: rest) (ra_advance_until x2 s1 pos2) s1) as (res&R1&R2); auto; try lia.
        { apply gok_cons. repeat split; try apply T1; auto; lia. }
        { rewrite zlen_cons. lia. }
        rewrite R1. exists res. split; auto.
        apply (bmrep_skip cok lo s1).
        -- eapply bmrep_ext; [apply R2|]. intros. cbn beta. rewrite (M k x) by lia. auto.
        -- lia.
        -- intros j x Hj Hx. rewrite (km_tail s1) by lia. kmb T1. auto.
    + exists []. rewrite DS, app_nil_r. split; auto. rewrite (zdrop_all pos2) by lia. apply bmrep_nil. intros. rewrite km_nil. apply andb_false_r.
Qed.
Theorem roaring_bitmap_and_inplace_spec same sh x1 x2 : bok x1 -> bok x2 -> (same = true -> x1 = x2) ->
  rspec (roaring_bitmap_and_inplace same sh x1 x2) (fun k x => km x1 k x && km x2 k x).
Proof.
  intros B1 B2 Hs. unfold roaring_bitmap_and_inplace. destruct same.
  - rewrite <- Hs by auto. eapply bmrep_ext; [apply bmrep_self; auto|]. intros. cbn beta. now rewrite andb_diag.
  - pose proof (zlen_nonneg x1). pose proof (zlen_nonneg x2).
    destruct (iand_loop_spec sh x2 B2 (ofuel x1 x2) [] [] x1 0 0) as (res&R1&R2); auto; try lia.
    { unfold ofuel, zlen. lia. }
    cbn [app] in R1. change (zlen (@nil entry)) with 0 in R1. rewrite R1. apply R2.
Qed.

(** ** Difference *)
Lemma zfirst_gok C lo r i j x : gok C lo r -> 0 <= i <= j -> j <= zlen r -> (forall q, i <= q < j -> rkey r q < x) ->
  let a := zfirst (j - i) (zdrop i r) in
  zdrop i r = a ++ zdrop j r /\ (forall y, In y (rkeys a) -> y < x).
Proof.
  intros G Hi Hj Hx. cbn zeta. split.
  - replace (zdrop j r) with (zdrop (j - i) (zdrop i r)) by (rewrite zdrop_zdrop by lia; f_equal; lia). now rewrite zfirst_zdrop.
  - intros y Hy. apply In_znth in Hy. destruct Hy as (q&Hq&E).
    assert (zlen (zdrop i r) = zlen r - i) by (apply zdrop_zlen; lia).
    rewrite zlen_rkeys, zfirst_zlen in Hq by lia.
    assert (A1 : znth (rkeys (zdrop i r)) q = y).
    { rewrite <- (zfirst_zdrop (j - i) (zdrop i r)), rkeys_app, znth_app1; auto. rewrite zlen_rkeys, zfirst_zlen; lia. }
    assert (A2 : znth (rkeys r) (i + q) = y).
    { rewrite <- (zfirst_zdrop i r), rkeys_app, znth_app2; rewrite zlen_rkeys, zfirst_zlen; try lia.
      replace (i + q - i) with q by lia. auto. }
    rewrite znth_rkeys in A2 by lia. rewrite <- A2. apply Hx. lia.
Qed.
(** a block of entries with keys in [lo,x) followed by a bitmap over [x,65536) *)
Lemma bmrep_app (C : container -> Prop) lo x a t P : gok C lo a -> (forall y, In y (rkeys a) -> y < x) -> lo <= x ->
  (forall k y, lo <= k < x -> 0 <= y < 65536 -> km a k y = P k y) -> bmrep C x t P -> bmrep C lo (a ++ t) P.
Proof.
  intros Ga La Hx Pa (Gt&Pt). split.
  - apply gok_app. split; auto. split; [eapply gok_weaken; eauto|]. intros u v Hu Hv. specialize (La u Hu).
    pose proof (inb_In _ _ _ _ (proj1 (proj2 Gt)) Hv). lia.
  - intros k y Hk Hy. destruct (Z_lt_dec k x).
    + rewrite km_app_l; [apply Pa; lia|]. intros Hin. pose proof (inb_In _ _ _ _ (proj1 (proj2 Gt)) Hin). lia.
    + rewrite km_app_r; [apply Pt; lia|]. intros Hin. specialize (La k Hin). lia.
Qed.
Lemma andnot_loop_spec x1 x2 (B1 : bok x1) (B2 : bok x2) fuel pos1 pos2 lo :
  0 <= pos1 <= zlen x1 -> 0 <= pos2 <= zlen x2 -> gok cok lo (zdrop pos1 x1) -> gok cok lo (zdrop pos2 x2) ->
  (zlen x1 - pos1) + (zlen x2 - pos2) < Z.of_nat fuel ->
  bmrep cok lo (andnot_loop fuel x1 x2 pos1 pos2) (fun k x => km (zdrop pos1 x1) k x && negb (km (zdrop pos2 x2) k x)).
Proof.
  revert pos1 pos2 lo. induction fuel as [|fu IH]; intros pos1 pos2 lo Hp1 Hp2 G1 G2 Hfu; [lia|]. cbn [andnot_loop].
  destruct (Z.eqb_spec pos1 (zlen x1)); [|destruct (Z.eqb_spec pos2 (zlen x2))].
  - rewrite (zdrop_all pos1) by lia. apply bmrep_nil. intros. now rewrite km_nil.
  - rewrite copy_range_all by lia. rewrite (zdrop_all pos2) by lia.
    eapply bmrep_ext; [apply bmrep_self; apply G1|]. intros. cbn beta. rewrite km_nil. now rewrite andb_true_r.
  - cbn zeta. pose proof G1 as G1'. rewrite (rdrop_S x1 pos1) in G1 by lia. rewrite (rdrop_S x2 pos2) in G2 by lia.
    apply gok_cons in G1 as (K1&D1&T1). apply gok_cons in G2 as (K2&D2&T2).
    destruct (Z.eqb_spec (rkey x1 pos1) (rkey x2 pos2)) as [E|E]; [|destruct (Z.ltb_spec (rkey x1 pos1) (rkey x2 pos2)) as [L|L]].
    + rewrite (rdrop_S x1 pos1), (rdrop_S x2 pos2) by lia. rewrite <- E in *.
      set (s1 := rkey x1 pos1) in *. apply bmrep_emit; auto.
      * pose proof (erep_opt _ _ (container_andnot_spec _ _ D1 D2)) as R.
        destruct (nonzero (container_andnot (rcon x1 pos1) (rcon x2 pos2))); [destruct R; split; auto|]; intros; rewrite !km_head; auto.
      * intros j x Hj Hx. rewrite !km_tail by lia. kmb T1. auto.
      * eapply bmrep_ext; [apply IH; auto; lia|]. intros. cbn beta. now rewrite !km_tail by lia.
    + destruct (ra_advance_until_spec x1 (rkey x2 pos2) pos1 (gok_incr _ _ _ B1)) as (A&Bq&_); [lia|auto|].
      destruct (adv_step x1 (rkey x2 pos2) pos1 B1 ltac:(lia) L) as (_&G&M).
      set (np := ra_advance_until x1 (rkey x2 pos2) pos1) in *.
      assert (Bq' : forall q, pos1 <= q < np -> rkey x1 q < rkey x2 pos2) by (intros; apply Bq; lia).
      destruct (zfirst_gok cok 0 x1 pos1 np (rkey x2 pos2) B1 ltac:(lia) ltac:(lia) Bq') as (F1&F2).
      unfold ra_append_copy_range. cbn [app]. apply (bmrep_app cok lo (rkey x2 pos2)); auto; try lia.
      * now apply gok_zfirst.
      * intros k y Hk Hy. set (a := zfirst (np - pos1) (zdrop pos1 x1)) in *. clearbody a. rewrite F1.
        rewrite (rdrop_S x2 pos2) by lia. rewrite (km_tail (rkey x2 pos2)) by lia. kmb T2. rewrite andb_true_r. symmetry. apply km_app_l.
        intros Hin. pose proof (inb_In _ _ _ _ (proj1 (proj2 G)) Hin). lia.
      * eapply bmrep_ext; [apply IH; auto; try lia|].
        -- rewrite (rdrop_S x2 pos2) by lia. apply gok_cons. repeat split; try apply T2; auto; lia.
        -- intros. cbn beta. rewrite (M k x) by lia. auto.
    + destruct (adv_step x2 (rkey x1 pos1) pos2 B2 ltac:(lia) ltac:(lia)) as (A&G&M).
      apply (bmrep_skip cok lo (rkey x1 pos1)).
      * eapply bmrep_ext; [apply IH; auto; try lia|].
        -- rewrite (rdrop_S x1 pos1) by lia. apply gok_cons. repeat split; try apply T1; auto; lia.
        -- intros. cbn beta. rewrite (M k x) by lia. auto.
      * lia.
      * intros j x Hj Hx. rewrite (rdrop_S x1 pos1) by lia. rewrite (km_tail (rkey x1 pos1)) by lia. kmb T1. auto.
Qed.
Theorem roaring_bitmap_andnot_spec x1 x2 : bok x1 -> bok x2 ->
  rspec (roaring_bitmap_andnot x1 x2) (fun k x => km x1 k x && negb (km x2 k x)).
Proof.
  intros. pose proof (zlen_nonneg x1). pose proof (zlen_nonneg x2). unfold roaring_bitmap_andnot.
  destruct (Z.eqb_spec 0 (zlen x1)) as [E|E]; [|destruct (Z.eqb_spec 0 (zlen x2)) as [E2|E2]].
  - symmetry in E. apply zlen_0_nil in E. subst. apply bmrep_nil. auto.
  - symmetry in E2. apply zlen_0_nil in E2. subst. eapply bmrep_ext; [apply bmrep_self; auto|]. intros. cbn beta. now rewrite km_nil, andb_true_r.
  - apply (andnot_loop_spec x1 x2); auto; try lia. unfold ofuel, zlen. lia.
Qed.

Lemma iandnot_finish_spec out junk rest :
  iandnot_finish (out ++ junk ++ rest) (zlen (out ++ junk)) (zlen out) = out ++ rest.
Proof.
  unfold iandnot_finish. pose proof (zlen_nonneg out). pose proof (zlen_nonneg junk). pose proof (zlen_nonneg rest).
  destruct (Z.ltb_spec (zlen (out ++ junk)) (zlen (out ++ junk ++ rest))).
  - cbn zeta. replace (zlen (out ++ junk ++ rest) - zlen (out ++ junk)) with (zlen rest) by (rewrite !zlen_app; lia).
    replace (zlen out + zlen rest) with (zlen (out ++ rest)) by apply zlen_app.
    destruct (Z.ltb_spec (zlen out) (zlen (out ++ junk))) as [L|L].
    + unfold ra_copy_range, ra_downsize. rewrite (zfirst_app (zlen out) out (junk ++ rest)) by auto.
      rewrite (app_assoc out junk rest). rewrite (zdrop_app (zlen (out ++ junk)) (out ++ junk) rest) by auto.
      replace (zlen ((out ++ junk) ++ rest) - zlen (out ++ junk)) with (zlen rest) by (rewrite !zlen_app; lia).
      rewrite (zfirst_all (zlen rest) rest) by lia.
      match goal with |- zfirst _ (out ++ rest ++ ?t) = _ => rewrite (app_assoc out rest t) end. now apply zfirst_app.
    + assert (junk = []) by (apply zlen_0_nil; rewrite zlen_app in L; lia). subst. cbn [app].
      unfold ra_downsize. apply zfirst_all. lia.
  - assert (rest = []) by (apply zlen_0_nil; rewrite !zlen_app in *; lia). subst. rewrite !app_nil_r.
    unfold ra_downsize. now apply zfirst_app.
Qed.
Lemma iandnot_loop_spec sh x2 (B2 : bok x2) fuel out junk rest pos2 lo :
  0 <= pos2 <= zlen x2 -> gok cok lo rest -> gok cok lo (zdrop pos2 x2) ->
  zlen rest + (zlen x2 - pos2) < Z.of_nat fuel ->
  exists res, iandnot_loop fuel sh (out ++ junk ++ rest) x2 (zlen (out ++ junk)) pos2 (zlen out) = out ++ res /\
  bmrep cok lo res (fun k x => km rest k x && negb (km (zdrop pos2 x2) k x)).
Proof.
  revert out junk rest pos2 lo. induction fuel as [|fu IH]; intros out junk rest pos2 lo Hp2 G1 G2 Hfu; [pose proof (zlen_nonneg rest); lia|].
  cbn [iandnot_loop]. pose proof (zlen_nonneg out). pose proof (zlen_nonneg junk). pose proof (zlen_nonneg rest).
  rewrite iandnot_finish_spec.
  assert (RP : forall c s1 c1 rest, exists junk', ra_replace_key_and_container_at_index (out ++ junk ++ (s1, c1) :: rest) (zlen out) s1 c
                 = (out ++ [(s1, c)]) ++ junk' ++ rest /\ zlen junk' = zlen junk).
  { intros. unfold ra_replace_key_and_container_at_index. destruct junk as [|j junk0].
    - exists []. cbn [app]. rewrite zupd_app by auto. rewrite <- app_assoc. auto.
    - exists (junk0 ++ [(s1, c1)]). cbn [app]. rewrite zupd_app by auto. rewrite <- !app_assoc. cbn [app]. split; auto.
      rewrite zlen_app, !zlen_cons. reflexivity. }
  destruct rest as [|[s1 c1] rest].
  - exists []. rewrite !app_nil_r. rewrite Z.eqb_refl. cbn [orb]. split; auto. apply bmrep_nil. auto.
  - rewrite zlen_cons in Hfu. pose proof (zlen_nonneg rest).
    replace (zlen (out ++ junk) =? zlen (out ++ junk ++ (s1, c1) :: rest)) with false by (rewrite !zlen_app, zlen_cons; lia).
    destruct (Z.eqb_spec pos2 (zlen x2)); cbn [orb].
    + exists ((s1, c1) :: rest). split; auto. rewrite (zdrop_all pos2) by lia.
      eapply bmrep_ext; [apply bmrep_self; apply G1|]. intros. cbn beta. rewrite km_nil. now rewrite andb_true_r.
    + cbn zeta.
      assert (EN : rnth (out ++ junk ++ (s1, c1) :: rest) (zlen (out ++ junk)) = (s1, c1)).
      { rewrite app_assoc. rewrite rnth_app2 by lia. rewrite Z.sub_diag. reflexivity. }
      assert (EK : rkey (out ++ junk ++ (s1, c1) :: rest) (zlen (out ++ junk)) = s1) by (unfold rkey; now rewrite EN).
      assert (EC : rcon (out ++ junk ++ (s1, c1) :: rest) (zlen (out ++ junk)) = c1) by (unfold rcon; now rewrite EN).
      rewrite !EK, !EC. clear EN EK EC.
      rewrite (rdrop_S x2 pos2) in G2 by lia.
      apply gok_cons in G1 as (K1&D1&T1). apply gok_cons in G2 as (K2&D2&T2).
      destruct (Z.eqb_spec s1 (rkey x2 pos2)) as [E|E]; [|destruct (Z.ltb_spec s1 (rkey x2 pos2)) as [L|L]].
      * rewrite (rdrop_S x2 pos2) by lia. rewrite <- E in *.
        set (c := if sh s1 then container_andnot c1 (rcon x2 pos2) else container_iandnot c1 (rcon x2 pos2)).
        assert (Rc : erep c (fun x => cmem c1 x && negb (cmem (rcon x2 pos2) x))).
        { unfold c. destruct (sh s1); [now apply container_andnot_spec|now apply container_iandnot_spec]. }
        clearbody c. destruct (container_nonzero_cardinality c) eqn:N.
        -- destruct (erep_some _ _ Rc N) as (O1&O2). destruct (RP c s1 c1 rest) as (junk'&EX&EJ). rewrite EX.
           destruct (IH (out ++ [(s1, c)]) junk' rest (pos2 + 1) (s1 + 1)) as (res&R1&R2); auto; try lia.
           replace (zlen ((out ++ [(s1, c)]) ++ junk')) with (zlen (out ++ junk) + 1) in R1
             by (rewrite !zlen_app, zlen_cons; change (zlen (@nil entry)) with 0; lia).
           replace (zlen (out ++ [(s1, c)])) with (zlen out + 1) in R1 by (rewrite zlen_app; reflexivity).
           rewrite R1. exists ((s1, c) :: res). split; [now rewrite <- app_assoc|].
           apply bmrep_cons; auto.
           ++ intros x Hx. rewrite !km_head. auto.
           ++ intros j x Hj Hx. rewrite !km_tail by lia. kmb T1. auto.
           ++ eapply bmrep_ext; [apply R2|]. intros. cbn beta. now rewrite !km_tail by lia.
        -- destruct (IH out (junk ++ [(s1, c1)]) rest (pos2 + 1) (s1 + 1)) as (res&R1&R2); auto; try lia.
           replace (zlen (out ++ junk ++ [(s1, c1)])) with (zlen (out ++ junk) + 1) in R1
             by (rewrite !zlen_app, zlen_cons; change (zlen (@nil entry)) with 0; lia).
           rewrite <- !app_assoc in R1. cbn [app] in R1. exists res. split; auto.
           apply (bmrep_emit cok lo s1 None); auto.
           ++ intros x Hx. rewrite !km_head. apply (erep_none _ _ Rc N); auto.
           ++ intros j x Hj Hx. rewrite !km_tail by lia. kmb T1. auto.
           ++ eapply bmrep_ext; [apply R2|]. intros. cbn beta. now rewrite !km_tail by lia.
      * assert (EX : exists junk', (if negb (zlen (out ++ junk) =? zlen out)
             then ra_replace_key_and_container_at_index (out ++ junk ++ (s1, c1) :: rest) (zlen out) s1 c1
             else out ++ junk ++ (s1, c1) :: rest) = (out ++ [(s1, c1)]) ++ junk' ++ rest /\ zlen junk' = zlen junk).
        { destruct (Z.eqb_spec (zlen (out ++ junk)) (zlen out)) as [Ej|Ej]; cbn [negb].
          - assert (junk = []) by (apply zlen_0_nil; rewrite zlen_app in Ej; lia). subst. exists []. cbn [app].
            rewrite <- app_assoc. auto.
          - apply RP. }
        destruct EX as (junk'&EX&EJ). rewrite EX.
        destruct (IH (out ++ [(s1, c1)]) junk' rest pos2 (s1 + 1)) as (res&R1&R2); auto; try lia.
        { rewrite (rdrop_S x2 pos2) by lia. apply gok_cons. repeat split; try apply T2; auto; lia. }
        replace (zlen ((out ++ [(s1, c1)]) ++ junk')) with (zlen (out ++ junk) + 1) in R1
          by (rewrite !zlen_app, zlen_cons; change (zlen (@nil entry)) with 0; lia).
        replace (zlen (out ++ [(s1, c1)])) with (zlen out + 1) in R1 by (rewrite zlen_app; reflexivity).
        rewrite R1. exists ((s1, c1) :: res). split; [now rewrite <- app_assoc|].
        apply bmrep_cons; auto.
        -- intros x Hx. rewrite km_head. rewrite (rdrop_S x2 pos2) by lia. rewrite (km_tail (rkey x2 pos2)) by lia. kmb T2. now rewrite andb_true_r.
        -- intros j x Hj Hx. rewrite !km_tail by lia. kmb T1. auto.
        -- eapply bmrep_ext; [apply R2|]. intros. cbn beta. now rewrite (km_tail s1) by lia.
      * destruct (adv_step x2 s1 pos2 B2 ltac:(lia) ltac:(lia)) as (A&G&M).
        destruct (IH out junk ((s1, c1) :: rest) (ra_advance_until x2 s1 pos2) s1) as (res&R1&R2); auto; try lia.
        { apply gok_cons. repeat split; try apply T1; auto; lia. }
        { rewrite zlen_cons. lia. }
        rewrite R1. exists res. split; auto.
        apply (bmrep_skip cok lo s1).
        -- eapply bmrep_ext; [apply R2|]. intros. cbn beta. rewrite (M k x) by lia. auto.
        -- lia.
        -- intros j x Hj Hx. rewrite (km_tail s1) by lia. kmb T1. auto.
Qed.
Theorem roaring_bitmap_andnot_inplace_spec sh x1 x2 : bok x1 -> bok x2 ->
  rspec (roaring_bitmap_andnot_inplace sh x1 x2) (fun k x => km x1 k x && negb (km x2 k x)).
Proof.
  intros B1 B2. unfold roaring_bitmap_andnot_inplace. pose proof (zlen_nonneg x1). pose proof (zlen_nonneg x2).
  destruct (Z.eqb_spec 0 (zlen x2)) as [E|E]; [|destruct (Z.eqb_spec 0 (zlen x1)) as [E2|E2]].
  - symmetry in E. apply zlen_0_nil in E. subst. eapply bmrep_ext; [apply bmrep_self; auto|]. intros. cbn beta. now rewrite km_nil, andb_true_r.
  - symmetry in E2. apply zlen_0_nil in E2. subst. apply bmrep_nil. auto.
  - destruct (iandnot_loop_spec sh x2 B2 (ofuel x1 x2) [] [] x1 0 0) as (res&R1&R2); auto; try lia.
    { unfold ofuel, zlen. lia. }
    cbn [app] in R1. change (zlen (@nil entry)) with 0 in R1. rewrite R1. apply R2.
Qed.

(** ** Counting *)
Definition kcnt (P : Z -> Z -> bool) (lo : Z) : Z := cnt (fun v => P (v / 65536) (v mod 65536)) (65536 * lo) (65536 * 65536).
Lemma kcnt_ext P Q lo : 0 <= lo -> (forall k x, lo <= k < 65536 -> 0 <= x < 65536 -> P k x = Q k x) -> kcnt P lo = kcnt Q lo.
Proof. intros. unfold kcnt. apply cnt_ext. intros v Hv. apply H0; dm. Qed.
Lemma kcnt_skip P lo k : 0 <= lo <= k -> k <= 65536 -> (forall j x, lo <= j < k -> 0 <= x < 65536 -> P j x = false) -> kcnt P lo = kcnt P k.
Proof.
  intros. unfold kcnt. rewrite (cnt_app _ (65536 * lo) (65536 * k)) by lia.
  rewrite (cnt_none _ (65536 * lo) (65536 * k)); [lia|]. intros v Hv. apply H1; dm.
Qed.
Lemma kcnt_one P k : 0 <= k < 65536 -> kcnt P k = cnt (P k) 0 65536 + kcnt P (k + 1).
Proof.
  intros. unfold kcnt. rewrite (cnt_app _ (65536 * k) (65536 * (k + 1))) by lia. f_equal.
  pose proof (cnt_shift (fun v => P (v / 65536) (v mod 65536)) 0 65536 (65536 * k)) as S.
  replace (0 + 65536 * k) with (65536 * k) in S by lia. replace (65536 + 65536 * k) with (65536 * (k + 1)) in S by lia.
  rewrite <- S. apply cnt_ext. intros x Hx. replace ((x + 65536 * k) / 65536) with k by dm. now replace ((x + 65536 * k) mod 65536) with x by dm.
Qed.
Lemma kcnt_end P : kcnt P 65536 = 0.
Proof. unfold kcnt. apply cnt_nil. lia. Qed.
Lemma kcnt_none P lo : 0 <= lo -> (forall k x, lo <= k < 65536 -> 0 <= x < 65536 -> P k x = false) -> kcnt P lo = 0.
Proof. intros. unfold kcnt. apply cnt_none. intros v Hv. apply H0; dm. Qed.
Lemma kcnt_step P lo k : 0 <= lo <= k -> k < 65536 -> (forall j x, lo <= j < k -> 0 <= x < 65536 -> P j x = false) ->
  kcnt P lo = cnt (P k) 0 65536 + kcnt P (k + 1).
Proof. intros. rewrite (kcnt_skip P lo k) by (auto; lia). apply kcnt_one. lia. Qed.
Lemma kcnt_cons C lo k c t : gok C lo ((k, c) :: t) -> 0 <= lo -> kcnt (km ((k, c) :: t)) lo = ccard c + kcnt (km t) (k + 1).
Proof.
  intros G Hlo. apply gok_cons in G as (K&D&T). rewrite (kcnt_step _ lo k); try lia.
  - f_equal.
    + unfold ccard. apply cnt_ext. intros. apply km_head.
    + apply kcnt_ext; [lia|]. intros. apply km_tail. lia.
  - intros j x Hj Hx. rewrite km_tail by lia. eapply km_below; eauto. lia.
Qed.
Lemma card_fold r acc : fold_left (fun card p => card + container_get_cardinality (snd p)) r acc =
  acc + fold_left (fun card (p : entry) => card + container_get_cardinality (snd p)) r 0.
Proof.
  revert acc. induction r as [|p r IH]; intros; cbn [fold_left]; [lia|]. rewrite IH, (IH (0 + _)). lia.
Qed.
Lemma get_cardinality_kcnt lo r : gok cok lo r -> 0 <= lo -> roaring_bitmap_get_cardinality r = kcnt (km r) lo.
Proof.
  unfold roaring_bitmap_get_cardinality. revert lo. induction r as [|[k c] r IH]; intros lo G Hlo.
  - symmetry. apply kcnt_none; auto.
  - rewrite (kcnt_cons cok) by auto. cbn [fold_left snd]. rewrite card_fold. apply gok_cons in G as (K&D&T).
    rewrite container_get_cardinality_spec by auto. rewrite (IH (k + 1)) by (auto; lia). lia.
Qed.
(** the number of members: stated with cnt over the whole 32-bit range *)
Definition bcardinal (r : bitmap) : Z := cnt (mem r) 0 (2^32).
Lemma kcnt_all P : kcnt P 0 = cnt (fun v => P (v / 65536) (v mod 65536)) 0 (2^32).
Proof.
  unfold kcnt. assert (E : 65536 * 65536 = 2^32) by reflexivity. rewrite E.
  assert (E0 : 65536 * 0 = 0) by reflexivity. rewrite E0. exact eq_refl.
Qed.
Lemma kcnt_mem r : kcnt (km r) 0 = bcardinal r.
Proof. rewrite kcnt_all. unfold bcardinal. apply cnt_ext. intros. exact eq_refl. Qed.
Theorem roaring_bitmap_get_cardinality_spec r : bok r -> roaring_bitmap_get_cardinality r = bcardinal r.
Proof. intros. rewrite <- kcnt_mem. apply get_cardinality_kcnt; auto. lia. Qed.

Lemma and_card_loop_spec x1 x2 (B1 : bok x1) (B2 : bok x2) fuel pos1 pos2 lo ans :
  0 <= lo <= 65536 -> 0 <= pos1 <= zlen x1 -> 0 <= pos2 <= zlen x2 -> gok cok lo (zdrop pos1 x1) -> gok cok lo (zdrop pos2 x2) ->
  (zlen x1 - pos1) + (zlen x2 - pos2) < Z.of_nat fuel ->
  and_card_loop fuel x1 x2 pos1 pos2 ans = ans + kcnt (fun k x => km (zdrop pos1 x1) k x && km (zdrop pos2 x2) k x) lo.
Proof.
  revert pos1 pos2 lo ans. induction fuel as [|fu IH]; intros pos1 pos2 lo ans Hlo Hp1 Hp2 G1 G2 Hfu; [lia|]. cbn [and_card_loop].
  destruct (Z.ltb_spec pos1 (zlen x1)); [destruct (Z.ltb_spec pos2 (zlen x2))|]; cbn [andb].
  - cbn zeta. rewrite (rdrop_S x1 pos1) in G1 by lia. rewrite (rdrop_S x2 pos2) in G2 by lia.
    apply gok_cons in G1 as (K1&D1&T1). apply gok_cons in G2 as (K2&D2&T2).
    destruct (Z.eqb_spec (rkey x1 pos1) (rkey x2 pos2)) as [E|E]; [|destruct (Z.ltb_spec (rkey x1 pos1) (rkey x2 pos2)) as [L|L]].
    + rewrite (rdrop_S x1 pos1), (rdrop_S x2 pos2) by lia. rewrite <- E in *.
      set (s1 := rkey x1 pos1) in *. rewrite (IH _ _ (s1 + 1)) by (auto; lia).
      rewrite (kcnt_step _ lo s1); try lia.
      * rewrite container_and_cardinality_spec by auto.
        rewrite (cnt_ext (fun x => cmem (rcon x1 pos1) x && cmem (rcon x2 pos2) x)
          (fun x => km ((s1, rcon x1 pos1) :: zdrop (pos1 + 1) x1) s1 x && km ((s1, rcon x2 pos2) :: zdrop (pos2 + 1) x2) s1 x))
          by (intros; now rewrite !km_head).
        rewrite (kcnt_ext (fun k x => km (zdrop (pos1 + 1) x1) k x && km (zdrop (pos2 + 1) x2) k x)
          (fun k x => km ((s1, rcon x1 pos1) :: zdrop (pos1 + 1) x1) k x && km ((s1, rcon x2 pos2) :: zdrop (pos2 + 1) x2) k x));
          [lia|lia|intros; now rewrite !km_tail by lia].
      * intros j x Hj Hx. rewrite !km_tail by lia. kmb T1. auto.
    + destruct (adv_step x1 (rkey x2 pos2) pos1 B1 ltac:(lia) L) as (A&G&M).
      rewrite (IH _ _ (rkey x2 pos2)); auto; try lia.
      * f_equal. rewrite (kcnt_skip _ lo (rkey x2 pos2)); try lia.
        -- apply kcnt_ext; [lia|]. intros. now rewrite (M k x) by lia.
        -- intros j x Hj Hx. rewrite (rdrop_S x2 pos2) by lia. rewrite (km_tail (rkey x2 pos2)) by lia. kmb T2. apply andb_false_r.
      * rewrite (rdrop_S x2 pos2) by lia. apply gok_cons. repeat split; try apply T2; auto; lia.
    + destruct (adv_step x2 (rkey x1 pos1) pos2 B2 ltac:(lia) ltac:(lia)) as (A&G&M).
      rewrite (IH _ _ (rkey x1 pos1)); auto; try lia.
      * f_equal. rewrite (kcnt_skip _ lo (rkey x1 pos1)); try lia.
        -- apply kcnt_ext; [lia|]. intros. now rewrite (M k x) by lia.
        -- intros j x Hj Hx. rewrite (rdrop_S x1 pos1) by lia. rewrite (km_tail (rkey x1 pos1)) by lia. kmb T1. auto.
      * rewrite (rdrop_S x1 pos1) by lia. apply gok_cons. repeat split; try apply T1; auto; lia.
  - rewrite (zdrop_all pos2) by lia. rewrite kcnt_none; try lia. intros. rewrite km_nil. apply andb_false_r.
  - rewrite (zdrop_all pos1) by lia. rewrite kcnt_none; try lia. auto.
Qed.
Theorem roaring_bitmap_and_cardinality_spec x1 x2 : bok x1 -> bok x2 ->
  roaring_bitmap_and_cardinality x1 x2 = cnt (fun v => mem x1 v && mem x2 v) 0 (2^32).
Proof.
  intros. pose proof (zlen_nonneg x1). pose proof (zlen_nonneg x2). unfold roaring_bitmap_and_cardinality.
  assert (FU : zlen x1 - 0 + (zlen x2 - 0) < Z.of_nat (ofuel x1 x2)) by (unfold ofuel, zlen; lia).
  pose proof (and_card_loop_spec x1 x2 H H0 (ofuel x1 x2) 0 0 0 0 ltac:(lia) ltac:(lia) ltac:(lia) H H0 FU) as E.
  rewrite kcnt_all in E. rewrite Z.add_0_l in E. rewrite E. apply cnt_ext. intros. exact eq_refl.
Qed.

(** ** Intersection test, subset, equality *)
Definition kex (P : Z -> Z -> bool) (lo : Z) : Prop := exists k x, lo <= k < 65536 /\ 0 <= x < 65536 /\ P k x = true.
Lemma kex_mem x1 x2 (B1 : bok x1) : kex (fun k x => km x1 k x && km x2 k x) 0 <-> exists v, mem x1 v = true /\ mem x2 v = true.
Proof.
  split.
  - intros (k&x&Hk&Hx&E). apply andb_true_iff in E. exists (65536 * k + x). unfold mem.
    replace ((65536 * k + x) / 65536) with k by dm. replace ((65536 * k + x) mod 65536) with x by dm. auto.
  - intros (v&E1&E2). destruct (Z_lt_dec v 0). { rewrite (mem_oob x1) in E1 by (auto; lia). discriminate. }
    destruct (Z_le_dec (2^32) v). { rewrite (mem_oob x1) in E1 by (auto; lia). discriminate. }
    exists (v / 65536), (v mod 65536). unfold mem in *. rewrite E1, E2. repeat split; dm.
Qed.
Lemma intersect_loop_spec x1 x2 (B1 : bok x1) (B2 : bok x2) fuel pos1 pos2 lo :
  0 <= lo <= 65536 -> 0 <= pos1 <= zlen x1 -> 0 <= pos2 <= zlen x2 -> gok cok lo (zdrop pos1 x1) -> gok cok lo (zdrop pos2 x2) ->
  (zlen x1 - pos1) + (zlen x2 - pos2) < Z.of_nat fuel ->
  (intersect_loop fuel x1 x2 pos1 pos2 = true <-> kex (fun k x => km (zdrop pos1 x1) k x && km (zdrop pos2 x2) k x) lo).
Proof.
  revert pos1 pos2 lo. induction fuel as [|fu IH]; intros pos1 pos2 lo Hlo Hp1 Hp2 G1 G2 Hfu; [lia|]. cbn [intersect_loop].
  destruct (Z.ltb_spec pos1 (zlen x1)); [destruct (Z.ltb_spec pos2 (zlen x2))|]; cbn [andb].
  - cbn zeta. rewrite (rdrop_S x1 pos1) in G1 by lia. rewrite (rdrop_S x2 pos2) in G2 by lia.
    apply gok_cons in G1 as (K1&D1&T1). apply gok_cons in G2 as (K2&D2&T2).
    destruct (Z.eqb_spec (rkey x1 pos1) (rkey x2 pos2)) as [E|E]; [|destruct (Z.ltb_spec (rkey x1 pos1) (rkey x2 pos2)) as [L|L]].
    + rewrite (rdrop_S x1 pos1), (rdrop_S x2 pos2) by lia. rewrite <- E in *.
      set (s1 := rkey x1 pos1) in *. pose proof (container_intersect_spec _ _ D1 D2) as CI.
      destruct (container_intersect (rcon x1 pos1) (rcon x2 pos2)).
      * split; [intros _|auto]. destruct (proj1 CI eq_refl) as (x&Hx&E1&E2). exists s1, x. rewrite !km_head, E1, E2. auto with zarith.
      * rewrite (IH _ _ (s1 + 1)) by (auto; lia). split.
        -- intros (k&x&Hk&Hx&Ex). exists k, x. rewrite !km_tail by lia. repeat split; auto; lia.
        -- intros (k&x&Hk&Hx&Ex). destruct (Z_lt_dec k s1) as [Lk|Lk].
           { rewrite (km_tail s1 _ _ k) in Ex by lia. rewrite (km_below cok (s1 + 1)) in Ex by (auto; lia). discriminate. }
           destruct (Z.eq_dec k s1) as [Ek|Ek].
           { subst k. rewrite !km_head in Ex. apply andb_true_iff in Ex. discriminate (proj2 CI (ex_intro _ x (conj Hx Ex))). }
           exists k, x. rewrite !km_tail in Ex by lia. repeat split; auto; lia.
    + destruct (adv_step x1 (rkey x2 pos2) pos1 B1 ltac:(lia) L) as (A&G&M).
      rewrite (IH _ _ (rkey x2 pos2)); auto; try lia.
      * split; intros (k&x&Hk&Hx&Ex).
        -- exists k, x. rewrite (M k x) by lia. repeat split; auto; lia.
        -- destruct (Z_lt_dec k (rkey x2 pos2)) as [Lk|Lk].
           { exfalso. rewrite (rdrop_S x2 pos2) in Ex by lia. rewrite (km_tail (rkey x2 pos2)) in Ex by lia.
             rewrite (km_below cok (rkey x2 pos2 + 1) (zdrop (pos2 + 1) x2)) in Ex by (auto; lia). rewrite andb_false_r in Ex. discriminate. }
           exists k, x. rewrite <- (M k x) by lia. repeat split; auto; lia.
      * rewrite (rdrop_S x2 pos2) by lia. apply gok_cons. repeat split; try apply T2; auto; lia.
    + destruct (adv_step x2 (rkey x1 pos1) pos2 B2 ltac:(lia) ltac:(lia)) as (A&G&M).
      rewrite (IH _ _ (rkey x1 pos1)); auto; try lia.
      * split; intros (k&x&Hk&Hx&Ex).
        -- exists k, x. rewrite (M k x) by lia. repeat split; auto; lia.
        -- destruct (Z_lt_dec k (rkey x1 pos1)) as [Lk|Lk].
           { exfalso. rewrite (rdrop_S x1 pos1) in Ex by lia. rewrite (km_tail (rkey x1 pos1)) in Ex by lia.
             rewrite (km_below cok (rkey x1 pos1 + 1) (zdrop (pos1 + 1) x1)) in Ex by (auto; lia). discriminate. }
           exists k, x. rewrite <- (M k x) by lia. repeat split; auto; lia.
      * rewrite (rdrop_S x1 pos1) by lia. apply gok_cons. repeat split; try apply T1; auto; lia.
  - split; [discriminate|]. intros (k&x&Hk&Hx&Ex). rewrite (zdrop_all pos2), km_nil, andb_false_r in Ex by lia. discriminate.
  - split; [discriminate|]. intros (k&x&Hk&Hx&Ex). rewrite (zdrop_all pos1), km_nil in Ex by lia. discriminate.
Qed.
Theorem roaring_bitmap_intersect_spec x1 x2 : bok x1 -> bok x2 ->
  (roaring_bitmap_intersect x1 x2 = true <-> exists v, mem x1 v = true /\ mem x2 v = true).
Proof.
  intros. pose proof (zlen_nonneg x1). pose proof (zlen_nonneg x2). unfold roaring_bitmap_intersect.
  rewrite (intersect_loop_spec x1 x2 H H0 _ 0 0 0); auto; try lia; [now apply kex_mem|]. unfold ofuel, zlen. lia.
Qed.

Definition ksub (P Q : Z -> Z -> bool) (lo : Z) : Prop := forall k x, lo <= k < 65536 -> 0 <= x < 65536 -> P k x = true -> Q k x = true.
Lemma mem_all (f : bool -> bool -> Prop) x1 x2 (B1 : bok x1) (B2 : bok x2) : f false false ->
  ((forall k x, 0 <= k < 65536 -> 0 <= x < 65536 -> f (km x1 k x) (km x2 k x)) <-> forall v, f (mem x1 v) (mem x2 v)).
Proof.
  intros F. split.
  - intros H v. destruct (Z_lt_dec v 0). { rewrite (mem_oob x1), (mem_oob x2) by (auto; lia). auto. }
    destruct (Z_le_dec (2^32) v). { rewrite (mem_oob x1), (mem_oob x2) by (auto; lia). auto. }
    unfold mem. apply H; dm.
  - intros H k x Hk Hx. specialize (H (65536 * k + x)). unfold mem in H.
    replace ((65536 * k + x) / 65536) with k in H by dm. replace ((65536 * k + x) mod 65536) with x in H by dm. auto.
Qed.
Lemma km_cne k c t : cok c -> exists x, 0 <= x < 65536 /\ km ((k, c) :: t) k x = true.
Proof. intros D. destruct (cok_cne c D) as (x&Hx&E). exists x. rewrite km_head. auto. Qed.
Lemma subset_loop_spec x1 x2 (B1 : bok x1) (B2 : bok x2) fuel pos1 pos2 lo :
  0 <= lo <= 65536 -> 0 <= pos1 <= zlen x1 -> 0 <= pos2 <= zlen x2 -> gok cok lo (zdrop pos1 x1) -> gok cok lo (zdrop pos2 x2) ->
  (zlen x1 - pos1) + (zlen x2 - pos2) < Z.of_nat fuel ->
  (subset_loop fuel x1 x2 pos1 pos2 = true <-> ksub (km (zdrop pos1 x1)) (km (zdrop pos2 x2)) lo).
Proof.
  revert pos1 pos2 lo. induction fuel as [|fu IH]; intros pos1 pos2 lo Hlo Hp1 Hp2 G1 G2 Hfu; [lia|]. cbn [subset_loop].
  destruct (Z.ltb_spec pos1 (zlen x1)); [destruct (Z.ltb_spec pos2 (zlen x2))|]; cbn [andb].
  - cbn zeta. rewrite (rdrop_S x1 pos1) in G1 by lia. rewrite (rdrop_S x2 pos2) in G2 by lia.
    apply gok_cons in G1 as (K1&D1&T1). apply gok_cons in G2 as (K2&D2&T2).
    destruct (Z.eqb_spec (rkey x1 pos1) (rkey x2 pos2)) as [E|E]; [|destruct (Z.ltb_spec (rkey x1 pos1) (rkey x2 pos2)) as [L|L]].
    + rewrite (rdrop_S x1 pos1), (rdrop_S x2 pos2) by lia. rewrite <- E in *.
      set (s1 := rkey x1 pos1) in *. pose proof (container_is_subset_spec _ _ D1 D2) as CI.
      destruct (container_is_subset (rcon x1 pos1) (rcon x2 pos2)); cbn [negb].
      * rewrite (IH _ _ (s1 + 1)) by (auto; lia). split.
        -- intros I k x Hk Hx. destruct (Z.eq_dec k s1) as [Ek|Ek].
           { subst k. rewrite !km_head. apply (proj1 CI eq_refl); auto. }
           rewrite !km_tail by lia. destruct (Z_lt_dec k s1) as [Lk|Lk]; [|apply I; lia].
           rewrite (km_below cok (s1 + 1)) by (auto; lia). discriminate.
        -- intros I k x Hk Hx. specialize (I k x ltac:(lia) Hx). now rewrite !km_tail in I by lia.
      * split; [discriminate|]. intros I. apply (proj2 CI). intros x Hx. specialize (I s1 x ltac:(lia) Hx). now rewrite !km_head in I.
    + split; [discriminate|]. intros I. exfalso. rewrite (rdrop_S x1 pos1), (rdrop_S x2 pos2) in I by lia.
      destruct (km_cne (rkey x1 pos1) _ (zdrop (pos1 + 1) x1) D1) as (x&Hx&Ex). apply I in Ex; [|lia|exact Hx].
      rewrite (km_tail (rkey x2 pos2)) in Ex by lia. rewrite (km_below cok (rkey x2 pos2 + 1)) in Ex by (auto; lia). discriminate.
    + destruct (adv_step x2 (rkey x1 pos1) pos2 B2 ltac:(lia) ltac:(lia)) as (A&G&M).
      rewrite (IH _ _ (rkey x1 pos1)); auto; try lia.
      * split; intros I k x Hk Hx.
        -- destruct (Z_lt_dec k (rkey x1 pos1)) as [Lk|Lk].
           { rewrite (rdrop_S x1 pos1) by lia. rewrite (km_tail (rkey x1 pos1)) by lia.
             rewrite (km_below cok (rkey x1 pos1 + 1) (zdrop (pos1 + 1) x1)) by (auto; lia). discriminate. }
           rewrite (M k x) by lia. apply I; lia.
        -- rewrite <- (M k x) by lia. apply I; lia.
      * rewrite (rdrop_S x1 pos1) by lia. apply gok_cons. repeat split; try apply T1; auto; lia.
  - replace (pos1 =? zlen x1) with false by lia. split; [discriminate|]. intros I. exfalso.
    rewrite (rdrop_S x1 pos1) in G1, I by lia. apply gok_cons in G1 as (K1&D1&T1).
    destruct (km_cne (rkey x1 pos1) _ (zdrop (pos1 + 1) x1) D1) as (x&Hx&Ex). apply I in Ex; [|lia|exact Hx].
    rewrite (zdrop_all pos2), km_nil in Ex by lia. discriminate.
  - replace (pos1 =? zlen x1) with true by lia. split; auto. intros _ k x Hk Hx. rewrite (zdrop_all pos1), km_nil by lia. discriminate.
Qed.
Theorem roaring_bitmap_is_subset_spec x1 x2 : bok x1 -> bok x2 ->
  (roaring_bitmap_is_subset x1 x2 = true <-> forall v, mem x1 v = true -> mem x2 v = true).
Proof.
  intros. pose proof (zlen_nonneg x1). pose proof (zlen_nonneg x2). unfold roaring_bitmap_is_subset.
  rewrite (subset_loop_spec x1 x2 H H0 _ 0 0 0); auto; try lia; [|unfold ofuel, zlen; lia].
  rewrite <- (mem_all (fun a b => a = true -> b = true)); auto. reflexivity.
Qed.

Lemma equals_keys r1 r2 lo : gok cok lo r1 -> gok cok lo r2 -> 0 <= lo ->
  (keys_equal r1 r2 = true /\ containers_equal r1 r2 = true <->
   forall k x, lo <= k < 65536 -> 0 <= x < 65536 -> km r1 k x = km r2 k x).
Proof.
  revert r2 lo. induction r1 as [|[k1 c1] t1 IH]; intros [|[k2 c2] t2] lo G1 G2 Hlo; cbn [keys_equal containers_equal].
  - split; auto.
  - apply gok_cons in G2 as (K2&D2&T2). split; [intros [? _]; discriminate|]. intros I. exfalso.
    destruct (km_cne k2 c2 t2 D2) as (x&Hx&E). rewrite <- I, km_nil in E by lia. discriminate.
  - apply gok_cons in G1 as (K1&D1&T1). split; [intros [? _]; discriminate|]. intros I. exfalso.
    destruct (km_cne k1 c1 t1 D1) as (x&Hx&E). rewrite I, km_nil in E by lia. discriminate.
  - apply gok_cons in G1 as (K1&D1&T1). apply gok_cons in G2 as (K2&D2&T2).
    destruct (Z.eqb_spec k1 k2) as [E|E]; cbn [negb].
    + subst k2. pose proof (container_equals_spec c1 c2 (cok_lok _ D1) (cok_lok _ D2)) as CE.
      destruct (container_equals c1 c2); cbn [negb].
      * rewrite (IH t2 (k1 + 1)) by (auto; lia). split.
        -- intros I k x Hk Hx. destruct (Z.eq_dec k k1) as [Ek|Ek]. { subst. rewrite !km_head. now apply CE. }
           rewrite !km_tail by lia. destruct (Z_lt_dec k k1); [|apply I; lia].
           rewrite !(km_below cok (k1 + 1)) by (auto; lia). auto.
        -- intros I k x Hk Hx. specialize (I k x ltac:(lia) Hx). now rewrite !km_tail in I by lia.
      * split; [intros [_ ?]; discriminate|]. intros I. exfalso. assert (false = true); [|discriminate]. apply (proj2 CE).
        intros x Hx. specialize (I k1 x ltac:(lia) Hx). now rewrite !km_head in I.
    + split; [intros [? _]; discriminate|]. intros I. exfalso.
      destruct (Z_lt_dec k1 k2).
      * destruct (km_cne k1 c1 t1 D1) as (x&Hx&Ex). rewrite I in Ex by lia. rewrite km_tail in Ex by lia.
        rewrite (km_below cok (k2 + 1)) in Ex by (auto; lia). discriminate.
      * destruct (km_cne k2 c2 t2 D2) as (x&Hx&Ex). rewrite <- I in Ex by lia. rewrite km_tail in Ex by lia.
        rewrite (km_below cok (k1 + 1)) in Ex by (auto; lia). discriminate.
Qed.
Lemma keys_equal_zlen r1 r2 : keys_equal r1 r2 = true -> zlen r1 = zlen r2.
Proof.
  revert r2. induction r1 as [|[k1 c1] t1 IH]; intros [|[k2 c2] t2]; cbn [keys_equal]; try discriminate; auto.
  destruct (k1 =? k2); cbn [negb]; [|discriminate]. intros H. rewrite !zlen_cons. now rewrite (IH t2).
Qed.
Theorem roaring_bitmap_equals_spec r1 r2 : bok r1 -> bok r2 ->
  (roaring_bitmap_equals r1 r2 = true <-> forall v, mem r1 v = mem r2 v).
Proof.
  intros B1 B2. rewrite <- (mem_all (fun a b => a = b)) by auto. rewrite <- (equals_keys r1 r2 0) by (auto; lia).
  unfold roaring_bitmap_equals. pose proof (keys_equal_zlen r1 r2) as KZ.
  destruct (keys_equal r1 r2); cbn [negb].
  - rewrite (KZ eq_refl), Z.eqb_refl. cbn [negb]. intuition.
  - destruct (zlen r1 =? zlen r2); cbn [negb]; intuition discriminate.
Qed.

(** ** Derived cardinalities *)
Lemma cnt_pos_ex P lo hi : cnt P lo hi <> 0 -> exists x, lo <= x < hi /\ P x = true.
Proof.
  intros H. destruct (Z_le_dec hi lo) as [L|L]. { rewrite cnt_nil in H by lia. lia. }
  remember (Z.to_nat (hi - lo)) as n eqn:En. revert lo H L En. induction n as [|n IH]; intros lo H L En; [lia|].
  rewrite cnt_cons in H by lia. destruct (P lo) eqn:E. { exists lo. split; auto; lia. }
  destruct (Z_le_dec hi (lo + 1)). { rewrite cnt_nil in H by lia. lia. }
  destruct (IH (lo + 1)) as (x&Hx&Ex); try lia. exists x. split; auto; lia.
Qed.
Lemma cnt_split P Q lo hi : cnt P lo hi = cnt (fun x => P x && Q x) lo hi + cnt (fun x => P x && negb (Q x)) lo hi.
Proof.
  destruct (Z_le_dec hi lo). { rewrite !cnt_nil by lia. lia. }
  pose proof (cnt_incl_excl (fun x => P x && Q x) (fun x => P x && negb (Q x)) lo hi) as I.
  rewrite (cnt_none (fun x => P x && Q x && (P x && negb (Q x)))) in I by (intros; destruct (P x), (Q x); reflexivity).
  rewrite (cnt_ext (fun x => P x && Q x || P x && negb (Q x)) P) in I by (intros; destruct (P x), (Q x); reflexivity). lia.
Qed.
Theorem roaring_bitmap_or_cardinality_spec x1 x2 : bok x1 -> bok x2 ->
  roaring_bitmap_or_cardinality x1 x2 = cnt (fun v => mem x1 v || mem x2 v) 0 (2^32).
Proof.
  intros. unfold roaring_bitmap_or_cardinality. rewrite !roaring_bitmap_get_cardinality_spec, roaring_bitmap_and_cardinality_spec by auto.
  unfold bcardinal. pose proof (cnt_incl_excl (mem x1) (mem x2) 0 (2^32)). lia.
Qed.
Theorem roaring_bitmap_andnot_cardinality_spec x1 x2 : bok x1 -> bok x2 ->
  roaring_bitmap_andnot_cardinality x1 x2 = cnt (fun v => mem x1 v && negb (mem x2 v)) 0 (2^32).
Proof.
  intros. unfold roaring_bitmap_andnot_cardinality. rewrite !roaring_bitmap_get_cardinality_spec, roaring_bitmap_and_cardinality_spec by auto.
  unfold bcardinal. rewrite (cnt_split (mem x1) (mem x2)). lia.
Qed.
Theorem roaring_bitmap_xor_cardinality_spec x1 x2 : bok x1 -> bok x2 ->
  roaring_bitmap_xor_cardinality x1 x2 = cnt (fun v => xorb (mem x1 v) (mem x2 v)) 0 (2^32).
Proof.
  intros. unfold roaring_bitmap_xor_cardinality. rewrite !roaring_bitmap_get_cardinality_spec, roaring_bitmap_and_cardinality_spec by auto.
  unfold bcardinal. rewrite (cnt_split (fun v => xorb (mem x1 v) (mem x2 v)) (mem x1)).
  rewrite (cnt_split (mem x1) (mem x2)), (cnt_split (mem x2) (mem x1)).
  rewrite (cnt_ext (fun x => xorb (mem x1 x) (mem x2 x) && mem x1 x) (fun x => mem x1 x && negb (mem x2 x)))
    by (intros; destruct (mem x1 x), (mem x2 x); reflexivity).
  rewrite (cnt_ext (fun x => xorb (mem x1 x) (mem x2 x) && negb (mem x1 x)) (fun x => mem x2 x && negb (mem x1 x)))
    by (intros; destruct (mem x1 x), (mem x2 x); reflexivity).
  rewrite (cnt_ext (fun x => mem x2 x && mem x1 x) (fun x => mem x1 x && mem x2 x)) by (intros; apply andb_comm). lia.
Qed.
Theorem roaring_bitmap_jaccard_spec x1 x2 : bok x1 -> bok x2 ->
  roaring_bitmap_jaccard_index x1 x2 = (cnt (fun v => mem x1 v && mem x2 v) 0 (2^32), cnt (fun v => mem x1 v || mem x2 v) 0 (2^32)).
Proof.
  intros. rewrite <- roaring_bitmap_and_cardinality_spec, <- roaring_bitmap_or_cardinality_spec by auto. reflexivity.
Qed.
Theorem roaring_bitmap_is_strict_subset_spec x1 x2 : bok x1 -> bok x2 ->
  (roaring_bitmap_is_strict_subset x1 x2 = true <->
   (forall v, mem x1 v = true -> mem x2 v = true) /\ exists v, mem x2 v = true /\ mem x1 v = false).
Proof.
  intros B1 B2. unfold roaring_bitmap_is_strict_subset. rewrite andb_true_iff, roaring_bitmap_is_subset_spec, Z.ltb_lt by auto.
  rewrite !roaring_bitmap_get_cardinality_spec by auto. unfold bcardinal.
  split.
  - intros [L I]. split; auto.
    destruct (Z.eq_dec (cnt (fun v => mem x2 v && negb (mem x1 v)) 0 (2^32)) 0) as [E|E].
    + exfalso. pose proof (cnt_split (mem x2) (mem x1) 0 (2^32)) as S. rewrite E in S.
      pose proof (cnt_mono (fun x => mem x2 x && mem x1 x) (mem x1) 0 (2^32)) as M.
      assert (forall x, 0 <= x < 2^32 -> mem x2 x && mem x1 x = true -> mem x1 x = true) as HM
        by (intros x _ Hx; apply andb_true_iff in Hx; apply Hx). specialize (M HM). lia.
    + destruct (cnt_pos_ex (fun v => mem x2 v && negb (mem x1 v)) 0 (2^32) E) as (v&_&Ev). exists v.
      apply andb_true_iff in Ev as [? Ev]. apply negb_true_iff in Ev. auto.
  - intros [I (v&E2&E1)]. split; auto.
    assert (0 <= v < 2^32).
    { destruct (Z_lt_dec v 0). { rewrite (mem_oob x2) in E2 by (auto; lia). discriminate. }
      destruct (Z_le_dec (2^32) v). { rewrite (mem_oob x2) in E2 by (auto; lia). discriminate. } lia. }
    pose proof (cnt_split (mem x2) (mem x1) 0 (2^32)) as S.
    rewrite (cnt_ext (fun x => mem x2 x && mem x1 x) (mem x1)) in S
      by (intros x _; specialize (I x); destruct (mem x1 x), (mem x2 x); auto; discriminate (I eq_refl)).
    assert (cnt (fun x => mem x2 x && negb (mem x1 x)) 0 (2^32) <> 0) as N.
    { intros E0. pose proof (cnt_none_inv (fun x => mem x2 x && negb (mem x1 x)) 0 (2^32) E0 v ltac:(lia)) as F. cbn beta in F.
      rewrite E1, E2 in F. discriminate. }
    pose proof (cnt_bound (fun x => mem x2 x && negb (mem x1 x)) 0 (2^32) ltac:(lia)). lia.
Qed.
