(** Heap: src/roaring_priority_queue.c.  The queue is the list of its pq->size live
    elements; create_pq allocates room for all inputs and every addition follows two
    removals, so the array never has to grow.  [cap] as in RBinary. *)
From Coq Require Import ZArith List Bool Lia Permutation.
From Verif Require Import Base ArrayUtil BitUtil BitsetC ArrayC RunC RunD Convert MixedI MixedU MixedA MixedN Containers RArray RBinary Serial.
Import ListNotations.
Local Open Scope Z_scope.
Local Opaque zr.

(** roaring_priority_queue.c:12-18 *)
Record pqe : Type := mkPqe { e_size : Z; e_tmp : bool; e_bm : bitmap }.
Definition dpqe : pqe := mkPqe 0 false [].
Definition eget (l : list pqe) (i : Z) : pqe := nth (Z.to_nat i) l dpqe.
Definition eset (i : Z) (e : pqe) (l : list pqe) : list pqe := firstn (Z.to_nat i) l ++ e :: skipn (S (Z.to_nat i)) l.
(** 27-29 compare *)
Definition pq_less (t1 t2 : pqe) : bool := e_size t1 <? e_size t2.
(** 31-42 pq_add *)
Fixpoint sift_up (fuel : nat) (l : list pqe) (i : Z) (t : pqe) : list pqe :=
  match fuel with
  | O => eset i t l
  | S f =>
    if 0 <? i then
      let p := (i - 1) / 2 in
      let ap := eget l p in
      if negb (pq_less t ap) then eset i t l
      else sift_up f (eset i ap l) p t
    else eset i t l
  end.
Definition pq_add (l : list pqe) (t : pqe) : list pqe :=
  sift_up (S (length l)) (l ++ [t]) (zlen l) t.
(** 46-67 percolate_down *)
Fixpoint sift_down (fuel : nat) (l : list pqe) (i : Z) (ai : pqe) : list pqe :=
  match fuel with
  | O => eset i ai l
  | S f =>
    if i <? zlen l / 2 then
      let l0 := 2 * i + 1 in
      let r := l0 + 1 in
      let c := if (r <? zlen l) && pq_less (eget l r) (eget l l0) then r else l0 in
      let bestc := eget l c in
      if negb (pq_less bestc ai) then eset i ai l
      else sift_down f (eset i bestc l) c ai
    else eset i ai l
  end.
Definition percolate_down (l : list pqe) (i : Z) : list pqe := sift_down (S (length l)) l i (eget l i).
(** 69-85 create_pq: the loop runs from length/2 down to 0 *)
Definition create_pq (xs : list bitmap) : list pqe :=
  fold_left percolate_down (rev (zr 0 (zlen xs / 2 + 1)))
    (map (fun x => mkPqe (roaring_bitmap_portable_size_in_bytes x) false x) xs).
(** 87-96 pq_poll *)
Definition pq_poll (l : list pqe) : pqe * list pqe :=
  (eget l 0,
   if 1 <? zlen l then percolate_down (eset 0 (eget l (zlen l - 1)) (firstn (length l - 1) l)) 0 else []).
(** 99-192 lazy_or_from_lazy_inputs; both operands are unshared where it matters, and
    the loop is the one of roaring_bitmap_or *)
Definition lazy_or_from_lazy_inputs (cap : Z -> Z) (x1 x2 : bitmap) : bitmap :=
  union_op (fun k c1 c2 => Some (
    if is_bitset c2 && negb (is_bitset c1) then container_lazy_ior (cap k) c2 c1 else container_lazy_ior (cap k) c1 c2)) x1 x2.
(** 200-247 roaring_bitmap_or_many_heap *)
Definition heap_step (cap : Z -> Z) (l : list pqe) : list pqe :=
  let '(x1, l) := pq_poll l in
  let '(x2, l) := pq_poll l in
  let push b := pq_add l (mkPqe (roaring_bitmap_portable_size_in_bytes b) true b) in
  if e_tmp x1 && e_tmp x2 then push (lazy_or_from_lazy_inputs cap (e_bm x1) (e_bm x2))
  else if e_tmp x2 then push (roaring_bitmap_lazy_or_inplace cap (e_bm x2) (e_bm x1) false)
  else if e_tmp x1 then push (roaring_bitmap_lazy_or_inplace cap (e_bm x1) (e_bm x2) false)
  else push (roaring_bitmap_lazy_or (e_bm x1) (e_bm x2) false).
Fixpoint heap_loop (fuel : nat) (cap : Z -> Z) (l : list pqe) : list pqe :=
  match fuel with
  | O => l
  | S f => if 1 <? zlen l then heap_loop f cap (heap_step cap l) else l
  end.
Definition roaring_bitmap_or_many_heap (cap : Z -> Z) (xs : list bitmap) : bitmap :=
  match xs with
  | [] => []
  | [x] => x
  | _ => roaring_bitmap_repair_after_lazy (e_bm (fst (pq_poll (heap_loop (length xs) cap (create_pq xs)))))
  end.

(** * Proofs *)
Lemma eset_length i e l : 0 <= i < zlen l -> length (eset i e l) = length l.
Proof. intros H. unfold eset, zlen in *. rewrite app_length. cbn [length]. rewrite firstn_length, skipn_length. lia. Qed.
Lemma zlen_eset i e l : 0 <= i < zlen l -> zlen (eset i e l) = zlen l.
Proof. intros H. unfold zlen. now rewrite eset_length. Qed.
Lemma split_at l i : 0 <= i < zlen l -> l = firstn (Z.to_nat i) l ++ eget l i :: skipn (S (Z.to_nat i)) l.
Proof.
  intros H. unfold eget, zlen in *. assert (L : (Z.to_nat i < length l)%nat) by lia. revert L. generalize (Z.to_nat i). clear. intros n. revert l.
  induction n as [|n IH]; intros [|x l] L; cbn in L; try lia; cbn; auto. f_equal. apply IH. lia.
Qed.
Lemma eset_self l i : 0 <= i < zlen l -> eset i (eget l i) l = l.
Proof. intros H. symmetry. now apply split_at. Qed.
Lemma eget_eset l i j e : 0 <= i < zlen l -> 0 <= j -> eget (eset i e l) j = if j =? i then e else eget l j.
Proof.
  intros H Hj. unfold eget at 1, eset. destruct (Z.eqb_spec j i) as [->|N].
  - rewrite app_nth2; rewrite firstn_length; unfold zlen in *; [|lia]. now replace (Z.to_nat i - Nat.min (Z.to_nat i) (length l))%nat with O by lia.
  - transitivity (eget (firstn (Z.to_nat i) l ++ eget l i :: skipn (S (Z.to_nat i)) l) j); [|now rewrite <- split_at]. generalize (eget l i). intros d. unfold eget, zlen in *. destruct (Z_lt_dec j i).
    + rewrite !app_nth1 by (rewrite firstn_length; lia). reflexivity.
    + rewrite !app_nth2 by (rewrite firstn_length; lia). rewrite firstn_length. replace (Z.to_nat j - Nat.min (Z.to_nat i) (length l))%nat with (S (Z.to_nat j - Z.to_nat i - 1)) by lia. reflexivity.
Qed.
(** replacing an element exchanges it in the multiset *)
Lemma eset_perm l i e : 0 <= i < zlen l -> Permutation (eget l i :: eset i e l) (e :: l).
Proof.
  intros H. rewrite (split_at l i H) at 3. unfold eset. transitivity (eget l i :: e :: firstn (Z.to_nat i) l ++ skipn (S (Z.to_nat i)) l).
  - constructor. symmetry. apply Permutation_middle.
  - transitivity (e :: eget l i :: firstn (Z.to_nat i) l ++ skipn (S (Z.to_nat i)) l); [apply perm_swap|]. constructor. apply Permutation_middle.
Qed.
Lemma hole_move l i c a : 0 <= i < zlen l -> 0 <= c < zlen l -> i <> c -> Permutation (eset c a (eset i (eget l c) l)) (eset i a l).
Proof.
  intros Hi Hc N. apply (Permutation_cons_inv (a := eget l c)).
  pose proof (eset_perm (eset i (eget l c) l) c a ltac:(rewrite zlen_eset; auto)) as P1. rewrite eget_eset in P1 by lia. replace (c =? i) with false in P1 by lia.
  rewrite P1. apply (Permutation_cons_inv (a := eget l i)).
  transitivity (a :: eget l i :: eset i (eget l c) l); [apply perm_swap|]. rewrite (eset_perm l i (eget l c) Hi).
  transitivity (eget l c :: a :: l); [apply perm_swap|]. rewrite <- (eset_perm l i a Hi). apply perm_swap.
Qed.
Lemma sift_up_perm fuel : forall l i t, 0 <= i < zlen l -> Permutation (sift_up fuel l i t) (eset i t l).
Proof.
  induction fuel as [|f IH]; intros l i t Hi; cbn [sift_up]; auto. destruct (Z.ltb_spec 0 i); auto. destruct (negb (pq_less t (eget l ((i - 1) / 2)))); auto.
  assert (0 <= (i - 1) / 2 < i) by dm. rewrite IH by (rewrite zlen_eset; lia). apply hole_move; lia.
Qed.
Lemma sift_down_perm fuel : forall l i t, 0 <= i < zlen l -> Permutation (sift_down fuel l i t) (eset i t l).
Proof.
  induction fuel as [|f IH]; intros l i t Hi; cbn [sift_down]; auto. destruct (Z.ltb_spec i (zlen l / 2)); auto. cbn zeta.
  set (c := if (2 * i + 1 + 1 <? zlen l) && pq_less (eget l (2 * i + 1 + 1)) (eget l (2 * i + 1)) then 2 * i + 1 + 1 else 2 * i + 1). assert (C : i < c < zlen l) by (unfold c; destruct (Z.ltb_spec (2 * i + 1 + 1) (zlen l)); cbn [andb]; [destruct (pq_less _ _)|]; dm).
  destruct (negb (pq_less (eget l c) t)); auto. rewrite IH by (rewrite zlen_eset; lia). apply hole_move; lia.
Qed.
Lemma percolate_perm l i : 0 <= i < zlen l -> Permutation (percolate_down l i) l.
Proof. intros H. unfold percolate_down. rewrite sift_down_perm by auto. now rewrite eset_self. Qed.
Lemma perm_zlen {A} (l l' : list A) : Permutation l l' -> zlen l = zlen l'.
Proof. intros P. unfold zlen. now rewrite (Permutation_length P). Qed.
Lemma pq_add_perm l t : Permutation (pq_add l t) (t :: l).
Proof.
  unfold pq_add. pose proof (zlen_nonneg l). rewrite sift_up_perm by (rewrite zlen_app; change (zlen [t]) with 1; lia).
  unfold eset. replace (Z.to_nat (zlen l)) with (length l) by (unfold zlen; lia). rewrite firstn_app, firstn_all, Nat.sub_diag. cbn [firstn]. rewrite app_nil_r.
  rewrite skipn_all2 by (rewrite app_length; cbn; lia). symmetry. apply Permutation_cons_append.
Qed.
Lemma pq_poll_perm l : 0 < zlen l -> Permutation (fst (pq_poll l) :: snd (pq_poll l)) l.
Proof.
  intros H. unfold pq_poll. cbn [fst snd]. destruct (Z.ltb_spec 1 (zlen l)).
  - set (m := firstn (length l - 1) l). assert (Lm : zlen m = zlen l - 1) by (unfold m, zlen in *; rewrite firstn_length; lia).
    assert (E : l = m ++ [eget l (zlen l - 1)]).
    { rewrite (split_at l (zlen l - 1)) at 1 by lia. unfold m. replace (Z.to_nat (zlen l - 1)) with (length l - 1)%nat by (unfold zlen; lia). f_equal. f_equal. apply skipn_all2. lia. }
    assert (E0 : eget l 0 = eget m 0). { rewrite E at 1. unfold eget. apply app_nth1. unfold zlen in *. lia. }
    rewrite percolate_perm by (rewrite zlen_eset; lia). rewrite E0. rewrite eset_perm by lia. transitivity (m ++ [eget l (zlen l - 1)]); [apply Permutation_cons_append|]. now rewrite <- E.
  - destruct l as [|x [|y l]]; [unfold zlen in H; cbn in H; lia|reflexivity|]. rewrite !zlen_cons in *. pose proof (zlen_nonneg l). lia.
Qed.
Lemma fold_percolate_perm is l : (forall i, In i is -> 0 <= i < zlen l) -> Permutation (fold_left percolate_down is l) l.
Proof.
  revert l. induction is as [|i is IH]; intros l H; cbn [fold_left]; auto. pose proof (percolate_perm l i (H i (or_introl eq_refl))) as P.
  rewrite IH; auto. intros j Hj. rewrite (perm_zlen _ _ P). apply H. now right.
Qed.
Lemma create_pq_perm xs : 2 <= zlen xs -> Permutation (create_pq xs) (map (fun x => mkPqe (roaring_bitmap_portable_size_in_bytes x) false x) xs).
Proof. intros H. apply fold_percolate_perm. intros i Hi. apply in_rev in Hi. apply zr_In in Hi. rewrite zlen_map. dm. Qed.

(** ** the union survives *)
Definition pq_ok (l : list pqe) : Prop := Forall (fun e => gok lne 0 (e_bm e)) l.
Definition pq_mem (l : list pqe) (k x : Z) : bool := existsb (fun e => km (e_bm e) k x) l.
Lemma pq_ok_perm l l' : Permutation l l' -> pq_ok l -> pq_ok l'.
Proof. intros P H. unfold pq_ok in *. rewrite Forall_forall in *. intros e He. apply H. now apply (Permutation_in _ (Permutation_sym P)). Qed.
Lemma pq_mem_perm l l' k x : Permutation l l' -> pq_mem l k x = pq_mem l' k x.
Proof.
  induction 1 as [|e l l' P IH|e e' l|l l' l'' P1 IH1 P2 IH2]; unfold pq_mem in *; cbn [existsb].
  - reflexivity.
  - now rewrite IH.
  - rewrite !orb_assoc. f_equal. apply orb_comm.
  - congruence.
Qed.
Lemma opok_lazy_inputs cap : opok lne lne lne orb (fun k c1 c2 => Some (
    if is_bitset c2 && negb (is_bitset c1) then container_lazy_ior (cap k) c2 c1 else container_lazy_ior (cap k) c1 c2)).
Proof.
  intros k c1 c2 (A1&A2) (B1&B2). destruct (is_bitset c2 && negb (is_bitset c1)).
  - pose proof (container_lazy_ior_spec (cap k) c2 c1 B1 B2 A1 A2) as R. split; [eapply lrep_or_lne; eauto|]. intros x Hx. rewrite (proj2 R x Hx). apply orb_comm.
  - pose proof (container_lazy_ior_spec (cap k) c1 c2 A1 A2 B1 B2) as R. split; [eapply lrep_or_lne; eauto|]. intros x Hx. apply (proj2 R x Hx).
Qed.
Lemma lazy_inputs_spec cap x1 x2 : gok lne 0 x1 -> gok lne 0 x2 -> bmrep lne 0 (lazy_or_from_lazy_inputs cap x1 x2) (fun k x => km x1 k x || km x2 k x).
Proof. intros. apply (union_op_spec lne lne lne orb); auto; [apply ul_or|apply opok_lazy_inputs]. Qed.
Lemma heap_step_spec cap l : 2 <= zlen l -> pq_ok l ->
  zlen (heap_step cap l) = zlen l - 1 /\ pq_ok (heap_step cap l) /\
  forall k x, 0 <= k < 65536 -> 0 <= x < 65536 -> pq_mem (heap_step cap l) k x = pq_mem l k x.
Proof.
  intros H O. unfold heap_step. pose proof (pq_poll_perm l ltac:(lia)) as P1. destruct (pq_poll l) as [x1 l1]. cbn [fst snd] in P1.
  assert (L1 : zlen l = zlen l1 + 1) by (rewrite <- (perm_zlen _ _ P1), zlen_cons; lia).
  pose proof (pq_poll_perm l1 ltac:(lia)) as P2. destruct (pq_poll l1) as [x2 l2]. cbn [fst snd] in P2.
  assert (L2 : zlen l1 = zlen l2 + 1) by (rewrite <- (perm_zlen _ _ P2), zlen_cons; lia).
  assert (P : Permutation (x1 :: x2 :: l2) l) by (rewrite <- P1; now constructor).
  pose proof (pq_ok_perm _ _ (Permutation_sym P) O) as O'. inversion_clear O' as [|? ? G1 O'']. inversion_clear O'' as [|? ? G2 O2].
  assert (K : forall b, bmrep lne 0 b (fun k x => km (e_bm x1) k x || km (e_bm x2) k x) ->
    let r := pq_add l2 (mkPqe (roaring_bitmap_portable_size_in_bytes b) true b) in
    zlen r = zlen l - 1 /\ pq_ok r /\ forall k x, 0 <= k < 65536 -> 0 <= x < 65536 -> pq_mem r k x = pq_mem l k x).
  { intros b [Gb Mb] r. pose proof (pq_add_perm l2 (mkPqe (roaring_bitmap_portable_size_in_bytes b) true b)) as PA. fold r in PA. split; [rewrite (perm_zlen _ _ PA), zlen_cons; lia|]. split.
    - apply (pq_ok_perm _ _ (Permutation_sym PA)). constructor; auto.
    - intros k x Hk Hx. rewrite (pq_mem_perm _ _ k x PA), <- (pq_mem_perm _ _ k x P). cbn [pq_mem existsb e_bm]. rewrite Mb by lia. now rewrite orb_assoc. }
  destruct (e_tmp x1 && e_tmp x2); [apply K, lazy_inputs_spec; auto|].
  destruct (e_tmp x2). { apply K. eapply bmrep_ext; [apply roaring_bitmap_lazy_or_inplace_spec; auto|]. intros. apply orb_comm. }
  destruct (e_tmp x1). { apply K. now apply roaring_bitmap_lazy_or_inplace_spec. }
  apply K. now apply roaring_bitmap_lazy_or_spec.
Qed.
Lemma heap_loop_spec cap fuel : forall l, 1 <= zlen l -> zlen l <= Z.of_nat fuel -> pq_ok l ->
  zlen (heap_loop fuel cap l) = 1 /\ pq_ok (heap_loop fuel cap l) /\
  forall k x, 0 <= k < 65536 -> 0 <= x < 65536 -> pq_mem (heap_loop fuel cap l) k x = pq_mem l k x.
Proof.
  induction fuel as [|f IH]; intros l H1 H2 O; [lia|]. cbn [heap_loop]. destruct (Z.ltb_spec 1 (zlen l)).
  - destruct (heap_step_spec cap l ltac:(lia) O) as (L&O'&M). destruct (IH (heap_step cap l) ltac:(lia) ltac:(lia) O') as (I1&I2&I3). split; auto. split; auto.
    intros k x Hk Hx. rewrite I3, M by auto. reflexivity.
  - split; [lia|]. auto.
Qed.
Theorem roaring_bitmap_or_many_heap_spec cap xs : Forall bok xs ->
  rspec (roaring_bitmap_or_many_heap cap xs) (fun k x => existsb (fun r => km r k x) xs).
Proof.
  intros B. unfold roaring_bitmap_or_many_heap. destruct xs as [|x0 [|x1 rest]].
  - apply bmrep_nil. auto.
  - inversion B. eapply bmrep_ext; [apply bmrep_self; auto|]. intros. cbn. now rewrite orb_false_r.
  - set (xs := x0 :: x1 :: rest) in *. assert (L : 2 <= zlen xs) by (unfold xs; rewrite !zlen_cons; pose proof (zlen_nonneg rest); lia).
    clearbody xs. clear x0 x1 rest. pose proof (create_pq_perm xs L) as P. set (f := fun x => _) in P.
    assert (O : pq_ok (create_pq xs)).
    { apply (pq_ok_perm _ _ (Permutation_sym P)). apply Forall_map. eapply Forall_impl; [|apply B]. intros r Hr. now apply gok_cok_lne. }
    assert (Lc : zlen (create_pq xs) = zlen xs) by (rewrite (perm_zlen _ _ P); apply zlen_map).
    destruct (heap_loop_spec cap (length xs) (create_pq xs) ltac:(lia) ltac:(unfold zlen in *; lia) O) as (L'&O'&M').
    set (h := heap_loop _ _ _) in *. clearbody h. destruct h as [|e [|e' h]]; [unfold zlen in L'; cbn in L'; lia| |rewrite !zlen_cons in L'; pose proof (zlen_nonneg h); lia].
    cbn [pq_poll fst]. change (eget [e] 0) with e. inversion_clear O' as [|? ? G _]. eapply bmrep_ext; [apply roaring_bitmap_repair_spec; exact G|].
    intros k x Hk Hx. specialize (M' k x Hk Hx). cbn [pq_mem existsb] in M'. rewrite orb_false_r in M'. rewrite M', (pq_mem_perm _ _ k x P). unfold pq_mem, f.
    clear. induction xs as [|r xs IH]; auto. cbn [map existsb e_bm]. now rewrite IH.
Qed.
