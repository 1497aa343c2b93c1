(** R64H: roaring64_bitmap_shrink_to_fit of src/roaring64.c *)
From Coq Require Import Permutation.
From Verif Require Import Base ArrayUtil BitUtil BitsetC ArrayC RunC RunD Convert Containers RArray Art ArtS ArtN ArtW ArtT ArtU ArtI ArtR ArtL ArtH R64 R64P R64Q R64K.
Local Opaque zr n48_pairs n256_pairs.

(** roaring64.c:956-965 move_to_shrink; [lf] is the leaf, whose value is rewritten *)
Definition move_to_shrink (r : r64) (lf : Z) : option r64 :=
  do v <- leaf_val (r_art r) lf;
  let idx := get_index v in
  if idx <? r_ff r then Some r
  else
    do c <- get_container r v;
    do _ <- guard (r_ff r <? zlen (r_cont r));
    let r1 := set_cont (set_cont r (r_ff r) (Some c)) idx None in
    do a <- set_leaf_val (r_art r1) lf (create_leaf (r_ff r) (get_typecode v));
    let r2 := with_art r1 a in
    Some (R64 a (next_free_container_idx r2) (r_cont r2)).
(** roaring64.c:967-969 is_shrunken *)
Definition is_shrunken (r : r64) : bool := art_is_shrunken (r_art r) && (r_ff r =? zlen (r_cont r)).
(** roaring64.c:974-980: the loop over the leaves.  container_shrink_to_fit (containers.h:267-283) changes
    only the allocated size of a container, which the model does not have: it leaves the container as it is *)
Fixpoint shrink_loop (fuel : nat) (r : r64) (it : iter) : option r64 :=
  match fuel with
  | O => None
  | S f =>
    if i_val it =? 0 then Some r
    else
      do v <- leaf_val (r_art r) (i_val it);
      do _ <- get_container r v;
      do r1 <- move_to_shrink r (i_val it);
      do (it1, _) <- art_iterator_next (r_art r1) it;
      shrink_loop f r1 it1
  end.
(** roaring64.c:971-990 roaring64_bitmap_shrink_to_fit: the bitmap and the number of bytes freed, without
    those of the containers *)
Definition roaring64_bitmap_shrink_to_fit (r : r64) : option (r64 * Z) :=
  do (a, freed) <- art_shrink_to_fit (r_art r);
  let r1 := with_art r a in
  do it <- art_init_iterator a true;
  do r2 <- shrink_loop (fuel64 r1) r1 it;
  if is_shrunken r2 then Some (r2, freed)
  else
    let new_capacity := r_ff r2 in
    if new_capacity <? zlen (r_cont r2) then
      Some (R64 (r_art r2) (r_ff r2) (firstn (Z.to_nat new_capacity) (r_cont r2)), freed + (zlen (r_cont r2) - new_capacity) * 8)
    else Some (r2, freed).

(** ** The pool of containers *)
Lemma pool_move r i c m a : pool (r_cont r) (r_ff r) ((i, c) :: m) -> r_ff r <= i ->
  let cs := upd (Z.to_nat i) None (upd (Z.to_nat (r_ff r)) (Some c) (r_cont r)) in
  let ff := next_free_container_idx (R64 a (r_ff r) cs) in
  pool cs ff ((r_ff r, c) :: m) /\ r_ff r < ff /\ r_ff r < zlen (r_cont r).
Proof.
  intros (A & B & C & D & E & F) L cs ff. destruct (A i c (or_introl eq_refl)) as (I & S). inversion B as [|? ? N ND]; subst. cbn [fst] in N.
  assert (IL : i < zlen (r_cont r)) by (apply slot_in; [auto|congruence]). specialize (F ltac:(lia)).
  assert (NE : i <> r_ff r) by congruence.
  assert (LL : zlen cs = zlen (r_cont r)) by (unfold cs; now rewrite !zlen_upd).
  assert (SL : forall j, 0 <= j -> slot_of cs j = if j =? i then None else if j =? r_ff r then Some c else slot_of (r_cont r) j).
  { intros j J. unfold cs. rewrite slot_upd by (rewrite ?zlen_upd; lia). destruct (j =? i); auto. now rewrite slot_upd by lia. }
  pose proof (next_free_spec (R64 a (r_ff r) cs)) as NF. cbn zeta in NF. cbn [r_ff r_cont] in NF. rewrite LL in NF. fold ff in NF. destruct NF as (N1 & N2 & N3); [lia|].
  split; [|lia]. clearbody ff. unfold pool. rewrite LL. repeat match goal with |- _ /\ _ => split end; try lia.
  - intros j e [H|H].
    + injection H as <- <-. split; [lia|]. rewrite SL by lia. replace (r_ff r =? i) with false by lia. now rewrite Z.eqb_refl.
    + destruct (A j e (or_intror H)) as (J & T). split; auto. rewrite SL by lia. destruct (Z.eqb_spec j i) as [->|]; [exfalso; apply N; now apply (in_map fst) in H|].
      destruct (Z.eqb_spec j (r_ff r)) as [->|]; auto. congruence.
  - cbn [map fst]. constructor; auto. intros H. apply in_map_iff in H as ([j e] & Q & H). cbn in Q. subst. destruct (A (r_ff r) e (or_intror H)) as (_ & H'). congruence.
  - intros j J. rewrite SL by lia. cbn [map fst In]. destruct (Z.eqb_spec j i) as [->|]; [tauto|]. destruct (Z.eqb_spec j (r_ff r)) as [->|]; [now left|]. intros H. destruct (C j J H) as [Q|Q]; [cbn in Q; congruence|now right].
  - intros j J. destruct (Z.ltb_spec (r_ff r) j) as [Q|Q]; [apply N2; lia|]. rewrite SL by lia. destruct (Z.eqb_spec j i); [lia|]. destruct (Z.eqb_spec j (r_ff r)); [congruence|]. apply E. lia.
  - auto.
Qed.
Lemma pool_cut cs ff m : pool cs ff m -> (forall i c, In (i, c) m -> i < ff) -> pool (firstn (Z.to_nat ff) cs) ff m.
Proof.
  intros (A & B & C & D & E & F) H. assert (LN : zlen (firstn (Z.to_nat ff) cs) = ff) by (unfold zlen in *; rewrite firstn_length; lia).
  assert (SL : forall j, 0 <= j -> slot_of (firstn (Z.to_nat ff) cs) j = if j <? ff then slot_of cs j else None).
  { intros j J. unfold slot_of. destruct (Z.ltb_spec j ff).
    - rewrite <- (firstn_skipn (Z.to_nat ff) cs) at 2. rewrite app_nth1; auto. unfold zlen in *. lia.
    - apply nth_overflow. unfold zlen in *. lia. }
  unfold pool. rewrite LN. repeat match goal with |- _ /\ _ => split end; try lia; auto.
  - intros i c X. destruct (A i c X) as (I & S). split; auto. rewrite SL by auto. specialize (H i c X). now replace (i <? ff) with true by lia.
  - intros i I. rewrite SL by auto. destruct (Z.ltb_spec i ff); [now apply C|tauto].
  - intros i I. rewrite SL by lia. replace (i <? ff) with true by lia. now apply E.
Qed.

(** ** The loop *)
Definition seti (x : ent) (i : Z) : ent := Ent (e_key x) (e_lf x) i (e_c x).
Definition caps (a a' : art) : Prop := forall t, capacity a' t = capacity a t /\ a_ff a' t = a_ff a t.
Lemma caps_shrunken a a' : caps a a' -> art_is_shrunken a' = art_is_shrunken a.
Proof. intros H. unfold art_is_shrunken. cbn [forallb]. now rewrite !(fun t => proj1 (H t)), !(fun t => proj2 (H t)). Qed.
Lemma caps_trans a b c : caps a b -> caps b c -> caps a c.
Proof. intros H K t. destruct (H t), (K t). split; congruence. Qed.
Lemma set_leaf_caps a lf v a' : set_leaf_val a lf v = Some a' -> caps a a'.
Proof.
  unfold set_leaf_val. destruct (art_deref a lf) as [n|]; [|discriminate]. cbn [obind]. destruct n; try discriminate. intros X. injection X as <-.
  intros t. unfold art_put, set_slot, capacity. cbn [a_ff a_nodes]. unfold Art.fset. destruct (Z.eqb_spec t (art_ref_typecode lf)) as [->|]; split; auto; apply zlen_upd.
Qed.
Lemma R_move r l x t : R r (l ++ x :: t) -> exists r1 i, move_to_shrink r (e_lf x) = Some r1 /\ R r1 (l ++ seti x i :: t) /\ i < r_ff r1 /\ r_ff r <= r_ff r1 /\
  length (r_cont r1) = length (r_cont r) /\ caps (r_art r) (r_art r1) /\
  (forall (Q : Z -> Prop) it, at_ Q r it l (x :: t) -> at_ Q r1 it l (seti x i :: t)).
Proof.
  intros H. pose proof H as (A & P). unfold move_to_shrink. rewrite (R_val _ _ x H) by apply in_elt. cbn [obind]. rewrite (R_get _ _ x H) by apply in_elt. cbn [obind].
  unfold eval. destruct (leaf_parts (e_ix x) (e_c x)) as (-> & ->).
  assert (P' : pool (r_cont r) (r_ff r) ((e_ix x, e_c x) :: map eix (l ++ t))).
  { eapply pool_perm; [|exact P]. rewrite !map_app. cbn [map]. apply Permutation_sym, Permutation_middle. }
  destruct (Z.ltb_spec (e_ix x) (r_ff r)) as [L|L].
  - exists r, (e_ix x). replace (seti x (e_ix x)) with x by now destruct x. split; auto. split; auto. split; auto. split; [lia|]. split; auto. split; auto. intros ?; auto.
  - rewrite map_app in A. cbn [map] in A. unfold efl at 2 in A.
    destruct (arep_set (r_art r) _ _ _ _ _ (create_leaf (r_ff r) (typecode (e_c x))) A) as (a & E & A').
    destruct (pool_move r (e_ix x) (e_c x) _ a P' L) as (P1 & LF & LZ). unfold guard. replace (r_ff r <? zlen (r_cont r)) with true by lia. cbn [obind].
    unfold set_cont, with_art. cbn [r_art r_ff r_cont]. rewrite E. cbn [obind]. eexists _, (r_ff r). split; [reflexivity|]. cbn [r_art r_ff r_cont].
    split; [split; cbn [r_art r_ff r_cont]|split; [exact LF|split; [lia|split; [now rewrite !upd_length|split; [exact (set_leaf_caps _ _ _ _ E)|]]]]].
    + rewrite map_app. cbn [map]. exact A'.
    + eapply pool_perm; [|exact P1]. rewrite !map_app. cbn [map]. apply Permutation_middle.
    + intros Q it IP. unfold at_ in *. cbn [map r_art] in *. unfold efl at 2 in IP.
      destruct (ipos_set Q (r_art r) it _ _ _ _ _ (create_leaf (r_ff r) (typecode (e_c x))) (proj1 A) IP) as (a2 & E2 & IP'). rewrite E in E2. injection E2 as <-. exact IP'.
Qed.
Lemma shrink_loop_ok t : forall r it l fuel, R r (l ++ t) -> at_ any r it l t -> (length t < fuel)%nat -> (forall x, In x l -> e_ix x < r_ff r) ->
  exists r1 xs1, shrink_loop fuel r it = Some r1 /\ R r1 xs1 /\ map ekc xs1 = map ekc (l ++ t) /\ (forall x, In x xs1 -> e_ix x < r_ff r1) /\
    caps (r_art r) (r_art r1) /\ zlen (r_cont r1) = zlen (r_cont r).
Proof.
  induction t as [|x t IH]; intros r it l fuel H A F B; (destruct fuel as [|f]; [cbn in F; lia|]); cbn [shrink_loop].
  - rewrite (at_end _ _ _ _ A). cbn [Z.eqb]. exists r, l. rewrite app_nil_r in *. split; auto. split; auto. split; auto. split; auto. split; auto. intros ?; auto.
  - destruct (at_val _ _ _ _ _ _ A) as (EV & _ & NZ). rewrite EV. destruct (Z.eqb_spec (e_lf x) 0); [tauto|]. rewrite (R_val _ _ x H) by apply in_elt. cbn [obind]. rewrite (R_get _ _ x H) by apply in_elt. cbn [obind].
    destruct (R_move r l x t H) as (r1 & i & -> & H1 & LI & LF & LN & SH & TR). cbn [obind].
    destruct (at_next any r1 it l (seti x i) t Logic.I (TR any it A)) as (it1 & -> & A1). cbn [obind].
    destruct (IH r1 it1 (l ++ [seti x i]) f) as (r2 & xs2 & E2 & H2 & M2 & B2 & S2 & Z2); auto.
    + now rewrite <- app_assoc.
    + cbn in F. lia.
    + intros y Y. apply in_app_iff in Y as [Y|[<-|[]]]; [specialize (B y Y); lia|exact LI].
    + exists r2, xs2. split; auto. split; auto. split; [|split; [auto|split; [eapply caps_trans; eauto|unfold zlen in *; congruence]]]. rewrite M2, <- app_assoc, !map_app. reflexivity.
Qed.
Lemma relabel (xs : list ent) fl' : kvs fl' = kvs (map efl xs) -> exists xs', map efl xs' = fl' /\ map eix xs' = map eix xs /\ map ekc xs' = map ekc xs.
Proof.
  revert fl'. induction xs as [|x xs IH]; intros [|[k [lf v]] fl'] E; cbn [kvs map] in E; try discriminate.
  - now exists [].
  - injection E as E1 E2 E3. cbn [fst snd efl] in *. destruct (IH fl' E3) as (xs' & A & B & C). exists (Ent k lf (e_ix x) (e_c x) :: xs'). cbn [map]. rewrite A, B, C. subst k v.
    split; [reflexivity|]. split; reflexivity.
Qed.

(** The promise of roaring64_bitmap_shrink_to_fit: the same set, no slack left, and the number of bytes given back. *)
Theorem shrink_to_fit_ok r P : den r P -> exists r1 n, roaring64_bitmap_shrink_to_fit r = Some (r1, n) /\ den r1 P /\ is_shrunken r1 = true /\
  n = fold_left (fun s t => s + (capacity (r_art r) t - capacity (r_art r1) t) * node_size t) [1; 2; 3; 4; 5] 0 + (zlen (r_cont r) - zlen (r_cont r1)) * 8.
Proof.
  intros (xs & H & FC & M). pose proof H as (A & PL). unfold roaring64_bitmap_shrink_to_fit.
  destruct (art_shrink_to_fit_ok _ _ A) as (a & fl & freed & E & A1 & KV & SH & FR). rewrite E. cbn [obind].
  destruct (relabel xs fl KV) as (xs1 & E1 & E2 & E3). subst fl. set (r1 := with_art r a).
  assert (H1 : R r1 xs1) by (split; [exact A1|unfold r1, with_art; cbn [r_cont r_ff]; now rewrite E2]).
  destruct (at_first r1 xs1 H1) as (it & EI & AT). change (r_art r1) with a in EI. rewrite EI. cbn [obind].
  destruct (shrink_loop_ok xs1 r1 it [] (fuel64 r1) H1 ltac:(eapply at_any; eauto) (R_len _ _ H1)) as (r2 & xs2 & -> & H2 & M2 & B2 & CP & ZL). { intros x []. }
  cbn [obind app] in *. rewrite E3 in M2.
  assert (SH2 : art_is_shrunken (r_art r2) = true) by (rewrite (caps_shrunken _ _ CP); exact SH).
  assert (FC2 : Forall (fun x => cok (e_c x)) xs2).
  { assert (Q : forall l, Forall (fun x => cok (e_c x)) l <-> Forall (fun p : Z * container => cok (snd p)) (map ekc l)) by (intros; now rewrite Forall_map). apply Q. rewrite M2. now apply Q. }
  assert (MM : forall v, v64 v -> mem (map ekc xs2) v = P v) by (intros v V; now rewrite M2, M).
  assert (FF : freed = fold_left (fun s t => s + (capacity (r_art r) t - capacity (r_art r2) t) * node_size t) [1; 2; 3; 4; 5] 0).
  { rewrite FR. cbn [fold_left]. rewrite !(fun t => proj1 (CP t)). reflexivity. }
  change (r_cont r1) with (r_cont r) in ZL. unfold is_shrunken. rewrite SH2. cbn [andb].
  pose proof H2 as (A2 & P2). pose proof P2 as (_ & _ & _ & RF & _).
  destruct (Z.eqb_spec (r_ff r2) (zlen (r_cont r2))) as [EQ|NE].
  - exists r2, freed. split; auto. split; [now exists xs2|]. rewrite SH2, EQ, Z.eqb_refl. split; auto. rewrite <- FF. lia.
  - replace (r_ff r2 <? zlen (r_cont r2)) with true by lia. eexists _, _. split; [reflexivity|]. cbn [r_art r_ff r_cont].
    assert (LN : zlen (firstn (Z.to_nat (r_ff r2)) (r_cont r2)) = r_ff r2) by (unfold zlen in *; rewrite firstn_length; lia).
    split; [|split].
    + exists xs2. split; [|auto]. split; [exact A2|]. apply pool_cut; [exact P2|]. intros i c X. apply in_map_iff in X as (x & Q & X). injection Q as <- _. auto.
    + rewrite SH2, LN. cbn [andb]. apply Z.eqb_refl.
    + rewrite <- FF, LN. lia.
Qed.
