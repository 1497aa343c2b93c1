(** DerivedRun: the facts of RunMem.v and RunMemB.v in the vocabulary of SpecRun.v. *)
From Coq Require Import ZArith List Bool Lia Sorting.Sorted.
From Verif Require Import Base ArrayUtil BitUtil BitsetC ArrayC RunC RunD Convert MixedI MixedU MixedN RunMem RunMemB Spec SpecRun.
Import ListNotations.
Local Open Scope Z_scope.

(** the block [b] with its field n_runs *)
Definition holds (b : rblk) (P : zset) : Prop := block_of (cells b) (nruns b) P.

Lemma normal_rok l : normal l -> rwf l.
Proof.
  intros [H1 H2]. unfold rwf.
  assert (G : forall lo, (match l with [] => True | (v, n) :: _ => lo <= v end) -> rok lo l).
  { clear -H1 H2. induction l as [|[v n] l IH]; intros lo L; cbn [rok]; [exact I|].
    destruct (H1 v n (or_introl eq_refl)) as (A & B & C). repeat split; auto; try lia.
    apply IH.
    - intros v' n' Hi. apply H1. now right.
    - intros X v' n' v'' n'' Y ->. apply (H2 ((v, n) :: X) v' n' v'' n'' Y). reflexivity.
    - destruct l as [|[v' n'] l]; [exact I|]. specialize (H2 [] v n v' n' l eq_refl). lia. }
  apply G. destruct l as [|[v n] l]; [exact I|]. apply (H1 v n). now left.
Qed.
Lemma rok_normal l : rwf l -> normal l.
Proof.
  intros W. split; [intros v n Hi; exact (rok_In _ _ _ _ W Hi)|].
  intros A v n v' n' B ->. apply rok_app in W. destruct W as [_ W]. cbn [rok] in W. lia.
Qed.
Lemma covered_rmem l x : covered l x <-> rmem l x = true.
Proof. symmetry. apply rmem_In. Qed.
Lemma holds_stores b P : holds b P -> exists r, stores b r /\ rwf r /\ forall x, 0 <= x < 65536 -> P x = rmem r x.
Proof.
  intros (l & L & F & N & M). exists l. split; [|split].
  - exists (skipn (length l) (cells b)). rewrite <- F, firstn_skipn. destruct b as [c n]. cbn [cells nruns] in *. now rewrite <- L.
  - now apply normal_rok.
  - intros x Hx. apply eq_true_iff_eq. rewrite (M x Hx). apply covered_rmem.
Qed.
Lemma stores_holds b r (P : zset) : stores b r -> rwf r -> (forall x, 0 <= x < 65536 -> P x = rmem r x) -> holds b P.
Proof.
  intros (j & ->) W M. exists r. cbn [cells nruns]. split; [reflexivity|]. split; [|split].
  - rewrite <- (map_length Some r). rewrite firstn_app, Nat.sub_diag, firstn_all. cbn [firstn]. apply app_nil_r.
  - now apply rok_normal.
  - intros x Hx. rewrite (M x Hx). symmetry. apply covered_rmem.
Qed.
Lemma inhabited_nonempty r P : (forall x, 0 <= x < 65536 -> P x = rmem r x) -> inhabited P -> r <> [].
Proof. intros M (x & Hx & E) ->. rewrite (M x Hx) in E. discriminate. Qed.
Lemma array_awf a P : array_of a P -> awf a /\ forall x, 0 <= x < 65536 -> P x = amem a x.
Proof.
  intros (S & B & M). split; [split|].
  - assert (T : StronglySorted Z.lt a); [|clear -T; induction T as [|x l T IH F]; cbn [incr]; auto].
    apply Sorted_StronglySorted; [intros x y z; lia|]. clear -S. induction a as [|x a IH]; constructor.
    + apply IH. intros A y z B ->. apply (S (x :: A) y z B). reflexivity.
    + destruct a as [|y a]; constructor. exact (S [] x y a eq_refl).
  - apply Forall_forall. exact B.
  - intros x Hx. apply eq_true_iff_eq. rewrite (M x Hx). unfold amem. now rewrite zmem_In.
Qed.
Lemma inhabited_array a P : (forall x, 0 <= x < 65536 -> P x = amem a x) -> inhabited P -> a <> [].
Proof. intros M (x & Hx & E) ->. rewrite (M x Hx) in E. discriminate. Qed.
Lemma words_bws w P : words_of w P -> bws w /\ forall x, 0 <= x < 65536 -> P x = bget w x.
Proof.
  intros (L & B & M). split; [split|].
  - apply Forall_forall. exact B.
  - unfold zlen. rewrite L. reflexivity.
  - exact M.
Qed.

Ltac blk H r S W M := destruct (holds_stores _ _ H) as (r & S & W & M).

Lemma d_union s1 s2 dst P1 P2 : holds s1 P1 -> holds s2 P2 -> inhabited P1 -> inhabited P2 ->
  exists b, union s1 s2 dst = Some b /\ holds b (zunion P1 P2).
Proof.
  intros H1 H2 N1 N2. blk H1 r1 S1 W1 M1. blk H2 r2 S2 W2 M2.
  apply (inhabited_nonempty _ _ M1) in N1. apply (inhabited_nonempty _ _ M2) in N2.
  destruct (union_ok s1 s2 dst r1 r2 S1 S2 N1 N2) as (b & E & S). exists b. split; [exact E|].
  destruct (run_union_spec r1 r2 W1 W2 N1 N2) as (W & _ & M). eapply stores_holds; eauto.
  intros x Hx. unfold zunion. rewrite M, M1, M2 by auto. reflexivity.
Qed.
Lemma d_union_inplace s1 s2 P1 P2 : holds s1 P1 -> holds s2 P2 -> inhabited P1 -> inhabited P2 ->
  exists b, union_inplace s1 s2 = Some b /\ holds b (zunion P1 P2).
Proof.
  intros H1 H2 N1 N2. blk H1 r1 S1 W1 M1. blk H2 r2 S2 W2 M2.
  apply (inhabited_nonempty _ _ M1) in N1. apply (inhabited_nonempty _ _ M2) in N2.
  destruct (union_inplace_ok s1 s2 r1 r2 S1 S2 N1 N2) as (b & E & S). exists b. split; [exact E|].
  destruct (run_union_spec r1 r2 W1 W2 N1 N2) as (W & _ & M). eapply stores_holds; eauto.
  intros x Hx. unfold zunion. rewrite M, M1, M2 by auto. reflexivity.
Qed.
Lemma d_array_union a s dst P1 P2 : array_of a P1 -> holds s P2 -> inhabited P1 -> inhabited P2 -> nruns dst = 0 ->
  exists b, array_run_union a s dst = Some b /\ holds b (zunion P1 P2).
Proof.
  intros H1 H2 N1 N2 D. destruct (array_awf _ _ H1) as (W1 & M1). blk H2 r S2 W2 M2.
  apply (inhabited_array _ _ M1) in N1. apply (inhabited_nonempty _ _ M2) in N2.
  destruct (array_run_union_ok a s dst r S2 D N1 N2) as (b & E & S). exists b. split; [exact E|].
  destruct (array_run_union_spec a r W1 N1 W2 N2) as (W & _ & M). eapply stores_holds; eauto.
  intros x Hx. unfold zunion. rewrite M, M1, M2 by auto. reflexivity.
Qed.
Lemma d_array_union_inplace a s P1 P2 : array_of a P1 -> holds s P2 -> inhabited P1 -> inhabited P2 ->
  exists b, array_run_union_inplace a s = Some b /\ holds b (zunion P1 P2).
Proof.
  intros H1 H2 N1 N2. destruct (array_awf _ _ H1) as (W1 & M1). blk H2 r S2 W2 M2.
  apply (inhabited_array _ _ M1) in N1. apply (inhabited_nonempty _ _ M2) in N2.
  destruct (array_run_union_inplace_ok a s r S2 N1 N2) as (b & E & S). exists b. split; [exact E|].
  destruct (array_run_union_spec a r W1 N1 W2 N2) as (W & _ & M). eapply stores_holds; eauto.
  intros x Hx. unfold zunion. rewrite M, M1, M2 by auto. reflexivity.
Qed.
Lemma d_xor s1 s2 dst P1 P2 : holds s1 P1 -> holds s2 P2 -> exists b, xor s1 s2 dst = Some b /\ holds b (zsymm P1 P2).
Proof.
  intros H1 H2. blk H1 r1 S1 W1 M1. blk H2 r2 S2 W2 M2. destruct (xor_ok s1 s2 dst r1 r2 S1 S2) as (b & E & S). exists b. split; [exact E|].
  destruct (run_xor_spec r1 r2 W1 W2) as (W & M). eapply stores_holds; eauto. intros x Hx. unfold zsymm. rewrite M, M1, M2 by lia. reflexivity.
Qed.
Lemma d_array_xor a s dst P1 P2 : array_of a P1 -> holds s P2 -> exists b, array_run_lazy_xor a s dst = Some b /\ holds b (zsymm P1 P2).
Proof.
  intros H1 H2. destruct (array_awf _ _ H1) as (W1 & M1). blk H2 r S2 W2 M2. destruct (array_run_lazy_xor_ok a s dst r S2) as (b & E & S). exists b. split; [exact E|].
  destruct (array_run_lazy_xor_spec a r W1 W2) as (W & M). eapply stores_holds; eauto. intros x Hx. unfold zsymm. rewrite M, M1, M2 by lia. reflexivity.
Qed.
Lemma d_intersection s1 s2 dst P1 P2 : holds s1 P1 -> holds s2 P2 -> inhabited P1 -> inhabited P2 ->
  exists b, intersection s1 s2 dst = Some b /\ holds b (zinter P1 P2).
Proof.
  intros H1 H2 N1 N2. blk H1 r1 S1 W1 M1. blk H2 r2 S2 W2 M2.
  apply (inhabited_nonempty _ _ M1) in N1. apply (inhabited_nonempty _ _ M2) in N2.
  destruct (intersection_ok s1 s2 dst r1 r2 S1 S2 N1 N2) as (b & E & S). exists b. split; [exact E|].
  destruct (run_intersection_spec r1 r2 W1 W2) as (W & M). eapply stores_holds; eauto.
  intros x Hx. unfold zinter. rewrite M, M1, M2 by auto. reflexivity.
Qed.
Lemma d_andnot s1 s2 dst P1 P2 : holds s1 P1 -> holds s2 P2 -> inhabited P1 -> inhabited P2 ->
  exists b, andnot s1 s2 dst = Some b /\ holds b (zdiff P1 P2).
Proof.
  intros H1 H2 N1 N2. blk H1 r1 S1 W1 M1. blk H2 r2 S2 W2 M2.
  apply (inhabited_nonempty _ _ M1) in N1. apply (inhabited_nonempty _ _ M2) in N2.
  destruct (andnot_ok s1 s2 dst r1 r2 S1 S2 N1 N2 W1 W2) as (b & E & S). exists b. split; [exact E|].
  destruct (run_andnot_spec r1 r2 W1 W2) as (W & M). eapply stores_holds; eauto.
  intros x Hx. unfold zdiff. rewrite M, M1, M2 by auto. reflexivity.
Qed.
Lemma d_negation b s e P : holds b P -> 0 <= s < e -> e <= 65536 ->
  (exists b', negation_range b s e = Some b' /\ holds b' (zsymm P (zival s e))) /\
  (exists b', negation_range_inplace b s e = Some b' /\ holds b' (zsymm P (zival s e))).
Proof.
  intros H H1 H2. destruct (holds_stores _ _ H) as (r & S & W & M). destruct (run_negation_runs_spec r s e W H1 H2) as (W' & M').
  assert (G : forall x, 0 <= x < 65536 -> zsymm P (zival s e) x = rmem (run_negation_runs r s e) x).
  { intros x Hx. unfold zsymm, zival. rewrite M', fliprange_xorb, M by lia. reflexivity. }
  split.
  - destruct (negation_range_ok b r s e S) as (b' & E & S'). exists b'. split; [exact E|]. eapply stores_holds; eauto.
  - destruct (negation_range_inplace_ok b r s e S W H1 H2) as (b' & E & S'). exists b'. split; [exact E|]. eapply stores_holds; eauto.
Qed.
Lemma d_add b x P : holds b P -> 0 <= x < 65536 -> exists b', add b x = Some (b', negb (P x)) /\ holds b' (zadd P x).
Proof.
  intros H Hx. destruct (holds_stores _ _ H) as (r & S & W & M). destruct (add_ok b r x S) as (b' & E & S'). destruct (run_add_spec r x W Hx) as (W' & M' & R).
  exists b'. rewrite E, R, M by auto. split; [reflexivity|]. eapply stores_holds; eauto. intros y Hy. unfold zadd. rewrite M', M by auto. reflexivity.
Qed.
Lemma d_remove b x P : holds b P -> 0 <= x < 65536 -> exists b', remove b x = Some (b', P x) /\ holds b' (zdel P x).
Proof.
  intros H Hx. destruct (holds_stores _ _ H) as (r & S & W & M). destruct (remove_ok b r x S) as (b' & E & S'). destruct (run_remove_spec r x W Hx) as (W' & M' & R).
  exists b'. rewrite E, R, M by auto. split; [reflexivity|]. eapply stores_holds; eauto. intros y Hy. unfold zdel. rewrite M', M by lia. reflexivity.
Qed.
Lemma d_ranges b lo hi P : holds b P -> 0 <= lo <= hi -> hi < 65536 ->
  (exists b', add_range b lo hi = Some b' /\ holds b' (zunion P (zival lo (hi + 1)))) /\
  (exists b', remove_range b lo hi = Some b' /\ holds b' (zdiff P (zival lo (hi + 1)))).
Proof.
  intros H H1 H2. destruct (holds_stores _ _ H) as (r & S & W & M).
  assert (V : forall y, (lo <=? y) && (y <=? hi) = (lo <=? y) && (y <? hi + 1)) by (intros y; lia). split.
  - destruct (add_range_ok b r lo hi S W) as (b' & E & S'); try lia. destruct (run_add_range_spec r lo hi W) as (W' & M'); try lia.
    exists b'. split; [exact E|]. eapply stores_holds; eauto. intros y Hy. unfold zunion, zival. rewrite M', V, M by auto. reflexivity.
  - destruct (remove_range_ok b r lo hi S) as (b' & E & S'). destruct (run_remove_range_spec r lo hi W) as (W' & M'); try lia.
    exists b'. split; [exact E|]. eapply stores_holds; eauto. intros y Hy. unfold zdiff, zival. rewrite M', V, M by auto. reflexivity.
Qed.
Lemma d_from_array a P : array_of a P -> inhabited P -> exists b, from_array a = Some b /\ holds b P /\ zlen (cells b) = nruns b.
Proof.
  intros H N. destruct (array_awf _ _ H) as (W & M). apply (inhabited_array _ _ M) in N. destruct (from_array_ok a W N) as (b & E & S & C).
  destruct (run_from_array_spec a W) as (W' & M'). exists b. split; [exact E|]. split.
  - apply (stores_holds b _ P S W'). intros x Hx. rewrite M by auto. symmetry. apply M'.
  - unfold cap in C. rewrite C. symmetry. now apply stores_n.
Qed.
Lemma d_from_bitset c w P : words_of w P -> exists b, from_bitset (c, w) = Some b /\ holds b P /\ zlen (cells b) = nruns b.
Proof.
  intros H. destruct (words_bws _ _ H) as (W & M). destruct (from_bitset_ok (c, w) W) as (b & E & S & C).
  destruct (run_from_bitset_spec (c, w) W) as (W' & M'). exists b. split; [exact E|]. split.
  - eapply stores_holds; eauto. intros x Hx. rewrite M', M by auto. reflexivity.
  - unfold cap in C. rewrite C. symmetry. now apply stores_n.
Qed.
Lemma d_create_range s e : 0 <= s < e -> e <= 65536 -> exists b, create_range s e = Some b /\ holds b (zival s e).
Proof.
  intros H1 H2. destruct (create_range_ok s e) as (b & E & S). exists b. split; [exact E|]. rewrite !u16_small in S by lia. eapply stores_holds; eauto.
  - unfold rwf. cbn [rok]. lia.
  - intros x Hx. unfold zival, rmem, inrun. cbn [existsb fst snd]. lia.
Qed.
(** a concrete block: the runs [r], then cells never written *)
Definition ablock (r : list run) (free : nat) : rblk := RB (map Some r ++ repeat None free) (zlen r).
Lemma ablock_holds r free : rwf r -> holds (ablock r free) (rmem r).
Proof. intros W. apply (stores_holds _ r); auto. now exists (repeat None free). Qed.
