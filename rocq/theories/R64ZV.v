(** R64ZV: the functions that only read a bitmap do not look at first_free, so a view made from
    frozen bytes, whose first_free is 0, answers them like the bitmap it was made from. *)
From Coq Require Import ZArith List Bool Lia.
From Verif Require Import Base BitsetC Convert Containers RArray RPoint.
From Verif Require Import Art R64 R64P R64S R64V R64H Hist64.
From Verif Require Import Spec SpecI Spec64 Spec64Z.
Import ListNotations.
Local Open Scope Z_scope.
Local Opaque zr n48_pairs n256_pairs.

(** a bitmap with another value in first_free *)
Definition reff (f : Z) (r : r64) : r64 := R64 (r_art r) f (r_cont r).
Ltac norm f r := change (r_art (reff f r)) with (r_art r); change (get_container (reff f r)) with (get_container r); change (copy_at (reff f r)) with (copy_at r).
Ltac skip_match := unfold obind; repeat match goal with |- context [match ?x with _ => _ end] => lazymatch x with context [match _ with _ => _ end] => fail | _ => destruct x end end; auto.
Lemma both_reff {A} f1 f2 r1 r2 (g h : nat -> iter -> iter -> option A) : (forall n i j, g n i j = h n i j) -> both (reff f1 r1) (reff f2 r2) g = both r1 r2 h.
Proof. intros H. unfold both, obind. cbn [reff r_art]. destruct (art_init_iterator (r_art r1) true); [|reflexivity]. destruct (art_init_iterator (r_art r2) true); [|reflexivity]. apply H. Qed.
Lemma equals_loop_reff f1 f2 r1 r2 : forall n i j, equals_loop n (reff f1 r1) (reff f2 r2) i j = equals_loop n r1 r2 i j.
Proof. induction n as [|n IH]; intros i j; [reflexivity|]. cbn [equals_loop]. norm f1 r1. norm f2 r2. skip_match. Qed.
Lemma subset_loop_reff f1 f2 r1 r2 : forall n i j, subset_loop64 n (reff f1 r1) (reff f2 r2) i j = subset_loop64 n r1 r2 i j.
Proof. induction n as [|n IH]; intros i j; [reflexivity|]. cbn [subset_loop64]. norm f1 r1. norm f2 r2. skip_match. Qed.
Lemma inter_loop_reff {A} f1 f2 r1 r2 (g : list Z -> container -> container -> A -> option A) : forall n i j s, inter_loop n (reff f1 r1) (reff f2 r2) g i j s = inter_loop n r1 r2 g i j s.
Proof. induction n as [|n IH]; intros i j s; [reflexivity|]. cbn [inter_loop]. norm f1 r1. norm f2 r2. skip_match. Qed.
Lemma union_loop_reff f1 f2 r1 r2 g : forall n i j s, union_loop64 n (reff f1 r1) (reff f2 r2) g i j s = union_loop64 n r1 r2 g i j s.
Proof. induction n as [|n IH]; intros i j s; [reflexivity|]. cbn [union_loop64]. norm f1 r1. norm f2 r2. skip_match. Qed.
Lemma andnot_loop_reff f1 f2 r1 r2 : forall n i j s, andnot_loop64 n (reff f1 r1) (reff f2 r2) i j s = andnot_loop64 n r1 r2 i j s.
Proof. induction n as [|n IH]; intros i j s; [reflexivity|]. cbn [andnot_loop64]. norm f1 r1. norm f2 r2. skip_match. Qed.
Lemma iand_loop_reff f2 r2 : forall n r1 i j, iand_loop64 n r1 (reff f2 r2) i j = iand_loop64 n r1 r2 i j.
Proof. induction n as [|n IH]; intros r1 i j; [reflexivity|]. cbn [iand_loop64]. norm f2 r2. skip_match. Qed.
Lemma ior_loop_reff cap f2 r2 : forall n r1 i j, ior_loop64 n cap r1 (reff f2 r2) i j = ior_loop64 n cap r1 r2 i j.
Proof. induction n as [|n IH]; intros r1 i j; [reflexivity|]. cbn [ior_loop64]. norm f2 r2. skip_match. Qed.
Lemma ixor_loop_reff f2 r2 : forall n r1 i j, ixor_loop64 n r1 (reff f2 r2) i j = ixor_loop64 n r1 r2 i j.
Proof. induction n as [|n IH]; intros r1 i j; [reflexivity|]. cbn [ixor_loop64]. norm f2 r2. skip_match. Qed.
Lemma iandnot_loop_reff f2 r2 : forall n r1 i j, iandnot_loop64 n r1 (reff f2 r2) i j = iandnot_loop64 n r1 r2 i j.
Proof. induction n as [|n IH]; intros r1 i j; [reflexivity|]. cbn [iandnot_loop64]. norm f2 r2. skip_match. Qed.
(** ** Functions that only read *)
Lemma copy_reff f r : roaring64_bitmap_copy (reff f r) = roaring64_bitmap_copy r. Proof. reflexivity. Qed.
Lemma flip_reff f r (a b : Z) : roaring64_bitmap_flip (reff f r) a b = roaring64_bitmap_flip r a b. Proof. reflexivity. Qed.
Lemma flip_closed_reff f r (a b : Z) : roaring64_bitmap_flip_closed (reff f r) a b = roaring64_bitmap_flip_closed r a b. Proof. reflexivity. Qed.
Lemma contains_reff f r (a : Z) : roaring64_bitmap_contains (reff f r) a = roaring64_bitmap_contains r a. Proof. reflexivity. Qed.
Lemma contains_range_reff f r (a b : Z) : roaring64_bitmap_contains_range (reff f r) a b = roaring64_bitmap_contains_range r a b. Proof. reflexivity. Qed.
Lemma get_cardinality_reff f r : roaring64_bitmap_get_cardinality (reff f r) = roaring64_bitmap_get_cardinality r. Proof. reflexivity. Qed.
Lemma range_cardinality_reff f r (a b : Z) : roaring64_bitmap_range_cardinality (reff f r) a b = roaring64_bitmap_range_cardinality r a b. Proof. reflexivity. Qed.
Lemma range_closed_cardinality_reff f r (a b : Z) : roaring64_bitmap_range_closed_cardinality (reff f r) a b = roaring64_bitmap_range_closed_cardinality r a b. Proof. reflexivity. Qed.
Lemma is_empty_reff f r : roaring64_bitmap_is_empty (reff f r) = roaring64_bitmap_is_empty r. Proof. reflexivity. Qed.
Lemma rank_reff f r (a : Z) : roaring64_bitmap_rank (reff f r) a = roaring64_bitmap_rank r a. Proof. reflexivity. Qed.
Lemma get_index_reff f r (a : Z) : roaring64_bitmap_get_index (reff f r) a = roaring64_bitmap_get_index r a. Proof. reflexivity. Qed.
Lemma select_reff f r (a : Z) : roaring64_bitmap_select (reff f r) a = roaring64_bitmap_select r a. Proof. reflexivity. Qed.
Lemma minimum_reff f r : roaring64_bitmap_minimum (reff f r) = roaring64_bitmap_minimum r. Proof. reflexivity. Qed.
Lemma maximum_reff f r : roaring64_bitmap_maximum (reff f r) = roaring64_bitmap_maximum r. Proof. reflexivity. Qed.
Lemma intersect_with_range_reff f r (a b : Z) : roaring64_bitmap_intersect_with_range (reff f r) a b = roaring64_bitmap_intersect_with_range r a b. Proof. reflexivity. Qed.
Lemma equals_reff f1 f2 r1 r2 : roaring64_bitmap_equals (reff f1 r1) (reff f2 r2) = roaring64_bitmap_equals r1 r2.
Proof. unfold roaring64_bitmap_equals. apply both_reff. intros. apply equals_loop_reff. Qed.
Lemma is_subset_reff f1 f2 r1 r2 : roaring64_bitmap_is_subset (reff f1 r1) (reff f2 r2) = roaring64_bitmap_is_subset r1 r2.
Proof. unfold roaring64_bitmap_is_subset. apply both_reff. intros. apply subset_loop_reff. Qed.
Lemma and_reff f1 f2 r1 r2 : roaring64_bitmap_and (reff f1 r1) (reff f2 r2) = roaring64_bitmap_and r1 r2.
Proof. unfold roaring64_bitmap_and. apply both_reff. intros. apply inter_loop_reff. Qed.
Lemma intersect_reff f1 f2 r1 r2 : roaring64_bitmap_intersect (reff f1 r1) (reff f2 r2) = roaring64_bitmap_intersect r1 r2.
Proof. unfold roaring64_bitmap_intersect. apply both_reff. intros. apply inter_loop_reff. Qed.
Lemma or_reff f1 f2 r1 r2 : roaring64_bitmap_or (reff f1 r1) (reff f2 r2) = roaring64_bitmap_or r1 r2.
Proof. unfold roaring64_bitmap_or. apply both_reff. intros. apply union_loop_reff. Qed.
Lemma xor_reff f1 f2 r1 r2 : roaring64_bitmap_xor (reff f1 r1) (reff f2 r2) = roaring64_bitmap_xor r1 r2.
Proof. unfold roaring64_bitmap_xor. apply both_reff. intros. apply union_loop_reff. Qed.
Lemma andnot_reff f1 f2 r1 r2 : roaring64_bitmap_andnot (reff f1 r1) (reff f2 r2) = roaring64_bitmap_andnot r1 r2.
Proof. unfold roaring64_bitmap_andnot. apply both_reff. intros. apply andnot_loop_reff. Qed.
Lemma and_cardinality_reff f1 f2 r1 r2 : roaring64_bitmap_and_cardinality (reff f1 r1) (reff f2 r2) = roaring64_bitmap_and_cardinality r1 r2.
Proof. unfold roaring64_bitmap_and_cardinality. erewrite both_reff; [reflexivity|]. intros. apply inter_loop_reff. Qed.
Lemma is_strict_subset_reff f1 f2 r1 r2 : roaring64_bitmap_is_strict_subset (reff f1 r1) (reff f2 r2) = roaring64_bitmap_is_strict_subset r1 r2.
Proof. unfold roaring64_bitmap_is_strict_subset. rewrite ?get_cardinality_reff, ?and_cardinality_reff, ?is_subset_reff. reflexivity. Qed.
Lemma or_cardinality_reff f1 f2 r1 r2 : roaring64_bitmap_or_cardinality (reff f1 r1) (reff f2 r2) = roaring64_bitmap_or_cardinality r1 r2.
Proof. unfold roaring64_bitmap_or_cardinality. rewrite ?get_cardinality_reff, ?and_cardinality_reff, ?is_subset_reff. reflexivity. Qed.
Lemma xor_cardinality_reff f1 f2 r1 r2 : roaring64_bitmap_xor_cardinality (reff f1 r1) (reff f2 r2) = roaring64_bitmap_xor_cardinality r1 r2.
Proof. unfold roaring64_bitmap_xor_cardinality. rewrite ?get_cardinality_reff, ?and_cardinality_reff, ?is_subset_reff. reflexivity. Qed.
Lemma andnot_cardinality_reff f1 f2 r1 r2 : roaring64_bitmap_andnot_cardinality (reff f1 r1) (reff f2 r2) = roaring64_bitmap_andnot_cardinality r1 r2.
Proof. unfold roaring64_bitmap_andnot_cardinality. rewrite ?get_cardinality_reff, ?and_cardinality_reff, ?is_subset_reff. reflexivity. Qed.
Lemma and_inplace_reff same f2 r1 r2 : roaring64_bitmap_and_inplace same r1 (reff f2 r2) = roaring64_bitmap_and_inplace same r1 r2.
Proof. unfold roaring64_bitmap_and_inplace. destruct same; [reflexivity|]. replace r1 with (reff (r_ff r1) r1) at 1 by (now destruct r1). apply both_reff. intros. replace (reff (r_ff r1) r1) with r1 by (now destruct r1). apply iand_loop_reff. Qed.
Lemma xor_inplace_reff same f2 r1 r2 : roaring64_bitmap_xor_inplace same r1 (reff f2 r2) = roaring64_bitmap_xor_inplace same r1 r2.
Proof. unfold roaring64_bitmap_xor_inplace. destruct same; [reflexivity|]. replace r1 with (reff (r_ff r1) r1) at 1 by (now destruct r1). apply both_reff. intros. replace (reff (r_ff r1) r1) with r1 by (now destruct r1). apply ixor_loop_reff. Qed.
Lemma or_inplace_reff same cap f2 r1 r2 : roaring64_bitmap_or_inplace same cap r1 (reff f2 r2) = roaring64_bitmap_or_inplace same cap r1 r2.
Proof. unfold roaring64_bitmap_or_inplace. destruct same; [reflexivity|]. replace r1 with (reff (r_ff r1) r1) at 1 by (now destruct r1). apply both_reff. intros. replace (reff (r_ff r1) r1) with r1 by (now destruct r1). apply ior_loop_reff. Qed.
Lemma andnot_inplace_reff f2 r1 r2 : roaring64_bitmap_andnot_inplace r1 (reff f2 r2) = roaring64_bitmap_andnot_inplace r1 r2.
Proof. unfold roaring64_bitmap_andnot_inplace. replace r1 with (reff (r_ff r1) r1) at 1 by (now destruct r1). apply both_reff. intros. replace (reff (r_ff r1) r1) with r1 by (now destruct r1). apply iandnot_loop_reff. Qed.
Lemma iterator_read_reff f r : forall n j k, iterator_read64 n (reff f r) j k = iterator_read64 n r j k.
Proof.
  induction n as [|n IH]; intros j k; [reflexivity|]. cbn [iterator_read64]. norm f r. change (init_at_leaf_first (reff f r)) with (init_at_leaf_first r). unfold obind.
  repeat match goal with |- context [match ?x with _ => _ end] => lazymatch x with context [match _ with _ => _ end] => fail | iterator_read64 n (reff f r) _ _ => rewrite IH | _ => destruct x end end; auto.
Qed.
Lemma to_array_reff f r : roaring64_bitmap_to_uint64_array (reff f r) = roaring64_bitmap_to_uint64_array r.
Proof. unfold roaring64_bitmap_to_uint64_array, roaring64_iterator_read, obind. change (iterator_init_at (reff f r)) with (iterator_init_at r). destruct (iterator_init_at r iter64_raw true); [|reflexivity]. change (fuel64 (reff f r)) with (fuel64 r). now rewrite iterator_read_reff. Qed.
Lemma iter_step_reff f r j c : iter_step64 (reff f r) j c = iter_step64 r j c.
Proof. destruct c; try reflexivity. unfold iter_step64, roaring64_iterator_read. change (fuel64 (reff f r)) with (fuel64 r). apply iterator_read_reff. Qed.
Lemma iter_run_reff f r : forall cs j, iter_run64 (reff f r) j cs = iter_run64 r j cs.
Proof. induction cs as [|c cs IH]; intros j; [reflexivity|]. cbn [iter_run64]. rewrite iter_step_reff. destruct (iter_step64 r j c) as [[j' o]|]; [|reflexivity]. now rewrite IH. Qed.
Lemma create_reff f r : roaring64_iterator_create (reff f r) = roaring64_iterator_create r. Proof. reflexivity. Qed.
Lemma create_last_reff f r : roaring64_iterator_create_last (reff f r) = roaring64_iterator_create_last r. Proof. reflexivity. Qed.
Lemma portable_size_reff f r : roaring64_bitmap_portable_size_in_bytes (reff f r) = roaring64_bitmap_portable_size_in_bytes r. Proof. reflexivity. Qed.
Lemma portable_serialize_reff f r buf : roaring64_bitmap_portable_serialize (reff f r) buf = roaring64_bitmap_portable_serialize r buf. Proof. reflexivity. Qed.
Lemma validate_reff f r : roaring64_bitmap_internal_validate (reff f r) = roaring64_bitmap_internal_validate r. Proof. reflexivity. Qed.
Lemma statistics_reff f r : roaring64_bitmap_statistics (reff f r) = roaring64_bitmap_statistics r. Proof. reflexivity. Qed.

(** ** Histories with views *)
(** the registers of [K] hold views *)
Definition hsim (K : nat -> bool) (st st' : heap64) : Prop := forall i, (exists f, st' i = reff f (st i)) /\ (K i = false -> st' i = st i).
Lemma hsim_put K st st' d r : hsim K st st' -> K d = false -> hsim K (put st d r) (put st' d r).
Proof. intros H E i. unfold put. destruct (Nat.eqb_spec i d) as [->|]; [|apply H]. split; [|auto]. exists (r_ff r). now destruct r. Qed.
Definition follows K (o o' : option (heap64 * out)) : Prop := forall st1 a, o = Some (st1, a) -> exists st1', o' = Some (st1', a) /\ hsim K st1 st1'.
Lemma follows_put K st st' d o o' : hsim K st st' -> K d = false -> o' = o -> follows K (lput st d o) (lput st' d o').
Proof. intros H E -> st1 a Q. unfold lput in *. destruct o; [|discriminate]. injection Q as <- <-. eexists. split; [reflexivity|]. now apply hsim_put. Qed.
Lemma follows_put2 K st st' d o o' : hsim K st st' -> K d = false -> o' = o -> follows K (lput2 st d o) (lput2 st' d o').
Proof. intros H E -> st1 a Q. unfold lput2 in *. destruct o as [[r b]|]; [|discriminate]. injection Q as <- <-. eexists. split; [reflexivity|]. now apply hsim_put. Qed.
Lemma follows_ask {A} K st st' (g : A -> out) o o' : hsim K st st' -> o' = o -> follows K (ask st g o) (ask st' g o').
Proof. intros H -> st1 a Q. unfold ask in *. destruct o; [|discriminate]. injection Q as <- <-. eexists. split; [reflexivity|]. exact H. Qed.
Ltac use_reff H s := let f := fresh in let E := fresh in destruct (proj1 (H s)) as (f & E); rewrite E; clear E.
Lemma step64_follows K c cap st st' : hsim K st st' -> (forall d, changed c = Some d -> K d = false) -> follows K (step64 c cap st) (step64 c cap st').
Proof.
  intros H W. destruct c; cbn [changed] in W; cbn [step64].
  all: try (match type of W with context [Some ?d = Some _] => pose proof (W d eq_refl) as WD; pose proof (proj2 (H d) WD) as ED end).
  all: try (apply follows_put; [exact H|exact WD|]; first [reflexivity|now rewrite ED]).
  all: try (apply follows_put2; [exact H|exact WD|]; first [reflexivity|now rewrite ED]).
  all: try (apply follows_ask; [exact H|]; use_reff H s; first [reflexivity|apply to_array_reff]).
  all: try (apply follows_ask; [exact H|]; use_reff H s; use_reff H t; first [apply equals_reff|apply is_subset_reff|apply is_strict_subset_reff|apply intersect_reff|apply and_cardinality_reff|apply or_cardinality_reff|apply xor_cardinality_reff|apply andnot_cardinality_reff]).
  - destruct (roaring64_bitmap_from_range lo hi step) as [[r|]|]; intros st1 a Q; try discriminate; injection Q as <- <-; (eexists; split; [reflexivity|]); [now apply hsim_put|exact H].
  - apply follows_put; [exact H|exact WD|]. use_reff H s. reflexivity.
  - intros st1 a Q. rewrite ED. destruct (roaring64_bitmap_shrink_to_fit (st d)) as [[r n]|]; [|discriminate]. injection Q as <- <-. eexists; split; [reflexivity|]. now apply hsim_put.
  - apply follows_put; [exact H|exact WD|]. use_reff H s. reflexivity.
  - apply follows_put; [exact H|exact WD|]. use_reff H s. reflexivity.
  - apply follows_put; [exact H|exact WD|]. use_reff H s. use_reff H t. apply and_reff.
  - apply follows_put; [exact H|exact WD|]. use_reff H s. use_reff H t. apply or_reff.
  - apply follows_put; [exact H|exact WD|]. use_reff H s. use_reff H t. apply xor_reff.
  - apply follows_put; [exact H|exact WD|]. use_reff H s. use_reff H t. apply andnot_reff.
  - apply follows_put; [exact H|exact WD|]. rewrite ED. use_reff H s. apply and_inplace_reff.
  - apply follows_put; [exact H|exact WD|]. rewrite ED. use_reff H s. apply or_inplace_reff.
  - apply follows_put; [exact H|exact WD|]. rewrite ED. use_reff H s. apply xor_inplace_reff.
  - apply follows_put; [exact H|exact WD|]. rewrite ED. use_reff H s. apply andnot_inplace_reff.
Qed.
Lemma exec64_follows K tr : forall st st' st1 outs, hsim K st st' -> (forall c d, In c (map fst tr) -> changed c = Some d -> K d = false) -> exec64 tr st = Some (st1, outs) ->
  exists st1', exec64 tr st' = Some (st1', outs) /\ hsim K st1 st1'.
Proof.
  induction tr as [|[c cap] tr IH]; intros st st' st1 outs H W E; cbn [exec64 map fst] in *.
  - injection E as <- <-. eauto.
  - destruct (step64 c cap st) as [[st2 a]|] eqn:E1; [|discriminate]. destruct (step64_follows K c cap st st' H (fun d Q => W c d (or_introl eq_refl) Q) _ _ E1) as (st2' & -> & H2).
    destruct (exec64 tr st2) as [[st3 l]|] eqn:E2; [|discriminate]. injection E as <- <-. destruct (IH _ _ _ _ H2 (fun c d I => W c d (or_intror I)) E2) as (st3' & -> & H3). eauto.
Qed.
(** what a view contains: all of its container slots are in use *)
Definition readable (r : r64) (P : zset) : Prop := denotes64 (R64 (r_art r) (zlen (r_cont r)) (r_cont r)) P.
Definition holds_or_view (K : nat -> bool) (st : heap64) (S : regs) : Prop := forall i, if K i then readable (st i) (S i) else denotes64 (st i) (S i).
Lemma exec64_keeps tr : forall st st1 outs i, exec64 tr st = Some (st1, outs) -> (forall c, In c (map fst tr) -> changed c <> Some i) -> st1 i = st i.
Proof.
  induction tr as [|[c cap] tr IH]; intros st st1 outs i E W; cbn [exec64 map fst] in *; [now injection E as <- _|].
  destruct (step64 c cap st) as [[st2 a]|] eqn:E1; [|discriminate]. destruct (exec64 tr st2) as [[st3 l]|] eqn:E2; [|discriminate]. injection E as <- _. rewrite (IH _ _ _ i E2) by (intros x X; apply W; now right).
  specialize (W c (or_introl eq_refl)). assert (Q : forall d (r : r64), changed c = Some d -> put st d r i = st i) by (intros d r Q; unfold put; destruct (Nat.eqb_spec i d); congruence).
  destruct c; cbn [changed step64] in *; unfold lput, lput2, ask in E1; repeat match type of E1 with context [match ?x with _ => _ end] => destruct x; try discriminate end; injection E1 as <- _; auto.
Qed.
Theorem histories_with_views K tr st S : holds_or_view K st S -> legal64 (map fst tr) S -> (forall c d, In c (map fst tr) -> changed c = Some d -> K d = false) ->
  exists st1 outs, exec64 tr st = Some (st1, outs) /\ holds_or_view K st1 (spec_run64 (map fst tr) S) /\ agrees64 (map fst tr) S outs.
Proof.
  intros H L W. set (s0 := fun i => if K i then R64 (r_art (st i)) (zlen (r_cont (st i))) (r_cont (st i)) else st i).
  assert (H0 : holds s0 S). { intros i. specialize (H i). unfold s0. destruct (K i); now apply den64_iff. }
  assert (SM : hsim K s0 st). { intros i. unfold s0. destruct (K i) eqn:E; (split; [|congruence || auto]). - exists (r_ff (st i)). now destruct (st i). - exists (r_ff (st i)). now destruct (st i). }
  destruct (exec64_holds tr s0 S H0 L) as (st1 & outs & E & H1 & A). destruct (exec64_follows K tr _ _ _ _ SM W E) as (st1' & E' & SM'). exists st1', outs. split; [exact E'|]. split; [|exact A].
  intros i. destruct (K i) eqn:Ki.
  - assert (NC : forall c, In c (map fst tr) -> changed c <> Some i). { intros c I Q. specialize (W c i I Q). congruence. }
    rewrite (exec64_keeps tr _ _ _ i E' NC). unfold readable. pose proof (exec64_keeps tr _ _ _ i E NC) as Q. apply den64_iff. specialize (H1 i). rewrite Q in H1. unfold s0 in H1. now rewrite Ki in H1.
  - rewrite (proj2 (SM' i) Ki). apply den64_iff, H1.
Qed.
Lemma readable_reff r P : readable r P -> exists r0, denotes64 r0 P /\ r = reff (r_ff r) r0.
Proof. intros H. exists (R64 (r_art r) (zlen (r_cont r)) (r_cont r)). split; [exact H|]. now destruct r. Qed.
