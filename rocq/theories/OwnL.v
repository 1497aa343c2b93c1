(** OwnL: the kernels of the lazy operations in the heap of OwnC.v, and what
    roaring_bitmap_or_many, or_many_heap and xor_many do with their answers.  The
    simplifications are those of OwnC.v. *)
From Coq Require Import ZArith List Bool Lia PeanoNat.
From Verif Require Import Base ArrayUtil BitUtil BitsetC ArrayC RunC RunD Convert MixedI MixedU MixedA MixedN Containers RArray RBinary OwnC OwnN.
Import ListNotations.
Local Open Scope Z_scope.
Local Opaque zr.

(** ** Kernels *)
(** containers.h:1096-1196 container_lazy_or; mixed_union.c:247-281 creates the answer for
    two arrays in its final type *)
Definition container_lazy_or_mem (a1 a2 : nat) : M nat :=
  c1 <- rd a1 ;; c2 <- rd a2 ;;
  match c1, c2 with
  | CBit b1, CBit b2 => new (CBit (bitset_container_or_nocard b1 b2))
  | CArr l1, CArr l2 => new (array_array_container_lazy_union l1 l2)
  | CRun r1, CRun r2 => result <- new (CRun (run_container_union r1 r2)) ;; convert_run_and_free result
  | CBit b1, CArr l2 => new (CBit (array_bitset_container_lazy_union l2 b1))
  | CArr l1, CBit b2 => new (CBit (array_bitset_container_lazy_union l1 b2))
  | CBit b1, CRun r2 => if run_container_is_full r2 then new (CRun r2) else new (CBit (run_bitset_container_lazy_union r2 b1))
  | CRun r1, CBit b2 => if run_container_is_full r1 then new (CRun r1) else new (CBit (run_bitset_container_lazy_union r1 b2))
  | CArr l1, CRun r2 => new (CRun (array_run_container_union l1 r2))
  | CRun r1, CArr l2 => new (CRun (array_run_container_union l2 r1))
  end.
(** mixed_union.c:283-366 array_array_container_lazy_inplace_union and the test of its
    answer (containers.h:1346-1354); [cap]: the capacity of the first array *)
Definition array_array_lazy_ior (cap : Z) (s1 s2 : nat) : M nat :=
  l1 <- rdA s1 ;; l2 <- rdA s2 ;;
  if zlen l1 + zlen l2 <=? 1024 then
    if cap <? zlen l1 + zlen l2 then new (CArr (array_container_union l1 l2))
    else _ <- wr s1 (CArr (fast_union_uint16 l1 l2)) ;; ret s1
  else new (CBit (-1, bitset_set_list (bitset_set_list (b_words bitset_container_create) l1) l2)).
(** containers.h:1316-1421 container_lazy_ior: the first operand is left to the caller *)
Definition container_lazy_ior_mem (cap : Z) (a1 a2 : nat) : M nat :=
  c1 <- rd a1 ;; c2 <- rd a2 ;;
  match c1, c2 with
  | CBit b1, CBit b2 =>
    let b := bitset_container_or b1 b2 in
    _ <- wr a1 (CBit b) ;;
    if b_card b =? 65536 then new (CRun (run_container_create_range 0 65536)) else ret a1
  | CArr _, CArr _ => array_array_lazy_ior cap a1 a2
  | CRun r1, CRun r2 => _ <- wr a1 (CRun (run_container_union r1 r2)) ;; convert_run a1
  | CBit b1, CArr l2 => _ <- wr a1 (CBit (array_bitset_container_lazy_union l2 b1)) ;; ret a1
  | CArr l1, CBit b2 => new (CBit (array_bitset_container_lazy_union l1 b2))
  | CBit b1, CRun r2 =>
    if run_container_is_full r2 then new (CRun r2)
    else _ <- wr a1 (CBit (run_bitset_container_lazy_union r2 b1)) ;; ret a1
  | CRun r1, CBit b2 => if run_container_is_full r1 then ret a1 else new (CBit (run_bitset_container_lazy_union r1 b2))
  | CArr l1, CRun r2 => new (CRun (array_run_container_union l1 r2))
  | CRun r1, CArr l2 => _ <- wr a1 (CRun (array_run_container_union l2 r1)) ;; ret a1
  end.
(** containers.h:1553-1637 container_lazy_xor; mixed_xor.c:221-257 creates the answer for
    two arrays in its final type *)
Definition container_lazy_xor_mem (a1 a2 : nat) : M nat :=
  c1 <- rd a1 ;; c2 <- rd a2 ;;
  match c1, c2 with
  | CBit b1, CBit b2 => new (CBit (bitset_container_xor_nocard b1 b2))
  | CArr l1, CArr l2 => new (array_array_container_lazy_xor l1 l2)
  | CRun _, CRun _ => run_run_xor a1 a2
  | CBit b1, CArr l2 => new (CBit (array_bitset_container_lazy_xor l2 b1))
  | CArr l1, CBit b2 => new (CBit (array_bitset_container_lazy_xor l1 b2))
  | CBit b1, CRun r2 => new (CBit (run_bitset_container_lazy_xor r2 b1))
  | CRun r1, CBit b2 => new (CBit (run_bitset_container_lazy_xor r1 b2))
  | CArr l1, CRun r2 => new (CRun (array_run_container_lazy_xor l1 r2))
  | CRun r1, CArr l2 => new (CRun (array_run_container_lazy_xor l2 r1))
  end.
(** containers.h:1732-1760 container_lazy_ixor: a dirty bitset is counted first *)
Definition container_lazy_ixor_mem (a1 a2 : nat) : M nat :=
  c1 <- rd a1 ;; c2 <- rd a2 ;;
  match c1, c2 with
  | CBit b1, CBit b2 => _ <- wr a1 (CBit (bitset_container_xor_nocard b1 b2)) ;; ret a1
  | CBit b1, _ =>
    _ <- (if b_card b1 =? -1 then wr a1 (CBit (bitset_container_compute_cardinality (b_words b1), b_words b1)) else ret tt) ;;
    container_ixor_mem a1 a2
  | _, _ => container_ixor_mem a1 a2
  end.
(** containers.h:332-361 container_repair_after_lazy *)
Definition container_repair_mem (a : nat) : M nat :=
  c <- rd a ;;
  match c with
  | CBit b => _ <- wr a (CBit (bitset_container_compute_cardinality (b_words b), b_words b)) ;; settle a
  | CArr _ => ret a
  | CRun _ => convert_run_and_free a
  end.

(** ** What roaring.c does with the answer for one key *)
(** roaring.c:2253-2277 lazy_or; with bitsetconversion ([conv]), unless one of them is a
    bitset, the first operand is converted into a temporary bitset (container_to_bitset,
    containers.h:154-173) *)
Definition new_lazy_or (conv : bool) (_ : Z) (a1 a2 : nat) : M (option nat) :=
  c1 <- rd a1 ;; c2 <- rd a2 ;;
  if conv && negb (is_bitset c1) && negb (is_bitset c2) then
    newc1 <- new (container_to_bitset c1) ;;
    c <- container_lazy_ior_mem 0 newc1 a2 ;;
    _ <- (if Nat.eqb c newc1 then ret tt else fr newc1) ;; ret (Some c)
  else c <- container_lazy_or_mem a1 a2 ;; ret (Some c).
(** roaring.c:2343-2376 lazy_or_inplace *)
Definition act_lazy_ior (conv : bool) (cap : Z -> Z) (k : Z) (a1 a2 : nat) : M (option nat) :=
  c1 <- rd a1 ;;
  if container_is_full c1 then ret (Some a1)
  else
    x <- (if negb conv || is_bitset c1 then ret a1 else d <- new (container_to_bitset c1) ;; _ <- fr a1 ;; ret d) ;;
    c <- container_lazy_ior_mem (cap k) x a2 ;;
    _ <- (if Nat.eqb c x then ret tt else fr x) ;; ret (Some c).
(** roaring.c:2428-2442 lazy_xor; 2505-2532 lazy_xor_inplace *)
Definition new_lazy_xor (_ : Z) (a1 a2 : nat) : M (option nat) := d <- container_lazy_xor_mem a1 a2 ;; keep_nonzero d.
Definition act_lazy_ixor (_ : Z) (a1 a2 : nat) : M (option nat) := d <- container_lazy_ixor_mem a1 a2 ;; keep_nonzero d.
(** roaring_priority_queue.c:138-151 lazy_or_from_lazy_inputs: both operands are used up *)
Definition act_lazy_both (cap : Z -> Z) (k : Z) (a1 a2 : nat) : M nat :=
  c1 <- rd a1 ;; c2 <- rd a2 ;;
  if is_bitset c2 && negb (is_bitset c1) then
    c <- container_lazy_ior_mem (cap k) a2 a1 ;; _ <- fr a1 ;; _ <- (if Nat.eqb c a2 then ret tt else fr a2) ;; ret c
  else
    c <- container_lazy_ior_mem (cap k) a1 a2 ;; _ <- fr a2 ;; _ <- (if Nat.eqb c a1 then ret tt else fr a1) ;; ret c.
(** roaring.c:2569-2580 roaring_bitmap_repair_after_lazy: one container *)
Definition act_repair (a : nat) : M (option nat) := d <- container_repair_mem a ;; ret (Some d).

(** ** Proofs *)
Lemma post_trans h F G h1 G2 h2 : wfh h -> post h F G h1 -> post h1 G G2 h2 -> post h F G2 h2.
Proof.
  intros W (_&L1&_&O1&U1&D1&K1) (W2&L2&N2&O2&U2&D2&K2).
  split; [exact W2|]. split; [lia|]. split; [exact N2|]. split.
  { intros x I. destruct (O2 x I) as [J|J]; [now apply O1|right; lia]. }
  split; [exact U2|]. split.
  - intros x I J. destruct (in_dec Nat.eq_dec x G) as [Y|Y]; [now apply D2|]. rewrite K2 by auto. now apply D1.
  - intros x I J. destruct (in_dec Nat.eq_dec x G) as [Y|Y].
    + rewrite D2 by auto. destruct (O1 x Y) as [Z|Z]; [contradiction|]. symmetry. now apply W.
    + rewrite K2 by auto. now apply K1.
Qed.
Lemma lazy_or_wp h a1 a2 c1 c2 : wfh h -> ce h a1 = Some c1 -> ce h a2 = Some c2 -> wp (container_lazy_or_mem a1 a2) h (made h [] (container_lazy_or c1 c2)).
Proof.
  intros W E1 E2. unfold container_lazy_or_mem, container_lazy_or. bnd. eapply wp_rd; [exact E1|]. bnd. eapply wp_rd; [exact E2|]. hp h.
  destruct c1 as [l1|b1|r1], c2 as [l2|b2|r2].
  - now apply new_wp.
  - now apply new_wp.
  - now apply new_wp.
  - now apply new_wp.
  - now apply new_wp.
  - destruct (run_container_is_full r2); now apply new_wp.
  - now apply new_wp.
  - destruct (run_container_is_full r1); now apply new_wp.
  - now apply new_convert.
Qed.
Lemma lazy_ior_wp cap h a1 a2 c1 c2 : wfh h -> ce h a1 = Some c1 -> ce h a2 = Some c2 -> wp (container_lazy_ior_mem cap a1 a2) h (left h a1 (container_lazy_ior cap c1 c2)).
Proof.
  intros W E1 E2. unfold container_lazy_ior_mem, container_lazy_ior. bnd. eapply wp_rd; [exact E1|]. bnd. eapply wp_rd; [exact E2|].
  destruct c1 as [l1|b1|r1], c2 as [l2|b2|r2].
  - unfold array_array_lazy_ior, array_array_container_lazy_inplace_union. bnd. eapply wp_rdA; [exact E1|]. bnd. eapply wp_rdA; [exact E2|]. hp h.
    destruct (zlen l1 + zlen l2 <=? 1024); [|now apply left_new with (c0 := CArr l1)].
    destruct (cap <? zlen l1 + zlen l2); [now apply left_new with (c0 := CArr l1)|now apply left_wr_ret with (c0 := CArr l1)].
  - hp h. now apply left_new with (c0 := CArr l1).
  - hp h. now apply left_new with (c0 := CArr l1).
  - hp h. now apply left_wr_ret with (c0 := CBit b1).
  - hp h. cbv zeta. apply (wp_left_wr _ _ _ (CBit b1)); auto. assert (W' : wfh (H n (upd f a1 (Some (CBit (bitset_container_or b1 b2)))))) by now apply (wfh_wr _ _ _ (CBit b1)).
    destruct (b_card (bitset_container_or b1 b2) =? 65536); [eapply left_new; [exact W'|apply upd_same]|apply left_ret; [exact W'|apply upd_same]].
  - hp h. destruct (run_container_is_full r2); [now apply left_new with (c0 := CBit b1)|now apply left_wr_ret with (c0 := CBit b1)].
  - hp h. now apply left_wr_ret with (c0 := CRun r1).
  - hp h. destruct (run_container_is_full r1); [now apply left_ret|now apply left_new with (c0 := CRun r1)].
  - hp h. now apply left_wr_convert with (c0 := CRun r1).
Qed.
Lemma lazy_xor_wp h a1 a2 c1 c2 : wfh h -> ce h a1 = Some c1 -> ce h a2 = Some c2 -> wp (container_lazy_xor_mem a1 a2) h (made h [] (container_lazy_xor c1 c2)).
Proof.
  intros W E1 E2. unfold container_lazy_xor_mem, container_lazy_xor. bnd. eapply wp_rd; [exact E1|]. bnd. eapply wp_rd; [exact E2|].
  destruct c1 as [l1|b1|r1], c2 as [l2|b2|r2]; try (hp h; now apply new_wp). now apply rr_xor_wp.
Qed.
Lemma lazy_ixor_wp h a1 a2 c1 c2 : wfh h -> ce h a1 = Some c1 -> ce h a2 = Some c2 -> a1 <> a2 -> wp (container_lazy_ixor_mem a1 a2) h (made h [a1] (container_lazy_ixor c1 c2)).
Proof.
  intros W E1 E2 N. unfold container_lazy_ixor_mem. bnd. eapply wp_rd; [exact E1|]. bnd. eapply wp_rd; [exact E2|].
  assert (B : forall b1, c1 = CBit b1 -> wp (_ <- (if b_card b1 =? -1 then wr a1 (CBit (bitset_container_compute_cardinality (b_words b1), b_words b1)) else ret tt) ;;
    container_ixor_mem a1 a2) h (made h [a1] (container_ixor (CBit (if b_card b1 =? -1 then (bitset_container_compute_cardinality (b_words b1), b_words b1) else b1)) c2))).
  { intros b1 ->. bnd. destruct (b_card b1 =? -1).
    - hp h. eapply wp_wr; [exact E1|]. set (b := (bitset_container_compute_cardinality (b_words b1), b_words b1)). clearbody b.
      eapply wp_mono; [apply (ixor_wp _ a1 a2 (CBit b) c2); cbn [ce]; [now apply (wfh_wr _ _ _ (CBit b1))|apply upd_same|rewrite upd_other by auto; exact E2|exact N]|].
      intros h' d [P V]. split; [|exact V]. eapply post_wr; [now left|exact P].
    - apply wp_ret. now apply ixor_wp. }
  destruct c1 as [l1|b1|r1]; cbn [container_lazy_ixor].
  - destruct c2; now apply ixor_wp.
  - destruct c2 as [l2|b2|r2]; [now apply B| |now apply B]. hp h. now apply wr_ret with (c0 := CBit b1).
  - destruct c2; now apply ixor_wp.
Qed.
Lemma repair_wp h a c : wfh h -> ce h a = Some c -> wp (container_repair_mem a) h (made h [a] (container_repair_after_lazy c)).
Proof.
  intros W E. unfold container_repair_mem, container_repair_after_lazy. bnd. eapply wp_rd; [exact E|]. destruct c as [l|b|r].
  - hp h. apply wp_ret. now apply made_id.
  - hp h. exact (wr_settle n f a (CBit b) _ W E).
  - now apply convert_and_free_wp.
Qed.
Lemma new_lazy_or_ok conv : new2_ok (fun _ c1 c2 => Some (
    if conv && negb (is_bitset c1) && negb (is_bitset c2) then container_lazy_ior 0 (container_to_bitset c1) c2 else container_lazy_or c1 c2)) (new_lazy_or conv).
Proof.
  intros k h a1 a2 c1 c2 W E1 E2. unfold new_lazy_or. bnd. eapply wp_rd; [exact E1|]. bnd. eapply wp_rd; [exact E2|].
  destruct (conv && negb (is_bitset c1) && negb (is_bitset c2)).
  - set (x := container_to_bitset c1). clearbody x. pose proof (wf_lt _ _ _ W E2) as L. hp h. bnd. apply wp_new.
    assert (W' : wfh (H (S n) (upd f n (Some x)))) by now apply wfh_new.
    assert (En : ce (H (S n) (upd f n (Some x))) n = Some x) by apply upd_same.
    bnd. eapply wp_mono; [apply (lazy_ior_wp 0 _ n a2 x c2 W' En); cbn [ce]; rewrite upd_other by lia; exact E2|]. intros h1 d X.
    eapply left_end; [exact W'|eauto|exact X|]. intros h2 [P V]. apply wp_ret. split; [|exact V]. eapply post_new; [exact W|exact P].
  - bnd. eapply wp_mono; [apply (lazy_or_wp h a1 a2 c1 c2); auto|]. intros h1 d [P V]. apply wp_ret. split; [exact P|exact V].
Qed.
Lemma act_lazy_ior_ok conv cap : act2_ok (fun k c1 c2 => Some (
    if container_is_full c1 then c1
    else let c1' := if negb conv || is_bitset c1 then c1 else container_to_bitset c1 in container_lazy_ior (cap k) c1' c2)) (act_lazy_ior conv cap).
Proof.
  intros k h a1 a2 c1 c2 W E1 E2 N. apply wp_elim. unfold act_lazy_ior. bnd. eapply wp_rd; [exact E1|]. destruct (container_is_full c1).
  { hp h. apply wp_ret. destruct (made_id n f a1 c1 W E1) as [P V]. split; [exact P|exact V]. }
  cbv zeta. set (c1' := if negb conv || is_bitset c1 then c1 else container_to_bitset c1).
  assert (X : wp (if negb conv || is_bitset c1 then ret a1 else d <- new (container_to_bitset c1) ;; _ <- fr a1 ;; ret d) h (made h [a1] c1')).
  { unfold c1'. destruct (negb conv || is_bitset c1); [hp h; apply wp_ret; now apply made_id|]. eapply fresh_free; [exact W|exact E1|]. hp h. now apply new_wp. }
  clearbody c1'. bnd. eapply wp_mono; [exact X|]. intros h1 x [P1 V1]. pose proof (proj1 P1) as W1.
  assert (E2' : ce h1 a2 = Some c2).
  { pose proof (wf_lt _ _ _ W E2) as L. destruct P1 as (_&_&_&O&_&_&K). rewrite K; [exact E2| |intros [|[]]; congruence].
    intros [<-|[]]. destruct (O x (or_introl eq_refl)) as [[<-|[]]|]; [congruence|lia]. }
  bnd. eapply wp_mono; [apply (lazy_ior_wp (cap k) h1 x a2 c1' c2 W1 V1 E2')|]. intros h2 d Y.
  eapply left_end; [exact W1|eauto|exact Y|]. intros h3 [P3 V3]. apply wp_ret. split; [|exact V3]. eapply post_trans; [exact W|exact P1|exact P3].
Qed.
Lemma new_lazy_xor_ok : new2_ok (fun _ c1 c2 => nonzero (container_lazy_xor c1 c2)) new_lazy_xor.
Proof. intros k h a1 a2 c1 c2 W E1 E2. unfold new_lazy_xor. bnd. eapply wp_mono; [apply (lazy_xor_wp h a1 a2 c1 c2); auto|]. intros h1 d X. now apply keep_nonzero_new. Qed.
Lemma act_lazy_ixor_ok : act2_ok (fun _ c1 c2 => nonzero (container_lazy_ixor c1 c2)) act_lazy_ixor.
Proof.
  intros k h a1 a2 c1 c2 W E1 E2 N. apply wp_elim. unfold act_lazy_ixor. bnd. eapply wp_mono; [apply (lazy_ixor_wp h a1 a2 c1 c2); auto|]. intros h1 d X. eapply keep_nonzero_wp; eauto.
Qed.
Lemma act_repair_ok : act1_ok (fun c => Some (container_repair_after_lazy c)) act_repair.
Proof. intros h a c W E. apply wp_elim. unfold act_repair. bnd. eapply wp_mono; [apply (repair_wp h a c); auto|]. intros h1 d [P V]. apply wp_ret. split; [exact P|exact V]. Qed.
(** *** Both operands used up *)
Definition act3_ok (f : Z -> container -> container -> container) (act : Z -> nat -> nat -> M nat) : Prop :=
  forall k h a1 a2 c1 c2, wfh h -> ce h a1 = Some c1 -> ce h a2 = Some c2 -> a1 <> a2 -> wp (act k a1 a2) h (made h [a1; a2] (f k c1 c2)).
Lemma post_drop n f b F G h2 : (b < n)%nat -> ~ In b G -> post (H n (upd f b None)) F G h2 -> post (H n f) (b :: F) G h2.
Proof.
  intros L I (W&L2&N&O&B&D&K). cbn [nx ce] in *. split; [exact W|]. split; [exact L2|]. split; [exact N|]. cbn [nx ce In].
  split; [intros x J; destruct (O x J); auto|]. split; [exact B|]. split.
  - intros x J Y. destruct (in_dec Nat.eq_dec x F) as [Z|Z]; [now apply D|]. destruct Y as [<-|Y]; [|contradiction]. rewrite K by auto. apply upd_same.
  - intros x J Y. rewrite K by tauto. apply upd_other. intros ->. tauto.
Qed.
Lemma post_swap h a b G h2 : post h [a; b] G h2 -> post h [b; a] G h2.
Proof.
  intros (W&L&N&O&B&D&K). split; [exact W|]. split; [exact L|]. split; [exact N|]. cbn [In] in *. split; [intros x J; destruct (O x J); tauto|]. split; [exact B|]. split; intros; [apply D|apply K]; tauto.
Qed.
Lemma wfh_drop n f b : wfh (H n f) -> wfh (H n (upd f b None)).
Proof. intros W x L. cbn [nx ce] in *. unfold upd. destruct (Nat.eqb x b); [reflexivity|now apply W]. Qed.
Lemma left_both h a b ca cb c h1 d : wfh h -> ce h a = Some ca -> ce h b = Some cb -> a <> b -> left h a c h1 d ->
  wp (_ <- fr b ;; _ <- (if Nat.eqb d a then ret tt else fr a) ;; ret d) h1 (made h [b; a] c).
Proof.
  intros W Ea Eb Ne X. pose proof (wf_lt _ _ _ W Eb) as Lb. destruct h as [n f], h1 as [n1 f1]. cbn [nx ce] in *.
  assert (Y : f1 b = Some cb /\ d <> b /\ left (H n (upd f b None)) a c (H n1 (upd f1 b None)) d).
  { destruct X as [(->&P&V)|(N1&N2&N3&N4&W1&V&[c0 E]&K)]; cbn [nx ce] in *.
    - destruct P as (W1&L&N&O&B&D&K). cbn [nx ce In] in *. split; [rewrite K by intuition; exact Eb|]. split; [exact Ne|]. left. split; [reflexivity|]. split; [|cbn [ce]; now rewrite upd_other by auto].
      split; [now apply wfh_drop|]. cbn [nx ce In]. split; [exact L|]. split; [exact N|]. split; [exact O|]. split; [exact B|]. split; [intros x J []; contradiction J; auto|].
      intros x J _. unfold upd. destruct (Nat.eqb x b); [reflexivity|]. now apply K.
    - split; [rewrite K by lia; exact Eb|]. split; [lia|]. right. cbn [nx ce]. split; [exact N1|]. split; [exact N2|]. split; [exact N3|]. split; [exact N4|]. split; [now apply wfh_drop|].
      split; [rewrite upd_other by lia; exact V|]. split; [exists c0; rewrite upd_other by auto; exact E|]. intros x J1 J2. unfold upd. destruct (Nat.eqb x b); [reflexivity|]. now apply K. }
  destruct Y as (E1&Nd&Y). bnd. eapply wp_fr; [exact E1|]. eapply (left_end (H n (upd f b None))); [apply wfh_drop; exact W|exists ca; cbn [ce]; rewrite upd_other by auto; exact Ea|exact Y|].
  intros h2 [P V]. apply wp_ret. split; [|exact V]. apply post_drop; [exact Lb|intros [J|[]]; congruence|exact P].
Qed.
Lemma act_lazy_both_ok cap : act3_ok (fun k c1 c2 => if is_bitset c2 && negb (is_bitset c1) then container_lazy_ior (cap k) c2 c1 else container_lazy_ior (cap k) c1 c2) (act_lazy_both cap).
Proof.
  intros k h a1 a2 c1 c2 W E1 E2 N. unfold act_lazy_both. bnd. eapply wp_rd; [exact E1|]. bnd. eapply wp_rd; [exact E2|]. destruct (is_bitset c2 && negb (is_bitset c1)).
  - bnd. eapply wp_mono; [apply (lazy_ior_wp (cap k) h a2 a1 c2 c1); auto|]. intros h1 d X. eapply left_both; eauto.
  - bnd. eapply wp_mono; [apply (lazy_ior_wp (cap k) h a1 a2 c1 c2); auto|]. intros h1 d X. eapply wp_mono; [eapply left_both; eauto|]. intros h2 d2 [P V]. split; [now apply post_swap|exact V].
Qed.
