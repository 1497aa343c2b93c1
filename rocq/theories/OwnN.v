(** OwnN: the kernels that make a new container and leave their operands alone, in the
    heap of OwnC.v, and what roaring.c does with their answers.  The simplifications are
    those of OwnC.v.  Both operands may be the same container. *)
From Coq Require Import ZArith List Bool Lia PeanoNat.
From Verif Require Import Base ArrayUtil BitUtil BitsetC ArrayC RunC RunD Convert MixedI MixedU MixedA MixedN Containers RArray RBinary OwnC.
Import ListNotations.
Local Open Scope Z_scope.
Local Opaque zr.

(** ** Intersection *)
(** mixed_intersection.c:305-326 *)
Definition bitset_bitset_and (s1 s2 : nat) : M nat :=
  b1 <- rdB s1 ;; b2 <- rdB s2 ;;
  let newCardinality := bitset_container_and_justcard b1 b2 in
  if 4096 <? newCardinality then new (CBit (newCardinality, b_words (bitset_container_and_nocard b1 b2)))
  else new (CArr (bitset_extract_intersection_setbits (b_words b1) (b_words b2) 0)).
(** containers.h:709-787 container_and; the arrays and the run container are created
    first and filled by the kernel *)
Definition container_and_mem (a1 a2 : nat) : M nat :=
  c1 <- rd a1 ;; c2 <- rd a2 ;;
  match c1, c2 with
  | CBit _, CBit _ => bitset_bitset_and a1 a2
  | CArr l1, CArr l2 => new (CArr (array_container_intersection l1 l2))
  | CRun r1, CRun r2 => result <- new (CRun (run_container_intersection r1 r2)) ;; convert_run_and_free result
  | CBit b1, CArr l2 => new (CArr (array_bitset_container_intersection l2 b1))
  | CArr l1, CBit b2 => new (CArr (array_bitset_container_intersection l1 b2))
  | CBit _, CRun _ => run_bitset_intersection false a2 a1
  | CRun _, CBit _ => run_bitset_intersection false a1 a2
  | CArr l1, CRun r2 => new (CArr (array_run_container_intersection l1 r2))
  | CRun r1, CArr l2 => new (CArr (array_run_container_intersection l2 r1))
  end.

(** ** Union *)
(** mixed_union.c:162-191 array_array_container_union *)
Definition array_array_or (s1 s2 : nat) : M nat :=
  l1 <- rdA s1 ;; l2 <- rdA s2 ;;
  if zlen l1 + zlen l2 <=? 4096 then new (CArr (array_container_union l1 l2))
  else ours <- new (CBit (array_array_bitset_union l1 l2)) ;; settle ours.
(** containers.h:991-1085 container_or *)
Definition container_or_mem (a1 a2 : nat) : M nat :=
  c1 <- rd a1 ;; c2 <- rd a2 ;;
  match c1, c2 with
  | CBit b1, CBit b2 => new (CBit (bitset_container_or b1 b2))
  | CArr _, CArr _ => array_array_or a1 a2
  | CRun r1, CRun r2 => result <- new (CRun (run_container_union r1 r2)) ;; convert_run_and_free result
  | CBit b1, CArr l2 => new (CBit (array_bitset_container_union l2 b1))
  | CArr l1, CBit b2 => new (CBit (array_bitset_container_union l1 b2))
  | CBit b1, CRun r2 => if run_container_is_full r2 then new (CRun r2) else new (CBit (run_bitset_container_union r2 b1))
  | CRun r1, CBit b2 => if run_container_is_full r1 then new (CRun r1) else new (CBit (run_bitset_container_union r1 b2))
  | CArr l1, CRun r2 => result <- new (CRun (array_run_container_union l1 r2)) ;; convert_run_and_free result
  | CRun r1, CArr l2 => result <- new (CRun (array_run_container_union l2 r1)) ;; convert_run_and_free result
  end.

(** ** Symmetric difference *)
(** mixed_xor.c:260-274 *)
Definition bitset_bitset_xor (s1 s2 : nat) : M nat :=
  b1 <- rdB s1 ;; b2 <- rdB s2 ;; ans <- new (CBit (bitset_container_xor b1 b2)) ;; settle ans.
(** containers.h:1432-1507 container_xor *)
Definition container_xor_mem (a1 a2 : nat) : M nat :=
  c1 <- rd a1 ;; c2 <- rd a2 ;;
  match c1, c2 with
  | CBit _, CBit _ => bitset_bitset_xor a1 a2
  | CArr _, CArr _ => array_array_xor a1 a2
  | CRun _, CRun _ => run_run_xor a1 a2
  | CBit _, CArr _ => array_bitset_xor a2 a1
  | CArr _, CBit _ => array_bitset_xor a1 a2
  | CBit _, CRun _ => run_bitset_xor a2 a1
  | CRun _, CBit _ => run_bitset_xor a1 a2
  | CArr _, CRun _ => array_run_xor a1 a2
  | CRun _, CArr _ => array_run_xor a2 a1
  end.

(** ** Difference *)
(** mixed_andnot.c:480-494 *)
Definition bitset_bitset_andnot (s1 s2 : nat) : M nat :=
  b1 <- rdB s1 ;; b2 <- rdB s2 ;; ans <- new (CBit (bitset_container_andnot b1 b2)) ;; settle ans.
(** mixed_andnot.c:54-73: a copy of the bitset is changed *)
Definition bitset_array_andnot (s1 s2 : nat) : M nat :=
  b1 <- rdB s1 ;; l2 <- rdA s2 ;; result <- new (CBit b1) ;;
  let '(ws, card) := bitset_clear_list (b_words b1) (b_card b1) l2 in
  _ <- wr result (CBit (card, ws)) ;; settle result.
(** mixed_andnot.c:175-196 *)
Definition bitset_run_andnot (s1 s2 : nat) : M nat :=
  b1 <- rdB s1 ;; r2 <- rdR s2 ;; result <- new (CBit b1) ;;
  let ws := reset_runs (b_words b1) r2 in
  _ <- wr result (CBit (bitset_container_compute_cardinality ws, ws)) ;; settle result.
(** containers.h:1766-1857 container_andnot *)
Definition container_andnot_mem (a1 a2 : nat) : M nat :=
  c1 <- rd a1 ;; c2 <- rd a2 ;;
  match c1, c2 with
  | CBit _, CBit _ => bitset_bitset_andnot a1 a2
  | CArr l1, CArr l2 => new (CArr (array_array_container_andnot l1 l2))
  | CRun _, CRun r2 => if run_container_is_full r2 then new (CArr []) else run_run_andnot a1 a2
  | CBit _, CArr _ => bitset_array_andnot a1 a2
  | CArr l1, CBit b2 => new (CArr (array_bitset_container_andnot l1 b2))
  | CBit _, CRun r2 => if run_container_is_full r2 then new (CArr []) else bitset_run_andnot a1 a2
  | CRun _, CBit _ => run_bitset_andnot a1 a2
  | CArr l1, CRun r2 => if run_container_is_full r2 then new (CArr []) else new (CArr (array_run_container_andnot l1 r2))
  | CRun _, CArr _ => run_array_andnot a1 a2
  end.

(** ** Complement *)
(** mixed_negation.c:182-203 bitset_container_negation_range *)
Definition bitset_not_range (s : nat) (lo hi : Z) : M nat :=
  b <- rdB s ;; t <- new (CBit b) ;;
  let ws := bitset_flip_range (b_words b) lo hi in
  _ <- wr t (CBit (bitset_container_compute_cardinality ws, ws)) ;; settle t.
(** containers.h:1992-2020 container_not; 2022-2056 container_not_range; the answer for an
    array is created in its final type (mixed_negation.c:78-140) *)
Definition container_not_mem (a : nat) : M nat :=
  c <- rd a ;;
  match c with
  | CBit _ => bitset_not_range a 0 65536
  | CArr l => new (CBit (array_container_negation l))
  | CRun _ => run_not_range a 0 65536
  end.
Definition container_not_range_mem (a : nat) (lo hi : Z) : M nat :=
  c <- rd a ;;
  match c with
  | CBit _ => bitset_not_range a lo hi
  | CArr l => new (array_container_negation_range l lo hi)
  | CRun _ => run_not_range a lo hi
  end.

(** ** What roaring.c does with the answer for one key *)
(** roaring.c:718-727 and, 1019-1025 xor, 1191-1198 andnot: an empty answer is freed; 866-873 or *)
Definition new_and (_ : Z) (a1 a2 : nat) : M (option nat) := d <- container_and_mem a1 a2 ;; keep_nonzero d.
Definition new_or (_ : Z) (a1 a2 : nat) : M (option nat) := d <- container_or_mem a1 a2 ;; ret (Some d).
Definition new_xor (_ : Z) (a1 a2 : nat) : M (option nat) := d <- container_xor_mem a1 a2 ;; keep_nonzero d.
Definition new_andnot (_ : Z) (a1 a2 : nat) : M (option nat) := d <- container_andnot_mem a1 a2 ;; keep_nonzero d.
(** roaring.c:1909-1935 insert_flipped_container, 1964-1988 insert_fully_flipped_container *)
Definition new_flip_part (lo hi : Z) (a : nat) : M (option nat) := d <- container_not_range_mem a lo hi ;; keep_card d.
Definition new_flip_full (a : nat) : M (option nat) := d <- container_not_mem a ;; keep_card d.

(** ** The contracts: the operands stay, one container comes into being or none *)
Definition fresh (h : heap) (f : option container) (h' : heap) (o : option nat) : Prop := post h [] (ohs o) h' /\ oval h' o f.
Definition new1_ok (f : container -> option container) (act : nat -> M (option nat)) : Prop :=
  forall h a c, wfh h -> ce h a = Some c -> wp (act a) h (fresh h (f c)).
Definition new2_ok (f : Z -> container -> container -> option container) (act : Z -> nat -> nat -> M (option nat)) : Prop :=
  forall k h a1 a2 c1 c2, wfh h -> ce h a1 = Some c1 -> ce h a2 = Some c2 -> wp (act k a1 a2) h (fresh h (f k c1 c2)).
Lemma keep_new_wp (t : container -> bool) h h1 d c : wfh h -> made h [] c h1 d ->
  wp (c <- rd d ;; if t c then ret (Some d) else _ <- fr d ;; ret None) h1 (fresh h (if t c then Some c else None)).
Proof.
  intros W0 X. bnd. pose proof X as [P V]. eapply wp_rd; [exact V|]. destruct (t c).
  - apply wp_ret. split; [exact P|exact V].
  - bnd. eapply wp_mono; [apply (free_made h [] h1 d c X); auto; intros x []|]. intros h2 [] P2. apply wp_ret. split; [exact P2|exact I].
Qed.
Lemma keep_nonzero_new h h1 d c : wfh h -> made h [] c h1 d -> wp (keep_nonzero d) h1 (fresh h (nonzero c)).
Proof. intros. unfold keep_nonzero, nonzero. eapply (keep_new_wp container_nonzero_cardinality); eauto. Qed.
Lemma keep_card_new h h1 d c : wfh h -> made h [] c h1 d -> wp (keep_card d) h1 (fresh h (card_some c)).
Proof. intros. unfold keep_card, card_some. eapply (keep_new_wp (fun c => negb (container_get_cardinality c =? 0))); eauto. Qed.
(** a bitset is made and settled *)
Lemma new_settle1 n f b : wfh (H n f) -> wp (x <- new (CBit b) ;; settle x) (H n f) (made (H n f) [] (bitset_or_array b)).
Proof. intros W. apply (wp_new_then n f (CBit b) settle); auto. apply settle_wp; [now apply wfh_new|cbn [ce]; apply upd_same]. Qed.

Lemma and_wp h a1 a2 c1 c2 : wfh h -> ce h a1 = Some c1 -> ce h a2 = Some c2 -> wp (container_and_mem a1 a2) h (made h [] (container_and c1 c2)).
Proof.
  intros W E1 E2. unfold container_and_mem, container_and. bnd. eapply wp_rd; [exact E1|]. bnd. eapply wp_rd; [exact E2|].
  destruct c1 as [l1|b1|r1], c2 as [l2|b2|r2].
  - hp h. now apply new_wp.
  - hp h. now apply new_wp.
  - hp h. now apply new_wp.
  - hp h. now apply new_wp.
  - unfold bitset_bitset_and, bitset_bitset_container_intersection. bnd. eapply wp_rdB; [exact E1|]. bnd. eapply wp_rdB; [exact E2|]. hp h. cbv zeta.
    destruct (4096 <? bitset_container_and_justcard b1 b2); now apply new_wp.
  - now apply rb_and_new_wp.
  - hp h. now apply new_wp.
  - now apply rb_and_new_wp.
  - hp h. now apply new_convert.
Qed.
Lemma or_wp h a1 a2 c1 c2 : wfh h -> ce h a1 = Some c1 -> ce h a2 = Some c2 -> wp (container_or_mem a1 a2) h (made h [] (container_or c1 c2)).
Proof.
  intros W E1 E2. unfold container_or_mem, container_or. bnd. eapply wp_rd; [exact E1|]. bnd. eapply wp_rd; [exact E2|].
  destruct c1 as [l1|b1|r1], c2 as [l2|b2|r2].
  - unfold array_array_or, array_array_container_union. bnd. eapply wp_rdA; [exact E1|]. bnd. eapply wp_rdA; [exact E2|]. hp h.
    destruct (zlen l1 + zlen l2 <=? 4096); [now apply new_wp|now apply new_settle1].
  - hp h. now apply new_wp.
  - hp h. now apply new_convert.
  - hp h. now apply new_wp.
  - hp h. now apply new_wp.
  - hp h. destruct (run_container_is_full r2); now apply new_wp.
  - hp h. now apply new_convert.
  - hp h. destruct (run_container_is_full r1); now apply new_wp.
  - hp h. now apply new_convert.
Qed.
Lemma xor_wp h a1 a2 c1 c2 : wfh h -> ce h a1 = Some c1 -> ce h a2 = Some c2 -> wp (container_xor_mem a1 a2) h (made h [] (container_xor c1 c2)).
Proof.
  intros W E1 E2. unfold container_xor_mem, container_xor. bnd. eapply wp_rd; [exact E1|]. bnd. eapply wp_rd; [exact E2|].
  destruct c1 as [l1|b1|r1], c2 as [l2|b2|r2].
  - now apply aa_xor_wp.
  - now apply ab_xor_wp.
  - now apply ar_xor_wp.
  - now apply ab_xor_wp.
  - unfold bitset_bitset_xor, bitset_bitset_container_xor. bnd. eapply wp_rdB; [exact E1|]. bnd. eapply wp_rdB; [exact E2|]. hp h. now apply new_settle1.
  - now apply rb_xor_wp.
  - now apply ar_xor_wp.
  - now apply rb_xor_wp.
  - now apply rr_xor_wp.
Qed.
Lemma andnot_wp h a1 a2 c1 c2 : wfh h -> ce h a1 = Some c1 -> ce h a2 = Some c2 -> wp (container_andnot_mem a1 a2) h (made h [] (container_andnot c1 c2)).
Proof.
  intros W E1 E2. unfold container_andnot_mem, container_andnot. bnd. eapply wp_rd; [exact E1|]. bnd. eapply wp_rd; [exact E2|].
  destruct c1 as [l1|b1|r1], c2 as [l2|b2|r2].
  - hp h. now apply new_wp.
  - hp h. now apply new_wp.
  - hp h. destruct (run_container_is_full r2); now apply new_wp.
  - unfold bitset_array_andnot, bitset_array_container_andnot. bnd. eapply wp_rdB; [exact E1|]. bnd. eapply wp_rdA; [exact E2|]. hp h.
    destruct (bitset_clear_list (b_words b1) (b_card b1) l2) as [ws card]. now apply new_settle.
  - unfold bitset_bitset_andnot, bitset_bitset_container_andnot. bnd. eapply wp_rdB; [exact E1|]. bnd. eapply wp_rdB; [exact E2|]. hp h. now apply new_settle1.
  - destruct (run_container_is_full r2); [hp h; now apply new_wp|].
    unfold bitset_run_andnot, bitset_run_container_andnot. bnd. eapply wp_rdB; [exact E1|]. bnd. eapply wp_rdR; [exact E2|]. hp h. now apply new_settle.
  - now apply ra_andnot_wp.
  - now apply rb_andnot_wp.
  - destruct (run_container_is_full r2); [hp h; now apply new_wp|]. now apply rr_andnot_wp.
Qed.
Lemma bitset_not_wp h a b lo hi : wfh h -> ce h a = Some (CBit b) -> wp (bitset_not_range a lo hi) h (made h [] (bitset_container_negation_range b lo hi)).
Proof. intros W E. unfold bitset_not_range, bitset_container_negation_range. bnd. eapply wp_rdB; [exact E|]. hp h. now apply new_settle. Qed.
Lemma not_range_wp h a c lo hi : wfh h -> ce h a = Some c -> wp (container_not_range_mem a lo hi) h (made h [] (container_not_range c lo hi)).
Proof.
  intros W E. unfold container_not_range_mem, container_not_range. bnd. eapply wp_rd; [exact E|]. destruct c as [l|b|r].
  - hp h. now apply new_wp.
  - now apply bitset_not_wp.
  - now apply run_not_wp.
Qed.
Lemma not_wp h a c : wfh h -> ce h a = Some c -> wp (container_not_mem a) h (made h [] (container_not c)).
Proof.
  intros W E. unfold container_not_mem, container_not. bnd. eapply wp_rd; [exact E|]. destruct c as [l|b|r].
  - hp h. now apply new_wp.
  - unfold bitset_container_negation. generalize 65536. intros t. now apply bitset_not_wp.
  - unfold run_container_negation. generalize 65536. intros t. now apply run_not_wp.
Qed.
Lemma new_and_ok : new2_ok (fun _ c1 c2 => nonzero (container_and c1 c2)) new_and.
Proof. intros k h a1 a2 c1 c2 W E1 E2. unfold new_and. bnd. eapply wp_mono; [apply (and_wp h a1 a2 c1 c2); auto|]. intros h1 d X. now apply keep_nonzero_new. Qed.
Lemma new_or_ok : new2_ok (fun _ c1 c2 => Some (container_or c1 c2)) new_or.
Proof. intros k h a1 a2 c1 c2 W E1 E2. unfold new_or. bnd. eapply wp_mono; [apply (or_wp h a1 a2 c1 c2); auto|]. intros h1 d [P V]. apply wp_ret. split; [exact P|exact V]. Qed.
Lemma new_xor_ok : new2_ok (fun _ c1 c2 => nonzero (container_xor c1 c2)) new_xor.
Proof. intros k h a1 a2 c1 c2 W E1 E2. unfold new_xor. bnd. eapply wp_mono; [apply (xor_wp h a1 a2 c1 c2); auto|]. intros h1 d X. now apply keep_nonzero_new. Qed.
Lemma new_andnot_ok : new2_ok (fun _ c1 c2 => nonzero (container_andnot c1 c2)) new_andnot.
Proof. intros k h a1 a2 c1 c2 W E1 E2. unfold new_andnot. bnd. eapply wp_mono; [apply (andnot_wp h a1 a2 c1 c2); auto|]. intros h1 d X. now apply keep_nonzero_new. Qed.
Lemma new_flip_part_ok lo hi : new1_ok (fun c => card_some (container_not_range c lo hi)) (new_flip_part lo hi).
Proof. intros h a c W E. unfold new_flip_part. bnd. eapply wp_mono; [apply (not_range_wp h a c); auto|]. intros h1 d X. now apply keep_card_new. Qed.
Lemma new_flip_full_ok : new1_ok (fun c => card_some (container_not c)) new_flip_full.
Proof. intros h a c W E. unfold new_flip_full. bnd. eapply wp_mono; [apply (not_wp h a c); auto|]. intros h1 d X. now apply keep_card_new. Qed.
