(** DerivedK: the scalar operations on two bitset containers, word by word. *)
From Coq Require Import ZArith List Bool Lia.
From Verif Require Import Base BitUtil BitsetC.
Import ListNotations.
Local Open Scope Z_scope.
Local Opaque zr.

(** 1024 words of 64 bits *)
Definition words1024 (l : list Z) : Prop := length l = Z.to_nat 1024 /\ Forall (fun w => 0 <= w < 2 ^ 64) l.
(** bit [x] of such an array *)
Definition bit_at (l : list Z) (x : Z) : bool := Z.testbit (nth (Z.to_nat (x / 64)) l 0) (x mod 64).
Definition bits16 : list Z := map Z.of_nat (seq 0 (Z.to_nat 65536)).
Definition how_many (P : Z -> bool) : Z := Z.of_nat (length (filter P bits16)).

Lemma words_bws l : words1024 l -> bws l.
Proof. intros [A B]. split; [exact B|]. unfold zlen. rewrite A. reflexivity. Qed.
Lemma bws_words l : bws l -> words1024 l.
Proof. intros [A B]. split; [|exact A]. unfold zlen in B. lia. Qed.
Lemma zrange_seq lo n : zrange lo n = map (fun i => lo + Z.of_nat i) (seq 0 n).
Proof.
  revert lo. induction n; intros lo; [reflexivity|]. cbn [zrange seq map]. f_equal; [lia|]. rewrite IHn, <- seq_shift, map_map. apply map_ext. intros i. lia.
Qed.
Lemma zr_seq n : 0 <= n -> map Z.of_nat (seq 0 (Z.to_nat n)) = zr 0 n.
Proof.
  intros H. with_strategy transparent [zr] unfold zr. rewrite Z.sub_0_r, zrange_seq. apply map_ext. intros i. lia.
Qed.
Lemma how_many_cnt P : how_many P = cnt P 0 65536.
Proof. unfold how_many, cnt, bits16, zlen. rewrite (zr_seq 65536) by lia. exact eq_refl. Qed.
Lemma k_words f g b1 b2 : wordop f g -> words1024 (b_words b1) -> words1024 (b_words b2) ->
  words1024 (b_words (bitset_op f b1 b2)) /\
  (forall x, 0 <= x < 65536 -> bit_at (b_words (bitset_op f b1 b2)) x = g (bit_at (b_words b1) x) (bit_at (b_words b2) x)) /\
  b_card (bitset_op f b1 b2) = how_many (fun x => g (bit_at (b_words b1) x) (bit_at (b_words b2) x)) /\
  bitset_op_justcard f b1 b2 = how_many (fun x => g (bit_at (b_words b1) x) (bit_at (b_words b2) x)).
Proof.
  intros W A B. apply words_bws in A, B. destruct (bitset_op_spec f g b1 b2 W A B) as [[W1 C] M]. split; [now apply bws_words|]. split; [exact M|].
  rewrite how_many_cnt. split; [|exact (bitset_op_justcard_spec f g b1 b2 W A B)]. rewrite C. unfold bcard. now apply cnt_ext.
Qed.
Definition word_claim (op : bset -> bset -> bset) (just : bset -> bset -> Z) (g : bool -> bool -> bool) : Prop :=
  forall b1 b2, words1024 (b_words b1) -> words1024 (b_words b2) ->
  words1024 (b_words (op b1 b2)) /\
  (forall x, 0 <= x < 65536 -> bit_at (b_words (op b1 b2)) x = g (bit_at (b_words b1) x) (bit_at (b_words b2) x)) /\
  b_card (op b1 b2) = how_many (fun x => g (bit_at (b_words b1) x) (bit_at (b_words b2) x)) /\
  just b1 b2 = how_many (fun x => g (bit_at (b_words b1) x) (bit_at (b_words b2) x)).
Lemma k_all : word_claim bitset_container_or bitset_container_or_justcard orb /\ word_claim bitset_container_and bitset_container_and_justcard andb /\
  word_claim bitset_container_xor bitset_container_xor_justcard xorb /\ word_claim bitset_container_andnot bitset_container_andnot_justcard (fun a b => a && negb b).
Proof.
  repeat match goal with |- _ /\ _ => split end; intros b1 b2 A B.
  - exact (k_words _ _ b1 b2 wordop_or A B).
  - exact (k_words _ _ b1 b2 wordop_and A B).
  - exact (k_words _ _ b1 b2 wordop_xor A B).
  - exact (k_words _ _ b1 b2 wordop_andn A B).
Qed.
