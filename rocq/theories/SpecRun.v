(** SpecRun: what a block of memory with runs stands for.  Nothing here refers to the model.

    A block is a list of cells; a cell holds a pair (first value, length - 1) or was never
    written.  Its first [n] cells describe a set of 16-bit values. *)
From Coq Require Import ZArith List Bool Lia.
From Verif Require Import Spec.
Import ListNotations.
Local Open Scope Z_scope.

(** [x] lies in one of the runs *)
Definition covered (l : list (Z * Z)) (x : Z) : Prop := exists v n, In (v, n) l /\ v <= x <= v + n.
(** runs of 16-bit values, ascending, with a gap between one run and the next *)
Definition normal (l : list (Z * Z)) : Prop :=
  (forall v n, In (v, n) l -> 0 <= v /\ 0 <= n /\ v + n < 65536) /\
  (forall A v n v' n' B, l = A ++ (v, n) :: (v', n') :: B -> v + n + 1 < v').
(** the first [n] cells were written, are in normal form and describe [P] *)
Definition block_of (cells : list (option (Z * Z))) (n : Z) (P : zset) : Prop :=
  exists l, Z.of_nat (length l) = n /\ firstn (length l) cells = map Some l /\ normal l /\
    forall x, 0 <= x < 65536 -> (P x = true <-> covered l x).
(** an array of 16-bit values, ascending *)
Definition array_of (a : list Z) (P : zset) : Prop :=
  (forall A x y B, a = A ++ x :: y :: B -> x < y) /\ (forall x, In x a -> 0 <= x < 65536) /\
  forall x, 0 <= x < 65536 -> (P x = true <-> In x a).
(** 1024 words of 64 bits *)
Definition words_of (w : list Z) (P : zset) : Prop :=
  length w = Z.to_nat 1024 /\ (forall x, In x w -> 0 <= x < 2 ^ 64) /\
  forall x, 0 <= x < 65536 -> P x = Z.testbit (nth (Z.to_nat (x / 64)) w 0) (x mod 64).
Definition inhabited (P : zset) : Prop := exists x, 0 <= x < 65536 /\ P x = true.
