(** SpecB: vocabulary for uncompressed bitsets.  A bitset is a finite set of
    positions (non-negative numbers).  Nothing here refers to the model. *)
From Coq Require Import ZArith List Bool Lia Sorting.Sorted.
From Verif Require Import Spec.
Import ListNotations.
Local Open Scope Z_scope.

(** positions that fit: the array has at most SIZE_MAX / 64 words *)
Definition pos (i : Z) : Prop := 0 <= i < 2^64 - 64.
(** the sorted list of the members *)
Definition positions (P : zset) (l : list Z) : Prop := StronglySorted Z.lt l /\ forall v, In v l <-> 0 <= v /\ P v = true.
Definition pcard (P : zset) (n : Z) : Prop := exists l, positions P l /\ n = Z.of_nat (length l).
Definition least (P : zset) (m : Z) : Prop := 0 <= m /\ P m = true /\ forall v, 0 <= v -> P v = true -> m <= v.
Definition greatest (P : zset) (m : Z) : Prop := 0 <= m /\ P m = true /\ forall v, 0 <= v -> P v = true -> v <= m.
Definition none (P : zset) : Prop := forall v, 0 <= v -> P v = false.

Inductive bcmd : Type :=
| BNew (d : nat) | BNewCapacity (d : nat) (bits : Z) | BCopy (d s : nat)
| BSet (d : nat) (i : Z) | BPut (d : nat) (i : Z) (flag : bool) | BClear (d : nat) | BTrim (d : nat)
| BUnion (d s : nat) | BInter (d s : nat) | BDiff (d s : nat) | BSymm (d s : nat)
| BGet (s : nat) (i : Z) | BCount (s : nat) | BEmpty (s : nat) | BMin (s : nat) | BMax (s : nat)
| BDisjoint (s t : nat) | BIntersect (s t : nat) | BContainsAll (s t : nat)
| BUnionCount (s t : nat) | BInterCount (s t : nat) | BDiffCount (s t : nat) | BSymmCount (s t : nat)
| BNext (s : nat) (i : Z) | BNextMany (s : nat) (capacity i : Z).
Definition bspec_step (c : bcmd) (S : regs) : regs :=
  match c with
  | BNew d | BNewCapacity d _ | BClear d => put S d zempty
  | BCopy d s => put S d (S s)
  | BSet d i => put S d (zadd (S d) i)
  | BPut d i flag => put S d (if flag then zadd (S d) i else zdel (S d) i)
  | BUnion d s => put S d (zunion (S d) (S s))
  | BInter d s => put S d (zinter (S d) (S s))
  | BDiff d s => put S d (zdiff (S d) (S s))
  | BSymm d s => put S d (zsymm (S d) (S s))
  | _ => S
  end.
Definition bspec_out (c : bcmd) (S : regs) (o : out) : Prop :=
  match c with
  | BGet s i => o = RBool (S s i)
  | BCount s => exists n, o = RNum n /\ pcard (S s) n
  | BEmpty s => exists r, o = RBool r /\ (r = true <-> none (S s))
  | BMin s => exists n, o = RNum n /\ (least (S s) n \/ none (S s) /\ n = 2^64 - 1)
  | BMax s => exists n, o = RNum n /\ (greatest (S s) n \/ none (S s) /\ n = 0)
  | BDisjoint s t => exists r, o = RBool r /\ (r = true <-> none (zinter (S s) (S t)))
  | BIntersect s t => exists r, o = RBool r /\ (r = true <-> exists v, 0 <= v /\ S s v = true /\ S t v = true)
  | BContainsAll s t => exists r, o = RBool r /\ (r = true <-> forall v, 0 <= v -> S t v = true -> S s v = true)
  | BUnionCount s t => exists n, o = RNum n /\ pcard (zunion (S s) (S t)) n
  | BInterCount s t => exists n, o = RNum n /\ pcard (zinter (S s) (S t)) n
  | BDiffCount s t => exists n, o = RNum n /\ pcard (zdiff (S s) (S t)) n
  | BSymmCount s t => exists n, o = RNum n /\ pcard (zsymm (S s) (S t)) n
  | BNext s i => exists r, o = ROpt r /\ match r with Some m => i <= m /\ S s m = true /\ (forall v, i <= v < m -> S s v = false) | None => forall v, i <= v -> S s v = false end
  | BNextMany s capacity i => exists l rest, o = RList l /\ positions (fun v => (i <=? v) && S s v) (l ++ rest) /\ (rest = [] \/ Z.of_nat (length l) = capacity)
  | _ => o = RNone
  end.
(** two-operand updates declare the operands distinct ([restrict]) *)
Definition bcmd_ok (c : bcmd) : Prop :=
  match c with
  | BNewCapacity _ bits => 0 <= bits <= 2^64 - 128
  | BSet _ i | BPut _ i _ => pos i
  | BGet _ i | BNext _ i => 0 <= i
  | BNextMany _ capacity i => 0 <= capacity /\ 0 <= i
  | BUnion d s | BInter d s | BDiff d s | BSymm d s => d <> s
  | _ => True
  end.
Fixpoint bspec_run (tr : list bcmd) (S : regs) : regs :=
  match tr with [] => S | c :: tr' => bspec_run tr' (bspec_step c S) end.
Fixpoint bagrees (tr : list bcmd) (S : regs) (outs : list out) : Prop :=
  match tr, outs with
  | [], [] => True
  | c :: tr', o :: outs' => bspec_out c S o /\ bagrees tr' (bspec_step c S) outs'
  | _, _ => False
  end.
Definition empty_bregs : regs := fun _ => zempty.
