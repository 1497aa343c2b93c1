(** Spec: vocabulary of the property statements.  A set of 32-bit values is a
    boolean predicate on Z, only looked at on [0, 2^32).  Nothing in this file
    refers to the model of the code. *)
From Coq Require Import ZArith List Bool Lia Sorting.Sorted.
Import ListNotations.
Local Open Scope Z_scope.

Definition val32 (v : Z) : Prop := 0 <= v < 2^32.
Definition zset := Z -> bool.
(** same members *)
Definition same_set (P Q : zset) : Prop := forall v, val32 v -> P v = Q v.
(** [l] enumerates the members in increasing order *)
Definition lists (P : zset) (l : list Z) : Prop :=
  StronglySorted Z.lt l /\ forall v, In v l <-> val32 v /\ P v = true.
(** the set has [n] members *)
Definition has_card (P : zset) (n : Z) : Prop := exists l, lists P l /\ n = Z.of_nat (length l).
Definition zunion (P Q : zset) : zset := fun v => P v || Q v.
Definition zinter (P Q : zset) : zset := fun v => P v && Q v.
Definition zdiff (P Q : zset) : zset := fun v => P v && negb (Q v).
Definition zsymm (P Q : zset) : zset := fun v => xorb (P v) (Q v).
Definition zempty : zset := fun _ => false.
Definition zadd (P : zset) (x : Z) : zset := fun v => P v || (v =? x).
Definition zdel (P : zset) (x : Z) : zset := fun v => P v && negb (v =? x).
Definition zlist (l : list Z) : zset := fun v => existsb (Z.eqb v) l.
(** the interval [a, b) *)
Definition zival (a b : Z) : zset := fun v => (a <=? v) && (v <? b).
(** {a, a+s, a+2s, ...} below b *)
Definition zprog (a b s : Z) : zset := fun v => (a <=? v) && (v <? b) && ((v - a) mod s =? 0).
Definition zshift (P : zset) (d : Z) : zset := fun v => P (v - d).
Definition zfull : zset := fun _ => true.
(** restriction to the 32-bit universe *)
Definition in32 (P : zset) : zset := fun v => (0 <=? v) && (v <? 2^32) && P v.
Definition zsubset (P Q : zset) : Prop := forall v, val32 v -> P v = true -> Q v = true.

(** ** A machine with registers holding sets *)
Inductive cmd : Type :=
(* construction *)
| KNew (d : nat) | KOf (d : nat) (vals : list Z) | KFromRange (d : nat) (lo hi step : Z) | KCopy (d s : nat)
(* updates of one set *)
| KAdd (d : nat) (v : Z) | KAddChecked (d : nat) (v : Z) | KRemove (d : nat) (v : Z) | KRemoveChecked (d : nat) (v : Z)
| KAddMany (d : nat) (vals : list Z) | KRemoveMany (d : nat) (vals : list Z)
| KAddRange (d : nat) (a b : Z) | KAddRangeClosed (d : nat) (a b : Z)
| KRemoveRange (d : nat) (a b : Z) | KRemoveRangeClosed (d : nat) (a b : Z)
| KFlipInplace (d : nat) (a b : Z) | KFlipInplaceClosed (d : nat) (a b : Z)
| KClear (d : nat) | KRunOptimize (d : nat) | KRemoveRunCompression (d : nat)
(* results in a new set *)
| KFlip (d s : nat) (a b : Z) | KFlipClosed (d s : nat) (a b : Z)
| KAnd (d s t : nat) | KOr (d s t : nat) | KXor (d s t : nat) | KAndnot (d s t : nat)
| KOrMany (d : nat) (ss : list nat) | KOrManyHeap (d : nat) (ss : list nat) | KXorMany (d : nat) (ss : list nat) | KAddOffset (d s : nat) (o : Z)
(* s written out in a serialization format and read back into d *)
| KReloadPortable (d s : nat) | KReloadNative (d s : nat)
(* d := d op s *)
| KAndInplace (d s : nat) | KOrInplace (d s : nat) | KXorInplace (d s : nat) | KAndnotInplace (d s : nat)
(* queries *)
| QContains (s : nat) (v : Z) | QContainsRange (s : nat) (a b : Z) | QCardinality (s : nat) | QRangeCardinality (s : nat) (a b : Z)
| QIsEmpty (s : nat) | QEquals (s t : nat) | QSubset (s t : nat) | QStrictSubset (s t : nat) | QIntersect (s t : nat)
| QAndCardinality (s t : nat) | QOrCardinality (s t : nat) | QXorCardinality (s t : nat) | QAndnotCardinality (s t : nat)
| QRank (s : nat) (v : Z) | QGetIndex (s : nat) (v : Z) | QSelect (s : nat) (k : Z)
| QMinimum (s : nat) | QMaximum (s : nat) | QToArray (s : nat) | QValidate (s : nat).
Inductive out : Type := RNone | RBool (b : bool) | RNum (z : Z) | ROpt (o : option Z) | RList (l : list Z).

Definition regs := nat -> zset.
Definition put {A} (S : nat -> A) (d : nat) (P : A) : nat -> A := fun i => if Nat.eqb i d then P else S i.
(** effect of a command on the sets *)
Definition spec_step (c : cmd) (S : regs) : regs :=
  match c with
  | KNew d | KClear d => put S d zempty
  | KOf d vals => put S d (zlist vals)
  | KFromRange d lo hi step => put S d (zprog lo (Z.min hi (2^32)) step)
  | KCopy d s | KReloadPortable d s | KReloadNative d s => put S d (S s)
  | KAdd d v | KAddChecked d v => put S d (zadd (S d) v)
  | KRemove d v | KRemoveChecked d v => put S d (zdel (S d) v)
  | KAddMany d vals => put S d (zunion (S d) (zlist vals))
  | KRemoveMany d vals => put S d (zdiff (S d) (zlist vals))
  | KAddRange d a b => put S d (zunion (S d) (zival a b))
  | KAddRangeClosed d a b => put S d (zunion (S d) (zival a (b + 1)))
  | KRemoveRange d a b => put S d (zdiff (S d) (zival a b))
  | KRemoveRangeClosed d a b => put S d (zdiff (S d) (zival a (b + 1)))
  | KFlipInplace d a b => put S d (zsymm (S d) (zival a b))
  | KFlipInplaceClosed d a b => put S d (zsymm (S d) (zival a (b + 1)))
  | KFlip d s a b => put S d (zsymm (S s) (zival a b))
  | KFlipClosed d s a b => put S d (zsymm (S s) (zival a (b + 1)))
  | KAnd d s t => put S d (zinter (S s) (S t))
  | KOr d s t => put S d (zunion (S s) (S t))
  | KXor d s t => put S d (zsymm (S s) (S t))
  | KAndnot d s t => put S d (zdiff (S s) (S t))
  | KOrMany d ss | KOrManyHeap d ss => put S d (fun v => existsb (fun s => S s v) ss)
  | KXorMany d ss => put S d (fun v => fold_left (fun b s => xorb b (S s v)) ss false)
  | KAddOffset d s o => put S d (zshift (in32 (S s)) o)
  | KAndInplace d s => put S d (zinter (S d) (S s))
  | KOrInplace d s => put S d (zunion (S d) (S s))
  | KXorInplace d s => put S d (zsymm (S d) (S s))
  | KAndnotInplace d s => put S d (zdiff (S d) (S s))
  | _ => S
  end.
(** what a command may answer *)
Definition spec_out (c : cmd) (S : regs) (o : out) : Prop :=
  match c with
  | KAddChecked d v => o = RBool (negb (S d v))
  | KRemoveChecked d v => o = RBool (S d v)
  | KRunOptimize _ | KRemoveRunCompression _ => exists b, o = RBool b
  | QContains s v => o = RBool (S s v)
  | QContainsRange s a b => exists r, o = RBool r /\ (r = true <-> forall v, a <= v < b -> S s v = true)
  | QCardinality s => exists n, o = RNum n /\ has_card (S s) n
  | QRangeCardinality s a b => exists n, o = RNum n /\ has_card (zinter (S s) (zival a b)) n
  | QIsEmpty s => exists r, o = RBool r /\ (r = true <-> same_set (S s) zempty)
  | QEquals s t => exists r, o = RBool r /\ (r = true <-> same_set (S s) (S t))
  | QSubset s t => exists r, o = RBool r /\ (r = true <-> zsubset (S s) (S t))
  | QStrictSubset s t => exists r, o = RBool r /\ (r = true <-> zsubset (S s) (S t) /\ ~ zsubset (S t) (S s))
  | QIntersect s t => exists r, o = RBool r /\ (r = true <-> exists v, val32 v /\ S s v = true /\ S t v = true)
  | QAndCardinality s t => exists n, o = RNum n /\ has_card (zinter (S s) (S t)) n
  | QOrCardinality s t => exists n, o = RNum n /\ has_card (zunion (S s) (S t)) n
  | QXorCardinality s t => exists n, o = RNum n /\ has_card (zsymm (S s) (S t)) n
  | QAndnotCardinality s t => exists n, o = RNum n /\ has_card (zdiff (S s) (S t)) n
  | QRank s v => exists n, o = RNum n /\ has_card (zinter (S s) (zival 0 (v + 1))) n
  | QGetIndex s v => exists n, o = RNum n /\ (if S s v then has_card (zinter (S s) (zival 0 v)) n else n = -1)
  | QSelect s k => exists r, o = ROpt r /\
      match r with
      | Some v => val32 v /\ S s v = true /\ has_card (zinter (S s) (zival 0 v)) k
      | None => forall n, has_card (S s) n -> n <= k
      end
  | QMinimum s => exists n, o = RNum n /\
      ((val32 n /\ S s n = true /\ forall v, val32 v -> S s v = true -> n <= v) \/ (same_set (S s) zempty /\ n = 2^32 - 1))
  | QMaximum s => exists n, o = RNum n /\
      ((val32 n /\ S s n = true /\ forall v, val32 v -> S s v = true -> v <= n) \/ (same_set (S s) zempty /\ n = 0))
  | QToArray s => exists l, o = RList l /\ lists (S s) l
  | QValidate s => o = RBool true
  | _ => o = RNone
  end.
(** the arguments for which the behaviour is specified *)
Definition cmd_ok (c : cmd) (S : regs) : Prop :=
  match c with
  | KOf _ vals | KAddMany _ vals | KRemoveMany _ vals => forall v, In v vals -> val32 v
  | KFromRange _ lo hi step => 0 <= lo < Z.min hi (2^32) /\ 0 < step < 65536
  | KAdd _ v | KAddChecked _ v | KRemove _ v | KRemoveChecked _ v | QContains _ v | QRank _ v | QGetIndex _ v => val32 v
  | KAddRange _ a b | KRemoveRange _ a b | KFlipInplace _ a b | KFlip _ _ a b
  | QContainsRange _ a b | QRangeCardinality _ a b => 0 <= a /\ 0 <= b <= 2^32
  | KAddRangeClosed _ a b | KRemoveRangeClosed _ a b | KFlipInplaceClosed _ a b | KFlipClosed _ _ a b => val32 a /\ val32 b
  | KOrInplace d s | KXorInplace d s | KAndnotInplace d s => d <> s
  | QSelect s k => val32 k /\ exists v, val32 v /\ S s v = false
  | _ => True
  end.
Fixpoint legal (tr : list cmd) (S : regs) : Prop :=
  match tr with [] => True | c :: tr' => cmd_ok c S /\ legal tr' (spec_step c S) end.
Fixpoint spec_run (tr : list cmd) (S : regs) : regs :=
  match tr with [] => S | c :: tr' => spec_run tr' (spec_step c S) end.
(** the answers of a run, one per command *)
Fixpoint agrees (tr : list cmd) (S : regs) (outs : list out) : Prop :=
  match tr, outs with
  | [], [] => True
  | c :: tr', o :: outs' => spec_out c S o /\ agrees tr' (spec_step c S) outs'
  | _, _ => False
  end.
(** calling a (stateful) callback on the elements of a list until it declines *)
Fixpoint call_until {S : Type} (f : S -> Z -> S * bool) (l : list Z) (s : S) : S * bool :=
  match l with
  | [] => (s, true)
  | v :: l' => let '(s', go) := f s v in if go then call_until f l' s' else (s', false)
  end.
(** a slice of a list *)
Definition slice (offset limit : Z) (l : list Z) : list Z := firstn (Z.to_nat limit) (skipn (Z.to_nat offset) l).
(** intersection, union, difference, symmetric difference of sorted lists *)
Definition sorted_with (l : list Z) (M : Z -> Prop) : Prop := StronglySorted Z.lt l /\ forall x, In x l <-> M x.
