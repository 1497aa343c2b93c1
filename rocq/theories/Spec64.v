(** Spec64: vocabulary of the property statements about 64-bit bitmaps.  A set of 64-bit
    values is a boolean predicate on Z, only looked at on [0, 2^64).  Nothing in this file
    refers to the model of the code. *)
From Coq Require Import ZArith List Bool Lia Sorting.Sorted.
From Verif Require Import Spec SpecI.
Import ListNotations.
Local Open Scope Z_scope.

Definition val64 (v : Z) : Prop := 0 <= v < 2^64.
Definition same_set64 (P Q : zset) : Prop := forall v, val64 v -> P v = Q v.
Definition zsubset64 (P Q : zset) : Prop := forall v, val64 v -> P v = true -> Q v = true.
(** [l] enumerates the members in increasing order *)
Definition lists64 (P : zset) (l : list Z) : Prop :=
  StronglySorted Z.lt l /\ forall v, In v l <-> val64 v /\ P v = true.
Definition has_card64 (P : zset) (n : Z) : Prop := exists l, lists64 P l /\ n = Z.of_nat (length l).
(** a cardinality as a 64-bit number: exact unless the set is the whole universe *)
Definition card_word (P : zset) (n : Z) : Prop := exists m, has_card64 P m /\ n = m mod 2^64.
(** some value is missing *)
Definition proper (P : zset) : Prop := exists v, val64 v /\ P v = false.

(** ** A machine with registers holding sets of 64-bit values *)
Inductive cmd64 : Type :=
| LNew (d : nat) | LOf (d : nat) (vals : list Z) | LFromRange (d : nat) (lo hi step : Z) | LCopy (d s : nat)
| LAdd (d : nat) (v : Z) | LAddChecked (d : nat) (v : Z) | LRemove (d : nat) (v : Z) | LRemoveChecked (d : nat) (v : Z)
| LAddMany (d : nat) (vals : list Z) | LRemoveMany (d : nat) (vals : list Z)
| LAddRange (d : nat) (a b : Z) | LAddRangeClosed (d : nat) (a b : Z)
| LRemoveRange (d : nat) (a b : Z) | LRemoveRangeClosed (d : nat) (a b : Z)
| LFlipInplace (d : nat) (a b : Z) | LFlipInplaceClosed (d : nat) (a b : Z)
| LClear (d : nat) | LRunOptimize (d : nat) | LShrinkToFit (d : nat)
| LFlip (d s : nat) (a b : Z) | LFlipClosed (d s : nat) (a b : Z)
| LAnd (d s t : nat) | LOr (d s t : nat) | LXor (d s t : nat) | LAndnot (d s t : nat)
| LAndInplace (d s : nat) | LOrInplace (d s : nat) | LXorInplace (d s : nat) | LAndnotInplace (d s : nat)
| MContains (s : nat) (v : Z) | MContainsRange (s : nat) (a b : Z) | MCardinality (s : nat)
| MRangeCardinality (s : nat) (a b : Z) | MRangeClosedCardinality (s : nat) (a b : Z)
| MIsEmpty (s : nat) | MEquals (s t : nat) | MSubset (s t : nat) | MStrictSubset (s t : nat) | MIntersect (s t : nat) | MIntersectRange (s : nat) (a b : Z)
| MAndCardinality (s t : nat) | MOrCardinality (s t : nat) | MXorCardinality (s t : nat) | MAndnotCardinality (s t : nat)
| MRank (s : nat) (v : Z) | MGetIndex (s : nat) (v : Z) | MSelect (s : nat) (k : Z)
| MMinimum (s : nat) | MMaximum (s : nat) | MToArray (s : nat).

Definition spec_step64 (c : cmd64) (S : regs) : regs :=
  match c with
  | LNew d | LClear d => put S d zempty
  | LOf d vals => put S d (zlist vals)
  | LFromRange d lo hi step => put S d (zprog lo hi step)
  | LCopy d s => put S d (S s)
  | LAdd d v | LAddChecked d v => put S d (zadd (S d) v)
  | LRemove d v | LRemoveChecked d v => put S d (zdel (S d) v)
  | LAddMany d vals => put S d (zunion (S d) (zlist vals))
  | LRemoveMany d vals => put S d (zdiff (S d) (zlist vals))
  | LAddRange d a b => put S d (zunion (S d) (zival a b))
  | LAddRangeClosed d a b => put S d (zunion (S d) (zival a (b + 1)))
  | LRemoveRange d a b => put S d (zdiff (S d) (zival a b))
  | LRemoveRangeClosed d a b => put S d (zdiff (S d) (zival a (b + 1)))
  | LFlipInplace d a b => put S d (zsymm (S d) (zival a b))
  | LFlipInplaceClosed d a b => put S d (zsymm (S d) (zival a (b + 1)))
  | LFlip d s a b => put S d (zsymm (S s) (zival a b))
  | LFlipClosed d s a b => put S d (zsymm (S s) (zival a (b + 1)))
  | LAnd d s t => put S d (zinter (S s) (S t))
  | LOr d s t => put S d (zunion (S s) (S t))
  | LXor d s t => put S d (zsymm (S s) (S t))
  | LAndnot d s t => put S d (zdiff (S s) (S t))
  | LAndInplace d s => put S d (zinter (S d) (S s))
  | LOrInplace d s => put S d (zunion (S d) (S s))
  | LXorInplace d s => put S d (zsymm (S d) (S s))
  | LAndnotInplace d s => put S d (zdiff (S d) (S s))
  | _ => S
  end.
Definition spec_out64 (c : cmd64) (S : regs) (o : out) : Prop :=
  match c with
  | LAddChecked d v => o = RBool (negb (S d v))
  | LRemoveChecked d v => o = RBool (S d v)
  | LRunOptimize _ => exists b, o = RBool b
  | MContains s v => o = RBool (S s v)
  | MContainsRange s a b => exists r, o = RBool r /\ (r = true <-> forall v, a <= v < b -> S s v = true)
  | MCardinality s => exists n, o = RNum n /\ card_word (S s) n
  | MRangeCardinality s a b => exists n, o = RNum n /\ card_word (zinter (S s) (zival a b)) n
  | MRangeClosedCardinality s a b => exists n, o = RNum n /\ card_word (zinter (S s) (zival a (b + 1))) n
  | MIsEmpty s => exists r, o = RBool r /\ (r = true <-> same_set64 (S s) zempty)
  | MEquals s t => exists r, o = RBool r /\ (r = true <-> same_set64 (S s) (S t))
  | MSubset s t => exists r, o = RBool r /\ (r = true <-> zsubset64 (S s) (S t))
  | MStrictSubset s t => exists r, o = RBool r /\ (r = true <-> zsubset64 (S s) (S t) /\ ~ zsubset64 (S t) (S s))
  | MIntersect s t => exists r, o = RBool r /\ (r = true <-> exists v, val64 v /\ S s v = true /\ S t v = true)
  | MIntersectRange s a b => exists r, o = RBool r /\ (r = true <-> exists v, a <= v < b /\ S s v = true)
  | MAndCardinality s t => exists n, o = RNum n /\ card_word (zinter (S s) (S t)) n
  | MOrCardinality s t => exists n, o = RNum n /\ card_word (zunion (S s) (S t)) n
  | MXorCardinality s t => exists n, o = RNum n /\ card_word (zsymm (S s) (S t)) n
  | MAndnotCardinality s t => exists n, o = RNum n /\ card_word (zdiff (S s) (S t)) n
  | MRank s v => exists n, o = RNum n /\ card_word (zinter (S s) (zival 0 (v + 1))) n
  | MGetIndex s v => exists r, o = ROpt r /\ match r with Some n => S s v = true /\ has_card64 (zinter (S s) (zival 0 v)) n | None => S s v = false end
  | MSelect s k => exists r, o = ROpt r /\
      match r with
      | Some v => val64 v /\ S s v = true /\ has_card64 (zinter (S s) (zival 0 v)) k
      | None => forall n, has_card64 (S s) n -> n <= k
      end
  | MMinimum s => exists n, o = RNum n /\
      ((val64 n /\ S s n = true /\ forall v, val64 v -> S s v = true -> n <= v) \/ (same_set64 (S s) zempty /\ n = 2^64 - 1))
  | MMaximum s => exists n, o = RNum n /\
      ((val64 n /\ S s n = true /\ forall v, val64 v -> S s v = true -> v <= n) \/ (same_set64 (S s) zempty /\ n = 0))
  | MToArray s => exists l, o = RList l /\ lists64 (S s) l
  | _ => o = RNone
  end.
(** the arguments for which the behaviour is specified *)
Definition cmd64_ok (c : cmd64) (S : regs) : Prop :=
  match c with
  | LOf _ vals | LAddMany _ vals => forall v, In v vals -> val64 v
  | LRemoveMany d vals => (forall v, In v vals -> val64 v /\ S d v = true) /\ NoDup vals
  | LFromRange _ lo hi step => val64 lo /\ val64 hi /\ lo < hi /\ 0 < step < 2^64
  | LAdd _ v | LAddChecked _ v | LRemove _ v | LRemoveChecked _ v | MContains _ v | MRank _ v | MGetIndex _ v => val64 v
  | LAddRange _ a b | LRemoveRange _ a b | LFlipInplace _ a b | LFlip _ _ a b | MRangeCardinality _ a b | MIntersectRange _ a b
  | LAddRangeClosed _ a b | LRemoveRangeClosed _ a b | LFlipInplaceClosed _ a b | LFlipClosed _ _ a b | MRangeClosedCardinality _ a b => val64 a /\ val64 b
  | MContainsRange s a b => val64 a /\ val64 b /\ forall v, val64 v -> S s v = true -> v / 65536 <= (b - 1) / 65536
  | LXorInplace d s | LAndnotInplace d s => d <> s
  | MSelect s k => val64 k /\ proper (S s)
  | MStrictSubset s t => proper (S s) /\ proper (S t)
  | MToArray s => proper (S s)
  | _ => True
  end.
Fixpoint legal64 (tr : list cmd64) (S : regs) : Prop :=
  match tr with [] => True | c :: tr' => cmd64_ok c S /\ legal64 tr' (spec_step64 c S) end.
Fixpoint spec_run64 (tr : list cmd64) (S : regs) : regs :=
  match tr with [] => S | c :: tr' => spec_run64 tr' (spec_step64 c S) end.
Fixpoint agrees64 (tr : list cmd64) (S : regs) (outs : list out) : Prop :=
  match tr, outs with
  | [], [] => True
  | c :: tr', o :: outs' => spec_out64 c S o /\ agrees64 tr' (spec_step64 c S) outs'
  | _, _ => False
  end.

(** ** Iterators: cursors over the sorted list of members, as in SpecI; without a value the
    current value is not specified *)
Definition seen64 (l : list Z) (p : Z) : option Z := if on_member l p then Some (nth (Z.to_nat p) l 0) else None.
Fixpoint cursor_run64 (l : list Z) (p : Z) (cs : list icmd) : list (option Z * list Z) :=
  match cs with
  | [] => []
  | c :: cs => let '(p', out) := cursor_step l p c in (seen64 l p', out) :: cursor_run64 l p' cs
  end.
(** A read that reaches the end leaves the iterator spent: until the next seek it must not be
    moved by advance or previous *)
Definition spends (l : list Z) (p : Z) (spent : bool) (c : icmd) : bool :=
  match c with IRead _ => spent || (on_member l p && negb (on_member l (fst (cursor_step l p c)))) | _ => false end.
Definition icmd64_ok (spent : bool) (c : icmd) : Prop :=
  match c with ISeek x => val64 x | IRead n => 0 <= n < 2^64 | IAdvance | IPrevious => spent = false end.
Fixpoint ilegal64 (l : list Z) (p : Z) (spent : bool) (cs : list icmd) : Prop :=
  match cs with
  | [] => True
  | c :: cs => icmd64_ok spent c /\ ilegal64 l (fst (cursor_step l p c)) (spends l p spent c) cs
  end.

(** ** Sequences of bulk calls through one context.  A removal that leaves its block of 65536
    values without members leaves the context pointing at nothing; until another call moves
    the context, the next calls must be for other blocks. *)
Inductive bulk64 := BPut (v : Z) | BDrop (v : Z) | BAsk (v : Z).
Definition bulk_arg (o : bulk64) : Z := match o with BPut v | BDrop v | BAsk v => v end.
Definition gone (P : zset) (h : Z) : Prop := forall v, v / 65536 = h -> P v = false.
Definition bulk_next (o : bulk64) (P : zset) : zset :=
  match o with BPut v => zadd P v | BDrop v => zdel P v | BAsk _ => P end.
Definition bulk_stale_next (o : bulk64) (P : zset) (stale : Z -> Prop) : Z -> Prop :=
  match o with
  | BPut _ => fun _ => False
  | BDrop v => fun h => h = v / 65536 /\ P v = true /\ gone (zdel P v) h
  | BAsk v => fun h => gone P (v / 65536) /\ stale h
  end.
Fixpoint bulk_legal (os : list bulk64) (P : zset) (stale : Z -> Prop) : Prop :=
  match os with
  | [] => True
  | o :: os => val64 (bulk_arg o) /\ ~ stale (bulk_arg o / 65536) /\ bulk_legal os (bulk_next o P) (bulk_stale_next o P stale)
  end.
Fixpoint bulk_final (os : list bulk64) (P : zset) : zset :=
  match os with [] => P | o :: os => bulk_final os (bulk_next o P) end.
Fixpoint bulk_answers (os : list bulk64) (P : zset) : list bool :=
  match os with
  | [] => []
  | BAsk v :: os => P v :: bulk_answers os P
  | o :: os => bulk_answers os (bulk_next o P)
  end.
Definition zfull64 : zset := fun _ => true.
