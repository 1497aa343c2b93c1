(** SpecMap: vocabulary of the statements about the C++ 64-bit map: bidirectional iterators as
    positions in the sorted list of members.  No reference to the model of the code. *)
From Coq Require Import ZArith List Bool.
From Verif Require Import Spec SpecI Spec64.
Import ListNotations.
Local Open Scope Z_scope.

(** ++i, i++, --i, i--, i.move_equalorlarger(x); a position is an index in the list, its length
    being end() *)
Inductive mstep : Type := SInc | SPostInc | SDec | SPostDec | SMove (x : Z).
(** the C++ preconditions: no increment at end(), no decrement at begin() *)
Definition mstep_ok (l : list Z) (p : Z) (c : mstep) : Prop :=
  match c with SInc | SPostInc => p < len_of l | SDec | SPostDec => 0 < p | SMove x => val64 x end.
Definition mstep_pos (l : list Z) (p : Z) (c : mstep) : Z :=
  match c with SInc | SPostInc => p + 1 | SDec | SPostDec => p - 1 | SMove x => len_of (filter (fun v => v <? x) l) end.
(** the result: whether move_equalorlarger found a value; for the other calls nothing *)
Definition mstep_out (l : list Z) (p : Z) (c : mstep) : option bool :=
  match c with SMove x => Some (mstep_pos l p c <? len_of l) | _ => None end.
Fixpoint mlegal (l : list Z) (p : Z) (cs : list mstep) : Prop :=
  match cs with [] => True | c :: cs => mstep_ok l p c /\ mlegal l (mstep_pos l p c) cs end.
(** after each call: the value under the iterator, [None] at end(), and the result of the call *)
Fixpoint mcursor (l : list Z) (p : Z) (cs : list mstep) : list (option Z * option bool) :=
  match cs with [] => [] | c :: cs => (seen64 l (mstep_pos l p c), mstep_out l p c) :: mcursor l (mstep_pos l p c) cs end.
(** the position after the calls *)
Fixpoint mfinal (l : list Z) (p : Z) (cs : list mstep) : Z :=
  match cs with [] => p | c :: cs => mfinal l (mstep_pos l p c) cs end.

(** ** A machine with registers holding sets of 64-bit values: the calls of the C++ map.
    The commands ending in 32 are the overloads for 32-bit values. *)
Inductive ncmd : Type :=
| NNew (d : nat) | NOf (d : nat) (vals : list Z) | NOfList (d : nat) (vals : list Z) | NOf32 (d : nat) (vals : list Z) | NCopy (d s : nat) | NSwap (d s : nat) | NClear (d : nat)
| NAdd (d : nat) (v : Z) | NAdd32 (d : nat) (v : Z) | NAddChecked (d : nat) (v : Z) | NAddChecked32 (d : nat) (v : Z)
| NRemove (d : nat) (v : Z) | NRemove32 (d : nat) (v : Z) | NRemoveChecked (d : nat) (v : Z) | NRemoveChecked32 (d : nat) (v : Z)
| NAddMany (d : nat) (vals : list Z) | NAddMany32 (d : nat) (vals : list Z)
| NAddRange (d : nat) (a b : Z) | NAddRangeClosed (d : nat) (a b : Z) | NAddRangeClosed32 (d : nat) (a b : Z)
| NRemoveRange (d : nat) (a b : Z) | NRemoveRangeClosed (d : nat) (a b : Z) | NRemoveRangeClosed32 (d : nat) (a b : Z)
| NFlip (d : nat) (a b : Z) | NFlipClosed (d : nat) (a b : Z) | NFlipClosed32 (d : nat) (a b : Z)
| NAnd (d s t : nat) | NOr (d s t : nat) | NXor (d s t : nat) | NAndnot (d s t : nat)
| NAndInplace (d s : nat) | NOrInplace (d s : nat) | NXorInplace (d s : nat) | NAndnotInplace (d s : nat) | NFastUnion (d : nat) (ss : list nat)
| NRunOptimize (d : nat) | NRemoveRunCompression (d : nat) | NShrinkToFit (d : nat) | NReload (d s : nat)
| NContains (s : nat) (v : Z) | NContains32 (s : nat) (v : Z) | NCardinality (s : nat) | NIsEmpty (s : nat) | NIsFull (s : nat)
| NEquals (s t : nat) | NSubset (s t : nat) | NStrictSubset (s t : nat)
| NRank (s : nat) (v : Z) | NGetIndex (s : nat) (v : Z) | NSelect (s : nat) (k : Z) | NMinimum (s : nat) | NMaximum (s : nat) | NToArray (s : nat).
(** effect of a call on the sets *)
Definition spec_stepN (c : ncmd) (S : regs) : regs :=
  match c with
  | NNew d | NClear d => put S d zempty
  | NOf d vals | NOfList d vals | NOf32 d vals => put S d (zlist vals)
  | NCopy d s | NReload d s => put S d (S s)
  | NSwap d s => put (put S d (S s)) s (S d)
  | NAdd d v | NAdd32 d v | NAddChecked d v | NAddChecked32 d v => put S d (zadd (S d) v)
  | NRemove d v | NRemove32 d v | NRemoveChecked d v | NRemoveChecked32 d v => put S d (zdel (S d) v)
  | NAddMany d vals | NAddMany32 d vals => put S d (zunion (S d) (zlist vals))
  | NAddRange d a b => put S d (zunion (S d) (zival a b))
  | NAddRangeClosed d a b | NAddRangeClosed32 d a b => put S d (zunion (S d) (zival a (b + 1)))
  | NRemoveRange d a b => put S d (zdiff (S d) (zival a b))
  | NRemoveRangeClosed d a b | NRemoveRangeClosed32 d a b => put S d (zdiff (S d) (zival a (b + 1)))
  | NFlip d a b => put S d (zsymm (S d) (zival a b))
  | NFlipClosed d a b | NFlipClosed32 d a b => put S d (zsymm (S d) (zival a (b + 1)))
  | NAnd d s t => put S d (zinter (S s) (S t))
  | NOr d s t => put S d (zunion (S s) (S t))
  | NXor d s t => put S d (zsymm (S s) (S t))
  | NAndnot d s t => put S d (zdiff (S s) (S t))
  | NAndInplace d s => put S d (zinter (S d) (S s))
  | NOrInplace d s => put S d (zunion (S d) (S s))
  | NXorInplace d s => put S d (zsymm (S d) (S s))
  | NAndnotInplace d s => put S d (zdiff (S d) (S s))
  | NFastUnion d ss => put S d (fun v => existsb (fun i => S i v) ss)
  | _ => S
  end.
(** the result of a call.  The results of runOptimize and removeRunCompression are not specified
    here; for cardinality [None] is the exception length_error *)
Definition spec_outN (c : ncmd) (S : regs) (o : out) : Prop :=
  match c with
  | NAddChecked d v | NAddChecked32 d v => o = RBool (negb (S d v))
  | NRemoveChecked d v | NRemoveChecked32 d v => o = RBool (S d v)
  | NRunOptimize _ | NRemoveRunCompression _ => exists b, o = RBool b
  | NContains s v | NContains32 s v => o = RBool (S s v)
  | NCardinality s => exists r, o = ROpt r /\ match r with Some n => has_card64 (S s) n | None => ~ proper (S s) end
  | NIsEmpty s => exists r, o = RBool r /\ (r = true <-> same_set64 (S s) zempty)
  | NIsFull s => exists r, o = RBool r /\ (r = true <-> ~ proper (S s))
  | NEquals s t => exists r, o = RBool r /\ (r = true <-> same_set64 (S s) (S t))
  | NSubset s t => exists r, o = RBool r /\ (r = true <-> zsubset64 (S s) (S t))
  | NStrictSubset s t => exists r, o = RBool r /\ (r = true <-> zsubset64 (S s) (S t) /\ ~ zsubset64 (S t) (S s))
  | NRank s v => exists n, o = RNum n /\ card_word (zinter (S s) (zival 0 (v + 1))) n
  | NGetIndex s v => exists n, o = RNum n /\ if S s v then has_card64 (zinter (S s) (zival 0 v)) n else n = -1
  | NSelect s k => exists r, o = ROpt r /\
      match r with
      | Some v => val64 v /\ S s v = true /\ has_card64 (zinter (S s) (zival 0 v)) k
      | None => forall n, has_card64 (S s) n -> n <= k
      end
  | NMinimum s => exists n, o = RNum n /\
      ((val64 n /\ S s n = true /\ forall v, val64 v -> S s v = true -> n <= v) \/ (same_set64 (S s) zempty /\ n = 2^64 - 1))
  | NMaximum s => exists n, o = RNum n /\
      ((val64 n /\ S s n = true /\ forall v, val64 v -> S s v = true -> v <= n) \/ (same_set64 (S s) zempty /\ n = 0))
  | NToArray s => exists l, o = RList l /\ lists64 (S s) l
  | _ => o = RNone
  end.
(** the arguments for which the behaviour is specified: getIndex returns a signed number, and
    select is specified for sets that miss a value in every block of 2^32 values *)
Definition ncmd_ok (c : ncmd) (S : regs) : Prop :=
  match c with
  | NOf _ vals | NOfList _ vals | NAddMany _ vals => forall v, In v vals -> val64 v
  | NOf32 _ vals | NAddMany32 _ vals => forall v, In v vals -> val32 v
  | NAdd _ v | NAddChecked _ v | NRemove _ v | NRemoveChecked _ v | NContains _ v | NRank _ v => val64 v
  | NAdd32 _ v | NAddChecked32 _ v | NRemove32 _ v | NRemoveChecked32 _ v | NContains32 _ v => val32 v
  | NAddRange _ a b | NAddRangeClosed _ a b | NRemoveRange _ a b | NRemoveRangeClosed _ a b | NFlip _ a b | NFlipClosed _ a b => val64 a /\ val64 b
  | NAddRangeClosed32 _ a b | NRemoveRangeClosed32 _ a b | NFlipClosed32 _ a b => val32 a /\ val32 b
  | NGetIndex s v => val64 v /\ forall n, has_card64 (zinter (S s) (zival 0 v)) n -> n < 2^63
  | NSelect s k => val64 k /\ forall h, 0 <= h < 2^32 -> exists v, 0 <= v < 2^32 /\ S s (h * 2^32 + v) = false
  | NStrictSubset _ t => proper (S t)
  | _ => True
  end.
Fixpoint legalN (tr : list ncmd) (S : regs) : Prop :=
  match tr with [] => True | c :: tr' => ncmd_ok c S /\ legalN tr' (spec_stepN c S) end.
Fixpoint spec_runN (tr : list ncmd) (S : regs) : regs :=
  match tr with [] => S | c :: tr' => spec_runN tr' (spec_stepN c S) end.
Fixpoint agreesN (tr : list ncmd) (S : regs) (outs : list out) : Prop :=
  match tr, outs with
  | [], [] => True
  | c :: tr', o :: outs' => spec_outN c S o /\ agreesN tr' (spec_stepN c S) outs'
  | _, _ => False
  end.
