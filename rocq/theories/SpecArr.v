(** SpecArr: what programs that edit array containers do, on sets; no reference to the model. *)
From Coq Require Import ZArith List Bool.
Import ListNotations.
Local Open Scope Z_scope.

(** a set of 16-bit values *)
Definition vset := Z -> bool.
Definition sets := nat -> vset.
Definition top_value : Z := 2 ^ 16.
Definition members (P : vset) : list Z := filter P (map Z.of_nat (seq 0 (Z.to_nat top_value))).
Definition size (P : vset) : Z := Z.of_nat (length (members P)).
(** the second operand of a mixed operation: 1024 words of 64 bits, or runs (start, length - 1) *)
Inductive other := Words (ws : list Z) | Runs (r : list (Z * Z)).
Definition within (o : other) (x : Z) : bool :=
  match o with
  | Words ws => Z.testbit (nth (Z.to_nat (x / 64)) ws 0) (x mod 64)
  | Runs r => existsb (fun c => (fst c <=? x) && (x <=? fst c + snd c)) r
  end.
(** runs in order, with a gap between any two *)
Fixpoint spaced (from : Z) (r : list (Z * Z)) : Prop :=
  match r with [] => True | (v, n) :: r' => from <= v /\ 0 <= n /\ v + n < top_value /\ spaced (v + n + 2) r' end.
Definition other_ok (o : other) : Prop :=
  match o with
  | Words ws => length ws = 1024%nat /\ Forall (fun w => 0 <= w < 2 ^ 64) ws
  | Runs r => r <> [] /\ spaced 0 r
  end.

Inductive acmd :=
(* an empty array with room for n values; the values from lo to hi - 1; a duplicate; a copy over the array d *)
| ACreate (d : nat) (n : Z) | ARange (d : nat) (lo hi : Z) | AClone (d s : nat) | ACopy (d s : nat)
(* over the array d: the values read from a buffer *)
| ARead (d : nat) (vs : list Z)
| AShrink (d : nat)
| AAppend (d : nat) (v : Z) | AAdd (d : nat) (v : Z) | ATryAdd (d : nat) (v limit : Z) | ARemove (d : nat) (v : Z)
| AContains (s : nat) (v : Z)
(* min, min + step, ... below max, all above what is there *)
| AFill (d : nat) (min max step : Z)
(* lo to hi, both included *)
| AAddRange (d : nat) (lo hi : Z) | ARemoveRange (d : nat) (lo hi : Z)
(* d := s and o, s and not o; d may be s *)
| AAnd (d s : nat) (o : other) | AAndNot (d s : nat) (o : other)
(* new arrays from the other kinds of chunks; runs without the values of an array *)
| AFrom (d : nat) (o : other) | ARunsMinus (d : nat) (r : list (Z * Z)) (s : nat)
(* the values of s moved up by k: those that stay below 2^16, those that do not *)
| AOffsetLow (d s : nat) (k : Z) | AOffsetHigh (d s : nat) (k : Z).
Inductive aans := ANone | ABool (b : bool) | ACode (z : Z).

Definition set_reg (S : sets) (d : nat) (P : vset) : sets := fun i => if Nat.eqb i d then P else S i.
Definition add_code (P : vset) (v limit : Z) : Z := if P v then 0 else if size P <? limit then 1 else -1.
Definition astep (c : acmd) (S : sets) : sets * aans :=
  match c with
  | ACreate d _ => (set_reg S d (fun _ => false), ANone)
  | ARange d lo hi => (set_reg S d (fun x => (lo <=? x) && (x <? hi)), ANone)
  | AClone d s | ACopy d s => (set_reg S d (S s), ANone)
  | ARead d vs => (set_reg S d (fun x => existsb (Z.eqb x) vs), ANone)
  | AShrink d => (S, ANone)
  | AAppend d v => (set_reg S d (fun x => S d x || (x =? v)), ANone)
  | AAdd d v => (set_reg S d (fun x => S d x || (x =? v)), ABool (negb (S d v)))
  | ATryAdd d v limit =>
      let code := add_code (S d) v limit in
      (if code =? 1 then set_reg S d (fun x => S d x || (x =? v)) else S, ACode code)
  | ARemove d v => (set_reg S d (fun x => S d x && negb (x =? v)), ABool (S d v))
  | AContains s v => (S, ABool (S s v))
  | AFill d min max step => (set_reg S d (fun x => S d x || (min <=? x) && (x <? max) && ((x - min) mod step =? 0)), ANone)
  | AAddRange d lo hi => (set_reg S d (fun x => S d x || (lo <=? x) && (x <=? hi)), ANone)
  | ARemoveRange d lo hi => (set_reg S d (fun x => S d x && negb ((lo <=? x) && (x <=? hi))), ANone)
  | AAnd d s o => (set_reg S d (fun x => S s x && within o x), ANone)
  | AAndNot d s o => (set_reg S d (fun x => S s x && negb (within o x)), ANone)
  | AFrom d o => (set_reg S d (within o), ANone)
  | ARunsMinus d r s => (set_reg S d (fun x => within (Runs r) x && negb (S s x)), ANone)
  | AOffsetLow d s k => (set_reg S d (fun x => (k <=? x) && S s (x - k)), ANone)
  | AOffsetHigh d s k => (set_reg S d (fun x => (x <? k) && S s (x - k + top_value)), ANone)
  end.

(** what the callers must respect *)
Definition value (v : Z) : Prop := 0 <= v < top_value.
Definition aok (c : acmd) (S : sets) : Prop :=
  match c with
  | ACreate _ n => 0 <= n
  | ARange _ lo hi => 0 <= lo <= hi /\ hi <= top_value
  | AClone _ _ | AShrink _ => True
  | ACopy d s => d <> s
  | ARead _ vs => exists P, vs = members P
  | AAppend d v => value v /\ forall x, value x -> S d x = true -> x < v
  | AAdd _ v | ATryAdd _ v _ | ARemove _ v | AContains _ v => value v
  | AFill d min max step => 0 <= min <= max /\ max <= top_value /\ 0 < step < 2 ^ 16 /\ forall x, value x -> S d x = true -> x < min
  | AAddRange _ lo hi | ARemoveRange _ lo hi => 0 <= lo <= hi /\ hi < top_value
  | AAnd _ _ o | AAndNot _ _ o | AFrom _ o => other_ok o
  | ARunsMinus _ r _ => other_ok (Runs r)
  | AOffsetLow _ s k => 0 < k < top_value /\ exists x, value x /\ x + k < top_value /\ S s x = true
  | AOffsetHigh _ s k => 0 < k < top_value /\ exists x, value x /\ top_value <= x + k /\ S s x = true
  end.
Fixpoint alegal (p : list acmd) (S : sets) : Prop :=
  match p with [] => True | c :: p' => aok c S /\ alegal p' (fst (astep c S)) end.
Fixpoint arun (p : list acmd) (S : sets) : sets * list aans :=
  match p with [] => (S, []) | c :: p' => let '(S1, a) := astep c S in let '(S2, l) := arun p' S1 in (S2, a :: l) end.
