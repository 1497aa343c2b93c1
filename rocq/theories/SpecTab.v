(** SpecTab: the table of the chunks of a bitmap as a list; no reference to the model. *)
From Coq Require Import ZArith List Bool Sorted.
Import ListNotations.
Local Open Scope Z_scope.

(** a key, the address of a chunk and its kind *)
Record slot := Slot { s_key : Z; s_ptr : Z; s_kind : Z }.
Definition slot_ok (s : slot) : Prop := 0 <= s_key s < 2 ^ 16 /\ 0 <= s_ptr s < 2 ^ 64 /\ 0 <= s_kind s < 2 ^ 8.
Definition size_of (l : list slot) : Z := Z.of_nat (length l).
Definition take (n : Z) (l : list slot) : list slot := firstn (Z.to_nat n) l.
Definition drop (n : Z) (l : list slot) : list slot := skipn (Z.to_nat n) l.
Definition by_key (l : list slot) : Prop := StronglySorted Z.lt (map s_key l).
(** the slot with this key *)
Definition find_key (k : Z) (l : list slot) : option slot := find (fun s => s_key s =? k) l.
(** the keys from lo to hi *)
Definition keys_between (lo hi : Z) : list Z := map (fun i => lo + Z.of_nat i) (seq 0 (Z.to_nat (hi - lo + 1))).

(** what a command does to a table *)
Inductive tcmd : Type :=
| TAppend (s : slot) | TInsert (i : Z) (s : slot) | TRemove (i : Z) | TReplace (i : Z) (s : slot) | TSet (i p t : Z)
| TDownsize (n : Z)
(* the slots from b to e slide down to n, what follows is dropped *)
| TSlide (b e n : Z)
| TShrink
(* one slot for every key from lo to hi: [g k (Some (p, t))] replaces the chunk p, [g k None] is a new one *)
| TFill (lo hi : Z) (g : Z -> option (Z * Z) -> Z * Z)
(* the slots with keys from lo to hi are edited; None: the chunk became empty *)
| TDrop (lo hi : Z) (g : Z -> Z * Z -> option (Z * Z)).
Definition edited (g : Z -> Z * Z -> option (Z * Z)) (s : slot) : list slot :=
  match g (s_key s) (s_ptr s, s_kind s) with Some (p, t) => [Slot (s_key s) p t] | None => [] end.
Definition filled (l : list slot) (g : Z -> option (Z * Z) -> Z * Z) (k : Z) : slot :=
  let '(p, t) := g k (match find_key k l with Some s => Some (s_ptr s, s_kind s) | None => None end) in Slot k p t.
Definition below (lo : Z) (l : list slot) : list slot := filter (fun s => s_key s <? lo) l.
Definition above (hi : Z) (l : list slot) : list slot := filter (fun s => hi <? s_key s) l.
Definition tstep (c : tcmd) (l : list slot) : list slot :=
  match c with
  | TAppend s => l ++ [s]
  | TInsert i s => take i l ++ s :: drop i l
  | TRemove i => take i l ++ drop (i + 1) l
  | TReplace i s => take i l ++ s :: drop (i + 1) l
  | TSet i p t => take i l ++ map (fun s => Slot (s_key s) p t) (take 1 (drop i l)) ++ drop (i + 1) l
  | TDownsize n => take n l
  | TSlide b e n => take n l ++ take (e - b) (drop b l)
  | TShrink => l
  | TFill lo hi g => below lo l ++ map (filled l g) (keys_between lo hi) ++ above hi l
  | TDrop lo hi g => below lo l ++ flat_map (edited g) (filter (fun s => (lo <=? s_key s) && (s_key s <=? hi)) l) ++ above hi l
  end.
Definition max_slots : Z := 65536.
(** what the callers must respect *)
Definition tok (c : tcmd) (l : list slot) : Prop :=
  match c with
  | TAppend s => slot_ok s /\ size_of l < max_slots
  | TInsert i s => slot_ok s /\ size_of l < max_slots /\ 0 <= i <= size_of l
  | TRemove i => 0 <= i < size_of l
  | TReplace i s => slot_ok s /\ 0 <= i < size_of l
  | TSet i p t => 0 <= p < 2 ^ 64 /\ 0 <= t < 2 ^ 8 /\ 0 <= i < size_of l
  | TDownsize n => 0 <= n <= size_of l
  | TSlide b e n => 0 <= n < b /\ b <= e <= size_of l
  | TShrink => True
  | TFill lo hi g => by_key l /\ 0 <= lo <= hi /\ hi < 2 ^ 16 /\ forall k o, 0 <= fst (g k o) < 2 ^ 64 /\ 0 <= snd (g k o) < 2 ^ 8
  | TDrop lo hi g => by_key l /\ 0 <= lo <= hi /\ hi < 2 ^ 16 /\ forall k o p t, g k o = Some (p, t) -> 0 <= p < 2 ^ 64 /\ 0 <= t < 2 ^ 8
  end.
Fixpoint tlegal (p : list tcmd) (l : list slot) : Prop :=
  match p with [] => True | c :: p' => tok c l /\ tlegal p' (tstep c l) end.
Fixpoint trun (p : list tcmd) (l : list slot) : list slot := match p with [] => l | c :: p' => trun p' (tstep c l) end.

(** ** Two tables *)
(** how the chunks of the second table reach the first: moved, shared ([f]: the shared
    address and kind both tables get) or cloned ([f]: the address of the clone) *)
Inductive how : Type := Move | Share (f : Z * Z -> Z * Z) | Clone (f : Z * Z -> Z).
Definition copied (h : how) (s : slot) : slot :=
  match h with
  | Move => s
  | Share f => let '(p, t) := f (s_ptr s, s_kind s) in Slot (s_key s) p t
  | Clone f => Slot (s_key s) (f (s_ptr s, s_kind s)) (s_kind s)
  end.
Definition left_behind (h : how) (s : slot) : slot := match h with Share f => copied (Share f) s | _ => s end.
Definition how_ok (h : how) : Prop :=
  match h with
  | Move => True
  | Share f => forall x, 0 <= fst (f x) < 2 ^ 64 /\ 0 <= snd (f x) < 2 ^ 8
  | Clone f => forall x, 0 < f x < 2 ^ 64
  end.
Inductive pcmd : Type :=
| PFirst (c : tcmd) | PSecond (c : tcmd)
(* entries b to e - 1 of the second table are appended to the first *)
| PRange (h : how) (b e : Z)
(* the entries with keys below k; the entries with keys above k *)
| PUntil (h : how) (k : Z) | PAfter (h : how) (k : Z)
(* the first table becomes a copy of the second *)
| POverwrite (h : how).
Definition pstep (c : pcmd) (x : list slot * list slot) : list slot * list slot :=
  let '(l, m) := x in
  match c with
  | PFirst c => (tstep c l, m)
  | PSecond c => (l, tstep c m)
  | PRange h b e => (l ++ map (copied h) (take (e - b) (drop b m)), take b m ++ map (left_behind h) (take (e - b) (drop b m)) ++ drop e m)
  | PUntil h k => (l ++ map (copied h) (below k m), map (left_behind h) (below k m) ++ above (k - 1) m)
  | PAfter h k => (l ++ map (copied h) (above k m), below (k + 1) m ++ map (left_behind h) (above k m))
  | POverwrite h => (map (copied h) m, map (left_behind h) m)
  end.
Definition pok (c : pcmd) (x : list slot * list slot) : Prop :=
  let '(l, m) := x in
  match c with
  | PFirst c => tok c l
  | PSecond c => tok c m
  | PRange h b e => how_ok h /\ 0 <= b <= e /\ e <= size_of m /\ size_of l + (e - b) <= max_slots
  | PUntil h k => how_ok h /\ h <> Move /\ by_key m /\ size_of l + size_of (below k m) <= max_slots
  | PAfter h k => how_ok h /\ h <> Move /\ by_key m /\ 0 <= k < 2 ^ 16 /\ size_of l + size_of (above k m) <= max_slots
  | POverwrite h => how_ok h /\ h <> Move
  end.
Fixpoint plegal (p : list pcmd) (x : list slot * list slot) : Prop :=
  match p with [] => True | c :: p' => pok c x /\ plegal p' (pstep c x) end.
Fixpoint prun (p : list pcmd) (x : list slot * list slot) : list slot * list slot :=
  match p with [] => x | c :: p' => prun p' (pstep c x) end.
