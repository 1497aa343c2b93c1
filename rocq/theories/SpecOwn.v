(** * What a program may expect of the containers it never shared

    Bitmaps are held in numbered variables.  A program creates, copies, updates and frees
    them; none of them is copy-on-write.  [sstep] says which calls are allowed and which
    set each bitmap holds afterwards.  [accounted] is the ownership discipline: every
    container that is allocated is held by exactly one entry of exactly one bitmap, and
    every entry holds an allocated container. *)
From Coq Require Import ZArith List Bool.
From Verif Require Import Base Spec.
Open Scope Z_scope.

Inductive cmd :=
| OCreate (d : nat) | OCopy (d s : nat) | OFree (d : nat) | OClear (d : nat)
| OAdd (d : nat) (v : Z) | ORemove (d : nat) (v : Z)
| OAddRange (d : nat) (lo hi : Z) | ORemoveRange (d : nat) (lo hi : Z) | OFlip (d : nat) (lo hi : Z)
| OAddMany (d : nat) (vs : list Z) | ORemoveMany (d : nat) (vs : list Z)
| OAnd (d s : nat) | OOr (d s : nat) | OXor (d s : nat) | OAndnot (d s : nat)
| ONewAnd (d s t : nat) | ONewOr (d s t : nat) | ONewXor (d s t : nat) | ONewAndnot (d s t : nat)
| ONewFlip (d s : nat) (lo hi : Z) | OAddOffset (d s : nat) (off : Z) | OOverwrite (d s : nat)
| OOrMany (d : nat) (ss : list nat) | OXorMany (d : nat) (ss : list nat)
(* the union with a queue; [order]: which of its elements the queue gives out *)
| OOrHeap (d : nat) (ss : list nat) (order : list (nat * nat))
| ORunOptimize (d : nat) | ORemoveRuns (d : nat).

(** the variables: None is a pointer that does not point to a bitmap *)
Definition sets := nat -> option zset.
Definition put_set (S : sets) (d : nat) (P : option zset) : sets := fun x => if Nat.eqb x d then P else S x.
Definition on_one (S : sets) (d : nat) (f : zset -> zset) : option sets :=
  match S d with Some P => Some (put_set S d (Some (f P))) | None => None end.
(** the second operand must be a different bitmap *)
Definition on_two (S : sets) (d s : nat) (f : zset -> zset -> zset) : option sets :=
  if Nat.eqb d s then None
  else match S d, S s with Some P, Some Q => Some (put_set S d (Some (f P Q))) | _, _ => None end.
(** the result is a new bitmap; the operands may be the same bitmap *)
Definition to_new (S : sets) (d s t : nat) (f : zset -> zset -> zset) : option sets :=
  match S d, S s, S t with None, Some P, Some Q => Some (put_set S d (Some (f P Q))) | _, _, _ => None end.
(** of any number of bitmaps, the same ones possibly more than once *)
Fixpoint sets_of (S : sets) (ss : list nat) : option (list zset) :=
  match ss with
  | nil => Some nil
  | s :: t => match S s, sets_of S t with Some P, Some Ps => Some (P :: Ps) | _, _ => None end
  end.
Definition from_many (S : sets) (d : nat) (ss : list nat) (f : zset -> zset -> zset) : option sets :=
  match S d, sets_of S ss with None, Some Ps => Some (put_set S d (Some (fold_left f Ps zempty))) | _, _ => None end.
Definition in_range (v : Z) : bool := (0 <=? v) && (v <? 2^32).
Definition sstep (c : cmd) (S : sets) : option sets :=
  match c with
  | OCreate d => match S d with None => Some (put_set S d (Some zempty)) | Some _ => None end
  | OCopy d s => match S d, S s with None, Some P => Some (put_set S d (Some P)) | _, _ => None end
  | OFree d => match S d with Some _ => Some (put_set S d None) | None => None end
  | OClear d => on_one S d (fun _ => zempty)
  | OAdd d v => if in_range v then on_one S d (fun P => zadd P v) else None
  | ORemove d v => if in_range v then on_one S d (fun P => zdel P v) else None
  | OAddRange d lo hi => if in_range lo && in_range hi then on_one S d (fun P => zunion P (zival lo (hi + 1))) else None
  | ORemoveRange d lo hi => if in_range lo && in_range hi then on_one S d (fun P => zdiff P (zival lo (hi + 1))) else None
  | OFlip d lo hi => if in_range lo && in_range hi then on_one S d (fun P => zsymm P (zival lo (hi + 1))) else None
  | OAddMany d vs => if forallb in_range vs then on_one S d (fold_left zadd vs) else None
  | ORemoveMany d vs => if forallb in_range vs then on_one S d (fold_left zdel vs) else None
  | OAnd d s => on_two S d s zinter
  | OOr d s => on_two S d s zunion
  | OXor d s => on_two S d s zsymm
  | OAndnot d s => on_two S d s zdiff
  | ONewAnd d s t => to_new S d s t zinter
  | ONewOr d s t => to_new S d s t zunion
  | ONewXor d s t => to_new S d s t zsymm
  | ONewAndnot d s t => to_new S d s t zdiff
  | ONewFlip d s lo hi => if in_range lo && in_range hi then to_new S d s s (fun P _ => zsymm P (zival lo (hi + 1))) else None
  | OAddOffset d s off => to_new S d s s (fun P _ => zshift (in32 P) off)
  | OOverwrite d s => on_two S d s (fun _ Q => Q)
  | OOrMany d ss => from_many S d ss zunion
  | OXorMany d ss => from_many S d ss zsymm
  | OOrHeap d ss _ => from_many S d ss zunion
  | ORunOptimize d => on_one S d (fun P => P)
  | ORemoveRuns d => on_one S d (fun P => P)
  end.
Fixpoint srun (cs : list cmd) (S : sets) : option sets :=
  match cs with nil => Some S | c :: t => match sstep c S with Some S' => srun t S' | None => None end end.
Definition no_sets : sets := fun _ => None.

(** [live x]: the container at address x is allocated.  [holds d i x]: entry i of bitmap d
    points to x. *)
Definition accounted (live : nat -> Prop) (holds : nat -> nat -> nat -> Prop) : Prop :=
  (forall d i x, holds d i x -> live x) /\
  (forall x, live x -> exists d i, holds d i x) /\
  (forall d i d' i' x, holds d i x -> holds d' i' x -> d = d' /\ i = i').
