(** SpecI: iterators as cursors over the sorted list of members; no reference to the model. *)
From Coq Require Import ZArith List Bool Sorting.Sorted.
From Verif Require Import Spec.
Import ListNotations.
Local Open Scope Z_scope.

(** a position is an index in the sorted list, -1 before its start, its length past its end *)
Inductive icmd : Type := IAdvance | IPrevious | ISeek (x : Z) | IRead (n : Z).
Definition icmd_ok (c : icmd) : Prop := match c with ISeek x => val32 x | IRead n => 0 <= n < 2 ^ 32 | _ => True end.
Definition len_of (l : list Z) : Z := Z.of_nat (length l).
Definition on_member (l : list Z) (p : Z) : bool := (0 <=? p) && (p <? len_of l).
(** what the user sees: has_value and current_value *)
Definition seen (l : list Z) (p : Z) : bool * Z := if on_member l p then (true, nth (Z.to_nat p) l 0) else (false, 2 ^ 32 - 1).
(** new position and values stored in the caller's buffer *)
Definition cursor_step (l : list Z) (p : Z) (c : icmd) : Z * list Z :=
  match c with
  | IAdvance => (Z.min (len_of l) (p + 1), [])
  | IPrevious => (Z.max (-1) (p - 1), [])
  | ISeek x => (len_of (filter (fun v => v <? x) l), [])
  | IRead n => if on_member l p then (Z.min (len_of l) (p + n), firstn (Z.to_nat n) (skipn (Z.to_nat p) l)) else (p, [])
  end.
Fixpoint cursor_run (l : list Z) (p : Z) (cs : list icmd) : list (bool * Z * list Z) :=
  match cs with
  | [] => []
  | c :: cs => let '(p', out) := cursor_step l p c in (seen l p', out) :: cursor_run l p' cs
  end.
