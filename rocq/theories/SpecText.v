(** SpecText: the text of a set; no reference to the model.  Characters are their codes:
    123 "{", 125 "}", 44 ",", 48..57 the digits. *)
From Coq Require Import ZArith List.
Import ListNotations.
Local Open Scope Z_scope.

(** s is the decimal numeral of v: digits, no superfluous leading zero *)
Definition numeral (s : list Z) (v : Z) : Prop :=
  s <> [] /\ Forall (fun c => 48 <= c <= 57) s /\ (forall t, s = 48 :: t -> t = []) /\ fold_left (fun a c => 10 * a + (c - 48)) s 0 = v.
Fixpoint joined (l : list (list Z)) : list Z :=
  match l with [] => [] | [x] => x | x :: t => x ++ 44 :: joined t end.
(** s is "{a,b,c}" for the list [a; b; c] *)
Definition set_text (l : list Z) (s : list Z) : Prop := exists ds, Forall2 numeral ds l /\ s = 123 :: joined ds ++ [125].
