(** Property C89: printing. *)
From Coq Require Import ZArith List Bool Lia.
From Verif Require Import Base Convert Containers RArray RPoint Spec Spec64 SpecText Obs Map64 Map64P HistMap Text.
Import ListNotations.
Local Open Scope Z_scope.

Theorem C89_printf : forall r P l, denotes r P -> lists P l -> set_text l (roaring_bitmap_printf r) /\ roaring_toString r = roaring_bitmap_printf r.
Proof. exact printf_text. Qed.
Print Assumptions C89_printf.
(** two bitmaps print alike exactly when they hold the same set *)
Theorem C89_equal : forall r1 r2 P1 P2, denotes r1 P1 -> denotes r2 P2 ->
  (roaring_bitmap_printf r1 = roaring_bitmap_printf r2 <-> forall v, 0 <= v < 2 ^ 32 -> P1 v = P2 v).
Proof. exact text_equal. Qed.
Print Assumptions C89_equal.
Theorem C89_map : forall m P l, denotesN m P -> lists64 P l -> exists s, map_toString m = Some s /\ set_text l s.
Proof. exact map_text. Qed.
Print Assumptions C89_map.
(** the text leaves no choice of the list *)
Theorem C89_unambiguous : forall l1 l2 s, set_text l1 s -> set_text l2 s -> l1 = l2.
Proof. exact set_text_inj. Qed.
Print Assumptions C89_unambiguous.
(** "{0,7,10,65536,131073,131074}" with an array, a run container after run_optimize, and
    an array *)
Definition ex_vals : list Z := [0; 7; 10; 65536; 131073; 131074].
Example C89_example :
  denotes (roaring_bitmap_add_many [] ex_vals) (zlist ex_vals) /\ lists (zlist ex_vals) ex_vals /\
  roaring_bitmap_printf (roaring_bitmap_add_many [] ex_vals) =
    [123; 48; 44; 55; 44; 49; 48; 44; 54; 53; 53; 51; 54; 44; 49; 51; 49; 48; 55; 51; 44; 49; 51; 49; 48; 55; 52; 125] /\
  roaring_bitmap_printf [(0, CRun [(0, 2); (9, 0)]); (1, CArr [4])] = [123; 48; 44; 49; 44; 50; 44; 57; 44; 54; 53; 53; 52; 48; 125] /\
  roaring_bitmap_printf [] = [123; 125] /\ roaring_toString [] = [123; 125].
Proof.
  assert (V : forall v, In v ex_vals -> val32 v) by (intros v H; unfold val32; cbn in H; intuition lia).
  split; [|split]; [| |vm_compute; auto].
  - apply (den_ext _ (zunion zempty (zlist ex_vals))); [|intros v _; reflexivity]. apply den_add_many; [apply den_new|exact V].
  - split; [repeat constructor|]. intros v. unfold zlist. rewrite existsb_exists. split; [intros I; split; [auto|exists v; split; [auto|apply Z.eqb_refl]]|]. intros (_&x&I&E). apply Z.eqb_eq in E. now subst.
Qed.
Definition ex_map : rmap := map_add (map_add (map_add [] 5) (2 ^ 32 + 1)) 3.
Example C89_map_example : denotesN ex_map (fun v => (v =? 5) || (v =? 2 ^ 32 + 1) || (v =? 3)) /\
  map_toString ex_map = Some [123; 51; 44; 53; 44; 52; 50; 57; 52; 57; 54; 55; 50; 57; 55; 125].
Proof.
  split; [|vm_compute; reflexivity]. apply denotesN_iff. apply (mden_ext _ (zadd (zadd (zadd zempty 5) (2 ^ 32 + 1)) 3)).
  - unfold ex_map. repeat (apply mden_add; [|unfold val64; lia]). apply mden_nil.
  - intros v _. unfold zadd, zempty. destruct (v =? 5), (v =? 2 ^ 32 + 1), (v =? 3); reflexivity.
Qed.
