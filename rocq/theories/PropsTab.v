(** Properties C90-C91: the table of the chunks of a bitmap in the memory it lives in. *)
From Coq Require Import ZArith List Bool Lia Sorted.
From Verif Require Import Base SpecTab TabMem TabTwo.
Import ListNotations.
Local Open Scope Z_scope.

(** In all theorems below the answer is [Some ra]: no byte outside the block is touched and
    no byte is read that was never written. *)

(** C90: any sequence of edits *)
Theorem C90_program : forall cap p, 0 <= cap -> tlegal p [] -> exists ra, tab_run p (ra_init_with_capacity cap) = Some ra /\
  read_table ra = Some (trun p []) /\ zlen (blk ra) = 11 * alloc ra /\ size_of (trun p []) <= alloc ra <= 65536.
Proof. exact table_program. Qed.
Print Assumptions C90_program.
Theorem C90_lookup : forall cap p k, 0 <= cap -> tlegal p [] -> by_key (trun p []) -> exists ra i, tab_run p (ra_init_with_capacity cap) = Some ra /\ ra_get_index ra k = Some i /\
  (0 <= i -> exists s, find_key k (trun p []) = Some s /\ key ra i = Some k /\ ptr ra i = Some (s_ptr s) /\ kind ra i = Some (s_kind s)) /\
  (i < 0 -> find_key k (trun p []) = None /\ - i - 1 = size_of (below k (trun p []))).
Proof. exact table_lookup. Qed.
Print Assumptions C90_lookup.
Theorem C90_shrink : forall cap p, 0 <= cap -> tlegal p [] -> exists ra ra' savings, tab_run p (ra_init_with_capacity cap) = Some ra /\ ra_shrink_to_fit ra = Some (ra', savings) /\
  read_table ra' = Some (trun p []) /\ zlen (blk ra') = 11 * size_of (trun p []) /\ savings = zlen (blk ra) - zlen (blk ra').
Proof. exact table_shrink. Qed.
Print Assumptions C90_shrink.
Definition ex_fill (k : Z) (o : option (Z * Z)) : Z * Z := match o with Some (p, _) => ((p + 1) mod 2 ^ 64, 3) | None => ((7000 + k) mod 2 ^ 64, 3) end.
Definition ex_drop (k : Z) (c : Z * Z) : option (Z * Z) := if k =? 6 then Some (fst c mod 2 ^ 64, 2) else None.
Definition ex_prog : list tcmd :=
  [TAppend (Slot 5 1000 1); TAppend (Slot 9 2000 2); TInsert 0 (Slot 2 3000 1); TFill 4 7 ex_fill; TDrop 5 7 ex_drop; TSet 0 4000 3;
   TReplace 3 (Slot 60000 (2 ^ 64 - 1) 255); TShrink; TAppend (Slot 65535 1 1); TRemove 2; TInsert 1 (Slot 3 6000 2); TSlide 2 5 1; TDownsize 3].
Example C90_example : tlegal ex_prog [] /\ by_key (trun ex_prog []) /\ trun ex_prog [] = [Slot 2 4000 3; Slot 4 7004 3; Slot 60000 (2 ^ 64 - 1) 255] /\
  (do ra <- tab_run ex_prog (ra_init_with_capacity 1); do l <- read_table ra; Some (l, alloc ra)) = Some (trun ex_prog [], 10) /\
  (do ra <- tab_run ex_prog (ra_init_with_capacity 1); ra_get_index ra 60000) = Some 2 /\ (do ra <- tab_run ex_prog (ra_init_with_capacity 1); ra_get_index ra 59999) = Some (-3) /\
  (do ra <- tab_run ex_prog (ra_init_with_capacity 1); do x <- ra_shrink_to_fit ra; Some (snd x)) = Some 77.
Proof.
  split; [|split; [|vm_compute; auto 10]].
  - assert (F : forall k o, 0 <= fst (ex_fill k o) < 2 ^ 64 /\ 0 <= snd (ex_fill k o) < 2 ^ 8) by (intros k [(p, t)|]; cbn [ex_fill fst snd]; split; try (apply Z.mod_pos_bound; reflexivity); split; [discriminate|reflexivity|discriminate|reflexivity]).
    assert (D : forall k o p t, ex_drop k o = Some (p, t) -> 0 <= p < 2 ^ 64 /\ 0 <= t < 2 ^ 8).
    { intros k o p t. unfold ex_drop. destruct (k =? 6); [|discriminate]. intros E. injection E as <- <-. split; [apply Z.mod_pos_bound; reflexivity|split; [discriminate|reflexivity]]. }
    cbn [tlegal ex_prog]. unfold tok, slot_ok. cbn [s_key s_ptr s_kind].
    repeat match goal with |- _ /\ _ => split | |- True => exact I | |- forall _ _, 0 <= fst _ < _ /\ _ => exact F | |- forall _ _ _ _, _ => exact D | |- by_key _ => unfold by_key; vm_compute; repeat constructor | |- _ => vm_compute; congruence end.
  - unfold by_key. vm_compute. repeat constructor.
Qed.

(** C91: chunks that go from one table to another *)
Theorem C91_two_tables : forall cap cap' p, 0 <= cap -> 0 <= cap' -> plegal p ([], []) -> exists ra sa, pair_run p (ra_init_with_capacity cap, ra_init_with_capacity cap') = Some (ra, sa) /\
  read_table ra = Some (fst (prun p ([], []))) /\ read_table sa = Some (snd (prun p ([], []))) /\ zlen (blk ra) = 11 * alloc ra /\ zlen (blk sa) = 11 * alloc sa /\ alloc ra <= 65536 /\ alloc sa <= 65536.
Proof. exact two_tables. Qed.
Print Assumptions C91_two_tables.
Definition ex_share (x : Z * Z) : Z * Z := ((fst x + 1) mod 2 ^ 64, 4).
Definition ex_clone (x : Z * Z) : Z := 1 + (fst x mod 2 ^ 32).
Definition ex_two : list pcmd :=
  [PSecond (TAppend (Slot 3 100 1)); PSecond (TAppend (Slot 7 200 2)); PSecond (TAppend (Slot 9 300 3)); PFirst (TAppend (Slot 1 50 1));
   PUntil (Share ex_share) 7; PAfter (Clone ex_clone) 7; PRange Move 1 2; PSecond (TRemove 1); POverwrite (Share ex_share); PFirst (TRemove 0); PAfter (Clone ex_clone) 5].
Example C91_example : plegal ex_two ([], []) /\ prun ex_two ([], []) = ([Slot 9 301 4; Slot 9 302 4], [Slot 3 102 4; Slot 9 301 4]) /\
  (do x <- pair_run (firstn 7 ex_two) (ra_init_with_capacity 0, ra_init_with_capacity 3); read_table (fst x)) = Some [Slot 1 50 1; Slot 3 101 4; Slot 9 301 3; Slot 7 200 2] /\
  (do x <- pair_run ex_two (ra_init_with_capacity 0, ra_init_with_capacity 3); read_table (fst x)) = Some [Slot 9 301 4; Slot 9 302 4].
Proof.
  split; [|vm_compute; auto 10].
  assert (F : how_ok (Share ex_share)) by (intros (p, t); unfold ex_share; cbn [fst snd]; split; [apply Z.mod_pos_bound; reflexivity|split; [discriminate|reflexivity]]).
  assert (D : how_ok (Clone ex_clone)) by (intros (p, t); unfold ex_clone; cbn [fst snd]; pose proof (Z.mod_pos_bound p (2 ^ 32) eq_refl); lia).
  cbn [plegal ex_two].
  repeat match goal with |- context [pstep ?c ([], [])] => let v := eval vm_compute in (pstep c ([], [])) in change (pstep c ([], [])) with v | |- context [pstep ?c (?x, ?y)] => let v := eval vm_compute in (pstep c (x, y)) in change (pstep c (x, y)) with v end.
  unfold pok, tok, slot_ok. cbn [s_key s_ptr s_kind].
  repeat match goal with |- _ /\ _ => split | |- True => exact I | |- how_ok (Share _) => exact F | |- how_ok (Clone _) => exact D | |- how_ok Move => exact I | |- by_key _ => unfold by_key; vm_compute; repeat constructor | |- _ <> Move => discriminate | |- _ => vm_compute; congruence end.
Qed.
