(** PropsOwn: C94. *)
From Coq Require Import ZArith List Bool.
From Verif Require Import Base BitsetC ArrayC RunC Convert Containers RArray Spec Obs SpecOwn OwnC OwnH.
Import ListNotations.
Local Open Scope Z_scope.

(** C94.  Every program of allowed calls runs (no container is read, written or freed
    that is not allocated, none is read as another type), every bitmap holds the set it
    should, and the containers allocated are exactly those held by the bitmaps, each by
    one entry of one bitmap. *)
Theorem C94_containers_are_accounted_for (prog : list (cmd * (Z -> Z))) (S : sets) :
  srun (map fst prog) no_sets = Some S ->
  exists w, orun prog ostart = Some w /\ bitmaps_are w S /\ accounted (live w) (holds w).
Proof. exact (program_ok prog S). Qed.
Print Assumptions C94_containers_are_accounted_for.

(** C94.  Once every bitmap has been freed, nothing is allocated. *)
Theorem C94_nothing_is_leaked (prog : list (cmd * (Z -> Z))) (S : sets) :
  srun (map fst prog) no_sets = Some S -> (forall d, S d = None) ->
  exists w, orun prog ostart = Some w /\ forall x, ~ live w x.
Proof. exact (all_freed prog S). Qed.
Print Assumptions C94_nothing_is_leaked.

(** a program whose containers change type, are emptied, copied and replaced *)
Definition tight : Z -> Z := fun _ => 1.
Definition prog1 : list (cmd * (Z -> Z)) := map (fun c => (c, tight))
  [OCreate 0; OAddRange 0 10 140000; OFlip 0 100 66000; OAdd 0 50; OCreate 1; OAdd 1 7; OAdd 1 70000; OAdd 1 (2^32 - 1);
   OCopy 2 0; OXor 2 1; OAndnot 0 1; OOr 1 0; ORemove 1 7; ORunOptimize 2; ORemoveRuns 2; OAnd 2 1; ORemoveRange 1 0 65535; OClear 0].
Definition prog2 : list (cmd * (Z -> Z)) := prog1 ++ map (fun c => (c, tight)) [OFree 1; OFree 0; OFree 2].
Definition live_list (w : world) : list nat :=
  filter (fun x => match ce (wheap w) x with Some _ => true | None => false end) (seq 0 (nx (wheap w))).
Definition held (w : world) (d : nat) : list (Z * nat) := match wvars w d with Some es => es | None => [] end.
Example C94_prog1_allowed : match srun (map fst prog1) no_sets with Some T => (match T 0%nat with Some P => P 50 | None => true end, match T 1%nat with Some P => P 70000 | None => false end) | None => (true, false) end = (false, true).
Proof. vm_compute. reflexivity. Qed.
Definition kind (w : world) (a : nat) : Z := match ce (wheap w) a with Some (CArr _) => 1 | Some (CBit _) => 2 | Some (CRun _) => 3 | None => 0 end.
(** the containers left: arrays (1), bitsets (2) and a run container (3) *)
Example C94_prog1_runs : match orun prog1 ostart with
    | Some w => Some (map (fun x => (Z.of_nat x, kind w x)) (live_list w), map (fun d => map (fun e => (fst e, Z.of_nat (snd e))) (held w d)) [0%nat; 1%nat; 2%nat], Z.of_nat (nx (wheap w)))
    | None => None
    end
  = Some ([(5, 1); (11, 1); (15, 2); (16, 3); (17, 1); (18, 2); (19, 2)],
          [[]; [(1, 15); (2, 16); (65535, 5)]; [(0, 17); (1, 18); (2, 19); (65535, 11)]], 20).
Proof. vm_compute. reflexivity. Qed.
(** the hypotheses of the second theorem *)
Example C94_prog2_allowed : match srun (map fst prog2) no_sets with Some T => forall d, T d = None | None => False end.
Proof. cbv -[zadd zdel zunion zdiff zsymm zinter zival zempty]. intros [|[|[|d]]]; reflexivity. Qed.
Example C94_prog2_runs : match orun prog2 ostart with Some w => Some (live_list w, nx (wheap w)) | None => None end = Some ([], 20%nat).
Proof. vm_compute. reflexivity. Qed.
(** calls that make new bitmaps, with empty results and with the same operand twice *)
Definition prog3 : list (cmd * (Z -> Z)) := map (fun c => (c, tight))
  [OCreate 0; OAddMany 0 [5; 6; 70000; 7; 65536 * 9]; ORemoveMany 0 [6; 5; 65536 * 9; 6]; OCreate 1; OAddRange 1 0 200000; OAdd 1 300000;
   ONewAnd 2 0 1; ONewOr 3 0 1; ONewXor 4 1 1; ONewAndnot 5 0 1; ONewXor 6 0 1; ONewFlip 7 1 10 70000; ONewFlip 8 1 0 131071; OOverwrite 0 7].
Definition prog4 : list (cmd * (Z -> Z)) := prog3 ++ map (fun c => (c, tight)) (map OFree [8; 7; 6; 5; 4; 3; 2; 1; 0]%nat).
Example C94_prog3_allowed : match srun (map fst prog3) no_sets with
    | Some T => map (fun d => match T d with Some P => P 70000 | None => false end) [0; 1; 2; 3; 4; 5; 6; 7; 8; 9]%nat
    | None => [] end = [false; true; true; true; false; false; false; false; false; false].
Proof. vm_compute. reflexivity. Qed.
Example C94_prog3_runs : match orun prog3 ostart with
    | Some w => Some (map (fun d => map (fun e => (fst e, kind w (snd e))) (held w d)) [0; 1; 2; 3; 4; 5; 6; 7; 8]%nat,
                      (Z.of_nat (length (live_list w)), Z.of_nat (nx (wheap w))))
    | None => None
    end
  = Some ([[(0, 3); (1, 3); (2, 3); (3, 3); (4, 1)]; [(0, 3); (1, 3); (2, 3); (3, 3); (4, 1)]; [(0, 1); (1, 1)]; [(0, 3); (1, 3); (2, 3); (3, 3); (4, 1)]; [];
           []; [(0, 3); (1, 3); (2, 3); (3, 3); (4, 1)]; [(0, 3); (1, 3); (2, 3); (3, 3); (4, 1)]; [(2, 3); (3, 3); (4, 1)]], (30, 42)).
Proof. vm_compute. reflexivity. Qed.
Example C94_prog4_allowed : match srun (map fst prog4) no_sets with Some T => forall d, T d = None | None => False end.
Proof. cbv -[zadd zdel zunion zdiff zsymm zinter zival zempty]. intros [|[|[|[|[|[|[|[|[|d]]]]]]]]]; reflexivity. Qed.
Example C94_prog4_runs : match orun prog4 ostart with Some w => Some (live_list w) | None => None end = Some [].
Proof. vm_compute. reflexivity. Qed.
(** unions and symmetric differences of several bitmaps, of one and of none; one bitmap
    is given twice *)
Definition prog5 : list (cmd * (Z -> Z)) := map (fun c => (c, tight))
  [OCreate 0; OAddMany 0 [5; 6; 70000]; OCreate 1; OAddRange 1 0 65535; OAdd 1 300000; OCreate 2; OAddRange 2 100 70000; OFlip 2 200 300; OCreate 3; OAdd 3 300000; OAdd 3 70001;
   OOrMany 4 [0; 1; 2; 3]%nat; OXorMany 5 [0; 1; 3; 2; 0]%nat; OOrMany 6 []; OXorMany 7 [2]%nat; OXorMany 8 [0; 0]%nat; OOrMany 9 [3; 0; 3]%nat].
Definition prog6 : list (cmd * (Z -> Z)) := prog5 ++ map (fun c => (c, tight)) (map OFree [9; 8; 7; 6; 5; 4; 3; 2; 1; 0]%nat).
Example C94_prog5_allowed : match srun (map fst prog5) no_sets with
    | Some T => map (fun d => match T d with Some P => (P 250, P 70000) | None => (false, false) end) [4; 5; 6; 7; 8; 9; 10]%nat
    | None => [] end = [(true, true); (true, true); (false, false); (false, true); (false, false); (false, true); (false, false)].
Proof. vm_compute. reflexivity. Qed.
Example C94_prog5_runs : match orun prog5 ostart with
    | Some w => Some (map (fun d => map (fun e => (fst e, kind w (snd e))) (held w d)) [0; 1; 2; 3; 4; 5; 6; 7; 8; 9]%nat,
                      (Z.of_nat (length (live_list w)), Z.of_nat (nx (wheap w))))
    | None => None
    end
  = Some ([[(0, 1); (1, 1)]; [(0, 3); (4, 1)]; [(0, 3); (1, 3)]; [(1, 1); (4, 1)]; [(0, 3); (1, 2); (4, 1)];
           [(0, 3); (1, 3)]; []; [(0, 3); (1, 3)]; []; [(0, 1); (1, 1); (4, 1)]], (18, 35)).
Proof. vm_compute. reflexivity. Qed.
Example C94_prog6_allowed : match srun (map fst prog6) no_sets with Some T => forall d, T d = None | None => False end.
Proof. cbv -[zadd zdel zunion zdiff zsymm zinter zival zempty]. intros [|[|[|[|[|[|[|[|[|[|d]]]]]]]]]]; reflexivity. Qed.
Example C94_prog6_runs : match orun prog6 ostart with Some w => Some (live_list w) | None => None end = Some [].
Proof. vm_compute. reflexivity. Qed.
(** the union with a queue: two, three, five bitmaps; in the last one two temporary results
    are merged, and one bitmap is there twice *)
Definition prog7 : list (cmd * (Z -> Z)) := firstn 11 prog5 ++ map (fun c => (c, tight))
  [OOrHeap 4 [0; 1]%nat []; OOrHeap 5 [0; 1; 2]%nat [(2, 0); (1, 0)]%nat; OOrHeap 6 [0; 1; 2; 3; 0]%nat [(0, 0); (1, 1); (1, 1); (0, 0)]%nat; OOrHeap 7 [] []; OOrHeap 8 [3]%nat []].
Definition prog8 : list (cmd * (Z -> Z)) := prog7 ++ map (fun c => (c, tight)) (map OFree [8; 7; 6; 5; 4; 3; 2; 1; 0]%nat).
Example C94_prog7_allowed : match srun (map fst prog7) no_sets with
    | Some T => map (fun d => match T d with Some P => (P 6, P 70000, P 70001) | None => (false, false, false) end) [4; 5; 6; 7; 8; 9]%nat
    | None => [] end
  = [(true, true, false); (true, true, false); (true, true, true); (false, false, false); (false, false, true); (false, false, false)].
Proof. vm_compute. reflexivity. Qed.
Example C94_prog7_runs : match orun prog7 ostart with
    | Some w => Some (map (fun d => map (fun e => (fst e, kind w (snd e))) (held w d)) [4; 5; 6; 7; 8]%nat,
                      (Z.of_nat (length (live_list w)), Z.of_nat (nx (wheap w))))
    | None => None
    end
  = Some ([[(0, 3); (1, 1); (4, 1)]; [(0, 3); (1, 3); (4, 1)]; [(0, 3); (1, 3); (4, 1)]; []; [(1, 1); (4, 1)]], (19, 26)).
Proof. vm_compute. reflexivity. Qed.
Example C94_prog8_allowed : match srun (map fst prog8) no_sets with Some T => forall d, T d = None | None => False end.
Proof. cbv -[zadd zdel zunion zdiff zsymm zinter zival zempty]. intros [|[|[|[|[|[|[|[|[|d]]]]]]]]]; reflexivity. Qed.
Example C94_prog8_runs : match orun prog8 ostart with Some w => Some (live_list w) | None => None end = Some [].
Proof. vm_compute. reflexivity. Qed.
(** adding an offset: to a bitset, both parts of which are used, or one only (the empty
    lower part serves for the upper one); to bitmaps whose parts meet in one key; whole
    keys; beyond the ends *)
Definition prog9 : list (cmd * (Z -> Z)) := map (fun c => (c, tight))
  [OCreate 0; OAddRange 0 40000 60000; ORemoveRuns 0; OCreate 1; OAddMany 1 [5; 60000; 70000; 131071]; OAddRange 1 200000 400000;
   OAddOffset 2 0 30000; OAddOffset 3 0 10000; OAddOffset 4 0 2000; OAddOffset 5 0 (-30000); OAddOffset 6 0 (-50000); OAddOffset 7 0 (2^32 - 50000);
   OAddOffset 8 1 20000; OAddOffset 9 1 (-131072); OAddOffset 10 1 0; OAddOffset 11 1 (2^32)].
Definition prog10 : list (cmd * (Z -> Z)) := prog9 ++ map (fun c => (c, tight)) (map OFree [11; 10; 9; 8; 7; 6; 5; 4; 3; 2; 1; 0]%nat).
Example C94_prog9_allowed : match srun (map fst prog9) no_sets with
    | Some T => map (fun d => match T d with Some P => (P 10000, P 70000, P (2^32 - 1)) | None => (false, false, false) end) [2; 3; 4; 5; 6; 7; 8; 9; 10; 11]%nat
    | None => [] end
  = [(false, true, false); (false, true, false); (false, false, false); (true, false, false); (true, false, false); (false, false, true);
     (false, false, false); (false, true, false); (false, true, false); (false, false, false)].
Proof. vm_compute. reflexivity. Qed.
Example C94_prog9_runs : match orun prog9 ostart with
    | Some w => Some (map (fun d => map (fun e => (fst e, kind w (snd e))) (held w d)) [2; 3; 4; 5; 6; 7; 8; 9; 10; 11]%nat,
                      (Z.of_nat (length (live_list w)), Z.of_nat (nx (wheap w))))
    | None => None
    end
  = Some ([[(1, 2)]; [(0, 2); (1, 2)]; [(0, 2)]; [(0, 2)]; [(0, 2)]; [(65535, 2)];
           [(0, 1); (1, 1); (2, 1); (3, 3); (4, 3); (5, 3); (6, 3)]; [(1, 3); (2, 3); (3, 3); (4, 3)];
           [(0, 1); (1, 1); (3, 3); (4, 3); (5, 3); (6, 3)]; []], (31, 37)).
Proof. vm_compute. reflexivity. Qed.
Example C94_prog10_allowed : match srun (map fst prog10) no_sets with Some T => forall d, T d = None | None => False end.
Proof. cbv -[zadd zdel zunion zdiff zsymm zinter zival zempty zshift in32]. intros [|[|[|[|[|[|[|[|[|[|[|[|d]]]]]]]]]]]]; reflexivity. Qed.
Example C94_prog10_runs : match orun prog10 ostart with Some w => Some (live_list w) | None => None end = Some [].
Proof. vm_compute. reflexivity. Qed.
(** what is not allowed: freeing twice, using a freed bitmap *)
Example C94_double_free : orun (map (fun c => (c, tight)) [OCreate 0; OAdd 0 1; OFree 0; OFree 0]) ostart = None.
Proof. reflexivity. Qed.
