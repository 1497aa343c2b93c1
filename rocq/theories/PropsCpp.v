(** Properties C87 and C88: objects of the C++ class Roaring and their iterators. *)
From Coq Require Import ZArith List Bool Lia.
From Verif Require Import Base Convert Containers RArray RPoint Spec SpecI SpecCpp Obs Hist RCpp RCppP.
Import ListNotations.
Local Open Scope Z_scope.

(** ** C87 *)
(** Programs that construct, copy, move, assign, swap, destroy objects and call their
    methods: no released container is used, every answer is right, every object that is
    alive holds its set. *)
Theorem C87_objects : forall p, oprog both (map fst p) no_objects ->
  exists st outs, obj_run p obj_start = Some (st, outs) /\ oagrees (map fst p) no_objects outs /\
    forall i, (alive (orun (map fst p) no_objects) i <-> object_alive st i) /\
      (object_alive st i -> exists r, holds_in st i = Some r /\ denotes r (sets (orun (map fst p) no_objects) i)).
Proof. exact objects_ok. Qed.
Print Assumptions C87_objects.
(** when no object is left, no container is left *)
Theorem C87_no_leak : forall p st S, obj_reaches p st S -> (forall i, S i = None) -> forall q, rd (mm st) q = None.
Proof. exact objects_free. Qed.
Print Assumptions C87_no_leak.
(** two objects never have a container in common *)
Theorem C87_one_owner : forall p st S, obj_reaches p st S ->
  forall i j k k' x a b, mo st i = Some a -> mo st j = Some b -> In (k, x) a -> In (k', x) b -> i = j.
Proof. exact objects_one_owner. Qed.
Print Assumptions C87_one_owner.
Example C87_example :
  oprog both (map fst (map (fun c => (c, ora0)) ex_objects)) no_objects /\ (forall i, orun ex_objects no_objects i = None) /\
  exists st, obj_run (map (fun c => (c, ora0)) ex_objects) obj_start =
    Some (st, [RNone; RNone; RNone; RNone; RNum 0; RNone; RList [1; 5; 70000]; RNone; RNone; RBool true; RNone; RNone; RNone; RList [9]; RNone; RList [1; 9; 70000]; RNone; RNone; RNone]).
Proof.
  rewrite map_map, map_id. split; [exact ex_objects_ok|]. split.
  - intros [|[|[|i]]]; reflexivity.
  - eexists. vm_compute. reflexivity.
Qed.
(** Copy assignment of an object to itself reads released containers exactly when the
    object is not empty. *)
Theorem C87_self_assignment : forall p st S d ora, obj_reaches p st S -> alive S d ->
  (obj_step (OAssign d d) ora st = None <-> ~ same_set (sets S d) zempty).
Proof. exact self_assign. Qed.
Print Assumptions C87_self_assignment.
(** so the rules of the language alone do not suffice *)
Theorem C87_self_assignment_refuted : exists p, oprog ook (map fst p) no_objects /\ obj_run p obj_start = None.
Proof. exact self_assign_refuted. Qed.
Print Assumptions C87_self_assignment_refuted.
(** r ^= r and r -= r end in a failed assertion *)
Theorem C87_self_operator_refuted : forall p st S d ora c, obj_reaches p st S -> alive S d -> c = KXorInplace d d \/ c = KAndnotInplace d d ->
  obj_step (OCall c) ora st = None.
Proof. exact self_xor_refuted. Qed.
Print Assumptions C87_self_operator_refuted.
Definition ex_self : list (ocmd * oracle) := [(OList 0 [1; 2], ora0); (ODefault 1, ora0)].
Example C87_self_example : exists st S, obj_reaches ex_self st S /\ alive S 0 /\ alive S 1 /\ ~ same_set (sets S 0%nat) zempty /\ same_set (sets S 1%nat) zempty /\
  obj_step (OAssign 0 0) ora0 st = None /\ obj_step (OAssign 1 1) ora0 st <> None.
Proof.
  eexists _, _. split; [split; [|split; [reflexivity|eexists; vm_compute; reflexivity]]|].
  - cbn. unfold both, alive, put, val32. cbn. repeat split; auto; intuition lia.
  - split; [discriminate|]. split; [discriminate|]. split; [intros H; specialize (H 1); cbn in H; discriminate H; unfold val32; lia|]. split; [intros v _; reflexivity|]. split; [vm_compute; reflexivity|vm_compute; discriminate].
Qed.

(** ** C88 *)
(** As long as what end() returns is only compared and copied, iterators are positions,
    whichever objects they belong to and whichever objects die. *)
Theorem C88_iterators : forall f L p, lists_objs f L -> jprog jboth p (jstate_of L) ->
  exists st outs, it_run p (imach_of f) = Some (st, outs) /\ jagrees p (jstate_of L) outs.
Proof. exact iterators_ok. Qed.
Print Assumptions C88_iterators.
(** a for loop over an object that is alive visits its members in order, at any time *)
Theorem C88_range_for : forall f L p st outs o l, lists_objs f L -> jprog jboth p (jstate_of L) -> it_run p (imach_of f) = Some (st, outs) ->
  j_objs (jrun p (jstate_of L)) o = Some l -> forall fuel, (length l < fuel)%nat -> range_for fuel st o = Some l.
Proof. exact range_for_ok. Qed.
Print Assumptions C88_range_for.
Example C88_example : lists_objs ex_f ex_L /\ jprog jboth ex_its (jstate_of ex_L) /\
  exists st, it_run ex_its (imach_of ex_f) =
    Some (st, [RNone; RNone; RBool true; RNum 1; RNone; RNum 8; RBool true; RNone; RNone; RNone; RBool true; RNone; RNum 8; RBool true; RNum 8; RBool false; RBool true]) /\
    j_objs (jrun ex_its (jstate_of ex_L)) 1%nat = Some [1; 8] /\ range_for 3 st 1 = Some [1; 8].
Proof.
  split; [exact ex_ok|]. split; [exact ex_its_ok|]. eexists. split; [vm_compute; reflexivity|]. split; reflexivity.
Qed.
(** --r.end() on a second object gives the last member of the first object end() was
    called on *)
Theorem C88_end_back_refuted : exists f L p st outs, lists_objs f L /\ jprog jok p (jstate_of L) /\ it_run p (imach_of f) = Some (st, outs) /\ ~ jagrees p (jstate_of L) outs.
Proof. exact end_back_refuted. Qed.
Print Assumptions C88_end_back_refuted.
(** and reads a dead object when that one is gone *)
Theorem C88_end_dangling_refuted : exists f L p, lists_objs f L /\ jprog jok p (jstate_of L) /\ it_run p (imach_of f) = None.
Proof. exact end_dangling_refuted. Qed.
Print Assumptions C88_end_dangling_refuted.
(** --r.end() in place makes later for loops over r stop at once *)
Theorem C88_end_shared_refuted : exists f L p st outs l, lists_objs f L /\ jprog jok p (jstate_of L) /\ it_run p (imach_of f) = Some (st, outs) /\
  L 0%nat = Some l /\ l <> [] /\ forall fuel, (0 < fuel)%nat -> range_for fuel st 0 = Some [].
Proof. exact end_shared_refuted. Qed.
Print Assumptions C88_end_shared_refuted.
