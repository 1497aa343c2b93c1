(** Samples: concrete bitmaps mixing the three container kinds, used in the
    examples that accompany the property theorems. *)
From Coq Require Import ZArith List Bool Lia.
From Verif Require Import Base Convert Containers RArray RBinary RPoint RRange RQuery RStat RShift Spec Obs Hist.
Import ListNotations.
Local Open Scope Z_scope.
Local Opaque zr.

(** all multiples of 2 with key 3: a bitset container *)
Definition evens : bitmap := match roaring_bitmap_from_range range_fuel 196608 262144 2 with Some (Some r) => r | _ => [] end.
Lemma evens_den : denotes evens (zprog 196608 262144 2).
Proof.
  unfold evens. destruct (den_from_range range_fuel 196608 262144 2) as (r&E&D); try lia; [apply fuel_enough|]. rewrite E. exact D.
Qed.
(** arrays at keys 0 and 1, a run at key 2, a bitset at key 3 *)
Definition sampleP : zset := zunion (zunion (zlist [1; 5; 70000]) (zival 131072 131172)) (zprog 196608 262144 2).
Definition sample : bitmap :=
  roaring_bitmap_or (fst (roaring_bitmap_run_optimize (roaring_bitmap_add_range (roaring_bitmap_of_ptr [1; 5; 70000]) 131072 131172))) evens.
Lemma sample_den : denotes sample sampleP.
Proof.
  apply den_or; [|exact evens_den]. apply den_run_optimize. apply den_add_range; try lia. apply den_of_ptr. intros v Hv. cbn in Hv. red. lia.
Qed.
Definition otherP : zset := zunion (zlist [5; 6; 131080; 4294967295]) (zival 196608 262144).
Definition other : bitmap := roaring_bitmap_add_range (roaring_bitmap_of_ptr [5; 6; 131080; 4294967295]) 196608 262144.
Lemma other_den : denotes other otherP.
Proof. apply den_add_range; try lia. apply den_of_ptr. intros v Hv. cbn in Hv. red. lia. Qed.
Definition kind (c : container) : nat := match c with CArr _ => 2%nat | CBit _ => 1%nat | CRun _ => 3%nat end.
Example sample_kinds : map (fun p => (fst p, kind (snd p))) sample = [(0, 2%nat); (1, 2%nat); (2, 3%nat); (3, 1%nat)].
Proof. vm_compute. reflexivity. Qed.
Example other_kinds : map (fun p => (fst p, kind (snd p))) other = [(0, 2%nat); (2, 2%nat); (3, 3%nat); (65535, 2%nat)].
Proof. vm_compute. reflexivity. Qed.
Lemma sample_valid : valid sample. Proof. apply sample_den. Qed.
Lemma other_valid : valid other. Proof. apply other_den. Qed.
