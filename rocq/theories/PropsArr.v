(** Property C92: array containers in the memory they live in. *)
From Coq Require Import ZArith List Bool Lia.
From Verif Require Import Base SpecArr ArrBlk.
Import ListNotations.
Local Open Scope Z_scope.

(** C92: any program over any number of arrays.  The answer [Some _] means: no cell outside a block is
    read or written and no cell is read before it was written. *)
Theorem C92_programs : forall p, alegal p no_values ->
  exists m, ab_run p empty_bank = Some (m, snd (arun p no_values)) /\ forall i, shows (m i) (fst (arun p no_values) i).
Proof. exact programs_ok. Qed.
Print Assumptions C92_programs.
Theorem C92_shrink : forall p d m a, alegal p no_values -> ab_run p empty_bank = Some (m, a) ->
  exists b saved, ab_shrink_to_fit (m d) = (b, saved) /\ shows b (fst (arun p no_values) d) /\
    acap b = size (fst (arun p no_values) d) /\ saved = acap (m d) - acap b.
Proof. exact shrink_exact. Qed.
Print Assumptions C92_shrink.
Definition ex_runs : list (Z * Z) := [(2, 3); (10, 0); (65530, 5)].
Definition ex_words : list Z := 1360 :: repeat 0 1022 ++ [2 ^ 63].
Definition ex_prog : list acmd :=
  [AAdd 0 9; AAdd 0 4; AAppend 0 10; AFill 0 100 120 7; AAddRange 0 5 8; ARemove 0 8; ARemoveRange 0 100 110;
   AAnd 1 0 (Runs ex_runs); AAndNot 0 0 (Runs ex_runs); AFrom 2 (Words ex_words); AAnd 2 2 (Words ex_words); AContains 2 65535;
   ACopy 4 1; AOffsetLow 5 2 60; AOffsetHigh 6 2 60; ARunsMinus 7 ex_runs 1; AShrink 0;
   ATryAdd 1 5 3; ATryAdd 1 7 3; ATryAdd 1 7 4].
Lemma ex_words_ok : other_ok (Words ex_words).
Proof.
  split; [reflexivity|]. unfold ex_words. constructor; [split; [discriminate|reflexivity]|]. apply Forall_app. split.
  - apply Forall_forall. intros w H. apply repeat_spec in H. subst w. split; [discriminate|reflexivity].
  - constructor; [split; [discriminate|reflexivity]|constructor].
Qed.
Lemma ex_runs_ok : other_ok (Runs ex_runs).
Proof. split; [discriminate|]. cbn [spaced ex_runs]. unfold top_value. lia. Qed.
Example C92_example : alegal ex_prog no_values /\
  (match ab_run ex_prog empty_bank with
   | Some (m, a) => Some (map (fun i => (ab_values (m i), acap (m i))) [0; 1; 2; 4; 5; 6; 7]%nat, a) | None => None end) =
  Some ([([6; 7; 9; 114], 4); ([4; 5; 7; 10], 7); ([4; 6; 8; 10; 65535], 5); ([4; 5; 10], 3); ([64; 66; 68; 70], 4); ([59], 1); ([2; 3; 65530; 65531; 65532; 65533; 65534; 65535], 11)],
        [ABool true; ABool true; ANone; ANone; ANone; ABool true; ANone; ANone; ANone; ANone; ANone; ABool true; ANone; ANone; ANone; ANone; ANone; ACode 0; ACode (-1); ACode 1]).
Proof.
  split; [|vm_compute; reflexivity]. unfold ex_prog.
  let rec all_legal := lazymatch goal with |- alegal [] _ => exact I | |- alegal _ _ => split; [|all_legal] end in all_legal.
  all: try exact I; try exact ex_words_ok; try exact ex_runs_ok; cbn [aok]; unfold value, top_value; try lia.
  - split; [lia|]. intros x X E. cbn in E. lia.
  - split; [lia|]. split; [lia|]. split; [lia|]. intros x X E. cbn in E. lia.
  - split; [lia|]. exists 4. split; [lia|]. split; [lia|]. vm_compute. reflexivity.
  - split; [lia|]. exists 65535. split; [lia|]. split; [lia|]. vm_compute. reflexivity.
Qed.
