(** MixedU: src/containers/mixed_union.c and src/containers/mixed_xor.c. *)
From Coq Require Import ZArith List Bool Lia Sorted Btauto.
From Verif Require Import Base ArrayUtil BitUtil BitsetC ArrayC RunC RunD Convert MixedI.
Import ListNotations.
Open Scope Z_scope.
Local Opaque zr.

(** ** Invariant of intermediate results of the lazy operations (specification side):
    bitsets may have cardinality BITSET_UNKNOWN_CARDINALITY (-1) and any size class. *)
Definition lok (c : container) : Prop :=
  match c with
  | CArr a => awf a /\ zlen a <= 4096
  | CBit b => blz b
  | CRun r => rwf r
  end.
Definition lrep (c : container) (P : Z -> bool) : Prop :=
  lok c /\ forall x, 0 <= x < 65536 -> cmem c x = P x.

(** ** Model: mixed_union.c *)
(** mixed_union.c:22-29 *)
Definition array_bitset_container_union (a : list Z) (b : bset) : bset :=
  let '(ws, card) := bitset_set_list_withcard (b_words b) (b_card b) a in (card, ws).
(** mixed_union.c:33-39 *)
Definition array_bitset_container_lazy_union (a : list Z) (b : bset) : bset :=
  (-1, bitset_set_list (b_words b) a).
(** mixed_union.c:41-51 *)
Definition run_bitset_container_union (r : list run) (b : bset) : bset :=
  let ws := set_runs (b_words b) r in (bitset_container_compute_cardinality ws, ws).
(** mixed_union.c:53-63 *)
Definition run_bitset_container_lazy_union (r : list run) (b : bset) : bset :=
  (-1, set_runs (b_words b) r).
(** mixed_union.c:66-108 array_run_container_union; the in-place variant 110-160 runs the
    same loop on a copy of the runs moved to the end of the buffer.  Both read the first
    run and the first array element unguarded: precondition both sources non-empty. *)
Fixpoint array_run_union_loop (fuel : nat) (dst : list run) (prev : run) (a : list Z) (r : list run) : list run :=
  match fuel with
  | O => dst
  | S f =>
    match r, a with
    | x :: r', y :: a' =>
      if fst x <=? y then let '(dst', prev') := run_container_append dst x prev in array_run_union_loop f dst' prev' a r'
      else let '(dst', prev') := run_container_append_value dst y prev in array_run_union_loop f dst' prev' a' r
    | [], y :: a' => let '(dst', prev') := run_container_append_value dst y prev in array_run_union_loop f dst' prev' a' []
    | x :: r', [] => let '(dst', prev') := run_container_append dst x prev in array_run_union_loop f dst' prev' [] r'
    | [], [] => dst
    end
  end.
Definition array_run_container_union (a : list Z) (r : list run) : list run :=
  if run_container_is_full r then r
  else
    let fuel := S (length a + length r) in
    if fst (rnth r 0) <=? znth a 0 then
      let '(dst, prev) := run_container_append_first [] (rnth r 0) in array_run_union_loop fuel dst prev a (rskip 1 r)
    else
      let '(dst, prev) := run_container_append_value_first [] (znth a 0) in array_run_union_loop fuel dst prev (zskip 1 a) r.
(** mixed_union.c:162-191 array_array_container_union *)
Definition array_array_bitset_union (a b : list Z) : bset :=
  let ws := bitset_set_list (b_words bitset_container_create) a in
  let '(ws', card) := bitset_set_list_withcard ws (zlen a) b in (card, ws').
Definition array_array_container_union (a b : list Z) : container :=
  if zlen a + zlen b <=? 4096 then CArr (array_container_union a b)
  else bitset_or_array (array_array_bitset_union a b).
(** mixed_union.c:193-245 array_array_container_inplace_union; [cap] is src_1->capacity.
    With room, src_1 is moved to the end of its own buffer and merged in place by
    union_uint16 (the overlap is studied in SimdU.v). *)
Definition array_array_container_inplace_union (cap : Z) (a b : list Z) : container :=
  if zlen a + zlen b <=? 4096 then
    if cap <? zlen a + zlen b then CArr (array_container_union a b)
    else CArr (union_uint16 a b)
  else bitset_or_array (array_array_bitset_union a b).
(** mixed_union.c:247-281 array_array_container_lazy_union *)
Definition array_array_container_lazy_union (a b : list Z) : container :=
  if zlen a + zlen b <=? 1024 then CArr (array_container_union a b)
  else CBit (-1, bitset_set_list (bitset_set_list (b_words bitset_container_create) a) b).
(** mixed_union.c:283-366 array_array_container_lazy_inplace_union *)
Definition array_array_container_lazy_inplace_union (cap : Z) (a b : list Z) : container :=
  if zlen a + zlen b <=? 1024 then
    if cap <? zlen a + zlen b then CArr (array_container_union a b)
    else CArr (fast_union_uint16 a b)
  else CBit (-1, bitset_set_list (bitset_set_list (b_words bitset_container_create) a) b).

(** ** Model: mixed_xor.c *)
(** mixed_xor.c:23-42; bitset_array_container_ixor (282-295) is the same computation *)
Definition array_bitset_container_xor (a : list Z) (b : bset) : container :=
  let '(ws, card) := bitset_flip_list_withcard (b_words b) (b_card b) a in bitset_or_array (card, ws).
(** mixed_xor.c:46-53 *)
Definition array_bitset_container_lazy_xor (a : list Z) (b : bset) : bset :=
  (-1, bitset_flip_list (b_words b) a).
(** mixed_xor.c:61-83 *)
Definition flip_runs (ws : list Z) (r : list run) : list Z :=
  fold_left (fun ws x => bitset_flip_range ws (fst x) (fst x + snd x + 1)) r ws.
Definition run_bitset_container_xor (r : list run) (b : bset) : container :=
  let ws := flip_runs (b_words b) r in bitset_or_array (bitset_container_compute_cardinality ws, ws).
(** mixed_xor.c:88-99 *)
Definition run_bitset_container_lazy_xor (r : list run) (b : bset) : bset :=
  (-1, flip_runs (b_words b) r).
(** mixed_xor.c:145-173 array_run_container_lazy_xor *)
Fixpoint array_run_xor_loop (fuel : nat) (dst : list run) (a : list Z) (r : list run) : list run :=
  match fuel with
  | O => dst
  | S f =>
    match r, a with
    | x :: r', y :: a' =>
      if fst x <=? y then array_run_xor_loop f (run_container_smart_append_exclusive dst (fst x) (snd x)) a r'
      else array_run_xor_loop f (run_container_smart_append_exclusive dst y 0) a' r
    | [], y :: a' => array_run_xor_loop f (run_container_smart_append_exclusive dst y 0) a' []
    | x :: r', [] => array_run_xor_loop f (run_container_smart_append_exclusive dst (fst x) (snd x)) [] r'
    | [], [] => dst
    end
  end.
Definition array_run_container_lazy_xor (a : list Z) (r : list run) : list run :=
  array_run_xor_loop (S (length a + length r)) [] a r.
(** mixed_xor.c:196-219 array_array_container_xor *)
Definition array_array_container_xor (a b : list Z) : container :=
  if zlen a + zlen b <=? 4096 then CArr (array_container_xor a b)
  else
    let '(ws, card) := bitset_flip_list_withcard (b_words (bitset_container_from_array a)) (zlen a) b in
    bitset_or_array (card, ws).
(** mixed_xor.c:104-138 array_run_container_xor *)
Definition array_run_container_xor (a : list Z) (r : list run) : container :=
  if zlen a <? 32 then convert_run_to_efficient_container (array_run_container_lazy_xor a r)
  else if run_container_cardinality r <=? 4096 then array_array_container_xor (array_container_from_run r) a
  else array_bitset_container_xor a (bitset_container_from_run r).
(** mixed_xor.c:179-187 *)
Definition run_run_container_xor (r1 r2 : list run) : container :=
  convert_run_to_efficient_container (run_container_xor r1 r2).
(** mixed_xor.c:221-255 *)
Definition array_array_container_lazy_xor (a b : list Z) : container :=
  if zlen a + zlen b <=? 1024 then CArr (array_container_xor a b)
  else CBit (-1, bitset_flip_list (b_words (bitset_container_from_array a)) b).
(** mixed_xor.c:260-273; in place 302-314 *)
Definition bitset_bitset_container_xor (b1 b2 : bset) : container := bitset_or_array (bitset_container_xor b1 b2).

(** * Proofs *)
Lemma erep_lrep c P : erep c P -> lrep c P.
Proof. intros [K H]. split; auto. destruct c; cbn in *; auto. apply bwf_blz. tauto. Qed.
Lemma lrep_ext c P Q : lrep c P -> (forall x, 0 <= x < 65536 -> P x = Q x) -> lrep c Q.
Proof. intros [K H] E. split; auto. intros x Hx. rewrite <- E by auto. auto. Qed.

(** list kernels specialised to 1024 words *)
Lemma set_list_ok ws l : bws ws -> inb 0 65536 l ->
  bws (bitset_set_list ws l) /\ forall x, 0 <= x -> bget (bitset_set_list ws l) x = bget ws x || zmem x l.
Proof. intros W B. exact (bitset_set_list_spec 1024 l ws W B). Qed.
Lemma set_list_wc_ok ws l c : bws ws -> inb 0 65536 l -> c = bcard ws ->
  bitset_set_list_withcard ws c l = (bitset_set_list ws l, bcard (bitset_set_list ws l)).
Proof.
  intros W B E. destruct (bitset_set_list_withcard_spec 1024 l ws c W B E) as [A1 A2].
  rewrite (surjective_pairing (bitset_set_list_withcard ws c l)). rewrite A1, A2. reflexivity.
Qed.
Lemma flip_list_ok ws l : bws ws -> awf l ->
  bws (bitset_flip_list ws l) /\ forall x, 0 <= x -> bget (bitset_flip_list ws l) x = xorb (bget ws x) (zmem x l).
Proof. intros W [I B]. exact (bitset_flip_list_spec 1024 l ws W B (incr_NoDup l I)). Qed.
Lemma flip_list_wc_ok ws l c : bws ws -> inb 0 65536 l -> c = bcard ws ->
  bitset_flip_list_withcard ws c l = (bitset_flip_list ws l, bcard (bitset_flip_list ws l)).
Proof.
  intros W B E. destruct (bitset_flip_list_withcard_spec 1024 l ws c W B E) as [A1 A2].
  rewrite (surjective_pairing (bitset_flip_list_withcard ws c l)). rewrite A1, A2. reflexivity.
Qed.
Lemma clear_list_ok ws l c : bws ws -> inb 0 65536 l -> c = bcard ws ->
  let r := bitset_clear_list ws c l in
  bws (fst r) /\ (forall x, 0 <= x -> bget (fst r) x = bget ws x && negb (zmem x l)) /\ snd r = bcard (fst r).
Proof. intros W B E. exact (bitset_clear_list_spec 1024 l ws c W B E). Qed.

(** ** union *)
Lemma array_bitset_union_spec a b : awf a -> bwf b ->
  bwf (array_bitset_container_union a b) /\ b_card b <= b_card (array_bitset_container_union a b) /\
  forall x, 0 <= x < 65536 -> bget (b_words (array_bitset_container_union a b)) x = amem a x || bget (b_words b) x.
Proof.
  intros [I B] [W E]. unfold array_bitset_container_union. rewrite set_list_wc_ok by auto.
  destruct (set_list_ok (b_words b) a W B) as [A1 A2]. split; [split; auto|]. cbn [b_card b_words fst snd]. split.
  - rewrite E. unfold bcard. apply cnt_mono. intros x Hx T. rewrite A2 by lia. now rewrite T.
  - intros x Hx. rewrite A2 by lia. apply orb_comm.
Qed.
Lemma array_bitset_lazy_union_spec a b : awf a -> bws (b_words b) ->
  blz (array_bitset_container_lazy_union a b) /\
  forall x, 0 <= x < 65536 -> bget (b_words (array_bitset_container_lazy_union a b)) x = amem a x || bget (b_words b) x.
Proof.
  intros [I B] W. destruct (set_list_ok (b_words b) a W B) as [A1 A2].
  split; [split; auto|]. intros x Hx. cbn [b_words array_bitset_container_lazy_union snd]. rewrite A2 by lia. apply orb_comm.
Qed.
Lemma run_bitset_union_spec r b : rwf r -> bws (b_words b) ->
  bwf (run_bitset_container_union r b) /\
  forall x, 0 <= x < 65536 -> bget (b_words (run_bitset_container_union r b)) x = rmem r x || bget (b_words b) x.
Proof.
  intros R W. destruct (set_runs_spec r (b_words b) 0 W ltac:(lia) R) as [A1 A2].
  unfold run_bitset_container_union. split.
  - split; auto. now apply compute_cardinality_spec.
  - intros x Hx. cbn [b_words snd]. rewrite A2 by lia. apply orb_comm.
Qed.
Lemma run_bitset_lazy_union_spec r b : rwf r -> bws (b_words b) ->
  blz (run_bitset_container_lazy_union r b) /\
  forall x, 0 <= x < 65536 -> bget (b_words (run_bitset_container_lazy_union r b)) x = rmem r x || bget (b_words b) x.
Proof.
  intros R W. destruct (set_runs_spec r (b_words b) 0 W ltac:(lia) R) as [A1 A2]. split.
  - split; auto.
  - intros x Hx. cbn [b_words run_bitset_container_lazy_union snd]. rewrite A2 by lia. apply orb_comm.
Qed.

Lemma array_run_union_loop_spec fuel D p a r : rok 0 (D ++ [p]) -> incr a -> inb (fst p) 65536 a -> rok (fst p) r ->
  (length a + length r < fuel)%nat ->
  let u := array_run_union_loop fuel (D ++ [p]) p a r in
  rok 0 u /\ u <> [] /\ forall y, rmem u y = rmem (D ++ [p]) y || amem a y || rmem r y.
Proof.
  revert D p a r. induction fuel as [|f IH]; intros D p a r H Ia Ba Hr Hf; [lia|]. cbn zeta. cbn [array_run_union_loop].
  assert (StepR : forall x a' r', 0 <= snd x -> fst x + snd x < 65536 -> fst p <= fst x -> incr a' -> inb (fst x) 65536 a' -> rok (fst x) r' ->
     (length a' + length r' < f)%nat ->
     let u := (let '(dst', prev') := run_container_append (D ++ [p]) x p in array_run_union_loop f dst' prev' a' r') in
     rok 0 u /\ u <> [] /\ forall y, rmem u y = rmem (D ++ [p]) y || inrun x y || amem a' y || rmem r' y).
  { intros x a' r' X1 X2 X3 X4 X5 X6 X7. destruct (append_run_spec D p x 0 H) as (D'&p'&E&R&P&M); auto; try lia.
    cbn zeta. rewrite E. destruct (IH D' p' a' r') as (U1&U2&U3); auto.
    - eapply Forall_impl; [|exact X5]. cbn. intros; lia.
    - eapply rok_weaken; [|eauto]; lia.
    - split; auto. split; auto. intros y. rewrite U3, M. reflexivity. }
  assert (StepV : forall x a' r', fst p <= x < 65536 -> incr a' -> inb x 65536 a' -> rok x r' ->
     (length a' + length r' < f)%nat ->
     let u := (let '(dst', prev') := run_container_append_value (D ++ [p]) x p in array_run_union_loop f dst' prev' a' r') in
     rok 0 u /\ u <> [] /\ forall y, rmem u y = rmem (D ++ [p]) y || (y =? x) || amem a' y || rmem r' y).
  { intros x a' r' X1 X4 X5 X6 X7. destruct (append_value_spec D p x 0 H) as (D'&p'&E&R&P&M); auto; try lia.
    cbn zeta. rewrite E. destruct (IH D' p' a' r') as (U1&U2&U3); auto.
    - eapply Forall_impl; [|exact X5]. cbn. intros; lia.
    - eapply rok_weaken; [|eauto]; lia.
    - split; auto. split; auto. intros y. rewrite U3, M. reflexivity. }
  assert (Tail : forall x a', incr (x :: a') -> inb (fst p) 65536 (x :: a') -> fst p <= x < 65536 /\ incr a' /\ inb x 65536 a').
  { intros x a' T1 T2. apply incr_cons in T1. apply inb_cons in T2. destruct T1 as [T1 T1'], T2 as [T2 T2'].
    repeat split; try tauto; try lia. unfold inb in *. rewrite Forall_forall in *. intros z Iz. specialize (T1 z Iz). specialize (T2' z Iz). cbn in T2'. lia. }
  cbn zeta in StepR, StepV.
  destruct r as [|[v l] r], a as [|y0 a]; cbn [length] in Hf.
  - split; auto. split; [destruct D; discriminate|]. intros y. rsimp. unfold amem. cbn [zmem existsb]. now rewrite !orb_false_r.
  - destruct (Tail y0 a Ia Ba) as (T1 & T2 & T3). destruct (StepV y0 a []) as (U1&U2&U3); auto; try (cbn; auto; lia).
    split; auto. split; auto. intros y. rewrite U3. unfold amem. rewrite zmem_cons. rsimp. btauto.
  - cbn [rok] in Hr. destruct (StepR (v,l) [] r) as (U1&U2&U3); cbn [fst snd]; try (intuition lia); try (now constructor).
    { eapply rok_weaken; [|apply Hr]. lia. } { cbn [length]; lia. }
    split; auto. split; auto. intros y. rewrite U3. rsimp. unfold amem. cbn [zmem existsb]. btauto.
  - cbn [fst]. assert (Hr' := Hr). cbn [rok] in Hr. destruct (Tail y0 a Ia Ba) as (T1 & T2 & T3). destruct (Z.leb_spec v y0).
    + destruct (StepR (v,l) (y0 :: a) r) as (U1&U2&U3); cbn [fst snd] in *; try (intuition lia).
      { apply inb_cons. split; [lia|]. eapply Forall_impl; [|exact T3]. cbn. intros; lia. }
      { eapply rok_weaken; [|apply Hr]. lia. } { cbn [length]. lia. }
      split; auto. split; auto. intros y. rewrite U3. rsimp. btauto.
    + destruct (StepV y0 a ((v,l)::r)) as (U1&U2&U3); auto.
      { cbn [rok]. intuition lia. } { cbn [length]. lia. }
      split; auto. split; auto. intros y. rewrite U3. unfold amem. rewrite zmem_cons. rsimp. btauto.
Qed.
Lemma array_run_union_spec a r : awf a -> a <> [] -> rwf r -> r <> [] ->
  rwf (array_run_container_union a r) /\ array_run_container_union a r <> [] /\
  forall y, 0 <= y < 65536 -> rmem (array_run_container_union a r) y = amem a y || rmem r y.
Proof.
  intros [Ia Ba] Na R Nr. unfold array_run_container_union.
  destruct (run_container_is_full r) eqn:F.
  { split; auto. split; auto. intros y Hy. rewrite (is_full_iff r R) in F. rewrite F by auto. now rewrite orb_true_r. }
  destruct r as [|[v l] r]; [congruence|]. destruct a as [|y0 a]; [congruence|].
  rewrite rnth_0, znth_cons_0. cbn [fst]. change (rskip 1 ((v,l)::r)) with r. change (zskip 1 (y0 :: a)) with a.
  unfold run_container_append_first, run_container_append_value_first. assert (R' := R). unfold rwf in R. cbn [rok] in R.
  assert (Ba' := Ba). apply inb_cons in Ba. destruct Ba as [B1 B2].
  assert (Ia' := Ia). apply incr_cons in Ia. destruct Ia as [I1 I2].
  assert (B3 : inb y0 65536 a).
  { unfold inb in *. rewrite Forall_forall in *. intros z Iz. specialize (I1 z Iz). specialize (B2 z Iz). cbn in B2. lia. }
  destruct (Z.leb_spec v y0).
  - destruct (array_run_union_loop_spec (S (length (y0::a) + length ((v,l)::r))) [] (v,l) (y0::a) r) as (U1&U2&U3).
    { cbn [app rok]. intuition lia. } { auto. }
    { cbn [fst]. apply inb_cons. split; [lia|]. eapply Forall_impl; [|exact B3]. cbn. intros; lia. }
    { eapply rok_weaken; [|apply R]. cbn. lia. } { cbn [length]. lia. }
    split; auto. split; auto. intros y _. etransitivity; [apply U3|]. cbn [app]. rsimp. btauto.
  - destruct (array_run_union_loop_spec (S (length (y0::a) + length ((v,l)::r))) [] (y0,0) a ((v,l)::r)) as (U1&U2&U3).
    { cbn [app rok]. intuition lia. } { auto. } { auto. } { cbn [rok fst]. intuition lia. } { cbn [length]. lia. }
    split; auto. split; auto. intros y _. etransitivity; [apply U3|]. cbn [app]. unfold amem. rewrite zmem_cons. rsimp.
    replace ((y0 <=? y) && (y <=? y0 + 0)) with (y =? y0) by lia. btauto.
Qed.

Lemma erep_array a P : awf a -> zlen a <= 4096 -> (forall x, 0 <= x < 65536 -> amem a x = P x) -> erep (CArr a) P.
Proof. intros. split; cbn [eok cmem]; auto. Qed.
Lemma zlen_union_le a b : awf a -> awf b -> zlen (array_container_union a b) <= zlen a + zlen b.
Proof.
  intros A B. destruct (array_union_spec a b A B) as [U M].
  rewrite (zlen_acard _ U), (zlen_acard _ A), (zlen_acard _ B). unfold acard.
  rewrite (cnt_ext (amem (array_container_union a b)) (fun x => amem a x || amem b x)) by auto.
  pose proof (cnt_incl_excl (amem a) (amem b) 0 65536). pose proof (cnt_bound (fun x => amem a x && amem b x) 0 65536 ltac:(lia)). lia.
Qed.
Lemma bcard_set_list_create a : awf a ->
  zlen a = bcard (bitset_set_list (b_words bitset_container_create) a).
Proof.
  intros A. destruct (set_list_ok (b_words bitset_container_create) a (proj1 create_bwf) (proj2 A)) as [_ H].
  rewrite (zlen_acard a A). unfold acard, bcard. apply cnt_ext. intros x Hx. rewrite H by lia.
  cbn [b_words bitset_container_create snd]. rewrite bget_zero by lia. reflexivity.
Qed.
Lemma array_array_bitset_union_spec a b : awf a -> awf b ->
  bwf (array_array_bitset_union a b) /\
  forall x, 0 <= x < 65536 -> bget (b_words (array_array_bitset_union a b)) x = amem a x || amem b x.
Proof.
  intros A B. unfold array_array_bitset_union.
  destruct (set_list_ok (b_words bitset_container_create) a (proj1 create_bwf) (proj2 A)) as [W1 H1].
  pose proof (bcard_set_list_create a A) as Ec.
  destruct (set_list_ok _ b W1 (proj2 B)) as [W2 H2].
  rewrite set_list_wc_ok by (auto; apply B).
  split; [split; auto|]. intros x Hx. cbn [b_words snd]. rewrite H2, H1 by lia.
  cbn [b_words bitset_container_create snd]. rewrite bget_zero by lia. reflexivity.
Qed.
Lemma array_array_union_spec a b : awf a -> awf b ->
  erep (array_array_container_union a b) (fun x => amem a x || amem b x).
Proof.
  intros A B. unfold array_array_container_union. destruct (Z.leb_spec (zlen a + zlen b) 4096).
  - destruct (array_union_spec a b A B) as [U M]. apply erep_array; auto. pose proof (zlen_union_le a b A B). lia.
  - destruct (array_array_bitset_union_spec a b A B) as [[W E] M].
    rewrite (surjective_pairing (array_array_bitset_union a b)). apply bitset_or_array_spec; auto.
Qed.
(** the value does not depend on the capacity *)
Lemma array_array_inplace_union_eq cap a b : awf a -> awf b ->
  array_array_container_inplace_union cap a b = array_array_container_union a b.
Proof.
  intros A B. unfold array_array_container_inplace_union, array_array_container_union.
  destruct (zlen a + zlen b <=? 4096); auto. destruct (cap <? zlen a + zlen b); auto. f_equal.
  apply incr_ext; [apply union_uint16_incr; [apply A|apply B]|apply fast_union_uint16_incr; [apply A|apply B]|].
  intros x. unfold array_container_union. rewrite union_uint16_In, fast_union_uint16_In. tauto.
Qed.
Lemma array_array_lazy_inplace_union_eq cap a b :
  array_array_container_lazy_inplace_union cap a b = array_array_container_lazy_union a b.
Proof.
  unfold array_array_container_lazy_inplace_union, array_array_container_lazy_union, array_container_union.
  destruct (zlen a + zlen b <=? 1024); auto. destruct (cap <? zlen a + zlen b); auto.
Qed.
Lemma array_array_lazy_union_spec a b : awf a -> awf b ->
  lrep (array_array_container_lazy_union a b) (fun x => amem a x || amem b x).
Proof.
  intros A B. unfold array_array_container_lazy_union. destruct (Z.leb_spec (zlen a + zlen b) 1024).
  - destruct (array_union_spec a b A B) as [U M]. apply erep_lrep, erep_array; auto. pose proof (zlen_union_le a b A B). lia.
  - destruct (set_list_ok (b_words bitset_container_create) a (proj1 create_bwf) (proj2 A)) as [W1 H1].
    destruct (set_list_ok _ b W1 (proj2 B)) as [W2 H2]. split; [split; auto|].
    intros x Hx. cbn [cmem b_words snd]. rewrite H2, H1 by lia.
    cbn [b_words bitset_container_create snd]. rewrite bget_zero by lia. reflexivity.
Qed.

(** ** xor *)
Lemma array_bitset_xor_spec a b : awf a -> bwf b ->
  erep (array_bitset_container_xor a b) (fun x => xorb (amem a x) (bget (b_words b) x)).
Proof.
  intros A [W E]. unfold array_bitset_container_xor. rewrite flip_list_wc_ok by (auto; apply A).
  destruct (flip_list_ok (b_words b) a W A) as [W1 H1]. apply bitset_or_array_spec; auto.
  intros x Hx. rewrite H1 by lia. apply xorb_comm.
Qed.
Lemma array_bitset_lazy_xor_spec a b : awf a -> bws (b_words b) ->
  blz (array_bitset_container_lazy_xor a b) /\
  forall x, 0 <= x < 65536 -> bget (b_words (array_bitset_container_lazy_xor a b)) x = xorb (amem a x) (bget (b_words b) x).
Proof.
  intros A W. destruct (flip_list_ok (b_words b) a W A) as [W1 H1]. split; [split; auto|].
  intros x Hx. cbn [b_words array_bitset_container_lazy_xor snd]. rewrite H1 by lia. apply xorb_comm.
Qed.
Lemma bws_flip ws s e : bws ws -> bws (bitset_flip_range ws s e).
Proof. intros [W L]. split; [now apply wfw_flip_range|now rewrite zlen_flip_range]. Qed.
Lemma flip_runs_spec r : forall ws lo, bws ws -> 0 <= lo -> rok lo r ->
  bws (flip_runs ws r) /\ forall x, 0 <= x -> bget (flip_runs ws r) x = xorb (bget ws x) (rmem r x).
Proof.
  unfold flip_runs. induction r as [|[v l] r IH]; intros ws lo W L R; cbn [fold_left fst snd].
  - split; auto. intros x Hx. rewrite rmem_nil. now rewrite xorb_false_r.
  - cbn [rok] in R. destruct R as (R1 & R2 & R3 & R4).
    destruct (IH (bitset_flip_range ws v (v + l + 1)) (v + l + 2)) as [A B]; auto; [now apply bws_flip|lia|].
    split; auto. intros x Hx. rewrite B by auto. destruct W as [W1 W2].
    rewrite bitset_flip_range_spec by (auto; lia). rewrite rmem_cons. unfold inrun. cbn [fst snd].
    rewrite xorb_assoc. f_equal. destruct (rmem r x) eqn:M.
    + apply rmem_range with (lo := v + l + 2) in M; auto. lia.
    + lia.
Qed.
Lemma run_bitset_xor_spec r b : rwf r -> bws (b_words b) ->
  erep (run_bitset_container_xor r b) (fun x => xorb (rmem r x) (bget (b_words b) x)).
Proof.
  intros R W. destruct (flip_runs_spec r (b_words b) 0 W ltac:(lia) R) as [A B].
  apply bitset_or_array_spec; auto; [now apply compute_cardinality_spec|].
  intros x Hx. rewrite B by lia. apply xorb_comm.
Qed.
Lemma run_bitset_lazy_xor_spec r b : rwf r -> bws (b_words b) ->
  blz (run_bitset_container_lazy_xor r b) /\
  forall x, 0 <= x < 65536 -> bget (b_words (run_bitset_container_lazy_xor r b)) x = xorb (rmem r x) (bget (b_words b) x).
Proof.
  intros R W. destruct (flip_runs_spec r (b_words b) 0 W ltac:(lia) R) as [A B]. split; [split; auto|].
  intros x Hx. cbn [b_words run_bitset_container_lazy_xor snd]. rewrite B by lia. apply xorb_comm.
Qed.

Lemma array_run_xor_loop_spec fuel : forall dst a r e m, rok 0 dst -> 0 <= m -> -1 <= e ->
  rok (e + 1) r -> rok m r -> incr a -> inb m 65536 a -> Forall (fun x => fst x <= m) dst ->
  rnext 0 dst - 1 <= Z.max e m ->
  (length a + length r < fuel)%nat ->
  rok 0 (array_run_xor_loop fuel dst a r) /\
  forall y, 0 <= y -> rmem (array_run_xor_loop fuel dst a r) y = xorb (rmem dst y) (xorb (amem a y) (rmem r y)).
Proof.
  induction fuel as [|f IH]; intros dst a r e m H Hm He R1 R2 Ia Ba HF HE Hf; [lia|]. cbn [array_run_xor_loop].
  assert (StepR : forall v l a' r', rok (e + 1) ((v, l) :: r') -> rok m ((v, l) :: r') -> incr a' -> inb v 65536 a' ->
    (length a' + length r' < f)%nat ->
    let u := array_run_xor_loop f (run_container_smart_append_exclusive dst v l) a' r' in
    rok 0 u /\ forall y, 0 <= y -> rmem u y = xorb (rmem dst y) (xorb (amem a' y) (rmem ((v,l) :: r') y))).
  { intros v l a' r' S1 S2 S3 S4 S5. cbn [rok] in S1, S2. cbn zeta.
    destruct (smart_append_spec dst v l) as (P1&P2&P3&P4); auto; try lia.
    { eapply Forall_impl; [|apply HF]. cbn. intros; lia. }
    cbn zeta in P3, P4.
    replace (v <? rnext 0 dst - 1) with false in P3 by lia.
    replace (rnext 0 dst - 1 <=? v) with true in P4 by lia.
    destruct (IH (run_container_smart_append_exclusive dst v l) a' r' (v + l + 1) v) as [Q1 Q2]; auto; try lia.
    { replace (v + l + 1 + 1) with (v + l + 2) by lia. apply S1. }
    { eapply rok_weaken; [|apply S1]. lia. }
    split; auto. intros y Hy. rewrite Q2, P2 by auto. rewrite rmem_cons.
    pose proof (rmem_lo _ r' y (proj2 (proj2 (proj2 S1)))) as L2. unfold inrun in *. cbn [fst snd] in *.
    destruct (rmem dst y), (amem a' y); lia. }
  assert (StepV : forall v a' r', incr (v :: a') -> inb m 65536 (v :: a') -> rok (e + 1) r' -> rok (v + 1) r' ->
    (length a' + length r' < f)%nat ->
    let u := array_run_xor_loop f (run_container_smart_append_exclusive dst v 0) a' r' in
    rok 0 u /\ forall y, 0 <= y -> rmem u y = xorb (rmem dst y) (xorb (amem (v :: a') y) (rmem r' y))).
  { intros v a' r' S1 S2 S3 S4 S5. apply incr_cons in S1. apply inb_cons in S2. destruct S1 as [S1 S1'], S2 as [S2 S2']. cbn zeta.
    destruct (smart_append_spec dst v 0) as (P1&P2&P3&P4); auto; try lia.
    { eapply Forall_impl; [|apply HF]. cbn. intros; lia. }
    cbn zeta in P3, P4.
    destruct (IH (run_container_smart_append_exclusive dst v 0) a' r' e (v + 1)) as [Q1 Q2]; auto; try lia.
    { unfold inb in *. rewrite Forall_forall in *. intros z Iz. specialize (S1 z Iz). specialize (S2' z Iz). cbn in S2'. lia. }
    { eapply Forall_impl; [|apply P3]. cbn. intros p. destruct (v <? rnext 0 dst - 1); lia. }
    { destruct (Z.leb_spec (rnext 0 dst - 1) v); [lia|]. destruct (rnext 0 dst - 1 =? v + 0 + 1); lia. }
    split; auto. intros y Hy. rewrite Q2, P2 by auto. unfold amem. rewrite zmem_cons.
    assert (zmem y a' = true -> v < y) as L2.
    { intros T. apply zmem_In in T. rewrite Forall_forall in S1. auto. }
    destruct (rmem dst y), (rmem r' y), (zmem y a'); lia. }
  cbn zeta in StepR, StepV.
  destruct r as [|[v l] r], a as [|y0 a]; cbn [length] in Hf; cbn [fst snd].
  - split; auto. intros y _. rewrite rmem_nil. unfold amem. cbn [zmem existsb]. now rewrite !xorb_false_r.
  - apply StepV; auto; cbn [rok length]; auto; lia.
  - apply StepR; auto; try constructor. cbn [length]. lia.
  - assert (R1' := R1). assert (R2' := R2). assert (Ba' := Ba). cbn [rok] in R1, R2. apply inb_cons in Ba. destruct Ba as [B1 B2].
    assert (I' := Ia). apply incr_cons in Ia. destruct Ia as [I1 I2].
    destruct (Z.leb_spec v y0).
    + apply StepR; auto; [|cbn [length]; lia]. apply inb_cons. split; [lia|].
      unfold inb in *. rewrite Forall_forall in *. intros z Iz. specialize (I1 z Iz). specialize (B2 z Iz). cbn in B2. lia.
    + apply StepV; auto; [|cbn [length]; lia]. cbn [rok]. intuition lia.
Qed.
Lemma array_run_lazy_xor_spec a r : awf a -> rwf r ->
  rwf (array_run_container_lazy_xor a r) /\
  forall y, 0 <= y -> rmem (array_run_container_lazy_xor a r) y = xorb (amem a y) (rmem r y).
Proof.
  intros [I B] R. unfold array_run_container_lazy_xor.
  destruct (array_run_xor_loop_spec (S (length a + length r)) [] a r (-1) 0) as [Q1 Q2]; auto; try (cbn; lia); try (cbn; exact Logic.I).
  split; auto. intros y Hy. rewrite Q2 by auto. rewrite rmem_nil. now rewrite xorb_false_l.
Qed.
Lemma convert_run_eff_erep r : rwf r -> erep (convert_run_to_efficient_container r) (rmem r).
Proof.
  intros R. destruct r as [|x r].
  - split; [exact I|]. intros y _. reflexivity.
  - apply rep_erep, convert_run_eff_spec; auto. discriminate.
Qed.
Lemma zlen_xor_le a b : awf a -> awf b -> zlen (array_container_xor a b) <= zlen a + zlen b.
Proof.
  intros A B. destruct (array_xor_spec a b A B) as [U M].
  rewrite (zlen_acard _ U), (zlen_acard _ A), (zlen_acard _ B). unfold acard.
  rewrite (cnt_ext (amem (array_container_xor a b)) (fun x => xorb (amem a x) (amem b x))) by auto.
  pose proof (cnt_incl_excl (amem a) (amem b) 0 65536). pose proof (cnt_bound (fun x => amem a x && amem b x) 0 65536 ltac:(lia)).
  assert (cnt (fun x => xorb (amem a x) (amem b x)) 0 65536 <= cnt (fun x => amem a x || amem b x) 0 65536); [|lia].
  apply cnt_mono. intros x _. destruct (amem a x), (amem b x); auto.
Qed.
Lemma array_array_xor_spec a b : awf a -> awf b ->
  erep (array_array_container_xor a b) (fun x => xorb (amem a x) (amem b x)).
Proof.
  intros A B. unfold array_array_container_xor. destruct (Z.leb_spec (zlen a + zlen b) 4096).
  - destruct (array_xor_spec a b A B) as [U M]. apply erep_array; auto. pose proof (zlen_xor_le a b A B). lia.
  - destruct (bitset_from_array_spec a A) as [[W E] M].
    assert (zlen a = bcard (b_words (bitset_container_from_array a))) as Z1.
    { rewrite (zlen_acard a A). unfold acard, bcard. apply cnt_ext. intros x Hx. now rewrite M. }
    rewrite flip_list_wc_ok by (auto; apply B). destruct (flip_list_ok _ b W B) as [W1 H1].
    apply bitset_or_array_spec; auto. intros x Hx. rewrite H1, M by lia. reflexivity.
Qed.
Lemma array_array_lazy_xor_spec a b : awf a -> awf b ->
  lrep (array_array_container_lazy_xor a b) (fun x => xorb (amem a x) (amem b x)).
Proof.
  intros A B. unfold array_array_container_lazy_xor. destruct (Z.leb_spec (zlen a + zlen b) 1024).
  - destruct (array_xor_spec a b A B) as [U M]. apply erep_lrep, erep_array; auto. pose proof (zlen_xor_le a b A B). lia.
  - destruct (bitset_from_array_spec a A) as [[W E] M]. destruct (flip_list_ok _ b W B) as [W1 H1].
    split; [split; auto|]. intros x Hx. cbn [cmem b_words snd]. rewrite H1, M by lia. reflexivity.
Qed.
Lemma array_run_xor_spec a r : awf a -> rwf r ->
  erep (array_run_container_xor a r) (fun x => xorb (amem a x) (rmem r x)).
Proof.
  intros A R. unfold array_run_container_xor. destruct (zlen a <? 32).
  - destruct (array_run_lazy_xor_spec a r A R) as [W M]. eapply erep_ext; [now apply convert_run_eff_erep|].
    intros x Hx. now rewrite M by lia.
  - destruct (run_container_cardinality r <=? 4096).
    + rewrite array_from_run_spec by auto. eapply erep_ext; [apply array_array_xor_spec; auto; apply awf_vals|].
      intros x Hx. cbn beta. rewrite amem_vals by auto. apply xorb_comm.
    + destruct (bitset_from_run_spec r R) as (W & _ & M). eapply erep_ext; [now apply array_bitset_xor_spec|].
      intros x Hx. cbn beta. now rewrite M.
Qed.
Lemma run_run_xor_spec r1 r2 : rwf r1 -> rwf r2 ->
  erep (run_run_container_xor r1 r2) (fun x => xorb (rmem r1 x) (rmem r2 x)).
Proof.
  intros R1 R2. destruct (run_xor_spec r1 r2 R1 R2) as [W M]. eapply erep_ext; [now apply convert_run_eff_erep|].
  intros x Hx. now rewrite M by lia.
Qed.
Lemma bitset_bitset_xor_spec b1 b2 : bws (b_words b1) -> bws (b_words b2) ->
  erep (bitset_bitset_container_xor b1 b2) (fun x => xorb (bget (b_words b1) x) (bget (b_words b2) x)).
Proof.
  intros W1 W2. unfold bitset_bitset_container_xor, bitset_container_xor.
  destruct (bitset_op_spec Z.lxor xorb b1 b2 wordop_xor W1 W2) as [[W E] M].
  rewrite (surjective_pairing (bitset_op Z.lxor b1 b2)). now apply bitset_or_array_spec.
Qed.
