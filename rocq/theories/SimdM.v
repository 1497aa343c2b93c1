(** SimdM: the state of the vector merge shared by union_vector16 (array_util.c:1656-1742)
    and xor_vector16 (array_util.c:1778-1875), as lists: what has been read of both inputs,
    what has been moved out as minima so far, and the eight values held back. *)
From Verif Require Import Base Simd.
From Coq Require Import Permutation.

Local Opaque sse_merge store_unique store_unique_xor.
(** ** Nondecreasing lists *)
Lemma sle_app a b : sle (a ++ b) <-> sle a /\ sle b /\ (forall x y, In x a -> In y b -> x <= y).
Proof.
  induction a as [|z a IH]; cbn [app sle]; [split; [intros H; repeat split; auto; intros x y []|intros (_ & H & _); exact H]|].
  rewrite IH, Forall_app, !Forall_forall. split.
  - intros ((A & B) & C & D & E). split; [split; auto|]. split; [exact D|]. intros x y [<-|Hx] Hy; auto.
  - intros ((A & B) & C & D). split; [split; [exact A|intros y Hy; apply D; cbn; auto]|]. split; [exact B|]. split; [exact C|].
    intros x y Hx Hy. apply D; cbn; auto.
Qed.
Lemma incr_sle l : incr l -> sle l.
Proof.
  induction l as [|x l IH]; [auto|]. intros [A B]. split; [|auto]. eapply Forall_impl; [|exact A]. intros y Hy; cbv beta in *; lia.
Qed.

(** ** The merge state *)
Definition vinv (rA uA rB uB W mx : list Z) : Prop :=
  sle (W ++ mx) /\ length mx = 8%nat /\ Permutation (W ++ mx) (rA ++ rB) /\
  forall x y, In x W -> In y uA \/ In y uB -> x < y.
Lemma vinv_sym rA uA rB uB W mx : vinv rA uA rB uB W mx -> vinv rB uB rA uA W mx.
Proof.
  intros (A & B & C & D). split; [exact A|]. split; [exact B|]. split; [eapply perm_trans; [exact C|apply Permutation_app_comm]|].
  intros x y Hx Hy. apply D; tauto.
Qed.
Lemma filter_all_len f (l : list Z) : (forall y, In y l -> f y = true) -> length (filter f l) = length l.
Proof. induction l as [|x l IH]; intros H; [reflexivity|]. cbn. rewrite H by (left; auto). cbn. rewrite IH; auto. intros. apply H. right. auto. Qed.
Lemma filter_none f (l : list Z) : (forall y, In y l -> f y = false) -> filter f l = [].
Proof. induction l as [|x l IH]; intros H; [reflexivity|]. cbn. rewrite H by (left; auto). apply IH. intros. apply H. right. auto. Qed.
Lemma filter_len_le f (l : list Z) : (length (filter f l) <= length l)%nat.
Proof. induction l as [|x l IH]; cbn; [lia|]. destruct (f x); cbn; lia. Qed.
Lemma filter_len_lt f (l : list Z) x : In x l -> f x = false -> (length (filter f l) < length l)%nat.
Proof.
  induction l as [|y l IH]; intros [].
  - intros F. subst y. cbn. rewrite F. pose proof (filter_len_le f l). lia.
  - intros F. specialize (IH H F). cbn. destruct (f y); cbn; lia.
Qed.
Lemma perm_filter f (a b : list Z) : Permutation a b -> length (filter f a) = length (filter f b).
Proof. induction 1; cbn; try lia. - destruct (f x); cbn; lia. - destruct (f x), (f y); cbn; lia. Qed.
(** the eighth smallest is at most the largest of any eight *)
Lemma low_half mn mx V R x : sle (mn ++ mx) -> Permutation (mn ++ mx) (V ++ R) -> length mn = length V ->
  In x mn -> (forall y, In y V -> y < x) -> False.
Proof.
  intros Hs Hp Hl Hx HV. apply sle_app in Hs. destruct Hs as (_ & _ & Hc).
  pose proof (perm_filter (fun y => y <? x) _ _ Hp) as E. rewrite !filter_app, !app_length in E.
  rewrite (filter_none _ mx) in E by (intros y Hy; specialize (Hc x y Hx Hy); lia).
  rewrite (filter_all_len _ V) in E by (intros y Hy; specialize (HV y Hy); lia).
  pose proof (filter_len_lt (fun y => y <? x) mn x Hx ltac:(lia)). cbn in E. lia.
Qed.
Lemma vinv_init VA uA VB uB : length VA = 8%nat -> length VB = 8%nat -> incr (VA ++ uA) -> incr (VB ++ uB) ->
  vinv VA uA VB uB (fst (sse_merge VA VB)) (snd (sse_merge VA VB)).
Proof.
  intros LA LB HA HB. apply incr_app in HA, HB. destruct HA as (A1 & A2 & A3), HB as (B1 & B2 & B3).
  destruct (sse_merge_spec VA VB LA LB (incr_sle _ A1) (incr_sle _ B1)) as (L1 & L2 & S1 & P1).
  split; [exact S1|]. split; [exact L2|]. split; [exact P1|]. intros x y Hx Hy.
  destruct (Z_lt_ge_dec x y) as [|G]; [assumption|exfalso]. destruct Hy as [Hy|Hy].
  - eapply (low_half _ _ VA VB x S1 P1); [exact (eq_trans L1 (eq_sym LA))|exact Hx|]. intros z Hz. specialize (A3 z y Hz Hy). lia.
  - eapply (low_half _ _ VB VA x S1); [eapply perm_trans; [exact P1|apply Permutation_app_comm]|exact (eq_trans L1 (eq_sym LB))|exact Hx|].
    intros z Hz. specialize (B3 z y Hz Hy). lia.
Qed.
Lemma vinv_step rA V uA rB uB W mx : length V = 8%nat -> incr (rA ++ V ++ uA) -> incr (rB ++ uB) ->
  vinv rA (V ++ uA) rB uB W mx -> (forall y, In y uB -> znth V 0 <= y) ->
  vinv (rA ++ V) uA rB uB (W ++ fst (sse_merge V mx)) (snd (sse_merge V mx)).
Proof.
  intros LV HA HB (S0 & Lm & P0 & Q0) Hc. apply incr_app in HA, HB. destruct HA as (A1 & A2 & A3), HB as (B1 & B2 & B3).
  apply incr_app in A2. destruct A2 as (A4 & A5 & A6). apply sle_app in S0. destruct S0 as (S0 & S1 & S2).
  destruct (sse_merge_spec V mx LV Lm (incr_sle _ A4) S1) as (L1 & L2 & S3 & P1).
  set (mn := fst (sse_merge V mx)) in *. set (mx' := snd (sse_merge V mx)) in *.
  assert (E : forall z, In z (mn ++ mx') <-> In z V \/ In z mx).
  { intros z. rewrite <- in_app_iff. split; apply Permutation_in; [exact P1|apply Permutation_sym; exact P1]. }
  split; [|split; [exact L2|split]].
  - rewrite <- app_assoc. apply sle_app. split; [exact S0|]. split; [exact S3|]. intros x y Hx Hy. apply E in Hy.
    destruct Hy as [Hy|Hy]; [|auto]. apply Z.lt_le_incl. apply Q0; [exact Hx|]. left. apply in_app_iff. auto.
  - rewrite <- !app_assoc. eapply perm_trans; [apply Permutation_app_head; exact P1|].
    eapply perm_trans; [apply Permutation_app_head, Permutation_app_comm|]. rewrite app_assoc.
    eapply perm_trans; [apply Permutation_app_tail; exact P0|]. rewrite <- app_assoc. apply Permutation_app_head, Permutation_app_comm.
  - intros x y Hx Hy. apply in_app_iff in Hx. destruct Hx as [Hx|Hx].
    { apply Q0; [exact Hx|]. rewrite in_app_iff. tauto. }
    destruct (Z_lt_ge_dec x y) as [|G]; [assumption|exfalso]. destruct Hy as [Hy|Hy].
    + eapply (low_half _ _ V mx x S3 P1); [exact (eq_trans L1 (eq_sym LV))|exact Hx|]. intros z Hz. specialize (A6 z y Hz Hy). lia.
    + eapply (low_half _ _ mx V x S3); [eapply perm_trans; [exact P1|apply Permutation_app_comm]|exact (eq_trans L1 (eq_sym Lm))|exact Hx|].
      intros z Hz. assert (Hz' : In z (rA ++ rB)) by (eapply Permutation_in; [exact P0|apply in_app_iff; auto]).
      apply in_app_iff in Hz'. destruct Hz' as [Hz'|Hz'].
      * assert (In (znth V 0) V) by (apply znth_In; unfold zlen; lia).
        assert (z < znth V 0) by (apply A3; [exact Hz'|apply in_app_iff; auto]). specialize (Hc y Hy). lia.
      * specialize (B3 z y Hz' Hy). lia.
Qed.
Lemma merge_lanes V mx : lanes V -> lanes mx -> sle V -> sle mx -> lanes (fst (sse_merge V mx)) /\ lanes (snd (sse_merge V mx)).
Proof.
  intros [L1 F1] [L2 F2] S1 S2. destruct (sse_merge_spec V mx L1 L2 S1 S2) as (A & B & _ & P).
  assert (F : Forall (fun x => 0 <= x < 65536) (fst (sse_merge V mx) ++ snd (sse_merge V mx))).
  { apply Forall_forall. intros x Hx. apply (Permutation_in _ P) in Hx. apply in_app_iff in Hx. rewrite Forall_forall in F1, F2. destruct Hx; auto. }
  apply Forall_app in F. split; split; tauto.
Qed.
(** every value occurs at most twice *)
Lemma incr_count l x : incr l -> (count_occ Z.eq_dec l x <= 1)%nat.
Proof. intros H. apply (proj1 (NoDup_count_occ Z.eq_dec l)). apply incr_NoDup. exact H. Qed.
Lemma vinv_count rA uA rB uB W mx x : vinv rA uA rB uB W mx -> incr rA -> incr rB -> (count_occ Z.eq_dec (W ++ mx) x <= 2)%nat.
Proof.
  intros (_ & _ & P & _) HA HB. rewrite (proj1 (Permutation_count_occ Z.eq_dec _ _) P x), count_occ_app.
  pose proof (incr_count rA x HA). pose proof (incr_count rB x HB). lia.
Qed.

(** ** Sorting and removing duplicates *)
Lemma last_app_cons (l : list Z) x l' d : List.last (l ++ x :: l') d = List.last (x :: l') x.
Proof.
  induction l as [|y l IH].
  - cbn [app]. revert x. induction l' as [|z l' IH']; intros x; [reflexivity|]. change (List.last (x :: z :: l') d) with (List.last (z :: l') d).
    change (List.last (x :: z :: l') x) with (List.last (z :: l') x). rewrite IH'. clear. revert z.
    induction l' as [|w l' IH]; intros z; [reflexivity|]. change (List.last (w :: l') z = List.last (w :: l') x). rewrite <- (IH w).
    clear. destruct l'; [reflexivity|]. cbn. induction l' as [|v l' IH] in z0 |- *; [reflexivity|]. apply IH.
  - cbn [app]. rewrite <- IH. destruct (l ++ x :: l') eqn:E; [destruct l; discriminate|reflexivity].
Qed.
Lemma uniq_app p a b : uniq p (a ++ b) = uniq p a ++ uniq (List.last a p) b.
Proof.
  revert p. induction a as [|x a IH]; intros p; [reflexivity|]. cbn [app uniq]. rewrite IH.
  assert (E : List.last (x :: a) p = List.last a x).
  { change (x :: a) with ([x] ++ a). destruct a as [|y a]; [reflexivity|]. rewrite (last_app_cons [x] y a p).
    rewrite <- (last_app_cons [] y a x). reflexivity. }
  rewrite E. destruct (p =? x); reflexivity.
Qed.
Lemma uniq_In x l y : In y (x :: uniq x l) <-> In y (x :: l).
Proof.
  revert x. induction l as [|z l IH]; intros x; [tauto|]. cbn [uniq].
  destruct (Z.eqb_spec x z) as [->|N].
  - rewrite IH. cbn. tauto.
  - change (x = y \/ In y (z :: uniq z l) <-> x = y \/ In y (z :: l)). rewrite IH. tauto.
Qed.
Lemma uniq_incr x l : sle (x :: l) -> incr (x :: uniq x l).
Proof.
  revert x. induction l as [|z l IH]; intros x [F S0]; [split; [constructor|exact Logic.I]|]. cbn [uniq].
  destruct (Z.eqb_spec x z) as [->|N].
  - apply IH. split; [|apply S0]. inversion F; auto.
  - specialize (IH z S0). split; [|exact IH]. inversion F as [|? ? Hx F']; subst. apply Forall_forall. intros y Hy. apply (proj1 (uniq_In z l y)) in Hy.
    destruct S0 as [S0 _]. rewrite Forall_forall in S0. destruct Hy as [<-|Hy]; [lia|]. specialize (S0 y Hy). lia.
Qed.
(** a sorted list whose first element is not the sentinel *)
Lemma uniq_first p l : (l <> [] -> znth l 0 <> p) -> sle l -> incr (uniq p l) /\ forall y, In y (uniq p l) <-> In y l.
Proof.
  destruct l as [|x l]; intros H Hs; [split; [exact Logic.I|tauto]|]. cbn [uniq]. rewrite znth_cons_0 in H.
  assert (x <> p) by (apply H; discriminate). replace (p =? x) with false by lia.
  split; [apply uniq_incr; exact Hs|apply uniq_In].
Qed.
Lemma uniq_nil p l : uniq p l = [] -> l = repeat p (length l).
Proof.
  revert p. induction l as [|x l IH]; intros p H; [reflexivity|]. cbn [uniq] in H. destruct (Z.eqb_spec p x) as [E|E]; [subst x|discriminate H].
  cbn. f_equal. apply IH. exact H.
Qed.
