(** Run containers, second part: ranges and offsets (model in RunC.v). *)
From Coq Require Import ZArith List Bool Lia.
From Verif Require Import Base ArrayUtil BitUtil BitsetC ArrayC RunC.
Import ListNotations.
Open Scope Z_scope.

(** run.h:627-638 (documentation) and containers.h:2249-2256 (the live copy): add
    the closed range [min,max], computing the two run counts first. *)
Definition run_container_add_range (r : list run) (min max : Z) : list run :=
  let nruns_greater := rle16_count_greater r (u16 max) in
  let nruns_less := rle16_count_less (rtake (zlen r - nruns_greater) r) (u16 min) in
  run_container_add_range_nruns r min max nruns_less nruns_greater.

Lemma rok_mid_repl lo A M B v l : rok lo (A ++ M ++ B) ->
  0 <= l -> v + l < 65536 ->
  (forall v' l', In (v',l') A -> v' + l' + 2 <= v) -> lo <= v -> (forall v' l', In (v',l') B -> v + l + 2 <= v') ->
  rok lo (A ++ (v,l) :: B).
Proof.
  intros H Hl Hv HA Hlo HB. apply rok_app in H. destruct H as [H1 H2]. apply rok_app in H2. destruct H2 as [H2 H3].
  apply rok_app. split; auto. cbn [rok]. pose proof (rnext_le _ _ _ H1 Hlo HA). repeat split; try lia.
  destruct B as [|[v' l'] B]; cbn [rok]; auto. cbn [rok] in H3. specialize (HB v' l' (or_introl eq_refl)). intuition lia.
Qed.
Lemma add_range_split r min max : rwf r -> 0 <= min -> min <= max -> max < 65536 ->
  exists A M B, r = A ++ M ++ B /\ (forall v l, In (v,l) A -> v + l + 1 < min) /\
    (forall v l, In (v,l) M -> min <= v + l + 1 /\ v <= max + 1) /\ (forall v l, In (v,l) B -> max + 1 < v) /\
    rle16_count_greater r max = zlen B /\ rle16_count_less (rtake (zlen r - zlen B) r) min = zlen A.
Proof.
  intros H H0 H1 H2. destruct (rle_count_greater_spec r max 0 ltac:(lia) H) as (A1&M1&B&E&C1&C2&C3&C4&C5).
  assert (T : rtake (zlen r - zlen B) r = A1 ++ M1).
  { rewrite E, app_assoc. apply rtake_mid. zl. lia. }
  assert (H' : rok 0 (A1 ++ M1)). { unfold rwf in H. rewrite E, app_assoc in H. apply rok_app in H. apply H. }
  destruct (rle_count_less_spec (A1++M1) min 0 ltac:(lia) H') as (A&M2&B2&E2&D1&D2&D3&D4&D5).
  exists A, (M2++B2), B. split; [|split; [|split; [|split; [|split]]]]; auto.
  - rewrite E. rewrite app_assoc, E2. now rewrite <- !app_assoc.
  - intros v l Hin. assert (In (v,l) (A1++M1)) as K by (rewrite E2; apply in_or_app; now right).
    pose proof (rok_In _ _ _ _ H' K) as K0.
    apply in_app_or in K. apply in_app_or in Hin.
    split.
    + destruct Hin as [Hin|Hin]; [specialize (D3 _ _ Hin)|specialize (D4 _ _ Hin)]; lia.
    + destruct K as [K|K]; [specialize (C2 _ _ K)|specialize (C3 _ _ K)]; lia.
  - now rewrite T.
Qed.
Lemma run_add_range_spec r min max : rwf r -> 0 <= min -> min <= max -> max < 65536 ->
  rwf (run_container_add_range r min max) /\
  forall y, rmem (run_container_add_range r min max) y = rmem r y || ((min <=? y) && (y <=? max)).
Proof.
  intros H H0 H1 H2. destruct (add_range_split r min max) as (A&M&B&E&HA&HM&HB&E1&E2); auto.
  unfold run_container_add_range. rewrite (u16_small max), (u16_small min) by lia. rewrite E1, E2.
  unfold run_container_add_range_nruns. subst r. unfold rwf in *.
  assert (HA' : forall v l, In (v,l) A -> v + l + 2 <= min) by (intros v l Hi; specialize (HA _ _ Hi); lia).
  assert (HB' : forall v l, In (v,l) B -> max + 2 <= v) by (intros v l Hi; specialize (HB _ _ Hi); lia).
  destruct (Z.eqb_spec (zlen (A ++ M ++ B) - zlen A - zlen B) 0).
  - assert (M = []). { zl. destruct M as [|x M]; auto. rewrite zlen_cons in *. pose proof (zlen_nonneg M). lia. } subst M.
    cbn [app] in *. rewrite makeroom_mid by auto. rewrite !u16_small by lia. split.
    + eapply (rok_mid_repl 0 A [] B); auto; try lia. intros v l Hi; specialize (HB _ _ Hi); lia.
    + intros y. rsimp. replace (min + (max-min)) with max by lia. destruct (rmem A y), (rmem B y); lia.
  - destruct M as [|[v l] M]. { exfalso. cbn [app] in n. zl. lia. }
    assert (EL : rnth (A ++ ((v,l) :: M) ++ B) (zlen A) = (v,l)) by (apply (rnth_mid A (v,l) (M++B)); auto).
    rewrite EL.
    assert (ER : rnth (A ++ ((v,l)::M) ++ B) (zlen A + (zlen (A ++ ((v,l)::M) ++ B) - zlen A - zlen B) - 1) = last M (v,l)).
    { destruct (snoc_cases M) as [->|(M'&x&->)].
      - cbn [app last]. apply rnth_mid. zl. lia.
      - rewrite last_last. replace (A ++ ((v,l) :: M' ++ [x]) ++ B) with ((A ++ (v,l) :: M') ++ x :: B).
        + apply rnth_mid. zl. lia.
        + cbn [app]. rewrite <- !app_assoc. reflexivity. }
    rewrite ER. rewrite rtake_mid by auto.
    assert (ES : rskip (zlen (A ++ ((v,l)::M) ++ B) - zlen B) (A ++ ((v,l)::M) ++ B) = B).
    { rewrite app_assoc. apply rskip_mid. zl. lia. }
    rewrite ES. cbn [fst snd].
    destruct (last M (v,l)) as [v2 l2] eqn:EM. cbn [fst snd].
    (* facts about the covered runs *)
    assert (HI : In (v2,l2) ((v,l)::M)).
    { destruct (snoc_cases M) as [->|(M'&x&->)]; [cbn in EM; rewrite EM; now left|]. rewrite last_last in EM. subst. right. apply in_or_app. right. now left. }
    pose proof (HM v l (or_introl eq_refl)) as Hf. pose proof (HM v2 l2 HI) as Hl.
    assert (RI : In (v,l) (A ++ ((v,l)::M) ++ B)) by (apply in_or_app; right; now left).
    assert (RI2 : In (v2,l2) (A ++ ((v,l)::M) ++ B)) by (apply in_or_app; right; apply in_or_app; now left).
    pose proof (rok_In _ _ _ _ H RI) as Bf. pose proof (rok_In _ _ _ _ H RI2) as Bl.
    set (lo := if v <? min then v else min). set (hi := if max <? v2+l2 then v2+l2 else max).
    assert (Hlo : lo = Z.min v min) by (unfold lo; destruct (Z.ltb_spec v min); lia).
    assert (Hhi : hi = Z.max (v2+l2) max) by (unfold hi; destruct (Z.ltb_spec max (v2+l2)); lia).
    clearbody lo hi. rewrite !u16_small by lia.
    assert (HAv : forall v' l', In (v',l') A -> v' + l' + 2 <= v).
    { intros v' l' Hi. apply in_split in Hi. destruct Hi as (A1&A2&->).
      rewrite <- app_assoc in H. cbn [app] in H. apply rok_app in H. destruct H as [_ H]. cbn [rok] in H. destruct H as (_&_&_&H).
      apply (rok_In _ _ v l) in H; [lia|]. apply in_or_app. right. now left. }
    assert (HBv : forall v' l', In (v',l') B -> v2 + l2 + 2 <= v').
    { intros v' l' Hi. apply in_split in HI. destruct HI as (M1&M2&EM').
      rewrite EM' in H. apply rok_app in H. destruct H as [_ H]. rewrite <- app_assoc in H. apply rok_app in H. destruct H as [_ H].
      cbn [app rok] in H. destruct H as (_&_&_&H). apply (rok_In _ _ v' l') in H; [lia|]. apply in_or_app. now right. }
    split.
    + apply (rok_mid_repl 0 A _ B _ _ H).
      * lia.
      * lia.
      * intros v' l' Hi. specialize (HAv _ _ Hi). specialize (HA' _ _ Hi). lia.
      * lia.
      * intros v' l' Hi. specialize (HBv _ _ Hi). specialize (HB' _ _ Hi). lia.
    + intros y. rsimp.
      assert (HMy : rmem ((v,l)::M) y || ((min <=? y) && (y <=? max)) = ((lo <=? y) && (y <=? hi))).
      { apply eq_true_iff_eq. split.
        - intros Hy. apply orb_true_iff in Hy. destruct Hy as [Hy|Hy]; [|lia]. apply rmem_In in Hy. destruct Hy as (v'&l'&Hi&Hy).
          apply rok_app in H. destruct H as [_ H]. apply rok_app in H. destruct H as [H _].
          assert (v <= v'). { cbn in Hi. destruct Hi as [Hi|Hi]; [inversion Hi; lia|]. cbn [rok] in H. destruct H as (_&_&_&H). apply (rok_In _ _ _ _ H) in Hi. lia. }
          assert (v' + l' <= v2 + l2).
          { destruct (snoc_cases M) as [->|(M'&x&->)].
            - cbn in EM. inversion EM; subst. destruct Hi as [Hi|[]]. inversion Hi; lia.
            - rewrite last_last in EM. subst x. change ((v,l) :: M' ++ [(v2,l2)]) with (((v,l) :: M') ++ [(v2,l2)]) in *.
              apply in_app_or in Hi. destruct Hi as [Hi|[Hi|[]]]; [|inversion Hi; lia].
              apply in_split in Hi. destruct Hi as (P&Q&EP). rewrite EP in H. rewrite <- app_assoc in H. apply rok_app in H. destruct H as [_ H].
              cbn [app rok] in H. destruct H as (_&_&_&H). apply (rok_In _ _ v2 l2) in H; [lia|]. apply in_or_app. right. now left. }
          lia.
        - intros Hy. apply orb_true_iff. destruct (Z_lt_dec y min).
          + left. apply rmem_In. exists v, l. split; [now left|]. lia.
          + destruct (Z_le_dec y max); [right; lia|]. left. apply rmem_In. exists v2, l2. split; auto. lia. }
      change ((((v,l)::M) ++ B)) with ((v,l) :: (M ++ B)) in *.
      rewrite ?rmem_cons, ?rmem_app in *. unfold inrun in *. cbn [fst snd] in *. replace (lo + (hi - lo)) with hi by lia.
      rewrite <- HMy. destruct (rmem A y), (rmem M y), (rmem B y); lia.
Qed.

(** ** remove_range *)
Lemma run_shift_tail_mid A M B c d : c = zlen B -> d = - zlen M ->
  run_container_shift_tail (A ++ M ++ B) c d = A ++ B.
Proof.
  intros -> ->. unfold run_container_shift_tail.
  rewrite rtake_mid by (zl; lia). f_equal. rewrite app_assoc. apply rskip_mid. zl. lia.
Qed.
(* the split of a run list by a closed range *)
Lemma range_split r min max : rwf r -> 0 <= min -> min <= max ->
  exists A M B, r = A ++ M ++ B /\ (forall v l, In (v,l) A -> v + l < min) /\
    (forall v l, In (v,l) M -> min <= v + l /\ v <= max) /\ (forall v l, In (v,l) B -> max < v).
Proof.
  intros H H0 H1. destruct (rok_split (fun x => fst x + snd x <? min) r 0) as (A&C&E&HA&HC).
  { cbn. intros. lia. } { auto. }
  assert (HC' : rok (rnext 0 A) C) by (unfold rwf in H; rewrite E in H; apply rok_app in H; apply H).
  destruct (rok_split (fun x => fst x <=? max) C (rnext 0 A)) as (M&B&E2&HM&HB).
  { cbn. intros. lia. } { auto. }
  exists A, M, B. subst C. split; auto. split; [|split].
  - intros v l Hi. specialize (HA _ Hi). cbn in HA. lia.
  - intros v l Hi. specialize (HM _ Hi). specialize (HC (v,l) (in_or_app _ _ _ (or_introl Hi))). cbn in *. lia.
  - intros v l Hi. specialize (HB _ Hi). cbn in HB. lia.
Qed.
(* find_run is determined by the split *)
Lemma split_unique {T} (f : T -> bool) A C A' C' : A ++ C = A' ++ C' ->
  (forall x, In x A -> f x = true) -> (forall x, In x C -> f x = false) ->
  (forall x, In x A' -> f x = true) -> (forall x, In x C' -> f x = false) -> A = A' /\ C = C'.
Proof.
  revert A'. induction A as [|a A IH]; intros A' E H1 H2 H3 H4.
  - destruct A' as [|a' A']; auto. cbn in E. subst C. specialize (H2 a' (or_introl eq_refl)). specialize (H3 a' (or_introl eq_refl)). congruence.
  - destruct A' as [|a' A'].
    + cbn in E. subst C'. specialize (H1 a (or_introl eq_refl)). specialize (H4 a (or_introl eq_refl)). congruence.
    + inversion E; subst. destruct (IH A') as [-> ->]; auto; intros; [apply H1|apply H3]; now right.
Qed.
Lemma find_first A v l C k : rwf (A ++ (v,l) :: C) -> (forall v l, In (v,l) A -> v + l < k) -> k <= v + l ->
  rle16_find_run (A ++ (v,l) :: C) k = if v <=? k then zlen A else -(zlen A + 1).
Proof.
  intros H HA Hk. destruct (find_run_spec _ k 0 ltac:(lia) H) as (A'&M'&B'&E&C1&C2&C3&C4&C5). rewrite C5.
  assert (HC : forall x, In x ((v,l)::C) -> k <= fst x + snd x).
  { intros [v' l'] [Hi|Hi]; [inversion Hi; subst; cbn; lia|]. unfold rwf in H. apply rok_app in H. destruct H as [_ H]. cbn [rok] in H.
    destruct H as (_&_&_&H). apply (rok_In _ _ _ _ H) in Hi. cbn. lia. }
  destruct (split_unique (fun x : run => fst x + snd x <? k) _ _ _ _ E) as [E1 E2].
  - intros [v' l'] Hi. cbn. apply HA in Hi. lia.
  - intros x Hi. apply HC in Hi. cbn. lia.
  - intros [v' l'] Hi. cbn. apply C2 in Hi. lia.
  - intros [v' l'] Hi. cbn. assert (K : In (v',l') (A' ++ M' ++ B')) by (apply in_or_app; now right). rewrite <- E in K.
    pose proof (rok_In _ _ _ _ H K). apply in_app_or in Hi. destruct Hi as [Hi|Hi]; [apply C3 in Hi|apply C4 in Hi]; lia.
  - subst A'. destruct M' as [|x M']; cbn [app] in E2.
    + change (zlen (@nil run)) with 0. subst B'. specialize (C4 v l (or_introl eq_refl)).
      cbn [Z.eqb]. replace (v <=? k) with false by lia. reflexivity.
    + inversion E2; subst. specialize (C3 v l (or_introl eq_refl)). rewrite zlen_cons. pose proof (zlen_nonneg M').
      replace (zlen M' + 1 =? 0) with false by lia. replace (v <=? k) with true by lia. reflexivity.
Qed.
Lemma find_all A k : rwf A -> (forall v l, In (v,l) A -> v + l < k) -> rle16_find_run A k = -(zlen A + 1).
Proof.
  intros H HA. destruct (find_run_spec _ k 0 ltac:(lia) H) as (A'&M'&B'&E&C1&C2&C3&C4&C5). rewrite C5.
  assert (N : forall v l, In (v,l) (M' ++ B') -> False).
  { intros v l Hi. assert (K : In (v,l) A) by (rewrite E; apply in_or_app; now right). pose proof (rok_In _ _ _ _ H K). apply HA in K.
    apply in_app_or in Hi. destruct Hi as [Hi|Hi]; [apply C3 in Hi|apply C4 in Hi]; lia. }
  destruct (M' ++ B') as [|[v l] X] eqn:EX; [|destruct (N v l (or_introl eq_refl))].
  apply app_eq_nil in EX. destruct EX as [-> ->]. rewrite app_nil_r in E. subst A'. reflexivity.
Qed.
Lemma find_last A w k' B k : rwf (A ++ (w,k') :: B) -> w <= k -> (forall v l, In (v,l) B -> k < v) ->
  rle16_find_run (A ++ (w,k') :: B) k = if k <=? w + k' then zlen A else -(zlen A + 2).
Proof.
  intros H Hw HB.
  assert (HA : forall v l, In (v,l) A -> v + l + 2 <= w).
  { intros v l Hi. apply in_split in Hi. destruct Hi as (A1&A2&->). unfold rwf in H. rewrite <- app_assoc in H. apply rok_app in H.
    destruct H as [_ H]. cbn [app rok] in H. destruct H as (_&_&_&H). apply (rok_In _ _ w k') in H; [lia|]. apply in_or_app. right. now left. }
  destruct (Z.leb_spec k (w+k')).
  - rewrite find_first; auto. { replace (w <=? k) with true by lia. reflexivity. }
    intros v l Hi. apply HA in Hi. lia.
  - replace (A ++ (w,k')::B) with ((A ++ [(w,k')]) ++ B) in * by (rewrite <- app_assoc; reflexivity).
    assert (HA' : forall v l, In (v,l) (A ++ [(w,k')]) -> v + l < k).
    { intros v l Hi. apply in_app_or in Hi. destruct Hi as [Hi|[Hi|[]]]; [apply HA in Hi|inversion Hi]; lia. }
    destruct B as [|[v l] B].
    + rewrite app_nil_r in *. rewrite find_all; auto. zl. lia.
    + assert (K := rok_In _ _ v l H ltac:(apply in_or_app; right; now left)). specialize (HB v l (or_introl eq_refl)).
      rewrite find_first; auto; [|lia]. replace (v <=? k) with false by lia. zl. lia.
Qed.
Lemma find_none A B k : rwf (A ++ B) -> (forall v l, In (v,l) A -> v + l < k) -> (forall v l, In (v,l) B -> k < v) ->
  rle16_find_run (A ++ B) k = -(zlen A + 1).
Proof.
  intros H HA HB. destruct B as [|[v l] B].
  - rewrite app_nil_r in *. now apply find_all.
  - assert (K := rok_In _ _ v l H ltac:(apply in_or_app; right; now left)). specialize (HB v l (or_introl eq_refl)).
    rewrite find_first; auto; [|lia]. now replace (v <=? k) with false by lia.
Qed.
Definition keep_left (min : Z) (x : run) : list run := if fst x <? min then [(fst x, min - 1 - fst x)] else [].
Definition keep_right (max : Z) (x : run) : list run := if max <? fst x + snd x then [(max + 1, fst x + snd x - (max + 1))] else [].
Lemma run_remove_range_eq r min max A M B : rwf r -> 0 <= min -> min <= max -> max < 65536 -> r = A ++ M ++ B ->
  (forall v l, In (v,l) A -> v + l < min) -> (forall v l, In (v,l) M -> min <= v + l /\ v <= max) -> (forall v l, In (v,l) B -> max < v) ->
  run_container_remove_range r min max =
  match M with [] => r | x :: M' => A ++ keep_left min x ++ keep_right max (last M' x) ++ B end.
Proof.
  intros H H0 H1 H2 E HA HM HB. unfold run_container_remove_range. rewrite (u16_small min), (u16_small max) by lia.
  pose proof (zlen_nonneg A) as ZA.
  destruct M as [|[v l] M].
  { cbn [app] in E. subst r. rewrite !find_none; auto; try (intros v l Hi; first [apply HA in Hi|apply HB in Hi]; lia).
    replace (0 <=? - (zlen A + 1)) with false by lia. cbn [andb].
    replace (- - (zlen A + 1) - 1 <=? - - (zlen A + 1) - 1 - 1) with false by lia. reflexivity. }
  cbn [app] in E.
  pose proof (HM v l (or_introl eq_refl)) as Hx.
  assert (Bx : 0 <= v /\ 0 <= l /\ v + l < 65536) by (apply (rok_In 0 r); auto; rewrite E; apply in_or_app; right; now left).
  assert (Fmin : rle16_find_run r min = if v <=? min then zlen A else -(zlen A + 1)).
  { rewrite E. rewrite find_first; auto; [now rewrite <- E|lia]. }
  destruct (snoc_cases M) as [->|(M1&[w k]&->)].
  - (* one covered run *)
    cbn [app last] in *. unfold keep_left, keep_right. cbn [fst snd].
    assert (Fmax : rle16_find_run r max = if max <=? v + l then zlen A else -(zlen A + 2)).
    { rewrite E. rewrite find_last; auto; [now rewrite <- E|lia]. }
    assert (EN : rnth r (zlen A) = (v,l)) by (rewrite E; apply rnth_mid; auto).
    rewrite Fmin, Fmax.
    destruct (Z.leb_spec v min).
    + replace (0 <=? zlen A) with true by lia. rewrite EN. cbn [fst snd]. cbn [andb].
      destruct (Z.ltb_spec v min).
      * cbn [andb]. destruct (Z.ltb_spec max (v+l)).
        -- rewrite E. replace (A ++ (v,l)::B) with ((A ++ [(v,l)]) ++ B) by (rewrite <- app_assoc; reflexivity).
           rewrite makeroom_mid by (zl; lia). rewrite <- app_assoc. cbn [app]. rewrite rset_mid by auto. now rewrite !u16_small by lia.
        -- rewrite E. rewrite rset_mid by auto. destruct (Z.leb_spec max (v+l)).
           ++ replace (0 <=? zlen A) with true by lia. rewrite rnth_mid by auto. cbn [fst snd]. rewrite (u16_small (min-1-v)), (u16_small (v + (min-1-v))) by lia.
              replace (v + (min-1-v)) with (min-1) by lia. replace (max <? min-1) with false by lia.
              replace (zlen A + 1 <=? zlen A) with false by lia. reflexivity.
           ++ replace (0 <=? - (zlen A + 2)) with false by lia. replace (zlen A + 1 <=? - - (zlen A + 2) - 1 - 1) with false by lia.
              rewrite !u16_small by lia. reflexivity.
      * cbn [andb]. destruct (Z.leb_spec max (v+l)).
        -- replace (0 <=? zlen A) with true by lia. rewrite EN. cbn [fst snd]. rewrite (u16_small (v+l)) by lia.
           destruct (Z.ltb_spec max (v+l)).
           ++ replace (zlen A <=? zlen A - 1) with false by lia. rewrite E, rset_mid by auto. rewrite !u16_small by lia. reflexivity.
           ++ replace (zlen A <=? zlen A) with true by lia. rewrite E. change ((v,l)::B) with ([(v,l)] ++ B). cbn [app].
              change (A ++ (v,l)::B) with (A ++ [(v,l)] ++ B). apply run_shift_tail_mid; zl; lia.
        -- replace (0 <=? - (zlen A + 2)) with false by lia. replace (zlen A <=? - - (zlen A + 2) - 1 - 1) with true by lia.
           replace (max <? v+l) with false by lia. rewrite E. change (A ++ (v,l)::B) with (A ++ [(v,l)] ++ B). apply run_shift_tail_mid; zl; lia.
    + replace (0 <=? -(zlen A + 1)) with false by lia. cbn [andb]. replace (v <? min) with false by lia.
      destruct (Z.leb_spec max (v+l)).
      * replace (0 <=? zlen A) with true by lia. rewrite EN. cbn [fst snd]. rewrite (u16_small (v+l)) by lia.
        destruct (Z.ltb_spec max (v+l)).
        -- replace (- - (zlen A + 1) - 1 <=? zlen A - 1) with false by lia. rewrite E, rset_mid by auto. rewrite !u16_small by lia. reflexivity.
        -- replace (- - (zlen A + 1) - 1 <=? zlen A) with true by lia. rewrite E.
           change (A ++ (v,l)::B) with (A ++ [(v,l)] ++ B). apply run_shift_tail_mid; zl; lia.
      * replace (0 <=? - (zlen A + 2)) with false by lia. replace (- - (zlen A + 1) - 1 <=? - - (zlen A + 2) - 1 - 1) with true by lia.
        replace (max <? v+l) with false by lia. rewrite E. change (A ++ (v,l)::B) with (A ++ [(v,l)] ++ B). apply run_shift_tail_mid; zl; lia.
  - (* at least two *)
    rewrite last_last. assert (Hwk : In (w,k) ((v,l) :: M1 ++ [(w,k)])) by (right; apply in_or_app; right; now left).
    pose proof (HM w k Hwk) as Hy.
    assert (By : 0 <= w /\ 0 <= k /\ w + k < 65536) by (apply (rok_In 0 r); auto; rewrite E; apply in_or_app; right; change ((v,l) :: (M1 ++ [(w,k)]) ++ B) with (((v,l) :: M1 ++ [(w,k)]) ++ B); apply in_or_app; now left).
    assert (Hxy : v + l + 2 <= w).
    { unfold rwf in H. rewrite E in H. apply rok_app in H. destruct H as [_ H]. cbn [rok] in H. destruct H as (_&_&_&H).
      apply (rok_In _ _ w k) in H; [lia|]. rewrite <- app_assoc. apply in_or_app. right. now left. }
    assert (E' : r = (A ++ (v,l) :: M1) ++ (w,k) :: B) by (rewrite E, <- !app_assoc; reflexivity).
    assert (Fmax : rle16_find_run r max = if max <=? w + k then zlen A + 1 + zlen M1 else -(zlen A + 1 + zlen M1 + 2)).
    { rewrite E'. rewrite find_last; auto; [|now rewrite <- E'|lia]. zl. replace (zlen A + (zlen M1 + 1)) with (zlen A + 1 + zlen M1) by lia. reflexivity. }
    pose proof (zlen_nonneg M1) as ZM.
    assert (EN : rnth r (zlen A) = (v,l)) by (rewrite E; apply rnth_mid; auto).
    (* first phase *)
    set (r1 := A ++ (v, if v <? min then min - 1 - v else l) :: M1 ++ (w,k) :: B).
    rewrite Fmin, Fmax. unfold keep_left, keep_right. cbn [fst snd].
    assert (P1 : forall X (f : list run * Z -> X), (let '(a,b) := if 0 <=? (if v <=? min then zlen A else - (zlen A + 1))
        then if fst (rnth r (if v <=? min then zlen A else - (zlen A + 1))) <? min
             then (rset (if v <=? min then zlen A else - (zlen A + 1))
                  (fst (rnth r (if v <=? min then zlen A else - (zlen A + 1))), u16 (min - 1 - fst (rnth r (if v <=? min then zlen A else - (zlen A + 1))))) r,
                  (if v <=? min then zlen A else - (zlen A + 1)) + 1) else (r, if v <=? min then zlen A else - (zlen A + 1))
        else (r, - (if v <=? min then zlen A else - (zlen A + 1)) - 1) in f (a,b)) = f (r1, if v <? min then zlen A + 1 else zlen A)).
    { intros X f. unfold r1. destruct (Z.leb_spec v min).
      - replace (0 <=? zlen A) with true by lia. rewrite EN. cbn [fst snd]. destruct (Z.ltb_spec v min).
        + rewrite E. rewrite rset_mid by auto. rewrite u16_small by lia. rewrite <- app_assoc. reflexivity.
        + rewrite E. rewrite <- app_assoc. reflexivity.
      - replace (0 <=? - (zlen A + 1)) with false by lia. replace (v <? min) with false by lia. rewrite E. rewrite <- app_assoc.
        replace (- - (zlen A + 1) - 1) with (zlen A) by lia. reflexivity. }
    assert (Q1 : (0 <=? (if v <=? min then zlen A else - (zlen A + 1))) &&
        (fst (rnth r (if v <=? min then zlen A else - (zlen A + 1))) <? min) &&
        (max <? fst (rnth r (if v <=? min then zlen A else - (zlen A + 1))) + snd (rnth r (if v <=? min then zlen A else - (zlen A + 1)))) = false).
    { destruct (Z.leb_spec v min).
      - rewrite EN. cbn [fst snd]. lia.
      - replace (0 <=? - (zlen A + 1)) with false by lia. reflexivity. }
    rewrite Q1. rewrite (P1 _ (fun '(a,b) => _)). clear P1 Q1.
    set (x' := (v, if v <? min then min - 1 - v else l)) in *.
    assert (E1 : r1 = (A ++ x' :: M1) ++ (w,k) :: B) by (unfold r1; rewrite <- app_assoc; reflexivity).
    assert (Z1 : zlen (A ++ x' :: M1) = zlen A + 1 + zlen M1) by (zl; lia).
    assert (Fin : forall z last, last = zlen A + zlen M1 + (if max <? w + k then 0 else 1) ->
       (if (if v <? min then zlen A + 1 else zlen A) <=? last
        then run_container_shift_tail ((A ++ x' :: M1) ++ z :: B)
           (zlen ((A ++ x' :: M1) ++ z :: B) - (last + 1)) (- (last - (if v <? min then zlen A + 1 else zlen A) + 1))
        else (A ++ x' :: M1) ++ z :: B) =
       A ++ (if v <? min then [(v, min - 1 - v)] else []) ++ (if max <? w + k then [z] else []) ++ B).
    { intros z last ->. unfold x'. destruct (Z.ltb_spec v min), (Z.ltb_spec max (w+k)).
      - destruct (Z.leb_spec (zlen A + 1) (zlen A + zlen M1 + 0)).
        + replace ((A ++ (v,min-1-v)::M1) ++ z :: B) with ((A ++ [(v,min-1-v)]) ++ M1 ++ z :: B) by (rewrite <- !app_assoc; reflexivity).
          rewrite run_shift_tail_mid by (zl; lia). rewrite <- app_assoc. reflexivity.
        + assert (M1 = []) by (destruct M1; auto; rewrite zlen_cons in *; pose proof (zlen_nonneg M1); lia). subst M1.
          rewrite <- app_assoc. reflexivity.
      - replace (zlen A + 1 <=? zlen A + zlen M1 + 1) with true by lia.
        replace ((A ++ (v,min-1-v)::M1) ++ z :: B) with ((A ++ [(v,min-1-v)]) ++ (M1 ++ [z]) ++ B) by (rewrite <- !app_assoc; reflexivity).
        rewrite run_shift_tail_mid by (zl; lia). rewrite <- app_assoc. reflexivity.
      - replace (zlen A <=? zlen A + zlen M1 + 0) with true by lia.
        replace ((A ++ (v,l)::M1) ++ z :: B) with (A ++ ((v,l)::M1) ++ z :: B) by (rewrite <- !app_assoc; reflexivity).
        rewrite run_shift_tail_mid by (zl; lia). reflexivity.
      - replace (zlen A <=? zlen A + zlen M1 + 1) with true by lia.
        replace ((A ++ (v,l)::M1) ++ z :: B) with (A ++ ((v,l)::M1 ++ [z]) ++ B) by (rewrite <- !app_assoc; cbn [app]; rewrite <- !app_assoc; reflexivity).
        rewrite (run_shift_tail_mid A ((v,l)::M1 ++ [z]) B) by (zl; zl; lia). reflexivity. }
    destruct (Z.leb_spec max (w+k)).
    + replace (0 <=? zlen A + 1 + zlen M1) with true by lia. rewrite E1. rewrite rnth_mid by lia. cbn [fst snd].
      rewrite (u16_small (w+k)) by lia. destruct (Z.ltb_spec max (w+k)) as [Hmk|Hmk].
      * rewrite rset_mid by lia. rewrite !u16_small by lia. rewrite <- Fin with (last := zlen A + 1 + zlen M1 - 1); [|lia]. 
        reflexivity.
      * rewrite <- (Fin (w,k) (zlen A + 1 + zlen M1)); [reflexivity|lia].
    + replace (0 <=? - (zlen A + 1 + zlen M1 + 2)) with false by lia. rewrite E1.
      replace (max <? w+k) with false in * by lia.
      rewrite <- (Fin (w,k) (zlen A + 1 + zlen M1)); [|lia].
      replace (- - (zlen A + 1 + zlen M1 + 2) - 1 - 1) with (zlen A + 1 + zlen M1) by lia. reflexivity.
Qed.
Lemma rok_first_last lo v l M w k v' l' : rok lo ((v,l)::M) -> last M (v,l) = (w,k) -> In (v',l') ((v,l)::M) ->
  ((v',l') = (v,l) \/ v + l + 2 <= v') /\ ((v',l') = (w,k) \/ v' + l' + 2 <= w).
Proof.
  intros H E Hi. split.
  - destruct Hi as [Hi|Hi]; [left; auto|right]. cbn [rok] in H. destruct H as (_&_&_&H). apply (rok_In _ _ _ _ H) in Hi. lia.
  - destruct (snoc_cases M) as [->|(M1&x&->)].
    + cbn in E. destruct Hi as [Hi|[]]. left. congruence.
    + rewrite last_last in E. subst x. change ((v,l) :: M1 ++ [(w,k)]) with (((v,l) :: M1) ++ [(w,k)]) in *.
      apply in_app_or in Hi. destruct Hi as [Hi|[Hi|[]]]; [right|left; auto].
      apply in_split in Hi. destruct Hi as (P&Q&EP). rewrite EP in H. rewrite <- app_assoc in H. apply rok_app in H. destruct H as [_ H].
      cbn [app rok] in H. destruct H as (_&_&_&H). apply (rok_In _ _ w k) in H; [lia|]. apply in_or_app. right. now left.
Qed.
Lemma last_In {T} (M : list T) x : In (last M x) (x :: M).
Proof. destruct (snoc_cases M) as [->|(M1&y&->)]; [now left|]. rewrite last_last. right. apply in_or_app. right. now left. Qed.
Lemma run_remove_range_spec r min max : rwf r -> 0 <= min -> min <= max -> max < 65536 ->
  rwf (run_container_remove_range r min max) /\
  forall y, rmem (run_container_remove_range r min max) y = rmem r y && negb ((min <=? y) && (y <=? max)).
Proof.
  intros H H0 H1 H2. destruct (range_split r min max) as (A&M&B&E&HA&HM&HB); auto.
  rewrite (run_remove_range_eq r min max A M B); auto.
  assert (RA : forall y, rmem A y = true -> y < min).
  { intros y Hy. apply rmem_In in Hy. destruct Hy as (v&l&Hi&Hy). apply HA in Hi. lia. }
  assert (RB : forall y, rmem B y = true -> max < y).
  { intros y Hy. apply rmem_In in Hy. destruct Hy as (v&l&Hi&Hy). apply HB in Hi. lia. }
  destruct M as [|[v l] M].
  { split; auto. intros y. subst r. cbn [app]. rewrite rmem_app. specialize (RA y). specialize (RB y).
    destruct (rmem A y), (rmem B y); cbn; try lia. }
  destruct (last M (v,l)) as [w k] eqn:EL.
  pose proof (last_In M (v,l)) as LI. rewrite EL in LI.
  assert (Hr : rok 0 (A ++ ((v,l)::M) ++ B)) by (unfold rwf in H; now rewrite E in H).
  assert (HMr : rok (rnext 0 A) ((v,l)::M)). { apply rok_app in Hr. destruct Hr as [_ Hr]. apply rok_app in Hr. apply Hr. }
  pose proof (HM v l (or_introl eq_refl)) as Hx. pose proof (HM w k LI) as Hy.
  pose proof (rok_In _ _ _ _ HMr (or_introl eq_refl)) as Bx. pose proof (rok_In _ _ _ _ HMr LI) as By.
  assert (HAv : forall v' l', In (v',l') A -> v' + l' + 2 <= v).
  { intros v' l' Hi. apply in_split in Hi. destruct Hi as (A1&A2&EA). rewrite EA in Hr. rewrite <- app_assoc in Hr. apply rok_app in Hr. destruct Hr as [_ Hr].
    cbn [app rok] in Hr. destruct Hr as (_&_&_&Hr). apply (rok_In _ _ v l) in Hr; [lia|]. apply in_or_app. right. now left. }
  assert (HBw : forall v' l', In (v',l') B -> w + k + 2 <= v').
  { intros v' l' Hi. apply in_split in LI. destruct LI as (P&Q&EP). rewrite EP in Hr. rewrite <- app_assoc in Hr. apply rok_app in Hr. destruct Hr as [_ Hr].
    apply rok_app in Hr. destruct Hr as [_ Hr]. cbn [app rok] in Hr. destruct Hr as (_&_&_&Hr). apply (rok_In _ _ v' l') in Hr; [lia|]. apply in_or_app. now right. }
  assert (RAok : rok 0 A) by (apply rok_app in Hr; apply Hr).
  assert (RBok : rok (w+k+2) B).
  { apply rok_app in Hr. destruct Hr as [_ Hr]. apply rok_app in Hr. destruct Hr as [_ Hr]. destruct B as [|[v' l'] B]; cbn [rok] in *; auto.
    specialize (HBw v' l' (or_introl eq_refl)). intuition lia. }
  pose proof (rnext_ge _ _ RAok).
  unfold keep_left, keep_right. cbn [fst snd]. split.
  - unfold rwf. apply rok_app. split; auto.
    assert (RN : rnext 0 A <= v) by lia.
    destruct (Z.ltb_spec v min), (Z.ltb_spec max (w+k)); cbn [app rok]; repeat split; try lia.
    + replace (max + 1 + (w + k - (max + 1)) + 2) with (w+k+2) by lia. auto.
    + eapply rok_weaken; [|apply RBok]. lia.
    + replace (max + 1 + (w + k - (max + 1)) + 2) with (w+k+2) by lia. auto.
    + eapply rok_weaken; [|apply RBok]. lia.
  - intros y. rewrite E. rewrite !rmem_app. specialize (RA y). specialize (RB y).
    assert (K : rmem (if v <? min then [(v, min-1-v)] else []) y || rmem (if max <? w + k then [(max+1, w+k-(max+1))] else []) y =
                rmem ((v,l)::M) y && negb ((min <=? y) && (y <=? max))).
    { apply eq_true_iff_eq. rewrite orb_true_iff, andb_true_iff, (rmem_In ((v,l)::M)). split.
      - intros [K|K].
        + revert K. destruct (Z.ltb_spec v min); intros K; [|discriminate]. rewrite rmem_cons, rmem_nil in K. unfold inrun in K. cbn [fst snd] in K.
          split; [|lia]. exists v, l. split; [now left|]. lia.
        + revert K. destruct (Z.ltb_spec max (w+k)); intros K; [|discriminate]. rewrite rmem_cons, rmem_nil in K. unfold inrun in K. cbn [fst snd] in K.
          split; [|lia]. exists w, k. split; auto. lia.
      - intros [(v'&l'&Hi&K) K2]. destruct (rok_first_last _ _ _ _ _ _ _ _ HMr EL Hi) as [F1 F2].
        pose proof (HM _ _ Hi). pose proof (rok_In _ _ _ _ HMr Hi). destruct (Z_lt_dec y min).
        + left. destruct F1 as [F1|F1]; [|lia]. inversion F1; subst. replace (v <? min) with true by lia. rewrite rmem_cons. unfold inrun. cbn [fst snd]. lia.
        + right. destruct F2 as [F2|F2]; [|lia]. inversion F2; subst. replace (max <? w + k) with true by lia. rewrite rmem_cons. unfold inrun. cbn [fst snd]. lia. }
    destruct (rmem A y), (rmem B y); cbn [orb]; try lia; rewrite ?orb_true_r, ?orb_false_r, K, ?orb_true_r, ?orb_false_r; auto.
    all: destruct (rmem ((v,l)::M) y); cbn; lia.
Qed.

(** ** offset *)
Definition orw (o : option (list run)) (P : Z -> bool) : Prop :=
  match o with
  | Some r => rwf r /\ r <> [] /\ forall x, 0 <= x < 65536 -> rmem r x = P x
  | None => forall x, 0 <= x < 65536 -> P x = false
  end.
Definition rshift (off : Z) (r : list run) : list run := map (fun x : run => (u16 (fst x + off), snd x)) r.
Lemma rshift_lo off lo A : 0 <= off -> 0 <= lo -> rok lo A -> (forall v l, In (v,l) A -> v + l + off < 65536) ->
  rok (lo + off) (rshift off A) /\ forall y, rmem (rshift off A) y = rmem A (y - off).
Proof.
  intros Ho. revert lo. induction A as [|[v l] A IH]; intros lo Hlo H HA; [split; cbn; auto|].
  pose proof (HA v l (or_introl eq_refl)). cbn [rok] in H. destruct H as (B1&B2&B3&B4).
  destruct (IH (v+l+2)) as [Q1 Q2]; auto; [lia|intros; apply HA; now right|].
  cbn [rshift map fst snd]. rewrite u16_small by lia. split.
  - cbn [rok]. repeat split; try lia. replace (v + off + l + 2) with (v+l+2+off) by lia. apply Q1.
  - intros y. rewrite !rmem_cons. fold (rshift off A). rewrite Q2. unfold inrun. cbn [fst snd]. f_equal. lia.
Qed.
Lemma rshift_hi off lo A : 0 <= off <= 65536 -> 65536 - off <= lo -> rok lo A ->
  rok (lo + off - 65536) (rshift off A) /\ forall y, rmem (rshift off A) y = rmem A (y + 65536 - off).
Proof.
  intros Ho. revert lo. induction A as [|[v l] A IH]; intros lo Hlo H; [split; cbn; auto|].
  cbn [rok] in H. destruct H as (B1&B2&B3&B4).
  destruct (IH (v+l+2)) as [Q1 Q2]; auto; [lia|].
  cbn [rshift map fst snd]. assert (E : u16 (v + off) = v + off - 65536).
  { unfold u16. replace (v+off) with (v + off - 65536 + 1 * 65536) at 1 by lia. rewrite Z.mod_add by lia. apply Z.mod_small. lia. }
  rewrite E. split.
  - cbn [rok]. repeat split; try lia. replace (v + off - 65536 + l + 2) with (v+l+2+off-65536) by lia. apply Q1.
  - intros y. rewrite !rmem_cons. fold (rshift off A). rewrite Q2. unfold inrun. cbn [fst snd]. f_equal. lia.
Qed.
Lemma run_offset_spec c wantlo wanthi off : rwf c -> c <> [] -> 0 < off < 65536 ->
  let r := run_container_offset c wantlo wanthi off in
  (wantlo = true -> orw (fst r) (fun x => (off <=? x) && rmem c (x - off))) /\
  (wanthi = true -> orw (snd r) (fun x => (x <? off) && rmem c (x + 65536 - off))).
Proof.
  intros H Hne Ho. cbn zeta. unfold run_container_offset. rewrite (u16_small (65536 - off)) by lia.
  set (p := run_container_index_equalorlarger c (65536 - off)).
  assert (HP := run_index_eol_spec c (65536-off) H ltac:(lia)). cbn zeta in HP. fold p in HP. clearbody p.
  change (map (fun x : run => (u16 (fst x + off), snd x)) (rskip p c)) with (rshift off (rskip p c)).
  destruct HP as [[-> HP]|(A&v&l&B&E&->&HP&HA)].
  - change (-1 =? -1) with true. change (0 =? 0) with true. cbn [fst snd negb].
    change (map (fun x : run => (u16 (fst x + off), snd x))) with (rshift off).
    split; intros ->; cbn [andb].
    + assert (Hz : zlen c <> 0) by (destruct c; [congruence|rewrite zlen_cons; pose proof (zlen_nonneg c); lia]).
      replace (zlen c =? 0) with false by lia. cbn [negb].
      replace (rtake (zlen c) c) with c by (rewrite <- (app_nil_r c) at 3; symmetry; apply rtake_mid; auto).
      destruct (rshift_lo off 0 c) as [Q1 Q2]; auto; try lia.
      { intros v l Hi. destruct (Z_lt_dec (v+l+off) 65536); auto. exfalso.
        assert (rmem c (v+l) = true). { apply rmem_In. exists v, l. split; auto. pose proof (rok_In _ _ _ _ H Hi). lia. }
        rewrite HP in H0; [discriminate|lia]. }
      cbn [orw]. split; [|split].
      * eapply rok_weaken; [|apply Q1]. lia.
      * destruct c; [congruence|discriminate].
      * intros x Hx. rewrite Q2. destruct (rmem c (x-off)) eqn:Em; [|now rewrite andb_false_r].
        pose proof (rmem_range _ _ _ H Em). lia.
    + cbn [orw]. intros x Hx. destruct (Z.ltb_spec x off); auto. cbn [andb]. apply HP. lia.
  - pose proof (zlen_nonneg A) as ZA. replace (zlen A =? -1) with false by lia.
    assert (EN : rnth c (zlen A) = (v,l)) by (rewrite E; apply rnth_mid; auto). rewrite EN. cbn [fst snd].
    change (map (fun x : run => (u16 (fst x + off), snd x))) with (rshift off).
    assert (ES : rskip (zlen A) c = (v,l)::B) by (rewrite E; apply rskip_mid; auto). rewrite ES.
    assert (Hc := H). unfold rwf in Hc. rewrite E in Hc. assert (Hc' := Hc). apply rok_app in Hc. destruct Hc as [HA1 HB1].
    cbn [rok] in HB1. destruct HB1 as (C1&C2&C3&C4). pose proof (rnext_ge _ _ HA1) as C0.
    assert (Hz : zlen c - zlen A <> 0) by (rewrite E; zl; lia).
    replace (zlen c - zlen A =? 0) with false by lia. cbn [negb]. rewrite !andb_true_r.
    destruct (rshift_lo off 0 A) as [LA1 LA2]; auto; try lia.
    { intros v' l' Hi. apply HA in Hi. lia. }
    destruct (rshift_hi off (v+l+2) B) as [LB1 LB2]; auto; try lia.
    assert (MA : forall y, 65536 - off <= y -> rmem A y = false).
    { intros y Hy. destruct (rmem A y) eqn:Em; auto. apply rmem_In in Em. destruct Em as (v'&l'&Hi&Hy'). apply HA in Hi. lia. }
    assert (MB : forall y, y <= v + l + 1 -> rmem B y = false).
    { intros y Hy. eapply rmem_lo; [apply C4|lia]. }
    assert (Mc : forall y, rmem c y = rmem A y || (inrun (v,l) y || rmem B y)) by (intros y; rewrite E, rmem_app, rmem_cons; auto).
    destruct (Z.ltb_spec v (65536-off)).
    + (* the pivot is split *)
      assert (ET : rtake (zlen A + 1) c = A ++ [(v,l)]) by (rewrite E; apply rtake_mid1; auto). rewrite ET.
      assert (EX : rshift off (A ++ [(v,l)]) = rshift off A ++ [(v+off,l)]).
      { unfold rshift. rewrite map_app. cbn [map fst snd]. rewrite u16_small by lia. reflexivity. }
      rewrite EX. assert (ZX : rnth (rshift off A ++ [(v+off,l)]) (zlen (rshift off A ++ [(v+off,l)]) - 1) = (v+off,l)).
      { apply rnth_mid. rewrite zlen_app. change (zlen [(v+off,l)]) with 1. lia. }
      rewrite ZX. rewrite set_last_mid. cbn [fst snd]. rewrite (u16_small (65536 - (v+off) - 1)) by lia.
      assert (EH : rshift off ((v,l)::B) = (v+off,l) :: rshift off B) by (cbn [rshift map fst snd]; rewrite u16_small by lia; reflexivity).
      rewrite EH. rewrite rnth_0. cbn [fst snd]. rewrite (rset_mid [] (v+off,l) _ (rshift off B) 0) by reflexivity. cbn [app].
      rewrite (u16_small (l - (65535 - (v+off) + 1))) by lia. replace (zlen A + 1 =? 0) with false by lia.
      split; intros ->; cbn [andb negb orw].
      * split; [|split].
        -- unfold rwf. apply rok_app. split; [eapply rok_weaken; [|apply LA1]; lia|]. cbn [rok]. repeat split; try lia.
           assert (G : rnext 0 (rshift off A) <= v + off); [|lia].
           apply rnext_le; try lia. { eapply rok_weaken; [|apply LA1]; lia. }
           intros v' l' Hi. unfold rshift in Hi. apply in_map_iff in Hi. destruct Hi as ([v2 l2]&E2&Hi). cbn [fst snd] in E2.
           pose proof (rok_In _ _ _ _ HA1 Hi). specialize (HA _ _ Hi). rewrite u16_small in E2 by lia. inversion E2; subst.
           apply in_split in Hi. destruct Hi as (P&Q&EP). rewrite EP in Hc'. rewrite <- app_assoc in Hc'. apply rok_app in Hc'. destruct Hc' as [_ Hc'].
           cbn [app rok] in Hc'. destruct Hc' as (_&_&_&Hc'). apply (rok_In _ _ v l) in Hc'; [lia|]. apply in_or_app. right. now left.
        -- destruct (rshift off A); discriminate.
        -- intros x Hx. rewrite rmem_app, rmem_cons, rmem_nil, LA2, Mc. unfold inrun. cbn [fst snd].
           rewrite (MB (x-off)) by lia. pose proof (rmem_lo _ A (x-off) HA1). lia.
      * split; [|split].
        -- unfold rwf. cbn [rok]. repeat split; try lia. eapply rok_weaken; [|apply LB1]. lia.
        -- discriminate.
        -- intros x Hx. rewrite rmem_cons, LB2, Mc. rewrite (MA (x + 65536 - off)) by lia. unfold inrun. cbn [fst snd]. cbn [orb].
           destruct (rmem B (x+65536-off)) eqn:Em; [|lia]. pose proof (rmem_range _ _ _ C4 Em). lia.
    + replace (zlen A + 0) with (zlen A) by lia.
      assert (ET : rtake (zlen A) c = A) by (rewrite E; apply rtake_mid; auto). rewrite ET.
      split; intros ->; cbn [andb].
      * destruct (Z.eqb_spec (zlen A) 0); cbn [negb orw].
        -- assert (A = []) by (destruct A; auto; rewrite zlen_cons in *; pose proof (zlen_nonneg A); lia). subst A.
           intros x Hx. rewrite Mc. rewrite (MB (x-off)) by lia. unfold inrun. cbn [fst snd]. rewrite rmem_nil. lia.
        -- split; [|split].
           ++ eapply rok_weaken; [|apply LA1]. lia.
           ++ destruct A; [now change (zlen (@nil run)) with 0 in n|discriminate].
           ++ intros x Hx. rewrite LA2, Mc. rewrite (MB (x-off)) by lia. unfold inrun. cbn [fst snd].
              pose proof (rmem_lo _ A (x-off) HA1). lia.
      * cbn [orw]. destruct (rshift_hi off v ((v,l)::B)) as [Q1 Q2]; try lia. { cbn [rok]. repeat split; auto; lia. }
        split; [|split].
        -- eapply rok_weaken; [|apply Q1]. lia.
        -- discriminate.
        -- intros x Hx. rewrite Q2, Mc, rmem_cons. rewrite (MA (x+65536-off)) by lia. cbn [orb].
           destruct (inrun (v,l) (x+65536-off)) eqn:E1; [unfold inrun in E1; cbn [fst snd] in E1; lia|].
           destruct (rmem B (x+65536-off)) eqn:Em; [|now rewrite andb_false_r]. pose proof (rmem_range _ _ _ C4 Em). lia.
Qed.
