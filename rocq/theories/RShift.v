(** RShift: roaring_bitmap_add_offset (src/roaring.c:2122-2231). *)
From Verif Require Import Base ArrayUtil BitUtil BitsetC ArrayC RunC RunD Convert MixedI MixedU MixedA MixedN Containers RArray RBinary RPoint RRange RQuery.
Local Opaque zr.

(** ** Code *)
(** roaring.c:2122-2148 offset_append_with_merge; [cap] is the capacity of the last
    container (only used when it is an array container) *)
Definition offset_append_with_merge (cap : Z) (ra : bitmap) (k : Z) (c : container) : bitmap :=
  let size := zlen ra in
  if (size =? 0) || negb (rkey ra (size - 1) =? k) then ra ++ [(k, c)]
  else ra_set_container_at_index ra (size - 1) (container_ior cap (rcon ra (size - 1)) c).
(** roaring.c:2192-2227: the loop over the containers of bm *)
Fixpoint add_offset_loop (cap : Z -> Z) (bm : bitmap) (container_offset in_offset : Z) (ans : bitmap) : bitmap :=
  match bm with
  | [] => ans
  | (key, c) :: t =>
    let k := key + container_offset in
    let lo_ptr := (0 <=? k) && (k <? 65536) in
    let hi_ptr := (0 <=? k + 1) && (k + 1 <? 65536) in
    if negb lo_ptr && negb hi_ptr then add_offset_loop cap t container_offset in_offset ans
    else
      let '(lo, hi) := container_add_offset c lo_ptr hi_ptr in_offset in
      let ans := match lo with Some l => offset_append_with_merge (cap k) ans k l | None => ans end in
      let ans := match hi with Some h => ans ++ [(k + 1, h)] | None => ans end in
      add_offset_loop cap t container_offset in_offset ans
  end.
(** roaring.c:2155-2231.  The offset is an int64_t; >> on a negative number is the
    arithmetic shift. *)
Definition roaring_bitmap_add_offset (cap : Z -> Z) (bm : bitmap) (offset : Z) : bitmap :=
  if offset =? 0 then bm
  else
    let container_offset := Z.shiftr offset 16 in
    let in_offset := u16 (offset - container_offset * 65536) in
    if in_offset =? 0 then
      flat_map (fun p => let key := fst p + container_offset in
                         if (key <? 0) || (65536 <=? key) then [] else [(key, snd p)]) bm
    else roaring_bitmap_repair_after_lazy (add_offset_loop cap bm container_offset in_offset []).

(** ** Proofs *)
(** containers on the way: of the right shape and size, but bitsets may be small *)
Definition sok (c : container) : Prop :=
  match c with CArr a => awf a /\ zlen a <= 4096 | CBit b => bwf b | CRun r => rwf r end.
Definition sne (c : container) : Prop := sok c /\ cne c.
Lemma sok_lok c : sok c -> lok c.
Proof. destruct c; cbn; auto. intros [H1 H2]. split; auto. Qed.
Lemma cok_sok c : cok c -> sok c.
Proof. destruct c; cbn; intuition. Qed.
Lemma sne_ext c c' : cne c -> (forall x, 0 <= x < 65536 -> cmem c x = true -> cmem c' x = true) -> cne c'.
Proof. intros (x&Hx&E) H. exists x. auto. Qed.
Lemma ior_sne cap c1 c2 : sne c1 -> sne c2 -> sne (container_ior cap c1 c2) /\
  forall x, 0 <= x < 65536 -> cmem (container_ior cap c1 c2) x = cmem c1 x || cmem c2 x.
Proof.
  intros [H1 N1] [H2 N2].
  enough (E : sok (container_ior cap c1 c2) /\ forall x, 0 <= x < 65536 -> cmem (container_ior cap c1 c2) x = cmem c1 x || cmem c2 x).
  { destruct E as [E1 E2]. split; auto. split; auto. apply (sne_ext c1); auto. intros x Hx E. rewrite E2, E; auto. }
  assert (NA : forall a, cne (CArr a) -> a <> []) by (intros a (x&_&E) ->; discriminate).
  assert (NR : forall r, cne (CRun r) -> r <> []) by (intros a (x&_&E) ->; discriminate).
  assert (RS : forall c P, rep c P -> sok c /\ forall x, 0 <= x < 65536 -> cmem c x = P x) by (intros c P [A B]; split; auto; now apply cok_sok).
  destruct c1 as [a1|b1|r1], c2 as [a2|b2|r2]; cbn [sok container_ior cmem] in *.
  - rewrite array_array_inplace_union_eq by tauto. destruct (array_array_union_spec a1 a2) as [A B]; [tauto|tauto|]. split; auto.
    destruct (array_array_container_union a1 a2); cbn in *; tauto.
  - destruct (array_bitset_union_spec a1 b2) as (A1&A2&A3); [tauto|tauto|]. split; auto.
  - destruct (array_run_union_spec a1 r2) as (A1&A2&A3); auto; [tauto|]. apply RS. eapply rep_ext; [apply convert_run_eff_spec; auto|auto].
  - destruct (array_bitset_union_spec a2 b1) as (A1&A2&A3); [tauto|tauto|]. split; auto. intros x Hx. cbn [cmem]. rewrite A3 by auto. apply orb_comm.
  - destruct (bitset_op_spec Z.lor orb b1 b2 wordop_or) as [A1 A2]; [apply H1|apply H2|]. fold bitset_container_or in A1, A2. cbn zeta.
    destruct (Z.eqb_spec (b_card (bitset_container_or b1 b2)) 65536) as [E|E]; [|split; auto].
    apply RS, run_full_rep. intros x Hx. rewrite <- A2 by auto. apply (cnt_full_inv _ 0 65536); [lia| |lia]. destruct A1 as [_ A1]. unfold bcard in A1. lia.
  - destruct (run_container_is_full r2) eqn:F; [now apply full_or_r|].
    destruct (run_bitset_union_spec r2 b1 H2 (proj1 H1)) as [A1 A2]. split; auto. intros x Hx. cbn [cmem]. rewrite A2 by auto. apply orb_comm.
  - destruct (array_run_union_spec a2 r1) as (A1&A2&A3); auto; [tauto|]. apply RS. eapply rep_ext; [apply convert_run_eff_spec; auto|].
    intros x Hx. rewrite A3 by auto. apply orb_comm.
  - destruct (run_container_is_full r1) eqn:F; [now apply full_or_l|].
    destruct (run_bitset_union_spec r1 b2 H1 (proj1 H2)) as [A1 A2]. split; auto.
  - destruct (run_union_spec r1 r2) as (A1&A2&A3); auto. apply RS. eapply rep_ext; [apply convert_run_eff_spec; auto|auto].
Qed.
Lemma cnt_shift_le P off : 0 <= off <= 65536 -> cnt (fun x => (off <=? x) && P (x - off)) 0 65536 <= cnt P 0 65536.
Proof.
  intros H. rewrite (cnt_app _ 0 off 65536) by lia. rewrite (cnt_none _ 0 off) by (intros; lia).
  rewrite (cnt_ext _ (fun x => P (x + - off)) off 65536). 2: { intros x Hx. replace (off <=? x) with true by lia. reflexivity. }
  rewrite cnt_shift. rewrite (cnt_app P 0 (65536 - off) 65536) by lia. replace (off + - off) with 0 by lia. replace (65536 + - off) with (65536 - off) by lia.
  pose proof (cnt_bound P (65536 - off) 65536). lia.
Qed.
Lemma cnt_shift_le2 P off : 0 <= off <= 65536 -> cnt (fun x => (x <? off) && P (x + 65536 - off)) 0 65536 <= cnt P 0 65536.
Proof.
  intros H. rewrite (cnt_app _ 0 off 65536) by lia. rewrite (cnt_none _ off 65536) by (intros; lia).
  rewrite (cnt_ext _ (fun x => P (x + (65536 - off))) 0 off). 2: { intros x Hx. replace (x <? off) with true by lia. cbn [andb]. f_equal. lia. }
  rewrite cnt_shift. rewrite (cnt_app P 0 (65536 - off) 65536) by lia. replace (0 + (65536 - off)) with (65536 - off) by lia. replace (off + (65536 - off)) with 65536 by lia.
  pose proof (cnt_bound P 0 (65536 - off)). lia.
Qed.
Lemma offset_none c wantlo wanthi off : (wantlo = false -> fst (container_add_offset c wantlo wanthi off) = None) /\
  (wanthi = false -> snd (container_add_offset c wantlo wanthi off) = None).
Proof.
  split; intros ->; destruct c; cbn [container_add_offset array_container_offset bitset_container_offset run_container_offset andb negb]; auto.
  - destruct wanthi; reflexivity.
  - unfold bitset_container_offset. cbn zeta. destruct (wantlo && _); reflexivity.
Qed.
(** the array produced by an offset is not longer than the original *)
Lemma offset_sne c wantlo wanthi off : cok c -> 0 < off < 65536 ->
  (forall l, fst (container_add_offset c wantlo wanthi off) = Some l -> sne l /\ wantlo = true) /\
  (forall h, snd (container_add_offset c wantlo wanthi off) = Some h -> sne h /\ wanthi = true).
Proof.
  intros D H. destruct (container_add_offset_spec c wantlo wanthi off D H) as [S1 S2]. destruct (offset_none c wantlo wanthi off) as [N1 N2]. split.
  - intros l E. destruct wantlo; [|rewrite N1 in E by auto; discriminate]. split; auto. specialize (S1 eq_refl). rewrite E in S1. destruct S1 as [[W M] N]. split; auto.
    destruct l as [a|b|r]; auto. cbn [sok cwf cmem] in *. split; auto.
    destruct c as [a0|b0|r0].
    + rewrite awf_acard by auto. rewrite (cnt_ext (amem a) (fun x => (off <=? x) && amem a0 (x - off))) by (intros x Hx; now apply M).
      pose proof (cnt_shift_le (amem a0) off ltac:(lia)). destruct D as [D1 D2]. rewrite awf_acard in D2 by auto. lia.
    + cbn [container_add_offset] in E. destruct (bitset_container_offset b0 true wanthi off) as [[|] ?]; discriminate.
    + cbn [container_add_offset] in E. destruct (run_container_offset r0 true wanthi off) as [[|] ?]; discriminate.
  - intros l E. destruct wanthi; [|rewrite N2 in E by auto; discriminate]. split; auto. specialize (S2 eq_refl). rewrite E in S2. destruct S2 as [[W M] N]. split; auto.
    destruct l as [a|b|r]; auto. cbn [sok cwf cmem] in *. split; auto.
    destruct c as [a0|b0|r0].
    + rewrite awf_acard by auto. rewrite (cnt_ext (amem a) (fun x => (x <? off) && amem a0 (x + 65536 - off))) by (intros x Hx; now apply M).
      pose proof (cnt_shift_le2 (amem a0) off ltac:(lia)). destruct D as [D1 D2]. rewrite awf_acard in D2 by auto. lia.
    + cbn [container_add_offset] in E. destruct (bitset_container_offset b0 wantlo true off) as [? [|]]; discriminate.
    + cbn [container_add_offset] in E. destruct (run_container_offset r0 wantlo true off) as [? [|]]; discriminate.
Qed.
Definition keys_le (r : bitmap) (k : Z) : Prop := forall y, In y (rkeys r) -> y <= k.
Lemma gok_snocg (C : container -> Prop) lo hi (r : bitmap) c : gok C lo r -> (forall y, In y (rkeys r) -> y < hi) -> lo <= hi < 65536 -> C c -> gok C lo (r ++ [(hi, c)]).
Proof.
  intros G H1 H2 H3. apply gok_app. split; auto. split; [apply gok_cons; split; [lia|]; split; auto; apply gok_nil|].
  intros x y Hx Hy. cbn in Hy. destruct Hy as [<-|[]]. auto.
Qed.
Lemma append_plain ans k c : gok sne 0 ans -> keys_le ans (k - 1) -> 0 <= k < 65536 -> sne c ->
  let r := ans ++ [(k, c)] in gok sne 0 r /\ keys_le r k /\ forall j x, km r j x = km ans j x || ((j =? k) && cmem c x).
Proof.
  intros G K H S. cbn zeta. split; [|split].
  - apply gok_snocg; auto; try lia. intros y Hy. apply K in Hy. lia.
  - intros y Hy. rewrite rkeys_app in Hy. apply in_app_or in Hy as [Hy|[<-|[]]]; [apply K in Hy; lia|cbn; lia].
  - intros j x. rewrite km_snoc by (intros y Hy; apply K in Hy; lia). destruct (Z.eqb_spec j k) as [->|]; [|now rewrite orb_false_r].
    cbn [andb]. unfold km at 1. rewrite look_none; [now destruct (cmem c x)|]. intros Hy. apply K in Hy. lia.
Qed.
Lemma append_merge cap ans k c : gok sne 0 ans -> keys_le ans k -> 0 <= k < 65536 -> sne c ->
  let r := offset_append_with_merge cap ans k c in gok sne 0 r /\ keys_le r k /\
  forall j x, 0 <= x < 65536 -> km r j x = km ans j x || ((j =? k) && cmem c x).
Proof.
  intros G K H S. cbn zeta. unfold offset_append_with_merge. destruct (snoc_cases ans) as [->|(t&[k0 c0]&->)].
  - cbn [orb Z.eqb zlen length Z.of_nat]. destruct (append_plain [] k c) as (A1&A2&A3); auto; try (intros y []).
  - rewrite zlen_app, zlen_cons. change (zlen (@nil entry)) with 0. pose proof (zlen_nonneg t). replace (zlen t + (0 + 1) - 1) with (zlen t) by lia.
    rewrite rkey_mid, rcon_mid. replace (zlen t + (0 + 1) =? 0) with false by lia. cbn [orb].
    assert (K0 : k0 <= k). { apply K. rewrite rkeys_app. apply in_or_app. right; left; auto. }
    pose proof G as G'. apply gok_app in G' as (G1&G2&G3). apply gok_cons in G2 as (G2&G4&_).
    assert (LT : forall y, In y (rkeys t) -> y < k0) by (intros y Hy; apply (G3 y k0 Hy); left; auto).
    destruct (Z.eqb_spec k0 k) as [->|Ne]; cbn [negb].
    + rewrite set_at_mid. destruct (ior_sne cap c0 c G4 S) as [I1 I2]. split; [|split].
      * apply gok_snocg; auto; lia.
      * intros y Hy. rewrite rkeys_app in Hy. apply in_app_or in Hy as [Hy|[<-|[]]]; [apply LT in Hy; lia|cbn; lia].
      * intros j x Hx. rewrite !km_snoc by auto. destruct (Z.eqb_spec j k); cbn [andb]; [now apply I2|now rewrite orb_false_r].
    + destruct (append_plain (t ++ [(k0, c0)]) k c) as (A1&A2&A3); auto.
      intros y Hy. rewrite rkeys_app in Hy. apply in_app_or in Hy as [Hy|[<-|[]]]; [apply LT in Hy; lia|cbn; lia].
Qed.
(** the shifted membership *)
Definition shifted (r : bitmap) (co off j x : Z) : bool :=
  if off <=? x then km r (j - co) (x - off) else km r (j - co - 1) (x + 65536 - off).
Lemma add_offset_loop_spec cap co off (Hoff : 0 < off < 65536) bm : forall lo ans, gok cok lo bm -> gok sne 0 ans -> keys_le ans (lo + co) ->
  let r := add_offset_loop cap bm co off ans in gok sne 0 r /\
  forall j x, 0 <= j < 65536 -> 0 <= x < 65536 -> km r j x = km ans j x || shifted bm co off j x.
Proof.
  induction bm as [|[key c] t IH]; intros lo ans G A K; cbn zeta; cbn [add_offset_loop].
  { split; auto. intros j x Hj Hx. unfold shifted. rewrite !km_nil. destruct (off <=? x); now rewrite orb_false_r. }
  apply gok_cons in G as (Kk&D&T). set (k := key + co).
  set (wl := (0 <=? k) && (k <? 65536)). set (wh := (0 <=? k + 1) && (k + 1 <? 65536)).
  (* the contribution of the first container *)
  assert (SH : forall j x, 0 <= x < 65536 -> shifted ((key, c) :: t) co off j x =
     (((j =? k) && ((off <=? x) && cmem c (x - off))) || ((j =? k + 1) && ((x <? off) && cmem c (x + 65536 - off)))) || shifted t co off j x).
  { intros j x Hx. unfold shifted. destruct (Z.leb_spec off x) as [L|L].
    - replace (x <? off) with false by lia. cbn [andb]. rewrite andb_false_r, orb_false_r. destruct (Z.eqb_spec j k) as [->|Ne].
      + replace (k - co) with key by (unfold k; lia). rewrite km_head. rewrite (km_below cok (key + 1) t) by (auto; lia). cbn [andb]. now rewrite orb_false_r.
      + rewrite km_tail by (unfold k in Ne; lia). reflexivity.
    - replace (x <? off) with true by lia. cbn [andb]. rewrite andb_false_r. cbn [orb]. destruct (Z.eqb_spec j (k + 1)) as [->|Ne].
      + replace (k + 1 - co - 1) with key by (unfold k; lia). rewrite km_head. rewrite (km_below cok (key + 1) t) by (auto; lia). cbn [andb]. now rewrite orb_false_r.
      + rewrite km_tail by (unfold k in Ne; lia). reflexivity. }
  assert (STEP : exists a2, (if negb wl && negb wh then add_offset_loop cap t co off ans else
       let '(l, h) := container_add_offset c wl wh off in
       let a1 := match l with Some l => offset_append_with_merge (cap k) ans k l | None => ans end in
       let a2 := match h with Some h => a1 ++ [(k + 1, h)] | None => a1 end in add_offset_loop cap t co off a2) = add_offset_loop cap t co off a2 /\
     gok sne 0 a2 /\ keys_le a2 (k + 1) /\ forall j x, 0 <= j < 65536 -> 0 <= x < 65536 ->
       km a2 j x = km ans j x || (((j =? k) && ((off <=? x) && cmem c (x - off))) || ((j =? k + 1) && ((x <? off) && cmem c (x + 65536 - off))))).
  { destruct (negb wl && negb wh) eqn:W.
    - exists ans. split; auto. split; auto. split. { intros y Hy. apply K in Hy. unfold k. lia. }
      intros j x Hj Hx. unfold wl, wh in W. replace (j =? k) with false by lia. replace (j =? k + 1) with false by lia. cbn [andb orb]. now rewrite orb_false_r.
    - destruct (container_add_offset_spec c wl wh off D Hoff) as [S1 S2]. destruct (offset_none c wl wh off) as [N1 N2].
      destruct (offset_sne c wl wh off D Hoff) as [F1 F2]. destruct (container_add_offset c wl wh off) as [l h]. cbn [fst snd] in *. cbn zeta.
      set (a1 := match l with Some l => offset_append_with_merge (cap k) ans k l | None => ans end).
      assert (A1 : gok sne 0 a1 /\ keys_le a1 k /\ forall j x, 0 <= j < 65536 -> 0 <= x < 65536 -> km a1 j x = km ans j x || ((j =? k) && ((off <=? x) && cmem c (x - off)))).
      { unfold a1. destruct l as [l|].
        - destruct (F1 l eq_refl) as [Sl Wl]. specialize (S1 Wl). destruct S1 as [[_ M] _]. unfold wl in Wl.
          destruct (append_merge (cap k) ans k l) as (B1&B2&B3); auto; try lia. { intros y Hy. apply K in Hy. unfold k. lia. }
          split; auto. split; auto. intros j x Hj Hx. rewrite B3, M by auto. reflexivity.
        - split; auto. split. { intros y Hy. apply K in Hy. unfold k. lia. } intros j x Hj Hx. destruct wl eqn:Wl.
          + specialize (S1 eq_refl). cbn [ooff] in S1. specialize (S1 x Hx). cbn beta in S1. rewrite S1. now rewrite andb_false_r, orb_false_r.
          + unfold wl in Wl. replace (j =? k) with false by lia. cbn [andb]. now rewrite orb_false_r. }
      clearbody a1. destruct A1 as (A1&A2&A3).
      exists (match h with Some h => a1 ++ [(k + 1, h)] | None => a1 end). split; auto. destruct h as [h|].
      + destruct (F2 h eq_refl) as [Sh Wh]. specialize (S2 Wh). destruct S2 as [[_ M] _]. unfold wh in Wh.
        destruct (append_plain a1 (k + 1) h) as (B1&B2&B3); auto; try lia. { intros y Hy. apply A2 in Hy. lia. }
        split; auto. split; auto. intros j x Hj Hx. rewrite B3, A3, M by auto. now rewrite orb_assoc.
      + split; auto. split. { intros y Hy. apply A2 in Hy. lia. } intros j x Hj Hx. rewrite A3 by auto. f_equal. destruct wh eqn:Wh.
        * specialize (S2 eq_refl). cbn [ooff] in S2. specialize (S2 x Hx). cbn beta in S2. rewrite S2. now rewrite andb_false_r, orb_false_r.
        * unfold wh in Wh. replace (j =? k + 1) with false by lia. cbn [andb]. now rewrite orb_false_r. }
  destruct STEP as (a2&E&B1&B2&B3). subst wl wh k. cbn zeta in E |- *. rewrite E. set (k := key + co) in *.
  destruct (IH (key + 1) a2 T B1) as [R1 R2]. { intros y Hy. apply B2 in Hy. unfold k in Hy. lia. }
  split; auto. intros j x Hj Hx. rewrite R2, B3, SH by auto. now rewrite <- orb_assoc.
Qed.
Lemma shifted_mem r offset w : mem r (w - offset) = shifted r (offset / 65536) (offset mod 65536) (w / 65536) (w mod 65536).
Proof.
  unfold mem, shifted. pose proof (Z.mod_pos_bound offset 65536 ltac:(lia)). pose proof (Z.mod_pos_bound w 65536 ltac:(lia)).
  pose proof (Z.div_mod w 65536 ltac:(lia)). pose proof (Z.div_mod offset 65536 ltac:(lia)).
  destruct (Z.leb_spec (offset mod 65536) (w mod 65536)).
  - rewrite <- (Z.div_unique_pos (w - offset) 65536 (w / 65536 - offset / 65536) (w mod 65536 - offset mod 65536)) by lia.
    now rewrite <- (Z.mod_unique_pos (w - offset) 65536 (w / 65536 - offset / 65536) (w mod 65536 - offset mod 65536)) by lia.
  - rewrite <- (Z.div_unique_pos (w - offset) 65536 (w / 65536 - offset / 65536 - 1) (w mod 65536 + 65536 - offset mod 65536)) by lia.
    now rewrite <- (Z.mod_unique_pos (w - offset) 65536 (w / 65536 - offset / 65536 - 1) (w mod 65536 + 65536 - offset mod 65536)) by lia.
Qed.
Lemma flat_shift_spec bm co : forall lo, gok cok lo bm ->
  let r := flat_map (fun p : entry => let key := fst p + co in if (key <? 0) || (65536 <=? key) then [] else [(key, snd p)]) bm in
  gok cok (Z.max 0 (lo + co)) r /\ forall j x, 0 <= j < 65536 -> km r j x = km bm (j - co) x.
Proof.
  induction bm as [|[k c] t IH]; intros lo G; cbn zeta; cbn [flat_map fst snd].
  { split; [apply gok_nil|reflexivity]. }
  apply gok_cons in G as (K&D&T). destruct (IH (k + 1) T) as [I1 I2]. destruct ((k + co <? 0) || (65536 <=? k + co)) eqn:W; cbn [app].
  - split; [eapply gok_weaken; [exact I1|lia]|]. intros j x Hj. rewrite I2 by auto. rewrite km_tail by lia. reflexivity.
  - split.
    + apply gok_cons. split; [lia|]. split; auto. eapply gok_weaken; [exact I1|lia].
    + intros j x Hj. destruct (Z.eq_dec j (k + co)) as [->|Ne].
      * rewrite km_head. replace (k + co - co) with k by lia. now rewrite km_head.
      * rewrite !km_tail by lia. now apply I2.
Qed.
Theorem roaring_bitmap_add_offset_spec cap r d : bok r ->
  bspec (roaring_bitmap_add_offset cap r d) (fun w => (0 <=? w) && (w <? 2^32) && mem r (w - d)).
Proof.
  intros B. unfold roaring_bitmap_add_offset.
  assert (FIN : forall r', rspec r' (shifted r (d / 65536) (d mod 65536)) -> bspec r' (fun w => (0 <=? w) && (w <? 2^32) && mem r (w - d))).
  { intros r' R. split; [apply R|]. intros w. destruct ((0 <=? w) && (w <? 2^32)) eqn:W; cbn [andb].
    - rewrite shifted_mem. apply rspec_mem; auto. lia.
    - apply mem_oob; [apply R|lia]. }
  destruct (Z.eqb_spec d 0) as [->|Hd].
  { split; auto. intros w. rewrite Z.sub_0_r. destruct ((0 <=? w) && (w <? 2^32)) eqn:W; auto. cbn [andb]. apply mem_oob; auto. lia. }
  rewrite Z.shiftr_div_pow2 by lia. change (2^16) with 65536. cbn zeta.
  assert (O : u16 (d - d / 65536 * 65536) = d mod 65536).
  { change (u16 (d - d / 65536 * 65536)) with ((d - d / 65536 * 65536) mod 65536). rewrite (Z.mul_comm (d / 65536)). rewrite <- Z.mod_eq by lia. rewrite Z.mod_mod by lia. reflexivity. }
  rewrite O. pose proof (Z.mod_pos_bound d 65536 ltac:(lia)). apply FIN. destruct (Z.eqb_spec (d mod 65536) 0) as [E|E].
  - destruct (flat_shift_spec r (d / 65536) 0 B) as [F1 F2]. split; [eapply gok_weaken; [exact F1|lia]|].
    intros j x Hj Hx. rewrite F2 by auto. unfold shifted. rewrite E. replace (0 <=? x) with true by lia. now rewrite Z.sub_0_r.
  - destruct (add_offset_loop_spec cap (d / 65536) (d mod 65536) ltac:(lia) r 0 []) as [L1 L2]; [auto|apply gok_nil|intros y []|].
    eapply bmrep_ext.
    + apply roaring_bitmap_repair_spec. eapply gok_impl; [|exact L1]. intros c [S1 S2]. split; auto. now apply sok_lok.
    + intros j x Hj Hx. rewrite L2 by auto. reflexivity.
Qed.
