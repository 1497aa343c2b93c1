(** ArtI: iterators of an ART follow its sorted entries. *)
From Verif Require Import Base BitUtil Art ArtS ArtN ArtW ArtT ArtU.
Local Opaque zr n48_pairs n256_pairs.

(** ** Contexts: the path from a subtree to the root *)
Record cf := CF { c_r : Z; c_pre : list Z; c_l : list (Z * T); c_k : Z; c_rt : list (Z * T) }.
Definition fill (c : cf) (t : T) : T := TN (c_r c) (c_pre c) (c_l c ++ (c_k c, t) :: c_rt c).
Fixpoint plug (t : T) (cs : list cf) : T := match cs with [] => t | c :: cs' => plug (fill c t) cs' end.
Fixpoint before (cs : list cf) : list entry := match cs with [] => [] | c :: cs' => before cs' ++ flatl (c_l c) end.
Fixpoint after (cs : list cf) : list entry := match cs with [] => [] | c :: cs' => flatl (c_rt c) ++ after cs' end.
Fixpoint path (cs : list cf) : list Z := match cs with [] => [] | c :: cs' => path cs' ++ c_pre c ++ [c_k c] end.

Lemma flat_plug cs : forall t, flat (plug t cs) = before cs ++ flat t ++ after cs.
Proof.
  induction cs as [|c cs IH]; intros t; cbn [plug before after]; [now rewrite app_nil_r|]. rewrite IH. unfold fill. rewrite flat_TN, flatl_app, flatl_cons.
  now rewrite <- !app_assoc.
Qed.
Lemma holds_plug a cs : forall t, holds a (plug t cs) -> holds a t.
Proof.
  induction cs as [|c cs IH]; intros t H; auto. cbn [plug] in H. apply IH in H. unfold fill in H. apply holds_TN in H.
  destruct H as [_ H]. apply allp_app in H. now destruct H as [_ [H _]].
Qed.
Lemma wft_plug cs : forall t, wft [] (plug t cs) -> wft (path cs) t.
Proof.
  induction cs as [|c cs IH]; intros t H; auto. cbn [plug path] in *. apply IH in H. unfold fill in H.
  apply T_children_incr in H. tauto.
Qed.
Lemma tref_plug t t' cs : tref t = tref t' -> tref (plug t cs) = tref (plug t' cs).
Proof. revert t t'. induction cs; intros; cbn; auto. Qed.

(** ** Positions *)
Definition frs (a : art) (cs : list cf) (fr : list (Z * Z)) : Prop :=
  Forall2 (fun c f => exists n, art_deref a (c_r c) = Some n /\ f = (c_r c, idx_of n (zlen (c_l c)) (c_k c))) cs fr.
(** the iterator is about to enter the subtree below [cs] *)
Definition atn (a : art) (it : iter) (cs : list cf) : Prop :=
  i_depth it = zlen (path cs) /\ exists top fr, i_frames it = top :: fr /\ frs a cs fr.
Definition at_leaf (a : art) (it : iter) (cs : list cf) (lf : Z) (k : list Z) : Prop :=
  i_key it = k /\ i_val it = lf /\ i_depth it = zlen (path cs) /\ exists fr, i_frames it = (lf, 0) :: fr /\ frs a cs fr.
(** frames[0].ref *)
Definition base (it : iter) : Z := fst (last (i_frames it) (0, 0)).
Definition itend (Q : Z -> Prop) (it : iter) : Prop := i_val it = 0 /\ Q (base it).
(** between the entries [l] and [r]; after the end frames[0].ref satisfies [Q] *)
Definition itpos (Q : Z -> Prop) (a : art) (t0 : T) (it : iter) (l r : list entry) : Prop :=
  match r with
  | [] => flat t0 = l /\ itend Q it
  | (k, (lf, v)) :: r' => exists cs, plug (TL lf k v) cs = t0 /\ at_leaf a it cs lf k /\ before cs = l /\ after cs = r'
  end.
Definition some {A} (l : list A) : bool := match l with [] => false | _ => true end.

Lemma itpos_flat Q a t0 it l r : itpos Q a t0 it l r -> flat t0 = l ++ r.
Proof.
  destruct r as [|[k [lf v]] r]; cbn.
  - intros [-> _]. now rewrite app_nil_r.
  - intros (cs & <- & _ & <- & <-). rewrite flat_plug. reflexivity.
Qed.
Lemma frs_last a cs : forall fr t top, frs a cs fr -> cs <> [] -> fst (last (top :: fr) (0, 0)) = tref (plug t cs).
Proof.
  induction cs as [|c cs IH]; intros fr t top F N; [congruence|]. inversion F as [|c0 f l l' (n & D & E) F2]; subst.
  destruct cs as [|c' cs].
  - inversion F2; subst. reflexivity.
  - cbn [plug]. specialize (IH l' (fill c t) (c_r c, idx_of n (zlen (c_l c)) (c_k c)) F2). cbn [plug] in IH. rewrite <- IH by discriminate.
    inversion F2; subst. reflexivity.
Qed.
Lemma last_tl {A} (x y : A) l d : last (x :: y :: l) d = last (y :: l) d. Proof. reflexivity. Qed.

Lemma inner_of a c cs t : holds a (plug t (c :: cs)) -> exists n, art_deref a (c_r c) = Some n /\ wf n /\ node_prefix n = c_pre c /\
  kids n = krefs (c_l c) ++ (c_k c, tref t) :: krefs (c_rt c).
Proof.
  intros H. cbn [plug] in H. apply holds_plug in H. unfold fill in H. apply holds_TN in H. destruct H as ((n & D & W & _ & P & K) & _).
  exists n. split; auto. split; auto. split; auto. now rewrite K, krefs_app, krefs_cons.
Qed.
Lemma down_ok a c cs t it : holds a (plug t (c :: cs)) -> atn a it cs ->
  exists n it', art_deref a (c_r c) = Some n /\ art_iterator_down a it (c_r c) (idx_of n (zlen (c_l c)) (c_k c)) = Some it' /\
    atn a it' (c :: cs) /\ i_frames it' <> [] /\ i_val it' = i_val it /\ i_key it' = i_key it.
Proof.
  intros H (D & top & fr & F & FF). destruct (inner_of _ _ _ _ H) as (n & Dn & W & P & K).
  exists n. unfold art_iterator_down. rewrite Dn. cbn [obind]. rewrite <- (krefs_zlen (c_l c)), (child_at_idx n (krefs (c_l c)) (c_k c) (tref t) (krefs (c_rt c)) W K).
  cbn [obind]. eexists. split; auto. split; [reflexivity|]. split; [|cbn; split; [discriminate|auto]].
  assert (FF' : frs a (c :: cs) ((c_r c, idx_of n (zlen (krefs (c_l c))) (c_k c)) :: fr)).
  { constructor; auto. exists n. rewrite krefs_zlen. auto. }
  split.
  - cbn [i_depth path]. rewrite D, P, !zlen_app. change (zlen [c_k c]) with 1. lia.
  - cbn [i_frames]. rewrite F. cbn [set_top tl]. eauto.
Qed.
Lemma valid_loc_ok a it cs lf k v : holds a (TL lf k v) -> atn a it cs ->
  exists it', art_iterator_valid_loc a it lf = Some it' /\ at_leaf a it' cs lf k.
Proof.
  intros H (D & top & fr & F & FF). cbn [holds] in H. unfold art_iterator_valid_loc. rewrite H. eexists. split; [reflexivity|].
  split; auto. split; auto. split; auto. exists fr. cbn [i_frames]. rewrite F. split; auto.
Qed.
(** going up one level *)
Lemma up_ok a it c cs t : holds a (plug t (c :: cs)) -> atn a it (c :: cs) ->
  exists n fr it', art_deref a (c_r c) = Some n /\ art_iterator_up a it = Some (it', true) /\ i_key it' = i_key it /\ i_val it' = i_val it /\
    i_frames it' = (c_r c, idx_of n (zlen (c_l c)) (c_k c)) :: fr /\ frs a cs fr /\ atn a it' cs.
Proof.
  intros H (D & top & fr & F & FF). destruct (inner_of _ _ _ _ H) as (n & Dn & W & P & K).
  inversion FF as [|c0 f l fr' (n' & D' & E) F2]; subst. rewrite Dn in D'. injection D' as <-.
  exists n, fr'. unfold art_iterator_up. rewrite F, Dn. cbn [obind]. eexists. split; auto. split; [reflexivity|]. cbn [i_key i_val i_frames]. split; auto. split; auto. split; auto. split; auto.
  split.
  - cbn [i_depth]. rewrite D, P. cbn [path]. rewrite !zlen_app. change (zlen [c_k c]) with 1. lia.
  - cbn [i_frames]. eauto.
Qed.
Lemma up_root a it : atn a it [] -> art_iterator_up a it = Some (it, false).
Proof. intros (D & top & fr & F & FF). inversion FF; subst. unfold art_iterator_up. rewrite F. reflexivity. Qed.
Lemma invalid_end (Q : Z -> Prop) it : Q (base it) -> itend Q (art_iterator_invalid_loc it).
Proof. intros E. split; auto. Qed.

Lemma holds_leafref a t : holds a t -> match t with TL r _ _ => art_is_leaf r = true | TN r _ _ => art_is_leaf r = false end.
Proof.
  destruct t; [cbn [holds]; apply art_is_leaf_TL|]. rewrite holds_TN. intros ((n & D & W & _) & _). eapply art_is_leaf_TN; eauto.
Qed.
Lemma init_ok fuel : forall a t cs it first, holds a (plug t cs) -> wft [] (plug t cs) -> atn a it cs -> 6 < zlen (path cs) + Z.of_nat fuel ->
  exists it' cs' lf k v, art_node_init_iterator fuel a (tref t) it first = Some it' /\ plug (TL lf k v) cs' = plug t cs /\ at_leaf a it' cs' lf k /\
    (if first then before cs' = before cs else after cs' = after cs).
Proof.
  induction fuel as [|f IH]; intros a t cs it first H W A F.
  - pose proof (wft_plug _ _ W) as Wt. destruct t as [r k v|r pre ch].
    + destruct Wt as (L & _ & s & ->). rewrite zlen_app in L. pose proof (zlen_nonneg s). lia.
    + apply wft_TN in Wt. pose proof (zlen_nonneg pre). lia.
  - pose proof (holds_plug _ _ _ H) as Ht. pose proof (holds_leafref _ _ Ht) as IL. destruct t as [r k v|r pre ch]; cbn [art_node_init_iterator tref]; rewrite IL.
    + destruct (valid_loc_ok _ _ _ _ _ _ Ht A) as (it' & E & AL). exists it', cs, r, k, v. split; auto. split; auto. split; auto. now destruct first.
    + apply holds_TN in Ht. destruct Ht as ((n & D & Wn & _ & P & K) & Hc). rewrite D. cbn [obind].
      pose proof (wft_plug _ _ W) as Wt. apply wft_TN in Wt. destruct Wt as (Lp & Bp & I & R & L2 & Wc).
      destruct first.
      * destruct ch as [|[k t] ch]; [unfold zlen in L2; cbn in L2; lia|]. rewrite (next_child_first n Wn), K, krefs_cons. cbn [hd_kid obind].
        assert (EC : TN r pre ((k, t) :: ch) = fill (CF r pre [] k ch) t) by reflexivity.
        destruct (down_ok a (CF r pre [] k ch) cs t it) as (n' & it' & D' & E' & A' & _); auto.
        cbn [c_r c_l c_k] in *. rewrite D in D'. injection D' as <-. change (zlen []) with 0 in E'. rewrite E'. cbn [obind].
        destruct (IH a t (CF r pre [] k ch :: cs) it' true) as (it2 & cs' & lf & k2 & v & E2 & PL & AL & B); auto.
        { cbn [path c_pre c_k]. rewrite !zlen_app. change (zlen [k]) with 1. pose proof (zlen_nonneg pre). lia. }
        exists it2, cs', lf, k2, v. split; auto. split; [exact PL|]. split; auto. rewrite B. cbn [before c_l]. change (flatl []) with (@nil entry). apply app_nil_r.
      * destruct (rev_last_kid ch) as [->|(ch' & [k t] & ->)]; [unfold zlen in L2; cbn in L2; lia|].
        rewrite (prev_child_last n Wn), K, krefs_app, krefs_cons. change (krefs []) with (@nil (Z * Z)). rewrite last_kid_snoc. cbn [obind].
        destruct (down_ok a (CF r pre ch' k []) cs t it) as (n' & it' & D' & E' & A' & _); auto.
        cbn [c_r c_l c_k] in *. rewrite D in D'. injection D' as <-. rewrite krefs_zlen, E'. cbn [obind].
        destruct (IH a t (CF r pre ch' k [] :: cs) it' false) as (it2 & cs' & lf & k2 & v & E2 & PL & AL & B); auto.
        { cbn [path c_pre c_k]. rewrite !zlen_app. change (zlen [k]) with 1. pose proof (zlen_nonneg pre). lia. }
        exists it2, cs', lf, k2, v. split; auto.
Qed.

Lemma some_flatl p k t c r : wft p t -> some (flatl ((k, t) :: c) ++ r) = true.
Proof. intros W. rewrite flatl_cons. pose proof (flat_ne _ _ W). destruct (flat t); [congruence|reflexivity]. Qed.

(** the position given by the leaf context that starts at the same place *)
Lemma itpos_of Q a t0 it cs lf k v l r : plug (TL lf k v) cs = t0 -> at_leaf a it cs lf k -> flat t0 = l ++ r -> before cs = l -> itpos Q a t0 it l r /\ some r = true.
Proof.
  intros P A E B. assert (r = (k, (lf, v)) :: after cs).
  { rewrite <- P, flat_plug, <- B in E. apply app_inv_head in E. symmetry. exact E. }
  subst r. split; auto. cbn. exists cs. auto.
Qed.
Lemma itpos_of_back Q a t0 it cs lf k v l r : plug (TL lf k v) cs = t0 -> at_leaf a it cs lf k -> flat t0 = l ++ r -> after cs = r ->
  exists l0 e, l = l0 ++ [e] /\ itpos Q a t0 it l0 (e :: r).
Proof.
  intros P A E B. exists (before cs), (k, (lf, v)). split.
  - rewrite <- P, flat_plug, <- B in E. apply (app_inv_tail (after cs)). rewrite <- app_assoc. symmetry. exact E.
  - cbn. exists cs. auto.
Qed.

(** ** Moving *)
Lemma move_inner_next (Q : Z -> Prop) fuel : forall a cs c t it, Q (tref (plug t (c :: cs))) -> holds a (plug t (c :: cs)) -> wft [] (plug t (c :: cs)) ->
  frs a (c :: cs) (i_frames it) -> i_depth it = zlen (path cs) -> zlen (path cs) < Z.of_nat fuel ->
  exists it', art_iterator_move fuel a it true = Some (it', some (after (c :: cs))) /\
    itpos Q a (plug t (c :: cs)) it' (before (c :: cs) ++ flat t) (after (c :: cs)).
Proof.
  induction fuel as [|f IH]; intros a cs c t it HQ H W FF D F; [pose proof (zlen_nonneg (path cs)); lia|].
  destruct (inner_of _ _ _ _ H) as (n & Dn & Wn & P & K).
  inversion FF as [|c0 fr0 l fr (n' & D' & E) F2 Q1 Q2]; subst. rewrite Dn in D'. injection D' as <-. symmetry in Q2.
  set (T0 := plug t (c :: cs)) in *.
  assert (A : atn a it cs) by (split; auto; rewrite Q2; eauto).
  assert (BQ : Q (base it)).
  { unfold base. rewrite Q2, <- (last_tl (0, 0)), (frs_last a (c :: cs) _ t (0, 0)); [exact HQ| |discriminate]. now rewrite Q2 in FF. }
  cbn [art_iterator_move]. unfold art_iterator_ref. rewrite Q2. cbn [hd fst]. rewrite (art_is_leaf_TN _ _ _ Dn Wn). cbn [obind negb].
  unfold art_iterator_neighbor_child. rewrite Q2. cbn [hd]. rewrite Dn. cbn [obind]. rewrite <- (krefs_zlen (c_l c)).
  rewrite (next_child_at n _ _ _ _ Wn K). destruct c as [r pre c1 k c2]. cbn [c_r c_pre c_l c_k c_rt] in *.
  destruct c2 as [|[k2 t2] c2].
  - change (krefs []) with (@nil (Z * Z)). cbn [hd_kid obind]. rewrite Z.eqb_refl. cbn [negb after c_rt before c_l]. change (flatl [] ++ after cs) with (after cs).
    assert (FT : flat T0 = ((before cs ++ flatl c1) ++ flat t) ++ after cs).
    { unfold T0. rewrite flat_plug. cbn [before c_l after c_rt]. now rewrite <- !app_assoc. }
    destruct cs as [|c' cs].
    + rewrite (up_root a it A). cbn [obind negb]. eexists. split; [reflexivity|]. cbn [after itpos]. split; [rewrite FT; cbn [after]; apply app_nil_r|].
      apply (invalid_end Q _ BQ).
    + destruct (up_ok a it c' cs (fill (CF r pre c1 k []) t)) as (n' & fr' & it' & D' & E' & _ & _ & F' & FF' & A'); auto.
      rewrite E'. cbn [obind negb].
      destruct (IH a cs c' (fill (CF r pre c1 k []) t) it') as (it2 & E2 & P2); auto.
      { rewrite F'. constructor; auto. exists n'. auto. } { apply A'. } { cbn [path] in F. rewrite !zlen_app in F. change (zlen [c_k c']) with 1 in F. pose proof (zlen_nonneg (c_pre c')). lia. }
      exists it2. split; [exact E2|]. unfold fill in P2 at 2. cbn [c_r c_pre c_l c_k c_rt] in P2. rewrite flat_TN, flatl_app, flatl_cons in P2.
      change (flatl []) with (@nil entry) in P2. rewrite app_nil_r in P2. rewrite <- app_assoc. exact P2.
  - rewrite krefs_cons. cbn [hd_kid].
    assert (EF : fill (CF r pre (c1 ++ [(k, t)]) k2 c2) t2 = fill (CF r pre c1 k ((k2, t2) :: c2)) t) by (unfold fill; cbn; now rewrite <- app_assoc).
    assert (EP : plug t2 (CF r pre (c1 ++ [(k, t)]) k2 c2 :: cs) = T0) by (unfold T0; cbn [plug]; now rewrite EF).
    destruct (down_ok a (CF r pre (c1 ++ [(k, t)]) k2 c2) cs t2 it) as (n' & it' & D' & E' & A' & _); auto; [now rewrite EP|].
    cbn [c_r c_l c_k] in *. rewrite Dn in D'. injection D' as <-.
    replace (zlen (krefs c1) + 1) with (zlen (c1 ++ [(k, t)])) by (rewrite zlen_app, krefs_zlen; reflexivity).
    rewrite E'. cbn [obind].
    assert (Ht2 : holds a t2) by (rewrite <- EP in H; apply (holds_plug _ _ _ H)). pose proof (tref_nz _ _ Ht2) as Tz.
    unfold NULL_REF. replace (tref t2 =? 0) with false by lia. cbn [negb].
    assert (Wt2 : wft (path (CF r pre (c1 ++ [(k, t)]) k2 c2 :: cs)) t2) by (apply wft_plug; now rewrite EP).
    destruct (init_ok LEVELS a t2 (CF r pre (c1 ++ [(k, t)]) k2 c2 :: cs) it' true) as (it2 & cs' & lf & k3 & v & E2 & PL & AL & B); auto; try (rewrite EP; auto).
    { unfold LEVELS. pose proof (zlen_nonneg (path (CF r pre (c1 ++ [(k, t)]) k2 c2 :: cs))). lia. }
    rewrite EP in PL. rewrite E2. cbn [obind]. exists it2.
    assert (FT : flat T0 = (before (CF r pre c1 k ((k2, t2) :: c2) :: cs) ++ flat t) ++ after (CF r pre c1 k ((k2, t2) :: c2) :: cs)).
    { unfold T0. rewrite flat_plug. now rewrite <- !app_assoc. }
    destruct (itpos_of Q a T0 it2 cs' lf k3 v _ _ PL AL FT) as (IP & S).
    { rewrite B. cbn [before c_l]. rewrite flatl_app, flatl_cons. change (flatl []) with (@nil entry). now rewrite app_nil_r, <- !app_assoc. }
    rewrite S. auto.
Qed.
Lemma move_inner_prev (Q : Z -> Prop) fuel : forall a cs c t it, Q (tref (plug t (c :: cs))) -> holds a (plug t (c :: cs)) -> wft [] (plug t (c :: cs)) ->
  frs a (c :: cs) (i_frames it) -> i_depth it = zlen (path cs) -> zlen (path cs) < Z.of_nat fuel ->
  exists it', (before (c :: cs) = [] /\ art_iterator_move fuel a it false = Some (it', false) /\ itend Q it') \/
    (exists l e, before (c :: cs) = l ++ [e] /\ art_iterator_move fuel a it false = Some (it', true) /\
       itpos Q a (plug t (c :: cs)) it' l (e :: flat t ++ after (c :: cs))).
Proof.
  induction fuel as [|f IH]; intros a cs c t it HQ H W FF D F; [pose proof (zlen_nonneg (path cs)); lia|].
  destruct (inner_of _ _ _ _ H) as (n & Dn & Wn & P & K).
  inversion FF as [|c0 fr0 l fr (n' & D' & E) F2 Q1 Q2]; subst. rewrite Dn in D'. injection D' as <-. symmetry in Q2.
  set (T0 := plug t (c :: cs)) in *.
  assert (A : atn a it cs) by (split; auto; rewrite Q2; eauto).
  assert (BQ : Q (base it)).
  { unfold base. rewrite Q2, <- (last_tl (0, 0)), (frs_last a (c :: cs) _ t (0, 0)); [exact HQ| |discriminate]. now rewrite Q2 in FF. }
  cbn [art_iterator_move]. unfold art_iterator_ref. rewrite Q2. cbn [hd fst]. rewrite (art_is_leaf_TN _ _ _ Dn Wn). cbn [obind negb].
  unfold art_iterator_neighbor_child. rewrite Q2. cbn [hd]. rewrite Dn. cbn [obind]. rewrite <- (krefs_zlen (c_l c)).
  rewrite (prev_child_at n _ _ _ _ Wn K). destruct c as [r pre c1 k c2]. cbn [c_r c_pre c_l c_k c_rt] in *.
  destruct (rev_last_kid c1) as [->|(c1' & [k2 t2] & ->)].
  - change (krefs []) with (@nil (Z * Z)). change (last_kid n []) with (@None (Z * Z * Z)). cbn [obind]. rewrite Z.eqb_refl. cbn [negb before c_l]. change (flatl []) with (@nil entry).
    rewrite app_nil_r.
    destruct cs as [|c' cs].
    + rewrite (up_root a it A). cbn [obind negb]. eexists. left. split; [reflexivity|]. split; [reflexivity|]. apply (invalid_end Q _ BQ).
    + destruct (up_ok a it c' cs (fill (CF r pre [] k c2) t)) as (n' & fr' & it' & D' & E' & _ & _ & F' & FF' & A'); auto.
      rewrite E'. cbn [obind negb].
      destruct (IH a cs c' (fill (CF r pre [] k c2) t) it') as (it2 & X); auto.
      { rewrite F'. constructor; auto. exists n'. auto. } { apply A'. } { cbn [path] in F. rewrite !zlen_app in F. change (zlen [c_k c']) with 1 in F. pose proof (zlen_nonneg (c_pre c')). lia. }
      exists it2. destruct X as [(B & E2 & P2)|(l & e & B & E2 & P2)]; [left; auto|right]. exists l, e. split; [exact B|]. split; [exact E2|].
      unfold fill in P2 at 2. cbn [c_r c_pre c_l c_k c_rt] in P2. rewrite flat_TN, flatl_app, flatl_cons in P2.
      change (flatl []) with (@nil entry) in P2. cbn [app] in P2. rewrite <- !app_assoc in P2. exact P2.
  - rewrite krefs_app, krefs_cons. change (krefs []) with (@nil (Z * Z)). rewrite last_kid_snoc.
    assert (EF : fill (CF r pre c1' k2 ((k, t) :: c2)) t2 = fill (CF r pre (c1' ++ [(k2, t2)]) k c2) t) by (unfold fill; cbn; now rewrite <- app_assoc).
    assert (EP : plug t2 (CF r pre c1' k2 ((k, t) :: c2) :: cs) = T0) by (unfold T0; cbn [plug]; now rewrite EF).
    destruct (down_ok a (CF r pre c1' k2 ((k, t) :: c2)) cs t2 it) as (n' & it' & D' & E' & A' & _); auto; [now rewrite EP|].
    cbn [c_r c_l c_k] in *. rewrite Dn in D'. injection D' as <-. rewrite krefs_zlen.
    rewrite E'. cbn [obind].
    assert (Ht2 : holds a t2) by (rewrite <- EP in H; apply (holds_plug _ _ _ H)). pose proof (tref_nz _ _ Ht2) as Tz.
    unfold NULL_REF. replace (tref t2 =? 0) with false by lia. cbn [negb].
    destruct (init_ok LEVELS a t2 (CF r pre c1' k2 ((k, t) :: c2) :: cs) it' false) as (it2 & cs' & lf & k3 & v & E2 & PL & AL & B); auto; try (rewrite EP; auto).
    { unfold LEVELS. pose proof (zlen_nonneg (path (CF r pre c1' k2 ((k, t) :: c2) :: cs))). lia. }
    rewrite EP in PL. rewrite E2. cbn [obind]. exists it2. right.
    assert (FT : flat T0 = before (CF r pre (c1' ++ [(k2, t2)]) k c2 :: cs) ++ flat t ++ after (CF r pre (c1' ++ [(k2, t2)]) k c2 :: cs)).
    { unfold T0. rewrite flat_plug. reflexivity. }
    destruct (itpos_of_back Q a T0 it2 cs' lf k3 v _ _ PL AL FT) as (l0 & e & EL & IP).
    { rewrite B. cbn [after c_rt]. rewrite flatl_cons. now rewrite <- !app_assoc. }
    exists l0, e. auto.
Qed.

Lemma path_le cs t : wft [] (plug t cs) -> zlen (path cs) <= 6.
Proof.
  intros W. apply wft_plug in W. destruct t as [r k v|r pre ch].
  - destruct W as (L & _ & s & ->). rewrite zlen_app in L. pose proof (zlen_nonneg s). lia.
  - apply wft_TN in W. pose proof (zlen_nonneg pre). lia.
Qed.
(** leaving the subtree below [cs] *)
Lemma up_and_move_ok (Q : Z -> Prop) a cs t it : Q (tref (plug t cs)) -> (cs = [] -> Q (base it)) -> holds a (plug t cs) -> wft [] (plug t cs) -> atn a it cs ->
  exists it', art_iterator_up_and_move a it true = Some (it', some (after cs)) /\ itpos Q a (plug t cs) it' (before cs ++ flat t) (after cs).
Proof.
  intros HQ BQ H W A. unfold art_iterator_up_and_move. destruct cs as [|c cs].
  - rewrite (up_root _ _ A). cbn [obind negb]. eexists. split; [reflexivity|]. cbn. split; auto. apply (invalid_end Q _ (BQ eq_refl)).
  - destruct (up_ok _ _ _ _ _ H A) as (n & fr & it' & D & E & _ & _ & F & FF & A'). rewrite E. cbn [obind negb].
    apply move_inner_next; auto.
    + rewrite F. constructor; auto. exists n; auto.
    + apply A'.
    + unfold LEVELS. pose proof (path_le cs _ W). lia.
Qed.
Lemma at_leaf_atn a it cs lf k : at_leaf a it cs lf k -> atn a it cs.
Proof. intros (_ & _ & D & fr & F & FF). split; auto. eauto. Qed.
Lemma at_leaf_base a it cs lf k v : at_leaf a it cs lf k -> base it = tref (plug (TL lf k v) cs).
Proof.
  intros (_ & _ & D & fr & F & FF). unfold base. rewrite F. destruct cs as [|c cs].
  - inversion FF; subst. reflexivity.
  - apply (frs_last a (c :: cs) fr (TL lf k v) _ FF). discriminate.
Qed.
Lemma next_ok (Q : Z -> Prop) a t it l e r : Q (tref t) -> holds a t -> wft [] t -> itpos Q a t it l (e :: r) ->
  exists it', art_iterator_next a it = Some (it', some r) /\ itpos Q a t it' (l ++ [e]) r.
Proof.
  intros HQ H W IP. destruct e as [k [lf v]]. cbn [itpos] in IP. destruct IP as (cs & P & A & <- & <-). pose proof (at_leaf_atn _ _ _ _ _ A) as AT.
  pose proof (at_leaf_base a it cs lf k v A) as BE. subst t. assert (BQ : Q (base it)) by now rewrite BE.
  destruct A as (_ & _ & D & fr & F & FF).
  assert (IL : art_is_leaf lf = true) by (apply (holds_leafref a (TL lf k v)); now apply holds_plug with (cs := cs)).
  unfold art_iterator_next. change LEVELS with (S 7). cbn [art_iterator_move]. unfold art_iterator_ref. rewrite F. cbn [hd fst]. rewrite IL.
  destruct cs as [|c cs].
  - rewrite (up_root _ _ AT). cbn [obind negb]. eexists. split; [reflexivity|]. cbn. split; auto. apply (invalid_end Q _ BQ).
  - destruct (up_ok _ _ _ _ _ H AT) as (n & fr' & it' & D' & E & _ & _ & F' & FF' & A'). rewrite E. cbn [obind negb].
    destruct (move_inner_next Q 8 a cs c (TL lf k v) it' HQ H W) as (it2 & E2 & P2); auto.
    { rewrite F'. constructor; auto. exists n; auto. } { apply A'. } { pose proof (path_le _ _ W). cbn [path] in *. rewrite !zlen_app in *. change (zlen [c_k c]) with 1 in *. pose proof (zlen_nonneg (c_pre c)). lia. }
    exists it2. split; [|exact P2]. rewrite <- E2. cbn [art_iterator_move]. unfold art_iterator_ref. rewrite F'. cbn [hd fst].
    destruct (inner_of _ _ _ _ H) as (n' & Dn & Wn & _). rewrite (art_is_leaf_TN _ _ _ Dn Wn). cbn [obind negb].
    reflexivity.
Qed.
Lemma prev_ok (Q : Z -> Prop) a t it l e r : Q (tref t) -> holds a t -> wft [] t -> itpos Q a t it l (e :: r) ->
  exists it', (l = [] /\ art_iterator_prev a it = Some (it', false) /\ itend Q it') \/
    (exists l0 e0, l = l0 ++ [e0] /\ art_iterator_prev a it = Some (it', true) /\ itpos Q a t it' l0 (e0 :: e :: r)).
Proof.
  intros HQ H W IP. destruct e as [k [lf v]]. cbn [itpos] in IP. destruct IP as (cs & P & A & <- & <-). pose proof (at_leaf_atn _ _ _ _ _ A) as AT.
  pose proof (at_leaf_base a it cs lf k v A) as BE. subst t. assert (BQ : Q (base it)) by now rewrite BE.
  destruct A as (_ & _ & D & fr & F & FF).
  assert (IL : art_is_leaf lf = true) by (apply (holds_leafref a (TL lf k v)); now apply holds_plug with (cs := cs)).
  unfold art_iterator_prev. change LEVELS with (S 7). cbn [art_iterator_move]. unfold art_iterator_ref. rewrite F. cbn [hd fst]. rewrite IL.
  destruct cs as [|c cs].
  - rewrite (up_root _ _ AT). cbn [obind negb]. eexists. left. split; [reflexivity|]. split; [reflexivity|]. apply (invalid_end Q _ BQ).
  - destruct (up_ok _ _ _ _ _ H AT) as (n & fr' & it' & D' & E & _ & _ & F' & FF' & A'). rewrite E. cbn [obind negb].
    destruct (move_inner_prev Q 8 a cs c (TL lf k v) it' HQ H W) as (it2 & X).
    { rewrite F'. constructor; auto. exists n; auto. } { apply A'. } { pose proof (path_le _ _ W). cbn [path] in *. rewrite !zlen_app in *. change (zlen [c_k c]) with 1 in *. pose proof (zlen_nonneg (c_pre c)). lia. }
    exists it2. cbn [flat app] in X.
    assert (EM : art_iterator_move 8 a it' false =
      (do (it3, child) <- art_iterator_neighbor_child a it' false;
       if negb (child =? NULL_REF) then do it4 <- art_node_init_iterator LEVELS a child it3 false; Some (it4, true)
       else do (it4, up) <- art_iterator_up a it3;
            if negb up then Some (art_iterator_invalid_loc it4, false) else art_iterator_move 7 a it4 false)).
    { cbn [art_iterator_move]. unfold art_iterator_ref. rewrite F'. cbn [hd fst].
      destruct (inner_of _ _ _ _ H) as (n' & Dn & Wn & _). rewrite (art_is_leaf_TN _ _ _ Dn Wn). reflexivity. }
    rewrite EM in X. exact X.
Qed.

(** ** Lower bound *)
Lemma memcmp_app_ne x : forall y s s', zlen x = zlen y -> memcmp x y <> 0 -> memcmp (x ++ s) (y ++ s') = memcmp x y.
Proof.
  induction x as [|u x IH]; intros [|w y] s s' L N; cbn in *; try congruence; try (rewrite zlen_cons in L; unfold zlen in L; cbn in L; lia).
  rewrite !zlen_cons in L. destruct (u <? w); auto. destruct (w <? u); auto. apply IH; auto. lia.
Qed.
Lemma split_at {A} (s : list A) n : 0 <= n <= zlen s -> exists x y, s = x ++ y /\ zlen x = n.
Proof.
  intros H. exists (firstn (Z.to_nat n) s), (skipn (Z.to_nat n) s). split; [symmetry; apply firstn_skipn|].
  unfold zlen in *. rewrite firstn_length. lia.
Qed.
Lemma cmp_pre_ok pre p s : zlen pre <= zlen s -> exists y s2, s = y ++ s2 /\ zlen y = zlen pre /\
  art_compare_prefix pre 0 (p ++ s) (zlen p) (zlen pre) = memcmp pre y.
Proof.
  intros L. destruct (split_at s (zlen pre)) as (y & s2 & -> & Ly); [pose proof (zlen_nonneg pre); lia|]. exists y, s2. split; auto. split; auto.
  unfold art_compare_prefix. rewrite (zsub_all pre) by auto. now rewrite (zsub_mid p y s2) by auto.
Qed.
(** keys before and after a context whose path is a prefix of [key] *)
Lemma ctx_sides cs : forall t s, wft [] (plug t cs) -> zlen (path cs ++ s) = 6 -> bytes (path cs ++ s) ->
  (forall e, In e (before cs) -> ik e < kv (path cs ++ s)) /\ (forall e, In e (after cs) -> kv (path cs ++ s) < ik e).
Proof.
  induction cs as [|c cs IH]; intros t s W L B; [cbn; tauto|]. cbn [plug path before after] in *. rewrite <- !app_assoc in *.
  destruct (IH (fill c t) _ W L B) as [IB IA]. apply wft_plug in W. unfold fill in W. destruct (T_children_incr _ _ _ _ _ _ _ W) as (_ & LL & RR & _ & W1 & W2 & _).
  rewrite (app_assoc (path cs) (c_pre c)) in *. cbn [app] in *.
  split; intros [k e] He; apply in_app_iff in He; destruct He as [He|He]; auto.
  - destruct (flatl_keys _ _ _ _ W1 He) as (k1 & s1 & I1 & -> & L1 & B1). unfold ik; cbn [fst]. apply path_lt; auto; lia.
  - destruct (flatl_keys _ _ _ _ W2 He) as (k1 & s1 & I1 & -> & L1 & B1). unfold ik; cbn [fst]. apply path_lt; auto; lia.
Qed.
(** comparing a node's prefix decides for all its keys *)
Lemma prefix_decides p pre s y s2 r ch : wft p (TN r pre ch) -> s = y ++ s2 -> zlen y = zlen pre -> zlen (p ++ s) = 6 -> bytes (p ++ s) ->
  (memcmp pre y < 0 -> forall e, In e (flatl ch) -> ik e < kv (p ++ s)) /\ (0 < memcmp pre y -> forall e, In e (flatl ch) -> kv (p ++ s) < ik e).
Proof.
  intros W -> Ly L B. apply wft_TN in W. destruct W as (_ & _ & _ & _ & _ & W).
  split; intros M [k e] He; destruct (flatl_keys _ _ _ _ W He) as (k1 & s1 & _ & -> & L1 & B1); unfold ik; cbn [fst];
    destruct (memcmp_kv ((p ++ pre) ++ k1 :: s1) (p ++ y ++ s2)) as (C1 & _ & C2); auto; try lia;
    rewrite <- app_assoc, memcmp_app, memcmp_app_ne in C1, C2 by (auto; lia); rewrite <- app_assoc; tauto.
Qed.
Definition lbpos (Q : Z -> Prop) (a : art) (t0 : T) (o : option (iter * bool)) (key : list Z) : Prop :=
  exists it l r, o = Some (it, some r) /\ itpos Q a t0 it l r /\ (forall e, In e l -> ik e < kv key) /\ (forall e, In e r -> kv key <= ik e).
Lemma lb_up (Q : Z -> Prop) a t cs it key : Q (tref (plug t cs)) -> (cs = [] -> Q (base it)) -> holds a (plug t cs) -> wft [] (plug t cs) -> atn a it cs ->
  (forall e, In e (before cs) -> ik e < kv key) -> (forall e, In e (after cs) -> kv key < ik e) -> (forall e, In e (flat t) -> ik e < kv key) ->
  lbpos Q a (plug t cs) (art_iterator_up_and_move a it true) key.
Proof.
  intros HQ BQ H W A B F M. destruct (up_and_move_ok Q a cs t it HQ BQ H W A) as (it' & E & P). exists it', (before cs ++ flat t), (after cs). split; auto. split; auto.
  split; [|intros e He; apply F in He; lia]. intros e He. apply in_app_iff in He. destruct He; auto.
Qed.
Lemma lb_first Q a t cs it key fuel : holds a (plug t cs) -> wft [] (plug t cs) -> atn a it cs ->
  (forall e, In e (before cs) -> ik e < kv key) -> (forall e, In e (after cs) -> kv key < ik e) -> (forall e, In e (flat t) -> kv key <= ik e) ->
  6 < zlen (path cs) + Z.of_nat fuel ->
  lbpos Q a (plug t cs) (oktrue (art_node_init_iterator fuel a (tref t) it true)) key.
Proof.
  intros H W A B F M G. destruct (init_ok fuel a t cs it true H W A G) as (it' & cs' & lf & k & v & E & P & AL & BB). rewrite E. cbn [oktrue obind].
  destruct (itpos_of Q a (plug t cs) it' cs' lf k v (before cs) (flat t ++ after cs) P AL (flat_plug cs t) BB) as (IP & S).
  exists it', (before cs), (flat t ++ after cs). unfold oktrue. cbn [obind]. rewrite S. split; auto. split; auto. split; auto.
  intros e He. apply in_app_iff in He. destruct He as [He|He]; auto. apply F in He. lia.
Qed.
Lemma lb_inner f a ref it key n : art_deref a ref = Some n -> wf n ->
  art_node_iterator_lower_bound (S f) a ref it key =
  let pre := node_prefix n in
  let c := art_compare_prefix pre 0 key (i_depth it) (zlen pre) in
  if c <? 0 then art_iterator_up_and_move a it true
  else if 0 <? c then oktrue (art_node_init_iterator LEVELS a ref it true)
  else
    do key_chunk <- kget key (i_depth it + zlen pre);
    match art_node_lower_bound n key_chunk with
    | None => art_iterator_up_and_move a it true
    | Some (child, i, k) =>
      do it1 <- art_iterator_down a it ref i;
      if key_chunk <? k then oktrue (art_node_init_iterator LEVELS a child it1 true)
      else art_node_iterator_lower_bound f a child it1 key
    end.
Proof. intros D W. cbn [art_node_iterator_lower_bound]. rewrite D. inner n; reflexivity. Qed.
Lemma lbsplitT key (l : list (Z * T)) : incr (map fst l) ->
  exists l1 l2, l = l1 ++ l2 /\ (forall x, In x (map fst l1) -> x < key) /\ (forall x, In x (map fst l2) -> key <= x).
Proof.
  induction l as [|[k t] l IH]; cbn [map fst]; intros I.
  - exists [], []. cbn. tauto.
  - destruct I as [I1 I2]. destruct (IH I2) as (l1 & l2 & -> & A & B). destruct (Z_lt_dec k key).
    + exists ((k, t) :: l1), l2. split; auto. split; auto. cbn. intros x [<-|Hx]; auto.
    + exists [], ((k, t) :: l1 ++ l2). split; auto. split; [cbn; tauto|]. cbn [map fst]. intros x [<-|Hx]; [lia|]. rewrite Forall_forall in I1. apply I1 in Hx. lia.
Qed.
Lemma lb_ok (Q : Z -> Prop) fuel : forall a t cs it s, Q (tref (plug t cs)) -> (cs = [] -> Q (base it)) -> holds a (plug t cs) -> wft [] (plug t cs) -> atn a it cs ->
  zlen (path cs ++ s) = 6 -> bytes (path cs ++ s) -> 6 < zlen (path cs) + Z.of_nat fuel ->
  lbpos Q a (plug t cs) (art_node_iterator_lower_bound fuel a (tref t) it (path cs ++ s)) (path cs ++ s).
Proof.
  induction fuel as [|f IH]; intros a t cs it s HQ BQ H W A L B F; [rewrite zlen_app in L; pose proof (zlen_nonneg s); lia|].
  destruct (ctx_sides cs t s W L B) as [SB SA]. pose proof (wft_plug _ _ W) as Wt. pose proof (holds_plug _ _ _ H) as Ht.
  destruct t as [r k v|r pre ch].
  - cbn [art_node_iterator_lower_bound tref]. cbn [holds] in Ht. rewrite Ht. cbn [obind]. destruct Wt as (Lk & Bk & _).
    unfold art_compare_keys, art_compare_prefix, KEY_BYTES. rewrite !zsub_all by auto.
    destruct (memcmp_kv k (path cs ++ s)) as (C1 & C2 & C3); auto; [lia|].
    destruct (Z.leb_spec 0 (memcmp k (path cs ++ s))).
    + destruct (lb_first Q a (TL r k v) cs it (path cs ++ s) 8 H W A SB SA) as (it' & l & r' & E & X).
      { cbn [flat In]. intros e [<-|[]]. unfold ik; cbn [fst]. destruct (Z_lt_dec (kv k) (kv (path cs ++ s))) as [Q0|Q0]; [apply C1 in Q0; lia|lia]. }
      { pose proof (zlen_nonneg (path cs)). lia. }
      cbn [art_node_init_iterator tref] in E. rewrite (art_is_leaf_TL _ _ _ _ Ht) in E. exists it', l, r'. auto.
    + apply (lb_up Q a (TL r k v) cs it); auto. cbn [flat In]. intros e [<-|[]]. unfold ik; cbn [fst]. apply C1; auto.
  - apply holds_TN in Ht. destruct Ht as ((n & D & Wn & _ & P & K) & Hc). cbn [tref]. rewrite (lb_inner f a r it _ n D Wn). cbv zeta. rewrite P.
    pose proof A as (Dp & _). rewrite Dp. pose proof Wt as Wt0. apply wft_TN in Wt. destruct Wt as (Lp & Bp & I & R & L2 & Wc).
    destruct (cmp_pre_ok pre (path cs) s) as (y & s2 & Es & Ly & Ec). { rewrite zlen_app in L. lia. } rewrite Ec.
    destruct (prefix_decides (path cs) pre s y s2 r ch Wt0 Es Ly L B) as [PD1 PD2].
    destruct (Z.ltb_spec (memcmp pre y) 0) as [C|C]; [apply (lb_up Q a (TN r pre ch) cs it); auto|].
    destruct (Z.ltb_spec 0 (memcmp pre y)) as [C'|C'].
    { apply (lb_first Q a (TN r pre ch) cs it); auto. { intros e He. rewrite flat_TN in He. apply PD2 in He; auto. lia. } unfold LEVELS. pose proof (zlen_nonneg (path cs)). lia. }
    assert (y = pre). { assert (By : bytes y) by (subst s; apply bytes_app in B; destruct B as [_ B]; apply bytes_app in B; tauto). symmetry. apply (memcmp_kv pre y); auto; lia. }
    subst y. destruct s2 as [|kc s2]; [subst s; rewrite app_nil_r, zlen_app in L; lia|].
    subst s. rewrite (app_assoc (path cs) pre) in *. rewrite <- zlen_app, kget_app. cbn [obind].
    assert (Bk : 0 <= kc < 256) by (apply bytes_app in B; destruct B as [_ B]; now inversion B).
    destruct (lbsplitT kc ch I) as (c1 & c2 & -> & LL & RR).
    rewrite (lower_bound_kid n kc (krefs c1) (krefs c2) Wn Bk); [|now rewrite K, krefs_app|now rewrite krefs_fst|now rewrite krefs_fst].
    apply allp_app in Wc. destruct Wc as [Wc1 Wc2].
    assert (M1 : forall e, In e (flatl c1) -> ik e < kv ((path cs ++ pre) ++ kc :: s2)).
    { intros [k e] He. destruct (flatl_keys _ _ _ _ Wc1 He) as (k1 & s1 & I1 & -> & L1 & B1). unfold ik; cbn [fst]. apply path_lt; auto; lia. }
    destruct c2 as [|[k2 t2] c2].
    + change (krefs []) with (@nil (Z * Z)). cbn [hd_kid]. apply (lb_up Q a (TN r pre (c1 ++ [])) cs it); auto. rewrite app_nil_r. exact M1.
    + rewrite krefs_cons. cbn [hd_kid].
      set (c := CF r pre c1 k2 c2). set (T0 := plug (TN r pre (c1 ++ (k2, t2) :: c2)) cs) in *.
      assert (EP : plug t2 (c :: cs) = T0) by reflexivity.
      destruct (down_ok a c cs t2 it) as (n' & it' & D' & E' & A' & _); auto.
      cbn [c c_r c_l c_k] in D', E'. rewrite D in D'. injection D' as <-. rewrite krefs_zlen, E'. cbn [obind].
      assert (RK : kc <= k2) by (apply RR; now left).
      destruct (Z.ltb_spec kc k2) as [Lt|Ge].
      * assert (M2 : forall e, In e (flatl ((k2, t2) :: c2)) -> kv ((path cs ++ pre) ++ kc :: s2) < ik e).
        { intros [k e] He. destruct (flatl_keys _ _ _ _ Wc2 He) as (k1 & s1 & I1 & -> & L1 & B1). unfold ik; cbn [fst]. apply path_lt; auto; try lia.
          cbn in I1. destruct I1 as [<-|I1]; auto. assert (k2 < k1); [|lia].
          rewrite map_app in I. apply incr_app in I. destruct I as (_ & [I _] & _). cbn [map fst] in I. rewrite Forall_forall in I. auto. }
        rewrite <- EP. apply (lb_first Q a t2 (c :: cs) it'); auto; try (rewrite EP; auto).
        -- cbn [before c c_l]. intros e He. apply in_app_iff in He. destruct He; auto.
        -- cbn [after c c_rt]. intros e He. apply in_app_iff in He. destruct He; auto. apply M2. rewrite flatl_cons. apply in_or_app; auto.
        -- intros e He. assert (kv ((path cs ++ pre) ++ kc :: s2) < ik e); [|lia]. apply M2. rewrite flatl_cons. apply in_or_app; auto.
        -- unfold LEVELS. pose proof (zlen_nonneg (path (c :: cs))). lia.
      * assert (kc = k2) by lia. subst kc.
        assert (EK : path (c :: cs) ++ s2 = (path cs ++ pre) ++ k2 :: s2) by (cbn [path c c_pre c_k]; now rewrite <- !app_assoc).
        rewrite <- EK. rewrite <- EP. apply IH; auto; try (rewrite EK; auto); try discriminate.
        cbn [path c c_pre c_k]. rewrite !zlen_app. change (zlen [k2]) with 1. pose proof (zlen_nonneg pre). lia.
Qed.
