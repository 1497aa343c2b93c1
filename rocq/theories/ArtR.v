(** ArtR: an ART as a sorted map; its operations and iterators at that level. *)
From Verif Require Import Base BitUtil Art ArtS ArtN ArtW ArtT ArtU ArtI.
Local Opaque zr n48_pairs n256_pairs.

(** ** Moving an iterator that has a position: climbing *)
Definition stem (cs : list cf) (t : T) : list Z := match t with TL _ k _ => k | TN _ pre _ => path cs ++ pre end.
Lemma stem_decides cs t key : wft (path cs) t -> zlen key = 6 -> bytes key ->
  let c := memcmp (stem cs t) (zsub key 0 (zlen (stem cs t))) in
  (c < 0 -> forall e, In e (flat t) -> ik e < kv key) /\ (0 < c -> forall e, In e (flat t) -> kv key < ik e) /\
  (c = 0 -> exists s, key = path cs ++ s).
Proof.
  intros W L B. destruct t as [r k v|r pre ch]; cbn [stem]; cbv zeta.
  - destruct W as (Lk & Bk & s & Ek). rewrite (zsub_all key) by lia. destruct (memcmp_kv k key) as (C1 & C2 & C3); auto; [lia|].
    split; [|split].
    + intros M e [<-|[]]. unfold ik; cbn [fst]. tauto.
    + intros M e [<-|[]]. unfold ik; cbn [fst]. tauto.
    + intros M. apply C2 in M. subst. eauto.
  - pose proof W as W0. apply wft_TN in W0. destruct W0 as (Lp & Bp & _ & _ & L2 & Wc).
    destruct (split_at key (zlen (path cs ++ pre))) as (y & s2 & -> & Ly). { rewrite zlen_app. pose proof (zlen_nonneg (path cs)). pose proof (zlen_nonneg pre). lia. }
    rewrite zsub_pre by auto. pose proof B as B'. apply bytes_app in B. destruct B as [By Bs].
    assert (G : forall e, In e (flatl ch) -> exists s1, fst e = (path cs ++ pre) ++ s1 /\ zlen (fst e) = 6 /\ bytes (fst e)).
    { intros [k e] He. destruct (flatl_keys _ _ _ _ Wc He) as (k1 & s1 & _ & -> & L1 & B1). cbn [fst]. eauto. }
    rewrite flat_TN. split; [|split].
    + intros M e He. destruct (G e He) as (s1 & E & L1 & B1). unfold ik. destruct (memcmp_kv (fst e) (y ++ s2)) as (C1 & _); auto; [lia|]. apply C1.
      rewrite E, memcmp_app_ne by (auto; lia). auto.
    + intros M e He. destruct (G e He) as (s1 & E & L1 & B1). unfold ik. destruct (memcmp_kv (fst e) (y ++ s2)) as (_ & _ & C1); auto; [lia|]. apply C1.
      rewrite E, memcmp_app_ne by (auto; lia). auto.
    + intros M. exists (pre ++ s2). rewrite app_assoc. f_equal.
      assert (Bpp : bytes (path cs ++ pre)).
      { destruct ch as [|[k0 t0] ch]; [unfold zlen in L2; cbn in L2; lia|]. destruct Wc as [Wt0 _].
        pose proof (flat_ne _ _ Wt0). destruct (flat t0) as [|e0 fl0] eqn:Ef; [congruence|].
        destruct (G e0) as (s1 & E & _ & B1); [rewrite flatl_cons, Ef; now left|]. rewrite E in B1. apply bytes_app in B1. tauto. }
      symmetry. apply (memcmp_kv (path cs ++ pre) y); auto.
Qed.
Lemma climb_ok (Q : Z -> Prop) fuel : forall a t cs it key s0, Q (tref (plug t cs)) -> Q (base it) ->
  holds a (plug t cs) -> wft [] (plug t cs) -> atn a it cs -> art_iterator_ref it = tref t -> i_key it = path cs ++ s0 ->
  zlen key = 6 -> bytes key -> zlen (path cs) < Z.of_nat fuel ->
  lbpos Q a (plug t cs) (lb_climb fuel a it key (memcmp (stem cs t) (zsub key 0 (zlen (stem cs t))))) key.
Proof.
  induction fuel as [|f IH]; intros a t cs it key s0 HQ BQ H W A R KE L B F; [pose proof (zlen_nonneg (path cs)); lia|].
  cbn [lb_climb]. pose proof (wft_plug _ _ W) as Wt. destruct (stem_decides cs t key Wt L B) as (D1 & D2 & D3).
  set (c := memcmp (stem cs t) (zsub key 0 (zlen (stem cs t)))) in *. destruct (Z.eqb_spec c 0) as [C|C].
  - destruct (D3 C) as (s & ->). rewrite R. apply lb_ok; auto. unfold LEVELS. pose proof (zlen_nonneg (path cs)). lia.
  - destruct cs as [|c0 cs].
    + rewrite (up_root _ _ A). cbn [obind negb]. cbn [plug] in *. destruct (Z.ltb_spec c 0).
      * exists (art_iterator_invalid_loc it), (flat t), []. split; [reflexivity|]. split; [cbn; split; auto; apply invalid_end; auto|]. split; [auto|cbn; tauto].
      * rewrite R. apply (lb_first Q a t [] it key); auto; try (now intros e []).
        intros e He. assert (kv key < ik e); [|lia]. apply D2; auto. lia.
    + destruct (up_ok _ _ _ _ _ H A) as (n & fr & it1 & Dn & E & K1 & _ & F1 & FF & A1). rewrite E. cbn [obind negb].
      unfold art_iterator_ref. rewrite F1. cbn [hd fst]. rewrite Dn. cbn [obind].
      destruct (inner_of _ _ _ _ H) as (n' & Dn' & _ & P & _). rewrite Dn in Dn'. injection Dn' as <-. rewrite P.
      destruct A1 as (D1' & A1'). rewrite D1', K1, KE. unfold art_compare_prefix. cbn [path]. rewrite <- zlen_app.
      replace (((path cs ++ c_pre c0 ++ [c_k c0]) ++ s0)) with ((path cs ++ c_pre c0) ++ (c_k c0 :: s0)) by (now rewrite <- !app_assoc).
      rewrite (zsub_pre (path cs ++ c_pre c0)) by auto.
      apply (IH a (fill c0 t) cs it1 key (c_pre c0 ++ c_k c0 :: s0)); auto.
      * destruct A as (_ & top & fr0 & F0 & FF0). unfold base in BQ. rewrite F0 in BQ. inversion FF0 as [|x y xs ys (n'' & Dn'' & Ey) FF1]; subst.
        rewrite Dn in Dn''. injection Dn'' as <-.
        assert (E1 : i_frames it1 = (c_r c0, idx_of n (zlen (c_l c0)) (c_k c0)) :: ys).
        { unfold art_iterator_up in E. rewrite F0 in E. rewrite Dn in E. cbn [obind] in E. injection E as <-. reflexivity. }
        unfold base. rewrite E1. rewrite last_tl in BQ. exact BQ.
      * split; auto.
      * unfold art_iterator_ref. rewrite F1. reflexivity.
      * rewrite K1, KE. cbn [path]. now rewrite <- !app_assoc.
      * cbn [path] in F. rewrite !zlen_app in F. change (zlen [c_k c0]) with 1 in F. pose proof (zlen_nonneg (c_pre c0)). lia.
Qed.

(** ** Replacing a subtree in its context *)
Lemma plug_lift cs : forall a t a' t', sok a' -> holds a (plug t cs) -> wft [] (plug t cs) -> NoDup (refs (plug t cs)) ->
  step a (refs t) a' (refs t') -> holds a' t' -> wft (path cs) t' -> NoDup (refs t') -> tref t' = tref t ->
  holds a' (plug t' cs) /\ wft [] (plug t' cs) /\ NoDup (refs (plug t' cs)) /\ step a (refs (plug t cs)) a' (refs (plug t' cs)).
Proof.
  induction cs as [|c cs IH]; intros a t a' t' K H W ND ST H' W' ND' E; [auto|].
  cbn [plug] in *. pose proof (holds_plug _ _ _ H) as Hf. pose proof (wft_plug _ _ W) as Wf.
  assert (NDf : NoDup (refs (fill c t))).
  { clear - ND. revert c t ND. induction cs as [|c' cs IH]; intros c t ND; auto. cbn [plug] in ND. apply IH in ND. unfold fill at 1 in ND.
    rewrite refs_TN, refsl_app, refsl_cons in ND. apply NoDup_cons_iff in ND. destruct ND as [_ ND]. apply NoDup_app_iff in ND. destruct ND as (_ & ND & _).
    apply NoDup_app_iff in ND. tauto. }
  destruct c as [r pre c1 k c2]. unfold fill in *. cbn [c_r c_pre c_l c_k c_rt] in *.
  apply holds_TN in Hf. pose proof Hf as ((n & D & Wn & Lo & P & Kn) & Hc). apply allp_app in Hc. destruct Hc as (Hc1 & Ht & Hc2).
  assert (NDf' := NDf). rewrite refs_TN, refsl_app, refsl_cons in NDf'. apply NoDup_cons_iff in NDf'. destruct NDf' as [Nr NDx].
  apply NoDup_app_iff in NDx. destruct NDx as (_ & NDx & NDc). apply NoDup_app_iff in NDx. destruct NDx as (_ & _ & NDe). rewrite !in_app_iff in Nr.
  assert (NG : forall z, In z (r :: refsl c1 ++ refsl c2) -> ~ In z (refs t)).
  { intros z Hz Hz'. cbn [In] in Hz; rewrite in_app_iff in Hz. destruct Hz as [<-|[Hz|Hz]].
    - tauto.
    - apply (NDc z Hz). apply in_or_app; auto.
    - apply (NDe z Hz' Hz). }
  destruct (step_keep _ _ _ _ (r :: refsl c1 ++ refsl c2) ST) as (KN & KD); auto.
  { intros z [<-|Hz]; [congruence|]. apply in_app_iff in Hz. destruct Hz as [Hz|Hz]; [exact (holdsl_live a c1 z Hc1 Hz)|exact (holdsl_live a c2 z Hc2 Hz)]. }
  assert (Dr : art_deref a' r = Some n) by (rewrite KD by (now left); auto).
  destruct (child_lift a (refs t) a' (path cs) r pre c1 k t c2 t' a' n) as (H3 & W3 & ND3 & ST3); auto.
  { apply holds_TN; auto. } { split; auto. split; auto. intros x. destruct (Z.eqb_spec x r); subst; auto. }
  { rewrite Kn, !krefs_app, !krefs_cons, E. auto. }
  apply IH; auto. apply ST3. intros z. rewrite refs_TN, refsl_app, refsl_cons. cbn [In]. rewrite !in_app_iff. tauto.
Qed.
Lemma NoDup_plug cs : forall t, NoDup (refs (plug t cs)) -> NoDup (refs t).
Proof.
  induction cs as [|c cs IH]; intros t ND; auto. cbn [plug] in ND. apply IH in ND. unfold fill in ND.
  rewrite refs_TN, refsl_app, refsl_cons in ND. apply NoDup_cons_iff in ND. destruct ND as [_ ND]. apply NoDup_app_iff in ND. destruct ND as (_ & ND & _).
  apply NoDup_app_iff in ND. tauto.
Qed.
Lemma zlen_app_inv {A} (x y l r : list A) : x ++ y = l ++ r -> zlen x = zlen l -> x = l /\ y = r.
Proof.
  revert l. induction x as [|a x IH]; intros [|b l] E L; auto; try (rewrite zlen_cons in L; unfold zlen in L; cbn in L; lia).
  injection E as -> E. rewrite !zlen_cons in L. destruct (IH l E) as [-> ->]; auto. lia.
Qed.
(** the context of an entry *)
Lemma flat_ctx t : forall l k lf v r, flat t = l ++ (k, (lf, v)) :: r -> exists cs, plug (TL lf k v) cs = t /\ before cs = l /\ after cs = r.
Proof.
  induction t as [r0 k0 v0|r0 pre ch IH] using T_ind'; intros l k lf v r E.
  - exists []. cbn [flat] in E. destruct l as [|e l]; [injection E as -> -> -> <-; auto|]. injection E as _ E. destruct l; discriminate.
  - rewrite flat_TN in E.
    assert (X : forall c1 c2 l, ch = c1 ++ c2 -> flatl c2 = l ++ (k, (lf, v)) :: r -> exists d1 kk t d2 l' r', ch = d1 ++ (kk, t) :: d2 /\
      flat t = l' ++ (k, (lf, v)) :: r' /\ flatl c1 ++ l = flatl d1 ++ l' /\ r = r' ++ flatl d2 /\ In (kk, t) ch).
    { intros c1 c2. revert c1. induction c2 as [|[kk t] c2 IHc]; intros c1 l0 Ec Ef; [destruct l0; discriminate|].
      rewrite flatl_cons in Ef. destruct (in_dec Z.eq_dec (zlen l0) (zr 0 (zlen (flat t)))) as [I|I].
      - apply zr_In in I. destruct (split_at (flat t) (zlen l0)) as (x & y & Ex & Lx); [lia|]. rewrite Ex, <- app_assoc in Ef.
        destruct (zlen_app_inv _ _ _ _ Ef Lx) as [-> Ey]. destruct y as [|e y]; [rewrite Ex, app_nil_r in I; lia|]. injection Ey as -> <-.
        exists c1, kk, t, c2, l0, y. split; auto. split; auto. split; auto. split; auto. subst ch. apply in_elt.
      - assert (zlen (flat t) <= zlen l0) by (rewrite zr_In in I; pose proof (zlen_nonneg l0); lia).
        destruct (split_at l0 (zlen (flat t))) as (x & y & -> & Lx); [pose proof (zlen_nonneg (flat t)); lia|]. rewrite <- app_assoc in Ef. symmetry in Ef.
        destruct (zlen_app_inv _ _ _ _ Ef Lx) as [-> Ey]. destruct (IHc (c1 ++ [(kk, t)]) y) as (d1 & k2 & t2 & d2 & l' & r' & A1 & A2 & A3 & A4 & A5); auto.
        { now rewrite <- app_assoc. }
        exists d1, k2, t2, d2, l', r'. split; auto. split; auto. split; auto. rewrite <- A3, flatl_app, flatl_cons. change (flatl []) with (@nil entry). now rewrite app_nil_r, <- app_assoc. }
    destruct (X [] ch l eq_refl E) as (d1 & kk & t & d2 & l' & r' & Ec & Ef & El & Er & I). rewrite Forall_forall in IH.
    destruct (IH (kk, t) I l' k lf v r' Ef) as (cs & P & B & A). exists (cs ++ [CF r0 pre d1 kk d2]). subst ch r. cbn [snd] in P. cbn in El. subst l.
    split; [|split].
    + rewrite <- P. generalize (TL lf k v). clear. induction cs as [|c cs IH]; intros t; cbn; [reflexivity|apply IH].
    + rewrite <- B. clear. induction cs as [|c cs IH]; cbn [before app c_l]; [now rewrite app_nil_r|]. now rewrite IH, app_assoc.
    + rewrite <- A. clear. induction cs as [|c cs IH]; cbn [after app c_rt]; [now rewrite app_nil_r|]. now rewrite IH, app_assoc.
Qed.

(** ** The ART as a sorted map *)
Definition tree (a : art) (t : T) : Prop :=
  tref t = a_root a /\ holds a t /\ wft [] t /\ NoDup (refs t) /\ forall x, art_deref a x <> None -> In x (refs t).
Definition arep (a : art) (fl : list entry) : Prop :=
  sok a /\ ((a_root a = 0 /\ fl = [] /\ forall x, art_deref a x = None) \/ exists t, tree a t /\ fl = flat t).
Definition ipos (Q : Z -> Prop) (a : art) (it : iter) (l r : list entry) : Prop :=
  (a_root a = 0 /\ l = [] /\ r = [] /\ itend Q it) \/ exists t, tree a t /\ itpos Q a t it l r.
Definition any (_ : Z) : Prop := True.
Definition key6 (k : list Z) : Prop := zlen k = 6 /\ bytes k.

Lemma tree_nz a t : tree a t -> a_root a <> 0.
Proof. intros (E & H & _). rewrite <- E. eapply tref_nz; eauto. Qed.
Lemma arep_tree a t fl : arep a fl -> tree a t -> fl = flat t.
Proof.
  intros (_ & [(E & _ & _)|(t' & T' & ->)]) T1; [apply tree_nz in T1; tauto|]. f_equal.
  destruct T1 as (E1 & H1 & _), T' as (E2 & H2 & _). rewrite <- E2 in E1. clear E2.
  revert t' E1 H2. induction t as [r k v|r pre ch IH] using T_ind'; intros t' E1 H2.
  - destruct t' as [r' k' v'|r' pre' ch']; cbn [tref] in E1; subst r'.
    + cbn [holds] in *. congruence.
    + apply holds_TN in H2. destruct H2 as ((n & D & W & _) & _). cbn [holds] in H1. rewrite H1 in D. injection D as <-. destruct W as (_ & _ & []).
  - destruct t' as [r' k' v'|r' pre' ch']; cbn [tref] in E1; subst r'.
    + apply holds_TN in H1. destruct H1 as ((n & D & W & _) & _). cbn [holds] in H2. rewrite H2 in D. injection D as <-. destruct W as (_ & _ & []).
    + apply holds_TN in H1, H2. destruct H1 as ((n & D & _ & _ & P & K) & Hc), H2 as ((n' & D' & _ & _ & P' & K') & Hc').
      rewrite D in D'. injection D' as <-. rewrite P in P'. subst pre'. rewrite K in K'. f_equal. clear - K' IH Hc Hc'.
      revert ch' K' Hc'. induction ch as [|[k t] ch IHc]; intros [|[k' t'] ch'] K' Hc'; try discriminate; auto.
      rewrite !krefs_cons in K'. injection K' as -> E K'. inversion IH; subst. destruct Hc, Hc'. cbn [snd] in *. f_equal; [|apply IHc; auto].
      f_equal. auto.
Qed.
Lemma arep_flat a fl : arep a fl -> a_root a <> 0 -> exists t, tree a t /\ fl = flat t.
Proof. intros (_ & [(E & _)|X]) N; [congruence|auto]. Qed.
Lemma ipos_flat Q a it l r fl : arep a fl -> ipos Q a it l r -> fl = l ++ r.
Proof.
  intros A [(R & -> & -> & _)|(t & Tt & P)].
  - destruct A as (_ & [(_ & -> & _)|(t & Tt & _)]); auto. apply tree_nz in Tt. tauto.
  - rewrite (arep_tree _ _ _ A Tt). eapply itpos_flat; eauto.
Qed.
Lemma arep_keys a fl k e : arep a fl -> In (k, e) fl -> key6 k.
Proof.
  intros (_ & [(_ & -> & _)|(t & (_ & _ & W & _) & ->)]) I; [destruct I|]. destruct (flat_keys _ _ _ _ W I) as (L & B & _). split; auto.
Qed.
Lemma arep_sorted a fl : arep a fl -> incr (map ik fl).
Proof. intros (_ & [(_ & -> & _)|(t & (_ & _ & W & _) & ->)]); [constructor|]. eapply flat_sorted; eauto. Qed.
Lemma arep_leaf a fl k lf v : arep a fl -> In (k, (lf, v)) fl -> art_deref a lf = Some (NLeaf k v) /\ lf <> 0.
Proof.
  intros (_ & [(_ & -> & _)|(t & (_ & H & _) & ->)]) I; [destruct I|].
  apply in_split in I. destruct I as (l & r & E). destruct (flat_ctx t l k lf v r E) as (cs & <- & _). apply holds_plug in H. cbn [holds] in H.
  split; auto. eapply deref_nz; eauto.
Qed.
Lemma arep_leaf_val a fl k lf v : arep a fl -> In (k, (lf, v)) fl -> leaf_val a lf = Some v.
Proof. intros A I. unfold leaf_val. destruct (arep_leaf _ _ _ _ _ A I) as [-> _]. reflexivity. Qed.
Lemma step_noleak a F a' F' : step a F a' F' -> (forall x, art_deref a x <> None -> In x F) -> forall x, art_deref a' x <> None -> In x F'.
Proof.
  intros (S1 & S2 & S3) N x Hx. destruct (in_dec Z.eq_dec x F') as [I|I]; auto. exfalso. destruct (in_dec Z.eq_dec x F) as [J|J]; [apply Hx; auto|].
  rewrite S1 in Hx by auto. auto.
Qed.
Lemma tree_root a t r : (forall x, art_deref a x <> None -> In x (refs t)) -> tref t = r -> holds a t -> wft [] t -> NoDup (refs t) -> tree (set_root a r) t.
Proof.
  intros N E H W ND. split; auto. split; [|split; auto; split; auto].
  - eapply holds_ext; [|exact H]. intros; apply deref_root.
Qed.
Lemma key6_path k : key6 k -> zlen ([] ++ k) = 6 /\ bytes ([] ++ k). Proof. auto. Qed.

Lemma arep_cleared : arep art_init_cleared [].
Proof. split; [apply sok_cleared|]. left. split; auto. split; auto. apply deref_cleared. Qed.
Lemma arep_empty a fl : arep a fl -> art_is_empty a = negb (some fl).
Proof.
  intros (_ & [(E & -> & _)|(t & Tt & ->)]); unfold art_is_empty.
  - rewrite E. reflexivity.
  - pose proof (tree_nz _ _ Tt). destruct Tt as (_ & _ & W & _). pose proof (flat_ne _ _ W). destruct (flat t); [congruence|]. cbn. unfold NULL_REF. lia.
Qed.
Lemma arep_find a fl key : arep a fl -> key6 key -> exists r, art_find a key = Some r /\ found fl key r.
Proof.
  intros (K & [(E & -> & _)|(t & (E & H & W & _) & ->)]) (L & B); unfold art_find.
  - rewrite E. eexists. split; [reflexivity|]. right. cbn. auto.
  - pose proof (tref_nz _ _ H). rewrite <- E. unfold NULL_REF. replace (tref t =? 0) with false by lia.
    apply (find_at_ok LEVELS a t [] key H W L B). unfold LEVELS, zlen. cbn. lia.
Qed.
Lemma arep_insert a fl key v : arep a fl -> key6 key -> ~ In key (map fst fl) ->
  exists a' lf l r, art_insert a key v = Some (a', lf) /\ fl = l ++ r /\ arep a' (l ++ (key, (lf, v)) :: r).
Proof.
  intros (K & X) (L & B) NK. unfold art_insert, art_leaf_create.
  destruct (create_sto a (NLeaf key v) K) as (a1 & lf & E & S & FR & _). rewrite E. cbn [obind].
  pose proof S as (K1 & R1 & D1). pose proof (sto_at _ _ _ _ S) as DL.
  destruct X as [(R & -> & N)|(t & (R & H & W & ND & NL) & ->)].
  - rewrite R1, R. change (0 =? NULL_REF) with true. cbv iota. eexists _, lf, [], []. split; [reflexivity|]. split; auto.
    split; [now apply sok_root|]. right. exists (TL lf key v). split; [|reflexivity]. apply tree_root; auto.
    + intros x Hx. rewrite D1 in Hx. destruct (Z.eqb_spec x lf); [subst; now left|]. rewrite N in Hx. congruence.
    + cbn. split; auto. split; auto. now exists key.
    + constructor; [intros []|constructor].
  - pose proof (tref_nz _ _ H). rewrite R1, <- R. unfold NULL_REF. replace (tref t =? 0) with false by lia.
    assert (NF : ~ In lf (refs t)) by (intros I; apply (holds_live a t lf H I); auto).
    destruct (insert_at_ok LEVELS a1 t [] key lf v K1) as (a2 & t' & l & r & E2 & K2 & R2 & H2 & W2 & ND2 & F & F2 & ST); auto.
    { eapply holds_ext; [|exact H]. intros x Hx. apply (sto_other _ _ _ _ x S). congruence. } { unfold LEVELS, zlen. cbn. lia. }
    change (zlen (@nil Z)) with 0 in E2. cbn [app] in *. rewrite E2. cbn [obind].
    eexists _, lf, l, r. split; [reflexivity|]. split; auto. split; [now apply sok_root|]. right. exists t'. split; [|auto].
    apply tree_root; auto. eapply step_noleak; [exact ST|]. intros x Hx. rewrite D1 in Hx. destruct (Z.eqb_spec x lf); [subst; now left|right; auto].
Qed.
Lemma arep_erase_miss a fl key : arep a fl -> key6 key -> ~ In key (map fst fl) -> art_erase a key = Some (a, None).
Proof.
  intros (K & [(E & -> & _)|(t & (E & H & W & _) & ->)]) (L & B) NK; unfold art_erase.
  - rewrite E. reflexivity.
  - pose proof (tref_nz _ _ H). rewrite <- E. unfold NULL_REF. replace (tref t =? 0) with false by lia.
    pose proof (erase_at_miss LEVELS a t [] key H W L B) as X. change (zlen (@nil Z)) with 0 in X. cbn [app] in X. rewrite X; auto. unfold LEVELS, zlen. cbn. lia.
Qed.
Lemma incr_split_uniq l : forall (e : entry) r l' r', incr (map ik (l ++ e :: r)) -> l ++ e :: r = l' ++ e :: r' -> l = l' /\ r = r'.
Proof.
  induction l as [|x l IH]; intros e r l' r' I E; cbn [app map] in *.
  - destruct l' as [|y l']; cbn in E; injection E; auto. intros -> ->. exfalso. cbn in I. destruct I as [I _]. rewrite Forall_forall in I.
    assert (ik y < ik y); [|lia]. apply I. apply in_map. apply in_elt.
  - destruct l' as [|y l']; cbn in E; injection E as Ex E.
    + exfalso. subst x. destruct I as [I _]. rewrite Forall_forall in I. assert (ik e < ik e); [|lia]. apply I. apply in_map. apply in_elt.
    + subst y. destruct I as [_ I]. destruct (IH e r l' r' I E) as [-> ->]. auto.
Qed.
Lemma arep_erase a l key lf v r : arep a (l ++ (key, (lf, v)) :: r) ->
  exists a', art_erase a key = Some (a', Some v) /\ arep a' (l ++ r).
Proof.
  intros A. pose proof (arep_sorted _ _ A) as SO. destruct (arep_keys _ _ key (lf, v) A (in_elt _ _ _)) as (L & B).
  destruct A as (K & [(E & EF & _)|(t & (E & H & W & ND & NL) & EF)]); [destruct l; discriminate|].
  assert (Z0 : zlen (@nil Z) = 0) by reflexivity.
  pose proof (tref_nz _ _ H). unfold art_erase. rewrite <- E. unfold NULL_REF. replace (tref t =? 0) with false by lia.
  destruct (erase_at_hit LEVELS a t [] key lf v K H W ND L B) as [(Et & a' & E1 & S)|(a' & t' & l' & r' & E1 & K' & R' & H' & W' & ND' & F1 & F2 & ST)].
  { unfold LEVELS. rewrite Z0. lia. } { rewrite <- EF. apply in_elt. }
  - rewrite Z0 in E1. cbn [app] in *. rewrite E1. cbn [obind]. eexists. split; [reflexivity|].
    subst t. cbn [flat] in EF. destruct l as [|x l]; [|destruct l; discriminate]. cbn [app] in EF. injection EF as ->. cbn.
    destruct S as (K' & R' & D'). split; [now apply sok_root|]. left. split; auto. split; auto. intros x. rewrite deref_root, D'. destruct (Z.eqb_spec x lf); auto.
    destruct (art_deref a x) eqn:Dx; auto. exfalso. apply n. assert (In x (refs (TL lf key v))) as [Q|[]] by (apply NL; congruence). auto.
  - rewrite Z0 in E1. cbn [app] in *. rewrite E1. cbn [obind]. eexists. split; [reflexivity|].
    rewrite F1 in EF. destruct (incr_split_uniq l (key, (lf, v)) r l' r' SO EF) as [-> ->].
    split; [now apply sok_root|]. right. exists t'. split; [|auto]. apply tree_root; auto. eapply step_noleak; eauto.
Qed.
(** writing the value of a leaf *)
Lemma set_leaf_step a t cs lf k v v' : sok a -> tree a t -> plug (TL lf k v) cs = t ->
  let a' := art_put a lf (NLeaf k v') in
  set_leaf_val a lf v' = Some a' /\ sok a' /\ tree a' (plug (TL lf k v') cs) /\ (forall x, x <> lf -> art_deref a' x = art_deref a x).
Proof.
  intros K (E & H & W & ND & NL) P a'. subst t. pose proof (holds_plug _ _ _ H) as HL. cbn [holds] in HL.
  pose proof (put_sto a lf _ (NLeaf k v') K HL eq_refl) as S. pose proof S as (K' & R' & D').
  assert (ET : tref (plug (TL lf k v') cs) = tref (plug (TL lf k v) cs)) by (now apply tref_plug).
  destruct (plug_lift cs a (TL lf k v) a' (TL lf k v')) as (H' & W' & ND' & ST); auto.
  { apply (sto_step _ _ _ _ _ S). now left. } { cbn [holds]. apply (sto_at _ _ _ _ S). } { apply wft_plug in W. exact W. } { constructor; [intros []|constructor]. }
  split; [unfold set_leaf_val; now rewrite HL|]. split; auto. split; [|intros x Hx; apply (sto_other _ _ _ _ x S Hx)].
  split; [rewrite ET, E; symmetry; exact R'|]. split; auto. split; auto. split; auto. eapply step_noleak; eauto.
Qed.
Lemma arep_set a l k lf v r v' : arep a (l ++ (k, (lf, v)) :: r) ->
  exists a', set_leaf_val a lf v' = Some a' /\ arep a' (l ++ (k, (lf, v')) :: r).
Proof.
  intros (K & [(E & EF & _)|(t & Tt & EF)]); [destruct l; discriminate|]. symmetry in EF.
  destruct (flat_ctx t l k lf v r EF) as (cs & P & B & A). destruct (set_leaf_step a t cs lf k v v' K Tt P) as (E' & K' & T' & _).
  eexists. split; [exact E'|]. split; auto. right. exists (plug (TL lf k v') cs). split; auto. rewrite flat_plug, B, A. reflexivity.
Qed.
(** an iterator keeps its position over the write *)
Lemma ipos_set Q a it l k lf v r v' : sok a -> ipos Q a it l ((k, (lf, v)) :: r) ->
  exists a', set_leaf_val a lf v' = Some a' /\ ipos Q a' it l ((k, (lf, v')) :: r).
Proof.
  intros K [(_ & _ & EF & _)|(t & Tt & cs & P & AL & B & A)]; [discriminate|].
  destruct (set_leaf_step a t cs lf k v v' K Tt P) as (E' & K' & T' & D'). eexists. split; [exact E'|]. right. exists (plug (TL lf k v') cs). split; auto.
  exists cs. split; auto. split; auto. destruct AL as (A1 & A2 & A3 & fr & A4 & FF). split; auto. split; auto. split; auto. exists fr. split; auto.
  assert (NI : forall c, In c cs -> c_r c <> lf).
  { intros c Hc Ec. destruct Tt as (_ & H & _). subst t. destruct (in_split _ _ Hc) as (cs1 & cs2 & ->).
    assert (EP : forall t, plug t (cs1 ++ c :: cs2) = plug (fill c (plug t cs1)) cs2) by (clear; induction cs1; intros t; cbn; auto).
    rewrite EP in H. pose proof (holds_plug _ _ _ H) as H1. unfold fill in H1. apply holds_TN in H1. destruct H1 as ((n & D & Wn & _) & Hc1).
    apply allp_app in Hc1. destruct Hc1 as (_ & H2 & _). apply holds_plug in H2. cbn [holds] in H2. rewrite Ec, H2 in D. injection D as <-. destruct Wn as (_ & _ & []). }
  clear - FF NI D'. induction FF as [|c f cs fr (n & D & E) FF IH]; constructor.
  - exists n. rewrite D' by (apply NI; now left). auto.
  - apply IH. intros; apply NI; now right.
Qed.

(** ** Iterators *)
Lemma ipos_val Q a it l k lf v r : ipos Q a it l ((k, (lf, v)) :: r) -> i_val it = lf /\ i_key it = k /\ lf <> 0.
Proof.
  intros [(_ & _ & EF & _)|(t & (_ & H & _) & cs & P & (A1 & A2 & _) & _)]; [discriminate|]. split; auto. split; auto. subst t. apply holds_plug in H. cbn [holds] in H. eapply deref_nz; eauto.
Qed.
Lemma ipos_end Q a it l : ipos Q a it l [] -> i_val it = 0.
Proof. intros [(_ & _ & _ & E & _)|(t & _ & _ & E & _)]; auto. Qed.
Lemma ipos_weak (Q Q' : Z -> Prop) a it l e r : ipos Q a it l (e :: r) -> ipos Q' a it l (e :: r).
Proof. intros [(_ & _ & EF & _)|(t & Tt & P)]; [discriminate|]. right. exists t. split; auto. Qed.
Lemma ipos_any (Q : Z -> Prop) a it l r : ipos Q a it l r -> ipos any a it l r.
Proof.
  destruct r; [|apply ipos_weak]. intros [(A & B & C & D & _)|(t & Tt & A & B & _)]; [left|right].
  - split; auto. split; auto. split; auto. split; auto. exact Logic.I.
  - exists t. split; auto. split; auto. split; auto. exact Logic.I.
Qed.
Definition rooted (a : art) (x : Z) : Prop := x = a_root a.
Lemma it_zero_atn a : atn a it_zero [].
Proof. split; [reflexivity|]. exists (0, 0), []. split; [reflexivity|constructor]. Qed.
Lemma rewind_atn a it : atn a (it_rewind it) [].
Proof. split; [reflexivity|]. exists (last (i_frames it) (0, 0)), []. split; [reflexivity|constructor]. Qed.
Lemma arep_first a fl : arep a fl -> exists it, art_init_iterator a true = Some it /\ ipos (rooted a) a it [] fl.
Proof.
  intros (K & [(E & -> & _)|(t & Tt & ->)]); unfold art_init_iterator.
  - rewrite E. eexists. split; [reflexivity|]. left. split; auto. split; auto. split; auto. split; auto. unfold rooted, base. cbn. auto.
  - pose proof (tree_nz _ _ Tt). unfold NULL_REF. replace (a_root a =? 0) with false by lia. pose proof Tt as (E & H0 & W & _). rewrite <- E.
    destruct (init_ok LEVELS a t [] it_zero true H0 W (it_zero_atn a)) as (it & cs & lf & k & v & E1 & P & AL & B); [unfold LEVELS, zlen; cbn; lia|].
    exists it. split; auto. right. exists t. split; auto. destruct (itpos_of (rooted a) a t it cs lf k v [] (flat t) P AL eq_refl B). auto.
Qed.
Lemma arep_last a fl : arep a fl -> exists it, art_init_iterator a false = Some it /\
  ((fl = [] /\ ipos (rooted a) a it [] []) \/ exists l e, fl = l ++ [e] /\ ipos (rooted a) a it l [e]).
Proof.
  intros (K & [(E & -> & _)|(t & Tt & ->)]); unfold art_init_iterator.
  - rewrite E. eexists. split; [reflexivity|]. left. split; auto. left. split; auto. split; auto. split; auto. split; auto. unfold rooted, base. cbn. auto.
  - pose proof (tree_nz _ _ Tt). unfold NULL_REF. replace (a_root a =? 0) with false by lia. pose proof Tt as (E & H0 & W & _). rewrite <- E.
    destruct (init_ok LEVELS a t [] it_zero false H0 W (it_zero_atn a)) as (it & cs & lf & k & v & E1 & P & AL & B); [unfold LEVELS, zlen; cbn; lia|].
    exists it. split; auto. right.
    destruct (itpos_of_back (rooted a) a t it cs lf k v (flat t) [] P AL) as (l0 & e & F & IP); [now rewrite app_nil_r|auto|].
    exists l0, e. split; auto. right. exists t. auto.
Qed.
Lemma ipos_next (Q : Z -> Prop) a it l e r : Q (a_root a) -> ipos Q a it l (e :: r) -> exists it', art_iterator_next a it = Some (it', some r) /\ ipos Q a it' (l ++ [e]) r.
Proof.
  intros HQ [(_ & _ & EF & _)|(t & Tt & P)]; [discriminate|]. pose proof Tt as (E & H & W & _). rewrite <- E in HQ.
  destruct (next_ok Q a t it l e r HQ H W P) as (it' & E' & P'). exists it'. split; auto. right. eauto.
Qed.
Lemma ipos_prev (Q : Z -> Prop) a it l e r : Q (a_root a) -> ipos Q a it l (e :: r) -> exists it',
  (l = [] /\ art_iterator_prev a it = Some (it', false) /\ itend Q it') \/
  (exists l0 e0, l = l0 ++ [e0] /\ art_iterator_prev a it = Some (it', true) /\ ipos Q a it' l0 (e0 :: e :: r)).
Proof.
  intros HQ [(_ & _ & EF & _)|(t & Tt & P)]; [discriminate|]. pose proof Tt as (E & H & W & _). rewrite <- E in HQ.
  destruct (prev_ok Q a t it l e r HQ H W P) as (it' & [X|(l0 & e0 & X1 & X2 & X3)]); exists it'; [left; auto|right]. exists l0, e0. split; auto. split; auto. right. eauto.
Qed.
Definition lsplit (key : list Z) (l r : list entry) : Prop := (forall e, In e l -> ik e < kv key) /\ (forall e, In e r -> kv key <= ik e).
Lemma arep_lb (Q : Z -> Prop) a fl it key : arep a fl -> a_root a <> 0 -> Q (a_root a) -> Q (base it) -> atn a it [] -> key6 key ->
  exists it' l r, art_node_iterator_lower_bound LEVELS a (a_root a) it key = Some (it', some r) /\ fl = l ++ r /\ ipos Q a it' l r /\ lsplit key l r.
Proof.
  intros A N HQ BQ AT (L & B). destruct (arep_flat _ _ A N) as (t & Tt & ->). pose proof Tt as (E & H & W & _). rewrite <- E in *.
  destruct (lb_ok Q LEVELS a t [] it key) as (it' & l & r & E1 & P & L1 & L2); auto; [unfold LEVELS, zlen; cbn; lia|].
  exists it', l, r. split; [exact E1|]. split; [eapply itpos_flat; eauto|]. split; [right; eauto|]. split; auto.
Qed.
Lemma arep_lower_bound a fl key : arep a fl -> key6 key ->
  exists it l r, art_lower_bound a key = Some it /\ fl = l ++ r /\ ipos any a it l r /\ lsplit key l r.
Proof.
  intros A K. unfold art_lower_bound. destruct (Z.eqb_spec (a_root a) NULL_REF) as [E|E].
  - destruct A as (_ & [(_ & -> & _)|(t & Tt & _)]); [|apply tree_nz in Tt; tauto]. eexists _, [], []. split; [reflexivity|]. split; auto.
    split; [left; split; auto; split; auto; split; auto; split; auto; exact Logic.I|]. split; intros e [].
  - destruct (arep_lb any a fl it_zero key A E Logic.I Logic.I (it_zero_atn a) K) as (it & l & r & E1 & X). rewrite E1. cbn [obind]. eauto 10.
Qed.
Lemma cmp_keys k key : key6 k -> key6 key -> (art_compare_keys k key < 0 <-> kv k < kv key) /\ (art_compare_keys k key = 0 <-> k = key) /\
  (0 < art_compare_keys k key <-> kv key < kv k).
Proof.
  intros (L & B) (L' & B'). unfold art_compare_keys, art_compare_prefix, KEY_BYTES. rewrite !zsub_all by auto. apply memcmp_kv; auto. lia.
Qed.
Lemma arep_upper_bound a fl key : arep a fl -> key6 key ->
  exists it l r, art_upper_bound a key = Some it /\ fl = l ++ r /\ ipos any a it l r /\
    (forall e, In e l -> ik e <= kv key) /\ (forall e, In e r -> kv key < ik e).
Proof.
  intros A K. unfold art_upper_bound. destruct (Z.eqb_spec (a_root a) NULL_REF) as [E|E].
  - destruct A as (_ & [(_ & -> & _)|(t & Tt & _)]); [|apply tree_nz in Tt; tauto]. eexists _, [], []. split; [reflexivity|]. split; auto.
    split; [left; split; auto; split; auto; split; auto; split; auto; exact Logic.I|]. split; intros e [].
  - destruct (arep_lb any a fl it_zero key A E Logic.I Logic.I (it_zero_atn a) K) as (it & l & r & E1 & F & P & L1 & L2). rewrite E1. cbn [obind].
    pose proof (arep_sorted _ _ A) as SO. rewrite F, map_app in SO. apply incr_app in SO. destruct SO as (_ & SO & _).
    destruct r as [|[k [lf v]] r].
    + cbn [some andb]. exists it, l, []. split; auto. split; auto. split; auto. split; [intros e He; apply L1 in He; lia|intros e []].
    + cbn [some andb]. destruct (ipos_val _ _ _ _ _ _ _ _ P) as (_ & EK & _). rewrite EK.
      assert (Kk : key6 k) by (eapply (arep_keys a fl k (lf, v) A); rewrite F; apply in_elt).
      destruct (cmp_keys k key Kk K) as (C1 & C2 & C3). destruct SO as [SO1 _]. rewrite Forall_forall in SO1. unfold ik at 1 in SO1. cbn [fst] in SO1.
      pose proof (L2 (k, (lf, v)) (or_introl eq_refl)) as LK. unfold ik in LK; cbn [fst] in LK.
      destruct (Z.eqb_spec (art_compare_keys k key) 0) as [C|C].
      * destruct (ipos_next any a it l (k, (lf, v)) r Logic.I P) as (it' & E2 & P2). rewrite E2. cbn [obind]. exists it', (l ++ [(k, (lf, v))]), r. split; auto.
        split; [now rewrite <- app_assoc|]. split; auto. apply C2 in C. subst key. split.
        -- intros e He. apply in_app_iff in He. destruct He as [He|[<-|[]]]; [apply L1 in He; lia|unfold ik; cbn [fst]; lia].
        -- intros e He. apply SO1. now apply in_map.
      * exists it, l, ((k, (lf, v)) :: r). split; auto. split; auto. split; auto. split; [intros e He; apply L1 in He; lia|].
        assert (kv key < kv k). { destruct (Z.eq_dec (kv k) (kv key)) as [Q|Q]; [|lia]. exfalso. apply C. apply C2. destruct Kk, K. apply kv_inj; auto; lia. }
        intros e [<-|He]; [unfold ik; cbn [fst]; auto|]. assert (kv k < ik e); [|lia]. apply SO1. now apply in_map.
Qed.
Lemma ipos_lower_bound (Q : Z -> Prop) a fl it l r key : arep a fl -> ipos Q a it l r -> Q (a_root a) -> (r = [] -> Q = rooted a) -> key6 key ->
  exists it' l' r', art_iterator_lower_bound a it key = Some (it', some r') /\ fl = l' ++ r' /\ ipos Q a it' l' r' /\ lsplit key l' r'.
Proof.
  intros A P HQ RQ K. unfold art_iterator_lower_bound. destruct r as [|[k [lf v]] r].
  - rewrite (ipos_end _ _ _ _ P), Z.eqb_refl.
    assert (BQ : Q (base it)) by (destruct P as [(_ & _ & _ & _ & B)|(t & _ & _ & _ & B)]; auto).
    assert (BR : base it = a_root a) by (rewrite (RQ eq_refl) in BQ; exact BQ).
    assert (RR : art_iterator_ref (it_rewind it) = a_root a) by (rewrite <- BR; reflexivity). cbv zeta. rewrite RR.
    destruct (Z.eqb_spec (a_root a) NULL_REF) as [E|E].
    + destruct A as (_ & [(_ & -> & _)|(t & Tt & _)]); [|apply tree_nz in Tt; tauto]. exists (it_rewind it), [], []. split; [reflexivity|]. split; auto.
      split; [left; split; auto; split; auto; split; auto; split; [apply (ipos_end _ _ _ _ P)|exact BQ]|]. split; intros e [].
    + apply arep_lb; auto. apply rewind_atn.
  - destruct (ipos_val _ _ _ _ _ _ _ _ P) as (EV & EK & NZ). rewrite EV. replace (lf =? 0) with false by lia.
    destruct P as [(_ & _ & EF & _)|(t & Tt & cs & P & AL & B & AF)]; [discriminate|]. pose proof Tt as (E & H & W & _).
    rewrite EK. unfold art_compare_prefix, KEY_BYTES. pose proof W as W0. rewrite <- P in W0. pose proof (wft_plug _ _ W0) as WL. cbn [wft] in WL. destruct WL as (L6 & B6 & s0 & Es).
    rewrite (zsub_all k) by auto. pose proof K as (LK & BK).
    destruct (climb_ok Q LEVELS a (TL lf k v) cs it key s0) as (it' & l' & r' & E1 & P1 & X1 & X2); auto; try (rewrite P; auto).
    { now rewrite E. } { rewrite (at_leaf_base a it cs lf k v AL), P, E. auto. } { eapply at_leaf_atn; eauto. }
    { destruct AL as (_ & _ & _ & fr & F & _). unfold art_iterator_ref. rewrite F. reflexivity. } { congruence. } { rewrite <- P in W. pose proof (path_le _ _ W). unfold LEVELS. lia. }
    cbn [stem] in E1. rewrite L6 in E1. rewrite P in P1. exists it', l', r'. split; [exact E1|]. split; [rewrite (arep_tree _ _ _ A Tt); eapply itpos_flat; eauto|]. split; [right; eauto|]. split; auto.
Qed.
Lemma arep_iterator_insert Q a fl it key v : arep a fl -> key6 key -> ~ In key (map fst fl) ->
  exists a' it' lf l r, art_iterator_insert a it key v = Some (a', it') /\ fl = l ++ r /\ arep a' (l ++ (key, (lf, v)) :: r) /\
    ipos Q a' it' l ((key, (lf, v)) :: r).
Proof.
  intros A K NK. unfold art_iterator_insert. destruct (arep_insert a fl key v A K NK) as (a1 & lf & l & r & E & F & A1). rewrite E. cbn [obind].
  assert (N1 : a_root a1 <> 0). { destruct A1 as (_ & [(_ & Q1 & _)|(t & Tt & _)]); [destruct l; discriminate|]. now apply tree_nz in Tt. }
  destruct (arep_lb any a1 _ (it_rewind it) key A1 N1 Logic.I Logic.I (rewind_atn a1 it) K) as (it' & l' & r' & E1 & F1 & P & L1 & L2). rewrite E1. cbn [obind].
  pose proof (arep_sorted _ _ A1) as SO.
  assert (X : l' = l /\ r' = (key, (lf, v)) :: r).
  { assert (I : In (key, (lf, v)) (l' ++ r')) by (rewrite <- F1; apply in_elt). apply in_app_iff in I. destruct I as [I|I]; [apply L1 in I; unfold ik in I; cbn [fst] in I; lia|].
    destruct r' as [|e r']; [destruct I|]. destruct I as [->|I].
    - destruct (incr_split_uniq l _ r l' r' SO F1) as [-> ->]. auto.
    - exfalso. rewrite F1, map_app in SO. apply incr_app in SO. destruct SO as (_ & [SO _] & _). rewrite Forall_forall in SO. pose proof (L2 e (or_introl eq_refl)).
      assert (ik e < ik (key, (lf, v))) by (apply SO; now apply in_map). unfold ik in *. cbn [fst] in *. lia. }
  destruct X as [-> ->]. exists a1, it', lf, l, r. split; auto. split; auto. split; auto. eapply ipos_weak; eauto.
Qed.
Lemma lsplit_uniq key l : forall r l' r', lsplit key l r -> lsplit key l' r' -> l ++ r = l' ++ r' -> l = l' /\ r = r'.
Proof.
  induction l as [|e l IH]; intros r l' r' (A & B) (A' & B') E.
  - destruct l' as [|e' l']; auto. exfalso. cbn in E. subst r. pose proof (A' e' (or_introl eq_refl)). pose proof (B e' (or_introl eq_refl)). lia.
  - destruct l' as [|e' l'].
    + exfalso. cbn in E. subst r'. pose proof (A e (or_introl eq_refl)). pose proof (B' e (or_introl eq_refl)). lia.
    + cbn in E. injection E as <- E. destruct (IH r l' r') as [-> ->]; auto; split; auto; intros x Hx; [apply A|apply A']; now right.
Qed.
Lemma sorted_lsplit l key e r : incr (map ik (l ++ (key, e) :: r)) -> lsplit key l r.
Proof.
  rewrite map_app. cbn [map]. intros I. apply incr_app in I. destruct I as (_ & [I1 _] & I2). rewrite Forall_forall in I1. split; intros x Hx.
  - apply (I2 (ik x) (ik (key, e))); [now apply in_map|now left].
  - assert (ik (key, e) < ik x) by (apply I1; now apply in_map). unfold ik in *. cbn [fst] in *. lia.
Qed.
Lemma it_erase_body a a2 cs' t0 t' it1 r0 idx fr' : forall c_leaf,
  sok a2 -> a_root a2 = a_root a -> holds a (plug c_leaf cs') -> wft [] (plug c_leaf cs') -> NoDup (refs (plug c_leaf cs')) ->
  (forall x, art_deref a x <> None -> In x (refs (plug c_leaf cs'))) -> plug c_leaf cs' = t0 -> tref t0 = a_root a ->
  holds a2 t' -> wft (path cs') t' -> NoDup (refs t') -> step a (refs c_leaf) a2 (refs t') ->
  tref c_leaf = r0 -> i_depth it1 = zlen (path cs') -> (exists s, i_key it1 = path cs' ++ s) -> i_frames it1 = (r0, idx) :: fr' -> frs a cs' fr' ->
  exists a3 it3,
   (if negb (tref t' =? r0) then
      let it2 := IT (i_key it1) (i_val it1) (i_depth it1) (set_top (i_frames it1) (tref t', snd (hd (0, 0) (i_frames it1)))) in
      do (it3, up2) <- art_iterator_up a2 it2;
      if up2 then
        let gp := art_iterator_ref it3 in
        do gn <- art_deref a2 gp;
        do gchunk <- kget (i_key it3) (i_depth it3 + zlen (node_prefix gn));
        do gn' <- art_replace gn gchunk (tref t');
        Some (art_put a2 gp gn', it3)
      else Some (set_root a2 (tref t'), it3)
    else Some (a2, it1)) = Some (a3, it3) /\
   sok a3 /\ exists t3, tree a3 t3 /\ flat t3 = before cs' ++ flat t' ++ after cs'.
Proof.
  intros cl K2 R2 H W ND NL EP ER H' W' ND' ST Er Dp (s & Ks) Fr FF.
  destruct (Z.eqb_spec (tref t') r0) as [E|NE]; cbn [negb].
  - exists a2, it1. split; auto. split; auto. exists (plug t' cs').
    destruct (plug_lift cs' a cl a2 t') as (H3 & W3 & ND3 & ST3); auto; [congruence|].
    split; [|apply flat_plug]. split; [rewrite (tref_plug t' cl), EP by congruence; congruence|]. split; auto. split; auto. split; auto. eapply step_noleak; eauto.
  - cbv zeta. rewrite Fr. cbn [set_top tl hd snd]. destruct cs' as [|c' cs].
    + inversion FF; subst fr'. unfold art_iterator_up. cbn [i_frames]. cbn [obind]. eexists _, _. split; [reflexivity|]. split; [now apply sok_root|].
      exists t'. split; [|cbn; now rewrite app_nil_r]. apply tree_root; auto. eapply step_noleak; eauto.
    + inversion FF as [|x y xs fr (n' & Dn' & Ey) FF' Q1 Q2]; subst.
      destruct (inner_of _ _ _ _ H) as (n & Dn & Wn & P & Kn). rewrite Dn in Dn'. injection Dn' as <-.
      cbn [plug] in *. pose proof (holds_plug _ _ _ H) as Hf. pose proof (wft_plug _ _ W) as Wf. pose proof (NoDup_plug _ _ ND) as NDf.
      destruct c' as [r pre c1 k c2]. unfold fill in Hf, Wf, NDf. cbn [c_r c_pre c_l c_k c_rt] in *.
      pose proof Hf as Hf0. apply holds_TN in Hf0. destruct Hf0 as ((n0 & D0 & _ & Lo & _ & _) & Hc). rewrite Dn in D0. injection D0 as <-.
      apply allp_app in Hc. destruct Hc as (Hc1 & Ht & Hc2).
      assert (NDf' := NDf). rewrite refs_TN, refsl_app, refsl_cons in NDf'. apply NoDup_cons_iff in NDf'. destruct NDf' as [Nr NDx].
      apply NoDup_app_iff in NDx. destruct NDx as (_ & NDx & NDc). apply NoDup_app_iff in NDx. destruct NDx as (_ & _ & NDe). rewrite !in_app_iff in Nr.
      assert (NG : forall z, In z (r :: refsl c1 ++ refsl c2) -> ~ In z (refs cl)).
      { intros z Hz Hz'. cbn [In] in Hz; rewrite in_app_iff in Hz. destruct Hz as [<-|[Hz|Hz]].
        - tauto.
        - apply (NDc z Hz). apply in_or_app; auto.
        - apply (NDe z Hz' Hz). }
      destruct (step_keep _ _ _ _ (r :: refsl c1 ++ refsl c2) ST) as (KN & KD); auto.
      { intros z [<-|Hz]; [congruence|]. apply in_app_iff in Hz. destruct Hz as [Hz|Hz]; [exact (holdsl_live a c1 z Hc1 Hz)|exact (holdsl_live a c2 z Hc2 Hz)]. }
      assert (Dr : art_deref a2 r = Some n) by (rewrite KD by (now left); auto).
      unfold art_iterator_up. cbn [i_frames i_key i_val i_depth]. cbn [set_top tl]. rewrite Dr. cbn [obind]. unfold art_iterator_ref. cbn [i_frames hd fst i_key i_depth].
      rewrite Dr. cbn [obind]. rewrite P. cbn [path c_pre c_k] in Dp, Ks.
      replace (i_depth it1 - (zlen pre + 1) + zlen pre) with (zlen (path cs ++ pre)) by (rewrite Dp, !zlen_app; change (zlen [k]) with 1; lia).
      assert (EK : i_key it1 = (path cs ++ pre) ++ k :: s) by (rewrite Ks; now rewrite <- !app_assoc).
      rewrite EK, kget_app. cbn [obind].
      destruct (put_back_ok a2 r n c1 k cl c2 t') as (a3 & n3 & E3 & S3 & W3 & T3 & P3 & K3); auto; [now rewrite Kn, krefs_app, krefs_cons|apply (tref_nz _ _ H')|].
      unfold put_back in E3. replace (tref t' =? tref cl) with false in E3 by lia. cbn [negb] in E3. rewrite Dr in E3. cbn [obind] in E3.
      destruct (art_replace n k (tref t')) as [gn|] eqn:ER2; [|discriminate]. cbn [obind] in E3 |- *. injection E3 as E3. rewrite E3.
      destruct (child_lift a (refs cl) a2 (path cs) r pre c1 k cl c2 t' a3 n3) as (H4 & W4 & ND4 & ST4); auto.
      { rewrite (lo_ntype n3 n T3), K3. rewrite Kn in Lo. rewrite krefs_zlen, !zlen_app, !zlen_cons in *. rewrite !krefs_zlen in Lo. auto. }
      { congruence. }
      destruct S3 as (KS3 & RS3 & DS3).
      destruct (plug_lift cs a (TN r pre (c1 ++ (k, cl) :: c2)) a3 (TN r pre (c1 ++ (k, t') :: c2))) as (H5 & W5 & ND5 & ST5); auto.
      { apply ST4. intros z. rewrite refs_TN, refsl_app, refsl_cons. cbn [In]. rewrite !in_app_iff. tauto. }
      eexists _, _. split; [reflexivity|]. split; auto. exists (plug (TN r pre (c1 ++ (k, t') :: c2)) cs). split.
      * split; [rewrite (tref_plug _ (TN r pre (c1 ++ (k, cl) :: c2))) by reflexivity; change (TN r pre (c1 ++ (k, cl) :: c2)) with (fill (CF r pre c1 k c2) cl); congruence|].
        split; auto. split; auto. split; auto. eapply step_noleak; [exact ST5|]. exact NL.
      * rewrite flat_plug, flat_TN, flatl_app, flatl_cons. cbn [before after c_l c_rt]. now rewrite <- !app_assoc.
Qed.
Lemma arep_iterator_erase Q a it l k lf v r : arep a (l ++ (k, (lf, v)) :: r) -> ipos Q a it l ((k, (lf, v)) :: r) ->
  exists a' it', art_iterator_erase a it = Some (a', it', Some v) /\ arep a' (l ++ r) /\ ipos any a' it' l r.
Proof.
  intros A P. pose proof (arep_sorted _ _ A) as SO. pose proof (sorted_lsplit _ _ _ _ SO) as LS. pose proof (arep_keys _ _ _ _ A (in_elt _ _ _)) as K6.
  pose proof (arep_leaf_val _ _ _ _ _ A (in_elt _ _ _)) as LV. destruct (ipos_val _ _ _ _ _ _ _ _ P) as (EV & EK & NZ). pose proof A as (K & _).
  destruct P as [(_ & _ & EF & _)|(t & Tt & cs & P & AL & B & AF)]; [discriminate|]. pose proof Tt as (ER & H & W & ND & NL).
  unfold art_iterator_erase. rewrite EV. replace (lf =? 0) with false by lia. cbv zeta. rewrite LV. cbn [obind].
  destruct AL as (_ & _ & Dp & fr & Fr & FF). unfold art_iterator_ref at 1. rewrite Fr. cbn [hd fst].
  assert (HL : art_deref a lf = Some (NLeaf k v)) by (rewrite <- P in H; apply holds_plug in H; exact H).
  destruct (free_sto a lf _ K HL) as (a1 & E1 & S1 & _). rewrite E1. cbn [obind]. pose proof S1 as (K1 & R1 & D1).
  destruct cs as [|c cs].
  - inversion FF; subst fr. unfold art_iterator_up. rewrite Fr. cbn [obind negb]. cbn in B, AF. subst l r. eexists _, _. split; [reflexivity|].
    split; [|left; split; auto; split; auto; split; auto; split; [reflexivity|exact Logic.I]].
    split; [now apply sok_root|]. left. split; auto. split; auto. intros x. rewrite deref_root, D1. destruct (Z.eqb_spec x lf); auto.
    destruct (art_deref a x) eqn:Dx; auto. exfalso. apply n. assert (In x (refs t)) as Hx by (apply NL; congruence). rewrite <- P in Hx. destruct Hx as [Hx|[]]. auto.
  - inversion FF as [|x y xs fr' (n' & Dn' & Ey) FF' Q1 Q2]; subst fr. rewrite <- P in H, W, ND, NL, ER.
    destruct (inner_of _ _ _ _ H) as (n & Dn & Wn & Pn & Kn). rewrite Dn in Dn'. injection Dn' as <-.
    cbn [plug] in *. pose proof (holds_plug _ _ _ H) as Hf. pose proof (wft_plug _ _ W) as Wf. pose proof (NoDup_plug _ _ ND) as NDf.
    assert (Nlf : c_r c <> lf). { unfold fill in NDf. rewrite refs_TN, refsl_app, refsl_cons in NDf. apply NoDup_cons_iff in NDf. destruct NDf as [N _]. rewrite !in_app_iff in N. cbn in N. intuition congruence. }
    assert (Dn1 : art_deref a1 (c_r c) = Some n) by (rewrite (sto_other _ _ _ _ (c_r c) S1); auto).
    unfold art_iterator_up at 1. rewrite Fr. subst y. rewrite Dn1. cbn [obind negb]. unfold art_iterator_ref at 1 2. cbn [i_frames hd fst]. rewrite Dn1. cbn [obind i_key i_depth].
    assert (Wl : wft (path (c :: cs)) (TL lf k v)) by (apply (wft_plug (c :: cs)); exact W). destruct Wl as (L6 & B6 & s & Ek). cbn [path] in Ek, Dp.
    rewrite Pn. replace (i_depth it - (zlen (c_pre c) + 1) + zlen (c_pre c)) with (zlen (path cs ++ c_pre c)) by (rewrite Dp, !zlen_app; change (zlen [c_k c]) with 1; lia).
    assert (Ek' : i_key it = (path cs ++ c_pre c) ++ c_k c :: s) by (rewrite EK, Ek; now rewrite <- !app_assoc).
    rewrite Ek', kget_app. cbn [obind].
    destruct (drop_child a a1 (path cs) (c_r c) (c_pre c) (c_l c) (c_k c) lf k v (c_rt c) Hf Wf NDf S1) as (a2 & t' & E2 & K2 & R2 & H2 & W2 & ND2 & F2 & ST2).
    rewrite E2. cbn [obind]. rewrite <- Ek'.
    destruct (it_erase_body a a2 cs t t' (IT (i_key it) (i_val it) (i_depth it - (zlen (c_pre c) + 1)) ((c_r c, idx_of n (zlen (c_l c)) (c_k c)) :: fr'))
      (c_r c) (idx_of n (zlen (c_l c)) (c_k c)) fr' (fill c (TL lf k v))) as (a3 & it3 & E3 & K3 & t3 & T3 & F3); auto.
    { rewrite <- P; auto. } { cbn [i_depth]. rewrite Dp, !zlen_app. change (zlen [c_k c]) with 1. lia. } { cbn [i_key]. rewrite Ek'. exists (c_pre c ++ c_k c :: s). now rewrite <- !app_assoc. }
    cbv zeta in E3. cbn [i_key i_val i_depth i_frames] in E3.
    match goal with |- exists a' it', obind ?x _ = _ /\ _ => replace x with (Some (a3, it3)) by (symmetry; exact E3) end. cbn [obind].
    assert (FE : flat t3 = l ++ r). { rewrite F3, F2, <- B, <- AF. cbn [before after]. now rewrite <- !app_assoc. }
    assert (A3 : arep a3 (l ++ r)) by (split; auto; right; exists t3; auto).
    destruct (arep_lb any a3 (l ++ r) (it_rewind it3) k A3 (tree_nz _ _ T3) Logic.I Logic.I (rewind_atn a3 it3) K6) as (it4 & l4 & r4 & E4 & F4 & P4 & LS4).
    rewrite EK, E4. cbn [obind]. eexists _, _. split; [reflexivity|]. split; auto. destruct (lsplit_uniq k _ _ _ _ LS LS4 F4) as [-> ->]. exact P4.
Qed.
