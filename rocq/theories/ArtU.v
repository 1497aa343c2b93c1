(** ArtU: insertion into and removal from an ART. *)
From Verif Require Import Base BitUtil Art ArtS ArtN ArtW ArtT.
Local Opaque zr n48_pairs n256_pairs.

Lemma tsplit key (l : list (Z * T)) : incr (map fst l) -> ~ In key (map fst l) ->
  exists l1 l2, l = l1 ++ l2 /\ (forall x, In x (map fst l1) -> x < key) /\ (forall x, In x (map fst l2) -> key < x).
Proof.
  induction l as [|[k c] l IH]; cbn; intros H N.
  - exists [], []. cbn. tauto.
  - destruct H as [H1 H2]. rewrite Forall_forall in H1. assert (k <> key) by tauto.
    destruct (Z_lt_dec k key).
    + destruct IH as (l1 & l2 & -> & A & B); auto. exists ((k, c) :: l1), l2. cbn. split; auto. split; auto.
      intros x [<-|Hx]; auto.
    + exists [], ((k, c) :: l). cbn. split; auto. split; [tauto|]. intros x [<-|Hx]; [lia|]. apply H1 in Hx. lia.
Qed.
Lemma incr_mid l1 k l2 : incr (l1 ++ l2) -> (forall x, In x l1 -> x < k) -> (forall x, In x l2 -> k < x) -> incr (l1 ++ k :: l2).
Proof.
  rewrite !incr_app. intros (A & B & C) L R. split; auto. split; [split; auto; now apply Forall_forall|].
  intros x y Hx [<-|Hy]; auto.
Qed.
Lemma lo_ntype n n' : ntype n = ntype n' -> lo n = lo n'.
Proof. destruct n, n'; cbn; intros; try discriminate; auto. Qed.

(** a new leaf below an inner node *)
Lemma add_leaf_ok a r1 n pre ch p key b y leaf v :
  sok a -> art_deref a r1 = Some n -> wf n -> lo n <= zlen (kids n) + 1 -> node_prefix n = pre -> kids n = krefs ch ->
  holdsl a ch -> wftl (p ++ pre) ch -> 1 <= zlen ch -> zlen p + zlen pre < 6 -> bytes pre -> incr (map fst ch) -> inb 0 256 (map fst ch) ->
  key = p ++ pre ++ b :: y -> zlen key = 6 -> bytes key -> ~ In b (map fst ch) -> art_deref a leaf = Some (NLeaf key v) ->
  NoDup (r1 :: refsl ch) -> ~ In leaf (r1 :: refsl ch) ->
  exists a' r' c1 c2, art_node_insert_leaf a r1 b leaf = Some (a', r') /\ ch = c1 ++ c2 /\
    let t' := TN r' pre (c1 ++ (b, TL leaf key v) :: c2) in
    sok a' /\ a_root a' = a_root a /\ holds a' t' /\ wft p t' /\ NoDup (refs t') /\ step a (leaf :: r1 :: refsl ch) a' (refs t').
Proof.
  intros K D W Lo P Kn Hc Wc L1 Lp Bp I R Ek Lk Bk Nb Dl ND NL.
  assert (Bb : 0 <= b < 256) by (rewrite Ek in Bk; apply bytes_app in Bk; destruct Bk as [_ Bk]; apply bytes_app in Bk; destruct Bk as [_ Bk]; now inversion Bk).
  destruct (node_insert_ok a r1 n b leaf K D W Bb (deref_nz _ _ _ Dl)) as (a' & r' & n' & E & S & W' & P' & K' & LO).
  { now rewrite Kn, krefs_fst. }
  destruct (tsplit b ch I Nb) as (c1 & c2 & Ec & LL & RR). exists a', r', c1, c2. split; auto. split; auto.
  set (t' := TN r' pre (c1 ++ (b, TL leaf key v) :: c2)). cbv zeta. pose proof S as (KS & RS & FS & DS).
  pose proof (swap_step _ _ _ _ _ S) as ST.
  destruct (step_keep _ _ _ _ (leaf :: refsl ch) ST) as (KN & KD).
  { intros x [<-|Hx]; [congruence|]. eapply holdsl_live; eauto. }
  { intros x Hx [<-|[]]. destruct Hx as [<-|Hx]; [apply NL; now left|]. apply NoDup_cons_iff in ND. tauto. }
  assert (Ekr : kids n' = krefs (c1 ++ (b, TL leaf key v) :: c2)).
  { rewrite K', Kn, Ec. rewrite krefs_app. rewrite kins_split by (intros x; rewrite krefs_fst; auto). now rewrite krefs_app. }
  assert (RF : refs t' = r' :: refsl c1 ++ leaf :: refsl c2) by (unfold t'; rewrite refs_TN, refsl_app, refsl_cons; reflexivity).
  assert (RC : refsl ch = refsl c1 ++ refsl c2) by (now rewrite Ec, refsl_app).
  split; auto. split; auto. split; [|split; [|split]].
  - apply holds_TN. split.
    + exists n'. split; [apply (swap_at _ _ _ _ _ S)|]. split; auto. split; auto. split; [congruence|auto].
    + rewrite Ec in Hc. apply allp_app in Hc. destruct Hc as [Hc1 Hc2]. apply allp_app. split; [|split].
      * eapply holdsl_ext; [|exact Hc1]. intros x Hx. apply KD. right. rewrite RC. apply in_or_app; auto.
      * cbn [holds]. rewrite KD by (now left). exact Dl.
      * eapply holdsl_ext; [|exact Hc2]. intros x Hx. apply KD. right. rewrite RC. apply in_or_app; auto.
  - apply wft_TN. rewrite Ec in *. apply allp_app in Wc. destruct Wc as [Wc1 Wc2]. rewrite map_app in *. cbn [map fst].
    split; auto. split; auto. split; [now apply incr_mid|]. split.
    + apply inb_app in R. destruct R as [R1 R2]. apply inb_app. split; auto. now apply inb_cons.
    + split; [rewrite zlen_app, zlen_cons in *; lia|]. apply allp_app. split; auto. split; auto. cbn [wft]. split; auto. split; auto.
      exists y. rewrite Ek. now rewrite <- !app_assoc.
  - rewrite RF. apply NoDup_cons_iff in ND. destruct ND as [ND1 ND2]. rewrite RC in ND2, KN, NL.
    constructor.
    + intros Q. apply (KN r'); [|now left]. rewrite !in_app_iff in *. cbn in *. rewrite in_app_iff. tauto.
    + apply NoDup_Add with (a := leaf) (l := refsl c1 ++ refsl c2); [apply Add_app|]. split; auto. intros Q; apply NL; now right.
  - apply (step_frame _ _ _ _ (leaf :: refsl ch) _ _ ST).
    + intros x. cbn. tauto.
    + intros x. rewrite RF, RC. cbn. rewrite !in_app_iff. cbn. tauto.
Qed.

(** writing a changed child back into its parent *)
Definition put_back (a : art) (ref key_chunk child new_child : Z) : option (art * Z) :=
  if negb (new_child =? child) then
    do n1 <- art_deref a ref; do n2 <- art_replace n1 key_chunk new_child; Some (art_put a ref n2, ref)
  else Some (a, ref).
Lemma put_back_ok a r n c1 k t1 c2 t1' : sok a -> art_deref a r = Some n -> wf n -> kids n = krefs (c1 ++ (k, t1) :: c2) -> tref t1' <> 0 ->
  exists a2 n2, put_back a r k (tref t1) (tref t1') = Some (a2, r) /\ sto a r (Some n2) a2 /\ wf n2 /\ ntype n2 = ntype n /\
    node_prefix n2 = node_prefix n /\ kids n2 = krefs (c1 ++ (k, t1') :: c2).
Proof.
  intros K D W Kn N. unfold put_back. destruct (Z.eqb_spec (tref t1') (tref t1)) as [E|NE]; cbn [negb].
  - exists a, n. split; auto. split; [split; auto; split; auto; intros x; destruct (Z.eqb_spec x r); subst; auto|].
    split; auto. split; auto. split; auto. rewrite Kn. rewrite !krefs_app, !krefs_cons. now rewrite E.
  - rewrite D. cbn [obind]. rewrite krefs_app, krefs_cons in Kn.
    destruct (replace_kid n (krefs c1) k (tref t1) (krefs c2) (tref t1') W Kn N) as (n2 & E2 & K2 & W2 & P2 & T2).
    rewrite E2. cbn [obind]. eexists _, n2. split; [reflexivity|]. split; [eapply put_sto; eauto|]. split; auto. split; auto. split; auto.
    rewrite K2, krefs_app, krefs_cons. auto.
Qed.
Lemma child_lift a F1 a1 p r pre c1 k t1 c2 t1' a2 n2 :
  holds a (TN r pre (c1 ++ (k, t1) :: c2)) -> wft p (TN r pre (c1 ++ (k, t1) :: c2)) -> NoDup (refs (TN r pre (c1 ++ (k, t1) :: c2))) ->
  step a F1 a1 (refs t1') -> (forall x, In x (r :: refsl c1 ++ refsl c2) -> ~ In x F1) ->
  holds a1 t1' -> wft (p ++ pre ++ [k]) t1' -> NoDup (refs t1') ->
  sto a1 r (Some n2) a2 -> wf n2 -> lo n2 <= zlen (kids n2) -> node_prefix n2 = pre -> kids n2 = krefs (c1 ++ (k, t1') :: c2) ->
  let t' := TN r pre (c1 ++ (k, t1') :: c2) in
  holds a2 t' /\ wft p t' /\ NoDup (refs t') /\
  (forall H, (forall x, In x H <-> In x (r :: refsl c1 ++ refsl c2) \/ In x F1) -> step a H a2 (refs t')).
Proof.
  intros H W ND ST NF H1 W1 ND1 S2 Wn2 Lo2 P2 K2 t'.
  apply holds_TN in H. destruct H as ((n & D & Wn & Lo & P & Kn) & Hc). apply allp_app in Hc. destruct Hc as [Hc1 [Ht Hc2]].
  destruct (step_keep _ _ _ _ (r :: refsl c1 ++ refsl c2) ST) as (KN & KD); auto.
  { intros x [<-|Hx]; [congruence|]. apply in_app_iff in Hx. destruct Hx; [exact (holdsl_live a c1 x Hc1 H)|exact (holdsl_live a c2 x Hc2 H)]. }
  assert (RF : refs t' = r :: refsl c1 ++ refs t1' ++ refsl c2) by (unfold t'; now rewrite refs_TN, refsl_app, refsl_cons).
  rewrite refs_TN, refsl_app, refsl_cons in ND. apply NoDup_cons_iff in ND. destruct ND as [Nr ND].
  apply NoDup_app_iff in ND. destruct ND as (NDa & NDb & NDc). apply NoDup_app_iff in NDb. destruct NDb as (NDb & NDd & NDe).
  assert (KD2 : forall x, In x (refsl c1 ++ refsl c2) -> art_deref a2 x = art_deref a x).
  { intros x Hx. rewrite (sto_other _ _ _ _ x S2); [apply KD; now right|]. intros ->. apply Nr. rewrite !in_app_iff in *. tauto. }
  assert (NR1 : ~ In r (refs t1')) by (apply KN; now left).
  split; [|split; [|split]].
  - apply holds_TN. split; [exists n2; split; [apply (sto_at _ _ _ _ S2)|auto]|]. apply allp_app. split; [|split].
    + eapply holdsl_ext; [|exact Hc1]. intros x Hx. apply KD2. apply in_or_app; auto.
    + eapply holds_ext; [|exact H1]. intros x Hx. apply (sto_other _ _ _ _ x S2). congruence.
    + eapply holdsl_ext; [|exact Hc2]. intros x Hx. apply KD2. apply in_or_app; auto.
  - apply wft_TN in W. apply wft_TN. rewrite map_app in *. cbn [map fst] in *. destruct W as (A1 & A2 & A3 & A4 & A5 & A6).
    split; auto. split; auto. split; auto. split; auto. rewrite zlen_app, zlen_cons in *. split; auto.
    apply allp_app in A6. destruct A6 as (A6 & _ & A7). apply allp_app. split; auto. split; auto. now rewrite <- app_assoc.
  - rewrite RF. constructor.
    + rewrite !in_app_iff in *. tauto.
    + apply NoDup_app_iff. split; auto. split; [apply NoDup_app_iff; split; auto; split; auto|].
      * intros x Hx Hx'. apply (KN x); auto. right. apply in_or_app; auto.
      * intros x Hx Hx'. apply in_app_iff in Hx'. destruct Hx' as [Hx'|Hx'].
        -- apply (KN x); auto. right. apply in_or_app; auto.
        -- apply (NDc x Hx). apply in_or_app; auto.
  - intros HH EH. apply (step_trans a HH a1 (refs t')).
    + apply (step_frame _ _ _ _ _ _ _ ST EH). intros x. rewrite RF. cbn. rewrite !in_app_iff. tauto.
    + apply (sto_step _ _ _ _ _ S2). rewrite RF. now left.
Qed.

(** ** Insertion *)
Lemma insert_at_inner f a ref key depth leaf n : art_deref a ref = Some n -> wf n ->
  art_insert_at (S f) a ref key depth leaf =
  let pre := node_prefix n in
  let cp := art_common_prefix pre 0 (zlen pre) key depth KEY_BYTES in
  if negb (cp =? zlen pre) then
    do (a1, r4) <- art_node4_create a (zsub pre 0 cp);
    do (a2, _) <- art_node4_insert a1 r4 ref (znth pre cp);
    do n' <- art_deref a2 ref;
    let a3 := art_put a2 ref (set_prefix n' (zsub pre (cp + 1) (zlen pre - cp - 1))) in
    do kc <- kget key (cp + depth);
    art_node_insert_leaf a3 r4 kc leaf
  else
    do key_chunk <- kget key (depth + cp);
    let child := art_find_child n key_chunk in
    if negb (child =? NULL_REF) then
      do (a1, new_child) <- art_insert_at f a child key (depth + cp + 1) leaf;
      put_back a1 ref key_chunk child new_child
    else art_node_insert_leaf a ref key_chunk leaf.
Proof. intros D W. cbn [art_insert_at]. rewrite D. inner n; reflexivity. Qed.
Lemma insert_at_leaf f a ref key depth leaf lkey v : art_deref a ref = Some (NLeaf lkey v) ->
  art_insert_at (S f) a ref key depth leaf =
  let cp := art_common_prefix lkey depth KEY_BYTES key depth KEY_BYTES in
  do (a1, r1) <- art_node4_create a (zsub key depth cp);
  do lc <- kget lkey (depth + cp);
  do (a2, _) <- art_node_insert_leaf a1 r1 lc ref;
  do kc <- kget key (depth + cp);
  art_node_insert_leaf a2 r1 kc leaf.
Proof. intros D. cbn [art_insert_at]. rewrite D. reflexivity. Qed.
Lemma znth_app_here (c : list Z) a x : znth (c ++ a :: x) (zlen c) = a.
Proof. unfold znth, zlen. rewrite Nat2Z.id. apply nth_middle. Qed.
Lemma node4_leaf a r1 c k : art_ref_typecode r1 = 2 -> art_node_insert_leaf a r1 k c = art_node4_insert a r1 c k.
Proof. intros E. unfold art_node_insert_leaf. rewrite E. reflexivity. Qed.

Lemma insert_at_ok fuel : forall a t p s leaf v,
  sok a -> holds a t -> wft p t -> zlen (p ++ s) = 6 -> bytes (p ++ s) -> 6 < zlen p + Z.of_nat fuel ->
  NoDup (refs t) -> ~ In leaf (refs t) -> art_deref a leaf = Some (NLeaf (p ++ s) v) -> ~ In (p ++ s) (map fst (flat t)) ->
  exists a' t' l r, art_insert_at fuel a (tref t) (p ++ s) (zlen p) leaf = Some (a', tref t') /\
    sok a' /\ a_root a' = a_root a /\ holds a' t' /\ wft p t' /\ NoDup (refs t') /\
    flat t = l ++ r /\ flat t' = l ++ (p ++ s, (leaf, v)) :: r /\ step a (leaf :: refs t) a' (refs t').
Proof.
  induction fuel as [|f IH]; intros a t p s leaf v K H W L B F ND NL DL NK; [rewrite zlen_app in L; pose proof (zlen_nonneg s); lia|].
  pose proof (zlen_nonneg s) as Ls0. pose proof (zlen_nonneg p) as Lp0.
  destruct t as [r lk lv|r pre ch].
  - (* a leaf: split *)
    cbn [tref refs flat holds map In fst] in *. rewrite (insert_at_leaf f _ _ _ _ _ _ _ H). cbv zeta.
    destruct W as (Lk & Bk & s' & ->). unfold art_common_prefix. rewrite !zlen_app in L, Lk.
    rewrite (zsub_app p s' (KEY_BYTES - zlen p)), (zsub_app p s (KEY_BYTES - zlen p)) by (unfold KEY_BYTES; lia).
    destruct (common_split s' s) as (c & x' & y' & E1 & E2 & C & DD).
    assert (EX : exists x b x2 y2, x' = x :: x2 /\ y' = b :: y2 /\ x <> b).
    { destruct DD as [->|[->|DD]]; auto; exfalso; rewrite app_nil_r in *; apply NK; left; f_equal.
      - subst. rewrite zlen_app in L. rewrite (zlen_0_nil y') by lia. now rewrite app_nil_r.
      - subst. rewrite zlen_app in Lk. rewrite (zlen_0_nil x') by lia. now rewrite app_nil_r. }
    destruct EX as (x & b & x2 & y2 & -> & -> & Nxb). clear DD. rewrite <- C.
    assert (Ly2 : zlen p + zlen c + 1 + zlen y2 = 6) by (rewrite E2, zlen_app, zlen_cons in L; lia).
    pose proof (zlen_nonneg y2). pose proof (zlen_nonneg c).
    assert (EKey : p ++ s = p ++ c ++ b :: y2) by (now rewrite E2).
    assert (Z1 : zsub (p ++ s) (zlen p) (zlen c) = c) by (rewrite EKey; now apply zsub_mid). rewrite Z1.
    unfold art_node4_create. rewrite prefix_ok_yes by lia. cbn [obind].
    destruct (create_sto a (N4 c []) K) as (a1 & r1 & Ea1 & S1 & F1 & T1). rewrite Ea1. cbn [obind].
    assert (G1 : kget (p ++ s') (zlen p + zlen c) = Some x) by (rewrite E1, app_assoc, <- zlen_app; apply kget_app). rewrite G1. cbn [obind].
    pose proof S1 as (K1 & R1 & _). assert (Nr : r1 <> r) by congruence. assert (Nl : r1 <> leaf) by congruence.
    assert (Bx : 0 <= x < 256) by (rewrite E1 in Bk; apply bytes_app in Bk; destruct Bk as [_ Bk]; apply bytes_app in Bk; destruct Bk as [_ Bk]; now inversion Bk).
    assert (Bc : bytes c) by (rewrite E1 in Bk; apply bytes_app in Bk; destruct Bk as [_ Bk]; now apply bytes_app in Bk).
    destruct (room4 a1 r1 (N4 c []) x r K1 (sto_at _ _ _ _ S1) eq_refl) as (a2 & n2 & E2' & S2 & W2 & T2 & P2 & K2).
    { apply empty4. lia. } { cbn. unfold zlen; cbn; lia. } { auto. } { eapply deref_nz; eauto. } { cbn; tauto. }
    rewrite (node4_leaf _ _ _ _ T1), E2'. cbn [obind].
    assert (G2 : kget (p ++ s) (zlen p + zlen c) = Some b) by (rewrite EKey, app_assoc, <- zlen_app; apply kget_app). rewrite G2. cbn [obind].
    pose proof (sto_trans _ _ _ _ _ _ S1 S2) as S12. pose proof S12 as (K12 & R12 & D12).
    cbn [kids kins] in K2.
    destruct (add_leaf_ok a2 r1 n2 c [(x, TL r (p ++ s') lv)] p (p ++ s) b y2 leaf v) as (a3 & r3 & c1 & c2 & E3 & Ec & K3 & R3 & H3 & W3 & ND3 & ST3); auto.
    { apply (sto_at _ _ _ _ S2). } { rewrite K2. destruct n2; (discriminate || (cbn; unfold zlen; cbn; lia)). }
    { split; [|exact I]. cbn [holds]. rewrite (sto_other _ _ _ _ r S12); congruence. }
    { split; [|exact I]. cbn [wft]. split; [rewrite zlen_app; lia|]. split; [exact Bk|]. exists x2. rewrite E1. now rewrite <- !app_assoc. }
    { unfold zlen; cbn; lia. } { lia. } { cbn. split; constructor. } { cbn. constructor; [lia|constructor]. }
    { rewrite zlen_app; lia. } { cbn. intuition congruence. }
    { rewrite (sto_other _ _ _ _ leaf S12) by congruence. exact DL. }
    { cbn. constructor; [cbn; intuition congruence|]. constructor; [tauto|constructor]. }
    { cbn. intuition congruence. }
    exists a3, (TN r3 c (c1 ++ (b, TL leaf (p ++ s) v) :: c2)), (flatl c1), (flatl c2). cbn [tref]. split; auto. split; auto.
    split; [congruence|]. split; auto. split; auto. split; auto. split; [rewrite <- flatl_app, <- Ec; reflexivity|].
    split; [rewrite flat_TN, flatl_app, flatl_cons; reflexivity|].
    eapply step_trans; [|exact ST3]. split; [|split].
    + intros z Hz Hz'. cbn in Hz'. apply (sto_other _ _ _ _ z S12). intuition congruence.
    + intros z Hz Hz'. cbn in Hz, Hz'. assert (z = r1) by intuition congruence. subst. auto.
    + intros z Hz Hz'. cbn in *. tauto.
  - apply holds_TN in H. pose proof H as ((n & D & Wn & Lo & P & Kn) & Hc). cbn [tref]. rewrite (insert_at_inner f _ _ _ _ _ n D Wn).
    pose proof W as W0. apply wft_TN in W0. destruct W0 as (Lp & Bp & I & R & L2 & Wc). cbv zeta. rewrite P, ccp_pre by auto.
    assert (Ls : zlen pre < zlen s) by (rewrite zlen_app in L; lia).
    destruct (prefix_cases pre s Ls) as [(E & k & s' & ->)|(E & c & a0 & b & x & y & -> & -> & Nab & C)].
    + rewrite E, Z.eqb_refl. cbn [negb]. rewrite app_assoc in *. rewrite <- zlen_app, kget_app. cbn [obind].
      assert (Bk : 0 <= k < 256) by (apply bytes_app in B; destruct B as [_ B]; now inversion B).
      destruct (in_dec Z.eq_dec k (map fst ch)) as [Hk|Hk].
      * destruct (ch_split _ _ Hk) as (c1 & t & c2 & ->). destruct (T_children_incr _ _ _ _ _ _ _ W) as (_ & LL & RR & Wt & Wc1 & Wc2 & _).
        apply allp_app in Hc. destruct Hc as [Hc1 [Ht Hc2]].
        rewrite (find_child_in n k (tref t)); [|auto|rewrite Kn, krefs_app, krefs_cons; apply in_elt].
        pose proof (tref_nz _ _ Ht). unfold NULL_REF. replace (tref t =? 0) with false by lia. cbn [negb].
        assert (ND' := ND). rewrite refs_TN, refsl_app, refsl_cons in ND'. apply NoDup_cons_iff in ND'. destruct ND' as [Nr ND'].
        apply NoDup_app_iff in ND'. destruct ND' as (NDa & NDb & NDc). apply NoDup_app_iff in NDb. destruct NDb as (NDb & NDd & NDe).
        rewrite refs_TN, refsl_app, refsl_cons in NL. cbn [In] in NL. rewrite !in_app_iff in NL, Nr.
        assert (EK : ((p ++ pre) ++ [k]) ++ s' = (p ++ pre) ++ k :: s') by (now rewrite <- app_assoc).
        destruct (IH a t ((p ++ pre) ++ [k]) s' leaf v) as (a1 & t1 & l & r0 & E1 & K1 & R1 & H1 & W1 & ND1 & F0 & F1 & ST); try rewrite EK; auto.
        { now rewrite <- app_assoc. }
        { rewrite !zlen_app. change (zlen [k]) with 1. pose proof (zlen_nonneg pre). lia. }
        { tauto. }
        { intros Q. apply NK. rewrite flat_TN, flatl_app, flatl_cons, !map_app, !in_app_iff. auto. }
        rewrite EK in E1, F1. replace (zlen (p ++ pre) + 1) with (zlen ((p ++ pre) ++ [k])) by (rewrite !zlen_app; reflexivity).
        rewrite E1. cbn [obind].
        destruct (step_keep _ _ _ _ (r :: refsl c1 ++ refsl c2) ST) as (KN & KD).
        { intros z [<-|Hz]; [congruence|]. apply in_app_iff in Hz. destruct Hz as [Hz|Hz]; [exact (holdsl_live a c1 z Hc1 Hz)|exact (holdsl_live a c2 z Hc2 Hz)]. }
        { intros z Hz [<-|Hz']; cbn [In] in Hz; rewrite in_app_iff in Hz; [tauto|]. destruct Hz as [<-|[Hz|Hz]].
          - tauto.
          - apply (NDc z Hz). apply in_or_app; auto.
          - apply (NDe z Hz' Hz). }
        destruct (put_back_ok a1 r n c1 k t c2 t1) as (a2 & n2 & E2 & S2 & W2 & T2 & P2 & K2); auto.
        { rewrite KD by (now left). exact D. } { eapply tref_nz; eauto. }
        rewrite E2.
        destruct (child_lift a (leaf :: refs t) a1 p r pre c1 k t c2 t1 a2 n2) as (H3 & W3 & ND3 & ST3); auto.
        { apply holds_TN. exact H. }
        { intros z Hz [<-|Hz']; cbn [In] in Hz; rewrite in_app_iff in Hz; [tauto|]. destruct Hz as [<-|[Hz|Hz]].
          - tauto.
          - apply (NDc z Hz). apply in_or_app; auto.
          - apply (NDe z Hz' Hz). }
        { now rewrite <- app_assoc in W1. }
        { rewrite (lo_ntype n2 n T2), K2. rewrite Kn in Lo. rewrite krefs_zlen, zlen_app, zlen_cons in *. auto. }
        { congruence. }
        exists a2, (TN r pre (c1 ++ (k, t1) :: c2)), (flatl c1 ++ l), (r0 ++ flatl c2). cbn [tref]. split; auto.
        pose proof S2 as (KS2 & RS2 & _). split; auto. split; [congruence|]. split; auto. split; auto. split; auto.
        rewrite !flat_TN, !flatl_app, !flatl_cons, F0, F1. split; [now rewrite <- !app_assoc|]. split; [now rewrite <- !app_assoc|].
        apply ST3. intros z. rewrite refs_TN, refsl_app, refsl_cons. cbn [In]. rewrite !in_app_iff. cbn [In]. tauto.
      * rewrite find_child_out; auto; [|rewrite Kn, krefs_fst; auto]. unfold NULL_REF. cbn [Z.eqb negb].
        destruct (add_leaf_ok a r n pre ch p ((p ++ pre) ++ k :: s') k s' leaf v) as (a3 & r3 & c1 & c2 & E3 & Ec & K3 & R3 & H3 & W3 & ND3 & ST3); auto; try lia.
        { now rewrite <- app_assoc. }
        exists a3, (TN r3 pre (c1 ++ (k, TL leaf ((p ++ pre) ++ k :: s') v) :: c2)), (flatl c1), (flatl c2). cbn [tref]. split; auto.
        split; auto. split; auto. split; auto. split; auto. split; auto. split; [rewrite flat_TN, Ec; apply flatl_app|].
        split; [rewrite flat_TN, flatl_app, flatl_cons; reflexivity|]. exact ST3.
    + replace (common (c ++ a0 :: x) (c ++ b :: y) =? zlen (c ++ a0 :: x)) with false by lia. cbn [negb]. rewrite <- C.
      assert (Lc : zlen (c ++ a0 :: x) = zlen c + 1 + zlen x) by (rewrite zlen_app, zlen_cons; lia). rewrite Lc.
      pose proof (zlen_nonneg c). pose proof (zlen_nonneg x).
      rewrite zsub_pre by auto. unfold art_node4_create. rewrite prefix_ok_yes by lia. cbn [obind].
      destruct (create_sto a (N4 c []) K) as (a1 & r1 & Ea1 & S1 & F1 & T1). rewrite Ea1. cbn [obind].
      pose proof S1 as (K1 & R1 & _). assert (Nr : r1 <> r) by congruence. assert (Nl : r1 <> leaf) by congruence.
      apply bytes_app in Bp. destruct Bp as [Bc Bp]. inversion Bp as [|? ? Ba Bx]; subst.
      rewrite znth_app_here.
      destruct (room4 a1 r1 (N4 c []) a0 r K1 (sto_at _ _ _ _ S1) eq_refl) as (a2 & n2 & E2' & S2 & W2 & T2 & P2 & K2).
      { apply empty4. lia. } { cbn. unfold zlen; cbn; lia. } { auto. } { eapply deref_nz; eauto. } { cbn; tauto. }
      rewrite E2'. cbn [obind]. pose proof (sto_trans _ _ _ _ _ _ S1 S2) as S12. pose proof S12 as (K12 & R12 & D12).
      assert (D2 : art_deref a2 r = Some n) by (rewrite (sto_other _ _ _ _ r S12); congruence). rewrite D2. cbn [obind].
      assert (Z2 : zsub (c ++ a0 :: x) (zlen c + 1) (zlen c + 1 + zlen x - zlen c - 1) = x).
      { replace (c ++ a0 :: x) with ((c ++ [a0]) ++ x) by (now rewrite <- app_assoc). replace (zlen c + 1) with (zlen (c ++ [a0])) by (rewrite zlen_app; reflexivity).
        apply zsub_app. rewrite zlen_app. change (zlen [a0]) with 1. lia. }
      rewrite Z2.
      assert (G2 : kget (p ++ c ++ b :: y) (zlen c + zlen p) = Some b) by (rewrite app_assoc, Z.add_comm, <- zlen_app; apply kget_app).
      rewrite G2. cbn [obind]. set (n3 := set_prefix n x). pose proof (put_sto a2 r n n3 K12 D2 (ntype_set_prefix _ _)) as S3.
      pose proof S3 as (K3 & R3 & D3). set (a3 := art_put a2 r n3) in *.
      assert (W3 : wf n3) by (apply wf_set_prefix; auto; lia).
      assert (Dx : forall z, z <> r -> z <> r1 -> art_deref a3 z = art_deref a z).
      { intros z N1 N2. rewrite (sto_other _ _ _ _ z S3), (sto_other _ _ _ _ z S12); auto. }
      rewrite refs_TN in ND, NL. apply NoDup_cons_iff in ND. destruct ND as [Nrc NDc]. cbn [In] in NL.
      assert (NRc : ~ In r1 (refsl ch)) by (intros Q; eapply holdsl_live in Q; eauto).
      cbn [kids kins] in K2.
      destruct (add_leaf_ok a3 r1 n2 c [(a0, TN r x ch)] p (p ++ c ++ b :: y) b y leaf v) as (a4 & r4 & c1 & c2 & E4 & Ec & K4 & R4 & H4 & W4 & ND4 & ST4); auto.
      { rewrite (sto_other _ _ _ _ r1 S3) by auto. apply (sto_at _ _ _ _ S2). } { rewrite K2. destruct n2; (discriminate || (cbn; unfold zlen; cbn; lia)). }
      { split; [|exact Logic.I]. apply holds_TN. split.
        - exists n3. split; [apply (sto_at _ _ _ _ S3)|]. split; auto. unfold n3. rewrite lo_set_prefix, kids_set_prefix, prefix_set_prefix; auto.
        - eapply holdsl_ext; [|exact Hc]. intros z Hz. apply Dx; congruence. }
      { split; [|exact Logic.I]. apply wft_TN. rewrite !zlen_app in *. change (zlen [a0]) with 1. rewrite zlen_cons in *. split; [lia|]. split; auto. split; auto. split; auto. split; auto.
        rewrite <- !app_assoc. exact Wc. }
      { unfold zlen; cbn; lia. } { lia. } { cbn. split; constructor. } { cbn. constructor; [lia|constructor]. }
      { cbn. intuition congruence. }
      { rewrite Dx; [exact DL|intuition congruence|congruence]. }
      { rewrite refsl_cons, refs_TN. cbn [app]. change (refsl []) with (@nil Z). rewrite app_nil_r. constructor; [cbn; intuition congruence|]. constructor; auto. }
      { rewrite refsl_cons, refs_TN. cbn [app]. change (refsl []) with (@nil Z). rewrite app_nil_r. cbn [In]. intuition congruence. }
      exists a4, (TN r4 c (c1 ++ (b, TL leaf (p ++ c ++ b :: y) v) :: c2)), (flatl c1), (flatl c2). cbn [tref]. split; auto. split; auto.
      split; [congruence|]. split; auto. split; auto. split; auto.
      split. { rewrite <- flatl_app, <- Ec. rewrite flatl_cons, !flat_TN. change (flatl []) with (@nil entry). now rewrite app_nil_r. }
      split; [rewrite flat_TN, flatl_app, flatl_cons; reflexivity|].
      eapply step_trans; [|exact ST4]. rewrite refsl_cons, !refs_TN. cbn [app]. change (refsl []) with (@nil Z). rewrite app_nil_r. split; [|split].
      * intros z Hz Hz'. cbn [In] in *. apply Dx; intuition congruence.
      * intros z Hz Hz'. cbn [In] in *. assert (z = r1) by intuition congruence. subst. auto.
      * intros z Hz Hz'. cbn [In] in *. intuition congruence.
Qed.

(** ** Removal *)
Lemma drop_child a a1 p r pre c1 k lf key v c2 :
  let t := TN r pre (c1 ++ (k, TL lf key v) :: c2) in
  holds a t -> wft p t -> NoDup (refs t) -> sto a lf None a1 ->
  exists a2 t', art_node_erase a1 r k = Some (a2, tref t') /\ sok a2 /\ a_root a2 = a_root a /\ holds a2 t' /\ wft p t' /\ NoDup (refs t') /\
    flat t' = flatl c1 ++ flatl c2 /\ step a (refs t) a2 (refs t').
Proof.
  intros t H W ND S1. unfold t in *. apply holds_TN in H. destruct H as ((n & D & Wn & Lo & P & Kn) & Hc).
  apply allp_app in Hc. destruct Hc as [Hc1 [Ht Hc2]]. destruct (T_children_incr _ _ _ _ _ _ _ W) as (Bk & LL & RR & Wt & Wc1 & Wc2 & Lp & Bp).
  apply wft_TN in W. destruct W as (_ & _ & I & R & L2 & _). pose proof S1 as (K1 & R1 & D1).
  rewrite refs_TN, refsl_app, refsl_cons in ND. cbn [refs app] in ND. apply NoDup_cons_iff in ND. destruct ND as [Nr ND].
  apply NoDup_remove in ND. destruct ND as [ND Nlf]. rewrite in_app_iff in Nr. cbn [In] in Nr.
  assert (Nrl : r <> lf) by intuition congruence.
  assert (Dn : art_deref a1 r = Some n) by (rewrite (sto_other _ _ _ _ r S1); auto).
  assert (Hc : holdsl a1 (c1 ++ c2)).
  { apply (holdsl_ext a); [|apply allp_app; auto]. intros x Hx. rewrite refsl_app in Hx. apply (sto_other _ _ _ _ x S1). congruence. }
  assert (Wc : wftl (p ++ pre) (c1 ++ c2)) by (apply allp_app; auto).
  pose proof Kn as Kn'. rewrite krefs_app, krefs_cons in Kn'. cbn [tref] in Kn'.
  rewrite map_app in I, R. cbn [map fst] in I, R.
  assert (I' : incr (map fst (c1 ++ c2))).
  { rewrite map_app. apply incr_app in I. destruct I as (I1 & [_ I2] & I3). apply incr_app. split; auto. split; auto. intros; apply I3; auto. now right. }
  assert (R' : inb 0 256 (map fst (c1 ++ c2))).
  { rewrite map_app. apply inb_app in R. destruct R as [Q1 Q2]. apply inb_cons in Q2. apply inb_app. tauto. }
  assert (RT : refs (TN r pre (c1 ++ (k, TL lf key v) :: c2)) = r :: refsl c1 ++ lf :: refsl c2) by (rewrite refs_TN, refsl_app, refsl_cons; reflexivity).
  rewrite RT.
  assert (ND' : NoDup (refsl (c1 ++ c2))) by (rewrite refsl_app; exact ND).
  assert (Nr' : ~ In r (refsl (c1 ++ c2))) by (rewrite refsl_app, in_app_iff; tauto).
  assert (Nl' : ~ In lf (refsl (c1 ++ c2))) by (rewrite refsl_app; exact Nlf).
  destruct (Z_lt_dec (zlen (c1 ++ c2)) 2) as [LT|GE].
  - assert (exists k' t2, c1 ++ c2 = [(k', t2)]) as (k' & t2 & E1).
    { rewrite zlen_app, zlen_cons in L2. rewrite zlen_app in LT. destruct (c1 ++ c2) as [|[k' t2] [|x l]] eqn:E; [| |].
      - pose proof (f_equal zlen E) as Q. rewrite zlen_app in Q. unfold zlen at 3 in Q. cbn in Q. lia.
      - eauto.
      - pose proof (f_equal zlen E) as Q. rewrite zlen_app, !zlen_cons in Q. pose proof (zlen_nonneg l). lia. }
    rewrite E1 in *. destruct Hc as [H2 _]. destruct Wc as [W2 _]. cbn [map fst] in *. rewrite refsl_cons in *. change (refsl []) with (@nil Z) in *. rewrite app_nil_r in *.
    assert (Bk' : 0 <= k' < 256) by (inversion R'; auto).
    assert (Ekr : krefs c1 ++ krefs c2 = [(k', tref t2)]) by (rewrite <- krefs_app, E1; reflexivity).
    assert (FL : flatl c1 ++ flatl c2 = flat t2) by (rewrite <- flatl_app, E1, flatl_cons; apply app_nil_r).
    assert (RL : refsl c1 ++ refsl c2 = refs t2) by (rewrite <- refsl_app, E1, refsl_cons; apply app_nil_r).
    destruct t2 as [r2 k2 v2|r2 pre2 ch2].
    + destruct (node_erase_collapse a1 r n (krefs c1) k lf (krefs c2) k' r2 K1 Dn Wn Lo Kn' Ekr) as (a2 & E2 & K2 & R2 & D2).
      { intros ->. apply Nr'. now left. } { left. cbn [holds] in H2. eauto. }
      exists a2, (TL r2 k2 v2). cbn [tref]. split; auto. split; auto. split; [congruence|]. cbn [holds] in H2.
      assert (r2 <> r) by (intros ->; apply Nr'; now left).
      split; [cbn [holds]; rewrite D2, H2; replace (r2 =? r) with false by lia; now rewrite Z.eqb_refl|].
      split; [cbn [wft] in *; destruct W2 as (A & B & s & ->); split; auto; split; auto; exists (pre ++ [k'] ++ s); now rewrite <- !app_assoc|].
      split; auto. split; auto. split; [|split]; intros x Hx Hx'; cbn [In refs] in *; rewrite ?in_app_iff in *; cbn [In] in *.
      * rewrite D2. destruct (Z.eqb_spec x r); [subst; tauto|]. destruct (Z.eqb_spec x r2); [subst; tauto|]. rewrite (sto_other _ _ _ _ x S1); auto; intuition congruence.
      * exfalso. destruct Hx as [<-|[]]. apply Hx'. right. assert (In r2 (refsl c1 ++ refsl c2)) as Q by (rewrite RL; now left). apply in_app_iff in Q. tauto.
      * rewrite D2. destruct (Z.eqb_spec x r); auto. destruct (Z.eqb_spec x r2); [subst; tauto|]. destruct Hx as [Hx|[Hx|[Hx|Hx]]]; [congruence| | |].
        -- exfalso. assert (In x (refsl c1 ++ refsl c2)) as Q by (apply in_or_app; auto). rewrite RL in Q. cbn in Q. tauto.
        -- subst. apply (sto_at _ _ _ _ S1).
        -- exfalso. assert (In x (refsl c1 ++ refsl c2)) as Q by (apply in_or_app; auto). rewrite RL in Q. cbn in Q. tauto.
    + apply holds_TN in H2. destruct H2 as ((m & Dm & Wm & Lm & Pm & Km) & Hc'). apply wft_TN in W2. destruct W2 as (Lq & Bq & Iq & Rq & Nq & Wq).
      rewrite !zlen_app in Lq. change (zlen [k']) with 1 in Lq.
      destruct (node_erase_collapse a1 r n (krefs c1) k lf (krefs c2) k' r2 K1 Dn Wn Lo Kn' Ekr) as (a2 & E2 & K2 & R2 & D2).
      { intros ->. apply Nr'. now left. } { right. exists m. split; auto. split; auto. rewrite P, Pm. pose proof (zlen_nonneg p). lia. }
      rewrite refs_TN in *. assert (Nr2 : r2 <> r) by (intros ->; apply Nr'; now left).
      assert (D2' : art_deref a2 r2 = Some (set_prefix m (pre ++ k' :: pre2))).
      { rewrite D2, Dm, P, Pm. replace (r2 =? r) with false by lia. rewrite Z.eqb_refl. inner m; reflexivity. }
      assert (Dx : forall x, x <> r -> x <> r2 -> x <> lf -> art_deref a2 x = art_deref a x).
      { intros x A1 A2 A3. rewrite D2. replace (x =? r) with false by lia. replace (x =? r2) with false by lia. apply (sto_other _ _ _ _ x S1); auto. }
      apply NoDup_cons_iff in ND'. destruct ND' as [Nr2c NDc2].
      exists a2, (TN r2 (pre ++ k' :: pre2) ch2). cbn [tref]. split; auto. split; auto. split; [congruence|]. split; [|split; [|split; [|split]]].
      * apply holds_TN. split.
        -- exists (set_prefix m (pre ++ k' :: pre2)). split; auto. split; [apply wf_set_prefix; auto; rewrite zlen_app, zlen_cons; pose proof (zlen_nonneg p); lia|].
           rewrite lo_set_prefix, kids_set_prefix, prefix_set_prefix; auto.
        -- eapply holdsl_ext; [|exact Hc']. intros x Hx. rewrite D2. cbn [In] in Nr'. destruct (Z.eqb_spec x r); [subst; tauto|]. destruct (Z.eqb_spec x r2); [subst; tauto|auto].
      * apply wft_TN. rewrite zlen_app, zlen_cons. split; [lia|]. split; [apply bytes_app; split; auto; constructor; auto|]. split; auto. split; auto. split; auto.
        rewrite <- !app_assoc in Wq. exact Wq.
      * rewrite refs_TN. constructor; auto.
      * rewrite flat_TN in *. auto.
      * rewrite refs_TN. split; [|split]; intros x Hx Hx'; cbn [In] in *; rewrite ?in_app_iff in *; cbn [In] in *.
        -- apply Dx; intuition congruence.
        -- exfalso. apply Hx'. right. assert (In x (refsl c1 ++ refsl c2)) as Q by (rewrite RL; exact Hx). apply in_app_iff in Q. tauto.
        -- rewrite D2. destruct (Z.eqb_spec x r); auto. destruct (Z.eqb_spec x r2); [subst; tauto|]. destruct Hx as [Hx|[Hx|[Hx|Hx]]]; [congruence| | |].
           ++ exfalso. assert (In x (refsl c1 ++ refsl c2)) as Q by (apply in_or_app; auto). rewrite RL in Q. cbn in Q. tauto.
           ++ subst. apply (sto_at _ _ _ _ S1).
           ++ exfalso. assert (In x (refsl c1 ++ refsl c2)) as Q by (apply in_or_app; auto). rewrite RL in Q. cbn in Q. tauto.
  - destruct (node_erase_ok a1 r n (krefs c1) k lf (krefs c2) K1 Dn Wn Lo Kn') as (a2 & r2 & n2 & E2 & S2 & W2 & P2 & K2 & Lo2).
    { rewrite <- krefs_app, krefs_zlen. lia. }
    pose proof (swap_step _ _ _ _ _ S2) as ST. pose proof S2 as (KS & RS & FS & DS).
    destruct (step_keep _ _ _ _ (refsl (c1 ++ c2)) ST) as (KN & KD).
    { intros x Hx. eapply holdsl_live; eauto. } { intros x Hx [<-|[]]. auto. }
    exists a2, (TN r2 pre (c1 ++ c2)). cbn [tref]. split; auto. split; auto. split; [congruence|]. split; [|split; [|split; [|split]]].
    + apply holds_TN. split.
      * exists n2. split; [apply (swap_at _ _ _ _ _ S2)|]. split; auto. split; auto. split; [congruence|]. now rewrite krefs_app.
      * eapply holdsl_ext; [|exact Hc]. auto.
    + apply wft_TN. split; auto. split; auto. split; auto. split; auto. split; [lia|auto].
    + rewrite refs_TN. constructor; auto. intros Q. apply (KN r2); auto. now left.
    + rewrite flat_TN, flatl_app. auto.
    + rewrite refs_TN. apply (step_trans a _ a1 (r :: refsl c1 ++ refsl c2)).
      * split; [|split]; intros x Hx Hx'; cbn [In] in *; rewrite ?in_app_iff in *; cbn [In] in *.
        -- apply (sto_other _ _ _ _ x S1). intuition congruence.
        -- exfalso. tauto.
        -- assert (x = lf) by intuition congruence. subst. apply (sto_at _ _ _ _ S1).
      * apply (step_frame _ _ _ _ (refsl (c1 ++ c2)) _ _ ST); intros x; rewrite refsl_app; cbn; rewrite ?in_app_iff; tauto.
Qed.
Lemma erase_at_inner f a ref key depth n : art_deref a ref = Some n -> wf n ->
  art_erase_at (S f) a ref key depth =
  let pre := node_prefix n in
  let cp := art_common_prefix pre 0 (zlen pre) key depth KEY_BYTES in
  if negb (cp =? zlen pre) then Some (a, NULL_REF, None)
  else
    do key_chunk <- kget key (depth + cp);
    let child := art_find_child n key_chunk in
    if child =? NULL_REF then Some (a, NULL_REF, None)
    else
      do (a1, rootmost, v) <- art_erase_at f a child key (depth + cp + 1);
      match v with
      | None => Some (a1, NULL_REF, None)
      | Some _ =>
        do (a2, r2) <- (if rootmost =? NULL_REF then art_node_erase a1 ref key_chunk else put_back a1 ref key_chunk child rootmost);
        Some (a2, r2, v)
      end.
Proof.
  intros D W. cbn [art_erase_at]. rewrite D. unfold put_back.
  inner n; cbn [obind]; cbv zeta; destruct (negb _); auto;
   (match goal with |- obind ?x _ = _ => destruct x; cbn [obind]; auto end);
   (match goal with |- (if ?x then _ else _) = _ => destruct x; cbn [obind]; auto end);
   (match goal with |- obind ?x _ = _ => destruct x as [[[? ?] [?|]]|]; cbn [obind]; auto end);
   (match goal with |- (if ?x then _ else _) = _ => destruct x; cbn [obind]; auto end);
   (match goal with |- (if ?x then _ else _) = _ => destruct x; cbn [obind]; auto end);
   (match goal with |- obind ?x _ = _ => destruct x; cbn [obind]; auto end);
   (match goal with |- obind ?x _ = _ => destruct x; cbn [obind]; auto end).
Qed.
Lemma erase_at_miss fuel : forall a t p s, holds a t -> wft p t -> zlen (p ++ s) = 6 -> bytes (p ++ s) -> 6 < zlen p + Z.of_nat fuel ->
  ~ In (p ++ s) (map fst (flat t)) -> art_erase_at fuel a (tref t) (p ++ s) (zlen p) = Some (a, NULL_REF, None).
Proof.
  induction fuel as [|f IH]; intros a t p s H W L B F NK; [rewrite zlen_app in L; pose proof (zlen_nonneg s); lia|].
  destruct t as [r k v|r pre ch].
  - cbn [holds tref flat] in *. cbn [art_erase_at]. rewrite H. cbn [obind]. destruct W as (Lk & Bk & s' & Ek).
    rewrite ccp_full by auto. unfold KEY_BYTES. destruct (Z.eqb_spec (common k (p ++ s)) 6) as [E|E]; auto. exfalso. apply NK. left. cbn. apply common_full; lia.
  - apply holds_TN in H. destruct H as ((n & D & Wn & Lo & P & Kn) & Hc). cbn [tref]. rewrite (erase_at_inner f a r _ _ n D Wn). cbv zeta.
    pose proof W as W0. apply wft_TN in W0. destruct W0 as (Lp & Bp & I & R & L2 & Wc).
    assert (Ls : zlen pre < zlen s) by (rewrite zlen_app in L; lia).
    rewrite P, ccp_pre by auto. destruct (prefix_cases pre s Ls) as [(E & k & s' & ->)|(E & c & a0 & b & x & y & -> & -> & Nab & _)].
    + rewrite E, Z.eqb_refl. cbn [negb]. rewrite app_assoc in *. rewrite <- zlen_app, kget_app. cbn [obind].
      assert (Bk : 0 <= k < 256) by (apply bytes_app in B; destruct B as [_ B]; now inversion B).
      destruct (in_dec Z.eq_dec k (map fst ch)) as [Hk|Hk].
      * destruct (ch_split _ _ Hk) as (c1 & t & c2 & ->). destruct (T_children_incr _ _ _ _ _ _ _ W) as (_ & L1 & R1 & Wt & Wc1 & Wc2 & _).
        apply allp_app in Hc. destruct Hc as [Hc1 [Ht Hc2]].
        rewrite (find_child_in n k (tref t)); [|auto|rewrite Kn, krefs_app, krefs_cons; apply in_elt].
        pose proof (tref_nz _ _ Ht). unfold NULL_REF. replace (tref t =? 0) with false by lia.
        assert (EK : ((p ++ pre) ++ [k]) ++ s' = (p ++ pre) ++ k :: s') by (now rewrite <- app_assoc).
        pose proof (IH a t ((p ++ pre) ++ [k]) s') as X. rewrite EK in X.
        replace (zlen (p ++ pre) + 1) with (zlen ((p ++ pre) ++ [k])) by (rewrite !zlen_app; reflexivity).
        rewrite X; auto.
        { now rewrite <- app_assoc. } { rewrite !zlen_app. change (zlen [k]) with 1. pose proof (zlen_nonneg pre). lia. }
        { intros Q. apply NK. rewrite flat_TN, flatl_app, flatl_cons, !map_app, !in_app_iff. auto. }
      * rewrite find_child_out; auto. rewrite Kn, krefs_fst; auto.
    + replace (common (c ++ a0 :: x) (c ++ b :: y) =? zlen (c ++ a0 :: x)) with false by lia. auto.
Qed.
Lemma erase_at_hit fuel : forall a t p s lf v, sok a -> holds a t -> wft p t -> NoDup (refs t) -> zlen (p ++ s) = 6 -> bytes (p ++ s) ->
  6 < zlen p + Z.of_nat fuel -> In (p ++ s, (lf, v)) (flat t) ->
  (t = TL lf (p ++ s) v /\ exists a', art_erase_at fuel a (tref t) (p ++ s) (zlen p) = Some (a', NULL_REF, Some v) /\ sto a lf None a') \/
  (exists a' t' l r, art_erase_at fuel a (tref t) (p ++ s) (zlen p) = Some (a', tref t', Some v) /\ sok a' /\ a_root a' = a_root a /\
    holds a' t' /\ wft p t' /\ NoDup (refs t') /\ flat t = l ++ (p ++ s, (lf, v)) :: r /\ flat t' = l ++ r /\ step a (refs t) a' (refs t')).
Proof.
  induction fuel as [|f IH]; intros a t p s lf v K H W ND L B F HI; [rewrite zlen_app in L; pose proof (zlen_nonneg s); lia|].
  destruct t as [r k v'|r pre ch].
  - left. cbn [holds tref flat] in *. destruct HI as [E|[]]. injection E as -> -> ->. split; auto. cbn [art_erase_at]. rewrite H. cbn [obind].
    rewrite ccp_full by auto. rewrite common_refl, L. cbn [Z.eqb KEY_BYTES negb]. change (6 =? KEY_BYTES) with true. cbn [negb].
    destruct (free_sto a lf _ K H) as (a' & E' & S & _). exists a'. rewrite E'. cbn [obind]. auto.
  - right. pose proof H as H0. apply holds_TN in H. destruct H as ((n & D & Wn & Lo & P & Kn) & Hc). cbn [tref]. rewrite (erase_at_inner f a r _ _ n D Wn). cbv zeta.
    pose proof W as W0. apply wft_TN in W0. destruct W0 as (Lp & Bp & I & R & L2 & Wc).
    assert (Ls : zlen pre < zlen s) by (rewrite zlen_app in L; lia).
    rewrite P, ccp_pre by auto. destruct (prefix_cases pre s Ls) as [(E & k & s' & ->)|(E & c & a0 & b & x & y & -> & -> & Nab & _)].
    + rewrite E, Z.eqb_refl. cbn [negb]. rewrite app_assoc in *. rewrite <- zlen_app, kget_app. cbn [obind].
      assert (Bk : 0 <= k < 256) by (apply bytes_app in B; destruct B as [_ B]; now inversion B).
      destruct (in_dec Z.eq_dec k (map fst ch)) as [Hk|Hk].
      2:{ exfalso. rewrite flat_TN in HI. apply (flatl_other (p ++ pre) ch k s' Wc Hk). apply in_map_iff. eexists. split; [|exact HI]. reflexivity. }
      destruct (ch_split _ _ Hk) as (c1 & t & c2 & ->). destruct (T_children_incr _ _ _ _ _ _ _ W) as (_ & L1 & R1 & Wt & Wc1 & Wc2 & _).
      apply allp_app in Hc. destruct Hc as [Hc1 [Ht Hc2]].
      rewrite (find_child_in n k (tref t)); [|auto|rewrite Kn, krefs_app, krefs_cons; apply in_elt].
      pose proof (tref_nz _ _ Ht) as Tz. unfold NULL_REF at 1. replace (tref t =? 0) with false by lia.
      assert (EK : ((p ++ pre) ++ [k]) ++ s' = (p ++ pre) ++ k :: s') by (now rewrite <- app_assoc).
      replace (zlen (p ++ pre) + 1) with (zlen ((p ++ pre) ++ [k])) by (rewrite !zlen_app; reflexivity).
      assert (HI' : In ((p ++ pre) ++ k :: s', (lf, v)) (flat t)).
      { rewrite flat_TN, flatl_app, flatl_cons, !in_app_iff in HI. destruct HI as [Q|[Q|Q]]; auto; exfalso.
        - apply (flatl_other (p ++ pre) c1 k s' Wc1); [intros Z; apply L1 in Z; lia|]. apply in_map_iff. eexists. split; [|exact Q]. reflexivity.
        - apply (flatl_other (p ++ pre) c2 k s' Wc2); [intros Z; apply R1 in Z; lia|]. apply in_map_iff. eexists. split; [|exact Q]. reflexivity. }
      assert (ND' := ND). rewrite refs_TN, refsl_app, refsl_cons in ND'. apply NoDup_cons_iff in ND'. destruct ND' as [Nr ND'].
      apply NoDup_app_iff in ND'. destruct ND' as (NDa & NDb & NDc). apply NoDup_app_iff in NDb. destruct NDb as (NDb & NDd & NDe).
      rewrite !in_app_iff in Nr.
      pose proof (IH a t ((p ++ pre) ++ [k]) s' lf v K Ht) as X. rewrite EK in X.
      destruct X as [(Et & a1 & E1 & S1)|(a1 & t1 & l & r0 & E1 & K1 & R1' & H1 & W1 & ND1 & F0 & F1 & ST)]; auto.
      { now rewrite <- app_assoc. } { rewrite !zlen_app. change (zlen [k]) with 1. pose proof (zlen_nonneg pre). lia. }
      * rewrite E1. cbn [obind]. rewrite Z.eqb_refl. subst t.
        destruct (drop_child a a1 p r pre c1 k lf _ v c2 H0 W ND S1) as (a2 & t' & E2 & K2 & R2 & H2 & W2 & ND2 & F2 & ST2).
        rewrite E2. cbn [obind]. exists a2, t', (flatl c1), (flatl c2). split; auto. split; auto. split; auto. split; auto. split; auto. split; auto.
        split; [rewrite flat_TN, flatl_app, flatl_cons; reflexivity|]. auto.
      * rewrite E1. cbn [obind]. pose proof (tref_nz _ _ H1) as Tz1. unfold NULL_REF. replace (tref t1 =? 0) with false by lia.
        assert (NG : forall z, In z (r :: refsl c1 ++ refsl c2) -> ~ In z (refs t)).
        { intros z Hz Hz'. cbn [In] in Hz; rewrite in_app_iff in Hz. destruct Hz as [<-|[Hz|Hz]].
          - tauto.
          - apply (NDc z Hz). apply in_or_app; auto.
          - apply (NDe z Hz' Hz). }
        destruct (step_keep _ _ _ _ (r :: refsl c1 ++ refsl c2) ST) as (KN & KD); auto.
        { intros z [<-|Hz]; [congruence|]. apply in_app_iff in Hz. destruct Hz as [Hz|Hz]; [exact (holdsl_live a c1 z Hc1 Hz)|exact (holdsl_live a c2 z Hc2 Hz)]. }
        destruct (put_back_ok a1 r n c1 k t c2 t1) as (a2 & n2 & E2 & S2 & W2 & T2 & P2 & K2); auto.
        { rewrite KD by (now left). exact D. }
        rewrite E2. cbn [obind].
        destruct (child_lift a (refs t) a1 p r pre c1 k t c2 t1 a2 n2) as (H3 & W3 & ND3 & ST3); auto.
        { now rewrite <- app_assoc in W1. }
        { rewrite (lo_ntype n2 n T2), K2. rewrite Kn in Lo. rewrite krefs_zlen, zlen_app, zlen_cons in *. auto. }
        { congruence. }
        exists a2, (TN r pre (c1 ++ (k, t1) :: c2)), (flatl c1 ++ l), (r0 ++ flatl c2). cbn [tref]. split; auto.
        pose proof S2 as (KS2 & RS2 & _). split; auto. split; [congruence|]. split; auto. split; auto. split; auto.
        rewrite !flat_TN, !flatl_app, !flatl_cons, F0, F1. split; [now rewrite <- !app_assoc|]. split; [now rewrite <- !app_assoc|].
        apply ST3. intros z. rewrite refs_TN, refsl_app, refsl_cons. cbn [In]. rewrite !in_app_iff. tauto.
    + exfalso. rewrite flat_TN in HI. destruct (flatl_keys _ _ _ _ Wc HI) as (k1 & s1 & _ & E1 & _). rewrite <- !app_assoc in E1. apply app_inv_head in E1. apply app_inv_head in E1.
      injection E1 as E1 _. congruence.
Qed.
