(** ArtW: adding, replacing and removing a child of an ART node. *)
From Verif Require Import Base BitUtil Art ArtS ArtN.
Local Opaque zr n48_pairs n256_pairs.

Lemma kids_set_prefix n p : kids (set_prefix n p) = kids n.
Proof. destruct n; reflexivity. Qed.
Lemma ntype_set_prefix n p : ntype (set_prefix n p) = ntype n.
Proof. destruct n; reflexivity. Qed.
Lemma lo_set_prefix n p : lo (set_prefix n p) = lo n.
Proof. destruct n; reflexivity. Qed.
Lemma prefix_set_prefix n p : wf n -> node_prefix (set_prefix n p) = p.
Proof. destruct n; cbn; auto. intros (_ & _ & []). Qed.
Lemma wf_set_prefix n p : wf n -> zlen p <= 5 -> wf (set_prefix n p).
Proof. intros W L. rename W into Q. pose proof (prefix_set_prefix n p Q) as E. destruct Q as (_ & K & W). split; [now rewrite E|]. rewrite kids_set_prefix. split; auto. destruct n; auto. Qed.
Lemma kok_repl l k c c' r : kok (l ++ (k, c) :: r) -> c' <> 0 -> kok (l ++ (k, c') :: r).
Proof.
  unfold kok. rewrite !map_app. cbn. intros [I F] N. split; auto. apply Forall_app in F. destruct F as [F1 F2].
  apply Forall_app. split; auto. inversion F2; subst. constructor; auto. cbn in *. tauto.
Qed.
Lemma kok_drop l k c r : kok (l ++ (k, c) :: r) -> kok (l ++ r).
Proof.
  unfold kok. rewrite !map_app. cbn. intros [I F]. apply incr_app in I. destruct I as (I1 & [I2 I3] & I4).
  split; [apply incr_app; split; [auto|split; auto]; intros; apply I4; auto; now right|].
  apply Forall_app in F. destruct F as [F1 F2]. apply Forall_app. split; auto. now inversion F2.
Qed.
(** the list without its entry for [k] *)
Lemma drop_ext l k c r l' : kok (l ++ (k, c) :: r) -> incr (map fst l') ->
  (forall x y, In (x, y) l' <-> x <> k /\ In (x, y) (l ++ (k, c) :: r)) -> l' = l ++ r.
Proof.
  intros K I H. apply alist_ext; auto; [apply (kok_drop _ _ _ _ K)|]. intros x y. rewrite H.
  apply kok_app in K. destruct K as (_ & _ & _ & _ & L & R). rewrite !in_app_iff. cbn. split.
  - intros (N & [A|[A|A]]); auto. congruence.
  - intros [A|A].
    + split; auto. assert (In x (map fst l)) as Q by (apply In_map_fst; eauto). apply L in Q. lia.
    + split; auto. assert (In x (map fst r)) as Q by (apply In_map_fst; eauto). apply R in Q. lia.
Qed.
Lemma repl_ext l k c c' r l' : kok (l ++ (k, c) :: r) -> incr (map fst l') ->
  (forall x y, In (x, y) l' <-> (x = k /\ y = c') \/ (x <> k /\ In (x, y) (l ++ (k, c) :: r))) -> l' = l ++ (k, c') :: r.
Proof.
  intros K I H. apply alist_ext; auto.
  { destruct K as [K _]. rewrite map_app in *. exact K. }
  intros x y. rewrite H. apply kok_app in K. destruct K as (_ & _ & _ & _ & L & R). rewrite !in_app_iff. cbn. split.
  - intros [[-> ->]|(N & [A|[A|A]])]; auto. congruence.
  - intros [A|[A|A]].
    + right. split; auto. assert (In x (map fst l)) as Q by (apply In_map_fst; eauto). apply L in Q. lia.
    + left. injection A as <- <-. auto.
    + right. split; auto. assert (In x (map fst r)) as Q by (apply In_map_fst; eauto). apply R in Q. lia.
Qed.
Lemma kins_ext k c l l' : kok l -> ~ In k (map fst l) -> incr (map fst l') ->
  (forall x y, In (x, y) l' <-> (x, y) = (k, c) \/ In (x, y) l) -> l' = kins k c l.
Proof.
  intros [I F] N I' H. apply alist_ext; auto; [now apply kins_incr|]. intros. rewrite H, kins_In. tauto.
Qed.

(** ** Node256 *)
Lemma n256_ins p ct ch k c : wf (N256 p ct ch) -> 0 <= k < 256 -> c <> 0 -> ~ In k (map fst (n256_pairs ch)) ->
  n256_pairs (zupd k c ch) = kins k c (n256_pairs ch) /\ wf (N256 p (ct + 1) (zupd k c ch)).
Proof.
  intros (P & K & L & C) B Nc N. cbn [kids node_prefix] in *.
  assert (E : n256_pairs (zupd k c ch) = kins k c (n256_pairs ch)).
  { apply kins_ext; auto; [apply n256_incr|]. intros x y. rewrite !n256_In. split.
    - intros (Bx & Nx & ->). rewrite znth_zupd in * by lia. destruct (Z.eqb_spec x k); [left; now subst|right; auto].
    - intros [X|(Bx & Nx & ->)].
      + injection X as -> ->. rewrite znth_zupd, Z.eqb_refl by lia. auto.
      + rewrite znth_zupd by lia. destruct (Z.eqb_spec x k); [|auto]. subst. exfalso. apply N. apply In_map_fst.
        exists (znth ch k). apply n256_In. auto. }
  split; auto. split; [exact P|]. cbn [kids]. rewrite E. split; [now apply kins_kok|].
  split; [rewrite zupd_zlen; auto|rewrite kins_zlen; lia].
Qed.
Lemma n256_del p ct ch l k c r : wf (N256 p ct ch) -> n256_pairs ch = l ++ (k, c) :: r ->
  n256_pairs (zupd k 0 ch) = l ++ r /\ wf (N256 p (ct - 1) (zupd k 0 ch)).
Proof.
  intros (P & K & L & C) E. cbn [kids node_prefix] in *. rewrite E in *. destruct (kok_app _ _ _ _ K) as (_ & _ & B & Nc & _).
  assert (Q : n256_pairs (zupd k 0 ch) = l ++ r).
  { apply (drop_ext l k c r); auto; [apply n256_incr|]. intros x y. rewrite <- E, !n256_In. split.
    - intros (Bx & Nx & ->). rewrite znth_zupd in * by lia. destruct (Z.eqb_spec x k); [lia|]. auto.
    - intros (Nk & Bx & Nx & ->). rewrite znth_zupd by lia. destruct (Z.eqb_spec x k); [lia|]. auto. }
  split; auto. split; [exact P|]. cbn [kids]. rewrite Q. split; [eapply kok_drop; eauto|].
  split; [rewrite zupd_zlen; auto|]. rewrite C, !zlen_app, zlen_cons. lia.
Qed.

(** ** Node48 *)
Lemma n48_avail p ct av ks ch : wf (N48 p ct av ks ch) -> ct < 48 -> isw av /\ av <> 0.
Proof.
  intros (P & K & LK & LC & C & R & I & A & M) L. split; [unfold isw; lia|]. intros ->. cbn [kids] in *.
  assert (incl (zr 0 48) (map (fun i => znth ks i) (map fst (n48_pairs ks ch)))) as Q.
  { intros j Hj. apply zr_In in Hj. destruct (in_dec Z.eq_dec j (map (fun i => znth ks i) (map fst (n48_pairs ks ch)))) as [|N]; auto. exfalso.
    assert (Z.testbit 0 j = true) as T; [|rewrite Z.testbit_0_l in T; discriminate].
    apply M; auto. intros i Hi E. apply N. apply in_map_iff. exists i. split; auto. apply In_map_fst. exists (znth ch (znth ks i)).
    apply n48_In. split; auto. split; [lia|auto]. }
  apply NoDup_incl_length in Q; [|apply incr_NoDup, zr_incr]. rewrite !map_length in Q.
  pose proof (zr_zlen 0 48 ltac:(lia)) as Z48. unfold zlen in *. lia.
Qed.
Lemma pow2_tb v j : 0 <= v -> 0 <= j -> Z.testbit (2 ^ v) j = (j =? v).
Proof. intros. rewrite Z.pow2_bits_eqb by lia. apply Z.eqb_sym. Qed.
Lemma lt_pow2_bits a n : 0 <= n -> 0 <= a -> (forall j, n <= j -> Z.testbit a j = false) -> a < 2 ^ n.
Proof.
  intros Hn Ha H. destruct (Z.eq_dec a 0) as [->|]; [apply Z.pow_pos_nonneg; lia|].
  apply Z.log2_lt_pow2; [lia|]. destruct (Z_lt_dec (Z.log2 a) n); auto. exfalso.
  assert (Z.testbit a (Z.log2 a) = true) by (apply Z.bit_log2; lia). rewrite H in H0 by lia. discriminate.
Qed.
Lemma av_high av j : 0 <= av < 2^48 -> 48 <= j -> Z.testbit av j = false.
Proof.
  intros A Hj. destruct (Z.eq_dec av 0) as [->|]; [apply Z.testbit_0_l|].
  apply Z.bits_above_log2; [lia|]. apply Z.lt_le_trans with 48; auto. apply Z.log2_lt_pow2; lia.
Qed.
Lemma n48_ins p ct av ks ch k c : wf (N48 p ct av ks ch) -> ct < 48 -> 0 <= k < 256 -> c <> 0 -> ~ In k (map fst (n48_pairs ks ch)) ->
  let v := ctz av in
  n48_pairs (zupd k v ks) (zupd v c ch) = kins k c (n48_pairs ks ch) /\
  wf (N48 p (ct + 1) (Z.ldiff av (2 ^ v)) (zupd k v ks) (zupd v c ch)).
Proof.
  intros Wf L B Nc N v. destruct (n48_avail _ _ _ _ _ Wf L) as [Ia Na]. destruct Wf as (P & K & LK & LC & C & R & I & A & M).
  cbn [kids node_prefix] in *.
  destruct (ctz_spec av Ia Na) as (V1 & V2 & V3). fold v in V1, V2, V3.
  assert (V48 : v < 48).
  { destruct (Z_lt_dec v 48); auto. exfalso. assert (Z.testbit av v = false); [|congruence].
    destruct (Z.eq_dec av 0); [lia|]. apply Z.bits_above_log2; [lia|]. apply Z.log2_lt_pow2; [lia|].
    assert (2^48 <= 2^v) by (apply Z.pow_le_mono_r; lia). lia. }
  assert (Kk : znth ks k = 48).
  { destruct (Z.eq_dec (znth ks k) 48); auto. exfalso. apply N. apply In_map_fst. exists (znth ch (znth ks k)). apply n48_In. auto. }
  assert (FV : forall i, 0 <= i < 256 -> znth ks i <> v) by (apply M; auto; lia).
  assert (E : n48_pairs (zupd k v ks) (zupd v c ch) = kins k c (n48_pairs ks ch)).
  { apply kins_ext; auto; [apply n48_incr|]. intros x y. rewrite !n48_In. split.
    - intros (Bx & Nx & ->). rewrite (znth_zupd k x) in * by lia. destruct (Z.eqb_spec x k).
      + left. subst. rewrite znth_zupd, Z.eqb_refl by lia. auto.
      + right. split; auto. split; auto. pose proof (R x Bx). rewrite znth_zupd by lia. specialize (FV x Bx).
        destruct (Z.eqb_spec (znth ks x) v); [lia|auto].
    - intros [X|(Bx & Nx & ->)].
      + injection X as -> ->. rewrite (znth_zupd k k), Z.eqb_refl by lia. rewrite znth_zupd, Z.eqb_refl by lia. split; auto. split; auto. lia.
      + rewrite (znth_zupd k x) by lia. destruct (Z.eqb_spec x k); [subst; lia|]. split; auto. split; auto. pose proof (R x Bx).
        rewrite znth_zupd by lia. specialize (FV x Bx). destruct (Z.eqb_spec (znth ks x) v); [lia|auto]. }
  split; auto. split; [exact P|]. cbn [kids]. rewrite E. split; [now apply kins_kok|].
  rewrite !zupd_zlen, kins_zlen. split; [auto|]. split; [auto|]. split; [lia|]. split; [|split; [|split]].
  - intros i Hi. rewrite znth_zupd by lia. destruct (i =? k); [lia|auto].
  - intros i j Hi Hj. rewrite !znth_zupd by lia. destruct (Z.eqb_spec i k), (Z.eqb_spec j k); subst; auto.
    + intros X. specialize (FV j Hj). lia.
    + intros X. specialize (FV i Hi). lia.
  - assert (0 <= Z.ldiff av (2 ^ v)) by (apply Z.ldiff_nonneg; lia). split; auto.
    apply lt_pow2_bits; auto; try lia. intros j Hj. rewrite Z.ldiff_spec, av_high by auto. reflexivity.
  - intros j Hj. rewrite Z.ldiff_spec, pow2_tb by lia. rewrite andb_true_iff, M by auto. split.
    + intros [F1 F2] i Hi. rewrite znth_zupd by lia. destruct (Z.eqb_spec i k); [lia|auto].
    + intros F. split.
      * intros i Hi. specialize (F i Hi). rewrite znth_zupd in F by lia. destruct (Z.eqb_spec i k); [subst; lia|auto].
      * specialize (F k B). rewrite znth_zupd, Z.eqb_refl in F by lia. lia.
Qed.
Lemma n48_del p ct av ks ch l k c r : wf (N48 p ct av ks ch) -> n48_pairs ks ch = l ++ (k, c) :: r ->
  let v := znth ks k in
  v <> 48 /\ n48_pairs (zupd k 48 ks) ch = l ++ r /\ wf (N48 p (ct - 1) (Z.lor av (2 ^ v)) (zupd k 48 ks) ch).
Proof.
  intros (P & K & LK & LC & C & R & I & A & M) E v. cbn [kids node_prefix] in *.
  assert (In (k, c) (n48_pairs ks ch)) as Q by (rewrite E; apply in_elt). apply n48_In in Q. destruct Q as (B & Nv & _).
  fold v in Nv. pose proof (R k B) as Rv. fold v in Rv. split; auto. rewrite E in K.
  assert (Q : n48_pairs (zupd k 48 ks) ch = l ++ r).
  { apply (drop_ext l k c r); auto; [apply n48_incr|]. intros x y. rewrite <- E, !n48_In. split.
    - intros (Bx & Nx & ->). rewrite znth_zupd in * by lia. destruct (Z.eqb_spec x k); [lia|]. auto.
    - intros (Nk & Bx & Nx & ->). rewrite znth_zupd by lia. destruct (Z.eqb_spec x k); [lia|]. auto. }
  split; auto. split; [exact P|]. cbn [kids]. rewrite Q. split; [eapply kok_drop; eauto|].
  rewrite zupd_zlen. split; [auto|]. split; [auto|]. split; [rewrite C, E, !zlen_app, zlen_cons; lia|]. split; [|split; [|split]].
  - intros i Hi. rewrite znth_zupd by lia. destruct (i =? k); [lia|auto].
  - intros i j Hi Hj. rewrite !znth_zupd by lia. destruct (Z.eqb_spec i k), (Z.eqb_spec j k); subst; auto; lia.
  - assert (0 < 2 ^ v) by (apply Z.pow_pos_nonneg; lia). assert (0 <= Z.lor av (2 ^ v)) by (apply Z.lor_nonneg; lia).
    split; auto. apply lt_pow2_bits; auto; try lia. intros j Hj. rewrite Z.lor_spec, pow2_tb by lia.
    replace (j =? v) with false by lia. rewrite orb_false_r. now apply av_high.
  - intros j Hj. rewrite Z.lor_spec, pow2_tb by lia. rewrite orb_true_iff, M by auto. split.
    + intros F i Hi. rewrite znth_zupd by lia. destruct (Z.eqb_spec i k); [lia|]. destruct F as [F|F]; auto. intros X.
      apply n. apply I; auto; unfold v in *; lia.
    + intros F. destruct (Z.eq_dec j v); [right; lia|left]. intros i Hi X. specialize (F i Hi). rewrite znth_zupd in F by lia.
      destruct (Z.eqb_spec i k); [subst; lia|auto].
Qed.

(** ** Replacing a child *)
Lemma replace_kid n l k c r c' : wf n -> kids n = l ++ (k, c) :: r -> c' <> 0 ->
  exists n', art_replace n k c' = Some n' /\ kids n' = l ++ (k, c') :: r /\ wf n' /\ node_prefix n' = node_prefix n /\ ntype n' = ntype n.
Proof.
  intros Wf E N. pose proof Wf as (P & K & W). pose proof K as K0. rewrite E in K0.
  pose proof (kok_app _ _ _ _ K0) as (_ & _ & B & Nc & LL & RR). pose proof (kok_repl _ _ _ c' _ K0 N) as K1.
  destruct n as [| p kc | p kc | p ct av ks ch | p ct ch]; cbn [kids node_prefix] in *; [tauto| | | |].
  1, 2: subst kc; cbn [art_replace]; rewrite kidx_app by (intros Q; apply LL in Q; lia);
    pose proof (zlen_nonneg l); replace (0 + zlen l =? -1) with false by lia; replace (0 + zlen l) with (zlen l) by lia;
    rewrite kupd_app; eexists; split; [reflexivity|]; cbn [kids]; split; [reflexivity|]; split; [|auto];
    split; [exact P|]; split; [exact K1|]; rewrite zlen_app, zlen_cons in *; exact W.
  - assert (In (k, c) (n48_pairs ks ch)) as Q by (rewrite E; apply in_elt). apply n48_In in Q. destruct Q as (_ & Nv & Ec).
    destruct W as (LK & LC & C & R & I & A & M).
    cbn [art_replace]. unfold NODE48_EMPTY_VAL. replace (znth ks k =? 48) with false by lia. eexists. split; [reflexivity|]. cbn [kids].
    assert (Q : n48_pairs ks (zupd (znth ks k) c' ch) = l ++ (k, c') :: r).
    { pose proof (R k B). apply (repl_ext l k c c' r); auto; [apply n48_incr|]. intros x y. rewrite <- E, !n48_In. split.
      - intros (Bx & Nx & ->). pose proof (R x Bx). rewrite znth_zupd by lia. destruct (Z.eqb_spec (znth ks x) (znth ks k)).
        + left. split; auto.
        + right. split; [congruence|auto].
      - intros [[-> ->]|(Nk & Bx & Nx & ->)].
        + rewrite znth_zupd, Z.eqb_refl by lia. auto.
        + pose proof (R x Bx). rewrite znth_zupd by lia. destruct (Z.eqb_spec (znth ks x) (znth ks k)); [|auto]. exfalso; apply Nk; apply I; auto. }
    split; [exact Q|]. split; [|auto]. split; [exact P|]. cbn [kids]. rewrite Q. split; [exact K1|].
    rewrite zupd_zlen. cbn [kids] in C. rewrite C, E, !zlen_app, !zlen_cons. repeat match goal with |- _ /\ _ => split end; auto; lia.
  - destruct W as (LC & C). cbn [art_replace]. eexists. split; [reflexivity|]. cbn [kids].
    assert (Q : n256_pairs (zupd k c' ch) = l ++ (k, c') :: r).
    { apply (repl_ext l k c c' r); auto; [apply n256_incr|]. intros x y. rewrite <- E, !n256_In. split.
      - intros (Bx & Nx & ->). rewrite znth_zupd in * by lia. destruct (Z.eqb_spec x k); auto.
      - intros [[-> ->]|(Nk & Bx & Nx & ->)].
        + rewrite znth_zupd, Z.eqb_refl by lia. auto.
        + rewrite znth_zupd by lia. destruct (Z.eqb_spec x k); [congruence|auto]. }
    split; [exact Q|]. split; [|auto]. split; [exact P|]. cbn [kids]. rewrite Q. split; [exact K1|].
    rewrite zupd_zlen. cbn [kids] in C. rewrite C, E, !zlen_app, !zlen_cons. auto.
Qed.

(** ** Insertion into a node of the store *)
Lemma sto_trans a r v a1 v' a2 : sto a r v a1 -> sto a1 r v' a2 -> sto a r v' a2.
Proof.
  intros (K1 & R1 & D1) (K2 & R2 & D2). split; auto. split; [congruence|]. intros x. rewrite D2, D1. destruct (x =? r); auto.
Qed.
Lemma sto_at a r v a' : sto a r v a' -> art_deref a' r = v.
Proof. intros (_ & _ & D). rewrite D, Z.eqb_refl. auto. Qed.
Lemma sto_other a r v a' x : sto a r v a' -> x <> r -> art_deref a' x = art_deref a x.
Proof. intros (_ & _ & D) N. rewrite D. destruct (Z.eqb_spec x r); congruence. Qed.
(** the node at [r] is now the node [n'] at [r'] *)
Definition swap (a : art) (r r' : Z) (n' : node) (a' : art) : Prop :=
  sok a' /\ a_root a' = a_root a /\ (r' = r \/ art_deref a r' = None) /\
  forall x, art_deref a' x = if x =? r' then Some n' else if x =? r then None else art_deref a x.
Lemma sto_swap a r n' a' : sto a r (Some n') a' -> swap a r r n' a'.
Proof. intros (K & R & D). split; auto. split; auto. split; auto. intros x. rewrite D. destruct (x =? r); auto. Qed.

(** [ins] adds a child to a node of type [t] with fewer than [m] children, in place *)
Definition Room (ins : art -> Z -> Z -> Z -> option (art * Z)) (m t : Z) : Prop :=
  forall a r n k c, sok a -> art_deref a r = Some n -> ntype n = t -> wf n -> zlen (kids n) < m ->
    0 <= k < 256 -> c <> 0 -> ~ In k (map fst (kids n)) ->
    exists a' n', ins a r c k = Some (a', r) /\ sto a r (Some n') a' /\ wf n' /\ ntype n' = t /\
      node_prefix n' = node_prefix n /\ kids n' = kins k c (kids n).

Lemma room256 m : Room art_node256_insert m 5.
Proof.
  intros a r n k c K D T W L B Nc N. destruct n as [| | | |p ct ch]; try discriminate. unfold art_node256_insert. rewrite D. cbn [obind].
  destruct (n256_ins p ct ch k c W B Nc N) as [E W']. eexists _, _. split; [reflexivity|].
  split; [eapply put_sto; eauto|]. split; [exact W'|]. auto.
Qed.
Lemma room48 : Room art_node48_insert 48 4.
Proof.
  intros a r n k c K D T W L B Nc N. destruct n as [| | |p ct av ks ch|]; try discriminate. unfold art_node48_insert. rewrite D. cbn [obind].
  assert (ct < 48) as L' by (destruct W as (_ & _ & _ & _ & C & _); cbn [kids] in *; lia).
  replace (ct <? 48) with true by lia.
  destruct (n48_ins p ct av ks ch k c W L' B Nc N) as [E W']. eexists _, _. split; [reflexivity|].
  split; [eapply put_sto; eauto|]. split; [exact W'|]. auto.
Qed.
Lemma room16 : Room art_node16_insert 16 3.
Proof.
  intros a r n k c K D T W L B Nc N. destruct n as [| |p kc| |]; try discriminate. unfold art_node16_insert. rewrite D. cbn [obind kids] in *.
  replace (zlen kc <? 16) with true by lia. eexists _, _. split; [reflexivity|].
  split; [eapply put_sto; eauto|]. split; [|auto]. destruct W as (P & Kk & W). split; [exact P|]. split; [now apply kins_kok|]. rewrite kins_zlen. lia.
Qed.
Lemma room4 : Room art_node4_insert 4 2.
Proof.
  intros a r n k c K D T W L B Nc N. destruct n as [|p kc| | |]; try discriminate. unfold art_node4_insert. rewrite D. cbn [obind kids] in *.
  replace (zlen kc <? 4) with true by lia. eexists _, _. split; [reflexivity|].
  split; [eapply put_sto; eauto|]. split; [|auto]. destruct W as (P & Kk & W). split; [exact P|]. split; [now apply kins_kok|]. rewrite kins_zlen. lia.
Qed.
Lemma insert_all_ok ins m t : Room ins m t -> forall kc a r n,
  sok a -> art_deref a r = Some n -> ntype n = t -> wf n -> zlen (kids n) + zlen kc <= m -> kok (kids n ++ kc) ->
  exists a' n', insert_all ins a r kc = Some a' /\ sto a r (Some n') a' /\ wf n' /\ ntype n' = t /\
    node_prefix n' = node_prefix n /\ kids n' = kids n ++ kc.
Proof.
  intros HR. induction kc as [|[k c] kc IH]; intros a r n K D T W L KK; cbn [insert_all].
  - exists a, n. split; auto. split; [|rewrite app_nil_r; auto]. split; auto. split; auto. intros x. destruct (Z.eqb_spec x r); subst; auto.
  - rewrite zlen_cons in L. pose proof (zlen_nonneg kc). destruct (kok_app _ _ _ _ KK) as (_ & _ & B & Nc & LL & _).
    destruct (HR a r n k c) as (a1 & n1 & E & S & W1 & T1 & P1 & K1); auto; [lia|intros Q; apply LL in Q; lia|].
    rewrite E. cbn [obind]. pose proof S as (S1 & _). rewrite (kins_end _ _ _ LL) in K1.
    destruct (IH a1 r n1) as (a2 & n2 & E2 & S2 & W2 & T2 & P2 & K2); auto.
    + apply (sto_at _ _ _ _ S).
    + rewrite K1, zlen_app. change (zlen [(k, c)]) with 1. lia.
    + rewrite K1, <- app_assoc. exact KK.
    + exists a2, n2. split; auto. split; [eapply sto_trans; eauto|]. split; auto. split; auto. split; [congruence|].
      rewrite K2, K1, <- app_assoc. auto.
Qed.
(** moving all children of a node to a new node of another type *)
Lemma move_all ins m a r n n0 : Room ins m (ntype n0) -> sok a -> art_deref a r = Some n -> wf n -> wf n0 -> kids n0 = [] ->
  zlen (kids n) <= m ->
  exists a1 r1 a2 a3 n', art_create a n0 = Some (a1, r1) /\ insert_all ins a1 r1 (kids n) = Some a2 /\
    art_node_free a2 r = Some a3 /\ swap a r r1 n' a3 /\ wf n' /\ ntype n' = ntype n0 /\ node_prefix n' = node_prefix n0 /\ kids n' = kids n /\
    r1 <> r /\ r1 <> 0.
Proof.
  intros HR K D W W0 E0 L. destruct (create_sto a n0 K) as (a1 & r1 & E1 & S1 & F1 & T1). exists a1, r1.
  pose proof S1 as (K1 & R1 & D1). pose proof (sto_at _ _ _ _ S1) as A1.
  destruct (insert_all_ok ins m (ntype n0) HR (kids n) a1 r1 n0) as (a2 & n2 & E2 & S2 & W2 & T2 & P2 & K2); auto.
  - rewrite E0. unfold zlen at 1. cbn. lia.
  - rewrite E0. apply W.
  - assert (NE : r1 <> r) by congruence. exists a2. pose proof S2 as (K2' & R2 & D2).
    assert (D' : art_deref a2 r = Some n) by (rewrite (sto_other _ _ _ _ r S2), (sto_other _ _ _ _ r S1); auto).
    destruct (free_sto a2 r n K2' D') as (a3 & E3 & S3 & _). exists a3, n2. split; auto. split; auto. split; auto.
    split; [|rewrite E0 in K2; cbn in K2; pose proof (deref_nz _ _ _ (sto_at _ _ _ _ S2)); auto 10].
    destruct S3 as (K3 & R3 & D3). split; auto. split; [congruence|]. split; auto. intros x. rewrite D3, D2, D1.
    destruct (Z.eqb_spec x r1), (Z.eqb_spec x r); auto; congruence.
Qed.
Lemma swap_at a r r' n a' : swap a r r' n a' -> art_deref a' r' = Some n.
Proof. intros (_ & _ & _ & D). now rewrite D, Z.eqb_refl. Qed.
Lemma swap_sto a r r1 n a3 n' a4 : swap a r r1 n a3 -> sto a3 r1 (Some n') a4 -> swap a r r1 n' a4.
Proof.
  intros (K & R & F & D) (K' & R' & D'). split; auto. split; [congruence|]. split; auto. intros x. rewrite D', D. destruct (x =? r1); auto.
Qed.
Lemma grow ins m a r n n0 k c : Room ins m (ntype n0) -> sok a -> art_deref a r = Some n -> wf n -> wf n0 -> kids n0 = [] ->
  zlen (kids n) < m -> 0 <= k < 256 -> c <> 0 -> ~ In k (map fst (kids n)) ->
  exists a1 r1 a2 a3 a4 n', art_create a n0 = Some (a1, r1) /\ insert_all ins a1 r1 (kids n) = Some a2 /\
    art_node_free a2 r = Some a3 /\ ins a3 r1 c k = Some (a4, r1) /\ swap a r r1 n' a4 /\ wf n' /\ ntype n' = ntype n0 /\
    node_prefix n' = node_prefix n0 /\ kids n' = kins k c (kids n).
Proof.
  intros HR K D W W0 E0 L B Nc N.
  destruct (move_all ins m a r n n0) as (a1 & r1 & a2 & a3 & n' & E1 & E2 & E3 & S & W' & T' & P' & K' & _); auto; [lia|].
  exists a1, r1, a2, a3. pose proof S as (K3 & _).
  destruct (HR a3 r1 n' k c) as (a4 & n4 & E4 & S4 & W4 & T4 & P4 & K4); auto; try (rewrite K'; auto).
  - apply (swap_at _ _ _ _ _ S).
  - exists a4, n4. split; auto. split; auto. split; auto. split; auto. split; [eapply swap_sto; eauto|].
    split; auto. split; auto. split; [congruence|]. rewrite K4, K'. auto.
Qed.

Lemma nth_repeat_z x n i : 0 <= i < Z.of_nat n -> znth (repeat x n) i = x.
Proof.
  intros H. unfold znth. revert i H. induction n; intros i H; [lia|]. cbn [repeat].
  destruct (Z.to_nat i) eqn:E; cbn; auto. specialize (IHn (Z.of_nat n0)). rewrite Nat2Z.id in IHn. apply IHn. lia.
Qed.
Lemma zlen_repeat {A} (x : A) n : zlen (repeat x n) = Z.of_nat n.
Proof. unfold zlen. now rewrite repeat_length. Qed.
Lemma empty48 p : zlen p <= 5 -> let n := N48 p 0 AVAILABLE_MASK (repeat NODE48_EMPTY_VAL 256) (repeat 0 48) in wf n /\ kids n = [].
Proof.
  intros P n.
  assert (E : forall i, 0 <= i < 256 -> znth (repeat NODE48_EMPTY_VAL 256) i = 48).
  { intros. rewrite nth_repeat_z; [reflexivity|]. change (Z.of_nat 256) with 256. lia. }
  assert (Ek : kids n = []).
  { destruct (kids n) as [|[k c] l] eqn:Q; [reflexivity|]. exfalso. assert (In (k, c) (kids n)) as I by (rewrite Q; now left).
    unfold n in I. cbn [kids] in I. apply n48_In in I. destruct I as (B & I & _). rewrite E in I; congruence. }
  split; auto. split; [exact P|]. rewrite Ek. split; [split; constructor|]. unfold n.
  rewrite !zlen_repeat. split; [reflexivity|]. split; [reflexivity|]. split; [reflexivity|].
  split; [intros i Hi; rewrite E; lia|]. split; [intros i j Hi Hj; rewrite E; lia|].
  split; [unfold AVAILABLE_MASK; lia|]. intros j Hj. split; [intros _ i Hi; rewrite E; lia|]. intros _.
  unfold AVAILABLE_MASK. replace (2^48 - 1) with (Z.ones 48) by reflexivity. rewrite Z.testbit_ones_nonneg by lia. lia.
Qed.
Lemma empty256 p : zlen p <= 5 -> let n := N256 p 0 (repeat NULL_REF 256) in wf n /\ kids n = [].
Proof.
  intros P n.
  assert (Ek : kids n = []).
  { destruct (kids n) as [|[k c] l] eqn:Q; [reflexivity|]. exfalso. assert (In (k, c) (kids n)) as I by (rewrite Q; now left).
    unfold n in I. cbn [kids] in I. apply n256_In in I. destruct I as (B & I & _). rewrite nth_repeat_z in I by (change (Z.of_nat 256) with 256; lia). apply I; reflexivity. }
  split; auto. split; [exact P|]. rewrite Ek. split; [split; constructor|]. unfold n.
  rewrite !zlen_repeat. split; reflexivity.
Qed.
Lemma empty4 p : zlen p <= 5 -> wf (N4 p []).
Proof. intros P. split; [exact P|]. split; [split; constructor|]. unfold zlen; cbn; lia. Qed.
Lemma empty16 p : zlen p <= 5 -> wf (N16 p []).
Proof. intros P. split; [exact P|]. split; [split; constructor|]. unfold zlen; cbn; lia. Qed.
Lemma prefix_ok_yes p : zlen p <= 5 -> prefix_ok p = Some tt.
Proof. intros. unfold prefix_ok, guard. now replace (zlen p <=? 5) with true by lia. Qed.
Lemma kok_len l : kok l -> zlen l <= 256.
Proof.
  intros [I F]. rewrite <- (zlen_map fst). replace 256 with (256 - 0) by lia. apply incr_inb_len; auto; [|lia].
  unfold inb. rewrite Forall_forall in *. intros x Hx. apply In_map_fst in Hx. destruct Hx as (c & Hx). apply F in Hx. cbn in Hx. lia.
Qed.

(** adding a leaf or a node below an inner node, whatever its type *)
Lemma node_insert_ok a r n k c : sok a -> art_deref a r = Some n -> wf n -> 0 <= k < 256 -> c <> 0 -> ~ In k (map fst (kids n)) ->
  exists a' r' n', art_node_insert_leaf a r k c = Some (a', r') /\ swap a r r' n' a' /\ wf n' /\
    node_prefix n' = node_prefix n /\ kids n' = kins k c (kids n) /\ (lo n <= zlen (kids n) + 1 -> lo n' <= zlen (kids n')).
Proof.
  intros K D W B Nc N. pose proof (deref_inv _ _ _ D) as (_ & T & _). pose proof W as (P & KK & _).
  unfold art_node_insert_leaf. rewrite T. destruct n as [|p kc|p kc|p ct av ks ch|p ct ch]; [destruct W as (_ & _ & []) | | | |].
  - change (art_node_insert_leaf a r k c) with (art_node4_insert a r c k). cbn [ntype]. change (2 =? NODE4_TYPE) with true. cbv iota.
    cbn [kids node_prefix] in *. destruct (Z_lt_dec (zlen kc) 4) as [L|L].
    + destruct (room4 a r _ k c K D eq_refl W L B Nc N) as (a' & n' & E & S & W' & T' & P' & K').
      exists a', r, n'. rewrite E. split; auto. split; [now apply sto_swap|]. split; auto. split; auto. split; auto.
      intros Q. rewrite K', kins_zlen. destruct n'; try discriminate. cbn in *. lia.
    + unfold art_node4_insert. rewrite D. cbn [obind]. replace (zlen kc <? 4) with false by lia.
      assert (L4 : zlen kc = 4) by (destruct W as (_ & _ & W); lia).
      unfold art_node16_create. rewrite prefix_ok_yes by exact P. cbn [obind].
      destruct (grow art_node16_insert 16 a r (N4 p kc) (N16 p []) k c) as (a1 & r1 & a2 & a3 & a4 & n' & E1 & E2 & E3 & E4 & S & W' & T' & P' & K'); auto.
      { apply room16. } { now apply empty16. } { cbn [kids]. lia. }
      exists a4, r1, n'. rewrite E1. cbn [obind]. rewrite firstn_all2 by (unfold zlen in L4; lia). cbn [kids] in E2. rewrite E2. cbn [obind]. rewrite E3. cbn [obind].
      split; auto. split; auto. split; auto. split; auto. split; auto. intros _. rewrite K', kins_zlen. cbn [kids]. destruct n'; try discriminate. cbn. lia.
  - cbn [ntype]. change (3 =? NODE4_TYPE) with false. change (3 =? NODE16_TYPE) with true. cbv iota.
    cbn [kids node_prefix] in *. destruct (Z_lt_dec (zlen kc) 16) as [L|L].
    + destruct (room16 a r _ k c K D eq_refl W L B Nc N) as (a' & n' & E & S & W' & T' & P' & K').
      exists a', r, n'. rewrite E. split; auto. split; [now apply sto_swap|]. split; auto. split; auto. split; auto.
      intros Q. rewrite K', kins_zlen. destruct n'; try discriminate. cbn in *. lia.
    + unfold art_node16_insert. rewrite D. cbn [obind]. replace (zlen kc <? 16) with false by lia.
      assert (L4 : zlen kc = 16) by (destruct W as (_ & _ & W); lia).
      unfold art_node48_create. rewrite prefix_ok_yes by exact P. cbn [obind].
      destruct (empty48 p P) as [W0 E0].
      destruct (grow art_node48_insert 48 a r (N16 p kc) (N48 p 0 AVAILABLE_MASK (repeat NODE48_EMPTY_VAL 256) (repeat 0 48)) k c room48 K D W W0 E0) as (a1 & r1 & a2 & a3 & a4 & n' & E1 & E2 & E3 & E4 & S & W' & T' & P' & K'); auto.
      { cbn [kids]. lia. }
      exists a4, r1, n'. rewrite E1. cbn [obind]. rewrite firstn_all2 by (unfold zlen in L4; lia). cbn [kids] in E2. rewrite E2. cbn [obind]. rewrite E3. cbn [obind].
      split; auto. split; auto. split; auto. split; auto. split; auto. intros _. rewrite K', kins_zlen. cbn [kids]. destruct n'; try discriminate. cbn. lia.
  - cbn [ntype]. change (4 =? NODE4_TYPE) with false. change (4 =? NODE16_TYPE) with false. change (4 =? NODE48_TYPE) with true. cbv iota.
    destruct (Z_lt_dec (zlen (kids (N48 p ct av ks ch))) 48) as [L|L].
    + destruct (room48 a r _ k c K D eq_refl W L B Nc N) as (a' & n' & E & S & W' & T' & P' & K').
      exists a', r, n'. rewrite E. split; auto. split; [now apply sto_swap|]. split; auto. split; auto. split; auto.
      intros Q. rewrite K', kins_zlen. destruct n'; try discriminate. cbn in *. lia.
    + unfold art_node48_insert. rewrite D. cbn [obind].
      assert (ct = zlen (kids (N48 p ct av ks ch))) as C by (destruct W as (_ & _ & _ & _ & C & _); exact C).
      replace (ct <? 48) with false by lia. cbn [kids node_prefix] in *.
      unfold art_node256_create. rewrite prefix_ok_yes by exact P. cbn [obind].
      destruct (empty256 p P) as [W0 E0]. pose proof (kok_len _ KK).
      destruct (grow art_node256_insert 1000 a r (N48 p ct av ks ch) (N256 p 0 (repeat NULL_REF 256)) k c (room256 1000) K D W W0 E0) as (a1 & r1 & a2 & a3 & a4 & n' & E1 & E2 & E3 & E4 & S & W' & T' & P' & K'); auto.
      { cbn [kids]. lia. }
      exists a4, r1, n'. rewrite E1. cbn [obind]. cbn [kids] in E2. rewrite E2. cbn [obind]. rewrite E3. cbn [obind].
      split; auto. split; auto. split; auto. split; auto. split; auto. intros _. rewrite K', kins_zlen. cbn [kids]. destruct n'; try discriminate. cbn [lo]. lia.
  - cbn [ntype]. change (5 =? NODE4_TYPE) with false. change (5 =? NODE16_TYPE) with false. change (5 =? NODE48_TYPE) with false. change (5 =? NODE256_TYPE) with true. cbv iota.
    destruct (room256 1000 a r _ k c K D eq_refl W) as (a' & n' & E & S & W' & T' & P' & K'); auto; [pose proof (kok_len _ KK); lia|].
    exists a', r, n'. rewrite E. split; auto. split; [now apply sto_swap|]. split; auto. split; auto. split; auto.
    intros Q. rewrite K', kins_zlen. destruct n'; try discriminate. cbn in *. lia.
Qed.

(** ** Removal of a child *)
(** a Node4 with two children collapses into the other child *)
Lemma node_erase_collapse a r n l k c r0 k' c' : sok a -> art_deref a r = Some n -> wf n -> lo n <= zlen (kids n) ->
  kids n = l ++ (k, c) :: r0 -> l ++ r0 = [(k', c')] -> c' <> r ->
  (exists kl v, art_deref a c' = Some (NLeaf kl v)) \/
  (exists m, art_deref a c' = Some m /\ wf m /\ zlen (node_prefix n) + 1 + zlen (node_prefix m) <= 5) ->
  exists a', art_node_erase a r k = Some (a', c') /\ sok a' /\ a_root a' = a_root a /\
    forall x, art_deref a' x = if x =? r then None else if x =? c'
      then match art_deref a c' with Some (NLeaf kl v) => Some (NLeaf kl v) | Some m => Some (set_prefix m (node_prefix n ++ k' :: node_prefix m)) | None => None end
      else art_deref a x.
Proof.
  intros K D W LO E EL Nr HC. pose proof (deref_inv _ _ _ D) as (_ & T & _). pose proof W as (P & KK & _).
  assert (L2 : zlen (kids n) = 2).
  { pose proof (f_equal zlen EL) as Q. rewrite zlen_app in Q. change (zlen [(k', c')]) with 1 in Q. rewrite E, zlen_app, zlen_cons. lia. }
  destruct n as [|p kc|p kc|p ct av ks ch|p ct ch]; cbn [lo] in LO; try lia; [destruct W as (_ & _ & []) |].
  unfold art_node_erase. rewrite T. cbn [ntype]. change (2 =? NODE4_TYPE) with true. cbv iota.
  unfold art_node4_erase. rewrite D. cbn [obind kids] in *. rewrite E in KK. destruct (kok_app _ _ _ _ KK) as (_ & _ & B & Nc & LL & RR).
  assert (EI : kidx_last k kc 0 (-1) = 0 + zlen l)
    by (rewrite E; rewrite kidx_last_app; [reflexivity|intros Q; apply LL in Q; lia|intros Q; apply RR in Q; lia]).
  cbv zeta. rewrite EI. pose proof (zlen_nonneg l). replace (0 + zlen l =? -1) with false by lia. rewrite L2. change (2 =? 2) with true. cbv iota.
  assert (EN : knth kc (Z.lxor (0 + zlen l) 1) = (k', c')).
  { rewrite E. destruct l as [|[k1 c1] l]; cbn in EL.
    - subst r0. reflexivity.
    - injection EL as -> -> EL. destruct l; [|discriminate]. cbn in EL. subst r0. reflexivity. }
  rewrite EN. cbn [node_prefix] in *.
  destruct HC as [(kl & v & DC)|(m & DC & WM & PM)].
  - assert (art_is_leaf c' = true) as Q by (unfold art_is_leaf; apply deref_inv in DC; destruct DC as (_ & -> & _); reflexivity).
    rewrite Q. cbn [obind]. destruct (free_sto a r _ K D) as (a' & E' & (K' & R' & D') & _). exists a'. rewrite E'. cbn [obind].
    split; auto. split; auto. split; auto. intros x. rewrite D', DC. destruct (Z.eqb_spec x r); auto. destruct (Z.eqb_spec x c'); [congruence|auto].
  - assert (art_is_leaf c' = false) as Q by (unfold art_is_leaf; apply deref_inv in DC; destruct DC as (_ & -> & _); destruct m; [destruct WM as (_ & _ & [])|..]; reflexivity).
    rewrite Q, DC. cbn [obind].
    assert (PL : zlen (p ++ k' :: node_prefix m) <= 5) by (rewrite zlen_app, zlen_cons; lia).
    rewrite prefix_ok_yes by exact PL. cbn [obind].
    set (m' := set_prefix m (p ++ k' :: node_prefix m)).
    pose proof (put_sto a c' m m' K DC (ntype_set_prefix _ _)) as S. pose proof S as (K1 & R1 & D1).
    assert (D1' : art_deref (art_put a c' m') r = Some (N4 p kc)) by (rewrite D1; destruct (Z.eqb_spec r c'); congruence).
    destruct (free_sto _ r _ K1 D1') as (a' & E' & (K' & R' & D') & _). exists a'. rewrite E'. cbn [obind].
    split; auto. split; auto. split; [congruence|]. intros x. rewrite D', D1. destruct (Z.eqb_spec x r); auto. destruct (Z.eqb_spec x c'); auto.
    destruct m; [destruct WM as (_ & _ & [])|..]; reflexivity.
Qed.
Lemma node_erase_ok a r n l k c r0 : sok a -> art_deref a r = Some n -> wf n -> lo n <= zlen (kids n) ->
  kids n = l ++ (k, c) :: r0 -> 2 <= zlen (l ++ r0) ->
  exists a' r' n', art_node_erase a r k = Some (a', r') /\ swap a r r' n' a' /\ wf n' /\
    node_prefix n' = node_prefix n /\ kids n' = l ++ r0 /\ lo n' <= zlen (kids n').
Proof.
  intros K D W LO E L2. pose proof (deref_inv _ _ _ D) as (_ & T & _). pose proof W as (P & KK & WW).
  pose proof KK as K0. rewrite E in K0. destruct (kok_app _ _ _ _ K0) as (_ & _ & B & Nc & LL & RR).
  pose proof (kok_drop _ _ _ _ K0) as K1. pose proof (zlen_nonneg l) as Ln.
  assert (LE : zlen (kids n) = zlen (l ++ r0) + 1) by (rewrite E, !zlen_app, zlen_cons; lia).
  unfold art_node_erase. rewrite T. destruct n as [|p kc|p kc|p ct av ks ch|p ct ch]; cbn [kids node_prefix lo] in *; [destruct WW | | | |].
  - change (ntype (N4 p kc) =? NODE4_TYPE) with true. cbv iota. unfold art_node4_erase. rewrite D. cbn [obind].
    assert (EI : kidx_last k kc 0 (-1) = 0 + zlen l)
      by (rewrite E; rewrite kidx_last_app; [reflexivity|intros Q; apply LL in Q; lia|intros Q; apply RR in Q; lia]).
    assert (ED : kdel (zlen l) kc = l ++ r0) by (rewrite E; apply kdel_app).
    cbv zeta. rewrite EI. replace (0 + zlen l =? -1) with false by lia. replace (zlen kc =? 2) with false by lia.
    replace (0 + zlen l) with (zlen l) by lia. rewrite ED.
    eexists _, r, (N4 p (l ++ r0)). split; [reflexivity|]. split; [apply sto_swap; eapply put_sto; eauto|].
    split; [|cbn [lo kids]; auto]. split; [exact P|]. split; [exact K1|]. lia.
  - change (ntype (N16 p kc) =? NODE4_TYPE) with false. change (ntype (N16 p kc) =? NODE16_TYPE) with true. cbv iota.
    unfold art_node16_erase. rewrite D. cbn [obind].
    assert (EI : kidx k kc 0 = zlen l) by (rewrite E; rewrite kidx_app by (intros Q; apply LL in Q; lia); lia).
    assert (ED : kdel (zlen l) kc = l ++ r0) by (rewrite E; apply kdel_app).
    cbv zeta. rewrite EI. replace (zlen l =? -1) with false by lia. rewrite ED.
    set (n1 := N16 p (l ++ r0)). assert (W1 : wf n1) by (split; [exact P|]; split; [exact K1|]; unfold n1; lia).
    pose proof (put_sto a r _ n1 K D eq_refl) as S. pose proof S as (S1 & S2 & S3). pose proof (sto_at _ _ _ _ S) as S4.
    destruct (4 <? zlen (l ++ r0)) eqn:L4.
    + eexists _, r, n1. split; [reflexivity|]. split; [now apply sto_swap|]. split; [exact W1|]. cbn. split; auto. split; auto. lia.
    + assert (zlen (l ++ r0) = 4) as L4' by lia. unfold art_node4_create. rewrite prefix_ok_yes by exact P. cbn [obind].
      destruct (move_all art_node4_insert 4 (art_put a r n1) r n1 (N4 p [])) as (a1 & r1 & a2 & a3 & n' & E1 & E2 & E3 & S' & W' & T' & P' & K' & N1 & N2); auto.
      { apply room4. } { now apply empty4. } { unfold n1. cbn [kids]. lia. }
      rewrite E1. cbn [obind]. unfold guard. replace (zlen (l ++ r0) =? 4) with true by lia. cbn [obind].
      change (kids n1) with (l ++ r0) in E2. rewrite E2. cbn [obind]. rewrite E3. cbn [obind].
      exists a3, r1, n'. split; auto. split.
      * destruct S' as (Q1 & Q2 & Q3 & Q4). split; auto. split; [congruence|]. split.
        -- right. destruct Q3 as [Q3|Q3]; [congruence|]. rewrite S3 in Q3. destruct (Z.eqb_spec r1 r); congruence.
        -- intros x. rewrite Q4, S3. destruct (x =? r1); auto. destruct (x =? r); auto.
      * split; auto. split; auto. split; auto. rewrite K'. unfold n1. cbn [kids]. destruct n'; try discriminate. cbn [lo]. lia.
  - change (ntype (N48 p ct av ks ch) =? NODE4_TYPE) with false. change (ntype (N48 p ct av ks ch) =? NODE16_TYPE) with false.
    change (ntype (N48 p ct av ks ch) =? NODE48_TYPE) with true. cbv iota.
    unfold art_node48_erase. rewrite D. cbn [obind].
    destruct (n48_del _ _ _ _ _ _ _ _ _ W E) as (Nv & EK & W1). unfold NODE48_EMPTY_VAL.
    replace (znth ks k =? 48) with false by lia. set (n1 := N48 p (ct - 1) (Z.lor av (2 ^ znth ks k)) (zupd k 48 ks) ch) in *.
    pose proof (put_sto a r _ n1 K D eq_refl) as S. pose proof S as (S1 & S2 & S3). pose proof (sto_at _ _ _ _ S) as S4.
    assert (C : ct = zlen (n48_pairs ks ch)) by (destruct WW as (_ & _ & C & _); exact C).
    assert (EK' : kids n1 = l ++ r0) by exact EK.
    destruct (16 <? ct - 1) eqn:L4.
    + eexists _, r, n1. split; [reflexivity|]. split; [now apply sto_swap|]. split; [exact W1|]. split; auto. split; auto. rewrite EK'. cbn [lo n1]. lia.
    + unfold art_node16_create. rewrite prefix_ok_yes by exact P. cbn [obind].
      destruct (move_all art_node16_insert 16 (art_put a r n1) r n1 (N16 p [])) as (a1 & r1 & a2 & a3 & n' & E1 & E2 & E3 & S' & W' & T' & P' & K' & N1 & N2); auto.
      { apply room16. } { now apply empty16. } { rewrite EK'. lia. }
      rewrite E1. cbn [obind]. change (n48_pairs (zupd k 48 ks) ch) with (kids n1). rewrite E2. cbn [obind]. rewrite E3. cbn [obind].
      exists a3, r1, n'. split; auto. split.
      * destruct S' as (Q1 & Q2 & Q3 & Q4). split; auto. split; [congruence|]. split.
        -- right. destruct Q3 as [Q3|Q3]; [congruence|]. rewrite S3 in Q3. destruct (Z.eqb_spec r1 r); congruence.
        -- intros x. rewrite Q4, S3. destruct (x =? r1); auto. destruct (x =? r); auto.
      * split; auto. split; auto. split; [congruence|]. rewrite K', EK'. destruct n'; try discriminate. cbn [lo]. lia.
  - change (ntype (N256 p ct ch) =? NODE4_TYPE) with false. change (ntype (N256 p ct ch) =? NODE16_TYPE) with false.
    change (ntype (N256 p ct ch) =? NODE48_TYPE) with false. change (ntype (N256 p ct ch) =? NODE256_TYPE) with true. cbv iota.
    unfold art_node256_erase. rewrite D. cbn [obind].
    destruct (n256_del _ _ _ _ _ _ _ W E) as (EK & W1). unfold NULL_REF.
    set (n1 := N256 p (ct - 1) (zupd k 0 ch)) in *.
    pose proof (put_sto a r _ n1 K D eq_refl) as S. pose proof S as (S1 & S2 & S3). pose proof (sto_at _ _ _ _ S) as S4.
    assert (C : ct = zlen (n256_pairs ch)) by (destruct WW as (_ & C); exact C).
    assert (EK' : kids n1 = l ++ r0) by exact EK.
    destruct (48 <? ct - 1) eqn:L4.
    + eexists _, r, n1. split; [reflexivity|]. split; [now apply sto_swap|]. split; [exact W1|]. split; auto. split; auto. rewrite EK'. cbn [lo n1]. lia.
    + unfold art_node48_create. rewrite prefix_ok_yes by exact P. cbn [obind]. destruct (empty48 p P) as [W0 E0].
      destruct (move_all art_node48_insert 48 (art_put a r n1) r n1 (N48 p 0 AVAILABLE_MASK (repeat NODE48_EMPTY_VAL 256) (repeat 0 48)))
        as (a1 & r1 & a2 & a3 & n' & E1 & E2 & E3 & S' & W' & T' & P' & K' & N1 & N2); auto.
      { apply room48. } { rewrite EK'. lia. }
      rewrite E1. cbn [obind]. change (n256_pairs (zupd k 0 ch)) with (kids n1). rewrite E2. cbn [obind]. rewrite E3. cbn [obind].
      exists a3, r1, n'. split; auto. split.
      * destruct S' as (Q1 & Q2 & Q3 & Q4). split; auto. split; [congruence|]. split.
        -- right. destruct Q3 as [Q3|Q3]; [congruence|]. rewrite S3 in Q3. destruct (Z.eqb_spec r1 r); congruence.
        -- intros x. rewrite Q4, S3. destruct (x =? r1); auto. destruct (x =? r); auto.
      * split; auto. split; auto. split; [congruence|]. rewrite K', EK'. destruct n'; try discriminate. cbn [lo]. lia.
Qed.
