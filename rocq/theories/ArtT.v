(** ArtT: an ART as a tree; search, insertion and removal. *)
From Verif Require Import Base BitUtil Art ArtS ArtN ArtW.
Local Opaque zr n48_pairs n256_pairs.

(** ** Keys *)
Definition bytes (k : list Z) : Prop := Forall (fun b => 0 <= b < 256) k.
(** a key read as a big-endian number *)
Fixpoint kva (acc : Z) (k : list Z) : Z := match k with [] => acc | b :: t => kva (acc * 256 + b) t end.
Definition kv (k : list Z) : Z := kva 0 k.

Lemma kva_spec k : forall acc, kva acc k = acc * 256 ^ zlen k + kv k.
Proof.
  induction k as [|b k IH]; intros acc; unfold kv; cbn [kva].
  - unfold zlen; cbn. lia.
  - rewrite IH, (IH (0 * 256 + b)), zlen_cons, Z.pow_add_r by (pose proof (zlen_nonneg k); lia). lia.
Qed.
Lemma kv_cons b k : kv (b :: k) = b * 256 ^ zlen k + kv k.
Proof. unfold kv at 1. cbn [kva]. rewrite kva_spec. lia. Qed.
Lemma kv_range k : bytes k -> 0 <= kv k < 256 ^ zlen k.
Proof.
  induction 1 as [|b k B H IH]; [unfold zlen; cbn; unfold kv; cbn; lia|].
  rewrite kv_cons, zlen_cons, Z.pow_add_r by (pose proof (zlen_nonneg k); lia). assert (0 < 256 ^ zlen k) by lia. nia.
Qed.
Lemma memcmp_kv x : forall y, bytes x -> bytes y -> zlen x = zlen y ->
  (memcmp x y < 0 <-> kv x < kv y) /\ (memcmp x y = 0 <-> x = y) /\ (0 < memcmp x y <-> kv y < kv x).
Proof.
  induction x as [|a x IH]; intros [|b y] Bx By L; try (rewrite zlen_cons in L; unfold zlen in L; cbn in L; lia).
  - unfold memcmp. unfold kv; cbn. intuition lia.
  - rewrite !zlen_cons in L. assert (L' : zlen x = zlen y) by lia. apply Forall_cons_iff in Bx, By. destruct Bx as [Ba Bx], By as [Bb By].
    specialize (IH y Bx By L'). rewrite !kv_cons, <- L'. pose proof (kv_range x Bx) as Rx. pose proof (kv_range y By) as Ry. rewrite <- L' in Ry.
    cbn [memcmp]. destruct (Z.ltb_spec a b); [|destruct (Z.ltb_spec b a)].
    + assert (a * 256 ^ zlen x + kv x < b * 256 ^ zlen x + kv y) by nia. repeat split; intros; try lia. injection H1; lia.
    + assert (b * 256 ^ zlen x + kv y < a * 256 ^ zlen x + kv x) by nia. repeat split; intros; try lia. injection H2; lia.
    + assert (a = b) by lia. subst b. destruct IH as (I1 & I2 & I3). split; [|split].
      * rewrite I1. lia.
      * rewrite I2. split; [congruence|intros E; injection E; auto].
      * rewrite I3. lia.
Qed.
Lemma kv_inj x y : bytes x -> bytes y -> zlen x = zlen y -> kv x = kv y -> x = y.
Proof. intros Bx By L E. destruct (memcmp_kv x y Bx By L) as (A & B & C). apply B. destruct (Z.lt_trichotomy (memcmp x y) 0) as [Q|[Q|Q]]; auto; [apply A in Q; lia|apply C in Q; lia]. Qed.
Lemma memcmp_app p x y : memcmp (p ++ x) (p ++ y) = memcmp x y.
Proof. induction p; cbn; auto. now rewrite Z.ltb_irrefl. Qed.
Lemma bytes_app x y : bytes (x ++ y) <-> bytes x /\ bytes y.
Proof. apply Forall_app. Qed.
Lemma zsub_all l n : n = zlen l -> zsub l 0 n = l.
Proof. intros ->. unfold zsub, zlen. cbn. rewrite Nat2Z.id. apply firstn_all. Qed.
Lemma zsub_app p s n : n = zlen s -> zsub (p ++ s) (zlen p) n = s.
Proof. intros ->. unfold zsub, zlen. rewrite !Nat2Z.id, skipn_app, skipn_all, Nat.sub_diag. cbn. apply firstn_all. Qed.
Lemma zsub_mid p c s n : n = zlen c -> zsub (p ++ c ++ s) (zlen p) n = c.
Proof.
  intros ->. unfold zsub, zlen. rewrite !Nat2Z.id, skipn_app, skipn_all, Nat.sub_diag. cbn.
  rewrite firstn_app, firstn_all, Nat.sub_diag. cbn. apply app_nil_r.
Qed.
Lemma zsub_pre c s n : n = zlen c -> zsub (c ++ s) 0 n = c.
Proof. intros ->. apply (zsub_mid [] c s). reflexivity. Qed.
Lemma common_split x : forall y, exists c x' y', x = c ++ x' /\ y = c ++ y' /\ zlen c = common x y /\
  (x' = [] \/ y' = [] \/ exists a b x2 y2, x' = a :: x2 /\ y' = b :: y2 /\ a <> b).
Proof.
  induction x as [|a x IH]; intros y; cbn [common].
  - exists [], [], y. auto.
  - destruct y as [|b y]; [exists [], (a :: x), []; auto 10|]. destruct (Z.eqb_spec a b) as [Eab|N]; [subst b|].
    + destruct (IH y) as (c & x' & y' & -> & -> & L & D). exists (a :: c), x', y'. rewrite zlen_cons, L. split; auto. split; auto. split; [lia|auto].
    + exists [], (a :: x), (b :: y). split; auto. split; auto. split; auto. right. right. exists a, b, x, y. auto.
Qed.
Lemma common_refl x : common x x = zlen x.
Proof. induction x; cbn [common]; auto. rewrite Z.eqb_refl, zlen_cons, IHx. lia. Qed.
Lemma common_full x y : zlen x = zlen y -> common x y = zlen x -> x = y.
Proof.
  intros L E. destruct (common_split x y) as (c & x' & y' & -> & -> & C & _). rewrite <- C, !zlen_app in *.
  pose proof (zlen_nonneg x'). pose proof (zlen_nonneg y'). rewrite (zlen_0_nil x'), (zlen_0_nil y'); auto; lia.
Qed.
Lemma kget_app p b s : kget (p ++ b :: s) (zlen p) = Some b.
Proof.
  unfold kget. rewrite zlen_app, zlen_cons. pose proof (zlen_nonneg p). pose proof (zlen_nonneg s).
  replace (0 <=? zlen p) with true by lia. replace (zlen p <? zlen p + (zlen s + 1)) with true by lia. cbn.
  f_equal. unfold znth, zlen. rewrite Nat2Z.id. apply nth_middle.
Qed.
Lemma app_inv_split (p x s : list Z) : (exists s1, x ++ s1 = p ++ s) -> zlen p <= zlen x -> exists s2, x = p ++ s2.
Proof.
  revert x. induction p as [|a p IH]; intros x (s1 & E) L; [now exists x|].
  destruct x as [|b x]; [rewrite zlen_cons in L; unfold zlen in L; cbn in L; lia|]. cbn in E. injection E as -> E.
  rewrite !zlen_cons in L. destruct (IH x) as (s2 & ->); [eauto|lia|]. now exists s2.
Qed.

(** ** Trees *)
Inductive T : Type := TL (r : Z) (k : list Z) (v : Z) | TN (r : Z) (pre : list Z) (ch : list (Z * T)).
Fixpoint T_ind' (P : T -> Prop) (HL : forall r k v, P (TL r k v))
  (HN : forall r pre ch, Forall (fun p => P (snd p)) ch -> P (TN r pre ch)) (t : T) : P t :=
  match t with
  | TL r k v => HL r k v
  | TN r pre ch => HN r pre ch ((fix go l : Forall (fun p => P (snd p)) l :=
      match l with [] => Forall_nil _ | p :: l' => Forall_cons p (T_ind' P HL HN (snd p)) (go l') end) ch)
  end.
Definition tref (t : T) : Z := match t with TL r _ _ => r | TN r _ _ => r end.
Definition entry : Type := (list Z * (Z * Z))%type.   (* key, leaf, value *)
Fixpoint flat (t : T) : list entry :=
  match t with TL r k v => [(k, (r, v))] | TN _ _ ch => flat_map (fun p => flat (snd p)) ch end.
Fixpoint refs (t : T) : list Z :=
  match t with TL r _ _ => [r] | TN r _ ch => r :: flat_map (fun p => refs (snd p)) ch end.
Definition flatl (ch : list (Z * T)) : list entry := flat_map (fun p => flat (snd p)) ch.
Definition refsl (ch : list (Z * T)) : list Z := flat_map (fun p => refs (snd p)) ch.
Fixpoint allp (P : Z -> T -> Prop) (ch : list (Z * T)) : Prop := match ch with [] => True | (k, t) :: c => P k t /\ allp P c end.
Definition krefs (ch : list (Z * T)) : list (Z * Z) := map (fun p => (fst p, tref (snd p))) ch.
(** the nodes of the tree are in the store *)
Fixpoint holds (a : art) (t : T) : Prop :=
  match t with
  | TL r k v => art_deref a r = Some (NLeaf k v)
  | TN r pre ch => (exists n, art_deref a r = Some n /\ wf n /\ lo n <= zlen (kids n) /\ node_prefix n = pre /\ kids n = krefs ch) /\
    (fix go l := match l with [] => True | (_, t) :: l' => holds a t /\ go l' end) ch
  end.
(** the tree is well formed below the path [p] *)
Fixpoint wft (p : list Z) (t : T) : Prop :=
  match t with
  | TL _ k _ => zlen k = 6 /\ bytes k /\ exists s, k = p ++ s
  | TN _ pre ch => zlen p + zlen pre < 6 /\ bytes pre /\ incr (map fst ch) /\ inb 0 256 (map fst ch) /\ 2 <= zlen ch /\
    (fix go l := match l with [] => True | (k, t) :: l' => wft (p ++ pre ++ [k]) t /\ go l' end) ch
  end.
Definition holdsl (a : art) (ch : list (Z * T)) : Prop := allp (fun _ t => holds a t) ch.
Definition wftl (p : list Z) (ch : list (Z * T)) : Prop := allp (fun k t => wft (p ++ [k]) t) ch.
Lemma holds_TN a r pre ch : holds a (TN r pre ch) <->
  (exists n, art_deref a r = Some n /\ wf n /\ lo n <= zlen (kids n) /\ node_prefix n = pre /\ kids n = krefs ch) /\ holdsl a ch.
Proof.
  cbn [holds]. assert (E : forall l, (fix go l := match l with [] => True | (_, t) :: l' => holds a t /\ go l' end) l <-> holdsl a l).
  { induction l as [|[k t] l IH]; cbn; [tauto|]. rewrite IH. tauto. }
  rewrite E. tauto.
Qed.
Lemma wft_TN p r pre ch : wft p (TN r pre ch) <->
  zlen p + zlen pre < 6 /\ bytes pre /\ incr (map fst ch) /\ inb 0 256 (map fst ch) /\ 2 <= zlen ch /\ wftl (p ++ pre) ch.
Proof.
  cbn [wft]. assert (E : forall l, (fix go l := match l with [] => True | (k, t) :: l' => wft (p ++ pre ++ [k]) t /\ go l' end) l <-> wftl (p ++ pre) l).
  { induction l as [|[k t] l IH]; cbn; [tauto|]. rewrite IH, <- app_assoc. tauto. }
  rewrite E. tauto.
Qed.
Lemma allp_app P c1 c2 : allp P (c1 ++ c2) <-> allp P c1 /\ allp P c2.
Proof. induction c1 as [|[k t] c IH]; cbn; [tauto|]. rewrite IH. tauto. Qed.
Lemma allp_In P c k t : allp P c -> In (k, t) c -> P k t.
Proof. induction c as [|[k0 t0] c IH]; cbn; [tauto|]. intros [A B] [E|H]; [injection E as -> ->; auto|auto]. Qed.
Lemma allp_impl (P Q : Z -> T -> Prop) c : (forall k t, In (k, t) c -> P k t -> Q k t) -> allp P c -> allp Q c.
Proof. induction c as [|[k t] c IH]; cbn; auto. intros H [A B]. split; [apply H; auto|apply IH; auto]. Qed.
Lemma flat_TN r pre ch : flat (TN r pre ch) = flatl ch. Proof. reflexivity. Qed.
Lemma refs_TN r pre ch : refs (TN r pre ch) = r :: refsl ch. Proof. reflexivity. Qed.
Lemma flatl_app c1 c2 : flatl (c1 ++ c2) = flatl c1 ++ flatl c2. Proof. apply flat_map_app. Qed.
Lemma refsl_app c1 c2 : refsl (c1 ++ c2) = refsl c1 ++ refsl c2. Proof. apply flat_map_app. Qed.
Lemma flatl_cons k t c : flatl ((k, t) :: c) = flat t ++ flatl c. Proof. reflexivity. Qed.
Lemma refsl_cons k t c : refsl ((k, t) :: c) = refs t ++ refsl c. Proof. reflexivity. Qed.
Lemma krefs_app c1 c2 : krefs (c1 ++ c2) = krefs c1 ++ krefs c2. Proof. apply map_app. Qed.
Lemma krefs_cons k t c : krefs ((k, t) :: c) = (k, tref t) :: krefs c. Proof. reflexivity. Qed.
Lemma krefs_fst c : map fst (krefs c) = map fst c. Proof. unfold krefs. rewrite map_map. reflexivity. Qed.
Lemma krefs_zlen c : zlen (krefs c) = zlen c. Proof. unfold krefs. apply zlen_map. Qed.
Lemma tref_refs t : In (tref t) (refs t). Proof. destruct t; now left. Qed.
Lemma flat_ne t p : wft p t -> flat t <> [].
Proof.
  revert p. induction t as [r k v|r pre ch IH] using T_ind'; intros p W; [discriminate|].
  apply wft_TN in W. destruct W as (_ & _ & _ & _ & L & W). destruct ch as [|[k t] ch]; [unfold zlen in L; cbn in L; lia|].
  rewrite flat_TN, flatl_cons. inversion IH; subst. cbn in W. destruct W as [W _]. intros E. apply app_eq_nil in E. destruct E as [E _]. eapply H1; eauto.
Qed.
(** the keys in a subtree extend its path *)
Lemma flat_keys t : forall p k e, wft p t -> In (k, e) (flat t) -> zlen k = 6 /\ bytes k /\ exists s, k = p ++ s.
Proof.
  induction t as [r k0 v|r pre ch IH] using T_ind'; intros p k e W H.
  - destruct H as [E|[]]. injection E as <- <-. exact W.
  - apply wft_TN in W. destruct W as (_ & _ & _ & _ & _ & W). rewrite flat_TN in H. unfold flatl in H. apply in_flat_map in H.
    destruct H as ([k1 t1] & H1 & H2). rewrite Forall_forall in IH. pose proof (allp_In _ _ _ _ W H1) as W1. cbn in W1.
    destruct (IH _ H1 _ _ _ W1 H2) as (A & B & s & ->). split; auto. split; auto. exists (pre ++ k1 :: s). now rewrite <- !app_assoc.
Qed.
Lemma flatl_keys c p k e : wftl p c -> In (k, e) (flatl c) -> exists k1 s, In k1 (map fst c) /\ k = p ++ k1 :: s /\ zlen k = 6 /\ bytes k.
Proof.
  intros W H. unfold flatl in H. apply in_flat_map in H. destruct H as ([k1 t1] & H1 & H2). pose proof (allp_In _ _ _ _ W H1) as W1. cbn in W1.
  destruct (flat_keys _ _ _ _ W1 H2) as (A & B & s & ->). exists k1, s. split; [apply in_map_iff; now exists (k1, t1)|]. rewrite <- app_assoc in *. auto.
Qed.
(** the entries are sorted by key *)
Definition ik (e : entry) : Z := kv (fst e).
Lemma path_lt p k1 s1 k2 s2 : bytes (p ++ k1 :: s1) -> bytes (p ++ k2 :: s2) -> zlen (p ++ k1 :: s1) = zlen (p ++ k2 :: s2) -> k1 < k2 ->
  kv (p ++ k1 :: s1) < kv (p ++ k2 :: s2).
Proof.
  intros B1 B2 L H. apply (memcmp_kv _ _ B1 B2 L). rewrite memcmp_app. cbn. replace (k1 <? k2) with true by lia. lia.
Qed.
Lemma flat_sorted t : forall p, wft p t -> incr (map ik (flat t)).
Proof.
  induction t as [r k0 v|r pre ch IH] using T_ind'; intros p W; [cbn; auto|].
  apply wft_TN in W. destruct W as (_ & _ & I & _ & _ & W). rewrite flat_TN.
  induction ch as [|[k t] ch IHc]; [cbn; auto|]. inversion IH; subst. cbn in W, I. destruct W as [W1 W2], I as [I1 I2].
  rewrite flatl_cons, map_app. apply incr_app. split; [eapply H1; eauto|]. split; [apply IHc; auto|].
  intros x y Hx Hy. apply in_map_iff in Hx, Hy. destruct Hx as ([kx ex] & <- & Hx), Hy as ([ky ey] & <- & Hy). unfold ik. cbn [fst].
  destruct (flat_keys _ _ _ _ W1 Hx) as (Lx & Bx & sx & ->). destruct (flatl_keys _ _ _ _ W2 Hy) as (k2 & sy & Hk & -> & Ly & By).
  rewrite <- app_assoc in *. cbn [app] in *. rewrite Forall_forall in I1. rewrite app_assoc in *. apply path_lt; auto. lia.
Qed.
(** reading a child *)
Lemma ch_split (ch : list (Z * T)) k : In k (map fst ch) -> exists c1 t c2, ch = c1 ++ (k, t) :: c2.
Proof. intros H. apply in_map_iff in H. destruct H as ([k' t] & <- & H). apply in_split in H. destruct H as (c1 & c2 & ->). eauto. Qed.
Lemma holds_live a t x : holds a t -> In x (refs t) -> art_deref a x <> None.
Proof.
  revert x. induction t as [r k v|r pre ch IH] using T_ind'; intros x H Hx.
  - cbn in H. destruct Hx as [<-|[]]. congruence.
  - apply holds_TN in H. destruct H as ((n & D & _) & H). rewrite refs_TN in Hx. destruct Hx as [<-|Hx]; [congruence|].
    unfold refsl in Hx. apply in_flat_map in Hx. destruct Hx as ([k t] & H1 & H2). rewrite Forall_forall in IH.
    apply (IH _ H1); auto. exact (allp_In _ _ _ _ H H1).
Qed.
Lemma holdsl_live a c x : holdsl a c -> In x (refsl c) -> art_deref a x <> None.
Proof. intros H Hx. unfold refsl in Hx. apply in_flat_map in Hx. destruct Hx as ([k t] & H1 & H2). eapply holds_live; eauto. exact (allp_In _ _ _ _ H H1). Qed.
Lemma holds_ext a a' t : (forall x, In x (refs t) -> art_deref a' x = art_deref a x) -> holds a t -> holds a' t.
Proof.
  induction t as [r k v|r pre ch IH] using T_ind'; intros E H.
  - cbn in *. rewrite E; auto.
  - apply holds_TN in H. apply holds_TN. rewrite refs_TN in E. destruct H as (H1 & H2). split; [rewrite E by (now left); exact H1|].
    eapply allp_impl; [|exact H2]. intros k t Hi Ht. rewrite Forall_forall in IH. apply (IH _ Hi); auto. intros x Hx. apply E. right.
    apply in_flat_map. exists (k, t). auto.
Qed.
Lemma holdsl_ext a a' c : (forall x, In x (refsl c) -> art_deref a' x = art_deref a x) -> holdsl a c -> holdsl a' c.
Proof. intros E H. eapply allp_impl; [|exact H]. intros k t Hi Ht. eapply holds_ext; [|exact Ht]. intros x Hx. apply E. apply in_flat_map. exists (k, t). auto. Qed.

(** ** Frames *)
Definition step (a : art) (F : list Z) (a' : art) (F' : list Z) : Prop :=
  (forall x, ~ In x F -> ~ In x F' -> art_deref a' x = art_deref a x) /\
  (forall x, In x F' -> ~ In x F -> art_deref a x = None) /\
  (forall x, In x F -> ~ In x F' -> art_deref a' x = None).
Lemma step_trans a F a1 F1 a2 F2 : step a F a1 F1 -> step a1 F1 a2 F2 -> step a F a2 F2.
Proof.
  intros (A1 & A2 & A3) (B1 & B2 & B3). split; [|split].
  - intros x N N2. destruct (in_dec Z.eq_dec x F1) as [I|I]; [rewrite B3, A2 by auto; auto|rewrite B1, A1 by auto; auto].
  - intros x I2 N. destruct (in_dec Z.eq_dec x F1) as [I|I]; [apply A2; auto|rewrite <- A1 by auto; apply B2; auto].
  - intros x I N2. destruct (in_dec Z.eq_dec x F1) as [I1|I1]; [apply B3; auto|rewrite B1 by auto; apply A3; auto].
Qed.
Lemma step_frame a F a' F' G H H' : step a F a' F' -> (forall x, In x H <-> In x G \/ In x F) -> (forall x, In x H' <-> In x G \/ In x F') -> step a H a' H'.
Proof.
  intros (A1 & A2 & A3) E E'. split; [|split]; intros x; rewrite E, E'; intros; [apply A1|apply A2|apply A3]; tauto.
Qed.
Lemma step_keep a F a' F' G : step a F a' F' -> (forall x, In x G -> art_deref a x <> None) -> (forall x, In x G -> ~ In x F) ->
  (forall x, In x G -> ~ In x F') /\ (forall x, In x G -> art_deref a' x = art_deref a x).
Proof.
  intros (A1 & A2 & A3) L N. assert (N' : forall x, In x G -> ~ In x F') by (intros x Hx Hx'; apply (L x Hx); apply A2; auto).
  split; auto.
Qed.
Lemma sto_step a r n a' F : sto a r (Some n) a' -> In r F -> step a F a' F.
Proof. intros (_ & _ & D) I. split; [|split]; intros x; intros; try tauto. rewrite D. destruct (Z.eqb_spec x r); subst; tauto. Qed.
Lemma swap_step a r r' n a' : swap a r r' n a' -> step a [r] a' [r'].
Proof.
  intros (_ & _ & F & D). split; [|split]; cbn; intros x; intros.
  - rewrite D. destruct (Z.eqb_spec x r'); [subst; tauto|]. destruct (Z.eqb_spec x r); [subst; tauto|auto].
  - destruct F; [|intuition congruence]. subst. tauto.
  - rewrite D. destruct (Z.eqb_spec x r'); [subst; tauto|]. destruct (Z.eqb_spec x r); [auto|intuition congruence].
Qed.
Lemma NoDup_app_iff {A} (l1 l2 : list A) : NoDup (l1 ++ l2) <-> NoDup l1 /\ NoDup l2 /\ (forall x, In x l1 -> ~ In x l2).
Proof.
  induction l1 as [|a l1 IH]; cbn.
  - split; [intros; split; [constructor|split; auto]|tauto].
  - rewrite !NoDup_cons_iff, IH, in_app_iff. firstorder. subst. auto.
Qed.

(** ** Search *)
Lemma T_children_incr p r pre c1 k t c2 : wft p (TN r pre (c1 ++ (k, t) :: c2)) ->
  0 <= k < 256 /\ (forall x, In x (map fst c1) -> x < k) /\ (forall x, In x (map fst c2) -> k < x) /\ wft (p ++ pre ++ [k]) t /\
  wftl (p ++ pre) c1 /\ wftl (p ++ pre) c2 /\ zlen p + zlen pre < 6 /\ bytes pre.
Proof.
  intros W. apply wft_TN in W. destruct W as (L & B & I & R & _ & W). rewrite map_app in I, R. cbn in I, R.
  apply incr_app in I. destruct I as (I1 & [I2 I3] & I4). apply inb_app in R. destruct R as [R1 R2]. apply inb_cons in R2.
  rewrite Forall_forall in I2. apply allp_app in W. destruct W as [W1 [W2 W3]]. rewrite <- app_assoc in W2.
  split; [tauto|]. split; [intros; apply I4; auto; now left|]. auto 10.
Qed.
(** keys in other children differ from a key that goes through [k] *)
Lemma flatl_other p c k s : wftl p c -> ~ In k (map fst c) -> ~ In (p ++ k :: s) (map fst (flatl c)).
Proof.
  intros W N H. apply in_map_iff in H. destruct H as ([k0 e] & E & H). cbn in E. subst k0. destruct (flatl_keys _ _ _ _ W H) as (k1 & s1 & Hk & E & _).
  apply app_inv_head in E. injection E as -> ->. auto.
Qed.
Lemma flat_off_path p t k : wft p t -> In k (map fst (flat t)) -> exists s, k = p ++ s.
Proof. intros W H. apply in_map_iff in H. destruct H as ([k0 e] & <- & H). destruct (flat_keys _ _ _ _ W H) as (_ & _ & s & ->). cbn. eauto. Qed.

(** how the key [p ++ s] meets the prefix of a node at path [p] *)
Lemma prefix_cases pre s : zlen pre < zlen s ->
  (common pre s = zlen pre /\ exists k s', s = pre ++ k :: s') \/
  (common pre s <> zlen pre /\ exists c a b x y, pre = c ++ a :: x /\ s = c ++ b :: y /\ a <> b /\ zlen c = common pre s).
Proof.
  intros L. destruct (common_split pre s) as (c & x' & y' & E1 & E2 & C & D). destruct x' as [|a x].
  - left. rewrite app_nil_r in E1. subst c. split; auto. destruct y' as [|k s']; [|eauto]. rewrite app_nil_r in E2. subst. lia.
  - right. assert (L1 : zlen pre = zlen c + zlen x + 1) by (rewrite E1, zlen_app, zlen_cons; lia). pose proof (zlen_nonneg x). split; [lia|].
    destruct D as [D|[D|(a' & b & x2 & y2 & D1 & D2 & D3)]]; [discriminate| |].
    + subst y'. rewrite app_nil_r in E2. subst. lia.
    + injection D1 as <- <-. subst y'. exists c, a, b, x, y2. auto.
Qed.
Lemma ccp_pre pre p s : zlen (p ++ s) = 6 -> art_common_prefix pre 0 (zlen pre) (p ++ s) (zlen p) KEY_BYTES = common pre s.
Proof.
  intros L. unfold art_common_prefix. rewrite zsub_all by lia. rewrite zsub_app; auto. rewrite zlen_app in L. unfold KEY_BYTES. lia.
Qed.
Lemma ccp_full x y : zlen x = 6 -> zlen y = 6 -> art_common_prefix x 0 KEY_BYTES y 0 KEY_BYTES = common x y.
Proof. intros Lx Ly. unfold art_common_prefix, KEY_BYTES. rewrite !zsub_all by lia. auto. Qed.
Lemma art_is_leaf_TN a r n : art_deref a r = Some n -> wf n -> art_is_leaf r = false.
Proof. intros D W. apply deref_inv in D. destruct D as (_ & E & _). unfold art_is_leaf. rewrite E. destruct n; [destruct W as (_ & _ & [])|..]; reflexivity. Qed.
Lemma art_is_leaf_TL a r k v : art_deref a r = Some (NLeaf k v) -> art_is_leaf r = true.
Proof. intros D. apply deref_inv in D. destruct D as (_ & E & _). unfold art_is_leaf. rewrite E. reflexivity. Qed.
Lemma tref_nz a t : holds a t -> tref t <> 0.
Proof. destruct t; [cbn; apply deref_nz|]. intros H. apply holds_TN in H. destruct H as ((n & D & _) & _). eapply deref_nz; eauto. Qed.

Ltac inner n := destruct n as [?k0 ?v0|?p0 ?kc0|?p0 ?kc0|?p0 ?ct0 ?av0 ?ks0 ?ch0|?p0 ?ct0 ?ch0]; [match goal with H : wf _ |- _ => destruct H as (_ & _ & []) end|..].

Lemma find_at_inner f a r key depth n : art_deref a r = Some n -> wf n ->
  art_find_at (S f) a r key depth =
  if negb (art_common_prefix (node_prefix n) 0 (zlen (node_prefix n)) key depth KEY_BYTES =? zlen (node_prefix n)) then Some NULL_REF
  else do kc <- kget key (depth + zlen (node_prefix n));
       let child := art_find_child n kc in
       if child =? NULL_REF then Some NULL_REF else art_find_at f a child key (depth + zlen (node_prefix n) + 1).
Proof. intros D W. cbn [art_find_at]. rewrite D. inner n; reflexivity. Qed.
Definition found (l : list entry) (key : list Z) (r : Z) : Prop :=
  (exists v, In (key, (r, v)) l) \/ (r = 0 /\ ~ In key (map fst l)).
Lemma find_at_ok fuel : forall a t p s, holds a t -> wft p t -> zlen (p ++ s) = 6 -> bytes (p ++ s) -> 6 < zlen p + Z.of_nat fuel ->
  exists r, art_find_at fuel a (tref t) (p ++ s) (zlen p) = Some r /\ found (flat t) (p ++ s) r.
Proof.
  induction fuel as [|f IH]; intros a t p s H W L B F; [rewrite zlen_app in L; pose proof (zlen_nonneg s); lia|].
  destruct t as [r k v|r pre ch].
  - cbn [holds tref flat] in *. cbn [art_find_at]. rewrite H. cbn [obind]. destruct W as (Lk & Bk & s' & Ek).
    rewrite ccp_full by auto. unfold KEY_BYTES. rewrite zlen_app in L. pose proof (zlen_nonneg s).
    destruct (6 <=? zlen p) eqn:E6.
    + exists r. split; auto. left. exists v. left. f_equal. rewrite Ek, zlen_app in Lk. pose proof (zlen_nonneg s').
      rewrite (zlen_0_nil s), (zlen_0_nil s') in * by lia. auto.
    + destruct (Z.eqb_spec (common k (p ++ s)) 6) as [E|E].
      * exists r. split; auto. left. exists v. left. f_equal. apply common_full; rewrite ?zlen_app; lia.
      * exists 0. split; auto. right. split; auto. cbn. intros [Q|[]]. apply E. rewrite Q, common_refl. rewrite zlen_app. lia.
  - apply holds_TN in H. destruct H as ((n & D & Wn & Lo & P & Kn) & Hc). cbn [tref]. rewrite (find_at_inner f a r _ _ n D Wn).
    pose proof W as W0. apply wft_TN in W0. destruct W0 as (Lp & Bp & I & R & L2 & Wc).
    assert (Ls : zlen pre < zlen s) by (rewrite zlen_app in L; lia).
    rewrite P, ccp_pre by auto.
    destruct (prefix_cases pre s Ls) as [(E & k & s' & ->)|(E & c & a0 & b & x & y & -> & -> & Nab & _)].
    + rewrite E, Z.eqb_refl. cbn [negb]. rewrite app_assoc, <- zlen_app, kget_app. cbn [obind]. cbv zeta.
      rewrite app_assoc in B, L. assert (Bk : 0 <= k < 256) by (apply bytes_app in B; destruct B as [_ B]; now inversion B).
      destruct (in_dec Z.eq_dec k (map fst ch)) as [Hk|Hk].
      * destruct (ch_split _ _ Hk) as (c1 & t & c2 & ->). destruct (T_children_incr _ _ _ _ _ _ _ W) as (_ & L1 & R1 & Wt & Wc1 & Wc2 & _).
        apply allp_app in Hc. destruct Hc as [Hc1 [Ht Hc2]].
        rewrite (find_child_in n k (tref t)); [|auto|rewrite Kn, krefs_app, krefs_cons; apply in_elt].
        pose proof (tref_nz _ _ Ht). unfold NULL_REF. replace (tref t =? 0) with false by lia.
        destruct (IH a t ((p ++ pre) ++ [k]) s') as (r' & Er & Fr).
        { exact Ht. } { now rewrite <- app_assoc. } { now rewrite <- app_assoc. } { now rewrite <- app_assoc. }
        { rewrite !zlen_app. change (zlen [k]) with 1. pose proof (zlen_nonneg pre). lia. }
        rewrite <- !app_assoc in Er, Fr. cbn [app] in Er, Fr. rewrite <- !app_assoc.
        exists r'. split. { rewrite <- Er. f_equal. rewrite !zlen_app. change (zlen [k]) with 1. lia. }
        rewrite flat_TN, flatl_app, flatl_cons. destruct Fr as [(v & Fr)|(E0 & Fr)].
        -- left. exists v. rewrite !in_app_iff. auto.
        -- right. split; auto. rewrite !map_app, !in_app_iff. rewrite app_assoc in *. intros [Q|[Q|Q]]; auto.
           ++ revert Q. apply flatl_other; auto. intros Q. apply L1 in Q. lia.
           ++ revert Q. apply flatl_other; auto. intros Q. apply R1 in Q. lia.
      * rewrite find_child_out; auto; [|rewrite Kn, krefs_fst; auto]. exists 0. split; auto. right. split; auto. rewrite flat_TN. apply flatl_other; auto.
    + replace (common (c ++ a0 :: x) (c ++ b :: y) =? zlen (c ++ a0 :: x)) with false by lia. cbn [negb]. exists 0. split; auto. right. split; auto.
      intros Q. rewrite flat_TN in Q. apply in_map_iff in Q. destruct Q as ([k e] & Ek & Q). cbn in Ek. subst k.
      destruct (flatl_keys _ _ _ _ Wc Q) as (k1 & s1 & _ & E1 & _). rewrite <- !app_assoc in E1. apply app_inv_head in E1. apply app_inv_head in E1.
      injection E1 as E1 _. congruence.
Qed.
