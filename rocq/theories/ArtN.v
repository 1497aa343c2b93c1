(** ArtN: the inner nodes of an ART as sorted association lists of children. *)
From Verif Require Import Base BitUtil Art ArtS.
Local Opaque zr.

Definition kids (n : node) : list (Z * Z) :=
  match n with
  | NLeaf _ _ => []
  | N4 _ kc | N16 _ kc => kc
  | N48 _ _ _ keys children => n48_pairs keys children
  | N256 _ _ children => n256_pairs children
  end.
Definition kok (l : list (Z * Z)) : Prop := incr (map fst l) /\ Forall (fun p => 0 <= fst p < 256 /\ snd p <> 0) l.
(** fewest children of a node of this type in a tree *)
Definition lo (n : node) : Z := match n with NLeaf _ _ => 0 | N4 _ _ => 2 | N16 _ _ => 5 | N48 _ _ _ _ _ => 17 | N256 _ _ _ => 49 end.
Definition wf (n : node) : Prop :=
  zlen (node_prefix n) <= 5 /\ kok (kids n) /\
  match n with
  | NLeaf _ _ => False
  | N4 _ kc => zlen kc <= 4
  | N16 _ kc => zlen kc <= 16
  | N48 _ count avail keys children =>
    zlen keys = 256 /\ zlen children = 48 /\ count = zlen (kids n) /\
    (forall i, 0 <= i < 256 -> 0 <= znth keys i <= 48) /\
    (forall i j, 0 <= i < 256 -> 0 <= j < 256 -> znth keys i = znth keys j -> znth keys i <> 48 -> i = j) /\
    0 <= avail < 2^48 /\
    (forall j, 0 <= j < 48 -> (Z.testbit avail j = true <-> forall i, 0 <= i < 256 -> znth keys i <> j))
  | N256 _ count children => zlen children = 256 /\ count = zlen (kids n)
  end.

(** ** Association lists with increasing keys *)
Lemma kok_unique (l : list (Z * Z)) k c c' : incr (map fst l) -> In (k, c) l -> In (k, c') l -> c = c'.
Proof.
  induction l as [|[k0 c0] l IH]; cbn; [tauto|]. intros [H1 H2] A B. rewrite Forall_forall in H1.
  destruct A as [A|A], B as [B|B].
  - congruence.
  - injection A as <- <-. apply (in_map fst) in B. apply H1 in B. cbn in B. lia.
  - injection B as <- <-. apply (in_map fst) in A. apply H1 in A. cbn in A. lia.
  - eauto.
Qed.
Lemma alist_ext (l1 : list (Z * Z)) : forall l2, incr (map fst l1) -> incr (map fst l2) -> (forall k c, In (k, c) l1 <-> In (k, c) l2) -> l1 = l2.
Proof.
  induction l1 as [|[k c] l1 IH]; intros [|[k' c'] l2] H1 H2 E; auto.
  - exfalso. apply (E k' c'). now left.
  - exfalso. apply (E k c). now left.
  - cbn in H1, H2. destruct H1 as [A1 H1], H2 as [A2 H2]. rewrite Forall_forall in A1, A2.
    assert (X : (k, c) = (k', c')).
    { destruct (proj1 (E k c) (or_introl eq_refl)) as [X|X]; [now symmetry|].
      destruct (proj2 (E k' c') (or_introl eq_refl)) as [Y|Y]; auto.
      apply (in_map fst) in X. apply (in_map fst) in Y. apply A2 in X. apply A1 in Y. cbn in *. lia. }
    injection X as <- <-. f_equal. apply IH; auto. intros x y. split; intros Hx.
    + destruct (proj1 (E x y) (or_intror Hx)) as [X|]; auto. injection X as <- <-.
      apply (in_map fst) in Hx. apply A1 in Hx. cbn in Hx. lia.
    + destruct (proj2 (E x y) (or_intror Hx)) as [X|]; auto. injection X as <- <-.
      apply (in_map fst) in Hx. apply A2 in Hx. cbn in Hx. lia.
Qed.
Lemma kok_app l1 k c l2 : kok (l1 ++ (k, c) :: l2) ->
  kok l1 /\ kok l2 /\ 0 <= k < 256 /\ c <> 0 /\ (forall x, In x (map fst l1) -> x < k) /\ (forall x, In x (map fst l2) -> k < x).
Proof.
  unfold kok. rewrite map_app. cbn. intros [H F]. apply incr_app in H. destruct H as (H1 & [H2 H3] & H4).
  apply Forall_app in F. destruct F as [F1 F2]. inversion F2; subst. cbn in *. rewrite Forall_forall in H2.
  split; [auto|]. split; [auto|]. split; [tauto|]. split; [tauto|]. split; [|auto]. intros x Hx. apply H4; auto.
Qed.
Lemma In_map_fst (l : list (Z * Z)) k : In k (map fst l) <-> exists c, In (k, c) l.
Proof. rewrite in_map_iff. split; [intros ([a b] & <- & H); eauto|intros (c & H); now exists (k, c)]. Qed.
Lemma kins_In key child l k c : In (k, c) (kins key child l) <-> (k, c) = (key, child) \/ In (k, c) l.
Proof.
  induction l as [|[k0 c0] l IH]; cbn; [intuition|]. destruct (key <? k0); cbn; [intuition|]. rewrite IH. intuition.
Qed.
Lemma kins_incr key child l : incr (map fst l) -> ~ In key (map fst l) -> incr (map fst (kins key child l)).
Proof.
  induction l as [|[k0 c0] l IH]; cbn; intros H N; [auto|]. destruct H as [H1 H2]. rewrite Forall_forall in H1.
  destruct (Z.ltb_spec key k0); cbn.
  - split; [constructor; [lia|]; apply Forall_forall; intros x Hx; apply H1 in Hx; lia|]. split; auto. now apply Forall_forall.
  - split; [|apply IH; auto]. apply Forall_forall. intros x Hx. apply In_map_fst in Hx. destruct Hx as (c & Hx).
    apply kins_In in Hx. destruct Hx as [E|Hx]; [injection E as -> ->; assert (k0 <> key) by tauto; lia|].
    apply H1. apply In_map_fst; eauto.
Qed.
Lemma kins_zlen key child l : zlen (kins key child l) = zlen l + 1.
Proof. induction l as [|[k0 c0] l IH]; cbn; [reflexivity|]. destruct (key <? k0); rewrite !zlen_cons; try rewrite IH; lia. Qed.
Lemma kins_kok key child l : kok l -> ~ In key (map fst l) -> 0 <= key < 256 -> child <> 0 -> kok (kins key child l).
Proof.
  intros [H F] N B C. split; [now apply kins_incr|]. rewrite Forall_forall in *. intros [k c] H'. apply kins_In in H'.
  destruct H' as [E|H']; [injection E as -> ->; auto|apply (F _ H')].
Qed.
Lemma kins_end key child l : (forall x, In x (map fst l) -> x < key) -> kins key child l = l ++ [(key, child)].
Proof.
  induction l as [|[k c] l IH]; cbn; intros H; auto. pose proof (H k (or_introl eq_refl)).
  replace (key <? k) with false by lia. f_equal. apply IH. auto.
Qed.
Lemma kins_split key child l1 l2 : (forall x, In x (map fst l1) -> x < key) -> (forall x, In x (map fst l2) -> key < x) ->
  kins key child (l1 ++ l2) = l1 ++ (key, child) :: l2.
Proof.
  intros H1 H2. induction l1 as [|[k c] l IH]; cbn.
  - destruct l2 as [|[k c] l2]; cbn; auto. pose proof (H2 k (or_introl eq_refl)). now replace (key <? k) with true by lia.
  - pose proof (H1 k (or_introl eq_refl)). replace (key <? k) with false by lia. f_equal. apply IH. intros; apply H1; now right.
Qed.
(** the place of an absent key *)
Lemma ksplit key (l : list (Z * Z)) : incr (map fst l) -> ~ In key (map fst l) ->
  exists l1 l2, l = l1 ++ l2 /\ (forall x, In x (map fst l1) -> x < key) /\ (forall x, In x (map fst l2) -> key < x).
Proof.
  induction l as [|[k c] l IH]; cbn; intros H N.
  - exists [], []. cbn. tauto.
  - destruct H as [H1 H2]. rewrite Forall_forall in H1. assert (k <> key) by tauto.
    destruct (Z_lt_dec k key).
    + destruct IH as (l1 & l2 & -> & A & B); auto. exists ((k, c) :: l1), l2. cbn. split; auto. split; auto.
      intros x [<-|Hx]; auto.
    + exists [], ((k, c) :: l). cbn. split; auto. split; [tauto|]. intros x [<-|Hx]; [lia|]. apply H1 in Hx. lia.
Qed.
Lemma kidx_app k l1 c l2 i : ~ In k (map fst l1) -> kidx k (l1 ++ (k, c) :: l2) i = i + zlen l1.
Proof.
  revert i. induction l1 as [|[k0 c0] l1 IH]; intros i N; cbn.
  - rewrite Z.eqb_refl. unfold zlen; cbn; lia.
  - cbn in N. destruct (Z.eqb_spec k0 k); [tauto|]. rewrite IH by tauto. rewrite zlen_cons. lia.
Qed.
Lemma kidx_none k l i : ~ In k (map fst l) -> kidx k l i = -1.
Proof. revert i. induction l as [|[k0 c0] l IH]; intros i N; cbn in *; auto. destruct (Z.eqb_spec k0 k); [tauto|]. apply IH; tauto. Qed.
Lemma kidx_last_none k l i d : ~ In k (map fst l) -> kidx_last k l i d = d.
Proof. revert i d. induction l as [|[k0 c0] l IH]; intros i d N; cbn in *; auto. destruct (Z.eqb_spec k0 k); [tauto|]. apply IH; tauto. Qed.
Lemma kidx_last_app k l1 c l2 i d : ~ In k (map fst l1) -> ~ In k (map fst l2) -> kidx_last k (l1 ++ (k, c) :: l2) i d = i + zlen l1.
Proof.
  revert i d. induction l1 as [|[k0 c0] l1 IH]; intros i d N N2; cbn.
  - rewrite Z.eqb_refl, kidx_last_none by auto. unfold zlen; cbn; lia.
  - cbn in N. destruct (Z.eqb_spec k0 k); [tauto|]. rewrite IH by tauto. rewrite zlen_cons. lia.
Qed.
Lemma knth_app l1 x l2 : knth (l1 ++ x :: l2) (zlen l1) = x.
Proof. unfold knth, zlen. rewrite Nat2Z.id. apply nth_middle. Qed.
Lemma kdel_app l1 x l2 : kdel (zlen l1) (l1 ++ x :: l2) = l1 ++ l2.
Proof.
  unfold kdel, zlen. rewrite Nat2Z.id. replace (Z.to_nat (Z.of_nat (length l1) + 1)) with (S (length l1)) by lia.
  rewrite firstn_app, Nat.sub_diag, firstn_all, firstn_O, app_nil_r. f_equal.
  rewrite skipn_app, skipn_all2 by lia. cbn [app]. now replace (S (length l1) - length l1)%nat with 1%nat by lia.
Qed.
Lemma kupd_app (l1 : list (Z * Z)) x y l2 : upd (Z.to_nat (zlen l1)) y (l1 ++ x :: l2) = l1 ++ y :: l2.
Proof.
  unfold zlen. rewrite Nat2Z.id. induction l1; cbn; auto. now rewrite IHl1.
Qed.
Lemma klb_app key l1 l2 i : (forall x, In x (map fst l1) -> x < key) -> (forall x, In x (map fst l2) -> key <= x) ->
  klb key (l1 ++ l2) i = match l2 with [] => None | (k, c) :: _ => Some (c, i + zlen l1, k) end.
Proof.
  revert i. induction l1 as [|[k c] l1 IH]; intros i H1 H2; cbn.
  - destruct l2 as [|[k c] l2]; cbn; auto. pose proof (H2 k (or_introl eq_refl)). replace (key <=? k) with true by lia.
    unfold zlen; cbn. do 2 f_equal. f_equal. lia.
  - pose proof (H1 k (or_introl eq_refl)). replace (key <=? k) with false by lia. rewrite IH; auto; [|intros; apply H1; now right].
    destruct l2 as [|[k' c'] l2]; auto. rewrite zlen_cons. do 2 f_equal. f_equal. lia.
Qed.
(** splitting at a lower bound *)
Lemma lbsplit key (l : list (Z * Z)) : incr (map fst l) ->
  exists l1 l2, l = l1 ++ l2 /\ (forall x, In x (map fst l1) -> x < key) /\ (forall x, In x (map fst l2) -> key <= x).
Proof.
  induction l as [|[k c] l IH]; cbn; intros H.
  - exists [], []. cbn. tauto.
  - destruct H as [H1 H2]. rewrite Forall_forall in H1. destruct (Z_lt_dec k key).
    + destruct IH as (l1 & l2 & -> & A & B); auto. exists ((k, c) :: l1), l2. cbn. split; auto. split; auto.
      intros x [<-|Hx]; auto.
    + exists [], ((k, c) :: l). cbn. split; auto. split; [tauto|]. intros x [<-|Hx]; [lia|]. apply H1 in Hx. lia.
Qed.

(** ** Nodes indexed by byte *)
Definition pairs_of (p : Z -> bool) (g : Z -> Z) : list (Z * Z) := map (fun i => (i, g i)) (filter p (zr 0 256)).
Lemma flat_map_pairs (p : Z -> bool) (g : Z -> Z) l :
  flat_map (fun i => if p i then [] else [(i, g i)]) l = map (fun i => (i, g i)) (filter (fun i => negb (p i)) l).
Proof. induction l; cbn; auto. destruct (p a); cbn; rewrite IHl; auto. Qed.
Lemma n48_pairs_of keys children :
  n48_pairs keys children = pairs_of (fun i => negb (znth keys i =? NODE48_EMPTY_VAL)) (fun i => znth children (znth keys i)).
Proof. apply (flat_map_pairs (fun i => znth keys i =? NODE48_EMPTY_VAL)). Qed.
Lemma n256_pairs_of children : n256_pairs children = pairs_of (fun i => negb (znth children i =? NULL_REF)) (fun i => znth children i).
Proof. apply (flat_map_pairs (fun i => znth children i =? NULL_REF)). Qed.
Lemma pairs_fst p g : map fst (pairs_of p g) = filter p (zr 0 256).
Proof. unfold pairs_of. rewrite map_map. cbn. apply map_id. Qed.
Lemma pairs_incr p g : incr (map fst (pairs_of p g)).
Proof. rewrite pairs_fst. apply incr_filter, zr_incr. Qed.
Lemma pairs_In p g k c : In (k, c) (pairs_of p g) <-> 0 <= k < 256 /\ p k = true /\ c = g k.
Proof.
  unfold pairs_of. rewrite in_map_iff. split.
  - intros (i & E & H). injection E as <- <-. apply filter_In in H. rewrite zr_In in H. tauto.
  - intros (B & P & ->). exists k. split; auto. apply filter_In. rewrite zr_In. tauto.
Qed.
Lemma n48_In keys ch k c : In (k, c) (n48_pairs keys ch) <-> 0 <= k < 256 /\ znth keys k <> 48 /\ c = znth ch (znth keys k).
Proof. rewrite n48_pairs_of, pairs_In. unfold NODE48_EMPTY_VAL. intuition lia. Qed.
Lemma n256_In ch k c : In (k, c) (n256_pairs ch) <-> 0 <= k < 256 /\ znth ch k <> 0 /\ c = znth ch k.
Proof. rewrite n256_pairs_of, pairs_In. unfold NULL_REF. intuition lia. Qed.
Lemma n48_incr keys ch : incr (map fst (n48_pairs keys ch)).
Proof. rewrite n48_pairs_of. apply pairs_incr. Qed.
Lemma n256_incr ch : incr (map fst (n256_pairs ch)).
Proof. rewrite n256_pairs_of. apply pairs_incr. Qed.

Lemma find_filter {A} (p : A -> bool) l : find p l = hd_error (filter p l).
Proof. induction l; cbn; auto. destruct (p a); auto. Qed.
Lemma filter_rev' {A} (p : A -> bool) l : filter p (rev l) = rev (filter p l).
Proof.
  induction l; cbn; auto. rewrite filter_app, IHl. cbn. destruct (p a); cbn; auto. apply app_nil_r.
Qed.
Lemma split_unique (l1 l2 r1 r2 : list Z) k : NoDup (l1 ++ k :: r1) -> l1 ++ k :: r1 = l2 ++ k :: r2 -> l1 = l2 /\ r1 = r2.
Proof.
  revert l2. induction l1 as [|a l1 IH]; intros [|b l2] D E; cbn in *.
  - injection E as ->; auto.
  - injection E as -> E. exfalso. inversion D; subst. apply H1. apply in_or_app. right. now left.
  - injection E as -> E. exfalso. inversion D; subst. apply H1. apply in_or_app. right. now left.
  - injection E as -> E. inversion D; subst. destruct (IH l2) as [-> ->]; auto.
Qed.
Lemma filter_zr_split p k l r : filter p (zr 0 256) = l ++ k :: r -> filter p (zr 0 k) = l /\ filter p (zr (k + 1) 256) = r /\ p k = true /\ 0 <= k < 256.
Proof.
  intros H. assert (In k (filter p (zr 0 256))) as K by (rewrite H; apply in_elt).
  apply filter_In in K. rewrite zr_In in K. destruct K as [B P].
  pose proof (incr_NoDup _ (incr_filter p _ (zr_incr 0 256))) as D. rewrite H in D.
  rewrite (zr_app 0 k 256), (zr_cons k 256) in H by lia. rewrite filter_app in H. cbn in H. rewrite P in H.
  symmetry in H. destruct (split_unique _ _ _ _ _ D H) as [-> ->]. auto.
Qed.
Lemma find_next p k l r : filter p (zr 0 256) = l ++ k :: r -> find p (zr (k + 1) 256) = hd_error r.
Proof. intros H. apply filter_zr_split in H. rewrite find_filter. now destruct H as (_ & -> & _). Qed.
Lemma find_prev p k l r : filter p (zr 0 256) = l ++ k :: r -> find p (rev (zr 0 (Z.min k 256))) = hd_error (rev l).
Proof. intros H. apply filter_zr_split in H. rewrite find_filter, filter_rev'. destruct H as (E & _ & _ & B). rewrite Z.min_l by lia. now rewrite E. Qed.
Lemma find_lb p key l r : 0 <= key < 256 -> filter p (zr 0 256) = l ++ r -> (forall x, In x l -> x < key) -> (forall x, In x r -> key <= x) ->
  find p (zr key 256) = hd_error r.
Proof.
  intros B H L R. rewrite find_filter. f_equal. apply incr_ext.
  - apply incr_filter, zr_incr.
  - pose proof (incr_filter p _ (zr_incr 0 256)) as I. rewrite H in I. apply incr_app in I. tauto.
  - intros x. rewrite filter_In, zr_In. assert (In x (filter p (zr 0 256)) <-> In x l \/ In x r) as E by (rewrite H; apply in_app_iff).
    rewrite filter_In, zr_In in E. split.
    + intros [B1 P]. destruct (proj1 E) as [X|X]; auto; [split; auto; lia|]. apply L in X. lia.
    + intros X. pose proof (R _ X). destruct (proj2 E) as [X1 X2]; auto. split; auto. lia.
Qed.

(** ** Reading a node *)
(** the index an iterator frame holds for the child number [i] with chunk [k] *)
Definition idx_of (n : node) (i k : Z) : Z := match n with N4 _ _ | N16 _ _ => i | _ => k end.
Definition hd_kid (n : node) (i : Z) (l : list (Z * Z)) : ichild :=
  match l with [] => None | (k, c) :: _ => Some (c, idx_of n i k, k) end.

Lemma find_child_in n k c : wf n -> In (k, c) (kids n) -> art_find_child n k = c.
Proof.
  intros (_ & [I F] & W) H. destruct n as [| p kc | p kc | p ct av ks ch | p ct ch]; cbn in *; [tauto| | | |].
  1, 2: apply in_split in H; destruct H as (l1 & l2 & ->);
    assert (~ In k (map fst l1)) as N by (rewrite map_app in I; cbn in I; apply incr_app in I; destruct I as (_ & _ & I);
      intros Q; specialize (I k k Q (or_introl eq_refl)); lia);
    rewrite kidx_app by auto; pose proof (zlen_nonneg l1); replace (0 + zlen l1 =? -1) with false by lia;
    replace (0 + zlen l1) with (zlen l1) by lia; now rewrite knth_app.
  - apply n48_In in H. destruct H as (B & N & ->). unfold NODE48_EMPTY_VAL. now replace (znth ks k =? 48) with false by lia.
  - apply n256_In in H. destruct H as (B & N & ->). auto.
Qed.
Lemma find_child_out n k : wf n -> 0 <= k < 256 -> ~ In k (map fst (kids n)) -> art_find_child n k = 0.
Proof.
  intros (_ & [I F] & W) B H. destruct n as [| p kc | p kc | p ct av ks ch | p ct ch]; cbn in *; [tauto| | | |].
  1, 2: rewrite kidx_none by auto; reflexivity.
  - rewrite In_map_fst in H. destruct (Z.eqb_spec (znth ks k) NODE48_EMPTY_VAL) as [E|E]; auto. exfalso. apply H.
    exists (znth ch (znth ks k)). apply n48_In. auto.
  - rewrite In_map_fst in H. destruct (Z.eq_dec (znth ch k) 0) as [E|E]; auto. exfalso. apply H.
    exists (znth ch k). apply n256_In. auto.
Qed.

Lemma pairs_split p g l k c r : pairs_of p g = l ++ (k, c) :: r ->
  filter p (zr 0 256) = map fst l ++ k :: map fst r /\ c = g k /\ p k = true /\ 0 <= k < 256 /\ (forall x y, In (x, y) l \/ In (x, y) r -> y = g x).
Proof.
  intros H. rewrite <- (pairs_fst p g), H, map_app. cbn. split; auto.
  assert (In (k, c) (pairs_of p g)) as Q by (rewrite H; apply in_elt). apply pairs_In in Q. split; [tauto|]. split; [tauto|]. split; [tauto|].
  intros x y Hx. assert (In (x, y) (pairs_of p g)) as Q' by (rewrite H; apply in_or_app; cbn; tauto). apply pairs_In in Q'. tauto.
Qed.
Lemma hd_error_map_fst (l : list (Z * Z)) : hd_error (map fst l) = match l with [] => None | (k, _) :: _ => Some k end.
Proof. destruct l as [|[]]; auto. Qed.
Lemma rev_last_kid {A} (l : list A) : l = [] \/ exists l' x, l = l' ++ [x].
Proof. destruct l as [|a l]; auto. right. destruct (exists_last (l := a :: l)) as (l' & x & ->); [discriminate|eauto]. Qed.

Lemma next_child_at n l k c r : wf n -> kids n = l ++ (k, c) :: r ->
  art_node_next_child n (idx_of n (zlen l) k) = hd_kid n (zlen l + 1) r.
Proof.
  intros (_ & [I F] & W) E. destruct n as [| p kc | p kc | p ct av ks ch | p ct ch]; cbn in *; [tauto| | | |].
  1, 2: subst kc; rewrite zlen_app, zlen_cons; pose proof (zlen_nonneg r);
    destruct r as [|[k' c'] r]; [rewrite zlen_nil; replace (zlen l + (0 + 1) <=? zlen l + 1) with true by lia; reflexivity|];
    rewrite zlen_cons in *; pose proof (zlen_nonneg r); destruct (Z.leb_spec (zlen l + (zlen r + 1 + 1)) (zlen l + 1)); [lia|];
    unfold kchild; replace (l ++ (k, c) :: (k', c') :: r) with ((l ++ [(k, c)]) ++ (k', c') :: r) by (now rewrite <- app_assoc);
    replace (zlen l + 1) with (zlen (l ++ [(k, c)])) by (rewrite zlen_app; reflexivity); now rewrite knth_app.
  - rewrite n48_pairs_of in E. apply pairs_split in E. destruct E as (E & -> & P & B & G).
    unfold ofind. rewrite (find_next _ _ _ _ E). rewrite hd_error_map_fst. destruct r as [|[k' c'] r]; auto.
    cbn. unfold n48_at. rewrite (G k' c') by (right; now left). reflexivity.
  - rewrite n256_pairs_of in E. apply pairs_split in E. destruct E as (E & -> & P & B & G).
    unfold ofind. rewrite (find_next _ _ _ _ E). rewrite hd_error_map_fst. destruct r as [|[k' c'] r]; auto.
    cbn. unfold n256_at. rewrite (G k' c') by (right; now left). reflexivity.
Qed.
Lemma next_child_first n : wf n -> art_node_next_child n (-1) = hd_kid n 0 (kids n).
Proof.
  intros (_ & [I F] & W). destruct n as [| p kc | p kc | p ct av ks ch | p ct ch]; cbn [art_node_next_child kids]; [reflexivity| | | |].
  1, 2: change (-1 + 1) with 0; destruct kc as [|[k c] kc]; [reflexivity|]; rewrite zlen_cons; pose proof (zlen_nonneg kc);
    replace (zlen kc + 1 <=? 0) with false by lia; reflexivity.
  - rewrite n48_pairs_of. unfold ofind. change (-1 + 1) with 0. rewrite find_filter. unfold pairs_of.
    destruct (filter _ _); reflexivity.
  - rewrite n256_pairs_of. unfold ofind. change (-1 + 1) with 0. rewrite find_filter. unfold pairs_of.
    destruct (filter _ _); reflexivity.
Qed.
Definition last_kid (n : node) (l : list (Z * Z)) : ichild :=
  match rev l with [] => None | (k, c) :: t => Some (c, idx_of n (zlen t) k, k) end.
Lemma last_kid_snoc n l k c : last_kid n (l ++ [(k, c)]) = Some (c, idx_of n (zlen l) k, k).
Proof. unfold last_kid. rewrite rev_app_distr. cbn. now rewrite zlen_rev. Qed.
Lemma prev_child_at n l k c r : wf n -> kids n = l ++ (k, c) :: r ->
  art_node_prev_child n (idx_of n (zlen l) k) = last_kid n l.
Proof.
  intros (_ & [I F] & W) E.
  destruct n as [| p kc | p kc | p ct av ks ch | p ct ch]; cbn [kids] in E; cbn [idx_of art_node_prev_child]; [cbn in W; tauto| | | |].
  1, 2: subst kc; rewrite zlen_app, zlen_cons; pose proof (zlen_nonneg r); pose proof (zlen_nonneg l); rewrite Z.min_l by lia;
    destruct (rev_last_kid l) as [->|(l' & [k' c'] & ->)]; [reflexivity|]; rewrite last_kid_snoc; rewrite zlen_app;
    pose proof (zlen_nonneg l'); change (zlen [(k', c')]) with 1; replace (zlen l' + 1 - 1) with (zlen l') by lia;
    destruct (Z.ltb_spec (zlen l') 0); [lia|]; unfold kchild; rewrite <- app_assoc; cbn [app]; now rewrite knth_app.
  - rewrite n48_pairs_of in E. apply pairs_split in E. destruct E as (E & -> & P & B & G).
    unfold ofind. rewrite (find_prev _ _ _ _ E). destruct (rev_last_kid l) as [->|(l' & [k' c'] & ->)]; [reflexivity|].
    rewrite last_kid_snoc. rewrite map_app, rev_app_distr. cbn. unfold n48_at. rewrite (G k' c') by (left; apply in_elt). reflexivity.
  - rewrite n256_pairs_of in E. apply pairs_split in E. destruct E as (E & -> & P & B & G).
    unfold ofind. rewrite (find_prev _ _ _ _ E). destruct (rev_last_kid l) as [->|(l' & [k' c'] & ->)]; [reflexivity|].
    rewrite last_kid_snoc. rewrite map_app, rev_app_distr. cbn. unfold n256_at. rewrite (G k' c') by (left; apply in_elt). reflexivity.
Qed.
Lemma prev_child_last n : wf n -> art_node_prev_child n 256 = last_kid n (kids n).
Proof.
  intros (_ & [I F] & W). destruct n as [| p kc | p kc | p ct av ks ch | p ct ch]; cbn [kids art_node_prev_child]; [reflexivity| | | |].
  1, 2: cbn in W; rewrite Z.min_r by lia; destruct (rev_last_kid kc) as [->|(l' & [k' c'] & ->)]; [reflexivity|]; rewrite last_kid_snoc;
    rewrite zlen_app; pose proof (zlen_nonneg l'); change (zlen [(k', c')]) with 1; replace (zlen l' + 1 - 1) with (zlen l') by lia;
    destruct (Z.ltb_spec (zlen l') 0); [lia|]; unfold kchild; now rewrite knth_app.
  - unfold ofind. rewrite Z.min_id, find_filter, filter_rev'. rewrite n48_pairs_of. unfold last_kid, pairs_of. rewrite <- map_rev.
    destruct (rev (filter _ _)); reflexivity.
  - unfold ofind. rewrite Z.min_id, find_filter, filter_rev'. rewrite n256_pairs_of. unfold last_kid, pairs_of. rewrite <- map_rev.
    destruct (rev (filter _ _)); reflexivity.
Qed.
Lemma child_at_idx n l k c r : wf n -> kids n = l ++ (k, c) :: r ->
  art_node_child_at n (idx_of n (zlen l) k) = Some (c, idx_of n (zlen l) k, k).
Proof.
  intros (_ & [I F] & W) E.
  destruct n as [| p kc | p kc | p ct av ks ch | p ct ch]; cbn [kids] in E; cbn [idx_of art_node_child_at]; [cbn in W; tauto| | | |].
  1, 2: subst kc; rewrite zlen_app, zlen_cons; pose proof (zlen_nonneg r); pose proof (zlen_nonneg l);
    replace ((zlen l <? 0) || (zlen l + (zlen r + 1) <=? zlen l)) with false by lia; unfold kchild; now rewrite knth_app.
  - assert (In (k, c) (n48_pairs ks ch)) as Q by (rewrite E; apply in_elt). apply n48_In in Q. destruct Q as (B & N & ->).
    cbn in W. destruct W as (_ & _ & _ & W & _). specialize (W k B).
    replace ((k <? 0) || (256 <=? k) || (48 <=? znth ks k)) with false by lia. reflexivity.
  - assert (In (k, c) (n256_pairs ch)) as Q by (rewrite E; apply in_elt). apply n256_In in Q. destruct Q as (B & N & ->). unfold NULL_REF.
    replace ((k <? 0) || (256 <=? k) || (znth ch k =? 0)) with false by lia. reflexivity.
Qed.
Lemma lower_bound_kid n key l r : wf n -> 0 <= key < 256 -> kids n = l ++ r ->
  (forall x, In x (map fst l) -> x < key) -> (forall x, In x (map fst r) -> key <= x) ->
  art_node_lower_bound n key = hd_kid n (zlen l) r.
Proof.
  intros (_ & [I F] & W) B E L R.
  destruct n as [| p kc | p kc | p ct av ks ch | p ct ch]; cbn [kids] in E; cbn [idx_of art_node_lower_bound]; [cbn in W; tauto| | | |].
  1, 2: subst kc; rewrite klb_app by auto; destruct r as [|[k c] r]; reflexivity.
  - rewrite n48_pairs_of in E.
    assert (G : forall x y, In (x, y) r -> y = znth ch (znth ks x))
      by (intros x y Hx; assert (In (x, y) (l ++ r)) as Q by (apply in_or_app; auto); rewrite <- E in Q; apply pairs_In in Q; tauto).
    pose proof (f_equal (map fst) E) as E'. rewrite pairs_fst, map_app in E'.
    unfold ofind. rewrite (find_lb _ _ _ _ B E' L R), hd_error_map_fst. destruct r as [|[k c] r]; auto. cbn. unfold n48_at. rewrite (G k c) by now left. auto.
  - rewrite n256_pairs_of in E.
    assert (G : forall x y, In (x, y) r -> y = znth ch x)
      by (intros x y Hx; assert (In (x, y) (l ++ r)) as Q by (apply in_or_app; auto); rewrite <- E in Q; apply pairs_In in Q; tauto).
    pose proof (f_equal (map fst) E) as E'. rewrite pairs_fst, map_app in E'.
    unfold ofind. rewrite (find_lb _ _ _ _ B E' L R), hd_error_map_fst. destruct r as [|[k c] r]; auto. cbn. unfold n256_at. rewrite (G k c) by now left. auto.
Qed.
